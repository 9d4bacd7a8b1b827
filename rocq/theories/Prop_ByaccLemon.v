(** C51: the lemon grammar printed by byacc -E. *)
From Coq Require Import List Arith ZArith Lia Bool String.
Import ListNotations.
From Verif Require Import Base SpecGrammar SpecGrammarFacts LemonPreModel ByaccLr0Model SpecByacc ByaccPackProof ByaccLemonModel.
Open Scope res_scope.
Local Notation length := List.length.

(** * Names that are kept apart *)

(** Token names: upper-case identifiers, lower-case ones of at least two characters, identifiers that begin
    with an underscore, and literals of one character; no dots, and short enough for a char64_t. *)
Definition lit_ok (b : Z) : Prop := ((32 <= b <= 126 /\ b <> 39) \/ 9 <= b <= 13)%Z.
Inductive ok_token : list Z -> Prop :=
| okt_upper : forall c r, isupper c = true -> Forall (fun x => wordch x = true) r -> length (c :: r) <= 63 -> starts (zs "Tk_") (c :: r) = false -> ok_token (c :: r)
| okt_lower : forall c d r, islower c = true -> Forall (fun x => wordch x = true) (d :: r) -> length (c :: d :: r) <= 60 -> ok_token (c :: d :: r)
| okt_under : forall r, Forall (fun x => wordch x = true) r -> length (95%Z :: r) <= 60 -> ok_token (95%Z :: r)
| okt_lit : forall b, lit_ok b -> ok_token (literal_name [b]).

(** Nonterminal names. *)
Inductive ok_var : list Z -> Prop :=
| okv_lower : forall c r, islower c = true -> Forall (fun x => wordch x = true) r -> length (c :: r) <= 63 -> starts (zs "l_") (c :: r) = false -> starts (zs "z_") (c :: r) = false -> ok_var (c :: r)
| okv_upper : forall c r, isupper c = true -> Forall (fun x => wordch x = true) r -> length (c :: r) <= 61 -> ok_var (c :: r)
| okv_under : forall r, Forall (fun x => wordch x = true) r -> length (95%Z :: r) <= 62 -> ok_var (95%Z :: r).

Lemma upper_range : forall c, isupper c = true <-> (65 <= c <= 90)%Z.
Proof. intros c. unfold isupper. rewrite andb_true_iff, !Z.leb_le. reflexivity. Qed.
Lemma lower_range : forall c, islower c = true <-> (97 <= c <= 122)%Z.
Proof. intros c. unfold islower. rewrite andb_true_iff, !Z.leb_le. reflexivity. Qed.

Lemma upper_word : forall c, isupper c = true -> wordch c = true.
Proof. intros c H. apply upper_range in H. unfold wordch, isalnum, isalpha. replace ((65 <=? c) && (c <=? 90))%Z with true; [reflexivity|]. symmetry. apply andb_true_iff. rewrite !Z.leb_le. lia. Qed.
Lemma lower_word : forall c, islower c = true -> wordch c = true.
Proof. intros c H. apply lower_range in H. unfold wordch, isalnum, isalpha. replace ((97 <=? c) && (c <=? 122))%Z with true; [|symmetry; apply andb_true_iff; rewrite !Z.leb_le; lia]. now rewrite orb_true_r. Qed.

Lemma undot_word : forall l, Forall (fun x => wordch x = true) l -> undot l = l.
Proof.
  induction 1 as [|c l W F IH]; [reflexivity|]. cbn [undot map]. fold (undot l). rewrite IH. destruct (c =? 46)%Z eqn:E; [|reflexivity]. apply Z.eqb_eq in E. subst c. discriminate.
Qed.

Lemma char0 : forall c r, (0 <= c < 128)%Z -> char_at (c :: r) 0 = Ok c.
Proof. intros c r H. unfold char_at. cbn [length Nat.ltb Nat.leb nth]. replace (c <? 128)%Z with true by (symmetry; apply Z.ltb_lt; lia). reflexivity. Qed.

Definition Tk : list Z := zs "Tk_".

(** The literals, one by one. *)
Definition lits : list Z := map Z.of_nat (seq 9 5 ++ seq 32 7 ++ seq 40 87).
Lemma lit_in : forall b, lit_ok b -> In b lits.
Proof.
  intros b H. unfold lits. rewrite <- (Z2Nat.id b) by (destruct H; lia). apply in_map. rewrite !in_app_iff, !in_seq. destruct H; lia.
Qed.

Definition ascii (b : Z) : list Z := nth (Z.to_nat b) ygv_ascii_names_st [].

Fixpoint leqb (a b : list Z) : bool := match a, b with [], [] => true | x :: a', y :: b' => (x =? y)%Z && leqb a' b' | _, _ => false end.
Lemma leqb_eq : forall a b, leqb a b = true <-> a = b.
Proof.
  induction a as [|x a IH]; destruct b as [|y b]; cbn; try (split; [discriminate|discriminate]); [tauto|]. rewrite andb_true_iff, Z.eqb_eq, IH. split; [intros [-> ->]; reflexivity|intros E; inversion E; auto].
Qed.

Lemma lit_name : forall b, lit_ok b -> get_lemon_token_name (literal_name [b]) = Ok (Tk ++ ascii b).
Proof.
  intros b H. apply lit_in in H.
  assert (A : forallb (fun b => match get_lemon_token_name (literal_name [b]) with Ok x => leqb x (Tk ++ ascii b) | _ => false end) lits = true) by (vm_compute; reflexivity).
  rewrite forallb_forall in A. specialize (A b H). destruct (get_lemon_token_name (literal_name [b])); try discriminate. apply leqb_eq in A. now subst.
Qed.

Lemma lit_inj : forall a b, lit_ok a -> lit_ok b -> ascii a = ascii b -> a = b.
Proof.
  intros a b A B E. apply lit_in in A, B.
  assert (X : forallb (fun a => forallb (fun b => implb (leqb (ascii a) (ascii b)) (a =? b)%Z) lits) lits = true) by (vm_compute; reflexivity).
  rewrite forallb_forall in X. specialize (X a A). rewrite forallb_forall in X. specialize (X b B). rewrite (proj2 (leqb_eq _ _) E) in X. now apply Z.eqb_eq.
Qed.

(** No name of a literal begins with an underscore, and those that begin with a lower-case letter have one letter. *)
Lemma lit_shape : forall b, lit_ok b -> match ascii b with c :: d :: r => islower c = false /\ c <> 95%Z | [c] => c <> 95%Z | [] => False end.
Proof.
  intros b H. apply lit_in in H.
  assert (X : forallb (fun b => match ascii b with c :: d :: r => negb (islower c) && negb (c =? 95)%Z | [c] => negb (c =? 95)%Z | [] => false end) lits = true) by (vm_compute; reflexivity).
  rewrite forallb_forall in X. specialize (X b H). destruct (ascii b) as [|c [|d r]]; [discriminate| |].
  - apply negb_true_iff, Z.eqb_neq in X. exact X.
  - apply andb_true_iff in X as (X1 & X2). apply negb_true_iff in X1, X2. apply Z.eqb_neq in X2. auto.
Qed.

(** The printed form of a token name. *)
Lemma token_upper : forall c r, isupper c = true -> Forall (fun x => wordch x = true) r -> length (c :: r) <= 63 -> get_lemon_token_name (c :: r) = Ok (c :: r).
Proof.
  intros c r U F L. assert (U' := U). apply upper_range in U. unfold get_lemon_token_name. rewrite char0 by lia. cbn [bind].
  replace (c =? 39)%Z with false by (symmetry; apply Z.eqb_neq; lia). replace (c =? 34)%Z with false by (symmetry; apply Z.eqb_neq; lia).
  replace (c =? 46)%Z with false by (symmetry; apply Z.eqb_neq; lia). replace (c =? 95)%Z with false by (symmetry; apply Z.eqb_neq; lia). cbn [orb].
  assert (NL : islower c = false). { destruct (islower c) eqn:E; [|reflexivity]. apply lower_range in E. lia. } rewrite NL. cbn [bind]. unfold snp. rewrite firstn_all2 by exact L.
  rewrite undot_word by (constructor; auto using upper_word). reflexivity.
Qed.

Lemma tk_word : Forall (fun x => wordch x = true) Tk.
Proof. repeat constructor. Qed.

Lemma token_lower : forall c r, islower c = true -> Forall (fun x => wordch x = true) r -> length (c :: r) <= 60 -> get_lemon_token_name (c :: r) = Ok (Tk ++ c :: r).
Proof.
  intros c r U F L. assert (U' := U). apply lower_range in U. unfold get_lemon_token_name. rewrite char0 by lia. cbn [bind].
  replace (c =? 39)%Z with false by (symmetry; apply Z.eqb_neq; lia). replace (c =? 34)%Z with false by (symmetry; apply Z.eqb_neq; lia).
  replace (c =? 46)%Z with false by (symmetry; apply Z.eqb_neq; lia). replace (c =? 95)%Z with false by (symmetry; apply Z.eqb_neq; lia). cbn [orb]. rewrite U'. cbn [bind].
  unfold snp. fold Tk. rewrite firstn_all2 by (rewrite app_length; change (length Tk) with 3; lia).
  rewrite undot_word by (apply Forall_app; split; [apply tk_word|constructor; auto using lower_word]). reflexivity.
Qed.

Lemma token_under : forall r, Forall (fun x => wordch x = true) r -> length (95%Z :: r) <= 60 -> get_lemon_token_name (95%Z :: r) = Ok (Tk ++ 95%Z :: r).
Proof.
  intros r F L. unfold get_lemon_token_name. rewrite char0 by lia. cbn [bind Z.eqb Pos.eqb orb].
  unfold snp. fold Tk. rewrite firstn_all2 by (rewrite app_length; change (length Tk) with 3; lia). change (upd (Tk ++ 95%Z :: r) 3 95%Z) with (Tk ++ 95%Z :: r).
  rewrite undot_word by (apply Forall_app; split; [apply tk_word|constructor; auto]). reflexivity.
Qed.

Lemma token_form : forall n, ok_token n ->
  (get_lemon_token_name n = Ok n /\ starts Tk n = false /\ (exists c r, n = c :: r /\ isupper c = true)) \/
  (get_lemon_token_name n = Ok (Tk ++ n) /\ match n with c :: d :: r => islower c = true \/ c = 95%Z | [c] => c = 95%Z | [] => False end) \/
  (exists b, lit_ok b /\ n = literal_name [b] /\ get_lemon_token_name n = Ok (Tk ++ ascii b)).
Proof.
  intros n H. inversion H as [c r U F L S|c d r U F L|r F L|b B]; subst.
  - left. split; [now apply token_upper|]. split; [exact S|eauto].
  - right. left. split; [now apply token_lower|now left].
  - right. left. split; [now apply token_under|]. destruct r; [reflexivity|now right].
  - right. right. exists b. split; [exact B|]. split; [reflexivity|now apply lit_name].
Qed.

Lemma starts_app : forall l r, starts l (l ++ r) = true.
Proof. induction l as [|c l IH]; intros r; cbn; [reflexivity|]. now rewrite Z.eqb_refl, IH. Qed.

Lemma ok_inj : forall {A} (x y : A), Ok x = Ok y -> x = y.
Proof. intros A x y E. now injection E. Qed.

Lemma token_inj : forall a b x, ok_token a -> ok_token b -> get_lemon_token_name a = Ok x -> get_lemon_token_name b = Ok x -> a = b.
Proof.
  intros a b x A B EA EB.
  destruct (token_form a A) as [(PA & SA & _)|[(PA & SA)|(i & IA & -> & PA)]]; rewrite PA in EA; apply ok_inj in EA; subst x;
  destruct (token_form b B) as [(PB & SB & _)|[(PB & SB)|(j & IB & -> & PB)]]; rewrite PB in EB; apply ok_inj in EB; subst.
  - reflexivity.
  - rewrite starts_app in SA. discriminate.
  - rewrite starts_app in SA. discriminate.
  - rewrite starts_app in SB. discriminate.
  - now apply app_inv_head in EB.
  - apply app_inv_head in EB. exfalso. pose proof (lit_shape j IB) as Q. rewrite EB in Q. destruct a as [|c [|d r]]; [exact Q|contradiction|]. destruct Q as (Q1 & Q2). destruct SA; congruence.
  - rewrite starts_app in SB. discriminate.
  - apply app_inv_head in EB. exfalso. pose proof (lit_shape i IA) as Q. rewrite <- EB in Q. destruct b as [|c [|d r]]; [exact Q|contradiction|]. destruct Q as (Q1 & Q2). destruct SB; congruence.
  - apply app_inv_head in EB. now rewrite (lit_inj j i IB IA EB).
Qed.

(** The printed form of a nonterminal name. *)
Lemma var_form : forall n, ok_var n ->
  (get_lemon_rule_name n = Ok n /\ starts (zs "l_") n = false /\ starts (zs "z_") n = false /\ (exists c r, n = c :: r /\ islower c = true)) \/
  get_lemon_rule_name n = Ok (zs "l_" ++ n) \/
  (get_lemon_rule_name n = Ok (zs "z" ++ n) /\ exists r, n = 95%Z :: r).
Proof.
  intros n H. inversion H as [c r U F L S1 S2|c r U F L|r F L]; subst.
  - left. split; [|split; [exact S1|split; [exact S2|eauto]]]. assert (U' := U). apply lower_range in U. unfold get_lemon_rule_name. rewrite char0 by lia. cbn [bind].
    replace (c =? 46)%Z with false by (symmetry; apply Z.eqb_neq; lia). replace (c =? 95)%Z with false by (symmetry; apply Z.eqb_neq; lia).
    assert (NL : isupper c = false). { destruct (isupper c) eqn:E; [|reflexivity]. apply upper_range in E. lia. } rewrite NL. unfold snp. rewrite firstn_all2 by exact L.
    rewrite undot_word by (constructor; auto using lower_word). reflexivity.
  - right. left. assert (U' := U). apply upper_range in U. unfold get_lemon_rule_name. rewrite char0 by lia. cbn [bind].
    replace (c =? 46)%Z with false by (symmetry; apply Z.eqb_neq; lia). replace (c =? 95)%Z with false by (symmetry; apply Z.eqb_neq; lia). rewrite U'. unfold snp.
    rewrite firstn_all2 by (rewrite app_length; change (length (zs "l_")) with 2; lia).
    rewrite undot_word by (apply Forall_app; split; [repeat constructor|constructor; auto using upper_word]). reflexivity.
  - right. right. split; [|eauto]. unfold get_lemon_rule_name. rewrite char0 by lia. cbn [bind Z.eqb Pos.eqb]. unfold snp.
    rewrite firstn_all2 by (rewrite app_length; change (length (zs "z")) with 1; lia).
    rewrite undot_word by (apply Forall_app; split; [repeat constructor|constructor; auto]). reflexivity.
Qed.

Lemma var_inj : forall a b x, ok_var a -> ok_var b -> get_lemon_rule_name a = Ok x -> get_lemon_rule_name b = Ok x -> a = b.
Proof.
  intros a b x A B EA EB.
  destruct (var_form a A) as [(PA & SA & TA & _)|[PA|(PA & ra & RA)]]; rewrite PA in EA; apply ok_inj in EA; subst x;
  destruct (var_form b B) as [(PB & SB & TB & _)|[PB|(PB & rb & RB)]]; rewrite PB in EB; apply ok_inj in EB; subst; try reflexivity.
  - rewrite starts_app in SA. discriminate.
  - cbn in TA. discriminate.
  - rewrite starts_app in SB. discriminate.
  - now apply app_inv_head in EB.
  - cbn in EB. discriminate.
  - cbn in TB. discriminate.
  - cbn in EB. discriminate.
  - now apply app_inv_head in EB.
Qed.

(** lemon takes a symbol for a terminal when its name begins with an upper-case letter
    (lemon/lemon.c:5963). *)
Definition upper_first (n : list Z) : Prop := exists c r, n = c :: r /\ isupper c = true.

Lemma token_upper_first : forall n, ok_token n -> exists x, get_lemon_token_name n = Ok x /\ upper_first x.
Proof.
  intros n H. destruct (token_form n H) as [(P & _ & U)|[(P & _)|(b & _ & _ & P)]]; eexists; (split; [exact P|]); [exact U| |]; (exists 84%Z; eexists; split; [reflexivity|reflexivity]).
Qed.

Lemma var_lower_first : forall n, ok_var n -> exists x, get_lemon_rule_name n = Ok x /\ ~ upper_first x.
Proof.
  intros n H. destruct (var_form n H) as [(P & _ & _ & c & r & -> & U)|[P|(P & r & ->)]]; eexists; (split; [exact P|]); intros (c' & r' & E & U'); cbn in E; injection E as E1 E2; subst c'.
  - apply lower_range in U. apply upper_range in U'. lia.
  - discriminate.
  - discriminate.
Qed.

(** * The language *)

(** Derivations with the printed rules. *)
Inductive tstep (rs : list (list Z * list (list Z))) : list (list Z) -> list (list Z) -> Prop :=
| tstep_rule : forall u v h r, In (h, r) rs -> tstep rs (u ++ h :: v) (u ++ r ++ v).
Definition tderives (rs : list (list Z * list (list Z))) := star (tstep rs).

Section Language.
Variable name : nat -> list Z.
Variable s : bsrc.
Hypothesis W : wf_src s.
Local Notation nt := (b_ntokens s).
Local Notation b := (pack_grammar s).
Local Notation dol x := (dollar (name x)).

(** A symbol whose name begins with $ is $accept, $end or the symbol of an action inside a rule. *)
Hypothesis DA : dol nt = true.
Hypothesis DL : forall l r, In (l, r) (b_rules s) -> dol l = true -> r = [].
Hypothesis DR : forall l r x, In (l, r) (b_rules s) -> In x r -> dol x = true -> nt < x /\ In (x, []) (b_rules s).
Hypothesis DG : dol (S nt) = false.
Hypothesis NT : forall x, x < nt -> dol x = false -> ok_token (name x).
Hypothesis NV : forall x, nt <= x < b_nsyms s -> dol x = false -> ok_var (name x).
Hypothesis ND : forall x y, x < b_nsyms s -> y < b_nsyms s -> (x < nt <-> y < nt) -> dol x = false -> dol y = false -> name x = name y -> x = y.

Lemma ntok : ntokens b = nt.
Proof. apply b_ntok. Qed.

Definition nm (x : nat) : list Z := match lemon_sym name b x with Ok y => y | _ => [] end.

Lemma sym_ok : forall x, x < b_nsyms s -> dol x = false -> lemon_sym name b x = Ok (nm x).
Proof.
  intros x L D. unfold nm, lemon_sym. rewrite ntok. destruct (x <? nt) eqn:E.
  - apply Nat.ltb_lt in E. destruct (token_upper_first _ (NT x E D)) as (y & -> & _). reflexivity.
  - apply Nat.ltb_ge in E. destruct (var_lower_first _ (NV x (conj E L) D)) as (y & -> & _). reflexivity.
Qed.

Lemma nm_term : forall x, x < b_nsyms s -> dol x = false -> (upper_first (nm x) <-> x < nt).
Proof.
  intros x L D. unfold nm, lemon_sym. rewrite ntok. destruct (x <? nt) eqn:E.
  - apply Nat.ltb_lt in E. destruct (token_upper_first _ (NT x E D)) as (y & -> & U). tauto.
  - apply Nat.ltb_ge in E. destruct (var_lower_first _ (NV x (conj E L) D)) as (y & -> & U). split; [contradiction|lia].
Qed.

Lemma nm_inj : forall x y, x < b_nsyms s -> y < b_nsyms s -> dol x = false -> dol y = false -> nm x = nm y -> x = y.
Proof.
  intros x y LX LY DX DY E. assert (K : x < nt <-> y < nt) by (rewrite <- nm_term, <- nm_term by assumption; now rewrite E).
  apply ND; auto. pose proof (sym_ok x LX DX) as SX. pose proof (sym_ok y LY DY) as SY. rewrite E in SX. unfold lemon_sym in *. rewrite ntok in *.
  destruct (x <? nt) eqn:EX.
  - apply Nat.ltb_lt in EX. assert (EY : y < nt) by tauto. replace (y <? nt) with true in SY by (symmetry; now apply Nat.ltb_lt). eapply token_inj; eauto.
  - apply Nat.ltb_ge in EX. assert (EY : nt <= y) by lia. replace (y <? nt) with false in SY by (symmetry; now apply Nat.ltb_ge). eapply var_inj; eauto.
Qed.

Definition keep (l : list nat) : list nat := filter (fun x => negb (dol x)) l.

Lemma print_items_ok : forall r z rest skip, (z < 0)%Z -> (skip = false -> forall x, In x r -> x < b_nsyms s) ->
  print_items name b skip (map Z.of_nat r ++ z :: rest) = Ok (if skip then [] else map nm (keep r), z :: rest).
Proof.
  intros r z rest skip Z0. induction r as [|x r IH]; intros H; cbn [map app print_items].
  - replace (0 <=? z)%Z with false by (symmetry; apply Z.leb_gt; lia). destruct skip; reflexivity.
  - replace (0 <=? Z.of_nat x)%Z with true by (symmetry; apply Z.leb_le; lia). rewrite Nat2Z.id. rewrite IH by (intros S y I; apply H; [exact S|now right]).
    destruct skip; cbn [orb bind fst snd app]; [reflexivity|]. cbn [keep filter]. destruct (dol x) eqn:D; cbn [negb bind fst snd app]; [reflexivity|].
    rewrite sym_ok; [reflexivity|apply H; [reflexivity|now left]|exact D].
Qed.

(** The rules that are printed. *)
Definition out_of (rs : list (nat * list nat)) : list (list Z * list (list Z)) :=
  flat_map (fun p => if dol (fst p) then [] else [(nm (fst p), map nm (keep (snd p)))]) rs.

Lemma print_rules_ok : forall rs i j it ls os, pack_rules i j rs = (it, ls, os) -> 2 < i -> (forall l r, In (l, r) rs -> In (l, r) (b_rules s)) ->
  print_rules name b i ls it = Ok (out_of rs).
Proof.
  induction rs as [|(l, r) rs IH]; intros i j it ls os E I2 H; cbn [pack_rules] in E.
  - injection E as <- <- <-. reflexivity.
  - destruct (pack_rules (S i) (S (j + length r)) rs) as ((it', ls'), os') eqn:P. injection E as <- <- <-. cbn [print_rules]. 
    pose proof (H l r (or_introl eq_refl)) as IN. destruct (ws_rules s W l r IN) as (LR & RR).
    replace (i =? 2) with false by (symmetry; apply Nat.eqb_neq; lia).
    rewrite print_items_ok; [|lia|intros _ x I; now apply RR in I]. cbn [bind snd tl fst].
    rewrite (IH _ _ _ _ _ P) by (try lia; intros l' r' I; apply H; now right).
    cbn [out_of flat_map fst snd]. destruct (dol l) eqn:D; cbn [bind app]; [reflexivity|].
    pose proof (sym_ok l ltac:(lia) D) as SL. unfold lemon_sym in SL. rewrite ntok in SL. replace (l <? nt) with false in SL by (symmetry; apply Nat.ltb_ge; lia). rewrite SL. reflexivity.
Qed.

Lemma print_ok : print_grammar_lemon name b (S nt) = Ok (nm (S nt), out_of (b_rules s)).
Proof.
  unfold print_grammar_lemon. pose proof (ws_goal s W) as GL. pose proof (sym_ok (S nt) GL DG) as SG. unfold lemon_sym in SG. rewrite ntok in SG.
  replace (S nt <? nt) with false in SG by (symmetry; apply Nat.ltb_ge; lia). rewrite SG. cbn [bind].
  unfold pack_grammar. destruct (pack_rules 3 4 (b_rules s)) as ((it, ls), os) eqn:P. cbn [rlhs ritem skipn print_rules].
  change (name (b_ntokens s)) with (name nt). rewrite DA. cbn [bind].
  pose proof (print_items_ok [S nt; 0] (-2)%Z it true ltac:(lia) ltac:(discriminate)) as A. cbn [map app] in A. unfold pack_grammar in A. rewrite P in A.
  change (Z.of_nat 0) with 0%Z in A. rewrite A. cbn [bind snd tl fst].
  pose proof (print_rules_ok (b_rules s) 3 4 it ls os P ltac:(lia) ltac:(auto)) as B. unfold pack_grammar in B. rewrite P in B. rewrite B. reflexivity.
Qed.

Lemma out_in : forall l r, In (l, r) (b_rules s) -> dol l = false -> In (nm l, map nm (keep r)) (out_of (b_rules s)).
Proof. intros l r I D. unfold out_of. apply in_flat_map. exists (l, r). split; [exact I|]. cbn [fst snd]. rewrite D. now left. Qed.

Lemma out_inv : forall h t, In (h, t) (out_of (b_rules s)) -> exists l r, In (l, r) (b_rules s) /\ dol l = false /\ h = nm l /\ t = map nm (keep r).
Proof.
  intros h t I. unfold out_of in I. apply in_flat_map in I as ((l, r) & I & J). cbn [fst snd] in J. destruct (dol l) eqn:D; [destruct J|]. destruct J as [J|[]]. injection J as <- <-. eauto 6.
Qed.

Lemma keep_app : forall u v, keep (u ++ v) = keep u ++ keep v.
Proof. intros. apply filter_app. Qed.

(** Forms of symbols. *)
Lemma form_split : forall f u v l, map ESym f = u ++ ESym l :: v -> exists f1 f2, f = f1 ++ l :: f2 /\ u = map ESym f1 /\ v = map ESym f2.
Proof.
  induction f as [|x f IH]; intros u v l E; [destruct u; discriminate|]. destruct u as [|y u]; cbn in E.
  - injection E as -> <-. exists [], f. auto.
  - injection E as <- E. destruct (IH u v l E) as (f1 & f2 & -> & -> & ->). exists (x :: f1), f2. auto.
Qed.

Lemma step_form : forall f w, step (user s) (map ESym f) w -> exists f1 f2 l r, f = f1 ++ l :: f2 /\ In (l, r) (b_rules s) /\ w = map ESym (f1 ++ r ++ f2).
Proof.
  intros f w S. inversion S as [u v rl I E1 E2|u v l t I E1 E2].
  - cbn in I. apply in_map_iff in I as ((l, r) & <- & I). unfold spec_rule in *. cbn [r_lhs r_rhs fst snd] in *. symmetry in E1. apply form_split in E1 as (f1 & f2 & -> & -> & ->).
    exists f1, f2, l, r. split; [reflexivity|]. split; [exact I|]. now rewrite !map_app.
  - exfalso. assert (J : In (EMulti l) (map ESym f)) by (rewrite <- E1; apply in_elt). apply in_map_iff in J as (x & J & _). discriminate.
Qed.

Lemma forward : forall u w, derives (user s) u w -> forall f f', u = map ESym f -> w = map ESym f' -> tderives (out_of (b_rules s)) (map nm (keep f)) (map nm (keep f')).
Proof.
  intros u w D. induction D as [u|u v w S D IH]; intros f f' EU EW.
  - subst u. assert (f' = f) as ->. { clear -EW. revert f' EW. induction f as [|x f IH]; intros [|y f'] E; cbn in E; try discriminate; [reflexivity|]. injection E as -> E. f_equal. auto. } apply star_refl.
  - subst u. apply step_form in S as (f1 & f2 & l & r & -> & I & ->). specialize (IH _ f' eq_refl EW). rewrite !keep_app in *. cbn [keep filter]. fold (keep f2).
    destruct (dol l) eqn:DLL; cbn [negb].
    + rewrite (DL l r I DLL) in IH. exact IH.
    + eapply star_step; [|exact IH]. rewrite !map_app. cbn [map]. apply tstep_rule. now apply out_in.
Qed.

Lemma drop_dollar : forall r l u v, In (l, r) (b_rules s) -> derives (user s) (u ++ map ESym r ++ v) (u ++ map ESym (keep r) ++ v).
Proof.
  intros r l u v I. assert (H : forall x, In x r -> dol x = true -> In (x, []) (b_rules s)) by (intros x J D; now destruct (DR l r x I J D)).
  clear I. revert u H. induction r as [|x r IH]; intros u H; [apply star_refl|]. cbn [keep filter]. fold (keep r). destruct (dol x) eqn:D; cbn [negb map app].
  - eapply star_step.
    + change (ESym x) with (ESym (r_lhs (spec_rule (x, [])))). apply step_rule. cbn. apply in_map. apply H; [now left|exact D].
    + cbn [spec_rule r_rhs snd map app]. apply IH. intros y J. apply H. now right.
  - specialize (IH (u ++ [ESym x])). rewrite <- !app_assoc in IH. apply IH. intros y J. apply H. now right.
Qed.

Lemma map_split : forall f u v h, map nm f = u ++ h :: v -> exists f1 x f2, f = f1 ++ x :: f2 /\ u = map nm f1 /\ h = nm x /\ v = map nm f2.
Proof.
  induction f as [|x f IH]; intros u v h E; [destruct u; discriminate|]. destruct u as [|y u]; cbn in E.
  - injection E as <- <-. exists [], x, f. auto.
  - injection E as <- E. destruct (IH u v h E) as (f1 & x' & f2 & -> & -> & -> & ->). exists (x :: f1), x', f2. auto.
Qed.

Definition good (f : list nat) : Prop := Forall (fun x => x < b_nsyms s /\ dol x = false) f.

Lemma keep_good : forall l r, In (l, r) (b_rules s) -> good (keep r).
Proof.
  intros l r I. apply Forall_forall. intros x J. apply filter_In in J as (J & D). apply negb_true_iff in D. destruct (ws_rules s W l r I) as (_ & RR). apply RR in J. split; [lia|exact D].
Qed.

Lemma backward : forall u w, tderives (out_of (b_rules s)) u w -> forall f, u = map nm f -> good f -> exists f', w = map nm f' /\ good f' /\ derives (user s) (map ESym f) (map ESym f').
Proof.
  intros u w D. induction D as [u|u v w S D IH]; intros f EU G.
  - exists f. split; [exact EU|]. split; [exact G|apply star_refl].
  - inversion S as [a c h r I E1 E2]. subst v. rewrite EU in E1. symmetry in E1. apply map_split in E1 as (f1 & x & f2 & -> & -> & -> & ->).
    apply out_inv in I as (l & r' & I & D' & E & ->). unfold good in G. apply Forall_app in G as (G1 & G). inversion G as [|? ? (LX & DX) G2]; subst.
    destruct (ws_rules s W l r' I) as (LL & _). apply nm_inj in E; [|exact LX|lia|exact DX|exact D']. subst x.
    destruct (IH (f1 ++ keep r' ++ f2)) as (f' & -> & G' & D2).
    + now rewrite !map_app.
    + unfold good. apply Forall_app. split; [exact G1|]. apply Forall_app. split; [eapply keep_good; eauto|exact G2].
    + exists f'. split; [reflexivity|]. split; [exact G'|]. eapply star_trans; [|exact D2]. rewrite !map_app. cbn [map].
      eapply star_step; [|eapply drop_dollar; eauto].
      change (ESym l) with (ESym (r_lhs (spec_rule (l, r')))). change (map ESym r') with (r_rhs (spec_rule (l, r'))). apply step_rule. cbn. now apply in_map.
Qed.

End Language.

(** What is assumed of the symbol names.  The names that begin with $ are $accept and those of actions inside rules
    (no token with such a name is used); the other names are of the classes above and, as in
    byacc's symbol table, different. *)
Record names_ok (name : nat -> list Z) (s : bsrc) : Prop := {
  no_accept : dollar (name (b_ntokens s)) = true;
  no_lhs : forall l r, In (l, r) (b_rules s) -> dollar (name l) = true -> r = [];
  no_rhs : forall l r x, In (l, r) (b_rules s) -> In x r -> dollar (name x) = true -> b_ntokens s < x /\ In (x, []) (b_rules s);
  no_goal : dollar (name (S (b_ntokens s))) = false;
  no_tok : forall x, x < b_ntokens s -> dollar (name x) = false -> ok_token (name x);
  no_var : forall x, b_ntokens s <= x < b_nsyms s -> dollar (name x) = false -> ok_var (name x);
  no_diff : forall x y, x < b_nsyms s -> y < b_nsyms s -> name x = name y -> x = y
}.

(** * Theorems *)

(** Different names of the classes above are printed as different names, and tokens never as nonterminals. *)
Theorem C51_symbols_partial :
  (forall a, ok_token a -> exists x, get_lemon_token_name a = Ok x /\ upper_first x) /\
  (forall a, ok_var a -> exists x, get_lemon_rule_name a = Ok x /\ ~ upper_first x) /\
  (forall a b x, ok_token a -> ok_token b -> get_lemon_token_name a = Ok x -> get_lemon_token_name b = Ok x -> a = b) /\
  (forall a b x, ok_var a -> ok_var b -> get_lemon_rule_name a = Ok x -> get_lemon_rule_name b = Ok x -> a = b) /\
  (forall a b x, ok_token a -> ok_var b -> get_lemon_token_name a = Ok x -> get_lemon_rule_name b <> Ok x).
Proof.
  split; [exact token_upper_first|]. split; [exact var_lower_first|]. split; [exact token_inj|]. split; [exact var_inj|].
  intros a b x A B EA EB. destruct (token_upper_first a A) as (y & EY & U). destruct (var_lower_first b B) as (z & EZ & N). congruence.
Qed.

(** The printed grammar has the same language up to the renaming: the strings of terminals (names that begin with an
    upper-case letter) that its start symbol derives are exactly the renamed sentences. *)
Theorem C51_language_partial : forall name s, wf_src s -> names_ok name s ->
  exists start rs tn, print_grammar_lemon name (pack_grammar s) (S (b_ntokens s)) = Ok (start, rs) /\
    (forall x, x < b_ntokens s -> dollar (name x) = false -> get_lemon_token_name (name x) = Ok (tn x)) /\
    (forall x y, x < b_ntokens s -> y < b_ntokens s -> dollar (name x) = false -> dollar (name y) = false -> tn x = tn y -> x = y) /\
    (forall w, sentence (user s) w -> tderives rs [start] (map tn w)) /\
    (forall v, Forall upper_first v -> tderives rs [start] v -> exists w, v = map tn w /\ sentence (user s) w).
Proof.
  intros name s W [A L R G T V D].
  assert (D' : forall x y, x < b_nsyms s -> y < b_nsyms s -> (x < b_ntokens s <-> y < b_ntokens s) -> dollar (name x) = false -> dollar (name y) = false -> name x = name y -> x = y) by auto.
  pose proof (ws_goal s W) as GL.
  exists (nm name s (S (b_ntokens s))), (out_of name s (b_rules s)), (nm name s).
  split; [now apply print_ok|]. split; [|split; [|split]].
  - intros x X DX. pose proof (sym_ok name s T V x ltac:(lia) DX) as SX. unfold lemon_sym in SX. rewrite ntok in SX. apply Nat.ltb_lt in X. now rewrite X in SX.
  - intros x y X Y DX DY. apply (nm_inj name s T V D'); auto; lia.
  - intros w (F & SD). pose proof (forward name s L _ _ SD [S (b_ntokens s)] w eq_refl eq_refl) as FW. cbn [keep filter] in FW. rewrite G in FW. cbn [negb map] in FW.
    replace (keep name w) with w in FW; [exact FW|]. symmetry.
    assert (KW : Forall (fun x => dollar (name x) = false) w).
    { apply Forall_forall. intros x I. destruct (dollar (name x)) eqn:DX; [|reflexivity]. exfalso.
      (* a $ symbol in a sentence would be a token in a rule *)
      assert (INV : forall u v, derives (user s) u v -> forall f, u = map ESym f -> (forall x, In x f -> dollar (name x) = true -> b_ntokens s < x) -> forall f', v = map ESym f' -> forall x, In x f' -> dollar (name x) = true -> b_ntokens s < x).
      { intros u v DV. induction DV as [u|u m v ST DV IH]; intros f EF HF f' EF'.
        - subst u. assert (f' = f) as ->; [|exact HF]. clear -EF'. revert f' EF'. induction f as [|z f IH]; intros [|y f'] E; cbn in E; try discriminate; [reflexivity|]. injection E as -> E. f_equal. auto.
        - subst u. apply step_form in ST as (f1 & f2 & l & r & -> & IR & ->). eapply IH; [reflexivity| |exact EF'].
          intros z J DZ. apply in_app_iff in J as [J|J]; [apply HF; [apply in_app_iff; now left|exact DZ]|]. apply in_app_iff in J as [J|J]; [now destruct (R l r z IR J DZ)|]. apply HF; [apply in_app_iff; right; now right|exact DZ]. }
      assert (B : b_ntokens s < x). { eapply (INV _ _ SD [S (b_ntokens s)]); [reflexivity| |reflexivity|exact I|exact DX]. intros z [<-|[]] DZ. congruence. }
      rewrite Forall_forall in F. specialize (F x I). unfold is_term in F. cbn in F. lia. }
    clear -KW. induction KW as [|x w K KW IH]; [reflexivity|]. cbn [keep filter]. rewrite K. cbn [negb]. f_equal. exact IH.
  - intros v U TD. destruct (backward name s W R T V D' _ _ TD [S (b_ntokens s)]) as (f & -> & GF & DF); [reflexivity|constructor; [split; [exact GL|exact G]|constructor]|].
    exists f. split; [reflexivity|]. split; [|exact DF]. apply Forall_forall. intros x I. unfold is_term. cbn. unfold good in GF. rewrite Forall_forall in GF, U. destruct (GF x I) as (LX & DX).
    apply (nm_term name s T V x LX DX). apply U. now apply in_map.
Qed.

(** Tokens $end, error, NUM and '+'; $accept, the goal list with an action in the middle of a rule, item. *)
Definition ex51_names (x : nat) : list Z := nth x [zs "$end"; zs "error"; zs "NUM"; literal_name [43%Z]; zs "$accept"; zs "list"; zs "$$1"; zs "Item"] [].
Definition ex51 : bsrc := mkSrc 4 8 [(5, [7]); (6, []); (5, [5; 3; 6; 7]); (7, [2])].
Example C51_example : wf_src ex51 /\ names_ok ex51_names ex51 /\
  print_grammar_lemon ex51_names (pack_grammar ex51) 5 =
    Ok (zs "list", [(zs "list", [zs "l_Item"]); (zs "list", [zs "list"; zs "Tk_PLUS"; zs "l_Item"]); (zs "l_Item", [zs "NUM"])]).
Proof.
  split; [apply wf_srcb_ok; reflexivity|]. split; [|vm_compute; reflexivity]. constructor.
  - reflexivity.
  - intros l r I D. cbn in I. destruct I as [E|[E|[E|[E|[]]]]]; injection E as <- <-; vm_compute in D; try discriminate; reflexivity.
  - intros l r x I J D. cbn in I. destruct I as [E|[E|[E|[E|[]]]]]; injection E as <- <-; cbn in J; repeat (destruct J as [<-|J]; [vm_compute in D; try discriminate; cbn; auto 6 with arith|]); destruct J.
  - reflexivity.
  - intros x L D. cbn in L. destruct x as [|[|[|[|x]]]]; [discriminate| | | |lia].
    + apply okt_lower; [reflexivity|repeat constructor|cbn; lia].
    + apply okt_upper; [reflexivity|repeat constructor|cbn; lia|reflexivity].
    + apply okt_lit. unfold lit_ok. lia.
  - intros x L D. cbn in L. destruct x as [|[|[|[|[|[|[|[|x]]]]]]]]; try lia; try discriminate.
    + apply okv_lower; try reflexivity; [repeat constructor|cbn; lia].
    + apply okv_upper; try reflexivity; [repeat constructor|cbn; lia].
  - intros x y LX LY E. cbn in LX, LY. do 8 (destruct x as [|x]; [do 8 (destruct y as [|y]; [first [reflexivity|vm_compute in E; discriminate]|]); lia|]); lia.
Qed.

(** The quote and the backslash as literals are printed as the same token. *)
Theorem C51_literals_refuted : exists a b x, (32 <= a <= 126)%Z /\ (32 <= b <= 126)%Z /\ a <> b /\ literal_name [a] <> literal_name [b] /\
  get_lemon_token_name (literal_name [a]) = Ok x /\ get_lemon_token_name (literal_name [b]) = Ok x.
Proof. exists 39%Z, 92%Z. eexists. split; [lia|]. split; [lia|]. split; [lia|]. split; [discriminate|]. split; vm_compute; reflexivity. Qed.

(** So are names that differ in a dot, a lower-case letter and its literal, and a string and the identifier with the same text. *)
Theorem C51_tokens_refuted : exists a b x, a <> b /\ Forall (fun c => (wordch c || (c =? 46)%Z)%bool = true) a /\ Forall (fun c => (wordch c || (c =? 46)%Z)%bool = true) b /\
  get_lemon_token_name a = Ok x /\ get_lemon_token_name b = Ok x.
Proof. exists (zs "A.B"), (zs "A_B"). eexists. split; [discriminate|]. split; [repeat constructor|]. split; [repeat constructor|]. split; vm_compute; reflexivity. Qed.

Theorem C51_tokens_literals_refuted : exists a t x, Forall (fun c => wordch c = true) a /\ get_lemon_token_name a = Ok x /\ get_lemon_token_name (literal_name t) = Ok x /\ a <> literal_name t.
Proof. exists (zs "if"), (zs "if"). eexists. split; [repeat constructor|]. split; [vm_compute; reflexivity|]. split; [vm_compute; reflexivity|discriminate]. Qed.
Example C51_tokens_literals_x : get_lemon_token_name (zs "x") = get_lemon_token_name (literal_name (zs "x")).
Proof. reflexivity. Qed.

(** Nonterminals Expr and l_Expr, and names that differ behind the first 63 characters. *)
Theorem C51_rules_refuted : exists a b x, a <> b /\ Forall (fun c => wordch c = true) a /\ Forall (fun c => wordch c = true) b /\ length b <= 63 /\
  get_lemon_rule_name a = Ok x /\ get_lemon_rule_name b = Ok x.
Proof. exists (zs "Expr"), (zs "l_Expr"). eexists. split; [discriminate|]. split; [repeat constructor|]. split; [repeat constructor|]. split; [cbn; lia|]. split; vm_compute; reflexivity. Qed.

Theorem C51_long_refuted : exists n, length n = 63 /\ get_lemon_rule_name (n ++ zs "a") = get_lemon_rule_name (n ++ zs "b").
Proof. exists (repeat 97%Z 63). split; reflexivity. Qed.

(** The literal '\b' makes the table of names be read at index -1. *)
Theorem C51_escape_refuted : exists b, (0 < b < 128)%Z /\ get_lemon_token_name (literal_name [b]) = Bad.
Proof. exists 8%Z. split; [lia|reflexivity]. Qed.

(** A token whose name begins with $ is left out of the rules: the language changes. *)
Theorem C51_dollar_refuted : exists name s, wf_src s /\ (forall x y, x < b_nsyms s -> y < b_nsyms s -> name x = name y -> x = y) /\
  name 2 = zs "$x" /\ sentence (user s) [2] /\ ~ sentence (user s) [] /\ exists start rs, print_grammar_lemon name (pack_grammar s) (S (b_ntokens s)) = Ok (start, rs) /\ tderives rs [start] [].
Proof.
  exists (fun x => nth x [zs "$end"; zs "error"; zs "$x"; zs "$accept"; zs "s"] []), (mkSrc 3 5 [(4, [2])]).
  split; [apply wf_srcb_ok; reflexivity|]. split; [|split; [reflexivity|split; [|split]]].
  - intros x y LX LY E. cbn in LX, LY. do 5 (destruct x as [|x]; [do 5 (destruct y as [|y]; [first [reflexivity|vm_compute in E; discriminate]|]); lia|]); lia.
  - split; [repeat constructor|]. apply star_one. apply (step_rule (user (mkSrc 3 5 [(4, [2])])) [] [] (mkRule 4 [ESym 2])). now left.
  - intros (_ & D). cbn in D.
    assert (N : forall u v, derives (user (mkSrc 3 5 [(4, [2])])) u v -> u <> [] -> v <> []).
    { intros u v H. induction H as [u|u m v ST H IH]; [auto|]. intros NE. apply IH. inversion ST as [a c r I|a c l t I]; subst; [|destruct a; discriminate]. cbn in I. destruct I as [<-|[]]. cbn. destruct a; discriminate. }
    now apply (N _ _ D).
  - exists (zs "s"), [(zs "s", [])]. split; [reflexivity|]. apply star_one. apply (tstep_rule [(zs "s", [])] [] [] (zs "s") []). now left.
Qed.

Print Assumptions C51_symbols_partial.
Print Assumptions C51_language_partial.
Print Assumptions C51_literals_refuted.
Print Assumptions C51_tokens_refuted.
Print Assumptions C51_tokens_literals_refuted.
Print Assumptions C51_rules_refuted.
Print Assumptions C51_long_refuted.
Print Assumptions C51_escape_refuted.
Print Assumptions C51_dollar_refuted.
