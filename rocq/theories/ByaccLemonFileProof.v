(** What byacc -E prints of a grammar file. *)
From Coq Require Import String List Arith ZArith Bool Lia.
Import ListNotations.
From Verif Require Import Base LemonTableModel LemonPreModel LemonCodeModel ByaccParModel ByaccReaderModel ByaccRulesModel Prop_ByaccMidrule ByaccScanModel ByaccPackModel ByaccPackFileProof
  SpecByaccFile SpecByaccRules ByaccScanProof ByaccTableProof ByaccDeclProof ByaccFileProof ByaccFilePackProof ByaccPrecProof ByaccLemonTextModel ByaccLemonTextProof.
From Verif Require LemonReadModel LemonActionModel SpecItems Prop_ByaccLemon ByaccLemonModel.
Import SpecItems.
Open Scope rd_scope.
Local Notation file_token := SpecByaccFile.file_token.
Local Notation names := SpecByaccFile.names.

(** The names that byacc -E can translate: as in C51, and what follows %prec is a token. *)
Record lemon_names (F : bfile) : Prop := {
  ln_tokens : forall x, file_token F x -> Prop_ByaccLemon.ok_token x;
  ln_lhs : forall x, is_lhs (file_facts F) x -> Prop_ByaccLemon.ok_var x;
  ln_prec : forall n b x, In (n, b) (file_rules F) -> fmark b = Some x -> file_token F x;
  ln_len : forall n b, In (n, b) (file_rules F) -> List.length (part_syms b) <= 1000
}.

Definition lemon_assoc (a : bassoc) : LemonActionModel.e_assoc :=
  match a with
  | LEFT => LemonActionModel.LEFT | RIGHT => LemonActionModel.RIGHT | NONASSOC => LemonActionModel.NONE | PRECEDENCE => LemonActionModel.PRECEDENCE
  | TOKEN => LemonActionModel.UNK
  end.

(** * Levels *)
Lemma level_le : forall l p, p <= fold_left level l p.
Proof. induction l as [|d l IH]; intros p; [reflexivity|]. cbn [fold_left]. specialize (IH (level p d)). unfold level in *. destruct d as [[a|] ? ?| | | |]; lia. Qed.
Lemma sym_no_prec : forall x n p a, ~ In (n, Prec p a) (sym_facts x).
Proof. intros [m|l] n p a I; cbn in I; [destruct I as [I|[]]; discriminate|]. destruct I as [I|[I|I]]; try discriminate. destruct l as [|c [|]]; cbn in I; try tauto. destruct I as [I|[]]; discriminate. Qed.
Lemma decl_precs : forall q d n p a, In (n, Prec p a) (decl_facts q d) -> p = S q /\ exists tag l, d = DTokens (Some a) tag l.
Proof.
  intros q d n p a I. destruct d as [a0 tag l|tag l|m| |]; cbn [decl_facts In] in I; try contradiction.
  - apply in_flat_map in I as ((x & v) & _ & I). apply in_app_iff in I as [I|[I|I]]; [now apply sym_no_prec in I|discriminate|]. apply in_app_iff in I as [I|I]; [destruct tag; cbn in I; [destruct I as [I|[]]; discriminate|tauto]|].
    apply in_app_iff in I as [I|I]; [|destruct v; cbn in I; [destruct I as [I|[]]; discriminate|tauto]]. destruct a0 as [a0|]; cbn in I; [|tauto]. destruct I as [I|[]]. injection I as <- <- <-. split; [reflexivity|]. now exists tag, l.
  - apply in_flat_map in I as (x & _ & I). apply in_app_iff in I as [I|I]; [now apply sym_no_prec in I|]. destruct tag; cbn in I; [destruct I as [I|[]]; discriminate|tauto].
  - destruct I as [I|[]]. discriminate.
Qed.
Lemma decls_precs : forall l q n p a, In (n, Prec p a) (decls_facts q l) -> q < p <= fold_left level l q /\ exists tag xs, In (DTokens (Some a) tag xs) l.
Proof.
  induction l as [|d l IH]; intros q n p a I; [destruct I|]. cbn [decls_facts] in I. cbn [fold_left]. pose proof (level_le l (level q d)) as LE. apply in_app_iff in I as [I|I].
  - apply decl_precs in I as (-> & tag & xs & ->). cbn [level] in *. split; [lia|]. exists tag, xs. now left.
  - apply IH in I as (I & tag & xs & J). split; [|exists tag, xs; now right]. assert (q <= level q d) by (unfold level; destruct d as [[a0|] ? ?| | | |]; lia). lia.
Qed.
Lemma decls_same : forall l q n m p a b, In (n, Prec p a) (decls_facts q l) -> In (m, Prec p b) (decls_facts q l) -> a = b.
Proof.
  induction l as [|d l IH]; intros q n m p a b I J; [destruct I|]. cbn [decls_facts] in I, J. apply in_app_iff in I as [I|I]; apply in_app_iff in J as [J|J].
  - apply decl_precs in I as (_ & t1 & x1 & ->). apply decl_precs in J as (_ & t2 & x2 & E). congruence.
  - apply decl_precs in I as (-> & t1 & x1 & ->). apply decls_precs in J as (J & _). cbn [level] in J. lia.
  - apply decl_precs in J as (-> & t1 & x1 & ->). apply decls_precs in I as (I & _). cbn [level] in I. lia.
  - eapply IH; eauto.
Qed.
Lemma group_no_precs : forall f n p a, ~ In (n, Prec p a) (group_facts f).
Proof.
  intros f n p a I. destruct I as [I|[I|I]]; try discriminate. assert (K : forall b : list fpart, ~ In (n, Prec p a) (flat_map part_facts b)).
  { intros b X. apply in_flat_map in X as (x & _ & X). destruct x; cbn [part_facts] in X; try (now apply sym_no_prec in X). destruct X. }
  apply in_app_iff in I as [I|I]; [now apply K in I|]. apply in_flat_map in I as (b & _ & I). now apply K in I.
Qed.
Lemma latest_in : forall A (f : fact -> option A) n L v, latest f n L = Some v -> exists x, In (n, x) L /\ f x = Some v.
Proof.
  intros A f n. induction L as [|(m & x) L IH]; intros v H; [discriminate|]. cbn [latest] in H. destruct (latest f n L) as [u|]; [destruct (IH v H) as (y & I & E); exists y; split; [now right|exact E]|].
  destruct (list_eq_dec Z.eq_dec m n) as [->|]; [|discriminate]. exists x. split; [now left|exact H].
Qed.
Lemma file_precs : forall F n p a, prec_of_sym (file_facts F) n = Some (p, a) -> In (n, Prec p a) (decls_facts 0 (f_decls F)).
Proof.
  intros F n p a H. apply latest_in in H as (x & I & E). destruct x; try discriminate. injection E as -> ->. apply in_app_iff in I as [I|I]; [exact I|]. apply in_flat_map in I as (f & _ & I). now apply group_no_precs in I.
Qed.
Lemma decl_assoc : forall l t r a tag xs, decls_text l t r -> In (DTokens (Some a) tag xs) l -> a <> TOKEN.
Proof.
  intros l t r a tag xs H I. induction H as [|d l' t u r D H IH]; [destruct I|]. destruct I as [->|I]; [|auto]. inversion D as [a0 tg l0 p0 t0 g0 u0 u1 r0 P K| | | | | |]; subst. inversion K; discriminate.
Qed.
Lemma file_assoc : forall F z a tag xs, file_text F z -> In (DTokens (Some a) tag xs) (f_decls F) -> a <> TOKEN.
Proof. intros F z a tag xs H I. inversion H as [ds gs g t p q g' u G V DT Pp Pq G' VU GT EF ET]; subst. exact (decl_assoc _ _ _ _ _ _ DT I). Qed.

Section File.
Variable F : bfile.
Variable file : txt.
Hypothesis FT : file_text F (input file).
Hypothesis OK : file_ok F.
Hypothesis LN : lemon_names F.
Let L := file_facts F.
Let N := num L.

Definition fin (n : txt) : binfo := match b_class (entry L n) with UNKNOWN => with_class TERM (entry L n) | _ => entry L n end.
Lemma fin_name : forall n, b_name (fin n) = n.
Proof. intros n. unfold fin, entry. cbn [b_class]. destruct (ByaccTableProof.class_of L n); reflexivity. Qed.
Lemma fin_prec : forall n, (b_prec (fin n), b_assoc (fin n)) = prec_val F n.
Proof. intros n. unfold prec_val, fin, entry. fold L. cbn [b_class]. destruct (ByaccTableProof.class_of L n); cbn; destruct (prec_of_sym L n) as [(p & a)|]; reflexivity. Qed.
Lemma fin_term : forall n, is_term (fin n) = negb (lhsb L n).
Proof.
  intros n. unfold is_term, fin, entry. cbn [b_class]. unfold ByaccTableProof.class_of. destruct (lhsb L n) eqn:EL.
  - apply lhsb_iff in EL. pose proof (fo_lhs _ OK n EL) as NT. destruct (tokenb L n) eqn:ET; [apply tokenb_iff in ET; contradiction|reflexivity].
  - destruct (tokenb L n); reflexivity.
Qed.
Lemma tokb : forall n, In n (names L) -> (lhsb L n = false <-> file_token F n).
Proof.
  intros n I. unfold SpecByaccFile.file_token. fold L. split.
  - intros E. split; [exact I|]. intros H. apply lhsb_iff in H. congruence.
  - intros (_ & H). destruct (lhsb L n) eqn:E; [|reflexivity]. apply lhsb_iff in E. contradiction.
Qed.

Let grs := flat_map group_rules (conv_groups N 0 (f_groups F)).

Record state_ok (s : rdstate) (ts : list txt) : Prop := {
  sk_info : forall n, In n (names L) -> info (N n) s = ROk (fin n);
  sk_tokens : tokens_of s = ROk (map fin ts);
  sk_nodup : NoDup ts;
  sk_in : forall x, In x ts <-> file_token F x;
  sk_goal : d_goal s = Some (N (goal_of F));
  sk_gname : In (goal_of F) (names L);
  sk_rules : pack_rules (d_rules s) = Ok (rules_out 0 grs);
  sk_prec : d_prec s = fold_left level (f_decls F) 0
}.

Lemma state_facts : exists s ts, read_file file = ROk s /\ state_ok s ts.
Proof.
  destruct (file_read F file FT OK) as (s0 & g & gs & tx & h' & E & ST & CG & RG & GO & IG & _). fold L in E, ST, CG, GO, IG. fold N in CG, GO.
  pose proof (file_prec F file _ FT OK E) as PR. set (s := set_infos _ s0) in E, PR. assert (GR : group_rules g ++ flat_map group_rules gs = grs) by (unfold grs; rewrite CG; reflexivity).
  rewrite read_ok, GR in RG. injection RG as RG. pose proof (so_chain _ _ ST) as [CN1 CN2 CN3 CN4].
  assert (INF : forall n, In n (names L) -> info (N n) s = ROk (fin n)).
  { intros n In0. unfold info, s. cbn [d_infos set_infos set_syms]. unfold table. rewrite map_map, nth_error_map. unfold N, num. rewrite (pos_nth _ _ In0). reflexivity. }
  assert (NM : forall i, i < List.length (names L) -> exists n, In n (names L) /\ nth i (names L) [] = n /\ i = N n).
  { intros i Li. destruct (nth_error (names L) i) as [n|] eqn:En; [|apply nth_error_None in En; lia]. assert (In0 : In n (names L)) by (eapply nth_error_In; eauto). exists n. split; [exact In0|]. split; [now apply nth_error_nth|].
    pose proof (pos_nth _ _ In0) as P. pose proof (names_nodup L) as ND. rewrite NoDup_nth_error in ND. unfold N, num. apply ND; [lia|congruence]. }
  set (h := fun b => match b with Name i => let n := nth i (names L) [] in if lhsb L n then [] else [n] | Gen _ => [] end).
  exists s, (flat_map h (d_chain s0)). split; [exact E|]. constructor; [exact INF| | | |exact GO|exact IG| |exact PR].
  - unfold tokens_of. change (d_chain s) with (d_chain s0).
    rewrite (rmap_ok _ _ (bucket_infos s) (fun b => match b with Name i => [fin (nth i (names L) [])] | Gen _ => [] end)).
    2:{ intros [i|k] Ib; [|reflexivity]. apply CN2 in Ib. destruct (NM i Ib) as (n & In0 & E1 & ->). cbn [bucket_infos]. rewrite (INF n In0), E1. reflexivity. }
    cbn [rbind]. f_equal. clear -OK h. induction (d_chain s0) as [|b l IH]; [reflexivity|]. cbn [map concat flat_map]. rewrite filter_app, map_app, IH. f_equal. destruct b as [i|k]; [|reflexivity]. cbn [h filter]. cbn zeta. rewrite fin_term. destruct (lhsb L (nth i (names L) [])); reflexivity.
  - assert (K : forall l, NoDup l -> (forall b, In b l -> In b (d_chain s0)) -> NoDup (flat_map h l)).
    { induction l as [|b l IH]; intros ND IN; [constructor|]. inversion ND as [|? ? NI ND']; subst. cbn [flat_map]. assert (IH' : NoDup (flat_map h l)) by (apply IH; [exact ND'|intros; apply IN; now right]).
      destruct b as [i|k]; [|exact IH']. cbn [h]. cbn zeta. destruct (lhsb L (nth i (names L) [])); [exact IH'|]. cbn [app]. constructor; [|exact IH'].
      intros X. apply in_flat_map in X as ([j|j] & Ij & X); [|destruct X]. cbn [h] in X. cbn zeta in X. destruct (lhsb L (nth j (names L) [])); [destruct X|]. destruct X as [X|[]].
      assert (Li : i < List.length (names L)) by (apply CN2, IN; now left). assert (Lj : j < List.length (names L)) by (apply CN2, IN; now right).
      destruct (NM i Li) as (n & _ & E1 & E2). destruct (NM j Lj) as (m & _ & E3 & E4). apply NI. replace i with j; [exact Ij|]. rewrite E2, E4. congruence. }
    apply K; auto.
  - intros x. rewrite in_flat_map. split.
    + intros ([i|k] & Ib & X); [|destruct X]. cbn [h] in X. cbn zeta in X. apply CN2 in Ib. destruct (NM i Ib) as (n & In0 & E1 & _). rewrite E1 in X. destruct (lhsb L n) eqn:EL; [destruct X|]. destruct X as [<-|[]]. now apply tokb.
    + intros T. pose proof T as (I & _). change (In x (names L)) in I. exists (Name (N x)). split; [apply CN2; unfold N, num; apply nth_error_Some; rewrite (pos_nth _ _ I); discriminate|]. cbn [h]. cbn zeta. assert (E1 : nth (N x) (names L) [] = x) by (apply nth_error_nth; now apply pos_nth). rewrite E1.
      apply tokb in T; [|exact I]. rewrite T. now left.
  - assert (DR : d_rules s = after grs) by (symmetry; exact RG). rewrite DR. unfold after. apply pack_closed.
Qed.

(** * Tokens *)
Lemma tok_first : forall x, Prop_ByaccLemon.ok_token x -> dollar_first x = false /\ match x with c :: _ => (c =? 34)%Z | [] => false end = false.
Proof.
  intros x H. inversion H as [c r U _ _ _|c d r U _ _|r _ _|b B]; subst x.
  - apply Prop_ByaccLemon.upper_range in U. split; [apply Z.eqb_neq; lia|apply Z.eqb_neq; lia].
  - apply Prop_ByaccLemon.lower_range in U. split; [apply Z.eqb_neq; lia|apply Z.eqb_neq; lia].
  - split; reflexivity.
  - split; reflexivity.
Qed.
Lemma var_first : forall x, Prop_ByaccLemon.ok_var x -> dollar_first x = false.
Proof.
  intros x H. inversion H as [c r U _ _ _ _|c r U _ _|r _ _]; subst x; [|apply Prop_ByaccLemon.upper_range in U; apply Z.eqb_neq; lia|reflexivity].
  apply Prop_ByaccLemon.lower_range in U. apply Z.eqb_neq. lia.
Qed.
Definition errorb (x : txt) : bool := if list_eq_dec Z.eq_dec x (zs "error") then true else false.
Lemma token_text_ok : forall x, file_token F x -> token_text x = ROk (tn x).
Proof. intros x T. destruct (tn_ok x (ln_tokens _ LN x T)) as (E & _). unfold token_text. now rewrite E. Qed.
Lemma rule_text_ok : forall x, is_lhs L x -> rule_text x = ROk (vn x).
Proof. intros x T. destruct (vn_ok x (ln_lhs _ LN x T)) as (E & _). unfold rule_text. now rewrite E. Qed.
Lemma token_line_ok : forall x, file_token F x -> token_line (fin x) = ROk (if errorb x then [] else zs "%token " ++ tn x ++ zs " ." ++ eol).
Proof.
  intros x T. unfold token_line. rewrite fin_name. destruct (tok_first x (ln_tokens _ LN x T)) as (-> & ->). rewrite orb_false_r. cbn [orb]. unfold errorb. destruct (list_eq_dec Z.eq_dec x (zs "error")) as [->|NE]; [reflexivity|].
  replace (teqb x (zs "error")) with false by (symmetry; destruct (teqb x (zs "error")) eqn:E; [apply teqb_eq in E; contradiction|reflexivity]).
  rewrite (token_text_ok x T). reflexivity.
Qed.
Lemma tokens_doc : forall s ts, state_ok s ts -> exists a, rmap token_line (map fin ts) = ROk a /\ doc_ok (concat a) (flat_map item_tokens (map (fun x => IToken [tn x]) (filter (fun x => negb (errorb x)) ts))).
Proof.
  intros s ts K. exists (map (fun x => if errorb x then [] else zs "%token " ++ tn x ++ zs " ." ++ eol) ts).
  assert (IN : forall x, In x ts -> file_token F x) by apply (sk_in _ _ K). clear K. induction ts as [|x ts IH]; [split; [reflexivity|apply doc_nil]|]. destruct IH as (E & D); [intros; apply IN; now right|].
  assert (T : file_token F x) by (apply IN; now left). split.
  - cbn [map rmap]. rewrite (token_line_ok x T), E. reflexivity.
  - cbn [map concat filter]. destruct (errorb x) eqn:EE; cbn [negb]; [exact D|]. cbn [map flat_map]. apply doc_app; [|exact D]. destruct (tn_ok x (ln_tokens _ LN x T)) as (_ & W & _).
    replace (zs "%token " ++ tn x ++ zs " ." ++ eol) with ((37%Z :: zs "token" ++ (32%Z :: tn x) ++ zs " .") ++ eol) by (cbn [app]; rewrite <- ?app_assoc; cbn [app]; rewrite <- ?app_assoc; reflexivity).
    apply doc_one. apply keyword_line; [exists 116%Z, (zs "oken"); repeat split; reflexivity|reflexivity|]. apply (seg_app _ [tn x]); [now apply seg_name|apply dot_seg].
Qed.

(** * Precedences *)
Definition at_lev (k : nat) (x : txt) : bool := fst (prec_val F x) =? k.
Definition lev (k : nat) (l : list txt) : list txt := filter (at_lev k) l.
Lemma level_pos : forall x k, at_lev k x = true -> 0 < k -> In (x, Prec k (snd (prec_val F x))) (decls_facts 0 (f_decls F)).
Proof.
  intros x k E P. unfold at_lev in E. apply Nat.eqb_eq in E. unfold prec_val in *. destruct (prec_of_sym (file_facts F) x) as [(p & a)|] eqn:EP; cbn [fst snd] in *; [|lia]. subst p. now apply file_precs.
Qed.
Lemma level_assoc : forall x k, at_lev k x = true -> 0 < k -> snd (prec_val F x) <> TOKEN /\ k <= fold_left level (f_decls F) 0.
Proof.
  intros x k E P. pose proof (level_pos x k E P) as I. apply decls_precs in I as (LE & tag & xs & I). split; [|lia]. exact (file_assoc F _ _ tag xs FT I).
Qed.
Lemma level_zero : forall x, at_lev 0 x = true -> snd (prec_val F x) = TOKEN.
Proof.
  intros x E. unfold at_lev in E. apply Nat.eqb_eq in E. unfold prec_val in *. destruct (prec_of_sym (file_facts F) x) as [(p & a)|] eqn:EP; cbn [fst snd] in *; [|reflexivity]. apply file_precs, decls_precs in EP as (EP & _). lia.
Qed.
Lemma fin_lev : forall x k, ((b_prec (fin x) =? k) && negb (dollar_first (b_name (fin x))))%bool = (at_lev k x && negb (dollar_first x))%bool.
Proof. intros x k. rewrite fin_name. unfold at_lev. rewrite <- fin_prec. reflexivity. Qed.
Lemma prec_rest : forall k l, (forall x, In x l -> file_token F x) -> prec_line k true (map fin l) = ROk (concat (map (cons 32%Z) (map tn (lev k l))) ++ zs " ." ++ eol).
Proof.
  intros k. induction l as [|x l IH]; intros IN; [reflexivity|]. cbn [map prec_line]. rewrite fin_lev. assert (T : file_token F x) by (apply IN; now left). destruct (tok_first x (ln_tokens _ LN x T)) as (-> & _). cbn [negb]. rewrite andb_true_r.
  unfold lev. cbn [filter]. specialize (IH ltac:(intros; apply IN; now right)). destruct (at_lev k x); [|exact IH]. rewrite fin_name, (token_text_ok x T). cbn [rbind]. rewrite IH. cbn [rbind map concat]. fold (lev k l). cbn [app]. now rewrite <- app_assoc.
Qed.
Lemma prec_zero : forall l, (forall x, In x l -> file_token F x) -> prec_line 0 false (map fin l) = ROk [].
Proof.
  induction l as [|x l IH]; intros IN; [reflexivity|]. cbn [map prec_line]. rewrite fin_lev. specialize (IH ltac:(intros; apply IN; now right)). destruct (at_lev 0 x) eqn:E; [|exact IH]. cbn [andb]. destruct (negb _); [|exact IH].
  apply level_zero in E. rewrite <- fin_prec in E. cbn [snd] in E. rewrite E. exact IH.
Qed.

(** The declaration of a level, if it has tokens. *)
Definition level_item (ts : list txt) (k : nat) : list item :=
  match lev k ts with [] => [] | x :: l => [IAssoc (lemon_assoc (snd (prec_val F x))) (map tn (x :: l))] end.
Lemma prec_doc : forall k l, (forall x, In x l -> file_token F x) -> exists t, prec_line k false (map fin l) = ROk t /\ doc_ok t (flat_map item_tokens (match k with 0 => [] | _ => level_item l k end)).
Proof.
  intros k l IN. destruct (Nat.eq_dec k 0) as [->|NK]; [exists []; split; [now apply prec_zero|apply doc_nil]|].
  replace (match k with 0 => [] | _ => level_item l k end) with (level_item l k) by (destruct k; [congruence|reflexivity]).
  induction l as [|x l IH]; [exists []; split; [reflexivity|apply doc_nil]|]. cbn [map prec_line]. rewrite fin_lev. assert (T : file_token F x) by (apply IN; now left). destruct (tok_first x (ln_tokens _ LN x T)) as (-> & _). cbn [negb]. rewrite andb_true_r.
  unfold level_item, lev. cbn [filter]. destruct (at_lev k x) eqn:E; [|apply IH; intros; apply IN; now right]. destruct (level_assoc x k E ltac:(lia)) as (A & _).
  assert (EA : b_assoc (fin x) = snd (prec_val F x)) by (rewrite <- fin_prec; reflexivity). rewrite EA. set (a := snd (prec_val F x)) in *. fold (lev k l).
  assert (W : exists w, get_prec_name a = Some w /\ w = assoc_word (lemon_assoc a) /\ wname w /\ forall u, LemonPreProof.kind false (37%Z :: w ++ 32%Z :: u) = LemonPreProof.LPlain).
  { destruct a; [now destruct A| | | |]; (eexists; split; [reflexivity|]; split; [reflexivity|]; split; [eexists; eexists; repeat split; reflexivity|reflexivity]). }
  destruct W as (w & -> & EW & WN & KD). rewrite fin_name, (token_text_ok x T). cbn [rbind]. rewrite prec_rest by (intros; apply IN; now right). cbn [rbind]. eexists. split; [reflexivity|].
  cbn [flat_map app]. rewrite app_nil_r. cbn [item_tokens]. rewrite <- EW. unfold SpecItems.decl.
  match goal with |- doc_ok ?t _ => replace t with ((37%Z :: w ++ (zs " /*" ++ decimal k ++ zs "*/") ++ concat (map (cons 32%Z) (map tn (x :: lev k l))) ++ zs " .") ++ eol) end.
  2:{ change (zs "%" ++ w ++ zs " /*" ++ decimal k ++ zs "*/" ++ zs " " ++ tn x ++ concat (map (cons 32%Z) (map tn (lev k l))) ++ zs " ." ++ eol) with (37%Z :: w ++ zs " /*" ++ decimal k ++ zs "*/" ++ (32%Z :: tn x) ++ concat (map (cons 32%Z) (map tn (lev k l))) ++ zs " ." ++ eol).
      cbn [map concat]. cbn [app]. f_equal. rewrite <- ?app_assoc. cbn [app]. rewrite <- ?app_assoc. reflexivity. }
  apply doc_one. apply keyword_line; [exact WN|apply KD|]. apply (seg_app _ []); [apply decimal_seg|]. apply (seg_app _ (map tn (x :: lev k l)) _ [SpecItems.dot]); [|apply dot_seg]. apply segs_names. apply Forall_map, Forall_forall. intros y Iy.
  assert (Ty : file_token F y) by (apply IN; destruct Iy as [<-|Iy]; [now left|]; right; apply filter_In in Iy; tauto). now destruct (tn_ok y (ln_tokens _ LN y Ty)) as (_ & ? & _).
Qed.
Lemma precs_doc : forall l ks, (forall x, In x l -> file_token F x) -> exists b, rmap (fun k => prec_line k false (map fin l)) ks = ROk b /\
  doc_ok (concat b) (flat_map item_tokens (flat_map (fun k => match k with 0 => [] | _ => level_item l k end) ks)).
Proof.
  intros l ks IN. induction ks as [|k ks (b & E & D)]; [exists []; split; [reflexivity|apply doc_nil]|]. destruct (prec_doc k l IN) as (t & E1 & D1). exists (t :: b). cbn [rmap]. rewrite E1. cbn [rbind]. rewrite E. split; [reflexivity|].
  cbn [concat flat_map]. rewrite flat_map_app. now apply doc_app.
Qed.

(** * Rules *)
Definition sn (x : txt) : txt := if lhsb L x then vn x else tn x.
Definition rule_item (r : txt * list fpart) : item :=
  IRule (vn (fst r)) None (map (fun x => mkRelem (sn x) [] None) (part_syms (snd r))) (option_map tn (fmark (snd r))) None.
Lemma sn_wname : forall x, In x (names L) -> wname (sn x).
Proof.
  intros x I. unfold sn. destruct (lhsb L x) eqn:E; [apply lhsb_iff in E; now destruct (vn_ok x (ln_lhs _ LN x E)) as (_ & ? & _)|]. apply tokb in E; [|exact I]. now destruct (tn_ok x (ln_tokens _ LN x E)) as (_ & ? & _).
Qed.

Section State.
Variable s : rdstate.
Variable ts : list txt.
Hypothesis K : state_ok s ts.

Lemma item_seg : forall x, In x (names L) -> exists u, item_text s (Name (N x)) = ROk u /\ seg u [sn x].
Proof.
  intros x I. cbn [item_text]. rewrite (sk_info _ _ K x I). cbn [rbind]. rewrite fin_name, fin_term. unfold sn. destruct (lhsb L x) eqn:E.
  - apply lhsb_iff in E. pose proof (ln_lhs _ LN x E) as V. rewrite (var_first x V). cbn [negb]. rewrite (rule_text_ok x E). cbn [rbind]. eexists. split; [reflexivity|]. apply seg_name. now destruct (vn_ok x V) as (_ & ? & _).
  - apply tokb in E; [|exact I]. pose proof (ln_tokens _ LN x E) as V. destruct (tok_first x V) as (-> & _). cbn [negb]. rewrite (token_text_ok x E). cbn [rbind]. eexists. split; [reflexivity|]. destruct (tn_ok x V) as (_ & W & _).
    change (zs " " ++ tn x ++ ?z) with ((32%Z :: tn x) ++ z). apply (seg_app _ [tn x] _ []); [now apply seg_name|]. destruct (b_prec (fin x) =? 0); [apply seg_nil|apply comment_seg].
Qed.
Lemma items_seg : forall b k j, (forall x, In x (part_syms b) -> In x (names L)) -> exists us, rmap (item_text s) (replaced k (conv N j b)) = ROk us /\ seg (concat us) (map sn (part_syms b)).
Proof.
  induction b as [|[x|ps|x] b IH]; intros k j IN; [exists []; split; [reflexivity|apply seg_nil]| | |]; cbn [conv replaced].
  - destruct (item_seg (sym_name x)) as (u & E & S0); [apply IN; now left|]. destruct (IH k j) as (us & E1 & S1); [intros y I; apply IN; now right|]. exists (u :: us). cbn [rmap]. rewrite E. cbn [rbind]. rewrite E1. split; [reflexivity|]. apply (seg_app _ [_]); assumption.
  - destruct (followed (conv N (S j) b)); [|now apply IH]. destruct (IH (S k) (S j)) as (us & E1 & S1); [exact IN|]. exists ([] :: us). cbn [rmap item_text rbind]. rewrite E1. split; [reflexivity|exact S1].
  - now apply IH.
Qed.
Lemma relems_tokens : forall l, flat_map relem_tokens (map (fun x => mkRelem (sn x) [] None) l) = map sn l.
Proof. induction l as [|x l IH]; [reflexivity|]. cbn [map flat_map relem_tokens re_name re_alts re_alias alias_tokens app]. now rewrite IH. Qed.
Lemma rule_doc : forall n b k j, In (n, b) (file_rules F) -> exists t, rule_line s (Name (N n), replaced k (conv N j b), mark (conv N j b)) = ROk t /\ doc_ok t (item_tokens (rule_item (n, b))).
Proof.
  intros n b k j I. destruct (part_in _ _ _ I) as (LH & PF). fold L in LH, PF. pose proof (lhs_in_names _ _ LH) as IN. cbn [rule_line]. rewrite (sk_info _ _ K n IN). cbn [rbind]. rewrite fin_name. pose proof (ln_lhs _ LN n LH) as V. rewrite (var_first n V), (rule_text_ok n LH). cbn [rbind].
  assert (PS : forall x, In x (part_syms b) -> In x (names L)). { intros x Ix. destruct (grammar_in F n (part_syms b)) as (_ & FA); [unfold file_grammar; apply in_map_iff; exists (n, b); auto|]. rewrite Forall_forall in FA. now apply FA. }
  assert (U : exists u, match replaced k (conv N j b) with [] => ROk (zs " /*empty*/") | _ :: _ => us <- rmap (item_text s) (replaced k (conv N j b));; ROk (concat us) end = ROk u /\ seg u (map sn (part_syms b))).
  { destruct (items_seg b k j PS) as (us & E & S0). destruct (replaced k (conv N j b)) as [|y l] eqn:ER.
    - exists (zs " /*empty*/"). split; [reflexivity|]. injection E as <-. pose proof (erase_replaced (conv N j b) k) as EE. rewrite ER in EE. rewrite conv_symbols in EE. destruct (part_syms b); [|discriminate].
      apply (note_seg (zs "empty")). repeat constructor; discriminate.
    - rewrite E. cbn [rbind]. eauto. }
  destruct U as (u & -> & SU). cbn [rbind]. destruct (vn_ok n V) as (_ & WV & _).
  assert (VV : exists v ys, match mark (conv N j b) with Some j0 => q <- info j0 s;; n0 <- token_text (b_name q);; ROk (zs " . [" ++ n0 ++ zs "]" ++ prec_comment (b_prec q) (b_assoc q) ++ eol) | None => ROk (zs " ." ++ eol) end = ROk (v ++ eol) /\
     seg v (SpecItems.dot :: ys) /\ ys = match option_map tn (fmark b) with None => [] | Some x => [zs "["; x; zs "]"] end).
  { rewrite conv_mark. destruct (fmark b) as [p|] eqn:EM; cbn [option_map]; [|exists (zs " ."), []; split; [reflexivity|]; split; [apply dot_seg|reflexivity]].
    pose proof (ln_prec _ LN n b p I EM) as T. rewrite (sk_info _ _ K p (proj1 T)). cbn [rbind]. rewrite fin_name, (token_text_ok p T). cbn [rbind]. destruct (tn_ok p (ln_tokens _ LN p T)) as (_ & W & _).
    exists (zs " ." ++ (zs " [" ++ tn p ++ zs "]") ++ prec_comment (b_prec (fin p)) (b_assoc (fin p))), [zs "["; tn p; zs "]"]. split; [rewrite <- !app_assoc; reflexivity|]. split; [|reflexivity].
    apply (seg_app _ [SpecItems.dot]); [apply dot_seg|]. apply (seg_app _ [zs "["; tn p; zs "]"] _ []); [now apply mark_seg|apply comment_seg]. }
  destruct VV as (v & ys & -> & SV & EY). cbn [rbind]. eexists. split; [reflexivity|]. unfold rule_item. cbn [fst snd item_tokens alias_tokens app]. rewrite relems_tokens.
  replace (vn n ++ zs " ::=" ++ u ++ v ++ eol) with ((vn n ++ zs " ::=" ++ u ++ v) ++ eol) by (rewrite <- !app_assoc; reflexivity).
  apply doc_one. rewrite app_nil_r. rewrite <- EY. apply seg_line; [exact WV|]. apply (seg_app _ [zs "::="]); [apply becomes_seg|]. apply seg_app; assumption.
Qed.

Lemma gens_doc : forall js rest xs, (forall prev, exists t, rule_lines s prev rest = ROk t /\ doc_ok t xs) ->
  forall prev, exists t, rule_lines s prev (map (fun j => (Gen j, [], Some 0)) js ++ rest) = ROk t /\ doc_ok t xs.
Proof.
  induction js as [|j js IH]; intros rest xs H prev; [apply H|]. cbn [map app rule_lines fst snd rule_line rbind]. destruct (IH rest xs H (Some (Gen j))) as (t & -> & D). cbn [rbind]. eexists. split; [reflexivity|]. cbn [app].
  destruct (match prev with Some b => bucket_eqb b (Gen j) | None => false end); [exact D|]. apply (doc_app _ []); [apply doc_eol|exact D].
Qed.
Lemma rules_doc : forall rl gs, Forall2 (fun r c => fst c = N (fst r) /\ exists j, snd c = conv N j (snd r)) rl gs -> incl rl (file_rules F) ->
  forall k prev, exists t, rule_lines s prev (rules_out k gs) = ROk t /\ doc_ok t (flat_map item_tokens (map rule_item rl)).
Proof.
  intros rl gs H. induction H as [|(n & b) (l & c) rl gs (E1 & j & E2) H IH]; intros IN k prev; [exists []; split; [reflexivity|apply doc_nil]|]. cbn [fst snd] in E1, E2. subst l c. cbn [rules_out]. unfold rule_out. rewrite <- app_assoc. apply gens_doc. clear prev. intros prev.
  cbn [app rule_lines fst snd]. destruct (rule_doc n b k j) as (t1 & -> & D1); [apply IN; now left|]. cbn [rbind]. edestruct (IH ltac:(intros x X; apply IN; now right)) as (t2 & -> & D2). cbn [rbind]. eexists. split; [reflexivity|]. pose proof (doc_app _ _ _ _ D1 D2) as DD.
  destruct (match prev with Some b0 => bucket_eqb b0 (Name (N n)) | None => false end); [exact DD|]. exact (doc_app eol [] _ _ doc_eol DD).
Qed.
End State.

(** * The whole text *)
Definition levels (ts : list txt) : list item := flat_map (level_item ts) (seq 1 (fold_left level (f_decls F) 0)).
Definition file_items (ts : list txt) : list item :=
  map (fun x => IToken [tn x]) (filter (fun x => negb (errorb x)) ts) ++ levels ts ++ IText LemonReadModel.Gstart (vn (goal_of F)) :: map rule_item (file_rules F).

Lemma printed_doc : exists s ts t, read_file file = ROk s /\ state_ok s ts /\ byacc_lemon file = ROk t /\ Prop_LemonEndToEnd.declares [] t (file_items ts).
Proof.
  destruct state_facts as (s & ts & RF & K). destruct (tokens_doc s ts K) as (a & EA & DA). assert (IN : forall x, In x ts -> file_token F x) by apply (sk_in _ _ K).
  destruct (precs_doc ts (seq 0 (S (d_prec s))) IN) as (b & EB & DB). destruct (rules_doc s ts K (file_rules F) grs (conv_rules N (f_groups F) 0) (incl_refl _) 0 None) as (c & EC & DC).
  pose proof (fo_goal _ OK) as LG. destruct (vn_ok _ (ln_lhs _ LN _ LG)) as (_ & WG & _).
  eexists s, ts, _. split; [exact RF|]. split; [exact K|]. split.
  - unfold byacc_lemon. rewrite RF. cbn [rbind]. unfold print_grammar_lemon. rewrite (sk_tokens _ _ K). cbn [rbind]. rewrite EA. cbn [rbind]. rewrite EB. cbn [rbind]. rewrite (sk_goal _ _ K). cbn [rbind]. rewrite (sk_info _ _ K _ (sk_gname _ _ K)). cbn [rbind]. rewrite fin_name, (rule_text_ok _ LG). cbn [rbind].
    rewrite (sk_rules _ _ K). cbn [lift rbind]. rewrite EC. cbn [rbind]. reflexivity.
  - apply doc_declares. unfold file_items. rewrite flat_map_app, flat_map_app. apply doc_app; [exact DA|]. refine (doc_app eol [] _ (_ ++ _) doc_eol _). apply doc_app.
    + unfold levels. rewrite <- (sk_prec _ _ K). cbn [seq flat_map app] in DB. replace (flat_map (level_item ts) (seq 1 (d_prec s))) with (flat_map (fun k => match k with 0 => [] | S _ => level_item ts k end) (seq 1 (d_prec s))); [exact DB|].
      rewrite !flat_map_concat_map. f_equal. apply map_ext_in. intros k I. apply in_seq in I. destruct k; [lia|reflexivity].
    + refine (doc_app eol [] _ (item_tokens (IText LemonReadModel.Gstart (vn (goal_of F))) ++ flat_map item_tokens (map rule_item (file_rules F))) doc_eol _). replace (zs "%start_symbol " ++ vn (goal_of F) ++ eol ++ eol ++ c) with (((37%Z :: zs "start_symbol" ++ 32%Z :: vn (goal_of F)) ++ eol) ++ eol ++ c) by (rewrite <- !app_assoc; reflexivity).
      apply doc_app; [|exact (doc_app eol [] _ _ doc_eol DC)]. apply doc_one. apply keyword_line; [eexists; eexists; repeat split; reflexivity|reflexivity|]. now apply seg_name.
Qed.
End File.
