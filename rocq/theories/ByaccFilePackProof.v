(** Packing what byacc has read from a file. *)
From Coq Require Import String List Arith ZArith Bool Lia.
Import ListNotations.
From Verif Require Import Base SpecGrammar SpecGrammarFacts SpecByacc LemonTableModel LemonPreModel LemonCodeModel ByaccLr0Model ByaccParModel ByaccActionsProof ByaccTablesProof
  ByaccReaderModel ByaccReaderProof Prop_ByaccReader ByaccRulesModel Prop_ByaccMidrule ByaccScanModel ByaccPackModel ByaccPackFileProof Prop_ByaccLiteral SpecByaccFile SpecByaccRules
  ByaccScanProof ByaccTableProof ByaccDeclProof ByaccActionProof ByaccFileProof.
Open Scope rd_scope.

(** * The rules *)

Lemma conv_symbols : forall num b k, symbols (conv num k b) = map num (part_syms b).
Proof. intros num. induction b as [|[x|ps|x] b IH]; intros k; cbn [conv symbols part_syms flat_map app map]; [reflexivity|f_equal; apply IH|apply IH|apply IH]. Qed.

Lemma plain_alts : forall num n l k, plain (map (pair (num n)) (conv_alts num k l)) = rename num (map (fun r => (fst r, part_syms (snd r))) (map (pair n) l)).
Proof.
  intros num n. induction l as [|b l IH]; intros k; [reflexivity|]. cbn [conv_alts map plain rename fst snd]. rewrite conv_symbols. f_equal. apply IH.
Qed.

Lemma plain_app : forall a b, plain (a ++ b) = plain a ++ plain b.
Proof. intros. apply map_app. Qed.
Lemma rename_app : forall A B (f : A -> B) a b, rename f (a ++ b) = rename f a ++ rename f b.
Proof. intros. apply map_app. Qed.

Lemma plain_groups : forall num gs k, plain (flat_map group_rules (conv_groups num k gs)) =
  rename num (map (fun r => (fst r, part_syms (snd r))) (flat_map (fun f => map (pair (f_lhs f)) (f_body f :: f_alts f)) gs)).
Proof.
  intros num. induction gs as [|f gs IH]; intros k; [reflexivity|]. cbn [conv_groups flat_map]. rewrite plain_app, IH, map_app, rename_app. f_equal.
  unfold group_rules, conv_group. cbn [gr_lhs gr_body gr_alts map plain rename fst snd]. rewrite conv_symbols. f_equal. apply plain_alts.
Qed.

Lemma plain_file : forall num F, plain (flat_map group_rules (conv_groups num 0 (f_groups F))) = rename num (file_grammar F).
Proof. intros num F. apply plain_groups. Qed.

(** Everything in a rule is a symbol of the file. *)
Lemma part_in : forall F n b, In (n, b) (file_rules F) -> is_lhs (file_facts F) n /\ forall p, In p b -> forall x, In x (part_facts p) -> In x (file_facts F).
Proof.
  intros F n b I. unfold file_rules in I. apply in_flat_map in I. destruct I as (f & If & I). apply in_map_iff in I. destruct I as (b0 & E & I). injection E as <- <-.
  assert (G : forall x, In x (group_facts f) -> In x (file_facts F)) by (intros x H; apply in_or_app; right; apply in_flat_map; eauto).
  split; [apply G; cbn; tauto|]. intros p Ip x Ix. apply G. unfold group_facts. right. right. apply in_or_app. destruct I as [<-|I]; [left; apply in_flat_map; eauto|right].
  apply in_flat_map. exists b0. split; [exact I|]. apply in_flat_map. eauto.
Qed.
Lemma sym_in_names : forall F x, In (sym_name x, See) (file_facts F) -> In (sym_name x) (names (file_facts F)).
Proof. intros F x H. apply names_in. right. now apply (in_map fst) in H. Qed.
Lemma lhs_in_names : forall L n, is_lhs L n -> In n (names L).
Proof. intros L n H. apply names_in. right. now apply (in_map fst) in H. Qed.

Lemma grammar_in : forall F n r, In (n, r) (file_grammar F) -> In n (names (file_facts F)) /\ Forall (fun m => In m (names (file_facts F))) r.
Proof.
  intros F n r I. unfold file_grammar in I. apply in_map_iff in I. destruct I as ((n0 & b) & E & I). cbn [fst snd] in E. injection E as -> <-. destruct (part_in _ _ _ I) as (H1 & H2). split; [now apply lhs_in_names|].
  apply Forall_forall. intros m Im. unfold part_syms in Im. apply in_flat_map in Im. destruct Im as (p & Ip & Im). destruct p as [x|ps|x]; [|destruct Im|destruct Im]. destruct Im as [<-|[]]. apply sym_in_names. apply (H2 _ Ip). now left.
Qed.

Lemma lhs_iff : forall F n, is_lhs (file_facts F) n <-> exists r, In (n, r) (file_grammar F).
Proof.
  intros F n. split.
  - intros H. unfold is_lhs, file_facts in H. apply in_app_or in H. destruct H as [H|H].
    + exfalso. revert H. generalize 0 as p. induction (f_decls F) as [|d l IH]; intros p H; [exact H|]. cbn [decls_facts] in H. apply in_app_or in H. destruct H as [H|H]; [|now apply IH in H].
      assert (SF : forall x, ~ In (n, Lhs) (sym_facts x)) by (intros [m|l0] X; cbn in X; destruct X as [X|X]; try discriminate; [destruct X|destruct X as [X|X]; [discriminate|]; destruct l0 as [|c [|]]; cbn in X; try tauto; destruct X as [X|[]]; discriminate]).
      assert (TF : forall t m, ~ In (n, Lhs) (tag_facts t m)) by (intros [t|] m X; cbn in X; [destruct X as [X|[]]; discriminate|tauto]).
      destruct d as [a tag l0|tag l0|m| |]; cbn [decl_facts] in H; try tauto.
      * apply in_flat_map in H. destruct H as ((x & v) & _ & H). apply in_app_or in H. destruct H as [H|H]; [now apply SF in H|]. destruct H as [H|H]; [discriminate|]. apply in_app_or in H. destruct H as [H|H]; [now apply TF in H|].
        apply in_app_or in H. destruct H as [H|H]; [destruct a|destruct v]; cbn in H; try tauto; destruct H as [H|[]]; discriminate.
      * apply in_flat_map in H. destruct H as (x & _ & H). apply in_app_or in H. destruct H as [H|H]; [now apply SF in H|now apply TF in H].
      * destruct H as [H|[]]; discriminate.
    + apply in_flat_map in H. destruct H as (f & If & H). destruct H as [H|[H|H]]; [discriminate| |].
      * injection H as <-. exists (part_syms (f_body f)). unfold file_grammar. apply in_map_iff. exists (f_lhs f, f_body f). split; [reflexivity|]. apply in_flat_map. exists f. split; [exact If|]. now left.
      * exfalso. assert (P : forall p, ~ In (n, Lhs) (part_facts p)).
        { intros [x|ps|x] X; cbn [part_facts] in X; try tauto; (destruct x as [m|l0]; cbn in X; (destruct X as [X|X]; try discriminate); [destruct X|destruct X as [X|X]; [discriminate|]; destruct l0 as [|c [|]]; cbn in X; try tauto; destruct X as [X|[]]; discriminate]). }
        assert (Q : forall b, ~ In (n, Lhs) (flat_map part_facts b)) by (intros b X; apply in_flat_map in X; destruct X as (p & _ & X); now apply P in X).
        apply in_app_or in H. destruct H as [H|H]; [now apply Q in H|]. apply in_flat_map in H. destruct H as (b & _ & H). now apply Q in H.
  - intros (r & I). unfold file_grammar in I. apply in_map_iff in I. destruct I as ((n0 & b) & E & I). cbn [fst snd] in E. injection E as -> _. now destruct (part_in _ _ _ I).
Qed.

(** The numbers of the new symbols. *)
Lemma rules_gens : forall rs k x r m, In (x, r, m) (rules_out k rs) ->
  let c := List.length (flat_map (fun r => embedded (snd r)) rs) in
  (forall j, x = Gen j -> S k <= j <= k + c) /\ (forall j, In (Gen j) r -> S k <= j <= k + c).
Proof.
  induction rs as [|(l & b) rs IH]; intros k x r m I; [destruct I|]. cbn [rules_out] in I. cbn [flat_map snd]. rewrite app_length. cbn zeta. apply in_app_or in I. destruct I as [I|I].
  - unfold rule_out in I. apply in_app_or in I. destruct I as [I|[I|[]]].
    + apply in_map_iff in I. destruct I as (j & E & I). injection E as <- <- <-. apply in_seq in I. split; [intros j0 E; injection E as <-; lia|intros j0 []].
    + injection I as <- <- <-. split; [discriminate|]. intros j Ij. apply replaced_gens in Ij. lia.
  - destruct (IH _ _ _ _ I) as (H1 & H2). split; [intros j E; specialize (H1 j E); lia|intros j E; specialize (H2 j E); lia].
Qed.

Lemma conv_mark : forall num b k, mark (conv num k b) = option_map num (fmark b).
Proof.
  intros num b k. unfold mark, fmark. assert (E : flat_map (fun p => match p with Prop_ByaccMidrule.Prec p => [p] | _ => [] end) (conv num k b) = map num (flat_map (fun p => match p with FPrec x => [sym_name x] | _ => [] end) b)).
  { revert k. induction b as [|[x|ps|x] b IH]; intros k; cbn [conv flat_map app map]; [reflexivity|apply IH|apply IH|]. f_equal. apply IH. }
  rewrite E, <- map_rev. destruct (rev _); reflexivity.
Qed.
Lemma fmark_in : forall b n, fmark b = Some n -> exists x, In (FPrec x) b /\ n = sym_name x.
Proof.
  intros b n H. unfold fmark in H. destruct (rev _) as [|m l] eqn:E; [discriminate|]. injection H as <-. assert (I : In m (rev (flat_map (fun p => match p with FPrec x => [sym_name x] | _ => [] end) b))) by (rewrite E; now left).
  apply in_rev, in_flat_map in I. destruct I as (p & Ip & I). destruct p as [x|ps|x]; [destruct I|destruct I|]. destruct I as [<-|[]]. eauto.
Qed.

(** The rules of the source with the actions numbered. *)
Lemma conv_rules : forall num gs k, Forall2 (fun r c => fst c = num (fst r) /\ exists j, snd c = conv num j (snd r))
  (flat_map (fun f => map (pair (f_lhs f)) (f_body f :: f_alts f)) gs) (flat_map group_rules (conv_groups num k gs)).
Proof.
  intros num. induction gs as [|f gs IH]; intros k; [constructor|]. cbn [conv_groups flat_map]. apply Forall2_app; [|apply IH]. unfold group_rules, conv_group. cbn [gr_lhs gr_body gr_alts map]. constructor; [cbn; eauto|].
  generalize (k + acts_in (f_body f)) as j. induction (f_alts f) as [|b l IH2]; intros j; [constructor|]. cbn [conv_alts map]. constructor; [cbn; eauto|apply IH2].
Qed.

Lemma rules_out_name : forall rs k l r m, In (Name l, r, m) (rules_out k rs) -> exists b, In (l, b) rs /\ m = mark b.
Proof.
  induction rs as [|(n & b) rs IH]; intros k l r m I; [destruct I|]. cbn [rules_out] in I. apply in_app_or in I. destruct I as [I|I].
  - unfold rule_out in I. apply in_app_or in I. destruct I as [I|[I|[]]]; [apply in_map_iff in I; destruct I as (j & E & _); discriminate|]. injection I as <- <- <-. exists b. split; [now left|reflexivity].
  - destruct (IH _ _ _ _ I) as (b0 & H & E). exists b0. split; [now right|exact E].
Qed.

Lemma Forall2_in_r : forall A B (R : A -> B -> Prop) l m y, Forall2 R l m -> In y m -> exists x, In x l /\ R x y.
Proof. intros A B R l m y H. induction H as [|x z l m H1 H2 IH]; intros I; [destruct I|]. destruct I as [<-|I]; [exists x; split; [now left|auto]|]. destruct (IH I) as (u & Iu & Hu). exists u. split; [now right|auto]. Qed.

Section Pack.
Variable F : bfile.
Let L := file_facts F.
Let N := num L.
Let grs := flat_map group_rules (conv_groups N 0 (f_groups F)).
Let count := List.length (flat_map (fun r => embedded (snd r)) grs).

(** The buckets. *)
Definition known (b : bucket) : Prop := match b with Name i => exists n, In n (names L) /\ i = N n | Gen k => 1 <= k <= count end.

Lemma N_inj : forall x y, In x (names L) -> In y (names L) -> N x = N y -> x = y.
Proof. intros x y Hx Hy E. unfold N, num in E. pose proof (pos_nth _ _ Hx) as A. pose proof (pos_nth _ _ Hy) as B. congruence. Qed.

Lemma rules_known : forall x r m, In (x, r, m) (rules_out 0 grs) -> known x /\ Forall known r /\
  (forall l, x = Name l -> exists n, is_lhs L n /\ l = N n) /\ (forall l p, x = Name l -> m = Some p -> exists n, In n (names L) /\ p = N n).
Proof.
  intros x r m I. pose proof (rules_gens _ _ _ _ _ I) as (G1 & G2). fold count in G1, G2. pose proof (in_map fst _ _ I) as I2. cbn [fst] in I2. change (In (x, r) (strip (rules_out 0 grs))) in I2.
  assert (HL : forall l, x = Name l -> exists n, is_lhs L n /\ l = N n).
  { intros l ->. destruct (rules_out_name _ _ _ _ _ I) as (b & Ib & _). destruct (Forall2_in_r _ _ _ _ _ _ (conv_rules N (f_groups F) 0) Ib) as ((n & b0) & In0 & E & _). cbn [fst] in E. exists n. split; [|exact E]. change (In (n, b0) (file_rules F)) in In0. now destruct (part_in _ _ _ In0). }
  split; [|split; [|split; [exact HL|]]].
  - destruct x as [l|j]; [destruct (HL l eq_refl) as (n & H & E); exists n; split; [now apply lhs_in_names|exact E]|]. cbn. specialize (G1 j eq_refl). lia.
  - apply Forall_forall. intros [i|j] Ij; [|cbn; specialize (G2 j Ij); lia]. destruct (rules_out_in _ _ _ _ I2) as [(j & _ & ->)|(l & _ & P & _)]; [destruct Ij|].
    unfold grs in P. rewrite plain_file in P. unfold rename in P. apply in_map_iff in P. destruct P as ((n & rr) & E & P). cbn [fst snd] in E. injection E as _ E. destruct (grammar_in _ _ _ P) as (_ & FR).
    assert (IE : In i (erase r)) by (unfold erase; apply in_flat_map; exists (Name i); split; [exact Ij|now left]). rewrite <- E in IE. apply in_map_iff in IE. destruct IE as (m0 & <- & Im). rewrite Forall_forall in FR. exists m0. split; [now apply FR|reflexivity].
  - intros l p -> ->. destruct (rules_out_name _ _ _ _ _ I) as (b & Ib & E). destruct (Forall2_in_r _ _ _ _ _ _ (conv_rules N (f_groups F) 0) Ib) as ((n & b0) & In0 & _ & (j & Ej)). cbn [snd] in Ej. subst b. rewrite conv_mark in E.
    destruct (fmark b0) as [q|] eqn:EM; [|discriminate]. injection E as ->. exists q. split; [|reflexivity]. apply fmark_in in EM. destruct EM as (y & Iy & ->). change (In (n, b0) (file_rules F)) in In0. destruct (part_in _ _ _ In0) as (_ & H). apply sym_in_names. apply (H _ Iy). now left.
Qed.

Lemma file_packed : forall z file, file_text F (input file) -> file_ok F -> codes_fit F ->
  exists s src pr sv (idx : bucket -> nat), read_file file = ROk s /\ pack_file z s = ROk (src, pr, sv) /\
    b_rules src = rename idx (map fst (rules_out 0 grs)) /\ wf_src src /\ wf_prec src pr /\ wf_sv src sv /\ nth 0 sv 0%Z = 0%Z /\
    (forall a b, known a -> known b -> idx a = idx b -> a = b) /\ idx (Name (N (goal_of F))) = S (b_ntokens src) /\ In (goal_of F) (names L) /\
    (forall n, In n (names L) -> let i := idx (Name (N n)) in
       (~ is_lhs L n -> 0 < i < b_ntokens src) /\ (is_lhs L n -> b_ntokens src < i < b_nsyms src) /\ (nth i (symbol_prec pr) 0, nth i (symbol_assoc pr) TOKEN) = prec_val F n) /\
    (forall j, 1 <= j <= count -> b_ntokens src < idx (Gen j) < b_nsyms src) /\
    (forall n, file_token F n -> let c := nth (idx (Name (N n))) sv 0%Z in
       match code_of_sym L n with Some v => c = v | None => if teq n (zs "error") then c = 256%Z else (256 < c)%Z end) /\
    (forall k x r m, nth_error (rules_out 0 grs) k = Some (x, r, m) ->
       rule_precedence z (b_ntokens src) (symbol_prec pr) (symbol_assoc pr) (map idx r)
         (match m, x with None, _ => None | Some _, Gen _ => Some (0, TOKEN) | Some p, Name _ => Some (prec_val F (nth p (names L) [])) end) =
         Ok (nth (k + 3) (rprec pr) 0, nth (k + 3) (rassoc pr) TOKEN)) /\
    (exists syms gp pk, rmap (bucket_sym s) (d_chain s) = ROk syms /\ d_goal s = Some (N (goal_of F)) /\ bucket_pos (Name (N (goal_of F))) (d_chain s) = ROk gp /\
       pack_symbols syms gp = Ok pk /\ pk_ntokens pk = b_ntokens src /\ pk_nsyms pk = b_nsyms src /\ pk_index pk = map idx (d_chain s)) /\
    NoDup (d_chain s) /\ b_nsyms src = List.length (d_chain s) + 2 /\ (forall b, known b <-> In b (d_chain s)) /\ (forall n, In n (names L) -> exists x, info (N n) s = ROk x /\ b_name x = n) /\
    idx (Name (N (zs "error"))) = 1 /\ nth (b_ntokens src) sv 0%Z = (-1)%Z.
Proof.
  intros z file FT OK (CO1 & CO2 & CO3). fold L in CO1, CO2, CO3. destruct (file_read F file FT OK) as (s0 & g & gs & tx & h' & E & ST & CG & RG & GO & IG & _). fold L in E, ST, CG, GO, IG. fold N in CG, GO.
  set (s := set_infos _ s0) in E. assert (GR : group_rules g ++ flat_map group_rules gs = grs) by (unfold grs; rewrite CG; reflexivity).
  rewrite read_ok, GR in RG. injection RG as RG.
  pose proof (so_chain _ _ ST) as [CN1 CN2 CN3 CN4]. assert (RGS : r_gensym (d_rules s0) = count) by (rewrite <- RG; reflexivity). rewrite RGS in CN3.
  set (chain := d_chain s0) in *. assert (DC : d_chain s = chain) by reflexivity.
  assert (KN : forall b, known b <-> In b chain).
  { intros [i|k]; cbn [known]; [|symmetry; apply CN3]. rewrite CN2. split.
    - intros (n & In0 & ->). unfold N, num. apply nth_error_Some. rewrite (pos_nth _ _ In0). discriminate.
    - intros Li. destruct (nth_error (names L) i) as [n|] eqn:En; [|apply nth_error_None in En; lia]. assert (In0 : In n (names L)) by (eapply nth_error_In; eauto). exists n. split; [exact In0|].
      pose proof (pos_nth _ _ In0) as P. pose proof (names_nodup L) as ND. rewrite NoDup_nth_error in ND. unfold N, num. apply ND; [lia|congruence]. }
  (* the entries *)
  set (fin := fun n => match b_class (entry L n) with UNKNOWN => with_class TERM (entry L n) | _ => entry L n end).
  assert (INF : forall n, In n (names L) -> info (N n) s = ROk (fin n)).
  { intros n In0. unfold info, s. cbn [d_infos set_infos set_syms]. unfold table. rewrite map_map, nth_error_map. unfold N, num. rewrite (pos_nth _ _ In0). reflexivity. }
  assert (FC : forall n, b_class (fin n) = if lhsb L n then (if tokenb L n then TERM else NONTERM) else TERM).
  { intros n. unfold fin. unfold entry. cbn [b_class]. unfold class_of. destruct (tokenb L n), (lhsb L n); reflexivity. }
  assert (FV : forall n, b_value (fin n) = match code_of_sym L n with Some v => v | None => UNDEFINED end) by (intros n; unfold fin, entry; cbn [b_class]; destruct (class_of L n); reflexivity).
  assert (FP : forall n, (b_prec (fin n), b_assoc (fin n)) = prec_val F n) by (intros n; unfold prec_val, fin, entry; fold L; cbn [b_class]; destruct (class_of L n); cbn; destruct (prec_of_sym L n) as [(p & a)|]; reflexivity).
  set (bs := fun b => match b with Name i => let n := nth i (names L) [] in mkSym (match b_class (fin n) with TERM => true | _ => false end) (b_value (fin n)) (b_prec (fin n)) (b_assoc (fin n)) | Gen _ => mkSym false UNDEFINED 0 TOKEN end).
  assert (NN : forall n, In n (names L) -> nth (N n) (names L) [] = n) by (intros n In0; apply nth_error_nth; apply pos_nth; exact In0).
  assert (TRM : forall n, In n (names L) -> sy_term (bs (Name (N n))) = true <-> ~ is_lhs L n).
  { intros n In0. cbn [bs sy_term]. cbn zeta. rewrite (NN n In0), FC. destruct (lhsb L n) eqn:EL.
    - apply lhsb_iff in EL. pose proof (fo_lhs _ OK n EL) as NT. destruct (tokenb L n) eqn:ET; [apply tokenb_iff in ET; contradiction|]. split; [discriminate|tauto].
    - split; [intros _ X; apply lhsb_iff in X; congruence|reflexivity]. }
  assert (TRF : forall n, is_lhs L n -> sy_term (bs (Name (N n))) = false).
  { intros n H. destruct (sy_term (bs (Name (N n)))) eqn:X; [|reflexivity]. apply TRM in X; [contradiction|now apply lhs_in_names]. }
  set (syms := map bs chain).
  assert (RM : rmap (bucket_sym s) chain = ROk syms).
  { apply rmap_ok. intros b Ib. apply KN in Ib. destruct b as [i|k]; [|reflexivity]. destruct Ib as (n & In0 & ->). cbn [bucket_sym]. rewrite (INF n In0). cbn [rbind]. unfold bs. cbn zeta. now rewrite (NN n In0). }
  assert (NS : forall b, In b chain -> nth_error syms (bpos b chain) = Some (bs b)) by (intros b Ib; unfold syms; rewrite nth_error_map; destruct (bpos_ok chain b Ib) as (_ & ->); reflexivity).
  (* the goal and error *)
  assert (KG : In (Name (N (goal_of F))) chain) by (apply KN; exists (goal_of F); auto).
  pose proof (bpos_ok _ _ KG) as (BG & _). set (gp := bpos (Name (N (goal_of F))) chain) in *.
  assert (SG : nth_error syms gp = Some (bs (Name (N (goal_of F))))) by (apply NS; exact KG). pose proof (TRF _ (fo_goal _ OK)) as TG.
  assert (IE : In (zs "error") (names L)) by (apply names_in; now left).
  assert (NE : ~ is_lhs L (zs "error")) by (intros X; apply (fo_lhs _ OK) in X; apply X; now left).
  assert (P0 : N (zs "error") = 0) by (unfold N, num, names; cbn [firsts]; destruct (in_dec (list_eq_dec Z.eq_dec) (zs "error") []) as [[]|_]; cbn [pos]; destruct (list_eq_dec Z.eq_dec (zs "error") (zs "error")) as [|X]; [reflexivity|now destruct X]).
  assert (S0 : nth_error syms 0 = Some (bs (Name 0))) by (destruct CN4 as (r & EC); unfold syms; rewrite EC; reflexivity).
  assert (B0 : bpos (Name 0) chain = 0) by (destruct CN4 as (r & EC); rewrite EC; reflexivity).
  assert (T0 : sy_term (bs (Name 0)) = true) by (rewrite <- P0; now apply TRM).
  assert (SV : forall n, In n (names L) -> sy_value (bs (Name (N n))) = match code_of_sym L n with Some v => v | None => UNDEFINED end) by (intros n In0; cbn [bs sy_value]; cbn zeta; rewrite (NN n In0); apply FV).
  assert (TOKS : forall a x, nth_error syms a = Some x -> sy_term x = true -> exists n, file_token F n /\ x = bs (Name (N n)) /\ a = bpos (Name (N n)) chain).
  { intros a x Ea Tx. unfold syms in Ea. rewrite nth_error_map in Ea. destruct (nth_error chain a) as [b|] eqn:Eb; [|discriminate]. cbn [option_map] in Ea. injection Ea as <-. assert (Ib : In b chain) by (eapply nth_error_In; eauto).
    assert (EA : a = bpos b chain). { destruct (bpos_ok _ _ Ib) as (_ & Ep). rewrite NoDup_nth_error in CN1. apply CN1; [apply nth_error_Some; congruence|congruence]. }
    apply KN in Ib. destruct b as [i|k]; [|discriminate Tx]. destruct Ib as (n & In0 & ->). exists n. split; [split; [exact In0|now apply TRM]|]. auto. }
  destruct (pack_symbols_ok syms gp _ SG TG) as (pk & EP & PS).
  set (idx := fun b => nth (bpos b chain) (pk_index pk) 0).
  assert (IX : forall b, In b chain -> nth_error (pk_index pk) (bpos b chain) = Some (idx b)).
  { intros b Ib. apply nth_error_nth'. rewrite (ps_il _ _ _ PS). apply nth_error_Some. rewrite (NS b Ib). discriminate. }
  assert (BI : forall b, In b chain -> bucket_index chain pk b = ROk (idx b)) by (intros b Ib; unfold bucket_index; destruct (bpos_ok _ _ Ib) as (-> & _); cbn [rbind]; now rewrite IX).
  set (rules := rename idx (map fst (rules_out 0 grs))). set (src := mkSrc (pk_ntokens pk) (pk_nsyms pk) rules).
  destruct (C44_numbering syms gp _ _ rules SG TG S0 T0) as (pk2 & EP2 & NT & NSY & IG2 & ND & RNG & WSV & V0).
  { intros a x Ea Tx. destruct (TOKS a x Ea Tx) as (n & Tn & -> & _). rewrite SV by apply Tn. destruct (code_of_sym L n) as [v|] eqn:EC; [right; eauto|now left]. }
  { intros a b x y Ea Tx Eb Ty EV NU. destruct (TOKS a x Ea Tx) as (n & Tn & -> & ->). destruct (TOKS b y Eb Ty) as (m & Tm & -> & ->). rewrite SV in EV, NU by apply Tn. rewrite SV in EV by apply Tm.
    destruct (code_of_sym L n) as [v|] eqn:EC; [|now destruct NU]. destruct (code_of_sym L m) as [v2|] eqn:EC2; [|now destruct NU]. subst v2. now rewrite (CO2 n m v Tn Tm EC EC2). }
  { intros U a x Ea Tx. rewrite <- P0, SV in U by exact IE. assert (CE : code_of_sym L (zs "error") = None) by (destruct (code_of_sym L (zs "error")) as [v|] eqn:EC; [|reflexivity]; pose proof (CO1 _ _ (conj IE NE) EC) as X; unfold UNDEFINED in U; lia).
    destruct (TOKS a x Ea Tx) as (n & Tn & -> & _). rewrite SV by apply Tn. specialize (CO3 CE n Tn). destruct (code_of_sym L n); [congruence|unfold UNDEFINED; lia]. }
  rewrite EP in EP2. injection EP2 as <-. fold src in WSV.
  assert (RK : forall x r m, In (x, r, m) (rules_out 0 grs) -> In x chain /\ (forall y, In y r -> In y chain)).
  { intros x r m I. destruct (rules_known _ _ _ I) as (K1 & K2 & _). split; [now apply KN|]. intros y Iy. apply KN. rewrite Forall_forall in K2. auto. }
  assert (WS : wf_src src).
  { constructor; cbn [src b_ntokens b_nsyms b_rules].
    - rewrite NT. pose proof (rank_lt _ _ _ S0 T0). unfold nterm in H at 2. lia.
    - destruct (RNG gp _ _ SG IG2) as (_ & H & _). specialize (H TG). lia.
    - intros l r I. unfold rules, rename in I. apply in_map_iff in I. destruct I as ((x & rr) & Ex & I). cbn [fst snd] in Ex. injection Ex as <- <-. apply in_map_iff in I. destruct I as (((x0 & r0) & m) & Ex & I). cbn [fst] in Ex. injection Ex as -> ->.
      destruct (RK _ _ _ I) as (Ix & Ir). split.
      + destruct (RNG _ _ _ (NS x Ix) (IX x Ix)) as (_ & H & _). apply H. destruct x as [i|j]; [|reflexivity]. destruct (rules_known _ _ _ I) as (_ & _ & HL & _). destruct (HL i eq_refl) as (n & Ln & ->). now apply TRF.
      + intros y Iy. apply in_map_iff in Iy. destruct Iy as (b & <- & Ib). specialize (Ir b Ib). destruct (RNG _ _ _ (NS b Ir) (IX b Ir)) as (H1 & H2 & _). destruct (sy_term (bs b)); [specialize (H1 eq_refl)|specialize (H2 eq_refl)]; [|lia]. rewrite NSY, NT in *. pose proof (nonterm_count syms). unfold nterm in *. lia. }
  set (expl := map (fun x : bucket * list bucket * option nat => match snd x, fst (fst x) with None, _ => None | Some _, Gen _ => Some (0, TOKEN) | Some p, Name _ => Some (prec_val F (nth p (names L) [])) end) (rules_out 0 grs)).
  destruct (pack_precs_ok z src (pk_prec pk) (pk_assoc pk) expl WS) as (pr & EPR & WPR & SP & SA & RP).
  { apply (ps_pl _ _ _ PS). } { apply (ps_al _ _ _ PS). } { unfold expl. cbn [src b_rules]. unfold rules, rename. now rewrite !map_length. }
  exists s, src, pr, (pk_value pk), idx. split; [exact E|]. split.
  { unfold pack_file. cbn zeta. rewrite DC, RM. cbn [rbind]. assert (DG : d_goal s = Some (N (goal_of F))) by exact GO. rewrite DG. cbn [rbind]. rewrite BG. cbn [rbind]. rewrite EP. cbn [lift rbind].
    assert (DR : d_rules s = after grs) by (symmetry; exact RG). rewrite DR. unfold after. rewrite pack_closed. cbn [lift rbind].
    rewrite (rmap_ok _ _ _ (fun x : bucket * list bucket * option nat => (idx (fst (fst x)), map idx (snd (fst x))))).
    2:{ intros ((x & r) & m) I. cbn [fst snd]. destruct (RK _ _ _ I) as (Ix & Ir). rewrite (BI x Ix). cbn [rbind]. rewrite (rmap_ok _ _ _ idx) by (intros y Iy; apply BI; auto). reflexivity. }
    cbn [rbind]. rewrite (rmap_ok _ _ _ (fun x : bucket * list bucket * option nat => match snd x, fst (fst x) with None, _ => None | Some _, Gen _ => Some (0, TOKEN) | Some p, Name _ => Some (prec_val F (nth p (names L) [])) end)).
    2:{ intros ((x & r) & m) I. cbn [fst snd]. destruct m as [p|]; [|reflexivity]. destruct x as [l|j]; [|reflexivity]. cbn [explicit_prec]. destruct (rules_known _ _ _ I) as (_ & _ & _ & HM). destruct (HM l p eq_refl eq_refl) as (n & In0 & ->). rewrite (INF n In0). cbn [rbind]. now rewrite (NN n In0), FP. }
    cbn [rbind]. fold expl. assert (ER : map (fun x : bucket * list bucket * option nat => (idx (fst (fst x)), map idx (snd (fst x)))) (rules_out 0 grs) = rules) by (unfold rules, rename; rewrite map_map; reflexivity).
    rewrite ER. fold src. rewrite EPR. reflexivity. }
  split; [reflexivity|]. split; [exact WS|]. split; [exact WPR|]. split; [exact WSV|]. split; [exact (ps_end _ _ _ PS)|]. split.
  { intros a b Ka Kb EI. apply KN in Ka, Kb. pose proof (IX a Ka) as A. pose proof (IX b Kb) as B. rewrite EI in A. destruct (bpos_ok _ _ Ka) as (_ & Pa). destruct (bpos_ok _ _ Kb) as (_ & Pb).
    rewrite NoDup_nth_error in ND. assert (EQ : bpos a chain = bpos b chain) by (apply ND; [apply nth_error_Some; congruence|congruence]). congruence. }
  split; [pose proof (IX _ KG) as X; fold gp in X; rewrite IG2 in X; now injection X as X|]. split; [exact IG|]. split.
  { intros n In0. cbn zeta. assert (Kn : In (Name (N n)) chain) by (apply KN; exists n; auto). destruct (RNG _ _ _ (NS _ Kn) (IX _ Kn)) as (H1 & H2 & H3 & H4). rewrite SP, SA, H3, H4. split; [intros X; apply H1; now apply TRM|]. split; [intros X; apply H2; now apply TRF|].
    cbn [bs sy_prec sy_assoc]. cbn zeta. rewrite (NN n In0). apply FP. }
  split.
  { intros j Hj. assert (Kj : In (Gen j) chain) by (apply KN; exact Hj). destruct (RNG _ _ _ (NS _ Kj) (IX _ Kj)) as (_ & H2 & _). now apply H2. }
  split.
  { intros n Tn. cbn zeta. assert (Kn : In (Name (N n)) chain) by (apply KN; exists n; split; [apply Tn|reflexivity]). destruct (C44_token_codes syms gp _ _ SG TG S0 T0) as (pk2 & EP2 & CE & CC). rewrite EP in EP2. injection EP2 as <-.
    assert (CV : forall c, code_of pk (bpos (Name (N n)) chain) = Some c -> nth (idx (Name (N n))) (pk_value pk) 0%Z = c) by (intros c Hc; unfold code_of in Hc; rewrite (IX _ Kn) in Hc; now apply nth_error_nth).
    assert (TT : sy_term (bs (Name (N n))) = true) by (apply TRM; apply Tn). destruct (CC _ _ (NS _ Kn) TT) as (C1 & C2). rewrite SV in C1, C2 by apply Tn.
    destruct (code_of_sym L n) as [v|] eqn:EC.
    - apply CV, C1. pose proof (CO1 _ _ Tn EC). unfold UNDEFINED. lia.
    - destruct (teq n (zs "error")) as [->|NEQ].
      + apply CV. rewrite P0, B0. apply CE. rewrite <- P0, SV by exact IE. now rewrite EC.
      + destruct C2 as (c & C2 & C3 & _); [|reflexivity|].
        * intros X. apply NEQ. apply N_inj; [apply Tn|exact IE|]. destruct (bpos_ok _ _ Kn) as (_ & P1). rewrite X in P1. destruct CN4 as (r & EC4). rewrite EC4 in P1. change (Some (Name 0) = Some (Name (N n))) in P1. assert (P2 : 0 = N n) by congruence. now rewrite P0.
        * rewrite (CV c C2). exact C3. }
  split.
  { intros k x r m Ek. rewrite SP, SA. apply (RP k (idx x) (map idx r)).
    - cbn [src b_rules]. unfold rules, rename. rewrite map_map, nth_error_map, Ek. reflexivity.
    - unfold expl. rewrite nth_error_map, Ek. reflexivity. }
  split.
  { exists syms, gp, pk. split; [rewrite DC; exact RM|]. split; [exact GO|]. split; [rewrite DC; exact BG|]. split; [exact EP|]. split; [reflexivity|]. split; [reflexivity|]. rewrite DC.
    assert (LI : List.length (pk_index pk) = List.length chain) by (rewrite (ps_il _ _ _ PS); unfold syms; apply map_length).
    assert (EQ : forall l m : list nat, List.length l = List.length m -> (forall k, k < List.length m -> nth_error l k = nth_error m k) -> l = m).
    { clear. induction l as [|a l IH]; intros [|b m] E H; try discriminate; [reflexivity|]. pose proof (H 0 ltac:(cbn; lia)) as H0. injection H0 as ->. f_equal. apply IH; [now injection E|]. intros k Lk. apply (H (S k)). cbn [List.length]. lia. }
    apply EQ; [now rewrite map_length|]. intros k Lk. rewrite map_length in Lk. rewrite nth_error_map. destruct (nth_error chain k) as [b|] eqn:Eb; [|apply nth_error_None in Eb; lia]. cbn [option_map].
    assert (Ib : In b chain) by (eapply nth_error_In; eauto). rewrite <- (IX b Ib). f_equal. destruct (bpos_ok _ _ Ib) as (_ & Ep). rewrite NoDup_nth_error in CN1. apply CN1; [exact Lk|congruence]. }
  split; [rewrite DC; exact CN1|]. split; [rewrite DC; cbn [src b_nsyms]; rewrite NSY; unfold syms; now rewrite map_length|]. split; [rewrite DC; exact KN|]. split.
  { intros n In0. exists (fin n). split; [exact (INF n In0)|]. unfold fin. destruct (b_class (entry L n)); reflexivity. }
  split; [|exact (ps_acc _ _ _ PS)].
  rewrite P0. assert (K0 : In (Name 0) chain) by (destruct CN4 as (r & EC); rewrite EC; now left). pose proof (IX _ K0) as X. rewrite B0 in X. rewrite (ps_tok _ _ _ PS 0 _ S0 T0) in X. now injection X as <-.
Qed.
End Pack.
