(** The tables of the generated parser say what the automaton and the parser actions
    say (model: ByaccOutputModel.output_tables). *)
From Coq Require Import List Arith NArith ZArith Lia Bool Sorted.
Import ListNotations.
From Verif Require Import Base SpecGrammar SpecGrammarFacts SpecLRFacts SpecByacc ByaccWarshallModel ByaccWarshallProof ByaccLr0Model ByaccPackProof
  ByaccClosureProof ByaccNullProof ByaccLr0Proof ByaccStatesProof ByaccLalrModel ByaccDigraphProof ByaccTransposeProof ByaccLookSem ByaccGotoProof ByaccReadProof
  ByaccLookProof ByaccParModel SpecByaccConflicts ByaccParProof ByaccActionsProof ByaccOutputModel ByaccPackTableProof ByaccRowsProof Prop_ByaccConflicts Prop_ByaccPacking.

Lemma map_filter_NoDup : forall A B (f : A -> B) g l, NoDup (map f l) -> NoDup (map f (filter g l)).
Proof.
  intros A B f g. induction l as [|a l IH]; intros H; cbn [filter map] in *; [constructor|]. inversion H as [|? ? N1 N2]; subst.
  destruct (g a); [|now apply IH]. cbn. constructor; [|now apply IH]. intros I. apply N1. apply in_map_iff in I. destruct I as (x & E & I).
  apply filter_In in I. rewrite <- E. now apply in_map.
Qed.

Lemma map_NoDup_inj : forall A B (f : A -> B) l, NoDup l -> (forall a a', In a l -> In a' l -> f a = f a' -> a = a') -> NoDup (map f l).
Proof.
  intros A B f. induction l as [|a l IH]; intros ND H; cbn; [constructor|]. inversion ND as [|? ? N1 N2]; subst. constructor.
  - intros I. apply in_map_iff in I. destruct I as (x & E & I). apply N1. rewrite (H a x); auto with datatypes.
  - apply IH; auto with datatypes.
Qed.

Lemma slice_ok : forall A (l : list A) m n, n <= length l -> slice l m n = Ok (firstn (n - m) (skipn m l)).
Proof. intros A l m n L. unfold slice. destruct (Nat.leb_spec n (length l)); [|lia]. rewrite andb_false_r. reflexivity. Qed.

Lemma nth_slice : forall A (l : list A) m n k, k < n - m -> nth_error (firstn (n - m) (skipn m l)) k = nth_error l (m + k).
Proof.
  intros A l m n k L.
  assert (X : forall (l : list A) n k, k < n -> nth_error (firstn n l) k = nth_error l k).
  { clear. induction l as [|a l IH]; intros n k L; [now rewrite firstn_nil|]. destruct n; [lia|]. destruct k; [reflexivity|]. cbn. apply IH. lia. }
  rewrite X by exact L. clear. revert l. induction m as [|m IH]; intros l; [reflexivity|]. destruct l as [|a l]; [now destruct k|]. cbn. apply IH.
Qed.

Lemma Forall2_nth : forall A B (P : A -> B -> Prop) l l' k x, Forall2 P l l' -> nth_error l k = Some x -> exists y, nth_error l' k = Some y /\ P x y.
Proof.
  intros A B P l l' k x F. revert k. induction F as [|a b0 l l' H F IH]; intros k E; [destruct k; discriminate|]. destruct k as [|k]; cbn in *; [inversion E; subst; eauto|eauto].
Qed.

(** What byacc/reader.c pack_symbols guarantees about symbol_value when the codes of the
    tokens are pairwise different. *)
Record wf_sv (s : bsrc) (sv : list Z) : Prop := {
  sv_len : length sv = b_nsyms s;
  sv_pos : forall t, t < b_ntokens s -> (0 <= nth t sv 0)%Z;
  sv_inj : forall t t', t < b_ntokens s -> t' < b_ntokens s -> nth t sv 0%Z = nth t' sv 0%Z -> t = t';
  sv_nt : forall k, b_ntokens s < k < b_nsyms s -> nth k sv 0%Z = Z.of_nat (k - b_ntokens s - 1)
}.

Section Tables.
Variable s : bsrc.
Hypothesis W : wf_src s.
Variable st : lr0st.
Hypothesis LO : lr0_ok s st.
Variable T : lalr_tables.
Hypothesis TO : lalr_ok s st T.
Variable pr : bprec.
Hypothesis WP : wf_prec s pr.
Variable flag : bool.
Variable P : par.
Hypothesis PO : par_ok s st T pr flag P.
Variable sv : list Z.
Hypothesis SV : wf_sv s sv.
Local Notation b := (pack_grammar s).
Local Notation go := (go st).
Local Notation nst := (nst st).
Local Notation nt := (b_ntokens s).

(** ** The actions of a state *)
Record acts_ok (p : nat) (acts : list action) : Prop := {
  ao_spec : forall a, In a acts -> a_supp a = 0 -> act_spec s st pr p a;
  ao_nd : NoDup (map a_sym (filter live acts));
  ao_def : 0 < sole_reduction acts -> (forall a, In a acts -> a_supp a = 0 -> a_shift a = false /\ a_num a = sole_reduction acts) /\ In (sole_reduction acts) (reds_of st p)
}.

Lemma parser_state : forall p, p < nst -> exists acts, nth_error (p_parser P) p = Some acts /\ nth_error (p_defred P) p = Some (sole_reduction acts) /\ acts_ok p acts.
Proof.
  intros p Lp. destruct (po_state _ _ _ _ _ _ PO p Lp) as (acts & sr & rr & Q1 & Q2 & Q3 & (a0 & Q8 & Q4 & Q5 & Q6 & Q7)).
  exists acts. split; [exact Q1|]. split; [now rewrite (po_def _ _ _ _ _ _ PO), nth_error_map, Q1|].
  assert (IN : forall a, In a acts -> a_supp a = 0 -> In a a0) by (intros w Hw Zw; rewrite <- (ro_same _ _ _ _ _ _ Q7), <- (sup_supp w Zw); now apply in_map).
  assert (SP : forall a, In a acts -> a_supp a = 0 -> act_spec s st pr p a) by (intros a Ha Za; apply Q6; auto).
  assert (HN : forall a, In a acts -> a_shift a = false -> 0 < a_num a).
  { intros a Ha Sa. assert (I0 : In (sup 0 a) a0) by (rewrite <- (ro_same _ _ _ _ _ _ Q7); now apply in_map). apply Q6 in I0. apply act_num_red in I0; auto.
    destruct (reds_range s W st LO p _ Lp I0) as (k0 & X & _). cbn in X. lia. }
  constructor.
  - exact SP.
  - assert (ND : NoDup acts).
    { apply (NoDup_map_inv (sup 0)). rewrite (ro_same _ _ _ _ _ _ Q7). clear - Q4. induction Q4 as [|a l SS IH F]; constructor; [|exact IH].
      intros I. rewrite Forall_forall in F. specialize (F a I). unfold act_lt in F. destruct F as [F|(_ & [[F F']|(_ & _ & F)])]; [lia|congruence|lia]. }
    apply map_NoDup_inj; [apply NoDup_filter; exact ND|]. intros a a' Ia Ia' E. apply filter_In in Ia, Ia'. destruct Ia as [Ia La], Ia' as [Ia' La'].
    unfold live in *. apply Nat.eqb_eq in La, La'.
    destruct (remove_conflicts1_ok flag (p =? p_final P) a0 Q4 Q5) as (x & y & z & EE & O).
    apply (C40_one_live flag (p =? p_final P) a0 x y z Q4 Q5 EE); auto.
    + apply (ro_live _ _ _ _ _ _ O a (IN a Ia La)). now apply (ro_live _ _ _ _ _ _ Q7 a (IN a Ia La)).
    + apply (ro_live _ _ _ _ _ _ O a' (IN a' Ia' La')). now apply (ro_live _ _ _ _ _ _ Q7 a' (IN a' Ia' La')).
  - intros Hk. destruct (proj1 (sole_reduction_ok acts (sole_reduction acts) Hk HN) eq_refl) as [A (a & Ia & Za & _)]. split; [exact A|].
    destruct (A a Ia Za) as [B1 B2]. rewrite <- B2. apply (act_num_red s st pr p a Lp); auto.
Qed.

Lemma spec_range : forall p a, p < nst -> act_spec s st pr p a -> a_sym a < nt /\ 0 < a_num a.
Proof.
  intros p a Lp [(t & q & H & L & ->)|(t & r & L & H & _ & ->)]; cbn.
  - destruct (go_sitem s W st LO _ _ _ H) as (_ & _ & N & _). split; [auto|lia].
  - split; [auto|lia].
Qed.

(** What a vector of state [p] holds. *)
Definition sh_ent (acts : list action) (x t : Z) : Prop := exists a, In a acts /\ a_supp a = 0 /\ a_shift a = true /\ x = nth (a_sym a) sv 0%Z /\ t = Z.of_nat (a_num a).
Definition rd_ent (acts : list action) (x t : Z) : Prop :=
  exists a, In a acts /\ a_supp a = 0 /\ a_shift a = false /\ a_num a <> sole_reduction acts /\ x = nth (a_sym a) sv 0%Z /\ t = (Z.of_nat (a_num a) - 2)%Z.

Lemma live_iff : forall a, live a = true <-> a_supp a = 0.
Proof. intros a. unfold live. apply Nat.eqb_eq. Qed.

Lemma token_rows_ok : exists l1 l2, token_rows b sv (p_parser P) (p_defred P) = Ok (l1, l2) /\ length l1 = nst /\ length l2 = nst /\
  forall p acts, nth_error (p_parser P) p = Some acts -> exists v1 v2, nth_error l1 p = Some v1 /\ nth_error l2 p = Some v2 /\ vec_ok v1 /\ vec_ok v2 /\
    (forall x t, In (x, t) (v_ent v1) <-> sh_ent acts x t) /\ (forall x t, In (x, t) (v_ent v2) <-> rd_ent acts x t).
Proof.
  assert (X : forall l d k, (forall i acts, nth_error l i = Some acts -> nth_error d i = Some (sole_reduction acts) /\ acts_ok (k + i) acts /\ k + i < nst) ->
    exists l1 l2, token_rows b sv l d = Ok (l1, l2) /\ length l1 = length l /\ length l2 = length l /\
    forall p acts, nth_error l p = Some acts -> exists v1 v2, nth_error l1 p = Some v1 /\ nth_error l2 p = Some v2 /\ vec_ok v1 /\ vec_ok v2 /\
    (forall x t, In (x, t) (v_ent v1) <-> sh_ent acts x t) /\ (forall x t, In (x, t) (v_ent v2) <-> rd_ent acts x t)).
  { induction l as [|acts l IH]; intros d k H; cbn [token_rows].
    - exists [], []. split; [reflexivity|]. repeat split; auto. intros p acts E. destruct p; discriminate.
    - destruct (H 0 acts eq_refl) as (E1 & E2 & E3). destruct d as [|d0 d]; [discriminate|]. cbn in E1. inversion E1; subst d0.
      destruct (token_row_ok b sv acts (sole_reduction acts)) as (v1 & v2 & R1 & R2 & R3 & R4 & R5).
      + rewrite b_ntok, (sv_len _ _ SV). pose proof (ws_goal s W). lia.
      + intros i Hi. rewrite b_ntok in Hi. apply (sv_pos _ _ SV). exact Hi.
      + intros i j Hi Hj. rewrite b_ntok in Hi, Hj. apply (sv_inj _ _ SV); auto.
      + intros a Ia La. rewrite b_ntok. apply (spec_range (k + 0) a E3). apply (ao_spec _ _ E2); auto. now apply live_iff.
      + apply (ao_nd _ _ E2).
      + rewrite R1. cbn [bind]. destruct (IH d (S k)) as (l1 & l2 & Q1 & Q2 & Q3 & Q4).
        * intros i acts0 Ei. replace (S k + i) with (k + S i) by lia. apply (H (S i) acts0 Ei).
        * rewrite Q1. cbn [bind]. exists (v1 :: l1), (v2 :: l2). split; [reflexivity|]. split; [cbn; auto|]. split; [cbn; auto|].
          intros [|p] acts0 Ep; cbn in Ep; [|apply Q4; exact Ep]. inversion Ep; subst acts0. exists v1, v2. do 2 (split; [reflexivity|]). split; [exact R2|]. split; [exact R3|].
          split; intros x t; [rewrite R4|rewrite R5]; unfold sh_ent, rd_ent; split; intros (a & Q); exists a; rewrite live_iff in *; tauto. }
  destruct (X (p_parser P) (p_defred P) 0) as (l1 & l2 & A & B & C & D).
  - intros i acts E. assert (L : i < nst) by (rewrite <- (po_len _ _ _ _ _ _ PO); eapply nth_error_Some_lt; eauto).
    destruct (parser_state i L) as (acts' & E1 & E2 & E3). assert (acts' = acts) by congruence. subst. auto.
  - exists l1, l2. rewrite (po_len _ _ _ _ _ _ PO) in *. auto.
Qed.

(** ** The columns of gotos *)
Variable g : gotos.
Hypothesis GO : goto_ok s st g.

Definition col_ok (X d : nat) (v : vec) : Prop :=
  vec_ok v /\ forall x t, In (x, t) (v_ent v) <-> exists p q, go p X q /\ q <> d /\ x = Z.of_nat p /\ t = Z.of_nat q.

Lemma col_bounds : forall X, nt < X < b_nsyms s -> exists m n, nth_error (g_map g) (X - ntokens b) = Some m /\ nth_error (g_map g) (S (X - ntokens b)) = Some n /\
  m <= n <= ngotos g /\ (forall p q, go p X q <-> exists i, m <= i < n /\ nth_error (g_from g) i = Some p /\ nth_error (g_to g) i = Some q) /\
  (forall i i' p p', m <= i -> i < i' -> i' < n -> nth_error (g_from g) i = Some p -> nth_error (g_from g) i' = Some p' -> p < p').
Proof.
  intros X HX. rewrite b_ntok. pose proof (gm_len _ _ _ GO) as GL. pose proof (nv s) as NV. exists (nth (X - nt) (g_map g) 0), (nth (S (X - nt)) (g_map g) 0).
  split; [apply nth_error_nth'; lia|]. split; [apply nth_error_nth'; lia|].
  split; [split; [apply (gm_mono _ _ _ GO); lia|rewrite <- (gm_last _ _ _ GO); apply (gm_mono _ _ _ GO); lia]|]. split.
  - intros p q. split.
    + intros H. destruct (gm_ex _ _ _ GO p X q H ltac:(lia)) as (i & H1 & H2 & H3). exists i. auto.
    + intros (i & H1 & H2 & H3). destruct (gm_go _ _ _ GO i) as (p' & x & q' & E1 & E2 & E3 & E4 & E5).
      { pose proof (gm_mono _ _ _ GO (S (X - nt)) (nvars b) ltac:(lia) ltac:(lia)). rewrite (gm_last _ _ _ GO) in H. lia. }
      assert (p' = p) by congruence. assert (q' = q) by congruence. subst. assert (x < b_nsyms s).
      { destruct (go_range s W st LO _ _ _ E3) as (Q1 & _). lia. }
      assert (x = X); [|subst; auto]. destruct (Nat.lt_trichotomy x X) as [L|[L|L]]; [exfalso|exact L|exfalso].
      * pose proof (gm_mono _ _ _ GO (S (x - nt)) (X - nt) ltac:(lia) ltac:(lia)). lia.
      * pose proof (gm_mono _ _ _ GO (S (X - nt)) (x - nt) ltac:(lia) ltac:(lia)). lia.
  - intros i i' p p' H1 H2 H3. apply (gm_srt _ _ _ GO X); lia.
Qed.

Lemma count_to_ok : forall to c, (forall q, In q to -> q < length c) -> exists c', count_to to c = Ok c'.
Proof.
  induction to as [|q to IH]; intros c H; cbn [count_to]; [eauto|]. destruct (nth_error_lt_ex _ c q (H q (or_introl eq_refl))) as [x Ex]. rewrite Ex. cbn [opt bind].
  apply IH. intros q' I. rewrite upd_length. apply H. now right.
Qed.

Lemma in_slice : forall A (l : list A) m n x, In x (firstn (n - m) (skipn m l)) <-> exists i, m <= i < n /\ nth_error l i = Some x.
Proof.
  intros A l m n x. split.
  - intros I. apply In_nth_error in I. destruct I as (k & E). assert (k < n - m).
    { apply nth_error_Some_lt in E. rewrite firstn_length in E. lia. }
    rewrite nth_slice in E by assumption. exists (m + k). split; [lia|exact E].
  - intros (i & L & E). apply (nth_error_In _ (i - m)). rewrite nth_slice by lia. replace (m + (i - m)) with i by lia. exact E.
Qed.

Lemma nth_combine : forall A B (a : list A) (b0 : list B) k x y, nth_error (combine a b0) k = Some (x, y) <-> nth_error a k = Some x /\ nth_error b0 k = Some y.
Proof.
  induction a as [|u a IH]; intros [|v b0] [|k] x y; cbn; try (split; [discriminate|intros [? ?]; discriminate]).
  - split; [intros E; inversion E; auto|intros [E1 E2]; congruence].
  - apply IH.
Qed.

Lemma default_goto_ok : forall X, nt < X < b_nsyms s -> exists d, default_goto b g nst X = Ok d.
Proof.
  intros X HX. destruct (col_bounds X HX) as (m & n & E1 & E2 & E3 & E4 & _). unfold default_goto. rewrite E1, E2. cbn [opt bind].
  destruct (m =? n); [eauto|]. rewrite slice_ok by (rewrite (gm_to _ _ _ GO); lia). cbn [bind].
  destruct (count_to_ok (firstn (n - m) (skipn m (g_to g))) (repeat 0 nst)) as (c & Ec).
  - intros q I. rewrite repeat_length. apply in_slice in I. destruct I as (i & L & E). destruct (gm_go _ _ _ GO i ltac:(lia)) as (p & x & q' & _ & Q & Q2 & _).
    assert (q' = q) by congruence. subst. apply (go_sitem s W st LO _ _ _ Q2).
  - rewrite Ec. cbn [bind]. eauto.
Qed.

Lemma save_column_ok : forall X d, nt < X < b_nsyms s -> exists v, save_column b g X d = Ok v /\ col_ok X d v.
Proof.
  intros X d HX. destruct (col_bounds X HX) as (m & n & E1 & E2 & E3 & E4 & E5). unfold save_column. rewrite E1, E2. cbn [opt bind].
  rewrite slice_ok by (rewrite (gm_to _ _ _ GO); lia). cbn [bind]. rewrite slice_ok by (change (length (g_from g)) with (ngotos g); lia). cbn [bind].
  set (fr := firstn (n - m) (skipn m (g_from g))). set (to := firstn (n - m) (skipn m (g_to g))).
  assert (LF : length fr = n - m) by (unfold fr; rewrite firstn_length, skipn_length; change (length (g_from g)) with (ngotos g); lia).
  assert (LT : length to = n - m) by (unfold to; rewrite firstn_length, skipn_length, (gm_to _ _ _ GO); lia).
  assert (IC : forall p q, In (p, q) (combine fr to) <-> go p X q).
  { intros p q. rewrite E4. split.
    - intros I. apply In_nth_error in I. destruct I as (k & Ek). apply nth_combine in Ek. destruct Ek as [K1 K2].
      assert (k < n - m) by (rewrite <- LF; eapply nth_error_Some_lt; eauto). unfold fr, to in *. rewrite nth_slice in K1, K2 by assumption. exists (m + k). repeat split; auto; lia.
    - intros (i & L & K1 & K2). apply (nth_error_In _ (i - m)). apply nth_combine. unfold fr, to. rewrite !nth_slice by lia. replace (m + (i - m)) with i by lia. auto. }
  assert (ND : NoDup (map fst (combine fr to))).
  { assert (EM : forall (a b0 : list nat), length a = length b0 -> map fst (combine a b0) = a).
    { clear. induction a as [|x a IH]; intros [|y b0] L; try discriminate; [reflexivity|]. cbn. f_equal. apply IH. cbn in L. lia. }
    rewrite EM by lia. apply NoDup_nth_error. intros i j Hi E. rewrite LF in Hi. destruct (nth_error fr i) as [x|] eqn:Ei; [|apply nth_error_None in Ei; lia].
    assert (Lj : j < n - m) by (rewrite <- LF; eapply nth_error_Some_lt; eauto). symmetry in E. unfold fr in Ei, E. rewrite nth_slice in Ei, E by assumption.
    destruct (Nat.lt_trichotomy i j) as [L|[L|L]]; [exfalso|exact L|exfalso].
    - pose proof (E5 (m + i) (m + j) x x ltac:(lia) ltac:(lia) ltac:(lia) Ei E). lia.
    - pose proof (E5 (m + j) (m + i) x x ltac:(lia) ltac:(lia) ltac:(lia) E Ei). lia. }
  set (l := filter (fun e => negb (snd e =? d)) (combine fr to)).
  assert (IL : forall p q, In (p, q) l <-> go p X q /\ q <> d).
  { intros p q. unfold l. rewrite filter_In, IC. cbn. rewrite negb_true_iff, Nat.eqb_neq. tauto. }
  assert (NL : NoDup (map fst l)) by (apply map_filter_NoDup; exact ND).
  assert (CO : forall w, col_ok X d (mkVec (map (fun e => (Z.of_nat (fst e), Z.of_nat (snd e))) l) w)).
  { intros w. split; [split|]; cbn [v_ent].
    - intros e I. apply in_map_iff in I. destruct I as (x & <- & _). cbn. lia.
    - rewrite map_map. cbn [fst]. rewrite <- (map_map fst Z.of_nat). apply FinFun.Injective_map_NoDup; [intros x y; lia|exact NL].
    - intros x t. rewrite in_map_iff. split.
      + intros ((p & q) & E & I). inversion E; subst. apply IL in I. exists p, q. cbn. tauto.
      + intros (p & q & H1 & H2 & -> & ->). exists (p, q). split; [reflexivity|]. now apply IL. }
  destruct l as [|e l'] eqn:EL.
  - exists no_vec. split; [reflexivity|]. specialize (CO 0%Z). exact CO.
  - eexists. split; [reflexivity|]. apply CO.
Qed.

Lemma goto_loop_ok : forall syms cols, (forall X, In X syms -> nt < X < b_nsyms s) -> NoDup syms -> length cols = b_nsyms s - nt ->
  exists dg cols', goto_loop b sv g nst syms cols = Ok (dg, cols') /\ length dg = length syms /\ length cols' = length cols /\
    (forall k X, nth_error syms k = Some X -> exists d v, nth_error dg k = Some d /\ col_ok X d v /\ nth_error cols' (X - nt - 1) = Some v) /\
    (forall i, (forall X, In X syms -> X - nt - 1 <> i) -> nth_error cols' i = nth_error cols i).
Proof.
  induction syms as [|X syms IH]; intros cols H ND LC; cbn [goto_loop].
  - exists [], cols. split; [reflexivity|]. repeat split; auto. intros k X E. destruct k; discriminate.
  - pose proof (H X (or_introl eq_refl)) as HX. inversion ND as [|? ? N1 N2]; subst. destruct (default_goto_ok X HX) as (d & Ed). rewrite Ed. cbn [bind].
    destruct (save_column_ok X d HX) as (v & Ev & Cv). rewrite Ev. cbn [bind].
    assert (EX : nth_error sv X = Some (Z.of_nat (X - nt - 1))). { rewrite <- (sv_nt _ _ SV X HX). apply nth_error_nth'. rewrite (sv_len _ _ SV). lia. }
    rewrite EX. cbn [opt bind]. destruct (Z.leb_spec 0 (Z.of_nat (X - nt - 1))); [|lia]. rewrite Nat2Z.id. unfold put. destruct (Nat.ltb_spec (X - nt - 1) (length cols)); [|lia]. cbn [bind].
    destruct (IH (upd cols (X - nt - 1) v)) as (dg & cols' & E1 & E2 & E3 & E4 & E5).
    + intros Y I. apply H. now right.
    + exact N2.
    + now rewrite upd_length.
    + rewrite E1. cbn [bind]. exists (d :: dg), cols'. split; [reflexivity|]. split; [cbn; auto|]. split; [now rewrite upd_length in E3|]. split.
      * intros [|k] Y Ek; cbn in Ek; [|now apply E4]. inversion Ek; subst Y. exists d, v. split; [reflexivity|]. split; [exact Cv|]. rewrite E5.
        -- apply nth_error_upd_eq. lia.
        -- intros Y I E. apply N1. replace X with Y; [exact I|]. specialize (H Y (or_intror I)). lia.
      * intros i Hi. rewrite E5 by (intros Y I; apply Hi; now right). apply nth_error_upd_ne. specialize (Hi X (or_introl eq_refl)). congruence.
Qed.

(** ** The generated tables *)
Record ytab_ok (Y : ytabs) : Prop := {
  yo_lhs : forall r A l, prl s r A l -> nth_error (y_lhs Y) r = Some (Z.of_nat (A - nt - 1));
  yo_len : forall r A l, prl s r A l -> nth_error (y_len Y) r = Some (length l);
  yo_def : forall p acts, nth_error (p_parser P) p = Some acts -> nth_error (y_defred Y) p = Some (if sole_reduction acts =? 0 then 0 else sole_reduction acts - 2);
  yo_sh : forall p acts x, nth_error (p_parser P) p = Some acts -> (0 <= x)%Z ->
    exists ix o, nth_error (y_sindex Y) p = Some ix /\ ylookup (y_high Y) (y_table Y) (y_check Y) ix x = Ok o /\ forall t, o = Some t <-> sh_ent acts x t;
  yo_rd : forall p acts x, nth_error (p_parser P) p = Some acts -> (0 <= x)%Z ->
    exists ix o, nth_error (y_rindex Y) p = Some ix /\ ylookup (y_high Y) (y_table Y) (y_check Y) ix x = Ok o /\ forall t, o = Some t <-> rd_ent acts x t;
  yo_go : forall p X q, go p X q -> nt < X ->
    exists ix d o, nth_error (y_gindex Y) (X - nt - 1) = Some ix /\ nth_error (y_dgoto Y) (X - nt - 1) = Some d /\
      ylookup (y_high Y) (y_table Y) (y_check Y) ix (Z.of_nat p) = Ok o /\ match o with Some t => t | None => Z.of_nat d end = Z.of_nat q;
  yo_final : y_final Y = p_final P;
  yo_err : y_errcode Y = nth 1 sv 0%Z
}.

Lemma rule_tables_ok : exists lhs len, rule_lhs b sv = Ok lhs /\ rule_len b = Ok len /\
  (forall r A l, prl s r A l -> nth_error lhs r = Some (Z.of_nat (A - nt - 1))) /\ (forall r A l, prl s r A l -> nth_error len r = Some (length l)).
Proof.
  unfold rule_lhs, rule_len. assert (SS : start_symbol b = nt) by (unfold start_symbol; apply b_ntok). rewrite SS.
  assert (EX : exists x, nth_error sv nt = Some x) by (apply nth_error_lt_ex; rewrite (sv_len _ _ SV); pose proof (ws_goal s W); lia). destruct EX as [x0 EX]. rewrite EX. cbn [opt bind].
  assert (NR : nrules b - 3 = length (b_rules s)) by (rewrite b_nrules; cbn; lia). rewrite NR.
  assert (IR : forall i, In i (seq 3 (length (b_rules s))) -> exists A l, nth_error (prules s) (i - 2) = Some (A, l) /\ prl s (i - 2) A l).
  { intros i I. apply in_seq in I. destruct (nth_error_lt_ex _ (prules s) (i - 2)) as [[A l] E]; [cbn; lia|]. exists A, l. split; [exact E|]. split; [lia|exact E]. }
  destruct (map_res_ok _ _ (fun i => bind (opt (nth_error (rlhs b) i)) (fun a => opt (nth_error sv a)))
     (fun i y => forall A l, prl s (i - 2) A l -> y = Z.of_nat (A - nt - 1)) (seq 3 (length (b_rules s)))) as (lhs & E1 & F1).
  { intros i I. destruct (IR i I) as (A & l & E & PL). apply in_seq in I. assert (EI : nth_error (rlhs b) i = Some A).
    { rewrite b_rlhs. destruct i as [|[|i]]; [lia|lia|]. cbn [nth_error]. cbn [Nat.sub] in E. rewrite Nat.sub_0_r in E. rewrite nth_error_map, E. reflexivity. }
    rewrite EI. cbn [opt bind].
    pose proof (prl_lhs_range s W _ _ _ PL) as RA. exists (Z.of_nat (A - nt - 1)). split.
    - rewrite <- (sv_nt _ _ SV A RA). rewrite (nth_error_nth' sv 0%Z); [reflexivity|]. rewrite (sv_len _ _ SV). lia.
    - intros A' l' [_ E']. rewrite E in E'. inversion E'. reflexivity. }
  destruct (map_res_ok _ _ (fun i => bind (opt (nth_error (rrhs b) i)) (fun m => bind (opt (nth_error (rrhs b) (S i))) (fun n => Ok (n - m - 1))))
     (fun i y => forall A l, prl s (i - 2) A l -> y = length l) (seq 3 (length (b_rules s)))) as (len & E2 & F2).
  { intros i I. destruct (IR i I) as (A & l & E & PL). apply in_seq in I. assert (Li : S (i - 2) <= length (prules s)) by (cbn; lia).
    pose proof (b_rrhs s (i - 2) ltac:(lia)) as B1. pose proof (b_rrhs s (S (i - 2)) Li) as B2. replace (S (S (i - 2))) with i in B1, B2 by lia. rewrite B1. cbn [opt bind].
    rewrite B2. cbn [opt bind]. rewrite (base_S _ _ _ _ E). eexists. split; [reflexivity|]. intros A' l' [_ E']. rewrite E in E'. inversion E'. subst. lia. }
  rewrite E1, E2. cbn [bind]. eexists _, _. split; [reflexivity|]. split; [reflexivity|].
  assert (NS : forall r A l, prl s r A l -> exists r', r = S r' /\ nth_error (seq 3 (length (b_rules s))) r' = Some (S (S r))).
  { intros r A l [N E]. destruct r as [|r']; [congruence|]. exists r'. split; [reflexivity|]. apply nth_error_Some_lt in E. cbn in E.
    rewrite (nth_error_nth' _ 0) by (rewrite seq_length; lia). f_equal. rewrite seq_nth; lia. }
  split; intros r A l PL; destruct (NS r A l PL) as (r' & -> & E); cbn [nth_error].
  - destruct (Forall2_nth _ _ _ _ _ _ _ F1 E) as (y & Ey & Hy). rewrite Ey. f_equal. apply (Hy A l). replace (S (S (S r')) - 2) with (S r') by lia. exact PL.
  - destruct (Forall2_nth _ _ _ _ _ _ _ F2 E) as (y & Ey & Hy). rewrite Ey. f_equal. apply (Hy A l). replace (S (S (S r')) - 2) with (S r') by lia. exact PL.
Qed.

(** The family of vectors that is packed. *)
Lemma vectors_ok : exists l1 l2 dg cols, token_rows b sv (p_parser P) (p_defred P) = Ok (l1, l2) /\ goto_actions b sv g nst = Ok (dg, cols) /\
  rows_ok (l1 ++ l2 ++ repeat no_vec nst ++ cols) /\ length l1 = nst /\ length l2 = nst /\ length dg = b_nsyms s - nt - 1 /\ length cols = b_nsyms s - nt /\
  (forall p acts, nth_error (p_parser P) p = Some acts -> exists v1 v2, nth_error l1 p = Some v1 /\ nth_error l2 p = Some v2 /\
    (forall x t, In (x, t) (v_ent v1) <-> sh_ent acts x t) /\ (forall x t, In (x, t) (v_ent v2) <-> rd_ent acts x t)) /\
  (forall X, nt < X < b_nsyms s -> exists d v, nth_error dg (X - nt - 1) = Some d /\ nth_error cols (X - nt - 1) = Some v /\ col_ok X d v).
Proof.
  destruct token_rows_ok as (l1 & l2 & E1 & L1 & L2 & H1). unfold goto_actions. unfold start_symbol. rewrite b_ntok, b_nsy, (nv s).
  destruct (goto_loop_ok (seq (S nt) (b_nsyms s - S nt)) (repeat no_vec (b_nsyms s - nt))) as (dg & cols & E2 & L3 & L4 & H2 & H3).
  - intros X I. apply in_seq in I. lia.
  - apply seq_NoDup.
  - apply repeat_length.
  - exists l1, l2, dg, cols. split; [exact E1|]. split; [exact E2|]. rewrite seq_length in L3. rewrite repeat_length in L4.
    assert (HC : forall X, nt < X < b_nsyms s -> exists d v, nth_error dg (X - nt - 1) = Some d /\ nth_error cols (X - nt - 1) = Some v /\ col_ok X d v).
    { intros X HX. destruct (H2 (X - nt - 1) X) as (d & v & Q1 & Q2 & Q3); [|eauto 6].
      rewrite (nth_error_nth' _ 0) by (rewrite seq_length; lia). f_equal. rewrite seq_nth; lia. }
    split; [|split; [auto|split; [auto|split; [lia|split; [auto|split; [|exact HC]]]]]].
    + assert (NV : vec_ok no_vec) by (split; [intros e []|constructor]).
      intros v I. apply in_app_or in I. destruct I as [I|I]; [|apply in_app_or in I; destruct I as [I|I]; [|apply in_app_or in I; destruct I as [I|I]]].
      * apply In_nth_error in I. destruct I as (p & Ep). destruct (nth_error_lt_ex _ (p_parser P) p) as [acts Ea]; [rewrite (po_len _ _ _ _ _ _ PO), <- L1; eapply nth_error_Some_lt; eauto|].
        destruct (H1 p acts Ea) as (v1 & v2 & Q1 & Q2 & Q3 & Q4 & _). assert (v1 = v) by congruence. subst. exact Q3.
      * apply In_nth_error in I. destruct I as (p & Ep). destruct (nth_error_lt_ex _ (p_parser P) p) as [acts Ea]; [rewrite (po_len _ _ _ _ _ _ PO), <- L2; eapply nth_error_Some_lt; eauto|].
        destruct (H1 p acts Ea) as (v1 & v2 & Q1 & Q2 & Q3 & Q4 & _). assert (v2 = v) by congruence. subst. exact Q4.
      * apply repeat_spec in I. subst. exact NV.
      * apply In_nth_error in I. destruct I as (i & Ei). assert (Li : i < b_nsyms s - nt) by (rewrite <- L4; eapply nth_error_Some_lt; eauto).
        destruct (Nat.eq_dec i (b_nsyms s - nt - 1)) as [->|N].
        -- rewrite H3 in Ei; [apply nth_error_In, repeat_spec in Ei; subst; exact NV|]. intros X I. apply in_seq in I. lia.
        -- destruct (HC (i + nt + 1) ltac:(lia)) as (d & v' & _ & Q2 & Q3). replace (i + nt + 1 - nt - 1) with i in Q2 by lia. assert (v' = v) by congruence. subst. apply Q3.
    + intros p acts Ea. destruct (H1 p acts Ea) as (v1 & v2 & Q1 & Q2 & _ & _ & Q3 & Q4). eauto 8.
Qed.

Lemma nth_error_slice0 : forall (l : list Z) m n k, n <= length l -> k < n - m -> nth_error (firstn (n - m) (skipn m l)) k = Some (nth (m + k) l 0%Z).
Proof. intros l m n k L1 L2. rewrite nth_slice by exact L2. apply nth_error_nth'. lia. Qed.

Hypothesis TG : t_gotos T = g.

(** Whenever the tables are produced they are right; they are produced when there are
    fewer than 1000 entries. *)
Theorem output_tables_ok : forall fuel Y, output_tables fuel b sv T P = Ok Y -> ytab_ok Y.
Proof.
  intros fuel Y E. unfold output_tables in E.
  assert (LT : length (t_access T) = nst) by (rewrite (lo_access _ _ _ TO); unfold accessing; now rewrite map_length). rewrite LT in E.
  destruct rule_tables_ok as (lhs & len & R1 & R2 & R3 & R4). rewrite R1 in E. cbn [bind] in E. rewrite R2 in E. cbn [bind] in E.
  destruct vectors_ok as (l1 & l2 & dg & cols & V1 & V2 & V3 & V4 & V5 & V6 & V7 & V8 & V9). rewrite V1 in E. cbn [bind] in E. rewrite TG, V2 in E. cbn [bind] in E.
  set (vs := l1 ++ l2 ++ repeat no_vec nst ++ cols) in *. destruct (pack_table fuel vs nst) as [k| |] eqn:EP; cbn [bind] in E; try discriminate.
  assert (LV : length vs = 3 * nst + (b_nsyms s - nt)) by (unfold vs; rewrite !app_length, repeat_length; lia).
  (* length of base *)
  assert (LB : length (k_base k) = length vs /\ S (k_high k) <= length (k_table k) /\ length (k_table k) = length (k_check k)).
  { destruct (bound_ex vs) as (F & HF). set (f' := Nat.max fuel (S (length vs) * (F + 2))).
    pose proof (pack_loop_mono vs nst fuel f' _ _ _ _ EP ltac:(lia)) as E'.
    destruct (pack_table_ok vs nst V3 F HF f' ltac:(lia)) as [(pk & k' & Q1 & Q2)|[Q1 _]]; unfold pack_table in Q1; rewrite E' in Q1; [|discriminate].
    inversion Q1; subst k'. pose proof (pi_bl _ _ _ _ Q2). pose proof (pi_high _ _ _ _ Q2). pose proof (pi_len _ _ _ _ Q2). lia. }
  destruct LB as (LB & LH & LC). rewrite (nv s) in E. pose proof (ws_goal s W) as WG. pose proof (ws_tok s W) as WT.
  rewrite (slice_ok _ (k_base k) 0 nst) in E by lia. cbn [bind] in E.
  rewrite (slice_ok _ (k_base k) nst (2 * nst)) in E by lia. cbn [bind] in E.
  rewrite (slice_ok _ (k_base k) (3 * nst) (3 * nst + (b_nsyms s - nt) - 1)) in E by lia. cbn [bind] in E.
  rewrite (slice_ok _ (k_table k)) in E by lia. cbn [bind] in E. rewrite (slice_ok _ (k_check k)) in E by lia. cbn [bind] in E.
  rewrite (nth_error_nth' sv 0%Z) in E by (rewrite (sv_len _ _ SV); lia). cbn [opt bind] in E. rewrite !Nat.sub_0_r in E. cbn [skipn] in E. inversion E. clear E. subst Y.
  pose proof (C42_lookup fuel vs nst k V3 EP) as LK.
  constructor; cbn [y_lhs y_len y_defred y_dgoto y_sindex y_rindex y_gindex y_high y_table y_check y_final y_errcode]; auto.
  - intros p acts Ea. unfold yydefred. rewrite nth_error_map. assert (Lp : p < nst) by (rewrite <- (po_len _ _ _ _ _ _ PO); eapply nth_error_Some_lt; eauto).
    destruct (parser_state p Lp) as (acts' & Q1 & Q2 & _). assert (acts' = acts) by congruence. subst. rewrite Q2. reflexivity.
  - intros p acts x Ea Hx. assert (Lp : p < nst) by (rewrite <- (po_len _ _ _ _ _ _ PO); eapply nth_error_Some_lt; eauto). destruct (V8 p acts Ea) as (v1 & v2 & Q1 & Q2 & Q3 & Q4).
    assert (EV : nth_error vs p = Some v1) by (unfold vs; rewrite nth_error_app1 by lia; exact Q1).
    destruct (LK p v1 x EV Hx) as (o & O1 & O2). exists (nth p (k_base k) 0%Z), o. split; [|split; [exact O1|intros t; rewrite O2; apply Q3]].
    pose proof (nth_error_slice0 (k_base k) 0 nst p ltac:(lia) ltac:(lia)) as Z0. rewrite Nat.sub_0_r in Z0. exact Z0.
  - intros p acts x Ea Hx. assert (Lp : p < nst) by (rewrite <- (po_len _ _ _ _ _ _ PO); eapply nth_error_Some_lt; eauto). destruct (V8 p acts Ea) as (v1 & v2 & Q1 & Q2 & Q3 & Q4).
    assert (EV : nth_error vs (nst + p) = Some v2).
    { unfold vs. rewrite nth_error_app2 by lia. replace (nst + p - length l1) with p by lia. rewrite nth_error_app1 by lia. exact Q2. }
    destruct (LK (nst + p) v2 x EV Hx) as (o & O1 & O2). exists (nth (nst + p) (k_base k) 0%Z), o. split; [|split; [exact O1|intros t; rewrite O2; apply Q4]].
    apply (nth_error_slice0 (k_base k) nst (2 * nst) p); lia.
  - intros p X q HG HX. destruct (go_range s W st LO _ _ _ HG) as (RX & _). destruct (V9 X ltac:(lia)) as (d & v & Q1 & Q2 & Q3 & Q4).
    assert (EV : nth_error vs (3 * nst + (X - nt - 1)) = Some v).
    { unfold vs. rewrite nth_error_app2 by lia. rewrite nth_error_app2 by lia. rewrite nth_error_app2 by (rewrite repeat_length; lia). rewrite repeat_length.
      replace (3 * nst + (X - nt - 1) - length l1 - length l2 - nst) with (X - nt - 1) by lia. exact Q2. }
    destruct (LK _ v (Z.of_nat p) EV ltac:(lia)) as (o & O1 & O2). exists (nth (3 * nst + (X - nt - 1)) (k_base k) 0%Z), d, o.
    split; [apply (nth_error_slice0 (k_base k) (3 * nst)); lia|]. split; [exact Q1|]. split; [exact O1|].
    destruct o as [t|].
    + destruct (proj1 (Q4 (Z.of_nat p) t) (proj1 (O2 t) eq_refl)) as (p' & q' & H1 & H2 & H3 & ->). assert (p' = p) by lia. subst p'.
      f_equal. exact (go_det s st LO _ _ _ _ H1 HG).
    + destruct (Nat.eq_dec q d) as [->|N]; [reflexivity|]. exfalso. assert (Q : None = Some (Z.of_nat q)); [|discriminate]. apply O2, Q4. exists p, q. auto.
Qed.

Theorem output_tables_total : exists vs, rows_ok vs /\ exists fuel0, forall fuel, fuel0 <= fuel ->
  (exists Y, output_tables fuel b sv T P = Ok Y) \/ (output_tables fuel b sv T P = Bad /\ 1000 <= list_sum (map (fun v => length (v_ent v)) vs)).
Proof.
  destruct vectors_ok as (l1 & l2 & dg & cols & V1 & V2 & V3 & V4 & V5 & V6 & V7 & V8 & V9). exists (l1 ++ l2 ++ repeat no_vec nst ++ cols). split; [exact V3|].
  destruct (bound_ex (l1 ++ l2 ++ repeat no_vec nst ++ cols)) as (F & HF). eexists. intros fuel Hf.
  destruct (pack_table_ok _ nst V3 F HF fuel Hf) as [(pk & k & Q1 & Q2)|[Q1 Q2]]; unfold output_tables;
    assert (LT : length (t_access T) = nst) by (rewrite (lo_access _ _ _ TO); unfold accessing; now rewrite map_length); rewrite LT;
    destruct rule_tables_ok as (lhs & len & R1 & R2 & R3 & R4); rewrite R1; cbn [bind]; rewrite R2; cbn [bind]; rewrite V1; cbn [bind]; rewrite TG, V2; cbn [bind]; rewrite Q1; cbn [bind].
  - left. pose proof (pi_bl _ _ _ _ Q2) as LB. pose proof (pi_high _ _ _ _ Q2). pose proof (pi_len _ _ _ _ Q2). rewrite !app_length, repeat_length in LB.
    rewrite (nv s). pose proof (ws_goal s W) as WG. pose proof (ws_tok s W) as WT.
    rewrite (slice_ok _ (k_base k) 0 nst) by lia. cbn [bind]. rewrite (slice_ok _ (k_base k) nst (2 * nst)) by lia. cbn [bind].
    rewrite (slice_ok _ (k_base k) (3 * nst)) by lia. cbn [bind].
    rewrite (slice_ok _ (k_table k)) by lia. cbn [bind]. rewrite (slice_ok _ (k_check k)) by lia. cbn [bind].
    rewrite (nth_error_nth' sv 0%Z) by (rewrite (sv_len _ _ SV); lia). cbn [opt bind]. eauto.
  - right. split; [reflexivity|exact Q2].
Qed.
End Tables.
