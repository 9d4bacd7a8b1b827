(** Correctness of the LR(0) state construction. *)
From Coq Require Import List Arith NArith Lia Bool Permutation Sorted.
Import ListNotations.
From Verif Require Import Base SpecGrammar SpecGrammarFacts SpecLRFacts LemonSetModel LemonSetProof
  LemonFirstModel LemonFirstProof LemonSortModel LemonSortProof LemonStatesModel LemonClosureProof.
Local Open Scope res_scope.

(** * Ordering of items *)

Lemma Configcmp_trans : forall x y z,
  Configcmp_le x y = true -> Configcmp_le y z = true -> Configcmp_le x z = true.
Proof.
  intros [a b] [c d] [e f]. unfold Configcmp_le. simpl.
  destruct (Nat.eqb_spec a c); destruct (Nat.eqb_spec c e); destruct (Nat.eqb_spec a e);
    try lia; rewrite ?Nat.leb_le, ?Nat.ltb_lt; lia.
Qed.

Lemma Configcmp_total : forall x y, Configcmp_le x y = true \/ Configcmp_le y x = true.
Proof.
  intros [a b] [c d]. unfold Configcmp_le. simpl.
  destruct (Nat.eqb_spec a c); destruct (Nat.eqb_spec c a); try lia;
    rewrite ?Nat.leb_le, ?Nat.ltb_lt; lia.
Qed.

Lemma Configcmp_antisym : forall x y, Configcmp_le x y = true -> Configcmp_le y x = true -> x = y.
Proof.
  intros [a b] [c d]. unfold Configcmp_le. simpl.
  destruct (Nat.eqb_spec a c); destruct (Nat.eqb_spec c a); try lia;
    rewrite ?Nat.leb_le, ?Nat.ltb_lt; intros; try lia. f_equal; lia.
Qed.

Definition isorted := StronglySorted (fun x y => Configcmp_le x y = true).

Lemma sorted_unique : forall a b : list item, isorted a -> isorted b -> NoDup a -> NoDup b ->
  (forall x, In x a <-> In x b) -> a = b.
Proof.
  induction a as [|x a IH]; intros [|y b] Sa Sb Na Nb E; auto.
  - exfalso. apply (E y). left; auto.
  - exfalso. apply (E x). left; auto.
  - inversion Sa as [|? ? Sa' Fa]; subst. inversion Sb as [|? ? Sb' Fb]; subst.
    inversion Na as [|? ? NIa Na']; subst. inversion Nb as [|? ? NIb Nb']; subst.
    rewrite Forall_forall in Fa, Fb.
    assert (EX : x = y).
    { destruct (proj1 (E x)) as [H|H]; [left; auto|auto|].
      destruct (proj2 (E y)) as [H2|H2]; [left; auto|auto|].
      apply Configcmp_antisym; auto. }
    subst y. f_equal. apply IH; auto. intros z. split; intros Hz.
    + destruct (proj1 (E z)) as [->|H]; auto; [right; auto|contradiction].
    + destruct (proj2 (E z)) as [->|H]; auto; [right; auto|contradiction].
Qed.

Lemma StronglySorted_map : forall A B (f : A -> B) (R : B -> B -> Prop) l,
  StronglySorted (fun x y => R (f x) (f y)) l -> StronglySorted R (map f l).
Proof.
  intros A B f R l H. induction H; simpl; constructor; auto.
  apply Forall_map. auto.
Qed.

Lemma sort_cfgs_sorted : forall h l, isorted (map (key h) (sort_cfgs h l)).
Proof.
  intros h l. unfold sort_cfgs, isorted. apply StronglySorted_map.
  apply (msort_sorted (fun x y => Configcmp_le (key h x) (key h y))).
  - intros x y z. apply Configcmp_trans.
  - intros x y. apply Configcmp_total.
Qed.

Lemma sort_cfgs_perm : forall h l, length l < 2 ^ LISTSIZE -> Permutation (sort_cfgs h l) l.
Proof. intros h l H. apply msort_perm. auto. Qed.

Lemma statecmp_eq_iff : forall a b, statecmp_eq a b = true <-> a = b.
Proof.
  induction a as [|[x1 x2] a IH]; intros [|[y1 y2] b]; simpl; try (split; congruence).
  rewrite !andb_true_iff, IH, !Nat.eqb_eq. split.
  - intros [[-> ->] ->]. auto.
  - intros H. inversion H; subst. auto.
Qed.

Lemma items_of_ok : forall h l, (forall x, In x l -> x < length h) -> items_of h l = Ok (map (key h) l).
Proof.
  intros h l. induction l as [|x l IH]; intros H; simpl; auto.
  destruct (nth_error_lt_ex _ h x) as [c Hc]. { apply H; left; auto. }
  rewrite Hc. simpl. rewrite IH by (intros; apply H; right; auto). simpl.
  unfold key, cf. rewrite (nth_error_Some_nth _ _ _ _ _ Hc). reflexivity.
Qed.

Lemma cf_nth_error : forall h x, x < length h -> nth_error h x = Some (cf h x).
Proof. intros h x H. unfold cf. apply nth_error_nth'. auto. Qed.

Lemma cf_upd_eq : forall h x c, x < length h -> cf (upd h x c) x = c.
Proof. intros. unfold cf. now apply nth_upd_eq. Qed.

Lemma cf_upd_ne : forall h x y c, x <> y -> cf (upd h x c) y = cf h y.
Proof. intros. unfold cf. now apply nth_upd_ne. Qed.

Lemma cf_app1 : forall a b x, x < length a -> cf (a ++ b) x = cf a x.
Proof. intros. unfold cf. now apply app_nth1. Qed.

Lemma cf_app2 : forall a b p, cf (a ++ b) (length a + p) = cf b p.
Proof. intros. unfold cf. rewrite app_nth2 by lia. f_equal. lia. Qed.

(** * Invariants *)

Section P.
Variable g : grammar.
Hypothesis WF : wf_grammar g.
Variable lam : list bool.
Variable fs : list cset.
Hypothesis LE : lam_exact g lam.
Hypothesis FE : fs_exact g fs.

(** All items of the grammar. *)
Definition all_items : list item :=
  flat_map (fun r => match rule_of g r with
                     | Some rl => map (fun d => (r, d)) (seq 0 (S (length (r_rhs rl))))
                     | None => []
                     end) (seq 0 (length (g_rules g))).

Lemma all_items_In : forall i, In i all_items <-> item_ok g i.
Proof.
  intros [r d]. unfold all_items, item_ok. rewrite in_flat_map. cbn [fst snd]. split.
  - intros (x & Hx & H). destruct (rule_of g x) as [rl|] eqn:E; [|contradiction].
    apply in_map_iff in H as (d' & Hd & H). inversion Hd; subst. apply in_seq in H.
    exists rl. split; auto. lia.
  - intros (rl & E & H). exists r. split.
    + apply in_seq. unfold rule_of in E. apply nth_error_Some_lt in E. lia.
    + rewrite E. apply in_map_iff. exists d. split; auto. apply in_seq. lia.
Qed.

Local Arguments key : simpl never.
(** The lists sorted by msort stay below its capacity.  (Stated over [N] so that
    no tactic is tempted to compute the power in unary.) *)
Hypothesis SIZE : (N.of_nat (length all_items) < 2 ^ N.of_nat LISTSIZE)%N.
Lemma SIZE' : length all_items < 2 ^ LISTSIZE.
Proof.
  pose proof SIZE as H. change 2%N with (N.of_nat 2) in H. rewrite <- Nat2N.inj_pow in H.
  apply N.compare_lt_iff in H. rewrite <- Nat2N.inj_compare in H. now apply Nat.compare_lt_iff in H.
Qed.

Definition acts (X : elem) (q : nat) : list action := add_shifts [] X q.

Lemma add_shifts_app : forall ap X q, add_shifts ap X q = acts X q ++ ap.
Proof.
  intros ap [s|l] q; unfold acts; simpl; auto.
  assert (H : forall l ap b, fold_left (fun a s => Action_add a SHIFT s q) l (ap ++ b) =
     fold_left (fun a s => Action_add a SHIFT s q) l ap ++ b).
  { clear. induction l as [|s l IH]; intros ap b; simpl; auto.
    unfold Action_add at 2 4. rewrite <- (IH (mkAction SHIFT s q :: ap) b). reflexivity. }
  exact (H l [] ap).
Qed.

Definition kern (L : lemon) (st : state) : list item := map (key (l_cfgs L)) (s_bp st).
Definition its (L : lemon) (st : state) : list item := map (key (l_cfgs L)) (s_cfp st).

Record SInv (L : lemon) : Prop := {
  si_valid : forall q st x, nth_error (l_states L) q = Some st -> In x (s_cfp st) ->
    x < length (l_cfgs L);
  si_bp : forall q st x, nth_error (l_states L) q = Some st -> In x (s_bp st) -> In x (s_cfp st);
  si_nd : forall q st, nth_error (l_states L) q = Some st -> NoDup (its L st);
  si_ndbp : forall q st, nth_error (l_states L) q = Some st -> NoDup (kern L st);
  si_sorted : forall q st, nth_error (l_states L) q = Some st -> isorted (kern L st);
  si_clos : forall q st i, nth_error (l_states L) q = Some st ->
    (In i (its L st) <-> clos g (fun x => In x (kern L st)) i);
  si_reach : forall q st, nth_error (l_states L) q = Some st ->
    exists gm, forall i, In i (its L st) <-> valid g gm i;
  si_fplp : forall q st x y, nth_error (l_states L) q = Some st -> In x (s_cfp st) ->
    (In y (c_fplp (cf (l_cfgs L) x)) <->
     exists A r, after_dot g (key (l_cfgs L) x) = Some (ESym A) /\ lhs_is g r A /\
       nullable g (rest_after g (key (l_cfgs L) x)) /\ In y (s_cfp st) /\ key (l_cfgs L) y = (r, 0));
  si_size : forall q st x, nth_error (l_states L) q = Some st -> In x (s_cfp st) ->
    length (c_fws (cf (l_cfgs L) x)) = first_set_size g;
  si_fws : forall q st x t, nth_error (l_states L) q = Some st -> In x (s_cfp st) ->
    (SetFind (c_fws (cf (l_cfgs L) x)) t = true <->
     (q = 0 /\ t = 0 /\ In x (s_bp st)) \/
     exists i A r, In i (its L st) /\ after_dot g i = Some (ESym A) /\ lhs_is g r A /\
       key (l_cfgs L) x = (r, 0) /\ first g (rest_after g i) t);
  si_bplp : forall q st x y, nth_error (l_states L) q = Some st -> In x (s_cfp st) ->
    In y (c_bplp (cf (l_cfgs L) x)) ->
    exists q' st' X, nth_error (l_states L) q' = Some st' /\ In y (s_cfp st') /\
      after_dot g (key (l_cfgs L) y) = Some X /\
      key (l_cfgs L) x = (fst (key (l_cfgs L) y), S (snd (key (l_cfgs L) y))) /\
      In x (s_bp st) /\
      (forall i, In i (kern L st) <-> goto_items g (fun j => In j (its L st')) X i);
  si_disj : forall q q' st st' x, nth_error (l_states L) q = Some st ->
    nth_error (l_states L) q' = Some st' -> In x (s_cfp st) -> In x (s_cfp st') -> q = q';
  si_kinj : forall q q' st st', nth_error (l_states L) q = Some st ->
    nth_error (l_states L) q' = Some st' -> kern L st = kern L st' -> q = q';
  si_first : forall st, nth_error (l_states L) 0 = Some st ->
    forall i, In i (kern L st) <-> start_items g i;
  si_pos : forall q st, nth_error (l_states L) q = Some st -> 0 < q ->
    kern L st <> [] /\ forall i, In i (kern L st) -> 0 < snd i
}.

(** [Ext k L L']: L' extends L; links only grow; states below [k] keep their
    actions and completion marks. *)
Record Ext (k : nat) (L L' : lemon) : Prop := {
  ex_states : forall q st, nth_error (l_states L) q = Some st ->
    exists st', nth_error (l_states L') q = Some st' /\ s_bp st' = s_bp st /\ s_cfp st' = s_cfp st /\
      (q < k -> s_ap st' = s_ap st);
  ex_len : length (l_cfgs L) <= length (l_cfgs L');
  ex_cf : forall q st x, nth_error (l_states L) q = Some st -> In x (s_cfp st) ->
    key (l_cfgs L') x = key (l_cfgs L) x /\
    incl (c_bplp (cf (l_cfgs L) x)) (c_bplp (cf (l_cfgs L') x)) /\
    (q < k -> c_comp (cf (l_cfgs L') x) = c_comp (cf (l_cfgs L) x))
}.

Lemma Ext_refl : forall k L, Ext k L L.
Proof.
  intros k L. constructor; auto.
  - intros q st H. exists st. auto.
  - intros q st x _ _. split; auto. split; auto. apply incl_refl.
Qed.

Lemma Ext_trans : forall k L1 L2 L3, Ext k L1 L2 -> Ext k L2 L3 -> Ext k L1 L3.
Proof.
  intros k L1 L2 L3 E1 E2. constructor.
  - intros q st H. destruct (ex_states _ _ _ E1 q st H) as (st2 & H2 & B2 & C2 & A2).
    destruct (ex_states _ _ _ E2 q st2 H2) as (st3 & H3 & B3 & C3 & A3).
    exists st3. split; auto. split; [congruence|]. split; [congruence|].
    intros Hk. rewrite A3, A2; auto.
  - pose proof (ex_len _ _ _ E1). pose proof (ex_len _ _ _ E2). lia.
  - intros q st x H Hx. destruct (ex_states _ _ _ E1 q st H) as (st2 & H2 & B2 & C2 & A2).
    destruct (ex_cf _ _ _ E1 q st x H Hx) as (K1 & I1 & P1).
    destruct (ex_cf _ _ _ E2 q st2 x H2) as (K2 & I2 & P2); [rewrite C2; auto|].
    split; [congruence|]. split; [eapply incl_tran; eauto|].
    intros Hk. rewrite P2, P1; auto.
Qed.

Lemma Ext_weaken : forall k k' L L', k' <= k -> Ext k L L' -> Ext k' L L'.
Proof.
  intros k k' L L' Hk E. constructor.
  - intros q st H. destruct (ex_states _ _ _ E q st H) as (st' & H1 & H2 & H3 & H4).
    exists st'. split; auto. split; auto. split; auto. intros. apply H4. lia.
  - apply E.
  - intros q st x H Hx. destruct (ex_cf _ _ _ E q st x H Hx) as (H1 & H2 & H3).
    split; auto. split; auto. intros. apply H3. lia.
Qed.

Lemma Ext_nstates : forall k L L', Ext k L L' -> length (l_states L) <= length (l_states L').
Proof.
  intros k L L' E. destruct (le_lt_dec (length (l_states L)) (length (l_states L'))) as [H|H]; auto.
  destruct (nth_error_lt_ex _ _ _ H) as [st Hst].
  destruct (ex_states _ _ _ E _ _ Hst) as (st' & H1 & _). apply nth_error_Some_lt in H1. lia.
Qed.

Lemma Ext_its : forall k L L' q st st', Ext k L L' -> nth_error (l_states L) q = Some st ->
  s_cfp st' = s_cfp st -> its L' st' = its L st.
Proof.
  intros k L L' q st st' E H Hc. unfold its. rewrite Hc. apply map_ext_in.
  intros x Hx. eapply ex_cf; eauto.
Qed.

Lemma Ext_kern : forall k L L' q st st', Ext k L L' -> SInv L -> nth_error (l_states L) q = Some st ->
  s_bp st' = s_bp st -> kern L' st' = kern L st.
Proof.
  intros k L L' q st st' E SI H Hc. unfold kern. rewrite Hc. apply map_ext_in.
  intros x Hx. eapply ex_cf; eauto. eapply si_bp; eauto.
Qed.

(** Transitions recorded for a state. *)
Definition TLok (L : lemon) (st : state) (TL : list (elem * nat)) : Prop :=
  forall X q', In (X, q') TL -> exists st', nth_error (l_states L) q' = Some st' /\
    (forall i, In i (kern L st') <-> goto_items g (fun j => In j (its L st)) X i) /\
    (forall y, In y (s_cfp st) -> after_dot g (key (l_cfgs L) y) = Some X ->
       exists x, In x (s_bp st') /\
         key (l_cfgs L) x = (fst (key (l_cfgs L) y), S (snd (key (l_cfgs L) y))) /\
         In y (c_bplp (cf (l_cfgs L) x))).

Definition StDone (L : lemon) (st : state) : Prop :=
  exists TL, NoDup (map fst TL) /\
    (forall X, In X (map fst TL) <->
       exists y, In y (s_cfp st) /\ after_dot g (key (l_cfgs L) y) = Some X) /\
    s_ap st = flat_map (fun p => acts (fst p) (snd p)) TL /\ TLok L st TL.

Lemma TLok_ext : forall k L L' q st st' TL, Ext k L L' -> SInv L -> nth_error (l_states L) q = Some st ->
  s_cfp st' = s_cfp st -> TLok L st TL -> TLok L' st' TL.
Proof.
  intros k L L' q st st' TL E SI Hq Hc T X q' HT.
  destruct (T X q' HT) as (st1 & H1 & H2 & H3).
  destruct (ex_states _ _ _ E q' st1 H1) as (st2 & H4 & H5 & H6 & _).
  exists st2. split; auto. split.
  - intros i. rewrite (Ext_kern _ _ _ _ _ _ E SI H1 H5), H2.
    rewrite (Ext_its _ _ _ _ _ _ E Hq Hc). reflexivity.
  - intros y Hy Ha. rewrite Hc in Hy. destruct (ex_cf _ _ _ E q st y Hq Hy) as (Ky & _).
    rewrite Ky in Ha |- *. destruct (H3 y Hy Ha) as (x & Hx & Kx & Bx).
    exists x. rewrite H5. split; auto.
    destruct (ex_cf _ _ _ E q' st1 x H1) as (Kx' & Ix & _); [eapply si_bp; eauto|].
    split; [congruence|]. apply Ix. auto.
Qed.

Lemma StDone_ext : forall k L L' q st st', Ext k L L' -> SInv L -> nth_error (l_states L) q = Some st ->
  s_cfp st' = s_cfp st -> s_ap st' = s_ap st -> StDone L st -> StDone L' st'.
Proof.
  intros k L L' q st st' E SI Hq Hc Ha (TL & N & X & A & T).
  exists TL. split; auto. split; [|split; [congruence|eapply TLok_ext; eauto]].
  intros e. rewrite X, Hc. split; intros (y & Hy & Hd); exists y; split; auto;
    destruct (ex_cf _ _ _ E q st y Hq Hy) as (Ky & _); congruence.
Qed.

(** Changes that do not affect [SInv]: completion marks, action lists, fresh
    configurations. *)
Definition Skel (L L' : lemon) : Prop :=
  (forall q st', nth_error (l_states L') q = Some st' -> exists st,
     nth_error (l_states L) q = Some st /\ s_bp st' = s_bp st /\ s_cfp st' = s_cfp st) /\
  length (l_cfgs L) <= length (l_cfgs L') /\
  (forall x, x < length (l_cfgs L) ->
     key (l_cfgs L') x = key (l_cfgs L) x /\
     c_fws (cf (l_cfgs L') x) = c_fws (cf (l_cfgs L) x) /\
     c_fplp (cf (l_cfgs L') x) = c_fplp (cf (l_cfgs L) x) /\
     c_bplp (cf (l_cfgs L') x) = c_bplp (cf (l_cfgs L) x)).

Lemma Skel_its : forall L L' q st st', SInv L -> Skel L L' -> nth_error (l_states L) q = Some st ->
  s_cfp st' = s_cfp st -> its L' st' = its L st.
Proof.
  intros L L' q st st' SI (S1 & S2 & S3) H Hc. unfold its. rewrite Hc. apply map_ext_in.
  intros x Hx. apply S3. eapply si_valid; eauto.
Qed.

Lemma Skel_kern : forall L L' q st st', SInv L -> Skel L L' -> nth_error (l_states L) q = Some st ->
  s_bp st' = s_bp st -> kern L' st' = kern L st.
Proof.
  intros L L' q st st' SI (S1 & S2 & S3) H Hc. unfold kern. rewrite Hc. apply map_ext_in.
  intros x Hx. apply S3. eapply si_valid; eauto. eapply si_bp; eauto.
Qed.

Lemma SInv_skel : forall L L', SInv L -> Skel L L' ->
  length (l_states L) = length (l_states L') -> SInv L'.
Proof.
  intros L L' SI SK LS. pose proof SK as (S1 & S2 & S3).
  assert (V : forall q st x, nth_error (l_states L) q = Some st -> In x (s_cfp st) -> x < length (l_cfgs L)).
  { apply SI. }
  constructor.
  - intros q st' x H Hx. destruct (S1 q st' H) as (st & H1 & H2 & H3). rewrite H3 in Hx.
    specialize (V q st x H1 Hx). lia.
  - intros q st' x H Hx. destruct (S1 q st' H) as (st & H1 & H2 & H3). rewrite H3. rewrite H2 in Hx.
    eapply si_bp; eauto.
  - intros q st' H. destruct (S1 q st' H) as (st & H1 & H2 & H3).
    rewrite (Skel_its _ _ _ _ _ SI SK H1 H3). eapply si_nd; eauto.
  - intros q st' H. destruct (S1 q st' H) as (st & H1 & H2 & H3).
    rewrite (Skel_kern _ _ _ _ _ SI SK H1 H2). eapply si_ndbp; eauto.
  - intros q st' H. destruct (S1 q st' H) as (st & H1 & H2 & H3).
    rewrite (Skel_kern _ _ _ _ _ SI SK H1 H2). eapply si_sorted; eauto.
  - intros q st' i H. destruct (S1 q st' H) as (st & H1 & H2 & H3).
    rewrite (Skel_kern _ _ _ _ _ SI SK H1 H2), (Skel_its _ _ _ _ _ SI SK H1 H3). eapply si_clos; eauto.
  - intros q st' H. destruct (S1 q st' H) as (st & H1 & H2 & H3).
    rewrite (Skel_its _ _ _ _ _ SI SK H1 H3). eapply si_reach; eauto.
  - intros q st' x y H Hx. destruct (S1 q st' H) as (st & H1 & H2 & H3). rewrite H3 in *.
    destruct (S3 x (V _ _ _ H1 Hx)) as (Kx & Wx & Fx & Bx). rewrite Kx, Fx.
    rewrite (si_fplp _ SI q st x y H1 Hx). split.
    + intros (A & r & P1 & P2 & P3 & P4 & P5). exists A, r.
      destruct (S3 y (V _ _ _ H1 P4)) as (Ky & _). rewrite Ky. auto.
    + intros (A & r & P1 & P2 & P3 & P4 & P5). exists A, r.
      destruct (S3 y (V _ _ _ H1 P4)) as (Ky & _). rewrite Ky in P5. auto.
  - intros q st' x H Hx. destruct (S1 q st' H) as (st & H1 & H2 & H3). rewrite H3 in *.
    destruct (S3 x (V _ _ _ H1 Hx)) as (Kx & Wx & Fx & Bx). rewrite Wx. eapply si_size; eauto.
  - intros q st' x t H Hx. destruct (S1 q st' H) as (st & H1 & H2 & H3). rewrite H3 in *.
    destruct (S3 x (V _ _ _ H1 Hx)) as (Kx & Wx & Fx & Bx). rewrite Wx, Kx, H2.
    rewrite (Skel_its _ _ _ _ _ SI SK H1 H3). eapply si_fws; eauto.
  - intros q st' x y H Hx Hy. destruct (S1 q st' H) as (st & H1 & H2 & H3). rewrite H3 in *.
    destruct (S3 x (V _ _ _ H1 Hx)) as (Kx & Wx & Fx & Bx). rewrite Bx in Hy.
    destruct (si_bplp _ SI q st x y H1 Hx Hy) as (q1 & st1 & X & P1 & P2 & P3 & P4 & P5 & P6).
    assert (Q1 : q1 < length (l_states L')) by (rewrite <- LS; eapply nth_error_Some_lt; eauto).
    destruct (nth_error_lt_ex _ _ _ Q1) as [st1' Hst1'].
    destruct (S1 q1 st1' Hst1') as (st1x & Q2 & Q3 & Q4). rewrite P1 in Q2. inversion Q2; subst st1x.
    exists q1, st1', X. destruct (S3 y (V _ _ _ P1 P2)) as (Ky & _). rewrite Ky, Kx, Q4, H2.
    split; auto. split; auto. split; auto. split; auto. split; auto.
    intros i. rewrite (Skel_kern _ _ _ _ _ SI SK H1 H2), (Skel_its _ _ _ _ _ SI SK P1 Q4). auto.
  - intros q q' st st' x H H' Hx Hx'.
    destruct (S1 q st H) as (st1 & H1 & H2 & H3). destruct (S1 q' st' H') as (st2 & H4 & H5 & H6).
    rewrite H3 in Hx. rewrite H6 in Hx'. eapply si_disj; eauto.
  - intros q q' st st' H H' Hk.
    destruct (S1 q st H) as (st1 & H1 & H2 & H3). destruct (S1 q' st' H') as (st2 & H4 & H5 & H6).
    rewrite (Skel_kern _ _ _ _ _ SI SK H1 H2), (Skel_kern _ _ _ _ _ SI SK H4 H5) in Hk.
    eapply si_kinj; eauto.
  - intros st' H. destruct (S1 0 st' H) as (st & H1 & H2 & H3).
    rewrite (Skel_kern _ _ _ _ _ SI SK H1 H2). eapply si_first; eauto.
  - intros q st' H. destruct (S1 q st' H) as (st & H1 & H2 & H3).
    rewrite (Skel_kern _ _ _ _ _ SI SK H1 H2). eapply si_pos; eauto.
Qed.

(** Precondition of getstate: the current list holds the new basis. *)
Record GPre (L : lemon) (pre b0 : list config) : Prop := {
  gp_inv : SInv L;
  gp_cur : cur_ok L pre b0;
  gp_own : forall q st x, nth_error (l_states L) q = Some st -> In x (s_cfp st) -> x < length pre;
  gp_nd : NoDup (map c_item b0);
  gp_ok : forall c, In c b0 -> item_ok g (c_item c) /\ c_fplp c = [] /\
    length (c_fws c) = first_set_size g;
  gp_fws : forall c t, In c b0 -> (SetFind (c_fws c) t = true <-> l_states L = [] /\ t = 0);
  gp_reach : exists gm, forall i, clos g (fun x => In x (map c_item b0)) i <-> valid g gm i;
  gp_bplp : forall c y, In c b0 -> In y (c_bplp c) ->
    exists q st X, nth_error (l_states L) q = Some st /\ In y (s_cfp st) /\
      after_dot g (key (l_cfgs L) y) = Some X /\
      c_item c = (fst (key (l_cfgs L) y), S (snd (key (l_cfgs L) y))) /\
      (forall i, In i (map c_item b0) <-> goto_items g (fun j => In j (its L st)) X i);
  gp_start : l_states L = [] -> forall i, In i (map c_item b0) <-> start_items g i;
  gp_pos : l_states L <> [] -> b0 <> [] /\ forall c, In c b0 -> 0 < c_dot c
}.

Record GPost (L : lemon) (b0 : list config) (L' : lemon) (q : nat) : Prop := {
  go_inv : SInv L';
  go_ext : Ext (length (l_states L)) L L';
  go_q : exists st, nth_error (l_states L') q = Some st /\
    (forall i, In i (kern L' st) <-> In i (map c_item b0)) /\
    (forall c y, In c b0 -> In y (c_bplp c) ->
       exists x, In x (s_bp st) /\ key (l_cfgs L') x = c_item c /\ In y (c_bplp (cf (l_cfgs L') x)));
  go_new : forall q' st', length (l_states L) <= q' -> nth_error (l_states L') q' = Some st' ->
    StDone L' st'
}.

(** ** Number of kernels *)
Fixpoint lists_upto (n : nat) (l : list item) : list (list item) :=
  match n with
  | 0 => [[]]
  | S n' => [] :: flat_map (fun x => map (cons x) (lists_upto n' l)) l
  end.

Lemma lists_upto_In : forall n l k, length k <= n -> incl k l -> In k (lists_upto n l).
Proof.
  induction n as [|n IH]; intros l k Hk Hi; simpl.
  - destruct k; simpl in Hk; auto. lia.
  - destruct k as [|x k]; auto. right. apply in_flat_map. exists x. split.
    + apply Hi. left; auto.
    + apply in_map. apply IH; [simpl in Hk; lia|]. intros y Hy. apply Hi. right; auto.
Qed.

Definition max_states : nat := length (lists_upto (length all_items) all_items).

Lemma items_bound : forall k, NoDup k -> (forall i, In i k -> item_ok g i) -> length k <= length all_items.
Proof.
  intros k N H. apply NoDup_incl_length; auto. intros i Hi. apply all_items_In. auto.
Qed.

Lemma SInv_item_ok : forall L q st i, SInv L -> nth_error (l_states L) q = Some st ->
  In i (its L st) -> item_ok g i.
Proof.
  intros L q st i SI H Hi. destruct (si_reach _ SI q st H) as [gm R]. apply R in Hi.
  eapply valid_ok; eauto.
Qed.

Lemma kern_its : forall L q st i, SInv L -> nth_error (l_states L) q = Some st ->
  In i (kern L st) -> In i (its L st).
Proof.
  intros L q st i SI H Hi. apply in_map_iff in Hi as (x & <- & Hx). apply in_map.
  eapply si_bp; eauto.
Qed.

Lemma nstates_bound : forall L, SInv L -> length (l_states L) <= max_states.
Proof.
  intros L SI. unfold max_states. rewrite <- (map_length (kern L)). apply NoDup_incl_length.
  - rewrite NoDup_nth_error. intros q q' Hq E. rewrite map_length in Hq.
    rewrite !nth_error_map in E. destruct (nth_error_lt_ex _ _ _ Hq) as [st Hst]. rewrite Hst in E.
    destruct (nth_error (l_states L) q') as [st'|] eqn:Hst'; simpl in E; [|discriminate].
    inversion E. eapply si_kinj; eauto.
  - intros k Hk. apply in_map_iff in Hk as (st & <- & Hst). apply In_nth_error in Hst as [q Hq].
    apply lists_upto_In.
    + apply items_bound. eapply si_ndbp; eauto. intros i Hi. eapply SInv_item_ok; eauto.
      eapply kern_its; eauto.
    + intros i Hi. apply all_items_In. eapply SInv_item_ok; eauto. eapply kern_its; eauto.
Qed.


(** ** Looking up a basis *)
Lemma map_key_seq : forall pre b0,
  map (key (pre ++ b0)) (seq (length pre) (length b0)) = map c_item b0.
Proof.
  intros pre b0. apply list_ext. intros n. rewrite !nth_error_map.
  destruct (lt_dec n (length b0)) as [H|H].
  - rewrite (nth_error_nth' _ 0) by (rewrite seq_length; auto). rewrite seq_nth by auto.
    rewrite (cf_nth_error b0 n H). simpl. unfold key. now rewrite cf_app2.
  - rewrite (proj2 (nth_error_None _ n)) by (rewrite seq_length; lia).
    rewrite (proj2 (nth_error_None b0 n)) by lia. reflexivity.
Qed.

Lemma state_search_ok : forall h sts n k,
  (forall st x, In st sts -> In x (s_bp st) -> x < length h) ->
  exists o, state_search h sts n k = Ok o /\
    match o with
    | Some q => exists j st, q = n + j /\ nth_error sts j = Some st /\ map (key h) (s_bp st) = k
    | None => forall st, In st sts -> map (key h) (s_bp st) <> k
    end.
Proof.
  intros h sts. induction sts as [|s sts IH]; intros n k V; simpl.
  - exists None. split; auto.
  - rewrite items_of_ok by (intros x Hx; apply (V s x); [left; auto|auto]). simpl.
    destruct (statecmp_eq (map (key h) (s_bp s)) k) eqn:E.
    + exists (Some n). split; auto. exists 0, s. split; [lia|]. split; auto.
      now apply statecmp_eq_iff.
    + destruct (IH (S n) k) as (o & Eo & Ho). { intros st x Hst. apply V. right; auto. }
      exists o. split; auto. destruct o as [q|].
      * destruct Ho as (j & st & -> & H1 & H2). exists (S j), st. split; [lia|]. auto.
      * intros st [<-|Hst]; auto. intros HK. apply statecmp_eq_iff in HK. congruence.
Qed.

Lemma copy_links_ok : forall X Y h,
  length X = length Y -> NoDup X -> NoDup Y -> (forall a, In a X -> ~ In a Y) ->
  (forall a, In a X -> a < length h) -> (forall a, In a Y -> a < length h) ->
  exists h', copy_links h X Y = Ok h' /\ length h' = length h /\
    (forall z, ~ In z X -> ~ In z Y -> cf h' z = cf h z) /\
    (forall k a b, nth_error X k = Some a -> nth_error Y k = Some b ->
       cf h' b = with_bplp (cf h b) (Plink_copy (c_bplp (cf h b)) (c_bplp (cf h a))) /\
       c_fplp (cf h' a) = [] /\ c_bplp (cf h' a) = []).
Proof.
  induction X as [|a X IH]; intros [|b Y] h HL NX NY DJ VX VY; simpl in HL; try discriminate.
  - exists h. simpl. split; auto. split; auto. split; auto. intros [|k]; discriminate.
  - inversion NX as [|? ? NaX NX']; subst. inversion NY as [|? ? NbY NY']; subst.
    assert (Ha : a < length h) by (apply VX; left; auto).
    assert (Hb : b < length h) by (apply VY; left; auto).
    assert (Nab : a <> b) by (intros ->; apply (DJ b); left; auto).
    simpl. rewrite (cf_nth_error h a Ha), (cf_nth_error h b Hb). cbn [opt bind].
    set (nb := with_bplp (cf h b) (Plink_copy (c_bplp (cf h b)) (c_bplp (cf h a)))).
    rewrite nth_error_upd_ne by auto. rewrite (cf_nth_error h a Ha). cbn [opt bind].
    set (na := with_bplp (with_fplp (cf h a) []) []).
    set (h2 := upd (upd h b nb) a na).
    assert (L2 : length h2 = length h) by (unfold h2; now rewrite !upd_length).
    destruct (IH Y h2) as (h' & E & L' & Z & K); auto.
    { intros x Hx Hy. apply (DJ x); right; auto. }
    { intros x Hx. rewrite L2. apply VX. right; auto. }
    { intros x Hx. rewrite L2. apply VY. right; auto. }
    assert (Z2 : forall z, z <> a -> z <> b -> cf h2 z = cf h z).
    { intros z Za Zb. unfold h2. rewrite !cf_upd_ne by auto. auto. }
    assert (A2 : cf h2 a = na) by (unfold h2; apply cf_upd_eq; rewrite upd_length; auto).
    assert (B2 : cf h2 b = nb).
    { unfold h2. rewrite cf_upd_ne by auto. now apply cf_upd_eq. }
    exists h'. split; [exact E|]. split; [congruence|]. split.
    + intros z H1 H2. simpl in H1, H2. rewrite Z by tauto. apply Z2; intros ->; tauto.
    + intros [|k] x y Hx Hy; simpl in Hx, Hy.
      * inversion Hx; inversion Hy; subst x y.
        assert (NaY : ~ In a Y) by (intros H; apply (DJ a); [left; auto|right; auto]).
        assert (NbX : ~ In b X) by (intros H; apply (DJ b); [right; auto|left; auto]).
        rewrite (Z a), (Z b), A2, B2 by auto. auto.
      * assert (In x X) by (eapply nth_error_In; eauto). assert (In y Y) by (eapply nth_error_In; eauto).
        assert (x <> a) by (intros ->; auto). assert (y <> b) by (intros ->; auto).
        assert (x <> b) by (intros ->; apply (DJ b); [right; auto|left; auto]).
        assert (y <> a) by (intros ->; apply (DJ a); [left; auto|right; auto]).
        destruct (K k x y Hx Hy) as (K1 & K2 & K3). rewrite (Z2 x), (Z2 y) in K1 by auto. auto.
Qed.

Lemma Configlist_eat_ok : forall h l, (forall x, In x l -> x < length h /\ c_fplp (cf h x) = [] /\ c_bplp (cf h x) = []) ->
  Configlist_eat h l = Ok tt.
Proof.
  induction l as [|x l IH]; intros H; simpl; auto.
  destruct (H x) as (H1 & H2 & H3); [left; auto|].
  rewrite (cf_nth_error h x H1). cbn [opt bind]. rewrite H2, H3. apply IH. intros; apply H; right; auto.
Qed.

(** Facts about the sorted basis. *)
Lemma sorted_basis : forall L pre b0, GPre L pre b0 ->
  let bp := sort_cfgs (l_cfgs L) (l_current L) in
  Permutation bp (seq (length pre) (length b0)) /\
  Permutation (map (key (l_cfgs L)) bp) (map c_item b0) /\
  isorted (map (key (l_cfgs L)) bp) /\ NoDup (map (key (l_cfgs L)) bp) /\
  (forall x, In x bp -> length pre <= x < length (l_cfgs L)).
Proof.
  intros L pre b0 GP bp. destruct (gp_cur _ _ _ GP) as [C1 C2].
  assert (HL : length b0 < 2 ^ LISTSIZE).
  { eapply Nat.le_lt_trans; [|exact SIZE']. rewrite <- (map_length c_item b0). apply items_bound.
    - apply GP.
    - intros i Hi. apply in_map_iff in Hi as (c & <- & Hc). eapply gp_ok; eauto. }
  assert (P1 : Permutation bp (seq (length pre) (length b0))).
  { unfold bp. rewrite C2. apply sort_cfgs_perm. now rewrite seq_length. }
  assert (P2 : Permutation (map (key (l_cfgs L)) bp) (map c_item b0)).
  { rewrite P1, C1, map_key_seq. auto. }
  split; auto. split; auto. split; [apply sort_cfgs_sorted|]. split.
  - eapply Permutation_NoDup; [symmetry; exact P2|]. apply GP.
  - intros x Hx. apply (Permutation_in _ P1) in Hx. apply in_seq in Hx. rewrite C1, app_length. lia.
Qed.

Lemma getstate_old : forall L pre b0 q st,
  GPre L pre b0 -> nth_error (l_states L) q = Some st ->
  kern L st = map (key (l_cfgs L)) (sort_cfgs (l_cfgs L) (l_current L)) ->
  exists h, copy_links (l_cfgs L) (sort_cfgs (l_cfgs L) (l_current L)) (s_bp st) = Ok h /\
    Configlist_eat h (l_current L) = Ok tt /\
    GPost L b0 (mkLemon h (l_states L) [] []) q.
Proof.
  intros L pre b0 q st GP Hq HK. destruct (sorted_basis L pre b0 GP) as (P1 & P2 & P3 & P4 & P5).
  set (bp := sort_cfgs (l_cfgs L) (l_current L)) in *.
  destruct (gp_cur _ _ _ GP) as [C1 C2]. pose proof (gp_inv _ _ _ GP) as SI.
  assert (OB : forall x, In x (s_bp st) -> x < length pre).
  { intros x Hx. eapply gp_own; eauto. eapply si_bp; eauto. }
  assert (LL : length bp = length (s_bp st)).
  { apply (f_equal (@length item)) in HK. unfold kern in HK. rewrite !map_length in HK. auto. }
  destruct (copy_links_ok bp (s_bp st) (l_cfgs L)) as (h & E & Lh & Z & K); auto.
  { apply NoDup_map_inv with (f := key (l_cfgs L)). auto. }
  { apply NoDup_map_inv with (f := key (l_cfgs L)). eapply si_ndbp; eauto. }
  { intros a Ha Hb. apply P5 in Ha. apply OB in Hb. lia. }
  { intros a Ha. apply P5 in Ha. lia. }
  { intros a Ha. apply OB in Ha. rewrite C1, app_length. lia. }
  exists h. split; [exact E|]. split.
  { apply Configlist_eat_ok. intros x Hx. rewrite C2 in Hx.
    apply (Permutation_in _ (Permutation_sym P1)) in Hx.
    split; [rewrite Lh; apply P5; auto|].
    apply In_nth_error in Hx as [k Hk].
    destruct (nth_error_lt_ex _ (s_bp st) k) as [b Hb].
    { rewrite <- LL. eapply nth_error_Some_lt; eauto. }
    apply (K k x b Hk Hb). }
  set (L' := mkLemon h (l_states L) [] []).
  (* effect on owned configurations *)
  assert (OWN : forall x, x < length pre ->
     key h x = key (l_cfgs L) x /\ c_fws (cf h x) = c_fws (cf (l_cfgs L) x) /\
     c_fplp (cf h x) = c_fplp (cf (l_cfgs L) x) /\ c_comp (cf h x) = c_comp (cf (l_cfgs L) x) /\
     (forall y, In y (c_bplp (cf h x)) <-> In y (c_bplp (cf (l_cfgs L) x)) \/
        exists k a, nth_error bp k = Some a /\ nth_error (s_bp st) k = Some x /\
          In y (c_bplp (cf (l_cfgs L) a)))).
  { intros x Hx. destruct (in_dec Nat.eq_dec x (s_bp st)) as [Hin|Hout].
    - apply In_nth_error in Hin as [k Hk].
      destruct (nth_error_lt_ex _ bp k) as [a Ha].
      { rewrite LL. eapply nth_error_Some_lt; eauto. }
      destruct (K k a x Ha Hk) as (K1 & _). unfold key. rewrite K1. simpl.
      split; [reflexivity|]. split; [reflexivity|]. split; [reflexivity|]. split; [reflexivity|].
      intros y. unfold Plink_copy. rewrite in_app_iff, <- in_rev. split.
      + intros [H|H]; [right; exists k, a; auto|auto].
      + intros [H|(k' & a' & H1 & H2 & H3)]; auto. left.
        assert (k' = k).
        { assert (ND : NoDup (s_bp st)).
          { apply NoDup_map_inv with (f := key (l_cfgs L)). eapply si_ndbp; eauto. }
          rewrite NoDup_nth_error in ND. apply ND.
          - eapply nth_error_Some_lt; eauto.
          - congruence. }
        subst k'. rewrite Ha in H1. inversion H1; subst. auto.
    - assert (Hbp : ~ In x bp). { intros H. apply P5 in H. lia. }
      unfold key. rewrite (Z x) by auto. split; [reflexivity|]. split; [reflexivity|]. split; [reflexivity|]. split; [reflexivity|].
      intros y. split; auto. intros [H|(k' & a' & H1 & H2 & H3)]; auto.
      exfalso. apply Hout. eapply nth_error_In; eauto. }
  assert (V : forall q st x, nth_error (l_states L) q = Some st -> In x (s_cfp st) -> x < length pre).
  { apply GP. }
  assert (ITS : forall q1 st1, nth_error (l_states L) q1 = Some st1 -> its L' st1 = its L st1).
  { intros q1 st1 H1. unfold its. apply map_ext_in. intros x Hx. apply OWN. eapply V; eauto. }
  assert (KRN : forall q1 st1, nth_error (l_states L) q1 = Some st1 -> kern L' st1 = kern L st1).
  { intros q1 st1 H1. unfold kern. apply map_ext_in. intros x Hx. apply OWN. eapply V; eauto. eapply si_bp; eauto. }
  (* items of the k-th basis element *)
  assert (KTH : forall k a x, nth_error bp k = Some a -> nth_error (s_bp st) k = Some x ->
     key (l_cfgs L) a = key (l_cfgs L) x).
  { intros k a x Ha Hx. unfold kern in HK.
    assert (HE : nth_error (map (key (l_cfgs L)) (s_bp st)) k = nth_error (map (key (l_cfgs L)) bp) k) by congruence.
    rewrite !nth_error_map, Ha, Hx in HE. simpl in HE. congruence. }
  assert (CUR : forall k a, nth_error bp k = Some a -> exists c, In c b0 /\ cf (l_cfgs L) a = c).
  { intros k a Ha. apply nth_error_In in Ha. apply (Permutation_in _ P1) in Ha. apply in_seq in Ha.
    exists (cf b0 (a - length pre)). split.
    - unfold cf. apply nth_In. lia.
    - rewrite C1. replace a with (length pre + (a - length pre)) at 1 by lia. now rewrite cf_app2. }
  assert (KSET : forall i, In i (kern L st) <-> In i (map c_item b0)).
  { intros i. rewrite HK. split; apply Permutation_in; auto. now symmetry. }
  constructor.
  - (* SInv *)
    constructor.
    + intros q1 st1 x H1 Hx. simpl. rewrite Lh. eapply si_valid; eauto.
    + simpl. apply SI.
    + intros q1 st1 H1. simpl in H1. rewrite (ITS _ _ H1). eapply si_nd; eauto.
    + intros q1 st1 H1. simpl in H1. rewrite (KRN _ _ H1). eapply si_ndbp; eauto.
    + intros q1 st1 H1. simpl in H1. rewrite (KRN _ _ H1). eapply si_sorted; eauto.
    + intros q1 st1 i H1. simpl in H1. rewrite (KRN _ _ H1), (ITS _ _ H1). eapply si_clos; eauto.
    + intros q1 st1 H1. simpl in H1. rewrite (ITS _ _ H1). eapply si_reach; eauto.
    + intros q1 st1 x y H1 Hx. cbn [L' l_cfgs l_states] in *. destruct (OWN x (V _ _ _ H1 Hx)) as (K1 & K2 & K3 & _).
      rewrite K1, K3, (si_fplp _ SI q1 st1 x y H1 Hx). split.
      * intros (A & r & Q1 & Q2 & Q3 & Q4 & Q5). exists A, r. destruct (OWN y (V _ _ _ H1 Q4)) as (Y1 & _).
        rewrite Y1. auto.
      * intros (A & r & Q1 & Q2 & Q3 & Q4 & Q5). exists A, r. destruct (OWN y (V _ _ _ H1 Q4)) as (Y1 & _).
        rewrite Y1 in Q5. auto.
    + intros q1 st1 x H1 Hx. cbn [L' l_cfgs l_states] in *. destruct (OWN x (V _ _ _ H1 Hx)) as (K1 & K2 & K3 & _).
      rewrite K2. eapply si_size; eauto.
    + intros q1 st1 x t H1 Hx. cbn [L' l_cfgs l_states] in *. destruct (OWN x (V _ _ _ H1 Hx)) as (K1 & K2 & K3 & _).
      rewrite K1, K2, (ITS _ _ H1). eapply si_fws; eauto.
    + intros q1 st1 x y H1 Hx Hy. cbn [L' l_cfgs l_states] in *. destruct (OWN x (V _ _ _ H1 Hx)) as (K1 & K2 & K3 & K4 & K5).
      apply K5 in Hy as [Hy|(k & a & Ha & Hk & Hy)].
      * destruct (si_bplp _ SI q1 st1 x y H1 Hx Hy) as (q2 & st2 & X & Q1 & Q2 & Q3 & Q4 & Q5 & Q6).
        exists q2, st2, X. destruct (OWN y (V _ _ _ Q1 Q2)) as (Y1 & _). rewrite Y1, K1.
        split; auto. split; auto. split; auto. split; auto. split; auto.
        intros i. rewrite (KRN _ _ H1), (ITS _ _ Q1). auto.
      * assert (Hxs : In x (s_bp st)) by (eapply nth_error_In; eauto).
        assert (q1 = q). { eapply si_disj; eauto. eapply si_bp; eauto. }
        subst q1. rewrite Hq in H1. inversion H1; subst st1.
        destruct (CUR k a Ha) as (c & Hc & Ec). rewrite Ec in Hy.
        destruct (gp_bplp _ _ _ GP c y Hc Hy) as (q2 & st2 & X & Q1 & Q2 & Q3 & Q4 & Q5).
        exists q2, st2, X. destruct (OWN y (V _ _ _ Q1 Q2)) as (Y1 & _). rewrite Y1, K1.
        split; auto. split; auto. split; auto. split.
        { rewrite <- (KTH k a x Ha Hk), <- Q4. unfold key. now rewrite Ec. }
        split; auto. intros i. rewrite (KRN _ _ Hq), (ITS _ _ Q1), KSET. auto.
    + simpl. apply SI.
    + intros q1 q2 st1 st2 H1 H2. cbn [L' l_cfgs l_states] in *. rewrite (KRN _ _ H1), (KRN _ _ H2). eapply si_kinj; eauto.
    + intros st1 H1. cbn [L' l_cfgs l_states] in *. rewrite (KRN _ _ H1). eapply si_first; eauto.
    + intros q1 st1 H1. cbn [L' l_cfgs l_states] in *. rewrite (KRN _ _ H1). eapply si_pos; eauto.
  - (* Ext *)
    constructor.
    + intros q1 st1 H1. exists st1. auto.
    + simpl. lia.
    + intros q1 st1 x H1 Hx. destruct (OWN x (V _ _ _ H1 Hx)) as (K1 & K2 & K3 & K4 & K5).
      split; auto. split; auto. intros y Hy. simpl. apply K5. auto.
  - exists st. simpl. split; auto. split.
    + intros i. rewrite (KRN _ _ Hq). apply KSET.
    + intros c y Hc Hy. apply In_nth_error in Hc as [p Hp].
      assert (Hbp : In (length pre + p) bp).
      { apply (Permutation_in _ (Permutation_sym P1)). apply in_seq. apply nth_error_Some_lt in Hp. lia. }
      apply In_nth_error in Hbp as [k Hk].
      destruct (nth_error_lt_ex _ (s_bp st) k) as [x Hx].
      { rewrite <- LL. eapply nth_error_Some_lt; eauto. }
      assert (Ec : cf (l_cfgs L) (length pre + p) = c).
      { rewrite C1, cf_app2. unfold cf. apply nth_error_Some_nth. auto. }
      exists x. assert (Hin : In x (s_bp st)) by (eapply nth_error_In; eauto).
      split; auto. destruct (OWN x) as (K1 & K2 & K3 & K4 & K5); auto.
      split.
      * rewrite K1, <- (KTH k _ x Hk Hx). unfold key. now rewrite Ec.
      * apply K5. right. exists k, (length pre + p). rewrite Ec. auto.
  - intros q' st' H1 H2. simpl in H2. apply nth_error_Some_lt in H2. lia.
Qed.


Lemma nth_error_snoc : forall (A : Type) (l : list A) a q x, nth_error (l ++ [a]) q = Some x ->
  nth_error l q = Some x \/ (q = length l /\ x = a).
Proof.
  intros A l a q x H. destruct (lt_dec q (length l)) as [Hq|Hq].
  - rewrite nth_error_app1 in H by auto. auto.
  - rewrite nth_error_app2 in H by lia. destruct (q - length l) as [|n] eqn:E; simpl in H.
    + inversion H. right. split; auto. lia.
    + destruct n; discriminate.
Qed.

Lemma getstate_new : forall L pre b0,
  GPre L pre b0 ->
  let bp := sort_cfgs (l_cfgs L) (l_current L) in
  (forall st, In st (l_states L) -> kern L st <> map (key (l_cfgs L)) bp) ->
  exists L2, Configlist_closure g lam fs (mkLemon (l_cfgs L) (l_states L) (l_current L) []) = Ok L2 /\
    l_states L2 = l_states L /\
    let st := mkState bp (sort_cfgs (l_cfgs L2) (l_current L2)) [] in
    let L4 := mkLemon (l_cfgs L2) (l_states L2 ++ [st]) [] (l_basis L2) in
    SInv L4 /\ (forall k, Ext k L L4) /\ NoDup (s_cfp st) /\
    (forall i, In i (kern L4 st) <-> In i (map c_item b0)) /\
    (forall c y, In c b0 -> In y (c_bplp c) ->
       exists x, In x bp /\ key (l_cfgs L4) x = c_item c /\ In y (c_bplp (cf (l_cfgs L4) x))).
Proof.
  intros L pre b0 GP bp NEW. destruct (sorted_basis L pre b0 GP) as (P1 & P2 & P3 & P4 & P5).
  fold bp in P1, P2, P3, P4, P5.
  destruct (gp_cur _ _ _ GP) as [C1 C2]. pose proof (gp_inv _ _ _ GP) as SI.
  destruct (Configlist_closure_ok g WF lam fs LE FE
     (mkLemon (l_cfgs L) (l_states L) (l_current L) []) pre b0) as (L2 & loc & E & [D1 D2] & S2 & B2 & CS).
  { split; auto. } { apply GP. } { apply GP. }
  exists L2. split; [exact E|]. split; [exact S2|]. intros st L4.
  set (cfp := sort_cfgs (l_cfgs L2) (l_current L2)) in *.
  assert (ok_loc : forall i, In i (map c_item loc) -> item_ok g i).
  { intros i Hi. apply (cs_items _ _ _ _ CS) in Hi. revert Hi. apply clos_ok.
    intros j Hj. apply in_map_iff in Hj as (c & <- & Hc). eapply gp_ok; eauto. }
  assert (HL : length loc < 2 ^ LISTSIZE).
  { eapply Nat.le_lt_trans; [|exact SIZE']. rewrite <- (map_length c_item loc). apply items_bound; auto.
    apply CS. }
  assert (PC : Permutation cfp (seq (length pre) (length loc))).
  { unfold cfp. rewrite D2. apply sort_cfgs_perm. now rewrite seq_length. }
  assert (PK : Permutation (map (key (l_cfgs L2)) cfp) (map c_item loc)).
  { rewrite PC, D1, map_key_seq. auto. }
  assert (INC : forall x, In x cfp <-> exists p, p < length loc /\ x = length pre + p).
  { intros x. split.
    - intros Hx. apply (Permutation_in _ PC) in Hx. apply in_seq in Hx. exists (x - length pre). lia.
    - intros (p & Hp & ->). apply (Permutation_in _ (Permutation_sym PC)). apply in_seq. lia. }
  assert (INB : forall x, In x bp <-> exists p, p < length b0 /\ x = length pre + p).
  { intros x. split.
    - intros Hx. apply (Permutation_in _ P1) in Hx. apply in_seq in Hx. exists (x - length pre). lia.
    - intros (p & Hp & ->). apply (Permutation_in _ (Permutation_sym P1)). apply in_seq. lia. }
  assert (LOC : forall p, p < length loc -> exists c, nth_error loc p = Some c /\ cf (l_cfgs L2) (length pre + p) = c).
  { intros p Hp. exists (cf loc p). split; [now apply cf_nth_error|]. rewrite D1. apply cf_app2. }
  assert (BAS : forall p, p < length b0 -> key (l_cfgs L2) (length pre + p) = key (l_cfgs L) (length pre + p) /\
     c_bplp (cf (l_cfgs L2) (length pre + p)) = c_bplp (cf (l_cfgs L) (length pre + p))).
  { intros p Hp. pose proof (cf_nth_error b0 p Hp) as Hc0.
    destruct (cs_basis _ _ _ _ CS p _ Hc0) as (c & Hc & K1 & K2).
    unfold key. rewrite D1, C1, !cf_app2. unfold cf at 1 3. rewrite !(nth_error_Some_nth _ _ _ _ dconf Hc). auto. }
  assert (OLD : forall x, x < length pre -> cf (l_cfgs L2) x = cf (l_cfgs L) x).
  { intros x Hx. rewrite D1, C1, !cf_app1 by auto. auto. }
  assert (V : forall q st x, nth_error (l_states L) q = Some st -> In x (s_cfp st) -> x < length pre).
  { apply GP. }
  assert (ITS : forall q1 st1, nth_error (l_states L) q1 = Some st1 -> its L4 st1 = its L st1).
  { intros q1 st1 H1. unfold its. apply map_ext_in. intros x Hx. unfold key. simpl. rewrite OLD; auto. eapply V; eauto. }
  assert (KRN : forall q1 st1, nth_error (l_states L) q1 = Some st1 -> kern L4 st1 = kern L st1).
  { intros q1 st1 H1. unfold kern. apply map_ext_in. intros x Hx. unfold key. simpl. rewrite OLD; auto.
    eapply V; eauto. eapply si_bp; eauto. }
  assert (KN : kern L4 st = map (key (l_cfgs L)) bp).
  { unfold kern. apply map_ext_in. intros x Hx. simpl in Hx. apply INB in Hx as (p & Hp & ->). simpl. apply BAS. auto. }
  assert (IN : forall i, In i (its L4 st) <-> In i (map c_item loc)).
  { intros i. unfold its. simpl. split; apply Permutation_in; auto. now symmetry. }
  assert (KS : forall i, In i (kern L4 st) <-> In i (map c_item b0)).
  { intros i. rewrite KN. split; apply Permutation_in; auto. now symmetry. }
  assert (LEN : length b0 <= length loc) by apply CS.
  assert (NQ : forall q st1, nth_error (l_states L4) q = Some st1 ->
     nth_error (l_states L) q = Some st1 \/ (q = length (l_states L) /\ st1 = st)).
  { intros q st1 H. unfold L4 in H. simpl in H. rewrite S2 in H. now apply nth_error_snoc. }
  assert (UP : forall q st1, nth_error (l_states L) q = Some st1 -> nth_error (l_states L4) q = Some st1).
  { intros q st1 H. unfold L4. simpl. rewrite S2. rewrite nth_error_app1; auto. eapply nth_error_Some_lt; eauto. }
  assert (UPN : nth_error (l_states L4) (length (l_states L)) = Some st).
  { unfold L4. simpl. rewrite S2. rewrite nth_error_app2, Nat.sub_diag by auto. auto. }
  assert (CF4 : l_cfgs L4 = l_cfgs L2) by auto.
  assert (SB : s_bp st = bp) by auto. assert (SC : s_cfp st = cfp) by auto.
  assert (NDC : NoDup (map (key (l_cfgs L2)) cfp)).
  { eapply Permutation_NoDup; [symmetry; exact PK|]. apply CS. }
  clearbody st L4.
  split; [|split; [|split; [rewrite SC; eapply NoDup_map_inv; eauto|split; [exact KS|]]]].
  - constructor.
    + intros q st1 x H Hx. rewrite CF4, D1, app_length. apply NQ in H as [H|[-> ->]].
      * specialize (V q st1 x H Hx). lia.
      * rewrite SC in Hx. apply INC in Hx as (p & Hp & ->). lia.
    + intros q st1 x H Hx. apply NQ in H as [H|[-> ->]]; [eapply si_bp; eauto|].
      rewrite SC. rewrite SB in Hx. apply INC. apply INB in Hx as (p & Hp & ->). exists p. split; [lia|auto].
    + intros q st1 H. apply NQ in H as [H|[-> ->]]; [rewrite (ITS _ _ H); eapply si_nd; eauto|].
      unfold its. rewrite SC, CF4. auto.
    + intros q st1 H. apply NQ in H as [H|[-> ->]]; [rewrite (KRN _ _ H); eapply si_ndbp; eauto|].
      rewrite KN. auto.
    + intros q st1 H. apply NQ in H as [H|[-> ->]]; [rewrite (KRN _ _ H); eapply si_sorted; eauto|].
      rewrite KN. auto.
    + intros q st1 i H. apply NQ in H as [H|[-> ->]].
      * rewrite (KRN _ _ H), (ITS _ _ H). eapply si_clos; eauto.
      * rewrite IN, (cs_items _ _ _ _ CS). split; apply clos_ext; intros j; rewrite KS; auto.
    + intros q st1 H. apply NQ in H as [H|[-> ->]].
      * rewrite (ITS _ _ H). eapply si_reach; eauto.
      * destruct (gp_reach _ _ _ GP) as [gm Hg]. exists gm. intros i. rewrite IN, (cs_items _ _ _ _ CS). auto.
    + intros q st1 x y H Hx. rewrite CF4. apply NQ in H as [H|[-> ->]].
      * unfold key. rewrite (OLD x (V _ _ _ H Hx)). fold (key (l_cfgs L) x).
        rewrite (si_fplp _ SI q st1 x y H Hx). split; intros (A & r & Q1 & Q2 & Q3 & Q4 & Q5); exists A, r;
          rewrite ?(OLD y (V _ _ _ H Q4)) in *; auto 12.
      * rewrite SC in *. apply INC in Hx as (p & Hp & ->). destruct (LOC p Hp) as (c & Hc & Ec).
        unfold key. rewrite Ec. rewrite (cs_fplp _ _ _ _ CS p c y Hc). split.
        -- intros (A & r & p' & cp & Q1 & Q2 & Q3 & Q4 & Q5 & ->). exists A, r.
           assert (Hp' : p' < length loc) by (eapply nth_error_Some_lt; eauto).
           destruct (LOC p' Hp') as (cp' & R1 & R2). rewrite Q4 in R1. inversion R1 as [R3].
           rewrite R2, <- R3. split; auto. split; auto. split; auto. split; auto. apply INC. eauto.
        -- intros (A & r & Q1 & Q2 & Q3 & Q4 & Q5). apply INC in Q4 as (p' & Hp' & ->).
           destruct (LOC p' Hp') as (cp' & R1 & R2). rewrite R2 in Q5. exists A, r, p', cp'. auto 12.
    + intros q st1 x H Hx. rewrite CF4. apply NQ in H as [H|[-> ->]].
      * rewrite (OLD x (V _ _ _ H Hx)). eapply si_size; eauto.
      * rewrite SC in *. apply INC in Hx as (p & Hp & ->). destruct (LOC p Hp) as (c & Hc & Ec).
        rewrite Ec. eapply cs_size; eauto. eapply nth_error_In; eauto.
    + intros q st1 x t H Hx. rewrite CF4. apply NQ in H as [H|[-> ->]].
      * unfold key. rewrite (OLD x (V _ _ _ H Hx)), (ITS _ _ H). eapply si_fws; eauto.
      * rewrite SC in *. apply INC in Hx as (p & Hp & ->). destruct (LOC p Hp) as (c & Hc & Ec).
        unfold key. rewrite Ec. rewrite (cs_fws _ _ _ _ CS p c t Hc). split.
        -- intros [(c0 & Q1 & Q2)|(i & A & r & Q1 & Q2 & Q3 & Q4 & Q5)].
           ++ left. apply (gp_fws _ _ _ GP) in Q2 as [Q2 Q3]; [|eapply nth_error_In; eauto].
              rewrite Q2. split; auto. split; auto. rewrite SB. apply INB. exists p. split; auto.
              eapply nth_error_Some_lt; eauto.
           ++ right. exists i, A, r. split; [apply IN; auto|auto 12].
        -- intros [(Q1 & -> & Q2)|(i & A & r & Q1 & Q2 & Q3 & Q4 & Q5)].
           ++ left. rewrite SB in Q2. apply INB in Q2 as (p' & Hp' & Ep). assert (p' = p) by lia. subst p'.
              exists (cf b0 p). pose proof (cf_nth_error b0 p Hp') as Hc0. split; auto.
              apply (gp_fws _ _ _ GP); [eapply nth_error_In; eauto|]. split; auto.
              destruct (l_states L); simpl in Q1; [auto|discriminate].
           ++ right. exists i, A, r. split; [apply IN; auto|auto 12].
    + intros q st1 x y H Hx Hy. rewrite CF4 in *. apply NQ in H as [H|[-> ->]].
      * unfold key in *. rewrite (OLD x (V _ _ _ H Hx)) in *.
        destruct (si_bplp _ SI q st1 x y H Hx Hy) as (q2 & st2 & X & Q1 & Q2 & Q3 & Q4 & Q5 & Q6).
        exists q2, st2, X. rewrite (OLD y (V _ _ _ Q1 Q2)). split; [auto|]. split; auto. split; auto. split; auto.
        split; auto. intros i. rewrite (KRN _ _ H), (ITS _ _ Q1). auto.
      * rewrite SC in *. apply INC in Hx as (p & Hp & ->). destruct (LOC p Hp) as (c & Hc & Ec).
        destruct (lt_dec p (length b0)) as [Hb|Hb].
        -- destruct (BAS p Hb) as (K1 & K2). rewrite K2 in Hy. rewrite C1, cf_app2 in Hy.
           assert (Hin : In (cf b0 p) b0) by (unfold cf; apply nth_In; auto).
           destruct (gp_bplp _ _ _ GP _ y Hin Hy) as (q2 & st2 & X & Q1 & Q2 & Q3 & Q4 & Q5).
           exists q2, st2, X. assert (Ky : key (l_cfgs L2) y = key (l_cfgs L) y).
           { unfold key. now rewrite (OLD y (V _ _ _ Q1 Q2)). }
           rewrite Ky. split; auto. split; auto. split; auto. split.
           { rewrite K1, <- Q4. unfold key. rewrite C1, cf_app2. auto. }
           split; [rewrite SB; apply INB; eauto|]. intros i. rewrite KS, (ITS _ _ Q1). auto.
        -- rewrite Ec in Hy. rewrite (cs_new _ _ _ _ CS p c Hc) in Hy by lia. contradiction.
    + intros q q' st1 st2 x H1 H2 Hx1 Hx2.
      apply NQ in H1 as [H1|[-> ->]]; apply NQ in H2 as [H2|[-> ->]]; auto.
      * eapply si_disj; eauto.
      * specialize (V _ _ _ H1 Hx1). rewrite SC in Hx2. apply INC in Hx2 as (p & _ & ->). lia.
      * specialize (V _ _ _ H2 Hx2). rewrite SC in Hx1. apply INC in Hx1 as (p & _ & ->). lia.
    + intros q q' st1 st2 H1 H2 HK.
      apply NQ in H1 as [H1|[-> ->]]; apply NQ in H2 as [H2|[-> ->]]; auto.
      * rewrite (KRN _ _ H1), (KRN _ _ H2) in HK. eapply si_kinj; eauto.
      * exfalso. rewrite (KRN _ _ H1), KN in HK. apply (NEW st1); auto. eapply nth_error_In; eauto.
      * exfalso. rewrite (KRN _ _ H2), KN in HK. apply (NEW st2); auto. eapply nth_error_In; eauto.
    + intros st1 H i. apply NQ in H as [H|[H0 ->]].
      * rewrite (KRN _ _ H). eapply si_first; eauto.
      * rewrite KS. apply (gp_start _ _ _ GP). destruct (l_states L); [auto|discriminate].
    + intros q st1 H Hq. apply NQ in H as [H|[-> ->]].
      * rewrite (KRN _ _ H). eapply si_pos; eauto.
      * destruct (gp_pos _ _ _ GP) as [G1 G2].
        { intros H. rewrite H in Hq. simpl in Hq. lia. }
        split.
        -- intros H. destruct b0 as [|c b0]; [congruence|]. apply (in_nil (a := c_item c)).
           rewrite <- H. apply KS. left; auto.
        -- intros i Hi. apply KS in Hi. apply in_map_iff in Hi as (c & <- & Hc). apply G2. auto.
  - intros k. constructor.
    + intros q st1 H. exists st1. auto.
    + rewrite CF4, D1, C1, !app_length. lia.
    + intros q st1 x H Hx. rewrite CF4. unfold key. rewrite (OLD x (V _ _ _ H Hx)).
      split; auto. split; auto. apply incl_refl.
  - intros c y Hc Hy. apply In_nth_error in Hc as [p Hp].
    assert (Hb : p < length b0) by (eapply nth_error_Some_lt; eauto).
    exists (length pre + p). split; [apply INB; eauto|]. rewrite CF4.
    destruct (BAS p Hb) as (K1 & K2). rewrite K1, K2. unfold key. rewrite C1, cf_app2.
    unfold cf. rewrite (nth_error_Some_nth _ _ _ _ dconf Hp). auto.
Qed.


(** ** The inner loop of buildshifts *)
Lemma upd_app1 : forall (A : Type) (a b : list A) n x, n < length a -> upd (a ++ b) n x = upd a n x ++ b.
Proof.
  induction a as [|y a IH]; intros b [|n] x H; simpl in *; try lia; auto. rewrite IH by lia. auto.
Qed.

Definition nexti (i : item) : item := (fst i, S (snd i)).

Definition sel (h : list config) (sp : elem) (y : nat) : bool :=
  negb (c_comp (cf h y)) &&
  match after_dot g (key h y) with Some X => same_symbol X sp | None => false end.

Definition shifted (h : list config) (y : nat) : config :=
  mkConfig (c_rp (cf h y)) (S (c_dot (cf h y))) (SetNew (first_set_size g)) [] [y] true.

Lemma same_symbol_iff : forall a b, same_symbol a b = true <-> a = b.
Proof.
  intros a b. unfold same_symbol. destruct (elem_eq_dec a b); split; intros; auto; congruence.
Qed.

Lemma sym_after_ok : forall c, item_ok g (c_item c) -> sym_after g c = Ok (after_dot g (c_item c)).
Proof.
  intros c (rl & H & _). unfold sym_after, after_dot. unfold rule_of in *. simpl in *. rewrite H. auto.
Qed.

Lemma nexti_inj : forall i j, nexti i = nexti j -> i = j.
Proof. intros [a b] [c d] H. inversion H. auto. Qed.

Lemma shift_basis_ok : forall sp tail L pre b,
  cur_ok L pre b ->
  (forall y, In y tail -> y < length pre /\ item_ok g (key pre y)) ->
  NoDup (map (key pre) tail) ->
  (forall y, In y tail -> ~ In (nexti (key pre y)) (map c_item b)) ->
  exists L' pre', shift_basis g L sp tail = Ok L' /\ l_states L' = l_states L /\
    cur_ok L' pre' (b ++ map (shifted pre) (filter (sel pre sp) tail)) /\
    length pre' = length pre /\
    (forall x, x < length pre -> In x tail -> sel pre sp x = true -> cf pre' x = with_comp (cf pre x) true) /\
    (forall x, ~ (In x tail /\ sel pre sp x = true) -> cf pre' x = cf pre x).
Proof.
  intros sp tail. induction tail as [|y tail IH]; intros L pre b CO V ND NI.
  - exists L, pre. simpl. rewrite app_nil_r. split; auto. split; auto. split; auto. split; auto.
    split; [tauto|auto].
  - destruct (V y) as [Vy Oy]; [left; auto|]. pose proof CO as [C1 C2].
    inversion ND as [|? ? NDy ND']; subst.
    assert (Ey : nth_error (l_cfgs L) y = Some (cf pre y)).
    { rewrite C1, nth_error_app1 by auto. now apply cf_nth_error. }
    assert (Syt : sel pre sp y = true -> ~ In y tail).
    { intros _ Hy. apply NDy. now apply in_map. }
    cbn [shift_basis]. rewrite Ey. cbn [opt bind].
    assert (SKIP : sel pre sp y = false ->
      exists L' pre', shift_basis g L sp tail = Ok L' /\ l_states L' = l_states L /\
        cur_ok L' pre' (b ++ map (shifted pre) (filter (sel pre sp) (y :: tail))) /\
        length pre' = length pre /\
        (forall x, x < length pre -> In x (y :: tail) -> sel pre sp x = true -> cf pre' x = with_comp (cf pre x) true) /\
        (forall x, ~ (In x (y :: tail) /\ sel pre sp x = true) -> cf pre' x = cf pre x)).
    { intros F. simpl. rewrite F. destruct (IH L pre b) as (L' & pre' & H1 & H2 & H3 & H4 & H5 & H6); auto.
      { intros x Hx. apply V. right; auto. } { intros x Hx. apply NI. right; auto. }
      exists L', pre'. split; auto. split; auto. split; auto. split; auto. split.
      - intros x Hx [<-|Hin] Hs; [congruence|auto].
      - intros x Hx. apply H6. intros [H7 H8]. apply Hx. split; auto. }
    destruct (c_comp (cf pre y)) eqn:Ec.
    { apply SKIP. unfold sel. now rewrite Ec. }
    rewrite sym_after_ok by exact Oy. cbn [opt bind]. fold (key pre y).
    destruct (after_dot g (key pre y)) as [X|] eqn:Ea.
    2:{ apply SKIP. unfold sel. now rewrite Ec, Ea. }
    destruct (same_symbol X sp) eqn:Es.
    2:{ apply SKIP. unfold sel. now rewrite Ec, Ea. }
    assert (Sy : sel pre sp y = true) by (unfold sel; rewrite Ec, Ea; auto).
    set (pre1 := upd pre y (with_comp (cf pre y) true)).
    assert (LP1 : length pre1 = length pre) by apply upd_length.
    set (L1 := set_cfgs L (upd (l_cfgs L) y (with_comp (cf pre y) true))).
    assert (CO1 : cur_ok L1 pre1 b).
    { unfold L1, pre1. split; simpl; [|rewrite upd_length; auto]. rewrite C1. now rewrite upd_app1. }
    assert (SL1 : l_states L1 = l_states L) by reflexivity. clearbody L1.
    unfold Configlist_addbasis.
    destruct (Configtable_find (l_cfgs L1) (l_current L1) (c_rp (cf pre y), S (c_dot (cf pre y)))) as [z|] eqn:Ef.
    { exfalso. apply (cur_find_Some _ _ _ _ _ CO1) in Ef as (p & c & _ & Hc & Hi).
      apply (NI y); [left; auto|]. apply in_map_iff. exists c. split; [exact Hi|eapply nth_error_In; eauto]. }
    cbn [l_cfgs l_states].
    set (nc := newconfig g (c_rp (cf pre y)) (S (c_dot (cf pre y)))).
    destruct CO1 as [D1 D2].
    assert (En : nth_error (l_cfgs L1 ++ [nc]) (length (l_cfgs L1)) = Some nc).
    { rewrite nth_error_app2, Nat.sub_diag by auto. auto. }
    rewrite En. cbn [opt bind].
    match goal with |- context [shift_basis g ?l sp tail] => set (L3 := l) end.
    assert (CO3 : cur_ok L3 pre1 (b ++ [shifted pre y])).
    { unfold L3. split; simpl.
      - rewrite <- (Nat.add_0_r (length (l_cfgs L1))), upd_app2. simpl. rewrite D1, <- app_assoc. auto.
      - rewrite D2, D1, !app_length. simpl. rewrite Nat.add_1_r, seq_S. auto. }
    assert (KP : forall x, key pre1 x = key pre x).
    { intros x. unfold key, pre1. destruct (Nat.eq_dec x y) as [->|N].
      - rewrite cf_upd_eq by auto. auto.
      - rewrite cf_upd_ne by auto. auto. }
    assert (Z : forall x, x <> y -> cf pre1 x = cf pre x).
    { intros x N. unfold pre1. rewrite cf_upd_ne by auto. auto. }
    assert (SL : forall x, In x tail -> sel pre1 sp x = sel pre sp x).
    { intros x Hx. unfold sel. rewrite KP, Z; auto. intros ->. apply Syt in Sy. auto. }
    destruct (IH L3 pre1 (b ++ [shifted pre y])) as (L' & pre' & H1 & H2 & H3 & H4 & H5 & H6); auto.
    { intros x Hx. rewrite KP, LP1. apply V. right; auto. }
    { rewrite (map_ext _ (key pre)) by auto. auto. }
    { intros x Hx. rewrite KP, map_app, in_app_iff. intros [H|[H|[]]].
      - apply (NI x); [right; auto|auto].
      - apply NDy. assert (HH : nexti (key pre y) = nexti (key pre x)) by exact H.
        apply nexti_inj in HH. rewrite HH. now apply in_map. }
    exists L', pre'. split; [exact H1|]. split; [rewrite H2; exact SL1|].
    assert (FE1 : filter (sel pre1 sp) tail = filter (sel pre sp) tail).
    { apply filter_ext_in. auto. }
    split; [|split; [congruence|split]].
    + simpl. rewrite Sy. simpl. rewrite FE1, <- app_assoc in H3. simpl in H3.
      rewrite (map_ext_in (shifted pre1) (shifted pre)) in H3; auto.
      intros x Hx. apply filter_In in Hx as [Hx _]. unfold shifted. rewrite Z; auto.
      intros ->. apply Syt in Sy. auto.
    + intros x Hx [<-|Hin] Hs.
      * rewrite H6 by (intros [Hin _]; apply Syt in Sy; auto). unfold pre1. now rewrite cf_upd_eq.
      * rewrite H5; auto; [rewrite Z; auto; intros ->; apply Syt in Sy; auto|lia|rewrite SL; auto].
    + intros x Hx. rewrite H6.
      * apply Z. intros ->. apply Hx. split; [left; auto|auto].
      * intros [Hin Hs]. apply Hx. split; [right; auto|]. rewrite <- SL; auto.
Qed.

Lemma clear_status_ok : forall l h, (forall x, In x l -> x < length h) ->
  exists h', clear_status h l = Ok h' /\ length h' = length h /\
    (forall x, In x l -> cf h' x = with_comp (cf h x) false) /\
    (forall x, ~ In x l -> cf h' x = cf h x).
Proof.
  induction l as [|y l IH]; intros h V.
  - exists h. simpl. split; auto. split; auto. split; [tauto|auto].
  - assert (Vy : y < length h) by (apply V; left; auto).
    simpl. rewrite (cf_nth_error h y Vy). cbn [opt bind].
    destruct (IH (upd h y (with_comp (cf h y) false))) as (h' & E & LH & H1 & H2).
    { intros x Hx. rewrite upd_length. apply V. right; auto. }
    exists h'. split; auto. rewrite upd_length in LH. split; auto. split.
    + intros x Hx. destruct (in_dec Nat.eq_dec x l) as [Hin|Hout].
      * rewrite H1 by auto. destruct (Nat.eq_dec x y) as [->|N].
        -- rewrite cf_upd_eq by auto. auto.
        -- rewrite cf_upd_ne by auto. auto.
      * destruct Hx as [<-|Hx]; [|contradiction]. rewrite H2 by auto. now rewrite cf_upd_eq.
    + intros x Hx. simpl in Hx. rewrite H2 by tauto. rewrite cf_upd_ne by tauto. auto.
Qed.

(** ** The outer loop *)
Record LInv (stp : nat) (L : lemon) (st : state) (done : list nat) (TL : list (elem * nat)) : Prop := {
  li_inv : SInv L;
  li_st : nth_error (l_states L) stp = Some st;
  li_ap : s_ap st = flat_map (fun p => acts (fst p) (snd p)) TL;
  li_nd : NoDup (map fst TL);
  li_tl : TLok L st TL;
  li_comp : forall y, In y (s_cfp st) ->
    (c_comp (cf (l_cfgs L) y) = true <->
     exists X, after_dot g (key (l_cfgs L) y) = Some X /\ In X (map fst TL));
  li_done : forall y X, In y done -> after_dot g (key (l_cfgs L) y) = Some X -> In X (map fst TL);
  li_src : forall X, In X (map fst TL) -> exists y, In y (s_cfp st) /\ after_dot g (key (l_cfgs L) y) = Some X;
  li_later : forall q' st', stp < q' -> nth_error (l_states L) q' = Some st' -> StDone L st'
}.

Section Loop.
Variable f : nat.
Variable getst : lemon -> res (lemon * nat).
Hypothesis GETST : forall L pre b0, GPre L pre b0 -> max_states < length (l_states L) + f ->
  exists L' q, getst L = Ok (L', q) /\ GPost L b0 L' q.

Lemma shifts_loop_ok : forall rest done stp L st TL,
  LInv stp L st done TL -> s_cfp st = done ++ rest ->
  max_states < length (l_states L) + f ->
  exists L', shifts_loop getst g L stp rest = Ok L' /\ SInv L' /\ Ext stp L L' /\
    (forall q' st', stp <= q' -> nth_error (l_states L') q' = Some st' -> StDone L' st').
Proof.
  induction rest as [|y rest IH]; intros done stp L st TL LI HC HF.
  - exists L. simpl. split; auto. split; [apply LI|]. split; [apply Ext_refl|].
    intros q' st' Hq Hst. destruct (Nat.eq_dec q' stp) as [->|N].
    + rewrite (li_st _ _ _ _ _ LI) in Hst. inversion Hst; subst st'.
      exists TL. split; [apply LI|]. split; [|split; apply LI].
      intros X. split; [apply LI|]. intros (z & Hz & Ha). eapply li_done; eauto.
      rewrite HC, app_nil_r in Hz. auto.
    + eapply li_later; [exact LI| |exact Hst]. lia.
  - pose proof (li_inv _ _ _ _ _ LI) as SI. pose proof (li_st _ _ _ _ _ LI) as Hst.
    assert (Hy : In y (s_cfp st)) by (rewrite HC; apply in_or_app; right; left; auto).
    assert (Vall : forall x, In x (s_cfp st) -> x < length (l_cfgs L) /\ item_ok g (key (l_cfgs L) x)).
    { intros x Hx. split; [eapply si_valid; eauto|]. eapply SInv_item_ok; eauto. now apply in_map. }
    destruct (Vall y Hy) as [Vy Oy].
    cbn [shifts_loop]. rewrite (cf_nth_error _ _ Vy). cbn [opt bind].
    assert (SKIP : (forall X, after_dot g (key (l_cfgs L) y) = Some X -> In X (map fst TL)) ->
      exists L', shifts_loop getst g L stp rest = Ok L' /\ SInv L' /\ Ext stp L L' /\
      (forall q' st', stp <= q' -> nth_error (l_states L') q' = Some st' -> StDone L' st')).
    { intros HX. apply (IH (done ++ [y]) stp L st TL); auto; [|rewrite HC, <- app_assoc; auto].
      constructor; try apply LI. intros z X Hz. apply in_app_iff in Hz as [Hz|[<-|[]]]; auto.
      eapply li_done; eauto. }
    destruct (c_comp (cf (l_cfgs L) y)) eqn:Ec.
    { apply SKIP. intros X HX. apply (li_comp _ _ _ _ _ LI y Hy) in Ec as (X' & H1 & H2). congruence. }
    rewrite sym_after_ok by exact Oy. cbn [opt bind]. fold (key (l_cfgs L) y).
    destruct (after_dot g (key (l_cfgs L) y)) as [sp|] eqn:Ea; [|apply SKIP; discriminate].
    assert (Nsp : ~ In sp (map fst TL)).
    { intros Hin. assert (c_comp (cf (l_cfgs L) y) = true); [|congruence].
      apply (li_comp _ _ _ _ _ LI y Hy). eauto. }
    clear SKIP.
    set (h := l_cfgs L) in *.
    assert (SEL : forall x, In x (s_cfp st) -> (sel h sp x = true <-> after_dot g (key h x) = Some sp)).
    { intros x Hx. unfold sel. rewrite andb_true_iff, negb_true_iff. split.
      - intros [_ H]. destruct (after_dot g (key h x)); [|discriminate]. apply same_symbol_iff in H. congruence.
      - intros H. rewrite H. split; [|now apply same_symbol_iff].
        destruct (c_comp (cf h x)) eqn:E; auto. exfalso.
        apply (li_comp _ _ _ _ _ LI x Hx) in E as (X & H1 & H2). unfold h in H. congruence. }
    assert (TLI : forall x, In x (s_cfp st) -> after_dot g (key h x) = Some sp -> In x (y :: rest)).
    { intros x Hx Hax. rewrite HC in Hx. apply in_app_iff in Hx as [Hx|Hx]; auto.
      exfalso. apply Nsp. eapply li_done; eauto. }
    assert (SUB : forall x, In x (y :: rest) -> In x (s_cfp st)).
    { intros x Hx. rewrite HC. apply in_or_app. auto. }
    assert (NDk : NoDup (map (key h) (s_cfp st))) by (eapply si_nd; eauto).
    assert (NDt : NoDup (map (key h) (y :: rest))).
    { rewrite HC, map_app in NDk. eapply NoDup_app_r; eauto. }
    destruct (shift_basis_ok sp (y :: rest) (Configlist_reset L) h [])
      as (L2 & pre' & E2 & S2 & CO2 & LP & HS & HN); auto.
    { split; simpl; auto. now rewrite app_nil_r. }
    rewrite E2. cbn [bind]. cbn [app] in CO2. simpl in S2.
    set (bb := map (shifted h) (filter (sel h sp) (y :: rest))) in *.
    pose proof CO2 as [D1 D2].
    (* the new basis *)
    assert (BB : forall c, In c bb <-> exists x, In x (s_cfp st) /\ after_dot g (key h x) = Some sp /\ c = shifted h x).
    { intros c. unfold bb. rewrite in_map_iff. split.
      - intros (x & <- & Hx). apply filter_In in Hx as [Hx Hs]. exists x.
        split; auto. split; auto. apply SEL; auto.
      - intros (x & Hx & Hax & ->). exists x. split; auto. apply filter_In. split; [auto|apply SEL; auto]. }
    assert (BI : forall i, In i (map c_item bb) <-> goto_items g (fun j => In j (its L st)) sp i).
    { intros i. rewrite in_map_iff. split.
      - intros (c & <- & Hc). apply BB in Hc as (x & Hx & Hax & ->). exists (key h x).
        split; [now apply in_map|]. split; auto.
      - intros (j & Hj & Haj & ->). apply in_map_iff in Hj as (x & <- & Hx).
        exists (shifted h x). split; [reflexivity|]. apply BB. eauto. }
    (* L -> L2 *)
    assert (CFS : forall x, x < length h -> key (l_cfgs L2) x = key h x /\
       c_fws (cf (l_cfgs L2) x) = c_fws (cf h x) /\ c_fplp (cf (l_cfgs L2) x) = c_fplp (cf h x) /\
       c_bplp (cf (l_cfgs L2) x) = c_bplp (cf h x)).
    { intros x Hx. unfold key. rewrite D1, cf_app1 by lia.
      destruct (in_dec Nat.eq_dec x (y :: rest)) as [Hin|Hout]; [destruct (sel h sp x) eqn:Es|].
      - rewrite HS by auto. auto.
      - rewrite HN by (intros [_ ?]; congruence). auto.
      - rewrite HN by (intros [? _]; auto). auto. }
    assert (SK2 : Skel L L2).
    { split; [|split].
      - intros q1 st1 H1. rewrite S2 in H1. eauto.
      - rewrite D1, app_length. fold h. lia.
      - exact CFS. }
    assert (SI2 : SInv L2) by (apply (SInv_skel L); auto; congruence).
    assert (LH2 : length h <= length (l_cfgs L2)) by apply SK2.
    assert (COMP2 : forall x, In x (s_cfp st) -> (c_comp (cf (l_cfgs L2) x) = true <->
        c_comp (cf h x) = true \/ after_dot g (key h x) = Some sp)).
    { intros x Hx. destruct (Vall x Hx) as [Vx _]. rewrite D1, cf_app1 by (fold h in Vx; lia).
      destruct (in_dec Nat.eq_dec x (y :: rest)) as [Hin|Hout]; [destruct (sel h sp x) eqn:Es|].
      - rewrite HS by auto. apply SEL in Es; auto. simpl. tauto.
      - rewrite HN by (intros [_ ?]; congruence). split; auto. intros [H|H]; auto. apply SEL in H; auto. congruence.
      - rewrite HN by (intros [? _]; auto). split; auto. intros [H|H]; auto. }
    assert (EX2 : Ext stp L L2).
    { constructor.
      - intros q1 st1 H1. exists st1. rewrite S2. auto.
      - exact LH2.
      - intros q1 st1 x H1 Hx. fold h.
        assert (Vx : x < length h) by (eapply si_valid; eauto).
        destruct (CFS x Vx) as (K1 & K2 & K3 & K4). split; auto. split; [rewrite K4; apply incl_refl|].
        intros Hq. rewrite D1, cf_app1 by lia. rewrite HN; auto. intros [Hin _].
        assert (q1 = stp); [|lia]. apply (si_disj _ SI q1 stp st1 st x); auto. }
    (* precondition of the recursive call *)
    destruct (si_reach _ SI stp st Hst) as [gm GM].
    assert (GP : GPre L2 pre' bb).
    { constructor; auto.
      - intros q1 st1 x H1 Hx. rewrite S2 in H1. rewrite LP. eapply si_valid; eauto.
      - unfold bb. rewrite map_map.
        assert (ND2 : NoDup (map (fun x => nexti (key h x)) (filter (sel h sp) (y :: rest)))); [|exact ND2].
        rewrite <- map_map with (g := nexti). apply FinFun.Injective_map_NoDup.
        { intros a b. apply nexti_inj. }
        revert NDt. generalize (y :: rest). intros l. induction l as [|a l IHl]; intros N; simpl; auto.
        inversion N as [|? ? N1 N2]; subst. destruct (sel h sp a); [|auto]. simpl. constructor; auto.
        intros Hin. apply N1. apply in_map_iff in Hin as (b & <- & Hb). apply in_map. apply filter_In in Hb. tauto.
      - intros c Hc. apply BB in Hc as (x & Hx & Hax & ->). split; [|split; [auto|apply SetNew_length]].
        apply after_dot_ok in Hax. apply Hax.
      - intros c t Hc. apply BB in Hc as (x & Hx & Hax & ->). simpl. rewrite SetNew_find. split; [discriminate|].
        intros [H _]. rewrite S2 in H. rewrite H in Hst. destruct stp; discriminate.
      - exists (sp :: gm). intros i. rewrite valid_cons. split; apply clos_ext; intros j Hj.
        + apply BI in Hj as (k & Hk & Ha & ->). exists k. rewrite <- GM. auto.
        + apply BI. destruct Hj as (k & Hk & Ha & ->). exists k. rewrite GM. auto.
      - intros c z Hc Hz. apply BB in Hc as (x & Hx & Hax & ->). destruct Hz as [<-|[]].
        exists stp, st, sp. rewrite S2. destruct (CFS x) as (K1 & _); [apply Vall; auto|].
        rewrite K1. split; auto. split; auto. split; auto. split; [reflexivity|].
        intros i. rewrite BI. rewrite (Skel_its L L2 stp st st); auto. reflexivity.
      - intros H. rewrite S2 in H. rewrite H in Hst. destruct stp; discriminate.
      - intros _. split.
        + intros H. apply (in_nil (a := shifted h y)). rewrite <- H. apply BB. eauto.
        + intros c Hc. apply BB in Hc as (x & _ & _ & ->). simpl. lia. }
    destruct (GETST L2 pre' bb GP) as (L3 & q & E3 & GO). { rewrite S2. auto. }
    rewrite E3. cbn [bind].
    pose proof (go_ext _ _ _ _ GO) as EX3. pose proof (go_inv _ _ _ _ GO) as SI3.
    assert (LT : stp < length (l_states L2)) by (rewrite S2; eapply nth_error_Some_lt; eauto).
    assert (Hst2 : nth_error (l_states L2) stp = Some st) by (rewrite S2; auto).
    destruct (ex_states _ _ _ EX3 stp st Hst2) as (st3 & Hst3 & B3 & C3 & A3). specialize (A3 LT).
    rewrite Hst3. cbn [opt bind].
    set (st4 := mkState (s_bp st3) (s_cfp st3) (add_shifts (s_ap st3) sp q)).
    set (L4 := set_states L3 (upd (l_states L3) stp st4)).
    assert (Hst4 : nth_error (l_states L4) stp = Some st4).
    { unfold L4. simpl. apply nth_error_upd_eq. eapply nth_error_Some_lt; eauto. }
    assert (OTH : forall q1, q1 <> stp -> nth_error (l_states L4) q1 = nth_error (l_states L3) q1).
    { intros q1 N. unfold L4. simpl. rewrite nth_error_upd_ne by auto. auto. }
    assert (SK4 : Skel L3 L4).
    { split; [|split; [auto|auto]]. intros q1 st1 H1. destruct (Nat.eq_dec q1 stp) as [->|N].
      - rewrite Hst4 in H1. inversion H1; subst st1. exists st3. auto.
      - rewrite OTH in H1 by auto. eauto. }
    assert (SI4 : SInv L4).
    { apply (SInv_skel L3); auto. unfold L4. simpl. now rewrite upd_length. }
    assert (EX4 : Ext stp L3 L4).
    { constructor.
      - intros q1 st1 H1. destruct (Nat.eq_dec q1 stp) as [->|N].
        + rewrite Hst3 in H1. inversion H1; subst st1. exists st4. split; auto. split; auto. split; auto. lia.
        + exists st1. rewrite OTH by auto. auto.
      - auto.
      - intros q1 st1 x H1 Hx. split; auto. split; auto. apply incl_refl. }
    assert (EX23 : Ext stp L2 L3) by (eapply Ext_weaken; [|exact EX3]; lia).
    assert (EX : Ext stp L L4) by (eapply Ext_trans; [|exact EX4]; eapply Ext_trans; eauto).
    assert (C4 : s_cfp st4 = s_cfp st) by exact C3.
    assert (KEY : forall x, In x (s_cfp st) -> key (l_cfgs L4) x = key h x).
    { intros x Hx. eapply (ex_cf _ _ _ EX); eauto. }
    assert (COMP4 : forall x, In x (s_cfp st) -> c_comp (cf (l_cfgs L4) x) = c_comp (cf (l_cfgs L2) x)).
    { intros x Hx. change (l_cfgs L4) with (l_cfgs L3). eapply (ex_cf _ _ _ EX3); eauto. }
    assert (LI4 : LInv stp L4 st4 (done ++ [y]) ((sp, q) :: TL)).
    { constructor; auto.
      - simpl. rewrite add_shifts_app, A3, (li_ap _ _ _ _ _ LI). reflexivity.
      - simpl. constructor; auto. apply LI.
      - intros X q1 [HX|HX].
        + inversion HX; subst X q1. destruct (go_q _ _ _ _ GO) as (stq & Hq & KQ & BQ).
          destruct (ex_states _ _ _ EX4 q stq Hq) as (stq4 & Hq4 & Bq4 & Cq4 & _).
          exists stq4. split; auto. split.
          * intros i. rewrite (Ext_kern _ _ _ _ _ _ EX4 SI3 Hq Bq4), KQ, BI.
            rewrite (Ext_its _ _ _ _ _ _ EX Hst C4). reflexivity.
          * intros z Hz Haz. rewrite C4 in Hz. rewrite (KEY z Hz) in *.
            destruct (BQ (shifted h z) z) as (x & Hx & Kx & Bx).
            { apply BB. eauto. } { left; auto. }
            exists x. rewrite Bq4. auto.
        + eapply TLok_ext; eauto. apply LI.
      - intros z Hz. rewrite C4 in Hz. rewrite (KEY z Hz), (COMP4 z Hz), (COMP2 z Hz).
        pose proof (li_comp _ _ _ _ _ LI z Hz) as LC. fold h in LC. rewrite LC. simpl. split.
        + intros [(X & H1 & H2)|H]; eauto.
        + intros (X & H1 & [<-|H2]); eauto.
      - intros z X Hz. assert (Hzs : In z (s_cfp st)).
        { rewrite HC. apply in_app_iff. apply in_app_iff in Hz as [Hz|[<-|[]]]; simpl; auto. }
        rewrite (KEY z Hzs). simpl. apply in_app_iff in Hz as [Hz|[<-|[]]]; intros HX.
        + right. eapply li_done; eauto.
        + left. fold h in Ea. congruence.
      - intros X [<-|HX].
        + exists y. rewrite C4, (KEY y Hy). auto.
        + destruct (li_src _ _ _ _ _ LI X HX) as (z & Hz & Haz). exists z. rewrite C4, (KEY z Hz). auto.
      - intros q1 st1 Hq1 Hs1. rewrite OTH in Hs1 by lia.
        destruct (le_lt_dec (length (l_states L2)) q1) as [HL|HL].
        + apply (StDone_ext stp L3 L4 q1 st1 st1); auto. eapply go_new; eauto.
        + destruct (nth_error_lt_ex _ _ _ HL) as [st2 Hst2'].
          destruct (ex_states _ _ _ EX3 q1 st2 Hst2') as (st2' & Q1 & Q2 & Q3 & Q4). rewrite Hs1 in Q1.
          inversion Q1; subst st2'. rewrite S2 in Hst2'.
          apply (StDone_ext stp L L4 q1 st2 st1); auto. eapply li_later; eauto. }
    destruct (IH (done ++ [y]) stp L4 st4 _ LI4) as (L' & R1 & R2 & R3 & R4).
    { rewrite C4, HC, <- app_assoc. auto. }
    { apply Ext_nstates in EX. lia. }
    exists L'. split; [exact R1|]. split; auto. split; [eapply Ext_trans; eauto|auto].
Qed.

Lemma buildshifts_ok : forall L stp st,
  SInv L -> stp = length (l_states L) - 1 -> nth_error (l_states L) stp = Some st ->
  s_ap st = [] -> max_states < length (l_states L) + f ->
  exists L', buildshifts getst g L stp = Ok L' /\ SInv L' /\ Ext stp L L' /\
    (forall q' st', stp <= q' -> nth_error (l_states L') q' = Some st' -> StDone L' st').
Proof.
  intros L stp st SI Hl Hst HA HF. unfold buildshifts. rewrite Hst. cbn [opt bind].
  destruct (clear_status_ok (s_cfp st) (l_cfgs L)) as (h & E & LH & H1 & H2).
  { intros x Hx. eapply si_valid; eauto. }
  rewrite E. cbn [bind].
  assert (CFS : forall x, key h x = key (l_cfgs L) x /\
       c_fws (cf h x) = c_fws (cf (l_cfgs L) x) /\ c_fplp (cf h x) = c_fplp (cf (l_cfgs L) x) /\
       c_bplp (cf h x) = c_bplp (cf (l_cfgs L) x)).
  { intros x. unfold key. destruct (in_dec Nat.eq_dec x (s_cfp st)) as [Hin|Hout].
    - rewrite H1 by auto. auto.
    - rewrite H2 by auto. auto. }
  assert (SK : Skel L (set_cfgs L h)).
  { split; [|split].
    - intros q1 st1 Hq. exists st1. auto.
    - simpl. lia.
    - intros x _. apply CFS. }
  assert (EX : Ext stp L (set_cfgs L h)).
  { constructor.
    - intros q1 st1 Hq. exists st1. auto.
    - simpl. lia.
    - intros q1 st1 x Hq Hx. simpl. destruct (CFS x) as (K1 & _ & _ & K4). split; auto.
      split; [rewrite K4; apply incl_refl|]. intros Hlt. rewrite H2; auto. intros Hin.
      assert (q1 = stp); [|lia]. eapply si_disj; eauto. }
  assert (SI' : SInv (set_cfgs L h)) by (apply (SInv_skel L); auto).
  destruct (shifts_loop_ok (s_cfp st) [] stp (set_cfgs L h) st []) as (L' & R1 & R2 & R3 & R4); auto.
  { constructor; auto.
    - simpl; constructor.
    - intros X q' [].
    - intros y Hy. simpl. rewrite H1 by auto. simpl. split; [discriminate|]. intros (X & _ & []).
    - intros X [].
    - intros q' st' Hq Hq'. simpl in Hq'. apply nth_error_Some_lt in Hq'. lia. }
  exists L'. split; auto. split; auto. split; [eapply Ext_trans; eauto|auto].
Qed.
End Loop.

Theorem getstate_ok : forall fuel L pre b0,
  GPre L pre b0 -> max_states < length (l_states L) + fuel ->
  exists L' q, getstate fuel g lam fs L = Ok (L', q) /\ GPost L b0 L' q.
Proof.
  induction fuel as [|f IH]; intros L pre b0 GP HF.
  - pose proof (nstates_bound L (gp_inv _ _ _ GP)). lia.
  - pose proof (gp_inv _ _ _ GP) as SI.
    destruct (sorted_basis L pre b0 GP) as (P1 & P2 & P3 & P4 & P5).
    cbn [getstate]. unfold Configlist_sortbasis_basis.
    set (bp := sort_cfgs (l_cfgs L) (l_current L)) in *.
    unfold State_find. cbn [l_cfgs l_states l_current l_basis].
    rewrite items_of_ok by (intros x Hx; apply P5; auto). cbn [bind].
    destruct (state_search_ok (l_cfgs L) (l_states L) 0 (map (key (l_cfgs L)) bp)) as (o & Eo & Ho).
    { intros st x Hs Hx. apply In_nth_error in Hs as [q Hq]. eapply si_valid; eauto. eapply si_bp; eauto. }
    rewrite Eo. cbn [bind]. destruct o as [q|].
    + destruct Ho as (j & st & -> & Hj & HK). simpl (0 + j). rewrite Hj. cbn [opt bind].
      destruct (getstate_old L pre b0 j st GP Hj HK) as (h & E1 & E2 & GO). fold bp in E1.
      rewrite E1. cbn [bind]. rewrite E2. cbn [bind]. eauto.
    + destruct (getstate_new L pre b0 GP) as (L2 & E2 & S2 & SI4 & EX4 & ND4 & K4 & B4).
      { intros st Hs HK. apply (Ho st Hs). exact HK. }
      fold bp in SI4, EX4, ND4, K4, B4. rewrite E2. cbn [bind]. unfold Configlist_sort_return.
      cbn [l_cfgs l_states l_current l_basis set_states].
      set (st := mkState bp (sort_cfgs (l_cfgs L2) (l_current L2)) []) in *.
      unfold set_states. cbn [l_cfgs l_states l_current l_basis].
      set (L4 := mkLemon (l_cfgs L2) (l_states L2 ++ [st]) [] (l_basis L2)) in *.
      assert (LL : length (l_states L4) = S (length (l_states L))).
      { simpl. rewrite app_length, S2. simpl. lia. }
      assert (Hn : nth_error (l_states L4) (length (l_states L2)) = Some st).
      { simpl. rewrite nth_error_app2, Nat.sub_diag by auto. auto. }
      destruct (buildshifts_ok f (getstate f g lam fs) IH L4 (length (l_states L2)) st)
        as (L5 & E5 & SI5 & EX5 & D5); auto.
      { rewrite LL, S2. lia. } { rewrite LL. lia. }
      rewrite E5. cbn [bind]. exists L5, (length (l_states L2)). split; auto.
      rewrite S2 in *.
      constructor; auto.
      * eapply Ext_trans; [apply EX4|exact EX5].
      * destruct (ex_states _ _ _ EX5 _ st Hn) as (st5 & Hn5 & Bb5 & Bc5 & _).
        exists st5. split; auto. split.
        -- intros i. rewrite (Ext_kern _ _ _ _ _ _ EX5 SI4 Hn Bb5). apply K4.
        -- intros c y Hc Hy. destruct (B4 c y Hc Hy) as (x & Hx & Kx & Bx). exists x.
           rewrite Bb5. split; auto.
           destruct (ex_cf _ _ _ EX5 _ st x Hn) as (K1 & K2 & _).
           { eapply (si_bp _ SI4); eauto. }
           split; [congruence|apply K2; auto].
Qed.


(** ** The start state *)
Definition startconf (r : nat) (w : cset) : config := mkConfig r 0 w [] [] true.

Lemma start_basis_ok : forall w0 p, SetAdd (SetNew (first_set_size g)) 0 = Ok (w0, p) ->
  forall rs L b, cur_ok L [] b -> NoDup rs ->
  (forall r, In r rs -> ~ In (r, 0) (map c_item b)) ->
  exists L', start_basis g L rs = Ok L' /\ l_states L' = l_states L /\
    cur_ok L' [] (b ++ map (fun r => startconf r w0) rs).
Proof.
  intros w0 p W. induction rs as [|r rs IH]; intros L b CO ND NI.
  - exists L. simpl. rewrite app_nil_r. auto.
  - inversion ND as [|? ? N1 N2]; subst. cbn [start_basis]. unfold Configlist_addbasis.
    destruct (Configtable_find (l_cfgs L) (l_current L) (r, 0)) as [z|] eqn:Ef.
    { exfalso. apply (cur_find_Some _ _ _ _ _ CO) in Ef as (k & c & _ & Hc & Hi).
      apply (NI r); [left; auto|]. apply in_map_iff. exists c. split; [exact Hi|eapply nth_error_In; eauto]. }
    destruct CO as [C1 C2]. cbn [l_cfgs l_states].
    rewrite nth_error_app2, Nat.sub_diag by auto. cbn [nth_error opt bind newconfig c_fws].
    rewrite W. cbn [bind].
    match goal with |- context [start_basis g ?l rs] => set (L3 := l) end.
    assert (CO3 : cur_ok L3 [] (b ++ [startconf r w0])).
    { unfold L3. split; simpl.
      - rewrite <- (Nat.add_0_r (length (l_cfgs L))), upd_app2. simpl. rewrite C1. auto.
      - rewrite C2, C1, !app_length. simpl. rewrite Nat.add_1_r, seq_S. auto. }
    destruct (IH L3 _ CO3 N2) as (L' & E & S' & CO').
    { intros r' Hr'. rewrite map_app, in_app_iff. intros [H|[H|[]]].
      - apply (NI r'); [right; auto|auto].
      - inversion H; subst. auto. }
    exists L'. split; [exact E|]. split; [rewrite S'; reflexivity|].
    rewrite <- app_assoc in CO'. exact CO'.
Qed.

Record Final (L : lemon) : Prop := {
  fi_inv : SInv L;
  fi_done : forall q st, nth_error (l_states L) q = Some st -> StDone L st;
  fi_pos : l_states L <> []
}.

Theorem FindStates_ok : forall fuel, max_states < fuel ->
  exists L, FindStates fuel g lam fs = Ok L /\ Final L.
Proof.
  intros fuel HF. unfold FindStates.
  assert (P0 : 0 < first_set_size g) by (unfold first_set_size, SetSize; lia).
  destruct (SetAdd_ok (SetNew (first_set_size g)) 0) as (w0 & E0 & L0 & F0).
  { rewrite SetNew_length. auto. }
  destruct (start_basis_ok w0 _ E0 (rules_of g (g_start g)) (mkLemon [] [] [] []) []) as (L & E & HS & CO).
  { split; auto. } { apply rules_of_NoDup. } { auto. }
  rewrite E. cbn [bind]. simpl app in CO. simpl in HS.
  set (b0 := map (fun r => startconf r w0) (rules_of g (g_start g))) in *.
  assert (BI : forall i, In i (map c_item b0) <-> start_items g i).
  { intros i. unfold b0. rewrite map_map, in_map_iff. unfold start_items. split.
    - intros (r & <- & Hr). exists r. apply rules_of_In in Hr. auto.
    - intros (r & Hr & ->). exists r. apply rules_of_In in Hr. auto. }
  assert (BC : forall c, In c b0 -> exists r, lhs_is g r (g_start g) /\ c = startconf r w0).
  { intros c Hc. apply in_map_iff in Hc as (r & <- & Hr). exists r. split; auto. now apply rules_of_In. }
  assert (NS : forall q st, nth_error (l_states L) q = Some st -> False).
  { intros q st H. rewrite HS in H. destruct q; discriminate. }
  assert (SI : SInv L).
  { constructor; intros; exfalso; eauto. }
  assert (GP : GPre L [] b0).
  { constructor; auto.
    - intros; exfalso; eauto.
    - unfold b0. rewrite map_map. apply FinFun.Injective_map_NoDup; [|apply rules_of_NoDup].
      intros a b H. inversion H. auto.
    - intros c Hc. apply BC in Hc as (r & Hr & ->). split; [eapply lhs_is_ok; eauto|]. split; auto.
      simpl. rewrite L0. apply SetNew_length.
    - intros c t Hc. apply BC in Hc as (r & Hr & ->). simpl. rewrite F0, SetNew_find. split.
      + intros [H| ->]; [discriminate|auto].
      + intros [_ ->]. auto.
    - exists []. intros i. rewrite valid_nil. split; apply clos_ext; intros j; apply BI.
    - intros c y Hc Hy. apply BC in Hc as (r & Hr & ->). destruct Hy.
    - intros H. congruence. }
  destruct (getstate_ok fuel L [] b0 GP) as (L' & q & E' & GO).
  { rewrite HS. simpl. auto. }
  rewrite E'. cbn [bind]. exists L'. split; auto.
  destruct (go_q _ _ _ _ GO) as (st & Hq & _).
  constructor.
  - apply GO.
  - intros q' st' Hq'. apply (go_new _ _ _ _ GO q' st'); auto. rewrite HS. simpl. lia.
  - intros H. rewrite H in Hq. destruct q; discriminate.
Qed.

(** ** Larger fuel gives the same result *)
Lemma shifts_loop_mono : forall g1 g2, (forall L r, g1 L = Ok r -> g2 L = Ok r) ->
  forall rest L stp r, shifts_loop g1 g L stp rest = Ok r -> shifts_loop g2 g L stp rest = Ok r.
Proof.
  intros g1 g2 M. induction rest as [|x rest IH]; intros L stp r; cbn [shifts_loop]; auto.
  destruct (opt (nth_error (l_cfgs L) x)) as [c| |]; cbn [bind]; auto.
  destruct (c_comp c); auto.
  destruct (sym_after g c) as [[sp|]| |]; cbn [bind]; auto.
  destruct (shift_basis g (Configlist_reset L) sp (x :: rest)) as [L2| |]; cbn [bind]; auto.
  destruct (g1 L2) as [[L3 q]| |] eqn:E; cbn [bind]; try discriminate.
  apply M in E. rewrite E. cbn [bind].
  destruct (opt (nth_error (l_states L3) stp)); cbn [bind]; auto.
Qed.

Lemma getstate_mono : forall f f' L r, f <= f' -> getstate f g lam fs L = Ok r -> getstate f' g lam fs L = Ok r.
Proof.
  induction f as [|f IH]; intros f' L r Hf; [discriminate|].
  destruct f' as [|f']; [lia|]. cbn [getstate].
  destruct (Configlist_sortbasis_basis L) as [L1 bp].
  destruct (State_find L1 bp) as [[q|]| |]; cbn [bind]; auto.
  destruct (Configlist_closure g lam fs L1) as [L2| |]; cbn [bind]; auto.
  destruct (Configlist_sort_return L2) as [L3 cfp].
  match goal with |- context [buildshifts _ g ?l ?q] => set (L4 := l); set (n := q) end.
  unfold buildshifts. destruct (opt (nth_error (l_states L4) n)) as [st| |]; cbn [bind]; auto.
  destruct (clear_status (l_cfgs L4) (s_cfp st)) as [h| |]; cbn [bind]; auto.
  destruct (shifts_loop (getstate f g lam fs) g (set_cfgs L4 h) n (s_cfp st)) as [L5| |] eqn:E; cbn [bind]; try discriminate.
  intros H. erewrite shifts_loop_mono; [|intros; apply IH; [|eassumption]; lia|exact E]. exact H.
Qed.

Theorem FindStates_Final : forall fuel L, FindStates fuel g lam fs = Ok L -> Final L.
Proof.
  intros fuel L H. destruct (FindStates_ok (S max_states + fuel)) as (L' & E & F); [lia|].
  assert (L' = L); [|subst; auto].
  unfold FindStates in H, E. destruct (start_basis g (mkLemon [] [] [] []) (rules_of g (g_start g))) as [L0| |];
    cbn [bind] in *; try discriminate.
  destruct (getstate fuel g lam fs L0) as [[L1 q]| |] eqn:E1; cbn [bind] in H; try discriminate.
  apply (getstate_mono fuel (S max_states + fuel)) in E1; [|lia].
  rewrite E1 in E. cbn [bind] in E. congruence.
Qed.

(** ** Consequences *)
Lemma clos_dot : forall (K : item -> Prop) i, clos g K i -> 0 < snd i -> K i.
Proof. clear SIZE. intros K i H. destruct H; auto. simpl. lia. Qed.

Lemma its_inj : forall L q q' st st', SInv L ->
  nth_error (l_states L) q = Some st -> nth_error (l_states L) q' = Some st' ->
  (forall i, In i (its L st) <-> In i (its L st')) -> q = q'.
Proof.
  clear SIZE.
  intros L q q' st st' SI H H' E.
  assert (ZERO : forall q1 st1 st2, nth_error (l_states L) 0 = Some st1 -> nth_error (l_states L) q1 = Some st2 ->
     0 < q1 -> (forall i, In i (its L st2) -> In i (its L st1)) -> False).
  { intros q1 st1 st2 H1 H2 Hq E1. destruct (si_pos _ SI q1 st2 H2 Hq) as [N P].
    destruct (kern L st2) as [|i k] eqn:Ek; [congruence|].
    assert (Hi : In i (kern L st2)) by (rewrite Ek; left; auto).
    assert (Pi : 0 < snd i) by (apply P; left; auto).
    apply (kern_its L q1 st2 i SI H2) in Hi. apply E1 in Hi.
    apply (si_clos _ SI 0 st1 i H1) in Hi. apply clos_dot in Hi; auto.
    apply (si_first _ SI st1 H1) in Hi as (r & _ & ->). simpl in Pi. lia. }
  destruct q as [|q]; destruct q' as [|q']; auto.
  - exfalso. eapply (ZERO (S q')); eauto. { lia. } intros i Hi. apply E. auto.
  - exfalso. eapply (ZERO (S q)); eauto. { lia. } intros i Hi. apply E. auto.
  - apply (si_kinj _ SI _ _ _ _ H H'). apply sorted_unique.
    + eapply si_sorted; eauto.
    + eapply si_sorted; eauto.
    + eapply si_ndbp; eauto.
    + eapply si_ndbp; eauto.
    + assert (HALF : forall a b sta stb, nth_error (l_states L) (S a) = Some sta -> nth_error (l_states L) (S b) = Some stb ->
        (forall i, In i (its L sta) -> In i (its L stb)) -> forall i, In i (kern L sta) -> In i (kern L stb)).
      { intros a b sta stb Ha Hb Hs i Hi. pose proof Hi as Hi'.
        apply (kern_its L (S a) sta i SI Ha) in Hi. apply Hs in Hi.
        apply (si_clos _ SI _ _ i Hb) in Hi. apply clos_dot in Hi; auto.
        destruct (si_pos _ SI _ _ Ha) as [_ P]; [lia|auto]. }
      intros i. split; eapply HALF; eauto; intros j; apply E.
Qed.

(** [goes L q X q']: the code recorded a transition on [X]. *)
Definition goes (L : lemon) (q : nat) (X : elem) (q' : nat) : Prop :=
  exists st st', nth_error (l_states L) q = Some st /\ nth_error (l_states L) q' = Some st' /\
    (exists i, In i (its L st) /\ after_dot g i = Some X) /\
    forall i, In i (its L st') <-> clos g (goto_items g (fun j => In j (its L st)) X) i.

Lemma goes_det : forall L q X q1 q2, SInv L -> goes L q X q1 -> goes L q X q2 -> q1 = q2.
Proof.
  clear SIZE.
  intros L q X q1 q2 SI (st & st1 & H1 & H2 & _ & E1) (st' & st2 & H3 & H4 & _ & E2).
  rewrite H1 in H3. inversion H3; subst st'. eapply its_inj; eauto.
  intros i. rewrite E1, E2. reflexivity.
Qed.

Lemma TL_goes : forall L q st TL X q', SInv L -> nth_error (l_states L) q = Some st ->
  TLok L st TL -> (exists y, In y (s_cfp st) /\ after_dot g (key (l_cfgs L) y) = Some X) ->
  In (X, q') TL -> goes L q X q'.
Proof.
  clear SIZE.
  intros L q st TL X q' SI H T (y & Hy & Ha) HT. destruct (T X q' HT) as (st' & H1 & H2 & H3).
  exists st, st'. split; auto. split; auto. split.
  - exists (key (l_cfgs L) y). split; auto. now apply in_map.
  - intros i. rewrite (si_clos _ SI q' st' i H1). split; apply clos_ext; intros j; apply H2.
Qed.

Lemma goes_exists : forall L q st i X, Final L -> nth_error (l_states L) q = Some st ->
  In i (its L st) -> after_dot g i = Some X -> exists q', goes L q X q'.
Proof.
  clear SIZE.
  intros L q st i X F H Hi Ha. destruct (fi_done _ F q st H) as (TL & N & S' & A & T).
  apply in_map_iff in Hi as (y & <- & Hy).
  assert (HX : In X (map fst TL)) by (apply S'; eauto).
  apply in_map_iff in HX as ([X' q'] & HE & HT). simpl in HE. subst X'.
  exists q'. eapply TL_goes; eauto. apply F.
Qed.

Lemma goes_TL : forall L q st TL X q', Final L -> nth_error (l_states L) q = Some st ->
  (forall X, In X (map fst TL) <-> exists y, In y (s_cfp st) /\ after_dot g (key (l_cfgs L) y) = Some X) ->
  TLok L st TL -> (goes L q X q' <-> In (X, q') TL).
Proof.
  clear SIZE.
  intros L q st TL X q' F H S' T. split.
  - intros G. pose proof G as (st1 & st2 & H1 & H2 & (i & Hi & Ha) & _). rewrite H in H1.
    inversion H1; subst st1. apply in_map_iff in Hi as (y & <- & Hy).
    assert (HX : In X (map fst TL)) by (apply S'; eauto).
    apply in_map_iff in HX as ([X' q''] & HE & HT). simpl in HE. subst X'.
    assert (q'' = q'); [|subst; auto]. eapply goes_det; [apply F| |exact G].
    eapply TL_goes; eauto. apply F.
  - intros HT. assert (HX : exists y, In y (s_cfp st) /\ after_dot g (key (l_cfgs L) y) = Some X).
    { apply S'. apply in_map_iff. exists (X, q'). auto. }
    eapply TL_goes; eauto. apply F.
Qed.

Definition syms_of (X : elem) : list nat := match X with ESym s => [s] | EMulti l => l end.

Lemma acts_In : forall X q a, In a (acts X q) <-> exists s, In s (syms_of X) /\ a = mkAction SHIFT s q.
Proof.
  clear SIZE.
  intros [s|l] q a; unfold acts; simpl.
  - split.
    + intros [<-|[]]. exists s. auto.
    + intros (s' & [<-|[]] & ->). auto.
  - assert (G : forall l acc, In a (fold_left (fun a0 s => Action_add a0 SHIFT s q) l acc) <->
       In a acc \/ exists s, In s l /\ a = mkAction SHIFT s q).
    { clear l. induction l as [|s l IH]; intros acc; simpl.
      - split; auto. intros [H|(s & [] & _)]; auto.
      - rewrite IH. unfold Action_add. simpl. split.
        + intros [[<-|H]|(s' & H1 & H2)]; eauto.
        + intros [H|(s' & [<-|H1] & ->)]; eauto. }
    rewrite G. simpl. split; [intros [[]|H]; auto|auto].
Qed.

Lemma ap_goes : forall L q st a, Final L -> nth_error (l_states L) q = Some st ->
  (In a (s_ap st) <-> exists X q' s, goes L q X q' /\ In s (syms_of X) /\ a = mkAction SHIFT s q').
Proof.
  clear SIZE.
  intros L q st a F H. destruct (fi_done _ F q st H) as (TL & N & S' & A & T).
  rewrite A, in_flat_map. split.
  - intros ([X q'] & HT & Ha). apply acts_In in Ha as (s & Hs & ->). exists X, q', s.
    split; auto. eapply goes_TL; eauto.
  - intros (X & q' & s & G & Hs & ->). apply (goes_TL L q st TL X q' F H S' T) in G.
    exists (X, q'). split; auto. apply acts_In. eauto.
Qed.

Lemma state0 : forall L, Final L -> exists st, nth_error (l_states L) 0 = Some st /\
  forall i, In i (its L st) <-> valid g [] i.
Proof.
  clear SIZE.
  intros L F. pose proof (fi_pos _ F) as P. destruct (l_states L) as [|st sts] eqn:E; [congruence|].
  assert (H : nth_error (l_states L) 0 = Some st) by (rewrite E; auto).
  exists st. split; auto. intros i. rewrite (si_clos _ (fi_inv _ F) 0 st i H), valid_nil.
  split; apply clos_ext; intros j; apply (si_first _ (fi_inv _ F) st H).
Qed.

Lemma goes_valid : forall L q st X q' gm, goes L q X q' -> nth_error (l_states L) q = Some st ->
  (forall i, In i (its L st) <-> valid g gm i) ->
  exists st', nth_error (l_states L) q' = Some st' /\ forall i, In i (its L st') <-> valid g (X :: gm) i.
Proof.
  clear SIZE.
  intros L q st X q' gm (st1 & st' & H1 & H2 & _ & E) H V. rewrite H in H1. inversion H1; subst st1.
  exists st'. split; auto. intros i. rewrite E, valid_cons.
  split; apply clos_ext; intros j (k & Hk & Ha & ->); exists k; rewrite ?V in *; rewrite <- ?V in *; auto.
Qed.

Lemma states_complete : forall L gm i, Final L -> valid g gm i ->
  exists q st, nth_error (l_states L) q = Some st /\ forall j, In j (its L st) <-> valid g gm j.
Proof.
  clear SIZE.
  intros L gm. induction gm as [|X gm IH]; intros i F V.
  - destruct (state0 L F) as (st & H & E). exists 0, st. auto.
  - assert (HK : exists k, valid g gm k /\ after_dot g k = Some X).
    { apply valid_cons in V. clear IH. induction V as [i (k & Hk & Ha & _)|i A r V IHV]; eauto. }
    destruct HK as (k & Hk & Ha). destruct (IH k F Hk) as (q & st & H & E).
    destruct (goes_exists L q st k X F H) as (q' & G); auto. { apply E. auto. }
    destruct (goes_valid L q st X q' gm G H E) as (st' & H' & E'). eauto.
Qed.

End P.
