(** byacc/lalr.c: the digraph algorithm. *)
From Coq Require Import List Arith NArith Lia Bool.
Import ListNotations.
From Verif Require Import Base ByaccWarshallModel ByaccWarshallProof ByaccLr0Model ByaccClosureProof ByaccLalrModel.
Open Scope res_scope.

Lemma nth_error_nth0 : forall (l : list nat) i, i < length l -> nth_error l i = Some (nth i l 0).
Proof. intros l i H. apply nth_error_nth'. auto. Qed.

Lemma put_ok : forall A (l : list A) i x, i < length l -> put l i x = Ok (upd l i x).
Proof. intros A l i x H. unfold put. replace (i <? length l) with true by (symmetry; now apply Nat.ltb_lt). reflexivity. Qed.

Lemma copy_words_ok : forall k a d s, d + k <= length a -> s + k <= length a -> s + k <= d \/ d + k <= s ->
  exists a', copy_words a d s k = Ok a' /\ length a' = length a /\
  forall m, nth m a' 0%N = if (d <=? m) && (m <? d + k) then nth (s + (m - d)) a 0%N else nth m a 0%N.
Proof.
  induction k as [|k IH]; intros a d s Hd Hs Ov; cbn [copy_words].
  - exists a. split; [reflexivity|]. split; [reflexivity|]. intros m.
    destruct (Nat.leb_spec d m); destruct (Nat.ltb_spec m (d + 0)); cbn; auto; lia.
  - destruct (nth_error_lt_ex _ a s) as (x & Ex); [lia|]. rewrite Ex. cbn [opt bind]. rewrite put_ok by lia. cbn [bind].
    destruct (IH (upd a d x) (S d) (S s)) as (a' & E & L & B); try (rewrite upd_length; lia); try lia.
    exists a'. split; [exact E|]. rewrite upd_length in L. split; [exact L|]. intros m. rewrite B.
    apply (nth_error_nth _ _ 0%N) in Ex.
    destruct (Nat.eq_dec m d) as [->|N].
    + replace (S d <=? d) with false by (symmetry; apply Nat.leb_gt; lia). rewrite Nat.leb_refl.
      replace (d <? d + S k) with true by (symmetry; apply Nat.ltb_lt; lia). cbn [andb].
      rewrite nth_upd_eq by lia. rewrite Nat.sub_diag, Nat.add_0_r. congruence.
    + destruct (Nat.leb_spec (S d) m); destruct (Nat.leb_spec d m); try lia; cbn [andb]; [|now rewrite nth_upd_ne by auto].
      replace (S d + k) with (d + S k) by lia. destruct (Nat.ltb_spec m (d + S k)).
      * rewrite nth_upd_ne by lia. f_equal. lia.
      * now rewrite nth_upd_ne by auto.
Qed.

Section Digraph.
Variables ts n : nat.
Variable R : list (option (list nat)).
Variable F0 : list N.
Hypothesis LR : length R = n.
Hypothesis LF : length F0 = n * ts.

(** The relation. *)
Definition edges (i : nat) : list nat := match nth_error R i with Some (Some l) => l | _ => [] end.
Definition ed (i j : nat) : Prop := In j (edges i).
Hypothesis RB : forall i j, ed i j -> j < n.

(** Row [i] of a bit matrix as a set. *)
Definition fs (F : list N) (i t : nat) : Prop := t / BPW < ts /\ bitat BPW F (i * ts) t = true.

(** What is to be computed. *)
Definition U (i t : nat) : Prop := exists k, star ed i k /\ fs F0 k t.

Lemma U_self : forall i t, fs F0 i t -> U i t.
Proof. intros i t H. exists i. split; [apply star_refl|auto]. Qed.

Lemma U_star : forall i j t, star ed i j -> U j t -> U i t.
Proof. intros i j t H (k & H1 & H2). exists k. split; [eapply star_trans; eauto|auto]. Qed.

Lemma row_or : forall F i j, length F = n * ts -> i < n -> j < n -> exists F', or_words F (i * ts) (j * ts) ts = Ok F' /\
  length F' = n * ts /\ forall k t, k < n -> (fs F' k t <-> fs F k t \/ (k = i /\ fs F j t)).
Proof.
  intros F i j L Hi Hj. destruct (or_words_ok ts F (i * ts) (j * ts)) as (F' & E & L' & B).
  { nia. } { nia. } { destruct (Nat.lt_trichotomy i j) as [H|[->|H]]; nia. }
  exists F'. split; [auto|]. split; [lia|]. intros k t Hk. unfold fs, bitat. split.
  - intros [T H]. rewrite B in H. destruct (Nat.leb_spec (i * ts) (k * ts + t / BPW)) as [A1|A1];
      destruct (Nat.ltb_spec (k * ts + t / BPW) (i * ts + ts)) as [A2|A2]; cbn [andb] in H; auto.
    assert (k = i) by nia. subst k. rewrite N.lor_spec in H. apply orb_true_iff in H as [H|H]; [auto|]. right. split; [auto|]. split; [auto|].
    replace (j * ts + (i * ts + t / BPW - i * ts)) with (j * ts + t / BPW) in H by lia. exact H.
  - intros H. assert (T : t / BPW < ts) by tauto. split; [auto|]. rewrite B.
    destruct (Nat.leb_spec (i * ts) (k * ts + t / BPW)) as [A1|A1];
      destruct (Nat.ltb_spec (k * ts + t / BPW) (i * ts + ts)) as [A2|A2]; cbn [andb];
      try (destruct H as [[_ H]|[-> [_ H]]]; [exact H|nia]).
    assert (k = i) by nia. subst k. rewrite N.lor_spec. apply orb_true_iff. destruct H as [[_ H]|[_ [_ H]]]; [auto|]. right.
    replace (j * ts + (i * ts + t / BPW - i * ts)) with (j * ts + t / BPW) by lia. exact H.
Qed.

Lemma row_copy : forall F i j, length F = n * ts -> i < n -> j < n -> i <> j -> exists F', copy_words F (j * ts) (i * ts) ts = Ok F' /\
  length F' = n * ts /\ forall k t, k < n -> (fs F' k t <-> if k =? j then fs F i t else fs F k t).
Proof.
  intros F i j L Hi Hj N. destruct (copy_words_ok ts F (j * ts) (i * ts)) as (F' & E & L' & B).
  { nia. } { nia. } { nia. }
  exists F'. split; [auto|]. split; [lia|]. intros k t Hk. unfold fs, bitat. split.
  - intros [T H]. rewrite B in H. destruct (Nat.leb_spec (j * ts) (k * ts + t / BPW)) as [A1|A1];
      destruct (Nat.ltb_spec (k * ts + t / BPW) (j * ts + ts)) as [A2|A2]; cbn [andb] in H;
      destruct (Nat.eqb_spec k j) as [->|M]; try nia; auto.
    split; [auto|]. replace (i * ts + (j * ts + t / BPW - j * ts)) with (i * ts + t / BPW) in H by lia. exact H.
  - intros H. assert (T : t / BPW < ts) by (destruct (k =? j); tauto). split; [auto|]. rewrite B.
    destruct (Nat.leb_spec (j * ts) (k * ts + t / BPW)) as [A1|A1];
      destruct (Nat.ltb_spec (k * ts + t / BPW) (j * ts + ts)) as [A2|A2]; cbn [andb];
      destruct (Nat.eqb_spec k j) as [->|M]; try nia; try (apply H).
    replace (i * ts + (j * ts + t / BPW - j * ts)) with (i * ts + t / BPW) by lia. apply H.
Qed.

Local Notation inf := (n + 2).
Definition ix (g : dg) (v : nat) : nat := nth v (d_index g) 0.

(** ** The invariant; [V] is the stack, bottom first *)
Record Inv (V : list nat) (g : dg) : Prop := {
  v_ix : length (d_index g) = S n;
  v_vl : length (d_vert g) = S n;
  v_F : length (d_F g) = n * ts;
  v_top : d_top g = length V;
  v_vert : forall p v, nth_error V p = Some v -> nth_error (d_vert g) (S p) = Some v;
  v_nd : NoDup V;
  v_lt : forall v, In v V -> v < n;
  v_stk : forall p v, nth_error V p = Some v -> 1 <= ix g v <= S p /\
    exists w, nth_error V (ix g v - 1) = Some w /\ star ed v w;
  v_up : forall v t, In v V -> fs (d_F g) v t -> U v t;
  v_dn : forall v t, In v V -> fs F0 v t -> fs (d_F g) v t;
  v_off : forall v, v < n -> ~ In v V ->
    (ix g v = 0 /\ forall t, fs (d_F g) v t <-> fs F0 v t) \/ (ix g v = inf /\ forall t, fs (d_F g) v t <-> U v t)
}.

Lemma stack_bound : forall V g, Inv V g -> length V <= n.
Proof.
  intros V g I. rewrite <- (seq_length n 0). apply NoDup_incl_length; [apply I|]. intros v Hv. apply in_seq. apply (v_lt _ _ I) in Hv. lia.
Qed.

Lemma ix_on : forall V g v, Inv V g -> In v V -> 1 <= ix g v <= length V.
Proof.
  intros V g v I H. apply In_nth_error in H as (p & E). destruct (v_stk _ _ I _ _ E) as [H _]. apply nth_error_Some_lt in E. lia.
Qed.

Lemma ix_cases : forall V g v, Inv V g -> v < n -> ix g v = 0 \/ In v V \/ ix g v = inf.
Proof.
  intros V g v I H. destruct (in_dec Nat.eq_dec v V) as [D|D]; [auto|]. destruct (v_off _ _ I v H D) as [[E _]|[E _]]; auto.
Qed.

Lemma white_off : forall V g v, Inv V g -> ix g v = 0 -> ~ In v V.
Proof. intros V g v I E H. pose proof (ix_on _ _ _ I H). lia. Qed.

Lemma done_off : forall V g v, Inv V g -> ix g v = inf -> ~ In v V.
Proof. intros V g v I E H. pose proof (ix_on _ _ _ I H). pose proof (stack_bound _ _ I). lia. Qed.

Lemma done_F : forall V g v t, Inv V g -> v < n -> ix g v = inf -> (fs (d_F g) v t <-> U v t).
Proof. intros V g v t I L E. destruct (v_off _ _ I v L (done_off _ _ _ I E)) as [[E' _]|[_ H]]; [lia|apply H]. Qed.

Definition wc (g : dg) : nat := length (filter (fun v => ix g v =? 0) (seq 0 n)).

Lemma filter_le : forall (f f' : nat -> bool) l, (forall v, In v l -> f' v = true -> f v = true) -> length (filter f' l) <= length (filter f l).
Proof.
  induction l as [|x l IH]; intros H; [cbn; lia|]. cbn [filter]. assert (IH' := IH (fun v Hv => H v (or_intror Hv))).
  destruct (f' x) eqn:E; [rewrite (H x (or_introl eq_refl) E); cbn; lia|]. destruct (f x); cbn; lia.
Qed.

Lemma filter_lt : forall (f f' : nat -> bool) l i, (forall v, In v l -> f' v = true -> f v = true) -> In i l -> f i = true -> f' i = false ->
  length (filter f' l) < length (filter f l).
Proof.
  induction l as [|x l IH]; intros i H I A B; [destruct I|]. cbn [filter].
  assert (H' := fun v Hv => H v (or_intror Hv)). destruct I as [->|I].
  - rewrite A, B. cbn [length]. pose proof (filter_le f f' l H'). lia.
  - specialize (IH i H' I A B). destruct (f' x) eqn:E; [rewrite (H x (or_introl eq_refl) E); cbn; lia|]. destruct (f x); cbn; lia.
Qed.

Lemma wc_le : forall g g', (forall v, v < n -> ix g v <> 0 -> ix g' v <> 0) -> wc g' <= wc g.
Proof.
  intros g g' H. unfold wc. apply filter_le. intros v Hv E. apply in_seq in Hv. apply Nat.eqb_eq in E. apply Nat.eqb_eq.
  destruct (Nat.eq_dec (ix g v) 0); [auto|]. exfalso. apply (H v); auto. lia.
Qed.

Lemma wc_lt : forall g g' i, (forall v, v < n -> ix g v <> 0 -> ix g' v <> 0) -> i < n -> ix g i = 0 -> ix g' i <> 0 -> wc g' < wc g.
Proof.
  intros g g' i H L E E'. unfold wc. apply (filter_lt _ _ _ i).
  - intros v Hv Ev. apply in_seq in Hv. apply Nat.eqb_eq in Ev. apply Nat.eqb_eq.
    destruct (Nat.eq_dec (ix g v) 0); [auto|]. exfalso. apply (H v); auto. lia.
  - apply in_seq. lia.
  - now apply Nat.eqb_eq.
  - now apply Nat.eqb_neq.
Qed.

(** A related index [m] of [k] has been taken care of. *)
Definition succ_ok (V E : list nat) (th : nat) (g : dg) (k m : nat) : Prop :=
  (ix g m = inf /\ forall t, U m t -> fs (d_F g) k t) \/ In m E \/ (In m V /\ th <= ix g m).

Definition frame (V : list nat) (g g' : dg) : Prop :=
  (forall v, In v V -> ix g' v = ix g v /\ forall t, fs (d_F g') v t <-> fs (d_F g) v t) /\
  (forall v, v < n -> ix g v = inf -> ix g' v = inf).

Lemma frame_refl : forall V g, frame V g g.
Proof. intros V g. split; [|auto]. intros v _. split; [auto|]. intros t. reflexivity. Qed.

Lemma frame_trans : forall V a c e, frame V a c -> frame V c e -> frame V a e.
Proof.
  intros V a c e [A1 A2] [B1 B2]. split; [|auto]. intros v Hv. destruct (A1 v Hv) as [X1 X2]. destruct (B1 v Hv) as [Y1 Y2].
  split; [congruence|]. intros t. rewrite Y2. apply X2.
Qed.

Lemma frame_sub : forall V V' a c, (forall v, In v V -> In v V') -> frame V' a c -> frame V a c.
Proof. intros V V' a c H [A1 A2]. split; auto. Qed.

(** Nodes of the segment [E] above [V] that is being worked on, with root [i]. *)
Record Seg (V E : list nat) (i : nat) (g : dg) (ks : list nat) : Prop := {
  s_reach : forall k, In k ks -> star ed i k;
  s_sub : forall k t, In k ks -> fs (d_F g) k t -> fs (d_F g) i t;
  s_ix : forall k, In k ks -> ix g i <= ix g k;
  s_succ : forall k m, In k ks -> ed k m -> succ_ok V E (ix g i) g k m
}.

Record Post (V E : list nat) (i : nat) (g g' : dg) : Prop := {
  p_inv : Inv (V ++ E) g';
  p_frame : frame V g g';
  p_nil : E = [] -> ix g' i = inf;
  p_cons : E <> [] -> (exists E1, E = i :: E1) /\ Seg V E i g' E /\
    forall p k, nth_error E p = Some k -> ix g' k <= length V + p
}.

(** Everything visited stays visited. *)
Lemma visited : forall V E g g', Inv V g -> Inv (V ++ E) g' -> frame V g g' -> forall v, v < n -> ix g v <> 0 -> ix g' v <> 0.
Proof.
  intros V E g g' I I' [A1 A2] v L H. destruct (ix_cases _ _ v I L) as [Z|[Z|Z]]; [lia| |].
  - destruct (A1 v Z) as [Q _]. congruence.
  - rewrite (A2 v L Z). lia.
Qed.

(** ** The loop over the related indices *)
Record LI (V E1 : list nat) (i : nat) (pre : list nat) (g0 g : dg) : Prop := {
  l_inv : Inv (V ++ i :: E1) g;
  l_seg : Seg V (i :: E1) i g E1;
  l_low : forall p k, nth_error E1 p = Some k -> ix g k <= length V + S p;
  l_pre : forall m, In m pre -> ed i m /\ succ_ok V (i :: E1) (ix g i) g i m;
  l_frame : frame V g0 g
}.

Lemma nth_error_mid : forall (V : list nat) i E, nth_error (V ++ i :: E) (length V) = Some i.
Proof. intros V i E. rewrite nth_error_app2, Nat.sub_diag by auto. reflexivity. Qed.

Lemma ix_upd : forall g l (v : nat) i x, i < length (d_index g) -> l = upd (d_index g) i x -> nth v l 0 = if v =? i then x else ix g v.
Proof.
  intros g l v i x L ->. destruct (Nat.eqb_spec v i) as [->|N]; [now apply nth_upd_eq|]. unfold ix. apply nth_upd_ne; auto.
Qed.

(** The step for a related index [j] of [i]: [g1] is the state after the recursive call, if any. *)
Lemma li_rec : forall V E1 i pre g0 g j E2 g1, LI V E1 i pre g0 g -> i < n -> ed i j -> ix g1 j <> 0 ->
  Inv ((V ++ i :: E1) ++ E2) g1 -> frame (V ++ i :: E1) g g1 ->
  (E2 <> [] -> Seg (V ++ i :: E1) E2 j g1 E2 /\ forall p k, nth_error E2 p = Some k -> ix g1 k <= length (V ++ i :: E1) + p) ->
   forall F', length F' = n * ts -> (forall k t, k < n -> (fs F' k t <-> fs (d_F g1) k t \/ (k = i /\ fs (d_F g1) j t))) ->
     LI V (E1 ++ E2) i (pre ++ [j]) g0 (mkDg (if ix g1 j <? ix g1 i then upd (d_index g1) i (ix g1 j) else d_index g1) (d_vert g1) (d_top g1) F').
Proof.
  intros V E1 i pre g0 g j E2 g1 [I SG LW PR FR] Li Eij Vj PI PF PC F' LF' HF.
  pose proof (RB _ _ Eij) as Lj.
  assert (AP : V ++ i :: E1 ++ E2 = (V ++ i :: E1) ++ E2) by now rewrite <- app_assoc.
  assert (I1 : Inv (V ++ i :: E1 ++ E2) g1) by now rewrite AP.
  assert (Ii : In i (V ++ i :: E1)) by (apply in_or_app; right; now left).
  pose proof PF as [PF1 PF2]. destruct (PF1 i Ii) as [Xi Fi].
  pose proof (v_ix _ _ I1) as LX.
  set (g' := mkDg (if ix g1 j <? ix g1 i then upd (d_index g1) i (ix g1 j) else d_index g1) (d_vert g1) (d_top g1) F').
  set (x := Nat.min (ix g1 i) (ix g1 j)).
  assert (IX : forall v, ix g' v = if v =? i then x else ix g1 v).
  { intros v. unfold ix at 1, g'. cbn [d_index]. destruct (Nat.ltb_spec (ix g1 j) (ix g1 i)) as [L|L].
    - rewrite (ix_upd g1 _ v i (ix g1 j)) by (auto; lia). destruct (v =? i); [unfold x; lia|auto].
    - fold (ix g1 v). destruct (Nat.eqb_spec v i) as [->|N]; [unfold x; lia|auto]. }
  assert (IXo : forall v, v <> i -> ix g' v = ix g1 v).
  { intros v N. rewrite IX. replace (v =? i) with false by (symmetry; now apply Nat.eqb_neq). auto. }
  assert (IXi : ix g' i = x) by (rewrite IX, Nat.eqb_refl; auto).
  assert (FO : forall k t, k < n -> k <> i -> (fs F' k t <-> fs (d_F g1) k t)).
  { intros k t Hk N. rewrite HF by auto. split; [intros [H|[H _]]; [auto|congruence]|auto]. }
  assert (FI : forall k t, k < n -> fs (d_F g1) k t -> fs F' k t) by (intros k t Hk H; apply HF; auto).
  assert (ND : NoDup (V ++ i :: E1 ++ E2)) by apply I1.
  assert (NiV : ~ In i V /\ ~ In i (E1 ++ E2)).
  { apply NoDup_app_iff in ND as (_ & N2 & N3). inversion N2; subst. split; [|auto]. intros H. apply (N3 i H). now left. }
  destruct NiV as [NiV NiE].
  assert (Ii1 : In i (V ++ i :: E1 ++ E2)) by (apply in_or_app; right; now left).
  assert (VK : forall k, In k V -> k < n) by (intros k Hk; apply (v_lt _ _ I1), in_or_app; auto).
  assert (VE : forall k, In k (E1 ++ E2) -> k < n) by (intros k Hk; apply (v_lt _ _ I1), in_or_app; right; now right).
  assert (UJ : forall t, fs (d_F g1) j t -> U i t).
  { intros t H. apply (U_star i j); [eapply star_step; [exact Eij|apply star_refl]|].
    destruct (ix_cases _ _ j I1 Lj) as [Z|[Z|Z]]; [congruence| |].
    - eapply (v_up _ _ I1); eauto.
    - now apply (done_F _ _ j t I1 Lj Z). }
  assert (DN1 : forall v, ix g1 v = inf -> v <> i) by (intros v H ->; apply (done_off _ _ _ I1 H); auto).
  assert (E2P : E2 <> [] -> Seg (V ++ i :: E1) E2 j g1 E2) by (intros H; apply PC; auto).
  assert (E2L : forall p k, nth_error E2 p = Some k -> ix g1 k <= length (V ++ i :: E1) + p).
  { intros p k H. apply PC; [|auto]. intros ->. destruct p; discriminate. }
  assert (E1V : forall k, In k E1 -> In k (V ++ i :: E1)) by (intros k Hk; apply in_or_app; right; now right).
  constructor.
  - constructor; cbn [d_index d_vert d_top d_F g'].
    + destruct (ix g1 j <? ix g1 i); [now rewrite upd_length|auto].
    + apply I1.
    + auto.
    + apply I1.
    + apply I1.
    + auto.
    + apply I1.
    + intros p v Ep. destruct (v_stk _ _ I1 _ _ Ep) as [A (w & Ew & Sw)]. destruct (Nat.eq_dec v i) as [->|N].
      * rewrite IXi. destruct (Nat.le_gt_cases (ix g1 i) (ix g1 j)) as [L|L].
        -- replace x with (ix g1 i) by (unfold x; lia). split; [auto|]. exists w. auto.
        -- replace x with (ix g1 j) by (unfold x; lia). split; [lia|].
           assert (Ij : In j (V ++ i :: E1 ++ E2)).
           { destruct (ix_cases _ _ j I1 Lj) as [Z|[Z|Z]]; [congruence|auto|]. pose proof (stack_bound _ _ I1). pose proof (ix_on _ _ _ I1 Ii1). lia. }
           apply In_nth_error in Ij as (pj & Epj). destruct (v_stk _ _ I1 _ _ Epj) as [_ (wj & Ewj & Swj)].
           exists wj. split; [auto|]. eapply star_step; eauto.
      * rewrite IXo by auto. split; [auto|]. exists w. auto.
    + intros v t Hv H. apply HF in H; [|apply (v_lt _ _ I1); auto]. destruct H as [H|[-> H]]; [eapply (v_up _ _ I1); eauto|auto].
    + intros v t Hv H. apply FI; [apply (v_lt _ _ I1); auto|]. eapply (v_dn _ _ I1); eauto.
    + intros v Lv Nv. assert (N : v <> i) by (intros ->; auto). rewrite IXo by auto.
      destruct (v_off _ _ I1 v Lv Nv) as [[A B]|[A B]]; [left|right]; (split; [auto|]); intros t; rewrite FO by auto; apply B.
  - destruct SG as [S1 S2 S3 S4]. constructor.
    + intros k Hk. apply in_app_or in Hk as [Hk|Hk]; [auto|]. eapply star_step; [exact Eij|].
      assert (NE : E2 <> []) by (intros ->; destruct Hk). exact (s_reach _ _ _ _ _ (E2P NE) k Hk).
    + intros k t Hk H. cbn [d_F g'] in *. pose proof (VE k Hk) as Lk. apply FO in H; [|auto|intros ->; auto].
      apply in_app_or in Hk as [Hk|Hk].
      * apply FI; [auto|]. apply Fi. apply (PF1 k (E1V k Hk)) in H. eapply S2; eauto.
      * apply HF; [auto|]. right. split; [auto|]. assert (NE : E2 <> []) by (intros ->; destruct Hk). eapply (s_sub _ _ _ _ _ (E2P NE)); eauto.
    + intros k Hk. rewrite IXi, IXo by (intros ->; auto). apply in_app_or in Hk as [Hk|Hk].
      * destruct (PF1 k (E1V k Hk)) as [Q _]. specialize (S3 k Hk). unfold x. lia.
      * assert (NE : E2 <> []) by (intros ->; destruct Hk). pose proof (s_ix _ _ _ _ _ (E2P NE) k Hk). unfold x. lia.
    + intros k m Hk Ekm. rewrite IXi. pose proof (VE k Hk) as Lk. apply in_app_or in Hk as [Hk|Hk].
      * destruct (S4 k m Hk Ekm) as [[A B]|[A|[A B]]].
        -- left. pose proof (PF2 m (RB _ _ Ekm) A) as A1. split; [rewrite IXo by auto; auto|].
           intros t H. cbn [d_F g']. apply FI; [auto|]. apply (PF1 k (E1V k Hk)). auto.
        -- right. left. destruct A as [<-|A]; [now left|]. right. apply in_or_app. auto.
        -- right. right. split; [auto|]. rewrite IXo by (intros ->; auto). destruct (PF1 m) as [Q _]; [apply in_or_app; auto|]. unfold x. lia.
      * assert (NE : E2 <> []) by (intros ->; destruct Hk). destruct (s_succ _ _ _ _ _ (E2P NE) k m Hk Ekm) as [[A B]|[A|[A B]]].
        -- left. split; [rewrite IXo by auto; auto|]. intros t H. cbn [d_F g']. apply FI; auto.
        -- right. left. right. apply in_or_app. auto.
        -- apply in_app_or in A as [A|A].
           ++ right. right. split; [auto|]. rewrite IXo by (intros ->; auto). unfold x. lia.
           ++ right. left. destruct A as [<-|A]; [now left|]. right. apply in_or_app. auto.
  - intros p k Ep. rewrite IXo; [|intros ->; apply nth_error_In in Ep; auto].
    destruct (Nat.lt_ge_cases p (length E1)) as [L|L].
    + rewrite nth_error_app1 in Ep by auto. destruct (PF1 k) as [Q _]; [apply E1V; eapply nth_error_In; eauto|]. rewrite Q. now apply LW.
    + rewrite nth_error_app2 in Ep by auto. apply E2L in Ep. rewrite app_length in Ep. cbn [length] in Ep. lia.
  - intros m Hm. rewrite IXi. apply in_app_or in Hm as [Hm|[<-|[]]].
    + destruct (PR m Hm) as [Eim [[A B]|[A|[A B]]]]; (split; [exact Eim|]).
      * left. pose proof (PF2 m (RB _ _ Eim) A) as A1. split; [rewrite IXo by auto; auto|]. intros t H. cbn [d_F g']. apply FI; [auto|]. apply Fi. auto.
      * right. left. destruct A as [<-|A]; [now left|]. right. apply in_or_app. auto.
      * right. right. split; [auto|]. rewrite IXo by (intros ->; auto). destruct (PF1 m) as [Q _]; [apply in_or_app; auto|]. unfold x. lia.
    + split; [exact Eij|]. destruct (ix_cases _ _ j I1 Lj) as [Z|[Z|Z]]; [congruence| |].
      * apply in_app_or in Z as [Z|Z]; [|right; left; exact Z]. right. right. split; [auto|].
        rewrite IXo by (intros ->; auto). unfold x. lia.
      * left. split; [rewrite IXo by auto; auto|]. intros t H. cbn [d_F g']. apply HF; [auto|]. right. split; [auto|]. now apply (done_F _ _ j t I1 Lj Z).
  - eapply frame_trans; [exact FR|]. eapply frame_trans; [eapply frame_sub; [|exact PF]; intros v Hv; apply in_or_app; auto|]. split.
    + intros v Hv. rewrite IXo by (intros ->; auto). split; [auto|]. intros t. cbn [d_F g']. apply FO; [auto|intros ->; auto].
    + intros v Lv Hv. rewrite IXo; [auto|auto].
Qed.

Lemma edge_loop_ok : forall fuel trav V i g0,
  (forall V' j g, Inv V' g -> j < n -> ix g j = 0 -> wc g <= fuel -> exists g' E, trav j g = Ok g' /\ Post V' E j g g') ->
  i < n -> ~ In i V -> Inv V g0 ->
  forall l pre E1 g, pre ++ l = edges i -> LI V E1 i pre g0 g -> wc g <= fuel ->
  exists g' E1', edge_loop trav ts i l g = Ok g' /\ LI V E1' i (pre ++ l) g0 g'.
Proof.
  intros fuel trav V i g0 TR Li NiV I0. induction l as [|j l IH]; intros pre E1 g PE L W.
  - exists g, E1. rewrite app_nil_r. split; [reflexivity|auto].
  - pose proof (l_inv _ _ _ _ _ _ L) as I.
    assert (Eij : ed i j) by (unfold ed; rewrite <- PE; apply in_or_app; right; now left).
    pose proof (RB _ _ Eij) as Lj. cbn [edge_loop].
    rewrite (nth_error_nth0 _ j) by (rewrite (v_ix _ _ I); lia). cbn [opt bind]. fold (ix g j).
    assert (ST : exists g1 E2, (if ix g j =? 0 then trav j g else Ok g) = Ok g1 /\ ix g1 j <> 0 /\
      Inv ((V ++ i :: E1) ++ E2) g1 /\ frame (V ++ i :: E1) g g1 /\
      (E2 <> [] -> Seg (V ++ i :: E1) E2 j g1 E2 /\ forall p k, nth_error E2 p = Some k -> ix g1 k <= length (V ++ i :: E1) + p)).
    { destruct (Nat.eqb_spec (ix g j) 0) as [Z|Z].
      - destruct (TR (V ++ i :: E1) j g I Lj Z W) as (g1 & E2 & E & [P1 P2 P3 P4]). exists g1, E2. split; [exact E|].
        split; [|split; [auto|split; [auto|intros NE; apply P4; auto]]].
        destruct E2 as [|e E2]; [rewrite (P3 eq_refl); lia|]. destruct (P4 ltac:(discriminate)) as [(E' & EE) _]. inversion EE; subst e.
        pose proof (ix_on _ _ j P1). assert (Q : In j ((V ++ i :: E1) ++ j :: E2)) by (apply in_or_app; right; now left). specialize (H Q). lia.
      - exists g, []. rewrite app_nil_r. split; [reflexivity|]. split; [auto|]. split; [auto|]. split; [apply frame_refl|]. congruence. }
    destruct ST as (g1 & E2 & E & Vj & I1 & FR & SG). rewrite E. cbn [bind].
    rewrite (nth_error_nth0 _ i) by (rewrite (v_ix _ _ I1); lia). cbn [opt bind]. fold (ix g1 i).
    rewrite (nth_error_nth0 _ j) by (rewrite (v_ix _ _ I1); lia). cbn [opt bind]. fold (ix g1 j).
    destruct (row_or (d_F g1) i j (v_F _ _ I1) Li Lj) as (F' & EF & LF' & HF). rewrite EF. cbn [bind].
    pose proof (li_rec V E1 i pre g0 g j E2 g1 L Li Eij Vj I1 FR SG F' LF' HF) as L'.
    destruct (IH (pre ++ [j]) (E1 ++ E2) _ ltac:(rewrite <- app_assoc; exact PE) L') as (g' & E1' & EE & LL).
    + etransitivity; [|exact W]. apply wc_le. intros v Lv Hv. unfold ix at 1. cbn [d_index].
      assert (Q : ix g1 v <> 0) by (eapply visited; [exact I|exact I1|exact FR|auto|auto]).
      destruct (ix g1 j <? ix g1 i); [|exact Q]. rewrite (ix_upd g1 _ v i (ix g1 j)) by (auto; rewrite (v_ix _ _ I1); lia).
      destruct (v =? i); auto.
    + exists g', E1'. split; [exact EE|]. rewrite <- app_assoc in LL. exact LL.
Qed.

(** ** Popping a strongly connected component *)
Lemma pop_loop_ok : forall i V vert E1 xs F, i < n -> (forall k, In k E1 -> k < n) -> NoDup (i :: E1) ->
  length xs = S n -> length F = n * ts ->
  (forall p v, nth_error (V ++ i :: E1) p = Some v -> nth_error vert (S p) = Some v) ->
  exists xs' F', pop_loop ts inf i (length (V ++ i :: E1)) xs vert F = Ok (xs', length V, F') /\
    length xs' = S n /\ length F' = n * ts /\
    (forall v, nth v xs' 0 = if in_dec Nat.eq_dec v (i :: E1) then inf else nth v xs 0) /\
    (forall v t, v < n -> (fs F' v t <-> if in_dec Nat.eq_dec v (i :: E1) then fs F i t else fs F v t)).
Proof.
  intros i V vert E1. induction E1 as [|k E1 IH] using rev_ind; intros xs F Li LE ND LX LFF HV.
  - rewrite app_length. cbn [length]. rewrite Nat.add_1_r. cbn [pop_loop].
    rewrite (HV (length V) i) by apply nth_error_mid. cbn [opt bind]. rewrite put_ok by lia. cbn [bind]. rewrite Nat.eqb_refl.
    exists (upd xs i inf), F. split; [reflexivity|]. rewrite upd_length. split; [auto|]. split; [auto|]. split.
    + intros v. destruct (in_dec Nat.eq_dec v [i]) as [[->|[]]|N]; [apply nth_upd_eq; lia|]. apply nth_upd_ne. intros ->. apply N. now left.
    + intros v t Lv. destruct (in_dec Nat.eq_dec v [i]) as [[->|[]]|N]; reflexivity.
  - assert (LN : length (V ++ i :: E1 ++ [k]) = S (length (V ++ i :: E1))) by (rewrite !app_length; cbn [length]; rewrite app_length; cbn [length]; lia).
    assert (NDk : ~ In k (i :: E1) /\ NoDup (i :: E1)).
    { change (i :: E1 ++ [k]) with ((i :: E1) ++ [k]) in ND. apply NoDup_app_iff in ND as (A & _ & B). split; [|auto]. intros H. apply (B k H). now left. }
    destruct NDk as [Nk ND1].
    assert (Lk : k < n) by (apply LE, in_or_app; right; now left).
    rewrite LN. cbn [pop_loop]. rewrite (HV (length (V ++ i :: E1)) k).
    2:{ replace (V ++ i :: E1 ++ [k]) with ((V ++ i :: E1) ++ [k]) by (rewrite <- app_assoc; reflexivity). apply nth_error_mid. }
    cbn [opt bind]. rewrite put_ok by lia. cbn [bind].
    replace (i =? k) with false by (symmetry; apply Nat.eqb_neq; intros ->; apply Nk; now left).
    destruct (row_copy F i k LFF Li Lk) as (F1 & EF & LF1 & HF); [intros ->; apply Nk; now left|]. rewrite EF. cbn [bind].
    destruct (IH (upd xs k inf) F1) as (xs' & F' & E & A1 & A2 & A3 & A4); auto.
    { intros k' H. apply LE, in_or_app. auto. } { now rewrite upd_length. }
    { intros p v H. apply HV. replace (V ++ i :: E1 ++ [k]) with ((V ++ i :: E1) ++ [k]) by (rewrite <- app_assoc; reflexivity).
      rewrite nth_error_app1; [auto|]. eapply nth_error_Some_lt; eauto. }
    exists xs', F'. split; [exact E|]. split; [auto|]. split; [auto|].
    assert (Nik : (i =? k) = false) by (apply Nat.eqb_neq; intros ->; apply Nk; now left).
    split.
    + intros v. rewrite A3. destruct (in_dec Nat.eq_dec v (i :: E1)) as [H|H]; destruct (in_dec Nat.eq_dec v (i :: E1 ++ [k])) as [H'|H'].
      * auto.
      * exfalso. apply H'. destruct H as [H|H]; [now left|right; apply in_or_app; auto].
      * destruct H' as [->|H']; [exfalso; apply H; now left|]. apply in_app_or in H' as [H'|[<-|[]]]; [exfalso; apply H; now right|]. apply nth_upd_eq. lia.
      * apply nth_upd_ne. intros ->. apply H'. right. apply in_or_app. right. now left.
    + intros v t Lv. rewrite A4 by auto. destruct (in_dec Nat.eq_dec v (i :: E1)) as [H|H]; destruct (in_dec Nat.eq_dec v (i :: E1 ++ [k])) as [H'|H'].
      * rewrite HF by auto. rewrite Nik. reflexivity.
      * exfalso. apply H'. destruct H as [H|H]; [now left|right; apply in_or_app; auto].
      * destruct H' as [->|H']; [exfalso; apply H; now left|]. apply in_app_or in H' as [H'|[<-|[]]]; [exfalso; apply H; now right|].
        rewrite HF by auto. now rewrite Nat.eqb_refl.
      * rewrite HF by auto. replace (v =? k) with false; [reflexivity|]. symmetry. apply Nat.eqb_neq. intros ->. apply H'. right. apply in_or_app. right. now left.
Qed.

Section Component.
Variables (V E1 : list nat) (i : nat) (g0 g : dg).
Hypothesis L : LI V E1 i (edges i) g0 g.
Hypothesis Li : i < n.
Hypothesis RT : ix g i = S (length V).

Lemma comp_back : forall p k, nth_error (i :: E1) p = Some k -> star ed k i.
Proof.
  pose proof (l_inv _ _ _ _ _ _ L) as I.
  intros p. induction p as [p IH] using lt_wf_ind. intros k Ep. destruct p as [|p]; [inversion Ep; apply star_refl|].
  cbn [nth_error] in Ep. pose proof (l_low _ _ _ _ _ _ L p k Ep) as LW.
  pose proof (s_ix _ _ _ _ _ (l_seg _ _ _ _ _ _ L) k (nth_error_In _ _ Ep)) as X.
  assert (EE : nth_error (V ++ i :: E1) (length V + S p) = Some k).
  { rewrite nth_error_app2 by lia. replace (length V + S p - length V) with (S p) by lia. exact Ep. }
  destruct (v_stk _ _ I _ _ EE) as [_ (w & Ew & Sw)].
  rewrite nth_error_app2 in Ew by lia. eapply star_trans; [exact Sw|]. apply (IH (ix g k - 1 - length V)); [lia|exact Ew].
Qed.

Lemma comp_out : forall k, In k (i :: E1) -> star ed i k.
Proof. intros k [<-|H]; [apply star_refl|]. exact (s_reach _ _ _ _ _ (l_seg _ _ _ _ _ _ L) k H). Qed.

Lemma comp_U : forall k t, In k (i :: E1) -> (U k t <-> U i t).
Proof.
  intros k t H. split; apply U_star; [now apply comp_out|]. apply In_nth_error in H as (p & E). eapply comp_back; eauto.
Qed.

Lemma comp_sub : forall k t, In k (i :: E1) -> fs (d_F g) k t -> fs (d_F g) i t.
Proof. intros k t [<-|H] A; [auto|]. eapply (s_sub _ _ _ _ _ (l_seg _ _ _ _ _ _ L)); eauto. Qed.

Lemma comp_closed : forall a k, star ed a k -> In a (i :: E1) -> In k (i :: E1) \/ forall t, U k t -> fs (d_F g) i t.
Proof.
  pose proof (l_inv _ _ _ _ _ _ L) as I.
  intros a k H. induction H as [a|a m k Eam Hmk IH]; intros Ha; [auto|].
  assert (SO : succ_ok V (i :: E1) (ix g i) g a m).
  { destruct Ha as [<-|Ha]; [apply (l_pre _ _ _ _ _ _ L m Eam)|]. exact (s_succ _ _ _ _ _ (l_seg _ _ _ _ _ _ L) a m Ha Eam). }
  destruct SO as [[A B]|[A|[A B]]].
  - right. intros t Ht. apply (comp_sub a); [auto|]. apply B. eapply U_star; eauto.
  - auto.
  - exfalso. apply In_nth_error in A as (p & Ep). pose proof (nth_error_Some_lt _ _ _ _ Ep).
    destruct (v_stk _ _ I p m) as [Q _]; [rewrite nth_error_app1; auto|]. lia.
Qed.

Lemma comp_F : forall t, fs (d_F g) i t <-> U i t.
Proof.
  pose proof (l_inv _ _ _ _ _ _ L) as I. intros t. split.
  - apply (v_up _ _ I). apply in_or_app. right. now left.
  - intros (k & S1 & S2). destruct (comp_closed i k S1 ltac:(now left)) as [H|H].
    + apply (comp_sub k); [auto|]. apply (v_dn _ _ I); [|auto]. apply in_or_app. auto.
    + apply H. now apply U_self.
Qed.
End Component.

(** ** traverse *)
Lemma traverse_ok : forall fuel V i g, Inv V g -> i < n -> ix g i = 0 -> wc g <= fuel ->
  exists g' E, traverse fuel ts inf R i g = Ok g' /\ Post V E i g g'.
Proof.
  induction fuel as [|fuel IH]; intros V i g I Li Wi W.
  - exfalso. assert (Q : In i (filter (fun v => ix g v =? 0) (seq 0 n))).
    { apply filter_In. split; [apply in_seq; lia|now apply Nat.eqb_eq]. }
    unfold wc in W. destruct (filter (fun v => ix g v =? 0) (seq 0 n)); [destruct Q|cbn in W; lia].
  - cbn [traverse]. pose proof (white_off _ _ _ I Wi) as NiV. pose proof (v_top _ _ I) as TP. rewrite TP.
    assert (ND1 : NoDup (V ++ [i])).
    { apply NoDup_app_iff. split; [apply I|]. split; [constructor; [easy|constructor]|]. intros v Hv [<-|[]]. auto. }
    assert (LV : S (length V) <= n).
    { replace (S (length V)) with (length (V ++ [i])) by (rewrite app_length; cbn; lia). rewrite <- (seq_length n 0).
      apply NoDup_incl_length; [auto|]. intros v Hv. apply in_seq. apply in_app_or in Hv as [Hv|[<-|[]]]; [apply (v_lt _ _ I) in Hv|]; lia. }
    rewrite put_ok by (rewrite (v_vl _ _ I); lia). cbn [bind]. rewrite put_ok by (rewrite (v_ix _ _ I); lia). cbn [bind].
    destruct (nth_error_lt_ex _ R i) as (rp & Er); [lia|]. rewrite Er. cbn [opt bind].
    assert (EL : edges i = match rp with Some l => l | None => [] end) by (unfold edges; rewrite Er; destruct rp; auto).
    rewrite <- EL.
    set (g1 := mkDg (upd (d_index g) i (S (length V))) (upd (d_vert g) (S (length V)) i) (S (length V)) (d_F g)).
    assert (IX : forall v, ix g1 v = if v =? i then S (length V) else ix g v).
    { intros v. unfold ix at 1, g1. cbn [d_index]. apply ix_upd; [rewrite (v_ix _ _ I); lia|auto]. }
    assert (IXo : forall v, v <> i -> ix g1 v = ix g v).
    { intros v N. rewrite IX. replace (v =? i) with false by (symmetry; now apply Nat.eqb_neq). auto. }
    assert (IXi : ix g1 i = S (length V)) by (rewrite IX, Nat.eqb_refl; auto).
    destruct (v_off _ _ I i Li NiV) as [[_ Fi0]|[Q _]]; [|lia].
    assert (I1 : Inv (V ++ [i]) g1).
    { constructor; cbn [d_index d_vert d_top d_F g1].
      - rewrite upd_length. apply I.
      - rewrite upd_length. apply I.
      - apply I.
      - rewrite app_length. cbn. lia.
      - intros p v Ep. destruct (Nat.lt_ge_cases p (length V)) as [Lp|Lp].
        + rewrite nth_error_app1 in Ep by auto. rewrite nth_error_upd_ne by lia. now apply (v_vert _ _ I).
        + assert (p = length V). { apply nth_error_Some_lt in Ep. rewrite app_length in Ep. cbn in Ep. lia. } subst p.
          rewrite nth_error_mid in Ep. inversion Ep; subst. apply nth_error_upd_eq. rewrite (v_vl _ _ I). lia.
      - auto.
      - intros v Hv. apply in_app_or in Hv as [Hv|[<-|[]]]; [now apply (v_lt _ _ I)|auto].
      - intros p v Ep. destruct (Nat.lt_ge_cases p (length V)) as [Lp|Lp].
        + rewrite nth_error_app1 in Ep by auto. rewrite IXo by (intros ->; apply NiV; eapply nth_error_In; eauto).
          destruct (v_stk _ _ I _ _ Ep) as [A (w & Ew & Sw)]. split; [auto|]. exists w. split; [|auto].
          rewrite nth_error_app1; [auto|]. eapply nth_error_Some_lt; eauto.
        + assert (p = length V). { apply nth_error_Some_lt in Ep. rewrite app_length in Ep. cbn in Ep. lia. } subst p.
          rewrite nth_error_mid in Ep. inversion Ep; subst v. rewrite IXi. split; [lia|]. exists i. rewrite Nat.sub_succ, Nat.sub_0_r.
          split; [apply nth_error_mid|apply star_refl].
      - intros v t Hv H. apply in_app_or in Hv as [Hv|[<-|[]]]; [eapply (v_up _ _ I); eauto|]. apply U_self. now apply Fi0.
      - intros v t Hv H. apply in_app_or in Hv as [Hv|[<-|[]]]; [eapply (v_dn _ _ I); eauto|]. now apply Fi0.
      - intros v Lv Nv. rewrite IXo by (intros ->; apply Nv, in_or_app; right; now left). apply (v_off _ _ I v Lv).
        intros H. apply Nv, in_or_app. auto. }
    assert (L1 : LI V [] i [] g g1).
    { constructor.
      - exact I1.
      - constructor; intros k; intros; contradiction.
      - intros p k H. destruct p; discriminate.
      - intros m [].
      - split.
        + intros v Hv. rewrite IXo by (intros ->; auto). split; [auto|]. intros t. reflexivity.
        + intros v Lv Hv. rewrite IXo; [auto|]. intros ->. lia. }
    destruct (edge_loop_ok fuel (traverse fuel ts inf R) V i g) with (l := edges i) (pre := @nil nat) (E1 := @nil nat) (g := g1)
      as (g2 & E1 & E2 & L2); auto.
    { assert (wc g1 < wc g); [|lia]. apply (wc_lt g g1 i); auto.
      - intros v Lv Hv. rewrite IXo; [auto|]. congruence.
      - rewrite IXi. lia. }
    rewrite E2. cbn [bind]. cbn [app] in L2. pose proof (l_inv _ _ _ _ _ _ L2) as I2.
    rewrite (nth_error_nth0 _ i) by (rewrite (v_ix _ _ I2); lia). cbn [opt bind]. fold (ix g2 i).
    pose proof (nth_error_mid V i E1) as Pi. destruct (v_stk _ _ I2 _ _ Pi) as [Ri _].
    pose proof (l_seg _ _ _ _ _ _ L2) as SG.
    destruct (Nat.eqb_spec (ix g2 i) (S (length V))) as [RT|RT].
    + rewrite (v_top _ _ I2).
      assert (NDE : NoDup (i :: E1)). { pose proof (v_nd _ _ I2) as ND. apply NoDup_app_iff in ND. tauto. }
      assert (DJ : forall v, In v V -> ~ In v (i :: E1)). { pose proof (v_nd _ _ I2) as ND. apply NoDup_app_iff in ND. apply ND. }
      assert (LE : forall k, In k (i :: E1) -> k < n) by (intros k H; apply (v_lt _ _ I2), in_or_app; auto).
      destruct (pop_loop_ok i V (d_vert g2) E1 (d_index g2) (d_F g2)) as (xs & F' & EP & P1 & P2 & P3 & P4); auto.
      { intros k H. apply LE. now right. } { apply I2. } { apply I2. } { apply I2. }
      rewrite EP. cbn [bind]. exists (mkDg xs (d_vert g2) (length V) F'), []. split; [reflexivity|].
      assert (IX3 : forall v, ix (mkDg xs (d_vert g2) (length V) F') v = if in_dec Nat.eq_dec v (i :: E1) then inf else ix g2 v) by exact P3.
      assert (IX4 : forall v, ~ In v (i :: E1) -> ix (mkDg xs (d_vert g2) (length V) F') v = ix g2 v).
      { intros v H. rewrite IX3. destruct (in_dec Nat.eq_dec v (i :: E1)); [contradiction|auto]. }
      assert (F4 : forall v t, v < n -> ~ In v (i :: E1) -> (fs F' v t <-> fs (d_F g2) v t)).
      { intros v t Lv H. rewrite P4 by auto. destruct (in_dec Nat.eq_dec v (i :: E1)); [contradiction|reflexivity]. }
      assert (VL : forall v, In v V -> v < n) by (intros v H; apply (v_lt _ _ I), H).
      constructor.
      * rewrite app_nil_r. constructor; cbn [d_index d_vert d_top d_F].
        -- auto.
        -- apply I2.
        -- auto.
        -- auto.
        -- intros p v Ep. apply (v_vert _ _ I2). rewrite nth_error_app1; [auto|eapply nth_error_Some_lt; eauto].
        -- apply I.
        -- auto.
        -- intros p v Ep. rewrite IX4 by (apply DJ; eapply nth_error_In; eauto).
           pose proof (nth_error_Some_lt _ _ _ _ Ep) as Lp.
           destruct (v_stk _ _ I2 p v) as [A (w & Ew & Sw)]; [rewrite nth_error_app1; auto|]. split; [auto|]. exists w.
           rewrite nth_error_app1 in Ew by lia. auto.
        -- intros v t Hv H. apply F4 in H; [|auto|auto]. apply (v_up _ _ I2); [apply in_or_app; auto|auto].
        -- intros v t Hv H. apply F4; [auto|auto|]. apply (v_dn _ _ I2); [apply in_or_app; auto|auto].
        -- intros v Lv Nv. rewrite IX3. destruct (in_dec Nat.eq_dec v (i :: E1)) as [H|H].
           ++ right. split; [auto|]. intros t. rewrite P4 by auto. destruct (in_dec Nat.eq_dec v (i :: E1)); [|contradiction].
              rewrite (comp_F V E1 i g g2 L2 Li RT). symmetry. apply (comp_U V E1 i g g2 L2 Li RT). auto.
           ++ destruct (v_off _ _ I2 v Lv) as [[A B]|[A B]].
              ** intros Q. apply in_app_or in Q as [Q|Q]; auto.
              ** left. split; [auto|]. intros t. rewrite F4 by auto. apply B.
              ** right. split; [auto|]. intros t. rewrite F4 by auto. apply B.
      * eapply frame_trans; [exact (l_frame _ _ _ _ _ _ L2)|]. split.
        -- intros v Hv. rewrite IX4 by auto. split; [auto|]. intros t. apply F4; auto.
        -- intros v Lv Hv. rewrite IX3. destruct (in_dec Nat.eq_dec v (i :: E1)); auto.
      * intros _. rewrite IX3. destruct (in_dec Nat.eq_dec i (i :: E1)) as [|N]; [auto|]. exfalso. apply N. now left.
      * congruence.
    + exists g2, (i :: E1). split; [reflexivity|]. constructor.
      * auto.
      * exact (l_frame _ _ _ _ _ _ L2).
      * discriminate.
      * intros _. split; [exists E1; auto|]. split.
        -- constructor.
           ++ intros k [<-|H]; [apply star_refl|]. exact (s_reach _ _ _ _ _ SG k H).
           ++ intros k t [<-|H] A; [auto|]. eapply (s_sub _ _ _ _ _ SG); eauto.
           ++ intros k [<-|H]; [auto|]. exact (s_ix _ _ _ _ _ SG k H).
           ++ intros k m [<-|H] A; [apply (l_pre _ _ _ _ _ _ L2 m A)|]. exact (s_succ _ _ _ _ _ SG k m H A).
        -- intros [|p] k Ep; cbn [nth_error] in Ep; [inversion Ep; subst k; lia|]. now apply (l_low _ _ _ _ _ _ L2).
Qed.

(** ** digraph *)
Lemma digraph_loop_ok : forall fuel k i g, n <= fuel -> i + k = n -> Inv [] g -> (forall v, v < i -> ix g v = inf \/ edges v = []) ->
  exists g', digraph_loop fuel ts inf R i k g = Ok g' /\ Inv [] g' /\ forall v, v < n -> ix g' v = inf \/ edges v = [].
Proof.
  intros fuel. induction k as [|k IH]; intros i g Hf Hk I HD; cbn [digraph_loop].
  - exists g. split; [reflexivity|]. split; [auto|]. intros v Lv. apply HD. lia.
  - rewrite (nth_error_nth0 _ i) by (rewrite (v_ix _ _ I); lia). cbn [opt bind]. fold (ix g i).
    destruct (nth_error_lt_ex _ R i) as (rp & Er); [lia|]. rewrite Er. cbn [opt bind].
    assert (EL : edges i = match rp with Some l => l | None => [] end) by (unfold edges; rewrite Er; destruct rp; auto).
    assert (ST : exists g1, (if ix g i =? 0 then match rp with Some _ => traverse fuel ts inf R i g | None => Ok g end else Ok g) = Ok g1 /\
      Inv [] g1 /\ (ix g1 i = inf \/ edges i = []) /\ forall v, v < n -> ix g v = inf -> ix g1 v = inf).
    { destruct (Nat.eqb_spec (ix g i) 0) as [Z|Z].
      - destruct rp as [l|].
        + destruct (traverse_ok fuel [] i g I) as (g1 & E & EE & [P1 P2 P3 P4]); [lia|auto| |].
          { unfold wc. etransitivity; [apply filter_le with (f := fun _ => true); auto|]. 
            assert (Q : forall l : list nat, length (filter (fun _ => true) l) = length l) by (induction l0; cbn; auto). rewrite Q, seq_length. auto. }
          exists g1. split; [exact EE|]. destruct E as [|e E].
          * split; [exact P1|]. split; [left; auto|]. apply P2.
          * exfalso. destruct (P4 ltac:(discriminate)) as [_ [_ Q]]. specialize (Q 0 e eq_refl). cbn in Q.
            pose proof (ix_on _ _ e P1). cbn in H. specialize (H (or_introl eq_refl)). lia.
        + exists g. split; [reflexivity|]. split; [auto|]. split; [right; auto|auto].
      - exists g. split; [reflexivity|]. split; [auto|]. split; [|auto]. left. destruct (ix_cases _ _ i I) as [Q|[[]|Q]]; [lia|lia|auto]. }
    destruct ST as (g1 & E & I1 & D1 & D2). rewrite E. cbn [bind]. apply (IH (S i) g1); [auto|lia|auto|].
    intros v Lv. destruct (Nat.eq_dec v i) as [->|N]; [auto|]. destruct (HD v) as [H|H]; [lia| |auto]. left. apply D2; [lia|auto].
Qed.

Theorem digraph_ok : forall fuel, n <= fuel -> exists F', digraph fuel ts n R F0 = Ok F' /\ length F' = n * ts /\
  forall i t, i < n -> (fs F' i t <-> U i t).
Proof.
  intros fuel Hf. unfold digraph.
  assert (I0 : Inv [] (mkDg (repeat 0 (S n)) (repeat 0 (S n)) 0 F0)).
  { assert (Z : forall v, ix (mkDg (repeat 0 (S n)) (repeat 0 (S n)) 0 F0) v = 0).
    { intros v. unfold ix. cbn [d_index]. apply nth_repeat. }
    constructor; cbn [d_index d_vert d_top d_F]; try apply repeat_length; auto; try contradiction.
    - intros [|p] v H; discriminate.
    - constructor.
    - intros [|p] v H; discriminate.
    - intros v Lv _. left. split; [apply Z|]. intros t. reflexivity. }
  destruct (digraph_loop_ok fuel n 0 _ Hf ltac:(lia) I0 ltac:(intros; lia)) as (g & E & I & D).
  rewrite E. cbn [bind]. exists (d_F g). split; [reflexivity|]. split; [apply I|]. intros i t Li.
  destruct (D i Li) as [H|H]; [now apply (done_F _ _ i t I Li)|].
  assert (UU : U i t <-> fs F0 i t).
  { split; [|apply U_self]. intros (k & S1 & S2). inversion S1; subst; [auto|]. unfold ed in H0. rewrite H in H0. destruct H0. }
  rewrite UU. destruct (v_off _ _ I i Li ltac:(easy)) as [[_ Q]|[_ Q]]; rewrite Q; [reflexivity|auto].
Qed.
End Digraph.
