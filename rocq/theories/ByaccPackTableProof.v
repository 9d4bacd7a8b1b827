(** Proofs about the packing of vectors (model: ByaccOutputModel). *)
From Coq Require Import List Arith NArith ZArith Lia Bool Permutation.
Import ListNotations.
From Verif Require Import Base ByaccWarshallModel ByaccLr0Model ByaccLalrModel ByaccParModel ByaccActionsProof ByaccOutputModel.

(** ** order *)
Lemma span_app : forall A (f : A -> bool) l, fst (span f l) ++ snd (span f l) = l.
Proof. induction l as [|a l IH]; cbn [span]; [reflexivity|]. destruct (f a); [|reflexivity]. destruct (span f l) as [p q]. cbn in *. now rewrite IH. Qed.

Lemma order_insert_perm : forall vs ro i v, Permutation (order_insert vs ro i v) (i :: ro).
Proof.
  intros vs ro i v. unfold order_insert.
  pose proof (span_app _ (fun k => (v_width (nth k vs no_vec) <? v_width v)%Z) ro) as H. destruct (span _ ro) as [l1 n1]. cbn in H.
  pose proof (span_app _ (fun k => ((v_width (nth k vs no_vec) =? v_width v)%Z && (tally (nth k vs no_vec) <? tally v))) n1) as H2.
  destruct (span _ n1) as [l2 n2]. cbn in H2. subst n1 ro. rewrite app_assoc.
  etransitivity; [symmetry; apply Permutation_middle|]. now rewrite <- app_assoc.
Qed.

Lemma sort_loop_perm : forall vs l i ro,
  Permutation (sort_loop vs l i ro) (map fst (filter (fun x => 0 <? tally (snd x)) (combine (seq i (length l)) l)) ++ ro).
Proof.
  induction l as [|v l IH]; intros i ro; cbn [sort_loop length seq combine filter snd]; [reflexivity|].
  destruct (0 <? tally v); [|apply IH]. cbn [map fst app]. rewrite IH, order_insert_perm. symmetry. apply Permutation_middle.
Qed.

Lemma in_combine_seq : forall A (l : list A) i k x, In (k, x) (combine (seq i (length l)) l) <-> i <= k /\ nth_error l (k - i) = Some x.
Proof.
  induction l as [|a l IH]; intros i k x; cbn [length seq combine In].
  - split; [tauto|]. intros [_ H]. destruct (k - i); discriminate.
  - rewrite IH. split.
    + intros [H|[H H1]]; [inversion H; subst; rewrite Nat.sub_diag; auto|]. split; [lia|]. replace (k - i) with (S (k - S i)) by lia. exact H1.
    + intros [H H1]. destruct (Nat.eq_dec i k) as [->|N]; [left; rewrite Nat.sub_diag in H1; cbn in H1; now inversion H1|].
      right. split; [lia|]. replace (k - i) with (S (k - S i)) in H1 by lia. exact H1.
Qed.

Lemma sort_actions_in : forall vs i, In i (sort_actions vs) <-> exists v, nth_error vs i = Some v /\ v_ent v <> [].
Proof.
  intros vs i. unfold sort_actions. rewrite <- in_rev.
  assert (E : In i (sort_loop vs vs 0 []) <-> In i (map fst (filter (fun x => 0 <? tally (snd x)) (combine (seq 0 (length vs)) vs)) ++ [])).
  { split; apply Permutation_in; [|symmetry]; apply sort_loop_perm. }
  rewrite E, app_nil_r, in_map_iff. split.
  - intros ((k & v) & Ek & H). cbn in Ek. subst k. apply filter_In in H. destruct H as [H1 H2]. apply in_combine_seq in H1. rewrite Nat.sub_0_r in H1.
    exists v. split; [tauto|]. intros N. cbn in H2. unfold tally in H2. rewrite N in H2. discriminate.
  - intros (v & E1 & E2). exists (i, v). split; [reflexivity|]. apply filter_In. split; [apply in_combine_seq; rewrite Nat.sub_0_r; split; [lia|exact E1]|].
    cbn. unfold tally. destruct (v_ent v); [congruence|reflexivity].
Qed.

Lemma filter_fst_NoDup : forall A (f : nat * A -> bool) (l : list A) i, NoDup (map fst (filter f (combine (seq i (length l)) l))).
Proof.
  induction l as [|a l IH]; intros i; cbn [length seq combine filter]; [constructor|]. destruct (f (i, a)); [|apply IH]. cbn. constructor; [|apply IH].
  intros H. apply in_map_iff in H. destruct H as ((k & x) & E & H). cbn in E. subst k. apply filter_In in H. destruct H as [H _]. apply in_combine_seq in H. lia.
Qed.

Lemma sort_actions_NoDup : forall vs, NoDup (sort_actions vs).
Proof.
  intros vs. unfold sort_actions. apply NoDup_rev. eapply Permutation_NoDup; [symmetry; apply sort_loop_perm|]. rewrite app_nil_r. apply filter_fst_NoDup.
Qed.

(** Total number of entries. *)
Definition size_of (vs : list vec) (l : list nat) : nat := list_sum (map (fun i => tally (nth i vs no_vec)) l).
Definition total (vs : list vec) : nat := list_sum (map tally vs).

Lemma list_sum_perm : forall a b, Permutation a b -> list_sum a = list_sum b.
Proof. unfold list_sum. induction 1; cbn [fold_right]; lia. Qed.

Lemma size_perm : forall vs a b, Permutation a b -> size_of vs a = size_of vs b.
Proof. intros. unfold size_of. apply list_sum_perm. now apply Permutation_map. Qed.

Lemma size_sort_gen : forall vs l pre, vs = pre ++ l ->
  size_of vs (map fst (filter (fun x => 0 <? tally (snd x)) (combine (seq (length pre) (length l)) l))) = total l.
Proof.
  intros vs. induction l as [|v l IH]; intros pre E; [reflexivity|]. cbn [length seq combine filter snd].
  assert (E' : vs = (pre ++ [v]) ++ l) by (rewrite <- app_assoc; exact E). specialize (IH _ E'). rewrite app_length in IH. cbn [length] in IH. rewrite Nat.add_1_r in IH.
  unfold total. cbn [map list_sum fold_right]. change (fold_right Nat.add 0 (map tally l)) with (total l).
  destruct (0 <? tally v) eqn:D; unfold size_of in *; cbn [map fst list_sum fold_right].
  - change (fold_right Nat.add 0) with list_sum. rewrite IH. f_equal. rewrite E, app_nth2, Nat.sub_diag; [reflexivity|lia].
  - rewrite IH. apply Nat.ltb_ge in D. lia.
Qed.

Lemma size_sort : forall vs, size_of vs (sort_actions vs) = total vs.
Proof.
  intros vs. unfold sort_actions. rewrite (size_perm _ _ (sort_loop vs vs 0 [])) by (symmetry; apply Permutation_rev).
  rewrite (size_perm _ _ _ (sort_loop_perm vs vs 0 [])), app_nil_r. apply (size_sort_gen vs vs []). reflexivity.
Qed.

(** ** Placing one vector *)

(** More cells at the end, all free. *)
Definition ext (t c t' c' : list Z) : Prop := exists n, t' = t ++ repeat 0%Z n /\ c' = c ++ repeat (-1)%Z n.
Lemma ext_refl : forall t c, ext t c t c.
Proof. intros. exists 0. cbn. now rewrite !app_nil_r. Qed.
Lemma ext_trans : forall t c t1 c1 t2 c2, ext t c t1 c1 -> ext t1 c1 t2 c2 -> ext t c t2 c2.
Proof. intros t c t1 c1 t2 c2 (n & -> & ->) (m & -> & ->). exists (n + m). now rewrite !repeat_app, !app_assoc. Qed.
Lemma ext_len : forall t c t' c', ext t c t' c' -> length t = length c -> length t' = length c' /\ length t <= length t'.
Proof. intros t c t' c' (n & -> & ->) E. rewrite !app_length, !repeat_length. lia. Qed.
Lemma ext_free : forall t c t' c' i, ext t c t' c' -> nth i c' (-1)%Z = nth i c (-1)%Z.
Proof.
  intros t c t' c' i (n & _ & ->). destruct (Nat.lt_ge_cases i (length c)) as [L|L].
  - now rewrite app_nth1.
  - rewrite app_nth2, (nth_overflow c), nth_repeat_same by lia. reflexivity.
Qed.

Lemma newmax_gt : forall m loc, loc < newmax m loc /\ m < newmax m loc.
Proof.
  intros m loc. unfold newmax. pose proof (Nat.div_mod (loc - m) 200 ltac:(lia)) as D. pose proof (Nat.mod_upper_bound (loc - m) 200 ltac:(lia)). lia.
Qed.

Definition loc (j : Z) (e : Z * Z) : nat := Z.to_nat (j + fst e).

Lemma try_cells_ok : forall j l t c, length t = length c -> (forall e, In e l -> (0 <= j + fst e)%Z) ->
  exists ok t' c', try_cells j l t c = Ok (ok, t', c') /\ ext t c t' c' /\
    (ok = true <-> forall e, In e l -> nth (loc j e) c (-1)%Z = (-1)%Z) /\
    (ok = true -> forall e, In e l -> loc j e < length t').
Proof.
  intros j. induction l as [|e l IH]; intros t c EL H; cbn [try_cells].
  - exists true, t, c. split; [reflexivity|]. split; [apply ext_refl|]. split; [split; [intros _ e []|reflexivity]|intros _ e []].
  - pose proof (H e (or_introl eq_refl)) as He. destruct (j + fst e <? 0)%Z eqn:D; [lia|].
    set (r := if (Z.of_nat (length t) - 1 <=? j + fst e)%Z
      then (t ++ repeat 0%Z (newmax (length t) (Z.to_nat (j + fst e)) - length t), c ++ repeat (-1)%Z (newmax (length t) (Z.to_nat (j + fst e)) - length t)) else (t, c)).
    assert (X : ext t c (fst r) (snd r) /\ loc j e < length (fst r)).
    { unfold r, loc. pose proof (newmax_gt (length t) (Z.to_nat (j + fst e))). destruct (Z.leb_spec (Z.of_nat (length t) - 1) (j + fst e)); cbn [fst snd].
      - split; [exists (newmax (length t) (Z.to_nat (j + fst e)) - length t); auto|]. rewrite app_length, repeat_length. lia.
      - split; [apply ext_refl|]. lia. }
    destruct r as [t1 c1]. cbn [fst snd] in X. destruct X as [X1 X2]. destruct (ext_len _ _ _ _ X1 EL) as [L1 L2].
    change (Z.to_nat (j + fst e)) with (loc j e). destruct (nth_error_lt_ex _ c1 (loc j e) ltac:(lia)) as [x Ex]. rewrite Ex. cbn [opt bind].
    assert (EX : nth (loc j e) c (-1)%Z = x) by (rewrite <- (ext_free _ _ _ _ _ X1); now apply nth_error_Some_nth).
    destruct (Z.eqb_spec x (-1)) as [E|N].
    + destruct (IH t1 c1 L1 ltac:(intros; apply H; now right)) as (ok & t' & c' & E1 & E2 & E3 & E4). exists ok, t', c'. split; [exact E1|].
      split; [eapply ext_trans; eauto|]. split.
      * rewrite E3. split; intros HH e' I.
        -- destruct I as [<-|I]; [congruence|]. rewrite <- (ext_free _ _ _ _ _ X1). auto.
        -- rewrite (ext_free _ _ _ _ _ X1). apply HH. now right.
      * intros Hok e' [<-|I]; [|now apply E4]. destruct (ext_len _ _ _ _ E2 L1). lia.
    + exists false, t1, c1. split; [reflexivity|]. split; [exact X1|]. split; [|discriminate]. split; [discriminate|]. intros HH. specialize (HH e (or_introl eq_refl)). congruence.
Qed.

Definition fits (l : list (Z * Z)) (pos c : list Z) (j : Z) : Prop :=
  j <> 0%Z /\ (forall e, In e l -> nth (loc j e) c (-1)%Z = (-1)%Z) /\ ~ In j pos.

Lemma existsb_Z : forall l j, existsb (Z.eqb j) l = true <-> In j l.
Proof. intros l j. rewrite existsb_exists. split; [intros (x & H & E); apply Z.eqb_eq in E; now subst|intros H; exists j; split; [exact H|apply Z.eqb_refl]]. Qed.

Lemma find_place_ok : forall l pos j1 fuel j t c, length t = length c -> (forall e, In e l -> (0 <= j + fst e)%Z) ->
  fits l pos c j1 -> (j <= j1)%Z -> (j1 - j < Z.of_nat fuel)%Z ->
  exists j' t' c', find_place fuel j l pos t c = Ok (j', t', c') /\ ext t c t' c' /\ (j <= j' <= j1)%Z /\ fits l pos c j' /\
    (forall e, In e l -> loc j' e < length t').
Proof.
  intros l pos j1. induction fuel as [|f IH]; intros j t c EL H F L1 L2; [lia|]. cbn [find_place].
  assert (STEP : forall t0 c0, ext t c t0 c0 -> j <> j1 -> exists j' t' c', find_place f (j + 1) l pos t0 c0 = Ok (j', t', c') /\ ext t c t' c' /\ (j <= j' <= j1)%Z /\ fits l pos c j' /\
    (forall e, In e l -> loc j' e < length t')).
  { intros t0 c0 X N. destruct (ext_len _ _ _ _ X EL) as [X1 X2].
    destruct (IH (j + 1)%Z t0 c0) as (j' & t' & c' & E1 & E2 & E3 & E4 & E5); auto.
    - intros e I. specialize (H e I). lia.
    - destruct F as (F1 & F2 & F3). split; [exact F1|]. split; [|exact F3]. intros e I. rewrite (ext_free _ _ _ _ _ X). auto.
    - lia.
    - lia.
    - exists j', t', c'. split; [exact E1|]. split; [eapply ext_trans; eauto|]. split; [lia|]. split; [|exact E5].
      destruct E4 as (F1 & F2 & F3). split; [exact F1|]. split; [|exact F3]. intros e I. rewrite <- (ext_free _ _ _ _ _ X). auto. }
  destruct (Z.eqb_spec j 0) as [E0|N0].
  - apply STEP; [apply ext_refl|]. destruct F as (F1 & _). congruence.
  - destruct (try_cells_ok j l t c EL H) as (ok & t' & c' & E1 & E2 & E3 & E4). rewrite E1. cbn [bind].
    destruct (ok && negb (existsb (Z.eqb j) pos)) eqn:D.
    + apply andb_prop in D. destruct D as [D1 D2]. exists j, t', c'. split; [reflexivity|]. split; [exact E2|]. split; [lia|]. split; [|now apply E4].
      split; [exact N0|]. split; [now apply E3|]. intros I. apply existsb_Z in I. rewrite I in D2. discriminate.
    + apply STEP; [exact E2|]. intros ->. destruct F as (F1 & F2 & F3). apply E3 in F2. rewrite F2 in D. cbn in D.
      apply negb_false_iff in D. apply existsb_Z in D. contradiction.
Qed.

(** Storing the entries of a vector. *)
Lemma loc_inj : forall j e e', (0 <= j + fst e)%Z -> (0 <= j + fst e')%Z -> loc j e = loc j e' -> fst e = fst e'.
Proof. unfold loc. intros. lia. Qed.

Lemma store_ok : forall j l t c h, length t = length c -> (forall e, In e l -> (0 <= j + fst e)%Z) -> (forall e, In e l -> loc j e < length t) -> NoDup (map fst l) ->
  exists t' c' h', store j l t c h = Ok (t', c', h') /\ length t' = length t /\ length c' = length c /\
    (forall e, In e l -> nth_error t' (loc j e) = Some (snd e) /\ nth_error c' (loc j e) = Some (fst e) /\ loc j e <= h') /\
    (forall i, (forall e, In e l -> i <> loc j e) -> nth_error t' i = nth_error t i /\ nth_error c' i = nth_error c i) /\ h <= h' /\
    (h' = h \/ exists e, In e l /\ h' = loc j e).
Proof.
  intros j. induction l as [|e l IH]; intros t c h EL H B ND; cbn [store].
  - exists t, c, h. split; [reflexivity|]. do 2 (split; [reflexivity|]). split; [intros e []|]. split; [auto|]. auto.
  - pose proof (H e (or_introl eq_refl)) as He. destruct (j + fst e <? 0)%Z eqn:D; [lia|]. change (Z.to_nat (j + fst e)) with (loc j e).
    pose proof (B e (or_introl eq_refl)) as Be. unfold put. destruct (Nat.ltb_spec (loc j e) (length t)); [|lia]. cbn [bind].
    destruct (Nat.ltb_spec (loc j e) (length c)); [|lia]. cbn [bind]. inversion ND as [|? ? N1 N2]; subst.
    destruct (IH (upd t (loc j e) (snd e)) (upd c (loc j e) (fst e)) (Nat.max h (loc j e))) as (t' & c' & h' & E1 & E2 & E3 & E4 & E5 & E6 & E7).
    + now rewrite !upd_length.
    + intros; apply H; now right.
    + intros e' I. rewrite upd_length. apply B. now right.
    + exact N2.
    + rewrite !upd_length in *. exists t', c', h'. split; [exact E1|]. split; [exact E2|]. split; [exact E3|].
      assert (NE : forall e', In e' l -> loc j e <> loc j e').
      { intros e' I E. apply loc_inj in E; [|exact He|apply H; now right]. apply N1. rewrite E. now apply in_map. }
      split; [|split; [|split; [lia|]]].
      * intros e' [<-|I]; [|now apply E4]. destruct (E5 (loc j e) NE) as [A1 A2]. rewrite A1, A2. rewrite !nth_error_upd_eq by assumption. repeat split; auto. lia.
      * intros i Hi. destruct (E5 i) as [A1 A2]; [intros e' I; apply Hi; now right|]. rewrite A1, A2. specialize (Hi e (or_introl eq_refl)).
        rewrite !nth_error_upd_ne by congruence. auto.
      * destruct E7 as [E7|(e' & I & E7)]; [|right; exists e'; auto with datatypes]. destruct (Nat.max_spec h (loc j e)) as [[_ M]|[_ M]]; rewrite M in E7; [right; exists e; auto with datatypes|now left].
Qed.

Lemma low_loop_ok : forall l low, (exists low', low_loop l low = Ok low' /\ low <= low' < low + length l /\ nth_error l (low' - low) = Some (-1)%Z /\
    forall i, low <= i < low' -> nth_error l (i - low) <> Some (-1)%Z) \/
  (low_loop l low = Bad /\ forall i, nth_error l i <> Some (-1)%Z).
Proof.
  induction l as [|x l IH]; intros low; cbn [low_loop].
  - right. split; [reflexivity|]. intros [|i]; discriminate.
  - destruct (Z.eqb_spec x (-1)) as [E|N].
    + left. exists low. split; [reflexivity|]. split; [cbn; lia|]. rewrite Nat.sub_diag. split; [now rewrite E|]. intros; lia.
    + destruct (IH (S low)) as [(low' & E1 & E2 & E3 & E4)|[E1 E2]].
      * left. exists low'. split; [exact E1|]. cbn [length]. split; [lia|]. replace (low' - low) with (S (low' - S low)) by lia. split; [exact E3|].
        intros i Hi. destruct (Nat.eq_dec i low) as [->|Ni]; [rewrite Nat.sub_diag; cbn; congruence|].
        replace (i - low) with (S (i - S low)) by lia. apply E4. lia.
      * right. split; [exact E1|]. intros [|i]; [cbn; congruence|apply E2].
Qed.

Lemma first_place_ok : forall low l, l <> [] -> (forall e, In e l -> (0 <= fst e)%Z) -> exists j, first_place low l = Ok j /\ (j <= Z.of_nat low)%Z /\
  (forall e, In e l -> (Z.of_nat low <= j + fst e)%Z).
Proof.
  intros low l N H. destruct l as [|e l]; [congruence|]. cbn [first_place]. clear N.
  assert (X : forall (l : list (Z * Z)) j, (forall e, In e l -> (0 <= fst e)%Z) -> (j <= Z.of_nat low)%Z ->
    (j <= fold_left (fun j x => Z.max j (Z.of_nat low - fst x)) l j <= Z.of_nat low)%Z /\
    forall x, In x l -> (Z.of_nat low <= fold_left (fun j x => Z.max j (Z.of_nat low - fst x)) l j + fst x)%Z).
  { clear. induction l as [|a l IH]; intros j H L; cbn [fold_left]; [split; [lia|intros x []]|]. pose proof (H a (or_introl eq_refl)).
    destruct (IH (Z.max j (Z.of_nat low - fst a))) as [A B]; [intros; apply H; now right|lia|]. split; [lia|]. intros x [<-|I]; [lia|auto]. }
  destruct (X l (Z.of_nat low - fst e)%Z) as [A B]; [intros; apply H; now right|specialize (H e (or_introl eq_refl)); lia|].
  eexists. split; [reflexivity|]. split; [lia|]. intros x [<-|I]; [lia|auto].
Qed.

(** ** The invariant of pack_table *)
Section Pack.
Variable vs : list vec.
Variable nstates : nat.
(** What is required of the vectors: indices are at least 0 and pairwise different. *)
Definition vec_ok (v : vec) : Prop := (forall e, In e (v_ent v) -> (0 <= fst e)%Z) /\ NoDup (map fst (v_ent v)).
Hypothesis VOK : forall v, In v vs -> vec_ok v.

Definition placed := list (Z * list (Z * Z)).

Record pinv (pk : placed) (done : list nat) (k : pack) : Prop := {
  pi_len : length (k_table k) = length (k_check k);
  pi_min : 1000 <= length (k_check k);
  pi_cell : forall i x, nth_error (k_check k) i = Some x -> x <> (-1)%Z -> exists j l e, In (j, l) pk /\ In e l /\ Z.of_nat i = (j + fst e)%Z /\ x = fst e;
  pi_ent : forall j l e, In (j, l) pk -> In e l -> (0 <= fst e)%Z /\ (0 <= j + fst e)%Z /\ nth_error (k_check k) (loc j e) = Some (fst e) /\
    nth_error (k_table k) (loc j e) = Some (snd e) /\ loc j e <= k_high k;
  pi_nd : NoDup (map fst pk);
  pi_ne : forall j l, In (j, l) pk -> j <> 0%Z /\ l <> [];
  pi_pos : forall j, In j (k_pos k) <-> In j (map fst pk);
  pi_low : forall i, i < k_lowzero k -> nth_error (k_check k) i <> Some (-1)%Z;
  pi_high : k_high k < length (k_check k);
  pi_bl : length (k_base k) = length vs;
  pi_base : forall i, In i done -> exists v, nth_error vs i = Some v /\ In (nth i (k_base k) 0%Z, v_ent v) pk;
  pi_zero : forall i, ~ In i done -> nth i (k_base k) 0%Z = 0%Z;
  pi_size : length (flat_map snd pk) <= size_of vs done;
  pi_lowh : k_lowzero k < length (k_check k)
}.

Lemma pinv_init : pinv [] [] (mkPack (repeat 0%Z 1000) (repeat (-1)%Z 1000) 0 0 [] (repeat 0%Z (length vs))).
Proof.
  constructor; cbn [k_table k_check k_lowzero k_high k_pos k_base]; rewrite ?repeat_length; try (intros; cbn in *; tauto); try lia.
  - intros i x E N. apply nth_error_In in E. apply repeat_spec in E. congruence.
  - constructor.
  - intros i _. apply nth_repeat_same.
  - cbn. lia.
Qed.

(** Cells above [high] are free. *)
Lemma free_above : forall pk done k i, pinv pk done k -> k_high k < i -> nth i (k_check k) (-1)%Z = (-1)%Z.
Proof.
  intros pk done k i I L. destruct (nth_error (k_check k) i) as [x|] eqn:E.
  - rewrite (nth_error_Some_nth _ _ _ _ _ E). destruct (Z.eq_dec x (-1)) as [->|N]; [reflexivity|]. exfalso.
    destruct (pi_cell _ _ _ I i x E N) as (j & l & e & I1 & I2 & E1 & E2). destruct (pi_ent _ _ _ I j l e I1 I2) as (_ & _ & _ & _ & A). unfold loc in A. lia.
  - apply nth_overflow. now apply nth_error_None.
Qed.

Lemma full_size : forall pk done k, pinv pk done k -> (forall i, i < length (k_check k) -> nth_error (k_check k) i <> Some (-1)%Z) -> length (k_check k) <= size_of vs done.
Proof.
  intros pk done k I F. etransitivity; [|apply (pi_size _ _ _ I)].
  set (cells := flat_map (fun p => map (loc (fst p)) (snd p)) pk).
  assert (EL : length cells = length (flat_map snd pk)).
  { unfold cells. clear. induction pk as [|p pk IH]; cbn; [reflexivity|]. now rewrite !app_length, map_length, IH. }
  rewrite <- EL. rewrite <- (seq_length (length (k_check k)) 0) at 1. apply NoDup_incl_length; [apply seq_NoDup|].
  intros i Hi. apply in_seq in Hi. destruct (nth_error_lt_ex _ (k_check k) i ltac:(lia)) as [x Ex].
  destruct (pi_cell _ _ _ I i x Ex) as (j & l & e & I1 & I2 & E1 & E2); [intros ->; now apply (F i ltac:(lia))|].
  unfold cells. apply in_flat_map. exists (j, l). split; [exact I1|]. cbn. apply in_map_iff. exists e. split; [unfold loc; lia|exact I2].
Qed.

Lemma list_sum_cons : forall a l, list_sum (a :: l) = a + list_sum l.
Proof. reflexivity. Qed.

Lemma NoDup_fst_eq : forall (pk : placed) j l l', NoDup (map fst pk) -> In (j, l) pk -> In (j, l') pk -> l = l'.
Proof.
  induction pk as [|[a b] pk IH]; intros j l l' ND I1 I2; [destruct I1|]. inversion ND as [|? ? N1 N2]; subst.
  destruct I1 as [E1|I1], I2 as [E2|I2].
  - congruence.
  - inversion E1; subst. exfalso. apply N1. apply (in_map fst) in I2. exact I2.
  - inversion E2; subst. exfalso. apply N1. apply (in_map fst) in I1. exact I1.
  - eapply IH; eauto.
Qed.

(** [F] bounds the indices. *)
Variable F : nat.
Hypothesis HF : forall v e, In v vs -> In e (v_ent v) -> (fst e <= Z.of_nat F)%Z.

Lemma pack_vector_ok : forall pk done k i v fuel, pinv pk done k -> nth_error vs i = Some v -> v_ent v <> [] -> ~ In i done -> k_high k + F + 2 <= fuel ->
  (exists j k', pack_vector fuel v k = Ok (j, k') /\ k_base k' = k_base k /\ k_pos k' = k_pos k /\ k_high k' <= k_high k + F + 1 /\
     pinv ((j, v_ent v) :: pk) (i :: done) (mkPack (k_table k') (k_check k') (k_lowzero k') (k_high k') (k_pos k' ++ [j]) (upd (k_base k') i j))) \/
  (pack_vector fuel v k = Bad /\ 1000 <= size_of vs (i :: done)).
Proof.
  intros pk done k i v fuel I Ev NE Hi Hf. assert (IV : In v vs) by (eapply nth_error_In; eauto). destruct (VOK v IV) as [V1 V2].
  assert (LV : i < length vs) by (eapply nth_error_Some_lt; eauto).
  unfold pack_vector. destruct (first_place_ok (k_lowzero k) (v_ent v) NE V1) as (j0 & E0 & A1 & A2). rewrite E0. cbn [bind].
  assert (LH : k_lowzero k <= S (k_high k)).
  { destruct (Nat.le_gt_cases (k_lowzero k) (S (k_high k))) as [L|L]; [exact L|]. exfalso. apply (pi_low _ _ _ I (S (k_high k)) L).
    pose proof (pi_lowh _ _ _ I) as LL. pose proof (free_above _ _ _ (S (k_high k)) I ltac:(lia)) as FR.
    destruct (nth_error_lt_ex _ (k_check k) (S (k_high k)) ltac:(lia)) as [x Ex]. rewrite Ex. now rewrite (nth_error_Some_nth _ _ _ _ _ Ex) in FR; subst. }
  assert (J0 : (- Z.of_nat F <= j0)%Z).
  { destruct (v_ent v) as [|e l] eqn:E; [congruence|]. pose proof (A2 e (or_introl eq_refl)). pose proof (HF v e IV ltac:(rewrite E; now left)). lia. }
  assert (FT : fits (v_ent v) (k_pos k) (k_check k) (Z.of_nat (S (k_high k)))).
  { split; [lia|]. split.
    - intros e Ie. apply (free_above _ _ _ _ I). specialize (V1 e Ie). unfold loc. lia.
    - intros Ip. apply (pi_pos _ _ _ I) in Ip. apply in_map_iff in Ip. destruct Ip as ((j & l) & E & Ip). cbn in E. subst j.
      destruct (pi_ne _ _ _ I _ _ Ip) as [_ N]. destruct l as [|e l]; [congruence|].
      destruct (pi_ent _ _ _ I _ _ e Ip (or_introl eq_refl)) as (B1 & _ & _ & _ & B2). unfold loc in B2. lia. }
  destruct (find_place_ok (v_ent v) (k_pos k) (Z.of_nat (S (k_high k))) fuel j0 (k_table k) (k_check k) (pi_len _ _ _ I)) as (j & t & c & E1 & E2 & E3 & E4 & E5);
    [intros e Ie; specialize (A2 e Ie); lia|exact FT|lia|lia|]. rewrite E1. cbn [bind]. destruct (ext_len _ _ _ _ E2 (pi_len _ _ _ I)) as [L1 L2].
  assert (P0 : forall e, In e (v_ent v) -> (0 <= j + fst e)%Z) by (intros e Ie; specialize (A2 e Ie); lia).
  destruct (store_ok j (v_ent v) t c (k_high k) L1 P0 E5 V2) as (t' & c' & h' & S1 & S2 & S3 & S4 & S5 & S6 & S7). rewrite S1. cbn [bind].
  destruct E4 as (F1 & F2 & F3).
  (* old cells are not overwritten *)
  assert (OLD : forall n x, nth_error (k_check k) n = Some x -> x <> (-1)%Z -> forall e, In e (v_ent v) -> n <> loc j e).
  { intros n x En Nx e Ie ->. specialize (F2 e Ie). rewrite (nth_error_Some_nth _ _ _ _ _ En) in F2. contradiction. }
  assert (EC : forall n, n < length (k_check k) -> nth_error c n = nth_error (k_check k) n /\ nth_error t n = nth_error (k_table k) n).
  { intros n Ln. destruct E2 as (m & -> & ->). rewrite !nth_error_app1; auto. rewrite (pi_len _ _ _ I). exact Ln. }
  assert (SZ : size_of vs (i :: done) = tally v + size_of vs done).
  { unfold size_of. cbn [map]. rewrite list_sum_cons. f_equal. now rewrite (nth_error_Some_nth _ _ _ _ _ Ev). }
  assert (HB : h' <= k_high k + F + 1).
  { destruct S7 as [->|(e & Ie & ->)]; [lia|]. pose proof (HF v e IV Ie). unfold loc. lia. }
  assert (MK : forall low, low < length c' -> (forall n, n < low -> nth_error c' n <> Some (-1)%Z) ->
    pinv ((j, v_ent v) :: pk) (i :: done) (mkPack t' c' low h' (k_pos k ++ [j]) (upd (k_base k) i j))).
  { intros low LL LW. constructor; cbn [k_table k_check k_lowzero k_high k_pos k_base].
    - lia.
    - pose proof (pi_min _ _ _ I). pose proof (pi_len _ _ _ I). lia.
    - intros n x En Nx.
      destruct (in_dec Nat.eq_dec n (map (loc j) (v_ent v))) as [D|D].
      + apply in_map_iff in D. destruct D as (e & <- & Ie). destruct (S4 e Ie) as (_ & Q & _). rewrite Q in En. inversion En; subst x.
        exists j, (v_ent v), e. split; [now left|]. split; [exact Ie|]. split; [specialize (P0 e Ie); unfold loc; lia|reflexivity].
      + destruct (S5 n) as [_ Q]; [intros e Ie ->; apply D; now apply in_map|]. rewrite Q in En.
        assert (Ln : n < length (k_check k)).
        { destruct (Nat.lt_ge_cases n (length (k_check k))) as [L|L]; [exact L|]. exfalso. destruct E2 as (m & _ & ->). rewrite nth_error_app2 in En by lia.
          apply nth_error_In, repeat_spec in En. congruence. }
        rewrite (proj1 (EC n Ln)) in En. destruct (pi_cell _ _ _ I n x En Nx) as (j' & l & e & B). exists j', l, e. split; [now right|tauto].
    - intros j' l e [E|Ip] Ie.
      + inversion E; subst j' l. split; [now apply V1|]. split; [now apply P0|]. destruct (S4 e Ie) as (Q1 & Q2 & Q3). auto.
      + destruct (pi_ent _ _ _ I j' l e Ip Ie) as (B1 & B2 & B3 & B4 & B5). split; [exact B1|]. split; [exact B2|].
        assert (Ln : loc j' e < length (k_check k)) by (eapply nth_error_Some_lt; eauto).
        destruct (S5 (loc j' e)) as [Q1 Q2]; [apply (OLD _ (fst e)); [exact B3|lia]|]. rewrite Q1, Q2. destruct (EC _ Ln) as [C1 C2]. rewrite C1, C2.
        split; [exact B3|]. split; [exact B4|]. lia.
    - cbn. constructor; [|apply (pi_nd _ _ _ I)]. intros Q. apply F3. now apply (pi_pos _ _ _ I).
    - intros j' l [E|Ip]; [inversion E; subst; auto|now apply (pi_ne _ _ _ I)].
    - intros j'. rewrite in_app_iff, (pi_pos _ _ _ I). cbn. tauto.
    - exact LW.
    - pose proof (pi_high _ _ _ I). pose proof (pi_len _ _ _ I). destruct S7 as [->|(e & Ie & ->)]; [lia|]. specialize (E5 e Ie). lia.
    - rewrite upd_length. apply (pi_bl _ _ _ I).
    - intros n Hn. destruct (Nat.eq_dec n i) as [->|Nn].
      + exists v. split; [exact Ev|]. left. rewrite nth_upd_eq; [reflexivity|]. now rewrite (pi_bl _ _ _ I).
      + destruct Hn as [->|Hn]; [congruence|]. destruct (pi_base _ _ _ I n Hn) as (u & U1 & U2). exists u. split; [exact U1|]. right. rewrite nth_upd_ne by congruence. assumption.
    - intros n Hn. rewrite nth_upd_ne by (intros ->; apply Hn; now left). apply (pi_zero _ _ _ I). intros Q. apply Hn. now right.
    - cbn [flat_map snd]. rewrite app_length, SZ. pose proof (pi_size _ _ _ I). unfold tally. lia.
    - exact LL. }
  assert (LWOLD : forall n, n < k_lowzero k -> nth_error c' n <> Some (-1)%Z).
  { intros n Hn. pose proof (pi_lowh _ _ _ I) as LL. pose proof (pi_low _ _ _ I n Hn) as Q.
    destruct (nth_error_lt_ex _ (k_check k) n ltac:(lia)) as [x Ex].
    destruct (S5 n) as [_ Q2]; [apply (OLD n x Ex); congruence|]. rewrite Q2. rewrite (proj1 (EC n ltac:(lia))). exact Q. }
  assert (NS : forall n, nth_error (skipn (k_lowzero k) c') n = nth_error c' (k_lowzero k + n)).
  { clear. intros n. revert c'. induction (k_lowzero k) as [|m IH]; intros c'; [reflexivity|]. destruct c' as [|x c']; cbn; [now destruct n|apply IH]. }
  assert (LM : length c' = length t') by lia.
  destruct (low_loop_ok (skipn (k_lowzero k) c') (k_lowzero k)) as [(low & W1 & W2 & W3 & W4)|[W1 W2]]; rewrite W1; cbn [bind].
  - left. eexists _, _. split; [reflexivity|]. cbn [k_table k_check k_lowzero k_high k_pos k_base]. split; [reflexivity|]. split; [reflexivity|]. split; [exact HB|].
    rewrite skipn_length in W2. pose proof (pi_lowh _ _ _ I). apply MK; [lia|].
    intros n Hn. destruct (Nat.lt_ge_cases n (k_lowzero k)) as [L|L]; [now apply LWOLD|].
    specialize (W4 n ltac:(lia)). rewrite NS in W4. replace (k_lowzero k + (n - k_lowzero k)) with n in W4 by lia. exact W4.
  - right. split; [reflexivity|].
    assert (PI : pinv ((j, v_ent v) :: pk) (i :: done) (mkPack t' c' 0 h' (k_pos k ++ [j]) (upd (k_base k) i j))).
    { apply MK; [|intros; lia]. pose proof (pi_min _ _ _ I). pose proof (pi_len _ _ _ I). lia. }
    etransitivity; [apply (pi_min _ _ _ PI)|]. apply (full_size _ _ _ PI). cbn [k_check]. intros n Ln.
    destruct (Nat.lt_ge_cases n (k_lowzero k)) as [L|L]; [now apply LWOLD|].
    specialize (W2 (n - k_lowzero k)). rewrite NS in W2. replace (k_lowzero k + (n - k_lowzero k)) with n in W2 by lia. exact W2.
Qed.

Lemma same_ent_eq : forall a b, length a = length b -> same_ent a b = true -> a = b.
Proof.
  induction a as [|[x x'] a IH]; intros [|[y y'] b] L H; try discriminate; [reflexivity|]. cbn in *. apply andb_prop in H. destruct H as [H H3]. apply andb_prop in H.
  destruct H as [H1 H2]. apply Z.eqb_eq in H1, H2. subst. f_equal. apply IH; [lia|exact H3].
Qed.

Lemma match_loop_ok : forall v prevs, (forall j, In j prevs -> j < length vs) -> exists o, match_loop vs v prevs = Ok o /\
  forall j, o = Some j -> In j prevs /\ exists u, nth_error vs j = Some u /\ v_ent u = v_ent v.
Proof.
  intros v. induction prevs as [|j r IH]; intros H; cbn [match_loop]; [exists None; split; [reflexivity|discriminate]|].
  destruct (nth_error_lt_ex _ vs j (H j (or_introl eq_refl))) as [u Eu]. rewrite Eu. cbn [opt bind].
  destruct (negb (v_width u =? v_width v)%Z || negb (tally u =? tally v)) eqn:D; [exists None; split; [reflexivity|discriminate]|].
  apply orb_false_elim in D. destruct D as [_ D]. apply negb_false_iff, Nat.eqb_eq in D.
  destruct (same_ent (v_ent u) (v_ent v)) eqn:SE.
  - exists (Some j). split; [reflexivity|]. intros j' E. inversion E; subst j'. split; [now left|]. exists u. split; [exact Eu|]. apply same_ent_eq; [exact D|exact SE].
  - destruct IH as (o & E1 & E2); [intros; apply H; now right|]. exists o. split; [exact E1|]. intros j' E. destruct (E2 j' E). split; [now right|assumption].
Qed.

Lemma pack_loop_ok : forall fuel order prevs pk k, pinv pk prevs k -> NoDup (order ++ prevs) -> (forall i, In i order -> exists v, nth_error vs i = Some v /\ v_ent v <> []) ->
  (forall i, In i prevs -> i < length vs) ->
  k_high k + length order * (F + 1) + F + 2 <= fuel ->
  (exists pk' k', pack_loop fuel vs nstates order prevs k = Ok k' /\ pinv pk' (rev order ++ prevs) k') \/
  (pack_loop fuel vs nstates order prevs k = Bad /\ 1000 <= size_of vs (order ++ prevs)).
Proof.
  intros fuel. induction order as [|i order IH]; intros prevs pk k I ND HO HP Hf; cbn [pack_loop]; [left; exists pk, k; split; [reflexivity|exact I]|].
  destruct (HO i (or_introl eq_refl)) as (v & Ev & NE). rewrite Ev. cbn [opt bind]. cbn [app] in ND. inversion ND as [|? ? N1 N2]; subst.
  assert (LI : i < length vs) by (eapply nth_error_Some_lt; eauto).
  assert (Hi : ~ In i prevs) by (intros Q; apply N1; apply in_or_app; now right).
  assert (ND' : NoDup (order ++ i :: prevs)) by (eapply Permutation_NoDup; [apply Permutation_middle|constructor; auto]).
  assert (SP : size_of vs (order ++ i :: prevs) = size_of vs ((i :: order) ++ prevs)) by (apply size_perm; symmetry; apply Permutation_middle).
  assert (MO : exists o, matching_vector vs nstates i v prevs = Ok o /\ forall j, o = Some j -> In j prevs /\ exists u, nth_error vs j = Some u /\ v_ent u = v_ent v).
  { unfold matching_vector. destruct (2 * nstates <=? i); [exists None; split; [reflexivity|discriminate]|]. apply match_loop_ok. exact HP. }
  destruct MO as (o & Eo & Ho). rewrite Eo. cbn [bind]. cbn [length] in Hf. destruct o as [j|].
  - destruct (Ho j eq_refl) as (Ij & u & Eu & EE). destruct (pi_base _ _ _ I j Ij) as (u' & Eu' & Ib). assert (u' = u) by congruence. subst u'.
    destruct (nth_error_lt_ex _ (k_base k) j ltac:(rewrite (pi_bl _ _ _ I); now apply HP)) as [p Ep]. rewrite Ep. cbn [opt bind].
    rewrite (nth_error_Some_nth _ _ _ _ _ Ep) in Ib. rewrite EE in Ib.
    unfold put. rewrite (pi_bl _ _ _ I). destruct (Nat.ltb_spec i (length vs)); [|lia]. cbn [bind].
    destruct (IH (i :: prevs) pk (mkPack (k_table k) (k_check k) (k_lowzero k) (k_high k) (k_pos k ++ [p]) (upd (k_base k) i p))) as [(pk' & k' & E1 & E2)|[E1 E2]]; auto.
    + destruct I. constructor; cbn [k_table k_check k_lowzero k_high k_pos k_base]; auto.
      * intros j'. rewrite in_app_iff, pi_pos0. cbn. split; [intros [Q|[<-|[]]]; [exact Q|apply (in_map fst) in Ib; exact Ib]|tauto].
      * now rewrite upd_length.
      * intros n Hn. destruct (Nat.eq_dec n i) as [->|Nn].
        -- exists v. split; [exact Ev|]. rewrite nth_upd_eq; [exact Ib|]. now rewrite pi_bl0.
        -- destruct Hn as [->|Hn]; [congruence|]. destruct (pi_base0 n Hn) as (w & U1 & U2). exists w. split; [exact U1|]. rewrite nth_upd_ne by congruence. assumption.
      * intros n Hn. rewrite nth_upd_ne by (intros ->; apply Hn; now left). apply pi_zero0. intros Q. apply Hn. now right.
      * etransitivity; [apply pi_size0|]. unfold size_of. cbn [map]. rewrite list_sum_cons. lia.
    + intros n Hn. apply HO. now right.
    + intros n [<-|Hn]; [exact LI|now apply HP].
    + cbn [k_high]. lia.
    + left. exists pk', k'. split; [exact E1|]. cbn [rev]. rewrite <- app_assoc. exact E2.
    + right. split; [exact E1|]. now rewrite <- SP.
  - destruct (pack_vector_ok pk prevs k i v fuel I Ev NE Hi ltac:(lia)) as [(j & k1 & E1 & E2 & E3 & E4 & E5)|[E1 E2]]; rewrite E1; cbn [bind].
    + unfold put. rewrite E2, (pi_bl _ _ _ I). destruct (Nat.ltb_spec i (length vs)); [|lia]. cbn [bind]. rewrite E2 in E5.
      destruct (IH (i :: prevs) _ _ E5) as [(pk' & k' & Q1 & Q2)|[Q1 Q2]]; auto.
      * intros n Hn. apply HO. now right.
      * intros n [<-|Hn]; [exact LI|now apply HP].
      * cbn [k_high]. lia.
      * left. exists pk', k'. split; [exact Q1|]. cbn [rev]. rewrite <- app_assoc. exact Q2.
      * right. split; [exact Q1|]. now rewrite <- SP.
    + right. split; [reflexivity|]. etransitivity; [exact E2|]. unfold size_of. rewrite map_app. cbn [map app]. rewrite !list_sum_cons.
      rewrite list_sum_app. lia.
Qed.

Theorem pack_table_ok : forall fuel, S (length vs) * (F + 2) <= fuel ->
  (exists pk k, pack_table fuel vs nstates = Ok k /\ pinv pk (rev (sort_actions vs)) k) \/
  (pack_table fuel vs nstates = Bad /\ 1000 <= total vs).
Proof.
  intros fuel Hf. unfold pack_table.
  assert (LS : length (sort_actions vs) <= length vs).
  { rewrite <- (seq_length (length vs) 0). apply NoDup_incl_length; [apply sort_actions_NoDup|]. intros i Hi. apply sort_actions_in in Hi. destruct Hi as (v & E & _).
    apply in_seq. apply nth_error_Some_lt in E. lia. }
  destruct (pack_loop_ok fuel (sort_actions vs) [] [] _ pinv_init) as [(pk & k & E1 & E2)|[E1 E2]].
  - rewrite app_nil_r. apply sort_actions_NoDup.
  - intros i Hi. now apply sort_actions_in.
  - intros i [].
  - cbn [k_high]. nia.
  - left. exists pk, k. split; [exact E1|]. now rewrite app_nil_r in E2.
  - right. split; [exact E1|]. rewrite app_nil_r, size_sort in E2. exact E2.
Qed.

(** ** Looking up *)
Lemma lookup_ok : forall pk k, pinv pk (rev (sort_actions vs)) k -> forall i v x, nth_error vs i = Some v -> (0 <= x)%Z ->
  exists o, ylookup (k_high k) (firstn (S (k_high k)) (k_table k)) (firstn (S (k_high k)) (k_check k)) (nth i (k_base k) 0%Z) x = Ok o /\
    forall t, o = Some t <-> In (x, t) (v_ent v).
Proof.
  intros pk k I i v x Ev Hx. unfold ylookup.
  destruct (in_dec Nat.eq_dec i (rev (sort_actions vs))) as [D|D].
  - destruct (pi_base _ _ _ I i D) as (v' & E & Ib). assert (v' = v) by congruence. subst v'. set (j := nth i (k_base k) 0%Z) in *.
    destruct (pi_ne _ _ _ I _ _ Ib) as [NJ _]. destruct (Z.eqb_spec j 0) as [E0|_]; [contradiction|].
    assert (HIT : forall t, In (x, t) (v_ent v) -> (0 <= j + x)%Z /\ (j + x <= Z.of_nat (k_high k))%Z /\ nth_error (k_check k) (Z.to_nat (j + x)) = Some x /\ nth_error (k_table k) (Z.to_nat (j + x)) = Some t).
    { intros t It. destruct (pi_ent _ _ _ I _ _ _ Ib It) as (B1 & B2 & B3 & B4 & B5). unfold loc in *. cbn [fst snd] in *. repeat split; auto. lia. }
    destruct ((j + x <? 0)%Z || (Z.of_nat (k_high k) <? j + x)%Z) eqn:R.
    + exists None. split; [reflexivity|]. intros t. split; [discriminate|]. intros It. destruct (HIT t It) as (B1 & B2 & _). apply orb_prop in R. lia.
    + apply orb_false_elim in R. destruct R as [R1 R2]. pose proof (pi_high _ _ _ I) as HH. pose proof (pi_len _ _ _ I) as HL.
      assert (FN : forall l : list Z, nth_error (firstn (S (k_high k)) l) (Z.to_nat (j + x)) = nth_error l (Z.to_nat (j + x))).
      { intros l. rewrite <- (firstn_skipn (S (k_high k)) l) at 2. destruct (Nat.lt_ge_cases (Z.to_nat (j + x)) (length (firstn (S (k_high k)) l))) as [L|L]; [now rewrite nth_error_app1|].
        rewrite firstn_length in L. assert (length l <= Z.to_nat (j + x)) by lia. rewrite firstn_skipn. rewrite (proj2 (nth_error_None l _)) by assumption.
        apply nth_error_None. rewrite firstn_length. lia. }
      rewrite !FN. destruct (nth_error_lt_ex _ (k_check k) (Z.to_nat (j + x)) ltac:(lia)) as [c Ec]. rewrite Ec. cbn [opt bind].
      destruct (nth_error_lt_ex _ (k_table k) (Z.to_nat (j + x)) ltac:(lia)) as [t0 Et]. destruct (Z.eqb_spec c x) as [->|N].
      * rewrite Et. cbn [opt bind]. exists (Some t0). split; [reflexivity|]. intros t. split.
        -- intros E'. inversion E'; subst t0. destruct (pi_cell _ _ _ I _ _ Ec ltac:(lia)) as (j' & l & e & I1 & I2 & E1 & E2).
           assert (EJ : j' = j) by lia. subst j'. pose proof (NoDup_fst_eq _ _ _ _ (pi_nd _ _ _ I) I1 Ib). subst l.
           destruct (pi_ent _ _ _ I _ _ _ Ib I2) as (_ & _ & _ & B4 & _). unfold loc in B4. rewrite <- E2 in B4. rewrite Et in B4. inversion B4.
           destruct e as [e1 e2]. cbn in *. subst. exact I2.
        -- intros It. destruct (HIT t It) as (_ & _ & _ & B). congruence.
      * exists None. split; [reflexivity|]. intros t. split; [discriminate|]. intros It. destruct (HIT t It) as (_ & _ & B & _). congruence.
  - rewrite (pi_zero _ _ _ I i D). cbn. exists None. split; [reflexivity|]. intros t. split; [discriminate|]. intros It. exfalso. apply D. rewrite <- in_rev. apply sort_actions_in.
    exists v. split; [exact Ev|]. intros E. now rewrite E in It.
Qed.
End Pack.
