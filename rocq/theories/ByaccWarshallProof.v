(** Proofs about the bit-matrix closure of byacc/warshall.c. *)
From Coq Require Import List Arith NArith Lia Bool.
Import ListNotations.
From Verif Require Import Base ByaccWarshallModel.
Open Scope res_scope.

(** The bit in row [i] and column [j]. *)
Definition bit (W rs : nat) (a : list N) (i j : nat) : bool :=
  N.testbit (nth (i * rs + j / W) a 0%N) (N.of_nat (j mod W)).

(** Bit [j] of the bit string that starts at word [r]. *)
Definition bitat (W : nat) (a : list N) (r j : nat) : bool :=
  N.testbit (nth (r + j / W) a 0%N) (N.of_nat (j mod W)).

Lemma land_bit : forall w i, negb (N.eqb (N.land w (N.shiftl 1 (N.of_nat i))) 0) = N.testbit w (N.of_nat i).
Proof.
  intros w i. rewrite N.shiftl_1_l. destruct (N.testbit w (N.of_nat i)) eqn:E.
  - apply Bool.negb_true_iff, N.eqb_neq. intros H.
    assert (X : N.testbit (N.land w (2 ^ N.of_nat i)) (N.of_nat i) = true).
    { rewrite N.land_spec, E, N.pow2_bits_true. reflexivity. }
    rewrite H in X. now rewrite N.bits_0 in X.
  - apply Bool.negb_false_iff, N.eqb_eq. apply N.bits_inj. intros m. rewrite N.land_spec, N.bits_0.
    rewrite N.pow2_bits_eqb. destruct (N.eqb_spec (N.of_nat i) m) as [<-|N]; [now rewrite E|apply andb_false_r].
Qed.

Lemma lor_bit : forall w i k, N.testbit (N.lor w (N.shiftl 1 (N.of_nat i))) (N.of_nat k) = N.testbit w (N.of_nat k) || (i =? k).
Proof.
  intros w i k. rewrite N.lor_spec, N.shiftl_1_l, N.pow2_bits_eqb. f_equal.
  destruct (Nat.eqb_spec i k) as [->|N]; [apply N.eqb_refl|]. apply N.eqb_neq. lia.
Qed.

Lemma wordsize_lt : forall W n j, 0 < W -> j < n -> j / W < WORDSIZE W n.
Proof.
  intros W n j HW H. unfold WORDSIZE. apply Nat.div_lt_upper_bound; [lia|].
  pose proof (Nat.div_mod (n + (W - 1)) W ltac:(lia)). pose proof (Nat.mod_upper_bound (n + (W - 1)) W ltac:(lia)). lia.
Qed.

Lemma div_mod_inj : forall W a b, 0 < W -> a / W = b / W -> a mod W = b mod W -> a = b.
Proof. intros W a b HW H1 H2. rewrite (Nat.div_mod a W), (Nat.div_mod b W) by lia. congruence. Qed.

Lemma SETBIT_ok : forall W a r n, r + n / W < length a -> exists a', SETBIT W a r n = Ok a' /\ length a' = length a /\
  (forall k, k <> r + n / W -> nth k a' 0%N = nth k a 0%N) /\
  (0 < W -> forall j, bitat W a' r j = bitat W a r j || (n =? j)).
Proof.
  intros W a r n H. destruct (nth_error_lt_ex _ a _ H) as (w & E). unfold SETBIT. rewrite E. cbn [opt bind].
  eexists. split; [reflexivity|]. split; [apply upd_length|]. split; [intros k N; apply nth_upd_ne; auto|].
  intros HW j. unfold bitat. destruct (Nat.eq_dec (n / W) (j / W)) as [Q|Q].
  - rewrite <- Q, nth_upd_eq by lia. rewrite lor_bit. rewrite (nth_error_nth _ _ 0%N E). f_equal.
    destruct (Nat.eqb_spec n j) as [->|N]; [apply Nat.eqb_refl|].
    apply Nat.eqb_neq. intros M. apply N. apply (div_mod_inj W); auto.
  - rewrite nth_upd_ne by lia. destruct (Nat.eqb_spec n j) as [->|]; [congruence|]. now rewrite orb_false_r.
Qed.

(** ** Combining rows *)
Lemma or_words_ok : forall k a d s, d + k <= length a -> s + k <= length a -> (s = d \/ s + k <= d \/ d + k <= s) ->
  exists a', or_words a d s k = Ok a' /\ length a' = length a /\
  forall m, nth m a' 0%N = if (d <=? m) && (m <? d + k) then N.lor (nth m a 0%N) (nth (s + (m - d)) a 0%N) else nth m a 0%N.
Proof.
  induction k as [|k IH]; intros a d s Hd Hs Ov.
  - exists a. split; [reflexivity|]. split; [reflexivity|]. intros m.
    destruct (Nat.leb_spec d m); destruct (Nat.ltb_spec m (d + 0)); cbn; auto; lia.
  - cbn [or_words]. destruct (nth_error_lt_ex _ a d) as (x & Ex); [lia|]. destruct (nth_error_lt_ex _ a s) as (y & Ey); [lia|].
    rewrite Ex, Ey. cbn [opt bind].
    destruct (IH (upd a d (N.lor x y)) (S d) (S s)) as (a' & E & L & B); try (rewrite upd_length; lia); try lia.
    exists a'. split; [exact E|]. rewrite upd_length in L. split; [exact L|]. intros m. rewrite B.
    apply (nth_error_nth _ _ 0%N) in Ex. apply (nth_error_nth _ _ 0%N) in Ey.
    destruct (Nat.eq_dec m d) as [->|N].
    + replace (S d <=? d) with false by (symmetry; apply Nat.leb_gt; lia). cbn [andb].
      replace (d <=? d) with true by (symmetry; apply Nat.leb_refl). replace (d <? d + S k) with true by (symmetry; apply Nat.ltb_lt; lia).
      cbn [andb]. rewrite nth_upd_eq by lia. rewrite Nat.sub_diag, Nat.add_0_r. congruence.
    + rewrite (nth_upd_ne _ a d m) by auto.
      destruct (Nat.leb_spec (S d) m); destruct (Nat.leb_spec d m); try lia; cbn [andb]; [|auto].
      replace (S d + k) with (d + S k) by lia. destruct (Nat.ltb_spec m (d + S k)); [|auto].
      f_equal. replace (S s + (m - S d)) with (s + (m - d)) by lia.
      destruct (Nat.eq_dec (s + (m - d)) d); [lia|]. apply nth_upd_ne. auto.
Qed.

Section Closure.
Variables (W n : nat).
Hypothesis HW : 0 < W.
Let rs := WORDSIZE W n.
Notation bt := (bit W rs).

Lemma rs_pos : 0 < n -> 0 < rs.
Proof. intros H. pose proof (wordsize_lt W n 0 HW H). unfold rs. lia. Qed.

Lemma row_in : forall i q, i < n -> q < rs -> i * rs + q < n * rs.
Proof. intros i q H1 H2. nia. Qed.

Lemma row_eq : forall i i' q q', q < rs -> q' < rs -> i * rs + q = i' * rs + q' -> i = i' /\ q = q'.
Proof. intros i i' q q' H1 H2 H. destruct (Nat.lt_trichotomy i i') as [L|[->|L]]; [nia|split; lia|nia]. Qed.

(** Row [j] becomes row [j] or row [i]; nothing else changes. *)
Lemma or_row : forall a i j, n * rs <= length a -> i < n -> j < n ->
  exists a', or_words a (j * rs) (i * rs) rs = Ok a' /\ length a' = length a /\
  (forall m, n * rs <= m -> nth m a' 0%N = nth m a 0%N) /\
  (forall x y, y < n -> bt a' x y = if x =? j then bt a j y || bt a i y else bt a x y).
Proof.
  intros a i j L Hi Hj.
  destruct (or_words_ok rs a (j * rs) (i * rs)) as (a' & E & La & B); [nia|nia| |].
  { destruct (Nat.lt_trichotomy i j) as [X|[->|X]]; [right; left; nia|left; auto|right; right; nia]. }
  exists a'. split; [auto|]. split; [auto|]. split.
  - intros m Hm. rewrite B. destruct (Nat.ltb_spec m (j * rs + rs)); [nia|]. now rewrite andb_false_r.
  - intros x y Hy. unfold bit. rewrite B. pose proof (wordsize_lt W n y HW Hy) as Q. fold rs in Q.
    destruct (Nat.eqb_spec x j) as [->|N].
    + replace (j * rs <=? j * rs + y / W) with true by (symmetry; apply Nat.leb_le; lia).
      replace (j * rs + y / W <? j * rs + rs) with true by (symmetry; apply Nat.ltb_lt; lia). cbn [andb].
      rewrite N.lor_spec. do 2 f_equal. f_equal. lia.
    + destruct (Nat.leb_spec (j * rs) (x * rs + y / W)); cbn [andb]; [|auto].
      destruct (Nat.ltb_spec (x * rs + y / W) (j * rs + rs)); [|auto]. exfalso.
      destruct (row_eq x j (y / W) (x * rs + y / W - j * rs)); lia.
Qed.

(** One column step, from row [j] on. *)
Lemma col_ok : forall k fuel a i j, k < fuel -> j + k = n -> n * rs <= length a -> i < n ->
  exists a', col_loop fuel a (i * rs) (i mod W) (i / W + j * rs) (j * rs) (n * rs) rs = Ok a' /\ length a' = length a /\
  (forall m, n * rs <= m -> nth m a' 0%N = nth m a 0%N) /\
  (forall x y, y < n -> bt a' x y = if (j <=? x) && (x <? n) then bt a x y || bt a x i && bt a i y else bt a x y).
Proof.
  induction k as [|k IH]; intros fuel a i j Hf Hj L Hi; (destruct fuel as [|f]; [lia|]); cbn [col_loop].
  - replace (j * rs <? n * rs) with false by (symmetry; apply Nat.ltb_ge; nia).
    exists a. split; [auto|]. split; [auto|]. split; [auto|]. intros x y Hy.
    destruct (Nat.leb_spec j x); destruct (Nat.ltb_spec x n); cbn [andb]; auto; lia.
  - pose proof (rs_pos ltac:(lia)) as RP.
    replace (j * rs <? n * rs) with true by (symmetry; apply Nat.ltb_lt; nia).
    pose proof (wordsize_lt W n i HW Hi) as Q. fold rs in Q.
    destruct (nth_error_lt_ex _ a (i / W + j * rs)) as (w & Ew); [nia|]. rewrite Ew. cbn [opt bind].
    rewrite land_bit. assert (Bw : N.testbit w (N.of_nat (i mod W)) = bt a j i).
    { unfold bit. replace (j * rs + i / W) with (i / W + j * rs) by lia. now rewrite (nth_error_nth _ _ 0%N Ew). }
    rewrite Bw. replace (i / W + j * rs + rs) with (i / W + S j * rs) by nia. replace (j * rs + rs) with (S j * rs) by nia.
    destruct (bt a j i) eqn:Bj.
    + destruct (or_row a i j L Hi ltac:(lia)) as (a1 & E1 & L1 & O1 & B1). rewrite E1. cbn [bind].
      destruct (IH f a1 i (S j)) as (a2 & E2 & L2 & O2 & B2); try lia.
      exists a2. split; [exact E2|]. split; [lia|]. split; [intros m Hm; rewrite O2, O1; auto|].
      intros x y Hy. rewrite B2 by auto. rewrite !B1 by auto.
      destruct (Nat.eqb_spec x j) as [->|N].
      * replace (S j <=? j) with false by (symmetry; apply Nat.leb_gt; lia). rewrite Nat.leb_refl.
        replace (j <? n) with true by (symmetry; apply Nat.ltb_lt; lia). cbn [andb]. now rewrite Bj.
      * assert (HB : (if i =? j then bt a j y || bt a i y else bt a i y) = bt a i y).
        { destruct (Nat.eqb_spec i j) as [->|]; [apply orb_diag|auto]. }
        rewrite HB.
        destruct (Nat.leb_spec (S j) x); destruct (Nat.leb_spec j x); try lia; cbn [andb]; auto.
    + destruct (IH f a i (S j)) as (a2 & E2 & L2 & O2 & B2); try lia.
      exists a2. split; [exact E2|]. split; [lia|]. split; [exact O2|].
      intros x y Hy. rewrite B2 by auto. destruct (Nat.eq_dec x j) as [->|N].
      * replace (S j <=? j) with false by (symmetry; apply Nat.leb_gt; lia). rewrite Nat.leb_refl.
        replace (j <? n) with true by (symmetry; apply Nat.ltb_lt; lia). cbn [andb]. rewrite Bj. cbn [andb]. now rewrite orb_false_r.
      * destruct (Nat.leb_spec (S j) x); destruct (Nat.leb_spec j x); try lia; cbn [andb]; auto.
Qed.

(** Paths whose inner nodes are below [k]. *)
Inductive via (R : nat -> nat -> Prop) (k : nat) : nat -> nat -> Prop :=
| via_one : forall x y, R x y -> via R k x y
| via_two : forall x y z, via R k x y -> y < k -> via R k y z -> via R k x z.

Lemma via_S : forall R k x y, via R (S k) x y <-> via R k x y \/ (via R k x k /\ via R k k y).
Proof.
  intros R k x y. split.
  - induction 1 as [x y H|x y z H1 IH1 L H2 IH2]; [left; now constructor|].
    destruct (Nat.eq_dec y k) as [->|N].
    + right. destruct IH1 as [A|[A1 A2]]; destruct IH2 as [B|[B1 B2]]; auto.
    + assert (Ly : y < k) by lia. destruct IH1 as [A|[A1 A2]]; destruct IH2 as [B|[B1 B2]].
      * left. eapply via_two; eauto.
      * right. split; auto. eapply via_two; eauto.
      * right. split; auto. eapply via_two; eauto.
      * right. auto.
  - intros [H|[H1 H2]].
    + induction H as [x y H|x y z H1 IH1 L H2 IH2]; [now constructor|]. apply via_two with y; auto; lia.
    + assert (M : forall a b, via R k a b -> via R (S k) a b).
      { clear. intros a b H. induction H as [x y H|x y z H1 IH1 L H2 IH2]; [now constructor|]. apply via_two with y; auto; lia. }
      apply via_two with k; auto; lia.
Qed.

Definition Rel (a : list N) (x y : nat) : Prop := x < n /\ y < n /\ bt a x y = true.

Lemma row_ok : forall fuel0 R k fuel a i, n < fuel0 -> k < fuel -> i + k = n -> length a = length R -> n * rs <= length R ->
  (forall m, n * rs <= m -> nth m a 0%N = nth m R 0%N) ->
  (forall x y, x < n -> y < n -> (bt a x y = true <-> via (Rel R) i x y)) ->
  exists a', row_loop fuel fuel0 W a (i / W) (i mod W) (i * rs) (n * rs) rs = Ok a' /\ length a' = length R /\
  (forall m, n * rs <= m -> nth m a' 0%N = nth m R 0%N) /\
  (forall x y, x < n -> y < n -> (bt a' x y = true <-> via (Rel R) n x y)).
Proof.
  intros fuel0 R. induction k as [|k IH]; intros fuel a i H0 Hf Hi L LR O B; (destruct fuel as [|f]; [lia|]); cbn [row_loop].
  - replace (i * rs <? n * rs) with false by (symmetry; apply Nat.ltb_ge; nia).
    exists a. split; [auto|]. split; [auto|]. split; [auto|]. intros x y Hx Hy. rewrite B by auto. replace i with n by lia. tauto.
  - pose proof (rs_pos ltac:(lia)) as RP.
    replace (i * rs <? n * rs) with true by (symmetry; apply Nat.ltb_lt; nia).
    destruct (col_ok n fuel0 a i 0) as (a1 & E1 & L1 & O1 & B1); try lia.
    replace (i / W + 0 * rs) with (i / W) in E1 by lia. change (0 * rs) with 0 in E1.
    rewrite E1. cbn [bind].
    assert (B' : forall x y, x < n -> y < n -> (bt a1 x y = true <-> via (Rel R) (S i) x y)).
    { intros x y Hx Hy. rewrite B1 by auto. replace (x <? n) with true by (symmetry; now apply Nat.ltb_lt).
      cbn [andb Nat.leb]. rewrite orb_true_iff, andb_true_iff, !B by (auto; lia). symmetry. apply via_S. }
    assert (N : (if W <=? S (i mod W) then row_loop f fuel0 W a1 (S (i / W)) 0 (i * rs + rs) (n * rs) rs
                 else row_loop f fuel0 W a1 (i / W) (S (i mod W)) (i * rs + rs) (n * rs) rs) =
                row_loop f fuel0 W a1 (S i / W) (S i mod W) (S i * rs) (n * rs) rs).
    { replace (i * rs + rs) with (S i * rs) by nia.
      pose proof (Nat.div_mod i W ltac:(lia)) as DM. pose proof (Nat.mod_upper_bound i W ltac:(lia)) as MB.
      destruct (Nat.leb_spec W (S (i mod W))) as [X|X].
      - rewrite <- (Nat.div_unique (S i) W (S (i / W)) 0) by nia. rewrite <- (Nat.mod_unique (S i) W (S (i / W)) 0) by nia. reflexivity.
      - rewrite <- (Nat.div_unique (S i) W (i / W) (S (i mod W))) by nia.
        rewrite <- (Nat.mod_unique (S i) W (i / W) (S (i mod W))) by nia. reflexivity. }
    rewrite N. apply IH; auto; try lia. intros m Hm. rewrite O1; auto.
Qed.

Lemma via_0 : forall R x y, via R 0 x y <-> R x y.
Proof. intros R x y. split; [intros H; inversion H; subst; auto; lia|now constructor]. Qed.

Lemma transitive_ok : forall fuel R, n < fuel -> n * rs <= length R ->
  exists R', transitive_closure fuel W R n = Ok R' /\ length R' = length R /\
  (forall m, n * rs <= m -> nth m R' 0%N = nth m R 0%N) /\
  (forall x y, x < n -> y < n -> (bt R' x y = true <-> via (Rel R) n x y)).
Proof.
  intros fuel R Hf L. unfold transitive_closure. fold rs.
  pose proof (row_ok fuel R n fuel R 0 Hf Hf ltac:(lia) eq_refl L ltac:(auto)) as H.
  rewrite Nat.div_0_l, Nat.mod_0_l in H by lia. apply H. intros x y Hx Hy. rewrite via_0. unfold Rel. tauto.
Qed.

(** The diagonal. *)
Lemma diag_ok : forall k fuel a i, k < fuel -> i + k = n -> n * rs <= length a ->
  exists a', diag_loop fuel W a (i mod W) (i / W + i * rs) (n * rs) rs = Ok a' /\ length a' = length a /\
  (forall m, n * rs <= m -> nth m a' 0%N = nth m a 0%N) /\
  (forall x y, y < n -> bt a' x y = bt a x y || ((x =? y) && (i <=? x))).
Proof.
  induction k as [|k IH]; intros fuel a i Hf Hi L; (destruct fuel as [|f]; [lia|]); cbn [diag_loop].
  - replace (i / W + i * rs <? n * rs) with false by (symmetry; apply Nat.ltb_ge; nia).
    exists a. split; [auto|]. split; [auto|]. split; [auto|]. intros x y Hy.
    destruct (Nat.eqb_spec x y); destruct (Nat.leb_spec i x); cbn [andb]; try now rewrite orb_false_r. lia.
  - pose proof (wordsize_lt W n i HW ltac:(lia)) as Q. fold rs in Q.
    replace (i / W + i * rs <? n * rs) with true by (symmetry; apply Nat.ltb_lt; nia).
    destruct (nth_error_lt_ex _ a (i / W + i * rs)) as (w & Ew); [nia|]. rewrite Ew. cbn [opt bind].
    set (a1 := upd a (i / W + i * rs) (N.lor w (N.shiftl 1 (N.of_nat (i mod W))))).
    assert (N : (if W <=? S (i mod W) then diag_loop f W a1 0 (S (i / W + i * rs) + rs) (n * rs) rs
                 else diag_loop f W a1 (S (i mod W)) (i / W + i * rs + rs) (n * rs) rs) =
                diag_loop f W a1 (S i mod W) (S i / W + S i * rs) (n * rs) rs).
    { pose proof (Nat.div_mod i W ltac:(lia)) as DM. pose proof (Nat.mod_upper_bound i W ltac:(lia)) as MB.
      destruct (Nat.leb_spec W (S (i mod W))) as [X|X].
      - rewrite <- (Nat.div_unique (S i) W (S (i / W)) 0) by nia. rewrite <- (Nat.mod_unique (S i) W (S (i / W)) 0) by nia. f_equal; nia.
      - rewrite <- (Nat.div_unique (S i) W (i / W) (S (i mod W))) by nia.
        rewrite <- (Nat.mod_unique (S i) W (i / W) (S (i mod W))) by nia. f_equal; nia. }
    cbv zeta. rewrite N. destruct (IH f a1 (S i)) as (a2 & E2 & L2 & O2 & B2); try lia.
    { unfold a1. rewrite upd_length. lia. }
    unfold a1 in L2. rewrite upd_length in L2. exists a2. split; [exact E2|]. split; [exact L2|]. split.
    { intros m Hm. rewrite O2 by auto. unfold a1. apply nth_upd_ne. nia. }
    intros x y Hy. rewrite B2 by auto. pose proof (wordsize_lt W n y HW Hy) as Qy. fold rs in Qy.
    unfold bit at 1. unfold a1. destruct (Nat.eq_dec (i / W + i * rs) (x * rs + y / W)) as [Q1|Q1].
    + destruct (row_eq i x (i / W) (y / W)) as [-> Q2]; [auto|auto|lia|]. rewrite <- Q1, nth_upd_eq by nia.
      rewrite lor_bit. unfold bit. rewrite <- Q1, (nth_error_nth _ _ 0%N Ew). rewrite <- orb_assoc. f_equal.
      rewrite Nat.leb_refl, andb_true_r. replace (S x <=? x) with false by (symmetry; apply Nat.leb_gt; lia).
      rewrite andb_false_r, orb_false_r. destruct (Nat.eqb_spec x y) as [->|N1]; [apply Nat.eqb_refl|].
      apply Nat.eqb_neq. intros M. apply N1. apply (div_mod_inj W); auto.
    + rewrite nth_upd_ne by auto. unfold bit. f_equal. destruct (Nat.eqb_spec x y) as [->|]; [|auto]. cbn [andb].
      destruct (Nat.eq_dec i y) as [->|]; [lia|]. destruct (Nat.leb_spec (S i) y); destruct (Nat.leb_spec i y); auto; lia.
Qed.

Lemma reflexive_ok : forall fuel R, n < fuel -> n * rs <= length R ->
  exists R', reflexive_transitive_closure fuel W R n = Ok R' /\ length R' = length R /\
  (forall m, n * rs <= m -> nth m R' 0%N = nth m R 0%N) /\
  (forall x y, x < n -> y < n -> (bt R' x y = true <-> x = y \/ via (Rel R) n x y)).
Proof.
  intros fuel R Hf L. unfold reflexive_transitive_closure. destruct (transitive_ok fuel R Hf L) as (a & E & La & O & B).
  rewrite E. cbn [bind]. fold rs. destruct (diag_ok n fuel a 0) as (a' & E' & La' & O' & B'); try lia.
  replace (0 / W + 0 * rs) with 0 in E' by (rewrite Nat.div_0_l; lia). rewrite Nat.mod_0_l in E' by lia.
  exists a'. split; [exact E'|]. split; [lia|]. split; [intros m Hm; rewrite O'; auto|].
  intros x y Hx Hy. rewrite B' by auto. cbn [Nat.leb]. rewrite andb_true_r, orb_true_iff, Nat.eqb_eq, B by auto. tauto.
Qed.

End Closure.

(** [via] with all nodes allowed is a non-empty path. *)
Lemma via_path : forall n (R : nat -> nat -> Prop) x y, (forall a b, R a b -> b < n) -> (via R n x y <-> exists z, R x z /\ star R z y).
Proof.
  intros n R x y HR. split.
  - induction 1 as [x y H|x y z H1 IH1 L H2 IH2]; [exists y; split; [auto|apply star_refl]|].
    destruct IH1 as (u & U1 & U2). destruct IH2 as (v & V1 & V2). exists u. split; [auto|].
    eapply star_trans; [exact U2|]. eapply star_step; eauto.
  - intros (z & H & S). revert x H. induction S as [z|z u y H1 S IH]; intros x H; [now constructor|].
    apply via_two with z; [now constructor|eauto|auto].
Qed.

Lemma via_star : forall n (R : nat -> nat -> Prop) x y, (forall a b, R a b -> b < n) -> (x = y \/ via R n x y <-> star R x y).
Proof.
  intros n R x y HR. rewrite via_path by auto. split.
  - intros [->|(z & H & S)]; [apply star_refl|eapply star_step; eauto].
  - intros H. inversion H; subst; [auto|right; eauto].
Qed.
