(** The rows of token actions (model: ByaccOutputModel.token_rows). *)
From Coq Require Import List Arith NArith ZArith Lia Bool Sorted.
Import ListNotations.
From Verif Require Import Base ByaccWarshallModel ByaccLr0Model ByaccLalrModel ByaccParModel ByaccActionsProof ByaccOutputModel ByaccPackTableProof.

(** Number of nonzero entries. *)
Definition nz (row : list Z) : nat := length (filter (fun x => negb (x =? 0)%Z) row).

Lemma nz_repeat : forall n, nz (repeat 0%Z n) = 0.
Proof. induction n; cbn; auto. Qed.

Lemma nz_upd : forall row i x, i < length row -> nth i row 0%Z = 0%Z -> x <> 0%Z -> nz (upd row i x) = S (nz row).
Proof.
  unfold nz. induction row as [|y row IH]; intros i x L E N; [cbn in L; lia|]. destruct i as [|i]; cbn [upd filter nth] in *.
  - subst y. cbn. destruct (Z.eqb_spec x 0); [contradiction|]. reflexivity.
  - cbn in L. destruct (y =? 0)%Z; cbn; rewrite IH; auto; lia.
Qed.

Definition live (a : action) : bool := a_supp a =? 0.

Lemma act_rows_ok : forall n dr l sh rd ns nr, length sh = n -> length rd = n ->
  (forall a, In a l -> live a = true -> a_sym a < n /\ 0 < a_num a /\ nth (a_sym a) sh 0%Z = 0%Z /\ nth (a_sym a) rd 0%Z = 0%Z) ->
  NoDup (map a_sym (filter live l)) -> nz sh = ns -> nz rd = nr ->
  exists sh' rd', act_rows dr l sh rd ns nr = Ok (sh', rd', nz sh', nz rd') /\ length sh' = n /\ length rd' = n /\
    (forall t, (forall a, In a l -> live a = true -> a_sym a <> t) -> nth t sh' 0%Z = nth t sh 0%Z /\ nth t rd' 0%Z = nth t rd 0%Z) /\
    (forall a, In a l -> live a = true -> nth (a_sym a) sh' 0%Z = (if a_shift a then Z.of_nat (a_num a) else 0%Z) /\
       nth (a_sym a) rd' 0%Z = (if a_shift a || (a_num a =? dr) then 0%Z else Z.of_nat (a_num a))).
Proof.
  intros n dr. induction l as [|p l IH]; intros sh rd ns nr L1 L2 H ND E1 E2; cbn [act_rows].
  - subst. exists sh, rd. split; [reflexivity|]. do 2 (split; [auto|]). split; [auto|]. intros a [].
  - fold (live p). destruct (live p) eqn:LP.
    + cbn [filter] in ND. rewrite LP in ND. cbn [map] in ND. inversion ND as [|? ? N1 N2]; subst.
      destruct (H p (or_introl eq_refl) LP) as (H1 & H2 & H3 & H4).
      assert (NE : forall a, In a l -> live a = true -> a_sym a <> a_sym p).
      { intros a Ia La E. apply N1. rewrite <- E. apply in_map, filter_In. auto. }
      assert (FIN : forall sh1 rd1, length sh1 = length sh -> length rd1 = length sh ->
         (forall t, t <> a_sym p -> nth t sh1 0%Z = nth t sh 0%Z /\ nth t rd1 0%Z = nth t rd 0%Z) ->
         nth (a_sym p) sh1 0%Z = (if a_shift p then Z.of_nat (a_num p) else 0%Z) -> nth (a_sym p) rd1 0%Z = (if a_shift p || (a_num p =? dr) then 0%Z else Z.of_nat (a_num p)) ->
         exists sh' rd', act_rows dr l sh1 rd1 (nz sh1) (nz rd1) = Ok (sh', rd', nz sh', nz rd') /\ length sh' = length sh /\ length rd' = length sh /\
           (forall t, (forall a, In a (p :: l) -> live a = true -> a_sym a <> t) -> nth t sh' 0%Z = nth t sh 0%Z /\ nth t rd' 0%Z = nth t rd 0%Z) /\
           (forall a, In a (p :: l) -> live a = true -> nth (a_sym a) sh' 0%Z = (if a_shift a then Z.of_nat (a_num a) else 0%Z) /\
              nth (a_sym a) rd' 0%Z = (if a_shift a || (a_num a =? dr) then 0%Z else Z.of_nat (a_num a)))).
      { intros sh1 rd1 A1 A2 A3 A4 A5. destruct (IH sh1 rd1 (nz sh1) (nz rd1)) as (sh' & rd' & B1 & B2 & B3 & B4 & B5); auto.
        - intros a Ia La. destruct (H a (or_intror Ia) La) as (G1 & G2 & G3 & G4). destruct (A3 _ (NE a Ia La)) as [-> ->]. auto.
        - exists sh', rd'. split; [exact B1|]. split; [exact B2|]. split; [exact B3|]. split.
          + intros t Ht. destruct (B4 t) as [-> ->]; [intros a Ia; apply Ht; now right|]. apply A3. intros ->. exact (Ht p (or_introl eq_refl) LP eq_refl).
          + intros a [<-|Ia] La; [|now apply B5]. destruct (B4 (a_sym p) NE) as [-> ->]. auto. }
      destruct (a_shift p) eqn:SP.
      * unfold put. destruct (Nat.ltb_spec (a_sym p) (length sh)); [|lia]. cbn [bind]. rewrite <- (nz_upd sh (a_sym p) (Z.of_nat (a_num p))) by (auto; lia).
        apply FIN; rewrite ?upd_length; auto.
        -- intros t Ht. rewrite nth_upd_ne by congruence. auto.
        -- apply nth_upd_eq. auto.
      * destruct (a_num p =? dr) eqn:ED; cbn [negb].
        -- apply FIN; auto.
        -- unfold put. destruct (Nat.ltb_spec (a_sym p) (length rd)); [|lia]. cbn [bind]. rewrite <- (nz_upd rd (a_sym p) (Z.of_nat (a_num p))) by (auto; lia).
           apply FIN; rewrite ?upd_length; auto.
           ++ intros t Ht. rewrite nth_upd_ne by congruence. auto.
           ++ apply nth_upd_eq. lia.
    + cbn [filter] in ND. rewrite LP in ND. destruct (IH sh rd ns nr) as (sh' & rd' & B1 & B2 & B3 & B4 & B5); auto.
      * intros a Ia. apply H. now right.
      * exists sh', rd'. split; [exact B1|]. split; [exact B2|]. split; [exact B3|]. split.
        -- intros t Ht. apply B4. intros a Ia. apply Ht. now right.
        -- intros a [<-|Ia] La; [congruence|now apply B5].
Qed.

Definition row_list (sv : list Z) (off : Z) (row : list Z) (j : nat) : list (Z * Z) :=
  map (fun p => (nth (fst p) sv 0%Z, (snd p - off)%Z)) (filter (fun p => negb (snd p =? 0)%Z) (combine (seq j (length row)) row)).

Lemma row_vec_ok : forall sv off row j mn mx, j + length row <= length sv ->
  exists mn' mx', row_vec sv off row j (nz row) mn mx = Ok (row_list sv off row j, mn', mx') /\ (mn <> None -> mn' <> None) /\ (0 < nz row -> mn' <> None).
Proof.
  intros sv off. induction row as [|x row IH]; intros j mn mx L; cbn [row_vec length] in *.
  - exists mn, mx. split; [reflexivity|]. split; [auto|]. cbn. lia.
  - unfold row_list, nz. cbn [length seq combine filter snd]. destruct (Z.eqb_spec x 0) as [->|N]; cbn [negb].
    + destruct (IH (S j) mn mx ltac:(lia)) as (mn' & mx' & E & E1 & E2). exists mn', mx'. split; [exact E|]. auto.
    + destruct (nth_error_lt_ex _ sv j ltac:(lia)) as [v Ev]. rewrite Ev. cbn [opt bind length].
      destruct (IH (S j) (match mn with Some m => Some (Z.min m v) | None => Some v end) (Z.max mx v) ltac:(lia)) as (mn' & mx' & E & E1 & E2).
      unfold nz in E. rewrite E. cbn [bind]. exists mn', mx'. split; [|split].
      * cbn [map fst snd]. rewrite (nth_error_Some_nth _ _ _ _ _ Ev). reflexivity.
      * intros _. apply E1. destruct mn; discriminate.
      * intros _. apply E1. destruct mn; discriminate.
Qed.

Lemma row_list_length : forall sv off row j, length (row_list sv off row j) = nz row.
Proof.
  intros sv off row j. unfold row_list, nz. rewrite map_length. revert j. induction row as [|x row IH]; intros j; [reflexivity|].
  cbn [length seq combine filter snd]. destruct (negb (x =? 0)%Z); cbn; now rewrite IH.
Qed.

Lemma row_list_in : forall sv off row x t, In (x, t) (row_list sv off row 0) <-> exists j y, nth_error row j = Some y /\ y <> 0%Z /\ x = nth j sv 0%Z /\ t = (y - off)%Z.
Proof.
  intros sv off row x t. unfold row_list. rewrite in_map_iff. split.
  - intros ((j & y) & E & I). apply filter_In in I. destruct I as [I1 I2]. apply in_combine_seq in I1. rewrite Nat.sub_0_r in I1. cbn [fst snd] in *.
    inversion E; subst. exists j, y. apply negb_true_iff, Z.eqb_neq in I2. tauto.
  - intros (j & y & E1 & E2 & E3 & E4). exists (j, y). split; [cbn; congruence|]. apply filter_In. split; [apply in_combine_seq; rewrite Nat.sub_0_r; split; [lia|exact E1]|].
    cbn. apply negb_true_iff, Z.eqb_neq. exact E2.
Qed.

Lemma row_list_NoDup : forall sv off row, (forall i j, i < length row -> j < length row -> nth i sv 0%Z = nth j sv 0%Z -> i = j) -> NoDup (map fst (row_list sv off row 0)).
Proof.
  intros sv off row H. unfold row_list. rewrite map_map. cbn [fst].
  assert (X : NoDup (map fst (filter (fun p => negb (snd p =? 0)%Z) (combine (seq 0 (length row)) row)))) by apply filter_fst_NoDup.
  assert (B : forall p, In p (filter (fun p => negb (snd p =? 0)%Z) (combine (seq 0 (length row)) row)) -> fst p < length row).
  { intros [j y] I. apply filter_In in I. destruct I as [I _]. apply in_combine_seq in I. rewrite Nat.sub_0_r in I. cbn. eapply nth_error_Some_lt. apply I. }
  revert X B. generalize (filter (fun p => negb (snd p =? 0)%Z) (combine (seq 0 (length row)) row)). induction l as [|p l IH]; intros X B; cbn [map] in *; [constructor|].
  inversion X as [|? ? N1 N2]; subst. constructor; [|apply IH; auto with datatypes]. intros I. apply in_map_iff in I. destruct I as (q & E & I).
  apply N1. apply in_map_iff. exists q. split; [|exact I]. apply H; auto with datatypes.
Qed.

Lemma mk_row_ok : forall sv off row, length row <= length sv -> exists w, mk_row sv off row (nz row) = Ok (mkVec (row_list sv off row 0) w).
Proof.
  intros sv off row L. unfold mk_row. destruct (Nat.eqb_spec (nz row) 0) as [E|N].
  - exists 0%Z. unfold no_vec. f_equal. f_equal. symmetry. apply length_zero_iff_nil. rewrite row_list_length. exact E.
  - destruct (row_vec_ok sv off row 0 None 0%Z ltac:(lia)) as (mn & mx & E & _ & E2). rewrite E. cbn [bind]. destruct mn as [m|]; [|exfalso; apply E2; [lia|reflexivity]].
    cbn [opt bind]. exists (mx - m + 1)%Z. rewrite row_list_length, Nat.sub_diag. cbn [repeat]. now rewrite app_nil_r.
Qed.

(** The two rows of a state. *)
Theorem token_row_ok : forall b sv acts dr, ntokens b <= length sv ->
  (forall i, i < ntokens b -> (0 <= nth i sv 0)%Z) -> (forall i j, i < ntokens b -> j < ntokens b -> nth i sv 0%Z = nth j sv 0%Z -> i = j) ->
  (forall a, In a acts -> live a = true -> a_sym a < ntokens b /\ 0 < a_num a) -> NoDup (map a_sym (filter live acts)) ->
  exists v1 v2, token_row b sv acts dr = Ok (v1, v2) /\ vec_ok v1 /\ vec_ok v2 /\
    (forall x t, In (x, t) (v_ent v1) <-> exists a, In a acts /\ live a = true /\ a_shift a = true /\ x = nth (a_sym a) sv 0%Z /\ t = Z.of_nat (a_num a)) /\
    (forall x t, In (x, t) (v_ent v2) <-> exists a, In a acts /\ live a = true /\ a_shift a = false /\ a_num a <> dr /\ x = nth (a_sym a) sv 0%Z /\ t = (Z.of_nat (a_num a) - 2)%Z).
Proof.
  intros b sv acts dr L S1 S2 H ND. unfold token_row.
  destruct (act_rows_ok (ntokens b) dr acts (repeat 0%Z (ntokens b)) (repeat 0%Z (ntokens b)) 0 0) as (sh & rd & E & L1 & L2 & R1 & R2).
  - apply repeat_length.
  - apply repeat_length.
  - intros a Ia La. destruct (H a Ia La). split; [auto|]. split; [auto|]. now rewrite !nth_repeat_same.
  - exact ND.
  - apply nz_repeat.
  - apply nz_repeat.
  - rewrite E. cbn [bind]. destruct (mk_row_ok sv 0 sh ltac:(lia)) as (w1 & E1). rewrite E1. cbn [bind].
    destruct (mk_row_ok sv RULE_NUM_OFFSET rd ltac:(lia)) as (w2 & E2). rewrite E2. cbn [bind]. eexists _, _. split; [reflexivity|]. cbn [v_ent].
    assert (VO : forall off row, length row = ntokens b -> vec_ok (mkVec (row_list sv off row 0) 0)).
    { intros off row Lr. split; cbn [v_ent].
      - intros [x t] I. apply row_list_in in I. destruct I as (j & y & E3 & _ & E4 & _). cbn. rewrite E4. apply S1. rewrite <- Lr. eapply nth_error_Some_lt; eauto.
      - apply row_list_NoDup. rewrite Lr. exact S2. }
    split; [exact (VO 0%Z sh L1)|]. split; [exact (VO RULE_NUM_OFFSET rd L2)|].
    assert (CASE : forall t, (exists a, In a acts /\ live a = true /\ a_sym a = t) \/ forall a, In a acts -> live a = true -> a_sym a <> t).
    { intros t. destruct (existsb (fun a => live a && (a_sym a =? t)) acts) eqn:D.
      - left. apply existsb_exists in D. destruct D as (a & I & D). apply andb_prop in D. destruct D as [D1 D2]. apply Nat.eqb_eq in D2. eauto.
      - right. intros a I La Ea. assert (Q : existsb (fun a => live a && (a_sym a =? t)) acts = true).
        { apply existsb_exists. exists a. split; [exact I|]. rewrite La, Ea, Nat.eqb_refl. reflexivity. } congruence. }
    split; intros x t; rewrite row_list_in; split.
    + intros (j & y & E3 & N & -> & ->). pose proof (nth_error_Some_nth _ _ _ _ 0%Z E3) as E4. destruct (CASE j) as [(a & I & La & <-)|C].
      * destruct (R2 a I La) as [Q _]. rewrite Q in E4. destruct (a_shift a) eqn:SA; [|congruence]. exists a. repeat split; auto. lia.
      * destruct (R1 j C) as [Q _]. rewrite Q, nth_repeat_same in E4. congruence.
    + intros (a & I & La & SA & -> & ->). destruct (R2 a I La) as [Q _]. rewrite SA in Q. destruct (H a I La) as [B1 B2].
      exists (a_sym a), (Z.of_nat (a_num a)). split; [rewrite <- Q; apply nth_error_nth'; lia|]. repeat split; lia.
    + intros (j & y & E3 & N & -> & ->). pose proof (nth_error_Some_nth _ _ _ _ 0%Z E3) as E4. destruct (CASE j) as [(a & I & La & <-)|C].
      * destruct (R2 a I La) as [_ Q]. rewrite Q in E4. destruct (a_shift a) eqn:SA; [cbn in E4; congruence|]. cbn [orb] in E4.
        destruct (Nat.eqb_spec (a_num a) dr); [congruence|]. exists a. repeat split; auto. unfold RULE_NUM_OFFSET. lia.
      * destruct (R1 j C) as [_ Q]. rewrite Q, nth_repeat_same in E4. congruence.
    + intros (a & I & La & SA & ND' & -> & ->). destruct (R2 a I La) as [_ Q]. rewrite SA in Q. cbn [orb] in Q. destruct (Nat.eqb_spec (a_num a) dr); [contradiction|].
      destruct (H a I La) as [B1 B2]. exists (a_sym a), (Z.of_nat (a_num a)). split; [rewrite <- Q; apply nth_error_nth'; lia|]. repeat split; unfold RULE_NUM_OFFSET; lia.
Qed.
