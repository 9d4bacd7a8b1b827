(** Proofs about conflict resolution and CompressTables used for the generated
    parser: which executable actions the final lists hold. *)
From Coq Require Import List Arith Bool NArith Lia Permutation Sorted.
Import ListNotations.
From Verif Require Import Base CLib SpecGrammar SpecGrammarFacts LemonSetModel LemonSortModel LemonStatesModel LemonActionModel
  LemonActionProof LemonCompressModel.
Local Open Scope res_scope.

(** * Resolution: error actions, untouched actions *)

Definition exec (a : action) : bool :=
  match a_type a with SHIFT | ACCEPT | REDUCE | SHIFTREDUCE => true | _ => false end.
Definition iserr (a : action) : bool := match a_type a with ERROR => true | _ => false end.

(** Among the actions on one symbol no reduce precedes a shift. *)
Definition shift_first (l : list action) : Prop :=
  forall i j a b, i < j -> nth_error l i = Some a -> nth_error l j = Some b -> a_sp a = a_sp b ->
    a_type b = SHIFT -> a_type a <> REDUCE.

Lemma relabel_SHIFT : forall a b, relabel a b -> a_type b = SHIFT -> a_type a = SHIFT.
Proof. intros a b (_ & _ & [E|(_ & L & _)]) T; [congruence|]. unfold live in L. rewrite T in L. discriminate. Qed.
Lemma relabel_REDUCE : forall a b, relabel a b -> a_type b = REDUCE -> a_type a = REDUCE.
Proof. intros a b (_ & _ & [E|(_ & L & _)]) T; [congruence|]. unfold live in L. rewrite T in L. discriminate. Qed.
Lemma relabel_ERROR : forall a b, relabel a b -> a_type b = ERROR -> a_type a = ERROR \/ a_type a = SHIFT.
Proof. intros a b (_ & _ & [E|(_ & _ & E)]) T; [left; congruence|right; auto]. Qed.

Lemma Forall2_nth : forall (A B : Type) (R : A -> B -> Prop) l l' i b, Forall2 R l l' -> nth_error l' i = Some b ->
  exists a, nth_error l i = Some a /\ R a b.
Proof.
  intros A B R l l' i b F. revert i. induction F as [|x y l l' H F IH]; intros [|i] E; try discriminate; simpl in *.
  - inversion E; subst. eauto.
  - apply IH; auto.
Qed.

Lemma shift_first_relabel : forall l l', Forall2 relabel l l' -> shift_first l -> shift_first l'.
Proof.
  intros l l' F H i j a b L Ha Hb E T R.
  destruct (Forall2_nth _ _ _ _ _ _ _ F Ha) as (a0 & Ha0 & Ra). destruct (Forall2_nth _ _ _ _ _ _ _ F Hb) as (b0 & Hb0 & Rb).
  apply (H i j a0 b0); auto.
  - destruct Ra as (<- & _), Rb as (<- & _). auto.
  - eapply relabel_SHIFT; eauto.
  - eapply relabel_REDUCE; eauto.
Qed.

Lemma shift_first_tail : forall a l, shift_first (a :: l) -> shift_first l.
Proof. intros a l H i j x y L. apply (H (S i) (S j) x y). lia. Qed.

Lemma act_le_shift_first : forall l, StronglySorted act_le l -> shift_first l.
Proof.
  intros l H. induction H as [|x l S1 IH F]; intros i j a b L Ha Hb E T R; [destruct i; discriminate|].
  destruct j as [|j]; [lia|]. destruct i as [|i]; simpl in *.
  - inversion Ha; subst x. rewrite Forall_forall in F. apply nth_error_In in Hb. specialize (F b Hb).
    unfold act_le in F. rewrite T, R in F. simpl in F. lia.
  - apply (IH i j a b); auto. lia.
Qed.

Lemma resolve_conflict_error : forall p ps x y x' y' n, resolve_conflict p ps x y = Ok (x', y', n) ->
  a_type x' = ERROR -> a_type x = ERROR \/ (a_type x = SHIFT /\ a_type y = REDUCE).
Proof.
  intros p ps [tx sx ax] [ty sy ay] x' y' n H T. unfold resolve_conflict in H. simpl in *.
  destruct (negb (sx =? sy)); [discriminate|].
  destruct tx, ty; simpl in H; try discriminate; auto;
  try (inversion H; subst; simpl in T; try discriminate; auto; fail);
  repeat match type of H with
  | bind (opt ?e) _ = _ => destruct e; cbn [opt bind] in H; try discriminate
  | match ?e with _ => _ end = _ => destruct e; try discriminate
  | (if ?e then _ else _) = _ => destruct e; try discriminate
  end; inversion H; subst; simpl in T; try discriminate; auto.
Qed.

Lemma resolve_conflict_shift2 : forall p ps x y x' y' n, resolve_conflict p ps x y = Ok (x', y', n) ->
  a_type x = SHIFT -> a_type y = SHIFT -> x' = x /\ a_type y' = SSCONFLICT.
Proof.
  intros p ps x y x' y' n H TX TY. unfold resolve_conflict in H. rewrite TX, TY in H.
  destruct (negb (a_sp x =? a_sp y)); [discriminate|]. inversion H; subst. auto.
Qed.

Lemma resolve_inner_error : forall p ps rest ap ap' rest' n, sp_sorted (ap :: rest) -> shift_first rest ->
  resolve_inner p ps ap rest = Ok (ap', rest', n) -> a_type ap' = ERROR ->
  a_type ap = ERROR \/ forall b, In b rest' -> a_sp b = a_sp ap -> a_type b <> SHIFT.
Proof.
  intros p ps. induction rest as [|nap r IH]; intros ap ap' rest' n SS SF H T; cbn [resolve_inner] in H.
  - inversion H; subst. right. intros b [].
  - unfold sp_sorted in SS. apply StronglySorted_inv in SS as (S1 & F1). pose proof S1 as S0. apply StronglySorted_inv in S1 as (S2 & F2).
    destruct (Nat.eqb_spec (a_sp nap) (a_sp ap)) as [En|En].
    + apply bind_Ok in H as ([[ap1 nap1] n1] & H1 & H). apply bind_Ok in H as ([[ap2 r2] m] & H2 & H). inversion H; subst ap2 rest'. clear H.
      pose proof (resolve_conflict_relabel _ _ _ _ _ _ _ H1) as (E1 & R1 & R2 & _).
      pose proof (resolve_inner_relabel _ _ _ _ _ _ _ H2) as (Q1 & Q2).
      assert (SP1 : a_sp ap1 = a_sp ap) by (destruct R1; auto).
      destruct (IH ap1 ap' r2 m) as [C|C]; [| |exact H2|exact T| |].
      * unfold sp_sorted. constructor; auto. inversion F1; subst. rewrite SP1. auto.
      * eapply shift_first_tail; eauto.
      * destruct (resolve_conflict_error _ _ _ _ _ _ _ H1 C) as [D|(D1 & D2)]; [auto|right].
        intros b [<-|Hb] E TB.
        -- apply (relabel_SHIFT _ _ R2) in TB. congruence.
        -- apply In_nth_error in Hb as (k & Hk). destruct (Forall2_nth _ _ _ _ _ _ _ Q2 Hk) as (b0 & Hb0 & Rb).
           apply (SF 0 (S k) nap b0); [lia|reflexivity|exact Hb0| | |exact D2].
           ++ destruct Rb as (Rb & _). congruence.
           ++ eapply relabel_SHIFT; eauto.
      * destruct (a_type ap) eqn:TA.
        2-11: left; destruct (relabel_ERROR _ _ (relabel_trans _ _ _ R1 Q1) T); congruence.
        right. intros b [<-|Hb] E TB; [|apply (C b Hb); congruence].
        pose proof (relabel_SHIFT _ _ R2 TB) as TN. destruct (resolve_conflict_shift2 _ _ _ _ _ _ _ H1 TA TN) as (_ & TS). congruence.
    + inversion H; subst. left. auto.
Qed.

(** At most one error action per symbol, by position. *)
Definition one_err (l : list action) : Prop :=
  forall i j a b, nth_error l i = Some a -> nth_error l j = Some b ->
    a_sp a = a_sp b -> a_type a = ERROR -> a_type b = ERROR -> i = j.

Lemma resolve_inner_noerr : forall p ps rest ap ap' rest' n, resolve_inner p ps ap rest = Ok (ap', rest', n) ->
  (forall b, In b rest -> a_type b <> ERROR) -> forall b, In b rest' -> a_type b <> ERROR.
Proof.
  intros p ps. induction rest as [|nap r IH]; intros ap ap' rest' n H NE b Hb; cbn [resolve_inner] in H.
  - inversion H; subst. destruct Hb.
  - destruct (a_sp nap =? a_sp ap).
    + apply bind_Ok in H as ([[ap1 nap1] n1] & H1 & H). apply bind_Ok in H as ([[ap2 r2] m] & H2 & H). inversion H; subst ap2 rest'. clear H.
      destruct Hb as [<-|Hb]; [|apply (IH _ _ _ _ H2); auto; intros; apply NE; right; auto].
      destruct (resolve_conflict_spec _ _ _ _ _ _ _ H1) as [(_ & _ & _ & _ & C)|(C & _)]; [exact C|].
      exfalso. apply (NE nap (or_introl eq_refl) C).
    + inversion H; subst. auto.
Qed.

Lemma resolve_list_one_err : forall f p ps l l' n, sp_sorted l -> shift_first l ->
  (forall b, In b l -> a_type b <> ERROR) ->
  resolve_list f p ps l = Ok (l', n) -> one_err l'.
Proof.
  induction f as [|f IH]; intros p ps [|ap rest] l' n SS SF NE H; cbn [resolve_list] in H; try discriminate.
  1, 2: inversion H; subst; intros [|i] j a b Hi; discriminate.
  apply bind_Ok in H as ([[ap1 rest1] n1] & H1 & H). apply bind_Ok in H as ([rest2 m] & H2 & H). inversion H; subst l'. clear H.
  pose proof (resolve_inner_relabel _ _ _ _ _ _ _ H1) as (A & B). pose proof (resolve_list_relabel _ _ _ _ _ _ H2) as RL.
  pose proof (StronglySorted_inv SS) as (S0 & _).
  assert (NE1 : forall b, In b rest1 -> a_type b <> ERROR).
  { eapply resolve_inner_noerr; eauto. intros; apply NE; right; auto. }
  assert (ONE : one_err rest2).
  { apply (IH p ps rest1 rest2 m); auto.
    - eapply sp_sorted_relabel; eauto.
    - eapply shift_first_relabel; eauto. eapply shift_first_tail; eauto. }
  assert (HD : forall j b, nth_error rest2 j = Some b -> a_sp b = a_sp ap -> a_type ap1 = ERROR -> a_type b = ERROR -> False).
  { intros j b Hb E T1 T2. destruct (resolve_inner_error p ps rest ap ap1 rest1 n1 SS (shift_first_tail _ _ SF) H1 T1) as [C|C].
    - apply (NE ap (or_introl eq_refl) C).
    - destruct (Forall2_nth _ _ _ _ _ _ _ RL Hb) as (b0 & Hb0 & R0). apply nth_error_In in Hb0.
      destruct (relabel_ERROR _ _ R0 T2) as [D|D]; [apply (NE1 b0 Hb0 D)|]. apply (C b0 Hb0); auto.
      destruct R0 as (R0 & _). congruence. }
  assert (SP1 : a_sp ap1 = a_sp ap) by (destruct A; auto).
  intros [|i] [|j] a b Ha Hb E T1 T2; simpl in *; auto.
  - inversion Ha; subst a. exfalso. apply (HD j b); auto. congruence.
  - inversion Hb; subst b. exfalso. apply (HD i a); auto. congruence.
  - f_equal. eapply ONE; eauto.
Qed.

(** An action whose symbol has no other action is not touched. *)
Definition alone (l : list action) (i : nat) : Prop :=
  forall j a b, j <> i -> nth_error l i = Some a -> nth_error l j = Some b -> a_sp a <> a_sp b.

Lemma resolve_inner_other : forall p ps rest ap ap' rest' n i a, resolve_inner p ps ap rest = Ok (ap', rest', n) ->
  nth_error rest i = Some a -> a_sp a <> a_sp ap -> nth_error rest' i = Some a.
Proof.
  intros p ps. induction rest as [|nap r IH]; intros ap ap' rest' n i a H Hi N; cbn [resolve_inner] in H.
  - destruct i; discriminate.
  - destruct (Nat.eqb_spec (a_sp nap) (a_sp ap)) as [E|E].
    + apply bind_Ok in H as ([[ap1 nap1] n1] & H1 & H). apply bind_Ok in H as ([[ap2 r2] m] & H2 & H). inversion H; subst ap2 rest'. clear H.
      destruct i as [|i]; simpl in *; [inversion Hi; subst; congruence|].
      apply (IH _ _ _ _ i a H2 Hi). apply resolve_conflict_relabel in H1 as (_ & (R1 & _) & _). congruence.
    + inversion H; subst. auto.
Qed.

Lemma resolve_inner_alone : forall p ps rest ap ap' rest' n, resolve_inner p ps ap rest = Ok (ap', rest', n) ->
  (forall b, In b rest -> a_sp b <> a_sp ap) -> ap' = ap.
Proof.
  intros p ps [|nap r] ap ap' rest' n H N; cbn [resolve_inner] in H; [inversion H; auto|].
  destruct (Nat.eqb_spec (a_sp nap) (a_sp ap)) as [E|E]; [|inversion H; auto]. now elim (N nap (or_introl eq_refl)).
Qed.

Lemma alone_relabel : forall l l' i, Forall2 relabel l l' -> alone l i -> alone l' i.
Proof.
  intros l l' i F H j a b N Ha Hb.
  destruct (Forall2_nth _ _ _ _ _ _ _ F Ha) as (a0 & Ha0 & (Ra & _)). destruct (Forall2_nth _ _ _ _ _ _ _ F Hb) as (b0 & Hb0 & (Rb & _)).
  rewrite Ra, Rb. apply (H j a0 b0); auto.
Qed.

Lemma resolve_list_alone : forall f p ps l l' n i a, resolve_list f p ps l = Ok (l', n) ->
  nth_error l i = Some a -> alone l i -> nth_error l' i = Some a.
Proof.
  induction f as [|f IH]; intros p ps [|ap rest] l' n i a H Hi AL; cbn [resolve_list] in H; try discriminate;
    try (destruct i; discriminate).
  apply bind_Ok in H as ([[ap1 rest1] n1] & H1 & H). apply bind_Ok in H as ([rest2 m] & H2 & H). inversion H; subst l'. clear H.
  destruct i as [|i]; simpl in *.
  - inversion Hi; subst a. f_equal. eapply resolve_inner_alone; eauto. intros b Hb E.
    apply In_nth_error in Hb as (k & Hk). apply (AL (S k) ap b); auto.
  - assert (N : a_sp a <> a_sp ap) by (apply (AL 0 a ap); auto).
    pose proof (resolve_inner_other _ _ _ _ _ _ _ i a H1 Hi N) as Hi1.
    apply (IH p ps rest1 rest2 m i a H2 Hi1). eapply alone_relabel; [eapply resolve_inner_relabel; eauto|].
    intros j x y NJ Hx Hy. apply (AL (S j) x y); auto.
Qed.

Lemma resolve_conflict_nosr : forall p ps x y x' y' n, resolve_conflict p ps x y = Ok (x', y', n) ->
  (a_type x' = SHIFTREDUCE -> a_type x = SHIFTREDUCE) /\ (a_type y' = SHIFTREDUCE -> a_type y = SHIFTREDUCE).
Proof.
  intros p ps [tx sx ax] [ty sy ay] x' y' n H. unfold resolve_conflict in H. simpl in *.
  destruct (negb (sx =? sy)); [discriminate|].
  destruct tx, ty; simpl in H; try discriminate;
  repeat match type of H with
  | bind (opt ?e) _ = _ => destruct e; cbn [opt bind] in H; try discriminate
  | match ?e with _ => _ end = _ => destruct e; try discriminate
  | (if ?e then _ else _) = _ => destruct e; try discriminate
  end; inversion H; subst; simpl; split; try discriminate; auto.
Qed.

Lemma resolve_inner_nosr : forall p ps rest ap ap' rest' n, resolve_inner p ps ap rest = Ok (ap', rest', n) ->
  (forall b, In b (ap :: rest) -> a_type b <> SHIFTREDUCE) -> forall b, In b (ap' :: rest') -> a_type b <> SHIFTREDUCE.
Proof.
  intros p ps. induction rest as [|nap r IH]; intros ap ap' rest' n H NE b Hb; cbn [resolve_inner] in H.
  - inversion H; subst. auto.
  - destruct (a_sp nap =? a_sp ap); [|inversion H; subst; auto].
    apply bind_Ok in H as ([[ap1 nap1] n1] & H1 & H). apply bind_Ok in H as ([[ap2 r2] m] & H2 & H). inversion H; subst ap2 rest'. clear H.
    destruct (resolve_conflict_nosr _ _ _ _ _ _ _ H1) as (N1 & N2).
    assert (G : forall b, In b (ap' :: r2) -> a_type b <> SHIFTREDUCE).
    { apply (IH _ _ _ _ H2). intros c [<-|Hc] T; [apply (NE ap); simpl; auto|apply (NE c); simpl; auto]. }
    destruct Hb as [<-|[<-|Hb]]; [apply G; left; auto| |apply G; right; auto].
    intros T. apply (NE nap); [right; left; auto|auto].
Qed.

Lemma resolve_list_nosr : forall f p ps l l' n, resolve_list f p ps l = Ok (l', n) ->
  (forall b, In b l -> a_type b <> SHIFTREDUCE) -> forall b, In b l' -> a_type b <> SHIFTREDUCE.
Proof.
  induction f as [|f IH]; intros p ps [|ap rest] l' n H NE b Hb; cbn [resolve_list] in H; try discriminate.
  1, 2: inversion H; subst; destruct Hb.
  apply bind_Ok in H as ([[ap1 rest1] n1] & H1 & H). apply bind_Ok in H as ([rest2 m] & H2 & H). inversion H; subst l'. clear H.
  pose proof (resolve_inner_nosr _ _ _ _ _ _ _ H1 NE) as G.
  destruct Hb as [<-|Hb]; [apply G; left; auto|]. apply (IH _ _ _ _ _ H2); auto. intros; apply G; right; auto.
Qed.

(** * Counting by symbol *)

Lemma NoDup_filter_pos : forall (f : action -> bool) l,
  (forall i j a b, nth_error l i = Some a -> nth_error l j = Some b -> a_sp a = a_sp b -> f a = true -> f b = true -> i = j) ->
  NoDup (map a_sp (filter f l)).
Proof.
  intros f l. induction l as [|x l IH]; intros H; [constructor|]. cbn [filter].
  assert (T : NoDup (map a_sp (filter f l))).
  { apply IH. intros i j a b Ha Hb E Fa Fb. assert (S i = S j) by (eapply H; eauto). lia. }
  destruct (f x) eqn:FX; auto. simpl. constructor; auto. intros C. apply in_map_iff in C as (y & E & Hy).
  apply filter_In in Hy as (Hy & FY). apply In_nth_error in Hy as (k & Hk).
  assert (0 = S k) by (eapply (H 0 (S k) x y); eauto). discriminate.
Qed.

Definition uniq (l : list action) : Prop :=
  NoDup (map a_sp (filter exec l)) /\ NoDup (map a_sp (filter iserr l)).

Lemma NoDup_perm : forall (A : Type) (l l' : list A), Permutation l l' -> NoDup l -> NoDup l'.
Proof. intros A l l' P. apply Permutation_NoDup; auto. Qed.

Lemma Permutation_filter : forall (A : Type) (f : A -> bool) l l', Permutation l l' -> Permutation (filter f l) (filter f l').
Proof.
  intros A f l l' H. induction H; simpl; auto.
  - destruct (f x); auto.
  - destruct (f x), (f y); auto. constructor.
  - eapply Permutation_trans; eauto.
Qed.

Lemma uniq_perm : forall l l', Permutation l l' -> uniq l -> uniq l'.
Proof.
  intros l l' P (A & B). split; [apply NoDup_perm with (2 := A)|apply NoDup_perm with (2 := B)]; apply Permutation_map, Permutation_filter; auto.
Qed.

Lemma uniq_exec : forall l a b, uniq l -> In a l -> In b l -> exec a = true -> exec b = true -> a_sp a = a_sp b -> a = b.
Proof.
  intros l a b (U & _). induction l as [|x l IH]; intros Ha Hb Ea Eb E; [destruct Ha|]. cbn [filter] in U.
  destruct (exec x) eqn:EX.
  - simpl in U. inversion U as [|? ? U1 U2]; subst.
    assert (G : forall y, In y l -> exec y = true -> a_sp y <> a_sp x).
    { intros y Hy Ey C. apply U1. rewrite <- C. apply in_map. apply filter_In. auto. }
    destruct Ha as [<-|Ha], Hb as [<-|Hb]; auto; exfalso; eapply G; eauto.
  - destruct Ha as [<-|Ha]; [congruence|]. destruct Hb as [<-|Hb]; [congruence|]. auto.
Qed.

(** * First pass *)

Lemma find_best_In : forall g w l n0 r0 u0 n r u, find_best g w l n0 r0 u0 = (n, Some r, u) ->
  (r0 <> Some r \/ n <> n0) -> lhsStart g r = false /\ exists a, In a l /\ is_reduce a r = true.
Proof.
  intros g w. induction l as [|x l IH]; intros n0 r0 u0 n r u H N; cbn [find_best] in H.
  - inversion H; subst. destruct N; congruence.
  - destruct (a_type x) eqn:T;
    try (destruct (IH _ _ _ _ _ _ H N) as (A & a & B & C); split; [auto|]; exists a; split; [right|]; auto; fail).
    destruct (lhsStart g (a_arg x)) eqn:LS; [destruct (IH _ _ _ _ _ _ H N) as (A & a & B & C); split; [auto|]; exists a; split; [right|]; auto|].
    destruct (match r0 with Some b => a_arg x =? b | None => false end);
      [destruct (IH _ _ _ _ _ _ H N) as (A & a & B & C); split; [auto|]; exists a; split; [right|]; auto|].
    destruct (n0 <? S (length (filter (fun a => is_reduce a (a_arg x)) l))) eqn:LT;
      [|destruct (IH _ _ _ _ _ _ H N) as (A & a & B & C); split; [auto|]; exists a; split; [right|]; auto].
    destruct (Nat.eq_dec (a_arg x) r) as [E|E].
    + subst r. split; auto. exists x. split; [left; auto|]. unfold is_reduce. rewrite T. apply Nat.eqb_refl.
    + destruct (IH _ _ _ _ _ _ H) as (A & a & B & C); [left; congruence|]. split; [auto|]. exists a. split; [right|]; auto.
Qed.

Lemma is_reduce_iff : forall a r, is_reduce a r = true <-> a_type a = REDUCE /\ a_arg a = r.
Proof.
  intros a r. unfold is_reduce. destruct (a_type a); split; try discriminate; try (intros (? & _); discriminate).
  - intros H. apply Nat.eqb_eq in H. auto.
  - intros (_ & H). apply Nat.eqb_eq; auto.
Qed.

Lemma make_default_spec : forall d r l l1, make_default d r l = Ok l1 ->
  length l1 = length l /\ In (mkAction REDUCE d r) l1 /\
  (forall a, In a l1 -> exec a = true -> a = mkAction REDUCE d r \/ In a l /\ is_reduce a r = false) /\
  (forall a, In a l -> is_reduce a r = false -> In a l1) /\
  (forall a, iserr a = true -> (In a l1 <-> In a l)) /\
  map a_sp (filter iserr l1) = map a_sp (filter iserr l) /\
  ((forall a, In a l -> a_sp a <> d) -> NoDup (map a_sp (filter exec l)) -> NoDup (map a_sp (filter exec l1))) /\
  (forall a, In a l1 -> a_sp a = d \/ In (a_sp a) (map a_sp l)).
Proof.
  intros d r. induction l as [|x l IH]; intros l1 H; cbn [make_default] in H; [discriminate|].
  destruct (is_reduce x r) eqn:R.
  - inversion H; subst l1. clear H IH. apply is_reduce_iff in R as (T & AR).
    assert (DE : forall a, exec (drop_reduce r a) = true -> drop_reduce r a = a /\ is_reduce a r = false).
    { intros a E. unfold drop_reduce in *. destruct (is_reduce a r); [discriminate|auto]. }
    assert (DI : forall a, iserr (drop_reduce r a) = iserr a /\ (iserr a = true -> drop_reduce r a = a)).
    { intros a. unfold drop_reduce. destruct (is_reduce a r) eqn:E; [|auto]. apply is_reduce_iff in E as (E & _).
      unfold iserr. simpl. rewrite E. split; [auto|discriminate]. }
    assert (DS : forall a, a_sp (drop_reduce r a) = a_sp a) by (intros a; unfold drop_reduce; destruct (is_reduce a r); auto).
    assert (SUB : forall a, In a (filter exec (map (drop_reduce r) l)) -> In a (filter exec l)).
    { intros a Ha. apply filter_In in Ha as (Ha & E). apply in_map_iff in Ha as (b & <- & Hb).
      destruct (DE b E) as (-> & _). apply filter_In. split; auto. destruct (DE b E) as (E1 & _). congruence. }
    split; [simpl; now rewrite map_length|]. split; [left; auto|]. split; [|split; [|split; [|split; [|split]]]].
    + intros a [<-|Ha] E; [auto|right]. apply in_map_iff in Ha as (b & <- & Hb). destruct (DE b E) as (-> & D). split; [right; auto|auto].
    + intros a [<-|Ha] N; [exfalso; assert (is_reduce x r = true) by (apply is_reduce_iff; auto); congruence|].
      right. apply in_map_iff. exists a. split; auto. unfold drop_reduce. rewrite N. auto.
    + intros a E. simpl. rewrite in_map_iff. split.
      * intros [<-|(b & <- & Hb)]; [discriminate|]. destruct (DI b) as (D1 & D2). rewrite D2 by congruence. auto.
      * intros [<-|Hb]; [unfold iserr in E; rewrite T in E; discriminate|]. right. exists a. split; [apply DI; auto|auto].
    + cbn [filter]. unfold iserr at 1. cbn [a_type]. assert (X : iserr x = false) by (unfold iserr; rewrite T; auto). rewrite X.
      clear - DI DS. induction l as [|b l IH]; auto. cbn [map filter]. destruct (DI b) as (-> & _). destruct (iserr b); [|auto].
      simpl. rewrite DS, IH. auto.
    + intros NS ND. cbn [filter] in *. assert (X : exec x = true) by (unfold exec; rewrite T; auto). rewrite X in ND.
      cbn [exec a_type]. clear AR. simpl in *. inversion ND as [|? ? N1 N2]; subst. constructor.
      * intros C. apply in_map_iff in C as (b & E & Hb). apply SUB in Hb. apply filter_In in Hb as (Hb & _).
        apply (NS b (or_intror Hb) E).
      * clear - N2 DE DS. induction l as [|b l IH]; [constructor|]. cbn [map filter] in *.
        destruct (exec (drop_reduce r b)) eqn:E.
        -- destruct (DE b E) as (E1 & E2). rewrite E1 in *. rewrite E in N2. simpl in *. inversion N2 as [|? ? M1 M2]; subst.
           constructor; auto. intros C. apply M1. apply in_map_iff in C as (c & <- & Hc).
           apply in_map. apply filter_In in Hc as (Hc & Ec). apply in_map_iff in Hc as (e & <- & He). apply filter_In.
           destruct (DE e Ec) as (-> & _). split; auto. destruct (DE e Ec) as (E3 & _). congruence.
        -- destruct (exec b); [inversion N2; auto|auto].
    + intros a [<-|Ha]; [left; auto|right]. apply in_map_iff in Ha as (b & <- & Hb). rewrite DS. right. apply in_map; auto.
  - apply bind_Ok in H as (l2 & H & E). inversion E; subst l1. clear E.
    destruct (IH _ H) as (L & A & B & C & D & EE & F & G).
    split; [simpl; congruence|]. split; [right; auto|]. split; [|split; [|split; [|split; [|split]]]].
    + intros a [<-|Ha] E; [right; split; [left|]; auto|]. destruct (B a Ha E) as [->|(P & Q)]; [left; auto|right; split; [right|]; auto].
    + intros a [<-|Ha] E; [left; auto|right; auto].
    + intros a E. simpl. rewrite (D a E). tauto.
    + cbn [filter]. destruct (iserr x); simpl; congruence.
    + intros NS ND. cbn [filter] in *. destruct (exec x) eqn:EX; [|apply F; auto; intros; apply NS; right; auto].
      simpl in *. inversion ND as [|? ? N1 N2]; subst. constructor; [|apply F; auto].
      intros C1. apply in_map_iff in C1 as (b & E & Hb). apply filter_In in Hb as (Hb & Eb).
      destruct (B b Hb Eb) as [->|(P & Q)].
      * simpl in E. apply (NS x (or_introl eq_refl)). auto.
      * apply N1. rewrite <- E. apply in_map. apply filter_In. auto.
    + intros a [<-|Ha]; [right; left; auto|]. destruct (G a Ha) as [G1|G1]; [auto|right; right; auto].
Qed.

Lemma make_default_nonexec : forall d r l l1, make_default d r l = Ok l1 ->
  forall a, In a l1 -> exec a = false -> exists b, In b l /\ a_sp b = a_sp a /\ (exec b = false \/ a_type b = REDUCE).
Proof.
  intros d r. induction l as [|x l IH]; intros l1 H a Ha E; cbn [make_default] in H; [discriminate|].
  destruct (is_reduce x r) eqn:R.
  - inversion H; subst l1. destruct Ha as [<-|Ha]; [discriminate|]. apply in_map_iff in Ha as (b & <- & Hb).
    exists b. split; [right; auto|]. unfold drop_reduce in *. destruct (is_reduce b r) eqn:R2; [|auto].
    apply is_reduce_iff in R2 as (R2 & _). auto.
  - apply bind_Ok in H as (l2 & H & E2). inversion E2; subst l1. destruct Ha as [<-|Ha]; [exists x; split; [left|]; auto|].
    destruct (IH _ H a Ha E) as (b & Hb & Q). exists b. split; [right|]; auto.
Qed.

(** What the first pass leaves of a list whose symbols are grammar symbols. *)
Record pass1 (g : grammar) (l l2 : list action) (auto : option nat) : Prop := {
  p1_uniq : uniq l -> uniq l2;
  p1_exec : forall a, In a l2 -> exec a = true -> In a l \/
    exists r, a = mkAction REDUCE (g_nsym g) r /\ lhsStart g r = false /\ exists t, In (mkAction REDUCE t r) l;
  p1_keep : forall a, In a l -> exec a = true -> In a l2 \/
    a_type a = REDUCE /\ In (mkAction REDUCE (g_nsym g) (a_arg a)) l2;
  p1_err : forall a, iserr a = true -> (In a l2 <-> In a l);
  p1_auto : forall r, auto = Some r -> In (mkAction REDUCE (g_nsym g) r) l2 /\
    forall a, In a l -> a_type a <> SHIFT /\ (a_type a = REDUCE -> a_arg a = r);
  p1_sp : forall a, In a l2 -> a_sp a = g_nsym g \/ In (a_sp a) (map a_sp l);
  p1_nonexec : forall a, In a l2 -> exec a = false -> exists b, In b l /\ a_sp b = a_sp a /\ (exec b = false \/ a_type b = REDUCE);
  p1_len : length l2 = length l
}.

Lemma compress1_spec : forall g w addr l l2 auto, (forall a, In a l -> a_sp a < g_nsym g) ->
  (N.of_nat (length l) < 2 ^ 30)%N ->
  compress1 g w addr l = Ok (l2, auto) -> pass1 g l l2 auto.
Proof.
  intros g w addr l l2 auto SP SZ H. unfold compress1 in H.
  assert (TRIV : pass1 g l l None).
  { constructor; auto; try discriminate. - tauto. - intros a Ha. right. apply in_map; auto. - intros a Ha E. exists a. auto. }
  destruct (find_best g w l 0 None false) as [[nb [r|]] uw] eqn:FB; [|inversion H; subst; auto].
  destruct ((nb <? 1) || uw); [inversion H; subst; auto|].
  apply bind_Ok in H as (l1 & MD & H). inversion H; subst l2. clear H.
  destruct (find_best_In _ _ _ _ _ _ _ _ _ FB) as (LS & b & Hb & Rb); [left; discriminate|].
  destruct (make_default_spec _ _ _ _ MD) as (L & A & B & C & D & EE & F & G).
  pose proof (Action_sort_perm addr l1) as P. rewrite L in P. specialize (P SZ).
  assert (IN : forall a, In a (Action_sort addr l1) <-> In a l1).
  { intros a. split; apply Permutation_in; auto using Permutation_sym. }
  constructor.
  - intros (U1 & U2). eapply uniq_perm; [apply Permutation_sym; exact P|]. split.
    + apply F; auto. intros a Ha E. specialize (SP a Ha). lia.
    + rewrite EE. auto.
  - intros a Ha E. apply IN in Ha. destruct (B a Ha E) as [->|(Q & _)]; [right|auto].
    exists r. split; auto. split; auto. exists (a_sp b). apply is_reduce_iff in Rb as (T & <-). destruct b; simpl in *; subst; auto.
  - intros a Ha E. rewrite !IN. destruct (is_reduce a r) eqn:R; [|left; auto]. apply is_reduce_iff in R as (T & <-). auto.
  - intros a E. rewrite IN. auto.
  - intros r' E. destruct (existsb (keeps r) (Action_sort addr l1)) eqn:EX; inversion E; subst r'.
    split; [apply IN; auto|]. intros a Ha.
    assert (K : keeps r a = true -> In a l1 -> False).
    { intros K I. assert (existsb (keeps r) (Action_sort addr l1) = true); [|congruence].
      apply existsb_exists. exists a. split; [apply IN|]; auto. }
    unfold keeps in K. split.
    + intros T. apply K; [rewrite T; auto|]. apply C; auto. unfold is_reduce. rewrite T. auto.
    + intros T. destruct (Nat.eq_dec (a_arg a) r) as [Q|Q]; auto. exfalso. apply K.
      * rewrite T. apply Nat.eqb_neq in Q. rewrite Q. auto.
      * apply C; auto. unfold is_reduce. rewrite T. apply Nat.eqb_neq. auto.
  - intros a Ha. apply IN in Ha. auto.
  - intros a Ha. apply IN in Ha. revert Ha. eapply make_default_nonexec; eauto.
  - rewrite (Permutation_length P). auto.
Qed.

Lemma compress1_all_nth : forall g w addr aps q xs, compress1_all g w addr q aps = Ok xs ->
  length xs = length aps /\ forall i l, nth_error aps i = Some l ->
    exists x, nth_error xs i = Some x /\ compress1 g w (addr (q + i)) l = Ok x.
Proof.
  intros g w addr. induction aps as [|l aps IH]; intros q xs H; cbn [compress1_all] in H.
  - inversion H; subst. split; auto. intros [|i] l E; discriminate.
  - apply bind_Ok in H as (x & H1 & H). apply bind_Ok in H as (ys & H2 & H). inversion H; subst xs.
    destruct (IH _ _ H2) as (L & P). split; [simpl; congruence|]. intros [|i] l' E; simpl in *.
    + inversion E; subst l'. exists x. rewrite Nat.add_0_r. auto.
    + destruct (P i l' E) as (y & Y1 & Y2). exists y. replace (q + S i) with (S q + i) by lia. auto.
Qed.

(** * Second pass *)

Lemma shiftreduce_sp : forall auto a, a_sp (shiftreduce auto a) = a_sp a.
Proof. intros auto a. unfold shiftreduce. destruct (a_type a); auto. destruct (auto (a_arg a)); auto. Qed.

Lemma shiftreduce_exec : forall auto a, exec (shiftreduce auto a) = exec a.
Proof.
  intros auto a. unfold shiftreduce, exec. destruct (a_type a) eqn:T; try (rewrite T; auto).
  destruct (auto (a_arg a)); simpl; auto. rewrite T. auto.
Qed.

Lemma shiftreduce_err : forall auto a, iserr (shiftreduce auto a) = iserr a.
Proof.
  intros auto a. unfold shiftreduce, iserr. destruct (a_type a) eqn:T; try (rewrite T; auto).
  destruct (auto (a_arg a)); simpl; auto. rewrite T. auto.
Qed.

Lemma map_filter_same : forall (f : action -> bool) (h : action -> action) l, (forall a, a_sp (h a) = a_sp a) ->
  (forall a, f (h a) = f a) -> map a_sp (filter f (map h l)) = map a_sp (filter f l).
Proof.
  intros f h l S1 S2. induction l as [|a l IH]; auto. cbn [map filter]. rewrite S2. destruct (f a); auto. simpl. rewrite S1, IH. auto.
Qed.

Lemma shiftreduce_uniq : forall auto l, uniq l -> uniq (map (shiftreduce auto) l).
Proof.
  intros auto l (A & B). split; rewrite map_filter_same; auto using shiftreduce_sp, shiftreduce_exec, shiftreduce_err.
Qed.

(** * Third pass *)

Lemma find_lhs_In : forall l k i s a, find_lhs l k i s = Some a -> In a l /\ a_sp a = s.
Proof.
  induction l as [|x l IH]; intros k i s a H; cbn [find_lhs] in H; [discriminate|].
  destruct ((k =? i) || negb (a_sp x =? s)) eqn:E.
  - destruct (IH _ _ _ _ H). split; [right|]; auto.
  - inversion H; subst. split; [left; auto|]. apply orb_false_iff in E as (_ & E). apply negb_false_iff, Nat.eqb_eq in E. auto.
Qed.

Lemma upd_In : forall (A : Type) (l : list A) i x y, In y (upd l i x) -> y = x \/ In y l.
Proof.
  induction l as [|a l IH]; intros [|i] x y H; simpl in *; try tauto.
  - destruct H; auto.
  - destruct H as [H|H]; auto. destruct (IH _ _ _ H); auto.
Qed.

Lemma map_sp_upd : forall l i ap (f : action -> bool) t, nth_error l i = Some ap -> f ap = true ->
  f (mkAction (a_type t) (a_sp ap) (a_arg t)) = true ->
  map a_sp (filter f (upd l i (mkAction (a_type t) (a_sp ap) (a_arg t)))) = map a_sp (filter f l).
Proof.
  induction l as [|x l IH]; intros [|i] ap f t E F1 F2; simpl in *; try discriminate.
  - inversion E; subst. rewrite F1, F2. auto.
  - destruct (f x); simpl; rewrite (IH i ap f t E F1 F2); auto.
Qed.

Lemma filter_upd_false : forall l i ap (f : action -> bool) b, nth_error l i = Some ap -> f ap = false -> f b = false ->
  filter f (upd l i b) = filter f l.
Proof.
  induction l as [|x l IH]; intros [|i] ap f b E F1 F2; simpl in *; try discriminate.
  - inversion E; subst. rewrite F1, F2. auto.
  - rewrite (IH i ap f b E F1 F2). auto.
Qed.

(** The third pass with an invariant [P] on the executable actions. *)
Lemma unit_loop_ind : forall g ri (P : action -> Prop),
  (forall ap ap2 rp, P ap -> P ap2 -> a_type ap = SHIFTREDUCE -> ri_noCode ri (a_arg ap) = true ->
     nth_error (g_rules g) (a_arg ap) = Some rp -> length (r_rhs rp) = 1 -> g_nterm g <= a_sp ap -> a_sp ap2 = r_lhs rp ->
     exec ap2 = true -> P (mkAction (a_type ap2) (a_sp ap) (a_arg ap2))) ->
  forall fuel l i l', unit_loop fuel g ri l i = Ok l' ->
  (forall a, In a l -> g_nterm g <= a_sp a -> exec a = true) ->
  (forall r, In r (g_rules g) -> g_nterm g <= r_lhs r) ->
  (forall a, In a l -> exec a = true -> P a) -> 
  (forall a, In a l' -> exec a = true -> P a) /\
  map a_sp (filter exec l') = map a_sp (filter exec l) /\ filter iserr l' = filter iserr l /\
  (forall a, In a l' -> g_nterm g <= a_sp a -> exec a = true) /\
  (forall a, a_sp a < g_nterm g \/ exec a = false \/ a_type a = REDUCE -> In a l -> In a l') /\
  (forall a, exec a = false \/ a_sp a < g_nterm g -> In a l' -> In a l).
Proof.
  intros g ri P STEP. induction fuel as [|f IH]; intros l i l' H NT RL PA; cbn [unit_loop] in H.
  - destruct (nth_error l i); [discriminate|]. inversion H; subst. auto 12.
  - destruct (nth_error l i) as [ap|] eqn:EI; [|inversion H; subst; auto 12].
    assert (NEXT : unit_loop f g ri l (S i) = Ok l' ->
      (forall a, In a l' -> exec a = true -> P a) /\
      map a_sp (filter exec l') = map a_sp (filter exec l) /\ filter iserr l' = filter iserr l /\
      (forall a, In a l' -> g_nterm g <= a_sp a -> exec a = true) /\
      (forall a, a_sp a < g_nterm g \/ exec a = false \/ a_type a = REDUCE -> In a l -> In a l') /\
      (forall a, exec a = false \/ a_sp a < g_nterm g -> In a l' -> In a l)).
    { intros H1. apply (IH _ _ _ H1); auto. }
    destruct (a_type ap) eqn:T; auto.
    apply bind_Ok in H as (rp & HR & H). destruct (nth_error (g_rules g) (a_arg ap)) as [rp'|] eqn:ER; inversion HR; subst rp'. clear HR.
    destruct (ri_noCode ri (a_arg ap)) eqn:NC; cbn [negb] in H; auto.
    destruct (Nat.eqb_spec (length (r_rhs rp)) 1) as [LR|LR]; cbn [negb] in H; auto.
    destruct (Nat.ltb_spec (a_sp ap) (g_nterm g)) as [LT|LT]; auto.
    apply bind_Ok in H as (ap2 & HF & H). destruct (find_lhs l 0 i (r_lhs rp)) as [ap2'|] eqn:EF; inversion HF; subst ap2'. clear HF.
    apply find_lhs_In in EF as (I2 & S2).
    assert (X2 : exec ap2 = true). { apply NT; auto. rewrite S2. apply RL. eapply nth_error_In; eauto. }
    assert (X1 : exec ap = true) by (unfold exec; rewrite T; auto).
    pose proof (nth_error_In _ _ EI) as I1.
    set (na := mkAction (a_type ap2) (a_sp ap) (a_arg ap2)) in *.
    assert (XN : exec na = true) by exact X2.
    assert (EN : iserr na = false) by (unfold iserr, na, exec in *; simpl; destruct (a_type ap2); auto; discriminate).
    assert (E1 : iserr ap = false) by (unfold iserr; rewrite T; auto).
    destruct (IH _ _ _ H) as (A & B & C & D & E & F).
    + intros a Ha LE. apply upd_In in Ha as [->|Ha]; auto.
    + auto.
    + intros a Ha XA. apply upd_In in Ha as [->|Ha]; auto. apply (STEP ap ap2 rp); auto.
    + assert (UN : forall a, In a l -> a <> ap -> In a (upd l i na)).
      { intros a Ha N. clear - EI Ha N. revert i EI. induction l as [|x l IHl]; intros [|i] EI; simpl in *; try discriminate.
        - inversion EI; subst. destruct Ha; [congruence|auto].
        - destruct Ha as [Ha|Ha]; [auto|]. right. apply IHl; auto. }
      split; auto. split; [rewrite B; unfold na; apply map_sp_upd; auto|]. split; [rewrite C; apply filter_upd_false with (ap := ap); auto|].
      split; auto. split.
      * intros a HA Ha. apply E; auto. apply UN; auto. intros ->.
        destruct HA as [HA|[HA|HA]]; [lia|congruence|congruence].
      * intros a HA Ha. apply F in Ha; auto. apply upd_In in Ha as [->|Ha]; auto.
        destruct HA as [HA|HA]; [congruence|]. unfold na in HA. simpl in HA. lia.
Qed.

Lemma unit_all_nth : forall fuel g ri xs ys, unit_all fuel g ri xs = Ok ys ->
  length ys = length xs /\ forall i l a, nth_error xs i = Some (l, a) ->
    exists l', nth_error ys i = Some (l', a) /\ unit_loop fuel g ri l 0 = Ok l'.
Proof.
  intros fuel g ri. induction xs as [|[l a] xs IH]; intros ys H; cbn [unit_all] in H.
  - inversion H; subst. split; auto. intros [|i] l a E; discriminate.
  - apply bind_Ok in H as (l1 & H1 & H). apply bind_Ok in H as (r1 & H2 & H). inversion H; subst ys.
    destruct (IH _ H2) as (L & P). split; [simpl; congruence|]. intros [|i] l' a' E; simpl in *.
    + inversion E; subst. eauto.
    + apply P; auto.
Qed.
