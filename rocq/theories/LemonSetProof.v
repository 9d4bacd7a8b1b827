(** Lemmas about the set.c model. *)
From Coq Require Import List Arith Lia Bool.
Import ListNotations.
From Verif Require Import Base LemonSetModel.

Lemma SetNew_length : forall n, length (SetNew n) = n.
Proof. intros; apply repeat_length. Qed.

Lemma SetNew_find : forall n x, SetFind (SetNew n) x = false.
Proof. intros; apply nth_repeat_same. Qed.

Lemma SetAdd_ok : forall s e, e < length s ->
  exists s', SetAdd s e = Ok (s', negb (SetFind s e)) /\
    length s' = length s /\
    forall x, SetFind s' x = true <-> SetFind s x = true \/ x = e.
Proof.
  intros s e H. unfold SetAdd, SetFind.
  destruct (nth_error_lt_ex _ s e H) as [rv E]. rewrite E.
  erewrite nth_error_Some_nth by eauto.
  eexists; split; [reflexivity|]. split; [apply upd_length|].
  intros x. destruct (Nat.eq_dec e x) as [->|N].
  - rewrite nth_upd_eq by auto. tauto.
  - rewrite nth_upd_ne by auto. intuition congruence.
Qed.

Lemma SetAdd_bad : forall s e, length s <= e -> SetAdd s e = Bad.
Proof. intros s e H. unfold SetAdd. apply nth_error_None in H. now rewrite H. Qed.

Lemma SetUnion_ok : forall s1 s2, length s1 = length s2 ->
  exists s' p, SetUnion s1 s2 = Ok (s', p) /\
    length s' = length s1 /\
    (forall x, SetFind s' x = true <-> SetFind s1 x = true \/ SetFind s2 x = true) /\
    (p = true <-> exists x, SetFind s1 x = false /\ SetFind s2 x = true).
Proof.
  induction s1 as [|a s1 IH]; intros [|b s2] H; simpl in H; try discriminate.
  - exists [], false. split; [reflexivity|]. split; [reflexivity|]. split.
    + intros x. unfold SetFind. destruct x; simpl; tauto.
    + split; [discriminate|].
      intros [x [_ Hx]]. unfold SetFind in Hx. destruct x; simpl in Hx; discriminate.
  - destruct (IH s2) as (s' & p & E & L & M & P); [lia|].
    simpl. rewrite E. unfold SetFind in *.
    destruct b; simpl.
    + destruct a; simpl.
      * exists (true :: s'), p. split; [reflexivity|]. split; [simpl; auto|]. split.
        -- intros [|x]; simpl; [tauto|apply M].
        -- rewrite P. split.
           ++ intros [x Hx]. exists (S x). auto.
           ++ intros [[|x] Hx]; simpl in Hx; [destruct Hx; discriminate|]. eauto.
      * exists (true :: s'), true. split; [reflexivity|]. split; [simpl; auto|]. split.
        -- intros [|x]; simpl; [tauto|apply M].
        -- split; auto. intros _. exists 0. auto.
    + exists (a :: s'), p. split; [reflexivity|]. split; [simpl; auto|]. split.
      * intros [|x]; simpl; [|apply M]. split; auto. intros [|]; auto; discriminate.
      * rewrite P. split.
        -- intros [x Hx]. exists (S x). auto.
        -- intros [[|x] Hx]; simpl in Hx; [destruct Hx; discriminate|]. eauto.
Qed.

Lemma SetUnion_bad : forall s1 s2, length s1 <> length s2 -> SetUnion s1 s2 = Bad.
Proof.
  induction s1 as [|a s1 IH]; intros [|b s2] H; simpl in *; auto; try congruence.
  rewrite IH; auto.
Qed.

(** Number of members; strictly grows whenever the progress flag is set. *)
Fixpoint card (s : cset) : nat :=
  match s with [] => 0 | b :: r => (if b then 1 else 0) + card r end.

Lemma card_le_length : forall s, card s <= length s.
Proof. induction s as [|[] s IH]; simpl; lia. Qed.

Lemma card_mono : forall s1 s2, length s1 = length s2 ->
  (forall x, SetFind s1 x = true -> SetFind s2 x = true) -> card s1 <= card s2.
Proof.
  induction s1 as [|a s1 IH]; intros [|b s2] L H; simpl in *; try lia.
  assert (card s1 <= card s2).
  { apply IH; [lia|]. intros x. apply (H (S x)). }
  specialize (H 0). simpl in H. unfold SetFind in H; simpl in H.
  destruct a, b; try lia; specialize (H eq_refl); discriminate.
Qed.

Lemma card_strict : forall s1 s2, length s1 = length s2 ->
  (forall x, SetFind s1 x = true -> SetFind s2 x = true) ->
  (exists x, SetFind s1 x = false /\ SetFind s2 x = true) -> card s1 < card s2.
Proof.
  induction s1 as [|a s1 IH]; intros [|b s2] L H [x [Hx1 Hx2]]; simpl in *; try lia.
  - unfold SetFind in Hx2. destruct x; simpl in Hx2; discriminate.
  - assert (HH : forall x, SetFind s1 x = true -> SetFind s2 x = true) by (intros y; apply (H (S y))).
    assert (Ha : a = true -> b = true) by apply (H 0).
    destruct x as [|x]; unfold SetFind in Hx1, Hx2; simpl in *.
    + subst. assert (card s1 <= card s2) by (apply card_mono; [lia|auto]). lia.
    + assert (card s1 < card s2) by (apply IH; eauto).
      destruct a, b; try lia; specialize (Ha eq_refl); discriminate.
Qed.
