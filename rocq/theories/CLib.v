(** The C library function qsort.  Insertion sort stands for the unspecified
    algorithm; [qsort_unique] shows that when the comparison orders the elements
    strictly, every sorted permutation of the input is the same list, so the
    choice of algorithm does not matter. *)
From Coq Require Import List Bool Permutation Sorted Arith Lia.
Import ListNotations.

Section Sort.
Context {A : Type} (le : A -> A -> bool).

Fixpoint insert (x : A) (l : list A) : list A :=
  match l with
  | [] => [x]
  | y :: r => if le x y then x :: y :: r else y :: insert x r
  end.

Fixpoint qsort (l : list A) : list A :=
  match l with
  | [] => []
  | x :: r => insert x (qsort r)
  end.

Lemma insert_perm : forall x l, Permutation (x :: l) (insert x l).
Proof.
  intros x l. induction l as [|y l IH]; cbn; [auto|]. destruct (le x y); [auto|].
  rewrite perm_swap. now constructor.
Qed.

Lemma qsort_perm : forall l, Permutation l (qsort l).
Proof.
  induction l as [|x l IH]; cbn; [auto|]. rewrite <- insert_perm. now constructor.
Qed.

Hypothesis total : forall x y, le x y = true \/ le y x = true.
Hypothesis trans : forall x y z, le x y = true -> le y z = true -> le x z = true.

Lemma insert_sorted : forall x l, StronglySorted (fun a b => le a b = true) l ->
  StronglySorted (fun a b => le a b = true) (insert x l).
Proof.
  intros x l H. induction H as [|y l H1 IH H2]; cbn; [repeat constructor|].
  destruct (le x y) eqn:E.
  - constructor; [now constructor|]. constructor; [auto|].
    eapply Forall_impl; [|exact H2]. intros a Ha. eauto.
  - constructor; [auto|]. assert (YX : le y x = true) by (destruct (total x y); congruence).
    rewrite Forall_forall in *. intros a Ha.
    apply (Permutation_in a (Permutation_sym (insert_perm x l))) in Ha.
    destruct Ha as [<-|Ha]; auto.
Qed.

Lemma qsort_sorted : forall l, StronglySorted (fun a b => le a b = true) (qsort l).
Proof. induction l as [|x l IH]; cbn; [constructor|]. now apply insert_sorted. Qed.

(** When the comparison never ties two distinct elements, the sorted order is
    unique. *)
Lemma qsort_unique : forall l l',
  (forall x y, In x l -> In y l -> le x y = true -> le y x = true -> x = y) ->
  Permutation l l' -> StronglySorted (fun a b => le a b = true) l' -> l' = qsort l.
Proof.
  intros l l' AS P S'. pose proof (qsort_sorted l) as S2. pose proof (qsort_perm l) as P2.
  assert (P3 : Permutation l' (qsort l)) by (rewrite <- P; auto).
  assert (AS' : forall x y, In x l' -> In y l' -> le x y = true -> le y x = true -> x = y).
  { intros x y I1 I2. apply AS; apply (Permutation_in _ (Permutation_sym P)); auto. }
  revert S2 P3. generalize (qsort l) as m. clear l AS P P2. induction S' as [|x l' S1 IH F1]; intros m S2 P.
  - symmetry. now apply Permutation_nil.
  - destruct S2 as [|y m S3 F2]. { symmetry in P. apply Permutation_nil in P. discriminate. }
    assert (x = y).
    { assert (I1 : In y (x :: l')) by (apply (Permutation_in _ (Permutation_sym P)); now left).
      assert (I2 : In x (y :: m)) by (apply (Permutation_in _ P); now left).
      destruct I1 as [|I1]; [auto|]. destruct I2 as [|I2]; [auto|].
      rewrite Forall_forall in F1, F2. apply AS'; [now left|now right|auto|auto]. }
    subst y. f_equal. apply IH; auto.
    + intros a b Ia Ib. apply AS'; now right.
    + now apply Permutation_cons_inv in P.
Qed.

End Sort.
