(** Shared basic definitions: result monad, list update, reflexive-transitive
    closure.  Nothing in this file models code of the repository. *)
From Coq Require Import List Arith Lia Bool.
Import ListNotations.

(** Outcome of a modelled C function: a value, undefined behaviour or a failed
    [assert] ([Bad]), or model fuel exhausted ([Fuel]). *)
Inductive res (A : Type) : Type :=
| Ok (a : A)
| Bad
| Fuel.
Arguments Ok {A} a.
Arguments Bad {A}.
Arguments Fuel {A}.

Definition bind {A B} (m : res A) (f : A -> res B) : res B :=
  match m with
  | Ok a => f a
  | Bad => Bad
  | Fuel => Fuel
  end.

Declare Scope res_scope.
Delimit Scope res_scope with res.
Notation "x <- e ;; k" := (bind e (fun x => k))
  (at level 61, e at next level, right associativity) : res_scope.
Notation "' p <- e ;; k" := (bind e (fun p => k))
  (at level 61, p pattern, e at next level, right associativity) : res_scope.

(** [opt o] turns a failed array/pointer access into [Bad]. *)
Definition opt {A} (o : option A) : res A :=
  match o with Some a => Ok a | None => Bad end.

Lemma bind_Ok : forall A B (m : res A) (f : A -> res B) b,
  bind m f = Ok b -> exists a, m = Ok a /\ f a = Ok b.
Proof. intros A B m f b H. destruct m; simpl in H; try discriminate. eauto. Qed.

Lemma opt_Ok : forall A (o : option A) a, opt o = Ok a -> o = Some a.
Proof. intros A o a H. destruct o; simpl in H; congruence. Qed.

(** Array store. *)
Fixpoint upd {A} (l : list A) (i : nat) (x : A) : list A :=
  match l, i with
  | [], _ => []
  | _ :: r, 0 => x :: r
  | a :: r, S i => a :: upd r i x
  end.

Lemma upd_length : forall A (l : list A) i x, length (upd l i x) = length l.
Proof. induction l as [|a l IH]; intros [|i] x; simpl; auto. Qed.

Lemma nth_error_upd_eq : forall A (l : list A) i x,
  i < length l -> nth_error (upd l i x) i = Some x.
Proof.
  induction l as [|a l IH]; intros [|i] x H; simpl in *; try lia; auto.
  apply IH; lia.
Qed.

Lemma nth_error_upd_ne : forall A (l : list A) i j x,
  i <> j -> nth_error (upd l i x) j = nth_error l j.
Proof.
  induction l as [|a l IH]; intros [|i] [|j] x H; simpl; auto; try congruence.
Qed.

Lemma nth_error_upd : forall A (l : list A) i j x,
  nth_error (upd l i x) j =
  if Nat.eqb i j then (if Nat.ltb i (length l) then Some x else None) else nth_error l j.
Proof.
  intros A l i j x. destruct (Nat.eqb_spec i j) as [->|N].
  - destruct (Nat.ltb_spec j (length l)).
    + now apply nth_error_upd_eq.
    + apply nth_error_None. rewrite upd_length. lia.
  - now apply nth_error_upd_ne.
Qed.

Lemma nth_upd_eq : forall A (l : list A) i x d,
  i < length l -> nth i (upd l i x) d = x.
Proof.
  induction l as [|a l IH]; intros [|i] x d H; simpl in *; try lia; auto.
  apply IH; lia.
Qed.

Lemma nth_upd_ne : forall A (l : list A) i j x d,
  i <> j -> nth j (upd l i x) d = nth j l d.
Proof.
  induction l as [|a l IH]; intros [|i] [|j] x d H; simpl; auto; try congruence.
Qed.

Lemma upd_oob : forall A (l : list A) i x, length l <= i -> upd l i x = l.
Proof.
  induction l as [|a l IH]; intros [|i] x H; simpl in *; try lia; auto.
  f_equal. apply IH. lia.
Qed.

Lemma upd_same : forall A (l : list A) i x, nth_error l i = Some x -> upd l i x = l.
Proof.
  induction l as [|a l IH]; intros [|i] x H; simpl in *; try congruence.
  f_equal. auto.
Qed.

Lemma nth_error_Some_lt : forall A (l : list A) i x, nth_error l i = Some x -> i < length l.
Proof. intros A l i x H. apply nth_error_Some. congruence. Qed.

Lemma nth_error_Some_nth : forall A (l : list A) i x d, nth_error l i = Some x -> nth i l d = x.
Proof. intros A l i x d H. now apply nth_error_nth. Qed.

Lemma nth_error_lt_ex : forall A (l : list A) i, i < length l -> exists x, nth_error l i = Some x.
Proof.
  intros A l i H. destruct (nth_error l i) eqn:E; [eauto|].
  apply nth_error_None in E. lia.
Qed.

Lemma nth_repeat_lt : forall A (a d : A) n i, i < n -> nth i (repeat a n) d = a.
Proof. intros A a d n. induction n; intros [|i] H; simpl; auto; try lia. apply IHn; lia. Qed.

Lemma nth_repeat_same : forall A (a : A) n i, nth i (repeat a n) a = a.
Proof. intros A a n. induction n; intros [|i]; simpl; auto. Qed.

(** Reflexive-transitive closure. *)
Inductive star {A} (R : A -> A -> Prop) : A -> A -> Prop :=
| star_refl : forall x, star R x x
| star_step : forall x y z, R x y -> star R y z -> star R x z.

Lemma star_one : forall A (R : A -> A -> Prop) x y, R x y -> star R x y.
Proof. intros. eapply star_step; eauto. apply star_refl. Qed.

Lemma star_trans : forall A (R : A -> A -> Prop) x y z, star R x y -> star R y z -> star R x z.
Proof. intros A R x y z H. induction H; auto. intros. eapply star_step; eauto. Qed.

Lemma star_snoc : forall A (R : A -> A -> Prop) x y z, star R x y -> R y z -> star R x z.
Proof. intros. eapply star_trans; eauto. now apply star_one. Qed.

Lemma star_ind_l : forall A (R : A -> A -> Prop) x (P : A -> Prop),
  P x -> (forall y z, star R x y -> P y -> R y z -> P z) ->
  forall y, star R x y -> P y.
Proof.
  intros A R x P H0 HS y H.
  assert (G : forall a b, star R a b -> star R x a -> P a -> P b).
  { clear y H. intros a b H. induction H; auto.
    intros Hx Pa. apply IHstar.
    - eapply star_snoc; eauto.
    - eapply HS; eauto. }
  eapply G; eauto. apply star_refl.
Qed.

Lemma existsb_In : forall (l : list nat) x, existsb (Nat.eqb x) l = true <-> In x l.
Proof.
  intros l x. rewrite existsb_exists. split.
  - intros [y [H1 H2]]. apply Nat.eqb_eq in H2. now subst.
  - intros H. exists x. split; auto. apply Nat.eqb_refl.
Qed.

(** Sum of a measure over a list, used for termination arguments. *)
Definition sum (l : list nat) : nat := fold_right Nat.add 0 l.

Lemma sum_app : forall a b, sum (a ++ b) = sum a + sum b.
Proof. induction a; intros; simpl; auto. rewrite IHa. lia. Qed.

Lemma list_ext : forall A (a b : list A), (forall n, nth_error a n = nth_error b n) -> a = b.
Proof.
  induction a as [|x a IH]; intros [|y b] H; auto.
  - specialize (H 0). discriminate.
  - specialize (H 0). discriminate.
  - f_equal.
    + specialize (H 0). simpl in H. congruence.
    + apply IH. intros n. exact (H (S n)).
Qed.

Lemma NoDup_app_r : forall A (a b : list A), NoDup (a ++ b) -> NoDup b.
Proof. induction a; simpl; intros b H; auto. inversion H; auto. Qed.

Lemma NoDup_app_l : forall A (a b : list A), NoDup (a ++ b) -> NoDup a.
Proof.
  induction a as [|x a IH]; simpl; intros b H; constructor; inversion H; subst; eauto.
  intros Hx. apply H2. apply in_or_app. auto.
Qed.

Lemma NoDup_app_iff : forall A (a b : list A),
  NoDup (a ++ b) <-> NoDup a /\ NoDup b /\ forall x, In x a -> ~ In x b.
Proof.
  induction a as [|x a IH]; intros b; simpl.
  - split; [intros H; repeat split; auto; constructor|tauto].
  - rewrite !NoDup_cons_iff, IH, in_app_iff. split.
    + intros [H1 [H2 [H3 H4]]]. repeat split; auto; try tauto.
      intros y [<-|Hy]; auto.
    + intros [[H1 H2] [H3 H4]]. repeat split; auto.
      intros [H|H]; auto. apply (H4 x); auto.
Qed.
