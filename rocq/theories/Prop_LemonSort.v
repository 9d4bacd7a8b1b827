(** C20, C21: list sorting and rule numbering of lemon. *)
From Coq Require Import List Arith Lia Bool Permutation Sorted.
Import ListNotations.
From Verif Require Import Base LemonSortModel LemonSortProof.

(** C20: below 2^30 elements msort returns a sorted permutation. *)
Theorem C20_msort : forall A (le : A -> A -> bool),
  (forall x y z, le x y = true -> le y z = true -> le x z = true) ->
  (forall x y, le x y = true \/ le y x = true) ->
  forall l, length l < 2 ^ 30 ->
  StronglySorted (fun x y => le x y = true) (msort le l) /\ Permutation (msort le l) l.
Proof.
  intros A le T C l H. split; [now apply msort_sorted|now apply msort_perm].
Qed.
Print Assumptions C20_msort.

Example C20_msort_ex : msort Nat.leb [5; 3; 9; 3; 1; 8; 0] = [0; 1; 3; 3; 5; 8; 9].
Proof. vm_compute. reflexivity. Qed.

(** The bound is sharp: a list of exactly 2^30 elements comes back with half
    of its elements. *)
Theorem C20_msort_loses_elements_refuted : forall A (le : A -> A -> bool) (x : A),
  exists l, length l = 2 ^ 30 /\ length (msort le l) = 2 ^ 29 /\ ~ Permutation (msort le l) l.
Proof.
  intros A le x. exists (repeat x (2 ^ 30)).
  assert (L : length (repeat x (2 ^ 30)) = 2 ^ 30) by apply repeat_length.
  assert (L2 := msort_overflow A le _ L).
  change (LISTSIZE - 1) with 29 in L2.
  split; [exact L|]. split; [exact L2|].
  intros P. apply Permutation_length in P. rewrite L, L2 in P.
  apply (Nat.pow_inj_r 2) in P; lia.
Qed.
Print Assumptions C20_msort_loses_elements_refuted.

(** Equal elements can change places: msort is not stable. *)
Theorem C20_msort_stable_refuted : exists l : list (nat * nat),
  let le := fun x y => fst x <=? fst y in
  msort le l <> l /\ StronglySorted (fun x y => le x y = true) l.
Proof.
  exists [(1, 0); (1, 1)]. split; [vm_compute; discriminate|].
  repeat constructor.
Qed.
Print Assumptions C20_msort_stable_refuted.

(** C21: Rule_sort returns the rules in order of iRule. *)
Theorem C21_Rule_sort : forall A (irule : A -> nat) l, length l < 2 ^ 32 ->
  StronglySorted (fun x y => irule x <= irule y) (Rule_sort irule l) /\
  Permutation (Rule_sort irule l) l.
Proof.
  intros A irule l H. split; [apply Rule_sort_sorted|now apply Rule_sort_perm].
Qed.
Print Assumptions C21_Rule_sort.

Example C21_Rule_sort_ex :
  Rule_sort fst [(2,0); (0,1); (3,2); (1,3)] = [(0,1); (1,3); (2,0); (3,2)].
Proof. vm_compute. reflexivity. Qed.

(** Number of rules before position [k] whose code flag is [b]. *)
Definition before (b : bool) (code : list bool) (k : nat) : nat :=
  length (filter (Bool.eqb b) (firstn k code)).

(** C21: rules with code get the numbers 0.. in source order, the others
    follow, again in source order. *)
Theorem C21_number_rules : forall code k b, nth_error code k = Some b ->
  nth_error (number_rules code) k =
  Some (if b then before true code k
        else before true code (length code) + before false code k).
Proof.
  intros code k b H. unfold number_rules.
  destruct (number_pass1 code 0) as [l n] eqn:E.
  destruct (number_pass1_spec _ _ _ _ E) as (L & _ & N & H4 & H5).
  destruct (number_pass2_spec l n) as (_ & P2 & P3).
  assert (FE : forall c : list bool, filter (fun b => b) c = filter (Bool.eqb true) c).
  { intros c. apply filter_ext. intros []; reflexivity. }
  destruct b.
  - rewrite (P2 k _ (H4 k H)). rewrite FE. reflexivity.
  - rewrite (P3 k (H5 k H)). f_equal. f_equal.
    + rewrite N, FE. unfold before. rewrite firstn_all. reflexivity.
    + unfold before. clear - E.
      revert l n k E. generalize 0. induction code as [|c code IH]; intros i l n k E; simpl in E.
      * inversion E; subst. destruct k; reflexivity.
      * destruct c.
        -- destruct (number_pass1 code (S i)) as [l' n'] eqn:E'. inversion E; subst.
           destruct k; simpl; auto. eapply IH; eauto.
        -- destruct (number_pass1 code i) as [l' n'] eqn:E'. inversion E; subst.
           destruct k; simpl; auto. f_equal. eapply IH; eauto.
Qed.
Print Assumptions C21_number_rules.

Theorem C21_number_rules_length : forall code, length (number_rules code) = length code.
Proof.
  intros code. unfold number_rules.
  destruct (number_pass1 code 0) as [l n] eqn:E.
  destruct (number_pass1_spec _ _ _ _ E) as (L & _).
  destruct (number_pass2_spec l n) as (L2 & _). lia.
Qed.
Print Assumptions C21_number_rules_length.

Example C21_number_ex : number_rules [false; true; false; true; true] = [3; 0; 4; 1; 2].
Proof. reflexivity. Qed.
