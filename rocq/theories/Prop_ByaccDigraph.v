(** C36, C38: the graph traversal and the transposition of byacc/lalr.c. *)
From Coq Require Import List Arith NArith Lia Bool.
Import ListNotations.
From Verif Require Import Base ByaccWarshallModel ByaccWarshallProof ByaccLr0Model ByaccLalrModel ByaccDigraphProof ByaccTransposeProof.

(** [c] is one of the indices that the relation lists for [a]. *)
Definition lists (R : list (option (list nat))) (a c : nat) : Prop := exists l, nth_error R a = Some (Some l) /\ In c l.

(** For every relation on [n] indices (any cycles, repetitions, self-loops) and every
    family of [n] bit sets of [ts] words, the traversal ends, with recursion depth at
    most [n], never leaves its arrays, and the set of each index is then the union of
    the initial sets of the indices that can be reached. *)
Theorem C36_digraph_solution : forall fuel ts n R F, length R = n -> length F = n * ts -> (forall a c, lists R a c -> c < n) -> n <= fuel ->
  exists F', digraph fuel ts n R F = Ok F' /\ length F' = n * ts /\
  forall i t, i < n -> t / BPW < ts ->
    (bitat BPW F' (i * ts) t = true <-> exists k, star (lists R) i k /\ bitat BPW F (k * ts) t = true).
Proof.
  intros fuel ts n R F LR LF RB Hf.
  assert (ED : forall a c, ed R a c <-> lists R a c).
  { intros a c. unfold ed, edges, lists. destruct (nth_error R a) as [[l|]|].
    - split; [intros H; exists l; auto|intros (l' & E & H); inversion E; subst; auto].
    - split; [intros []|intros (l' & E & H); discriminate].
    - split; [intros []|intros (l' & E & H); discriminate]. }
  assert (ST : forall a c, star (ed R) a c <-> star (lists R) a c).
  { intros a c. split; intros H; induction H; try apply star_refl; eapply star_step; eauto; now apply ED. }
  destruct (digraph_ok ts n R F LR LF (fun i j H => RB i j (proj1 (ED i j) H)) fuel Hf) as (F' & E & L & B).
  exists F'. split; [exact E|]. split; [exact L|]. intros i t Hi Ht. specialize (B i t Hi). unfold fs, U in B. split.
  - intros H. destruct (proj1 B (conj Ht H)) as (k & S1 & _ & S2). exists k. split; [now apply ST|auto].
  - intros (k & S1 & S2). apply B. exists k. split; [now apply ST|]. split; auto.
Qed.
Print Assumptions C36_digraph_solution.

(** Two interleaved cycles 0 -> 1 -> 2 -> 0 and 1 -> 3 -> 1, with 4 -> 3 and 5 alone. *)
Definition exR : list (option (list nat)) := [Some [1]; Some [2; 3; 2]; Some [0]; Some [1; 3]; Some [3]; None].
Definition exF : list N := [1; 2; 4; 8; 16; 32]%N.
Example C36_hypotheses : length exR = 6 /\ length exF = 6 * 1 /\ (forall a c, lists exR a c -> c < 6) /\
  digraph 6 1 6 exR exF = Ok [15; 15; 15; 15; 31; 32]%N.
Proof.
  split; [reflexivity|]. split; [reflexivity|]. split; [|vm_compute; reflexivity].
  intros a c (l & E & H). do 6 (destruct a as [|a]; [cbn in E; inversion E; subst; cbn in H; lia|]). destruct a; discriminate.
Qed.

(** Transposing a relation on [n] indices: no array is left, the result has [n]
    entries, entry [j] is a null pointer when nothing lists [j], and otherwise the list
    of the indices that list [j], in increasing order, each as often as it lists [j]. *)
Theorem C38_transpose : forall R n, length R = n -> (forall a c, lists R a c -> c < n) ->
  exists T, transpose R n = Ok T /\ length T = n /\
  forall j, j < n ->
    let l := flat_map (fun i => repeat i (count_occ Nat.eq_dec (match nth_error R i with Some (Some e) => e | _ => [] end) j)) (seq 0 n) in
    nth_error T j = Some (match l with [] => None | _ => Some l end).
Proof.
  intros R n LR RB. destruct (transpose_ok R n) as (T & E & L & D).
  { intros o j Ho Hj. apply In_nth_error in Ho as (a & Ea). destruct o as [e|]; [|destruct Hj]. apply (RB a). exists e. auto. }
  exists T. split; [exact E|]. split; [exact L|]. intros j Hj l. rewrite (D j Hj).
  assert (Q : tr 0 R j = l); [|rewrite Q; destruct l; reflexivity].
  unfold l. rewrite tr_flat, LR, !flat_map_concat_map. f_equal. apply map_ext_in. intros i Hi. apply in_seq in Hi. rewrite Nat.sub_0_r.
  f_equal. f_equal. destruct (nth_error R i) as [[e|]|] eqn:Ei; [now rewrite (nth_error_nth _ _ None Ei)|now rewrite (nth_error_nth _ _ None Ei)|].
  apply nth_error_None in Ei. lia.
Qed.
Print Assumptions C38_transpose.

Example C38_hypotheses : length exR = 6 /\ (forall a c, lists exR a c -> c < 6) /\
  transpose exR 6 = Ok [Some [2]; Some [0; 3]; Some [1; 1]; Some [1; 3; 4]; None; None].
Proof.
  split; [reflexivity|]. split; [apply C36_hypotheses|]. reflexivity.
Qed.
