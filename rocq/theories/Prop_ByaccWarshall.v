(** C32: the bit-matrix closure of byacc. *)
From Coq Require Import List Arith NArith Lia Bool.
Import ListNotations.
From Verif Require Import Base ByaccWarshallModel ByaccWarshallProof.

(** The relation held by a matrix of [n] rows of [rs] words of [W] bits. *)
Definition matrix_rel (W n : nat) (a : list N) (x y : nat) : Prop :=
  x < n /\ y < n /\
  N.testbit (nth (x * ((n + (W - 1)) / W) + y / W) a 0%N) (N.of_nat (y mod W)) = true.

(** For every word width, every number of elements and every matrix stored at the
    start of an array (which may go on behind the matrix): the function ends, all
    its reads and writes are inside the array, it leaves what is behind the matrix
    alone, and element (x, y) is set afterwards exactly when there is a path of at
    least one step from x to y. *)
Theorem C32_transitive_closure : forall W n R fuel, 0 < W -> n * ((n + (W - 1)) / W) <= length R -> n < fuel ->
  exists R', transitive_closure fuel W R n = Ok R' /\ length R' = length R /\
    (forall m, n * ((n + (W - 1)) / W) <= m -> nth m R' 0%N = nth m R 0%N) /\
    (forall x y, x < n -> y < n ->
       (matrix_rel W n R' x y <-> exists z, matrix_rel W n R x z /\ star (matrix_rel W n R) z y)).
Proof.
  intros W n R fuel HW L F. destruct (transitive_ok W n HW fuel R F L) as (R' & E & L' & O & B).
  exists R'. split; [auto|]. split; [auto|]. split; [auto|]. intros x y Hx Hy.
  rewrite <- (via_path n (matrix_rel W n R)) by (intros a b (_ & H & _); auto).
  specialize (B x y Hx Hy). unfold matrix_rel at 1. unfold bit, WORDSIZE in B. rewrite B. unfold Rel, bit, WORDSIZE, matrix_rel. tauto.
Qed.
Print Assumptions C32_transitive_closure.

Theorem C32_reflexive_transitive_closure : forall W n R fuel, 0 < W -> n * ((n + (W - 1)) / W) <= length R -> n < fuel ->
  exists R', reflexive_transitive_closure fuel W R n = Ok R' /\ length R' = length R /\
    (forall m, n * ((n + (W - 1)) / W) <= m -> nth m R' 0%N = nth m R 0%N) /\
    (forall x y, x < n -> y < n -> (matrix_rel W n R' x y <-> star (matrix_rel W n R) x y)).
Proof.
  intros W n R fuel HW L F. destruct (reflexive_ok W n HW fuel R F L) as (R' & E & L' & O & B).
  exists R'. split; [auto|]. split; [auto|]. split; [auto|]. intros x y Hx Hy.
  rewrite <- (via_star n (matrix_rel W n R)) by (intros a b (_ & H & _); auto).
  specialize (B x y Hx Hy). unfold matrix_rel at 1. unfold bit, WORDSIZE in B. rewrite B. unfold Rel, bit, WORDSIZE, matrix_rel. tauto.
Qed.
Print Assumptions C32_reflexive_transitive_closure.

(** 66 elements in words of 64 bits: two words per row; edges 0 -> 65 -> 64 -> 1. *)
Definition ex32 : list N := [0; 2; 0; 0]%N ++ repeat 0%N 124 ++ [2; 0; 0; 1; 77]%N.
Example C32_hypotheses : 66 * ((66 + (64 - 1)) / 64) <= length ex32 /\
  exists R', reflexive_transitive_closure 67 64 ex32 66 = Ok R' /\
  firstn 4 R' = [3; 3; 2; 0]%N /\ skipn 128 R' = [2; 1; 2; 3; 77]%N.
Proof. split; [vm_compute; lia|]. eexists. split; [vm_compute; reflexivity|]. split; reflexivity. Qed.
