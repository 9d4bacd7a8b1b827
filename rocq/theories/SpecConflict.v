(** LALR(1) conflicts, from the grammar alone. *)
From Coq Require Import List Arith.
Import ListNotations.
From Verif Require Import SpecGrammar SpecLR0.

(** Two viable prefixes with the same valid items lead to the same LR(0) state. *)
Definition same_state (g : grammar) (gm gm' : list elem) : Prop := forall i, valid g gm i <-> valid g gm' i.

(** After [gm] the token [t] can be read as the right-hand-side position [X]. *)
Definition shiftable (g : grammar) (gm : list elem) (X : elem) (t : nat) : Prop :=
  In t (elem_syms X) /\ exists i, valid g gm i /\ after_dot g i = Some X.

(** In the state of [gm] rule [r] is complete with [t] as one of its LALR(1) lookaheads. *)
Definition reducible (g : grammar) (gm : list elem) (r t : nat) : Prop :=
  exists rl gm', rule_of g r = Some rl /\ same_state g gm gm' /\ la g gm' (r, length (r_rhs rl)) t.

(** No state has two possible actions on one terminal. *)
Definition conflict_free (g : grammar) : Prop := forall gm t, is_term g t ->
  (forall X r, shiftable g gm X t -> reducible g gm r t -> False) /\
  (forall r r', reducible g gm r t -> reducible g gm r' t -> r = r') /\
  (forall X X', shiftable g gm X t -> shiftable g gm X' t -> X = X').
