(** What byacc's conflict resolution should do, on an action list. *)
From Coq Require Import List Arith Lia Bool Sorted.
Import ListNotations.
From Verif Require Import Base ByaccParModel.

(** Position in an action list. *)
Definition act_lt (a b : action) : Prop :=
  a_sym a < a_sym b \/ a_sym a = a_sym b /\ (a_shift a = true /\ a_shift b = false \/ a_shift a = false /\ a_shift b = false /\ a_num a < a_num b).

Definition sup (v : nat) (p : action) : action := mkAct (a_sym p) (a_num p) (a_prec p) (a_shift p) (a_assoc p) v.

(** The reduction [p] is preferred to the shift [s]. *)
Definition beats (s p : action) : Prop :=
  0 < a_prec s /\ 0 < a_prec p /\ (a_prec s < a_prec p \/ a_prec s = a_prec p /\ a_assoc s = LEFT).
(** Neither is wanted. *)
Definition ties (s p : action) : Prop :=
  0 < a_prec s /\ a_prec s = a_prec p /\ a_assoc s <> LEFT /\ a_assoc s <> RIGHT.

(** The shift and the reductions of [acts] on token [t]. *)
Definition shifts_on (acts : list action) (t : nat) (s : action) : Prop := In s acts /\ a_sym s = t /\ a_shift s = true.
Definition reds_on (acts : list action) (t : nat) (p : action) : Prop := In p acts /\ a_sym p = t /\ a_shift p = false.

(** Reductions on [t] that are compared with other reductions: all of them when there
    is no shift, else those from the first that beats the shift on. *)
Definition contender (acts : list action) (t : nat) (p : action) : Prop :=
  reds_on acts t p /\
  ((forall s, ~ shifts_on acts t s) \/ exists s p', shifts_on acts t s /\ reds_on acts t p' /\ a_num p' <= a_num p /\ beats s p').

(** [p] is chosen among the reductions [C]: without -z it is the first; with -z it is
    the first of greatest precedence, unless the first of all has none. *)
Definition wins (flag : bool) (C : action -> Prop) (p : action) : Prop :=
  C p /\
  (forall p', C p' -> a_num p' < a_num p ->
     flag = true /\ a_prec p' < a_prec p /\ ((forall x, C x -> a_num p' <= a_num x) -> 0 < a_prec p')) /\
  (forall p', C p' -> a_num p < a_num p' -> flag = false \/ a_prec p = 0 \/ a_prec p' <= a_prec p).

(** [p] is reported as a reduce/reduce conflict. *)
Definition rr_conflict (flag : bool) (C : action -> Prop) (p : action) : Prop :=
  C p /\ exists f, C f /\ a_num f < a_num p /\ (forall x, C x -> a_num f <= a_num x) /\
  (flag = false \/ a_prec f = 0 \/ a_prec p = 0 \/
   (exists x, C x /\ a_num x < a_num p /\ a_prec x = a_prec p) /\ forall x, C x -> a_num x < a_num p -> a_prec x <= a_prec p).

(** [p] is live after resolution; [fin] tells that the state is the final state, where
    the actions on $end are treated apart. *)
Definition live_spec (flag fin : bool) (acts : list action) (p : action) : Prop :=
  if fin && (a_sym p =? 0) then forall p', In p' acts -> a_sym p' = 0 -> ~ act_lt p' p
  else if a_shift p then forall r, reds_on acts (a_sym p) r -> ~ beats p r /\ ~ ties p r
  else wins flag (contender acts (a_sym p)) p.

(** [p] is reported as a shift/reduce conflict. *)
Definition sr_spec (flag fin : bool) (acts : list action) (p : action) : Prop :=
  if fin && (a_sym p =? 0) then exists p', In p' acts /\ a_sym p' = 0 /\ act_lt p' p
  else a_shift p = false /\ exists s, shifts_on acts (a_sym p) s /\ (a_prec s = 0 \/ a_prec p = 0) /\
       forall p', reds_on acts (a_sym p) p' -> a_num p' < a_num p -> ~ beats s p'.

Definition rr_spec (flag fin : bool) (acts : list action) (p : action) : Prop :=
  fin && (a_sym p =? 0) = false /\ rr_conflict flag (contender acts (a_sym p)) p.

(** [n] is the number of members of [acts] that satisfy [P]. *)
Definition counts (acts : list action) (P : action -> Prop) (n : nat) : Prop :=
  exists L, NoDup L /\ length L = n /\ forall p, In p L <-> In p acts /\ P p.

Record res_ok (flag fin : bool) (acts acts' : list action) (sr rr : nat) : Prop := {
  ro_same : map (sup 0) acts' = acts;
  ro_live : forall p, In p acts -> (In p acts' <-> live_spec flag fin acts p);
  ro_sr : counts acts (sr_spec flag fin acts) sr;
  ro_rr : counts acts (rr_spec flag fin acts) rr
}.

