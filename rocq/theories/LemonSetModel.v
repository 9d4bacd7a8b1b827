(** Model of set.c inside lemon/lemon.c. *)
From Coq Require Import List Arith Bool.
Import ListNotations.
From Verif Require Import Base.

(** A set is the array of [set_size] chars; a char is modelled by its truth value. *)
Notation cset := (list bool) (only parsing).

(** lemon/lemon.c:5744-5747 SetSize. *)
Definition SetSize (n : nat) : nat := n + 1.

(** lemon/lemon.c:5750-5757 SetNew; calloc failure (memory_error exits) not modelled. *)
Definition SetNew (set_size : nat) : cset := repeat false set_size.

(** lemon/lemon.c:5767-5774 SetAdd.  The assertion [e<set_size] failing is [Bad].
    The set has exactly [set_size] cells. *)
Definition SetAdd (s : cset) (e : nat) : res (cset * bool) :=
  match nth_error s e with
  | Some rv => Ok (upd s e true, negb rv)
  | None => Bad
  end.

(** lemon/lemon.c:5777-5789 SetUnion: one pass over the index range, both arrays
    having the common size; a size mismatch would be an out-of-bounds access
    ([Bad]). *)
Fixpoint SetUnion (s1 s2 : cset) : res (cset * bool) :=
  match s1, s2 with
  | [], [] => Ok ([], false)
  | a :: s1', b :: s2' =>
      match SetUnion s1' s2' with
      | Ok (r, progress) =>
          if negb b then Ok (a :: r, progress)
          else if negb a then Ok (true :: r, true)
          else Ok (a :: r, progress)
      | Bad => Bad
      | Fuel => Fuel
      end
  | _, _ => Bad
  end.

(** Reading a cell, as done by callers through [SetFind(X,Y) (X[Y])]
    (lemon/lemon.c:237). *)
Definition SetFind (s : cset) (e : nat) : bool := nth e s false.
