(** Models of msort (msort.c inside lemon/lemon.c) and of Rule_sort.
    A null-terminated linked list is modelled by the list of its elements, a
    null pointer by the empty list. *)
From Coq Require Import List Arith Bool.
Import ListNotations.

Section Sort.
Context {A : Type}.

(** lemon/lemon.c:1934-1969 merge; [cmp_le a b] stands for cmp(a,b)<=0. *)
Fixpoint merge (cmp_le : A -> A -> bool) (a : list A) : list A -> list A :=
  fix merge_b (b : list A) : list A :=
    match a, b with
    | [], _ => b
    | _, [] => a
    | x :: a', y :: b' =>
        if cmp_le x y then x :: merge cmp_le a' b
        else y :: merge_b b'
    end.

(** The insertion loop shared by msort (2001-2005) and Rule_sort (1652-1656):
    walk the slots while they are non-null, merging; at the last slot the loop
    guard [i<LISTSIZE-1] stops the walk and the slot is overwritten. *)
Fixpoint slot_insert (mrg : list A -> list A -> list A) (slots : list (list A)) (ep : list A)
  : list (list A) :=
  match slots with
  | [] => []
  | s :: rest =>
      match rest with
      | [] => [ep]
      | _ :: _ =>
          match s with
          | [] => ep :: rest
          | _ :: _ => [] :: slot_insert mrg rest (mrg ep s)
          end
      end
  end.

Fixpoint slot_all (mrg : list A -> list A -> list A) (slots : list (list A)) (l : list A)
  : list (list A) :=
  match l with
  | [] => slots
  | x :: r => slot_all mrg (slot_insert mrg slots [x]) r
  end.

(** lemon/lemon.c:1986-2010 msort with LISTSIZE 30 (the define at 1985). *)
Definition LISTSIZE : nat := 30.

Definition msort (cmp_le : A -> A -> bool) (l : list A) : list A :=
  let set := slot_all (fun ep s => merge cmp_le ep s) (repeat [] LISTSIZE) l in
  fold_left (fun ep s => match s with [] => ep | _ => merge cmp_le s ep end) set [].

(** lemon/lemon.c:1619-1639 Rule_merge; [irule] gives rule.iRule. *)
Fixpoint Rule_merge (irule : A -> nat) (pA : list A) : list A -> list A :=
  fix merge_b (pB : list A) : list A :=
    match pA, pB with
    | [], _ => pB
    | _, [] => pA
    | x :: a', y :: b' =>
        if irule x <? irule y then x :: Rule_merge irule a' pB
        else y :: merge_b b'
    end.

(** lemon/lemon.c:1644-1665 Rule_sort with its 32 slots. *)
Definition RULESLOTS : nat := 32.

Definition Rule_sort (irule : A -> nat) (l : list A) : list A :=
  let x := slot_all (fun rp s => Rule_merge irule s rp) (repeat [] RULESLOTS) l in
  fold_left (fun rp s => Rule_merge irule s rp) x [].

End Sort.

(** lemon/lemon.c:1776-1786 (in main): numbering of the rules.  [code] tells
    whether a rule has reduce-action code. First pass numbers the rules with
    code, second pass the others. Result in source order. *)
Fixpoint number_pass1 (code : list bool) (i : nat) : list (option nat) * nat :=
  match code with
  | [] => ([], i)
  | true :: r => let '(l, n) := number_pass1 r (S i) in (Some i :: l, n)
  | false :: r => let '(l, n) := number_pass1 r i in (None :: l, n)
  end.

Fixpoint number_pass2 (l : list (option nat)) (i : nat) : list nat :=
  match l with
  | [] => []
  | Some k :: r => k :: number_pass2 r i
  | None :: r => i :: number_pass2 r (S i)
  end.

Definition number_rules (code : list bool) : list nat :=
  let '(l, n) := number_pass1 code 0 in number_pass2 l n.
