(** Model of the action table builder of lemon/lemon.c:625-847 (acttab_alloc,
    acttab_action, acttab_insert, acttab_action_size).

    C ints are unbounded integers here.  The array aAction is the list of its
    allocated slots (nActionAlloc is the length); the used part of aLookahead is
    a list (its capacity always suffices, lemon/lemon.c:687-695).  A read or
    write outside the allocation is [Bad]. *)
From Coq Require Import List ZArith Bool.
Import ListNotations.
From Verif Require Import Base.
Local Open Scope res_scope.
Local Open Scope Z_scope.

(** lemon/lemon.c:632-650 struct lookahead_action (a pair lookahead, action) and
    struct acttab. *)
Record acttab : Type := mkActtab {
  nAction : Z;
  aAction : list (Z * Z);
  aLookahead : list (Z * Z);
  mnLookahead : Z;
  mnAction : Z;
  mxLookahead : Z;
  t_nterminal : Z;
  t_nsymbol : Z
}.

Definition nActionAlloc (a : list (Z * Z)) : Z := Z.of_nat (length a).
Definition nLookahead (L : list (Z * Z)) : Z := Z.of_nat (length L).

(** An array access [a[k]]. *)
Definition rd (a : list (Z * Z)) (k : Z) : res (Z * Z) :=
  if k <? 0 then Bad else opt (nth_error a (Z.to_nat k)).
Definition wr (a : list (Z * Z)) (k : Z) (x : Z * Z) : res (list (Z * Z)) :=
  if (k <? 0) || (nActionAlloc a <=? k) then Bad else Ok (upd a (Z.to_nat k) x).

(** lemon/lemon.c:669-679 acttab_alloc. *)
Definition acttab_alloc (nsymbol nterminal : Z) : acttab := mkActtab 0 [] [] 0 0 0 nterminal nsymbol.

(** lemon/lemon.c:686-711 acttab_action. *)
Definition acttab_action (p : acttab) (lookahead action : Z) : acttab :=
  let L := aLookahead p ++ [(lookahead, action)] in
  match aLookahead p with
  | [] => mkActtab (nAction p) (aAction p) L lookahead action lookahead (t_nterminal p) (t_nsymbol p)
  | _ =>
      let mx := if mxLookahead p <? lookahead then lookahead else mxLookahead p in
      if lookahead <? mnLookahead p
      then mkActtab (nAction p) (aAction p) L lookahead action mx (t_nterminal p) (t_nsymbol p)
      else mkActtab (nAction p) (aAction p) L (mnLookahead p) (mnAction p) mx (t_nterminal p) (t_nsymbol p)
  end.

(** lemon/lemon.c:735-749: make room for the worst case. *)
Definition grow (a : list (Z * Z)) (nact nsym : Z) : list (Z * Z) :=
  let n := nsym + 1 in
  if nActionAlloc a <=? nact + n
  then a ++ repeat (-1, -1) (Z.to_nat (nact + n + nActionAlloc a + 20 - nActionAlloc a))
  else a.

(** lemon/lemon.c:763-769: does every pair of the transaction match at [i]? *)
Fixpoint match_all (a : list (Z * Z)) (nact mn i : Z) (L : list (Z * Z)) : res bool :=
  match L with
  | [] => Ok true
  | (la, ac) :: r =>
      let k := la - mn + i in
      if (k <? 0) || (nact <=? k) then Ok false
      else
        x <- rd a k ;;
        if negb (la =? fst x) then Ok false
        else if negb (ac =? snd x) then Ok false
        else match_all a nact mn i r
  end.

(** lemon/lemon.c:773-777: number of the first [n] slots that answer to offset
    [i - mn]. *)
Fixpoint count_at (a : list (Z * Z)) (mn i : Z) (n : nat) : res Z :=
  match n with
  | O => Ok 0
  | S j =>
      c <- count_at a mn i j ;;
      x <- rd a (Z.of_nat j) ;;
      Ok (if fst x <? 0 then c else if fst x =? Z.of_nat j + mn - i then c + 1 else c)
  end.

(** lemon/lemon.c:758-782: scan downwards for an exact duplicate; [i] runs from
    [fin+n-1] to [fin].  [Some i] is the break, [None] the exhausted loop. *)
Fixpoint dup_scan (a : list (Z * Z)) (nact : Z) (L : list (Z * Z)) (mn mna fin : Z) (n : nat) : res (option Z) :=
  match n with
  | O => Ok None
  | S m =>
      let i := fin + Z.of_nat m in
      x <- rd a i ;;
      if (fst x =? mn) && (snd x =? mna) then
        b <- match_all a nact mn i L ;;
        if (b : bool) then
          c <- count_at a mn i (Z.to_nat nact) ;;
          if c =? nLookahead L then Ok (Some i) else dup_scan a nact L mn mna fin m
        else dup_scan a nact L mn mna fin m
      else dup_scan a nact L mn mna fin m
  end.

(** lemon/lemon.c:796-801: are all slots of the transaction at [i] empty? *)
Fixpoint all_free (a : list (Z * Z)) (mn i : Z) (L : list (Z * Z)) : res bool :=
  match L with
  | [] => Ok true
  | (la, _) :: r =>
      let k := la - mn + i in
      if k <? 0 then Ok false
      else
        x <- rd a k ;;
        if 0 <=? fst x then Ok false else all_free a mn i r
  end.

(** lemon/lemon.c:802-804: does none of the slots from [j] on (number [n]) hold
    the value that offset [i - mn] would ask for? *)
Fixpoint none_answers (a : list (Z * Z)) (mn i : Z) (j : Z) (n : nat) : res bool :=
  match n with
  | O => Ok true
  | S m =>
      x <- rd a j ;;
      if fst x =? j + mn - i then Ok false else none_answers a mn i (j + 1) m
  end.

(** lemon/lemon.c:793-809: look for a hole from [i] upwards, at most [n] places;
    the final value of [i]. *)
Fixpoint hole_scan (a : list (Z * Z)) (nact : Z) (L : list (Z * Z)) (mn i : Z) (n : nat) : res Z :=
  match n with
  | O => Ok i
  | S m =>
      x <- rd a i ;;
      if fst x <? 0 then
        b <- all_free a mn i L ;;
        if (b : bool) then
          c <- none_answers a mn i 0 (Z.to_nat nact) ;;
          if (c : bool) then Ok i else hole_scan a nact L mn (i + 1) m
        else hole_scan a nact L mn (i + 1) m
      else hole_scan a nact L mn (i + 1) m
  end.

(** lemon/lemon.c:819-823: write the transaction at [i]. *)
Fixpoint put_all (a : list (Z * Z)) (nact mn i : Z) (L : list (Z * Z)) : res (list (Z * Z) * Z) :=
  match L with
  | [] => Ok (a, nact)
  | (la, ac) :: r =>
      let k := la - mn + i in
      a1 <- wr a k (la, ac) ;;
      put_all a1 (if nact <=? k then k + 1 else nact) mn i r
  end.

(** lemon/lemon.c:727-830 acttab_insert. *)
Definition acttab_insert (p : acttab) (makeItSafe : bool) : res (acttab * Z) :=
  if nLookahead (aLookahead p) <=? 0 then Bad else
      let L := aLookahead p in
      let a := grow (aAction p) (nAction p) (t_nsymbol p) in
      let mn := mnLookahead p in
      let fin := if makeItSafe then mn else 0 in
      o <- dup_scan a (nAction p) L mn (mnAction p) fin (Z.to_nat (nAction p - fin)) ;;
      i <- match o with
           | Some i => Ok i
           | None => hole_scan a (nAction p) L mn fin (Z.to_nat (nActionAlloc a - mxLookahead p - fin))
           end ;;
      '(a1, n1) <- put_all a (nAction p) mn i L ;;
      let n2 := if makeItSafe && (n1 <=? i + t_nterminal p) then i + t_nterminal p + 1 else n1 in
      Ok (mkActtab n2 a1 [] mn (mnAction p) (mxLookahead p) (t_nterminal p) (t_nsymbol p), i - mn).

(** lemon/lemon.c:836-840 acttab_action_size. *)
Fixpoint action_size (a : list (Z * Z)) (n : nat) : res Z :=
  match n with
  | O => Ok 0
  | S m =>
      x <- rd a (Z.of_nat m) ;;
      if fst x <? 0 then action_size a m else Ok (Z.of_nat n)
  end.
Definition acttab_action_size (p : acttab) : res Z := action_size (aAction p) (Z.to_nat (nAction p)).

(** The calls ReportTable makes for one row (lemon/lemon.c:5106-5113, 5117-5125):
    acttab_action for each pair, then acttab_insert. *)
Definition add_row (p : acttab) (row : list (Z * Z) * bool) : res (acttab * Z) :=
  acttab_insert (fold_left (fun p x => acttab_action p (fst x) (snd x)) (fst row) p) (snd row).

(** lemon/lemon.c:5103-5127: all rows in turn; the offsets returned. *)
Fixpoint add_rows (p : acttab) (rows : list (list (Z * Z) * bool)) : res (acttab * list Z) :=
  match rows with
  | [] => Ok (p, [])
  | row :: r =>
      '(p1, o) <- add_row p row ;;
      '(p2, os) <- add_rows p1 r ;;
      Ok (p2, o :: os)
  end.
