(** Model of byacc/warshall.c.  The bit matrix is an array of words; a word is an
    [N] whose bits from [W] on are never set by these functions ([W] is
    BITS_PER_WORD, byacc/defs.h:82, 64 for BITWORD_T = size_t; the functions are
    given for every word width).  Pointers are indices into the array; a read or
    write outside the array is [Bad]. *)
From Coq Require Import List Arith NArith Lia Bool.
Import ListNotations.
From Verif Require Import Base.
Open Scope res_scope.

(** byacc/defs.h:83 WORDSIZE. *)
Definition WORDSIZE (W n : nat) : nat := (n + (W - 1)) / W.

(** byacc/defs.h:85 SETBIT, on the array that starts at index [r]. *)
Definition SETBIT (W : nat) (a : list N) (r n : nat) : res (list N) :=
  w <- opt (nth_error a (r + n / W)) ;;
  Ok (upd a (r + n / W) (N.lor w (N.shiftl 1 (N.of_nat (n mod W))))).

(** byacc/warshall.c:35-36: [while (rowj < rend) *rowj++ |= *rp++], [k] being
    rend - rowj. *)
Fixpoint or_words (a : list N) (rowj rp k : nat) : res (list N) :=
  match k with
  | O => Ok a
  | S k' =>
      x <- opt (nth_error a rowj) ;;
      y <- opt (nth_error a rp) ;;
      or_words (upd a rowj (N.lor x y)) (S rowj) (S rp) k'
  end.

(** byacc/warshall.c:29-44: the loop over the rows for one column. *)
Fixpoint col_loop (fuel : nat) (a : list N) (rowi i ccol rowj relend rowsize : nat) : res (list N) :=
  match fuel with
  | O => Fuel
  | S f =>
      if rowj <? relend then
        w <- opt (nth_error a ccol) ;;
        if negb (N.eqb (N.land w (N.shiftl 1 (N.of_nat i))) 0) then
          a' <- or_words a rowj rowi rowsize ;;
          col_loop f a' rowi i (ccol + rowsize) (rowj + rowsize) relend rowsize
        else col_loop f a rowi i (ccol + rowsize) (rowj + rowsize) relend rowsize
      else Ok a
  end.

(** byacc/warshall.c:20-53. *)
Fixpoint row_loop (fuel fuel0 W : nat) (a : list N) (cword i rowi relend rowsize : nat) : res (list N) :=
  match fuel with
  | O => Fuel
  | S f =>
      if rowi <? relend then
        a' <- col_loop fuel0 a rowi i cword 0 relend rowsize ;;
        if W <=? S i then row_loop f fuel0 W a' (S cword) 0 (rowi + rowsize) relend rowsize
        else row_loop f fuel0 W a' cword (S i) (rowi + rowsize) relend rowsize
      else Ok a
  end.

(** byacc/warshall.c:6-54. *)
Definition transitive_closure (fuel W : nat) (R : list N) (n : nat) : res (list N) :=
  let rowsize := WORDSIZE W n in
  row_loop fuel fuel W R 0 0 0 (n * rowsize) rowsize.

(** byacc/warshall.c:69-81. *)
Fixpoint diag_loop (fuel W : nat) (a : list N) (i rp relend rowsize : nat) : res (list N) :=
  match fuel with
  | O => Fuel
  | S f =>
      if rp <? relend then
        w <- opt (nth_error a rp) ;;
        let a' := upd a rp (N.lor w (N.shiftl 1 (N.of_nat i))) in
        if W <=? S i then diag_loop f W a' 0 (S rp + rowsize) relend rowsize
        else diag_loop f W a' (S i) (rp + rowsize) relend rowsize
      else Ok a
  end.

(** byacc/warshall.c:57-82. *)
Definition reflexive_transitive_closure (fuel W : nat) (R : list N) (n : nat) : res (list N) :=
  a <- transitive_closure fuel W R n ;;
  let rowsize := WORDSIZE W n in
  diag_loop fuel W a 0 0 (n * rowsize) rowsize.
