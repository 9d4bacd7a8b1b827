(** Model of lemon_addtext and lemon_vsprintf (lemon/lemon.c:78-144).  The buffer is an array of
    bytes; a store or a read outside an array is [Bad], and so is signed overflow.  Formats and string
    arguments are lists without the terminating zero byte. *)
From Coq Require Import List Arith ZArith Bool Lia.
Import ListNotations.
From Verif Require Import Base LemonPreModel.
Open Scope res_scope.

Definition store (b : list Z) (p : nat) (c : Z) : res (list Z) := if p <? length b then Ok (upd b p c) else Bad.

(** while( iWidth>nIn ){ zBuf[( *pnUsed)++] = ' '; iWidth--; } and memcpy: stores one after the other. *)
Fixpoint stores (b : list Z) (p : nat) (l : list Z) : res (list Z) :=
  match l with [] => Ok b | c :: r => b' <- store b p c ;; stores b' (S p) r end.

(** lemon/lemon.c:78-92 lemon_addtext *)
Definition lemon_addtext (b : list Z) (n : nat) (zIn : list Z) (nIn : Z) (w : Z) : res (list Z * nat) :=
  let k := if (nIn <? 0)%Z then length zIn else Z.to_nat nIn in
  let pad := Z.to_nat (w - Z.of_nat k)%Z in
  b1 <- stores b n (repeat 32%Z pad) ;;
  let n1 := n + pad in
  let w1 := (w - Z.of_nat pad)%Z in
  if k =? 0 then Ok (b1, n1)
  else if length zIn + 1 <? k then Bad
  else
    b2 <- stores b1 n1 (firstn k (zIn ++ [0%Z])) ;;
    let n2 := n1 + k in
    let pad2 := Z.to_nat (- w1 - Z.of_nat k)%Z in
    b3 <- stores b2 n2 (repeat 32%Z pad2) ;;
    let n3 := n2 + pad2 in
    b4 <- store b3 n3 0%Z ;; Ok (b4, n3).

Definition isdigit (c : Z) : bool := ((48 <=? c) && (c <=? 57))%Z.

(** lemon/lemon.c:106: the digits of a width. *)
Fixpoint width_digits (w : Z) (f : list Z) : res (Z * list Z) :=
  match f with
  | c :: r => if isdigit c then
                let w' := (w * 10 + c - 48)%Z in
                if (w' <? 2 ^ 31 - 48)%Z then width_digits w' r else Bad
              else Ok (w, f)
  | [] => Ok (w, [])
  end.

(** lemon/lemon.c:103-109 *)
Definition width (f : list Z) : res (Z * list Z) :=
  match f with
  | c :: r =>
      if isdigit c then width_digits 0 f
      else if ((c =? 45)%Z && match r with d :: _ => isdigit d | [] => false end)%bool then
        x <- width_digits 0 r ;; Ok (- fst x, snd x)%Z
      else Ok (0%Z, f)
  | [] => Ok (0%Z, [])
  end.

(** lemon/lemon.c:118-123: the digits, written from the end of zTemp[50]. *)
Fixpoint digits (room : nat) (v : Z) (acc : list Z) : res (list Z) :=
  if (0 <? v)%Z then
    match room with 0 => Bad | S room' => digits room' (v / 10)%Z ((v mod 10 + 48)%Z :: acc) end
  else Ok acc.

Inductive arg : Type := AInt (v : Z) | AStr (s : list Z).

(** lemon/lemon.c:93-144 lemon_vsprintf.  [lit] is zFormat[j..i-1]; the result is None when the program exits
    with "illegal format". *)
Fixpoint vs_loop (fuel : nat) (f lit : list Z) (args : list arg) (b : list Z) (n : nat) : res (option (list Z * nat)) :=
  match fuel with
  | 0 => Fuel
  | S fuel' =>
      match f with
      | [] => x <- lemon_addtext b n lit (Z.of_nat (length lit)) 0 ;; Ok (Some x)
      | c :: r =>
          if (c =? 37)%Z then
            x <- lemon_addtext b n lit (Z.of_nat (length lit)) 0 ;;
            let (b, n) := x in
            wr <- width r ;;
            let (w, f2) := wr in
            if starts [100%Z] f2 then
              match args with
              | AInt v :: args' =>
                  if (v =? - 2 ^ 31)%Z then Bad (* -v overflows *)
                  else
                    y <- (if (v <? 0)%Z then lemon_addtext b n [45%Z] 1 w
                          else if (v =? 0)%Z then lemon_addtext b n [48%Z] 1 w else Ok (b, n)) ;;
                    ds <- digits 50 (Z.abs v) [] ;;
                    z <- lemon_addtext (fst y) (snd y) ds (Z.of_nat (length ds)) w ;;
                    vs_loop fuel' (skipn 1 f2) [] args' (fst z) (snd z)
              | _ => Bad
              end
            else if starts [115%Z] f2 then
              match args with
              | AStr s :: args' => z <- lemon_addtext b n s (-1) w ;; vs_loop fuel' (skipn 1 f2) [] args' (fst z) (snd z)
              | _ => Bad
              end
            else if starts [46; 42; 115]%Z f2 then
              match args with
              | AInt k :: AStr s :: args' => z <- lemon_addtext b n s k w ;; vs_loop fuel' (skipn 3 f2) [] args' (fst z) (snd z)
              | _ => Bad
              end
            else if starts [37%Z] f2 then
              z <- lemon_addtext b n [37%Z] 1 0 ;; vs_loop fuel' (skipn 1 f2) [] args (fst z) (snd z)
            else Ok None
          else vs_loop fuel' r (lit ++ [c]) args b n
      end
  end.

Definition lemon_vsprintf (b : list Z) (f : list Z) (args : list arg) : res (option (list Z * nat)) :=
  b0 <- store b 0 0%Z ;; vs_loop (S (length f)) f [] args b0 0.
