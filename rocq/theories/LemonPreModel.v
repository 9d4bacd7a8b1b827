(** Model of the preprocessor of lemon (lemon/lemon.c:2897-3052).  Texts are lists of
    characters without the terminating zero byte; [bDefineUsed] and [nDefineUsed],
    which only feed a warning, are left out. *)
From Coq Require Import List Arith ZArith Bool Lia String Ascii.
Import ListNotations.
From Verif Require Import Base LemonTableModel.
Open Scope res_scope.

Fixpoint zs (s : string) : list Z :=
  match s with EmptyString => [] | String c r => Z.of_nat (nat_of_ascii c) :: zs r end.

(** ctype.h in the C locale. *)
Definition isspace (c : Z) : bool := ((c =? 32) || ((9 <=? c) && (c <=? 13)))%Z.
Definition isalpha (c : Z) : bool := (((65 <=? c) && (c <=? 90)) || ((97 <=? c) && (c <=? 122)))%Z.
Definition isalnum (c : Z) : bool := (isalpha c || ((48 <=? c) && (c <=? 57)))%Z.
Definition wordch (c : Z) : bool := (isalnum c || (c =? 95))%Z.

(** strncmp(z,"...",n)==0 where n is the length of the literal. *)
Fixpoint starts (lit z : list Z) : bool :=
  match lit, z with
  | [], _ => true
  | a :: l, b :: r => (a =? b)%Z && starts l r
  | _ :: _, [] => false
  end.

(** lemon/lemon.c:2926-2949: the search for the matching parenthesis; the text inside and the text after. *)
Fixpoint match_paren (n : nat) (z : list Z) : option (list Z * list Z) :=
  match z with
  | [] => None
  | c :: r =>
      if (c =? 41)%Z then
        match n with
        | 1 => Some ([], r)
        | _ => match match_paren (n - 1) r with Some (a, b) => Some (c :: a, b) | None => None end
        end
      else match match_paren (if (c =? 40)%Z then S n else n) r with Some (a, b) => Some (c :: a, b) | None => None end
  end.

(** lemon/lemon.c:2963: the length of the name that starts at z. *)
Fixpoint word (z : list Z) : list Z * list Z :=
  match z with
  | [] => ([], [])
  | c :: r => if wordch c then let (a, b) := word r in (c :: a, b) else ([], z)
  end.

(** lemon/lemon.c:2897-2995 eval_preprocessor_boolean.  [z] is the text from position [i] on.  The result is
    0 or 1, or -(i+1) for a syntax error at position [i] (with a positive line number the
    program prints a message and exits instead). *)
Fixpoint pp_loop (fuel : nat) (defs : list (list Z)) (z : list Z) (i : Z) (neg res okTerm : bool) : Base.res Z :=
  match fuel with
  | 0 => Fuel
  | S fuel' =>
      let err i := Ok (- (i + 1))%Z in
      match z with
      | [] => Ok (if res then 1 else 0)%Z
      | c :: r =>
          if isspace c then pp_loop fuel' defs r (i + 1)%Z neg res okTerm
          else if (c =? 33)%Z then
            if okTerm then pp_loop fuel' defs r (i + 1)%Z (negb neg) res okTerm else err i
          else if starts [124; 124]%Z z then
            if okTerm then err i
            else if res then Ok 1%Z
            else pp_loop fuel' defs (tl r) (i + 2)%Z neg res true
          else if starts [38; 38]%Z z then
            if okTerm then err i
            else if negb res then Ok 0%Z
            else pp_loop fuel' defs (tl r) (i + 2)%Z neg res true
          else if (c =? 40)%Z then
            if okTerm then
              match match_paren 1 r with
              | Some (a, b) =>
                  v <- pp_loop fuel' defs a 0%Z false false true ;;
                  if (v <? 0)%Z then err (i - v)%Z
                  else pp_loop fuel' defs b (i + 2 + Z.of_nat (List.length a))%Z false (xorb neg (negb (v =? 0)%Z)) false
              | None => pp_loop fuel' defs r (i + 1)%Z false (xorb neg res) false
              end
            else err i
          else if isalpha c then
            if okTerm then
              let (a, b) := word r in
              pp_loop fuel' defs b (i + 1 + Z.of_nat (List.length a))%Z false (xorb neg (existsb (streq (c :: a)) defs)) false
            else err i
          else err i
      end
  end.

Definition eval_pp (defs : list (list Z)) (z : list Z) : res Z := pp_loop (S (List.length z)) defs z 0%Z false false true.

(** The three ways in which preprocess_input ends. *)
Inductive ppout : Type :=
| PPdone (z : list Z)
| PPsyntax (lineno : Z) (pos : Z)       (* exit(1): %if syntax error on line *)
| PPunterminated (lineno : Z).          (* exit(1): unterminated %ifdef starting on line *)

(** if( z[j]!='\n' ) z[j] = ' '; *)
Definition blank (l : list Z) : list Z := map (fun c => if (c =? 10)%Z then 10%Z else 32%Z) l.

(** for(j=a; j<b; j++) if( z[j]!='\n' ) z[j] = ' '; *)
Definition blank_range (a b : nat) (z : list Z) : list Z := firstn a z ++ blank (firstn (b - a) (skipn a z)) ++ skipn (Nat.max a b) z.

(** The length of the line that starts at z. *)
Fixpoint linelen (z : list Z) : nat := match z with [] => 0 | c :: r => if (c =? 10)%Z then 0 else S (linelen r) end.

(** for(j=i; z[j] && z[j]!='\n'; j++) z[j] = ' '; *)
Definition blank_line (i : nat) (z : list Z) : list Z := blank_range i (i + linelen (skipn i z)) z.

(** for(j=i; z[j] && !ISSPACE(z[j]); j++){} as a length. *)
Fixpoint nospace (z : list Z) : nat := match z with [] => 0 | c :: r => if isspace c then 0 else S (nospace r) end.

Definition space_at (z : list Z) (k : nat) : bool := match nth_error z k with Some c => isspace c | None => false end.

(** lemon/lemon.c:2998-3052 preprocess_input: the loop from position [i]. *)
Fixpoint pp_scan (fuel : nat) (defs : list (list Z)) (z : list Z) (i exclude start : nat) (lineno start_lineno : Z) : res ppout :=
  match fuel with
  | 0 => Fuel
  | S fuel' =>
      match nth_error z i with
      | None => Ok (if exclude =? 0 then PPdone z else PPunterminated start_lineno)
      | Some c =>
          let lineno := if (c =? 10)%Z then (lineno + 1)%Z else lineno in
          let here := skipn i z in
          if negb (c =? 37)%Z || ((0 <? i) && negb (nth (i - 1) z 0 =? 10)%Z) then
            pp_scan fuel' defs z (S i) exclude start lineno start_lineno
          else if starts (zs "%endif") here && space_at here 6 then
            let z1 := if exclude =? 1 then blank_range start i z else z in
            pp_scan fuel' defs (blank_line i z1) (S i) (exclude - 1) start lineno start_lineno
          else if starts (zs "%else") here && space_at here 5 then
            if exclude =? 1 then
              pp_scan fuel' defs (blank_line i (blank_range start i z)) (S i) 0 start lineno start_lineno
            else if exclude =? 0 then
              pp_scan fuel' defs (blank_line i z) (S i) 1 i lineno lineno
            else pp_scan fuel' defs (blank_line i z) (S i) exclude start lineno start_lineno
          else if starts (zs "%ifdef ") here || starts (zs "%if ") here || starts (zs "%ifndef ") here then
            if negb (exclude =? 0) then
              pp_scan fuel' defs (blank_line i z) (S i) (exclude + 1) start lineno start_lineno
            else
              let j := nospace here in
              let isNot := j =? 7 in
              v <- eval_pp defs (firstn (linelen here - j) (skipn j here)) ;;
              if (v <? 0)%Z then Ok (PPsyntax lineno (- v - 1)%Z)
              else
                let ex := if isNot then negb (v =? 0)%Z else (v =? 0)%Z in
                if ex then pp_scan fuel' defs (blank_line i z) (S i) 1 i lineno lineno
                else pp_scan fuel' defs (blank_line i z) (S i) 0 start lineno start_lineno
          else pp_scan fuel' defs z (S i) exclude start lineno start_lineno
      end
  end.

Definition preprocess_input (defs : list (list Z)) (z : list Z) : res ppout :=
  pp_scan (S (List.length z)) defs z 0 0 0 1%Z 1%Z.
