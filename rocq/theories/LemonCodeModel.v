(** Model of the part of lemon that rewrites the C code of the rules (lemon/lemon.c:4134-4405
    has_destructor, append_str and translate_code).

    Texts are lists of characters without the terminating zero byte.  A read or store outside an array
    and a failed assert are [Bad].  The fixed arrays zOvwrt[900], used[MAXRHS] and the growing buffer of
    append_str are arrays of bytes; fresh bytes of the buffer are 1, so that a missing terminator shows.
    Left out: failing allocations (the program exits or returns an empty string), the line numbers and
    the wording of the error messages (a message is a constructor with what it names), and zLhs[50],
    into which C's own sprintf writes at most 40 bytes. *)
From Coq Require Import List Arith ZArith Bool Lia String Ascii.
Import ListNotations.
From Verif Require Import Base LemonTableModel LemonPreModel LemonPrintfModel.
Open Scope res_scope.

Definition txt := list Z.

(** strcmp(a,b)==0 on texts without zero bytes. *)
Fixpoint teqb (a b : txt) : bool :=
  match a, b with
  | [], [] => true
  | x :: a, y :: b => (x =? y)%Z && teqb a b
  | _, _ => false
  end.

(** The string in an array: the bytes before the first zero byte. *)
Fixpoint cstr (b : list Z) : res txt :=
  match b with
  | [] => Bad
  | c :: r => if (c =? 0)%Z then Ok [] else x <- cstr r ;; Ok (c :: x)
  end.

(** * append_str *)

(** lemon/lemon.c:4157-4162 StrAppendBuffer: z with its [alloced] bytes ([] for the null pointer), used *)
Record sab : Type := mkSab { sb_z : list Z; sb_used : nat }.

(** lemon/lemon.c:4166-4170: append_str(buf,0,0,0,0), which gives the text and empties the buffer; None for
    the null pointer.  As in C the characters stay where they are until the next store. *)
Definition append_reset (b : sab) : res (option txt * sab) :=
  match sb_z b with
  | [] => Ok (None, mkSab [] 0)
  | c :: r =>
      let z := if sb_used b =? 0 then 0%Z :: r else c :: r in
      t <- cstr z ;; Ok (Some t, mkSab z 0)
  end.

(** lemon/lemon.c:4183-4196: the loop over zText.  [n] counts down as there; a character behind the end of
    the text is the terminating zero byte. *)
Fixpoint append_loop (n : nat) (t : txt) (p1 p2 : Z) (z : list Z) (used : nat) : res (list Z * nat) :=
  match n with
  | 0 => Ok (z, used)
  | S n' =>
      let c := nth 0 t 0%Z in
      if ((c =? 37)%Z && (1 <=? n') && (nth 1 t 0 =? 100)%Z)%bool then
        r <- lemon_vsprintf (repeat 1%Z 40) [37; 100]%Z [AInt p1] ;;
        match r with
        | None => Bad
        | Some (zInt, _) =>
            d <- cstr zInt ;;
            z <- stores z used (d ++ [0%Z]) ;;
            match n' with 0 => Bad | S n'' => append_loop n'' (skipn 2 t) p2 p2 z (used + List.length d) end
        end
      else
        z <- store z used c ;; append_loop n' (skipn 1 t) p1 p2 z (S used)
  end.

(** lemon/lemon.c:4163-4199 append_str with a text.  sizeof(zInt) is 40. *)
Definition append_str (b : sab) (t : txt) (n : Z) (p1 p2 : Z) : res sab :=
  u <- (if (n <? 0)%Z then (if (Z.of_nat (sb_used b) + n <? 0)%Z then Bad else Ok (sb_used b - Z.to_nat (- n))) else Ok (sb_used b)) ;;
  let k := if (n <=? 0)%Z then List.length t else Z.to_nat n in
  let z := if List.length (sb_z b) <=? k + 80 + u then sb_z b ++ repeat 1%Z (k + 80 + u + 200 - List.length (sb_z b)) else sb_z b in
  zu <- append_loop k t p1 p2 z u ;;
  z <- store (fst zu) (snd zu) 0%Z ;; Ok (mkSab z (snd zu)).

(** * translate_code *)

Inductive styp : Type := STerminal | SNonterminal | SMulti.

(** What translate_code reads of a symbol: type, index, dtnum, destructor!=0, subsym[0]->dtnum. *)
Record csym : Type := mkSym { cs_type : styp; cs_index : Z; cs_dtnum : Z; cs_dest : bool; cs_sub0 : Z }.

(** A rule: the left-hand side with its label, the right-hand side with its labels, the code. *)
Record crule : Type := mkRule { cr_lhs : csym; cr_lhsalias : option txt; cr_rhs : list (csym * option txt); cr_code : option txt }.

(** The error messages of translate_code. *)
Inductive cmsg : Type :=
| MDatatypes              (* "%s(%s) and %s(%s) share the same label but have different datatypes." *)
| MAfter                  (* "Label %s used after '%s'." *)
| MLhsUnused              (* "Label \"%s\" for \"%s(%s)\" is never used." *)
| MSameLhs (i : nat)      (* "%s(%s) has the same label as the LHS but is not the left-most symbol on the RHS." *)
| MTwice (i : nat)        (* "Label %s used for multiple symbols on the RHS of a rule." *)
| MUnused (i : nat).      (* "Label %s for \"%s(%s)\" is never used." *)

(** lemon/lemon.c:4134-4143 has_destructor; [tokendest] and [vardest] say that the pointers are not null. *)
Definition has_destructor (tokendest vardest : bool) (sp : csym) : bool :=
  match cs_type sp with STerminal => tokendest | _ => vardest || cs_dest sp end.

(** strstr: the offset of the first occurrence. *)
Fixpoint strstr (h n : txt) : option nat :=
  if starts n h then Some 0 else match h with [] => None | _ :: h' => option_map S (strstr h' n) end.

(** A character of a string, the terminating zero byte included. *)
Definition rd (t : txt) (i : nat) : res Z :=
  match nth_error t i with Some c => Ok c | None => if i =? List.length t then Ok 0%Z else Bad end.

(** lemon/lemon.c:4300: for(xp=...; ISALNUM( *xp) || *xp=='_'; xp++); *)
Fixpoint word_end (t : txt) (i : nat) : nat :=
  match t with c :: r => if wordch c then word_end r (S i) else i | [] => i end.

(** What the loop over the code keeps: the buffer, used[], lhsused, dontUseRhs0 and the messages. *)
Record tst : Type := mkTst { t_buf : sab; t_used : list bool; t_lhsused : bool; t_dont : bool; t_msgs : list cmsg }.

(** lemon/lemon.c:4308-4334: for(i=0; i<rp->nrhs; i++): the first symbol with the label [w]. *)
Fixpoint find_label (rhs : list (csym * option txt)) (w : txt) (i : nat) : option (nat * csym) :=
  match rhs with
  | [] => None
  | (s, Some a) :: r => if teqb w a then Some (i, s) else find_label r w (S i)
  | (_, None) :: r => find_label r w (S i)
  end.

(** lemon/lemon.c:4318-4324 *)
Definition value_dtnum (sp : csym) : Z := match cs_type sp with SMulti => cs_sub0 sp | _ => cs_dtnum sp end.

(** i-rp->nrhs+1 *)
Definition offset (r : crule) (i : nat) : Z := (Z.of_nat i - Z.of_nat (List.length (cr_rhs r)) + 1)%Z.

(** lemon/lemon.c:4315-4333: the label of the i-th symbol on the right; [at_] says that '@' stands before it. *)
Definition rhs_label (r : crule) (i : nat) (sp : csym) (at_ : bool) (s : tst) : res tst :=
  let used := upd (t_used s) i true in
  if ((i =? 0) && t_dont s)%bool then Ok (mkTst (t_buf s) used (t_lhsused s) (t_dont s) (t_msgs s ++ [MAfter]))
  else if at_ then
    b <- append_str (t_buf s) (zs "yymsp[%d].major") (-1) (offset r i) 0 ;;
    Ok (mkTst b used (t_lhsused s) (t_dont s) (t_msgs s))
  else
    b <- append_str (t_buf s) (zs "yymsp[%d].minor.yy%d") 0 (offset r i) (value_dtnum sp) ;;
    Ok (mkTst b used (t_lhsused s) (t_dont s) (t_msgs s)).

(** lemon/lemon.c:4291-4338: the loop over the code; [cp] is the offset of cp in rp->code. *)
Fixpoint code_loop (fuel : nat) (r : crule) (code zLhs zOvwrt : txt) (zSkip : option nat) (cp : nat) (s : tst) : res tst :=
  match fuel with
  | 0 => Fuel
  | S fuel' =>
      c <- rd code cp ;;
      if (c =? 0)%Z then Ok s
      else if match zSkip with Some k => cp =? k | None => false end then
        b <- append_str (t_buf s) zOvwrt 0 0 0 ;;
        code_loop fuel' r code zLhs zOvwrt zSkip (cp + List.length zOvwrt)
          (mkTst b (t_used s) (t_lhsused s) true (t_msgs s))
      else
        x <- (if (isalpha c && ((cp =? 0) || negb (wordch (nth (cp - 1) code 0%Z))))%bool then
                let xp := word_end (skipn (S cp) code) (S cp) in
                let w := firstn (xp - cp) (skipn cp code) in
                if match cr_lhsalias r with Some a => teqb w a | None => false end then
                  b <- append_str (t_buf s) zLhs 0 0 0 ;;
                  Ok (xp, mkTst b (t_used s) true (t_dont s) (t_msgs s))
                else
                  match find_label (cr_rhs r) w 0 with
                  | Some (i, sp) =>
                      s <- rhs_label r i sp (negb (cp =? 0) && (nth (cp - 1) code 0 =? 64)%Z) s ;; Ok (xp, s)
                  | None => Ok (cp, s)
                  end
              else Ok (cp, s)) ;;
        let (cp, s) := x in
        d <- rd code cp ;;
        b <- append_str (t_buf s) [d] 1 0 0 ;;
        code_loop fuel' r code zLhs zOvwrt zSkip (S cp) (mkTst b (t_used s) (t_lhsused s) (t_dont s) (t_msgs s))
  end.

(** lemon/lemon.c:4356-4389: the messages about the labels of the symbols on the right and the destructors of
    the symbols without label; [done] are the symbols before the i-th. *)
Fixpoint label_loop (tokendest vardest : bool) (r : crule) (done todo : list (csym * option txt)) (used : list bool)
    (b : sab) (m : list cmsg) : res (sab * list cmsg) :=
  let i := List.length done in
  match todo with
  | [] => Ok (b, m)
  | (sp, None) :: todo' =>
      b <- (if ((0 <? i) && has_destructor tokendest vardest sp)%bool
            then append_str b (zs "  yy_destructor(yypParser,%d,&yymsp[%d].minor);
") 0 (cs_index sp) (offset r i) else Ok b) ;;
      label_loop tokendest vardest r (done ++ [(sp, None)]) todo' used b m
  | (sp, Some a) :: todo' =>
      let m1 := if ((0 <? i) && match cr_lhsalias r with Some l => teqb l a | None => false end)%bool then [MSameLhs i] else [] in
      let m2 := if ((0 <? i) && match find_label done a 0 with Some _ => true | None => false end)%bool then [MTwice i] else [] in
      let m3 := if nth i used false then [] else [MUnused i] in
      label_loop tokendest vardest r (done ++ [(sp, Some a)]) todo' used b (m ++ m1 ++ m2 ++ m3)
  end.

(** What translate_code leaves in the rule: code, codePrefix, codeSuffix and noCode, the messages, and the
    result (1 when yylhsminor is needed). *)
Record trans : Type := mkTrans { tr_code : txt; tr_prefix : option txt; tr_suffix : option txt; tr_nocode : bool; tr_msgs : list cmsg; tr_lhsminor : bool }.

(** Decimal text as written by C's sprintf. *)
Definition zdec (v : Z) : txt :=
  match digits 50 (Z.abs v) [] with Ok [] => [48%Z] | Ok d => (if (v <? 0)%Z then [45%Z] else []) ++ d | _ => [] end.

(** lemon/lemon.c:4238-4275: the six cases of lhsdirect: the buffer, codePrefix, lhsdirect, lhsused, used[0],
    messages, zOvwrt and zSkip. *)
Record lhscase : Type := mkLc { lc_buf : sab; lc_prefix : option txt; lc_direct : bool; lc_same : bool; lc_msgs : list cmsg; lc_ovwrt : txt; lc_skip : option nat }.

Definition lhs_case (tokendest vardest : bool) (r : crule) (code : txt) : res lhscase :=
  let b0 := mkSab [] 0 in
  match cr_rhs r with
  | [] => Ok (mkLc b0 None true false [] [] None)
  | (sp, None) :: _ =>
      if has_destructor tokendest vardest sp then
        b <- append_reset b0 ;;
        b <- append_str (snd b) (zs "  yy_destructor(yypParser,%d,&yymsp[%d].minor);
") 0 (cs_index sp) (offset r 0) ;;
        tb <- append_reset b ;;
        match fst tb with
        | Some t => Ok (mkLc (snd tb) (Some t) true false [] [] None)
        | None => Bad
        end
      else Ok (mkLc b0 None true false [] [] None)
  | (sp, Some a) :: _ =>
      match cr_lhsalias r with
      | None => Ok (mkLc b0 None true false [] [] None)
      | Some l =>
          if teqb l a then
            Ok (mkLc b0 None true true (if (cs_dtnum (cr_lhs r) =? cs_dtnum sp)%Z then [] else [MDatatypes]) [] None)
          else
            o <- lemon_vsprintf (repeat 1%Z 900) (zs "/*%s-overwrites-%s*/") [AStr l; AStr a] ;;
            match o with
            | None => Bad
            | Some (z, _) =>
                zOvwrt <- cstr z ;;
                match strstr code zOvwrt with
                | Some k => Ok (mkLc b0 None true false [] zOvwrt (Some k))
                | None => Ok (mkLc b0 None false false [] zOvwrt None)
                end
            end
      end
  end.

(** lemon/lemon.c:4212-4405 translate_code.  MAXRHS is 1000 (lemon/lemon.c:40-46). *)
Definition translate_code (tokendest vardest : bool) (r : crule) : res trans :=
  let nrhs := List.length (cr_rhs r) in
  if 1000 <? nrhs then Bad
  else
    let code := match cr_code r with Some c => c | None => [10%Z] end in
    lc <- lhs_case tokendest vardest r code ;;
    let zLhs := if lc_direct lc then zs "yymsp[" ++ zdec (1 - Z.of_nat nrhs) ++ zs "].minor.yy" ++ zdec (cs_dtnum (cr_lhs r))
                else zs "yylhsminor.yy" ++ zdec (cs_dtnum (cr_lhs r)) in
    b <- append_reset (lc_buf lc) ;;
    let used := repeat false nrhs in
    s <- code_loop (S (List.length code)) r code zLhs (lc_ovwrt lc) (lc_skip lc) 0
           (mkTst (snd b) (if lc_same lc then upd used 0 true else used) (lc_same lc) false (lc_msgs lc)) ;;
    tb <- append_reset (t_buf s) ;;
    let newcode := match fst tb with Some (c :: t) => c :: t | _ => code end in
    tb <- append_reset (snd tb) ;;
    let m1 := match cr_lhsalias r with Some _ => if t_lhsused s then [] else [MLhsUnused] | None => [] end in
    bm <- label_loop tokendest vardest r [] (cr_rhs r) (t_used s) (snd tb) (t_msgs s ++ m1) ;;
    b <- (if lc_direct lc then Ok (fst bm)
          else b <- append_str (fst bm) (zs "  yymsp[%d].minor.yy%d = ") 0 (1 - Z.of_nat nrhs) (cs_dtnum (cr_lhs r)) ;;
               b <- append_str b zLhs 0 0 0 ;;
               append_str b (zs ";
") 0 0 0) ;;
    tb <- append_reset b ;;
    let suffix := match fst tb with Some (c :: t) => Some (c :: t) | _ => None end in
    Ok (mkTrans newcode (lc_prefix lc) suffix
          (match cr_code r, lc_prefix lc, suffix with None, None, None => true | _, _, _ => false end)
          (snd bm) (negb (lc_direct lc))).
