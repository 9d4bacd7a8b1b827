(** Model of the parts of ReportTable that write text into the generated parser and keep its line number
    (lemon/lemon.c:3954-3997 tplt_xfer and tplt_skip_header; 4053-4082 tplt_linedir and tplt_print; 4086-4129
    emit_destructor_code; 4412-4452 emit_code; 4462-4580 print_stack_union; 4955-5008 the start of ReportTable;
    5349-5415 the destructors; 5440-5491 the switch over the rules).

    Texts are lists of characters without the terminating zero byte; reads outside a string and failed
    asserts are [Bad].  Left out: failing allocations, the options -D that the first comment lists, and the
    text of a rule in comments (writeRuleText), which is given. *)
From Coq Require Import List Arith ZArith Bool Lia String.
Import ListNotations.
From Verif Require Import Base LemonTableModel LemonPreModel LemonPrintfModel LemonCodeModel.
Open Scope res_scope.

Definition nl : txt := [10%Z].

(** * The union of the values *)

(** What print_stack_union reads of a symbol: sp==lemp->errsym, sp->type==NONTERMINAL, sp->datatype. *)
Record usym : Type := mkUs { us_err : bool; us_nt : bool; us_type : option txt }.

(** lemon/lemon.c:4522-4525: leading and trailing space goes away. *)
Fixpoint skip_space (t : txt) : txt := match t with c :: r => if isspace c then skip_space r else t | [] => [] end.
Definition stdtype (t : txt) : txt := rev (skip_space (rev (skip_space t))).

(** lemon/lemon.c:4530-4534: unsigned arithmetic of 32 bits *)
Definition type_hash (t : txt) (size : nat) : nat :=
  let h := fold_left (fun h c => ((h * 53 + c) mod 2 ^ 32)%Z) t 0%Z in
  Z.to_nat ((h mod 2 ^ 31) mod Z.of_nat size)%Z.

(** lemon/lemon.c:4535-4551: the search in types[]; the place, and whether it was free. *)
Fixpoint type_probe (fuel : nat) (types : list (option txt)) (t : txt) (h : nat) : res nat :=
  match fuel with
  | 0 => Fuel
  | S f =>
      match nth_error types h with
      | None => Bad
      | Some None => Ok h
      | Some (Some u) => if teqb u t then Ok h else type_probe f types t (if List.length types <=? S h then 0 else S h)
      end
  end.

(** lemon/lemon.c:4507-4553: one symbol; dtnum and types[].  [room] is the size of stddt. *)
Definition union_step (tokentype vartype : option txt) (room : nat) (s : usym) (types : list (option txt)) : res (nat * list (option txt)) :=
  let size := List.length types in
  if us_err s then Ok (S size, types)
  else
    match (if us_nt s then match us_type s with Some t => Some t | None => vartype end else None) with
    | None => Ok (0, types)
    | Some cp =>
        if room <=? List.length (skip_space cp) then Bad
        else
          let t := stdtype cp in
          if match tokentype with Some k => teqb t k | None => false end then Ok (0, types)
          else
            h <- type_probe (S size) types t (type_hash t size) ;;
            Ok (S h, upd types h (Some t))
    end.

Fixpoint union_loop (tokentype vartype : option txt) (room : nat) (syms : list usym) (types : list (option txt)) : res (list nat * list (option txt)) :=
  match syms with
  | [] => Ok ([], types)
  | s :: r =>
      x <- union_step tokentype vartype room s types ;;
      y <- union_loop tokentype vartype room r (snd x) ;; Ok (fst x :: fst y, snd y)
  end.

(** The members yyN of the union with N>0, in order: the types, then the one of the error symbol. *)
Fixpoint union_members (i : nat) (types : list (option txt)) : list (nat * txt) :=
  match types with
  | [] => []
  | Some t :: r => (S i, t) :: union_members (S i) r
  | None :: r => union_members (S i) r
  end.

(** lemon/lemon.c:4462-4574 print_stack_union: the dtnum of every symbol and the members. *)
Definition print_stack_union (tokentype vartype : option txt) (syms : list usym) : res (list nat * list (nat * txt)) :=
  let size := List.length syms * 2 in
  let maxlen := fold_left (fun m s => match us_type s with Some t => Nat.max m (List.length t) | None => m end) syms
                  (match vartype with Some t => List.length t | None => 0 end) in
  x <- union_loop tokentype vartype (maxlen * 2 + 1) syms (repeat None size) ;;
  Ok (fst x, union_members 0 (snd x) ++ (if existsb us_err syms then [(S size, zs "int")] else [])).

(** * Output with its line number *)

Record outp : Type := mkOut { o_text : txt; o_line : nat }.

(** fprintf, putc; lineno does not change. *)
Definition put (t : txt) (o : outp) : outp := mkOut (o_text o ++ t) (o_line o).
(** lineno += n *)
Definition inc (n : nat) (o : outp) : outp := mkOut (o_text o) (o_line o + n).

Definition newlines (t : txt) : nat := List.length (filter (fun c => (c =? 10)%Z) t).

(** lemon/lemon.c:4054-4063 tplt_linedir *)
Definition tplt_linedir (n : nat) (file : txt) (o : outp) : outp :=
  put (zs "#line " ++ zdec (Z.of_nat n) ++ zs " """ ++ flat_map (fun c => if (c =? 92)%Z then [92; 92]%Z else [c]) file ++ zs """" ++ nl) o.

(** A #line for the generated file itself: (( *lineno)++; tplt_linedir(out,*lineno,lemp->outname); *)
Definition back_to_out (nolinenos : bool) (outname : txt) (o : outp) : outp :=
  if nolinenos then o else let o := inc 1 o in tplt_linedir (o_line o) outname o.

(** lemon/lemon.c:4066-4082 tplt_print; str[-1] of an empty text is a read before the string *)
Definition tplt_print (nolinenos : bool) (outname : txt) (str : option txt) (o : outp) : res outp :=
  match str with
  | None => Ok o
  | Some [] => Bad
  | Some t =>
      let o := inc (newlines t) (put t o) in
      let o := if (last t 0 =? 10)%Z then o else inc 1 (put nl o) in
      Ok (back_to_out nolinenos outname o)
  end.

(** ** Templates *)

(** fgets(line,LINESIZE,in): at most 999 characters, up to and with a newline. *)
Fixpoint fgets (room : nat) (t : txt) : txt * txt :=
  match room, t with
  | S n, c :: r => if (c =? 10)%Z then ([c], r) else let (l, u) := fgets n r in (c :: l, u)
  | _, _ => ([], t)
  end.

(** lemon/lemon.c:3972-3984: words that begin with "Parse"; [prev] is line[i-1], 0 at the start. *)
Fixpoint rename (fuel : nat) (name : txt) (prev : Z) (t : txt) : txt :=
  match fuel, t with
  | S f, c :: r =>
      if (starts (zs "Parse") t && negb (isalpha prev))%bool then name ++ rename f name 101%Z (skipn 5 t)
      else c :: rename f name c r
  | _, _ => []
  end.

Definition is_mark (l : txt) : bool := starts [37; 37]%Z l.

(** lemon/lemon.c:3964-3986 tplt_xfer: the rest of the template and the output *)
Fixpoint tplt_xfer (fuel : nat) (name : option txt) (t : txt) (o : outp) : res (txt * outp) :=
  match fuel with
  | 0 => Fuel
  | S f =>
      let (l, r) := fgets 999 t in
      match l with
      | [] => Ok (r, o)
      | _ => if is_mark l then Ok (r, o)
             else tplt_xfer f name r (put (match name with Some n => rename (List.length l) n 0%Z l | None => l end) (inc 1 o))
      end
  end.

(** lemon/lemon.c:3989-3995 tplt_skip_header *)
Fixpoint tplt_skip_header (fuel : nat) (t : txt) (o : outp) : res (txt * outp) :=
  match fuel with
  | 0 => Fuel
  | S f =>
      let (l, r) := fgets 999 t in
      match l with
      | [] => Ok (r, o)
      | _ => if is_mark l then Ok (r, o) else tplt_skip_header f r (inc 1 o)
      end
  end.

(** * Destructors *)

(** lemon/lemon.c:4116-4124: "$$" is the value. *)
Fixpoint dollars (fuel : nat) (dt : Z) (t : txt) : txt :=
  match fuel, t with
  | S f, c :: r =>
      if ((c =? 36)%Z && match r with d :: _ => (d =? 36)%Z | [] => false end)%bool
      then zs "(yypminor->yy" ++ zdec dt ++ zs ")" ++ dollars f dt (skipn 1 r)
      else c :: dollars f dt r
  | _, _ => []
  end.

(** What the destructors read of a symbol: name, type==TERMINAL, dtnum, destructor, destLineno. *)
Record dsym : Type := mkDs { ds_name : txt; ds_term : bool; ds_dtnum : Z; ds_dest : option txt; ds_line : nat }.

(** The declarations that the functions below read. *)
Record emitopts : Type := mkEo { eo_tokendest : option txt; eo_vardest : option txt; eo_nolinenos : bool; eo_filename : txt; eo_outname : txt }.

(** lemon/lemon.c:4086-4129 emit_destructor_code *)
Definition emit_destructor_code (e : emitopts) (s : dsym) (o : outp) : res outp :=
  let body cp o :=
    let o := inc (newlines cp) (put (dollars (List.length cp) (ds_dtnum s) cp) o) in
    let o := inc 1 (put nl o) in
    let o := back_to_out (eo_nolinenos e) (eo_outname e) o in
    Ok (inc 1 (put (zs "}" ++ nl) o)) in
  if ds_term s then
    match eo_tokendest e with
    | None => Ok o
    | Some cp => body cp (inc 1 (put (zs "{" ++ nl) o))
    end
  else
    match ds_dest s with
    | Some cp =>
        let o := inc 1 (put (zs "{" ++ nl) o) in
        body cp (if eo_nolinenos e then o else tplt_linedir (ds_line s) (eo_filename e) (inc 1 o))
    | None =>
        match eo_vardest e with
        | Some cp => body cp (inc 1 (put (zs "{" ++ nl) o))
        | None => Bad
        end
    end.

(** fprintf(out,"    case %d: /* %s */\n", ...); lineno++; *)
Definition case_line (i : nat) (name : txt) (o : outp) : outp :=
  inc 1 (put (zs "    case " ++ zdec (Z.of_nat i) ++ zs ": /* " ++ name ++ zs " */" ++ nl) o).
Definition break_line (o : outp) : outp := inc 1 (put (zs "      break;" ++ nl) o).

(** One group of the switch in yy_destructor: the indices of its cases and the symbol whose destructor is
    written for them. *)
Definition dgroup : Type := (list nat * dsym)%type.

(** lemon/lemon.c:5393-5415: the symbols with a destructor of their own; [done] are the indices with destLineno
    set to -1. *)
Definition same_dest (s s2 : dsym) : bool :=
  match ds_dest s, ds_dest s2 with
  | Some a, Some b => negb (ds_term s2) && (ds_dtnum s2 =? ds_dtnum s)%Z && teqb a b
  | _, _ => false
  end.

Fixpoint own_groups (syms : list (nat * dsym)) (done : list nat) : list dgroup :=
  match syms with
  | [] => []
  | (i, s) :: r =>
      if (ds_term s || match ds_dest s with None => true | Some _ => false end || existsb (Nat.eqb i) done)%bool then own_groups r done
      else
        let dup := map fst (filter (fun x => same_dest s (snd x)) r) in
        (i :: dup, s) :: own_groups r (dup ++ done)
  end.

Fixpoint index_from {A} (i : nat) (l : list A) : list (nat * A) := match l with [] => [] | a :: r => (i, a) :: index_from (S i) r end.

(** lemon/lemon.c:5353-5415: the groups of the switch, in order.  The index of a symbol is its place in symbols[]
    (lemon/lemon.c:1767). *)
Definition destructor_groups (e : emitopts) (syms : list dsym) : list dgroup :=
  let all := index_from 0 syms in
  (match eo_tokendest e with
   | None => []
   | Some _ => match filter (fun x => ds_term (snd x)) all with [] => [] | (i, s) :: r => [(i :: map fst r, s)] end
   end) ++
  (match eo_vardest e with
   | None => []
   | Some _ =>
       match rev (filter (fun x => negb (ds_term (snd x)) && (0 <? fst x) && match ds_dest (snd x) with None => true | Some _ => false end)%bool all) with
       | [] => []
       | (i, s) :: r => [(rev (i :: map fst r), s)]
       end
   end) ++
  own_groups all [].

Definition name_of (syms : list dsym) (i : nat) : txt := match nth_error syms i with Some s => ds_name s | None => [] end.

(** The text of a group; a destructor of their own has no comment before it. *)
Definition emit_group (e : emitopts) (syms : list dsym) (g : dgroup) (o : outp) : res outp :=
  let o := fold_left (fun o i => case_line i (name_of syms i) o) (fst g) o in
  o <- emit_destructor_code e (snd g) o ;; Ok (break_line o).

Fixpoint emit_groups (e : emitopts) (syms : list dsym) (gs : list dgroup) (o : outp) : res outp :=
  match gs with [] => Ok o | g :: r => o <- emit_group e syms g o ;; emit_groups e syms r o end.

(** lemon/lemon.c:5349-5415.  With %default_destructor a "break;" is written even when no symbol has the default
    destructor (lemon/lemon.c:5391). *)
Definition emit_destructors (e : emitopts) (syms : list dsym) (o : outp) : res outp :=
  let all := index_from 0 syms in
  let tok := match eo_tokendest e with None => [] | Some _ => match filter (fun x => ds_term (snd x)) all with [] => [] | (i, s) :: r => [(i :: map fst r, s)] end end in
  let dfl := match eo_vardest e with None => [] | Some _ =>
       match rev (filter (fun x => negb (ds_term (snd x)) && (0 <? fst x) && match ds_dest (snd x) with None => true | Some _ => false end)%bool all) with
       | [] => [] | (i, s) :: r => [(rev (i :: map fst r), s)] end end in
  let o := match tok with [] => o | _ => inc 1 (put (zs "      /* TERMINAL Destructor */" ++ nl) o) end in
  o <- emit_groups e syms tok o ;;
  let o := match dfl with [] => o | _ => inc 1 (put (zs "      /* Default NON-TERMINAL Destructor */" ++ nl) o) end in
  o <- emit_groups e syms dfl o ;;
  let o := match eo_vardest e, dfl with Some _, [] => break_line o | _, _ => o end in
  emit_groups e syms (own_groups all []) o.

(** * The switch over the rules *)

(** What translate_code left in a rule, with rp->line, the text of the rule, neverReduce and doesReduce. *)
Record erule : Type := mkEr { er_code : txt; er_prefix : option txt; er_suffix : option txt; er_nocode : bool; er_line : nat; er_text : txt; er_never : bool; er_does : bool }.

(** lemon/lemon.c:4412-4452 emit_code *)
Definition emit_code (e : emitopts) (r : erule) (o : outp) : outp :=
  let o := match er_prefix r with Some (c :: p) => inc (newlines (c :: p)) (put (zs "{" ++ c :: p) o) | _ => o end in
  let o := if eo_nolinenos e then o else tplt_linedir (er_line r) (eo_filename e) (inc 1 o) in
  let o := inc (newlines (er_code r)) (put (zs "{" ++ er_code r) o) in
  let o := inc 1 (put (zs "}" ++ nl) o) in
  let o := back_to_out (eo_nolinenos e) (eo_outname e) o in
  let o := match er_suffix r with Some (c :: p) => inc (newlines (c :: p)) (put (c :: p) o) | _ => o end in
  match er_prefix r with Some _ => inc 1 (put (zs "}" ++ nl) o) | None => o end.

(** rp2->code==rp->code && ...: the strings are interned, so the pointers are equal when the texts are (C25). *)
Definition oeqb (a b : option txt) : bool := match a, b with Some x, Some y => teqb x y | None, None => true | _, _ => false end.
Definition same_code (r r2 : erule) : bool := (teqb (er_code r2) (er_code r) && oeqb (er_prefix r2) (er_prefix r) && oeqb (er_suffix r2) (er_suffix r))%bool.

(** lemon/lemon.c:5448-5470: the groups: the numbers of the cases and the rule whose code is written; [done] are the
    rules with codeEmitted. *)
Fixpoint rule_groups (rules : list (nat * erule)) (done : list nat) : list (list nat * erule) * list nat :=
  match rules with
  | [] => ([], done)
  | (i, r) :: rest =>
      if (existsb (Nat.eqb i) done || er_nocode r)%bool then rule_groups rest done
      else
        let dup := map fst (filter (fun x => same_code r (snd x)) rest) in
        let (gs, d) := rule_groups rest (i :: dup ++ done) in ((i :: dup, r) :: gs, d)
  end.

(** lemon/lemon.c:5474-5489: the rules of the default case; assert( rp->noCode ). *)
Fixpoint default_rules (rules : list (nat * erule)) (done : list nat) : res (list nat) :=
  match rules with
  | [] => Ok []
  | (i, r) :: rest =>
      if existsb (Nat.eqb i) done then default_rules rest done
      else if er_nocode r then x <- default_rules rest done ;; Ok (i :: x) else Bad
  end.

(** lemon/lemon.c:5446-5490: the switch: its groups and its default rules. *)
Definition rule_switch (rules : list erule) : res (list (list nat * erule) * list nat) :=
  let all := index_from 0 rules in
  let (gs, done) := rule_groups all [] in
  d <- default_rules all done ;; Ok (gs, d).

Definition text_of (rules : list erule) (i : nat) : txt := match nth_error rules i with Some r => er_text r | None => [] end.

(** lemon/lemon.c:5455-5469 *)
Definition emit_rule_group (e : emitopts) (rules : list erule) (g : list nat * erule) (o : outp) : outp :=
  let o := match fst g with
           | [] => o
           | i :: dup =>
               let o := inc 1 (put (zs "      case " ++ zdec (Z.of_nat i) ++ zs ": /* " ++ text_of rules i ++ zs " */" ++ nl) o) in
               fold_left (fun o j => inc 1 (put (zs "      case " ++ zdec (Z.of_nat j) ++ zs ": /* " ++ text_of rules j ++ zs " */ yytestcase(yyruleno==" ++ zdec (Z.of_nat j) ++ zs ");" ++ nl) o)) dup o
           end in
  inc 1 (put (zs "        break;" ++ nl) (emit_code e (snd g) o)).

(** lemon/lemon.c:5477-5489 *)
Definition emit_default (rules : list erule) (o : outp) (i : nat) : outp :=
  match nth_error rules i with
  | None => o
  | Some r =>
      let k := zdec (Z.of_nat i) in
      let o := put (zs "      /* (" ++ k ++ zs ") " ++ er_text r) o in
      if er_never r then inc 1 (put (zs " (NEVER REDUCES) */ assert(yyruleno!=" ++ k ++ zs ");" ++ nl) o)
      else if er_does r then inc 1 (put (zs " */ yytestcase(yyruleno==" ++ k ++ zs ");" ++ nl) o)
      else inc 1 (put (zs " (OPTIMIZED OUT) */ assert(yyruleno!=" ++ k ++ zs ");" ++ nl) o)
  end.

(** lemon/lemon.c:5443-5491 *)
Definition emit_rules (e : emitopts) (rules : list erule) (lhsminor : bool) (o : outp) : res outp :=
  sw <- rule_switch rules ;;
  let o := if lhsminor then inc 1 (put (zs "        YYMINORTYPE yylhsminor;" ++ nl) o) else o in
  let o := fold_left (fun o g => emit_rule_group e rules g o) (fst sw) o in
  let o := inc 1 (put (zs "      default:" ++ nl) o) in
  let o := fold_left (emit_default rules) (snd sw) o in
  Ok (inc 1 (put (zs "        break;" ++ nl) o)).

(** * The start of ReportTable *)

(** lemon/lemon.c:4955-4961: the first comment, without options -D. *)
Definition emit_head (filename : txt) (o : outp) : outp :=
  let o := inc 2 (put (zs "/* This file is automatically generated by Lemon from input grammar" ++ nl ++ zs "** source file """ ++ filename ++ zs """. */" ++ nl) o) in
  inc 2 (put (zs "." ++ nl ++ zs "*/" ++ nl) o).

(** lemon/lemon.c:4974-4979: %include without the blank lines before it. *)
Fixpoint strip_include (pend t : txt) : txt :=
  match t with
  | c :: r => if isspace c then (if (c =? 10)%Z then strip_include [] r else strip_include (pend ++ [c]) r) else pend ++ t
  | [] => pend
  end.

(** lemon/lemon.c:4973-4987 *)
Definition emit_include (e : emitopts) (name include : option txt) (tmpl : txt) (o : outp) : res (txt * outp) :=
  let inc0 := strip_include [] (match include with Some t => t | None => [] end) in
  x <- (if match inc0 with c :: _ => (c =? 47)%Z | [] => false end
        then tplt_skip_header (S (List.length tmpl)) tmpl o else tplt_xfer (S (List.length tmpl)) name tmpl o) ;;
  o <- tplt_print (eo_nolinenos e) (eo_outname e) (Some inc0) (snd x) ;; Ok (fst x, o).

(** lemon/lemon.c:4996-5007: the numbers of the terminals; [names] are symbols[1], ..., symbols[nterminal-1].  No
    lineno++ after "#ifndef". *)
Definition emit_tokens (mhflag : bool) (prefix : txt) (names : list txt) (o : outp) : outp :=
  let o := if mhflag then inc 1 (put (zs "#if INTERFACE" ++ nl) o) else put (zs "#ifndef " ++ prefix ++ nth 0 names [] ++ nl) o in
  let pad n := n ++ repeat 32%Z (30 - List.length n) in
  let pad2 d := repeat 32%Z (2 - List.length d) ++ d in
  let o := fold_left (fun o x => inc 1 (put (zs "#define " ++ prefix ++ pad (snd x) ++ zs " " ++ pad2 (zdec (Z.of_nat (fst x))) ++ nl) o)) (index_from 1 names) o in
  inc 1 (put (zs "#endif" ++ nl) o).
