(** Model of byacc/reader.c from the text of the file on: get_line with line_directive, nextc and the
    comments, keyword, copy_ident, copy_text, copy_union, copy_string, copy_comment, get_literal, get_name,
    get_number, get_tag and cache_tag, scan_id, declare_tokens, declare_expect, declare_types, declare_start,
    read_declarations, advance_to_start, add_symbol, copy_action, mark_symbol, read_grammar, check_symbols.
    The arrays of rules are those of ByaccRulesModel.

    Characters are numbers from 1 to 255; char is signed, so that 255 is EOF for nextc().  The position in the input is the rest of the text from cptr on: all
    lines end with a newline, and cptr moves behind one only by get_line; S->line==NULL is the empty rest.
    lookup() is a search in a list (ByaccSymtabModel).  Messages are left out: one that ends the program is
    [RErr].  Options: no -B (no backtracking), -l (no #line in the actions), not -P (ignore_prec_flag).
    Not modelled, [ROut]: %code, %parse-param, %lex-param, %define, %destructor, %initial-action and
    arguments of symbols in parentheses. *)
From Coq Require Import String List Arith ZArith Bool Lia.
Import ListNotations.
From Verif Require Import Base LemonTableModel LemonPreModel LemonPrintfModel LemonCodeModel ByaccParModel ByaccReaderModel ByaccRulesModel.

(** [RErr]: a message and exit(1); [RBad]: undefined behaviour; [ROut]: not modelled. *)
Inductive rd (A : Type) : Type := ROk (a : A) | RErr | RBad | RFuel | ROut.
Arguments ROk {A}. Arguments RErr {A}. Arguments RBad {A}. Arguments RFuel {A}. Arguments ROut {A}.
Definition rbind {A B} (x : rd A) (f : A -> rd B) : rd B :=
  match x with ROk a => f a | RErr => RErr | RBad => RBad | RFuel => RFuel | ROut => ROut end.
Declare Scope rd_scope.
Notation "x <- e ;; f" := (rbind e (fun x => f)) (at level 61, e at next level, right associativity) : rd_scope.
Notation "' p <- e ;; f" := (rbind e (fun p => f)) (at level 61, p pattern, e at next level, right associativity) : rd_scope.
Delimit Scope rd_scope with rd.
Open Scope rd_scope.
Definition lift {A} (x : res A) : rd A := match x with Ok a => ROk a | Bad => RBad | Fuel => RFuel end.

Definition isdigit (c : Z) : bool := ((48 <=? c) && (c <=? 57))%Z.
Definition isprint (c : Z) : bool := ((32 <=? c) && (c <=? 126))%Z.
(** byacc/defs.h:189-192 *)
Definition IS_NAME1 (c : Z) : bool := (isalpha c || (c =? 95) || (c =? 36))%Z.
Definition IS_NAME2 (c : Z) : bool := (isalnum c || (c =? 95) || (c =? 36))%Z.
Definition IS_IDENT (c : Z) : bool := (isalnum c || (c =? 95) || (c =? 46) || (c =? 36))%Z.
Definition IS_OCTAL (c : Z) : bool := ((48 <=? c) && (c <=? 55))%Z.

(** * Lines *)

Inductive ldstate : Type := ldSPC1 | ldSPC2 | ldSPC3 | ldNUM | ldSPC4 | ldFILE | ldOK | ldERR.

(** byacc/reader.c:126-209 line_directive: one character at a time; [k] counts the characters that n += 4
    jumps over.  The result is (ld == ldOK). *)
Fixpoint directive (k : nat) (ld : ldstate) (t : txt) : bool :=
  match t with
  | [] => match ld with ldOK => true | _ => false end
  | c :: r =>
      match k with
      | S k' => directive k' ld r
      | 0 =>
          match ld with
          | ldSPC1 => if isspace c then directive 0 ldSPC1 r else if (c =? 35)%Z then directive 0 ldSPC2 r else false
          | ldSPC2 =>
              if isspace c then directive 0 ldSPC2 r
              else if starts (zs "line") t then
                match skipn 4 t with
                | [] => true
                | d :: _ => if isspace d then directive 4 ldSPC3 r else false
                end
              else false
          | ldSPC3 => if isspace c then directive 0 ldSPC3 r else if isdigit c then directive 0 ldNUM r else false
          | ldNUM => if isdigit c then directive 0 ldNUM r else if isspace c then directive 0 ldSPC4 r else false
          | ldSPC4 =>
              if isspace c then directive 0 ldSPC4 r
              else if (c =? 34)%Z then match r with 34%Z :: _ => false | _ => directive 0 ldFILE r end
              else false
          | ldFILE => if (c =? 34)%Z then directive 0 ldOK r else directive 0 ldFILE r
          | ldOK => directive 0 ldOK r
          | ldERR => false
          end
      end
  end.

(** byacc/reader.c:279-348 get_line: the lines of the file, the last one with a newline of its own if it has
    none, those that are directives left out. *)
Fixpoint file_lines (cur : txt) (t : txt) : list txt :=
  match t with
  | [] => match cur with [] => [] | _ => [cur ++ [10%Z]] end
  | c :: r => if (c =? 10)%Z then (cur ++ [10%Z]) :: file_lines [] r else file_lines (cur ++ [c]) r
  end.
Definition input (t : txt) : txt := concat (filter (fun l => negb (directive 0 ldSPC1 l)) (file_lines [] t)).

(** get_line where the rest of the line does not matter *)
Fixpoint skip_line (t : txt) : txt := match t with [] => [] | c :: r => if (c =? 10)%Z then r else skip_line r end.

(** * nextc *)

(** byacc/reader.c:370-397 skip_comment, behind the first two characters *)
Fixpoint skip_comment (t : txt) : rd txt :=
  match t with
  | [] => RErr
  | c :: r => if ((c =? 42) && match r with d :: _ => d =? 47 | [] => false end)%Z then ROk (tl r) else skip_comment r
  end.

Definition is_blank (c : Z) : bool := ((c =? 32) || (c =? 9) || (c =? 12) || (c =? 13) || (c =? 11) || (c =? 44) || (c =? 59))%Z.

(** byacc/reader.c:399-476 next_inline and nextc: the character ([None] is EOF) and the place of it *)
Fixpoint nextc (fuel : nat) (t : txt) : rd (option Z * txt) :=
  match fuel with
  | 0 => RFuel
  | S f =>
      match t with
      | [] => ROk (None, [])
      | c :: r =>
          if (c =? 10)%Z then nextc f r
          else if is_blank c then nextc f r
          else if ((c =? 47) && match r with d :: _ => d =? 42 | [] => false end)%Z then
            r' <- skip_comment (tl r) ;; nextc f r'
          else if ((c =? 47) && match r with d :: _ => d =? 47 | [] => false end)%Z then nextc f (skip_line (tl r))
          else ROk (if (c =? 255)%Z then None else Some (if (c =? 92)%Z then 37%Z else c), t)
      end
  end.
Definition next (t : txt) : rd (option Z * txt) := nextc (S (List.length t)) t.

(** c = nextc(S); if (c == EOF) unexpected_EOF(S); *)
Definition next_some (t : txt) : rd (Z * txt) :=
  x <- next t ;; match fst x with Some c => ROk (c, snd x) | None => RErr end.

(** * Words *)

Fixpoint span (p : Z -> bool) (t : txt) : txt * txt :=
  match t with
  | c :: r => if p c then let (a, b) := span p r in (c :: a, b) else ([], t)
  | [] => ([], [])
  end.

(** byacc/reader.c:1594-1612 get_number *)
Fixpoint number (n : Z) (t : txt) : rd (Z * txt) :=
  match t with
  | c :: r => if isdigit c then let n' := (10 * n + (c - 48))%Z in if (2147483647 <? n')%Z then RErr else number n' r else ROk (n, t)
  | [] => ROk (n, [])
  end.
Definition get_number (t : txt) : rd (Z * txt) := number 0 t.

Inductive kw : Type :=
  KTOKEN | KLEFT | KRIGHT | KNONASSOC | KPRECEDENCE | KMARK | KTEXT | KTYPE | KSTART | KUNION | KIDENT | KEXPECT | KEXPECT_RR
| KFLAG | KCODE | KOUT.

(** byacc/reader.c:485-513 ygv_keywords; [KFLAG] are those that only set a flag *)
Definition keywords : list (txt * kw) :=
  [(zs "binary", KNONASSOC); (zs "code", KCODE); (zs "debug", KFLAG); (zs "define", KOUT); (zs "destructor", KOUT);
   (zs "error-verbose", KFLAG); (zs "expect", KEXPECT); (zs "expect-rr", KEXPECT_RR); (zs "ident", KIDENT);
   (zs "initial-action", KOUT); (zs "left", KLEFT); (zs "lex-param", KOUT); (zs "locations", KFLAG);
   (zs "nonassoc", KNONASSOC); (zs "nterm", KTYPE); (zs "parse-param", KOUT); (zs "precedence", KPRECEDENCE);
   (zs "pure-parser", KFLAG); (zs "right", KRIGHT); (zs "start", KSTART); (zs "term", KTOKEN); (zs "token", KTOKEN);
   (zs "token-table", KFLAG); (zs "type", KTYPE); (zs "union", KUNION); (zs "yacc", KFLAG)].

Definition key_char (c : Z) : bool := (isalpha c || isdigit c || (c =? 45) || (c =? 46) || (c =? 36) || (c =? 95))%Z.
Definition key_lower (c : Z) : Z := if isupper c then (c + 32)%Z else if (c =? 95)%Z then 45%Z else c.

(** byacc/reader.c:525-586 keyword; [t] is the text behind % or \ *)
Definition keyword (t : txt) : rd (kw * txt) :=
  match t with
  | [] => RBad
  | c :: r =>
      if isalpha c then
        let (w, r') := span key_char t in
        match find (fun e => teqb (fst e) (map key_lower w)) keywords with Some e => ROk (snd e, r') | None => RErr end
      else if (c =? 123)%Z then ROk (KTEXT, r)
      else if ((c =? 37) || (c =? 92))%Z then ROk (KMARK, r)
      else if (c =? 60)%Z then ROk (KLEFT, r)
      else if (c =? 62)%Z then ROk (KRIGHT, r)
      else if (c =? 48)%Z then ROk (KTOKEN, r)
      else if (c =? 50)%Z then ROk (KNONASSOC, r)
      else RErr
  end.

(** byacc/reader.c:1557-1576 is_reserved *)
Definition is_reserved (n : txt) : bool :=
  (teqb n (zs ".") || teqb n (zs "$accept") || teqb n (zs "$end") ||
   match n with
   | 36%Z :: 36%Z :: c :: r => isdigit c && forallb isdigit r
   | _ => false
   end)%bool.

(** * Literals *)

(** byacc/reader.c:1367-1377 hexval *)
Definition hexval (c : Z) : option Z :=
  if ((48 <=? c) && (c <=? 57))%Z then Some (c - 48)%Z
  else if ((65 <=? c) && (c <=? 70))%Z then Some (c - 65 + 10)%Z
  else if ((97 <=? c) && (c <=? 102))%Z then Some (c - 97 + 10)%Z
  else None.

(** byacc/reader.c:1440-1450 *)
Fixpoint hexrest (n : Z) (t : txt) : rd (Z * txt) :=
  match t with
  | c :: r => match hexval c with Some i => let n' := (n * 16 + i)%Z in if (255 <? n')%Z then RErr else hexrest n' r | None => ROk (n, t) end
  | [] => RBad
  end.

(** byacc/reader.c:1412-1473: the escape behind a backslash; [None] is a backslash before a newline *)
Definition escape (t : txt) : rd (option Z * txt) :=
  match t with
  | [] => RBad
  | c :: r =>
      if (c =? 10)%Z then (if match r with [] => true | _ => false end then RErr else ROk (None, r))
      else if IS_OCTAL c then
        let n := (c - 48)%Z in
        match r with
        | [] => RBad
        | d :: r2 =>
            if IS_OCTAL d then
              let n := (n * 8 + (d - 48))%Z in
              match r2 with
              | [] => RBad
              | e :: r3 =>
                  let (n, r) := if IS_OCTAL e then (n * 8 + (e - 48), r3)%Z else (n, r2) in
                  if (255 <? n)%Z then RErr else ROk (Some n, r)
              end
            else ROk (Some n, r)
        end
      else if (c =? 120)%Z then
        match r with
        | [] => RBad
        | d :: r2 => match hexval d with None => RErr | Some n => x <- hexrest n r2 ;; ROk (Some (fst x), snd x) end
        end
      else if (c =? 97)%Z then ROk (Some 7%Z, r)
      else if (c =? 98)%Z then ROk (Some 8%Z, r)
      else if (c =? 102)%Z then ROk (Some 12%Z, r)
      else if (c =? 110)%Z then ROk (Some 10%Z, r)
      else if (c =? 114)%Z then ROk (Some 13%Z, r)
      else if (c =? 116)%Z then ROk (Some 9%Z, r)
      else if (c =? 118)%Z then ROk (Some 11%Z, r)
      else ROk (Some c, r)
  end.

(** byacc/reader.c:1392-1477: the characters of the literal *)
Fixpoint literal (fuel : nat) (quote : Z) (t : txt) : rd (list Z * txt) :=
  match fuel with
  | 0 => RFuel
  | S f =>
      match t with
      | [] => RBad
      | c :: r =>
          if (c =? quote)%Z then ROk ([], r)
          else if (c =? 10)%Z then RErr
          else if (c =? 92)%Z then
            e <- escape r ;; x <- literal f quote (snd e) ;;
            ROk (match fst e with Some v => v :: fst x | None => fst x end, snd x)
          else x <- literal f quote r ;; ROk (c :: fst x, snd x)
      end
  end.

(** byacc/reader.c:1495-1535: one character in the name of the symbol *)
Definition name_char (quote c : Z) : txt :=
  if ((c =? 92) || (c =? quote))%Z then [92; c]%Z
  else if isprint c then [c]
  else 92%Z :: (if (c =? 7)%Z then [97%Z] else if (c =? 8)%Z then [98%Z] else if (c =? 12)%Z then [102%Z] else if (c =? 10)%Z then [110%Z]
                else if (c =? 13)%Z then [114%Z] else if (c =? 9)%Z then [116%Z] else if (c =? 11)%Z then [118%Z]
                else [c / 64 mod 8 + 48; c / 8 mod 8 + 48; c mod 8 + 48]%Z).

(** byacc/reader.c:1480-1545: the name of a literal *)
Definition literal_name (l : list Z) : txt :=
  let q := if List.length l =? 1 then 39%Z else 34%Z in q :: flat_map (name_char q) l ++ [q].

(** * Symbols *)

Inductive bclass : Type := UNKNOWN | TERM | NONTERM.

(** A bucket found by lookup(): name, class, value, prec, assoc, tag. *)
Record binfo : Type := mkB { b_name : txt; b_class : bclass; b_value : Z; b_prec : nat; b_assoc : bassoc; b_tag : option txt }.

(** The chain of all buckets by creation (first_symbol, next), the buckets with a name by creation, the tags of
    those made by insert_empty_rule; goal, prec, havetags; tag_table with the mark of the entries made by
    get_tag, which have a second zero byte; unionized; SRexpect and RRexpect; the rules; action_file. *)
Record rdstate : Type := mkRd {
  d_chain : list bucket; d_infos : list binfo; d_gtags : list (option txt); d_goal : option nat; d_prec : nat;
  d_havetags : bool; d_tags : list (txt * bool); d_union : bool; d_expect : Z * Z; d_rules : rstate; d_out : txt }.

Definition set_syms (ch : list bucket) (bs : list binfo) (s : rdstate) : rdstate :=
  mkRd ch bs (d_gtags s) (d_goal s) (d_prec s) (d_havetags s) (d_tags s) (d_union s) (d_expect s) (d_rules s) (d_out s).
Definition set_infos (bs : list binfo) (s : rdstate) : rdstate := set_syms (d_chain s) bs s.
Definition set_gtags (l : list (option txt)) (s : rdstate) : rdstate :=
  mkRd (d_chain s) (d_infos s) l (d_goal s) (d_prec s) (d_havetags s) (d_tags s) (d_union s) (d_expect s) (d_rules s) (d_out s).
Definition set_goal (g : option nat) (s : rdstate) : rdstate :=
  mkRd (d_chain s) (d_infos s) (d_gtags s) g (d_prec s) (d_havetags s) (d_tags s) (d_union s) (d_expect s) (d_rules s) (d_out s).
Definition set_prec (p : nat) (s : rdstate) : rdstate :=
  mkRd (d_chain s) (d_infos s) (d_gtags s) (d_goal s) p (d_havetags s) (d_tags s) (d_union s) (d_expect s) (d_rules s) (d_out s).
Definition set_tags (h : bool) (l : list (txt * bool)) (s : rdstate) : rdstate :=
  mkRd (d_chain s) (d_infos s) (d_gtags s) (d_goal s) (d_prec s) h l (d_union s) (d_expect s) (d_rules s) (d_out s).
Definition set_union (u : bool) (s : rdstate) : rdstate :=
  mkRd (d_chain s) (d_infos s) (d_gtags s) (d_goal s) (d_prec s) (d_havetags s) (d_tags s) u (d_expect s) (d_rules s) (d_out s).
Definition set_expect (e : Z * Z) (s : rdstate) : rdstate :=
  mkRd (d_chain s) (d_infos s) (d_gtags s) (d_goal s) (d_prec s) (d_havetags s) (d_tags s) (d_union s) e (d_rules s) (d_out s).
Definition set_rules (r : rstate) (s : rdstate) : rdstate :=
  mkRd (d_chain s) (d_infos s) (d_gtags s) (d_goal s) (d_prec s) (d_havetags s) (d_tags s) (d_union s) (d_expect s) r (d_out s).
Definition add_out (t : txt) (s : rdstate) : rdstate :=
  mkRd (d_chain s) (d_infos s) (d_gtags s) (d_goal s) (d_prec s) (d_havetags s) (d_tags s) (d_union s) (d_expect s) (d_rules s) (d_out s ++ t).

(** byacc/symtab.c:85-106 create_symbol_table *)
Definition init_state : rdstate :=
  mkRd [Name 0] [mkB (zs "error") TERM UNDEFINED 0 TOKEN None] [] None 0 false [] false ((-1)%Z, (-1)%Z) init_rules [].

Fixpoint index_of (n : txt) (l : list binfo) : option nat :=
  match l with
  | [] => None
  | b :: r => if teqb (b_name b) n then Some 0 else option_map S (index_of n r)
  end.

(** byacc/symtab.c:60-82 lookup *)
Definition lookup (n : txt) (s : rdstate) : nat * rdstate :=
  match index_of n (d_infos s) with
  | Some i => (i, s)
  | None => let i := List.length (d_infos s) in (i, set_syms (d_chain s ++ [Name i]) (d_infos s ++ [mkB n UNKNOWN UNDEFINED 0 TOKEN None]) s)
  end.

Definition update (i : nat) (f : binfo -> binfo) (s : rdstate) : rdstate :=
  match nth_error (d_infos s) i with Some b => set_infos (upd (d_infos s) i (f b)) s | None => s end.
Definition info (i : nat) (s : rdstate) : rd binfo := match nth_error (d_infos s) i with Some b => ROk b | None => RBad end.

Definition with_class (c : bclass) (b : binfo) : binfo := mkB (b_name b) c (b_value b) (b_prec b) (b_assoc b) (b_tag b).
Definition with_value (v : Z) (b : binfo) : binfo := mkB (b_name b) (b_class b) v (b_prec b) (b_assoc b) (b_tag b).
Definition with_prec (p : nat) (a : bassoc) (b : binfo) : binfo := mkB (b_name b) (b_class b) (b_value b) p a (b_tag b).
Definition with_tag (t : option txt) (b : binfo) : binfo := mkB (b_name b) (b_class b) (b_value b) (b_prec b) (b_assoc b) t.

(** byacc/reader.c:1578-1592 get_name *)
Definition get_name (t : txt) (s : rdstate) : rd (nat * txt * rdstate) :=
  let (w, r) := span IS_IDENT t in
  if is_reserved w then RErr else let (i, s) := lookup w s in ROk (i, r, s).

(** byacc/reader.c:1379-1555 get_literal *)
Definition get_literal (t : txt) (s : rdstate) : rd (nat * txt * rdstate) :=
  match t with
  | [] => RBad
  | q :: r =>
      x <- literal (S (List.length r)) q r ;;
      let (i, s) := lookup (literal_name (fst x)) s in
      let s := update i (with_class TERM) s in
      b <- info i s ;;
      let s := match fst x with [c] => if (b_value b =? UNDEFINED)%Z then update i (with_value c) s else s | _ => s end in
      ROk (i, snd x, s)
  end.

Definition name_first (c : Z) : bool := (isalpha c || (c =? 95) || (c =? 46) || (c =? 36))%Z.
Definition quote_first (c : Z) : bool := ((c =? 39) || (c =? 34))%Z.

(** byacc/reader.c:1615-1645 cache_tag as get_tag calls it, with the zero byte counted in len: tag_table[i][len]
    is outside an entry made by scan_id *)
Fixpoint cache_tag (n : txt) (l : list (txt * bool)) : rd (list (txt * bool)) :=
  match l with
  | [] => ROk [(n, true)]
  | e :: r => if teqb (fst e) n then (if snd e then ROk l else RBad) else l' <- cache_tag n r ;; ROk (e :: l')
  end.
(** ... and as scan_id calls it *)
Definition cache_id (n : txt) (l : list (txt * bool)) : list (txt * bool) :=
  if existsb (fun e => teqb (fst e) n) l then l else l ++ [(n, false)].

(** byacc/reader.c:1647-1681 get_tag; [t] begins with '<' *)
Definition get_tag (t : txt) (s : rdstate) : rd (txt * txt * rdstate) :=
  x <- next_some (tl t) ;;
  if negb (IS_NAME1 (fst x)) then RErr
  else
    match snd x with
    | [] => RBad
    | c :: r =>
        let (w, r') := span IS_IDENT r in
        y <- next_some r' ;;
        if (fst y =? 62)%Z then
          l <- cache_tag (c :: w) (d_tags s) ;; ROk (c :: w, tl (snd y), set_tags true l s)
        else RErr
    end.

(** * Copied text *)

(** byacc/reader.c:621-652 copy_string: the copy and the rest, behind the first quote *)
Fixpoint copy_string (fuel : nat) (quote : Z) (t : txt) : rd (txt * txt) :=
  match fuel with
  | 0 => RFuel
  | S f =>
      match t with
      | [] => RBad
      | c :: r =>
          if (c =? quote)%Z then ROk ([c], r)
          else if (c =? 10)%Z then RErr
          else if (c =? 92)%Z then
            match r with
            | [] => RBad
            | d :: r2 =>
                if ((d =? 10)%Z && match r2 with [] => true | _ => false end)%bool then RErr
                else x <- copy_string f quote r2 ;; ROk (c :: d :: fst x, snd x)
            end
          else x <- copy_string f quote r ;; ROk (c :: fst x, snd x)
      end
  end.

(** byacc/reader.c:664-671: a comment to the end of the line, behind the second slash *)
Fixpoint copy_slashes (t : txt) : rd (txt * txt) :=
  match t with
  | [] => RBad
  | c :: r =>
      if (c =? 10)%Z then ROk ([], t)
      else x <- copy_slashes r ;; ROk (c :: (if ((c =? 42) && match r with d :: _ => d =? 47 | [] => false end)%Z then [32%Z] else []) ++ fst x, snd x)
  end.

(** byacc/reader.c:680-698: behind the star *)
Fixpoint copy_stars (t : txt) : rd (txt * txt) :=
  match t with
  | [] => RErr
  | c :: r => if ((c =? 42) && match r with d :: _ => d =? 47 | [] => false end)%Z then ROk ([42; 47]%Z, tl r) else x <- copy_stars r ;; ROk (c :: fst x, snd x)
  end.

(** byacc/reader.c:655-702 copy_comment, behind the first slash *)
Definition copy_comment (t : txt) : rd (txt * txt) :=
  match t with
  | [] => RBad
  | c :: r =>
      if (c =? 47)%Z then x <- copy_slashes r ;; ROk (42%Z :: fst x ++ [42; 47]%Z, snd x)
      else if (c =? 42)%Z then x <- copy_stars r ;; ROk (42%Z :: fst x, snd x)
      else ROk ([], t)
  end.

(** byacc/reader.c:590-619 copy_ident; the text goes to output_file *)
Fixpoint ident_rest (t : txt) : rd txt :=
  match t with
  | [] => RBad
  | c :: r => if (c =? 10)%Z then ROk t else if (c =? 34)%Z then ROk r else ident_rest r
  end.
Definition copy_ident (t : txt) : rd txt :=
  x <- next_some t ;; if (fst x =? 34)%Z then ident_rest (tl (snd x)) else RErr.

(** byacc/reader.c:835-902 copy_text; the text goes to text_file *)
Fixpoint copy_text_loop (fuel : nat) (t : txt) : rd txt :=
  match fuel with
  | 0 => RFuel
  | S f =>
      match t with
      | [] => RErr
      | c :: r =>
          if ((c =? 39) || (c =? 34))%Z then x <- copy_string (S (List.length r)) c r ;; copy_text_loop f (snd x)
          else if (c =? 47)%Z then x <- copy_comment r ;; copy_text_loop f (snd x)
          else if (((c =? 37) || (c =? 92)) && match r with d :: _ => d =? 125 | [] => false end)%Z then ROk (tl r)
          else copy_text_loop f r
      end
  end.
Definition copy_text (t : txt) : rd txt := copy_text_loop (S (List.length t)) t.

(** byacc/reader.c:924-1046 copy_union; the text goes to text_file and union_file.  [pre] is in_prefix. *)
Fixpoint copy_union_loop (fuel : nat) (pre : bool) (depth : Z) (t : txt) : rd txt :=
  match fuel with
  | 0 => RFuel
  | S f =>
      match t with
      | [] => RErr
      | c :: r =>
          (* isspace(c) of a negative char *)
          if (pre && (127 <? c)%Z && (c <? 255)%Z)%bool then RBad
          else if (pre && negb (c =? 10)%Z && negb (c =? 123)%Z && (isspace c || IS_IDENT c))%bool then copy_union_loop f pre depth r
          else
            let pre := (pre && negb (c =? 123)%Z)%bool in
            if (c =? 123)%Z then copy_union_loop f pre (depth + 1) r
            else if (c =? 125)%Z then (if (depth - 1 =? 0)%Z then ROk r else copy_union_loop f pre (depth - 1) r)
            else if ((c =? 39) || (c =? 34))%Z then x <- copy_string (S (List.length r)) c r ;; copy_union_loop f pre depth (snd x)
            else if (c =? 47)%Z then x <- copy_comment r ;; copy_union_loop f pre depth (snd x)
            else copy_union_loop f pre depth r
      end
  end.
Definition copy_union (t : txt) (s : rdstate) : rd (txt * rdstate) :=
  if d_union s then RErr else r <- copy_union_loop (S (List.length t)) true 0 t ;; ROk (r, set_union true s).

(** * Declarations *)

Definition kw_assoc (k : kw) : option bassoc :=
  match k with KLEFT => Some LEFT | KRIGHT => Some RIGHT | KNONASSOC => Some NONASSOC | KPRECEDENCE => Some PRECEDENCE | _ => None end.

(** byacc/reader.c:1718-1763: the loop of declare_tokens; mkpar.c compares assoc with LEFT and RIGHT only *)
Fixpoint tokens_loop (fuel : nat) (k : kw) (tag : option txt) (c : Z) (t : txt) (s : rdstate) : rd (txt * rdstate) :=
  match fuel with
  | 0 => RFuel
  | S f =>
      if negb (name_first c || quote_first c)%bool then ROk (t, s)
      else
        '(i, t, s) <- (if name_first c then get_name t s else get_literal t s) ;;
        if match d_goal s with Some g => g =? i | None => false end then RErr
        else
          let s := update i (with_class TERM) s in
          let s := match tag with Some _ => update i (with_tag tag) s | None => s end in
          let s := match kw_assoc k with Some a => update i (with_prec (d_prec s) a) s | None => s end in
          '(c, t) <- next_some t ;;
          if isdigit c then
            '(v, t) <- get_number t ;;
            let s := update i (with_value v) s in
            '(c, t) <- next_some t ;; tokens_loop f k tag c t s
          else tokens_loop f k tag c t s
  end.

(** byacc/reader.c:1695-1764 declare_tokens *)
Definition declare_tokens (k : kw) (t : txt) (s : rdstate) : rd (txt * rdstate) :=
  let s := match kw_assoc k with Some _ => set_prec (S (d_prec s)) s | None => s end in
  '(c, t) <- next_some t ;;
  if (c =? 60)%Z then
    '(tag, t, s) <- get_tag t s ;; '(c, t) <- next_some t ;; tokens_loop (S (List.length t)) k (Some tag) c t s
  else tokens_loop (S (List.length t)) k None c t s.

(** byacc/reader.c:1785-1810: the number before the end of the line *)
Fixpoint expect_number (t : txt) : rd (Z * txt) :=
  match t with
  | [] => RBad
  | c :: r => if isdigit c then get_number t else if ((c =? 10)%Z || isalpha c || negb (isspace c))%bool then RErr else expect_number r
  end.
(** byacc/reader.c:1768-1811 declare_expect; [*++cptr] behind a newline is the zero byte *)
Definition declare_expect (k : kw) (t : txt) (s : rdstate) : rd (txt * rdstate) :=
  match t with
  | [] => RBad
  | c :: r =>
      if (c =? 10)%Z then RErr
      else '(n, t) <- expect_number r ;; ROk (t, set_expect (match k with KEXPECT => (n, snd (d_expect s)) | _ => (fst (d_expect s), n) end) s)
  end.

(** byacc/reader.c:1937-1970: the loop of declare_types *)
Fixpoint types_loop (fuel : nat) (tag : option txt) (t : txt) (s : rdstate) : rd (txt * rdstate) :=
  match fuel with
  | 0 => RFuel
  | S f =>
      '(c, t) <- next_some t ;;
      if negb (name_first c || quote_first c)%bool then ROk (t, s)
      else
        '(i, t, s) <- (if name_first c then
                         '(i, t, s) <- get_name t s ;; '(c, t) <- next t ;;
                         match c with Some 40%Z => ROut | _ => ROk (i, t, s) end
                       else get_literal t s) ;;
        types_loop f tag t (match tag with Some _ => update i (with_tag tag) s | None => s end)
  end.
(** byacc/reader.c:1926-1971 declare_types *)
Definition declare_types (t : txt) (s : rdstate) : rd (txt * rdstate) :=
  '(c, t) <- next_some t ;;
  if (c =? 60)%Z then '(tag, t, s) <- get_tag t s ;; types_loop (S (List.length t)) (Some tag) t s
  else types_loop (S (List.length t)) None t s.

(** byacc/reader.c:1973-1990 declare_start *)
Definition declare_start (t : txt) (s : rdstate) : rd (txt * rdstate) :=
  '(c, t) <- next_some t ;;
  if name_first c then
    '(i, t, s) <- get_name t s ;; b <- info i s ;;
    match b_class b with TERM => RErr | _ => ROk (t, set_goal (Some i) s) end
  else RErr.

(** byacc/reader.c:1992-2093 read_declarations: the text behind %% *)
Fixpoint read_declarations (fuel : nat) (t : txt) (s : rdstate) : rd (txt * rdstate) :=
  match fuel with
  | 0 => RFuel
  | S f =>
      '(c, t) <- next_some t ;;
      if negb (c =? 37)%Z then RErr
      else
        '(k, t) <- keyword (tl t) ;;
        match k with
        | KMARK => ROk (t, s)
        | KIDENT => t <- copy_ident t ;; read_declarations f t s
        | KTEXT => t <- copy_text t ;; read_declarations f t s
        | KUNION => '(t, s) <- copy_union t s ;; read_declarations f t s
        | KTOKEN | KLEFT | KRIGHT | KNONASSOC | KPRECEDENCE => '(t, s) <- declare_tokens k t s ;; read_declarations f t s
        | KEXPECT | KEXPECT_RR => '(t, s) <- declare_expect k t s ;; read_declarations f t s
        | KTYPE => '(t, s) <- declare_types t s ;; read_declarations f t s
        | KSTART => '(t, s) <- declare_start t s ;; read_declarations f t s
        | KFLAG => read_declarations f t s
        | KCODE | KOUT => ROut
        end
  end.

(** * Actions *)

Definition tag_of (b : bucket) (s : rdstate) : rd (option txt) :=
  match b with
  | Name i => x <- info i s ;; ROk (b_tag x)
  | Gen k => match nth_error (d_gtags s) (k - 1) with Some t => ROk t | None => RBad end
  end.

(** byacc/reader.c:2702-2735 insert_empty_rule, with the bucket in the chain and its tag *)
Definition flush (s : rdstate) : rd rdstate :=
  if r_act (d_rules s) then
    match r_lhs (d_rules s) with
    | Some l :: _ =>
        tg <- tag_of l s ;; r <- lift (insert_empty_rule (d_rules s)) ;;
        ROk (set_gtags (d_gtags s ++ [tg]) (set_syms (d_chain s ++ [Gen (r_gensym r)]) (d_infos s) (set_rules r s)))
    | _ => RBad
    end
  else ROk s.

(** byacc/reader.c:2931-2937: the symbols of the present rule, the last one first *)
Fixpoint rule_items (l : list (option bucket)) : rd (list bucket) :=
  match l with
  | [] => RBad
  | None :: _ => ROk []
  | Some b :: r => x <- rule_items r ;; ROk (b :: x)
  end.

Definition mark_text (arr : txt) (k : Z) : txt := zs "yystack." ++ arr ++ zs "[" ++ zdec k ++ zs "]".

(** A computed int: below INT_MIN it overflows. *)
Definition int_ok (z : Z) : bool := (-2147483648 <=? z)%Z.

(** byacc/reader.c:2930-2951, 2970-2983, 3035-3046, 3094-3105: the place of $i or @i; maxoffset == n without
    arguments, offsets[i] == i - n, and -n for i == 0 *)
Definition place (n i : Z) : Z := (i - n)%Z.

(** byacc/reader.c:2956-3077: what follows a '$' ([t] is behind it): the text for it, the rest; [None] when it is
    no reference.  [its] are the symbols of the rule so far, the last one first. *)
Definition dollar (its : list bucket) (t : txt) (s : rdstate) : rd (option (txt * txt * rdstate)) :=
  let n := Z.of_nat (List.length its) in
  let fin x := ROk (Some x) in
  match t with
  | [] => RBad
  | c :: r =>
      if (c =? 60)%Z then
        '(tag, t, s) <- get_tag t s ;;
        match t with
        | [] => RBad
        | c :: r =>
            if (c =? 36)%Z then fin (zs "yyval." ++ tag, r, s)
            else if isdigit c then '(i, t) <- get_number t ;; fin (mark_text (zs "l_mark") (place n i) ++ 46%Z :: tag, t, s)
            else if ((c =? 45)%Z && match r with d :: _ => isdigit d | [] => false end)%bool then
              '(i, t) <- get_number r ;; if int_ok (- i - n) then fin (mark_text (zs "l_mark") (- i - n) ++ 46%Z :: tag, t, s) else RBad
            else if (isalpha c || (c =? 95)%Z)%bool then
              let (w, t) := span IS_NAME2 t in
              fin (mark_text (zs "l_mark") (- n) ++ 46%Z :: tag, t, set_tags (d_havetags s) (cache_id w (d_tags s)) s)
            else RErr
        end
      else if (c =? 36)%Z then
        if d_havetags s then
          match r_lhs (d_rules s) with
          | Some l :: _ => tg <- tag_of l s ;; match tg with Some tag => fin (zs "yyval." ++ tag, r, s) | None => RErr end
          | _ => RBad
          end
        else fin (zs "yyval", r, s)
      else if isdigit c then
        '(i, t) <- get_number t ;;
        if (d_havetags s && negb (n =? 0)%Z)%bool then
          if ((i <=? 0) || (n <? i))%Z then RErr
          else match nth_error its (Z.to_nat (n - i)) with
               | Some b => tg <- tag_of b s ;; match tg with Some tag => fin (mark_text (zs "l_mark") (i - n) ++ 46%Z :: tag, t, s) | None => RErr end
               | None => RBad
               end
        else fin (mark_text (zs "l_mark") (place n i), t, s)
      else if (c =? 45)%Z then
        '(i, t) <- get_number r ;;
        if d_havetags s then RErr
        else if int_ok (- i - n) then fin (mark_text (zs "l_mark") (- i - n), t, s) else RBad
      else if (isalpha c || (c =? 95)%Z)%bool then
        let (w, t) := span IS_NAME2 t in
        fin (mark_text (zs "l_mark") (- n), t, set_tags (d_havetags s) (cache_id w (d_tags s)) s)
      else ROk None
  end.

(** byacc/reader.c:3078-3113: what follows an '@' *)
Definition at_sign (its : list bucket) (t : txt) : rd (option (txt * txt)) :=
  let n := Z.of_nat (List.length its) in
  match t with
  | [] => RBad
  | c :: r =>
      if (c =? 36)%Z then ROk (Some (zs "yyloc", r))
      else if isdigit c then '(i, t) <- get_number t ;; ROk (Some (mark_text (zs "p_mark") (place n i), t))
      else if (c =? 45)%Z then
        '(i, t) <- get_number r ;; if int_ok (- i - n) then ROk (Some (mark_text (zs "p_mark") (- i - n), t)) else RBad
      else ROk None
  end.

(** byacc/reader.c:2950-3249: the loop of copy_action *)
Fixpoint action_loop (fuel : nat) (its : list bucket) (depth : Z) (t : txt) (s : rdstate) : rd (txt * rdstate) :=
  match fuel with
  | 0 => RFuel
  | S f =>
      match t with
      | [] => RErr
      | c :: r =>
          x <- (if (c =? 36)%Z then dollar its r s
                else if (c =? 64)%Z then y <- at_sign its r ;; ROk (match y with Some (u, t) => Some (u, t, s) | None => None end)
                else ROk None) ;;
          match x with
          | Some (u, t, s) => action_loop f its depth t (add_out u s)
          | None =>
              if IS_NAME1 c then
                let (w, t) := span IS_NAME2 r in action_loop f its depth t (add_out (c :: w) s)
              else
                let s := add_out [c] s in
                if (c =? 59)%Z then (if (0 <? depth)%Z then action_loop f its depth r s else ROk (r, s))
                else if (c =? 123)%Z then action_loop f its (depth + 1) r s
                else if (c =? 125)%Z then (if (0 <? depth - 1)%Z then action_loop f its (depth - 1) r s else ROk (r, s))
                else if ((c =? 39) || (c =? 34))%Z then
                  y <- copy_string (S (List.length r)) c r ;; action_loop f its depth (snd y) (add_out (fst y) s)
                else if (c =? 47)%Z then y <- copy_comment r ;; action_loop f its depth (snd y) (add_out (fst y) s)
                else action_loop f its depth r s
          end
      end
  end.

(** byacc/reader.c:1048-1054 and 2921-2926: after_blanks stays in the line *)
Fixpoint blanks_curl (t : txt) : option txt :=
  match t with
  | [] => None
  | c :: r => if (c =? 123)%Z then Some t else if (isspace c && negb (c =? 10)%Z)%bool then blanks_curl r else None
  end.

(** byacc/reader.c:2883-3250 copy_action; the case is that of [EAction] in ByaccRulesModel, with the actions
    numbered in the order of the file *)
Definition copy_action (t : txt) (s : rdstate) : rd (txt * rdstate) :=
  s <- flush s ;;
  let s := set_rules (set_act true (d_rules s)) s in
  its <- rule_items (r_items (d_rules s)) ;;
  let num := List.length (r_lhs (d_rules s)) - 1 - 2 in
  let s := add_out (zs "case " ++ zdec (Z.of_nat num) ++ zs ":" ++ [10%Z]) s in
  let t := match t with 61%Z :: r => r | _ => t end in
  let '(t, s) := match blanks_curl t with Some t => (t, add_out [9%Z] s) | None => (t, s) end in
  '(t, s) <- action_loop (S (List.length t)) its 0 t s ;;
  let r := d_rules s in
  let s := set_rules (mkR (r_items r) (r_lhs r) (r_prec r) (r_act r) (r_gensym r) (r_cases r ++ [(num, List.length (r_cases r))])) s in
  ROk (t, add_out ([10%Z] ++ zs "break;" ++ [10%Z]) s).

(** * Rules *)

(** byacc/reader.c:2659-2672 start_rule *)
Definition begin_rule (i : nat) (s : rdstate) : rd rdstate :=
  b <- info i s ;;
  match b_class b with
  | TERM => RErr
  | _ => ROk (set_rules (start_rule (Some (Name i)) (d_rules s)) (update i (with_class NONTERM) s))
  end.

(** byacc/reader.c:2771-2878 add_symbol *)
Definition add_symbol (t : txt) (s : rdstate) : rd (txt * rdstate) :=
  '(i, t, s) <- (if match t with c :: _ => quote_first c | [] => false end then get_literal t s else get_name t s) ;;
  '(c, t) <- next t ;;
  match c with
  | Some 40%Z => ROut
  | Some 58%Z => s <- begin_rule i (set_rules (end_rule (d_rules s)) s) ;; ROk (tl t, s)
  | _ =>
      s <- flush s ;;
      let r := set_act false (d_rules s) in
      ROk (t, set_rules (mkR (Some (Name i) :: r_items r) (r_lhs r) (r_prec r) (r_act r) (r_gensym r) (r_cases r)) s)
  end.

Definition lower_is (c d : Z) : bool := ((c =? d) || (c =? d - 32))%Z.
(** The word behind % is this one, in either case, and ends there. *)
Fixpoint word_is (w t : txt) : bool :=
  match w, t with
  | [], c :: _ => negb (IS_IDENT c)
  | d :: w', c :: t' => (lower_is c d && word_is w' t')%bool
  | _, _ => false
  end.

(** byacc/reader.c:3546-3600 mark_symbol; [t] is behind % or \.  [true] ends the rules.  The associativity of the
    symbol of %prec goes with its precedence: [EPrec] of ByaccRulesModel with the number of the symbol. *)
Definition mark_symbol (t : txt) (s : rdstate) : rd (bool * txt * rdstate) :=
  match t with
  | [] => RBad
  | c :: r =>
      if ((c =? 37) || (c =? 92))%Z then ROk (true, r, s)
      else if word_is (zs "empty") t then ROk (true, skipn 5 t, s)
      else if ((c =? 61)%Z || word_is (zs "prec") t)%bool then
        '(c, t) <- next (if (c =? 61)%Z then r else skipn 4 t) ;;
        '(i, t, s) <- (match c with
                       | Some c => if name_first c then get_name t s else if quote_first c then get_literal t s else RErr
                       | None => RErr
                       end) ;;
        match r_prec (d_rules s) with
        | _ :: ps =>
            let r := d_rules s in
            ROk (false, t, set_rules (mkR (r_items r) (r_lhs r) (Some i :: ps) (r_act r) (r_gensym r) (r_cases r)) s)
        | [] => RBad
        end
      else RErr
  end.

(** byacc/reader.c:3609-3644: the loop of read_grammar; the rest is the text behind the rules *)
Fixpoint rules_loop (fuel : nat) (t : txt) (s : rdstate) : rd (txt * rdstate) :=
  match fuel with
  | 0 => RFuel
  | S f =>
      '(c, t) <- next t ;;
      match c with
      | None => ROk (t, s)
      | Some c =>
          if (name_first c || quote_first c)%bool then '(t, s) <- add_symbol t s ;; rules_loop f t s
          else if ((c =? 123) || (c =? 61))%Z then '(t, s) <- copy_action t s ;; rules_loop f t s
          else if (c =? 124)%Z then
            let r := end_rule (d_rules s) in
            match r_lhs r with
            | l :: _ => rules_loop f (tl t) (set_rules (start_rule l r) s)
            | [] => RBad
            end
          else if (c =? 37)%Z then
            '(b, t, s) <- mark_symbol (tl t) s ;; if b then ROk (t, s) else rules_loop f t s
          else RErr
      end
  end.

(** byacc/reader.c:2584-2619: before the first rule *)
Fixpoint before_rules (fuel : nat) (t : txt) (s : rdstate) : rd (txt * rdstate) :=
  match fuel with
  | 0 => RFuel
  | S f =>
      '(c, t) <- next t ;;
      match c with
      | Some 37%Z =>
          '(k, t) <- keyword (tl t) ;;
          match k with
          | KTEXT => t <- copy_text t ;; before_rules f t s
          | KSTART => '(t, s) <- declare_start t s ;; before_rules f t s
          | KCODE => ROut
          | _ => RErr
          end
      | _ => ROk (t, s)
      end
  end.

(** byacc/reader.c:2584-2657 advance_to_start *)
Definition advance_to_start (t : txt) (s : rdstate) : rd (txt * rdstate) :=
  '(t, s) <- before_rules (S (List.length t)) t s ;;
  '(c, t) <- next t ;;
  match c with
  | None => RErr
  | Some c =>
      if negb (isalpha c || (c =? 95) || (c =? 46))%Z then RErr
      else
        '(i, t, s) <- get_name t s ;;
        b <- info i s ;;
        s <- (match d_goal s with
              | Some _ => ROk s
              | None => match b_class b with TERM => RErr | _ => ROk (set_goal (Some i) s) end
              end) ;;
        '(c, t) <- next_some t ;;
        if (c =? 40)%Z then ROut
        else if (c =? 58)%Z then s <- begin_rule i s ;; ROk (tl t, s)
        else RErr
  end.

(** byacc/reader.c:3602-3650 read_grammar *)
Definition read_rules (t : txt) (s : rdstate) : rd (txt * rdstate) :=
  '(t, s) <- advance_to_start t s ;;
  '(t, s) <- rules_loop (S (List.length t)) t s ;;
  ROk (t, set_rules (end_rule (d_rules s)) s).

(** byacc/reader.c:3697-3712 check_symbols *)
Definition check_symbols (s : rdstate) : rd rdstate :=
  match d_goal s with
  | None => RBad
  | Some g =>
      b <- info g s ;;
      match b_class b with
      | UNKNOWN => RErr
      | _ => ROk (set_infos (map (fun b => match b_class b with UNKNOWN => with_class TERM b | _ => b end) (d_infos s)) s)
      end
  end.

(** byacc/reader.c:5169-5196 reader up to check_symbols; [file] is the whole file *)
Definition read_file (file : txt) : rd rdstate :=
  let t := input file in
  '(t, s) <- read_declarations (S (List.length t)) t init_state ;;
  '(t, s) <- read_rules t s ;;
  check_symbols s.
