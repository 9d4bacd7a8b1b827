(** Model of byacc -E: the lemon names of symbols (byacc/reader.c:4111-4310), the rules that
    print_grammar_lemon prints (byacc/reader.c:4361-4448) and the names that get_literal gives to
    literals (byacc/reader.c:1484-1547).  Names are lists of bytes without the terminating zero byte.
    Of print_grammar_lemon only the start symbol and the rules are modelled; the %token and precedence
    lines, the bracketed precedence symbols and the comments are left out. *)
From Coq Require Import List Arith ZArith Bool Lia String.
Import ListNotations.
From Verif Require Import Base LemonPreModel ByaccLr0Model.
Open Scope res_scope.

(** byacc/reader.c:4111-4240 ygv_ascii_names_st *)
Definition ygv_ascii_names_st : list (list Z) :=
  map zs (
    ["0NUL"; "SOH"; "STX"; "ETX"; "EOT"; "ENQ"; "ACK"; "BEL"; "BS"; "HT"; "LF"; "VT"; "FF"; "CR"; "SO"; "SI";
     "DLE"; "DC1"; "DC2"; "DC3"; "DC4"; "NAK"; "SYN"; "ETB"; "CAN"; "EM"; "SUB"; "ESC"; "FS"; "GS"; "RS"; "US";
     "32SPACE"; "EXCLA"; "DQUOTE"; "POUND"; "DOLLAR"; "PERC"; "AMPER"; "SQUOTE"; "LP"; "RP"; "ASTERISK"; "PLUS"; "COMMA"; "HYPHEN"; "PERIOD"; "SLASH";
     "0"; "1"; "2"; "3"; "4"; "5"; "6"; "7"; "8"; "9"; "COLON"; "SEMICOL"; "LT"; "EQ"; "GT"; "QMARK";
     "AT"; "A"; "B"; "C"; "D"; "E"; "F"; "G"; "H"; "I"; "J"; "K"; "L"; "M"; "N"; "O";
     "P"; "Q"; "R"; "S"; "T"; "U"; "V"; "W"; "X"; "Y"; "Z"; "LBRACKET"; "BACKSLASH"; "RBRACKET"; "CARET"; "UNDERSCORE";
     "GRAVE"; "a"; "b"; "c"; "d"; "e"; "f"; "g"; "h"; "i"; "j"; "k"; "l"; "m"; "n"; "o";
     "p"; "q"; "r"; "s"; "t"; "u"; "v"; "w"; "x"; "y"; "z"; "LBRACE"; "VERTBAR"; "RBRACE"; "TILDE"; "127"])%string.

Definition isupper (c : Z) : bool := ((65 <=? c) && (c <=? 90))%Z.
Definition islower (c : Z) : bool := ((97 <=? c) && (c <=? 122))%Z.

(** name[i] as a (signed) char: 0 at the end, [Bad] behind it. *)
Definition char_at (n : list Z) (i : nat) : res Z :=
  if i <? List.length n then let c := nth i n 0%Z in Ok (if (c <? 128)%Z then c else c - 256)%Z
  else if i =? List.length n then Ok 0%Z else Bad.

(** snprintf into a char64_t. *)
Definition snp (s : list Z) : list Z := firstn 63 s.

(** byacc/reader.c:4250-4251 and 4265-4266; the only char that is not below 127 is 127. *)
Definition ascii_name (ch : Z) : res (list Z) :=
  if (ch <? 127)%Z then
    if (ch <? 0)%Z then Bad
    else x <- opt (nth_error ygv_ascii_names_st (Z.to_nat ch)) ;; Ok (zs "Tk_" ++ x)
  else Ok (zs "Tk_127").

(** byacc/reader.c:4254-4264 *)
Definition escape (ch : Z) : Z :=
  (if ch =? 110 then 10 else if ch =? 116 then 9 else if ch =? 102 then 12 else if ch =? 114 then 13
   else if ch =? 118 then 11 else if ch =? 92 then 92 else -1)%Z.

(** byacc/reader.c:4283-4286: dots become underscores. *)
Definition undot (s : list Z) : list Z := map (fun c => if (c =? 46)%Z then 95%Z else c) s.

(** byacc/reader.c:4244-4288 get_lemon_token_name *)
Definition get_lemon_token_name (n : list Z) : res (list Z) :=
  c0 <- char_at n 0 ;;
  b <- (if (c0 =? 39)%Z then
          c2 <- char_at n 2 ;;
          if (c2 =? 39)%Z then ch <- char_at n 1 ;; ascii_name ch
          else
            c3 <- char_at n 3 ;;
            if (c3 =? 39)%Z then ascii_name (escape c2)
            else Ok (snp (zs "Tk_" ++ tl n))
        else if (c0 =? 34)%Z then Ok (removelast (snp (zs "Tk_" ++ tl n)))
        else if ((c0 =? 46) || (c0 =? 95))%Z then Ok (upd (snp (zs "Tk_" ++ n)) 3 95%Z)
        else if islower c0 then Ok (snp (zs "Tk_" ++ n))
        else Ok (snp n)) ;;
  Ok (undot b).

(** byacc/reader.c:4290-4310 get_lemon_rule_name *)
Definition get_lemon_rule_name (n : list Z) : res (list Z) :=
  c0 <- char_at n 0 ;;
  Ok (undot (if (c0 =? 46)%Z then upd (snp (zs "x" ++ n)) 1 95%Z
             else if (c0 =? 95)%Z then snp (zs "z" ++ n)
             else if isupper c0 then snp (zs "l_" ++ n)
             else snp n)).

Section Lemon.
Variable name : nat -> list Z. (* symbol_name *)
Variable b : bgram.

Definition dollar (n : list Z) : bool := match n with c :: _ => (c =? 36)%Z | [] => false end.

(** byacc/reader.c:4427-4434; the class of a symbol is its side of ntokens, as pack_symbols numbers them. *)
Definition lemon_sym (x : nat) : res (list Z) :=
  if x <? ntokens b then get_lemon_token_name (name x) else get_lemon_rule_name (name x).

(** byacc/reader.c:4421-4437: while (ritem[k] >= 0); what is left of ritem starts at the negative entry. *)
Fixpoint print_items (skip : bool) (it : list Z) : res (list (list Z) * list Z) :=
  match it with
  | [] => Bad
  | z :: r =>
      if (0 <=? z)%Z then
        x <- (if (skip || dollar (name (Z.to_nat z)))%bool then Ok [] else y <- lemon_sym (Z.to_nat z) ;; Ok [y]) ;;
        yr <- print_items skip r ;;
        Ok (x ++ fst yr, snd yr)
      else Ok ([], it)
  end.

(** byacc/reader.c:4405-4447: the loop over the rules from [i]; [it] is ritem from k. *)
Fixpoint print_rules (i : nat) (ls : list nat) (it : list Z) : res (list (list Z * list (list Z))) :=
  match ls with
  | [] => Ok []
  | l :: ls' =>
      let skip := dollar (name l) in
      h <- (if skip then Ok [] else if i =? 2 then Ok (zs "x_start_rule_") else get_lemon_rule_name (name l)) ;;
      x <- print_items skip it ;;
      r <- print_rules (S i) ls' (tl (snd x)) ;;
      Ok ((if skip then [] else [(h, fst x)]) ++ r)
  end.

(** byacc/reader.c:4361-4448 print_grammar_lemon: the start symbol and the rules. *)
Definition print_grammar_lemon (goal : nat) : res (list Z * list (list Z * list (list Z))) :=
  s <- get_lemon_rule_name (name goal) ;;
  rs <- print_rules 2 (skipn 2 (rlhs b)) (skipn 1 (ritem b)) ;;
  Ok (s, rs).
End Lemon.

(** byacc/reader.c:1497-1540: one byte of a literal; [q] is the quote. *)
Definition literal_byte (q c : Z) : list Z :=
  if ((c =? 92) || (c =? q))%Z then [92%Z; c]
  else if ((32 <=? c) && (c <=? 126))%Z then [c]
  else 92%Z ::
    (if (c =? 7)%Z then [97%Z] else if (c =? 8)%Z then [98%Z] else if (c =? 12)%Z then [102%Z] else if (c =? 10)%Z then [110%Z]
     else if (c =? 13)%Z then [114%Z] else if (c =? 9)%Z then [116%Z] else if (c =? 11)%Z then [118%Z]
     else [c / 64 mod 8 + 48; c / 8 mod 8 + 48; c mod 8 + 48]%Z).

(** byacc/reader.c:1491-1547: the name of a literal with the bytes [s]. *)
Definition literal_name (s : list Z) : list Z :=
  let q := if List.length s =? 1 then 39%Z else 34%Z in q :: flat_map (literal_byte q) s ++ [q].
