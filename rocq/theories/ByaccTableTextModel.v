(** The text byacc prints for the token codes, the tables and the constants of the parser (byacc/output.c:1155-1257,
    271-381, 683-712, 942-1116, 1318-1354), character by character, in the order in which output() prints them
    (byacc/output.c:2093-2119) without the options -d, -i and -r: one output file, no %token-table.  S->backtrack is 0, so
    there are no conflict vectors and no array conflicts. *)
From Coq Require Import String List Arith ZArith Bool.
Import ListNotations.
From Verif Require Import Base LemonTableModel LemonPreModel LemonCodeModel LemonReprintModel ByaccLr0Model ByaccLalrModel ByaccParModel ByaccOutputModel ByaccParserModel ByaccScanModel.
Local Open Scope res_scope.

(** ** Tables of numbers *)

(** byacc/output.c:204-208 output_int. *)
Definition output_int (v : Z) : txt := pad_left 5 (zdec v) ++ zs ",".

(** byacc/output.c:210-220 start_int_table; StaticOrR is "static " without -r.  [prefix] is symbol_prefix. *)
Definition start_int_table (prefix : txt) (name : string) (v : Z) : txt :=
  let need := 34 - (List.length prefix + List.length (zs name)) in
  zs "static const YYINT " ++ prefix ++ zs name ++ zs "[] = {" ++ pad_left (if need <? 6 then 6 else need) (zdec v) ++ zs ",".

(** The loop that follows start_int_table everywhere, for instance byacc/output.c:294-306: the counter [j] starts
    at 10. *)
Fixpoint int_cells (j : nat) (l : list Z) : txt :=
  match l with
  | [] => []
  | v :: r => if 10 <=? j then nl ++ output_int v ++ int_cells 1 r else output_int v ++ int_cells (S j) r
  end.
(** The same with end_table (byacc/output.c:231-236); the first number is read in any case. *)
Definition int_table (prefix : txt) (name : string) (l : list Z) : res txt :=
  match l with [] => Bad | v :: r => Ok (start_int_table prefix name v ++ int_cells 10 r ++ nl ++ zs "};" ++ nl) end.

(** ** The codes of the tokens *)

(** byacc/output.c:1168-1176: the rest of a name in quotes. *)
Fixpoint quoted_name (t : txt) : bool :=
  match t with [] => false | c :: r => if (c =? 34)%Z then true else IS_NAME2 c && quoted_name r end.
(** byacc/output.c:1155-1187 is_C_identifier. *)
Definition is_C_identifier (t : txt) : bool :=
  match t with
  | [] => false
  | c :: r => if (c =? 34)%Z then match r with d :: r' => IS_NAME1 d && quoted_name r' | [] => false end else IS_NAME1 c && forallb IS_NAME2 r
  end.
(** byacc/output.c:1222-1228: the name up to the closing quote. *)
Fixpoint until_quote (t : txt) : txt :=
  match t with [] => [] | c :: r => if (c =? 34)%Z then [] else c :: until_quote r end.
Definition bare_name (t : txt) : txt :=
  match t with c :: r => if (c =? 34)%Z then until_quote r else t | [] => [] end.

(** byacc/output.c:1215-1241: the line for one token. *)
Definition define_token (sflag : bool) (name : txt) (v : Z) : txt :=
  if is_C_identifier name && (negb sflag || negb (starts [34%Z] name)) then zs "#define " ++ bare_name name ++ zs " " ++ zdec v ++ nl else [].
(** byacc/output.c:1203-1247 output_defines for the code file. *)
Definition output_defines (sflag : bool) (ntok : nat) (names : list txt) (sv : list Z) : res txt :=
  l <- map_res (fun i => n <- opt (nth_error names i) ;; v <- opt (nth_error sv i) ;; Ok (define_token sflag n v)) (seq 2 (ntok - 2)) ;;
  e <- opt (nth_error sv 1) ;;
  Ok (List.concat l ++ zs "#define YYERRCODE " ++ zdec e ++ nl).

(** ** The rest *)

(** byacc/output.c:1334-1337 and reader.c:3876-3888: the largest code of a token. *)
Definition max_tok (ntok : nat) (sv : list Z) : Z := fold_left Z.max (firstn ntok sv) 0%Z.
(** byacc/reader.c:3875, 3885, 3900, 3910: symbol_pval. *)
Definition symbol_pval (ntok : nat) (sv : list Z) (i : nat) : res Z :=
  v <- opt (nth_error sv i) ;;
  Ok (if i <? ntok then v else if i =? ntok then (max_tok ntok sv + 1)%Z else (max_tok ntok sv + 1 + v + 1)%Z).

(** byacc/output.c:1342-1345: max. *)
Definition max_sym (ntok : nat) (sv : list Z) : Z :=
  fold_left (fun m v => Z.max m (max_tok ntok sv + 1 + (v + 1))) (skipn ntok sv) (max_tok ntok sv).

(** byacc/output.c:1308-1315, 1318-1354: output_debug down to YYTRANSLATE; [tflag] is 0 or 1. *)
Definition output_debug (tflag : bool) (ntok : nat) (sv : list Z) (final : nat) : txt :=
  zs "#define YYFINAL " ++ zdec (Z.of_nat final) ++ nl ++
  zs "#ifndef YYDEBUG" ++ nl ++ zs "#define YYDEBUG " ++ zdec (if tflag then 1 else 0) ++ nl ++ zs "#endif" ++ nl ++
  zs "#define YYMAXTOKEN " ++ zdec (max_tok ntok sv) ++ nl ++
  zs "#define YYUNDFTOKEN " ++ zdec (max_sym ntok sv + 1) ++ nl ++
  zs "#define YYTRANSLATE(a) ((a) > YYMAXTOKEN ? YYUNDFTOKEN : (a))" ++ nl.

(** defs.h:52-69: MAXTABLE is INT_MAX and YYINT int. *)
Definition MAXYYINT : Z := (2 ^ 31 - 1)%Z.

(** byacc/output.c:2093-2119: output_defines, output_rule_data, output_yydefred, output_accessing_symbols,
    output_actions, output_debug.  [None]: the table is too long (byacc/output.c:1030-1035, done(1)). *)
Definition output_text (prefix : txt) (sflag tflag : bool) (ntok : nat) (names : list txt) (sv : list Z) (access : list nat) (Y : ytabs) : res (option txt) :=
  defs <- output_defines sflag ntok names sv ;;
  lhs <- int_table prefix "lhs" (y_lhs Y) ;;
  len <- int_table prefix "len" (map Z.of_nat (y_len Y)) ;;
  defred <- int_table prefix "defred" (map Z.of_nat (y_defred Y)) ;;
  pv <- map_res (symbol_pval ntok sv) access ;;
  stos <- int_table prefix "stos" pv ;;
  dgoto <- int_table prefix "dgoto" (map Z.of_nat (y_dgoto Y)) ;;
  sindex <- int_table prefix "sindex" (y_sindex Y) ;;
  rindex <- int_table prefix "rindex" (y_rindex Y) ;;
  cindex <- int_table prefix "cindex" (repeat 0%Z (List.length access)) ;;
  gindex <- int_table prefix "gindex" (y_gindex Y) ;;
  table <- int_table prefix "table" (y_table Y) ;;
  check <- int_table prefix "check" (y_check Y) ;;
  ctable <- int_table prefix "ctable" (repeat (-1)%Z (Nat.max 1 (y_high Y))) ;;
  if (MAXYYINT <=? Z.of_nat (y_high Y))%Z then Ok None
  else
    Ok (Some (defs ++ zs "typedef int YYINT;" ++ nl ++ lhs ++ len ++ defred ++
      zs "#if defined(YYDESTRUCT_CALL) || defined(YYSTYPE_TOSTRING)" ++ nl ++ stos ++ zs "#endif /* YYDESTRUCT_CALL || YYSTYPE_TOSTRING */" ++ nl ++
      dgoto ++ sindex ++ rindex ++ zs "#if YYBTYACC" ++ nl ++ cindex ++ zs "#endif" ++ nl ++ gindex ++
      zs "#define YYTABLESIZE " ++ zdec (Z.of_nat (y_high Y)) ++ nl ++ table ++ check ++
      zs "#if YYBTYACC" ++ nl ++ ctable ++ zs "#endif" ++ nl ++ output_debug tflag ntok sv (y_final Y))).

(** byacc/main.c:963-970 with the text of output(). *)
Definition byacc_generate_text (prefix : txt) (sflag tflag : bool) (names : list txt) (f1 f2 f3 : nat) (flag : bool) (s : bsrc) (pr : bprec) (sv : list Z) : res (option txt) :=
  let b := pack_grammar s in
  '(nl, st) <- lr0 f1 b ;;
  T <- lalr f2 b nl st ;;
  P <- make_parser flag b pr T ;;
  Y <- output_tables f3 b sv T P ;;
  output_text prefix sflag tflag (ntokens b) names sv (t_access T) Y.
