(** The text lemon prints for the constants and tables of the parser (lemon/lemon.c:5010-5020, 5072-5078, 5149-5330,
    5416-5437 in ReportTable), character by character.  The parts of the template between them are left out except
    the lines that open and close the arrays yyFallback, yyRuleInfoLhs and yyRuleInfoNRhs (lemon/lempar.c:171-174,
    684-686, 690-692).  tablesize is not modelled. *)
From Coq Require Import String List Arith ZArith Bool.
Import ListNotations.
From Verif Require Import Base CLib SpecGrammar LemonSetModel LemonStatesModel LemonSortModel LemonActionModel LemonCompressModel LemonActtabModel LemonReportModel LemonPipelineModel
  LemonTableModel LemonPreModel LemonCodeModel LemonReprintModel.
Local Open Scope res_scope.

(** printf of an int. *)
Definition define (s : string) (v : Z) : txt := zs s ++ zdec v ++ nl.
Definition definep (s : string) (v : Z) : txt := zs s ++ zdec v ++ zs ")" ++ nl.

(** The strings of minimum_size_type (4583-4602). *)
Definition ctype_text (t : ctype) : string :=
  match t with
  | T_uchar => "unsigned char" | T_ushort => "unsigned short int" | T_uint => "unsigned int"
  | T_schar => "signed char" | T_short => "short" | T_int => "int"
  end.

(** One number: " /* %5d */ " before the first of a line, then " %4d,". *)
Definition cell (i j : nat) (v : Z) : txt :=
  (if j =? 0 then zs " /* " ++ pad_left 5 (ndec i) ++ zs " */ " else []) ++ zs " " ++ pad_left 4 (zdec v) ++ zs ",".

(** The loops 5190-5200, 5249-5261, 5275-5287 and 5294-5307; [n] is their bound, the values are those from index [i]. *)
Fixpoint cells (n i j : nat) (l : list Z) : txt :=
  match l with
  | [] => []
  | v :: l => cell i j v ++ (if (j =? 9) || (i =? n - 1) then nl ++ cells n (S i) 0 l else cells n (S i) (S j) l)
  end.
Definition array (head : string) (l : list Z) : txt := zs head ++ nl ++ cells (List.length l) 0 0 l ++ zs "};" ++ nl.

(** The loops 5207-5218 and 5222-5232, which share i and j: no line ends before the last number but after each tenth. *)
Fixpoint open_cells (i j : nat) (l : list Z) : txt * (nat * nat) :=
  match l with
  | [] => ([], (i, j))
  | v :: l =>
      if j =? 9 then let (t, s) := open_cells (S i) 0 l in (cell i j v ++ nl ++ t, s)
      else let (t, s) := open_cells (S i) (S j) l in (cell i j v ++ t, s)
  end.

(** lemon/lemon.c:5010-5019 *)
Definition types_text (nsymbol maxAction : Z) (wildcard : option Z) : txt :=
  zs "#define YYCODETYPE " ++ zs (ctype_text (fst (minimum_size_type 0 nsymbol))) ++ nl ++
  define "#define YYNOCODE " nsymbol ++
  zs "#define YYACTIONTYPE " ++ zs (ctype_text (fst (minimum_size_type 0 maxAction))) ++ nl ++
  match wildcard with Some w => define "#define YYWILDCARD " w | None => [] end.

(** lemon/lemon.c:5072-5078; [dt] is errsym->dtnum. *)
Definition error_text (errsym : option Z) (dt : Z) (fallback : bool) : txt :=
  match errsym with
  | Some e => define "#define YYERRORSYMBOL " e ++ zs "#define YYERRSYMDT yy" ++ zdec dt ++ nl
  | None => []
  end ++
  (if fallback then zs "#define YYFALLBACK 1" ++ nl else []).

(** lemon/lemon.c:5149-5167 *)
Definition consts_text (k : consts) (nxstate nrule nruleWithAction nterminal : Z) : txt :=
  define "#define YYNSTATE             " nxstate ++
  define "#define YYNRULE              " nrule ++
  define "#define YYNRULE_WITH_ACTION  " nruleWithAction ++
  define "#define YYNTOKEN             " nterminal ++
  define "#define YY_MAX_SHIFT         " (nxstate - 1) ++
  define "#define YY_MIN_SHIFTREDUCE   " (k_minShiftReduce k) ++
  define "#define YY_MAX_SHIFTREDUCE   " (k_minShiftReduce k + nrule - 1) ++
  define "#define YY_ERROR_ACTION      " (k_errAction k) ++
  define "#define YY_ACCEPT_ACTION     " (k_accAction k) ++
  define "#define YY_NO_ACTION         " (k_noAction k) ++
  define "#define YY_MIN_REDUCE        " (k_minReduce k) ++
  define "#define YY_MAX_REDUCE        " (k_minReduce k + nrule - 1).

(** lemon/lemon.c:5083-5127 and 5183-5308; [nxstate] is the length of [sts]. *)
Definition report_text (k : consts) (nsymbol nterminal : Z) (sts : list srow) : res txt :=
  let nx := List.length sts in
  let axs := take_nonempty (qsort axset_le (make_ax 0 sts)) in
  '(p, os) <- add_rows (acttab_alloc nsymbol nterminal) (map (fun a => (ax_row a, ax_isTkn a)) axs) ;;
  n <- acttab_action_size p ;;
  acts <- rd_upto (aAction p) (Z.to_nat n) ;;
  let t1 := definep "#define YY_ACTTAB_COUNT (" n ++
    array "static const YYACTIONTYPE yy_action[] = {" (map (fun x => let action := snd x in if (action <? 0)%Z then k_noAction k else action) acts) in
  lks <- rd_upto (aAction p) (Z.to_nat (nAction p)) ;;
  let '(u1, (i, j)) := open_cells 0 0 (map (fun x => let la := fst x in if (la <? 0)%Z then nsymbol else la) lks) in
  let nLookAhead := (nterminal + n)%Z in
  let '(u2, (_, j)) := open_cells i j (repeat nterminal (Z.to_nat (nLookAhead - Z.of_nat i))) in
  let t2 := zs "static const YYCODETYPE yy_lookahead[] = {" ++ nl ++ u1 ++ u2 ++ (if 0 <? j then nl else []) ++ zs "};" ++ nl in
  let tofs := map (ofst_of axs os true) (seq 0 nx) in
  let nofs := map (ofst_of axs os false) (seq 0 nx) in
  let mnTkn := mn_ofst axs os true in let mxTkn := mx_ofst axs os true in
  let mnNt := mn_ofst axs os false in let mxNt := mx_ofst axs os false in
  let nt := trim_none tofs nx in
  let t3 := definep "#define YY_SHIFT_COUNT    (" (Z.of_nat nt - 1) ++ definep "#define YY_SHIFT_MIN      (" mnTkn ++ definep "#define YY_SHIFT_MAX      (" mxTkn ++
    array ("static const " ++ ctype_text (fst (minimum_size_type mnTkn (nterminal + n))) ++ " yy_shift_ofst[] = {")%string
      (map (fun o => match o with Some z => z | None => n end) (firstn nt tofs)) in
  let nn := trim_none nofs nx in
  let t4 := definep "#define YY_REDUCE_COUNT (" (Z.of_nat nn - 1) ++ definep "#define YY_REDUCE_MIN   (" mnNt ++ definep "#define YY_REDUCE_MAX   (" mxNt ++
    array ("static const " ++ ctype_text (fst (minimum_size_type (mnNt - 1) mxNt)) ++ " yy_reduce_ofst[] = {")%string
      (map (fun o => match o with Some z => z | None => (mnNt - 1)%Z end) (firstn nn nofs)) in
  let t5 := array "static const YYACTIONTYPE yy_default[] = {" (map (fun s => if (sr_dflt s <? 0)%Z then k_errAction k else (sr_dflt s + k_minReduce k)%Z) sts) in
  Ok (t1 ++ t2 ++ t3 ++ t4 ++ t5).

(** lemon/lemon.c:5312-5330 with the lines of the template; [nm] gives the names. *)
Definition fallback_row (nm : nat -> txt) (i : nat) (f : nat) : txt :=
  if f =? 0 then zs "    0,  /* " ++ pad_left 10 (nm i) ++ zs " => nothing */" ++ nl
  else zs "  " ++ pad_left 3 (ndec f) ++ zs ",  /* " ++ pad_left 10 (nm i) ++ zs " => " ++ nm f ++ zs " */" ++ nl.
Fixpoint fallback_rows (nm : nat -> txt) (i : nat) (l : list nat) : txt :=
  match l with [] => [] | f :: l => fallback_row nm i f ++ fallback_rows nm (S i) l end.
Definition fallback_text (nm : nat -> txt) (fallback : option (list nat)) : txt :=
  match fallback with
  | Some l => zs "static const YYCODETYPE yyFallback[] = {" ++ nl ++ fallback_rows nm 0 l ++ zs "};" ++ nl
  | None => []
  end.

(** lemon/lemon.c:3364-3388 rule_print with with_comments 0: a class of terminals as its members (a class
    without members, for which subsym[0] does not exist, as nothing). *)
Definition elem_text (nm : nat -> txt) (e : elem) : txt :=
  match e with
  | ESym s => zs " " ++ nm s
  | EMulti [] => zs " "
  | EMulti (s :: l) => zs " " ++ nm s ++ flat_map (fun s => zs "|" ++ nm s) l
  end.
Definition rule_print (nm : nat -> txt) (r : SpecGrammar.rule) : txt := nm (r_lhs r) ++ zs " ::=" ++ flat_map (elem_text nm) (r_rhs r).

(** lemon/lemon.c:5424-5435, the rules in their order. *)
Definition rule_row (nm : nat -> txt) (w : nat) (i : nat) (v : Z) (r : SpecGrammar.rule) : txt :=
  zs "  " ++ pad_left w (zdec v) ++ zs ",  /* (" ++ ndec i ++ zs ") " ++ rule_print nm r ++ zs " */" ++ nl.
Fixpoint rule_rows (nm : nat -> txt) (w : nat) (i : nat) (value : SpecGrammar.rule -> Z) (l : list SpecGrammar.rule) : txt :=
  match l with [] => [] | r :: l => rule_row nm w i (value r) r ++ rule_rows nm w (S i) value l end.
Definition rules_text (nm : nat -> txt) (l : list SpecGrammar.rule) : txt :=
  zs "static const YYCODETYPE yyRuleInfoLhs[] = {" ++ nl ++ rule_rows nm 4 0 (fun r => Z.of_nat (r_lhs r)) l ++ zs "};" ++ nl ++
  zs "static const signed char yyRuleInfoNRhs[] = {" ++ nl ++ rule_rows nm 3 0 (fun r => (- Z.of_nat (List.length (r_rhs r)))%Z) l ++ zs "};" ++ nl.

(** The parts for a grammar, from the action lists on, as in lemon_back. *)
Definition lemon_back_text (nm : nat -> txt) (dt : Z) (cfuel : nat) (o : opts) (g : grammar) (aps : list (list action)) : res txt :=
  let ri := opts_rinfo o in
  xs <- (if o_compress o then CompressTables cfuel (o_addr2 o) (o_wildcard o) g ri aps
         else Ok (uncompressed aps)) ;;
  '(sorted, nx) <- ResortStates (g_nterm g) (g_nsym g) (o_errsym o) (ri_iRule ri) xs ;;
  let nrule := Z.of_nat (List.length (g_rules g)) in
  let k := report_consts (Z.of_nat (List.length sorted)) nrule in
  let code := compute_action k (g_nterm g) (o_errsym o) (ri_iRule ri) (new_num sorted) in
  let sts := map (state_row (g_nterm g) (g_nsym g) code) (firstn nx sorted) in
  t <- report_text k (Z.of_nat (g_nsym g)) (Z.of_nat (g_nterm g)) sts ;;
  let rs := Rule_sort (ri_iRule ri) (seq 0 (List.length (g_rules g))) in
  rules <- LemonReadModel.map_res (fun r => opt (nth_error (g_rules g) r)) rs ;;
  Ok (types_text (Z.of_nat (g_nsym g)) (k_maxAction k) (option_map Z.of_nat (o_wildcard o)) ++
      error_text (option_map Z.of_nat (o_errsym o)) dt (match o_fallback o with Some _ => true | None => false end) ++
      consts_text k (Z.of_nat (List.length sts)) nrule (Z.of_nat (List.length (filter negb (o_noCode o)))) (Z.of_nat (g_nterm g)) ++
      t ++ fallback_text nm (o_fallback o) ++ rules_text nm rules).

Definition lemon_generate_text (nm : nat -> txt) (dt : Z) (sfuel ffuel cfuel : nat) (o : opts) (g : grammar) : res txt :=
  aps <- lemon_actions sfuel ffuel o g ;;
  lemon_back_text nm dt cfuel o g aps.
