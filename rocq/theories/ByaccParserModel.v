(** The parser generated by byacc: byacc/yaccpar.skel (byacc/yaccpar.c is the same text
    as string constants).  Line numbers are those of yaccpar.skel.  In the configuration
    of the repository (SKELETON = btyaccpar in byacc/makefile:44) the text comes from
    byacc/btyaccpar.skel, lines 255-304 and 423-1045; without -B the generated file
    says #define YYBTYACC 0 (byacc/output.c:1592), and what is then left is the same
    code apart from positions (%locations), destructors and yyoverflow returning 2.

    Simplifications: yystate equals *s_mark at yyloop (each place assigns both), so it
    is not a separate variable.  Semantic values are not modelled, only the positions
    of the value stack that are read and written.  The semantic actions of the rules
    return normally: no YYACCEPT, YYABORT, YYERROR or yyclearin in them.  [(YYINT)
    yychar] is compared without truncation; this is the same for token codes within
    YYINT because the sum with an index is then above YYTABLESIZE.  Tracing (YYDEBUG)
    is left out. *)
From Coq Require Import List Arith ZArith Bool Lia.
Import ListNotations.
From Verif Require Import Base ByaccLr0Model ByaccLalrModel ByaccParModel ByaccOutputModel.

(** yaccpar.skel:53-75. *)
Definition YYINITSTACKSIZE : nat := 200.
Definition YYMAXDEPTH : nat := 100 * 100.

(** YYSTACKDATA, yaccpar.skel:77-84.  [ks_st] are the states from *s_mark down to
    *s_base, so s_mark - s_base is one less than its length; [ks_scap] and [ks_lcap]
    are the sizes of the blocks s_base and l_base (0 = NULL); s_last is s_base +
    stacksize - 1, or NULL while stacksize is 0.  [ks_mem] says which of the coming
    calls of realloc succeed; beyond its end all do. *)
Record ystack := mkYstack { ks_st : list nat; ks_size : nat; ks_scap : nat; ks_lcap : nat; ks_mem : list bool }.

(** A call of realloc. *)
Definition realloc (m : list bool) : bool * list bool :=
  match m with [] => (true, []) | x :: m' => (x, m') end.

(** yaccpar.skel:104-139 yygrowstack; [false] is YYENOMEM. *)
Definition yygrowstack (k : ystack) : bool * ystack :=
  let size := ks_size k in
  if (size =? 0) || (size <? YYMAXDEPTH) then
    let newsize := if size =? 0 then YYINITSTACKSIZE else if YYMAXDEPTH <? size * 2 then YYMAXDEPTH else size * 2 in
    let '(ok1, m1) := realloc (ks_mem k) in
    if ok1 then
      let '(ok2, m2) := realloc m1 in
      if ok2 then (true, mkYstack (ks_st k) newsize newsize newsize m2)
      else (false, mkYstack (ks_st k) size newsize (ks_lcap k) m2)
    else (false, mkYstack (ks_st k) size (ks_scap k) (ks_lcap k) m1)
  else (false, k).

(** [*++s_mark = q; *++l_mark = ...]: both blocks must have the position. *)
Definition push (k : ystack) (q : nat) : res ystack :=
  let m := length (ks_st k) in
  if (m <? ks_scap k) && (m <? ks_lcap k) then Ok (mkYstack (q :: ks_st k) (ks_size k) (ks_scap k) (ks_lcap k) (ks_mem k)) else Bad.

(** [if (s_mark >= s_last && yygrowstack(...) == YYENOMEM) goto yyoverflow;]
    yaccpar.skel:217, 254, 343. *)
Definition room (k : ystack) : bool * ystack :=
  if (ks_size k =? 0) || (ks_size k <=? length (ks_st k)) then yygrowstack k else (true, k).

(** How yyparse ends. *)
Inductive yend := YAccept | YAbort | YOverflow.

Record ycfg := mkYcfg { y_stk : ystack; y_char : Z; y_flag : nat; y_nerrs : nat; y_pos : nat }.

(** What happens at yyloop: on with the loop, or the end. *)
Inductive ystep := YNext (c : ycfg) | YEnd (e : yend) (c : ycfg).

(** A state or rule number out of a table. *)
Definition num (z : Z) : res nat := if (0 <=? z)%Z then Ok (Z.to_nat z) else Bad.

Section Parser.
Variable Y : ytabs.
(** The value of the n-th call of YYLEX. *)
Variable lex : nat -> Z.

Definition look (index x : Z) : res (option Z) := ylookup (y_high Y) (y_table Y) (y_check Y) index x.

(** yaccpar.skel:195-199, 320-324: [if (yychar < 0) { yychar = YYLEX; if (yychar < 0)
    yychar = YYEOF; }]. *)
Definition read (c : ycfg) : ycfg :=
  if (y_char c <? 0)%Z then
    mkYcfg (y_stk c) (if (lex (y_pos c) <? 0)%Z then 0%Z else lex (y_pos c)) (y_flag c) (y_nerrs c) (S (y_pos c))
  else c.

(** yaccpar.skel:290-348 yyreduce by rule [n]. *)
Definition yyreduce (c : ycfg) (n : nat) : res ystep :=
  let k := y_stk c in
  yym <- opt (nth_error (y_len Y) n) ;;
  (* yyval = l_mark[1-yym]; s_mark -= yym; yystate = *s_mark *)
  if length (ks_st k) <=? yym then Bad else
  let k := mkYstack (skipn yym (ks_st k)) (ks_size k) (ks_scap k) (ks_lcap k) (ks_mem k) in
  let yystate := hd 0 (ks_st k) in
  a <- opt (nth_error (y_lhs Y) n) ;;
  if (yystate =? 0) && (a =? 0)%Z then
    k <- push k (y_final Y) ;;
    let c := read (mkYcfg k (y_char c) (y_flag c) (y_nerrs c) (y_pos c)) in
    if (y_char c =? 0)%Z then Ok (YEnd YAccept c) else Ok (YNext c)
  else
    a <- num a ;;
    ix <- opt (nth_error (y_gindex Y) a) ;;
    o <- look ix (Z.of_nat yystate) ;;
    q <- match o with Some t => num t | None => opt (nth_error (y_dgoto Y) a) end ;;
    let '(ok, k) := room k in
    if ok then
      k <- push k q ;;
      Ok (YNext (mkYcfg k (y_char c) (y_flag c) (y_nerrs c) (y_pos c)))
    else Ok (YEnd YOverflow (mkYcfg k (y_char c) (y_flag c) (y_nerrs c) (y_pos c))).

(** yaccpar.skel:240-272, the loop that looks for a state with a shift of error. *)
Fixpoint recover (n : nat) (c : ycfg) : res ystep :=
  let k := y_stk c in
  ix <- opt (nth_error (y_sindex Y) (hd 0 (ks_st k))) ;;
  o <- look ix (y_errcode Y) ;;
  match o with
  | Some t =>
      let '(ok, k) := room k in
      if ok then
        q <- num t ;; k <- push k q ;;
        Ok (YNext (mkYcfg k (y_char c) (y_flag c) (y_nerrs c) (y_pos c)))
      else Ok (YEnd YOverflow (mkYcfg k (y_char c) (y_flag c) (y_nerrs c) (y_pos c)))
  | None =>
      (* if (s_mark <= s_base) goto yyabort *)
      if length (ks_st k) <=? 1 then Ok (YEnd YAbort c)
      else
        match n with
        | 0 => Fuel
        | S n => recover n (mkYcfg (mkYstack (tl (ks_st k)) (ks_size k) (ks_scap k) (ks_lcap k) (ks_mem k)) (y_char c) (y_flag c) (y_nerrs c) (y_pos c))
        end
  end.

(** yaccpar.skel:232-288: the error is counted unless recovering; then a state is
    looked for or the token discarded. *)
Definition yyerror_part (c : ycfg) : res ystep :=
  let nerrs := if y_flag c =? 0 then S (y_nerrs c) else y_nerrs c in
  if y_flag c <? 3 then recover (length (ks_st (y_stk c))) (mkYcfg (y_stk c) (y_char c) 3 nerrs (y_pos c))
  else if (y_char c =? 0)%Z then Ok (YEnd YAbort c)
  else Ok (YNext (mkYcfg (y_stk c) (-1)%Z (y_flag c) nerrs (y_pos c))).

(** yaccpar.skel:192-230: one round of yyloop. *)
Definition yyloop (c : ycfg) : res ystep :=
  let q := hd 0 (ks_st (y_stk c)) in
  d <- opt (nth_error (y_defred Y) q) ;;
  if negb (d =? 0) then yyreduce c d
  else
    let c := read c in
    ix <- opt (nth_error (y_sindex Y) q) ;;
    o <- look ix (y_char c) ;;
    match o with
    | Some t =>
        let '(ok, k) := room (y_stk c) in
        if ok then
          q' <- num t ;; k <- push k q' ;;
          Ok (YNext (mkYcfg k (-1)%Z (y_flag c - 1) (y_nerrs c) (y_pos c)))
        else Ok (YEnd YOverflow (mkYcfg k (y_char c) (y_flag c) (y_nerrs c) (y_pos c)))
    | None =>
        ix <- opt (nth_error (y_rindex Y) q) ;;
        o <- look ix (y_char c) ;;
        match o with
        | Some t => n <- num t ;; yyreduce c n
        | None => yyerror_part c
        end
    end.

Fixpoint yyrun (fuel : nat) (c : ycfg) : res (yend * ycfg) :=
  match fuel with
  | 0 => Fuel
  | S fuel =>
      x <- yyloop c ;;
      match x with
      | YEnd e c => Ok (e, c)
      | YNext c => yyrun fuel c
      end
  end.

(** yaccpar.skel:172-190, the start of yyparse, with the stack [k] left by an earlier
    call (all zero before the first one, and always with YYPURE). *)
Definition yyparse (fuel : nat) (k : ystack) : res (yend * ycfg) :=
  let '(ok, k) := if ks_scap k =? 0 then yygrowstack k else (true, k) in
  if ok then
    (* *s_mark = 0 *)
    if ks_scap k =? 0 then Bad
    else yyrun fuel (mkYcfg (mkYstack [0] (ks_size k) (ks_scap k) (ks_lcap k) (ks_mem k)) (-1)%Z 0 0 0)
  else Ok (YOverflow, mkYcfg k (-1)%Z 0 0 0).
End Parser.

(** The stack before the first call. *)
Definition fresh (mem : list bool) : ystack := mkYstack [] 0 0 0 mem.

(** byacc/main.c:963-970, the passes after reading: lr0, lalr, make_parser, output. *)
Definition byacc_generate (f1 f2 f3 : nat) (flag : bool) (s : bsrc) (pr : bprec) (sv : list Z) : res ytabs :=
  let b := pack_grammar s in
  '(nl, st) <- lr0 f1 b ;;
  T <- lalr f2 b nl st ;;
  P <- make_parser flag b pr T ;;
  output_tables f3 b sv T P.
