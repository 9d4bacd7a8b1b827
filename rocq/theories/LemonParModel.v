(** Model of the parser driver lemon/lempar.c (the template of every generated
    parser), with error recovery enabled (YYNOERRORRECOVERY undefined) and
    assertions enabled.

    The stack is a list of entries, top first, the bottom entry always present.
    Semantic values are trees recording which tokens and rules they come from.
    Callbacks and destructor calls are recorded in a log, newest first; a reduce
    records the code and value of each entry it pops.  A write to a stack entry
    outside the allocated stack is recorded as [EvOob].  Stack
    capacity: [p_cap] is YYSTACKDEPTH, or yystksz when the stack is dynamic;
    [grow] tells the new size after yyGrowStack, or that it fails (always, for
    a fixed stack).  Tracing, coverage and YYTRACKMAXSTACKDEPTH are not
    modelled. *)
From Coq Require Import List ZArith Bool.
Import ListNotations.
From Verif Require Import Base LemonReportModel.
Local Open Scope res_scope.
Local Open Scope Z_scope.

(** An array access. *)
Definition rdz {A} (l : list A) (i : Z) : res A :=
  if i <? 0 then Bad else opt (nth_error l (Z.to_nat i)).
Definition lenz {A} (l : list A) : Z := Z.of_nat (length l).
Definition assert (b : bool) : res unit := if b then Ok tt else Bad.

(** What the generated file adds to the tables: yyFallback (if YYFALLBACK),
    YYWILDCARD, YYERRORSYMBOL, yyRuleInfoLhs, yyRuleInfoNRhs. *)
Record gen : Type := mkGen {
  g_tab : tables;
  g_fallback : option (list Z);
  g_wildcard : option Z;
  g_errsym : option Z;
  g_lhs : list Z;
  g_nrhs : list Z
}.

(** lemon/lempar.c:544-559: the wildcard test, else the default action. *)
Definition find_wild (c : gen) (stateno i la : Z) : res Z :=
  match g_wildcard c with
  | None => rdz (yy_default (g_tab c)) stateno
  | Some w =>
      let j := i - la + w in
      _ <- assert (j <? lenz (yy_lookahead (g_tab c))) ;;
      x <- rdz (yy_lookahead (g_tab c)) j ;;
      if (x =? w) && (0 <? la) then rdz (yy_action (g_tab c)) j
      else rdz (yy_default (g_tab c)) stateno
  end.

(** lemon/lempar.c:507-566 yy_find_shift_action.  The assertion at 541 lets the
    loop repeat at most once, so two rounds of fuel suffice. *)
Fixpoint find_shift_loop (fuel : nat) (c : gen) (la stateno : Z) : res Z :=
  match fuel with
  | O => Fuel
  | S f =>
      let t := g_tab c in
      i0 <- rdz (yy_shift_ofst t) stateno ;;
      _ <- assert (0 <=? i0) ;;
      _ <- assert (i0 <=? YY_ACTTAB_COUNT t) ;;
      _ <- assert (i0 + YYNTOKEN t <=? lenz (yy_lookahead t)) ;;
      _ <- assert (negb (la =? YYNOCODE t)) ;;
      _ <- assert (la <? YYNTOKEN t) ;;
      let i := i0 + la in
      _ <- assert (i <? lenz (yy_lookahead t)) ;;
      x <- rdz (yy_lookahead t) i ;;
      if negb (x =? la) then
        match g_fallback c with
        | None => find_wild c stateno i la
        | Some fb =>
            _ <- assert (la <? lenz fb) ;;
            y <- rdz fb la ;;
            if negb (y =? 0) then
              z <- rdz fb y ;;
              _ <- assert (z =? 0) ;;
              find_shift_loop f c y stateno
            else find_wild c stateno i la
        end
      else
        _ <- assert (i <? lenz (yy_action t)) ;;
        rdz (yy_action t) i
  end.

Definition yy_find_shift_action (c : gen) (la stateno : Z) : res Z :=
  let t := g_tab c in
  if YY_MAX_SHIFT t <? stateno then Ok stateno
  else
    _ <- assert (stateno <=? YY_SHIFT_COUNT t) ;;
    find_shift_loop 2 c la stateno.

(** lemon/lempar.c:572-597 yy_find_reduce_action, both variants. *)
Definition yy_find_reduce_action (c : gen) (stateno la : Z) : res Z :=
  let t := g_tab c in
  match g_errsym c with
  | Some _ =>
      if YY_REDUCE_COUNT t <? stateno then rdz (yy_default t) stateno
      else
        i0 <- rdz (yy_reduce_ofst t) stateno ;;
        _ <- assert (negb (la =? YYNOCODE t)) ;;
        let i := i0 + la in
        if (i <? 0) || (YY_ACTTAB_COUNT t <=? i) then rdz (yy_default t) stateno
        else
          x <- rdz (yy_lookahead t) i ;;
          if negb (x =? la) then rdz (yy_default t) stateno else rdz (yy_action t) i
  | None =>
      _ <- assert (stateno <=? YY_REDUCE_COUNT t) ;;
      i0 <- rdz (yy_reduce_ofst t) stateno ;;
      _ <- assert (negb (la =? YYNOCODE t)) ;;
      let i := i0 + la in
      _ <- assert ((0 <=? i) && (i <? YY_ACTTAB_COUNT t)) ;;
      x <- rdz (yy_lookahead t) i ;;
      _ <- assert (x =? la) ;;
      rdz (yy_action t) i
  end.

(** Semantic values: a token (numbered by the caller), or the value computed by
    reducing a rule. *)
Inductive tree : Type :=
| Tok (id : nat)
| Nod (rule : Z) (children : list tree).

(** lemon/lempar.c:190-197 struct yyStackEntry. *)
Record entry : Type := mkEntry { e_state : Z; e_major : Z; e_minor : tree }.

Inductive event : Type :=
| EvShift (major : Z) (minor : tree)
| EvReduce (rule : Z) (rhs : list (Z * tree))
| EvDestroy (major : Z) (minor : tree)
| EvSyntaxError (major : Z) (minor : tree)
| EvFail
| EvAccept
| EvOverflow
| EvOob.

(** lemon/lempar.c:202-224 struct yyParser. *)
Record parser : Type := mkParser {
  p_stack : list entry;
  p_errcnt : Z;
  p_cap : Z;
  p_log : list event
}.

Definition with_stack (p : parser) (s : list entry) : parser := mkParser s (p_errcnt p) (p_cap p) (p_log p).
Definition with_errcnt (p : parser) (n : Z) : parser := mkParser (p_stack p) n (p_cap p) (p_log p).
Definition with_cap (p : parser) (n : Z) : parser := mkParser (p_stack p) (p_errcnt p) n (p_log p).
Definition logev (p : parser) (e : event) : parser := mkParser (p_stack p) (p_errcnt p) (p_cap p) (e :: p_log p).

(** yytos - yystack. *)
Definition tos_idx (p : parser) : Z := lenz (p_stack p) - 1.

(** lemon/lempar.c:320-345 ParseInit. *)
Definition ParseInit (cap : Z) : parser := mkParser [mkEntry 0 0 (Tok 0)] (-1) cap [].

(** Store an entry on top of the entries [base]. *)
Definition put (p : parser) (base : list entry) (e : entry) : parser :=
  with_stack (if p_cap p <=? lenz base then logev p EvOob else p) (e :: base).

(** lemon/lempar.c:409-422 yy_pop_parser_stack. *)
Definition yy_pop_parser_stack (p : parser) : res parser :=
  match p_stack p with
  | e :: (_ :: _) as r => Ok (logev (with_stack p (tl (p_stack p))) (EvDestroy (e_major e) (e_minor e)))
  | _ => Bad
  end.

(** The loops [while( yytos>yystack ) yy_pop_parser_stack()] at 429, 609, 755. *)
Fixpoint pop_all (fuel : nat) (p : parser) : res parser :=
  if tos_idx p <=? 0 then Ok p
  else match fuel with
       | O => Fuel
       | S f => p1 <- yy_pop_parser_stack p ;; pop_all f p1
       end.

(** lemon/lempar.c:427-432 ParseFinalize. *)
Definition ParseFinalize (p : parser) : res parser := pop_all (length (p_stack p)) p.

(** lemon/lempar.c:601-617 yyStackOverflow. *)
Definition yyStackOverflow (p : parser) : res parser :=
  p1 <- pop_all (length (p_stack p)) p ;;
  Ok (logev p1 EvOverflow).

(** lemon/lempar.c:746-763 yy_parse_failed. *)
Definition yy_parse_failed (p : parser) : res parser :=
  p1 <- pop_all (length (p_stack p)) p ;;
  Ok (logev p1 EvFail).

Section Driver.
Variable c : gen.
(** The new capacity when the stack of a given capacity grows; [None] when it
    cannot. *)
Variable grow : Z -> option Z.

(** lemon/lempar.c:643-685 yy_shift. *)
Definition yy_shift (p : parser) (yyNewState yyMajor : Z) (yyMinor : tree) : res parser :=
  let push p :=
    let st := if YY_MAX_SHIFT (g_tab c) <? yyNewState
              then yyNewState + (YY_MIN_REDUCE (g_tab c) - YY_MIN_SHIFTREDUCE (g_tab c)) else yyNewState in
    Ok (logev (put p (p_stack p) (mkEntry st yyMajor yyMinor)) (EvShift yyMajor yyMinor)) in
  if p_cap p <=? tos_idx p + 1 then
    match grow (p_cap p) with
    | None => yyStackOverflow p
    | Some n => push (with_cap p n)
    end
  else push p.

(** lemon/lempar.c:706-737 yy_reduce; the new parser and the action returned.
    User code is represented by the value [Nod rule children]. *)
Definition yy_reduce (p : parser) (yyruleno : Z) : res (parser * Z) :=
  yygoto <- rdz (g_lhs c) yyruleno ;;
  yysize <- rdz (g_nrhs c) yyruleno ;;
  if 0 <? yysize then Bad
  else
    let n := Z.to_nat (- yysize) in
    below <- opt (nth_error (p_stack p) n) ;;
    yyact <- yy_find_reduce_action c (e_state below) yygoto ;;
    _ <- assert (negb ((YY_MAX_SHIFT (g_tab c) <? yyact) && (yyact <=? YY_MAX_SHIFTREDUCE (g_tab c)))) ;;
    _ <- assert (negb (yyact =? YY_ERROR_ACTION (g_tab c))) ;;
    let rhs := rev (firstn n (p_stack p)) in
    let p1 := put p (skipn n (p_stack p)) (mkEntry yyact yygoto (Nod yyruleno (map e_minor rhs))) in
    Ok (logev p1 (EvReduce yyruleno (map (fun e => (e_major e, e_minor e)) rhs)), yyact).

(** The top of the stack. *)
Definition top (p : parser) : res entry := match p_stack p with e :: _ => Ok e | [] => Bad end.

(** lemon/lempar.c:992-997: pop until a state that can shift the error symbol;
    [yyact] is its value when the loop ends. *)
Fixpoint error_pop (fuel : nat) (p : parser) (es : Z) (yyact : Z) : res (parser * Z) :=
  if tos_idx p <=? 0 then Ok (p, yyact)
  else match fuel with
       | O => Fuel
       | S f =>
           e <- top p ;;
           a <- yy_find_reduce_action c (e_state e) es ;;
           if a <=? YY_MAX_SHIFTREDUCE (g_tab c) then Ok (p, a)
           else p1 <- yy_pop_parser_stack p ;; error_pop f p1 es a
       end.

(** lemon/lempar.c:887-1040, the loop of Parse; one unit of fuel per round. *)
Fixpoint parse_loop (fuel : nat) (p : parser) (yyact yymajor : Z) (yyminor : tree) (yyerrorhit : bool) : res parser :=
  match fuel with
  | O => Fuel
  | S f =>
      let t := g_tab c in
      e <- top p ;;
      _ <- assert (yyact =? e_state e) ;;
      yyact <- yy_find_shift_action c yymajor yyact ;;
      if YY_MIN_REDUCE t <=? yyact then
        let yyruleno := yyact - YY_MIN_REDUCE t in
        nrhs <- rdz (g_nrhs c) yyruleno ;;
        if nrhs =? 0 then
          if p_cap p - 1 <=? tos_idx p then
            match grow (p_cap p) with
            | None => yyStackOverflow p
            | Some n =>
                '(p1, act) <- yy_reduce (with_cap p n) yyruleno ;;
                parse_loop f p1 act yymajor yyminor yyerrorhit
            end
          else
            '(p1, act) <- yy_reduce p yyruleno ;;
            parse_loop f p1 act yymajor yyminor yyerrorhit
        else
          '(p1, act) <- yy_reduce p yyruleno ;;
          parse_loop f p1 act yymajor yyminor yyerrorhit
      else if yyact <=? YY_MAX_SHIFTREDUCE t then
        p1 <- yy_shift p yyact yymajor yyminor ;;
        Ok (with_errcnt p1 (p_errcnt p1 - 1))
      else if yyact =? YY_ACCEPT_ACTION t then
        match p_stack p with
        | _ :: [b] => Ok (logev (with_errcnt (with_stack p [b]) (-1)) EvAccept)
        | _ => Bad
        end
      else
        _ <- assert (yyact =? YY_ERROR_ACTION t) ;;
        match g_errsym c with
        | Some es =>
            let p0 := if p_errcnt p <? 0 then logev p (EvSyntaxError yymajor yyminor) else p in
            let yymx := e_major e in
            if (yymx =? es) || yyerrorhit then
              let p1 := logev p0 (EvDestroy yymajor yyminor) in
              Ok (with_errcnt p1 3)
            else
              '(p1, a) <- error_pop (length (p_stack p0)) p0 es yyact ;;
              if (tos_idx p1 <=? 0) || (yymajor =? 0) then
                p2 <- yy_parse_failed (logev p1 (EvDestroy yymajor yyminor)) ;;
                Ok (with_errcnt p2 3)
              else
                p2 <- yy_shift p1 a es yyminor ;;
                let p3 := with_errcnt p2 3 in
                e2 <- top p3 ;;
                parse_loop f p3 (e_state e2) yymajor yyminor true
        | None =>
            let p0 := if p_errcnt p <=? 0 then logev p (EvSyntaxError yymajor yyminor) else p in
            let p1 := logev (with_errcnt p0 3) (EvDestroy yymajor yyminor) in
            if yymajor =? 0 then
              p2 <- yy_parse_failed p1 ;;
              Ok (with_errcnt p2 (-1))
            else Ok p1
        end
  end.

(** lemon/lempar.c:843-1055 Parse: one call with a token. *)
Definition Parse (fuel : nat) (p : parser) (yymajor : Z) (yyminor : tree) : res parser :=
  e <- top p ;;
  parse_loop fuel p (e_state e) yymajor yyminor false.

(** A caller that feeds the tokens one by one, numbering them. *)
Fixpoint feed (fuel : nat) (p : parser) (toks : list Z) (id : nat) : res parser :=
  match toks with
  | [] => Ok p
  | t :: r => p1 <- Parse fuel p t (Tok id) ;; feed fuel p1 r (S id)
  end.

End Driver.

(** The yyRuleInfoNRhs entry (lemon/lemon.c:5434) as stored in a signed char. *)
Definition schar (n : Z) : Z := (n + 128) mod 256 - 128.

(** lemon/lemon.c:5426-5438: the rule tables, in the order of iRule. *)
Definition rule_tables {R} (lhs nrhs : R -> Z) (sorted_rules : list R) : list Z * list Z :=
  (map lhs sorted_rules, map (fun r => schar (- nrhs r)) sorted_rules).
