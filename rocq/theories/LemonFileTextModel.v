(** From the text of a grammar file to the C text lemon prints for it: lemon_text (Prop_LemonEndToEnd) with the names and
    the prefix that are read from the file and with the printing of LemonTableTextModel and LemonNameTextModel
    (lemon/lemon.c:1752-1850, 4921-5553). *)
From Coq Require Import String List Arith ZArith Bool.
Import ListNotations.
From Verif Require Import Base SpecGrammar LemonTableModel LemonPreModel LemonActionModel LemonPipelineModel LemonReadModel LemonCodeModel LemonReprintModel LemonTableTextModel LemonNameTextModel.
Local Open Scope res_scope.

(** lemp->symbols[i]->name for i < nsymbol  (lemon/lemon.c:1762-1776). *)
Definition symbol_names (g0 : gram) : res (list txt) :=
  let g := set_syms (snd (sym_new default_name (gr_syms g0))) g0 in
  '(sorted, nsymbol, _) <- index_symbols (map as_lsym (named g)) ;;
  syms <- map_res (fun i => opt (obj_at g sorted i)) (seq 0 nsymbol) ;;
  Ok (map so_name syms).
(** lemp->tokenprefix, "" when there is none (lemon/lemon.c:4996, 5519). *)
Definition token_prefix (g : gram) : txt := match slot_get Gtokenprefix (gr_slots g) with Some p => p | None => [] end.

(** The parts of the generated file in their order: the macros of the tokens, the constants and tables, yyTokenName,
    yyRuleName.  (Between them is the text of the template; the tables yyFallback, yyRuleInfoLhs and yyRuleInfoNRhs come
    behind or between the names in the file.)  Then the header, which is not written with -m. *)
Record parts : Type := mkParts { lp_macros : txt; lp_tables : txt; lp_names : txt; lp_rules : txt; lp_header : option txt }.

(** [mh] is mhflag, [dt] errsym->dtnum, [old] the header there was before. *)
Definition lemon_print (sf ff cf : nat) (defs : list text) (o : ropts) (compress yacc mh : bool) (dt : Z) (a1 a2 : nat -> nat -> nat) (old : option txt) (z : text) : res (option (nat * parts)) :=
  r <- LemonReadModel.Parse defs o z ;;
  match r with
  | None => Ok None
  | Some g =>
      r <- to_grammar o compress yacc a1 a2 g ;;
      match r with
      | None => Ok None
      | Some (G, op, n) =>
          names <- symbol_names g ;;
          let nm := fun i => nth i names [] in
          t <- lemon_generate_text nm dt sf ff cf op G ;;
          u <- rulenames_text nm op G ;;
          h <- (if mh then Ok None else h <- ReportHeader (token_prefix g) nm (g_nterm G) old ;; Ok (Some h)) ;;
          Ok (Some (n, mkParts (token_defines mh (token_prefix g) nm (g_nterm G)) t (names_text nm (g_nsym G)) u h))
      end
  end.
