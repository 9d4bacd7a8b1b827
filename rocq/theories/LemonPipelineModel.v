(** The whole generator of lemon/lemon.c main (1820-1850) from a parsed grammar to
    the generated parser. *)
From Coq Require Import List Arith Bool ZArith.
Import ListNotations.
From Verif Require Import Base SpecGrammar LemonSetModel LemonFirstModel LemonSortModel LemonStatesModel
  LemonFollowModel LemonActionModel LemonCompressModel LemonReportModel LemonParModel.
Local Open Scope res_scope.

(** Everything besides the grammar that the input file and the command line
    determine. [o_addr1], [o_addr2] are the node addresses seen by the two
    sorts of the action lists. *)
Record opts : Type := mkOpts {
  o_ignorePrec : bool;
  o_yaccPrec : bool;
  o_compress : bool;
  o_precs : precs;
  o_precsym : list (option nat);
  o_noCode : list bool;
  o_wildcard : option nat;
  o_errsym : option nat;
  o_fallback : option (list nat);
  o_addr1 : nat -> nat -> nat;
  o_addr2 : nat -> nat -> nat
}.

(** The action lists after FindActions (main 1822-1841). *)
Definition lemon_actions (sfuel ffuel : nat) (o : opts) (g : grammar) : res (list (list action)) :=
  L <- lemon_front sfuel ffuel g ;;
  let ps := FindRulePrecedences (o_ignorePrec o) (o_yaccPrec o) (o_precs o) g (o_precsym o) in
  '(aps, _, _) <- FindActions (o_addr1 o) (o_precs o) ps g L ;;
  Ok aps.

(** noCode and iRule (1776-1786): a rule with code is numbered first. *)
Definition opts_rinfo (o : opts) : rinfo :=
  let num := number_rules (map negb (o_noCode o)) in
  mkRinfo (fun r => nth r (o_noCode o) true) (fun r => nth r num 0).

(** Tables compression, state renumbering and table output, for given action
    lists (main 1833-1846). *)
Definition lemon_back (cfuel : nat) (o : opts) (g : grammar) (aps : list (list action)) : res gen :=
  let ri := opts_rinfo o in
  xs <- (if o_compress o then CompressTables cfuel (o_addr2 o) (o_wildcard o) g ri aps
         else Ok (uncompressed aps)) ;;
  '(sorted, nx) <- ResortStates (g_nterm g) (g_nsym g) (o_errsym o) (ri_iRule ri) xs ;;
  t <- ReportTable g (o_errsym o) ri sorted nx ;;
  let rs := Rule_sort (ri_iRule ri) (seq 0 (length (g_rules g))) in
  let lhs r := match nth_error (g_rules g) r with Some rl => Z.of_nat (r_lhs rl) | None => 0%Z end in
  let nrhs r := match nth_error (g_rules g) r with Some rl => Z.of_nat (length (r_rhs rl)) | None => 0%Z end in
  let '(tl, tn) := rule_tables lhs nrhs rs in
  Ok (mkGen t (option_map (map Z.of_nat) (o_fallback o)) (option_map Z.of_nat (o_wildcard o))
        (option_map Z.of_nat (o_errsym o)) tl tn).

Definition lemon_generate (sfuel ffuel cfuel : nat) (o : opts) (g : grammar) : res gen :=
  aps <- lemon_actions sfuel ffuel o g ;;
  lemon_back cfuel o g aps.
