(** Model of the part of ReportTable (lemon/lemon.c:5076-5308) that builds and
    prints yy_action, yy_lookahead, yy_shift_ofst, yy_reduce_ofst and yy_default,
    and of minimum_size_type and axset_compare.

    A state is given by its row of terminal actions, its row of nonterminal
    actions (pairs of symbol index and compute_action value) and iDfltReduce.
    The printed text is modelled by the list of the numbers printed.
    state.iTknOfst == NO_OFFSET is [None]. *)
From Coq Require Import List ZArith Bool.
Import ListNotations.
From Verif Require Import Base CLib SpecGrammar LemonStatesModel LemonCompressModel LemonActtabModel.
Local Open Scope res_scope.
Local Open Scope Z_scope.

(** lemon/lemon.c:4582-4605 minimum_size_type: the C type and the value stored in
    *pnByte. *)
Inductive ctype : Type := T_uchar | T_ushort | T_uint | T_schar | T_short | T_int.
Definition minimum_size_type (lwr upr : Z) : ctype * Z :=
  if 0 <=? lwr then
    if upr <=? 255 then (T_uchar, 1)
    else if upr <? 65535 then (T_ushort, 2)
    else (T_uint, 4)
  else if (-127 <=? lwr) && (upr <=? 127) then (T_schar, 1)
  else if (-32767 <=? lwr) && (upr <? 32767) then (T_short, 2)
  else (T_int, 4).

Record srow : Type := mkSrow {
  sr_tkn : list (Z * Z);
  sr_nt : list (Z * Z);
  sr_dflt : Z
}.

(** lemon/lemon.c:5107-5113 and 5118-5125: the pairs entered for a state. *)
Definition state_row (nterm nsym : nat) (code : action -> Z) (x : xstate) : srow :=
  let pair (a : action) := (Z.of_nat (a_sp a), code a) in
  mkSrow
    (map pair (filter (fun a => Nat.ltb (a_sp a) nterm && (0 <=? code a)) (x_ap x)))
    (map pair (filter (fun a => negb (Nat.ltb (a_sp a) nterm) && negb (Nat.eqb (a_sp a) nsym) && (0 <=? code a)) (x_ap x)))
    (x_iDfltReduce x).

(** lemon/lemon.c:4613-4618 struct axset: the state, isTkn, nAction, iOrder. *)
Record axset : Type := mkAxset {
  ax_stp : nat;
  ax_isTkn : bool;
  ax_row : list (Z * Z);
  ax_nAction : Z;
  ax_iOrder : Z
}.

(** lemon/lemon.c:5088-5101; nTknAct and nNtAct count exactly the pairs entered. *)
Fixpoint make_ax (i : nat) (sts : list srow) : list axset :=
  match sts with
  | [] => []
  | s :: r =>
      mkAxset i true (sr_tkn s) (Z.of_nat (length (sr_tkn s))) (2 * Z.of_nat i) ::
      mkAxset i false (sr_nt s) (Z.of_nat (length (sr_nt s))) (2 * Z.of_nat i + 1) ::
      make_ax (S i) r
  end.

(** lemon/lemon.c:4623-4633 axset_compare, as cmp<=0. *)
Definition axset_le (p1 p2 : axset) : bool :=
  let c := ax_nAction p2 - ax_nAction p1 in
  if c =? 0 then ax_iOrder p1 - ax_iOrder p2 <=? 0 else c <=? 0.

(** The loop of 5104 stops at the first empty set. *)
Fixpoint take_nonempty (l : list axset) : list axset :=
  match l with
  | [] => []
  | a :: r => if 0 <? ax_nAction a then a :: take_nonempty r else []
  end.

(** state.iTknOfst (isTkn true) or iNtOfst after the loop 5104-5127: the offset
    assigned last. *)
Definition ofst_of (axs : list axset) (os : list Z) (tkn : bool) (i : nat) : option Z :=
  fold_left (fun acc x => if (Nat.eqb (ax_stp (fst x)) i) && Bool.eqb (ax_isTkn (fst x)) tkn then Some (snd x) else acc)
    (combine axs os) None.

(** mnTknOfst, mxTknOfst, mnNtOfst, mxNtOfst (5097-5098, 5114-5115, 5126-5127). *)
Definition mn_ofst (axs : list axset) (os : list Z) (tkn : bool) : Z :=
  fold_left (fun acc x => if Bool.eqb (ax_isTkn (fst x)) tkn then (if snd x <? acc then snd x else acc) else acc)
    (combine axs os) 0.
Definition mx_ofst (axs : list axset) (os : list Z) (tkn : bool) : Z :=
  fold_left (fun acc x => if Bool.eqb (ax_isTkn (fst x)) tkn then (if acc <? snd x then snd x else acc) else acc)
    (combine axs os) 0.

(** 5241-5242 and 5267-5268: drop trailing states without offset. *)
Fixpoint trim_none (l : list (option Z)) (n : nat) : nat :=
  match n with
  | O => O
  | S m => match nth_error l m with Some (Some _) => n | _ => trim_none l m end
  end.

(** The constants and tables of the generated parser. *)
Record tables : Type := mkTables {
  YYNOCODE : Z;
  YYNTOKEN : Z;
  YY_MAX_SHIFT : Z;
  YY_MIN_SHIFTREDUCE : Z;
  YY_MAX_SHIFTREDUCE : Z;
  YY_ERROR_ACTION : Z;
  YY_ACCEPT_ACTION : Z;
  YY_NO_ACTION : Z;
  YY_MIN_REDUCE : Z;
  YY_ACTTAB_COUNT : Z;
  yy_action : list Z;
  yy_lookahead : list Z;
  YY_SHIFT_COUNT : Z;
  yy_shift_ofst : list Z;
  YY_REDUCE_COUNT : Z;
  yy_reduce_ofst : list Z;
  yy_default : list Z
}.

(** Reading the first [n] slots of aAction (5193, 5211). *)
Fixpoint rd_upto (a : list (Z * Z)) (n : nat) : res (list (Z * Z)) :=
  match n with
  | O => Ok []
  | S m =>
      l <- rd_upto a m ;;
      x <- rd a (Z.of_nat m) ;;
      Ok (l ++ [x])
  end.

(** lemon/lemon.c:5083-5308. [nxstate] is the length of [sts]. *)
Definition ReportTables (k : consts) (nrule : Z) (nsymbol nterminal : Z) (sts : list srow) : res tables :=
  let nx := length sts in
  let axs := take_nonempty (qsort axset_le (make_ax 0 sts)) in
  '(p, os) <- add_rows (acttab_alloc nsymbol nterminal) (map (fun a => (ax_row a, ax_isTkn a)) axs) ;;
  n <- acttab_action_size p ;;
  acts <- rd_upto (aAction p) (Z.to_nat n) ;;
  lks <- rd_upto (aAction p) (Z.to_nat (nAction p)) ;;
  let yyaction := map (fun x => if snd x <? 0 then k_noAction k else snd x) acts in
  let nla := nterminal + n in
  let yylook := map (fun x => if fst x <? 0 then nsymbol else fst x) lks
                ++ repeat nterminal (Z.to_nat (nla - nAction p)) in
  let tofs := map (ofst_of axs os true) (seq 0 nx) in
  let nofs := map (ofst_of axs os false) (seq 0 nx) in
  let nt := trim_none tofs nx in
  let nn := trim_none nofs nx in
  let mnNt := mn_ofst axs os false in
  Ok (mkTables nsymbol nterminal (Z.of_nat nx - 1) (k_minShiftReduce k) (k_minShiftReduce k + nrule - 1)
        (k_errAction k) (k_accAction k) (k_noAction k) (k_minReduce k) n
        yyaction yylook (Z.of_nat nt - 1)
        (map (fun o => match o with Some z => z | None => n end) (firstn nt tofs))
        (Z.of_nat nn - 1)
        (map (fun o => match o with Some z => z | None => mnNt - 1 end) (firstn nn nofs))
        (map (fun s => if sr_dflt s <? 0 then k_errAction k else sr_dflt s + k_minReduce k) sts)).

(** lemon/lemon.c:4940-4945 and 5083-5308 for the states left by ResortStates:
    [sorted] in the new order, of which the first [nxstate] are emitted. *)
Definition new_num (sorted : list xstate) (q : nat) : nat :=
  (fix go (l : list xstate) (i : nat) : nat :=
     match l with
     | [] => i
     | x :: r => if Nat.eqb (x_num x) q then i else go r (S i)
     end) sorted O.

Definition ReportTable (g : grammar) (errsym : option nat) (ri : rinfo) (sorted : list xstate) (nxstate : nat) : res tables :=
  let nrule := Z.of_nat (length (g_rules g)) in
  let k := report_consts (Z.of_nat (length sorted)) nrule in
  let code := compute_action k (g_nterm g) errsym (ri_iRule ri) (new_num sorted) in
  ReportTables k nrule (Z.of_nat (g_nsym g)) (Z.of_nat (g_nterm g))
    (map (state_row (g_nterm g) (g_nsym g) code) (firstn nxstate sorted)).
