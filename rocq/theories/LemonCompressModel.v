(** Model of CompressTables, compute_action, stateResortCompare and ResortStates
    of lemon/lemon.c.

    States are identified by their number after FindStates; the action lists
    are those left by FindActions.  The symbol {default} has index nsymbol
    (lemon/lemon.c:1764-1773). *)
From Coq Require Import List Arith Bool ZArith.
Import ListNotations.
From Verif Require Import Base CLib SpecGrammar LemonSetModel LemonSortModel LemonStatesModel LemonActionModel.
Local Open Scope res_scope.

(** The fields of struct rule (lemon/lemon.c:294-322) used here that are not
    part of the grammar: noCode and iRule. *)
Record rinfo : Type := mkRinfo {
  ri_noCode : nat -> bool;
  ri_iRule : nat -> nat
}.

(** rule.lhsStart is set for the rules of the start symbol (lemon/lemon.c:1001). *)
Definition lhsStart (g : grammar) (r : nat) : bool :=
  match nth_error (g_rules g) r with Some rl => r_lhs rl =? g_start g | None => false end.

Definition is_reduce (a : action) (r : nat) : bool :=
  match a_type a with REDUCE => a_arg a =? r | _ => false end.

(** lemon/lemon.c:5578-5598: choose the most frequent reduction; the running
    values of nbest, rbest and usesWildcard. *)
Fixpoint find_best (g : grammar) (wild : option nat) (l : list action) (nbest : nat) (rbest : option nat) (uw : bool)
  : nat * option nat * bool :=
  match l with
  | [] => (nbest, rbest, uw)
  | ap :: rest =>
      let uw1 := match a_type ap, wild with SHIFT, Some w => uw || (a_sp ap =? w) | _, _ => uw end in
      match a_type ap with
      | REDUCE =>
          let rp := a_arg ap in
          if lhsStart g rp then find_best g wild rest nbest rbest uw1
          else if match rbest with Some b => rp =? b | None => false end
          then find_best g wild rest nbest rbest uw1
          else
            let n := S (length (filter (fun a => is_reduce a rp) rest)) in
            if nbest <? n then find_best g wild rest n (Some rp) uw1
            else find_best g wild rest nbest rbest uw1
      | _ => find_best g wild rest nbest rbest uw1
      end
  end.

(** lemon/lemon.c:5613-5615: the later reductions by rbest become NOT_USED. *)
Definition drop_reduce (r : nat) (a : action) : action :=
  if is_reduce a r then with_type a NOT_USED else a.

(** lemon/lemon.c:5608-5615: the first reduction by rbest moves to {default}. *)
Fixpoint make_default (dflt r : nat) (l : list action) : res (list action) :=
  match l with
  | [] => Bad
  | a :: rest =>
      if is_reduce a r then Ok (mkAction REDUCE dflt r :: map (drop_reduce r) rest)
      else rest' <- make_default dflt r rest ;; Ok (a :: rest')
  end.

(** lemon/lemon.c:5618-5621: does something else than reducing by rbest remain? *)
Definition keeps (r : nat) (a : action) : bool :=
  match a_type a with SHIFT => true | REDUCE => negb (a_arg a =? r) | _ => false end.

(** lemon/lemon.c:5570-5627: first pass for one state: the new list, and the rule
    of pDfltReduce when autoReduce is set.  [addr] gives node addresses for the
    second Action_sort. *)
Definition compress1 (g : grammar) (wild : option nat) (addr : nat -> nat) (l : list action)
  : res (list action * option nat) :=
  match find_best g wild l 0 None false with
  | (nbest, Some r, uw) =>
      if (nbest <? 1) || uw then Ok (l, None)
      else
        l1 <- make_default (g_nsym g) r l ;;
        let l2 := Action_sort addr l1 in
        Ok (l2, if existsb (keeps r) l2 then None else Some r)
  | (_, None, _) => Ok (l, None)
  end.

Fixpoint compress1_all (g : grammar) (wild : option nat) (addr : nat -> nat -> nat) (q : nat) (aps : list (list action))
  : res (list (list action * option nat)) :=
  match aps with
  | [] => Ok []
  | l :: rest =>
      x <- compress1 g wild (addr q) l ;;
      xs <- compress1_all g wild addr (S q) rest ;;
      Ok (x :: xs)
  end.

(** lemon/lemon.c:5633-5645: second pass, SHIFT to an autoReduce state. *)
Definition shiftreduce (auto : nat -> option nat) (a : action) : action :=
  match a_type a with
  | SHIFT => match auto (a_arg a) with Some r => mkAction SHIFTREDUCE (a_sp a) r | None => a end
  | _ => a
  end.

(** lemon/lemon.c:5665-5666: the first other action on symbol [s]; [i] is the
    position of [ap] itself, skipped. *)
Fixpoint find_lhs (l : list action) (k i s : nat) : option action :=
  match l with
  | [] => None
  | a :: r => if (k =? i) || negb (a_sp a =? s) then find_lhs r (S k) i s else Some a
  end.

(** lemon/lemon.c:5653-5673: third pass on one state; [nextap = ap] makes the loop
    examine the changed action again.  [spOpt] is not modelled (it only serves
    the report). *)
Fixpoint unit_loop (fuel : nat) (g : grammar) (ri : rinfo) (l : list action) (i : nat) : res (list action) :=
  match nth_error l i with
  | None => Ok l
  | Some ap =>
      match fuel with
      | 0 => Fuel
      | S f =>
          match a_type ap with
          | SHIFTREDUCE =>
              rp <- opt (nth_error (g_rules g) (a_arg ap)) ;;
              if negb (ri_noCode ri (a_arg ap)) then unit_loop f g ri l (S i)
              else if negb (length (r_rhs rp) =? 1) then unit_loop f g ri l (S i)
              else if a_sp ap <? g_nterm g then unit_loop f g ri l (S i)
              else
                ap2 <- opt (find_lhs l 0 i (r_lhs rp)) ;;
                unit_loop f g ri (upd l i (mkAction (a_type ap2) (a_sp ap) (a_arg ap2))) i
          | _ => unit_loop f g ri l (S i)
          end
      end
  end.

Fixpoint unit_all (fuel : nat) (g : grammar) (ri : rinfo) (xs : list (list action * option nat))
  : res (list (list action * option nat)) :=
  match xs with
  | [] => Ok []
  | (l, a) :: rest =>
      l1 <- unit_loop fuel g ri l 0 ;;
      r1 <- unit_all fuel g ri rest ;;
      Ok ((l1, a) :: r1)
  end.

(** lemon/lemon.c:5560-5675 CompressTables: for each state its action list and
    autoReduce/pDfltReduce. *)
Definition CompressTables (fuel : nat) (addr : nat -> nat -> nat) (wild : option nat) (g : grammar) (ri : rinfo)
  (aps : list (list action)) : res (list (list action * option nat)) :=
  xs <- compress1_all g wild addr 0 aps ;;
  let auto q := match nth_error xs q with Some (_, a) => a | None => None end in
  let ys := map (fun x => (map (shiftreduce auto) (fst x), snd x)) xs in
  unit_all fuel g ri ys.

(** With -c the lists stay as they are and no state has autoReduce. *)
Definition uncompressed (aps : list (list action)) : list (list action * option nat) :=
  map (fun l => (l, None)) aps.

(** The numbers minShiftReduce, errAction, accAction, noAction, minReduce and
    maxAction of struct lemon. *)
Record consts : Type := mkConsts {
  k_minShiftReduce : Z;
  k_errAction : Z;
  k_accAction : Z;
  k_noAction : Z;
  k_minReduce : Z;
  k_maxAction : Z
}.

(** lemon/lemon.c:4940-4945 (in ReportTable). *)
Definition report_consts (nstate nrule : Z) : consts :=
  let minShiftReduce := nstate in
  let errAction := (minShiftReduce + nrule)%Z in
  let accAction := (errAction + 1)%Z in
  let noAction := (accAction + 1)%Z in
  let minReduce := (noAction + 1)%Z in
  let maxAction := (minReduce + nrule)%Z in
  mkConsts minShiftReduce errAction accAction noAction minReduce maxAction.

(** Before ReportTable they are zero (lemon/lemon.c:1695 memset). *)
Definition zero_consts : consts := mkConsts 0 0 0 0 0 0.

(** lemon/lemon.c:3928-3952 compute_action; [statenum] gives state.statenum. *)
Definition compute_action (k : consts) (nterm : nat) (errsym : option nat) (irule : nat -> nat) (statenum : nat -> nat)
  (ap : action) : Z :=
  match a_type ap with
  | SHIFT => Z.of_nat (statenum (a_arg ap))
  | SHIFTREDUCE =>
      if (nterm <=? a_sp ap) && match errsym with None => true | Some e => negb (a_sp ap =? e) end
      then (k_minReduce k + Z.of_nat (irule (a_arg ap)))%Z
      else (k_minShiftReduce k + Z.of_nat (irule (a_arg ap)))%Z
  | REDUCE => (k_minReduce k + Z.of_nat (irule (a_arg ap)))%Z
  | ERROR => k_errAction k
  | ACCEPT => k_accAction k
  | _ => (-1)%Z
  end.

(** struct state after ResortStates: statenum before the call, action list,
    autoReduce, nTknAct, nNtAct, iDfltReduce (negative: none). *)
Record xstate : Type := mkXstate {
  x_num : nat;
  x_ap : list action;
  x_auto : option nat;
  x_nTknAct : nat;
  x_nNtAct : nat;
  x_iDfltReduce : Z
}.

(** lemon/lemon.c:5712-5725: the counts and the default of one state. *)
Fixpoint count_actions (nterm nsym : nat) (code : action -> Z) (auto : option nat) (l : list action)
  (tkn nt : nat) (dflt : Z) : res (nat * nat * Z) :=
  match l with
  | [] => Ok (tkn, nt, dflt)
  | ap :: r =>
      let i := code ap in
      if (0 <=? i)%Z then
        if a_sp ap <? nterm then count_actions nterm nsym code auto r (S tkn) nt dflt
        else if a_sp ap <? nsym then count_actions nterm nsym code auto r tkn (S nt) dflt
        else if match auto with None => true | Some rd => a_arg ap =? rd end
             then count_actions nterm nsym code auto r tkn nt i
             else Bad
      else count_actions nterm nsym code auto r tkn nt dflt
  end.

Fixpoint count_states (nterm nsym : nat) (code : action -> Z) (q : nat) (xs : list (list action * option nat))
  : res (list xstate) :=
  match xs with
  | [] => Ok []
  | (l, auto) :: r =>
      '(tkn, nt, d) <- count_actions nterm nsym code auto l 0 0 (-1)%Z ;;
      r1 <- count_states nterm nsym code (S q) r ;;
      Ok (mkXstate q l auto tkn nt d :: r1)
  end.

(** lemon/lemon.c:5679-5694 stateResortCompare, as cmp<=0. *)
Definition stateResort_le (a b : xstate) : bool :=
  let n := (Z.of_nat (x_nNtAct b) - Z.of_nat (x_nNtAct a))%Z in
  if (n =? 0)%Z then
    let m := (Z.of_nat (x_nTknAct b) - Z.of_nat (x_nTknAct a))%Z in
    if (m =? 0)%Z then (Z.of_nat (x_num b) - Z.of_nat (x_num a) <=? 0)%Z else (m <=? 0)%Z
  else (n <=? 0)%Z.

(** lemon/lemon.c:5732-5734: drop trailing autoReduce states. *)
Fixpoint trim_auto (sorted : list xstate) (n : nat) : nat :=
  match n with
  | 0 => 0
  | S m => if (1 <? n) && match nth_error sorted m with Some x => match x_auto x with Some _ => true | None => false end | None => false end
           then trim_auto sorted m else n
  end.

(** lemon/lemon.c:5700-5735 ResortStates: the new order of the states (position =
    new statenum) and nxstate. *)
Definition ResortStates (nterm nsym : nat) (errsym : option nat) (irule : nat -> nat) (xs : list (list action * option nat))
  : res (list xstate * nat) :=
  l <- count_states nterm nsym (compute_action zero_consts nterm errsym irule (fun q => q)) 0 xs ;;
  match l with
  | [] => Ok ([], 0)
  | x0 :: r =>
      let sorted := x0 :: qsort stateResort_le r in
      Ok (sorted, trim_auto sorted (length sorted))
  end.
