(** Model of the LR(0) state construction of lemon/lemon.c: configlist.c,
    FindStates, getstate, buildshifts, and the plink lists.

    Pointers to configurations are indices into the append-only list [l_cfgs];
    pointers to states are indices into [l_states] (index = statenum, which is
    also the order of State_arrayof); linked lists ([next], [bp], plinks) are
    lists of such indices.  Reuse of freed configurations and plinks through
    the free lists is not modelled: a fresh index is used for each allocation.
    ErrorMsg/errorcnt side effects are not modelled. *)
From Coq Require Import List Arith Bool.
Import ListNotations.
From Verif Require Import Base SpecGrammar LemonSetModel LemonFirstModel LemonSortModel.
Local Open Scope res_scope.

(** lemon/lemon.c:325-334 struct config (fields rp, dot, fws, fplp, bplp, status;
    [c_comp] is status==COMPLETE; stp is set by FindLinks and only used for
    printing). *)
Record config : Type := mkConfig {
  c_rp : nat;
  c_dot : nat;
  c_fws : cset;
  c_fplp : list nat;
  c_bplp : list nat;
  c_comp : bool
}.

(** lemon/lemon.c:337-349 enum e_action. *)
Inductive e_action : Type :=
| SHIFT | ACCEPT | REDUCE | ERROR | SSCONFLICT | SRCONFLICT | RRCONFLICT
| SH_RESOLVED | RD_RESOLVED | NOT_USED | SHIFTREDUCE.

(** lemon/lemon.c:352-363 struct action; [a_arg] is the state number or the rule
    index of the union x. *)
Record action : Type := mkAction {
  a_type : e_action;
  a_sp : nat;
  a_arg : nat
}.

(** lemon/lemon.c:366-378 struct state: basis, closure, action list. *)
Record state : Type := mkState {
  s_bp : list nat;
  s_cfp : list nat;
  s_ap : list action
}.

(** The part of struct lemon (lemon/lemon.c:391-) used here. *)
Record lemon : Type := mkLemon {
  l_cfgs : list config;
  l_states : list state;
  l_current : list nat;
  l_basis : list nat
}.

Definition set_cfgs (L : lemon) (h : list config) : lemon :=
  mkLemon h (l_states L) (l_current L) (l_basis L).
Definition set_states (L : lemon) (s : list state) : lemon :=
  mkLemon (l_cfgs L) s (l_current L) (l_basis L).

Definition with_fws (c : config) (w : cset) : config :=
  mkConfig (c_rp c) (c_dot c) w (c_fplp c) (c_bplp c) (c_comp c).
Definition with_fplp (c : config) (p : list nat) : config :=
  mkConfig (c_rp c) (c_dot c) (c_fws c) p (c_bplp c) (c_comp c).
Definition with_bplp (c : config) (p : list nat) : config :=
  mkConfig (c_rp c) (c_dot c) (c_fws c) (c_fplp c) p (c_comp c).
Definition with_comp (c : config) (b : bool) : config :=
  mkConfig (c_rp c) (c_dot c) (c_fws c) (c_fplp c) (c_bplp c) b.

Definition c_item (c : config) : item := (c_rp c, c_dot c).

(** lemon/lemon.c:6168-6177 Configcmp, as cmp(a,b)<=0 on (rule index, dot). *)
Definition Configcmp_le (a b : item) : bool :=
  if fst a =? fst b then snd a <=? snd b else fst a <? fst b.

(** lemon/lemon.c:6179-6191 statecmp == 0 on the item lists of two bases. *)
Fixpoint statecmp_eq (a b : list item) : bool :=
  match a, b with
  | [], [] => true
  | x :: a', y :: b' =>
      (fst x =? fst y) && (snd x =? snd y) && statecmp_eq a' b'
  | _, _ => false
  end.

(** Items of a list of configuration pointers; dangling pointers give [Bad]. *)
Fixpoint items_of (h : list config) (l : list nat) : res (list item) :=
  match l with
  | [] => Ok []
  | x :: r =>
      c <- opt (nth_error h x) ;;
      is <- items_of h r ;;
      Ok (c_item c :: is)
  end.

(** lemon/lemon.c:6469-6482 Configtable_find.  The table holds exactly the
    configurations on the current list (Configlist_reset clears it,
    Configlist_add/addbasis insert each new element); the hash chains are
    modelled in LemonTableModel.v. *)
Fixpoint Configtable_find (h : list config) (l : list nat) (i : item) : option nat :=
  match l with
  | [] => None
  | x :: r =>
      match nth_error h x with
      | Some c => if (c_rp c =? fst i) && (c_dot c =? snd i) then Some x
                  else Configtable_find h r i
      | None => Configtable_find h r i
      end
  end.

(** lemon/lemon.c:1386-1393 Configlist_reset. *)
Definition Configlist_reset (L : lemon) : lemon := mkLemon (l_cfgs L) (l_states L) [] [].

(** lemon/lemon.c:1364-1366 newconfig and the field initialisations in
    Configlist_add; calloc leaves status 0, which is COMPLETE. *)
Definition newconfig (g : grammar) (r d : nat) : config :=
  mkConfig r d (SetNew (first_set_size g)) [] [] true.

(** lemon/lemon.c:1396-1421 Configlist_add. *)
Definition Configlist_add (g : grammar) (L : lemon) (r d : nat) : lemon * nat :=
  match Configtable_find (l_cfgs L) (l_current L) (r, d) with
  | Some x => (L, x)
  | None =>
      let x := length (l_cfgs L) in
      (mkLemon (l_cfgs L ++ [newconfig g r d]) (l_states L) (l_current L ++ [x]) (l_basis L), x)
  end.

(** lemon/lemon.c:1424-1449 Configlist_addbasis. *)
Definition Configlist_addbasis (g : grammar) (L : lemon) (r d : nat) : lemon * nat :=
  match Configtable_find (l_cfgs L) (l_current L) (r, d) with
  | Some x => (L, x)
  | None =>
      let x := length (l_cfgs L) in
      (mkLemon (l_cfgs L ++ [newconfig g r d]) (l_states L) (l_current L ++ [x])
               (l_basis L ++ [x]), x)
  end.

(** The rules of a nonterminal in the order of the nextlhs chain; the parser
    pushes each new rule at the front (lemon/lemon.c:2498-2499). *)
Definition rules_of (g : grammar) (A : nat) : list nat :=
  rev (filter (fun i => match nth_error (g_rules g) i with
                        | Some r => r_lhs r =? A
                        | None => false
                        end) (seq 0 (length (g_rules g)))).

(** lemon/lemon.c:1474-1489, the loop over the rest of the right-hand side;
    the flag tells whether the end was reached (i==rp->nrhs). *)
Fixpoint closure_scan (nterm : nat) (lam : list bool) (fs : list cset)
  (fws : cset) (rest : list elem) : res (cset * bool) :=
  match rest with
  | [] => Ok (fws, true)
  | ESym x :: rest' =>
      if x <? nterm then
        '(w, _) <- SetAdd fws x ;; Ok (w, false)
      else
        f <- opt (nth_error fs x) ;;
        '(w, _) <- SetUnion fws f ;;
        l <- opt (nth_error lam x) ;;
        if (l : bool) then closure_scan nterm lam fs w rest' else Ok (w, false)
  | EMulti l :: _ =>
      '(w, _) <- SetAddAll fws l false ;; Ok (w, false)
  end.

(** lemon/lemon.c:1472-1490, loop over the rules of the nonterminal. *)
Fixpoint closure_rules (g : grammar) (lam : list bool) (fs : list cset)
  (L : lemon) (cfp : nat) (rest : list elem) (rs : list nat) : res lemon :=
  match rs with
  | [] => Ok L
  | newrp :: rs' =>
      let '(L1, new) := Configlist_add g L newrp 0 in
      c <- opt (nth_error (l_cfgs L1) new) ;;
      '(w, e) <- closure_scan (g_nterm g) lam fs (c_fws c) rest ;;
      let L2 := set_cfgs L1 (upd (l_cfgs L1) new (with_fws c w)) in
      if (e : bool) then
        c2 <- opt (nth_error (l_cfgs L2) cfp) ;;
        let L3 := set_cfgs L2 (upd (l_cfgs L2) cfp (with_fplp c2 (new :: c_fplp c2))) in
        closure_rules g lam fs L3 cfp rest rs'
      else closure_rules g lam fs L2 cfp rest rs'
  end.

(** lemon/lemon.c:1459-1492 one iteration of the outer loop of Configlist_closure. *)
Definition closure_one (g : grammar) (lam : list bool) (fs : list cset) (L : lemon) (cfp : nat)
  : res lemon :=
  c <- opt (nth_error (l_cfgs L) cfp) ;;
  rp <- opt (nth_error (g_rules g) (c_rp c)) ;;
  match nth_error (r_rhs rp) (c_dot c) with
  | Some (ESym sp) =>
      if sp <? g_nterm g then Ok L
      else closure_rules g lam fs L cfp (skipn (S (c_dot c)) (r_rhs rp)) (rules_of g sp)
  | _ => Ok L
  end.

(** The outer loop walks the growing current list by position. *)
Fixpoint closure_loop (fuel : nat) (g : grammar) (lam : list bool) (fs : list cset)
  (L : lemon) (i : nat) : res lemon :=
  match nth_error (l_current L) i with
  | None => Ok L
  | Some cfp =>
      match fuel with
      | 0 => Fuel
      | S f =>
          L1 <- closure_one g lam fs L cfp ;;
          closure_loop f g lam fs L1 (S i)
      end
  end.

(** lemon/lemon.c:1452-1494 Configlist_closure; the fuel bound always suffices
    (each rule is added at most once). *)
Definition Configlist_closure (g : grammar) (lam : list bool) (fs : list cset) (L : lemon)
  : res lemon :=
  closure_loop (S (length (l_current L) + length (g_rules g))) g lam fs L 0.

(** Reading a configuration; a dangling index (which would be undefined
    behaviour) yields a dummy here.  [items_of], used on the results, reports
    dangling indices as [Bad]. *)
Definition dconf : config := mkConfig 0 0 [] [] [] true.
Definition cf (h : list config) (x : nat) : config := nth x h dconf.
Definition key (h : list config) (x : nat) : item := c_item (cf h x).

(** Sorting a list of configuration pointers with Configcmp. *)
Definition sort_cfgs (h : list config) (l : list nat) : list nat :=
  msort (fun x y => Configcmp_le (key h x) (key h y)) l.

(** lemon/lemon.c:1497-1502 Configlist_sort followed by 1514-1521
    Configlist_return: the sorted list, with the current list emptied. *)
Definition Configlist_sort_return (L : lemon) : lemon * list nat :=
  (mkLemon (l_cfgs L) (l_states L) [] (l_basis L), sort_cfgs (l_cfgs L) (l_current L)).

(** lemon/lemon.c:1505-1510 Configlist_sortbasis (it sorts the current list
    along the bp links) followed by 1524-1531 Configlist_basis. *)
Definition Configlist_sortbasis_basis (L : lemon) : lemon * list nat :=
  (mkLemon (l_cfgs L) (l_states L) (l_current L) [], sort_cfgs (l_cfgs L) (l_current L)).

(** lemon/lemon.c:3244-3253 Plink_copy. *)
Definition Plink_copy (to from : list nat) : list nat := rev from ++ to.

(** lemon/lemon.c:1033-1037 in getstate: move backlinks to the existing state. *)
Fixpoint copy_links (h : list config) (x y : list nat) : res (list config) :=
  match x, y with
  | a :: x', b :: y' =>
      ca <- opt (nth_error h a) ;;
      cb <- opt (nth_error h b) ;;
      let h1 := upd h b (with_bplp cb (Plink_copy (c_bplp cb) (c_bplp ca))) in
      ca1 <- opt (nth_error h1 a) ;;
      let h2 := upd h1 a (with_bplp (with_fplp ca1 []) []) in
      copy_links h2 x' y'
  | _, _ => Ok h
  end.

(** lemon/lemon.c:1533-1544 Configlist_eat: only the assertions matter. *)
Fixpoint Configlist_eat (h : list config) (l : list nat) : res unit :=
  match l with
  | [] => Ok tt
  | x :: r =>
      c <- opt (nth_error h x) ;;
      match c_fplp c, c_bplp c with
      | [], [] => Configlist_eat h r
      | _, _ => Bad
      end
  end.

(** lemon/lemon.c:6321-6334 State_find by basis; the hash chain is modelled in
    LemonTableModel.v. *)
Fixpoint state_search (h : list config) (sts : list state) (n : nat) (k : list item) : res (option nat) :=
  match sts with
  | [] => Ok None
  | s :: r =>
      ks <- items_of h (s_bp s) ;;
      if statecmp_eq ks k then Ok (Some n) else state_search h r (S n) k
  end.

Definition State_find (L : lemon) (bp : list nat) : res (option nat) :=
  k <- items_of (l_cfgs L) bp ;;
  state_search (l_cfgs L) (l_states L) 0 k.

(** lemon/lemon.c:1062-1073 same_symbol: identity, or equal member lists. *)
Definition same_symbol (a b : elem) : bool := if elem_eq_dec a b then true else false.

(** lemon/lemon.c:1089: mark all configurations of the state incomplete. *)
Fixpoint clear_status (h : list config) (l : list nat) : res (list config) :=
  match l with
  | [] => Ok h
  | x :: r =>
      c <- opt (nth_error h x) ;;
      clear_status (upd h x (with_comp c false)) r
  end.

(** Reading rp->rhs[dot] when dot<nrhs. *)
Definition sym_after (g : grammar) (c : config) : res (option elem) :=
  rp <- opt (nth_error (g_rules g) (c_rp c)) ;;
  Ok (nth_error (r_rhs rp) (c_dot c)).

(** lemon/lemon.c:1101-1109 inner loop of buildshifts. *)
Fixpoint shift_basis (g : grammar) (L : lemon) (sp : elem) (tail : list nat) : res lemon :=
  match tail with
  | [] => Ok L
  | b :: r =>
      c <- opt (nth_error (l_cfgs L) b) ;;
      if c_comp c then shift_basis g L sp r
      else
        o <- sym_after g c ;;
        match o with
        | None => shift_basis g L sp r
        | Some bsp =>
            if same_symbol bsp sp then
              let L1 := set_cfgs L (upd (l_cfgs L) b (with_comp c true)) in
              let '(L2, new) := Configlist_addbasis g L1 (c_rp c) (S (c_dot c)) in
              nc <- opt (nth_error (l_cfgs L2) new) ;;
              let L3 := set_cfgs L2 (upd (l_cfgs L2) new (with_bplp nc (b :: c_bplp nc))) in
              shift_basis g L3 sp r
            else shift_basis g L sp r
        end
  end.

(** lemon/lemon.c:589-608 Action_add pushes at the front. *)
Definition Action_add (ap : list action) (t : e_action) (sp arg : nat) : list action :=
  mkAction t sp arg :: ap.

(** lemon/lemon.c:1117-1124: the SHIFT actions for one transition. *)
Definition add_shifts (ap : list action) (sp : elem) (newstp : nat) : list action :=
  match sp with
  | ESym s => Action_add ap SHIFT s newstp
  | EMulti l => fold_left (fun a s => Action_add a SHIFT s newstp) l ap
  end.

(** lemon/lemon.c:1092-1126 outer loop of buildshifts; [getst] is the recursive
    call to getstate. *)
Fixpoint shifts_loop (getst : lemon -> res (lemon * nat)) (g : grammar) (L : lemon)
  (stp : nat) (tail : list nat) : res lemon :=
  match tail with
  | [] => Ok L
  | cfp :: rest =>
      c <- opt (nth_error (l_cfgs L) cfp) ;;
      if c_comp c then shifts_loop getst g L stp rest
      else
        o <- sym_after g c ;;
        match o with
        | None => shifts_loop getst g L stp rest
        | Some sp =>
            L2 <- shift_basis g (Configlist_reset L) sp (cfp :: rest) ;;
            '(L3, newstp) <- getst L2 ;;
            st <- opt (nth_error (l_states L3) stp) ;;
            let st' := mkState (s_bp st) (s_cfp st) (add_shifts (s_ap st) sp newstp) in
            shifts_loop getst g (set_states L3 (upd (l_states L3) stp st')) stp rest
        end
  end.

(** lemon/lemon.c:1078-1127 buildshifts. *)
Definition buildshifts (getst : lemon -> res (lemon * nat)) (g : grammar) (L : lemon) (stp : nat)
  : res lemon :=
  st <- opt (nth_error (l_states L) stp) ;;
  h <- clear_status (l_cfgs L) (s_cfp st) ;;
  shifts_loop getst g (set_cfgs L h) stp (s_cfp st).

(** lemon/lemon.c:1018-1057 getstate.  The recursion through buildshifts is on
    fuel. *)
Fixpoint getstate (fuel : nat) (g : grammar) (lam : list bool) (fs : list cset) (L : lemon)
  : res (lemon * nat) :=
  match fuel with
  | 0 => Fuel
  | S f =>
      let '(L1, bp) := Configlist_sortbasis_basis L in
      o <- State_find L1 bp ;;
      match o with
      | Some q =>
          st <- opt (nth_error (l_states L1) q) ;;
          h <- copy_links (l_cfgs L1) bp (s_bp st) ;;
          _ <- Configlist_eat h (l_current L1) ;;
          Ok (mkLemon h (l_states L1) [] (l_basis L1), q)
      | None =>
          L2 <- Configlist_closure g lam fs L1 ;;
          let '(L3, cfp) := Configlist_sort_return L2 in
          let q := length (l_states L3) in
          let L4 := set_states L3 (l_states L3 ++ [mkState bp cfp []]) in
          L5 <- buildshifts (getstate f g lam fs) g L4 q ;;
          Ok (L5, q)
      end
  end.

(** lemon/lemon.c:1000-1005: basis of the first state, lookahead 0 each. *)
Fixpoint start_basis (g : grammar) (L : lemon) (rs : list nat) : res lemon :=
  match rs with
  | [] => Ok L
  | r :: rs' =>
      let '(L1, new) := Configlist_addbasis g L r 0 in
      c <- opt (nth_error (l_cfgs L1) new) ;;
      '(w, _) <- SetAdd (c_fws c) 0 ;;
      start_basis g (set_cfgs L1 (upd (l_cfgs L1) new (with_fws c w))) rs'
  end.

(** lemon/lemon.c:956-1012 FindStates; [g_start] is the symbol chosen at
    964-979.  The warnings about the start symbol are not modelled. *)
Definition FindStates (fuel : nat) (g : grammar) (lam : list bool) (fs : list cset) : res lemon :=
  L <- start_basis g (mkLemon [] [] [] []) (rules_of g (g_start g)) ;;
  '(L1, _) <- getstate fuel g lam fs L ;;
  Ok L1.
