(** Model of byacc/mkpar.c: the parser actions, conflict resolution and default
    reductions.

    Simplifications: S->backtrack is 0 (it is set only by option -B, main.c), so
    MaySuppress(p) is p->suppressed == 0 and StartBacktrack does nothing; an action
    list is a list and a pointer into it a position; the messages of unused_rules and
    total_conflicts are left out, their counts are kept; %expect is left out. *)
From Coq Require Import List Arith NArith ZArith Lia Bool.
Import ListNotations.
From Verif Require Import Base ByaccWarshallModel ByaccLr0Model ByaccLalrModel.
Open Scope res_scope.

(** byacc/defs.h:129-135 Assoc_t (the values used here). *)
Inductive bassoc : Type := TOKEN | LEFT | RIGHT | NONASSOC | PRECEDENCE.
Definition is_left (a : bassoc) : bool := match a with LEFT => true | _ => false end.
Definition is_right (a : bassoc) : bool := match a with RIGHT => true | _ => false end.

(** byacc/defs.h:294-303 struct action; [a_shift] is action_code == SHIFT. *)
Record action : Type := mkAct {
  a_sym : nat;
  a_num : nat;
  a_prec : nat;
  a_shift : bool;
  a_assoc : bassoc;
  a_supp : nat
}.

(** The arrays symbol_prec, symbol_assoc, rprec, rassoc. *)
Record bprec : Type := mkPrec {
  symbol_prec : list nat;
  symbol_assoc : list bassoc;
  rprec : list nat;
  rassoc : list bassoc
}.

(** byacc/defs.h:84 BIT on the array that starts at [r]. *)
Definition BIT (W : nat) (a : list N) (r n : nat) : res bool :=
  w <- opt (nth_error a (r + n / W)) ;;
  Ok (N.testbit w (N.of_nat (n mod W))).

(** byacc/mkpar.c:69-85: [l] are the remaining shifts, last first. *)
Fixpoint shift_actions (b : bgram) (pr : bprec) (ac l : list nat) (actions : list action) : res (list action) :=
  match l with
  | [] => Ok actions
  | k :: r =>
      symbol <- opt (nth_error ac k) ;;
      if symbol <? start_symbol b then
        p <- opt (nth_error (symbol_prec pr) symbol) ;;
        a <- opt (nth_error (symbol_assoc pr) symbol) ;;
        shift_actions b pr ac r (mkAct symbol k p true a 0 :: actions)
      else shift_actions b pr ac r actions
  end.

(** byacc/mkpar.c:55-88 get_shifts. *)
Definition get_shifts (b : bgram) (pr : bprec) (T : lalr_tables) (stateno : nat) : res (list action) :=
  sp <- opt (nth_error (t_shift T) stateno) ;;
  match sp with
  | None => Ok []
  | Some l => shift_actions b pr (t_access T) (rev l) []
  end.

(** The longest prefix whose elements satisfy [f], and the rest: a loop that moves
    [prev] and [next] along the list. *)
Fixpoint span {A} (f : A -> bool) (l : list A) : list A * list A :=
  match l with
  | [] => ([], [])
  | x :: r => if f x then let (p, q) := span f r in (x :: p, q) else ([], l)
  end.

(** byacc/mkpar.c:113-151 add_reduce. *)
Definition add_reduce (pr : bprec) (actions : list action) (ruleno symbol : nat) : res (list action) :=
  let (l1, n1) := span (fun p => a_sym p <? symbol) actions in
  let (l2, n2) := span (fun p => (a_sym p =? symbol) && a_shift p) n1 in
  let (l3, n3) := span (fun p => (a_sym p =? symbol) && negb (a_shift p) && (a_num p <? ruleno)) n2 in
  p <- opt (nth_error (rprec pr) ruleno) ;;
  a <- opt (nth_error (rassoc pr) ruleno) ;;
  Ok (l1 ++ l2 ++ l3 ++ mkAct symbol ruleno p false a 0 :: n3).

(** byacc/mkpar.c:104-108: tokens [j]-1, ..., 0. *)
Fixpoint la_actions (pr : bprec) (LA : list N) (rowp ruleno j : nat) (actions : list action) : res (list action) :=
  match j with
  | O => Ok actions
  | S j' =>
      t <- BIT BPW LA rowp j' ;;
      actions' <- (if t then add_reduce pr actions ruleno j' else Ok actions) ;;
      la_actions pr LA rowp ruleno j' actions'
  end.

(** byacc/mkpar.c:99-109: entries [i], [i]+1, ... ([k] of them). *)
Fixpoint red_actions (b : bgram) (pr : bprec) (T : lalr_tables) (i k : nat) (actions : list action) : res (list action) :=
  match k with
  | O => Ok actions
  | S k' =>
      ruleno <- opt (nth_error (t_rule T) i) ;;
      actions' <- la_actions pr (t_LA T) (i * WORDSIZE BPW (ntokens b)) ruleno (ntokens b) actions ;;
      red_actions b pr T (S i) k' actions'
  end.

(** byacc/mkpar.c:90-111 add_reductions. *)
Definition add_reductions (b : bgram) (pr : bprec) (T : lalr_tables) (stateno : nat) (actions : list action) : res (list action) :=
  m <- opt (nth_error (t_start T) stateno) ;;
  n <- opt (nth_error (t_start T) (S stateno)) ;;
  red_actions b pr T m (n - m) actions.

(** byacc/mkpar.c:45-53 parse_actions. *)
Definition parse_actions (b : bgram) (pr : bprec) (T : lalr_tables) (stateno : nat) : res (list action) :=
  actions <- get_shifts b pr T stateno ;;
  add_reductions b pr T stateno actions.

(** byacc/mkpar.c:165-170: [l] are the remaining shifts, last first. *)
Fixpoint final_loop (ac : list nat) (goal : Z) (l : list nat) (final : nat) : res nat :=
  match l with
  | [] => Ok final
  | q :: r =>
      symbol <- opt (nth_error ac q) ;;
      if (Z.of_nat symbol =? goal)%Z then Ok q else final_loop ac goal r q
  end.
(** byacc/mkpar.c:153-172 find_final_state (final_state is 0 before). *)
Definition find_final_state (b : bgram) (T : lalr_tables) : res nat :=
  p <- opt (nth_error (t_shift T) 0) ;;
  match p with
  | None => Ok 0
  | Some l => goal <- opt (nth_error (ritem b) 1) ;; final_loop (t_access T) goal (rev l) 0
  end.

(** p->suppressed = v for the action at position [k]. *)
Definition suppress (acts : list action) (k v : nat) : res (list action) :=
  p <- opt (nth_error acts k) ;;
  Ok (upd acts k (mkAct (a_sym p) (a_num p) (a_prec p) (a_shift p) (a_assoc p) v)).

(** byacc/mkpar.c:228-304: the actions from position [k] on ([n] of them); [fin] is
    i == S->final_state, [flag] is lemon_prec_flag; [symbol] and [pref] are [None] for -1 and
    NULL. *)
Fixpoint rc_loop (flag fin : bool) (n k : nat) (acts : list action) (symbol pref : option nat) (sr rr : nat) : res (list action * nat * nat) :=
  match n with
  | O => Ok (acts, sr, rr)
  | S n' =>
      p <- opt (nth_error acts k) ;;
      if negb (match symbol with Some s => a_sym p =? s | None => false end) then
        rc_loop flag fin n' (S k) acts (Some (a_sym p)) (Some k) sr rr
      else if fin && (a_sym p =? 0) then
        acts' <- suppress acts k 1 ;;
        rc_loop flag fin n' (S k) acts' symbol pref (S sr) rr
      else
        ip <- opt pref ;;
        q <- opt (nth_error acts ip) ;;
        if a_shift q then
          if (0 <? a_prec q) && (0 <? a_prec p) then
            if a_prec q <? a_prec p then
              acts' <- suppress acts ip 2 ;;
              rc_loop flag fin n' (S k) acts' symbol (Some k) sr rr
            else if a_prec p <? a_prec q then
              acts' <- suppress acts k 2 ;;
              rc_loop flag fin n' (S k) acts' symbol pref sr rr
            else if is_left (a_assoc q) then
              acts' <- suppress acts ip 2 ;;
              rc_loop flag fin n' (S k) acts' symbol (Some k) sr rr
            else if is_right (a_assoc q) then
              acts' <- suppress acts k 2 ;;
              rc_loop flag fin n' (S k) acts' symbol pref sr rr
            else
              acts1 <- suppress acts ip 2 ;;
              acts' <- suppress acts1 k 2 ;;
              rc_loop flag fin n' (S k) acts' symbol pref sr rr
          else
            acts' <- suppress acts k 1 ;;
            rc_loop flag fin n' (S k) acts' symbol pref (S sr) rr
        else if flag && (0 <? a_prec q) && (0 <? a_prec p) && (a_prec q <? a_prec p) then
          acts' <- suppress acts ip 2 ;;
          rc_loop flag fin n' (S k) acts' symbol (Some k) sr rr
        else if flag && (0 <? a_prec q) && (0 <? a_prec p) && (a_prec p <? a_prec q) then
          acts' <- suppress acts k 2 ;;
          rc_loop flag fin n' (S k) acts' symbol pref sr rr
        else
          acts' <- suppress acts k 1 ;;
          rc_loop flag fin n' (S k) acts' symbol pref sr (S rr)
  end.

(** byacc/mkpar.c:221-308: one state; its actions and numbers of conflicts. *)
Definition remove_conflicts1 (flag fin : bool) (acts : list action) : res (list action * nat * nat) :=
  rc_loop flag fin (length acts) 0 acts None None 0 0.

(** byacc/mkpar.c:219-309: states [i], [i]+1, ... *)
Fixpoint rc_states (flag : bool) (final i : nat) (parser : list (list action)) : res (list (list action) * list nat * list nat) :=
  match parser with
  | [] => Ok ([], [], [])
  | acts :: r =>
      '(acts', sr, rr) <- remove_conflicts1 flag (i =? final) acts ;;
      '(r', srs, rrs) <- rc_states flag final (S i) r ;;
      Ok (acts' :: r', sr :: srs, rr :: rrs)
  end.

(** byacc/mkpar.c:361-377: the remaining actions. *)
Fixpoint sole_loop (l : list action) (count ruleno : nat) : nat :=
  match l with
  | [] => if count =? 0 then 0 else ruleno
  | p :: r =>
      if a_supp p =? 0 then
        if a_shift p then 0
        else if (0 <? ruleno) && negb (a_num p =? ruleno) then 0
        else sole_loop r (if a_sym p =? 1 then count else S count) (a_num p)
      else sole_loop r count ruleno
  end.
(** byacc/mkpar.c:353-378 sole_reduction. *)
Definition sole_reduction (l : list action) : nat := sole_loop l 0 0.

(** byacc/mkpar.c:188-192: the rules reduced by the actions of one state. *)
Fixpoint mark_used (l : list action) (used : list bool) : res (list bool) :=
  match l with
  | [] => Ok used
  | p :: r =>
      if negb (a_shift p) && (a_supp p =? 0) then used' <- put used (a_num p) true ;; mark_used r used'
      else mark_used r used
  end.
Fixpoint mark_all (parser : list (list action)) (used : list bool) : res (list bool) :=
  match parser with
  | [] => Ok used
  | l :: r => used' <- mark_used l used ;; mark_all r used'
  end.
(** byacc/mkpar.c:174-198 unused_rules: rules_used and nunused. *)
Definition unused_rules (b : bgram) (parser : list (list action)) : res (list bool * nat) :=
  used <- mark_all parser (repeat false (nrules b)) ;;
  Ok (used, length (filter negb (skipn 3 used))).

Fixpoint map_res {A B} (f : A -> res B) (l : list A) : res (list B) :=
  match l with
  | [] => Ok []
  | x :: r => y <- f x ;; ys <- map_res f r ;; Ok (y :: ys)
  end.

Record par : Type := mkPar {
  p_parser : list (list action);
  p_final : nat;
  p_SR : list nat;          (** SRconflicts *)
  p_RR : list nat;          (** RRconflicts *)
  p_used : list bool;
  p_nunused : nat;
  p_defred : list nat
}.

(** byacc/mkpar.c:28-43 make_parser. *)
Definition make_parser (flag : bool) (b : bgram) (pr : bprec) (T : lalr_tables) : res par :=
  parser <- map_res (parse_actions b pr T) (seq 0 (length (t_access T))) ;;
  final <- find_final_state b T ;;
  '(parser', srs, rrs) <- rc_states flag final 0 parser ;;
  '(used, n) <- unused_rules b parser' ;;
  Ok (mkPar parser' final srs rrs used n (map sole_reduction parser')).
