(** Model of FindFirstSets in lemon/lemon.c. *)
From Coq Require Import List Arith Bool.
Import ListNotations.
From Verif Require Import Base SpecGrammar LemonSetModel.
Local Open Scope res_scope.

(** lemon/lemon.c:907-922, first loop body for one rule: the scan over the
    right-hand side stops at the first symbol whose [lambda] flag is false.
    Terminals and multi-terminals have [lambda] false (set at 899-901,
    calloc'ed to 0 for inline multi-terminals). Reading a symbol index outside
    the symbol array is [Bad]. *)
Fixpoint all_lambda (lam : list bool) (rhs : list elem) : res bool :=
  match rhs with
  | [] => Ok true
  | ESym s :: rest =>
      match nth_error lam s with
      | Some true => all_lambda lam rest
      | Some false => Ok false
      | None => Bad
      end
  | EMulti _ :: _ => Ok false
  end.

Fixpoint lambda_pass (rules : list rule) (lam : list bool) (progress : bool)
  : res (list bool * bool) :=
  match rules with
  | [] => Ok (lam, progress)
  | rp :: rest =>
      l <- opt (nth_error lam (r_lhs rp)) ;;
      if (l : bool) then lambda_pass rest lam progress
      else
        a <- all_lambda lam (r_rhs rp) ;;
        if (a : bool) then lambda_pass rest (upd lam (r_lhs rp) true) true
        else lambda_pass rest lam progress
  end.

(** lemon/lemon.c:907-922, do-while loop, with fuel. *)
Fixpoint lambda_loop (fuel : nat) (rules : list rule) (lam : list bool) : res (list bool) :=
  match fuel with
  | 0 => Fuel
  | S f =>
      '(lam', progress) <- lambda_pass rules lam false ;;
      if (progress : bool) then lambda_loop f rules lam' else Ok lam'
  end.

(** Adding the members of a multi-terminal, lemon/lemon.c:939-941. *)
Fixpoint SetAddAll (s : cset) (l : list nat) (progress : bool) : res (cset * bool) :=
  match l with
  | [] => Ok (s, progress)
  | t :: rest =>
      '(s', c) <- SetAdd s t ;;
      SetAddAll s' rest (progress || c)
  end.

(** lemon/lemon.c:933-950: inner loop over one right-hand side.  [s1] is the
    left-hand side; the integer [progress] (a sum of flags) is modelled by its
    truth value.  The first sets are indexed by symbol. *)
Fixpoint first_rhs (nterm : nat) (lam : list bool) (s1 : nat) (rhs : list elem)
  (fs : list cset) (progress : bool) : res (list cset * bool) :=
  match rhs with
  | [] => Ok (fs, progress)
  | ESym s2 :: rest =>
      if s2 <? nterm then
        a <- opt (nth_error fs s1) ;;
        '(a', c) <- SetAdd a s2 ;;
        Ok (upd fs s1 a', progress || c)
      else if s1 =? s2 then
        l1 <- opt (nth_error lam s1) ;;
        if (l1 : bool) then first_rhs nterm lam s1 rest fs progress
        else Ok (fs, progress)
      else
        a <- opt (nth_error fs s1) ;;
        b <- opt (nth_error fs s2) ;;
        '(a', c) <- SetUnion a b ;;
        l2 <- opt (nth_error lam s2) ;;
        if (l2 : bool) then first_rhs nterm lam s1 rest (upd fs s1 a') (progress || c)
        else Ok (upd fs s1 a', progress || c)
  | EMulti l :: _ =>
      a <- opt (nth_error fs s1) ;;
      '(a', p) <- SetAddAll a l progress ;;
      Ok (upd fs s1 a', p)
  end.

Fixpoint first_pass (nterm : nat) (lam : list bool) (rules : list rule)
  (fs : list cset) (progress : bool) : res (list cset * bool) :=
  match rules with
  | [] => Ok (fs, progress)
  | rp :: rest =>
      '(fs', p) <- first_rhs nterm lam (r_lhs rp) (r_rhs rp) fs progress ;;
      first_pass nterm lam rest fs' p
  end.

Fixpoint first_loop (fuel : nat) (nterm : nat) (lam : list bool) (rules : list rule)
  (fs : list cset) : res (list cset) :=
  match fuel with
  | 0 => Fuel
  | S f =>
      '(fs', progress) <- first_pass nterm lam rules fs false ;;
      if (progress : bool) then first_loop f nterm lam rules fs' else Ok fs'
  end.

(** lemon/lemon.c:893-954 FindFirstSets.  [set_size] is nterminal+2 because main
    calls SetSize(nterminal+1) (lemon/lemon.c:1809).  Sets are allocated for
    every symbol index here, the C code allocates them for nonterminals only;
    the sets of terminals are never touched. *)
Definition first_set_size (g : grammar) : nat := SetSize (g_nterm g + 1).

Definition FindFirstSets (fuel : nat) (g : grammar) : res (list bool * list cset) :=
  lam <- lambda_loop fuel (g_rules g) (repeat false (g_nsym g)) ;;
  fs <- first_loop fuel (g_nterm g) lam (g_rules g)
          (repeat (SetNew (first_set_size g)) (g_nsym g)) ;;
  Ok (lam, fs).

(** Fuel that always suffices (theorem in Prop_LemonFirst.v). *)
Definition first_fuel (g : grammar) : nat := S (g_nsym g * S (first_set_size g)).
