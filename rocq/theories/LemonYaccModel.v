(** Model of the rules that lemon -y prints: rule_print_yacc0, rule_print_yacc and the loop of
    Reprint_yacc (lemon/lemon.c:3561-3630).  A printed line is its left side, the names of its right
    side and its %prec symbol; blanks, newlines and the commented precedences are left out, names are
    the symbols. *)
From Coq Require Import List Arith Bool.
Import ListNotations.
From Verif Require Import Base SpecGrammar.
Open Scope res_scope.

Record yline : Type := mkY { y_lhs : nat; y_rhs : list nat; y_prec : option nat }.

(** lemon/lemon.c:3561-3583 rule_print_yacc0; [mt] is mt_idx, None for -1.  subsym[mt_idx] outside the
    array is [Bad]. *)
Fixpoint print_rhs (mt : option nat) (l : list elem) : res (list nat) :=
  match l with
  | [] => Ok []
  | ESym s :: r => x <- print_rhs mt r ;; Ok (s :: x)
  | EMulti subsym :: r =>
      j <- opt mt ;;
      s <- opt (nth_error subsym j) ;;
      x <- print_rhs mt r ;; Ok (s :: x)
  end.

Definition rule_print_yacc0 (rp : rule) (prec : option nat) (mt : option nat) : res yline :=
  x <- print_rhs mt (r_rhs rp) ;; Ok (mkY (r_lhs rp) x prec).

(** for(j=0; j<sp->nsubsym; j++) *)
Fixpoint print_alts (rp : rule) (prec : option nat) (js : list nat) : res (list yline) :=
  match js with [] => Ok [] | j :: r => x <- rule_print_yacc0 rp prec (Some j) ;; y <- print_alts rp prec r ;; Ok (x :: y) end.

(** The first multi-terminal of a right side. *)
Fixpoint first_multi (l : list elem) : option (list nat) :=
  match l with [] => None | ESym _ :: r => first_multi r | EMulti s :: _ => Some s end.

(** lemon/lemon.c:3585-3608 rule_print_yacc *)
Definition rule_print_yacc (rp : rule) (prec : option nat) : res (list yline) :=
  match first_multi (r_rhs rp) with
  | Some subsym => print_alts rp prec (seq 0 (length subsym))
  | None => x <- rule_print_yacc0 rp prec None ;; Ok [x]
  end.

(** lemon/lemon.c:3625-3630, the loop over the rules; [prec] gives rp->precsym. *)
Fixpoint Reprint_yacc (prec : rule -> option nat) (l : list rule) : res (list yline) :=
  match l with
  | [] => Ok []
  | rp :: r => x <- rule_print_yacc rp (prec rp) ;; y <- Reprint_yacc prec r ;; Ok (x ++ y)
  end.
