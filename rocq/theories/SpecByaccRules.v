(** Specification: the rules of a byacc file as those of Prop_ByaccMidrule, its actions numbered in their order. *)
From Coq Require Import String List Arith ZArith Bool Lia.
Import ListNotations.
From Verif Require Import Base LemonTableModel LemonPreModel LemonCodeModel ByaccRulesModel Prop_ByaccMidrule Prop_ByaccLiteral SpecByaccFile.

Section Conv.
Variable num : txt -> nat.

Fixpoint conv (k : nat) (b : list fpart) : list part :=
  match b with
  | [] => []
  | FSym x :: r => Sym (num (sym_name x)) :: conv k r
  | FAct _ :: r => Act k :: conv (S k) r
  | FPrec x :: r => Prop_ByaccMidrule.Prec (num (sym_name x)) :: conv k r
  end.
Definition acts_in (b : list fpart) : nat := List.length (filter (fun p => match p with FAct _ => true | _ => false end) b).
Fixpoint conv_alts (k : nat) (l : list (list fpart)) : list (list part) :=
  match l with [] => [] | b :: r => conv k b :: conv_alts (k + acts_in b) r end.
Definition conv_group (k : nat) (f : fgroup) : group := mkGroup (num (f_lhs f)) (conv k (f_body f)) (conv_alts (k + acts_in (f_body f)) (f_alts f)).
Definition alts_acts (l : list (list fpart)) : nat := list_sum (map acts_in l).
Definition group_acts (f : fgroup) : nat := acts_in (f_body f) + alts_acts (f_alts f).
Fixpoint conv_groups (k : nat) (l : list fgroup) : list group :=
  match l with [] => [] | f :: r => conv_group k f :: conv_groups (k + group_acts f) r end.
End Conv.

(** The file of the actions: a case per action. *)
Definition case_out (num : nat) (u : txt) : txt :=
  zs "case " ++ zdec (Z.of_nat num) ++ zs ":" ++ [10; 9]%Z ++ u ++ [10%Z] ++ zs "break;" ++ [10%Z].
Definition cases_text (cs : list (nat * nat)) (tx : list txt) : txt := flat_map (fun e => case_out (fst (fst e)) (snd e)) (combine cs tx).
