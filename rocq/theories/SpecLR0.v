(** Specification: what it means for a list of states to be the LR(0) automaton
    of a grammar.  A state is its list of items and its list of shifts (symbol,
    target state). *)
From Coq Require Import List Arith NArith.
Import ListNotations.
From Verif Require Import Base SpecGrammar.

Definition lr0_state : Type := (list item * list (nat * nat))%type.

(** Number of items of a grammar. *)
Definition item_count (g : grammar) : nat := list_sum (map (fun r => S (length (r_rhs r))) (g_rules g)).

(** The terminals or the nonterminal matched by a right-hand-side position. *)
Definition elem_syms (X : elem) : list nat := match X with ESym s => [s] | EMulti l => l end.

(** [I] is exactly the set of items valid after reading [gamma] (reversed). *)
Definition is_valid_set (g : grammar) (gamma : list elem) (I : list item) : Prop :=
  forall i, In i I <-> valid g gamma i.

(** State [J] is the successor of [I] over [X]. *)
Definition successor (g : grammar) (I : list item) (X : elem) (J : list item) : Prop :=
  (exists i, In i I /\ after_dot g i = Some X) /\
  forall gamma, is_valid_set g gamma I -> is_valid_set g (X :: gamma) J.

Record lr0_automaton (g : grammar) (sts : list lr0_state) : Prop := {
  (** state 0 is the start state *)
  lr0_start : exists I sh, nth_error sts 0 = Some (I, sh) /\ is_valid_set g [] I;
  (** every state is the set of valid items of some viable prefix; only the start
      state, of a start symbol without rules, may be empty *)
  lr0_sound : forall q I sh, nth_error sts q = Some (I, sh) -> exists gamma, is_valid_set g gamma I;
  lr0_nonempty : forall q I sh, nth_error sts q = Some (I, sh) -> q = 0 \/ exists i, In i I;
  (** every viable prefix has a state *)
  lr0_complete : forall gamma i, valid g gamma i ->
    exists q I sh, nth_error sts q = Some (I, sh) /\ is_valid_set g gamma I;
  (** no two states have the same items, no state lists an item twice *)
  lr0_distinct : forall q q' I sh I' sh', nth_error sts q = Some (I, sh) -> nth_error sts q' = Some (I', sh') ->
    (forall i, In i I <-> In i I') -> q = q';
  lr0_nodup : forall q I sh, nth_error sts q = Some (I, sh) -> NoDup I;
  (** the shifts are exactly the transitions *)
  lr0_shift : forall q I sh s q', nth_error sts q = Some (I, sh) ->
    (In (s, q') sh <-> exists X J sh', In s (elem_syms X) /\ nth_error sts q' = Some (J, sh') /\ successor g I X J)
}.
