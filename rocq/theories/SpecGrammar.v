(** Specification: context-free grammars, derivations, nullability, FIRST,
    LR(0) and LR(1) validity of items.  Independent of the modelled code. *)
From Coq Require Import List Arith Lia Bool.
Import ListNotations.
From Verif Require Import Base.

(** A right-hand-side position: a grammar symbol, or a lemon multi-terminal
    [A|B|C], which matches any one of the listed terminals. *)
Inductive elem : Type :=
| ESym (s : nat)
| EMulti (l : list nat).

Definition elem_eq_dec : forall x y : elem, {x = y} + {x <> y}.
Proof. decide equality; try apply (list_eq_dec Nat.eq_dec); apply Nat.eq_dec. Defined.

Record rule : Type := mkRule { r_lhs : nat; r_rhs : list elem }.

(** Symbols [0 .. g_nterm-1] are terminals (0 is the end-of-input marker),
    [g_nterm .. g_nsym-1] nonterminals. *)
Record grammar : Type := mkGrammar {
  g_nterm : nat;
  g_nsym : nat;
  g_rules : list rule;
  g_start : nat
}.

Definition is_term (g : grammar) (s : nat) : Prop := s < g_nterm g.
Definition is_nonterm (g : grammar) (s : nat) : Prop := g_nterm g <= s < g_nsym g.

Definition wf_elem (g : grammar) (e : elem) : Prop :=
  match e with
  | ESym s => s < g_nsym g
  | EMulti l => l <> [] /\ forall t, In t l -> is_term g t
  end.

Definition wf_rule (g : grammar) (r : rule) : Prop :=
  is_nonterm g (r_lhs r) /\ Forall (wf_elem g) (r_rhs r).

Definition wf_grammar (g : grammar) : Prop :=
  0 < g_nterm g /\ g_nterm g <= g_nsym g /\ Forall (wf_rule g) (g_rules g) /\
  is_nonterm g (g_start g).

(** One derivation step on sentential forms. *)
Inductive step (g : grammar) : list elem -> list elem -> Prop :=
| step_rule : forall u v r,
    In r (g_rules g) ->
    step g (u ++ ESym (r_lhs r) :: v) (u ++ r_rhs r ++ v)
| step_multi : forall u v l t,
    In t l ->
    step g (u ++ EMulti l :: v) (u ++ ESym t :: v).

Definition derives (g : grammar) := star (step g).

(** A symbol string that derives the empty string / a string starting with [t]. *)
Definition nullable (g : grammar) (w : list elem) : Prop := derives g w [].
Definition first (g : grammar) (w : list elem) (t : nat) : Prop :=
  is_term g t /\ exists v, derives g w (ESym t :: v).

(** Terminal strings derivable from the start symbol. *)
Definition sentence (g : grammar) (w : list nat) : Prop :=
  Forall (is_term g) w /\ derives g [ESym (g_start g)] (map ESym w).

(** Items: rule number and dot position. *)
Definition item : Type := (nat * nat)%type.

Definition item_eq_dec : forall x y : item, {x = y} + {x <> y}.
Proof. decide equality; apply Nat.eq_dec. Defined.

Definition rule_of (g : grammar) (r : nat) : option rule := nth_error (g_rules g) r.

(** The symbol after the dot. *)
Definition after_dot (g : grammar) (i : item) : option elem :=
  match rule_of g (fst i) with
  | Some r => nth_error (r_rhs r) (snd i)
  | None => None
  end.

(** What follows the symbol after the dot. *)
Definition rest_after (g : grammar) (i : item) : list elem :=
  match rule_of g (fst i) with
  | Some r => skipn (S (snd i)) (r_rhs r)
  | None => []
  end.

Definition lhs_is (g : grammar) (r : nat) (A : nat) : Prop :=
  exists rl, rule_of g r = Some rl /\ r_lhs rl = A.

(** LR(0) validity: [valid g gamma i] says item [i] is valid for the symbol
    string [gamma] (kept reversed: the last symbol first). *)
Inductive valid (g : grammar) : list elem -> item -> Prop :=
| valid_init : forall r, lhs_is g r (g_start g) -> valid g [] (r, 0)
| valid_closure : forall gamma i A r,
    valid g gamma i -> after_dot g i = Some (ESym A) -> lhs_is g r A ->
    valid g gamma (r, 0)
| valid_goto : forall gamma i X,
    valid g gamma i -> after_dot g i = Some X ->
    valid g (X :: gamma) (fst i, S (snd i)).

(** LR(1) validity in the canonical construction: lookahead [t]; the start
    rules have lookahead 0 (end of input). *)
Inductive valid1 (g : grammar) : list elem -> item -> nat -> Prop :=
| valid1_init : forall r, lhs_is g r (g_start g) -> valid1 g [] (r, 0) 0
| valid1_closure_first : forall gamma i t A r u,
    valid1 g gamma i t -> after_dot g i = Some (ESym A) -> lhs_is g r A ->
    first g (rest_after g i) u ->
    valid1 g gamma (r, 0) u
| valid1_closure_null : forall gamma i t A r,
    valid1 g gamma i t -> after_dot g i = Some (ESym A) -> lhs_is g r A ->
    nullable g (rest_after g i) ->
    valid1 g gamma (r, 0) t
| valid1_goto : forall gamma i t X,
    valid1 g gamma i t -> after_dot g i = Some X ->
    valid1 g (X :: gamma) (fst i, S (snd i)) t.

(** Lookahead derivability when the context of an item need only be LR(0)
    valid.  It coincides with [valid1] when every nonterminal derives some
    terminal string (proved in SpecGrammarFacts.v); on grammars with
    unproductive nonterminals it is what "t can follow" means for sentential
    forms. *)
Inductive la (g : grammar) : list elem -> item -> nat -> Prop :=
| la_init : forall r, lhs_is g r (g_start g) -> la g [] (r, 0) 0
| la_first : forall gamma i A r u,
    valid g gamma i -> after_dot g i = Some (ESym A) -> lhs_is g r A ->
    first g (rest_after g i) u ->
    la g gamma (r, 0) u
| la_null : forall gamma i t A r,
    la g gamma i t -> after_dot g i = Some (ESym A) -> lhs_is g r A ->
    nullable g (rest_after g i) ->
    la g gamma (r, 0) t
| la_goto : forall gamma i t X,
    la g gamma i t -> after_dot g i = Some X ->
    la g (X :: gamma) (fst i, S (snd i)) t.

Definition productive (g : grammar) (A : nat) : Prop :=
  exists w, Forall (is_term g) w /\ derives g [ESym A] (map ESym w).

Definition all_productive (g : grammar) : Prop :=
  forall A, is_nonterm g A -> productive g A.
