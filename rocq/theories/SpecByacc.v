(** Specification side of the byacc models: the grammars that byacc's input
    stands for. *)
From Coq Require Import List Arith Lia Bool.
Import ListNotations.
From Verif Require Import Base SpecGrammar ByaccLr0Model.

Definition spec_rule (p : nat * list nat) : rule := mkRule (fst p) (map ESym (snd p)).

(** The user's grammar. *)
Definition user (s : bsrc) : grammar :=
  mkGrammar (b_ntokens s) (b_nsyms s) (map spec_rule (b_rules s)) (S (b_ntokens s)).

(** The grammar with the rule [$accept : goal], which is rule 0; rule k > 0 is
    byacc's rule k + 2. *)
Definition aug (s : bsrc) : grammar :=
  mkGrammar (b_ntokens s) (b_nsyms s)
    (mkRule (b_ntokens s) [ESym (S (b_ntokens s))] :: map spec_rule (b_rules s)) (b_ntokens s).

(** What pack_symbols and the reader guarantee: at least the tokens $end and error,
    a goal symbol; no user rule mentions $accept or $end. *)
Record wf_src (s : bsrc) : Prop := {
  ws_tok : 1 < b_ntokens s;
  ws_goal : S (b_ntokens s) < b_nsyms s;
  ws_rules : forall l r, In (l, r) (b_rules s) -> b_ntokens s < l < b_nsyms s /\
    forall x, In x r -> 0 < x < b_nsyms s /\ x <> b_ntokens s
}.

Definition wf_srcb (s : bsrc) : bool :=
  (1 <? b_ntokens s) && (S (b_ntokens s) <? b_nsyms s) &&
  forallb (fun p => (b_ntokens s <? fst p) && (fst p <? b_nsyms s) &&
    forallb (fun x => (0 <? x) && (x <? b_nsyms s) && negb (x =? b_ntokens s)) (snd p)) (b_rules s).

Lemma wf_srcb_ok : forall s, wf_srcb s = true -> wf_src s.
Proof.
  intros s H. unfold wf_srcb in H. rewrite !Bool.andb_true_iff, forallb_forall in H. destruct H as [[H1 H2] H3].
  apply Nat.ltb_lt in H1. apply Nat.ltb_lt in H2. constructor; auto.
  intros l r I. specialize (H3 _ I). rewrite !Bool.andb_true_iff, forallb_forall in H3. cbn [fst snd] in H3.
  destruct H3 as [[H3 H4] H5]. apply Nat.ltb_lt in H3. apply Nat.ltb_lt in H4. split; [lia|].
  intros x Ix. specialize (H5 _ Ix). rewrite !Bool.andb_true_iff in H5. destruct H5 as [[A B] C].
  apply Nat.ltb_lt in A. apply Nat.ltb_lt in B. apply Bool.negb_true_iff, Nat.eqb_neq in C. lia.
Qed.

Lemma wf_user : forall s, wf_src s -> wf_grammar (user s).
Proof.
  intros s W. destruct W as [T G R]. unfold wf_grammar, user; cbn. split; [lia|]. split; [lia|]. split.
  - apply Forall_forall. intros rl I. apply in_map_iff in I as ([l r] & <- & I). destruct (R l r I) as [H1 H2].
    split; [unfold is_nonterm; cbn; lia|]. cbn. apply Forall_forall. intros e Ie. apply in_map_iff in Ie as (x & <- & Ix).
    cbn. apply H2 in Ix. lia.
  - unfold is_nonterm. cbn. lia.
Qed.

Lemma wf_aug : forall s, wf_src s -> wf_grammar (aug s).
Proof.
  intros s W. pose proof (wf_user s W) as (_ & _ & F & _). destruct W as [T G R]. unfold wf_grammar, aug; cbn.
  split; [lia|]. split; [lia|]. split; [|unfold is_nonterm; cbn; lia]. constructor; [|exact F].
  split; [unfold is_nonterm; cbn; lia|]. repeat constructor; cbn; lia.
Qed.
