(** Facts about LR(0)/LR(1) validity. *)
From Coq Require Import List Arith Lia Bool.
Import ListNotations.
From Verif Require Import Base SpecGrammar SpecGrammarFacts.

(** Closure of a set of items. *)
Inductive clos (g : grammar) (K : item -> Prop) : item -> Prop :=
| clos_base : forall i, K i -> clos g K i
| clos_step : forall i A r, clos g K i -> after_dot g i = Some (ESym A) -> lhs_is g r A ->
    clos g K (r, 0).

Lemma clos_ext : forall g (K K' : item -> Prop), (forall i, K i -> K' i) ->
  forall i, clos g K i -> clos g K' i.
Proof.
  intros g K K' H i C. induction C; [apply clos_base; auto|eapply clos_step; eauto].
Qed.

(** The items obtained from a set by moving the dot over [X]. *)
Definition goto_items (g : grammar) (I : item -> Prop) (X : elem) (i : item) : Prop :=
  exists j, I j /\ after_dot g j = Some X /\ i = (fst j, S (snd j)).

Definition start_items (g : grammar) (i : item) : Prop :=
  exists r, lhs_is g r (g_start g) /\ i = (r, 0).

Lemma valid_nil : forall g i, valid g [] i <-> clos g (start_items g) i.
Proof.
  intros g i. split.
  - intros H. remember [] as gm. induction H; subst.
    + apply clos_base. exists r. auto.
    + eapply clos_step; eauto.
    + discriminate.
  - intros H. induction H as [i [r [H ->]]|i A r H IH Ha Hl].
    + now apply valid_init.
    + eapply valid_closure; eauto.
Qed.

Lemma valid_cons : forall g gm X i,
  valid g (X :: gm) i <-> clos g (goto_items g (valid g gm) X) i.
Proof.
  intros g gm X i. split.
  - intros H. remember (X :: gm) as gm'. induction H; subst.
    + discriminate.
    + eapply clos_step; eauto.
    + inversion Heqgm'; subst. apply clos_base. exists i. auto.
  - intros H. induction H as [i [j [H [Ha ->]]]|i A r H IH Ha Hl].
    + now apply valid_goto.
    + eapply valid_closure; eauto.
Qed.

(** Items that exist. *)
Definition item_ok (g : grammar) (i : item) : Prop :=
  exists rl, rule_of g (fst i) = Some rl /\ snd i <= length (r_rhs rl).

Lemma after_dot_ok : forall g i X, after_dot g i = Some X -> item_ok g i /\ item_ok g (fst i, S (snd i)).
Proof.
  intros g i X H. unfold after_dot in H. destruct (rule_of g (fst i)) as [rl|] eqn:E; [|discriminate].
  apply nth_error_Some_lt in H.
  split; exists rl; simpl; (split; [auto|lia]).
Qed.

Lemma lhs_is_ok : forall g r A, lhs_is g r A -> item_ok g (r, 0).
Proof. intros g r A [rl [H _]]. exists rl. simpl. split; auto. lia. Qed.

Lemma valid_ok : forall g gm i, valid g gm i -> item_ok g i.
Proof.
  intros g gm i H. induction H.
  - eapply lhs_is_ok; eauto.
  - eapply lhs_is_ok; eauto.
  - eapply after_dot_ok; eauto.
Qed.

Lemma clos_ok : forall g (K : item -> Prop), (forall i, K i -> item_ok g i) -> forall i, clos g K i -> item_ok g i.
Proof. intros g K HK i H. induction H; auto. eapply lhs_is_ok; eauto. Qed.

Lemma la_valid : forall g gm i t, la g gm i t -> valid g gm i.
Proof.
  intros g gm i t H. induction H.
  - now apply valid_init.
  - eapply valid_closure; eauto.
  - eapply valid_closure; eauto.
  - now apply valid_goto.
Qed.

Lemma valid1_valid : forall g gm i t, valid1 g gm i t -> valid g gm i.
Proof.
  intros g gm i t H. induction H.
  - now apply valid_init.
  - eapply valid_closure; eauto.
  - eapply valid_closure; eauto.
  - now apply valid_goto.
Qed.

Lemma valid1_la : forall g gm i t, valid1 g gm i t -> la g gm i t.
Proof.
  intros g gm i t H. induction H.
  - now apply la_init.
  - eapply la_first; eauto. eapply valid1_valid; eauto.
  - eapply la_null; eauto.
  - now apply la_goto.
Qed.

Section Productive.
Variable g : grammar.
Hypothesis WF : wf_grammar g.
Hypothesis AP : all_productive g.

Lemma elem_productive : forall e, wf_elem g e ->
  exists w, Forall (is_term g) w /\ derives g [e] (map ESym w).
Proof.
  intros [s|l] W; simpl in W.
  - destruct (lt_dec s (g_nterm g)) as [T|T].
    + exists [s]. split; [constructor; auto|]. apply star_refl.
    + destruct (AP s) as [w [H1 H2]]; [unfold is_nonterm; lia|]. eauto.
  - destruct W as [N W]. destruct l as [|t l]; [congruence|].
    exists [t]. split; [constructor; [apply W; simpl; auto|auto]|].
    apply derives_multi. simpl. auto.
Qed.

Lemma form_productive : forall v, Forall (wf_elem g) v ->
  exists w, Forall (is_term g) w /\ derives g v (map ESym w).
Proof.
  induction v as [|e v IH]; intros W.
  - exists []. split; auto. apply star_refl.
  - inversion W; subst. destruct IH as [w2 [T2 D2]]; auto.
    destruct (elem_productive e) as [w1 [T1 D1]]; auto.
    exists (w1 ++ w2). split; [apply Forall_app; auto|].
    rewrite map_app. change (e :: v) with ([e] ++ v). now apply derives_app.
Qed.

Lemma rest_after_wf : forall i, Forall (wf_elem g) (rest_after g i).
Proof.
  intros i. unfold rest_after, rule_of. destruct (nth_error (g_rules g) (fst i)) as [rl|] eqn:E; [|constructor].
  apply nth_error_In in E. apply (wf_rhs g WF) in E.
  rewrite <- (firstn_skipn (S (snd i)) (r_rhs rl)) in E. apply Forall_app in E. tauto.
Qed.

Lemma rest_first_or_null : forall i,
  nullable g (rest_after g i) \/ exists t, first g (rest_after g i) t.
Proof.
  intros i. destruct (form_productive _ (rest_after_wf i)) as [w [T D]].
  destruct w as [|t w].
  - left. exact D.
  - right. exists t. inversion T; subst. split; auto. exists (map ESym w). exact D.
Qed.

Lemma valid_valid1 : forall gm i, valid g gm i -> exists t, valid1 g gm i t.
Proof.
  intros gm i H. induction H as [r Hl|gm i A r H IH Ha Hl|gm i X H IH Ha].
  - exists 0. now apply valid1_init.
  - destruct IH as [t IH]. destruct (rest_first_or_null i) as [N|[u F]].
    + exists t. eapply valid1_closure_null; eauto.
    + exists u. eapply valid1_closure_first; eauto.
  - destruct IH as [t IH]. exists t. now apply valid1_goto.
Qed.

Lemma la_iff_valid1 : forall gm i t, la g gm i t <-> valid1 g gm i t.
Proof.
  intros gm i t. split; [|apply valid1_la].
  intros H. induction H.
  - now apply valid1_init.
  - destruct (valid_valid1 _ _ H) as [t0 H3]. eapply valid1_closure_first; eauto.
  - eapply valid1_closure_null; eauto.
  - now apply valid1_goto.
Qed.

End Productive.
