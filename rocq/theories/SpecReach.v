(** Nonterminals that occur in sentential forms, and the items of their rules. *)
From Coq Require Import List Lia Arith.
Import ListNotations.
From Verif Require Import Base SpecGrammar SpecGrammarFacts SpecLRFacts.

(** Some sentential form contains the symbol. *)
Definition reachable (g : grammar) (A : nat) : Prop := exists u v, derives g [ESym (g_start g)] (u ++ ESym A :: v).

Lemma valid_reachable : forall g gm i, valid g gm i -> forall rl, rule_of g (fst i) = Some rl -> reachable g (r_lhs rl).
Proof.
  intros g gm i V. induction V as [r Hl|gm i A r V IH Ha Hl|gm i X V IH Ha]; cbn [fst]; intros rl R.
  - destruct Hl as (rl' & R' & E). rewrite R in R'. injection R' as <-. rewrite E. exists [], []. apply star_refl.
  - destruct Hl as (rl' & R' & E). rewrite R in R'. injection R' as <-. unfold after_dot in Ha. destruct (rule_of g (fst i)) as [ri|] eqn:Ri; [|discriminate].
    destruct (IH ri eq_refl) as (u & v & D). apply nth_error_split in Ha as (l1 & l2 & EL & _). rewrite E.
    exists (u ++ l1), (l2 ++ v). eapply derives_trans; [exact D|]. apply star_one.
    replace ((u ++ l1) ++ ESym A :: l2 ++ v) with (u ++ r_rhs ri ++ v) by (rewrite EL, <- !app_assoc; reflexivity).
    apply step_rule. eapply nth_error_In. exact Ri.
  - auto.
Qed.

Lemma la_term : forall g gm i t, wf_grammar g -> la g gm i t -> t < g_nterm g.
Proof. intros g gm i t (W & _) H. induction H as [| ? ? ? ? ? ? ? ? (T & _)| |]; auto. Qed.

Section Reach.
Variable g : grammar.
Hypothesis W : wf_grammar g.

(** Every rule of [A] has, at its left end, a viable prefix. *)
Definition open (A : nat) : Prop := exists gm, forall r, lhs_is g r A -> valid g gm (r, 0).

Lemma walk : forall gm r rl k, rule_of g r = Some rl -> valid g gm (r, 0) -> k <= length (r_rhs rl) -> exists gm', valid g gm' (r, k).
Proof.
  intros gm r rl k R V. induction k as [|k IH]; intros L; [eauto|].
  destruct IH as (gm' & V'); [lia|]. destruct (nth_error_lt_ex _ (r_rhs rl) k) as (X & EX); [lia|].
  exists (X :: gm'). apply (valid_goto g gm' (r, k)); auto. unfold after_dot. cbn [fst snd]. rewrite R. auto.
Qed.

Lemma open_rhs : forall r rl A, rule_of g r = Some rl -> open (r_lhs rl) -> In (ESym A) (r_rhs rl) -> open A.
Proof.
  intros r rl A R (gm & H) I. apply In_nth_error in I as (k & Hk).
  assert (V : valid g gm (r, 0)) by (apply H; exists rl; auto).
  destruct (walk gm r rl k R V) as (gm' & V'). { apply Nat.lt_le_incl. apply nth_error_Some. congruence. }
  exists gm'. intros r' Hl. eapply valid_closure; [exact V'| |exact Hl]. unfold after_dot. cbn [fst snd]. rewrite R. auto.
Qed.

Lemma term_open : forall t, is_term g t -> open t.
Proof.
  intros t T. exists []. intros r (rl & R & <-). exfalso. destruct W as (_ & _ & WR & _). rewrite Forall_forall in WR.
  destruct (WR rl (nth_error_In _ _ R)) as ((N & _) & _). unfold is_term in T. lia.
Qed.

Definition form_open (w : list elem) : Prop :=
  forall e, In e w -> match e with ESym A => open A | EMulti l => forall t, In t l -> open t end.

Lemma step_open : forall w w', step g w w' -> form_open w -> form_open w'.
Proof.
  intros w w' H. inversion H as [u v r R|u v l t I]; subst; intros F e J.
  - apply in_app_or in J as [J|J]; [apply F, in_or_app; auto|]. apply in_app_or in J as [J|J]; [|apply F, in_or_app; right; right; auto].
    assert (O : open (r_lhs r)). { apply (F (ESym (r_lhs r))). apply in_or_app. right. left. reflexivity. }
    destruct e as [A|l].
    + apply In_nth_error in R as (k & R). eapply open_rhs; eauto.
    + intros t It. apply term_open. destruct W as (_ & _ & WR & _). rewrite Forall_forall in WR. destruct (WR r R) as (_ & WE).
      rewrite Forall_forall in WE. destruct (WE _ J) as (_ & X). auto.
  - apply in_app_or in J as [J|[<-|J]]; [apply F, in_or_app; auto| |apply F, in_or_app; right; right; auto].
    apply (F (EMulti l)); auto. apply in_or_app. right. left. reflexivity.
Qed.

Lemma derives_open : forall w w', derives g w w' -> form_open w -> form_open w'.
Proof. intros w w' D. induction D; auto. intros F. apply IHD. eapply step_open; eauto. Qed.

Lemma reachable_valid : forall A r rl, reachable g A -> rule_of g r = Some rl -> r_lhs rl = A -> exists gm, valid g gm (r, length (r_rhs rl)).
Proof.
  intros A r rl (u & v & D) R <-. apply derives_open in D.
  - specialize (D (ESym (r_lhs rl))). cbn in D. destruct D as (gm & H); [apply in_or_app; right; left; reflexivity|].
    eapply walk; [exact R|apply H; exists rl; auto|lia].
  - intros e [<-|[]]. exists []. intros r' Hl. apply valid_init. auto.
Qed.
End Reach.
