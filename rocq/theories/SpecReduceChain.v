(** In a grammar without LALR(1) conflicts whose nonterminals all derive token strings, the
    number of reductions that can follow each other after a viable prefix is bounded,
    whichever lookaheads the reductions are made with. *)
From Coq Require Import List Arith Lia.
Import ListNotations.
From Verif Require Import Base SpecGrammar SpecGrammarFacts SpecLRFacts SpecLR0 SpecConflict.

Section Chain.
Variable g : grammar.
Hypothesis W : wf_grammar g.
Hypothesis SNR : forall rl, In rl (g_rules g) -> ~ In (ESym (g_start g)) (r_rhs rl).
Hypothesis AP : all_productive g.
Hypothesis CF : conflict_free g.

Definition viable (gm : list elem) : Prop := exists i, valid g gm i.

(** A reduction of a rule that is complete after the prefix. *)
Definition red (gm gm' : list elem) : Prop := exists r rl gm0, rule_of g r = Some rl /\ valid g gm (r, length (r_rhs rl)) /\
  gm = rev (r_rhs rl) ++ gm0 /\ gm' = ESym (r_lhs rl) :: gm0.
Inductive chain : nat -> list elem -> list elem -> Prop :=
| chain_0 : forall gm, chain 0 gm gm
| chain_S : forall n gm gm1 gm', red gm gm1 -> chain n gm1 gm' -> chain (S n) gm gm'.

(** A reduction with lookahead [t]. *)
Definition tred (t : nat) (gm gm' : list elem) : Prop := exists r rl gm0, rule_of g r = Some rl /\ reducible g gm r t /\
  gm = rev (r_rhs rl) ++ gm0 /\ gm' = ESym (r_lhs rl) :: gm0.
Inductive tchain (t : nat) : nat -> list elem -> list elem -> Prop :=
| tchain_0 : forall gm, tchain t 0 gm gm
| tchain_S : forall n gm gm1 gm', tred t gm gm1 -> tchain t n gm1 gm' -> tchain t (S n) gm gm'.

Definition from (i : item) : list elem := match rule_of g (fst i) with Some rl => skipn (snd i) (r_rhs rl) | None => [] end.

(** [t] can be the next token after the prefix. *)
Definition next (gm : list elem) (t : nat) : Prop := exists i u, valid1 g gm i u /\ (first g (from i) t \/ nullable g (from i) /\ t = u).

Lemma from_dot : forall i X, after_dot g i = Some X -> from i = X :: rest_after g i /\ from (fst i, S (snd i)) = rest_after g i.
Proof.
  intros [r d] X H. unfold after_dot, from, rest_after in *. cbn [fst snd] in *. destruct (rule_of g r) as [rl|]; [|discriminate]. split; [|reflexivity].
  revert H. generalize (r_rhs rl). induction d as [|d IH]; intros l H; destruct l as [|Y l]; try discriminate; cbn in *; [congruence|]. now apply IH.
Qed.

Lemma from_rule : forall r rl, rule_of g r = Some rl -> from (r, 0) = r_rhs rl.
Proof. intros r rl H. unfold from. cbn [fst snd]. now rewrite H. Qed.

Lemma from_wf : forall i, Forall (wf_elem g) (from i).
Proof.
  intros i. unfold from, rule_of. destruct (nth_error (g_rules g) (fst i)) as [rl|] eqn:E; [|constructor]. apply nth_error_In in E. apply (wf_rhs g W) in E.
  rewrite <- (firstn_skipn (snd i) (r_rhs rl)) in E. apply Forall_app in E. tauto.
Qed.

Lemma v1_run : forall r rl t gm k, rule_of g r = Some rl -> valid1 g gm (r, 0) t -> k <= length (r_rhs rl) -> valid1 g (rev (firstn k (r_rhs rl)) ++ gm) (r, k) t.
Proof.
  intros r rl t gm k R H. induction k as [|k IH]; intros L; [auto|]. destruct (nth_error (r_rhs rl) k) as [X|] eqn:E; [|apply nth_error_None in E; lia].
  assert (EF : firstn (S k) (r_rhs rl) = firstn k (r_rhs rl) ++ [X]).
  { clear - E. revert k E. induction (r_rhs rl) as [|Y l IH]; intros [|k] E; try discriminate; cbn in *; [congruence|]. f_equal. now apply IH. }
  rewrite EF, rev_app_distr. cbn [rev app]. apply (valid1_goto g _ (r, k)); [apply IH; lia|]. unfold after_dot. cbn [fst snd]. now rewrite R.
Qed.

Lemma v1_full : forall r rl t gm, rule_of g r = Some rl -> valid1 g gm (r, 0) t -> valid1 g (rev (r_rhs rl) ++ gm) (r, length (r_rhs rl)) t.
Proof. intros r rl t gm R H. pose proof (v1_run r rl t gm _ R H (le_n _)) as X. now rewrite firstn_all in X. Qed.

Lemma v1_term : forall gm i t, valid1 g gm i t -> is_term g t.
Proof. intros gm i t H. induction H; auto; [exact (proj1 W)|]. apply H2. Qed.

Lemma v1_reducible : forall gm r rl t, rule_of g r = Some rl -> valid1 g gm (r, length (r_rhs rl)) t -> reducible g gm r t.
Proof. intros gm r rl t R H. exists rl, gm. split; [exact R|]. split; [intros i; tauto|]. now apply valid1_la. Qed.

Lemma viable_next : forall gm, viable gm -> exists t, is_term g t /\ next gm t.
Proof.
  intros gm (i & V). destruct (valid_valid1 g W AP _ _ V) as (u & V1). destruct (form_productive g AP _ (from_wf i)) as ([|t w] & F & D).
  - exists u. split; [eapply v1_term; eauto|]. exists i, u. split; [exact V1|]. right. auto.
  - exists t. inversion F; subst. split; [auto|]. exists i, u. split; [exact V1|]. left. split; [auto|]. exists (map ESym w). exact D.
Qed.

(** The item that has just passed the last symbol of the prefix. *)
Lemma next_kernel : forall gm i u, valid1 g gm i u -> forall t A gm0, gm = A :: gm0 -> (first g (from i) t \/ nullable g (from i) /\ t = u) ->
  exists j v, valid1 g gm0 j v /\ after_dot g j = Some A /\ (first g (rest_after g j) t \/ nullable g (rest_after g j) /\ t = v).
Proof.
  intros gm i u H. induction H as [r L|gm i u B r u' V IH AD L F|gm i u B r V IH AD L N|gm i u X V IH AD]; intros t A gm0 E NX.
  - discriminate.
  - apply (IH t A gm0 E). left. rewrite (proj1 (from_dot _ _ AD)). destruct (lhs_is_In _ _ _ L) as (rl & I & EL & R). rewrite (from_rule _ _ R) in NX. subst B. apply (first_cons g). destruct NX as [NX|(NX & ->)].
    + left. now apply first_rule.
    + right. split; [now apply nullable_rule|exact F].
  - apply (IH t A gm0 E). rewrite (proj1 (from_dot _ _ AD)). destruct (lhs_is_In _ _ _ L) as (rl & I & EL & R). rewrite (from_rule _ _ R) in NX. subst B. destruct NX as [NX|(NX & ->)].
    + left. apply (first_cons g). left. now apply first_rule.
    + right. split; [|reflexivity]. apply nullable_cons. split; [now apply nullable_rule|exact N].
  - inversion E; subst. exists i, u. split; [exact V|]. split; [exact AD|]. now rewrite (proj2 (from_dot _ _ AD)) in NX.
Qed.

Lemma next_lookahead : forall A gm0 t r rl, next (ESym A :: gm0) t -> rule_of g r = Some rl -> r_lhs rl = A -> valid1 g gm0 (r, 0) t.
Proof.
  intros A gm0 t r rl (i & u & V & NX) R L. destruct (next_kernel _ _ _ V t (ESym A) gm0 eq_refl NX) as (j & v & VJ & AD & [F|(N & ->)]).
  - eapply valid1_closure_first; eauto. exists rl; auto.
  - eapply valid1_closure_null; eauto. exists rl; auto.
Qed.

Lemma red_back : forall gm gm' t, red gm gm' -> next gm' t -> tred t gm gm' /\ next gm t.
Proof.
  intros gm gm' t (r & rl & gm0 & R & V & -> & ->) NX. pose proof (v1_full r rl t gm0 R (next_lookahead _ _ _ r rl NX R eq_refl)) as F. split.
  - exists r, rl, gm0. split; [exact R|]. split; [eapply v1_reducible; eauto|auto].
  - exists (r, length (r_rhs rl)), t. split; [exact F|]. right. split; [|reflexivity]. unfold from. cbn [fst snd]. rewrite R, skipn_all. apply nullable_nil.
Qed.

Lemma chain_back : forall n gm gm' t, chain n gm gm' -> next gm' t -> tchain t n gm gm' /\ next gm t.
Proof.
  intros n gm gm' t H. induction H as [gm|n gm gm1 gm' R C IH]; intros NX; [split; [constructor|exact NX]|].
  destruct (IH NX) as (T & N1). destruct (red_back _ _ _ R N1) as (T1 & N0). split; [econstructor; eauto|exact N0].
Qed.

(** * With a token that can come next the reductions end *)
Definition final (t : nat) (gm : list elem) : Prop :=
  (exists X, shiftable g gm X t) \/ exists r rl, rule_of g r = Some rl /\ r_lhs rl = g_start g /\ gm = rev (r_rhs rl) /\ reducible g gm r t.
Definition stops (t : nat) (gm : list elem) : Prop := exists n gm', tchain t n gm gm' /\ final t gm'.
Definition reach (t : nat) (gm gm' : list elem) : Prop := exists n, tchain t n gm gm'.

Lemma tchain_app : forall t n gm gm1, tchain t n gm gm1 -> forall m gm', tchain t m gm1 gm' -> tchain t (n + m) gm gm'.
Proof. intros t n gm gm1 H. induction H; intros m gm2 K; [exact K|]. cbn. econstructor; eauto. Qed.
Lemma reach_trans : forall t a b c, reach t a b -> reach t b c -> reach t a c.
Proof. intros t a b c (n & H) (m & K). exists (n + m). eapply tchain_app; eauto. Qed.
Lemma reach_stops : forall t a b, reach t a b -> stops t b -> stops t a.
Proof. intros t a b (n & H) (m & gm' & K & F). exists (n + m), gm'. split; [eapply tchain_app; eauto|exact F]. Qed.
Lemma reach_refl : forall t a, reach t a a.
Proof. intros t a. exists 0. constructor. Qed.
Lemma reach_red : forall t r rl gm0, rule_of g r = Some rl -> valid1 g (rev (r_rhs rl) ++ gm0) (r, length (r_rhs rl)) t -> reach t (rev (r_rhs rl) ++ gm0) (ESym (r_lhs rl) :: gm0).
Proof. intros t r rl gm0 R V. exists 1. econstructor; [|constructor]. exists r, rl, gm0. split; [exact R|]. split; [eapply v1_reducible; eauto|auto]. Qed.

(** What derives the empty string is reduced. *)
Lemma reduce_null : forall m n be, n <= m -> dn g n be [] -> forall i u gm rest t, valid1 g gm i u -> from i = be ++ rest ->
  (first g rest t \/ nullable g rest /\ t = u) -> reach t gm (rev be ++ gm).
Proof.
  induction m as [m IHm] using lt_wf_ind. intros n be. revert n. induction be as [|X be IHb]; intros n LN D i u gm rest t V E NX; [apply reach_refl|].
  destruct (dn_app_inv g n [X] be [] D) as (n1 & n2 & w1 & w2 & EN & EW & D1 & D2). symmetry in EW. apply app_eq_nil in EW as (-> & ->).
  assert (AD : after_dot g i = Some X).
  { unfold from in E. unfold after_dot. destruct (rule_of g (fst i)) as [rl|]; [|discriminate]. revert E. generalize (r_rhs rl) (snd i). intros l k. revert l. induction k as [|k IH]; intros l E; destruct l as [|Y l]; try discriminate; cbn in *; [congruence|]. now apply IH. }
  destruct (from_dot _ _ AD) as (F1 & F2). rewrite F1 in E. cbn [app] in E. injection E as E.
  assert (WX : wf_elem g X). { pose proof (from_wf i) as F. rewrite F1 in F. now apply Forall_inv in F. }
  inversion D1 as [|n1' x y z S1 D1']; subst.
  destruct X as [A|l]; [|exfalso; apply dn_derives in D1; destruct WX as (_ & WX); revert D1; now apply multi_not_nullable].
  apply step_sym_inv in S1 as (rl & IR & EL & ->). apply In_nth_error in IR as (r & R). fold (rule_of g r) in R.
  assert (LH : lhs_is g r A) by (exists rl; auto).
  assert (V0 : valid1 g gm (r, 0) t).
  { apply dn_derives in D2. destruct NX as [F|(N & ->)].
    - apply (valid1_closure_first g gm i u A r t V AD LH). rewrite E. apply first_app. right. auto.
    - apply (valid1_closure_null g gm i u A r V AD LH). rewrite E. apply nullable_app. auto. }
  pose proof (IHm n1' ltac:(lia) n1' (r_rhs rl) (le_n _) D1' (r, 0) t gm [] t V0) as R1. rewrite app_nil_r in R1. specialize (R1 (from_rule _ _ R) (or_intror (conj (nullable_nil g) eq_refl))).
  pose proof (reach_red t r rl gm R (v1_full r rl t gm R V0)) as R2. rewrite EL in R2.
  pose proof (valid1_goto g gm i u _ V AD) as VG.
  pose proof (IHb n2 ltac:(lia) D2 (fst i, S (snd i)) u (ESym A :: gm) rest t VG ltac:(congruence) NX) as R3.
  cbn [rev]. rewrite <- app_assoc. cbn [app]. eapply reach_trans; [exact R1|]. eapply reach_trans; eauto.
Qed.

Lemma null_reach : forall be i u gm rest t, nullable g be -> valid1 g gm i u -> from i = be ++ rest -> (first g rest t \/ nullable g rest /\ t = u) -> reach t gm (rev be ++ gm).
Proof. intros be i u gm rest t N. apply derives_dn in N as (n & D). intros. eapply reduce_null; eauto. Qed.

(** A token that what follows can begin with gets shifted. *)
Lemma first_stops : forall t v, firstc g t v -> forall gm i u rest, valid1 g gm i u -> from i = v -> v = rest -> stops t gm.
Proof.
  intros t v H. induction H as [v T|l v T IT|rl v I F IH|X v N F IH]; intros gm i u rest V E _.
  - exists 0, gm. split; [constructor|]. left. exists (ESym t). split; [now left|]. exists i. split; [eapply valid1_valid; eauto|].
    destruct (after_dot g i) as [X|] eqn:AD; [destruct (from_dot _ _ AD); congruence|]. exfalso. unfold after_dot, from in *. destruct (rule_of g (fst i)) as [rl|]; [|discriminate]. apply nth_error_None in AD. rewrite skipn_all2 in E by exact AD. discriminate.
  - exists 0, gm. split; [constructor|]. left. exists (EMulti l). split; [exact IT|]. exists i. split; [eapply valid1_valid; eauto|].
    destruct (after_dot g i) as [X|] eqn:AD; [destruct (from_dot _ _ AD); congruence|]. exfalso. unfold after_dot, from in *. destruct (rule_of g (fst i)) as [rl|]; [|discriminate]. apply nth_error_None in AD. rewrite skipn_all2 in E by exact AD. discriminate.
  - assert (AD : after_dot g i = Some (ESym (r_lhs rl))).
    { destruct (after_dot g i) as [X|] eqn:AD; [destruct (from_dot _ _ AD); congruence|]. exfalso. unfold after_dot, from in *. destruct (rule_of g (fst i)) as [rl'|]; [|discriminate]. apply nth_error_None in AD. rewrite skipn_all2 in E by exact AD. discriminate. }
    apply In_nth_error in I as (r & R). fold (rule_of g r) in R. assert (LH : lhs_is g r (r_lhs rl)) by (exists rl; auto).
    destruct (rest_first_or_null g W AP i) as [N|(w & FW)].
    + apply (IH gm (r, 0) u (r_rhs rl)); [eapply valid1_closure_null; eauto|now apply from_rule|reflexivity].
    + apply (IH gm (r, 0) w (r_rhs rl)); [eapply valid1_closure_first; eauto|now apply from_rule|reflexivity].
  - assert (AD : after_dot g i = Some X).
    { destruct (after_dot g i) as [Y|] eqn:AD; [destruct (from_dot _ _ AD); congruence|]. exfalso. unfold after_dot, from in *. destruct (rule_of g (fst i)) as [rl'|]; [|discriminate]. apply nth_error_None in AD. rewrite skipn_all2 in E by exact AD. discriminate. }
    destruct (from_dot _ _ AD) as (F1 & F2). rewrite E in F1. injection F1 as F1.
    apply (reach_stops t gm (X :: gm)); [apply (null_reach [X] i u gm v t N V E); left; now apply firstc_first|].
    apply (IH (X :: gm) (fst i, S (snd i)) u v); [now apply valid1_goto|congruence|reflexivity].
Qed.

(** When the rest of an item is empty, its lookahead gets shifted or ends the input. *)
Lemma null_stops : forall gm i t, valid1 g gm i t -> forall k, nullable g (skipn k (from i)) -> stops t (rev (firstn k (from i)) ++ gm).
Proof.
  intros gm i t H. induction H as [r L|gm i u B r t V IH AD L F|gm i t B r V IH AD L N|gm i t X V IH AD]; intros k NU.
  - destruct L as (rl & R & L). rewrite (from_rule _ _ R) in *. assert (V0 : valid1 g [] (r, 0) 0) by (apply valid1_init; exists rl; auto).
    assert (K : exists j, firstn k (r_rhs rl) = firstn j (r_rhs rl) /\ skipn k (r_rhs rl) = skipn j (r_rhs rl) /\ j <= length (r_rhs rl)).
    { destruct (Nat.le_gt_cases k (length (r_rhs rl))); [exists k; auto|]. exists (length (r_rhs rl)). rewrite !firstn_all2, !skipn_all2 by lia. auto. }
    destruct K as (j & -> & EJ & LJ). rewrite EJ in NU. pose proof (v1_run r rl 0 [] j R V0 LJ) as VJ.
    apply (reach_stops 0 _ (rev (r_rhs rl) ++ [])).
    + rewrite <- (firstn_skipn j (r_rhs rl)) at 2. rewrite rev_app_distr, <- app_assoc. apply (null_reach (skipn j (r_rhs rl)) (r, j) 0 _ [] 0 NU VJ).
      * unfold from. cbn [fst snd]. now rewrite R, app_nil_r.
      * right. split; [apply nullable_nil|reflexivity].
    + exists 0, (rev (r_rhs rl) ++ []). split; [constructor|]. right. exists r, rl. split; [exact R|]. split; [exact L|]. split; [now rewrite app_nil_r|]. eapply v1_reducible; [exact R|]. now apply v1_full.
  - assert (V0 : valid1 g gm (r, 0) t) by (eapply valid1_closure_first; eauto). destruct L as (rl & R & L). rewrite (from_rule _ _ R) in *.
    assert (K : exists j, firstn k (r_rhs rl) = firstn j (r_rhs rl) /\ skipn k (r_rhs rl) = skipn j (r_rhs rl) /\ j <= length (r_rhs rl)).
    { destruct (Nat.le_gt_cases k (length (r_rhs rl))); [exists k; auto|]. exists (length (r_rhs rl)). rewrite !firstn_all2, !skipn_all2 by lia. auto. }
    destruct K as (j & -> & EJ & LJ). rewrite EJ in NU. pose proof (v1_run r rl t gm j R V0 LJ) as VJ.
    apply (reach_stops t _ (rev (r_rhs rl) ++ gm)).
    + rewrite <- (firstn_skipn j (r_rhs rl)) at 2. rewrite rev_app_distr, <- app_assoc. apply (null_reach (skipn j (r_rhs rl)) (r, j) t _ [] t NU VJ).
      * unfold from. cbn [fst snd]. now rewrite R, app_nil_r.
      * right. split; [apply nullable_nil|reflexivity].
    + eapply reach_stops; [apply (reach_red t r rl gm R); now apply v1_full|]. rewrite L. apply (first_stops t (rest_after g i)) with (i := (fst i, S (snd i))) (u := u) (rest := rest_after g i); [|now apply valid1_goto|now apply (from_dot _ _ AD)|reflexivity].
      apply first_firstc; [exact W|now apply rest_after_wf|exact F].
  - assert (V0 : valid1 g gm (r, 0) t) by (eapply valid1_closure_null; eauto). destruct L as (rl & R & L). rewrite (from_rule _ _ R) in *.
    assert (K : exists j, firstn k (r_rhs rl) = firstn j (r_rhs rl) /\ skipn k (r_rhs rl) = skipn j (r_rhs rl) /\ j <= length (r_rhs rl)).
    { destruct (Nat.le_gt_cases k (length (r_rhs rl))); [exists k; auto|]. exists (length (r_rhs rl)). rewrite !firstn_all2, !skipn_all2 by lia. auto. }
    destruct K as (j & -> & EJ & LJ). rewrite EJ in NU. pose proof (v1_run r rl t gm j R V0 LJ) as VJ.
    apply (reach_stops t _ (rev (r_rhs rl) ++ gm)).
    + rewrite <- (firstn_skipn j (r_rhs rl)) at 2. rewrite rev_app_distr, <- app_assoc. apply (null_reach (skipn j (r_rhs rl)) (r, j) t _ [] t NU VJ).
      * unfold from. cbn [fst snd]. now rewrite R, app_nil_r.
      * right. split; [apply nullable_nil|reflexivity].
    + eapply reach_stops; [apply (reach_red t r rl gm R); now apply v1_full|]. rewrite L. specialize (IH 1). rewrite (proj1 (from_dot _ _ AD)) in IH. cbn [firstn skipn rev app] in IH. now apply IH.
  - destruct (from_dot _ _ AD) as (F1 & F2). rewrite F2 in *. specialize (IH (S k)). rewrite F1 in IH. cbn [firstn skipn rev] in IH. rewrite <- app_assoc in IH. now apply IH.
Qed.

Lemma next_stops : forall gm t, next gm t -> stops t gm.
Proof.
  intros gm t (i & u & V & [F|(N & ->)]).
  - eapply first_stops; [apply first_firstc; [exact W|apply (from_wf i)|exact F]|exact V|reflexivity|reflexivity].
  - apply (null_stops gm i u V 0 N).
Qed.

Lemma final_end : forall t gm gm1, is_term g t -> final t gm -> tred t gm gm1 -> gm1 = [ESym (g_start g)].
Proof.
  intros t gm gm1 T F (r & rl & gm0 & R & RE & E & ->). destruct (CF gm t T) as (C1 & C2 & _). destruct F as [(X & S)|(r' & rl' & R' & L & E' & RE')]; [exfalso; eapply C1; eauto|].
  rewrite (C2 _ _ RE RE') in R. rewrite R in R'. injection R' as <-. rewrite L. f_equal. rewrite E' in E. rewrite <- (app_nil_r (rev (r_rhs rl))) in E at 1. now apply app_inv_head in E.
Qed.

Lemma start_dead : ~ viable [ESym (g_start g)].
Proof.
  intros (i & V). apply valid_cons in V. assert (K : forall j, clos g (goto_items g (valid g []) (ESym (g_start g))) j -> False).
  { intros j H. induction H as [j (k & _ & AD & _)|]; auto. unfold after_dot in AD. destruct (rule_of g (fst k)) as [rl|] eqn:R; [|discriminate]. apply nth_error_In in AD, R. exact (SNR rl R AD). }
  exact (K i V).
Qed.

Lemma tred_viable : forall t gm gm1, tred t gm gm1 -> viable gm.
Proof. intros t gm gm1 (r & rl & gm0 & R & (rl' & gm' & _ & SS & LA) & _). exists (r, length (r_rhs rl')). apply SS. eapply la_valid; eauto. Qed.

Lemma stops_bound : forall t h gm gmh, is_term g t -> tchain t h gm gmh -> final t gmh -> forall n gm', tchain t n gm gm' -> viable gm' -> n <= h.
Proof.
  intros t h gm gmh T H. induction H as [gm|h gm gm1 gmh S1 H IH]; intros F n gm' C VI.
  - destruct C as [gm|n gm gm1 gm' S1 C]; [lia|]. exfalso. apply (final_end _ _ _ T F) in S1. subst gm1. apply start_dead. destruct C as [gm1|n gm1 gm2 gm3 S2 C]; [exact VI|]. eapply tred_viable; eauto.
  - destruct C as [gm|n gm gm1' gm' S2 C]; [lia|]. assert (E : gm1' = gm1).
    { destruct S1 as (r & rl & gm0 & R & RE & E & ->), S2 as (r' & rl' & gm0' & R' & RE' & E' & ->). destruct (CF gm t T) as (_ & C2 & _). rewrite (C2 _ _ RE RE') in R. rewrite R in R'. injection R' as <-. rewrite E in E'. apply app_inv_head in E'. now subst. }
    subst gm1'. specialize (IH F n gm' C VI). lia.
Qed.

(** * The bound *)
Theorem chain_bound : forall gm (E : nat -> Prop), (forall n, E n \/ ~ E n) -> (forall n, E n -> exists m gm', n <= m /\ chain m gm gm' /\ viable gm') -> exists n, ~ E n.
Proof.
  intros gm E DE CH.
  assert (K : forall k used h, g_nterm g - length used <= k -> NoDup used -> Forall (is_term g) used ->
    (forall t n gm', In t used -> tchain t n gm gm' -> viable gm' -> n <= h) -> exists n, ~ E n).
  { induction k as [|k IH]; intros used h LK ND FU B; (destruct (DE (S h)) as [Y|Y]; [|eauto]); destruct (CH _ Y) as (m & gm' & LM & C & VI); destruct (viable_next _ VI) as (t & T & NX); destruct (chain_back _ _ _ _ C NX) as (TC & NX0);
      (assert (NI : ~ In t used) by (intros I; specialize (B t m gm' I TC VI); lia)).
    - exfalso. assert (L : length (t :: used) <= length (seq 0 (g_nterm g))).
      { apply NoDup_incl_length; [now constructor|]. intros x [<-|I]; apply in_seq; [unfold is_term in T; lia|]. rewrite Forall_forall in FU. specialize (FU x I). unfold is_term in FU. lia. }
      rewrite seq_length in L. cbn in L. lia.
    - destruct (next_stops _ _ NX0) as (h' & gmh & H & F). apply (IH (t :: used) (Nat.max h h')); [cbn [length]; lia|now constructor|now constructor|].
      intros s n gm2 [<-|I] TS V2; [pose proof (stops_bound _ _ _ _ T H F _ _ TS V2); lia|]. specialize (B s n gm2 I TS V2). lia. }
  apply (K (g_nterm g) [] 0); [cbn; lia|constructor|constructor|]. intros t n gm' [].
Qed.

(** Reductions of rules with one symbol on the right in front of a viable prefix. *)
Inductive lifts (s : nat) : nat -> Prop :=
| lifts_refl : lifts s s
| lifts_step : forall r rl B, lifts s B -> rule_of g r = Some rl -> r_rhs rl = [ESym B] -> lifts s (r_lhs rl).

Lemma lifts_chain : forall s B, lifts s B -> forall gm0, viable (ESym B :: gm0) -> exists n, chain n (ESym s :: gm0) (ESym B :: gm0) /\ viable (ESym s :: gm0).
Proof.
  intros s B H. induction H as [|r rl B H IH R E]; intros gm0 (i & V); [exists 0; split; [constructor|exists i; exact V]|].
  assert (V0 : valid g gm0 (r, 0)).
  { apply valid_cons in V. assert (K : forall j, clos g (goto_items g (valid g gm0) (ESym (r_lhs rl))) j -> valid g gm0 (r, 0)).
    { intros j H1. induction H1 as [j (k & VK & AD & _)|]; auto. apply (valid_closure g gm0 k (r_lhs rl) r VK AD). exists rl; auto. }
    exact (K i V). }
  assert (V1 : valid g (ESym B :: gm0) (r, 1)). { apply (valid_goto g gm0 (r, 0) (ESym B) V0). unfold after_dot. cbn [fst snd]. now rewrite R, E. }
  destruct (IH gm0) as (n & C & VS); [exists (r, 1); exact V1|]. exists (n + 1). split; [|exact VS].
  assert (A : forall a b n, chain n a b -> forall c, red b c -> chain (n + 1) a c).
  { intros a b n0 HC. induction HC as [gm|n0 gm gm1 gm' R1 HC IHC]; intros c RC; [econstructor; [exact RC|constructor]|]. cbn. econstructor; eauto. }
  apply (A _ _ _ C). exists r, rl, gm0. split; [exact R|]. rewrite E. cbn. auto.
Qed.
End Chain.
