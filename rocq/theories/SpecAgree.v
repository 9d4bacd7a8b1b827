(** The user's grammar and byacc's augmented grammar: valid items, lookaheads and
    the states of two LR(0) automata correspond. *)
From Coq Require Import List Arith Lia Bool Permutation.
Import ListNotations.
From Verif Require Import Base SpecGrammar SpecGrammarFacts SpecLRFacts SpecLR0 ByaccLr0Model SpecByacc.

(** The goal symbol is on no right-hand side and has a rule. *)
Definition goal_free (s : bsrc) : Prop := forall l r, In (l, r) (b_rules s) -> ~ In (S (b_ntokens s)) r.
Definition goal_defined (s : bsrc) : Prop := exists r, In (S (b_ntokens s), r) (b_rules s).

(** The lemon state with items [I] and the byacc state with items [J] correspond:
    rule k of the grammar is rule k + 1 of the augmented grammar. *)
Definition agree (I J : list item) : Prop := (forall k d, In (k, d) I <-> In (S k, d) J) /\ ~ In (0, 1) J.

Section Agree.
Variable s : bsrc.
Hypothesis W : wf_src s.
Local Notation U := (user s).
Local Notation G := (aug s).
Local Notation goal := (S (b_ntokens s)).

Lemma ag_rule : forall k, rule_of G (S k) = rule_of U k.
Proof. reflexivity. Qed.

Lemma ag_after : forall k d, after_dot G (S k, d) = after_dot U (k, d).
Proof. reflexivity. Qed.

Lemma ag_rest : forall k d, rest_after G (S k, d) = rest_after U (k, d).
Proof. reflexivity. Qed.

Lemma ag_after0 : forall d, after_dot G (0, d) = match d with 0 => Some (ESym goal) | _ => None end.
Proof. intros [|[|d]]; reflexivity. Qed.

Lemma ag_lhs : forall k A, lhs_is G (S k) A <-> lhs_is U k A.
Proof. reflexivity. Qed.

Lemma ag_lhs0 : forall A, lhs_is G 0 A <-> A = b_ntokens s.
Proof.
  intros A. unfold lhs_is, rule_of. cbn. split; [intros (rl & E & <-); inversion E; reflexivity|intros ->; eauto].
Qed.

Lemma ag_lhs_ne : forall k A, lhs_is U k A -> A <> b_ntokens s.
Proof.
  intros k A (rl & E & <-). apply nth_error_In in E. cbn in E. apply in_map_iff in E as ([l r] & <- & I).
  destruct (ws_rules _ W _ _ I) as [H _]. cbn. lia.
Qed.

Lemma after_sym : forall k d X, after_dot U (k, d) = Some X -> exists l r x, In (l, r) (b_rules s) /\ In x r /\ X = ESym x.
Proof.
  intros k d X H. unfold after_dot, rule_of in H. cbn [fst snd] in H. destruct (nth_error _ k) as [rl|] eqn:E; [|discriminate].
  apply nth_error_In in E. cbn in E. apply in_map_iff in E as ([l r] & <- & I). cbn in H. apply nth_error_In in H.
  apply in_map_iff in H as (x & <- & Ix). eauto 6.
Qed.

Lemma after_ne : forall k d A, after_dot U (k, d) = Some (ESym A) -> A <> b_ntokens s.
Proof. intros k d A H. apply after_sym in H as (l & r & x & I & Ix & E). inversion E; subst. apply (ws_rules _ W _ _ I). auto. Qed.

(** ** Derivations *)
Definition noacc (w : list elem) : Prop := Forall (fun e => exists x, e = ESym x /\ x <> b_ntokens s) w.

Lemma noacc_rule : forall rl, In rl (g_rules U) -> noacc (r_rhs rl).
Proof.
  intros rl I. cbn in I. apply in_map_iff in I as ([l r] & <- & I). cbn. apply Forall_forall. intros e Ie.
  apply in_map_iff in Ie as (x & <- & Ix). exists x. split; [auto|]. now apply (ws_rules _ W _ _ I) in Ix.
Qed.

Lemma step_UG : forall u v, step U u v -> step G u v.
Proof. intros u v H. destruct H; [apply step_rule; cbn; now right|now apply step_multi]. Qed.

Lemma step_GU : forall u v, step G u v -> noacc u -> step U u v /\ noacc v.
Proof.
  intros u v H N. destruct H as [u v r I|u v l t I].
  - apply Forall_app in N as (N1 & N2). inversion N2 as [|? ? N3 N4]; subst. destruct I as [<-|I].
    + destruct N3 as (x & E & N3). cbn in E. congruence.
    + split; [now apply step_rule|]. apply Forall_app. split; [auto|]. apply Forall_app. split; [now apply noacc_rule|auto].
  - apply Forall_app in N as (N1 & N2). inversion N2 as [|? ? N3 N4]; subst. destruct N3 as (x & E & _). discriminate.
Qed.

Lemma derives_UG : forall u v, derives U u v -> derives G u v.
Proof. intros u v H. induction H; [apply derives_refl|]. eapply derives_trans; [apply star_one, step_UG; eauto|auto]. Qed.

Lemma derives_GU : forall u v, derives G u v -> noacc u -> derives U u v.
Proof.
  intros u v H. induction H as [|u v w H1 H2 IH]; intros N; [apply derives_refl|].
  destruct (step_GU _ _ H1 N) as (K1 & K2). eapply derives_trans; [apply star_one; eauto|auto].
Qed.

Lemma noacc_rest : forall k d, noacc (rest_after U (k, d)).
Proof.
  intros k d. unfold rest_after, rule_of. cbn [fst snd]. destruct (nth_error _ k) as [rl|] eqn:E; [|constructor].
  apply nth_error_In, noacc_rule in E. unfold noacc in *. rewrite Forall_forall in *. intros e Ie. apply E.
  rewrite <- (firstn_skipn (S d) (r_rhs rl)). apply in_or_app. now right.
Qed.

Lemma ag_nullable : forall k d, nullable G (rest_after U (k, d)) <-> nullable U (rest_after U (k, d)).
Proof. intros k d. split; [intros H; apply derives_GU; auto using noacc_rest|apply derives_UG]. Qed.

Lemma ag_first : forall k d t, first G (rest_after U (k, d)) t <-> first U (rest_after U (k, d)) t.
Proof.
  intros k d t. split; intros (H & v & D); (split; [exact H|]); exists v; [apply derives_GU; auto using noacc_rest|now apply derives_UG].
Qed.

(** ** Valid items and lookaheads *)
Lemma valid_UG : forall gm k d, valid U gm (k, d) -> valid G gm (S k, d).
Proof.
  assert (H : forall gm i, valid U gm i -> valid G gm (S (fst i), snd i)); [|intros gm k d V; apply (H gm (k, d) V)].
  intros gm i V. induction V as [r L|gm i A r V IH E L|gm i X V IH E].
  - apply valid_closure with (0, 0) goal; [apply valid_init; now apply ag_lhs0|reflexivity|exact L].
  - destruct i as [k d]. apply valid_closure with (S k, d) A; [exact IH|exact E|exact L].
  - destruct i as [k d]. apply (valid_goto G gm (S k, d)); [exact IH|exact E].
Qed.

Lemma valid_GU : forall gm i, valid G gm i ->
  (i = (0, 0) /\ gm = []) \/ (i = (0, 1) /\ gm = [ESym goal]) \/ exists k d, i = (S k, d) /\ valid U gm (k, d).
Proof.
  intros gm i V. induction V as [r L|gm i A r V IH E L|gm i X V IH E].
  - destruct r as [|k]; [auto|]. apply ag_lhs, ag_lhs_ne in L. now destruct L.
  - destruct IH as [(-> & ->)|[(-> & ->)|(k & d & -> & V')]].
    + cbn in E. injection E as <-. destruct r as [|r]; [apply ag_lhs0 in L; lia|]. right. right. exists r, 0. split; [auto|]. apply valid_init. exact L.
    + discriminate.
    + rewrite ag_after in E. destruct r as [|r]; [apply ag_lhs0 in L; apply after_ne in E; now destruct E|].
      right. right. exists r, 0. split; [auto|]. eapply valid_closure; [exact V'|exact E|exact L].
  - destruct IH as [(-> & ->)|[(-> & ->)|(k & d & -> & V')]].
    + cbn in E. injection E as <-. auto.
    + discriminate.
    + right. right. exists k, (S d). split; [auto|]. apply (valid_goto U gm (k, d)); auto.
Qed.

Lemma ag_valid : forall gm k d, valid G gm (S k, d) <-> valid U gm (k, d).
Proof.
  intros gm k d. split; [|apply valid_UG]. intros V. apply valid_GU in V as [(E & _)|[(E & _)|(k' & d' & E & V)]]; try discriminate. now inversion E; subst.
Qed.

Lemma ag_la : forall gm k d t, la G gm (S k, d) t <-> la U gm (k, d) t.
Proof.
  assert (H : forall gm i t, la G gm i t -> (fst i = 0 /\ t = 0 /\ gm = [] /\ snd i = 0) \/ (fst i = 0 /\ snd i = 1) \/ exists k d, i = (S k, d) /\ la U gm (k, d) t).
  { intros gm i t V. induction V as [r L|gm i A r u V E L F|gm i t A r V IH E L N|gm i t X V IH E].
    - destruct r as [|k]; [auto|]. apply ag_lhs, ag_lhs_ne in L. now destruct L.
    - apply valid_GU in V as [(-> & ->)|[(-> & ->)|(k & d & -> & V')]].
      + exfalso. eapply first_nil. exact F.
      + discriminate.
      + rewrite ag_after in E. destruct r as [|r]; [apply ag_lhs0 in L; apply after_ne in E; now destruct E|].
        right. right. exists r, 0. split; [auto|]. eapply la_first; [exact V'|exact E|exact L|]. now apply ag_first.
    - destruct i as [k d]. destruct IH as [(E1 & -> & -> & E2)|[(E1 & E2)|(k' & d' & E1 & V')]].
      + cbn in E1, E2. subst. cbn in E. injection E as <-. destruct r as [|r]; [apply ag_lhs0 in L; lia|]. right. right. exists r, 0. split; [auto|]. apply la_init. exact L.
      + cbn in E1, E2. subst. discriminate.
      + inversion E1; subst. rewrite ag_after in E. destruct r as [|r]; [apply ag_lhs0 in L; apply after_ne in E; now destruct E|].
        right. right. exists r, 0. split; [auto|]. eapply la_null; [exact V'|exact E|exact L|]. now apply ag_nullable.
    - destruct i as [k d]. destruct IH as [(E1 & -> & -> & E2)|[(E1 & E2)|(k' & d' & E1 & V')]].
      + cbn in *. subst. auto.
      + cbn in E1, E2. subst. discriminate.
      + inversion E1; subst. right. right. exists k', (S d'). split; [auto|]. apply (la_goto U gm (k', d')); auto. }
  intros gm k d t. split.
  - intros V. apply H in V as [(E & _)|[(E & _)|(k' & d' & E & V)]]; try discriminate. now inversion E; subst.
  - intros V. remember (k, d) as i eqn:Ei. assert (K : la G gm (S (fst i), snd i) t); [|now subst i]. clear k d Ei.
    induction V as [r L|gm i A r u V E L F|gm i t A r V IH E L N|gm i t X V IH E].
    + apply la_null with (0, 0) goal; [apply la_init; now apply ag_lhs0|reflexivity|exact L|apply nullable_nil].
    + destruct i as [k d]. apply la_first with (S k, d) A; [now apply valid_UG|exact E|exact L|]. rewrite ag_rest. now apply ag_first.
    + destruct i as [k d]. apply la_null with (S k, d) A; [exact IH|exact E|exact L|]. rewrite ag_rest. now apply ag_nullable.
    + destruct i as [k d]. apply (la_goto G gm (S k, d)); [exact IH|exact E].
Qed.

(** ** States *)
Hypothesis GF : goal_free s.
Hypothesis GD : goal_defined s.

Lemma goal_rule : exists k, lhs_is U k goal.
Proof.
  destruct GD as (r & I). apply In_nth_error in I as (k & E). exists k. unfold lhs_is, rule_of. cbn. rewrite (map_nth_error _ _ _ E). eexists. split; [reflexivity|reflexivity].
Qed.

Lemma after_goal : forall k d, after_dot U (k, d) <> Some (ESym goal).
Proof. intros k d E. apply after_sym in E as (l & r & x & I & Ix & E). inversion E; subst. eapply GF; eauto. Qed.

Lemma goal_init : forall gm k, valid U gm (k, 0) -> lhs_is U k goal -> gm = [].
Proof.
  intros gm k V L. inversion V as [|? i A ? V' E L'|? ? ? ? ? E1 E2]; subst; [auto|].
  destruct L as (rl & E1 & E2), L' as (rl' & E3 & E4). destruct i as [k' d']. rewrite E1 in E3. inversion E3; subst rl'.
  exfalso. apply (after_goal k' d'). now rewrite E, <- E4, E2.
Qed.

Lemma no_goal_goto : forall i, ~ valid U [ESym goal] i.
Proof.
  assert (H : forall gm i, valid U gm i -> gm = [ESym goal] -> False); [|intros i V; eauto].
  intros gm i V. induction V as [r L|gm i A r V IH E L|gm [k d] X V IH E]; intros Eg; [discriminate|auto|].
  inversion Eg; subst. now apply after_goal in E.
Qed.

Lemma vs_GU : forall gm I J, agree I J -> is_valid_set G gm J -> is_valid_set U gm I.
Proof. intros gm I J (A & _) V [k d]. rewrite (A k d), (V (S k, d)). apply ag_valid. Qed.

Section Two.
Variables A B : list lr0_state.
Hypothesis HA : lr0_automaton U A.
Hypothesis HB : lr0_automaton G B.

Lemma A_ne : forall q I sh, nth_error A q = Some (I, sh) -> exists i, In i I.
Proof.
  intros q I sh E. destruct (lr0_nonempty _ _ HA q I sh E) as [->|H]; [|auto].
  destruct (lr0_start _ _ HA) as (I0 & sh0 & E0 & V). rewrite E in E0. inversion E0; subst. destruct goal_rule as (k & L).
  exists (k, 0). apply V. now apply valid_init.
Qed.

Lemma B_ne : forall q I sh, nth_error B q = Some (I, sh) -> exists i, In i I.
Proof.
  intros q I sh E. destruct (lr0_nonempty _ _ HB q I sh E) as [->|H]; [|auto].
  destruct (lr0_start _ _ HB) as (I0 & sh0 & E0 & V). rewrite E in E0. inversion E0; subst.
  exists (0, 0). apply V. apply valid_init. now apply ag_lhs0.
Qed.

Lemma B_start : forall q J sh gm k, nth_error B q = Some (J, sh) -> In (S k, 0) J -> lhs_is U k goal -> is_valid_set G gm J -> gm = [] /\ In (0, 0) J.
Proof.
  intros q J sh gm k E I L V. apply V, ag_valid in I. apply goal_init in I; auto. subst gm. split; [auto|]. apply V. apply valid_init. now apply ag_lhs0.
Qed.

Lemma B_0 : forall q J sh gm, nth_error B q = Some (J, sh) -> In (0, 0) J -> is_valid_set G gm J -> gm = [] /\ forall k, lhs_is U k goal -> In (S k, 0) J.
Proof.
  intros q J sh gm E I V. apply V, valid_GU in I as [(_ & ->)|[(H & _)|(k & d & H & _)]]; try discriminate. split; [auto|].
  intros k L. apply V, valid_UG. now apply valid_init.
Qed.

Lemma vs_UG : forall q' gm I J sh, nth_error B q' = Some (J, sh) -> agree I J -> (exists i, In i I) -> is_valid_set U gm I -> is_valid_set G gm J.
Proof.
  intros q' gm I J sh E (A1 & A2) ([k0 d0] & I0) V. destruct (lr0_sound _ _ HB _ _ _ E) as (gm' & V').
  assert (E0 : gm = [] <-> gm' = []).
  { destruct goal_rule as (k & L). split; intros ->.
    - assert (X : In (k, 0) I) by (apply V; now apply valid_init). apply A1 in X. now apply (B_start _ _ _ _ _ E X L V').
    - assert (X : In (S k, 0) J) by (apply V', valid_UG; now apply valid_init). apply A1 in X. apply V in X. now apply goal_init in X. }
  intros [[|k] d].
  - split.
    + intros X. pose proof X as X'. apply V', valid_GU in X as [(X & Y)|[(X & _)|(k & d' & X & _)]]; [| |discriminate].
      * inversion X; subst. rewrite (proj2 E0 eq_refl). apply valid_init. now apply ag_lhs0.
      * inversion X; subst. now destruct A2.
    + intros X. apply valid_GU in X as [(X & ->)|[(X & ->)|(k & d' & X & _)]]; [| |discriminate].
      * inversion X; subst. apply V'. rewrite (proj1 E0 eq_refl). apply valid_init. now apply ag_lhs0.
      * apply V in I0. now apply no_goal_goto in I0.
  - rewrite <- (A1 k d), (V (k, d)). symmetry. apply ag_valid.
Qed.

(** Every state of A corresponds to exactly one state of B. *)
Lemma agree_ex : forall q I sh, nth_error A q = Some (I, sh) -> exists q' J sh', nth_error B q' = Some (J, sh') /\ agree I J.
Proof.
  intros q I sh E. destruct (A_ne _ _ _ E) as ([k d] & Ik). destruct (lr0_sound _ _ HA _ _ _ E) as (gm & V).
  assert (VG : valid G gm (S k, d)) by now apply valid_UG, V.
  destruct (lr0_complete _ _ HB _ _ VG) as (q' & J & sh' & E' & V'). exists q', J, sh'. split; [auto|]. split.
  - intros k' d'. rewrite (V (k', d')), (V' (S k', d')). symmetry. apply ag_valid.
  - intros X. apply V', valid_GU in X as [(X & _)|[(_ & ->)|(k' & d' & X & _)]]; try discriminate. apply V in Ik. now apply no_goal_goto in Ik.
Qed.

Lemma agree_unique : forall I q1 J1 sh1 q2 J2 sh2, nth_error B q1 = Some (J1, sh1) -> nth_error B q2 = Some (J2, sh2) ->
  agree I J1 -> agree I J2 -> q1 = q2.
Proof.
  intros I q1 J1 sh1 q2 J2 sh2 E1 E2 (A1 & N1) (A2 & N2). apply (lr0_distinct _ _ HB _ _ _ _ _ _ E1 E2).
  destruct goal_rule as (k0 & L).
  assert (X : forall qa Ja sha qb Jb shb, nth_error B qa = Some (Ja, sha) -> nth_error B qb = Some (Jb, shb) ->
    (forall k d, In (k, d) I <-> In (S k, d) Ja) -> (forall k d, In (k, d) I <-> In (S k, d) Jb) -> ~ In (0, 1) Ja -> forall i, In i Ja -> In i Jb).
  { intros qa Ja sha qb Jb shb Ea Eb Ha Hb Na [k d] Ii. destruct (lr0_sound _ _ HB _ _ _ Ea) as (ga & Va). destruct (lr0_sound _ _ HB _ _ _ Eb) as (gb & Vb).
    destruct k as [|k]; [|now apply Hb, Ha]. pose proof (proj1 (Va _) Ii) as X. apply valid_GU in X as [(X & Y)|[(X & _)|(k & d' & X & _)]]; try discriminate.
    - inversion X; subst. apply (B_start qb Jb shb gb k0 Eb); auto. apply Hb, Ha. now apply (B_0 qa Ja sha [] Ea Ii Va).
    - inversion X; subst. contradiction. }
  intros i. split; eapply X; eauto.
Qed.

(** Every state of B that has not read the goal corresponds to exactly one state of A. *)
Lemma agree_ex' : forall q' J sh', nth_error B q' = Some (J, sh') -> ~ In (0, 1) J -> exists q I sh, nth_error A q = Some (I, sh) /\ agree I J.
Proof.
  intros q' J sh' E N. destruct (lr0_sound _ _ HB _ _ _ E) as (gm & V).
  assert (X : exists k d, In (S k, d) J).
  { destruct (B_ne _ _ _ E) as ([k d] & Ik). destruct k as [|k]; [|eauto]. pose proof (proj1 (V _) Ik) as X.
    apply valid_GU in X as [(X & _)|[(X & _)|(k & d' & X & _)]]; try discriminate.
    - inversion X; subst. destruct goal_rule as (k & L). exists k, 0. now apply (B_0 _ _ _ _ E Ik V).
    - inversion X; subst. contradiction. }
  destruct X as (k & d & Ik). apply V, ag_valid in Ik. destruct (lr0_complete _ _ HA _ _ Ik) as (q & I & sh & Eq & VI). exists q, I, sh. split; [auto|]. split; [|auto].
  intros k' d'. rewrite (V (S k', d')), (VI (k', d')). symmetry. apply ag_valid.
Qed.

Lemma agree_unique' : forall J q1 I1 sh1 q2 I2 sh2, nth_error A q1 = Some (I1, sh1) -> nth_error A q2 = Some (I2, sh2) ->
  agree I1 J -> agree I2 J -> q1 = q2.
Proof.
  intros J q1 I1 sh1 q2 I2 sh2 E1 E2 (A1 & _) (A2 & _). apply (lr0_distinct _ _ HA _ _ _ _ _ _ E1 E2). intros [k d]. now rewrite A1, A2.
Qed.

(** Exactly one state of B has read the goal; it has no other item. *)
Lemma final_ex : exists q J sh, nth_error B q = Some (J, sh) /\ In (0, 1) J.
Proof.
  assert (V : valid G [ESym goal] (0, 1)). { apply (valid_goto G [] (0, 0)); [apply valid_init; now apply ag_lhs0|reflexivity]. }
  destruct (lr0_complete _ _ HB _ _ V) as (q & J & sh & E & VJ). exists q, J, sh. split; [auto|now apply VJ].
Qed.

Lemma final_items : forall q J sh, nth_error B q = Some (J, sh) -> In (0, 1) J -> forall i, In i J <-> i = (0, 1).
Proof.
  intros q J sh E I i. destruct (lr0_sound _ _ HB _ _ _ E) as (gm & V). pose proof (proj1 (V _) I) as X.
  apply valid_GU in X as [(X & _)|[(_ & ->)|(k & d' & X & _)]]; try discriminate. split; [|now intros ->].
  intros Ii. apply V, valid_GU in Ii as [(_ & X)|[(-> & _)|(k & d' & -> & X)]]; [discriminate|auto|]. now apply no_goal_goto in X.
Qed.

Lemma final_unique : forall q1 J1 sh1 q2 J2 sh2, nth_error B q1 = Some (J1, sh1) -> nth_error B q2 = Some (J2, sh2) ->
  In (0, 1) J1 -> In (0, 1) J2 -> q1 = q2.
Proof.
  intros q1 J1 sh1 q2 J2 sh2 E1 E2 I1 I2. apply (lr0_distinct _ _ HB _ _ _ _ _ _ E1 E2). intros i.
  now rewrite (final_items _ _ _ E1 I1), (final_items _ _ _ E2 I2).
Qed.

Lemma final_shift : forall q J sh, nth_error B q = Some (J, sh) -> In (0, 1) J -> sh = [].
Proof.
  intros q J sh E I. destruct sh as [|[x p] sh]; [auto|]. destruct (proj1 (lr0_shift _ _ HB q J _ x p E)) as (X & K & sh' & _ & _ & (i & Ii & Ai) & _); [now left|].
  apply (final_items _ _ _ E I) in Ii. subst i. discriminate.
Qed.

(** The start states correspond. *)
Lemma agree_start : exists I sh J sh', nth_error A 0 = Some (I, sh) /\ nth_error B 0 = Some (J, sh') /\ agree I J.
Proof.
  destruct (lr0_start _ _ HA) as (I & sh & E & V). destruct (lr0_start _ _ HB) as (J & sh' & E' & V'). exists I, sh, J, sh'. split; [auto|]. split; [auto|]. split.
  - intros k d. rewrite (V (k, d)), (V' (S k, d)). symmetry. apply ag_valid.
  - intros X. apply V', valid_GU in X as [(X & _)|[(_ & X)|(k & d' & X & _)]]; discriminate.
Qed.

(** Transitions. *)
Lemma agree_succ : forall q I sh q' J sh' p I2 sh2 p' J2 sh2' X,
  nth_error A q = Some (I, sh) -> nth_error B q' = Some (J, sh') -> agree I J ->
  nth_error A p = Some (I2, sh2) -> nth_error B p' = Some (J2, sh2') -> agree I2 J2 ->
  (successor U I X I2 <-> successor G J X J2).
Proof.
  intros q I sh q' J sh' p I2 sh2 p' J2 sh2' X E E' AG Ep Ep' AG2. split.
  - intros (([k d] & Ii & Ai) & S1). split; [exists (S k, d); split; [now apply AG|exact Ai]|]. intros gm V.
    pose proof (S1 gm (vs_GU gm I J AG V)) as V2. apply (vs_UG p' (X :: gm) I2 J2 sh2' Ep' AG2 (A_ne _ _ _ Ep) V2).
  - intros (([k d] & Ii & Ai) & S1). assert (K : exists k d, In (k, d) I /\ after_dot U (k, d) = Some X).
    { destruct k as [|k]; [|exists k, d; split; [now apply AG|exact Ai]]. exfalso. destruct (lr0_sound _ _ HB _ _ _ E') as (gm & V).
      pose proof (proj1 (V _) Ii) as Y. apply valid_GU in Y as [(Y & ->)|[(Y & _)|(k & d' & Y & _)]]; try discriminate.
      - inversion Y; subst. cbn in Ai. injection Ai as <-. apply AG2. apply (S1 _ V). apply (valid_goto G [] (0, 0)); [now apply V|reflexivity].
      - inversion Y; subst. now apply AG. }
    split; [destruct K as (k' & d' & K); exists (k', d'); exact K|]. intros gm V.
    pose proof (vs_UG q' gm I J sh' E' AG (A_ne _ _ _ E) V) as V1. apply (vs_GU (X :: gm) I2 J2 AG2). auto.
Qed.

Lemma agree_shift : forall q I sh q' J sh' p I2 sh2 p' J2 sh2' x,
  nth_error A q = Some (I, sh) -> nth_error B q' = Some (J, sh') -> agree I J ->
  nth_error A p = Some (I2, sh2) -> nth_error B p' = Some (J2, sh2') -> agree I2 J2 ->
  (In (x, p) sh <-> In (x, p') sh').
Proof.
  intros q I sh q' J sh' p I2 sh2 p' J2 sh2' x E E' AG Ep Ep' AG2.
  rewrite (lr0_shift _ _ HA _ _ _ x p E), (lr0_shift _ _ HB _ _ _ x p' E'). split; intros (X & K & sk & Ix & EK & SK).
  - rewrite Ep in EK. injection EK as <- <-. exists X, J2, sh2'. split; [auto|]. split; [auto|]. apply (agree_succ q I sh q' J sh' p I2 sh2 p' J2 sh2' X E E' AG Ep Ep' AG2). exact SK.
  - rewrite Ep' in EK. injection EK as <- <-. exists X, I2, sh2. split; [auto|]. split; [auto|]. apply (agree_succ q I sh q' J sh' p I2 sh2 p' J2 sh2' X E E' AG Ep Ep' AG2). exact SK.
Qed.

(** A token is shifted in a state of A iff in the corresponding state of B. *)
Lemma agree_shifts : forall q I sh q' J sh' x, nth_error A q = Some (I, sh) -> nth_error B q' = Some (J, sh') -> agree I J -> x <> goal ->
  ((exists p, In (x, p) sh) <-> exists p', In (x, p') sh').
Proof.
  intros q I sh q' J sh' x E E' AG NG. split; intros (p & H).
  - destruct (proj1 (lr0_shift _ _ HA _ _ _ x p E) H) as (X & I2 & sh2 & _ & Ep & _). destruct (agree_ex _ _ _ Ep) as (p' & J2 & sh2' & Ep' & AG2).
    exists p'. now apply (agree_shift q I sh q' J sh' p I2 sh2 p' J2 sh2' x E E' AG Ep Ep' AG2).
  - destruct (proj1 (lr0_shift _ _ HB _ _ _ x p E') H) as (X & J2 & sh2' & Ix & Ep' & SU).
    destruct (agree_ex' _ _ _ Ep') as (p0 & I2 & sh2 & Ep & AG2).
    + intros F. destruct (lr0_sound _ _ HB _ _ _ E') as (gm & V). destruct SU as (_ & SU). apply (SU gm V) in F.
      apply valid_GU in F as [(F & _)|[(_ & F)|(k & d' & F & _)]]; try discriminate. inversion F; subst. destruct Ix as [<-|[]]. auto.
    + exists p0. now apply (agree_shift q I sh q' J sh' p0 I2 sh2 p J2 sh2' x E E' AG Ep Ep' AG2).
Qed.

(** Lookaheads. *)
Lemma agree_la : forall q I sh q' J sh' k d t, nth_error A q = Some (I, sh) -> nth_error B q' = Some (J, sh') -> agree I J ->
  ((exists gm, is_valid_set U gm I /\ la U gm (k, d) t) <-> exists gm, is_valid_set G gm J /\ la G gm (S k, d) t).
Proof.
  intros q I sh q' J sh' k d t E E' AG. split; intros (gm & V & L); exists gm.
  - split; [|apply ag_la; exact L]. exact (vs_UG q' gm I J sh' E' AG (A_ne _ _ _ E) V).
  - split; [now apply (vs_GU gm I J)|apply ag_la; exact L].
Qed.
End Two.
End Agree.
