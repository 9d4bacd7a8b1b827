(** C56: the rules lemon reports as "This rule can not be reduced". *)
From Coq Require Import List ZArith NArith Bool Lia Arith.
Import ListNotations.
From Verif Require Import Base CLib SpecGrammar SpecGrammarFacts SpecLRFacts SpecLR0 SpecReach LemonSetModel LemonFirstModel
  LemonSortModel LemonStatesModel LemonStatesProof Prop_LemonStates
  LemonActionModel LemonActionProof Prop_LemonAction LemonCompressModel LemonCompressProof
  LemonReportModel LemonParModel LemonParProof LemonPipelineModel LemonReportProof LemonLookupProof
  Prop_LemonTables Prop_LemonDriver LemonGenProof LemonTabProof LemonSoundProof Prop_LemonSound LemonMachineProof SpecConflict LemonCompleteProof
  Prop_LemonFollow Prop_LemonComplete.
Local Open Scope res_scope.

Lemma reported_iff : forall addr p ps g L aps n bad, FindActions addr p ps g L = Ok (aps, n, bad) ->
  forall r, In r bad <-> r < length (g_rules g) /\ forall ap t, In ap aps -> ~ In (mkAction REDUCE t r) ap.
Proof.
  intros addr p ps g L aps n bad H r. unfold FindActions in H. apply bind_Ok in H as (raw & _ & H). apply bind_Ok in H as ([a1 m] & _ & H).
  injection H as -> -> <-. rewrite filter_In, in_seq, negb_true_iff. split.
  - intros ((_ & LT) & C). split; [lia|]. intros ap t IA I. enough (canReduce aps r = true) by congruence.
    apply existsb_exists. exists ap. split; auto. apply existsb_exists. exists (mkAction REDUCE t r). split; auto. cbn. apply Nat.eqb_refl.
  - intros (LT & N). split; [lia|]. destruct (canReduce aps r) eqn:C; auto. exfalso. apply existsb_exists in C as (ap & IA & C).
    apply existsb_exists in C as ([ty s x] & I & C). cbn in C. destruct ty; try discriminate. apply Nat.eqb_eq in C. subst x. eapply N; eauto.
Qed.

Definition lemon_report (sf ff : nat) (o : opts) (g : grammar) : res (list (list action) * nat * list nat) :=
  L <- lemon_front sf ff g ;;
  FindActions (o_addr1 o) (o_precs o) (FindRulePrecedences (o_ignorePrec o) (o_yaccPrec o) (o_precs o) g (o_precsym o)) g L.

Lemma report_actions : forall sf ff o g aps n bad, lemon_report sf ff o g = Ok (aps, n, bad) -> lemon_actions sf ff o g = Ok aps.
Proof.
  intros sf ff o g aps n bad H. unfold lemon_report in H. apply bind_Ok in H as (L & HL & H). unfold lemon_actions. rewrite HL. cbn [bind].
  cbv zeta. rewrite H. reflexivity.
Qed.

(** A rule of a nonterminal that no sentential form contains is reported, for
    every grammar. *)
Theorem C56_unreachable_reported : forall sf ff o g aps n bad r rl, wf_grammar g -> small_lists sf ff g -> start_not_rhs g ->
  lemon_report sf ff o g = Ok (aps, n, bad) -> rule_of g r = Some rl -> ~ reachable g (r_lhs rl) -> In r bad.
Proof.
  intros sf ff o g aps n bad r rl W SM SNR H R NR. pose proof (report_actions _ _ _ _ _ _ _ H) as HA.
  destruct (actions_resolved _ _ _ _ _ W SM SNR HA) as (L & HL & RS).
  unfold lemon_report in H. rewrite HL in H. cbn [bind] in H. apply (reported_iff _ _ _ _ _ _ _ _ H).
  split. { apply nth_error_Some. unfold rule_of in R. congruence. }
  intros ap t IA I. apply In_nth_error in IA as (q & Hq). pose proof (rs_live _ _ _ RS q ap _ Hq I eq_refl) as (_ & D). cbn in D.
  destruct D as (rl' & I0 & sh & gm & R' & _ & _ & _ & LA). apply NR. rewrite R in R'. injection R' as <-.
  apply la_valid in LA. eapply (valid_reachable g gm); eauto.
Qed.
Print Assumptions C56_unreachable_reported.

(** When the grammar has no conflicts and no unproductive nonterminal, nothing
    else is reported: the reported rules are exactly those of the unreachable
    nonterminals. *)
Theorem C56_reported_unreachable : forall sf ff o g aps n bad, wf_grammar g -> small_lists sf ff g -> start_not_rhs g ->
  all_productive g -> conflict_free g -> lemon_report sf ff o g = Ok (aps, n, bad) ->
  forall r, In r bad <-> exists rl, rule_of g r = Some rl /\ ~ reachable g (r_lhs rl).
Proof.
  intros sf ff o g aps n bad W SM SNR AP CF H r. split; [|intros (rl & R & NR); eapply C56_unreachable_reported; eauto].
  pose proof (report_actions _ _ _ _ _ _ _ H) as HA. destruct (actions_resolved _ _ _ _ _ W SM SNR HA) as (L & HL & RS).
  unfold lemon_report in H. rewrite HL in H. cbn [bind] in H. intros I. apply (reported_iff _ _ _ _ _ _ _ _ H) in I as (LT & N).
  destruct (nth_error_lt_ex _ (g_rules g) r LT) as (rl & R). exists rl. split; auto. intros RE.
  destruct (reachable_valid g W _ r rl RE R eq_refl) as (gm & V).
  destruct (valid_valid1 g W AP _ _ V) as (t & V1). apply valid1_la in V1.
  destruct (lr0_complete _ _ (rs_auto _ _ _ RS) _ _ V) as (q & I & sh & HI & VS).
  destruct (nth_error_lt_ex _ aps q) as (ap & Hq). { rewrite (rs_len _ _ _ RS). eapply nth_error_Some_lt; eauto. }
  destruct (conflict_free_lists _ _ _ _ _ _ W SM SNR HA HL RS CF) as (_ & _ & K).
  apply (N ap t (nth_error_In _ _ Hq)). apply (K q ap gm r rl t); auto; [exists I, sh; auto|]. eapply la_term; eauto.
Qed.
Print Assumptions C56_reported_unreachable.

Lemma elided_incl : forall X (P : X -> Prop) l l' x, elided P l l' -> In x l' -> In x l.
Proof. intros X P l l' x E. induction E; intros I; auto; [destruct I as [->|I]; [left; auto|right; auto]|right; auto]. Qed.

Lemma arun_reduces : forall g o aps qs id ts P, arun g o aps qs id ts P -> forall k, In (Re k) P ->
  exists r t ap, k = Z.of_nat (ri_iRule (opts_rinfo o) r) /\ In ap aps /\ In (mkAction REDUCE t r) ap /\ r < length (g_rules g).
Proof.
  assert (RL : forall g r rl, rule_of g r = Some rl -> r < length (g_rules g)). { intros g r rl R. apply nth_error_Some. unfold rule_of in R. congruence. }
  intros g o aps qs id ts P H. induction H; intros k I.
  - destruct I as [E|I]; [discriminate|]. auto.
  - destruct I as [E|I]; auto. injection E as <-. exists r, (hd 0 ts), ap. split; auto. split; [eapply nth_error_In; eauto|]. split; auto. eapply RL; eauto.
  - destruct I as [E|[]]. injection E as <-. exists r, 0, ap. split; auto. split; [eapply nth_error_In; eauto|]. split; auto. eapply RL; eauto.
Qed.

(** The generated parser never reduces by a reported rule on its way to accepting
    an input. *)
Theorem C56_never_reduced : forall sf ff cf o g c aps n bad r,
  wf_grammar g -> small_lists sf ff g -> start_not_rhs g -> opts_ok g o -> (forall rl, In rl (g_rules g) -> length (r_rhs rl) <= 128) ->
  o_fallback o = None -> o_wildcard o = None ->
  (forall t, p_prec (o_precs o) t <> None -> p_assoc (o_precs o) t <> NONE /\ p_assoc (o_precs o) t <> PRECEDENCE) ->
  lemon_report sf ff o g = Ok (aps, n, bad) -> lemon_generate sf ff cf o g = Ok c -> YY_SHIFT_COUNT (g_tab c) = YY_MAX_SHIFT (g_tab c) ->
  In r bad -> forall grow cap fuel toks l, Forall (fun t => 0 < t < g_nterm g) toks -> accepts c grow cap fuel toks l ->
  ~ In (Re (Z.of_nat (ri_iRule (opts_rinfo o) r))) l.
Proof.
  intros sf ff cf o g c aps n bad r W SM SNR OO R128 NFB NWC AS HR HG F IB grow cap fuel toks l FT AC J.
  destruct (generated_from g _ sf ff cf c W SM SNR OO HG) as (L & aps' & xs & so & nx & _ & HL & HA & GK).
  pose proof (report_actions _ _ _ _ _ _ _ HR) as HA'. rewrite HA in HA'. injection HA' as ->.
  destruct (actions_survive sf ff o g aps L W SM HA HL AS) as (NOE & SURV).
  destruct (accepted_run _ _ _ _ _ _ _ _ W SNR OO GK R128 NOE F SURV NFB NWC _ _ _ _ _ FT AC) as (P & AR & EL).
  apply (elided_incl _ _ _ _ _ EL) in J. destruct (arun_reduces _ _ _ _ _ _ _ AR _ J) as (r' & t & ap & E & IA & I & LT).
  unfold lemon_report in HR. rewrite HL in HR. cbn [bind] in HR. apply (reported_iff _ _ _ _ _ _ _ _ HR) in IB as (LT' & N).
  apply Nat2Z.inj in E. apply (irule_inj g o OO r r' LT' LT) in E. subst r'. eapply N; eauto.
Qed.
Print Assumptions C56_never_reduced.

(** Terminals: 1 PLUS, 2 ID, 3 LP, 4 RP; 5 s, 6 e, 7 t, 8 u, with the rules
    s ::= e.  e ::= e PLUS t | t.  t ::= ID | LP e RP.  u ::= u PLUS e | e. *)
Definition exg56 : grammar := mkGrammar 5 9
  [mkRule 5 [ESym 6]; mkRule 6 [ESym 6; ESym 1; ESym 7]; mkRule 6 [ESym 7]; mkRule 7 [ESym 2]; mkRule 7 [ESym 3; ESym 6; ESym 4];
   mkRule 8 [ESym 8; ESym 1; ESym 6]; mkRule 8 [ESym 6]] 5.
Definition exo56 : opts := mkOpts false false true (mkPrecs (fun _ => None) (fun _ => UNK)) (repeat None 7) (repeat false 7) None None None (fun _ i => i) (fun _ i => i).
Definition exc56 : gen := get_gen (lemon_generate 100 100 100 exo56 exg56).

(** The two rules of u, and only they, are reported. *)
Example C56_hypotheses : wf_grammar exg56 /\ small_lists 100 100 exg56 /\ start_not_rhs exg56 /\ all_productive exg56 /\ conflict_free exg56 /\
  (exists aps n, lemon_report 100 100 exo56 exg56 = Ok (aps, n, [5; 6])) /\
  opts_ok exg56 exo56 /\ lemon_generate 100 100 100 exo56 exg56 = Ok exc56 /\ YY_SHIFT_COUNT (g_tab exc56) = YY_MAX_SHIFT (g_tab exc56) /\
  accepts exc56 (fun _ => None) 50 100 [2; 1; 3; 2; 4] [Sh 1; Re 3; Re 2; Sh 2; Sh 3; Sh 4; Re 3; Re 2; Sh 5; Re 4; Re 1; Re 0].
Proof.
  split; [apply wf_grammarb_ok; reflexivity|]. split; [small|]. split; [each_rule ltac:(simpl; intuition discriminate)|]. split.
  { assert (P7 : derives exg56 [ESym 7] [ESym 2]) by (apply (derives_one exg56 (mkRule 7 [ESym 2])); simpl; tauto).
    assert (P6 : derives exg56 [ESym 6] [ESym 2]) by (eapply star_trans; [apply (derives_one exg56 (mkRule 6 [ESym 7])); simpl; tauto|exact P7]).
    assert (P5 : derives exg56 [ESym 5] [ESym 2]) by (eapply star_trans; [apply (derives_one exg56 (mkRule 5 [ESym 6])); simpl; tauto|exact P6]).
    assert (P8 : derives exg56 [ESym 8] [ESym 2]) by (eapply star_trans; [apply (derives_one exg56 (mkRule 8 [ESym 6])); simpl; tauto|exact P6]).
    intros A [H1 H2]. simpl in H1, H2. exists [2]. split; [repeat constructor|].
    assert (HA : A = 5 \/ A = 6 \/ A = 7 \/ A = 8) by lia. destruct HA as [->|[->|[->| ->]]]; auto. }
  split; [free|]. split; [do 2 eexists; vm_compute; reflexivity|]. split; [plain_ok|]. split; [vm_compute; reflexivity|]. split; [vm_compute; reflexivity|].
  do 2 eexists. split; [vm_compute; reflexivity|]. split; [vm_compute; reflexivity|]. no_events. vm_compute. reflexivity.
Qed.

(** A conflict can hide a rule of a reachable nonterminal: of s ::= a | b, a ::= X,
    b ::= X the last is reported. *)
Theorem C56_conflict_refuted : exists g o aps n r rl, wf_grammar g /\ small_lists 100 100 g /\ start_not_rhs g /\ all_productive g /\
  lemon_report 100 100 o g = Ok (aps, n, [r]) /\ n = 1 /\ rule_of g r = Some rl /\ reachable g (r_lhs rl).
Proof.
  set (g := mkGrammar 2 5 [mkRule 2 [ESym 3]; mkRule 2 [ESym 4]; mkRule 3 [ESym 1]; mkRule 4 [ESym 1]] 2).
  exists g, (mkOpts false false true (mkPrecs (fun _ => None) (fun _ => UNK)) (repeat None 4) (repeat false 4) None None None (fun _ i => i) (fun _ i => i)).
  do 2 eexists. exists 3, (mkRule 4 [ESym 1]).
  split; [apply wf_grammarb_ok; reflexivity|]. split; [small|]. split; [each_rule ltac:(simpl; intuition discriminate)|]. split.
  { assert (P3 : derives g [ESym 3] [ESym 1]) by (apply (derives_one g (mkRule 3 [ESym 1])); simpl; tauto).
    assert (P4 : derives g [ESym 4] [ESym 1]) by (apply (derives_one g (mkRule 4 [ESym 1])); simpl; tauto).
    assert (P2 : derives g [ESym 2] [ESym 1]) by (eapply star_trans; [apply (derives_one g (mkRule 2 [ESym 3])); simpl; tauto|exact P3]).
    intros A [H1 H2]. simpl in H1, H2. exists [1]. split; [repeat constructor|].
    assert (HA : A = 2 \/ A = 3 \/ A = 4) by lia. destruct HA as [->|[->| ->]]; auto. }
  split; [vm_compute; reflexivity|]. split; [reflexivity|]. split; [reflexivity|].
  exists [], []. apply (derives_one g (mkRule 2 [ESym 4])). simpl. tauto.
Qed.
Print Assumptions C56_conflict_refuted.

(** So can an unproductive nonterminal: s ::= y x | A, x ::= x A, y ::= B has no
    conflict, but nothing can follow y, and y ::= B is reported. *)
Theorem C56_unproductive_refuted : exists g o aps r rl, wf_grammar g /\ small_lists 100 100 g /\ start_not_rhs g /\ conflict_free g /\
  lemon_report 100 100 o g = Ok (aps, 0, [r]) /\ rule_of g r = Some rl /\ reachable g (r_lhs rl).
Proof.
  set (g := mkGrammar 3 6 [mkRule 3 [ESym 4; ESym 5]; mkRule 3 [ESym 1]; mkRule 5 [ESym 5; ESym 1]; mkRule 4 [ESym 2]] 3).
  exists g, (mkOpts false false true (mkPrecs (fun _ => None) (fun _ => UNK)) (repeat None 4) (repeat false 4) None None None (fun _ i => i) (fun _ i => i)).
  eexists. exists 3, (mkRule 4 [ESym 2]).
  split; [apply wf_grammarb_ok; reflexivity|]. split; [small|]. split; [each_rule ltac:(simpl; intuition discriminate)|]. split; [free|].
  split; [vm_compute; reflexivity|]. split; [reflexivity|].
  exists [], [ESym 5]. apply (derives_one g (mkRule 3 [ESym 4; ESym 5])). simpl. tauto.
Qed.
Print Assumptions C56_unproductive_refuted.
