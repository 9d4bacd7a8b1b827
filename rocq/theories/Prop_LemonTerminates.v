(** C18, C14 and C15 together: a parser that lemon generates from a grammar without conflicts ends
    on every input and accepts exactly the sentences. *)
From Coq Require Import List ZArith NArith Bool Lia Arith.
Import ListNotations.
From Verif Require Import Base CLib SpecGrammar SpecGrammarFacts SpecLRFacts SpecLR0 LemonSetModel LemonFirstModel
  LemonSortModel LemonStatesModel LemonStatesProof Prop_LemonStates
  LemonActionModel LemonActionProof Prop_LemonAction LemonCompressModel LemonCompressProof
  LemonReportModel LemonParModel LemonParProof LemonPipelineModel LemonReportProof LemonLookupProof
  Prop_LemonTables Prop_LemonDriver LemonGenProof LemonTabProof LemonSoundProof Prop_LemonSound LemonMachineProof SpecConflict LemonCompleteProof
  Prop_LemonComplete SpecReduceChain LemonFuelProof.
Local Open Scope res_scope.

Section Ends.
Variables (sf ff cf : nat) (o : opts) (g : grammar) (c : gen).
Hypothesis W : wf_grammar g.
Hypothesis SM : small_lists sf ff g.
Hypothesis SNR : start_not_rhs g.
Hypothesis OO : opts_ok g o.
Hypothesis R128 : forall rl, In rl (g_rules g) -> length (r_rhs rl) <= 128.
Hypothesis HG : lemon_generate sf ff cf o g = Ok c.
Hypothesis NE : o_errsym o = None.
Hypothesis AP : all_productive g.
Hypothesis CF : conflict_free g.

Lemma stack_ok : forall grow fuel cap toks p, Forall (fun t => t < g_nterm g) toks ->
  feed c grow fuel (ParseInit cap) (map Z.of_nat toks) 1 = Ok p ->
  exists L aps xs sorted nx, gen_ok g o c (states_view L) aps xs sorted nx /\
    exists gm e r w, p_stack p = e :: r /\ stk g o (states_view L) sorted nx gm (e :: r) w /\ tops0 g o c (states_view L) sorted nx gm (e_state e).
Proof.
  intros grow fuel cap toks p FT HF.
  destruct (generated g o sf ff cf c W SM SNR OO HG) as (L & aps & xs & sorted & nx & _ & _ & GK). exists L, aps, xs, sorted, nx. split; [exact GK|].
  destruct (init_inv g o c _ aps xs sorted nx cap GK) as (gm & e & r & E1 & E2 & E3 & _).
  assert (SI : SInv g o (states_view L) sorted nx (tops0 g o c (states_view L) sorted nx) (ParseInit cap)) by (exists gm, e, r, []; auto).
  clear gm e r E1 E2 E3. revert SI HF. generalize (ParseInit cap) 1. induction toks as [|u toks IH]; intros q n SI HF; cbn [map feed] in HF; [inversion HF; subst; auto|].
  inversion FT as [|? ? T1 T2]; subst. apply bind_Ok in HF as (q1 & HP & HF). apply (IH T2 q1 (S n)); auto.
  destruct SI as (gm & e & r & w & E1 & E2 & E3). apply Parse_run in HP. apply (run_SInv g o c _ aps xs sorted nx W SNR OO GK (rhs128 g R128) NE grow u n q false q1 HP T1).
  exists gm, e, r, w. split; auto. split; auto. destruct E3 as [E3|E3]; [left|right; left]; auto.
Qed.

Lemma call_ends : forall grow fuel cap toks t p, Forall (fun t => t < g_nterm g) toks -> t < g_nterm g ->
  feed c grow fuel (ParseInit cap) (map Z.of_nat toks) 1 = Ok p ->
  forall id, exists N, Parse c grow N p (Z.of_nat t) (Tok id) <> Fuel.
Proof.
  intros grow fuel cap toks t p FT LT HF id. destruct (stack_ok _ _ _ _ _ FT HF) as (L & aps & xs & sorted & nx & GK & gm & e & r & w & E1 & E2 & E3).
  destruct (chain_bound g W SNR AP CF gm (fun n => Parse c grow (S n) p (Z.of_nat t) (Tok id) = Fuel)) as (n & H).
  - intros n. destruct (Parse c grow (S n) p (Z.of_nat t) (Tok id)); [right|right|left]; congruence.
  - intros n H. unfold Parse, top in H. rewrite E1 in H. cbn [bind] in H.
    destruct (loop_chain g o c (states_view L) aps xs sorted nx W SNR OO GK (rhs128 g R128) NE grow t id (S n) p gm e r w false LT E1 E2) as [X|(m & gm' & LM & CH & VI)]; auto; [|discriminate|].
    + destruct E3 as [E3|E3]; [left|right; left]; auto.
    + exists m, gm'. split; [lia|]. auto.
  - exists (S n). exact H.
Qed.

Hypothesis FULL : YY_SHIFT_COUNT (g_tab c) = YY_MAX_SHIFT (g_tab c).
Lemma call_total : forall grow fuel cap toks t p, Forall (fun t => t < g_nterm g) toks -> t < g_nterm g ->
  feed c grow fuel (ParseInit cap) (map Z.of_nat toks) 1 = Ok p ->
  forall id, exists N p', forall fuel', N <= fuel' -> Parse c grow fuel' p (Z.of_nat t) (Tok id) = Ok p'.
Proof.
  intros grow fuel cap toks t p FT LT HF id. destruct (call_ends _ _ _ _ _ _ FT LT HF id) as (N & HN).
  destruct (stack_ok _ _ _ _ _ FT HF) as (L & aps & xs & sorted & nx & GK & gm & e & r & w & E1 & E2 & E3).
  assert (X : Parse c grow N p (Z.of_nat t) (Tok id) = Fuel \/ exists p', Parse c grow N p (Z.of_nat t) (Tok id) = Ok p').
  { unfold Parse, top. rewrite E1. cbn [bind].
    destruct (loop_safe g o c _ aps xs sorted nx W SNR OO GK (rhs128 g R128) NE FULL grow t id N p e r false) as [F|(p' & F & _)]; eauto.
    exists gm, e, r, w. split; auto. split; auto. destruct E3 as [E3|E3]; [left|right; left]; auto. }
  destruct X as [X|(p' & X)]; [congruence|]. exists N, p'. intros fuel' LF. exact (Parse_more_Ok c grow _ _ _ _ _ _ LF X).
Qed.
End Ends.

(** * C18: every call ends *)

(** For a grammar without LALR(1) conflicts whose nonterminals all derive token strings, and
    without an error symbol, a bound on the rounds of each call exists. *)
Theorem C18_conflict_free_terminates : forall sf ff cf o g c,
  wf_grammar g -> small_lists sf ff g -> start_not_rhs g -> opts_ok g o -> (forall rl, In rl (g_rules g) -> length (r_rhs rl) <= 128) ->
  lemon_generate sf ff cf o g = Ok c -> o_errsym o = None -> all_productive g -> conflict_free g ->
  forall grow fuel cap toks t p, Forall (fun t => t < g_nterm g) toks -> t < g_nterm g ->
  feed c grow fuel (ParseInit cap) (map Z.of_nat toks) 1 = Ok p ->
  forall id, exists N, forall fuel', N <= fuel' -> Parse c grow fuel' p (Z.of_nat t) (Tok id) <> Fuel.
Proof.
  intros sf ff cf o g c W SM SNR OO R128 HG NE AP CF grow fuel cap toks t p FT LT HF id.
  destruct (call_ends _ _ _ _ _ _ W SM SNR OO R128 HG NE AP CF _ _ _ _ t _ FT LT HF id) as (N & HN). exists N. intros fuel' L.
  destruct (Parse_more c grow N fuel' p (Z.of_nat t) (Tok id) L) as [E|E]; congruence.
Qed.
Print Assumptions C18_conflict_free_terminates.

(** When yy_shift_ofst covers all states every input, sentence or not, is parsed to its end. *)
Theorem C18_conflict_free_total : forall sf ff cf o g c,
  wf_grammar g -> small_lists sf ff g -> start_not_rhs g -> opts_ok g o -> (forall rl, In rl (g_rules g) -> length (r_rhs rl) <= 128) ->
  lemon_generate sf ff cf o g = Ok c -> o_errsym o = None -> all_productive g -> conflict_free g ->
  YY_SHIFT_COUNT (g_tab c) = YY_MAX_SHIFT (g_tab c) ->
  forall grow cap toks, Forall (fun t => t < g_nterm g) toks ->
  exists N p, forall fuel, N <= fuel -> feed c grow fuel (ParseInit cap) (map Z.of_nat toks) 1 = Ok p.
Proof.
  intros sf ff cf o g c W SM SNR OO R128 HG NE AP CF FULL grow cap toks FT.
  assert (SPLIT : forall f l1 l2 p n, feed c grow f p (l1 ++ l2) n = (p1 <- feed c grow f p l1 n ;; feed c grow f p1 l2 (n + length l1))).
  { intros f l1. induction l1 as [|x l1 IH]; intros l2 p n; cbn [app feed length bind]; [now rewrite Nat.add_0_r|].
    destruct (Parse c grow f p x (Tok n)); cbn [bind]; auto. rewrite IH. now rewrite Nat.add_succ_r. }
  induction toks as [|t toks IH] using rev_ind; [exists 0, (ParseInit cap); intros; reflexivity|].
  apply Forall_app in FT as (FT & F1). apply Forall_inv in F1. destruct (IH FT) as (N & p & HN).
  destruct (call_total _ _ _ _ _ _ W SM SNR OO R128 HG NE AP CF FULL grow N cap toks t p FT F1 (HN N (le_n _)) (1 + length toks)) as (M & p' & HM).
  exists (N + M), p'. intros fuel LF. rewrite map_app, SPLIT, (HN fuel) by lia. cbn [bind map feed]. rewrite map_length.
  rewrite (HM fuel) by lia. reflexivity.
Qed.
Print Assumptions C18_conflict_free_total.

(** * C14 and C15: the parser decides the language *)

(** With a stack that can be grown, and neither %fallback nor %wildcard, the parser ends on every
    token string; it accepts without reporting an error exactly when the string is a sentence. *)
Theorem C15_decides : forall sf ff cf o g c,
  wf_grammar g -> small_lists sf ff g -> start_not_rhs g -> opts_ok g o -> (forall rl, In rl (g_rules g) -> length (r_rhs rl) <= 128) ->
  lemon_generate sf ff cf o g = Ok c -> o_errsym o = None -> all_productive g -> conflict_free g ->
  YY_SHIFT_COUNT (g_tab c) = YY_MAX_SHIFT (g_tab c) -> o_fallback o = None -> o_wildcard o = None ->
  forall grow cap toks, (forall m, (1 <= m)%Z -> exists m', grow m = Some m' /\ (m < m')%Z) -> (1 <= cap)%Z ->
  Forall (fun t => 0 < t < g_nterm g) toks ->
  exists N p p', forall fuel, N <= fuel -> feed c grow fuel (ParseInit cap) (map Z.of_nat toks) 1 = Ok p /\ Parse c grow fuel p 0 (Tok 0) = Ok p' /\
    (sentence g toks <-> In EvAccept (p_log p') /\ ~ In EvOverflow (p_log p') /\ forall m v, ~ In (EvSyntaxError m v) (p_log p')).
Proof.
  intros sf ff cf o g c W SM SNR OO R128 HG NE AP CF FULL NF NW grow cap toks GR CP FT.
  assert (FT' : Forall (fun t => t < g_nterm g) toks) by (eapply Forall_impl; [|exact FT]; cbn; lia).
  destruct (C18_conflict_free_total _ _ _ _ _ _ W SM SNR OO R128 HG NE AP CF FULL grow cap toks FT') as (N & p & HN).
  assert (T0 : 0 < g_nterm g) by exact (proj1 W).
  destruct (call_total _ _ _ _ _ _ W SM SNR OO R128 HG NE AP CF FULL grow N cap toks 0 p FT' T0 (HN N (le_n _)) 0) as (M & p' & HM).
  exists (N + M), p, p'. intros fuel LF. pose proof (HN fuel ltac:(lia)) as H1. pose proof (HM fuel ltac:(lia)) as H2. split; [exact H1|]. split; [exact H2|]. split.
  - intros SE. assert (NW' : forall v, o_wildcard o = Some v -> never_reduced_on g v) by (intros v E; congruence).
    destruct (C15_complete_partial _ _ _ _ _ _ _ W SM SNR OO R128 HG (or_intror (conj NF NW')) FULL CF SE) as (K & N2 & X).
    { intros I. rewrite Forall_forall in FT. specialize (FT 0 I). lia. }
    destruct (X grow cap (N + M + N2)) as (l & q & q' & Q1 & Q2 & Q3 & Q4 & Q5 & _); [right; auto|lia|].
    rewrite (HN (N + M + N2)) in Q1 by lia. injection Q1 as <-. change 0%Z with (Z.of_nat 0) in Q2. rewrite (HM (N + M + N2)) in Q2 by lia. injection Q2 as <-. auto.
  - intros (Q1 & Q2 & Q3). destruct (C14_accepted_is_sentence _ _ _ _ _ _ _ _ _ _ _ _ W SM SNR OO R128 HG FT H1 H2 Q1 Q2 Q3) as (toks' & _ & _ & MA & SE & _).
    replace toks with toks'; [exact SE|]. clear - MA FT NF NW. induction MA as [|x y l l' M1 MA IH]; [reflexivity|]. f_equal; [|apply IH; eapply Forall_inv_tail; eauto].
    destruct M1 as [M1|[(Y0 & M1)|(_ & M1)]]; [congruence| |congruence]. unfold fallback_of in M1. rewrite NF in M1. congruence.
Qed.
Print Assumptions C15_decides.

(** The bracket grammar of C18: s ::= l, l ::= l x, l ::= , x ::= LP l RP, x ::= o ID, o ::= SEMI, o ::= ;
    empty rules and a left recursion through them.  Terminals: 1 LP, 2 RP, 3 ID, 4 SEMI; 5 s, 6 l, 7 x, 8 o. *)
Definition exg18e : grammar := mkGrammar 5 9
  [mkRule 5 [ESym 6]; mkRule 6 [ESym 6; ESym 7]; mkRule 6 []; mkRule 7 [ESym 1; ESym 6; ESym 2]; mkRule 7 [ESym 8; ESym 3]; mkRule 8 [ESym 4]; mkRule 8 []] 5.
Definition exc18e : gen := Eval vm_compute in get_gen (lemon_generate 100 100 100 (plain_opts exg18e) exg18e).

Lemma exg18e_productive : all_productive exg18e.
Proof.
  assert (P8 : derives exg18e [ESym 8] []) by (apply (derives_rule exg18e (mkRule 8 [])); cbn; tauto).
  assert (P6 : derives exg18e [ESym 6] []) by (apply (derives_rule exg18e (mkRule 6 [])); cbn; tauto).
  intros A [H1 H2]. cbn in H1, H2. assert (HA : A = 5 \/ A = 6 \/ A = 7 \/ A = 8) by lia. destruct HA as [->|[->|[->| ->]]].
  - exists []. split; [constructor|]. eapply derives_trans; [apply (derives_rule exg18e (mkRule 5 [ESym 6])); cbn; tauto|exact P6].
  - exists []. split; [constructor|exact P6].
  - exists [3]. split; [repeat constructor|]. eapply derives_trans; [apply (derives_rule exg18e (mkRule 7 [ESym 8; ESym 3])); cbn; tauto|]. exact (derives_app exg18e [ESym 8] [] [ESym 3] [ESym 3] P8 (derives_refl _ _)).
  - exists []. split; [constructor|exact P8].
Qed.

(** ID LP RP is read and accepted; after ID RP the parser ends too, with an error. *)
Example C18_conflict_free_hypotheses : wf_grammar exg18e /\ small_lists 100 100 exg18e /\ start_not_rhs exg18e /\ opts_ok exg18e (plain_opts exg18e) /\
  (forall rl, In rl (g_rules exg18e) -> length (r_rhs rl) <= 128) /\ lemon_generate 100 100 100 (plain_opts exg18e) exg18e = Ok exc18e /\ o_errsym (plain_opts exg18e) = None /\
  all_productive exg18e /\ conflict_free exg18e /\ YY_SHIFT_COUNT (g_tab exc18e) = YY_MAX_SHIFT (g_tab exc18e) /\
  o_fallback (plain_opts exg18e) = None /\ o_wildcard (plain_opts exg18e) = None /\
  (exists p p', feed exc18e (fun n => Some (n + 1)%Z) 50 (ParseInit 1) (map Z.of_nat [3; 1; 2]) 1 = Ok p /\ Parse exc18e (fun n => Some (n + 1)%Z) 50 p 0 (Tok 0) = Ok p' /\ In EvAccept (p_log p')) /\
  exists p, feed exc18e (fun n => Some (n + 1)%Z) 50 (ParseInit 1) (map Z.of_nat [3; 2]) 1 = Ok p /\ In (EvSyntaxError 2 (Tok 2)) (p_log p).
Proof.
  split; [apply wf_grammarb_ok; reflexivity|]. split; [small|]. split; [each_rule ltac:(simpl; intuition discriminate)|]. split; [plain_ok|].
  split; [each_rule ltac:(simpl; lia)|]. split; [vm_compute; reflexivity|]. split; [reflexivity|]. split; [exact exg18e_productive|]. split; [free|].
  split; [vm_compute; reflexivity|]. split; [reflexivity|]. split; [reflexivity|]. split.
  - do 2 eexists. split; [vm_compute; reflexivity|]. split; [vm_compute; reflexivity|]. vm_compute. tauto.
  - eexists. split; [vm_compute; reflexivity|]. vm_compute. tauto.
Qed.
