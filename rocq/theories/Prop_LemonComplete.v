(** C12 table compression preserves parsing, and C15 completeness of the generated
    lemon parsers. *)
From Coq Require Import List ZArith NArith Bool Lia Arith.
Import ListNotations.
From Verif Require Import Base CLib SpecGrammar SpecGrammarFacts SpecLRFacts SpecLR0 LemonSetModel LemonFirstModel
  LemonSortModel LemonStatesModel LemonStatesProof Prop_LemonStates
  LemonActionModel LemonActionProof Prop_LemonAction LemonCompressModel LemonCompressProof
  LemonReportModel LemonParModel LemonParProof LemonPipelineModel LemonReportProof LemonLookupProof
  Prop_LemonTables Prop_LemonDefault Prop_LemonDriver LemonGenProof LemonTabProof LemonSoundProof Prop_LemonSound LemonMachineProof SpecConflict LemonCompleteProof.
Local Open Scope res_scope.

(** [accepts c grow cap fuel toks l]: the parser, with a stack of [cap] entries and
    [grow] as its growth function, accepts the tokens [toks] without reporting a
    syntax error or a stack overflow, and [l] are its shifts (of the token with that
    number) and reductions (by the rule with that number) in order. *)
Definition accepts (c : gen) (grow : Z -> option Z) (cap : Z) (fuel : nat) (toks : list nat) (l : list pstep) : Prop :=
  exists p p', feed c grow fuel (ParseInit cap) (map Z.of_nat toks) 1 = Ok p /\ Parse c grow fuel p 0 (Tok 0) = Ok p' /\
    In EvAccept (p_log p') /\ ~ In EvOverflow (p_log p') /\ (forall m v, ~ In (EvSyntaxError m v) (p_log p')) /\ psteps (p_log p') = l.

(** Enough stack: [K] entries, or a stack that can always be grown. *)
Definition stack_for (K : nat) (grow : Z -> option Z) (cap : Z) : Prop :=
  (Z.of_nat K <= cap)%Z \/ ((forall m, (1 <= m)%Z -> exists m', grow m = Some m' /\ (m < m')%Z) /\ (1 <= cap)%Z).

Definition with_compress (o : opts) (b : bool) : opts :=
  mkOpts (o_ignorePrec o) (o_yaccPrec o) b (o_precs o) (o_precsym o) (o_noCode o) (o_wildcard o) (o_errsym o) (o_fallback o) (o_addr1 o) (o_addr2 o).

(** A reduction by a rule A ::= B without code. *)
Definition unit_step (g : grammar) (o : opts) (s : pstep) : Prop :=
  exists r, s = Re (Z.of_nat (ri_iRule (opts_rinfo o) r)) /\ unit_rule g o r.

Lemma elided_impl : forall X (P Q : X -> Prop) l l', (forall x, P x -> Q x) -> elided P l l' -> elided Q l l'.
Proof. intros X P Q l l' H E. induction E; [constructor|apply el_keep|apply el_skip]; auto. Qed.

Lemma elided_none : forall X (P : X -> Prop) l l', (forall x, ~ P x) -> elided P l l' -> l = l'.
Proof. intros X P l l' H E. induction E; auto; [congruence|]. exfalso; eapply H; eauto. Qed.

Lemma accepted_run : forall g o c L aps xs sorted nx, wf_grammar g -> start_not_rhs g -> opts_ok g o -> gen_ok g o c (states_view L) aps xs sorted nx ->
  (forall rl, In rl (g_rules g) -> length (r_rhs rl) <= 128) ->
  (forall ap a, In ap aps -> In a ap -> iserr a = false) ->
  YY_SHIFT_COUNT (g_tab c) = YY_MAX_SHIFT (g_tab c) ->
  (forall q ap gm r rl t, nth_error aps q = Some ap -> path g (states_view L) gm q -> rule_of g r = Some rl ->
     la g gm (r, length (r_rhs rl)) t -> t < g_nterm g -> exists a, In a ap /\ exec a = true /\ a_sp a = t) ->
  o_fallback o = None -> o_wildcard o = None ->
  forall grow cap fuel toks l, Forall (fun t => 0 < t < g_nterm g) toks -> accepts c grow cap fuel toks l ->
  exists P, arun g o aps [0] 1 toks P /\ elided (elidable g o xs) P l.
Proof.
  intros g o c L aps xs sorted nx W SNR OO GK R128 NOE FULL SURV NFB NWC grow cap fuel toks l FT (p & p' & HF & HP & AC & NOV & NSE & <-).
  assert (CL : clean (p_log p')). { intros ev I. destruct ev; auto. eapply NSE; eauto. }
  destruct (feed_cacc g o c _ aps xs sorted nx W SNR OO GK (rhs128 g R128) grow fuel toks _ _ _ _ _ HF HP FT (init_inv _ _ _ _ _ _ _ _ cap GK) CL AC) as (P & EP & CA).
  cbn in EP. rewrite EP.
  destruct (back g o c _ aps xs sorted nx W SNR OO GK (rhs128 g R128) NOE FULL SURV NFB NWC _ _ _ _ CA FT [0] []) as (X & _); [|exact X].
  cbn. apply sr_nil. auto.
Qed.

Lemma run_accepted : forall g o c A aps xs sorted nx, wf_grammar g -> start_not_rhs g -> opts_ok g o -> gen_ok g o c A aps xs sorted nx ->
  (forall rl, In rl (g_rules g) -> length (r_rhs rl) <= 128) ->
  (forall ap a, In ap aps -> In a ap -> iserr a = false) ->
  YY_SHIFT_COUNT (g_tab c) = YY_MAX_SHIFT (g_tab c) -> no_detour g o xs ->
  forall toks P, Forall (fun t => 0 < t < g_nterm g) toks -> arun g o aps [0] 1 toks P ->
  exists K N, forall grow cap fuel, stack_for K grow cap -> N <= fuel ->
    exists l, accepts c grow cap fuel toks l /\ elided (elidable g o xs) P l.
Proof.
  intros g o c A aps xs sorted nx W SNR OO GK R128 NOE FULL ND toks P FT AR.
  destruct (sim g o c A aps xs sorted nx W SNR OO GK (rhs128 g R128) NOE FULL ND _ _ _ _ AR FT) as (K & N & H).
  exists K, N. intros grow cap fuel ST LF.
  destruct (H grow (ParseInit cap) [] fuel fuel) as (p' & P' & F & PS & EL & AC & CL); auto.
  - cbn. apply sr_nil. auto.
  - rewrite <- finish_feed in F. apply bind_Ok in F as (p & HF & HP). exists P'. split; auto. exists p, p'. split; auto. split; auto. split; auto.
    assert (CL' : clean (p_log p')). { apply CL. intros ev []. }
    split; [intros I; exact (CL' _ I)|]. split; [intros m v I; exact (CL' _ I)|]. rewrite PS. auto.
Qed.

(** * C12 *)

(** With no %fallback, %wildcard, %nonassoc and %precedence, and tables covering
    all states, the parsers generated with and without compression accept the same
    token sequences by the same shifts and reductions, except that the compressed
    one may leave out reductions by rules A ::= B without code. *)
Theorem C12_compression_partial : forall sf ff cf o g c1 c2 toks,
  wf_grammar g -> small_lists sf ff g -> start_not_rhs g -> opts_ok g o -> (forall rl, In rl (g_rules g) -> length (r_rhs rl) <= 128) ->
  o_fallback o = None -> o_wildcard o = None ->
  (forall t, p_prec (o_precs o) t <> None -> p_assoc (o_precs o) t <> NONE /\ p_assoc (o_precs o) t <> PRECEDENCE) ->
  lemon_generate sf ff cf (with_compress o true) g = Ok c1 -> lemon_generate sf ff cf (with_compress o false) g = Ok c2 ->
  YY_SHIFT_COUNT (g_tab c1) = YY_MAX_SHIFT (g_tab c1) -> YY_SHIFT_COUNT (g_tab c2) = YY_MAX_SHIFT (g_tab c2) ->
  Forall (fun t => 0 < t < g_nterm g) toks ->
  (forall grow cap fuel l, accepts c1 grow cap fuel toks l -> exists K N, forall grow' cap' fuel', stack_for K grow' cap' -> N <= fuel' ->
     exists l2, accepts c2 grow' cap' fuel' toks l2 /\ elided (unit_step g o) l2 l) /\
  (forall grow cap fuel l, accepts c2 grow cap fuel toks l -> exists K N, forall grow' cap' fuel', stack_for K grow' cap' -> N <= fuel' ->
     exists l1, accepts c1 grow' cap' fuel' toks l1 /\ elided (unit_step g o) l l1).
Proof.
  intros sf ff cf o g c1 c2 toks W SM SNR OO R128 NFB NWC AS H1 H2 F1 F2 FT.
  assert (O1 : opts_ok g (with_compress o true)) by (destruct OO; constructor; auto).
  assert (O2 : opts_ok g (with_compress o false)) by (destruct OO; constructor; auto).
  destruct (generated_from g _ sf ff cf c1 W SM SNR O1 H1) as (L & aps & xs1 & so1 & nx1 & _ & HL & HA & GK1).
  destruct (generated_from g _ sf ff cf c2 W SM SNR O2 H2) as (L' & aps' & xs2 & so2 & nx2 & UN & HL' & HA' & GK2).
  rewrite HL in HL'. injection HL' as HL'. subst L'.
  assert (EA : lemon_actions sf ff (with_compress o true) g = lemon_actions sf ff (with_compress o false) g) by reflexivity.
  rewrite EA, HA' in HA. injection HA as HA. subst aps'. clear EA.
  destruct (actions_survive sf ff (with_compress o false) g aps L W SM HA' HL AS) as (NOE & SURV).
  assert (D1 : no_detour g (with_compress o true) xs1) by (right; split; [exact NFB|]; cbn; intros; congruence).
  assert (D2 : no_detour g (with_compress o false) xs2) by (right; split; [exact NFB|]; cbn; intros; congruence).
  assert (N2 : forall s, ~ elidable g (with_compress o false) xs2 s).
  { intros s (q & r & _ & AU & _). rewrite (proj1 UN) in AU by reflexivity. unfold auto_of, uncompressed in AU. rewrite nth_error_map in AU.
    destruct (nth_error aps q); discriminate. }
  assert (I1 : forall s, elidable g (with_compress o true) xs1 s -> unit_step g o s).
  { intros s (q & r & E & _ & U). exists r. split; auto. }
  split.
  - intros grow cap fuel l AC.
    destruct (accepted_run _ _ _ _ _ _ _ _ W SNR O1 GK1 R128 NOE F1 SURV NFB NWC _ _ _ _ _ FT AC) as (P & AR & EL).
    apply (arun_opts _ _ (with_compress o false)) in AR; [|reflexivity].
    destruct (run_accepted _ _ _ _ _ _ _ _ W SNR O2 GK2 R128 NOE F2 D2 _ _ FT AR) as (K & N & X).
    exists K, N. intros grow' cap' fuel' ST LF. destruct (X _ _ _ ST LF) as (l2 & AC2 & EL2). exists l2. split; auto.
    apply elided_none in EL2; auto. subst l2. eapply elided_impl; eauto.
  - intros grow cap fuel l AC.
    destruct (accepted_run _ _ _ _ _ _ _ _ W SNR O2 GK2 R128 NOE F2 SURV NFB NWC _ _ _ _ _ FT AC) as (P & AR & EL).
    apply elided_none in EL; auto. subst P.
    apply (arun_opts _ _ (with_compress o true)) in AR; [|reflexivity].
    destruct (run_accepted _ _ _ _ _ _ _ _ W SNR O1 GK1 R128 NOE F1 D1 _ _ FT AR) as (K & N & X).
    exists K, N. intros grow' cap' fuel' ST LF. destruct (X _ _ _ ST LF) as (l2 & AC2 & EL2). exists l2. split; auto.
    eapply elided_impl; eauto.
Qed.
Print Assumptions C12_compression_partial.

(** Expressions with a unit rule without code.  Terminals: 1 PLUS, 2 ID, 3 LP, 4 RP; 5 s, 6 e, 7 t. *)
Definition exg12 : grammar := mkGrammar 5 8
  [mkRule 5 [ESym 6]; mkRule 6 [ESym 6; ESym 1; ESym 7]; mkRule 6 [ESym 7]; mkRule 7 [ESym 2]; mkRule 7 [ESym 3; ESym 6; ESym 4]] 5.
Definition exo12 : opts :=
  mkOpts false false true (mkPrecs (fun s => if s =? 1 then Some 1 else None) (fun s => if s =? 1 then LEFT else UNK))
    [None; None; None; None; None] [false; false; true; false; false] None None None (fun _ i => i) (fun _ i => i).
Definition exc12 (b : bool) : gen := get_gen (lemon_generate 100 100 100 (with_compress exo12 b) exg12).

Ltac plain_ok := constructor; [reflexivity| | |]; cbn; intros ? ?; discriminate.
Ltac each_rule t := intros rl H; repeat (destruct H as [<-|H]; [t|]); destruct H.
Ltac small := eapply small_lists_ex; [vm_compute; reflexivity|vm_compute; reflexivity|reflexivity|reflexivity].
Ltac no_events := split; [vm_compute; tauto|]; split; [vm_compute; intuition discriminate|]; split; [intros m v; vm_compute; intuition discriminate|].

(** On ID PLUS LP ID RP the compressed parser leaves out both reductions by e ::= t. *)
Example C12_hypotheses :
  wf_grammar exg12 /\ small_lists 100 100 exg12 /\ start_not_rhs exg12 /\ opts_ok exg12 exo12 /\ (forall rl, In rl (g_rules exg12) -> length (r_rhs rl) <= 128) /\
  o_fallback exo12 = None /\ o_wildcard exo12 = None /\
  (forall t, p_prec (o_precs exo12) t <> None -> p_assoc (o_precs exo12) t <> NONE /\ p_assoc (o_precs exo12) t <> PRECEDENCE) /\
  lemon_generate 100 100 100 (with_compress exo12 true) exg12 = Ok (exc12 true) /\ lemon_generate 100 100 100 (with_compress exo12 false) exg12 = Ok (exc12 false) /\
  YY_SHIFT_COUNT (g_tab (exc12 true)) = YY_MAX_SHIFT (g_tab (exc12 true)) /\ YY_SHIFT_COUNT (g_tab (exc12 false)) = YY_MAX_SHIFT (g_tab (exc12 false)) /\
  accepts (exc12 true) (fun _ => None) 50 100 [2; 1; 3; 2; 4] [Sh 1; Re 2; Sh 2; Sh 3; Sh 4; Re 2; Sh 5; Re 3; Re 1; Re 0] /\
  accepts (exc12 false) (fun _ => None) 50 100 [2; 1; 3; 2; 4] [Sh 1; Re 2; Re 4; Sh 2; Sh 3; Sh 4; Re 2; Re 4; Sh 5; Re 3; Re 1; Re 0].
Proof.
  split; [apply wf_grammarb_ok; reflexivity|]. split; [small|]. split; [each_rule ltac:(simpl; intuition discriminate)|]. split; [plain_ok|].
  split; [each_rule ltac:(simpl; lia)|]. split; [reflexivity|]. split; [reflexivity|].
  split. { intros t. cbn. destruct (t =? 1); [intros _; split; discriminate|congruence]. }
  split; [vm_compute; reflexivity|]. split; [vm_compute; reflexivity|]. split; [vm_compute; reflexivity|]. split; [vm_compute; reflexivity|].
  split; do 2 eexists; (split; [vm_compute; reflexivity|]; split; [vm_compute; reflexivity|]; no_events; vm_compute; reflexivity).
Qed.

(** %nonassoc EQ with %left PLUS: on ID EQ ID EQ ID the uncompressed parser
    accepts, the compressed one reports a syntax error at the second EQ.  Terminals: 1 EQ, 2 PLUS, 3 ID. *)
Definition exg12n : grammar := mkGrammar 4 6
  [mkRule 4 [ESym 5]; mkRule 5 [ESym 5; ESym 1; ESym 5]; mkRule 5 [ESym 5; ESym 2; ESym 5]; mkRule 5 [ESym 3]] 4.
Definition exo12n : opts :=
  mkOpts false false true (mkPrecs (fun s => if s =? 1 then Some 1 else if s =? 2 then Some 2 else None)
                                   (fun s => if s =? 1 then NONE else if s =? 2 then LEFT else UNK))
    [None; None; None; None] [false; false; false; false] None None None (fun _ i => i) (fun _ i => i).

Theorem C12_nonassoc_refuted : exists o g c1 c2 l p p' toks,
  wf_grammar g /\ small_lists 100 100 g /\ start_not_rhs g /\ opts_ok g o /\ (forall rl, In rl (g_rules g) -> length (r_rhs rl) <= 128) /\
  o_fallback o = None /\ o_wildcard o = None /\
  lemon_generate 100 100 100 (with_compress o true) g = Ok c1 /\ lemon_generate 100 100 100 (with_compress o false) g = Ok c2 /\
  YY_SHIFT_COUNT (g_tab c1) = YY_MAX_SHIFT (g_tab c1) /\ YY_SHIFT_COUNT (g_tab c2) = YY_MAX_SHIFT (g_tab c2) /\
  Forall (fun t => 0 < t < g_nterm g) toks /\
  accepts c2 (fun _ => None) 50 100 toks l /\
  feed c1 (fun _ => None) 100 (ParseInit 50) (map Z.of_nat toks) 1 = Ok p /\ Parse c1 (fun _ => None) 100 p 0 (Tok 0) = Ok p' /\
  In (EvSyntaxError 1 (Tok 4)) (p_log p').
Proof.
  exists exo12n, exg12n. do 5 eexists. exists [3; 1; 3; 1; 3].
  split; [apply wf_grammarb_ok; reflexivity|]. split; [small|]. split; [each_rule ltac:(simpl; intuition discriminate)|]. split; [plain_ok|].
  split; [each_rule ltac:(simpl; lia)|]. split; [reflexivity|]. split; [reflexivity|].
  split; [vm_compute; reflexivity|]. split; [vm_compute; reflexivity|]. split; [vm_compute; reflexivity|]. split; [vm_compute; reflexivity|].
  split; [repeat constructor|].
  split. { do 2 eexists. split; [vm_compute; reflexivity|]; split; [vm_compute; reflexivity|]; no_events; vm_compute; reflexivity. }
  split; [vm_compute; reflexivity|]. split; [vm_compute; reflexivity|]. vm_compute. tauto.
Qed.
Print Assumptions C12_nonassoc_refuted.

(** s ::= a KW | X ID X, a ::= X, with KW falling back to ID and no conflict.  On X KW the
    uncompressed parser accepts.  Compression turns the reduction of X to a on KW
    into the default, the compressed parser tries the fallback first and shifts
    KW as ID; then it reports a syntax error.  Terminals: 1 ID, 2 KW, 3 X. *)
Definition exg12f : grammar := mkGrammar 4 6 [mkRule 4 [ESym 5; ESym 2]; mkRule 4 [ESym 3; ESym 1; ESym 3]; mkRule 5 [ESym 3]] 4.
Definition exo12f : opts :=
  mkOpts false false true (mkPrecs (fun s => None) (fun s => UNK)) [None; None; None] [false; false; false] None None (Some [0; 0; 1; 0]) (fun _ i => i) (fun _ i => i).

Theorem C12_fallback_refuted : exists o g c1 c2 l p p' toks,
  wf_grammar g /\ small_lists 100 100 g /\ start_not_rhs g /\ opts_ok g o /\ (forall rl, In rl (g_rules g) -> length (r_rhs rl) <= 128) /\
  o_wildcard o = None /\ (forall t, p_prec (o_precs o) t = None) /\
  lemon_generate 100 100 100 (with_compress o true) g = Ok c1 /\ lemon_generate 100 100 100 (with_compress o false) g = Ok c2 /\
  YY_SHIFT_COUNT (g_tab c1) = YY_MAX_SHIFT (g_tab c1) /\ YY_SHIFT_COUNT (g_tab c2) = YY_MAX_SHIFT (g_tab c2) /\
  Forall (fun t => 0 < t < g_nterm g) toks /\
  accepts c2 (fun _ => None) 50 100 toks l /\
  feed c1 (fun _ => None) 100 (ParseInit 50) (map Z.of_nat toks) 1 = Ok p /\ Parse c1 (fun _ => None) 100 p 0 (Tok 0) = Ok p' /\
  In (EvSyntaxError 0 (Tok 0)) (p_log p').
Proof.
  exists exo12f, exg12f. do 5 eexists. exists [3; 2].
  split; [apply wf_grammarb_ok; reflexivity|]. split; [small|]. split; [each_rule ltac:(simpl; intuition discriminate)|].
  split.
  { constructor; [reflexivity| | |]; cbn [exo12f o_fallback o_wildcard o_errsym]; intros l E; [|discriminate|discriminate].
    inversion E; subst l. split; [reflexivity|]. split; [reflexivity|]. cbn [exg12f g_nterm].
    intros t LT. do 4 (destruct t as [|t]; [cbn; split; [lia|reflexivity]|]). lia. }
  split; [each_rule ltac:(simpl; lia)|]. split; [reflexivity|]. split; [reflexivity|].
  split; [vm_compute; reflexivity|]. split; [vm_compute; reflexivity|]. split; [vm_compute; reflexivity|]. split; [vm_compute; reflexivity|].
  split; [repeat constructor|].
  split. { do 2 eexists. split; [vm_compute; reflexivity|]; split; [vm_compute; reflexivity|]; no_events; vm_compute; reflexivity. }
  split; [vm_compute; reflexivity|]. split; [vm_compute; reflexivity|]. vm_compute. tauto.
Qed.
Print Assumptions C12_fallback_refuted.

(** * C15 *)

(** No reduction has the terminal [w] as a lookahead. *)
Definition never_reduced_on (g : grammar) (w : nat) : Prop :=
  forall gm r rl, rule_of g r = Some rl -> ~ la g gm (r, length (r_rhs rl)) w.

(** A list with a default action has no entry for the wildcard: CompressTables gives
    no default to a state that shifts the wildcard. *)
Lemma default_no_wildcard : forall g o c L aps xs so nx sf ff cf, wf_grammar g -> start_not_rhs g -> opts_ok g o -> small_lists sf ff g ->
  gen_ok g o c (states_view L) aps xs so nx -> (forall ap a, In ap aps -> In a ap -> iserr a = false) ->
  CompressTables cf (o_addr2 o) (o_wildcard o) g (opts_rinfo o) aps = Ok xs ->
  (forall w, o_wildcard o = Some w -> never_reduced_on g w) ->
  forall w q l au r, o_wildcard o = Some w -> nth_error xs q = Some (l, au) -> In (mkAction REDUCE (g_nsym g) r) l -> act_at l w = None.
Proof.
  intros g o c L aps xs so nx sf ff cf W SNR OO SM GK NOE HC NR w q l au r EW EX ID.
  pose proof (gk_resolved _ _ _ _ _ _ _ _ GK) as RS. pose proof (gk_final _ _ _ _ _ _ _ _ GK) as FN.
  assert (EA : exists ap, nth_error aps q = Some ap).
  { destruct (nth_error aps q) as [ap|] eqn:E; eauto. apply nth_error_None in E. apply nth_error_Some_lt in EX.
    rewrite (fn_len _ _ _ _ _ FN) in EX. rewrite (rs_len _ _ _ RS) in E. lia. }
  destruct EA as (ap & EA). pose proof (nth_error_In _ _ EA) as IAP. destruct (act_at l w) as [a|] eqn:E; auto. exfalso.
  apply act_at_In in E as (IA & EM & SP). pose proof (oo_wild _ _ OO w EW) as LW.
  assert (XA : exec a = true).
  { rewrite emits_exec in EM. apply orb_prop in EM as [X|X]; auto. apply (fn_err _ _ _ _ _ FN q ap l au a EA EX X) in IA.
    pose proof (NOE ap a IAP IA). congruence. }
  destruct (fn_tok _ _ _ _ _ FN q ap l au a EA EX IA XA ltac:(lia)) as (a0 & I0 & X0 & E0).
  assert (S0 : a_sp a0 = w) by (rewrite <- SP, E0; symmetry; apply shiftreduce_sp).
  pose proof (rs_live _ _ _ RS q ap a0 EA I0 X0) as LV. destruct a0 as [ty s x]. cbn [a_type a_sp a_arg] in *. subst s. destruct ty; try contradiction.
  - destruct (C12_default _ _ _ _ _ _ _ _ _ _ _ HC EA EX (fun b => rs_sp _ _ _ RS ap b IAP) (rs_size _ _ _ RS ap IAP)) as (D & _).
    destruct D as (_ & _ & D). { left. exists w, x. auto. }
    apply (D _ ID). reflexivity.
  - destruct LV as (_ & ->). pose proof (proj2 (proj2 (proj2 W))) as NS. unfold is_nonterm in NS. lia.
  - destruct LV as (_ & rl & I1 & sh & gm & R & _ & _ & _ & LA). exact (NR w EW gm x rl R LA).
Qed.

(** Every sentence of a grammar without LALR(1) conflicts is accepted, given enough
    stack, when the tables cover all states and either the tables are not
    compressed or there is no %fallback and no reduction has the wildcard as a
    lookahead. *)
Theorem C15_complete_partial : forall sf ff cf o g c toks,
  wf_grammar g -> small_lists sf ff g -> start_not_rhs g -> opts_ok g o -> (forall rl, In rl (g_rules g) -> length (r_rhs rl) <= 128) ->
  lemon_generate sf ff cf o g = Ok c ->
  o_compress o = false \/ o_fallback o = None /\ (forall w, o_wildcard o = Some w -> never_reduced_on g w) ->
  YY_SHIFT_COUNT (g_tab c) = YY_MAX_SHIFT (g_tab c) ->
  conflict_free g -> sentence g toks -> ~ In 0 toks ->
  exists K N, forall grow cap fuel, stack_for K grow cap -> N <= fuel -> exists l, accepts c grow cap fuel toks l.
Proof.
  intros sf ff cf o g c toks W SM SNR OO R128 HG ND FULL CF SE N0.
  destruct (generated_from g _ sf ff cf c W SM SNR OO HG) as (L & aps & xs & so & nx & UN & HL & HA & GK).
  pose proof (gk_resolved _ _ _ _ _ _ _ _ GK) as RS.
  destruct (conflict_free_lists _ _ _ _ _ _ W SM SNR HA HL RS CF) as (NOE & SH & RD).
  destruct (machine_complete g o (states_view L) aps W (rs_auto _ _ _ RS) (rs_len _ _ _ RS) SH RD toks SE) as (P & AR).
  assert (FT : Forall (fun t => 0 < t < g_nterm g) toks).
  { apply Forall_forall. intros t I. destruct SE as (F & _). rewrite Forall_forall in F. specialize (F t I). unfold is_term in F.
    destruct t; [exfalso; auto|lia]. }
  assert (D : no_detour g o xs).
  { assert (CC : o_compress o = false \/ o_compress o = true /\ o_fallback o = None /\ (forall w, o_wildcard o = Some w -> never_reduced_on g w))
      by (destruct (o_compress o); [destruct ND as [ND|ND]; [discriminate|right; auto]|left; auto]).
    destruct CC as [NC|(CC & NF & NW)]; [left|right; split; auto].
    - intros q l au r E I. rewrite (proj1 UN NC) in E. unfold uncompressed in E. rewrite nth_error_map in E.
      destruct (nth_error aps q) as [ap|] eqn:EA; [|discriminate]. inversion E; subst l au.
      pose proof (rs_sp _ _ _ RS ap _ (nth_error_In _ _ EA) I) as LT. cbn in LT. lia.
    - intros w q l au r EW EX ID. eapply default_no_wildcard; [exact W|exact SNR|exact OO|exact SM|exact GK|exact NOE|exact (proj2 UN CC)|exact NW|exact EW|exact EX|exact ID]. }
  destruct (run_accepted _ _ _ _ _ _ _ _ W SNR OO GK R128 NOE FULL D _ _ FT AR) as (K & N & X).
  exists K, N. intros grow cap fuel ST LF. destruct (X _ _ _ ST LF) as (l & AC & _). eauto.
Qed.
Print Assumptions C15_complete_partial.

(** A grammar without precedences for which lemon reports no conflict is one. *)
Theorem C15_no_conflict_reported : forall addr p ps sf ff g L aps bad,
  wf_grammar g -> small_lists sf ff g -> lemon_front sf ff g = Ok L -> (forall s, p_prec p s = None) ->
  FindActions addr p ps g L = Ok (aps, 0, bad) -> conflict_free g.
Proof.
  intros addr p ps sf ff g L aps bad W SM HL NP HF.
  destruct (C07_conflict_count addr p ps sf ff g L aps 0 bad W (proj1 SM) HL NP HF) as (raw & ER & H).
  destruct H as (_ & H). { intros ap I. apply (proj2 SM L raw ap HL ER I). }
  eapply distinct_lists_free; [exact W|exact (proj1 SM)|exact HL|exact ER|]. apply H. auto.
Qed.
Print Assumptions C15_no_conflict_reported.

Lemma free_ex : forall g L aps bad, wf_grammar g -> small_lists 100 100 g -> lemon_front 100 100 g = Ok L ->
  FindActions (fun _ i => i) (mkPrecs (fun _ => None) (fun _ => UNK)) (map (fun _ => None) (g_rules g)) g L = Ok (aps, 0, bad) -> conflict_free g.
Proof. intros g L aps bad W SM HL HF. eapply C15_no_conflict_reported; [exact W|exact SM|exact HL| |exact HF]. reflexivity. Qed.

Ltac free := eapply free_ex; [apply wf_grammarb_ok; reflexivity|small|vm_compute; reflexivity|vm_compute; reflexivity].
Ltac by_rule n a b := eapply star_step; [match goal with |- step ?g _ _ => exact (step_rule g (map ESym a) b (nth n (g_rules g) (mkRule 0 [])) (nth_In (g_rules g) (mkRule 0 []) (n := n) ltac:(cbn; lia))) end|cbn].

(** ID PLUS LP ID RP in the grammar above. *)
Example C15_hypotheses :
  wf_grammar exg12 /\ small_lists 100 100 exg12 /\ start_not_rhs exg12 /\ opts_ok exg12 exo12 /\ (forall rl, In rl (g_rules exg12) -> length (r_rhs rl) <= 128) /\
  lemon_generate 100 100 100 (with_compress exo12 true) exg12 = Ok (exc12 true) /\ o_fallback exo12 = None /\ o_wildcard exo12 = None /\
  YY_SHIFT_COUNT (g_tab (exc12 true)) = YY_MAX_SHIFT (g_tab (exc12 true)) /\
  conflict_free exg12 /\ sentence exg12 [2; 1; 3; 2; 4] /\ ~ In 0 [2; 1; 3; 2; 4].
Proof.
  split; [apply wf_grammarb_ok; reflexivity|]. split; [small|]. split; [each_rule ltac:(simpl; intuition discriminate)|]. split; [plain_ok|].
  split; [each_rule ltac:(simpl; lia)|]. split; [vm_compute; reflexivity|]. split; [reflexivity|]. split; [reflexivity|].
  split; [vm_compute; reflexivity|]. split; [free|]. split; [|cbn; intuition discriminate].
  split; [repeat constructor|]. unfold derives.
  by_rule 0 (@nil nat) (@nil elem). by_rule 1 (@nil nat) (@nil elem). by_rule 2 (@nil nat) [ESym 1; ESym 7]. by_rule 3 (@nil nat) [ESym 1; ESym 7].
  by_rule 4 [2; 1] (@nil elem). by_rule 2 [2; 1; 3] [ESym 4]. by_rule 3 [2; 1; 3] [ESym 4]. apply star_refl.
Qed.

(** yy_shift_ofst is cut after the last state with a token action.  X Y B is a
    sentence of a conflict-free grammar, but at end of input the driver looks up a
    state beyond the end of yy_shift_ofst (an assertion fails; without assertions
    it reads out of bounds). *)
Theorem C15_truncated_refuted : exists g o c toks p,
  wf_grammar g /\ small_lists 100 100 g /\ start_not_rhs g /\ opts_ok g o /\ (forall rl, In rl (g_rules g) -> length (r_rhs rl) <= 128) /\
  lemon_generate 100 100 100 o g = Ok c /\ o_fallback o = None /\ o_wildcard o = None /\
  conflict_free g /\ sentence g toks /\ ~ In 0 toks /\
  feed c (fun _ => None) 100 (ParseInit 50) (map Z.of_nat toks) 1 = Ok p /\ Parse c (fun _ => None) 100 p 0 (Tok 0) = Bad.
Proof.
  exists exg10, (plain_opts exg10). eexists. exists [1; 2; 3]. eexists.
  split; [apply wf_grammarb_ok; reflexivity|]. split; [small|]. split; [each_rule ltac:(simpl; intuition discriminate)|]. split; [plain_ok|].
  split; [each_rule ltac:(simpl; lia)|]. split; [vm_compute; reflexivity|]. split; [reflexivity|]. split; [reflexivity|].
  split; [free|]. split.
  { split; [repeat constructor|]. unfold derives.
    by_rule 0 (@nil nat) (@nil elem). by_rule 2 [1] (@nil elem). by_rule 1 [1] [ESym 6]. by_rule 3 [1; 2] (@nil elem). by_rule 4 [1; 2; 3] (@nil elem). apply star_refl. }
  split; [cbn; intuition discriminate|]. split; [vm_compute; reflexivity|]. vm_compute. reflexivity.
Qed.
Print Assumptions C15_truncated_refuted.

(** With compression and %fallback a sentence of a conflict-free grammar can be rejected. *)
Theorem C15_fallback_refuted : exists g o c toks p p',
  wf_grammar g /\ small_lists 100 100 g /\ start_not_rhs g /\ opts_ok g o /\ (forall rl, In rl (g_rules g) -> length (r_rhs rl) <= 128) /\
  lemon_generate 100 100 100 o g = Ok c /\ o_wildcard o = None /\ YY_SHIFT_COUNT (g_tab c) = YY_MAX_SHIFT (g_tab c) /\
  conflict_free g /\ sentence g toks /\ ~ In 0 toks /\
  feed c (fun _ => None) 100 (ParseInit 50) (map Z.of_nat toks) 1 = Ok p /\ Parse c (fun _ => None) 100 p 0 (Tok 0) = Ok p' /\
  In (EvSyntaxError 0 (Tok 0)) (p_log p') /\ ~ In EvAccept (p_log p').
Proof.
  exists exg12f, exo12f. eexists. exists [3; 2]. do 2 eexists.
  split; [apply wf_grammarb_ok; reflexivity|]. split; [small|]. split; [each_rule ltac:(simpl; intuition discriminate)|].
  split.
  { constructor; [reflexivity| | |]; cbn [exo12f o_fallback o_wildcard o_errsym]; intros l E; [|discriminate|discriminate].
    inversion E; subst l. split; [reflexivity|]. split; [reflexivity|]. cbn [exg12f g_nterm].
    intros t LT. do 4 (destruct t as [|t]; [cbn; split; [lia|reflexivity]|]). lia. }
  split; [each_rule ltac:(simpl; lia)|]. split; [vm_compute; reflexivity|]. split; [reflexivity|]. split; [vm_compute; reflexivity|].
  split; [free|]. split.
  { split; [repeat constructor|]. unfold derives. by_rule 0 (@nil nat) (@nil elem). by_rule 2 (@nil nat) [ESym 2]. apply star_refl. }
  split; [cbn; intuition discriminate|]. split; [vm_compute; reflexivity|]. split; [vm_compute; reflexivity|].
  split; [vm_compute; tauto|vm_compute; intuition discriminate].
Qed.
Print Assumptions C15_fallback_refuted.

(** %wildcard W: s ::= x a a | x b | y W c, x ::= ID, y ::= ID, without conflicts.  The
    state after ID reduces to x on a and b and to y on W.  The reduction to x is made
    the default, and the driver tries the wildcard before the default: CompressTables
    gives no default to states that shift the wildcard, but does to states that reduce
    on it.  On ID a a the compressed parser reduces ID to y, shifts a as W and reports
    a syntax error.  Terminals: 1 ID, 2 a, 3 b, 4 c, 5 W; 6 s, 7 x, 8 y. *)
Definition exg12w : grammar := mkGrammar 6 9
  [mkRule 6 [ESym 7; ESym 2; ESym 2]; mkRule 6 [ESym 7; ESym 3]; mkRule 6 [ESym 8; ESym 5; ESym 4]; mkRule 7 [ESym 1]; mkRule 8 [ESym 1]] 6.
Definition exo12w : opts :=
  mkOpts false false true (mkPrecs (fun s => None) (fun s => UNK)) [None; None; None; None; None] [false; false; false; false; false] (Some 5) None None (fun _ i => i) (fun _ i => i).

Ltac wild_ok := constructor; [reflexivity| | |]; cbn; intros ? E; [discriminate|injection E as <-; lia|discriminate].

Theorem C12_wildcard_refuted : exists o g c1 c2 l p p' toks,
  wf_grammar g /\ small_lists 100 100 g /\ start_not_rhs g /\ opts_ok g o /\ (forall rl, In rl (g_rules g) -> length (r_rhs rl) <= 128) /\
  o_fallback o = None /\ (forall t, p_prec (o_precs o) t = None) /\
  lemon_generate 100 100 100 (with_compress o true) g = Ok c1 /\ lemon_generate 100 100 100 (with_compress o false) g = Ok c2 /\
  YY_SHIFT_COUNT (g_tab c1) = YY_MAX_SHIFT (g_tab c1) /\ YY_SHIFT_COUNT (g_tab c2) = YY_MAX_SHIFT (g_tab c2) /\
  Forall (fun t => 0 < t < g_nterm g) toks /\
  accepts c2 (fun _ => None) 50 100 toks l /\
  feed c1 (fun _ => None) 100 (ParseInit 50) (map Z.of_nat toks) 1 = Ok p /\ Parse c1 (fun _ => None) 100 p 0 (Tok 0) = Ok p' /\
  In (EvSyntaxError 2 (Tok 3)) (p_log p').
Proof.
  exists exo12w, exg12w. do 5 eexists. exists [1; 2; 2].
  split; [apply wf_grammarb_ok; reflexivity|]. split; [small|]. split; [each_rule ltac:(simpl; intuition discriminate)|]. split; [wild_ok|].
  split; [each_rule ltac:(simpl; lia)|]. split; [reflexivity|]. split; [reflexivity|].
  split; [vm_compute; reflexivity|]. split; [vm_compute; reflexivity|]. split; [vm_compute; reflexivity|]. split; [vm_compute; reflexivity|].
  split; [repeat constructor|].
  split. { do 2 eexists. split; [vm_compute; reflexivity|]; split; [vm_compute; reflexivity|]; no_events; vm_compute; reflexivity. }
  split; [vm_compute; reflexivity|]. split; [vm_compute; reflexivity|]. vm_compute. tauto.
Qed.
Print Assumptions C12_wildcard_refuted.

Theorem C15_wildcard_refuted : exists g o c toks p p',
  wf_grammar g /\ small_lists 100 100 g /\ start_not_rhs g /\ opts_ok g o /\ (forall rl, In rl (g_rules g) -> length (r_rhs rl) <= 128) /\
  lemon_generate 100 100 100 o g = Ok c /\ o_fallback o = None /\ YY_SHIFT_COUNT (g_tab c) = YY_MAX_SHIFT (g_tab c) /\
  conflict_free g /\ sentence g toks /\ ~ In 0 toks /\
  feed c (fun _ => None) 100 (ParseInit 50) (map Z.of_nat toks) 1 = Ok p /\ Parse c (fun _ => None) 100 p 0 (Tok 0) = Ok p' /\
  In (EvSyntaxError 2 (Tok 3)) (p_log p') /\ ~ In EvAccept (p_log p').
Proof.
  exists exg12w, exo12w. eexists. exists [1; 2; 2]. do 2 eexists.
  split; [apply wf_grammarb_ok; reflexivity|]. split; [small|]. split; [each_rule ltac:(simpl; intuition discriminate)|]. split; [wild_ok|].
  split; [each_rule ltac:(simpl; lia)|]. split; [vm_compute; reflexivity|]. split; [reflexivity|]. split; [vm_compute; reflexivity|].
  split; [free|]. split.
  { split; [repeat constructor|]. unfold derives. by_rule 0 (@nil nat) (@nil elem). by_rule 3 (@nil nat) [ESym 2; ESym 2]. apply star_refl. }
  split; [cbn; intuition discriminate|]. split; [vm_compute; reflexivity|]. split; [vm_compute; reflexivity|].
  split; [vm_compute; tauto|vm_compute; intuition discriminate].
Qed.
Print Assumptions C15_wildcard_refuted.

(** A wildcard that never begins what follows a nonterminal in a rule is a lookahead
    of no reduction. *)
Theorem C15_wildcard_after_terminals : forall g w, 0 < w ->
  (forall rl pre A post, In rl (g_rules g) -> r_rhs rl = pre ++ ESym A :: post -> g_nterm g <= A -> ~ first g post w) ->
  wf_grammar g -> never_reduced_on g w.
Proof.
  intros g w PW H W gm r rl _ LA. revert LA. generalize (r, length (r_rhs rl)) as i. intros i LA. remember w as u eqn:Eu in LA.
  induction LA as [r0 LH|gm i A r0 u V AD LH F|gm i t A r0 LA IH AD LH N|gm i t X LA IH AD]; auto; [lia|]. subst u.
  unfold after_dot, rest_after in *. destruct (rule_of g (fst i)) as [rl0|] eqn:R; [|discriminate].
  apply nth_error_split in AD as (pre & post & E & LN). rewrite E in F. rewrite skipn_app, skipn_all2 in F by lia.
  replace (S (snd i) - length pre) with 1 in F by lia. cbn [app skipn] in F.
  eapply H; [eapply nth_error_In; exact R|exact E| |exact F].
  pose proof (lhs_nonterm g r0 A W LH) as NT. unfold is_nonterm in NT. lia.
Qed.
Print Assumptions C15_wildcard_after_terminals.

(** s ::= l, l ::= l SEMI x | x, x ::= ID W | ID PLUS ID: after ID, PLUS is shifted as PLUS and
    everything else as W.  Terminals: 1 ID, 2 PLUS, 3 SEMI, 4 W; 5 s, 6 l, 7 x. *)
Definition exg15w : grammar := mkGrammar 5 8
  [mkRule 5 [ESym 6]; mkRule 6 [ESym 6; ESym 3; ESym 7]; mkRule 6 [ESym 7]; mkRule 7 [ESym 1; ESym 4]; mkRule 7 [ESym 1; ESym 2; ESym 1]] 5.
Definition exo15w : opts :=
  mkOpts false false true (mkPrecs (fun s => None) (fun s => UNK)) [None; None; None; None; None] [false; false; false; false; false] (Some 4) None None (fun _ i => i) (fun _ i => i).
Definition exc15w : gen := get_gen (lemon_generate 100 100 100 exo15w exg15w).

Example C15_wildcard_hypotheses :
  wf_grammar exg15w /\ small_lists 100 100 exg15w /\ start_not_rhs exg15w /\ opts_ok exg15w exo15w /\ (forall rl, In rl (g_rules exg15w) -> length (r_rhs rl) <= 128) /\
  lemon_generate 100 100 100 exo15w exg15w = Ok exc15w /\ o_fallback exo15w = None /\ o_wildcard exo15w = Some 4 /\ never_reduced_on exg15w 4 /\
  YY_SHIFT_COUNT (g_tab exc15w) = YY_MAX_SHIFT (g_tab exc15w) /\
  conflict_free exg15w /\ sentence exg15w [1; 4; 3; 1; 2; 1] /\ ~ In 0 [1; 4; 3; 1; 2; 1].
Proof.
  assert (W : wf_grammar exg15w) by (apply wf_grammarb_ok; reflexivity).
  split; [exact W|]. split; [small|]. split; [each_rule ltac:(simpl; intuition discriminate)|]. split; [wild_ok|].
  split; [each_rule ltac:(simpl; lia)|]. split; [vm_compute; reflexivity|]. split; [reflexivity|]. split; [reflexivity|]. split.
  { apply C15_wildcard_after_terminals; [lia| |exact W]. intros rl pre A post I E NT F. cbn [exg15w g_nterm] in NT.
    repeat (destruct I as [<-|I]; [|]); [..|destruct I]; cbn [r_rhs] in E;
      repeat (destruct pre as [|? pre]; cbn [app] in E; [injection E as ? ?; subst; try lia|injection E as ? E; subst]); try discriminate; try (now destruct pre);
      try (now apply first_nil in F).
    apply (first_term_cons _ W) in F; [discriminate|]. unfold is_term. cbn. lia. }
  split; [vm_compute; reflexivity|]. split; [free|]. split; [|cbn; intuition discriminate].
  split; [repeat constructor|]. unfold derives.
  by_rule 0 (@nil nat) (@nil elem). by_rule 1 (@nil nat) (@nil elem). by_rule 2 (@nil nat) [ESym 3; ESym 7]. by_rule 3 (@nil nat) [ESym 3; ESym 7].
  by_rule 4 [1; 4; 3] (@nil elem). apply star_refl.
Qed.
