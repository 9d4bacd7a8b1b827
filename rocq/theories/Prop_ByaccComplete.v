(** C52, C53: the generated byacc parser accepts every sentence of a grammar without
    conflicts, and lemon's parser for the same grammar accepts the same inputs. *)
From Coq Require Import List Arith NArith ZArith Lia Bool Sorted.
Import ListNotations.
From Verif Require Import Base CLib SpecGrammar SpecGrammarFacts SpecLRFacts SpecLR0 SpecConflict LemonStatesModel LemonActionModel LemonReportModel LemonParModel LemonPipelineModel
  LemonGenProof LemonTabProof LemonSoundProof Prop_LemonSound LemonMachineProof LemonCompleteProof Prop_LemonTables Prop_LemonComplete.
From Verif Require Import SpecByacc SpecAgree ByaccWarshallModel ByaccWarshallProof ByaccLr0Model ByaccPackProof
  ByaccClosureProof ByaccNullProof ByaccLr0Proof ByaccStatesProof ByaccLalrModel ByaccDigraphProof ByaccTransposeProof ByaccLookSem ByaccGotoProof ByaccReadProof
  ByaccLookProof ByaccParModel SpecByaccConflicts ByaccParProof ByaccActionsProof ByaccOutputModel ByaccPackTableProof ByaccRowsProof Prop_ByaccConflicts Prop_ByaccPacking
  ByaccTablesProof ByaccParserModel ByaccParserProof Prop_ByaccParser ByaccCompleteProof.

(** Tokens of a sentence are not the end marker. *)
Lemma sentence_pos : forall s w, wf_src s -> sentence (user s) w -> Forall (fun t => 0 < t < b_ntokens s) w.
Proof.
  intros s w W (F & D).
  assert (K : forall u v, derives (user s) u v -> Forall (fun e => exists x, e = ESym x /\ 0 < x) u -> Forall (fun e => exists x, e = ESym x /\ 0 < x) v).
  { intros u v H. induction H as [|u v x H1 H2 IH]; [auto|]. intros K. apply IH. destruct H1 as [u v r I|u v l t I]; apply Forall_app in K as (K1 & K2); inversion K2 as [|? ? K3 K4]; subst.
    - apply Forall_app. split; [auto|]. apply Forall_app. split; [|auto].
      cbn in I. apply in_map_iff in I as ([A rr] & <- & I). cbn. apply Forall_forall. intros e Ie. apply in_map_iff in Ie as (x0 & <- & Ix). exists x0. split; [reflexivity|]. apply (ws_rules _ W _ _ I). exact Ix.
    - destruct K3 as (x0 & E & _). discriminate. }
  assert (K2 : Forall (fun e => exists x, e = ESym x /\ 0 < x) (map ESym w)) by (apply (K _ _ D); repeat constructor; cbn; eexists; split; [reflexivity|lia]).
  apply Forall_forall. intros t It. rewrite Forall_forall in F, K2. specialize (F t It). destruct (K2 (ESym t)) as (x & E & P); [now apply in_map|]. inversion E; subst x. split; [exact P|exact F].
Qed.

Definition some_opts : opts := mkOpts false false false (mkPrecs (fun _ => None) (fun _ => UNK)) [] [] None None None (fun _ i => i) (fun _ i => i).

(** [delivers lex sv w]: the calls of yylex return the codes of the tokens [w] and then
    an end marker. *)
Definition delivers (lex : nat -> Z) (sv : list Z) (w : list nat) : Prop :=
  (forall i t, nth_error w i = Some t -> lex i = nth t sv 0%Z) /\ (lex (length w) <= 0)%Z.

(** The tokens before the first end marker are unique. *)
Lemma delivered_same : forall s sv lex w n toks, wf_src s -> wf_sv s sv -> nth 0 sv 0%Z = 0%Z -> Forall (fun t => 0 < t < b_ntokens s) w -> delivers lex sv w ->
  sentence (user s) toks -> map (fun t => nth t sv 0%Z) toks = map lex (seq 0 n) -> (lex n <= 0)%Z -> sentence (user s) w.
Proof.
  intros s sv lex w n toks W SV SV0 FW DL SE M LN.
    destruct DL as (L1 & L2). replace w with toks; [exact SE|].
    assert (F1 : Forall (fun t => 0 < t < b_ntokens s) toks) by (now apply sentence_pos).
    assert (LT : length toks = n) by (apply (f_equal (@length _)) in M; rewrite !map_length, seq_length in M; exact M).
    assert (CP : forall t, 0 < t < b_ntokens s -> (0 < nth t sv 0)%Z).
    { intros t Rt. pose proof (sv_pos _ _ SV t ltac:(lia)). assert (nth t sv 0%Z <> 0%Z); [|lia]. intros Z. assert (t = 0); [|lia]. pose proof (ws_tok s W). apply (sv_inj _ _ SV); [lia|lia|congruence]. }
    assert (LX : forall i t, nth_error toks i = Some t -> lex i = nth t sv 0%Z).
    { intros i t Ei. assert (Li : i < n) by (rewrite <- LT; eapply nth_error_Some_lt; eauto). pose proof (map_nth_error (fun t => nth t sv 0%Z) _ _ Ei) as X. rewrite M in X.
      rewrite (map_nth_error lex i (seq 0 n) (d := i)) in X; [congruence|]. rewrite (nth_error_nth' _ 0) by (now rewrite seq_length). now rewrite seq_nth by auto. }
    assert (LN2 : length w = n).
    { destruct (Nat.lt_trichotomy (length w) n) as [H|[H|H]]; [|auto|]; exfalso.
      - destruct (nth_error_lt_ex _ toks (length w)) as (t & Et); [lia|]. rewrite (LX _ _ Et) in L2. rewrite Forall_forall in F1. pose proof (CP t (F1 t (nth_error_In _ _ Et))). lia.
      - destruct (nth_error_lt_ex _ w n) as (t & Et); [lia|]. rewrite (L1 _ _ Et) in LN. rewrite Forall_forall in FW. pose proof (CP t (FW t (nth_error_In _ _ Et))). lia. }
    apply (nth_ext _ _ 0 0); [lia|]. intros i Li. destruct (nth_error_lt_ex _ toks i Li) as (t & Et). destruct (nth_error_lt_ex _ w i) as (u & Eu); [lia|].
    rewrite (nth_error_nth _ _ _ Et), (nth_error_nth _ _ _ Eu). rewrite Forall_forall in F1, FW. pose proof (F1 t (nth_error_In _ _ Et)). pose proof (FW u (nth_error_In _ _ Eu)).
    apply (sv_inj _ _ SV); [lia|lia|]. rewrite <- (LX _ _ Et). now apply L1.
Qed.

(** ** C52 *)

(** Whatever the stack left by earlier calls, yyparse reads every sentence of a grammar
    without LALR(1) conflicts up to the first end marker and returns 0 without having
    counted an error, unless it runs out of stack. *)
Theorem C52_complete : forall s f1 f2 f3 flag pr sv Y, wf_src s -> wf_prec s pr -> wf_sv s sv -> nth 0 sv 0%Z = 0%Z -> byacc_generate f1 f2 f3 flag s pr sv = Ok Y ->
  conflict_free (aug s) -> forall w lex, sentence (user s) w -> delivers lex sv w ->
  forall k, clean_stack k -> exists fuel e c, yyparse Y lex fuel k = Ok (e, c) /\
    (e = YAccept /\ y_nerrs c = 0 /\ y_pos c = S (length w) \/
     e = YOverflow /\ (In false (ks_mem k) \/ YYMAXDEPTH <= length (ks_st (y_stk c)))).
Proof.
  intros s f1 f2 f3 flag pr sv Y W WP SV SV0 E CF w lex SE (L1 & L2) k CK.
  destruct (C49_safe s f1 f2 f3 flag pr sv Y W WP SV SV0 E lex 0 k CK) as (_ & _).
  destruct (generated_ok _ _ _ _ _ _ _ _ W WP SV E) as (nl & st & T & P & E1 & LO & E2 & TO & E3 & PO & YO).
  destruct (parse_complete s W st LO T pr flag P PO sv SV SV0 Y YO CF lex (ks_mem k) some_opts w SE) with (k := k) as (f & [e c] & R & GE).
  - intros i t Ei. split; [|now apply L1]. pose proof (sentence_pos s w W SE) as F. rewrite Forall_forall in F. apply F. eapply nth_error_In; eauto.
  - exact L2.
  - destruct CK as [(A & B)|(A & B & C)]; [left|right]; repeat split; auto; apply incl_refl.
  - exists f, e, c. split; [exact R|]. destruct GE as [GE|GE]; [left; exact GE|right]. cbn [fst] in GE. split; [exact GE|].
    destruct (C49_safe s f1 f2 f3 flag pr sv Y W WP SV SV0 E lex f k CK) as (_ & H). apply (H e c R). exact GE.
Qed.
Print Assumptions C52_complete.

(** So, memory permitting, exactly the sentences are accepted. *)
Theorem C52_language : forall s f1 f2 f3 flag pr sv Y, wf_src s -> wf_prec s pr -> wf_sv s sv -> nth 0 sv 0%Z = 0%Z -> byacc_generate f1 f2 f3 flag s pr sv = Ok Y ->
  conflict_free (aug s) -> forall w lex mem, Forall (fun t => 0 < t < b_ntokens s) w -> delivers lex sv w ->
  (forall fuel c, yyparse Y lex fuel (fresh mem) <> Ok (YOverflow, c)) ->
  (sentence (user s) w <-> exists fuel c, yyparse Y lex fuel (fresh mem) = Ok (YAccept, c) /\ y_nerrs c = 0).
Proof.
  intros s f1 f2 f3 flag pr sv Y W WP SV SV0 E CF w lex mem FW DL NO. split.
  - intros SE. destruct (C52_complete s f1 f2 f3 flag pr sv Y W WP SV SV0 E CF w lex SE DL (fresh mem)) as (f & e & c & R & [(-> & N & _)|(-> & _)]); [left; split; reflexivity|eauto|].
    now destruct (NO f c).
  - intros (f & c & R & N). destruct (C48_accepted s f1 f2 f3 flag pr sv Y W WP SV SV0 E lex mem f c R N) as (n & toks & PN & SE & N0 & M & LN).
    eapply delivered_same; eauto.
Qed.
Print Assumptions C52_language.

(** The states of byacc tell whether the grammar has conflicts. *)
Lemma least : forall (Q : action -> Prop) (l : list action) p, In p l -> Q p -> (forall x, {Q x} + {~ Q x}) -> exists f, In f l /\ Q f /\ forall x, In x l -> Q x -> a_num f <= a_num x.
Proof.
  intros Q l p I Qp D. assert (X : forall n q, a_num q <= n -> In q l -> Q q -> exists f, In f l /\ Q f /\ forall x, In x l -> Q x -> a_num f <= a_num x).
  { induction n as [|n IH]; intros q Ln Iq Qq.
    - exists q. split; [auto|]. split; [auto|]. intros x _ _. lia.
    - destruct (existsb (fun x => if D x then a_num x <? a_num q else false) l) eqn:B.
      + apply existsb_exists in B as (x & Ix & H). destruct (D x) as [Qx|]; [|discriminate]. apply Nat.ltb_lt in H. apply (IH x); auto; lia.
      + exists q. split; [auto|]. split; [auto|]. intros x Ix Qx. destruct (Nat.le_gt_cases (a_num q) (a_num x)) as [H|H]; [auto|]. exfalso.
        assert (Y : existsb (fun x => if D x then a_num x <? a_num q else false) l = true); [|congruence]. apply existsb_exists. exists x. split; [auto|]. destruct (D x); [now apply Nat.ltb_lt|contradiction]. }
  exact (X (a_num p) p (le_n _) I Qp).
Qed.

Lemma none_counted : forall acts (Q : action -> Prop) p, counts acts Q 0 -> In p acts -> ~ Q p.
Proof. intros acts Q p (L & _ & LL & H) I HQ. destruct L; [|discriminate]. destruct (proj2 (H p)); auto. Qed.

(** A grammar without precedences for which byacc counts no conflict, and whose goal is
    on no right-hand side, has none. *)
Theorem C52_no_conflict_counted : forall s f1 f2 flag pr nl st T P, wf_src s -> wf_prec s pr -> goal_free s ->
  (forall t, nth t (symbol_prec pr) 0 = 0) -> (forall r, nth r (rprec pr) 0 = 0) ->
  lr0 f1 (pack_grammar s) = Ok (nl, st) -> lalr f2 (pack_grammar s) nl st = Ok T -> make_parser flag (pack_grammar s) pr T = Ok P ->
  list_sum (p_SR P) = 0 -> list_sum (p_RR P) = 0 -> conflict_free (aug s).
Proof.
  intros s f1 f2 flag pr nl st T P W WP GF NPS NPR E1 E2 E3 S1 S2. destruct (passes s f1 f2 flag pr nl st W WP E1) as (LO & H).
  destruct (H T E2) as (TO & GO & P' & EP & PO). rewrite E3 in EP. inversion EP; subst P'. clear EP H.
  assert (SUM : forall l x, In x l -> list_sum l = 0 -> x = 0) by (induction l as [|a l IH]; intros x I Z; [destruct I|]; cbn in Z; destruct I as [<-|I]; [lia|apply IH; auto; unfold list_sum; lia]).
  assert (PZ : forall p a, act_spec s st pr p a -> a_prec a = 0) by (intros p a [(t & q & _ & _ & ->)|(t & r & _ & _ & _ & ->)]; [apply NPS|apply NPR]).
  assert (UNI : forall p a b, p < nst st -> act_spec s st pr p a -> act_spec s st pr p b -> a_sym a = a_sym b -> a_shift b = false -> a = b).
  { intros p a b Lp Ha Hb ES SB. destruct (po_state _ _ _ _ _ _ PO p Lp) as (acts & sr & rr & Q1 & Q2 & Q3 & (a0 & Q8 & Q4 & Q5 & Q6 & Q7)).
    assert (sr = 0) by (apply (SUM (p_SR P)); [eapply nth_error_In; eauto|auto]). assert (rr = 0) by (apply (SUM (p_RR P)); [eapply nth_error_In; eauto|auto]). subst sr rr.
    assert (NB : forall x y, In x a0 -> ~ beats x y) by (intros x y Ix (B & _); apply Q6 in Ix; rewrite (PZ p x Ix) in B; lia).
    assert (SR : forall x, In x a0 -> ~ sr_spec flag (p =? p_final P) a0 x) by (intros x Ix; eapply none_counted; [exact (ro_sr _ _ _ _ _ _ Q7)|exact Ix]).
    assert (RR : forall x, In x a0 -> ~ rr_spec flag (p =? p_final P) a0 x) by (intros x Ix; eapply none_counted; [exact (ro_rr _ _ _ _ _ _ Q7)|exact Ix]).
    apply Q6 in Ha, Hb. assert (NSH : forall x, In x a0 -> a_sym x = a_sym b -> a_shift x = true -> False).
    { intros x Ix Ex Sx. apply (SR b Hb). unfold sr_spec. destruct ((p =? p_final P) && (a_sym b =? 0)) eqn:F.
      - exists x. split; [auto|]. apply andb_true_iff in F as (_ & F). apply Nat.eqb_eq in F. split; [congruence|]. right. split; [auto|]. left. auto.
      - split; [auto|]. exists x. split; [split; auto|]. split; [left; apply Q6 in Ix; eapply PZ; eauto|]. intros p' _ _. apply NB. auto. }
    destruct (a_shift a) eqn:SA; [now destruct (NSH a)|].
    assert (EQN : forall x y, In x a0 -> In y a0 -> a_sym x = a_sym y -> a_shift x = false -> a_shift y = false -> a_num x = a_num y -> x = y).
    { intros x y Ix Iy K1 K2 K3 K4. apply Q6 in Ix, Iy. destruct Ix as [(t & q & _ & _ & ->)|(t & r & _ & _ & _ & ->)]; [discriminate|]. destruct Iy as [(t' & q & _ & _ & ->)|(t' & r' & _ & _ & _ & ->)]; [discriminate|].
      cbn in K1, K4. injection K4 as K4. subst. reflexivity. }
    assert (LTN : forall x y, In x a0 -> In y a0 -> a_sym x = a_sym b -> a_sym y = a_sym b -> a_shift x = false -> a_shift y = false -> a_num x < a_num y -> False).
    { intros x y Ix Iy X1 Y1 X2 Y2 LT. destruct ((p =? p_final P) && (a_sym y =? 0)) eqn:F.
      - apply (SR y Iy). unfold sr_spec. rewrite F. apply andb_true_iff in F as (_ & F). apply Nat.eqb_eq in F. exists x. split; [auto|]. split; [congruence|]. right. split; [congruence|]. right. auto.
      - apply (RR y Iy). split; [auto|].
        assert (CO : forall z, contender a0 (a_sym y) z <-> In z a0 /\ a_sym z = a_sym y /\ a_shift z = false).
        { intros z. unfold contender, reds_on. split; [tauto|]. intros (Z1 & Z2 & Z3). split; [auto|]. left. intros u (U1 & U2 & U3). apply (NSH u); auto. congruence. }
        split; [apply CO; auto|].
        destruct (least (fun z => a_sym z = a_sym y /\ a_shift z = false) a0 x Ix) as (f & F1 & (F2 & F3) & F4); [split; [congruence|auto]| |].
        { intros z. destruct (Nat.eq_dec (a_sym z) (a_sym y)); [|right; tauto]. destruct (a_shift z); [right; intros (_ & X); discriminate|left; auto]. }
        exists f. split; [apply CO; auto|]. split; [pose proof (F4 x Ix ltac:(split; [congruence|auto])); lia|]. split; [intros z Cz; apply CO in Cz; apply F4; tauto|].
        right. left. apply Q6 in F1. eapply PZ; eauto. }
    apply EQN; auto. destruct (Nat.lt_trichotomy (a_num a) (a_num b)) as [K|[K|K]]; [|auto|]; exfalso; eapply (LTN _ _); try exact K; auto. }
  intros gm t TT.
  assert (SHI : forall X, shiftable (aug s) gm X t -> X = ESym t /\ exists p q, p < nst st /\ (forall i, sitem s st p i <-> valid (aug s) gm i) /\ go st p t q /\ 0 < t).
  { intros X (IT & i & V & AD). destruct (after_dot_wf s W _ _ AD) as (y & -> & Ry & _). destruct IT as [<-|[]]. split; [reflexivity|].
    destruct (state_of s W st LO gm i V) as (p & Lp & Hp). destruct (go_ex s W st LO p i y (proj2 (Hp i) V) AD) as (q & Hq). exists p, q. split; [exact Lp|]. split; [exact Hp|]. split; [exact Hq|]. lia. }
  assert (REI : forall r, reducible (aug s) gm r t -> (r = 0 /\ gm = [ESym (S (b_ntokens s))]) \/
    exists p, p < nst st /\ (forall i, sitem s st p i <-> valid (aug s) gm i) /\ act_spec s st pr p (red_act pr t (S (S r)))).
  { intros r (rl & gm' & R & SS & LA). pose proof (la_valid _ _ _ _ LA) as V'. pose proof (proj2 (SS _) V') as V. destruct (Nat.eq_dec r 0) as [->|N].
    - left. split; [reflexivity|]. cbn in R. inversion R; subst rl. cbn [r_rhs length] in V. apply (valid_GU s W) in V as [(K & _)|[(_ & ->)|(k & d & K & _)]]; [discriminate|auto|discriminate].
    - right. destruct (state_of s W st LO gm _ V) as (p & Lp & Hp). exists p. split; [auto|]. split; [exact Hp|]. right. exists t, r. split; [exact TT|].
      destruct (aug_rule s r rl R) as (A & rhs & P1 & P2 & P3). assert (PL : prl s r A rhs) by (split; auto). rewrite (prl_rule s _ _ _ PL) in R. inversion R; subst rl. cbn [r_rhs] in *. rewrite map_length in *.
      split; [|split; [|reflexivity]].
      + apply (reds_spec s W st LO p Lp). exists (r, length rhs). split; [apply Hp; exact V|]. split; [|auto]. rewrite (prl_after s _ _ _ _ PL). replace (nth_error rhs (length rhs)) with (@None nat); [reflexivity|]. symmetry. now apply nth_error_None.
      + apply (LAs_la s W st LO p r A rhs t PL). exists gm'. split; [|exact LA]. intros i. rewrite (Hp i). apply SS. }
  assert (SAMES : forall p q, p < nst st -> q < nst st -> (forall i, sitem s st p i <-> valid (aug s) gm i) -> (forall i, sitem s st q i <-> valid (aug s) gm i) -> p = q).
  { intros p q Lp Lq Hp Hq. apply (state_inj s W st LO); auto. intros i. rewrite (Hp i). symmetry. apply Hq. }
  assert (FIN : gm = [ESym (S (b_ntokens s))] -> forall i, valid (aug s) gm i -> i = (0, 1)).
  { intros -> i V. apply (valid_GU s W) in V as [(_ & K)|[(-> & _)|(k & d & -> & V)]]; [discriminate|auto|]. now apply (no_goal_goto s GF) in V. }
  split; [|split].
  - intros X r SX RX. pose proof SX as (_ & i & Vi & Ai). destruct (SHI X SX) as (-> & p & q & Lp & Hp & Hg & Pt). destruct (REI r RX) as [(-> & Eg)|(p' & Lp' & Hp' & SP)].
    + apply (FIN Eg) in Vi. subst i. discriminate.
    + rewrite (SAMES p' p) in SP; auto. pose proof (UNI p (shift_act pr t q) (red_act pr t (S (S r))) Lp) as U. assert (E : shift_act pr t q = red_act pr t (S (S r))); [|discriminate].
      apply U; auto. left. exists t, q. auto.
  - intros r r' R1 R2. destruct (REI r R1) as [(-> & Eg)|(p & Lp & Hp & SP)], (REI r' R2) as [(-> & Eg')|(p' & Lp' & Hp' & SP')]; auto.
    + exfalso. destruct R2 as (rl & gm' & R & SS & LA). pose proof (proj2 (SS _) (la_valid _ _ _ _ LA)) as V. apply (FIN Eg) in V. inversion V; subst r'. destruct SP' as [(t0 & q & _ & _ & K)|(t0 & r0 & _ & K1 & _ & K2)]; [discriminate|].
      inversion K2; subst. destruct (red_item s W st LO p' 0 Lp' K1) as (A & rhs & (N & _) & _). congruence.
    + exfalso. destruct R1 as (rl & gm' & R & SS & LA). pose proof (proj2 (SS _) (la_valid _ _ _ _ LA)) as V. apply (FIN Eg') in V. inversion V; subst r. destruct SP as [(t0 & q & _ & _ & K)|(t0 & r0 & _ & K1 & _ & K2)]; [discriminate|].
      inversion K2; subst. destruct (red_item s W st LO p 0 Lp K1) as (A & rhs & (N & _) & _). congruence.
    + rewrite (SAMES p' p) in SP'; auto. assert (E : red_act pr t (S (S r)) = red_act pr t (S (S r'))) by (apply (UNI p); auto). inversion E. reflexivity.
  - intros X X' R1 R2. destruct (SHI X R1) as (-> & _), (SHI X' R2) as (-> & _). reflexivity.
Qed.
Print Assumptions C52_no_conflict_counted.

(** ** C53 *)
Lemma conflict_free_aug : forall s, wf_src s -> goal_free s -> conflict_free (user s) -> conflict_free (aug s).
Proof.
  intros s W GF CF gm t TT. destruct (CF gm t TT) as (N1 & N2 & N3).
  assert (SHI : forall X, shiftable (aug s) gm X t -> shiftable (user s) gm X t /\ exists k d, valid (user s) gm (k, d)).
  { intros X (IT & i & V & AD). apply (valid_GU s W) in V as [(-> & ->)|[(-> & ->)|(k & d & -> & V)]].
    - cbn in AD. inversion AD; subst X. destruct IT as [<-|[]]. unfold is_term in TT. cbn in TT. lia.
    - discriminate.
    - split; [|eauto]. split; [exact IT|]. exists (k, d). auto. }
  assert (REI : forall r, reducible (aug s) gm r t -> (r = 0 /\ gm = [ESym (S (b_ntokens s))]) \/ exists k d, r = S k /\ reducible (user s) gm k t /\ valid (user s) gm (k, d)).
  { intros r (rl & gm' & R & SS & LA). pose proof (proj2 (SS _) (la_valid _ _ _ _ LA)) as V. destruct r as [|k].
    - left. split; [auto|]. cbn in R. inversion R; subst rl. apply (valid_GU s W) in V as [(K & _)|[(_ & ->)|(k & d & K & _)]]; [discriminate|auto|discriminate].
    - right. exists k, (length (r_rhs rl)). split; [auto|]. split; [|now apply (ag_valid s W)]. exists rl, gm'. split; [exact R|]. split; [|now apply (ag_la s W)].
      intros [k' d']. rewrite <- !(ag_valid s W). apply SS. }
  split; [|split].
  - intros X r S1 R1. destruct (SHI X S1) as (S2 & k & d & V). destruct (REI r R1) as [(-> & ->)|(k' & d' & -> & R2 & _)]; [now apply (no_goal_goto s GF) in V|eauto].
  - intros r r' R1 R2. destruct (REI r R1) as [(-> & ->)|(k & d & -> & K1 & V1)], (REI r' R2) as [(-> & E2)|(k' & d' & -> & K2 & V2)]; auto.
    + now apply (no_goal_goto s GF) in V2.
    + subst gm. now apply (no_goal_goto s GF) in V1.
  - intros X X' S1 S2. apply N3; [apply SHI|apply SHI]; auto.
Qed.

(** Of a grammar without conflicts, with a goal that is on no right-hand side, lemon's
    parser (without %fallback and %wildcard, with full tables) and byacc's parser accept
    the same inputs: what byacc accepts lemon accepts given enough stack; what lemon
    accepts byacc accepts unless it runs out of stack. *)
Theorem C53_parsers_agree : forall s f1 f2 f3 flag pr sv Y sf ff cf o c,
  wf_src s -> wf_prec s pr -> wf_sv s sv -> nth 0 sv 0%Z = 0%Z -> goal_free s -> conflict_free (user s) ->
  byacc_generate f1 f2 f3 flag s pr sv = Ok Y ->
  small_lists sf ff (user s) -> opts_ok (user s) o -> o_fallback o = None -> o_wildcard o = None ->
  (forall l r, In (l, r) (b_rules s) -> length r <= 128) ->
  lemon_generate sf ff cf o (user s) = Ok c -> YY_SHIFT_COUNT (g_tab c) = YY_MAX_SHIFT (g_tab c) ->
  forall w lex, Forall (fun t => 0 < t < b_ntokens s) w -> delivers lex sv w ->
  (forall mem fuel x, yyparse Y lex fuel (fresh mem) = Ok (YAccept, x) -> y_nerrs x = 0 ->
     exists K N, forall grow cap fuel, stack_for K grow cap -> N <= fuel -> exists l, accepts c grow cap fuel w l) /\
  (forall grow cap fuel l, accepts c grow cap fuel w l ->
     forall mem, exists fuel e x, yyparse Y lex fuel (fresh mem) = Ok (e, x) /\ (e = YAccept /\ y_nerrs x = 0 \/ e = YOverflow)).
Proof.
  intros s f1 f2 f3 flag pr sv Y sf ff cf o c W WP SV SV0 GF CF EY SM OO FB WC R128 EC FULL w lex FW DL.
  assert (WU : wf_grammar (user s)) by (now apply wf_user).
  assert (SNR : start_not_rhs (user s)).
  { intros rl I K. cbn in I. apply in_map_iff in I as ([l r] & <- & I). cbn in K. apply in_map_iff in K as (x & E & Ix). inversion E; subst x. exact (GF l r I Ix). }
  assert (R128' : forall rl, In rl (g_rules (user s)) -> length (r_rhs rl) <= 128).
  { intros rl I. cbn in I. apply in_map_iff in I as ([l r] & <- & I). cbn. rewrite map_length. eauto. }
  pose proof (conflict_free_aug s W GF CF) as CFA. split.
  - intros mem fuel x R N. assert (SE : sentence (user s) w).
    { destruct (C48_accepted s f1 f2 f3 flag pr sv Y W WP SV SV0 EY lex mem fuel x R N) as (n & toks & PN & SE & N0 & M & LN).
      eapply delivered_same; eauto. }
    assert (NW : forall v, o_wildcard o = Some v -> never_reduced_on (user s) v) by (intros v E; congruence).
    apply (C15_complete_partial sf ff cf o (user s) c w WU SM SNR OO R128' EC (or_intror (conj FB NW)) FULL CF SE).
    intros I0. rewrite Forall_forall in FW. specialize (FW 0 I0). lia.
  - intros grow cap fuel l (p & p' & F1 & F2 & A1 & A2 & A3 & _) mem.
    destruct (C14_accepted_is_sentence sf ff cf o (user s) c grow fuel cap w p p' WU SM SNR OO R128' EC FW F1 F2 A1 A2 A3) as (toks' & rs & ks & MT & SE & _).
    assert (toks' = w).
    { clear - MT FB WC. induction MT as [|a b l l' H H' IH]; [reflexivity|]. f_equal; [|exact IH]. destruct H as [H|[(H1 & H2)|(_ & H)]]; [auto| |congruence].
      unfold fallback_of in H2. rewrite FB in H2. congruence. }
    subst toks'. destruct (C52_complete s f1 f2 f3 flag pr sv Y W WP SV SV0 EY CFA w lex SE DL (fresh mem)) as (f & e & x & R & H); [left; split; reflexivity|].
    exists f, e, x. split; [exact R|]. destruct H as [(H1 & H2 & _)|(H1 & _)]; [left; auto|right; auto].
Qed.
Print Assumptions C53_parsers_agree.

(** p : e ; e : e '+' t | t ; t : ID | '(' e ')'.  Tokens $end, error, '+', ID, '(', ')'. *)
Definition ex52 : bsrc := mkSrc 6 10 [(7, [8]); (8, [8; 2; 9]); (8, [9]); (9, [3]); (9, [4; 8; 5])].
Definition pr52 : bprec := mkPrec (repeat 0 10) (repeat TOKEN 10) (repeat 0 8) (repeat TOKEN 8).
Definition sv52 : list Z := [0; 256; 43; 257; 40; 41; -1; 0; 1; 2]%Z.
Definition Y52 : ytabs := Eval vm_compute in match byacc_generate 300 300 300 false ex52 pr52 sv52 with Ok Y => Y | _ => mkYtabs [] [] [] [] [] [] [] 0 [] [] 0 0%Z end.
Definition o52 : opts := mkOpts false false true (mkPrecs (fun _ => None) (fun _ => UNK))
    [None; None; None; None; None] [false; false; true; false; false] None None None (fun _ i => i) (fun _ i => i).
Definition c52 : gen := get_gen (lemon_generate 100 100 100 o52 (user ex52)).

Example C52_counted_hypotheses : exists nl st T P, wf_src ex52 /\ wf_prec ex52 pr52 /\ goal_free ex52 /\
  (forall t, nth t (symbol_prec pr52) 0 = 0) /\ (forall r, nth r (rprec pr52) 0 = 0) /\
  lr0 300 (pack_grammar ex52) = Ok (nl, st) /\ lalr 300 (pack_grammar ex52) nl st = Ok T /\ make_parser false (pack_grammar ex52) pr52 T = Ok P /\
  list_sum (p_SR P) = 0 /\ list_sum (p_RR P) = 0.
Proof.
  do 4 eexists. split; [apply wf_srcb_ok; reflexivity|]. split; [constructor; reflexivity|].
  split; [intros l r I J; cbn in I; repeat (destruct I as [I|I]; [inversion I; subst; cbn in J; lia|]); destruct I|].
  split; [intros t; apply (nth_repeat 0 10)|]. split; [intros t; apply (nth_repeat 0 8)|].
  split; [vm_compute; reflexivity|]. split; [vm_compute; reflexivity|]. split; [vm_compute; reflexivity|]. split; reflexivity.
Qed.

(** ID + ( ID ), with the stack of an earlier call and with no memory. *)
Example C52_hypotheses : wf_src ex52 /\ wf_prec ex52 pr52 /\ wf_sv ex52 sv52 /\ nth 0 sv52 0%Z = 0%Z /\ byacc_generate 300 300 300 false ex52 pr52 sv52 = Ok Y52 /\
  conflict_free (aug ex52) /\ sentence (user ex52) [3; 2; 4; 3; 5] /\ delivers (input [257; 43; 40; 257; 41; -7]%Z) sv52 [3; 2; 4; 3; 5] /\
  (exists c, yyparse Y52 (input [257; 43; 40; 257; 41; -7]%Z) 50 (fresh []) = Ok (YAccept, c) /\ y_nerrs c = 0 /\ y_pos c = 6 /\
     exists c', yyparse Y52 (input [257; 43; 40; 257; 41; -7]%Z) 50 (y_stk c) = Ok (YAccept, c') /\ y_nerrs c' = 0 /\ y_pos c' = 6) /\
  (exists c, yyparse Y52 (input [257; 43; 40; 257; 41; -7]%Z) 50 (fresh [false]) = Ok (YOverflow, c)).
Proof.
  destruct C52_counted_hypotheses as (nl & st & T & P & W & WP & GF & Z1 & Z2 & E1 & E2 & E3 & S1 & S2).
  split; [exact W|]. split; [exact WP|]. split.
  { constructor; [reflexivity| | |]; cbn.
    - intros t L. do 6 (destruct t as [|t]; [cbn; lia|]). lia.
    - intros t t' L L'. do 6 (destruct t as [|t]; [do 6 (destruct t' as [|t']; [cbn; lia|]); lia|]). lia.
    - intros k L. assert (k = 7 \/ k = 8 \/ k = 9) as [-> | [-> | ->]] by lia; reflexivity. }
  split; [reflexivity|]. split; [vm_compute; reflexivity|].
  split; [exact (C52_no_conflict_counted _ _ _ _ _ _ _ _ _ W WP GF Z1 Z2 E1 E2 E3 S1 S2)|].
  split. { split; [repeat constructor|]. unfold derives.
    by_rule 0 (@nil nat) (@nil elem). by_rule 1 (@nil nat) (@nil elem). by_rule 2 (@nil nat) [ESym 2; ESym 9]. by_rule 3 (@nil nat) [ESym 2; ESym 9].
    by_rule 4 [3; 2] (@nil elem). by_rule 2 [3; 2; 4] [ESym 5]. by_rule 3 [3; 2; 4] [ESym 5]. apply star_refl. }
  split. { split; [|cbn; lia]. intros i t E. do 5 (destruct i as [|i]; [cbn in E; inversion E; reflexivity|]). destruct i; discriminate. }
  split.
  - eexists. split; [vm_compute; reflexivity|]. split; [reflexivity|]. split; [reflexivity|]. eexists. split; [vm_compute; reflexivity|]. split; reflexivity.
  - eexists; vm_compute; reflexivity.
Qed.

Example C53_hypotheses :
  wf_src ex52 /\ goal_free ex52 /\ conflict_free (user ex52) /\ small_lists 100 100 (user ex52) /\ opts_ok (user ex52) o52 /\ o_fallback o52 = None /\ o_wildcard o52 = None /\
  (forall l r, In (l, r) (b_rules ex52) -> length r <= 128) /\
  lemon_generate 100 100 100 o52 (user ex52) = Ok c52 /\ YY_SHIFT_COUNT (g_tab c52) = YY_MAX_SHIFT (g_tab c52) /\
  accepts c52 (fun _ => None) 50 100 [3; 2; 4; 3; 5] [Sh 1; Re 2; Sh 2; Sh 3; Sh 4; Re 2; Sh 5; Re 3; Re 1; Re 0].
Proof.
  destruct C52_counted_hypotheses as (nl & st & T & P & W & _ & GF & _).
  split; [exact W|]. split; [exact GF|]. split; [free|]. split; [small|]. split; [plain_ok|]. split; [reflexivity|]. split; [reflexivity|].
  split; [intros l r I; cbn in I; repeat (destruct I as [I|I]; [inversion I; subst; cbn; lia|]); destruct I|].
  split; [vm_compute; reflexivity|]. split; [vm_compute; reflexivity|].
  do 2 eexists. split; [vm_compute; reflexivity|]. split; [vm_compute; reflexivity|]. no_events. vm_compute. reflexivity.
Qed.
