(** Completeness of the byacc parser for grammars without LALR(1) conflicts: yyparse
    follows the abstract LR machine step by step (models: ByaccParserModel and the
    passes before it). *)
From Coq Require Import List Arith NArith ZArith Lia Bool Sorted.
Import ListNotations.
From Verif Require Import SpecConflict LemonStatesModel LemonActionModel LemonPipelineModel LemonGenProof LemonSoundProof LemonMachineProof LemonCompleteProof.
From Verif Require Import Base SpecGrammar SpecGrammarFacts SpecLRFacts SpecLR0 SpecByacc SpecAgree ByaccWarshallModel ByaccWarshallProof ByaccLr0Model ByaccPackProof
  ByaccClosureProof ByaccNullProof ByaccLr0Proof ByaccStatesProof ByaccLalrModel ByaccDigraphProof ByaccTransposeProof ByaccLookSem ByaccGotoProof ByaccReadProof
  ByaccLookProof ByaccParModel SpecByaccConflicts ByaccParProof ByaccActionsProof ByaccOutputModel ByaccPackTableProof ByaccRowsProof Prop_ByaccConflicts Prop_ByaccPacking
  ByaccTablesProof ByaccParserModel ByaccParserProof.

Section Complete.
Variable s : bsrc.
Hypothesis W : wf_src s.
Variable st : lr0st.
Hypothesis LO : lr0_ok s st.
Variable T : lalr_tables.
Variable pr : bprec.
Variable flag : bool.
Variable P : par.
Hypothesis PO : par_ok s st T pr flag P.
Variable sv : list Z.
Hypothesis SV : wf_sv s sv.
Hypothesis SV0 : nth 0 sv 0%Z = 0%Z.
Variable Y : ytabs.
Hypothesis YO : ytab_ok s st P sv Y.
Hypothesis CF : conflict_free (aug s).
Variable lex : nat -> Z.
Variable mem0 : list bool.
Local Notation go := (go st).
Local Notation nst := (nst st).
Local Notation nt := (b_ntokens s).
Local Notation G := (aug s).
Local Notation sitem := (sitem s st).
Local Notation code t := (nth t sv 0%Z).
Local Notation cinv := (cinv s st sv lex mem0).

(** ** Every action is live *)
Lemma act_items : forall p gm, (forall i, sitem p i <-> valid G gm i) -> p < nst -> forall t r, t < nt -> In (S (S r)) (reds_of st p) -> LAs s st p r t -> reducible G gm r t.
Proof.
  intros p gm V Lp t r Lt Hr HL. destruct (red_item s W st LO p r Lp Hr) as (A & rhs & PL & I).
  apply (LAs_la s W st LO p r A rhs t PL) in HL as (gm' & L1 & L2). exists (mkRule A (map ESym rhs)), gm'. split; [exact (prl_rule s _ _ _ PL)|].
  split; [intros i; rewrite <- (V i); apply L1|]. cbn [r_rhs]. rewrite map_length. exact L2.
Qed.

Lemma go_shiftable : forall p gm, (forall i, sitem p i <-> valid G gm i) -> forall t q, go p t q -> shiftable G gm (ESym t) t.
Proof.
  intros p gm V t q H. destruct (go_sitem s W st LO _ _ _ H) as (_ & (i & A1 & A2) & _). split; [left; reflexivity|]. exists i. split; [apply V; exact A1|exact A2].
Qed.

Lemma spec_unique : forall p a b, p < nst -> act_spec s st pr p a -> act_spec s st pr p b -> a_sym a = a_sym b -> a = b.
Proof.
  intros p a b Lp Ha Hb E. destruct (sitem_gm s st LO p Lp) as (gm & V).
  assert (Lt : a_sym a < nt) by (destruct Ha as [(t & q & H & L & ->)|(t & r & L & H & _ & ->)]; exact L).
  destruct (CF gm (a_sym a) Lt) as (N1 & N2 & _).
  destruct Ha as [(t & q & H & L & ->)|(t & r & L & H & HL & ->)], Hb as [(t' & q' & H' & L' & ->)|(t' & r' & L' & H' & HL' & ->)]; cbn [a_sym shift_act red_act] in *; subst t'.
  - now rewrite (go_det s st LO _ _ _ _ H H').
  - exfalso. eapply N1; [eapply go_shiftable; eauto|eapply (act_items p gm V Lp t r'); eauto].
  - exfalso. eapply N1; [eapply go_shiftable; eauto|eapply (act_items p gm V Lp t r); eauto].
  - rewrite (N2 r r'); [reflexivity|eapply (act_items p gm V Lp t r); eauto|eapply (act_items p gm V Lp t r'); eauto].
Qed.

Lemma all_live : forall p acts, nth_error (p_parser P) p = Some acts -> forall a, act_spec s st pr p a -> In a acts /\ a_supp a = 0.
Proof.
  intros p acts E a Ha. assert (Lp : p < nst) by (rewrite <- (po_len _ _ _ _ _ _ PO); eapply nth_error_Some_lt; eauto).
  destruct (po_state _ _ _ _ _ _ PO p Lp) as (acts' & sr & rr & Q1 & Q2 & Q3 & (a0 & Q8 & Q4 & Q5 & Q6 & Q7)). assert (acts' = acts) by congruence. subst acts'.
  assert (I0 : In a a0) by (now apply Q6). split; [|now apply Q5]. apply (ro_live _ _ _ _ _ _ Q7 a I0).
  assert (U : forall b, In b a0 -> a_sym b = a_sym a -> b = a) by (intros b Ib Eb; apply (spec_unique p); auto; now apply Q6).
  unfold live_spec. destruct ((p =? p_final P) && (a_sym a =? 0)) eqn:F.
  - intros p' Ip E0. apply andb_true_iff in F as (_ & F). apply Nat.eqb_eq in F. rewrite (U p'); [|auto|congruence]. unfold act_lt. intros [H|(_ & [(H1 & H2)|(_ & _ & H)])]; [lia|congruence|lia].
  - destruct (a_shift a) eqn:Sh.
    + intros r (R1 & R2 & R3). apply U in R1; [|auto]. congruence.
    + assert (NS : forall x, ~ shifts_on a0 (a_sym a) x) by (intros x (R1 & R2 & R3); apply U in R1; [congruence|auto]).
      assert (C1 : forall x, contender a0 (a_sym a) x -> x = a) by (intros x ((R1 & R2 & R3) & _); now apply U).
      split; [split; [repeat split; auto|left; exact NS]|]. split; intros x Cx; apply C1 in Cx; subst x; lia.
Qed.

(** ** The action lists of the abstract machine *)
Definition list_of (q : nat) (acts : list action) : list LemonStatesModel.action :=
  map (fun q' => LemonStatesModel.mkAction LemonStatesModel.SHIFT (acc st q') q') (shifts_of st q) ++
  map (fun a => LemonStatesModel.mkAction LemonStatesModel.REDUCE (a_sym a) (a_num a - 2)) (filter (fun a => negb (a_shift a) && (a_supp a =? 0)) acts) ++
  (if q =? p_final P then [LemonStatesModel.mkAction LemonStatesModel.REDUCE 0 0] else []).
Definition lists : list (list LemonStatesModel.action) := map (fun q => list_of q (nth q (p_parser P) [])) (seq 0 nst).

Lemma lists_nth : forall q ap, nth_error lists q = Some ap -> q < nst /\ exists acts, nth_error (p_parser P) q = Some acts /\ ap = list_of q acts.
Proof.
  intros q ap E. unfold lists in E. rewrite nth_error_map in E. destruct (nth_error (seq 0 nst) q) as [q0|] eqn:E0; [|discriminate]. cbn in E. inversion E; subst ap.
  pose proof (nth_error_Some_lt _ _ _ _ E0) as L. rewrite seq_length in L. apply (nth_error_nth _ _ 0) in E0. rewrite seq_nth in E0 by auto. cbn in E0. subst q0. split; [auto|].
  destruct (nth_error_lt_ex _ (p_parser P) q) as (acts & Ea); [now rewrite (po_len _ _ _ _ _ _ PO)|]. exists acts. split; [auto|]. now rewrite (nth_error_nth _ _ _ Ea).
Qed.

Lemma list_shift : forall q acts t q', In (LemonStatesModel.mkAction LemonStatesModel.SHIFT t q') (list_of q acts) <-> go q t q'.
Proof.
  intros q acts t q'. unfold list_of. rewrite !in_app_iff, !in_map_iff. split.
  - intros [(x & E & I)|[(x & E & I)|I]]; [|discriminate|].
    + inversion E; subst. split; auto.
    + destruct (q =? p_final P); [destruct I as [I|[]]; discriminate|destruct I].
  - intros [I E]. left. exists q'. rewrite E. auto.
Qed.

Lemma list_red : forall q acts t r, In (LemonStatesModel.mkAction LemonStatesModel.REDUCE t r) (list_of q acts) ->
  (exists a, In a acts /\ a_shift a = false /\ a_supp a = 0 /\ a_sym a = t /\ a_num a - 2 = r) \/ (q = p_final P /\ t = 0 /\ r = 0).
Proof.
  intros q acts t r H. unfold list_of in H. rewrite !in_app_iff, !in_map_iff in H. destruct H as [(x & E & I)|[(x & E & I)|I]]; [discriminate| |].
  - inversion E; subst. apply filter_In in I as (I & F). apply andb_true_iff in F as (F1 & F2). apply negb_true_iff in F1. apply Nat.eqb_eq in F2. left. exists x. auto.
  - destruct (Nat.eqb_spec q (p_final P)); [|destruct I]. destruct I as [I|[]]. inversion I. auto.
Qed.

Lemma machine_runs : forall o w, sentence G w -> exists R, LemonMachineProof.arun G o lists [0] 1 w R.
Proof.
  intros o w SE. destruct (lr0_view s W st LO) as (sts & A & L & V).
  apply (machine_complete G o sts lists (wf_aug s W) A); auto.
  - unfold lists. rewrite map_length, seq_length. auto.
  - intros q ap X q' t E (I & sh & J & sh' & E1 & E2 & SU) It. destruct (lists_nth _ _ E) as (Lq & acts & Ea & ->). apply list_shift.
    assert (IS : In (t, q') sh) by (apply (lr0_shift _ _ A q I sh t q' E1); exists X, J, sh'; auto).
    destruct (V q I sh E1) as (_ & _ & ->). apply in_map_iff in IS as (q2 & E3 & I2). inversion E3; subst. split; auto.
  - intros q ap gm r rl t E (I & sh & E1 & VS) R LA Lt. destruct (lists_nth _ _ E) as (Lq & acts & Ea & ->). destruct (V q I sh E1) as (_ & V2 & _).
    assert (LE : leads s st q gm) by (intros i; rewrite <- (V2 i); apply VS).
    unfold list_of. rewrite !in_app_iff. right.
    destruct (Nat.eq_dec r 0) as [->|Nr].
    + right. destruct (la_fol s W st LO gm _ t LA q LE) as [(_ & ->)|(A1 & l & p & (N & _) & _)]; [|cbn in N; congruence].
      cbn in R. inversion R; subst rl. cbn [r_rhs length] in LA. pose proof (la_valid _ _ _ _ LA) as VA. apply (valid_GU s W) in VA as [(H & _)|[(_ & ->)|(k & d & H & _)]]; try discriminate.
      assert (q = p_final P).
      { apply (state_inj s W st LO); [auto|apply (go_sitem s W st LO _ _ _ (po_final _ _ _ _ _ _ PO))|]. intros i. rewrite (LE i). symmetry.
        apply (go_valid s W st LO _ _ _ [] (po_final _ _ _ _ _ _ PO)). intros j. apply (sitem_0 s W st LO). }
      subst q. rewrite Nat.eqb_refl. now left.
    + left. destruct (proj2 (las_items s st W LO q I t r V2 Lq)) as (H1 & H2).
      { exists gm, (r, length (r_rhs rl)). split; [exact VS|]. split; [exact LA|]. split; [|auto]. unfold after_dot. cbn [fst snd]. rewrite R. now apply nth_error_None. }
      destruct (all_live q acts Ea (red_act pr t (S (S r)))) as (I1 & Z1); [right; exists t, r; auto|].
      apply in_map_iff. exists (red_act pr t (S (S r))). split; [cbn; f_equal; lia|]. apply filter_In. split; [exact I1|]. now rewrite Z1.
Qed.

(** ** yyparse follows *)

(** [w] is the input left. *)
Definition left_of (c : ycfg) (w : list nat) : Prop :=
  (forall i t, nth_error w i = Some t -> 0 < t < nt /\ lex (consumed c + i) = code t) /\ (lex (consumed c + length w) <= 0)%Z.
Definition calm (c : ycfg) : Prop := y_nerrs c = 0 /\ y_flag c = 0.

Lemma read_char : forall c w, cinv c -> left_of c w -> y_char (read lex c) = code (hd 0 w) /\ left_of (read lex c) w /\ (calm c -> calm (read lex c)).
Proof.
  intros c w C (L1 & L2). destruct (read_ok s st sv lex mem0 c C) as (C2 & PC & CC & EK).
  split; [|split; [split; rewrite CC; auto|unfold calm, read; destruct (y_char c <? 0)%Z; auto]].
  destruct C2 as [_ CH _]. destruct (CH PC) as (P1 & ->).
  assert (EP : y_pos (read lex c) - 1 = consumed c).
  { rewrite <- CC. unfold consumed. destruct (Z.ltb_spec (y_char (read lex c)) 0); [lia|reflexivity]. }
  rewrite EP. destruct w as [|t w].
  - cbn [hd length] in *. rewrite Nat.add_0_r in L2. rewrite SV0. destruct (Z.ltb_spec (lex (consumed c)) 0); lia.
  - cbn [hd]. destruct (L1 0 t eq_refl) as (Rt & E). rewrite Nat.add_0_r in E. rewrite E. pose proof (sv_pos _ _ SV t ltac:(lia)). destruct (Z.ltb_spec (code t) 0); [lia|auto].
Qed.

Lemma code_inj0 : forall w c, left_of c w -> code (hd 0 w) = 0%Z -> w = [].
Proof.
  intros [|t w] c (L1 & _) E; [reflexivity|]. cbn in E. destruct (L1 0 t eq_refl) as (Rt & _). exfalso. assert (t = 0); [|lia].
  pose proof (ws_tok s W). apply (sv_inj _ _ SV); [lia|lia|congruence].
Qed.

(** The end of the parse. *)
Definition good_end (n : nat) (r : yend * ycfg) : Prop := (fst r = YAccept /\ y_nerrs (snd r) = 0 /\ y_pos (snd r) = S n) \/ fst r = YOverflow.

Lemma reduce_step : forall c q l r A rhs q0 qs0 q1 w, cinv c -> calm c -> left_of c w -> ks_st (y_stk c) = q :: l -> prl s r A rhs -> sitem q (r, length rhs) ->
  skipn (length rhs) (q :: l) = q0 :: qs0 -> go q0 A q1 ->
  exists x, yyreduce Y lex c r = Ok x /\
    match x with
    | YNext c' => cinv c' /\ calm c' /\ left_of c' w /\ consumed c' = consumed c /\ ks_st (y_stk c') = q1 :: q0 :: qs0 /\ (q0 = 0 -> A = S nt -> w <> [])
    | YEnd e c' => good_end (consumed c + length w) (e, c')
    end.
Proof.
  intros c q l r A rhs q0 qs0 q1 w C CA LF ES PL I SK GT.
  destruct (reduce_ok s W st LO T pr flag P PO sv Y YO lex mem0 c q l r A rhs C ES PL I) as (x & EX & OX). exists x. split; [exact EX|].
  pose proof C as [M CH (sy & SP & TK)].
  unfold yyreduce in EX. rewrite (yo_len _ _ _ _ _ YO _ _ _ PL) in EX. cbn [opt bind] in EX.
  destruct (Nat.leb_spec (length (ks_st (y_stk c))) (length rhs)) as [LS|LS]; [discriminate|]. rewrite ES, SK in EX. cbn [ks_st hd] in EX.
  rewrite (yo_lhs _ _ _ _ _ YO _ _ _ PL) in EX. cbn [opt bind] in EX.
  pose proof (prl_lhs_range s W _ _ _ PL) as RA.
  assert (LQ : length (q0 :: qs0) <= ks_size (y_stk c)).
  { rewrite <- SK. rewrite skipn_length. rewrite <- ES. destruct M as (_ & ML). lia. }
  destruct M as ((U1 & U2 & U3 & U4) & ML).
  assert (PLAIN : (if (let '(ok, k) := room (mkYstack (q0 :: qs0) (ks_size (y_stk c)) (ks_scap (y_stk c)) (ks_lcap (y_stk c)) (ks_mem (y_stk c))) in ok) then True else True) ->
    (q0 = 0 -> A <> S nt) ->
    (a <- num (Z.of_nat (A - nt - 1)) ;; ix <- opt (nth_error (y_gindex Y) a) ;; o <- look Y ix (Z.of_nat q0) ;;
     q <- match o with Some t => num t | None => opt (nth_error (y_dgoto Y) a) end ;;
     let '(ok, k) := room (mkYstack (q0 :: qs0) (ks_size (y_stk c)) (ks_scap (y_stk c)) (ks_lcap (y_stk c)) (ks_mem (y_stk c))) in
     if ok then k <- push k q ;; Ok (YNext (mkYcfg k (y_char c) (y_flag c) (y_nerrs c) (y_pos c)))
     else Ok (YEnd YOverflow (mkYcfg k (y_char c) (y_flag c) (y_nerrs c) (y_pos c))))%res = Ok x ->
    match x with
    | YNext c' => cinv c' /\ calm c' /\ left_of c' w /\ consumed c' = consumed c /\ ks_st (y_stk c') = q1 :: q0 :: qs0 /\ (q0 = 0 -> A = S nt -> w <> [])
    | YEnd e c' => good_end (consumed c + length w) (e, c')
    end).
  { intros _ NF E. rewrite num_of_nat in E. cbn [bind] in E.
    destruct (yo_go _ _ _ _ _ YO q0 A q1 GT ltac:(lia)) as (ix & d & o & H1 & H2 & H3 & H4). rewrite H1 in E. cbn [opt bind] in E. unfold look in E. rewrite H3 in E. cbn [bind] in E.
    assert (EQ : (match o with Some t => num t | None => opt (nth_error (y_dgoto Y) (A - nt - 1)) end) = Ok q1)
      by (destruct o as [t|]; [subst t; apply num_of_nat|rewrite H2; cbn [opt]; f_equal; lia]). rewrite EQ in E. cbn [bind] in E.
    match type of E with context[room ?k] => destruct (room k) as [ok k2] eqn:ER end.
    eapply (room_ok mem0) in ER; [|split; [repeat split; auto|exact LQ]]. destruct ER as (R1 & R2 & R3 & R4). cbn [ks_st] in R1.
    destruct ok.
    - destruct (push_ok mem0 k2 q1 R2 (R3 eq_refl)) as (k3 & K1 & K2 & K3). rewrite K1 in E. cbn [bind] in E. inversion E; subst x. cbn [step_ok] in OX.
      split; [exact OX|]. split; [exact CA|]. split; [exact LF|]. split; [reflexivity|]. split; [cbn [y_stk]; rewrite K2, R1; reflexivity|]. intros H H'. now destruct (NF H).
    - inversion E; subst x. right. reflexivity. }
  destruct (Nat.eqb_spec q0 0) as [Q0|Q0]; destruct (Z.eqb_spec (Z.of_nat (A - nt - 1)) 0) as [A0|A0]; cbn [andb] in EX;
    [|apply PLAIN; [destruct (room _) as [[] ?]; exact Logic.I|lia|exact EX]|apply PLAIN; [destruct (room _) as [[] ?]; exact Logic.I|lia|exact EX]|apply PLAIN; [destruct (room _) as [[] ?]; exact Logic.I|lia|exact EX]].
  clear PLAIN. subst q0. assert (EF : q1 = y_final Y) by (eapply (final_0 s st LO T pr flag P PO sv Y YO A 0 q1); auto; lia).
  destruct (push_ok mem0 (mkYstack (0 :: qs0) (ks_size (y_stk c)) (ks_scap (y_stk c)) (ks_lcap (y_stk c)) (ks_mem (y_stk c))) (y_final Y)) as (k' & K1 & K2 & K3).
  { repeat split; auto. }
  { destruct (spath_pop s W st LO r A rhs PL (length rhs) l q sy (Nat.le_refl _)) as (q' & l' & sy' & E1 & E2 & E3 & E4); [rewrite <- ES; exact SP|exact I|].
    rewrite SK in E1. inversion E1; subst q' l'. destruct (spath_zero s W st LO _ _ E3) as [-> _]. cbn [ks_st length ks_size]. lia. }
  cbn zeta in EX. rewrite K1 in EX. cbn [bind] in EX.
  destruct (read_ok s st sv lex mem0 (mkYcfg k' (y_char c) (y_flag c) (y_nerrs c) (y_pos c))) as (C2 & PC & CC & EK).
  { destruct (spath_pop s W st LO r A rhs PL (length rhs) l q sy (Nat.le_refl _)) as (q' & l' & sy' & E1 & E2 & E3 & E4); [rewrite <- ES; exact SP|exact I|].
    rewrite SK in E1. inversion E1; subst q' l'. rewrite firstn_all in E2. constructor; cbn [y_stk]; [exact K3|exact CH|].
    exists (A :: sy'). split; [rewrite K2; cbn [ks_st]; rewrite <- EF; constructor; auto|]. cbn [y_nerrs y_flag]. intros N. destruct (TK N) as (F & TT). split; [exact F|].
    rewrite E2 in TT. exact (tokens_reduce s sv lex _ _ _ _ _ PL TT). }
  destruct (read_char (mkYcfg k' (y_char c) (y_flag c) (y_nerrs c) (y_pos c)) w) as (RC & RL & RCA).
  { clear - C2 K3 K2 C SP TK CH PL I SK GT EF ES W LO. destruct (spath_pop s W st LO r A rhs PL (length rhs) l q sy (Nat.le_refl _)) as (q' & l' & sy' & E1 & E2 & E3 & E4); [rewrite <- ES; exact SP|exact I|].
    rewrite SK in E1. inversion E1; subst q' l'. rewrite firstn_all in E2. constructor; cbn [y_stk]; [exact K3|exact CH|].
    exists (A :: sy'). split; [rewrite K2; cbn [ks_st]; rewrite <- EF; constructor; auto|]. cbn [y_nerrs y_flag]. intros N. destruct (TK N) as (F & TT). split; [exact F|].
    rewrite E2 in TT. exact (tokens_reduce s sv lex _ _ _ _ _ PL TT). }
  { exact LF. }
  remember (read lex (mkYcfg k' (y_char c) (y_flag c) (y_nerrs c) (y_pos c))) as c2 eqn:Ec2.
  change (consumed (mkYcfg k' (y_char c) (y_flag c) (y_nerrs c) (y_pos c))) with (consumed c) in CC.
  destruct (Z.eqb_spec (y_char c2) 0) as [Z0|Z0]; inversion EX; subst x.
  - left. split; [reflexivity|]. destruct (RCA CA) as (N & F). split; [exact N|]. cbn [snd]. rewrite RC in Z0. apply (code_inj0 w c LF) in Z0. subst w. cbn [length]. rewrite Nat.add_0_r, <- CC.
    destruct C2 as [_ CH2 _]. destruct (CH2 PC) as (PP & _). unfold consumed. destruct (Z.ltb_spec (y_char c2) 0); lia.
  - split; [exact C2|]. split; [exact (RCA CA)|]. split; [exact RL|]. split; [exact CC|]. split; [rewrite EK; cbn [y_stk]; rewrite K2; cbn [ks_st]; now rewrite EF|].
    intros _ _ ->. cbn [hd] in RC. congruence.
Qed.

(** The machine never stands before the acceptance of what yyparse has accepted. *)
Lemma follow : forall o qs id w R, LemonMachineProof.arun G o lists qs id w R ->
  forall c, cinv c -> calm c -> left_of c w -> ks_st (y_stk c) = qs -> (qs = [p_final P; 0] -> w <> []) ->
  exists f r, yyrun Y lex f c = Ok r /\ good_end (consumed c + length w) r.
Proof.
  intros o qs id w R H. induction H as [q qs ap t q' id ts R E I H IH|q qs ap r rl q0 qs0 ap0 q1 id ts R E I RL SK E0 I0 H IH|q qs ap r rl id E I RL LH SK]; intros c C CA LF ES NE.
  - (* shift *)
    destruct (lists_nth _ _ E) as (Lq & acts & Ea & ->). apply list_shift in I.
    destruct (proj1 LF 0 t eq_refl) as (Rt & _).
    destruct (all_live q acts Ea (shift_act pr t q')) as (I1 & Z1); [left; exists t, q'; split; [exact I|split; [lia|reflexivity]]|].
    destruct (yyloop_ok s W st LO T pr flag P PO sv SV SV0 Y YO lex mem0 c C) as (x & EX & OX).
    assert (NX : match x with
      | YNext c' => cinv c' /\ calm c' /\ left_of c' ts /\ consumed c' = S (consumed c) /\ ks_st (y_stk c') = q' :: q :: qs
      | YEnd e c' => e = YOverflow end).
    { unfold yyloop in EX. rewrite ES in EX. cbn [hd] in EX. rewrite (yo_def _ _ _ _ _ YO _ _ Ea) in EX. cbn [opt bind] in EX.
      destruct (parser_state s W st LO T pr flag P PO q Lq) as (acts' & Q1 & Q2 & Q3). assert (acts' = acts) by congruence. subst acts'.
      destruct (Nat.eqb_spec (sole_reduction acts) 0) as [D|D].
      2:{ exfalso. destruct (ao_def _ _ _ _ _ Q3 ltac:(lia)) as [AD _]. destruct (AD _ I1 Z1). discriminate. }
      cbn [Nat.eqb negb] in EX. destruct (read_ok s st sv lex mem0 c C) as (C2 & PC & CC & EK). destruct (read_char c (t :: ts) C LF) as (RC & RLF & RCA). remember (read lex c) as c2 eqn:Ec2.
      destruct (yo_sh _ _ _ _ _ YO q acts (y_char c2) Ea PC) as (ix & oo & H1 & H2 & H3). rewrite H1 in EX. cbn [opt bind] in EX. unfold look in EX. rewrite H2 in EX. cbn [bind] in EX.
      rewrite (proj2 (H3 (Z.of_nat q'))) in EX; [|exists (shift_act pr t q'); cbn [a_shift a_sym a_num shift_act]; auto].
      destruct (room (y_stk c2)) as [ok k2] eqn:ER. eapply (room_ok mem0) in ER; [|apply C2]. destruct ER as (R1 & R2 & R3 & R4).
      destruct ok; [|inversion EX; subst x; reflexivity]. rewrite num_of_nat in EX. cbn [bind] in EX.
      destruct (push_ok mem0 k2 q' R2 (R3 eq_refl)) as (k3 & K1 & K2 & K3). rewrite K1 in EX. cbn [bind] in EX. inversion EX; subst x. cbn [step_ok] in OX.
      split; [exact OX|]. destruct (RCA CA) as (N & F). split; [split; cbn [y_nerrs y_flag]; lia|].
      assert (CS : consumed (mkYcfg k3 (-1)%Z (y_flag c2 - 1) (y_nerrs c2) (y_pos c2)) = S (consumed c)).
      { rewrite <- CC. unfold consumed. cbn [y_char y_pos]. destruct (Z.ltb_spec (y_char c2) 0); [lia|]. destruct (Z.ltb_spec (-1) 0); [|lia].
        destruct C2 as [_ CH2 _]. destruct (CH2 PC). lia. }
      split; [|split; [exact CS|cbn [y_stk]; now rewrite K2, R1, EK, ES]]. unfold left_of. rewrite CS. destruct LF as (L1 & L2). split.
      - intros i u Eu. replace (S (consumed c) + i) with (consumed c + S i) by lia. apply L1. exact Eu.
      - cbn [length] in L2. replace (S (consumed c) + length ts) with (consumed c + S (length ts)) by lia. exact L2. }
    destruct x as [c'|e c'].
    + destruct NX as (X1 & X2 & X3 & X4 & X5). destruct (IH c' X1 X2 X3 X5) as (f & r & F1 & F2).
      * intros EQ. inversion EQ; subst. exfalso. destruct (go_range s W st LO _ _ _ I) as (_ & _ & _ & _ & _ & AC1).
        destruct (go_range s W st LO _ _ _ (po_final _ _ _ _ _ _ PO)) as (_ & _ & _ & _ & _ & AC2). lia.
      * exists (S f), r. cbn [yyrun]. rewrite EX. cbn [bind]. split; [exact F1|]. rewrite X4 in F2. cbn [length]. replace (consumed c + S (length ts)) with (S (consumed c) + length ts) by lia. exact F2.
    + exists 1, (e, c'). cbn [yyrun]. rewrite EX. cbn [bind]. split; [reflexivity|]. right. exact NX.
  - (* reduction *)
    destruct (lists_nth _ _ E) as (Lq & acts & Ea & ->). destruct (lists_nth _ _ E0) as (Lq0 & acts0 & Ea0 & ->). apply list_shift in I0.
    destruct (parser_state s W st LO T pr flag P PO q Lq) as (acts' & Q1 & Q2 & Q3). assert (acts' = acts) by congruence. subst acts'.
    destruct (list_red _ _ _ _ I) as [(a & Ia & Sa & Za & Xa & Na)|(_ & _ & ->)].
    2:{ exfalso. cbn in RL. inversion RL; subst rl. cbn [r_lhs] in I0. destruct (go_range s W st LO _ _ _ I0) as (_ & N & _). congruence. }
    destruct (ao_spec _ _ _ _ _ Q3 a Ia Za) as [(t & q2 & Hg & Lt & ->)|(t & r2 & Lt & Hr & HL & ->)]; [discriminate|]. cbn [a_sym a_num red_act] in *.
    replace (S (S r2) - 2) with r2 in Na by lia. subst r2. destruct (red_item s W st LO q r Lq Hr) as (A & rhs & PL & SI).
    rewrite (prl_rule s _ _ _ PL) in RL. inversion RL; subst rl. cbn [r_lhs r_rhs] in *. rewrite map_length in SK.
    assert (RUN : exists c1, cinv c1 /\ calm c1 /\ left_of c1 ts /\ consumed c1 = consumed c /\ ks_st (y_stk c1) = q :: qs /\ yyloop Y lex c = yyreduce Y lex c1 r).
    { unfold yyloop. rewrite ES. cbn [hd]. rewrite (yo_def _ _ _ _ _ YO _ _ Ea). cbn [opt bind].
      destruct (Nat.eqb_spec (sole_reduction acts) 0) as [D|D]; cbn [negb].
      - cbn [Nat.eqb negb]. destruct (read_ok s st sv lex mem0 c C) as (C2 & PC & CC & EK). destruct (read_char c ts C LF) as (RC & RLF & RCA).
        exists (read lex c). split; [exact C2|]. split; [auto|]. split; [exact RLF|]. split; [exact CC|]. split; [congruence|].
        remember (read lex c) as c2 eqn:Ec2.
        destruct (yo_sh _ _ _ _ _ YO q acts (y_char c2) Ea PC) as (ix & oo & H1 & H2 & H3). rewrite H1. cbn [opt bind]. unfold look. rewrite H2. cbn [bind].
        assert (LH : hd 0 ts < nt) by (destruct ts as [|t0 ts]; cbn [hd] in *; lia).
        destruct oo as [t1|].
        + exfalso. destruct (proj1 (H3 t1) eq_refl) as (b & Ib & Zb & Sb & Xb & _). rewrite RC in Xb. pose proof (ao_spec _ _ _ _ _ Q3 b Ib Zb) as SB.
          destruct (spec_range s W st LO pr q b Lq SB) as (Lb & _). apply (sv_inj _ _ SV) in Xb; [|lia|lia].
          assert (EB : b = red_act pr t (S (S r))) by (apply (spec_unique q); auto; [right; exists t, r; auto|cbn [a_sym red_act]; congruence]). rewrite EB in Sb. discriminate.
        + destruct (yo_rd _ _ _ _ _ YO q acts (y_char c2) Ea PC) as (ix' & o' & H1' & H2' & H3'). rewrite H1'. cbn [opt bind]. rewrite H2'. cbn [bind].
          rewrite (proj2 (H3' (Z.of_nat r))).
          * rewrite num_of_nat. reflexivity.
          * exists (red_act pr t (S (S r))). cbn [a_supp a_shift a_num a_sym red_act]. split; [exact Ia|]. split; [reflexivity|]. split; [reflexivity|]. split; [lia|]. split; [congruence|lia].
      - destruct (ao_def _ _ _ _ _ Q3 ltac:(lia)) as [AD HR]. destruct (AD _ Ia Za) as (_ & AN). cbn [a_num red_act] in AN. rewrite <- AN.
        replace (S (S r) - 2) with r by lia. assert (r <> 0) by apply PL. destruct (Nat.eqb_spec r 0); [congruence|]. cbn [negb].
        exists c. do 5 (split; [auto|]). reflexivity. }
    destruct RUN as (c1 & C1 & CA1 & LF1 & CO1 & ES1 & EY). destruct (reduce_step c1 q qs r A rhs q0 qs0 q1 ts C1 CA1 LF1 ES1 PL SI SK I0) as (x & EX & OX). rewrite <- EY in EX.
    destruct x as [c'|e c'].
    + destruct OX as (X1 & X2 & X3 & X4 & X5 & X6). destruct (IH c' X1 X2 X3 X5) as (f & rr & F1 & F2).
      * intros EQ. inversion EQ; subst. apply X6; [auto|]. destruct (go_range s W st LO _ _ _ I0) as (_ & _ & _ & _ & _ & AC1).
        destruct (go_range s W st LO _ _ _ (po_final _ _ _ _ _ _ PO)) as (_ & _ & _ & _ & _ & AC2). congruence.
      * exists (S f), rr. cbn [yyrun]. rewrite EX. cbn [bind]. split; [exact F1|]. rewrite X4, CO1 in F2. exact F2.
    + exists 1, (e, c'). cbn [yyrun]. rewrite EX. cbn [bind]. split; [reflexivity|]. rewrite CO1 in OX. exact OX.
  - (* acceptance *)
    exfalso. destruct (lists_nth _ _ E) as (Lq & acts & Ea & ->). destruct (parser_state s W st LO T pr flag P PO q Lq) as (acts' & Q1 & Q2 & Q3). assert (acts' = acts) by congruence. subst acts'.
    destruct (list_red _ _ _ _ I) as [(a & Ia & Sa & Za & Xa & Na)|(-> & _ & ->)].
    + destruct (ao_spec _ _ _ _ _ Q3 a Ia Za) as [(t & q2 & Hg & Lt & ->)|(t & r2 & Lt & Hr & HL & ->)]; [discriminate|]. cbn [a_num red_act] in Na. replace (S (S r2) - 2) with r2 in Na by lia. subst r2.
      destruct (red_item s W st LO q r Lq Hr) as (A & rhs & PL & SI). rewrite (prl_rule s _ _ _ PL) in RL. inversion RL; subst rl. cbn in LH. pose proof (prl_lhs_range s W _ _ _ PL). lia.
    + cbn in RL. inversion RL; subst rl. cbn [r_rhs length skipn] in SK. subst qs. apply NE; reflexivity.
Qed.

Lemma sentence_aug : forall w, sentence (user s) w -> sentence G w.
Proof.
  intros w (F & D). split; [exact F|]. cbn [g_start aug]. eapply star_trans; [|apply (derives_UG s); exact D]. apply star_one.
  pose proof (step_rule G [] [] (mkRule nt [ESym (S nt)]) (or_introl eq_refl)) as S1. cbn [app r_lhs r_rhs] in S1. exact S1.
Qed.

Lemma parse_complete : forall (o : opts) w, sentence (user s) w -> (forall i t, nth_error w i = Some t -> 0 < t < nt /\ lex i = code t) -> (lex (length w) <= 0)%Z ->
  forall k, (ks_scap k = 0 /\ ks_size k = 0 /\ incl (ks_mem k) mem0) \/ usable mem0 k -> exists f r, yyparse Y lex f k = Ok r /\ good_end (length w) r.
Proof.
  intros o w SE L1 L2 k HK.
  destruct (machine_runs o w (sentence_aug w SE)) as (R & AR).
  assert (RUN : forall k, usable mem0 k -> exists f r, yyrun Y lex f (mkYcfg (mkYstack [0] (ks_size k) (ks_scap k) (ks_lcap k) (ks_mem k)) (-1)%Z 0 0 0) = Ok r /\ good_end (length w) r).
  { intros k0 U0. destruct (follow o _ _ _ _ AR (mkYcfg (mkYstack [0] (ks_size k0) (ks_scap k0) (ks_lcap k0) (ks_mem k0)) (-1)%Z 0 0 0)) as (f & r & F1 & F2).
    - constructor; cbn [y_stk].
      + split; [exact U0|]. cbn [ks_st ks_size length]. destruct U0. lia.
      + intros X. cbn [y_char] in X. lia.
      + exists []. split; [constructor|]. intros _. split; [reflexivity|]. exists []. split; [constructor|]. split; [apply star_refl|reflexivity].
    - split; reflexivity.
    - split; [intros i t E; exact (L1 i t E)|exact L2].
    - reflexivity.
    - discriminate.
    - exists f, r. split; [exact F1|exact F2]. }
  unfold yyparse. destruct HK as [(S1 & S2 & S3)|U0].
  - rewrite S1. cbn [Nat.eqb]. unfold yygrowstack. rewrite S2. cbn [Nat.eqb orb].
    destruct (realloc (ks_mem k)) as [ok1 m1] eqn:E1. destruct (realloc_incl mem0 _ _ _ E1 S3) as [I1 F1]. destruct ok1.
    + destruct (realloc m1) as [ok2 m2] eqn:E2. destruct (realloc_incl mem0 _ _ _ E2 I1) as [I2 F2]. destruct ok2.
      * change (ks_scap (mkYstack (ks_st k) YYINITSTACKSIZE YYINITSTACKSIZE YYINITSTACKSIZE m2) =? 0) with false. cbv iota.
        apply RUN. repeat split; auto; cbn [ks_size ks_scap ks_lcap]; unfold YYINITSTACKSIZE; lia.
      * exists 1. eexists. split; [reflexivity|]. right. reflexivity.
    + exists 1. eexists. split; [reflexivity|]. right. reflexivity.
  - destruct (Nat.eqb_spec (ks_scap k) 0) as [Z0|Z0]; [destruct U0; lia|]. destruct (Nat.eqb_spec (ks_scap k) 0); [lia|]. apply RUN. exact U0.
Qed.
End Complete.
