(** yyparse of a conflict-free byacc grammar ends when the lexer does. *)
From Coq Require Import List Arith ZArith Lia Bool.
Import ListNotations.
From Verif Require Import Base SpecGrammar SpecGrammarFacts SpecLRFacts SpecLR0 SpecConflict SpecReduceChain SpecByacc ByaccLr0Model ByaccLr0Proof ByaccStatesProof ByaccLookSem
  ByaccLalrModel ByaccLookProof ByaccParModel ByaccTablesProof ByaccActionsProof ByaccOutputModel ByaccGotoProof ByaccParserModel ByaccReadProof ByaccParserProof.
Local Open Scope res_scope.

Section Ends.
Variable s : bsrc.
Hypothesis W : wf_src s.
Variable st : lr0st.
Hypothesis LO : lr0_ok s st.
Variable T : lalr_tables.
Variable pr : bprec.
Variable flag : bool.
Variable P : par.
Hypothesis PO : par_ok s st T pr flag P.
Variable sv : list Z.
Hypothesis SV : wf_sv s sv.
Hypothesis SV0 : nth 0 sv 0%Z = 0%Z.
Variable Y : ytabs.
Hypothesis YO : ytab_ok s st P sv Y.
Variable lex : nat -> Z.
Variable mem0 : list bool.
Hypothesis AP : all_productive (aug s).
Hypothesis CF : conflict_free (aug s).

Local Notation go := (go st).
Local Notation nst := (nst st).
Local Notation nt := (b_ntokens s).
Local Notation G := (aug s).
Local Notation sitem := (sitem s st).
Local Notation spath := (spath st).
Local Notation cinv := (cinv s st sv lex mem0).
Local Notation stk c := (ks_st (y_stk c)).

Lemma spath_valid : forall l sy, spath l sy -> forall p l0, l = p :: l0 -> forall i, sitem p i <-> valid G (map ESym sy) i.
Proof.
  intros l sy H. induction H as [|p l sy X q H IH Hg]; intros p0 l0 E; injection E as <- _.
  - apply (sitem_0 s W st LO).
  - cbn [map]. apply (go_valid s W st LO p X q _ Hg). eapply IH. reflexivity.
Qed.

Lemma spath_fun : forall l sy, spath l sy -> forall sy', spath l sy' -> sy = sy'.
Proof.
  intros l sy H. induction H as [|p l sy X q H IH Hg]; intros sy' H'; inversion H' as [|p0 l1 sy0 X0 q0 H0 Hg0]; subst; auto.
  f_equal; [|now apply IH]. destruct Hg as (_ & <-), Hg0 as (_ & <-). reflexivity.
Qed.

(** One round of the parser: a reduction, a token gone, or a state for the token error found. *)
Definition moved (c c' : ycfg) : Prop :=
  consumed c' = consumed c /\ y_flag c' = y_flag c /\ (forall sy sy', spath (stk c) sy -> spath (stk c') sy' -> red G (map ESym sy) (map ESym sy')).
Definition gone (c c' : ycfg) : Prop := consumed c' = S (consumed c) /\ (0 < lex (consumed c))%Z.
Definition found (c c' : ycfg) : Prop := consumed c' = consumed c /\ y_flag c < 3 /\ y_flag c' = 3.

Lemma push_st : forall k x k', push k x = Ok k' -> ks_st k' = x :: ks_st k.
Proof. intros k x k' HP. unfold push in HP. destruct (_ && _); inversion HP; reflexivity. Qed.

Lemma room_st : forall k ok k', room k = (ok, k') -> ks_st k' = ks_st k.
Proof.
  intros k ok k' ER. unfold room in ER. destruct (_ || _); [|inversion ER; reflexivity]. unfold yygrowstack in ER. cbv zeta in ER.
  destruct (_ || _); [|inversion ER; reflexivity]. destruct (realloc (ks_mem k)) as [[|] m1]; [destruct (realloc m1) as [[|] m2]|]; inversion ER; reflexivity.
Qed.

Lemma reduce_moved : forall c q l r A rhs c', cinv c -> stk c = q :: l -> prl s r A rhs -> sitem q (r, length rhs) -> yyreduce Y lex c r = Ok (YNext c') -> moved c c'.
Proof.
  intros c q l r A rhs c' C ES PL I H. pose proof (reduce_ok s W st LO T pr flag P PO sv Y YO lex mem0 c q l r A rhs C ES PL I) as (x & E & OX). rewrite H in E. injection E as <-.
  destruct C as [M CH (sy & SP & TK)]. unfold yyreduce in H. rewrite (yo_len _ _ _ _ _ YO _ _ _ PL) in H. cbn [opt bind] in H.
  rewrite ES in SP. destruct (spath_pop s W st LO r A rhs PL (length rhs) l q sy (Nat.le_refl _) SP I) as (q' & l' & sy' & E1 & E2 & E3 & E4). rewrite firstn_all in E2.
  destruct (length (stk c) <=? length rhs); [discriminate|]. rewrite ES, E1 in H. cbn [ks_st hd] in H.
  rewrite (yo_lhs _ _ _ _ _ YO _ _ _ PL) in H. cbn [opt bind] in H.
  destruct (begun s W st LO _ _ _ _ _ _ E3 PL E4) as (q2 & GT). pose proof (prl_lhs_range s W _ _ _ PL) as RA.
  pose proof (sp_push st _ _ _ _ _ E3 GT) as SP2.
  assert (FIN : consumed c' = consumed c -> y_flag c' = y_flag c -> stk c' = q2 :: q' :: l' -> moved c c').
  { intros F1 F2 F3. split; [exact F1|]. split; [exact F2|]. intros sx sx' X1 X2. rewrite ES in X1. rewrite F3 in X2.
    rewrite <- (spath_fun _ _ SP _ X1), <- (spath_fun _ _ SP2 _ X2). exists r, (mkRule A (map ESym rhs)), (map ESym sy').
    split; [exact (prl_rule s _ _ _ PL)|]. cbn [r_rhs r_lhs]. rewrite map_length. split; [apply (spath_valid _ _ SP _ _ eq_refl); exact I|].
    split; [rewrite E2, map_app, map_rev; reflexivity|reflexivity]. }
  assert (PLAIN : (a <- num (Z.of_nat (A - nt - 1)) ;; ix <- opt (nth_error (y_gindex Y) a) ;; o <- look Y ix (Z.of_nat q') ;;
      q0 <- match o with Some t => num t | None => opt (nth_error (y_dgoto Y) a) end ;;
      let '(ok, k) := room (mkYstack (q' :: l') (ks_size (y_stk c)) (ks_scap (y_stk c)) (ks_lcap (y_stk c)) (ks_mem (y_stk c))) in
      if ok then k <- push k q0 ;; Ok (YNext (mkYcfg k (y_char c) (y_flag c) (y_nerrs c) (y_pos c)))
      else Ok (YEnd YOverflow (mkYcfg k (y_char c) (y_flag c) (y_nerrs c) (y_pos c)))) = Ok (YNext c') -> moved c c').
  { intros X. rewrite num_of_nat in X. cbn [bind] in X. destruct (yo_go _ _ _ _ _ YO q' A q2 GT ltac:(lia)) as (ix & d & o & H1 & H2 & H3 & H4). rewrite H1 in X. cbn [opt bind] in X. unfold look in X. rewrite H3 in X. cbn [bind] in X.
    assert (EQ : (match o with Some t => num t | None => opt (nth_error (y_dgoto Y) (A - nt - 1)) end) = Ok q2)
      by (destruct o as [t|]; [subst t; apply num_of_nat|rewrite H2; cbn [opt]; f_equal; lia]). rewrite EQ in X. cbn [bind] in X.
    destruct (room _) as [ok k] eqn:ER. destruct ok; [|discriminate]. apply bind_Ok in X as (k' & HP & X). injection X as <-. apply push_st in HP.
    apply FIN; [reflexivity|reflexivity|]. cbn [y_stk]. rewrite HP. f_equal.
    now rewrite (room_st _ _ _ ER). }
  destruct (Nat.eqb_spec q' 0) as [Q0|Q0]; destruct (Z.eqb_spec (Z.of_nat (A - nt - 1)) 0) as [A0|A0]; cbn [andb] in H; auto.
  subst q'. assert (EF : q2 = y_final Y) by (eapply (final_0 s st LO T pr flag P PO sv Y YO A 0 q2); auto; lia).
  apply bind_Ok in H as (k & HP & H). apply push_st in HP. cbn [ks_st] in HP. set (c1 := mkYcfg k (y_char c) (y_flag c) (y_nerrs c) (y_pos c)) in *.
  assert (R : y_stk (read lex c1) = k /\ y_flag (read lex c1) = y_flag c /\ consumed (read lex c1) = consumed c).
  { unfold read. cbn [c1 y_char y_stk y_flag y_nerrs y_pos]. unfold consumed. destruct (Z.ltb_spec (y_char c) 0) as [L|L]; cbn [y_char y_stk y_flag y_nerrs y_pos c1]; [|destruct (Z.ltb_spec (y_char c) 0); [lia|]; auto].
    split; [reflexivity|]. split; [reflexivity|]. destruct (Z.ltb_spec (lex (y_pos c)) 0); [destruct (Z.ltb_spec 0 0); lia|]. destruct (Z.ltb_spec (lex (y_pos c)) 0); lia. }
  destruct R as (R1 & R2 & R3). destruct (y_char (read lex c1) =? 0)%Z; [discriminate|]. injection H as <-.
  apply FIN; [exact R3|exact R2|]. rewrite R1, HP, EF. reflexivity.
Qed.

Lemma recover_found : forall n c x, recover Y n c = Ok x -> match x with YNext c' | YEnd _ c' => y_flag c' = y_flag c /\ y_char c' = y_char c /\ y_pos c' = y_pos c end.
Proof.
  induction n as [|n IH]; intros c x H; cbn [recover] in H; apply bind_Ok in H as (ix & _ & H); apply bind_Ok in H as (o & _ & H); destruct o as [t|].
  - destruct (room _) as [ok k]. destruct ok; [apply bind_Ok in H as (q & _ & H); apply bind_Ok in H as (k' & _ & H)|]; inversion H; subst x; auto.
  - destruct (length (stk c) <=? 1); [|discriminate]. inversion H; subst x; auto.
  - destruct (room _) as [ok k]. destruct ok; [apply bind_Ok in H as (q & _ & H); apply bind_Ok in H as (k' & _ & H)|]; inversion H; subst x; auto.
  - destruct (length (stk c) <=? 1); [inversion H; subst x; auto|]. apply IH in H. destruct x; exact H.
Qed.

Lemma round : forall c c', cinv c -> yyloop Y lex c = Ok (YNext c') -> moved c c' \/ gone c c' \/ found c c'.
Proof.
  intros c c' C H. pose proof C as [M CH (sy & SP & TK)]. unfold yyloop in H.
  destruct (stk c) as [|p l] eqn:ES; [inversion SP|]. cbn [hd] in H. pose proof (spath_top s W st LO _ _ _ SP) as Lp.
  destruct (parser_state s W st LO T pr flag P PO p Lp) as (acts & Q1 & Q2 & Q3). rewrite (yo_def _ _ _ _ _ YO _ _ Q1) in H. cbn [opt bind] in H.
  destruct (Nat.eqb_spec (if sole_reduction acts =? 0 then 0 else sole_reduction acts - 2) 0) as [D|D]; cbn [negb] in H.
  2: { left. destruct (Nat.eqb_spec (sole_reduction acts) 0) as [D0|D0]; [congruence|]. destruct (ao_def _ _ _ _ _ Q3 ltac:(lia)) as [_ Hr].
    destruct (reds_range s W st LO p _ Lp Hr) as (k & EK & _). rewrite EK in *. replace (S (S k) - 2) with k in * by lia. destruct (red_item s W st LO p k Lp Hr) as (A & rhs & PL & I).
    eapply reduce_moved; eauto. }
  destruct (read_ok s st sv lex mem0 c C) as (C2 & PC & CC & EK). assert (FL : y_flag (read lex c) = y_flag c) by (unfold read; destruct (y_char c <? 0)%Z; reflexivity).
  remember (read lex c) as c2. clear Heqc2. assert (CO : y_pos c2 = S (consumed c) /\ y_char c2 = (if (lex (consumed c) <? 0)%Z then 0%Z else lex (consumed c))).
  { destruct C2 as [_ CH2 _]. destruct (CH2 PC) as (PP & EC). unfold consumed at 1 2 in CC. destruct (Z.ltb_spec (y_char c2) 0); [lia|]. split; [unfold consumed; lia|]. rewrite EC. replace (y_pos c2 - 1) with (consumed c) by (unfold consumed; lia). reflexivity. }
  destruct CO as (CP & CV). assert (POS : y_char c2 <> 0%Z -> (0 < lex (consumed c))%Z) by (intros N; rewrite CV in N; destruct (Z.ltb_spec (lex (consumed c)) 0); lia).
  assert (MV : forall c', moved c2 c' -> moved c c').
  { intros d (M1 & M2 & M3). split; [congruence|]. split; [congruence|]. intros a b X1 X2. apply M3; [rewrite EK; exact X1|exact X2]. }
  destruct (yo_sh _ _ _ _ _ YO p acts (y_char c2) Q1 PC) as (ix & o & H1 & H2 & H3). rewrite H1 in H. cbn [opt bind] in H. unfold look in H. rewrite H2 in H. cbn [bind] in H.
  destruct o as [t|].
  - destruct (room (y_stk c2)) as [ok k2] eqn:ER. destruct ok; [|discriminate]. apply bind_Ok in H as (q' & _ & H). apply bind_Ok in H as (k & _ & H). injection H as <-. right. left.
    split; [unfold consumed at 1; cbn [y_char y_pos]; destruct (Z.ltb_spec (-1) 0); [exact CP|lia]|]. apply POS.
    destruct (proj1 (H3 t) eq_refl) as (a & Ia & Za & Sa & Xa & ->). destruct (ao_spec _ _ _ _ _ Q3 a Ia Za) as [(t & q & Hg & Lt & ->)|(t & r & _ & _ & _ & ->)]; [|discriminate].
    destruct (go_sitem s W st LO _ _ _ Hg) as (T0 & _). cbn [a_sym shift_act] in Xa. intros Z0. rewrite Z0 in Xa. assert (t = 0); [|lia]. apply (sv_inj _ _ SV); [lia|pose proof (ws_tok s W); lia|congruence].
  - destruct (yo_rd _ _ _ _ _ YO p acts (y_char c2) Q1 PC) as (ix' & o' & H1' & H2' & H3'). rewrite H1' in H. cbn [opt bind] in H. rewrite H2' in H. cbn [bind] in H.
    destruct o' as [t|].
    + left. destruct (proj1 (H3' t) eq_refl) as (a & Ia & Za & Sa & Na & Xa & ->). destruct (ao_spec _ _ _ _ _ Q3 a Ia Za) as [(t & q & Hg & Lt & ->)|(t & r & Lt & Hr & _ & ->)]; [discriminate|].
      cbn [a_num red_act] in H. replace (Z.of_nat (S (S r)) - 2)%Z with (Z.of_nat r) in H by lia. rewrite num_of_nat in H. cbn [bind] in H. destruct (red_item s W st LO p r Lp Hr) as (A & rhs & PL & I).
      apply MV. eapply reduce_moved; eauto. rewrite EK. exact ES.
    + unfold yyerror_part in H. destruct (Nat.ltb_spec (y_flag c2) 3).
      * right. right. apply recover_found in H. cbn [y_flag y_char y_pos] in H. destruct H as (F1 & F2 & F3). split; [|split; [congruence|exact F1]].
        unfold consumed at 1. rewrite F2, F3. exact CC.
      * destruct (Z.eqb_spec (y_char c2) 0) as [Z0|Z0]; [discriminate|]. injection H as <-. right. left. split; [|apply POS; exact Z0].
        unfold consumed at 1. cbn [y_char y_pos]. destruct (Z.ltb_spec (-1) 0); [exact CP|lia].
Qed.

(** [n] rounds with neither tokens nor errors. *)
Fixpoint idle (n : nat) (c : ycfg) : Prop :=
  match n with
  | 0 => True
  | S n => match yyloop Y lex c with Ok (YNext c') => consumed c' = consumed c /\ y_flag c' = y_flag c /\ idle n c' | _ => False end
  end.

Lemma idle_dec : forall n c, idle n c \/ ~ idle n c.
Proof.
  induction n as [|n IH]; intros c; cbn [idle]; [left; exact Logic.I|]. destruct (yyloop Y lex c) as [[c'|e c']| |]; try (right; tauto).
  destruct (Nat.eq_dec (consumed c') (consumed c)); [|right; tauto]. destruct (Nat.eq_dec (y_flag c') (y_flag c)); [|right; tauto]. destruct (IH c'); tauto.
Qed.

Lemma idle_chain : forall n c sy, cinv c -> spath (stk c) sy -> idle (S n) c -> exists gm', chain G n (map ESym sy) gm' /\ viable G gm'.
Proof.
  induction n as [|n IH]; intros c sy C SP H.
  - cbn [idle] in H. destruct (yyloop Y lex c) as [[c'|e c']| |] eqn:E; try tauto. destruct H as (H1 & H2 & _).
    destruct (yyloop_ok s W st LO T pr flag P PO sv SV SV0 Y YO lex mem0 c C) as (x & E' & OX). rewrite E in E'. injection E' as <-. cbn [step_ok] in OX. destruct OX as [_ _ (sy' & SP' & _)].
    destruct (round c c' C E) as [(_ & _ & M)|[(G1 & _)|(_ & F1 & F2)]]; [|lia|lia]. exists (map ESym sy). split; [constructor|]. destruct (M _ _ SP SP') as (r & rl & gm0 & _ & V & _). eexists. exact V.
  - change (match yyloop Y lex c with Ok (YNext c') => consumed c' = consumed c /\ y_flag c' = y_flag c /\ idle (S n) c' | _ => False end) in H.
    destruct (yyloop Y lex c) as [[c'|e c']| |] eqn:E; try tauto. destruct H as (H1 & H2 & H3).
    destruct (yyloop_ok s W st LO T pr flag P PO sv SV SV0 Y YO lex mem0 c C) as (x & E' & OX). rewrite E in E'. injection E' as <-. cbn [step_ok] in OX. pose proof OX as [_ _ (sy' & SP' & _)].
    destruct (round c c' C E) as [(_ & _ & M)|[(G1 & _)|(_ & F1 & F2)]]; [|lia|lia]. destruct (IH c' sy' OX SP' H3) as (gm' & CH & VI). exists gm'. split; [|exact VI].
    econstructor; [exact (M _ _ SP SP')|exact CH].
Qed.

Lemma accept_free : forall rl, In rl (g_rules G) -> ~ In (ESym (g_start G)) (r_rhs rl).
Proof.
  intros rl [<-|I] J; cbn in J; [destruct J as [J|[]]; injection J; lia|]. apply in_map_iff in I as ((l & r) & <- & I). cbn in J. apply in_map_iff in J as (x & E & J). injection E as ->.
  destruct (ws_rules s W l r I) as (_ & X). specialize (X _ J). lia.
Qed.

Lemma run_idle : forall n c, cinv c -> ~ idle n c ->
  (exists f r, yyrun Y lex f c = Ok r) \/ exists m c', cinv c' /\ (gone c c' \/ found c c') /\ forall f, yyrun Y lex (m + f) c = yyrun Y lex f c'.
Proof.
  induction n as [|n IH]; intros c C N; [destruct N; exact Logic.I|]. cbn [idle] in N.
  destruct (yyloop_ok s W st LO T pr flag P PO sv SV SV0 Y YO lex mem0 c C) as ([c'|e c'] & E & OX); rewrite E in N; cbn [step_ok] in OX.
  2: { left. exists 1, (e, c'). cbn [yyrun]. rewrite E. reflexivity. }
  assert (R1 : forall f, yyrun Y lex (S f) c = yyrun Y lex f c') by (intros f; cbn [yyrun]; rewrite E; reflexivity).
  destruct (round c c' C E) as [(M1 & M2 & _)|G1].
  - destruct (IH c' OX) as [(f & r & R)|(m & c2 & C2 & G2 & R)]; [tauto| |].
    + left. exists (S f), r. now rewrite R1.
    + right. exists (S m), c2. split; [exact C2|]. split; [|intros f; cbn [Nat.add]; now rewrite R1]. unfold gone, found in *. rewrite M1, M2 in G2. exact G2.
  - right. exists 1, c'. split; [exact OX|]. split; [exact G1|]. intros f. apply R1.
Qed.

Lemma yyrun_ends : forall E, (lex E <= 0)%Z -> forall n c, cinv c -> consumed c <= E -> 2 * (E - consumed c) + (if y_flag c <? 3 then 1 else 0) <= n -> exists f r, yyrun Y lex f c = Ok r.
Proof.
  intros E LE n. induction n as [n IH] using lt_wf_ind. intros c C CE B.
  pose proof C as [_ _ (sy & SP & _)].
  destruct (chain_bound G (wf_aug s W) accept_free AP CF (map ESym sy) (fun n => idle (S n) c)) as (k & NI).
  - intros k. apply idle_dec.
  - intros k I. destruct (idle_chain k c sy C SP I) as (gm' & CH & VI). exists k, gm'. auto.
  - destruct (run_idle (S k) c C NI) as [R|(m & c' & C' & G & R)]; [exact R|].
    assert (X : consumed c' <= E /\ 2 * (E - consumed c') + (if y_flag c' <? 3 then 1 else 0) < 2 * (E - consumed c) + (if y_flag c <? 3 then 1 else 0)).
    { destruct G as [(G1 & G2)|(G1 & G2 & G3)].
      - assert (consumed c <> E) by (intros X; rewrite X in G2; lia). split; [lia|]. destruct (y_flag c' <? 3), (y_flag c <? 3); lia.
      - split; [lia|]. rewrite G1, G3. destruct (Nat.ltb_spec 3 3); [lia|]. destruct (Nat.ltb_spec (y_flag c) 3); lia. }
    destruct X as (X1 & X2). destruct (IH _ (Nat.lt_le_trans _ _ _ X2 B) c' C' X1 (le_n _)) as (f & r & R'). exists (m + f), r. now rewrite R.
Qed.

Lemma yyparse_ends : forall E k, (lex E <= 0)%Z -> (ks_scap k = 0 /\ ks_size k = 0 /\ incl (ks_mem k) mem0) \/ usable mem0 k ->
  exists f r, yyparse Y lex f k = Ok r.
Proof.
  intros E k LE H. unfold yyparse.
  assert (RUN : forall k, usable mem0 k -> exists f r, yyrun Y lex f (mkYcfg (mkYstack [0] (ks_size k) (ks_scap k) (ks_lcap k) (ks_mem k)) (-1)%Z 0 0 0) = Ok r).
  { intros k0 U0. eapply (yyrun_ends E LE); [|cbn; lia|apply le_n]. constructor; cbn [y_stk].
    - split; [exact U0|]. cbn [ks_st ks_size length]. destruct U0. lia.
    - intros X. cbn [y_char] in X. lia.
    - exists []. split; [constructor|]. intros _. split; [reflexivity|]. exists []. split; [constructor|]. split; [apply star_refl|reflexivity]. }
  destruct H as [(S1 & S2 & S3)|U0].
  - rewrite S1. cbn [Nat.eqb]. unfold yygrowstack. rewrite S2. cbn [Nat.eqb orb].
    destruct (realloc (ks_mem k)) as [ok1 m1] eqn:E1. destruct (realloc_incl mem0 _ _ _ E1 S3) as [I1 F1]. destruct ok1.
    + destruct (realloc m1) as [ok2 m2] eqn:E2. destruct (realloc_incl mem0 _ _ _ E2 I1) as [I2 F2]. destruct ok2.
      * change (ks_scap (mkYstack (ks_st k) YYINITSTACKSIZE YYINITSTACKSIZE YYINITSTACKSIZE m2) =? 0) with false. cbv iota.
        apply RUN. repeat split; auto; cbn [ks_size ks_scap ks_lcap]; unfold YYINITSTACKSIZE; lia.
      * exists 0. eexists. reflexivity.
    + exists 0. eexists. reflexivity.
  - destruct (Nat.eqb_spec (ks_scap k) 0) as [Z0|Z0]; [destruct U0; lia|]. destruct (Nat.eqb_spec (ks_scap k) 0); [lia|]. apply RUN. exact U0.
Qed.
End Ends.
