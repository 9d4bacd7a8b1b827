(** yyparse with the generated tables: the stack is a path of the automaton, it stays
    within its memory, and without a reported error its symbols derive the tokens
    consumed (model: ByaccParserModel). *)
From Coq Require Import List Arith NArith ZArith Lia Bool Sorted.
Import ListNotations.
From Verif Require Import Base SpecGrammar SpecGrammarFacts SpecLRFacts SpecByacc ByaccWarshallModel ByaccWarshallProof ByaccLr0Model ByaccPackProof
  ByaccClosureProof ByaccNullProof ByaccLr0Proof ByaccStatesProof ByaccLalrModel ByaccDigraphProof ByaccTransposeProof ByaccLookSem ByaccGotoProof ByaccReadProof
  ByaccLookProof ByaccParModel SpecByaccConflicts ByaccParProof ByaccActionsProof ByaccOutputModel ByaccPackTableProof ByaccRowsProof Prop_ByaccConflicts Prop_ByaccPacking
  ByaccTablesProof ByaccParserModel.

Section Driver.
Variable s : bsrc.
Hypothesis W : wf_src s.
Variable st : lr0st.
Hypothesis LO : lr0_ok s st.
Variable T : lalr_tables.
Hypothesis TO : lalr_ok s st T.
Variable pr : bprec.
Hypothesis WP : wf_prec s pr.
Variable flag : bool.
Variable P : par.
Hypothesis PO : par_ok s st T pr flag P.
Variable sv : list Z.
Hypothesis SV : wf_sv s sv.
Hypothesis SV0 : nth 0 sv 0%Z = 0%Z.
Variable Y : ytabs.
Hypothesis YO : ytab_ok s st P sv Y.
Variable lex : nat -> Z.
Variable mem0 : list bool.
Local Notation go := (go st).
Local Notation nst := (nst st).
Local Notation nt := (b_ntokens s).
Local Notation G := (aug s).
Local Notation U := (user s).
Local Notation sitem := (sitem s st).
Local Notation code t := (nth t sv 0%Z).

(** States from the top down, symbols from the top down. *)
Inductive spath : list nat -> list nat -> Prop :=
| sp_0 : spath [0] []
| sp_push : forall p l sy X q, spath (p :: l) sy -> go p X q -> spath (q :: p :: l) (X :: sy).

Lemma state0_item : forall i, sitem 0 i -> snd i = 0.
Proof.
  intros i H. apply (sitem_0 s W st LO) in H. apply valid_nil in H. induction H as [i H|i A r H IH Ha Hl]; [|reflexivity].
  destruct H as (r & H & ->). reflexivity.
Qed.

Lemma spath_top : forall p l sy, spath (p :: l) sy -> p < nst.
Proof.
  intros p l sy H. inversion H as [|p' l' sy' X q H' Hg]; subst; [|apply (go_sitem s W st LO _ _ _ Hg)].
  destruct start_0 with (s := s) (st := st) as (c & E & _); auto. eapply nth_error_Some_lt; eauto.
Qed.

Lemma spath_zero : forall l sy, spath (0 :: l) sy -> l = [] /\ sy = [].
Proof.
  intros l sy H. inversion H as [|p' l' sy' X q H' Hg]; subst; [auto|]. exfalso. destruct (go_sitem s W st LO _ _ _ Hg) as (_ & _ & N & _). congruence.
Qed.

Lemma spath_len : forall l sy, spath l sy -> length l = S (length sy).
Proof. intros l sy H. induction H; cbn in *; lia. Qed.

Lemma spath_pop : forall r A rhs, prl s r A rhs -> forall d l q sy, d <= length rhs -> spath (q :: l) sy -> sitem q (r, d) ->
  exists q' l' sy', skipn d (q :: l) = q' :: l' /\ sy = rev (firstn d rhs) ++ sy' /\ spath (q' :: l') sy' /\ sitem q' (r, 0).
Proof.
  intros r A rhs PL d. induction d as [|d IH]; intros l q sy Ld H I.
  - exists q, l, sy. auto.
  - inversion H as [|p l0 sy0 X q0 H' Hg]; subst.
    + apply state0_item in I. discriminate.
    + destruct (go_back s W st LO _ _ _ _ _ Hg I) as [I' AD]. destruct (IH l0 p sy0 ltac:(lia) H' I') as (q' & l' & sy' & E1 & E2 & E3 & E4).
      exists q', l', sy'. split; [exact E1|]. split; [|auto]. rewrite (prl_after s _ _ _ _ PL) in AD. destruct (nth_error rhs d) as [x|] eqn:Ex; [|discriminate].
      cbn in AD. inversion AD; subst x. assert (EF : firstn (S d) rhs = firstn d rhs ++ [X]).
      { clear - Ex. revert d Ex. induction rhs as [|y rhs IH]; intros d Ex; [destruct d; discriminate|]. destruct d; cbn in *; [congruence|]. f_equal. now apply IH. }
      rewrite EF, rev_app_distr. cbn. now rewrite E2.
Qed.

(** ** Memory *)
Definition usable (k : ystack) : Prop := 2 <= ks_size k /\ ks_size k <= ks_scap k /\ ks_size k <= ks_lcap k /\ incl (ks_mem k) mem0.
Definition minv (k : ystack) : Prop := usable k /\ length (ks_st k) <= ks_size k.
Definition exhausted (k : ystack) : Prop := In false mem0 \/ YYMAXDEPTH <= length (ks_st k).

Lemma realloc_incl : forall m ok m', realloc m = (ok, m') -> incl m mem0 -> incl m' mem0 /\ (ok = false -> In false mem0).
Proof.
  intros m ok m' E I. destruct m as [|x m]; cbn in E; inversion E; subst; [split; [auto|discriminate]|]. split; [intros y Hy; apply I; now right|].
  intros ->. apply I. now left.
Qed.

Lemma room_ok : forall k ok k', minv k -> room k = (ok, k') -> ks_st k' = ks_st k /\ usable k' /\
  (ok = true -> length (ks_st k') < ks_size k') /\ (ok = false -> exhausted k').
Proof.
  intros k ok k' ((U1 & U2 & U3 & U4) & L) E. unfold room in E.
  destruct (Nat.eqb_spec (ks_size k) 0); [lia|]. cbn [orb] in E. destruct (Nat.leb_spec (ks_size k) (length (ks_st k))).
  - unfold yygrowstack in E. destruct (Nat.eqb_spec (ks_size k) 0); [lia|]. cbn [orb] in E. destruct (Nat.ltb_spec (ks_size k) YYMAXDEPTH).
    + destruct (realloc (ks_mem k)) as [ok1 m1] eqn:E1. destruct (realloc_incl _ _ _ E1 U4) as [I1 F1]. destruct ok1.
      * destruct (realloc m1) as [ok2 m2] eqn:E2. destruct (realloc_incl _ _ _ E2 I1) as [I2 F2].
        assert (NS : ks_size k < (if YYMAXDEPTH <? ks_size k * 2 then YYMAXDEPTH else ks_size k * 2)) by (destruct (Nat.ltb_spec YYMAXDEPTH (ks_size k * 2)); lia).
        remember (if YYMAXDEPTH <? ks_size k * 2 then YYMAXDEPTH else ks_size k * 2) as ns. clear Heqns.
        destruct ok2; injection E as <- <-; unfold usable, exhausted; cbn [ks_st ks_size ks_scap ks_lcap ks_mem].
        -- split; [reflexivity|]. split; [repeat split; auto; lia|]. split; [lia|discriminate].
        -- split; [reflexivity|]. split; [repeat split; auto; lia|]. split; [discriminate|auto].
      * injection E as <- <-; unfold usable, exhausted; cbn [ks_st ks_size ks_scap ks_lcap ks_mem]. split; [reflexivity|]. split; [repeat split; auto; lia|]. split; [discriminate|auto].
    + injection E as <- <-. split; [reflexivity|]. split; [repeat split; auto|]. split; [discriminate|]. intros _. right. lia.
  - injection E as <- <-. split; [reflexivity|]. split; [repeat split; auto|]. split; [auto|discriminate].
Qed.

Lemma push_ok : forall k q, usable k -> length (ks_st k) < ks_size k -> exists k', push k q = Ok k' /\ ks_st k' = q :: ks_st k /\ minv k'.
Proof.
  intros k q (U1 & U2 & U3 & U4) L. unfold push. destruct (Nat.ltb_spec (length (ks_st k)) (ks_scap k)); [|lia]. destruct (Nat.ltb_spec (length (ks_st k)) (ks_lcap k)); [|lia].
  cbn [andb]. eexists. split; [reflexivity|]. split; [reflexivity|]. split; [repeat split; auto|]. cbn [ks_st length ks_size]. lia.
Qed.

(** ** The invariant *)
Definition consumed (c : ycfg) : nat := if (y_char c <? 0)%Z then y_pos c else y_pos c - 1.
Definition tokens_ok (n : nat) (sy : list nat) : Prop :=
  exists toks, Forall (fun t => 0 < t < nt) toks /\ derives U (map ESym (rev sy)) (map ESym toks) /\ map (fun t => code t) toks = map lex (seq 0 n).
Definition chinv (c : ycfg) : Prop := (0 <= y_char c)%Z -> 0 < y_pos c /\ y_char c = (if (lex (y_pos c - 1) <? 0)%Z then 0%Z else lex (y_pos c - 1)).
Record cinv (c : ycfg) : Prop := {
  ci_mem : minv (y_stk c);
  ci_ch : chinv c;
  ci_sy : exists sy, spath (ks_st (y_stk c)) sy /\ (y_nerrs c = 0 -> y_flag c = 0 /\ tokens_ok (consumed c) sy)
}.

Definition accepted (c : ycfg) : Prop := y_nerrs c = 0 -> exists n toks, y_pos c = S n /\ sentence U toks /\ Forall (fun t => 0 < t) toks /\ map (fun t => code t) toks = map lex (seq 0 n) /\ (lex n <= 0)%Z.
Definition step_ok (x : ystep) : Prop :=
  match x with
  | YNext c => cinv c
  | YEnd e c => usable (y_stk c) /\ match e with YAccept => accepted c | YOverflow => exhausted (y_stk c) | YAbort => 0 < y_nerrs c end
  end.

Lemma read_ok : forall c, cinv c -> cinv (read lex c) /\ (0 <= y_char (read lex c))%Z /\ consumed (read lex c) = consumed c /\ y_stk (read lex c) = y_stk c.
Proof.
  intros c [M CH SY]. unfold read. destruct (Z.ltb_spec (y_char c) 0) as [L|L].
  - set (x := if (lex (y_pos c) <? 0)%Z then 0%Z else lex (y_pos c)). assert (X : (0 <= x)%Z) by (unfold x; destruct (Z.ltb_spec (lex (y_pos c)) 0); lia).
    assert (CO : consumed (mkYcfg (y_stk c) x (y_flag c) (y_nerrs c) (S (y_pos c))) = consumed c).
    { unfold consumed. cbn [y_char y_pos]. destruct (Z.ltb_spec x 0); [lia|]. destruct (Z.ltb_spec (y_char c) 0); lia. }
    split; [|split; [exact X|split; [exact CO|reflexivity]]]. constructor; cbn [y_stk]; auto.
    + intros _. cbn [y_pos y_char]. split; [lia|]. replace (S (y_pos c) - 1) with (y_pos c) by lia. reflexivity.
    + rewrite CO. exact SY.
  - split; [constructor; auto|]. auto.
Qed.

(** The symbols on the stack after a reduction. *)
Lemma tokens_reduce : forall n r A l sy, prl s r A l -> tokens_ok n (rev l ++ sy) -> tokens_ok n (A :: sy).
Proof.
  intros n r A l sy PL (toks & F & D & M). exists toks. split; [exact F|]. split; [|exact M]. rewrite rev_app_distr, rev_involutive, map_app in D. cbn [rev]. rewrite map_app.
  eapply star_trans; [|exact D]. apply derives_app_r. eapply star_step; [|apply star_refl].
  assert (I : In (mkRule A (map ESym l)) (g_rules U)) by (cbn; apply in_map_iff; exists (A, l); split; [reflexivity|exact (prl_In s _ _ _ PL)]).
  pose proof (step_rule U [] [] _ I) as S1. cbn [r_lhs r_rhs app map] in S1. rewrite app_nil_r in S1. exact S1.
Qed.

Lemma goal_rng : S nt < b_nsyms s.
Proof. apply (ws_goal s W). Qed.

Lemma final_0 : forall X p q, nt < X -> X - nt - 1 = 0 -> go p X q -> p = 0 -> q = y_final Y.
Proof.
  intros X p q L E H ->. rewrite (yo_final _ _ _ _ _ YO). assert (X = S nt) by lia. subst X. exact (go_det s st LO _ _ _ _ H (po_final _ _ _ _ _ _ PO)).
Qed.

(** The left side of a rule begun in a state has a transition there. *)
Lemma begun : forall p l sy r A rhs, spath (p :: l) sy -> prl s r A rhs -> sitem p (r, 0) -> exists q, go p A q.
Proof.
  intros p l sy r A rhs SP PL I. pose proof (prl_lhs_range s W _ _ _ PL) as RA.
  assert (S0 : exists i, sitem p i /\ after_dot G i = Some (ESym A)).
  { assert (LR : forall B, lhs_is G r B -> B = A).
    { intros B (rl & Q1 & Q2). rewrite (prl_rule s _ _ _ PL) in Q1. inversion Q1; subst rl. cbn in Q2. congruence. }
    inversion SP as [|p0 l0 sy0 X q0 SP' Hg]; subst.
    - apply (sitem_0 s W st LO) in I. apply valid_nil in I. remember (r, 0) as i0. destruct I as [i K|i B r' C' Ha Hl].
      + exfalso. destruct K as (r0 & K1 & K2). rewrite Heqi0 in K2. inversion K2; subst r0. apply LR in K1. cbn in K1. lia.
      + inversion Heqi0; subst r'. exists i. split; [apply (sitem_0 s W st LO); apply valid_nil; exact C'|]. now rewrite <- (LR _ Hl).
    - destruct (go_sitem s W st LO _ _ _ Hg) as (_ & _ & _ & _ & Sq). apply Sq in I. remember (r, 0) as i0. destruct I as [i K|i B r' C' Ha Hl].
      + exfalso. destruct K as ([r0 d0] & _ & _ & K2). rewrite Heqi0 in K2. discriminate.
      + inversion Heqi0; subst r'. exists i. split; [apply Sq; exact C'|]. now rewrite <- (LR _ Hl). }
  destruct S0 as (i & Si & Ai). exact (go_ex s W st LO _ _ _ Si Ai).
Qed.

Lemma reduce_ok : forall c q l r A rhs, cinv c -> ks_st (y_stk c) = q :: l -> prl s r A rhs -> sitem q (r, length rhs) ->
  exists x, yyreduce Y lex c r = Ok x /\ step_ok x.
Proof.
  intros c q l r A rhs [M CH (sy & SP & TK)] ES PL I. unfold yyreduce. rewrite (yo_len _ _ _ _ _ YO _ _ _ PL). cbn [opt bind].
  rewrite ES in SP. destruct (spath_pop r A rhs PL (length rhs) l q sy (Nat.le_refl _) SP I) as (q' & l' & sy' & E1 & E2 & E3 & E4). rewrite firstn_all in E2.
  assert (LS : length rhs < length (ks_st (y_stk c))).
  { rewrite ES. pose proof (spath_len _ _ SP) as L1. rewrite E2, app_length, rev_length in L1. lia. }
  destruct (Nat.leb_spec (length (ks_st (y_stk c))) (length rhs)); [lia|]. rewrite ES, E1. cbn [ks_st hd].
  rewrite (yo_lhs _ _ _ _ _ YO _ _ _ PL). cbn [opt bind].
  destruct M as ((U1 & U2 & U3 & U4) & ML).
  assert (LQ : length (q' :: l') <= ks_size (y_stk c)).
  { rewrite <- E1. rewrite skipn_length. rewrite <- ES. lia. }
  destruct (begun _ _ _ _ _ _ E3 PL E4) as (q2 & GT). pose proof (prl_lhs_range s W _ _ _ PL) as RA.
  assert (TK' : y_nerrs c = 0 -> y_flag c = 0 /\ tokens_ok (consumed c) (A :: sy')).
  { intros N. destruct (TK N) as [F TT]. split; [exact F|]. rewrite E2 in TT. exact (tokens_reduce _ _ _ _ _ PL TT). }
  pose proof (sp_push _ _ _ _ _ E3 GT) as SP2.
  destruct (Nat.eqb_spec q' 0) as [Q0|Q0]; destruct (Z.eqb_spec (Z.of_nat (A - nt - 1)) 0) as [A0|A0]; cbn [andb].
  1: { (* the goal in state 0 *)
    subst q'. destruct (spath_zero _ _ E3) as [-> ->]. assert (EF : q2 = y_final Y) by (apply (final_0 A 0 q2); auto; lia).
    destruct (push_ok (mkYstack [0] (ks_size (y_stk c)) (ks_scap (y_stk c)) (ks_lcap (y_stk c)) (ks_mem (y_stk c))) (y_final Y)) as (k' & K1 & K2 & K3).
    { repeat split; auto. }
    { cbn [ks_st length ks_size]. lia. }
    rewrite K1. cbn [bind]. set (c1 := mkYcfg k' (y_char c) (y_flag c) (y_nerrs c) (y_pos c)).
    assert (C1 : cinv c1).
    { constructor; cbn [c1 y_stk]; [exact K3|exact CH|]. exists [A]. split; [rewrite K2; cbn [ks_st]; rewrite <- EF; exact SP2|exact TK']. }
    destruct (read_ok c1 C1) as (C2 & PC & CC & EK). destruct (Z.eqb_spec (y_char (read lex c1)) 0) as [Z0|Z0].
    - eexists. split; [reflexivity|]. cbn [step_ok]. split; [apply C2|]. intros N. destruct C2 as [_ CH2 (sy2 & SP3 & TK2)]. destruct (TK2 N) as [_ (toks & F & D & Mp)].
      destruct (CH2 ltac:(lia)) as [PP EC]. exists (y_pos (read lex c1) - 1), toks. split; [lia|].
      assert (sy2 = [A]).
      { rewrite EK in SP3. cbn [c1 y_stk] in SP3. rewrite K2 in SP3. cbn [ks_st] in SP3. inversion SP3 as [|p0 l0 sy0 X q0 SP4 Hg]; subst. destruct (spath_zero _ _ SP4) as [_ ->].
        f_equal. destruct (go_range s W st LO _ _ _ Hg) as (_ & _ & _ & _ & _ & AC1). destruct (go_range s W st LO _ _ _ GT) as (_ & _ & _ & _ & _ & AC2). congruence. }
      subst sy2. assert (EA : A = S nt) by lia. subst A.
      split; [split; [eapply Forall_impl; [|exact F]; intros t Ht; exact (proj2 Ht)|exact D]|].
      split; [eapply Forall_impl; [|exact F]; intros t Ht; exact (proj1 Ht)|]. split.
      + rewrite Mp. unfold consumed. destruct (Z.ltb_spec (y_char (read lex c1)) 0); [lia|reflexivity].
      + destruct (Z.ltb_spec (lex (y_pos (read lex c1) - 1)) 0); lia.
    - eexists. split; [reflexivity|]. exact C2. }
  all: unfold num; destruct (Z.leb_spec 0 (Z.of_nat (A - nt - 1))); [|lia]; cbn [bind]; rewrite Nat2Z.id;
    destruct (yo_go _ _ _ _ _ YO q' A q2 GT ltac:(lia)) as (ix & d & o & H1 & H2 & H3 & H4); rewrite H1; cbn [opt bind]; unfold look; rewrite H3; cbn [bind];
    assert (EQ : (match o with Some t => (if (0 <=? t)%Z then Ok (Z.to_nat t) else Bad) | None => opt (nth_error (y_dgoto Y) (A - nt - 1)) end) = Ok q2)
      by (destruct o as [t|]; [subst t; destruct (Z.leb_spec 0 (Z.of_nat q2)); [now rewrite Nat2Z.id|lia]|rewrite H2; cbn [opt]; f_equal; lia]); rewrite EQ; cbn [bind];
    match goal with |- context[room ?k] => destruct (room k) as [ok k2] eqn:ER end;
    (eapply room_ok in ER; [|split; [repeat split; auto|exact LQ]]); destruct ER as (R1 & R2 & R3 & R4); cbn [ks_st] in R1;
    (destruct ok; [|eexists; split; [reflexivity|]; split; [exact R2|apply R4; reflexivity]]);
    destruct (push_ok k2 q2 R2 (R3 eq_refl)) as (k3 & K1 & K2 & K3); rewrite K1; cbn [bind]; eexists; (split; [reflexivity|]);
    (constructor; cbn [y_stk]; [exact K3|exact CH|]); exists (A :: sy'); (split; [rewrite K2, R1; exact SP2|exact TK']).
Qed.

(** Reductions come from completed items. *)
Lemma red_item : forall p r, p < nst -> In (S (S r)) (reds_of st p) -> exists A rhs, prl s r A rhs /\ sitem p (r, length rhs).
Proof.
  intros p r Lp H. apply (reds_spec s W st LO p Lp) in H as ((r0 & d) & H1 & H2 & H3 & H4). cbn [fst] in *. inversion H4; subst r0.
  destruct (sitem_ok s st _ _ H1) as (rl & Q1 & Q2). cbn [fst snd] in Q1, Q2. destruct (aug_rule s r rl Q1) as (A & rhs & P1 & P2 & P3).
  assert (PL : prl s r A rhs) by (split; [exact H3|exact P1]). exists A, rhs. split; [exact PL|].
  rewrite (prl_after s _ _ _ _ PL) in H2. destruct (nth_error rhs d) eqn:E; [discriminate|]. apply nth_error_None in E.
  rewrite (prl_rule s _ _ _ PL) in Q1. inversion Q1; subst rl. cbn in Q2. rewrite map_length in Q2. replace (length rhs) with d by lia. exact H1.
Qed.

Lemma num_of_nat : forall n, num (Z.of_nat n) = Ok n.
Proof. intros n. unfold num. destruct (Z.leb_spec 0 (Z.of_nat n)); [|lia]. now rewrite Nat2Z.id. Qed.

Lemma recover_ok : forall n c, cinv c -> length (ks_st (y_stk c)) <= n -> 0 < y_nerrs c -> exists x, recover Y n c = Ok x /\ step_ok x.
Proof.
  induction n as [|n IH]; intros c C L N; destruct C as [M CH (sy & SP & TK)].
  { pose proof (spath_len _ _ SP). lia. }
  cbn [recover]. destruct (ks_st (y_stk c)) as [|p l] eqn:ES; [inversion SP|]. cbn [hd]. pose proof (spath_top _ _ _ SP) as Lp.
  destruct (parser_state s W st LO T pr flag P PO p Lp) as (acts & Q1 & Q2 & Q3). pose proof (ws_tok s W) as WT.
  destruct (yo_sh _ _ _ _ _ YO p acts (nth 1 sv 0%Z) Q1 (sv_pos _ _ SV 1 WT)) as (ix & o & H1 & H2 & H3). rewrite H1. cbn [opt bind]. unfold look. rewrite (yo_err _ _ _ _ _ YO), H2. cbn [bind].
  destruct o as [t|].
  - destruct (room (y_stk c)) as [ok k2] eqn:ER. eapply room_ok in ER; [|exact M]. destruct ER as (R1 & R2 & R3 & R4).
    destruct ok; [|eexists; split; [reflexivity|]; split; [exact R2|apply R4; reflexivity]].
    destruct (proj1 (H3 t) eq_refl) as (a & Ia & Za & Sa & Xa & ->). rewrite num_of_nat. cbn [bind]. destruct (push_ok k2 (a_num a) R2 (R3 eq_refl)) as (k3 & K1 & K2 & K3). rewrite K1. cbn [bind].
    eexists. split; [reflexivity|]. destruct (ao_spec _ _ _ _ _ Q3 a Ia Za) as [(t & q & Hg & Lt & ->)|(t & r & _ & _ & _ & ->)]; [|discriminate].
    constructor; cbn [y_stk]; [exact K3|exact CH|]. exists (t :: sy). split; [rewrite K2, R1, ES; cbn [a_num shift_act]; constructor; auto|]. cbn [y_nerrs]. lia.
  - destruct (Nat.leb_spec (length (p :: l)) 1); [eexists; split; [reflexivity|]; split; [apply M|exact N]|]. cbn [tl].
    apply IH; [|cbn [y_stk ks_st]; cbn [length] in L; lia|exact N]. constructor; cbn [y_stk]; [|exact CH|].
    + destruct M as (U0 & ML). split; [exact U0|]. cbn [ks_st ks_size]. rewrite ES in ML. cbn [length] in ML. lia.
    + cbn [ks_st y_nerrs]. inversion SP as [|p0 l0 sy0 X q0 SP4 Hg]; subst; [cbn in *; lia|]. exists sy0. split; [exact SP4|]. lia.
Qed.

Lemma yyloop_ok : forall c, cinv c -> exists x, yyloop Y lex c = Ok x /\ step_ok x.
Proof.
  intros c C. pose proof C as [M CH (sy & SP & TK)]. unfold yyloop.
  destruct (ks_st (y_stk c)) as [|p l] eqn:ES; [inversion SP|]. cbn [hd]. pose proof (spath_top _ _ _ SP) as Lp.
  destruct (parser_state s W st LO T pr flag P PO p Lp) as (acts & Q1 & Q2 & Q3). rewrite (yo_def _ _ _ _ _ YO _ _ Q1). cbn [opt bind].
  destruct (Nat.eqb_spec (if sole_reduction acts =? 0 then 0 else sole_reduction acts - 2) 0) as [D|D]; cbn [negb].
  - destruct (read_ok c C) as (C2 & PC & CC & EK). remember (read lex c) as c2. clear Heqc2.
    destruct (yo_sh _ _ _ _ _ YO p acts (y_char c2) Q1 PC) as (ix & o & H1 & H2 & H3). rewrite H1. cbn [opt bind]. unfold look. rewrite H2. cbn [bind].
    destruct o as [t|].
    + destruct (room (y_stk c2)) as [ok k2] eqn:ER. eapply room_ok in ER; [|apply C2]. destruct ER as (R1 & R2 & R3 & R4).
      destruct ok; [|eexists; split; [reflexivity|]; split; [exact R2|apply R4; reflexivity]].
      destruct (proj1 (H3 t) eq_refl) as (a & Ia & Za & Sa & Xa & ->). rewrite num_of_nat. cbn [bind]. destruct (push_ok k2 (a_num a) R2 (R3 eq_refl)) as (k3 & K1 & K2 & K3). rewrite K1. cbn [bind].
      eexists. split; [reflexivity|]. destruct (ao_spec _ _ _ _ _ Q3 a Ia Za) as [(t & q & Hg & Lt & ->)|(t & r & _ & _ & _ & ->)]; [|discriminate].
      destruct C2 as [M2 CH2 (sy2 & SP2 & TK2)]. rewrite EK, ES in SP2, R1. constructor; cbn [y_stk]; [exact K3|intros X; cbn [y_char] in X; lia|].
      exists (t :: sy2). split; [rewrite K2, R1; cbn [a_num shift_act]; constructor; auto|]. cbn [y_nerrs y_flag]. intros N. destruct (TK2 N) as [F (toks & FT & D2 & Mp)]. split; [lia|].
      destruct (CH2 PC) as [PP EC]. cbn [a_sym shift_act] in Xa.
      destruct (go_sitem s W st LO _ _ _ Hg) as (T0 & _).
      exists (toks ++ [t]). split; [apply Forall_app; split; [exact FT|constructor; [lia|constructor]]|]. split; [cbn [rev]; rewrite !map_app; apply derives_app_l; exact D2|].
      rewrite map_app, Mp. unfold consumed. cbn [y_char y_pos]. destruct (Z.ltb_spec (y_char c2) 0); [lia|]. destruct (Z.ltb_spec (-1) 0); [|lia].
      replace (y_pos c2) with (S (y_pos c2 - 1)) at 2 by lia. rewrite seq_S, map_app. cbn [map Nat.add]. f_equal. f_equal.
      destruct (Z.ltb_spec (lex (y_pos c2 - 1)) 0); [|congruence]. exfalso. assert (t = 0); [|lia]. apply (sv_inj _ _ SV); [lia|lia|]. congruence.
    + destruct (yo_rd _ _ _ _ _ YO p acts (y_char c2) Q1 PC) as (ix' & o' & H1' & H2' & H3'). rewrite H1'. cbn [opt bind]. rewrite H2'. cbn [bind].
      destruct o' as [t|].
      * destruct (proj1 (H3' t) eq_refl) as (a & Ia & Za & Sa & Na & Xa & ->). destruct (ao_spec _ _ _ _ _ Q3 a Ia Za) as [(t & q & Hg & Lt & ->)|(t & r & Lt & Hr & _ & ->)]; [discriminate|].
        cbn [a_num red_act]. replace (Z.of_nat (S (S r)) - 2)%Z with (Z.of_nat r) by lia. rewrite num_of_nat. cbn [bind]. destruct (red_item p r Lp Hr) as (A & rhs & PL & I).
        apply (reduce_ok c2 p l r A rhs C2); auto. congruence.
      * unfold yyerror_part. destruct (Nat.ltb_spec (y_flag c2) 3).
        -- apply recover_ok; cbn [y_stk y_nerrs]; auto.
           ++ destruct C2 as [M2 CH2 (sy2 & SP2 & TK2)]. constructor; cbn [y_stk]; auto. exists sy2. split; [exact SP2|]. cbn [y_nerrs]. intros N. exfalso.
              destruct (Nat.eqb_spec (y_flag c2) 0); [lia|]. destruct (TK2 N). congruence.
           ++ destruct C2 as [M2 CH2 (sy2 & SP2 & TK2)]. destruct (Nat.eqb_spec (y_flag c2) 0); [lia|]. destruct (Nat.eq_dec (y_nerrs c2) 0) as [N|N]; [|lia]. destruct (TK2 N). congruence.
        -- destruct C2 as [M2 CH2 (sy2 & SP2 & TK2)]. assert (NN : 0 < y_nerrs c2) by (destruct (Nat.eq_dec (y_nerrs c2) 0) as [N|N]; [destruct (TK2 N); lia|lia]).
           destruct (Z.eqb_spec (y_char c2) 0); [eexists; split; [reflexivity|]; split; [apply M2|exact NN]|].
           eexists. split; [reflexivity|]. constructor; cbn [y_stk]; [exact M2|intros X; cbn [y_char] in X; lia|]. exists sy2. split; [exact SP2|]. cbn [y_nerrs]. intros N. exfalso.
           destruct (Nat.eqb_spec (y_flag c2) 0); lia.
  - destruct (Nat.eqb_spec (sole_reduction acts) 0) as [D0|D0]; [congruence|]. destruct (ao_def _ _ _ _ _ Q3 ltac:(lia)) as [_ Hr].
    destruct (reds_range s W st LO p _ Lp Hr) as (k & EK & _). rewrite EK in *. replace (S (S k) - 2) with k in * by lia. destruct (red_item p k Lp Hr) as (A & rhs & PL & I).
    apply (reduce_ok c p l k A rhs C); auto.
Qed.

Lemma yyrun_ok : forall fuel c, cinv c -> yyrun Y lex fuel c = Fuel \/ exists e c', yyrun Y lex fuel c = Ok (e, c') /\ step_ok (YEnd e c').
Proof.
  induction fuel as [|fuel IH]; intros c C; cbn [yyrun]; [auto|]. destruct (yyloop_ok c C) as (x & E & H). rewrite E. cbn [bind]. destruct x as [c'|e c'].
  - apply IH. exact H.
  - right. eauto.
Qed.

Lemma yyparse_ok : forall fuel k, (ks_scap k = 0 /\ ks_size k = 0 /\ incl (ks_mem k) mem0) \/ usable k ->
  yyparse Y lex fuel k = Fuel \/ exists e c, yyparse Y lex fuel k = Ok (e, c) /\
    (usable (y_stk c) \/ e = YOverflow /\ ks_size (y_stk c) = 0 /\ In false mem0) /\
    match e with YAccept => accepted c | YAbort => 0 < y_nerrs c | YOverflow => exhausted (y_stk c) end.
Proof.
  intros fuel k H. unfold yyparse.
  assert (RUN : forall k, usable k -> yyrun Y lex fuel (mkYcfg (mkYstack [0] (ks_size k) (ks_scap k) (ks_lcap k) (ks_mem k)) (-1)%Z 0 0 0) = Fuel \/
    exists e c, yyrun Y lex fuel (mkYcfg (mkYstack [0] (ks_size k) (ks_scap k) (ks_lcap k) (ks_mem k)) (-1)%Z 0 0 0) = Ok (e, c) /\
    (usable (y_stk c) \/ e = YOverflow /\ ks_size (y_stk c) = 0 /\ In false mem0) /\
    match e with YAccept => accepted c | YAbort => 0 < y_nerrs c | YOverflow => exhausted (y_stk c) end).
  { intros k0 U0. destruct (yyrun_ok fuel (mkYcfg (mkYstack [0] (ks_size k0) (ks_scap k0) (ks_lcap k0) (ks_mem k0)) (-1)%Z 0 0 0)) as [R|(e & c & R & R')].
    - constructor; cbn [y_stk].
      + split; [exact U0|]. cbn [ks_st ks_size length]. destruct U0. lia.
      + intros X. cbn [y_char] in X. lia.
      + exists []. split; [constructor|]. intros _. split; [reflexivity|]. exists []. split; [constructor|]. split; [apply star_refl|reflexivity].
    - left. exact R.
    - right. exists e, c. split; [exact R|]. split; [left; apply R'|]. apply R'. }
  destruct H as [(S1 & S2 & S3)|U0].
  - rewrite S1. cbn [Nat.eqb]. unfold yygrowstack. rewrite S2. cbn [Nat.eqb orb].
    destruct (realloc (ks_mem k)) as [ok1 m1] eqn:E1. destruct (realloc_incl _ _ _ E1 S3) as [I1 F1]. destruct ok1.
    + destruct (realloc m1) as [ok2 m2] eqn:E2. destruct (realloc_incl _ _ _ E2 I1) as [I2 F2]. destruct ok2.
      * change (ks_scap (mkYstack (ks_st k) YYINITSTACKSIZE YYINITSTACKSIZE YYINITSTACKSIZE m2) =? 0) with false. cbv iota.
        apply RUN. repeat split; auto; cbn [ks_size ks_scap ks_lcap]; unfold YYINITSTACKSIZE; lia.
      * right. eexists _, _. split; [reflexivity|]. split; [right; split; [reflexivity|split; [reflexivity|auto]]|left; auto].
    + right. eexists _, _. split; [reflexivity|]. split; [right; split; [reflexivity|split; [reflexivity|auto]]|left; auto].
  - destruct (Nat.eqb_spec (ks_scap k) 0) as [Z0|Z0]; [destruct U0; lia|]. destruct (Nat.eqb_spec (ks_scap k) 0); [lia|]. apply RUN. exact U0.
Qed.
End Driver.
