(** byacc/lalr.c: initialize_F. *)
From Coq Require Import List Arith NArith ZArith Lia Bool Sorted.
Import ListNotations.
From Verif Require Import Base SpecGrammar SpecGrammarFacts SpecLRFacts SpecByacc ByaccWarshallModel ByaccWarshallProof ByaccLr0Model ByaccPackProof
  ByaccClosureProof ByaccNullProof ByaccLr0Proof ByaccStatesProof ByaccLalrModel ByaccDigraphProof ByaccLookSem ByaccGotoProof.
Open Scope res_scope.

Lemma row_set : forall ts n F i x, length F = n * ts -> i < n -> x / BPW < ts -> exists F', SETBIT BPW F (i * ts) x = Ok F' /\
  length F' = n * ts /\ forall k t, fs ts F' k t <-> fs ts F k t \/ (k = i /\ t = x).
Proof.
  intros ts n F i x L Hi Hx. destruct (SETBIT_ok BPW F (i * ts) x) as (F' & E & L' & N & B); [nia|].
  exists F'. split; [auto|]. split; [lia|]. intros k t. specialize (B BPW_pos). unfold fs. destruct (Nat.eq_dec k i) as [->|Nk].
  - rewrite B, orb_true_iff, Nat.eqb_eq. split; [intros [H [H1|H1]]; [left; auto|right; auto]|]. intros [[H1 H2]|[_ ->]]; auto.
  - assert (Q : t / BPW < ts -> bitat BPW F' (k * ts) t = bitat BPW F (k * ts) t).
    { intros Ht. unfold bitat. rewrite N; [reflexivity|]. destruct (Nat.lt_trichotomy k i) as [C|[C|C]]; nia. }
    split; [intros [H1 H2]; left; rewrite Q in H2; auto|]. intros [[H1 H2]|[H1 _]]; [rewrite <- Q in H2; auto|congruence].
Qed.

Section Reads.
Variable s : bsrc.
Hypothesis W : wf_src s.
Variable st : lr0st.
Hypothesis LO : lr0_ok s st.
Local Notation b := (pack_grammar s).
Local Notation G := (aug s).
Local Notation go := (go st).
Local Notation nst := (nst st).
Local Notation acc := (acc st).
Local Notation nt := (b_ntokens s).
Local Notation ts := (WORDSIZE BPW (ntokens b)).
Local Notation fs := (fs ts).
Variable g : gotos.
Hypothesis GO : goto_ok s st g.
Local Notation gt := (gt s st g).
Variable nl : list bool.
Hypothesis NLl : length nl = b_nsyms s.
Hypothesis NL : forall x, x < b_nsyms s -> x <> nt -> (nth x nl false = true <-> nullable G [ESym x]).
Variable sht : list (option (list nat)).
Hypothesis SHl : length sht = nst.
Hypothesis SH : forall p, p < nst -> nth_error sht p = Some (match shifts_of st p with [] => None | l => Some l end).

Lemma tok_word : forall t, t < nt -> t / BPW < ts.
Proof. intros t H. apply wordsize_lt; [apply BPW_pos|]. now rewrite b_ntok. Qed.

Lemma f_tokens_ok : forall n i l F, srt (map acc l) -> (forall q, In q l -> q < nst) -> length F = n * ts -> i < n ->
  exists F', f_tokens b (accessing st) l F (i * ts) = Ok (F', filter (nonterm s st) l) /\ length F' = n * ts /\
  forall k t, fs F' k t <-> fs F k t \/ (k = i /\ t < nt /\ exists q, In q l /\ acc q = t).
Proof.
  intros n i. induction l as [|q l IH]; intros F S1 B L Hi; cbn [f_tokens].
  - exists F. split; [reflexivity|]. split; [auto|]. intros k t. split; [auto|]. intros [H|(_ & _ & q & [] & _)]; auto.
  - cbn [map] in S1. inversion S1 as [|? ? T1 T2]; subst. rewrite (accessing_nth st q) by (apply B; now left). cbn [opt bind].
    rewrite start_eq. rewrite Forall_forall in T2. destruct (Nat.leb_spec nt (acc q)) as [Ge|Lt].
    + exists F. assert (FA : filter (nonterm s st) (q :: l) = q :: l).
      { assert (Z : forall z, In z (q :: l) -> nonterm s st z = true).
        { intros z [<-|Hz]; unfold nonterm; apply Nat.leb_le; [auto|]. assert (acc q < acc z) by (apply T2, in_map; auto). lia. }
        clear - Z. induction (q :: l) as [|z r IH]; [auto|]. cbn [filter]. rewrite Z by now left. f_equal. apply IH. intros z' H. apply Z. now right. }
      rewrite FA. split; [reflexivity|]. split; [auto|]. intros k t. split; [auto|]. intros [H|(_ & Ht & q' & [<-|Hq] & E)]; [auto|lia|].
      assert (acc q < acc q') by (apply T2, in_map; auto). lia.
    + destruct (row_set ts n F i (acc q) L Hi (tok_word _ Lt)) as (F1 & E1 & L1 & B1). rewrite E1. cbn [bind].
      destruct (IH F1 T1) as (F' & E & L' & B'); auto. { intros q' H. apply B. now right. }
      exists F'. split.
      { rewrite E. do 2 f_equal. cbn [filter]. replace (nonterm s st q) with false; [auto|]. symmetry. unfold nonterm. apply Nat.leb_gt. auto. }
      split; [auto|]. intros k t. rewrite B', B1. split.
      * intros [[H|[-> ->]]|(-> & Ht & q' & Hq & E')]; [auto| |]; right.
        -- split; [auto|]. split; [auto|]. exists q. split; [now left|auto].
        -- split; [auto|]. split; [auto|]. exists q'. split; [now right|auto].
      * intros [H|(-> & Ht & q' & [<-|Hq] & E')]; [auto|left; right; auto|]. right. split; [auto|]. split; [auto|]. exists q'. auto.
Qed.

Lemma edges_bound : forall (l : list nat), NoDup l -> (forall e, In e l -> e < ngotos g) -> length l <= ngotos g.
Proof.
  intros l ND B. rewrite <- (seq_length (ngotos g) 0). apply NoDup_incl_length; [auto|]. intros e H. apply in_seq. apply B in H. lia.
Qed.

Lemma f_reads_ok : forall p l edge, srt (map acc l) -> (forall q, In q l -> go p (acc q) q /\ nt < acc q) ->
  NoDup edge -> (forall e, In e edge -> exists x q, gt e p x q /\ forall q', In q' l -> x < acc q') ->
  exists E, f_reads b g (accessing st) nl p l edge = Ok (edge ++ E) /\
  (forall e, In e E <-> exists q, In q l /\ nullable G [ESym (acc q)] /\ gt e p (acc q) q).
Proof.
  intros p. induction l as [|q l IH]; intros edge S1 B ND HE; cbn [f_reads].
  - exists []. rewrite app_nil_r. split; [reflexivity|]. intros e. split; [intros []|intros (q & [] & _)].
  - cbn [map] in S1. inversion S1 as [|? ? T1 T2]; subst. rewrite Forall_forall in T2. destruct (B q (or_introl eq_refl)) as [Hg Nq].
    pose proof (go_range s W st LO _ _ _ Hg) as (R1 & R2 & R3 & R4 & R5 & R6).
    rewrite (accessing_nth st q) by auto. cbn [opt bind].
    rewrite (nth_error_nth' nl false) by lia. cbn [opt bind].
    assert (B' : forall q', In q' l -> go p (acc q') q' /\ nt < acc q') by (intros q' H; apply B; now right).
    destruct (nth (acc q) nl false) eqn:En.
    + assert (Nu : nullable G [ESym (acc q)]) by (apply NL; auto; lia).
      destruct (gt_go s W st LO g GO p (acc q) q Hg Nq) as (e0 & He0). rewrite (map_goto_gt s W st LO g GO e0 p (acc q) q He0). cbn [bind].
      assert (Ne0 : ~ In e0 edge).
      { intros H. destruct (HE e0 H) as (x & q1 & H1 & H2). destruct (gt_det s W st LO g _ _ _ _ _ _ _ He0 H1) as (_ & Ex & _).
        specialize (H2 q (or_introl eq_refl)). lia. }
      assert (ND' : NoDup (edge ++ [e0])).
      { apply NoDup_app_iff. split; [auto|]. split; [repeat constructor; auto|]. intros x Hx [<-|[]]. auto. }
      assert (LE : length (edge ++ [e0]) <= ngotos g).
      { apply edges_bound; [auto|]. intros e H. apply in_app_or in H as [H|[<-|[]]]; [|eapply gt_lt; eauto]. destruct (HE e H) as (x & q1 & H1 & _). eapply gt_lt; eauto. }
      rewrite app_length in LE. cbn [length] in LE. unfold push_edge. replace (length edge <? S (ngotos g)) with true by (symmetry; apply Nat.ltb_lt; lia). cbn [bind].
      destruct (IH (edge ++ [e0]) T1 B' ND') as (E & EE & HH).
      { intros e H. apply in_app_or in H as [H|[<-|[]]].
        - destruct (HE e H) as (x & q1 & H1 & H2). exists x, q1. split; [auto|]. intros q' Hq. apply H2. now right.
        - exists (acc q), q. split; [auto|]. intros q' Hq. apply T2, in_map, Hq. }
      exists (e0 :: E). split; [rewrite EE, <- app_assoc; reflexivity|]. intros e. split.
      * intros [<-|H]; [exists q; split; [now left|auto]|]. apply HH in H as (q' & H1 & H2). exists q'. split; [now right|auto].
      * intros (q' & [<-|H1] & H2 & H3); [left; exact (gt_inj s W st LO g GO _ _ _ _ _ He0 H3)|right]. apply HH. exists q'. auto.
    + destruct (IH edge T1 B' ND) as (E & EE & HH).
      { intros e H. destruct (HE e H) as (x & q1 & H1 & H2). exists x, q1. split; [auto|]. intros q' Hq. apply H2. now right. }
      exists E. split; [exact EE|]. intros e. rewrite HH. split.
      * intros (q' & H1 & H2). exists q'. split; [now right|auto].
      * intros (q' & [<-|H1] & H2 & H3); [|exists q'; auto]. apply NL in H2; [congruence|lia|auto].
Qed.

(** What initialize_F has done for one transition. *)
Definition rd_edge (i e : nat) : Prop := exists p x q y q', gt i p x q /\ gt e q y q' /\ nullable G [ESym y].

Lemma srt_filter : forall (f : nat -> bool) (h : nat -> nat) l, srt (map h l) -> srt (map h (filter f l)).
Proof.
  induction l as [|x l IH]; intros H; [constructor|]. cbn [map] in H. inversion H as [|? ? H1 H2]; subst. cbn [filter].
  destruct (f x); [|auto]. cbn [map]. constructor; [auto|]. rewrite Forall_forall in *. intros y Hy. apply H2.
  apply in_map_iff in Hy as (z & <- & Hz). apply filter_In in Hz as [Hz _]. now apply in_map.
Qed.

Lemma f_one : forall n i p x q F, gt i p x q -> length F = n * ts -> i < n ->
  exists F' E, (sp <- opt (nth_error sht q) ;;
      match sp with None => Ok (F, []) | Some l => '(F', l') <- f_tokens b (accessing st) l F (i * ts) ;; e <- f_reads b g (accessing st) nl q l' [] ;; Ok (F', e) end) = Ok (F', E) /\
    length F' = n * ts /\ (forall k t, fs F' k t <-> fs F k t \/ (k = i /\ t < nt /\ exists q', go q t q')) /\
    forall e, In e E <-> rd_edge i e.
Proof.
  intros n i p x q F Hi L Ln. destruct Hi as (I1 & I2 & I3 & I4). pose proof (go_range s W st LO _ _ _ I3) as (_ & _ & _ & Rq & _).
  rewrite (SH q Rq). cbn [opt bind].
  assert (TK : forall t, (exists q', In q' (shifts_of st q) /\ acc q' = t) <-> exists q', go q t q').
  { intros t. split; intros (q' & H); exists q'; exact H. }
  assert (RE : forall e, rd_edge i e <-> exists q', In q' (filter (nonterm s st) (shifts_of st q)) /\ nullable G [ESym (acc q')] /\ gt e q (acc q') q').
  { intros e. split.
    - intros (p1 & x1 & q1 & y & q' & H1 & H2 & H3). destruct (gt_det s W st LO g i p x q p1 x1 q1) as (_ & _ & <-); [split; auto|auto|].
      exists q'. destruct H2 as (A & B & C & D). destruct (go_range s W st LO _ _ _ C) as (_ & _ & _ & _ & _ & Ey). rewrite Ey.
      split; [|split; [auto|split; auto]]. apply filter_In. split; [apply C|]. unfold nonterm. apply Nat.leb_le. lia.
    - intros (q' & H1 & H2 & H3). exists p, x, q, (acc q'), q'. split; [split; auto|auto]. }
  destruct (shifts_of st q) as [|q0 l0] eqn:E0.
  - exists F, []. split; [reflexivity|]. split; [auto|]. split.
    + intros k t. split; [auto|]. intros [H|(_ & _ & q' & H & _)]; [auto|]. rewrite E0 in H. destruct H.
    + intros e. rewrite RE. split; [intros []|intros (q' & [] & _)].
  - assert (BQ : forall q', In q' (q0 :: l0) -> q' < nst).
    { intros q' H. rewrite <- E0 in H. apply shift_go in H. now apply (go_range s W st LO) in H. }
    assert (SS : srt (map acc (q0 :: l0))) by (rewrite <- E0; exact (shifts_srt s st LO q)).
    destruct (f_tokens_ok n i (q0 :: l0) F SS BQ L Ln) as (F' & E1 & L1 & B1). rewrite E1. cbn [bind].
    destruct (f_reads_ok q (filter (nonterm s st) (q0 :: l0)) []) as (E & E2 & B2).
    { now apply srt_filter. }
    { intros q' H. apply filter_In in H as [H N]. rewrite <- E0 in H. apply shift_go in H. split; [auto|]. apply (go_range s W st LO) in H.
      unfold nonterm in N. apply Nat.leb_le in N. lia. }
    { constructor. } { intros e []. }
    rewrite E2. cbn [bind app]. exists F', E. split; [reflexivity|]. split; [auto|]. split.
    + intros k t. rewrite B1, TK. reflexivity.
    + intros e. rewrite B2, RE. reflexivity.
Qed.

Lemma f_loop_ok : forall to i F reads, (forall j, nth_error (g_to g) (i + j) = nth_error to j) -> i + length to = ngotos g ->
  length F = ngotos g * ts -> length reads = i ->
  (forall j, j < i -> exists E, nth_error reads j = Some (some_edges E) /\ forall e, In e E <-> rd_edge j e) ->
  (forall k t, fs F k t <-> k < i /\ t < nt /\ exists p x q q', gt k p x q /\ go q t q') ->
  exists F' reads', f_loop b g (accessing st) nl sht ts to F (i * ts) reads = Ok (F', reads') /\ length F' = ngotos g * ts /\ length reads' = ngotos g /\
  (forall j, j < ngotos g -> exists E, nth_error reads' j = Some (some_edges E) /\ forall e, In e E <-> rd_edge j e) /\
  (forall k t, fs F' k t <-> k < ngotos g /\ t < nt /\ exists p x q q', gt k p x q /\ go q t q').
Proof.
  induction to as [|q to IH]; intros i F reads HT HL L LR HR HF; cbn [f_loop].
  - cbn in HL. assert (i = ngotos g) by lia. rewrite H in *. exists F, reads. auto 10.
  - cbn [length] in HL. assert (Li : i < ngotos g) by lia. destruct (gt_ex s st g GO i Li) as (p & x & q1 & Hi).
    assert (q1 = q). { destruct Hi as (_ & Hi & _). specialize (HT 0). rewrite Nat.add_0_r in HT. rewrite HT in Hi. inversion Hi. auto. } subst q1.
    destruct (f_one (ngotos g) i p x q F Hi L Li) as (F1 & E1 & EE & L1 & B1 & R1).
    destruct (opt (nth_error sht q)) as [sp| |]; cbn [bind] in EE |- *; try discriminate. rewrite EE. cbn [bind].
    replace (i * ts + ts) with (S i * ts) by lia. apply (IH (S i)).
    + intros j. replace (S i + j) with (i + S j) by lia. rewrite HT. reflexivity.
    + lia.
    + auto.
    + rewrite app_length. cbn. lia.
    + intros j Hj. destruct (Nat.eq_dec j i) as [->|N].
      * exists E1. split; [|auto]. rewrite nth_error_app2, LR, Nat.sub_diag by lia. reflexivity.
      * destruct (HR j) as (E & A & B); [lia|]. exists E. split; [|auto]. rewrite nth_error_app1 by lia. auto.
    + intros k t. rewrite B1, HF. split.
      * intros [(H1 & H2 & H3)|(-> & H2 & q' & H3)]; [split; [lia|auto]|]. split; [lia|]. split; [auto|]. exists p, x, q, q'. auto.
      * intros (H1 & H2 & H3). destruct (Nat.eq_dec k i) as [->|N]; [|left; split; [lia|auto]]. right. split; [auto|]. split; [auto|].
        destruct H3 as (p1 & x1 & q1 & q' & A & B). destruct (gt_det s W st LO g _ _ _ _ _ _ _ Hi A) as (_ & _ & <-). eauto.
Qed.

Lemma some_edges_ed : forall R i E, nth_error R i = Some (some_edges E) -> forall j, ed R i j <-> In j E.
Proof. intros R i E H j. unfold ed, edges. rewrite H. destruct E; reflexivity. Qed.

Theorem initialize_F_ok : forall fuel, ngotos g <= fuel -> exists F, initialize_F fuel b g (accessing st) nl sht = Ok F /\ length F = ngotos g * ts /\
  forall i p x q t, gt i p x q -> (fs F i t <-> Rd s st q t \/ (i = 0 /\ t = 0)).
Proof.
  intros fuel Hf. unfold initialize_F.
  destruct (gt_0 s st g GO) as (q0 & H0). pose proof (gt_lt s st g _ _ _ _ H0) as N0.
  assert (Z0 : forall k t, ~ fs (repeat 0%N (ngotos g * ts)) k t).
  { intros k t [_ H]. unfold bitat in H. rewrite nth_repeat in H. rewrite N.bits_0 in H. discriminate. }
  destruct (f_loop_ok (g_to g) 0 (repeat 0%N (ngotos g * ts)) []) as (F1 & reads & E1 & L1 & LR & HR & HF).
  { reflexivity. } { rewrite (gm_to _ _ _ GO). auto. } { apply repeat_length. } { reflexivity. } { intros j H. lia. }
  { intros k t. split; [intros H; now apply Z0 in H|intros (H & _); lia]. }
  change (0 * ts) with 0 in E1. rewrite E1. cbn [bind].
  pose proof (ws_tok s W) as WT.
  destruct (row_set ts (ngotos g) F1 0 0 L1 N0 (tok_word 0 ltac:(lia))) as (F2 & E2 & L2 & B2).
  change (0 * ts) with 0 in E2. rewrite E2. cbn [bind].
  assert (ED : forall i j, ed reads i j <-> rd_edge i j).
  { intros i j. destruct (Nat.lt_ge_cases i (ngotos g)) as [Li|Li].
    - destruct (HR i Li) as (E & A & B). rewrite (some_edges_ed _ _ _ A). apply B.
    - unfold ed, edges. assert (X : nth_error reads i = None) by (apply nth_error_None; lia). rewrite X. split; [intros []|].
      intros (p & x & q & y & q' & H & _). apply gt_lt in H. lia. }
  destruct (digraph_ok ts (ngotos g) reads F2 LR L2) with (fuel := fuel) as (F & E & L & B); [|auto|].
  { intros i j H. apply ED in H as (p & x & q & y & q' & _ & H & _). eapply gt_lt; eauto. }
  exists F. split; [exact E|]. split; [exact L|]. intros i p x q t Hi. rewrite (B i t) by (eapply gt_lt; eauto). split.
  - intros (k & S1 & S2). revert p x q Hi. induction S1 as [k|i j k Eij S1 IH]; intros p x q Hi.
    + apply B2 in S2 as [S2|[-> ->]]; [|auto]. apply HF in S2 as (_ & Ht & p1 & x1 & q1 & q' & A & A').
      destruct (gt_det s W st LO g _ _ _ _ _ _ _ Hi A) as (_ & _ & <-). left. eapply rd_shift; eauto.
    + apply ED in Eij as (p1 & x1 & q1 & y & q' & A & A' & Nu). destruct (gt_det s W st LO g _ _ _ _ _ _ _ Hi A) as (_ & _ & <-).
      destruct (IH S2 q y q' A') as [H|[-> ->]].
      * left. apply (rd_null s st q y q' t); [apply A'|auto|auto].
      * exfalso. destruct (gt_det s W st LO g _ _ _ _ _ _ _ H0 A') as (<- & _). destruct Hi as (_ & _ & Hi & _).
        apply (go_range s W st LO) in Hi. tauto.
  - intros [R|[-> ->]].
    + revert i p x Hi. induction R as [q t q' Hg Ht|q y q' t Hg Nu R IH]; intros i p x Hi.
      * exists i. split; [apply star_refl|]. apply B2. left. apply HF. split; [eapply gt_lt; eauto|]. split; [auto|]. exists p, x, q, q'. auto.
      * assert (Ny : nt < y).
        { pose proof (go_range s W st LO _ _ _ Hg) as (R1 & R2 & _). destruct (Nat.lt_ge_cases y nt) as [C|C]; [|lia].
          exfalso. apply (term_not_nullable G (wf_aug s W) y); [exact C|auto]. }
        destruct (gt_go s W st LO g GO q y q' Hg Ny) as (j & Hj). destruct (IH j q y Hj) as (k & S1 & S2).
        exists k. split; [|auto]. eapply star_step; [|exact S1]. apply ED. exists p, x, q, y, q'. auto.
    + exists 0. split; [apply star_refl|]. apply B2. right. auto.
Qed.
End Reads.
