(** A file of items that lemon reads without a message declares nothing twice. *)
From Coq Require Import String List Arith ZArith Bool Lia.
Import ListNotations.
From Verif Require Import Base LemonTableModel LemonTableProof LemonPreModel LemonActionModel LemonReadModel SpecItems LemonReadProof LemonReadSafe.

Definition clean (o : ropts) (evs : list event) (p : pst) : Prop := exists p', feed_tokens o evs p = Ok p' /\ gr_err (p_g p') = 0.

Lemma clean_app : forall o a b p, Safe p -> clean o (a ++ b) p -> exists p1, feed_tokens o a p = Ok p1 /\ gr_err (p_g p1) = 0 /\ Safe p1 /\ clean o b p1.
Proof.
  intros o a b p S0 (p' & H & E). rewrite feed_app in H. destruct (feed_safe o a p S0) as (p1 & R1 & S1 & _). rewrite R1 in H. cbn [bind] in H.
  destruct (feed_safe o b p1 S1) as (p2 & R2 & S2 & L). assert (p' = p2) by congruence. subst. exists p1. split; [exact R1|]. split; [lia|]. split; [exact S1|]. exists p2. auto.
Qed.
Lemma clean_tok : forall o n x evs p, Safe p -> clean o (EvTok n x :: evs) p -> exists p1, parseonetoken o n x p = Ok p1 /\ gr_err (p_g p1) = 0 /\ Safe p1 /\ clean o evs p1.
Proof.
  intros o n x evs p S0 H. destruct (clean_app o [EvTok n x] evs p S0 H) as (p1 & R & A & B & C). exists p1. cbn [feed_tokens] in R. destruct (parseonetoken o n x p); inversion R; subst. auto.
Qed.
Lemma clean_fst : forall o a b p, Safe p -> clean o (a ++ b) p -> clean o a p.
Proof. intros o a b p S0 H. destruct (clean_app o a b p S0 H) as (p1 & R & E & _). exists p1. auto. Qed.

Lemma prec_back : forall o ys evs N V l c g, ro_ignorePrec o = false -> texts evs ys -> c_state c = WAITING_FOR_PRECEDENCE_SYMBOL -> SymInv N V l -> Forall upper ys -> Safe (mkPst c (set_syms l g)) -> clean o evs (mkPst c (set_syms l g)) ->
  NoDup ys /\ forall x, In x ys -> v_prec V x = None.
Proof.
  induction ys as [|y ys IH]; intros evs N V l c g IG T S0 I U SF CL; [split; [constructor|intros x []]|].
  tok T n. inversion U as [|? ? U1 U2]; subst. destruct (sym_new y l) as [i l1] eqn:EN. destruct (sym_new_inv _ _ _ _ _ _ I EN) as (I1 & (s & E & NM & NX) & K1 & _).
  destruct (upper_facts y U1) as (A1 & A2 & _). pose proof (si_named _ _ _ I1 _ _ E NM) as SK. pose proof SK as (SP & _). rewrite NX in SP.
  destruct (clean_tok _ _ _ _ _ SF CL) as (p1 & P & E0 & SF1 & CL1). unfold parseonetoken in P. cbn [p_c p_g] in P. rewrite S0, A1, A2, IG in P. cbn [gr_syms set_syms] in P. rewrite EN, E in P. cbn [opt bind] in P. rewrite SP in P.
  destruct (v_prec V y) as [[q aq]|] eqn:VY; cbn [option_map] in P; [inversion P; subst p1; discriminate|]. inversion P; subst p1. clear P.
  set (s' := with_prec (gr_preccounter (set_syms l g)) (c_assoc c) s) in *.
  destruct (upd_inv _ V (set_prec (gr_preccounter g) (c_assoc c) [y] V) l1 i s s' I1 E NM eq_refl NM) as (I2 & K2).
  { intros z Z. cbn. rewrite NX in Z. rewrite (proj2 (eqt_ne z y) Z). auto. }
  { destruct SK as (_ & _ & C & D & F & H). unfold sok, s'. cbn [so_prec so_assoc so_name so_fallback so_type so_sub so_dtype with_prec set_prec v_prec v_fb v_cls v_typ]. rewrite NX in *. cbn [mem existsb]. rewrite eqt_refl. cbn. auto 10. }
  destruct (IH _ _ _ _ _ _ IG T S0 I2 U2 SF1 CL1) as (ND & FR). split.
  - constructor; [|exact ND]. intros X. specialize (FR y X). cbn in FR. rewrite eqt_refl in FR. discriminate.
  - intros x [<-|X]; [exact VY|]. specialize (FR x X). cbn in FR. destruct (eqt x y) eqn:XY; [discriminate|]. cbn in FR. exact FR.
Qed.

Lemma fb_back : forall o ys evs N V l c g f j, texts evs ys -> c_state c = WAITING_FOR_FALLBACK_ID -> c_fallback c = Some j -> isn l j f -> SymInv N V l -> Forall upper ys -> Safe (mkPst c (set_syms l g)) -> clean o evs (mkPst c (set_syms l g)) ->
  NoDup ys /\ forall x, In x ys -> v_fb V x = None.
Proof.
  induction ys as [|y ys IH]; intros evs N V l c g f j T S0 CF IF I U SF CL; [split; [constructor|intros x []]|].
  tok T n. inversion U as [|? ? U1 U2]; subst. destruct (sym_new y l) as [i l1] eqn:EN. destruct (sym_new_inv _ _ _ _ _ _ I EN) as (I1 & (s & E & NM & NX) & K1 & _).
  destruct (upper_facts y U1) as (A1 & A2 & _). pose proof (si_named _ _ _ I1 _ _ E NM) as SK. pose proof SK as (_ & _ & SP & _). rewrite NX in SP.
  destruct (clean_tok _ _ _ _ _ SF CL) as (p1 & P & E0 & SF1 & CL1). unfold parseonetoken in P. cbn [p_c p_g] in P. rewrite S0, A1, A2 in P. cbn [negb gr_syms set_syms] in P. rewrite EN, CF, E in P. cbn [opt bind] in P.
  destruct (v_fb V y) as [q|] eqn:VY; [destruct SP as (q' & SP & _); rewrite SP in P; inversion P; subst p1; discriminate|]. rewrite SP in P. inversion P; subst p1. clear P.
  set (s' := with_fallback j s) in *. pose proof (keeps_isn _ _ _ _ K1 IF) as IF1.
  destruct (upd_inv _ V (set_fb f [y] V) l1 i s s' I1 E NM eq_refl NM) as (I2 & K2).
  { intros z Z. cbn. rewrite NX in Z. rewrite (proj2 (eqt_ne z y) Z). auto. }
  { destruct SK as (B1 & B2 & _ & D & F & H). unfold sok, s'. cbn [so_prec so_assoc so_name so_fallback so_type so_sub so_dtype with_fallback set_fb v_prec v_fb v_cls v_typ]. rewrite NX in *. cbn [mem existsb]. rewrite eqt_refl. cbn [orb].
    split; [exact B1|]. split; [exact B2|]. split; [exists j; auto|]. split; [exact D|]. split; [exact F|exact H]. }
  destruct (IH _ _ _ _ _ _ _ _ T S0 CF (keeps_isn _ _ _ _ K2 IF1) I2 U2 SF1 CL1) as (ND & FR). split.
  - constructor; [|exact ND]. intros X. specialize (FR y X). cbn in FR. rewrite eqt_refl in FR. discriminate.
  - intros x [<-|X]; [exact VY|]. specialize (FR x X). cbn in FR. destruct (eqt x y) eqn:XY; [discriminate|]. cbn in FR. exact FR.
Qed.

Lemma rhs_back : forall o es evs N V l g c r, texts evs (flat_map relem_tokens es) -> SymInv N V l -> Forall relem_ok es -> (forall x, upper x -> v_cls V x = None) -> length r <= MAXRHS ->
  Safe (mkPst (set_rhs IN_RHS r c) (set_syms l g)) -> clean o evs (mkPst (set_rhs IN_RHS r c) (set_syms l g)) -> length r + length es <= MAXRHS.
Proof.
  induction es as [|e es IH]; intros evs N V l g c r T I OK NC L SF CL; [cbn; lia|].
  cbn [flat_map] in T. apply texts_app in T as (e1 & e2 & -> & T1 & T2). inversion OK as [|? ? O1 O2]; subst.
  destruct (Nat.lt_ge_cases (length r) MAXRHS) as [LT|GE].
  - destruct (elem_run o e e1 N V l g c r T1 I O1 (NC (re_name e)) LT) as (l1 & a & R1 & I1 & K1 & EL).
    destruct (clean_app _ _ _ _ SF CL) as (p1 & R1' & _ & SF1 & CL1). rewrite R1 in R1'. injection R1' as <-.
    pose proof (IH e2 _ V l1 g c (r ++ [a]) T2 I1 O2 NC ltac:(rewrite app_length; cbn [length]; lia) SF1 CL1) as X. rewrite app_length in X. cbn [length] in X. cbn [length]. lia.
  - exfalso. unfold relem_tokens in T1. tok T1 n. cbn [app] in CL. destruct (clean_tok _ _ _ _ _ SF CL) as (p1 & P & E0 & _). unfold parseonetoken in P. cbn [p_c p_g] in P. rewrite c_state_set, c_rhs_set in P.
    destruct O1 as (OA & _). destruct (alpha_facts _ OA) as (A1 & A2). rewrite A1, A2, (proj2 (Nat.leb_le _ _) GE) in P. inversion P; subst p1. discriminate.
Qed.

Definition backs (o : ropts) (items : list item) (i : item) : Prop := forall evs p, Safe p -> texts evs (item_tokens i) -> ready p -> GInv o items (p_g p) -> clean o evs p -> item_new (ro_ignorePrec o) items i.

Lemma clean_step : forall o n x evs p p1, Safe p -> clean o (EvTok n x :: evs) p -> parseonetoken o n x p = Ok p1 -> Safe p1 /\ clean o evs p1.
Proof. intros o n x evs p p1 SF CL P. destruct (clean_tok _ _ _ _ _ SF CL) as (p2 & P2 & _ & A & B). assert (p1 = p2) by congruence. now subst. Qed.

Lemma back_item : forall o items i, item_shape i -> backs o items i.
Proof.
  intros o items i SH evs p SF T R G CL. destruct i; cbn [item_new]; auto; cbn [item_tokens] in T.
  - destruct SH as (OL & OA & OR & OP & OC).
    change (lhs :: alias_tokens lalias ++ [zs "::="] ++ flat_map relem_tokens rhs ++ [dot] ++ match prec with Some x => [zs "["; x; zs "]"] | None => [] end ++ match code with Some c => [c] | None => [] end)
      with ((lhs :: alias_tokens lalias) ++ [zs "::="] ++ flat_map relem_tokens rhs ++ [dot] ++ match prec with Some x => [zs "["; x; zs "]"] | None => [] end ++ match code with Some c => [c] | None => [] end) in T.
    rewrite app_assoc in T. apply texts_app in T as (e1 & e2 & -> & T1 & T). apply texts_app in T as (e3 & e4 & -> & T2 & T).
    pose proof (gi_sym _ _ _ G) as I. destruct (sym_new lhs (gr_syms (p_g p))) as [i l] eqn:EN. destruct (sym_new_inv _ _ _ _ _ _ I EN) as (I0 & IX & K0 & _).
    destruct (lhs_run o lhs lalias e1 p i l T1 R OL OA EN) as (c & _ & _ & R1). destruct (clean_app _ _ _ _ SF CL) as (p1 & R1' & _ & SF1 & CL1). rewrite R1 in R1'. injection R1' as <-.
    apply (clean_fst _ _ _ _ SF1) in CL1.
    pose proof (rhs_back o rhs e3 _ _ l (p_g p) c [] T2 I0 OR) as X. unfold MAXRHS in X. cbn [length] in X. apply X; auto; [|lia].
    intros x U. cbn [view_of v_cls]. destruct (class_of items x) eqn:CX; [|reflexivity]. pose proof (gi_cls _ _ _ G _ _ CX) as LX. destruct (lower_facts x LX) as (_ & _ & W). unfold upper in U. congruence.
  - intros IG. destruct SH as (NU & UP). cbn [decl] in T. tok T n1. tok T n2. apply texts_app in T as (e1 & e2 & -> & T1 & T2).
    destruct (clean_step _ _ _ _ _ _ SF CL (pct o n1 p R)) as (SF1 & CL1).
    set (c := set_assoc WAITING_FOR_PRECEDENCE_SYMBOL a (set_slot WAITING_FOR_DECL_ARG None true None (set_state WAITING_FOR_DECL_KEYWORD (p_c p)))).
    assert (P : parseonetoken o n2 (assoc_word a) (mkPst (set_state WAITING_FOR_DECL_KEYWORD (p_c p)) (p_g p)) = Ok (mkPst c (next_prec (p_g p)))) by (destruct a; try reflexivity; congruence).
    destruct (clean_step _ _ _ _ _ _ SF1 CL1 P) as (SF2 & CL2). apply (clean_fst _ _ _ _ SF2) in CL2.
    exact (prec_back o l e1 _ _ (gr_syms (p_g p)) c (next_prec (p_g p)) IG T1 eq_refl (gi_sym _ _ _ G) UP SF2 CL2).
  - destruct SH as (UF & UP). cbn [decl] in T. tok T n1. tok T n2. apply texts_app in T as (e1 & e2 & -> & T1 & T2). tok T1 n4. cbn [app] in CL.
    destruct (clean_step _ _ _ _ _ _ SF CL (pct o n1 p R)) as (SF1 & CL1).
    set (c := set_fallback None (set_slot WAITING_FOR_FALLBACK_ID None true None (set_state WAITING_FOR_DECL_KEYWORD (p_c p)))).
    assert (P : parseonetoken o n2 (zs "fallback") (mkPst (set_state WAITING_FOR_DECL_KEYWORD (p_c p)) (p_g p)) = Ok (mkPst c (p_g p))) by reflexivity.
    destruct (clean_step _ _ _ _ _ _ SF1 CL1 P) as (SF2 & CL2).
    destruct (sym_new f (gr_syms (p_g p))) as [j l1] eqn:EN. destruct (sym_new_inv _ _ _ _ _ _ (gi_sym _ _ _ G) EN) as (I0 & IF & K0 & _). destruct (upper_facts f UF) as (A1 & A2 & _).
    assert (P2 : parseonetoken o n4 f (mkPst c (p_g p)) = Ok (mkPst (set_fallback (Some j) c) (set_syms l1 (p_g p)))) by (unfold parseonetoken; cbn [p_c p_g]; change (c_state c) with WAITING_FOR_FALLBACK_ID; cbn match; rewrite A1, A2; cbn [negb]; rewrite EN; reflexivity).
    destruct (clean_step _ _ _ _ _ _ SF2 CL2 P2) as (SF3 & CL3). apply (clean_fst _ _ _ _ SF3) in CL3.
    exact (fb_back o l _ _ _ l1 (set_fallback (Some j) c) (p_g p) f j T1 eq_refl eq_refl IF I0 UP SF3 CL3).
  - cbn [decl app] in T. tok T n1. tok T n2. tok T n4. tok T n3. apply texts_nil in T. subst.
    destruct (clean_step _ _ _ _ _ _ SF CL (pct o n1 p R)) as (SF1 & CL1).
    set (c := set_slot WAITING_FOR_WILDCARD_ID None true None (set_state WAITING_FOR_DECL_KEYWORD (p_c p))).
    assert (P : parseonetoken o n2 (zs "wildcard") (mkPst (set_state WAITING_FOR_DECL_KEYWORD (p_c p)) (p_g p)) = Ok (mkPst c (p_g p))) by reflexivity.
    destruct (clean_step _ _ _ _ _ _ SF1 CL1 P) as (SF2 & CL2). destruct (clean_tok _ _ _ _ _ SF2 CL2) as (p1 & P2 & E0 & _).
    unfold parseonetoken in P2. cbn [p_c p_g] in P2. change (c_state c) with WAITING_FOR_WILDCARD_ID in P2. cbn match in P2. destruct (upper_facts x SH) as (A1 & A2 & _). rewrite A1, A2 in P2. cbn [negb] in P2.
    destruct (sym_new x (gr_syms (p_g p))) as [j l1]. pose proof (gi_wild _ _ _ G) as W. destruct (wildcard_of items) as [w|]; [|reflexivity]. destruct W as (q & W & _). rewrite W in P2. injection P2 as <-. discriminate.
  - destruct SH as (LK & UP). cbn [decl] in T. tok T n1. tok T n2. apply texts_app in T as (e1 & e2 & -> & T1 & T2). tok T1 n4. cbn [app] in CL.
    destruct (clean_step _ _ _ _ _ _ SF CL (pct o n1 p R)) as (SF1 & CL1).
    set (k := set_slot WAITING_FOR_CLASS_ID None true None (set_state WAITING_FOR_DECL_KEYWORD (p_c p))).
    assert (P : parseonetoken o n2 (zs "token_class") (mkPst (set_state WAITING_FOR_DECL_KEYWORD (p_c p)) (p_g p)) = Ok (mkPst k (p_g p))) by reflexivity.
    destruct (clean_step _ _ _ _ _ _ SF1 CL1 P) as (SF2 & CL2). destruct (clean_tok _ _ _ _ _ SF2 CL2) as (p1 & P2 & E0 & _).
    unfold parseonetoken in P2. cbn [p_c p_g] in P2. change (c_state k) with WAITING_FOR_CLASS_ID in P2. cbn match in P2. destruct (lower_facts c LK) as (A1 & A2 & A3). rewrite A2 in P2. cbn [negb] in P2.
    pose proof (gi_sym _ _ _ G) as I. intros X. rewrite <- (si_names _ _ _ I) in X. apply names_isn in X as (q & X). apply isn_find in X; [|rewrite (si_names _ _ _ I); exact (si_nodup _ _ _ I)]. rewrite X in P2. injection P2 as <-. discriminate.
  - destruct SH as (AX & OK). tok T n1. tok T n2. tok T n4. tok T n3. apply texts_nil in T. subst.
    destruct (clean_step _ _ _ _ _ _ SF CL (pct o n1 p R)) as (SF1 & CL1).
    set (c := set_slot WAITING_FOR_DATATYPE_SYMBOL None true None (set_state WAITING_FOR_DECL_KEYWORD (p_c p))).
    assert (P : parseonetoken o n2 (zs "type") (mkPst (set_state WAITING_FOR_DECL_KEYWORD (p_c p)) (p_g p)) = Ok (mkPst c (p_g p))) by reflexivity.
    destruct (clean_step _ _ _ _ _ _ SF1 CL1 P) as (SF2 & CL2). destruct (clean_tok _ _ _ _ _ SF2 CL2) as (p1 & P2 & E0 & _).
    unfold parseonetoken in P2. cbn [p_c p_g] in P2. change (c_state c) with WAITING_FOR_DATATYPE_SYMBOL in P2. cbn match in P2. destruct (alpha_facts x AX) as (_ & A2). rewrite A2 in P2. cbn [negb] in P2.
    destruct (sym_new x (gr_syms (p_g p))) as [j l1] eqn:EN. destruct (sym_new_inv _ _ _ _ _ _ (gi_sym _ _ _ G) EN) as (I0 & (s & E & NM & NX) & K0 & _). rewrite E in P2. cbn [opt bind] in P2.
    destruct (si_named _ _ _ I0 _ _ E NM) as (_ & _ & _ & _ & _ & SP). rewrite NX in SP. cbn [view_of v_typ] in SP. rewrite SP in P2. destruct (type_of items x); [|reflexivity]. injection P2 as <-. discriminate.
Qed.

Lemma back_items : forall o post pre evs p, Forall item_shape post -> Safe p -> texts evs (flat_map item_tokens post) -> ready p -> GInv o pre (p_g p) -> clean o evs p ->
  forall a i b, post = a ++ i :: b -> item_new (ro_ignorePrec o) (pre ++ a) i.
Proof.
  induction post as [|k post IH]; intros pre evs p SH SF T R G CL a i b E; [destruct a; discriminate|].
  cbn [flat_map] in T. apply texts_app in T as (e1 & e2 & -> & T1 & T2). inversion SH as [|? ? SH1 SH2]; subst.
  pose proof (back_item o pre k SH1 e1 p SF T1 R G (clean_fst _ _ _ _ SF CL)) as NEW. destruct a as [|a0 a]; inversion E; subst; [now rewrite app_nil_r|].
  destruct (goes_item o pre a0 SH1 NEW e1 p T1 R G) as (p1 & R1 & RD & G1). destruct (clean_app _ _ _ _ SF CL) as (p2 & R2 & _ & SF2 & CL2). assert (p1 = p2) by congruence. subst p2.
  pose proof (IH (pre ++ [a0]) e2 p1 SH2 SF2 T2 RD G1 CL2 a i b eq_refl) as X. rewrite <- app_assoc in X. exact X.
Qed.

Lemma back_file : forall o items evs, Forall item_shape items -> texts evs (flat_map item_tokens items) -> clean o evs init_pst -> items_new (ro_ignorePrec o) items.
Proof.
  intros o items evs SH T CL pre i post E. exact (back_items o items [] evs init_pst SH init_safe T (or_introl eq_refl) (init_GInv o) CL pre i post E).
Qed.
