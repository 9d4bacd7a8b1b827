(** C35, C37: the lookahead sets of byacc and the work array of build_relations. *)
From Coq Require Import List Arith NArith ZArith Lia Bool Sorted FinFun.
Import ListNotations.
From Verif Require Import Base SpecGrammar SpecGrammarFacts SpecLRFacts SpecLR0 SpecByacc ByaccWarshallModel ByaccWarshallProof ByaccLr0Model ByaccPackProof ByaccClosureProof
  ByaccNullProof ByaccLr0Proof ByaccStatesProof ByaccLalrModel ByaccDigraphProof ByaccLookSem ByaccGotoProof ByaccReadProof ByaccLookProof.

Lemma lr0_run : forall s fuel, wf_src s -> b_nsyms s < fuel -> 2 ^ nitems (pack_grammar s) < fuel ->
  exists nl st, lr0 fuel (pack_grammar s) = Ok (nl, st) /\ lr0_ok s st /\ length nl = b_nsyms s /\
    forall x, x < b_nsyms s -> x <> b_ntokens s -> (nth x nl false = true <-> nullable (aug s) [ESym x]).
Proof.
  intros s fuel W F1 F2. destruct (set_nullable_ok s W fuel F1) as (nl & N1 & N2 & N3).
  destruct (generate_states_ok s fuel W F1 F2) as (st & E & LO). exists nl, st. split.
  { unfold lr0. rewrite N1. cbn [bind]. rewrite E. reflexivity. }
  split; [exact LO|]. split; [exact N2|]. intros x Hx Nx. rewrite (nullable_aug s W x Nx), <- N3. reflexivity.
Qed.

(** The nonterminal transitions. *)
Definition transitions (st : lr0st) (g : gotos) : list (nat * nat) := map (fun i => (nth i (g_from g) 0, symof st g i)) (seq 0 (ngotos g)).

Lemma transitions_ok : forall s st g, wf_src s -> lr0_ok s st -> goto_ok s st g -> NoDup (transitions st g) /\ length (transitions st g) = ngotos g /\
  forall p x, In (p, x) (transitions st g) <-> b_ntokens s < x /\ exists q, go st p x q.
Proof.
  intros s st g W LO GO.
  assert (V : forall i, i < ngotos g -> exists q, gt s st g i (nth i (g_from g) 0) (symof st g i) q).
  { intros i Hi. destruct (gt_ex s st g GO i Hi) as (p & A & q & H). exists q. rewrite (symof_gt s st g _ _ _ _ H).
    pose proof H as (H1 & _). rewrite (nth_error_nth _ _ 0 H1). auto. }
  split; [|split].
  - assert (X : forall l, (forall i, In i l -> i < ngotos g) -> NoDup l -> NoDup (map (fun i => (nth i (g_from g) 0, symof st g i)) l)).
    { induction l as [|i l IH]; intros B ND; [constructor|]. inversion ND; subst. cbn [map]. constructor; [|apply IH; [intros j Hj; apply B; now right|auto]].
      intros H. apply in_map_iff in H as (j & E & Hj). inversion E as [[E1 E2]]. destruct (V i (B i (or_introl eq_refl))) as (q & Vi).
      destruct (V j (B j (or_intror Hj))) as (q' & Vj). rewrite E1, E2 in Vj. assert (q' = q).
      { destruct Vi as (_ & _ & Vi & _), Vj as (_ & _ & Vj & _). eapply (go_det s st LO); eauto. } subst q'.
      assert (j = i) by (eapply (gt_inj s W st LO g GO); eauto). subst. auto. }
    apply X; [intros i Hi; apply in_seq in Hi; lia|apply seq_NoDup].
  - unfold transitions. now rewrite map_length, seq_length.
  - intros p x. unfold transitions. rewrite in_map_iff. split.
    + intros (i & E & Hi). inversion E; subst. apply in_seq in Hi. destruct (V i) as (q & _ & _ & Hg & N); [lia|]. split; [auto|]. exists q. auto.
    + intros (N & q & Hg). destruct (gt_go s W st LO g GO p x q Hg N) as (i & Hi). exists i. split; [|apply in_seq; apply gt_lt in Hi; lia].
      rewrite (symof_gt s st g _ _ _ _ Hi). destruct Hi as (Hi & _). now rewrite (nth_error_nth _ _ 0 Hi).
Qed.

Lemma ngotos_bound : forall s st g, wf_src s -> lr0_ok s st -> goto_ok s st g -> ngotos g <= nst st * b_nsyms s.
Proof.
  intros s st g W LO GO. destruct (transitions_ok s st g W LO GO) as (T1 & T2 & T3). rewrite <- T2.
  assert (Z : nst st * b_nsyms s = length (list_prod (seq 0 (nst st)) (seq 0 (b_nsyms s)))) by (rewrite prod_length, !seq_length; auto).
  rewrite Z. clear Z. apply NoDup_incl_length; [auto|].
  intros [p x] H. apply T3 in H as (_ & q & Hg). apply (go_range s W st LO) in Hg. apply in_prod; apply in_seq; lia.
Qed.

(** For every grammar for which lalr does not leave its arrays (C37) the entries
    lookaheads[q] .. lookaheads[q+1]-1 of LAruleno are the rules of the completed
    items of state q, and bit t of the LA row of such an entry is set exactly when t
    can follow that item after some symbol string that leads to q.  (Rule number r of
    byacc is rule r-2 of the grammar with $accept : goal as rule 0.) *)
Theorem C35_lookaheads : forall s fuel, wf_src s -> b_nsyms s < fuel -> 2 ^ nitems (pack_grammar s) < fuel ->
  exists nl st sts, lr0 fuel (pack_grammar s) = Ok (nl, st) /\
  lr0_automaton (aug s) sts /\ length sts = length (l_cores st) /\
  forall fuel' T, length sts * b_nsyms s <= fuel' -> lalr fuel' (pack_grammar s) nl st = Ok T ->
  length (t_LA T) = length (t_rule T) * WORDSIZE BPW (b_ntokens s) /\
  forall q I sh, nth_error sts q = Some (I, sh) ->
  exists lo hi, nth_error (t_start T) q = Some lo /\ nth_error (t_start T) (S q) = Some hi /\ lo <= hi <= length (t_rule T) /\
    (forall r, (exists j, lo <= j < hi /\ nth_error (t_rule T) j = Some r) <-> exists i, In i I /\ after_dot (aug s) i = None /\ fst i <> 0 /\ r = fst i + 2) /\
    (forall j j' r, lo <= j < hi -> lo <= j' < hi -> nth_error (t_rule T) j = Some r -> nth_error (t_rule T) j' = Some r -> j = j') /\
    forall j r t, lo <= j < hi -> nth_error (t_rule T) j = Some r -> t < b_ntokens s ->
      (bitat BPW (t_LA T) (j * WORDSIZE BPW (b_ntokens s)) t = true <->
       exists gm i, is_valid_set (aug s) gm I /\ la (aug s) gm i t /\ after_dot (aug s) i = None /\ r = fst i + 2).
Proof.
  intros s fuel W F1 F2. destruct (lr0_run s fuel W F1 F2) as (nl & st & E & LO & NLl & NL). destruct (lr0_view s W st LO) as (sts & A & L & V).
  exists nl, st, sts. split; [exact E|]. split; [exact A|]. split; [exact L|]. intros fuel' T Hf ET.
  destruct (lalr_total s W st LO nl NLl NL) as (g & G1 & G2 & TT). destruct (TT fuel') as (T' & OK & ET').
  { pose proof (ngotos_bound s st g W LO G2). rewrite L in Hf. lia. }
  assert (T' = T). { rewrite ET in ET'. destruct (all_fit s st g nl); [inversion ET'; auto|discriminate]. } subst T'.
  destruct OK as [O1 O2 O3 O4 O5 O6 O7 O8 O9 O10]. rewrite b_ntok in O9, O10. split; [exact O9|]. intros q I sh Eq.
  assert (Lq : q < nst st) by (rewrite <- L; eapply nth_error_Some_lt; eauto).
  destruct (V _ _ _ Eq) as (_ & V2 & _). destruct (reds_spec s W st LO q Lq) as (R1 & R2).
  destruct (starts_at st (t_red T) O5 q Lq) as (a & A1 & A2 & A3 & A4). rewrite <- O7 in A1, A2. rewrite <- O8 in A3, A4.
  assert (LK : forall j r, a <= j < a + length (reds_of st q) -> nth_error (t_rule T) j = Some r -> lk st (t_red T) q r j).
  { intros j r Hj Er. exists a, (j - a). rewrite <- O7. split; [auto|]. split; [lia|]. split; [|auto]. rewrite <- A3 by lia. rewrite <- Er. f_equal. lia. }
  exists a, (a + length (reds_of st q)). split; [auto|]. split; [auto|]. split; [lia|]. split; [|split].
  - intros r. transitivity (In r (reds_of st q)).
    + split.
      * intros (j & Hj & Er). apply LK in Er as (a' & i & _ & _ & X & _); [|auto]. eapply nth_error_In; eauto.
      * intros H. apply In_nth_error in H as (i & Ei). pose proof (nth_error_Some_lt _ _ _ _ Ei). exists (a + i). split; [lia|]. rewrite A3; auto.
    + rewrite R2. split; intros (i & H1 & H2 & H3 & H4); exists i; (split; [now apply V2|]); (split; [auto|]); (split; [auto|lia]).
  - intros j j' r Hj Hj' Er Er'. pose proof (LK _ _ Hj Er). pose proof (LK _ _ Hj' Er'). eapply (lk_inj s W st LO); eauto.
  - intros j r t Hj Er Ht. assert (In r (reds_of st q)) as IR. { apply LK in Er as (a' & i & _ & _ & X & _); [|auto]. eapply nth_error_In; eauto. }
    apply R2 in IR as (i0 & S1 & S2 & S3 & ->). destruct i0 as [k d]. cbn [fst] in *.
    assert (PR : exists A0 l, prl s k A0 l).
    { pose proof (sitem_ok s st _ _ S1) as (rl & H1 & H2). cbn [fst] in H1.
      destruct (aug_rule s k rl H1) as (A0 & rr & P1 & _). exists A0, rr. split; auto. }
    destruct PR as (A0 & l & P). specialize (O10 q k j t (LK _ _ Hj Er)). unfold fs in O10.
    assert (Tw : t / BPW < WORDSIZE BPW (b_ntokens s)) by (apply wordsize_lt; [apply BPW_pos|auto]).
    transitivity (LAs s st q k t); [split; [intros H; apply O10; auto|intros H; apply O10 in H; tauto]|].
    rewrite (LAs_la s W st LO q k A0 l t P). split.
    + intros (gm & Le & La). exists gm, (k, length l). split; [intros i; rewrite V2; apply Le|]. split; [auto|]. split; [|cbn; lia].
      rewrite (prl_after s k A0 l _ P). rewrite (proj2 (nth_error_None _ _)) by lia. reflexivity.
    + intros (gm & [k' d'] & Vs & La & Ad & Ek). cbn [fst] in Ek. assert (k' = k) by lia. subst k'. exists gm. split; [intros i; rewrite <- V2; apply Vs|].
      replace (length l) with d'; [auto|]. rewrite (prl_after s k A0 l _ P) in Ad.
      assert (N : nth_error l d' = None) by (destruct (nth_error l d'); [discriminate|auto]). apply nth_error_None in N.
      assert (IK : item_ok (aug s) (k, d')) by (eapply valid_ok; eapply la_valid; eauto).
      destruct IK as (rl & I1 & I2). cbn [fst snd] in *. rewrite (prl_rule s k A0 l P) in I1. inversion I1; subst rl. cbn [r_rhs] in I2. rewrite map_length in I2. lia.
Qed.
Print Assumptions C35_lookaheads.

(** When every nonterminal derives a token string these are the LALR(1) lookaheads:
    the union over the canonical LR(1) states with the same core. *)
Theorem C35_lalr1 : forall s fuel, wf_src s -> all_productive (aug s) -> b_nsyms s < fuel -> 2 ^ nitems (pack_grammar s) < fuel ->
  exists nl st sts, lr0 fuel (pack_grammar s) = Ok (nl, st) /\
  lr0_automaton (aug s) sts /\ length sts = length (l_cores st) /\
  forall fuel' T, length sts * b_nsyms s <= fuel' -> lalr fuel' (pack_grammar s) nl st = Ok T ->
  forall q I sh, nth_error sts q = Some (I, sh) ->
  exists lo hi, nth_error (t_start T) q = Some lo /\ nth_error (t_start T) (S q) = Some hi /\
    forall j r t, lo <= j < hi -> nth_error (t_rule T) j = Some r -> t < b_ntokens s ->
      (bitat BPW (t_LA T) (j * WORDSIZE BPW (b_ntokens s)) t = true <->
       exists gm i, is_valid_set (aug s) gm I /\ valid1 (aug s) gm i t /\ after_dot (aug s) i = None /\ r = fst i + 2).
Proof.
  intros s fuel W AP F1 F2. destruct (C35_lookaheads s fuel W F1 F2) as (nl & st & sts & E & A & L & H). exists nl, st, sts.
  split; [exact E|]. split; [exact A|]. split; [exact L|]. intros fuel' T Hf ET q I sh Eq. destruct (H fuel' T Hf ET) as (_ & H').
  destruct (H' q I sh Eq) as (lo & hi & H1 & H2 & _ & _ & _ & H3). exists lo, hi. split; [auto|]. split; [auto|]. intros j r t Hj Er Ht.
  rewrite (H3 j r t Hj Er Ht). split; intros (gm & i & V & LA & X); exists gm, i; (split; [auto|]); (split; [|auto]); apply (la_iff_valid1 _ (wf_aug s W) AP gm i t); auto.
Qed.
Print Assumptions C35_lalr1.

(** Tokens $end, error, '=', '*', 'id'; S : L '=' R | R ; L : '*' R | 'id' ; R : L. *)
Definition ex35 : bsrc := mkSrc 5 9 [(6, [7; 2; 8]); (6, [8]); (7, [3; 8]); (7, [4]); (8, [7])].
Definition nl35 : list bool := Eval vm_compute in match lr0 30 (pack_grammar ex35) with Ok (nl, _) => nl | _ => [] end.
Definition lr35 : lr0st := Eval vm_compute in match lr0 30 (pack_grammar ex35) with Ok (_, st) => st | _ => mkLr0 [] [] [] [] end.
Example C35_hypotheses : wf_src ex35 /\ all_productive (aug ex35) /\ lr0 30 (pack_grammar ex35) = Ok (nl35, lr35) /\
  exists T, lalr 90 (pack_grammar ex35) nl35 lr35 = Ok T /\ length (l_cores lr35) * b_nsyms ex35 <= 90 /\
    t_rule T = [6; 7; 4; 7; 5; 3] /\ map (fun w => N.to_nat w) (t_LA T) = [5; 1; 1; 5; 5; 1].
Proof.
  split; [apply wf_srcb_ok; reflexivity|]. split.
  - assert (ST : forall A l, In (mkRule A l) (g_rules (aug ex35)) -> derives (aug ex35) [ESym A] l).
    { intros A l H. eapply star_step; [|apply star_refl]. pose proof (step_rule (aug ex35) [] [] _ H) as S1. cbn in S1. rewrite app_nil_r in S1. exact S1. }
    assert (P7 : derives (aug ex35) [ESym 7] [ESym 4]) by (apply ST; cbn; tauto).
    assert (P8 : derives (aug ex35) [ESym 8] [ESym 4]) by (eapply star_trans; [apply ST; cbn; tauto|exact P7]).
    assert (P6 : derives (aug ex35) [ESym 6] [ESym 4]) by (eapply star_trans; [apply ST; cbn; right; right; left; reflexivity|exact P8]).
    assert (P5 : derives (aug ex35) [ESym 5] [ESym 4]) by (eapply star_trans; [apply ST; cbn; left; reflexivity|exact P6]).
    intros A [H1 H2]. cbn in H1, H2. exists [4]. split.
    + constructor; auto. unfold is_term. cbn. lia.
    + assert (HA : A = 5 \/ A = 6 \/ A = 7 \/ A = 8) by lia. destruct HA as [->|[->|[->| ->]]]; auto.
  - split; [vm_compute; reflexivity|]. eexists. split; [vm_compute; reflexivity|]. split; [cbn; lia|]. split; reflexivity.
Qed.

(** build_relations never runs out of fuel, and leaves its arrays exactly when some
    nonterminal A that labels a transition has more than n+1 pairs of a rule of A and
    a position in it that holds a nonterminal followed only by nullable symbols, n
    being the number of transitions of the automaton over nonterminals.  (The array
    edge has n+1 elements.) *)
Theorem C37_overflow_exact : forall s fuel, wf_src s -> b_nsyms s < fuel -> 2 ^ nitems (pack_grammar s) < fuel ->
  exists nl st sts TR, lr0 fuel (pack_grammar s) = Ok (nl, st) /\
  lr0_automaton (aug s) sts /\ length sts = length (l_cores st) /\
  NoDup TR /\ (forall p A, In (p, A) TR <-> b_ntokens s < A /\ exists I sh q, nth_error sts p = Some (I, sh) /\ In (A, q) sh) /\
  forall fuel', length sts * b_nsyms s <= fuel' ->
    ((exists T, lalr fuel' (pack_grammar s) nl st = Ok T) \/ lalr fuel' (pack_grammar s) nl st = Bad) /\
    (lalr fuel' (pack_grammar s) nl st = Bad <->
     exists p A P, In (p, A) TR /\ NoDup P /\ S (length TR) < length P /\
       forall k d, In (k, d) P -> exists pre x post, nth_error (b_rules s) k = Some (A, pre ++ x :: post) /\ length pre = d /\
         b_ntokens s < x /\ nullable (aug s) (map ESym post)).
Proof.
  intros s fuel W F1 F2. destruct (lr0_run s fuel W F1 F2) as (nl & st & E & LO & NLl & NL). destruct (lr0_view s W st LO) as (sts & A & L & V).
  destruct (lalr_total s W st LO nl NLl NL) as (g & G1 & G2 & TT). destruct (transitions_ok s st g W LO G2) as (T1 & T2 & T3).
  exists nl, st, sts, (transitions st g). split; [exact E|]. split; [exact A|]. split; [exact L|]. split; [exact T1|]. split.
  { intros p x. rewrite T3. split; intros [N H]; (split; [auto|]).
    - destruct H as (q & Hg). pose proof (go_range s W st LO _ _ _ Hg) as (_ & _ & Lp & _). rewrite <- L in Lp. destruct (nth_error_lt_ex _ _ _ Lp) as ([I sh] & Ep).
      exists I, sh, q. split; [auto|]. destruct (V _ _ _ Ep) as (_ & _ & ->). destruct Hg as [H1 H2]. apply in_map_iff. exists q. split; [congruence|auto].
    - destruct H as (I & sh & q & Ep & Iq). destruct (V _ _ _ Ep) as (_ & _ & ->). apply in_map_iff in Iq as (q' & Eq & Iq). inversion Eq; subst. exists q. split; auto. }
  intros fuel' Hf. destruct (TT fuel') as (T & _ & ET). { pose proof (ngotos_bound s st g W LO G2). rewrite L in Hf. lia. } rewrite ET.
  pose proof (all_fit_spec s W st LO g G2 nl NLl NL (repeat None (nst st)) (repeat_length _ _) (repeat None (nst st)) (repeat_length _ _)) as AF. destruct (all_fit s st g nl) eqn:EA.
  - split; [left; eauto|]. split; [discriminate|]. intros (p & B & P & I1 & N1 & N2 & HP). exfalso. apply T3 in I1 as (NB & q & Hg).
    pose proof (proj1 AF eq_refl p B q Hg NB (map (fun e => (S (fst e), snd e)) P)) as X. rewrite map_length in X.
    assert (length P <= S (ngotos g)); [|lia]. apply X.
    + apply Injective_map_NoDup; [|auto]. intros [a1 a2] [b1 b2] Eab. cbn in Eab. inversion Eab. auto.
    + intros e He. apply in_map_iff in He as ([k d] & <- & He). destruct (HP k d He) as (pre & x & post & H1 & H2 & H3 & H4). exists pre, x, post. cbn [fst snd].
      split; [split; [lia|exact H1]|auto].
  - split; [right; auto|]. split; [intros _|auto].
    assert (ND : ~ (forall p A q, go st p A q -> b_ntokens s < A -> forall P, NoDup P -> (forall e, In e P -> inc_pos s A e) -> length P <= S (ngotos g))).
    { intros H. apply AF in H. congruence. }
    unfold all_fit in EA. apply not_true_iff_false in EA.
    destruct (forallb_neg _ _ EA) as (i & Ii & Fi). apply in_seq in Ii. destruct (gt_ex s st g G2 i ltac:(lia)) as (p & B & q & Hg).
    rewrite (symof_gt s st g _ _ _ _ Hg) in Fi. pose proof Hg as (_ & _ & Hgo & NB). pose proof (go_range s W st LO _ _ _ Hgo) as (R & _).
    destruct (fits_neg s W st g nl NLl NL (repeat None (nst st)) (repeat_length _ _) (repeat None (nst st)) (repeat_length _ _) B ltac:(lia) Fi) as (P & P1 & P2 & P3).
    exists p, B, (map (fun e => (fst e - 1, snd e)) P). split; [apply T3; split; [auto|eauto]|]. split; [|split].
    + clear - P1 P2. induction P as [|e P IH]; [constructor|]. inversion P1; subst. cbn [map]. constructor; [|apply IH; auto; intros e' H; apply P2; now right].
      intros H. apply in_map_iff in H as (e' & Ee & He'). destruct (P2 e (or_introl eq_refl)) as (? & ? & ? & (N & _) & _). destruct (P2 e' (or_intror He')) as (? & ? & ? & (N' & _) & _).
      inversion Ee. apply H1. replace e with e'; [auto|]. destruct e, e'. cbn in *. f_equal; lia.
    + rewrite map_length. lia.
    + intros k d H. apply in_map_iff in H as ([k' d'] & Ee & He). cbn in Ee. inversion Ee; subst. destruct (P2 _ He) as (pre & x & post & (N & H1) & H2 & H3 & H4). cbn [fst snd] in *.
      exists pre, x, post. split; [|auto]. destruct k' as [|k']; [congruence|]. cbn in H1 |- *. rewrite Nat.sub_0_r. exact H1.
Qed.
Print Assumptions C37_overflow_exact.

(** A grammar of 12 rules for which build_relations writes beyond the array edge. *)
Definition ex37 : bsrc := mkSrc 3 11 [(4, [5]); (4, [5; 6]); (4, [5; 7]); (4, [5; 8]); (4, [5; 9]); (4, [5; 10]); (5, [2]); (6, []); (7, []); (8, []); (9, []); (10, [])].
Theorem C37_refuted : exists s nl st, wf_src s /\ lr0 60 (pack_grammar s) = Ok (nl, st) /\ length (l_cores st) * b_nsyms s <= 100 /\
  lalr 100 (pack_grammar s) nl st = Bad.
Proof.
  exists ex37. do 2 eexists. split; [apply wf_srcb_ok; reflexivity|]. split; [vm_compute; reflexivity|]. split; [cbn; lia|vm_compute; reflexivity].
Qed.
Print Assumptions C37_refuted.
(** And one for which it does not. *)
Example C37_hypotheses : wf_src ex35 /\ exists T, lalr 90 (pack_grammar ex35) nl35 lr35 = Ok T /\ ngotos (t_gotos T) = 7.
Proof. split; [apply wf_srcb_ok; reflexivity|]. eexists. split; vm_compute; reflexivity. Qed.
