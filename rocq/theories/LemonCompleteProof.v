(** Completeness of the machine that follows the action lists of FindActions, for
    grammars without LALR(1) conflicts. *)
From Coq Require Import List ZArith NArith Bool Lia Arith Permutation.
Import ListNotations.
From Verif Require Import Base CLib SpecGrammar SpecGrammarFacts SpecLRFacts SpecLR0 SpecConflict LemonSetModel LemonFirstModel
  LemonSortModel LemonStatesModel LemonStatesProof Prop_LemonStates
  LemonActionModel LemonActionProof Prop_LemonAction LemonCompressModel LemonCompressProof
  LemonReportModel LemonParModel LemonParProof LemonPipelineModel LemonReportProof LemonLookupProof
  Prop_LemonTables Prop_LemonDriver LemonGenProof LemonTabProof LemonSoundProof Prop_LemonSound LemonMachineProof.
Local Open Scope res_scope.

(** * The machine reads what a rule derives *)

Section Drive.
Variable g : grammar.
Variable o : opts.
Variable A : list lr0_state.
Variable aps : list (list action).
Hypothesis W : wf_grammar g.
Hypothesis AUT : lr0_automaton g A.
Hypothesis LEN : length aps = length A.
(** Nothing was taken away by resolution. *)
Hypothesis SH : forall q ap X q' t, nth_error aps q = Some ap -> trans g A q X q' -> In t (elem_syms X) -> In (mkAction SHIFT t q') ap.
Hypothesis RD : forall q ap gm r rl t, nth_error aps q = Some ap -> path g A gm q -> rule_of g r = Some rl ->
  la g gm (r, length (r_rhs rl)) t -> t < g_nterm g -> In (mkAction REDUCE t r) ap.

Inductive mstack : list nat -> list elem -> Prop :=
| ms_nil : mstack [0] []
| ms_cons : forall q1 q0 qs X gm, mstack (q0 :: qs) gm -> trans g A q0 X q1 -> mstack (q1 :: q0 :: qs) (X :: gm).

Lemma mstack_path : forall qs gm, mstack qs gm -> exists q r, qs = q :: r /\ path g A gm q.
Proof.
  intros qs gm H. induction H as [|q1 q0 qs X gm H IH T].
  - exists 0, []. split; auto. destruct (lr0_start _ _ AUT) as (I & sh & E & V). exists I, sh. auto.
  - destruct IH as (q & r & E & P). inversion E; subst q r. exists q1, (q0 :: qs). split; auto. eapply path_trans; eauto.
Qed.

Lemma mstack_go : forall q qs gm i X, mstack (q :: qs) gm -> valid g gm i -> after_dot g i = Some X -> exists q', trans g A q X q' /\ mstack (q' :: q :: qs) (X :: gm).
Proof.
  intros q qs gm i X M V AD. destruct (mstack_path _ _ M) as (q0 & r0 & E & (I & sh & EI & VS)). inversion E; subst q0 r0.
  destruct (trans_ex g A q I sh gm i X AUT EI VS) as (q' & _ & _ & T & _); auto; [apply VS; auto|].
  exists q'. split; auto. econstructor; eauto.
Qed.

Lemma state_list : forall gm q, path g A gm q -> exists ap, nth_error aps q = Some ap.
Proof.
  intros gm q (I & sh & E & _). apply nth_error_Some_lt in E. apply nth_error_lt_ex. rewrite LEN. auto.
Qed.

Lemma hd_app : forall (w v : list nat), hd 0 (w ++ v) = match w with [] => hd 0 v | t :: _ => t end.
Proof. intros [|t w] v; auto. Qed.

Lemma drive : forall m n be w, n <= m -> dn g n be (map ESym w) -> Forall (is_term g) w ->
  forall r rl k qs gm v id, rule_of g r = Some rl -> skipn k (r_rhs rl) = be -> k <= length (r_rhs rl) -> mstack qs gm -> la g gm (r, k) (hd 0 v) ->
  Forall (is_term g) v ->
  exists nw Q, mstack (nw ++ qs) (rev be ++ gm) /\ length nw = length be /\
    forall P, arun g o aps (nw ++ qs) (id + length w) v P -> arun g o aps qs id (w ++ v) (Q ++ P).
Proof.
  induction m as [m IHm] using lt_wf_ind. intros n be. revert n. induction be as [|X be IHb]; intros n w LN D FW r rl k qs gm v id R SK LK M LA FV.
  - apply dn_nil_inv in D. apply map_eq_nil in D. subst w. exists [], []. cbn. split; auto. split; auto. intros P H. rewrite Nat.add_0_r in H. auto.
  - assert (LK2 : S k <= length (r_rhs rl)). { assert (L : length (skipn k (r_rhs rl)) = S (length be)) by (rewrite SK; auto). rewrite skipn_length in L. lia. }
    assert (EX : nth_error (r_rhs rl) k = Some X).
    { clear - SK. revert SK. generalize (r_rhs rl). induction k as [|k IH]; intros l SK; destruct l; try discriminate; cbn in *; [congruence|auto]. }
    assert (SK2 : skipn (S k) (r_rhs rl) = be).
    { clear - SK. revert SK. generalize (r_rhs rl). induction k as [|k IH]; intros l SK; destruct l; try discriminate; cbn in *; [congruence|auto]. }
    assert (AD : after_dot g (r, k) = Some X) by (unfold after_dot; cbn [fst snd]; rewrite R; auto).
    assert (WX : wf_elem g X) by (eapply after_dot_wf; eauto).
    destruct (mstack_path _ _ M) as (q & qr & -> & PQ).
    destruct (mstack_go _ _ _ _ _ M (la_valid _ _ _ _ LA) AD) as (q' & T & M').
    apply (dn_app_inv g n [X] be) in D as (n1 & n2 & w1 & w2 & EN & EW & D1 & D2).
    apply map_eq_app in EW as (u1 & u2 & -> & <- & <-). apply Forall_app in FW as (FU1 & FU2).
    assert (LG : la g (X :: gm) (r, S k) (hd 0 v)) by (apply (la_goto g gm (r, k) (hd 0 v) X LA AD)).
    (* a position matched by one token *)
    assert (TOK : forall t, u1 = [t] -> In t (elem_syms X) -> is_term g t ->
      exists nw Q, mstack (nw ++ q :: qr) (rev (X :: be) ++ gm) /\ length nw = length (X :: be) /\
        forall P, arun g o aps (nw ++ q :: qr) (id + length (u1 ++ u2)) v P -> arun g o aps (q :: qr) id ((u1 ++ u2) ++ v) (Q ++ P)).
    { intros t -> IT TT. destruct (IHb n2 u2 ltac:(lia) D2 FU2 r rl (S k) _ _ v (S id) R SK2 LK2 M' LG FV) as (nw & Q & M2 & L2 & AR).
      exists (nw ++ [q']), (Sh id :: Q). rewrite <- app_assoc. cbn [app rev]. rewrite <- app_assoc. cbn [app]. split; auto.
      split; [rewrite app_length; cbn; lia|]. intros P HP.
      destruct (state_list _ _ PQ) as (ap & EAP). eapply ar_shift; [exact EAP|eapply SH; eauto|]. apply AR.
      replace (S id + length u2) with (id + S (length u2)) by lia. auto. }
    destruct X as [s|l].
    + destruct (Nat.lt_ge_cases s (g_nterm g)) as [LT|GE].
      * apply (TOK s); [|left; auto|auto]. apply dn_derives in D1. inversion D1 as [x E1 E2|x y z S1 D1']; subst.
        { destruct u1 as [|a [|b u1]]; inversion E2; auto. }
        apply step_sym_inv in S1 as (rl' & I & E & _). apply (wf_lhs_nonterm g W) in I. unfold is_nonterm in I. lia.
      * (* a nonterminal *)
        inversion D1 as [u EU|n1' u y z S1 D1' EN1]; subst.
        { exfalso. destruct u1 as [|a [|b u1]]; try discriminate. inversion H; subst. inversion FU1; subst. unfold is_term in *. lia. }
        apply step_sym_inv in S1 as (rl' & IR & EL & ->). apply In_nth_error in IR as (r' & R'). fold (rule_of g r') in R'.
        assert (LH : lhs_is g r' s) by (exists rl'; auto).
        assert (RA : rest_after g (r, k) = skipn (S k) (r_rhs rl)) by (unfold rest_after; cbn [fst snd]; rewrite R; auto).
        assert (LA' : la g gm (r', 0) (hd 0 (u2 ++ v))).
        { rewrite hd_app. destruct u2 as [|t u2].
          - apply (la_null g gm (r, k) (hd 0 v) s r' LA AD LH). rewrite RA. eapply dn_derives; eauto.
          - apply (la_first g gm (r, k) s r' t (la_valid _ _ _ _ LA) AD LH). rewrite RA. inversion FU2; subst. split; auto.
            eexists. eapply dn_derives; eauto. }
        assert (FV2 : Forall (is_term g) (u2 ++ v)) by (apply Forall_app; auto).
        destruct (IHm n1' ltac:(lia) n1' (r_rhs rl') u1 (le_n _) D1' FU1 r' rl' 0 (q :: qr) gm (u2 ++ v) id R' eq_refl (Nat.le_0_l _) M LA' FV2) as (nw1 & Q1 & M1 & L1 & AR1).
        destruct (IHb n2 u2 ltac:(lia) D2 FU2 r rl (S k) _ _ v (id + length u1) R eq_refl LK2 M' LG FV) as (nw & Q & M2 & L2 & AR).
        exists (nw ++ [q']), (Q1 ++ Re (Z.of_nat (ri_iRule (opts_rinfo o) r')) :: Q). rewrite <- (app_assoc nw). cbn [app rev]. rewrite <- (app_assoc (rev _)). cbn [app].
        split; auto. split; [rewrite app_length; cbn [length] in *; lia|]. intros P HP. rewrite <- !app_assoc. apply AR1. cbn [app].
        destruct (mstack_path _ _ M1) as (qt & qr1 & E1 & PT). destruct (state_list _ _ PT) as (ap1 & EA1). destruct (state_list _ _ PQ) as (ap & EAP).
        rewrite E1. apply (ar_red g o aps qt qr1 ap1 r' rl' q qr ap q'); auto.
        -- eapply RD; eauto.
           ++ pose proof (la_run g r' rl' _ gm (length (r_rhs rl')) R' LA' (le_n _)) as LR. rewrite firstn_all in LR. auto.
           ++ rewrite hd_app. destruct u2 as [|t u2]; [|inversion FU2; auto]. destruct v as [|t v]; [destruct W; auto|inversion FV; auto].
        -- rewrite <- E1. rewrite <- L1. rewrite skipn_app, skipn_all, Nat.sub_diag. auto.
        -- eapply SH; eauto. left; auto.
        -- apply AR. rewrite app_length in HP. replace (id + length u1 + length u2) with (id + (length u1 + length u2)) by lia. auto.
    + (* a multi-terminal *)
      apply dn_derives in D1. inversion D1 as [x E1 E2|x y z S1 D1']; subst.
      { destruct u1 as [|a [|b u1]]; inversion E2. }
      apply step_multi_inv in S1 as (t & IT & ->). destruct WX as (_ & WX). pose proof (WX t IT) as TT.
      apply (TOK t); auto. inversion D1' as [x E1 E2|x y z S1 D2']; subst.
      { destruct u1 as [|a [|b u1]]; inversion E2; auto. }
      apply step_sym_inv in S1 as (rl' & I & E & _). apply (wf_lhs_nonterm g W) in I. unfold is_nonterm, is_term in *. lia.
Qed.

Lemma machine_complete : forall w, sentence g w -> exists P, arun g o aps [0] 1 w P.
Proof.
  intros w (FW & D). apply derives_dn in D as (n & D). inversion D as [u EU|n' u y z S1 D' EN]; subst.
  { exfalso. destruct w as [|a [|b w]]; try discriminate. inversion H; subst. inversion FW; subst. destruct W as (_ & _ & _ & W4). unfold is_term, is_nonterm in *. lia. }
  apply step_sym_inv in S1 as (rl & IR & EL & ->). apply In_nth_error in IR as (r & R). fold (rule_of g r) in R.
  assert (L0 : la g [] (r, 0) 0) by (apply la_init; exists rl; auto).
  destruct (drive n' n' (r_rhs rl) w (le_n _) D' FW r rl 0 [0] [] [] 1 R eq_refl (Nat.le_0_l _) ms_nil L0 (Forall_nil _)) as (nw & Q & M & L & AR).
  rewrite app_nil_r in *. destruct (mstack_path _ _ M) as (q & qr & E & PT). destruct (state_list _ _ PT) as (ap & EA).
  eexists. apply AR. rewrite E. eapply ar_acc; [exact EA| |exact R|exact EL|].
  - eapply RD; eauto; [|destruct W; auto]. pose proof (la_run g r rl _ [] (length (r_rhs rl)) R L0 (le_n _)) as LR. rewrite firstn_all, app_nil_r in LR. auto.
  - rewrite <- E, <- L, skipn_app, skipn_all, Nat.sub_diag. auto.
Qed.
End Drive.

(** * Resolution of lists without conflicts *)

Definition idle (a : action) : Prop := match a_type a with SHIFT | REDUCE | ACCEPT | ERROR => False | _ => True end.

Section Alone.
Variable p : precs.
Variable ps : list (option nat).

Lemma conflict_parts : forall x y x' y' n, resolve_conflict p ps x y = Ok (x', y', n) ->
  a_sp x' = a_sp x /\ a_sp y' = a_sp y /\ (x' = x \/ idle x' \/ a_type x = SHIFT /\ a_type y = REDUCE) /\ (y' = y \/ idle y') /\
  (x = y -> live x = true -> x' = x).
Proof.
  intros [tx sx ax] [ty sy ay] x' y' n H. unfold resolve_conflict in H. simpl in H.
  destruct (Nat.eqb_spec sx sy) as [<-|N]; simpl in H; [|discriminate].
  unfold live, with_type, idle in *. simpl.
  destruct tx, ty; simpl in H; try discriminate;
    try (inv_ok H; simpl; intuition (congruence || auto); fail).
  - destruct (nth_error ps ay) as [o|]; simpl in H; [|discriminate].
    destruct o as [spy|]; [|inv_ok H; simpl; intuition congruence].
    destruct (p_prec p sx) as [px|] eqn:EX; [|inv_ok H; simpl; intuition congruence].
    destruct (p_prec p spy) as [py|]; [|inv_ok H; simpl; intuition congruence].
    destruct (py <? px); [inv_ok H; simpl; intuition congruence|].
    destruct (px <? py); [inv_ok H; simpl; intuition congruence|].
    destruct (p_assoc p sx); try congruence; inv_ok H; simpl; intuition congruence.
  - destruct (nth_error ps ax) as [ox|] eqn:NX; simpl in H; [|discriminate].
    destruct (nth_error ps ay) as [oy|] eqn:NY; simpl in H; [|discriminate].
    destruct ox as [spx|], oy as [spy|]; try (inv_ok H; simpl; intuition congruence).
    destruct (p_prec p spx) as [px|] eqn:PX, (p_prec p spy) as [py|] eqn:PY; try (inv_ok H; simpl; intuition congruence).
    destruct (Nat.eqb_spec px py); [inv_ok H; simpl; intuition congruence|].
    destruct (py <? px); inv_ok H; simpl; (split; [auto|]; split; [auto|]; split; [auto|]; split; [auto|]); intros E; inversion E; subst; congruence.
Qed.

Lemma inner_alone : forall rest ap ap' rest' n, resolve_inner p ps ap rest = Ok (ap', rest', n) ->
  a_sp ap' = a_sp ap /\
  (forall a, a_sp a <> a_sp ap -> (In a rest <-> In a rest')) /\
  ((forall a, In a rest -> a_sp a = a_sp ap -> a = ap) -> live ap = true -> ap' = ap) /\
  (forall a, In a rest' -> In a rest \/ idle a) /\
  ((forall a b, In a (ap :: rest) -> In b (ap :: rest) -> a_sp a = a_sp b -> a_type a = SHIFT -> a_type b = REDUCE -> False) -> ap' = ap \/ idle ap').
Proof.
  induction rest as [|nap r IH]; intros ap ap' rest' n H; cbn [resolve_inner] in H.
  - inv_ok H. intuition auto.
  - destruct (Nat.eqb_spec (a_sp nap) (a_sp ap)) as [E|E]; [|inv_ok H; intuition auto].
    apply bind_Ok in H as ([[ap1 nap1] k] & H1 & H). apply bind_Ok in H as ([[ap2 r2] m] & H2 & H). inv_ok H.
    apply conflict_parts in H1 as (E1 & E2 & X1 & X2 & X3). apply IH in H2 as (E3 & Y1 & Y2 & Y3 & Y4). rewrite E1 in *.
    split; [auto|]. split; [|split; [|split]].
    + intros a N. cbn [In]. split; (intros [<-|I]; [congruence|right; apply Y1; auto]).
    + intros AL LV. assert (nap = ap) by (apply AL; [left|]; auto). subst nap. rewrite X3 in Y2; auto. apply Y2; auto. intros a I S1. apply AL; [right|]; auto.
    + intros a [<-|I]; [destruct X2 as [->|X2]; [left; left|right]; auto|]. destruct (Y3 a I); [left; right|right]; auto.
    + intros NC. assert (Z : ap1 = ap \/ idle ap1).
      { destruct X1 as [X1|[X1|(S1 & R1)]]; auto. exfalso. apply (NC ap nap); cbn; auto. }
      assert (Z2 : ap' = ap1 \/ idle ap').
      { apply Y4. intros a b Ia Ib SS TA TB. destruct Z as [->|Z].
        - apply (NC a b); auto; [destruct Ia; [left|right; right]; auto|destruct Ib; [left|right; right]; auto].
        - destruct Ia as [<-|Ia]; [unfold idle in Z; rewrite TA in Z; auto|]. destruct Ib as [<-|Ib]; [unfold idle in Z; rewrite TB in Z; auto|].
          apply (NC a b); cbn; auto. }
      destruct Z2 as [->|Z2]; auto.
Qed.

Lemma list_alone : forall f l l' n a, resolve_list f p ps l = Ok (l', n) ->
  (forall b, In b l -> a_sp b = a_sp a -> b = a) -> In a l -> live a = true -> In a l'.
Proof.
  induction f as [|f IH]; intros [|ap rest] l' n a H AL I LV; cbn [resolve_list] in H; try discriminate; [destruct I|destruct I|].
  apply bind_Ok in H as ([[ap1 rest1] k] & H1 & H). apply bind_Ok in H as ([rest2 m] & H2 & H). inv_ok H.
  apply inner_alone in H1 as (E1 & Y1 & Y2 & Y3 & _). destruct (Nat.eq_dec (a_sp a) (a_sp ap)) as [E|E].
  - assert (ap = a) by (apply AL; [left|]; auto). subst ap. left. apply Y2; auto. intros b J. apply AL. right; auto.
  - right. eapply IH; eauto.
    + intros b J SB. apply AL; auto. right. apply Y1; [congruence|auto].
    + apply Y1; auto. destruct I as [->|I]; [congruence|auto].
Qed.

Lemma list_noerr : forall f l l' n, resolve_list f p ps l = Ok (l', n) ->
  (forall a b, In a l -> In b l -> a_sp a = a_sp b -> a_type a = SHIFT -> a_type b = REDUCE -> False) -> no_err l -> no_err l'.
Proof.
  induction f as [|f IH]; intros [|ap rest] l' n H NC NE; cbn [resolve_list] in H; try discriminate.
  1, 2: inv_ok H; auto.
  apply bind_Ok in H as ([[ap1 rest1] k] & H1 & H). apply bind_Ok in H as ([rest2 m] & H2 & H). inv_ok H.
  apply inner_alone in H1 as (_ & _ & _ & Y3 & Y4).
  assert (ID : forall a, idle a -> a_type a <> ERROR). { intros a I E. unfold idle in I. rewrite E in I. auto. }
  assert (Z : no_err rest2).
  { eapply IH; eauto.
    - intros a b Ia Ib SS TA TB. destruct (Y3 a Ia) as [Ja|Ja]; [|unfold idle in Ja; rewrite TA in Ja; auto].
      destruct (Y3 b Ib) as [Jb|Jb]; [|unfold idle in Jb; rewrite TB in Jb; auto]. apply (NC a b); cbn; auto.
    - intros a I. destruct (Y3 a I); [apply NE; right|]; auto. }
  intros a [<-|I]; [|apply Z; auto]. destruct (Y4 NC) as [->|J]; auto. apply NE. left; auto.
Qed.
End Alone.

Lemma conflict_free_lists : forall sf ff o g aps L, wf_grammar g -> small_lists sf ff g -> start_not_rhs g -> lemon_actions sf ff o g = Ok aps -> lemon_front sf ff g = Ok L ->
  resolved g (states_view L) aps -> conflict_free g ->
  (forall ap a, In ap aps -> In a ap -> iserr a = false) /\
  (forall q ap X q' t, nth_error aps q = Some ap -> trans g (states_view L) q X q' -> In t (elem_syms X) -> In (mkAction SHIFT t q') ap) /\
  (forall q ap gm r rl t, nth_error aps q = Some ap -> path g (states_view L) gm q -> rule_of g r = Some rl ->
     la g gm (r, length (r_rhs rl)) t -> t < g_nterm g -> In (mkAction REDUCE t r) ap).
Proof.
  intros sf ff o g aps L W SM SNR HA HL RS CF. destruct (actions_raw _ _ _ _ _ W SM HA) as (L2 & raw & ps & HL2 & ER & LR & LA & P).
  rewrite HL in HL2. injection HL2 as HL2. subst L2.
  destruct (C04_action_lists _ _ _ _ W (proj1 SM) HL) as (raw' & ER' & _ & CH). rewrite ER in ER'. inversion ER'; subst raw'. clear ER'.
  set (A := states_view L) in *. pose proof (rs_auto _ _ _ RS) as AUT.
  assert (N4 : is_nonterm g (g_start g)) by (destruct W as (_ & _ & _ & W4); auto).
  (* the members of a list *)
  assert (MEM : forall q rw I sh gm a, nth_error raw q = Some rw -> nth_error A q = Some (I, sh) -> is_valid_set g gm I -> In a rw -> a_sp a < g_nterm g ->
    (exists X, a_type a = SHIFT /\ shiftable g gm X (a_sp a) /\ trans g A q X (a_arg a)) \/ (a_type a = REDUCE /\ reducible g gm (a_arg a) (a_sp a))).
  { intros q rw I sh gm [ty s x] Hq HI V IA LT. destruct (CH q I sh rw HI Hq) as (C1 & C2 & C3 & C4 & _). cbn [a_type a_sp a_arg] in *.
    destruct (C4 _ IA) as [E|[E|E]]; cbn in E; subst ty.
    - apply C1 in IA as (X & J & sh' & IX & HJ & SU). left. exists X. split; auto. split; [|exists I, sh, J, sh'; auto].
      split; auto. destruct SU as ((i & Ii & AD) & _). exists i. split; auto. apply V; auto.
    - apply C2 in IA as (_ & rl & R & _ & gm' & V' & LA'). right. split; auto. exists rl, gm'. split; auto. split; auto.
      intros i. rewrite <- (V i), <- (V' i). tauto.
    - apply C3 in IA as (_ & -> & _). unfold is_nonterm in N4. lia. }
  assert (UNI : forall q rw a b, nth_error raw q = Some rw -> In a rw -> In b rw -> a_sp a = a_sp b -> a_sp a < g_nterm g -> a = b).
  { intros q rw a b Hq Ia Ib SS LT. destruct (nth_error_lt_ex _ A q) as ([I sh] & HI); [rewrite <- LR; eapply nth_error_Some_lt; eauto|].
    destruct (lr0_sound _ _ AUT q I sh HI) as (gm & V). destruct (CF gm (a_sp a) LT) as (N1 & N2 & N3).
    pose proof (MEM q rw I sh gm a Hq HI V Ia LT) as Ka. rewrite SS in LT. pose proof (MEM q rw I sh gm b Hq HI V Ib LT) as Kb. rewrite <- SS in Kb.
    destruct a as [ta sa xa], b as [tb sb xb]. cbn [a_type a_sp a_arg] in *. subst sb.
    destruct Ka as [(X & -> & SA & TA)|(-> & RA)], Kb as [(Y & -> & SB & TB)|(-> & RB)].
    - rewrite (N3 X Y SA SB) in TA. f_equal. assert (PQ : path g A gm q) by (exists I, sh; auto).
      destruct (path_trans _ _ _ _ _ _ PQ TA) as (J1 & s1 & E1 & V1). destruct (path_trans _ _ _ _ _ _ PQ TB) as (J2 & s2 & E2 & V2).
      eapply (lr0_distinct _ _ AUT); eauto. intros i. rewrite (V1 i), (V2 i). tauto.
    - exfalso. eapply N1; eauto.
    - exfalso. eapply N1; eauto.
    - f_equal. auto. }
  assert (TY : forall q rw a, nth_error raw q = Some rw -> In a rw -> live a = true /\ a_type a <> ERROR /\ (a_type a = REDUCE -> a_sp a < g_nterm g)).
  { intros q rw [ty s x] Hq I. destruct (nth_error_lt_ex _ A q) as ([J sh] & HJ); [rewrite <- LR; eapply nth_error_Some_lt; eauto|].
    destruct (CH q J sh rw HJ Hq) as (_ & C2 & _ & C4 & _). cbn [a_type a_sp].
    destruct (C4 _ I) as [E|[E|E]]; cbn in E; subst ty; (split; [reflexivity|]; split; [discriminate|]); intros E; try discriminate.
    destruct (proj1 (C2 _ _) I) as (LT & _). auto. }
  assert (KEEP : forall q ap rw a, nth_error aps q = Some ap -> nth_error raw q = Some rw -> In a rw -> a_sp a < g_nterm g -> In a ap).
  { intros q ap rw a Hq Hrw I LT. destruct (P q ap Hq) as (rw' & addr & m & Hrw' & R & PM). rewrite Hrw in Hrw'. inversion Hrw'; subst rw'.
    eapply list_alone; [exact R| |apply (Permutation_in _ (Permutation_sym PM)); auto|eapply TY; eauto].
    intros b Ib SB. apply (Permutation_in _ PM) in Ib. apply (UNI q rw); auto. rewrite SB. auto. }
  split; [|split].
  - intros ap a IA I. apply In_nth_error in IA as (q & Hq). destruct (P q ap Hq) as (rw & addr & m & Hrw & R & PM).
    unfold iserr. destruct (a_type a) eqn:T; auto. exfalso. revert a I T. change (no_err ap). eapply list_noerr; [exact R| |].
    + intros a b Ia Ib SS TA TB. apply (Permutation_in _ PM) in Ia, Ib. destruct (TY q rw b Hrw Ib) as (_ & _ & LT). specialize (LT TB). rewrite <- SS in LT.
      assert (a = b) by (apply (UNI q rw); auto). congruence.
    + intros a Ia. apply (Permutation_in _ PM) in Ia. eapply TY; eauto.
  - intros q ap X q' t Hq T IT. destruct (Nat.lt_ge_cases t (g_nterm g)) as [LT|GE].
    + destruct (nth_error_lt_ex _ raw q) as (rw & Hrw); [rewrite <- LA; eapply nth_error_Some_lt; eauto|].
      apply (KEEP q ap rw); auto. destruct T as (I & sh & J & sh' & HI & HJ & SU). destruct (CH q I sh rw HI Hrw) as (C1 & _). apply C1. exists X, J, sh'. auto.
    + apply (rs_goto _ _ _ RS q ap t q' Hq GE). exists X. auto.
  - intros q ap gm r rl t Hq (I & sh & HI & V) R LAr LT. destruct (nth_error_lt_ex _ raw q) as (rw & Hrw); [rewrite <- LA; eapply nth_error_Some_lt; eauto|].
    apply (KEEP q ap rw); auto. destruct (CH q I sh rw HI Hrw) as (_ & C2 & _). apply C2. split; auto. exists rl. split; auto.
    split; [apply V; eapply la_valid; eauto|]. exists gm. auto.
Qed.

Lemma front_auto : forall sf ff g L2, wf_grammar g -> (N.of_nat (item_count g) < 2 ^ 30)%N -> lemon_front sf ff g = Ok L2 -> lr0_automaton g (states_view L2).
Proof.
  intros sf ff g L2 WF SZ E. destruct (front_facts _ _ _ _ WF SZ E) as (L & F & FO). rewrite (front_view g L L2 FO). now apply Final_automaton.
Qed.

(** Lists with one action for each symbol come from grammars without conflicts. *)
Lemma distinct_lists_free : forall sf ff g L raw, wf_grammar g -> (N.of_nat (item_count g) < 2 ^ 30)%N -> lemon_front sf ff g = Ok L ->
  actions_added g L = Ok raw -> (forall ap, In ap raw -> NoDup (map a_sp ap)) -> conflict_free g.
Proof.
  intros sf ff g L raw W SZ HL ER ND. pose proof (front_auto _ _ _ _ W SZ HL) as AUT.
  destruct (C04_action_lists _ _ _ _ W SZ HL) as (raw' & ER' & LR & CH). rewrite ER in ER'. inversion ER'; subst raw'. clear ER'.
  set (A := states_view L) in *.
  assert (EQ : forall rw a b, In rw raw -> In a rw -> In b rw -> a_sp a = a_sp b -> a = b).
  { intros rw a b Ir. specialize (ND rw Ir). revert ND. generalize rw. clear. induction rw as [|c l IH]; intros ND Ia Ib E; [destruct Ia|].
    cbn [map] in ND. inversion ND as [|? ? N1 N2]; subst. destruct Ia as [<-|Ia], Ib as [<-|Ib]; auto.
    - exfalso. apply N1. rewrite E. apply in_map. auto.
    - exfalso. apply N1. rewrite <- E. apply in_map. auto. }
  assert (SHI : forall gm X t q I sh rw, nth_error A q = Some (I, sh) -> is_valid_set g gm I -> nth_error raw q = Some rw -> shiftable g gm X t ->
    exists q' J sh', In (mkAction SHIFT t q') rw /\ nth_error A q' = Some (J, sh') /\ is_valid_set g (X :: gm) J).
  { intros gm X t q I sh rw HI V Hrw (IT & i & VI & AD). destruct (trans_ex g A q I sh gm i X AUT HI V) as (q' & J & sh' & T & HJ & VJ); auto; [apply V; auto|].
    exists q', J, sh'. split; auto. destruct (CH q I sh rw HI Hrw) as (C1 & _). apply C1. exists X, J, sh'. split; auto. split; auto.
    destruct T as (I1 & s1 & J1 & s2 & E1 & E2 & SU). rewrite HI in E1. inversion E1; subst. rewrite HJ in E2. inversion E2; subst. auto. }
  assert (REI : forall gm r t q I sh rw, is_term g t -> nth_error A q = Some (I, sh) -> is_valid_set g gm I -> nth_error raw q = Some rw -> reducible g gm r t -> In (mkAction REDUCE t r) rw).
  { intros gm r t q I sh rw TT HI V Hrw (rl & gm' & R & SS & LA). destruct (CH q I sh rw HI Hrw) as (_ & C2 & _). apply C2. split; auto. exists rl. split; auto.
    split; [apply V, SS; eapply la_valid; eauto|]. exists gm'. split; auto. intros i. rewrite (V i). apply SS. }
  assert (STA : forall gm i, valid g gm i -> exists q I sh rw, nth_error A q = Some (I, sh) /\ is_valid_set g gm I /\ nth_error raw q = Some rw).
  { intros gm i V. destruct (lr0_complete _ _ AUT gm i V) as (q & I & sh & HI & VS). destruct (nth_error_lt_ex _ raw q) as (rw & Hrw); [rewrite LR; eapply nth_error_Some_lt; eauto|].
    exists q, I, sh, rw. auto. }
  intros gm t TT. split; [|split].
  - intros X r S1 R1. destruct S1 as (IT & i & VI & AD). destruct (STA gm i VI) as (q & I & sh & rw & HI & V & Hrw).
    destruct (SHI gm X t q I sh rw HI V Hrw) as (q' & _ & _ & I1 & _); [split; eauto|]. pose proof (REI gm r t q I sh rw TT HI V Hrw R1) as I2.
    pose proof (EQ rw _ _ (nth_error_In _ _ Hrw) I1 I2 eq_refl). discriminate.
  - intros r r' R1 R2. assert (VI : exists i, valid g gm i). { destruct R1 as (rl & gm' & R & SS & LA). exists (r, length (r_rhs rl)). apply SS. eapply la_valid; eauto. }
    destruct VI as (i & VI). destruct (STA gm i VI) as (q & I & sh & rw & HI & V & Hrw).
    pose proof (REI gm r t q I sh rw TT HI V Hrw R1) as I1. pose proof (REI gm r' t q I sh rw TT HI V Hrw R2) as I2.
    pose proof (EQ rw _ _ (nth_error_In _ _ Hrw) I1 I2 eq_refl) as E. inversion E. auto.
  - intros X X' S1 S2. pose proof S1 as (_ & i & VI & AD). destruct (STA gm i VI) as (q & I & sh & rw & HI & V & Hrw).
    destruct (SHI gm X t q I sh rw HI V Hrw S1) as (q1 & J1 & s1 & I1 & H1 & V1). destruct (SHI gm X' t q I sh rw HI V Hrw S2) as (q2 & J2 & s2 & I2 & H2 & V2).
    pose proof (EQ rw _ _ (nth_error_In _ _ Hrw) I1 I2 eq_refl) as E. inversion E; subst q2. rewrite H1 in H2. inversion H2; subst J2 s2.
    assert (VX : valid g (X' :: gm) (fst i, S (snd i))). { apply V2, V1. apply valid_goto; auto. }
    assert (K : forall gm2 j, valid g gm2 j -> gm2 = X' :: gm -> snd j <> 0 -> after_dot g (fst j, snd j - 1) = Some X').
    { intros gm2 j H. destruct H as [r L0|gm2 j B r _ _ _|gm2 j Y VJ AJ]; intros E2 N; cbn [fst snd] in *; try congruence.
      inversion E2; subst. replace (S (snd j) - 1) with (snd j) by lia. destruct j; auto. }
    specialize (K _ _ VX eq_refl). cbn [fst snd] in K. replace (S (snd i) - 1) with (snd i) in K by lia. specialize (K ltac:(lia)). destruct i as [r k]. cbn [fst snd] in K. congruence.
Qed.
