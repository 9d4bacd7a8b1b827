(** The generated parser against the machine that follows the action lists of
    FindActions: compression, resorting and packing change which rounds the driver
    takes but not what it accepts. *)
From Coq Require Import List ZArith NArith Bool Lia Arith Permutation Sorted.
Import ListNotations.
From Verif Require Import Base CLib SpecGrammar SpecGrammarFacts SpecLRFacts SpecLR0 LemonSetModel LemonFirstModel
  LemonSortModel LemonStatesModel LemonStatesProof Prop_LemonStates
  LemonActionModel LemonActionProof Prop_LemonAction LemonCompressModel LemonCompressProof
  LemonReportModel LemonParModel LemonParProof LemonPipelineModel LemonReportProof LemonLookupProof
  Prop_LemonTables LemonGenProof LemonTabProof LemonSoundProof Prop_LemonSound.
Local Open Scope res_scope.

(** * Contexts *)

(** Every nonterminal of the stack [gm], before the input [ts], can be followed by
    what comes after it. *)
Definition ctx (g : grammar) (gm : list elem) (ts : list nat) : Prop :=
  forall g2 B g1 u r, gm = g2 ++ ESym B :: g1 -> lhs_is g r B ->
    first g (rev g2) u \/ (nullable g (rev g2) /\ u = hd 0 ts) -> la g g1 (r, 0) u.

Lemma ctx_start : forall g, ctx g [ESym (g_start g)] [].
Proof.
  intros g g2 B g1 u r E L H. destruct g2 as [|Y [|? ?]]; try discriminate. cbn [app] in E. inversion E; subst.
  destruct H as [H|(_ & ->)]; [exfalso; eapply first_nil; eauto|]. cbn. apply la_init. auto.
Qed.

Lemma firstn_S_nth : forall X (l : list X) k x, nth_error l k = Some x -> firstn (S k) l = firstn k l ++ [x].
Proof.
  induction l as [|y l IH]; intros k x E; destruct k; try discriminate; cbn in *.
  - inversion E; subst. auto.
  - f_equal. apply IH. auto.
Qed.

Lemma la_run : forall g r rl t gm k, rule_of g r = Some rl -> la g gm (r, 0) t -> k <= length (r_rhs rl) ->
  la g (rev (firstn k (r_rhs rl)) ++ gm) (r, k) t.
Proof.
  intros g r rl t gm k R H. induction k as [|k IH]; intros L; [auto|].
  destruct (nth_error (r_rhs rl) k) as [X|] eqn:E; [|apply nth_error_None in E; lia].
  rewrite (firstn_S_nth _ _ _ _ E), rev_app_distr. cbn [rev app].
  apply (la_goto g (rev (firstn k (r_rhs rl)) ++ gm) (r, k)); [apply IH; lia|]. unfold after_dot. cbn [fst snd]. rewrite R. auto.
Qed.

Lemma ctx_la : forall g gm ts r rl, rule_of g r = Some rl -> ctx g (ESym (r_lhs rl) :: gm) ts -> la g gm (r, 0) (hd 0 ts).
Proof. intros g gm ts r rl R H. apply (H [] (r_lhs rl) gm); auto. - exists rl; auto. - right. split; [apply nullable_nil|auto]. Qed.

Lemma ctx_reduce : forall g gm ts r rl, rule_of g r = Some rl -> ctx g (ESym (r_lhs rl) :: gm) ts -> ctx g (rev (r_rhs rl) ++ gm) ts.
Proof.
  intros g gm ts r rl R H g2 B g1 u r' E L D. assert (IR : In rl (g_rules g)) by (eapply nth_error_In; eauto).
  assert (C2 : forall l, g2 = rev (r_rhs rl) ++ l -> gm = l ++ ESym B :: g1 -> la g g1 (r', 0) u).
  { intros l E1 E2. apply (H (ESym (r_lhs rl) :: l) B g1); auto; [rewrite E2; auto|]. cbn [rev]. subst g2. rewrite rev_app_distr, rev_involutive in D.
    destruct D as [D|(D & ->)].
    - apply first_app in D as [D|(D1 & D2)]; left; apply first_app; auto. right. split; auto. apply first_rule; auto.
    - apply nullable_app in D as (D1 & D2). right. split; auto. apply nullable_app. split; auto. apply nullable_rule; auto. }
  destruct (app_eq_app _ _ _ _ E) as (l & [(E1 & E2)|(E1 & E2)]); [|eauto].
  destruct l as [|Y l]; [rewrite app_nil_r in E1; apply (C2 []); [rewrite app_nil_r; auto|auto]|]. cbn [app] in E2. inversion E2; subst Y g1.
  assert (ER : r_rhs rl = rev l ++ ESym B :: rev g2). { rewrite <- (rev_involutive (r_rhs rl)), E1, rev_app_distr. cbn [rev]. rewrite <- app_assoc. auto. }
  pose proof (la_run g r rl _ gm (length (rev l)) R (ctx_la _ _ _ _ _ R H)) as LR.
  rewrite ER in LR at 1. rewrite app_length in LR. specialize (LR ltac:(lia)).
  rewrite ER in LR. rewrite firstn_app, Nat.sub_diag, firstn_all, firstn_O, app_nil_r, rev_involutive in LR.
  assert (AD : after_dot g (r, length (rev l)) = Some (ESym B)).
  { unfold after_dot. cbn [fst snd]. rewrite R, ER, nth_error_app2, Nat.sub_diag; auto. }
  assert (RA : rest_after g (r, length (rev l)) = rev g2).
  { unfold rest_after. cbn [fst snd]. rewrite R, ER. replace (S (length (rev l))) with (length (rev l ++ [ESym B])) by (rewrite app_length; cbn; lia).
    replace (rev l ++ ESym B :: rev g2) with ((rev l ++ [ESym B]) ++ rev g2) by (rewrite <- app_assoc; auto). rewrite skipn_app, Nat.sub_diag, skipn_all. auto. }
  destruct D as [D|(D & ->)].
  - eapply la_first; [eapply la_valid; eauto|exact AD|exact L|]. rewrite RA. auto.
  - eapply la_null; [exact LR|exact AD|exact L|]. rewrite RA. auto.
Qed.

Lemma ctx_shift : forall g gm ts X t, wf_elem g X -> is_term g t -> In t (elem_syms X) -> ctx g (X :: gm) ts -> ctx g gm (t :: ts).
Proof.
  intros g gm ts X t WX T I H g2 B g1 u r E L D. apply (H (X :: g2) B g1); auto; [rewrite E; auto|]. cbn [rev].
  left. apply first_app. destruct D as [D|(D & ->)]; auto. right. split; auto. cbn [hd].
  destruct X as [s|l]; cbn [elem_syms] in I; [destruct I as [->|[]]; apply first_term; auto|apply first_multi; auto].
Qed.

Section Machine.
Variable g : grammar.
Variable o : opts.
Variable c : gen.
Variable A : list lr0_state.
Variable aps : list (list action).
Variable xs : list (list action * option nat).
Variable sorted : list xstate.
Variable nx : nat.
Hypothesis W : wf_grammar g.
Hypothesis SNR : start_not_rhs g.
Hypothesis OO : opts_ok g o.
Hypothesis GK : gen_ok g o c A aps xs sorted nx.
Hypothesis R128 : forall r rl, rule_of g r = Some rl -> length (r_rhs rl) <= 128.
(** Resolution left no error action. *)
Hypothesis NOE : forall ap a, In ap aps -> In a ap -> iserr a = false.
Hypothesis FULL : YY_SHIFT_COUNT (g_tab c) = YY_MAX_SHIFT (g_tab c).

Notation irule := (ri_iRule (opts_rinfo o)).
Notation MAXS := (YY_MAX_SHIFT (g_tab c)).
Notation MINSR := (YY_MIN_SHIFTREDUCE (g_tab c)).
Notation MAXSR := (YY_MAX_SHIFTREDUCE (g_tab c)).
Notation ERR := (YY_ERROR_ACTION (g_tab c)).
Notation ACC := (YY_ACCEPT_ACTION (g_tab c)).
Notation MINR := (YY_MIN_REDUCE (g_tab c)).
Notation path := (path g A).
Notation auto := (auto_of xs).

Let RS := gk_resolved _ _ _ _ _ _ _ _ GK.
Let FN := gk_final _ _ _ _ _ _ _ _ GK.
Let AUT := rs_auto _ _ _ RS.

(** * The machine *)

(** [arun qs id ts P]: with the automaton states [qs] on the stack (top first)
    and the tokens [ts], numbered from [id], left, the machine accepts by the
    steps [P]. *)
Inductive arun : list nat -> nat -> list nat -> list pstep -> Prop :=
| ar_shift : forall q qs ap t q' id ts P, nth_error aps q = Some ap -> In (mkAction SHIFT t q') ap ->
    arun (q' :: q :: qs) (S id) ts P -> arun (q :: qs) id (t :: ts) (Sh id :: P)
| ar_red : forall q qs ap r rl q0 qs0 ap0 q1 id ts P, nth_error aps q = Some ap -> In (mkAction REDUCE (hd 0 ts) r) ap ->
    rule_of g r = Some rl -> skipn (length (r_rhs rl)) (q :: qs) = q0 :: qs0 ->
    nth_error aps q0 = Some ap0 -> In (mkAction SHIFT (r_lhs rl) q1) ap0 ->
    arun (q1 :: q0 :: qs0) id ts P -> arun (q :: qs) id ts (Re (Z.of_nat (irule r)) :: P)
| ar_acc : forall q qs ap r rl id, nth_error aps q = Some ap -> In (mkAction REDUCE 0 r) ap ->
    rule_of g r = Some rl -> r_lhs rl = g_start g -> skipn (length (r_rhs rl)) (q :: qs) = [0] ->
    arun (q :: qs) id [] [Re (Z.of_nat (irule r))].

(** * Facts on the lists *)

Lemma list_at : forall q, q < length A -> exists ap l au, nth_error aps q = Some ap /\ nth_error xs q = Some (l, au).
Proof.
  intros q L. destruct (nth_error_lt_ex _ aps q) as (ap & EA). { rewrite (rs_len _ _ _ RS). auto. }
  destruct (nth_error_lt_ex _ xs q) as ([l au] & EX). { rewrite (fn_len _ _ _ _ _ FN). auto. }
  eauto.
Qed.

Lemma ap_lt : forall q ap, nth_error aps q = Some ap -> q < length A.
Proof. intros q ap H. rewrite <- (rs_len _ _ _ RS). eapply nth_error_Some_lt; eauto. Qed.

Lemma path_lt : forall gm q, path gm q -> q < length A.
Proof. intros gm q (I & sh & E & _). eapply nth_error_Some_lt; eauto. Qed.

Lemma tr_det : forall q s q1 q2, g_nterm g <= s -> tr g A q s q1 -> tr g A q s q2 -> q1 = q2.
Proof.
  intros q s q1 q2 NT T1 T2. pose proof (tr_sym g A W _ _ _ T1 NT) as H1. pose proof (tr_sym g A W _ _ _ T2 NT) as H2.
  assert (E : exists I sh, nth_error A q = Some (I, sh)). { destruct H1 as (I & sh & J & sh' & E & _). eauto. }
  destruct E as (I & sh & E). destruct (lr0_sound _ _ AUT q I sh E) as (gm & V).
  assert (P : path gm q) by (exists I, sh; auto).
  eapply (path_uniq g o c A aps xs sorted nx GK (ESym s :: gm)); eapply path_trans; eauto.
Qed.

Lemma noerr_l : forall q l au a, nth_error xs q = Some (l, au) -> In a l -> emits a = true -> exec a = true.
Proof.
  intros q l au a EX I EM. rewrite emits_exec in EM. apply orb_true_iff in EM as [EM|EM]; auto.
  assert (L : q < length A). { rewrite <- (fn_len _ _ _ _ _ FN). eapply nth_error_Some_lt; eauto. }
  destruct (list_at q L) as (ap & l' & au' & EA & EX'). rewrite EX in EX'. inversion EX'; subst l' au'.
  apply (fn_err _ _ _ _ _ FN q ap l au a EA EX EM) in I. rewrite (NOE ap a (nth_error_In _ _ EA) I) in EM. discriminate.
Qed.

Lemma act_at_is : forall q l au a, nth_error xs q = Some (l, au) -> In a l -> exec a = true -> act_at l (a_sp a) = Some a.
Proof.
  intros q l au a EX I E. destruct (act_at_ex l a I) as (b & EB). { rewrite emits_exec, E. auto. }
  rewrite EB. apply act_at_In in EB as (IB & EMB & SB). f_equal. apply (uniq_exec l); auto.
  - eapply (fn_uniq _ _ _ _ _ FN); eauto.
  - eapply noerr_l; eauto.
Qed.

Lemma dflt_is : forall q l au r, nth_error xs q = Some (l, au) -> In (mkAction REDUCE (g_nsym g) r) l -> dflt_rule g l = Some r.
Proof.
  intros q l au r EX I. unfold dflt_rule. destruct (find (is_dflt g) l) as [b|] eqn:EF.
  - apply find_some in EF as (IB & DB). unfold is_dflt in DB. destruct (a_type b) eqn:TB; try discriminate. apply Nat.eqb_eq in DB.
    assert (b = mkAction REDUCE (g_nsym g) r).
    { apply (uniq_exec l); auto; [eapply (fn_uniq _ _ _ _ _ FN); eauto|unfold exec; rewrite TB; auto]. }
    subst b. reflexivity.
  - exfalso. pose proof (find_none _ _ EF _ I) as K. unfold is_dflt in K. cbn in K. rewrite Nat.eqb_refl in K. discriminate.
Qed.

Lemma dflt_in : forall l r, dflt_rule g l = Some r -> In (mkAction REDUCE (g_nsym g) r) l.
Proof.
  intros l r H. unfold dflt_rule in H. destruct (find (is_dflt g) l) as [b|] eqn:EF; [|discriminate].
  apply find_some in EF as (IB & DB). destruct b as [ty s x]. unfold is_dflt in DB. cbn in *. destruct ty; try discriminate.
  apply Nat.eqb_eq in DB. subst s. inversion H; subst x. auto.
Qed.

(** * Stack values and automaton states *)

(** Table entry [v] on top of state [q0] stands for state [q1]: it is the state
    itself, the reduction to which shifting into [q1] was changed, or what follows
    after passing over a rule without code. *)
Inductive crel (q0 : nat) : nat -> Z -> Prop :=
| cr_real : forall k x, nth_error sorted k = Some x -> k < nx -> crel q0 (x_num x) (Z.of_nat k)
| cr_pend : forall q1 r, auto q1 = Some r -> crel q0 q1 (MINR + Z.of_nat (irule r))
| cr_unit : forall q1 r rl B q2 v, auto q1 = Some r -> rule_of g r = Some rl -> r_rhs rl = [ESym B] -> is_nonterm g B ->
    ri_noCode (opts_rinfo o) r = true -> tr g A q0 (r_lhs rl) q2 -> crel q0 q2 v -> crel q0 q1 v.

Definition rst (q : nat) (v : Z) : Prop :=
  exists k x, v = Z.of_nat k /\ k < nx /\ nth_error sorted k = Some x /\ x_num x = q.

Lemma crel_pend : forall q0 q1 v r rl, crel q0 q1 v -> v = (MINR + Z.of_nat (irule r))%Z -> rule_of g r = Some rl ->
  forall B q2 v', r_rhs rl = [ESym B] -> is_nonterm g B -> ri_noCode (opts_rinfo o) r = true -> tr g A q0 (r_lhs rl) q2 -> crel q0 q2 v' ->
  crel q0 q1 v'.
Proof.
  intros q0 q1 v r rl H. destruct (consts_ok _ _ _ _ _ _ _ _ GK) as (C1 & C2 & C3 & C4 & C5 & C6 & C7).
  induction H as [k x EX L|q1 r1 AU|q1 r1 rl1 B1 q3 v AU R1 E1 N1 NC1 T1 H IH]; intros EV R B q2 v' ER NB NC T C.
  - lia.
  - assert (r1 = r).
    { destruct (auto_facts g o c A aps xs sorted nx GK _ _ AU) as (rl1 & R1 & _).
      apply (irule_inj g o OO); [eapply rule_lt'; eauto|eapply rule_lt'; eauto|lia]. }
    subst r1. eapply cr_unit; eauto.
  - eapply cr_unit; [exact AU|exact R1|exact E1|exact N1|exact NC1|exact T1|]. eapply IH; eauto.
Qed.

Lemma code_nt : forall ty s s' x, g_nterm g <= s -> g_nterm g <= s' -> o_errsym o <> Some s -> o_errsym o <> Some s' ->
  code_of g o sorted (mkAction ty s x) = code_of g o sorted (mkAction ty s' x).
Proof.
  intros ty s s' x L L' E E'. unfold code_of, compute_action. cbn [a_type a_sp a_arg]. destruct ty; auto.
  destruct (Nat.leb_spec (g_nterm g) s); [|lia]. destruct (Nat.leb_spec (g_nterm g) s'); [|lia].
  destruct (o_errsym o) as [e|]; [|auto]. destruct (Nat.eqb_spec s e), (Nat.eqb_spec s' e); try congruence; auto.
Qed.

(** The state reached by a goto and the entry the driver finds for it. *)
Lemma goto_crel : forall q0 a, act_ok g A (opts_rinfo o) auto q0 a -> forall gm q1, path gm q0 -> g_nterm g <= a_sp a ->
  o_errsym o <> Some (a_sp a) -> tr g A q0 (a_sp a) q1 -> crel q0 q1 (code_of g o sorted a).
Proof.
  intros q0 a H. destruct (consts_ok _ _ _ _ _ _ _ _ GK) as (C1 & C2 & C3 & C4 & C5 & C6 & C7).
  induction H as [s q' TR AN|s q' r TR AU|t r LT D|r D LS|x E|s r rl a H1 IH1 NT R LR NC H2 IH2 SP]; intros gm q1 P NT' NE T; cbn [a_sp] in *.
  - assert (q' = q1) by (eapply tr_det; eauto). subst q'.
    destruct (tr_bounds g A W _ _ _ T) as (_ & _ & LQ).
    destruct (code_shift g o c A aps xs sorted nx GK s q1 LQ AN) as (k & x & -> & E1 & E2 & E3). subst q1. apply cr_real; auto.
  - assert (q' = q1) by (eapply tr_det; eauto). subst q'.
    pose proof (code_other g o c A aps xs sorted nx GK (mkAction SHIFTREDUCE s r)) as CO. cbn [a_type a_sp a_arg] in CO.
    destruct CO as (_ & CO & _). rewrite CO by auto. apply cr_pend. auto.
  - lia.
  - destruct (tr_bounds g A W _ _ _ T). lia.
  - exfalso. destruct T as (X & HX & I & sh & J & sh' & E1 & E2 & (i & Hi & AD) & _).
    assert (NTS : g_nterm g <= g_start g) by (destruct W as (_ & _ & _ & W4); unfold is_nonterm in W4; lia).
    pose proof (nonterm_elem g X _ (after_dot_wf g i X W AD) NTS HX) as EX. subst X.
    apply after_dot_rhs in AD as (rl & I1 & I2). apply (SNR rl I1 I2).
  - pose proof (IH1 gm q1 P NT' NE T) as C.
    pose proof (code_other g o c A aps xs sorted nx GK (mkAction SHIFTREDUCE s r)) as CO. cbn [a_type a_sp a_arg] in CO.
    destruct CO as (_ & CO & _). rewrite CO in C by auto.
    destruct (act_sr g o A xs _ _ H1 eq_refl) as (q' & AU). cbn [a_arg] in AU.
    destruct (auto_facts g o c A aps xs sorted nx GK _ _ AU) as (rl' & R' & _ & LS & _). rewrite R in R'. inversion R'; subst rl'. clear R'.
    (* the state in which r is complete is reached from q0 over a nonterminal *)
    assert (K : forall q1 v, crel q0 q1 v -> v = (MINR + Z.of_nat (irule r))%Z -> forall s, g_nterm g <= s -> tr g A q0 s q1 ->
       exists s' q', g_nterm g <= s' /\ tr g A q0 s' q' /\ auto q' = Some r).
    { clear - GK OO R C1 C2 C3 C4 C5 C6 C7 W. intros q1 v H. induction H as [k x EX L|q1 r1 AU|q1 r1 rl1 B1 q3 v AU R1 E1 N1 NC1 T1 H IH]; intros EV s NT T.
      - lia.
      - assert (r1 = r).
        { destruct (auto_facts g o c A aps xs sorted nx GK _ _ AU) as (rl1 & R1 & _).
          apply (irule_inj g o OO); [eapply rule_lt'; eauto|eapply rule_lt'; eauto|lia]. }
        subst r1. eauto.
      - apply (IH EV (r_lhs rl1)); auto. apply (lhs_nonterm g r1 _ W). exists rl1. auto. }
    destruct (K q1 _ C eq_refl s NT T) as (s' & q2 & NT2 & T2 & AU2). clear K.
    destruct (auto_facts g o c A aps xs sorted nx GK _ _ AU2) as (rl' & R' & HI & _ & _). rewrite R in R'. inversion R'; subst rl'. clear R'.
    pose proof (tr_sym g A W _ _ _ T2 NT2) as TS. pose proof (path_trans g A _ _ _ _ P TS) as P2.
    pose proof (item_valid g A _ _ _ _ P2 HI) as V. destruct (valid_split g r rl _ _ R V) as (gm' & EG & V0 & _). rewrite firstn_all in EG.
    destruct (r_rhs rl) as [|Y [|? ?]] eqn:ER; try discriminate. cbn [rev app] in EG. inversion EG; subst Y gm'.
    assert (TL : exists q3, tr g A q0 (r_lhs rl) q3).
    { apply valid_zero in V0 as [(_ & LST)|(i & B & VI & AD & LB)].
      - exfalso. unfold lhsStart in LS. unfold rule_of in R. rewrite R in LS. destruct LST as (rl2 & R2 & E2). unfold rule_of in R2. rewrite R in R2. inversion R2; subst rl2.
        rewrite E2, Nat.eqb_refl in LS. discriminate.
      - destruct LB as (rl2 & R2 & E2). rewrite R in R2. inversion R2; subst rl2. subst B.
        destruct P as (I & sh & EI & VS). apply VS in VI.
        destruct (trans_ex g A q0 I sh gm i (ESym (r_lhs rl)) AUT EI VS VI AD) as (q3 & J & sh' & T3 & _). exists q3. exists (ESym (r_lhs rl)). split; [left|]; auto. }
    destruct TL as (q3 & T3).
    assert (LH : g_nterm g <= r_lhs rl < g_nsym g) by (apply (lhs_nonterm g r); [auto|exists rl; auto]).
    assert (NEL : o_errsym o <> Some (r_lhs rl)).
    { intros E. destruct (oo_err _ _ OO _ E) as (_ & NR). apply (NR rl); auto. eapply nth_error_In; eauto. }
    rewrite (code_nt (a_type a) s (a_sp a) (a_arg a)); [|auto|lia|auto|rewrite SP; auto].
    replace (mkAction (a_type a) (a_sp a) (a_arg a)) with a by (destruct a; auto).
    eapply crel_pend; [exact C|reflexivity|exact R|exact ER| |auto|exact T3|].
    + destruct (tr_bounds g A W _ _ _ T2). unfold is_nonterm. lia.
    + apply (IH2 gm q3); auto; rewrite SP; auto; lia.
Qed.

(** ** Stacks *)

Inductive srel : list nat -> list entry -> list elem -> Prop :=
| sr_nil : forall e, e_state e = 0%Z -> srel [0] [e] []
| sr_cons : forall q1 q0 qs e e0 es X gm, srel (q0 :: qs) (e0 :: es) gm -> rst q0 (e_state e0) -> trans g A q0 X q1 ->
    crel q0 q1 (e_state e) -> srel (q1 :: q0 :: qs) (e :: e0 :: es) (X :: gm).

Lemma srel_path : forall qs es gm, srel qs es gm -> exists q r, qs = q :: r /\ path gm q.
Proof.
  intros qs es gm H. induction H as [e E|q1 q0 qs e e0 es X gm H IH RL T C].
  - exists 0, []. split; auto. eapply path_0; eauto.
  - destruct IH as (q & r & E & P). inversion E; subst q r. exists q1, (q0 :: qs). split; auto. eapply path_trans; eauto.
Qed.

Lemma rst0 : rst 0 0%Z.
Proof.
  destruct (gk_first _ _ _ _ _ _ _ _ GK) as (x & EX & N0). exists 0, x. pose proof (gk_nx _ _ _ _ _ _ _ _ GK). split; auto. split; [lia|auto].
Qed.

Lemma srel_pop : forall l gm qs es, srel qs es (rev l ++ gm) -> exists q0 qs0 e0 es0,
  skipn (length l) qs = q0 :: qs0 /\ skipn (length l) es = e0 :: es0 /\ srel (q0 :: qs0) (e0 :: es0) gm /\ (l <> [] -> rst q0 (e_state e0)) /\
  nth_error es (length l) = Some e0 /\ length qs = length es.
Proof.
  induction l as [|X l IH] using rev_ind; intros gm qs es H.
  - cbn [rev app length] in *. destruct H as [e E|q1 q0 qs e e0 es X gm H RL T C].
    + exists 0, [], e, []. cbn. split; auto. split; auto. split; [constructor; auto|]. split; [congruence|auto].
    + exists q1, (q0 :: qs), e, (e0 :: es). cbn. split; auto. split; auto. split; [econstructor; eauto|]. split; [congruence|]. split; auto.
      f_equal. clear - H. remember (q0 :: qs) as Q eqn:EQ. remember (e0 :: es) as E eqn:EE. revert q0 qs e0 es EQ EE.
      induction H as [e1 E1|q1 q2 qs1 e e1 es1 X gm H IH RL T C]; intros q0 qs e0 es EQ EE; inversion EQ; inversion EE; subst; auto.
      cbn. f_equal. apply (IH q2 qs1 e1 es1); auto.
  - rewrite rev_app_distr in H. cbn [rev app] in H. remember (X :: rev l ++ gm) as G eqn:EG.
    destruct H as [e E|q1 q0 qs e e0 es Y gm1 H RL T C]; [discriminate|]. inversion EG; subst Y gm1. clear EG.
    destruct (IH _ _ _ H) as (qa & qs0 & ea & es0 & E1 & E2 & S1 & HR & N1 & LL). exists qa, qs0, ea, es0.
    rewrite app_length. cbn [length]. replace (length l + 1) with (S (length l)) by lia. cbn [skipn nth_error].
    split; auto. split; auto. split; auto. split; [|split; [auto|cbn [length] in *; lia]]. intros _. destruct l as [|Z l].
    + cbn in E1, E2. inversion E1; inversion E2; subst; auto.
    + apply HR. discriminate.
Qed.

(** The kind of entry on top. *)
Lemma srel_top : forall q qs e es gm, srel (q :: qs) (e :: es) gm ->
  rst q (e_state e) \/ exists q0 qs0 e0 es0 X gm0, qs = q0 :: qs0 /\ es = e0 :: es0 /\ gm = X :: gm0 /\ srel (q0 :: qs0) (e0 :: es0) gm0 /\
    rst q0 (e_state e0) /\ trans g A q0 X q /\
    ((exists r, auto q = Some r /\ e_state e = (MINR + Z.of_nat (irule r))%Z) \/
     (exists r rl B q2, auto q = Some r /\ rule_of g r = Some rl /\ r_rhs rl = [ESym B] /\ is_nonterm g B /\ ri_noCode (opts_rinfo o) r = true /\
        tr g A q0 (r_lhs rl) q2 /\ crel q0 q2 (e_state e))).
Proof.
  intros q qs e es gm H. remember (q :: qs) as Q eqn:EQ. remember (e :: es) as E eqn:EE.
  destruct H as [e1 E1|q1 q2 qs1 e2 e1 es1 X gm H RL T C]; inversion EQ; inversion EE; subst.
  - left. rewrite E1. apply rst0.
  - remember (e_state e) as v eqn:EV. destruct C as [k x EX L|q1 r AU|q1 r rl B q3 v AU R ER NB NC T3 C].
    + left. exists k, x. auto.
    + right. exists q2, qs1, e1, es1, X, gm. split; auto. split; auto. split; auto. split; auto. split; auto. split; auto. left. eauto.
    + right. exists q2, qs1, e1, es1, X, gm. split; auto. split; auto. split; auto. split; auto. split; auto. split; auto. right. exists r, rl, B, q3. auto 10.
Qed.

(** * What the driver finds *)

(** Either no list has a default action, or no token has a fallback and no list
    with a default action has an entry for the wildcard. *)
Definition no_detour : Prop :=
  (forall q l au r, nth_error xs q = Some (l, au) -> ~ In (mkAction REDUCE (g_nsym g) r) l) \/
  (o_fallback o = None /\ forall w q l au r, o_wildcard o = Some w -> nth_error xs q = Some (l, au) -> In (mkAction REDUCE (g_nsym g) r) l ->
     act_at l w = None).

Lemma plain_pick : o_fallback o = None -> o_wildcard o = None -> forall l t, pick o l t = act_at l t.
Proof.
  intros F WI l t. unfold pick, fallback_of, pick_wild. rewrite F, WI. destruct (act_at l t); auto.
Qed.

Lemma find_real : forall q v t, rst q v -> t < g_nterm g -> exists l au, nth_error xs q = Some (l, au) /\
  yy_find_shift_action c (Z.of_nat t) v = Ok (tok_code g o sorted l t).
Proof.
  intros q v t (k & x & -> & L & EX & <-) LT. destruct (gk_sorted _ _ _ _ _ _ _ _ GK k x EX) as (EXS & _).
  exists (x_ap x), (x_auto x). split; auto. apply (gk_shift _ _ _ _ _ _ _ _ GK k x t EX L LT). rewrite FULL.
  destruct (consts_ok _ _ _ _ _ _ _ _ GK) as (C1 & _). lia.
Qed.

Lemma find_pend : forall t r rl, rule_of g r = Some rl -> yy_find_shift_action c t (MINR + Z.of_nat (irule r)) = Ok (MINR + Z.of_nat (irule r))%Z.
Proof.
  intros t r rl R. destruct (consts_ok _ _ _ _ _ _ _ _ GK) as (C1 & C2 & C3 & C4 & C5 & C6 & C7).
  unfold yy_find_shift_action. destruct (Z.ltb_spec MAXS (MINR + Z.of_nat (irule r))); [auto|lia].
Qed.

Lemma find_shift : forall q v t ap q', rst q v -> t < g_nterm g -> nth_error aps q = Some ap -> In (mkAction SHIFT t q') ap ->
  exists u, yy_find_shift_action c (Z.of_nat t) v = Ok u /\ (u <= MAXSR)%Z /\
   ((auto q' = None /\ rst q' u /\ (u <= MAXS)%Z) \/ (exists r, auto q' = Some r /\ u = (MINSR + Z.of_nat (irule r))%Z /\ (MAXS < u)%Z)).
Proof.
  intros q v t ap q' RQ LT EA I. destruct (find_real q v t RQ LT) as (l & au & EX & EF).
  destruct (consts_ok _ _ _ _ _ _ _ _ GK) as (C1 & C2 & C3 & C4 & C5 & C6 & C7).
  pose proof (fn_shift _ _ _ _ _ FN q ap l au t q' EA EX I LT) as K. unfold tok_code, pick in EF.
  destruct (auto q') as [r|] eqn:AU.
  - pose proof (act_at_is q l au (mkAction SHIFTREDUCE t r) EX K eq_refl) as EC. cbn [a_sp] in EC. rewrite EC in EF.
    pose proof (code_other g o c A aps xs sorted nx GK (mkAction SHIFTREDUCE t r)) as CO. cbn [a_type a_sp a_arg] in CO.
    destruct CO as (CO & _). rewrite CO in EF by auto. eexists. split; [exact EF|].
    destruct (auto_facts g o c A aps xs sorted nx GK _ _ AU) as (rl & R & _). pose proof (irule_b g o OO _ _ R).
    split; [lia|]. right. exists r. split; auto. split; auto. lia.
  - pose proof (act_at_is q l au (mkAction SHIFT t q') EX K eq_refl) as EC0. cbn [a_sp] in EC0. rewrite EC0 in EF.
    pose proof (rs_live _ _ _ RS q ap _ EA I eq_refl) as T. cbn in T. destruct (tr_bounds g A W _ _ _ T) as (_ & _ & LQ).
    destruct (code_shift g o c A aps xs sorted nx GK t q' LQ AU) as (k & x & EC & E1 & E2 & E3). rewrite EC in EF. eexists. split; [exact EF|].
    split; [lia|]. left. split; auto. split; [exists k, x; auto|lia].
Qed.

Lemma find_reduce : no_detour -> forall q v t ap r, rst q v -> t < g_nterm g -> nth_error aps q = Some ap -> In (mkAction REDUCE t r) ap ->
  yy_find_shift_action c (Z.of_nat t) v = Ok (MINR + Z.of_nat (irule r))%Z.
Proof.
  intros ND q v t ap r RQ LT EA I. destruct (find_real q v t RQ LT) as (l & au & EX & EF). rewrite EF. f_equal. unfold tok_code.
  pose proof (code_other g o c A aps xs sorted nx GK (mkAction REDUCE t r)) as CO. cbn [a_type a_arg] in CO.
  destruct (act_at l t) as [a|] eqn:EP.
  - unfold pick. rewrite EP. apply act_at_In in EP as (IA & EM & SP). pose proof (noerr_l _ _ _ _ EX IA EM) as XA.
    destruct (fn_tok _ _ _ _ _ FN q ap l au a EA EX IA XA ltac:(lia)) as (a0 & I0 & X0 & E0).
    assert (a0 = mkAction REDUCE t r).
    { apply (uniq_exec ap); auto; [apply (rs_uniq _ _ _ RS); eapply nth_error_In; eauto|]. rewrite <- SP, E0. symmetry. apply shiftreduce_sp. }
    subst a0. rewrite E0. cbn [shiftreduce a_type]. exact CO.
  - destruct (fn_red _ _ _ _ _ FN q ap l au t r EA EX I) as [K|K].
    + pose proof (act_at_is q l au _ EX K eq_refl) as EC. cbn [a_sp] in EC. congruence.
    + destruct ND as [ND|(F & WI)]; [exfalso; eapply ND; eauto|].
      assert (PK : pick o l t = None).
      { unfold pick, fallback_of, pick_wild. rewrite EP, F. cbn [Nat.eqb]. destruct (o_wildcard o) as [w|] eqn:EW; auto.
        destruct (0 <? t); auto. eapply WI; eauto. }
      rewrite PK, (dflt_is q l au r EX K).
      cbn [report_consts k_minReduce]. rewrite (gk_ns _ _ _ _ _ _ _ _ GK).
      destruct (consts_ok _ _ _ _ _ _ _ _ GK) as (C1 & C2 & C3 & C4 & C5 & C6 & C7). lia.
Qed.

(** A shift-reduced state holds nothing but its reduction. *)
Lemma auto_only : forall q ap r, auto q = Some r -> nth_error aps q = Some ap ->
  (forall a, In a ap -> a_type a <> SHIFT /\ (a_type a = REDUCE -> a_arg a = r)).
Proof.
  intros q ap r AU EA. unfold auto_of in AU. destruct (nth_error xs q) as [[l au]|] eqn:EX; [|discriminate]. subst au.
  apply (fn_auto _ _ _ _ _ FN q ap l r EA EX).
Qed.

Lemma red_valid : forall gm q ap t r, path gm q -> nth_error aps q = Some ap -> In (mkAction REDUCE t r) ap ->
  exists rl, rule_of g r = Some rl /\ valid g gm (r, length (r_rhs rl)) /\ t < g_nterm g.
Proof.
  intros gm q ap t r P EA I. pose proof (rs_live _ _ _ RS q ap _ EA I eq_refl) as (LT & rl & I0 & sh & gm0 & R & EI & HI & _). cbn [a_arg a_sp] in *.
  exists rl. split; auto. split; auto. eapply item_valid; eauto. exists I0, sh. auto.
Qed.

(** The concrete reduction. *)
Lemma reduce_step : forall p r rl q0 b a, rule_of g r = Some rl -> nth_error (p_stack p) (length (r_rhs rl)) = Some b ->
  rst q0 (e_state b) -> (exists x, nth_error xs q0 = Some x /\ In a (fst x)) -> exec a = true -> a_sp a = r_lhs rl ->
  ((code_of g o sorted a <= MAXS)%Z \/ (MAXSR < code_of g o sorted a)%Z /\ code_of g o sorted a <> ERR) ->
  exists p1, yy_reduce c p (Z.of_nat (irule r)) = Ok (p1, code_of g o sorted a).
Proof.
  intros p r rl q0 b a R NB (k & x & EV & LK & EX & EQ) (y & EY & IA) XA SP RNG.
  destruct (gk_rule _ _ _ _ _ _ _ _ GK r rl R) as (GL & GN). rewrite (schar_small _ (R128 _ _ R)) in GN.
  destruct (gk_sorted _ _ _ _ _ _ _ _ GK k x EX) as (EXS & _). subst q0. rewrite EXS in EY. inversion EY; subst y. cbn [fst] in IA.
  assert (LH : lhs_is g r (r_lhs rl)) by (exists rl; auto). pose proof (lhs_nonterm g r _ W LH) as NTB.
  pose proof (gk_reduce _ _ _ _ _ _ _ _ GK k x a EX LK IA XA ltac:(lia)) as HA. rewrite SP in HA.
  unfold yy_reduce. rewrite GL, GN. cbn [bind].
  destruct (Z.ltb_spec 0 (- Z.of_nat (length (r_rhs rl)))); [lia|]. cbv zeta.
  rewrite Z.opp_involutive, Nat2Z.id. rewrite NB. cbn [opt bind]. rewrite EV, HA. cbn [bind].
  assert (A1 : negb ((MAXS <? code_of g o sorted a)%Z && (code_of g o sorted a <=? MAXSR)%Z) = true).
  { destruct (Z.ltb_spec MAXS (code_of g o sorted a)); auto. destruct (Z.leb_spec (code_of g o sorted a) MAXSR); auto. lia. }
  assert (A2 : negb (code_of g o sorted a =? ERR)%Z = true).
  { destruct (consts_ok _ _ _ _ _ _ _ _ GK) as (C1 & C2 & C3 & C4 & C5 & C6 & C7). destruct (Z.eqb_spec (code_of g o sorted a) ERR); auto. lia. }
  rewrite A1, A2. cbn [assert bind]. eexists. reflexivity.
Qed.

(** The goto from [q0] on the left-hand side. *)
Lemma goto_entry : forall gm q0 r rl, path gm q0 -> valid g gm (r, 0) -> rule_of g r = Some rl ->
  exists x a, nth_error xs q0 = Some x /\ In a (fst x) /\ exec a = true /\ a_sp a = r_lhs rl /\
    ((r_lhs rl = g_start g /\ gm = [] /\ q0 = 0 /\ code_of g o sorted a = ACC) \/
     exists ap0 q1, nth_error aps q0 = Some ap0 /\ In (mkAction SHIFT (r_lhs rl) q1) ap0 /\ trans g A q0 (ESym (r_lhs rl)) q1 /\
       crel q0 q1 (code_of g o sorted a)).
Proof.
  intros gm q0 r rl P V R. destruct (list_at q0 (path_lt _ _ P)) as (ap & l & au & EA & EX).
  assert (LH : lhs_is g r (r_lhs rl)) by (exists rl; auto). pose proof (lhs_nonterm g r _ W LH) as NB.
  assert (NEL : o_errsym o <> Some (r_lhs rl)).
  { intros E. destruct (oo_err _ _ OO _ E) as (_ & NR). apply (NR rl); auto. eapply nth_error_In; eauto. }
  assert (V' := V). apply valid_zero in V as [(EG & LS)|(i & B & VI & AD & LB)].
  - subst gm. pose proof (path_uniq g o c A aps xs sorted nx GK _ _ _ P (path_0 g o c A aps xs sorted nx GK)) as E0. subst q0.
    destruct (rs_acc _ _ _ RS ap EA) as (y & IY). assert (EL : r_lhs rl = g_start g). { destruct LS as (rl2 & R2 & E2). congruence. }
    destruct (fn_nt _ _ _ _ _ FN 0 ap l au _ EA EX IY) as (a & IA & SP & XA). { cbn [a_sp]. lia. } cbn [a_sp] in SP.
    exists (l, au), a. split; auto. split; auto. split; auto. split; [congruence|]. left. split; auto. split; auto. split; auto.
    pose proof (fn_ok _ _ _ _ _ FN 0 l au a EX IA XA) as AO.
    assert (T : a_type a = ACCEPT).
    { clear - AO SP SNR W GK. remember 0 as q eqn:EQ. clear EQ.
      assert (NTR : forall q s q', s = g_start g -> tr g A q s q' -> False).
      { intros q1 s q' -> (X & HX & I & sh & J & sh' & E1 & E2 & (i & Hi & AD) & _).
        assert (NTS : g_nterm g <= g_start g) by (destruct W as (_ & _ & _ & W4); unfold is_nonterm in W4; lia).
        pose proof (nonterm_elem g X _ (after_dot_wf g i X W AD) NTS HX) as EX. subst X.
        apply after_dot_rhs in AD as (rl & I1 & I2). apply (SNR rl I1 I2). }
      assert (NSR : forall q b, act_ok g A (opts_rinfo o) auto q b -> a_type b = SHIFTREDUCE -> a_sp b = g_start g -> False).
      { intros q1 b H. induction H as [s q' TR AN|s q' r TR AU|t r LT D|r D LS|x E|s r rl a0 H1 IH1 NT R LR NC H2 IH2 S2]; cbn [a_type a_sp] in *; intros T E1; try discriminate; eauto. }
      assert (LT0 : g_nterm g <= g_start g < g_nsym g) by (destruct W as (_ & _ & _ & W4); exact W4).
      destruct AO as [s q' TR AN|s q' r TR AU|t r LT D|r D LS|x E|s r rl a H1 NT R LR NC H2 S2]; cbn [a_sp a_type] in *; auto; try lia.
      - exfalso. eauto.
      - exfalso. eauto.
      - exfalso. apply (NSR q _ H1); auto. }
    pose proof (code_other g o c A aps xs sorted nx GK a) as CO. rewrite T in CO. exact CO.
  - assert (B = r_lhs rl). { destruct LB as (rl2 & R2 & E2). congruence. } subst B.
    destruct P as (I & sh & E & VS). assert (P : path gm q0) by (exists I, sh; auto). apply VS in VI.
    destruct (trans_ex g A q0 I sh gm i (ESym (r_lhs rl)) AUT E VS VI AD) as (q1 & J & sh' & TR & _).
    assert (T : tr g A q0 (r_lhs rl) q1) by (exists (ESym (r_lhs rl)); split; [left; auto|auto]).
    pose proof (rs_goto _ _ _ RS q0 ap (r_lhs rl) q1 EA ltac:(lia) T) as IG.
    destruct (fn_nt _ _ _ _ _ FN q0 ap l au _ EA EX IG) as (a & IA & SP & XA). { cbn [a_sp]. lia. } cbn [a_sp] in SP.
    exists (l, au), a. split; auto. split; auto. split; auto. split; auto. right. exists ap, q1. split; auto. split; auto. split; auto.
    apply (goto_crel q0 a (fn_ok _ _ _ _ _ FN q0 l au a EX IA XA) gm q1 P); [lia|congruence|congruence].
Qed.

Lemma crel_range : forall q0 q1 v, crel q0 q1 v -> (v <= MAXS)%Z \/ (MAXSR < v)%Z /\ v <> ERR.
Proof.
  intros q0 q1 v H. destruct (consts_ok _ _ _ _ _ _ _ _ GK) as (C1 & C2 & C3 & C4 & C5 & C6 & C7).
  induction H; auto; [left; lia|right; lia].
Qed.


Lemma goto_look : forall q0 v a B, rst q0 v -> (exists x, nth_error xs q0 = Some x /\ In a (fst x)) -> exec a = true -> a_sp a = B -> g_nterm g <= B < g_nsym g ->
  yy_find_reduce_action c v (Z.of_nat B) = Ok (code_of g o sorted a).
Proof.
  intros q0 v a B (k & x & EV & LK & EX & EQ) (y & EY & IA) XA SP NB. subst v.
  destruct (gk_sorted _ _ _ _ _ _ _ _ GK k x EX) as (EXS & _). subst q0. rewrite EXS in EY. inversion EY; subst y. cbn [fst] in IA.
  rewrite <- SP. apply (gk_reduce _ _ _ _ _ _ _ _ GK k x a EX LK IA XA). lia.
Qed.

(** * From the machine to the driver *)

Lemma oob_in : forall (b : bool) ev l, In ev ((if b then [EvOob] else []) ++ l) -> ev = EvOob \/ In ev l.
Proof. intros [] ev l H; auto. destruct H; auto. Qed.

Section Sim.
Variable grow : Z -> option Z.

Definition growing : Prop := forall m, (1 <= m)%Z -> exists m', grow m = Some m' /\ (m < m')%Z.
(** Enough room for [K] entries. *)
Definition room (K : nat) (p : parser) : Prop :=
  (Z.of_nat K <= p_cap p)%Z \/ (growing /\ (lenz (p_stack p) <= p_cap p)%Z).

Lemma room_le : forall K K' p, K' <= K -> room K p -> room K' p.
Proof. intros K K' p L [H|H]; [left; lia|right; auto]. Qed.

Definition elidable (s : pstep) : Prop := exists q r, s = Re (Z.of_nat (irule r)) /\ auto q = Some r /\ unit_rule g o r.

Lemma round_reduce : forall p e r0 m mi r rl b act f K, p_stack p = e :: r0 ->
  yy_find_shift_action c m (e_state e) = Ok (MINR + Z.of_nat (irule r))%Z -> rule_of g r = Some rl ->
  nth_error (p_stack p) (length (r_rhs rl)) = Some b -> yy_find_reduce_action c (e_state b) (Z.of_nat (r_lhs rl)) = Ok act ->
  ((act <= MAXS)%Z \/ (MAXSR < act)%Z /\ act <> ERR) -> room K p -> length (p_stack p) < K ->
  exists p1 T, Parse c grow (S f) p m mi = Parse c grow f p1 m mi /\
    p_stack p1 = mkEntry act (Z.of_nat (r_lhs rl)) T :: skipn (length (r_rhs rl)) (p_stack p) /\
    psteps (p_log p1) = psteps (p_log p) ++ [Re (Z.of_nat (irule r))] /\ (clean (p_log p) -> clean (p_log p1)) /\ room K p1.
Proof.
  intros p e r0 m mi r rl b act f K ES EF R NB EG RNG RM LK.
  destruct (consts_ok _ _ _ _ _ _ _ _ GK) as (C1 & C2 & C3 & C4 & C5 & C6 & C7).
  destruct (gk_rule _ _ _ _ _ _ _ _ GK r rl R) as (GL & GN). rewrite (schar_small _ (R128 _ _ R)) in GN.
  pose proof (irule_b g o OO _ _ R) as IB.
  set (n := length (r_rhs rl)) in *.
  assert (RED : forall cap, exists T kids, yy_reduce c (with_cap p cap) (Z.of_nat (irule r)) =
     Ok (mkParser (mkEntry act (Z.of_nat (r_lhs rl)) T :: skipn n (p_stack p)) (p_errcnt p) cap
       (EvReduce (Z.of_nat (irule r)) kids :: (if (cap <=? lenz (skipn n (p_stack p)))%Z then [EvOob] else []) ++ p_log p), act)).
  { intros cap. assert (X : exists p1, yy_reduce c (with_cap p cap) (Z.of_nat (irule r)) = Ok (p1, act)).
    { unfold yy_reduce. rewrite GL, GN. cbn [bind]. destruct (Z.ltb_spec 0 (- Z.of_nat n)); [lia|]. cbv zeta.
      rewrite Z.opp_involutive, Nat2Z.id. cbn [with_cap p_stack]. rewrite NB. cbn [opt bind]. rewrite EG. cbn [bind].
      assert (A1 : negb ((MAXS <? act)%Z && (act <=? MAXSR)%Z) = true).
      { destruct (Z.ltb_spec MAXS act); auto. destruct (Z.leb_spec act MAXSR); auto. lia. }
      assert (A2 : negb (act =? ERR)%Z = true). { destruct (Z.eqb_spec act ERR); auto. lia. }
      rewrite A1, A2. cbn [assert bind]. eexists. reflexivity. }
    destruct X as (p1 & X). assert (X' := X). apply reduce_ok in X' as (n' & lhs & bl & N1 & N2 & N3 & N4 & N5 & N6 & N7).
    rewrite GN in N1. rewrite GL in N2. assert (n' = n) by (injection N1; lia). subst n'. assert (lhs = Z.of_nat (r_lhs rl)) by congruence. subst lhs.
    do 2 eexists. rewrite X, N7. cbn [with_cap p_stack p_errcnt p_cap p_log]. reflexivity. }
  assert (LS : lenz (p_stack p) = Z.of_nat (length (p_stack p))) by reflexivity.
  assert (SKL : length (skipn n (p_stack p)) = length (p_stack p) - n) by apply skipn_length.
  assert (LP : 1 <= length (p_stack p)) by (rewrite ES; cbn; lia).
  assert (LN : n < length (p_stack p)) by (eapply nth_error_Some_lt; eauto).
  (* the capacity used *)
  assert (CAP : exists cap, room K (mkParser (mkEntry act (Z.of_nat (r_lhs rl)) (Tok 0) :: skipn n (p_stack p)) 0 cap []) /\
     forall f, Parse c grow (S f) p m mi =
       ('(p1, a) <- yy_reduce c (with_cap p cap) (Z.of_nat (irule r)) ;; parse_loop c grow f p1 a m mi false)).
  { assert (PU : forall f, Parse c grow (S f) p m mi =
       if (Z.of_nat n =? 0)%Z then
          if (p_cap p - 1 <=? tos_idx p)%Z then
            match grow (p_cap p) with
            | None => yyStackOverflow p
            | Some k => '(p1, a) <- yy_reduce c (with_cap p k) (Z.of_nat (irule r)) ;; parse_loop c grow f p1 a m mi false
            end
          else '(p1, a) <- yy_reduce c p (Z.of_nat (irule r)) ;; parse_loop c grow f p1 a m mi false
        else '(p1, a) <- yy_reduce c p (Z.of_nat (irule r)) ;; parse_loop c grow f p1 a m mi false).
    { intros f1. unfold Parse, top. rewrite ES. cbn [bind]. cbn [parse_loop]. cbv zeta. unfold top at 1. rewrite ES. cbn [bind]. rewrite Z.eqb_refl. cbn [assert bind]. rewrite EF. cbn [bind].
      destruct (Z.leb_spec MINR (MINR + Z.of_nat (irule r))); [|lia].
      replace (MINR + Z.of_nat (irule r) - MINR)%Z with (Z.of_nat (irule r)) by lia. rewrite GN. cbn [bind].
      replace (- Z.of_nat n =? 0)%Z with (Z.of_nat n =? 0)%Z by (destruct (Z.eqb_spec (Z.of_nat n) 0), (Z.eqb_spec (- Z.of_nat n) 0); auto; lia). auto. }
    assert (SAME : p = with_cap p (p_cap p)) by (destruct p; auto).
    unfold tos_idx in PU. rewrite LS in PU.
    destruct (Z.eqb_spec (Z.of_nat n) 0) as [N0|N0].
    - destruct (Z.leb_spec (p_cap p - 1) (Z.of_nat (length (p_stack p)) - 1)) as [G|G].
      + destruct RM as [RM|(GR & RM)]; [lia|]. destruct (GR (p_cap p) ltac:(lia)) as (k & EGR & LG). rewrite EGR in PU. exists k. split; auto.
        right. split; auto. cbn [p_stack p_cap]. rewrite lenz_cons. unfold lenz. rewrite SKL. lia.
      + exists (p_cap p). split; [|rewrite <- SAME; auto]. destruct RM as [RM|(GR & RM)]; [left; auto|right]. split; auto. cbn [p_stack p_cap].
        rewrite lenz_cons. unfold lenz. rewrite SKL. lia.
    - exists (p_cap p). split; [|rewrite <- SAME; auto]. destruct RM as [RM|(GR & RM)]; [left; auto|right]. split; auto. cbn [p_stack p_cap].
      rewrite lenz_cons. unfold lenz. rewrite SKL. lia. }
  destruct CAP as (cap & RM1 & PU). destruct (RED cap) as (T & kids & ER). rewrite PU, ER. cbn [bind].
  match type of ER with _ = Ok (?P, _) => exists P, T end. split; [|split; [|split; [|split]]].
  - reflexivity.
  - reflexivity.
  - cbn [p_log]. rewrite psteps_cons, psteps_oob. auto.
  - cbn [p_log]. intros CL ev [<-|I]; auto. apply oob_in in I as [->|I]; auto. apply CL; auto.
  - destruct RM1 as [RM1|(GR & RM1)]; [left; exact RM1|right; split; [auto|]]. cbn [p_stack p_cap] in *. rewrite lenz_cons in *. auto.
Qed.

Lemma round_shift : forall p e r0 t id u f K, p_stack p = e :: r0 ->
  yy_find_shift_action c (Z.of_nat t) (e_state e) = Ok u -> (u <= MAXSR)%Z -> room K p -> length (p_stack p) < K ->
  exists p1, Parse c grow (S f) p (Z.of_nat t) (Tok id) = Ok p1 /\
    p_stack p1 = mkEntry (if (MAXS <? u)%Z then u + (MINR - MINSR) else u) (Z.of_nat t) (Tok id) :: p_stack p /\
    psteps (p_log p1) = psteps (p_log p) ++ [Sh id] /\ (clean (p_log p) -> clean (p_log p1)) /\ room K p1.
Proof.
  intros p e r0 t id u f K ES EF LU RM LK.
  destruct (consts_ok _ _ _ _ _ _ _ _ GK) as (C1 & C2 & C3 & C4 & C5 & C6 & C7).
  assert (LS : lenz (p_stack p) = Z.of_nat (length (p_stack p))) by reflexivity.
  assert (PU : Parse c grow (S f) p (Z.of_nat t) (Tok id) = (p1 <- yy_shift c grow p u (Z.of_nat t) (Tok id) ;; Ok (with_errcnt p1 (p_errcnt p1 - 1)))).
  { unfold Parse, top. rewrite ES. cbn [bind]. cbn [parse_loop]. cbv zeta. unfold top at 1. rewrite ES. cbn [bind]. rewrite Z.eqb_refl. cbn [assert bind]. rewrite EF. cbn [bind].
    destruct (Z.leb_spec MINR u); [lia|]. destruct (Z.leb_spec u MAXSR); [|lia]. auto. }
  assert (X : exists cap, yy_shift c grow p u (Z.of_nat t) (Tok id) =
     Ok (mkParser (mkEntry (if (MAXS <? u)%Z then u + (MINR - MINSR) else u)%Z (Z.of_nat t) (Tok id) :: p_stack p) (p_errcnt p) cap
       (EvShift (Z.of_nat t) (Tok id) :: (if (cap <=? lenz (p_stack p))%Z then [EvOob] else []) ++ p_log p)) /\
     ((Z.of_nat K <= cap)%Z \/ growing /\ (lenz (p_stack p) < cap)%Z)).
  { assert (PUT : forall q e1, p_stack q = p_stack p -> logev (put q (p_stack q) e1) (EvShift (Z.of_nat t) (Tok id)) =
       mkParser (e1 :: p_stack p) (p_errcnt q) (p_cap q) (EvShift (Z.of_nat t) (Tok id) :: (if (p_cap q <=? lenz (p_stack p))%Z then [EvOob] else []) ++ p_log q)).
    { intros q e1 EQ. unfold logev, put, with_stack. rewrite EQ. destruct q as [s ec cp lg]. cbn [p_stack p_errcnt p_cap p_log].
      destruct (cp <=? lenz (p_stack p))%Z; cbn; auto. }
    unfold yy_shift. cbv zeta. unfold tos_idx.
    destruct (Z.leb_spec (p_cap p) (lenz (p_stack p) - 1 + 1)) as [G|G].
    - destruct RM as [RM|(GR & RM)]; [lia|]. assert (1 <= p_cap p)%Z. { rewrite ES, lenz_cons in RM. pose proof (lenz_nonneg _ r0). lia. } destruct (GR (p_cap p) ltac:(auto)) as (k & EGR & LG). rewrite EGR. exists k.
      rewrite (PUT (with_cap p k)) by auto. split; [auto|]. right. split; auto. lia.
    - exists (p_cap p). rewrite (PUT p) by auto. split; auto. destruct RM as [RM|(GR & RM)]; [left; auto|right; split; auto; lia]. }
  destruct X as (cap & X & RM1). rewrite PU, X. cbn [bind]. eexists. split; [reflexivity|]. cbn [with_errcnt p_stack p_log]. split; auto.
  split; [rewrite psteps_cons, psteps_oob; auto|]. split.
  - intros CL ev [<-|I]; auto. apply oob_in in I as [->|I]; auto. apply CL; auto.
  - unfold room. cbn [with_errcnt p_stack p_cap]. rewrite lenz_cons. destruct RM1 as [RM1|(GR & RM1)]; [left; auto|right; split; auto; lia].
Qed.

(** The rest of the input: the current token [Parse]d with fuel [f], the others with [f0]. *)
Definition finish (f f0 : nat) (p : parser) (id : nat) (ts : list nat) : res parser :=
  match ts with
  | [] => Parse c grow f p 0 (Tok 0)
  | t :: r => p1 <- Parse c grow f p (Z.of_nat t) (Tok id) ;; p2 <- feed c grow f0 p1 (map Z.of_nat r) (S id) ;; Parse c grow f0 p2 0 (Tok 0)
  end.

Lemma finish_feed : forall f p id ts, (p2 <- feed c grow f p (map Z.of_nat ts) id ;; Parse c grow f p2 0 (Tok 0)) = finish f f p id ts.
Proof.
  intros f p id [|t ts]; cbn [map feed finish bind]; auto. destruct (Parse c grow f p (Z.of_nat t) (Tok id)); auto.
Qed.

Lemma finish_step : forall p p1 id ts f f0, Parse c grow (S f) p (Z.of_nat (hd 0 ts)) (Tok (match ts with [] => 0 | _ => id end)) =
    Parse c grow f p1 (Z.of_nat (hd 0 ts)) (Tok (match ts with [] => 0 | _ => id end)) -> finish (S f) f0 p id ts = finish f f0 p1 id ts.
Proof. intros p p1 id [|t ts] f f0 H; cbn [finish hd] in *; [exact H|rewrite H; auto]. Qed.

Lemma act_crel : forall q q' u, (auto q' = None /\ rst q' u /\ (u <= MAXS)%Z) \/ (exists r, auto q' = Some r /\ u = (MINSR + Z.of_nat (irule r))%Z /\ (MAXS < u)%Z) ->
  crel q q' (if (MAXS <? u)%Z then u + (MINR - MINSR) else u)%Z.
Proof.
  intros q q' u [(_ & (k & x & -> & LK & EX & <-) & LM)|(r & AU & -> & LM)].
  - destruct (Z.ltb_spec MAXS (Z.of_nat k)); [lia|]. apply cr_real; auto.
  - destruct (Z.ltb_spec MAXS (MINSR + Z.of_nat (irule r))); [|lia].
    replace (MINSR + Z.of_nat (irule r) + (MINR - MINSR))%Z with (MINR + Z.of_nat (irule r))%Z by lia. apply cr_pend; auto.
Qed.

Lemma start_no_tr : forall q q', tr g A q (g_start g) q' -> False.
Proof.
  intros q q' (X & HX & I & sh & J & sh' & E1 & E2 & (i & Hi & AD) & _).
  assert (NTS : g_nterm g <= g_start g) by (destruct W as (_ & _ & _ & W4); unfold is_nonterm in W4; lia).
  pose proof (nonterm_elem g X _ (after_dot_wf g i X W AD) NTS HX) as EX. subst X.
  apply after_dot_rhs in AD as (rl & I1 & I2). apply (SNR rl I1 I2).
Qed.

Lemma hd_lt : forall ts, Forall (fun t => 0 < t < g_nterm g) ts -> hd 0 ts < g_nterm g.
Proof. intros [|t ts] F; cbn [hd]. - destruct W as (W1 & _). auto. - inversion F; subst; lia. Qed.

(** What a reduction of the machine is in the driver, when the top of the stack is
    not lagging. *)
Lemma reduce_prep : no_detour -> forall q qs e es gm ap t r, srel (q :: qs) (e :: es) gm -> t < g_nterm g -> nth_error aps q = Some ap -> In (mkAction REDUCE t r) ap ->
  (exists rl B q0 qs0 e0 es0 X gm0 q2, auto q = Some r /\ rule_of g r = Some rl /\ r_rhs rl = [ESym B] /\ is_nonterm g B /\ ri_noCode (opts_rinfo o) r = true /\
     tr g A q0 (r_lhs rl) q2 /\ crel q0 q2 (e_state e) /\ qs = q0 :: qs0 /\ es = e0 :: es0 /\ gm = X :: gm0 /\
     srel (q0 :: qs0) (e0 :: es0) gm0 /\ rst q0 (e_state e0)) \/
  yy_find_shift_action c (Z.of_nat t) (e_state e) = Ok (MINR + Z.of_nat (irule r))%Z /\
  exists rl gm' q0 qs0 b es0 act, rule_of g r = Some rl /\ skipn (length (r_rhs rl)) (q :: qs) = q0 :: qs0 /\ skipn (length (r_rhs rl)) (e :: es) = b :: es0 /\
    srel (q0 :: qs0) (b :: es0) gm' /\ rst q0 (e_state b) /\ nth_error (e :: es) (length (r_rhs rl)) = Some b /\
    yy_find_reduce_action c (e_state b) (Z.of_nat (r_lhs rl)) = Ok act /\ ((act <= MAXS)%Z \/ (MAXSR < act)%Z /\ act <> ERR) /\
    ((r_lhs rl = g_start g /\ gm' = [] /\ q0 = 0 /\ act = ACC) \/
     exists ap0 q1, nth_error aps q0 = Some ap0 /\ In (mkAction SHIFT (r_lhs rl) q1) ap0 /\ trans g A q0 (ESym (r_lhs rl)) q1 /\ crel q0 q1 act).
Proof.
  intros ND q qs e es gm ap t r S LT EA I. destruct (consts_ok _ _ _ _ _ _ _ _ GK) as (C1 & C2 & C3 & C4 & C5 & C6 & C7).
  destruct (srel_path _ _ _ S) as (q' & r' & E & P). inversion E; subst q' r'. clear E.
  destruct (red_valid _ _ _ _ _ P EA I) as (rl & R & V & _).
  assert (GO : (r_rhs rl = [] -> rst q (e_state e)) -> exists rl gm' q0 qs0 b es0 act, rule_of g r = Some rl /\ skipn (length (r_rhs rl)) (q :: qs) = q0 :: qs0 /\ skipn (length (r_rhs rl)) (e :: es) = b :: es0 /\
    srel (q0 :: qs0) (b :: es0) gm' /\ rst q0 (e_state b) /\ nth_error (e :: es) (length (r_rhs rl)) = Some b /\
    yy_find_reduce_action c (e_state b) (Z.of_nat (r_lhs rl)) = Ok act /\ ((act <= MAXS)%Z \/ (MAXSR < act)%Z /\ act <> ERR) /\
    ((r_lhs rl = g_start g /\ gm' = [] /\ q0 = 0 /\ act = ACC) \/
     exists ap0 q1, nth_error aps q0 = Some ap0 /\ In (mkAction SHIFT (r_lhs rl) q1) ap0 /\ trans g A q0 (ESym (r_lhs rl)) q1 /\ crel q0 q1 act)).
  { intros HE. destruct (valid_split g r rl _ _ R V) as (gm' & EG & V0 & _). rewrite firstn_all in EG. subst gm.
    destruct (srel_pop _ _ _ _ S) as (q0 & qs0 & b & es0 & E1 & E2 & S0 & HR & NB & _).
    assert (RB : rst q0 (e_state b)).
    { destruct (r_rhs rl) as [|Y l] eqn:ER; [|apply HR; discriminate]. cbn in E1, E2. inversion E1; inversion E2; subst. apply HE; auto. }
    destruct (srel_path _ _ _ S0) as (q' & r' & E & P0). inversion E; subst q' r'. clear E.
    destruct (goto_entry _ _ _ _ P0 V0 R) as (x & a & EX & IA & XA & SP & CASE).
    assert (NB2 : g_nterm g <= r_lhs rl < g_nsym g) by (apply (lhs_nonterm g r); [auto|exists rl; auto]).
    exists rl, gm', q0, qs0, b, es0, (code_of g o sorted a). split; auto. split; auto. split; auto. split; auto. split; auto. split; auto.
    split; [apply (goto_look q0); eauto|]. split; auto.
    destruct CASE as [(_ & _ & _ & ->)|(ap0 & q1 & _ & _ & _ & CR)]; [right; lia|eapply crel_range; eauto]. }
  destruct (srel_top _ _ _ _ _ S) as [RT|(q0 & qs0 & e0 & es0 & X & gm0 & -> & -> & -> & S0 & RT & T & [(r1 & AU & EV)|(r1 & rl1 & B & q2 & AU & R1 & ER & NB & NC & T2 & C)])].
  - right. split; [eapply find_reduce; eauto|]. apply GO. auto.
  - right. destruct (auto_only _ _ _ AU EA _ I) as (_ & E1). cbn [a_type a_arg] in E1. specialize (E1 eq_refl). subst r1.
    split; [rewrite EV; eapply find_pend; eauto|]. apply GO. intros EN. exfalso.
    destruct (auto_facts g o c A aps xs sorted nx GK _ _ AU) as (rl2 & R2 & _ & _ & NE). congruence.
  - left. destruct (auto_only _ _ _ AU EA _ I) as (_ & E1). cbn [a_type a_arg] in E1. specialize (E1 eq_refl). subst r1.
    exists rl1, B, q0, qs0, e0, es0, X, gm0, q2. auto 20.
Qed.

Lemma shift_tr : forall q ap s q', nth_error aps q = Some ap -> In (mkAction SHIFT s q') ap -> tr g A q s q'.
Proof. intros q ap s q' EA I. exact (rs_live _ _ _ RS q ap _ EA I eq_refl). Qed.

End Sim.

Lemma sim : no_detour -> forall qs id ts P, arun qs id ts P -> Forall (fun t => 0 < t < g_nterm g) ts ->
  exists K N, forall grow p gm f f0, srel qs (p_stack p) gm -> room grow K p -> N <= f -> N <= f0 ->
    exists p' P', finish grow f f0 p id ts = Ok p' /\ psteps (p_log p') = psteps (p_log p) ++ P' /\ elided elidable P P' /\
      In EvAccept (p_log p') /\ (clean (p_log p) -> clean (p_log p')).
Proof.
  intros ND qs id ts P H. destruct (consts_ok _ _ _ _ _ _ _ _ GK) as (C1 & C2 & C3 & C4 & C5 & C6 & C7).
  assert (LEN : forall qs es gm, srel qs es gm -> length qs = length es).
  { intros qs1 es gm S. destruct (srel_pop [] gm qs1 es S) as (? & ? & ? & ? & _ & _ & _ & _ & _ & L). auto. }
  induction H as [q qs ap t q' id ts P EA I H IH|q qs ap r rl q0 qs0 ap0 q1 id ts P EA I R SK EA0 I0 H IH|q qs ap r rl id EA I R LS SK]; intros FT.
  - inversion FT as [|? ? T1 T2]; subst. destruct (IH T2) as (K & N & IH'). clear IH.
    exists (max K (S (length (q :: qs)))), (S N). intros grow p gm f f0 S RM LF LF0. pose proof (LEN _ _ _ S) as LL.
    destruct (p_stack p) as [|e es] eqn:ES; [inversion S|]. destruct f as [|f]; [lia|].
    destruct (srel_top _ _ _ _ _ S) as [RT|(q0 & qs0 & e0 & es0 & X & gm0 & EQ & _ & _ & _ & _ & _ & AUX)].
    + destruct (find_shift _ _ t _ _ RT (proj2 T1) EA I) as (u & EF & LU & UC).
      destruct (round_shift grow p e es t id u f (max K (Datatypes.S (length (q :: qs)))) ES EF LU RM) as (p1 & PP & ES1 & PS1 & CL1 & RM1). { rewrite ES. lia. }
      destruct (shift_tr _ _ _ _ EA I) as (X & HX & T).
      assert (S1 : srel (q' :: q :: qs) (p_stack p1) (X :: gm)).
      { rewrite ES1, ES. econstructor; eauto. cbn [e_state]. apply act_crel; auto. }
      destruct (IH' grow p1 _ f0 f0 S1) as (p' & P' & F1 & PS & EL & AC & CL); [eapply room_le; [|exact RM1]; lia|lia|lia|].
      exists p', (Sh id :: P'). split; [|split; [|split; [|split]]]; auto.
      * cbn [finish]. rewrite PP. cbn [bind]. rewrite finish_feed. auto.
      * rewrite PS, PS1, <- app_assoc. auto.
      * constructor. auto.
    + exfalso. assert (AU : exists r, auto q = Some r). { destruct AUX as [(r & AU & _)|(r & ? & ? & ? & AU & _)]; eauto. } destruct AU as (r & AU).
      destruct (auto_only _ _ _ AU EA _ I) as (NS & _). apply NS. reflexivity.
  - destruct (IH FT) as (K & N & IH'). clear IH. pose proof (hd_lt _ FT) as HL. pose proof (shift_tr _ _ _ _ EA0 I0) as TR0.
    assert (NB2 : g_nterm g <= r_lhs rl < g_nsym g) by (apply (lhs_nonterm g r); [auto|exists rl; auto]).
    exists (max K (S (length (q :: qs)))), (S N). intros grow p gm f f0 S RM LF LF0. pose proof (LEN _ _ _ S) as LL.
    destruct (p_stack p) as [|e es] eqn:ES; [inversion S|].
    destruct (reduce_prep ND _ _ _ _ _ _ _ _ S HL EA I) as
      [(rl' & B & qa & qs1 & e0 & es0 & X & gm0 & q2 & AU & R' & ER & NB & NC & T2 & C & EQ & EE & EG & S0 & RT)|
       (EF & rl' & gm' & qa & qs1 & b & es0 & act & R' & SK' & SE & S0 & RT & NB & GL & RNG & CASE)];
      rewrite R in R'; inversion R'; subst rl'; clear R'.
    + rewrite ER in SK. cbn [length skipn] in SK. rewrite SK in EQ. inversion EQ; subst qa qs1. clear EQ.
      assert (q2 = q1) by (apply (tr_det q0 (r_lhs rl)); [lia|auto|auto]). subst q2.
      assert (S1 : srel (q1 :: q0 :: qs0) (p_stack p) (ESym (r_lhs rl) :: gm0)).
      { rewrite ES, EE. econstructor; eauto. apply (tr_sym g A W); [auto|lia]. }
      destruct (IH' grow p _ f f0 S1) as (p' & P' & F1 & PS & EL & AC & CL); [eapply room_le; [|exact RM]; lia|lia|lia|].
      exists p', P'. split; auto. split; auto. split; auto. constructor; auto. exists q, r. split; auto. split; auto. exists rl, B. auto.
    + rewrite SK in SK'. inversion SK'; subst qa qs1. clear SK'. destruct f as [|f]; [lia|].
      destruct CASE as [(LS & _)|(ap0' & q1' & EA0' & _ & T1 & CR)].
      { exfalso. rewrite LS in TR0. eapply start_no_tr; eauto. }
      assert (q1' = q1). { apply (tr_det q0 (r_lhs rl)); [lia|exists (ESym (r_lhs rl)); split; [left; auto|exact T1]|exact TR0]. } subst q1'.
      destruct (round_reduce grow p e es (Z.of_nat (hd 0 ts)) (Tok (match ts with [] => 0 | _ => id end)) r rl b act f (max K (Datatypes.S (length (q :: qs)))) ES EF R)
        as (p1 & T & PP & ES1 & PS1 & CL1 & RM1); auto. { rewrite ES; auto. } { rewrite ES. lia. }
      rewrite ES, SE in ES1.
      assert (S1 : srel (q1 :: q0 :: qs0) (p_stack p1) (ESym (r_lhs rl) :: gm')).
      { rewrite ES1. econstructor; eauto. }
      destruct (IH' grow p1 _ f f0 S1) as (p' & P' & F1 & PS & EL & AC & CL); [eapply room_le; [|exact RM1]; lia|lia|lia|].
      exists p', (Re (Z.of_nat (irule r)) :: P'). split; [|split; [|split; [|split]]]; auto.
      * rewrite (finish_step _ _ _ _ _ _ _ PP). auto.
      * rewrite PS, PS1, <- app_assoc. auto.
      * constructor. auto.
  - exists (S (length (q :: qs))), 2. intros grow p gm f f0 S RM LF LF0. pose proof (LEN _ _ _ S) as LL.
    assert (N0 : 0 < g_nterm g) by (destruct W as (W1 & _); auto).
    destruct (p_stack p) as [|e es] eqn:ES; [inversion S|]. destruct f as [|[|f]]; [lia|lia|].
    destruct (reduce_prep ND _ _ _ _ _ _ _ _ S N0 EA I) as
      [(rl' & B & qa & qs1 & e0 & es0 & X & gm0 & q2 & AU & R' & ER & NB & NC & T2 & C & EQ & EE & EG & S0 & RT)|
       (EF & rl' & gm' & qa & qs1 & b & es0 & act & R' & SK' & SE & S0 & RT & NB & GL & RNG & CASE)];
      rewrite R in R'; inversion R'; subst rl'; clear R'.
    + exfalso. rewrite LS in T2. eapply start_no_tr; eauto.
    + rewrite SK in SK'. inversion SK'; subst qa qs1. clear SK'.
      destruct CASE as [(_ & -> & _ & ->)|(ap0' & q1' & EA0' & _ & T1 & CR)].
      2:{ exfalso. rewrite LS in T1. apply (start_no_tr 0 q1'). exists (ESym (g_start g)); split; [left; auto|exact T1]. }
      destruct (round_reduce grow p e es 0%Z (Tok 0) r rl b ACC (Datatypes.S f) (Datatypes.S (length (q :: qs))) ES EF R)
        as (p1 & T & PP & ES1 & PS1 & CL1 & RM1); auto. { rewrite ES; auto. } { rewrite ES. lia. }
      rewrite ES, SE in ES1. assert (es0 = []). { pose proof (LEN _ _ _ S0) as L0. destruct es0; auto. cbn in L0. lia. } subst es0.
      exists (logev (with_errcnt (with_stack p1 [b]) (-1)) EvAccept), [Re (Z.of_nat (irule r))]. split; [|split; [|split; [|split]]].
      * cbn [finish]. rewrite PP. unfold Parse, top. rewrite ES1. cbn [bind e_state parse_loop]. cbv zeta. unfold top. rewrite ES1. cbn [bind e_state].
        rewrite Z.eqb_refl. cbn [assert bind]. unfold yy_find_shift_action. destruct (Z.ltb_spec MAXS ACC); [|lia]. cbn [bind].
        destruct (Z.leb_spec MINR ACC); [lia|]. destruct (Z.leb_spec ACC MAXSR); [lia|]. rewrite Z.eqb_refl. auto.
      * cbn [logev with_errcnt with_stack p_log]. rewrite psteps_cons. cbn [psteps1]. rewrite app_nil_r. auto.
      * repeat constructor.
      * left. auto.
      * intros CL ev [<-|J]; auto. apply CL1; auto.
Qed.



(** * From the driver to the machine *)

Section Back.
(** Some live action is left for every lookahead of a complete item. *)
Hypothesis SURV : forall q ap gm r rl t, nth_error aps q = Some ap -> path gm q -> rule_of g r = Some rl ->
  la g gm (r, length (r_rhs rl)) t -> t < g_nterm g -> exists a, In a ap /\ exec a = true /\ a_sp a = t.
Hypothesis NFB : o_fallback o = None.
Hypothesis NWC : o_wildcard o = None.

(** The rounds of the driver up to acceptance. *)
Inductive cacc : list entry -> nat -> list nat -> list pstep -> Prop :=
| ca_acc : forall e b id, yy_find_shift_action c 0 (e_state e) = Ok ACC -> cacc [e; b] id [] []
| ca_red : forall e es v n lhs b act T id ts P, yy_find_shift_action c (Z.of_nat (hd 0 ts)) (e_state e) = Ok v -> (MINR <= v)%Z ->
    rdz (g_nrhs c) (v - MINR) = Ok (- Z.of_nat n)%Z -> rdz (g_lhs c) (v - MINR) = Ok lhs ->
    nth_error (e :: es) n = Some b -> yy_find_reduce_action c (e_state b) lhs = Ok act ->
    cacc (mkEntry act lhs T :: skipn n (e :: es)) id ts P -> cacc (e :: es) id ts (Re (v - MINR) :: P)
| ca_shift : forall e es v t id ts P, yy_find_shift_action c (Z.of_nat t) (e_state e) = Ok v -> (v <= MAXSR)%Z ->
    cacc (mkEntry (if (MAXS <? v)%Z then v + (MINR - MINSR) else v)%Z (Z.of_nat t) (Tok id) :: e :: es) (S id) ts P ->
    cacc (e :: es) id (t :: ts) (Sh id :: P).

Definition concl (qs : list nat) (id : nat) (ts : list nat) (gm : list elem) (P : list pstep) : Prop :=
  (exists P', arun qs id ts P' /\ elided elidable P' P) /\ ctx g gm ts.

(** The action list of a state where the item of [r] is complete. *)
Lemma red_in : forall q ap gm r rl t, nth_error aps q = Some ap -> path gm q -> rule_of g r = Some rl ->
  la g gm (r, length (r_rhs rl)) t -> t < g_nterm g -> auto q = Some r -> In (mkAction REDUCE t r) ap.
Proof.
  intros q ap gm r rl t EA P R L LT AU. destruct (SURV q ap gm r rl t EA P R L LT) as (a & I & X & SP).
  destruct (auto_only _ _ _ AU EA a I) as (NS & NR). pose proof (rs_live _ _ _ RS q ap a EA I X) as K.
  destruct a as [ty sp x]. cbn [a_type a_sp a_arg] in *. subst sp. destruct ty; try contradiction; try congruence.
  - exfalso. destruct K as (_ & ->). destruct W as (_ & _ & _ & W4). unfold is_nonterm in W4. lia.
  - rewrite NR in I by auto. auto.
Qed.

Lemma unit_lift : forall q0 qs0 e0 es0 gm0 X q1 q2 r rl B id ts P, srel (q0 :: qs0) (e0 :: es0) gm0 -> trans g A q0 X q1 ->
  auto q1 = Some r -> rule_of g r = Some rl -> r_rhs rl = [ESym B] -> is_nonterm g B -> ri_noCode (opts_rinfo o) r = true -> tr g A q0 (r_lhs rl) q2 ->
  Forall (fun t => 0 < t < g_nterm g) ts ->
  concl (q2 :: q0 :: qs0) id ts (ESym (r_lhs rl) :: gm0) P -> concl (q1 :: q0 :: qs0) id ts (X :: gm0) P.
Proof.
  intros q0 qs0 e0 es0 gm0 X q1 q2 r rl B id ts P S T AU R ER NB NC T2 FT ((P' & AR & EL) & CX).
  destruct (srel_path _ _ _ S) as (q' & r' & E & P0). inversion E; subst q' r'. clear E.
  pose proof (path_trans g A _ _ _ _ P0 T) as P1.
  destruct (auto_facts g o c A aps xs sorted nx GK _ _ AU) as (rl2 & R2 & HI & _). rewrite R in R2. inversion R2; subst rl2. clear R2.
  pose proof (item_valid g A _ _ _ _ P1 HI) as V. destruct (valid_split g r rl _ _ R V) as (gm' & EG & _). rewrite firstn_all, ER in EG. cbn [rev app] in EG.
  inversion EG; subst X gm'. clear EG.
  pose proof (ctx_la _ _ _ _ _ R CX) as LA0. pose proof (la_run g r rl _ _ (length (r_rhs rl)) R LA0 ltac:(lia)) as LA1.
  rewrite firstn_all, ER in LA1. cbn [rev app length] in LA1.
  pose proof (hd_lt _ FT) as HL. destruct (list_at q1 (path_lt _ _ P1)) as (ap & l & au & EA & EX).
  destruct (list_at q0 (path_lt _ _ P0)) as (ap0 & l0 & au0 & EA0 & EX0).
  pose proof (red_in q1 ap _ r rl (hd 0 ts) EA P1 R) as IR. rewrite ER in IR. specialize (IR LA1 HL AU).
  assert (NB2 : g_nterm g <= r_lhs rl < g_nsym g) by (apply (lhs_nonterm g r); [auto|exists rl; auto]).
  split.
  - exists (Re (Z.of_nat (irule r)) :: P'). split.
    + eapply ar_red; [exact EA|exact IR|exact R|rewrite ER; reflexivity|exact EA0| |exact AR]. apply (rs_goto _ _ _ RS q0); auto. lia.
    + apply el_skip; auto. exists q1, r. split; auto. split; auto. exists rl, B. auto.
  - pose proof (ctx_reduce _ _ _ _ _ R CX) as K. rewrite ER in K. exact K.
Qed.

Lemma settle : forall qs e es gm id ts P, srel qs (e :: es) gm -> Forall (fun t => 0 < t < g_nterm g) ts ->
  (forall q' qs' gm', srel (q' :: qs') (e :: es) gm' -> (rst q' (e_state e) \/ exists r, auto q' = Some r /\ e_state e = (MINR + Z.of_nat (irule r))%Z) ->
     concl (q' :: qs') id ts gm' P) -> concl qs id ts gm P.
Proof.
  intros qs e es gm id ts P S FT H. remember (e :: es) as E eqn:EE. destruct S as [e1 E1|q1 q0 qs0 e1 e0 es0 X gm S RT T C]; inversion EE; subst.
  - apply H; [constructor; auto|]. left. rewrite E1. apply rst0.
  - assert (K : forall q v, crel q0 q v -> v = e_state e -> forall X, trans g A q0 X q -> concl (q :: q0 :: qs0) id ts (X :: gm) P).
    { clear T C q1 X EE. intros q v C. induction C as [k x EX L|q1 r AU|q1 r rl B q2 v AU R ER NB NC T2 C IH]; intros EV X T.
      - apply H; [econstructor; eauto; rewrite <- EV; apply cr_real; auto|]. left. exists k, x. auto.
      - apply H; [econstructor; eauto; rewrite <- EV; apply cr_pend; auto|]. right. eauto.
      - assert (NB2 : g_nterm g <= r_lhs rl < g_nsym g) by (apply (lhs_nonterm g r); [auto|exists rl; auto]).
        eapply unit_lift; eauto. apply IH; auto. apply (tr_sym g A W); [auto|lia]. }
    eapply K; eauto.
Qed.

Lemma code_kind : forall q l au a, nth_error xs q = Some (l, au) -> In a l -> exec a = true -> a_sp a < g_nterm g ->
  match a_type a with
  | SHIFT => auto (a_arg a) = None /\ rst (a_arg a) (code_of g o sorted a) /\ (code_of g o sorted a <= MAXS)%Z
  | SHIFTREDUCE => code_of g o sorted a = (MINSR + Z.of_nat (irule (a_arg a)))%Z /\ (MAXS < code_of g o sorted a <= MAXSR)%Z
  | REDUCE => code_of g o sorted a = (MINR + Z.of_nat (irule (a_arg a)))%Z
  | ACCEPT => False
  | _ => True
  end.
Proof.
  intros q l au a EX I XA LT. destruct (consts_ok _ _ _ _ _ _ _ _ GK) as (C1 & C2 & C3 & C4 & C5 & C6 & C7).
  pose proof (fn_ok _ _ _ _ _ FN q l au a EX I XA) as AO.
  assert (AUD : forall q' r, auto q' = Some r -> done g A q' r).
  { intros q' r AU. destruct (auto_facts g o c A aps xs sorted nx GK _ _ AU) as (rl & R & HI & _). exists rl. auto. }
  pose proof (code_other g o c A aps xs sorted nx GK a) as CO.
  destruct (act_ok_arg g A o W xs q a AUD AO) as (_ & AR).
  destruct a as [ty sp x]. cbn [a_type a_sp a_arg] in *. destruct ty; auto.
  - destruct AR as (AR1 & AR2). destruct (code_shift g o c A aps xs sorted nx GK sp x AR1 AR2) as (k & y & EC & E1 & E2 & E3). rewrite EC.
    split; auto. split; [exists k, y; auto|lia].
  - clear - AO LT W. remember (mkAction ACCEPT sp x) as a eqn:E. revert E. destruct AO; intros E; inversion E; subst.
    + destruct W as (_ & _ & _ & W4). unfold is_nonterm in W4. lia.
    + lia.
  - destruct CO as (CO & _). specialize (CO LT). rewrite CO. destruct (act_sr g o A xs _ _ AO eq_refl) as (q' & AU). cbn [a_arg] in AU.
    destruct (auto_facts g o c A aps xs sorted nx GK _ _ AU) as (rl & R & _). pose proof (irule_b g o OO _ _ R). split; auto. lia.
Qed.

(** What the driver does in a real state, read back. *)
Lemma look_back : forall q v t ap u, rst q v -> t < g_nterm g -> nth_error aps q = Some ap -> yy_find_shift_action c (Z.of_nat t) v = Ok u ->
  ((u <= MAXSR)%Z -> exists q', In (mkAction SHIFT t q') ap /\
     ((auto q' = None /\ rst q' u /\ (u <= MAXS)%Z) \/ (exists r, auto q' = Some r /\ u = (MINSR + Z.of_nat (irule r))%Z /\ (MAXS < u)%Z))) /\
  ((MINR <= u)%Z -> exists r rl, u = (MINR + Z.of_nat (irule r))%Z /\ rule_of g r = Some rl /\ has_item A q (r, length (r_rhs rl)) /\
     forall gm, path gm q -> la g gm (r, length (r_rhs rl)) t -> In (mkAction REDUCE t r) ap) /\
  u <> ACC.
Proof.
  intros q v t ap u RQ LT EA EF. destruct (consts_ok _ _ _ _ _ _ _ _ GK) as (C1 & C2 & C3 & C4 & C5 & C6 & C7).
  destruct (find_real q v t RQ LT) as (l & au & EX & EF'). rewrite EF in EF'. inversion EF'; subst u. clear EF EF'.
  unfold tok_code. rewrite (plain_pick NFB NWC). destruct (act_at l t) as [a|] eqn:EP.
  - apply act_at_In in EP as (IA & EM & SP). pose proof (noerr_l _ _ _ _ EX IA EM) as XA.
    pose proof (code_kind q l au a EX IA XA ltac:(lia)) as CK.
    destruct (fn_tok _ _ _ _ _ FN q ap l au a EA EX IA XA ltac:(lia)) as (a0 & I0 & X0 & E0).
    assert (SP0 : a_sp a0 = t). { rewrite <- SP, E0. symmetry. apply shiftreduce_sp. }
    pose proof (rs_live _ _ _ RS q ap a0 EA I0 X0) as K. destruct a0 as [ty s x]. cbn [a_sp] in SP0. subst s.
    destruct ty; try contradiction; cbn [a_type a_sp a_arg] in K.
    + unfold shiftreduce in E0. cbn [a_type a_arg a_sp] in E0. destruct (auto x) as [r|] eqn:AU; rewrite E0 in *; cbn [a_type a_arg] in CK.
      * split; [|split; lia]. intros _. exists x. split; auto. right. exists r. destruct CK as (CK1 & CK2). split; auto. split; auto. lia.
      * split; [|split; lia]. intros _. exists x. split; [auto|]. left. exact CK.
    + exfalso. destruct K as (_ & ->). destruct W as (_ & _ & _ & W4). unfold is_nonterm in W4. lia.
    + cbn [shiftreduce a_type] in E0. rewrite E0 in *. cbn [a_type a_arg] in CK. rewrite CK. destruct K as (_ & rl & I1 & sh & gm & R & EI & HI & _). split; [intros; lia|]. split; [|lia]. intros _.
      exists x, rl. split; auto. split; auto. split; auto. exists I1, sh. auto.
  - destruct (dflt_rule g l) as [r|] eqn:ED.
    + pose proof (dflt_in _ _ ED) as ID. cbn [report_consts k_minReduce k_errAction].
      split; [intros HU; exfalso; rewrite (gk_ns _ _ _ _ _ _ _ _ GK) in HU; lia|]. split; [|rewrite (gk_ns _ _ _ _ _ _ _ _ GK); lia]. intros _.
      pose proof (fn_ok _ _ _ _ _ FN q l au _ EX ID eq_refl) as AO.
      assert (D : done g A q r).
      { clear - AO W. remember (mkAction REDUCE (g_nsym g) r) as a eqn:E. revert E. destruct AO; intros E; inversion E; subst; auto.
        - destruct W as (_ & _ & _ & W4). unfold is_nonterm in W4. lia.
        - exfalso. apply (f_equal a_sp) in E. cbn [a_sp] in E.
          match goal with K : act_ok _ _ _ _ _ (mkAction SHIFTREDUCE _ _) |- _ => pose proof (act_sr_sp g o A xs W _ _ K eq_refl) as K2; cbn [a_sp] in K2 end. lia. }
      destruct D as (rl & R & HI). exists r, rl. split; [rewrite (gk_ns _ _ _ _ _ _ _ _ GK); lia|]. split; auto. split; auto.
      intros gm P L. destruct (SURV q ap gm r rl t EA P R L LT) as (a0 & I0 & X0 & SP0).
      pose proof (rs_live _ _ _ RS q ap a0 EA I0 X0) as K. destruct a0 as [ty s x]. cbn [a_sp] in SP0. subst s.
      destruct ty; try contradiction; cbn [a_type a_sp a_arg] in K.
      * exfalso. pose proof (fn_shift _ _ _ _ _ FN q ap l au t x EA EX I0 LT) as IS. destruct (auto x) as [r1|].
        -- pose proof (act_at_is q l au _ EX IS eq_refl) as EC. cbn [a_sp] in EC. congruence.
        -- pose proof (act_at_is q l au _ EX IS eq_refl) as EC. cbn [a_sp] in EC. congruence.
      * exfalso. destruct K as (_ & ->). destruct W as (_ & _ & _ & W4). unfold is_nonterm in W4. lia.
      * destruct (fn_red _ _ _ _ _ FN q ap l au t x EA EX I0) as [K1|K1].
        -- pose proof (act_at_is q l au _ EX K1 eq_refl) as EC. cbn [a_sp] in EC. congruence.
        -- rewrite (dflt_is q l au x EX K1) in ED. inversion ED; subst x. auto.
    + cbn [report_consts k_errAction]. rewrite (gk_ns _ _ _ _ _ _ _ _ GK). split; [intros HU; lia|]. split; [intros HU; lia|]. lia.
Qed.

Lemma back : forall es id ts P, cacc es id ts P -> Forall (fun t => 0 < t < g_nterm g) ts -> forall qs gm, srel qs es gm -> concl qs id ts gm P.
Proof.
  intros es id ts P H. destruct (consts_ok _ _ _ _ _ _ _ _ GK) as (C1 & C2 & C3 & C4 & C5 & C6 & C7).
  induction H as [e b id EA|e es v n lhs b act T id ts P EF LV GN GL NB EG H IH|e es v t id ts P EF LV H IH]; intros FT qs gm S.
  - apply (settle _ _ _ _ _ _ _ S FT). clear qs gm S. intros q qs gm S TOP. exfalso.
    destruct (srel_path _ _ _ S) as (q' & r' & E & PT). inversion E; subst q' r'. clear E.
    destruct (list_at q (path_lt _ _ PT)) as (ap & l & au & EAP & EX).
    destruct TOP as [RT|(r & AU & EV)].
    + destruct (look_back _ _ 0 _ _ RT (hd_lt [] FT) EAP EA) as (_ & _ & K). auto.
    + destruct (auto_facts g o c A aps xs sorted nx GK _ _ AU) as (rl & R & _). rewrite EV, (find_pend _ r rl R) in EA. inversion EA. lia.
  - apply (settle _ _ _ _ _ _ _ S FT). clear qs gm S. intros q qs gm S TOP. pose proof (hd_lt _ FT) as HL.
    destruct (srel_path _ _ _ S) as (q' & r' & E & PT). inversion E; subst q' r'. clear E.
    destruct (list_at q (path_lt _ _ PT)) as (ap & l & au & EA & EX).
    assert (K : exists r rl, v = (MINR + Z.of_nat (irule r))%Z /\ rule_of g r = Some rl /\ has_item A q (r, length (r_rhs rl)) /\ (r_rhs rl = [] -> rst q (e_state e)) /\
      (la g gm (r, length (r_rhs rl)) (hd 0 ts) -> In (mkAction REDUCE (hd 0 ts) r) ap)).
    { destruct TOP as [RT|(r & AU & EV)].
      - destruct (look_back _ _ _ _ _ RT HL EA EF) as (_ & K & _). destruct (K LV) as (r & rl & K1 & K2 & K3 & K4). exists r, rl. split; [auto|]. split; [auto|]. split; [auto|]. split; [auto|]. exact (K4 gm PT).
      - destruct (auto_facts g o c A aps xs sorted nx GK _ _ AU) as (rl & R & HI & _ & NE). exists r, rl.
        rewrite EV, (find_pend _ r rl R) in EF. inversion EF. split; auto. split; auto. split; auto. split; [congruence|].
        intros L. eapply red_in; eauto. }
    destruct K as (r & rl & -> & R & HI & HE & HR). replace (MINR + Z.of_nat (irule r) - MINR)%Z with (Z.of_nat (irule r)) in * by lia.
    destruct (gk_rule _ _ _ _ _ _ _ _ GK r rl R) as (GL' & GN'). rewrite (schar_small _ (R128 _ _ R)) in GN'.
    rewrite GN in GN'. rewrite GL in GL'. assert (n = length (r_rhs rl)) by (injection GN'; lia). subst n. assert (lhs = Z.of_nat (r_lhs rl)) by congruence. subst lhs. clear GN' GL'.
    pose proof (item_valid g A _ _ _ _ PT HI) as V. destruct (valid_split g r rl _ _ R V) as (gm' & EGM & V0 & _). rewrite firstn_all in EGM. subst gm.
    destruct (srel_pop _ _ _ _ S) as (q0 & qs0 & b' & es0 & E1 & E2 & S0 & HRR & NB' & _). rewrite NB in NB'. inversion NB'; subst b'. clear NB'.
    assert (RB : rst q0 (e_state b)).
    { destruct (r_rhs rl) as [|Y l'] eqn:ER; [|apply HRR; discriminate]. cbn in E1, E2. inversion E1; inversion E2; subst. apply HE; auto. }
    destruct (srel_path _ _ _ S0) as (q' & r' & E & P0). inversion E; subst q' r'. clear E.
    destruct (goto_entry _ _ _ _ P0 V0 R) as (x & a & EX0 & IA & XA & SP & CASE).
    assert (NB2 : g_nterm g <= r_lhs rl < g_nsym g) by (apply (lhs_nonterm g r); [auto|exists rl; auto]).
    rewrite (goto_look q0 (e_state b) a (r_lhs rl) RB) in EG; eauto. inversion EG; subst act. clear EG. rewrite E2 in H, IH.
    assert (FIN : ctx g (ESym (r_lhs rl) :: gm') ts -> (In (mkAction REDUCE (hd 0 ts) r) ap -> exists P', arun (q :: qs) id ts P' /\ elided elidable P' (Re (Z.of_nat (irule r)) :: P)) ->
       concl (q :: qs) id ts (rev (r_rhs rl) ++ gm') (Re (Z.of_nat (irule r)) :: P)).
    { intros CX K. split; [|apply (ctx_reduce _ _ _ _ _ R CX)]. apply K, HR. pose proof (la_run g r rl _ _ (length (r_rhs rl)) R (ctx_la _ _ _ _ _ R CX) ltac:(lia)) as L1.
      rewrite firstn_all in L1. auto. }
    destruct CASE as [(LS & EG & EQ & EC)|(ap0 & q1 & EA0 & I0 & T1 & CR)].
    + rewrite EC in H. clear IH. subst gm' q0.
      assert (X : es0 = [] /\ ts = [] /\ P = []).
      { clear - H C1 C2 C3 C4 C5 C6 C7. remember (mkEntry ACC (Z.of_nat (r_lhs rl)) T :: b :: es0) as E eqn:EE.
        destruct H as [e b1 id EA|e es v n lhs b1 act T1 id ts P EF LV GN GL NB EG H|e es v t id ts P EF LV H]; inversion EE; subst; auto.
        - exfalso. cbn [e_state] in EF. unfold yy_find_shift_action in EF. destruct (Z.ltb_spec MAXS ACC); [|lia]. inversion EF; subst v. lia.
        - exfalso. cbn [e_state] in EF. unfold yy_find_shift_action in EF. destruct (Z.ltb_spec MAXS ACC); [|lia]. inversion EF; subst v. lia. }
      destruct X as (-> & -> & ->). apply FIN; [rewrite LS; apply ctx_start|]. cbn [hd]. intros IR.
      assert (Q0 : qs0 = []). { destruct (srel_pop [] _ _ _ S0) as (? & ? & ? & ? & _ & _ & _ & _ & _ & L). destruct qs0; auto. cbn in L. lia. } subst qs0.
      exists [Re (Z.of_nat (irule r))]. split; [eapply ar_acc; eauto|]. constructor. constructor.
    + assert (S1 : srel (q1 :: q0 :: qs0) (mkEntry (code_of g o sorted a) (Z.of_nat (r_lhs rl)) T :: b :: es0) (ESym (r_lhs rl) :: gm')) by (econstructor; eauto).
      destruct (IH FT _ _ S1) as ((P' & AR & EL) & CX). apply FIN; auto. intros IR.
      exists (Re (Z.of_nat (irule r)) :: P'). split; [eapply ar_red; eauto|]. constructor. auto.
  - inversion FT as [|? ? T1 T2]; subst. apply (settle _ _ _ _ _ _ _ S FT). clear qs gm S. intros q qs gm S TOP.
    destruct (srel_path _ _ _ S) as (q' & r' & E & PT). inversion E; subst q' r'. clear E.
    destruct (list_at q (path_lt _ _ PT)) as (ap & l & au & EA & EX).
    destruct TOP as [RT|(r & AU & EV)].
    + destruct (look_back _ _ t _ _ RT (proj2 T1) EA EF) as (K & _). destruct (K LV) as (q2 & I2 & UC).
      destruct (shift_tr _ _ _ _ EA I2) as (X & HX & T).
      assert (S1 : srel (q2 :: q :: qs) (mkEntry (if (MAXS <? v)%Z then v + (MINR - MINSR) else v)%Z (Z.of_nat t) (Tok id) :: e :: es) (X :: gm)).
      { econstructor; eauto. cbn [e_state]. apply act_crel; auto. }
      destruct (IH T2 _ _ S1) as ((P' & AR & EL) & CX). split.
      * exists (Sh id :: P'). split; [eapply ar_shift; eauto|constructor; auto].
      * assert (WX : wf_elem g X). { destruct T as (I & sh & J & sh' & _ & _ & (i & _ & AD) & _). eapply after_dot_wf; eauto. }
        apply (ctx_shift g gm ts X t WX); auto. unfold is_term. lia.
    + exfalso. destruct (auto_facts g o c A aps xs sorted nx GK _ _ AU) as (rl & R & _).
      rewrite EV, (find_pend _ r rl R) in EF. inversion EF; subst v. lia.
Qed.

(** One call of the driver. *)
Lemma run_cacc : forall grow m mi p hit p', run c grow m mi p hit p' -> (p_errcnt p < 0)%Z -> clean (p_log p') -> p_stack p <> [] ->
  exists n, psteps (p_log p') = psteps (p_log p) ++ n /\
   (((In EvAccept (p_log p') -> In EvAccept (p_log p)) /\
      forall t id, m = Z.of_nat t -> mi = Tok id -> forall ts P, cacc (p_stack p') (S id) ts P -> cacc (p_stack p) id (t :: ts) (n ++ P)) \/
    In EvAccept (p_log p') /\ (m = 0%Z -> forall id, cacc (p_stack p) id [] n)).
Proof.
  intros grow m mi p hit p' H. destruct (consts_ok _ _ _ _ _ _ _ _ GK) as (C1 & C2 & C3 & C4 & C5 & C6 & C7).
  assert (BADEV : forall p1 p', run c grow m mi p1 true p' \/ True -> forall l m1 v1, p_log p' = l -> clean l -> In (EvSyntaxError m1 v1) l -> False).
  { intros p1 p2 _ l m1 v1 _ CL I. apply (CL _ I). }
  assert (RED : forall p v cap p1 act p' , looks c m p v -> (MINR <= v)%Z -> yy_reduce c (with_cap p cap) (v - MINR) = Ok (p1, act) ->
    (exists n, psteps (p_log p') = psteps (p_log p1) ++ n /\
     (((In EvAccept (p_log p') -> In EvAccept (p_log p1)) /\
      forall t id, m = Z.of_nat t -> mi = Tok id -> forall ts P, cacc (p_stack p') (S id) ts P -> cacc (p_stack p1) id (t :: ts) (n ++ P)) \/
      In EvAccept (p_log p') /\ (m = 0%Z -> forall id, cacc (p_stack p1) id [] n))) ->
    exists n, psteps (p_log p') = psteps (p_log p) ++ n /\
     (((In EvAccept (p_log p') -> In EvAccept (p_log p)) /\
      forall t id, m = Z.of_nat t -> mi = Tok id -> forall ts P, cacc (p_stack p') (S id) ts P -> cacc (p_stack p) id (t :: ts) (n ++ P)) \/
      In EvAccept (p_log p') /\ (m = 0%Z -> forall id, cacc (p_stack p) id [] n))).
  { clear. intros p v cap p1 act p' (e & r & ES & EF) LV HR (n & PS & K).
    apply reduce_ok in HR as (k & lhs & b & N1 & N2 & N3 & N4 & N5 & N6 & N7). cbn [with_cap p_stack p_errcnt p_cap p_log] in *.
    exists (Re (v - MINR) :: n). split.
    { rewrite PS, N7. cbn [p_log]. rewrite psteps_cons, psteps_oob. cbn [psteps1]. rewrite <- app_assoc. auto. }
    destruct K as [(KA & K)|(KA & K)]; [left|right].
    - split.
      + intros I. apply KA in I. rewrite N7 in I. cbn [p_log] in I. destruct I as [I|I]; [discriminate|]. apply oob_acc in I. auto.
      + intros t id -> -> ts P CA. cbn [app]. rewrite ES in *. apply (ca_red e r v k lhs b act (Nod (v - MINR) (map e_minor (rev (firstn k (e :: r)))))); auto.
        specialize (K t id eq_refl eq_refl ts P CA). rewrite N7 in K. cbn [p_stack] in K. exact K.
    - split; auto. intros -> id. rewrite ES in *. apply (ca_red e r v k lhs b act (Nod (v - MINR) (map e_minor (rev (firstn k (e :: r)))))); auto.
      specialize (K eq_refl id). rewrite N7 in K. cbn [p_stack] in K. exact K. }
  assert (SAME : forall p, p = with_cap p (p_cap p)) by (intros []; auto).
  assert (ECR : forall p v cap p1 act, yy_reduce c (with_cap p cap) v = Ok (p1, act) -> p_errcnt p1 = p_errcnt p /\ p_stack p1 <> []).
  { intros q v cap p1 act HR. apply reduce_ok in HR as (k & lhs & b & N1 & N2 & N3 & N4 & N5 & N6 & N7). rewrite N7. cbn. split; [auto|discriminate]. }
  induction H as [p hit v n p1 act p' LK L NR CP HR H IH|p hit v cap p1 act p' LK L NR CP GR HR H IH|p hit v p' LK L NR CP GR HO|
    p hit v p1 LK L1 L2 HS|p hit e b LK L1 L2 EP|p hit es e r p0 LK L1 L2 ES EP B EP0|
    p hit es e r p0 p1 a p2 LK L1 L2 ES EP NM HH EP0 EPOP TI HF|p hit es e r p0 p1 a p2 p' LK L1 L2 ES EP NM HH EP0 EPOP TI MN HS H IH|
    p hit p0 LK L1 L2 ES MN EP0|p hit p0 p2 LK L1 L2 ES MN EP0 HF]; intros EC CL NE.
  - rewrite (SAME p) in HR. destruct (ECR _ _ _ _ _ HR) as (E1 & E2). eapply RED; eauto. apply IH; auto. lia.
  - destruct (ECR _ _ _ _ _ HR) as (E1 & E2). eapply RED; eauto. apply IH; auto. lia.
  - exfalso. apply overflow_ok in HO as (ab & b & E & ->); auto. apply (CL EvOverflow). left; auto.
  - destruct LK as (e & r & EP & EF). pose proof (shift_ok _ _ _ _ _ _ _ HS) as SO. cbv zeta in SO.
    destruct SO as [(cap & CAP & ->)|(_ & _ & HO)].
    + destruct mi as [id0|? ?].
      * exists [Sh id0]. cbn [with_errcnt p_log p_stack]. split; [rewrite psteps_cons, psteps_oob; auto|]. left. split.
        -- intros [I|I]; [discriminate|]. apply oob_acc in I. auto.
        -- intros t id -> E ts P CA. inversion E; subst id0. cbn [app]. rewrite EP in *. eapply ca_shift; eauto.
      * exists []. cbn [with_errcnt p_log p_stack]. split; [rewrite psteps_cons, psteps_oob; auto|]. left. split.
        -- intros [I|I]; [discriminate|]. apply oob_acc in I. auto.
        -- intros t id _ E. discriminate.
    + exfalso. apply overflow_ok in HO as (ab & b & E & ->); auto. apply (CL EvOverflow). left; auto.
  - exists []. cbn [logev with_errcnt with_stack p_log]. split; [rewrite psteps_cons; auto|]. right. split; [left; auto|]. intros -> id. rewrite EP.
    destruct LK as (e' & r' & EP' & EF). rewrite EP in EP'. inversion EP'; subst e' r'. apply ca_acc. auto.
  - exfalso. destruct (Z.ltb_spec (p_errcnt p) 0); [|lia]. subst p0. cbn in CL. apply (CL (EvSyntaxError m mi)). right; left; auto.
  - exfalso. destruct (Z.ltb_spec (p_errcnt p) 0); [|lia]. subst p0.
    apply error_pop_ok in EPOP as (ab & rest & E1 & NR & ->); [|cbn; auto].
    apply failed_ok in HF as (ab2 & b & E2 & ->); [|cbn; auto]. cbn in CL. apply (CL (EvSyntaxError m mi)).
    right. apply in_or_app. right. right. apply in_or_app. right. left. auto.
  - exfalso. destruct (Z.ltb_spec (p_errcnt p) 0); [|lia]. subst p0.
    apply error_pop_ok in EPOP as (ab & rest & E1 & NR & ->); [|cbn; auto].
    assert (X : In (EvSyntaxError m mi) (p_log p2) /\ p_stack p2 <> []).
    { pose proof (shift_ok _ _ _ _ _ _ _ HS) as SO. cbv zeta in SO. destruct SO as [(cap & CAP & ->)|(_ & _ & HO)].
      - cbn [p_log p_stack]. split; [|discriminate]. right. apply in_or_app. right. apply in_or_app. right. left. auto.
      - apply overflow_ok in HO as (ab2 & b & E & ->); [|cbn; auto]. cbn. split; [|discriminate]. right. apply in_or_app. right. apply in_or_app. right. left. auto. }
    destruct X as (X1 & X2). destruct (run_log c _ _ _ _ _ _ H) as (_ & (nw & EN)); [cbn; auto|]. rewrite EN in CL. apply (CL (EvSyntaxError m mi)).
    apply in_or_app. right. cbn. auto.
  - exfalso. destruct (Z.leb_spec (p_errcnt p) 0); [|lia]. subst p0. cbn in CL. apply (CL (EvSyntaxError m mi)). right; left; auto.
  - exfalso. destruct (Z.leb_spec (p_errcnt p) 0); [|lia]. subst p0.
    apply failed_ok in HF as (ab2 & b & E2 & ->); [|cbn; auto]. cbn in CL. apply (CL (EvSyntaxError m mi)).
    right. apply in_or_app. right. right. left. auto.
Qed.

End Back.


(** The whole input. *)
Lemma feed_cacc : forall grow fuel toks p p2 p' id w, feed c grow fuel p (map Z.of_nat toks) id = Ok p2 -> Parse c grow fuel p2 0 (Tok 0) = Ok p' ->
  Forall (fun t => 0 < t < g_nterm g) toks -> Inv g o A sorted nx (tops0 g o c A sorted nx) p w -> clean (p_log p') -> In EvAccept (p_log p') ->
  exists P, psteps (p_log p') = psteps (p_log p) ++ P /\ cacc (p_stack p) id toks P.
Proof.
  intros grow fuel toks.
  assert (UP : forall la p w, Inv g o A sorted nx (tops0 g o c A sorted nx) p w -> Inv g o A sorted nx (tops g o c A sorted nx la) p w).
  { intros la p w (gm & e & r & X1 & X2 & X3 & X4). exists gm, e, r. split; auto. split; auto. split; auto.
    destruct X3 as [X3|X3]; [left; auto|right; left; auto]. }
  assert (LOGM : forall toks p p' id, feed c grow fuel p (map Z.of_nat toks) id = Ok p' -> p_stack p <> [] -> p_stack p' <> [] /\ exists n, p_log p' = n ++ p_log p).
  { induction toks0 as [|t toks0 IH]; intros p p' id H NE; cbn [map feed] in H; [inversion H; subst; split; auto; exists []; auto|].
    apply bind_Ok in H as (p1 & HP & H). apply Parse_run in HP. apply run_log in HP as (N1 & (n1 & E1)); auto.
    destruct (IH _ _ _ H N1) as (N2 & n2 & E2). split; auto. exists (n2 ++ n1). rewrite E2, E1. apply app_assoc. }
  induction toks as [|t toks IH]; intros p p2 p' id w H HP FT IV CL AC; cbn [map feed] in H.
  - inversion H; subst p2. apply Parse_run in HP. destruct IV as (gm & e & r & X1 & X2 & X3 & X4 & X5 & X6).
    destruct (run_cacc _ _ _ _ _ _ HP X5 CL) as (n & PS & [(NA & _)|(_ & K)]); [rewrite X1; discriminate|exfalso; auto|]. exists n. split; auto.
  - apply bind_Ok in H as (p1 & HP1 & H). inversion FT as [|? ? T1 T2]; subst. apply Parse_run in HP1.
    assert (IV' := IV). destruct IV' as (gm & e & r & X1 & X2 & X3 & X4 & X5 & X6).
    assert (NE : p_stack p <> []) by (rewrite X1; discriminate).
    destruct (run_log _ _ _ _ _ _ _ HP1 NE) as (NE1 & _). destruct (LOGM _ _ _ _ H NE1) as (NE2 & n & EL).
    assert (HPR := HP). apply Parse_run in HPR. destruct (run_log _ _ _ _ _ _ _ HPR NE2) as (_ & n2 & EL2).
    assert (CL1 : clean (p_log p1)). { rewrite EL2, EL in CL. apply clean_app in CL. apply clean_app in CL. auto. }
    destruct (run_inv g o c A aps xs sorted nx W SNR OO GK R128 grow t id p false p1 w HP1 ltac:(lia) (UP t _ _ IV) CL1) as [IV1|(E0 & _)]; [|lia].
    destruct (run_cacc _ _ _ _ _ _ HP1 X5 CL1 NE) as (n1 & PS & [(_ & K)|(BAD & _)]).
    + destruct (IH p1 p2 p' (S id) _ H HP T2 IV1 CL AC) as (P & PS2 & CA). exists (n1 ++ P). split; [rewrite PS2, PS, app_assoc; auto|].
      apply (K t id eq_refl eq_refl). auto.
    + exfalso. destruct IV1 as (? & ? & ? & _ & _ & _ & _ & _ & NA). auto.
Qed.

End Machine.

Lemma arun_opts : forall g o o' aps, opts_rinfo o = opts_rinfo o' -> forall qs id ts P, arun g o aps qs id ts P -> arun g o' aps qs id ts P.
Proof. intros g o o' aps E qs id ts P H. induction H; rewrite ?E; [eapply ar_shift|eapply ar_red|eapply ar_acc]; eauto. Qed.

(** * What resolution leaves *)

Section Survive.
Variable p : precs.
Variable ps : list (option nat).
(** No %nonassoc and no %precedence. *)
Hypothesis AS : forall t, p_prec p t <> None -> p_assoc p t <> NONE /\ p_assoc p t <> PRECEDENCE.

Lemma conflict_survive : forall x y x' y' n, resolve_conflict p ps x y = Ok (x', y', n) ->
  a_sp x' = a_sp x /\ a_sp y' = a_sp y /\ (a_type x' = ERROR -> a_type x = ERROR) /\ (a_type y' = ERROR -> a_type y = ERROR) /\
  (live x = true \/ live y = true -> live x' = true \/ live y' = true).
Proof.
  intros [tx sx ax] [ty sy ay] x' y' n H. unfold resolve_conflict in H. simpl in H.
  destruct (Nat.eqb_spec sx sy) as [<-|N]; simpl in H; [|discriminate].
  unfold live, with_type in *. simpl.
  destruct tx, ty; simpl in H; try discriminate;
    try (inv_ok H; simpl; intuition (congruence || auto); fail).
  - destruct (nth_error ps ay) as [o|]; simpl in H; [|discriminate].
    destruct o as [spy|]; [|inv_ok H; simpl; intuition congruence].
    destruct (p_prec p sx) as [px|] eqn:EX; [|inv_ok H; simpl; intuition congruence].
    destruct (p_prec p spy) as [py|]; [|inv_ok H; simpl; intuition congruence].
    destruct (py <? px); [inv_ok H; simpl; intuition congruence|].
    destruct (px <? py); [inv_ok H; simpl; intuition congruence|].
    destruct (AS sx) as (A1 & A2); [congruence|].
    destruct (p_assoc p sx); try congruence; inv_ok H; simpl; intuition congruence.
  - destruct (nth_error ps ax) as [ox|]; simpl in H; [|discriminate].
    destruct (nth_error ps ay) as [oy|]; simpl in H; [|discriminate].
    destruct ox as [spx|], oy as [spy|]; try (inv_ok H; simpl; intuition congruence).
    destruct (p_prec p spx) as [px|], (p_prec p spy) as [py|]; try (inv_ok H; simpl; intuition congruence).
    destruct (px =? py); [inv_ok H; simpl; intuition congruence|].
    destruct (py <? px); inv_ok H; simpl; intuition congruence.
Qed.

Definition has_live (s : nat) (l : list action) : Prop := exists a, In a l /\ live a = true /\ a_sp a = s.
Definition no_err (l : list action) : Prop := forall a, In a l -> a_type a <> ERROR.

Lemma inner_survive : forall rest ap ap' rest' n, resolve_inner p ps ap rest = Ok (ap', rest', n) ->
  a_sp ap' = a_sp ap /\ (no_err (ap :: rest) -> no_err (ap' :: rest')) /\ forall s, has_live s (ap :: rest) -> has_live s (ap' :: rest').
Proof.
  induction rest as [|nap r IH]; intros ap ap' rest' n H; cbn [resolve_inner] in H.
  - inv_ok H. auto.
  - destruct (Nat.eqb_spec (a_sp nap) (a_sp ap)) as [E|E]; [|inv_ok H; auto].
    apply bind_Ok in H as ([[ap1 nap1] k] & H1 & H). apply bind_Ok in H as ([[ap2 r2] m] & H2 & H). inv_ok H.
    apply conflict_survive in H1 as (E1 & E2 & N1 & N2 & LV). apply IH in H2 as (E3 & NE & SV). split; [congruence|]. split.
    + intros NH a I.
      assert (N0 : no_err (ap1 :: r)). { intros b [<-|J]; [intros T; apply N1 in T; apply (NH ap); [left|]; auto|apply NH; right; right; auto]. }
      specialize (NE N0). destruct I as [<-|[<-|I]]; [apply NE; left; auto| |apply NE; right; auto].
      intros T. apply N2 in T. apply (NH nap); [right; left|]; auto.
    + intros s (a & I & LA & SA).
      assert (UP : has_live s (ap1 :: r) -> has_live s (ap' :: nap1 :: r2)).
      { intros K. apply SV in K as (b & [<-|J] & LB & SB); [exists ap'|exists b]; cbn; auto. }
      assert (BOTH : live ap = true \/ live nap = true -> a_sp ap = s -> has_live s (ap' :: nap1 :: r2)).
      { intros K SP. apply LV in K as [K|K]; [apply UP; exists ap1; cbn; split; auto; split; auto; congruence|exists nap1; cbn; split; auto; split; auto; congruence]. }
      destruct I as [<-|[<-|I]]; [apply BOTH; auto|apply BOTH; auto; congruence|apply UP; exists a; cbn; auto].
Qed.

Lemma list_survive : forall f l l' n, resolve_list f p ps l = Ok (l', n) ->
  (no_err l -> no_err l') /\ forall s, has_live s l -> has_live s l'.
Proof.
  induction f as [|f IH]; intros [|ap rest] l' n H; cbn [resolve_list] in H; try discriminate.
  1, 2: inv_ok H; auto.
  apply bind_Ok in H as ([[ap1 rest1] k] & H1 & H). apply bind_Ok in H as ([rest2 m] & H2 & H). inv_ok H.
  apply inner_survive in H1 as (_ & NE & SV). apply IH in H2 as (NE2 & SV2). split.
  - intros NH a [<-|I]; [apply (NE NH); left; auto|]. apply NE2; auto. intros b J. apply (NE NH). right; auto.
  - intros s K. apply SV in K as (a & [<-|I] & LA & SA); [exists ap1; cbn; auto|].
    destruct (SV2 s) as (b & J & LB & SB); [exists a; auto|]. exists b. cbn. auto.
Qed.
End Survive.

(** The action lists of FindActions as the resolved lists it built. *)
Lemma actions_raw : forall sf ff o g aps, wf_grammar g -> small_lists sf ff g -> lemon_actions sf ff o g = Ok aps ->
  exists L raw ps, lemon_front sf ff g = Ok L /\ actions_added g L = Ok raw /\ length raw = length (states_view L) /\ length aps = length raw /\
  forall q ap, nth_error aps q = Some ap -> exists rw addr m, nth_error raw q = Some rw /\
     resolve_list (length rw) (o_precs o) ps (Action_sort addr rw) = Ok (ap, m) /\ Permutation (Action_sort addr rw) rw.
Proof.
  intros sf ff o g aps W (SZ & SL) H. unfold lemon_actions in H. apply bind_Ok in H as (L2 & HL & H). cbv zeta in H.
  apply bind_Ok in H as ([[aps1 n] bad] & HA & H). inversion H; subst aps1. clear H.
  destruct (C04_action_lists _ _ _ _ W SZ HL) as (raw & ER & LR & _).
  apply FindActions_inv in HA as (raw' & ER' & HA). rewrite ER in ER'. inversion ER'; subst raw'. clear ER'.
  apply resolve_states_inv in HA as (ns & _ & L3 & _ & P).
  exists L2, raw, (FindRulePrecedences (o_ignorePrec o) (o_yaccPrec o) (o_precs o) g (o_precsym o)). split; auto. split; auto. split; auto. split; auto.
  intros q ap Hq. pose proof (nth_error_Some_lt _ _ _ _ Hq) as LT.
  destruct (nth_error_lt_ex _ raw q) as (rw & Hrw); [congruence|].
  destruct (P q rw Hrw) as (ap' & m & Hq' & _ & R). rewrite Hq in Hq'. inversion Hq'; subst ap'.
  exists rw, (o_addr1 o (0 + q)), m. split; auto. split; auto.
  apply Action_sort_perm. apply (SL L2 raw rw HL ER (nth_error_In _ _ Hrw)).
Qed.

Lemma actions_survive : forall sf ff o g aps L, wf_grammar g -> small_lists sf ff g -> lemon_actions sf ff o g = Ok aps -> lemon_front sf ff g = Ok L ->
  (forall t, p_prec (o_precs o) t <> None -> p_assoc (o_precs o) t <> NONE /\ p_assoc (o_precs o) t <> PRECEDENCE) ->
  (forall ap a, In ap aps -> In a ap -> iserr a = false) /\
  (forall q ap gm r rl t, nth_error aps q = Some ap -> path g (states_view L) gm q -> rule_of g r = Some rl ->
     la g gm (r, length (r_rhs rl)) t -> t < g_nterm g -> exists a, In a ap /\ exec a = true /\ a_sp a = t).
Proof.
  intros sf ff o g aps L W SM HA HL AS. destruct (actions_raw _ _ _ _ _ W SM HA) as (L2 & raw & ps & HL2 & ER & LR & LA & P).
  rewrite HL in HL2. inversion HL2; subst L2. clear HL2.
  destruct (C04_action_lists _ _ _ _ W (proj1 SM) HL) as (raw' & ER' & _ & CH). rewrite ER in ER'. inversion ER'; subst raw'. clear ER'.
  assert (TY : forall q rw a, nth_error raw q = Some rw -> In a rw -> a_type a = SHIFT \/ a_type a = REDUCE \/ a_type a = ACCEPT).
  { intros q rw a Hq I. destruct (nth_error_lt_ex _ (states_view L) q) as ([J sh] & HJ); [rewrite <- LR; eapply nth_error_Some_lt; eauto|].
    destruct (CH q J sh rw HJ Hq) as (_ & _ & _ & C4 & _). auto. }
  split.
  - intros ap a IA I. apply In_nth_error in IA as (q & Hq). destruct (P q ap Hq) as (rw & addr & m & Hrw & R & PM).
    destruct (list_survive _ _ AS _ _ _ _ R) as (NE & _). unfold iserr. destruct (a_type a) eqn:T; auto. exfalso. eapply NE; eauto.
    intros b J TB. apply (Permutation_in _ PM) in J. destruct (TY q rw b Hrw J) as [X|[X|X]]; congruence.
  - intros q ap gm r rl t Hq (I & sh & EI & VS) R LAr LT. destruct (P q ap Hq) as (rw & addr & m & Hrw & RR & PM).
    destruct (list_survive _ _ AS _ _ _ _ RR) as (_ & SV). destruct (CH q I sh rw EI Hrw) as (_ & C2 & _).
    assert (IR : In (mkAction REDUCE t r) rw).
    { apply C2. split; auto. exists rl. split; auto. split; [apply VS; eapply la_valid; eauto|]. exists gm. auto. }
    destruct (SV t) as (a & IA & LV & SP). { exists (mkAction REDUCE t r). split; [apply (Permutation_in _ (Permutation_sym PM)); auto|]. auto. }
    exists a. split; auto. split; auto. unfold live, livet in LV. unfold exec. destruct (a_type a); auto; discriminate.
Qed.
