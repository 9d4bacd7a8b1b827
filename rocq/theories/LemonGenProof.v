(** What the generator guarantees about the parser it emits: the chain from the
    grammar through FindActions, CompressTables, ResortStates and ReportTable to
    the lookups of the driver. *)
From Coq Require Import List ZArith NArith Bool Lia Arith Permutation Sorted.
Import ListNotations.
From Verif Require Import Base CLib SpecGrammar SpecGrammarFacts SpecLRFacts SpecLR0 LemonSetModel LemonFirstModel
  LemonSortModel LemonSortProof LemonStatesModel LemonStatesProof Prop_LemonStates LemonFollowModel LemonFollowProof
  LemonActionModel LemonActionProof Prop_LemonAction Prop_LemonSort LemonCompressModel LemonCompressProof
  LemonActtabModel LemonActtabProof LemonReportModel LemonParModel LemonPipelineModel LemonReportProof LemonLookupProof Prop_LemonTables.
Local Open Scope res_scope.

(** No right-hand side uses the start symbol (lemon reports an error for a
    grammar where one does). *)
Definition start_not_rhs (g : grammar) : Prop :=
  forall rl, In rl (g_rules g) -> ~ In (ESym (g_start g)) (r_rhs rl).

(** The transitions of an automaton, by symbol. *)
Definition has_item (A : list lr0_state) (q : nat) (i : item) : Prop :=
  exists I sh, nth_error A q = Some (I, sh) /\ In i I.
Definition trans (g : grammar) (A : list lr0_state) (q : nat) (X : elem) (q' : nat) : Prop :=
  exists I sh J sh', nth_error A q = Some (I, sh) /\ nth_error A q' = Some (J, sh') /\ successor g I X J.
Definition tr (g : grammar) (A : list lr0_state) (q s q' : nat) : Prop :=
  exists X, In s (elem_syms X) /\ trans g A q X q'.
(** The rule is complete in the state. *)
Definition done (g : grammar) (A : list lr0_state) (q r : nat) : Prop :=
  exists rl, rule_of g r = Some rl /\ has_item A q (r, length (r_rhs rl)).
Definition done_la (g : grammar) (A : list lr0_state) (q r t : nat) : Prop :=
  exists rl I sh gm, rule_of g r = Some rl /\ nth_error A q = Some (I, sh) /\ In (r, length (r_rhs rl)) I /\
    is_valid_set g gm I /\ la g gm (r, length (r_rhs rl)) t.

Lemma lt_pow : forall n k, (N.of_nat n < 2 ^ N.of_nat k)%N -> n < 2 ^ k.
Proof. intros n k H. apply Nat.compare_lt_iff. rewrite Nat2N.inj_compare, Nat2N.inj_pow. exact H. Qed.

Lemma filter_one : forall (A : Type) (f : A -> bool) l i j a b, length (filter f l) <= 1 ->
  nth_error l i = Some a -> nth_error l j = Some b -> f a = true -> f b = true -> i = j.
Proof.
  intros A f. induction l as [|x l IH]; intros i j a b L Hi Hj Fa Fb; [destruct i; discriminate|]. cbn [filter] in L.
  assert (NIL : f x = true -> forall k y, nth_error l k = Some y -> f y = true -> False).
  { intros FX k y Hk Fy. rewrite FX in L. apply nth_error_In in Hk.
    assert (I : In y (filter f l)) by (apply filter_In; auto). destruct (filter f l); [destruct I|simpl in L; lia]. }
  destruct i as [|i], j as [|j]; simpl in *; auto.
  - inversion Hi; subst. exfalso. eapply NIL; eauto.
  - inversion Hj; subst. exfalso. eapply NIL; eauto.
  - f_equal. apply (IH i j a b); auto. destruct (f x); simpl in L; lia.
Qed.

(** * The action lists after FindActions *)

Lemma acts_nt : forall g X q s, wf_elem g X -> g_nterm g <= s ->
  filter (fun a => a_sp a =? s) (acts X q) = if elem_eq_dec X (ESym s) then [mkAction SHIFT s q] else [].
Proof.
  intros g X q s W NT. destruct X as [s'|l].
  - unfold acts, add_shifts, Action_add. cbn [filter a_sp]. destruct (Nat.eqb_spec s' s) as [->|N].
    + destruct (elem_eq_dec (ESym s) (ESym s)); [reflexivity|congruence].
    + destruct (elem_eq_dec (ESym s') (ESym s)); [congruence|reflexivity].
  - destruct (elem_eq_dec (EMulti l) (ESym s)); [discriminate|].
    destruct (filter (fun a => a_sp a =? s) (acts (EMulti l) q)) as [|a m] eqn:E; auto. exfalso.
    assert (I : In a (filter (fun a => a_sp a =? s) (acts (EMulti l) q))) by (rewrite E; left; auto).
    apply filter_In in I as (I & S1). apply Nat.eqb_eq in S1. apply acts_In in I as (t & Ht & ->). simpl in *.
    destruct W as (_ & W). specialize (W t Ht). unfold is_term in W. lia.
Qed.

Lemma after_dot_wf : forall g i X, wf_grammar g -> after_dot g i = Some X -> wf_elem g X.
Proof.
  intros g i X W H. unfold after_dot, rule_of in H. destruct (nth_error (g_rules g) (fst i)) as [rl|] eqn:E; [|discriminate].
  apply nth_error_In in E, H. pose proof (wf_rhs g W rl E) as F. rewrite Forall_forall in F. auto.
Qed.

Lemma after_dot_rhs : forall g i X, after_dot g i = Some X -> exists rl, In rl (g_rules g) /\ In X (r_rhs rl).
Proof.
  intros g i X H. unfold after_dot, rule_of in H. destruct (nth_error (g_rules g) (fst i)) as [rl|] eqn:E; [|discriminate].
  apply nth_error_In in E, H. eauto.
Qed.

Lemma nt_once : forall g L st s, wf_grammar g -> StDone g L st -> g_nterm g <= s ->
  length (filter (fun a => a_sp a =? s) (s_ap st)) <= 1 /\
  (start_not_rhs g -> s = g_start g -> filter (fun a => a_sp a =? s) (s_ap st) = []).
Proof.
  intros g L st s W (TL & N & SRC & AP & _) NT. rewrite AP. clear AP.
  assert (WE : forall X, In X (map fst TL) -> wf_elem g X /\ exists rl, In rl (g_rules g) /\ In X (r_rhs rl)).
  { intros X HX. apply SRC in HX as (y & _ & HA). split; [eapply after_dot_wf; eauto|eapply after_dot_rhs; eauto]. }
  clear SRC. induction TL as [|[X q] TL IH]; [simpl; auto|]. cbn [flat_map map fst snd] in *.
  rewrite filter_app, (acts_nt g X q s) by (auto; apply WE; left; auto).
  inversion N as [|? ? N1 N2]; subst. destruct IH as (I1 & I2); auto. { intros; apply WE; right; auto. }
  assert (NIL : ~ In (ESym s) (map fst TL) -> filter (fun a => a_sp a =? s) (flat_map (fun p => acts (fst p) (snd p)) TL) = []).
  { intros NI. clear - WE NI NT. induction TL as [|[Y p] TL IH]; auto. cbn [flat_map fst snd].
    rewrite filter_app, (acts_nt g Y p s) by (auto; apply WE; right; left; auto).
    destruct (elem_eq_dec Y (ESym s)) as [->|_]; [exfalso; apply NI; left; auto|]. apply IH.
    - intros X0 [H|H]; apply WE; [left|right; right]; auto.
    - intros C. apply NI. right; auto. }
  split.
  - destruct (elem_eq_dec X (ESym s)) as [->|_]; [|simpl; auto]. rewrite NIL by auto. simpl. auto.
  - intros SN ->. destruct (elem_eq_dec X (ESym (g_start g))) as [->|_]; [|simpl; auto]. exfalso.
    destruct (WE (ESym (g_start g)) (or_introl eq_refl)) as (_ & rl & R1 & R2). apply (SN rl R1 R2).
Qed.

(** The node lists fit the 30 merge slots of msort. *)
Definition small_lists (sf ff : nat) (g : grammar) : Prop :=
  (N.of_nat (item_count g) < 2 ^ 30)%N /\
  forall L aps ap, lemon_front sf ff g = Ok L -> actions_added g L = Ok aps -> In ap aps -> (N.of_nat (length ap) < 2 ^ 30)%N.

Record resolved (g : grammar) (A : list lr0_state) (aps : list (list action)) : Prop := {
  rs_auto : lr0_automaton g A;
  rs_len : length aps = length A;
  rs_uniq : forall ap, In ap aps -> uniq ap;
  rs_sp : forall ap a, In ap aps -> In a ap -> a_sp a < g_nsym g;
  rs_live : forall q ap a, nth_error aps q = Some ap -> In a ap -> exec a = true ->
    match a_type a with
    | SHIFT => tr g A q (a_sp a) (a_arg a)
    | REDUCE => a_sp a < g_nterm g /\ done_la g A q (a_arg a) (a_sp a)
    | ACCEPT => q = 0 /\ a_sp a = g_start g
    | _ => False
    end;
  rs_nt : forall ap a, In ap aps -> In a ap -> g_nterm g <= a_sp a -> exec a = true;
  rs_goto : forall q ap s q', nth_error aps q = Some ap -> g_nterm g <= s -> tr g A q s q' -> In (mkAction SHIFT s q') ap;
  rs_acc : forall ap, nth_error aps 0 = Some ap -> exists x, In (mkAction ACCEPT (g_start g) x) ap;
  rs_size : forall ap, In ap aps -> (N.of_nat (length ap) < 2 ^ 30)%N
}.

Lemma elem_sym_lt : forall g X s, wf_grammar g -> wf_elem g X -> In s (elem_syms X) -> s < g_nsym g.
Proof.
  intros g [t|l] s (W1 & W2 & _) W H; simpl in *; [destruct H as [<-|[]]; auto|].
  destruct W as (_ & W). specialize (W s H). unfold is_term in W. lia.
Qed.

Lemma live_exec : forall a, live a = true -> exec a = true.
Proof. intros a. unfold live, livet, exec. destruct (a_type a); auto. Qed.

Lemma actions_resolved : forall sf ff o g aps, wf_grammar g -> small_lists sf ff g -> start_not_rhs g ->
  lemon_actions sf ff o g = Ok aps -> exists L2, lemon_front sf ff g = Ok L2 /\ resolved g (states_view L2) aps.
Proof.
  intros sf ff o g aps W (SZ & SL) SN H. unfold lemon_actions in H. apply bind_Ok in H as (L2 & HL & H). cbv zeta in H.
  set (ps := FindRulePrecedences (o_ignorePrec o) (o_yaccPrec o) (o_precs o) g (o_precsym o)) in *.
  apply bind_Ok in H as ([[aps1 n] bad] & HA & H). inversion H; subst aps1. clear H. exists L2. split; auto.
  destruct (front_facts _ _ _ _ W SZ HL) as (L & F & FO).
  pose proof (Final_automaton g L F) as AUT. pose proof (front_view g L L2 FO) as FV. rewrite <- FV in AUT.
  destruct (C04_action_lists _ _ _ _ W SZ HL) as (raw & ER & LR & CH).
  apply FindActions_inv in HA as (raw' & ER' & HA). rewrite ER in ER'. inversion ER'; subst raw'. clear ER'.
  apply resolve_states_inv in HA as (ns & _ & L3 & _ & P).
  (* facts on one state *)
  assert (ST : forall q ap, nth_error aps q = Some ap -> exists I sh rw addr m, nth_error (states_view L2) q = Some (I, sh) /\
     nth_error raw q = Some rw /\ resolve_list (length rw) (o_precs o) ps (Action_sort addr rw) = Ok (ap, m) /\
     Permutation (Action_sort addr rw) rw /\ length ap = length rw /\ (N.of_nat (length rw) < 2 ^ 30)%N).
  { intros q ap Hq. pose proof (nth_error_Some_lt _ _ _ _ Hq) as LT.
    destruct (nth_error_lt_ex _ raw q) as (rw & Hrw); [congruence|].
    destruct (P q rw Hrw) as (ap' & m & Hq' & _ & R). rewrite Hq in Hq'. inversion Hq'; subst ap'.
    destruct (nth_error_lt_ex _ (states_view L2) q) as ([I sh] & HI); [congruence|].
    pose proof (SL L2 raw rw HL ER (nth_error_In _ _ Hrw)) as Z1.
    exists I, sh, rw, (o_addr1 o (0 + q)), m. split; auto. split; auto. split; auto.
    pose proof (Action_sort_perm (o_addr1 o (0 + q)) rw Z1) as PP. split; auto. split; auto.
    rewrite <- (Permutation_length PP). symmetry. eapply Forall2_len. eapply resolve_list_relabel; eauto. }
  assert (NTRAW : forall q rw s, nth_error raw q = Some rw -> g_nterm g <= s -> length (filter (fun a => a_sp a =? s) rw) <= 1).
  { intros q rw s Hq NT.
    assert (LL : q < length (l_states L)).
    { apply nth_error_Some_lt in Hq. rewrite LR in Hq. rewrite FV in Hq. unfold states_view in Hq. rewrite map_length in Hq. auto. }
    destruct (nth_error_lt_ex _ _ _ LL) as (st & Hst). rewrite (raw_nth g L L2 raw q st F FO ER Hst) in Hq.
    inversion Hq; subst rw. clear Hq. destruct (nt_once g L st s W (fi_done _ _ F q st Hst) NT) as (N1 & N2).
    unfold raw_of. rewrite !filter_app.
    assert (Z : filter (fun a => a_sp a =? s) (rev (flat_map (red_of g (l_cfgs L2)) (s_cfp st))) = []).
    { destruct (filter (fun a => a_sp a =? s) (rev (flat_map (red_of g (l_cfgs L2)) (s_cfp st)))) as [|a m] eqn:E; auto. exfalso.
      assert (I : In a (filter (fun a => a_sp a =? s) (rev (flat_map (red_of g (l_cfgs L2)) (s_cfp st))))) by (rewrite E; left; auto).
      apply filter_In in I as (I & S1). apply Nat.eqb_eq in S1. apply in_rev, in_flat_map in I as (x & _ & I).
      apply red_of_In in I as (_ & j & J & _ & ->). simpl in S1. lia. }
    rewrite Z. cbn [app]. destruct (q =? 0); [|auto]. cbn [filter a_sp].
    destruct (Nat.eqb_spec (g_start g) s) as [E|E]; [|auto]. rewrite N2 by auto. simpl. auto. }
  assert (NOERR : forall q rw b, nth_error raw q = Some rw -> In b rw -> a_type b = SHIFT \/ a_type b = REDUCE \/ a_type b = ACCEPT).
  { intros q rw b Hq Hb. destruct (nth_error_lt_ex _ (states_view L2) q) as ([I sh] & HI).
    { rewrite <- LR. eapply nth_error_Some_lt; eauto. }
    destruct (CH q I sh rw HI Hq) as (_ & _ & _ & C4 & _). auto. }
  assert (ERRT : forall q ap a, nth_error aps q = Some ap -> In a ap -> exec a = live a).
  { intros q ap a Hq Ha. destruct (ST q ap Hq) as (I & sh & rw & addr & m & HI & Hrw & R & PP & _).
    assert (T : a_type a <> SHIFTREDUCE).
    { apply (resolve_list_nosr _ _ _ _ _ _ R); auto. intros b Hb E. apply (Permutation_in _ PP) in Hb.
      pose proof (NOERR q rw b Hrw Hb). intuition congruence. }
    unfold exec, live, livet. destruct (a_type a); congruence. }
  assert (LIVE : forall q ap a, nth_error aps q = Some ap -> In a ap -> exec a = true -> exists rw, nth_error raw q = Some rw /\ In a rw).
  { intros q ap a Hq Ha E. rewrite (ERRT q ap a Hq Ha) in E. destruct (ST q ap Hq) as (I & sh & rw & addr & m & HI & Hrw & R & PP & _).
    pose proof (resolve_list_relabel _ _ _ _ _ _ R) as FR. destruct (Forall2_relabel_In _ _ _ FR Ha) as (b & Hb & Rb).
    exists rw. split; auto. rewrite (relabel_live _ _ Rb E). apply (Permutation_in _ PP). auto. }
  (* an action on a nonterminal survives *)
  assert (KEEP : forall q ap rw a, nth_error aps q = Some ap -> nth_error raw q = Some rw -> g_nterm g <= a_sp a -> In a rw -> In a ap).
  { intros q ap rw a Hq Hrw NT Ha. destruct (ST q ap Hq) as (I & sh & rw' & addr & m & HI & Hrw' & R & PP & _).
    rewrite Hrw in Hrw'. inversion Hrw'; subst rw'. clear Hrw'.
    apply (Permutation_in _ (Permutation_sym PP)) in Ha. apply In_nth_error in Ha as (i & Hi).
    eapply nth_error_In. eapply (resolve_list_alone _ _ _ _ _ _ i a R Hi).
    intros j x y N Hx Hy E. apply N. rewrite Hi in Hx. inversion Hx; subst x.
    assert (L1 : length (filter (fun b => a_sp b =? a_sp a) (Action_sort addr rw)) <= 1).
    { rewrite (Permutation_length (Permutation_filter _ (fun b => a_sp b =? a_sp a) _ _ PP)). apply (NTRAW q); auto. }
    apply (filter_one _ _ _ j i y a L1 Hy Hi); [rewrite E|]; apply Nat.eqb_refl. }
  assert (BACK : forall q ap a, nth_error aps q = Some ap -> In a ap -> exists rw b, nth_error raw q = Some rw /\ In b rw /\ a_sp b = a_sp a).
  { intros q ap a Hq Ha. destruct (ST q ap Hq) as (I & sh & rw & addr & m & HI & Hrw & R & PP & _).
    pose proof (resolve_list_relabel _ _ _ _ _ _ R) as FR. destruct (Forall2_relabel_In _ _ _ FR Ha) as (b & Hb & Rb).
    exists rw, b. split; auto. split; [apply (Permutation_in _ PP); auto|]. destruct Rb as (Rb & _). auto. }
  constructor.
  - exact AUT.
  - congruence.
  - intros ap Hap. apply In_nth_error in Hap as (q & Hq). destruct (ST q ap Hq) as (I & sh & rw & addr & m & HI & Hrw & R & PP & _).
    pose proof (Action_sort_sorted addr rw) as SS. split.
    + apply NoDup_filter_pos. intros i j a b Ha Hb E Xa Xb.
      apply (resolve_list_one_live _ _ _ _ _ _ (act_le_sp _ SS) R i j a b); auto;
        [rewrite <- (ERRT q ap a Hq)|rewrite <- (ERRT q ap b Hq)]; auto; eapply nth_error_In; eauto.
    + apply NoDup_filter_pos. intros i j a b Ha Hb E Xa Xb.
      apply (resolve_list_one_err _ _ _ _ _ _ (act_le_sp _ SS) (act_le_shift_first _ SS)) with (2 := R) (a := a) (b := b); auto.
      * intros c Hc T. apply (Permutation_in _ PP) in Hc. pose proof (NOERR q rw c Hrw Hc). intuition congruence.
      * unfold iserr in Xa. destruct (a_type a); congruence.
      * unfold iserr in Xb. destruct (a_type b); congruence.
  - intros ap a Hap Ha. apply In_nth_error in Hap as (q & Hq). destruct (BACK q ap a Hq Ha) as (rw & b & Hrw & Hb & <-).
    destruct (nth_error_lt_ex _ (states_view L2) q) as ([I sh] & HI). { rewrite <- LR. eapply nth_error_Some_lt; eauto. }
    destruct (CH q I sh rw HI Hrw) as (C1 & C2 & C3 & C4 & _). destruct (C4 b Hb) as [T|[T|T]]; destruct b as [ty s x]; simpl in *; subst ty.
    + destruct (proj1 (C1 _ _) Hb) as (X & J & sh' & HX & _ & (i & Hi & AD) & _). eapply elem_sym_lt; eauto. eapply after_dot_wf; eauto.
    + destruct (proj1 (C2 _ _) Hb) as (Hb' & _). destruct W as (_ & W & _). lia.
    + destruct (proj1 (C3 _ _) Hb) as (_ & -> & _). destruct W as (_ & _ & _ & W). unfold is_nonterm in W. lia.
  - intros q ap a Hq Ha E. destruct (LIVE q ap a Hq Ha E) as (rw & Hrw & Hb).
    destruct (nth_error_lt_ex _ (states_view L2) q) as ([I sh] & HI). { rewrite <- LR. eapply nth_error_Some_lt; eauto. }
    destruct (CH q I sh rw HI Hrw) as (C1 & C2 & C3 & C4 & _). destruct a as [ty s x]. simpl.
    destruct (C4 _ Hb) as [T|[T|T]]; simpl in T; subst ty.
    + destruct (proj1 (C1 _ _) Hb) as (X & J & sh' & HX & HJ & SC). exists X. split; auto. exists I, sh, J, sh'. auto.
    + destruct (proj1 (C2 _ _) Hb) as (Hb' & rl & R1 & R2 & gm & V & LA). split; auto. exists rl, I, sh, gm. auto 12.
    + destruct (proj1 (C3 _ _) Hb) as (-> & -> & _). auto.
  - intros ap a Hap Ha NT. apply In_nth_error in Hap as (q & Hq). destruct (ST q ap Hq) as (I & sh & rw & addr & m & HI & Hrw & R & PP & _).
    pose proof (resolve_list_relabel _ _ _ _ _ _ R) as FR. apply In_nth_error in Ha as (i & Hi).
    destruct (Forall2_nth _ _ _ _ _ _ _ FR Hi) as (b & Hb & Rb).
    assert (SPB : a_sp b = a_sp a) by (destruct Rb; auto).
    assert (AL : alone (Action_sort addr rw) i).
    { intros j x y N Hx Hy E. apply N. rewrite Hb in Hx. inversion Hx; subst x.
      assert (L1 : length (filter (fun b => a_sp b =? a_sp a) (Action_sort addr rw)) <= 1).
      { rewrite (Permutation_length (Permutation_filter _ (fun b => a_sp b =? a_sp a) _ _ PP)). apply (NTRAW q); auto. }
      apply (filter_one _ _ _ j i y b L1 Hy Hb); apply Nat.eqb_eq; congruence. }
    pose proof (resolve_list_alone _ _ _ _ _ _ i b R Hb AL) as Hi2. rewrite Hi in Hi2. inversion Hi2; subst b.
    apply nth_error_In in Hb. apply (Permutation_in _ PP) in Hb. pose proof (NOERR q rw a Hrw Hb) as T.
    unfold exec. destruct T as [T|[T|T]]; rewrite T; auto.
  - intros q ap s q' Hq NT (X & HX & I & sh & J & sh' & HI & HJ & SC).
    destruct (ST q ap Hq) as (I' & sh0 & rw & addr & m & HI' & Hrw & R & PP & _).
    apply (KEEP q ap rw); auto. destruct (CH q I sh rw HI Hrw) as (C1 & _). apply C1. exists X, J, sh'. auto.
  - intros ap Hq. destruct (ST 0 ap Hq) as (I & sh & rw & addr & m & HI & Hrw & R & PP & _).
    exists 0. apply (KEEP 0 ap rw); auto. { simpl. destruct W as (_ & _ & _ & W). unfold is_nonterm in W. lia. }
    destruct (CH 0 I sh rw HI Hrw) as (_ & _ & C3 & _). apply C3. auto.
  - intros ap Hap. apply In_nth_error in Hap as (q & Hq). destruct (ST q ap Hq) as (I & sh & rw & addr & m & HI & Hrw & R & PP & LL & Z1).
    rewrite LL. auto.
Qed.

(** * The lists after CompressTables *)

Section Final.
Variable g : grammar.
Variable A : list lr0_state.
Variable ri : rinfo.

Definition auto_of (xs : list (list action * option nat)) (q : nat) : option nat :=
  match nth_error xs q with Some (_, a) => a | None => None end.

(** What an executable action of a final list may be. *)
Inductive act_ok (auto : nat -> option nat) (q : nat) : action -> Prop :=
| ok_shift : forall s q', tr g A q s q' -> auto q' = None -> act_ok auto q (mkAction SHIFT s q')
| ok_sr : forall s q' r, tr g A q s q' -> auto q' = Some r -> act_ok auto q (mkAction SHIFTREDUCE s r)
| ok_red : forall t r, t < g_nterm g -> done_la g A q r t -> act_ok auto q (mkAction REDUCE t r)
| ok_dflt : forall r, done g A q r -> lhsStart g r = false -> act_ok auto q (mkAction REDUCE (g_nsym g) r)
| ok_acc : forall x, q = 0 -> act_ok auto q (mkAction ACCEPT (g_start g) x)
| ok_unit : forall s r rl a, act_ok auto q (mkAction SHIFTREDUCE s r) -> g_nterm g <= s ->
    rule_of g r = Some rl -> length (r_rhs rl) = 1 -> ri_noCode ri r = true ->
    act_ok auto q a -> a_sp a = r_lhs rl -> act_ok auto q (mkAction (a_type a) s (a_arg a)).

Record final (aps : list (list action)) (xs : list (list action * option nat)) : Prop := {
  fn_len : length xs = length A;
  fn_ok : forall q l au a, nth_error xs q = Some (l, au) -> In a l -> exec a = true -> act_ok (auto_of xs) q a;
  fn_uniq : forall q l au, nth_error xs q = Some (l, au) -> uniq l;
  fn_sp : forall q l au a, nth_error xs q = Some (l, au) -> In a l -> a_sp a <= g_nsym g;
  fn_shift : forall q ap l au s q', nth_error aps q = Some ap -> nth_error xs q = Some (l, au) ->
    In (mkAction SHIFT s q') ap -> s < g_nterm g ->
    match auto_of xs q' with None => In (mkAction SHIFT s q') l | Some r => In (mkAction SHIFTREDUCE s r) l end;
  fn_red : forall q ap l au t r, nth_error aps q = Some ap -> nth_error xs q = Some (l, au) ->
    In (mkAction REDUCE t r) ap -> In (mkAction REDUCE t r) l \/ In (mkAction REDUCE (g_nsym g) r) l;
  fn_nt : forall q ap l au a, nth_error aps q = Some ap -> nth_error xs q = Some (l, au) ->
    In a ap -> g_nterm g <= a_sp a -> exists a', In a' l /\ a_sp a' = a_sp a /\ exec a' = true;
  fn_err : forall q ap l au a, nth_error aps q = Some ap -> nth_error xs q = Some (l, au) ->
    iserr a = true -> (In a l <-> In a ap);
  fn_auto : forall q ap l r, nth_error aps q = Some ap -> nth_error xs q = Some (l, Some r) ->
    done g A q r /\ lhsStart g r = false /\ (forall rl, rule_of g r = Some rl -> r_rhs rl <> []) /\
    In (mkAction REDUCE (g_nsym g) r) l /\
    (forall a, In a ap -> a_type a <> SHIFT /\ (a_type a = REDUCE -> a_arg a = r));
  fn_ntexec : forall q l au a, nth_error xs q = Some (l, au) -> In a l -> g_nterm g <= a_sp a -> exec a = true;
  fn_tok : forall q ap l au a, nth_error aps q = Some ap -> nth_error xs q = Some (l, au) -> In a l -> exec a = true -> a_sp a < g_nterm g ->
    exists a0, In a0 ap /\ exec a0 = true /\ a = shiftreduce (auto_of xs) a0
}.

Lemma done_la_done : forall q r t, done_la g A q r t -> done g A q r.
Proof. intros q r t (rl & I & sh & gm & R & HI & HIn & _). exists rl. split; auto. exists I, sh. auto. Qed.

Lemma valid_set_next : forall gm gm' X I J, is_valid_set g gm I -> is_valid_set g (X :: gm) J -> is_valid_set g gm' I ->
  is_valid_set g (X :: gm') J.
Proof.
  intros gm gm' X I J H1 H2 H3 i. rewrite (H2 i), !valid_cons.
  split; apply clos_ext; intros j (k & Hk & Ha & ->); exists k; (split; [|auto]); [apply H3, H1|apply H1, H3]; auto.
Qed.

Lemma trans_ex : forall q I sh gm i X, lr0_automaton g A -> nth_error A q = Some (I, sh) -> is_valid_set g gm I ->
  In i I -> after_dot g i = Some X -> exists q' J sh', trans g A q X q' /\ nth_error A q' = Some (J, sh') /\ is_valid_set g (X :: gm) J.
Proof.
  intros q I sh gm i X AUT HI V Hi AD. destruct (lr0_complete _ _ AUT (X :: gm) (fst i, S (snd i))) as (q' & J & sh' & HJ & VJ).
  { apply valid_goto; auto. apply V; auto. }
  exists q', J, sh'. split; [|auto]. exists I, sh, J, sh'. split; auto. split; auto. split; [eauto|].
  intros gm' V'. eapply valid_set_next; [exact V|exact VJ|exact V'].
Qed.

Lemma valid_zero : forall gm r, valid g gm (r, 0) -> (gm = [] /\ lhs_is g r (g_start g)) \/
  exists i B, valid g gm i /\ after_dot g i = Some (ESym B) /\ lhs_is g r B.
Proof.
  intros gm r H. inversion H; subst; [left; auto|right; eauto].
Qed.

Lemma lhs_nonterm : forall r B, wf_grammar g -> lhs_is g r B -> g_nterm g <= B < g_nsym g.
Proof.
  intros r B (_ & _ & W & _) (rl & R & <-). rewrite Forall_forall in W. apply W. unfold rule_of in R. eapply nth_error_In; eauto.
Qed.

(** Nothing to shift means that the complete rules are not empty. *)
Lemma auto_nonempty : forall aps q ap r rl, wf_grammar g -> resolved g A aps -> nth_error aps q = Some ap ->
  done g A q r -> lhsStart g r = false -> (forall a, In a ap -> a_type a <> SHIFT) ->
  rule_of g r = Some rl -> r_rhs rl <> [].
Proof.
  intros aps q ap r rl W RS Hq (rl' & R & I & sh & HI & Hin) LS NS R' E. rewrite R in R'. inversion R'; subst rl'. clear R'.
  rewrite E in Hin. simpl in Hin. destruct (lr0_sound _ _ (rs_auto _ _ _ RS) q I sh HI) as (gm & V).
  apply V in Hin. apply valid_zero in Hin as [(_ & rl' & R2 & LH)|(i & B & VI & AD & LH)].
  - rewrite R in R2. inversion R2; subst rl'. unfold lhsStart in LS. unfold rule_of in R. rewrite R, LH, Nat.eqb_refl in LS. discriminate.
  - apply V in VI. destruct (trans_ex q I sh gm i (ESym B) (rs_auto _ _ _ RS) HI V VI AD) as (q' & J & sh' & T & _).
    apply (NS (mkAction SHIFT B q')); auto. apply (rs_goto _ _ _ RS q); auto.
    + apply (lhs_nonterm r B W LH).
    + exists (ESym B). split; [left; auto|auto].
Qed.

Lemma uncompressed_final : forall aps, wf_grammar g -> resolved g A aps -> final aps (uncompressed aps).
Proof.
  intros aps W RS.
  assert (N : forall q l au, nth_error (uncompressed aps) q = Some (l, au) -> nth_error aps q = Some l /\ au = None).
  { intros q l au H. unfold uncompressed in H. rewrite nth_error_map in H. destruct (nth_error aps q); inversion H; auto. }
  assert (AU : forall q, auto_of (uncompressed aps) q = None).
  { intros q. unfold auto_of. destruct (nth_error (uncompressed aps) q) as [[l a]|] eqn:E; auto. apply N in E. tauto. }
  constructor.
  - unfold uncompressed. rewrite map_length. apply RS.
  - intros q l au a H Ha E. apply N in H as (H & ->). pose proof (rs_live _ _ _ RS q l a H Ha E) as L. destruct a as [t s x]. simpl in L.
    destruct t; try contradiction.
    + apply ok_shift; auto.
    + destruct L as (-> & ->). apply ok_acc. auto.
    + destruct L. apply ok_red; auto.
  - intros q l au H. apply N in H as (H & _). apply RS. eapply nth_error_In; eauto.
  - intros q l au a H Ha. apply N in H as (H & _). apply Nat.lt_le_incl. eapply rs_sp; eauto. eapply nth_error_In; eauto.
  - intros q ap l au s q' Hq H Ha _. apply N in H as (H & _). rewrite AU. congruence.
  - intros q ap l au t r Hq H Ha. apply N in H as (H & _). left. congruence.
  - intros q ap l au a Hq H Ha NT. apply N in H as (H & _). rewrite Hq in H. inversion H; subst ap. exists a. split; auto. split; auto.
    eapply rs_nt; eauto. eapply nth_error_In; eauto.
  - intros q ap l au a Hq H _. apply N in H as (H & _). rewrite Hq in H. inversion H. tauto.
  - intros q ap l r Hq H. apply N in H as (_ & H). discriminate.
  - intros q l au a H Ha NT. apply N in H as (H & _). eapply rs_nt; eauto. eapply nth_error_In; eauto.
  - intros q ap l au a Hq H Ha E _. apply N in H as (H & _). rewrite Hq in H. inversion H; subst ap. exists a. split; auto. split; auto.
    unfold shiftreduce. destruct (a_type a); auto. rewrite AU. auto.
Qed.

Lemma compressed_final : forall fuel addr w aps xs, wf_grammar g -> resolved g A aps ->
  CompressTables fuel addr w g ri aps = Ok xs -> final aps xs.
Proof.
  intros fuel addr w aps xs W RS H. unfold CompressTables in H. apply bind_Ok in H as (x1 & H1 & H). cbv zeta in H.
  apply compress1_all_nth in H1 as (L1 & P1).
  set (auto1 := fun q => match nth_error x1 q with Some (_, a) => a | None => None end) in *.
  set (ys := map (fun x => (map (shiftreduce auto1) (fst x), snd x)) x1) in *.
  apply unit_all_nth in H as (L2 & P2).
  assert (LY : length ys = length x1) by (unfold ys; apply map_length).
  (* one state *)
  assert (ST : forall q l au, nth_error xs q = Some (l, au) -> exists ap l1,
     nth_error aps q = Some ap /\ nth_error x1 q = Some (l1, au) /\ pass1 g ap l1 au /\
     unit_loop fuel g ri (map (shiftreduce auto1) l1) 0 = Ok l).
  { intros q l au Hq. pose proof (nth_error_Some_lt _ _ _ _ Hq) as LT. rewrite L2, LY, L1 in LT.
    destruct (nth_error_lt_ex _ aps q LT) as (ap & Hap). destruct (P1 q ap Hap) as ([l1 a1] & Hx & C1).
    assert (HY : nth_error ys q = Some (map (shiftreduce auto1) l1, a1)) by (unfold ys; rewrite nth_error_map, Hx; auto).
    destruct (P2 q _ _ HY) as (l' & Hq' & U). rewrite Hq in Hq'. inversion Hq'; subst l' a1.
    exists ap, l1. split; auto. split; auto. split; auto. apply compress1_spec with (2 := rs_size _ _ _ RS ap (nth_error_In _ _ Hap)) (3 := C1).
    intros a Ha. eapply rs_sp; eauto. eapply nth_error_In; eauto. }
  assert (AE : forall q, auto_of xs q = auto1 q).
  { intros q. unfold auto_of, auto1. destruct (nth_error xs q) as [[l au]|] eqn:E.
    - destruct (ST q l au E) as (ap & l1 & _ & -> & _). auto.
    - apply nth_error_None in E. destruct (nth_error x1 q) eqn:E2; auto. apply nth_error_Some_lt in E2. lia. }
  assert (RL : forall r, In r (g_rules g) -> g_nterm g <= r_lhs r).
  { intros r Hr. destruct W as (_ & _ & W & _). rewrite Forall_forall in W. apply W. auto. }
  assert (STEP : forall q ap ap2 rp, act_ok auto1 q ap -> act_ok auto1 q ap2 -> a_type ap = SHIFTREDUCE ->
     ri_noCode ri (a_arg ap) = true -> nth_error (g_rules g) (a_arg ap) = Some rp -> length (r_rhs rp) = 1 ->
     g_nterm g <= a_sp ap -> a_sp ap2 = r_lhs rp -> exec ap2 = true ->
     act_ok auto1 q (mkAction (a_type ap2) (a_sp ap) (a_arg ap2))).
  { intros q ap ap2 rp O1 O2 T NC ER LR NT S2 _. destruct ap as [ty s x]. simpl in *. subst ty.
    eapply ok_unit; eauto. }
  (* the list after the second pass *)
  assert (L1OK : forall q ap l1 au, nth_error aps q = Some ap -> pass1 g ap l1 au ->
     (forall a, In a (map (shiftreduce auto1) l1) -> exec a = true -> act_ok auto1 q a) /\
     (forall a, In a (map (shiftreduce auto1) l1) -> g_nterm g <= a_sp a -> exec a = true)).
  { intros q ap l1 au Hq PA. pose proof (nth_error_In _ _ Hq) as Hin. split.
    - intros a Ha E. apply in_map_iff in Ha as (b & <- & Hb). rewrite shiftreduce_exec in E.
      destruct (p1_exec _ _ _ _ PA b Hb E) as [B|(r & -> & LS & t & B)].
      + pose proof (rs_live _ _ _ RS q ap b Hq B E) as L. destruct b as [ty s x]. unfold shiftreduce. simpl in *.
        destruct ty; try contradiction.
        * destruct (auto1 x) as [r|] eqn:EA; [eapply ok_sr; eauto|apply ok_shift; auto].
        * destruct L as (-> & ->). apply ok_acc; auto.
        * destruct L. apply ok_red; auto.
      + unfold shiftreduce. simpl. apply ok_dflt; auto.
        pose proof (rs_live _ _ _ RS q ap _ Hq B eq_refl) as (_ & D). simpl in D. eapply done_la_done; eauto.
    - intros a Ha NT. apply in_map_iff in Ha as (b & <- & Hb). rewrite shiftreduce_exec, shiftreduce_sp in *.
      destruct (exec b) eqn:E; auto. exfalso. 
      destruct (p1_nonexec _ _ _ _ PA b Hb E) as (c & Hc & SC & [EC|TC]).
      + rewrite <- SC in NT. rewrite (rs_nt _ _ _ RS ap c Hin Hc NT) in EC. discriminate.
      + assert (EC : exec c = true) by (unfold exec; rewrite TC; auto).
        pose proof (rs_live _ _ _ RS q ap c Hq Hc EC) as L. rewrite TC in L. lia. }
  (* the final list *)
  assert (FIN : forall q l au, nth_error xs q = Some (l, au) -> exists ap l1,
     nth_error aps q = Some ap /\ pass1 g ap l1 au /\
     let m := map (shiftreduce auto1) l1 in
     (forall a, In a l -> exec a = true -> act_ok auto1 q a) /\
     map a_sp (filter exec l) = map a_sp (filter exec m) /\ filter iserr l = filter iserr m /\
     (forall a, In a l -> g_nterm g <= a_sp a -> exec a = true) /\
     (forall a, a_sp a < g_nterm g \/ exec a = false \/ a_type a = REDUCE -> In a m -> In a l) /\
     (forall a, exec a = false \/ a_sp a < g_nterm g -> In a l -> In a m)).
  { intros q l au Hq. destruct (ST q l au Hq) as (ap & l1 & Hap & _ & PA & U). exists ap, l1. split; auto. split; auto.
    destruct (L1OK q ap l1 au Hap PA) as (O1 & O2). cbv zeta.
    apply (unit_loop_ind g ri (act_ok auto1 q) (STEP q) fuel _ 0 l U O2 RL O1). }
  assert (EXT : forall q a, act_ok auto1 q a -> act_ok (auto_of xs) q a).
  { intros q a HA. induction HA.
    - apply ok_shift; auto. rewrite AE. auto.
    - eapply ok_sr; eauto. rewrite AE. auto.
    - apply ok_red; auto.
    - apply ok_dflt; auto.
    - apply ok_acc; auto.
    - eapply ok_unit; eauto. }
  constructor.
  - rewrite L2, LY, L1. apply RS.
  - intros q l au a Hq Ha E. destruct (FIN q l au Hq) as (ap & l1 & _ & _ & F1 & _). auto.
  - intros q l au Hq. destruct (FIN q l au Hq) as (ap & l1 & Hap & PA & _ & F2 & F3 & _).
    assert (U : uniq (map (shiftreduce auto1) l1)).
    { apply shiftreduce_uniq. apply (p1_uniq _ _ _ _ PA). apply (rs_uniq _ _ _ RS). eapply nth_error_In; eauto. }
    destruct U as (U1 & U2). split; [rewrite F2; auto|rewrite F3; auto].
  - intros q l au a Hq Ha. destruct (FIN q l au Hq) as (ap & l1 & Hap & PA & _ & F2 & F3 & _ & _ & F6).
    assert (S1 : forall b, In b l1 -> a_sp b <= g_nsym g).
    { intros b Hb. destruct (p1_sp _ _ _ _ PA b Hb) as [->|E]; auto. apply in_map_iff in E as (c & <- & Hc).
      apply Nat.lt_le_incl. eapply rs_sp; eauto. eapply nth_error_In; eauto. }
    assert (S2 : forall b, In b (map (shiftreduce auto1) l1) -> a_sp b <= g_nsym g).
    { intros b Hb. apply in_map_iff in Hb as (c & <- & Hc). rewrite shiftreduce_sp. auto. }
    destruct (exec a) eqn:E.
    + assert (HI : In (a_sp a) (map a_sp (filter exec l))) by (apply in_map, filter_In; auto).
      rewrite F2 in HI. apply in_map_iff in HI as (b & <- & Hb). apply filter_In in Hb as (Hb & _). auto.
    + apply S2. auto.
  - intros q ap l au s q' Hap Hq Ha LT. destruct (FIN q l au Hq) as (ap' & l1 & Hap' & PA & _ & _ & _ & _ & F5 & _).
    rewrite Hap in Hap'. inversion Hap'; subst ap'. rewrite AE.
    destruct (p1_keep _ _ _ _ PA _ Ha eq_refl) as [K|(K & _)]; [|discriminate].
    apply (in_map (shiftreduce auto1)) in K. unfold shiftreduce at 1 in K. simpl in K.
    destruct (auto1 q') as [r|]; apply F5; simpl; auto.
  - intros q ap l au t r Hap Hq Ha. destruct (FIN q l au Hq) as (ap' & l1 & Hap' & PA & _ & _ & _ & _ & F5 & _).
    rewrite Hap in Hap'. inversion Hap'; subst ap'.
    destruct (p1_keep _ _ _ _ PA _ Ha eq_refl) as [K|(_ & K)]; [left|right];
      apply (in_map (shiftreduce auto1)) in K; apply F5; simpl; auto.
  - intros q ap l au a Hap Hq Ha NT. destruct (FIN q l au Hq) as (ap' & l1 & Hap' & PA & _ & F2 & _).
    rewrite Hap in Hap'. inversion Hap'; subst ap'.
    pose proof (rs_nt _ _ _ RS ap a (nth_error_In _ _ Hap) Ha NT) as E.
    destruct (p1_keep _ _ _ _ PA a Ha E) as [K|(K & _)].
    2: { pose proof (rs_live _ _ _ RS q ap a Hap Ha E) as L. rewrite K in L. lia. }
    assert (HI : In (a_sp a) (map a_sp (filter exec (map (shiftreduce auto1) l1)))).
    { rewrite <- (shiftreduce_sp auto1). apply in_map. apply filter_In. split; [apply in_map; auto|]. rewrite shiftreduce_exec. auto. }
    rewrite <- F2 in HI. apply in_map_iff in HI as (b & E2 & Hb). apply filter_In in Hb as (Hb & Eb). exists b. auto.
  - intros q ap l au a Hap Hq E. destruct (FIN q l au Hq) as (ap' & l1 & Hap' & PA & _ & _ & F3 & _).
    rewrite Hap in Hap'. inversion Hap'; subst ap'. rewrite <- (p1_err _ _ _ _ PA a E).
    assert (X : In a l <-> In a (filter iserr l)) by (rewrite filter_In; tauto). rewrite X, F3, filter_In. clear X.
    assert (NSR : forall b, iserr b = true -> shiftreduce auto1 b = b).
    { intros b Eb. unfold shiftreduce. unfold iserr in Eb. destruct (a_type b); auto. discriminate. }
    split.
    + intros (HI & _). apply in_map_iff in HI as (b & <- & Hb). rewrite shiftreduce_err in E. rewrite NSR; auto.
    + intros HI. split; auto. apply in_map_iff. exists a. auto.
  - intros q ap l r Hap Hq. destruct (FIN q l (Some r) Hq) as (ap' & l1 & Hap' & PA & F1 & _ & _ & _ & F5 & _).
    rewrite Hap in Hap'. inversion Hap'; subst ap'. destruct (p1_auto _ _ _ _ PA r eq_refl) as (D & NS).
    assert (AO : done g A q r /\ lhsStart g r = false).
    { destruct (p1_exec _ _ _ _ PA _ D eq_refl) as [B|(r' & E & LS & t & B)].
      - apply rs_sp with (g := g) (A := A) (aps := aps) in B; auto; [simpl in B; lia|]. eapply nth_error_In; eauto.
      - inversion E; subst r'. split; auto.
        pose proof (rs_live _ _ _ RS q ap _ Hap B eq_refl) as (_ & DL). simpl in DL. eapply done_la_done; eauto. }
    apply (in_map (shiftreduce auto1)) in D. assert (DL : In (mkAction REDUCE (g_nsym g) r) l) by (apply F5; simpl; auto).
    destruct AO as (AO1 & AO2). split; auto. split; auto. split.
    + intros rl R. eapply auto_nonempty; eauto. intros a Ha. apply NS. auto.
    + split; auto.
  - intros q l au a Hq Ha NT. destruct (FIN q l au Hq) as (ap & l1 & _ & _ & _ & _ & _ & F4 & _). auto.
  - intros q ap l au a Hap Hq Ha E LT. destruct (FIN q l au Hq) as (ap' & l1 & Hap' & PA & _ & _ & _ & _ & _ & F6).
    rewrite Hap in Hap'. inversion Hap'; subst ap'. apply F6 in Ha; auto. apply in_map_iff in Ha as (b & Eb & Hb).
    rewrite <- Eb, shiftreduce_exec in E. rewrite <- Eb, shiftreduce_sp in LT.
    destruct (p1_exec _ _ _ _ PA b Hb E) as [B|(r & -> & _)]; [|destruct W as (_ & W2 & _); simpl in LT; lia].
    exists b. split; auto. split; auto. rewrite <- Eb. unfold shiftreduce. destruct (a_type b); auto. rewrite AE. auto.
Qed.
End Final.
