(** C02: the LR(0) states built by lemon. *)
From Coq Require Import List Arith NArith Lia Bool.
Import ListNotations.
From Verif Require Import Base SpecGrammar SpecGrammarFacts SpecLRFacts SpecLR0 LemonSetModel LemonFirstModel LemonFirstProof
  LemonSortModel LemonStatesModel LemonStatesProof.

(** What a caller sees of a state: its items in order and its shift actions. *)
Definition state_view (L : lemon) (st : state) : lr0_state :=
  (map (key (l_cfgs L)) (s_cfp st), map (fun a => (a_sp a, a_arg a)) (s_ap st)).
Definition states_view (L : lemon) : list lr0_state := map (state_view L) (l_states L).

Lemma all_items_count : forall g, length (all_items g) = item_count g.
Proof.
  intros g. unfold all_items, item_count.
  assert (G : forall pre l, g_rules g = pre ++ l ->
    length (flat_map (fun r => match rule_of g r with
                               | Some rl => map (fun d => (r, d)) (seq 0 (S (length (r_rhs rl))))
                               | None => []
                               end) (seq (length pre) (length l))) = list_sum (map (fun r => S (length (r_rhs r))) l)).
  { intros pre l. revert pre. induction l as [|r l IH]; intros pre E; [reflexivity|].
    change (seq (length pre) (length (r :: l))) with (length pre :: seq (S (length pre)) (length l)). cbn [flat_map]. rewrite app_length. change (map (fun r0 => S (length (r_rhs r0))) (r :: l)) with (S (length (r_rhs r)) :: map (fun r0 => S (length (r_rhs r0))) l).
    replace (rule_of g (length pre)) with (Some r).
    - rewrite map_length, seq_length. unfold list_sum. cbn [fold_right]. f_equal.
      specialize (IH (pre ++ [r])). rewrite app_length, Nat.add_1_r in IH. apply IH.
      rewrite <- app_assoc. exact E.
    - unfold rule_of. rewrite E, nth_error_app2, Nat.sub_diag by auto. reflexivity. }
  apply (G [] (g_rules g) eq_refl).
Qed.

Lemma view_nth : forall L q I sh, nth_error (states_view L) q = Some (I, sh) <->
  exists st, nth_error (l_states L) q = Some st /\ I = its L st /\ sh = map (fun a => (a_sp a, a_arg a)) (s_ap st).
Proof.
  intros L q I sh. unfold states_view. rewrite nth_error_map. split.
  - destruct (nth_error (l_states L) q) as [st|]; simpl; [|discriminate].
    intros H. inversion H. exists st. auto.
  - intros (st & -> & -> & ->). reflexivity.
Qed.

Lemma is_valid_set_iff : forall g I J gamma, is_valid_set g gamma I -> is_valid_set g gamma J ->
  forall i, In i I <-> In i J.
Proof. intros g I J gamma HI HJ i. rewrite (HI i), (HJ i). reflexivity. Qed.

Lemma Final_automaton : forall g L, Final g L -> lr0_automaton g (states_view L).
Proof.
  intros g L F. pose proof (fi_inv _ _ F) as SI.
  assert (GS : forall q I sh, nth_error (states_view L) q = Some (I, sh) -> exists gm, is_valid_set g gm I).
  { intros q I sh H. apply view_nth in H as (st & H & -> & ->).
    destruct (si_reach _ _ SI q st H) as (gm & E). exists gm. exact E. }
  constructor.
  - destruct (state0 g L F) as (st & H & E). exists (its L st), (map (fun a => (a_sp a, a_arg a)) (s_ap st)).
    split; [apply view_nth; eauto|exact E].
  - exact GS.
  - intros q I sh H. destruct (Nat.eq_dec q 0) as [->|N]; [auto|right]. apply view_nth in H as (st & H & -> & _).
    destruct (si_pos _ _ SI q st H) as (K & _); [lia|]. destruct (kern L st) as [|i k] eqn:E; [congruence|]. exists i.
    apply (si_clos _ _ SI q st i H). apply clos_base. rewrite E. now left.
  - intros gm i V. destruct (states_complete g L gm i F V) as (q & st & H & E).
    exists q, (its L st), (map (fun a => (a_sp a, a_arg a)) (s_ap st)). split; [apply view_nth; eauto|exact E].
  - intros q q' I sh I' sh' H H' E. apply view_nth in H as (st & H & -> & _). apply view_nth in H' as (st' & H' & -> & _).
    exact (its_inj g L q q' st st' SI H H' E).
  - intros q I sh H. apply view_nth in H as (st & H & -> & _). eapply si_nd; eauto.
  - intros q I sh s q' H. destruct (GS _ _ _ H) as (gm & VG).
    apply view_nth in H as (st & H & -> & ->). rewrite in_map_iff. split.
    + intros (a & Ea & Ha). apply (ap_goes g L q st a F H) in Ha as (X & q1 & s1 & G & Hs & ->).
      simpl in Ea. inversion Ea; subst q1 s1.
      pose proof G as (st1 & st' & H1 & H2 & (i & Hi & Ha) & E). rewrite H in H1. inversion H1; subst st1.
      exists X, (its L st'), (map (fun a => (a_sp a, a_arg a)) (s_ap st')).
      split; [destruct X; exact Hs|]. split; [apply view_nth; eauto|]. split; [eauto|].
      intros gm' V'. destruct (goes_valid g L q st X q' gm' G H V') as (st2 & H3 & V3).
      rewrite H2 in H3. inversion H3; subst st2. exact V3.
    + intros (X & J & sh' & Hs & HJ & (i & Hi & Ha) & HV). apply view_nth in HJ as (st' & H' & -> & ->).
      destruct (goes_exists g L q st i X F H Hi Ha) as (q1 & G).
      destruct (goes_valid g L q st X q1 gm G H VG) as (st1 & H1 & V1).
      assert (q1 = q').
      { apply (its_inj g L q1 q' st1 st' SI H1 H'). apply (is_valid_set_iff g _ _ (X :: gm)); [exact V1|]. apply HV. exact VG. }
      subst q1. exists (mkAction SHIFT s q'). split; [reflexivity|].
      apply (ap_goes g L q st _ F H). exists X, q', s. split; [exact G|]. split; [destruct X; exact Hs|reflexivity].
Qed.

(** For every well-formed grammar the construction terminates without an error,
    and whenever it terminates the states are the LR(0) automaton and all
    actions recorded are shifts.  The bound on the number of items is the
    capacity of msort (see C20). *)
Theorem C02_FindStates : forall g lam fs,
  wf_grammar g -> (N.of_nat (item_count g) < 2 ^ 30)%N ->
  FindFirstSets (first_fuel g) g = Ok (lam, fs) ->
  (exists n, forall fuel, n <= fuel -> exists L, FindStates fuel g lam fs = Ok L) /\
  (forall fuel L, FindStates fuel g lam fs = Ok L ->
     lr0_automaton g (states_view L) /\
     forall st a, In st (l_states L) -> In a (s_ap st) -> a_type a = SHIFT).
Proof.
  intros g lam fs WF SZ EF.
  destruct (FindFirstSets_ok g WF) as (lam' & fs' & E & LE & FE). rewrite EF in E. inversion E; subst lam' fs'.
  rewrite <- all_items_count in SZ.
  split.
  - exists (S (max_states g)). intros fuel Hf.
    destruct (FindStates_ok g WF lam fs LE FE SZ fuel) as (L & EL & _); [lia|]. eauto.
  - intros fuel L EL. pose proof (FindStates_Final g WF lam fs LE FE SZ fuel L EL) as F.
    split; [apply Final_automaton; auto|].
    intros st a Hst Ha. apply In_nth_error in Hst as (q & Hq).
    apply (ap_goes g L q st a F Hq) in Ha as (X & q' & s & _ & _ & ->). reflexivity.
Qed.
Print Assumptions C02_FindStates.

(** S : A B | t2 ; A : (empty) | 1|3 ; B : A A S | (empty). *)
Definition exg2 : grammar := mkGrammar 4 7
  [mkRule 4 [ESym 5; ESym 6]; mkRule 4 [ESym 2]; mkRule 5 []; mkRule 5 [EMulti [1; 3]];
   mkRule 6 [ESym 5; ESym 5; ESym 4]; mkRule 6 []] 4.

Example C02_ex_hyps : wf_grammar exg2 /\ (N.of_nat (item_count exg2) < 2 ^ 30)%N.
Proof. split; [apply wf_grammarb_ok; reflexivity|reflexivity]. Qed.

Example C02_ex_run : exists lam fs L, FindFirstSets (first_fuel exg2) exg2 = Ok (lam, fs) /\
  FindStates 20 exg2 lam fs = Ok L /\ length (l_states L) = 8 /\
  nth_error (states_view L) 0 =
    Some ([(0, 0); (1, 0); (2, 0); (3, 0)], [(3, 3); (1, 3); (2, 6); (5, 1)]).
Proof. do 3 eexists. split; [vm_compute; reflexivity|]. split; [vm_compute; reflexivity|]. split; vm_compute; reflexivity. Qed.
