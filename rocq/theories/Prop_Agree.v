(** C50: lemon and byacc agree on lookaheads and conflicts. *)
From Coq Require Import List Arith NArith ZArith Lia Bool Permutation Sorted.
Import ListNotations.
From Verif Require Import Base SpecGrammar SpecGrammarFacts SpecLRFacts SpecLR0 SpecByacc SpecAgree ByaccWarshallModel ByaccWarshallProof ByaccLr0Model ByaccPackProof ByaccLr0Proof
  ByaccStatesProof ByaccLalrModel ByaccLookSem ByaccGotoProof ByaccLookProof ByaccMono Prop_ByaccLookahead ByaccParModel SpecByaccConflicts ByaccParProof ByaccActionsProof Prop_ByaccConflicts.
From Verif Require Import CLib LemonSetModel LemonFirstModel LemonFirstProof LemonStatesModel LemonStatesProof Prop_LemonStates LemonFollowModel LemonFollowProof Prop_LemonFollow
  LemonActionModel LemonActionProof Prop_LemonAction LemonNoPrecProof.

(** State [q] of [A] and state [q'] of [B] correspond. *)
Definition corresponds (A B : list lr0_state) (q q' : nat) : Prop :=
  exists I sh J sh', nth_error A q = Some (I, sh) /\ nth_error B q' = Some (J, sh') /\ agree I J.

Lemma front_automaton : forall sf ff g L2, wf_grammar g -> (N.of_nat (item_count g) < 2 ^ 30)%N -> lemon_front sf ff g = Ok L2 -> lr0_automaton g (states_view L2).
Proof.
  intros sf ff g L2 WF SZ E. destruct (front_facts _ _ _ _ WF SZ E) as (L & F & FO). rewrite (front_view g L L2 FO). now apply Final_automaton.
Qed.

(** A relation that matches the positions of one list with all but one of another. *)
Lemma match_up : forall (R : nat -> nat -> Prop) n m fin, fin < m ->
  (forall q, q < n -> exists q', q' < m /\ q' <> fin /\ R q q') ->
  (forall q', q' < m -> q' <> fin -> exists q, q < n /\ R q q') ->
  (forall q1 q2 q', q1 < n -> q2 < n -> R q1 q' -> R q2 q' -> q1 = q2) ->
  (forall q q1 q2, q1 < m -> q2 < m -> R q q1 -> R q q2 -> q1 = q2) ->
  exists ys, length ys = n /\ (forall q q', nth_error ys q = Some q' -> R q q') /\ Permutation (fin :: ys) (seq 0 m).
Proof.
  intros R n m fin Lf T1 T2 U1 U2. destruct (choice_list nat nat (fun q _ q' => q' < m /\ q' <> fin /\ R q q') (seq 0 n)) as (ys & Ly & Hy).
  { intros q a E. apply nth_error_Some_lt in E. rewrite seq_length in E. auto. }
  rewrite seq_length in Ly. assert (H : forall q q', nth_error ys q = Some q' -> q' < m /\ q' <> fin /\ R q q').
  { intros q q' E. pose proof (nth_error_Some_lt _ _ _ _ E) as Lq. rewrite Ly in Lq. destruct (nth_error_lt_ex _ (seq 0 n) q) as (a & Ea); [now rewrite seq_length|]. eauto. }
  exists ys. split; [auto|]. split; [intros q q' E; now apply H|]. apply NoDup_Permutation.
  - constructor.
    + intros I. apply In_nth_error in I as (q & E). now apply H in E.
    + apply NoDup_nth_error. intros i j Li E. destruct (nth_error_lt_ex _ _ _ Li) as (x & Ex). rewrite Ex in E. symmetry in E.
      pose proof (nth_error_Some_lt _ _ _ _ E). rewrite Ly in *. destruct (H _ _ Ex) as (_ & _ & R1), (H _ _ E) as (_ & _ & R2). eauto.
  - apply seq_NoDup.
  - intros x. rewrite in_seq. split.
    + intros [<-|I]; [lia|]. apply In_nth_error in I as (q & E). apply H in E. lia.
    + intros Lx. destruct (Nat.eq_dec x fin) as [->|N]; [now left|right]. destruct (T2 x) as (q & Lq & Rq); [lia|auto|].
      destruct (nth_error_lt_ex _ ys q) as (x' & Ex); [lia|]. destruct (H _ _ Ex) as (L' & _ & R'). rewrite (U2 q x x'); [eapply nth_error_In; eauto|lia|auto|auto|auto].
Qed.

Lemma nth_seq_sum : forall l, list_sum l = list_sum (map (fun i => nth i l 0) (seq 0 (length l))).
Proof.
  induction l as [|x l IH]; [reflexivity|]. cbn [length seq map nth]. rewrite <- seq_shift, map_map. unfold list_sum in *. cbn [fold_right]. now rewrite IH.
Qed.

Lemma perm_sum : forall l l', Permutation l l' -> list_sum l = list_sum l'.
Proof. induction 1; unfold list_sum in *; cbn [fold_right]; lia. Qed.

Lemma more_fuel : forall s fuel nl st, lr0 fuel (pack_grammar s) = Ok (nl, st) ->
  exists f, b_nsyms s < f /\ 2 ^ nitems (pack_grammar s) < f /\ lr0 f (pack_grammar s) = Ok (nl, st).
Proof.
  intros s fuel nl st E. exists (S (fuel + b_nsyms s + 2 ^ nitems (pack_grammar s))). split; [lia|]. split; [lia|]. eapply lr0_mono; [|exact E]. lia.
Qed.

Section Agree.
Variable s : bsrc.
Hypothesis W : wf_src s.
Hypothesis GF : goal_free s.
Hypothesis GD : goal_defined s.
Variables A B : list lr0_state.
Hypothesis HA : lr0_automaton (user s) A.
Hypothesis HB : lr0_automaton (aug s) B.

Lemma corr_match : exists fin ys J sh, nth_error B fin = Some (J, sh) /\ In (0, 1) J /\ length ys = length A /\
  (forall q q', nth_error ys q = Some q' -> corresponds A B q q') /\ Permutation (fin :: ys) (seq 0 (length B)).
Proof.
  destruct (final_ex s B HB) as (fin & J & sh & EJ & IJ).
  destruct (match_up (corresponds A B) (length A) (length B) fin) as (ys & L & H & P).
  - eapply nth_error_Some_lt; eauto.
  - intros q Lq. destruct (nth_error_lt_ex _ _ _ Lq) as ((I & sh1) & E). destruct (agree_ex s W GF GD A B HA HB q I sh1 E) as (q' & J' & sh' & E' & AG).
    exists q'. split; [eapply nth_error_Some_lt; eauto|]. split; [|exists I, sh1, J', sh'; auto]. intros ->. rewrite EJ in E'. inversion E'; subst. now apply AG.
  - intros q' Lq N. destruct (nth_error_lt_ex _ _ _ Lq) as ((J' & sh1) & E). destruct (agree_ex' s W GD A B HA HB q' J' sh1 E) as (q & I & sh' & E' & AG).
    + intros I. apply N. eapply final_unique; eauto.
    + exists q. split; [eapply nth_error_Some_lt; eauto|]. exists I, sh', J', sh1. auto.
  - intros q1 q2 q' L1 L2 (I1 & s1 & J1 & t1 & E1 & F1 & G1) (I2 & s2 & J2 & t2 & E2 & F2 & G2). rewrite F1 in F2. inversion F2; subst. eapply agree_unique'; eauto.
  - intros q q1 q2 L1 L2 (I1 & s1 & J1 & t1 & E1 & F1 & G1) (I2 & s2 & J2 & t2 & E2 & F2 & G2). rewrite E1 in E2. inversion E2; subst. eapply (agree_unique s W GF GD); eauto.
  - exists fin, ys, J, sh. auto.
Qed.
End Agree.

(** ** The states *)

(** When the goal symbol has a rule and is on no right side, byacc has exactly one
    state more than lemon, the one that has read the goal; all others correspond one
    to one, state 0 to state 0, and so do the transitions. *)
Theorem C50_states : forall s sf ff L2 fuel nl st,
  wf_src s -> goal_free s -> goal_defined s -> (N.of_nat (item_count (user s)) < 2 ^ 30)%N ->
  lemon_front sf ff (user s) = Ok L2 -> lr0 fuel (pack_grammar s) = Ok (nl, st) ->
  exists sts, lr0_automaton (aug s) sts /\ length sts = length (l_cores st) /\
  length (l_cores st) = S (length (states_view L2)) /\ corresponds (states_view L2) sts 0 0 /\
  (forall q, q < length (states_view L2) -> exists! q', corresponds (states_view L2) sts q q') /\
  (exists! fin, exists J sh, nth_error sts fin = Some (J, sh) /\ In (0, 1) J) /\
  (forall q', q' < length sts -> (exists J sh, nth_error sts q' = Some (J, sh) /\ In (0, 1) J) \/ exists! q, corresponds (states_view L2) sts q q') /\
  forall q I sh q' J sh' p p' x, nth_error (states_view L2) q = Some (I, sh) -> nth_error sts q' = Some (J, sh') ->
    corresponds (states_view L2) sts q q' -> corresponds (states_view L2) sts p p' -> (In (x, p) sh <-> In (x, p') sh').
Proof.
  intros s sf ff L2 fuel nl st W GF GD SZ EL EB. pose proof (front_automaton _ _ _ _ (wf_user s W) SZ EL) as HA.
  destruct (more_fuel s fuel nl st EB) as (bf & F1 & F2 & EBf).
  destruct (C35_lookaheads s bf W F1 F2) as (nl' & st' & sts & EB' & HB & LB & _). rewrite EBf in EB'. inversion EB'; subst nl' st'. clear EB'.
  set (A := states_view L2) in *. exists sts. split; [auto|]. split; [auto|].
  destruct (corr_match s W GF GD A sts HA HB) as (fin & ys & J0 & sh0 & EJ & IJ & Ly & Hy & P).
  split; [rewrite <- LB; apply Permutation_length in P; rewrite seq_length in P; cbn in P; lia|].
  split. { destruct (agree_start s W A sts HA HB) as (I & sh & J & sh' & H). exists I, sh, J, sh'. exact H. }
  split. { intros q Lq. destruct (nth_error_lt_ex _ _ _ Lq) as ((I & sh) & E). destruct (agree_ex s W GF GD A sts HA HB q I sh E) as (q' & J & sh' & E' & AG).
    exists q'. split; [exists I, sh, J, sh'; auto|]. intros q2 (I2 & s2 & J2 & t2 & E2 & F3 & G2). rewrite E in E2. inversion E2; subst. eapply (agree_unique s W GF GD); eauto. }
  split. { exists fin. split; [eauto|]. intros q (J & sh & E & I). eapply (final_unique s W GF sts HB); eauto. }
  split. { intros q' Lq. destruct (nth_error_lt_ex _ _ _ Lq) as ((J & sh) & E). destruct (in_dec item_eq_dec (0, 1) J) as [I|N]; [left; eauto|right].
    destruct (agree_ex' s W GD A sts HA HB q' J sh E N) as (q & I & sh' & E' & AG). exists q. split; [exists I, sh', J, sh; auto|].
    intros q2 (I2 & s2 & J2 & t2 & E2 & F3 & G2). rewrite E in F3. inversion F3; subst. eapply (agree_unique' s A HA); eauto. }
  intros q I sh q' J sh' p p' x E E' (I1 & s1 & J1 & t1 & E1 & F3 & G1) (I2 & s2 & J2 & t2 & E2 & F4 & G2).
  rewrite E in E1. rewrite E' in F3. inversion E1; subst. inversion F3; subst. eapply (agree_shift s W GF GD A sts HA HB); eauto.
Qed.
Print Assumptions C50_states.

(** ** The lookaheads *)

(** The follow set that lemon attaches to a completed item is byacc's lookahead set of
    the same reduction in the corresponding state. *)
Theorem C50_lookaheads : forall s sf ff L2 fuel nl st,
  wf_src s -> goal_free s -> goal_defined s -> (N.of_nat (item_count (user s)) < 2 ^ 30)%N ->
  lemon_front sf ff (user s) = Ok L2 -> lr0 fuel (pack_grammar s) = Ok (nl, st) ->
  exists sts, lr0_automaton (aug s) sts /\ length sts = length (l_cores st) /\
  forall fuel' T, lalr fuel' (pack_grammar s) nl st = Ok T ->
  forall q q' k rl w, corresponds (states_view L2) sts q q' -> rule_of (user s) k = Some rl ->
  In ((k, length (r_rhs rl)), w) (follow_view L2 q) ->
  exists lo hi j, nth_error (t_start T) q' = Some lo /\ nth_error (t_start T) (S q') = Some hi /\ lo <= j < hi /\
    nth_error (t_rule T) j = Some (k + 3) /\
    forall t, t < b_ntokens s -> SetFind w t = bitat BPW (t_LA T) (j * WORDSIZE BPW (b_ntokens s)) t.
Proof.
  intros s sf ff L2 fuel nl st W GF GD SZ EL EB. pose proof (front_automaton _ _ _ _ (wf_user s W) SZ EL) as HA.
  destruct (more_fuel s fuel nl st EB) as (bf & F1 & F2 & EBf).
  destruct (C35_lookaheads s bf W F1 F2) as (nl' & st' & sts & EB' & HB & LB & LK). rewrite EBf in EB'. inversion EB'; subst nl' st'. clear EB'.
  exists sts. split; [auto|]. split; [auto|]. intros fuel' T ET0 q q' k rl w (I & sh & J & sh' & E & E' & AG) Er Iw.
  assert (Hf : length sts * b_nsyms s <= fuel' + length sts * b_nsyms s) by lia. assert (ET : lalr (fuel' + length sts * b_nsyms s) (pack_grammar s) nl st = Ok T) by (eapply lalr_mono; [|exact ET0]; lia).
  destruct (LK _ T Hf ET) as (_ & LK'). destruct (LK' q' J sh' E') as (lo & hi & A1 & A2 & A3 & A4 & _ & A6).
  assert (FV : In (k, length (r_rhs rl)) I /\ forall t, SetFind w t = true <-> exists gm, is_valid_set (user s) gm I /\ la (user s) gm (k, length (r_rhs rl)) t).
  { unfold lemon_front in EL. destruct (FindFirstSets (first_fuel (user s)) (user s)) as [[lam fs]| |] eqn:EF; cbn [bind] in EL; try discriminate.
    destruct (FindStates sf (user s) lam fs) as [L| |] eqn:ES; cbn [bind] in EL; try discriminate.
    destruct (C03_lookaheads (user s) lam fs sf L (wf_user s W) SZ EF ES) as (L1 & E1 & _ & FF). rewrite E1 in EL. cbn [bind] in EL.
    destruct (FF ff L2 EL) as (V & FF'). rewrite <- V in FF'. destruct (FF' q I sh E) as (M & H). split; [|intros t; now apply H].
    rewrite <- M. apply in_map_iff. exists (k, length (r_rhs rl), w). auto. }
  destruct FV as (Ik & FV).
  assert (AD : after_dot (aug s) (S k, length (r_rhs rl)) = None).
  { rewrite ag_after. unfold after_dot. cbn [fst snd]. rewrite Er. now apply nth_error_None. }
  destruct (proj2 (A4 (k + 3))) as (j & Hj & Ej). { exists (S k, length (r_rhs rl)). split; [now apply AG|]. split; [auto|]. cbn [fst]. split; lia. }
  exists lo, hi, j. split; [auto|]. split; [auto|]. split; [auto|]. split; [auto|]. intros t Lt. apply eq_true_iff_eq.
  rewrite (FV t), (A6 j (k + 3) t Hj Ej Lt). rewrite (agree_la s W GF GD _ sts HA HB q I sh q' J sh' k (length (r_rhs rl)) t E E' AG). split.
  - intros (gm & V & L). exists gm, (S k, length (r_rhs rl)). cbn [fst]. split; [auto|]. split; [auto|]. split; [auto|lia].
  - intros (gm & [k' d'] & V & L & N & X). cbn [fst] in X. assert (k' = S k) by lia. subst k'. exists gm. split; [auto|].
    assert (IO : item_ok (aug s) (S k, d')) by (apply (valid_ok _ gm), (la_valid _ _ _ _ L)). destruct IO as (rl' & R1 & R2). cbn [fst snd] in R1, R2.
    rewrite ag_rule, Er in R1. inversion R1; subst rl'. rewrite ag_after in N. unfold after_dot in N. cbn [fst snd] in N. rewrite Er in N. apply nth_error_None in N.
    replace (length (r_rhs rl)) with d' by lia. exact L.
Qed.
Print Assumptions C50_lookaheads.

(** ** The conflicts *)

Lemma shifts_once : forall sf ff g L2 aps, wf_grammar g -> (N.of_nat (item_count g) < 2 ^ 30)%N -> lemon_front sf ff g = Ok L2 ->
  (forall i X, after_dot g i = Some X -> exists x, X = ESym x) -> actions_added g L2 = Ok aps ->
  forall ap, In ap aps -> NoDup (map a_sp (filter is_shift ap)).
Proof.
  intros sf ff g L2 aps WF SZ EF NM EA ap Hap. destruct (front_facts _ _ _ _ WF SZ EF) as (L & F & FO).
  apply In_nth_error in Hap as (q & Hq).
  destruct (C04_action_lists sf ff g L2 WF SZ EF) as (aps' & EA' & LEN & _). rewrite EA in EA'. inversion EA'; subst aps'.
  rewrite (front_view g L L2 FO) in LEN. unfold states_view in LEN. rewrite map_length in LEN.
  destruct (nth_error_lt_ex _ (l_states L) q) as (st & H). { rewrite <- LEN. eapply nth_error_Some_lt; eauto. }
  rewrite (raw_nth g L L2 _ q st F FO EA H) in Hq. inversion Hq as [Eq]. clear Hq. unfold raw_of.
  assert (E : filter is_shift ((if q =? 0 then [mkAction ACCEPT (g_start g) 0] else []) ++ rev (flat_map (red_of g (l_cfgs L2)) (s_cfp st)) ++ s_ap st) = s_ap st).
  { rewrite !filter_app. assert (E1 : forall l, (forall a, In a l -> is_shift a = false) -> filter is_shift l = []).
    { induction l as [|a l IH]; intros X; [reflexivity|]. cbn [filter]. rewrite (X a (or_introl eq_refl)). apply IH. intros b Hb. apply X. now right. }
    rewrite (E1 (if q =? 0 then _ else _)), (E1 (rev _)).
    - cbn [app]. apply filter_all. intros a Ha. apply (ap_goes g L q st a F H) in Ha as (X & q1 & s1 & _ & _ & ->). reflexivity.
    - intros a Ha. apply in_rev, in_flat_map in Ha as (x & _ & Ha). apply red_of_In in Ha as (_ & j & _ & _ & ->). reflexivity.
    - intros a Ha. destruct (q =? 0); [destruct Ha as [<-|[]]; reflexivity|destruct Ha]. }
  rewrite E. destruct (fi_done _ _ F q st H) as (TL & N & S' & AP & T). rewrite AP.
  assert (SY : forall X, In X (map fst TL) -> exists x, X = ESym x). { intros X HX. apply S' in HX as (y & _ & HX). eauto. }
  clear - N SY. induction TL as [|[X p] TL IH]; [constructor|]. cbn [map fst flat_map] in *. apply NoDup_cons_iff in N as (N1 & N2).
  destruct (SY X (or_introl eq_refl)) as (x & ->). unfold acts at 1, add_shifts, Action_add. cbn [app map a_sp fst snd]. constructor.
  - intros I. apply N1. apply in_map_iff in I as (a & <- & Ia). apply in_flat_map in Ia as ([Y p'] & IY & Ia).
    assert (HY : In Y (map fst TL)) by (apply in_map_iff; exists (Y, p'); auto). destruct (SY Y (or_intror HY)) as (y & ->).
    unfold acts, add_shifts, Action_add in Ia. cbn in Ia. destruct Ia as [<-|[]]. exact HY.
  - apply IH; [auto|]. intros Y HY. apply SY. now right.
Qed.

Definition action_eq_dec : forall a b : action, {a = b} + {a <> b}.
Proof. decide equality; try apply Nat.eq_dec. decide equality. Defined.

Lemma NoDup_map_eq : forall X Y (f : X -> Y) l a b, NoDup (map f l) -> In a l -> In b l -> f a = f b -> a = b.
Proof.
  intros X Y f l a b. induction l as [|x l IH]; intros N Ia Ib E; [destruct Ia|]. destruct Ia as [->|Ia], Ib as [->|Ib];
    apply NoDup_cons_iff in N as (N1 & N2); auto.
  - exfalso. apply N1. rewrite E. now apply in_map.
  - exfalso. apply N1. rewrite <- E. now apply in_map.
Qed.

Definition is_sr (a : action) : bool := match a_type a with SRCONFLICT => true | _ => false end.
Definition is_rr (a : action) : bool := match a_type a with RRCONFLICT => true | _ => false end.

Lemma conflicting_split : forall l, length (filter conflicting l) = length (filter is_sr l) + length (filter is_rr l).
Proof.
  induction l as [|[ty sp ar] l IH]; [reflexivity|]. cbn [filter]. unfold conflicting at 1, is_sr at 1, is_rr at 1. cbn [a_type]. destruct ty; cbn [length]; lia.
Qed.

Lemma conflicting_sub : forall (f : action -> bool) l, (forall a, f a = true -> conflicting a = true) -> NoDup (filter conflicting l) -> NoDup (filter f l).
Proof.
  intros f l H. induction l as [|a l IH]; [auto|]. cbn [filter]. destruct (conflicting a) eqn:C.
  - intros N. apply NoDup_cons_iff in N as (N1 & N2). destruct (f a); [|auto]. constructor; [|auto]. intros I. apply N1. apply filter_In in I as (I & _). apply filter_In. auto.
  - intros N. destruct (f a) eqn:Fa; [apply H in Fa; congruence|auto].
Qed.

(** The reductions listed with a conflict label, as byacc's actions. *)
Lemma same_count : forall pr (f : action -> bool) (l : list action) (acts : list ByaccParModel.action) P n,
  (exists ty, forall a, f a = true <-> a_type a = ty) -> NoDup (filter f l) -> counts acts P n ->
  (forall x, In x acts -> P x -> exists t k, x = red_act pr t (k + 3)) ->
  (forall a, In a l -> f a = true -> In (red_act pr (a_sp a) (a_arg a + 3)) acts /\ P (red_act pr (a_sp a) (a_arg a + 3))) ->
  (forall t k, In (red_act pr t (k + 3)) acts -> P (red_act pr t (k + 3)) -> exists a, In a l /\ f a = true /\ a_sp a = t /\ a_arg a = k) ->
  n = length (filter f l).
Proof.
  intros pr f l acts P n (ty & TY) ND (L & NL & <- & HL) S1 S2 S3.
  rewrite <- (map_length (fun a => red_act pr (a_sp a) (a_arg a + 3)) (filter f l)). apply Permutation_length, NoDup_Permutation; [auto| |].
  - apply LemonActtabProof.NoDup_map_inj; [|auto]. intros [tx sx ax] [ty' sy ay] Ix Iy E. apply filter_In in Ix as (_ & Ix). apply filter_In in Iy as (_ & Iy).
    apply TY in Ix. apply TY in Iy. cbn in Ix, Iy, E. subst tx ty'. unfold red_act in E. inversion E. f_equal. lia.
  - intros x. rewrite HL, in_map_iff. split.
    + intros (Ia & Px). destruct (S1 x Ia Px) as (t & k & ->). destruct (S3 t k Ia Px) as (a & A1 & A2 & <- & <-). exists a. split; [auto|]. apply filter_In. auto.
    + intros (a & <- & Ia). apply filter_In in Ia as (Ia & Fa). auto.
Qed.

(** With no precedences in both tools (option -u), in corresponding states: lemon
    labels a reduction with a shift/reduce or a reduce/reduce conflict exactly when
    byacc suppresses the same reduction on the same token, the numbers of conflicts of
    each kind are equal, and so are the totals over the two automata. *)
Theorem C50_conflicts : forall s sf ff L2 addr p ps aps1 n bad fuel nl st pr flag,
  wf_src s -> goal_free s -> goal_defined s -> (N.of_nat (item_count (user s)) < 2 ^ 30)%N ->
  lemon_front sf ff (user s) = Ok L2 -> (forall x, p_prec p x = None) -> FindActions addr p ps (user s) L2 = Ok (aps1, n, bad) ->
  (forall aps ap, actions_added (user s) L2 = Ok aps -> In ap aps -> (N.of_nat (length ap) < 2 ^ 30)%N) ->
  wf_prec s pr -> (forall x, nth x (symbol_prec pr) 0 = 0) -> (forall r, nth r (rprec pr) 0 = 0) ->
  lr0 fuel (pack_grammar s) = Ok (nl, st) ->
  exists sts, lr0_automaton (aug s) sts /\ length sts = length (l_cores st) /\
  forall fuel' T, lalr fuel' (pack_grammar s) nl st = Ok T ->
  exists P, make_parser flag (pack_grammar s) pr T = Ok P /\
  n = list_sum (p_SR P) + list_sum (p_RR P) /\
  forall q q', corresponds (states_view L2) sts q q' ->
  exists ap1 acts', nth_error aps1 q = Some ap1 /\ nth_error (p_parser P) q' = Some acts' /\
    (forall t k, In (mkAction SRCONFLICT t k) ap1 \/ In (mkAction RRCONFLICT t k) ap1 <->
       exists a, In a acts' /\ a_sym a = t /\ a_num a = k + 3 /\ a_shift a = false /\ a_supp a <> 0) /\
    nth_error (p_SR P) q' = Some (length (filter is_sr ap1)) /\
    nth_error (p_RR P) q' = Some (length (filter is_rr ap1)).
Proof.
  intros s sf ff L2 addr p ps aps1 n bad fuel nl st pr flag W GF GD SZ EL NP EA BD WP Z1 Z2 EB.
  pose proof (front_automaton _ _ _ _ (wf_user s W) SZ EL) as HA.
  destruct (more_fuel s fuel nl st EB) as (bf & F1 & F2 & EBf).
  destruct (C39_grammar s bf pr flag W WP F1 F2) as (nl' & st' & sts & EB' & HB & LB & CG). rewrite EBf in EB'. inversion EB'; subst nl' st'. clear EB'.
  exists sts. split; [auto|]. split; [auto|]. intros fuel' T ET0.
  assert (Hf : length sts * b_nsyms s <= fuel' + length sts * b_nsyms s) by lia. assert (ET : lalr (fuel' + length sts * b_nsyms s) (pack_grammar s) nl st = Ok T) by (eapply lalr_mono; [|exact ET0]; lia).
  destruct (CG _ T Hf ET) as (P & EP & (I0 & sh0 & EI0 & FIN) & LP & LSR & LRR & PS). clear CG.
  exists P. split; [auto|].
  apply FindActions_inv in EA as (aps & EA & ER). apply resolve_states_inv in ER as (ns & Ln & L1 & -> & PP).
  destruct (C04_action_lists sf ff (user s) L2 (wf_user s W) SZ EL) as (aps' & EA' & LEN & AL). rewrite EA in EA'. inversion EA'; subst aps'. clear EA'.
  assert (FJ : exists J sh, nth_error sts (p_final P) = Some (J, sh) /\ In (0, 1) J).
  { apply (lr0_shift _ _ HB _ _ _ _ _ EI0) in FIN as (X & J & sh & IX & EJ & (i & Ii & Ai) & SU). exists J, sh. split; [auto|].
    destruct (lr0_start _ _ HB) as (I1 & sh1 & E1 & V). rewrite EI0 in E1. inversion E1; subst I1 sh1. apply (SU [] V).
    assert (X = ESym (S (b_ntokens s))) as ->. { apply V, (valid_GU s W) in Ii as [(-> & _)|[(-> & _)|(k & d & -> & _)]]; [now inversion Ai|discriminate|].
      rewrite ag_after in Ai. destruct (after_sym s k d X Ai) as (l & r & x & _ & _ & ->). now destruct IX as [<-|[]]. }
    apply (valid_goto _ [] (0, 0)); [apply valid_init; now apply ag_lhs0|reflexivity]. }
  destruct FJ as (JF & shF & EJF & IJF).
  (* one pair of states *)
  assert (MAIN : forall q q', corresponds (states_view L2) sts q q' ->
    exists ap1 acts' m, nth_error aps1 q = Some ap1 /\ nth_error (p_parser P) q' = Some acts' /\ nth_error ns q = Some m /\
    m = length (filter is_sr ap1) + length (filter is_rr ap1) /\
    (forall t k, In (mkAction SRCONFLICT t k) ap1 \/ In (mkAction RRCONFLICT t k) ap1 <->
       exists a, In a acts' /\ a_sym a = t /\ a_num a = k + 3 /\ a_shift a = false /\ a_supp a <> 0) /\
    nth_error (p_SR P) q' = Some (length (filter is_sr ap1)) /\
    nth_error (p_RR P) q' = Some (length (filter is_rr ap1))).
  { intros q q' (I & sh & J & sh' & E & E' & AG).
    destruct (nth_error_lt_ex _ aps q) as (ap & Eap). { rewrite LEN. eapply nth_error_Some_lt; eauto. }
    destruct (AL q I sh ap E Eap) as (S1 & R1 & _ & TY & NDR). destruct (PP q ap Eap) as (ap1 & m & E1 & Em & RL).
    assert (Iap : In ap aps) by (eapply nth_error_In; eauto).
    pose proof (Action_sort_perm (addr (0 + q)) ap (BD aps ap EA Iap)) as PM.
    assert (LO : labels_ok (Action_sort (addr (0 + q)) ap) ap1 m).
    { eapply (resolve_list_labels p ps NP (length ap)); [| | | | | |exact RL].
      - rewrite (Permutation_length PM). auto.
      - rewrite (Permutation_length PM). auto.
      - apply Action_sort_sorted.
      - intros a Ha. unfold live. assert (Ia : In a ap) by (eapply Permutation_in; eauto). destruct (TY a Ia) as [->|[->| ->]]; reflexivity.
      - eapply Permutation_NoDup; [|exact NDR]. apply Permutation_sym. clear - PM. revert PM. generalize (Action_sort (addr (0 + q)) ap). intros l PM.
        induction PM; cbn [filter]; auto; repeat match goal with |- context [if ?b then _ else _] => destruct b end; auto using perm_skip, perm_swap. eauto using perm_trans.
      - assert (ND : NoDup (map a_sp (filter is_shift ap))).
        { eapply (shifts_once sf ff (user s) L2 aps (wf_user s W) SZ EL); eauto. intros [k d] X HX. apply after_sym in HX as (l & r & x & _ & _ & ->). eauto. }
        eapply Permutation_NoDup; [|exact ND]. apply Permutation_map, Permutation_sym. clear - PM. revert PM. generalize (Action_sort (addr (0 + q)) ap). intros l PM.
        induction PM; cbn [filter]; auto; repeat match goal with |- context [if ?b then _ else _] => destruct b end; auto using perm_skip, perm_swap. eauto using perm_trans. }
    assert (PI : forall a, In a (Action_sort (addr (0 + q)) ap) <-> In a ap) by (intros a; split; apply Permutation_in; auto using Permutation_sym).
    destruct LO as [O1 O2 _ O4 O5].
    destruct (PS q' J sh' E') as (acts & acts' & sr & rr & B1 & B2 & B3 & _ & B5 & B6 & B7 & B8).
    assert (FN : (q' =? p_final P) = false). { apply Nat.eqb_neq. intros ->. rewrite EJF in E'. inversion E'; subst. now apply AG. } rewrite FN in B8.
    (* the actions of the two states *)
    assert (SHI : forall t, t < b_ntokens s -> ((exists x, In (mkAction SHIFT t x) ap) <-> exists x, shifts_on acts t x)).
    { intros t Lt. transitivity (exists x, In (t, x) sh).
      - split; intros (x & H); exists x.
        + apply S1 in H as (X & J2 & sh2 & H). apply (lr0_shift _ _ HA _ _ _ t x E). exists X, J2, sh2. exact H.
        + apply S1. apply (lr0_shift _ _ HA _ _ _ t x E). exact H.
      - rewrite (agree_shifts s W GF GD _ sts HA HB q I sh q' J sh' t E E' AG) by lia. split.
        + intros (x & H). exists (shift_act pr t x). split; [|split; reflexivity]. apply B7. left. exists t, x. auto.
        + intros (x & H1 & H2 & H3). apply B7 in H1 as [(t' & x' & K1 & K2 & ->)|(t' & gm & i & _ & _ & _ & _ & _ & ->)]; [|discriminate].
          cbn in H2. subst t'. eauto. }
    assert (RED : forall t k, In (mkAction REDUCE t k) ap <-> In (red_act pr t (k + 3)) acts).
    { intros t k. rewrite R1, B7. split.
      - intros (Lt & rl & Er & Ik & H). right. apply (agree_la s W GF GD _ sts HA HB q I sh q' J sh' k _ t E E' AG) in H as (gm & V & L).
        exists t, gm, (S k, length (r_rhs rl)). split; [exact Lt|]. split; [auto|]. split; [auto|]. split; [|split; [discriminate|f_equal; cbn; lia]].
        rewrite ag_after. unfold after_dot. cbn [fst snd]. rewrite Er. now apply nth_error_None.
      - intros [(t' & x' & _ & _ & X)|(t' & gm & [k' d'] & Lt & V & L & AD & N0 & X)]; [discriminate|]. unfold red_act in X. cbn [fst] in X, N0. inversion X as [[X1 X2 X3]]. subst t'.
        assert (k' = S k) by lia. subst k'. split; [exact Lt|].
        assert (IO : item_ok (aug s) (S k, d')) by (apply (valid_ok _ gm), (la_valid _ _ _ _ L)). destruct IO as (rl & K1 & K2). cbn [fst snd] in K1, K2.
        rewrite ag_rule in K1. exists rl. split; [auto|]. rewrite ag_after in AD. unfold after_dot in AD. cbn [fst snd] in AD. rewrite K1 in AD. apply nth_error_None in AD.
        replace (length (r_rhs rl)) with d' by lia. split; [apply AG; apply V; now apply la_valid in L|].
        apply (agree_la s W GF GD _ sts HA HB q I sh q' J sh' k _ t E E' AG). eauto. }
    assert (RTOK : forall t k, In (mkAction REDUCE t k) ap -> t < b_ntokens s) by (intros t k H; apply R1 in H as (Lt & _); exact Lt).
    assert (ACT : forall x, In x acts -> a_prec x = 0 /\ (a_shift x = false -> exists t k, x = red_act pr t (k + 3))).
    { intros x Ix. apply B7 in Ix as [(t & x' & _ & _ & ->)|(t & gm & [[|k] d] & _ & _ & _ & _ & N0 & ->)].
      - cbn. split; [auto|discriminate].
      - now destruct N0.
      - cbn. split; [auto|]. intros _. exists t, k. now replace (k + 3) with (S k + 2) by lia. }
    assert (NB : forall x y, In x acts -> ~ beats x y). { intros x y Ix (H & _). apply ACT in Ix as (Ix & _). lia. }
    assert (CON : forall t x, contender acts t x <-> reds_on acts t x /\ forall y, ~ shifts_on acts t y).
    { intros t x. unfold contender. split; [|tauto]. intros (H & [K|(y & z & (Y1 & _) & _ & _ & K)]); [auto|]. now apply NB in K. }
    assert (SDEC : forall t, (exists y, shifts_on acts t y) \/ forall y, ~ shifts_on acts t y).
    { intros t. destruct (existsb (fun a => (a_sym a =? t) && a_shift a) acts) eqn:X.
      - left. apply existsb_exists in X as (y & Y1 & Y2). apply andb_true_iff in Y2 as (Y2 & Y3). apply Nat.eqb_eq in Y2. exists y. repeat split; auto.
      - right. intros y (Y1 & Y2 & Y3). apply eq_true_iff_eq in X || idtac. assert (Y : existsb (fun a => (a_sym a =? t) && a_shift a) acts = true).
        { apply existsb_exists. exists y. split; [auto|]. apply andb_true_iff. split; [now apply Nat.eqb_eq|auto]. } congruence. }
    (* the conflicts in byacc's terms *)
    assert (SRS : forall t k, In (red_act pr t (k + 3)) acts -> (sr_spec flag false acts (red_act pr t (k + 3)) <-> exists y, shifts_on acts t y)).
    { intros t k Ix. unfold sr_spec. cbn [andb]. split.
      - intros (_ & y & Y & _). eauto.
      - intros (y & Y). split; [reflexivity|]. exists y. split; [exact Y|]. split; [left; apply ACT; apply Y|]. intros z _ _. apply NB. apply Y. }
    assert (RRS : forall t k, In (red_act pr t (k + 3)) acts -> (rr_spec flag false acts (red_act pr t (k + 3)) <->
      (forall y, ~ shifts_on acts t y) /\ exists k', k' < k /\ In (red_act pr t (k' + 3)) acts)).
    { intros t k Ix. unfold rr_spec, rr_conflict. cbn [andb]. change (a_sym (red_act pr t (k + 3))) with t. change (a_num (red_act pr t (k + 3))) with (k + 3). split.
      - intros (_ & C & f & Cf & Lf & _). apply CON in C as (_ & NS). split; [auto|]. apply CON in Cf as ((Y1 & Y2 & Y3) & _).
        destruct (ACT f Y1) as (_ & Y4). destruct (Y4 Y3) as (t' & k' & ->). cbn in Y2, Lf. subst t'. exists k'. split; [lia|auto].
      - intros (NS & k' & Lk & Ik). split; [reflexivity|]. split; [apply CON; split; [split; [auto|split; reflexivity]|auto]|].
        (* the first reduction on t *)
        assert (MIN : exists k0, In (red_act pr t (k0 + 3)) acts /\ k0 <= k' /\ forall k1, In (red_act pr t (k1 + 3)) acts -> k0 <= k1).
        { clear - Ik RED. revert Ik. induction k' as [k' IH] using lt_wf_ind. intros Ik.
          destruct (existsb (fun k1 => if in_dec action_eq_dec (mkAction REDUCE t k1) ap then true else false) (seq 0 k')) eqn:X.
          - apply existsb_exists in X as (k1 & K1 & K2). apply in_seq in K1. destruct (in_dec _ _ _) as [K3|]; [|discriminate].
            destruct (IH k1) as (k0 & Q1 & Q2 & Q3); [lia|now apply RED|]. exists k0. split; [auto|]. split; [lia|auto].
          - exists k'. split; [auto|]. split; [lia|]. intros k1 K1. destruct (le_lt_dec k' k1); [auto|]. exfalso.
            assert (Y : existsb (fun k1 => if in_dec action_eq_dec (mkAction REDUCE t k1) ap then true else false) (seq 0 k') = true); [|congruence].
            apply existsb_exists. exists k1. split; [apply in_seq; lia|]. destruct (in_dec _ _ _) as [|N]; [auto|]. destruct N. now apply RED. }
        destruct MIN as (k0 & Q1 & Q2 & Q3). exists (red_act pr t (k0 + 3)). split; [apply CON; split; [split; [auto|split; reflexivity]|auto]|].
        split; [cbn; lia|]. split; [|right; left; now apply ACT]. intros x Cx. apply CON in Cx as ((Y1 & Y2 & Y3) & _). destruct (ACT x Y1) as (_ & Y4). destruct (Y4 Y3) as (t' & k1 & ->).
        cbn in Y2. subst t'. cbn. specialize (Q3 k1 Y1). lia. }
    assert (SRL : forall t k, In (mkAction SRCONFLICT t k) ap1 <-> In (red_act pr t (k + 3)) acts /\ exists y, shifts_on acts t y).
    { intros t k. rewrite O4, PI, RED. split; intros (H1 & H2); (split; [auto|]); apply RED, RTOK in H1.
      - apply SHI; [auto|]. destruct H2 as (x & H2). exists x. now apply PI.
      - apply SHI in H2 as (x & H2); [|auto]. exists x. now apply PI. }
    assert (RRL : forall t k, In (mkAction RRCONFLICT t k) ap1 <-> In (red_act pr t (k + 3)) acts /\ (forall y, ~ shifts_on acts t y) /\ exists k', k' < k /\ In (red_act pr t (k' + 3)) acts).
    { intros t k. rewrite O5, PI, RED. split; intros (H1 & H2 & k' & H3 & H4); (split; [auto|]); pose proof (proj2 (RED t k) H1) as LT; apply RTOK in LT.
      - split; [|exists k'; split; [auto|apply RED; now apply PI]]. intros y Y. destruct (proj2 (SHI t LT) (ex_intro _ y Y)) as (x & Hx). apply (H2 x). now apply PI.
      - split; [|exists k'; split; [auto|apply PI; now apply RED]]. intros x Hx. apply PI in Hx. destruct (proj1 (SHI t LT) (ex_intro _ x Hx)) as (y & Y). now apply (H2 y). }
    assert (LIV : forall t k, In (red_act pr t (k + 3)) acts -> (live_spec flag false acts (red_act pr t (k + 3)) <-> (forall y, ~ shifts_on acts t y) /\ forall k', k' < k -> ~ In (red_act pr t (k' + 3)) acts)).
    { intros t k Ix. unfold live_spec. cbn [andb]. change (a_shift (red_act pr t (k + 3))) with false. cbn match. unfold wins.
      change (a_sym (red_act pr t (k + 3))) with t. change (a_num (red_act pr t (k + 3))) with (k + 3). split.
      - intros (C & H & _). apply CON in C as (_ & NS). split; [auto|]. intros k' Lk Ik. destruct (H (red_act pr t (k' + 3))) as (_ & X & _).
        + apply CON. split; [split; [auto|split; reflexivity]|auto].
        + cbn. lia.
        + destruct (ACT _ Ik) as (Y1 & _). destruct (ACT _ Ix) as (Y2 & _). lia.
      - intros (NS & H). split; [apply CON; split; [split; [auto|split; reflexivity]|auto]|]. split.
        + intros x Cx Lx. exfalso. apply CON in Cx as ((Y1 & Y2 & Y3) & _). destruct (ACT x Y1) as (_ & Y4). destruct (Y4 Y3) as (t' & k1 & ->). cbn in Y2, Lx. subst t'. apply (H k1); [lia|auto].
        + intros x Cx Lx. right. left. now apply ACT. }
    pose proof (conflicting_split ap1) as CS.
    exists ap1, acts', m. split; [auto|]. split; [auto|]. split; [auto|]. split; [lia|]. split; [|split].
    - intros t k. rewrite SRL, RRL. split.
      + intros H. assert (Ix : In (red_act pr t (k + 3)) acts) by tauto. pose proof Ix as Ix'. rewrite <- (ro_same _ _ _ _ _ _ B8) in Ix'.
        apply in_map_iff in Ix' as (a & Ea & Ia). exists a. split; [auto|]. unfold sup, red_act in Ea. destruct a as [x1 x2 x3 x4 x5 x6]. cbn in Ea |- *. injection Ea as E1' E2' E3 E4' E5. subst x1 x2 x4.
        split; [auto|]. split; [auto|]. split; [auto|]. intros ->. assert (LV : live_spec flag false acts (red_act pr t (k + 3))).
        { apply (ro_live _ _ _ _ _ _ B8); [auto|]. unfold red_act. now rewrite <- E3, <- E5. }
        apply (LIV _ _ Ix) in LV as (V1 & V2). destruct H as [(_ & y & Y)|(_ & _ & k' & Lk & Ik)]; [now apply V1 in Y|now apply V2 in Ik].
      + intros (a & Ia & A1 & A2 & A3 & A4). assert (Ix : In (sup 0 a) acts). { rewrite <- (ro_same _ _ _ _ _ _ B8). now apply in_map. }
        destruct (ACT _ Ix) as (_ & X). destruct (X A3) as (t' & k' & Ea). assert (t' = t /\ k' = k) as (-> & ->).
        { unfold sup, red_act in Ea. inversion Ea. rewrite A1, A2 in *. split; [auto|lia]. }
        rewrite Ea in Ix. destruct (SDEC t) as [Y|NS]; [auto|]. right. split; [auto|]. split; [auto|].
        assert (NL : ~ live_spec flag false acts (red_act pr t (k + 3))).
        { intros LV. apply (ro_live _ _ _ _ _ _ B8) in LV; [|auto]. apply A4.
          assert (ND : NoDup (map (sup 0) acts')). { rewrite (ro_same _ _ _ _ _ _ B8). clear - B5. induction B5 as [|x l SS IH F]; constructor; [|auto]. intros I. rewrite Forall_forall in F. specialize (F _ I). unfold act_lt in F. destruct F as [F|(_ & [(F1' & F2')|(_ & _ & F)])]; [lia|congruence|lia]. }
          assert (EQ : a = red_act pr t (k + 3)). { eapply NoDup_map_eq; [exact ND|auto|auto|]. rewrite Ea. reflexivity. }
          now rewrite EQ. }
        destruct (existsb (fun k1 => if in_dec action_eq_dec (mkAction REDUCE t k1) ap then true else false) (seq 0 k)) eqn:X1.
        * apply existsb_exists in X1 as (k1 & K1 & K2). apply in_seq in K1. destruct (in_dec _ _ _) as [K3|]; [|discriminate]. exists k1. split; [lia|now apply RED].
        * exfalso. apply NL. apply (LIV _ _ Ix). split; [auto|]. intros k1 Lk Ik.
          assert (Y : existsb (fun k1 => if in_dec action_eq_dec (mkAction REDUCE t k1) ap then true else false) (seq 0 k) = true); [|congruence].
          apply existsb_exists. exists k1. split; [apply in_seq; lia|]. destruct (in_dec _ _ _) as [|N]; [auto|]. destruct N. now apply RED.
    - rewrite B2. f_equal. eapply (same_count pr is_sr ap1 acts); [| |exact (ro_sr _ _ _ _ _ _ B8)| | |].
      + exists SRCONFLICT. intros [[] ? ?]; cbn; split; congruence.
      + eapply conflicting_sub; [|exact O1]. intros [[] ? ?]; cbn; congruence.
      + intros x Ix (H & _). now apply ACT.
      + intros [ty t k] Ia Fa. assert (ty = SRCONFLICT) as -> by (destruct ty; auto; discriminate). cbn [a_sp a_arg]. apply SRL in Ia as (Ia & Y). split; [auto|]. now apply SRS.
      + intros t k Ix Px. exists (mkAction SRCONFLICT t k). split; [|auto]. apply SRL. split; [auto|]. now apply (SRS t k).
    - rewrite B3. f_equal. eapply (same_count pr is_rr ap1 acts); [| |exact (ro_rr _ _ _ _ _ _ B8)| | |].
      + exists RRCONFLICT. intros [[] ? ?]; cbn; split; congruence.
      + eapply conflicting_sub; [|exact O1]. intros [[] ? ?]; cbn; congruence.
      + intros x Ix (_ & C & _). apply CON in C as ((_ & _ & C) & _). now apply ACT.
      + intros [ty t k] Ia Fa. assert (ty = RRCONFLICT) as -> by (destruct ty; auto; discriminate). cbn [a_sp a_arg]. apply RRL in Ia as (Ia & Y). split; [auto|]. now apply RRS.
      + intros t k Ix Px. exists (mkAction RRCONFLICT t k). split; [|auto]. apply RRL. split; [auto|]. now apply (RRS t k). }
  split.
  - destruct (corr_match s W GF GD (states_view L2) sts HA HB) as (fin & ys & J0 & sh1 & EJ & IJ & Ly & Hy & PE).
    assert (fin = p_final P) as -> by (eapply (final_unique s W GF sts HB); eauto).
    destruct (PS _ _ _ EJ) as (acts & acts' & sr & rr & _ & B2 & B3 & _ & _ & _ & B7 & B8).
    assert (NA : forall a, ~ In a acts).
    { intros a Ia. apply B7 in Ia as [(t & x & K & _)|(t & gm & i & _ & V & L & _ & N0 & _)].
      - now rewrite (final_shift s W GF sts HB _ _ _ EJ IJ) in K.
      - apply la_valid in L. apply V in L. apply (final_items s W GF sts HB _ _ _ EJ IJ) in L. subst i. now apply N0. }
    assert (Z : forall Q x, counts acts Q x -> x = 0). { intros Q x (L & _ & <- & H). destruct L as [|a L]; [auto|]. exfalso. apply (NA a). apply H. now left. }
    assert (sr = 0) by (eapply Z, (ro_sr _ _ _ _ _ _ B8)). assert (rr = 0) by (eapply Z, (ro_rr _ _ _ _ _ _ B8)). subst sr rr.
    rewrite (nth_seq_sum (p_SR P)), (nth_seq_sum (p_RR P)), LSR, LRR.
    rewrite <- (perm_sum _ _ (Permutation_map (fun i => nth i (p_SR P) 0) PE)), <- (perm_sum _ _ (Permutation_map (fun i => nth i (p_RR P) 0) PE)).
    unfold list_sum at 2 3. cbn [map fold_right]. rewrite (nth_error_nth _ _ 0 B2), (nth_error_nth _ _ 0 B3). cbn [Nat.add].
    assert (LYN : length ys = length ns) by congruence. clear - MAIN Hy LYN.
    assert (G : forall q m q', nth_error ns q = Some m -> nth_error ys q = Some q' -> m = nth q' (p_SR P) 0 + nth q' (p_RR P) 0).
    { intros q m q' Em Ey. destruct (MAIN q q' (Hy _ _ Ey)) as (ap1 & acts' & m' & _ & _ & M3 & M4 & _ & M5 & M6). rewrite Em in M3. inversion M3; subst m'.
      now rewrite (nth_error_nth _ _ 0 M5), (nth_error_nth _ _ 0 M6). }
    clear MAIN Hy. revert ys LYN G. induction ns as [|m ns IH]; intros [|y ys] LYN G; try discriminate; [reflexivity|]. unfold list_sum in *. cbn [map fold_right].
    rewrite (IH ys); [|now injection LYN|intros q m' q'; apply (G (S q))]. rewrite (G 0 m y eq_refl eq_refl). lia.
  - intros q q' C. destruct (MAIN q q' C) as (ap1 & acts' & m & M1 & M2 & _ & _ & M3 & M4 & M5). exists ap1, acts'. auto.
Qed.
Print Assumptions C50_conflicts.

(** prog : e ; e : e '+' e | 'x' | a ; a : 'x'.  Tokens $end, error, '+', 'x'. *)
Definition ex50 : bsrc := mkSrc 4 8 [(5, [6]); (6, [6; 2; 6]); (6, [3]); (6, [7]); (7, [3])].
Definition np50 : precs := mkPrecs (fun _ => None) (fun _ => UNK).
Definition pr50 : bprec := mkPrec (repeat 0 8) (repeat TOKEN 8) (repeat 0 8) (repeat TOKEN 8).
Example C50_example : exists L2 aps1 bad nl st T P,
  wf_src ex50 /\ goal_free ex50 /\ goal_defined ex50 /\ (N.of_nat (item_count (user ex50)) < 2 ^ 30)%N /\
  lemon_front 20 60 (user ex50) = Ok L2 /\ FindActions exaddr np50 (repeat None 5) (user ex50) L2 = Ok (aps1, 3, bad) /\
  wf_prec ex50 pr50 /\ lr0 100 (pack_grammar ex50) = Ok (nl, st) /\ lalr 100 (pack_grammar ex50) nl st = Ok T /\ make_parser false (pack_grammar ex50) pr50 T = Ok P /\
  list_sum (p_SR P) = 1 /\ list_sum (p_RR P) = 2.
Proof.
  do 7 eexists. split; [apply wf_srcb_ok; reflexivity|].
  split; [intros l r I J; cbn in I; repeat (destruct I as [I|I]; [inversion I; subst; cbn in J; lia|]); destruct I|].
  split; [eexists; left; reflexivity|]. split; [reflexivity|]. split; [vm_compute; reflexivity|]. split; [vm_compute; reflexivity|]. split; [constructor; reflexivity|].
  split; [vm_compute; reflexivity|]. split; [vm_compute; reflexivity|]. split; [vm_compute; reflexivity|]. split; reflexivity.
Qed.

(** When the goal is on a right side they need not agree: for s : s 'x' | 'x' byacc has no
    conflict and lemon fails an assertion. *)
Theorem C50_goal_refuted : exists s L2 nl st T P,
  wf_src s /\ goal_defined s /\ lemon_front 20 60 (user s) = Ok L2 /\ (forall addr p ps, FindActions addr p ps (user s) L2 = Bad) /\
  lr0 100 (pack_grammar s) = Ok (nl, st) /\ lalr 100 (pack_grammar s) nl st = Ok T /\
  make_parser false (pack_grammar s) (mkPrec (repeat 0 5) (repeat TOKEN 5) (repeat 0 5) (repeat TOKEN 5)) T = Ok P /\
  list_sum (p_SR P) = 0 /\ list_sum (p_RR P) = 0.
Proof.
  exists (mkSrc 3 5 [(4, [4; 2]); (4, [2])]). do 5 eexists. split; [apply wf_srcb_ok; reflexivity|]. split; [eexists; left; reflexivity|].
  split; [vm_compute; reflexivity|]. split; [intros addr p ps; vm_compute; reflexivity|]. split; [vm_compute; reflexivity|]. split; [vm_compute; reflexivity|].
  split; [vm_compute; reflexivity|]. split; reflexivity.
Qed.
Print Assumptions C50_goal_refuted.
