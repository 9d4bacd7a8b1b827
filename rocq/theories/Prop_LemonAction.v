(** C04-C08: rule precedences, action lists and conflict resolution of lemon. *)
From Coq Require Import List Arith NArith Lia Bool Permutation Sorted.
Import ListNotations.
From Verif Require Import Base SpecGrammar SpecGrammarFacts SpecLRFacts SpecLR0 LemonSetModel LemonFirstModel LemonFirstProof
  LemonSortModel LemonStatesModel LemonStatesProof Prop_LemonStates LemonFollowModel LemonFollowProof
  LemonActionModel LemonActionProof.
Local Open Scope res_scope.

(** * The analysis up to the follow sets *)

Lemma front_facts : forall sf ff g L2, wf_grammar g -> (N.of_nat (item_count g) < 2 ^ 30)%N ->
  lemon_front sf ff g = Ok L2 -> exists L, Final g L /\ Follow g L L2.
Proof.
  intros sf ff g L2 WF SZ H. unfold lemon_front in H.
  apply bind_Ok in H as ([lam fs] & EF & H). apply bind_Ok in H as (L & EL & H). apply bind_Ok in H as (L1 & E1 & E2).
  destruct (FindFirstSets_ok g WF) as (lam' & fs' & E & LE & FE). rewrite EF in E. inversion E; subst lam' fs'.
  rewrite <- all_items_count in SZ.
  pose proof (FindStates_Final g WF lam fs LE FE SZ sf L EL) as F. exists L. split; auto.
  destruct (lookaheads_ok g L F) as (L1' & E1' & _ & FO). rewrite E1 in E1'. inversion E1'; subst L1'. eauto.
Qed.

Lemma front_view : forall g L L2, Follow g L L2 -> states_view L2 = states_view L.
Proof.
  intros g L L2 FO. unfold states_view. rewrite (fo_states _ _ _ FO). apply map_ext. intros st. unfold state_view. f_equal.
  apply map_ext. intros x. apply FO.
Qed.

(** The analysis terminates for every grammar. *)
Theorem C04_analysis_terminates : forall g, wf_grammar g -> (N.of_nat (item_count g) < 2 ^ 30)%N ->
  exists sf ff L2, lemon_front sf ff g = Ok L2 /\ lr0_automaton g (states_view L2).
Proof.
  intros g WF SZ. destruct (FindFirstSets_ok g WF) as (lam & fs & EF & LE & FE).
  pose proof SZ as SZ'. rewrite <- all_items_count in SZ'.
  destruct (FindStates_ok g WF lam fs LE FE SZ' (S (max_states g))) as (L & EL & F); [lia|].
  destruct (lookaheads_ok g L F) as (L1 & E1 & T & FO).
  destruct (T _ (Nat.le_refl _)) as (L2 & E2). exists (S (max_states g)), (follow_fuel L1), L2.
  split.
  - unfold lemon_front. rewrite EF. cbn [bind]. rewrite EL. cbn [bind]. rewrite E1. cbn [bind]. exact E2.
  - rewrite (front_view g L L2 (FO _ _ E2)). apply Final_automaton. exact F.
Qed.
Print Assumptions C04_analysis_terminates.

(** * C04 *)

Lemma act_facts : forall g L L2, Final g L -> Follow g L L2 ->
  exists st0 sts, l_states L2 = st0 :: sts /\
  actions_added g L2 = Ok ((mkAction ACCEPT (g_start g) 0 :: raw_of g (l_cfgs L2) st0) :: map (raw_of g (l_cfgs L2)) sts).
Proof.
  intros g L L2 F FO. apply actions_added_eq.
  - rewrite (fo_states _ _ _ FO). apply F.
  - intros st x Hst Hx. rewrite (fo_states _ _ _ FO) in Hst. apply In_nth_error in Hst as (q & Hq).
    split; [eapply fo_size; eauto|].
    destruct (si_reach _ _ (fi_inv _ _ F) q st Hq) as (gm & V).
    assert (IO : item_ok g (key (l_cfgs L) x)).
    { apply (valid_ok g gm). apply V. apply in_map. exact Hx. }
    rewrite <- (fo_key _ _ _ FO) in IO. unfold key, c_item in IO. destruct IO as (rl & E & _). simpl in E.
    eapply nth_error_Some_lt; eauto.
Qed.

Lemma raw_nth : forall g L L2 aps q st, Final g L -> Follow g L L2 -> actions_added g L2 = Ok aps ->
  nth_error (l_states L) q = Some st ->
  nth_error aps q = Some ((if q =? 0 then [mkAction ACCEPT (g_start g) 0] else []) ++ raw_of g (l_cfgs L2) st).
Proof.
  intros g L L2 aps q st F FO E H. destruct (act_facts g L L2 F FO) as (st0 & sts & ES & E').
  rewrite E in E'. inversion E'; subst aps. rewrite (fo_states _ _ _ FO) in ES. rewrite ES in H.
  destruct q as [|q]; simpl in *; [inversion H; subst; reflexivity|]. rewrite nth_error_map, H. reflexivity.
Qed.

Lemma raw_In : forall g L L2 q st a, Final g L -> Follow g L L2 -> nth_error (l_states L) q = Some st ->
  (In a (raw_of g (l_cfgs L2) st) <->
   In a (s_ap st) \/
   exists t r rl, a = mkAction REDUCE t r /\ t < g_nterm g /\ rule_of g r = Some rl /\
     In (r, length (r_rhs rl)) (its L st) /\
     exists gm, is_valid_set g gm (its L st) /\ la g gm (r, length (r_rhs rl)) t).
Proof.
  intros g L L2 q st a F FO H. unfold raw_of. rewrite in_app_iff, <- in_rev, in_flat_map.
  assert (KK : forall x, c_rp (cf (l_cfgs L2) x) = fst (key (l_cfgs L) x) /\ c_dot (cf (l_cfgs L2) x) = snd (key (l_cfgs L) x)).
  { intros x. rewrite <- (fo_key _ _ _ FO). split; reflexivity. }
  split.
  - intros [(x & Hx & Ha)|Ha]; [right|left; auto].
    apply red_of_In in Ha as ((rp & Er & Ed) & j & Hj & SF & ->). destruct (KK x) as (K1 & K2).
    pose proof (proj1 (fo_la _ _ _ FO q st x j H Hx) SF) as (gm & V & LA).
    rewrite K1 in *. rewrite K2 in Ed.
    assert (EK : key (l_cfgs L) x = (fst (key (l_cfgs L) x), length (r_rhs rp))) by (rewrite Ed; apply surjective_pairing).
    exists j, (fst (key (l_cfgs L) x)), rp. split; auto. split; auto. split; auto.
    rewrite <- EK. split; [apply in_map; auto|]. exists gm. split; [exact V|exact LA].
  - intros [Ha|(t & r & rl & -> & Ht & Er & Hi & gm & V & LA)]; [right; auto|left].
    apply in_map_iff in Hi as (x & Ex & Hx). exists x. split; auto. destruct (KK x) as (K1 & K2).
    rewrite Ex in K1, K2. simpl in K1, K2. apply red_of_In. rewrite K1, K2. split; [eauto|].
    exists t. split; auto. split; auto. apply (fo_la _ _ _ FO q st x t H Hx). exists gm. split; [exact V|]. rewrite Ex. exact LA.
Qed.

Definition is_shift (a : action) : bool := match a_type a with SHIFT => true | _ => false end.

Lemma filter_app_ns : forall l, (forall a, In a l -> a_type a = SHIFT) -> filter (fun a => negb (is_shift a)) l = [].
Proof.
  induction l as [|a l IH]; intros H; auto. simpl. unfold is_shift at 1. rewrite (H a (or_introl eq_refl)). simpl.
  apply IH. intros b Hb. apply H. right; auto.
Qed.

Lemma red_NoDup : forall g h l, NoDup (map (key h) l) -> NoDup (flat_map (red_of g h) l).
Proof.
  intros g h l. induction l as [|x l IH]; intros ND; [constructor|]. inversion ND as [|? ? N1 N2]; subst.
  cbn [flat_map]. apply NoDup_app_iff. split; [|split; [auto|]].
  - unfold red_of. destruct (nth_error (g_rules g) (c_rp (cf h x))); [|constructor].
    destruct (length (r_rhs r) =? c_dot (cf h x)); [|constructor].
    apply FinFun.Injective_map_NoDup; [intros a b E; inversion E; auto|]. apply NoDup_filter, seq_NoDup.
  - intros a Ha Hb. apply in_flat_map in Hb as (y & Hy & Hb).
    apply red_of_In in Ha as ((rp & Er & Ed) & j & _ & _ & ->). apply red_of_In in Hb as ((rp' & Er' & Ed') & j' & _ & _ & E).
    inversion E as [[E1 E2]]. apply N1. replace (key h x) with (key h y); [apply in_map; auto|].
    unfold key, c_item. rewrite <- E2 in *. rewrite Er in Er'. inversion Er'; subst. congruence.
Qed.

(** Before resolution the action list of each state holds exactly the shifts of
    the automaton, a reduce for each lookahead of each completed item, and (first
    state only) the accept action; nothing else, the reduces and the accept once
    each. *)
Theorem C04_action_lists : forall sf ff g L2, wf_grammar g -> (N.of_nat (item_count g) < 2 ^ 30)%N ->
  lemon_front sf ff g = Ok L2 ->
  exists aps, actions_added g L2 = Ok aps /\ length aps = length (states_view L2) /\
  forall q I sh ap, nth_error (states_view L2) q = Some (I, sh) -> nth_error aps q = Some ap ->
    (forall s q', In (mkAction SHIFT s q') ap <->
       exists X J sh', In s (elem_syms X) /\ nth_error (states_view L2) q' = Some (J, sh') /\ successor g I X J) /\
    (forall t r, In (mkAction REDUCE t r) ap <->
       t < g_nterm g /\ exists rl, rule_of g r = Some rl /\ In (r, length (r_rhs rl)) I /\
         exists gm, is_valid_set g gm I /\ la g gm (r, length (r_rhs rl)) t) /\
    (forall s x, In (mkAction ACCEPT s x) ap <-> q = 0 /\ s = g_start g /\ x = 0) /\
    (forall a, In a ap -> a_type a = SHIFT \/ a_type a = REDUCE \/ a_type a = ACCEPT) /\
    NoDup (filter (fun a => negb (is_shift a)) ap).
Proof.
  intros sf ff g L2 WF SZ EF. destruct (front_facts _ _ _ _ WF SZ EF) as (L & F & FO).
  destruct (act_facts g L L2 F FO) as (st0 & sts & ES & EA).
  rewrite (front_view g L L2 FO).
  eexists. split; [exact EA|]. split.
  { unfold states_view. rewrite map_length, <- (fo_states _ _ _ FO), ES. simpl. rewrite map_length. reflexivity. }
  intros q I sh ap HI Hap. pose proof (Final_automaton g L F) as AUT.
  pose proof (lr0_shift _ _ AUT q I sh) as SHF.
  pose proof HI as HI0. apply view_nth in HI as (st & H & EI & Esh).
  rewrite (raw_nth g L L2 _ q st F FO EA H) in Hap. inversion Hap; subst ap. clear Hap EA ES.
  assert (SHT : forall a, In a (s_ap st) -> a_type a = SHIFT).
  { intros a Ha. apply (ap_goes g L q st a F H) in Ha as (X & q' & s & _ & _ & ->). reflexivity. }
  assert (INA : forall a, In a ((if q =? 0 then [mkAction ACCEPT (g_start g) 0] else []) ++ raw_of g (l_cfgs L2) st) <->
    (q = 0 /\ a = mkAction ACCEPT (g_start g) 0) \/ In a (s_ap st) \/
     exists t r rl, a = mkAction REDUCE t r /\ t < g_nterm g /\ rule_of g r = Some rl /\
     In (r, length (r_rhs rl)) (its L st) /\
     exists gm, is_valid_set g gm (its L st) /\ la g gm (r, length (r_rhs rl)) t).
  { intros a. rewrite in_app_iff, (raw_In g L L2 q st a F FO H). destruct (Nat.eqb_spec q 0); simpl; intuition. }
  split; [|split; [|split; [|split]]].
  - intros s q'. rewrite INA, <- (SHF s q' HI0), Esh, in_map_iff. split.
    + intros [(_ & E)|[Ha|(t & r & rl & E & _)]]; try discriminate. eexists; split; [|exact Ha]; reflexivity.
    + intros (a & E & Ha). right; left. inversion E; subst. pose proof (SHT a Ha) as T. destruct a as [ty s1 a1]. simpl in *. subst ty. exact Ha.
  - intros t r. rewrite INA. subst I. split.
    + intros [(_ & E)|[Ha|(t' & r' & rl & E & HT & Er & Hi & G)]]; try discriminate.
      * apply SHT in Ha. discriminate.
      * inversion E; subst t' r'. split; auto. exists rl. auto.
    + intros (HT & rl & Er & Hi & G). right; right. exists t, r, rl. auto.
  - intros s x. rewrite INA. split.
    + intros [(Hq & E)|[Ha|(t & r & rl & E & _)]]; try discriminate; [inversion E; auto|]. apply SHT in Ha. discriminate.
    + intros (-> & -> & ->). left; auto.
  - intros a Ha. apply INA in Ha. destruct Ha as [(_ & ->)|[Ha|(t & r & rl & -> & _)]]; simpl; auto.
  - assert (ND : NoDup (filter (fun a => negb (is_shift a)) (raw_of g (l_cfgs L2) st))).
    { unfold raw_of. rewrite filter_app, (filter_app_ns (s_ap st) SHT), app_nil_r. apply NoDup_filter, NoDup_rev, red_NoDup.
      rewrite (map_ext _ _ (fo_key _ _ _ FO)). apply (si_nd _ _ (fi_inv _ _ F) q st H). }
    destruct (Nat.eqb_spec q 0); [|exact ND]. simpl. constructor; auto.
    intros C. apply filter_In in C as (C & _). apply (raw_In g L L2 q st _ F FO H) in C as [C|(t & r & rl & E & _)]; try discriminate.
    apply SHT in C. discriminate.
Qed.
Print Assumptions C04_action_lists.

(** S : E ; E : E + E | num | ( E ).  Terminals 0 $, 1 +, 2 num, 3 lp, 4 rp;
    nonterminals 5 S, 6 E. *)
Definition exg4 : grammar := mkGrammar 5 7
  [mkRule 5 [ESym 6]; mkRule 6 [ESym 6; ESym 1; ESym 6]; mkRule 6 [ESym 2]; mkRule 6 [ESym 3; ESym 6; ESym 4]] 5.

Example C04_ex : wf_grammar exg4 /\ (N.of_nat (item_count exg4) < 2 ^ 30)%N /\
  exists L2 aps, lemon_front 20 60 exg4 = Ok L2 /\ actions_added exg4 L2 = Ok aps /\
  existsb (fun ap => match filter (fun a => a_sp a =? 1) ap with
    | [mkAction REDUCE _ 1; mkAction SHIFT _ _] => true | _ => false end) aps = true.
Proof.
  split; [apply wf_grammarb_ok; reflexivity|]. split; [reflexivity|].
  do 2 eexists. split; [vm_compute; reflexivity|]. split; vm_compute; reflexivity.
Qed.

(** * C08 *)

(** The terminals occurring on a right-hand side, a multi-terminal contributing
    its members. *)
Definition rhs_terminals (g : grammar) (rhs : list elem) : list nat :=
  flat_map (fun e => match e with ESym s => if s <? g_nterm g then [s] else [] | EMulti l => l end) rhs.

Definition last_error (l : list nat) : option nat := match rev l with [] => None | x :: _ => Some x end.

Lemma prec_members_first : forall p l, prec_members false p l None = find (has_prec p) l.
Proof. induction l as [|s l IH]; simpl; auto. destruct (has_prec p s); simpl; auto. Qed.

Lemma prec_rhs_some : forall p n rhs s, prec_rhs false p n rhs (Some s) = Some s.
Proof. destruct rhs; reflexivity. Qed.

Lemma find_app : forall (f : nat -> bool) a b, find f (a ++ b) = match find f a with Some x => Some x | None => find f b end.
Proof. induction a as [|x a IH]; intros b; simpl; auto. destruct (f x); auto. Qed.

Lemma prec_rhs_first : forall p g rhs, prec_rhs false p (g_nterm g) rhs None = find (has_prec p) (rhs_terminals g rhs).
Proof.
  intros p g. induction rhs as [|e rhs IH]; [reflexivity|]. cbn [prec_rhs rhs_terminals flat_map].
  rewrite find_app. destruct e as [s|l].
  - destruct (s <? g_nterm g); simpl; [|exact IH]. rewrite orb_false_r. destruct (has_prec p s); simpl; [apply prec_rhs_some|exact IH].
  - rewrite prec_members_first. destruct (find (has_prec p) l); [apply prec_rhs_some|exact IH].
Qed.

Lemma last_error_app : forall a b, last_error (a ++ b) = match last_error b with Some x => Some x | None => last_error a end.
Proof.
  intros a b. unfold last_error. rewrite rev_app_distr. destruct (rev b); reflexivity.
Qed.

Lemma prec_members_last : forall p l u, prec_members true p l u = match last_error l with Some x => Some x | None => u end.
Proof.
  intros p. induction l as [|s l IH]; intros u; [reflexivity|]. cbn [prec_members]. rewrite orb_true_r, IH.
  change (s :: l) with ([s] ++ l). rewrite last_error_app. destruct (last_error l); reflexivity.
Qed.

Lemma prec_rhs_last : forall p g rhs u, prec_rhs true p (g_nterm g) rhs u =
  match last_error (rhs_terminals g rhs) with Some x => Some x | None => u end.
Proof.
  intros p g. induction rhs as [|e rhs IH]; intros u; [reflexivity|].
  assert (E : prec_rhs true p (g_nterm g) (e :: rhs) u =
    match e with
    | EMulti l => prec_rhs true p (g_nterm g) rhs (prec_members true p l u)
    | ESym s => if (s <? g_nterm g) && (has_prec p s || true) then prec_rhs true p (g_nterm g) rhs (Some s)
                else prec_rhs true p (g_nterm g) rhs u
    end) by (destruct u; reflexivity).
  rewrite E. cbn [rhs_terminals flat_map]. fold (rhs_terminals g rhs). rewrite last_error_app. destruct e as [s|l].
  - rewrite orb_true_r, andb_true_r. destruct (s <? g_nterm g); rewrite IH; destruct (last_error (rhs_terminals g rhs)); reflexivity.
  - rewrite IH, prec_members_last. destruct (last_error (rhs_terminals g rhs)); reflexivity.
Qed.

(** A rule with an explicit symbol keeps it; otherwise its precedence symbol is
    the first terminal (or multi-terminal member) of its right-hand side that has a
    precedence; in yacc mode it is the last terminal, if that one has a precedence;
    with -u nothing is computed. *)
Theorem C08_rule_precedence : forall ign yacc p g expl r rl e,
  length expl = length (g_rules g) -> rule_of g r = Some rl -> nth_error expl r = Some e ->
  nth_error (FindRulePrecedences ign yacc p g expl) r = Some
    (if ign then e else
     match e with
     | Some s => Some s
     | None =>
         if yacc then
           match last_error (rhs_terminals g (r_rhs rl)) with
           | Some s => if has_prec p s then Some s else None
           | None => None
           end
         else find (has_prec p) (rhs_terminals g (r_rhs rl))
     end).
Proof.
  intros ign yacc p g expl r rl e L Hr He. unfold FindRulePrecedences. destruct ign; [exact He|].
  rewrite nth_error_map.
  assert (C : nth_error (combine (g_rules g) expl) r = Some (rl, e)).
  { unfold rule_of in Hr. clear L. revert expl r Hr He. induction (g_rules g) as [|a l IH]; intros [|b expl] [|r] Hr He; simpl in *; try discriminate.
    - inversion Hr; inversion He; reflexivity.
    - apply IH; auto. }
  rewrite C. simpl. f_equal. unfold rule_precsym. destruct e as [s|]; auto. destruct yacc.
  - rewrite prec_rhs_last. destruct (last_error (rhs_terminals g (r_rhs rl))); reflexivity.
  - rewrite prec_rhs_first. destruct (find (has_prec p) (rhs_terminals g (r_rhs rl))) as [s|] eqn:E; auto.
    apply find_some in E as (_ & ->). reflexivity.
Qed.
Print Assumptions C08_rule_precedence.

(** Two operators on one right-hand side: lemon uses the first, yacc mode the last. *)
Example C08_ex : let p := mkPrecs (fun s => if s =? 1 then Some 5 else if s =? 3 then Some 9 else None) (fun _ => LEFT) in
  let g := mkGrammar 5 7 [mkRule 5 [ESym 2; EMulti [2; 1]; ESym 6; ESym 3]; mkRule 6 [ESym 1; ESym 4]] 5 in
  FindRulePrecedences false false p g [None; None] = [Some 1; Some 1] /\
  FindRulePrecedences false true p g [None; None] = [Some 3; None] /\
  FindRulePrecedences true false p g [None; None] = [None; None].
Proof. repeat split. Qed.

(** * C05 *)

(** Precedence level of a rule: that of its precedence symbol. *)
Definition rule_prec (p : precs) (ps : list (option nat)) (r : nat) : option nat :=
  match nth_error ps r with Some (Some s) => p_prec p s | _ => None end.

(** The verdict on a shift and a reduce on the same token. *)
Inductive sr_verdict (p : precs) (ps : list (option nat)) (s r : nat) : e_action -> e_action -> nat -> Prop :=
| SR_conflict : p_prec p s = None \/ rule_prec p ps r = None -> sr_verdict p ps s r SHIFT SRCONFLICT 1
| SR_shift : forall a b, p_prec p s = Some a -> rule_prec p ps r = Some b ->
    b < a \/ a = b /\ p_assoc p s = RIGHT -> sr_verdict p ps s r SHIFT RD_RESOLVED 0
| SR_reduce : forall a b, p_prec p s = Some a -> rule_prec p ps r = Some b ->
    a < b \/ a = b /\ p_assoc p s = LEFT -> sr_verdict p ps s r SH_RESOLVED REDUCE 0
| SR_error : forall a, p_prec p s = Some a -> rule_prec p ps r = Some a ->
    p_assoc p s = NONE \/ p_assoc p s = PRECEDENCE -> sr_verdict p ps s r ERROR REDUCE 0.

(** The verdict on two reduces, [r] being the rule that comes first. *)
Inductive rr_verdict (p : precs) (ps : list (option nat)) (r r' : nat) : e_action -> e_action -> nat -> Prop :=
| RR_conflict : rule_prec p ps r = None \/ rule_prec p ps r' = None \/ rule_prec p ps r = rule_prec p ps r' ->
    rr_verdict p ps r r' REDUCE RRCONFLICT 1
| RR_first : forall a b, rule_prec p ps r = Some a -> rule_prec p ps r' = Some b -> b < a ->
    rr_verdict p ps r r' REDUCE RD_RESOLVED 0
| RR_second : forall a b, rule_prec p ps r = Some a -> rule_prec p ps r' = Some b -> a < b ->
    rr_verdict p ps r r' RD_RESOLVED REDUCE 0.

Lemma resolve_sr : forall p ps s q r x y n,
  resolve_conflict p ps (mkAction SHIFT s q) (mkAction REDUCE s r) = Ok (x, y, n) ->
  exists tx ty, x = mkAction tx s q /\ y = mkAction ty s r /\ sr_verdict p ps s r tx ty n.
Proof.
  intros p ps s q r x y n H. unfold resolve_conflict in H. simpl in H. rewrite Nat.eqb_refl in H. simpl in H.
  assert (RP : forall o, nth_error ps r = Some o -> rule_prec p ps r = match o with Some v => p_prec p v | None => None end).
  { intros o E. unfold rule_prec. rewrite E. destruct o; reflexivity. }
  destruct (nth_error ps r) as [o|]; simpl in H; [|discriminate]. specialize (RP o eq_refl).
  destruct o as [spy|]; [|inversion H; subst; do 2 eexists; split; [reflexivity|]; split; [reflexivity|]; apply SR_conflict; auto].
  destruct (p_prec p s) as [a|] eqn:A; [|inversion H; subst; do 2 eexists; split; [reflexivity|]; split; [reflexivity|]; apply SR_conflict; auto].
  destruct (p_prec p spy) as [b|] eqn:B; [|inversion H; subst; do 2 eexists; split; [reflexivity|]; split; [reflexivity|]; apply SR_conflict; auto].
  destruct (Nat.ltb_spec b a).
  { inversion H; subst; do 2 eexists; split; [reflexivity|]; split; [reflexivity|]. eapply SR_shift; eauto. }
  destruct (Nat.ltb_spec a b).
  { inversion H; subst; do 2 eexists; split; [reflexivity|]; split; [reflexivity|]. eapply SR_reduce; eauto. }
  assert (a = b) by lia. subst b.
  destruct (p_assoc p s) eqn:AS; inversion H; subst; do 2 eexists; (split; [reflexivity|]); (split; [reflexivity|]).
  - eapply SR_reduce; eauto.
  - eapply SR_shift; eauto.
  - eapply SR_error; eauto.
  - eapply SR_error; eauto.
Qed.

Lemma resolve_rr : forall p ps s r r' x y n,
  resolve_conflict p ps (mkAction REDUCE s r) (mkAction REDUCE s r') = Ok (x, y, n) ->
  exists tx ty, x = mkAction tx s r /\ y = mkAction ty s r' /\ rr_verdict p ps r r' tx ty n.
Proof.
  intros p ps s r r' x y n H. unfold resolve_conflict in H. simpl in H. rewrite Nat.eqb_refl in H. simpl in H.
  assert (RP : forall r o, nth_error ps r = Some o -> rule_prec p ps r = match o with Some v => p_prec p v | None => None end).
  { intros r0 o E. unfold rule_prec. rewrite E. destruct o; reflexivity. }
  pose proof (RP r) as R1. pose proof (RP r') as R2. clear RP.
  destruct (nth_error ps r) as [ox|]; simpl in H; [|discriminate]. specialize (R1 ox eq_refl).
  destruct (nth_error ps r') as [oy|]; simpl in H; [|discriminate]. specialize (R2 oy eq_refl).
  assert (C : rule_prec p ps r = None \/ rule_prec p ps r' = None \/ rule_prec p ps r = rule_prec p ps r' ->
    (Ok (mkAction REDUCE s r, mkAction RRCONFLICT s r', 1)) = Ok (x, y, n) ->
    exists tx ty, x = mkAction tx s r /\ y = mkAction ty s r' /\ rr_verdict p ps r r' tx ty n).
  { intros P E. inversion E; subst. do 2 eexists. split; [reflexivity|]. split; [reflexivity|]. apply RR_conflict; auto. }
  destruct ox as [spx|]; [|apply C; auto]. destruct oy as [spy|]; [|apply C; auto].
  destruct (p_prec p spx) as [a|]; [|apply C; auto]. destruct (p_prec p spy) as [b|]; [|apply C; auto].
  destruct (Nat.eqb_spec a b) as [->|N]; [apply C; auto; right; right; congruence|].
  destruct (Nat.ltb_spec b a); inversion H; subst; do 2 eexists; (split; [reflexivity|]); (split; [reflexivity|]).
  - eapply RR_first; eauto.
  - eapply RR_second; eauto. lia.
Qed.

Lemma resolve_two : forall p ps f x y l c, a_sp x = a_sp y -> resolve_list (S (S f)) p ps [x; y] = Ok (l, c) ->
  exists x' y', resolve_conflict p ps x y = Ok (x', y', c) /\ l = [x'; y'].
Proof.
  intros p ps f x y l c E R. cbn [resolve_list resolve_inner] in R. rewrite E, Nat.eqb_refl in R.
  destruct (resolve_conflict p ps x y) as [[[x' y'] k]| |]; cbn [bind resolve_list resolve_inner] in R; try discriminate.
  assert (E0 : resolve_list f p ps [] = Ok ([], 0)) by (destruct f; reflexivity). rewrite E0 in R. cbn [bind] in R.
  inversion R; subst. exists x', y'. split; auto. f_equal. f_equal. lia.
Qed.

(** In a state where the only actions on token [s] are one shift and one reduce,
    the resolved list holds on [s] exactly these two with the types the verdict
    prescribes, whatever other actions there are; the number of conflicts counted
    for the state contains the verdict's count. *)
Theorem C05_shift_reduce : forall addr p ps ap s q r l' n,
  (N.of_nat (length ap) < 2 ^ 30)%N ->
  Permutation (filter (on_sym s) ap) [mkAction SHIFT s q; mkAction REDUCE s r] ->
  resolve_list (length ap) p ps (Action_sort addr ap) = Ok (l', n) ->
  exists tx ty c m, filter (on_sym s) l' = [mkAction tx s q; mkAction ty s r] /\ sr_verdict p ps s r tx ty c /\ n = c + m.
Proof.
  intros addr p ps ap s q r l' n SZ P R.
  pose proof (Action_sort_sorted addr ap) as SS. pose proof (Action_sort_perm addr ap SZ) as PS.
  destruct (resolve_list_on_sym p ps s _ _ _ _ (act_le_sp _ SS) (Nat.eq_le_incl _ _ (Permutation_length PS)) R) as (c & m & R1 & ->).
  assert (E : filter (on_sym s) (Action_sort addr ap) = [mkAction SHIFT s q; mkAction REDUCE s r]).
  { pose proof (sorted_filter (on_sym s) _ SS) as SF.
    assert (P2 : Permutation [mkAction SHIFT s q; mkAction REDUCE s r] (filter (on_sym s) (Action_sort addr ap))).
    { apply Permutation_sym. eapply Permutation_trans; [apply Permutation_filter; exact PS|exact P]. }
    apply Permutation_length_2_inv in P2 as [E|E]; rewrite E in *; auto.
    apply StronglySorted_inv in SF as (_ & F). inversion F as [|? ? H]; subst. unfold act_le in H. simpl in H. exfalso. lia. }
  rewrite E in R1.
  assert (L : 2 <= length ap).
  { rewrite <- (Permutation_length PS). clear - E. assert (length (filter (on_sym s) (Action_sort addr ap)) = 2) by (rewrite E; reflexivity).
    pose proof (filter_len (on_sym s) (Action_sort addr ap)). lia. }
  destruct (length ap) as [|[|k]]; try lia.
  apply resolve_two in R1 as (x' & y' & RC & EF); [|reflexivity].
  apply resolve_sr in RC as (tx & ty & -> & -> & V). exists tx, ty, c, m. auto.
Qed.
Print Assumptions C05_shift_reduce.

(** Likewise for two reduces, [r] being the earlier rule. *)
Theorem C05_reduce_reduce : forall addr p ps ap s r r' l' n,
  (N.of_nat (length ap) < 2 ^ 30)%N -> r < r' ->
  Permutation (filter (on_sym s) ap) [mkAction REDUCE s r; mkAction REDUCE s r'] ->
  resolve_list (length ap) p ps (Action_sort addr ap) = Ok (l', n) ->
  exists tx ty c m, filter (on_sym s) l' = [mkAction tx s r; mkAction ty s r'] /\ rr_verdict p ps r r' tx ty c /\ n = c + m.
Proof.
  intros addr p ps ap s r r' l' n SZ LT P R.
  pose proof (Action_sort_sorted addr ap) as SS. pose proof (Action_sort_perm addr ap SZ) as PS.
  destruct (resolve_list_on_sym p ps s _ _ _ _ (act_le_sp _ SS) (Nat.eq_le_incl _ _ (Permutation_length PS)) R) as (c & m & R1 & ->).
  assert (E : filter (on_sym s) (Action_sort addr ap) = [mkAction REDUCE s r; mkAction REDUCE s r']).
  { pose proof (sorted_filter (on_sym s) _ SS) as SF.
    assert (P2 : Permutation [mkAction REDUCE s r; mkAction REDUCE s r'] (filter (on_sym s) (Action_sort addr ap))).
    { apply Permutation_sym. eapply Permutation_trans; [apply Permutation_filter; exact PS|exact P]. }
    apply Permutation_length_2_inv in P2 as [E|E]; rewrite E in *; auto.
    apply StronglySorted_inv in SF as (_ & F). inversion F as [|? ? H]; subst. unfold act_le, rkey in H. simpl in H. exfalso. lia. }
  rewrite E in R1.
  assert (L : 2 <= length ap).
  { rewrite <- (Permutation_length PS). clear - E. assert (length (filter (on_sym s) (Action_sort addr ap)) = 2) by (rewrite E; reflexivity).
    pose proof (filter_len (on_sym s) (Action_sort addr ap)). lia. }
  destruct (length ap) as [|[|k]]; try lia.
  apply resolve_two in R1 as (x' & y' & RC & EF); [|reflexivity].
  apply resolve_rr in RC as (tx & ty & -> & -> & V). exists tx, ty, c, m. auto.
Qed.
Print Assumptions C05_reduce_reduce.

Definition exp5 (a : e_assoc) : precs := mkPrecs (fun s => if s =? 1 then Some 0 else None) (fun _ => a).

(** E : E + E with + left associative, in the state after E + E. *)
Example C05_ex :
  let ap := [mkAction REDUCE 0 1; mkAction SHIFT 1 7; mkAction REDUCE 1 1] in
  let ps := [None; Some 1; None; None] in
  Permutation (filter (on_sym 1) ap) [mkAction SHIFT 1 7; mkAction REDUCE 1 1] /\
  resolve_list 3 (exp5 LEFT) ps (Action_sort id ap) =
    Ok ([mkAction REDUCE 0 1; mkAction SH_RESOLVED 1 7; mkAction REDUCE 1 1], 0) /\
  resolve_list 3 (exp5 RIGHT) ps (Action_sort id ap) =
    Ok ([mkAction REDUCE 0 1; mkAction SHIFT 1 7; mkAction RD_RESOLVED 1 1], 0) /\
  resolve_list 3 (exp5 NONE) ps (Action_sort id ap) =
    Ok ([mkAction REDUCE 0 1; mkAction ERROR 1 7; mkAction REDUCE 1 1], 0) /\
  resolve_list 3 (exp5 LEFT) [None; None; None; None] (Action_sort id ap) =
    Ok ([mkAction REDUCE 0 1; mkAction SHIFT 1 7; mkAction SRCONFLICT 1 1], 1).
Proof. split; [apply Permutation_refl|]. repeat split. Qed.

(** * C06 *)

Lemma FindActions_inv : forall addr p ps g L2 aps1 n bad, FindActions addr p ps g L2 = Ok (aps1, n, bad) ->
  exists aps, actions_added g L2 = Ok aps /\ resolve_states addr p ps 0 aps = Ok (aps1, n).
Proof.
  intros addr p ps g L2 aps1 n bad H. unfold FindActions in H. apply bind_Ok in H as (aps & EA & H).
  apply bind_Ok in H as ([a1 m] & ER & H). inversion H; subst. eauto.
Qed.

(** After resolution no state has two executable actions (shift, reduce,
    accept) on the same symbol, and every executable action was in the list of C04. *)
Theorem C06_one_live : forall addr p ps g L2 aps1 n bad,
  FindActions addr p ps g L2 = Ok (aps1, n, bad) ->
  exists aps, actions_added g L2 = Ok aps /\ length aps1 = length aps /\
  forall q ap1, nth_error aps1 q = Some ap1 ->
    one_live ap1 /\
    forall ap, nth_error aps q = Some ap -> (N.of_nat (length ap) < 2 ^ 30)%N ->
      length ap1 = length ap /\
      (forall a, In a ap1 -> live a = true -> In a ap) /\
      (forall a, In a ap -> exists a', In a' ap1 /\ a_sp a' = a_sp a /\ a_arg a' = a_arg a).
Proof.
  intros addr p ps g L2 aps1 n bad H. apply FindActions_inv in H as (aps & EA & ER). exists aps. split; auto.
  apply resolve_states_inv in ER as (ns & L1 & L3 & _ & P). split; auto.
  intros q ap1 Hq.
  destruct (nth_error_lt_ex _ aps q) as (ap & Hap). { rewrite <- L3. eapply nth_error_Some_lt; eauto. }
  destruct (P q ap Hap) as (ap1' & m & Hq' & _ & R). rewrite Hq in Hq'. inversion Hq'; subst ap1'. clear Hq'.
  split.
  - eapply resolve_list_one_live; [|exact R]. apply act_le_sp, Action_sort_sorted.
  - intros ap' Hap' SZ. rewrite Hap in Hap'. inversion Hap'; subst ap'.
    pose proof (Action_sort_perm (addr (0 + q)) ap SZ) as PS. pose proof (resolve_list_relabel _ _ _ _ _ _ R) as F.
    split; [rewrite <- (Permutation_length PS); symmetry; eapply Forall2_len; eauto|]. split.
    + intros a Ha LA. destruct (Forall2_relabel_In _ _ _ F Ha) as (b & Hb & Rb). rewrite (relabel_live _ _ Rb LA).
      eapply Permutation_in; eauto.
    + intros a Ha. apply (Permutation_in _ (Permutation_sym PS)) in Ha. clear - F Ha.
      induction F; [destruct Ha|]. destruct Ha as [<-|Ha].
      * exists y. destruct H as (A & B & _). simpl; auto.
      * destruct (IHF Ha) as (a' & Ha' & E). exists a'. simpl; auto.
Qed.
Print Assumptions C06_one_live.

Lemma completes_aux : forall addr p ps g L2 aps,
  actions_added g L2 = Ok aps ->
  (forall q ap a, nth_error aps q = Some ap -> In a ap -> a_type a = SHIFT \/ a_type a = REDUCE /\ a_arg a < length ps \/
     a_type a = ACCEPT /\ forall b, In b ap -> a_sp b = a_sp a -> b = a) ->
  (forall q ap, nth_error aps q = Some ap -> NoDup (filter (fun a => negb (is_shift a)) ap)) ->
  (forall q ap, nth_error aps q = Some ap -> (N.of_nat (length ap) < 2 ^ 30)%N) ->
  (forall s, has_prec p s = true -> p_assoc p s <> UNK) ->
  (forall q ap s q' r r', nth_error aps q = Some ap -> In (mkAction SHIFT s q') ap -> In (mkAction REDUCE s r) ap ->
     In (mkAction REDUCE s r') ap -> tie p ps s r -> r' = r) ->
  exists aps1 n bad, FindActions addr p ps g L2 = Ok (aps1, n, bad).
Proof.
  intros addr p ps g L2 aps EA TY ND SZ UN TIE. unfold FindActions. rewrite EA. cbn [bind].
  destruct (resolve_states_ok addr p ps aps 0) as (aps1 & n & E).
  - intros k ap Hk. simpl. pose proof (Action_sort_perm (addr k) ap (SZ k ap Hk)) as PS.
    apply resolve_list_ok; [rewrite (Permutation_length PS); auto|].
    assert (SS := Action_sort_sorted (addr k) ap).
    assert (ND' : NoDup (filter (fun a => negb (is_shift a)) (Action_sort (addr k) ap))).
    { eapply Permutation_NoDup; [|apply (ND k ap Hk)]. apply Permutation_filter, Permutation_sym, PS. }
    assert (IN : forall a, In a (Action_sort (addr k) ap) -> In a ap) by (intros a Ha; eapply Permutation_in; eauto).
    revert SS ND' IN. generalize (Action_sort (addr k) ap) as l. induction l as [|a l IH]; intros SS ND' IN; [exact I|].
    cbn [res_pre]. apply StronglySorted_inv in SS as (S1 & F1). rewrite Forall_forall in F1.
    assert (ND2 : NoDup (filter (fun a => negb (is_shift a)) l)).
    { simpl in ND'. destruct (negb (is_shift a)); auto. inversion ND'; auto. }
    split; [|split; [|apply IH; auto; intros b Hb; apply IN; right; auto]].
    + intros b Hb Eb. specialize (F1 b Hb). unfold act_le in F1.
      destruct (TY k ap a Hk (IN a (or_introl eq_refl))) as [Ta|[(Ta & La)|(Ta & Ua)]];
      destruct (TY k ap b Hk (IN b (or_intror Hb))) as [Tb|[(Tb & Lb)|(Tb & Ub)]]; unfold okpair; rewrite Ta, Tb; auto.
      * exfalso. specialize (Ub a (IN a (or_introl eq_refl)) (eq_sym Eb)). congruence.
      * exfalso. rewrite Ta, Tb in F1. simpl in F1. lia.
      * exfalso. rewrite Ta, Tb in F1. simpl in F1. lia.
      * exfalso. specialize (Ua b (IN b (or_intror Hb)) Eb). congruence.
      * exfalso. specialize (Ua b (IN b (or_intror Hb)) Eb). congruence.
      * exfalso. specialize (Ua b (IN b (or_intror Hb)) Eb). subst b.
        simpl in ND'. unfold is_shift at 1 in ND'. rewrite Ta in ND'. simpl in ND'. inversion ND' as [|? ? NI _]; subst.
        apply NI. apply filter_In. split; auto. unfold is_shift. rewrite Ta. reflexivity.
    + clear IH F1. assert (INl : forall b, In b l -> In b ap) by (intros b Hb; apply IN; right; auto).
      specialize (IN a (or_introl eq_refl)). clear ND'.
      revert S1 ND2 INl. induction l as [|y l IHl]; intros S1 ND2 INl; [exact I|]. cbn [tie_last].
      apply StronglySorted_inv in S1 as (S2 & F2). rewrite Forall_forall in F2.
      split; [|apply IHl; auto].
      * intros (T1 & T2 & T3 & T4) b Hb Eb. exfalso. specialize (F2 b Hb). unfold act_le in F2. rewrite T2 in F2.
        destruct (TY k ap b Hk (INl b (or_intror Hb))) as [Tb|[(Tb & Lb)|(Tb & Ub)]].
        -- rewrite Tb in F2. simpl in F2. lia.
        -- assert (a_arg b = a_arg y).
           { destruct a as [ta sa aa], y as [ty sy ay], b as [tb sb ab]; simpl in *; subst.
             apply (TIE k ap sy aa ay ab Hk); auto. }
           assert (b = y) by (destruct y as [ty sy ay], b as [tb sb ab]; simpl in *; subst; congruence). subst b.
           simpl in ND2. unfold is_shift at 1 in ND2. rewrite T2 in ND2. simpl in ND2. inversion ND2 as [|? ? NI _]; subst.
           apply NI. apply filter_In. split; auto. unfold is_shift. rewrite T2. reflexivity.
        -- specialize (Ub a IN (eq_sym Eb)). subst. congruence.
      * simpl in ND2. destruct (negb (is_shift y)); auto. inversion ND2; auto.
      * intros b Hb. apply INl. right; auto.
  - rewrite E. cbn [bind]. eauto.
Qed.

(** Resolution completes when the start symbol does not occur on a right-hand
    side and a token on which a nonassociative tie occurs has no second reduction. *)
Theorem C06_completes : forall addr p ps sf ff g L2 aps,
  wf_grammar g -> (N.of_nat (item_count g) < 2 ^ 30)%N -> lemon_front sf ff g = Ok L2 -> actions_added g L2 = Ok aps ->
  length ps = length (g_rules g) ->
  (forall rl, In rl (g_rules g) -> ~ In (ESym (g_start g)) (r_rhs rl)) ->
  (forall s, has_prec p s = true -> p_assoc p s <> UNK) ->
  (forall ap, In ap aps -> (N.of_nat (length ap) < 2 ^ 30)%N) ->
  (forall ap s q' r r', In ap aps -> In (mkAction SHIFT s q') ap -> In (mkAction REDUCE s r) ap ->
     In (mkAction REDUCE s r') ap -> tie p ps s r -> r' = r) ->
  exists aps1 n bad, FindActions addr p ps g L2 = Ok (aps1, n, bad).
Proof.
  intros addr p ps sf ff g L2 aps WF SZ EF EA LP NS UN SZA TIE.
  destruct (C04_action_lists sf ff g L2 WF SZ EF) as (aps' & EA' & LEN & P). rewrite EA in EA'. inversion EA'; subst aps'.
  assert (V : forall q ap, nth_error aps q = Some ap -> exists I sh, nth_error (states_view L2) q = Some (I, sh)).
  { intros q ap H. apply nth_error_Some_lt in H. rewrite LEN in H. destruct (nth_error_lt_ex _ (states_view L2) q H) as (v & E).
    exists (fst v), (snd v). rewrite E. destruct v; reflexivity. }
  apply (completes_aux addr p ps g L2 aps); auto.
  - intros q ap a Hq Ha. destruct (V q ap Hq) as (I & sh & HI). destruct (P q I sh ap HI Hq) as (P1 & P2 & P3 & P4 & P5).
    destruct (P4 a Ha) as [T|[T|T]]; auto.
    + right; left. split; auto. destruct a as [t s r]; simpl in *; subst t. destruct (proj1 (P2 _ _) Ha) as (_ & rl & E & _).
      rewrite LP. eapply nth_error_Some_lt; eauto.
    + right; right. split; auto. intros b Hb Eb. destruct a as [t s r]; simpl in *; subst t.
      pose proof (proj1 (P3 _ _) Ha) as (-> & -> & ->). destruct (P4 b Hb) as [Tb|[Tb|Tb]]; destruct b as [tb sb rb]; simpl in *; subst tb sb.
      * exfalso. destruct (proj1 (P1 _ _) Hb) as (X & J & sh' & Hs & _ & (i & Hi & Ad) & _).
        destruct X as [x|l]; simpl in Hs.
        -- destruct Hs as [->|[]]. unfold after_dot in Ad. destruct (rule_of g (fst i)) as [rl|] eqn:Er; [|discriminate].
           apply (NS rl); [eapply nth_error_In; eauto|]. eapply nth_error_In; eauto.
        -- destruct WF as (_ & _ & WR & WS). unfold after_dot in Ad. destruct (rule_of g (fst i)) as [rl|] eqn:Er; [|discriminate].
           rewrite Forall_forall in WR. destruct (WR rl) as (_ & WE); [eapply nth_error_In; eauto|].
           rewrite Forall_forall in WE. destruct (WE (EMulti l)) as (_ & WM); [eapply nth_error_In; eauto|].
           specialize (WM _ Hs). unfold is_term, is_nonterm in *. lia.
      * exfalso. destruct (proj1 (P2 _ _) Hb) as (Hb' & _). destruct WF as (_ & _ & _ & WS). unfold is_nonterm in WS. lia.
      * destruct (proj1 (P3 _ _) Hb) as (_ & _ & ->). reflexivity.
  - intros q ap Hq. destruct (V q ap Hq) as (I & sh & HI). apply (P q I sh ap HI Hq).
  - intros q ap Hq. apply SZA. eapply nth_error_In; eauto.
  - intros q ap s q' r r' Hq. apply TIE. eapply nth_error_In; eauto.
Qed.
Print Assumptions C06_completes.

Definition exaddr : nat -> nat -> nat := fun _ i => i.

Example C06_ex : exists L2 aps1, lemon_front 20 60 exg4 = Ok L2 /\
  FindActions exaddr (exp5 LEFT) (FindRulePrecedences false false (exp5 LEFT) exg4 [None; None; None; None]) exg4 L2
    = Ok (aps1, 0, []) /\ length aps1 = 8.
Proof. do 2 eexists. split; [vm_compute; reflexivity|]. split; vm_compute; reflexivity. Qed.

(** E : E < E | id with < nonassociative; D : E < E; S : E | D < id.  After
    E < E the token < has a shift and two reductions; the first reduction ties, the
    shift becomes an error, and the assertion in resolve_conflict fails on the
    second.  Terminals 0 $, 1 <, 2 id; nonterminals 3 S, 4 E, 5 D. *)
Definition exg6 : grammar := mkGrammar 3 6
  [mkRule 3 [ESym 4]; mkRule 3 [ESym 5; ESym 1; ESym 2]; mkRule 4 [ESym 4; ESym 1; ESym 4]; mkRule 4 [ESym 2];
   mkRule 5 [ESym 4; ESym 1; ESym 4]] 3.

Theorem C06_abort_refuted : exists g p ps L2,
  wf_grammar g /\ (forall s, has_prec p s = true -> p_assoc p s <> UNK) /\
  ps = FindRulePrecedences false false p g (map (fun _ => None) (g_rules g)) /\
  lemon_front 20 60 g = Ok L2 /\ forall addr, FindActions addr p ps g L2 = Bad.
Proof.
  exists exg6, (exp5 NONE). do 2 eexists. split; [apply wf_grammarb_ok; reflexivity|]. split; [intros s _; discriminate|].
  split; [reflexivity|]. split; [vm_compute; reflexivity|]. intros addr. vm_compute. reflexivity.
Qed.
Print Assumptions C06_abort_refuted.

(** Same outcome when the start symbol is left recursive: S : S a | a.
    Terminals 0 $, 1 a; nonterminal 2 S. *)
Definition exg7 : grammar := mkGrammar 2 3 [mkRule 2 [ESym 2; ESym 1]; mkRule 2 [ESym 1]] 2.

Theorem C06_start_abort_refuted : exists g L2, wf_grammar g /\ lemon_front 20 60 g = Ok L2 /\
  forall addr p ps, FindActions addr p ps g L2 = Bad.
Proof.
  exists exg7. eexists. split; [apply wf_grammarb_ok; reflexivity|]. split; [vm_compute; reflexivity|].
  intros addr p ps. vm_compute. reflexivity.
Qed.
Print Assumptions C06_start_abort_refuted.

(** A nonassociative tie leaves two entries for the same token: an error and the
    reduction. *)
Theorem C06_error_and_reduce_refuted : exists g p ps L2 aps1 n bad, wf_grammar g /\
  ps = FindRulePrecedences false false p g (map (fun _ => None) (g_rules g)) /\
  lemon_front 20 60 g = Ok L2 /\ FindActions exaddr p ps g L2 = Ok (aps1, n, bad) /\
  exists ap s q r, In ap aps1 /\ In (mkAction ERROR s q) ap /\ In (mkAction REDUCE s r) ap.
Proof.
  exists exg4, (exp5 NONE). do 5 eexists. split; [apply wf_grammarb_ok; reflexivity|].
  split; [reflexivity|]. split; [vm_compute; reflexivity|]. split; [vm_compute; reflexivity|].
  match goal with |- exists ap s q r, In ap ?l /\ _ =>
    assert (X : existsb (fun ap => existsb (fun a => match a with mkAction ERROR 1 _ => true | _ => false end) ap &&
                                   existsb (fun a => match a with mkAction REDUCE 1 _ => true | _ => false end) ap) l = true)
      by (vm_compute; reflexivity) end.
  apply existsb_exists in X as (ap & Hap & X). apply andb_true_iff in X as (X & Y).
  apply existsb_exists in X as (x & Hx & X). apply existsb_exists in Y as (y & Hy & Y).
  destruct x as [tx sx ax], y as [ty sy ay].
  destruct tx; try discriminate. destruct sx as [|[|sx]]; try discriminate.
  destruct ty; try discriminate. destruct sy as [|[|sy]]; try discriminate. exists ap, 1, ax, ay. auto.
Qed.
Print Assumptions C06_error_and_reduce_refuted.

(** * C07 *)

(** With no precedences the conflict count is, summed over the states, the
    number of actions minus the number of symbols having an action; so it is zero
    exactly when no state has two actions on one symbol. *)
Theorem C07_conflict_count : forall addr p ps sf ff g L2 aps1 n bad,
  wf_grammar g -> (N.of_nat (item_count g) < 2 ^ 30)%N -> lemon_front sf ff g = Ok L2 ->
  (forall s, p_prec p s = None) ->
  FindActions addr p ps g L2 = Ok (aps1, n, bad) ->
  exists aps, actions_added g L2 = Ok aps /\
  ((forall ap, In ap aps -> (N.of_nat (length ap) < 2 ^ 30)%N) ->
   n = list_sum (map (fun ap => length ap - length (nodup Nat.eq_dec (map a_sp ap))) aps) /\
   (n = 0 <-> forall ap, In ap aps -> NoDup (map a_sp ap))).
Proof.
  intros addr p ps sf ff g L2 aps1 n bad WF SZI EF NP H. apply FindActions_inv in H as (aps & EA & ER). exists aps. split; auto.
  intros SZ.
  assert (LV : forall ap a, In ap aps -> In a ap -> live a = true).
  { destruct (C04_action_lists sf ff g L2 WF SZI EF) as (aps' & EA' & LEN & PP). rewrite EA in EA'. inversion EA'; subst aps'.
    intros ap a Hap Ha. apply In_nth_error in Hap as (q & Hq).
    destruct (nth_error_lt_ex _ (states_view L2) q) as ([I0 sh] & HI). { rewrite <- LEN. eapply nth_error_Some_lt; eauto. }
    destruct (PP q I0 sh ap HI Hq) as (_ & _ & _ & P4 & _). unfold live. destruct (P4 a Ha) as [->|[->| ->]]; reflexivity. }
  apply resolve_states_inv in ER as (ns & L1 & L3 & -> & P).
  assert (C : forall k ap m, nth_error aps k = Some ap -> nth_error ns k = Some m -> m = length ap - length (nodup Nat.eq_dec (map a_sp ap))).
  { intros k ap m Hk Hm. destruct (P k ap Hk) as (ap1 & m' & _ & Hm' & R). rewrite Hm in Hm'. inversion Hm'; subst m'.
    assert (Hin : In ap aps) by (eapply nth_error_In; eauto).
    pose proof (Action_sort_perm (addr (0 + k)) ap (SZ ap Hin)) as PS.
    apply (resolve_list_count p ps NP (length ap)) in R.
    - unfold nsyms in R. rewrite (Permutation_length PS) in R.
      assert (E : length (nodup Nat.eq_dec (map a_sp (Action_sort (addr (0 + k)) ap))) = length (nodup Nat.eq_dec (map a_sp ap))).
      { apply Permutation_length, NoDup_Permutation; try apply NoDup_nodup. intros x. rewrite !nodup_In.
        split; apply Permutation_in, Permutation_map; auto using Permutation_sym. }
      lia.
    - rewrite (Permutation_length PS). auto.
    - rewrite (Permutation_length PS). auto.
    - apply act_le_sp, Action_sort_sorted.
    - intros a Ha. apply (LV ap); auto. eapply Permutation_in; eauto. }
  assert (E : ns = map (fun ap => length ap - length (nodup Nat.eq_dec (map a_sp ap))) aps).
  { apply list_ext. intros k. rewrite nth_error_map. destruct (nth_error aps k) as [ap|] eqn:Ek; simpl.
    - destruct (P k ap Ek) as (ap1 & m & _ & Hm & _). rewrite Hm. f_equal. eapply C; eauto.
    - apply nth_error_None. apply nth_error_None in Ek. lia. }
  split; [congruence|]. rewrite E. clear. induction aps as [|ap aps IH]; [split; [intros _ ap []|reflexivity]|].
  cbn [map]. change (list_sum (?x :: ?l)) with (x + list_sum l).
  assert (ND : length ap - length (nodup Nat.eq_dec (map a_sp ap)) = 0 <-> NoDup (map a_sp ap)).
  { split.
    - intros H. assert (E : length (nodup Nat.eq_dec (map a_sp ap)) = length (map a_sp ap)).
      { assert (length (nodup Nat.eq_dec (map a_sp ap)) <= length (map a_sp ap)).
        { apply NoDup_incl_length; [apply NoDup_nodup|]. intros x. rewrite nodup_In. auto. }
        rewrite map_length in *. lia. }
      eapply NoDup_incl_NoDup; [apply (NoDup_nodup Nat.eq_dec (map a_sp ap))|lia|]. intros x. rewrite nodup_In. auto.
    - intros H. rewrite nodup_fixed_point; auto. rewrite map_length. lia. }
  split.
  - intros H bp [<-|Hb]; [apply ND; lia|]. apply IH; auto. lia.
  - intros H. rewrite (proj2 ND) by (apply H; left; auto). apply IH. intros bp Hb. apply H. right; auto.
Qed.
Print Assumptions C07_conflict_count.

(** E : E + E is ambiguous: with no precedences one conflict. *)
Example C07_ex : exists L2 aps aps1 bad, lemon_front 20 60 exg4 = Ok L2 /\ actions_added exg4 L2 = Ok aps /\
  let p := mkPrecs (fun _ => None) (fun _ => UNK) in
  FindActions exaddr p [None; None; None; None] exg4 L2 = Ok (aps1, 1, bad).
Proof. do 4 eexists. split; [vm_compute; reflexivity|]. split; vm_compute; reflexivity. Qed.
