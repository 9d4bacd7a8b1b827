(** C03: the lookahead sets computed by lemon. *)
From Coq Require Import List Arith NArith Lia Bool.
Import ListNotations.
From Verif Require Import Base SpecGrammar SpecGrammarFacts SpecLRFacts SpecLR0 LemonSetModel LemonFirstModel LemonFirstProof
  LemonSortModel LemonStatesModel LemonStatesProof Prop_LemonStates LemonFollowModel LemonFollowProof.

(** What a caller sees: for each state the list of its items with the follow set of each. *)
Definition follow_view (L : lemon) (q : nat) : list (item * cset) :=
  match nth_error (l_states L) q with
  | Some st => map (fun x => (key (l_cfgs L) x, c_fws (cf (l_cfgs L) x))) (s_cfp st)
  | None => []
  end.

(** The follow set of item [i] in state [q] holds exactly the terminals that can
    follow [i] after some symbol string leading to [q]. *)
Theorem C03_lookaheads : forall g lam fs sfuel L,
  wf_grammar g -> (N.of_nat (item_count g) < 2 ^ 30)%N ->
  FindFirstSets (first_fuel g) g = Ok (lam, fs) -> FindStates sfuel g lam fs = Ok L ->
  exists L1, FindLinks L = Ok L1 /\
    (exists n, forall fuel, n <= fuel -> exists L2, FindFollowSets fuel L1 = Ok L2) /\
    (forall fuel L2, FindFollowSets fuel L1 = Ok L2 ->
       states_view L2 = states_view L /\
       forall q I sh, nth_error (states_view L) q = Some (I, sh) ->
         map fst (follow_view L2 q) = I /\
         forall i w t, In (i, w) (follow_view L2 q) ->
           (SetFind w t = true <-> exists gamma, is_valid_set g gamma I /\ la g gamma i t)).
Proof.
  intros g lam fs sfuel L WF SZ EF EL.
  destruct (FindFirstSets_ok g WF) as (lam' & fs' & E & LE & FE). rewrite EF in E. inversion E; subst lam' fs'.
  rewrite <- all_items_count in SZ.
  pose proof (FindStates_Final g WF lam fs LE FE SZ sfuel L EL) as F.
  destruct (lookaheads_ok g L F) as (L1 & E1 & T & FO). exists L1. split; auto. split; [eauto|].
  intros fuel L2 E2. specialize (FO fuel L2 E2). split.
  - unfold states_view. rewrite (fo_states _ _ _ FO). apply map_ext. intros st. unfold state_view. f_equal.
    apply map_ext. intros x. apply FO.
  - intros q I sh H. apply view_nth in H as (st & H & -> & _). unfold follow_view. rewrite (fo_states _ _ _ FO), H.
    split.
    + rewrite map_map. simpl. apply map_ext. intros x. apply FO.
    + intros i w t Hi. apply in_map_iff in Hi as (x & Ex & Hx). inversion Ex; subst i w.
      rewrite (fo_la _ _ _ FO q st x t H Hx). rewrite (fo_key _ _ _ FO). reflexivity.
Qed.
Print Assumptions C03_lookaheads.

(** When every nonterminal derives a terminal string these are the LALR(1)
    lookaheads: the union over the canonical LR(1) states with the same core. *)
Theorem C03_lalr1 : forall g lam fs sfuel L L1 fuel L2,
  wf_grammar g -> all_productive g -> (N.of_nat (item_count g) < 2 ^ 30)%N ->
  FindFirstSets (first_fuel g) g = Ok (lam, fs) -> FindStates sfuel g lam fs = Ok L ->
  FindLinks L = Ok L1 -> FindFollowSets fuel L1 = Ok L2 ->
  forall q I sh, nth_error (states_view L) q = Some (I, sh) ->
    forall i w t, In (i, w) (follow_view L2 q) ->
      (SetFind w t = true <-> exists gamma, is_valid_set g gamma I /\ valid1 g gamma i t).
Proof.
  intros g lam fs sfuel L L1 fuel L2 WF AP SZ EF EL E1 E2 q I sh H i w t Hi.
  destruct (C03_lookaheads g lam fs sfuel L WF SZ EF EL) as (L1' & E1' & _ & FO).
  rewrite E1 in E1'. inversion E1'; subst L1'.
  destruct (FO fuel L2 E2) as (_ & FV). destruct (FV q I sh H) as (_ & FW). rewrite (FW i w t Hi).
  split; intros (gm & V & LA); exists gm; (split; [auto|]); apply (la_iff_valid1 g WF AP gm i t); auto.
Qed.
Print Assumptions C03_lalr1.

(** S : L = R | R ; L : * R | id ; R : L (LALR(1) but not SLR(1)).
    Terminals: 0 $, 1 =, 2 *, 3 id; nonterminals 4 S, 5 L, 6 R. *)
Definition exg3 : grammar := mkGrammar 4 7
  [mkRule 4 [ESym 5; ESym 1; ESym 6]; mkRule 4 [ESym 6]; mkRule 5 [ESym 2; ESym 6];
   mkRule 5 [ESym 3]; mkRule 6 [ESym 5]] 4.

Lemma derives_one : forall g r, In r (g_rules g) -> derives g [ESym (r_lhs r)] (r_rhs r).
Proof.
  intros g r H. eapply star_step; [|apply star_refl].
  pose proof (step_rule g [] [] r H) as S1. simpl in S1. rewrite app_nil_r in S1. exact S1.
Qed.

Example C03_ex_hyps : wf_grammar exg3 /\ all_productive exg3 /\ (N.of_nat (item_count exg3) < 2 ^ 30)%N.
Proof.
  split; [apply wf_grammarb_ok; reflexivity|]. split; [|reflexivity].
  assert (P5 : derives exg3 [ESym 5] [ESym 3]) by (apply (derives_one exg3 (mkRule 5 [ESym 3])); simpl; auto).
  assert (P6 : derives exg3 [ESym 6] [ESym 3]).
  { eapply star_trans; [apply (derives_one exg3 (mkRule 6 [ESym 5])); simpl; tauto|exact P5]. }
  assert (P4 : derives exg3 [ESym 4] [ESym 3]).
  { eapply star_trans; [apply (derives_one exg3 (mkRule 4 [ESym 6])); simpl; tauto|exact P6]. }
  intros A [H1 H2]. simpl in H1, H2. exists [3]. split.
  - constructor; auto. unfold is_term. simpl. lia.
  - assert (HA : A = 4 \/ A = 5 \/ A = 6) by lia. destruct HA as [->|[->| ->]]; auto.
Qed.

(** In the state reached over L the item R -> L . has lookahead $ only, which is
    what makes the grammar LALR(1). *)
Example C03_ex_run : exists lam fs L L1 L2, FindFirstSets (first_fuel exg3) exg3 = Ok (lam, fs) /\
  FindStates 20 exg3 lam fs = Ok L /\ FindLinks L = Ok L1 /\ FindFollowSets (follow_fuel L1) L1 = Ok L2 /\
  existsb (fun q => match follow_view L2 q with
    | [((0, 1), _); ((4, 1), w)] => match w with true :: false :: false :: false :: _ => true | _ => false end
    | _ => false end) (seq 0 (length (l_states L2))) = true.
Proof. do 5 eexists. do 4 (split; [vm_compute; reflexivity|]). vm_compute; reflexivity. Qed.
