(** C57: the rules byacc counts as never reduced. *)
From Coq Require Import List Arith NArith ZArith Lia Bool Sorted.
Import ListNotations.
From Verif Require Import Base SpecGrammar SpecGrammarFacts SpecLRFacts SpecLR0 SpecConflict SpecReach.
From Verif Require Import SpecByacc SpecAgree ByaccWarshallModel ByaccWarshallProof ByaccLr0Model ByaccPackProof
  ByaccClosureProof ByaccNullProof ByaccLr0Proof ByaccStatesProof ByaccLalrModel ByaccDigraphProof ByaccTransposeProof ByaccLookSem ByaccGotoProof ByaccReadProof
  ByaccLookProof ByaccParModel SpecByaccConflicts ByaccParProof ByaccActionsProof ByaccOutputModel ByaccPackTableProof ByaccRowsProof Prop_ByaccConflicts Prop_ByaccPacking
  ByaccTablesProof ByaccParserModel ByaccParserProof Prop_ByaccParser ByaccCompleteProof Prop_ByaccComplete.

(** The user's rule [k] is byacc's rule [k + 3]. *)
Definition unused (P : par) (k : nat) : Prop := k + 3 < length (p_used P) /\ nth (k + 3) (p_used P) false = false.

Section Unused.
Variables (s : bsrc) (f1 f2 : nat) (flag : bool) (pr : bprec) (nl : list bool) (st : lr0st) (T : lalr_tables) (P : par).
Hypothesis W : wf_src s.
Hypothesis WP : wf_prec s pr.
Hypothesis E1 : lr0 f1 (pack_grammar s) = Ok (nl, st).
Hypothesis E2 : lalr f2 (pack_grammar s) nl st = Ok T.
Hypothesis E3 : make_parser flag (pack_grammar s) pr T = Ok P.

Lemma par_facts : lr0_ok s st /\ par_ok s st T pr flag P.
Proof.
  destruct (passes s f1 f2 flag pr nl st W WP E1) as (LO & H). destruct (H T E2) as (_ & _ & P' & EP & PO).
  rewrite E3 in EP. inversion EP; subst P'. auto.
Qed.

Lemma rule_bound : forall k rl, rule_of (user s) k = Some rl -> k < length (b_rules s).
Proof. intros k rl R. apply nth_error_Some_lt in R. cbn in R. rewrite map_length in R. auto. Qed.

Lemma used_reachable : forall k rl, rule_of (user s) k = Some rl -> nth (k + 3) (p_used P) false = true -> reachable (user s) (r_lhs rl).
Proof.
  intros k rl R U. destruct par_facts as (LO & PO). apply (po_used _ _ _ _ _ _ PO) in U as (l & a & Il & Ia & SH & SU & N).
  apply In_nth_error in Il as (q & Hq). assert (Lq : q < nst st) by (rewrite <- (po_len _ _ _ _ _ _ PO); eapply nth_error_Some_lt; eauto).
  destruct (po_state _ _ _ _ _ _ PO q Lq) as (acts' & sr & rr & Q1 & _ & _ & (a0 & _ & _ & _ & Q6 & Q7)). assert (acts' = l) by congruence. subst acts'.
  assert (I0 : In (sup 0 a) a0) by (rewrite <- (ro_same _ _ _ _ _ _ Q7); now apply in_map).
  apply Q6 in I0 as [(t & q' & _ & _ & E)|(t & r & _ & H1 & H2 & E)]; [apply (f_equal a_shift) in E; cbn in E; congruence|].
  apply (f_equal a_num) in E. cbn in E. assert (r = S k) by lia. subst r.
  destruct (red_item s W st LO q (S k) Lq H1) as (A & rhs & PL & I). apply (LAs_la s W st LO q (S k) A rhs t PL) in H2 as (gm & _ & LA).
  apply la_valid, (ag_valid s W) in LA. eapply (valid_reachable (user s) gm); eauto.
Qed.

Lemma reachable_used : all_productive (aug s) -> conflict_free (aug s) ->
  forall k rl, rule_of (user s) k = Some rl -> reachable (user s) (r_lhs rl) -> nth (k + 3) (p_used P) false = true.
Proof.
  intros AP CF k rl R RE. destruct par_facts as (LO & PO). pose proof (wf_user s W) as WU.
  destruct (reachable_valid (user s) WU _ k rl RE R eq_refl) as (gm & V).
  apply (ag_valid s W) in V. destruct (valid_valid1 (aug s) (wf_aug s W) AP _ _ V) as (t & V1). apply valid1_la in V1.
  pose proof (la_term _ _ _ _ (wf_aug s W) V1) as TT.
  destruct (state_of s W st LO gm _ V) as (p & Lp & Hp).
  destruct (nth_error_lt_ex _ (p_parser P) p) as (acts & Ha); [rewrite (po_len _ _ _ _ _ _ PO); auto|].
  destruct (aug_rule s (S k) rl R) as (A & rhs & P1 & P2 & P3 & _). assert (PL : prl s (S k) A rhs) by (split; [discriminate|auto]).
  cbn [Nat.eqb] in P3. rewrite P3, map_length in *.
  assert (SP : act_spec s st pr p (red_act pr t (S (S (S k))))).
  { right. exists t, (S k). split; [exact TT|]. split; [|split; [|reflexivity]].
    - apply (reds_spec s W st LO p Lp). exists (S k, length rhs). split; [apply Hp; exact V|]. split; [|split; [discriminate|reflexivity]].
      rewrite (prl_after s _ _ _ _ PL). replace (nth_error rhs (length rhs)) with (@None nat); [reflexivity|]. symmetry. now apply nth_error_None.
    - apply (LAs_la s W st LO p (S k) A rhs t PL). exists gm. split; [exact Hp|exact V1]. }
  destruct (all_live s W st LO T pr flag P PO CF p acts Ha _ SP) as (I & S0).
  apply (po_used _ _ _ _ _ _ PO). exists acts, (red_act pr t (S (S (S k)))). split; [eapply nth_error_In; eauto|]. split; [exact I|]. split; [reflexivity|]. split; [exact S0|]. cbn. lia.
Qed.
End Unused.

(** Without conflicts and unproductive nonterminals the rules counted as never reduced
    are exactly the rules of the nonterminals which occur in no sentential form, and
    nunused is their number. *)
Theorem C57_unused : forall s f1 f2 flag pr nl st T P, wf_src s -> wf_prec s pr ->
  lr0 f1 (pack_grammar s) = Ok (nl, st) -> lalr f2 (pack_grammar s) nl st = Ok T -> make_parser flag (pack_grammar s) pr T = Ok P ->
  all_productive (aug s) -> conflict_free (aug s) ->
  (forall k, unused P k <-> exists rl, rule_of (user s) k = Some rl /\ ~ reachable (user s) (r_lhs rl)) /\
  exists L, NoDup L /\ length L = p_nunused P /\ forall k, In k L <-> exists rl, rule_of (user s) k = Some rl /\ ~ reachable (user s) (r_lhs rl).
Proof.
  intros s f1 f2 flag pr nl st T P W WP E1 E2 E3 AP CF. destruct (par_facts s f1 f2 flag pr nl st T P W WP E1 E2 E3) as (LO & PO).
  assert (MAIN : forall k, unused P k <-> exists rl, rule_of (user s) k = Some rl /\ ~ reachable (user s) (r_lhs rl)).
  { intros k. unfold unused. rewrite (po_usedl _ _ _ _ _ _ PO). split.
    - intros (L & U). destruct (nth_error_lt_ex _ (g_rules (user s)) k) as (rl & R); [cbn; rewrite map_length; lia|]. exists rl. split; [exact R|]. intros RE.
      assert (nth (k + 3) (p_used P) false = true); [|congruence]. eapply reachable_used; eauto.
    - intros (rl & R & NR). split; [apply rule_bound in R; lia|]. destruct (nth (k + 3) (p_used P) false) eqn:U; auto. exfalso. apply NR. eapply used_reachable; eauto. }
  split; [exact MAIN|]. exists (filter (fun k => negb (nth (k + 3) (p_used P) false)) (seq 0 (length (p_used P) - 3))).
  split; [apply NoDup_filter, seq_NoDup|]. split.
  - rewrite (po_unused _ _ _ _ _ _ PO). generalize (p_used P). intros u. destruct u as [|x [|y [|z u]]]; try reflexivity. cbn [skipn length].
    replace (S (S (S (length u))) - 3) with (length u) by lia.
    assert (G : forall u n pre, length pre = n + 3 -> length (filter (fun k => negb (nth (k + 3) (pre ++ u) false)) (seq n (length u))) = length (filter negb u)).
    { clear. induction u as [|b u IH]; intros n pre L; [reflexivity|]. cbn [length seq filter]. rewrite (app_nth2 pre) by lia. rewrite L, Nat.sub_diag. cbn [nth].
      specialize (IH (S n) (pre ++ [b])). rewrite <- app_assoc in IH. cbn [app] in IH. assert (L' : length (pre ++ [b]) = S n + 3) by (rewrite app_length; cbn; lia). specialize (IH L'). destruct b; cbn [negb length]; rewrite IH; reflexivity. }
    exact (G u 0 [x; y; z] eq_refl).
  - intros k. rewrite <- MAIN. unfold unused. rewrite filter_In, in_seq, negb_true_iff. split; intros (X & Y); (split; [lia|exact Y]).
Qed.
Print Assumptions C57_unused.

(** With conflicts and unproductive nonterminals every rule of a nonterminal that
    occurs in no sentential form is still counted. *)
Theorem C57_unreachable_unused : forall s f1 f2 flag pr nl st T P, wf_src s -> wf_prec s pr ->
  lr0 f1 (pack_grammar s) = Ok (nl, st) -> lalr f2 (pack_grammar s) nl st = Ok T -> make_parser flag (pack_grammar s) pr T = Ok P ->
  forall k rl, rule_of (user s) k = Some rl -> ~ reachable (user s) (r_lhs rl) -> unused P k.
Proof.
  intros s f1 f2 flag pr nl st T P W WP E1 E2 E3 k rl R NR. destruct (par_facts s f1 f2 flag pr nl st T P W WP E1 E2 E3) as (LO & PO).
  unfold unused. rewrite (po_usedl _ _ _ _ _ _ PO). split; [apply rule_bound in R; lia|].
  destruct (nth (k + 3) (p_used P) false) eqn:U; auto. exfalso. apply NR. eapply used_reachable; eauto.
Qed.
Print Assumptions C57_unreachable_unused.

(** Tokens $end, error, '+', 'id'; G : E, E : E '+' 'id' | 'id', U : E '+' | U 'id': both
    rules of U are counted. *)
Definition ex57 : bsrc := mkSrc 4 8 [(5, [6]); (6, [6; 2; 3]); (6, [3]); (7, [6; 2]); (7, [7; 3])].
Definition pr57 : bprec := mkPrec (repeat 0 8) (repeat TOKEN 8) (repeat 0 8) (repeat TOKEN 8).
Definition lr57 : list bool * lr0st := Eval vm_compute in match lr0 300 (pack_grammar ex57) with Ok x => x | _ => ([], mkLr0 [] [] [] []) end.
Definition T57 : lalr_tables := Eval vm_compute in match lalr 300 (pack_grammar ex57) (fst lr57) (snd lr57) with Ok T => T | _ => mkLalr [] [] [] (mkGotos [] [] []) [] [] [] end.
Definition P57 : par := Eval vm_compute in match make_parser false (pack_grammar ex57) pr57 T57 with Ok P => P | _ => mkPar [] 0 [] [] [] 0 [] end.
Example C57_hypotheses : wf_src ex57 /\ wf_prec ex57 pr57 /\
  lr0 300 (pack_grammar ex57) = Ok (fst lr57, snd lr57) /\ lalr 300 (pack_grammar ex57) (fst lr57) (snd lr57) = Ok T57 /\ make_parser false (pack_grammar ex57) pr57 T57 = Ok P57 /\
  all_productive (aug ex57) /\ conflict_free (aug ex57) /\ p_nunused P57 = 2 /\ unused P57 3 /\ unused P57 4 /\ ~ unused P57 2.
Proof.
  assert (W : wf_src ex57) by (apply wf_srcb_ok; reflexivity). assert (WP : wf_prec ex57 pr57) by (constructor; reflexivity).
  assert (H1 : lr0 300 (pack_grammar ex57) = Ok (fst lr57, snd lr57)) by (vm_compute; reflexivity).
  assert (H2 : lalr 300 (pack_grammar ex57) (fst lr57) (snd lr57) = Ok T57) by (vm_compute; reflexivity).
  assert (H3 : make_parser false (pack_grammar ex57) pr57 T57 = Ok P57) by (vm_compute; reflexivity).
  split; [exact W|]. split; [exact WP|]. split; [exact H1|]. split; [exact H2|]. split; [exact H3|]. split.
  { assert (D : forall r, In r (g_rules (aug ex57)) -> derives (aug ex57) [ESym (r_lhs r)] (r_rhs r)).
    { intros r I. apply star_one. pose proof (step_rule (aug ex57) [] [] r I) as S1. cbn [app] in S1. rewrite app_nil_r in S1. exact S1. }
    assert (D6 : derives (aug ex57) [ESym 6] [ESym 3]) by (apply (D (mkRule 6 [ESym 3])); cbn; auto 8).
    assert (D5 : derives (aug ex57) [ESym 5] [ESym 3]) by (eapply derives_trans; [apply (D (mkRule 5 [ESym 6])); cbn; auto 8|exact D6]).
    assert (D7 : derives (aug ex57) [ESym 7] [ESym 3; ESym 2]).
    { eapply derives_trans; [apply (D (mkRule 7 [ESym 6; ESym 2])); cbn; auto 8|]. apply (derives_app_l _ [ESym 6] [ESym 3] [ESym 2]). exact D6. }
    intros A [G1 G2]. cbn in G1, G2. assert (HA : A = 4 \/ A = 5 \/ A = 6 \/ A = 7) by lia. destruct HA as [->|[->|[->| ->]]].
    - exists [3]. split; [repeat constructor|]. eapply derives_trans; [apply (D (mkRule 4 [ESym 5])); cbn; auto 8|exact D5].
    - exists [3]. split; [repeat constructor|exact D5].
    - exists [3]. split; [repeat constructor|exact D6].
    - exists [3; 2]. split; [repeat constructor|exact D7]. }
  split. { eapply (C52_no_conflict_counted ex57 300 300 false pr57); eauto; try (vm_compute; reflexivity).
    - intros l r I X. cbn in I. repeat (destruct I as [I|I]; [inversion I; subst; cbn in X; intuition discriminate|]). destruct I.
    - intros t. unfold pr57. cbn. repeat (destruct t as [|t]; [reflexivity|]). destruct t; reflexivity.
    - intros t. unfold pr57. cbn. repeat (destruct t as [|t]; [reflexivity|]). destruct t; reflexivity. }
  split; [reflexivity|]. unfold unused. vm_compute. split; [split; [lia|reflexivity]|]. split; [split; [lia|reflexivity]|]. intros (_ & X). discriminate.
Qed.
