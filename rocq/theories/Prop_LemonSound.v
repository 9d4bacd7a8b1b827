(** C14 soundness of the generated lemon parsers, C16 their memory safety, and the
    conditions on generated tables assumed by the theorems of Prop_LemonDriver.v. *)
From Coq Require Import List ZArith NArith Bool Lia Arith.
Import ListNotations.
From Verif Require Import Base CLib SpecGrammar SpecGrammarFacts SpecLRFacts SpecLR0 LemonSetModel LemonFirstModel
  LemonSortModel LemonStatesModel LemonStatesProof Prop_LemonStates
  LemonActionModel LemonActionProof Prop_LemonAction LemonCompressModel LemonCompressProof
  LemonReportModel LemonParModel LemonParProof LemonPipelineModel LemonReportProof LemonLookupProof
  Prop_LemonTables Prop_LemonDriver LemonGenProof LemonTabProof LemonSoundProof.
Local Open Scope res_scope.

(** * Rightmost derivations *)

(** Rightmost derivation, with the numbers of the rules used in order. *)
Inductive rightmost (g : grammar) : list elem -> list nat -> list elem -> Prop :=
| rm_refl : forall u, rightmost g u [] u
| rm_rule : forall u v r rl rs w, Forall (is_term g) v -> rule_of g r = Some rl ->
    rightmost g (u ++ r_rhs rl ++ map ESym v) rs w -> rightmost g (u ++ ESym (r_lhs rl) :: map ESym v) (r :: rs) w
| rm_multi : forall u v l t rs w, Forall (is_term g) v -> In t l ->
    rightmost g (u ++ ESym t :: map ESym v) rs w -> rightmost g (u ++ EMulti l :: map ESym v) rs w.

(** The rules reduced, in order, as recorded in a log. *)
Definition reductions (l : list event) : list Z :=
  flat_map (fun e => match e with EvReduce r _ => [r] | _ => [] end) (rev l).

(** [elided P l l']: [l'] is [l] with some elements satisfying [P] left out. *)
Inductive elided {X} (P : X -> Prop) : list X -> list X -> Prop :=
| el_nil : elided P [] []
| el_keep : forall x l l', elided P l l' -> elided P (x :: l) (x :: l')
| el_skip : forall x l l', P x -> elided P l l' -> elided P (x :: l) l'.

(** A rule without code and with one nonterminal on its right. *)
Definition unit_rule (g : grammar) (o : opts) (r : nat) : Prop :=
  exists rl B, rule_of g r = Some rl /\ r_rhs rl = [ESym B] /\ is_nonterm g B /\ nth r (o_noCode o) true = true.

Lemma rightmost_trans : forall g u r1 v, rightmost g u r1 v -> forall r2 w, rightmost g v r2 w -> rightmost g u (r1 ++ r2) w.
Proof.
  intros g u r1 v H. induction H; intros r2 w' H2; simpl; auto.
  - apply rm_rule; auto.
  - eapply rm_multi; eauto.
Qed.

Lemma rightmost_ctx : forall g a v, Forall (is_term g) v -> forall u rs w, rightmost g u rs w -> rightmost g (a ++ u ++ map ESym v) rs (a ++ w ++ map ESym v).
Proof.
  intros g a v F u rs w H. induction H as [u|u v0 r rl rs w F0 R H IH|u v0 l t rs w F0 I H IH].
  - constructor.
  - replace (a ++ (u ++ ESym (r_lhs rl) :: map ESym v0) ++ map ESym v) with ((a ++ u) ++ ESym (r_lhs rl) :: map ESym (v0 ++ v)).
    + apply rm_rule; auto; [apply Forall_app; auto|]. rewrite map_app. rewrite <- !app_assoc in *. auto.
    + rewrite map_app, <- !app_assoc. auto.
  - replace (a ++ (u ++ EMulti l :: map ESym v0) ++ map ESym v) with ((a ++ u) ++ EMulti l :: map ESym (v0 ++ v)).
    + eapply rm_multi; eauto; [apply Forall_app; auto|]. rewrite map_app. rewrite <- !app_assoc in *. auto.
    + rewrite map_app, <- !app_assoc. auto.
Qed.

Lemma elided_app : forall X (P : X -> Prop) a a' b b', elided P a a' -> elided P b b' -> elided P (a ++ b) (a' ++ b').
Proof. intros X P a a' b b' H H2. induction H; simpl; auto; constructor; auto. Qed.

Fixpoint reds (t : tree) : list Z := match t with Tok _ => [] | Nod r ts => flat_map reds ts ++ [r] end.

(** A parse tree is a rightmost derivation. *)
Lemma ptree_rightmost : forall g o X T w, wf_grammar g -> wf_elem g X -> ptree g o X T w ->
  exists v rs ks, Forall2 (fun x s => matches o (fst x) s) w v /\ Forall (is_term g) v /\ rightmost g [X] rs (map ESym v) /\
    elided (unit_rule g o) (rev rs) ks /\ reds T = map (fun r => Z.of_nat (ri_iRule (opts_rinfo o) r)) ks.
Proof.
  intros g o X T w W WX H. revert WX.
  induction H using ptree_ind2 with (P0 := fun l ts w _ => Forall (wf_elem g) l ->
    exists v rs ks, Forall2 (fun x s => matches o (fst x) s) w v /\ Forall (is_term g) v /\ rightmost g l rs (map ESym v) /\
    elided (unit_rule g o) (rev rs) ks /\ flat_map reds ts = map (fun r => Z.of_nat (ri_iRule (opts_rinfo o) r)) ks).
  - intros _. exists [s], [], []. split; [constructor; auto|]. split; [constructor; auto|]. split; [constructor|]. split; [constructor|auto].
  - intros (_ & WX). exists [s], [], []. split; [constructor; auto|]. split; [constructor; auto|]. split.
    + apply (rm_multi g [] [] l s); [constructor|auto|constructor].
    + split; [constructor|auto].
  - intros _. assert (IR : In rl (g_rules g)) by (eapply nth_error_In; eauto).
    destruct IHptree as (v & rs & ks & V1 & V2 & V3 & V4 & V5); [apply wf_rhs; auto|].
    exists v, (r :: rs), (ks ++ [r]). split; auto. split; auto. split.
    + apply (rm_rule g [] [] r rl); [constructor|auto|]. simpl. rewrite app_nil_r. auto.
    + split; [simpl; apply elided_app; auto; constructor; constructor|]. cbn [reds]. rewrite V5, map_app. auto.
  - intros _. assert (IR : In rl (g_rules g)) by (eapply nth_error_In; eauto).
    destruct IHptree as (v & rs & ks & V1 & V2 & V3 & V4 & V5). { pose proof (wf_rhs g W rl IR) as F. rewrite e1 in F. inversion F; auto. }
    exists v, (r :: rs), ks. split; auto. split; auto. split.
    + apply (rm_rule g [] [] r rl); [constructor|auto|]. simpl. rewrite app_nil_r, e1. auto.
    + split; [|auto]. simpl. rewrite <- (app_nil_r ks). apply elided_app; auto. apply el_skip; [exists rl, B; auto|constructor].
  - intros _. exists [], [], []. split; [constructor|]. split; [constructor|]. split; [constructor|]. split; [constructor|auto].
  - intros WF. inversion WF as [|? ? W1 W2]; subst. destruct (IHptree W1) as (v1 & r1 & k1 & A1 & A2 & A3 & A4 & A5).
    destruct (IHptree0 W2) as (v2 & r2 & k2 & B1 & B2 & B3 & B4 & B5). exists (v1 ++ v2), (r2 ++ r1), (k1 ++ k2).
    split; [apply Forall2_app; auto|]. split; [apply Forall_app; auto|]. split; [|split].
    + apply rightmost_trans with (v := [X] ++ map ESym v2).
      * pose proof (rightmost_ctx g [X] [] ltac:(constructor) _ _ _ B3) as K. simpl in K. rewrite !app_nil_r in K. auto.
      * rewrite map_app. pose proof (rightmost_ctx g [] v2 B2 _ _ _ A3) as K. auto.
    + rewrite rev_app_distr. apply elided_app; auto.
    + simpl. rewrite A5, B5, map_app. auto.
Qed.

Lemma reds_post : forall T, flat_map (fun s => match s with Re r => [r] | Sh _ => [] end) (post T) = reds T.
Proof.
  fix IH 1. intros [id|r ts]; [reflexivity|]. cbn [post reds]. rewrite flat_map_app. cbn [flat_map app]. f_equal.
  induction ts as [|t ts IHt]; [reflexivity|]. cbn [flat_map]. rewrite flat_map_app, IH, IHt. auto.
Qed.

Lemma reductions_psteps : forall l, reductions l = flat_map (fun s => match s with Re r => [r] | Sh _ => [] end) (psteps l).
Proof.
  intros l. unfold reductions, psteps. induction (rev l) as [|e k IH]; auto. cbn [flat_map]. rewrite flat_map_app, <- IH. f_equal.
  destruct e as [m [id|? ?]| | | | | | |]; reflexivity.
Qed.

(** * C14 *)

Lemma rhs128 : forall g, (forall rl, In rl (g_rules g) -> length (r_rhs rl) <= 128) ->
  forall r rl, rule_of g r = Some rl -> length (r_rhs rl) <= 128.
Proof. intros g H r rl R. apply H. eapply nth_error_In; eauto. Qed.

Lemma feed_inv : forall g o c A aps xs sorted nx, wf_grammar g -> start_not_rhs g -> opts_ok g o -> gen_ok g o c A aps xs sorted nx ->
  (forall r rl, rule_of g r = Some rl -> length (r_rhs rl) <= 128) ->
  forall grow fuel toks p p' id w, feed c grow fuel p (map Z.of_nat toks) id = Ok p' -> Forall (fun t => 0 < t < g_nterm g) toks ->
  Inv g o A sorted nx (tops0 g o c A sorted nx) p w -> clean (p_log p') ->
  Inv g o A sorted nx (tops0 g o c A sorted nx) p' (w ++ combine toks (seq id (length toks))).
Proof.
  intros g o c A aps xs sorted nx W SNR OO GK R128 grow fuel toks.
  assert (UP : forall la p w, Inv g o A sorted nx (tops0 g o c A sorted nx) p w -> Inv g o A sorted nx (tops g o c A sorted nx la) p w).
  { intros la p w (gm & e & r & X1 & X2 & X3 & X4). exists gm, e, r. split; auto. split; auto. split; auto.
    destruct X3 as [X3|X3]; [left; auto|right; left; auto]. }
  assert (LOGM : forall toks p p' id, feed c grow fuel p (map Z.of_nat toks) id = Ok p' -> p_stack p <> [] -> exists n, p_log p' = n ++ p_log p).
  { induction toks0 as [|t toks0 IH]; intros p p' id H NE; cbn [map feed] in H; [inversion H; exists []; auto|].
    apply bind_Ok in H as (p1 & HP & H). apply Parse_run in HP. apply run_log in HP as (N1 & (n1 & E1)); auto.
    destruct (IH _ _ _ H N1) as (n2 & E2). exists (n2 ++ n1). rewrite E2, E1. apply app_assoc. }
  induction toks as [|t toks IH]; intros p p' id w H FT IV CL; cbn [map feed] in H.
  - inversion H; subst p'. simpl. rewrite app_nil_r. auto.
  - apply bind_Ok in H as (p1 & HP & H). inversion FT as [|? ? T1 T2]; subst. apply Parse_run in HP.
    assert (NE : p_stack p <> []). { destruct IV as (? & ? & ? & -> & _). discriminate. }
    destruct (run_log _ _ _ _ _ _ _ HP NE) as (NE1 & _). destruct (LOGM _ _ _ _ H NE1) as (n & EL).
    assert (CL1 : clean (p_log p1)). { rewrite EL in CL. eapply clean_app; eauto. }
    destruct (run_inv g o c A aps xs sorted nx W SNR OO GK R128 grow t id p false p1 w HP ltac:(lia) (UP t _ _ IV) CL1) as [IV1|(E0 & _)]; [|lia].
    cbn [length seq combine]. replace (w ++ (t, id) :: combine toks (seq (S id) (length toks))) with ((w ++ [(t, id)]) ++ combine toks (seq (S id) (length toks))) by (rewrite <- app_assoc; auto).
    eapply IH; eauto.
Qed.

Lemma init_inv : forall g o c A aps xs sorted nx cap, gen_ok g o c A aps xs sorted nx ->
  Inv g o A sorted nx (tops0 g o c A sorted nx) (ParseInit cap) [].
Proof.
  intros g o c A aps xs sorted nx cap GK. exists [], (mkEntry 0 0 (Tok 0)), []. split; auto. split; [constructor; auto|]. split.
  - left. destruct (gk_first _ _ _ _ _ _ _ _ GK) as (x & EX & N0). exists 0, x. pose proof (gk_nx _ _ _ _ _ _ _ _ GK).
    split; auto. split; [lia|]. split; auto. rewrite N0. eapply path_0; eauto.
  - split; auto. split; [cbn; lia|auto].
Qed.

(** If the generated parser accepts a token sequence without a syntax error or a
    stack overflow, the sequence, reading some tokens as their fallback or as the
    wildcard, has a parse tree, and the parser performed exactly the shifts and
    reductions of its bottom-up traversal. *)
Theorem C14_parse_tree : forall sf ff cf o g c grow fuel cap toks p p',
  wf_grammar g -> small_lists sf ff g -> start_not_rhs g -> opts_ok g o -> (forall rl, In rl (g_rules g) -> length (r_rhs rl) <= 128) ->
  lemon_generate sf ff cf o g = Ok c -> Forall (fun t => 0 < t < g_nterm g) toks ->
  feed c grow fuel (ParseInit cap) (map Z.of_nat toks) 1 = Ok p -> Parse c grow fuel p 0 (Tok 0) = Ok p' ->
  In EvAccept (p_log p') -> ~ In EvOverflow (p_log p') -> (forall m v, ~ In (EvSyntaxError m v) (p_log p')) ->
  exists T, ptree g o (ESym (g_start g)) T (combine toks (seq 1 (length toks))) /\ psteps (p_log p') = post T.
Proof.
  intros sf ff cf o g c grow fuel cap toks p p' W SM SNR OO R128 HG FT HF HP AC NOV NSE.
  destruct (generated g o sf ff cf c W SM SNR OO HG) as (L & aps & xs & sorted & nx & _ & _ & GK).
  assert (CL : clean (p_log p')). { intros ev I. destruct ev; auto. eapply NSE; eauto. }
  pose proof (init_inv _ _ _ _ _ _ _ _ cap GK) as IV0.
  apply Parse_run in HP.
  assert (CLp : clean (p_log p)).
  { assert (NE : p_stack p <> []).
    { clear - HF. revert HF. assert (N0 : p_stack (ParseInit cap) <> []) by discriminate. revert N0. generalize (ParseInit cap) 1.
      induction toks as [|t toks IH]; intros q id N0 H; cbn [map feed] in H; [inversion H; subst; auto|].
      apply bind_Ok in H as (p1 & HP & H). apply Parse_run in HP. apply run_log in HP as (N1 & _); auto. eapply IH; eauto. }
    destruct (run_log _ _ _ _ _ _ _ HP NE) as (_ & (n & E)). rewrite E in CL. eapply clean_app; eauto. }
  pose proof (feed_inv g o c _ aps xs sorted nx W SNR OO GK (rhs128 g R128) grow fuel toks _ _ _ _ HF FT IV0 CLp) as IV.
  cbn [app] in IV.
  assert (IVt : Inv g o (states_view L) sorted nx (tops g o c (states_view L) sorted nx 0) p (combine toks (seq 1 (length toks)))).
  { destruct IV as (gm & e & r & X1 & X2 & X3 & X4). exists gm, e, r. split; auto. split; auto. split; auto.
    destruct X3 as [X3|X3]; [left; auto|right; left; auto]. }
  destruct (run_inv g o c _ aps xs sorted nx W SNR OO GK (rhs128 g R128) grow 0 0 p false p' (combine toks (seq 1 (length toks))) HP) as [IV1|(_ & T & PT & PS)]; auto.
  - destruct W as (W1 & _). auto.
  - exfalso. destruct IV1 as (? & ? & ? & _ & _ & _ & _ & _ & NA). auto.
  - exists T. auto.
Qed.
Print Assumptions C14_parse_tree.

(** Accepted sequences are sentences, and the rules reduced are, in reverse order,
    those of a rightmost derivation, except that uses of rules of the form A ::= B
    without code may be left out. *)
Theorem C14_accepted_is_sentence : forall sf ff cf o g c grow fuel cap toks p p',
  wf_grammar g -> small_lists sf ff g -> start_not_rhs g -> opts_ok g o -> (forall rl, In rl (g_rules g) -> length (r_rhs rl) <= 128) ->
  lemon_generate sf ff cf o g = Ok c -> Forall (fun t => 0 < t < g_nterm g) toks ->
  feed c grow fuel (ParseInit cap) (map Z.of_nat toks) 1 = Ok p -> Parse c grow fuel p 0 (Tok 0) = Ok p' ->
  In EvAccept (p_log p') -> ~ In EvOverflow (p_log p') -> (forall m v, ~ In (EvSyntaxError m v) (p_log p')) ->
  exists toks' rs ks, Forall2 (matches o) toks toks' /\ sentence g toks' /\
    rightmost g [ESym (g_start g)] rs (map ESym toks') /\
    elided (unit_rule g o) (rev rs) ks /\
    reductions (p_log p') = map (fun r => Z.of_nat (ri_iRule (opts_rinfo o) r)) ks.
Proof.
  intros sf ff cf o g c grow fuel cap toks p p' W SM SNR OO R128 HG FT HF HP AC NOV NSE.
  destruct (C14_parse_tree _ _ _ _ _ _ _ _ _ _ _ _ W SM SNR OO R128 HG FT HF HP AC NOV NSE) as (T & PT & PS).
  assert (WX : wf_elem g (ESym (g_start g))). { destruct W as (_ & _ & _ & W4). unfold is_nonterm in W4. simpl. lia. }
  destruct (ptree_rightmost _ _ _ _ _ W WX PT) as (v & rs & ks & M & FV & RM & EL & RD).
  exists v, rs, ks. split.
  - clear - M. revert v M. generalize 1. induction toks as [|t toks IH]; intros n v M; simpl in M; inversion M; subst; constructor; eauto.
  - split.
    + split; auto. clear - RM. induction RM as [u|u v0 r rl rs w F0 R H IH|u v0 l t rs w F0 I H IH]; [apply derives_refl| |].
      * eapply derives_trans; [|exact IH]. eapply star_step; [|apply star_refl]. apply step_rule. eapply nth_error_In; eauto.
      * eapply derives_trans; [|exact IH]. eapply star_step; [|apply star_refl]. apply step_multi. auto.
    + split; auto. split; auto. rewrite reductions_psteps, PS, reds_post. auto.
Qed.
Print Assumptions C14_accepted_is_sentence.

(** Expressions with a left associative PLUS; the token KW (3) falls back to ID (2).
    Terminals: 0 end of input, 1 PLUS, 2 ID, 3 KW; 4 s, 5 e. *)
Definition exg14 : grammar := mkGrammar 4 6
  [mkRule 4 [ESym 5]; mkRule 5 [ESym 5; ESym 1; ESym 5]; mkRule 5 [ESym 2]] 4.
Definition exo14 : opts :=
  mkOpts false false true (mkPrecs (fun s => if s =? 1 then Some 1 else None) (fun s => if s =? 1 then LEFT else UNK))
    [None; None; None] [false; false; false] None None (Some [0; 0; 0; 2]) (fun _ i => i) (fun _ i => i).

Definition dummy : gen := mkGen (mkTables 0 0 0 0 0 0 0 0 0 0 [] [] 0 [] 0 [] []) None None None [] [].
Definition get_gen (r : res gen) : gen := match r with Ok c => c | _ => dummy end.
Definition exc14 : gen := Eval vm_compute in get_gen (lemon_generate 100 100 100 exo14 exg14).
Lemma exc14_ok : lemon_generate 100 100 100 exo14 exg14 = Ok exc14.
Proof. vm_compute. reflexivity. Qed.

Lemma small_lists_ex : forall sf ff g L aps, lemon_front sf ff g = Ok L -> actions_added g L = Ok aps ->
  (N.of_nat (item_count g) < 2 ^ 30)%N -> forallb (fun ap => (N.of_nat (length ap) <? 2 ^ 30)%N) aps = true -> small_lists sf ff g.
Proof.
  intros sf ff g L aps H1 H2 H3 H4. split; auto. intros L' aps' ap E1 E2 I. assert (L' = L) by congruence. subst L'.
  assert (aps' = aps) by congruence. subst aps'. rewrite forallb_forall in H4. apply N.ltb_lt. apply H4. auto.
Qed.

Lemma exg14_ok : wf_grammar exg14 /\ small_lists 100 100 exg14 /\ start_not_rhs exg14 /\ opts_ok exg14 exo14 /\
  (forall rl, In rl (g_rules exg14) -> length (r_rhs rl) <= 128).
Proof.
  split; [apply wf_grammarb_ok; reflexivity|].
  split. { eapply small_lists_ex; [vm_compute; reflexivity|vm_compute; reflexivity|reflexivity|reflexivity]. }
  split. { intros rl H. repeat (destruct H as [<-|H]; [simpl; intuition discriminate|]). destruct H. }
  split.
  { constructor; [reflexivity| | |]; cbn [exo14 o_fallback o_wildcard o_errsym]; intros l E; [|discriminate|discriminate].
    inversion E; subst l. split; [reflexivity|]. split; [reflexivity|]. cbn [exg14 g_nterm].
    intros t LT. do 4 (destruct t as [|t]; [cbn; split; [lia|reflexivity]|]). lia. }
  intros rl H. repeat (destruct H as [<-|H]; [simpl; lia|]). destruct H.
Qed.

Example C14_hypotheses : exists p p', wf_grammar exg14 /\ small_lists 100 100 exg14 /\ start_not_rhs exg14 /\ opts_ok exg14 exo14 /\
  (forall rl, In rl (g_rules exg14) -> length (r_rhs rl) <= 128) /\ lemon_generate 100 100 100 exo14 exg14 = Ok exc14 /\
  feed exc14 (fun _ => None) 50 (ParseInit 20) (map Z.of_nat [3; 1; 2; 1; 2]) 1 = Ok p /\ Parse exc14 (fun _ => None) 50 p 0 (Tok 0) = Ok p' /\
  In EvAccept (p_log p') /\ ~ In EvOverflow (p_log p') /\ (forall m v, ~ In (EvSyntaxError m v) (p_log p')) /\
  reductions (p_log p') = [2; 2; 1; 2; 1; 0]%Z.
Proof.
  destruct exg14_ok as (H1 & H2 & H3 & H4 & H5). do 2 eexists. split; [exact H1|]. split; [exact H2|]. split; [exact H3|]. split; [exact H4|]. split; [exact H5|]. split; [exact exc14_ok|].
  split; [vm_compute; reflexivity|]. split; [vm_compute; reflexivity|].
  split; [vm_compute; tauto|]. split; [vm_compute; intuition discriminate|]. split; [|vm_compute; reflexivity].
  intros m v. vm_compute. intuition discriminate.
Qed.

(** The start symbol must not occur on a right-hand side: lemon reports that as an
    error but still writes the parser, and the parser accepts A C although only C
    after B ... is derivable.  Terminals: 1 A, 2 B, 3 C. *)
Definition exg14b : grammar := mkGrammar 4 5 [mkRule 4 [ESym 1]; mkRule 4 [ESym 2; ESym 4; ESym 3]; mkRule 4 []] 4.
Lemma exg14b_balanced : forall u v, star (step exg14b) u v -> count_occ Nat.eq_dec (flat_map elem_syms u) 2 = count_occ Nat.eq_dec (flat_map elem_syms u) 3 ->
  Forall (fun e => exists s, e = ESym s) u -> count_occ Nat.eq_dec (flat_map elem_syms v) 2 = count_occ Nat.eq_dec (flat_map elem_syms v) 3.
Proof.
  intros u v H. induction H as [x|x y z S1 H IH]; auto. intros C F.
  apply IH; destruct S1 as [a b r I|a b l t I].
  - rewrite !flat_map_app in *. cbn [flat_map] in *. rewrite ?flat_map_app, ?count_occ_app in *.
    destruct I as [<-|[<-|[<-|[]]]]; cbn [r_rhs r_lhs flat_map elem_syms app] in *; cbn in *; lia.
  - apply Forall_app in F as (_ & F). inversion F as [|? ? (s & E) _]. discriminate.
  - apply Forall_app in F as (F1 & F2). inversion F2; subst. rewrite !Forall_app. split; auto. split; auto.
    destruct I as [<-|[<-|[<-|[]]]]; cbn [r_rhs]; repeat constructor; eauto.
  - apply Forall_app in F as (_ & F). inversion F as [|? ? (s & E) _]. discriminate.
Qed.
Theorem C14_start_on_rhs_refuted : exists g o c p p' toks, wf_grammar g /\ opts_ok g o /\ lemon_generate 100 100 100 o g = Ok c /\
  o_fallback o = None /\ o_wildcard o = None /\
  Forall (fun t => 0 < t < g_nterm g) toks /\
  feed c (fun _ => None) 50 (ParseInit 20) (map Z.of_nat toks) 1 = Ok p /\ Parse c (fun _ => None) 50 p 0 (Tok 0) = Ok p' /\
  In EvAccept (p_log p') /\ ~ In EvOverflow (p_log p') /\ (forall m v, ~ In (EvSyntaxError m v) (p_log p')) /\
  ~ sentence g toks.
Proof.
  exists exg14b, (plain_opts exg14b). do 3 eexists. exists [1; 3]. split; [apply wf_grammarb_ok; reflexivity|].
  split. { constructor; [reflexivity| | |]; cbn; intros l E; discriminate. }
  split; [vm_compute; reflexivity|]. split; [reflexivity|]. split; [reflexivity|].
  split; [repeat constructor|]. split; [vm_compute; reflexivity|]. split; [vm_compute; reflexivity|].
  split; [vm_compute; tauto|]. split; [vm_compute; intuition discriminate|]. split; [intros m v; vm_compute; intuition discriminate|].
  intros (_ & D). apply exg14b_balanced in D; [cbn in D; discriminate|reflexivity|repeat constructor; eauto].
Qed.
Print Assumptions C14_start_on_rhs_refuted.

(** * Generated tables meet the conditions of Prop_LemonDriver.v *)

Lemma generated_sane : forall sf ff cf o g c, wf_grammar g -> small_lists sf ff g -> start_not_rhs g -> opts_ok g o ->
  lemon_generate sf ff cf o g = Ok c -> sane c.
Proof.
  intros sf ff cf o g c W SM SNR OO HG.
  destruct (generated g o sf ff cf c W SM SNR OO HG) as (L & aps & xs & sorted & nx & _ & _ & GK).
  pose proof (consts_ok _ _ _ _ _ _ _ _ GK) as (C1 & C2 & C3 & C4 & C5 & C6 & C7).
  constructor.
  - lia.
  - intros la st v LA LE H.
    assert (LT : (la < Z.of_nat (g_nterm g))%Z /\ (0 <= st)%Z).
    { unfold yy_find_shift_action in H. destruct (Z.ltb_spec (YY_MAX_SHIFT (g_tab c)) st); [lia|].
      apply bind_Ok in H as ([] & _ & H). cbn [find_shift_loop] in H. apply bind_Ok in H as (i0 & HI & H).
      split; [|unfold rdz in HI; destruct (Z.ltb_spec st 0); [discriminate|auto]].
      do 4 (apply bind_Ok in H as ([] & _ & H)). apply bind_Ok in H as ([] & HA & H). apply assert_Ok, Z.ltb_lt in HA.
      pose proof (gk_consts _ _ _ _ _ _ _ _ GK) as (_ & _ & _ & _ & _ & _ & _ & E). lia. }
    destruct (Z_of_nat_complete la LA) as (k & ->). destruct LT as (LT & S0). destruct (Z_of_nat_complete st S0) as (n & ->).
    assert (LN : n < length sorted). { rewrite (gk_ns _ _ _ _ _ _ _ _ GK). lia. }
    destruct (nth_error_lt_ex _ sorted n LN) as (x & EX).
    destruct (gk_sorted _ _ _ _ _ _ _ _ GK n x EX) as (EXS & _).
    assert (LQ : x_num x < length (states_view L)). { rewrite <- (fn_len _ _ _ _ _ (gk_final _ _ _ _ _ _ _ _ GK)). eapply nth_error_Some_lt; eauto. }
    destruct (nth_error_lt_ex _ _ _ LQ) as ([I sh] & EI).
    destruct (lr0_sound _ _ (rs_auto _ _ _ (gk_resolved _ _ _ _ _ _ _ _ GK)) _ _ _ EI) as (gm & VS).
    assert (RL : real g (states_view L) sorted nx gm (Z.of_nat n)).
    { exists n, x. split; auto. split; [lia|]. split; auto. exists I, sh. auto. }
    pose proof (look_real g o c _ aps xs sorted nx W SNR OO GK gm k 0 _ v ltac:(lia) RL H) as LK.
    destruct LK as [X PT RLX LM|X r0 PT EV PD LM|r0 rl EV R V LS RR|EV]; lia.
  - intros es st v EE H LM. rewrite (gk_errsym _ _ _ _ _ _ _ _ GK) in EE. destruct (o_errsym o) as [e|] eqn:OE; [|discriminate].
    cbn [option_map] in EE. inversion EE; subst es.
    destruct (gk_error _ _ _ _ _ _ _ _ GK st e v OE H) as (k & x & EX & LK & [(a & IA & EXA & SP & EV)|(_ & EV)]).
    + destruct (gk_sorted _ _ _ _ _ _ _ _ GK k x EX) as (EXS & _).
      pose proof (fn_ok _ _ _ _ _ (gk_final _ _ _ _ _ _ _ _ GK) _ _ _ a EXS IA EXA) as AO.
      pose proof (code_other g o c _ aps xs sorted nx GK a) as CO.
      assert (AUD : forall q' r, auto_of xs q' = Some r -> done g (states_view L) q' r).
      { intros q' r AU. destruct (auto_facts g o c _ aps xs sorted nx GK _ _ AU) as (rl & R & HI & _). exists rl. auto. }
      destruct (act_ok_arg g _ o W xs _ a AUD AO) as (_ & AR). destruct a as [ty sp arg]. cbn [a_type a_arg a_sp] in *.
      destruct ty; try contradiction; try lia.
      destruct AR as (AR1 & AR2). destruct (code_shift g o c _ aps xs sorted nx GK sp arg AR1 AR2) as (k' & x' & EC & _ & _ & L2). lia.
    + destruct (dflt_rule g (x_ap x)); lia.
Qed.

(** The conclusion of C17 for generated parsers. *)
Theorem C17_generated_exactly_once : forall sf ff cf o g c grow fuel cap toks p p1 p2,
  wf_grammar g -> small_lists sf ff g -> start_not_rhs g -> opts_ok g o -> lemon_generate sf ff cf o g = Ok c ->
  Forall (fun t => 0 < t < g_nterm g) toks ->
  feed c grow fuel (ParseInit cap) (map Z.of_nat toks) 1 = Ok p -> ~ In EvAccept (p_log p) ->
  Parse c grow fuel p 0 (Tok 0) = Ok p1 -> ~ In EvOverflow (p_log p1) ->
  ParseFinalize p1 = Ok p2 ->
  forall id, 1 <= id <= length toks ->
    count_occ Nat.eq_dec (flat_map (consumed (g_errsym c)) (p_log p2)) id = 1.
Proof.
  intros sf ff cf o g c grow fuel cap toks p p1 p2 W SM SNR OO HG FT HF NA HP NOV HZ id ID.
  destruct (generated g o sf ff cf c W SM SNR OO HG) as (L & aps & xs & sorted & nx & _ & _ & GK).
  apply (C17_exactly_once c grow fuel cap (map Z.of_nat toks) p p1 p2); auto.
  - eapply generated_sane; eauto.
  - rewrite Forall_forall in *. intros m I. apply in_map_iff in I as (t & <- & I). specialize (FT t I). split; [lia|].
    rewrite (gk_errsym _ _ _ _ _ _ _ _ GK). destruct (o_errsym o) as [e|] eqn:OE; cbn [option_map]; [|discriminate].
    destruct (oo_err _ _ OO _ OE) as (B & _). intros E. inversion E. lia.
  - rewrite map_length. auto.
Qed.
Print Assumptions C17_generated_exactly_once.

(** * C16: generated parsers without an error symbol never go wrong *)

(** No assertion fails, no table index is out of range and no reduction pops the
    bottom entry, provided yy_shift_ofst has not been cut (see
    C10_shift_ofst_refuted) and no right-hand side is longer than 128. *)
Theorem C16_generated_safe : forall sf ff cf o g c grow fuel cap toks,
  wf_grammar g -> small_lists sf ff g -> start_not_rhs g -> opts_ok g o -> (forall rl, In rl (g_rules g) -> length (r_rhs rl) <= 128) ->
  lemon_generate sf ff cf o g = Ok c -> o_errsym o = None -> YY_SHIFT_COUNT (g_tab c) = YY_MAX_SHIFT (g_tab c) ->
  Forall (fun t => t < g_nterm g) toks ->
  feed c grow fuel (ParseInit cap) (map Z.of_nat toks) 1 <> Bad.
Proof.
  intros sf ff cf o g c grow fuel cap toks W SM SNR OO R128 HG NE FULL FT.
  destruct (generated g o sf ff cf c W SM SNR OO HG) as (L & aps & xs & sorted & nx & _ & _ & GK).
  destruct (init_inv g o c _ aps xs sorted nx cap GK) as (gm & e & r & E1 & E2 & E3 & _).
  assert (SI : SInv g o (states_view L) sorted nx (tops0 g o c (states_view L) sorted nx) (ParseInit cap)) by (exists gm, e, r, []; auto).
  clear gm e r E1 E2 E3. revert SI. generalize (ParseInit cap) 1. induction toks as [|t toks IH]; intros p id SI; cbn [map feed]; [discriminate|].
  inversion FT as [|? ? T1 T2]; subst. destruct SI as (gm & e & r & w & E1 & E2 & E3).
  unfold Parse. unfold top. rewrite E1. cbn [bind].
  destruct (loop_safe g o c _ aps xs sorted nx W SNR OO GK (rhs128 g R128) NE FULL grow t id fuel p e r false) as [F|(p' & F & SI')]; auto.
  - exists gm, e, r, w. split; auto. split; auto. destruct E3 as [E3|E3]; [left|right; left]; auto.
  - rewrite F. discriminate.
  - rewrite F. cbn [bind]. apply IH; auto.
Qed.
Print Assumptions C16_generated_safe.

(** * C18: each call terminates *)

(** Without an error symbol, for a grammar without empty rules in which no
    nonterminal derives itself, a bound on the rounds of each call exists. *)
Theorem C18_terminates_partial : forall sf ff cf o g c (rank : nat -> nat) K,
  wf_grammar g -> small_lists sf ff g -> start_not_rhs g -> opts_ok g o -> (forall rl, In rl (g_rules g) -> length (r_rhs rl) <= 128) ->
  lemon_generate sf ff cf o g = Ok c -> o_errsym o = None ->
  (forall rl, In rl (g_rules g) -> r_rhs rl <> []) ->
  (forall s, rank s < K) ->
  (forall rl B, In rl (g_rules g) -> r_rhs rl = [ESym B] -> is_nonterm g B -> rank B < rank (r_lhs rl)) ->
  forall grow fuel cap toks t p, Forall (fun t => t < g_nterm g) toks -> t < g_nterm g ->
  feed c grow fuel (ParseInit cap) (map Z.of_nat toks) 1 = Ok p ->
  forall fuel' id, length (p_stack p) * (K + 2) < fuel' -> Parse c grow fuel' p (Z.of_nat t) (Tok id) <> Fuel.
Proof.
  intros sf ff cf o g c rank K W SM SNR OO R128 HG NE NOEPS RK RANK grow fuel cap toks t p FT LT HF fuel' id LF.
  destruct (generated g o sf ff cf c W SM SNR OO HG) as (L & aps & xs & sorted & nx & _ & _ & GK).
  destruct (init_inv g o c _ aps xs sorted nx cap GK) as (gm & e & r & E1 & E2 & E3 & _).
  assert (SI : SInv g o (states_view L) sorted nx (tops0 g o c (states_view L) sorted nx) (ParseInit cap)) by (exists gm, e, r, []; auto).
  clear gm e r E1 E2 E3.
  assert (SP : SInv g o (states_view L) sorted nx (tops0 g o c (states_view L) sorted nx) p).
  { revert SI HF. generalize (ParseInit cap) 1. clear LF. induction toks as [|u toks IH]; intros q n SI HF; cbn [map feed] in HF; [inversion HF; subst; auto|].
    inversion FT as [|? ? T1 T2]; subst. apply bind_Ok in HF as (q1 & HP & HF). apply (IH T2 q1 (S n)); auto.
    destruct SI as (gm & e & r & w & E1 & E2 & E3). apply Parse_run in HP. apply (run_SInv g o c _ aps xs sorted nx W SNR OO GK (rhs128 g R128) NE grow u n q false q1 HP T1).
    exists gm, e, r, w. split; auto. split; auto. destruct E3 as [E3|E3]; [left|right; left]; auto. }
  destruct SP as (gm & e & r & w & E1 & E2 & E3). unfold Parse, top. rewrite E1. cbn [bind].
  apply (loop_fuel g o c (states_view L) aps xs sorted nx W SNR OO GK (rhs128 g R128) NE rank K NOEPS RANK RK grow t id fuel' p gm e r w); auto.
  - destruct E3 as [E3|E3]; [left|right; left]; auto.
  - assert (LG : length gm + 1 = length (e :: r)).
    { clear - E2. induction E2; simpl in *; lia. }
    rewrite E1 in LF. rewrite <- LG in LF. unfold meas. destruct gm as [|X gm]; [lia|]. nia.
Qed.
Print Assumptions C18_terminates_partial.

(** The hypotheses are met by the expression grammar of C14. *)
Example C16_C17_C18_hypotheses : wf_grammar exg14 /\ small_lists 100 100 exg14 /\ start_not_rhs exg14 /\ opts_ok exg14 exo14 /\
  lemon_generate 100 100 100 exo14 exg14 = Ok exc14 /\ o_errsym exo14 = None /\ YY_SHIFT_COUNT (g_tab exc14) = YY_MAX_SHIFT (g_tab exc14) /\
  (forall rl, In rl (g_rules exg14) -> r_rhs rl <> []) /\
  (forall rl B, In rl (g_rules exg14) -> r_rhs rl = [ESym B] -> is_nonterm exg14 B ->
     (if B =? 4 then 1 else 0) < (if r_lhs rl =? 4 then 1 else 0)) /\
  exists p p1, feed exc14 (fun _ => None) 50 (ParseInit 20) (map Z.of_nat [3; 1; 1; 2]) 1 = Ok p /\ ~ In EvAccept (p_log p) /\
   In (EvSyntaxError 1 (Tok 3)) (p_log p) /\ Parse exc14 (fun _ => None) 50 p 0 (Tok 0) = Ok p1 /\ ~ In EvOverflow (p_log p1).
Proof.
  destruct exg14_ok as (H1 & H2 & H3 & H4 & H5). split; [exact H1|]. split; [exact H2|]. split; [exact H3|]. split; [exact H4|]. split; [exact exc14_ok|]. split; [reflexivity|].
  split; [reflexivity|]. split. { intros rl H. repeat (destruct H as [<-|H]; [discriminate|]). destruct H. }
  split.
  { intros rl B H E N. unfold is_nonterm in N. cbn [exg14 g_nterm g_nsym] in N. 
    destruct H as [<-|[<-|[<-|[]]]]; cbn [r_rhs r_lhs] in *; inversion E; subst; [cbn; lia|lia]. }
  do 2 eexists. split; [vm_compute; reflexivity|]. split; [vm_compute; intuition discriminate|]. split; [vm_compute; tauto|].
  split; [vm_compute; reflexivity|]. vm_compute. intuition discriminate.
Qed.

(** * Where the statements of C16, C17 and C18 fail *)

(** A right-hand side of 129 symbols: its negated length does not fit the signed
    char of yyRuleInfoNRhs, and the reduction reads above the top of the stack. *)
Definition exg16 : grammar := mkGrammar 2 3 [mkRule 2 (repeat (ESym 1) 129)] 2.
Definition exc16 : gen := Eval vm_compute in get_gen (lemon_generate 400 400 400 (plain_opts exg16) exg16).
Theorem C16_long_rhs_refuted : exists g o c p toks, wf_grammar g /\ start_not_rhs g /\ opts_ok g o /\ o_errsym o = None /\
  lemon_generate 400 400 400 o g = Ok c /\ YY_SHIFT_COUNT (g_tab c) = YY_MAX_SHIFT (g_tab c) /\ sentence g toks /\
  feed c (fun _ => None) 50 (ParseInit 1000) (map Z.of_nat toks) 1 = Ok p /\
  Parse c (fun _ => None) 50 p 0 (Tok 0) = Bad.
Proof.
  exists exg16, (plain_opts exg16), exc16. eexists. exists (repeat 1 129).
  split; [apply wf_grammarb_ok; vm_compute; reflexivity|].
  split. { intros rl [<-|[]]. cbn [r_rhs g_start exg16]. intros H. apply repeat_spec in H. discriminate. }
  split. { constructor; [reflexivity| | |]; intros l E; discriminate. }
  split; [reflexivity|]. split; [vm_compute; reflexivity|]. split; [vm_compute; reflexivity|].
  split. { split; [apply Forall_forall; intros x I; apply repeat_spec in I; subst; repeat constructor|].
    eapply star_step; [|apply star_refl].
    exact (step_rule exg16 [] [] (mkRule 2 (repeat (ESym 1) 129)) (or_introl eq_refl)). }
  split; [vm_compute; reflexivity|]. vm_compute. reflexivity.
Qed.
Print Assumptions C16_long_rhs_refuted.

(** When the stack overflows in a shift, the value of the token being shifted is
    neither stored nor destroyed. *)
Theorem C17_overflow_loses_token_refuted : exists c p p2 id, sane c /\
  feed c (fun _ => None) 50 (ParseInit 2) (map Z.of_nat [2; 1]) 1 = Ok p /\ ParseFinalize p = Ok p2 /\ 1 <= id <= 2 /\
  In EvOverflow (p_log p2) /\ count_occ Nat.eq_dec (flat_map (consumed (g_errsym c)) (p_log p2)) id = 0.
Proof.
  exists exc14. do 2 eexists. exists 2.
  split. { destruct exg14_ok as (H1 & H2 & H3 & H4 & H5). exact (generated_sane _ _ _ _ _ _ H1 H2 H3 H4 exc14_ok). }
  split; [vm_compute; reflexivity|]. split; [vm_compute; reflexivity|].
  split; [lia|]. split; [vm_compute; tauto|reflexivity].
Qed.
Print Assumptions C17_overflow_loses_token_refuted.

(** With an error symbol, the entry of the error symbol holds the value of the
    offending token, so that value is both destroyed and handed to the user's code
    by a reduction.  Terminals: 1 ID, 2 SEMI, 3 BAD; 4 s, 5 l, 6 e, 7 error. *)
Definition exg17 : grammar := mkGrammar 4 8
  [mkRule 4 [ESym 5]; mkRule 5 [ESym 5; ESym 6; ESym 2]; mkRule 5 []; mkRule 6 [ESym 1]; mkRule 6 [ESym 7]] 4.
Definition exo17 : opts :=
  mkOpts false false true noprec [None; None; None; None; None] [false; false; false; false; false] None (Some 7) None (fun _ i => i) (fun _ i => i).
Theorem C17_error_value_twice_refuted : exists c p, lemon_generate 100 100 100 exo17 exg17 = Ok c /\
  feed c (fun _ => None) 50 (ParseInit 20) (map Z.of_nat [3; 2]) 1 = Ok p /\
  In (EvDestroy 3 (Tok 1)) (p_log p) /\ exists r, In (EvReduce r [(7%Z, Tok 1)]) (p_log p).
Proof.
  do 2 eexists. split; [vm_compute; reflexivity|]. split; [vm_compute; reflexivity|]. split; [vm_compute; tauto|].
  exists 4%Z. vm_compute. tauto.
Qed.
Print Assumptions C17_error_value_twice_refuted.

(** A call need not terminate: with the reduce/reduce conflict between s ::= a and
    b ::= a resolved for the earlier rule b ::= a, the parser reduces a to b and b to
    a for ever at the end of the input X.  Terminals: 1 X; 2 s, 3 a, 4 b. *)
Definition exg18 : grammar := mkGrammar 2 5 [mkRule 4 [ESym 3]; mkRule 2 [ESym 3]; mkRule 3 [ESym 4]; mkRule 3 [ESym 1]] 2.
Definition exc18 : gen := Eval vm_compute in get_gen (lemon_generate 100 100 100 (plain_opts exg18) exg18).
Definition exp18 : parser := Eval vm_compute in
  match feed exc18 (fun _ => None) 50 (ParseInit 20) (map Z.of_nat [1]) 1 with Ok p => p | _ => ParseInit 0 end.
Theorem C18_terminates_refuted : exists g o c p, wf_grammar g /\ start_not_rhs g /\ opts_ok g o /\
  lemon_generate 100 100 100 o g = Ok c /\
  feed c (fun _ => None) 50 (ParseInit 20) (map Z.of_nat [1]) 1 = Ok p /\ sentence g [1] /\
  forall fuel, Parse c (fun _ => None) fuel p 0 (Tok 0) = Fuel.
Proof.
  exists exg18, (plain_opts exg18), exc18, exp18. split; [apply wf_grammarb_ok; reflexivity|].
  split. { intros rl H. repeat (destruct H as [<-|H]; [simpl; intuition discriminate|]). destruct H. }
  split. { constructor; [reflexivity| | |]; intros l E; discriminate. }
  split; [vm_compute; reflexivity|]. split; [vm_compute; reflexivity|].
  split. { split; [repeat constructor|]. eapply star_step; [apply (step_rule exg18 [] [] (mkRule 2 [ESym 3])); simpl; auto|].
    eapply star_step; [apply (step_rule exg18 [] [] (mkRule 3 [ESym 1])); simpl; auto 6|]. apply star_refl. }
  intros [|fuel]; [reflexivity|]. unfold Parse. cbn [exp18 top p_stack bind e_state]. cbn [parse_loop].
  remember (parse_loop exc18 (fun _ => None) fuel) as L eqn:EL. vm_compute. subst L.
  generalize (Nod 3 [Tok 1]) as v. generalize [EvReduce 3 [(1%Z, Tok 1)]; EvShift 1 (Tok 1)] as l.
  induction fuel as [fuel IH] using (well_founded_induction lt_wf).
  destruct fuel as [|fuel]; [reflexivity|]. intros l v. cbn [parse_loop].
  remember (parse_loop exc18 (fun _ => None) fuel) as L eqn:EL. vm_compute. subst L.
  destruct fuel as [|fuel]; [reflexivity|]. cbn [parse_loop].
  remember (parse_loop exc18 (fun _ => None) fuel) as L eqn:EL. vm_compute. subst L.
  apply IH. auto.
Qed.
Print Assumptions C18_terminates_refuted.
