(** C39, C40, C41: byacc's conflict resolution and default reductions. *)
From Coq Require Import List Arith NArith ZArith Lia Bool Sorted.
Import ListNotations.
From Verif Require Import Base SpecGrammar SpecGrammarFacts SpecLRFacts SpecLR0 SpecByacc ByaccWarshallModel ByaccWarshallProof ByaccLr0Model ByaccPackProof ByaccClosureProof
  ByaccNullProof ByaccLr0Proof ByaccStatesProof ByaccLalrModel ByaccDigraphProof ByaccLookSem ByaccGotoProof ByaccReadProof ByaccLookProof
  ByaccParModel SpecByaccConflicts ByaccParProof ByaccActionsProof Prop_ByaccLookahead.

(** On every action list (sorted by token, shifts first, reductions by rule number)
    resolution changes only the marks, leaves exactly the prescribed actions live
    and counts exactly the prescribed conflicts (SpecByaccConflicts). *)
Theorem C39_resolution : forall flag fin acts, StronglySorted act_lt acts -> (forall p, In p acts -> a_supp p = 0) ->
  exists acts' sr rr, remove_conflicts1 flag fin acts = Ok (acts', sr, rr) /\ res_ok flag fin acts acts' sr rr.
Proof. exact remove_conflicts1_ok. Qed.
Print Assumptions C39_resolution.

(** The same without -z, spelled out for one shift and any number of reductions on a
    token: the first reduction that beats the shift is live; if none does, the shift
    is, unless some reduction has its precedence and it is neither left nor right
    associative, when nothing is; without a shift the first reduction is live. *)
Theorem C39_yacc : forall acts acts' sr rr, StronglySorted act_lt acts -> (forall p, In p acts -> a_supp p = 0) ->
  remove_conflicts1 false false acts = Ok (acts', sr, rr) ->
  forall t,
  (forall s, shifts_on acts t s ->
     (In s acts' <-> forall r, reds_on acts t r -> ~ beats s r /\ ~ ties s r) /\
     (forall r, reds_on acts t r -> (In r acts' <-> beats s r /\ forall r', reds_on acts t r' -> a_num r' < a_num r -> ~ beats s r'))) /\
  ((forall s, ~ shifts_on acts t s) ->
     forall r, reds_on acts t r -> (In r acts' <-> forall r', reds_on acts t r' -> a_num r <= a_num r')).
Proof.
  intros acts acts' sr rr SS HZ E t. destruct (remove_conflicts1_ok false false acts SS HZ) as (a1 & s1 & r1 & E1 & [O1 O2 O3 O4]).
  rewrite E in E1. inversion E1; subst a1 s1 r1. unfold live_spec in O2. cbn [andb] in O2.
  assert (SU : forall s s', shifts_on acts t s -> shifts_on acts t s' -> s = s').
  { clear - SS. intros s s' (H1 & H2 & H3) (H1' & H2' & H3'). induction SS as [|a l SS IH F]; [destruct H1|]. rewrite Forall_forall in F.
    destruct H1 as [<-|H1], H1' as [<-|H1']; auto.
    - destruct (F s' H1') as [H|(_ & [(_ & H)|(H & _)])]; [lia|congruence|congruence].
    - destruct (F s H1) as [H|(_ & [(_ & H)|(H & _)])]; [lia|congruence|congruence]. }
  assert (NE : forall r r', reds_on acts t r -> reds_on acts t r' -> a_num r = a_num r' -> r = r').
  { clear - SS. intros s s' (H1 & H2 & H3) (H1' & H2' & H3') E. induction SS as [|a l SS IH F]; [destruct H1|]. rewrite Forall_forall in F.
    destruct H1 as [<-|H1], H1' as [<-|H1']; auto.
    - destruct (F s' H1') as [H|(_ & [(H & _)|(_ & _ & H)])]; [lia|congruence|lia].
    - destruct (F s H1) as [H|(_ & [(H & _)|(_ & _ & H)])]; [lia|congruence|lia]. }
  split.
  - intros s Hs. split.
    + pose proof Hs as (H1 & H2 & H3). rewrite (O2 s H1), H3, H2. reflexivity.
    + intros r Hr. pose proof Hr as (H1 & H2 & H3). rewrite (O2 r H1), H3, H2. unfold wins.
      assert (CI : forall x, contender acts t x <-> reds_on acts t x /\ exists p', reds_on acts t p' /\ a_num p' <= a_num x /\ beats s p').
      { intros x. unfold contender. split.
        - intros (C1 & [C2|(s' & p' & C2 & C3)]); [exfalso; now apply (C2 s)|]. rewrite (SU s' s C2 Hs) in C3. split; [auto|]. exists p'. tauto.
        - intros (C1 & p' & C2 & C3 & C4). split; [auto|]. right. exists s, p'. tauto. }
      split.
      * intros (C1 & C2 & _). apply CI in C1 as (_ & p' & P1 & P2 & P3).
        assert (r = p'). { destruct (Nat.eq_dec (a_num p') (a_num r)) as [En|Nn]; [symmetry; apply NE; auto|]. exfalso.
          destruct (C2 p') as (X & _); [apply CI; split; [auto|]; exists p'; auto|lia|discriminate]. } subst p'. split; [auto|].
        intros r' Hr' Hn Hb. destruct (C2 r') as (X & _); [apply CI; split; [auto|]; exists r'; auto|auto|discriminate].
      * intros (Hb & Hf). split; [apply CI; split; [auto|]; exists r; auto|]. split; [|auto].
        intros p' Hp Hn. exfalso. apply CI in Hp as (_ & y & Y1 & Y2 & Y3). apply (Hf y); auto. lia.
  - intros HN r Hr. pose proof Hr as (H1 & H2 & H3). rewrite (O2 r H1), H3, H2. unfold wins.
    assert (CI : forall x, contender acts t x <-> reds_on acts t x) by (intros x; unfold contender; split; [tauto|intros X; split; [auto|now left]]).
    split.
    + intros (_ & C2 & _) r' Hr'. destruct (Nat.lt_ge_cases (a_num r') (a_num r)) as [L|L]; [|auto]. exfalso. destruct (C2 r') as (X & _); [now apply CI|auto|discriminate].
    + intros H. split; [now apply CI|]. split; [|auto]. intros p' Hp Hn. apply CI in Hp. specialize (H p' Hp). lia.
Qed.
Print Assumptions C39_yacc.

(** Counts without -z: a shift/reduce conflict is a reduction on a token that also has
    a shift, when one of the two has no precedence, unless an earlier reduction
    already replaced the shift; a reduce/reduce conflict is a reduction that comes
    after the reduction that is live. *)
Theorem C39_counts : forall acts acts' sr rr, StronglySorted act_lt acts -> (forall p, In p acts -> a_supp p = 0) ->
  remove_conflicts1 false false acts = Ok (acts', sr, rr) ->
  (exists L, NoDup L /\ length L = sr /\ forall r, In r L <-> exists t s, reds_on acts t r /\ shifts_on acts t s /\ (a_prec s = 0 \/ a_prec r = 0) /\
     forall r', reds_on acts t r' -> a_num r' < a_num r -> ~ beats s r') /\
  (exists L, NoDup L /\ length L = rr /\ forall r, In r L <-> exists t r0, reds_on acts t r /\ reds_on acts t r0 /\ In r0 acts' /\ a_num r0 < a_num r).
Proof.
  intros acts acts' sr rr SS HZ E. destruct (remove_conflicts1_ok false false acts SS HZ) as (a1 & s1 & r1 & E1 & [O1 O2 O3 O4]).
  rewrite E in E1. inversion E1; subst a1 s1 r1. split.
  - destruct O3 as (L & L1 & L2 & L3). exists L. split; [auto|]. split; [auto|]. intros r. rewrite L3. unfold sr_spec. cbn [andb]. split.
    + intros (H1 & H2 & s & Hs & H3 & H4). exists (a_sym r), s. split; [split; auto|]. auto.
    + intros (t & s & (H1 & H2 & H3) & H4 & H5 & H6). subst t. split; [auto|]. split; [auto|]. exists s. auto.
  - destruct O4 as (L & L1 & L2 & L3). exists L. split; [auto|]. split; [auto|]. intros r. rewrite L3. unfold rr_spec, rr_conflict. cbn [andb]. split.
    + intros (H1 & _ & (C1 & _) & f & (F1 & F2) & F3 & F4 & _). exists (a_sym r), f. split; [exact C1|]. split; [exact F1|]. split; [|exact F3].
      destruct F1 as (Fa & Fb & Fc). apply O2; [auto|]. unfold live_spec. cbn [andb]. rewrite Fc, Fb. split; [split; [split; auto|auto]|]. split; [|auto].
      intros p' Hp Hn. specialize (F4 p' Hp). lia.
    + intros (t & r0 & (H1 & H2 & H3) & (K1 & K2 & K3) & K4 & K5). subst t. split; [auto|]. split; [auto|]. apply (O2 r0 K1) in K4. unfold live_spec in K4. cbn [andb] in K4. rewrite K3, K2 in K4.
      destruct K4 as (C & W1 & _). split.
      * destruct C as (_ & [C|(s & p' & P1 & P2 & P3 & P4)]); (split; [split; auto|]); [now left|]. right. exists s, p'. split; [auto|]. split; [auto|]. split; [lia|auto].
      * exists r0. split; [auto|]. split; [auto|]. split; [|auto]. intros x Hx. destruct (Nat.lt_ge_cases (a_num x) (a_num r0)) as [L0|L0]; [|auto].
        destruct (W1 x Hx L0) as (X & _). discriminate.
Qed.
Print Assumptions C39_counts.

(** After resolution at most one action per token is live. *)
Theorem C40_one_live : forall flag fin acts acts' sr rr, StronglySorted act_lt acts -> (forall p, In p acts -> a_supp p = 0) ->
  remove_conflicts1 flag fin acts = Ok (acts', sr, rr) ->
  forall a a', In a acts' -> In a' acts' -> a_sym a = a_sym a' -> a_supp a = 0 -> a_supp a' = 0 -> a = a'.
Proof.
  intros flag fin acts acts' sr rr SS HZ E a a' Ha Ha' ES Za Za'. destruct (remove_conflicts1_ok flag fin acts SS HZ) as (a1 & s1 & r1 & E1 & [O1 O2 O3 O4]).
  rewrite E in E1. inversion E1; subst a1 s1 r1. clear E E1.
  assert (I : forall x, In x acts' -> a_supp x = 0 -> In x acts).
  { intros x Hx Zx. rewrite <- O1. rewrite <- (sup_supp x Zx). now apply in_map. }
  pose proof (I a Ha Za) as Ia. pose proof (I a' Ha' Za') as Ia'. apply (O2 a Ia) in Ha. apply (O2 a' Ia') in Ha'. unfold live_spec in *.
  assert (TRI : forall x y, In x acts -> In y acts -> x = y \/ act_lt x y \/ act_lt y x).
  { clear - SS. intros x y Hx Hy. induction SS as [|c l SS IH F]; [destruct Hx|]. rewrite Forall_forall in F. destruct Hx as [<-|Hx], Hy as [<-|Hy]; auto. }
  rewrite <- ES in Ha'. destruct (fin && (a_sym a =? 0)) eqn:F.
  { apply andb_true_iff in F as (_ & F). apply Nat.eqb_eq in F. destruct (TRI a a' Ia Ia') as [H|[H|H]]; [auto| |].
    - exfalso. apply (Ha' a Ia F H).
    - exfalso. apply (Ha a' Ia'); [congruence|auto]. }
  assert (SR : forall s r, shifts_on acts (a_sym a) s -> reds_on acts (a_sym a) r -> (forall x, reds_on acts (a_sym a) x -> ~ beats s x /\ ~ ties s x) ->
    wins flag (contender acts (a_sym a)) r -> False).
  { intros s r Hs Hr HS ((_ & [C|(s' & p' & P1 & P2 & P3 & P4)]) & _); [now apply (C s)|].
    assert (s' = s). { destruct (TRI s' s) as [H|[H|H]]; [apply P1|apply Hs|auto| |]; destruct P1 as (_ & P1 & Q1), Hs as (_ & P1' & Q1');
      destruct H as [H|(_ & [(H & H')|(H & _)])]; [lia|congruence|congruence|lia|congruence|congruence]. } subst s'. exact (proj1 (HS p' P2) P4). }
  destruct (a_shift a) eqn:Sa, (a_shift a') eqn:Sa'.
  - destruct (TRI a a' Ia Ia') as [H|[H|H]]; [auto| |]; exfalso; destruct H as [H|(_ & [(H & H')|(H & _)])]; [lia|congruence|congruence|lia|congruence|congruence].
  - exfalso. apply (SR a a'); auto; split; auto.
  - exfalso. apply (SR a' a); auto; try (split; auto).
  - destruct Ha as (C1 & A1 & A2), Ha' as (C2 & B1 & B2). destruct (TRI a a' Ia Ia') as [H|[H|H]]; [auto| |]; exfalso.
    + destruct H as [H|(_ & [(H & H')|(_ & _ & H)])]; [lia|congruence|]. destruct (B1 a C1 H) as (F1 & F2 & F3). destruct (A2 a' C2 H) as [X|[X|X]]; [congruence| |lia].
      (* the first contender has a precedence *)
      assert (M : exists f, contender acts (a_sym a) f /\ forall x, contender acts (a_sym a) x -> a_num f <= a_num x).
      { clear - A1 C1 X. exists a. split; [auto|]. intros x Hx. destruct (Nat.lt_ge_cases (a_num x) (a_num a)) as [L|L]; [|auto].
        destruct (A1 x Hx L) as (_ & Y & _). lia. }
      destruct M as (f & Mf & Mx). assert (a_num f = a_num a).
      { destruct (Nat.lt_ge_cases (a_num f) (a_num a)) as [L|L]; [destruct (A1 f Mf L) as (_ & Y & _); lia|]. specialize (Mx a C1). lia. }
      specialize (F3 ltac:(intros x Hx; specialize (Mx x Hx); lia)). lia.
    + destruct H as [H|(_ & [(H & H')|(_ & _ & H)])]; [lia|congruence|]. destruct (A1 a' C2 H) as (F1 & F2 & F3). destruct (B2 a C1 H) as [X|[X|X]]; [congruence| |lia].
      assert (M : forall x, contender acts (a_sym a) x -> a_num a' <= a_num x).
      { intros x Hx. destruct (Nat.lt_ge_cases (a_num x) (a_num a')) as [L|L]; [|auto]. destruct (B1 x Hx L) as (_ & Y & _). lia. }
      specialize (F3 M). lia.
Qed.
Print Assumptions C40_one_live.

(** sole_reduction (the array defred) gives a rule exactly when every live action of
    the state is the reduction by that rule and one of them is not on the token
    error. *)
Theorem C41_default : forall l k, 0 < k -> (forall a, In a l -> a_shift a = false -> 0 < a_num a) ->
  (sole_reduction l = k <-> (forall a, In a l -> a_supp a = 0 -> a_shift a = false /\ a_num a = k) /\ exists a, In a l /\ a_supp a = 0 /\ a_sym a <> 1).
Proof. exact sole_reduction_ok. Qed.
Print Assumptions C41_default.

(** ** From the grammar *)
Lemma las_items : forall s st (W : wf_src s) (LO : lr0_ok s st) q I t r, (forall i, In i I <-> sitem s st q i) -> q < nst st ->
  (In (S (S r)) (reds_of st q) /\ LAs s st q r t <-> exists gm i, is_valid_set (aug s) gm I /\ la (aug s) gm i t /\ after_dot (aug s) i = None /\ fst i <> 0 /\ r = fst i).
Proof.
  intros s st W LO q I t r V2 Lq. destruct (reds_spec s W st LO q Lq) as (_ & R2).
  assert (PR : r <> 0 -> In (S (S r)) (reds_of st q) -> exists A0 l, prl s r A0 l).
  { intros Nr H. apply R2 in H as (i & S1 & S2 & S3 & E). inversion E; subst r. pose proof (sitem_ok s st _ _ S1) as (rl & H1 & H2).
    destruct (aug_rule s _ rl H1) as (A0 & rr & P1 & _). exists A0, rr. split; auto. }
  assert (PR' : forall i, item_ok (aug s) i -> fst i <> 0 -> exists A0 l, prl s (fst i) A0 l).
  { intros i (rl & H1 & H2) N. destruct (aug_rule s _ rl H1) as (A0 & rr & P1 & _). exists A0, rr. split; auto. }
  assert (LEN : forall d A0 l, prl s r A0 l -> item_ok (aug s) (r, d) -> after_dot (aug s) (r, d) = None -> d = length l).
  { intros d A0 l P (rl & I1 & I2) Ad. rewrite (prl_after s r A0 l _ P) in Ad.
    assert (N : nth_error l d = None) by (destruct (nth_error l d); [discriminate|auto]). apply nth_error_None in N.
    cbn [fst snd] in *. rewrite (prl_rule s r A0 l P) in I1. inversion I1; subst rl. cbn [r_rhs] in I2. rewrite map_length in I2. lia. }
  split.
  - intros (H1 & H2). assert (Nr : r <> 0) by (apply R2 in H1 as (i & _ & _ & N & E); inversion E; auto). destruct (PR Nr H1) as (A0 & l & P).
    apply (LAs_la s W st LO q r A0 l t P) in H2 as (gm & Le & La). exists gm, (r, length l). split; [intros i; rewrite V2; apply Le|]. split; [auto|].
    split; [|auto]. rewrite (prl_after s r A0 l _ P). rewrite (proj2 (nth_error_None _ _)) by lia. reflexivity.
  - intros (gm & [r' d] & Vs & La & Ad & N & E). cbn [fst] in *. subst r'.
    assert (IK : item_ok (aug s) (r, d)) by (eapply valid_ok; eapply la_valid; eauto). destruct (PR' (r, d) IK N) as (A0 & l & P). cbn [fst] in P.
    pose proof (LEN d A0 l P IK Ad) as ->. split.
    + apply R2. exists (r, length l). split; [apply V2, Vs; eapply la_valid; eauto|]. split; [auto|]. split; auto.
    + apply (LAs_la s W st LO q r A0 l t P). exists gm. split; [intros i; rewrite <- V2; apply Vs|auto].
Qed.

(** make_parser succeeds on every grammar for which lalr does (C37); the actions of a
    state are its transitions over tokens and, for each completed item and token in
    its lookahead set, the reduction by its rule; they are resolved as above. *)
Theorem C39_grammar : forall s fuel pr flag, wf_src s -> wf_prec s pr -> b_nsyms s < fuel -> 2 ^ nitems (pack_grammar s) < fuel ->
  exists nl st sts, lr0 fuel (pack_grammar s) = Ok (nl, st) /\
  lr0_automaton (aug s) sts /\ length sts = length (l_cores st) /\
  forall fuel' T, length sts * b_nsyms s <= fuel' -> lalr fuel' (pack_grammar s) nl st = Ok T ->
  exists P, make_parser flag (pack_grammar s) pr T = Ok P /\
  (exists I sh, nth_error sts 0 = Some (I, sh) /\ In (S (b_ntokens s), p_final P) sh) /\
  length (p_parser P) = length sts /\ length (p_SR P) = length sts /\ length (p_RR P) = length sts /\
  forall q I sh, nth_error sts q = Some (I, sh) ->
  exists acts acts' sr rr, nth_error (p_parser P) q = Some acts' /\ nth_error (p_SR P) q = Some sr /\ nth_error (p_RR P) q = Some rr /\
    nth_error (p_defred P) q = Some (sole_reduction acts') /\
    StronglySorted act_lt acts /\ (forall a, In a acts -> a_supp a = 0) /\
    (forall a, In a acts <->
       (exists t q', In (t, q') sh /\ t < b_ntokens s /\ a = shift_act pr t q') \/
       (exists t gm i, t < b_ntokens s /\ is_valid_set (aug s) gm I /\ la (aug s) gm i t /\ after_dot (aug s) i = None /\ fst i <> 0 /\ a = red_act pr t (fst i + 2))) /\
    res_ok flag (q =? p_final P) acts acts' sr rr.
Proof.
  intros s fuel pr flag W WP F1 F2. destruct (lr0_run s fuel W F1 F2) as (nl & st & E & LO & NLl & NL). destruct (lr0_view s W st LO) as (sts & A & L & V).
  exists nl, st, sts. split; [exact E|]. split; [exact A|]. split; [exact L|]. intros fuel' T Hf ET.
  destruct (lalr_total s W st LO nl NLl NL) as (g & G1 & G2 & TT). destruct (TT fuel') as (T' & OK & ET').
  { pose proof (ngotos_bound s st g W LO G2). rewrite L in Hf. unfold nst in *. lia. }
  assert (T' = T). { rewrite ET in ET'. destruct (all_fit s st g nl); [inversion ET'; auto|discriminate]. } subst T'.
  destruct (make_parser_ok s W st LO T OK pr WP flag) as (P & EP & PO). exists P. split; [exact EP|]. split; [|split; [rewrite L; apply PO|split; [rewrite L; apply PO|split; [rewrite L; apply PO|]]]].
  - destruct (nth_error_lt_ex _ sts 0) as ((I & sh) & E0). { rewrite L. pose proof (po_final _ _ _ _ _ _ PO) as H. apply (go_range s W st LO) in H. lia. }
    exists I, sh. split; [auto|]. destruct (V _ _ _ E0) as (_ & _ & ->). apply in_map_iff. exists (p_final P). pose proof (po_final _ _ _ _ _ _ PO) as (H1 & H2). split; [now rewrite H2|auto].
  - intros q I sh Eq. assert (Lq : q < nst st) by (rewrite <- L; eapply nth_error_Some_lt; eauto). destruct (V _ _ _ Eq) as (_ & V2 & V3).
    destruct (po_state _ _ _ _ _ _ PO q Lq) as (acts' & sr & rr & Q1 & Q2 & Q3 & (acts & _ & Q4 & Q5 & Q6 & Q7)). exists acts, acts', sr, rr.
    split; [auto|]. split; [auto|]. split; [auto|]. split; [rewrite (po_def _ _ _ _ _ _ PO); now apply map_nth_error|]. split; [auto|]. split; [auto|]. split; [|auto].
    intros a. rewrite Q6. unfold act_spec. split; (intros [H|H]; [left|right]).
    + destruct H as (t & q' & (H1 & H2) & H3 & H4). exists t, q'. split; [|auto]. rewrite V3. apply in_map_iff. exists q'. split; [now rewrite H2|auto].
    + destruct H as (t & r & H1 & H2 & H3 & H4). destruct (proj1 (las_items s st W LO q I t r V2 Lq) (conj H2 H3)) as (gm & i & K1 & K2 & K3 & K4 & ->).
      exists t, gm, i. replace (fst i + 2) with (S (S (fst i))) by lia. tauto.
    + destruct H as (t & q' & H1 & H2 & H3). exists t, q'. rewrite V3 in H1. apply in_map_iff in H1 as (x & K1 & K2). inversion K1; subst. split; [split; auto|auto].
    + destruct H as (t & gm & i & H1 & K1 & K2 & K3 & K4 & K5). destruct (proj2 (las_items s st W LO q I t (fst i) V2 Lq)) as (X1 & X2); [exists gm, i; auto|].
      exists t, (fst i). replace (fst i + 2) with (S (S (fst i))) in K5 by lia. tauto.
Qed.
Print Assumptions C39_grammar.

(** Hence in the tables of a parser at most one action per state and token is live,
    and a default reduction stands for all live actions of its state. *)
Theorem C41_parser : forall s fuel pr flag, wf_src s -> wf_prec s pr -> b_nsyms s < fuel -> 2 ^ nitems (pack_grammar s) < fuel ->
  exists nl st, lr0 fuel (pack_grammar s) = Ok (nl, st) /\
  forall fuel' T P, length (l_cores st) * b_nsyms s <= fuel' -> lalr fuel' (pack_grammar s) nl st = Ok T -> make_parser flag (pack_grammar s) pr T = Ok P ->
  forall q acts k, nth_error (p_parser P) q = Some acts -> nth_error (p_defred P) q = Some k ->
    (forall a a', In a acts -> In a' acts -> a_sym a = a_sym a' -> a_supp a = 0 -> a_supp a' = 0 -> a = a') /\
    (0 < k -> forall a, In a acts -> a_supp a = 0 -> a_shift a = false /\ a_num a = k).
Proof.
  intros s fuel pr flag W WP F1 F2. destruct (lr0_run s fuel W F1 F2) as (nl & st & E & LO & NLl & NL). exists nl, st. split; [exact E|]. intros fuel' T P Hf ET EP q acts k Ea Ek.
  destruct (lalr_total s W st LO nl NLl NL) as (g & G1 & G2 & TT). destruct (TT fuel') as (T' & OK & ET').
  { pose proof (ngotos_bound s st g W LO G2). unfold nst in *. lia. }
  assert (T' = T). { rewrite ET in ET'. destruct (all_fit s st g nl); [inversion ET'; auto|discriminate]. } subst T'.
  destruct (make_parser_ok s W st LO T OK pr WP flag) as (P' & EP' & PO). assert (P' = P) by congruence. subst P'. clear EP'.
  assert (Lq : q < nst st) by (rewrite <- (po_len _ _ _ _ _ _ PO); eapply nth_error_Some_lt; eauto).
  destruct (po_state _ _ _ _ _ _ PO q Lq) as (acts' & sr & rr & Q1 & Q2 & Q3 & (a0 & Q8 & Q4 & Q5 & Q6 & Q7)). assert (acts' = acts) by congruence. subst acts'.
  split.
  - destruct (remove_conflicts1_ok flag (q =? p_final P) a0 Q4 Q5) as (x & y & z & EE & O). 
    assert (X : forall a a', In a acts -> In a' acts -> a_sym a = a_sym a' -> a_supp a = 0 -> a_supp a' = 0 -> a = a').
    { intros a a' Ha Ha' ES Za Za'. assert (IN : forall w, In w acts -> a_supp w = 0 -> In w x).
      { intros w Hw Zw. assert (Iw : In w a0) by (rewrite <- (ro_same _ _ _ _ _ _ Q7), <- (sup_supp w Zw); now apply in_map).
        apply (ro_live _ _ _ _ _ _ O w Iw). now apply (ro_live _ _ _ _ _ _ Q7 w Iw). }
      eapply (C40_one_live flag (q =? p_final P) a0 x y z); eauto. }
    exact X.
  - intros Hk. rewrite (po_def _ _ _ _ _ _ PO), nth_error_map, Ea in Ek. cbn in Ek. inversion Ek as [Ek']. rewrite Ek'.
    assert (HN : forall a, In a acts -> a_shift a = false -> 0 < a_num a).
    { intros a Ha Sa. assert (I0 : In (sup 0 a) a0) by (rewrite <- (ro_same _ _ _ _ _ _ Q7); now apply in_map). apply Q6 in I0. apply act_num_red in I0; auto.
      destruct (reds_range s W st LO q _ Lq I0) as (k0 & X & _). cbn in X. lia. }
    exact (proj1 (proj1 (sole_reduction_ok acts k Hk HN) Ek')).
Qed.
Print Assumptions C41_parser.

(** Tokens $end, error, '+', '*', '<', 'id'; E : E '+' E | E '*' E | E '<' E | 'id' with
    '<' nonassociative, '+' and '*' left associative with increasing precedence; rule 7
    repeats rule 6 and gives reduce/reduce conflicts. *)
Definition ex39 : bsrc := mkSrc 6 8 [(7, [7; 2; 7]); (7, [7; 3; 7]); (7, [7; 4; 7]); (7, [5]); (7, [5])].
Definition pr39 : bprec := mkPrec [0; 0; 2; 3; 1; 0; 0; 0] [TOKEN; TOKEN; LEFT; LEFT; NONASSOC; TOKEN; TOKEN; TOKEN]
  [0; 0; 0; 2; 3; 1; 0; 0] [TOKEN; TOKEN; TOKEN; LEFT; LEFT; NONASSOC; TOKEN; TOKEN].
Definition lr39 : list bool * lr0st := Eval vm_compute in match lr0 300 (pack_grammar ex39) with Ok x => x | _ => ([], mkLr0 [] [] [] []) end.
Definition T39 : lalr_tables := Eval vm_compute in match lalr 300 (pack_grammar ex39) (fst lr39) (snd lr39) with Ok T => T | _ => mkLalr [] [] [] (mkGotos [] [] []) [] [] [] end.
Definition P39 : par := Eval vm_compute in match make_parser false (pack_grammar ex39) pr39 T39 with Ok P => P | _ => mkPar [] 0 [] [] [] 0 [] end.
Example C39_hypotheses : wf_src ex39 /\ wf_prec ex39 pr39 /\ make_parser false (pack_grammar ex39) pr39 T39 = Ok P39 /\
  p_final P39 = 2 /\ list_sum (p_SR P39) = 0 /\ list_sum (p_RR P39) = 4 /\ p_nunused P39 = 1 /\
  p_defred P39 = [0; 6; 0; 0; 0; 0; 0; 4; 0] /\
  map (fun a => (a_sym a, a_shift a, a_num a)) (filter (fun a => a_supp a =? 0) (nth 6 (p_parser P39) [])) = [(0, false, 3); (2, false, 3); (3, true, 4); (4, false, 3)].
Proof.
  split; [apply wf_srcb_ok; reflexivity|]. split; [constructor; reflexivity|]. split; [vm_compute; reflexivity|]. vm_compute. auto 10.
Qed.
(** A sorted list in which a nonassociative tie leaves nothing live and a later
    reduction replaces the shift. *)
Example C40_hypotheses :
  let acts := [mkAct 2 9 1 true NONASSOC 0; mkAct 2 4 1 false NONASSOC 0; mkAct 3 8 1 true NONASSOC 0; mkAct 3 4 1 false NONASSOC 0; mkAct 3 5 2 false LEFT 0; mkAct 3 6 2 false LEFT 0] in
  StronglySorted act_lt acts /\ (forall p, In p acts -> a_supp p = 0) /\
  exists acts', remove_conflicts1 false false acts = Ok (acts', 0, 1) /\ map a_supp acts' = [2; 2; 2; 2; 0; 1].
Proof.
  cbv zeta. split.
  - repeat (constructor; [|repeat (constructor; [unfold act_lt; cbn; auto 10|]); constructor]). constructor.
  - split; [intros p H; cbn in H; repeat (destruct H as [<-|H]; [reflexivity|]); destruct H|]. eexists. split; [vm_compute; reflexivity|reflexivity].
Qed.
Example C41_hypotheses : let l := [mkAct 0 5 0 false TOKEN 0; mkAct 2 5 0 false TOKEN 0; mkAct 2 6 0 false TOKEN 1] in
  (forall a, In a l -> a_shift a = false -> 0 < a_num a) /\ sole_reduction l = 5.
Proof. cbv zeta. split; [|reflexivity]. intros a H _. cbn in H. repeat (destruct H as [<-|H]; [cbn; lia|]); destruct H. Qed.

(** A conflict between accepting and a reduction on $end in the final state is not
    counted: with S : A ; A : S | 'x' the final state reduces A : S on $end, yet no
    conflict is reported. *)
Definition ex39b : bsrc := mkSrc 3 6 [(4, [5]); (5, [4]); (5, [2])].
Theorem C39_accept_conflict_refuted : exists s pr nl st T P, wf_src s /\ wf_prec s pr /\
  lr0 100 (pack_grammar s) = Ok (nl, st) /\ lalr 100 (pack_grammar s) nl st = Ok T /\ make_parser false (pack_grammar s) pr T = Ok P /\
  (exists a, In a (nth (p_final P) (p_parser P) []) /\ a_sym a = 0 /\ a_shift a = false /\ a_supp a = 0) /\
  list_sum (p_SR P) = 0 /\ list_sum (p_RR P) = 0.
Proof.
  exists ex39b, (mkPrec (repeat 0 6) (repeat TOKEN 6) (repeat 0 6) (repeat TOKEN 6)).
  do 4 eexists. split; [apply wf_srcb_ok; reflexivity|]. split; [constructor; reflexivity|]. split; [vm_compute; reflexivity|].
  split; [vm_compute; reflexivity|]. split; [vm_compute; reflexivity|]. split; [|split; reflexivity].
  cbn. eexists. split; [left; reflexivity|]. cbn. auto.
Qed.
Print Assumptions C39_accept_conflict_refuted.
