(** byacc/mkpar.c: the parser actions of a state before conflict resolution. *)
From Coq Require Import List Arith NArith ZArith Lia Bool Sorted.
Import ListNotations.
From Verif Require Import Base SpecGrammar SpecGrammarFacts SpecLRFacts SpecByacc ByaccWarshallModel ByaccWarshallProof ByaccLr0Model ByaccPackProof
  ByaccClosureProof ByaccNullProof ByaccLr0Proof ByaccStatesProof ByaccLalrModel ByaccDigraphProof ByaccTransposeProof ByaccLookSem ByaccGotoProof ByaccReadProof
  ByaccLookProof ByaccParModel SpecByaccConflicts ByaccParProof.
Open Scope res_scope.

(** The precedence arrays have an entry for every symbol and rule. *)
Record wf_prec (s : bsrc) (pr : bprec) : Prop := {
  wp_sp : length (symbol_prec pr) = b_nsyms s;
  wp_sa : length (symbol_assoc pr) = b_nsyms s;
  wp_rp : length (rprec pr) = length (b_rules s) + 3;
  wp_ra : length (rassoc pr) = length (b_rules s) + 3
}.

Definition shift_act (pr : bprec) (t q : nat) : action := mkAct t q (nth t (symbol_prec pr) 0) true (nth t (symbol_assoc pr) TOKEN) 0.
Definition red_act (pr : bprec) (t r : nat) : action := mkAct t r (nth r (rprec pr) 0) false (nth r (rassoc pr) TOKEN) 0.

Lemma nth_ok : forall A (l : list A) i d, i < length l -> nth_error l i = Some (nth i l d).
Proof. intros A l i d H. apply nth_error_nth'. exact H. Qed.

Lemma span_ok : forall A (f : A -> bool) l p q, span f l = (p, q) -> l = p ++ q /\ (forall x, In x p -> f x = true) /\ match q with [] => True | x :: _ => f x = false end.
Proof.
  intros A f. induction l as [|x l IH]; intros p q E; cbn in E.
  - inversion E; subst. split; [auto|]. split; [intros ? []|exact I].
  - destruct (f x) eqn:Ef.
    + destruct (span f l) as [p1 q1] eqn:E1. inversion E; subst. destruct (IH _ _ eq_refl) as (-> & H1 & H2). split; [auto|]. split; [intros y [<-|Hy]; auto|auto].
    + inversion E; subst. split; [auto|]. split; [intros ? []|auto].
Qed.

Lemma sorted_insert : forall l1 x l2, StronglySorted act_lt (l1 ++ l2) -> (forall y, In y l1 -> act_lt y x) -> (forall y, In y l2 -> act_lt x y) ->
  StronglySorted act_lt (l1 ++ x :: l2).
Proof.
  induction l1 as [|a l1 IH]; intros x l2 SS H1 H2; cbn [app] in *.
  - constructor; [auto|]. now apply Forall_forall.
  - inversion SS as [|? ? S1 S2]; subst. constructor.
    + apply IH; auto. intros y Hy. apply H1. now right.
    + rewrite Forall_forall in *. intros y Hy. apply in_app_iff in Hy as [Hy|[<-|Hy]]; [apply S2, in_app_iff; auto|apply H1; now left|apply S2, in_app_iff; auto].
Qed.

Lemma add_reduce_ok : forall pr l r t, r < length (rprec pr) -> r < length (rassoc pr) -> StronglySorted act_lt l ->
  (forall x, In x l -> ~ (a_sym x = t /\ a_shift x = false /\ a_num x = r)) ->
  exists l', add_reduce pr l r t = Ok l' /\ StronglySorted act_lt l' /\ forall x, In x l' <-> In x l \/ x = red_act pr t r.
Proof.
  intros pr l r t Lp La SS NI. unfold add_reduce.
  destruct (span (fun p => a_sym p <? t) l) as [l1 n1] eqn:E1. destruct (span_ok _ _ _ _ _ E1) as (-> & A1 & A2).
  destruct (span (fun p => (a_sym p =? t) && a_shift p) n1) as [l2 n2] eqn:E2. destruct (span_ok _ _ _ _ _ E2) as (-> & B1 & B2).
  destruct (span (fun p => (a_sym p =? t) && negb (a_shift p) && (a_num p <? r)) n2) as [l3 n3] eqn:E3. destruct (span_ok _ _ _ _ _ E3) as (-> & C1 & C2).
  rewrite (nth_ok _ _ r 0 Lp). cbn [opt bind]. rewrite (nth_ok _ _ r TOKEN La). cbn [opt bind].
  exists (l1 ++ l2 ++ l3 ++ red_act pr t r :: n3). split; [reflexivity|]. split.
  - assert (X : l1 ++ l2 ++ l3 ++ red_act pr t r :: n3 = (l1 ++ l2 ++ l3) ++ red_act pr t r :: n3) by (rewrite <- !app_assoc; reflexivity). rewrite X. apply sorted_insert.
    + rewrite <- !app_assoc. exact SS.
    + intros y Hy. rewrite !in_app_iff in Hy. unfold act_lt. cbn [red_act a_sym a_shift a_num]. destruct Hy as [H|[H|H]].
      * apply A1 in H. apply Nat.ltb_lt in H. now left.
      * apply B1 in H. apply andb_true_iff in H as (H & H'). apply Nat.eqb_eq in H. right. split; [auto|]. left. auto.
      * apply C1 in H. apply andb_true_iff in H as (H & H''). apply andb_true_iff in H as (H & H'). apply Nat.eqb_eq in H. apply Nat.ltb_lt in H''.
        apply negb_true_iff in H'. right. split; [auto|]. right. auto.
    + destruct (sorted_app _ _ SS) as (_ & S1). destruct (sorted_app _ _ S1) as (_ & S2). destruct (sorted_app _ _ S2) as (_ & S3).
      destruct n3 as [|h n3]; [intros ? []|].
      assert (Hin : In h (l1 ++ l2 ++ l3 ++ h :: n3)) by (rewrite !in_app_iff; right; right; right; now left).
      assert (GE : t <= a_sym h).
      { destruct (l2 ++ l3 ++ h :: n3) as [|z zs] eqn:Ez; [destruct l2; [destruct l3|]; discriminate|]. apply Nat.ltb_ge in A2.
        assert (Hh : In h (z :: zs)) by (rewrite <- Ez, !in_app_iff; right; right; now left). destruct Hh as [<-|Hh]; [auto|].
        inversion S1 as [|? ? Q1 Q2]; subst. rewrite Forall_forall in Q2. destruct (Q2 h Hh) as [H|(H & _)]; lia. }
      assert (HH : act_lt (red_act pr t r) h).
      { unfold act_lt. cbn [red_act a_sym a_shift a_num]. destruct (Nat.eq_dec (a_sym h) t) as [Eh|Nh]; [|left; lia]. right. split; [auto|]. right. split; [auto|].
        assert (SF : a_shift h = false).
        { destruct (a_shift h) eqn:Sh; [|auto]. exfalso. destruct l3 as [|z l3].
          - cbn in B2. rewrite Eh, Nat.eqb_refl, Sh in B2. discriminate.
          - cbn in B2. assert (Cz : (a_sym z =? t) && negb (a_shift z) && (a_num z <? r) = true) by (apply C1; now left).
            apply andb_true_iff in Cz as (Cz & _). apply andb_true_iff in Cz as (Cz & Cz'). apply Nat.eqb_eq in Cz. apply negb_true_iff in Cz'.
            inversion S2 as [|? ? Q1 Q2]; subst. rewrite Forall_forall in Q2. destruct (Q2 h) as [H|(_ & [(H & _)|(_ & H & _)])]; [apply in_app_iff; right; now left|lia|congruence|congruence]. }
        split; [auto|]. rewrite Eh, Nat.eqb_refl, SF in C2. cbn [negb andb] in C2. apply Nat.ltb_ge in C2.
        specialize (NI h Hin). destruct (Nat.eq_dec (a_num h) r); [exfalso; apply NI; auto|lia]. }
      intros y [<-|Hy]; [auto|]. inversion S3 as [|? ? Q1 Q2]; subst. rewrite Forall_forall in Q2. specialize (Q2 y Hy).
      unfold act_lt in *. cbn [red_act a_sym a_shift a_num] in *. destruct HH as [H|(H & [(H1 & _)|(_ & H1 & H2)])]; [|discriminate|].
      * left. destruct Q2 as [Q|(Q & _)]; lia.
      * destruct Q2 as [Q|(Q & [(Q3 & _)|(_ & Q3 & Q4)])]; [left; lia|congruence|]. right. split; [lia|]. right. split; [auto|]. split; [auto|lia].
  - intros x. rewrite !in_app_iff. cbn [In]. split; [intros [H|[H|[H|[H|H]]]]; auto|intros [[H|[H|[H|H]]]|H]; auto].
Qed.

Section Act.
Variable s : bsrc.
Hypothesis W : wf_src s.
Variable st : lr0st.
Hypothesis LO : lr0_ok s st.
Variable T : lalr_tables.
Hypothesis TO : lalr_ok s st T.
Variable pr : bprec.
Hypothesis WP : wf_prec s pr.
Local Notation b := (pack_grammar s).
Local Notation G := (aug s).
Local Notation go := (go st).
Local Notation nst := (nst st).
Local Notation nt := (b_ntokens s).

(** The actions of state [p]. *)
Definition act_spec (p : nat) (a : action) : Prop :=
  (exists t q, go p t q /\ t < nt /\ a = shift_act pr t q) \/
  (exists t r, t < nt /\ In (S (S r)) (reds_of st p) /\ LAs s st p r t /\ a = red_act pr t (S (S r))).

Lemma shift_actions_ok : forall l acts, (forall q, In q l -> q < nst /\ acc st q < b_nsyms s) ->
  StronglySorted (fun x y => acc st y < acc st x) l -> (forall q a, In q l -> In a acts -> acc st q < a_sym a) ->
  StronglySorted act_lt acts ->
  exists acts', shift_actions b pr (t_access T) l acts = Ok acts' /\ StronglySorted act_lt acts' /\
    forall a, In a acts' <-> In a acts \/ exists q, In q l /\ acc st q < nt /\ a = shift_act pr (acc st q) q.
Proof.
  induction l as [|q l IH]; intros acts HL SL HA SA; cbn [shift_actions].
  - exists acts. split; [reflexivity|]. split; [auto|]. intros a. split; [auto|]. intros [H|(q & [] & _)]; auto.
  - destruct (HL q (or_introl eq_refl)) as (Lq & Lx). rewrite (lo_access _ _ _ TO), (accessing_nth _ _ Lq). cbn [opt bind].
    inversion SL as [|? ? S1 S2]; subst. rewrite Forall_forall in S2. change (start_symbol b) with (ntokens b). rewrite b_ntok.
    rewrite <- (lo_access _ _ _ TO).
    destruct (acc st q <? nt) eqn:C.
    + apply Nat.ltb_lt in C. rewrite (nth_ok _ _ (acc st q) 0) by (rewrite (wp_sp _ _ WP); lia). cbn [opt bind].
      rewrite (nth_ok _ _ (acc st q) TOKEN) by (rewrite (wp_sa _ _ WP); lia). cbn [opt bind].
      destruct (IH (shift_act pr (acc st q) q :: acts)) as (acts' & E & A1 & A2).
      * intros x Hx. apply HL. now right.
      * auto.
      * intros x a Hx [<-|Ha]; [cbn; auto|]. apply HA; [now right|auto].
      * constructor; [auto|]. apply Forall_forall. intros a Ha. left. cbn. apply HA; [now left|auto].
      * exists acts'. split; [exact E|]. split; [auto|]. intros a. rewrite A2. cbn [In]. split.
        -- intros [[<-|H]|(x & H1 & H2)]; [right; exists q; split; [now left|auto]|now left|right; exists x; split; [now right|auto]].
        -- intros [H|(x & [<-|H1] & H2 & H3)]; [left; now right|left; left; auto|right; exists x; auto].
    + apply Nat.ltb_ge in C. destruct (IH acts) as (acts' & E & A1 & A2).
      * intros x Hx. apply HL. now right.
      * auto.
      * intros x a Hx Ha. apply HA; [now right|auto].
      * auto.
      * exists acts'. split; [exact E|]. split; [auto|]. intros a. rewrite A2. split; [intros [H|(x & H1 & H2)]; [auto|right; exists x; split; [now right|auto]]|].
        intros [H|(x & [<-|H1] & H2 & H3)]; [auto|lia|right; exists x; auto].
Qed.

Lemma get_shifts_ok : forall p, p < nst -> exists acts, get_shifts b pr T p = Ok acts /\ StronglySorted act_lt acts /\
  forall a, In a acts <-> exists t q, go p t q /\ t < nt /\ a = shift_act pr t q.
Proof.
  intros p Lp. unfold get_shifts. rewrite (lo_sh _ _ _ TO p Lp). cbn [opt bind].
  assert (EX : exists acts, shift_actions b pr (t_access T) (rev (shifts_of st p)) [] = Ok acts /\ StronglySorted act_lt acts /\
    forall a, In a acts <-> exists t q, go p t q /\ t < nt /\ a = shift_act pr t q).
  { destruct (shift_actions_ok (rev (shifts_of st p)) []) as (acts & E & A1 & A2).
    - intros q Hq. apply in_rev in Hq. pose proof (go_range s W st LO p (acc st q) q (conj Hq eq_refl)). lia.
    - apply desc_rev. exact (shifts_srt s st LO p).
    - intros ? ? _ [].
    - constructor.
    - exists acts. split; [exact E|]. split; [auto|]. intros a. rewrite A2. split.
      + intros [[]|(q & H1 & H2 & ->)]. exists (acc st q), q. split; [split; [now apply in_rev|auto]|auto].
      + intros (t & q & (H1 & <-) & H2 & ->). right. exists q. split; [now apply in_rev in H1|auto]. }
  destruct (shifts_of st p) as [|x l] eqn:E; [|exact EX]. cbn in EX. exact EX.
Qed.

Lemma la_actions_ok : forall row r k acts, r < length (b_rules s) + 3 ->
  (forall j, j < k -> row + j / BPW < length (t_LA T)) -> StronglySorted act_lt acts ->
  (forall x, In x acts -> a_shift x = false -> a_num x = r -> k <= a_sym x) ->
  exists acts', la_actions pr (t_LA T) row r k acts = Ok acts' /\ StronglySorted act_lt acts' /\
    forall a, In a acts' <-> In a acts \/ exists t, t < k /\ bitat BPW (t_LA T) row t = true /\ a = red_act pr t r.
Proof.
  intros row r. induction k as [|k IH]; intros acts Hr HB SA HA; cbn [la_actions].
  - exists acts. split; [reflexivity|]. split; [auto|]. intros a. split; [auto|]. intros [H|(t & H & _)]; [auto|lia].
  - unfold BIT. assert (Lk : row + k / BPW < length (t_LA T)) by (apply HB; lia). rewrite (nth_ok _ _ _ 0%N Lk). cbn [opt bind].
    change (N.testbit (nth (row + k / BPW) (t_LA T) 0%N) (N.of_nat (k mod BPW))) with (bitat BPW (t_LA T) row k).
    destruct (bitat BPW (t_LA T) row k) eqn:B.
    + destruct (add_reduce_ok pr acts r k) as (a1 & E1 & S1 & M1); auto.
      * rewrite (wp_rp _ _ WP). lia.
      * rewrite (wp_ra _ _ WP). lia.
      * intros x Hx (X1 & X2 & X3). specialize (HA x Hx X2 X3). lia.
      * rewrite E1. cbn [bind]. destruct (IH a1) as (a2 & E2 & S2 & M2); auto.
        -- intros x Hx X1 X2. apply M1 in Hx as [Hx| ->]; [specialize (HA x Hx X1 X2); lia|cbn; lia].
        -- exists a2. split; [exact E2|]. split; [auto|]. intros a. rewrite M2, M1. split.
           ++ intros [[H| ->]|(t & H1 & H2)]; [auto|right; exists k; auto|right; exists t; split; [lia|auto]].
           ++ intros [H|(t & H1 & H2 & H3)]; [auto|]. destruct (Nat.eq_dec t k) as [->|N]; [auto|]. right. exists t. split; [lia|auto].
    + cbn [bind]. destruct (IH acts) as (a2 & E2 & S2 & M2); auto.
      * intros x Hx X1 X2. specialize (HA x Hx X1 X2). lia.
      * exists a2. split; [exact E2|]. split; [auto|]. intros a. rewrite M2. split.
        -- intros [H|(t & H1 & H2)]; [auto|right; exists t; split; [lia|auto]].
        -- intros [H|(t & H1 & H2 & H3)]; [auto|]. destruct (Nat.eq_dec t k) as [->|N]; [congruence|]. right. exists t. split; [lia|auto].
Qed.

Lemma reds_range : forall p r, p < nst -> In r (reds_of st p) -> exists k, r = S (S k) /\ k <> 0 /\ r < length (b_rules s) + 3.
Proof.
  intros p r Lp H. apply (reds_spec s W st LO p Lp) in H as (i & H1 & H2 & H3 & ->). exists (fst i). split; [auto|]. split; [auto|].
  destruct (sitem_ok s st _ _ H1) as (rl & H4 & _). unfold rule_of in H4. apply nth_error_Some_lt in H4. cbn in H4. rewrite map_length in H4. lia.
Qed.

Lemma red_actions_ok : forall p a l i acts, p < nst -> nth_error (t_start T) p = Some a -> (forall j, j < length l -> nth_error l j = nth_error (reds_of st p) (i + j)) ->
  i + length l = length (reds_of st p) -> NoDup l -> StronglySorted act_lt acts ->
  (forall x, In x acts -> a_shift x = false -> ~ In (a_num x) l) ->
  exists acts', red_actions b pr T (a + i) (length l) acts = Ok acts' /\ StronglySorted act_lt acts' /\
    forall x, In x acts' <-> In x acts \/ exists t r, t < nt /\ In (S (S r)) l /\ LAs s st p r t /\ x = red_act pr t (S (S r)).
Proof.
  intros p a l. induction l as [|r l IH]; intros i acts Lp Ea HL Hi ND SA HA; cbn [length red_actions].
  - exists acts. split; [reflexivity|]. split; [auto|]. intros x. split; [auto|]. intros [H|(t & r & _ & [] & _)]. auto.
  - destruct (starts_at st (t_red T) (lo_rd _ _ _ TO) p Lp) as (a' & A1 & A2 & A3 & A4). rewrite <- (lo_start _ _ _ TO), <- (lo_rule _ _ _ TO) in *.
    assert (a' = a) by congruence. subst a'. cbn [length] in Hi. rewrite A3 by lia.
    pose proof (HL 0 ltac:(cbn; lia)) as H0. cbn in H0. rewrite Nat.add_0_r in H0. rewrite <- H0. cbn [opt bind].
    assert (IR : In r (reds_of st p)) by (eapply nth_error_In; eauto). destruct (reds_range p r Lp IR) as (k & -> & Nk & Lr).
    assert (LK : lk st (t_red T) p (S (S k)) (a + i)).
    { exists a, i. split; [rewrite <- (lo_start _ _ _ TO); exact A1|]. split; [auto|]. split; [auto|auto]. }
    rewrite b_ntok. pose proof (lo_lal _ _ _ TO) as LL. rewrite b_ntok in LL.
    assert (BND : forall j, j < nt -> (a + i) * WORDSIZE BPW nt + j / BPW < length (t_LA T)).
    { intros j Hj. rewrite LL. pose proof (wordsize_lt BPW nt j BPW_pos Hj). apply Nat.lt_le_trans with (S (a + i) * WORDSIZE BPW nt); [cbn; lia|]. apply Nat.mul_le_mono_r. lia. }
    destruct (la_actions_ok ((a + i) * WORDSIZE BPW nt) (S (S k)) nt acts Lr) as (a1 & E1 & S1 & M1); auto.
    { intros x Hx X1 X2. exfalso. apply (HA x Hx X1). left. auto. }
    rewrite E1. cbn [bind]. inversion ND as [|? ? ND1 ND2]; subst. replace (S (a + i)) with (a + S i) by lia.
    destruct (IH (S i) a1) as (a2 & E2 & S2 & M2); auto.
    { intros j Hj. specialize (HL (S j) ltac:(cbn; lia)). cbn in HL. rewrite HL. f_equal. lia. }
    { lia. }
    { intros x Hx X1 X2. apply M1 in Hx as [Hx|(t & _ & _ & ->)]; [apply (HA x Hx X1); now right|]. cbn in X2. auto. }
    exists a2. split; [exact E2|]. split; [auto|]. intros x. rewrite M2, M1.
    assert (LE : forall t, t < nt -> (bitat BPW (t_LA T) ((a + i) * WORDSIZE BPW nt) t = true <-> LAs s st p k t)).
    { intros t Ht. rewrite <- (lo_LA _ _ _ TO p k (a + i) t LK). unfold fs. rewrite b_ntok. pose proof (wordsize_lt BPW nt t BPW_pos Ht). tauto. }
    split.
    + intros [[H|(t & H1 & H2 & H3)]|(t & r & H1 & H2 & H3)]; [auto|right; exists t, k; split; [auto|]; split; [now left|]; split; [now apply LE|auto]|].
      right. exists t, r. split; [auto|]. split; [now right|auto].
    + intros [H|(t & r & H1 & [H2|H2] & H3 & H4)]; [auto| |right; exists t, r; auto]. inversion H2; subst r. left. right. exists t. split; [auto|]. split; [now apply LE|auto].
Qed.

Lemma act_num_red : forall p x, p < nst -> act_spec p x -> a_shift x = false -> In (a_num x) (reds_of st p).
Proof. intros p x Lp [(t & q & _ & _ & ->)|(t & r & _ & H & _ & ->)] E; [discriminate|exact H]. Qed.

(** The action list of state [p]. *)
Theorem parse_actions_ok : forall p, p < nst -> exists acts, parse_actions b pr T p = Ok acts /\ StronglySorted act_lt acts /\
  (forall a, In a acts -> a_supp a = 0) /\ forall a, In a acts <-> act_spec p a.
Proof.
  intros p Lp. unfold parse_actions. destruct (get_shifts_ok p Lp) as (a1 & E1 & S1 & M1). rewrite E1. cbn [bind]. unfold add_reductions.
  destruct (starts_at st (t_red T) (lo_rd _ _ _ TO) p Lp) as (a & A1 & A2 & A3 & A4). rewrite <- (lo_start _ _ _ TO) in *. rewrite A1. cbn [opt bind]. rewrite A2. cbn [opt bind].
  replace (a + length (reds_of st p) - a) with (length (reds_of st p)) by lia.
  destruct (red_actions_ok p a (reds_of st p) 0 a1 Lp A1) as (a2 & E2 & S2 & M2); auto.
  { apply srt_NoDup. apply (reds_spec s W st LO p Lp). }
  { intros x Hx X1. apply M1 in Hx as (t & q & _ & _ & ->). discriminate. }
  rewrite Nat.add_0_r in E2. exists a2. split; [exact E2|]. split; [auto|].
  assert (M : forall x, In x a2 <-> act_spec p x) by (intros x; rewrite M2, M1; unfold act_spec; tauto).
  split; [|exact M]. intros x Hx. apply M in Hx as [(t & q & _ & _ & ->)|(t & r & _ & _ & _ & ->)]; reflexivity.
Qed.
End Act.

(** ** sole_reduction *)
Lemma sole_loop_ok : forall l c r0 k, 0 < k -> (0 < c -> 0 < r0) -> (forall a, In a l -> a_shift a = false -> 0 < a_num a) ->
  (sole_loop l c r0 = k <-> (forall a, In a l -> a_supp a = 0 -> a_shift a = false /\ a_num a = k) /\ (r0 = 0 \/ r0 = k) /\
    (0 < c \/ exists a, In a l /\ a_supp a = 0 /\ a_sym a <> 1)).
Proof.
  induction l as [|a l IH]; intros c r0 k Hk Hc HN; cbn [sole_loop].
  - destruct (c =? 0) eqn:C.
    + apply Nat.eqb_eq in C. split; [lia|]. intros (_ & _ & [H|(a & [] & _)]). lia.
    + apply Nat.eqb_neq in C. split; [intros H; split; [intros ? []|]; split; [auto|left; lia]|]. intros (_ & [H|H] & _); [lia|auto].
  - assert (HL : forall x, In x l -> a_shift x = false -> 0 < a_num x) by (intros x Hx; apply HN; now right).
    destruct (a_supp a =? 0) eqn:Z.
    + apply Nat.eqb_eq in Z. destruct (a_shift a) eqn:Sh.
      { split; [lia|]. intros (H & _). destruct (H a (or_introl eq_refl) Z) as (H1 & _). congruence. }
      pose proof (HN a (or_introl eq_refl) Sh) as Na.
      destruct ((0 <? r0) && negb (a_num a =? r0)) eqn:C.
      { apply andb_true_iff in C as (C1 & C2). apply Nat.ltb_lt in C1. apply negb_true_iff, Nat.eqb_neq in C2. split; [lia|].
        intros (H & [H1|H1] & _); [lia|]. destruct (H a (or_introl eq_refl) Z) as (_ & H2). lia. }
      assert (R : r0 = 0 \/ r0 = a_num a).
      { apply andb_false_iff in C as [C|C]; [apply Nat.ltb_ge in C; lia|]. apply negb_false_iff, Nat.eqb_eq in C. auto. }
      rewrite IH; auto. split.
      * intros (H1 & H2 & H3). assert (E : a_num a = k) by (destruct H2; [lia|auto]). split; [intros x [<-|Hx]; auto|]. split; [lia|].
        destruct H3 as [H3|(x & Hx & H3)]; [|right; exists x; split; [now right|auto]].
        destruct (a_sym a =? 1) eqn:S1; [now left|]. apply Nat.eqb_neq in S1. right. exists a. split; [now left|auto].
      * intros (H1 & H2 & H3). destruct (H1 a (or_introl eq_refl) Z) as (_ & E). split; [intros x Hx; apply H1; now right|]. split; [auto|].
        destruct H3 as [H3|(x & [<-|Hx] & H3 & H4)].
        -- left. destruct (a_sym a =? 1); lia.
        -- left. apply Nat.eqb_neq in H4. rewrite H4. lia.
        -- right. exists x. auto.
    + apply Nat.eqb_neq in Z. rewrite IH; auto. split.
      * intros (H1 & H2 & H3). split; [intros x [<-|Hx] E; [contradiction|auto]|]. split; [auto|]. destruct H3 as [H3|(x & Hx & H3)]; [auto|right; exists x; split; [now right|auto]].
      * intros (H1 & H2 & H3). split; [intros x Hx; apply H1; now right|]. split; [auto|]. destruct H3 as [H3|(x & [<-|Hx] & H3 & H4)]; [auto|contradiction|right; exists x; auto].
Qed.

Theorem sole_reduction_ok : forall l k, 0 < k -> (forall a, In a l -> a_shift a = false -> 0 < a_num a) ->
  (sole_reduction l = k <-> (forall a, In a l -> a_supp a = 0 -> a_shift a = false /\ a_num a = k) /\ exists a, In a l /\ a_supp a = 0 /\ a_sym a <> 1).
Proof.
  intros l k Hk HN. unfold sole_reduction. rewrite (sole_loop_ok l 0 0 k Hk ltac:(lia) HN). split.
  - intros (H1 & _ & [H|H]); [lia|auto].
  - intros (H1 & H2). split; [auto|]. split; [auto|]. now right.
Qed.

(** ** unused_rules *)
Lemma mark_used_ok : forall l used, (forall a, In a l -> a_shift a = false -> a_num a < length used) ->
  exists used', mark_used l used = Ok used' /\ length used' = length used /\
    forall r, nth r used' false = true <-> nth r used false = true \/ exists a, In a l /\ a_shift a = false /\ a_supp a = 0 /\ a_num a = r.
Proof.
  induction l as [|a l IH]; intros used H; cbn [mark_used].
  - exists used. split; [reflexivity|]. split; [auto|]. intros r. split; [auto|]. intros [X|(a & [] & _)]. auto.
  - destruct (negb (a_shift a) && (a_supp a =? 0)) eqn:C.
    + apply andb_true_iff in C as (C1 & C2). apply negb_true_iff in C1. apply Nat.eqb_eq in C2. pose proof (H a (or_introl eq_refl) C1) as La.
      unfold put. rewrite (proj2 (Nat.ltb_lt _ _) La). cbn [bind]. destruct (IH (upd used (a_num a) true)) as (u & E & L & M).
      { intros x Hx Sx. rewrite upd_length. apply H; [now right|auto]. }
      exists u. split; [exact E|]. split; [now rewrite L, upd_length|]. intros r. rewrite M. split.
      * intros [X|(x & Hx & X)]; [|right; exists x; split; [now right|auto]]. destruct (Nat.eq_dec r (a_num a)) as [->|N].
        -- right. exists a. split; [now left|auto].
        -- left. rewrite nth_upd_ne in X; auto.
      * intros [X|(x & [<-|Hx] & X1 & X2 & X3)]; [|left; subst r; now rewrite nth_upd_eq|right; exists x; auto].
        left. destruct (Nat.eq_dec r (a_num a)) as [->|N]; [now rewrite nth_upd_eq|rewrite nth_upd_ne; auto].
    + destruct (IH used) as (u & E & L & M); [intros x Hx; apply H; now right|]. exists u. split; [exact E|]. split; [auto|]. intros r. rewrite M. split.
      * intros [X|(x & Hx & X)]; [auto|right; exists x; split; [now right|auto]].
      * intros [X|(x & [<-|Hx] & X1 & X2 & X3)]; [auto| |right; exists x; auto]. rewrite X1, X2 in C. discriminate.
Qed.

Lemma mark_all_ok : forall ps used, (forall l a, In l ps -> In a l -> a_shift a = false -> a_num a < length used) ->
  exists used', mark_all ps used = Ok used' /\ length used' = length used /\
    forall r, nth r used' false = true <-> nth r used false = true \/ exists l a, In l ps /\ In a l /\ a_shift a = false /\ a_supp a = 0 /\ a_num a = r.
Proof.
  induction ps as [|l ps IH]; intros used H; cbn [mark_all].
  - exists used. split; [reflexivity|]. split; [auto|]. intros r. split; [auto|]. intros [X|(l & a & [] & _)]. auto.
  - destruct (mark_used_ok l used) as (u1 & E1 & L1 & M1); [intros a; apply H; now left|]. rewrite E1. cbn [bind].
    destruct (IH u1) as (u2 & E2 & L2 & M2); [intros l' a Hl; rewrite L1; apply H; now right|]. exists u2. split; [exact E2|]. split; [congruence|].
    intros r. rewrite M2, M1. split.
    + intros [[X|(a & X)]|(l' & a & X & Y)]; [auto|right; exists l, a; split; [now left|auto]|right; exists l', a; split; [now right|auto]].
    + intros [X|(l' & a & [<-|X] & Y)]; [auto|left; right; exists a; auto|right; exists l', a; auto].
Qed.

(** ** make_parser *)
Lemma map_res_ok : forall A B (f : A -> res B) (P : A -> B -> Prop) l, (forall x, In x l -> exists y, f x = Ok y /\ P x y) ->
  exists ys, map_res f l = Ok ys /\ Forall2 P l ys.
Proof.
  intros A B f P. induction l as [|x l IH]; intros H; cbn [map_res]; [exists []; auto|].
  destruct (H x (or_introl eq_refl)) as (y & E & Hy). rewrite E. cbn [bind]. destruct IH as (ys & E' & F); [intros z Hz; apply H; now right|]. rewrite E'. cbn [bind].
  exists (y :: ys). auto.
Qed.

Section Make.
Variable s : bsrc.
Hypothesis W : wf_src s.
Variable st : lr0st.
Hypothesis LO : lr0_ok s st.
Variable T : lalr_tables.
Hypothesis TO : lalr_ok s st T.
Variable pr : bprec.
Hypothesis WP : wf_prec s pr.
Variable flag : bool.
Local Notation b := (pack_grammar s).
Local Notation go := (go st).
Local Notation nst := (nst st).
Local Notation nt := (b_ntokens s).

Lemma final_loop_ok : forall l q f, In q l -> acc st q = S nt -> (forall x, In x l -> x < nst) -> (forall x, In x l -> acc st x = S nt -> x = q) ->
  final_loop (t_access T) (Z.of_nat (S nt)) l f = Ok q.
Proof.
  induction l as [|x l IH]; intros q f Hq Aq HL HU; [destruct Hq|]. cbn [final_loop]. rewrite (lo_access _ _ _ TO), (accessing_nth st x (HL x (or_introl eq_refl))). cbn [opt bind].
  destruct (Z.of_nat (acc st x) =? Z.of_nat (S nt))%Z eqn:C.
  - apply Z.eqb_eq in C. f_equal. apply HU; [now left|lia].
  - rewrite <- (lo_access _ _ _ TO). apply IH; auto; [|intros y Hy; apply HL; now right|intros y Hy; apply HU; now right]. destruct Hq as [<-|Hq]; [|auto]. rewrite Aq, Z.eqb_refl in C. discriminate.
Qed.

Lemma go_goal : exists q, go 0 (S nt) q.
Proof. apply (go_ex s W st LO 0 (0, 0) (S nt)); [apply start_0; auto|reflexivity]. Qed.

Lemma find_final_ok : exists f, find_final_state b T = Ok f /\ go 0 (S nt) f.
Proof.
  destruct go_goal as (q & Hq). pose proof (go_range s W st LO _ _ _ Hq) as (_ & _ & L0 & _). exists q. split; [|exact Hq]. unfold find_final_state.
  rewrite (lo_sh _ _ _ TO 0 L0). cbn [opt bind]. assert (EG : nth_error (ritem b) 1 = Some (Z.of_nat (S nt))).
  { unfold pack_grammar. destruct (pack_rules 3 4 (b_rules s)) as [[x y] z]. reflexivity. }
  destruct (shifts_of st 0) as [|x l] eqn:E; [destruct Hq as (Hq & _); rewrite E in Hq; destruct Hq|].
  rewrite EG. cbn [opt bind]. rewrite <- E. apply final_loop_ok; auto.
  - apply in_rev. rewrite rev_involutive. apply Hq.
  - apply Hq.
  - intros y Hy. apply in_rev in Hy. pose proof (go_range s W st LO 0 _ y (conj Hy eq_refl)). lia.
  - intros y Hy Ey. apply in_rev in Hy. eapply (go_det s st LO); [split; [exact Hy|exact Ey]|exact Hq].
Qed.

(** One state. *)
Definition state_ok (final p : nat) (acts' : list action) (sr rr : nat) : Prop :=
  exists acts, parse_actions b pr T p = Ok acts /\ StronglySorted act_lt acts /\ (forall a, In a acts -> a_supp a = 0) /\ (forall a, In a acts <-> act_spec s st pr p a) /\
    res_ok flag (p =? final) acts acts' sr rr.

Lemma rc_states_ok : forall final l i, Forall2 (fun p acts => StronglySorted act_lt acts /\ (forall a, In a acts -> a_supp a = 0)) (seq i (length l)) l ->
  exists l' srs rrs, rc_states flag final i l = Ok (l', srs, rrs) /\ length l' = length l /\ length srs = length l /\ length rrs = length l /\
    forall j acts, nth_error l j = Some acts -> exists acts' sr rr, nth_error l' j = Some acts' /\ nth_error srs j = Some sr /\ nth_error rrs j = Some rr /\
      res_ok flag (i + j =? final) acts acts' sr rr.
Proof.
  intros final. induction l as [|acts l IH]; intros i F; cbn [rc_states].
  - exists [], [], []. split; [reflexivity|]. repeat split; auto. intros j acts E. destruct j; discriminate.
  - cbn [length seq] in F. inversion F as [|? ? ? ? (F1 & F2) F3]; subst.
    destruct (remove_conflicts1_ok flag (i =? final) acts F1 F2) as (a' & sr & rr & E & O). rewrite E. cbn [bind].
    destruct (IH (S i) F3) as (l' & srs & rrs & E' & L1 & L2 & L3 & H). rewrite E'. cbn [bind]. exists (a' :: l'), (sr :: srs), (rr :: rrs).
    split; [reflexivity|]. split; [cbn; auto|]. split; [cbn; auto|]. split; [cbn; auto|]. intros j acts0 Ej. destruct j as [|j].
    + cbn in Ej. inversion Ej; subst acts0. exists a', sr, rr. rewrite Nat.add_0_r. auto.
    + destruct (H j acts0 Ej) as (x & y & z & H1 & H2 & H3 & H4). exists x, y, z. replace (i + S j) with (S i + j) by lia. auto.
Qed.

Record par_ok (P : par) : Prop := {
  po_len : length (p_parser P) = nst;
  po_srl : length (p_SR P) = nst;
  po_rrl : length (p_RR P) = nst;
  po_final : go 0 (S nt) (p_final P);
  po_state : forall p, p < nst -> exists acts' sr rr, nth_error (p_parser P) p = Some acts' /\ nth_error (p_SR P) p = Some sr /\ nth_error (p_RR P) p = Some rr /\
    state_ok (p_final P) p acts' sr rr;
  po_def : p_defred P = map sole_reduction (p_parser P);
  po_usedl : length (p_used P) = length (b_rules s) + 3;
  po_used : forall r, nth r (p_used P) false = true <-> exists l a, In l (p_parser P) /\ In a l /\ a_shift a = false /\ a_supp a = 0 /\ a_num a = r;
  po_unused : p_nunused P = length (filter negb (skipn 3 (p_used P)))
}.

Lemma nrules_eq : nrules b = length (b_rules s) + 3.
Proof.
  unfold nrules, pack_grammar. assert (X : forall rs i j, length (snd (fst (pack_rules i j rs))) = length rs).
  { induction rs as [|[l r] rs IH]; intros i j; cbn [pack_rules]; [reflexivity|]. specialize (IH (S i) (S (j + length r))). destruct (pack_rules (S i) (S (j + length r)) rs) as [[x y] z]. cbn in *. lia. }
  specialize (X (b_rules s) 3 4). destruct (pack_rules 3 4 (b_rules s)) as [[x y] z]. cbn in *. lia.
Qed.

Theorem make_parser_ok : exists P, make_parser flag b pr T = Ok P /\ par_ok P.
Proof.
  unfold make_parser.
  assert (LT : length (t_access T) = nst) by (rewrite (lo_access _ _ _ TO); unfold accessing; now rewrite map_length). rewrite LT.
  destruct (map_res_ok _ _ (parse_actions b pr T) (fun p acts => parse_actions b pr T p = Ok acts /\ StronglySorted act_lt acts /\ (forall a, In a acts -> a_supp a = 0) /\
    forall a, In a acts <-> act_spec s st pr p a) (seq 0 nst)) as (l & E & F).
  { intros p Hp. apply in_seq in Hp. destruct (parse_actions_ok s W st LO T TO pr WP p ltac:(lia)) as (acts & H & H'). exists acts. split; [exact H|]. split; [exact H|exact H']. }
  rewrite E. cbn [bind]. destruct find_final_ok as (f & Ef & Gf). rewrite Ef. cbn [bind].
  assert (LL : length l = nst) by (rewrite <- (seq_length nst 0); clear - F; induction F; cbn; auto).
  destruct (rc_states_ok f l 0) as (l' & srs & rrs & E' & L1 & L2 & L3 & H).
  { rewrite LL. clear - F. induction F as [|x y l l' H F IH]; constructor; auto. tauto. }
  rewrite E'. cbn [bind].
  assert (ST : forall p, p < nst -> exists acts' sr rr, nth_error l' p = Some acts' /\ nth_error srs p = Some sr /\ nth_error rrs p = Some rr /\ state_ok f p acts' sr rr).
  { intros p Lp. destruct (nth_error_lt_ex _ l p ltac:(lia)) as (acts & Ea). destruct (H p acts Ea) as (a' & sr & rr & H1 & H2 & H3 & H4).
    exists a', sr, rr. split; [auto|]. split; [auto|]. split; [auto|]. exists acts.
    assert (X : parse_actions b pr T p = Ok acts /\ StronglySorted act_lt acts /\ (forall a, In a acts -> a_supp a = 0) /\ forall a, In a acts <-> act_spec s st pr p a).
    { clear - F Ea Lp. assert (Y : forall m n l, Forall2 (fun p acts => parse_actions b pr T p = Ok acts /\ StronglySorted act_lt acts /\ (forall a, In a acts -> a_supp a = 0) /\
        forall a, In a acts <-> act_spec s st pr p a) (seq n m) l -> forall p acts, nth_error l p = Some acts -> parse_actions b pr T (n + p) = Ok acts /\ StronglySorted act_lt acts /\ (forall a, In a acts -> a_supp a = 0) /\
        forall a, In a acts <-> act_spec s st pr (n + p) a).
      { clear. induction m as [|m IH]; intros n l F p acts E; cbn [seq] in F; inversion F; subst; [destruct p; discriminate|]. destruct p as [|p].
        - cbn in E. inversion E; subst. rewrite Nat.add_0_r. auto.
        - replace (n + S p) with (S n + p) by lia. eapply IH; eauto. }
      exact (Y _ _ _ F p acts Ea). }
    destruct X as (X1 & X2 & X3 & X4). split; [auto|]. split; [auto|]. split; [auto|]. split; [auto|]. exact H4. }
  unfold unused_rules. rewrite nrules_eq.
  destruct (mark_all_ok l' (repeat false (length (b_rules s) + 3))) as (u & Eu & Lu & Mu).
  { intros l0 a Hl Ha Sa. rewrite repeat_length. apply In_nth_error in Hl as (p & Ep). assert (Lp : p < nst) by (pose proof (nth_error_Some_lt _ _ _ _ Ep); lia).
    destruct (ST p Lp) as (acts' & sr & rr & Q1 & _ & _ & (acts & _ & _ & _ & Q2 & [Q3 _ _ _])). assert (acts' = l0) by congruence. subst acts'.
    assert (I0 : In (sup 0 a) acts) by (rewrite <- Q3; now apply in_map). apply Q2 in I0. apply act_num_red in I0; auto.
    destruct (reds_range s W st LO p _ Lp I0) as (k & _ & _ & X). exact X. }
  rewrite Eu. cbn [bind]. eexists. split; [reflexivity|]. rewrite repeat_length in Lu. constructor; cbn [p_parser p_final p_SR p_RR p_used p_nunused p_defred]; auto; try lia.
  intros r. rewrite Mu. split; [intros [X|X]; [|auto]|auto]. exfalso. rewrite nth_repeat in X. discriminate.
Qed.
End Make.
