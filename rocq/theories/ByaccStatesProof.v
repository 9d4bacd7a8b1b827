(** byacc's states in terms of items, for lalr.c and the statement of C34. *)
From Coq Require Import List Arith NArith ZArith Lia Bool Sorted.
Import ListNotations.
From Verif Require Import Base SpecGrammar SpecGrammarFacts SpecLRFacts SpecLR0 SpecByacc
  ByaccLr0Model ByaccPackProof ByaccClosureProof ByaccLr0Proof.
Open Scope res_scope.

Lemma choice_list : forall A B (P : nat -> A -> B -> Prop) (l : list A),
  (forall p a, nth_error l p = Some a -> exists y, P p a y) ->
  exists ys, length ys = length l /\ forall p a y, nth_error l p = Some a -> nth_error ys p = Some y -> P p a y.
Proof.
  intros A B P l. revert P. induction l as [|a l IH]; intros P H.
  - exists []. split; [auto|]. intros [|p] a y E; discriminate.
  - destruct (H 0 a eq_refl) as (y & Py). destruct (IH (fun p => P (S p))) as (ys & L & Q).
    { intros p a' E. apply (H (S p) a' E). }
    exists (y :: ys). split; [cbn; lia|]. intros [|p] a' y' E E'; cbn in E, E'; [inversion E; inversion E'; subst; auto|eauto].
Qed.

Section States.
Variable s : bsrc.
Hypothesis W : wf_src s.
Variable st : lr0st.
Hypothesis LO : lr0_ok s st.
Local Notation b := (pack_grammar s).
Local Notation G := (aug s).

(** Items of state [p]. *)
Definition sitem (p : nat) (i : item) : Prop := exists c, nth_error (l_cores st) p = Some c /\ clos G (kitems s (c_items c)) i.
Definition shifts_of (p : nat) : list nat := assoc p (l_shifts st).
Definition reds_of (p : nat) : list nat := assoc p (l_reds st).
Definition acc (q : nat) : nat := match nth_error (l_cores st) q with Some c => c_sym c | None => 0 end.
Definition nst : nat := length (l_cores st).

(** Transition over symbol [x]. *)
Definition go (p x q : nat) : Prop := In q (shifts_of p) /\ acc q = x.

Lemma T : TI s st.
Proof. apply LO. Qed.

Lemma Dn : forall p c, nth_error (l_cores st) p = Some c -> done s st p c.
Proof. intros p c E. apply (li_done _ _ _ LO); [eapply nth_error_Some_lt; eauto|auto]. Qed.

Lemma shifts_bound : forall p q, In q (shifts_of p) -> p < nst.
Proof.
  intros p q H. unfold shifts_of, assoc in H. destruct (find (fun e => fst e =? p) (l_shifts st)) as [[a e]|] eqn:F; [|destruct H].
  apply find_some in F as [F1 F2]. cbn in F2. apply Nat.eqb_eq in F2. subst a. now apply (li_sh _ _ _ LO) in F1.
Qed.

Lemma sitem_lt : forall p i, sitem p i -> p < nst.
Proof. intros p i (c & E & _). eapply nth_error_Some_lt; eauto. Qed.

Lemma sitem_ok : forall p i, sitem p i -> item_ok G i.
Proof. intros p i (c & E & C). eapply clos_ok; [|exact C]. intros k [O _]. exact O. Qed.

Lemma sitem_gm : forall p, p < nst -> exists gm, forall i, sitem p i <-> valid G gm i.
Proof.
  intros p L. destruct (nth_error_lt_ex _ _ _ L) as (c & E). destruct (ti_core _ _ T _ _ E) as (_ & _ & _ & (gm & H) & _).
  exists gm. intros i. rewrite <- H. split; [intros (c' & E' & C); congruence|intros C; exists c; auto].
Qed.

Lemma sitem_0 : forall i, sitem 0 i <-> valid G [] i.
Proof.
  intros i. destruct (ti_core0 _ _ T) as (c & E). destruct (ti_core _ _ T _ _ E) as (_ & _ & _ & _ & H & _).
  rewrite (H eq_refl) in E. rewrite <- (clos_start s W). split.
  - intros (c' & E' & C). assert (c' = mkCore 0 [1]) by congruence. subst. exact C.
  - intros C. eexists. split; [exact E|exact C].
Qed.

(** Transitions: existence, determinism, items of the target. *)
Lemma go_sitem : forall p x q, go p x q -> 0 < x /\ (exists i, sitem p i /\ after_dot G i = Some (ESym x)) /\ q <> 0 /\ q < nst /\
  forall i, sitem q i <-> clos G (goto_items G (sitem p) (ESym x)) i.
Proof.
  intros p x q [Iq Aq]. pose proof (shifts_bound _ _ Iq) as Lp. destruct (nth_error_lt_ex _ _ _ Lp) as (c & E).
  destruct (Dn p c E) as [(its & syms & C & _ & S1 & M & F)]. unfold shifts_of in Iq.
  assert (X : exists y, In y syms /\ exists c', nth_error (l_cores st) q = Some c' /\ q <> 0 /\ c_sym c' = y /\ c_items c' = gk s its y).
  { clear - F Iq. induction F as [|y q' l l' H F IH]; [destruct Iq|]. destruct Iq as [<-|Iq].
    - exists y. split; [now left|auto].
    - destruct (IH Iq) as (y' & I & R). exists y'. split; [now right|auto]. }
  destruct X as (y & Iy & c' & E' & Nq & Sy & It). unfold acc in Aq. rewrite E' in Aq. subst y. rewrite Aq in *.
  assert (NE : gk s its x <> []) by now apply M.
  assert (EX : exists i, sitem p i /\ after_dot G i = Some (ESym x)).
  { destruct (gk s its x) as [|y l] eqn:EG; [congruence|].
    assert (Iy2 : In y (gk s its x)) by (rewrite EG; now left). unfold gk in Iy2. apply in_map_iff in Iy2 as (j & <- & Ij). apply filter_In in Ij as [Ij Hj].
    destruct (is_closure_ok s _ _ _ C Ij) as (i' & O' & C' & ->).
    unfold has_sym in Hj. destruct (nth_error (ritem (pack_grammar s)) (idx s i')) as [z|] eqn:Ez; [|discriminate].
    apply andb_true_iff in Hj as [Hz Hj]. apply Z.eqb_eq in Hj. apply Z.ltb_lt in Hz. exists i'. split; [exists c; auto|].
    apply (proj2 (idx_var s W i' z O' Ez x)). split; [lia|auto]. }
  assert (Px : 0 < x). { destruct EX as (i & _ & A). destruct (after_dot_wf s W _ _ A) as (y & Ey & Hy & _). inversion Ey; subst. lia. }
  split; [auto|]. split; [auto|]. split; [auto|]. split; [eapply nth_error_Some_lt; eauto|].
  intros i. split.
  - intros (c2 & E2 & C2). assert (c2 = c') by congruence. subst c2. rewrite It in C2. eapply clos_ext; [|exact C2].
    intros k Hk. apply (gk_items s W _ _ _ C Px) in Hk as (j & Cj & A & Ek). exists j. split; [exists c; auto|auto].
  - intros C2. exists c'. split; [auto|]. rewrite It. eapply clos_ext; [|exact C2].
    intros k (j & (c2 & E2 & Cj) & A & Ek). assert (c2 = c) by congruence. subst c2. apply (gk_items s W _ _ _ C Px). exists j. auto.
Qed.

Lemma go_ex : forall p i x, sitem p i -> after_dot G i = Some (ESym x) -> exists q, go p x q.
Proof.
  intros p i x (c & E & C0) A. destruct (Dn p c E) as [(its & syms & C & _ & S1 & M & F)].
  assert (Px : 0 < x). { destruct (after_dot_wf s W _ _ A) as (y & Ey & Hy & _). inversion Ey; subst. lia. }
  assert (Ix : In x syms).
  { apply M. assert (K : kitems s (gk s its x) (fst i, S (snd i))). { apply (gk_items s W _ _ _ C Px). exists i. auto. }
    destruct K as [_ K]. intros N. rewrite N in K. destruct K. }
  clear M S1. unfold go, shifts_of. revert Ix. induction F as [|y q' l l' H F IH]; intros Ix; [destruct Ix|]. destruct Ix as [->|Ix].
  - destruct H as (c' & E' & _ & Sx & _). exists q'. split; [now left|]. unfold acc. now rewrite E'.
  - destruct (IH Ix) as (q & Iq & Aq). exists q. split; [now right|auto].
Qed.

Lemma shifts_srt : forall p, srt (map acc (shifts_of p)).
Proof.
  intros p. destruct (Nat.lt_ge_cases p nst) as [L|L].
  - destruct (nth_error_lt_ex _ _ _ L) as (c & E). destruct (Dn p c E) as [(its & syms & C & _ & S1 & M & F)].
    unfold shifts_of. replace (map acc (assoc p (l_shifts st))) with syms; [auto|].
    clear - F. induction F as [|y q' l l' (c' & E' & _ & Sy & _) F IH]; [auto|]. cbn [map]. unfold acc at 1. rewrite E'. congruence.
  - destruct (shifts_of p) as [|q l] eqn:E; [constructor|]. assert (I : In q (shifts_of p)) by (rewrite E; now left).
    apply shifts_bound in I. lia.
Qed.

Lemma srt_map_inj : forall (f : nat -> nat) l x y, srt (map f l) -> In x l -> In y l -> f x = f y -> x = y.
Proof.
  induction l as [|a l IH]; intros x y H Ix Iy E; [destruct Ix|]. cbn [map] in H. inversion H as [|? ? H1 H2]; subst.
  rewrite Forall_forall in H2. destruct Ix as [<-|Ix]; destruct Iy as [<-|Iy]; auto.
  - assert (f a < f y) by (apply H2, in_map; auto). lia.
  - assert (f a < f x) by (apply H2, in_map; auto). lia.
Qed.

Lemma go_det : forall p x q q', go p x q -> go p x q' -> q = q'.
Proof. intros p x q q' [I A] [I' A']. apply (srt_map_inj acc (shifts_of p)); auto; [apply shifts_srt|congruence]. Qed.

(** A kernel item of a state. *)
Lemma core_items : forall p c, nth_error (l_cores st) p = Some c -> srt (c_items c) /\
  (forall y, In y (c_items c) -> exists i, sitem p i /\ y = idx s i) /\
  forall i, sitem p i -> (In (idx s i) (c_items c) <-> (if p =? 0 then i = (0, 0) else 0 < snd i)).
Proof.
  intros p c E. destruct (ti_core _ _ T _ _ E) as (W1 & W2 & W3 & _ & W5 & W6). split; [auto|]. split.
  - intros y Hy. destruct (W3 y Hy) as (i & O & ->). exists i. split; [|auto]. exists c. split; [auto|]. apply clos_base. split; auto.
  - intros i Si. pose proof (sitem_ok _ _ Si) as Oi. destruct (Nat.eqb_spec p 0) as [->|N].
    + rewrite (W5 eq_refl). cbn [c_items]. assert (O0 : item_ok G (0, 0)). { eexists. split; [reflexivity|cbn; lia]. }
      split.
      * intros [H|[]]. apply (idx_inj s); auto.
      * intros ->. now left.
    + split.
      * intros H. destruct (W6 N _ H) as (j & Oj & A & Ej). destruct j as [k d]. rewrite <- (idx_S s) in Ej.
        apply (idx_inj s) in Ej; [|auto|exact (proj2 (after_dot_ok _ _ _ A))]. subst i. cbn. lia.
      * intros H. destruct Si as (c' & E' & C). assert (c' = c) by congruence. subst c'.
        inversion C as [j [_ K]|j A r Cj Aj Lr]; subst; [auto|]. cbn in H. lia.
Qed.

Lemma start_item : forall p, sitem p (0, 0) -> p = 0.
Proof.
  intros p (c & E & C). assert (K : kitems s (c_items c) (0, 0)).
  { inversion C as [j K|j A r Cj Aj Lr]; subst; [auto|]. exfalso. destruct (after_dot_wf s W _ _ Aj) as (y & Ey & _ & Ny). inversion Ey; subst.
    destruct Lr as (rl & E1 & E2). cbn in E1. inversion E1; subst. cbn in Ny. congruence. }
  destruct K as [_ K]. assert (S0 : sitem p (0, 0)) by (exists c; auto).
  apply (proj2 (proj2 (core_items p c E)) _ S0) in K. destruct (Nat.eqb_spec p 0); [auto|cbn in K; lia].
Qed.

Lemma state_inj : forall p q, p < nst -> q < nst -> (forall i, sitem p i <-> sitem q i) -> p = q.
Proof.
  intros p q Lp Lq H. destruct (nth_error_lt_ex _ _ _ Lp) as (c & E). destruct (nth_error_lt_ex _ _ _ Lq) as (c' & E').
  assert (S0 : sitem 0 (0, 0)). { apply sitem_0. apply valid_init. eexists. split; reflexivity. }
  assert (Z : p = 0 <-> q = 0).
  { split; intros ->; apply start_item; apply H; auto. }
  apply (ti_dist _ _ T p q c c' E E'). destruct (core_items p c E) as (A1 & A2 & A3). destruct (core_items q c' E') as (B1 & B2 & B3).
  assert (ZZ : (p =? 0) = (q =? 0)). { destruct (Nat.eqb_spec p 0); destruct (Nat.eqb_spec q 0); auto; tauto. }
  apply srt_ext; auto. intros x. split; intros I.
  - destruct (A2 x I) as (i & Si & ->). apply (B3 i); [now apply H|]. rewrite <- ZZ. now apply (A3 i).
  - destruct (B2 x I) as (i & Si & ->). apply (A3 i); [now apply H|]. rewrite ZZ. now apply (B3 i).
Qed.

(** Following a string. *)
Lemma state_of : forall gm i, valid G gm i -> exists p, p < nst /\ forall j, sitem p j <-> valid G gm j.
Proof.
  induction gm as [|X gm IH]; intros i V.
  - exists 0. split; [|apply sitem_0]. destruct (ti_core0 _ _ T) as (c & E). eapply nth_error_Some_lt; eauto.
  - assert (exists j, valid G gm j /\ after_dot G j = Some X) as (j & Vj & A).
    { apply valid_cons in V. clear IH. induction V as [i (j & H & A & _)|i A r V IHV Ha Hl]; [eauto|auto]. }
    destruct (after_dot_wf s W _ _ A) as (x & -> & _ & _). destruct (IH j Vj) as (p & Lp & Hp).
    destruct (go_ex p j x) as (q & Hq); [now apply Hp|auto|]. destruct (go_sitem _ _ _ Hq) as (_ & _ & _ & Lq & Sq).
    exists q. split; [auto|]. intros k. rewrite Sq, valid_cons. split; apply clos_ext; intros k' (j' & A1 & A2 & A3); exists j'; (split; [now apply Hp|auto]).
Qed.

Lemma go_valid : forall p x q gm, go p x q -> (forall i, sitem p i <-> valid G gm i) -> forall i, sitem q i <-> valid G (ESym x :: gm) i.
Proof.
  intros p x q gm H Hp k. destruct (go_sitem _ _ _ H) as (_ & _ & _ & _ & Sq). rewrite Sq, valid_cons.
  split; apply clos_ext; intros k' (j' & A1 & A2 & A3); exists j'; (split; [now apply Hp|auto]).
Qed.

Lemma reds_spec : forall p, p < nst -> srt (reds_of p) /\
  forall r, In r (reds_of p) <-> exists i, sitem p i /\ after_dot G i = None /\ fst i <> 0 /\ r = S (S (fst i)).
Proof.
  intros p L. destruct (nth_error_lt_ex _ _ _ L) as (c & E). destruct (Dn p c E) as [(its & syms & C & R & _)].
  unfold reds_of. rewrite R. destruct (redset_ok s W _ _ C) as (_ & R2 & R3). split; [auto|].
  intros r. rewrite R3. split.
  - intros (i & Ci & H). exists i. split; [exists c; auto|auto].
  - intros (i & (c' & E' & Ci) & H). assert (c' = c) by congruence. subst. exists i. auto.
Qed.

(** Lists of items. *)
Lemma state_list : forall p, p < nst -> exists I, srt (map (idx s) I) /\ NoDup I /\ forall i, In i I <-> sitem p i.
Proof.
  intros p L. destruct (nth_error_lt_ex _ _ _ L) as (c & E). destruct (Dn p c E) as [(its & syms & C & R & _)].
  assert (X : exists I, its = map (idx s) I /\ forall i, In i I -> sitem p i).
  { assert (MM : forall x, In x its -> exists i, sitem p i /\ x = idx s i).
    { intros x Hx. destruct C as [_ C]. apply C in Hx as (i & Ci & ->). exists i. split; [exists c; auto|auto]. }
    clear - MM. induction its as [|x its IH]; [exists []; split; [auto|intros i []]|].
    destruct IH as (I & -> & H). { intros y Hy. apply MM. now right. }
    destruct (MM x (or_introl eq_refl)) as (i & Ci & ->). exists (i :: I). split; [auto|]. intros j [<-|Hj]; auto. }
  destruct X as (I & -> & HI). exists I. destruct C as [SI CI]. split; [auto|]. split; [now apply srt_NoDup, NoDup_map_inv in SI|].
  intros i. split; [apply HI|]. intros Si. pose proof Si as (c' & E' & Ci). assert (c' = c) by congruence. subst c'.
  assert (I2 : In (idx s i) (map (idx s) I)) by (apply CI; exists i; auto).
  apply in_map_iff in I2 as (j & Ej & Ij). apply (idx_inj s) in Ej; [now subst| |].
  - eapply sitem_ok. now apply HI.
  - eapply sitem_ok; eauto.
Qed.

Theorem lr0_view : exists sts, lr0_automaton G sts /\ length sts = nst /\
  forall p I sh, nth_error sts p = Some (I, sh) ->
    srt (map (idx s) I) /\ (forall i, In i I <-> sitem p i) /\ sh = map (fun q => (acc q, q)) (shifts_of p).
Proof.
  destruct (choice_list core lr0_state (fun p _ y => srt (map (idx s) (fst y)) /\ NoDup (fst y) /\ (forall i, In i (fst y) <-> sitem p i) /\
    snd y = map (fun q => (acc q, q)) (shifts_of p)) (l_cores st)) as (sts & L & H).
  { intros p c E. destruct (state_list p) as (I & A1 & A2 & A3); [eapply nth_error_Some_lt; eauto|].
    exists (I, map (fun q => (acc q, q)) (shifts_of p)). auto. }
  fold nst in L. exists sts.
  assert (Q : forall p I sh, nth_error sts p = Some (I, sh) -> p < nst /\ srt (map (idx s) I) /\ NoDup I /\ (forall i, In i I <-> sitem p i) /\ sh = map (fun q => (acc q, q)) (shifts_of p)).
  { intros p I sh E. pose proof (nth_error_Some_lt _ _ _ _ E) as Lp. rewrite L in Lp. destruct (nth_error_lt_ex _ _ _ Lp) as (c & Ec).
    destruct (H p c (I, sh) Ec E) as (A1 & A2 & A3 & A4). auto. }
  assert (Q2 : forall p, p < nst -> exists I sh, nth_error sts p = Some (I, sh)).
  { intros p Lp. rewrite <- L in Lp. destruct (nth_error_lt_ex _ _ _ Lp) as ([I sh] & E). eauto. }
  split; [|split; [auto|intros p I sh E; apply Q in E; tauto]]. constructor.
  - destruct (Q2 0) as (I & sh & E). { destruct (ti_core0 _ _ T) as (c & Ec). eapply nth_error_Some_lt; eauto. }
    exists I, sh. split; [auto|]. intros i. destruct (Q _ _ _ E) as (_ & _ & _ & A & _). rewrite A. apply sitem_0.
  - intros p I sh E. destruct (Q _ _ _ E) as (Lp & _ & _ & A & _). destruct (sitem_gm p Lp) as (gm & Hg). exists gm. intros i. rewrite A. apply Hg.
  - intros p I sh E. right. destruct (Q _ _ _ E) as (Lp & _ & _ & A & _). destruct (nth_error_lt_ex _ _ _ Lp) as (c & Ec).
    destruct (ti_core _ _ T _ _ Ec) as (_ & NE & OK & _). destruct (c_items c) as [|y l] eqn:Ey; [congruence|].
    destruct (OK y (or_introl eq_refl)) as (i & Oi & Yi). exists i. apply A. exists c. split; [auto|]. apply clos_base. split; [auto|].
    rewrite Ey, <- Yi. now left.
  - intros gm i V. destruct (state_of gm i V) as (p & Lp & Hp). destruct (Q2 p Lp) as (I & sh & E). exists p, I, sh. split; [auto|].
    intros j. destruct (Q _ _ _ E) as (_ & _ & _ & A & _). rewrite A. apply Hp.
  - intros p q I sh I' sh' E E' HI. destruct (Q _ _ _ E) as (Lp & _ & _ & A & _). destruct (Q _ _ _ E') as (Lq & _ & _ & A' & _).
    apply state_inj; auto. intros i. now rewrite <- A, <- A'.
  - intros p I sh E. apply Q in E. tauto.
  - intros p I sh x q E. destruct (Q _ _ _ E) as (Lp & _ & _ & A & ->). rewrite in_map_iff. split.
    + intros (q0 & Eq & Iq). inversion Eq; subst. assert (GO : go p (acc q) q) by (split; auto).
      destruct (go_sitem _ _ _ GO) as (_ & (i & Si & Ai) & _ & Lq & _). destruct (Q2 q Lq) as (J & sh' & EJ).
      exists (ESym (acc q)), J, sh'. split; [now left|]. split; [auto|]. split; [exists i; split; [now apply A|auto]|].
      intros gm VI k. destruct (Q _ _ _ EJ) as (_ & _ & _ & AJ & _). rewrite AJ.
      apply (go_valid p (acc q) q gm GO). intros i'. rewrite <- A. apply VI.
    + intros (X & J & sh' & Ix & EJ & (i & Ii & Ai) & VJ). destruct (after_dot_wf s W _ _ Ai) as (y & -> & _ & _).
      destruct Ix as [<-|[]]. apply A in Ii. destruct (go_ex p i y Ii Ai) as (q' & GO).
      destruct (sitem_gm p Lp) as (gm & Hg). destruct (Q _ _ _ EJ) as (Lq & _ & _ & AJ & _).
      assert (q' = q).
      { apply state_inj; [apply (go_sitem _ _ _ GO)|auto|]. intros k. rewrite (go_valid _ _ _ gm GO Hg), <- AJ. symmetry.
        apply VJ. intros k'. rewrite A. apply Hg. }
      subst q'. destruct GO as [I1 I2]. exists q. split; [congruence|auto].
Qed.
End States.
