(** Configlist_closure computes the item closure, the closure links and the
    spontaneous lookaheads. *)
From Coq Require Import List Arith Lia Bool.
Import ListNotations.
From Verif Require Import Base SpecGrammar SpecGrammarFacts SpecLRFacts LemonSetModel LemonSetProof
  LemonFirstModel LemonFirstProof LemonStatesModel.
Local Open Scope res_scope.

Lemma rules_of_In : forall g r A, In r (rules_of g A) <-> lhs_is g r A.
Proof.
  intros g r A. unfold rules_of, lhs_is, rule_of. rewrite <- in_rev, filter_In, in_seq.
  destruct (nth_error (g_rules g) r) as [rl|] eqn:E.
  - assert (r < length (g_rules g)) by (eapply nth_error_Some_lt; eauto).
    rewrite Nat.eqb_eq. split.
    + intros [_ H1]. eauto.
    + intros [rl' [E' H1]]. inversion E'; subst. split; auto. lia.
  - split; [intros [_ H]; discriminate|intros [rl [H _]]; discriminate].
Qed.

Lemma rules_of_NoDup : forall g A, NoDup (rules_of g A).
Proof. intros. unfold rules_of. apply NoDup_rev. apply NoDup_filter. apply seq_NoDup. Qed.

Lemma Configtable_find_Some : forall h l i x, Configtable_find h l i = Some x ->
  In x l /\ exists c, nth_error h x = Some c /\ c_item c = i.
Proof.
  induction l as [|y l IH]; intros i x H; simpl in H; [discriminate|].
  destruct (nth_error h y) as [c|] eqn:E.
  - destruct (Nat.eqb_spec (c_rp c) (fst i)); simpl in H.
    + destruct (Nat.eqb_spec (c_dot c) (snd i)).
      * inversion H; subst. split; [left; auto|]. exists c. split; auto.
        destruct i; unfold c_item; simpl in *; congruence.
      * destruct (IH _ _ H); split; simpl; auto.
    + destruct (IH _ _ H); split; simpl; auto.
  - destruct (IH _ _ H); split; simpl; auto.
Qed.

Lemma Configtable_find_None : forall h l i, Configtable_find h l i = None ->
  forall x c, In x l -> nth_error h x = Some c -> c_item c <> i.
Proof.
  induction l as [|y l IH]; intros i H x c Hx Hc; simpl in H; [contradiction|].
  destruct Hx as [->|Hx].
  - rewrite Hc in H. destruct (Nat.eqb_spec (c_rp c) (fst i)); simpl in H.
    + destruct (Nat.eqb_spec (c_dot c) (snd i)); [discriminate|].
      intros <-. auto.
    + intros <-. auto.
  - destruct (nth_error h y) as [c'|]; [|eauto].
    destruct ((c_rp c' =? fst i) && (c_dot c' =? snd i)); [discriminate|eauto].
Qed.

Section P.
Variable g : grammar.
Hypothesis WF : wf_grammar g.
Variable lam : list bool.
Variable fs : list cset.
Hypothesis LE : lam_exact g lam.
Hypothesis FE : fs_exact g fs.

Lemma closure_scan_ok : forall rest fws,
  Forall (wf_elem g) rest -> length fws = first_set_size g ->
  exists w e, closure_scan (g_nterm g) lam fs fws rest = Ok (w, e) /\
    length w = first_set_size g /\
    (forall t, SetFind w t = true <-> SetFind fws t = true \/ first g rest t) /\
    (e = true <-> nullable g rest).
Proof.
  assert (HT : g_nterm g < first_set_size g) by (unfold first_set_size, SetSize; lia).
  induction rest as [|x rest IH]; intros fws W L.
  - exists fws, true. split; [reflexivity|]. split; [auto|]. split.
    + intros t. split; auto. intros [H|H]; auto. exfalso; eapply first_nil; eauto.
    + split; auto. intros _. apply nullable_nil.
  - inversion W as [|? ? Wx Wr]; subst. destruct x as [s|l]; simpl.
    + simpl in Wx. destruct (Nat.ltb_spec s (g_nterm g)) as [T|T].
      * destruct (SetAdd_ok fws s) as (w & E & Lw & M); [lia|]. rewrite E. simpl.
        exists w, false. split; [reflexivity|]. split; [lia|]. split.
        -- intros t. rewrite M, first_term_cons; auto; tauto.
        -- split; [discriminate|]. intros N. apply nullable_cons in N; auto.
           destruct N as [N _]. exfalso. eapply term_not_nullable; eauto.
      * assert (NT : is_nonterm g s) by (unfold is_nonterm; lia).
        destruct FE as [[LF SZ] FX]. destruct LE as [LL LX].
        destruct (nth_error_lt_ex _ fs s) as [f Ef]; [lia|]. rewrite Ef. simpl.
        assert (Ef' : nth s fs [] = f) by (apply nth_error_Some_nth; auto).
        destruct (SetUnion_ok fws f) as (w & p & E & Lw & M & _).
        { rewrite <- Ef', SZ; lia. }
        rewrite E. simpl.
        destruct (nth_error_lt_ex _ lam s) as [b Eb]; [lia|]. rewrite Eb. simpl.
        assert (Eb' : SetFind lam s = b) by (apply nth_error_Some_nth; auto).
        assert (FM : forall t, SetFind f t = true <-> first g [ESym s] t).
        { intros t. rewrite <- Ef'. now apply FX. }
        destruct b.
        -- destruct (IH w) as (w' & e & E' & L' & M' & N'); auto; [lia|].
           exists w', e. split; [exact E'|]. split; [auto|]. split.
           ++ intros t. rewrite M', M, FM, (first_cons g (ESym s) rest).
              assert (nullable g [ESym s]) by (apply LX; auto). tauto.
           ++ rewrite N', nullable_cons; auto. assert (nullable g [ESym s]) by (apply LX; auto). tauto.
        -- assert (NN : ~ nullable g [ESym s]) by (intros N; apply LX in N; congruence).
           exists w, false. split; [reflexivity|]. split; [lia|]. split.
           ++ intros t. rewrite M, FM, (first_cons g (ESym s) rest). tauto.
           ++ split; [discriminate|]. intros N. apply nullable_cons in N; tauto.
    + destruct Wx as [_ Wx].
      destruct (SetAddAll_ok l fws false) as (w & p & E & Lw & M & _).
      { intros t Ht. apply Wx in Ht. unfold is_term in Ht. lia. }
      rewrite E. simpl. exists w, false. split; [reflexivity|]. split; [lia|]. split.
      * intros t. rewrite M, first_multi_cons; auto; tauto.
      * split; [discriminate|]. intros N. apply nullable_cons in N; auto.
        destruct N as [N _]. exfalso. eapply multi_not_nullable; eauto.
Qed.

(** The heap during the construction of a configuration list: [pre] is not
    touched, [loc] are the configurations on the current list. *)
Definition cur_ok (L : lemon) (pre loc : list config) : Prop :=
  l_cfgs L = pre ++ loc /\ l_current L = seq (length pre) (length loc).

Lemma cur_find_Some : forall L pre loc i x, cur_ok L pre loc ->
  Configtable_find (l_cfgs L) (l_current L) i = Some x ->
  exists p c, x = length pre + p /\ nth_error loc p = Some c /\ c_item c = i.
Proof.
  intros L pre loc i x [E1 E2] H. apply Configtable_find_Some in H as [Hx [c [Hc Hi]]].
  rewrite E2 in Hx. apply in_seq in Hx. exists (x - length pre), c.
  split; [lia|]. split; auto. rewrite E1 in Hc. rewrite nth_error_app2 in Hc by lia. auto.
Qed.

Lemma cur_find_None : forall L pre loc i, cur_ok L pre loc ->
  Configtable_find (l_cfgs L) (l_current L) i = None -> ~ In i (map c_item loc).
Proof.
  intros L pre loc i [E1 E2] H Hi. apply in_map_iff in Hi as [c [Hc Hin]].
  apply In_nth_error in Hin as [p Hp].
  assert (p < length loc) by (eapply nth_error_Some_lt; eauto).
  eapply (Configtable_find_None _ _ _ H (length pre + p) c); eauto.
  - rewrite E2. apply in_seq. lia.
  - rewrite E1, nth_error_app2 by lia. replace (length pre + p - length pre) with p by lia. auto.
Qed.

Lemma upd_app2 : forall A (a b : list A) n x, upd (a ++ b) (length a + n) x = a ++ upd b n x.
Proof.
  induction a as [|y a IH]; intros; simpl; auto. now rewrite IH.
Qed.

(** One iteration of closure_rules. *)
Definition closure_rule1 (L : lemon) (cfp : nat) (rest : list elem) (newrp : nat) : res lemon :=
  closure_rules g lam fs L cfp rest [newrp].

Lemma closure_rules_cons : forall L cfp rest r rs,
  closure_rules g lam fs L cfp rest (r :: rs) =
  (L1 <- closure_rule1 L cfp rest r ;; closure_rules g lam fs L1 cfp rest rs).
Proof.
  intros. unfold closure_rule1. cbn [closure_rules].
  destruct (Configlist_add g L r 0) as [L1 new].
  destruct (nth_error (l_cfgs L1) new) as [c|]; [|reflexivity]. cbn [opt bind].
  destruct (closure_scan (g_nterm g) lam fs (c_fws c) rest) as [[w e]| |]; try reflexivity.
  cbn [bind]. destruct e; [|reflexivity].
  destruct (nth_error _ cfp) as [c2|]; reflexivity.
Qed.

Lemma closure_rule1_effect : forall L pre loc j cj rest r,
  cur_ok L pre loc -> nth_error loc j = Some cj -> Forall (wf_elem g) rest ->
  (forall c, In c loc -> length (c_fws c) = first_set_size g) ->
  exists L' loc0 loc' p,
    closure_rule1 L (length pre + j) rest r = Ok L' /\
    cur_ok L' pre loc' /\ l_states L' = l_states L /\ l_basis L' = l_basis L /\
    ((loc0 = loc /\ p < length loc) \/
     (loc0 = loc ++ [newconfig g r 0] /\ p = length loc /\ ~ In (r, 0) (map c_item loc))) /\
    (exists cp, nth_error loc0 p = Some cp /\ c_item cp = (r, 0)) /\
    length loc' = length loc0 /\
    (forall q c, nth_error loc0 q = Some c -> exists c', nth_error loc' q = Some c' /\
       c_item c' = c_item c /\ c_bplp c' = c_bplp c /\
       (forall x, In x (c_fplp c') <->
          In x (c_fplp c) \/ (q = j /\ nullable g rest /\ x = length pre + p)) /\
       length (c_fws c') = first_set_size g /\
       (forall t, SetFind (c_fws c') t = true <->
          SetFind (c_fws c) t = true \/ (q = p /\ first g rest t))).
Proof.
  intros L pre loc j cj rest r CO Hj W SZ.
  unfold closure_rule1. cbn [closure_rules].
  assert (A : exists L1 loc0 p, Configlist_add g L r 0 = (L1, length pre + p) /\
     cur_ok L1 pre loc0 /\ l_states L1 = l_states L /\ l_basis L1 = l_basis L /\
     ((loc0 = loc /\ p < length loc) \/
      (loc0 = loc ++ [newconfig g r 0] /\ p = length loc /\ ~ In (r, 0) (map c_item loc))) /\
     (exists cp, nth_error loc0 p = Some cp /\ c_item cp = (r, 0))).
  { unfold Configlist_add.
    destruct (Configtable_find (l_cfgs L) (l_current L) (r, 0)) as [x|] eqn:F.
    - destruct (cur_find_Some _ _ _ _ _ CO F) as (p & c & -> & Hp & Hi).
      exists L, loc, p. split; [auto|]. split; [auto|]. split; [auto|]. split; [auto|]. split.
      + left. split; auto. eapply nth_error_Some_lt; eauto.
      + eauto.
    - pose proof (cur_find_None _ _ _ _ CO F) as NI. destruct CO as [E1 E2].
      exists (mkLemon (l_cfgs L ++ [newconfig g r 0]) (l_states L)
                (l_current L ++ [length (l_cfgs L)]) (l_basis L)), (loc ++ [newconfig g r 0]), (length loc).
      split; [rewrite E1, app_length; auto|]. split; [|split; [auto|split; [auto|split]]].
      + split; simpl.
        * rewrite E1. now rewrite app_assoc.
        * rewrite E2, E1, !app_length. simpl. replace (length loc + 1) with (S (length loc)) by lia.
          rewrite seq_S. reflexivity.
      + right. auto.
      + exists (newconfig g r 0). split; auto. rewrite nth_error_app2 by lia.
        now rewrite Nat.sub_diag. }
  destruct A as (L1 & loc0 & p & EA & CO1 & S1 & B1 & DD & cp & Hp & Hi).
  rewrite EA. destruct CO1 as [E1 E2].
  assert (Np : forall q, nth_error (l_cfgs L1) (length pre + q) = nth_error loc0 q).
  { intros q. rewrite E1, nth_error_app2 by lia. f_equal. lia. }
  rewrite Np, Hp. cbn [opt bind].
  assert (SZ0 : forall c, In c loc0 -> length (c_fws c) = first_set_size g).
  { intros c Hc. destruct DD as [[-> _]|[-> _]]; auto.
    apply in_app_or in Hc as [Hc|[<-|[]]]; auto. simpl. apply SetNew_length. }
  destruct (closure_scan_ok rest (c_fws cp)) as (w & e & ES & Lw & M & N); auto.
  { apply SZ0. eapply nth_error_In; eauto. }
  rewrite ES. cbn [bind].
  assert (Pl : p < length loc0) by (eapply nth_error_Some_lt; eauto).
  set (loc1 := upd loc0 p (with_fws cp w)).
  set (L2 := set_cfgs L1 (upd (l_cfgs L1) (length pre + p) (with_fws cp w))).
  assert (EL2 : l_cfgs L2 = pre ++ loc1).
  { unfold L2, loc1. simpl. rewrite E1. apply upd_app2. }
  assert (L1L : length loc1 = length loc0) by apply upd_length.
  assert (EL2c : l_current L2 = l_current L1) by reflexivity.
  assert (EL2s : l_states L2 = l_states L) by exact S1.
  assert (EL2b : l_basis L2 = l_basis L) by exact B1.
  clearbody L2.
  assert (Q1 : forall q c, nth_error loc0 q = Some c -> exists c', nth_error loc1 q = Some c' /\
       c_item c' = c_item c /\ c_bplp c' = c_bplp c /\ c_fplp c' = c_fplp c /\
       length (c_fws c') = first_set_size g /\
       (forall t, SetFind (c_fws c') t = true <->
          SetFind (c_fws c) t = true \/ (q = p /\ first g rest t))).
  { intros q c Hq. destruct (Nat.eq_dec q p) as [->|Nq].
    - rewrite Hp in Hq. inversion Hq; subst c. exists (with_fws cp w).
      unfold loc1. rewrite nth_error_upd_eq by auto.
      split; [auto|]. split; [auto|]. split; [auto|]. split; [auto|]. split; [auto|].
      intros t. simpl. rewrite M. tauto.
    - exists c. unfold loc1. rewrite nth_error_upd_ne by auto.
      split; [auto|]. split; [auto|]. split; [auto|]. split; [auto|].
      split; [apply SZ0; eapply nth_error_In; eauto|]. intros t. tauto. }
  assert (Jl : j < length loc0).
  { assert (j < length loc) by (eapply nth_error_Some_lt; eauto).
    destruct DD as [[-> _]|[-> _]]; auto. rewrite app_length. lia. }
  destruct e.
  - destruct (nth_error_lt_ex _ loc1 j) as [c2 Hc2]; [lia|].
    assert (Np2 : nth_error (l_cfgs L2) (length pre + j) = Some c2).
    { rewrite EL2, nth_error_app2 by lia. rewrite <- Hc2. f_equal. lia. }
    rewrite Np2. cbn [opt bind].
    exists (set_cfgs L2 (upd (l_cfgs L2) (length pre + j) (with_fplp c2 (length pre + p :: c_fplp c2)))),
      loc0, (upd loc1 j (with_fplp c2 (length pre + p :: c_fplp c2))), p.
    split; [reflexivity|]. split; [|split; [exact EL2s|split; [exact EL2b|split; [exact DD|]]]].
    + split; simpl.
      * rewrite EL2. apply upd_app2.
      * rewrite EL2c, E2. f_equal. rewrite upd_length. auto.
    + split; [eauto|]. split; [rewrite upd_length; auto|].
      assert (NN : nullable g rest) by (apply N; auto).
      intros q c Hq. destruct (Q1 q c Hq) as (c' & Hq' & I1 & I2 & I3 & I4 & I5).
      destruct (Nat.eq_dec q j) as [->|Nq].
      * rewrite Hc2 in Hq'. inversion Hq'; subst c'.
        eexists. rewrite nth_error_upd_eq by lia. split; [reflexivity|]. simpl.
        split; [auto|]. split; [auto|]. split; [|auto].
        intros x. rewrite I3. split; [intros [<-|H]; auto|intros [H|[_ [_ ->]]]; auto].
      * exists c'. rewrite nth_error_upd_ne by auto. split; [auto|]. split; [auto|]. split; [auto|].
        split; [|auto]. intros x. rewrite I3. tauto.
  - exists L2, loc0, loc1, p.
    split; [reflexivity|]. split; [|split; [exact EL2s|split; [exact EL2b|split; [exact DD|]]]].
    + split; auto. rewrite EL2c, E2. f_equal. auto.
    + split; [eauto|]. split; [auto|].
      assert (NN : ~ nullable g rest) by (intros H; apply N in H; discriminate).
      intros q c Hq. destruct (Q1 q c Hq) as (c' & Hq' & I1 & I2 & I3 & I4 & I5).
      exists c'. split; [auto|]. split; [auto|]. split; [auto|]. split; [|auto].
      intros x. rewrite I3. tauto.
Qed.

(** Invariant; [b0] is the basis, [D] the processed (position, rule) pairs. *)
Record CInv (n0 : nat) (b0 loc : list config) (D : list (nat * nat)) : Prop := {
  ci_basis : forall p c0, nth_error b0 p = Some c0 ->
    exists c, nth_error loc p = Some c /\ c_item c = c_item c0 /\ c_bplp c = c_bplp c0;
  ci_new : forall p c, nth_error loc p = Some c -> length b0 <= p ->
    c_bplp c = [] /\ exists j r, In (j, r) D /\ c_item c = (r, 0);
  ci_sound : forall i, In i (map c_item loc) -> clos g (fun x => In x (map c_item b0)) i;
  ci_nodup : NoDup (map c_item loc);
  ci_D : forall j r, In (j, r) D -> exists cj A, nth_error loc j = Some cj /\
    after_dot g (c_item cj) = Some (ESym A) /\ lhs_is g r A /\ In (r, 0) (map c_item loc);
  ci_fplp : forall j cj x, nth_error loc j = Some cj ->
    (In x (c_fplp cj) <-> exists r p cp, In (j, r) D /\ nullable g (rest_after g (c_item cj)) /\
       nth_error loc p = Some cp /\ c_item cp = (r, 0) /\ x = n0 + p);
  ci_size : forall c, In c loc -> length (c_fws c) = first_set_size g;
  ci_fws : forall p c t, nth_error loc p = Some c ->
    (SetFind (c_fws c) t = true <->
       (exists c0, nth_error b0 p = Some c0 /\ SetFind (c_fws c0) t = true) \/
       (exists j cj r, In (j, r) D /\ nth_error loc j = Some cj /\ c_item c = (r, 0) /\
          first g (rest_after g (c_item cj)) t))
}.

Lemma NoDup_nth_item : forall (loc : list config) p q c d,
  NoDup (map c_item loc) -> nth_error loc p = Some c -> nth_error loc q = Some d ->
  c_item c = c_item d -> p = q.
Proof.
  intros loc p q c d ND Hp Hq E.
  rewrite NoDup_nth_error in ND. apply ND.
  - rewrite map_length. eapply nth_error_Some_lt; eauto.
  - rewrite !nth_error_map, Hp, Hq. simpl. now rewrite E.
Qed.

Lemma CInv_step : forall L pre b0 loc D j cj A r,
  cur_ok L pre loc -> CInv (length pre) b0 loc D ->
  nth_error loc j = Some cj -> after_dot g (c_item cj) = Some (ESym A) -> lhs_is g r A ->
  exists L' loc',
    closure_rule1 L (length pre + j) (rest_after g (c_item cj)) r = Ok L' /\
    cur_ok L' pre loc' /\ l_states L' = l_states L /\ l_basis L' = l_basis L /\
    CInv (length pre) b0 loc' (D ++ [(j, r)]) /\ length loc <= length loc' /\
    (forall q c, nth_error loc q = Some c ->
       exists c', nth_error loc' q = Some c' /\ c_item c' = c_item c).
Proof.
  intros L pre b0 loc D j cj A r CO CI Hj Ha Hl.
  destruct (closure_rule1_effect L pre loc j cj (rest_after g (c_item cj)) r)
    as (L' & loc0 & loc' & p & E & CO' & S' & B' & DD & (cp & Hp & Hi) & LL & Q); auto.
  { now apply rest_after_wf. }
  { apply CI. }
  exists L', loc'. split; [exact E|]. split; [auto|]. split; [auto|]. split; [auto|].
  assert (OLD : forall q c, nth_error loc q = Some c -> nth_error loc0 q = Some c).
  { intros q c Hq. destruct DD as [[-> _]|[-> _]]; auto.
    rewrite nth_error_app1; auto. eapply nth_error_Some_lt; eauto. }
  assert (INV0 : forall q c, nth_error loc0 q = Some c ->
     nth_error loc q = Some c \/ (q = p /\ q = length loc /\ c = newconfig g r 0 /\ ~ In (r, 0) (map c_item loc))).
  { intros q c Hq. destruct DD as [[-> _]|[-> [-> NI]]]; auto.
    destruct (lt_dec q (length loc)).
    - rewrite nth_error_app1 in Hq by auto. auto.
    - rewrite nth_error_app2 in Hq by lia.
      destruct (q - length loc) as [|[|]] eqn:Eq; simpl in Hq; try discriminate.
      inversion Hq; subst. right. repeat split; auto; lia. }
  assert (BACK : forall q c', nth_error loc' q = Some c' -> exists c, nth_error loc0 q = Some c /\
       c_item c' = c_item c /\ c_bplp c' = c_bplp c /\
       (forall x, In x (c_fplp c') <->
          In x (c_fplp c) \/ (q = j /\ nullable g (rest_after g (c_item cj)) /\ x = length pre + p)) /\
       length (c_fws c') = first_set_size g /\
       (forall t, SetFind (c_fws c') t = true <->
          SetFind (c_fws c) t = true \/ (q = p /\ first g (rest_after g (c_item cj)) t))).
  { intros q c' Hq. destruct (nth_error_lt_ex _ loc0 q) as [c Hc].
    { rewrite <- LL. eapply nth_error_Some_lt; eauto. }
    destruct (Q q c Hc) as (c'' & H1 & H2). rewrite Hq in H1. inversion H1; subst c''. eauto. }
  assert (ITEMS : map c_item loc' = map c_item loc0).
  { apply list_ext. intros n. rewrite !nth_error_map.
    destruct (nth_error loc' n) as [c'|] eqn:Hc'.
    - destruct (BACK n c' Hc') as (c & Hc & HI & _). rewrite Hc. simpl. now rewrite HI.
    - apply nth_error_None in Hc'. rewrite LL in Hc'. apply nth_error_None in Hc'. now rewrite Hc'. }
  assert (ND : NoDup (map c_item loc0)).
  { destruct DD as [[-> _]|[-> [_ NI]]]; [apply CI|].
    rewrite map_app. simpl. apply (NoDup_Add (a := c_item (newconfig g r 0)) (l := map c_item loc)).
    - pose proof (Add_app (c_item (newconfig g r 0)) (map c_item loc) []) as AA.
      rewrite app_nil_r in AA. exact AA.
    - split; auto. apply CI. }
  assert (Hp' : exists cp', nth_error loc' p = Some cp' /\ c_item cp' = (r, 0)).
  { destruct (Q p cp Hp) as (c' & H1 & H2 & _). exists c'. split; auto. congruence. }
  assert (FWD : forall q c, nth_error loc q = Some c -> exists c', nth_error loc' q = Some c' /\ c_item c' = c_item c).
  { intros q c Hq. destruct (Q q c (OLD q c Hq)) as (c' & H1 & H2 & _). eauto. }
  assert (LLE : length loc <= length loc').
  { rewrite LL. destruct DD as [[-> _]|[-> _]]; auto. rewrite app_length. lia. }
  split; [|split; auto].
  constructor.
  - (* basis *)
    intros q c0 Hq. destruct (ci_basis _ _ _ _ CI q c0 Hq) as (c & H1 & H2 & H3).
    destruct (Q q c (OLD q c H1)) as (c' & H4 & H5 & H6 & _). exists c'. split; auto. split; congruence.
  - (* new *)
    intros q c' Hq Hb. destruct (BACK q c' Hq) as (c & Hc & I1 & I2 & _).
    destruct (INV0 q c Hc) as [Ho|(-> & _ & -> & _)].
    + destruct (ci_new _ _ _ _ CI q c Ho Hb) as [H1 (j' & r' & H2 & H3)].
      split; [congruence|]. exists j', r'. split; [apply in_or_app; auto|congruence].
    + split; [rewrite I2; reflexivity|]. exists j, r. split; [apply in_or_app; simpl; auto|].
      rewrite I1. reflexivity.
  - (* sound *)
    intros i Hin. rewrite ITEMS in Hin. destruct DD as [[-> _]|[-> _]]; [apply CI; auto|].
    rewrite map_app in Hin. apply in_app_or in Hin as [Hin|[<-|[]]]; [apply CI; auto|].
    eapply clos_step; [|exact Ha|exact Hl]. apply (ci_sound _ _ _ _ CI).
    apply in_map. eapply nth_error_In; eauto.
  - rewrite ITEMS. exact ND.
  - (* D *)
    intros j' r' HD. apply in_app_or in HD as [HD|[HD|[]]].
    + destruct (ci_D _ _ _ _ CI j' r' HD) as (cj' & A' & H1 & H2 & H3 & H4).
      destruct (FWD _ _ H1) as (c' & H5 & H6). exists c', A'. split; auto. rewrite H6.
      split; auto. split; auto. rewrite ITEMS.
      destruct DD as [[-> _]|[-> _]]; auto. rewrite map_app. apply in_or_app. auto.
    + inversion HD; subst j' r'. destruct (FWD _ _ Hj) as (c' & H5 & H6).
      exists c', A. split; auto. rewrite H6. split; auto. split; auto.
      destruct Hp' as (cp' & H7 & H8). rewrite <- H8. apply in_map. eapply nth_error_In; eauto.
  - (* fplp *)
    intros j' c' x Hq. destruct (BACK j' c' Hq) as (c & Hc & I1 & I2 & I3 & _).
    rewrite I3.
    assert (PMAP : forall r0, (exists p0 cp0, nth_error loc p0 = Some cp0 /\ c_item cp0 = (r0, 0) /\ x = length pre + p0) ->
        exists p0 cp0, nth_error loc' p0 = Some cp0 /\ c_item cp0 = (r0, 0) /\ x = length pre + p0).
    { intros r0 (p0 & cp0 & H1 & H2 & H3). destruct (FWD _ _ H1) as (c1 & H4 & H5).
      exists p0, c1. split; auto. split; auto. congruence. }
    destruct (INV0 j' c Hc) as [Ho|(Ep & El & -> & NI)].
    + rewrite (ci_fplp _ _ _ _ CI j' c x Ho). split.
      * intros [(r0 & p0 & cp0 & H1 & H2 & H3 & H4 & H5)|(-> & H2 & ->)].
        -- destruct (PMAP r0) as (p1 & cp1 & H6 & H7 & H8); [eauto|].
           exists r0, p1, cp1. split; [apply in_or_app; auto|]. rewrite I1. auto.
        -- rewrite Ho in Hj. inversion Hj; subst c. destruct Hp' as (cp' & H7 & H8).
           exists r, p, cp'. split; [apply in_or_app; simpl; auto|]. rewrite I1. auto.
      * intros (r0 & p0 & cp0 & H1 & H2 & H3 & H4 & H5). rewrite I1 in H2.
        apply in_app_or in H1 as [H1|[H1|[]]].
        -- left. destruct (ci_D _ _ _ _ CI j' r0 H1) as (cj' & A' & _ & _ & _ & H6).
           apply in_map_iff in H6 as (c1 & H7 & H8). apply In_nth_error in H8 as [p1 H8].
           destruct (FWD _ _ H8) as (c2 & H9 & H10).
           assert (p0 = p1).
           { eapply (NoDup_nth_item loc'); [rewrite ITEMS; exact ND| exact H3|exact H9|congruence]. }
           subst p1. exists r0, p0, c1. split; [exact H1|]. split; [exact H2|]. split; [exact H8|]. split; [exact H7|exact H5].
        -- inversion H1; subst j' r0. right. split; auto. rewrite Ho in Hj. inversion Hj; subst c.
           split; auto. destruct Hp' as (cp' & H7 & H8).
           assert (p0 = p).
           { eapply (NoDup_nth_item loc'); [rewrite ITEMS; exact ND|exact H3|exact H7|congruence]. }
           congruence.
    + assert (NJ : j' <> j).
      { intros ->. apply nth_error_Some_lt in Hj. lia. }
      split.
      * intros [[]|[H _]]. contradiction.
      * intros (r0 & p0 & cp0 & H1 & _). apply in_app_or in H1 as [H1|[H1|[]]].
        -- destruct (ci_D _ _ _ _ CI j' r0 H1) as (cj' & A' & H2 & _).
           apply nth_error_Some_lt in H2. lia.
        -- inversion H1. congruence.
  - (* size *)
    intros c' Hc. apply In_nth_error in Hc as [q Hq]. destruct (BACK q c' Hq) as (c & _ & _ & _ & _ & H & _). auto.
  - (* fws *)
    intros q c' t Hq. destruct (BACK q c' Hq) as (c & Hc & I1 & I2 & _ & _ & I5).
    rewrite I5.
    destruct (INV0 q c Hc) as [Ho|(Ep & El & -> & NI)].
    + rewrite (ci_fws _ _ _ _ CI q c t Ho). split.
      * intros [[H|(j' & cj' & r' & H1 & H2 & H3 & H4)]|[-> H]].
        -- left. auto.
        -- right. destruct (FWD _ _ H2) as (c1 & H5 & H6). exists j', c1, r'.
           split; [apply in_or_app; auto|]. split; auto. split; [congruence|]. rewrite H6. auto.
        -- right. destruct (FWD _ _ Hj) as (c1 & H5 & H6). exists j, c1, r.
           split; [apply in_or_app; simpl; auto|]. split; auto. split.
           ++ rewrite I1. rewrite Hp in Hc. inversion Hc; subst. auto.
           ++ rewrite H6. auto.
      * intros [H|(j' & cj' & r' & H1 & H2 & H3 & H4)]; auto.
        apply in_app_or in H1 as [H1|[H1|[]]].
        -- left. right. destruct (ci_D _ _ _ _ CI j' r' H1) as (c1 & A' & H5 & _).
           exists j', c1, r'. split; auto. split; auto. split; [congruence|].
           destruct (FWD _ _ H5) as (c2 & H6 & H7). rewrite H2 in H6. inversion H6; subst c2.
           rewrite <- H7. auto.
        -- inversion H1; subst j' r'. right. destruct (FWD _ _ Hj) as (c1 & H5 & H6).
           rewrite H2 in H5. inversion H5; subst c1. rewrite <- H6. split; auto.
           destruct Hp' as (cp' & H7 & H8).
           eapply (NoDup_nth_item loc'); [rewrite ITEMS; exact ND|exact Hq|exact H7|congruence].
    + assert (NB : forall c0, nth_error b0 q = Some c0 -> False).
      { intros c0 H. destruct (ci_basis _ _ _ _ CI q c0 H) as (c1 & H1 & _).
        apply nth_error_Some_lt in H1. lia. }
      split.
      * intros [H|[_ H]].
        -- simpl in H. unfold newconfig in H. simpl in H. rewrite SetNew_find in H. discriminate.
        -- right. destruct (FWD _ _ Hj) as (c1 & H5 & H6). exists j, c1, r.
           split; [apply in_or_app; simpl; auto|]. split; auto. split; [rewrite I1; auto|].
           rewrite H6. auto.
      * intros [(c0 & H & _)|(j' & cj' & r' & H1 & H2 & H3 & H4)].
        -- exfalso. eapply NB; eauto.
        -- right. split; auto. rewrite I1 in H3. inversion H3; subst r'.
           apply in_app_or in H1 as [H1|[H1|[]]].
           ++ destruct (ci_D _ _ _ _ CI j' r H1) as (_ & _ & _ & _ & _ & H5). contradiction.
           ++ inversion H1; subst j'. destruct (FWD _ _ Hj) as (c1 & H5 & H6).
              rewrite H2 in H5. inversion H5; subst c1. rewrite <- H6. auto.
Qed.

Lemma closure_rules_ok : forall rs L pre b0 loc D j i A,
  cur_ok L pre loc -> CInv (length pre) b0 loc D ->
  nth_error (map c_item loc) j = Some i -> after_dot g i = Some (ESym A) ->
  (forall r, In r rs -> lhs_is g r A) ->
  exists L' loc',
    closure_rules g lam fs L (length pre + j) (rest_after g i) rs = Ok L' /\
    cur_ok L' pre loc' /\ l_states L' = l_states L /\ l_basis L' = l_basis L /\
    CInv (length pre) b0 loc' (D ++ map (fun r => (j, r)) rs) /\ length loc <= length loc' /\
    (forall q x, nth_error (map c_item loc) q = Some x -> nth_error (map c_item loc') q = Some x).
Proof.
  induction rs as [|r rs IH]; intros L pre b0 loc D j i A CO CI Hj Ha Hr.
  - exists L, loc. simpl. rewrite app_nil_r. split; [reflexivity|].
    split; [auto|]. split; [auto|]. split; [auto|]. split; [auto|]. split; auto.
  - rewrite closure_rules_cons.
    rewrite nth_error_map in Hj. destruct (nth_error loc j) as [cj|] eqn:Ej; [|discriminate].
    simpl in Hj. inversion Hj; subst i.
    destruct (CInv_step L pre b0 loc D j cj A r CO CI Ej Ha) as (L1 & loc1 & E1 & CO1 & S1 & B1 & CI1 & LE1 & M1).
    { apply Hr. simpl; auto. }
    rewrite E1. cbn [bind].
    assert (M1' : forall q x, nth_error (map c_item loc) q = Some x -> nth_error (map c_item loc1) q = Some x).
    { intros q x. rewrite !nth_error_map. destruct (nth_error loc q) as [c|] eqn:Eq; [|discriminate].
      simpl. intros Hx. inversion Hx; subst. destruct (M1 q c Eq) as (c' & Hc' & Hi).
      rewrite Hc'. simpl. congruence. }
    destruct (IH L1 pre b0 loc1 (D ++ [(j, r)]) j (c_item cj) A CO1 CI1) as (L2 & loc2 & E2 & CO2 & S2 & B2 & CI2 & LE2 & M2).
    + apply M1'. rewrite nth_error_map, Ej. reflexivity.
    + auto.
    + intros r' Hr'. apply Hr. simpl; auto.
    + exists L2, loc2. split; [exact E2|]. split; [auto|]. split; [congruence|]. split; [congruence|].
      split; [|split; [lia|intros; apply M2; auto]].
      simpl. rewrite <- app_assoc in CI2. exact CI2.
Qed.

(** [D] records exactly the pairs for positions below [n]. *)
Definition D_upto (loc : list config) (n : nat) (D : list (nat * nat)) : Prop :=
  forall j r, In (j, r) D <-> j < n /\ exists i A, nth_error (map c_item loc) j = Some i /\
    after_dot g i = Some (ESym A) /\ lhs_is g r A.

Lemma cinv_length : forall n0 b0 loc D, CInv n0 b0 loc D ->
  length b0 <= length loc <= length b0 + length (g_rules g).
Proof.
  intros n0 b0 loc D CI. split.
  - destruct (le_lt_dec (length b0) (length loc)) as [H|H]; auto.
    destruct (nth_error_lt_ex _ b0 (length loc) H) as [c Hc].
    destruct (ci_basis _ _ _ _ CI _ _ Hc) as (c' & Hc' & _).
    apply nth_error_Some_lt in Hc'. lia.
  - rewrite <- (firstn_skipn (length b0) loc) at 1. rewrite app_length.
    assert (H1 : length (firstn (length b0) loc) <= length b0) by apply firstn_le_length.
    assert (ND : NoDup (map c_item (skipn (length b0) loc))).
    { pose proof (ci_nodup _ _ _ _ CI) as ND. rewrite <- (firstn_skipn (length b0) loc), map_app in ND.
      now apply NoDup_app_r in ND. }
    assert (IN : incl (map c_item (skipn (length b0) loc))
                   (map (fun r => (r, 0)) (seq 0 (length (g_rules g))))).
    { intros x Hx. apply in_map_iff in Hx as (c & <- & Hc).
      apply In_nth_error in Hc as [p Hp].
      assert (Hp' : nth_error loc (length b0 + p) = Some c).
      { rewrite <- (firstn_skipn (length b0) loc).
        destruct (le_lt_dec (length b0) (length loc)) as [Hle|Hlt].
        - rewrite nth_error_app2; rewrite firstn_length_le by auto; [|lia].
          rewrite <- Hp. f_equal. lia.
        - rewrite skipn_all2 in Hp by lia. destruct p; discriminate. }
      destruct (ci_new _ _ _ _ CI _ _ Hp') as [_ (j & r & HD & ->)]; [lia|].
      apply in_map_iff. exists r. split; auto. apply in_seq.
      destruct (ci_D _ _ _ _ CI j r HD) as (cj & A & _ & _ & (rl & Hr & _) & _).
      unfold rule_of in Hr. apply nth_error_Some_lt in Hr. lia. }
    apply NoDup_incl_length in IN; auto. rewrite !map_length, seq_length in IN. lia.
Qed.

Lemma closure_loop_ok : forall fuel L pre b0 loc D i,
  cur_ok L pre loc -> CInv (length pre) b0 loc D -> D_upto loc i D ->
  (forall x, In x (map c_item loc) -> item_ok g x) ->
  i <= length loc -> length b0 + length (g_rules g) < i + fuel ->
  exists L' loc' D',
    closure_loop fuel g lam fs L i = Ok L' /\
    cur_ok L' pre loc' /\ l_states L' = l_states L /\ l_basis L' = l_basis L /\
    CInv (length pre) b0 loc' D' /\ D_upto loc' (length loc') D' /\
    (forall x, In x (map c_item loc') -> item_ok g x).
Proof.
  induction fuel as [|fuel IH]; intros L pre b0 loc D i CO CI DU OK Hi HF.
  - pose proof (cinv_length _ _ _ _ CI). assert (i > length loc) by lia. lia.
  - cbn [closure_loop]. destruct CO as [CO1 CO2].
    destruct (nth_error (l_current L) i) as [cfp|] eqn:Ec.
    + rewrite CO2 in Ec. assert (Hlt : i < length loc).
      { apply nth_error_Some_lt in Ec. rewrite seq_length in Ec. auto. }
      assert (Ecfp : cfp = length pre + i).
      { apply nth_error_Some_nth with (d := 0) in Ec. rewrite seq_nth in Ec by auto. auto. }
      subst cfp.
      destruct (nth_error_lt_ex _ loc i Hlt) as [ci Eci].
      assert (HIok : item_ok g (c_item ci)).
      { apply OK. apply in_map. eapply nth_error_In; eauto. }
      unfold closure_one. rewrite CO1, nth_error_app2 by lia.
      replace (length pre + i - length pre) with i by lia. rewrite Eci. cbn [opt bind].
      destruct HIok as (rl & Hrl & Hd). unfold rule_of in Hrl. simpl fst in Hrl. simpl snd in Hd.
      rewrite Hrl. cbn [opt bind].
      assert (AD : after_dot g (c_item ci) = nth_error (r_rhs rl) (c_dot ci)).
      { unfold after_dot, rule_of. simpl. now rewrite Hrl. }
      assert (RA : rest_after g (c_item ci) = skipn (S (c_dot ci)) (r_rhs rl)).
      { unfold rest_after, rule_of. simpl fst. rewrite Hrl. reflexivity. }
      assert (SAME : (forall A, after_dot g (c_item ci) = Some (ESym A) -> A < g_nterm g) ->
        exists L' loc' D', closure_loop fuel g lam fs L (S i) = Ok L' /\
          cur_ok L' pre loc' /\ l_states L' = l_states L /\ l_basis L' = l_basis L /\
          CInv (length pre) b0 loc' D' /\ D_upto loc' (length loc') D' /\
          (forall x, In x (map c_item loc') -> item_ok g x)).
      { intros HA. apply (IH L pre b0 loc D (S i)); auto; try lia.
        - split; auto.
        - intros j r. rewrite (DU j r). split.
          + intros [H1 H2]. split; [lia|auto].
          + intros [H1 (x & A & H2 & H3 & H4)]. split; [|eauto].
            destruct (Nat.eq_dec j i) as [->|]; [|lia]. exfalso.
            rewrite nth_error_map, Eci in H2. inversion H2; subst x.
            specialize (HA A H3). apply (lhs_is_nonterm g WF) in H4. unfold is_nonterm in H4. lia. }
      destruct (nth_error (r_rhs rl) (c_dot ci)) as [[sp|l]|] eqn:Esp.
      * destruct (Nat.ltb_spec sp (g_nterm g)) as [T|T].
        -- cbn [bind]. apply SAME. intros A HA. rewrite AD in HA. inversion HA; subst; auto.
        -- rewrite <- RA.
           destruct (closure_rules_ok (rules_of g sp) L pre b0 loc D i (c_item ci) sp)
             as (L1 & loc1 & E1 & C1 & S1 & B1 & CI1 & LE1 & M1); auto.
           { split; auto. }
           { rewrite nth_error_map, Eci. reflexivity. }
           { intros r. apply rules_of_In. }
           rewrite E1. cbn [bind].
           destruct (IH L1 pre b0 loc1 (D ++ map (fun r => (i, r)) (rules_of g sp)) (S i))
             as (L2 & loc2 & D2 & E2 & C2 & S2 & B2 & CI2 & DU2 & OK2); auto; try lia.
           { intros j r. rewrite in_app_iff, (DU j r), in_map_iff. split.
             - intros [[H1 (x & A & H2 & H3 & H4)]|(r' & H1 & H2)].
               + split; [lia|]. exists x, A. auto.
               + inversion H1; subst. split; [lia|]. exists (c_item ci), sp.
                 split; [apply M1; rewrite nth_error_map, Eci; reflexivity|].
                 split; auto. now apply rules_of_In.
             - intros [H1 (x & A & H2 & H3 & H4)]. destruct (Nat.eq_dec j i) as [->|].
               + right. exists r. split; auto. apply rules_of_In.
                 rewrite (M1 i (c_item ci)) in H2 by (rewrite nth_error_map, Eci; reflexivity).
                 inversion H2; subst x. rewrite AD in H3. inversion H3; subst. auto.
               + left. assert (j < i) by lia. split; auto. exists x, A.
                 destruct (nth_error_lt_ex _ (map c_item loc) j) as [y Hy]; [rewrite map_length; lia|].
                 rewrite (M1 _ _ Hy) in H2. inversion H2; subst. auto. }
           { intros x Hx. apply In_nth_error in Hx as [p Hp].
             destruct (nth_error (map c_item loc) p) as [y|] eqn:Ey.
             - rewrite (M1 _ _ Ey) in Hp. inversion Hp; subst. apply OK. eapply nth_error_In; eauto.
             - rewrite nth_error_map in Hp. destruct (nth_error loc1 p) as [c1|] eqn:E3; [|discriminate].
               simpl in Hp. inversion Hp; subst x.
               apply nth_error_None in Ey. rewrite map_length in Ey.
               pose proof (cinv_length _ _ _ _ CI).
               destruct (ci_new _ _ _ _ CI1 p c1 E3) as [_ (j & r & HD & ->)]; [lia|].
               destruct (ci_D _ _ _ _ CI1 j r HD) as (_ & A & _ & _ & HL & _).
               eapply lhs_is_ok; eauto. }
           exists L2, loc2, D2. split; [exact E2|]. split; [auto|]. split; [congruence|].
           split; [congruence|]. auto.
      * cbn [bind]. apply SAME. intros A HA. rewrite AD in HA. discriminate.
      * cbn [bind]. apply SAME. intros A HA. rewrite AD in HA. discriminate.
    + assert (Heq : i = length loc).
      { rewrite CO2 in Ec. apply nth_error_None in Ec. rewrite seq_length in Ec. lia. }
      exists L, loc, D. split; [reflexivity|]. split; [split; auto|]. split; [auto|]. split; [auto|].
      split; [auto|]. subst i. auto.
Qed.

(** What Configlist_closure establishes. *)
Record CSpec (n0 : nat) (b0 loc : list config) : Prop := {
  cs_len : length b0 <= length loc;
  cs_basis : forall p c0, nth_error b0 p = Some c0 ->
    exists c, nth_error loc p = Some c /\ c_item c = c_item c0 /\ c_bplp c = c_bplp c0;
  cs_new : forall p c, nth_error loc p = Some c -> length b0 <= p -> c_bplp c = [];
  cs_nodup : NoDup (map c_item loc);
  cs_items : forall i, In i (map c_item loc) <-> clos g (fun x => In x (map c_item b0)) i;
  cs_fplp : forall j cj x, nth_error loc j = Some cj ->
    (In x (c_fplp cj) <-> exists A r p cp, after_dot g (c_item cj) = Some (ESym A) /\
       lhs_is g r A /\ nullable g (rest_after g (c_item cj)) /\
       nth_error loc p = Some cp /\ c_item cp = (r, 0) /\ x = n0 + p);
  cs_size : forall c, In c loc -> length (c_fws c) = first_set_size g;
  cs_fws : forall p c t, nth_error loc p = Some c ->
    (SetFind (c_fws c) t = true <->
       (exists c0, nth_error b0 p = Some c0 /\ SetFind (c_fws c0) t = true) \/
       (exists i A r, In i (map c_item loc) /\ after_dot g i = Some (ESym A) /\ lhs_is g r A /\
          c_item c = (r, 0) /\ first g (rest_after g i) t))
}.

Lemma Configlist_closure_ok : forall L pre b0,
  cur_ok L pre b0 -> NoDup (map c_item b0) ->
  (forall c, In c b0 -> item_ok g (c_item c) /\ c_fplp c = [] /\ length (c_fws c) = first_set_size g) ->
  exists L' loc,
    Configlist_closure g lam fs L = Ok L' /\
    cur_ok L' pre loc /\ l_states L' = l_states L /\ l_basis L' = l_basis L /\
    CSpec (length pre) b0 loc.
Proof.
  intros L pre b0 CO ND HB. unfold Configlist_closure.
  destruct (closure_loop_ok (S (length (l_current L) + length (g_rules g))) L pre b0 b0 [] 0)
    as (L' & loc & D & E & C & S & B & CI & DU & OK).
  - auto.
  - constructor; auto.
    + intros p c0 H. exists c0. auto.
    + intros p c H1 H2. apply nth_error_Some_lt in H1. lia.
    + intros i Hin. now apply clos_base.
    + intros j r [].
    + intros j cj x H. split.
      * rewrite (proj1 (proj2 (HB cj (nth_error_In _ _ H)))). intros [].
      * intros (r & p & cp & [] & _).
    + intros c H. apply HB. auto.
    + intros p c t H. split.
      * intros Hf. left. eauto.
      * intros [(c0 & H1 & H2)|(j & cj & r & [] & _)]. congruence.
  - intros j r. split; [intros []|]. intros [H _]. lia.
  - intros x Hx. apply in_map_iff in Hx as (c & <- & Hc). apply HB. auto.
  - lia.
  - destruct CO as [_ CO]. rewrite CO, seq_length. lia.
  - exists L', loc. split; [exact E|]. split; [auto|]. split; [auto|]. split; [auto|].
    assert (DU' : forall j r, In (j, r) D <-> exists i A, nth_error (map c_item loc) j = Some i /\
        after_dot g i = Some (ESym A) /\ lhs_is g r A).
    { intros j r. rewrite (DU j r). split; [intros [_ H]; auto|]. intros (i & A & H1 & H2).
      split; [|eauto]. apply nth_error_Some_lt in H1. rewrite map_length in H1. auto. }
    constructor.
    + apply cinv_length in CI. lia.
    + apply CI.
    + intros p c H1 H2. eapply ci_new; eauto.
    + apply CI.
    + intros i. split.
      * apply (ci_sound _ _ _ _ CI).
      * intros H. induction H as [i H|i A r H IH Ha Hl].
        -- apply in_map_iff in H as (c0 & <- & Hc). apply In_nth_error in Hc as [p Hp].
           destruct (ci_basis _ _ _ _ CI p c0 Hp) as (c' & H1 & H2 & _).
           rewrite <- H2. apply in_map. eapply nth_error_In; eauto.
        -- apply In_nth_error in IH as [j Hj].
           assert (HD : In (j, r) D) by (apply DU'; eauto).
           destruct (ci_D _ _ _ _ CI j r HD) as (_ & _ & _ & _ & _ & H1). auto.
    + intros j cj x Hj. rewrite (ci_fplp _ _ _ _ CI j cj x Hj). split.
      * intros (r & p & cp & HD & N & H1 & H2 & H3). apply DU' in HD as (i & A & H4 & H5 & H6).
        rewrite nth_error_map, Hj in H4. inversion H4; subst i. exists A, r, p, cp. auto 12.
      * intros (A & r & p & cp & H5 & H6 & N & H1 & H2 & H3). exists r, p, cp.
        split; auto 12. apply DU'. exists (c_item cj), A. rewrite nth_error_map, Hj. auto 12.
    + apply CI.
    + intros p c t Hp. rewrite (ci_fws _ _ _ _ CI p c t Hp). split.
      * intros [H|(j & cj & r & HD & H1 & H2 & H3)]; auto 12. right.
        apply DU' in HD as (i & A & H4 & H5 & H6). rewrite nth_error_map, H1 in H4. inversion H4; subst i.
        exists (c_item cj), A, r. split; [|auto 12]. apply in_map. eapply nth_error_In; eauto.
      * intros [H|(i & A & r & HI & H1 & H2 & H3 & H4)]; auto 12. right.
        apply In_nth_error in HI as [j Hj]. rewrite nth_error_map in Hj.
        destruct (nth_error loc j) as [cj|] eqn:Ej; [|discriminate]. inversion Hj; subst i.
        exists j, cj, r. split; [|auto 12]. apply DU'. exists (c_item cj), A. rewrite nth_error_map, Ej. auto 12.
Qed.
End P.
