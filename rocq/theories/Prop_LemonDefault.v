(** C12, continued: which states get a default reduction from CompressTables, and by
    which rule. *)
From Coq Require Import List ZArith NArith Bool Lia Arith Permutation.
Import ListNotations.
From Verif Require Import Base CLib SpecGrammar LemonSetModel LemonSortModel LemonStatesModel LemonActionModel LemonActionProof LemonCompressModel LemonCompressProof.
Local Open Scope res_scope.

(** The rules of the reduce actions of a list, one entry for each. *)
Definition reduced (l : list action) : list nat := flat_map (fun a => match a_type a with REDUCE => [a_arg a] | _ => [] end) l.

(** In how many entries of the list the rule is reduced. *)
Definition times (r : nat) (l : list action) : nat := count_occ Nat.eq_dec (reduced l) r.

(** A rule of the start symbol. *)
Definition start_rule (g : grammar) (r : nat) : Prop := exists rl, nth_error (g_rules g) r = Some rl /\ r_lhs rl = g_start g.

(** The state shifts the wildcard token. *)
Definition shifts_wildcard (wild : option nat) (l : list action) : Prop := exists w q, wild = Some w /\ In (mkAction SHIFT w q) l.

Lemma start_rule_iff : forall g r, lhsStart g r = true <-> start_rule g r.
Proof.
  intros g r. unfold lhsStart, start_rule. destruct (nth_error (g_rules g) r) as [rl|] eqn:E.
  - rewrite Nat.eqb_eq. split; [eauto|]. intros (x & H & <-). inversion H; subst. auto.
  - split; [discriminate|]. intros (x & H & _). discriminate.
Qed.

Lemma times_filter : forall r l, times r l = length (filter (fun a => is_reduce a r) l).
Proof.
  intros r l. unfold times, reduced. induction l as [|a l IH]; auto. cbn [flat_map filter]. rewrite count_occ_app, IH. unfold is_reduce at 2.
  destruct (a_type a); try reflexivity. cbn [count_occ]. destruct (Nat.eq_dec (a_arg a) r) as [->|N].
  - rewrite Nat.eqb_refl. reflexivity.
  - apply Nat.eqb_neq in N. rewrite N. reflexivity.
Qed.

Lemma times_app : forall r l l', times r (l ++ l') = times r l + times r l'.
Proof. intros r l l'. unfold times, reduced. rewrite flat_map_app, count_occ_app. reflexivity. Qed.

Lemma times_cons : forall r a l, times r (a :: l) = (if is_reduce a r then 1 else 0) + times r l.
Proof. intros r a l. rewrite !times_filter. cbn [filter]. destruct (is_reduce a r); reflexivity. Qed.

Lemma times_In : forall r l, 0 < times r l -> exists t, In (mkAction REDUCE t r) l.
Proof.
  intros r l. induction l as [|[ty s x] l IH]; [cbn; lia|]. rewrite times_cons. destruct (is_reduce (mkAction ty s x) r) eqn:E.
  - intros _. apply is_reduce_iff in E as (T & A). cbn in T, A. subst. exists s. left. auto.
  - intros H. destruct IH as (t & I); [lia|]. exists t. right. auto.
Qed.

Lemma In_times : forall r t l, In (mkAction REDUCE t r) l -> 0 < times r l.
Proof.
  intros r t l. induction l as [|a l IH]; [intros []|]. intros [->|I]; rewrite times_cons.
  - unfold is_reduce. cbn. rewrite Nat.eqb_refl. lia.
  - specialize (IH I). lia.
Qed.

(** The choice of the most frequent rule. *)
Lemma find_best_best : forall g w l pre all n0 r0 u0 n r u, all = pre ++ l ->
  find_best g w l n0 r0 u0 = (n, r, u) ->
  match r0 with Some b => lhsStart g b = false /\ n0 = times b all /\ 0 < n0 | None => n0 = 0 end ->
  (forall b, lhsStart g b = false -> 0 < times b pre -> times b all <= n0) ->
  (match r with Some b => lhsStart g b = false /\ n = times b all /\ 0 < n | None => n = 0 end) /\
  (forall b, lhsStart g b = false -> times b all <= n) /\
  (u = true <-> u0 = true \/ shifts_wildcard w l).
Proof.
  intros g w. induction l as [|x l IH]; intros pre all n0 r0 u0 n r u EA H INV PRE; cbn [find_best] in H.
  - injection H as <- <- <-. split; auto. split.
    + intros b Hb. destruct (Nat.eq_dec (times b all) 0) as [Z|Z]; [lia|]. apply PRE; auto. rewrite EA, app_nil_r in Z. lia.
    + split; [auto|]. intros [X|(v & q & _ & [])]. auto.
  - set (u1 := match a_type x, w with SHIFT, Some w => u0 || (a_sp x =? w) | _, _ => u0 end) in *.
    assert (U : forall v, (v = true <-> u1 = true \/ shifts_wildcard w l) -> (v = true <-> u0 = true \/ shifts_wildcard w (x :: l))).
    { intros v ->. unfold u1, shifts_wildcard. destruct x as [ty s q]. cbn [a_type a_sp]. split.
      - intros [X|(k & q' & E & I)]; [|right; exists k, q'; split; [auto|right; auto]].
        destruct ty; auto. destruct w as [k|]; auto. apply orb_true_iff in X as [X|X]; auto. apply Nat.eqb_eq in X. subst s. right. exists k, q. split; auto. left. auto.
      - intros [X|(k & q' & E & [I|I])].
        + left. rewrite X. destruct ty; auto. destruct w; auto.
        + inversion I; subst. left. rewrite Nat.eqb_refl, orb_true_r. auto.
        + right. eauto. }
    assert (EA' : all = (pre ++ [x]) ++ l) by (rewrite <- app_assoc; exact EA).
    assert (SKIP : (forall b, lhsStart g b = false -> is_reduce x b = true -> times b all <= n0) -> find_best g w l n0 r0 u1 = (n, r, u) ->
      (match r with Some b => lhsStart g b = false /\ n = times b all /\ 0 < n | None => n = 0 end) /\
      (forall b, lhsStart g b = false -> times b all <= n) /\ (u = true <-> u0 = true \/ shifts_wildcard w (x :: l))).
    { intros NX H1. destruct (IH _ _ _ _ _ _ _ _ EA' H1 INV) as (A & B & C).
      - intros b Hb T. rewrite times_app, times_cons in T. destruct (is_reduce x b) eqn:R; [apply NX; auto|]. apply PRE; auto. cbn in T. change (times b []) with 0 in T. lia.
      - auto. }
    assert (NOTRED : a_type x <> REDUCE -> forall b, lhsStart g b = false -> is_reduce x b = true -> times b all <= n0).
    { intros T b _ R. apply is_reduce_iff in R as (R & _). congruence. }
    destruct (a_type x) eqn:T; try (apply SKIP; [apply NOTRED; discriminate|exact H]).
    destruct (lhsStart g (a_arg x)) eqn:LS.
    { apply SKIP; auto. intros b Hb R. apply is_reduce_iff in R as (_ & <-). congruence. }
    destruct (match r0 with Some b => a_arg x =? b | None => false end) eqn:SAME.
    { apply SKIP; auto. intros b Hb R. apply is_reduce_iff in R as (_ & R). destruct r0 as [b0|]; [|discriminate].
      apply Nat.eqb_eq in SAME. destruct INV as (_ & E0 & _). rewrite <- R, SAME. lia. }
    rewrite <- times_filter in H.
    assert (TX : times (a_arg x) all = times (a_arg x) pre + S (times (a_arg x) l)).
    { rewrite EA, times_app, times_cons. unfold is_reduce. rewrite T, Nat.eqb_refl. lia. }
    destruct (Nat.ltb_spec n0 (S (times (a_arg x) l))) as [LT|GE].
    + assert (P0 : times (a_arg x) pre = 0).
      { destruct (Nat.eq_dec (times (a_arg x) pre) 0) as [Z|Z]; auto. pose proof (PRE (a_arg x) LS). lia. }
      destruct (IH _ all _ _ _ _ _ _ EA' H) as (A & B & C).
      * split; auto. split; [lia|]. lia.
      * intros b Hb Tb. rewrite times_app, times_cons in Tb. change (times b []) with 0 in Tb.
        destruct (is_reduce x b) eqn:R; [apply is_reduce_iff in R as (_ & <-); lia|]. specialize (PRE b Hb). lia.
      * auto.
    + apply SKIP; auto. intros b Hb R. apply is_reduce_iff in R as (_ & <-).
      destruct (Nat.eq_dec (times (a_arg x) pre) 0) as [Z|Z]; [lia|]. apply PRE; auto. lia.
Qed.

Lemma unit_loop_red : forall fuel g ri l i l', unit_loop fuel g ri l i = Ok l' ->
  map a_sp l' = map a_sp l /\ (forall a, a_type a <> SHIFTREDUCE -> In a l -> In a l').
Proof.
  induction fuel as [|f IH]; intros g ri l i l' H; cbn [unit_loop] in H.
  - destruct (nth_error l i); [discriminate|]. inversion H; subst. auto.
  - destruct (nth_error l i) as [ap|] eqn:EI; [|inversion H; subst; auto].
    destruct (a_type ap) eqn:T; try (apply (IH _ _ _ _ _ H)).
    apply bind_Ok in H as (rp & HR & H). destruct (ri_noCode ri (a_arg ap)); cbn [negb] in H; [|apply (IH _ _ _ _ _ H)].
    destruct (length (r_rhs rp) =? 1); cbn [negb] in H; [|apply (IH _ _ _ _ _ H)].
    destruct (a_sp ap <? g_nterm g); [apply (IH _ _ _ _ _ H)|].
    apply bind_Ok in H as (ap2 & HF & H). apply IH in H as (A & B). split.
    + rewrite A. clear - EI. revert i EI. induction l as [|x l IHl]; intros [|i] EI; cbn in *; try discriminate.
      * inversion EI; subst. reflexivity.
      * f_equal. apply IHl. auto.
    + intros a Ta Ia. apply B; auto. assert (NE : a <> ap) by congruence. clear - EI Ia NE.
      revert i EI. induction l as [|x l IHl]; intros [|i] EI; cbn in *; try discriminate.
      * inversion EI; subst. destruct Ia; [congruence|auto].
      * destruct Ia as [Ia|Ia]; [auto|]. right. apply IHl; auto.
Qed.

(** A state that shifts the wildcard, and a state with no reductions but by rules of
    the start symbol, gets no default and keeps all its reductions.  Every other
    state gets a default reduction, by a rule which no other rule exceeds in number
    of reductions (rules of the start symbol aside), and keeps its reductions by
    other rules. *)
Theorem C12_default : forall fuel addr wild g ri aps xs q ap l au,
  CompressTables fuel addr wild g ri aps = Ok xs -> nth_error aps q = Some ap -> nth_error xs q = Some (l, au) ->
  (forall a, In a ap -> a_sp a < g_nsym g) -> (N.of_nat (length ap) < 2 ^ 30)%N ->
  (shifts_wildcard wild ap \/ (forall t r, In (mkAction REDUCE t r) ap -> start_rule g r) ->
     au = None /\ (forall t r, In (mkAction REDUCE t r) ap -> In (mkAction REDUCE t r) l) /\ (forall a, In a l -> a_sp a <> g_nsym g)) /\
  (~ shifts_wildcard wild ap -> (exists t r, In (mkAction REDUCE t r) ap /\ ~ start_rule g r) ->
     exists r, In (mkAction REDUCE (g_nsym g) r) l /\ ~ start_rule g r /\ 0 < times r ap /\ (au = None \/ au = Some r) /\
       (forall r', ~ start_rule g r' -> times r' ap <= times r ap) /\
       (forall t r', r' <> r -> In (mkAction REDUCE t r') ap -> In (mkAction REDUCE t r') l)).
Proof.
  intros fuel addr wild g ri aps xs q ap l au H HA HX SP SZ. unfold CompressTables in H. apply bind_Ok in H as (ys & HY & H). cbv zeta in H.
  destruct (compress1_all_nth _ _ _ _ _ _ HY) as (LY & PY). destruct (PY q ap HA) as ([l1 au1] & HQ & C1). cbn [Nat.add] in C1.
  destruct (unit_all_nth _ _ _ _ _ H) as (LX & PX).
  set (auto := fun q => match nth_error ys q with Some (_, a) => a | None => None end) in *.
  destruct (PX q (map (shiftreduce auto) l1) au1) as (l' & HX' & UL). { rewrite nth_error_map, HQ. reflexivity. }
  rewrite HX in HX'. injection HX' as <- <-. apply unit_loop_red in UL as (MS & KP).
  assert (MS1 : map a_sp l = map a_sp l1). { rewrite MS, map_map. apply map_ext. apply shiftreduce_sp. }
  assert (KR : forall t r, In (mkAction REDUCE t r) l1 -> In (mkAction REDUCE t r) l).
  { intros t r I. apply KP; [discriminate|]. apply (in_map (shiftreduce auto)) in I. exact I. }
  unfold compress1 in C1. destruct (find_best g wild ap 0 None false) as [[nb rb] uw] eqn:FB.
  assert (PR0 : forall b, lhsStart g b = false -> 0 < times b [] -> times b ap <= 0) by (intros b _ X; cbn in X; lia).
  destruct (find_best_best g wild ap [] ap _ _ _ _ _ _ eq_refl FB eq_refl PR0) as (F1 & F2 & F3).
  assert (NS : forall r, ~ start_rule g r <-> lhsStart g r = false).
  { intros r. rewrite <- start_rule_iff. destruct (lhsStart g r); split; congruence. }
  assert (STAY : l1 = ap -> au = None -> au = None /\ (forall t r, In (mkAction REDUCE t r) ap -> In (mkAction REDUCE t r) l) /\ (forall a, In a l -> a_sp a <> g_nsym g)).
  { intros -> AU. split; auto. split; auto. intros a I E. apply (in_map a_sp) in I. rewrite MS1 in I. apply in_map_iff in I as (b & Eb & Ib). specialize (SP b Ib). lia. }
  destruct rb as [r|].
  - destruct F1 as (G1 & G2 & G3). destruct (Nat.ltb_spec nb 1) as [LT|_]; [lia|]. cbn [orb] in C1. destruct uw.
    + injection C1 as <- <-. split; [auto|]. intros NW. exfalso. apply NW. destruct F3 as (F3 & _). destruct (F3 eq_refl) as [X|X]; [discriminate|auto].
    + apply bind_Ok in C1 as (l0 & MD & C1). injection C1 as <- <-. destruct (make_default_spec _ _ _ _ MD) as (L & A & _ & C & _).
      pose proof (Action_sort_perm (addr q) l0) as P. rewrite L in P. specialize (P SZ). apply Permutation_sym in P. split.
      * intros [W|ALL]; exfalso; [destruct F3 as (_ & F3); discriminate F3; auto|].
        destruct (times_In r ap) as (t & I); [lia|]. apply ALL in I. apply start_rule_iff in I. congruence.
      * intros _ _. exists r. split; [apply KR; eapply Permutation_in; eauto|]. split; [apply NS; auto|]. split; [lia|]. split.
        { destruct (existsb (keeps r) _); auto. }
        split.
        { intros r' N. apply NS in N. rewrite <- G2. auto. }
        intros t r' N I. apply KR. eapply Permutation_in; [exact P|]. apply C; auto. unfold is_reduce. cbn. apply Nat.eqb_neq. auto.
  - injection C1 as <- <-. split; [auto|]. intros _ (t & r & I & N). exfalso. apply NS in N. specialize (F2 r N). apply In_times in I. lia.
Qed.
Print Assumptions C12_default.

(** s ::= a W | a b.  a ::= ID.  b ::= X | .  with terminals 1 ID, 2 X, 3 W; 4 s, 5 a, 6 b:
    the state after ID gets the default a ::= ID ; with W as the wildcard the state
    after a keeps its reduction by b ::= (rule 4) on the end of input only. *)
Definition exg12d : grammar := mkGrammar 4 7
  [mkRule 4 [ESym 5; ESym 3]; mkRule 4 [ESym 5; ESym 6]; mkRule 5 [ESym 1]; mkRule 6 [ESym 2]; mkRule 6 []] 4.
Definition exaps12d : list (list action) :=
  [[mkAction SHIFT 1 2; mkAction ACCEPT 4 0; mkAction SHIFT 5 1];
   [mkAction REDUCE 0 4; mkAction SHIFT 2 3; mkAction SHIFT 3 4; mkAction SHIFT 6 5];
   [mkAction REDUCE 0 2; mkAction REDUCE 2 2; mkAction REDUCE 3 2]; [mkAction REDUCE 0 3]; [mkAction REDUCE 0 0]; [mkAction REDUCE 0 1]].

Example C12_default_ex :
  (exists xs, CompressTables 20 (fun _ i => i) (Some 3) exg12d (mkRinfo (fun _ => false) (fun r => r)) exaps12d = Ok xs /\
    nth_error xs 1 = Some ([mkAction REDUCE 0 4; mkAction SHIFTREDUCE 2 3; mkAction SHIFT 3 4; mkAction SHIFT 6 5], None)) /\
  (exists xs, CompressTables 20 (fun _ i => i) None exg12d (mkRinfo (fun _ => false) (fun r => r)) exaps12d = Ok xs /\
    nth_error xs 1 = Some ([mkAction SHIFTREDUCE 2 3; mkAction SHIFT 3 4; mkAction SHIFT 6 5; mkAction REDUCE 7 4], None)) /\
  shifts_wildcard (Some 3) (nth 1 exaps12d []) /\ ~ shifts_wildcard None (nth 1 exaps12d []) /\
  (forall a, In a (nth 1 exaps12d []) -> a_sp a < g_nsym exg12d) /\ ~ start_rule exg12d 4 /\ times 4 (nth 1 exaps12d []) = 1.
Proof.
  split; [eexists; split; vm_compute; reflexivity|]. split; [eexists; split; vm_compute; reflexivity|].
  split; [exists 3, 4; cbn; auto|]. split; [intros (w & q & E & _); discriminate|].
  split. { cbn. intros a I. repeat destruct I as [<-|I]; cbn; try lia. }
  split; [|reflexivity]. intros (rl & E & F). cbn in E. inversion E; subst. discriminate.
Qed.
