(** byacc/lalr.c: build_relations and compute_lookaheads. *)
From Coq Require Import List Arith NArith ZArith Lia Bool Sorted FinFun.
Import ListNotations.
From Verif Require Import Base SpecGrammar SpecGrammarFacts SpecLRFacts SpecByacc ByaccWarshallModel ByaccWarshallProof ByaccLr0Model ByaccPackProof
  ByaccClosureProof ByaccNullProof ByaccLr0Proof ByaccStatesProof ByaccLalrModel ByaccDigraphProof ByaccTransposeProof ByaccLookSem ByaccGotoProof ByaccReadProof.
Open Scope res_scope.

(** ** set_maxrhs *)
Lemma maxrhs_ge : forall it len max, max <= maxrhs_loop it len max.
Proof.
  induction it as [|x it IH]; intros len max; cbn [maxrhs_loop]; [auto|]. destruct (0 <=? x)%Z; [auto|].
  etransitivity; [|apply IH]. lia.
Qed.
Lemma maxrhs_run : forall it d len max, (forall i, i < d -> exists z, nth_error it i = Some z /\ (0 <= z)%Z) ->
  (exists z, nth_error it d = Some z /\ (z < 0)%Z) -> len + d <= maxrhs_loop it len max.
Proof.
  induction it as [|x it IH]; intros d len max H (z & E & N); [destruct d; discriminate|]. cbn [maxrhs_loop]. destruct d as [|d].
  - cbn in E. inversion E; subst. replace (0 <=? z)%Z with false by (symmetry; apply Z.leb_gt; auto).
    etransitivity; [|apply maxrhs_ge]. lia.
  - destruct (H 0 ltac:(lia)) as (y & Ey & Py). cbn in Ey. inversion Ey; subst. replace (0 <=? y)%Z with true by (symmetry; apply Z.leb_le; auto).
    replace (len + S d) with (S len + d) by lia. apply IH; [|eauto]. intros i Hi. apply (H (S i)). lia.
Qed.
Lemma maxrhs_at : forall it k d len max, (forall i, i < d -> exists z, nth_error it (k + i) = Some z /\ (0 <= z)%Z) ->
  (exists z, nth_error it (k + d) = Some z /\ (z < 0)%Z) -> d <= maxrhs_loop it len max.
Proof.
  induction it as [|x it IH]; intros k d len max H (z & E & N); [destruct (k + d); discriminate|]. destruct k as [|k].
  - assert (len + d <= maxrhs_loop (x :: it) len max) by (apply maxrhs_run; eauto). lia.
  - cbn [maxrhs_loop]. destruct (0 <=? x)%Z; (apply (IH k); [intros i Hi; apply (H i Hi)|exists z; auto]).
Qed.

(** ** lookaheads and LAruleno *)
Definition rlen (o : option (list nat)) : nat := length (row o).
Lemma la_starts_S : forall reds k q o, nth_error reds q = Some o -> exists a, nth_error (la_starts reds k) q = Some (k + a) /\
  nth_error (la_starts reds k) (S q) = Some (k + a + rlen o) /\ (forall i, i < rlen o -> nth_error (la_rules reds) (a + i) = nth_error (row o) i) /\
  a + rlen o <= length (la_rules reds).
Proof.
  induction reds as [|o' reds IH]; intros k q o H; [destruct q; discriminate|]. cbn [la_starts].
  assert (E : la_rules (o' :: reds) = row o' ++ la_rules reds) by reflexivity. rewrite E.
  assert (F : match o' with Some l => length l | None => 0 end = rlen o') by (destruct o'; reflexivity). rewrite F. destruct q as [|q].
  - cbn in H. inversion H; subst. exists 0. rewrite Nat.add_0_r. split; [reflexivity|]. split.
    + destruct reds; reflexivity.
    + split; [|rewrite app_length; unfold rlen; lia]. intros i Hi. cbn [Nat.add]. now rewrite nth_error_app1.
  - cbn [nth_error] in H |- *. destruct (IH (k + rlen o') q o H) as (a & A1 & A2 & A3 & A4). exists (rlen o' + a).
    split; [rewrite A1; f_equal; lia|]. split; [change (nth_error (la_starts reds (k + rlen o')) (S q) = Some (k + (rlen o' + a) + rlen o)); rewrite A2; f_equal; lia|].
    split; [|rewrite app_length; unfold rlen in *; lia].
    intros i Hi. rewrite <- A3 by auto. unfold rlen. rewrite nth_error_app2 by lia. f_equal. lia.
Qed.
Lemma la_starts_length : forall reds k, length (la_starts reds k) = S (length reds).
Proof. induction reds as [|o r IH]; intros k; [reflexivity|]. cbn [la_starts length]. now rewrite IH. Qed.
Lemma la_starts_sep : forall reds k q q' o a a', q < q' -> nth_error reds q = Some o -> nth_error (la_starts reds k) q = Some a ->
  nth_error (la_starts reds k) q' = Some a' -> a + rlen o <= a'.
Proof.
  assert (LB : forall reds k q a, nth_error (la_starts reds k) q = Some a -> k <= a).
  { induction reds as [|o r IH]; intros k [|q] a H; cbn in H; inversion H; subst; auto; [destruct q; discriminate|]. apply IH in H. lia. }
  induction reds as [|o' r IH]; intros k q q' o a a' L H H1 H2; [destruct q; discriminate|]. destruct q' as [|q']; [lia|]. destruct q as [|q].
  - cbn in H, H1. inversion H; inversion H1; subst. cbn [la_starts nth_error] in H2. apply LB in H2.
    destruct o; cbn in *; lia.
  - cbn [la_starts nth_error] in *. eapply (IH _ q q'); eauto. lia.
Qed.
Lemma la_rules_cover : forall reds k j, j < length (la_rules reds) -> exists q o a i, nth_error reds q = Some o /\
  nth_error (la_starts reds k) q = Some (k + a) /\ j = a + i /\ i < rlen o.
Proof.
  induction reds as [|o' r IH]; intros k j H; [cbn in H; lia|].
  assert (E : la_rules (o' :: r) = row o' ++ la_rules r) by reflexivity. rewrite E, app_length in H.
  assert (F : match o' with Some l => length l | None => 0 end = rlen o') by (destruct o'; reflexivity).
  destruct (Nat.lt_ge_cases j (length (row o'))) as [L|L].
  - exists 0, o', 0, j. cbn. rewrite Nat.add_0_r. auto.
  - destruct (IH (k + rlen o') (j - length (row o'))) as (q & o & a & i & A1 & A2 & A3 & A4); [lia|].
    exists (S q), o, (rlen o' + a), i. cbn [la_starts nth_error]. rewrite F, A2. repeat split; auto; [f_equal; lia|unfold rlen in *; lia].
Qed.

Lemma forallb_neg : forall (f : nat -> bool) l, forallb f l <> true -> exists x, In x l /\ f x = false.
Proof.
  induction l as [|x l IH]; cbn [forallb]; intros H; [congruence|]. destruct (f x) eqn:E; [|exists x; split; [now left|auto]].
  destruct IH as (y & I & F); [exact H|]. exists y. split; [now right|auto].
Qed.

Section Look.
Variable s : bsrc.
Hypothesis W : wf_src s.
Variable st : lr0st.
Hypothesis LO : lr0_ok s st.
Local Notation b := (pack_grammar s).
Local Notation G := (aug s).
Local Notation go := (go st).
Local Notation path := (path st).
Local Notation prl := (prl s).
Local Notation sitem := (sitem s st).
Local Notation nst := (nst st).
Local Notation acc := (acc st).
Local Notation nt := (b_ntokens s).
Local Notation ts := (WORDSIZE BPW (ntokens b)).
Local Notation fs := (fs ts).
Variable g : gotos.
Hypothesis GO : goto_ok s st g.
Local Notation gt := (gt s st g).
Variable nl : list bool.
Hypothesis NLl : length nl = b_nsyms s.
Hypothesis NL : forall x, x < b_nsyms s -> x <> nt -> (nth x nl false = true <-> nullable G [ESym x]).
Variable sht : list (option (list nat)).
Hypothesis SHl : length sht = nst.
Hypothesis SH : forall p, p < nst -> nth_error sht p = Some (match shifts_of st p with [] => None | l => Some l end).
Variable rdt : list (option (list nat)).
Hypothesis RDl : length rdt = nst.
Hypothesis RD : forall p, p < nst -> nth_error rdt p = Some (match reds_of st p with [] => None | l => Some l end).
Local Notation starts := (la_starts rdt 0).
Local Notation rules := (la_rules rdt).

(** Reduction number [j] is the one of rule [r] in state [q]. *)
Definition lk (q r j : nat) : Prop := exists a i, nth_error starts q = Some a /\ j = a + i /\ nth_error (reds_of st q) i = Some r /\ q < nst.

Lemma row_rd : forall q, row (match reds_of st q with [] => None | l => Some l end) = reds_of st q.
Proof. intros q. destruct (reds_of st q); reflexivity. Qed.

Lemma starts_at : forall q, q < nst -> exists a, nth_error starts q = Some a /\ nth_error starts (S q) = Some (a + length (reds_of st q)) /\
  (forall i, i < length (reds_of st q) -> nth_error rules (a + i) = nth_error (reds_of st q) i) /\ a + length (reds_of st q) <= length rules.
Proof.
  intros q Lq. destruct (la_starts_S rdt 0 q _ (RD q Lq)) as (a & A1 & A2 & A3 & A4). unfold rlen in *. rewrite row_rd in *. exists a. auto.
Qed.

Lemma lk_rule : forall q r j, lk q r j -> nth_error rules j = Some r /\ j < length rules.
Proof.
  intros q r j (a & i & E & -> & N & Lq). destruct (starts_at q Lq) as (a' & A1 & A2 & A3 & A4). assert (a' = a) by congruence. subst a'.
  pose proof (nth_error_Some_lt _ _ _ _ N). rewrite A3 by auto. split; [auto|lia].
Qed.

Lemma lk_state : forall q r j q' r', lk q r j -> lk q' r' j -> q = q' /\ r = r'.
Proof.
  intros q r j q' r' H H'. pose proof (proj1 (lk_rule _ _ _ H)) as R1. pose proof (proj1 (lk_rule _ _ _ H')) as R2. split; [|congruence].
  destruct H as (a & i & E & -> & N & Lq). destruct H' as (a' & i' & E' & Ea & N' & Lq').
  pose proof (nth_error_Some_lt _ _ _ _ N). pose proof (nth_error_Some_lt _ _ _ _ N').
  destruct (Nat.lt_trichotomy q q') as [C|[C|C]]; [|auto|].
  - pose proof (la_starts_sep rdt 0 q q' _ a a' C (RD q Lq) E E') as X. unfold rlen in X. rewrite row_rd in X. lia.
  - pose proof (la_starts_sep rdt 0 q' q _ a' a C (RD q' Lq') E' E) as X. unfold rlen in X. rewrite row_rd in X. lia.
Qed.

Lemma lk_inj : forall q r j j', lk q r j -> lk q r j' -> j = j'.
Proof.
  intros q r j j' (a & i & E & -> & N & Lq) (a' & i' & E' & -> & N' & _). assert (a' = a) by congruence. subst a'. f_equal.
  destruct (reds_spec s W st LO q Lq) as [S1 _].
  destruct (Nat.lt_trichotomy i i') as [C|[C|C]]; [|auto|].
  - pose proof (srt_nth _ _ _ _ _ S1 C N N'). lia.
  - pose proof (srt_nth _ _ _ _ _ S1 C N' N). lia.
Qed.

Lemma lk_cover : forall j, j < length rules -> exists q r, lk q r j.
Proof.
  intros j H. destruct (la_rules_cover rdt 0 j H) as (q & o & a & i & A1 & A2 & A3 & A4).
  assert (Lq : q < nst) by (rewrite <- RDl; eapply nth_error_Some_lt; eauto). rewrite (RD q Lq) in A1. inversion A1; subst o.
  unfold rlen in A4. rewrite row_rd in A4. destruct (nth_error_lt_ex _ _ _ A4) as (r & Er). exists q, r, a, i. cbn in A2. auto.
Qed.

Lemma find_la_ok : forall q r a i, nth_error starts q = Some a -> q < nst -> nth_error (reds_of st q) i = Some r ->
  forall n j, j <= i -> i - j < n -> find_la rules r (a + j) (a + length (reds_of st q)) n = Ok (a + i).
Proof.
  intros q r a i E Lq N. destruct (starts_at q Lq) as (a' & A1 & A2 & A3 & A4). assert (a' = a) by congruence. subst a'.
  pose proof (nth_error_Some_lt _ _ _ _ N) as Li. destruct (reds_spec s W st LO q Lq) as [S1 _].
  induction n as [|n IH]; intros j H1 H2; [lia|]. cbn [find_la]. replace (a + j <? a + length (reds_of st q)) with true by (symmetry; apply Nat.ltb_lt; lia).
  rewrite A3 by lia. destruct (nth_error_lt_ex _ (reds_of st q) j) as (r' & Er); [lia|]. rewrite Er. cbn [opt bind].
  destruct (Nat.eq_dec j i) as [->|Nj].
  - rewrite N in Er. inversion Er; subst. now rewrite Nat.eqb_refl.
  - pose proof (srt_nth _ _ _ _ _ S1 (ltac:(lia) : j < i) Er N). replace (r' =? r) with false by (symmetry; apply Nat.eqb_neq; lia).
    replace (S (a + j)) with (a + S j) by lia. apply IH; lia.
Qed.

Lemma lk_red : forall q k A l, prl k A l -> sitem q (k, length l) -> exists j, lk q (S (S k)) j.
Proof.
  intros q k A l P Si. pose proof (sitem_lt s st _ _ Si) as Lq.
  destruct (reds_spec s W st LO q Lq) as [_ R]. assert (I : In (S (S k)) (reds_of st q)).
  { apply R. exists (k, length l). split; [auto|]. split.
    - rewrite (prl_after s k A l _ P). rewrite (proj2 (nth_error_None _ _)) by lia. reflexivity.
    - destruct P. auto. }
  apply In_nth_error in I as (i & Ei). destruct (starts_at q Lq) as (a & A1 & _). exists (a + i), a, i. auto.
Qed.

Lemma add_lookback_ok : forall q r j i lb, lk q r j -> length lb = length rules ->
  add_lookback_edge starts rules q r i lb = Ok (upd lb j (i :: nth j lb [])).
Proof.
  intros q r j i lb H L. pose proof (lk_rule _ _ _ H) as [_ Lj]. destruct H as (a & k & E & -> & N & Lq).
  destruct (starts_at q Lq) as (a' & A1 & A2 & A3 & A4). assert (a' = a) by congruence. subst a'.
  unfold add_lookback_edge. rewrite E, A2. cbn [opt bind].
  replace a with (a + 0) at 1 by lia. pose proof (nth_error_Some_lt _ _ _ _ N).
  rewrite (find_la_ok q r a k E Lq N) by lia. cbn [bind]. rewrite (nth_error_nth' lb []) by lia. reflexivity.
Qed.

(** ** Walking over a right-hand side *)
Lemma find_shift_ok : forall x q l q0, In q l -> acc q = x -> srt (map acc l) -> (forall q, In q l -> q < nst) -> find_shift (accessing st) l x q0 = Ok q.
Proof.
  intros x q. induction l as [|z l IH]; intros q0 I A S1 B; [destruct I|]. cbn [find_shift]. rewrite accessing_nth by (apply B; now left). cbn [opt bind].
  cbn [map] in S1. inversion S1 as [|? ? T1 T2]; subst. rewrite Forall_forall in T2. destruct (Nat.eqb_spec (acc z) (acc q)) as [Ez|Nz].
  - destruct I as [<-|I]; [auto|]. specialize (T2 (acc q) (in_map _ _ _ I)). lia.
  - destruct I as [<-|I]; [congruence|]. apply IH; auto. intros y H. apply B. now right.
Qed.

Lemma ritem_sym : forall k A l d x, prl k A l -> nth_error l d = Some x -> nth_error (ritem b) (base s k + d) = Some (Z.of_nat x).
Proof.
  intros k A l d x [_ P] E. pose proof (nth_error_Some_lt _ _ _ _ E). rewrite (b_ritem s k A l d P) by lia. unfold rcode. now rewrite E.
Qed.
Lemma ritem_end : forall k A l, nth_error (prules s) k = Some (A, l) -> nth_error (ritem b) (base s k + length l) = Some (- Z.of_nat (S (S k)))%Z.
Proof. intros k A l P. rewrite (b_ritem s k A l _ P) by lia. unfold rcode. rewrite (proj2 (nth_error_None _ _)) by lia. reflexivity. Qed.

Lemma rhs_le_max : forall k A l, prl k A l -> length l <= set_maxrhs b.
Proof.
  intros k A l P. unfold set_maxrhs. apply (maxrhs_at _ (base s k)).
  - intros i Hi. destruct (nth_error_lt_ex _ _ _ Hi) as (x & E). exists (Z.of_nat x). split; [eapply ritem_sym; eauto|lia].
  - eexists. split; [apply (ritem_end k A l), P|lia].
Qed.

(** [ss] are the states met on the way from [p]. *)
Definition along (p : nat) (l ss : list nat) : Prop := length ss = S (length l) /\
  forall i, i <= length l -> exists q, nth_error ss i = Some q /\ path p (firstn i l) q.

Lemma path_snoc : forall p l q x q', path p l q -> go q x q' -> path p (l ++ [x]) q'.
Proof. intros p l q x q' H Hg. eapply path_app; [exact H|]. econstructor; [exact Hg|constructor]. Qed.

Lemma walk_ok : forall k A p post pre q ss fuel, prl k A (pre ++ post) -> path p pre q -> (exists q', path q post q') -> along p pre ss -> length post < fuel ->
  exists q' ss', walk_rhs fuel b (accessing st) sht (S (set_maxrhs b)) (base s k + length pre) q ss = Ok (base s k + length (pre ++ post), q', ss') /\
    path p (pre ++ post) q' /\ along p (pre ++ post) ss'.
Proof.
  intros k A p. induction post as [|x post IH]; intros pre q ss fuel P Pq (qe & Pe) AL Lf; (destruct fuel as [|fuel]; [lia|]); cbn [walk_rhs].
  - rewrite app_nil_r in *. rewrite (ritem_end k A pre) by apply P. cbn [opt bind]. exists q, ss. auto.
  - assert (Ex : nth_error (pre ++ x :: post) (length pre) = Some x) by (rewrite nth_error_app2, Nat.sub_diag by lia; reflexivity).
    rewrite (ritem_sym k A _ _ x P Ex). cbn [opt bind]. replace (0 <=? Z.of_nat x)%Z with true by (symmetry; apply Z.leb_le; lia).
    rewrite Nat2Z.id. inversion Pe; subst. rename p' into q1. pose proof (go_range s W st LO _ _ _ H2) as (_ & _ & Lq & _).
    rewrite (SH q Lq). destruct (shifts_of st q) as [|z0 l0] eqn:E0; [destruct H2 as [H2 _]; rewrite E0 in H2; destruct H2|]. cbn [opt bind].
    rewrite (find_shift_ok x q1 (z0 :: l0) q); [|rewrite <- E0; apply H2|apply H2|rewrite <- E0; apply (shifts_srt s st LO)|].
    2:{ intros y Hy. rewrite <- E0 in Hy. apply shift_go in Hy. now apply (go_range s W st LO) in Hy. }
    cbn [bind]. pose proof (rhs_le_max _ _ _ P) as LM. destruct AL as [AL1 AL2]. rewrite app_length in LM. cbn [length] in LM.
    replace (length ss <? S (set_maxrhs b)) with true by (symmetry; apply Nat.ltb_lt; lia).
    assert (EA : pre ++ x :: post = (pre ++ [x]) ++ post) by (rewrite <- app_assoc; reflexivity). rewrite EA in *.
    replace (S (base s k + length pre)) with (base s k + length (pre ++ [x])) by (rewrite app_length; cbn; lia).
    apply IH; auto.
    + eapply path_snoc; eauto.
    + eauto.
    + split; [rewrite !app_length; cbn; lia|]. intros i Hi. rewrite app_length in Hi. cbn in Hi. destruct (Nat.eq_dec i (S (length pre))) as [->|Ni].
      * exists q1. split; [rewrite nth_error_app2 by lia; rewrite AL1, Nat.sub_diag; reflexivity|].
        rewrite firstn_all2 by (rewrite app_length; cbn; lia). eapply path_snoc; eauto.
      * destruct (AL2 i) as (qi & B1 & B2); [lia|]. exists qi. split; [rewrite nth_error_app1 by lia; auto|].
        rewrite firstn_app. replace (i - length pre) with 0 by lia. cbn [firstn]. rewrite app_nil_r. auto.
    + cbn in Lf. lia.
Qed.

(** ** Walking back *)

(** Positions met on the way back, given the symbols last first. *)
Fixpoint trail (rl : list nat) : list nat :=
  match rl with
  | [] => []
  | x :: r => if nt <=? x then length r :: (if nth x nl false then trail r else []) else []
  end.

Lemma null_syms : forall l, nullable G (map ESym l) <-> forall y, In y l -> nullable G [ESym y].
Proof.
  induction l as [|x l IH]; cbn [map]; [split; [intros _ y []|intros _; apply nullable_nil]|]. rewrite nullable_cons, IH. split.
  - intros [H1 H2] y [<-|Hy]; auto.
  - intros H. split; [apply H; now left|]. intros y Hy. apply H. now right.
Qed.

Lemma trail_In : forall l, (forall x, In x l -> x < b_nsyms s /\ x <> nt) -> forall j, In j (trail (rev l)) <->
  exists pre x post, l = pre ++ x :: post /\ length pre = j /\ nt < x /\ nullable G (map ESym post).
Proof.
  induction l as [|x l IH] using rev_ind; intros B j.
  - cbn. split; [intros []|]. intros (pre & x & post & E & _). destruct pre; discriminate.
  - rewrite rev_unit. cbn [trail]. rewrite rev_length. destruct (B x) as [Bx Nx]; [apply in_or_app; right; now left|].
    assert (B' : forall y, In y l -> y < b_nsyms s /\ y <> nt) by (intros y Hy; apply B; apply in_or_app; auto).
    assert (CASES : forall P : Prop, ((nt < x /\ j = length l -> P)) -> ((exists pre y post, l = pre ++ y :: post /\ length pre = j /\ nt < y /\ nullable G (map ESym post)) /\ nullable G [ESym x] -> P) ->
      (exists pre y post, l ++ [x] = pre ++ y :: post /\ length pre = j /\ nt < y /\ nullable G (map ESym post)) -> P).
    { intros P H1 H2 (pre & y & post & E & Lj & Ny & Nu). destruct post as [|z post _] using rev_ind.
      - apply app_inj_tail in E as [-> ->]. apply H1. auto.
      - rewrite app_comm_cons, app_assoc in E. apply app_inj_tail in E as [-> ->]. rewrite map_app in Nu. apply nullable_app in Nu as [N1 N2].
        apply H2. split; [exists pre, y, post; auto|auto]. }
    split.
    + destruct (Nat.leb_spec nt x) as [Ge|Lt]; [|intros []]. intros [<-|H].
      * exists l, x, []. split; [auto|]. split; [auto|]. split; [lia|apply nullable_nil].
      * destruct (nth x nl false) eqn:En; [|destruct H]. apply (NL x Bx Nx) in En. apply IH in H as (pre & y & post & -> & Lj & Ny & Nu); [|auto].
        exists pre, y, (post ++ [x]). split; [rewrite <- app_assoc; reflexivity|]. split; [auto|]. split; [auto|]. rewrite map_app. apply nullable_app. auto.
    + apply CASES.
      * intros [H ->]. replace (nt <=? x) with true by (symmetry; apply Nat.leb_le; lia). now left.
      * intros [H N]. assert (Gx : nt <= x). { destruct (Nat.lt_ge_cases x nt) as [C|C]; [|auto]. exfalso. apply (term_not_nullable G (wf_aug s W) x); auto. }
        replace (nt <=? x) with true by (symmetry; apply Nat.leb_le; lia). right. rewrite (proj2 (NL x Bx Nx) N). now apply IH.
Qed.

Lemma trail_NoDup : forall rl, NoDup (trail rl).
Proof.
  assert (LT : forall rl j, In j (trail rl) -> j < length rl).
  { induction rl as [|x r IH]; cbn [trail]; [intros j []|]. intros j H. destruct (nt <=? x); [|destruct H]. destruct H as [<-|H]; [cbn; lia|].
    destruct (nth x nl false); [|destruct H]. apply IH in H. cbn. lia. }
  induction rl as [|x r IH]; cbn [trail]; [constructor|]. destruct (nt <=? x); [|constructor]. constructor.
  - destruct (nth x nl false); [|intros []]. intros H. apply LT in H. lia.
  - destruct (nth x nl false); [auto|constructor].
Qed.

Lemma firstn_snoc : forall (l : list nat) m x, nth_error l m = Some x -> firstn (S m) l = firstn m l ++ [x].
Proof.
  induction l as [|y l IH]; intros [|m] x H; cbn in H; try discriminate; [inversion H; reflexivity|]. cbn [firstn app]. f_equal. now apply IH.
Qed.

Lemma back_ok : forall k A p l ss q, prl k A l -> path p l q -> along p l ss -> forall m fuel edge, m <= length l -> m < fuel -> length edge <= S (ngotos g) ->
  exists E, length E = length (trail (rev (firstn m l))) /\
    (forall e, In e E <-> exists j x p' q', In j (trail (rev (firstn m l))) /\ nth_error l j = Some x /\ path p (firstn j l) p' /\ gt e p' x q') /\
    back_edges fuel b g nl ss (base s k + m) m edge = if length edge + length E <=? S (ngotos g) then Ok (edge ++ E) else Bad.
Proof.
  intros k A p l ss q P Pq [AL1 AL2]. induction m as [|m IH]; intros fuel edge Lm Lf Le; (destruct fuel as [|fuel]; [lia|]); cbn [back_edges].
  - exists []. cbn [firstn rev trail length]. split; [reflexivity|]. split; [intros e; split; [intros []|intros (j & x & p' & q' & [] & _)]|].
    rewrite !Nat.add_0_r, app_nil_r. replace (length edge <=? S (ngotos g)) with true by (symmetry; apply Nat.leb_le; auto).
    destruct P as [Nk P]. destruct k as [|k]; [congruence|]. assert (Lk : k < length (prules s)) by (apply nth_error_Some_lt in P; lia).
    destruct (nth_error_lt_ex _ _ _ Lk) as ([A' l'] & E'). rewrite (base_S s _ _ _ E'). replace (base s k + S (length l')) with (S (base s k + length l')) by lia.
    rewrite (ritem_end k A' l' E'). cbn [opt bind]. replace (ISVAR b (- Z.of_nat (S (S k)))) with false; [reflexivity|].
    symmetry. unfold ISVAR. apply Z.leb_gt. lia.
  - destruct (nth_error_lt_ex _ l m) as (x & Ex); [lia|]. replace (base s k + S m) with (S (base s k + m)) by lia.
    rewrite (ritem_sym k A l m x P Ex). cbn [opt bind]. rewrite (firstn_snoc l m x Ex), rev_unit. cbn [trail]. rewrite rev_length, firstn_length.
    replace (Nat.min m (length l)) with m by lia.
    destruct (prl_sym s W k A l x P (nth_error_In _ _ Ex)) as [Rx Nx].
    destruct (ISVAR b (Z.of_nat x)) eqn:V.
    + apply ISVAR_var in V. replace (nt <=? x) with true by (symmetry; apply Nat.leb_le; auto).
      destruct (AL2 m) as (pm & B1 & B2); [lia|]. rewrite B1. cbn [opt bind]. rewrite Nat2Z.id.
      assert (GX : exists q', go pm x q').
      { destruct (nth_error_split _ _ Ex) as (l1 & l2 & El & L1). rewrite El in Pq. apply path_app_inv in Pq as (pm' & C1 & C2). inversion C2; subst.
        replace pm with pm'; [eauto|]. eapply (path_det s st LO); [exact C1|]. rewrite firstn_app, firstn_all, Nat.sub_diag in B2. cbn [firstn] in B2.
        now rewrite app_nil_r in B2. }
      destruct GX as (q' & Hg). destruct (gt_go s W st LO g GO pm x q' Hg ltac:(lia)) as (e & He). rewrite (map_goto_gt s W st LO g GO e pm x q' He). cbn [bind].
      unfold push_edge. rewrite (nth_error_nth' nl false) by lia.
      assert (IE : forall e', e' = e <-> exists p1 q1, path p (firstn m l) p1 /\ gt e' p1 x q1).
      { intros e'. split; [intros ->; eauto|]. intros (p1 & q1 & C1 & C2). assert (p1 = pm) by (eapply (path_det s st LO); eauto). subst p1.
        assert (q1 = q') by (destruct C2 as (_ & _ & C2 & _); eapply (go_det s st LO); eauto). subst. eapply (gt_inj s W st LO g GO); eauto. }
      destruct (Nat.ltb_spec (length edge) (S (ngotos g))) as [Lt|Ge].
      * cbn [bind opt]. destruct (nth x nl false) eqn:En.
        -- destruct (Nat.ltb_spec 0 m) as [Lm0|Lm0]; cbn [andb].
           ++ destruct (IH fuel (edge ++ [e])) as (E & H1 & H2 & H3); [lia|lia|rewrite app_length; cbn; lia|].
              exists (e :: E). split; [cbn [length]; lia|]. split.
              ** intros e'. split.
                 --- intros [<-|Hi]; [exists m, x, pm, q'; split; [now left|auto]|]. apply H2 in Hi as (j & y & p1 & q1 & C1 & C2). exists j, y, p1, q1. split; [now right|auto].
                 --- intros (j & y & p1 & q1 & [<-|C1] & C2 & C3 & C4).
                     +++ left. rewrite Ex in C2. inversion C2; subst y. symmetry. apply IE. eauto.
                     +++ right. apply H2. exists j, y, p1, q1. auto.
              ** rewrite H3, app_length. cbn [length]. replace (length edge + 1 + length E) with (length edge + S (length E)) by lia. rewrite <- app_assoc. reflexivity.
           ++ assert (m = 0) by lia. subst m. cbn [firstn rev trail]. exists [e]. split; [reflexivity|]. split.
              ** intros e'. split.
                 --- intros [<-|[]]. exists 0, x, pm, q'. split; [now left|auto].
                 --- intros (j & y & p1 & q1 & [<-|[]] & C2 & C3 & C4). left. rewrite Ex in C2. inversion C2; subst y. symmetry. apply IE. eauto.
              ** cbn [length]. replace (length edge + 1 <=? S (ngotos g)) with true by (symmetry; apply Nat.leb_le; lia). reflexivity.
        -- exists [e]. split; [reflexivity|]. split.
           ** intros e'. split.
              --- intros [<-|[]]. exists m, x, pm, q'. split; [now left|auto].
              --- intros (j & y & p1 & q1 & [<-|[]] & C2 & C3 & C4). left. rewrite Ex in C2. inversion C2; subst y. symmetry. apply IE. eauto.
           ** cbn [length]. replace (length edge + 1 <=? S (ngotos g)) with true by (symmetry; apply Nat.leb_le; lia). reflexivity.
      * cbn [bind]. assert (EX : exists E, length E = length (trail (rev (firstn m l))) /\
            (forall e, In e E <-> exists j x p' q', In j (trail (rev (firstn m l))) /\ nth_error l j = Some x /\ path p (firstn j l) p' /\ gt e p' x q')).
        { destruct m as [|m'].
          - exists []. split; [reflexivity|]. intros e'. split; [intros []|intros (j & y & p1 & q1 & [] & _)].
          - destruct (IH (S (S m')) edge) as (E & H1 & H2 & _); [lia|lia|auto|]. exists E. auto. }
        destruct EX as (E & H1 & H2).
        exists (e :: if nth x nl false then E else []). split; [cbn [length]; destruct (nth x nl false); [lia|reflexivity]|]. split.
        -- intros e'. split.
           ++ intros [<-|Hi]; [exists m, x, pm, q'; split; [now left|auto]|]. destruct (nth x nl false); [|destruct Hi].
              apply H2 in Hi as (j & y & p1 & q1 & C1 & C2). exists j, y, p1, q1. split; [now right|auto].
           ++ intros (j & y & p1 & q1 & [<-|C1] & C2 & C3 & C4).
              ** left. rewrite Ex in C2. inversion C2; subst y. symmetry. apply IE. eauto.
              ** right. destruct (nth x nl false); [|destruct C1]. apply H2. exists j, y, p1, q1. auto.
        -- cbn [length]. match goal with |- context [?a <=? ?c] => replace (a <=? c) with false by (symmetry; apply Nat.leb_gt; lia) end. reflexivity.
    + replace (nt <=? x) with false.
      2:{ symmetry. apply Nat.leb_gt. destruct (Nat.lt_ge_cases x nt); [auto|]. apply ISVAR_var in H. congruence. }
      exists []. split; [reflexivity|]. split; [intros e; split; [intros []|intros (j & y & p' & q' & [] & _)]|].
      cbn [length]. rewrite Nat.add_0_r, app_nil_r. replace (length edge <=? S (ngotos g)) with true by (symmetry; apply Nat.leb_le; auto). reflexivity.
Qed.

(** ** The relations *)
Definition rhs_of (r : nat) : list nat := match nth_error (prules s) (r - 2) with Some (_, l) => l | None => [] end.
Definition tlen (r : nat) : nat := length (trail (rev (rhs_of r))).

Lemma rhs_of_prl : forall k A l, prl k A l -> rhs_of (S (S k)) = l.
Proof. intros k A l [_ P]. unfold rhs_of. replace (S (S k) - 2) with k by lia. now rewrite P. Qed.

Definition inc_with (p A r e : nat) : Prop := exists al B ga p' q', prl r A (al ++ B :: ga) /\ path p al p' /\ gt e p' B q' /\ nullable G (map ESym ga).
Definition lbk_with (p A r j : nat) : Prop := exists l q, prl r A l /\ path p l q /\ lk q (S (S r)) j.

Lemma rel_rules_ok : forall i p A q0, gt i p A q0 -> forall rs edge lb,
  (forall r, In r rs -> exists k l, r = S (S k) /\ prl k A l) -> length edge <= S (ngotos g) -> length lb = length rules ->
  exists E lb', length E = list_sum (map tlen rs) /\ length lb' = length rules /\
    (forall e, In e E <-> exists k, In (S (S k)) rs /\ inc_with p A k e) /\
    (forall j i', In i' (nth j lb' []) <-> In i' (nth j lb []) \/ (i' = i /\ exists k, In (S (S k)) rs /\ lbk_with p A k j)) /\
    rel_rules b g (accessing st) nl sht (S (set_maxrhs b)) starts rules i p rs edge lb =
      if length edge + length E <=? S (ngotos g) then Ok (edge ++ E, lb') else Bad.
Proof.
  intros i p A q0 Hi. induction rs as [|r rs IH]; intros edge lb HR Le Ll.
  - exists [], lb. split; [reflexivity|]. split; [auto|]. split; [intros e; split; [intros []|intros (k & [] & _)]|]. split.
    + intros j i'. split; [auto|]. intros [H|(_ & k & [] & _)]; auto.
    + cbn [rel_rules length]. rewrite Nat.add_0_r, app_nil_r. replace (length edge <=? S (ngotos g)) with true by (symmetry; apply Nat.leb_le; auto). reflexivity.
  - destruct (HR r (or_introl eq_refl)) as (k & l & -> & P).
    assert (HR' : forall r, In r rs -> exists k l, r = S (S k) /\ prl k A l) by (intros r H; apply HR; now right).
    cbn [rel_rules]. assert (Lk : k < length (prules s)) by (destruct P as [_ P]; eapply nth_error_Some_lt; eauto).
    rewrite (rrhs_rule s k Lk). cbn [opt bind].
    assert (Si : sitem p (k, 0)) by (destruct Hi as (_ & _ & Hg & _); eapply (goto_rule s W st LO); [exact Hg|eapply prl_lhs; eauto]).
    assert (PE : exists q', path p l q') by (apply (path_ex s W st LO k A l [] p); auto).
    assert (NI : base s k + length l < nitems b).
    { rewrite (b_nitems s). destruct P as [_ P]. pose proof (pos_lt s _ _ _ (length (prules s)) (length l) 0 P ltac:(lia) Lk). lia. }
    destruct (walk_ok k A p l [] p [p] (S (nitems b)) P (path_nil st p) PE) as (q & ss & E1 & Pq & AL); [|lia|].
    { split; [reflexivity|]. intros m Hm. assert (m = 0) by (cbn in Hm; lia). subst. exists p. split; [reflexivity|constructor]. }
    cbn [app length] in E1, Pq, AL. rewrite Nat.add_0_r in E1. rewrite E1. cbn [bind].
    assert (Sq : sitem q (k, length l)). { apply (path_item s W st LO k A [] l [] p q); [cbn; rewrite app_nil_r; exact P|exact Si|exact Pq]. }
    destruct (lk_red q k A l P Sq) as (j0 & Hj0). rewrite (add_lookback_ok q _ j0 i lb Hj0 Ll). cbn [bind].
    pose proof (lk_rule _ _ _ Hj0) as [_ Lj0]. destruct AL as [AL1 AL2]. replace (length ss - 1) with (length l) by lia.
    destruct (back_ok k A p l ss q P Pq (conj AL1 AL2) (length l) (S (S (nitems b))) edge) as (E & F1 & F2 & F3); [lia|lia|auto|].
    rewrite F3. rewrite firstn_all in F1, F2.
    assert (IE : forall e, In e E <-> inc_with p A k e).
    { intros e. rewrite F2. split.
      - intros (j & x & p' & q' & H1 & H2 & H3 & H4). apply trail_In in H1 as (pre & y & post & El & Lp & Ny & Nu).
        2:{ intros z Hz. destruct (prl_sym s W k A l z P Hz). split; [lia|auto]. }
        subst j. rewrite El in H2, H3. rewrite nth_error_app2, Nat.sub_diag in H2 by lia. cbn in H2. inversion H2; subst y.
        rewrite firstn_app, firstn_all, Nat.sub_diag in H3. cbn [firstn] in H3. rewrite app_nil_r in H3. subst l. exists pre, x, post, p', q'. auto.
      - intros (al & B & ga & p' & q' & P' & H1 & H2 & H3). assert (El : l = al ++ B :: ga) by (destruct P as [_ P], P' as [_ P']; congruence).
        exists (length al), B, p', q'. rewrite El. split; [|split; [rewrite nth_error_app2, Nat.sub_diag by lia; reflexivity|split; [|auto]]].
        + apply trail_In; [|exists al, B, ga; split; [auto|]; split; [auto|]; split; [apply H2|auto]].
          intros z Hz. destruct (prl_sym s W k A _ z P' Hz). split; [lia|auto].
        + rewrite firstn_app, firstn_all, Nat.sub_diag. cbn [firstn]. rewrite app_nil_r. auto. }
    assert (TL : length E = tlen (S (S k))) by (unfold tlen; rewrite (rhs_of_prl k A l P); auto).
    set (lb1 := upd lb j0 (i :: nth j0 lb [])).
    assert (LB : forall j i', In i' (nth j lb1 []) <-> In i' (nth j lb []) \/ (i' = i /\ lbk_with p A k j)).
    { intros j i'. assert (LW : lbk_with p A k j <-> j = j0).
      { split; [|intros ->; exists l, q; auto]. intros (l' & q' & P' & H1 & H2). assert (l' = l) by (destruct P as [_ P], P' as [_ P']; congruence). subst l'.
        assert (q' = q) by (eapply (path_det s st LO); eauto). subst. eapply lk_inj; eauto. }
      rewrite LW. unfold lb1. destruct (Nat.eq_dec j j0) as [->|Nj].
      - rewrite nth_upd_eq by lia. cbn [In]. split; [intros [<-|H]; auto|intros [H|[-> _]]; auto].
      - rewrite nth_upd_ne by auto. split; [auto|]. intros [H|[_ H]]; [auto|congruence]. }
    assert (Ll1 : length lb1 = length rules) by (unfold lb1; rewrite upd_length; auto).
    assert (MAIN : forall edge', length edge' <= S (ngotos g) -> exists E' lb', length E' = list_sum (map tlen rs) /\ length lb' = length rules /\
      (forall e, In e (E ++ E') <-> exists k0, In (S (S k0)) (S (S k) :: rs) /\ inc_with p A k0 e) /\
      (forall j i', In i' (nth j lb' []) <-> In i' (nth j lb []) \/ (i' = i /\ exists k0, In (S (S k0)) (S (S k) :: rs) /\ lbk_with p A k0 j)) /\
      rel_rules b g (accessing st) nl sht (S (set_maxrhs b)) starts rules i p rs edge' lb1 =
        if length edge' + length E' <=? S (ngotos g) then Ok (edge' ++ E', lb') else Bad).
    { intros edge' Le'. destruct (IH edge' lb1 HR' Le' Ll1) as (E' & lb' & G1 & G2 & G3 & G4 & G5). exists E', lb'. split; [auto|]. split; [auto|]. split; [|split; [|auto]].
      - intros e. rewrite in_app_iff, IE, G3. split.
        + intros [H|(k0 & H & H')]; [exists k; split; [now left|auto]|exists k0; split; [now right|auto]].
        + intros (k0 & [H|H] & H'); [left; inversion H; subst; auto|right; exists k0; auto].
      - intros j i'. rewrite G4, LB. split.
        + intros [[H|[-> H]]|(-> & k0 & H & H')]; [auto| |]; right; (split; [auto|]); [exists k; split; [now left|auto]|exists k0; split; [now right|auto]].
        + intros [H|(-> & k0 & [H|H] & H')]; [auto|inversion H; subst; auto|]. right. split; [auto|]. exists k0. auto. }
    destruct (Nat.leb_spec (length edge + length E) (S (ngotos g))) as [Fit|No].
    + cbn [bind]. destruct (MAIN (edge ++ E)) as (E' & lb' & G1 & G2 & G3 & G4 & G5); [rewrite app_length; auto|].
      exists (E ++ E'), lb'. split; [rewrite app_length, TL, G1; reflexivity|]. split; [auto|]. split; [auto|]. split; [auto|].
      rewrite G5, !app_length, app_assoc. replace (length edge + length E + length E') with (length edge + (length E + length E')) by lia. reflexivity.
    + cbn [bind]. destruct (MAIN edge Le) as (E' & lb' & G1 & G2 & G3 & G4 & _).
      exists (E ++ E'), lb'. split; [rewrite app_length, TL, G1; reflexivity|]. split; [auto|]. split; [auto|]. split; [auto|].
      rewrite app_length. match goal with |- context [?a <=? ?c] => replace (a <=? c) with false by (symmetry; apply Nat.leb_gt; lia) end. reflexivity.
Qed.

Definition inc_edge (i e : nat) : Prop := exists p A q r, gt i p A q /\ inc_with p A r e.
Definition lbk (i j : nat) : Prop := exists p A q r, gt i p A q /\ lbk_with p A r j.

Local Notation d := (set_derives b).
(** The number of edges that start at a transition over [A] fits into the array. *)
Definition fits (A : nat) : bool := match derives_of b d A with Ok L => list_sum (map tlen L) <=? S (ngotos g) | _ => false end.
Definition symof (i : nat) : nat := match nth_error (g_to g) i with Some q => acc q | None => 0 end.

Lemma symof_gt : forall i p A q, gt i p A q -> symof i = A.
Proof. intros i p A q (_ & E & H & _). unfold symof. rewrite E. apply H. Qed.

Lemma derives_prl : forall A, nt < A < b_nsyms s -> exists L, derives_of b d A = Ok L /\ srt L /\ (forall r, In r L -> exists k l, r = S (S k) /\ prl k A l) /\
  forall k l, prl k A l -> In (S (S k)) L.
Proof.
  intros A HA. destruct (derives_of_ok s W A) as (L & E & M & S1); [lia|]. exists L. split; [exact E|]. split; [auto|].
  split.
  - intros r H. apply M in H as (k & rr & -> & H). replace (nt + (A - nt)) with A in H by lia. exists k, rr. split; [auto|]. split; [|auto]. intros ->.
    cbn in H. inversion H. lia.
  - intros k l [_ H]. apply M. exists k, l. split; [auto|]. rewrite H. do 2 f_equal. lia.
Qed.

Lemma rel_loop_ok : forall k i inc lb, i + k = ngotos g -> length lb = length rules ->
  exists X lb', length X = k /\ length lb' = length rules /\
    (forall m, m < k -> exists E, nth_error X m = Some (some_edges E) /\ forall e, In e E <-> inc_edge (i + m) e) /\
    (forall j i', In i' (nth j lb' []) <-> In i' (nth j lb []) \/ (i <= i' /\ lbk i' j)) /\
    rel_loop b d g (accessing st) nl sht (S (set_maxrhs b)) starts rules i k inc lb =
      if forallb (fun m => fits (symof m)) (seq i k) then Ok (inc ++ X, lb') else Bad.
Proof.
  induction k as [|k IH]; intros i inc lb Hk Ll.
  - exists [], lb. split; [reflexivity|]. split; [auto|]. split; [intros m H; lia|]. split.
    + intros j i'. split; [auto|]. intros [H|(H & p & A & q & r & H' & _)]; [auto|]. apply gt_lt in H'. lia.
    + cbn. now rewrite app_nil_r.
  - assert (Li : i < ngotos g) by lia. destruct (gt_ex s st g GO i Li) as (p & A & q & Hi). cbn [rel_loop].
    pose proof Hi as (I1 & I2 & I3 & I4). rewrite I1, I2. cbn [opt bind]. pose proof (go_range s W st LO _ _ _ I3) as (R1 & R2 & R3 & R4 & R5 & R6).
    rewrite accessing_nth by auto. cbn [opt bind]. rewrite R6. destruct (derives_prl A) as (L & EL & SL & L1 & L2); [lia|]. rewrite EL. cbn [bind].
    destruct (rel_rules_ok i p A q Hi L [] lb L1 ltac:(cbn; lia) Ll) as (E & lb1 & F1 & F2 & F3 & F4 & F5). rewrite F5. cbn [app length Nat.add].
    destruct (IH (S i) (inc ++ [some_edges E]) lb1 ltac:(lia) F2) as (X & lb' & G1 & G2 & G3 & G4 & G5).
    exists (some_edges E :: X), lb'. split; [cbn; lia|]. split; [auto|]. split; [|split].
    + intros [|m] Hm.
      * exists E. split; [reflexivity|]. rewrite Nat.add_0_r. intros e. rewrite F3. split.
        -- intros (r & _ & H). exists p, A, q, r. auto.
        -- intros (p' & A' & q' & r & H1 & H2). destruct (gt_det s W st LO g _ _ _ _ _ _ _ Hi H1) as (<- & <- & <-).
           exists r. split; [|auto]. destruct H2 as (al & B & ga & p1 & q1 & P & _). eapply L2; eauto.
      * destruct (G3 m ltac:(lia)) as (E' & H1 & H2). exists E'. split; [exact H1|]. replace (i + S m) with (S i + m) by lia. auto.
    + intros j i'. rewrite G4, F4. split.
      * intros [[H|(-> & r & _ & H)]|[H H']]; [auto| |]; right; [|split; [lia|auto]]. split; [lia|]. exists p, A, q, r. auto.
      * intros [H|[H H']]; [auto|]. destruct (Nat.eq_dec i' i) as [->|N]; [|right; split; [lia|auto]]. left. right. split; [auto|].
        destruct H' as (p' & A' & q' & r & H1 & H2). destruct (gt_det s W st LO g _ _ _ _ _ _ _ Hi H1) as (<- & <- & <-).
        exists r. split; [|auto]. destruct H2 as (l & q2 & P & _). eapply L2; eauto.
    + cbn [seq forallb]. rewrite (symof_gt _ _ _ _ Hi). unfold fits at 1. rewrite EL, <- F1. destruct (length E <=? S (ngotos g)); [|reflexivity].
      cbn [andb bind]. rewrite G5, <- app_assoc. reflexivity.
Qed.

Definition all_fit : bool := forallb (fun m => fits (symof m)) (seq 0 (ngotos g)).

Lemma inc_edge_lt : forall i e, inc_edge i e -> e < ngotos g.
Proof. intros i e (p & A & q & r & _ & al & B & ga & p' & q' & _ & _ & H & _). eapply gt_lt; eauto. Qed.

Lemma build_ok : exists T lb, length T = ngotos g /\ length lb = length rules /\
  (forall e i, ed T e i <-> inc_edge i e) /\
  (forall j i, In i (nth j lb []) <-> lbk i j) /\
  build_relations b d g (accessing st) nl sht starts rules = if all_fit then Ok (T, lb) else Bad.
Proof.
  destruct (rel_loop_ok (ngotos g) 0 [] (repeat [] (length rules)) eq_refl (repeat_length _ _)) as (X & lb & G1 & G2 & G3 & G4 & G5).
  assert (XE : forall i e, (exists l, nth_error X i = Some (Some l) /\ In e l) <-> inc_edge i e).
  { intros i e. split.
    - intros (l & H & Hl). assert (Li : i < ngotos g) by (rewrite <- G1; eapply nth_error_Some_lt; eauto). destruct (G3 i Li) as (E & E1 & E2).
      rewrite H in E1. apply E2. destruct E; inversion E1; subst; auto.
    - intros H. assert (Li : i < ngotos g) by (destruct H as (p & A & q & r & H & _); eapply gt_lt; eauto). destruct (G3 i Li) as (E & E1 & E2).
      cbn [Nat.add] in E2. apply E2 in H. destruct E; [destruct H|]. eexists. split; [exact E1|auto]. }
  destruct (transpose_ok X (ngotos g)) as (T & T1 & T2 & T3).
  { intros o j Ho Hj. apply In_nth_error in Ho as (i & Ei). destruct o as [l|]; [|destruct Hj]. cbn in Hj. apply (inc_edge_lt i). apply XE. eauto. }
  exists T, lb. split; [auto|]. split; [auto|]. split; [|split].
  - intros e i. rewrite <- XE, <- tr_In. unfold ed, edges. destruct (Nat.lt_ge_cases e (ngotos g)) as [Le|Le].
    + rewrite (T3 e Le). destruct (tr 0 X e); reflexivity.
    + rewrite (proj2 (nth_error_None _ _)) by lia. split; [intros []|]. intros H. apply tr_In, XE, inc_edge_lt in H. lia.
  - intros j i. rewrite G4. rewrite nth_repeat. split; [intros [[]|[_ H]]; auto|]. intros H. right. split; [lia|auto].
  - unfold build_relations. rewrite G5. unfold all_fit. destruct (forallb (fun m => fits (symof m)) (seq 0 (ngotos g))); [|reflexivity].
    cbn [bind app]. rewrite T1. reflexivity.
Qed.

(** ** Follow sets *)
Lemma follow_ok : forall F T F', (forall i p x q t, gt i p x q -> (fs F i t <-> Rd s st q t \/ (i = 0 /\ t = 0))) ->
  (forall e i, ed T e i <-> inc_edge i e) -> (forall i t, i < ngotos g -> (fs F' i t <-> U ts T F i t)) ->
  forall i p A q t, gt i p A q -> (fs F' i t <-> Fol s st p A t).
Proof.
  intros F T F' HF HT HU i p A q t Hi. rewrite HU by (eapply gt_lt; eauto). destruct (gt_0 s st g GO) as (q0 & H0). split.
  - intros (k & S1 & S2). revert p A q Hi. induction S1 as [k|i j k E S1 IH]; intros p A q Hi.
    + apply (HF k p A q t Hi) in S2 as [R|[-> ->]].
      * destruct Hi as (_ & _ & Hg & N). eapply fol_read; eauto.
      * destruct (gt_det s W st LO g _ _ _ _ _ _ _ H0 Hi) as (<- & <- & _). apply fol_end.
    + apply HT in E as (p1 & A1 & q1 & r & H1 & al & B & ga & p' & q' & P & Pa & H2 & Nu).
      destruct (gt_det s W st LO g _ _ _ _ _ _ _ Hi H2) as (<- & <- & <-).
      eapply fol_inc; [apply (IH S2 p1 A1 q1 H1)|exact P|exact Pa|apply Hi|apply Hi|exact Nu].
  - intros H. revert i q Hi. induction H as [|p A q t Hg NA R|p A t r al B ga p' q' Fo IH P Pa Hg NB Nu]; intros i q2 Hi.
    + exists 0. assert (q2 = q0).
      { destruct Hi as (_ & _ & Hi & _), H0 as (_ & _ & H0 & _). eapply (go_det s st LO); eauto. } subst q2.
      assert (i = 0) by (eapply (gt_inj s W st LO g GO); eauto). subst i. split; [apply star_refl|]. apply (HF 0 0 (S nt) q0); auto.
    + exists i. split; [apply star_refl|]. apply (HF i p A q2 t Hi). left. replace q2 with q; [auto|].
      destruct Hi as (_ & _ & Hi & _). eapply (go_det s st LO); eauto.
    + destruct (fol_go s W st LO p A t Fo) as (NA & q1 & Hg1). destruct (gt_go s W st LO g GO p A q1 Hg1 NA) as (i1 & H1).
      destruct (IH i1 q1 H1) as (k & S1 & S2). exists k. split; [|auto]. eapply star_step; [|exact S1]. apply HT.
      exists p, A, q1, r. split; [auto|]. exists al, B, ga, p', q2. auto.
Qed.

(** ** compute_lookaheads *)
Lemma la_row_or : forall n m LA F i e, length LA = n * ts -> length F = m * ts -> i < n -> e < m -> exists LA', or_from LA (i * ts) F (ts * e) ts = Ok LA' /\
  length LA' = n * ts /\ forall k t, fs LA' k t <-> fs LA k t \/ (k = i /\ fs F e t).
Proof.
  intros n m LA F i e L1 L2 Hi He. destruct (or_from_ok s ts LA (i * ts) F (ts * e)) as (LA' & E & L & B); [nia|nia|].
  exists LA'. split; [exact E|]. split; [lia|]. intros k t. unfold ByaccDigraphProof.fs, bitat. rewrite B.
  destruct (Nat.lt_ge_cases (t / BPW) ts) as [Ht|Ht]; [|split; [intros [H _]; lia|intros [[H _]|[_ [H _]]]; lia]].
  destruct (Nat.eq_dec k i) as [->|N].
  - replace (i * ts <=? i * ts + t / BPW) with true by (symmetry; apply Nat.leb_le; lia).
    replace (i * ts + t / BPW <? i * ts + ts) with true by (symmetry; apply Nat.ltb_lt; lia). cbn [andb].
    replace (ts * e + (i * ts + t / BPW - i * ts)) with (e * ts + t / BPW) by lia.
    rewrite N.lor_spec, orb_true_iff. tauto.
  - assert (X : (i * ts <=? k * ts + t / BPW) && (k * ts + t / BPW <? i * ts + ts) = false).
    { apply andb_false_iff. destruct (Nat.lt_trichotomy k i) as [C|[C|C]]; [left; apply Nat.leb_gt; nia|congruence|right; apply Nat.ltb_ge; nia]. }
    rewrite X. split; [auto|]. intros [H|[H _]]; [auto|congruence].
Qed.

Lemma la_union_ok : forall n m F i l LA, length LA = n * ts -> length F = m * ts -> i < n -> (forall e, In e l -> e < m) ->
  exists LA', la_union ts F l LA (i * ts) = Ok LA' /\ length LA' = n * ts /\ forall k t, fs LA' k t <-> fs LA k t \/ (k = i /\ exists e, In e l /\ fs F e t).
Proof.
  intros n m F i. induction l as [|e l IH]; intros LA L1 L2 Hi B; cbn [la_union].
  - exists LA. split; [reflexivity|]. split; [auto|]. intros k t. split; [auto|]. intros [H|(_ & e & [] & _)]; auto.
  - destruct (la_row_or n m LA F i e L1 L2 Hi) as (LA1 & E1 & L & B1); [apply B; now left|]. rewrite E1. cbn [bind].
    destruct (IH LA1 L L2 Hi) as (LA' & E & L' & B'); [intros e' H; apply B; now right|]. exists LA'. split; [exact E|]. split; [auto|].
    intros k t. rewrite B', B1. split.
    + intros [[H|[-> H]]|(-> & e' & H & H')]; [auto| |]; right; (split; [auto|]); [exists e; split; [now left|auto]|exists e'; split; [now right|auto]].
    + intros [H|(-> & e' & [<-|H] & H')]; [auto|auto|]. right. split; [auto|]. exists e'. auto.
Qed.

Lemma la_loop_ok : forall n m F lb i LA, length LA = n * ts -> length F = m * ts -> i + length lb = n ->
  (forall l e, In l lb -> In e l -> e < m) ->
  exists LA', la_loop ts F lb LA (i * ts) = Ok LA' /\ length LA' = n * ts /\
    forall k t, fs LA' k t <-> fs LA k t \/ (i <= k /\ exists e, In e (nth (k - i) lb []) /\ fs F e t).
Proof.
  intros n m F. induction lb as [|l lb IH]; intros i LA L1 L2 Hi B; cbn [la_loop].
  - exists LA. split; [reflexivity|]. split; [auto|]. intros k t. split; [auto|]. intros [H|(_ & e & H & _)]; [auto|]. destruct (k - i); destruct H.
  - cbn [length] in Hi. destruct (la_union_ok n m F i l LA L1 L2) as (LA1 & E1 & L & B1); [lia|intros e H; eapply B; [now left|auto]|]. rewrite E1. cbn [bind].
    replace (i * ts + ts) with (S i * ts) by lia. destruct (IH (S i) LA1 L L2) as (LA' & E & L' & B'); [lia|intros l' e H; apply B; now right|].
    exists LA'. split; [exact E|]. split; [auto|]. intros k t. rewrite B', B1. split.
    + intros [[H|(-> & e & H)]|(Hk & e & H & H')]; [auto| |]; right.
      * split; [lia|]. exists e. rewrite Nat.sub_diag. auto.
      * split; [lia|]. exists e. replace (k - i) with (S (k - S i)) by lia. auto.
    + intros [H|(Hk & e & H & H')]; [auto|]. destruct (Nat.eq_dec k i) as [->|N].
      * left. right. split; [auto|]. exists e. rewrite Nat.sub_diag in H. auto.
      * right. split; [lia|]. exists e. replace (k - i) with (S (k - S i)) in H by lia. auto.
Qed.

(** The lookahead rows. *)
Lemma lookahead_ok : forall fuel, ngotos g <= fuel -> exists LA, length LA = length rules * ts /\
  (forall q r j t, lk q (S (S r)) j -> (fs LA j t <-> LAs s st q r t)) /\
  (F <- initialize_F fuel b g (accessing st) nl sht ;;
   '(inc, lb) <- build_relations b d g (accessing st) nl sht starts rules ;;
   F' <- digraph fuel ts (ngotos g) inc F ;;
   la_loop ts F' lb (repeat 0%N (length rules * ts)) 0) = if all_fit then Ok LA else Bad.
Proof.
  intros fuel Hf. destruct (initialize_F_ok s W st LO g GO nl NLl NL sht SHl SH fuel Hf) as (F & E1 & L1 & B1).
  destruct build_ok as (T & lb & T1 & T2 & T3 & T4 & T5).
  destruct (digraph_ok ts (ngotos g) T F T1 L1) with (fuel := fuel) as (F' & E2 & L2 & B2); [|auto|].
  { intros i j H. apply T3 in H as (p & A & q & r & H & _). eapply gt_lt; eauto. }
  assert (FO := follow_ok F T F' B1 T3 B2).
  destruct (la_loop_ok (length rules) (ngotos g) F' lb 0 (repeat 0%N (length rules * ts)) (repeat_length _ _) L2 T2) as (LA & E3 & L3 & B3).
  { intros l e Hl He. apply In_nth_error in Hl as (j & Ej). assert (X : lbk e j) by (apply T4; rewrite (nth_error_nth _ _ [] Ej); auto).
    destruct X as (p & A & q & r & X & _). eapply gt_lt; eauto. }
  exists LA. split; [auto|]. split.
  - intros q r j t Hj. rewrite B3. split.
    + intros [[_ H]|(_ & e & H & H')].
      * unfold bitat in H. rewrite nth_repeat, N.bits_0 in H. discriminate.
      * rewrite Nat.sub_0_r in H. apply T4 in H as (p & A & q1 & r1 & H1 & l & q2 & P & Pa & H2).
        destruct (lk_state _ _ _ _ _ Hj H2) as [<- Er]. inversion Er; subst r1. exists A, l, p. split; [auto|]. split; [auto|]. eapply FO; eauto.
    + intros (A & l & p & P & Pa & Fo). right. split; [lia|]. rewrite Nat.sub_0_r. destruct (fol_go s W st LO p A t Fo) as (NA & q1 & Hg1).
      destruct (gt_go s W st LO g GO p A q1 Hg1 NA) as (e & He). exists e. split; [|eapply FO; eauto]. apply T4.
      exists p, A, q1, r. split; [auto|]. exists l, q. auto.
  - rewrite E1. cbn [bind]. rewrite T5. destruct all_fit; [|reflexivity]. cbn [bind]. rewrite E2. cbn [bind]. change 0 with (0 * ts). exact E3.
Qed.

(** ** The size of the edge array *)
Definition inc_pos (A : nat) (e : nat * nat) : Prop := exists pre x post, prl (fst e) A (pre ++ x :: post) /\ length pre = snd e /\ nt < x /\ nullable G (map ESym post).

Lemma fits_list : forall A, nt < A < b_nsyms s -> exists Q, NoDup Q /\ (forall e, In e Q <-> inc_pos A e) /\ fits A = (length Q <=? S (ngotos g)).
Proof.
  intros A HA. destruct (derives_prl A HA) as (L & EL & SL & L1 & L2). unfold fits. rewrite EL.
  set (Q := flat_map (fun r => map (pair (r - 2)) (trail (rev (rhs_of r)))) L).
  assert (QL : length Q = list_sum (map tlen L)).
  { unfold Q. clear. induction L as [|r L IH]; [reflexivity|]. cbn [flat_map map]. rewrite app_length, IH, map_length. reflexivity. }
  assert (QI : forall e, In e Q <-> inc_pos A e).
  { intros [k j]. unfold Q. rewrite in_flat_map. split.
    - intros (r & Hr & H). apply L1 in Hr as (k0 & l & -> & P). apply in_map_iff in H as (j0 & E & Hj). replace (S (S k0) - 2) with k0 in E by lia. inversion E; subst.
      rewrite (rhs_of_prl k A l P) in Hj. apply trail_In in Hj as (pre & x & post & -> & H1 & H2 & H3); [exists pre, x, post; auto|].
      intros z Hz. destruct (prl_sym s W k A l z P Hz). split; [lia|auto].
    - intros (pre & x & post & P & H1 & H2 & H3). cbn [fst snd] in *. exists (S (S k)). split; [eapply L2; eauto|]. apply in_map_iff. exists j.
      split; [f_equal; lia|]. rewrite (rhs_of_prl k A _ P). apply trail_In; [|exists pre, x, post; auto].
      intros z Hz. destruct (prl_sym s W k A _ z P Hz). split; [lia|auto]. }
  assert (QN : NoDup Q).
  { unfold Q. clear QL QI Q EL L2. apply srt_NoDup in SL. induction L as [|r L IH]; [constructor|]. inversion SL; subst. cbn [flat_map]. apply NoDup_app_iff.
    split; [|split].
    - apply FinFun.Injective_map_NoDup; [|apply trail_NoDup]. intros x y E. inversion E. auto.
    - apply IH; auto. intros r' H. apply L1. now right.
    - intros [k j] H H'. apply in_map_iff in H as (j0 & E & _). inversion E; subst. apply in_flat_map in H' as (r' & Hr' & H'). apply in_map_iff in H' as (j1 & E' & _).
      inversion E'; subst. destruct (L1 r (or_introl eq_refl)) as (k1 & ? & -> & _). destruct (L1 r' (or_intror Hr')) as (k2 & ? & -> & _).
      replace k1 with k2 in * by lia. auto. }
  exists Q. split; [auto|]. split; [auto|]. now rewrite QL.
Qed.

Lemma fits_spec : forall A, nt < A < b_nsyms s -> (fits A = true <-> forall P, NoDup P -> (forall e, In e P -> inc_pos A e) -> length P <= S (ngotos g)).
Proof.
  intros A HA. destruct (fits_list A HA) as (Q & QN & QI & ->). rewrite Nat.leb_le. split.
  - intros H P NP HP. etransitivity; [|exact H]. apply NoDup_incl_length; [auto|]. intros e He. apply QI, HP, He.
  - intros H. apply H; [auto|]. intros e He. now apply QI.
Qed.

Lemma fits_neg : forall A, nt < A < b_nsyms s -> fits A = false -> exists P, NoDup P /\ (forall e, In e P -> inc_pos A e) /\ S (ngotos g) < length P.
Proof.
  intros A HA F. destruct (fits_list A HA) as (Q & QN & QI & E). rewrite E in F. apply Nat.leb_gt in F. exists Q. split; [auto|]. split; [|auto].
  intros e He. now apply QI.
Qed.

Lemma all_fit_spec : all_fit = true <-> forall p A q, go p A q -> nt < A -> forall P, NoDup P -> (forall e, In e P -> inc_pos A e) -> length P <= S (ngotos g).
Proof.
  unfold all_fit. rewrite forallb_forall. split.
  - intros H p A q Hg NA. destruct (gt_go s W st LO g GO p A q Hg NA) as (i & Hi). pose proof (go_range s W st LO _ _ _ Hg) as (R & _).
    apply fits_spec; [lia|]. rewrite <- (symof_gt _ _ _ _ Hi). apply H. apply in_seq. apply gt_lt in Hi. lia.
  - intros H i Hi. apply in_seq in Hi. destruct (gt_ex s st g GO i ltac:(lia)) as (p & A & q & Hg). rewrite (symof_gt _ _ _ _ Hg).
    destruct Hg as (_ & _ & Hg & NA). pose proof (go_range s W st LO _ _ _ Hg) as (R & _). apply fits_spec; [lia|]. eapply H; eauto.
Qed.
End Look.

(** ** lalr *)
Section Lalr.
Variable s : bsrc.
Hypothesis W : wf_src s.
Variable st : lr0st.
Hypothesis LO : lr0_ok s st.
Variable nl : list bool.
Hypothesis NLl : length nl = b_nsyms s.
Hypothesis NL : forall x, x < b_nsyms s -> x <> b_ntokens s -> (nth x nl false = true <-> nullable (aug s) [ESym x]).
Local Notation b := (pack_grammar s).
Local Notation ts := (WORDSIZE BPW (ntokens b)).

Record lalr_ok (T : lalr_tables) : Prop := {
  lo_access : t_access T = accessing st;
  lo_shl : length (t_shift T) = nst st;
  lo_sh : forall p, p < nst st -> nth_error (t_shift T) p = Some (match shifts_of st p with [] => None | l => Some l end);
  lo_rdl : length (t_red T) = nst st;
  lo_rd : forall p, p < nst st -> nth_error (t_red T) p = Some (match reds_of st p with [] => None | l => Some l end);
  lo_go : set_goto_map b st = Ok (t_gotos T);
  lo_start : t_start T = la_starts (t_red T) 0;
  lo_rule : t_rule T = la_rules (t_red T);
  lo_lal : length (t_LA T) = length (t_rule T) * ts;
  lo_LA : forall q r j t, lk st (t_red T) q (S (S r)) j -> (fs ts (t_LA T) j t <-> LAs s st q r t)
}.

Theorem lalr_total : exists g, set_goto_map b st = Ok g /\ goto_ok s st g /\ forall fuel, ngotos g <= fuel ->
  exists T, lalr_ok T /\ lalr fuel b nl st = if all_fit s st g nl then Ok T else Bad.
Proof.
  destruct (sht_ok s st LO) as (sht & S1 & S2 & S3). destruct (rdt_ok s st LO) as (rdt & R1 & R2 & R3).
  destruct (set_goto_map_ok s W st LO) as (g & G1 & G2). exists g. split; [exact G1|]. split; [exact G2|]. intros fuel Hf.
  destruct (lookahead_ok s W st LO g G2 nl NLl NL sht S2 S3 rdt R2 R3 fuel Hf) as (LA & L1 & L2 & L3).
  exists (mkLalr (accessing st) sht rdt g (la_starts rdt 0) (la_rules rdt) LA). split.
  - constructor; cbn [t_access t_shift t_red t_gotos t_start t_rule t_LA]; auto.
  - unfold lalr. change (length (l_cores st)) with (nst st). rewrite S1. cbn [bind]. rewrite R1. cbn [bind]. rewrite G1. cbn [bind].
    destruct (initialize_F fuel b g (accessing st) nl sht) as [F| |]; cbn [bind] in L3 |- *; [|destruct (all_fit s st g nl); first [reflexivity|discriminate]..].
    destruct (build_relations b (set_derives b) g (accessing st) nl sht (la_starts rdt 0) (la_rules rdt)) as [[inc lb]| |]; cbn [bind] in L3 |- *;
      [|destruct (all_fit s st g nl); first [reflexivity|discriminate]..].
    destruct (digraph fuel ts (ngotos g) inc F) as [F'| |]; cbn [bind] in L3 |- *;
      [|destruct (all_fit s st g nl); first [reflexivity|discriminate]..].
    rewrite L3. destruct (all_fit s st g nl); reflexivity.
Qed.
End Lalr.
