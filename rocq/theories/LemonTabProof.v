(** The lookups of the driver on the tables lemon generates, in terms of the
    final action lists. *)
From Coq Require Import List ZArith NArith Bool Lia Arith Permutation Sorted.
Import ListNotations.
From Verif Require Import Base CLib SpecGrammar SpecGrammarFacts SpecLRFacts SpecLR0 LemonSetModel LemonFirstModel
  LemonSortModel LemonSortProof LemonStatesModel LemonStatesProof Prop_LemonStates LemonFollowModel LemonFollowProof
  LemonActionModel LemonActionProof Prop_LemonAction Prop_LemonSort LemonCompressModel LemonCompressProof
  LemonActtabModel LemonActtabProof LemonReportModel LemonParModel LemonPipelineModel LemonReportProof LemonLookupProof
  Prop_LemonTables LemonGenProof.
Local Open Scope res_scope.

(** * Rule numbers *)

Lemma before_S : forall b code k x, nth_error code k = Some x -> before b code (S k) = before b code k + (if Bool.eqb b x then 1 else 0).
Proof.
  intros b. unfold before. induction code as [|y code IH]; intros [|k] x H; try discriminate.
  - inversion H; subst. simpl. destruct (Bool.eqb b x); auto.
  - cbn [firstn filter]. simpl in H. specialize (IH k x H). cbn [firstn filter] in IH.
    destruct (Bool.eqb b y); simpl; rewrite IH; auto.
Qed.

Lemma before_mono : forall b code j k, j <= k -> k <= length code -> before b code j <= before b code k.
Proof.
  intros b code j k L K. induction L as [|k L IH]; auto.
  destruct (nth_error_lt_ex _ code k ltac:(lia)) as (x & E). rewrite (before_S _ _ _ _ E). specialize (IH ltac:(lia)). lia.
Qed.

Lemma before_strict : forall b code j k, nth_error code j = Some b -> j < k -> k <= length code -> before b code j < before b code k.
Proof.
  intros b code j k E L K. pose proof (before_mono b code (S j) k L K) as M. rewrite (before_S _ _ _ _ E) in M.
  rewrite Bool.eqb_reflx in M. lia.
Qed.

Lemma before_total : forall code, before true code (length code) + before false code (length code) = length code.
Proof.
  intros code. unfold before. rewrite firstn_all. induction code as [|[] code IH]; simpl in *; lia.
Qed.

Lemma number_rules_lt : forall code k n, nth_error (number_rules code) k = Some n -> n < length code.
Proof.
  intros code k n H. pose proof (nth_error_Some_lt _ _ _ _ H) as L. rewrite C21_number_rules_length in L.
  destruct (nth_error_lt_ex _ code k L) as (b & E). rewrite (C21_number_rules code k b E) in H. inversion H; subst n.
  pose proof (before_total code) as T. pose proof (before_strict b code k (length code) E L (Nat.le_refl _)). destruct b; lia.
Qed.

Lemma number_rules_inj : forall code j k n, nth_error (number_rules code) j = Some n -> nth_error (number_rules code) k = Some n -> j = k.
Proof.
  intros code j k n Hj Hk.
  pose proof (nth_error_Some_lt _ _ _ _ Hj) as Lj. pose proof (nth_error_Some_lt _ _ _ _ Hk) as Lk.
  rewrite C21_number_rules_length in Lj, Lk.
  destruct (nth_error_lt_ex _ code j Lj) as (b & Ej). destruct (nth_error_lt_ex _ code k Lk) as (b' & Ek).
  rewrite (C21_number_rules code j b Ej) in Hj. rewrite (C21_number_rules code k b' Ek) in Hk.
  pose proof (before_strict b code j (length code) Ej Lj (Nat.le_refl _)).
  pose proof (before_strict b' code k (length code) Ek Lk (Nat.le_refl _)).
  destruct b, b'; inversion Hj; inversion Hk; try (exfalso; lia).
  - destruct (lt_eq_lt_dec j k) as [[L|L]|L]; auto; exfalso.
    + pose proof (before_strict true code j k Ej L ltac:(lia)). lia.
    + pose proof (before_strict true code k j Ek L ltac:(lia)). lia.
  - destruct (lt_eq_lt_dec j k) as [[L|L]|L]; auto; exfalso.
    + pose proof (before_strict false code j k Ej L ltac:(lia)). lia.
    + pose proof (before_strict false code k j Ek L ltac:(lia)). lia.
Qed.

Lemma sorted_perm_seq : forall n a l, StronglySorted le l -> Permutation l (seq a n) -> l = seq a n.
Proof.
  induction n as [|n IH]; intros a l S1 P.
  - apply Permutation_sym, Permutation_nil in P. auto.
  - destruct l as [|x l]; [apply Permutation_length in P; discriminate|]. inversion S1 as [|? ? S2 S3]; subst.
    assert (E : x = a).
    { assert (Ia : In a (x :: l)) by (apply (Permutation_in _ (Permutation_sym P)); left; auto).
      assert (Ix : In x (seq a (S n))) by (apply (Permutation_in _ P); left; auto). apply in_seq in Ix.
      destruct Ia as [Ia|Ia]; [lia|]. rewrite Forall_forall in S3. specialize (S3 a Ia). lia. }
    subst x. cbn [seq]. f_equal. apply IH; auto. cbn [seq] in P. eapply Permutation_cons_inv; eauto.
Qed.

Lemma sorted_map : forall (A : Type) (f : A -> nat) l, StronglySorted (fun x y => f x <= f y) l -> StronglySorted le (map f l).
Proof.
  intros A f l H. induction H as [|x l H IH F]; [constructor|]. simpl. constructor; auto.
  rewrite Forall_forall in *. intros y Hy. apply in_map_iff in Hy as (z & <- & Hz). auto.
Qed.

(** Rule_sort puts rule [r] at position [irule r]. *)
Lemma rule_order : forall (irule : nat -> nat) n, (N.of_nat n < 2 ^ 32)%N ->
  (forall r, r < n -> irule r < n) -> (forall r r', r < n -> r' < n -> irule r = irule r' -> r = r') ->
  length (Rule_sort irule (seq 0 n)) = n /\
  (forall r, r < n -> nth_error (Rule_sort irule (seq 0 n)) (irule r) = Some r) /\
  (forall z, z < n -> exists r, r < n /\ irule r = z).
Proof.
  intros irule n SZ LT INJ.
  destruct (C21_Rule_sort _ irule (seq 0 n)) as (SS & P). { rewrite seq_length. apply (lt_pow n 32 SZ). }
  set (RS := Rule_sort irule (seq 0 n)) in *. clearbody RS.
  assert (LR : length RS = n) by (rewrite (Permutation_length P); apply seq_length).
  assert (M : map irule RS = seq 0 n).
  { apply sorted_perm_seq; [apply sorted_map; auto|]. apply NoDup_Permutation_bis.
    - apply Permutation_map with (f := irule) in P. eapply Permutation_NoDup; [apply Permutation_sym; exact P|].
      assert (G : forall l, (forall x, In x l -> x < n) -> NoDup l -> NoDup (map irule l)).
      { clear - INJ. induction l as [|x l IH]; intros HL ND; [constructor|]. inversion ND; subst. simpl. constructor.
        - intros C. apply in_map_iff in C as (y & E & Hy). apply INJ in E; [subst; auto|apply HL; right; auto|apply HL; left; auto].
        - apply IH; auto. intros; apply HL; right; auto. }
      apply G; [intros x Hx; apply in_seq in Hx; lia|apply seq_NoDup].
    - rewrite seq_length, map_length, LR. auto.
    - intros z Hz. apply in_map_iff in Hz as (r & <- & Hr). apply (Permutation_in _ P), in_seq in Hr. apply in_seq.
      split; [lia|]. simpl. apply LT. lia. }
  assert (AT : forall z, z < n -> exists r, nth_error RS z = Some r /\ r < n /\ irule r = z).
  { intros z Hz. destruct (nth_error_lt_ex _ RS z ltac:(lia)) as (r & E). exists r. split; auto.
    pose proof (map_nth_error irule _ _ E) as E2. rewrite M in E2.
    assert (E3 : nth_error (seq 0 n) z = Some z) by (rewrite nth_error_nth' with (d := 0); [rewrite seq_nth by auto; auto|rewrite seq_length; auto]).
    split; [|congruence]. apply nth_error_In in E. apply (Permutation_in _ P), in_seq in E. lia. }
  split; auto. split.
  - intros r Hr. destruct (AT (irule r) (LT r Hr)) as (r' & E & L' & EQ). rewrite E. f_equal. apply INJ; auto.
  - intros z Hz. destruct (AT z Hz) as (r & _ & L & E). eauto.
Qed.

Lemma rules_le_items : forall g, length (g_rules g) <= item_count g.
Proof.
  intros g. unfold item_count. induction (g_rules g) as [|r l IH]; simpl; lia.
Qed.

(** What the options must satisfy: one noCode flag per rule; a fallback table
    with one entry per terminal, none for end of input and no chains; a wildcard that is a terminal
    other than end of input; an error symbol that is a nonterminal without rules. *)
Record opts_ok (g : grammar) (o : opts) : Prop := {
  oo_code : length (o_noCode o) = length (g_rules g);
  oo_fb : forall l, o_fallback o = Some l -> length l = g_nterm g /\
    nth 0 l 0 = 0 /\ forall t, t < g_nterm g -> nth t l 0 < g_nterm g /\ nth (nth t l 0) l 0 = 0;
  oo_wild : forall w, o_wildcard o = Some w -> 0 < w < g_nterm g;
  oo_err : forall e, o_errsym o = Some e -> g_nterm g <= e < g_nsym g /\ forall r, In r (g_rules g) -> r_lhs r <> e
}.

Section Rules.
Variable g : grammar.
Variable o : opts.
Hypothesis OO : opts_ok g o.

Notation irule := (ri_iRule (opts_rinfo o)).

Lemma irule_lt : forall r, r < length (g_rules g) -> irule r < length (g_rules g).
Proof.
  intros r H. unfold opts_rinfo. cbn [ri_iRule].
  assert (L : r < length (number_rules (map negb (o_noCode o)))).
  { rewrite C21_number_rules_length, map_length, (oo_code _ _ OO). auto. }
  pose proof (nth_error_nth' _ 0 L) as E. apply number_rules_lt in E. rewrite map_length, (oo_code _ _ OO) in E. auto.
Qed.

Lemma irule_inj : forall r r', r < length (g_rules g) -> r' < length (g_rules g) -> irule r = irule r' -> r = r'.
Proof.
  intros r r' H H' E. unfold opts_rinfo in E. cbn [ri_iRule] in E.
  assert (L : forall x, x < length (g_rules g) -> x < length (number_rules (map negb (o_noCode o)))).
  { intros x Hx. rewrite C21_number_rules_length, map_length, (oo_code _ _ OO). auto. }
  pose proof (nth_error_nth' _ 0 (L _ H)) as E1. pose proof (nth_error_nth' _ 0 (L _ H')) as E2. rewrite E in E1.
  eapply number_rules_inj; eauto.
Qed.
End Rules.

(** * Codes and lookups in an action list *)

(** The action of a list that ends up in the table for symbol [s]: the last one
    that emits a code. *)
Fixpoint act_at (l : list action) (s : nat) : option action :=
  match l with
  | [] => None
  | a :: r => match act_at r s with Some b => Some b | None => if emits a && (a_sp a =? s) then Some a else None end
  end.

Lemma act_at_In : forall l s a, act_at l s = Some a -> In a l /\ emits a = true /\ a_sp a = s.
Proof.
  induction l as [|b l IH]; intros s a H; cbn [act_at] in H; [discriminate|].
  destruct (act_at l s) as [c|] eqn:E.
  - inversion H; subst c. destruct (IH _ _ E) as (I1 & I2). split; [right|]; auto.
  - destruct (emits b && (a_sp b =? s)) eqn:E2; [|discriminate]. inversion H; subst b.
    apply andb_true_iff in E2 as (E2 & E3). apply Nat.eqb_eq in E3. split; [left|]; auto.
Qed.

Lemma act_at_ex : forall l a, In a l -> emits a = true -> exists b, act_at l (a_sp a) = Some b.
Proof.
  induction l as [|b l IH]; intros a H E; [destruct H|]. cbn [act_at]. destruct H as [->|H].
  - destruct (act_at l (a_sp a)) as [c|]; eauto. rewrite E, Nat.eqb_refl. simpl. eauto.
  - destruct (IH a H E) as (c & ->). eauto.
Qed.

Lemma emits_exec : forall a, emits a = exec a || iserr a.
Proof. intros [[] s x]; reflexivity. Qed.


(** The action a terminal finds in a list: its own, else its fallback's, else the
    wildcard's. *)
Definition fallback_of (o : opts) (la : nat) : nat := match o_fallback o with Some l => nth la l 0 | None => 0 end.
Definition pick_wild (o : opts) (l : list action) (la : nat) : option action :=
  match o_wildcard o with Some w => if 0 <? la then act_at l w else None | None => None end.
Definition pick (o : opts) (l : list action) (la : nat) : option action :=
  match act_at l la with
  | Some a => Some a
  | None => let f := fallback_of o la in
            if f =? 0 then pick_wild o l la
            else match act_at l f with Some a => Some a | None => pick_wild o l f end
  end.

(** The default reduction of a list. *)
Definition is_dflt (g : grammar) (a : action) : bool := match a_type a with REDUCE => a_sp a =? g_nsym g | _ => false end.
Definition dflt_rule (g : grammar) (l : list action) : option nat := option_map a_arg (find (is_dflt g) l).

Definition code_of (g : grammar) (o : opts) (sorted : list xstate) : action -> Z :=
  compute_action (report_consts (Z.of_nat (length sorted)) (Z.of_nat (length (g_rules g)))) (g_nterm g) (o_errsym o)
    (ri_iRule (opts_rinfo o)) (new_num sorted).

Definition tok_code (g : grammar) (o : opts) (sorted : list xstate) (l : list action) (la : nat) : Z :=
  let k := report_consts (Z.of_nat (length sorted)) (Z.of_nat (length (g_rules g))) in
  match pick o l la with
  | Some a => code_of g o sorted a
  | None => match dflt_rule g l with
            | Some r => (Z.of_nat (ri_iRule (opts_rinfo o) r) + k_minReduce k)%Z
            | None => k_errAction k
            end
  end.

(** The rows and the lists agree. *)
Lemma lookup_row : forall (code : action -> Z) (f : action -> bool) l s,
  (forall a, (0 <=? code a)%Z = emits a) -> (forall a, a_sp a = s -> f a = true) ->
  lookup_last (map (fun a => (Z.of_nat (a_sp a), code a)) (filter (fun a => f a && (0 <=? code a)%Z) l)) (Z.of_nat s)
  = option_map code (act_at l s).
Proof.
  intros code f l s HC HF. induction l as [|a l IH]; [reflexivity|]. cbn [filter act_at]. rewrite HC.
  destruct (f a && emits a) eqn:E.
  - cbn [map lookup_last]. rewrite IH. destruct (act_at l s) as [b|]; [reflexivity|]. simpl.
    apply andb_true_iff in E as (_ & ->). cbn [andb]. destruct (Nat.eqb_spec (a_sp a) s) as [->|N].
    + rewrite Z.eqb_refl. reflexivity.
    + destruct (Z.eqb_spec (Z.of_nat (a_sp a)) (Z.of_nat s)); [lia|reflexivity].
  - rewrite IH. destruct (act_at l s) as [b|]; [reflexivity|]. simpl.
    destruct (emits a && (a_sp a =? s)) eqn:E2; [|reflexivity]. exfalso. apply andb_true_iff in E2 as (E2 & E3).
    apply Nat.eqb_eq in E3. rewrite (HF a E3), E2 in E. discriminate.
Qed.

Lemma count_actions_dflt : forall nterm nsym code auto l t n d t1 n1 d1,
  count_actions nterm nsym code auto l t n d = Ok (t1, n1, d1) ->
  (d1 = d /\ forall a, In a l -> (0 <= code a)%Z -> nterm <= a_sp a -> a_sp a < nsym) \/
  exists a, In a l /\ (0 <= code a)%Z /\ nsym <= a_sp a /\ d1 = code a.
Proof.
  induction l as [|a l IH]; intros t n d t1 n1 d1 H; cbn [count_actions] in H.
  - inversion H; subst. left. split; auto. intros a [].
  - assert (SK : forall t' n', count_actions nterm nsym code auto l t' n' d = Ok (t1, n1, d1) ->
       ((0 <= code a)%Z -> nterm <= a_sp a -> a_sp a < nsym) ->
       (d1 = d /\ forall a0, In a0 (a :: l) -> (0 <= code a0)%Z -> nterm <= a_sp a0 -> a_sp a0 < nsym) \/
       exists a0, In a0 (a :: l) /\ (0 <= code a0)%Z /\ nsym <= a_sp a0 /\ d1 = code a0).
    { intros t' n' H' Q. apply IH in H' as [(E & X)|(b & B1 & B2)]; [left|right].
      - split; auto. intros x [<-|Hx]; auto.
      - exists b. split; [right|]; auto. }
    destruct (Z.leb_spec 0 (code a)) as [LE|GT]; [|eapply SK; eauto; lia].
    destruct (Nat.ltb_spec (a_sp a) nterm); [eapply SK; eauto; lia|].
    destruct (Nat.ltb_spec (a_sp a) nsym); [eapply SK; eauto; lia|].
    destruct (match auto with None => true | Some rd => a_arg a =? rd end); [|discriminate].
    apply IH in H as [(E & X)|(b & B1 & B2)]; right; [exists a; split; [left|]; auto|exists b; split; [right|]; auto].
Qed.

Lemma count_states_dflt : forall nterm nsym code xs q l x, count_states nterm nsym code q xs = Ok l -> In x l ->
  (x_iDfltReduce x = (-1)%Z /\ forall a, In a (x_ap x) -> (0 <= code a)%Z -> nterm <= a_sp a -> a_sp a < nsym) \/
  exists a, In a (x_ap x) /\ (0 <= code a)%Z /\ nsym <= a_sp a /\ x_iDfltReduce x = code a.
Proof.
  induction xs as [|[ap auto] xs IH]; intros q l x H I; cbn [count_states] in H.
  - inversion H; subst. destruct I.
  - apply bind_Ok in H as ([[a b] d] & HA & H). cbn in H. apply bind_Ok in H as (r & Hr & H).
    inversion H; subst l. destruct I as [<-|I]; [|eapply IH; eauto]. cbn [x_iDfltReduce x_ap].
    apply count_actions_dflt in HA. exact HA.
Qed.

Lemma new_num_at : forall sorted k x, NoDup (map x_num sorted) -> nth_error sorted k = Some x -> new_num sorted (x_num x) = k.
Proof.
  intros sorted k x ND H. unfold new_num.
  assert (G : forall l i k, NoDup (map x_num l) -> nth_error l k = Some x ->
    (fix go (l : list xstate) (i : nat) : nat :=
       match l with [] => i | y :: r => if x_num y =? x_num x then i else go r (S i) end) l i = i + k).
  { clear. induction l as [|y l IH]; intros i [|k] ND H; try discriminate.
    - inversion H; subst. rewrite Nat.eqb_refl. lia.
    - simpl in ND. inversion ND as [|? ? N1 N2]; subst. simpl in H. destruct (Nat.eqb_spec (x_num y) (x_num x)) as [E|_].
      + exfalso. apply N1. rewrite E. apply in_map. eapply nth_error_In; eauto.
      + rewrite (IH (S i) k N2 H). lia. }
  rewrite (G sorted 0 k ND H). lia.
Qed.

Lemma nth_combine_seq : forall (B : Type) (xs : list B) a i p, In (i, p) (combine (seq a (length xs)) xs) -> a <= i /\ nth_error xs (i - a) = Some p.
Proof.
  induction xs as [|x xs IH]; intros a i p H; [destruct H|]. cbn [length seq combine] in H. destruct H as [H|H].
  - inversion H; subst. rewrite Nat.sub_diag. simpl. auto.
  - apply IH in H as (L & E). split; [lia|]. replace (i - a) with (S (i - S a)) by lia. auto.
Qed.

Lemma combine_seq_nth : forall (B : Type) (xs : list B) a i p, nth_error xs i = Some p -> In (a + i, p) (combine (seq a (length xs)) xs).
Proof.
  induction xs as [|x xs IH]; intros a [|i] p H; try discriminate; cbn [length seq combine].
  - inversion H; subst. left. f_equal. lia.
  - right. replace (a + S i) with (S a + i) by lia. apply IH. auto.
Qed.

Lemma map_fst_combine_seq : forall (B : Type) (xs : list B) a, map fst (combine (seq a (length xs)) xs) = seq a (length xs).
Proof. induction xs as [|x xs IH]; intros a; [auto|]. cbn [length seq combine map fst]. rewrite IH. auto. Qed.

(** * Codes of correct actions *)

Section Codes.
Variable g : grammar.
Variable A : list lr0_state.
Variable o : opts.
Hypothesis W : wf_grammar g.

Lemma tr_bounds : forall q s q', tr g A q s q' -> s < g_nsym g /\ q < length A /\ q' < length A.
Proof.
  intros q s q' (X & HX & I & sh & J & sh' & H1 & H2 & (i & Hi & AD) & _). split.
  - eapply elem_sym_lt; eauto. eapply after_dot_wf; eauto.
  - split; eapply nth_error_Some_lt; eauto.
Qed.

Lemma rule_lt : forall r rl, rule_of g r = Some rl -> r < length (g_rules g).
Proof. intros r rl H. eapply nth_error_Some_lt; eauto. Qed.

Lemma act_ok_arg : forall xs q a, (forall q' r, auto_of xs q' = Some r -> done g A q' r) ->
  act_ok g A (opts_rinfo o) (auto_of xs) q a ->
  (a_sp a < g_nsym g \/ is_dflt g a = true) /\
  match a_type a with
  | SHIFT => a_arg a < length A /\ auto_of xs (a_arg a) = None
  | REDUCE | SHIFTREDUCE => a_arg a < length (g_rules g)
  | ACCEPT => q = 0
  | _ => False
  end.
Proof.
  intros xs q a AU H. induction H as [s q' T AN|s q' r T AS|t r LT D|r D LS|x E|s r rl a H1 IH1 NT R LR NC H2 IH2 SP]; simpl.
  - destruct (tr_bounds _ _ _ T) as (B1 & _ & B2). auto.
  - destruct (tr_bounds _ _ _ T) as (B1 & _). split; [auto|]. destruct (AU q' r AS) as (rl & R & _). eapply rule_lt; eauto.
  - split; [left; destruct W as (_ & W2 & _); lia|]. destruct D as (rl & I & sh & gm & R & _). eapply rule_lt; eauto.
  - split; [right; unfold is_dflt; simpl; apply Nat.eqb_refl|]. destruct D as (rl & R & _). eapply rule_lt; eauto.
  - split; [left; apply W|auto].
  - split; [|apply IH2]. destruct IH1 as ([B|B] & _); [left; auto|discriminate].
Qed.

End Codes.

(** * The generated parser *)

Record gen_ok (g : grammar) (o : opts) (c : gen) (A : list lr0_state) (aps : list (list action))
  (xs : list (list action * option nat)) (sorted : list xstate) (nx : nat) : Prop := {
  gk_resolved : resolved g A aps;
  gk_final : final g A (opts_rinfo o) aps xs;
  gk_ns : length sorted = length A;
  gk_nx : 1 <= nx <= length A;
  gk_sorted : forall k x, nth_error sorted k = Some x ->
    nth_error xs (x_num x) = Some (x_ap x, x_auto x) /\ new_num sorted (x_num x) = k;
  gk_first : exists x, nth_error sorted 0 = Some x /\ x_num x = 0;
  gk_ex : forall q, q < length A -> exists k x, nth_error sorted k = Some x /\ x_num x = q /\
    (auto_of xs q = None -> k < nx);
  gk_consts : YY_MAX_SHIFT (g_tab c) = (Z.of_nat nx - 1)%Z /\
    YY_MIN_SHIFTREDUCE (g_tab c) = Z.of_nat (length A) /\
    YY_MAX_SHIFTREDUCE (g_tab c) = (Z.of_nat (length A) + Z.of_nat (length (g_rules g)) - 1)%Z /\
    YY_ERROR_ACTION (g_tab c) = (Z.of_nat (length A) + Z.of_nat (length (g_rules g)))%Z /\
    YY_ACCEPT_ACTION (g_tab c) = (Z.of_nat (length A) + Z.of_nat (length (g_rules g)) + 1)%Z /\
    YY_NO_ACTION (g_tab c) = (Z.of_nat (length A) + Z.of_nat (length (g_rules g)) + 2)%Z /\
    YY_MIN_REDUCE (g_tab c) = (Z.of_nat (length A) + Z.of_nat (length (g_rules g)) + 3)%Z /\
    YYNTOKEN (g_tab c) = Z.of_nat (g_nterm g);
  gk_shift : forall k x la, nth_error sorted k = Some x -> k < nx -> la < g_nterm g ->
    (Z.of_nat k <= YY_SHIFT_COUNT (g_tab c))%Z ->
    yy_find_shift_action c (Z.of_nat la) (Z.of_nat k) = Ok (tok_code g o sorted (x_ap x) la);
  gk_noshift : forall k x, nth_error sorted k = Some x -> k < nx -> (YY_SHIFT_COUNT (g_tab c) < Z.of_nat k)%Z ->
    forall a, In a (x_ap x) -> emits a = true -> g_nterm g <= a_sp a;
  gk_reduce : forall k x a, nth_error sorted k = Some x -> k < nx -> In a (x_ap x) -> exec a = true ->
    g_nterm g <= a_sp a < g_nsym g ->
    yy_find_reduce_action c (Z.of_nat k) (Z.of_nat (a_sp a)) = Ok (code_of g o sorted a);
  gk_rule : forall r rl, rule_of g r = Some rl ->
    rdz (g_lhs c) (Z.of_nat (ri_iRule (opts_rinfo o) r)) = Ok (Z.of_nat (r_lhs rl)) /\
    rdz (g_nrhs c) (Z.of_nat (ri_iRule (opts_rinfo o) r)) = Ok (schar (- Z.of_nat (length (r_rhs rl))));
  gk_wild : g_wildcard c = option_map Z.of_nat (o_wildcard o);
  gk_errsym : g_errsym c = option_map Z.of_nat (o_errsym o);
  gk_error : forall st es v, o_errsym o = Some es -> yy_find_reduce_action c st (Z.of_nat es) = Ok v ->
    exists k x, nth_error sorted k = Some x /\ k < nx /\
     ((exists a, In a (x_ap x) /\ exec a = true /\ a_sp a = es /\ v = code_of g o sorted a) \/
      st = Z.of_nat k /\
      v = match dflt_rule g (x_ap x) with
          | Some r => (Z.of_nat (ri_iRule (opts_rinfo o) r) + YY_MIN_REDUCE (g_tab c))%Z
          | None => YY_ERROR_ACTION (g_tab c)
          end)
}.

(** An entry of yy_action that answers for a symbol comes from a row. *)
Lemma ReportTables_values : forall k nrule ns nt sts t,
  (0 < nt <= ns)%Z -> (forall s, In s sts -> valid_srow nt ns s) -> ReportTables k nrule ns nt sts = Ok t ->
  forall i la v, (0 <= i < YY_ACTTAB_COUNT t)%Z -> (0 <= la < ns)%Z -> rdz (yy_lookahead t) i = Ok la -> rdz (yy_action t) i = Ok v ->
  exists s, In s sts /\ (In (la, v) (sr_tkn s) \/ In (la, v) (sr_nt s)).
Proof.
  intros k nrule ns nt sts t HN V H. unfold ReportTables in H. cbv zeta in H.
  set (axs := take_nonempty (qsort axset_le (make_ax 0 sts))) in *.
  assert (AXS : forall a, In a axs -> exists s, nth_error sts (ax_stp a) = Some s /\
     ax_row a = (if ax_isTkn a then sr_tkn s else sr_nt s) /\ ax_row a <> []).
  { intros a I. unfold axs in I. apply take_nonempty_In in I; [|apply qsort_sorted; [apply axset_le_total|apply axset_le_trans]].
    destruct I as [I P]. apply (Permutation_in _ (Permutation_sym (qsort_perm axset_le (make_ax 0 sts)))) in I.
    apply make_ax_spec in I. destruct I as (s & E & _ & R & N).
    rewrite Nat.sub_0_r in E. exists s. split; [auto|]. split; [auto|]. intros X. rewrite X in N. cbn in N. lia. }
  clearbody axs.
  destruct (add_rows_ok false false (map (fun a => (ax_row a, ax_isTkn a)) axs) (acttab_alloc ns nt) [])
    as (p & os & HR & LEN & _ & (all & IV & INC) & PT & PS).
  { now apply Inv_alloc. }
  { intros r I. apply in_map_iff in I. destruct I as (a & <- & I). destruct (AXS a I) as (s & E & R & NE).
    destruct (V s (nth_error_In _ _ E)) as (V1 & V2 & V3 & V4). cbn [acttab_alloc t_nterminal t_nsymbol].
    split; cbn [fst snd]; [auto|]. rewrite R. split; [destruct (ax_isTkn a); auto|].
    intros la ac J. destruct (ax_isTkn a); [apply (V3 _ _ J)|apply (V4 _ _ J)]. }
  { discriminate. }
  { discriminate. }
  rewrite HR in H. cbn [bind] in H.
  apply bind_Ok in H. destruct H as (n & HS & H).
  apply bind_Ok in H. destruct H as (acts & HA & H).
  apply bind_Ok in H. destruct H as (lks & HK & H).
  unfold acttab_action_size in HS. apply action_size_ok in HS. destruct HS as (S1 & S2 & S3 & S4).
  apply rd_upto_ok in HA. destruct HA as (-> & HA2). apply rd_upto_ok in HK. destruct HK as (-> & HK2).
  pose proof (iv_n _ _ _ _ IV) as N0. rewrite Z2Nat.id in * by lia.
  match type of H with Ok ?T = _ => assert (ET : t = T) by congruence end. rewrite ET. clear ET H.
  cbn [YY_ACTTAB_COUNT yy_lookahead yy_action]. intros i la v Hi Hla L1 L2. rewrite !map_map in *.
  rewrite rdz_app1 in L1. 2:{ rewrite lenz_map_seq by lia. lia. }
  rewrite (rdz_map_seq _ (fun z => if (fst (cell (aAction p) z) <? 0)%Z then ns else fst (cell (aAction p) z))) in L1 by lia.
  rewrite (rdz_map_seq _ (fun z => if (snd (cell (aAction p) z) <? 0)%Z then k_noAction k else snd (cell (aAction p) z))) in L2 by lia.
  destruct (Z.ltb_spec (fst (cell (aAction p) i)) 0) as [C|C]; [inversion L1; lia|]. inversion L1 as [E1]. clear L1.
  destruct (iv_cover _ _ _ _ IV i C) as (r & o & ac & IR & EO & LO). rewrite E1 in *.
  pose proof (iv_in _ _ _ _ IV r o la ac IR LO) as CE. replace (o + la)%Z with i in CE by lia. rewrite CE in L2. cbn [snd] in L2.
  rewrite INC, app_nil_r, <- in_rev in IR. apply in_combine_l in IR. apply in_map_iff in IR as (a & <- & Ha).
  destruct (AXS a Ha) as (s & Es & ER & _). exists s. apply nth_error_In in Es. split; auto. cbn [fst] in LO. apply lookup_last_In in LO.
  destruct (V s Es) as (_ & _ & V3 & V4). rewrite ER in LO.
  assert (AC : (0 <= ac)%Z) by (destruct (ax_isTkn a); [apply (V3 _ _ LO)|apply (V4 _ _ LO)]).
  destruct (Z.ltb_spec ac 0); [lia|]. inversion L2; subst v. destruct (ax_isTkn a); auto.
Qed.

Section Generate.
Variable g : grammar.
Variable o : opts.
Variable sf ff cf : nat.
Variable c : gen.
Hypothesis W : wf_grammar g.
Hypothesis SM : small_lists sf ff g.
Hypothesis SNR : start_not_rhs g.
Hypothesis OO : opts_ok g o.

Notation irule := (ri_iRule (opts_rinfo o)).

Lemma generated_from : lemon_generate sf ff cf o g = Ok c ->
  exists L aps xs sorted nx, ((o_compress o = false -> xs = uncompressed aps) /\
      (o_compress o = true -> CompressTables cf (o_addr2 o) (o_wildcard o) g (opts_rinfo o) aps = Ok xs)) /\ lemon_front sf ff g = Ok L /\ lemon_actions sf ff o g = Ok aps /\
    gen_ok g o c (states_view L) aps xs sorted nx.
Proof.
  intros H. unfold lemon_generate in H. apply bind_Ok in H as (aps & HA & H).
  destruct (actions_resolved sf ff o g aps W SM SNR HA) as (L & HL & RS). exists L, aps.
  set (A := states_view L) in *. unfold lemon_back in H. cbv zeta in H. apply bind_Ok in H as (xs & HX & H).
  assert (FN : final g A (opts_rinfo o) aps xs).
  { destruct (o_compress o); [eapply compressed_final; eauto|]. inversion HX; subst xs. apply uncompressed_final; auto. }
  assert (UN : (o_compress o = false -> xs = uncompressed aps) /\ (o_compress o = true -> CompressTables cf (o_addr2 o) (o_wildcard o) g (opts_rinfo o) aps = Ok xs)).
  { split; intros E; rewrite E in HX; auto. inversion HX. auto. }
  clear HX. apply bind_Ok in H as ([sorted nx] & HS & H). cbn [fst snd] in H. apply bind_Ok in H as (t & HT & H).
  destruct (rule_tables _ _ _) as [tl tn] eqn:ERT in H.
  match type of H with Ok ?T = _ => assert (EC : c = T) by congruence end. clear H.
  exists xs, sorted, nx. split; auto. split; auto. split; auto.
  pose proof (C13_renumber _ _ _ _ _ _ _ HS) as (PERM & FST & NXL & CUT & _).
  assert (LS : length sorted = length A).
  { rewrite <- (fn_len _ _ _ _ _ FN). apply Permutation_length in PERM. rewrite map_length, combine_length, seq_length in PERM. lia. }
  assert (NN : forall k x, nth_error sorted k = Some x -> nth_error xs (x_num x) = Some (x_ap x, x_auto x)).
  { intros k x E. apply nth_error_In in E. apply (in_map (fun x => (x_num x, (x_ap x, x_auto x)))) in E.
    apply (Permutation_in _ PERM) in E. apply nth_combine_seq in E as (_ & E). rewrite Nat.sub_0_r in E. auto. }
  assert (ND : NoDup (map x_num sorted)).
  { apply Permutation_map with (f := fst) in PERM. rewrite map_fst_combine_seq, map_map in PERM. cbn [fst] in PERM.
    eapply Permutation_NoDup; [apply Permutation_sym; exact PERM|apply seq_NoDup]. }
  assert (SORT : forall k x, nth_error sorted k = Some x ->
    nth_error xs (x_num x) = Some (x_ap x, x_auto x) /\ new_num sorted (x_num x) = k).
  { intros k x E. split; [eapply NN; eauto|]. apply new_num_at; auto. }
  assert (EX : forall q, q < length A -> exists k x, nth_error sorted k = Some x /\ x_num x = q /\ (auto_of xs q = None -> k < nx)).
  { intros q Hq. rewrite <- (fn_len _ _ _ _ _ FN) in Hq. destruct (nth_error_lt_ex _ xs q Hq) as ([l au] & E).
    pose proof (combine_seq_nth _ xs 0 q (l, au) E) as I. simpl in I. apply (Permutation_in _ (Permutation_sym PERM)) in I.
    apply in_map_iff in I as (x & EX & I). apply In_nth_error in I as (k & Hk). exists k, x. split; auto. inversion EX; subst.
    split; auto. intros AN. destruct (Nat.lt_ge_cases k nx) as [|GE]; auto. exfalso. apply (CUT k x GE Hk).
    unfold auto_of in AN. rewrite E in AN. auto. }
  assert (ANE : 0 < length A).
  { destruct (lr0_start _ _ (rs_auto _ _ _ RS)) as (I & sh & E & _). eapply nth_error_Some_lt; eauto. }
  assert (XNE : xs <> []) by (intros ->; pose proof (fn_len _ _ _ _ _ FN) as X; simpl in X; lia).
  destruct (FST XNE) as (F0 & NX1).
  assert (AUD : forall q r, auto_of xs q = Some r -> done g A q r).
  { intros q r E. unfold auto_of in E. destruct (nth_error xs q) as [[l au]|] eqn:EQ; [|discriminate]. subst au.
    assert (LQ : q < length aps).
    { rewrite (rs_len _ _ _ RS), <- (fn_len _ _ _ _ _ FN). eapply nth_error_Some_lt; eauto. }
    destruct (nth_error_lt_ex _ aps q LQ) as (ap & EA). destruct (fn_auto _ _ _ _ _ FN q ap l r EA EQ). auto. }
  (* codes *)
  set (ZA := Z.of_nat (length A)). set (ZR := Z.of_nat (length (g_rules g))).
  set (code := code_of g o sorted).
  assert (CODE : forall q a, act_ok g A (opts_rinfo o) (auto_of xs) q a ->
     match a_type a with
     | SHIFT => exists k x, nth_error sorted k = Some x /\ x_num x = a_arg a /\ k < nx /\ code a = Z.of_nat k
     | REDUCE => code a = (ZA + ZR + 3 + Z.of_nat (irule (a_arg a)))%Z /\ a_arg a < length (g_rules g)
     | SHIFTREDUCE => (code a = (ZA + ZR + 3 + Z.of_nat (irule (a_arg a)))%Z \/ code a = (ZA + Z.of_nat (irule (a_arg a)))%Z) /\ a_arg a < length (g_rules g)
     | ACCEPT => code a = (ZA + ZR + 1)%Z
     | _ => False
     end).
  { intros q a HO. destruct (act_ok_arg g A o W xs q a AUD HO) as (_ & X). unfold code, code_of, compute_action.
    cbn [report_consts k_minShiftReduce k_errAction k_accAction k_noAction k_minReduce]. rewrite LS. fold ZA ZR.
    destruct (a_type a); auto.
    - destruct X as (X1 & X2). destruct (EX _ X1) as (k & x & E1 & E2 & E3). exists k, x. split; auto. split; auto. split; auto.
      f_equal. rewrite <- E2. apply SORT. auto.
    - split; [lia|auto].
    - split; [|auto]. destruct (_ && _); [left; lia|right; auto]. }
  assert (EMC : forall a, (0 <=? code a)%Z = emits a).
  { intros a. unfold code, code_of, compute_action, emits.
    cbn [report_consts k_minShiftReduce k_errAction k_accAction k_noAction k_minReduce].
    destruct (a_type a); auto; try (destruct (_ && _)); apply Z.leb_le; lia. }
  (* rows *)
  assert (ROWV : forall s, In s (map (state_row (g_nterm g) (g_nsym g) code) (firstn nx sorted)) ->
     valid_srow (Z.of_nat (g_nterm g)) (Z.of_nat (g_nsym g)) s).
  { intros s Hs. apply in_map_iff in Hs as (x & <- & Hx).
    assert (Hin : In x sorted). { rewrite <- (firstn_skipn nx sorted). apply in_or_app. auto. }
    apply In_nth_error in Hin as (k & Hk). destruct (SORT k x Hk) as (HX & _).
    pose proof (fn_uniq _ _ _ _ _ FN _ _ _ HX) as UQ.
    assert (NDP : forall f, NoDup (map (fun a => (Z.of_nat (a_sp a), code a)) (filter (fun a => f a && (0 <=? code a)%Z) (x_ap x)))).
    { intros f.
      assert (INJ : forall a b, In a (x_ap x) -> In b (x_ap x) -> emits a = true -> emits b = true ->
         a_sp a = a_sp b -> code a = code b -> exec a = exec b).
      { assert (ER : forall a b, In a (x_ap x) -> exec a = true -> iserr b = true -> code a <> code b).
        { intros a b Ha Ea Eb. pose proof (CODE _ _ (fn_ok _ _ _ _ _ FN _ _ _ _ HX Ha Ea)) as CA.
          assert (CB : code b = (ZA + ZR)%Z).
          { unfold code, code_of, compute_action. unfold iserr in Eb. destruct (a_type b); try discriminate.
            cbn [report_consts k_errAction]. rewrite LS. auto. }
          rewrite CB. destruct (a_type a); try contradiction.
          - destruct CA as (k' & x' & _ & _ & CA1 & ->). unfold ZA, ZR. lia.
          - lia.
          - unfold ZA, ZR. lia.
          - destruct CA as ([CA|CA] & LA); rewrite CA; [unfold ZA, ZR; lia|]. pose proof (irule_lt g o OO _ LA). unfold ZA, ZR. lia. }
        intros a b Ha Hb Ea Eb _ E. rewrite emits_exec in Ea, Eb.
        destruct (exec a) eqn:XA, (exec b) eqn:XB; auto; simpl in *; exfalso; [apply (ER a b)|apply (ER b a)]; auto. }
      assert (ND2 : forall l, incl l (x_ap x) -> uniq l ->
         NoDup (map (fun a => (Z.of_nat (a_sp a), code a)) (filter (fun a => f a && (0 <=? code a)%Z) l))).
      { clear UQ. induction l as [|a l IH]; intros IC (U1 & U2); [constructor|]. cbn [filter] in *.
        assert (UL : uniq l).
        { split; [destruct (exec a)|destruct (iserr a)]; simpl in *; try (inversion U1; auto; fail); try (inversion U2; auto; fail); auto. }
        assert (IL : incl l (x_ap x)) by (intros y Hy; apply IC; right; auto).
        destruct (f a && (0 <=? code a)%Z) eqn:EF; [|apply IH; auto]. cbn [map]. constructor; [|apply IH; auto].
        intros C. apply in_map_iff in C as (b & EQ & Hb). apply filter_In in Hb as (Hb & FB).
        apply andb_true_iff in EF as (_ & EF). apply andb_true_iff in FB as (_ & FB). rewrite EMC in EF, FB.
        inversion EQ as [[E1 E2]]. apply Nat2Z.inj in E1.
        assert (XX : exec a = exec b) by (apply INJ; [apply IC; left; auto|apply IC; right; auto|auto|auto|auto|auto]).
        rewrite emits_exec in EF, FB. destruct (exec a) eqn:XA.
        - simpl in U1. inversion U1 as [|? ? U3 U4]; subst. apply U3. rewrite <- E1. apply in_map. apply filter_In. auto.
        - simpl in EF. rewrite EF in U2. simpl in U2. inversion U2 as [|? ? U3 U4]; subst. apply U3. rewrite <- E1. apply in_map.
          apply filter_In. split; auto. rewrite <- XX in FB. auto. }
      apply ND2; [apply incl_refl|exact UQ]. }
    unfold state_row. split; [apply NDP|]. split; [apply NDP|]. split.
    - intros la ac I. apply in_map_iff in I as (a & E & I). apply filter_In in I as (_ & I). apply andb_true_iff in I as (I1 & I2).
      apply Nat.ltb_lt in I1. apply Z.leb_le in I2. inversion E; subst. lia.
    - intros la ac I. apply in_map_iff in I as (a & E & I). apply filter_In in I as (I0 & I). apply andb_true_iff in I as (I1 & I2).
      apply andb_true_iff in I1 as (I1 & I3). apply negb_true_iff, Nat.ltb_ge in I1. apply negb_true_iff, Nat.eqb_neq in I3.
      apply Z.leb_le in I2. pose proof (fn_sp _ _ _ _ _ FN _ _ _ _ HX I0). inversion E; subst. lia. }
  assert (HN : (0 < Z.of_nat (g_nterm g) <= Z.of_nat (g_nsym g))%Z) by (destruct W as (W1 & W2 & _); lia).
  pose proof HT as HT0. unfold ReportTable in HT. cbv zeta in HT.
  change (compute_action _ _ _ _ _) with code in HT.
  destruct (ReportTables_ok false _ _ _ _ _ _ HN ROWV ltac:(discriminate) HT)
    as (C1 & C2 & C3 & C4 & C5 & C6 & C7 & C8 & C9 & LA & LL & SC & RC & ROWS).
  assert (GT : g_tab c = t) by (rewrite EC; auto).
  assert (ROWK : forall k x, nth_error sorted k = Some x -> k < nx ->
     nth_error (map (state_row (g_nterm g) (g_nsym g) code) (firstn nx sorted)) k = Some (state_row (g_nterm g) (g_nsym g) code x)).
  { intros k x Hk LK. rewrite nth_error_map, nth_error_firstn_lt by auto. rewrite Hk. auto. }
  unfold lenz in C3. rewrite map_length, firstn_length, Nat.min_l in C3 by auto.
  (* defaults *)
  assert (DFLT : forall k x, nth_error sorted k = Some x ->
     (if (x_iDfltReduce x <? 0)%Z then k_errAction (report_consts (Z.of_nat (length sorted)) ZR)
      else x_iDfltReduce x + k_minReduce (report_consts (Z.of_nat (length sorted)) ZR))%Z =
     match dflt_rule g (x_ap x) with
     | Some r => (Z.of_nat (irule r) + k_minReduce (report_consts (Z.of_nat (length sorted)) ZR))%Z
     | None => k_errAction (report_consts (Z.of_nat (length sorted)) ZR)
     end).
  { intros k x Hk. destruct (SORT k x Hk) as (HX & _).
    assert (ISD : forall a, In a (x_ap x) -> g_nsym g <= a_sp a -> is_dflt g a = true).
    { intros a Ha GE.
      assert (E : exec a = true) by (eapply (fn_ntexec _ _ _ _ _ FN); eauto; destruct W as (_ & W2 & _); lia).
      destruct (act_ok_arg g A o W xs _ a AUD (fn_ok _ _ _ _ _ FN _ _ _ _ HX Ha E)) as ([X|X] & _); [lia|auto]. }
    unfold ResortStates in HS. apply bind_Ok in HS as (l & HC & HS).
    assert (IL : In x l).
    { apply nth_error_In in Hk. destruct l as [|x0 rl]; [inversion HS; subst; destruct Hk|]. 
      match type of HS with Ok ?T = _ => assert (ES : (sorted, nx) = T) by congruence end. inversion ES as [[E1 E2]]. rewrite E1 in Hk. destruct Hk as [->|Hk]; [left; auto|right].
      apply (Permutation_in _ (Permutation_sym (qsort_perm _ _)) Hk). }
    set (code0 := compute_action zero_consts (g_nterm g) (o_errsym o) irule (fun q => q)) in HC.
    assert (C0 : forall a, is_dflt g a = true -> code0 a = Z.of_nat (irule (a_arg a)) /\ a_sp a = g_nsym g /\ emits a = true /\ exec a = true).
    { intros a D. unfold is_dflt in D. unfold code0, compute_action, emits, exec. destruct (a_type a); try discriminate.
      apply Nat.eqb_eq in D. auto. }
    unfold dflt_rule.
    destruct (count_states_dflt _ _ _ _ _ _ _ HC IL) as [(-> & NO)|(a & Ha & NN0 & SP & ->)].
    - destruct (find (is_dflt g) (x_ap x)) as [b|] eqn:FB; [|reflexivity]. exfalso. apply find_some in FB as (B1 & B2).
      destruct (C0 b B2) as (B3 & B4 & _). specialize (NO b B1). rewrite B3, B4 in NO. destruct W as (_ & W2 & _).
      assert (g_nsym g < g_nsym g) by (apply NO; lia). lia.
    - pose proof (ISD a Ha SP) as DA. destruct (C0 a DA) as (A1 & A2 & A3 & A4). rewrite A1.
      destruct (Z.ltb_spec (Z.of_nat (irule (a_arg a))) 0); [lia|].
      destruct (find (is_dflt g) (x_ap x)) as [b|] eqn:FB.
      + apply find_some in FB as (B1 & B2). destruct (C0 b B2) as (B3 & B4 & B5 & B6).
        rewrite (uniq_exec (x_ap x) b a); auto; [eapply (fn_uniq _ _ _ _ _ FN); eauto|congruence].
      + exfalso. pose proof (find_none _ _ FB a Ha). congruence. }
  assert (FBE : g_fallback c = option_map (map Z.of_nat) (o_fallback o)) by (rewrite EC; auto).
  assert (WDE : g_wildcard c = option_map Z.of_nat (o_wildcard o)) by (rewrite EC; auto).
  assert (EES : g_errsym c = option_map Z.of_nat (o_errsym o)) by (rewrite EC; auto).
  assert (WOK : wild_ok (Z.of_nat (g_nterm g)) (g_wildcard c)).
  { rewrite WDE. unfold wild_ok. destruct (o_wildcard o) as [w|] eqn:EW; simpl; auto. pose proof (oo_wild _ _ OO w EW). lia. }
  assert (FNTH : forall l n, nth (Z.to_nat (Z.of_nat n)) (map Z.of_nat l) 0%Z = Z.of_nat (nth n l 0)).
  { intros l n. rewrite Nat2Z.id. change 0%Z with (Z.of_nat 0) at 1. apply map_nth. }
  assert (FOK : fallback_ok (Z.of_nat (g_nterm g)) (g_fallback c)).
  { rewrite FBE. unfold fallback_ok. destruct (o_fallback o) as [l|] eqn:EF; simpl; auto. destruct (oo_fb _ _ OO l EF) as (F1 & _ & F2).
    split; [unfold lenz; rewrite map_length; lia|]. intros la HL2. rewrite <- (Z2Nat.id la) by lia. cbv zeta. rewrite FNTH.
    destruct (F2 (Z.to_nat la) ltac:(lia)) as (F3 & F4). rewrite FNTH, F4. lia. }
  assert (TKN : forall x s, s < g_nterm g -> lookup_last (sr_tkn (state_row (g_nterm g) (g_nsym g) code x)) (Z.of_nat s) = option_map code (act_at (x_ap x) s)).
  { intros x s Hs. unfold state_row. cbn [sr_tkn]. apply (lookup_row code (fun a => a_sp a <? g_nterm g)); auto.
    intros a ->. apply Nat.ltb_lt. auto. }
  assert (RRULE : forall r rl, rule_of g r = Some rl ->
    rdz (g_lhs c) (Z.of_nat (irule r)) = Ok (Z.of_nat (r_lhs rl)) /\
    rdz (g_nrhs c) (Z.of_nat (irule r)) = Ok (schar (- Z.of_nat (length (r_rhs rl))))).
  { intros r rl R. pose proof (rule_lt g r rl R) as LR.
    destruct (rule_order irule (length (g_rules g))) as (_ & RO & _).
    - pose proof (rules_le_items g). destruct SM as (SZ & _). lia.
    - apply irule_lt. auto.
    - apply irule_inj. auto.
    - specialize (RO r LR). unfold rule_tables in ERT. inversion ERT as [[E1 E2]]. rewrite EC. cbn [g_lhs g_nrhs]. rewrite <- E1, <- E2.
      rewrite !rdz_nat, !nth_error_map. change (Rule_sort (fun r0 : nat => _) _) with (Rule_sort irule (seq 0 (length (g_rules g)))). rewrite RO. simpl. unfold rule_of in R. rewrite R. auto. }
  constructor; auto.
  - lia.
  - destruct (nth_error_lt_ex _ sorted 0 ltac:(lia)) as (x & E). exists x. split; auto.
    rewrite nth_error_map, E in F0. simpl in F0. congruence.
  - rewrite GT, C2, C3, C4, C5, C6, C7, C8, C9. cbn [report_consts k_minShiftReduce k_errAction k_accAction k_noAction k_minReduce].
    rewrite LS. repeat split; lia.
  - intros k x la Hk LK HLa SCK. destruct (ROWS k _ (ROWK k x Hk LK)) as (RT & _ & DF). rewrite <- GT in *.
    rewrite (find_shift_ok c _ _ (Z.of_nat k) _ _ HN RT C2 C1 DF (Z.of_nat la)); auto; [|lia|lia]. f_equal.
    change (sr_dflt (state_row (g_nterm g) (g_nsym g) code x)) with (x_iDfltReduce x). fold ZR. rewrite (DFLT k x Hk). unfold tok_code. cbv zeta. fold code ZR.
    set (D := match dflt_rule g (x_ap x) with Some _ => _ | None => _ end).
    assert (PW : forall s, s < g_nterm g -> act_at (x_ap x) s = None ->
       wild_spec (sr_tkn (state_row (g_nterm g) (g_nsym g) code x)) D (g_wildcard c) (Z.of_nat s) =
       match pick_wild o (x_ap x) s with Some a => code a | None => D end).
    { intros s Hs _. unfold wild_spec, pick_wild. rewrite WDE. destruct (o_wildcard o) as [w|] eqn:EW; cbn [option_map]; auto.
      pose proof (oo_wild _ _ OO w EW). rewrite TKN by lia. destruct s as [|s].
      - simpl. destruct (act_at (x_ap x) w); auto.
      - destruct (Z.ltb_spec 0 (Z.of_nat (S s))); [|lia]. destruct (Nat.ltb_spec 0 (S s)); [|lia]. destruct (act_at (x_ap x) w); auto. }
    unfold find_spec, pick. rewrite TKN by auto. destruct (act_at (x_ap x) la) as [a|] eqn:EA; [reflexivity|]. cbn [option_map].
    rewrite FBE. unfold fallback_of. destruct (o_fallback o) as [l|] eqn:EF; cbn [option_map]; cbv zeta.
    + rewrite FNTH. destruct (oo_fb _ _ OO l EF) as (_ & _ & F2). destruct (F2 la HLa) as (F3 & F4).
      destruct (Nat.eqb_spec (nth la l 0) 0) as [E0|E0].
      * destruct (Z.eqb_spec (Z.of_nat (nth la l 0)) 0); [|lia]. apply PW; auto.
      * destruct (Z.eqb_spec (Z.of_nat (nth la l 0)) 0); [lia|]. rewrite TKN by auto.
        destruct (act_at (x_ap x) (nth la l 0)) as [a|] eqn:EB; [reflexivity|]. cbn [option_map]. apply PW; auto.
    + rewrite Nat.eqb_refl. apply PW; auto.
  - intros k x Hk LK SCK a Ha Ea. destruct (ROWS k _ (ROWK k x Hk LK)) as (RT & _). rewrite <- GT in *.
    pose proof (rt_noshift _ _ _ _ _ RT SCK) as E. cbn [state_row sr_tkn] in E. apply Nat.le_ngt. intros C.
    assert (I : In (Z.of_nat (a_sp a), code a) (map (fun a => (Z.of_nat (a_sp a), code a)) (filter (fun a => (a_sp a <? g_nterm g) && (0 <=? code a)%Z) (x_ap x)))).
    { apply in_map_iff. exists a. split; auto. apply filter_In. split; auto. rewrite EMC, Ea. apply Nat.ltb_lt in C. rewrite C. auto. }
    rewrite E in I. destruct I.
  - intros k x a Hk LK Ha Ea RG. destruct (ROWS k _ (ROWK k x Hk LK)) as (RT & _ & DF). rewrite <- GT in *.
    apply (find_reduce_ok c _ _ (Z.of_nat k) _ RT C1); [lia|].
    unfold state_row. cbn [sr_nt].
    rewrite (lookup_row code (fun a => negb (a_sp a <? g_nterm g) && negb (a_sp a =? g_nsym g))); auto.
    + destruct (SORT k x Hk) as (HX & _).
      assert (EMA : emits a = true) by (rewrite emits_exec, Ea; auto).
      destruct (act_at_ex _ _ Ha EMA) as (b & EB). rewrite EB. simpl. fold code. f_equal. f_equal.
      apply act_at_In in EB as (B1 & B2 & B3). apply (uniq_exec (x_ap x)); auto; [eapply (fn_uniq _ _ _ _ _ FN); eauto|].
      eapply (fn_ntexec _ _ _ _ _ FN); eauto. lia.
    + intros b E. rewrite E. destruct (Nat.ltb_spec (a_sp a) (g_nterm g)); [lia|]. destruct (Nat.eqb_spec (a_sp a) (g_nsym g)); [lia|auto].
  - intros st es v EE HV. destruct (oo_err _ _ OO es EE) as (EB & _).
    assert (DEF : rdz (yy_default (g_tab c)) st = Ok v -> exists k x, nth_error sorted k = Some x /\ k < nx /\
      ((exists a, In a (x_ap x) /\ exec a = true /\ a_sp a = es /\ v = code_of g o sorted a) \/
      st = Z.of_nat k /\
      v = match dflt_rule g (x_ap x) with
          | Some r => (Z.of_nat (irule r) + YY_MIN_REDUCE (g_tab c))%Z
          | None => YY_ERROR_ACTION (g_tab c)
          end)).
    { intros RD. assert (B : (0 <= st)%Z) by (unfold rdz in RD; destruct (Z.ltb_spec st 0); [discriminate|lia]).
      destruct (Z_of_nat_complete st B) as (k & ->). clear HV.
      pose proof RD as RD2. rewrite rdz_nat in RD. apply opt_Ok in RD.
      assert (LK : k < nx).
      { apply nth_error_Some_lt in RD. rewrite GT in RD. 
        unfold ReportTables in HT. cbv zeta in HT. apply bind_Ok in HT as ([p os] & _ & HT). cbn [fst snd] in HT.
        apply bind_Ok in HT as (n & _ & HT). apply bind_Ok in HT as (l1 & _ & HT). apply bind_Ok in HT as (l2 & _ & HT).
        match type of HT with Ok ?T = _ => assert (ET : t = T) by congruence end. rewrite ET in RD. cbn [yy_default] in RD.
        rewrite !map_length, firstn_length in RD. lia. }
      destruct (nth_error_lt_ex _ sorted k ltac:(lia)) as (x & Hk). exists k, x. split; auto. split; auto. right. split; auto.
      destruct (ROWS k _ (ROWK k x Hk LK)) as (_ & _ & DF). rewrite <- GT in DF. rewrite RD2 in DF.
      assert (EV := f_equal (fun r => match r with Ok z => z | _ => 0%Z end) DF). cbv beta iota in EV. rewrite EV.
      change (sr_dflt (state_row (g_nterm g) (g_nsym g) code x)) with (x_iDfltReduce x). fold ZR. rewrite (DFLT k x Hk).
      rewrite GT, C9, C6. auto. }
    unfold yy_find_reduce_action in HV. cbv zeta in HV. rewrite EES, EE in HV. cbn [option_map] in HV.
    destruct (YY_REDUCE_COUNT (g_tab c) <? st)%Z; [apply DEF; auto|].
    apply bind_Ok in HV as (i0 & _ & HV). apply bind_Ok in HV as (u & _ & HV).
    destruct (Z.ltb_spec (i0 + Z.of_nat es) 0) as [|G0]; [apply DEF; auto|].
    destruct (Z.leb_spec (YY_ACTTAB_COUNT (g_tab c)) (i0 + Z.of_nat es)) as [|G1]; [apply DEF; auto|]. cbn [orb] in HV.
    apply bind_Ok in HV as (y & HY & HV). destruct (Z.eqb_spec y (Z.of_nat es)) as [->|N]; cbn [negb] in HV; [|apply DEF; auto].
    rewrite GT in *.
    destruct (ReportTables_values _ _ _ _ _ _ HN ROWV HT (i0 + Z.of_nat es)%Z (Z.of_nat es) v) as (s & Hs & VS); auto; [lia|].
    apply in_map_iff in Hs as (x & <- & Hx). apply In_nth_error in Hx as (k & Hk).
    assert (LK : k < nx) by (pose proof (nth_error_Some_lt _ _ _ _ Hk) as X; rewrite firstn_length in X; lia).
    rewrite nth_error_firstn_lt in Hk by auto. exists k, x. split; auto. split; auto. left.
    destruct VS as [VS|VS]; cbn [state_row sr_tkn sr_nt] in VS; apply in_map_iff in VS as (a & E & I); apply filter_In in I as (I & F);
      apply andb_true_iff in F as (F & F2); inversion E as [[E1 E2]]; apply Nat2Z.inj in E1; subst es.
    + apply Nat.ltb_lt in F. lia.
    + exists a. split; auto. split; auto. destruct (SORT k x Hk) as (HX & _). eapply (fn_ntexec _ _ _ _ _ FN); eauto. lia.
Qed.

Lemma generated : lemon_generate sf ff cf o g = Ok c ->
  exists L aps xs sorted nx, lemon_front sf ff g = Ok L /\ lemon_actions sf ff o g = Ok aps /\
    gen_ok g o c (states_view L) aps xs sorted nx.
Proof. intros H. destruct (generated_from H) as (L & aps & xs & sorted & nx & _ & X). exists L, aps, xs, sorted, nx. exact X. Qed.
End Generate.
