(** byacc's set_nullable computes exactly the nullable nonterminals. *)
From Coq Require Import List Arith NArith ZArith Lia Bool.
Import ListNotations.
From Verif Require Import Base SpecGrammar SpecGrammarFacts SpecLRFacts SpecByacc ByaccLr0Model ByaccPackProof.
Open Scope res_scope.

Fixpoint flat (i : nat) (P : list (nat * list nat)) : list Z :=
  match P with
  | [] => []
  | (l, r) :: P' => map Z.of_nat r ++ (- Z.of_nat i)%Z :: flat (S i) P'
  end.

Lemma flat_pack : forall P i j, fst (fst (pack_rules i j P)) = flat i P.
Proof.
  induction P as [|[l r] P IH]; intros i j; cbn [pack_rules flat]; [reflexivity|].
  specialize (IH (S i) (S (j + length r))). destruct (pack_rules (S i) (S (j + length r)) P) as [[it ls] os].
  cbn in *. now rewrite IH.
Qed.

Lemma ritem_flat : forall s, tl (ritem (pack_grammar s)) = flat 2 (prules s).
Proof.
  intros s. rewrite pack_grammar_eq. pose proof (flat_pack (prules s) 2 1) as F.
  destruct (pack_rules 2 1 (prules s)) as [[it ls] os]. exact F.
Qed.

Definition nset (nl : list bool) (x : nat) : bool := nth x nl false.

(** One rule of a pass. *)
Definition null_rule (p : nat * list nat) (st : list bool * bool) : list bool * bool :=
  let (nl, done) := st in
  if forallb (nset nl) (snd p) && negb (nset nl (fst p)) then (upd nl (fst p) true, false) else (nl, done).

Definition null_rules (P : list (nat * list nat)) (st : list bool * bool) : list bool * bool :=
  fold_left (fun st p => null_rule p st) P st.

Section Null.
Variable s : bsrc.
Hypothesis W : wf_src s.
Let b := pack_grammar s.

Lemma null_pass_rhs : forall r z rest inr empty nl done, (forall x, In x r -> x < length nl) -> (z < 0)%Z ->
  null_pass b (map Z.of_nat r ++ z :: rest) inr empty nl done =
  null_pass b (z :: rest) inr (empty && forallb (nset nl) r) nl done.
Proof.
  induction r as [|x r IH]; intros z rest inr empty nl done Hr Hz; cbn [map app forallb].
  - now rewrite andb_true_r.
  - cbn [null_pass]. replace (0 <=? Z.of_nat x)%Z with true by (symmetry; apply Z.leb_le; lia). rewrite Nat2Z.id.
    destruct (nth_error_lt_ex _ nl x) as (v & Ev); [apply Hr; now left|]. rewrite Ev. cbn [opt bind].
    rewrite IH; [|intros y Hy; apply Hr; now right|auto].
    cbn [null_pass]. replace (0 <=? z)%Z with false by (symmetry; apply Z.leb_gt; lia).
    unfold nset at 2. rewrite (nth_error_nth _ _ false Ev). destruct v, empty; reflexivity.
Qed.

Lemma null_pass_ok : forall P i nl done, (forall l r, In (l, r) P -> l < length nl /\ forall x, In x r -> x < length nl) ->
  (forall k l r, nth_error P k = Some (l, r) -> nth_error (rlhs b) (i + k) = Some l) -> 0 < i ->
  null_pass b (flat i P) false true nl done = Ok (null_rules P (nl, done)).
Proof.
  induction P as [|[l r] P IH]; intros i nl done HP HL Hi; [reflexivity|]. cbn [flat].
  change (null_rules ((l, r) :: P) (nl, done)) with (null_rules P (null_rule (l, r) (nl, done))).
  destruct (HP l r (or_introl eq_refl)) as [Hl Hr].
  rewrite null_pass_rhs by (auto; lia). cbn [null_pass].
  replace (0 <=? - Z.of_nat i)%Z with false by (symmetry; apply Z.leb_gt; lia). cbn [andb].
  assert (IH' : forall nl' done', length nl' = length nl ->
    null_pass b (flat (S i) P) false true nl' done' = Ok (null_rules P (nl', done'))).
  { intros nl' done' L. apply IH; [|intros k l' r' H; specialize (HL (S k) l' r' H); now rewrite Nat.add_succ_r in HL|lia].
    intros l' r' I. rewrite L. apply HP. now right. }
  unfold null_rule. cbn [fst snd]. destruct (forallb (nset nl) r); cbn [andb].
  - specialize (HL 0 l r eq_refl). rewrite Nat.add_0_r in HL. rewrite Z.opp_involutive, Nat2Z.id, HL. cbn [opt bind].
    destruct (nth_error_lt_ex _ nl l Hl) as (v & Ev). rewrite Ev. cbn [opt bind].
    unfold nset. rewrite (nth_error_nth _ _ false Ev). destruct v; cbn [negb]; apply IH'; [auto|apply upd_length].
  - apply IH'. auto.
Qed.

Definition tcount (nl : list bool) : nat := length (filter (fun v => v) nl).

Lemma tcount_upd : forall nl l, l < length nl -> nset nl l = false -> tcount (upd nl l true) = S (tcount nl).
Proof.
  induction nl as [|v nl IH]; intros [|l] H N; cbn in *; try lia.
  - subst. reflexivity.
  - unfold tcount in *. cbn. specialize (IH l ltac:(lia) N). destruct v; cbn; lia.
Qed.

Lemma tcount_le : forall nl, tcount nl <= length nl.
Proof. induction nl as [|v nl IH]; unfold tcount in *; cbn; [lia|]. destruct v; cbn; lia. Qed.

(** What a pass does. *)
Lemma null_rules_ok : forall P nl done, (forall l r, In (l, r) P -> l < length nl) ->
  let st := null_rules P (nl, done) in
  length (fst st) = length nl /\ (forall x, nset nl x = true -> nset (fst st) x = true) /\
  (snd st = true -> fst st = nl /\ done = true /\ forall l r, In (l, r) P -> forallb (nset nl) r = true -> nset nl l = true) /\
  (snd st = false -> done = true -> tcount nl < tcount (fst st)) /\ tcount nl <= tcount (fst st).
Proof.
  induction P as [|[l r] P IH]; intros nl done HP; [cbn [null_rules fold_left]|change (null_rules ((l, r) :: P) (nl, done)) with (null_rules P (null_rule (l, r) (nl, done)))].
  - cbn. split; [auto|]. split; [auto|]. split; [|split; [congruence|auto]].
    intros D. split; [auto|]. split; [auto|]. intros l r [].
  - unfold null_rule. cbn [fst snd].
    destruct (forallb (nset nl) r && negb (nset nl l)) eqn:E.
    + apply andb_true_iff in E as [E1 E2]. apply negb_true_iff in E2. pose proof (HP l r (or_introl eq_refl)) as Hl.
      specialize (IH (upd nl l true) false). rewrite upd_length in IH. destruct IH as (A & B & C & D & F).
      { intros l' r' I. apply (HP l' r'). now right. }
      rewrite tcount_upd in D, F by auto. split; [exact A|]. split; [|split; [|split]].
      * intros x Hx. apply B. unfold nset in *. destruct (Nat.eq_dec l x) as [->|N]; [now apply nth_upd_eq|]. now rewrite nth_upd_ne.
      * intros H. destruct (C H) as (_ & C2 & _). discriminate.
      * intros. lia.
      * lia.
    + destruct (IH nl done) as (A & B & C & D & F). { intros l' r' I. apply (HP l' r'). now right. }
      split; [exact A|]. split; [exact B|]. split; [|split; [exact D|exact F]].
      intros H. destruct (C H) as (C1 & C2 & C3). split; [auto|]. split; [auto|].
      intros l' r' [I|I] Hf; [|eauto]. inversion I; subst. rewrite Hf in E. cbn in E. now apply negb_false_iff in E.
Qed.

Lemma null_rules_sound : forall (Q : nat -> Prop) P nl done,
  (forall l r, In (l, r) P -> Forall Q r -> Q l) -> (forall x, nset nl x = true -> Q x) ->
  forall x, nset (fst (null_rules P (nl, done))) x = true -> Q x.
Proof.
  intros Q. induction P as [|[l r] P IH]; intros nl done HP HQ; [exact HQ|].
  change (null_rules ((l, r) :: P) (nl, done)) with (null_rules P (null_rule (l, r) (nl, done))).
  unfold null_rule. cbn [fst snd]. assert (HP' : forall l r, In (l, r) P -> Forall Q r -> Q l).
  { intros l' r' I. apply HP. now right. }
  destruct (forallb (nset nl) r && negb (nset nl l)) eqn:E; [|apply IH; auto].
  apply IH; auto. intros x Hx. unfold nset in Hx. destruct (Nat.eq_dec l x) as [->|N].
  - apply (HP x r (or_introl eq_refl)). apply andb_true_iff in E as [E _]. rewrite forallb_forall in E.
    apply Forall_forall. intros y Hy. apply HQ. auto.
  - rewrite nth_upd_ne in Hx by auto. apply HQ. exact Hx.
Qed.

Lemma prules_wf : forall l r, In (l, r) (prules s) -> l < b_nsyms s /\ forall x, In x r -> x < b_nsyms s.
Proof.
  destruct W as [T G R]. intros l r [I|I].
  - inversion I; subst. split; [lia|]. intros x [<-|[<-|[]]]; lia.
  - apply R in I as [I1 I2]. split; [lia|]. intros x Hx. apply I2 in Hx. lia.
Qed.

Lemma rlhs_prules : forall k l r, nth_error (prules s) k = Some (l, r) -> nth_error (rlhs b) (2 + k) = Some l.
Proof. intros k l r H. unfold b. rewrite b_rlhs. cbn [Nat.add nth_error]. now rewrite nth_error_map, H. Qed.

Lemma null_loop_ok : forall (Q : nat -> Prop), (forall l r, In (l, r) (prules s) -> Forall Q r -> Q l) ->
  forall fuel nl, length nl = b_nsyms s -> b_nsyms s < fuel + tcount nl -> (forall x, nset nl x = true -> Q x) ->
  exists nl', null_loop fuel b nl = Ok nl' /\ length nl' = b_nsyms s /\ (forall x, nset nl' x = true -> Q x) /\
    (forall l r, In (l, r) (prules s) -> forallb (nset nl') r = true -> nset nl' l = true).
Proof.
  intros Q HQ. induction fuel as [|f IH]; intros nl L F S; [pose proof (tcount_le nl); lia|].
  cbn [null_loop]. unfold b at 2. rewrite ritem_flat. fold b.
  rewrite null_pass_ok; [|intros l r I; rewrite L; now apply prules_wf|intros k l r H; exact (rlhs_prules k l r H)|lia].
  cbn [bind].
  destruct (null_rules_ok (prules s) nl true) as (A & B & C & D & E). { intros l r I. rewrite L. exact (proj1 (prules_wf l r I)). }
  pose proof (null_rules_sound Q (prules s) nl true HQ S) as NS.
  destruct (null_rules (prules s) (nl, true)) as [nl' done]. cbn [fst snd] in *. destruct done.
  - destruct (C eq_refl) as (-> & _ & C3). exists nl. auto.
  - apply IH; [lia| |auto]. specialize (D eq_refl eq_refl). lia.
Qed.

Lemma nset_repeat : forall n x, nset (repeat false n) x = false.
Proof. intros n x. apply nth_repeat_same. Qed.

(** The nullable nonterminals of the user's grammar. *)
Lemma null_user_rule : forall l r, In (l, r) (prules s) -> Forall (fun x => nullable (user s) [ESym x]) r -> nullable (user s) [ESym l].
Proof.
  intros l r [I|I] F.
  - inversion I; subst. inversion F as [|? ? _ F2]; subst. inversion F2; subst. exfalso.
    eapply (term_not_nullable (user s) (wf_user s W) 0); [|eassumption]. unfold is_term. cbn. destruct W. lia.
  - change (ESym l) with (ESym (r_lhs (spec_rule (l, r)))). apply nullable_rule; [cbn; now apply in_map|].
    cbn. clear I. induction r as [|x r IH]; cbn; [apply nullable_nil|]. inversion F; subst. apply nullable_cons. auto.
Qed.

Lemma set_nullable_ok : forall fuel, b_nsyms s < fuel ->
  exists nl, set_nullable fuel b = Ok nl /\ length nl = b_nsyms s /\
    forall x, nset nl x = true <-> nullable (user s) [ESym x].
Proof.
  intros fuel F. unfold set_nullable. unfold b at 2. rewrite b_nsy.
  destruct (null_loop_ok (fun x => nullable (user s) [ESym x]) null_user_rule fuel (repeat false (b_nsyms s))) as (nl & E & L & S & C).
  - apply repeat_length.
  - lia.
  - intros x H. rewrite nset_repeat in H. discriminate.
  - exists nl. split; [auto|]. split; [auto|]. intros x. split; [apply S|].
    intros N. apply (nullable_least (user s) (wf_user s W) (fun x => nset nl x = true)); [|exact N].
    intros rl I Fo. cbn in I. apply in_map_iff in I as ([l r] & <- & I). cbn in *. apply (C l r); [now right|].
    apply forallb_forall. intros y Hy. rewrite Forall_forall in Fo. apply (Fo (ESym y)). now apply in_map.
Qed.

(** Nullability in the augmented grammar is the same except for $accept. *)
Lemma nullable_aug : forall x, x <> b_ntokens s -> (nullable (aug s) [ESym x] <-> nullable (user s) [ESym x]).
Proof.
  intros x N. split.
  - intros H. assert (G : x <> b_ntokens s -> nullable (user s) [ESym x]); [|auto]. clear N.
    apply (nullable_least (aug s) (wf_aug s W) (fun x => x <> b_ntokens s -> nullable (user s) [ESym x])); [|exact H].
    intros rl I Fo NE. cbn in I. destruct I as [<-|I]; [cbn in NE; congruence|].
    apply in_map_iff in I as ([l r] & <- & I). cbn in *. apply (null_user_rule l r); [now right|].
    apply Forall_forall. intros y Hy. rewrite Forall_forall in Fo. apply (Fo (ESym y)); [now apply in_map|].
    destruct W as [_ _ R]. destruct (R l r I) as [_ R2]. apply R2 in Hy. lia.
  - intros H. apply (nullable_least (user s) (wf_user s W) (fun x => nullable (aug s) [ESym x])); [|exact H].
    intros rl I Fo. apply nullable_rule; [cbn; now right|].
    cbn in I. apply in_map_iff in I as ([l r] & <- & I). cbn in *. clear I.
    induction r as [|y r IH]; cbn in *; [apply nullable_nil|]. inversion Fo; subst. apply nullable_cons. auto.
Qed.

End Null.
