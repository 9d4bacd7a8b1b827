(** The packed grammar arrays of byacc and the items they stand for. *)
From Coq Require Import List Arith NArith ZArith Lia Bool.
Import ListNotations.
From Verif Require Import Base SpecGrammar SpecGrammarFacts SpecLRFacts SpecByacc ByaccLr0Model.

(** All packed rules: byacc's rule k + 2 is entry k. *)
Definition prules (s : bsrc) : list (nat * list nat) :=
  (b_ntokens s, [S (b_ntokens s); 0]) :: b_rules s.

Definition rsize (p : nat * list nat) : nat := S (length (snd p)).
Definition base (s : bsrc) (k : nat) : nat := S (list_sum (map rsize (firstn k (prules s)))).
(** The ritem position of an item. *)
Definition idx (s : bsrc) (i : item) : nat := base s (fst i) + snd i.

Lemma pack_grammar_eq : forall s, pack_grammar s =
  let '(it, ls, os) := pack_rules 2 1 (prules s) in
  mkBG (b_ntokens s) (b_nsyms s) ((-1)%Z :: it) (0 :: 0 :: ls) (0 :: 0 :: os).
Proof.
  intros s. unfold pack_grammar, prules. cbn [pack_rules length Nat.add].
  destruct (pack_rules 3 4 (b_rules s)) as [[it ls] os]. reflexivity.
Qed.

Definition rcode (n : nat) (r : list nat) (d : nat) : Z :=
  match nth_error r d with Some x => Z.of_nat x | None => (- Z.of_nat n)%Z end.

Lemma firstn_sum_S : forall P k p, nth_error P k = Some p ->
  list_sum (map rsize (firstn (S k) P)) = list_sum (map rsize (firstn k P)) + rsize p.
Proof.
  induction P as [|q P IH]; intros [|k] p H; cbn [nth_error] in H; try discriminate.
  - inversion H; subst. unfold list_sum; cbn [firstn map fold_right]. lia.
  - cbn [firstn map list_sum fold_right]. specialize (IH k p H). cbn [firstn map] in IH.
    unfold list_sum in *. cbn [fold_right] in *. rewrite IH. lia.
Qed.

Lemma pack_rules_spec : forall P i j it ls os, pack_rules i j P = (it, ls, os) ->
  ls = map fst P /\ length os = S (length P) /\
  (forall k, k <= length P -> nth_error os k = Some (j + list_sum (map rsize (firstn k P)))) /\
  length it = list_sum (map rsize P) /\
  (forall k l r d, nth_error P k = Some (l, r) -> d <= length r ->
     nth_error it (list_sum (map rsize (firstn k P)) + d) = Some (rcode (i + k) r d)).
Proof.
  induction P as [|[l0 r0] P IH]; intros i j it ls os H; cbn [pack_rules] in H.
  - inversion H; subst. cbn. repeat split; auto.
    + intros k Hk. assert (k = 0) by lia. subst. cbn. f_equal. lia.
    + intros k l r d Hk. destruct k; discriminate.
  - destruct (pack_rules (S i) (S (j + length r0)) P) as [[it' ls'] os'] eqn:E.
    apply IH in E as (E1 & E2 & E3 & E4 & E5). inversion H; subst. clear H IH.
    repeat split.
    + cbn [length]. now rewrite E2.
    + intros [|k] Hk; cbn [nth_error firstn map]; [cbn; f_equal; lia|].
      rewrite E3 by (cbn [length] in Hk; lia). f_equal. unfold list_sum; cbn [fold_right]. unfold rsize at 2. cbn [snd]. lia.
    + rewrite app_length, map_length. cbn [length map]. rewrite E4. unfold list_sum; cbn [fold_right]. unfold rsize at 2. cbn [snd]. lia.
    + intros [|k] l r d Hk Hd; cbn [nth_error] in Hk.
      * inversion Hk; subst. cbn [firstn map list_sum fold_right Nat.add]. unfold rcode. rewrite Nat.add_0_r.
        destruct (nth_error r d) as [x|] eqn:Ed.
        -- rewrite nth_error_app1 by (rewrite map_length; eapply nth_error_Some_lt; eauto). now apply map_nth_error.
        -- apply nth_error_None in Ed. rewrite nth_error_app2 by (rewrite map_length; lia). rewrite map_length.
           replace (d - length r) with 0 by lia. reflexivity.
      * cbn [firstn map]. unfold list_sum; cbn [fold_right]. unfold rsize at 1. cbn [snd].
        rewrite nth_error_app2 by (rewrite map_length; lia). rewrite map_length.
        replace (S (length r0) + fold_right Nat.add 0 (map rsize (firstn k P)) + d - length r0)
          with (S (list_sum (map rsize (firstn k P)) + d)) by (unfold list_sum; lia).
        cbn [nth_error]. rewrite (E5 k l r d Hk Hd). f_equal. f_equal. lia.
Qed.

Section Pack.
Variable s : bsrc.
Let b := pack_grammar s.

Lemma b_ntok : ntokens b = b_ntokens s.
Proof. unfold b. rewrite pack_grammar_eq. destruct (pack_rules 2 1 (prules s)) as [[it ls] os]. reflexivity. Qed.
Lemma b_nsy : nsyms b = b_nsyms s.
Proof. unfold b. rewrite pack_grammar_eq. destruct (pack_rules 2 1 (prules s)) as [[it ls] os]. reflexivity. Qed.

Lemma b_rlhs : rlhs b = 0 :: 0 :: map fst (prules s).
Proof.
  unfold b. rewrite pack_grammar_eq. destruct (pack_rules 2 1 (prules s)) as [[it ls] os] eqn:E.
  apply pack_rules_spec in E as (E & _). cbn. now subst.
Qed.

Lemma b_nrules : nrules b = 2 + length (prules s).
Proof. unfold nrules. rewrite b_rlhs. cbn [length]. now rewrite map_length. Qed.

Lemma b_rrhs : forall k, k <= length (prules s) -> nth_error (rrhs b) (S (S k)) = Some (base s k).
Proof.
  intros k H. unfold b. rewrite pack_grammar_eq. destruct (pack_rules 2 1 (prules s)) as [[it ls] os] eqn:E.
  apply pack_rules_spec in E as (_ & _ & E & _). cbn [rrhs nth_error]. rewrite E by auto. reflexivity.
Qed.

Lemma b_nitems : nitems b = base s (length (prules s)).
Proof.
  unfold nitems, b. rewrite pack_grammar_eq. destruct (pack_rules 2 1 (prules s)) as [[it ls] os] eqn:E.
  apply pack_rules_spec in E as (_ & _ & _ & E & _). cbn [ritem length]. unfold base. now rewrite firstn_all, E.
Qed.

Lemma b_ritem : forall k l r d, nth_error (prules s) k = Some (l, r) -> d <= length r ->
  nth_error (ritem b) (base s k + d) = Some (rcode (S (S k)) r d).
Proof.
  intros k l r d H Hd. unfold b. rewrite pack_grammar_eq. destruct (pack_rules 2 1 (prules s)) as [[it ls] os] eqn:E.
  apply pack_rules_spec in E as (_ & _ & _ & _ & E). cbn [ritem]. unfold base. cbn [Nat.add nth_error].
  rewrite (E k l r d H Hd). reflexivity.
Qed.

Lemma base_S : forall k l r, nth_error (prules s) k = Some (l, r) -> base s (S k) = base s k + S (length r).
Proof. intros k l r H. unfold base. rewrite (firstn_sum_S _ _ _ H). unfold rsize. cbn [snd]. lia. Qed.

Lemma base_0 : base s 0 = 1.
Proof. reflexivity. Qed.

Lemma base_mono : forall k k', k <= k' -> base s k <= base s k'.
Proof.
  intros k k' H. induction H as [|k' H IH]; [auto|]. destruct (nth_error (prules s) k') as [[l r]|] eqn:E.
  - rewrite (base_S _ _ _ E). lia.
  - unfold base in *. apply nth_error_None in E. rewrite (firstn_all2 (n := S k')) by lia.
    rewrite (firstn_all2 (n := k')) in IH by lia. exact IH.
Qed.

(** Every ritem position from 1 on belongs to exactly one rule and dot. *)
Lemma base_cover : forall n x, n <= length (prules s) -> 1 <= x < base s n ->
  exists k l r d, nth_error (prules s) k = Some (l, r) /\ d <= length r /\ x = base s k + d /\ k < n.
Proof.
  induction n as [|n IH]; intros x Hn Hx; [rewrite base_0 in Hx; lia|].
  destruct (nth_error_lt_ex _ (prules s) n) as ([l r] & E); [lia|]. rewrite (base_S _ _ _ E) in Hx.
  destruct (Nat.lt_ge_cases x (base s n)) as [L|L].
  - destruct (IH x ltac:(lia) ltac:(lia)) as (k & l' & r' & d & A & B & C & D). exists k, l', r', d. repeat split; auto.
  - exists n, l, r, (x - base s n). repeat split; auto; lia.
Qed.

Lemma pos_cover : forall x, 1 <= x < nitems b ->
  exists k l r d, nth_error (prules s) k = Some (l, r) /\ d <= length r /\ x = base s k + d.
Proof.
  intros x H. rewrite b_nitems in H. destruct (base_cover _ x (le_n _) H) as (k & l & r & d & A & B & C & _). eauto 8.
Qed.

Lemma pos_lt : forall k l r k' d d', nth_error (prules s) k = Some (l, r) -> d <= length r -> k < k' ->
  base s k + d < base s k' + d'.
Proof.
  intros k l r k' d d' H Hd L. pose proof (base_mono (S k) k' L) as M. rewrite (base_S _ _ _ H) in M. lia.
Qed.

Lemma pos_inj : forall k l r d k' l' r' d', nth_error (prules s) k = Some (l, r) -> d <= length r ->
  nth_error (prules s) k' = Some (l', r') -> d' <= length r' -> base s k + d = base s k' + d' -> k = k' /\ d = d'.
Proof.
  intros k l r d k' l' r' d' H Hd H' Hd' E. destruct (Nat.lt_trichotomy k k') as [L|[->|L]].
  - pose proof (pos_lt _ _ _ k' d d' H Hd L). lia.
  - split; [auto|lia].
  - pose proof (pos_lt _ _ _ k d' d H' Hd' L). lia.
Qed.

Lemma prule_In : forall k l r, nth_error (prules s) (S k) = Some (l, r) -> In (l, r) (b_rules s).
Proof. intros k l r H. cbn in H. eapply nth_error_In; eauto. Qed.

(** ** Items of the augmented grammar *)

(** The right-hand side of rule k as the specification sees it. *)
Lemma aug_rule : forall k rl, rule_of (aug s) k = Some rl ->
  exists l r, nth_error (prules s) k = Some (l, r) /\ r_lhs rl = l /\
    r_rhs rl = map ESym (if k =? 0 then [S (b_ntokens s)] else r) /\ length (r_rhs rl) <= length r /\
    (k <> 0 -> In (l, r) (b_rules s)).
Proof.
  intros [|k] rl H; unfold rule_of in H; cbn in H.
  - inversion H; subst. exists (b_ntokens s), [S (b_ntokens s); 0]. cbn. repeat split; auto. intros; congruence.
  - rewrite nth_error_map in H. destruct (nth_error (b_rules s) k) as [[l r]|] eqn:E; [|discriminate].
    cbn in H. inversion H; subst. exists l, r. cbn. rewrite map_length. repeat split; auto. intros _. eapply nth_error_In; eauto.
Qed.

Lemma aug_rule_inv : forall k l r, nth_error (prules s) k = Some (l, r) ->
  rule_of (aug s) k = Some (mkRule l (map ESym (if k =? 0 then [S (b_ntokens s)] else r))).
Proof.
  intros [|k] l r H; unfold rule_of; cbn in *.
  - inversion H; subst. reflexivity.
  - rewrite nth_error_map, H. reflexivity.
Qed.

Lemma item_ok_pos : forall i, item_ok (aug s) i -> exists l r, nth_error (prules s) (fst i) = Some (l, r) /\ snd i <= length r.
Proof.
  intros i (rl & H & L). apply aug_rule in H as (l & r & A & B & C & D & _). exists l, r. split; [auto|lia].
Qed.

Lemma idx_inj : forall i j, item_ok (aug s) i -> item_ok (aug s) j -> idx s i = idx s j -> i = j.
Proof.
  intros i j Hi Hj E. apply item_ok_pos in Hi as (l & r & A & B). apply item_ok_pos in Hj as (l' & r' & C & D).
  unfold idx in E. destruct (pos_inj _ _ _ _ _ _ _ _ A B C D E). destruct i, j; cbn in *; congruence.
Qed.

Lemma idx_range : forall i, item_ok (aug s) i -> 1 <= idx s i < nitems b.
Proof.
  intros i H. apply item_ok_pos in H as (l & r & A & B). unfold idx. rewrite b_nitems. split.
  - pose proof (base_mono 0 (fst i) ltac:(lia)). rewrite base_0 in H. lia.
  - pose proof (nth_error_Some_lt _ _ _ _ A) as L. pose proof (pos_lt _ _ _ (length (prules s)) (snd i) 0 A B L). lia.
Qed.

(** The ritem entry of an item: the symbol after the dot, minus the rule for a
    completed user rule, 0 for [$accept : goal .]. *)
Lemma idx_ritem : forall i, item_ok (aug s) i -> nth_error (ritem b) (idx s i) =
  Some (match after_dot (aug s) i with
        | Some (ESym x) => Z.of_nat x
        | Some (EMulti _) => 0%Z
        | None => if fst i =? 0 then 0%Z else (- Z.of_nat (S (S (fst i))))%Z
        end).
Proof.
  intros [k d] (rl & H & L). pose proof H as H0. apply aug_rule in H as (l & r & A & B & C & D & _). cbn [fst snd] in *.
  unfold idx. cbn [fst snd]. rewrite (b_ritem k l r d A ltac:(lia)). f_equal.
  unfold after_dot. cbn [fst snd]. rewrite H0, C. unfold rcode.
  destruct (Nat.eqb_spec k 0) as [->|N].
  - cbn in A. inversion A; subst. rewrite C in L. cbn in L. destruct d as [|[|d]]; [reflexivity|reflexivity|lia].
  - rewrite nth_error_map. destruct (nth_error r d); reflexivity.
Qed.

Lemma after_dot_wf : wf_src s -> forall i X, after_dot (aug s) i = Some X ->
  exists x, X = ESym x /\ 0 < x < b_nsyms s /\ x <> b_ntokens s.
Proof.
  intros W [k d] X H. unfold after_dot in H. cbn [fst snd] in H. destruct (rule_of (aug s) k) as [rl|] eqn:E; [|discriminate].
  apply aug_rule in E as (l & r & A & B & C & D & I). rewrite C, nth_error_map in H.
  destruct (nth_error (if k =? 0 then [S (b_ntokens s)] else r) d) as [x|] eqn:Ex; [|discriminate].
  cbn in H. inversion H; subst. exists x. split; [auto|]. destruct (Nat.eqb_spec k 0) as [->|N].
  - destruct d; cbn in Ex; [|destruct d; discriminate]. inversion Ex; subst. destruct W. lia.
  - destruct W as [_ _ WR]. destruct (WR _ _ (I N)) as [_ WX]. apply WX. eapply nth_error_In; eauto.
Qed.

(** ritem entries of nonterminals and terminals. *)
Lemma idx_var : wf_src s -> forall i z, item_ok (aug s) i -> nth_error (ritem b) (idx s i) = Some z -> forall x,
  (after_dot (aug s) i = Some (ESym x) <-> 0 < x /\ z = Z.of_nat x).
Proof.
  intros W i z OK E x. rewrite idx_ritem in E by auto. inversion E as [Ez]. clear E. split.
  - intros A. rewrite A. destruct (after_dot_wf W _ _ A) as (y & Ey & Hy & _). inversion Ey; subst. split; [lia|auto].
  - intros [P Ex]. destruct (after_dot (aug s) i) as [X|] eqn:A.
    + destruct (after_dot_wf W _ _ A) as (y & -> & Hy & _). do 2 f_equal. lia.
    + destruct (fst i =? 0); lia.
Qed.

End Pack.
