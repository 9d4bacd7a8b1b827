(** Proofs about pack_symbols and the rule precedences of byacc/reader.c. *)
From Coq Require Import List Arith ZArith Bool Lia Sorted.
Import ListNotations.
From Verif Require Import Base ByaccLr0Model ByaccLalrModel ByaccDigraphProof ByaccParModel ByaccActionsProof ByaccTablesProof ByaccReaderModel.

Open Scope res_scope.

(** * The sorted array of explicit codes *)

Definition desc := StronglySorted (fun a b : Z => (b <= a)%Z).
Definition asc := StronglySorted Z.le.

Lemma ins_down_in : forall n l x, In x (ins_down n l) <-> x = n \/ In x l.
Proof.
  induction l as [|y r IH]; cbn [ins_down]; intros x; [cbn [In]; intuition|].
  destruct (n <? y)%Z; cbn [In]; rewrite ?IH; cbn [In]; intuition.
Qed.

Lemma ins_down_desc : forall n l, desc l -> desc (ins_down n l).
Proof.
  intros n l H. induction H as [|y r H IH F]; cbn [ins_down].
  - constructor; constructor.
  - destruct (n <? y)%Z eqn:E.
    + apply Z.ltb_lt in E. constructor; auto. apply Forall_forall. intros x Hx.
      apply ins_down_in in Hx. rewrite Forall_forall in F. destruct Hx as [->|Hx]; [lia|auto].
    + apply Z.ltb_ge in E. constructor; [constructor; auto|]. constructor; auto.
      rewrite Forall_forall in *. intros x Hx. specialize (F x Hx). cbn in F. lia.
Qed.

Lemma desc_rev : forall l, desc l -> asc (rev l).
Proof.
  induction 1 as [|y r H IH F]; cbn [rev]; [constructor|].
  assert (G : forall (a : list Z) y, asc a -> Forall (fun b => (b <= y)%Z) a -> asc (a ++ [y])).
  { clear. intros a y H F. induction H as [|x a H IH G]; cbn [app].
    - constructor; constructor.
    - inversion F; subst. constructor; [exact (IH H3)|]. apply Forall_app. split; auto. }
  apply G; auto. apply Forall_rev. exact F.
Qed.

Lemma explicit_fold : forall vals acc, desc acc ->
  let r := fold_left (fun l n => if (256 <? n)%Z then ins_down n l else l) vals acc in
  desc r /\ forall x, In x r <-> In x acc \/ (In x vals /\ (256 < x)%Z).
Proof.
  induction vals as [|v vals IH]; cbn [fold_left]; intros acc D; cbn zeta.
  - split; auto. intros x. cbn [In]. tauto.
  - destruct (256 <? v)%Z eqn:E.
    + apply Z.ltb_lt in E. destruct (IH (ins_down v acc) (ins_down_desc _ _ D)) as (A & B). split; auto.
      intros x. rewrite B, ins_down_in. cbn [In]. split; [intros [[->|]|[? ?]]|intros [|[[->|] ?]]]; auto.
    + apply Z.ltb_ge in E. destruct (IH acc D) as (A & B). split; auto.
      intros x. rewrite B. cbn [In]. split; [intros [|[? ?]]|intros [|[[->|] ?]]]; auto. lia.
Qed.

Lemma explicit_ok : forall vals, asc (explicit_codes vals) /\ forall x, In x (explicit_codes vals) <-> In x vals /\ (256 < x)%Z.
Proof.
  intros vals. unfold explicit_codes. destruct (explicit_fold vals [] ltac:(constructor)) as (A & B). split.
  - apply desc_rev. exact A.
  - intros x. rewrite <- in_rev, B. cbn [In]. tauto.
Qed.

(** * The search for the next free code *)

Lemma skip_used_ok : forall l inner n l' n', asc l -> (forall x, In x l -> (n <= x)%Z) ->
  skip_used inner l n = (l', n') ->
  (n <= n')%Z /\ (inner = true -> (n < n')%Z) /\ asc l' /\ (forall x, In x l' -> (n' < x)%Z) /\ (forall x, In x l -> In x l' \/ (x < n')%Z).
Proof.
  induction l as [|y r IH]; cbn [skip_used]; intros inner n l' n' A L E.
  - inversion E; subst. destruct inner.
    + split; [lia|]. split; [lia|]. split; [constructor|]. split; intros x [].
    + split; [lia|]. split; [discriminate|]. split; [constructor|]. split; intros x [].
  - inversion A as [|? ? A' F]; subst. rewrite Forall_forall in F.
    assert (Ly : (n <= y)%Z) by (apply L; now left).
    destruct (n =? y)%Z eqn:E1.
    + apply Z.eqb_eq in E1. subst y. destruct (IH true n l' n' A') as (P1 & P2 & P3 & P4 & P5); auto.
      specialize (P2 eq_refl). split; [lia|]. split; [auto|]. split; [auto|]. split; [auto|].
      intros x [->|Hx]; auto.
    + apply Z.eqb_neq in E1. destruct inner.
      * destruct (n + 1 =? y)%Z eqn:E2.
        -- apply Z.eqb_eq in E2. subst y. destruct (IH true (n + 1)%Z l' n' A') as (P1 & P2 & P3 & P4 & P5); auto.
           specialize (P2 eq_refl). split; [lia|]. split; [lia|]. split; [auto|]. split; [auto|].
           intros x [<-|Hx]; auto.
        -- apply Z.eqb_neq in E2. inversion E; subst. split; [lia|]. split; [lia|]. split; [auto|]. split; [|auto].
           intros x [<-|Hx]; [lia|]. specialize (F x Hx). lia.
      * inversion E; subst. split; [lia|]. split; [discriminate|]. split; [auto|]. split; [|auto].
        intros x [<-|Hx]; [lia|]. specialize (F x Hx). lia.
Qed.

Lemma assign_length : forall vals l n, length (assign_codes vals l n) = length vals.
Proof.
  induction vals as [|v vals IH]; cbn [assign_codes]; intros l n; auto.
  destruct (v =? UNDEFINED)%Z; [destruct (skip_used false l n)|]; cbn [length]; auto.
Qed.

Lemma assign_explicit : forall vals l n i v, nth_error vals i = Some v -> v <> UNDEFINED -> nth_error (assign_codes vals l n) i = Some v.
Proof.
  induction vals as [|x vals IH]; cbn [assign_codes]; intros l n i v E U; [destruct i; discriminate|].
  destruct i as [|i]; cbn [nth_error] in E.
  - inversion E; subst. apply Z.eqb_neq in U. rewrite U. reflexivity.
  - destruct (x =? UNDEFINED)%Z; [destruct (skip_used false l n)|]; cbn [nth_error]; auto.
Qed.

Lemma assign_auto : forall vals l n i c, asc l -> (forall x, In x l -> (n <= x)%Z) ->
  nth_error vals i = Some UNDEFINED -> nth_error (assign_codes vals l n) i = Some c ->
  (n <= c)%Z /\ ~ In c l /\
  forall j c', i < j -> nth_error vals j = Some UNDEFINED -> nth_error (assign_codes vals l n) j = Some c' -> (c < c')%Z.
Proof.
  induction vals as [|x vals IH]; cbn [assign_codes]; intros l n i c A L E C; [destruct i; discriminate|].
  destruct (x =? UNDEFINED)%Z eqn:X.
  - destruct (skip_used false l n) as (l', n') eqn:SK. destruct (skip_used_ok _ _ _ _ _ A L SK) as (P1 & _ & P3 & P4 & P5).
    assert (L' : forall y, In y l' -> (n' + 1 <= y)%Z) by (intros y Hy; specialize (P4 y Hy); lia).
    destruct i as [|i]; cbn [nth_error] in E, C.
    + inversion C; subst c. split; [lia|]. split.
      * intros Hc. destruct (P5 _ Hc) as [H|H]; [specialize (P4 _ H)|]; lia.
      * intros j c' Hj E' C'. destruct j as [|j]; [lia|]. cbn [nth_error] in E', C'.
        destruct (IH _ _ _ _ P3 L' E' C') as (Q & _). lia.
    + destruct (IH _ _ _ _ P3 L' E C) as (Q1 & Q2 & Q3). split; [lia|]. split.
      * intros Hc. destruct (P5 _ Hc) as [H|H]; [auto|lia].
      * intros j c' Hj E' C'. destruct j as [|j]; [lia|]. cbn [nth_error] in E', C'. apply (Q3 j); auto; lia.
  - destruct i as [|i]; cbn [nth_error] in E, C.
    + inversion E; subst. discriminate.
    + destruct (IH _ _ _ _ A L E C) as (Q1 & Q2 & Q3). split; [lia|]. split; auto.
      intros j c' Hj E' C'. destruct j as [|j]; [lia|]. cbn [nth_error] in E', C'. apply (Q3 j); auto; lia.
Qed.

Lemma token_codes_length : forall vals, length (token_codes vals) = length vals.
Proof. intros [|e r]; cbn [token_codes length]; auto. now rewrite assign_length. Qed.

Lemma token_codes_explicit : forall vals i v, nth_error vals i = Some v -> v <> UNDEFINED -> nth_error (token_codes vals) i = Some v.
Proof.
  intros [|e r] i v E U; [destruct i; discriminate|]. cbn [token_codes]. destruct i as [|i]; cbn [nth_error] in *.
  - inversion E; subst. apply Z.eqb_neq in U. now rewrite U.
  - now apply assign_explicit.
Qed.

Lemma token_codes_error : forall vals, nth_error vals 0 = Some UNDEFINED -> nth_error (token_codes vals) 0 = Some 256%Z.
Proof. intros [|e r] E; [discriminate|]. inversion E; subst. reflexivity. Qed.

Lemma token_codes_auto : forall vals i c, 0 < i -> nth_error vals i = Some UNDEFINED -> nth_error (token_codes vals) i = Some c ->
  (256 < c)%Z /\ forall j c', j <> i -> nth_error (token_codes vals) j = Some c' -> c <> c'.
Proof.
  intros [|e r] i c Hi E C; [destruct i; discriminate|].
  destruct (explicit_ok (e :: r)) as (A & B).
  assert (L : forall x, In x (explicit_codes (e :: r)) -> (257 <= x)%Z) by (intros x Hx; apply B in Hx; lia).
  remember (explicit_codes (e :: r)) as xs eqn:XS.
  destruct i as [|i]; [lia|]. cbn [token_codes nth_error] in E, C. rewrite <- XS in C.
  destruct (assign_auto _ _ _ _ _ A L E C) as (P1 & P2 & P3). split; [lia|].
  intros j c' Hj C'.
  assert (HV : exists v, nth_error (e :: r) j = Some v).
  { destruct (nth_error (e :: r) j) eqn:G; [eauto|]. apply nth_error_None in G.
    assert (nth_error (token_codes (e :: r)) j <> None) by congruence. apply nth_error_Some in H. rewrite token_codes_length in H. lia. }
  destruct HV as (v & Ev). destruct (Z.eq_dec v UNDEFINED) as [U|U].
  - subst v. destruct j as [|j].
    + rewrite (token_codes_error _ Ev) in C'. inversion C'. lia.
    + cbn [nth_error] in Ev. cbn [token_codes nth_error] in C'. rewrite <- XS in C'.
      destruct (Nat.lt_ge_cases i j) as [H|H].
      * specialize (P3 _ _ H Ev C'). lia.
      * destruct (assign_auto _ _ _ _ _ A L Ev C') as (_ & _ & Q3). assert (H' : j < i) by lia. specialize (Q3 _ _ H' E C). lia.
  - rewrite (token_codes_explicit _ _ _ Ev U) in C'. inversion C'; subst c'. intros ->. apply P2. apply B. split; [|lia].
    eapply nth_error_In; eauto.
Qed.

(** * The indices *)

Definition nterm (l : list bsym) : nat := length (filter sy_term l).

Lemma sym_indices_length : forall syms pos goal start i k, length (sym_indices syms pos goal start i k) = length syms.
Proof.
  induction syms as [|x r IH]; cbn [sym_indices]; intros; auto.
  destruct (sy_term x); [|destruct (pos =? goal)]; cbn [length]; auto.
Qed.

Lemma index_term : forall syms pos goal start i k a x, nth_error syms a = Some x -> sy_term x = true ->
  nth_error (sym_indices syms pos goal start i k) a = Some (i + nterm (firstn a syms)).
Proof.
  induction syms as [|y r IH]; cbn [sym_indices]; intros pos goal start i k a x E T; [destruct a; discriminate|].
  destruct a as [|a]; cbn [nth_error] in E.
  - inversion E; subst. rewrite T. cbn. f_equal. lia.
  - cbn [firstn]. unfold nterm. cbn [filter]. destruct (sy_term y); [|destruct (pos =? goal)]; cbn [nth_error length];
      rewrite (IH _ _ _ _ _ _ _ E T); f_equal; unfold nterm; lia.
Qed.

Lemma index_goal : forall syms pos goal start i k a x, nth_error syms a = Some x -> sy_term x = false -> pos + a = goal ->
  nth_error (sym_indices syms pos goal start i k) a = Some (S start).
Proof.
  induction syms as [|y r IH]; cbn [sym_indices]; intros pos goal start i k a x E T G; [destruct a; discriminate|].
  destruct a as [|a]; cbn [nth_error] in E.
  - inversion E; subst. rewrite T, Nat.add_0_r, Nat.eqb_refl. reflexivity.
  - destruct (sy_term y); [|destruct (pos =? goal)]; cbn [nth_error]; eapply IH; eauto; lia.
Qed.

(** Every index, and the value written with it. *)
Lemma indices_in : forall syms pos goal start i k e, In e (sym_indices syms pos goal start i k) ->
  (i <= e < i + nterm syms) \/ e = S start \/ (k <= e < k + length (filter (fun x => negb (sy_term x)) syms)).
Proof.
  induction syms as [|y r IH]; cbn [sym_indices]; intros pos goal start i k e H; [destruct H|].
  unfold nterm. cbn [filter]. destruct (sy_term y); cbn [negb length].
  - destruct H as [<-|H]; [left; lia|]. apply IH in H. unfold nterm in H. destruct H as [H|[H|H]]; [left; lia|auto|right; right; lia].
  - destruct (pos =? goal).
    + destruct H as [<-|H]; [auto|]. apply IH in H. unfold nterm in H. destruct H as [H|[H|H]]; [left; lia|auto|right; right; lia].
    + destruct H as [<-|H]; [right; right; lia|]. apply IH in H. unfold nterm in H. destruct H as [H|[H|H]]; [left; lia|auto|right; right; lia].
Qed.

Lemma indices_no_goal : forall syms pos goal start i k, goal < pos -> start + 1 < k -> i + nterm syms <= start ->
  ~ In (S start) (sym_indices syms pos goal start i k).
Proof.
  induction syms as [|y r IH]; cbn [sym_indices]; intros pos goal start i k G K I H; [destruct H|].
  unfold nterm in I. cbn [filter] in I. destruct (sy_term y); cbn [length] in I.
  - destruct H as [H|H]; [lia|]. apply IH in H; unfold nterm; lia.
  - assert (E : pos =? goal = false) by (apply Nat.eqb_neq; lia). rewrite E in H.
    destruct H as [H|H]; [lia|]. apply IH in H; unfold nterm; lia.
Qed.

Lemma indices_nodup : forall syms pos goal start i k, start + 1 < k -> i + nterm syms <= start ->
  NoDup (sym_indices syms pos goal start i k).
Proof.
  induction syms as [|y r IH]; cbn [sym_indices]; intros pos goal start i k K I; [constructor|].
  unfold nterm in I. cbn [filter] in I. destruct (sy_term y); cbn [length] in I.
  - constructor; [|apply IH; unfold nterm; lia]. intros H. apply indices_in in H. lia.
  - destruct (pos =? goal) eqn:E.
    + constructor; [|apply IH; unfold nterm; lia]. apply Nat.eqb_eq in E. apply indices_no_goal; unfold nterm; lia.
    + constructor; [|apply IH; unfold nterm; lia]. intros H. apply indices_in in H. unfold nterm in H. lia.
Qed.

(** How many nonterminals other than the goal there are. *)
Fixpoint nnt (syms : list bsym) (pos goal : nat) : nat :=
  match syms with
  | [] => 0
  | x :: r => (if sy_term x then 0 else if pos =? goal then 0 else 1) + nnt r (S pos) goal
  end.

Lemma nt_values_in : forall syms pos goal start i k z, (Z.of_nat (S start) + z = Z.of_nat k)%Z ->
  let idx := sym_indices syms pos goal start i k in
  (forall e v, In (e, v) (nt_values syms idx pos goal z) -> In e idx /\ (v = Z.of_nat e - Z.of_nat (S start))%Z) /\
  (forall e, k <= e < k + nnt syms pos goal -> In e (map fst (nt_values syms idx pos goal z))) /\
  (forall x, pos <= goal -> nth_error syms (goal - pos) = Some x -> sy_term x = false -> In (S start) (map fst (nt_values syms idx pos goal z))) /\
  (NoDup idx -> NoDup (map fst (nt_values syms idx pos goal z))) /\
  (forall e v, In (e, v) (nt_values syms idx pos goal z) -> e = S start \/ k <= e < k + nnt syms pos goal).
Proof.
  induction syms as [|y r IH]; cbn [sym_indices]; intros pos goal start i k z Z0; cbn zeta.
  - cbn [nt_values map fst In nnt]. split; [intros e v []|]. split; [lia|].
    split; [intros x _ E; destruct (goal - pos); discriminate|]. split; [intros; constructor|intros e v []].
  - destruct (sy_term y) eqn:T; [|destruct (pos =? goal) eqn:E].
    + destruct (IH (S pos) goal start (S i) k z Z0) as (P1 & P2 & P3 & P4 & P5).
      cbn [nt_values nnt]. rewrite T. cbn [Nat.add]. repeat split.
      * right. now apply (P1 _ _ H).
      * now apply (P1 _ _ H).
      * exact P2.
      * intros x Hp Hx Tx. destruct (Nat.eq_dec pos goal) as [->|N].
        -- rewrite Nat.sub_diag in Hx. inversion Hx; subst. congruence.
        -- replace (goal - pos) with (S (goal - S pos)) in Hx by lia. apply (P3 x); auto. lia.
      * intros ND. inversion ND; auto.
      * exact P5.
    + destruct (IH (S pos) goal start i k z Z0) as (P1 & P2 & P3 & P4 & P5).
      cbn [nt_values nnt]. rewrite T, E. cbn [Nat.add map fst]. apply Nat.eqb_eq in E. subst goal. repeat split.
      * destruct H as [H|H]; [inversion H; subst; now left|right; now apply (P1 _ _ H)].
      * destruct H as [H|H]; [inversion H; subst; lia|now apply (P1 _ _ H)].
      * intros e He. right. auto.
      * intros x Hp Hx Tx. now left.
      * intros ND. inversion ND as [|? ? NI ND']; subst. constructor; auto. intros H. apply NI.
        apply in_map_iff in H. destruct H as ((e & v) & Ee & H). cbn in Ee. subst e. now apply (P1 _ _ H).
      * intros e v [H|H]; [inversion H; auto|]. now apply (P5 _ _ H).
    + destruct (IH (S pos) goal start i (S k) (z + 1)%Z ltac:(lia)) as (P1 & P2 & P3 & P4 & P5).
      cbn [nt_values nnt]. rewrite T, E. cbn [Nat.add map fst]. apply Nat.eqb_neq in E. repeat split.
      * destruct H as [H|H]; [inversion H; subst; now left|right; now apply (P1 _ _ H)].
      * destruct H as [H|H]; [inversion H; subst; lia|now apply (P1 _ _ H)].
      * intros e He. destruct (Nat.eq_dec e k) as [->|N]; [now left|right]. apply P2. lia.
      * intros x Hp Hx Tx. right. replace (goal - pos) with (S (goal - S pos)) in Hx by lia. apply (P3 x); auto. lia.
      * intros ND. inversion ND as [|? ? NI ND']; subst. constructor; auto. intros H. apply NI.
        apply in_map_iff in H. destruct H as ((e & v) & Ee & H). cbn in Ee. subst e. now apply (P1 _ _ H).
      * intros e v [H|H]; [inversion H; subst; right; lia|]. destruct (P5 _ _ H) as [|]; auto. right. lia.
Qed.

Lemma nnt_count : forall syms pos goal x, pos <= goal -> nth_error syms (goal - pos) = Some x -> sy_term x = false ->
  S (nnt syms pos goal) + nterm syms = length syms.
Proof.
  assert (G0 : forall syms pos goal, goal < pos -> nnt syms pos goal + nterm syms = length syms).
  { induction syms as [|y r IH]; intros pos goal G; auto. cbn [nnt]. unfold nterm. cbn [filter].
    specialize (IH (S pos) goal ltac:(lia)). unfold nterm in IH.
    assert (E : pos =? goal = false) by (apply Nat.eqb_neq; lia). rewrite E.
    destruct (sy_term y); cbn [length]; lia. }
  induction syms as [|y r IH]; intros pos goal x Hp E T; [destruct (goal - pos); discriminate|].
  cbn [nnt]. unfold nterm. cbn [filter]. destruct (Nat.eq_dec pos goal) as [->|N].
  - rewrite Nat.sub_diag in E. inversion E; subst. rewrite T, Nat.eqb_refl. specialize (G0 r (S goal) goal ltac:(lia)).
    unfold nterm in G0. cbn [length]. lia.
  - replace (goal - pos) with (S (goal - S pos)) in E by lia. cbn [nth_error] in E.
    specialize (IH (S pos) goal x ltac:(lia) E T). unfold nterm in IH.
    apply Nat.eqb_neq in N. rewrite N. destruct (sy_term y); cbn [length]; lia.
Qed.

(** * Stores at distinct places *)

Lemma puts_ok : forall A (P : Type) (key : P -> nat) (val : P -> A) d (ps : list P) (a : list A),
  NoDup (map key ps) -> (forall p, In p ps -> key p < length a) ->
  exists a', fold_left (fun r p => b <- r ;; put b (key p) (val p)) ps (Ok a) = Ok a' /\ length a' = length a /\
    (forall p, In p ps -> nth (key p) a' d = val p) /\ (forall e, ~ In e (map key ps) -> nth e a' d = nth e a d).
Proof.
  intros A P key val d. induction ps as [|p ps IH]; intros a ND HL; cbn [fold_left].
  - exists a. repeat split; auto. intros p [].
  - cbn [map] in ND. inversion ND as [|? ? NI ND']; subst. cbn [bind]. rewrite put_ok by (apply HL; now left).
    destruct (IH (upd a (key p) (val p)) ND') as (a' & E & L & Q1 & Q2).
    { intros q Hq. rewrite upd_length. apply HL. now right. }
    rewrite E. exists a'. split; [reflexivity|]. rewrite upd_length in L. split; [exact L|]. split.
    + intros q [<-|Hq]; [|auto]. rewrite Q2 by auto. apply nth_upd_eq. apply HL. now left.
    + intros e He. cbn [map In] in He. rewrite Q2 by tauto. apply nth_upd_ne. intros <-. tauto.
Qed.

(** * pack_symbols *)

Record pack_spec (syms : list bsym) (goal : nat) (pk : packed) : Prop := {
  ps_nt : pk_ntokens pk = S (nterm syms);
  ps_ns : pk_nsyms pk = 2 + length syms;
  ps_il : length (pk_index pk) = length syms;
  ps_nd : NoDup (pk_index pk);
  ps_tok : forall a x, nth_error syms a = Some x -> sy_term x = true -> nth_error (pk_index pk) a = Some (S (nterm (firstn a syms)));
  ps_ntm : forall a x, nth_error syms a = Some x -> sy_term x = false -> forall i, nth_error (pk_index pk) a = Some i -> pk_ntokens pk < i < pk_nsyms pk;
  ps_goal : nth_error (pk_index pk) goal = Some (S (pk_ntokens pk));
  ps_vl : length (pk_value pk) = pk_nsyms pk;
  ps_pl : length (pk_prec pk) = pk_nsyms pk;
  ps_al : length (pk_assoc pk) = pk_nsyms pk;
  ps_end : nth 0 (pk_value pk) 0%Z = 0%Z;
  ps_acc : nth (pk_ntokens pk) (pk_value pk) 0%Z = (-1)%Z;
  ps_code : forall t, t < nterm syms -> nth (S t) (pk_value pk) 0%Z = nth t (token_codes (map sy_value (filter sy_term syms))) 0%Z;
  ps_nv : forall k, pk_ntokens pk < k < pk_nsyms pk -> nth k (pk_value pk) 0%Z = Z.of_nat (k - pk_ntokens pk - 1);
  ps_prec : forall a x i, nth_error syms a = Some x -> nth_error (pk_index pk) a = Some i -> nth i (pk_prec pk) 0 = sy_prec x;
  ps_assoc : forall a x i, nth_error syms a = Some x -> nth_error (pk_index pk) a = Some i -> nth i (pk_assoc pk) TOKEN = sy_assoc x;
  ps_prec0 : forall i, i = 0 \/ i = pk_ntokens pk -> nth i (pk_prec pk) 0 = 0 /\ nth i (pk_assoc pk) TOKEN = TOKEN
}.

Lemma map_fst_combine : forall A B (l : list A) (m : list B), length l = length m -> map fst (combine l m) = l.
Proof. induction l as [|x l IH]; intros [|y m] H; try discriminate; cbn [combine map fst]; f_equal; auto. Qed.

Lemma in_combine_nth : forall A B (l : list A) (m : list B) a x y, nth_error l a = Some x -> nth_error m a = Some y -> In (x, y) (combine l m).
Proof.
  induction l as [|u l IH]; intros m a x y E1 E2; [destruct a; discriminate|].
  destruct m as [|v m]; [destruct a; discriminate|]. destruct a as [|a]; cbn [nth_error] in *.
  - inversion E1; inversion E2; subst. now left.
  - right. eapply IH; eauto.
Qed.

Lemma nonterm_count : forall syms, length (filter (fun x => negb (sy_term x)) syms) + nterm syms = length syms.
Proof. unfold nterm. induction syms as [|x r IH]; auto. cbn [filter]. destruct (sy_term x); cbn [negb length]; lia. Qed.

Lemma pack_symbols_ok : forall syms goal g, nth_error syms goal = Some g -> sy_term g = false ->
  exists pk, pack_symbols syms goal = Ok pk /\ pack_spec syms goal pk.
Proof.
  intros syms goal g G T. unfold pack_symbols. cbn zeta. fold (nterm syms).
  set (nt := S (nterm syms)). set (ns := 2 + length syms).
  assert (GL : goal < length syms) by (apply nth_error_Some; congruence).
  assert (NC := nonterm_count syms).
  assert (NN := nnt_count syms 0 goal g ltac:(lia) ltac:(rewrite Nat.sub_0_r; exact G) T).
  set (idx := sym_indices syms 0 goal nt 1 (nt + 2)).
  assert (ND : NoDup idx) by (apply indices_nodup; unfold nt; lia).
  assert (IL : length idx = length syms) by apply sym_indices_length.
  destruct (nt_values_in syms 0 goal nt 1 (nt + 2) 1%Z ltac:(lia)) as (V1 & V2 & V3 & V4 & V5). cbn zeta in *. fold idx in V1, V2, V3, V4, V5.
  assert (RB : forall e, In e idx -> 1 <= e < ns /\ e <> nt).
  { intros e H. destruct (In_nth_error _ _ H) as (a & Ea).
    assert (La : a < length syms) by (rewrite <- IL; apply nth_error_Some; congruence).
    destruct (nth_error syms a) as [x|] eqn:Ex; [|apply nth_error_None in Ex; lia].
    destruct (sy_term x) eqn:Tx.
    - unfold idx in Ea. rewrite (index_term _ _ _ _ _ _ _ _ Ex Tx) in Ea. inversion Ea. unfold nt, ns.
      assert (nterm (firstn a syms) < nterm syms).
      { rewrite <- (firstn_skipn a syms) at 2. unfold nterm. rewrite filter_app, app_length.
        assert (SK : skipn a syms = x :: skipn (S a) syms).
        { clear - Ex. revert a Ex. induction syms as [|y r IH]; intros a Ex; [destruct a; discriminate|].
          destruct a as [|a]; cbn [nth_error] in Ex; [inversion Ex; reflexivity|]. cbn [skipn]. now rewrite (IH _ Ex). }
        rewrite SK. cbn [filter]. rewrite Tx. cbn [length]. lia. }
      lia.
    - assert (Hv : In e (map fst (nt_values syms idx 0 goal 1%Z))).
      { assert (GEN : forall r jdx pos z b, nth_error jdx b = Some e -> nth_error r b = Some x -> In e (map fst (nt_values r jdx pos goal z))).
        { clear - Tx. induction r as [|y r IH]; intros jdx pos z b E1 E2; [destruct b; discriminate|].
          destruct jdx as [|j jdx]; [destruct b; discriminate|]. cbn [nt_values].
          destruct b as [|b]; cbn [nth_error] in E1, E2.
          - inversion E1; inversion E2; subst. rewrite Tx. destruct (pos =? goal); now left.
          - destruct (sy_term y); [eapply IH; eauto|]. destruct (pos =? goal); right; eapply IH; eauto. }
        eapply GEN; eauto. }
      apply in_map_iff in Hv. destruct Hv as ((e0 & v) & <- & Hv). cbn [fst]. unfold ns, nt in *. destruct (V5 _ _ Hv) as [->|]; lia. }
  remember (token_codes (map sy_value (filter sy_term syms))) as codes eqn:CO.
  assert (CL : length codes = nterm syms) by (rewrite CO, token_codes_length, map_length; reflexivity).
  set (value0 := (0%Z :: codes ++ [(-1)%Z]) ++ repeat 0%Z (ns - nt - 1)).
  assert (VL : length value0 = ns).
  { unfold value0. rewrite app_length, repeat_length. cbn [length]. rewrite app_length, CL. cbn [length]. unfold ns, nt. lia. }
  destruct (puts_ok Z (nat * Z) fst snd 0%Z (nt_values syms idx 0 goal 1%Z) value0 (V4 ND)) as (value & E1 & L1 & A1 & B1).
  { intros (e & v) H. cbn [fst]. rewrite VL. apply RB. now apply (V1 _ _ H). }
  rewrite E1. cbn [bind].
  assert (MF : map fst (combine idx syms) = idx) by (apply map_fst_combine; exact IL).
  destruct (puts_ok nat (nat * bsym) fst (fun p => sy_prec (snd p)) 0 (combine idx syms) (repeat 0 ns)) as (prec & E2 & L2 & A2 & B2).
  { rewrite MF. exact ND. }
  { intros (e & v) H. cbn [fst]. rewrite repeat_length. apply RB. now apply in_combine_l in H. }
  rewrite E2. cbn [bind].
  destruct (puts_ok bassoc (nat * bsym) fst (fun p => sy_assoc (snd p)) TOKEN (combine idx syms) (repeat TOKEN ns)) as (ass & E3 & L3 & A3 & B3).
  { rewrite MF. exact ND. }
  { intros (e & v) H. cbn [fst]. rewrite repeat_length. apply RB. now apply in_combine_l in H. }
  rewrite E3. cbn [bind]. rewrite MF in *. rewrite repeat_length in *.
  eexists. split; [reflexivity|].
  assert (FR : forall e, e <= nt -> ~ In e (map fst (nt_values syms idx 0 goal 1%Z))).
  { intros e He H. apply in_map_iff in H. destruct H as ((e0 & v) & <- & H). cbn [fst] in He. destruct (V5 _ _ H); lia. }
  assert (I0 : ~ In 0 idx) by (intros H; apply RB in H; lia).
  assert (I1 : ~ In nt idx) by (intros H; apply RB in H; tauto).
  constructor; cbn [pk_ntokens pk_nsyms pk_index pk_value pk_prec pk_assoc]; auto.
  - intros a x Ex Tx. unfold idx. rewrite (index_term _ _ _ _ _ _ _ _ Ex Tx). reflexivity.
  - intros a x Ex Tx i Ei.
    assert (Hv : In i (map fst (nt_values syms idx 0 goal 1%Z))).
    { assert (GEN : forall r jdx pos z b, nth_error jdx b = Some i -> nth_error r b = Some x -> In i (map fst (nt_values r jdx pos goal z))).
      { clear - Tx. induction r as [|y r IH]; intros jdx pos z b E1 E2; [destruct b; discriminate|].
        destruct jdx as [|j jdx]; [destruct b; discriminate|]. cbn [nt_values].
        destruct b as [|b]; cbn [nth_error] in E1, E2.
        - inversion E1; inversion E2; subst. rewrite Tx. destruct (pos =? goal); now left.
        - destruct (sy_term y); [eapply IH; eauto|]. destruct (pos =? goal); right; eapply IH; eauto. }
      eapply GEN; eauto. }
    apply in_map_iff in Hv. destruct Hv as ((e0 & v) & <- & Hv). cbn [fst]. unfold ns, nt in *. destruct (V5 _ _ Hv) as [->|]; lia.
  - unfold idx. eapply index_goal; eauto.
  - lia.
  - rewrite B1 by (apply FR; lia). reflexivity.
  - rewrite B1 by (apply FR; lia). unfold value0, nt. rewrite app_nth1 by (cbn [length]; rewrite app_length; cbn [length]; lia).
    cbn [nth]. rewrite app_nth2 by lia. rewrite CL, Nat.sub_diag. reflexivity.
  - intros t Ht. rewrite B1 by (apply FR; unfold nt; lia). unfold value0. rewrite app_nth1 by (cbn [length]; rewrite app_length; cbn [length]; lia).
    cbn [nth]. rewrite app_nth1 by lia. now rewrite CO.
  - intros k Hk. assert (Hi : In k (map fst (nt_values syms idx 0 goal 1%Z))).
    { destruct (Nat.eq_dec k (S nt)) as [->|N].
      - apply (V3 g); auto; [lia|]. now rewrite Nat.sub_0_r.
      - apply V2. unfold ns, nt in *. lia. }
    apply in_map_iff in Hi. destruct Hi as ((e & v) & Ee & H). cbn [fst] in Ee. subst e.
    specialize (A1 _ H). cbn [fst snd] in A1. rewrite A1. destruct (V1 _ _ H) as (_ & ->). lia.
  - intros a x i Ex Ei. exact (A2 _ (in_combine_nth _ _ _ _ _ _ _ Ei Ex)).
  - intros a x i Ex Ei. exact (A3 _ (in_combine_nth _ _ _ _ _ _ _ Ei Ex)).
  - assert (NR : forall A (d : A) n m, nth m (repeat d n) d = d).
    { clear. intros A d. induction n as [|n IH]; intros [|m]; cbn [repeat nth]; auto. }
    intros i [->| ->].
    + rewrite B2, B3 by auto. rewrite !NR. auto.
    + rewrite B2, B3 by auto. rewrite !NR. auto.
Qed.
