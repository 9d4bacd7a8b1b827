(** Proofs about the hash tables of lemon. *)
From Coq Require Import List Arith NArith ZArith Bool Lia.
Import ListNotations.
From Verif Require Import Base LemonTableModel.
Open Scope res_scope.

Lemma land_le : forall a b, (N.land a b <= b)%N.
Proof.
  intros a b. assert (E : N.lxor (N.ldiff b a) (N.land a b) = b).
  { apply N.bits_inj. intros n. rewrite N.lxor_spec, N.ldiff_spec, N.land_spec. destruct (N.testbit b n), (N.testbit a n); reflexivity. }
  rewrite <- N.add_nocarry_lxor in E; [lia|].
  apply N.bits_inj. intros n. rewrite N.land_spec, N.ldiff_spec, N.land_spec, N.bits_0. destruct (N.testbit b n), (N.testbit a n); reflexivity.
Qed.

Lemma nth_repeat_nil : forall m n, nth m (repeat (@nil nat) n) [] = [].
Proof. intros m n. revert m. induction n as [|n IH]; intros [|m]; cbn [repeat nth]; auto. Qed.

Section Table.
Variables (K D : Type) (hash : K -> N) (keyeq : K -> K -> bool).
Hypothesis keyeq_ok : forall a b, keyeq a b = true <-> a = b.

Local Notation slot := (slot K hash).
Local Notation insert := (tab_insert K D hash keyeq).
Local Notation find := (tab_find K D hash keyeq).

Record tinv (t : htab K D) : Prop := {
  ti_pos : 0 < h_size t;
  ti_ht : length (h_ht t) = h_size t;
  ti_cnt : length (h_tbl t) <= h_size t;
  ti_in : forall i e, nth_error (h_tbl t) i = Some e -> In i (nth (slot (h_size t) (fst e)) (h_ht t) []);
  ti_lt : forall h i, In i (nth h (h_ht t) []) -> i < length (h_tbl t);
  ti_nd : forall i j e e', nth_error (h_tbl t) i = Some e -> nth_error (h_tbl t) j = Some e' -> fst e = fst e' -> i = j
}.

Lemma slot_lt : forall size k, 0 < size -> slot size k < size.
Proof. intros size k H. unfold LemonTableModel.slot. pose proof (land_le (hash k) (N.of_nat (size - 1))). lia. Qed.

Lemma init_inv : forall n, 0 < n -> tinv (tab_init n).
Proof.
  intros n H. constructor; cbn [tab_init h_size h_tbl h_ht]; auto; try lia.
  - now rewrite repeat_length.
  - cbn. lia.
  - intros [|i]; discriminate.
  - intros h i I. rewrite nth_repeat_nil in I. destruct I.
  - intros [|i]; discriminate.
Qed.

Lemma walk_ok : forall tbl k chain, (forall i, In i chain -> i < length tbl) ->
  (exists i e, tab_walk K D keyeq tbl k chain = Ok (Some (snd e)) /\ In i chain /\ nth_error tbl i = Some e /\ fst e = k) \/
  (tab_walk K D keyeq tbl k chain = Ok None /\ forall i e, In i chain -> nth_error tbl i = Some e -> fst e <> k).
Proof.
  induction chain as [|i r IH]; intros H; [right; split; [reflexivity|intros i e []]|].
  cbn [tab_walk]. destruct (nth_error tbl i) as [e|] eqn:E.
  2: { apply nth_error_None in E. specialize (H i ltac:(now left)). lia. }
  cbn [opt bind]. destruct (keyeq (fst e) k) eqn:Q.
  - apply keyeq_ok in Q. left. exists i, e. split; [reflexivity|]. split; [now left|auto].
  - destruct IH as [(i' & e' & W & I & N)|(W & N)]; [intros; apply H; now right| |].
    + left. exists i', e'. split; [exact W|]. split; [now right|exact N].
    + right. split; [exact W|]. intros i' e' [<-|I] E'; [|eauto]. rewrite E in E'. inversion E'; subst e'.
      intros X. apply keyeq_ok in X. congruence.
Qed.

(** The chain of a key in a table that satisfies the invariant. *)
Lemma chain_ok : forall t k, tinv t -> exists c, nth_error (h_ht t) (slot (h_size t) k) = Some c /\
  ((exists i d, tab_walk K D keyeq (h_tbl t) k c = Ok (Some d) /\ nth_error (h_tbl t) i = Some (k, d)) \/
   (tab_walk K D keyeq (h_tbl t) k c = Ok None /\ forall i d, nth_error (h_tbl t) i <> Some (k, d))).
Proof.
  intros t k V. assert (HL : slot (h_size t) k < length (h_ht t)) by (rewrite (ti_ht _ V); apply slot_lt, V).
  exists (nth (slot (h_size t) k) (h_ht t) []). split; [now apply nth_error_nth'|].
  destruct (walk_ok (h_tbl t) k (nth (slot (h_size t) k) (h_ht t) [])) as [(i & (k' & d) & W & I & E & Q)|(W & N)].
  - intros i. apply (ti_lt _ V).
  - cbn [fst snd] in *. subst k'. left. eauto.
  - right. split; [exact W|]. intros i d E. pose proof (ti_in _ V _ _ E) as I. cbn [fst] in I. exact (N _ _ I E eq_refl).
Qed.

Lemma link_ok : forall size k i ht, 0 < size -> length ht = size -> exists ht', link K hash size k i ht = Ok ht' /\ length ht' = size /\
  forall h, nth h ht' [] = if h =? slot size k then i :: nth h ht [] else nth h ht [].
Proof.
  intros size k i ht P L. unfold link. assert (HL : slot size k < length ht) by (rewrite L; now apply slot_lt).
  rewrite (nth_error_nth' _ [] HL). cbn [opt bind]. eexists. split; [reflexivity|]. rewrite upd_length. split; [exact L|].
  intros h. destruct (h =? slot size k) eqn:E.
  - apply Nat.eqb_eq in E. subst h. now rewrite nth_upd_eq.
  - apply Nat.eqb_neq in E. rewrite nth_upd_ne by congruence. reflexivity.
Qed.

Lemma relink_ok : forall size tbl i ht, 0 < size -> length ht = size -> exists ht', relink K D hash size tbl i ht = Ok ht' /\ length ht' = size /\
  forall h x, In x (nth h ht' []) <-> In x (nth h ht []) \/ exists e, nth_error tbl (x - i) = Some e /\ i <= x /\ h = slot size (fst e).
Proof.
  intros size. induction tbl as [|e tbl IH]; intros i ht P L; cbn [relink].
  - exists ht. split; [reflexivity|]. split; [exact L|]. intros h x. split; [auto|]. intros [|(e & E & _)]; [auto|]. destruct (x - i); discriminate.
  - destruct (link_ok size (fst e) i ht P L) as (ht1 & E1 & L1 & N1). rewrite E1. cbn [bind].
    destruct (IH (S i) ht1 P L1) as (ht2 & E2 & L2 & N2). exists ht2. split; [exact E2|]. split; [exact L2|].
    intros h x. rewrite N2, N1. split.
    + intros [H|(e' & E' & Lx & ->)].
      * destruct (h =? slot size (fst e)) eqn:Q; [|auto]. apply Nat.eqb_eq in Q. destruct H as [<-|H]; [|auto].
        right. exists e. rewrite Nat.sub_diag. auto.
      * right. exists e'. replace (x - i) with (S (x - S i)) by lia. split; [exact E'|]. split; [lia|reflexivity].
    + intros [H|(e' & E' & Lx & ->)].
      * left. destruct (h =? slot size (fst e)); [right|]; exact H.
      * destruct (Nat.eq_dec x i) as [->|NE].
        -- rewrite Nat.sub_diag in E'. inversion E'; subst e'. left. rewrite Nat.eqb_refl. now left.
        -- right. exists e'. replace (x - i) with (S (x - S i)) in E' by lia. split; [exact E'|]. split; [lia|reflexivity].
Qed.

Lemma grow_ok : forall t, tinv t -> exists t', tab_grow K D hash t = Ok t' /\ tinv t' /\ h_tbl t' = h_tbl t /\ h_size t' = 2 * h_size t.
Proof.
  intros t V. pose proof (ti_pos _ V) as P. unfold tab_grow. cbn zeta.
  destruct (relink_ok (h_size t * 2) (h_tbl t) 0 (repeat [] (h_size t * 2)) ltac:(lia) ltac:(apply repeat_length)) as (ht & E & L & N).
  rewrite E. cbn [bind]. eexists. split; [reflexivity|]. split; [|cbn [h_tbl h_size]; split; [reflexivity|lia]].
  constructor; cbn [h_size h_tbl h_ht]; auto.
  - lia.
  - pose proof (ti_cnt _ V). lia.
  - intros i e Ee. apply N. right. exists e. rewrite Nat.sub_0_r. auto with arith.
  - intros h i I. apply N in I as [I|(e & Ee & _)]; [rewrite nth_repeat_nil in I; destruct I|].
    rewrite Nat.sub_0_r in Ee. apply nth_error_Some. congruence.
  - apply (ti_nd _ V).
Qed.

Lemma insert_old : forall t k d i d', tinv t -> nth_error (h_tbl t) i = Some (k, d') -> insert k d t = Ok (false, t).
Proof.
  intros t k d i d' V E. destruct (chain_ok t k V) as (c & EC & [(j & d2 & W & _)|(_ & N)]).
  - unfold tab_insert. rewrite EC. cbn [opt bind]. rewrite W. reflexivity.
  - exfalso. exact (N _ _ E).
Qed.

Lemma insert_new : forall t k d, tinv t -> (forall i d', nth_error (h_tbl t) i <> Some (k, d')) ->
  exists t', insert k d t = Ok (true, t') /\ tinv t' /\ h_tbl t' = h_tbl t ++ [(k, d)].
Proof.
  intros t k d V NK. destruct (chain_ok t k V) as (c & EC & [(j & d2 & _ & E)|(W & _)]); [exfalso; exact (NK _ _ E)|].
  unfold tab_insert. rewrite EC. cbn [opt bind]. rewrite W. cbn [bind].
  assert (G : exists t1, (if h_size t <=? length (h_tbl t) then tab_grow K D hash t else Ok t) = Ok t1 /\ tinv t1 /\ h_tbl t1 = h_tbl t /\ length (h_tbl t1) < h_size t1).
  { destruct (h_size t <=? length (h_tbl t)) eqn:Q.
    - destruct (grow_ok t V) as (t1 & E & V1 & B & SZ). exists t1. split; [exact E|]. split; [exact V1|]. split; [exact B|].
      rewrite B, SZ. pose proof (ti_cnt _ V). pose proof (ti_pos _ V). lia.
    - apply Nat.leb_gt in Q. exists t. auto. }
  destruct G as (t1 & E1 & V1 & B1 & L1). rewrite E1. cbn [bind]. apply Nat.ltb_lt in L1 as L1'. rewrite L1'.
  destruct (link_ok (h_size t1) k (length (h_tbl t1)) (h_ht t1) (ti_pos _ V1) (ti_ht _ V1)) as (ht & E2 & L2 & N2). rewrite E2. cbn [bind].
  eexists. split; [reflexivity|]. split; [|cbn [h_tbl]; now rewrite B1].
  assert (AP : forall i e, nth_error (h_tbl t1 ++ [(k, d)]) i = Some e -> nth_error (h_tbl t1) i = Some e \/ (i = length (h_tbl t1) /\ e = (k, d))).
  { intros i e E. destruct (Nat.lt_ge_cases i (length (h_tbl t1))) as [H|H]; [left; now rewrite nth_error_app1 in E|].
    rewrite nth_error_app2 in E by exact H. destruct (i - length (h_tbl t1)) as [|m] eqn:Q; [|destruct m; discriminate]. inversion E. right. split; [lia|reflexivity]. }
  constructor; cbn [h_size h_tbl h_ht].
  - apply (ti_pos _ V1).
  - exact L2.
  - rewrite app_length. cbn. lia.
  - intros i e E. rewrite N2. destruct (AP _ _ E) as [E'|(-> & ->)].
    + pose proof (ti_in _ V1 _ _ E'). destruct (_ =? _); [now right|auto].
    + cbn [fst]. rewrite Nat.eqb_refl. now left.
  - intros h i I. rewrite N2 in I. rewrite app_length. cbn [length]. destruct (h =? _).
    + destruct I as [<-|I]; [lia|]. apply (ti_lt _ V1) in I. lia.
    + apply (ti_lt _ V1) in I. lia.
  - intros i j e e' E E' Q. destruct (AP _ _ E) as [H|(-> & ->)], (AP _ _ E') as [H'|(-> & ->)]; auto.
    + eapply (ti_nd _ V1); eauto.
    + exfalso. destruct e as (k1 & d1). cbn [fst] in Q. subst k1. rewrite B1 in H. exact (NK _ _ H).
    + exfalso. destruct e' as (k1 & d1). cbn [fst] in Q. subst k1. rewrite B1 in H'. exact (NK _ _ H').
Qed.

(** The entry of a key in a list of pairs. *)
Fixpoint assoc (l : list (K * D)) (k : K) : option D :=
  match l with [] => None | (k', d) :: r => if keyeq k' k then Some d else assoc r k end.

Lemma assoc_some : forall l k d, assoc l k = Some d -> exists i, nth_error l i = Some (k, d).
Proof.
  induction l as [|(k' & d') l IH]; intros k d H; [discriminate|]. cbn [assoc] in H. destruct (keyeq k' k) eqn:Q.
  - apply keyeq_ok in Q. inversion H; subst. exists 0. reflexivity.
  - destruct (IH _ _ H) as (i & E). exists (S i). exact E.
Qed.

Lemma assoc_none : forall l k, assoc l k = None -> forall i d, nth_error l i <> Some (k, d).
Proof.
  induction l as [|(k' & d') l IH]; intros k H i d E; [destruct i; discriminate|]. cbn [assoc] in H. destruct (keyeq k' k) eqn:Q; [discriminate|].
  destruct i as [|i]; cbn [nth_error] in E; [|exact (IH _ H _ _ E)]. inversion E; subst.
  assert (keyeq k k = true) by now apply keyeq_ok. congruence.
Qed.

Lemma assoc_ex : forall l k i d, nth_error l i = Some (k, d) -> exists d', assoc l k = Some d'.
Proof. intros l k i d E. destruct (assoc l k) eqn:Q; [eauto|]. exfalso. exact (assoc_none _ _ Q _ _ E). Qed.

Lemma find_ok : forall t k, tinv t -> find k t = Ok (assoc (h_tbl t) k).
Proof.
  intros t k V. unfold tab_find. destruct (chain_ok t k V) as (c & EC & H). rewrite EC. cbn [opt bind].
  destruct H as [(i & d & W & E)|(W & N)]; rewrite W; f_equal.
  - destruct (assoc_ex _ _ _ _ E) as (d' & Q). rewrite Q. destruct (assoc_some _ _ _ Q) as (j & E').
    pose proof (ti_nd _ V _ _ _ _ E E' eq_refl). subst j. rewrite E in E'. congruence.
  - destruct (assoc (h_tbl t) k) eqn:Q; [|reflexivity]. destruct (assoc_some _ _ _ Q) as (j & E'). exfalso. exact (N _ _ E').
Qed.

(** The insertions of a history that are accepted: those of new keys. *)
Fixpoint accepted (l : list (K * D)) (acc : list (K * D)) : list (K * D) :=
  match l with
  | [] => acc
  | (k, d) :: r => match assoc acc k with Some _ => accepted r acc | None => accepted r (acc ++ [(k, d)]) end
  end.

Fixpoint verdicts (l : list (K * D)) (acc : list (K * D)) : list bool :=
  match l with
  | [] => []
  | (k, d) :: r => match assoc acc k with Some _ => false :: verdicts r acc | None => true :: verdicts r (acc ++ [(k, d)]) end
  end.

Lemma inserts_ok : forall l t, tinv t -> exists t', tab_inserts K D hash keyeq l t = Ok (verdicts l (h_tbl t), t') /\ tinv t' /\ h_tbl t' = accepted l (h_tbl t).
Proof.
  induction l as [|(k & d) l IH]; intros t V; cbn [tab_inserts verdicts accepted]; [exists t; auto|].
  destruct (assoc (h_tbl t) k) as [d0|] eqn:Q.
  - destruct (assoc_some _ _ _ Q) as (i & E). rewrite (insert_old t k d i d0 V E). cbn [bind fst snd].
    destruct (IH t V) as (t' & E' & V' & B'). rewrite E'. cbn [bind fst snd]. exists t'. auto.
  - destruct (insert_new t k d V (assoc_none _ _ Q)) as (t1 & E1 & V1 & B1). rewrite E1. cbn [bind fst snd].
    destruct (IH t1 V1) as (t' & E' & V' & B'). rewrite E'. cbn [bind fst snd]. rewrite B1 in *. exists t'. auto.
Qed.

Lemma clear_inv : forall t, tinv t -> tinv (tab_clear t) /\ h_tbl (tab_clear t) = [].
Proof.
  intros t V. unfold tab_clear. destruct (length (h_tbl t) =? 0) eqn:E.
  - split; [exact V|]. apply Nat.eqb_eq in E. destruct (h_tbl t); [reflexivity|discriminate].
  - split; [|reflexivity]. exact (init_inv (h_size t) (ti_pos _ V)).
Qed.
End Table.

Lemma streq_ok : forall a b, streq a b = true <-> a = b.
Proof.
  induction a as [|x a IH]; intros [|y b]; cbn [streq]; try (split; [discriminate|discriminate]); [tauto|].
  rewrite andb_true_iff, Z.eqb_eq, IH. split; [intros [-> ->]; reflexivity|intros E; inversion E; auto].
Qed.

Lemma Configcmp_ok : forall a b, (Configcmp a b =? 0)%Z = true <-> a = b.
Proof.
  intros (a1 & a2) (b1 & b2). unfold Configcmp. cbn [fst snd]. rewrite Z.eqb_eq. destruct (_ =? 0)%Z eqn:E.
  - apply Z.eqb_eq in E. split; [intros H; f_equal; lia|intros H; inversion H; lia].
  - apply Z.eqb_neq in E. split; [lia|intros H; inversion H; lia].
Qed.

Lemma statecmp_ok : forall a b, (statecmp a b =? 0)%Z = true <-> a = b.
Proof.
  induction a as [|x a IH]; intros [|y b]; cbn [statecmp]; try (split; [discriminate|discriminate]); [tauto|].
  pose proof (Configcmp_ok x y) as C. destruct (Configcmp x y =? 0)%Z eqn:E.
  - rewrite IH. destruct C as [C _]. specialize (C eq_refl). subst y. split; [intros ->; reflexivity|intros H; now inversion H].
  - split; [intros H; congruence|]. intros H. inversion H; subst. destruct C as [_ C]. specialize (C eq_refl). discriminate.
Qed.
