(** byacc/lalr.c: the tables indexed by states, set_goto_map and map_goto. *)
From Coq Require Import List Arith NArith ZArith Lia Bool Sorted.
Import ListNotations.
From Verif Require Import Base SpecGrammar SpecLRFacts SpecByacc ByaccLr0Model ByaccPackProof ByaccClosureProof
  ByaccLr0Proof ByaccStatesProof ByaccLalrModel ByaccDigraphProof ByaccLookSem.
Open Scope res_scope.

(** ** set_shift_table, set_reduction_table *)
Lemma set_table_ok : forall l t, srt (map fst l) -> (forall e, In e l -> fst e < length t) ->
  exists t', set_table l t = Ok t' /\ length t' = length t /\
  forall p, p < length t -> nth_error t' p = match find (fun e => fst e =? p) l with Some e => Some (Some (snd e)) | None => nth_error t p end.
Proof.
  induction l as [|[q e] l IH]; intros t H B; cbn [set_table].
  - exists t. split; [reflexivity|]. split; [auto|]. intros p _. reflexivity.
  - cbn [map fst] in H. inversion H as [|? ? H1 H2]; subst. assert (Lq : q < length t) by exact (B (q, e) (or_introl eq_refl)).
    rewrite put_ok by auto. cbn [bind]. destruct (IH (upd t q (Some e)) H1) as (t' & E & L & N).
    { intros e' He. rewrite upd_length. apply B. now right. }
    exists t'. split; [exact E|]. rewrite upd_length in *. split; [auto|]. intros p Lp. rewrite N by auto. cbn [find fst].
    destruct (Nat.eqb_spec q p) as [->|Nq].
    + destruct (find (fun e0 => fst e0 =? p) l) as [e0|] eqn:F; [|cbn [snd]; now apply nth_error_upd_eq].
      exfalso. apply find_some in F as [F1 F2]. apply Nat.eqb_eq in F2. rewrite Forall_forall in H2.
      assert (p < fst e0) by (apply H2, in_map; auto). lia.
    + destruct (find (fun e0 => fst e0 =? p) l); [auto|]. now apply nth_error_upd_ne.
Qed.

(** ** Counting sort *)
Section Sort.
Variable key : nat * nat -> nat.
Definition ofk (k : nat) (L : list (nat * nat)) : list (nat * nat) := filter (fun e => key e =? k) L.

(** Placing the entries one after the other. *)
Fixpoint fill_flat (L : list (nat * nat)) (tm from to : list nat) : res (list nat * list nat * list nat) :=
  match L with
  | [] => Ok (tm, from, to)
  | e :: r =>
      k <- opt (nth_error tm (key e)) ;;
      from' <- put from k (fst e) ;;
      to' <- put to k (snd e) ;;
      fill_flat r (upd tm (key e) (S k)) from' to'
  end.

Lemma fill_flat_ok : forall m L bs tm from to, (forall e, In e L -> key e < m) -> length tm = S m ->
  (forall k, k < m -> bs k <= nth k tm 0 /\ nth k tm 0 + length (ofk k L) <= bs (S k)) ->
  (forall k k', k <= k' -> k' <= m -> bs k <= bs k') -> bs m <= length from -> length to = length from ->
  exists tm' from' to', fill_flat L tm from to = Ok (tm', from', to') /\ length from' = length from /\ length to' = length to /\
  (forall k i e, k < m -> nth_error (ofk k L) i = Some e -> nth_error from' (nth k tm 0 + i) = Some (fst e) /\ nth_error to' (nth k tm 0 + i) = Some (snd e)) /\
  (forall j, (forall k, k < m -> ~ (nth k tm 0 <= j < nth k tm 0 + length (ofk k L))) -> nth_error from' j = nth_error from j /\ nth_error to' j = nth_error to j).
Proof.
  intros m. induction L as [|e L IH]; intros bs tm from to HK LT HB MB LF LL; cbn [fill_flat].
  - exists tm, from, to. split; [reflexivity|]. split; [auto|]. split; [auto|]. split; [|auto]. intros k [|i] e _ H; discriminate.
  - set (k0 := key e). assert (K0 : k0 < m) by (apply HK; now left).
    rewrite (nth_error_nth0 tm k0) by lia. cbn [opt bind]. set (x := nth k0 tm 0).
    assert (O0 : length (ofk k0 (e :: L)) = S (length (ofk k0 L))) by (unfold ofk; cbn [filter]; fold k0; rewrite Nat.eqb_refl; reflexivity).
    assert (ON : forall k, k <> k0 -> ofk k (e :: L) = ofk k L).
    { intros k N. unfold ofk. cbn [filter]. fold k0. replace (k0 =? k) with false by (symmetry; apply Nat.eqb_neq; auto). auto. }
    destruct (HB k0 K0) as [HB1 HB2]. rewrite O0 in HB2. fold x in HB1, HB2.
    assert (Lx : x < length from). { pose proof (MB (S k0) m ltac:(lia) ltac:(lia)). lia. }
    rewrite put_ok by auto. cbn [bind]. rewrite put_ok by lia. cbn [bind].
    assert (TN : forall k, nth k (upd tm k0 (S x)) 0 = if k =? k0 then S x else nth k tm 0).
    { intros k. destruct (Nat.eqb_spec k k0) as [->|N]; [apply nth_upd_eq; lia|apply nth_upd_ne; auto]. }
    destruct (IH bs (upd tm k0 (S x)) (upd from x (fst e)) (upd to x (snd e))) as (tm' & from' & to' & E & L1 & L2 & P & Q); rewrite ?upd_length; auto.
    { intros e' He. apply HK. now right. }
    { intros k Hk. rewrite TN. destruct (Nat.eqb_spec k k0) as [->|N]; [split; lia|]. rewrite <- (ON k N). auto. }
    rewrite upd_length in L1, L2. exists tm', from', to'. split; [exact E|]. split; [auto|]. split; [auto|].
    assert (DJ : forall k, k < m -> ~ (nth k (upd tm k0 (S x)) 0 <= x < nth k (upd tm k0 (S x)) 0 + length (ofk k L))).
    { intros k Hk R. rewrite TN in R. destruct (Nat.eqb_spec k k0) as [->|N]; [lia|]. rewrite <- (ON k N) in R.
      destruct (HB k Hk) as [Z1 Z2]. destruct (Nat.lt_trichotomy k k0) as [C|[C|C]]; [|congruence|].
      - pose proof (MB (S k) k0 ltac:(lia) ltac:(lia)). lia.
      - pose proof (MB (S k0) k ltac:(lia) ltac:(lia)). lia. }
    split.
    + intros k i e' Hk Ei. destruct (Nat.eq_dec k k0) as [->|N].
      * fold x. unfold ofk in Ei. cbn [filter] in Ei. fold k0 in Ei. rewrite Nat.eqb_refl in Ei. fold (ofk k0 L) in Ei.
        destruct i as [|i]; cbn [nth_error] in Ei.
        -- inversion Ei; subst e'. rewrite Nat.add_0_r. destruct (Q x DJ) as [Q1 Q2]. rewrite Q1, Q2.
           split; apply nth_error_upd_eq; lia.
        -- destruct (P k0 i e' Hk Ei) as [P1 P2]. rewrite TN, Nat.eqb_refl in P1, P2.
           replace (x + S i) with (S x + i) by lia. auto.
      * rewrite (ON k N) in Ei. destruct (P k i e' Hk Ei) as [P1 P2]. rewrite TN in P1, P2.
        replace (k =? k0) with false in P1, P2 by (symmetry; now apply Nat.eqb_neq). auto.
    + intros j Hj. assert (Nj : j <> x). { intros ->. apply (Hj k0 K0). fold x. rewrite O0. lia. }
      destruct (Q j) as [Q1 Q2].
      { intros k Hk R. rewrite TN in R. destruct (Nat.eqb_spec k k0) as [->|N].
        - apply (Hj k0 Hk). fold x. rewrite O0. lia.
        - rewrite <- (ON k N) in R. exact (Hj k Hk R). }
      rewrite Q1, Q2, !nth_error_upd_ne by auto. auto.
Qed.

Fixpoint count_flat (L : list (nat * nat)) (gm : list nat) (n : nat) : res (list nat * nat) :=
  match L with
  | [] => Ok (gm, n)
  | e :: r => x <- opt (nth_error gm (key e)) ;; count_flat r (upd gm (key e) (S x)) (S n)
  end.

Lemma count_flat_ok : forall m L gm n, (forall e, In e L -> key e < m) -> length gm = S m ->
  exists gm', count_flat L gm n = Ok (gm', n + length L) /\ length gm' = S m /\ forall k, k < m -> nth k gm' 0 = nth k gm 0 + length (ofk k L).
Proof.
  intros m. induction L as [|e L IH]; intros gm n HK LG; cbn [count_flat].
  - exists gm. rewrite Nat.add_0_r. split; [reflexivity|]. split; [auto|]. intros k _. cbn. lia.
  - assert (K0 : key e < m) by (apply HK; now left). rewrite (nth_error_nth0 gm) by lia. cbn [opt bind].
    destruct (IH (upd gm (key e) (S (nth (key e) gm 0))) (S n)) as (gm' & E & L1 & C); rewrite ?upd_length; auto.
    { intros e' He. apply HK. now right. }
    exists gm'. split; [rewrite E; do 2 f_equal; cbn [length]; lia|]. split; [auto|]. intros k Hk. rewrite C by auto.
    unfold ofk. cbn [filter]. destruct (Nat.eqb_spec (key e) k) as [<-|N].
    + rewrite nth_upd_eq by lia. cbn [length]. lia.
    + rewrite nth_upd_ne by auto. reflexivity.
Qed.

(** The keys partition a list. *)
Lemma ofk_total : forall m L, (forall e, In e L -> key e < m) -> list_sum (map (fun k => length (ofk k L)) (seq 0 m)) = length L.
Proof.
  intros m. induction L as [|e L IH]; intros HK.
  - cbn. induction (seq 0 m); cbn; auto.
  - cbn [length]. rewrite <- IH by (intros e' He; apply HK; now right). assert (K0 : key e < m) by (apply HK; now left).
    assert (Z : forall l, NoDup l -> list_sum (map (fun k => length (ofk k (e :: L))) l) =
      (if in_dec Nat.eq_dec (key e) l then 1 else 0) + list_sum (map (fun k => length (ofk k L)) l)).
    { induction l as [|k l IHl]; intros ND; [reflexivity|]. inversion ND; subst. specialize (IHl H2). cbn [map list_sum].
      unfold list_sum in *. cbn [fold_right]. rewrite IHl. unfold ofk at 1. cbn [filter].
      destruct (in_dec Nat.eq_dec (key e) l) as [I|I]; destruct (Nat.eqb_spec (key e) k) as [Ek|Nk];
        destruct (in_dec Nat.eq_dec (key e) (k :: l)) as [J|J]; cbn [length]; unfold ofk; try lia.
      all: exfalso; cbn [In] in J; try (rewrite Ek in I); intuition congruence. }
    rewrite Z by apply seq_NoDup. destruct (in_dec Nat.eq_dec (key e) (seq 0 m)) as [|N]; [lia|]. exfalso. apply N, in_seq. lia.
Qed.
End Sort.

Lemma prefix_sums_length : forall gm k, length (prefix_sums gm k) = length gm.
Proof. induction gm; intros k; cbn; auto. Qed.

Lemma prefix_sums_nth : forall gm k j, j < length gm -> nth j (prefix_sums gm k) 0 = k + list_sum (firstn j gm).
Proof.
  induction gm as [|x gm IH]; intros k j H; cbn [length] in H; [lia|]. destruct j as [|j]; cbn [prefix_sums nth firstn]; [cbn; lia|].
  rewrite IH by lia. change (list_sum (x :: firstn j gm)) with (x + list_sum (firstn j gm)). lia.
Qed.

Lemma list_sum_firstn_S : forall l j, j < length l -> list_sum (firstn (S j) l) = list_sum (firstn j l) + nth j l 0.
Proof.
  induction l as [|x l IH]; intros j H; cbn [length] in H; [lia|]. destruct j as [|j]; [cbn; lia|].
  cbn [firstn nth]. specialize (IH j ltac:(lia)). cbn [firstn] in IH. unfold list_sum in *. cbn [fold_right]. cbn [fold_right] in IH. lia.
Qed.

Lemma list_sum_firstn_mono : forall l j j', j <= j' -> list_sum (firstn j l) <= list_sum (firstn j' l).
Proof.
  intros l j j' H. induction H as [|j' H IH]; [auto|]. etransitivity; [exact IH|].
  destruct (Nat.lt_ge_cases j' (length l)) as [L|L]; [rewrite list_sum_firstn_S by auto; lia|rewrite !firstn_all2 by lia; lia].
Qed.

Section Goto.
Variable s : bsrc.
Hypothesis W : wf_src s.
Variable st : lr0st.
Hypothesis LO : lr0_ok s st.
Local Notation b := (pack_grammar s).
Local Notation G := (aug s).
Local Notation go := (go st).
Local Notation nst := (nst st).
Local Notation acc := (acc st).
Local Notation nt := (b_ntokens s).

Lemma accessing_nth : forall q, q < nst -> nth_error (accessing st) q = Some (acc q).
Proof. intros q H. unfold accessing, ByaccStatesProof.acc. rewrite nth_error_map. destruct (nth_error_lt_ex _ _ _ H) as (c & ->). reflexivity. Qed.

Lemma shift_rec : forall p l, In (p, l) (l_shifts st) -> shifts_of st p = l /\ p < nst /\ l <> [].
Proof.
  intros p l H. destruct (li_sh _ _ _ LO) as [S1 S2]. destruct (S2 p l H) as [A B]. split; [|auto].
  unfold shifts_of, assoc. clear S2 A B. induction (l_shifts st) as [|[q e] r IH]; [destruct H|]. cbn [map fst] in S1. inversion S1 as [|? ? T1 T2]; subst.
  cbn [find fst]. destruct H as [E|H].
  - inversion E; subst. rewrite Nat.eqb_refl. reflexivity.
  - destruct (Nat.eqb_spec q p) as [->|N]; [|auto]. rewrite Forall_forall in T2. assert (p < p) by (apply T2; change p with (fst (p, l)); now apply in_map). lia.
Qed.

Lemma shift_mem : forall p q, In q (shifts_of st p) -> In (p, shifts_of st p) (l_shifts st).
Proof.
  intros p q H. unfold shifts_of, assoc in *. destruct (find (fun e => fst e =? p) (l_shifts st)) as [[a e]|] eqn:F; [|destruct H].
  apply find_some in F as [F1 F2]. cbn in F2. apply Nat.eqb_eq in F2. subst a. exact F1.
Qed.

Lemma shift_go : forall p q, In q (shifts_of st p) -> go p (acc q) q.
Proof. intros p q H. split; auto. Qed.

Lemma go_range : forall p x q, go p x q -> 0 < x < b_nsyms s /\ x <> nt /\ p < nst /\ q < nst /\ q <> 0 /\ acc q = x.
Proof.
  intros p x q H. destruct (go_sitem s W st LO _ _ _ H) as (A1 & (i & A2 & A3) & A4 & A5 & _).
  destruct (after_dot_wf s W _ _ A3) as (y & Ey & Ry & Ny). inversion Ey; subst y. destruct H as [H1 H2].
  pose proof (shifts_bound s st LO _ _ H1). auto 10.
Qed.

(** The shift table as read by index. *)
Lemma sht_ok : exists sht, set_table (l_shifts st) (repeat None nst) = Ok sht /\ length sht = nst /\
  forall p, p < nst -> nth_error sht p = Some (match shifts_of st p with [] => None | l => Some l end).
Proof.
  destruct (set_table_ok (l_shifts st) (repeat None nst)) as (t & E & L & N).
  { apply LO. } { intros [p l] H. rewrite repeat_length. cbn. now apply shift_rec in H. }
  rewrite repeat_length in L, N. exists t. split; [exact E|]. split; [auto|]. intros p Lp. rewrite (N p Lp).
  unfold shifts_of, assoc. destruct (find (fun e => fst e =? p) (l_shifts st)) as [[a e]|] eqn:F.
  - apply find_some in F as [F1 F2]. cbn [snd]. destruct (shift_rec _ _ F1) as (_ & _ & Ne). destruct e; [congruence|reflexivity].
  - now apply nth_error_repeat.
Qed.

Lemma rdt_ok : exists rdt, set_table (l_reds st) (repeat None nst) = Ok rdt /\ length rdt = nst /\
  forall p, p < nst -> nth_error rdt p = Some (match reds_of st p with [] => None | l => Some l end).
Proof.
  destruct (li_rd _ _ _ LO) as [S1 S2].
  destruct (set_table_ok (l_reds st) (repeat None nst)) as (t & E & L & N).
  { auto. } { intros [p l] H. rewrite repeat_length. cbn. now apply S2 in H. }
  rewrite repeat_length in L, N. exists t. split; [exact E|]. split; [auto|]. intros p Lp. rewrite (N p Lp).
  unfold reds_of, assoc. destruct (find (fun e => fst e =? p) (l_reds st)) as [[a e]|] eqn:F.
  - apply find_some in F as [F1 F2]. cbn [snd]. destruct (S2 _ _ F1) as (_ & Ne). destruct e; [congruence|reflexivity].
  - now apply nth_error_repeat.
Qed.

(** ** The nonterminal transitions in the order in which they are met *)
Definition nonterm (q : nat) : bool := nt <=? acc q.
Definition key (e : nat * nat) : nat := acc (snd e) - nt.
Definition ntr_of (e : nat * list nat) : list (nat * nat) := map (pair (fst e)) (filter nonterm (rev (snd e))).
Definition ntr : list (nat * nat) := flat_map ntr_of (l_shifts st).

Lemma desc_rev : forall (l : list nat), srt (map acc l) -> StronglySorted (fun x y => acc y < acc x) (rev l).
Proof.
  induction l as [|x l IH]; intros H; cbn [rev]; [constructor|]. cbn [map] in H. inversion H as [|? ? H1 H2]; subst. specialize (IH H1).
  rewrite Forall_forall in H2. assert (A : forall y, In y (rev l) -> acc x < acc y) by (intros y Hy; apply in_rev in Hy; apply H2, in_map, Hy).
  clear H H1 H2. induction (rev l) as [|y r IHr]; cbn [app]; [repeat constructor|]. inversion IH as [|? ? I1 I2]; subst.
  constructor; [apply IHr; auto; intros z Hz; apply A; now right|]. apply Forall_app. split; [auto|]. constructor; [apply A; now left|constructor].
Qed.

Lemma filter_none : forall l x, StronglySorted (fun a c => acc c < acc a) (x :: l) -> nonterm x = false -> filter nonterm (x :: l) = [].
Proof.
  intros l x H N. cbn [filter]. rewrite N. inversion H as [|? ? H1 H2]; subst. rewrite Forall_forall in H2. clear H H1.
  induction l as [|y l IH]; [auto|]. cbn [filter]. assert (Ny : nonterm y = false).
  { unfold nonterm in *. apply Nat.leb_gt in N. apply Nat.leb_gt. specialize (H2 y (or_introl eq_refl)). lia. }
  rewrite Ny. apply IH. intros z Hz. apply H2. now right.
Qed.

Lemma count_gotos_eq : forall p l gm n, (forall q, In q l -> q < nst) -> StronglySorted (fun a c => acc c < acc a) l ->
  count_gotos b (accessing st) l gm n = count_flat key (map (pair p) (filter nonterm l)) gm n.
Proof.
  induction l as [|q l IH]; intros gm n B D; cbn [count_gotos]; [reflexivity|].
  rewrite (accessing_nth q) by (apply B; now left). cbn [opt bind]. unfold start_symbol. rewrite b_ntok.
  destruct (Nat.ltb_spec (acc q) nt) as [Lt|Ge].
  - rewrite (filter_none l q D); [reflexivity|]. unfold nonterm. now apply Nat.leb_gt.
  - cbn [filter]. replace (nonterm q) with true by (symmetry; unfold nonterm; now apply Nat.leb_le). cbn [map count_flat]. unfold key at 1 3. cbn [snd].
    destruct (nth_error gm (acc q - nt)); [|reflexivity]. cbn [opt bind]. apply IH; [intros q' Hq; apply B; now right|]. now inversion D.
Qed.

Lemma count_flat_app : forall L L' gm n, count_flat key (L ++ L') gm n = ('(gm', n') <- count_flat key L gm n ;; count_flat key L' gm' n').
Proof.
  induction L as [|e L IH]; intros L' gm n; cbn [app count_flat bind]; [reflexivity|].
  destruct (opt (nth_error gm (key e))); cbn [bind]; auto.
Qed.

Lemma fill_flat_app : forall L L' tm from to, fill_flat key (L ++ L') tm from to = ('(t, f, u) <- fill_flat key L tm from to ;; fill_flat key L' t f u).
Proof.
  induction L as [|e L IH]; intros L' tm from to; cbn [app fill_flat bind]; [reflexivity|].
  destruct (opt (nth_error tm (key e))) as [k| |]; cbn [bind]; auto. destruct (put from k (fst e)); cbn [bind]; auto.
  destruct (put to k (snd e)); cbn [bind]; auto.
Qed.

Lemma rec_desc : forall p l, In (p, l) (l_shifts st) -> (forall q, In q (rev l) -> q < nst) /\ StronglySorted (fun a c => acc c < acc a) (rev l).
Proof.
  intros p l H. destruct (shift_rec p l H) as (<- & _ & _). split.
  - intros q Hq. apply in_rev in Hq. apply shift_go in Hq. now apply go_range in Hq.
  - apply desc_rev. exact (shifts_srt s st LO p).
Qed.

Lemma count_all_eq : forall sh gm n, (forall e, In e sh -> In e (l_shifts st)) ->
  count_all b (accessing st) sh gm n = count_flat key (flat_map ntr_of sh) gm n.
Proof.
  induction sh as [|[p l] sh IH]; intros gm n H; cbn [count_all flat_map]; [reflexivity|].
  destruct (rec_desc p l) as [D1 D2]; [apply H; now left|].
  rewrite count_flat_app. rewrite (count_gotos_eq p) by auto. unfold ntr_of at 1. cbn [fst snd].
  destruct (count_flat key (map (pair p) (filter nonterm (rev l))) gm n) as [[gm' n']| |]; cbn [bind]; auto.
  apply IH. intros e He. apply H. now right.
Qed.

Lemma fill_gotos_eq : forall p l tm from to, (forall q, In q l -> q < nst) -> StronglySorted (fun a c => acc c < acc a) l ->
  fill_gotos b (accessing st) p l tm from to = fill_flat key (map (pair p) (filter nonterm l)) tm from to.
Proof.
  induction l as [|q l IH]; intros tm from to B D; cbn [fill_gotos]; [reflexivity|].
  rewrite (accessing_nth q) by (apply B; now left). cbn [opt bind]. unfold start_symbol. rewrite b_ntok.
  destruct (Nat.ltb_spec (acc q) nt) as [Lt|Ge].
  - rewrite (filter_none l q D); [reflexivity|]. unfold nonterm. now apply Nat.leb_gt.
  - cbn [filter]. replace (nonterm q) with true by (symmetry; unfold nonterm; now apply Nat.leb_le). cbn [map fill_flat]. unfold key at 1 3. cbn [fst snd].
    destruct (nth_error tm (acc q - nt)) as [k|]; [|reflexivity]. cbn [opt bind].
    destruct (put from k p) as [f| |]; cbn [bind]; auto. destruct (put to k q) as [t| |]; cbn [bind]; auto.
    apply IH; [intros q' Hq; apply B; now right|]. now inversion D.
Qed.

Lemma fill_all_eq : forall sh tm from to, (forall e, In e sh -> In e (l_shifts st)) ->
  fill_all b (accessing st) sh tm from to = fill_flat key (flat_map ntr_of sh) tm from to.
Proof.
  induction sh as [|[p l] sh IH]; intros tm from to H; cbn [fill_all flat_map]; [reflexivity|].
  destruct (rec_desc p l) as [D1 D2]; [apply H; now left|].
  rewrite fill_flat_app. rewrite fill_gotos_eq by auto. unfold ntr_of at 1. cbn [fst snd].
  destruct (fill_flat key (map (pair p) (filter nonterm (rev l))) tm from to) as [[[t f] u]| |]; cbn [bind]; auto.
  apply IH. intros e He. apply H. now right.
Qed.

(** Members of [ntr]. *)
Lemma ntr_In : forall p q, In (p, q) ntr <-> go p (acc q) q /\ nt < acc q.
Proof.
  intros p q. unfold ntr. rewrite in_flat_map. split.
  - intros ([p' l] & H & I). unfold ntr_of in I. cbn [fst snd] in I. apply in_map_iff in I as (q' & E & I). inversion E; subst p' q'.
    apply filter_In in I as [I N]. apply in_rev in I. destruct (shift_rec p l H) as (<- & _). apply shift_go in I. split; [auto|].
    pose proof (go_range _ _ _ I). apply Nat.leb_le in N. lia.
  - intros [[H _] N]. exists (p, shifts_of st p). split; [eapply shift_mem; eauto|]. unfold ntr_of. cbn [fst snd]. apply in_map.
    apply filter_In. split; [now apply in_rev in H|apply Nat.leb_le; lia].
Qed.

(** Within one symbol the states increase. *)
Lemma ntr_srt : forall k, srt (map fst (ofk key k ntr)).
Proof.
  intros k. unfold ntr. destruct (li_sh _ _ _ LO) as [S1 _]. pose proof rec_desc as RD.
  assert (SL : forall e, In e (l_shifts st) -> In e (l_shifts st)) by auto. revert SL S1. generalize (l_shifts st) at 1 3 4 as sh.
  induction sh as [|[p l] sh IH]; intros SL S1; [constructor|]. cbn [map fst] in S1. inversion S1 as [|? ? T1 T2]; subst.
  cbn [flat_map]. unfold ofk in *. rewrite filter_app, map_app. apply srt_app. split; [|split].
  - destruct (RD p l) as [_ D]; [apply SL; now left|]. unfold ntr_of. cbn [fst snd].
    induction (rev l) as [|q r IHr]; [constructor|]. inversion D as [|? ? D1 D2]; subst. cbn [filter].
    destruct (nonterm q) eqn:Nq; [|auto]. cbn [map filter]. unfold key at 1. cbn [snd]. destruct (Nat.eqb_spec (acc q - nt) k) as [Ek|]; [|auto].
    cbn [map fst]. assert (Z : filter (fun e => key e =? k) (map (pair p) (filter nonterm r)) = []).
    { rewrite Forall_forall in D2. clear - D2 Ek Nq. induction r as [|y r IH]; [auto|]. cbn [filter]. destruct (nonterm y) eqn:Ny; [|apply IH; intros z Hz; apply D2; now right].
      cbn [map filter]. unfold key at 1. cbn [snd]. specialize (D2 y (or_introl eq_refl)) as Dy. unfold nonterm in *. apply Nat.leb_le in Nq. apply Nat.leb_le in Ny.
      destruct (Nat.eqb_spec (acc y - nt) k) as [E|]; [lia|]. apply IH. intros z Hz. apply D2. now right. }
    rewrite Z. repeat constructor.
  - apply IH; [intros e He; apply SL; now right|auto].
  - intros x y Hx Hy. apply in_map_iff in Hx as ([x1 x2] & <- & Hx). apply filter_In in Hx as [Hx _]. unfold ntr_of in Hx. cbn [fst snd] in Hx.
    apply in_map_iff in Hx as (q & E & _). inversion E; subst x1 x2. apply in_map_iff in Hy as ([y1 y2] & <- & Hy). apply filter_In in Hy as [Hy _].
    apply in_flat_map in Hy as ([p' l'] & H1 & H2). unfold ntr_of in H2. cbn [fst snd] in H2. apply in_map_iff in H2 as (q' & E' & _). inversion E'; subst.
    cbn [fst]. rewrite Forall_forall in T2. apply T2. change y1 with (fst (y1, l')). now apply in_map.
Qed.

(** ** set_goto_map *)
Record goto_ok (g : gotos) : Prop := {
  gm_len : length (g_map g) = S (nvars b);
  gm_to : length (g_to g) = ngotos g;
  gm_mono : forall k k', k <= k' -> k' <= nvars b -> nth k (g_map g) 0 <= nth k' (g_map g) 0;
  gm_last : nth (nvars b) (g_map g) 0 = ngotos g;
  gm_go : forall i, i < ngotos g -> exists p x q, nth_error (g_from g) i = Some p /\ nth_error (g_to g) i = Some q /\ go p x q /\ nt < x /\
    nth (x - nt) (g_map g) 0 <= i < nth (S (x - nt)) (g_map g) 0;
  gm_ex : forall p x q, go p x q -> nt < x -> exists i, nth (x - nt) (g_map g) 0 <= i < nth (S (x - nt)) (g_map g) 0 /\
    nth_error (g_from g) i = Some p /\ nth_error (g_to g) i = Some q;
  gm_srt : forall x i i' p p', nt < x -> nth (x - nt) (g_map g) 0 <= i -> i < i' -> i' < nth (S (x - nt)) (g_map g) 0 ->
    nth_error (g_from g) i = Some p -> nth_error (g_from g) i' = Some p' -> p < p';
  gm_first : exists q, go 0 (S nt) q /\ nth_error (g_from g) 0 = Some 0 /\ nth_error (g_to g) 0 = Some q
}.

Lemma srt_nth : forall (l : list nat) i j x y, srt l -> i < j -> nth_error l i = Some x -> nth_error l j = Some y -> x < y.
Proof.
  induction l as [|a l IH]; intros i j x y H L Ei Ej; [destruct i; discriminate|]. inversion H as [|? ? H1 H2]; subst.
  destruct j as [|j]; [lia|]. cbn in Ej. destruct i as [|i]; cbn in Ei.
  - inversion Ei; subst. rewrite Forall_forall in H2. apply H2. eapply nth_error_In; eauto.
  - apply (IH i j x y); auto; lia.
Qed.

Lemma nv : nvars b = b_nsyms s - nt.
Proof. unfold nvars. now rewrite b_ntok, b_nsy. Qed.

Lemma set_goto_map_ok : exists g, set_goto_map b st = Ok g /\ goto_ok g.
Proof.
  set (m := nvars b). pose proof (ws_tok s W) as WT. pose proof (ws_goal s W) as WG.
  assert (HK : forall e, In e ntr -> key e < m).
  { intros [p q] H. apply ntr_In in H as [H N]. apply go_range in H. unfold key. cbn [snd]. unfold m. rewrite nv. lia. }
  unfold set_goto_map. rewrite count_all_eq by auto. fold ntr. fold m.
  destruct (count_flat_ok key m ntr (repeat 0 (S m)) 0 HK ltac:(apply repeat_length)) as (gm & E1 & L1 & C1).
  rewrite E1. cbn [bind]. rewrite Nat.add_0_l. rewrite fill_all_eq by auto. fold ntr.
  set (n := length ntr). set (cs := firstn m gm). set (tm := prefix_sums cs 0 ++ [n]).
  assert (LC : length cs = m) by (unfold cs; rewrite firstn_length; lia).
  assert (CC : forall k, k < m -> nth k cs 0 = length (ofk key k ntr)).
  { intros k Hk. rewrite <- (firstn_skipn m gm) in C1. specialize (C1 k Hk).
    rewrite app_nth1 in C1 by (fold cs; lia). fold cs in C1. rewrite C1, nth_repeat. reflexivity. }
  assert (SC : list_sum cs = n).
  { unfold n. rewrite <- (ofk_total key m ntr HK). f_equal. apply nth_ext with (d := 0) (d' := 0); [rewrite map_length, seq_length; auto|].
    intros k Hk. rewrite LC in Hk. rewrite CC by auto.
    rewrite nth_indep with (d' := length (ofk key 0 ntr)) by (rewrite map_length, seq_length; auto). rewrite (map_nth (fun k => length (ofk key k ntr))), seq_nth by auto. reflexivity. }
  set (bs := fun k => list_sum (firstn k cs)).
  assert (TM : forall k, k <= m -> nth k tm 0 = bs k).
  { intros k Hk. unfold tm, bs. destruct (Nat.lt_ge_cases k m) as [Lk|Lk].
    - rewrite app_nth1 by (rewrite prefix_sums_length; lia). apply prefix_sums_nth. lia.
    - replace k with m by lia. rewrite app_nth2 by (rewrite prefix_sums_length; lia). rewrite prefix_sums_length, LC, Nat.sub_diag. cbn.
      rewrite firstn_all2 by lia. auto. }
  assert (BM : forall k k', k <= k' -> bs k <= bs k') by (intros k k' H; now apply list_sum_firstn_mono).
  assert (BS : forall k, k < m -> bs (S k) = bs k + length (ofk key k ntr)).
  { intros k Hk. unfold bs. rewrite list_sum_firstn_S by lia. now rewrite CC. }
  assert (Bm : bs m = n) by (unfold bs; rewrite firstn_all2 by lia; auto).
  assert (LT : length tm = S m) by (unfold tm; rewrite app_length, prefix_sums_length; cbn; lia).
  destruct (fill_flat_ok key m ntr bs tm (repeat 0 n) (repeat 0 n) HK LT) as (tm' & from & to & E2 & LF & LTo & P & Q).
  { intros k Hk. rewrite TM by lia. rewrite BS by auto. lia. }
  { auto. } { rewrite repeat_length. lia. } { auto. }
  rewrite repeat_length in LF, LTo. rewrite E2. cbn [bind]. exists (mkGotos tm from to). split; [reflexivity|].
  (* every place lies in one range *)
  assert (CV : forall i, i < n -> exists k, k < m /\ bs k <= i < bs (S k)).
  { intros i Hi. assert (Z : forall j, j <= m -> i < bs j -> exists k, k < m /\ bs k <= i < bs (S k)).
    { induction j as [|j IHj]; intros Hj Hb; [unfold bs in Hb; cbn in Hb; lia|]. destruct (Nat.lt_ge_cases i (bs j)); [apply IHj; [lia|auto]|].
      exists j. split; [lia|auto]. }
    apply (Z m); [auto|lia]. }
  assert (RG : forall k i, k < m -> bs k <= i < bs (S k) -> exists e, nth_error (ofk key k ntr) (i - bs k) = Some e /\ In e ntr /\ key e = k /\
    nth_error from i = Some (fst e) /\ nth_error to i = Some (snd e)).
  { intros k i Hk Hi. rewrite BS in Hi by auto. destruct (nth_error_lt_ex _ (ofk key k ntr) (i - bs k)) as (e & Ee); [lia|].
    destruct (P k _ e Hk Ee) as [P1 P2]. rewrite TM in P1, P2 by lia. replace (bs k + (i - bs k)) with i in P1, P2 by lia.
    pose proof (nth_error_In _ _ Ee) as I. unfold ofk in I. apply filter_In in I as [I1 I2]. apply Nat.eqb_eq in I2. exists e. auto 10. }
  assert (EX : forall p x q, go p x q -> nt < x -> exists i, bs (x - nt) <= i < bs (S (x - nt)) /\ nth_error from i = Some p /\ nth_error to i = Some q).
  { intros p x q H N. pose proof (go_range _ _ _ H) as (R1 & R2 & R3 & R4 & R5 & R6). assert (Kx : x - nt < m) by (unfold m; rewrite nv; lia).
    assert (I : In (p, q) (ofk key (x - nt) ntr)).
    { unfold ofk. apply filter_In. split; [apply ntr_In; rewrite R6; auto|]. unfold key. cbn [snd]. rewrite R6. apply Nat.eqb_refl. }
    apply In_nth_error in I as (i & Ei). exists (bs (x - nt) + i). destruct (P _ _ _ Kx Ei) as [P1 P2]. rewrite TM in P1, P2 by lia. cbn [fst snd] in *.
    split; [|auto]. rewrite BS by auto. apply nth_error_Some_lt in Ei. lia. }
  constructor; unfold ngotos; cbn [g_map g_from g_to].
  - auto.
  - congruence.
  - intros k k' H H'. rewrite !TM by lia. auto.
  - fold m. rewrite TM by auto. lia.
  - rewrite LF. intros i Hi. destruct (CV i Hi) as (k & Hk & Ri). destruct (RG k i Hk Ri) as ([p q] & _ & I & K & A & B). cbn [fst snd] in *.
    apply ntr_In in I as [I N]. exists p, (acc q), q. unfold key in K. cbn [snd] in K. rewrite K. rewrite !TM by lia. auto 10.
  - intros p x q H N. destruct (EX p x q H N) as (i & A & B). exists i. apply go_range in H. rewrite !TM by (unfold m; rewrite nv; lia). auto.
  - intros x i i' p p' N H1 H2 H3 A B. destruct (Nat.lt_ge_cases (x - nt) m) as [Kx|Kx].
    + rewrite TM in H1, H3 by lia. destruct (RG _ i Kx) as (e & E & _ & _ & F1 & _); [lia|]. destruct (RG _ i' Kx) as (e' & E' & _ & _ & F1' & _); [lia|].
      assert (p = fst e) by congruence. assert (p' = fst e') by congruence. subst.
      apply (srt_nth (map fst (ofk key (x - nt) ntr)) (i - bs (x - nt)) (i' - bs (x - nt))); [apply ntr_srt|lia| |]; rewrite nth_error_map; [rewrite E|rewrite E']; reflexivity.
    + exfalso. rewrite nth_overflow in H3 by lia. lia.
  - destruct (go_ex s W st LO 0 (0, 0) (S nt)) as (q & Hq); [apply (start_0 s W st LO)|reflexivity|]. exists q. split; [auto|].
    assert (B1 : bs 1 = 0).
    { rewrite BS by (unfold m; rewrite nv; lia). unfold bs. cbn [firstn list_sum fold_right]. 
      destruct (ofk key 0 ntr) as [|e r] eqn:E0; [reflexivity|]. exfalso. assert (I : In e (ofk key 0 ntr)) by (rewrite E0; now left).
      unfold ofk in I. apply filter_In in I as [I1 I2]. apply Nat.eqb_eq in I2. destruct e as [p' q']. apply ntr_In in I1 as [I1 N]. unfold key in I2. cbn [snd] in I2. lia. }
    destruct (EX 0 (S nt) q Hq ltac:(lia)) as (i & A & B & C). replace (S nt - nt) with 1 in A by lia. rewrite B1 in A.
    destruct i as [|i]; [auto|]. exfalso. assert (K1 : 1 < m) by (unfold m; rewrite nv; lia).
    destruct (RG 1 0 K1) as (e & E & _ & _ & F1 & _); [lia|]. destruct (RG 1 (S i) K1) as (e' & E' & _ & _ & F1' & _); [lia|].
    assert (fst e < fst e'). { apply (srt_nth (map fst (ofk key 1 ntr)) (0 - bs 1) (S i - bs 1)); [apply ntr_srt|lia| |]; rewrite nth_error_map; [rewrite E|rewrite E']; reflexivity. }
    assert (fst e' = 0) by congruence. lia.
Qed.

(** ** map_goto *)
Section MapGoto.
Variable g : gotos.
Hypothesis GO : goto_ok g.

Lemma ng_bound : forall k, k <= nvars b -> nth k (g_map g) 0 <= ngotos g.
Proof. intros k H. rewrite <- (gm_last _ GO). now apply (gm_mono _ GO). Qed.

Lemma map_goto_ok : forall p x q, go p x q -> nt < x -> exists i, map_goto b g p x = Ok i /\ i < ngotos g /\
  nth_error (g_from g) i = Some p /\ nth_error (g_to g) i = Some q.
Proof.
  intros p x q H N. pose proof (go_range _ _ _ H) as (R1 & R2 & _). destruct (gm_ex _ GO p x q H N) as (i & Ri & Fi & Ti).
  assert (Kx : x - nt < nvars b) by (rewrite nv; lia). pose proof (ng_bound (S (x - nt)) ltac:(lia)) as NB.
  exists i. split; [|split; [lia|auto]].
  unfold map_goto. rewrite b_ntok. rewrite !(nth_error_nth0 (g_map g)) by (rewrite (gm_len _ GO); lia). cbn [opt bind].
  set (lo := nth (x - nt) (g_map g) 0) in *. set (hi := nth (S (x - nt)) (g_map g) 0) in *.
  assert (Z : forall fuel low high, high - low < fuel -> lo <= low -> high <= hi -> low <= i <= high -> map_loop fuel (g_from g) p low high = Ok i).
  { induction fuel as [|fuel IH]; intros low high F L1 L2 L3; [lia|]. cbn [map_loop].
    replace (low <=? high) with true by (symmetry; apply Nat.leb_le; lia).
    assert (M : low <= (low + high) / 2 <= high).
    { split; [apply Nat.div_le_lower_bound; lia|apply Nat.div_le_upper_bound; lia]. }
    assert (M2 : (low + high) / 2 < hi).
    { destruct (Nat.eq_dec low high) as [->|Nlh]; [replace (high + high) with (high * 2) by lia; rewrite Nat.div_mul by lia; lia|].
      assert ((low + high) / 2 < high) by (apply Nat.div_lt_upper_bound; lia). lia. }
    set (mid := (low + high) / 2) in *. destruct (gm_go _ GO mid) as (pm & xm & qm & Fm & Tm & _); [lia|]. rewrite Fm. cbn [opt bind].
    destruct (Nat.lt_trichotomy i mid) as [C|[C|C]].
    - assert (p < pm) by (apply (gm_srt _ GO x i mid p pm); auto; fold lo; fold hi; lia).
      replace (pm =? p) with false by (symmetry; apply Nat.eqb_neq; lia). replace (pm <? p) with false by (symmetry; apply Nat.ltb_ge; lia).
      replace (mid =? 0) with false by (symmetry; apply Nat.eqb_neq; lia). apply IH; lia.
    - subst mid. rewrite <- C in *. replace pm with p by congruence. rewrite Nat.eqb_refl. reflexivity.
    - assert (pm < p) by (apply (gm_srt _ GO x mid i pm p); auto; fold lo; fold hi; lia).
      replace (pm =? p) with false by (symmetry; apply Nat.eqb_neq; lia). replace (pm <? p) with true by (symmetry; apply Nat.ltb_lt; lia). apply IH; lia. }
  apply Z; lia.
Qed.

(** The transition with a given number; numbers are unique. *)
Definition gt (i p x q : nat) : Prop := nth_error (g_from g) i = Some p /\ nth_error (g_to g) i = Some q /\ go p x q /\ nt < x.

Lemma gt_lt : forall i p x q, gt i p x q -> i < ngotos g.
Proof. intros i p x q (H & _). apply nth_error_Some_lt in H. exact H. Qed.

Lemma gt_ex : forall i, i < ngotos g -> exists p x q, gt i p x q.
Proof. intros i H. destruct (gm_go _ GO i H) as (p & x & q & A & B & C & D & _). exists p, x, q. split; auto. Qed.

Lemma gt_det : forall i p x q p' x' q', gt i p x q -> gt i p' x' q' -> p = p' /\ x = x' /\ q = q'.
Proof.
  intros i p x q p' x' q' (A & B & C & D) (A' & B' & C' & D'). assert (p = p') by congruence. assert (q = q') by congruence. subst.
  apply go_range in C. apply go_range in C'. destruct C as (_ & _ & _ & _ & _ & C). destruct C' as (_ & _ & _ & _ & _ & C'). split; [auto|]. split; [congruence|auto].
Qed.

Lemma gt_go : forall p x q, go p x q -> nt < x -> exists i, gt i p x q.
Proof. intros p x q H N. destruct (map_goto_ok p x q H N) as (i & _ & _ & A & B). exists i. split; auto. Qed.

Lemma gt_inj : forall i j p x q, gt i p x q -> gt j p x q -> i = j.
Proof.
  intros i j p x q Hi Hj.
  assert (Z : forall i j, gt i p x q -> gt j p x q -> i < j -> False).
  { clear i j Hi Hj. intros i j Hi Hj L. pose proof (gt_lt _ _ _ _ Hi) as Li. pose proof (gt_lt _ _ _ _ Hj) as Lj.
    destruct (gm_go _ GO i Li) as (p1 & x1 & q1 & A1 & B1 & C1 & D1 & E1). destruct (gm_go _ GO j Lj) as (p2 & x2 & q2 & A2 & B2 & C2 & D2 & E2).
    destruct (gt_det i p x q p1 x1 q1 Hi) as (<- & <- & <-); [split; auto|]. destruct (gt_det j p x q p2 x2 q2 Hj) as (<- & <- & <-); [split; auto|].
    assert (p < p); [|lia]. apply (gm_srt _ GO x i j p p); auto; lia. }
  destruct (Nat.lt_trichotomy i j) as [C|[C|C]]; [exfalso; eauto|auto|exfalso; eauto].
Qed.

Lemma map_goto_gt : forall i p x q, gt i p x q -> map_goto b g p x = Ok i.
Proof.
  intros i p x q (A & B & C & D). destruct (map_goto_ok p x q C D) as (j & E & _ & A' & B'). rewrite E. f_equal.
  apply (gt_inj j i p x q); split; auto.
Qed.

Lemma gt_0 : exists q, gt 0 0 (S nt) q.
Proof. destruct (gm_first _ GO) as (q & A & B & C). exists q. split; auto. Qed.
End MapGoto.
End Goto.
