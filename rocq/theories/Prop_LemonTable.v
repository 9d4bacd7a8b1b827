(** C22, C23: string interning and the tables of symbols, states and configurations. *)
From Coq Require Import List Arith NArith ZArith Bool Lia.
Import ListNotations.
From Verif Require Import Base LemonTableModel LemonTableProof.
Open Scope res_scope.

(** * Finite maps *)
Section Map.
Variables (K D : Type) (hash : K -> N) (keyeq : K -> K -> bool).

(** A table that has just been created or cleared. *)
Inductive fresh : htab K D -> Prop :=
| fresh_init : forall size, 0 < size -> fresh (tab_init size)
| fresh_clear : forall t l bs t', fresh t -> tab_inserts K D hash keyeq l t = Ok (bs, t') -> fresh (tab_clear t').

(** Insertion [i] of the history is the first for its key. *)
Definition first_ins (l : list (K * D)) (i : nat) (k : K) (d : D) : Prop :=
  nth_error l i = Some (k, d) /\ forall j d', j < i -> nth_error l j <> Some (k, d').

Hypothesis keyeq_ok : forall a b, keyeq a b = true <-> a = b.

Lemma fresh_inv : forall t, fresh t -> tinv K D hash t /\ h_tbl t = [].
Proof.
  induction 1 as [size P|t l bs t' F [V B] E].
  - split; [now apply init_inv|reflexivity].
  - destruct (inserts_ok K D hash keyeq keyeq_ok l t V) as (t2 & E2 & V2 & _). rewrite E in E2. inversion E2; subst t2. now apply clear_inv.
Qed.

Lemma assoc_app : forall l l' k, assoc K D keyeq (l ++ l') k = match assoc K D keyeq l k with Some d => Some d | None => assoc K D keyeq l' k end.
Proof. induction l as [|(k' & d) l IH]; intros l' k; cbn [app assoc]; [reflexivity|]. destruct (keyeq k' k); auto. Qed.

Lemma accepted_assoc : forall l acc k, assoc K D keyeq (accepted K D keyeq l acc) k = assoc K D keyeq (acc ++ l) k.
Proof.
  induction l as [|(k' & d) l IH]; intros acc k; cbn [accepted]; [now rewrite app_nil_r|].
  destruct (assoc K D keyeq acc k') eqn:Q; rewrite IH.
  - rewrite !assoc_app. destruct (assoc K D keyeq acc k) eqn:Q2; [reflexivity|]. cbn [assoc]. destruct (keyeq k' k) eqn:Q3; [|reflexivity].
    apply keyeq_ok in Q3. congruence.
  - now rewrite <- app_assoc.
Qed.

Lemma assoc_first : forall l i k d, first_ins l i k d -> assoc K D keyeq l k = Some d.
Proof.
  induction l as [|(k' & d') l IH]; intros [|i] k d (E & F); try discriminate; cbn [assoc].
  - inversion E; subst. now rewrite (proj2 (keyeq_ok k k) eq_refl).
  - destruct (keyeq k' k) eqn:Q.
    + apply keyeq_ok in Q. subst k'. exfalso. apply (F 0 d'); [lia|reflexivity].
    + apply (IH i). split; [exact E|]. intros j d2 L. apply (F (S j)). lia.
Qed.

Lemma verdicts_spec : forall l acc i k d, nth_error l i = Some (k, d) ->
  (nth_error (verdicts K D keyeq l acc) i = Some true <-> assoc K D keyeq (acc ++ firstn i l) k = None).
Proof.
  induction l as [|(k' & d') l IH]; intros acc [|i] k d E; try discriminate; cbn [verdicts firstn]; cbn [nth_error] in E.
  - inversion E; subst. rewrite app_nil_r. destruct (assoc K D keyeq acc k) eqn:Q; cbn [nth_error]; split; congruence.
  - destruct (assoc K D keyeq acc k') eqn:Q; cbn [nth_error]; rewrite (IH _ _ _ _ E).
    + rewrite !assoc_app. cbn [assoc]. destruct (assoc K D keyeq acc k) eqn:Q2; [tauto|]. destruct (keyeq k' k) eqn:Q3; [|tauto].
      apply keyeq_ok in Q3. congruence.
    + now rewrite <- app_assoc.
Qed.

Lemma verdicts_length : forall l acc, length (verdicts K D keyeq l acc) = length l.
Proof. induction l as [|(k & d) l IH]; intros acc; cbn [verdicts]; [reflexivity|]. destruct (assoc K D keyeq acc k); cbn; now rewrite IH. Qed.

Lemma accepted_filter : forall l acc, accepted K D keyeq l acc = acc ++ map fst (filter snd (combine l (verdicts K D keyeq l acc))).
Proof.
  induction l as [|(k & d) l IH]; intros acc; cbn [accepted verdicts]; [now rewrite app_nil_r|].
  destruct (assoc K D keyeq acc k); cbn [combine filter snd map fst]; rewrite IH; [reflexivity|]. now rewrite <- app_assoc.
Qed.

(** After any history of insertions into a created or cleared table: an insertion succeeds
    exactly when no earlier one had its key, a lookup gives the data of the first insertion
    of the key or nothing, an insertion of a present key is refused and changes nothing, and
    the enumeration lists the data of the accepted insertions in order, each once. *)
Theorem C23_map : forall t0 l, fresh t0 ->
  exists bs t, tab_inserts K D hash keyeq l t0 = Ok (bs, t) /\ length bs = length l /\
    (forall i k d, nth_error l i = Some (k, d) -> (nth_error bs i = Some true <-> first_ins l i k d)) /\
    (forall i k d, first_ins l i k d -> tab_find K D hash keyeq k t = Ok (Some d)) /\
    (forall k, (forall i d, nth_error l i <> Some (k, d)) -> tab_find K D hash keyeq k t = Ok None) /\
    (forall i k d d', nth_error l i = Some (k, d) -> tab_insert K D hash keyeq k d' t = Ok (false, t)) /\
    tab_arrayof t = map (fun p => snd (fst p)) (filter snd (combine l bs)).
Proof.
  intros t0 l F. destruct (fresh_inv t0 F) as (V0 & B0). destruct (inserts_ok K D hash keyeq keyeq_ok l t0 V0) as (t & E & V & B).
  rewrite B0 in *. exists (verdicts K D keyeq l []), t. split; [exact E|]. split; [apply verdicts_length|].
  assert (FD : forall k, tab_find K D hash keyeq k t = Ok (assoc K D keyeq l k)).
  { intros k. rewrite (find_ok K D hash keyeq keyeq_ok t k V), B, accepted_assoc. reflexivity. }
  split; [|split; [|split; [|split]]].
  - intros i k d N. rewrite (verdicts_spec l [] i k d N). cbn [app]. split.
    + intros A. split; [exact N|]. intros j d' L N'. apply (assoc_none K D keyeq keyeq_ok _ _ A j d').
      rewrite <- N'. clear -L. revert j i L. induction l as [|x l IH]; intros [|j] [|i] L; cbn [firstn nth_error]; auto; try lia. apply IH. lia.
    + intros (_ & A). destruct (assoc K D keyeq (firstn i l) k) as [d'|] eqn:Q; [|reflexivity]. exfalso.
      destruct (assoc_some K D keyeq keyeq_ok _ _ _ Q) as (j & E'). assert (L : j < i). { assert (H : j < length (firstn i l)) by (apply nth_error_Some; congruence). rewrite firstn_length in H. lia. }
      apply (A j d' L). rewrite <- E'. clear -L. revert j i L. induction l as [|x l IH]; intros [|j] [|i] L; cbn [firstn nth_error]; auto; try lia. apply IH. lia.
  - intros i k d H. rewrite FD. f_equal. eapply assoc_first; eauto.
  - intros k H. rewrite FD. destruct (assoc K D keyeq l k) eqn:Q; [|reflexivity]. destruct (assoc_some K D keyeq keyeq_ok _ _ _ Q) as (j & E'). exfalso. exact (H _ _ E').
  - intros i k d d' N. pose proof (assoc_ex K D keyeq keyeq_ok _ _ _ _ N) as (d1 & A). pose proof (accepted_assoc l [] k) as A2. cbn [app] in A2. rewrite A in A2.
    destruct (assoc_some K D keyeq keyeq_ok _ _ _ A2) as (j & E'). rewrite <- B in E'. eapply insert_old; eauto.
  - unfold tab_arrayof. rewrite B, accepted_filter. cbn [app]. now rewrite map_map.
Qed.
End Map.

(** The keys are compared by content: names of symbols, (rule, dot) pairs of configurations, bases of states. *)
Theorem C23_symbol : forall D (t0 : htab (list Z) D) l, fresh _ _ strhash streq t0 ->
  exists bs t, tab_inserts _ _ strhash streq l t0 = Ok (bs, t) /\
    (forall i k d, nth_error l i = Some (k, d) -> (nth_error bs i = Some true <-> first_ins _ _ l i k d)) /\
    (forall i k d, first_ins _ _ l i k d -> Symbol_find k t = Ok (Some d)) /\
    (forall k, (forall i d, nth_error l i <> Some (k, d)) -> Symbol_find k t = Ok None) /\
    (forall i k d d', nth_error l i = Some (k, d) -> Symbol_insert k d' t = Ok (false, t)).
Proof.
  intros D t0 l F. destruct (C23_map _ _ strhash streq streq_ok t0 l F) as (bs & t & E & _ & A & B & C & G & _). exists bs, t. auto 8.
Qed.

Theorem C23_state : forall D (t0 : htab (list cfgkey) D) l, fresh _ _ statehash (fun a b => (statecmp a b =? 0)%Z) t0 ->
  exists bs t, tab_inserts _ _ statehash (fun a b => (statecmp a b =? 0)%Z) l t0 = Ok (bs, t) /\
    (forall i k d, nth_error l i = Some (k, d) -> (nth_error bs i = Some true <-> first_ins _ _ l i k d)) /\
    (forall i k d, first_ins _ _ l i k d -> State_find k t = Ok (Some d)) /\
    (forall k, (forall i d, nth_error l i <> Some (k, d)) -> State_find k t = Ok None) /\
    (forall i k d d', nth_error l i = Some (k, d) -> State_insert k d' t = Ok (false, t)).
Proof.
  intros D t0 l F. destruct (C23_map _ _ statehash _ statecmp_ok t0 l F) as (bs & t & E & _ & A & B & C & G & _). exists bs, t. auto 8.
Qed.

Theorem C23_config : forall D (t0 : htab cfgkey D) l, fresh _ _ confighash (fun a b => (Configcmp a b =? 0)%Z) t0 ->
  exists bs t, tab_inserts _ _ confighash (fun a b => (Configcmp a b =? 0)%Z) l t0 = Ok (bs, t) /\
    (forall i k d, nth_error l i = Some (k, d) -> (nth_error bs i = Some true <-> first_ins _ _ l i k d)) /\
    (forall i k d, first_ins _ _ l i k d -> Configtable_find k t = Ok (Some d)) /\
    (forall k, (forall i d, nth_error l i <> Some (k, d)) -> Configtable_find k t = Ok None) /\
    (forall i k d d', nth_error l i = Some (k, d) -> Configtable_insert k d' t = Ok (false, t)).
Proof.
  intros D t0 l F. destruct (C23_map _ _ confighash _ Configcmp_ok t0 l F) as (bs & t & E & _ & A & B & C & G & _). exists bs, t. auto 8.
Qed.

(** A table of size 2 that collides and grows twice; the fourth insertion is refused. *)
Example C23_example : exists t0, fresh _ nat confighash (fun a b => (Configcmp a b =? 0)%Z) t0 /\
  exists t, tab_inserts _ _ confighash (fun a b => (Configcmp a b =? 0)%Z) [((0, 0), 10); ((0, 4), 11); ((0, 8), 12); ((0, 4), 13); ((1, 0), 14); ((2, 6), 15)] t0
    = Ok ([true; true; true; false; true; true], t) /\
  h_size t = 8 /\ nth 0 (h_ht t) [] = [4; 2; 0] /\ tab_arrayof t = [10; 11; 12; 14; 15] /\
  Configtable_find (0, 4) t = Ok (Some 11) /\ Configtable_find (4, 0) t = Ok None.
Proof.
  exists (tab_init 2). split; [constructor; lia|]. eexists. split; [vm_compute; reflexivity|]. vm_compute. auto 8.
Qed.

(** * Interning *)

Definition strinv (st : htab (list Z) nat * list (list Z)) : Prop :=
  tinv _ _ strhash (fst st) /\ (forall y p, (exists i, nth_error (h_tbl (fst st)) i = Some (y, p)) <-> nth_error (snd st) p = Some y).

Lemma Strsafe_ok : forall y st, strinv st -> exists p st', Strsafe y st = Ok (p, st') /\ strinv st' /\ nth_error (snd st') p = Some y /\
  exists ext, snd st' = snd st ++ ext.
Proof.
  intros y (t & heap) (V & H). cbn [fst snd] in *. unfold Strsafe, Strsafe_find. rewrite (find_ok _ _ _ _ streq_ok _ _ V). cbn [bind].
  destruct (assoc _ _ _ _ _) as [p|] eqn:Q.
  - pose proof (assoc_some _ _ _ streq_ok _ _ _ Q) as X. exists p, (t, heap). split; [reflexivity|]. split; [split; assumption|].
    split; [now apply H|]. exists []. cbn [snd]. now rewrite app_nil_r.
  - destruct (insert_new _ _ _ _ streq_ok t y (length heap) V (assoc_none _ _ _ streq_ok _ _ Q)) as (t' & E & V' & B).
    unfold Strsafe_insert. rewrite E. cbn [bind snd]. exists (length heap), (t', heap ++ [y]). split; [reflexivity|]. split; [|split; [cbn [snd]; rewrite nth_error_app2 by lia; now rewrite Nat.sub_diag|eexists; reflexivity]].
    split; [exact V'|]. cbn [fst snd]. rewrite B. intros y' p. split.
    + intros (i & N). destruct (Nat.lt_ge_cases i (length (h_tbl t))) as [L|L].
      * rewrite nth_error_app1 in N by exact L. assert (X : nth_error heap p = Some y') by (apply H; eauto).
        rewrite nth_error_app1; [exact X|]. apply nth_error_Some. congruence.
      * rewrite nth_error_app2 in N by exact L. destruct (i - length (h_tbl t)) as [|m]; [|destruct m; discriminate]. inversion N; subst.
        rewrite nth_error_app2 by lia. now rewrite Nat.sub_diag.
    + intros N. destruct (Nat.lt_ge_cases p (length heap)) as [L|L].
      * rewrite nth_error_app1 in N by exact L. apply H in N as (i & N). exists i. rewrite nth_error_app1; [exact N|]. apply nth_error_Some. congruence.
      * rewrite nth_error_app2 in N by exact L. destruct (p - length heap) as [|m] eqn:Q2; [|destruct m; discriminate]. inversion N; subst.
        exists (length (h_tbl t)). rewrite nth_error_app2, Nat.sub_diag by lia. replace p with (length heap) by lia. reflexivity.
Qed.

Lemma Strsafes_ok : forall l st, strinv st -> exists ps st', Strsafes l st = Ok (ps, st') /\ strinv st' /\ length ps = length l /\
  (forall i y p, nth_error l i = Some y -> nth_error ps i = Some p -> nth_error (snd st') p = Some y) /\ exists ext, snd st' = snd st ++ ext.
Proof.
  induction l as [|y l IH]; intros st V; cbn [Strsafes].
  - exists [], st. split; [reflexivity|]. split; [exact V|]. split; [reflexivity|]. split; [intros [|i]; discriminate|]. exists []. now rewrite app_nil_r.
  - destruct (Strsafe_ok y st V) as (p & st1 & E & V1 & N1 & ext1 & X1). rewrite E. cbn [bind fst snd].
    destruct (IH st1 V1) as (ps & st2 & E2 & V2 & L2 & N2 & ext2 & X2). rewrite E2. cbn [bind fst snd].
    exists (p :: ps), st2. split; [reflexivity|]. split; [exact V2|]. split; [cbn; now rewrite L2|]. split.
    + intros [|i] y' p' A B; cbn [nth_error] in A, B; [|eauto]. inversion A; inversion B; subst. rewrite X2, nth_error_app1; [exact N1|].
      apply nth_error_Some. congruence.
    + exists (ext1 ++ ext2). now rewrite X2, X1, app_assoc.
Qed.

(** Every call succeeds and gives a pointer to the text; pointers are equal exactly when the texts are. *)
Theorem C22_interning : forall size l, 0 < size ->
  exists ps t heap, Strsafes l (tab_init size, []) = Ok (ps, (t, heap)) /\ length ps = length l /\
    (forall i y p, nth_error l i = Some y -> nth_error ps i = Some p -> nth_error heap p = Some y) /\
    (forall i j x y p q, nth_error l i = Some x -> nth_error l j = Some y -> nth_error ps i = Some p -> nth_error ps j = Some q ->
       (p = q <-> x = y)).
Proof.
  intros size l P. assert (V0 : strinv (tab_init size, [])).
  { split; [now apply init_inv|]. intros y p. cbn [fst snd tab_init h_tbl]. split; [intros ([|i] & E); discriminate|destruct p; discriminate]. }
  destruct (Strsafes_ok l _ V0) as (ps & (t & heap) & E & V & L & N & _). exists ps, t, heap. cbn [snd] in N.
  split; [exact E|]. split; [exact L|]. split; [exact N|].
  intros i j x y p q A B C D. pose proof (N _ _ _ A C) as N1. pose proof (N _ _ _ B D) as N2. split.
  - intros ->. congruence.
  - intros ->. destruct V as (V & H). cbn [fst snd] in *. apply H in N1 as (a & N1). apply H in N2 as (b & N2).
    pose proof (ti_nd _ _ _ _ V _ _ _ _ N1 N2 eq_refl). subst b. congruence.
Qed.

(** The table of Strsafe_init. *)
Theorem C22_strsafe : forall l, exists ps t heap, Strsafes l (tab_init 1024, []) = Ok (ps, (t, heap)) /\
  forall i j x y p q, nth_error l i = Some x -> nth_error l j = Some y -> nth_error ps i = Some p -> nth_error ps j = Some q ->
    nth_error heap p = Some x /\ (p = q <-> x = y).
Proof.
  intros l. destruct (C22_interning 1024 l) as (ps & t & heap & E & _ & N & Q).
  { apply Nat.ltb_lt. vm_compute. reflexivity. }
  exists ps, t, heap. split; [exact E|]. intros i j x y p q A B C D. split; eauto.
Qed.

(** "n" with one more and 13 fewer collides; the table of size 2 grows. *)
Example C22_example : strhash [97; 113]%Z = strhash [98; 100]%Z /\
  exists t heap, Strsafes [[97; 113]; [98; 100]; [97; 113]; []; [98; 100]]%Z (tab_init 2, []) = Ok ([0; 1; 0; 2; 1], (t, heap)) /\ h_size t = 4.
Proof. split; [vm_compute; reflexivity|]. do 2 eexists. split; vm_compute; reflexivity. Qed.

(** * Symbols *)

Definition syminv (st : htab (list Z) nat * list lsym) (names : list (list Z)) : Prop :=
  tinv _ _ strhash (fst st) /\
  (forall y p, (exists i, nth_error (h_tbl (fst st)) i = Some (y, p)) <-> exists s, nth_error (snd st) p = Some s /\ ls_name s = y) /\
  (forall s, In s (snd st) -> In (ls_name s) names /\ ls_uses s = count_occ (list_eq_dec Z.eq_dec) names (ls_name s) /\
     ls_type s = match ls_name s with c :: _ => if isupper c then TERMINAL else NONTERMINAL | [] => NONTERMINAL end) /\
  (forall y, In y names -> exists p s, nth_error (snd st) p = Some s /\ ls_name s = y).

Lemma nth_error_upd : forall {A} (l : list A) i x j, i < length l -> nth_error (upd l i x) j = if j =? i then Some x else nth_error l j.
Proof.
  intros A l. induction l as [|a l IH]; intros [|i] x [|j] H; cbn in H |- *; try lia; auto. apply IH. lia.
Qed.

Lemma Symbol_new_ok : forall y st names, syminv st names -> exists p st', Symbol_new y st = Ok (p, st') /\ syminv st' (names ++ [y]) /\
  (exists s, nth_error (snd st') p = Some s /\ ls_name s = y) /\
  (forall q s, nth_error (snd st) q = Some s -> exists s', nth_error (snd st') q = Some s' /\ ls_name s' = ls_name s).
Proof.
  intros y (t & syms) names (V & H & U & A). cbn [fst snd] in *. unfold Symbol_new, Symbol_find. rewrite (find_ok _ _ _ _ streq_ok _ _ V). cbn [bind].
  destruct (assoc _ _ _ _ _) as [p|] eqn:Q.
  - pose proof (proj1 (H y p) (assoc_some _ _ _ streq_ok _ _ _ Q)) as (s & N & E). rewrite N. cbn [opt bind].
    assert (L : p < length syms) by (apply nth_error_Some; congruence).
    assert (UPD : forall q, nth_error (upd syms p (mkLsym (ls_name s) (ls_type s) (S (ls_uses s)))) q =
      if q =? p then Some (mkLsym (ls_name s) (ls_type s) (S (ls_uses s))) else nth_error syms q) by (intros; now apply nth_error_upd).
    assert (KEEP : forall q s, nth_error syms q = Some s -> exists s', nth_error (upd syms p (mkLsym (ls_name s) (ls_type s) (S (ls_uses s)))) q = Some s' /\ ls_name s' = ls_name s).
    { intros q s0 Nq. rewrite nth_error_upd by exact L. destruct (q =? p) eqn:X; [eexists; split; [reflexivity|reflexivity]|eauto]. }
    assert (KEEP2 : forall q s0, nth_error syms q = Some s0 -> exists s', nth_error (upd syms p (mkLsym (ls_name s) (ls_type s) (S (ls_uses s)))) q = Some s' /\ ls_name s' = ls_name s0).
    { intros q s0 Nq. rewrite UPD. destruct (q =? p) eqn:X; [|eauto]. apply Nat.eqb_eq in X. subst q. rewrite N in Nq. inversion Nq; subst s0. eauto. }
    exists p. eexists. split; [reflexivity|]. cbn [fst snd].
    split; [|split; [exists (mkLsym (ls_name s) (ls_type s) (S (ls_uses s))); rewrite UPD, Nat.eqb_refl; auto|exact KEEP2]].
    split; [exact V|]. cbn [fst snd]. split; [|split].
    + intros y' q. rewrite H. split.
      * intros (s0 & Nq & E0). destruct (KEEP2 _ _ Nq) as (s' & N' & E'). exists s'. split; [exact N'|congruence].
      * intros (s' & N' & E'). rewrite UPD in N'. destruct (q =? p) eqn:X; [|eauto]. apply Nat.eqb_eq in X. subst q. inversion N'; subst s'. cbn [ls_name] in E'. eauto.
    + intros s' I. apply In_nth_error in I as (q & N'). rewrite UPD in N'. rewrite in_app_iff, count_occ_app. cbn [count_occ].
      destruct (q =? p) eqn:X.
      * inversion N'; subst s'. cbn [ls_name ls_uses ls_type]. destruct (U s (nth_error_In _ _ N)) as (U1 & U2 & U3). rewrite U2.
        destruct (list_eq_dec Z.eq_dec y (ls_name s)); [|congruence]. split; [auto|]. split; [lia|exact U3].
      * destruct (U s' (nth_error_In _ _ N')) as (U1 & U2 & U3). rewrite U2. split; [auto|]. split; [|exact U3].
        destruct (list_eq_dec Z.eq_dec y (ls_name s')) as [Y|Y]; [|lia]. exfalso.
        assert (N1 : exists i, nth_error (h_tbl t) i = Some (y, p)) by (apply H; eauto). assert (N2 : exists i, nth_error (h_tbl t) i = Some (y, q)) by (apply H; eauto).
        destruct N1 as (a & N1), N2 as (b & N2). pose proof (ti_nd _ _ _ _ V _ _ _ _ N1 N2 eq_refl). subst b. apply Nat.eqb_neq in X. congruence.
    + intros y' I. assert (I' : In y' names \/ y' = y) by (apply in_app_iff in I as [|[|[]]]; auto). destruct I' as [I'|I'].
      * destruct (A _ I') as (q & s0 & Nq & E0). destruct (KEEP2 _ _ Nq) as (s' & N' & E'). exists q, s'. split; [exact N'|congruence].
      * subst y'. destruct (KEEP2 _ _ N) as (s' & N' & E'). exists p, s'. split; [exact N'|congruence].
  - destruct (insert_new _ _ _ _ streq_ok t y (length syms) V (assoc_none _ _ _ streq_ok _ _ Q)) as (t' & E & V' & B).
    unfold Symbol_insert. rewrite E. cbn [bind snd].
    set (s0 := mkLsym y match y with c :: _ => if isupper c then TERMINAL else NONTERMINAL | [] => NONTERMINAL end 1).
    assert (NEWP : nth_error (syms ++ [s0]) (length syms) = Some s0) by (rewrite nth_error_app2 by lia; now rewrite Nat.sub_diag).
    assert (NIN : forall q s, nth_error syms q = Some s -> ls_name s <> y).
    { intros q s Nq X. assert (N1 : exists i, nth_error (h_tbl t) i = Some (y, q)) by (apply H; eauto). destruct N1 as (i & N1). exact (assoc_none _ _ _ streq_ok _ _ Q _ _ N1). }
    assert (NY : ~ In y names). { intros I. destruct (A _ I) as (q & s & Nq & Eq). exact (NIN _ _ Nq Eq). }
    exists (length syms). eexists. split; [reflexivity|]. cbn [fst snd].
    split; [|split; [exists s0; split; [exact NEWP|reflexivity]|]].
    2: { intros q s Nq. exists s. split; [|reflexivity]. rewrite nth_error_app1; [exact Nq|]. apply nth_error_Some. congruence. }
    split; [exact V'|]. cbn [fst snd]. rewrite B. split; [|split].
    + intros y' p. split.
      * intros (i & N). destruct (Nat.lt_ge_cases i (length (h_tbl t))) as [L|L].
        -- rewrite nth_error_app1 in N by exact L. assert (X : exists s, nth_error syms p = Some s /\ ls_name s = y') by (apply H; eauto).
           destruct X as (s & X & Y). exists s. split; [|exact Y]. rewrite nth_error_app1; [exact X|]. apply nth_error_Some. congruence.
        -- rewrite nth_error_app2 in N by exact L. destruct (i - length (h_tbl t)) as [|m]; [|destruct m; discriminate]. inversion N; subst.
           exists s0. split; [exact NEWP|reflexivity].
      * intros (s & N & Y). destruct (Nat.lt_ge_cases p (length syms)) as [L|L].
        -- rewrite nth_error_app1 in N by exact L. assert (X : exists i, nth_error (h_tbl t) i = Some (y', p)) by (apply H; eauto). destruct X as (i & X). exists i. rewrite nth_error_app1; [exact X|]. apply nth_error_Some. congruence.
        -- rewrite nth_error_app2 in N by exact L. destruct (p - length syms) as [|m] eqn:Q2; [|destruct m; discriminate]. inversion N; subst.
           exists (length (h_tbl t)). rewrite nth_error_app2, Nat.sub_diag by lia. replace p with (length syms) by lia. reflexivity.
    + intros s I. apply in_app_iff in I as [I|[<-|[]]]; rewrite in_app_iff, count_occ_app; cbn [count_occ].
      * destruct (U _ I) as (U1 & U2 & U3). split; [auto|]. split; [|exact U3]. apply In_nth_error in I as (q & Nq).
        destruct (list_eq_dec Z.eq_dec y (ls_name s)) as [X|X]; [|lia]. exfalso. exact (NIN _ _ Nq (eq_sym X)).
      * cbn [s0 ls_name ls_uses ls_type]. split; [right; now left|]. split; [|reflexivity]. apply (count_occ_not_In (list_eq_dec Z.eq_dec)) in NY. rewrite NY.
        destruct (list_eq_dec Z.eq_dec y y); [reflexivity|congruence].
    + intros y' I. apply in_app_iff in I as [I|[<-|[]]].
      * destruct (A _ I) as (q & s & Nq & Eq). exists q, s. split; [|exact Eq]. rewrite nth_error_app1; [exact Nq|]. apply nth_error_Some. congruence.
      * exists (length syms), s0. split; [exact NEWP|reflexivity].
Qed.

Lemma Symbol_news_ok : forall l st names, syminv st names -> exists ps st', Symbol_news l st = Ok (ps, st') /\ syminv st' (names ++ l) /\ length ps = length l /\
  (forall i y p, nth_error l i = Some y -> nth_error ps i = Some p -> exists s, nth_error (snd st') p = Some s /\ ls_name s = y) /\
  (forall q s, nth_error (snd st) q = Some s -> exists s', nth_error (snd st') q = Some s' /\ ls_name s' = ls_name s).
Proof.
  induction l as [|y l IH]; intros st names V; cbn [Symbol_news].
  - exists [], st. split; [reflexivity|]. rewrite app_nil_r. split; [exact V|]. split; [reflexivity|]. split; [intros [|i]; discriminate|eauto].
  - destruct (Symbol_new_ok y st names V) as (p & st1 & E & V1 & (s1 & N1 & Y1) & K1). rewrite E. cbn [bind fst snd].
    destruct (IH st1 _ V1) as (ps & st2 & E2 & V2 & L2 & N2 & K2). rewrite E2. cbn [bind fst snd].
    exists (p :: ps), st2. split; [reflexivity|]. rewrite <- app_assoc in V2. split; [exact V2|]. split; [cbn; now rewrite L2|]. split.
    + intros [|i] y' p' A B; cbn [nth_error] in A, B; [|eauto]. inversion A; inversion B; subst. destruct (K2 _ _ N1) as (s' & X & Y). exists s'. split; [exact X|congruence].
    + intros q s N. destruct (K1 _ _ N) as (s' & X & Y). destruct (K2 _ _ X) as (s2 & X2 & Y2). exists s2. split; [exact X2|congruence].
Qed.

(** Symbol_new: one symbol per name, typed by its first letter; useCnt counts the calls with that name. *)
Theorem C23_symbol_new : forall l, exists ps t syms, Symbol_news l (tab_init 128, []) = Ok (ps, (t, syms)) /\ length ps = length l /\
  (forall i x p, nth_error l i = Some x -> nth_error ps i = Some p -> exists s, nth_error syms p = Some s /\ ls_name s = x /\
     ls_uses s = count_occ (list_eq_dec Z.eq_dec) l x /\ (ls_type s = TERMINAL <-> exists c r, x = c :: r /\ (65 <= c <= 90)%Z)) /\
  (forall i j x y p q, nth_error l i = Some x -> nth_error l j = Some y -> nth_error ps i = Some p -> nth_error ps j = Some q -> (p = q <-> x = y)) /\
  (forall s, In s syms -> In (ls_name s) l).
Proof.
  intros l. assert (P : 0 < 128) by (apply Nat.ltb_lt; vm_compute; reflexivity).
  assert (V0 : syminv (tab_init 128, []) []).
  { split; [now apply init_inv|]. cbn [fst snd]. split; [|split; [intros s []|intros y []]].
    intros y p. split; [intros ([|i] & E); discriminate|intros (s & E & _); destruct p; discriminate]. }
  destruct (Symbol_news_ok l _ _ V0) as (ps & (t & syms) & E & (V & H & U & A) & L & N & _). cbn [fst snd app] in *.
  exists ps, t, syms. split; [exact E|]. split; [exact L|]. split; [|split].
  - intros i x p B C. destruct (N _ _ _ B C) as (s & X & Y). exists s. split; [exact X|]. split; [exact Y|].
    destruct (U s (nth_error_In _ _ X)) as (_ & U2 & U3). split; [congruence|]. rewrite U3, Y. destruct x as [|c r].
    + split; [discriminate|]. intros (c & r & Z0 & _). discriminate.
    + unfold isupper. split.
      * destruct (_ && _) eqn:W; [|discriminate]. apply andb_true_iff in W as (W1 & W2). apply Z.leb_le in W1, W2. eauto.
      * intros (c' & r' & Z0 & W1 & W2). inversion Z0; subst. apply Z.leb_le in W1, W2. now rewrite W1, W2.
  - intros i j x y p q B1 B2 C1 C2. destruct (N _ _ _ B1 C1) as (s1 & X1 & Y1). destruct (N _ _ _ B2 C2) as (s2 & X2 & Y2). split.
    + intros ->. congruence.
    + intros ->. assert (N1 : exists i, nth_error (h_tbl t) i = Some (y, p)) by (apply H; eauto). assert (N2 : exists i, nth_error (h_tbl t) i = Some (y, q)) by (apply H; eauto).
      destruct N1 as (a & N1), N2 as (b & N2). pose proof (ti_nd _ _ _ _ V _ _ _ _ N1 N2 eq_refl). subst b. congruence.
  - intros s I. now destruct (U s I).
Qed.

Example C23_symbol_new_example : exists t, Symbol_news [[36]; [97]; [65; 66]; [97]; [97; 98]]%Z (tab_init 128, [])
  = Ok ([0; 1; 2; 1; 3], (t, [mkLsym [36]%Z NONTERMINAL 1; mkLsym [97]%Z NONTERMINAL 2; mkLsym [65; 66]%Z TERMINAL 1; mkLsym [97; 98]%Z NONTERMINAL 1])).
Proof. eexists. vm_compute. reflexivity. Qed.

Print Assumptions C22_interning.
Print Assumptions C22_strsafe.
Print Assumptions C23_map.
Print Assumptions C23_symbol.
Print Assumptions C23_state.
Print Assumptions C23_config.
Print Assumptions C23_symbol_new.
