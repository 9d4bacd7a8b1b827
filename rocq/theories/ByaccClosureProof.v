(** byacc/closure.c: first_derives and the closure of a kernel. *)
From Coq Require Import List Arith NArith ZArith Lia Bool Sorted.
Import ListNotations.
From Verif Require Import Base SpecGrammar SpecGrammarFacts SpecLRFacts SpecByacc
  ByaccWarshallModel ByaccWarshallProof ByaccLr0Model ByaccPackProof.
Open Scope res_scope.

Notation srt := (StronglySorted lt).

Lemma srt_app : forall a c, srt (a ++ c) <-> srt a /\ srt c /\ forall x y, In x a -> In y c -> x < y.
Proof.
  induction a as [|x a IH]; intros c; cbn [app].
  - split; [intros H; split; [constructor|split; [auto|intros ? ? []]]|tauto].
  - split.
    + intros H. inversion H as [|? ? H1 H2]; subst. apply IH in H1 as (A & B & C). rewrite Forall_forall in H2.
      split; [constructor; [auto|apply Forall_forall; intros y Hy; apply H2, in_or_app; auto]|]. split; [auto|].
      intros u v [<-|Hu] Hv; [apply H2, in_or_app; auto|auto].
    + intros (A & B & C). inversion A as [|? ? A1 A2]; subst. constructor.
      * apply IH. split; [auto|]. split; [auto|]. intros u v Hu Hv. apply C; [now right|auto].
      * rewrite Forall_forall in *. intros y Hy. apply in_app_or in Hy as [Hy|Hy]; [auto|]. apply C; [now left|auto].
Qed.

Lemma srt_length : forall l n, srt l -> (forall x, In x l -> x < n) -> length l <= n.
Proof.
  intros l n H. revert n. induction l as [|x l IH] using rev_ind; intros n Hn; [cbn; lia|].
  apply srt_app in H as (A & _ & C). rewrite app_length. cbn.
  assert (length l <= x) by (apply IH; auto; intros y Hy; apply C; [auto|now left]).
  assert (x < n) by (apply Hn, in_or_app; right; now left). lia.
Qed.

Lemma srt_NoDup : forall l, srt l -> NoDup l.
Proof.
  induction 1 as [|x l H IH F]; constructor; auto. intros I. rewrite Forall_forall in F. specialize (F _ I). lia.
Qed.

Lemma srt_ext : forall a c, srt a -> srt c -> (forall x, In x a <-> In x c) -> a = c.
Proof.
  induction a as [|x a IH]; intros c Ha Hc E.
  - destruct c as [|y c]; [auto|]. destruct (proj2 (E y) (or_introl eq_refl)).
  - destruct c as [|y c]; [destruct (proj1 (E x) (or_introl eq_refl))|].
    inversion Ha as [|? ? A1 A2]; subst. inversion Hc as [|? ? C1 C2]; subst. rewrite Forall_forall in A2, C2.
    assert (x = y).
    { destruct (proj1 (E x) (or_introl eq_refl)) as [|I1]; [auto|]. destruct (proj2 (E y) (or_introl eq_refl)) as [|I2]; [auto|].
      specialize (A2 _ I2). specialize (C2 _ I1). lia. }
    subst y. f_equal. apply IH; auto. intros z. split; intros I.
    + destruct (proj1 (E z) (or_intror I)) as [<-|]; [specialize (A2 _ I); lia|auto].
    + destruct (proj2 (E z) (or_intror I)) as [<-|]; [specialize (C2 _ I); lia|auto].
Qed.

Lemma filter_seq_In : forall p n m x, In x (filter p (seq n m)) <-> n <= x < n + m /\ p x = true.
Proof. intros. rewrite filter_In, in_seq. tauto. Qed.

Lemma BPW_pos : 0 < BPW.
Proof. unfold BPW. lia. Qed.
Global Opaque BPW.

Section Closure.
Variable s : bsrc.
Hypothesis W : wf_src s.
Let b := pack_grammar s.
Let d := set_derives b.

Lemma nvars_eq : nvars b = b_nsyms s - b_ntokens s.
Proof. unfold nvars, b. now rewrite b_nsy, b_ntok. Qed.

Lemma start_eq : start_symbol b = b_ntokens s.
Proof. unfold start_symbol, b. now rewrite b_ntok. Qed.

Lemma derives_length : length d = nvars b.
Proof. unfold d, set_derives. now rewrite map_length, seq_length. Qed.

(** Rule k + 2 belongs to nonterminal number v. *)
Definition has_rule (v r : nat) : Prop :=
  exists k rr, r = S (S k) /\ nth_error (prules s) k = Some (b_ntokens s + v, rr).

Lemma derives_nth : forall v, v < nvars b -> exists L, nth_error d v = Some L /\
  (forall r, In r L <-> has_rule v r) /\ srt L.
Proof.
  intros v Hv. unfold d, set_derives. eexists. split; [|split].
  - apply map_nth_error. rewrite (nth_error_nth' _ 0) by (rewrite seq_length; auto). now rewrite seq_nth.
  - intros r. rewrite filter_seq_In, start_eq. unfold b at 2. rewrite b_rlhs. split.
    + intros [_ H]. destruct r as [|[|k]].
      * cbn [nth_error] in H. apply Nat.eqb_eq in H. destruct W. lia.
      * cbn [nth_error] in H. apply Nat.eqb_eq in H. destruct W. lia.
      * cbn [nth_error] in H. rewrite nth_error_map in H. destruct (nth_error (prules s) k) as [[l rr]|] eqn:E; [|discriminate].
        cbn in H. apply Nat.eqb_eq in H. subst l. exists k, rr. auto.
    + intros (k & rr & -> & E). split.
      * unfold b. rewrite b_nrules. apply nth_error_Some_lt in E. lia.
      * cbn [nth_error]. rewrite nth_error_map, E. cbn. apply Nat.eqb_refl.
  - generalize (start_symbol b + v) as lhs. intros lhs. generalize 0 as n. induction (nrules b) as [|m IH]; intros n; cbn [seq filter]; [constructor|].
    destruct (match nth_error (rlhs b) n with Some l => l =? lhs | None => false end); [|apply IH].
    constructor; [apply IH|]. apply Forall_forall. intros x Hx. apply filter_seq_In in Hx. lia.
Qed.

Lemma derives_of_ok : forall x, b_ntokens s <= x < b_nsyms s -> exists L, derives_of b d x = Ok L /\
  (forall r, In r L <-> has_rule (x - b_ntokens s) r) /\ srt L.
Proof.
  intros x H. destruct (derives_nth (x - b_ntokens s)) as (L & E & D & S); [rewrite nvars_eq; lia|].
  exists L. split; [|auto]. unfold derives_of. rewrite start_eq. replace (x <? b_ntokens s) with false by (symmetry; apply Nat.ltb_ge; lia).
  now rewrite E.
Qed.

(** The first ritem entry of a rule. *)
Lemma rule_first : forall k l rr, nth_error (prules s) k = Some (l, rr) ->
  nth_error (rrhs b) (S (S k)) = Some (base s k) /\ nth_error (ritem b) (base s k) = Some (rcode (S (S k)) rr 0).
Proof.
  intros k l rr H. split.
  - unfold b. apply b_rrhs. apply nth_error_Some_lt in H. lia.
  - unfold b. pose proof (b_ritem s k l rr 0 H ltac:(lia)) as E. now rewrite Nat.add_0_r in E.
Qed.

(** [v] has a rule starting with nonterminal [u] (numbers from start_symbol). *)
Definition starts_with (v u : nat) : Prop :=
  exists k rr x, nth_error (prules s) k = Some (b_ntokens s + v, x :: rr) /\ x = b_ntokens s + u.

Lemma prules_range : forall l rr, In (l, rr) (prules s) -> b_ntokens s <= l < b_nsyms s /\ forall x, In x rr -> x < b_nsyms s.
Proof.
  destruct W as [T G R]. intros l r [I|I].
  - inversion I; subst. split; [lia|]. intros x [<-|[<-|[]]]; lia.
  - apply R in I as [I1 I2]. split; [lia|]. intros x Hx. apply I2 in Hx. lia.
Qed.

Let ers := WORDSIZE BPW (nvars b).

Lemma eff_rules_ok : forall L a row v, (forall r, In r L -> has_rule v r) -> row + ers <= length a ->
  exists a', eff_rules b L a row = Ok a' /\ length a' = length a /\
  (forall m, m < row \/ row + ers <= m -> nth m a' 0%N = nth m a 0%N) /\
  (forall u, bitat BPW a' row u = true <-> bitat BPW a row u = true \/
     exists k rr, In (S (S k)) L /\ nth_error (prules s) k = Some (b_ntokens s + v, (b_ntokens s + u) :: rr)).
Proof.
  induction L as [|r L IH]; intros a row v HL La; cbn [eff_rules].
  - exists a. repeat split; auto. intros [H|(k & rr & [] & _)]. auto.
  - destruct (HL r (or_introl eq_refl)) as (k & rr & -> & E). cbn [Nat.eqb].
    destruct (rule_first _ _ _ E) as [E1 E2]. rewrite E1. cbn [opt bind]. rewrite E2. cbn [opt bind].
    assert (HL' : forall r, In r L -> has_rule v r) by (intros; apply HL; now right).
    assert (Hin : forall x, nth_error rr 0 = Some x -> x < b_nsyms s).
    { intros x Hx. apply nth_error_In in Hx. apply nth_error_In in E. eapply prules_range; eauto. }
    destruct (ISVAR b (rcode (S (S k)) rr 0)) eqn:V; unfold ISVAR in V; rewrite start_eq in V; unfold rcode in V |- *.
    + apply Z.leb_le in V. destruct rr as [|x rr]; cbn [nth_error] in *; [lia|]. specialize (Hin x eq_refl).
      assert (Hx : b_ntokens s <= x) by lia.
      destruct (SETBIT_ok BPW a row (x - b_ntokens s)) as (a1 & A1 & A2 & A3 & A4).
      { pose proof (wordsize_lt BPW (nvars b) (x - b_ntokens s) BPW_pos ltac:(rewrite nvars_eq; lia)). unfold ers in *. lia. }
      rewrite Nat2Z.id, start_eq, A1. cbn [bind].
      destruct (IH a1 row v HL' ltac:(lia)) as (a2 & B1 & B2 & B3 & B4). exists a2. split; [auto|]. split; [lia|]. split.
      * intros m Hm. rewrite B3 by auto. apply A3. 
        pose proof (wordsize_lt BPW (nvars b) (x - b_ntokens s) BPW_pos ltac:(rewrite nvars_eq; lia)). unfold ers in *. lia.
      * intros u. rewrite B4. rewrite (A4 BPW_pos), orb_true_iff, Nat.eqb_eq. split.
        -- intros [[H|H]|(k' & r' & I & H)]; [auto| |right; exists k', r'; split; [now right|auto]].
           right. exists k, rr. split; [now left|]. rewrite E. do 2 f_equal. f_equal. lia.
        -- intros [H|(k' & r' & [I|I] & H)]; [auto| |right; exists k', r'; auto].
           left. right. inversion I; subst k'. rewrite E in H. inversion H; subst. lia.
    + apply Z.leb_gt in V. destruct (IH a row v HL' La) as (a2 & B1 & B2 & B3 & B4). exists a2. split; [auto|].
      split; [lia|]. split; [auto|]. intros u. rewrite B4. split.
      * intros [H|(k' & r' & I & H)]; [auto|right; exists k', r'; split; [now right|auto]].
      * intros [H|(k' & r' & [I|I] & H)]; [auto| |right; exists k', r'; auto].
        inversion I; subst k'. rewrite E in H. inversion H; subst. cbn [nth_error] in V. lia.
Qed.

Lemma bitat_frame : forall a a' r j, nth (r + j / BPW) a' 0%N = nth (r + j / BPW) a 0%N -> bitat BPW a' r j = bitat BPW a r j.
Proof. intros a a' r j H. unfold bitat. now rewrite H. Qed.

Lemma eff_rows_ok : forall k v a, v + k = nvars b -> length a = nvars b * ers ->
  exists a', eff_rows b (skipn v d) a (v * ers) ers = Ok a' /\ length a' = length a /\
  (forall m, m < v * ers -> nth m a' 0%N = nth m a 0%N) /\
  (forall v' u, v <= v' < nvars b -> u < nvars b ->
     (bitat BPW a' (v' * ers) u = true <-> bitat BPW a (v' * ers) u = true \/ starts_with v' u)).
Proof.
  induction k as [|k IH]; intros v a Hv La.
  - rewrite skipn_all2 by (rewrite derives_length; lia). cbn [eff_rows]. exists a. repeat split; auto; lia.
  - destruct (derives_nth v) as (L & E & D & _); [lia|].
    assert (SK : skipn v d = L :: skipn (S v) d).
    { clear - E. revert v E. induction d as [|x l IH]; intros [|v] E; cbn in *; try discriminate; [congruence|]. apply IH; auto. }
    rewrite SK. cbn [eff_rows].
    destruct (eff_rules_ok L a (v * ers) v) as (a1 & A1 & A2 & A3 & A4); [intros r; apply D|nia|].
    rewrite A1. cbn [bind]. replace (v * ers + ers) with (S v * ers) by lia.
    destruct (IH (S v) a1 ltac:(lia) ltac:(lia)) as (a2 & B1 & B2 & B3 & B4).
    exists a2. split; [auto|]. split; [lia|]. split.
    { intros m Hm. rewrite B3 by lia. apply A3. lia. }
    intros v' u Hv' Hu. pose proof (wordsize_lt BPW (nvars b) u BPW_pos Hu) as Q. fold ers in Q.
    destruct (Nat.eq_dec v' v) as [->|N].
    + rewrite (bitat_frame a1 a2) by (apply B3; nia). rewrite A4. split.
      * intros [H|(k' & rr & I & H)]; [auto|]. right. exists k', rr, (b_ntokens s + u). auto.
      * intros [H|(k' & rr & x & H & ->)]; [auto|]. right. exists k', rr. split; [|auto]. apply D. exists k', ((b_ntokens s + u) :: rr). auto.
    + rewrite B4 by lia. rewrite (bitat_frame a a1) by (apply A3; nia). tauto.
Qed.

Lemma bit_bitat : forall rs a i j, bit BPW rs a i j = bitat BPW a (i * rs) j.
Proof. reflexivity. Qed.

Lemma nth_repeat0 : forall n m, nth m (repeat 0%N n) 0%N = 0%N.
Proof. intros. apply nth_repeat_same. Qed.

Lemma set_EFF_ok : forall fuel, nvars b < fuel -> exists a, set_EFF fuel b d = Ok a /\ length a = nvars b * ers /\
  (forall v u, v < nvars b -> u < nvars b -> (bitat BPW a (v * ers) u = true <-> star starts_with v u)).
Proof.
  intros fuel F. unfold set_EFF. fold ers.
  destruct (eff_rows_ok (nvars b) 0 (repeat 0%N (nvars b * ers)) eq_refl) as (a & A1 & A2 & A3 & A4). { apply repeat_length. }
  cbn [skipn Nat.mul] in A1. rewrite A1. cbn [bind]. rewrite repeat_length in A2.
  destruct (reflexive_ok BPW (nvars b) BPW_pos fuel a F) as (a' & B1 & B2 & B3 & B4). { fold ers. lia. }
  exists a'. split; [auto|]. split; [lia|]. intros v u Hv Hu. rewrite <- bit_bitat. unfold ers. rewrite B4 by auto.
  rewrite via_star by (intros x y (_ & H & _); auto).
  assert (RR : forall x y, x < nvars b -> y < nvars b -> (bit BPW (WORDSIZE BPW (nvars b)) a x y = true <-> starts_with x y)).
  { intros x y Hx Hy. rewrite bit_bitat. fold ers. rewrite A4 by lia. split; [|auto].
    intros [H|H]; [|auto]. exfalso. unfold bitat in H. rewrite nth_repeat0, N.bits_0 in H. discriminate. }
  assert (SW : forall x y, starts_with x y -> x < nvars b /\ y < nvars b).
  { intros x y (k & rr & z & E & ->). apply nth_error_In in E. apply prules_range in E as [E1 E2].
    specialize (E2 _ (or_introl eq_refl)). rewrite nvars_eq. lia. }
  split; intros H.
  - clear Hu Hv. induction H as [|x y z (H1 & H2 & H3) H IH]; [apply star_refl|]. eapply star_step; [|exact IH]. now apply RR.
  - clear Hu Hv. induction H as [|x y z H1 H IH]; [apply star_refl|]. eapply star_step; [|exact IH].
    destruct (SW _ _ H1). unfold Rel. repeat split; auto. now apply RR.
Qed.

(** ** first_derives *)
Let frs := WORDSIZE BPW (nrules b).

Lemma set_bits_ok : forall L a row, (forall r, In r L -> r < nrules b) -> row + frs <= length a ->
  exists a', set_bits a row L = Ok a' /\ length a' = length a /\
  (forall m, m < row \/ row + frs <= m -> nth m a' 0%N = nth m a 0%N) /\
  (forall r, bitat BPW a' row r = true <-> bitat BPW a row r = true \/ In r L).
Proof.
  induction L as [|x L IH]; intros a row HL La; cbn [set_bits].
  - exists a. repeat split; auto. intros [H|[]]; auto.
  - pose proof (wordsize_lt BPW (nrules b) x BPW_pos (HL x (or_introl eq_refl))) as Q. fold frs in Q.
    destruct (SETBIT_ok BPW a row x) as (a1 & A1 & A2 & A3 & A4); [lia|]. rewrite A1. cbn [bind].
    destruct (IH a1 row) as (a2 & B1 & B2 & B3 & B4); [intros r I; apply HL; now right|lia|].
    exists a2. split; [auto|]. split; [lia|]. split; [intros m Hm; rewrite B3 by auto; apply A3; lia|].
    intros r. rewrite B4, (A4 BPW_pos), orb_true_iff, Nat.eqb_eq. cbn [In]. tauto.
Qed.

Lemma fd_cols_ok : forall eff v0 k j a rrow vrow c cw,
  (forall q, q < nvars b -> v0 + q / BPW < length eff) ->
  j + k = nvars b -> rrow + frs <= length a ->
  (c = BPW /\ j mod BPW = 0 /\ vrow = v0 + j / BPW) \/
  (c = j mod BPW /\ c <> 0 /\ vrow = S (v0 + j / BPW) /\ cw = nth (v0 + j / BPW) eff 0%N) ->
  exists a', fd_cols eff (skipn j d) a rrow vrow c cw = Ok a' /\ length a' = length a /\
  (forall m, m < rrow \/ rrow + frs <= m -> nth m a' 0%N = nth m a 0%N) /\
  (forall r, bitat BPW a' rrow r = true <-> bitat BPW a rrow r = true \/
     exists u, j <= u < nvars b /\ bitat BPW eff v0 u = true /\ has_rule u r).
Proof.
  intros eff v0. induction k as [|k IH]; intros j a rrow vrow c cw He Hj La HS.
  - rewrite skipn_all2 by (rewrite derives_length; lia). cbn [fd_cols]. exists a. repeat split; auto.
    intros [H|(u & Hu & _)]; [auto|lia].
  - destruct (derives_nth j) as (L & E & D & _); [lia|].
    assert (SK : skipn j d = L :: skipn (S j) d).
    { clear - E. revert j E. induction d as [|x l IH]; intros [|v] E; cbn in *; try discriminate; [congruence|]. apply IH; auto. }
    rewrite SK. cbn [fd_cols]. pose proof (Nat.mod_upper_bound j BPW ltac:(pose proof BPW_pos; lia)) as MB.
    set (cw' := nth (v0 + j / BPW) eff 0%N).
    assert (ST : (if BPW <=? c then w <- opt (nth_error eff vrow);; Ok (w, S vrow, 0) else Ok (cw, vrow, c)) =
                 Ok (cw', S (v0 + j / BPW), j mod BPW)).
    { destruct HS as [(-> & M & ->)|(-> & M & -> & ->)].
      - rewrite Nat.leb_refl. destruct (nth_error_lt_ex _ eff (v0 + j / BPW)) as (w & Ew); [apply He; lia|].
        rewrite Ew. cbn [opt bind]. rewrite M. unfold cw'. now rewrite (nth_error_nth _ _ 0%N Ew).
      - replace (BPW <=? j mod BPW) with false by (symmetry; apply Nat.leb_gt; lia). reflexivity. }
    rewrite ST. cbn [bind]. clear ST HS. rewrite land_bit.
    assert (NX : (S (j mod BPW) = BPW /\ S j mod BPW = 0 /\ S (v0 + j / BPW) = v0 + S j / BPW) \/
      (S (j mod BPW) = S j mod BPW /\ S (j mod BPW) <> 0 /\ S (v0 + j / BPW) = S (v0 + S j / BPW) /\ cw' = nth (v0 + S j / BPW) eff 0%N)).
    { pose proof BPW_pos as BP. pose proof (Nat.div_mod j BPW ltac:(lia)) as DM.
      destruct (Nat.eq_dec (S (j mod BPW)) BPW) as [Q|Q].
      - left. rewrite <- (Nat.div_unique (S j) BPW (S (j / BPW)) 0) by nia. rewrite <- (Nat.mod_unique (S j) BPW (S (j / BPW)) 0) by nia. lia.
      - right. rewrite <- (Nat.div_unique (S j) BPW (j / BPW) (S (j mod BPW))) by nia.
        rewrite <- (Nat.mod_unique (S j) BPW (j / BPW) (S (j mod BPW))) by nia. unfold cw'. lia. }
    assert (EB : N.testbit cw' (N.of_nat (j mod BPW)) = bitat BPW eff v0 j) by reflexivity. rewrite EB.
    destruct (bitat BPW eff v0 j) eqn:Bj.
    + destruct (set_bits_ok L a rrow) as (a1 & A1 & A2 & A3 & A4); [| auto|].
      { intros r Hr. apply D in Hr as (k' & rr & -> & H). unfold b. rewrite b_nrules. apply nth_error_Some_lt in H. lia. }
      rewrite A1. cbn [bind]. destruct (IH (S j) a1 rrow (S (v0 + j / BPW)) (S (j mod BPW)) cw' He ltac:(lia) ltac:(lia) NX) as (a2 & B1 & B2 & B3 & B4).
      exists a2. split; [auto|]. split; [lia|]. split; [intros m Hm; rewrite B3 by auto; apply A3; auto|].
      intros r. rewrite B4, A4. split.
      * intros [[H|H]|(u & Hu & H)]; [auto| |right; exists u; split; [lia|auto]].
        right. exists j. split; [lia|]. split; [auto|]. now apply D.
      * intros [H|(u & Hu & H1 & H2)]; [auto|]. destruct (Nat.eq_dec u j) as [->|N]; [left; right; now apply D|].
        right. exists u. split; [lia|auto].
    + cbn [bind]. destruct (IH (S j) a rrow (S (v0 + j / BPW)) (S (j mod BPW)) cw' He ltac:(lia) ltac:(lia) NX) as (a2 & B1 & B2 & B3 & B4).
      exists a2. split; [auto|]. split; [lia|]. split; [auto|].
      intros r. rewrite B4. split.
      * intros [H|(u & Hu & H)]; [auto|right; exists u; split; [lia|auto]].
      * intros [H|(u & Hu & H1 & H2)]; [auto|]. destruct (Nat.eq_dec u j) as [->|N]; [congruence|].
        right. exists u. split; [lia|auto].
Qed.

Lemma fd_rows_ok : forall eff k v a, length eff = nvars b * ers -> v + k = nvars b -> length a = nvars b * frs ->
  exists a', fd_rows b eff d a k (b_ntokens s + v) (v * frs) = Ok a' /\ length a' = length a /\
  (forall m, m < v * frs -> nth m a' 0%N = nth m a 0%N) /\
  (forall v' r, v <= v' < nvars b -> r / BPW < frs -> (bitat BPW a' (v' * frs) r = true <-> bitat BPW a (v' * frs) r = true \/
     exists u, u < nvars b /\ bitat BPW eff (v' * ers) u = true /\ has_rule u r)).
Proof.
  intros eff. induction k as [|k IH]; intros v a Le Hv La; cbn [fd_rows].
  - exists a. repeat split; auto; lia.
  - replace (ntokens b) with (b_ntokens s) by (symmetry; apply b_ntok). replace (b_ntokens s + v - b_ntokens s) with v by lia.
    fold ers. fold frs.
    destruct (fd_cols_ok eff (v * ers) (nvars b) 0 a (v * frs) (v * ers) BPW 0%N) as (a1 & A1 & A2 & A3 & A4).
    { intros q Hq. pose proof (wordsize_lt BPW (nvars b) q BPW_pos Hq) as Q. fold ers in Q. nia. }
    { lia. } { nia. }
    { left. pose proof BPW_pos. rewrite Nat.mod_0_l, Nat.div_0_l by lia. lia. }
    cbn [skipn] in A1. rewrite A1. cbn [bind]. replace (v * frs + frs) with (S v * frs) by lia.
    replace (S (b_ntokens s + v)) with (b_ntokens s + S v) by lia.
    destruct (IH (S v) a1 Le ltac:(lia) ltac:(lia)) as (a2 & B1 & B2 & B3 & B4).
    exists a2. split; [auto|]. split; [lia|]. split.
    { intros m Hm. rewrite B3 by lia. apply A3. lia. }
    intros v' r Hv' Q.
    destruct (Nat.eq_dec v' v) as [->|N].
    + rewrite (bitat_frame a1 a2) by (apply B3; nia). rewrite A4. split.
      * intros [H|(u & Hu & H)]; [auto|right; exists u; split; [lia|auto]].
      * intros [H|(u & Hu & H)]; [auto|right; exists u; split; [lia|auto]].
    + rewrite B4 by lia. rewrite (bitat_frame a a1) by (apply A3; nia). tauto.
Qed.

(** Rule [r] is reachable from nonterminal [v] by leftmost expansion. *)
Definition first_rule (v r : nat) : Prop := exists u, star starts_with v u /\ has_rule u r.

Lemma has_rule_lt : forall v r, has_rule v r -> v < nvars b /\ 2 <= r < nrules b.
Proof.
  intros v r (k & rr & -> & E). pose proof (nth_error_Some_lt _ _ _ _ E) as L. apply nth_error_In in E.
  apply prules_range in E as [E _]. unfold b. rewrite b_nrules. fold b. rewrite nvars_eq. lia.
Qed.

Lemma set_first_derives_ok : forall fuel, nvars b < fuel -> exists fd, set_first_derives fuel b d = Ok fd /\
  length fd = nvars b * frs /\
  (forall v r, v < nvars b -> r / BPW < frs -> (bitat BPW fd (v * frs) r = true <-> first_rule v r)).
Proof.
  intros fuel F. unfold set_first_derives. destruct (set_EFF_ok fuel F) as (eff & E1 & E2 & E3). rewrite E1. cbn [bind].
  fold frs. destruct (fd_rows_ok eff (nvars b) 0 (repeat 0%N (nvars b * frs)) E2 eq_refl) as (fd & A1 & A2 & A3 & A4).
  { apply repeat_length. }
  rewrite start_eq. rewrite Nat.add_0_r in A1. cbn [Nat.mul] in A1. rewrite A1. rewrite repeat_length in A2.
  exists fd. split; [auto|]. split; [auto|]. intros v r Hv Hr. rewrite A4 by lia. split.
  - intros [H|(u & Hu & H1 & H2)].
    + unfold bitat in H. rewrite nth_repeat0, N.bits_0 in H. discriminate.
    + exists u. rewrite <- E3 by auto. auto.
  - intros (u & H1 & H2). right. exists u. destruct (has_rule_lt _ _ H2) as [Hu _]. rewrite E3 by auto. auto.
Qed.

(** ** The rule set of a kernel *)
Lemma or_from_ok : forall k rs0 rsp fd dsp, rsp + k <= length rs0 -> dsp + k <= length fd ->
  exists rs', or_from rs0 rsp fd dsp k = Ok rs' /\ length rs' = length rs0 /\
  forall m, nth m rs' 0%N = if (rsp <=? m) && (m <? rsp + k) then N.lor (nth m rs0 0%N) (nth (dsp + (m - rsp)) fd 0%N) else nth m rs0 0%N.
Proof.
  induction k as [|k IH]; intros rs0 rsp fd dsp H1 H2; cbn [or_from].
  - exists rs0. split; [auto|]. split; [auto|]. intros m. destruct (Nat.leb_spec rsp m); destruct (Nat.ltb_spec m (rsp + 0)); cbn; auto; lia.
  - destruct (nth_error_lt_ex _ rs0 rsp) as (x & Ex); [lia|]. destruct (nth_error_lt_ex _ fd dsp) as (y & Ey); [lia|].
    rewrite Ex, Ey. cbn [opt bind]. destruct (IH (upd rs0 rsp (N.lor x y)) (S rsp) fd (S dsp)) as (rs' & E & L & B); [rewrite upd_length; lia|lia|].
    exists rs'. split; [auto|]. rewrite upd_length in L. split; [auto|]. intros m. rewrite B.
    apply (nth_error_nth _ _ 0%N) in Ex. apply (nth_error_nth _ _ 0%N) in Ey.
    destruct (Nat.eq_dec m rsp) as [->|N].
    + replace (S rsp <=? rsp) with false by (symmetry; apply Nat.leb_gt; lia). rewrite Nat.leb_refl.
      replace (rsp <? rsp + S k) with true by (symmetry; apply Nat.ltb_lt; lia). cbn [andb].
      rewrite nth_upd_eq by lia. rewrite Nat.sub_diag, Nat.add_0_r. congruence.
    + rewrite nth_upd_ne by auto. destruct (Nat.leb_spec (S rsp) m); destruct (Nat.leb_spec rsp m); try lia; cbn [andb]; [|auto].
      replace (S rsp + k) with (rsp + S k) by lia. destruct (Nat.ltb_spec m (rsp + S k)); [|auto]. f_equal. f_equal. lia.
Qed.

Definition fd_ok (fd : list N) : Prop := length fd = nvars b * frs /\
  forall v r, v < nvars b -> r / BPW < frs -> (bitat BPW fd (v * frs) r = true <-> first_rule v r).

Lemma ISVAR_lt : forall z, ISVAR b z = true -> (0 <= z)%Z /\ b_ntokens s <= Z.to_nat z.
Proof. intros z H. unfold ISVAR in H. rewrite start_eq in H. apply Z.leb_le in H. lia. Qed.

Lemma ritem_range : forall x z, nth_error (ritem b) x = Some z -> (z < Z.of_nat (b_nsyms s))%Z.
Proof.
  intros x z H. destruct x as [|x].
  - unfold b in H. rewrite pack_grammar_eq in H. destruct (pack_rules 2 1 (prules s)) as [[it ls] os]. cbn in H.
    inversion H. destruct W. lia.
  - destruct (pos_cover s (S x)) as (k & l & r & e & A & B & C). { split; [lia|]. unfold nitems. eapply nth_error_Some_lt; eauto. }
    unfold b in H. rewrite C, (b_ritem s k l r e A B) in H. inversion H. unfold rcode. destruct (nth_error r e) as [y|] eqn:E.
    + apply nth_error_In in E. apply nth_error_In in A. apply prules_range in A as [_ A]. apply A in E. lia.
    + destruct W. lia.
Qed.

Lemma ruleset_ok : forall fd, fd_ok fd -> forall nuc rs0, (forall c, In c nuc -> c < nitems b) -> length rs0 = frs ->
  exists rs', ruleset_of b fd nuc rs0 = Ok rs' /\ length rs' = frs /\
  forall r, r / BPW < frs -> (bitat BPW rs' 0 r = true <-> bitat BPW rs0 0 r = true \/
    exists c z, In c nuc /\ nth_error (ritem b) c = Some z /\ ISVAR b z = true /\ first_rule (Z.to_nat z - b_ntokens s) r).
Proof.
  intros fd [Lf Bf]. induction nuc as [|c nuc IH]; intros rs0 Hn L; cbn [ruleset_of].
  - exists rs0. repeat split; auto. intros [H0|(c & z & [] & _)]. auto.
  - destruct (nth_error_lt_ex _ (ritem b) c) as (z & Ez). { apply Hn. now left. } rewrite Ez. cbn [opt bind].
    assert (Hn' : forall c, In c nuc -> c < nitems b) by (intros; apply Hn; now right).
    destruct (ISVAR b z) eqn:V.
    + pose proof (ISVAR_lt z V) as [V1 V2]. pose proof (ritem_range _ _ Ez) as V3.
      fold frs. replace (ntokens b) with (b_ntokens s) by (symmetry; apply b_ntok).
      assert (Hv : Z.to_nat z - b_ntokens s < nvars b) by (rewrite nvars_eq; lia).
      destruct (or_from_ok frs rs0 0 fd ((Z.to_nat z - b_ntokens s) * frs)) as (r1 & A1 & A2 & A3); [lia|nia|].
      rewrite A1. cbn [bind]. destruct (IH r1 Hn' ltac:(lia)) as (r2 & B1 & B2 & B3).
      exists r2. split; [auto|]. split; [auto|]. intros r Hr. rewrite B3 by auto.
      pose proof Hr as Q.
      assert (BB : bitat BPW r1 0 r = true <-> bitat BPW rs0 0 r = true \/ first_rule (Z.to_nat z - b_ntokens s) r).
      { rewrite <- Bf by auto. unfold bitat. rewrite A3. cbn [Nat.add]. cbn [Nat.leb]. 
        replace (r / BPW <? frs) with true by (symmetry; now apply Nat.ltb_lt). cbn [andb].
        rewrite N.lor_spec, orb_true_iff, Nat.sub_0_r. tauto. }
      rewrite BB. split.
      * intros [[H|H]|(c' & z' & I & H)]; [auto| |right; exists c', z'; split; [now right|auto]].
        right. exists c, z. split; [now left|auto].
      * intros [H|(c' & z' & [I|I] & H1 & H2 & H3)]; [auto| |right; exists c', z'; auto].
        subst c'. rewrite Ez in H1. inversion H1; subst z'. auto.
    + destruct (IH rs0 Hn' L) as (r2 & B1 & B2 & B3). exists r2. split; [auto|]. split; [auto|]. intros r Hr. rewrite B3 by auto. split.
      * intros [H|(c' & z' & I & H)]; [auto|right; exists c', z'; split; [now right|auto]].
      * intros [H|(c' & z' & [I|I] & H1 & H2 & H3)]; [auto| |right; exists c', z'; auto].
        subst c'. rewrite Ez in H1. inversion H1; subst z'. congruence.
Qed.

(** ** Merging the kernel and the new items *)
Lemma push_ok : forall out x, srt out -> (forall y, In y out -> y < x) -> x < nitems b ->
  push_item b out x = Ok (out ++ [x]) /\ srt (out ++ [x]).
Proof.
  intros out x H1 H2 H3. unfold push_item. pose proof (srt_length _ _ H1 H2) as L.
  replace (length out <? nitems b) with true by (symmetry; apply Nat.ltb_lt; lia). split; [auto|].
  apply srt_app. split; [auto|]. split; [repeat constructor|]. intros u v Hu [<-|[]]. auto.
Qed.

Lemma take_lt_ok : forall csp x out, srt (out ++ csp) -> (forall y, In y csp -> y < nitems b) ->
  exists pre csp', csp = pre ++ csp' /\ take_lt b csp x out = Ok (csp', out ++ pre) /\
    (forall y, In y pre -> y < x) /\ (forall y, In y csp' -> x <= y).
Proof.
  induction csp as [|c csp IH]; intros x out H N; cbn [take_lt].
  - exists [], []. split; [auto|]. split; [now rewrite app_nil_r|]. split; intros y [].
  - destruct (Nat.ltb_spec c x) as [L|L].
    + pose proof H as H'. apply srt_app in H' as (A & B & C).
      destruct (push_ok out c A) as [P _]; [intros y Hy; apply C; [auto|now left]|apply N; now left|].
      rewrite P. cbn [bind]. destruct (IH x (out ++ [c])) as (pre & csp' & E & T & P1 & P2).
      { rewrite <- app_assoc. exact H. } { intros; apply N; now right. }
      exists (c :: pre), csp'. split; [now rewrite E|]. split; [rewrite T, <- app_assoc; reflexivity|].
      split; [intros y [<-|Hy]; auto|auto].
    + exists [], (c :: csp). split; [auto|]. split; [now rewrite app_nil_r|]. split; [intros y []|].
      intros y [<-|Hy]; [auto|]. apply srt_app in H as (_ & B & _). inversion B as [|? ? _ F]; subst.
      rewrite Forall_forall in F. specialize (F _ Hy). lia.
Qed.

Lemma drop_eq_ok : forall csp x, srt csp -> (forall y, In y csp -> x <= y) ->
  srt (drop_eq csp x) /\ (forall y, In y (drop_eq csp x) <-> In y csp /\ x < y).
Proof.
  induction csp as [|c csp IH]; intros x H L; cbn [drop_eq].
  - split; [constructor|]. intros y. split; [intros []|tauto].
  - inversion H as [|? ? H1 H2]; subst. rewrite Forall_forall in H2. destruct (Nat.eqb_spec c x) as [->|N].
    + destruct (IH x H1) as [A B]. { intros y Hy. specialize (H2 _ Hy). lia. }
      split; [auto|]. intros y. rewrite B. split; [intros [I1 I2]; split; [now right|auto]|].
      intros [[<-|I1] I2]; [lia|auto].
    + split; [auto|]. assert (x < c) by (specialize (L c (or_introl eq_refl)); lia).
      intros y. split; [|tauto]. intros I. split; [auto|]. destruct I as [<-|I]; [auto|]. specialize (H2 _ I). lia.
Qed.

(** The set of rules whose bit is set. *)
Definition bits_ok (rset : nat -> Prop) : Prop := forall r, rset r -> exists k, r = S (S k) /\ k < length (prules s).

Definition item_of_rule (r x : nat) : Prop := nth_error (rrhs b) r = Some x.

Lemma rrhs_rule : forall k, k < length (prules s) -> nth_error (rrhs b) (S (S k)) = Some (base s k).
Proof. intros k H. unfold b. apply b_rrhs. lia. Qed.

Lemma base_lt_nitems : forall k, k < length (prules s) -> base s k < nitems b.
Proof.
  intros k H. destruct (nth_error_lt_ex _ _ _ H) as ([l r] & E). unfold b. rewrite b_nitems.
  pose proof (pos_lt s _ _ _ (length (prules s)) 0 0 E ltac:(lia) H). lia.
Qed.

Lemma base_strict : forall k k', k < k' -> k < length (prules s) -> base s k < base s k'.
Proof.
  intros k k' H L. destruct (nth_error_lt_ex _ _ _ L) as ([l r] & E). pose proof (pos_lt s _ _ _ k' 0 0 E ltac:(lia) H). lia.
Qed.

(** State of the merge: everything written lies below what is still to come. *)
Record mrg (csp out : list nat) (r0 : nat) : Prop := {
  m_srt : srt (out ++ csp);
  m_lt : forall y, In y csp -> y < nitems b;
  m_new : forall y k, In y out -> r0 <= S (S k) -> k < length (prules s) -> y < base s k
}.

Lemma word_bits_ok : forall k word ruleno i csp out, 
  (forall j, i <= j < i + k -> N.testbit word (N.of_nat j) = true -> exists q, ruleno + j = S (S q) /\ q < length (prules s)) ->
  mrg csp out (ruleno + i) ->
  exists csp' out', word_bits b word ruleno i k csp out = Ok (csp', out') /\ mrg csp' out' (ruleno + i + k) /\
    forall x, In x (out' ++ csp') <-> In x (out ++ csp) \/
      exists j q, i <= j < i + k /\ N.testbit word (N.of_nat j) = true /\ ruleno + j = S (S q) /\ x = base s q.
Proof.
  induction k as [|k IH]; intros word ruleno i csp out HB M; cbn [word_bits].
  - exists csp, out. rewrite Nat.add_0_r. split; [auto|]. split; [auto|]. intros x. split; [auto|].
    intros [H|(j & q & H & _)]; [auto|lia].
  - rewrite land_bit. destruct (N.testbit word (N.of_nat i)) eqn:T.
    + destruct (HB i ltac:(lia) T) as (q & Eq & Lq). rewrite Eq, (rrhs_rule q Lq). cbn [opt bind].
      destruct M as [M1 M2 M3].
      destruct (take_lt_ok csp (base s q) out M1 M2) as (pre & csp1 & E & TL & P1 & P2). rewrite TL. cbn [bind].
      subst csp. rewrite app_assoc in M1. apply srt_app in M1 as (S1 & S2 & S3).
      destruct (push_ok (out ++ pre) (base s q) S1) as [PU SP].
      { intros y Hy. apply in_app_or in Hy as [Hy|Hy]; [|auto]. apply (M3 y q Hy); [lia|auto]. }
      { now apply base_lt_nitems. }
      rewrite PU. cbn [bind]. destruct (drop_eq_ok csp1 (base s q) S2 P2) as [D1 D2].
      destruct (IH word ruleno (S i) (drop_eq csp1 (base s q)) ((out ++ pre) ++ [base s q])) as (csp' & out' & R1 & R2 & R3).
      { intros j Hj. apply HB. lia. }
      { constructor.
        - apply srt_app. split; [auto|]. split; [auto|]. intros u v Hu Hv. apply D2 in Hv as [Hv1 Hv2].
          apply in_app_or in Hu as [Hu|[<-|[]]]; auto.
        - intros y Hy. apply D2 in Hy as [Hy _]. apply M2. apply in_or_app. now right.
        - intros y k' Hy Hk Lk. assert (base s q < base s k') by (apply base_strict; [lia|auto]).
          apply in_app_or in Hy as [Hy|[<-|[]]]; [|auto]. apply in_app_or in Hy as [Hy|Hy].
          + apply (M3 y k' Hy); [lia|auto].
          + specialize (P1 _ Hy). lia. }
      exists csp', out'. split; [auto|]. split; [rewrite <- Eq; replace (ruleno + i + S k) with (ruleno + S i + k) by lia; exact R2|].
      intros x. rewrite R3. rewrite !in_app_iff. cbn [In]. rewrite D2. split.
      * intros [[[[H|H]|[H|[]]]|[H1 H2]]|(j & q' & Hj & H)]; auto.
        -- right. exists i, q. split; [lia|auto].
        -- right. exists j, q'. split; [lia|auto].
      * intros [[H|[H|H]]|(j & q' & Hj & H1 & H2 & ->)]; auto.
        -- specialize (P2 _ H). destruct (Nat.eq_dec (base s q) x) as [<-|N]; [auto|]. left. right. split; [auto|lia].
        -- destruct (Nat.eq_dec j i) as [->|N]; [|right; exists j, q'; split; [lia|auto]].
           assert (q' = q) by lia. subst. auto.
    + destruct (IH word ruleno (S i) csp out) as (csp' & out' & R1 & R2 & R3).
      { intros j Hj. apply HB. lia. }
      { destruct M as [M1 M2 M3]. constructor; auto. intros y k' Hy Hk. apply M3; auto. lia. }
      exists csp', out'. split; [auto|]. split; [replace (ruleno + i + S k) with (ruleno + S i + k) by lia; exact R2|].
      intros x. rewrite R3. split.
      * intros [H|(j & q & Hj & H)]; [auto|right; exists j, q; split; [lia|auto]].
      * intros [H|(j & q & Hj & H & H2)]; [auto|]. destruct (Nat.eq_dec j i) as [->|N]; [congruence|]. right. exists j, q. split; [lia|auto].
Qed.

(** All the words; the words before the suffix have been done. *)
Lemma emit_ok : forall rs0 ruleno csp out,
  (forall i w j, nth_error rs0 i = Some w -> j < BPW -> N.testbit w (N.of_nat j) = true ->
     exists q, ruleno + i * BPW + j = S (S q) /\ q < length (prules s)) ->
  mrg csp out ruleno ->
  exists csp' out', emit_words b rs0 ruleno csp out = Ok (csp', out') /\ mrg csp' out' (ruleno + length rs0 * BPW) /\
    forall x, In x (out' ++ csp') <-> In x (out ++ csp) \/
      exists i w j q, nth_error rs0 i = Some w /\ j < BPW /\ N.testbit w (N.of_nat j) = true /\ ruleno + i * BPW + j = S (S q) /\ x = base s q.
Proof.
  induction rs0 as [|w rs0 IH]; intros ruleno csp out HB M; cbn [emit_words].
  - exists csp, out. cbn. rewrite Nat.add_0_r. split; [auto|]. split; [auto|]. intros x. split; [auto|].
    intros [H|(i & w & j & q & H & _)]; [auto|]. destruct i; discriminate.
  - assert (ST : exists csp1 out1, (if negb (w =? 0)%N then word_bits b w ruleno 0 BPW csp out else Ok (csp, out)) = Ok (csp1, out1) /\
      mrg csp1 out1 (ruleno + BPW) /\ forall x, In x (out1 ++ csp1) <-> In x (out ++ csp) \/
        exists j q, 0 <= j < 0 + BPW /\ N.testbit w (N.of_nat j) = true /\ ruleno + j = S (S q) /\ x = base s q).
    { destruct (N.eqb_spec w 0) as [->|N]; cbn [negb].
      - exists csp, out. split; [auto|]. split.
        + destruct M as [M1 M2 M3]. constructor; auto. intros y k Hy Hk. apply M3; auto. lia.
        + intros x. split; [auto|]. intros [H|(j & q & _ & H & _)]; [auto|]. now rewrite N.bits_0 in H.
      - destruct (word_bits_ok BPW w ruleno 0 csp out) as (csp1 & out1 & A1 & A2 & A3).
        { intros j Hj T. destruct (HB 0 w j eq_refl ltac:(lia) T) as (q & E & L). exists q. split; [lia|auto]. }
        { now rewrite Nat.add_0_r. }
        rewrite Nat.add_0_r in A2. exists csp1, out1. auto. }
    destruct ST as (csp1 & out1 & E & M1 & I1). rewrite E. cbn [bind].
    destruct (IH (ruleno + BPW) csp1 out1) as (csp' & out' & R1 & R2 & R3).
    { intros i w' j Hi Hj T. destruct (HB (S i) w' j Hi Hj T) as (q & E1 & L). exists q. split; [lia|auto]. }
    { auto. }
    exists csp', out'. split; [auto|]. split; [cbn [length]; replace (ruleno + S (length rs0) * BPW) with (ruleno + BPW + length rs0 * BPW) by lia; exact R2|].
    intros x. rewrite R3, I1. split.
    + intros [[H|(j & q & Hj & H1 & H2 & H3)]|(i & w' & j & q & H1 & H2 & H3 & H4 & H5)]; [auto| |].
      * right. exists 0, w, j, q. repeat split; auto; lia.
      * right. exists (S i), w', j, q. repeat split; auto; lia.
    + intros [H|([|i] & w' & j & q & H1 & H2 & H3 & H4 & H5)]; [auto| |].
      * cbn in H1. inversion H1; subst w'. left. right. exists j, q. repeat split; auto; lia.
      * right. exists i, w', j, q. repeat split; auto; lia.
Qed.

Lemma push_all_ok : forall csp out, srt (out ++ csp) -> (forall y, In y csp -> y < nitems b) -> push_all b csp out = Ok (out ++ csp).
Proof.
  induction csp as [|c csp IH]; intros out H N; cbn [push_all]; [now rewrite app_nil_r|].
  pose proof H as H'. apply srt_app in H' as (A & _ & C).
  destruct (push_ok out c A) as [P _]; [intros y Hy; apply C; [auto|now left]|apply N; now left|]. rewrite P. cbn [bind].
  rewrite IH; [now rewrite <- app_assoc|now rewrite <- app_assoc|intros; apply N; now right].
Qed.

(** ** The closure *)
Lemma closure_ok : forall fd nuc, fd_ok fd -> srt nuc -> (forall c, In c nuc -> c < nitems b) ->
  exists its, closure b fd nuc = Ok its /\ srt its /\ (forall x, In x its -> x < nitems b) /\
    forall x, In x its <-> In x nuc \/
      exists c z k, In c nuc /\ nth_error (ritem b) c = Some z /\ ISVAR b z = true /\
        first_rule (Z.to_nat z - b_ntokens s) (S (S k)) /\ k < length (prules s) /\ x = base s k.
Proof.
  intros fd nuc FD Sn Ln. unfold closure. fold frs.
  destruct (ruleset_ok fd FD nuc (repeat 0%N frs) Ln (repeat_length _ _)) as (rs0 & E1 & E2 & E3).
  rewrite E1. cbn [bind].
  assert (BITS : forall r, r / BPW < frs -> (bitat BPW rs0 0 r = true <->
    exists c z, In c nuc /\ nth_error (ritem b) c = Some z /\ ISVAR b z = true /\ first_rule (Z.to_nat z - b_ntokens s) r)).
  { intros r Hr. rewrite E3 by auto. split; [|auto]. intros [H|H]; [|auto].
    unfold bitat in H. rewrite nth_repeat0, N.bits_0 in H. discriminate. }
  assert (WB : forall i w j, nth_error rs0 i = Some w -> j < BPW ->
    (i * BPW + j) / BPW = i /\ bitat BPW rs0 0 (i * BPW + j) = N.testbit w (N.of_nat j) /\ i < frs).
  { intros i w j Hi Hj. pose proof BPW_pos. assert (Q1 : (i * BPW + j) / BPW = i) by (symmetry; apply (Nat.div_unique _ BPW i j); nia).
    assert (Q2 : (i * BPW + j) mod BPW = j) by (symmetry; apply (Nat.mod_unique _ BPW i j); nia).
    split; [auto|]. split; [|apply nth_error_Some_lt in Hi; lia]. unfold bitat. rewrite Q1, Q2. cbn [Nat.add]. now rewrite (nth_error_nth _ _ 0%N Hi). }
  destruct (emit_ok rs0 0 nuc []) as (csp & out & A1 & A2 & A3).
  { intros i w j Hi Hj T. destruct (WB i w j Hi Hj) as (Q1 & Q2 & Q3). rewrite <- Q2 in T. apply BITS in T; [|lia].
    destruct T as (c & z & _ & _ & _ & (u & _ & (k & rr & E & H))). exists k. split; [lia|]. eapply nth_error_Some_lt; eauto. }
  { constructor; auto. intros y k []. }
  rewrite A1. cbn [bind]. destruct A2 as [M1 M2 M3]. rewrite push_all_ok by auto.
  exists (out ++ csp). split; [auto|]. split; [auto|].
  assert (MEM : forall x, In x (out ++ csp) <-> In x nuc \/ exists c z k, In c nuc /\ nth_error (ritem b) c = Some z /\ ISVAR b z = true /\
        first_rule (Z.to_nat z - b_ntokens s) (S (S k)) /\ k < length (prules s) /\ x = base s k).
  { intros x. rewrite A3. cbn [app]. split.
    - intros [H|(i & w & j & q & H1 & H2 & H3 & H4 & ->)]; [auto|]. right. destruct (WB i w j H1 H2) as (Q1 & Q2 & Q3).
      rewrite <- Q2 in H3. apply BITS in H3; [|lia]. cbn [Nat.add] in H4. rewrite H4 in H3. destruct H3 as (c & z & I1 & I2 & I3 & I4).
      exists c, z, q. pose proof I4 as (u & _ & (k & rr & E & H)). repeat split; auto.
      apply nth_error_Some_lt in H. lia.
    - intros [H|(c & z & k & I1 & I2 & I3 & I4 & I5 & ->)]; [auto|]. right.
      assert (Q : S (S k) / BPW < frs). { apply wordsize_lt; [apply BPW_pos|]. unfold b. rewrite b_nrules. lia. }
      destruct (nth_error_lt_ex _ rs0 (S (S k) / BPW)) as (w & Ew); [lia|].
      pose proof BPW_pos. pose proof (Nat.mod_upper_bound (S (S k)) BPW ltac:(lia)). pose proof (Nat.div_mod (S (S k)) BPW ltac:(lia)).
      exists (S (S k) / BPW), w, (S (S k) mod BPW), k. split; [auto|]. split; [auto|]. split; [|split; [cbn [Nat.add]; lia|auto]].
      assert (T : bitat BPW rs0 0 (S (S k)) = true). { apply BITS; [auto|]. exists c, z. auto. }
      unfold bitat in T. cbn [Nat.add] in T. now rewrite (nth_error_nth _ _ 0%N Ew) in T. }
  split; [|exact MEM]. intros x Hx. apply MEM in Hx as [Hx|(c & z & k & _ & _ & _ & _ & L & ->)]; [auto|now apply base_lt_nitems].
Qed.

(** ** In terms of items *)
Let G := aug s.

Lemma lhs_has_rule : forall r A, lhs_is G r A <-> b_ntokens s <= A /\ has_rule (A - b_ntokens s) (S (S r)).
Proof.
  intros r A. split.
  - intros (rl & E & L). apply aug_rule in E as (l & rr & E & E2 & _). assert (l = A) by congruence. subst l.
    pose proof (nth_error_In _ _ E) as I. apply prules_range in I as [I _]. split; [lia|].
    exists r, rr. split; [auto|]. rewrite E. do 2 f_equal. lia.
  - intros [L (k & rr & E & H)]. inversion E; subst k. apply aug_rule_inv in H. eexists. split; [exact H|]. cbn. lia.
Qed.

Lemma starts_item : forall v u, starts_with v u <-> exists r, lhs_is G r (b_ntokens s + v) /\ after_dot G (r, 0) = Some (ESym (b_ntokens s + u)).
Proof.
  intros v u. split.
  - intros (k & rr & x & E & ->). exists k. pose proof (aug_rule_inv _ _ _ _ E) as A. split.
    + eexists. split; [exact A|auto].
    + unfold after_dot. cbn [fst snd]. fold G in A. rewrite A. cbn [r_rhs]. rewrite nth_error_map.
      destruct (Nat.eqb_spec k 0) as [->|N]; [|reflexivity]. cbn in E. inversion E; subst. cbn. congruence.
  - intros (r & (rl & E & L) & A). unfold after_dot in A. cbn [fst snd] in A. rewrite E in A.
    apply aug_rule in E as (l & rr & E & E2 & E3 & _). rewrite E3, nth_error_map in A.
    destruct (Nat.eqb_spec r 0) as [->|N].
    + cbn in E, A. inversion E; subst. inversion A. exists 0, [0], (b_ntokens s + u). split; [cbn; congruence|auto].
    + destruct rr as [|x rr]; cbn in A; [discriminate|]. inversion A; subst x. exists r, rr, (b_ntokens s + u). split; [congruence|auto].
Qed.

Lemma ISVAR_var : forall x, ISVAR b (Z.of_nat x) = true <-> b_ntokens s <= x.
Proof. intros x. unfold ISVAR. rewrite start_eq, Z.leb_le. lia. Qed.

(** The items of the kernel. *)
Definition kitems (nuc : list nat) (i : item) : Prop := item_ok G i /\ In (idx s i) nuc.

Lemma first_rule_clos : forall (K : item -> Prop) v r, first_rule v r -> forall i, clos G K i -> after_dot G i = Some (ESym (b_ntokens s + v)) ->
  exists k, r = S (S k) /\ clos G K (k, 0).
Proof.
  intros K v r (u & H & HR). induction H as [v|v w u H1 H2 IH]; intros i Ci A.
  - pose proof HR as (k & rr & -> & E). exists k. split; [auto|]. eapply clos_step; [exact Ci|exact A|].
    apply lhs_has_rule. split; [lia|]. now replace (b_ntokens s + v - b_ntokens s) with v by lia.
  - apply starts_item in H1 as (k & L & A2). apply (IH HR (k, 0)); [|auto]. eapply clos_step; eauto.
Qed.

Lemma clos_first_rule : forall (K : item -> Prop) i, clos G K i -> K i \/
  exists c x, K c /\ after_dot G c = Some (ESym x) /\ b_ntokens s <= x /\ snd i = 0 /\ first_rule (x - b_ntokens s) (S (S (fst i))).
Proof.
  intros K i H. induction H as [i H|i A r H IH Ha Hl]; [auto|]. right. apply lhs_has_rule in Hl as [L HR].
  destruct IH as [IH|(c & x & Kc & Ac & Lx & Z0 & F)].
  - exists i, A. repeat split; auto. exists (A - b_ntokens s). split; [apply star_refl|auto].
  - exists c, x. repeat split; auto. destruct F as (u & F1 & F2). exists (A - b_ntokens s). split; [|auto].
    apply star_trans with u; [exact F1|]. eapply star_step; [|apply star_refl]. apply starts_item.
    destruct i as [k e]. cbn [fst snd] in *. subst e. exists k. replace (b_ntokens s + (A - b_ntokens s)) with A by lia.
    split; [|auto]. apply lhs_has_rule. split; [lia|]. now replace (b_ntokens s + u - b_ntokens s) with u by lia.
Qed.

Lemma closure_spec : forall fd nuc, fd_ok fd -> srt nuc -> (forall c, In c nuc -> exists i, item_ok G i /\ c = idx s i) ->
  exists its, closure b fd nuc = Ok its /\ srt its /\ forall x, In x its <-> exists i, clos G (kitems nuc) i /\ x = idx s i.
Proof.
  intros fd nuc FD Sn Hn. destruct (closure_ok fd nuc FD Sn) as (its & E & S1 & _ & M).
  { intros c Hc. apply Hn in Hc as (i & OK & ->). now apply idx_range. }
  exists its. split; [auto|]. split; [auto|]. intros x. rewrite M. split.
  - intros [H|(c & z & k & Ic & Ez & V & F & L & ->)].
    + destruct (Hn x H) as (i & OK & ->). exists i. split; [|auto]. apply clos_base. split; auto.
    + destruct (Hn c Ic) as (i & OK & ->). destruct (ISVAR_lt z V) as [V1 V2].
      assert (A : after_dot G i = Some (ESym (Z.to_nat z))).
      { apply (proj2 (idx_var s W i z OK Ez (Z.to_nat z))). split; [destruct W; lia|lia]. }
      destruct (first_rule_clos (kitems nuc) _ _ F i) as (k' & E2 & C).
      { apply clos_base. split; auto. } { rewrite A. do 2 f_equal. lia. }
      inversion E2; subst k'. exists (k, 0). split; [auto|]. unfold idx. cbn [fst snd]. lia.
  - intros (i & C & ->). apply clos_first_rule in C as [[_ H]|(c & x & [OK Ic] & A & L & Z0 & F)]; [auto|]. right.
    exists (idx s c), (Z.of_nat x), (fst i). split; [auto|]. split.
    { pose proof (idx_ritem s c OK) as E3. fold G in E3. rewrite A in E3. exact E3. }
    split; [now apply ISVAR_var|]. rewrite Nat2Z.id. split; [auto|]. split.
    + destruct F as (u & _ & (k & rr & Ek & H)). inversion Ek; subst k. eapply nth_error_Some_lt; eauto.
    + unfold idx. lia.
Qed.

Lemma derives_fd : forall fuel, nvars b < fuel -> exists fd, set_first_derives fuel b d = Ok fd /\ fd_ok fd.
Proof. intros fuel F. destruct (set_first_derives_ok fuel F) as (fd & E & L & B). exists fd. split; [auto|]. split; auto. Qed.
End Closure.
