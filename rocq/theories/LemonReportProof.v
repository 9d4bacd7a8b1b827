(** Proofs about the generated tables: a lookup returns what the rows say. *)
From Coq Require Import List ZArith Bool Lia Permutation Sorted Arith.
Import ListNotations.
From Verif Require Import Base CLib SpecGrammar LemonStatesModel LemonCompressModel LemonActtabModel LemonActtabProof
  LemonReportModel LemonParModel.
Local Open Scope res_scope.
Local Open Scope Z_scope.

Lemma rd_Ok_cell : forall a k x, rd a k = Ok x -> x = cell a k /\ 0 <= k < nActionAlloc a.
Proof.
  intros a k x R. unfold rd in R. destruct (Z.ltb_spec k 0); [discriminate|]. apply opt_Ok in R.
  pose proof (nth_error_Some_lt _ _ _ _ R). unfold cell, nActionAlloc.
  destruct (Z.ltb_spec k 0); [lia|]. split; [|lia]. symmetry. now apply nth_error_Some_nth.
Qed.

Lemma rd_upto_ok : forall a n l, rd_upto a n = Ok l -> l = map (fun k => cell a (Z.of_nat k)) (seq 0 n) /\ Z.of_nat n <= nActionAlloc a.
Proof.
  intros a n. induction n as [|n IH]; intros l H; cbn [rd_upto] in H.
  - inversion H; subst. cbn. unfold nActionAlloc. split; [auto|lia].
  - apply bind_Ok in H. destruct H as (l1 & H1 & H). apply bind_Ok in H. destruct H as (x & H2 & H).
    destruct (IH _ H1) as (-> & B). destruct (rd_Ok_cell _ _ _ H2) as (-> & B2).
    inversion H; subst. rewrite seq_S, map_app. cbn [map plus]. split; [auto|lia].
Qed.

Lemma rd_upto_total : forall a n, Z.of_nat n <= nActionAlloc a -> exists l, rd_upto a n = Ok l.
Proof.
  intros a n. induction n as [|n IH]; intros H; cbn [rd_upto]; [eauto|].
  destruct IH as (l & ->); [lia|]. cbn [bind]. rewrite rd_ok by lia. cbn [bind]. eauto.
Qed.

(** ** Reading printed tables *)

Lemma rdz_map_seq : forall A (f : Z -> A) n i, 0 <= i < n ->
  rdz (map (fun k => f (Z.of_nat k)) (seq 0 (Z.to_nat n))) i = Ok (f i).
Proof.
  intros A f n i H. unfold rdz. destruct (Z.ltb_spec i 0); [lia|].
  rewrite nth_error_map. rewrite (nth_error_nth' _ O) by (rewrite seq_length; lia).
  rewrite seq_nth by lia. cbn [option_map opt plus]. now rewrite Z2Nat.id by lia.
Qed.

Lemma lenz_map_seq : forall A (f : nat -> A) n, 0 <= n -> lenz (map f (seq 0 (Z.to_nat n))) = n.
Proof. intros A f n H. unfold lenz. rewrite map_length, seq_length. lia. Qed.

Lemma rdz_app1 : forall A (l m : list A) i, 0 <= i < lenz l -> rdz (l ++ m) i = rdz l i.
Proof.
  intros A l m i H. unfold rdz, lenz in *. destruct (Z.ltb_spec i 0); [lia|]. rewrite nth_error_app1 by lia. auto.
Qed.

Lemma rdz_app2 : forall A (l m : list A) i, lenz l <= i -> rdz (l ++ m) i = rdz m (i - lenz l).
Proof.
  intros A l m i H. unfold rdz, lenz in *. destruct (Z.ltb_spec i 0); [lia|].
  destruct (Z.ltb_spec (i - Z.of_nat (length l)) 0); [lia|]. rewrite nth_error_app2 by lia.
  f_equal. f_equal. lia.
Qed.

Lemma rdz_repeat : forall A (x : A) n i, 0 <= i < Z.of_nat n -> rdz (repeat x n) i = Ok x.
Proof.
  intros A x n i H. unfold rdz. destruct (Z.ltb_spec i 0); [lia|].
  destruct (nth_error_lt_ex _ (repeat x n) (Z.to_nat i)) as (y & E); [rewrite repeat_length; lia|].
  rewrite E. cbn [opt]. f_equal. apply nth_error_In in E. now apply repeat_spec in E.
Qed.

Lemma rdz_map : forall A B (f : A -> B) l i x, rdz l i = Ok x -> rdz (map f l) i = Ok (f x).
Proof.
  unfold rdz. intros A B f l i x H. destruct (i <? 0); [discriminate|]. apply opt_Ok in H.
  now rewrite nth_error_map, H.
Qed.

Lemma rdz_nat : forall A (l : list A) (i : nat), rdz l (Z.of_nat i) = opt (nth_error l i).
Proof. intros A l i. unfold rdz. destruct (Z.ltb_spec (Z.of_nat i) 0); [lia|]. now rewrite Nat2Z.id. Qed.

Lemma nth_error_firstn_lt : forall A (l : list A) n i, (i < n)%nat -> nth_error (firstn n l) i = nth_error l i.
Proof.
  intros A l. induction l as [|x l IH]; intros n i H; [now rewrite firstn_nil|].
  destruct n; [lia|]. destruct i; [auto|]. cbn. apply IH. lia.
Qed.

(** ** The action sets *)

Lemma make_ax_spec : forall sts i a, In a (make_ax i sts) ->
  exists s, nth_error sts (ax_stp a - i) = Some s /\ (i <= ax_stp a)%nat /\
    ax_row a = (if ax_isTkn a then sr_tkn s else sr_nt s) /\ ax_nAction a = Z.of_nat (length (ax_row a)).
Proof.
  induction sts as [|s r IH]; intros i a H; cbn [make_ax] in H; [destruct H|].
  destruct H as [<-|[<-|H]]; cbn [ax_stp ax_isTkn ax_row ax_nAction].
  - exists s. rewrite Nat.sub_diag. auto.
  - exists s. rewrite Nat.sub_diag. auto.
  - destruct (IH _ _ H) as (s' & E & L & R). exists s'.
    replace (ax_stp a - i)%nat with (S (ax_stp a - S i)) by lia. split; [auto|]. split; [lia|auto].
Qed.

Lemma make_ax_has : forall sts i j s tkn, nth_error sts j = Some s ->
  exists a, In a (make_ax i sts) /\ ax_stp a = (i + j)%nat /\ ax_isTkn a = tkn /\
    ax_row a = (if tkn then sr_tkn s else sr_nt s).
Proof.
  induction sts as [|s0 r IH]; intros i j s tkn H; [destruct j; discriminate|].
  destruct j as [|j].
  - inversion H; subst s0. cbn [make_ax]. destruct tkn.
    + eexists. split; [left; reflexivity|]. cbn [ax_stp ax_isTkn ax_row]. split; [lia|auto].
    + eexists. split; [right; left; reflexivity|]. cbn [ax_stp ax_isTkn ax_row]. split; [lia|auto].
  - destruct (IH (S i) j s tkn H) as (a & I & E1 & E2). exists a. split; [cbn [make_ax]; right; right; exact I|]. split; [lia|auto].
Qed.

Lemma axset_le_total : forall x y, axset_le x y = true \/ axset_le y x = true.
Proof.
  intros x y. unfold axset_le. cbv zeta.
  destruct (Z.eqb_spec (ax_nAction y - ax_nAction x) 0); destruct (Z.eqb_spec (ax_nAction x - ax_nAction y) 0); try lia;
  rewrite !Z.leb_le; lia.
Qed.

Lemma axset_le_trans : forall x y z, axset_le x y = true -> axset_le y z = true -> axset_le x z = true.
Proof.
  intros x y z. unfold axset_le. cbv zeta.
  destruct (Z.eqb_spec (ax_nAction y - ax_nAction x) 0); destruct (Z.eqb_spec (ax_nAction z - ax_nAction y) 0);
  destruct (Z.eqb_spec (ax_nAction z - ax_nAction x) 0); rewrite !Z.leb_le; lia.
Qed.

Lemma axset_le_n : forall x y, axset_le x y = true -> ax_nAction y <= ax_nAction x.
Proof.
  intros x y. unfold axset_le. cbv zeta.
  destruct (Z.eqb_spec (ax_nAction y - ax_nAction x) 0); rewrite !Z.leb_le; lia.
Qed.

Lemma take_nonempty_In : forall l a, StronglySorted (fun x y => axset_le x y = true) l ->
  (In a (take_nonempty l) <-> In a l /\ 0 < ax_nAction a).
Proof.
  intros l a H. induction H as [|x l H1 IH H2]; cbn [take_nonempty].
  - cbn. tauto.
  - destruct (Z.ltb_spec 0 (ax_nAction x)) as [E|E].
    + cbn [In]. rewrite IH. split; [intros [->|[? ?]]; auto|intros [[->|?] ?]; auto].
    + cbn [In]. split; [tauto|]. intros [[->|I] P]; [lia|].
      rewrite Forall_forall in H2. specialize (H2 _ I). apply axset_le_n in H2. lia.
Qed.

Lemma ofst_of_some : forall axs os tkn i o, ofst_of axs os tkn i = Some o ->
  exists a, In (a, o) (combine axs os) /\ ax_stp a = i /\ ax_isTkn a = tkn.
Proof.
  intros axs os tkn i o. unfold ofst_of.
  assert (G : forall l acc, fold_left (fun acc x => if (Nat.eqb (ax_stp (fst x)) i) && Bool.eqb (ax_isTkn (fst x)) tkn then Some (snd x) else acc) l acc = Some o ->
     acc = Some o \/ exists a, In (a, o) l /\ ax_stp a = i /\ ax_isTkn a = tkn).
  { induction l as [|[a z] l IH]; intros acc H; cbn [fold_left] in H; [auto|].
    apply IH in H. destruct H as [H|(a' & I & E)]; [|right; exists a'; split; [now right|auto]].
    cbn [fst snd] in H. destruct (Nat.eqb_spec (ax_stp a) i); cbn [andb] in H; [|auto].
    destruct (Bool.eqb (ax_isTkn a) tkn) eqn:EB; [|auto]. inversion H; subst z.
    apply Bool.eqb_prop in EB. right. exists a. split; [now left|auto]. }
  intros H. apply G in H. destruct H as [H|H]; [discriminate|auto].
Qed.

Lemma ofst_of_none : forall axs os tkn i, ofst_of axs os tkn i = None -> length os = length axs ->
  forall a, In a axs -> ax_stp a = i -> ax_isTkn a = tkn -> False.
Proof.
  intros axs os tkn i H LEN a I E1 E2. unfold ofst_of in H.
  assert (G : forall (l : list (axset * Z)) (acc : option Z), fold_left (fun acc x => if (Nat.eqb (ax_stp (fst x)) i) && Bool.eqb (ax_isTkn (fst x)) tkn then Some (snd x) else acc) l acc = None ->
     acc = None /\ forall a, In a (map fst l) -> ~ (ax_stp a = i /\ ax_isTkn a = tkn)).
  { induction l as [|[a0 z] l IH]; intros acc HH; cbn [fold_left] in HH; [split; auto|].
    apply IH in HH. destruct HH as [HH N]. cbn [fst snd] in HH.
    destruct (Nat.eqb_spec (ax_stp a0) i); cbn [andb] in HH.
    - destruct (Bool.eqb (ax_isTkn a0) tkn) eqn:EB; [discriminate|]. split; [auto|].
      intros b [<-|J]; [|auto]. cbn [fst]. intros [X Y]. rewrite Y in EB. rewrite Bool.eqb_reflx in EB. discriminate.
    - split; [auto|]. intros b [<-|J]; [|auto]. cbn [fst]. tauto. }
  apply G in H. destruct H as [_ N]. apply (N a); [|auto].
  replace (map fst (combine axs os)) with axs; [auto|].
  clear - LEN. revert os LEN. induction axs as [|x axs IH]; intros [|o os] LEN; cbn in *; try discriminate; auto.
  f_equal. apply IH. lia.
Qed.

Lemma trim_none_spec : forall l n, (n <= length l)%nat ->
  (trim_none l n <= n)%nat /\ forall i, (trim_none l n <= i < n)%nat -> nth_error l i = Some None.
Proof.
  intros l n. induction n as [|n IH]; intros H; cbn [trim_none]; [split; [lia|intros; lia]|].
  destruct IH as (A & B); [lia|].
  destruct (nth_error l n) as [[z|]|] eqn:E.
  - split; [lia|]. intros; lia.
  - split; [lia|]. intros i I. destruct (Nat.eq_dec i n) as [->|]; [auto|]. apply B. lia.
  - apply nth_error_None in E. lia.
Qed.

Lemma mn_ofst_le : forall axs os tkn, mn_ofst axs os tkn <= 0 /\
  forall a o, In (a, o) (combine axs os) -> ax_isTkn a = tkn -> mn_ofst axs os tkn <= o.
Proof.
  intros axs os tkn. unfold mn_ofst.
  assert (G : forall l acc, let m := fold_left (fun acc x => if Bool.eqb (ax_isTkn (fst x)) tkn then (if snd x <? acc then snd x else acc) else acc) l acc in
    m <= acc /\ forall a o, In (a, o) l -> ax_isTkn a = tkn -> m <= o).
  { induction l as [|[a z] l IH]; intros acc; cbn [fold_left]; cbv zeta.
    - split; [lia|]. intros a o [].
    - cbn [fst snd]. specialize (IH (if Bool.eqb (ax_isTkn a) tkn then if z <? acc then z else acc else acc)). cbv zeta in IH.
      destruct IH as [A B]. split.
      + destruct (Bool.eqb (ax_isTkn a) tkn); [|auto]. destruct (Z.ltb_spec z acc); lia.
      + intros a' o [X|X] T; [|eauto]. inversion X; subst a' o.
        rewrite T, Bool.eqb_reflx in *. destruct (Z.ltb_spec z acc); lia. }
  apply (G (combine axs os) 0).
Qed.

(** ** Valid rows *)

Definition valid_srow (nt ns : Z) (s : srow) : Prop :=
  NoDup (sr_tkn s) /\ NoDup (sr_nt s) /\
  (forall la ac, In (la, ac) (sr_tkn s) -> 0 <= la < nt /\ 0 <= ac) /\
  (forall la ac, In (la, ac) (sr_nt s) -> nt <= la < ns /\ 0 <= ac).

(** What a lookup in the tables gives for state number [i] with row [s]. *)
Record row_tables (t : tables) (nt ns : Z) (i : Z) (s : srow) : Prop := {
  rt_shift : i <= YY_SHIFT_COUNT t -> exists o, rdz (yy_shift_ofst t) i = Ok o /\
     0 <= o <= YY_ACTTAB_COUNT t /\ o + nt <= lenz (yy_lookahead t) /\
     forall la, 0 <= la < nt -> exists x, rdz (yy_lookahead t) (o + la) = Ok x /\
       match lookup_last (sr_tkn s) la with
       | Some ac => x = la /\ o + la < lenz (yy_action t) /\ rdz (yy_action t) (o + la) = Ok ac
       | None => x <> la
       end;
  rt_noshift : YY_SHIFT_COUNT t < i -> sr_tkn s = [];
  rt_reduce : forall la ac, lookup_last (sr_nt s) la = Some ac ->
     i <= YY_REDUCE_COUNT t /\ exists o, rdz (yy_reduce_ofst t) i = Ok o /\ 0 <= o + la < YY_ACTTAB_COUNT t /\
       rdz (yy_lookahead t) (o + la) = Ok la /\ rdz (yy_action t) (o + la) = Ok ac;
  rt_reduce_ofst : i <= YY_REDUCE_COUNT t -> exists o, rdz (yy_reduce_ofst t) i = Ok o
}.

(** A nonterminal absent from the row is recognised as absent. *)
Definition row_absent (t : tables) (nt ns : Z) (i : Z) (s : srow) : Prop :=
  forall la, nt <= la < ns -> lookup_last (sr_nt s) la = None -> i <= YY_REDUCE_COUNT t ->
    exists o, rdz (yy_reduce_ofst t) i = Ok o /\
      (o + la < 0 \/ YY_ACTTAB_COUNT t <= o + la \/ exists x, rdz (yy_lookahead t) (o + la) = Ok x /\ x <> la).

Lemma ReportTables_ok : forall strong k nrule ns nt sts t,
  0 < nt <= ns -> (forall s, In s sts -> valid_srow nt ns s) ->
  (strong = true -> forall s, In s sts -> sr_nt s <> [] -> low_span nt ns (sr_nt s)) ->
  ReportTables k nrule ns nt sts = Ok t ->
  YYNOCODE t = ns /\ YYNTOKEN t = nt /\ YY_MAX_SHIFT t = lenz sts - 1 /\
  YY_MIN_SHIFTREDUCE t = k_minShiftReduce k /\ YY_MAX_SHIFTREDUCE t = k_minShiftReduce k + nrule - 1 /\
  YY_ERROR_ACTION t = k_errAction k /\ YY_ACCEPT_ACTION t = k_accAction k /\ YY_NO_ACTION t = k_noAction k /\
  YY_MIN_REDUCE t = k_minReduce k /\
  lenz (yy_action t) = YY_ACTTAB_COUNT t /\ YY_ACTTAB_COUNT t + nt <= lenz (yy_lookahead t) /\
  YY_SHIFT_COUNT t < lenz sts /\ YY_REDUCE_COUNT t < lenz sts /\
  forall i s, nth_error sts i = Some s -> row_tables t nt ns (Z.of_nat i) s /\
    (strong = true -> row_absent t nt ns (Z.of_nat i) s) /\
    rdz (yy_default t) (Z.of_nat i) = Ok (if sr_dflt s <? 0 then k_errAction k else sr_dflt s + k_minReduce k).
Proof.
  intros strong k nrule ns nt sts t HN V STR H. unfold ReportTables in H. cbv zeta in H.
  set (axs := take_nonempty (qsort axset_le (make_ax 0 sts))) in *.
  assert (AX : forall a, In a axs <-> In a (make_ax 0 sts) /\ 0 < ax_nAction a).
  { intros a. unfold axs. rewrite take_nonempty_In by (apply qsort_sorted; [apply axset_le_total|apply axset_le_trans]).
    pose proof (qsort_perm axset_le (make_ax 0 sts)) as P. split; intros [A B]; (split; [|auto]).
    - apply (Permutation_in _ (Permutation_sym P) A).
    - apply (Permutation_in _ P A). }
  assert (AXS : forall a, In a axs -> exists s, nth_error sts (ax_stp a) = Some s /\
     ax_row a = (if ax_isTkn a then sr_tkn s else sr_nt s) /\ ax_row a <> []).
  { intros a I. apply AX in I. destruct I as [I P]. apply make_ax_spec in I. destruct I as (s & E & _ & R & N).
    rewrite Nat.sub_0_r in E. exists s. split; [auto|]. split; [auto|]. intros X. rewrite X in N. cbn in N. lia. }
  assert (AXH : forall i s (tkn : bool), nth_error sts i = Some s -> (if tkn then sr_tkn s else sr_nt s) <> [] ->
     exists a, In a axs /\ ax_stp a = i /\ ax_isTkn a = tkn).
  { intros i s tkn E NE. destruct (make_ax_has sts 0 i s tkn E) as (a & I & E1 & E2 & E3).
    exists a. split; [|auto]. apply AX. split; [auto|]. apply make_ax_spec in I. destruct I as (s' & _ & _ & _ & N).
    rewrite N, E3. destruct (if tkn then sr_tkn s else sr_nt s); [congruence|cbn [length]; lia]. }
  clearbody axs. clear AX.
  destruct (add_rows_ok strong false (map (fun a => (ax_row a, ax_isTkn a)) axs) (acttab_alloc ns nt) [])
    as (p & os & HR & LEN & _ & (all & IV & INC) & PT & PS).
  { now apply Inv_alloc. }
  { intros r I. apply in_map_iff in I. destruct I as (a & <- & I). destruct (AXS a I) as (s & E & R & NE).
    destruct (V s (nth_error_In _ _ E)) as (V1 & V2 & V3 & V4). cbn [acttab_alloc t_nterminal t_nsymbol].
    split; cbn [fst snd]; [auto|]. rewrite R. split; [destruct (ax_isTkn a); auto|].
    intros la ac J. destruct (ax_isTkn a); [apply (V3 _ _ J)|apply (V4 _ _ J)]. }
  { intros X r I T. apply in_map_iff in I. destruct I as (a & <- & I). cbn [fst snd] in *.
    destruct (AXS a I) as (s & E & R & NE). rewrite R, T in *. apply (STR X); [apply (nth_error_In _ _ E)|exact NE]. }
  { discriminate. }
  rewrite HR in H. cbn [bind] in H. rewrite map_length in LEN. cbn [acttab_alloc t_nterminal t_nsymbol] in PT, PS.
  apply bind_Ok in H. destruct H as (n & HS & H).
  apply bind_Ok in H. destruct H as (acts & HA & H).
  apply bind_Ok in H. destruct H as (lks & HK & H).
  unfold acttab_action_size in HS. apply action_size_ok in HS. destruct HS as (S1 & S2 & S3 & S4).
  apply rd_upto_ok in HA. destruct HA as (-> & HA2). apply rd_upto_ok in HK. destruct HK as (-> & HK2).
  pose proof (iv_n _ _ _ _ IV) as N0. rewrite Z2Nat.id in * by lia.
  inversion H. clear H.
  assert (INall : forall a o, In (a, o) (combine axs os) -> In ((ax_row a, ax_isTkn a), o) all).
  { intros a o I. rewrite INC, app_nil_r, <- in_rev. clear - I. revert os I. induction axs as [|x axs IH]; intros [|z os] I; cbn in *; try tauto.
    destruct I as [I|I]; [left; inversion I; auto|right; auto]. }
  assert (INrev : forall r o, In (r, o) all -> exists a, In (a, o) (combine axs os) /\ r = (ax_row a, ax_isTkn a)).
  { intros r o I. rewrite INC, app_nil_r, <- in_rev in I. clear - I. revert os I. induction axs as [|x axs IH]; intros [|z os] I; cbn in *; try tauto.
    destruct I as [I|I]; [inversion I; subst; exists x; auto|]. destruct (IH _ I) as (a & A & B). exists a; auto. }
  rewrite !map_map in *.
  set (lk := map (fun x => if fst (cell (aAction p) (Z.of_nat x)) <? 0 then ns else fst (cell (aAction p) (Z.of_nat x))) (seq 0 (Z.to_nat (nAction p)))).
  set (ac := map (fun x => if snd (cell (aAction p) (Z.of_nat x)) <? 0 then k_noAction k else snd (cell (aAction p) (Z.of_nat x))) (seq 0 (Z.to_nat n))).
  set (tofs := map (ofst_of axs os true) (seq 0 (length sts))) in *.
  set (nofs := map (ofst_of axs os false) (seq 0 (length sts))) in *.
  assert (LK1 : forall i, 0 <= i < nAction p -> rdz lk i = Ok (if fst (cell (aAction p) i) <? 0 then ns else fst (cell (aAction p) i))).
  { intros i I. unfold lk. now rewrite (rdz_map_seq _ (fun z => if fst (cell (aAction p) z) <? 0 then ns else fst (cell (aAction p) z))). }
  assert (LKL : lenz lk = nAction p) by (apply lenz_map_seq; lia).
  assert (AC1 : forall i, 0 <= i < n -> rdz ac i = Ok (if snd (cell (aAction p) i) <? 0 then k_noAction k else snd (cell (aAction p) i))).
  { intros i I. unfold ac. now rewrite (rdz_map_seq _ (fun z => if snd (cell (aAction p) z) <? 0 then k_noAction k else snd (cell (aAction p) z))). }
  assert (ACL : lenz ac = n) by (apply lenz_map_seq; lia).
  set (LK := lk ++ repeat nt (Z.to_nat (nt + n - nAction p))).
  assert (LKL2 : lenz LK = Z.max (nAction p) (nt + n)).
  { unfold LK, lenz in *. rewrite app_length, repeat_length. lia. }
  assert (LK2 : forall i, 0 <= i < nAction p -> rdz LK i = Ok (if fst (cell (aAction p) i) <? 0 then ns else fst (cell (aAction p) i))).
  { intros i I. unfold LK. rewrite rdz_app1 by lia. auto. }
  assert (LK3 : forall i, nAction p <= i < nt + n -> rdz LK i = Ok nt).
  { intros i I. unfold LK. rewrite rdz_app2 by lia. rewrite LKL. apply rdz_repeat. lia. }
  clearbody LK lk ac. cbn [YYNOCODE YYNTOKEN YY_MAX_SHIFT YY_MIN_SHIFTREDUCE YY_MAX_SHIFTREDUCE YY_ERROR_ACTION
    YY_ACCEPT_ACTION YY_NO_ACTION YY_MIN_REDUCE yy_action YY_ACTTAB_COUNT yy_lookahead YY_SHIFT_COUNT YY_REDUCE_COUNT
    yy_shift_ofst yy_reduce_ofst yy_default].
  destruct (trim_none_spec tofs (length sts)) as (TS1 & TS2); [unfold tofs; rewrite map_length, seq_length; lia|].
  destruct (trim_none_spec nofs (length sts)) as (TN1 & TN2); [unfold nofs; rewrite map_length, seq_length; lia|].
  set (ntr := trim_none tofs (length sts)) in *. set (nnr := trim_none nofs (length sts)) in *. clearbody ntr nnr.
  assert (TOFS : forall i, (i < length sts)%nat -> nth_error tofs i = Some (ofst_of axs os true i)).
  { intros i I. unfold tofs. rewrite nth_error_map, (nth_error_nth' _ O) by (rewrite seq_length; lia). now rewrite seq_nth by lia. }
  assert (NOFS : forall i, (i < length sts)%nat -> nth_error nofs i = Some (ofst_of axs os false i)).
  { intros i I. unfold nofs. rewrite nth_error_map, (nth_error_nth' _ O) by (rewrite seq_length; lia). now rewrite seq_nth by lia. }
  assert (LT : length tofs = length sts) by (unfold tofs; rewrite map_length, seq_length; auto).
  assert (LN : length nofs = length sts) by (unfold nofs; rewrite map_length, seq_length; auto).
  clearbody tofs nofs.
  do 9 (split; [reflexivity|]).
  split; [lia|]. split; [lia|]. split; [unfold lenz; lia|]. split; [unfold lenz; lia|].
  intros i s E. pose proof (nth_error_Some_lt _ _ _ _ E) as IL.
  destruct (V s (nth_error_In _ _ E)) as (V1 & V2 & V3 & V4).
  assert (RDT : (i < ntr)%nat -> rdz (map (fun o => match o with Some z => z | None => n end) (firstn ntr tofs)) (Z.of_nat i)
     = Ok (match ofst_of axs os true i with Some z => z | None => n end)).
  { intros I. rewrite rdz_nat, nth_error_map, nth_error_firstn_lt by auto. rewrite TOFS by auto. reflexivity. }
  assert (RDN : (i < nnr)%nat -> rdz (map (fun o => match o with Some z => z | None => mn_ofst axs os false - 1 end) (firstn nnr nofs)) (Z.of_nat i)
     = Ok (match ofst_of axs os false i with Some z => z | None => mn_ofst axs os false - 1 end)).
  { intros I. rewrite rdz_nat, nth_error_map, nth_error_firstn_lt by auto. rewrite NOFS by auto. reflexivity. }
  (* the row found at an offset *)
  assert (ROW : forall tkn o, ofst_of axs os tkn i = Some o -> In ((if tkn then sr_tkn s else sr_nt s, tkn), o) all).
  { intros tkn o HO. apply ofst_of_some in HO. destruct HO as (a & I & E1 & E2).
    pose proof (INall _ _ I) as J. apply in_combine_l in I. destruct (AXS a I) as (s' & E3 & R & _).
    rewrite E1 in E3. assert (s' = s) by congruence. subst s'. rewrite E2 in R, J. rewrite R in J. auto. }
  assert (CELLN : forall k0, 0 <= fst (cell (aAction p) k0) -> 0 <= k0 < n).
  { intros k0 K0. pose proof (cell_in _ _ K0). split; [lia|].
    destruct (Z_lt_le_dec k0 n); [auto|]. exfalso.
    destruct (Z_lt_le_dec k0 (nAction p)); [specialize (S2 k0 ltac:(lia)); lia|].
    pose proof (iv_tail _ _ _ _ IV k0 l0). lia. }
  split; [split; cbn [YY_ACTTAB_COUNT yy_lookahead YY_SHIFT_COUNT YY_REDUCE_COUNT yy_shift_ofst yy_reduce_ofst yy_action]|split].
  - intros IS. rewrite RDT by lia. eexists. split; [reflexivity|].
    destruct (ofst_of axs os true i) as [o|] eqn:EO.
    + pose proof (ROW true o EO) as IR. cbn [fst snd] in IR.
      pose proof (iv_safe _ _ _ _ IV _ _ IR eq_refl) as SF. rewrite PT in SF.
      pose proof (iv_valid _ _ _ _ IV _ _ IR) as VV. rewrite PT, PS in VV. cbn [fst snd] in *.
      assert (ON : o <= n).
      { destruct VV as (W1 & _ & W3). destruct (sr_tkn s) as [|[l1 a1] rr] eqn:ER; [now elim W1|].
        destruct (lookup_last_ex _ l1 a1 (in_eq _ rr)) as (x & X).
        pose proof (iv_in _ _ _ _ IV _ _ _ _ IR X) as C.
        specialize (W3 l1 a1 (in_eq _ _)). cbn [snd] in W3.
        assert (B : 0 <= o + l1 < n) by (apply CELLN; rewrite C; cbn; lia). lia. }
      split; [lia|]. split; [lia|].
      intros la LA. assert (IX : 0 <= o + la < nAction p) by lia.
      rewrite LK2 by auto. eexists. split; [reflexivity|].
      destruct (lookup_last (sr_tkn s) la) as [a0|] eqn:EL.
      * pose proof (iv_in _ _ _ _ IV _ _ _ _ IR EL) as C. rewrite C. cbn [fst].
        destruct (Z.ltb_spec la 0); [lia|]. split; [auto|].
        assert (B : 0 <= o + la < n) by (apply CELLN; rewrite C; cbn; lia).
        split; [lia|]. rewrite AC1 by auto. rewrite C. cbn [snd].
        destruct (V3 _ _ (lookup_last_In _ _ _ EL)). destruct (Z.ltb_spec a0 0); [lia|auto].
      * destruct (Z.ltb_spec (fst (cell (aAction p) (o + la))) 0) as [C|C]; [lia|].
        intros X. destruct (iv_cover _ _ _ _ IV _ C) as (r2 & o2 & a2 & I2 & E2 & L2). rewrite X in E2, L2.
        assert (o2 = o) by lia. subst o2.
        pose proof (iv_valid _ _ _ _ IV _ _ I2) as (_ & _ & W3). rewrite PT, PS in W3.
        specialize (W3 _ _ (lookup_last_In _ _ _ L2)). destruct (snd r2) eqn:ES; [|lia].
        pose proof (iv_uniq _ _ _ _ IV _ _ _ _ IR I2 ltac:(lia) ltac:(right; auto) la) as U. cbn [fst] in U. congruence.
    + split; [lia|]. split; [lia|]. intros la LA.
      assert (NE : sr_tkn s = []).
      { destruct (sr_tkn s) eqn:ER; [auto|]. exfalso.
        destruct (AXH i s true E) as (a & Ia & E1 & E2); [rewrite ER; discriminate|].
        apply (ofst_of_none _ _ _ _ EO LEN a); auto. }
      rewrite NE. cbn [lookup_last].
      destruct (Z_lt_le_dec (n + la) (nAction p)) as [B|B].
      * rewrite LK2 by lia. eexists. split; [reflexivity|].
        specialize (S2 (n + la) ltac:(lia)). destruct (Z.ltb_spec (fst (cell (aAction p) (n + la))) 0); lia.
      * rewrite LK3 by lia. eexists. split; [reflexivity|]. lia.
  - intros IS. specialize (TS2 i ltac:(lia)). rewrite TOFS in TS2 by auto. inversion TS2 as [EO].
    destruct (sr_tkn s) eqn:ER; [auto|]. exfalso.
    destruct (AXH i s true E) as (a & Ia & E1 & E2); [rewrite ER; discriminate|].
    apply (ofst_of_none _ _ _ _ EO LEN a); auto.
  - intros la a0 EL.
    assert (NE : sr_nt s <> []) by (intros X; rewrite X in EL; discriminate).
    assert (EO : exists o, ofst_of axs os false i = Some o).
    { destruct (ofst_of axs os false i) eqn:EO; [eauto|]. exfalso.
      destruct (AXH i s false E NE) as (a & Ia & E1 & E2). apply (ofst_of_none _ _ _ _ EO LEN a); auto. }
    destruct EO as (o & EO).
    assert (IN : (i < nnr)%nat).
    { destruct (lt_dec i nnr); [auto|]. specialize (TN2 i ltac:(lia)). rewrite NOFS in TN2 by auto. congruence. }
    split; [lia|]. rewrite RDN by auto. rewrite EO. exists o. split; [auto|].
    pose proof (ROW false o EO) as IR. cbn [fst snd] in IR.
    pose proof (iv_in _ _ _ _ IV _ _ _ _ IR EL) as C.
    destruct (V4 _ _ (lookup_last_In _ _ _ EL)) as (L1 & L2).
    assert (B : 0 <= o + la < n) by (apply CELLN; rewrite C; cbn; lia).
    split; [auto|]. rewrite LK2 by lia. rewrite AC1 by lia. rewrite C. cbn [fst snd].
    destruct (Z.ltb_spec la 0); [lia|]. destruct (Z.ltb_spec a0 0); [lia|]. auto.
  - intros IS. rewrite RDN by lia. eauto.
  - intros EST la LA EL IS. cbn [YY_ACTTAB_COUNT yy_lookahead YY_SHIFT_COUNT YY_REDUCE_COUNT yy_shift_ofst yy_reduce_ofst yy_action] in *.
    rewrite RDN by lia. eexists. split; [reflexivity|].
    set (o := match ofst_of axs os false i with Some z => z | None => mn_ofst axs os false - 1 end).
    destruct (Z_lt_le_dec (o + la) 0) as [B1|B1]; [auto|].
    destruct (Z_lt_le_dec (o + la) n) as [B2|B2]; [|auto]. right. right.
    rewrite LK2 by lia. eexists. split; [reflexivity|].
    destruct (Z.ltb_spec (fst (cell (aAction p) (o + la))) 0) as [C|C]; [lia|].
    intros X. destruct (iv_cover _ _ _ _ IV _ C) as (r2 & o2 & a2 & I2 & E2 & L2). rewrite X in E2, L2.
    assert (E2' : o2 = o) by lia. clear E2.
    destruct (ofst_of axs os false i) as [oo|] eqn:EO.
    + pose proof (ROW false oo EO) as IR. cbn [fst snd] in IR. unfold o in E2'.
      pose proof (iv_uniq _ _ _ _ IV _ _ _ _ IR I2 ltac:(lia) ltac:(left; auto) la) as U. cbn [fst] in U. congruence.
    + (* below every offset in use *)
      destruct (mn_ofst_le axs os false) as (M1 & M2). unfold o in E2'.
      destruct (snd r2) eqn:ES.
      * pose proof (iv_safe _ _ _ _ IV _ _ I2 ES). lia.
      * destruct (INrev _ _ I2) as (a & A & B). subst r2. cbn [snd] in ES. specialize (M2 _ _ A ES). lia.
  - rewrite rdz_nat, nth_error_map, E. reflexivity.
Qed.

(** The tables are built without running off the action array when every token
    row holds a terminal low enough. *)
Lemma ReportTables_total : forall k nrule ns nt sts,
  0 < nt <= ns -> (forall s, In s sts -> valid_srow nt ns s) ->
  (forall s, In s sts -> sr_tkn s <> [] -> exists la, In la (map fst (sr_tkn s)) /\ la + nt <= ns) ->
  exists t, ReportTables k nrule ns nt sts = Ok t.
Proof.
  intros k nrule ns nt sts HN V LOW. unfold ReportTables. cbv zeta.
  set (axs := take_nonempty (qsort axset_le (make_ax 0 sts))) in *.
  assert (AXS : forall a, In a axs -> exists s, In s sts /\
     ax_row a = (if ax_isTkn a then sr_tkn s else sr_nt s) /\ ax_row a <> []).
  { intros a I. unfold axs in I.
    apply take_nonempty_In in I; [|apply qsort_sorted; [apply axset_le_total|apply axset_le_trans]].
    destruct I as [I P]. apply (Permutation_in _ (Permutation_sym (qsort_perm _ _))) in I.
    apply make_ax_spec in I. destruct I as (s & E & _ & R & N).
    exists s. split; [eapply nth_error_In; eauto|]. split; [auto|]. intros X. rewrite X in N. cbn in N. lia. }
  clearbody axs.
  destruct (add_rows_ok false true (map (fun a => (ax_row a, ax_isTkn a)) axs) (acttab_alloc ns nt) [])
    as (p & os & HR & LEN & _ & (all & IV & INC) & PT & PS).
  { now apply Inv_alloc. }
  { intros r I. apply in_map_iff in I. destruct I as (a & <- & I). destruct (AXS a I) as (s & E & R & NE).
    destruct (V s E) as (V1 & V2 & V3 & V4). cbn [acttab_alloc t_nterminal t_nsymbol].
    split; cbn [fst snd]; [auto|]. rewrite R. split; [destruct (ax_isTkn a); auto|].
    intros la ac J. destruct (ax_isTkn a); [apply (V3 _ _ J)|apply (V4 _ _ J)]. }
  { discriminate. }
  { intros _ r I. apply in_map_iff in I. destruct I as (a & <- & I). destruct (AXS a I) as (s & E & R & NE).
    intros T. cbn [fst snd] in *. rewrite R, T in *. cbn [acttab_alloc t_nterminal t_nsymbol]. auto. }
  rewrite HR. cbn [bind]. pose proof (iv_tight _ _ _ _ IV eq_refl) as TI. pose proof (iv_n _ _ _ _ IV) as N0.
  unfold acttab_action_size.
  destruct (action_size_total (aAction p) (Z.to_nat (nAction p))) as (n & EN); [lia|]. rewrite EN. cbn [bind].
  apply action_size_ok in EN. destruct EN as (E1 & _ & _ & E2).
  destruct (rd_upto_total (aAction p) (Z.to_nat n)) as (l1 & ->); [lia|]. cbn [bind].
  destruct (rd_upto_total (aAction p) (Z.to_nat (nAction p))) as (l2 & ->); [lia|]. cbn [bind]. eauto.
Qed.
