(** Proofs about the action table builder. *)
From Coq Require Import List ZArith Bool Lia.
Import ListNotations.
From Verif Require Import Base LemonActtabModel.
Local Open Scope res_scope.
Local Open Scope Z_scope.

(** The contents of a slot, empty outside the allocation. *)
Definition cell (a : list (Z * Z)) (k : Z) : Z * Z :=
  if k <? 0 then (-1, -1) else nth (Z.to_nat k) a (-1, -1).

Lemma rd_ok : forall a k, 0 <= k < nActionAlloc a -> rd a k = Ok (cell a k).
Proof.
  unfold rd, cell, nActionAlloc. intros a k H.
  destruct (Z.ltb_spec k 0); [lia|].
  destruct (nth_error_lt_ex _ a (Z.to_nat k)) as [x E]; [lia|].
  rewrite E. cbn [opt]. now rewrite (nth_error_Some_nth _ _ _ _ (-1, -1) E).
Qed.

Lemma cell_out : forall a k, nActionAlloc a <= k -> cell a k = (-1, -1).
Proof.
  unfold cell, nActionAlloc. intros a k H. destruct (Z.ltb_spec k 0); [auto|].
  apply nth_overflow. lia.
Qed.

Lemma cell_neg : forall a k, k < 0 -> cell a k = (-1, -1).
Proof. unfold cell. intros a k H. destruct (Z.ltb_spec k 0); [auto|lia]. Qed.

Lemma cell_in : forall a k, 0 <= fst (cell a k) -> 0 <= k < nActionAlloc a.
Proof.
  intros a k H. destruct (Z_lt_le_dec k 0).
  - rewrite cell_neg in H by lia. cbn in H. lia.
  - destruct (Z_lt_le_dec k (nActionAlloc a)); [lia|]. rewrite cell_out in H by lia. cbn in H. lia.
Qed.

Lemma wr_ok : forall a k x, 0 <= k < nActionAlloc a ->
  exists a1, wr a k x = Ok a1 /\ nActionAlloc a1 = nActionAlloc a /\
    forall j, cell a1 j = if j =? k then x else cell a j.
Proof.
  unfold wr. intros a k x H. destruct (Z.ltb_spec k 0); [lia|]. destruct (Z.leb_spec (nActionAlloc a) k); [lia|].
  cbn [orb]. eexists. split; [reflexivity|]. unfold nActionAlloc in *. split; [now rewrite upd_length|].
  intros j. unfold cell. destruct (Z.eqb_spec j k) as [->|N].
  - destruct (Z.ltb_spec k 0); [lia|]. apply nth_upd_eq. lia.
  - destruct (Z.ltb_spec j 0); [auto|]. apply nth_upd_ne. lia.
Qed.

Lemma grow_ok : forall a n ns, 0 <= n -> 0 <= ns ->
  n + ns + 2 <= nActionAlloc (grow a n ns) /\ nActionAlloc a <= nActionAlloc (grow a n ns) /\
  forall k, cell (grow a n ns) k = cell a k.
Proof.
  intros a n ns H1 H2. unfold grow. cbv zeta. destruct (Z.leb_spec (nActionAlloc a) (n + (ns + 1))); [|split; [|split]; auto; lia].
  unfold nActionAlloc in *. rewrite app_length, repeat_length. split; [|split]; try lia.
  intros k. unfold cell. destruct (Z.ltb_spec k 0); [auto|].
  destruct (le_lt_dec (length a) (Z.to_nat k)) as [L|L].
  - rewrite app_nth2 by lia. rewrite nth_repeat_same. symmetry. now apply nth_overflow.
  - now apply app_nth1.
Qed.

(** The action last given to a lookahead in a transaction. *)
Fixpoint lookup_last (L : list (Z * Z)) (la : Z) : option Z :=
  match L with
  | [] => None
  | (l, a) :: r => match lookup_last r la with Some x => Some x | None => if l =? la then Some a else None end
  end.

Lemma lookup_last_In : forall L la ac, lookup_last L la = Some ac -> In (la, ac) L.
Proof.
  induction L as [|[l a] r IH]; cbn; intros la ac H; [discriminate|].
  destruct (lookup_last r la) eqn:E.
  - inversion H; subst. right. auto.
  - destruct (Z.eqb_spec l la); [|discriminate]. inversion H; subst. auto.
Qed.

Lemma lookup_last_ex : forall L la ac, In (la, ac) L -> exists x, lookup_last L la = Some x.
Proof.
  induction L as [|[l a] r IH]; cbn; intros la ac H; [tauto|].
  destruct H as [H|H].
  - inversion H; subst. destruct (lookup_last r la); eauto. rewrite Z.eqb_refl. eauto.
  - destruct (IH _ _ H) as [x ->]. eauto.
Qed.

(** ** The helper loops *)

Definition matches (a : list (Z * Z)) (nact o : Z) (L : list (Z * Z)) : Prop :=
  forall la ac, In (la, ac) L -> 0 <= o + la < nact /\ cell a (o + la) = (la, ac).

Lemma match_all_ok : forall a nact mn i L, nact <= nActionAlloc a ->
  exists b, match_all a nact mn i L = Ok b /\ (b = true <-> matches a nact (i - mn) L).
Proof.
  intros a nact mn i L H. induction L as [|[la ac] r IH]; cbn [match_all].
  - exists true. split; [reflexivity|]. split; auto. intros _ la ac [].
  - cbv zeta. destruct ((la - mn + i <? 0) || (nact <=? la - mn + i)) eqn:E.
    + exists false. split; [reflexivity|]. split; [discriminate|]. intros M.
      destruct (M la ac (or_introl eq_refl)) as [M1 _]. apply orb_true_iff in E.
      destruct E as [E|E]; [apply Z.ltb_lt in E|apply Z.leb_le in E]; lia.
    + apply orb_false_iff in E. destruct E as [E1 E2]. apply Z.ltb_ge in E1. apply Z.leb_gt in E2.
      rewrite rd_ok by lia. cbn [bind].
      replace (la - mn + i) with (i - mn + la) in * by lia.
      destruct (cell a (i - mn + la)) as [cl ca] eqn:EC. cbn [fst snd].
      destruct (Z.eqb_spec la cl) as [->|N]; cbn [negb].
      2:{ exists false. split; [reflexivity|]. split; [discriminate|]. intros M.
          destruct (M la ac (or_introl eq_refl)) as [_ M2]. rewrite EC in M2. congruence. }
      destruct (Z.eqb_spec ac ca) as [->|N]; cbn [negb].
      2:{ exists false. split; [reflexivity|]. split; [discriminate|]. intros M.
          destruct (M cl ac (or_introl eq_refl)) as [_ M2]. rewrite EC in M2. congruence. }
      destruct IH as (b & Hb & IFF). exists b. split; [auto|]. rewrite IFF. split.
      * intros M l2 a2 [I|I]; [|auto]. inversion I; subst. split; [lia|auto].
      * intros M l2 a2 I. apply M. now right.
Qed.

Definition answers (a : list (Z * Z)) (o j : Z) : bool := (0 <=? fst (cell a j)) && (fst (cell a j) =? j - o).

Lemma count_at_ok : forall a mn i n, Z.of_nat n <= nActionAlloc a ->
  count_at a mn i n = Ok (Z.of_nat (length (filter (answers a (i - mn)) (map Z.of_nat (seq 0 n))))).
Proof.
  intros a mn i n. induction n as [|n IH]; intros H; [reflexivity|].
  cbn [count_at]. rewrite IH by lia. cbn [bind]. rewrite rd_ok by lia. cbn [bind].
  rewrite seq_S, map_app, filter_app, app_length. cbn [plus map filter].
  set (c := length (filter (answers a (i - mn)) (map Z.of_nat (seq 0 n)))). clearbody c.
  unfold answers. replace (Z.of_nat n + mn - i) with (Z.of_nat n - (i - mn)) by lia.
  destruct (Z.ltb_spec (fst (cell a (Z.of_nat n))) 0) as [A|A];
  destruct (Z.leb_spec 0 (fst (cell a (Z.of_nat n)))) as [B|B]; try lia; cbn [andb].
  - cbn [length]. f_equal. lia.
  - destruct (Z.eqb_spec (fst (cell a (Z.of_nat n))) (Z.of_nat n - (i - mn))); cbn [length]; f_equal; lia.
Qed.

Lemma dup_scan_ok : forall a nact L mn mna fin n,
  0 <= fin -> 0 <= nact -> fin + Z.of_nat n <= Z.max fin nact -> nact <= nActionAlloc a ->
  exists o, dup_scan a nact L mn mna fin n = Ok o /\
    forall i, o = Some i -> fin <= i < fin + Z.of_nat n /\ matches a nact (i - mn) L /\
      length (filter (answers a (i - mn)) (map Z.of_nat (seq 0 (Z.to_nat nact)))) = length L.
Proof.
  intros a nact L mn mna fin n H0 HN. induction n as [|n IH]; intros H1 H2; cbn [dup_scan].
  - exists None. split; [reflexivity|]. discriminate.
  - destruct IH as (o & Ho & HI); [lia|lia|].
    assert (REC : exists o, dup_scan a nact L mn mna fin n = Ok o /\
      forall i, o = Some i -> fin <= i < fin + Z.of_nat (S n) /\ matches a nact (i - mn) L /\
        length (filter (answers a (i - mn)) (map Z.of_nat (seq 0 (Z.to_nat nact)))) = length L).
    { exists o. split; [auto|]. intros i E. destruct (HI i E) as (X & Y). split; [lia|auto]. }
    cbv zeta. rewrite rd_ok by lia. cbn [bind].
    destruct ((fst (cell a (fin + Z.of_nat n)) =? mn) && (snd (cell a (fin + Z.of_nat n)) =? mna)); [|exact REC].
    destruct (match_all_ok a nact mn (fin + Z.of_nat n) L H2) as (b & -> & IFF). cbn [bind].
    destruct b; [|exact REC].
    rewrite count_at_ok by lia. cbn [bind].
    destruct (Z.eqb_spec (Z.of_nat (length (filter (answers a (fin + Z.of_nat n - mn)) (map Z.of_nat (seq 0 (Z.to_nat nact)))))) (nLookahead L)) as [E|E]; [|exact REC].
    exists (Some (fin + Z.of_nat n)). split; [reflexivity|]. intros i X. inversion X; subst i. clear X.
    split; [lia|]. split; [now apply IFF|]. unfold nLookahead in E. lia.
Qed.

Lemma all_free_ok : forall a mn i L,
  (forall la ac, In (la, ac) L -> 0 <= i - mn + la < nActionAlloc a) ->
  exists b, all_free a mn i L = Ok b /\ (b = true <-> forall la ac, In (la, ac) L -> fst (cell a (i - mn + la)) < 0).
Proof.
  intros a mn i L. induction L as [|[la ac] r IH]; intros H; cbn [all_free].
  - exists true. split; [reflexivity|]. split; auto. intros _ la ac [].
  - cbv zeta. pose proof (H la ac (or_introl eq_refl)) as HK.
    replace (la - mn + i) with (i - mn + la) by lia.
    destruct (Z.ltb_spec (i - mn + la) 0); [lia|]. rewrite rd_ok by lia. cbn [bind].
    destruct (Z.leb_spec 0 (fst (cell a (i - mn + la)))) as [E|E].
    + exists false. split; [reflexivity|]. split; [discriminate|]. intros M.
      specialize (M la ac (or_introl eq_refl)). lia.
    + destruct IH as (b & Hb & IFF). { intros l2 a2 I. apply (H l2 a2). now right. }
      exists b. split; [auto|]. rewrite IFF. split.
      * intros M l2 a2 [I|I]; [|eauto]. inversion I; subst. lia.
      * intros M l2 a2 I. apply (M l2 a2). now right.
Qed.

Lemma none_answers_ok : forall a mn i n j, 0 <= j -> j + Z.of_nat n <= nActionAlloc a ->
  exists b, none_answers a mn i j n = Ok b /\
    (b = true <-> forall k, j <= k < j + Z.of_nat n -> fst (cell a k) <> k - (i - mn)).
Proof.
  intros a mn i n. induction n as [|n IH]; intros j H1 H2; cbn [none_answers].
  - exists true. split; [reflexivity|]. split; auto. intros _ k K. lia.
  - rewrite rd_ok by lia. cbn [bind].
    destruct (Z.eqb_spec (fst (cell a j)) (j + mn - i)) as [E|E].
    + exists false. split; [reflexivity|]. split; [discriminate|]. intros M. exfalso. apply (M j); lia.
    + destruct (IH (j + 1)) as (b & Hb & IFF); [lia|lia|]. exists b. split; [auto|]. rewrite IFF. split.
      * intros M k K. destruct (Z.eq_dec k j) as [->|N]; [lia|]. apply M. lia.
      * intros M k K. apply M. lia.
Qed.

Definition fits (a : list (Z * Z)) (nact o mn : Z) (L : list (Z * Z)) : Prop :=
  fst (cell a (o + mn)) < 0 /\ (forall la ac, In (la, ac) L -> fst (cell a (o + la)) < 0) /\
  forall k, 0 <= k < nact -> fst (cell a k) <> k - o.

Lemma hole_scan_ok : forall a nact L mn mx n i,
  0 <= i -> 0 <= mn -> 0 <= nact <= nActionAlloc a -> i + Z.of_nat n <= Z.max i (nActionAlloc a - mx) ->
  (forall la ac, In (la, ac) L -> mn <= la <= mx) -> mn <= mx ->
  exists r, hole_scan a nact L mn i n = Ok r /\ i <= r <= i + Z.of_nat n /\
    (r < i + Z.of_nat n -> fits a nact (r - mn) mn L) /\
    (forall k, i <= k < r -> ~ fits a nact (k - mn) mn L).
Proof.
  intros a nact L mn mx n. induction n as [|n IH]; intros i H1 H2 H3 H4 H5 H6; cbn [hole_scan].
  - exists i. split; [reflexivity|]. split; [lia|]. split; intros; lia.
  - assert (HB : i < nActionAlloc a - mx) by lia.
    destruct (IH (i + 1)) as (r & Hr & R1 & R2 & R3); [lia|lia|lia|lia|auto|auto|].
    assert (REC : ~ fits a nact (i - mn) mn L ->
      exists r, hole_scan a nact L mn (i + 1) n = Ok r /\ i <= r <= i + Z.of_nat (S n) /\
        (r < i + Z.of_nat (S n) -> fits a nact (r - mn) mn L) /\
        (forall k, i <= k < r -> ~ fits a nact (k - mn) mn L)).
    { intros NF. exists r. split; [auto|]. split; [lia|]. split.
      - intros X. apply R2. lia.
      - intros k K. destruct (Z.eq_dec k i) as [->|N]; [auto|]. apply R3. lia. }
    rewrite rd_ok by lia. cbn [bind].
    destruct (Z.ltb_spec (fst (cell a i)) 0) as [E|E].
    2:{ apply REC. intros (F & _). replace (i - mn + mn) with i in F by lia. lia. }
    destruct (all_free_ok a mn i L) as (b & -> & IFF). { intros la ac I. specialize (H5 _ _ I). lia. }
    cbn [bind]. destruct b.
    2:{ apply REC. intros (_ & F & _). assert (false = true) by now apply IFF. discriminate. }
    destruct (none_answers_ok a mn i (Z.to_nat nact) 0) as (c & -> & IFF2); [lia|lia|].
    cbn [bind]. destruct c.
    2:{ apply REC. intros (_ & _ & F). assert (false = true); [|discriminate]. apply IFF2. intros k K. apply F. lia. }
    exists i. split; [reflexivity|]. split; [lia|]. split; [|intros; lia]. intros _.
    split; [replace (i - mn + mn) with i by lia; auto|]. split; [now apply IFF|].
    intros k K. apply (proj1 IFF2 eq_refl). lia.
Qed.

Lemma put_all_ok : forall mn i L a nact,
  (forall la ac, In (la, ac) L -> 0 <= i - mn + la < nActionAlloc a) ->
  exists a1 n1, put_all a nact mn i L = Ok (a1, n1) /\ nActionAlloc a1 = nActionAlloc a /\
    (forall la, cell a1 (i - mn + la) =
       match lookup_last L la with Some ac => (la, ac) | None => cell a (i - mn + la) end) /\
    nact <= n1 /\ (forall la ac, In (la, ac) L -> i - mn + la < n1) /\
    (n1 = nact \/ exists la ac, In (la, ac) L /\ n1 = i - mn + la + 1).
Proof.
  intros mn i. induction L as [|[la ac] r IH]; intros a nact H; cbn [put_all].
  - exists a, nact. split; [reflexivity|]. split; [auto|]. split; [auto|]. split; [lia|]. split; [|now left].
    intros la ac [].
  - cbv zeta. pose proof (H la ac (or_introl eq_refl)) as HK.
    replace (la - mn + i) with (i - mn + la) by lia.
    destruct (wr_ok a (i - mn + la) (la, ac) HK) as (a1 & -> & LA & C1). cbn [bind].
    destruct (IH a1 (if nact <=? i - mn + la then i - mn + la + 1 else nact)) as (a2 & n2 & -> & LA2 & C2 & N2 & N3 & N4).
    { intros l2 x2 I. rewrite LA. apply (H l2 x2). now right. }
    exists a2, n2. split; [reflexivity|]. split; [congruence|].
    assert (NN : nact <= (if nact <=? i - mn + la then i - mn + la + 1 else nact) /\
                 i - mn + la < (if nact <=? i - mn + la then i - mn + la + 1 else nact)).
    { destruct (Z.leb_spec nact (i - mn + la)); lia. }
    split; [|split; [lia|split]].
    + intros l2. rewrite C2. cbn [lookup_last]. destruct (lookup_last r l2) eqn:E; [auto|].
      rewrite C1. destruct (Z.eqb_spec la l2) as [->|N].
      * now rewrite Z.eqb_refl.
      * destruct (Z.eqb_spec (i - mn + l2) (i - mn + la)); [lia|auto].
    + intros l2 x2 [I|I]; [inversion I; subst; lia|eauto].
    + destruct N4 as [N4|(l2 & x2 & I & N4)].
      * destruct (Z.leb_spec nact (i - mn + la)); [|now left]. right. exists la, ac. split; [now left|auto].
      * right. exists l2, x2. split; [now right|auto].
Qed.

(** ** The transaction set *)

Lemma fold_action_ok : forall L p, L <> [] -> aLookahead p = [] ->
  let q := fold_left (fun p x => acttab_action p (fst x) (snd x)) L p in
  nAction q = nAction p /\ aAction q = aAction p /\ aLookahead q = L /\
  t_nterminal q = t_nterminal p /\ t_nsymbol q = t_nsymbol p /\
  (forall la ac, In (la, ac) L -> mnLookahead q <= la <= mxLookahead q) /\
  In (mnLookahead q, mnAction q) L /\ In (mxLookahead q) (map fst L).
Proof.
  intros L p. induction L as [|[la ac] r IH] using rev_ind; intros HL HE; [congruence|].
  cbv zeta. rewrite fold_left_app. cbn [fold_left fst snd].
  destruct r as [|x r].
  - cbn [fold_left]. unfold acttab_action. rewrite HE. cbn. split; [auto|]. split; [auto|]. split; [auto|].
    split; [auto|]. split; [auto|]. split; [|auto]. intros l2 a2 [I|[]]. inversion I; subst. lia.
  - specialize (IH ltac:(discriminate) HE). cbv zeta in IH.
    set (q := fold_left _ (x :: r) p) in *. clearbody q.
    destruct IH as (I1 & I2 & I3 & I4 & I5 & I6 & I7 & I8).
    unfold acttab_action. rewrite I3.
    assert (ML : mnLookahead q <= mxLookahead q) by (specialize (I6 _ _ I7); lia).
    destruct (Z.ltb_spec (mxLookahead q) la) as [A|A]; destruct (Z.ltb_spec la (mnLookahead q)) as [B|B];
      cbn [nAction aAction aLookahead t_nterminal t_nsymbol mnLookahead mnAction mxLookahead]; try lia;
      (split; [auto|]); (split; [auto|]); (split; [auto|]); (split; [auto|]); (split; [auto|]);
      (split; [intros l2 a2 I; apply in_app_or in I; destruct I as [I|[I|[]]];
               [specialize (I6 _ _ I); lia|inversion I; subst; lia]|]);
      rewrite map_app; (split; apply in_or_app; cbn; auto).
Qed.

(** ** The invariant *)

Definition arow : Type := (list (Z * Z) * bool)%type.

(** Rows as ReportTable makes them: a safe row has terminals only, another row
    nonterminals only; no pair occurs twice. *)
Definition valid_row (nt ns : Z) (r : arow) : Prop :=
  fst r <> [] /\ NoDup (fst r) /\
  forall la ac, In (la, ac) (fst r) -> if snd r then 0 <= la < nt else nt <= la < ns.

(** Smallest plus largest lookahead is at most the number of terminals plus that of symbols. *)
Definition low_span (nt ns : Z) (L : list (Z * Z)) : Prop :=
  exists x, In x (map fst L) /\ forall y, In y (map fst L) -> x + y <= nt + ns.

Definition low_safe (nt ns : Z) (r : arow) : Prop :=
  snd r = true -> exists la, In la (map fst (fst r)) /\ la + nt <= ns.

Record Inv (strong tight : bool) (p : acttab) (rows : list (arow * Z)) : Prop := {
  iv_n : 0 <= nAction p;
  iv_nt : 0 < t_nterminal p <= t_nsymbol p;
  iv_la : aLookahead p = [];
  iv_tail : forall k, nAction p <= k -> fst (cell (aAction p) k) < 0;
  iv_neg : forall k, -1 <= fst (cell (aAction p) k);
  iv_valid : forall r o, In (r, o) rows -> valid_row (t_nterminal p) (t_nsymbol p) r;
  iv_in : forall r o la ac, In (r, o) rows -> lookup_last (fst r) la = Some ac ->
     cell (aAction p) (o + la) = (la, ac);
  iv_safe : forall r o, In (r, o) rows -> snd r = true -> 0 <= o /\ o + t_nterminal p < nAction p;
  iv_cover : forall k, 0 <= fst (cell (aAction p) k) ->
     exists r o ac, In (r, o) rows /\ o = k - fst (cell (aAction p) k) /\
       lookup_last (fst r) (fst (cell (aAction p) k)) = Some ac;
  iv_uniq : forall r1 o1 r2 o2, In (r1, o1) rows -> In (r2, o2) rows -> o1 = o2 ->
     (strong = true \/ (snd r1 = true /\ snd r2 = true)) ->
     forall la, lookup_last (fst r1) la = lookup_last (fst r2) la;
  iv_tight : tight = true -> nAction p <= nActionAlloc (aAction p)
}.

Lemma iv_in_lt : forall s t p rows r o la ac, Inv s t p rows -> In (r, o) rows ->
  lookup_last (fst r) la = Some ac -> 0 <= la -> 0 <= o + la < nAction p.
Proof.
  intros s t p rows r o la ac IV HR HL H0.
  pose proof (iv_in _ _ _ _ IV _ _ _ _ HR HL) as C.
  assert (X : 0 <= fst (cell (aAction p) (o + la))) by (rewrite C; auto).
  pose proof (cell_in _ _ X). split; [lia|].
  destruct (Z_lt_le_dec (o + la) (nAction p)); [auto|].
  pose proof (iv_tail _ _ _ _ IV _ l). lia.
Qed.

Lemma valid_la : forall nt ns r la ac, 0 < nt -> valid_row nt ns r -> lookup_last (fst r) la = Some ac -> 0 <= la.
Proof.
  intros nt ns r la ac H0 (V1 & V2 & V3) H. apply lookup_last_In in H. specialize (V3 _ _ H).
  destruct (snd r); lia.
Qed.

Lemma NoDup_map_inj : forall A B (f : A -> B) l,
  (forall x y, In x l -> In y l -> f x = f y -> x = y) -> NoDup l -> NoDup (map f l).
Proof.
  intros A B f l. induction l as [|a l IH]; intros INJ ND; cbn; [constructor|].
  inversion ND; subst. constructor.
  - intros I. apply in_map_iff in I. destruct I as (y & E & I). apply H1.
    rewrite (INJ a y); auto; [now left|now right].
  - apply IH; auto. intros x y I1 I2. apply INJ; now right.
Qed.

(** When the exact-match test succeeds, the transaction is all there is at that
    offset. *)
Lemma exact_match : forall a nact o L,
  0 <= nact -> NoDup L -> matches a nact o L -> (forall la ac, In (la, ac) L -> 0 <= la) ->
  length (filter (answers a o) (map Z.of_nat (seq 0 (Z.to_nat nact)))) = length L ->
  (forall la ac, In (la, ac) L -> lookup_last L la = Some ac) /\
  (forall k, 0 <= k < nact -> 0 <= fst (cell a k) -> fst (cell a k) = k - o ->
     In (cell a k) L).
Proof.
  intros a nact o L H0 ND M POS LEN.
  assert (KEY : forall la a1 a2, In (la, a1) L -> In (la, a2) L -> a1 = a2).
  { intros la a1 a2 I1 I2. destruct (M _ _ I1) as [_ E1]. destruct (M _ _ I2) as [_ E2]. congruence. }
  split.
  - intros la ac I. destruct (lookup_last_ex _ _ _ I) as [x E]. rewrite E. f_equal.
    apply lookup_last_In in E. eauto.
  - intros k K C1 C2.
    set (F := filter (answers a o) (map Z.of_nat (seq 0 (Z.to_nat nact)))) in *.
    set (P := map (fun x => o + fst x) L).
    assert (NDP : NoDup P).
    { apply NoDup_map_inj; auto. intros [l1 a1] [l2 a2] I1 I2 E. cbn [fst] in E.
      assert (l1 = l2) by lia. subst l2. f_equal. eauto. }
    assert (INC : incl P F).
    { intros z I. apply in_map_iff in I. destruct I as ([la ac] & <- & I). cbn [fst].
      destruct (M _ _ I) as [M1 M2]. apply filter_In. split.
      - apply in_map_iff. exists (Z.to_nat (o + la)). split; [lia|]. apply in_seq. lia.
      - unfold answers. rewrite M2. cbn [fst]. specialize (POS _ _ I).
        destruct (Z.leb_spec 0 la); [|lia]. destruct (Z.eqb_spec la (o + la - o)); [auto|lia]. }
    assert (INC2 : incl F P).
    { apply NoDup_length_incl; auto. unfold P. rewrite map_length. lia. }
    assert (IK : In k F).
    { apply filter_In. split.
      - apply in_map_iff. exists (Z.to_nat k). split; [lia|]. apply in_seq. lia.
      - unfold answers. destruct (Z.leb_spec 0 (fst (cell a k))); [|lia].
        destruct (Z.eqb_spec (fst (cell a k)) (k - o)); [auto|lia]. }
    apply INC2 in IK. apply in_map_iff in IK. destruct IK as ([la ac] & E & I). cbn [fst] in E.
    subst k. destruct (M _ _ I) as [_ ->]. auto.
Qed.

Lemma add_row_ok : forall strong tight p rows row,
  Inv strong tight p rows -> valid_row (t_nterminal p) (t_nsymbol p) row ->
  (strong = true -> snd row = false -> low_span (t_nterminal p) (t_nsymbol p) (fst row)) ->
  (tight = true -> low_safe (t_nterminal p) (t_nsymbol p) row) ->
  exists p1 o, add_row p row = Ok (p1, o) /\ Inv strong tight p1 ((row, o) :: rows) /\
    t_nterminal p1 = t_nterminal p /\ t_nsymbol p1 = t_nsymbol p /\ nAction p <= nAction p1.
Proof.
  intros strong tight p rows [L safe] IV VR STR TI. unfold add_row. cbn [fst snd] in *.
  pose proof VR as (VL & VN & VB). cbn [fst snd] in *.
  pose proof (fold_action_ok L p VL (iv_la _ _ _ _ IV)) as FA. cbv zeta in FA.
  set (q := fold_left _ L p) in *. clearbody q.
  destruct FA as (Q1 & Q2 & Q3 & Q4 & Q5 & Q6 & Q7 & Q8).
  pose proof (iv_n _ _ _ _ IV) as N0. pose proof (iv_nt _ _ _ _ IV) as NT.
  destruct (in_map_iff fst L (mxLookahead q)) as [QQ _]. destruct (QQ Q8) as ([mxl mxa] & EM & IM).
  cbn [fst] in EM. subst mxl. clear QQ.
  unfold acttab_insert. rewrite Q3.
  assert (LNE : (nLookahead L <=? 0) = false).
  { unfold nLookahead. destruct L; [congruence|]. apply Z.leb_gt. cbn [length]. lia. }
  rewrite LNE. clear LNE. rewrite Q1, Q2, Q4, Q5. cbv zeta.
  set (mn := mnLookahead q) in *. set (mx := mxLookahead q) in *. set (mna := mnAction q) in *. clearbody mn mx mna.
  set (nt := t_nterminal p) in *. set (ns := t_nsymbol p) in *.
  set (n := nAction p) in *.
  destruct (grow_ok (aAction p) n ns N0 ltac:(lia)) as (G1 & G2 & G3).
  set (a := grow (aAction p) n ns) in *. clearbody a.
  set (fin := if safe then mn else 0).
  assert (MN : 0 <= mn <= mx /\ mx < ns /\ (safe = true -> mx < nt) /\ (safe = false -> nt <= mn)).
  { pose proof (VB _ _ Q7) as A1. pose proof (VB _ _ IM) as A2. pose proof (Q6 _ _ Q7). destruct safe; repeat split; try lia; discriminate. }
  destruct MN as (MN1 & MN2 & MN3 & MN4).
  assert (FIN : 0 <= fin <= mn) by (unfold fin; destruct safe; lia).
  destruct (dup_scan_ok a n L mn mna fin (Z.to_nat (n - fin))) as (od & -> & HD).
  { lia. } { lia. } { lia. } { lia. }
  cbn [bind].
  set (I0 := match od with Some i => Ok i | None => hole_scan a n L mn fin (Z.to_nat (nActionAlloc a - mx - fin)) end).
  assert (TAIL : forall k, n <= k -> fst (cell a k) < 0).
  { intros k K. rewrite G3. now apply (iv_tail _ _ _ _ IV). }
  assert (BIG : forall r o, In (r, o) rows -> o < n - nt).
  { intros r o I. destruct (snd r) eqn:ES.
    - pose proof (iv_safe _ _ _ _ IV _ _ I ES). fold nt n in H. lia.
    - pose proof (iv_valid _ _ _ _ IV _ _ I) as (W1 & W2 & W3). fold nt ns in W3. rewrite ES in W3.
      destruct r as [Lr sr]. cbn [fst snd] in *. destruct Lr as [|[l1 a1] Lr]; [congruence|].
      destruct (lookup_last_ex _ l1 a1 (in_eq _ Lr)) as [x X].
      pose proof (W3 l1 a1 (in_eq _ _)).
      pose proof (iv_in_lt _ _ _ _ _ _ _ _ IV I X ltac:(lia)). fold n in H0. lia. }
  (* where the transaction goes *)
  assert (PLACE : exists i, I0 = Ok i /\ fin <= i /\
     (forall la ac, In (la, ac) L -> 0 <= i - mn + la < nActionAlloc a) /\
     (forall la ac, In (la, ac) L -> fst (cell a (i - mn + la)) < 0 \/
        (matches a n (i - mn) L)) /\
     (matches a n (i - mn) L /\ (forall la ac, In (la, ac) L -> lookup_last L la = Some ac) /\
        i < n /\
        (forall k, 0 <= k < n -> 0 <= fst (cell a k) -> fst (cell a k) = k - (i - mn) -> In (cell a k) L)
      \/ (forall la ac, In (la, ac) L -> fst (cell a (i - mn + la)) < 0) /\
         ((forall r o, In (r, o) rows -> o <> i - mn) \/ (safe = false /\ strong = false)) /\
         (tight = true -> safe = true -> i + nt + 1 <= nActionAlloc a))).
  { destruct od as [i|]; unfold I0.
    - destruct (HD i eq_refl) as (D1 & D2 & D3). exists i. split; [reflexivity|]. split; [lia|].
      split. { intros la ac I. destruct (D2 _ _ I). lia. }
      split. { intros la ac I. now right. }
      left. destruct (exact_match a n (i - mn) L) as (X1 & X2); auto.
      { intros la ac I. specialize (Q6 _ _ I). lia. }
      split; [auto|]. split; [auto|]. split; [lia|auto].
    - destruct (hole_scan_ok a n L mn mx (Z.to_nat (nActionAlloc a - mx - fin)) fin) as (i & Hi & R1 & R2 & R3).
      { lia. } { lia. } { lia. } { lia. } { intros la ac I. apply (Q6 _ _ I). } { lia. }
      exists i. split; [auto|]. split; [lia|].
      set (stop := fin + Z.of_nat (Z.to_nat (nActionAlloc a - mx - fin))) in *.
      assert (FIT : forall k, n + mn + 1 <= k -> fits a n (k - mn) mn L).
      { intros k K. split; [apply TAIL; lia|]. split.
        - intros la ac I. apply TAIL. specialize (Q6 _ _ I). lia.
        - intros j J E. rewrite G3 in E. pose proof (iv_neg _ _ _ _ IV j). lia. }
      assert (LOW : i <= n + mn + 1 \/ i = stop).
      { destruct (Z_le_gt_dec i (n + mn + 1)); [now left|]. right.
        exfalso. apply (R3 (n + mn + 1)); [lia|]. apply FIT. lia. }
      assert (DEC : (i < stop) \/ (i = stop /\ mn + mx > ns /\ n < i /\ 0 < mn)).
      { destruct (Z_lt_le_dec i stop); [now left|]. right. split; [lia|].
        assert (mn + mx > ns).
        { destruct (Z_le_gt_dec (mn + mx) ns); [|auto]. exfalso. apply (R3 (n + mn + 1)).
          - assert (stop = Z.max fin (nActionAlloc a - mx)) by lia. lia.
          - apply FIT. lia. }
        lia. }
      assert (ST : stop = Z.max fin (nActionAlloc a - mx)) by lia.
      assert (FREE : forall la ac, In (la, ac) L -> fst (cell a (i - mn + la)) < 0).
      { destruct DEC as [D|(D1 & D2 & D3 & D4)].
        - apply (R2 D).
        - intros la ac I. apply TAIL. specialize (Q6 _ _ I). lia. }
      split. { intros la ac I. pose proof (Q6 _ _ I). unfold fin in *. destruct safe; destruct DEC as [D|(D1 & D2 & D3 & D4)]; lia. }
      split. { intros la ac I. left. eauto. }
      right. split; [auto|]. split.
      + destruct DEC as [D|(D1 & D2 & D3 & D4)].
        * left. intros r o I E. destruct (R2 D) as (_ & _ & F).
          pose proof (iv_valid _ _ _ _ IV _ _ I) as VV. pose proof VV as (W1 & W2 & W3).
          destruct r as [Lr sr]. cbn [fst snd] in *. destruct Lr as [|[l1 a1] Lr]; [congruence|].
          destruct (lookup_last_ex _ l1 a1 (in_eq _ Lr)) as [x X].
          assert (0 <= l1) by (apply (valid_la nt ns _ l1 x ltac:(lia) VV X)).
          pose proof (iv_in_lt _ _ _ _ _ _ _ _ IV I X ltac:(lia)) as B. fold n in B.
          pose proof (iv_in _ _ _ _ IV _ _ _ _ I X) as C.
          apply (F (o + l1) B). rewrite G3, C. cbn [fst]. lia.
        * destruct safe eqn:ES.
          -- left. intros r o I E. specialize (BIG _ _ I). specialize (MN3 eq_refl). lia.
          -- destruct strong eqn:EST; [|right; auto]. left. intros r o I E. specialize (BIG _ _ I).
             destruct (STR eq_refl eq_refl) as (x & X1 & X2). specialize (X2 mx Q8).
             apply in_map_iff in X1. destruct X1 as ([x' ax] & X1 & X3). cbn [fst] in X1. subst x'.
             specialize (Q6 _ _ X3). fold nt ns in X2. lia.
      + intros T1 T2. specialize (TI T1 T2). destruct TI as (l0 & IL & HL).
        cbn [fst snd] in *. apply in_map_iff in IL. destruct IL as ([l0' a0] & <- & IL). cbn [fst] in HL.
        specialize (Q6 _ _ IL). specialize (MN3 T2). destruct DEC as [D|(D1 & D2 & D3 & D4)]; lia. }
  destruct PLACE as (i & -> & P1 & P2 & _ & P4). cbn [bind].
  destruct (put_all_ok mn i L a n P2) as (a1 & n1 & -> & LA & C1 & N1 & N2 & N3). cbn [bind].
  clear HD.
  set (n2 := if safe && (n1 <=? i + nt) then i + nt + 1 else n1).
  assert (N4 : n1 <= n2 /\ (safe = true -> i + nt < n2) /\ (n2 = n1 \/ (safe = true /\ n2 = i + nt + 1))).
  { unfold n2. destruct safe; cbn [andb]; [|split; [lia|split; [discriminate|auto]]].
    destruct (Z.leb_spec n1 (i + nt)); split; try lia; split; auto; lia. }
  clearbody n2.
  eexists _, (i - mn). split; [reflexivity|].
  set (o := i - mn) in *.
  assert (CELL : forall k, (exists la ac, lookup_last L la = Some ac /\ k = o + la /\ cell a1 k = (la, ac)) \/
                           (lookup_last L (k - o) = None /\ cell a1 k = cell a k)).
  { intros k. pose proof (C1 (k - o)) as C. replace (o + (k - o)) with k in C by lia.
    destruct (lookup_last L (k - o)) as [ac|] eqn:E; [left|right; auto].
    exists (k - o), ac. split; [auto|]. split; [lia|auto]. }
  assert (LAPOS : forall la ac, In (la, ac) L -> 0 <= la) by (intros la ac I; specialize (Q6 _ _ I); lia).
  (* old rows keep their cells *)
  assert (KEEP : forall k, 0 <= fst (cell a k) -> cell a1 k = cell a k).
  { intros k K. destruct (CELL k) as [(la & ac & X1 & -> & X2)|(_ & X)]; [|auto].
    apply lookup_last_In in X1. destruct P4 as [(M & _)|(F & _)].
    - destruct (M _ _ X1) as [_ ->]. auto.
    - specialize (F _ _ X1). lia. }
  split; [|cbn [t_nterminal t_nsymbol nAction]; split; [auto|split; [auto|lia]]].
  split; cbn [nAction aAction aLookahead t_nterminal t_nsymbol]; fold nt ns.
  - lia.
  - lia.
  - reflexivity.
  - intros k K. destruct (CELL k) as [(la & ac & X1 & -> & X2)|(_ & ->)].
    + apply lookup_last_In in X1. specialize (N2 _ _ X1). fold o in N2. lia.
    + apply TAIL. lia.
  - intros k. destruct (CELL k) as [(la & ac & X1 & -> & ->)|(_ & ->)].
    + cbn [fst]. apply lookup_last_In in X1. apply LAPOS in X1. lia.
    + rewrite G3. apply (iv_neg _ _ _ _ IV).
  - intros r o' [E|I]; [inversion E; subst; auto|apply (iv_valid _ _ _ _ IV _ _ I)].
  - intros r o' la ac [E|I] HL.
    + inversion E; subst r o'. cbn [fst] in HL. rewrite C1, HL. reflexivity.
    + pose proof (iv_in _ _ _ _ IV _ _ _ _ I HL) as C. rewrite <- G3 in C.
      rewrite KEEP; [auto|]. rewrite C. cbn [fst].
      apply (valid_la nt ns r la ac); [lia|apply (iv_valid _ _ _ _ IV _ _ I)|auto].
  - intros r o' [E|I] ES.
    + inversion E; subst r o'. cbn [snd] in ES. destruct N4 as (_ & N4 & _). specialize (N4 ES).
      unfold o, fin in *. rewrite ES in *. lia.
    + pose proof (iv_safe _ _ _ _ IV _ _ I ES) as S1. fold nt n in S1. lia.
  - intros k K. destruct (CELL k) as [(la & ac & X1 & -> & X2)|(_ & X)].
    + rewrite X2 in *. cbn [fst] in *. exists (L, safe), o, ac. split; [now left|]. split; [lia|auto].
    + rewrite X in *. rewrite G3 in *. destruct (iv_cover _ _ _ _ IV k K) as (r & o' & ac & I & E1 & E2).
      exists r, o', ac. split; [now right|]. auto.
  - (* one row per offset *)
    assert (NEW : forall r o', In (r, o') rows -> o' = o -> (strong = true \/ (safe = true /\ snd r = true)) ->
              forall la, lookup_last L la = lookup_last (fst r) la).
    { intros r o' I -> COND la. destruct P4 as [(M & LL & P5 & EX)|(F & FR & _)].
      2:{ destruct FR as [FR|(F1 & F2)]; [now elim (FR _ _ I)|]. destruct COND as [X|[X _]]; congruence. }
      pose proof (iv_valid _ _ _ _ IV _ _ I) as VV. fold nt ns in VV.
      destruct (lookup_last L la) as [ac|] eqn:E1.
      - pose proof (lookup_last_In _ _ _ E1) as IL. destruct (M _ _ IL) as [M1 M2]. rewrite G3 in M2.
        assert (K : 0 <= fst (cell (aAction p) (o + la))) by (rewrite M2; apply (LAPOS _ _ IL)).
        destruct (iv_cover _ _ _ _ IV _ K) as (r3 & o3 & a3 & I3 & E3 & L3). rewrite M2 in E3, L3. cbn [fst] in E3, L3.
        assert (E3' : o3 = o) by lia.
        pose proof (iv_in _ _ _ _ IV _ _ _ _ I3 L3) as C3. rewrite E3' in C3.
        assert (a3 = ac) by congruence. subst a3.
        assert (COND3 : strong = true \/ snd r3 = true /\ snd r = true).
        { destruct COND as [X|[X1 X2]]; [now left|]. right. split; [|auto].
          destruct (snd r3) eqn:ES; [auto|]. pose proof (iv_valid _ _ _ _ IV _ _ I3) as (_ & _ & W). rewrite ES in W.
          specialize (W _ _ (lookup_last_In _ _ _ L3)). fold nt in W. specialize (VB _ _ IL). rewrite X1 in VB. lia. }
        rewrite <- L3. symmetry. apply (iv_uniq _ _ _ _ IV r o r3 o3); auto.
        destruct COND3 as [X|[X1 X2]]; auto.
      - destruct (lookup_last (fst r) la) as [ac|] eqn:E2; [|auto]. exfalso.
        assert (LP : 0 <= la) by (apply (valid_la nt ns r la ac); auto; lia).
        pose proof (iv_in _ _ _ _ IV _ _ _ _ I E2) as C.
        pose proof (iv_in_lt _ _ _ _ _ _ _ _ IV I E2 LP) as B. fold n in B.
        rewrite <- G3 in C. specialize (EX _ B). rewrite C in EX. cbn [fst] in EX.
        specialize (EX LP ltac:(lia)). destruct (lookup_last_ex _ _ _ EX) as [x X]. congruence. }
    intros r1 o1 r2 o2 [J1|J1] [J2|J2] EO COND la.
    + congruence.
    + inversion J1; subst r1 o1. cbn [fst snd] in *. apply (NEW r2 o2); auto.
    + inversion J2; subst r2 o2. cbn [fst snd] in *. symmetry. apply (NEW r1 o1); auto.
      destruct COND as [X|[X1 X2]]; auto.
    + apply (iv_uniq _ _ _ _ IV _ _ _ _ J1 J2 EO COND).
  - intros T1. rewrite LA. pose proof (iv_tight _ _ _ _ IV T1) as T2. fold n in T2.
    assert (n1 <= nActionAlloc a).
    { destruct N3 as [->|(la & ac & I & ->)]; [lia|]. specialize (P2 _ _ I). lia. }
    destruct N4 as (_ & _ & [->|(ES & ->)]); [auto|].
    destruct P4 as [(_ & _ & P5 & _)|(_ & _ & P5)].
    + lia.
    + specialize (P5 T1 ES). lia.
Qed.

Lemma add_rows_ok : forall strong tight rows p done,
  Inv strong tight p done -> (forall r, In r rows -> valid_row (t_nterminal p) (t_nsymbol p) r) ->
  (strong = true -> forall r, In r rows -> snd r = false -> low_span (t_nterminal p) (t_nsymbol p) (fst r)) ->
  (tight = true -> forall r, In r rows -> low_safe (t_nterminal p) (t_nsymbol p) r) ->
  exists p1 os, add_rows p rows = Ok (p1, os) /\ length os = length rows /\
    (exists all, Inv strong tight p1 all /\ (forall x, In x (combine rows os) -> In x all)) /\
    (exists all, Inv strong tight p1 all /\ all = rev (combine rows os) ++ done) /\
    t_nterminal p1 = t_nterminal p /\ t_nsymbol p1 = t_nsymbol p.
Proof.
  intros strong tight rows. induction rows as [|row rows IH]; intros p done IV V ST TI; cbn [add_rows].
  - exists p, []. split; [reflexivity|]. split; [auto|]. split; [|split; [|auto]].
    + exists done. split; [auto|]. intros x [].
    + exists done. auto.
  - destruct (add_row_ok strong tight p done row IV) as (p1 & o & -> & IV1 & E1 & E2 & _).
    + apply V. now left.
    + intros X. apply (ST X). now left.
    + intros X. apply (TI X). now left.
    + cbn [bind]. destruct (IH p1 ((row, o) :: done)) as (p2 & os & -> & LEN & _ & (all & IA & EA) & F1 & F2).
      * auto.
      * intros r I. rewrite E1, E2. apply V. now right.
      * intros X r I. rewrite E1, E2. apply (ST X). now right.
      * intros X r I. rewrite E1, E2. apply (TI X). now right.
      * cbn [bind]. exists p2, (o :: os). split; [reflexivity|]. split; [cbn; lia|].
        assert (EQ : all = rev (combine (row :: rows) (o :: os)) ++ done).
        { cbn [combine rev]. rewrite <- app_assoc. exact EA. }
        split; [|split; [|split; congruence]].
        -- exists all. split; [auto|]. intros x I. rewrite EQ. apply in_or_app. left. now apply -> in_rev.
        -- exists all. auto.
Qed.

Lemma Inv_alloc : forall strong tight ns nt, 0 < nt <= ns -> Inv strong tight (acttab_alloc ns nt) [].
Proof.
  intros strong tight ns nt H. assert (C : forall k, cell [] k = (-1, -1)).
  { intros k. unfold cell. destruct (k <? 0); [auto|]. now destruct (Z.to_nat k). }
  split; cbn [acttab_alloc nAction aAction aLookahead t_nterminal t_nsymbol]; auto; try lia.
  - intros k _. rewrite C. cbn. lia.
  - intros k. rewrite C. cbn. lia.
  - intros r o [].
  - intros r o la ac [].
  - intros r o [].
  - intros k K. rewrite C in K. cbn in K. lia.
  - intros r1 o1 r2 o2 [].
  - intros _. cbn. lia.
Qed.

Lemma action_size_ok : forall a n r, action_size a n = Ok r ->
  0 <= r <= Z.of_nat n /\ (forall k, r <= k < Z.of_nat n -> fst (cell a k) < 0) /\
  (0 < r -> 0 <= fst (cell a (r - 1))) /\ r <= nActionAlloc a.
Proof.
  intros a n. induction n as [|n IH]; intros r H; cbn [action_size] in H.
  - inversion H; subst. split; [lia|]. split; [intros; lia|]. split; [lia|]. unfold nActionAlloc. lia.
  - apply bind_Ok in H. destruct H as (x & R & H).
    assert (RX : x = cell a (Z.of_nat n) /\ Z.of_nat n < nActionAlloc a).
    { unfold rd in R. destruct (Z.ltb_spec (Z.of_nat n) 0); [lia|]. apply opt_Ok in R.
      pose proof (nth_error_Some_lt _ _ _ _ R). unfold cell, nActionAlloc. destruct (Z.ltb_spec (Z.of_nat n) 0); [lia|].
      split; [|lia]. symmetry. now apply nth_error_Some_nth. }
    destruct RX as [-> RL].
    destruct (Z.ltb_spec (fst (cell a (Z.of_nat n))) 0) as [E|E].
    + destruct (IH r H) as (A & B & C & D). split; [lia|]. split; [|split; auto].
      intros k K. destruct (Z.eq_dec k (Z.of_nat n)) as [->|N]; [auto|]. apply B. lia.
    + assert (HR : r = Z.of_nat (S n)) by congruence. subst r. split; [lia|]. split; [intros; lia|]. split; [|lia].
      intros _. replace (Z.of_nat (S n) - 1) with (Z.of_nat n) by lia. auto.
Qed.

Lemma action_size_total : forall a n, Z.of_nat n <= nActionAlloc a -> exists r, action_size a n = Ok r.
Proof.
  intros a n. induction n as [|n IH]; intros H; cbn [action_size]; [eauto|].
  rewrite rd_ok by lia. cbn [bind]. destruct (fst (cell a (Z.of_nat n)) <? 0); [apply IH; lia|eauto].
Qed.
