(** Lemmas about action lists and conflict resolution. *)
From Coq Require Import List Arith NArith Lia Bool Permutation Sorted.
Import ListNotations.
From Verif Require Import Base SpecGrammar SpecLRFacts LemonSetModel LemonFirstModel LemonSortModel LemonSortProof
  LemonStatesModel LemonClosureProof LemonStatesProof LemonFollowProof LemonActionModel.
Local Open Scope res_scope.

(** * Building the lists *)

Lemma reduces_one_eq : forall w r terms ap,
  reduces_one w r terms ap =
  rev (map (fun j => mkAction REDUCE j r) (filter (fun j => SetFind w j) terms)) ++ ap.
Proof.
  intros w r terms. induction terms as [|j t IH]; intros ap; [reflexivity|].
  cbn [reduces_one filter]. rewrite IH. destruct (SetFind w j); [|reflexivity].
  simpl. rewrite <- app_assoc. reflexivity.
Qed.

(** The reduce actions contributed by one configuration. *)
Definition red_of (g : grammar) (h : list config) (x : nat) : list action :=
  match nth_error (g_rules g) (c_rp (cf h x)) with
  | Some rp => if length (r_rhs rp) =? c_dot (cf h x)
               then map (fun j => mkAction REDUCE j (c_rp (cf h x)))
                        (filter (fun j => SetFind (c_fws (cf h x)) j) (seq 0 (g_nterm g)))
               else []
  | None => []
  end.

Lemma reduces_cfgs_eq : forall g h l ap,
  (forall x, In x l -> x < length h /\ c_rp (cf h x) < length (g_rules g)) ->
  reduces_cfgs g h l ap = Ok (rev (flat_map (red_of g h) l) ++ ap).
Proof.
  intros g h l. induction l as [|x l IH]; intros ap H; [reflexivity|].
  destruct (H x (or_introl eq_refl)) as (Hx & Hr). cbn [reduces_cfgs flat_map].
  destruct (nth_error_lt_ex _ h x Hx) as (c & Ec). rewrite Ec. cbn [opt bind].
  assert (Ecf : cf h x = c) by (unfold cf; apply nth_error_Some_nth; auto).
  unfold red_of at 1. rewrite Ecf in *.
  destruct (nth_error_lt_ex _ (g_rules g) _ Hr) as (rp & Er). rewrite Er. cbn [opt bind].
  destruct (length (r_rhs rp) =? c_dot c).
  - rewrite IH by (intros; apply H; right; auto). rewrite reduces_one_eq, rev_app_distr, <- app_assoc. reflexivity.
  - rewrite IH by (intros; apply H; right; auto). reflexivity.
Qed.

Lemma reduces_states_eq : forall g h sts,
  (forall st x, In st sts -> In x (s_cfp st) -> x < length h /\ c_rp (cf h x) < length (g_rules g)) ->
  reduces_states g h sts = Ok (map (fun st => rev (flat_map (red_of g h) (s_cfp st)) ++ s_ap st) sts).
Proof.
  intros g h sts. induction sts as [|st sts IH]; intros H; [reflexivity|].
  cbn [reduces_states map]. rewrite reduces_cfgs_eq by (intros; apply (H st); simpl; auto). cbn [bind].
  rewrite IH by (intros; apply (H st0); simpl; auto). reflexivity.
Qed.

Lemma red_of_In : forall g h x a, In a (red_of g h x) <->
  (exists rp, nth_error (g_rules g) (c_rp (cf h x)) = Some rp /\ length (r_rhs rp) = c_dot (cf h x)) /\
  exists j, j < g_nterm g /\ SetFind (c_fws (cf h x)) j = true /\ a = mkAction REDUCE j (c_rp (cf h x)).
Proof.
  intros g h x a. unfold red_of. destruct (nth_error (g_rules g) (c_rp (cf h x))) as [rp|] eqn:E.
  - destruct (Nat.eqb_spec (length (r_rhs rp)) (c_dot (cf h x))) as [D|D].
    + rewrite in_map_iff. split.
      * intros (j & <- & Hj). apply filter_In in Hj as (Hj & S1). apply in_seq in Hj. split; [eauto|].
        exists j. repeat split; auto; lia.
      * intros (_ & j & Hj & S1 & ->). exists j. split; auto. apply filter_In. split; auto. apply in_seq. lia.
    + split; [intros []|]. intros ((rp' & E' & D') & _). inversion E'; subst. congruence.
  - split; [intros []|]. intros ((rp' & E' & _) & _). discriminate.
Qed.

(** The complete description of the lists before resolution. *)
Definition raw_of (g : grammar) (h : list config) (st : state) : list action :=
  rev (flat_map (red_of g h) (s_cfp st)) ++ s_ap st.

Lemma actions_added_eq : forall g L, l_states L <> [] ->
  (forall st x, In st (l_states L) -> In x (s_cfp st) ->
     x < length (l_cfgs L) /\ c_rp (cf (l_cfgs L) x) < length (g_rules g)) ->
  exists st0 sts, l_states L = st0 :: sts /\
  actions_added g L = Ok ((mkAction ACCEPT (g_start g) 0 :: raw_of g (l_cfgs L) st0) :: map (raw_of g (l_cfgs L)) sts).
Proof.
  intros g L NE H. unfold actions_added. rewrite reduces_states_eq by auto. cbn [bind].
  destruct (l_states L) as [|st0 sts]; [congruence|]. exists st0, sts. split; reflexivity.
Qed.

(** * Sorting *)

Definition rkey (a : action) : nat :=
  match a_type a with REDUCE | SHIFTREDUCE => S (a_arg a) | _ => 0 end.

Lemma actioncmp_le_iff : forall ax a ay b, actioncmp_le (ax, a) (ay, b) = true <->
  a_sp a < a_sp b \/ a_sp a = a_sp b /\
  (e_action_num (a_type a) < e_action_num (a_type b) \/ e_action_num (a_type a) = e_action_num (a_type b) /\
   (rkey a < rkey b \/ rkey a = rkey b /\ ay <= ax)).
Proof.
  intros ax [ta sa aa] ay [tb sb ab]. unfold actioncmp_le, rkey. simpl.
  destruct (Nat.eqb_spec sa sb) as [->|N].
  - destruct (Nat.eqb_spec (e_action_num ta) (e_action_num tb)) as [E|E].
    + assert (ta = tb) by (destruct ta, tb; simpl in E; congruence). subst tb. clear E.
      destruct ta; try (rewrite Nat.leb_le; lia);
        (destruct (Nat.eqb_spec aa ab) as [->|Na]; [rewrite Nat.leb_le|rewrite Nat.ltb_lt]; lia).
    + rewrite Nat.ltb_lt. lia.
  - rewrite Nat.ltb_lt. lia.
Qed.

Lemma actioncmp_le_trans : forall x y z, actioncmp_le x y = true -> actioncmp_le y z = true -> actioncmp_le x z = true.
Proof. intros [ax a] [ay b] [az c]. rewrite !actioncmp_le_iff. lia. Qed.

Lemma actioncmp_le_total : forall x y, actioncmp_le x y = true \/ actioncmp_le y x = true.
Proof. intros [ax a] [ay b]. rewrite !actioncmp_le_iff. lia. Qed.

(** What the sort guarantees about the contents. *)
Definition act_le (a b : action) : Prop :=
  a_sp a < a_sp b \/ a_sp a = a_sp b /\
  (e_action_num (a_type a) < e_action_num (a_type b) \/ e_action_num (a_type a) = e_action_num (a_type b) /\ rkey a <= rkey b).

Lemma Action_sort_sorted : forall addr l, StronglySorted act_le (Action_sort addr l).
Proof.
  intros addr l. unfold Action_sort.
  pose proof (msort_sorted actioncmp_le actioncmp_le_trans actioncmp_le_total
    (combine (map addr (seq 0 (length l))) l)) as S1.
  induction S1 as [|x m S1 IH F]; simpl; constructor; auto.
  rewrite Forall_forall in *. intros b Hb. apply in_map_iff in Hb as (y & <- & Hy). specialize (F y Hy).
  destruct x as [ax a], y as [ay b]. simpl. apply actioncmp_le_iff in F. unfold act_le. lia.
Qed.

Lemma combine_snd : forall (A B : Type) (a : list A) (b : list B), length a = length b -> map snd (combine a b) = b.
Proof. induction a; intros [|y b] H; simpl in *; try discriminate; auto. f_equal. auto. Qed.

Lemma Action_sort_perm : forall addr l, (N.of_nat (length l) < 2 ^ 30)%N -> Permutation (Action_sort addr l) l.
Proof.
  intros addr l H. unfold Action_sort.
  assert (E : map snd (combine (map addr (seq 0 (length l))) l) = l).
  { apply combine_snd. rewrite map_length, seq_length. reflexivity. }
  rewrite <- E at 3. apply Permutation_map. apply msort_perm.
  rewrite combine_length, map_length, seq_length, Nat.min_id. unfold LISTSIZE.
  apply Nat.compare_lt_iff. rewrite <- (Nat2N.id (2 ^ 30)). rewrite <- (Nat2N.id (length l)) at 1.
  rewrite Nat2N.inj_pow. rewrite <- N2Nat.inj_compare. exact H.
Qed.

(** * Conflict resolution *)

(** The action types that make the parser do something. *)
Definition livet (t : e_action) : bool := match t with SHIFT | ACCEPT | REDUCE => true | _ => false end.
Definition live (a : action) : bool := livet (a_type a).

(** Same symbol and argument; the type is kept or a live type is replaced by a
    dead one. *)
Definition relabel (a b : action) : Prop :=
  a_sp b = a_sp a /\ a_arg b = a_arg a /\
  (a_type b = a_type a \/ live a = true /\ live b = false /\ (a_type b = ERROR -> a_type a = SHIFT)).

Lemma relabel_refl : forall a, relabel a a.
Proof. intros a. repeat split; auto. Qed.

Lemma relabel_live : forall a b, relabel a b -> live b = true -> b = a.
Proof.
  intros [ta sa aa] [tb sb ab] (E1 & E2 & E3) H. simpl in *. subst. destruct E3 as [->|(_ & E3 & _)]; [reflexivity|congruence].
Qed.

Lemma relabel_trans : forall a b c, relabel a b -> relabel b c -> relabel a c.
Proof.
  intros a b c (A1 & A2 & A3) (B1 & B2 & B3). repeat split; try congruence.
  destruct A3 as [A3|A3], B3 as [B3|B3].
  - left. congruence.
  - right. unfold live in *. rewrite A3 in B3. exact B3.
  - right. unfold live in *. rewrite B3. exact A3.
  - destruct A3 as (_ & A3 & _). destruct B3 as (B3 & _). congruence.
Qed.

Ltac inv_ok H := inversion H; subst; clear H.

Lemma resolve_conflict_spec : forall p ps x y x' y' n, resolve_conflict p ps x y = Ok (x', y', n) ->
  a_sp x = a_sp y /\ relabel x x' /\ relabel y y' /\ (live x' = true -> live y' = true -> False) /\
  a_type y' <> ERROR \/ a_type y = ERROR /\ x' = x /\ y' = y /\ live x = false.
Proof.
  intros p ps [tx sx ax] [ty sy ay] x' y' n H. unfold resolve_conflict in H. simpl in H.
  destruct (Nat.eqb_spec sx sy) as [<-|N]; simpl in H; [|discriminate].
  unfold relabel, live, with_type in *. simpl.
  destruct tx, ty; simpl in H; try discriminate;
    try (inv_ok H; simpl; intuition (congruence || auto); fail).
  - destruct (nth_error ps ay) as [o|]; simpl in H; [|discriminate].
    destruct o as [spy|]; [|inv_ok H; simpl; intuition congruence].
    destruct (p_prec p sx) as [px|]; [|inv_ok H; simpl; intuition congruence].
    destruct (p_prec p spy) as [py|]; [|inv_ok H; simpl; intuition congruence].
    destruct (py <? px); [inv_ok H; simpl; intuition congruence|].
    destruct (px <? py); [inv_ok H; simpl; intuition congruence|].
    destruct (p_assoc p sx); inv_ok H; simpl; intuition congruence.
  - destruct (nth_error ps ax) as [ox|]; simpl in H; [|discriminate].
    destruct (nth_error ps ay) as [oy|]; simpl in H; [|discriminate].
    destruct ox as [spx|], oy as [spy|]; try (inv_ok H; simpl; intuition congruence).
    destruct (p_prec p spx) as [px|], (p_prec p spy) as [py|]; try (inv_ok H; simpl; intuition congruence).
    destruct (px =? py); [inv_ok H; simpl; intuition congruence|].
    destruct (py <? px); inv_ok H; simpl; intuition congruence.
Qed.

(** Simplified consequences. *)
Lemma resolve_conflict_relabel : forall p ps x y x' y' n, resolve_conflict p ps x y = Ok (x', y', n) ->
  a_sp x = a_sp y /\ relabel x x' /\ relabel y y' /\ (live x' = true -> live y' = true -> False).
Proof.
  intros p ps x y x' y' n H.
  assert (E : a_sp x = a_sp y).
  { unfold resolve_conflict in H. destruct (Nat.eqb_spec (a_sp x) (a_sp y)); auto. discriminate. }
  destruct (resolve_conflict_spec _ _ _ _ _ _ _ H) as [(_ & A & B & C & _)|(T & -> & -> & D)].
  - auto.
  - split; auto. split; [apply relabel_refl|]. split; [apply relabel_refl|]. congruence.
Qed.

Lemma resolve_inner_relabel : forall p ps rest ap ap' rest' n, resolve_inner p ps ap rest = Ok (ap', rest', n) ->
  relabel ap ap' /\ Forall2 relabel rest rest'.
Proof.
  intros p ps. induction rest as [|nap r IH]; intros ap ap' rest' n H; cbn [resolve_inner] in H.
  - inv_ok H. split; [apply relabel_refl|constructor].
  - destruct (a_sp nap =? a_sp ap).
    + apply bind_Ok in H as ([[ap1 nap1] n1] & H1 & H). apply bind_Ok in H as ([[ap2 r2] m] & H2 & H). inv_ok H.
      apply resolve_conflict_relabel in H1 as (_ & A & B & _). apply IH in H2 as (C & D).
      split; [eapply relabel_trans; eauto|constructor; auto].
    + inv_ok H. split; [apply relabel_refl|]. clear. induction (nap :: r); constructor; auto. apply relabel_refl.
Qed.

Lemma Forall2_relabel_refl : forall l, Forall2 relabel l l.
Proof. induction l; constructor; auto. apply relabel_refl. Qed.

Lemma Forall2_relabel_trans : forall a b c, Forall2 relabel a b -> Forall2 relabel b c -> Forall2 relabel a c.
Proof.
  intros a b c H. revert c. induction H; intros c H1; inversion H1; subst; constructor; eauto using relabel_trans.
Qed.

Lemma resolve_list_relabel : forall f p ps l l' n, resolve_list f p ps l = Ok (l', n) -> Forall2 relabel l l'.
Proof.
  induction f as [|f IH]; intros p ps [|ap rest] l' n H; cbn [resolve_list] in H; try discriminate;
    try (inv_ok H; constructor).
  apply bind_Ok in H as ([[ap1 rest1] n1] & H1 & H). apply bind_Ok in H as ([rest2 m] & H2 & H). inv_ok H.
  apply resolve_inner_relabel in H1 as (A & B). apply IH in H2. constructor; auto. eapply Forall2_relabel_trans; eauto.
Qed.

(** After the inner loop the first action and the later ones on its symbol are
    not both live; the list being sorted by symbol. *)
Definition sp_sorted (l : list action) : Prop := StronglySorted (fun a b => a_sp a <= a_sp b) l.

Lemma resolve_inner_excl : forall p ps rest ap ap' rest' n, sp_sorted (ap :: rest) ->
  resolve_inner p ps ap rest = Ok (ap', rest', n) ->
  live ap' = true -> forall b, In b rest' -> live b = true -> a_sp b <> a_sp ap.
Proof.
  intros p ps. induction rest as [|nap r IH]; intros ap ap' rest' n SS H LA b Hb LB E; cbn [resolve_inner] in H.
  - inv_ok H. destruct Hb.
  - unfold sp_sorted in SS. apply StronglySorted_inv in SS as (S1 & F1). apply StronglySorted_inv in S1 as (S2 & F2).
    destruct (Nat.eqb_spec (a_sp nap) (a_sp ap)) as [En|En].
    + apply bind_Ok in H as ([[ap1 nap1] n1] & H1 & H). apply bind_Ok in H as ([[ap2 r2] m] & H2 & H). inv_ok H.
      apply resolve_conflict_relabel in H1 as (_ & A & B & X). destruct Hb as [<-|Hb].
      * pose proof (resolve_inner_relabel _ _ _ _ _ _ _ H2) as (C & _). apply X; auto.
        rewrite (relabel_live _ _ C LA) in LA. auto.
      * assert (A1 : a_sp ap1 = a_sp ap) by apply A.
        apply (IH ap1 ap' r2 m) with (b := b); auto; try congruence.
        unfold sp_sorted. constructor; auto. inversion F1; subst.
        eapply Forall_impl; [|eassumption]. simpl. intros c. lia.
    + inv_ok H. assert (a_sp ap' < a_sp nap) by (inversion F1; subst; lia).
      destruct Hb as [<-|Hb]; [lia|]. rewrite Forall_forall in F2. specialize (F2 b Hb). lia.
Qed.

Lemma sp_sorted_relabel : forall l l', Forall2 relabel l l' -> sp_sorted l -> sp_sorted l'.
Proof.
  unfold sp_sorted. intros l l' H. induction H as [|a b l l' R F IH]; intros SS; constructor.
  - apply IH. now apply StronglySorted_inv in SS.
  - apply StronglySorted_inv in SS as (_ & F1). replace (a_sp b) with (a_sp a) by (symmetry; apply R).
    clear - F F1. induction F; constructor; inversion F1; subst; auto. destruct H as (-> & _). auto.
Qed.

(** At most one live action per symbol, by position. *)
Definition one_live (l : list action) : Prop :=
  forall i j a b, nth_error l i = Some a -> nth_error l j = Some b ->
    a_sp a = a_sp b -> live a = true -> live b = true -> i = j.

Lemma resolve_list_one_live : forall f p ps l l' n, sp_sorted l ->
  resolve_list f p ps l = Ok (l', n) -> one_live l'.
Proof.
  induction f as [|f IH]; intros p ps [|ap rest] l' n SS H; cbn [resolve_list] in H; try discriminate.
  1, 2: inv_ok H; intros [|i] j a b Hi; discriminate.
  apply bind_Ok in H as ([[ap1 rest1] n1] & H1 & H). apply bind_Ok in H as ([rest2 m] & H2 & H). inv_ok H.
  pose proof (resolve_inner_relabel _ _ _ _ _ _ _ H1) as (A & B).
  assert (S1 : sp_sorted rest1) by (eapply sp_sorted_relabel; eauto; apply StronglySorted_inv in SS; apply SS).
  pose proof (resolve_list_relabel _ _ _ _ _ _ H2) as C.
  assert (X : forall j b, nth_error rest2 j = Some b -> a_sp ap1 = a_sp b -> live ap1 = true -> live b = true -> False).
  { intros j b Hj E LA LB.
    assert (G : exists c, In c rest1 /\ relabel c b).
    { clear - C Hj. revert j Hj. induction C; intros [|j] Hj; simpl in Hj; try discriminate.
      - inv_ok Hj. eexists. split; [left; reflexivity|auto].
      - destruct (IHC j Hj) as (c & Hc & R). exists c. split; auto. right; auto. }
    destruct G as (c & Hc & R). pose proof (relabel_live _ _ R LB); subst b.
    apply (resolve_inner_excl _ _ _ _ _ _ _ SS H1 LA c Hc LB). destruct A as (A & _). congruence. }
  intros [|i] [|j] a b Hi Hj E LA LB; auto; simpl in *.
  - inv_ok Hi. exfalso. eauto.
  - inv_ok Hj. exfalso. eapply X; eauto.
  - f_equal. eapply IH; eauto.
Qed.

Lemma act_le_sp : forall l, StronglySorted act_le l -> sp_sorted l.
Proof.
  intros l H. unfold sp_sorted. induction H as [|a l S1 IH F]; constructor; auto.
  eapply Forall_impl; [|exact F]. unfold act_le. intros b. lia.
Qed.

Lemma Forall2_len : forall (A B : Type) (R : A -> B -> Prop) l l', Forall2 R l l' -> length l = length l'.
Proof. induction 1; simpl; auto. Qed.

(** The fuel given by resolve_states is enough. *)
Lemma resolve_inner_length : forall p ps rest ap ap' rest' n,
  resolve_inner p ps ap rest = Ok (ap', rest', n) -> length rest' = length rest.
Proof. intros. apply resolve_inner_relabel in H as (_ & H). symmetry. eapply Forall2_len; eauto. Qed.

Lemma resolve_conflict_nofuel : forall p ps x y, resolve_conflict p ps x y <> Fuel.
Proof.
  intros p ps [tx sx ax] [ty sy ay]. unfold resolve_conflict. simpl.
  destruct (sx =? sy); simpl; [|discriminate].
  destruct tx, ty; simpl; try discriminate;
    repeat match goal with
    | |- context [nth_error ?l ?i] => destruct (nth_error l i); simpl; try discriminate
    | |- context [match ?o with Some _ => _ | None => _ end] => destruct o; simpl; try discriminate
    | |- context [if ?b then _ else _] => destruct b; simpl; try discriminate
    | |- context [match p_assoc ?p ?s with _ => _ end] => destruct (p_assoc p s); simpl; try discriminate
    end.
Qed.

Lemma resolve_inner_nofuel : forall p ps rest ap, resolve_inner p ps ap rest <> Fuel.
Proof.
  intros p ps. induction rest as [|nap r IH]; intros ap; cbn [resolve_inner]; [discriminate|].
  destruct (a_sp nap =? a_sp ap); [|discriminate].
  destruct (resolve_conflict p ps ap nap) as [[[ap1 nap1] n]| |] eqn:E; cbn [bind]; try discriminate.
  - specialize (IH ap1). destruct (resolve_inner p ps ap1 r) as [[[? ?] ?]| |]; cbn [bind]; congruence.
  - destruct (resolve_conflict_nofuel _ _ _ _ E).
Qed.

Lemma resolve_list_nofuel : forall f p ps l, length l <= f -> resolve_list f p ps l <> Fuel.
Proof.
  induction f as [|f IH]; intros p ps [|ap rest] H; cbn [resolve_list]; try discriminate; simpl in H; try lia.
  destruct (resolve_inner p ps ap rest) as [[[ap1 rest1] n]| |] eqn:E; cbn [bind]; try discriminate.
  - assert (length rest1 <= f) by (apply resolve_inner_length in E; lia). specialize (IH p ps rest1 H0).
    destruct (resolve_list f p ps rest1) as [[? ?]| |]; cbn [bind]; congruence.
  - destruct (resolve_inner_nofuel _ _ _ _ E).
Qed.

(** * When resolution does not abort *)

Definition okpair (p : precs) (ps : list (option nat)) (x y : action) : Prop :=
  match a_type x, a_type y with
  | SHIFT, SHIFT => True
  | SHIFT, REDUCE => a_arg y < length ps /\ (has_prec p (a_sp x) = true -> p_assoc p (a_sp x) <> UNK)
  | REDUCE, REDUCE => a_arg x < length ps /\ a_arg y < length ps
  | tx, ty => settled tx = true \/ settled ty = true
  end.

(** Equal precedence with a nonassociative operator. *)
Definition tie (p : precs) (ps : list (option nat)) (s r : nat) : Prop :=
  exists spy n, nth_error ps r = Some (Some spy) /\ p_prec p s = Some n /\ p_prec p spy = Some n /\
    (p_assoc p s = NONE \/ p_assoc p s = PRECEDENCE).

Definition tie_act (p : precs) (ps : list (option nat)) (x y : action) : Prop :=
  a_type x = SHIFT /\ a_type y = REDUCE /\ a_sp x = a_sp y /\ tie p ps (a_sp x) (a_arg y).

Definition srel (a b : action) : Prop := b = a \/ exists t, settled t = true /\ b = with_type a t.

Lemma srel_refl : forall a, srel a a. Proof. left; reflexivity. Qed.

Lemma Forall2_srel_refl : forall l, Forall2 srel l l.
Proof. induction l; constructor; auto using srel_refl. Qed.

Lemma srel_sp : forall a b, srel a b -> a_sp b = a_sp a.
Proof. intros a b [->|(t & _ & ->)]; reflexivity. Qed.

Lemma srel_settled : forall a b, srel a b -> settled (a_type a) = true -> settled (a_type b) = true.
Proof. intros a b [->|(t & T & ->)] H; auto. Qed.

Lemma resolve_conflict_ok : forall p ps x y, a_sp x = a_sp y -> okpair p ps x y ->
  exists x' y' n, resolve_conflict p ps x y = Ok (x', y', n) /\ srel y y' /\
    (srel x x' \/ tie_act p ps x y /\ x' = with_type x ERROR).
Proof.
  intros p ps [tx sx ax] [ty sy ay] E OK. simpl in E. subst sy. unfold resolve_conflict, okpair, tie_act in *. simpl in *.
  rewrite Nat.eqb_refl. simpl.
  assert (SR : forall a t, settled t = true -> srel a (with_type a t)) by (intros a t T; right; eauto).
  destruct tx, ty; simpl in *;
    try (destruct OK as [OK|OK]; discriminate);
    try (do 3 eexists; split; [reflexivity|]; split; [apply srel_refl|left; apply srel_refl]).
  - do 3 eexists. split; [reflexivity|]. split; [apply SR; reflexivity|left; apply srel_refl].
  - destruct OK as (L & U). destruct (nth_error_lt_ex _ ps ay L) as (o & Eo). rewrite Eo. simpl.
    destruct o as [spy|].
    2: { do 3 eexists; split; [reflexivity|]; split; [apply SR; reflexivity|left; apply srel_refl]. }
    destruct (p_prec p sx) as [px|] eqn:PX.
    2: { do 3 eexists; split; [reflexivity|]; split; [apply SR; reflexivity|left; apply srel_refl]. }
    destruct (p_prec p spy) as [py|] eqn:PY.
    2: { do 3 eexists; split; [reflexivity|]; split; [apply SR; reflexivity|left; apply srel_refl]. }
    destruct (Nat.ltb_spec py px).
    { do 3 eexists; split; [reflexivity|]; split; [apply SR; reflexivity|left; apply srel_refl]. }
    destruct (Nat.ltb_spec px py).
    { do 3 eexists; split; [reflexivity|]; split; [apply srel_refl|left; apply SR; reflexivity]. }
    assert (px = py) by lia. subst py.
    assert (U1 : p_assoc p sx <> UNK) by (apply U; unfold has_prec; rewrite PX; reflexivity).
    assert (T : p_assoc p sx = NONE \/ p_assoc p sx = PRECEDENCE -> tie p ps sx ay) by (intros N; exists spy, px; auto).
    destruct (p_assoc p sx) eqn:AS; try congruence.
    + do 3 eexists; split; [reflexivity|]; split; [apply srel_refl|left; apply SR; reflexivity].
    + do 3 eexists; split; [reflexivity|]; split; [apply SR; reflexivity|left; apply srel_refl].
    + do 3 eexists; split; [reflexivity|]; split; [apply srel_refl|right]. repeat split; auto.
    + do 3 eexists; split; [reflexivity|]; split; [apply srel_refl|right]. repeat split; auto.
  - destruct OK as (LX & LY).
    destruct (nth_error_lt_ex _ ps ax LX) as (ox & Ex). destruct (nth_error_lt_ex _ ps ay LY) as (oy & Ey).
    rewrite Ex, Ey. simpl.
    assert (D : forall n : nat, exists x' y' n0, Ok (mkAction REDUCE sx ax, with_type (mkAction REDUCE sx ay) RRCONFLICT, n) = Ok (x', y', n0 : nat) /\
      srel (mkAction REDUCE sx ay) y' /\ (srel (mkAction REDUCE sx ax) x' \/ (REDUCE = SHIFT /\ REDUCE = REDUCE /\ sx = sx /\ tie p ps sx ay) /\ x' = with_type (mkAction REDUCE sx ax) ERROR)).
    { intros n. do 3 eexists; split; [reflexivity|]; split; [apply SR; reflexivity|left; apply srel_refl]. }
    destruct ox as [spx|], oy as [spy|]; try apply D.
    destruct (p_prec p spx) as [px|], (p_prec p spy) as [py|]; try apply D.
    destruct (px =? py); [apply D|]. destruct (py <? px).
    + do 3 eexists; split; [reflexivity|]; split; [apply SR; reflexivity|left; apply srel_refl].
    + do 3 eexists; split; [reflexivity|]; split; [apply srel_refl|left; apply SR; reflexivity].
Qed.

Lemma okpair_srel : forall p ps x y x' y', okpair p ps x y -> srel x x' -> srel y y' -> okpair p ps x' y'.
Proof.
  intros p ps x y x' y' OK [->|(t & T & ->)] [->|(u & U & ->)]; auto; unfold okpair in *; simpl.
  - destruct u; try discriminate; destruct (a_type x); auto.
  - destruct t; try discriminate; destruct (a_type y); auto.
  - destruct t; try discriminate; destruct u; auto.
Qed.

Fixpoint tie_last (p : precs) (ps : list (option nat)) (ap : action) (rest : list action) : Prop :=
  match rest with
  | [] => True
  | nap :: r => (tie_act p ps ap nap -> forall b, In b r -> a_sp b = a_sp ap -> settled (a_type b) = true) /\
                tie_last p ps ap r
  end.

Fixpoint res_pre (p : precs) (ps : list (option nat)) (l : list action) : Prop :=
  match l with
  | [] => True
  | ap :: rest => (forall b, In b rest -> a_sp b = a_sp ap -> okpair p ps ap b) /\ tie_last p ps ap rest /\
                  res_pre p ps rest
  end.

Lemma Forall2_srel_In : forall l l' b', Forall2 srel l l' -> In b' l' -> exists b, In b l /\ srel b b'.
Proof.
  intros l l' b' H. induction H as [|a c l l' R F IH]; intros Hb; [destruct Hb|].
  destruct Hb as [<-|Hb]; [exists a; simpl; auto|]. destruct (IH Hb) as (b & Hb1 & Hb2). exists b. simpl; auto.
Qed.

Lemma tie_act_srel : forall p ps x y x' y', srel x x' -> srel y y' -> tie_act p ps x' y' -> tie_act p ps x y.
Proof.
  intros p ps x y x' y' [->|(t & T & ->)] [->|(u & U & ->)] H; auto; destruct H as (A & B & _); simpl in *; subst; discriminate.
Qed.

Lemma tie_last_srel : forall p ps l l' x x', Forall2 srel l l' -> srel x x' -> tie_last p ps x l -> tie_last p ps x' l'.
Proof.
  intros p ps l l' x x' H X. induction H as [|a c l l' R F IH]; simpl; auto. intros (T & T2). split; auto.
  intros TA b' Hb E. destruct (Forall2_srel_In _ _ _ F Hb) as (b & Hb1 & Hb2).
  apply (srel_settled _ _ Hb2). apply T; auto.
  - eapply tie_act_srel; eauto.
  - rewrite <- (srel_sp _ _ Hb2), <- (srel_sp _ _ X). auto.
Qed.

Lemma res_pre_srel : forall p ps l l', Forall2 srel l l' -> res_pre p ps l -> res_pre p ps l'.
Proof.
  intros p ps l l' H. induction H as [|a c l l' R F IH]; cbn [res_pre]; auto. intros (A & B & C).
  split; [|split; [eapply tie_last_srel; eauto|auto]].
  intros b' Hb E. destruct (Forall2_srel_In _ _ _ F Hb) as (b & Hb1 & Hb2).
  eapply okpair_srel; eauto. apply A; auto. rewrite <- (srel_sp _ _ Hb2), <- (srel_sp _ _ R). auto.
Qed.

Lemma resolve_inner_ok : forall p ps rest ap,
  (forall b, In b rest -> a_sp b = a_sp ap -> okpair p ps ap b) -> tie_last p ps ap rest ->
  exists ap' rest' n, resolve_inner p ps ap rest = Ok (ap', rest', n) /\ Forall2 srel rest rest'.
Proof.
  intros p ps. induction rest as [|nap r IH]; intros ap OKP TL; cbn [resolve_inner].
  - do 3 eexists. split; [reflexivity|constructor].
  - destruct (Nat.eqb_spec (a_sp nap) (a_sp ap)) as [E|E].
    2: { do 3 eexists. split; [reflexivity|apply Forall2_srel_refl]. }
    destruct (resolve_conflict_ok p ps ap nap (eq_sym E) (OKP nap (or_introl eq_refl) E))
      as (ap1 & nap1 & n & R & SY & SX). rewrite R. cbn [bind]. destruct TL as (T1 & T2).
    destruct (IH ap1) as (ap2 & r2 & m & R2 & F2).
    + intros b Hb Eb. destruct SX as [SX|(TA & ->)].
      * apply (okpair_srel p ps ap b); auto using srel_refl. apply OKP; [right; auto|]. rewrite (srel_sp _ _ SX) in Eb. auto.
      * unfold okpair. simpl. specialize (T1 TA b Hb Eb). destruct (a_type b); auto.
    + destruct SX as [SX|(TA & ->)].
      * apply (tie_last_srel p ps r r ap); auto using Forall2_srel_refl.
      * clear. induction r; simpl; auto. split; auto. intros (A & _). discriminate.
    + rewrite R2. cbn [bind]. do 3 eexists. split; [reflexivity|]. constructor; auto.
Qed.

Lemma resolve_list_ok : forall f p ps l, length l <= f -> res_pre p ps l ->
  exists l' n, resolve_list f p ps l = Ok (l', n).
Proof.
  induction f as [|f IH]; intros p ps [|ap rest] H RP; cbn [resolve_list]; simpl in H; try lia; eauto.
  destruct RP as (A & B & C). destruct (resolve_inner_ok p ps rest ap A B) as (ap1 & rest1 & n & R & F).
  rewrite R. cbn [bind]. destruct (IH p ps rest1) as (l' & m & R2).
  - rewrite <- (Forall2_len _ _ _ _ _ F). lia.
  - eapply res_pre_srel; eauto.
  - rewrite R2. cbn [bind]. eauto.
Qed.

(** * Counting without precedences *)

Section NoPrec.
Variable p : precs.
Variable ps : list (option nat).
Hypothesis NP : forall s, p_prec p s = None.

Lemma noprec_live : forall x y x' y' n, resolve_conflict p ps x y = Ok (x', y', n) ->
  live x = true -> live y = true -> x' = x /\ settled (a_type y') = true /\ n = 1.
Proof.
  intros [tx sx ax] [ty sy ay] x' y' n H LX LY. unfold resolve_conflict in H. simpl in H.
  destruct (sx =? sy); simpl in H; [|discriminate]. unfold live in *. simpl in *.
  destruct tx; try discriminate; destruct ty; try discriminate; simpl in H; try discriminate.
  - inv_ok H. auto.
  - destruct (nth_error ps ay) as [[spy|]|]; simpl in H; try discriminate; rewrite ?NP in H; inv_ok H; auto.
  - destruct (nth_error ps ax) as [[spx|]|]; simpl in H; try discriminate;
    destruct (nth_error ps ay) as [[spy|]|]; simpl in H; try discriminate; rewrite ?NP in H; inv_ok H; auto.
Qed.

Lemma settled_same : forall x y x' y' n, resolve_conflict p ps x y = Ok (x', y', n) ->
  settled (a_type x) = true -> x' = x /\ y' = y /\ n = 0.
Proof.
  intros [tx sx ax] [ty sy ay] x' y' n H LX. unfold resolve_conflict in H. simpl in *.
  destruct (sx =? sy); simpl in H; [|discriminate].
  destruct tx; try discriminate; destruct ty; simpl in H; inv_ok H; auto.
Qed.

Lemma inner_settled : forall rest ap ap' rest' n, settled (a_type ap) = true ->
  resolve_inner p ps ap rest = Ok (ap', rest', n) -> ap' = ap /\ rest' = rest /\ n = 0.
Proof.
  induction rest as [|nap r IH]; intros ap ap' rest' n H R; cbn [resolve_inner] in R; [inv_ok R; auto|].
  destruct (a_sp nap =? a_sp ap); [|inv_ok R; auto].
  apply bind_Ok in R as ([[ap1 nap1] n1] & R1 & R). apply bind_Ok in R as ([[ap2 r2] m] & R2 & R). inv_ok R.
  apply settled_same in R1 as (-> & -> & ->); auto. apply IH in R2 as (-> & -> & ->); auto.
Qed.

Definition diff_head (s : nat) (l : list action) : Prop := match l with [] => True | a :: _ => a_sp a <> s end.

Lemma inner_live : forall grp ap rest ap' rest' n, live ap = true ->
  (forall b, In b grp -> live b = true /\ a_sp b = a_sp ap) -> diff_head (a_sp ap) rest ->
  resolve_inner p ps ap (grp ++ rest) = Ok (ap', rest', n) ->
  ap' = ap /\ n = length grp /\ exists grp', rest' = grp' ++ rest /\ length grp' = length grp /\
    forall b, In b grp' -> settled (a_type b) = true.
Proof.
  induction grp as [|b grp IH]; intros ap rest ap' rest' n LA G D R; simpl in R.
  - destruct rest as [|c rest]; cbn [resolve_inner] in R.
    + inv_ok R. repeat split; auto. exists []. simpl. intuition.
    + simpl in D. apply Nat.eqb_neq in D. rewrite D in R. inv_ok R. repeat split; auto. exists []. simpl. intuition.
  - destruct (G b (or_introl eq_refl)) as (LB & EB). rewrite EB, Nat.eqb_refl in R.
    apply bind_Ok in R as ([[ap1 nap1] n1] & R1 & R). apply bind_Ok in R as ([[ap2 r2] m] & R2 & R). inv_ok R.
    apply noprec_live in R1 as (-> & ST & ->); auto.
    apply IH in R2 as (-> & -> & grp' & -> & L & SS); auto.
    2: { intros c Hc. apply G. right; auto. }
    split; auto. split; [reflexivity|]. exists (nap1 :: grp'). split; [reflexivity|]. split; [simpl; auto|].
    intros c [<-|Hc]; auto.
Qed.

Lemma list_settled : forall grp rest f l' n, (forall b, In b grp -> settled (a_type b) = true) ->
  resolve_list (length grp + f) p ps (grp ++ rest) = Ok (l', n) ->
  exists rest', resolve_list f p ps rest = Ok (rest', n).
Proof.
  induction grp as [|b grp IH]; intros rest f l' n G R; [eauto|].
  cbn [length app Nat.add resolve_list] in R.
  apply bind_Ok in R as ([[ap1 rest1] n1] & R1 & R). apply bind_Ok in R as ([rest2 m] & R2 & R). inv_ok R.
  apply inner_settled in R1 as (-> & -> & ->); [|apply G; left; auto].
  apply IH in R2 as (rest' & R2); [exists rest'; exact R2|]. intros c Hc. apply G. right; auto.
Qed.

Definition nsyms (l : list action) : nat := length (nodup Nat.eq_dec (map a_sp l)).

Lemma nodup_In_absorb : forall a l rest, (forall x, In x l -> x = a) -> ~ In a rest ->
  length (nodup Nat.eq_dec ((a :: l) ++ rest)) = S (length (nodup Nat.eq_dec rest)).
Proof.
  intros a l. induction l as [|b l IH]; intros rest H N; simpl.
  - destruct (in_dec Nat.eq_dec a rest); [contradiction|reflexivity].
  - destruct (Nat.eq_dec b a) as [->|Nb]; [|destruct (Nb (H b (or_introl eq_refl)))].
    change (length (nodup Nat.eq_dec ((a :: l) ++ rest)) = S (length (nodup Nat.eq_dec rest))).
    apply IH; auto. intros x Hx. apply H. right; auto.
Qed.

Lemma span_sp : forall s l, sp_sorted l -> Forall (fun a => s <= a_sp a) l ->
  exists grp rest, l = grp ++ rest /\ (forall b, In b grp -> a_sp b = s) /\ Forall (fun a => s < a_sp a) rest.
Proof.
  intros s l. induction l as [|a l IH]; intros SS F.
  - exists [], []. simpl. intuition.
  - apply StronglySorted_inv in SS as (S1 & F1). inversion F; subst.
    destruct (Nat.eq_dec (a_sp a) s) as [E|E].
    + destruct (IH S1) as (grp & rest & -> & G & R). { auto. }
      exists (a :: grp), rest. split; [reflexivity|]. split; auto. intros b [<-|Hb]; auto.
    + exists [], (a :: l). split; [reflexivity|]. split; [intros b []|]. constructor; [lia|].
      eapply Forall_impl; [|exact F1]. simpl. intros b Hb. lia.
Qed.

Lemma resolve_list_count : forall m l f l' n, length l <= m -> length l <= f -> sp_sorted l -> (forall a, In a l -> live a = true) ->
  resolve_list f p ps l = Ok (l', n) -> n + nsyms l = length l.
Proof.
  induction m as [|m IH]; intros [|a l] f l' n Hm Hf SS LV R; simpl in Hm; try lia;
    try (destruct f; inv_ok R; reflexivity).
  destruct f as [|f]; [simpl in Hf; lia|].
  pose proof SS as SS'. apply StronglySorted_inv in SS' as (S1 & F1).
  destruct (span_sp (a_sp a) l S1 F1) as (grp & rest & -> & G & FR).
  cbn [resolve_list] in R.
  apply bind_Ok in R as ([[ap1 rest1] n1] & R1 & R). apply bind_Ok in R as ([rest2 k] & R2 & R). inv_ok R.
  apply inner_live in R1 as (-> & -> & grp' & -> & L & ST).
  2: { apply LV. left; auto. }
  2: { intros b Hb. split; [apply LV; right; apply in_or_app; auto|auto]. }
  2: { destruct rest; simpl; auto. inversion FR; subst. lia. }
  simpl in Hf. rewrite app_length in Hf.
  assert (Ef : exists f', f = length grp' + f' /\ length rest <= f') by (exists (f - length grp'); lia).
  destruct Ef as (f' & -> & Hf'). apply list_settled in R2 as (rest' & R2); auto.
  apply IH in R2; auto.
  - unfold nsyms in *. cbn [map]. rewrite map_app.
    change (a_sp a :: map a_sp grp ++ map a_sp rest) with ((a_sp a :: map a_sp grp) ++ map a_sp rest).
    rewrite nodup_In_absorb.
    + simpl. rewrite app_length. lia.
    + intros x Hx. apply in_map_iff in Hx as (b & <- & Hb). auto.
    + intros Hx. apply in_map_iff in Hx as (b & E & Hb). rewrite Forall_forall in FR. specialize (FR b Hb). lia.
  - rewrite app_length in Hm. lia.
  - clear - S1. induction grp; simpl in *; auto. apply IHgrp. apply StronglySorted_inv in S1. apply S1.
  - intros b Hb. apply LV. right. apply in_or_app. auto.
Qed.

End NoPrec.

(** * Groups of actions on one symbol are resolved independently *)

Lemma resolve_inner_app : forall p ps grp ap rest, (forall b, In b grp -> a_sp b = a_sp ap) -> diff_head (a_sp ap) rest ->
  resolve_inner p ps ap (grp ++ rest) =
  bind (resolve_inner p ps ap grp) (fun r => Ok (fst (fst r), snd (fst r) ++ rest, snd r)).
Proof.
  intros p ps. induction grp as [|b grp IH]; intros ap rest G D.
  - destruct rest as [|c rest]; cbn [app resolve_inner bind]; [reflexivity|].
    simpl in D. apply Nat.eqb_neq in D. rewrite D. reflexivity.
  - cbn [app resolve_inner]. rewrite (G b (or_introl eq_refl)), Nat.eqb_refl.
    destruct (resolve_conflict p ps ap b) as [[[ap1 nap1] n]| |] eqn:E; cbn [bind]; try reflexivity.
    apply resolve_conflict_relabel in E as (_ & A & _). rewrite IH.
    + destruct (resolve_inner p ps ap1 grp) as [[[ap2 r2] m]| |]; reflexivity.
    + intros c Hc. destruct A as (-> & _). apply G. right; auto.
    + destruct A as (-> & _). exact D.
Qed.

Lemma resolve_list_fuel : forall f f' p ps l, length l <= f -> length l <= f' -> resolve_list f p ps l = resolve_list f' p ps l.
Proof.
  induction f as [|f IH]; intros f' p ps [|a l] H H'; simpl in H; try lia; destruct f' as [|f']; simpl in H'; try lia; try reflexivity.
  cbn [resolve_list]. destruct (resolve_inner p ps a l) as [[[ap1 rest1] n]| |] eqn:E; cbn [bind]; try reflexivity.
  apply resolve_inner_length in E. rewrite (IH f') by lia. reflexivity.
Qed.

Lemma resolve_list_app : forall p ps m grp rest s f, length grp <= m -> (forall b, In b grp -> a_sp b = s) -> diff_head s rest ->
  length (grp ++ rest) <= f ->
  resolve_list f p ps (grp ++ rest) =
  bind (resolve_list f p ps grp) (fun r => bind (resolve_list f p ps rest) (fun r' => Ok (fst r ++ fst r', snd r + snd r'))).
Proof.
  intros p ps. induction m as [|m IH]; intros [|a grp] rest s f Hm G D Hf; simpl in Hm; try lia.
  1, 2: assert (E0 : resolve_list f p ps [] = Ok ([], 0)) by (destruct f; reflexivity);
    rewrite E0; cbn [app bind]; destruct (resolve_list f p ps rest) as [[? ?]| |]; reflexivity.
  simpl in Hf. destruct f as [|f]; [lia|]. rewrite app_length in Hf.
  remember (resolve_list (S f) p ps rest) as RR eqn:ERR.
  cbn [app resolve_list]. rewrite resolve_inner_app.
  2: { intros b Hb. rewrite (G a), (G b); simpl; auto. }
  2: { rewrite (G a) by (left; auto). exact D. }
  destruct (resolve_inner p ps a grp) as [[[ap1 grp1] n]| |] eqn:E; cbn [bind fst snd]; try reflexivity.
  apply resolve_inner_relabel in E as (_ & FR). pose proof (Forall2_len _ _ _ _ _ FR) as LG.
  rewrite (IH grp1 rest s f); try lia.
  - destruct (resolve_list f p ps grp1) as [[g2 k]| |]; cbn [bind fst snd]; try reflexivity.
    rewrite (resolve_list_fuel f (S f) p ps rest) by lia. rewrite <- ERR.
    destruct RR as [[r2 j]| |]; cbn [bind fst snd]; try reflexivity.
    rewrite Nat.add_assoc. reflexivity.
  - clear - FR G. intros b Hb. assert (exists a0, In a0 grp /\ relabel a0 b) as (a0 & Ha & (E & _)).
    { clear G. induction FR; [destruct Hb|]. destruct Hb as [<-|Hb]; [eexists; split; [left; reflexivity|auto]|].
      destruct (IHFR Hb) as (c & Hc & Rc). exists c. split; [right|]; auto. }
    rewrite E. apply G. right; auto.
  - exact D.
  - rewrite app_length. lia.
Qed.

(** Inversion of the loop over states. *)
Lemma resolve_states_inv : forall addr p ps aps q aps1 n, resolve_states addr p ps q aps = Ok (aps1, n) ->
  exists ns, length ns = length aps /\ length aps1 = length aps /\ n = list_sum ns /\
  forall k ap, nth_error aps k = Some ap -> exists ap1 m, nth_error aps1 k = Some ap1 /\ nth_error ns k = Some m /\
    resolve_list (length ap) p ps (Action_sort (addr (q + k)) ap) = Ok (ap1, m).
Proof.
  intros addr p ps. induction aps as [|ap aps IH]; intros q aps1 n H; cbn [resolve_states] in H.
  - inv_ok H. exists []. simpl. repeat split; auto. intros [|k] ap H; discriminate.
  - apply bind_Ok in H as ([ap1 m] & H1 & H). apply bind_Ok in H as ([r1 k] & H2 & H). inv_ok H.
    apply IH in H2 as (ns & L1 & L2 & -> & P). exists (m :: ns). simpl. repeat split; auto.
    intros [|j] bp Hj; simpl in *.
    + inv_ok Hj. exists ap1, m. rewrite Nat.add_0_r. auto.
    + rewrite Nat.add_succ_r. apply P. auto.
Qed.

Lemma resolve_states_ok : forall addr p ps aps q,
  (forall k ap, nth_error aps k = Some ap -> exists ap1 m, resolve_list (length ap) p ps (Action_sort (addr (q + k)) ap) = Ok (ap1, m)) ->
  exists aps1 n, resolve_states addr p ps q aps = Ok (aps1, n).
Proof.
  intros addr p ps. induction aps as [|ap aps IH]; intros q H; cbn [resolve_states]; [eauto|].
  destruct (H 0 ap eq_refl) as (ap1 & m & E). rewrite Nat.add_0_r in E. rewrite E. cbn [bind].
  destruct (IH (S q)) as (r1 & k & E2).
  - intros k bp Hk. specialize (H (S k) bp Hk). rewrite Nat.add_succ_r in H. exact H.
  - rewrite E2. cbn [bind]. eauto.
Qed.

Lemma Action_sort_length : forall addr l, (N.of_nat (length l) < 2 ^ 30)%N -> length (Action_sort addr l) = length l.
Proof. intros. apply Permutation_length, Action_sort_perm; auto. Qed.

Lemma resolve_list_split : forall p ps m a b f, length a <= m -> sp_sorted (a ++ b) ->
  (forall x y, In x a -> In y b -> a_sp x <> a_sp y) -> length (a ++ b) <= f ->
  resolve_list f p ps (a ++ b) =
  bind (resolve_list f p ps a) (fun r => bind (resolve_list f p ps b) (fun r' => Ok (fst r ++ fst r', snd r + snd r'))).
Proof.
  intros p ps. induction m as [|m IH]; intros [|x a] b f Hm SS D Hf; simpl in Hm; try lia.
  1, 2: assert (E0 : resolve_list f p ps [] = Ok ([], 0)) by (destruct f; reflexivity);
    rewrite E0; cbn [app bind]; destruct (resolve_list f p ps b) as [[? ?]| |]; reflexivity.
  assert (SA : sp_sorted a /\ Forall (fun c => a_sp x <= a_sp c) a /\ sp_sorted (a ++ b) /\ Forall (fun c => a_sp x <= a_sp c) (a ++ b)).
  { apply StronglySorted_inv in SS as (S1 & F1). fold (app a b) in S1, F1. repeat split; auto.
    - clear - S1. induction a; [constructor|]. simpl in S1. apply StronglySorted_inv in S1 as (S2 & F2). constructor; auto.
      + apply IHa. auto.
      + apply Forall_app in F2. apply F2.
    - apply Forall_app in F1. apply F1. }
  destruct SA as (S1 & F1 & S2 & F2).
  destruct (span_sp (a_sp x) a S1 F1) as (grp & rest & -> & G & FR).
  change ((x :: grp ++ rest) ++ b) with (((x :: grp) ++ rest) ++ b) in *.
  change (x :: grp ++ rest) with ((x :: grp) ++ rest).
  assert (GX : forall c, In c (x :: grp) -> a_sp c = a_sp x) by (intros c [<-|Hc]; auto).
  rewrite <- app_assoc. rewrite <- app_assoc in S2, F2.
  rewrite !app_length in Hf. simpl in Hf. rewrite app_length in Hm.
  rewrite (resolve_list_app p ps (length (x :: grp)) (x :: grp) (rest ++ b) (a_sp x) f); auto.
  2: { destruct rest as [|c rest]; simpl.
       - destruct b as [|c b]; simpl; auto. intros E. apply (D x c); simpl; auto.
       - inversion FR; subst. lia. }
  2: { rewrite !app_length. simpl. lia. }
  rewrite (resolve_list_app p ps (length (x :: grp)) (x :: grp) rest (a_sp x) f); auto.
  2: { destruct rest as [|c rest]; simpl; auto. inversion FR; subst. lia. }
  2: { rewrite app_length. simpl. lia. }
  rewrite (IH rest b f).
  - destruct (resolve_list f p ps (x :: grp)) as [[g1 k1]| |]; cbn [bind fst snd]; try reflexivity.
    destruct (resolve_list f p ps rest) as [[g2 k2]| |]; cbn [bind fst snd]; try reflexivity.
    destruct (resolve_list f p ps b) as [[g3 k3]| |]; cbn [bind fst snd]; try reflexivity.
    rewrite app_assoc, Nat.add_assoc. reflexivity.
  - lia.
  - clear - S2. induction grp; simpl in *; auto. apply IHgrp. apply StronglySorted_inv in S2. apply S2.
  - intros c y Hc Hy. apply D; auto. right. apply in_or_app. auto.
  - rewrite app_length. lia.
Qed.

Definition on_sym (s : nat) (a : action) : bool := a_sp a =? s.

Lemma sorted_split3 : forall s l, sp_sorted l -> exists a b, l = a ++ filter (on_sym s) l ++ b /\
  (forall x, In x a -> a_sp x < s) /\ (forall x, In x b -> s < a_sp x).
Proof.
  intros s l. induction l as [|x l IH]; intros SS.
  - exists [], []. simpl. intuition.
  - apply StronglySorted_inv in SS as (S1 & F1). destruct (IH S1) as (a & b & E & A & B).
    assert (FX : filter (on_sym s) (x :: l) = if a_sp x =? s then x :: filter (on_sym s) l else filter (on_sym s) l) by reflexivity.
    rewrite FX. clear FX.
    destruct (Nat.eqb_spec (a_sp x) s) as [Ex|Ex].
    + exists [], b. simpl. split.
      * assert (a = []) as ->. { destruct a as [|y a]; auto. exfalso. rewrite E in F1. inversion F1; subst. specialize (A y (or_introl eq_refl)). lia. }
        f_equal. exact E.
      * split; [intros y []|auto].
    + destruct (Nat.lt_ge_cases (a_sp x) s) as [Lt|Ge].
      * exists (x :: a), b. simpl. split; [f_equal; exact E|]. split; auto. intros y [<-|Hy]; auto.
      * exists [], (x :: l). simpl.
        assert (NF : filter (on_sym s) l = []).
        { clear - F1 Ex Ge. induction l as [|y l IHl]; simpl; auto. inversion F1; subst. unfold on_sym at 1.
          destruct (Nat.eqb_spec (a_sp y) s); [lia|auto]. }
        rewrite NF. simpl. split; auto. split; [intros y []|]. rewrite Forall_forall in F1.
        intros y [<-|Hy]; [lia|]. specialize (F1 y Hy). lia.
Qed.

Lemma filter_none : forall s l, (forall x, In x l -> a_sp x <> s) -> filter (on_sym s) l = [].
Proof.
  intros s. induction l as [|y l IH]; intros H; simpl; auto. unfold on_sym at 1. destruct (Nat.eqb_spec (a_sp y) s) as [E|E].
  - destruct (H y (or_introl eq_refl) E).
  - apply IH. intros x Hx. apply H. right; auto.
Qed.

Lemma filter_all : forall s l, (forall x, In x l -> a_sp x = s) -> filter (on_sym s) l = l.
Proof.
  intros s. induction l as [|y l IH]; intros H; simpl; auto. unfold on_sym at 1. rewrite (H y (or_introl eq_refl)), Nat.eqb_refl.
  f_equal. apply IH. intros x Hx. apply H. right; auto.
Qed.

Lemma Forall2_relabel_In : forall l l' b', Forall2 relabel l l' -> In b' l' -> exists b, In b l /\ relabel b b'.
Proof.
  intros l l' b' H. induction H as [|a c l l' R F IH]; intros Hb; [destruct Hb|].
  destruct Hb as [<-|Hb]; [exists a; simpl; auto|]. destruct (IH Hb) as (b & Hb1 & Hb2). exists b. simpl; auto.
Qed.

(** Resolution restricted to one symbol. *)
Lemma resolve_list_on_sym : forall p ps s l f l' n, sp_sorted l -> length l <= f ->
  resolve_list f p ps l = Ok (l', n) ->
  exists c n', resolve_list f p ps (filter (on_sym s) l) = Ok (filter (on_sym s) l', c) /\ n = c + n'.
Proof.
  intros p ps s l f l' n SS Hf R. destruct (sorted_split3 s l SS) as (a & b & E & A & B).
  set (m := filter (on_sym s) l) in *.
  assert (M : forall x, In x m -> a_sp x = s). { intros x Hx. apply filter_In in Hx as (_ & Hx). now apply Nat.eqb_eq in Hx. }
  clearbody m. subst l.
  rewrite (resolve_list_split p ps (length a) a (m ++ b) f) in R; auto.
  2: { intros x y Hx Hy. apply A in Hx. apply in_app_or in Hy as [Hy|Hy]; [apply M in Hy|apply B in Hy]; lia. }
  apply bind_Ok in R as ([a' na] & Ra & R). apply bind_Ok in R as ([mb' nb] & Rb & R). cbn [fst snd] in R. inv_ok R.
  rewrite (resolve_list_split p ps (length m) m b f) in Rb; auto.
  2: { clear - SS. induction a; simpl in *; auto. apply IHa. apply StronglySorted_inv in SS. apply SS. }
  2: { intros x y Hx Hy. apply M in Hx. apply B in Hy. lia. }
  2: { rewrite app_length in Hf. lia. }
  apply bind_Ok in Rb as ([m' nm] & Rm & R). apply bind_Ok in R as ([b' nb'] & Rb & R). cbn [fst snd] in R. inv_ok R.
  exists nm, (na + nb'). split; [|lia]. rewrite Rm. f_equal. f_equal.
  apply resolve_list_relabel in Ra, Rm, Rb. rewrite !filter_app, (filter_none s a'), (filter_none s b'), (filter_all s m'); auto.
  - rewrite app_nil_r. reflexivity.
  - intros x Hx. destruct (Forall2_relabel_In _ _ _ Rm Hx) as (y & Hy & (-> & _)). auto.
  - intros x Hx. destruct (Forall2_relabel_In _ _ _ Rb Hx) as (y & Hy & (-> & _)). apply B in Hy. lia.
  - intros x Hx. destruct (Forall2_relabel_In _ _ _ Ra Hx) as (y & Hy & (-> & _)). apply A in Hy. lia.
Qed.

Lemma Permutation_filter : forall (f : action -> bool) l l', Permutation l l' -> Permutation (filter f l) (filter f l').
Proof.
  intros f l l' P. induction P; simpl; auto.
  - destruct (f x); auto.
  - destruct (f x), (f y); auto. constructor.
  - eapply Permutation_trans; eauto.
Qed.

Lemma sorted_filter : forall f l, StronglySorted act_le l -> StronglySorted act_le (filter f l).
Proof.
  intros f l H. induction H as [|a l S1 IH F]; simpl; [constructor|]. destruct (f a); auto. constructor; auto.
  rewrite Forall_forall in *. intros x Hx. apply filter_In in Hx as (Hx & _). auto.
Qed.

Lemma filter_len : forall (A : Type) (f : A -> bool) l, length (filter f l) <= length l.
Proof. induction l as [|a l IH]; simpl; auto. destruct (f a); simpl; lia. Qed.
Arguments filter_len {A} f l.
