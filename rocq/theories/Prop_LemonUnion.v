(** C63: the members of the union of semantic values, and which of them every symbol uses. *)
From Coq Require Import List Arith ZArith Bool Lia String.
Import ListNotations.
From Verif Require Import Base LemonPreModel LemonPrintfModel LemonCodeModel SpecCode LemonEmitModel.
Open Scope res_scope.

(** * Types without the space around them *)

Definition blank (t : txt) : Prop := Forall (fun c => isspace c = true) t.

(** [u] is [t] without leading and trailing space. *)
Definition stripped (t u : txt) : Prop :=
  exists a b, t = a ++ u ++ b /\ blank a /\ blank b /\
    (forall c r, u = c :: r -> isspace c = false) /\ (forall c r, u = r ++ [c] -> isspace c = false).

Lemma skip_space_ok : forall t, exists a, t = a ++ skip_space t /\ blank a /\ (forall c r, skip_space t = c :: r -> isspace c = false).
Proof.
  induction t as [|c t (a & E & B & H)]; cbn [skip_space]; [exists []; repeat split; [constructor|discriminate]|].
  destruct (isspace c) eqn:SP.
  - exists (c :: a). split; [cbn; now rewrite <- E|]. split; [now constructor|exact H].
  - exists []. split; [reflexivity|]. split; [constructor|]. intros d r [= <- <-]. exact SP.
Qed.

Theorem stdtype_stripped : forall t, stripped t (stdtype t).
Proof.
  intros t. unfold stdtype. destruct (skip_space_ok t) as (a & E & BA & HA). set (u := skip_space t) in *.
  destruct (skip_space_ok (rev u)) as (b & E2 & BB & HB). set (v := skip_space (rev u)) in *.
  assert (EU : u = rev v ++ rev b). { rewrite <- rev_app_distr, <- E2. now rewrite rev_involutive. }
  exists a, (rev b). split; [rewrite <- EU; exact E|]. split; [exact BA|]. split; [now apply Forall_rev|]. split.
  - intros c r EV. apply (HA c (r ++ rev b)). rewrite EU, EV. reflexivity.
  - intros c r EV. apply (HB c (rev r)). apply (f_equal (@rev Z)) in EV. rewrite rev_involutive, rev_app_distr in EV. exact EV.
Qed.

Lemma stripped_unique : forall t u v, stripped t u -> stripped t v -> u = v.
Proof.
  assert (PRE : forall a u a' u' : txt, a ++ u = a' ++ u' -> blank a -> blank a' -> (forall c r, u = c :: r -> isspace c = false) -> (forall c r, u' = c :: r -> isspace c = false) ->
     a = a' \/ u = [] \/ u' = []).
  { induction a as [|c a IH]; intros u [|d a'] u' E B B' H H'.
    - now left.
    - right; left. cbn in E. destruct u as [|e u]; [reflexivity|]. injection E as -> _. inversion B'; subst. specialize (H d u eq_refl). congruence.
    - right; right. cbn in E. destruct u' as [|e u']; [reflexivity|]. injection E as -> _. inversion B; subst. specialize (H' e u' eq_refl). congruence.
    - injection E as -> E. inversion B; inversion B'; subst. destruct (IH u a' u' E) as [->|[K|K]]; auto. }
  assert (NB : forall a u b, blank (a ++ u ++ b) -> (forall c r, u = c :: r -> isspace c = false) -> u = []).
  { intros a [|c u] b H1 H2; [reflexivity|]. exfalso. apply Forall_app in H1 as (_ & H1). inversion H1; subst. specialize (H2 c u eq_refl). congruence. }
  intros t u v (a & b & E & BA & BB & H1 & H2) (a' & b' & E' & BA' & BB' & H1' & H2').
  destruct u as [|c u].
  { symmetry. apply (NB a' v b'); [|exact H1']. rewrite <- E', E. apply Forall_app. split; assumption. }
  destruct v as [|d v].
  { apply (NB a (c :: u) b); [|exact H1]. rewrite <- E, E'. apply Forall_app. split; assumption. }
  rewrite E in E'. pose proof E' as EX. apply PRE in E' as [->|[K|K]]; try assumption; try discriminate.
  2:{ intros e r [= <- <-]. now apply (H1 c u). } 2:{ intros e r [= <- <-]. now apply (H1' d v). }
  apply app_inv_head in EX. apply (f_equal (@rev Z)) in EX. rewrite !rev_app_distr in EX.
  assert (R : forall w c r, rev (w : txt) = c :: r -> w = rev r ++ [c]). { intros w e r K. apply (f_equal (@rev Z)) in K. rewrite rev_involutive in K. exact K. }
  pose proof EX as EY. apply PRE in EX as [EB|[K|K]].
  - rewrite EB in EY. apply app_inv_head in EY. apply (f_equal (@rev Z)) in EY. rewrite !rev_involutive in EY. exact EY.
  - apply (f_equal (@rev Z)) in K. rewrite rev_involutive in K. discriminate K.
  - apply (f_equal (@rev Z)) in K. rewrite rev_involutive in K. discriminate K.
  - now apply Forall_rev.
  - now apply Forall_rev.
  - intros e r K. exact (H2 e (rev r) (R _ _ _ K)).
  - intros e r K. exact (H2' e (rev r) (R _ _ _ K)).
Qed.

(** * The search in types[] *)

Lemma teqb_ok : forall a b, teqb a b = true <-> a = b.
Proof.
  induction a as [|x a IH]; intros [|y b]; cbn [teqb]; split; intros H; try reflexivity; try discriminate H.
  - apply andb_true_iff in H as (H1 & H2). apply Z.eqb_eq in H1. apply IH in H2. now subst.
  - injection H as -> ->. rewrite Z.eqb_refl. now apply IH.
Qed.

Definition next_slot (n h : nat) : nat := if n <=? S h then 0 else S h.

Lemma probe_S : forall f types t h, type_probe (S f) types t h =
  match nth_error types h with None => Bad | Some None => Ok h | Some (Some u) => if teqb u t then Ok h else type_probe f types t (next_slot (List.length types) h) end.
Proof. reflexivity. Qed.

(** What the search finds: the text or a free place. *)
Lemma probe_found : forall f types t h p, type_probe f types t h = Ok p -> nth_error types p = Some None \/ nth_error types p = Some (Some t).
Proof.
  induction f as [|f IH]; intros types t h p H; [discriminate H|]. rewrite probe_S in H. destruct (nth_error types h) as [[u|]|] eqn:E; [|injection H as <-; now left|discriminate H].
  destruct (teqb u t) eqn:T; [|exact (IH _ _ _ _ H)]. apply teqb_ok in T as ->. injection H as <-. now right.
Qed.

(** Filling a free place does not change what is found. *)
Lemma probe_stable : forall f types t h p q u, type_probe f types t h = Ok p -> nth_error types p = Some (Some t) -> nth_error types q = Some None ->
  type_probe f (upd types q (Some u)) t h = Ok p.
Proof.
  induction f as [|f IH]; intros types t h p q u H P Q; [discriminate H|]. rewrite probe_S in H |- *. rewrite upd_length. destruct (nth_error types h) as [[v|]|] eqn:E; [| |discriminate H].
  - assert (N : q <> h) by (intros ->; congruence). rewrite nth_error_upd_ne by exact N. rewrite E. destruct (teqb v t); [exact H|]. now apply IH.
  - injection H as <-. congruence.
Qed.

(** With a free place the search ends. *)
Definition dist (n h q : nat) : nat := if h <=? q then q - h else n - h + q.

Lemma probe_ends : forall f types t h q, h < List.length types -> nth_error types q = Some None -> dist (List.length types) h q < f -> exists p, type_probe f types t h = Ok p.
Proof.
  induction f as [|f IH]; intros types t h q H Q D; [lia|]. rewrite probe_S. destruct (nth_error types h) as [[u|]|] eqn:E.
  - destruct (teqb u t); [now exists h|]. assert (QL : q < List.length types) by (apply nth_error_Some; congruence). assert (NE : h <> q) by (intros ->; congruence).
    apply (IH types t _ q); [unfold next_slot; destruct (_ <=? S h) eqn:L; [lia|apply leb_complete_conv in L; lia]|exact Q|].
    unfold dist, next_slot in *. destruct (List.length types <=? S h) eqn:L; [apply leb_complete in L|apply leb_complete_conv in L].
    + destruct (h <=? q) eqn:K; [apply leb_complete in K; lia|]. cbn. lia.
    + destruct (h <=? q) eqn:K; [apply leb_complete in K|apply leb_complete_conv in K]; destruct (S h <=? q) eqn:K2; [apply leb_complete in K2|apply leb_complete_conv in K2|apply leb_complete in K2|apply leb_complete_conv in K2]; lia.
  - now exists h.
  - apply nth_error_None in E. lia.
Qed.

Lemma hash_range : forall t n, 0 < n -> type_hash t n < n.
Proof. intros t n H. unfold type_hash. pose proof (Z.mod_pos_bound (fold_left (fun h c => ((h * 53 + c) mod 2 ^ 32)%Z) t 0%Z mod 2 ^ 31) (Z.of_nat n) ltac:(lia)). lia. Qed.

(** * The table *)

Definition used_slots (types : list (option txt)) : nat := List.length (filter (fun o => match o with Some _ => true | None => false end) types).

Lemma used_upd : forall types q u, used_slots (upd types q (Some u)) <= S (used_slots types).
Proof.
  unfold used_slots. induction types as [|[v|] r IH]; intros [|q] u; cbn; try lia; specialize (IH q u); lia.
Qed.

Lemma free_slot : forall types, used_slots types < List.length types -> exists q, nth_error types q = Some None.
Proof.
  unfold used_slots. induction types as [|[v|] r IH]; cbn; intros H; [lia| |now exists 0]. destruct IH as (q & Q); [lia|]. now exists (S q).
Qed.

Definition table_ok (types : list (option txt)) : Prop :=
  forall p t, nth_error types p = Some (Some t) -> type_probe (S (List.length types)) types t (type_hash t (List.length types)) = Ok p.

Lemma probe_upd_hit : forall f types t h p, type_probe f types t h = Ok p -> nth_error types p = Some None -> type_probe f (upd types p (Some t)) t h = Ok p.
Proof.
  induction f as [|f IH]; intros types t h p H P; [discriminate H|]. rewrite probe_S in H |- *. rewrite upd_length. destruct (nth_error types h) as [[v|]|] eqn:E; [| |discriminate H].
  - assert (N : p <> h) by (intros ->; congruence). rewrite nth_error_upd_ne by exact N. rewrite E. destruct (teqb v t) eqn:T; [injection H as <-; congruence|]. now apply IH.
  - injection H as <-. rewrite nth_error_upd_eq by (apply nth_error_Some; congruence). rewrite (proj2 (teqb_ok t t) eq_refl). reflexivity.
Qed.

(** The type a symbol has in the union, if it has one of its own there. *)
Definition value_type (vartype : option txt) (s : usym) : option txt :=
  if us_err s then None else if us_nt s then match us_type s with Some t => Some t | None => vartype end else None.

Definition own_type (tokentype vartype : option txt) (s : usym) : option txt :=
  match value_type vartype s with
  | Some t => if match tokentype with Some k => teqb (stdtype t) k | None => false end then None else Some (stdtype t)
  | None => None
  end.

Definition grows (types types' : list (option txt)) : Prop := List.length types' = List.length types /\ forall p t, nth_error types p = Some (Some t) -> nth_error types' p = Some (Some t).

Lemma grows_trans : forall a b c, grows a b -> grows b c -> grows a c.
Proof. intros a b c (L1 & H1) (L2 & H2). split; [congruence|]. intros p t H. now apply H2, H1. Qed.

Lemma step_ok : forall tk vt room s types, table_ok types -> used_slots types < List.length types ->
  (forall t, value_type vt s = Some t -> List.length t < room) ->
  exists d types', union_step tk vt room s types = Ok (d, types') /\ table_ok types' /\ grows types types' /\ used_slots types' <= S (used_slots types) /\
    (forall p t, nth_error types' p = Some (Some t) -> nth_error types p = Some (Some t) \/ own_type tk vt s = Some t) /\
    match own_type tk vt s with
    | Some t => 0 < d /\ nth_error types' (d - 1) = Some (Some t)
    | None => d = if us_err s then S (List.length types) else 0
    end.
Proof.
  intros tk vt room s types TO FR RM. unfold union_step, own_type, value_type in *. destruct (us_err s).
  { exists (S (List.length types)), types. repeat split; auto. }
  destruct (if us_nt s then match us_type s with Some t => Some t | None => vt end else None) as [cp|].
  2:{ exists 0, types. repeat split; auto. }
  assert (L : List.length (skip_space cp) < room). { specialize (RM cp eq_refl). destruct (skip_space_ok cp) as (a & E & _). apply (f_equal (@List.length Z)) in E. rewrite app_length in E. lia. }
  apply leb_correct_conv in L. rewrite L. destruct (match tk with Some k => teqb (stdtype cp) k | None => false end).
  { exists 0, types. repeat split; auto. }
  set (t := stdtype cp). destruct (free_slot _ FR) as (q & Q).
  assert (N0 : 0 < List.length types) by lia.
  destruct (probe_ends (S (List.length types)) types t (type_hash t (List.length types)) q) as (p & P).
  { now apply hash_range. } { exact Q. }
  { pose proof (hash_range t _ N0). assert (q < List.length types) by (apply nth_error_Some; congruence). unfold dist. destruct (_ <=? q) eqn:K; [apply leb_complete in K|apply leb_complete_conv in K]; lia. }
  rewrite P. cbn [bind]. exists (S p), (upd types p (Some t)). split; [reflexivity|].
  assert (PL : p < List.length types) by (destruct (probe_found _ _ _ _ _ P) as [K|K]; apply nth_error_Some; congruence).
  split; [|split; [|split; [|split; [|split]]]].
  - intros p' t' H. rewrite upd_length. destruct (probe_found _ _ _ _ _ P) as [K|K].
    + destruct (Nat.eq_dec p p') as [<-|N].
      * rewrite nth_error_upd_eq in H by exact PL. injection H as <-. now apply probe_upd_hit.
      * rewrite nth_error_upd_ne in H by exact N. apply probe_stable; [now apply TO|exact H|exact K].
    + rewrite (upd_same _ _ _ _ K) in *. now apply TO.
  - split; [now rewrite upd_length|]. intros p' t' H. destruct (Nat.eq_dec p p') as [<-|N]; [|now rewrite nth_error_upd_ne by exact N].
    rewrite nth_error_upd_eq by exact PL. destruct (probe_found _ _ _ _ _ P) as [K|K]; congruence.
  - apply used_upd.
  - intros p' t' H. destruct (Nat.eq_dec p p') as [<-|N]; [|rewrite nth_error_upd_ne in H by exact N; now left]. rewrite nth_error_upd_eq in H by exact PL. right. congruence.
  - lia.
  - cbn. rewrite Nat.sub_0_r. now apply nth_error_upd_eq.
Qed.

Lemma loop_ok : forall tk vt room syms types, table_ok types -> used_slots types + List.length syms < S (List.length types) ->
  (forall s t, In s syms -> value_type vt s = Some t -> List.length t < room) ->
  exists ds types', union_loop tk vt room syms types = Ok (ds, types') /\ table_ok types' /\ grows types types' /\
    (forall p t, nth_error types' p = Some (Some t) -> nth_error types p = Some (Some t) \/ exists s, In s syms /\ own_type tk vt s = Some t) /\
    Forall2 (fun s d => match own_type tk vt s with
      | Some t => 0 < d /\ nth_error types' (d - 1) = Some (Some t)
      | None => d = if us_err s then S (List.length types) else 0 end) syms ds.
Proof.
  induction syms as [|s r IH]; intros types TO FR RM.
  - exists [], types. split; [reflexivity|]. split; [exact TO|]. split; [split; auto|]. split; [auto|constructor].
  - cbn [List.length] in FR. destruct (step_ok tk vt room s types TO ltac:(lia) (fun t H => RM s t (or_introl eq_refl) H)) as (d & ty1 & E1 & TO1 & G1 & U1 & O1 & D1).
    destruct (IH ty1 TO1) as (ds & ty2 & E2 & TO2 & G2 & O2 & D2). { destruct G1 as (L1 & _). lia. } { intros s' t I. apply RM. now right. }
    exists (d :: ds), ty2. cbn [union_loop]. rewrite E1. cbn [bind fst snd]. rewrite E2. cbn [bind fst snd]. split; [reflexivity|]. split; [exact TO2|]. split; [exact (grows_trans _ _ _ G1 G2)|]. split.
    + intros p t H. destruct (O2 p t H) as [K|(s' & I & K)]; [|right; exists s'; split; [now right|exact K]]. destruct (O1 p t K) as [K'|K']; [now left|right; exists s; split; [now left|exact K']].
    + destruct G1 as (L1 & _). rewrite <- L1. constructor.
      * destruct (own_type tk vt s); [|destruct (us_err s); congruence]. destruct D1 as (D0 & D1). split; [exact D0|]. now apply G2.
      * exact D2.
Qed.

Lemma members_ok : forall types i d t, In (d, t) (union_members i types) <-> exists p, d = S (i + p) /\ nth_error types p = Some (Some t).
Proof.
  induction types as [|[u|] r IH]; intros i d t; cbn [union_members].
  - split; [intros []|]. intros (p & _ & H). destruct p; discriminate H.
  - cbn [In]. rewrite IH. split.
    + intros [[= <- <-]|(p & -> & H)]; [exists 0; split; [lia|reflexivity]|exists (S p); split; [lia|exact H]].
    + intros ([|p] & -> & H); [left; injection H as ->; f_equal; lia|right; exists p; split; [lia|exact H]].
  - rewrite IH. split; intros (p & E & H); [exists (S p); split; [lia|exact H]|]. destruct p as [|p]; [discriminate H|]. exists p. split; [lia|exact H].
Qed.

Lemma members_NoDup : forall types i, NoDup (map fst (union_members i types)).
Proof.
  induction types as [|[u|] r IH]; intros i; cbn [union_members map fst]; [constructor| |apply IH]. constructor; [|apply IH].
  intros H. apply in_map_iff in H as ((d & t) & E & H). apply members_ok in H as (p & -> & _). cbn in E. lia.
Qed.

Lemma fold_max_ge : forall syms m, m <= fold_left (fun m s => match us_type s with Some t => Nat.max m (List.length t) | None => m end) syms m.
Proof. induction syms as [|s r IH]; intros m; cbn [fold_left]; [lia|]. specialize (IH (match us_type s with Some t => Nat.max m (List.length t) | None => m end)). destruct (us_type s); lia. Qed.

Lemma fold_max_in : forall syms m s t, In s syms -> us_type s = Some t -> List.length t <= fold_left (fun m s => match us_type s with Some t => Nat.max m (List.length t) | None => m end) syms m.
Proof.
  induction syms as [|s0 r IH]; intros m s t I H; [destruct I|]. cbn [fold_left]. destruct I as [->|I]; [|now apply (IH _ s)]. rewrite H. pose proof (fold_max_ge r (Nat.max m (List.length t))). lia.
Qed.

Lemma F2_length : forall A B (R : A -> B -> Prop) l1 l2, Forall2 R l1 l2 -> List.length l1 = List.length l2.
Proof. intros A B R l1 l2 H. induction H; cbn; congruence. Qed.

(** * The theorems *)

(** What the declarations say about the value of a symbol: terminals and classes of terminals have the token type, the
    error symbol an int, a nonterminal the type of its %type or %default_type. *)
Inductive has_type (tokentype vartype : option txt) (s : usym) : option txt -> Prop :=
| ht_none : us_err s = false -> (us_nt s = false \/ us_type s = None /\ vartype = None) -> has_type tokentype vartype s None
| ht_own t u : us_err s = false -> us_nt s = true -> us_type s = Some t -> stripped t u -> has_type tokentype vartype s (Some u)
| ht_default t u : us_err s = false -> us_nt s = true -> us_type s = None -> vartype = Some t -> stripped t u -> has_type tokentype vartype s (Some u)
| ht_err : us_err s = true -> has_type tokentype vartype s (Some (zs "int")).

(** Member 0 of the union is the one of the token type.  print_stack_union always succeeds; the members have different
    numbers; every symbol uses the member of its type; no two members other than that of the error symbol have the same type. *)
Theorem C63_union : forall tk vt syms, exists ds ms, print_stack_union tk vt syms = Ok (ds, ms) /\
  List.length ds = List.length syms /\ NoDup (map fst ms) /\ (forall d t, In (d, t) ms -> 0 < d) /\
  (forall i s d u, nth_error syms i = Some s -> nth_error ds i = Some d -> has_type tk vt s u ->
     match u with
     | None => d = 0
     | Some u => if us_err s then In (d, u) ms else (d = 0 /\ tk = Some u) \/ In (d, u) ms
     end) /\
  (forall i s d, nth_error syms i = Some s -> nth_error ds i = Some d -> us_err s = false -> forall u, has_type tk vt s (Some u) -> (d = 0 <-> tk = Some u)) /\
  (forall d t, In (d, t) ms -> exists i s, nth_error syms i = Some s /\ nth_error ds i = Some d /\ has_type tk vt s (Some t)) /\
  (forall i j s s' d d' u, nth_error syms i = Some s -> nth_error ds i = Some d -> nth_error syms j = Some s' -> nth_error ds j = Some d' ->
     has_type tk vt s (Some u) -> has_type tk vt s' (Some u) -> (d = d' <-> us_err s = us_err s')).
Proof.
  intros tk vt syms. unfold print_stack_union. set (room := _ * 2 + 1).
  assert (RM : forall s t, In s syms -> value_type vt s = Some t -> List.length t < room).
  { intros s t I H. unfold value_type in H. destruct (us_err s); [discriminate H|]. destruct (us_nt s); [|discriminate H]. unfold room. destruct (us_type s) as [t'|] eqn:E.
    - injection H as ->. pose proof (fold_max_in syms (match vt with Some t => List.length t | None => 0 end) s t I E). lia.
    - rewrite H. pose proof (fold_max_ge syms (List.length t)). lia. }
  assert (RL : List.length (repeat (@None txt) (List.length syms * 2)) = List.length syms * 2) by apply repeat_length.
  assert (RN : forall p t, nth_error (repeat (@None txt) (List.length syms * 2)) p <> Some (Some t)). { intros p t H. apply nth_error_In, repeat_spec in H. discriminate H. }
  assert (RU : used_slots (repeat (@None txt) (List.length syms * 2)) = 0). { unfold used_slots. generalize (List.length syms * 2). induction n; [reflexivity|exact IHn]. }
  destruct (loop_ok tk vt room syms (repeat None (List.length syms * 2))) as (ds & types & E & TO & (GL & _) & OR & D).
  { intros p t H. now elim (RN p t). } { rewrite RU, RL. lia. } { exact RM. }
  rewrite E. cbn [bind fst snd]. set (ms := _ ++ _). exists ds, ms. split; [reflexivity|]. split; [symmetry; exact (F2_length _ _ _ _ _ D)|]. rewrite RL in *.
  assert (MM : forall d t, In (d, t) ms <-> (exists p, d = S p /\ nth_error types p = Some (Some t)) \/ (existsb us_err syms = true /\ d = S (List.length syms * 2) /\ t = zs "int")).
  { intros d t. unfold ms. rewrite in_app_iff, members_ok. cbn [plus]. split; (intros [H|H]; [left; exact H|right]).
    - destruct (existsb us_err syms); [|destruct H]. destruct H as [H|[]]. injection H as <- <-. now repeat split.
    - destruct H as (-> & -> & ->). now left. }
  assert (AT : forall i s d, nth_error syms i = Some s -> nth_error ds i = Some d -> match own_type tk vt s with Some t => 0 < d /\ nth_error types (d - 1) = Some (Some t) | None => d = if us_err s then S (List.length syms * 2) else 0 end).
  { clear - D. revert D. generalize (S (List.length syms * 2)) as N. intros N D i s d. revert i. induction D as [|s0 d0 l1 l2 H D IH]; intros [|i] H1 H2; try discriminate; cbn in H1, H2; [injection H1 as <-; injection H2 as <-; exact H|]. exact (IH i H1 H2). }
  assert (OW : forall s u, us_err s = false -> has_type tk vt s (Some u) -> tk = Some u /\ own_type tk vt s = None \/ tk <> Some u /\ own_type tk vt s = Some u).
  { intros s u ER H. unfold own_type, value_type. rewrite ER. inversion H; subst; try congruence.
    - rewrite H2, H3. pose proof (stripped_unique _ _ _ (stdtype_stripped t) H4) as ->. destruct tk as [k|]; [|right; split; [discriminate|reflexivity]]. destruct (teqb u k) eqn:T; [left; apply teqb_ok in T as ->; now split|right].
      split; [|reflexivity]. intros [= ->]. rewrite (proj2 (teqb_ok u u) eq_refl) in T. discriminate T.
    - rewrite H2, H3. pose proof (stripped_unique _ _ _ (stdtype_stripped t) H5) as ->. destruct tk as [k|]; [|right; split; [discriminate|reflexivity]]. destruct (teqb u k) eqn:T; [left; apply teqb_ok in T as ->; now split|right].
      split; [|reflexivity]. intros [= ->]. rewrite (proj2 (teqb_ok u u) eq_refl) in T. discriminate T. }
  split; [|split; [|split; [|split; [|split]]]].
  - unfold ms. rewrite map_app. destruct (existsb us_err syms); cbn [map fst]; [|rewrite app_nil_r; apply members_NoDup].
    apply NoDup_app_iff. split; [apply members_NoDup|]. split; [constructor; [intros []|constructor]|].
    intros x I [<-|[]]. apply in_map_iff in I as ((d & t) & EX & I). apply members_ok in I as (p & -> & H). cbn in EX. assert (p < List.length types) by (apply nth_error_Some; congruence). lia.
  - intros d t H. apply MM in H as [(p & -> & _)|(_ & -> & _)]; lia.
  - intros i s d u HS HD HT. pose proof (AT i s d HS HD) as A. destruct u as [u|].
    + destruct (us_err s) eqn:ER.
      * inversion HT; subst; try congruence. unfold own_type, value_type in A. try rewrite ER in A. subst d. apply MM. right. split; [|now split]. apply existsb_exists. exists s. split; [|exact ER]. exact (nth_error_In _ _ HS).
      * destruct (OW s u ER HT) as [(-> & O)|(N & O)]; rewrite O in A; [left; split; [exact A|reflexivity]|]. right. destruct A as (D0 & A). apply MM. left. exists (d - 1). split; [lia|exact A].
    + inversion HT; subst. unfold own_type, value_type in A. rewrite H in A. destruct H0 as [H0|(H0 & ->)]; rewrite H0 in A; [exact A|]. destruct (us_nt s); exact A.
  - intros i s d HS HD ER u HT. pose proof (AT i s d HS HD) as A. destruct (OW s u ER HT) as [(-> & O)|(N & O)]; rewrite O in A.
    + rewrite ER in A. subst d. split; reflexivity.
    + destruct A as (A & _). split; [lia|intros ->; congruence].
  - intros d t H. apply MM in H as [(p & -> & H)|(H & -> & ->)].
    + destruct (OR p t H) as [K|(s & I & K)]; [now elim (RN p t)|]. apply In_nth_error in I as (i & I).
      destruct (nth_error ds i) as [d|] eqn:DI. 2:{ apply nth_error_None in DI. rewrite <- (F2_length _ _ _ _ _ D) in DI. assert (i < List.length syms) by (apply nth_error_Some; congruence). lia. }
      pose proof (AT i s d I DI) as A. rewrite K in A. destruct A as (D0 & A). pose proof (TO _ _ A) as T1. rewrite (TO _ _ H) in T1. assert (d = S p) by (injection T1; lia). subst d.
      exists i, s. split; [exact I|]. split; [exact DI|]. unfold own_type, value_type in K. destruct (us_err s) eqn:ER; [discriminate K|]. destruct (us_nt s) eqn:NT; [|discriminate K]. destruct (us_type s) as [t0|] eqn:UT.
      * destruct (match tk with Some k => teqb (stdtype t0) k | None => false end); [discriminate K|]. injection K as <-. apply (ht_own _ _ _ t0); auto using stdtype_stripped.
      * destruct vt as [t0|] eqn:VT; [|discriminate K]. destruct (match tk with Some k => teqb (stdtype t0) k | None => false end); [discriminate K|]. injection K as <-. apply (ht_default _ _ _ t0); auto using stdtype_stripped.
    + apply existsb_exists in H as (s & I & ER). apply In_nth_error in I as (i & I). destruct (nth_error ds i) as [d|] eqn:DI. 2:{ apply nth_error_None in DI. rewrite <- (F2_length _ _ _ _ _ D) in DI. assert (i < List.length syms) by (apply nth_error_Some; congruence). lia. }
      pose proof (AT i s d I DI) as A. unfold own_type, value_type in A. rewrite ER in A. subst d. exists i, s. split; [exact I|]. split; [exact DI|]. now apply ht_err.
  - intros i j s s' d d' u S1 D1 S2 D2 T1 T2. pose proof (AT i s d S1 D1) as A1. pose proof (AT j s' d' S2 D2) as A2.
    assert (LE : forall s d, us_err s = false -> match own_type tk vt s with Some t => 0 < d /\ nth_error types (d - 1) = Some (Some t) | None => d = if us_err s then S (List.length syms * 2) else 0 end -> d <= List.length syms * 2).
    { intros s0 d0 ER A. destruct (own_type tk vt s0) as [t|]; [|rewrite ER in A; lia]. destruct A as (A0 & A). assert (d0 - 1 < List.length types) by (apply nth_error_Some; congruence). lia. }
    assert (GE : forall s d, us_err s = true -> match own_type tk vt s with Some t => 0 < d /\ nth_error types (d - 1) = Some (Some t) | None => d = if us_err s then S (List.length syms * 2) else 0 end -> d = S (List.length syms * 2)).
    { intros s0 d0 ER A. unfold own_type, value_type in A. rewrite ER in A. exact A. }
    destruct (us_err s) eqn:R1, (us_err s') eqn:R2.
    + rewrite (GE s d R1), (GE s' d' R2); [tauto|rewrite R2; exact A2|rewrite R1; exact A1].
    + assert (d = S (List.length syms * 2)) by (apply (GE s d R1); rewrite R1; exact A1). assert (d' <= List.length syms * 2) by (apply (LE s' d' R2); rewrite R2; exact A2). split; [lia|discriminate].
    + assert (d' = S (List.length syms * 2)) by (apply (GE s' d' R2); rewrite R2; exact A2). assert (d <= List.length syms * 2) by (apply (LE s d R1); rewrite R1; exact A1). split; [lia|discriminate].
    + split; [reflexivity|intros _]. destruct (OW s u R1 T1) as [(K1 & O1)|(K1 & O1)], (OW s' u R2 T2) as [(K2 & O2)|(K2 & O2)]; try contradiction; rewrite O1 in A1; rewrite O2 in A2; [congruence|].
      destruct A1 as (A0 & A1), A2 as (A0' & A2). pose proof (TO _ _ A1) as X1. rewrite (TO _ _ A2) in X1. injection X1. lia.
Qed.

(** Two nonterminals share a member exactly when their types agree up to the space around them. *)
Theorem C63_share : forall tk vt syms ds ms i j s s' d d' u u', print_stack_union tk vt syms = Ok (ds, ms) ->
  nth_error syms i = Some s -> nth_error ds i = Some d -> us_err s = false -> has_type tk vt s (Some u) ->
  nth_error syms j = Some s' -> nth_error ds j = Some d' -> us_err s' = false -> has_type tk vt s' (Some u') -> (d = d' <-> u = u').
Proof.
  intros tk vt syms ds ms i j s s' d d' u u' E S1 D1 R1 T1 S2 D2 R2 T2. destruct (C63_union tk vt syms) as (ds0 & ms0 & E0 & _ & ND & _ & TY & ZE & _ & UN). rewrite E in E0. injection E0 as <- <-.
  pose proof (TY i s d _ S1 D1 T1) as A1. pose proof (TY j s' d' _ S2 D2 T2) as A2. rewrite R1 in A1. rewrite R2 in A2. pose proof (ZE i s d S1 D1 R1 u T1) as Z1. pose proof (ZE j s' d' S2 D2 R2 u' T2) as Z2. split.
  - intros <-. destruct A1 as [(-> & A1)|A1].
    + pose proof (proj1 Z2 eq_refl). congruence.
    + destruct A2 as [(-> & A2)|A2]; [pose proof (proj1 Z1 eq_refl); congruence|].
      apply (f_equal snd (x := (d, u)) (y := (d, u'))). clear - ND A1 A2. induction ms as [|(e, t) ms IH]; [destruct A1|]. cbn in ND. inversion ND as [|? ? N1 N2]; subst.
      destruct A1 as [A1|A1], A2 as [A2|A2]; [congruence| | |now apply IH]; exfalso; apply N1; [injection A1 as -> ->|injection A2 as -> ->]; now apply (in_map fst) in A2 || now apply (in_map fst) in A1.
  - intros <-. destruct A1 as [(-> & A1)|A1]; [symmetry; now apply Z2|]. destruct A2 as [(-> & A2)|A2]; [now apply Z1|].
    apply (UN i j s s' d d' u); congruence || assumption.
Qed.

(** * Examples *)

(** %token_type {Token*}; the error symbol, a token, x of type " int ", y of type "int", z of type "Token*", w without type. *)
Definition ex63 : list usym :=
  [mkUs false false None; mkUs false true (Some (zs " int ")); mkUs false true (Some (zs "int")); mkUs false true (Some (zs "Token*")); mkUs false true None; mkUs true true None].

Example C63_example : exists ms, print_stack_union (Some (zs "Token*")) (Some (zs "char ")) ex63 = Ok ([0; 4; 4; 0; 11; 13], ms) /\
  ms = [(4, zs "int"); (11, zs "char"); (13, zs "int")].
Proof. eexists. vm_compute. split; reflexivity. Qed.

(** * What does not hold *)

(** The token type is compared with the space around it: %token_type { int } and %type x {int} have the same type but
    different members. *)
Theorem C63_token_type_refuted : exists tk s ms, stripped tk (zs "int") /\ has_type (Some tk) None s (Some (zs "int")) /\
  print_stack_union (Some tk) None [mkUs false false None; s] = Ok ([0; 4], ms) /\ In (4, zs "int") ms.
Proof.
  exists (zs " int "), (mkUs false true (Some (zs "int"))), [(4, zs "int")]. assert (I1 : stripped (zs " int ") (zs "int")) by (change (zs "int") with (stdtype (zs " int ")); apply stdtype_stripped).
  assert (I2 : stripped (zs "int") (zs "int")) by (change (zs "int") with (stdtype (zs "int")) at 2; apply stdtype_stripped).
  split; [exact I1|]. split; [apply (ht_own _ _ _ (zs "int")); auto|]. split; [vm_compute; reflexivity|now left].
Qed.

Print Assumptions C63_union.
Print Assumptions C63_share.
Print Assumptions C63_token_type_refuted.
