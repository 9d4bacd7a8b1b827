(** Lemmas on parseonetoken: a correct file of items is read without a message, and what is
    built says what the items declare. *)
From Coq Require Import String List Arith ZArith Bool Lia.
Import ListNotations.
From Verif Require Import Base LemonTableModel LemonTableProof LemonPreModel LemonActionModel LemonReadModel SpecItems.

(** ** Names *)
Lemma eqt_ok : forall x y, eqt x y = true <-> x = y.
Proof. intros x y. unfold eqt. destruct (list_eq_dec Z.eq_dec x y); split; auto; discriminate. Qed.
Lemma eqt_refl : forall x, eqt x x = true.
Proof. intros x. now apply eqt_ok. Qed.
Lemma eqt_ne : forall x y, eqt x y = false <-> x <> y.
Proof. intros x y. unfold eqt. destruct (list_eq_dec Z.eq_dec x y); split; auto; try discriminate. congruence. Qed.
Lemma mem_ok : forall x l, mem x l = true <-> In x l.
Proof. intros x l. unfold mem. rewrite existsb_exists. split; [intros (y & H & E); apply eqt_ok in E; now subst|intros H; exists x; split; [exact H|apply eqt_refl]]. Qed.
Lemma mem_no : forall x l, mem x l = false <-> ~ In x l.
Proof. intros x l. rewrite <- mem_ok. destruct (mem x l); split; auto; try discriminate. congruence. Qed.

Definition add (N : list text) (x : text) : list text := if mem x N then N else N ++ [x].
Definition addl (N : list text) (l : list text) : list text := fold_left add l N.

Lemma firsts_In : forall l x, In x (firsts l) <-> In x l.
Proof.
  induction l as [|y l IH]; intros x; cbn [firsts In]; [tauto|]. rewrite filter_In, IH. destruct (eqt y x) eqn:E.
  - apply eqt_ok in E. cbn. intuition congruence.
  - cbn. intuition.
Qed.
Lemma firsts_snoc : forall l x, firsts (l ++ [x]) = add (firsts l) x.
Proof.
  induction l as [|y l IH]; intros x; cbn [app firsts]; [reflexivity|]. rewrite IH. unfold add. cbn [mem existsb]. destruct (eqt x y) eqn:E; cbn [orb].
  - apply eqt_ok in E. subst y. destruct (mem x (firsts l)); [reflexivity|]. rewrite filter_app. cbn [filter]. rewrite eqt_refl. cbn [negb]. now rewrite app_nil_r.
  - assert (M : existsb (eqt x) (filter (fun z => negb (eqt y z)) (firsts l)) = mem x (firsts l)).
    { apply eq_true_iff_eq. fold (mem x (filter (fun z => negb (eqt y z)) (firsts l))). rewrite !mem_ok, filter_In. apply eqt_ne in E. assert (eqt y x = false) as -> by (apply eqt_ne; congruence). cbn. tauto. }
    rewrite M. destruct (mem x (firsts l)); [reflexivity|]. rewrite filter_app. cbn [filter]. assert (eqt y x = false) as -> by (apply eqt_ne; apply eqt_ne in E; congruence). reflexivity.
Qed.
Lemma firsts_app : forall m l, firsts (l ++ m) = addl (firsts l) m.
Proof.
  induction m as [|x m IH]; intros l; [now rewrite app_nil_r|]. change (l ++ x :: m) with (l ++ [x] ++ m). rewrite app_assoc, IH, firsts_snoc. reflexivity.
Qed.
Lemma firsts_NoDup : forall l, NoDup (firsts l).
Proof. induction l as [|x l IH]; cbn; constructor; [rewrite filter_In; intros (_ & H); rewrite eqt_refl in H; discriminate|now apply NoDup_filter]. Qed.
Lemma add_In : forall N x y, In y (add N x) <-> In y N \/ y = x.
Proof. intros N x y. unfold add. destruct (mem x N) eqn:E; [apply mem_ok in E; intuition congruence|]. rewrite in_app_iff. cbn. intuition. Qed.

Lemma streq_eqt : forall x y, streq x y = eqt x y.
Proof. intros x y. apply eq_true_iff_eq. now rewrite streq_ok, eqt_ok. Qed.

(** ** Symbols *)

(** Object [j] is the entry of the symbol table with name [x]. *)
Definition isn (l : list sobj) (j : nat) (x : text) : Prop := exists s, nth_error l j = Some s /\ so_named s = true /\ so_name s = x.

(** Named objects keep their name, the others do not change. *)
Definition keeps (l l' : list sobj) : Prop := forall id s, nth_error l id = Some s ->
  exists s', nth_error l' id = Some s' /\ so_name s' = so_name s /\ so_named s' = so_named s /\ (so_named s = false -> s' = s).

Lemma keeps_refl : forall l, keeps l l.
Proof. intros l id s H. exists s. auto. Qed.
Lemma keeps_trans : forall a b c, keeps a b -> keeps b c -> keeps a c.
Proof.
  intros a b c H K id s E. destruct (H _ _ E) as (s1 & E1 & A1 & B1 & C1). destruct (K _ _ E1) as (s2 & E2 & A2 & B2 & C2).
  exists s2. repeat split; try congruence. intros F. rewrite C2 by congruence. auto.
Qed.
Lemma keeps_app : forall l m, keeps l (l ++ m).
Proof. intros l m id s E. exists s. rewrite nth_error_app1; [auto|]. apply nth_error_Some. congruence. Qed.
Lemma keeps_isn : forall l l' j x, keeps l l' -> isn l j x -> isn l' j x.
Proof. intros l l' j x K (s & E & A & B). destruct (K _ _ E) as (s' & E' & A' & B' & _). exists s'. repeat split; congruence. Qed.
Lemma keeps_upd : forall l i s s', nth_error l i = Some s -> so_named s = true -> so_name s' = so_name s -> so_named s' = true -> keeps l (upd l i s').
Proof.
  intros l i s s' E A B C id t T. destruct (Nat.eq_dec id i) as [->|N].
  - exists s'. rewrite nth_error_upd_eq by (apply nth_error_Some; congruence). assert (t = s) by congruence. subst t. repeat split; congruence.
  - exists t. rewrite nth_error_upd_ne by auto. auto.
Qed.
Lemma isn_lt : forall l j x, isn l j x -> j < length l.
Proof. intros l j x (s & E & _). apply nth_error_Some. congruence. Qed.

Definition names (l : list sobj) : list text := map so_name (filter so_named l).

Lemma find_from_Some : forall x l k i, find_from k x l = Some i -> k <= i /\ isn l (i - k) x.
Proof.
  induction l as [|s l IH]; intros k i H; cbn [find_from] in H; [discriminate|]. destruct (so_named s && streq (so_name s) x) eqn:E.
  - inversion H; subst. apply andb_true_iff in E as (E1 & E2). apply streq_ok in E2. split; [lia|]. replace (i - i) with 0 by lia. exists s. auto.
  - apply IH in H as (A & t & B & C). split; [lia|]. exists t. replace (i - k) with (S (i - S k)) by lia. auto.
Qed.
Lemma find_from_None : forall x l k, find_from k x l = None -> ~ In x (names l).
Proof.
  induction l as [|s l IH]; intros k H; cbn [find_from] in H; [tauto|]. destruct (so_named s && streq (so_name s) x) eqn:E; [discriminate|]. apply IH in H. unfold names in *. cbn [filter].
  destruct (so_named s); [|exact H]. cbn. intros [K|K]; [|tauto]. apply streq_ok in K. rewrite K in E. discriminate.
Qed.
Lemma sym_find_Some : forall x l i, sym_find x l = Some i -> isn l i x.
Proof. intros x l i H. apply find_from_Some in H as (_ & H). now rewrite Nat.sub_0_r in H. Qed.
Lemma isn_names : forall l i x, isn l i x -> In x (names l).
Proof. intros l i x (s & E & A & <-). apply in_map, filter_In. split; [now apply nth_error_In in E|exact A]. Qed.
Lemma names_isn : forall l x, In x (names l) -> exists i, isn l i x.
Proof. intros l x H. apply in_map_iff in H as (s & E & H). apply filter_In in H as (H & A). apply In_nth_error in H as (i & H). exists i, s. auto. Qed.
Lemma isn_inj : forall l i j x, NoDup (names l) -> isn l i x -> isn l j x -> i = j.
Proof.
  unfold names. induction l as [|s l IH]; intros i j x ND (a & A & A1 & A2) (b & B & B1 & B2); [destruct i; discriminate|].
  cbn [filter] in ND. assert (LATER : forall k c, nth_error l k = Some c -> so_named c = true -> so_name c = x -> so_named s = true -> so_name s = x -> False).
  { intros k c C C1 C2 S1 S2. rewrite S1 in ND. cbn in ND. inversion ND as [|? ? H _]; subst. apply H. replace (so_name s) with (so_name c) by congruence. apply in_map, filter_In. split; [now apply nth_error_In in C|exact C1]. }
  destruct i as [|i], j as [|j]; cbn in A, B; auto.
  - inversion A; subst a. destruct (LATER _ _ B); auto.
  - inversion B; subst b. destruct (LATER _ _ A); auto.
  - f_equal. apply (IH i j x); [|exists a; auto|exists b; auto]. destruct (so_named s); [now inversion ND|exact ND].
Qed.
Lemma isn_find : forall l i x, NoDup (names l) -> isn l i x -> sym_find x l = Some i.
Proof.
  intros l i x ND H. destruct (sym_find x l) as [j|] eqn:E; [f_equal; eapply isn_inj; eauto; now apply sym_find_Some|].
  apply find_from_None in E. destruct E. eapply isn_names; eauto.
Qed.
Lemma names_upd : forall l i s s', nth_error l i = Some s -> so_named s' = so_named s -> so_name s' = so_name s -> names (upd l i s') = names l.
Proof.
  unfold names. induction l as [|t l IH]; intros [|i] s s' E A B; try discriminate; cbn [upd filter].
  - inversion E; subst. rewrite A. destruct (so_named s); [cbn; now rewrite B|reflexivity].
  - cbn in E. destruct (so_named t); cbn [map]; [f_equal|]; eapply IH; eauto.
Qed.

(** What is declared about names. *)
Record view : Type := mkView {
  v_prec : text -> option (nat * e_assoc);
  v_fb : text -> option text;
  v_cls : text -> option (list text);
  v_typ : text -> option text
}.

(** An object agrees with the declarations. *)
Definition sok (l : list sobj) (V : view) (s : sobj) : Prop :=
  so_prec s = option_map fst (v_prec V (so_name s)) /\
  so_assoc s = match v_prec V (so_name s) with Some (_, a) => a | None => UNK end /\
  match v_fb V (so_name s) with None => so_fallback s = None | Some f => exists j, so_fallback s = Some j /\ isn l j f end /\
  so_type s = match v_cls V (so_name s) with Some _ => MULTITERMINAL | None => if isupper (ch (so_name s) 0) then TERMINAL else NONTERMINAL end /\
  match v_cls V (so_name s) with None => so_sub s = [] | Some ns => Forall2 (isn l) (so_sub s) ns end /\
  so_dtype s = v_typ V (so_name s).

Record SymInv (N : list text) (V : view) (l : list sobj) : Prop := mkSymInv {
  si_names : names l = N;
  si_nodup : NoDup N;
  si_named : forall id s, nth_error l id = Some s -> so_named s = true -> sok l V s;
  si_anon : forall id s, nth_error l id = Some s -> so_named s = false -> so_type s = MULTITERMINAL /\ so_fallback s = None;
  si_dom : forall x, ~ In x N -> v_prec V x = None /\ v_fb V x = None /\ v_cls V x = None /\ v_typ V x = None
}.

Lemma Forall2_mono : forall A B (P Q : A -> B -> Prop) l m, (forall a b, P a b -> Q a b) -> Forall2 P l m -> Forall2 Q l m.
Proof. induction 2; constructor; auto. Qed.

Lemma sok_mono : forall l l' V s, keeps l l' -> sok l V s -> sok l' V s.
Proof.
  intros l l' V s K (A & B & C & D & E & F). repeat split; auto.
  - destruct (v_fb V (so_name s)); [|exact C]. destruct C as (j & C1 & C2). exists j. split; [exact C1|]. eapply keeps_isn; eauto.
  - destruct (v_cls V (so_name s)); [|exact E]. eapply Forall2_mono; [|exact E]. intros a b. now apply keeps_isn.
Qed.

Definition veq (V W : view) : Prop := forall x, v_prec V x = v_prec W x /\ v_fb V x = v_fb W x /\ v_cls V x = v_cls W x /\ v_typ V x = v_typ W x.
Lemma sok_veq : forall l V W s, (v_prec V (so_name s) = v_prec W (so_name s) /\ v_fb V (so_name s) = v_fb W (so_name s) /\ v_cls V (so_name s) = v_cls W (so_name s) /\ v_typ V (so_name s) = v_typ W (so_name s)) ->
  sok l V s -> sok l W s.
Proof. intros l V W s (A & B & C & D). unfold sok. now rewrite A, B, C, D. Qed.
Lemma SymInv_veq : forall N V W l, veq V W -> SymInv N V l -> SymInv N W l.
Proof.
  intros N V W l E [A B C D F]. constructor; auto.
  - intros id s H1 H2. eapply sok_veq; [apply E|eauto].
  - intros x H. destruct (E x) as (E1 & E2 & E3 & E4). rewrite <- E1, <- E2, <- E3, <- E4. auto.
Qed.

(** Symbol_new *)
Lemma sym_new_inv : forall N V l x i l', SymInv N V l -> sym_new x l = (i, l') -> SymInv (add N x) V l' /\ isn l' i x /\ keeps l l' /\ (In x N -> l' = l).
Proof.
  intros N V l x i l' I H. pose proof I as [A B C D F]. unfold sym_new in H. destruct (sym_find x l) as [j|] eqn:E.
  - inversion H; subst i l'. apply sym_find_Some in E. pose proof (isn_names _ _ _ E) as X. unfold add. rewrite <- A. rewrite (proj2 (mem_ok x (names l)) X). rewrite A. split; [exact I|]. split; [exact E|]. split; [apply keeps_refl|auto].
  - inversion H; subst i l'. apply find_from_None in E. rewrite A in E. unfold add. rewrite (proj2 (mem_no x N) E).
    assert (NEW : nth_error (l ++ [new_obj x]) (length l) = Some (new_obj x)) by (rewrite nth_error_app2, Nat.sub_diag by lia; reflexivity).
    split; [|split; [exists (new_obj x); auto|split; [apply keeps_app|tauto]]]. constructor.
    + unfold names in *. rewrite filter_app, map_app, A. reflexivity.
    + replace (N ++ [x]) with (rev (x :: rev N)) by (cbn; now rewrite rev_involutive). apply NoDup_rev. constructor; [now rewrite <- in_rev|now apply NoDup_rev].
    + intros id s H1 H2. destruct (Nat.lt_ge_cases id (length l)) as [L|L].
      * rewrite nth_error_app1 in H1 by exact L. eapply sok_mono; [apply keeps_app|eauto].
      * rewrite nth_error_app2 in H1 by exact L. destruct (id - length l) as [|k]; [|destruct k; discriminate]. cbn in H1. inversion H1; subst s. destruct (F x E) as (F1 & F2 & F3 & F4).
        unfold sok, new_obj. cbn. rewrite F1, F2, F3, F4. cbn. repeat split; reflexivity.
    + intros id s H1 H2. destruct (Nat.lt_ge_cases id (length l)) as [L|L].
      * rewrite nth_error_app1 in H1 by exact L. eauto.
      * rewrite nth_error_app2 in H1 by exact L. destruct (id - length l) as [|k]; [|destruct k; discriminate]. cbn in H1. inversion H1; subst s. discriminate.
    + intros y Y. apply F. intros K. apply Y. apply in_app_iff. auto.
Qed.

(** A store into the fields of one symbol. *)
Lemma upd_inv : forall N V W l i s s', SymInv N V l -> nth_error l i = Some s -> so_named s = true -> so_name s' = so_name s -> so_named s' = true ->
  (forall y, y <> so_name s -> v_prec V y = v_prec W y /\ v_fb V y = v_fb W y /\ v_cls V y = v_cls W y /\ v_typ V y = v_typ W y) ->
  sok l W s' -> SymInv N W (upd l i s') /\ keeps l (upd l i s').
Proof.
  intros N V W l i s s' [A B C D F] E NM SN SN' EQ OK. pose proof (keeps_upd l i s s' E NM SN SN') as K. split; [|exact K].
  assert (IS : isn l i (so_name s)) by (exists s; auto). constructor.
  - rewrite (names_upd l i s s'); auto. congruence.
  - exact B.
  - intros id t T TN. destruct (Nat.eq_dec id i) as [->|NE].
    + rewrite nth_error_upd_eq in T by (apply nth_error_Some; congruence). inversion T; subst t. eapply sok_mono; eauto.
    + rewrite nth_error_upd_ne in T by auto. eapply sok_mono; [exact K|]. eapply sok_veq; [|eapply C; eauto]. apply EQ. intros X.
      apply NE. eapply isn_inj; [rewrite A; exact B| |exact IS]. exists t. auto.
  - intros id t T TN. destruct (Nat.eq_dec id i) as [->|NE].
    + rewrite nth_error_upd_eq in T by (apply nth_error_Some; congruence). inversion T; subst t. congruence.
    + rewrite nth_error_upd_ne in T by auto. eauto.
  - intros x X. assert (NX : x <> so_name s) by (intros ->; apply X; rewrite <- A; eapply isn_names; eauto). destruct (EQ x NX) as (E1 & E2 & E3 & E4). rewrite <- E1, <- E2, <- E3, <- E4. auto.
Qed.

(** A multi-terminal that is not in the symbol table. *)
Lemma anon_inv : forall N V l s, SymInv N V l -> so_named s = false -> so_type s = MULTITERMINAL -> so_fallback s = None -> SymInv N V (l ++ [s]) /\ keeps l (l ++ [s]).
Proof.
  intros N V l s [A B C D F] H1 H2 H3. split; [|apply keeps_app]. constructor; auto.
  - unfold names in *. rewrite filter_app. cbn. rewrite H1. now rewrite app_nil_r.
  - intros id t T TN. destruct (Nat.lt_ge_cases id (length l)) as [L|L].
    + rewrite nth_error_app1 in T by exact L. eapply sok_mono; [apply keeps_app|eauto].
    + rewrite nth_error_app2 in T by exact L. destruct (id - length l) as [|k]; [|destruct k; discriminate]. cbn in T. inversion T; subst. congruence.
  - intros id t T TN. destruct (Nat.lt_ge_cases id (length l)) as [L|L].
    + rewrite nth_error_app1 in T by exact L. eauto.
    + rewrite nth_error_app2 in T by exact L. destruct (id - length l) as [|k]; [|destruct k; discriminate]. cbn in T. inversion T; subst. auto.
Qed.
Lemma anon_upd_inv : forall N V l i s s', SymInv N V l -> nth_error l i = Some s -> so_named s = false -> so_named s' = false -> so_type s' = MULTITERMINAL -> so_fallback s' = None ->
  so_name s' = so_name s -> SymInv N V (upd l i s') /\ (forall j x, isn l j x -> isn (upd l i s') j x) /\
  (forall l0, length l0 <= i -> keeps l0 l -> keeps l0 (upd l i s')).
Proof.
  intros N V l i s s' [A B C D F] E S1 S2 S3 S4 S5.
  assert (ISN : forall j x, isn l j x -> isn (upd l i s') j x).
  { intros j x (t & T & T1 & T2). exists t. rewrite nth_error_upd_ne; [auto|]. intros ->. congruence. }
  split; [|split; [exact ISN|]].
  - constructor; auto.
    + rewrite (names_upd l i s s'); auto. congruence.
    + intros id t T TN. destruct (Nat.eq_dec id i) as [->|NE].
      * rewrite nth_error_upd_eq in T by (apply nth_error_Some; congruence). inversion T; subst t. congruence.
      * rewrite nth_error_upd_ne in T by auto. destruct (C _ _ T TN) as (C1 & C2 & C3 & C4 & C5 & C6). repeat split; auto.
        -- destruct (v_fb V (so_name t)); [|exact C3]. destruct C3 as (j & X & Y). exists j. auto.
        -- destruct (v_cls V (so_name t)); [|exact C5]. eapply Forall2_mono; [|exact C5]. auto.
    + intros id t T TN. destruct (Nat.eq_dec id i) as [->|NE].
      * rewrite nth_error_upd_eq in T by (apply nth_error_Some; congruence). inversion T; subst t. auto.
      * rewrite nth_error_upd_ne in T by auto. eauto.
  - intros l0 L K id t T. assert (id <> i) by (assert (id < length l0) by (apply nth_error_Some; congruence); lia). rewrite nth_error_upd_ne by auto. now apply K.
Qed.

(** ** Tokens *)
Definition texts (evs : list event) (xs : list text) : Prop := Forall2 (fun e x => exists n, e = EvTok n x) evs xs.
Lemma texts_nil : forall evs, texts evs [] -> evs = [].
Proof. intros evs H. now inversion H. Qed.
Lemma texts_cons : forall evs x xs, texts evs (x :: xs) -> exists n evs', evs = EvTok n x :: evs' /\ texts evs' xs.
Proof. intros evs x xs H. inversion H as [|e ? evs' ? (n & ->) H']; subst. eauto. Qed.
Lemma texts_app : forall xs ys evs, texts evs (xs ++ ys) -> exists e1 e2, evs = e1 ++ e2 /\ texts e1 xs /\ texts e2 ys.
Proof. intros xs ys evs H. apply Forall2_app_inv_r in H as (e1 & e2 & H1 & H2 & ->). eauto. Qed.
Lemma feed_app : forall o a b p, feed_tokens o (a ++ b) p = bind (feed_tokens o a p) (feed_tokens o b).
Proof.
  induction a as [|[n x|] a IH]; intros b p; cbn [app feed_tokens]; [reflexivity| |apply IH]. destruct (parseonetoken o n x p); cbn [bind]; auto.
Qed.

(** First characters *)
Lemma upper_facts : forall x, upper x -> (ch x 0 =? 46)%Z = false /\ isupper (ch x 0) = true /\ islower (ch x 0) = false /\ isalpha (ch x 0) = true.
Proof.
  intros x H. unfold upper in H. split; [|split; [exact H|]]; unfold isupper, islower, isalpha in *; rewrite andb_true_iff, !Z.leb_le in H.
  - apply Z.eqb_neq. lia.
  - split; [rewrite andb_false_iff, !Z.leb_gt; lia|]. rewrite orb_true_iff, !andb_true_iff, !Z.leb_le. lia.
Qed.
Lemma lower_facts : forall x, lower x -> (ch x 0 =? 37)%Z = false /\ islower (ch x 0) = true /\ isupper (ch x 0) = false.
Proof.
  intros x H. unfold lower in H. split; [|split; [exact H|]]; unfold isupper, islower in *; rewrite andb_true_iff, !Z.leb_le in H.
  - apply Z.eqb_neq. lia.
  - rewrite andb_false_iff, !Z.leb_gt. lia.
Qed.
Lemma alpha_facts : forall x, alpha x -> (ch x 0 =? 46)%Z = false /\ isalpha (ch x 0) = true.
Proof.
  intros x H. unfold alpha in H. split; [|exact H]. unfold isalpha in H. rewrite orb_true_iff, !andb_true_iff, !Z.leb_le in H. apply Z.eqb_neq. lia.
Qed.

(** ** Right sides *)
Definition elem_is (l : list sobj) (e : relem) (a : nat * option text) : Prop :=
  snd a = re_alias e /\
  match re_alts e with
  | [] => isn l (fst a) (re_name e)
  | ys => exists s, nth_error l (fst a) = Some s /\ so_named s = false /\ so_type s = MULTITERMINAL /\ Forall2 (isn l) (so_sub s) (re_name e :: ys)
  end.
Lemma elem_is_mono : forall l l' e a, keeps l l' -> elem_is l e a -> elem_is l' e a.
Proof.
  intros l l' e a K (A & B). split; [exact A|]. destruct (re_alts e) as [|y ys]; [eapply keeps_isn; eauto|]. destruct B as (s & E & S1 & S2 & S3).
  destruct (K _ _ E) as (s' & E' & _ & _ & SAME). exists s. rewrite E', (SAME S1). repeat split; auto. eapply Forall2_mono; [|exact S3]. intros a0 b0. now apply keeps_isn.
Qed.

Lemma last_rhs_app : forall r a, last_rhs (r ++ [a]) = Some a.
Proof. induction r as [|b r IH]; intros a; [reflexivity|]. cbn [app last_rhs]. rewrite IH. destruct (r ++ [a]) eqn:E; [destruct r; discriminate|reflexivity]. Qed.
Lemma upd_last_app : forall f r a, upd_last f (r ++ [a]) = r ++ [f a].
Proof. intros f r a. unfold upd_last. rewrite last_rhs_app, removelast_last. reflexivity. Qed.

Definition bar (y : text) : text := zs "|" ++ y.

Lemma c_rhs_set : forall st r c, c_rhs (set_rhs st r c) = r.
Proof. reflexivity. Qed.
Lemma c_state_set : forall st r c, c_state (set_rhs st r c) = st.
Proof. reflexivity. Qed.

Lemma in_rhs_bar : forall o n y r a c g, upper y ->
  parseonetoken o n (bar y) (mkPst (set_rhs IN_RHS (r ++ [a]) c) g) = rhs_compound (bar y) (set_rhs IN_RHS (r ++ [a]) c) g.
Proof.
  intros o n y r a c g U. unfold parseonetoken. cbn [p_c p_g]. rewrite c_state_set, c_rhs_set. change (bar y) with (124%Z :: y). cbn [ch nth].
  change (124 =? 46)%Z with false. change (isalpha 124%Z) with false. change (124 =? 124)%Z with true. cbn iota. cbn [orb andb].
  assert (L : (0 <? length (r ++ [a])) = true) by (apply Nat.ltb_lt; rewrite app_length; cbn [length]; lia). rewrite L. cbn [andb].
  change (isupper (nth 0 y 0%Z)) with (isupper (ch y 0)). rewrite U. reflexivity.
Qed.

(** One more alternative for the multi-terminal [m]. *)
Lemma compound_step : forall o N V l g c r m al s x ds y l0 n,
  SymInv N V l -> nth_error l m = Some s -> so_named s = false -> so_type s = MULTITERMINAL -> so_fallback s = None ->
  Forall2 (isn l) (so_sub s) (x :: ds) -> upper x -> upper y -> length l0 <= m -> keeps l0 l ->
  exists l' s', parseonetoken o n (bar y) (mkPst (set_rhs IN_RHS (r ++ [(m, al)]) c) (set_syms l g)) = Ok (mkPst (set_rhs IN_RHS (r ++ [(m, al)]) c) (set_syms l' g)) /\
    SymInv (add N y) V l' /\ keeps l0 l' /\ nth_error l' m = Some s' /\ so_named s' = false /\ so_type s' = MULTITERMINAL /\ so_fallback s' = None /\
    Forall2 (isn l') (so_sub s') (x :: ds ++ [y]).
Proof.
  intros o N V l g c r m al s x ds y l0 n I E S1 S2 S3 SUB UX UY LE K. rewrite in_rhs_bar by exact UY.
  destruct (sym_new y l) as [i l2] eqn:EN. destruct (sym_new_inv _ _ _ _ _ _ I EN) as (I2 & IS & K2 & _).
  destruct (K2 _ _ E) as (s2 & E2 & _ & _ & SAME). rewrite (SAME S1) in E2. clear s2 SAME.
  destruct (so_sub s) as [|k0 ks] eqn:ES; [inversion SUB|].
  set (s' := with_type_sub MULTITERMINAL (k0 :: ks ++ [i]) s).
  destruct (anon_upd_inv _ _ _ _ _ s' I2 E2 S1 S1 eq_refl S3 eq_refl) as (I3 & ISN & KK).
  assert (SUB' : Forall2 (isn (upd l2 m s')) (k0 :: ks ++ [i]) (x :: ds ++ [y])).
  { change (k0 :: ks ++ [i]) with ((k0 :: ks) ++ [i]). change (x :: ds ++ [y]) with ((x :: ds) ++ [y]). apply Forall2_app.
    - eapply Forall2_mono; [|exact SUB]. intros a b AB. apply ISN. eapply keeps_isn; eauto.
    - constructor; [apply ISN; exact IS|constructor]. }
  exists (upd l2 m s'), s'. split.
  - unfold rhs_compound. rewrite c_rhs_set, last_rhs_app. cbn [opt bind fst]. cbn [gr_syms set_syms]. rewrite E. cbn [opt bind]. rewrite S2. cbn iota.
    change (tl (bar y)) with y. rewrite EN, E2. cbn [opt bind]. rewrite ES, S2. cbn [app nth_error opt bind]. fold s'.
    assert (O0 : exists o0, nth_error (upd l2 m s') k0 = Some o0 /\ so_name o0 = x) by (inversion SUB' as [|? ? ? ? HD _]; subst; destruct HD as (o0 & A & _ & B); eauto).
    destruct O0 as (o0 & O1 & O2). rewrite O1. cbn [opt bind]. rewrite O2.
    change (ch (bar y) 1) with (ch y 0). destruct (upper_facts y UY) as (_ & _ & -> & _). destruct (upper_facts x UX) as (_ & _ & -> & _). cbn [orb].
    rewrite upd_last_app. cbn [snd]. reflexivity.
  - split; [exact I3|]. split; [apply KK; [exact LE|eapply keeps_trans; eauto]|]. split; [rewrite nth_error_upd_eq by (apply nth_error_Some; congruence); reflexivity|].
    split; [exact S1|]. split; [reflexivity|]. split; [exact S3|]. exact SUB'.
Qed.

Lemma compound_loop : forall o ys evs N V l g c r m al s x ds l0,
  texts evs (map bar ys) -> SymInv N V l -> nth_error l m = Some s -> so_named s = false -> so_type s = MULTITERMINAL -> so_fallback s = None ->
  Forall2 (isn l) (so_sub s) (x :: ds) -> upper x -> Forall upper ys -> length l0 <= m -> keeps l0 l ->
  exists l' s', feed_tokens o evs (mkPst (set_rhs IN_RHS (r ++ [(m, al)]) c) (set_syms l g)) = Ok (mkPst (set_rhs IN_RHS (r ++ [(m, al)]) c) (set_syms l' g)) /\
    SymInv (addl N ys) V l' /\ keeps l0 l' /\ nth_error l' m = Some s' /\ so_named s' = false /\ so_type s' = MULTITERMINAL /\ so_fallback s' = None /\
    Forall2 (isn l') (so_sub s') (x :: ds ++ ys).
Proof.
  induction ys as [|y ys IH]; intros evs N V l g c r m al s x ds l0 T I E S1 S2 S3 SUB UX UY LE K.
  - apply texts_nil in T. subst. exists l, s. rewrite app_nil_r. cbn. auto 10.
  - cbn [map] in T. apply texts_cons in T as (n & evs' & -> & T). inversion UY as [|? ? U1 U2]; subst. cbn [feed_tokens].
    destruct (compound_step o N V l g c r m al s x ds y l0 n I E S1 S2 S3 SUB UX U1 LE K) as (l1 & s1 & R & I1 & K1 & E1 & A1 & A2 & A3 & SUB1). rewrite R. cbn [bind].
    destruct (IH evs' _ _ _ g c r m al s1 x (ds ++ [y]) l0 T I1 E1 A1 A2 A3 SUB1 UX U2 LE K1) as (l2 & s2 & R2 & X). rewrite <- app_assoc in X. exists l2, s2. auto.
Qed.

(** The first alternative makes the multi-terminal. *)
Lemma compound_first : forall o N V l g c r id al s x y n,
  SymInv N V l -> nth_error l id = Some s -> so_named s = true -> so_name s = x -> so_type s <> MULTITERMINAL -> upper x -> upper y ->
  exists l' s', parseonetoken o n (bar y) (mkPst (set_rhs IN_RHS (r ++ [(id, al)]) c) (set_syms l g)) = Ok (mkPst (set_rhs IN_RHS (r ++ [(length l, al)]) c) (set_syms l' g)) /\
    SymInv (add N y) V l' /\ keeps l l' /\ nth_error l' (length l) = Some s' /\ so_named s' = false /\ so_type s' = MULTITERMINAL /\ so_fallback s' = None /\
    Forall2 (isn l') (so_sub s') [x; y].
Proof.
  intros o N V l g c r id al s x y n I E NM NX TY UX UY. rewrite in_rhs_bar by exact UY.
  set (s0 := mkSobj (so_name s) false MULTITERMINAL (Some 0) LEFT None [id] None 0%Z None).
  destruct (anon_inv _ _ _ s0 I eq_refl eq_refl eq_refl) as (I1 & K1).
  assert (E1 : nth_error (l ++ [s0]) (length l) = Some s0) by (rewrite nth_error_app2, Nat.sub_diag by lia; reflexivity).
  destruct (sym_new y (l ++ [s0])) as [i l2] eqn:EN. destruct (sym_new_inv _ _ _ _ _ _ I1 EN) as (I2 & IS & K2 & _).
  destruct (K2 _ _ E1) as (s2 & E2 & _ & _ & SAME). rewrite (SAME eq_refl) in E2. clear s2 SAME.
  set (s' := with_type_sub MULTITERMINAL [id; i] s0).
  destruct (anon_upd_inv _ _ _ _ _ s' I2 E2 eq_refl eq_refl eq_refl eq_refl eq_refl) as (I3 & ISN & KK).
  assert (ISX : isn (upd l2 (length l) s') id x). { apply ISN. eapply keeps_isn; [exact K2|]. eapply keeps_isn; [exact K1|]. exists s. auto. }
  exists (upd l2 (length l) s'), s'. split.
  - unfold rhs_compound. rewrite c_rhs_set, last_rhs_app. cbn [opt bind fst]. cbn [gr_syms set_syms]. rewrite E. cbn [opt bind]. fold s0.
    assert (M : (match so_type s with MULTITERMINAL => (id, l) | _ => (length l, l ++ [s0]) end) = (length l, l ++ [s0])) by (destruct (so_type s); congruence).
    rewrite M. change (tl (bar y)) with y. rewrite EN, E2. cbn [opt bind so_sub so_type s0 app nth_error]. fold s0. fold s'.
    destruct ISX as (o0 & O1 & _ & O2). rewrite O1. cbn [opt bind]. rewrite O2.
    change (ch (bar y) 1) with (ch y 0). destruct (upper_facts y UY) as (_ & _ & -> & _). destruct (upper_facts x UX) as (_ & _ & -> & _). cbn [orb].
    rewrite upd_last_app. cbn [snd]. reflexivity.
  - split; [exact I3|]. split; [apply KK; [lia|eapply keeps_trans; eauto]|]. split; [rewrite nth_error_upd_eq by (apply nth_error_Some; congruence); reflexivity|].
    repeat split. cbn [so_sub s' with_type_sub]. constructor; [exact ISX|]. constructor; [apply ISN; exact IS|constructor].
Qed.

Lemma in_rhs_name : forall o n x r c g i l, alpha x -> length r < MAXRHS -> sym_new x (gr_syms g) = (i, l) ->
  parseonetoken o n x (mkPst (set_rhs IN_RHS r c) g) = Ok (mkPst (set_rhs IN_RHS (r ++ [(i, None)]) c) (set_syms l g)).
Proof.
  intros o n x r c g i l A L E. destruct (alpha_facts x A) as (A1 & A2). unfold parseonetoken. cbn [p_c p_g]. rewrite c_state_set, c_rhs_set, A1, A2.
  assert (LE : (MAXRHS <=? length r) = false) by (apply Nat.leb_gt; exact L). rewrite LE, E. reflexivity.
Qed.

Lemma rhs_alias_run : forall o al evs r id c g, texts evs (alias_tokens al) -> opt_ok alpha al ->
  feed_tokens o evs (mkPst (set_rhs IN_RHS (r ++ [(id, None)]) c) g) = Ok (mkPst (set_rhs IN_RHS (r ++ [(id, al)]) c) g).
Proof.
  intros o [x|] evs r id c g T A; cbn [alias_tokens] in T; [|apply texts_nil in T; now subst].
  apply texts_cons in T as (n1 & e1 & -> & T). apply texts_cons in T as (n2 & e2 & -> & T). apply texts_cons in T as (n3 & e3 & -> & T). apply texts_nil in T. subst.
  cbn in A. destruct (alpha_facts x A) as (A1 & A2).
  assert (P1 : parseonetoken o n1 (zs "(") (mkPst (set_rhs IN_RHS (r ++ [(id, None)]) c) g) = Ok (mkPst (set_rhs RHS_ALIAS_1 (r ++ [(id, None)]) c) g)).
  { unfold parseonetoken. cbn [p_c p_g]. rewrite c_state_set, c_rhs_set. change (ch (zs "(") 0) with 40%Z. change (40 =? 46)%Z with false. change (isalpha 40%Z) with false. change ((40 =? 124)%Z || (40 =? 47)%Z) with false. change (40 =? 40)%Z with true. cbn [andb].
    assert (L : (0 <? length (r ++ [(id, @None text)])) = true) by (apply Nat.ltb_lt; rewrite app_length; cbn [length]; lia). rewrite L. reflexivity. }
  assert (P2 : parseonetoken o n2 x (mkPst (set_rhs RHS_ALIAS_1 (r ++ [(id, None)]) c) g) = Ok (mkPst (set_rhs RHS_ALIAS_2 (r ++ [(id, Some x)]) c) g)).
  { unfold parseonetoken. cbn [p_c p_g]. rewrite c_state_set, c_rhs_set, A2, upd_last_app. reflexivity. }
  cbn [feed_tokens]. rewrite P1. cbn [bind]. rewrite P2. cbn [bind]. reflexivity.
Qed.

Lemma addl_app : forall a b N, addl N (a ++ b) = addl (addl N a) b.
Proof. intros a b N. unfold addl. apply fold_left_app. Qed.

Lemma elem_run : forall o e evs N V l g c r, texts evs (relem_tokens e) -> SymInv N V l -> relem_ok e -> (upper (re_name e) -> v_cls V (re_name e) = None) -> length r < MAXRHS ->
  exists l' a, feed_tokens o evs (mkPst (set_rhs IN_RHS r c) (set_syms l g)) = Ok (mkPst (set_rhs IN_RHS (r ++ [a]) c) (set_syms l' g)) /\
    SymInv (addl N (re_name e :: re_alts e)) V l' /\ keeps l l' /\ elem_is l' e a.
Proof.
  intros o [x ys al] evs N V l g c r T I (OA & OAL & OY) NC L. unfold relem_tokens in T. cbn [re_name re_alts re_alias] in *.
  apply texts_cons in T as (n & evs1 & -> & T). apply texts_app in T as (e1 & e2 & -> & T1 & T2). fold bar in T1.
  destruct (sym_new x l) as [i l1] eqn:EN. destruct (sym_new_inv _ _ _ _ _ _ I EN) as (I1 & IS & K1 & _).
  cbn [feed_tokens]. rewrite (in_rhs_name o n x r c (set_syms l g) i l1 OA L EN). cbn [bind]. change (set_syms l1 (set_syms l g)) with (set_syms l1 g). rewrite feed_app.
  destruct ys as [|y ys].
  - cbn [map] in T1. apply texts_nil in T1. subst e1. cbn [feed_tokens bind]. rewrite (rhs_alias_run o al e2 r i c _ T2 OAL).
    exists l1, (i, al). split; [reflexivity|]. split; [exact I1|]. split; [exact K1|]. split; [reflexivity|exact IS].
  - destruct (OY ltac:(discriminate)) as (UX & UY). inversion UY as [|? ? UY1 UY2]; subst. cbn [map] in T1. apply texts_cons in T1 as (n1 & e1' & -> & T1).
    destruct IS as (s & E & NM & NX).
    assert (TY : so_type s <> MULTITERMINAL).
    { destruct (si_named _ _ _ I1 _ _ E NM) as (_ & _ & _ & D & _). rewrite NX, (NC UX) in D. rewrite D. destruct (isupper (ch x 0)); discriminate. }
    destruct (compound_first o _ _ l1 g c r i None s x y n1 I1 E NM NX TY UX UY1) as (l2 & s2 & R & I2 & K2 & E2 & A1 & A2 & A3 & SUB).
    cbn [feed_tokens]. change (zs "|" ++ y) with (bar y). rewrite R. cbn [bind].
    destruct (compound_loop o ys e1' _ _ l2 g c r (length l1) None s2 x [y] l1 T1 I2 E2 A1 A2 A3 SUB UX UY2 (le_n _) K2) as (l3 & s3 & R3 & I3 & K3 & E3 & B1 & B2 & B3 & SUB3).
    rewrite R3. cbn [bind]. rewrite (rhs_alias_run o al e2 r (length l1) c _ T2 OAL).
    exists l3, (length l1, al). split; [reflexivity|]. split; [exact I3|]. split; [eapply keeps_trans; eauto|]. split; [reflexivity|]. cbn [re_alts fst re_name]. exists s3. cbn [app] in SUB3. auto.
Qed.

Lemma rhs_run : forall o es evs N V l g c r, texts evs (flat_map relem_tokens es) -> SymInv N V l -> Forall relem_ok es -> (forall x, upper x -> v_cls V x = None) -> length r + length es <= MAXRHS ->
  exists l' r', feed_tokens o evs (mkPst (set_rhs IN_RHS r c) (set_syms l g)) = Ok (mkPst (set_rhs IN_RHS (r ++ r') c) (set_syms l' g)) /\
    SymInv (addl N (flat_map (fun e => re_name e :: re_alts e) es)) V l' /\ keeps l l' /\ Forall2 (elem_is l') es r'.
Proof.
  induction es as [|e es IH]; intros evs N V l g c r T I OK NC L.
  - cbn [flat_map] in T. apply texts_nil in T. subst. exists l, []. rewrite app_nil_r. cbn. split; [reflexivity|]. split; [exact I|]. split; [apply keeps_refl|constructor].
  - cbn [flat_map] in T. apply texts_app in T as (e1 & e2 & -> & T1 & T2). inversion OK as [|? ? O1 O2]; subst. cbn [length] in L.
    destruct (elem_run o e e1 N V l g c r T1 I O1 (NC (re_name e)) ltac:(lia)) as (l1 & a & R1 & I1 & K1 & EL).
    destruct (IH e2 _ V l1 g c (r ++ [a]) T2 I1 O2 NC ltac:(rewrite app_length; cbn [length]; lia)) as (l2 & r2 & R2 & I2 & K2 & EL2).
    exists l2, (a :: r2). rewrite feed_app, R1. cbn [bind]. rewrite R2. rewrite <- app_assoc. split; [reflexivity|]. cbn [flat_map]. rewrite addl_app. split; [exact I2|]. split; [eapply keeps_trans; eauto|].
    constructor; [eapply elem_is_mono; eauto|exact EL2].
Qed.

(** ** Items *)
Definition ready (p : pst) : Prop := c_state (p_c p) = INITIALIZE \/ c_state (p_c p) = WAITING_FOR_DECL_OR_RULE.

Definition view_of (ign : bool) (items : list item) : view := mkView (prec_of ign items) (fallback_of items) (class_of items) (type_of items).

Definition never_code (code : option text) : bool := match code with Some c => eqt c (zs "{NEVER-REDUCE") | None => false end.

Definition rule_is (ign : bool) (l : list sobj) (i : item) (r : rrule) : Prop :=
  match i with
  | IRule lhs la rhs prec code =>
      isn l (rr_lhs r) lhs /\ rr_lhsalias r = la /\ Forall2 (elem_is l) rhs (rr_rhs r) /\
      match prec with Some x => if ign then rr_precsym r = None else exists j, rr_precsym r = Some j /\ isn l j x | None => rr_precsym r = None end /\
      rr_never r = never_code code /\ rr_code r = (if never_code code then None else option_map (fun c => tl c) code)
  | _ => False
  end.
Lemma rule_is_mono : forall ign l l' i r, keeps l l' -> rule_is ign l i r -> rule_is ign l' i r.
Proof.
  intros ign l l' i r K. destruct i; cbn; auto. intros (A & B & C & D & E & F). split; [eapply keeps_isn; eauto|]. split; [exact B|].
  split; [eapply Forall2_mono; [|exact C]; intros; eapply elem_is_mono; eauto|]. split; [|auto]. destruct prec; [|exact D]. destruct ign; [exact D|]. destruct D as (j & D1 & D2). exists j. split; [exact D1|eapply keeps_isn; eauto].
Qed.

Definition is_assoc (i : item) : bool := match i with IAssoc _ _ => true | _ => false end.
Definition is_yacc (i : item) : bool := match i with IYaccPrec => true | _ => false end.

Record GInv (o : ropts) (items : list item) (g : gram) : Prop := mkGInv {
  gi_err : gr_err g = 0;
  gi_sym : SymInv (symbols_of (ro_ignorePrec o) items) (view_of (ro_ignorePrec o) items) (gr_syms g);
  gi_cls : forall x ys, class_of items x = Some ys -> lower x;
  gi_rules : Forall2 (rule_is (ro_ignorePrec o) (gr_syms g)) (filter is_rule items) (rev (gr_rules g));
  gi_wild : match wildcard_of items with None => gr_wildcard g = None | Some x => exists j, gr_wildcard g = Some j /\ isn (gr_syms g) j x end;
  gi_slots : forall s, ro_nolinenos o = true \/ is_code s = false -> slot_get s (gr_slots g) = slot_text s items;
  gi_count : gr_preccounter g = length (filter is_assoc items);
  gi_yacc : gr_yaccPrec g = existsb is_yacc items
}.

(** The declarations of a longer file. *)
Lemma symbols_snoc : forall ign items i, symbols_of ign (items ++ [i]) = addl (symbols_of ign items) (mentions ign i).
Proof. intros ign items i. unfold symbols_of. rewrite flat_map_app. cbn [flat_map]. rewrite app_nil_r. change (zs "$" :: flat_map (mentions ign) items ++ mentions ign i) with ((zs "$" :: flat_map (mentions ign) items) ++ mentions ign i). apply firsts_app. Qed.
Lemma prec_from_app : forall l m n x, prec_from n (l ++ m) x = match prec_from n l x with Some v => Some v | None => prec_from (n + length (filter is_assoc l)) m x end.
Proof.
  induction l as [|i l IH]; intros m n x; cbn [app prec_from filter length]; [now rewrite Nat.add_0_r|]. destruct i; cbn [is_assoc]; try apply IH. destruct (mem x l0); [reflexivity|]. cbn [length]. rewrite IH. replace (n + S (length (filter is_assoc l))) with (S n + length (filter is_assoc l)) by lia. reflexivity.
Qed.
Lemma prec_snoc : forall ign l i x, prec_of ign (l ++ [i]) x = match prec_of ign l x with Some v => Some v | None => if ign then None else prec_from (1 + length (filter is_assoc l)) [i] x end.
Proof. intros ign l i x. unfold prec_of. destruct ign; [reflexivity|]. apply prec_from_app. Qed.
Lemma fallback_app : forall l m x, fallback_of (l ++ m) x = match fallback_of l x with Some v => Some v | None => fallback_of m x end.
Proof. induction l as [|i l IH]; intros m x; cbn [app fallback_of]; [reflexivity|]. destruct i; try apply IH. destruct (mem x l0); [reflexivity|apply IH]. Qed.
Lemma class_app : forall l m x, class_of (l ++ m) x = match class_of l x with Some v => Some v | None => class_of m x end.
Proof. induction l as [|i l IH]; intros m x; cbn [app class_of]; [reflexivity|]. destruct i; try apply IH. destruct (eqt x c); [reflexivity|apply IH]. Qed.
Lemma type_app : forall l m x, type_of (l ++ m) x = match type_of l x with Some v => Some v | None => type_of m x end.
Proof. induction l as [|i l IH]; intros m x; cbn [app type_of]; [reflexivity|]. destruct i; try apply IH. destruct (eqt x x0); [reflexivity|apply IH]. Qed.
Lemma wildcard_app : forall l m, wildcard_of (l ++ m) = match wildcard_of l with Some v => Some v | None => wildcard_of m end.
Proof. induction l as [|i l IH]; intros m; cbn [app wildcard_of]; [reflexivity|]. destruct i; try apply IH. reflexivity. Qed.
Lemma slot_args_app : forall s l m, slot_args s (l ++ m) = slot_args s l ++ slot_args s m.
Proof. induction l as [|i l IH]; intros m; cbn [app slot_args]; [reflexivity|]. destruct i; try apply IH. destruct (gslot_beq s s0); [cbn; now rewrite IH|apply IH]. Qed.

Lemma view_neutral : forall ign items i, match i with IAssoc _ _ | IFallback _ _ | IClass _ _ | IType _ _ => False | _ => True end -> veq (view_of ign items) (view_of ign (items ++ [i])).
Proof.
  intros ign items i H x. unfold view_of. cbn [v_prec v_fb v_cls v_typ]. rewrite prec_snoc, fallback_app, class_app, type_app.
  assert (A : forall A (u : option A), u = match u with Some v => Some v | None => None end) by (intros A [u|]; reflexivity).
  destruct i; try destruct H; cbn [prec_from fallback_of class_of type_of]; destruct ign; repeat split; apply A.
Qed.

Lemma pct : forall o n p, ready p -> parseonetoken o n (zs "%") p = Ok (mkPst (set_state WAITING_FOR_DECL_KEYWORD (p_c p)) (p_g p)).
Proof. intros o n p [H|H]; unfold parseonetoken; rewrite H; reflexivity. Qed.

(** The rest of a file state that an item does not touch. *)
Lemma rules_keep : forall o items i g l', GInv o items g -> is_rule i = false -> keeps (gr_syms g) l' ->
  Forall2 (rule_is (ro_ignorePrec o) l') (filter is_rule (items ++ [i])) (rev (gr_rules g)).
Proof.
  intros o items i g l' G R K. rewrite filter_app. cbn [filter]. rewrite R, app_nil_r. eapply Forall2_mono; [|exact (gi_rules _ _ _ G)]. intros a b. now apply rule_is_mono.
Qed.
Lemma wild_keep : forall o items i g l', GInv o items g -> wildcard_of [i] = None -> keeps (gr_syms g) l' ->
  match wildcard_of (items ++ [i]) with None => gr_wildcard g = None | Some x => exists j, gr_wildcard g = Some j /\ isn l' j x end.
Proof.
  intros o items i g l' G W K. rewrite wildcard_app, W. pose proof (gi_wild _ _ _ G) as X. destruct (wildcard_of items); [|exact X]. destruct X as (j & A & B). exists j. split; [exact A|eapply keeps_isn; eauto].
Qed.
Lemma slots_keep : forall o items i g, GInv o items g -> (forall s, slot_args s [i] = []) -> forall s, ro_nolinenos o = true \/ is_code s = false -> slot_get s (gr_slots g) = slot_text s (items ++ [i]).
Proof. intros o items i g G H s C. unfold slot_text. rewrite slot_args_app, H, app_nil_r. apply (gi_slots _ _ _ G s C). Qed.
Lemma cls_keep : forall o items i g, GInv o items g -> (forall x, class_of [i] x = None) -> forall x ys, class_of (items ++ [i]) x = Some ys -> lower x.
Proof. intros o items i g G H x ys. rewrite class_app, H. destruct (class_of items x) eqn:E; [|discriminate]. intros X. eapply (gi_cls _ _ _ G); eauto. Qed.
Lemma count_keep : forall o items i g, GInv o items g -> is_assoc i = false -> gr_preccounter g = length (filter is_assoc (items ++ [i])).
Proof. intros o items i g G H. rewrite filter_app. cbn [filter]. rewrite H, app_nil_r. apply (gi_count _ _ _ G). Qed.
Lemma yacc_keep : forall o items i g, GInv o items g -> is_yacc i = false -> gr_yaccPrec g = existsb is_yacc (items ++ [i]).
Proof. intros o items i g G H. rewrite existsb_app. cbn [existsb]. rewrite H, !orb_false_r. apply (gi_yacc _ _ _ G). Qed.

Definition goes (o : ropts) (items : list item) (i : item) : Prop := forall evs p, texts evs (item_tokens i) -> ready p -> GInv o items (p_g p) ->
  exists p', feed_tokens o evs p = Ok p' /\ ready p' /\ GInv o (items ++ [i]) (p_g p').

(** %token *)
Lemma dot_end : forall o n st c g, (st = WAITING_FOR_PRECEDENCE_SYMBOL \/ st = WAITING_FOR_FALLBACK_ID \/ st = WAITING_FOR_TOKEN_NAME \/ st = WAITING_FOR_WILDCARD_ID \/ st = WAITING_FOR_CLASS_TOKEN) -> c_state c = st ->
  parseonetoken o n dot (mkPst c g) = Ok (mkPst (set_state WAITING_FOR_DECL_OR_RULE c) g).
Proof. intros o n st c g H E. unfold parseonetoken. cbn [p_c p_g]. rewrite E. clear E. destruct H as [-> | [-> | [-> | [-> | ->]]]]; reflexivity. Qed.

Lemma token_loop : forall o ys evs N V l c g, texts evs ys -> c_state c = WAITING_FOR_TOKEN_NAME -> SymInv N V l -> Forall upper ys ->
  exists l', feed_tokens o evs (mkPst c (set_syms l g)) = Ok (mkPst c (set_syms l' g)) /\ SymInv (addl N ys) V l' /\ keeps l l'.
Proof.
  induction ys as [|y ys IH]; intros evs N V l c g T S0 I U.
  - apply texts_nil in T. subst. exists l. split; [reflexivity|]. split; [exact I|apply keeps_refl].
  - apply texts_cons in T as (n & evs' & -> & T). inversion U as [|? ? U1 U2]; subst. destruct (sym_new y l) as [i l1] eqn:EN. destruct (sym_new_inv _ _ _ _ _ _ I EN) as (I1 & _ & K1 & _).
    destruct (upper_facts y U1) as (A1 & A2 & _). cbn [feed_tokens].
    assert (P : parseonetoken o n y (mkPst c (set_syms l g)) = Ok (mkPst c (set_syms l1 g))) by (unfold parseonetoken; cbn [p_c p_g]; rewrite S0, A1, A2; cbn [negb gr_syms set_syms]; rewrite EN; reflexivity).
    rewrite P. cbn [bind]. destruct (IH evs' _ _ l1 c g T S0 I1 U2) as (l2 & R & I2 & K2). exists l2. split; [exact R|]. split; [exact I2|eapply keeps_trans; eauto].
Qed.

Ltac tok T n := let e := fresh "evs" in apply texts_cons in T as (n & e & -> & T).

Lemma set_syms_same : forall g, set_syms (gr_syms g) g = g.
Proof. now intros []. Qed.

Lemma goes_token : forall o items l, item_shape (IToken l) -> goes o items (IToken l).
Proof.
  intros o items ys OK evs p T R G. cbn in OK. cbn [item_tokens decl] in T. tok T n1. tok T n2. apply texts_app in T as (e1 & e2 & -> & T1 & T2). tok T2 n3. apply texts_nil in T2. subst.
  cbn [feed_tokens]. rewrite (pct o n1 p R). cbn [bind].
  set (c := set_slot WAITING_FOR_TOKEN_NAME None true None (set_state WAITING_FOR_DECL_KEYWORD (p_c p))).
  assert (P : parseonetoken o n2 (zs "token") (mkPst (set_state WAITING_FOR_DECL_KEYWORD (p_c p)) (p_g p)) = Ok (mkPst c (p_g p))) by reflexivity.
  rewrite P. cbn [bind]. rewrite feed_app. destruct (token_loop o ys e1 _ _ (gr_syms (p_g p)) c (p_g p) T1 eq_refl (gi_sym _ _ _ G) OK) as (l' & R1 & I1 & K1).
  rewrite set_syms_same in R1. rewrite R1. cbn [bind feed_tokens]. rewrite (dot_end o n3 WAITING_FOR_TOKEN_NAME c _) by (auto; reflexivity). cbn [bind].
  eexists. split; [reflexivity|]. split; [right; reflexivity|]. cbn [p_g]. constructor; cbn [gr_err gr_syms gr_rules gr_wildcard gr_slots gr_preccounter gr_yaccPrec set_syms].
  - apply (gi_err _ _ _ G).
  - rewrite symbols_snoc. eapply SymInv_veq; [apply view_neutral; exact Logic.I|exact I1].
  - apply (cls_keep _ _ _ _ G). reflexivity.
  - now apply (rules_keep _ _ _ _ _ G).
  - now apply (wild_keep _ _ _ _ _ G).
  - now apply (slots_keep _ _ _ _ G).
  - now apply (count_keep _ _ _ _ G).
  - now apply (yacc_keep _ _ _ _ G).
Qed.

(** %left and the like *)
Definition set_prec (n : nat) (a : e_assoc) (ys : list text) (V : view) : view :=
  mkView (fun x => if mem x ys then Some (n, a) else v_prec V x) (v_fb V) (v_cls V) (v_typ V).

Lemma prec_loop : forall o ys evs N V l c g, ro_ignorePrec o = false -> texts evs ys -> c_state c = WAITING_FOR_PRECEDENCE_SYMBOL -> SymInv N V l -> Forall upper ys -> NoDup ys -> (forall x, In x ys -> v_prec V x = None) ->
  exists l', feed_tokens o evs (mkPst c (set_syms l g)) = Ok (mkPst c (set_syms l' g)) /\ SymInv (addl N ys) (set_prec (gr_preccounter g) (c_assoc c) ys V) l' /\ keeps l l'.
Proof.
  induction ys as [|y ys IH]; intros evs N V l c g IG T S0 I U ND NP.
  - apply texts_nil in T. subst. exists l. split; [reflexivity|]. split; [|apply keeps_refl]. eapply SymInv_veq; [|exact I]. intros x. cbn. auto.
  - tok T n. inversion U as [|? ? U1 U2]; subst. inversion ND as [|? ? D1 D2]; subst. destruct (sym_new y l) as [i l1] eqn:EN. destruct (sym_new_inv _ _ _ _ _ _ I EN) as (I1 & (s & E & NM & NX) & K1 & _).
    destruct (upper_facts y U1) as (A1 & A2 & _). pose proof (si_named _ _ _ I1 _ _ E NM) as SK. pose proof SK as (SP & _). rewrite NX, (NP y ltac:(now left)) in SP. cbn in SP.
    set (s' := with_prec (gr_preccounter g) (c_assoc c) s).
    assert (P : parseonetoken o n y (mkPst c (set_syms l g)) = Ok (mkPst c (set_syms (upd l1 i s') g))).
    { unfold parseonetoken. cbn [p_c p_g]. rewrite S0, A1, A2, IG. cbn [gr_syms set_syms]. rewrite EN, E. cbn [opt bind]. rewrite SP. reflexivity. }
    cbn [feed_tokens]. rewrite P. cbn [bind].
    destruct (upd_inv _ V (set_prec (gr_preccounter g) (c_assoc c) [y] V) l1 i s s' I1 E NM eq_refl NM) as (I2 & K2).
    { intros z Z. cbn. rewrite NX in Z. rewrite (proj2 (eqt_ne z y) Z). auto. }
    { destruct SK as (_ & _ & C & D & F & H). unfold sok, s'. cbn [so_prec so_assoc so_name so_fallback so_type so_sub so_dtype with_prec set_prec v_prec v_fb v_cls v_typ]. rewrite NX in *. cbn [mem existsb]. rewrite eqt_refl. cbn. auto 10. }
    destruct (IH evs0 _ _ (upd l1 i s') c g IG T S0 I2 U2 D2) as (l2 & R & I3 & K3).
    { intros x X. cbn. destruct (eqt x y) eqn:XY; [apply eqt_ok in XY; subst; contradiction|]. cbn. apply NP. now right. }
    exists l2. split; [exact R|]. split; [|eapply keeps_trans; [exact K1|eapply keeps_trans; eauto]]. eapply SymInv_veq; [|exact I3]. intros x. cbn. destruct (eqt x y); cbn; [destruct (mem x ys); auto|auto].
Qed.

Lemma prec_skip : forall o ys evs c g, ro_ignorePrec o = true -> texts evs ys -> c_state c = WAITING_FOR_PRECEDENCE_SYMBOL -> Forall upper ys -> feed_tokens o evs (mkPst c g) = Ok (mkPst c g).
Proof.
  induction ys as [|y ys IH]; intros evs c g IG T S0 U; [apply texts_nil in T; now subst|]. tok T n. inversion U as [|? ? U1 U2]; subst. destruct (upper_facts y U1) as (A1 & A2 & _).
  cbn [feed_tokens]. unfold parseonetoken at 1. cbn [p_c p_g]. rewrite S0, A1, A2, IG. cbn [bind]. now apply IH.
Qed.

Lemma goes_assoc : forall o items a l, item_shape (IAssoc a l) -> item_new (ro_ignorePrec o) items (IAssoc a l) -> goes o items (IAssoc a l).
Proof.
  intros o items a ys (NU & UP) NEW evs p T R G. cbn [item_tokens decl] in T. tok T n1. tok T n2. apply texts_app in T as (e1 & e2 & -> & T1 & T2). tok T2 n3. apply texts_nil in T2. subst.
  cbn [feed_tokens]. rewrite (pct o n1 p R). cbn [bind].
  set (c := set_assoc WAITING_FOR_PRECEDENCE_SYMBOL a (set_slot WAITING_FOR_DECL_ARG None true None (set_state WAITING_FOR_DECL_KEYWORD (p_c p)))).
  assert (P : parseonetoken o n2 (assoc_word a) (mkPst (set_state WAITING_FOR_DECL_KEYWORD (p_c p)) (p_g p)) = Ok (mkPst c (next_prec (p_g p)))) by (destruct a; try reflexivity; congruence).
  rewrite P. cbn [bind]. rewrite feed_app.
  assert (X : exists l', feed_tokens o e1 (mkPst c (next_prec (p_g p))) = Ok (mkPst c (set_syms l' (next_prec (p_g p)))) /\
    SymInv (addl (symbols_of (ro_ignorePrec o) items) (mentions (ro_ignorePrec o) (IAssoc a ys))) (view_of (ro_ignorePrec o) (items ++ [IAssoc a ys])) l' /\ keeps (gr_syms (p_g p)) l').
  { destruct (ro_ignorePrec o) eqn:IG.
    - exists (gr_syms (p_g p)). rewrite (prec_skip o ys e1 c _ IG T1 eq_refl UP). split; [f_equal; f_equal; symmetry; exact (set_syms_same (next_prec (p_g p)))|]. split; [|apply keeps_refl]. cbn [mentions]. cbn [addl fold_left]. pose proof (gi_sym _ _ _ G) as I. rewrite IG in I.
      eapply SymInv_veq; [|exact I]. intros x. cbn. rewrite fallback_app, class_app, type_app. cbn. destruct (fallback_of items x), (class_of items x), (type_of items x); auto.
    - destruct (NEW eq_refl) as (ND & FR). pose proof (gi_sym _ _ _ G) as I. rewrite IG in I.
      destruct (prec_loop o ys e1 _ _ (gr_syms (p_g p)) c (next_prec (p_g p)) IG T1 eq_refl I UP ND FR) as (l' & R1 & I1 & K1).
      exists l'. split; [rewrite <- R1; f_equal; f_equal; symmetry; apply (set_syms_same (next_prec (p_g p)))|]. split; [|exact K1]. cbn [mentions]. eapply SymInv_veq; [|exact I1]. intros x. cbn [set_prec view_of v_prec v_fb v_cls v_typ].
      rewrite fallback_app, class_app, type_app, prec_snoc. cbn [prec_from fallback_of class_of type_of next_prec gr_preccounter]. rewrite (gi_count _ _ _ G). repeat split; try (destruct (fallback_of items x), (class_of items x), (type_of items x); reflexivity).
      destruct (mem x ys) eqn:M; [apply mem_ok in M; rewrite (FR x M); reflexivity|]. destruct (prec_of false items x); reflexivity. }
  destruct X as (l' & R1 & I1 & K1). rewrite R1. cbn [bind feed_tokens]. rewrite (dot_end o n3 WAITING_FOR_PRECEDENCE_SYMBOL c _) by (auto; reflexivity). cbn [bind].
  eexists. split; [reflexivity|]. split; [right; reflexivity|]. cbn [p_g]. constructor; cbn [gr_err gr_syms gr_rules gr_wildcard gr_slots gr_preccounter gr_yaccPrec set_syms next_prec].
  - apply (gi_err _ _ _ G).
  - rewrite symbols_snoc. exact I1.
  - apply (cls_keep _ _ _ _ G). reflexivity.
  - now apply (rules_keep _ _ _ _ _ G).
  - now apply (wild_keep _ _ _ _ _ G).
  - now apply (slots_keep _ _ _ _ G).
  - rewrite filter_app, app_length, (gi_count _ _ _ G). cbn. lia.
  - now apply (yacc_keep _ _ _ _ G).
Qed.

(** %fallback *)
Definition set_fb (f : text) (ys : list text) (V : view) : view :=
  mkView (v_prec V) (fun x => if mem x ys then Some f else v_fb V x) (v_cls V) (v_typ V).

Lemma fb_loop : forall o ys evs N V l c g f j, texts evs ys -> c_state c = WAITING_FOR_FALLBACK_ID -> c_fallback c = Some j -> isn l j f -> SymInv N V l -> Forall upper ys -> NoDup ys -> (forall x, In x ys -> v_fb V x = None) ->
  exists l', feed_tokens o evs (mkPst c (set_syms l g)) = Ok (mkPst c (set_syms l' g)) /\ SymInv (addl N ys) (set_fb f ys V) l' /\ keeps l l'.
Proof.
  induction ys as [|y ys IH]; intros evs N V l c g f j T S0 CF IF I U ND NP.
  - apply texts_nil in T. subst. exists l. split; [reflexivity|]. split; [|apply keeps_refl]. eapply SymInv_veq; [|exact I]. intros x. cbn. auto.
  - tok T n. inversion U as [|? ? U1 U2]; subst. inversion ND as [|? ? D1 D2]; subst. destruct (sym_new y l) as [i l1] eqn:EN. destruct (sym_new_inv _ _ _ _ _ _ I EN) as (I1 & (s & E & NM & NX) & K1 & _).
    destruct (upper_facts y U1) as (A1 & A2 & _). pose proof (si_named _ _ _ I1 _ _ E NM) as SK. pose proof SK as (_ & _ & SP & _). rewrite NX, (NP y ltac:(now left)) in SP.
    set (s' := with_fallback j s).
    assert (P : parseonetoken o n y (mkPst c (set_syms l g)) = Ok (mkPst c (set_syms (upd l1 i s') g))).
    { unfold parseonetoken. cbn [p_c p_g]. rewrite S0, A1, A2. cbn [negb gr_syms set_syms]. rewrite EN, CF, E. cbn [opt bind]. rewrite SP. reflexivity. }
    cbn [feed_tokens]. rewrite P. cbn [bind]. pose proof (keeps_isn _ _ _ _ K1 IF) as IF1.
    destruct (upd_inv _ V (set_fb f [y] V) l1 i s s' I1 E NM eq_refl NM) as (I2 & K2).
    { intros z Z. cbn. rewrite NX in Z. rewrite (proj2 (eqt_ne z y) Z). auto. }
    { destruct SK as (B1 & B2 & _ & D & F & H). unfold sok, s'. cbn [so_prec so_assoc so_name so_fallback so_type so_sub so_dtype with_fallback set_fb v_prec v_fb v_cls v_typ]. rewrite NX in *. cbn [mem existsb]. rewrite eqt_refl. cbn [orb].
      split; [exact B1|]. split; [exact B2|]. split; [exists j; auto|]. split; [exact D|]. split; [exact F|exact H]. }
    destruct (IH evs0 _ _ (upd l1 i s') c g f j T S0 CF (keeps_isn _ _ _ _ K2 IF1) I2 U2 D2) as (l2 & R & I3 & K3).
    { intros x X. cbn. destruct (eqt x y) eqn:XY; [apply eqt_ok in XY; subst; contradiction|]. cbn. apply NP. now right. }
    exists l2. split; [exact R|]. split; [|eapply keeps_trans; [exact K1|eapply keeps_trans; eauto]]. eapply SymInv_veq; [|exact I3]. intros x. cbn. destruct (eqt x y); cbn; [destruct (mem x ys); auto|auto].
Qed.

Lemma goes_fallback : forall o items f l, item_shape (IFallback f l) -> item_new (ro_ignorePrec o) items (IFallback f l) -> goes o items (IFallback f l).
Proof.
  intros o items f ys (UF & UP) (ND & FR) evs p T R G. cbn [item_tokens decl] in T. tok T n1. tok T n2. apply texts_app in T as (e1 & e2 & -> & T1 & T2). tok T1 n4. tok T2 n3. apply texts_nil in T2. subst.
  cbn [feed_tokens]. rewrite (pct o n1 p R). cbn [bind].
  set (c := set_fallback None (set_slot WAITING_FOR_FALLBACK_ID None true None (set_state WAITING_FOR_DECL_KEYWORD (p_c p)))).
  assert (P : parseonetoken o n2 (zs "fallback") (mkPst (set_state WAITING_FOR_DECL_KEYWORD (p_c p)) (p_g p)) = Ok (mkPst c (p_g p))) by reflexivity.
  rewrite P. cbn [bind]. cbn [app feed_tokens]. destruct (sym_new f (gr_syms (p_g p))) as [j l1] eqn:EN. destruct (sym_new_inv _ _ _ _ _ _ (gi_sym _ _ _ G) EN) as (I0 & IF & K0 & _).
  destruct (upper_facts f UF) as (A1 & A2 & _).
  assert (P2 : parseonetoken o n4 f (mkPst c (p_g p)) = Ok (mkPst (set_fallback (Some j) c) (set_syms l1 (p_g p)))) by (unfold parseonetoken; cbn [p_c p_g]; change (c_state c) with WAITING_FOR_FALLBACK_ID; cbn match; rewrite A1, A2; cbn [negb]; rewrite EN; reflexivity).
  rewrite P2. cbn [bind]. rewrite feed_app.
  destruct (fb_loop o ys _ _ _ l1 (set_fallback (Some j) c) (p_g p) f j T1 eq_refl eq_refl IF I0 UP ND FR) as (l' & R1 & I1 & K1).
  rewrite R1. cbn [bind feed_tokens]. rewrite (dot_end o n3 WAITING_FOR_FALLBACK_ID (set_fallback (Some j) c) _) by (auto; reflexivity). cbn [bind].
  assert (K : keeps (gr_syms (p_g p)) l') by (eapply keeps_trans; eauto).
  eexists. split; [reflexivity|]. split; [right; reflexivity|]. cbn [p_g]. constructor; cbn [gr_err gr_syms gr_rules gr_wildcard gr_slots gr_preccounter gr_yaccPrec set_syms].
  - apply (gi_err _ _ _ G).
  - rewrite symbols_snoc. cbn [mentions]. eapply SymInv_veq; [|exact I1]. intros x. cbn [set_fb view_of v_prec v_fb v_cls v_typ]. rewrite fallback_app, class_app, type_app, prec_snoc. cbn [prec_from fallback_of class_of type_of].
    split; [destruct (prec_of _ items x); [reflexivity|now destruct (ro_ignorePrec o)]|]. split; [|destruct (class_of items x), (type_of items x); auto].
    destruct (mem x ys) eqn:M; [apply mem_ok in M; rewrite (FR x M); reflexivity|]. destruct (fallback_of items x); reflexivity.
  - apply (cls_keep _ _ _ _ G). reflexivity.
  - now apply (rules_keep _ _ _ _ _ G).
  - now apply (wild_keep _ _ _ _ _ G).
  - now apply (slots_keep _ _ _ _ G).
  - now apply (count_keep _ _ _ _ G).
  - now apply (yacc_keep _ _ _ _ G).
Qed.

(** %token_class *)
Definition set_cls (k : text) (zs0 : list text) (V : view) : view :=
  mkView (v_prec V) (v_fb V) (fun x => if eqt x k then Some zs0 else v_cls V x) (v_typ V).

Lemma cls_loop : forall o ys evs N V l c g k zs0, texts evs ys -> c_state c = WAITING_FOR_CLASS_TOKEN -> isn l (c_class c) k -> SymInv N (set_cls k zs0 V) l -> Forall upper ys ->
  exists l', feed_tokens o evs (mkPst c (set_syms l g)) = Ok (mkPst c (set_syms l' g)) /\ SymInv (addl N ys) (set_cls k (zs0 ++ ys) V) l' /\ keeps l l'.
Proof.
  induction ys as [|y ys IH]; intros evs N V l c g k zs0 T S0 IC I U.
  - apply texts_nil in T. subst. exists l. rewrite app_nil_r. split; [reflexivity|]. split; [exact I|apply keeps_refl].
  - tok T n. inversion U as [|? ? U1 U2]; subst. destruct (sym_new y l) as [i l1] eqn:EN. destruct (sym_new_inv _ _ _ _ _ _ I EN) as (I1 & IY & K1 & _).
    destruct (upper_facts y U1) as (A1 & A2 & _). pose proof (keeps_isn _ _ _ _ K1 IC) as (s & E & NM & NX). pose proof (si_named _ _ _ I1 _ _ E NM) as SK. 
    set (s' := with_type_sub (so_type s) (so_sub s ++ [i]) s).
    assert (P : parseonetoken o n y (mkPst c (set_syms l g)) = Ok (mkPst c (set_syms (upd l1 (c_class c) s') g))).
    { unfold parseonetoken. cbn [p_c p_g]. rewrite S0, A1, A2. cbn [orb gr_syms set_syms]. rewrite EN, E. cbn [opt bind]. reflexivity. }
    cbn [feed_tokens]. rewrite P. cbn [bind].
    destruct (upd_inv _ (set_cls k zs0 V) (set_cls k (zs0 ++ [y]) V) l1 (c_class c) s s' I1 E NM eq_refl NM) as (I2 & K2).
    { intros z Z. cbn. rewrite NX in Z. rewrite (proj2 (eqt_ne z k) Z). auto. }
    { destruct SK as (B1 & B2 & B3 & D & F & H). unfold sok, s'. cbn [so_prec so_assoc so_name so_fallback so_type so_sub so_dtype with_type_sub set_cls v_prec v_fb v_cls v_typ] in *. rewrite NX in *. rewrite eqt_refl in *.
      split; [exact B1|]. split; [exact B2|]. split; [exact B3|]. split; [exact D|]. split; [apply Forall2_app; auto|exact H]. }
    assert (IC2 : isn (upd l1 (c_class c) s') (c_class c) k) by (eapply keeps_isn; [exact K2|exists s; auto]).
    destruct (IH evs0 _ V (upd l1 (c_class c) s') c g k (zs0 ++ [y]) T S0 IC2 I2 U2) as (l2 & R & I3 & K3).
    exists l2. rewrite <- app_assoc in I3. split; [exact R|]. split; [exact I3|eapply keeps_trans; [exact K1|eapply keeps_trans; eauto]].
Qed.

Lemma goes_class : forall o items k l, item_shape (IClass k l) -> item_new (ro_ignorePrec o) items (IClass k l) -> goes o items (IClass k l).
Proof.
  intros o items k ys (LK & UP) NI evs p T R G. cbn [item_tokens decl] in T. tok T n1. tok T n2. apply texts_app in T as (e1 & e2 & -> & T1 & T2). tok T1 n4. tok T2 n3. apply texts_nil in T2. subst.
  cbn [feed_tokens]. rewrite (pct o n1 p R). cbn [bind].
  set (c := set_slot WAITING_FOR_CLASS_ID None true None (set_state WAITING_FOR_DECL_KEYWORD (p_c p))).
  assert (P : parseonetoken o n2 (zs "token_class") (mkPst (set_state WAITING_FOR_DECL_KEYWORD (p_c p)) (p_g p)) = Ok (mkPst c (p_g p))) by reflexivity.
  rewrite P. cbn [bind]. cbn [app feed_tokens]. pose proof (gi_sym _ _ _ G) as I. destruct (sym_new k (gr_syms (p_g p))) as [j l1] eqn:EN. destruct (sym_new_inv _ _ _ _ _ _ I EN) as (I0 & (s & E & NM & NX) & K0 & _).
  destruct (lower_facts k LK) as (A1 & A2 & A3).
  assert (NF : sym_find k (gr_syms (p_g p)) = None).
  { destruct (sym_find k (gr_syms (p_g p))) as [q|] eqn:Q; [|reflexivity]. exfalso. apply NI. rewrite <- (si_names _ _ _ I). eapply isn_names. eapply sym_find_Some. exact Q. }
  set (s' := with_type_sub MULTITERMINAL [] s).
  assert (P2 : parseonetoken o n4 k (mkPst c (p_g p)) = Ok (mkPst (set_class WAITING_FOR_CLASS_TOKEN j c) (set_syms (upd l1 j s') (p_g p)))) by (unfold parseonetoken; cbn [p_c p_g]; change (c_state c) with WAITING_FOR_CLASS_ID; cbn match; rewrite A2; cbn [negb]; rewrite NF, EN, E; reflexivity).
  rewrite P2. cbn [bind]. rewrite feed_app.
  destruct (upd_inv _ _ (set_cls k [] (view_of (ro_ignorePrec o) items)) l1 j s s' I0 E NM eq_refl NM) as (I2 & K2).
  { intros z Z. cbn. rewrite NX in Z. rewrite (proj2 (eqt_ne z k) Z). auto. }
  { destruct (si_named _ _ _ I0 _ _ E NM) as (B1 & B2 & B3 & D & F & H). unfold sok, s'. cbn [so_prec so_assoc so_name so_fallback so_type so_sub so_dtype with_type_sub set_cls v_prec v_fb v_cls v_typ] in *. rewrite NX in *. rewrite eqt_refl in *.
    split; [exact B1|]. split; [exact B2|]. split; [exact B3|]. split; [reflexivity|]. split; [constructor|exact H]. }
  assert (IC : isn (upd l1 j s') (c_class (set_class WAITING_FOR_CLASS_TOKEN j c)) k) by (eapply keeps_isn; [exact K2|exists s; auto]).
  destruct (cls_loop o ys _ _ _ (upd l1 j s') (set_class WAITING_FOR_CLASS_TOKEN j c) (p_g p) k [] T1 eq_refl IC I2 UP) as (l' & R1 & I1 & K1).
  rewrite R1. cbn [bind feed_tokens]. rewrite (dot_end o n3 WAITING_FOR_CLASS_TOKEN (set_class WAITING_FOR_CLASS_TOKEN j c) _) by (auto 10; reflexivity). cbn [bind].
  assert (K : keeps (gr_syms (p_g p)) l') by (eapply keeps_trans; [exact K0|eapply keeps_trans; eauto]).
  assert (CN : class_of items k = None) by (apply (si_dom _ _ _ I k NI)).
  eexists. split; [reflexivity|]. split; [right; reflexivity|]. cbn [p_g]. constructor; cbn [gr_err gr_syms gr_rules gr_wildcard gr_slots gr_preccounter gr_yaccPrec set_syms].
  - apply (gi_err _ _ _ G).
  - rewrite symbols_snoc. cbn [mentions]. eapply SymInv_veq; [|exact I1]. intros x. cbn [set_cls view_of v_prec v_fb v_cls v_typ app]. rewrite fallback_app, class_app, type_app, prec_snoc. cbn [prec_from fallback_of class_of type_of].
    split; [destruct (prec_of _ items x); [reflexivity|now destruct (ro_ignorePrec o)]|]. split; [destruct (fallback_of items x); auto|]. split; [|destruct (type_of items x); auto].
    destruct (eqt x k) eqn:XK; [apply eqt_ok in XK; subst; rewrite CN; reflexivity|]. destruct (class_of items x); reflexivity.
  - intros x zs0. rewrite class_app. destruct (class_of items x) eqn:CX; [intros _; eapply (gi_cls _ _ _ G); eauto|]. cbn. destruct (eqt x k) eqn:XK; [apply eqt_ok in XK; now subst|discriminate].
  - now apply (rules_keep _ _ _ _ _ G).
  - now apply (wild_keep _ _ _ _ _ G).
  - now apply (slots_keep _ _ _ _ G).
  - now apply (count_keep _ _ _ _ G).
  - now apply (yacc_keep _ _ _ _ G).
Qed.

(** %wildcard, %yacc_prec *)
Lemma goes_wildcard : forall o items x, item_shape (IWildcard x) -> item_new (ro_ignorePrec o) items (IWildcard x) -> goes o items (IWildcard x).
Proof.
  intros o items x UX NW evs p T R G. cbn [item_tokens decl app] in T. tok T n1. tok T n2. tok T n4. tok T n3. apply texts_nil in T. subst.
  cbn [feed_tokens]. rewrite (pct o n1 p R). cbn [bind].
  set (c := set_slot WAITING_FOR_WILDCARD_ID None true None (set_state WAITING_FOR_DECL_KEYWORD (p_c p))).
  assert (P : parseonetoken o n2 (zs "wildcard") (mkPst (set_state WAITING_FOR_DECL_KEYWORD (p_c p)) (p_g p)) = Ok (mkPst c (p_g p))) by reflexivity.
  rewrite P. cbn [bind]. destruct (sym_new x (gr_syms (p_g p))) as [j l1] eqn:EN. destruct (sym_new_inv _ _ _ _ _ _ (gi_sym _ _ _ G) EN) as (I0 & IX & K & _).
  destruct (upper_facts x UX) as (A1 & A2 & _). pose proof (gi_wild _ _ _ G) as W. rewrite NW in W.
  assert (P2 : parseonetoken o n4 x (mkPst c (p_g p)) = Ok (mkPst c (set_wildcard (Some j) (set_syms l1 (p_g p))))) by (unfold parseonetoken; cbn [p_c p_g]; change (c_state c) with WAITING_FOR_WILDCARD_ID; cbn match; rewrite A1, A2; cbn [negb]; rewrite EN, W; reflexivity).
  rewrite P2. cbn [bind]. rewrite (dot_end o n3 WAITING_FOR_WILDCARD_ID c _) by (auto 10; reflexivity). cbn [bind].
  eexists. split; [reflexivity|]. split; [right; reflexivity|]. cbn [p_g]. constructor; cbn [gr_err gr_syms gr_rules gr_wildcard gr_slots gr_preccounter gr_yaccPrec set_syms set_wildcard].
  - apply (gi_err _ _ _ G).
  - rewrite symbols_snoc. eapply SymInv_veq; [apply view_neutral; exact Logic.I|exact I0].
  - apply (cls_keep _ _ _ _ G). reflexivity.
  - now apply (rules_keep _ _ _ _ _ G).
  - rewrite wildcard_app, NW. cbn. exists j. auto.
  - now apply (slots_keep _ _ _ _ G).
  - now apply (count_keep _ _ _ _ G).
  - now apply (yacc_keep _ _ _ _ G).
Qed.

Lemma goes_yacc : forall o items, goes o items IYaccPrec.
Proof.
  intros o items evs p T R G. cbn [item_tokens] in T. tok T n1. tok T n2. apply texts_nil in T. subst.
  cbn [feed_tokens]. rewrite (pct o n1 p R). cbn [bind].
  assert (P : parseonetoken o n2 (zs "yacc_prec") (mkPst (set_state WAITING_FOR_DECL_KEYWORD (p_c p)) (p_g p)) = Ok (mkPst (set_slot WAITING_FOR_DECL_OR_RULE None false None (set_state WAITING_FOR_DECL_KEYWORD (p_c p))) (set_yaccPrec (p_g p)))) by reflexivity.
  rewrite P. cbn [bind]. eexists. split; [reflexivity|]. split; [right; reflexivity|]. pose proof (keeps_refl (gr_syms (p_g p))) as K. cbn [p_g]. constructor; cbn [gr_err gr_syms gr_rules gr_wildcard gr_slots gr_preccounter gr_yaccPrec set_yaccPrec].
  - apply (gi_err _ _ _ G).
  - rewrite symbols_snoc. eapply SymInv_veq; [apply view_neutral; exact Logic.I|exact (gi_sym _ _ _ G)].
  - apply (cls_keep _ _ _ _ G). reflexivity.
  - now apply (rules_keep _ _ _ _ _ G).
  - now apply (wild_keep _ _ _ _ _ G).
  - now apply (slots_keep _ _ _ _ G).
  - now apply (count_keep _ _ _ _ G).
  - rewrite existsb_app. cbn. now rewrite orb_true_r.
Qed.

(** Declarations with an argument *)
Lemma arg_ok_bool : forall x, arg_ok x -> (ch x 0 =? 123)%Z || (ch x 0 =? 34)%Z || isalnum (ch x 0) = true.
Proof. intros x [H|[H|H]]; rewrite H; cbn; auto; now rewrite !orb_true_r. Qed.
Lemma arg_text_ok : forall x, (if (ch x 0 =? 34)%Z || (ch x 0 =? 123)%Z then tl x else x) = arg_text x.
Proof. intros [|c x]; reflexivity. Qed.

Lemma goes_text : forall o items s arg, item_shape (IText s arg) -> goes o items (IText s arg).
Proof.
  intros o items s arg OK evs p T R G. cbn [item_tokens] in T. tok T n1. tok T n2. tok T n3. apply texts_nil in T. subst.
  cbn [feed_tokens]. rewrite (pct o n1 p R). cbn [bind].
  set (c := set_slot WAITING_FOR_DECL_ARG (Some (SLem s)) (is_code s) None (set_state WAITING_FOR_DECL_KEYWORD (p_c p))).
  assert (P : parseonetoken o n2 (slot_word s) (mkPst (set_state WAITING_FOR_DECL_KEYWORD (p_c p)) (p_g p)) = Ok (mkPst c (p_g p))) by (destruct s; reflexivity).
  rewrite P. cbn [bind].
  set (ad := negb (ro_nolinenos o) && is_code s && (1 <? n3)%Z && true).
  set (v := decl_text ad n3 (ro_filename o) (match slot_get s (gr_slots (p_g p)) with Some v => v | None => [] end) (arg_text arg)).
  assert (P2 : parseonetoken o n3 arg (mkPst c (p_g p)) = Ok (mkPst (set_state WAITING_FOR_DECL_OR_RULE c) (set_slots ((s, v) :: gr_slots (p_g p)) (p_g p)))).
  { unfold parseonetoken. cbn [p_c p_g]. change (c_state c) with WAITING_FOR_DECL_ARG. cbn match. rewrite (arg_ok_bool arg OK). unfold decl_arg. rewrite arg_text_ok. reflexivity. }
  rewrite P2. cbn [bind]. pose proof (keeps_refl (gr_syms (p_g p))) as K. eexists. split; [reflexivity|]. split; [right; reflexivity|]. cbn [p_g]. constructor; cbn [gr_err gr_syms gr_rules gr_wildcard gr_slots gr_preccounter gr_yaccPrec set_slots].
  - apply (gi_err _ _ _ G).
  - rewrite symbols_snoc. eapply SymInv_veq; [apply view_neutral; exact Logic.I|exact (gi_sym _ _ _ G)].
  - apply (cls_keep _ _ _ _ G). reflexivity.
  - now apply (rules_keep _ _ _ _ _ G).
  - now apply (wild_keep _ _ _ _ _ G).
  - intros s1 C. cbn [slot_get]. unfold slot_text. rewrite slot_args_app. cbn [slot_args].
    destruct (gslot_beq s1 s) eqn:SS.
    + apply internal_gslot_dec_bl in SS. subst s1. assert (AD : ad = false) by (unfold ad; destruct C as [-> | ->]; [reflexivity|now rewrite andb_false_r]).
      unfold v. rewrite AD. unfold decl_text. cbn [app]. rewrite (gi_slots _ _ _ G s C). unfold slot_text. destruct (slot_args s items) as [|a r]; cbn [app concat]; [now rewrite app_nil_r|]. f_equal. rewrite concat_app. cbn [concat]. now rewrite app_nil_r, app_assoc.
    + rewrite app_nil_r. apply (gi_slots _ _ _ G s1 C).
  - now apply (count_keep _ _ _ _ G).
  - now apply (yacc_keep _ _ _ _ G).
Qed.

Lemma upd_upd : forall A (l : list A) i a b, upd (upd l i a) i b = upd l i b.
Proof. induction l as [|c l IH]; intros [|i] a b; cbn; auto. now rewrite IH. Qed.

Lemma goes_destructor : forall o items x arg, item_shape (IDestructor x arg) -> goes o items (IDestructor x arg).
Proof.
  intros o items x arg (AX & OK) evs p T R G. cbn [item_tokens] in T. tok T n1. tok T n2. tok T n4. tok T n3. apply texts_nil in T. subst.
  cbn [feed_tokens]. rewrite (pct o n1 p R). cbn [bind].
  set (c := set_slot WAITING_FOR_DESTRUCTOR_SYMBOL None true None (set_state WAITING_FOR_DECL_KEYWORD (p_c p))).
  assert (P : parseonetoken o n2 (zs "destructor") (mkPst (set_state WAITING_FOR_DECL_KEYWORD (p_c p)) (p_g p)) = Ok (mkPst c (p_g p))) by reflexivity.
  rewrite P. cbn [bind]. destruct (sym_new x (gr_syms (p_g p))) as [j l1] eqn:EN. destruct (sym_new_inv _ _ _ _ _ _ (gi_sym _ _ _ G) EN) as (I0 & (s & E & NM & NX) & K0 & _).
  destruct (alpha_facts x AX) as (_ & A2). set (c2 := set_slot WAITING_FOR_DECL_ARG (Some (SDestr j)) true (Some j) c).
  assert (P2 : parseonetoken o n4 x (mkPst c (p_g p)) = Ok (mkPst c2 (set_syms l1 (p_g p)))) by (unfold parseonetoken; cbn [p_c p_g]; change (c_state c) with WAITING_FOR_DESTRUCTOR_SYMBOL; cbn match; rewrite A2; cbn [negb]; rewrite EN; reflexivity).
  rewrite P2. cbn [bind].
  assert (X : exists s', so_name s' = so_name s /\ so_named s' = true /\ sok l1 (view_of (ro_ignorePrec o) items) s' /\
     parseonetoken o n3 arg (mkPst c2 (set_syms l1 (p_g p))) = Ok (mkPst (set_state WAITING_FOR_DECL_OR_RULE c2) (set_syms (upd l1 j s') (p_g p)))).
  { pose proof (si_named _ _ _ I0 _ _ E NM) as SK. unfold parseonetoken. cbn [p_c p_g]. change (c_state c2) with WAITING_FOR_DECL_ARG. cbn match. rewrite (arg_ok_bool arg OK). unfold decl_arg. change (c_slot c2) with (Some (SDestr j)). change (c_linenoslot c2) with (Some j).
    cbn [opt bind get_slot]. cbn [gr_syms set_syms]. rewrite E. cbn [opt bind]. set (zn := if (ch arg 0 =? 34)%Z || (ch arg 0 =? 123)%Z then tl arg else arg).
    set (v := decl_text _ _ _ _ _).
    destruct (so_destln s) eqn:DL; cbn [put_slot gr_syms set_syms].
    - rewrite ?E. cbn [gr_syms set_syms]. rewrite nth_error_upd_eq by (apply nth_error_Some; congruence). cbn [opt bind]. eexists. split; [|split; [|split; [|rewrite upd_upd; reflexivity]]]; try reflexivity; try exact NM. exact SK.
    - rewrite E. cbn [opt bind]. eexists. split; [|split; [|split; [|reflexivity]]]; try reflexivity; try exact NM. exact SK.
    - rewrite E. cbn [opt bind]. eexists. split; [|split; [|split; [|reflexivity]]]; try reflexivity; try exact NM. exact SK. }
  destruct X as (s' & X1 & X2 & X3 & P3). rewrite P3. cbn [bind].
  destruct (upd_inv _ _ (view_of (ro_ignorePrec o) items) l1 j s s' I0 E NM X1 X2) as (I2 & K2); [auto|exact X3|]. assert (K : keeps (gr_syms (p_g p)) (upd l1 j s')) by (eapply keeps_trans; eauto).
  eexists. split; [reflexivity|]. split; [right; reflexivity|]. cbn [p_g]. constructor; cbn [gr_err gr_syms gr_rules gr_wildcard gr_slots gr_preccounter gr_yaccPrec set_syms].
  - apply (gi_err _ _ _ G).
  - rewrite symbols_snoc. eapply SymInv_veq; [apply view_neutral; exact Logic.I|exact I2].
  - apply (cls_keep _ _ _ _ G). reflexivity.
  - now apply (rules_keep _ _ _ _ _ G).
  - now apply (wild_keep _ _ _ _ _ G).
  - now apply (slots_keep _ _ _ _ G).
  - now apply (count_keep _ _ _ _ G).
  - now apply (yacc_keep _ _ _ _ G).
Qed.

Definition set_typ (k a : text) (V : view) : view :=
  mkView (v_prec V) (v_fb V) (v_cls V) (fun x => if eqt x k then Some a else v_typ V x).

Lemma goes_type : forall o items x arg, item_shape (IType x arg) -> item_new (ro_ignorePrec o) items (IType x arg) -> goes o items (IType x arg).
Proof.
  intros o items x arg (AX & OK) NT evs p T R G. cbn [item_tokens] in T. tok T n1. tok T n2. tok T n4. tok T n3. apply texts_nil in T. subst.
  cbn [feed_tokens]. rewrite (pct o n1 p R). cbn [bind].
  set (c := set_slot WAITING_FOR_DATATYPE_SYMBOL None true None (set_state WAITING_FOR_DECL_KEYWORD (p_c p))).
  assert (P : parseonetoken o n2 (zs "type") (mkPst (set_state WAITING_FOR_DECL_KEYWORD (p_c p)) (p_g p)) = Ok (mkPst c (p_g p))) by reflexivity.
  rewrite P. cbn [bind]. destruct (sym_new x (gr_syms (p_g p))) as [j l1] eqn:EN. destruct (sym_new_inv _ _ _ _ _ _ (gi_sym _ _ _ G) EN) as (I0 & (s & E & NM & NX) & K0 & _).
  pose proof (si_named _ _ _ I0 _ _ E NM) as SK. pose proof SK as (_ & _ & _ & _ & _ & SP). rewrite NX in SP. cbn [view_of v_typ] in SP. rewrite NT in SP.
  destruct (alpha_facts x AX) as (_ & A2). set (c2 := set_slot WAITING_FOR_DECL_ARG (Some (SDtype j)) false None c).
  assert (P2 : parseonetoken o n4 x (mkPst c (p_g p)) = Ok (mkPst c2 (set_syms l1 (p_g p)))) by (unfold parseonetoken; cbn [p_c p_g]; change (c_state c) with WAITING_FOR_DATATYPE_SYMBOL; cbn match; rewrite A2; cbn [negb]; rewrite EN, E; cbn [opt bind]; rewrite SP; reflexivity).
  rewrite P2. cbn [bind]. set (s' := with_dtype (arg_text arg) s).
  assert (P3 : parseonetoken o n3 arg (mkPst c2 (set_syms l1 (p_g p))) = Ok (mkPst (set_state WAITING_FOR_DECL_OR_RULE c2) (set_syms (upd l1 j s') (p_g p)))).
  { unfold parseonetoken. cbn [p_c p_g]. change (c_state c2) with WAITING_FOR_DECL_ARG. cbn match. rewrite (arg_ok_bool arg OK). unfold decl_arg. rewrite arg_text_ok. change (c_slot c2) with (Some (SDtype j)). change (c_linenoslot c2) with (@None nat). change (c_insertLine c2) with false.
    cbn [opt bind get_slot]. cbn [gr_syms set_syms]. rewrite E. cbn [opt bind]. rewrite SP, andb_false_r. cbn [andb put_slot gr_syms set_syms]. rewrite E. reflexivity. }
  rewrite P3. cbn [bind].
  destruct (upd_inv _ _ (set_typ x (arg_text arg) (view_of (ro_ignorePrec o) items)) l1 j s s' I0 E NM eq_refl NM) as (I2 & K2).
  { intros z Z. cbn. rewrite NX in Z. rewrite (proj2 (eqt_ne z x) Z). auto. }
  { destruct SK as (B1 & B2 & B3 & D & F & H). unfold sok, s'. cbn [so_prec so_assoc so_name so_fallback so_type so_sub so_dtype with_dtype set_typ v_prec v_fb v_cls v_typ] in *. rewrite NX in *. rewrite eqt_refl.
    split; [exact B1|]. split; [exact B2|]. split; [exact B3|]. split; [exact D|]. split; [exact F|reflexivity]. }
  assert (K : keeps (gr_syms (p_g p)) (upd l1 j s')) by (eapply keeps_trans; eauto).
  eexists. split; [reflexivity|]. split; [right; reflexivity|]. cbn [p_g]. constructor; cbn [gr_err gr_syms gr_rules gr_wildcard gr_slots gr_preccounter gr_yaccPrec set_syms].
  - apply (gi_err _ _ _ G).
  - rewrite symbols_snoc. cbn [mentions]. eapply SymInv_veq; [|exact I2]. intros y. cbn [set_typ view_of v_prec v_fb v_cls v_typ]. rewrite fallback_app, class_app, type_app, prec_snoc. cbn [prec_from fallback_of class_of type_of].
    split; [destruct (prec_of _ items y); [reflexivity|now destruct (ro_ignorePrec o)]|]. split; [destruct (fallback_of items y); auto|]. split; [destruct (class_of items y); auto|].
    destruct (eqt y x) eqn:XK; [apply eqt_ok in XK; subst; rewrite NT; reflexivity|]. destruct (type_of items y); reflexivity.
  - apply (cls_keep _ _ _ _ G). reflexivity.
  - now apply (rules_keep _ _ _ _ _ G).
  - now apply (wild_keep _ _ _ _ _ G).
  - now apply (slots_keep _ _ _ _ G).
  - now apply (count_keep _ _ _ _ G).
  - now apply (yacc_keep _ _ _ _ G).
Qed.

(** Rules *)
Lemma lhs_run : forall o lhs la evs p i l, texts evs (lhs :: alias_tokens la ++ [zs "::="]) -> ready p -> lower lhs -> opt_ok alpha la -> sym_new lhs (gr_syms (p_g p)) = (i, l) ->
  exists c, c_lhs c = i /\ c_lhsalias c = la /\ feed_tokens o evs p = Ok (mkPst (set_rhs IN_RHS [] c) (set_syms l (p_g p))).
Proof.
  intros o lhs la evs p i l T R L A EN. tok T n1. destruct (lower_facts lhs L) as (A1 & A2 & A3).
  assert (P : parseonetoken o n1 lhs p = Ok (mkPst (set_lhs WAITING_FOR_ARROW i None [] (p_c p)) (set_syms l (p_g p)))) by (unfold parseonetoken; destruct R as [R|R]; rewrite R, A1, A2, EN; reflexivity).
  cbn [feed_tokens]. rewrite P. cbn [bind]. destruct la as [a|]; cbn [alias_tokens app] in T.
  - tok T n2. tok T n3. tok T n4. tok T n5. apply texts_nil in T. subst. exists (set_lhs IN_RHS i (Some a) [] (p_c p)). split; [reflexivity|]. split; [reflexivity|]. cbn [feed_tokens].
    set (c1 := set_lhs WAITING_FOR_ARROW i None [] (p_c p)).
    assert (P1 : parseonetoken o n2 (zs "(") (mkPst c1 (set_syms l (p_g p))) = Ok (mkPst (set_state LHS_ALIAS_1 c1) (set_syms l (p_g p)))) by reflexivity. rewrite P1. cbn [bind].
    assert (P2 : parseonetoken o n3 a (mkPst (set_state LHS_ALIAS_1 c1) (set_syms l (p_g p))) = Ok (mkPst (set_lhs LHS_ALIAS_2 i (Some a) [] (p_c p)) (set_syms l (p_g p)))).
    { unfold parseonetoken. cbn [p_c p_g]. change (c_state (set_state LHS_ALIAS_1 c1)) with LHS_ALIAS_1. cbn match. destruct (alpha_facts a A) as (_ & ->). reflexivity. }
    rewrite P2. cbn [bind]. reflexivity.
  - tok T n2. apply texts_nil in T. subst. exists (set_lhs IN_RHS i None [] (p_c p)). split; [reflexivity|]. split; [reflexivity|]. reflexivity.
Qed.

Lemma mark_run : forall o x evs c g N V rp rest, texts evs (match x with None => [] | Some x => [zs "["; x; zs "]"] end) -> c_state c = WAITING_FOR_DECL_OR_RULE -> opt_ok upper x -> SymInv N V (gr_syms g) ->
  gr_rules g = rp :: rest -> rr_precsym rp = None ->
  exists l' m, feed_tokens o evs (mkPst c g) = Ok (mkPst c (set_rules (mkRrule (rr_lhs rp) (rr_lhsalias rp) (rr_rhs rp) m (rr_code rp) (rr_line rp) (rr_never rp) :: rest) (set_syms l' g))) /\
    SymInv (addl N match x with Some x => if ro_ignorePrec o then [] else [x] | None => [] end) V l' /\ keeps (gr_syms g) l' /\
    match x with Some x => if ro_ignorePrec o then m = None else exists j, m = Some j /\ isn l' j x | None => m = None end.
Proof.
  intros o [x|] evs c g N V rp rest T S0 U I RR RP.
  - tok T n1. tok T n2. tok T n3. apply texts_nil in T. subst. cbn [feed_tokens]. destruct (upper_facts x U) as (A1 & A2 & _).
    assert (P1 : parseonetoken o n1 (zs "[") (mkPst c g) = Ok (mkPst (set_state PRECEDENCE_MARK_1 c) g)) by (unfold parseonetoken; cbn [p_c p_g]; rewrite S0; reflexivity). rewrite P1. cbn [bind].
    assert (CC : set_state WAITING_FOR_DECL_OR_RULE (set_state PRECEDENCE_MARK_2 (set_state PRECEDENCE_MARK_1 c)) = c) by (destruct c; cbn in *; now subst).
    unfold parseonetoken at 1. cbn [p_c p_g]. change (c_state (set_state PRECEDENCE_MARK_1 c)) with PRECEDENCE_MARK_1. cbn match. rewrite A2. cbn [negb]. rewrite RR, RP.
    destruct (ro_ignorePrec o) eqn:IG.
    + cbn [bind]. exists (gr_syms g), None. split; [|split; [exact I|split; [apply keeps_refl|reflexivity]]].
      assert (P3 : parseonetoken o n3 (zs "]") (mkPst (set_state PRECEDENCE_MARK_2 (set_state PRECEDENCE_MARK_1 c)) g) = Ok (mkPst c g)) by (rewrite <- CC at 2; reflexivity). rewrite P3. cbn [bind].
      destruct g, rp; cbn in *; subst. reflexivity.
    + destruct (sym_new x (gr_syms g)) as [j l1] eqn:EN. destruct (sym_new_inv _ _ _ _ _ _ I EN) as (I0 & IX & K & _). cbn [bind]. exists l1, (Some j). split; [|split; [exact I0|split; [exact K|exists j; auto]]].
      set (g1 := set_rules _ _). assert (P3 : parseonetoken o n3 (zs "]") (mkPst (set_state PRECEDENCE_MARK_2 (set_state PRECEDENCE_MARK_1 c)) g1) = Ok (mkPst c g1)) by (rewrite <- CC at 2; reflexivity). rewrite P3. reflexivity.
  - apply texts_nil in T. subst. exists (gr_syms g), None. split; [|split; [exact I|split; [apply keeps_refl|reflexivity]]]. destruct g, rp; cbn in *; subst. reflexivity.
Qed.

Lemma code_run : forall o x evs c g rp rest, texts evs (match x with None => [] | Some x => [x] end) -> c_state c = WAITING_FOR_DECL_OR_RULE -> opt_ok (fun c => ch c 0 = 123%Z) x ->
  gr_rules g = rp :: rest -> rr_code rp = None -> rr_never rp = false ->
  exists ln, feed_tokens o evs (mkPst c g) = Ok (mkPst c (set_rules (mkRrule (rr_lhs rp) (rr_lhsalias rp) (rr_rhs rp) (rr_precsym rp) (if never_code x then None else option_map (fun c => tl c) x) ln (never_code x) :: rest) g)).
Proof.
  intros o [x|] evs c g rp rest T S0 U RR RC RN; cbn [never_code option_map].
  - tok T n1. apply texts_nil in T. subst. cbn [feed_tokens]. cbn in U. unfold parseonetoken. cbn [p_c p_g]. rewrite S0, U. cbn match. change (123 =? 37)%Z with false. change (islower 123) with false. change (123 =? 123)%Z with true. cbn match. rewrite RR, RC. cbn [bind].
    destruct (streq x (zs "{NEVER-REDUCE")) eqn:N.
    + apply streq_ok in N. rewrite (proj2 (eqt_ok _ _) N). eexists. reflexivity.
    + assert (N' : eqt x (zs "{NEVER-REDUCE") = false) by (apply eqt_ne; intros ->; now rewrite (proj2 (streq_ok _ _) eq_refl) in N). rewrite N', RN. eexists. reflexivity.
  - apply texts_nil in T. subst. exists (rr_line rp). destruct g, rp; cbn in *; subst. reflexivity.
Qed.

Lemma goes_rule : forall o items lhs la rhs prec code, item_shape (IRule lhs la rhs prec code) -> item_new (ro_ignorePrec o) items (IRule lhs la rhs prec code) -> goes o items (IRule lhs la rhs prec code).
Proof.
  intros o items lhs la rhs prec code (OL & OA & OR & OP & OC) LR evs p T R G. cbn [item_tokens] in T.
  change (lhs :: alias_tokens la ++ [zs "::="] ++ flat_map relem_tokens rhs ++ [dot] ++ match prec with Some x => [zs "["; x; zs "]"] | None => [] end ++ match code with Some c => [c] | None => [] end)
    with ((lhs :: alias_tokens la) ++ [zs "::="] ++ flat_map relem_tokens rhs ++ [dot] ++ match prec with Some x => [zs "["; x; zs "]"] | None => [] end ++ match code with Some c => [c] | None => [] end) in T.
  rewrite app_assoc in T. apply texts_app in T as (e1 & e2 & -> & T1 & T). apply texts_app in T as (e3 & e4 & -> & T2 & T). tok T n. apply texts_app in T as (e5 & e6 & -> & T3 & T4).
  pose proof (gi_sym _ _ _ G) as I. destruct (sym_new lhs (gr_syms (p_g p))) as [i l] eqn:EN. destruct (sym_new_inv _ _ _ _ _ _ I EN) as (I0 & IX & K0 & _).
  destruct (lhs_run o lhs la e1 p i l T1 R OL OA EN) as (c & CL & CA & R1). rewrite feed_app, R1. cbn [bind].
  destruct (rhs_run o rhs e3 _ _ l (p_g p) c [] T2 I0 OR) as (l1 & r & R2 & I1 & K1 & EL).
  { intros x U. cbn [view_of v_cls]. destruct (class_of items x) eqn:CX; [|reflexivity]. pose proof (gi_cls _ _ _ G _ _ CX) as LX. destruct (lower_facts x LX) as (_ & _ & W). unfold upper in U. congruence. }
  { cbn [length]. unfold MAXRHS. exact LR. }
  rewrite feed_app, R2. cbn [bind app feed_tokens].
  set (c1 := set_rhs IN_RHS r c). set (rp := mkRrule i la r None None 0%Z false).
  assert (P : parseonetoken o n dot (mkPst c1 (set_syms l1 (p_g p))) = Ok (mkPst (set_state WAITING_FOR_DECL_OR_RULE c1) (set_rules (rp :: gr_rules (p_g p)) (set_syms l1 (p_g p))))) by (unfold rp; rewrite <- CL, <- CA; reflexivity).
  rewrite P. cbn [bind]. rewrite feed_app.
  destruct (mark_run o prec e5 (set_state WAITING_FOR_DECL_OR_RULE c1) (set_rules (rp :: gr_rules (p_g p)) (set_syms l1 (p_g p))) _ _ rp (gr_rules (p_g p)) T3 eq_refl OP I1 eq_refl eq_refl) as (l2 & m & R3 & I2 & K2 & MM).
  rewrite R3. cbn [bind]. cbn [gr_syms set_rules set_syms] in K2.
  set (rp2 := mkRrule (rr_lhs rp) (rr_lhsalias rp) (rr_rhs rp) m (rr_code rp) (rr_line rp) (rr_never rp)).
  destruct (code_run o code e6 (set_state WAITING_FOR_DECL_OR_RULE c1) (set_rules (rp2 :: gr_rules (p_g p)) (set_syms l2 (set_rules (rp :: gr_rules (p_g p)) (set_syms l1 (p_g p))))) rp2 (gr_rules (p_g p)) T4 eq_refl OC eq_refl eq_refl eq_refl) as (ln & R4).
  rewrite R4. assert (K : keeps (gr_syms (p_g p)) l2) by (eapply keeps_trans; [exact K0|eapply keeps_trans; eauto]).
  eexists. split; [reflexivity|]. split; [right; reflexivity|]. cbn [p_g]. constructor; cbn [gr_err gr_syms gr_rules gr_wildcard gr_slots gr_preccounter gr_yaccPrec set_syms set_rules].
  - apply (gi_err _ _ _ G).
  - rewrite symbols_snoc. eapply SymInv_veq; [apply view_neutral; exact Logic.I|]. cbn [mentions]. change (lhs :: flat_map (fun e => re_name e :: re_alts e) rhs ++ match prec with Some x => if ro_ignorePrec o then [] else [x] | None => [] end) with ([lhs] ++ flat_map (fun e => re_name e :: re_alts e) rhs ++ match prec with Some x => if ro_ignorePrec o then [] else [x] | None => [] end).
    rewrite !addl_app. exact I2.
  - apply (cls_keep _ _ _ _ G). reflexivity.
  - rewrite filter_app. cbn [filter is_rule rev]. apply Forall2_app; [eapply Forall2_mono; [|exact (gi_rules _ _ _ G)]; intros a b; now apply rule_is_mono|]. constructor; [|constructor].
    cbn [rule_is rr_lhs rr_lhsalias rr_rhs rr_precsym rr_code rr_never rp2 rp]. assert (K12 : keeps l l2) by (eapply keeps_trans; eauto).
    split; [eapply keeps_isn; eauto|]. split; [reflexivity|]. split; [eapply Forall2_mono; [|exact EL]; intros a b; apply elem_is_mono; exact K2|]. split; [exact MM|]. split; reflexivity.
  - now apply (wild_keep _ _ _ _ _ G).
  - now apply (slots_keep _ _ _ _ G).
  - now apply (count_keep _ _ _ _ G).
  - now apply (yacc_keep _ _ _ _ G).
Qed.

Lemma goes_item : forall o items i, item_shape i -> item_new (ro_ignorePrec o) items i -> goes o items i.
Proof.
  intros o items [] H K; [now apply goes_rule|now apply goes_assoc|now apply goes_fallback|now apply goes_token|now apply goes_wildcard|now apply goes_class|now apply goes_text|now apply goes_destructor|now apply goes_type|apply goes_yacc].
Qed.

Lemma init_GInv : forall o, GInv o [] init_gram.
Proof.
  intros o. constructor; try reflexivity.
  - constructor.
    + reflexivity.
    + repeat constructor. auto.
    + intros [|[|id]] s E NM; cbn in E; try discriminate. injection E as <-. repeat split; cbn; destruct (ro_ignorePrec o); reflexivity.
    + intros [|[|id]] s E NM; cbn in E; try discriminate. injection E as <-. discriminate.
    + intros x _. cbn. unfold prec_of. cbn. destruct (ro_ignorePrec o); auto.
  - intros x ys. discriminate.
  - constructor.
Qed.

Lemma items_run : forall o post pre evs p, Forall item_shape post -> (forall a i b, post = a ++ i :: b -> item_new (ro_ignorePrec o) (pre ++ a) i) -> texts evs (flat_map item_tokens post) -> ready p -> GInv o pre (p_g p) ->
  exists p', feed_tokens o evs p = Ok p' /\ ready p' /\ GInv o (pre ++ post) (p_g p').
Proof.
  induction post as [|i post IH]; intros pre evs p SH OK T R G.
  - apply texts_nil in T. subst. exists p. rewrite app_nil_r. auto.
  - cbn [flat_map] in T. apply texts_app in T as (e1 & e2 & -> & T1 & T2). pose proof (OK [] i post eq_refl) as O1. rewrite app_nil_r in O1. inversion SH as [|? ? SH1 SH2]; subst.
    destruct (goes_item o pre i SH1 O1 e1 p T1 R G) as (p1 & R1 & RD & G1). rewrite feed_app, R1. cbn [bind].
    destruct (IH (pre ++ [i]) e2 p1) as (p2 & R2 & RD2 & G2); auto.
    { intros a k b ->. rewrite <- app_assoc. apply (OK (i :: a) k b). reflexivity. }
    exists p2. rewrite <- app_assoc in G2. auto.
Qed.

Lemma file_run : forall o items evs, Forall item_shape items -> items_new (ro_ignorePrec o) items -> texts evs (flat_map item_tokens items) ->
  exists p, feed_tokens o evs init_pst = Ok p /\ ready p /\ GInv o items (p_g p).
Proof.
  intros o items evs SH OK T. destruct (items_run o items [] evs init_pst) as (p & A & B & C); auto; [now left|exact (init_GInv o)|]. exists p. auto.
Qed.
