(** C47: byacc's symbol table. *)
From Coq Require Import List Arith ZArith Bool Lia.
Import ListNotations.
From Verif Require Import Base ByaccSymtabModel.
Open Scope res_scope.

(** A name as the scanner makes it: not empty, a first character from 1 to 127
    (letter, '_', '.', '$' or quote) and any others. *)
Definition good_name (n : list Z) : Prop := match n with c :: _ => (0 < c < 128)%Z | [] => False end.

Lemma name_eqb_ok : forall a b, name_eqb a b = true <-> a = b.
Proof.
  induction a as [|x a IH]; intros [|y b]; cbn [name_eqb]; try (split; [discriminate|discriminate]); [tauto|].
  rewrite andb_true_iff, Z.eqb_eq, IH. split; [intros [-> ->]; reflexivity|intros E; inversion E; auto].
Qed.

Lemma hash_loop_range : forall s k, (0 <= k < 1024)%Z -> (0 <= hash_loop s k < 1024)%Z.
Proof.
  induction s as [|c s IH]; intros k H; [exact H|]. cbn [hash_loop]. apply IH.
  replace 1023%Z with (Z.ones 10) by reflexivity. rewrite Z.land_ones by lia. change (2 ^ 10)%Z with 1024%Z. apply Z.mod_pos_bound. lia.
Qed.

Lemma hash_ok : forall n, good_name n -> exists h, hash n = Ok h /\ (0 <= h < 1024)%Z.
Proof.
  intros [|c n] H; [destruct H|]. cbn [hash]. eexists. split; [reflexivity|]. apply hash_loop_range. cbn in H. lia.
Qed.

(** [entered] are the buckets in the table. *)
Record inv (entered : list nat) (st : symtab) : Prop := {
  iv_len : length (s_table st) = TABLE_SIZE;
  iv_in : forall b, In b entered <-> exists i, In b (nth i (s_table st) []);
  iv_hash : forall b, In b entered -> exists n h, nth_error (s_names st) b = Some n /\ hash n = Ok h /\ (0 <= h < 1024)%Z /\ In b (nth (Z.to_nat h) (s_table st) []);
  iv_inj : forall b b', In b entered -> In b' entered -> nth_error (s_names st) b = nth_error (s_names st) b' -> b = b'
}.

Lemma walk_ok : forall names name chain, (forall b, In b chain -> b < length names) ->
  (exists b, walk names name chain = Ok (Some b) /\ In b chain /\ nth_error names b = Some name) \/
  (walk names name chain = Ok None /\ forall b, In b chain -> nth_error names b <> Some name).
Proof.
  induction chain as [|b r IH]; intros H; [right; split; [reflexivity|intros b []]|].
  cbn [walk]. destruct (nth_error names b) as [n|] eqn:E.
  2: { apply nth_error_None in E. specialize (H b ltac:(now left)). lia. }
  cbn [opt bind]. destruct (name_eqb name n) eqn:Q.
  - apply name_eqb_ok in Q. subst n. left. exists b. split; [reflexivity|]. split; [now left|exact E].
  - destruct IH as [(b' & W & I & N)|(W & N)]; [intros; apply H; now right| |].
    + left. exists b'. split; [exact W|]. split; [now right|exact N].
    + right. split; [exact W|]. intros b' [<-|I]; [|auto]. rewrite E. intros X. inversion X; subst.
      assert (name_eqb name name = true) by now apply name_eqb_ok. congruence.
Qed.

Lemma lookup_ok : forall en st name, inv en st -> good_name name ->
  (exists b, lookup name st = Ok (b, st) /\ In b en /\ nth_error (s_names st) b = Some name) \/
  (exists st', lookup name st = Ok (length (s_names st), st') /\ s_names st' = s_names st ++ [name] /\
     inv (length (s_names st) :: en) st' /\ forall b, In b en -> nth_error (s_names st) b <> Some name).
Proof.
  intros en st name V G. destruct (hash_ok name G) as (h & EH & RH). unfold lookup. rewrite EH. cbn [bind].
  assert (X : (h <? 0)%Z = false) by (apply Z.ltb_ge; lia). rewrite X.
  assert (HL : Z.to_nat h < length (s_table st)) by (rewrite (iv_len _ _ V); unfold TABLE_SIZE; lia).
  rewrite (nth_error_nth' _ [] HL). cbn [opt bind]. set (chain := nth (Z.to_nat h) (s_table st) []).
  assert (CH : forall b, In b chain -> In b en) by (intros b H; apply (iv_in _ _ V); exists (Z.to_nat h); exact H).
  assert (EN : forall b, In b en -> b < length (s_names st)).
  { intros b H. destruct (iv_hash _ _ V b H) as (n & h' & E & _). apply nth_error_Some. congruence. }
  destruct (walk_ok (s_names st) name chain) as [(b & W & I & N)|(W & N)]; [intros; auto| |].
  - left. exists b. rewrite W. cbn [bind]. auto.
  - right. rewrite W. cbn [bind]. eexists. split; [reflexivity|]. cbn [s_names]. split; [reflexivity|].
    assert (NN : forall b, In b en -> nth_error (s_names st) b <> Some name).
    { intros b H E. destruct (iv_hash _ _ V b H) as (n & h' & E' & EH' & _ & I). rewrite E in E'. inversion E'; subst n. rewrite EH in EH'. inversion EH'; subst h'.
      exact (N b I E). }
    split; [|exact NN]. set (nb := length (s_names st)). constructor; cbn [s_table s_names].
    + rewrite upd_length. apply (iv_len _ _ V).
    + intros b. split.
      * intros [<-|H].
        -- exists (Z.to_nat h). rewrite nth_upd_eq by exact HL. apply in_or_app. right. now left.
        -- apply (iv_in _ _ V) in H as (i & H). destruct (Nat.eq_dec (Z.to_nat h) i) as [<-|NE].
           ++ exists (Z.to_nat h). rewrite nth_upd_eq by exact HL. apply in_or_app. now left.
           ++ exists i. rewrite nth_upd_ne by exact NE. exact H.
      * intros (i & H). destruct (Nat.eq_dec (Z.to_nat h) i) as [<-|NE].
        -- rewrite nth_upd_eq in H by exact HL. apply in_app_or in H as [H|[<-|[]]]; [right; auto|now left].
        -- rewrite nth_upd_ne in H by exact NE. right. apply (iv_in _ _ V). eauto.
    + intros b [<-|H].
      * exists name, h. split; [|split; [exact EH|split; [exact RH|]]].
        -- unfold nb. rewrite nth_error_app2 by lia. now rewrite Nat.sub_diag.
        -- rewrite nth_upd_eq by exact HL. apply in_or_app. right. now left.
      * destruct (iv_hash _ _ V b H) as (n & h' & E' & EH' & RH' & I). exists n, h'. split; [|split; [exact EH'|split; [exact RH'|]]].
        -- rewrite nth_error_app1; [exact E'|]. auto.
        -- destruct (Nat.eq_dec (Z.to_nat h) (Z.to_nat h')) as [Q|NE].
           ++ rewrite <- Q, nth_upd_eq by exact HL. apply in_or_app. left. unfold chain. now rewrite Q.
           ++ rewrite nth_upd_ne by exact NE. exact I.
    + assert (NB : nth_error (s_names st ++ [name]) nb = Some name) by (unfold nb; rewrite nth_error_app2, Nat.sub_diag by lia; reflexivity).
      intros b b' [<-|H] [<-|H'] E; auto.
      * rewrite NB, nth_error_app1 in E by auto. exfalso. apply (NN b' H'). now symmetry.
      * rewrite NB, nth_error_app1 in E by auto. exfalso. apply (NN b H). exact E.
      * rewrite !nth_error_app1 in E by auto. apply (iv_inj _ _ V); auto.
Qed.

Lemma unhashed_ok : forall en st name, inv en st -> inv en (snd (add_unhashed name st)).
Proof.
  intros en st name V. unfold add_unhashed. cbn [snd].
  assert (EN : forall b, In b en -> b < length (s_names st)).
  { intros b H. destruct (iv_hash _ _ V b H) as (n & h' & E & _). apply nth_error_Some. congruence. }
  constructor; cbn [s_table s_names].
  - apply (iv_len _ _ V).
  - apply (iv_in _ _ V).
  - intros b H. destruct (iv_hash _ _ V b H) as (n & h & E & R). exists n, h. rewrite nth_error_app1 by auto. auto.
  - intros b b' H H'. rewrite !nth_error_app1 by auto. apply (iv_inj _ _ V); auto.
Qed.

Lemma create_ok : exists st, create_symbol_table = Ok st /\ inv [0] st /\ s_names st = [ERROR_NAME].
Proof.
  unfold create_symbol_table. destruct (hash_ok ERROR_NAME) as (h & EH & RH); [cbn; lia|]. rewrite EH. cbn [bind].
  assert (X : ((h <? 0) || (Z.of_nat TABLE_SIZE <=? h))%Z = false).
  { apply orb_false_iff. split; [apply Z.ltb_ge|apply Z.leb_gt]; unfold TABLE_SIZE; lia. }
  rewrite X. eexists. split; [reflexivity|]. split; [|reflexivity].
  assert (HL : Z.to_nat h < length (repeat (@nil nat) TABLE_SIZE)) by (rewrite repeat_length; unfold TABLE_SIZE; lia).
  assert (NR : forall m n, nth m (repeat (@nil nat) n) [] = []).
  { intros m n. revert m. induction n as [|n IH]; intros [|m]; cbn [repeat nth]; auto. }
  constructor; cbn [s_table s_names].
  - now rewrite upd_length, repeat_length.
  - intros b. split.
    + intros [<-|[]]. exists (Z.to_nat h). rewrite nth_upd_eq by exact HL. now left.
    + intros (i & H). destruct (Nat.eq_dec (Z.to_nat h) i) as [<-|NE].
      * now rewrite nth_upd_eq in H by exact HL.
      * rewrite nth_upd_ne, NR in H by exact NE. destruct H.
  - intros b [<-|[]]. exists ERROR_NAME, h. split; [reflexivity|]. split; [exact EH|]. split; [exact RH|]. rewrite nth_upd_eq by exact HL. now left.
  - intros b b' [<-|[]] [<-|[]] _. reflexivity.
Qed.

(** What a dictionary would return: the name's bucket if it is known (the entered
    names with their buckets), else a new one; [n] buckets exist. *)
Fixpoint find_name (d : list (list Z * nat)) (name : list Z) : option nat :=
  match d with
  | [] => None
  | (x, b) :: r => if list_eq_dec Z.eq_dec x name then Some b else find_name r name
  end.

Fixpoint dictionary (l : list use) (d : list (list Z * nat)) (names : list (list Z)) : list nat * list (list Z) :=
  match l with
  | [] => ([], names)
  | Unhashed x :: r => let q := dictionary r d (names ++ [x]) in (length names :: fst q, snd q)
  | Lookup x :: r =>
      match find_name d x with
      | Some b => let q := dictionary r d names in (b :: fst q, snd q)
      | None => let q := dictionary r (d ++ [(x, length names)]) (names ++ [x]) in (length names :: fst q, snd q)
      end
  end.

Definition good_use (u : use) : Prop := match u with Lookup n => good_name n | Unhashed _ => True end.

Lemma find_name_some : forall d x b, find_name d x = Some b -> In (x, b) d.
Proof. induction d as [|(y & c) d IH]; intros x b H; [discriminate|]. cbn [find_name] in H. destruct (list_eq_dec Z.eq_dec y x); [inversion H; subst; now left|right; auto]. Qed.

Lemma find_name_none : forall d x, find_name d x = None -> forall b, ~ In (x, b) d.
Proof.
  induction d as [|(y & c) d IH]; intros x H b I; [destruct I|]. cbn [find_name] in H. destruct (list_eq_dec Z.eq_dec y x) as [|N]; [discriminate|].
  destruct I as [I|I]; [inversion I; congruence|]. exact (IH x H b I).
Qed.

Lemma run_ok : forall l d st, inv (map snd d) st -> (forall x b, In (x, b) d -> nth_error (s_names st) b = Some x) -> Forall good_use l ->
  exists st', run_uses l st = Ok (fst (dictionary l d (s_names st)), st') /\ s_names st' = snd (dictionary l d (s_names st)).
Proof.
  induction l as [|u l IH]; intros d st V D F; [exists st; auto|]. inversion F as [|? ? G F']; subst.
  assert (EN : forall b, In b (map snd d) -> b < length (s_names st)).
  { intros b H. destruct (iv_hash _ _ V b H) as (n & h' & E & _). apply nth_error_Some. congruence. }
  destruct u as [x|x]; cbn [run_uses dictionary].
  - destruct (lookup_ok _ _ x V G) as [(b & E & I & N)|(st' & E & NS & V' & NN)]; rewrite E; cbn [bind fst snd].
    + assert (FN : find_name d x = Some b).
      { apply in_map_iff in I as ((y & b') & Eb & I). cbn in Eb. subst b'. pose proof (D _ _ I) as Ny. rewrite N in Ny. inversion Ny; subst y.
        destruct (find_name d x) as [c|] eqn:FE; [|exfalso; exact (find_name_none _ _ FE b I)].
        apply find_name_some in FE. f_equal. apply (iv_inj _ _ V).
        - apply in_map_iff. exists (x, c). auto.
        - apply in_map_iff. exists (x, b). auto.
        - rewrite (D _ _ FE), N. reflexivity. }
      rewrite FN. destruct (IH d st V D F') as (st' & E' & N'). rewrite E'. cbn [bind fst snd]. exists st'. auto.
    + assert (FN : find_name d x = None).
      { destruct (find_name d x) as [c|] eqn:FE; [|reflexivity]. apply find_name_some in FE. exfalso. apply (NN c); [|auto]. apply in_map_iff. exists (x, c). auto. }
      rewrite FN. destruct (IH (d ++ [(x, length (s_names st))]) st') as (st'' & E' & N').
      * rewrite map_app. cbn [map snd]. destruct V' as [A B C K].
        assert (P : forall b, In b (map snd d ++ [length (s_names st)]) <-> In b (length (s_names st) :: map snd d)).
        { intros b. rewrite in_app_iff. cbn [In]. tauto. }
        constructor; auto.
        -- intros b. rewrite P. apply B.
        -- intros b Hb. apply C. now apply P.
        -- intros b b' Hb Hb'. apply K; now apply P.
      * intros y b Hy. rewrite NS. apply in_app_or in Hy as [Hy|[Hy|[]]].
        -- rewrite nth_error_app1; [auto|]. apply EN. apply in_map_iff. exists (y, b). auto.
        -- inversion Hy; subst. rewrite nth_error_app2, Nat.sub_diag by lia. reflexivity.
      * exact F'.
      * rewrite NS in *. rewrite E'. cbn [bind fst snd]. exists st''. auto.
  - pose proof (unhashed_ok _ _ x V) as V'. unfold add_unhashed in *. cbn [fst snd] in *.
    destruct (IH d (mkSymtab (s_table st) (s_names st ++ [x])) V') as (st'' & E' & N').
    + cbn [s_names]. intros y b Hy. rewrite nth_error_app1; [auto|]. apply EN. apply in_map_iff. exists (y, b). auto.
    + exact F'.
    + rewrite E'. cbn [bind fst snd s_names] in *. exists st''. auto.
Qed.

(** For every sequence of uses the table returns what a dictionary indexed by names
    would, and the chain of symbols lists the names in the order of their first use. *)
Theorem C47_dictionary : forall l, Forall good_use l -> exists st,
  symbol_uses l = Ok (fst (dictionary l [(ERROR_NAME, 0)] [ERROR_NAME]), st) /\ s_names st = snd (dictionary l [(ERROR_NAME, 0)] [ERROR_NAME]).
Proof.
  intros l F. unfold symbol_uses. destruct create_ok as (st & E & V & N). rewrite E. cbn [bind].
  destruct (run_ok l [(ERROR_NAME, 0)] st V) as (st' & E' & N').
  - intros x b [H|[]]. inversion H; subst. now rewrite N.
  - exact F.
  - rewrite N in *. exists st'. auto.
Qed.
Print Assumptions C47_dictionary.

(** * What that means *)

Definition dict_ok (d : list (list Z * nat)) (names : list (list Z)) : Prop :=
  (forall x b, In (x, b) d -> nth_error names b = Some x) /\ (forall x b b', In (x, b) d -> In (x, b') d -> b = b').

Lemma dict_lt : forall d names x b, dict_ok d names -> In (x, b) d -> b < length names.
Proof. intros d names x b (A & _) H. apply nth_error_Some. rewrite (A _ _ H). discriminate. Qed.

Lemma dict_add : forall d names x, dict_ok d names -> find_name d x = None -> dict_ok (d ++ [(x, length names)]) (names ++ [x]).
Proof.
  intros d names x O F. pose proof O as (A & B). split.
  - intros y b H. apply in_app_or in H as [H|[H|[]]].
    + rewrite nth_error_app1; [auto|]. eapply dict_lt; eauto.
    + inversion H; subst. rewrite nth_error_app2, Nat.sub_diag by lia. reflexivity.
  - intros y b b' H H'. apply in_app_or in H as [H|[H|[]]]; apply in_app_or in H' as [H'|[H'|[]]]; eauto.
    + inversion H'; subst. exfalso. exact (find_name_none _ _ F _ H).
    + inversion H; subst. exfalso. exact (find_name_none _ _ F _ H').
    + congruence.
Qed.

Lemma dict_ext : forall d names x, dict_ok d names -> dict_ok d (names ++ [x]).
Proof.
  intros d names x O. pose proof O as (A & B). split; [|exact B]. intros y b H. rewrite nth_error_app1; [auto|]. eapply dict_lt; eauto.
Qed.

Lemma d_length : forall l d names, length (fst (dictionary l d names)) = length l.
Proof.
  induction l as [|[x|x] l IH]; intros d names; cbn [dictionary]; [reflexivity| |cbn [fst length]; now rewrite IH].
  destruct (find_name d x); cbn [fst length]; now rewrite IH.
Qed.

Lemma d_ext : forall l d names, exists t, snd (dictionary l d names) = names ++ t.
Proof.
  induction l as [|[x|x] l IH]; intros d names; cbn [dictionary].
  - exists []. now rewrite app_nil_r.
  - destruct (find_name d x); cbn [snd]; [apply IH|]. destruct (IH (d ++ [(x, length names)]) (names ++ [x])) as (t & E). exists (x :: t). rewrite E, <- app_assoc. reflexivity.
  - cbn [snd]. destruct (IH d (names ++ [x])) as (t & E). exists (x :: t). rewrite E, <- app_assoc. reflexivity.
Qed.

Lemma d_ext_nth : forall l d names b x, nth_error names b = Some x -> nth_error (snd (dictionary l d names)) b = Some x.
Proof.
  intros l d names b x E. destruct (d_ext l d names) as (t & ->). rewrite nth_error_app1; [exact E|]. apply nth_error_Some. congruence.
Qed.

Definition use_name (u : use) : list Z := match u with Lookup x => x | Unhashed x => x end.

Lemma nth_snoc : forall A (l : list A) x, nth_error (l ++ [x]) (length l) = Some x.
Proof. intros. rewrite nth_error_app2, Nat.sub_diag by lia. reflexivity. Qed.

(** The bucket has the name that was asked for. *)
Lemma d_name : forall l d names, dict_ok d names -> forall i u b, nth_error l i = Some u ->
  nth_error (fst (dictionary l d names)) i = Some b -> nth_error (snd (dictionary l d names)) b = Some (use_name u).
Proof.
  induction l as [|v l IH]; intros d names O i u b E R; [destruct i; discriminate|].
  destruct v as [x|x]; cbn [dictionary] in *.
  - destruct (find_name d x) as [c|] eqn:F; cbn [fst snd] in *.
    + destruct i as [|i]; cbn [nth_error] in *; [|eauto]. inversion E; inversion R; subst. apply d_ext_nth. apply O. now apply find_name_some.
    + destruct i as [|i]; cbn [nth_error] in *; [|eapply IH; eauto using dict_add]. inversion E; inversion R; subst. apply d_ext_nth. apply nth_snoc.
  - cbn [fst snd] in *. destruct i as [|i]; cbn [nth_error] in *; [|eapply IH; eauto using dict_ext]. inversion E; inversion R; subst. apply d_ext_nth. apply nth_snoc.
Qed.

(** A known name gives its bucket. *)
Lemma d_known : forall l d names, dict_ok d names -> forall x b, In (x, b) d -> forall i, nth_error l i = Some (Lookup x) ->
  nth_error (fst (dictionary l d names)) i = Some b.
Proof.
  induction l as [|v l IH]; intros d names O x b I i E; [destruct i; discriminate|].
  destruct v as [y|y]; cbn [dictionary] in *.
  - destruct (find_name d y) as [c|] eqn:F; cbn [fst].
    + destruct i as [|i]; cbn [nth_error] in *; [|eauto]. inversion E; subst y. f_equal. apply find_name_some in F. destruct O as (_ & B). eauto.
    + destruct i as [|i]; cbn [nth_error] in *.
      * inversion E; subst y. exfalso. exact (find_name_none _ _ F _ I).
      * apply (IH _ _ (dict_add _ _ _ O F) x b); [|exact E]. apply in_or_app. now left.
  - cbn [fst]. destruct i as [|i]; cbn [nth_error] in *; [discriminate|]. apply (IH _ _ (dict_ext _ _ y O) x b); auto.
Qed.

Lemma d_same : forall l d names, dict_ok d names -> forall i j x, i < j -> nth_error l i = Some (Lookup x) -> nth_error l j = Some (Lookup x) ->
  nth_error (fst (dictionary l d names)) i = nth_error (fst (dictionary l d names)) j.
Proof.
  induction l as [|v l IH]; intros d names O i j x L E E'; [destruct i; discriminate|]. destruct j as [|j]; [lia|].
  destruct v as [y|y]; cbn [dictionary] in *.
  - destruct (find_name d y) as [c|] eqn:F; cbn [fst].
    + destruct i as [|i]; cbn [nth_error] in *; [|apply (IH _ _ O i j x); auto; lia]. inversion E; subst y. symmetry. apply find_name_some in F. eapply d_known; eauto.
    + destruct i as [|i]; cbn [nth_error] in *; [|apply (IH _ _ (dict_add _ _ _ O F) i j x); auto; lia].
      inversion E; subst y. symmetry. apply (d_known _ _ _ (dict_add _ _ _ O F) x); [|exact E']. apply in_or_app. right. now left.
  - cbn [fst]. destruct i as [|i]; cbn [nth_error] in *; [discriminate|]. apply (IH _ _ (dict_ext _ _ y O) i j x); auto; lia.
Qed.

(** Every result is a known bucket, an earlier result, or new. *)
Lemma d_order : forall l d names, dict_ok d names -> forall j b, nth_error (fst (dictionary l d names)) j = Some b ->
  (exists x, In (x, b) d) \/ (exists i, i < j /\ nth_error (fst (dictionary l d names)) i = Some b /\ exists x, nth_error l i = Some (Lookup x) /\ nth_error l j = Some (Lookup x)) \/
  (length names <= b /\ forall i c, i < j -> nth_error (fst (dictionary l d names)) i = Some c -> c < b).
Proof.
  induction l as [|v l IH]; intros d names O j b R; [destruct j; discriminate|].
  destruct v as [y|y]; cbn [dictionary] in *.
  - destruct (find_name d y) as [c|] eqn:F; cbn [fst] in *.
    + pose proof (find_name_some _ _ _ F) as I. destruct j as [|j]; cbn [nth_error] in *.
      * inversion R; subst. left. eauto.
      * destruct (IH _ _ O _ _ R) as [?|[(i & Hi & Ei & x & X1 & X2)|(Lb & Q)]]; [auto| |].
        -- right. left. exists (S i). split; [lia|]. split; [exact Ei|]. eauto.
        -- right. right. split; [exact Lb|]. intros [|i] e Hi Ei; cbn [nth_error] in Ei; [inversion Ei; subst; pose proof (dict_lt _ _ _ _ O I); lia|]. apply (Q i); auto. lia.
    + destruct j as [|j]; cbn [nth_error] in *.
      * inversion R; subst. right. right. split; [lia|]. intros i e Hi. lia.
      * destruct (IH _ _ (dict_add _ _ _ O F) _ _ R) as [(x & I)|[(i & Hi & Ei & x & X1 & X2)|(Lb & Q)]].
        -- apply in_app_or in I as [I|[I|[]]]; [left; eauto|]. inversion I; subst x b. right. left. exists 0. split; [lia|]. split; [reflexivity|]. exists y. split; [reflexivity|].
           assert (LJ : j < length l) by (rewrite <- (d_length l (d ++ [(y, length names)]) (names ++ [y])); apply nth_error_Some; congruence).
           destruct (nth_error l j) as [u|] eqn:EU; [|apply nth_error_None in EU; lia].
           pose proof (d_name _ _ _ (dict_add _ _ _ O F) _ _ _ EU R) as N1. rewrite (d_ext_nth l _ (names ++ [y]) _ _ (nth_snoc _ names y)) in N1. inversion N1 as [N2].
           destruct u as [z|z]; cbn [use_name] in N2; [now subst z|]. exfalso.
           (* an unhashed bucket is always new *)
           assert (G : forall l d names, forall i z c, nth_error l i = Some (Unhashed z) -> nth_error (fst (dictionary l d names)) i = Some c -> length names <= c).
           { clear. induction l as [|v l IH]; intros d names i z c E R; [destruct i; discriminate|]. destruct v as [x|x]; cbn [dictionary] in R.
             - destruct (find_name d x); cbn [fst] in R; destruct i as [|i]; cbn [nth_error] in *; try discriminate; [eauto|].
               apply (IH _ _ _ _ _ E) in R. rewrite app_length in R. lia.
             - cbn [fst] in R. destruct i as [|i]; cbn [nth_error] in *; [inversion R; lia|]. apply (IH _ _ _ _ _ E) in R. rewrite app_length in R. lia. }
           apply (G _ _ _ _ _ _ EU) in R. rewrite app_length in R. cbn in R. lia.
        -- right. left. exists (S i). split; [lia|]. split; [exact Ei|]. eauto.
        -- right. right. rewrite app_length in Lb. cbn [length] in Lb. split; [lia|]. intros [|i] e Hi Ei; cbn [nth_error] in Ei; [inversion Ei; subst; lia|]. apply (Q i); auto. lia.
  - cbn [fst] in *. destruct j as [|j]; cbn [nth_error] in *.
    + inversion R; subst. right. right. split; [lia|]. intros i e Hi. lia.
    + destruct (IH _ _ (dict_ext _ _ y O) _ _ R) as [(x & I)|[(i & Hi & Ei & x & X1 & X2)|(Lb & Q)]].
      * left. eauto.
      * right. left. exists (S i). split; [lia|]. split; [exact Ei|]. eauto.
      * right. right. rewrite app_length in Lb. cbn [length] in Lb. split; [lia|]. intros [|i] e Hi Ei; cbn [nth_error] in Ei; [inversion Ei; subst; lia|]. apply (Q i); auto. lia.
Qed.

(** An unhashed bucket is new and never returned by a lookup. *)
Lemma d_unhashed : forall l d names, dict_ok d names -> forall i x b, nth_error l i = Some (Unhashed x) -> nth_error (fst (dictionary l d names)) i = Some b ->
  forall j, j <> i -> nth_error (fst (dictionary l d names)) j <> Some b.
Proof.
  intros l d names O i x b E R j N R'.
  assert (NEW : forall l d names, dict_ok d names -> forall i x c, nth_error l i = Some (Unhashed x) -> nth_error (fst (dictionary l d names)) i = Some c ->
    forall y, ~ In (y, c) d).
  { clear. induction l as [|v l IH]; intros d names O i x c E R y I; [destruct i; discriminate|]. destruct v as [z|z]; cbn [dictionary] in R.
    - destruct (find_name d z) eqn:F; cbn [fst] in R; destruct i as [|i]; cbn [nth_error] in *; try discriminate; [exact (IH _ _ O _ _ _ E R _ I)|].
      apply (IH _ _ (dict_add _ _ _ O F) _ _ _ E R y). apply in_or_app. now left.
    - cbn [fst] in R. destruct i as [|i]; cbn [nth_error] in *; [|exact (IH _ _ (dict_ext _ _ z O) _ _ _ E R _ I)].
      inversion R; subst. pose proof (dict_lt _ _ _ _ O I). lia. }
  pose proof (NEW _ _ _ O _ _ _ E R) as NB. destruct (Nat.lt_ge_cases i j) as [L|L].
  - destruct (d_order _ _ _ O _ _ R') as [(y & I)|[(k & Hk & Ek & y & Y1 & Y2)|(Lb & Q)]].
    + exact (NB _ I).
    + destruct (d_order _ _ _ O _ _ Ek) as [(z & I)|[(k' & Hk' & _)|(Lb & Q)]]; [exact (NB _ I)| |].
      * (* take the first lookup returning b *)
        assert (MIN : forall k0 y, nth_error l k0 = Some (Lookup y) -> nth_error (fst (dictionary l d names)) k0 = Some b ->
          exists m z, nth_error l m = Some (Lookup z) /\ nth_error (fst (dictionary l d names)) m = Some b /\ forall i c, i < m -> nth_error (fst (dictionary l d names)) i = Some c -> c < b).
        { clear y Y1 Y2 Ek Hk Hk'. induction k0 as [k0 IHk] using lt_wf_ind. intros z Z1 Z2. destruct (d_order _ _ _ O _ _ Z2) as [(u & I)|[(q & Hq & Eq & u & U1 & U2)|(_ & Q)]].
          - exfalso. exact (NB _ I).
          - exact (IHk q Hq u U1 Eq).
          - exists k0, z. auto. }
        destruct (MIN k y Y1 Ek) as (m & z & M1 & M2 & M3).
        destruct (Nat.lt_trichotomy m i) as [H|[H|H]].
        -- destruct (d_order _ _ _ O _ _ R) as [(u & I)|[(q & Hq & Eq & u & U1 & U2)|(_ & Q)]]; [exact (NB _ I)|congruence|]. specialize (Q _ _ H M2). lia.
        -- subst m. congruence.
        -- specialize (M3 _ _ H R). lia.
      * destruct (Nat.lt_trichotomy k i) as [H|[H|H]].
        -- destruct (d_order _ _ _ O _ _ R) as [(u & I)|[(q & Hq & Eq & u & U1 & U2)|(_ & Q')]]; [exact (NB _ I)|congruence|]. specialize (Q' _ _ H Ek). lia.
        -- subst k. congruence.
        -- specialize (Q _ _ H R). lia.
    + specialize (Q _ _ L R). lia.
  - destruct (d_order _ _ _ O _ _ R) as [(u & I)|[(q & Hq & Eq & u & U1 & U2)|(_ & Q)]]; [exact (NB _ I)|congruence|].
    assert (H : j < i) by lia. specialize (Q _ _ H R'). lia.
Qed.

(** Lookups return the same bucket exactly for equal names, whatever collides; the
    buckets of insert_empty_rule are shared with nothing, not even with a symbol the
    user named "$$1"; the chain has the name asked for at the bucket returned, and "error"
    first; a bucket returned for the first time comes after all those returned before. *)
Theorem C47_lookup : forall l, Forall good_use l -> exists r st, symbol_uses l = Ok (r, st) /\ length r = length l /\
  nth_error (s_names st) 0 = Some ERROR_NAME /\
  (forall i u b, nth_error l i = Some u -> nth_error r i = Some b -> nth_error (s_names st) b = Some (use_name u)) /\
  (forall i j x y b c, nth_error l i = Some (Lookup x) -> nth_error l j = Some (Lookup y) -> nth_error r i = Some b -> nth_error r j = Some c -> (b = c <-> x = y)) /\
  (forall i j x b, nth_error l i = Some (Unhashed x) -> nth_error r i = Some b -> j <> i -> nth_error r j <> Some b) /\
  (forall j b, nth_error r j = Some b -> b <> 0 -> (forall i, i < j -> nth_error r i <> Some b) -> forall i c, i < j -> nth_error r i = Some c -> c < b).
Proof.
  intros l F. destruct (C47_dictionary l F) as (st & E & N). set (d := [(ERROR_NAME, 0)]) in *. set (names := [ERROR_NAME]) in *.
  assert (O : dict_ok d names).
  { split; [intros x b [H|[]]; inversion H; reflexivity|]. intros x b b' [H|[]] [H'|[]]. inversion H; inversion H'; congruence. }
  eexists. exists st. split; [exact E|]. split; [apply d_length|]. rewrite N. split; [now apply d_ext_nth|]. split; [|split; [|split]].
  - intros i u b Eu R. eapply d_name; eauto.
  - intros i j x y b c Ei Ej Ri Rj. split.
    + intros <-. pose proof (d_name _ _ _ O _ _ _ Ei Ri) as A. pose proof (d_name _ _ _ O _ _ _ Ej Rj) as B. rewrite A in B. now inversion B.
    + intros <-. destruct (Nat.lt_trichotomy i j) as [H|[H|H]].
      * pose proof (d_same _ _ _ O _ _ _ H Ei Ej). congruence.
      * subst j. congruence.
      * pose proof (d_same _ _ _ O _ _ _ H Ej Ei). congruence.
  - intros i j x b Ei Ri NE. eapply d_unhashed; eauto.
  - intros j b R B0 FR i c Hi Ri. destruct (d_order _ _ _ O _ _ R) as [(x & [I|[]])|[(k & Hk & Ek & _)|(_ & Q)]].
    + inversion I. congruence.
    + exfalso. exact (FR _ Hk Ek).
    + eauto.
Qed.
Print Assumptions C47_lookup.

(** "at" and "bU" collide; "$$1" is both a user name and a generated one. *)
Example C47_example : let a := [97; 116]%Z in let b := [98; 85]%Z in let g := [36; 36; 49]%Z in
  hash a = hash b /\ Forall good_use [Lookup a; Lookup b; Unhashed g; Lookup g; Lookup a; Lookup ERROR_NAME; Lookup g; Lookup b] /\
  exists st, symbol_uses [Lookup a; Lookup b; Unhashed g; Lookup g; Lookup a; Lookup ERROR_NAME; Lookup g; Lookup b] = Ok ([1; 2; 3; 4; 1; 0; 4; 2], st) /\
    s_names st = [ERROR_NAME; a; b; g; g].
Proof.
  cbn zeta. split; [reflexivity|]. split; [repeat constructor|]. eexists. split; [vm_compute; reflexivity|reflexivity].
Qed.
