(** Correctness of the slot-based merge sorts. *)
From Coq Require Import List Arith Lia Bool Permutation Sorted.
Import ListNotations.
From Verif Require Import Base LemonSortModel.

Section SlotPerm.
Context {A : Type}.
Variable mrg : list A -> list A -> list A.
Hypothesis mrg_perm : forall a b, Permutation (mrg a b) (a ++ b).

Lemma mrg_length : forall a b, length (mrg a b) = length a + length b.
Proof. intros. rewrite (Permutation_length (mrg_perm a b)). apply app_length. Qed.

(** Slot number [i] (counted from level [j]) is empty or holds 2^(j+i) elements. *)
Fixpoint slots_inv (j : nat) (ss : list (list A)) : Prop :=
  match ss with
  | [] => True
  | s :: r => (s = [] \/ length s = 2 ^ j) /\ slots_inv (S j) r
  end.

Lemma slot_insert_length : forall ss ep, length (slot_insert mrg ss ep) = length ss.
Proof.
  induction ss as [|s ss IH]; intros ep; [reflexivity|].
  destruct ss as [|s2 ss]; [reflexivity|]. cbn [slot_insert]. destruct s; [reflexivity|].
  change (S (length (slot_insert mrg (s2 :: ss) (mrg ep (a :: s)))) = S (length (s2 :: ss))).
  now rewrite IH.
Qed.

Lemma pow_pos : forall n, 0 < 2 ^ n.
Proof. intros n. pose proof (Nat.pow_nonzero 2 n). lia. Qed.

Lemma slot_insert_ok : forall ss j ep,
  slots_inv j ss -> length ep = 2 ^ j ->
  length (concat ss) + 2 ^ j < 2 ^ (j + length ss) ->
  slots_inv j (slot_insert mrg ss ep) /\
  Permutation (concat (slot_insert mrg ss ep)) (ep ++ concat ss).
Proof.
  induction ss as [|s ss IH]; intros j ep I L H.
  - simpl in *. rewrite Nat.add_0_r in H. pose proof (pow_pos j). lia.
  - simpl in I. destruct I as [I1 I2]. simpl concat in H. rewrite app_length in H.
    destruct ss as [|s2 ss].
    + simpl in *. replace (j + 1) with (S j) in H by lia. simpl in H.
      destruct I1 as [-> |I1]; [|lia]. split; [tauto|]. rewrite !app_nil_r. auto.
    + cbn [slot_insert]. destruct s as [|a s].
      * simpl in *. split; [tauto|]. apply Permutation_refl.
      * destruct I1 as [I1|I1]; [discriminate|].
        destruct (IH (S j) (mrg ep (a :: s))) as [IH1 IH2]; auto.
        -- rewrite mrg_length. simpl. simpl in I1. lia.
        -- simpl (2 ^ S j). replace (S j + length (s2 :: ss)) with (j + length ((a :: s) :: s2 :: ss)) by (simpl; lia).
           lia.
        -- split; [split; [auto|exact IH1]|].
           change (concat ([] :: slot_insert mrg (s2 :: ss) (mrg ep (a :: s))))
             with (concat (slot_insert mrg (s2 :: ss) (mrg ep (a :: s)))).
           rewrite IH2. rewrite (mrg_perm ep (a :: s)).
           change (concat ((a :: s) :: s2 :: ss)) with ((a :: s) ++ concat (s2 :: ss)).
           now rewrite app_assoc.
Qed.

(** When all slots are full the last one is overwritten: half the elements vanish. *)
Lemma slot_insert_full : forall ss j ep,
  slots_inv j ss -> length ep = 2 ^ j -> ss <> [] ->
  length (concat ss) + 2 ^ j = 2 ^ (j + length ss) ->
  slots_inv j (slot_insert mrg ss ep) /\
  length (concat (slot_insert mrg ss ep)) = 2 ^ (j + length ss - 1).
Proof.
  induction ss as [|s ss IH]; intros j ep I L N H; [congruence|].
  simpl in I. destruct I as [I1 I2]. simpl concat in H. rewrite app_length in H.
  destruct ss as [|s2 ss].
  - simpl in *. split; [tauto|]. rewrite app_nil_r.
    replace (j + 1 - 1) with j by lia. auto.
  - cbn [slot_insert]. destruct s as [|a s].
    + exfalso. change (length (@nil A)) with 0 in H.
      assert (B : forall ss j, slots_inv j ss -> length (concat ss) + 2 ^ j <= 2 ^ (j + length ss)).
      { clear. induction ss as [|s ss IHs]; intros j I; simpl in *.
        - rewrite Nat.add_0_r. lia.
        - destruct I as [I1 I2]. rewrite app_length. specialize (IHs (S j) I2).
          replace (j + S (length ss)) with (S j + length ss) by lia.
          assert (E2 : 2 ^ S j = 2 ^ j + 2 ^ j) by (simpl; lia). rewrite E2 in IHs.
          destruct I1 as [-> |I1]; [change (length (@nil A)) with 0|]; lia. }
      specialize (B (s2 :: ss) (S j) I2).
      replace (S j + length (s2 :: ss)) with (j + length ([] :: s2 :: ss)) in B by (simpl; lia).
      simpl (2 ^ S j) in B. pose proof (pow_pos j). lia.
    + destruct I1 as [I1|I1]; [discriminate|].
      destruct (IH (S j) (mrg ep (a :: s))) as [IH1 IH2]; auto.
      * rewrite mrg_length. simpl. simpl in I1. lia.
      * discriminate.
      * simpl (2 ^ S j). replace (S j + length (s2 :: ss)) with (j + length ((a :: s) :: s2 :: ss)) by (simpl; lia).
        lia.
      * split; [split; [auto|exact IH1]|].
        etransitivity; [exact IH2|]. f_equal. simpl. lia.
Qed.

Lemma slot_all_ok : forall l ss,
  slots_inv 0 ss -> length (concat ss) + length l < 2 ^ (length ss) ->
  slots_inv 0 (slot_all mrg ss l) /\ length (slot_all mrg ss l) = length ss /\
  Permutation (concat (slot_all mrg ss l)) (l ++ concat ss).
Proof.
  induction l as [|x l IH]; intros ss I H; simpl; auto.
  simpl in H.
  destruct (slot_insert_ok ss 0 [x] I eq_refl) as [I1 P1]; [simpl; lia|].
  assert (LC : length (concat (slot_insert mrg ss [x])) = S (length (concat ss))).
  { rewrite (Permutation_length P1). reflexivity. }
  destruct (IH (slot_insert mrg ss [x]) I1) as (I2 & L2 & P2).
  - rewrite slot_insert_length. lia.
  - rewrite slot_insert_length in L2. repeat split; auto.
    rewrite P2, P1. simpl. symmetry. apply Permutation_middle.
Qed.

Lemma slot_all_app : forall l1 l2 ss, slot_all mrg ss (l1 ++ l2) = slot_all mrg (slot_all mrg ss l1) l2.
Proof. induction l1; intros; simpl; auto. Qed.

Lemma concat_repeat_nil : forall n, concat (repeat (@nil A) n) = [].
Proof. induction n; simpl; auto. Qed.

Lemma slots_inv_repeat : forall n j, slots_inv j (repeat [] n).
Proof. induction n; intros; simpl; auto. Qed.

(** A list of exactly 2^n elements loses half of them in n slots. *)
Lemma slot_all_overflow : forall n l, 0 < n -> length l = 2 ^ n ->
  length (concat (slot_all mrg (repeat [] n) l)) = 2 ^ (n - 1).
Proof.
  intros n l Hn HL.
  destruct (exists_last (l := l)) as [l1 [x E]].
  { intros ->. simpl in HL. pose proof (pow_pos n). lia. }
  subst l. rewrite app_length in HL. simpl in HL.
  rewrite slot_all_app. simpl.
  destruct (slot_all_ok l1 (repeat [] n)) as (I & L & P).
  - apply slots_inv_repeat.
  - rewrite concat_repeat_nil, repeat_length. simpl. lia.
  - rewrite concat_repeat_nil, app_nil_r in P. rewrite repeat_length in L.
    destruct (slot_insert_full (slot_all mrg (repeat [] n) l1) 0 [x]) as [_ F]; auto.
    + intros E. rewrite E in L. simpl in L. lia.
    + rewrite L, (Permutation_length P). simpl. lia.
    + rewrite F, L. reflexivity.
Qed.

Lemma fold_mrg_perm : forall (f : list A -> list A -> list A),
  (forall ep s, Permutation (f ep s) (s ++ ep)) ->
  forall ss acc, Permutation (fold_left f ss acc) (concat ss ++ acc).
Proof.
  intros f Hf. induction ss as [|s ss IH]; intros acc; simpl; auto.
  rewrite IH, Hf. rewrite app_assoc. apply Permutation_app_tail. apply Permutation_app_comm.
Qed.

End SlotPerm.

Section SlotSorted.
Context {A : Type}.
Variable R : A -> A -> Prop.
Variable mrg : list A -> list A -> list A.
Hypothesis mrg_sorted : forall a b, StronglySorted R a -> StronglySorted R b -> StronglySorted R (mrg a b).

Lemma slot_insert_sorted : forall ss ep,
  Forall (StronglySorted R) ss -> StronglySorted R ep ->
  Forall (StronglySorted R) (slot_insert mrg ss ep).
Proof.
  induction ss as [|s ss IH]; intros ep F S; simpl; auto.
  inversion F; subst. destruct ss as [|s2 ss]; auto.
  destruct s; auto. constructor; auto. constructor.
Qed.

Lemma slot_all_sorted : forall l ss,
  Forall (StronglySorted R) ss -> Forall (StronglySorted R) (slot_all mrg ss l).
Proof.
  induction l as [|x l IH]; intros ss F; simpl; auto.
  apply IH. apply slot_insert_sorted; auto. repeat constructor.
Qed.

Lemma fold_sorted : forall f : list A -> list A -> list A,
  (forall a s, StronglySorted R a -> StronglySorted R s -> StronglySorted R (f a s)) ->
  forall ss acc, Forall (StronglySorted R) ss -> StronglySorted R acc ->
  StronglySorted R (fold_left f ss acc).
Proof.
  intros f Hf. induction ss as [|s ss IH]; intros acc F S; simpl; auto.
  inversion F; subst. apply IH; auto.
Qed.
End SlotSorted.

Lemma sorted_repeat_nil : forall A (R : A -> A -> Prop) n, Forall (StronglySorted R) (repeat [] n).
Proof. induction n; simpl; constructor; auto. constructor. Qed.

(** merge *)
Section Merge.
Context {A : Type}.
Variable le : A -> A -> bool.

Lemma merge_nil_l : forall b, merge le [] b = b.
Proof. destruct b; reflexivity. Qed.
Lemma merge_nil_r : forall a, merge le a [] = a.
Proof. destruct a; reflexivity. Qed.
Lemma merge_cons : forall x a y b,
  merge le (x :: a) (y :: b) = if le x y then x :: merge le a (y :: b) else y :: merge le (x :: a) b.
Proof. reflexivity. Qed.

Lemma merge_perm : forall a b, Permutation (merge le a b) (a ++ b).
Proof.
  induction a as [|x a IHa]; intros b.
  - rewrite merge_nil_l. auto.
  - induction b as [|y b IHb].
    + rewrite merge_nil_r, app_nil_r. auto.
    + rewrite merge_cons. destruct (le x y).
      * simpl. constructor. apply IHa.
      * rewrite IHb. apply Permutation_cons_app. apply Permutation_refl.
Qed.

Hypothesis le_trans : forall x y z, le x y = true -> le y z = true -> le x z = true.
Hypothesis le_total : forall x y, le x y = true \/ le y x = true.

Let R x y := le x y = true.

Lemma merge_sorted : forall a b, StronglySorted R a -> StronglySorted R b ->
  StronglySorted R (merge le a b).
Proof.
  induction a as [|x a IHa]; intros b Sa Sb.
  - now rewrite merge_nil_l.
  - induction b as [|y b IHb].
    + now rewrite merge_nil_r.
    + inversion Sa as [|? ? Sa' Fa]; subst. inversion Sb as [|? ? Sb' Fb]; subst.
      rewrite merge_cons. destruct (le x y) eqn:E.
      * constructor. { apply IHa; auto. }
        eapply Permutation_Forall; [symmetry; apply merge_perm|].
        apply Forall_app. split; auto. constructor; auto.
        eapply Forall_impl; [|exact Fb]. intros z Hz. eapply le_trans; eauto.
      * constructor. { apply IHb; auto. }
        eapply Permutation_Forall; [symmetry; apply merge_perm|].
        assert (Yx : le y x = true) by (destruct (le_total x y); congruence).
        apply Forall_app. split; auto. constructor; auto.
        eapply Forall_impl; [|exact Fa]. intros z Hz. eapply le_trans; eauto.
Qed.

Lemma msort_sorted : forall l, StronglySorted R (msort le l).
Proof.
  intros l. unfold msort. apply fold_sorted.
  - intros a s Ha Hs. destruct s; auto. apply merge_sorted; auto.
  - apply slot_all_sorted. { intros; apply merge_sorted; auto. } apply sorted_repeat_nil.
  - constructor.
Qed.

End Merge.

Lemma msort_fold_perm : forall A (le : A -> A -> bool) ss acc,
  Permutation (fold_left (fun ep s => match s with [] => ep | _ => merge le s ep end) ss acc)
              (concat ss ++ acc).
Proof.
  intros. apply fold_mrg_perm. intros ep s. destruct s; auto. apply merge_perm.
Qed.

Lemma msort_perm : forall A (le : A -> A -> bool) (l : list A),
  length l < 2 ^ LISTSIZE -> Permutation (msort le l) l.
Proof.
  intros A le l H. unfold msort. rewrite msort_fold_perm, app_nil_r.
  destruct (slot_all_ok (fun ep s => merge le ep s) (merge_perm le) l (repeat [] LISTSIZE)) as (_ & _ & P).
  - apply slots_inv_repeat.
  - rewrite concat_repeat_nil, repeat_length. exact H.
  - rewrite P, concat_repeat_nil, app_nil_r. auto.
Qed.

Lemma msort_overflow : forall A (le : A -> A -> bool) (l : list A),
  length l = 2 ^ LISTSIZE -> length (msort le l) = 2 ^ (LISTSIZE - 1).
Proof.
  intros A le l H. unfold msort.
  rewrite (Permutation_length (msort_fold_perm A le _ _)), app_nil_r.
  apply slot_all_overflow; auto.
  - apply merge_perm.
  - unfold LISTSIZE; lia.
Qed.

(** Rule_merge / Rule_sort *)
Section RuleSort.
Context {A : Type}.
Variable irule : A -> nat.

Lemma Rule_merge_nil_l : forall b, Rule_merge irule [] b = b.
Proof. destruct b; reflexivity. Qed.
Lemma Rule_merge_nil_r : forall a, Rule_merge irule a [] = a.
Proof. destruct a; reflexivity. Qed.
Lemma Rule_merge_cons : forall x a y b,
  Rule_merge irule (x :: a) (y :: b) =
  if irule x <? irule y then x :: Rule_merge irule a (y :: b) else y :: Rule_merge irule (x :: a) b.
Proof. reflexivity. Qed.

Lemma Rule_merge_perm : forall a b, Permutation (Rule_merge irule a b) (a ++ b).
Proof.
  induction a as [|x a IHa]; intros b.
  - rewrite Rule_merge_nil_l. auto.
  - induction b as [|y b IHb].
    + rewrite Rule_merge_nil_r, app_nil_r. auto.
    + rewrite Rule_merge_cons. destruct (irule x <? irule y).
      * simpl. constructor. apply IHa.
      * rewrite IHb. apply Permutation_cons_app. apply Permutation_refl.
Qed.

Let R x y := irule x <= irule y.

Lemma Rule_merge_sorted : forall a b, StronglySorted R a -> StronglySorted R b ->
  StronglySorted R (Rule_merge irule a b).
Proof.
  induction a as [|x a IHa]; intros b Sa Sb.
  - now rewrite Rule_merge_nil_l.
  - induction b as [|y b IHb].
    + now rewrite Rule_merge_nil_r.
    + inversion Sa as [|? ? Sa' Fa]; subst. inversion Sb as [|? ? Sb' Fb]; subst.
      rewrite Rule_merge_cons. destruct (Nat.ltb_spec (irule x) (irule y)) as [E|E].
      * constructor. { apply IHa; auto. }
        eapply Permutation_Forall; [symmetry; apply Rule_merge_perm|].
        apply Forall_app. split; auto. constructor; [red; lia|].
        eapply Forall_impl; [|exact Fb]. unfold R; intros z Hz; lia.
      * constructor. { apply IHb; auto. }
        eapply Permutation_Forall; [symmetry; apply Rule_merge_perm|].
        apply Forall_app. split; auto. constructor; [red; lia|].
        eapply Forall_impl; [|exact Fa]. unfold R; intros z Hz; lia.
Qed.

Lemma Rule_sort_sorted : forall l, StronglySorted R (Rule_sort irule l).
Proof.
  intros l. unfold Rule_sort. apply fold_sorted.
  - intros a s Ha Hs. apply Rule_merge_sorted; auto.
  - apply slot_all_sorted. { intros; apply Rule_merge_sorted; auto. } apply sorted_repeat_nil.
  - constructor.
Qed.

Lemma Rule_sort_perm : forall l, length l < 2 ^ RULESLOTS -> Permutation (Rule_sort irule l) l.
Proof.
  intros l H. unfold Rule_sort.
  rewrite (fold_mrg_perm (fun rp s => Rule_merge irule s rp)).
  2:{ intros. apply Rule_merge_perm. }
  rewrite app_nil_r.
  destruct (slot_all_ok (fun rp s => Rule_merge irule s rp)) with (l := l) (ss := repeat (@nil A) RULESLOTS)
    as (_ & _ & P).
  - intros a b. rewrite Rule_merge_perm. apply Permutation_app_comm.
  - apply slots_inv_repeat.
  - rewrite concat_repeat_nil, repeat_length. exact H.
  - rewrite P, concat_repeat_nil, app_nil_r. auto.
Qed.

End RuleSort.

(** Numbering. *)
Lemma number_pass1_spec : forall code i l n, number_pass1 code i = (l, n) ->
  length l = length code /\ i <= n /\ n = i + length (filter (fun b => b) code) /\
  (forall k, nth_error code k = Some true ->
     nth_error l k = Some (Some (i + length (filter (fun b => b) (firstn k code))))) /\
  (forall k, nth_error code k = Some false -> nth_error l k = Some None).
Proof.
  induction code as [|c code IH]; intros i l n H; simpl in H.
  - inversion H; subst. simpl. repeat split; auto; destruct k; discriminate.
  - destruct c.
    + destruct (number_pass1 code (S i)) as [l' n'] eqn:E. inversion H; subst.
      destruct (IH _ _ _ E) as (H1 & H2 & H3 & H4 & H5).
      simpl. repeat split; try lia; intros [|k] Hk; simpl in *; try discriminate.
      * f_equal. f_equal. lia.
      * rewrite (H4 k Hk). f_equal. f_equal. lia.
      * auto.
    + destruct (number_pass1 code i) as [l' n'] eqn:E. inversion H; subst.
      destruct (IH _ _ _ E) as (H1 & H2 & H3 & H4 & H5).
      simpl. repeat split; try lia; intros [|k] Hk; simpl in *; try discriminate; auto.
Qed.

Lemma number_pass2_spec : forall l i,
  length (number_pass2 l i) = length l /\
  (forall k v, nth_error l k = Some (Some v) -> nth_error (number_pass2 l i) k = Some v) /\
  (forall k, nth_error l k = Some None ->
     nth_error (number_pass2 l i) k =
     Some (i + length (filter (fun o => match o with None => true | _ => false end) (firstn k l)))).
Proof.
  induction l as [|o l IH]; intros i; simpl.
  - repeat split; auto; intros [|k]; discriminate.
  - destruct o as [v|].
    + destruct (IH i) as (H1 & H2 & H3). simpl. repeat split; auto; intros [|k]; simpl; auto; intros; congruence.
    + destruct (IH (S i)) as (H1 & H2 & H3). simpl.
      split; [auto|]. split.
      * intros [|k] v; simpl; [discriminate|apply H2].
      * intros [|k]; simpl.
        -- intros _. f_equal. lia.
        -- intros Hk. rewrite (H3 k Hk). f_equal. lia.
Qed.
