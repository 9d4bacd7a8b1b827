(** Labels of lemon's actions when no symbol has a precedence. *)
From Coq Require Import List Arith Lia Bool Permutation Sorted.
Import ListNotations.
From Verif Require Import Base SpecGrammar CLib LemonStatesModel LemonActionModel LemonActionProof LemonActtabProof Prop_LemonAction.

Lemma filter_all : forall A (f : A -> bool) l, (forall x, In x l -> f x = true) -> filter f l = l.
Proof. intros A f. induction l as [|x l IH]; intros H; [reflexivity|]. cbn [filter]. rewrite (H x (or_introl eq_refl)), IH; auto with datatypes. Qed.

Section NoPrec.
Variable p : precs.
Variable ps : list (option nat).
Hypothesis NP : forall s, p_prec p s = None.

(** The label of [y] when [x] is the first action on the symbol. *)
Definition label (x y : action) : action :=
  with_type y (match a_type x, a_type y with SHIFT, SHIFT => SSCONFLICT | SHIFT, _ => SRCONFLICT | _, _ => RRCONFLICT end).

Lemma noprec_label : forall x y x' y' n, resolve_conflict p ps x y = Ok (x', y', n) ->
  live x = true -> live y = true -> x' = x /\ y' = label x y /\ a_type x <> ACCEPT /\ a_type y <> ACCEPT /\ (a_type x = REDUCE -> a_type y = REDUCE).
Proof.
  intros [tx sx ax] [ty sy ay] x' y' n H LX LY. unfold resolve_conflict in H. simpl in H.
  destruct (sx =? sy); simpl in H; [|discriminate]. unfold live in *. simpl in *.
  destruct tx; try discriminate; destruct ty; try discriminate; simpl in H; try discriminate.
  - inv_ok H. repeat split; discriminate.
  - destruct (nth_error ps ay) as [[spy|]|]; simpl in H; try discriminate; rewrite ?NP in H; inv_ok H; repeat split; discriminate.
  - destruct (nth_error ps ax) as [[spx|]|]; simpl in H; try discriminate;
    destruct (nth_error ps ay) as [[spy|]|]; simpl in H; try discriminate; rewrite ?NP in H; inv_ok H; repeat split; discriminate.
Qed.

Lemma inner_label : forall grp ap rest ap' rest' n, live ap = true ->
  (forall b, In b grp -> live b = true /\ a_sp b = a_sp ap) -> diff_head (a_sp ap) rest ->
  resolve_inner p ps ap (grp ++ rest) = Ok (ap', rest', n) ->
  ap' = ap /\ rest' = map (label ap) grp ++ rest /\
  forall b, In b grp -> a_type ap <> ACCEPT /\ a_type b <> ACCEPT /\ (a_type ap = REDUCE -> a_type b = REDUCE).
Proof.
  induction grp as [|b grp IH]; intros ap rest ap' rest' n LA G D R; simpl in R.
  - destruct rest as [|c rest]; cbn [resolve_inner] in R.
    + inv_ok R. split; [auto|]. split; [auto|]. intros b [].
    + simpl in D. apply Nat.eqb_neq in D. rewrite D in R. inv_ok R. split; [auto|]. split; [auto|]. intros b [].
  - destruct (G b (or_introl eq_refl)) as (LB & EB). rewrite EB, Nat.eqb_refl in R.
    apply bind_Ok in R as ([[ap1 nap1] n1] & R1 & R). apply bind_Ok in R as ([[ap2 r2] m] & R2 & R). inv_ok R.
    apply noprec_label in R1 as (-> & -> & T); auto.
    apply IH in R2 as (-> & -> & T2); auto.
    2: { intros c Hc. apply G. right; auto. }
    split; [auto|]. split; [reflexivity|]. intros c [<-|Hc]; auto.
Qed.

Lemma list_settled' : forall grp rest f l' n, (forall b, In b grp -> settled (a_type b) = true) ->
  resolve_list (length grp + f) p ps (grp ++ rest) = Ok (l', n) ->
  exists rest', resolve_list f p ps rest = Ok (rest', n) /\ l' = grp ++ rest'.
Proof.
  induction grp as [|b grp IH]; intros rest f l' n G R; [eauto|].
  cbn [length app Nat.add resolve_list] in R.
  apply bind_Ok in R as ([[ap1 rest1] n1] & R1 & R). apply bind_Ok in R as ([rest2 m] & R2 & R). inv_ok R.
  apply inner_settled in R1 as (-> & -> & ->); [|apply G; left; auto].
  apply IH in R2 as (rest' & R2 & ->); [exists rest'; auto|]. intros c Hc. apply G. right; auto.
Qed.

Lemma label_settled : forall x y, settled (a_type (label x y)) = true.
Proof. intros [[] ? ?] [[] ? ?]; reflexivity. Qed.

(** The labels SRCONFLICT and RRCONFLICT of a sorted list. *)
Definition conflicting (a : action) : bool := match a_type a with SRCONFLICT | RRCONFLICT => true | _ => false end.

Record labels_ok (l l' : list action) (n : nat) : Prop := {
  lo_nd : NoDup (filter conflicting l');
  lo_n : n = length (filter conflicting l');
  lo_sp : forall y, In y l' -> exists x, In x l /\ a_sp x = a_sp y;
  lo_sr : forall t k, In (mkAction SRCONFLICT t k) l' <-> In (mkAction REDUCE t k) l /\ exists q, In (mkAction SHIFT t q) l;
  lo_rr : forall t k, In (mkAction RRCONFLICT t k) l' <-> In (mkAction REDUCE t k) l /\ (forall q, ~ In (mkAction SHIFT t q) l) /\
            exists k', k' < k /\ In (mkAction REDUCE t k') l
}.

Lemma resolve_list_labels : forall m l f l' n, length l <= m -> length l <= f -> StronglySorted act_le l -> (forall a, In a l -> live a = true) ->
  NoDup (filter (fun a => negb (is_shift a)) l) -> NoDup (map a_sp (filter is_shift l)) ->
  resolve_list f p ps l = Ok (l', n) -> labels_ok l l' n.
Proof.
  assert (NIL : forall f l' n, resolve_list f p ps [] = Ok (l', n) -> labels_ok [] l' n).
  { intros f l' n R. assert (l' = [] /\ n = 0) as (-> & ->) by (destruct f; inv_ok R; auto).
    constructor; [constructor|reflexivity|intros y []| |]; intros t k; (split; [intros []|intros ([] & _)]). }
  induction m as [|m IH]; intros [|a l] f l' n Hm Hf SS LV ND NS R; simpl in Hm; try lia; [eapply NIL; eauto|eapply NIL; eauto|].
  destruct f as [|f]; [simpl in Hf; lia|].
  pose proof (act_le_sp _ SS) as SP. apply StronglySorted_inv in SP as (S1 & F1).
  destruct (span_sp (a_sp a) l S1 F1) as (grp & rest & -> & G & FR).
  cbn [resolve_list] in R.
  apply bind_Ok in R as ([[ap1 rest1] n1] & R1 & R). apply bind_Ok in R as ([rest2 k] & R2 & R). inv_ok R.
  assert (N1 : n1 = length grp).
  { apply (inner_live p ps NP) in R1; [apply R1|apply LV; now left| |]; [intros b Hb; split; [apply LV; right; apply in_or_app; auto|auto]|].
    destruct rest; simpl; auto. inversion FR; subst. lia. }
  apply inner_label in R1 as (-> & -> & T).
  2: { apply LV. left; auto. }
  2: { intros b Hb. split; [apply LV; right; apply in_or_app; auto|auto]. }
  2: { destruct rest; simpl; auto. inversion FR; subst. lia. }
  simpl in Hf. rewrite app_length in Hf.
  assert (Ef : exists f', f = length (map (label a) grp) + f' /\ length rest <= f') by (exists (f - length grp); rewrite map_length; lia).
  destruct Ef as (f' & -> & Hf'). apply list_settled' in R2 as (rest' & R2 & ->).
  2: { intros b Hb. apply in_map_iff in Hb as (c & <- & _). apply label_settled. }
  apply StronglySorted_inv in SS as (SS1 & SF). pose proof SF as SF'. rewrite Forall_forall in SF'.
  apply IH in R2.
  - destruct R2 as [L0 Ln L1 L2 L3].
    assert (NR : forall ty k0, In (mkAction ty (a_sp a) k0) rest' -> False).
    { intros ty k0 H. apply L1 in H as (x & Hx & E). rewrite Forall_forall in FR. specialize (FR x Hx). cbn in E. lia. }
    assert (NR' : forall ty k0, In (mkAction ty (a_sp a) k0) rest -> False).
    { intros ty k0 H. rewrite Forall_forall in FR. specialize (FR _ H). cbn in FR. lia. }
    assert (NG : forall b, In b (map (label a) grp) -> a_sp b = a_sp a).
    { intros b Hb. apply in_map_iff in Hb as (c & <- & Hc). cbn. auto. }
    (* members of the group by type *)
    assert (LA : live a = true) by (apply LV; now left).
    assert (TG : forall b, In b grp -> b = mkAction (a_type b) (a_sp a) (a_arg b) /\ (a_type b = SHIFT \/ a_type b = REDUCE)).
    { intros [ty sp ar] Hb. rewrite <- (G _ Hb). split; [reflexivity|]. destruct (T _ Hb) as (_ & T2 & _).
      assert (Lb : live (mkAction ty sp ar) = true) by (apply LV; right; apply in_or_app; auto). unfold live in Lb. cbn in *. destruct ty; try discriminate; auto; congruence. }
    assert (RG : forall b, In b grp -> a_type b = REDUCE).
    { intros b Hb. destruct (TG b Hb) as (Xb & [Tb|Tb]); [|auto]. exfalso. destruct (T b Hb) as (Ta & _ & Ta2). cbn [filter] in NS.
      assert (Sa : is_shift a = true). { unfold is_shift. destruct a as [ta sa xa]. cbn in *. destruct ta; try discriminate LA; auto; try congruence. rewrite Ta2 in Tb; [discriminate|auto]. }
      rewrite Sa in NS. cbn [map] in NS. apply NoDup_cons_iff in NS as (NS & _). apply NS. apply in_map_iff. exists b. split; [auto|].
      apply filter_In. split; [apply in_or_app; auto|]. unfold is_shift. now rewrite Tb. }
    assert (CG : filter conflicting (map (label a) grp) = map (label a) grp).
    { clear - RG TG T. induction grp as [|b grp IH]; [reflexivity|]. cbn [map filter]. assert (C : conflicting (label a b) = true).
      { unfold conflicting, label. cbn. rewrite (RG b (or_introl eq_refl)). destruct (a_type a); reflexivity. }
      rewrite C, IH; [reflexivity|..]; intros c Hc; [apply T|apply TG|apply RG]; now right. }
    assert (CA : conflicting a = false). { unfold conflicting. unfold live in LA. destruct (a_type a); auto; discriminate LA. }
    constructor.
    + cbn [filter]. rewrite CA, filter_app, CG. apply NoDup_app_iff. split; [|split; [auto|]].
      * assert (NDg : NoDup grp).
        { cbn [filter] in ND. assert (X : NoDup (filter (fun a => negb (is_shift a)) grp)).
          { destruct (negb (is_shift a)); [apply NoDup_cons_iff in ND as (_ & ND)|]; rewrite filter_app in ND; now apply NoDup_app_l in ND. }
          rewrite filter_all in X; [exact X|]. intros b Hb. unfold is_shift. now rewrite (RG b Hb). }
        apply NoDup_map_inj; [|exact NDg]. intros x y Hx Hy E. destruct (TG x Hx) as (Ex & _), (TG y Hy) as (Ey & _).
        rewrite (RG x Hx) in Ex. rewrite (RG y Hy) in Ey. rewrite Ex, Ey. unfold label, with_type in E. inversion E. congruence.
      * intros x Hx Hx'. apply NG in Hx. apply filter_In in Hx' as (Hx' & _). apply L1 in Hx' as (y & Hy & Ey). rewrite Forall_forall in FR. specialize (FR y Hy). lia.
    + cbn [filter]. rewrite CA, filter_app, CG, app_length, map_length. lia.
    + intros y [<-|Hy]; [exists a; split; [now left|auto]|]. apply in_app_or in Hy as [Hy|Hy].
      * exists a. split; [now left|]. symmetry. auto.
      * apply L1 in Hy as (x & Hx & E). exists x. split; [right; apply in_or_app; auto|auto].
    + intros t k0. destruct (Nat.eq_dec t (a_sp a)) as [->|Nt].
      * split.
        -- intros [H|H]; [rewrite H in LA; discriminate LA|]. apply in_app_or in H as [H|H]; [|now apply NR in H].
           apply in_map_iff in H as (b & Eb & Hb). destruct (TG b Hb) as (Xb & Tb). destruct (T b Hb) as (Ta & _ & Ta2).
           destruct a as [ta sa xa], b as [tb sb xb]. cbn in *. unfold label, with_type in Eb. cbn in Eb. injection Eb as E1 E2 E3. subst sb xb.
           destruct ta; try discriminate LA; try congruence; destruct Tb as [-> | ->]; try discriminate E1.
           ++ split; [right; apply in_or_app; auto|]. exists xa. now left.
        -- intros (H1 & q & H2). right. apply in_or_app. left.
           assert (Hb : In (mkAction REDUCE (a_sp a) k0) grp).
           { destruct H1 as [H1|H1]; [|apply in_app_or in H1 as [H1|H1]; [auto|now apply NR' in H1]].
             exfalso. destruct H2 as [H2|H2]; [congruence|]. specialize (SF' _ H2). rewrite H1 in SF'. unfold act_le in SF'. cbn in SF'. lia. }
           apply in_map_iff. exists (mkAction REDUCE (a_sp a) k0). split; [|auto]. destruct (T _ Hb) as (Ta & _ & _).
           assert (Sa : a_type a = SHIFT).
           { destruct H2 as [H2|H2]; [now rewrite H2|]. specialize (SF' _ H2). destruct a as [ta sa xa]. cbn in *. unfold act_le in SF'. cbn in SF'. destruct ta; try discriminate LA; auto; cbn in SF'; try congruence; lia. }
           unfold label, with_type. rewrite Sa. reflexivity.
      * split.
        -- intros [H|H]; [rewrite H in LA; discriminate LA|]. apply in_app_or in H as [H|H]; [apply NG in H; now destruct Nt|].
           apply L2 in H as (H & q & Hq). split; [right; apply in_or_app; auto|]. exists q. right. apply in_or_app. auto.
        -- intros (H & q & Hq). right. apply in_or_app. right. apply L2.
           assert (X : forall ty k, In (mkAction ty t k) (a :: grp ++ rest) -> In (mkAction ty t k) rest).
           { intros ty k1 [E|E]; [subst a; now destruct Nt|]. apply in_app_or in E as [E|E]; [apply G in E; now destruct Nt|auto]. }
           eauto.
    + intros t k0. destruct (Nat.eq_dec t (a_sp a)) as [->|Nt].
      * split.
        -- intros [H|H]; [rewrite H in LA; discriminate LA|]. apply in_app_or in H as [H|H]; [|now apply NR in H].
           apply in_map_iff in H as (b & Eb & Hb). destruct (TG b Hb) as (Xb & Tb). destruct (T b Hb) as (Ta & _ & Ta2).
           assert (Ib : In b (a :: grp ++ rest)) by (right; apply in_or_app; auto).
           destruct a as [ta sa xa], b as [tb sb xb]. cbn in G, TG, NR', NG, LA, Xb, Tb, Ta, Ta2 |- *. unfold label, with_type in Eb. cbn in Eb. injection Eb as E1 E2 E3. subst sb xb.
           destruct ta; try discriminate LA; try congruence; destruct Tb as [-> | ->]; try discriminate E1; try (specialize (Ta2 eq_refl); discriminate).
           split; [auto|]. split.
           ++ intros q [H|H]; [discriminate|]. specialize (SF' _ H). unfold act_le in SF'. cbn in SF'. lia.
           ++ exists xa. split; [|now left]. assert (LE : act_le (mkAction REDUCE sa xa) (mkAction REDUCE sa k0)) by (apply SF'; apply in_or_app; auto).
              unfold act_le in LE. cbn in LE. assert (xa <> k0); [|lia]. intros ->. cbn in ND. inversion ND as [|? ? N8 N9]; subst. apply N8.
              apply filter_In. split; [apply in_or_app; auto|reflexivity].
        -- intros (H1 & H2 & k' & Hk & H3). right. apply in_or_app. left.
           assert (Hb : In (mkAction REDUCE (a_sp a) k0) grp).
           { destruct H1 as [H1|H1]; [|apply in_app_or in H1 as [H1|H1]; [auto|now apply NR' in H1]].
             exfalso. destruct H3 as [H3|H3]; [rewrite H1 in H3; inversion H3; lia|]. specialize (SF' _ H3). rewrite H1 in SF'. unfold act_le in SF'. cbn in SF'. lia. }
           apply in_map_iff. exists (mkAction REDUCE (a_sp a) k0). split; [|auto]. destruct (T _ Hb) as (Ta & _ & _).
           assert (Sa : a_type a = REDUCE).
           { destruct a as [ta sa xa]. cbn in LA, Ta, H2 |- *. destruct ta; try discriminate LA; try congruence. exfalso. apply (H2 xa). now left. }
           unfold label, with_type. rewrite Sa. reflexivity.
      * assert (X : forall ty k, In (mkAction ty t k) (a :: grp ++ rest) <-> In (mkAction ty t k) rest).
        { intros ty k1. split; [|intros E; right; apply in_or_app; auto]. intros [E|E]; [subst a; now destruct Nt|]. apply in_app_or in E as [E|E]; [apply G in E; now destruct Nt|auto]. }
        rewrite X. transitivity (In (mkAction RRCONFLICT t k0) rest').
        -- split; [|intros H; right; apply in_or_app; auto]. intros [H|H]; [rewrite H in LA; discriminate LA|]. apply in_app_or in H as [H|H]; [apply NG in H; now destruct Nt|auto].
        -- rewrite L3. split; intros (H1 & H2 & k' & H3 & H4); (split; [auto|]); (split; [intros q Hq; apply X in Hq; eapply H2; eauto|]); exists k'; (split; [auto|]); [now apply X|now apply X in H4].
  - rewrite app_length in Hm. lia.
  - auto.
  - clear - SS1. induction grp; simpl in *; auto. apply IHgrp. apply StronglySorted_inv in SS1. apply SS1.
  - intros b Hb. apply LV. right. apply in_or_app. auto.
  - clear - ND. cbn [filter] in ND. rewrite filter_app in ND. destruct (negb (is_shift a)); [apply NoDup_cons_iff in ND as (_ & ND)|]; now apply NoDup_app_r in ND.
  - clear - NS. cbn [filter] in NS. rewrite filter_app in NS. destruct (is_shift a); [cbn [map] in NS; apply NoDup_cons_iff in NS as (_ & NS)|]; rewrite map_app in NS; now apply NoDup_app_r in NS.
Qed.
End NoPrec.
