(** Correctness of FindLinks and FindFollowSets. *)
From Coq Require Import List Arith NArith Lia Bool.
Import ListNotations.
From Verif Require Import Base SpecGrammar SpecGrammarFacts SpecLRFacts LemonSetModel LemonSetProof
  LemonFirstModel LemonFirstProof LemonSortModel LemonStatesModel LemonClosureProof LemonStatesProof LemonFollowModel.
Local Open Scope res_scope.

Notation fw h x := (c_fws (cf h x)).
Notation fp h x := (c_fplp (cf h x)).

Lemma set_ext : forall a b : cset, length a = length b ->
  (forall x, SetFind a x = true <-> SetFind b x = true) -> a = b.
Proof.
  induction a as [|u a IH]; intros [|v b] L E; simpl in L; try discriminate; auto.
  f_equal.
  - specialize (E 0). unfold SetFind in E. simpl in E. destruct u, v; auto; destruct E as [E1 E2]; [symmetry|]; auto.
  - apply IH; [lia|]. intros x. apply (E (S x)).
Qed.

Lemma cf_ext : forall a b : list config, length a = length b -> (forall x, cf a x = cf b x) -> a = b.
Proof.
  intros a b L E. apply (nth_ext _ _ dconf dconf); auto. intros n _. apply E.
Qed.

Definition meas (f : config -> nat) (h : list config) : nat := list_sum (map f h).

Lemma meas_upd : forall f h x c, x < length h -> meas f (upd h x c) + f (cf h x) = meas f h + f c.
Proof.
  intros f h. unfold meas, cf. induction h as [|a h IH]; intros [|x] c H; cbn [length] in H; try lia.
  - cbn [upd map nth]. unfold list_sum. cbn [fold_right]. lia.
  - cbn [upd map nth]. unfold list_sum in *. cbn [fold_right]. specialize (IH x c). lia.
Qed.

Lemma meas_le : forall f k h, (forall c, f c <= k c) -> meas f h <= meas k h.
Proof.
  intros f k h H. unfold meas, list_sum. induction h as [|c h IH]; simpl; auto. specialize (H c). lia.
Qed.

Lemma meas_ext : forall f a b, length a = length b -> (forall x, f (cf a x) = f (cf b x)) -> meas f a = meas f b.
Proof.
  intros f a. unfold meas, list_sum, cf. induction a as [|c a IH]; intros [|d b] L E; simpl in L; try discriminate; auto.
  simpl. pose proof (E 0) as E0. simpl in E0. rewrite E0. f_equal. apply IH; [lia|]. intros x. apply (E (S x)).
Qed.

Section F.
Variable h0 : list config.
Variable l : list nat.
Hypothesis V : forall x, In x l -> x < length h0.
Hypothesis CL : forall x y, In x l -> In y (fp h0 x) -> In y l.
Variable sz : nat.
Hypothesis SZ : forall x, In x l -> length (fw h0 x) = sz.

(** Elements that flow to a configuration along the forward links. *)
Inductive flow : nat -> nat -> Prop :=
| flow_init : forall x t, In x l -> SetFind (fw h0 x) t = true -> flow x t
| flow_step : forall x y t, flow x t -> In y (fp h0 x) -> flow y t.

Lemma flow_in : forall x t, flow x t -> In x l.
Proof. intros x t H. induction H; auto. eapply CL; eauto. Qed.

Record FInv (h : list config) : Prop := {
  fi_len : length h = length h0;
  fi_shape : forall x, key h x = key h0 x /\ fp h x = fp h0 x /\ c_bplp (cf h x) = c_bplp (cf h0 x) /\
    length (fw h x) = length (fw h0 x);
  fi_mono : forall x t, SetFind (fw h0 x) t = true -> SetFind (fw h x) t = true;
  fi_sound : forall x t, In x l -> SetFind (fw h x) t = true -> flow x t;
  fi_comp : forall x y t, In x l -> c_comp (cf h x) = true -> In y (fp h0 x) ->
    SetFind (fw h x) t = true -> SetFind (fw h y) t = true
}.

Definition mc : list config -> nat := meas (fun c => card (c_fws c)).

Lemma follow_links_ok : forall x, In x l -> forall links done prog h,
  FInv h -> c_comp (cf h x) = false -> fp h0 x = done ++ links ->
  (forall y t, In y done -> SetFind (fw h x) t = true -> SetFind (fw h y) t = true) ->
  exists h' p, follow_links h x links prog = Ok (h', p) /\ FInv h' /\ c_comp (cf h' x) = false /\
    (forall y t, In y (fp h0 x) -> SetFind (fw h' x) t = true -> SetFind (fw h' y) t = true) /\
    mc h <= mc h' /\ (p = true -> prog = true \/ mc h < mc h') /\
    (p = false -> prog = false /\ h' = h).
Proof.
  intros x Hx. induction links as [|p links IH]; intros done prog h FI CX ED HD.
  - exists h, prog. simpl. rewrite app_nil_r in ED. rewrite ED. auto 12.
  - assert (Hp : In p l). { apply (CL x); auto. rewrite ED. apply in_or_app. right; left; auto. }
    assert (Lx : x < length h) by (rewrite (fi_len _ FI); auto).
    assert (Lp : p < length h) by (rewrite (fi_len _ FI); auto).
    cbn [follow_links]. rewrite (cf_nth_error h x Lx), (cf_nth_error h p Lp). cbn [opt bind].
    assert (SX : length (fw h p) = length (fw h x)).
    { destruct (fi_shape _ FI x) as (_ & _ & _ & ->). destruct (fi_shape _ FI p) as (_ & _ & _ & ->).
      rewrite !SZ; auto. }
    destruct (SetUnion_ok _ _ SX) as (w & ch & E & LW & W & CH). rewrite E. cbn [bind].
    destruct ch.
    + set (h1 := upd h p (with_comp (with_fws (cf h p) w) false)).
      assert (NE : p <> x).
      { intros ->. destruct (proj1 CH eq_refl) as (z & H1 & H2). congruence. }
      assert (C1 : cf h1 p = with_comp (with_fws (cf h p) w) false) by (apply cf_upd_eq; auto).
      assert (C2 : forall z, z <> p -> cf h1 z = cf h z) by (intros z Hz; apply cf_upd_ne; auto).
      assert (M1 : mc h < mc h1).
      { unfold mc. pose proof (meas_upd (fun c => card (c_fws c)) h p (with_comp (with_fws (cf h p) w) false) Lp) as MU.
        fold h1 in MU. simpl in MU.
        assert (card (fw h p) < card w); [|lia].
        apply card_strict; auto.
        - intros z Hz. apply W. auto.
        - destruct (proj1 CH eq_refl) as (z & H1 & H2). exists z. split; auto. apply W. auto. }
      assert (FI1 : FInv h1).
      { constructor.
        - unfold h1. rewrite upd_length. apply FI.
        - intros z. destruct (Nat.eq_dec z p) as [->|N].
          + unfold key. rewrite C1. simpl. destruct (fi_shape _ FI p) as (Q1 & Q2 & Q3 & Q4).
            split; [exact Q1|]. split; auto. split; auto. congruence.
          + unfold key. rewrite C2 by auto. apply FI.
        - intros z t Ht. apply (fi_mono _ FI) in Ht. destruct (Nat.eq_dec z p) as [->|N].
          + rewrite C1. simpl. apply W. auto.
          + rewrite C2; auto.
        - intros z t Hz. destruct (Nat.eq_dec z p) as [->|N].
          + rewrite C1. simpl. rewrite W. intros [Ht|Ht].
            * apply (fi_sound _ FI); auto.
            * apply (flow_step x); [apply (fi_sound _ FI); auto|]. rewrite ED. apply in_or_app. right; left; auto.
          + rewrite C2 by auto. apply FI. auto.
        - intros z y t Hz Cz Hy. destruct (Nat.eq_dec z p) as [->|N].
          + rewrite C1 in Cz. simpl in Cz. discriminate.
          + rewrite C2 in * by auto. intros Ht. apply (fi_comp _ FI z y t Hz Cz Hy) in Ht.
            destruct (Nat.eq_dec y p) as [->|Ny].
            * rewrite C1. simpl. apply W. auto.
            * rewrite C2; auto. }
      destruct (IH (done ++ [p]) true h1) as (h' & pp & R1 & R2 & R3 & R4 & R5 & R6 & R7); auto.
      { rewrite C2; auto. } { rewrite <- app_assoc. auto. }
      { intros y t Hy. rewrite C2 by auto. intros Ht. destruct (Nat.eq_dec y p) as [->|Ny].
        - rewrite C1. simpl. apply W. auto.
        - rewrite C2 by auto. apply in_app_iff in Hy as [Hy|[Hy|[]]]; [apply HD; auto|congruence]. }
      exists h', pp. split; [exact R1|]. split; auto. split; auto. split; auto. split; [lia|].
      split; [intros; lia|]. intros Hpp. apply R7 in Hpp as [Hpp _]. discriminate.
    + assert (w = fw h p).
      { apply set_ext; auto. intros z. rewrite W. split; auto. intros [H|H]; auto.
        destruct (SetFind (fw h p) z) eqn:Ez; auto. exfalso.
        assert (false = true); [|discriminate]. apply CH. eauto. }
      subst w. assert (UP : upd h p (with_fws (cf h p) (fw h p)) = h).
      { apply upd_same. rewrite (cf_nth_error h p Lp). destruct (cf h p); reflexivity. }
      rewrite UP.
      destruct (IH (done ++ [p]) prog h) as (h' & pp & R1 & R2 & R3 & R4 & R5 & R6 & R7); auto.
      { rewrite <- app_assoc. auto. }
      { intros y t Hy Ht. apply in_app_iff in Hy as [Hy|[<-|[]]]; [apply HD; auto|]. apply W. auto. }
      exists h', pp. auto 10.
Qed.

Lemma FInv_complete : forall h x, FInv h -> In x l ->
  (forall y t, In y (fp h0 x) -> SetFind (fw h x) t = true -> SetFind (fw h y) t = true) ->
  FInv (upd h x (with_comp (cf h x) true)) /\ mc (upd h x (with_comp (cf h x) true)) = mc h.
Proof.
  intros h x FI Hx HC. assert (Lx : x < length h) by (rewrite (fi_len _ FI); auto).
  set (h1 := upd h x (with_comp (cf h x) true)).
  assert (F : forall z, fw h1 z = fw h z /\ key h1 z = key h z /\ fp h1 z = fp h z /\
     c_bplp (cf h1 z) = c_bplp (cf h z) /\ (z <> x -> c_comp (cf h1 z) = c_comp (cf h z))).
  { intros z. unfold h1, key. destruct (Nat.eq_dec z x) as [->|N].
    - rewrite cf_upd_eq by auto. simpl. repeat (split; [reflexivity|]). congruence.
    - rewrite cf_upd_ne by auto. auto. }
  split.
  - constructor.
    + unfold h1. rewrite upd_length. apply FI.
    + intros z. destruct (F z) as (-> & -> & -> & -> & _). apply FI.
    + intros z t. destruct (F z) as (-> & _). apply FI.
    + intros z t. destruct (F z) as (-> & _). apply FI.
    + intros z y t Hz Cz Hy. destruct (F z) as (-> & _ & _ & _ & FC). destruct (F y) as (-> & _).
      destruct (Nat.eq_dec z x) as [->|N]; [apply HC; auto|].
      rewrite FC in Cz by auto. apply (fi_comp _ FI); auto.
  - apply meas_ext; [apply upd_length|]. intros z. destruct (F z) as (-> & _). auto.
Qed.

Lemma follow_pass_ok : forall l1 prog h, incl l1 l -> FInv h ->
  exists h' p, follow_pass h l1 prog = Ok (h', p) /\ FInv h' /\
    mc h <= mc h' /\ (p = true -> prog = true \/ mc h < mc h') /\
    (p = false -> prog = false /\ (forall x, In x l1 -> c_comp (cf h' x) = true) /\
       (forall x, c_comp (cf h x) = true -> c_comp (cf h' x) = true)).
Proof.
  induction l1 as [|x l1 IH]; intros prog h I FI.
  - exists h, prog. simpl. split; [auto|]. split; [auto|]. split; [auto|]. split; [auto|]. intros Hp.
    split; [auto|]. split; [intros x []|auto].
  - assert (Hx : In x l) by (apply I; left; auto).
    assert (I1 : incl l1 l) by (intros z Hz; apply I; right; auto).
    assert (Lx : x < length h) by (rewrite (fi_len _ FI); auto).
    cbn [follow_pass]. rewrite (cf_nth_error h x Lx). cbn [opt bind].
    destruct (c_comp (cf h x)) eqn:Ec.
    + destruct (IH prog h I1 FI) as (h' & p & R1 & R2 & R3 & R4 & R5).
      exists h', p. split; auto. split; auto. split; auto. split; auto.
      intros Hp. destruct (R5 Hp) as (R6 & R7 & R8). split; auto. split; auto.
      intros z [<-|Hz]; auto.
    + replace (fp h x) with (fp h0 x) by (symmetry; apply FI).
      destruct (follow_links_ok x Hx (fp h0 x) [] prog h FI Ec eq_refl) as (h1 & p & E & FI1 & C1 & D1 & M1 & M2 & M3).
      { intros y t []. }
      rewrite E. cbn [bind].
      assert (Lx1 : x < length h1) by (rewrite (fi_len _ FI1); auto).
      rewrite (cf_nth_error h1 x Lx1). cbn [opt bind].
      destruct (FInv_complete h1 x FI1 Hx D1) as (FI2 & M4).
      destruct (IH p _ I1 FI2) as (h' & p' & R1 & R2 & R3 & R4 & R5).
      exists h', p'. split; auto. split; auto. split; [lia|]. split.
      * intros Hp. apply R4 in Hp as [Hp|Hp]; [|right; lia]. apply M2 in Hp as [Hp|Hp]; auto. right; lia.
      * intros Hp. destruct (R5 Hp) as (R6 & R7 & R8). destruct (M3 R6) as (M5 & ->). split; auto.
        assert (CX : c_comp (cf h' x) = true).
        { apply R8. rewrite cf_upd_eq by auto. reflexivity. }
        split.
        -- intros z [<-|Hz]; auto.
        -- intros z Hz. destruct (Nat.eq_dec z x) as [->|N]; auto. apply R8.
           rewrite cf_upd_ne by auto. auto.
Qed.

Definition cap (h : list config) : nat := meas (fun c => length (c_fws c)) h.

Lemma mc_cap : forall h, FInv h -> mc h <= cap h0.
Proof.
  intros h FI. unfold cap. rewrite <- (meas_ext (fun c => length (c_fws c)) h h0).
  - apply meas_le. intros c. apply card_le_length.
  - apply FI.
  - intros x. apply FI.
Qed.

Lemma follow_loop_ok : forall fuel h, FInv h -> cap h0 < mc h + fuel ->
  exists h', follow_loop fuel h l = Ok h' /\ FInv h' /\
    (forall x t, In x l -> (SetFind (fw h' x) t = true <-> flow x t)).
Proof.
  induction fuel as [|f IH]; intros h FI HF.
  - pose proof (mc_cap h FI). lia.
  - cbn [follow_loop]. destruct (follow_pass_ok l false h (incl_refl l) FI) as (h1 & p & E & FI1 & M1 & M2 & M3).
    rewrite E. cbn [bind]. destruct p.
    + apply IH; auto. destruct (M2 eq_refl) as [H|H]; [discriminate|lia].
    + exists h1. split; auto. split; auto. destruct (M3 eq_refl) as (_ & C & _).
      intros x t Hx. split; [apply FI1; auto|].
      intros H. induction H as [x t Hx' Ht|x y t H IHf Hy].
      * apply FI1. auto.
      * pose proof (flow_in _ _ H) as Hxl. apply (fi_comp _ FI1 x y t); auto.
Qed.

Lemma follow_loop_mono : forall f f' h h', f <= f' -> follow_loop f h l = Ok h' -> follow_loop f' h l = Ok h'.
Proof.
  induction f as [|f IH]; intros f' h h' Hf; [discriminate|].
  destruct f' as [|f']; [lia|]. cbn [follow_loop].
  destruct (follow_pass h l false) as [[h1 p]| |]; cbn [bind]; auto.
  destruct p; auto. apply IH. lia.
Qed.
End F.

(** * FindLinks *)
Lemma links_one_ok : forall cfp bl h, (forall o, In o bl -> o < length h) ->
  exists h', links_one h cfp bl = Ok h' /\ length h' = length h /\
    (forall z, cf h' z = with_fplp (cf h z) (fp h' z)) /\
    (forall z y, In y (fp h' z) <-> In y (fp h z) \/ (y = cfp /\ In z bl)).
Proof.
  intros cfp. induction bl as [|o bl IH]; intros h V.
  - exists h. simpl. split; auto. split; auto. split.
    + intros z. destruct (cf h z); reflexivity.
    + intros z y. tauto.
  - assert (Vo : o < length h) by (apply V; left; auto).
    cbn [links_one]. rewrite (cf_nth_error h o Vo). cbn [opt bind].
    set (h1 := upd h o (with_fplp (cf h o) (cfp :: fp h o))).
    assert (LN : length h1 = length h) by apply upd_length.
    assert (C1 : cf h1 o = with_fplp (cf h o) (cfp :: fp h o)) by (apply cf_upd_eq; auto).
    assert (C2 : forall z, z <> o -> cf h1 z = cf h z) by (intros z N; apply cf_upd_ne; auto).
    destruct (IH h1) as (h' & E & L' & F & G).
    { intros z Hz. rewrite LN. apply V. right; auto. }
    exists h'. split; auto. split; [lia|]. split.
    + intros z. rewrite F at 1. destruct (Nat.eq_dec z o) as [->|N].
      * rewrite C1. reflexivity.
      * rewrite C2 by auto. reflexivity.
    + intros z y. rewrite G. simpl. destruct (Nat.eq_dec z o) as [->|N].
      * rewrite C1. simpl. split; [intros [[->|H]|[-> H]]; auto|intros [H|[-> H]]; auto].
      * rewrite C2 by auto. split; [intros [H|[-> H]]; auto|intros [H|[-> [H|H]]]; auto; congruence].
Qed.

Lemma links_cfgs_ok : forall l h, (forall x o, In x l -> In o (c_bplp (cf h x)) -> o < length h) ->
  (forall x, In x l -> x < length h) ->
  exists h', links_cfgs h l = Ok h' /\ length h' = length h /\
    (forall z, cf h' z = with_fplp (cf h z) (fp h' z)) /\
    (forall z y, In y (fp h' z) <-> In y (fp h z) \/ (In y l /\ In z (c_bplp (cf h y)))).
Proof.
  induction l as [|x l IH]; intros h VB V.
  - exists h. simpl. split; auto. split; auto. split.
    + intros z. destruct (cf h z); reflexivity.
    + intros z y. tauto.
  - assert (Vx : x < length h) by (apply V; left; auto).
    cbn [links_cfgs]. rewrite (cf_nth_error h x Vx). cbn [opt bind].
    destruct (links_one_ok x (c_bplp (cf h x)) h) as (h1 & E1 & L1 & F1 & G1).
    { intros o Ho. apply (VB x); [left; auto|auto]. }
    rewrite E1. cbn [bind].
    assert (B1 : forall z, c_bplp (cf h1 z) = c_bplp (cf h z)).
    { intros z. rewrite (F1 z). reflexivity. }
    destruct (IH h1) as (h' & E & L' & F & G).
    { intros z o Hz Ho. rewrite B1 in Ho. rewrite L1. apply (VB z); [right; auto|auto]. }
    { intros z Hz. rewrite L1. apply V. right; auto. }
    exists h'. split; auto. split; [lia|]. split.
    + intros z. rewrite F at 1. rewrite (F1 z). reflexivity.
    + intros z y. rewrite G, G1, B1. simpl. split.
      * intros [[H|[-> H]]|[H1 H2]]; auto.
      * intros [H|[[->|H1] H2]]; auto.
Qed.

(** * The lookaheads *)
Section P.
Variable g : grammar.

Record Follow (L L2 : lemon) : Prop := {
  fo_states : l_states L2 = l_states L;
  fo_key : forall x, key (l_cfgs L2) x = key (l_cfgs L) x;
  fo_size : forall q st x, nth_error (l_states L) q = Some st -> In x (s_cfp st) ->
    x < length (l_cfgs L2) /\ length (fw (l_cfgs L2) x) = first_set_size g;
  fo_la : forall q st x t, nth_error (l_states L) q = Some st -> In x (s_cfp st) ->
    (SetFind (fw (l_cfgs L2) x) t = true <->
     exists gm, (forall i, In i (its L st) <-> valid g gm i) /\ la g gm (key (l_cfgs L) x) t)
}.

Lemma all_cfgs_In : forall L x, In x (all_cfgs L) <->
  exists q st, nth_error (l_states L) q = Some st /\ In x (s_cfp st).
Proof.
  intros L x. unfold all_cfgs. rewrite in_flat_map. split.
  - intros (st & Hst & Hx). apply In_nth_error in Hst as (q & Hq). eauto.
  - intros (q & st & Hq & Hx). exists st. split; auto. eapply nth_error_In; eauto.
Qed.

Lemma key_inj : forall L q st x y, SInv g L -> nth_error (l_states L) q = Some st ->
  In x (s_cfp st) -> In y (s_cfp st) -> key (l_cfgs L) x = key (l_cfgs L) y -> x = y.
Proof.
  intros L q st x y SI H Hx Hy E. pose proof (si_nd _ _ SI q st H) as ND. unfold its in ND.
  apply In_nth_error in Hx as [a Ha]. apply In_nth_error in Hy as [b Hb].
  assert (a = b).
  { rewrite NoDup_nth_error in ND. apply ND.
    - rewrite map_length. eapply nth_error_Some_lt; eauto.
    - rewrite !nth_error_map, Ha, Hb. simpl. congruence. }
  subst. congruence.
Qed.

Theorem lookaheads_ok : forall L, Final g L ->
  exists L1, FindLinks L = Ok L1 /\
    (forall fuel, follow_fuel L1 <= fuel -> exists L2, FindFollowSets fuel L1 = Ok L2) /\
    (forall fuel L2, FindFollowSets fuel L1 = Ok L2 -> Follow L L2).
Proof.
  intros L F. pose proof (fi_inv _ _ F) as SI. set (l := all_cfgs L).
  assert (VL : forall x, In x l -> x < length (l_cfgs L)).
  { intros x Hx. apply all_cfgs_In in Hx as (q & st & Hq & Hx). eapply si_valid; eauto. }
  assert (VB : forall x o, In x l -> In o (c_bplp (cf (l_cfgs L) x)) -> In o l).
  { intros x o Hx Ho. apply all_cfgs_In in Hx as (q & st & Hq & Hx).
    destruct (si_bplp _ _ SI q st x o Hq Hx Ho) as (q' & st' & X & H1 & H2 & _).
    apply all_cfgs_In. eauto. }
  destruct (links_cfgs_ok l (l_cfgs L)) as (h1 & E1 & L1 & F1 & G1); eauto.
  exists (set_cfgs L h1). split. { unfold FindLinks. fold l. rewrite E1. reflexivity. }
  destruct (clear_status_ok l h1) as (h2 & E2 & L2 & C1 & C2).
  { intros x Hx. rewrite L1. auto. }
  assert (F2 : forall x, key h2 x = key (l_cfgs L) x /\ fw h2 x = fw (l_cfgs L) x /\ fp h2 x = fp h1 x).
  { intros x. unfold key. destruct (in_dec Nat.eq_dec x l) as [Hin|Hout].
    - rewrite C1 by auto. rewrite (F1 x). simpl. auto.
    - rewrite C2 by auto. rewrite (F1 x). simpl. auto. }
  assert (V2 : forall x, In x l -> x < length h2). { intros x Hx. rewrite L2, L1. auto. }
  assert (CL2 : forall x y, In x l -> In y (fp h2 x) -> In y l).
  { intros x y Hx Hy. destruct (F2 x) as (_ & _ & Fx). rewrite Fx in Hy. apply G1 in Hy as [Hy|[Hy _]]; auto.
    apply all_cfgs_In in Hx as (q & st & Hq & Hx).
    apply (si_fplp _ _ SI q st x y Hq Hx) in Hy as (A & r & _ & _ & _ & Hy & _). apply all_cfgs_In. eauto. }
  assert (SZ2 : forall x, In x l -> length (fw h2 x) = first_set_size g).
  { intros x Hx. destruct (F2 x) as (_ & -> & _). apply all_cfgs_In in Hx as (q & st & Hq & Hx). eapply si_size; eauto. }
  assert (FI : FInv h2 l h2).
  { constructor; auto.
    - intros x t Hx Ht. apply flow_init; auto.
    - intros x y t Hx Cx. rewrite C1 in Cx by auto. discriminate. }
  assert (CAP : cap h2 = meas (fun c => length (c_fws c)) h1).
  { apply meas_ext; auto. intros x. destruct (in_dec Nat.eq_dec x l) as [Hin|Hout].
    - rewrite C1 by auto. reflexivity.
    - rewrite C2 by auto. reflexivity. }
  assert (MAIN : forall fuel, follow_fuel (set_cfgs L h1) <= fuel ->
    exists h', follow_loop fuel h2 l = Ok h' /\ FInv h2 l h' /\
    (forall x t, In x l -> (SetFind (fw h' x) t = true <-> flow h2 l x t))).
  { intros fuel HF. apply (follow_loop_ok h2 l V2 CL2 (first_set_size g) SZ2); auto.
    unfold follow_fuel in HF. simpl in HF. unfold meas in CAP. rewrite CAP. lia. }
  split.
  { intros fuel HF. destruct (MAIN fuel HF) as (h' & E & _). exists (set_cfgs L h').
    unfold FindFollowSets. simpl l_cfgs. change (all_cfgs (set_cfgs L h1)) with l.
    rewrite E2. cbn [bind]. rewrite E. reflexivity. }
  intros fuel L2' HE.
  unfold FindFollowSets in HE. simpl l_cfgs in HE. change (all_cfgs (set_cfgs L h1)) with l in HE.
  rewrite E2 in HE. cbn [bind] in HE.
  destruct (follow_loop fuel h2 l) as [hh| |] eqn:EL; cbn [bind] in HE; try discriminate.
  destruct (MAIN (follow_fuel (set_cfgs L h1) + fuel)) as (h' & E & FI' & FL); [lia|].
  apply (follow_loop_mono l fuel (follow_fuel (set_cfgs L h1) + fuel)) in EL; [|lia].
  rewrite E in EL. inversion EL; subst hh. inversion HE; subst L2'. clear HE EL.
  assert (KEY : forall x, key h' x = key (l_cfgs L) x).
  { intros x. destruct (fi_shape _ _ _ FI' x) as (-> & _). apply F2. }
  constructor; auto.
  { intros q st x Hq Hx. assert (Hl : In x l) by (apply all_cfgs_In; eauto).
    simpl. split; [rewrite (fi_len _ _ _ FI'); auto|].
    destruct (fi_shape _ _ _ FI' x) as (_ & _ & _ & ->). auto. }
  intros q st x t Hq Hx. assert (Hl : In x l) by (apply all_cfgs_In; eauto).
  simpl. rewrite (FL x t Hl). split.
  - (* soundness *)
    intros HF. revert q st Hq Hx Hl. induction HF as [x t Hl' Ht|y x t HF IH Hy]; intros q st Hq Hx Hl.
    + destruct (F2 x) as (_ & Fx & _). rewrite Fx in Ht.
      destruct (proj1 (si_fws _ _ SI q st x t Hq Hx) Ht) as [(Eq0 & Et0 & Hb)|(i & A & r & H1 & H2 & H3 & H4 & H5)].
      * subst q t. exists []. destruct (state0 g L F) as (st0 & H0 & E0). rewrite Hq in H0. inversion H0; subst st0.
        split; auto.
        assert (Hk : In (key (l_cfgs L) x) (kern L st)) by (now apply in_map).
        apply (si_first _ _ SI st Hq) in Hk as (r & Hr & ->). now apply la_init.
      * destruct (si_reach _ _ SI q st Hq) as (gm & GM). exists gm. split; auto.
        rewrite H4. eapply la_first; eauto. apply GM. auto.
    + assert (Hyl : In y l) by (eapply flow_in; eauto).
      pose proof Hyl as Hyl'. apply all_cfgs_In in Hyl as (qy & sty & Hqy & Hyc).
      destruct (IH qy sty Hqy Hyc Hyl') as (gm & GM & LA).
      destruct (F2 y) as (_ & _ & Fy). rewrite Fy in Hy. apply G1 in Hy as [Hy|[_ Hy]].
      * apply (si_fplp _ _ SI qy sty y x Hqy Hyc) in Hy as (A & r & H1 & H2 & H3 & H4 & H5).
        assert (qy = q) by (exact (si_disj _ _ SI qy q sty st x Hqy Hq H4 Hx)). subst qy. rewrite Hq in Hqy. inversion Hqy; subst sty.
        exists gm. split; auto. rewrite H5. eapply la_null; eauto.
      * destruct (si_bplp _ _ SI q st x y Hq Hx Hy) as (q' & st' & X & H1 & H2 & H3 & H4 & H5 & H6).
        assert (qy = q') by (exact (si_disj _ _ SI qy q' sty st' y Hqy H1 Hyc H2)). subst q'. rewrite Hqy in H1. inversion H1; subst st'.
        exists (X :: gm). split.
        -- intros i. rewrite (si_clos _ _ SI q st i Hq), valid_cons. split; apply clos_ext; intros j Hj.
           ++ apply H6 in Hj as (k & Hk & Ha & ->). exists k. rewrite <- GM. auto.
           ++ apply H6. destruct Hj as (k & Hk & Ha & ->). exists k. rewrite GM. auto.
        -- rewrite H4. now apply la_goto.
  - (* completeness *)
    intros (gm & GM & LA). remember (key (l_cfgs L) x) as i eqn:Ei.
    revert q st x Ei Hq Hx Hl GM. induction LA as [r Hr|gm i A r u Vi Ha Hr Hf|gm i t A r LA IH Ha Hr Hn|gm i t X LA IH Ha];
      intros q st x Ei Hq Hx Hl GM.
    + destruct (state0 g L F) as (st0 & H0 & E0).
      assert (q = 0). { eapply its_inj; eauto. intros i. rewrite GM, E0. reflexivity. }
      subst q. rewrite Hq in H0. inversion H0; subst st0.
      apply flow_init; auto. destruct (F2 x) as (_ & -> & _).
      apply (si_fws _ _ SI 0 st x 0 Hq Hx). left. split; auto. split; auto.
      assert (Hk : In (r, 0) (kern L st)) by (apply (si_first _ _ SI st Hq); exists r; auto).
      apply in_map_iff in Hk as (x' & Hk & Hx').
      assert (x' = x); [|subst; auto]. eapply key_inj; eauto. { eapply si_bp; eauto. } congruence.
    + apply flow_init; auto. destruct (F2 x) as (_ & -> & _).
      apply (si_fws _ _ SI q st x u Hq Hx). right. exists i, A, r. split; [apply GM; auto|auto].
    + assert (Hi : In i (its L st)) by (apply GM; eapply la_valid; eauto).
      apply in_map_iff in Hi as (y & Ey & Hy).
      assert (Hyl : In y l) by (apply all_cfgs_In; eauto).
      apply (flow_step h2 l y); [eapply IH; eauto|].
      destruct (F2 y) as (_ & _ & ->). apply G1. left.
      apply (si_fplp _ _ SI q st y x Hq Hy). exists A, r. rewrite Ey. auto.
    + pose proof (la_valid _ _ _ _ LA) as Vi.
      destruct (states_complete g L gm i F Vi) as (q' & st' & Hq' & GM').
      assert (Hi : In i (its L st')) by (apply GM'; auto).
      apply in_map_iff in Hi as (y & Ey & Hy).
      assert (Hyl : In y l) by (apply all_cfgs_In; eauto).
      apply (flow_step h2 l y); [eapply IH; eauto|].
      destruct (F2 y) as (_ & _ & ->). apply G1. right. split; auto.
      destruct (fi_done _ _ F q' st' Hq') as (TL & N & SRC & A & T).
      assert (HX : In X (map fst TL)). { apply SRC. exists y. split; auto. rewrite Ey. auto. }
      apply in_map_iff in HX as ([X' q''] & HE & HT). simpl in HE. subst X'.
      assert (G : goes g L q' X q'').
      { eapply TL_goes; eauto. exists y. split; auto. rewrite Ey. auto. }
      destruct (goes_valid g L q' st' X q'' gm G Hq' GM') as (st'' & Hq'' & GM'').
      assert (q'' = q). { apply (its_inj g L q'' q st'' st SI Hq'' Hq). intros j. rewrite GM, GM''. reflexivity. }
      subst q''. rewrite Hq in Hq''. inversion Hq''; subst st''.
      destruct (T X q HT) as (st1 & H1 & _ & H3). rewrite Hq in H1. inversion H1; subst st1.
      destruct (H3 y Hy) as (x' & Hx' & Kx & Bx). { rewrite Ey. auto. }
      assert (x' = x); [|subst; auto]. apply (key_inj L q st x' x SI Hq); auto. { exact (si_bp _ _ SI q st x' Hq Hx'). }
      rewrite <- Ei, Kx, Ey. reflexivity.
Qed.
End P.
