(** C64: the switch of yy_destructor: which symbols it knows, and what it does for them. *)
From Coq Require Import List Arith ZArith Bool Lia String.
Import ListNotations.
From Verif Require Import Base LemonPreModel LemonPrintfModel LemonCodeModel Prop_LemonPrintf SpecCode LemonCodeProof LemonEmitModel Prop_LemonUnion.
Open Scope res_scope.

(** * The cases *)

Definition labels (gs : list dgroup) : list nat := flat_map fst gs.

Lemma index_from_nth : forall A (l : list A) i k a, In (k, a) (index_from i l) <-> exists p, k = i + p /\ nth_error l p = Some a.
Proof.
  induction l as [|b l IH]; intros i k a; cbn [index_from].
  - split; [intros []|]. intros (p & _ & H). destruct p; discriminate H.
  - cbn [In]. rewrite IH. split.
    + intros [[= <- <-]|(p & -> & H)]; [exists 0; split; [lia|reflexivity]|exists (S p); split; [lia|exact H]].
    + intros ([|p] & -> & H); [left; injection H as ->; f_equal; lia|right; exists p; split; [lia|exact H]].
Qed.

Lemma index_from_NoDup : forall A (l : list A) i, NoDup (map fst (index_from i l)).
Proof.
  induction l as [|b l IH]; intros i; cbn [index_from map fst]; [constructor|]. constructor; [|apply IH].
  intros H. apply in_map_iff in H as ((k & a) & E & H). apply index_from_nth in H as (p & -> & _). cbn in E. lia.
Qed.

Lemma filter_fst_NoDup : forall A (f : nat * A -> bool) l, NoDup (map fst l) -> NoDup (map fst (filter f l)).
Proof.
  intros A f. induction l as [|(i, a) l IH]; intros N; [constructor|]. cbn [map fst] in N. inversion N as [|? ? N1 N2]; subst. cbn [filter]. destruct (f (i, a)); [|now apply IH].
  cbn [map fst]. constructor; [|now apply IH]. intros H. apply N1. apply in_map_iff in H as ((k & b) & E & H). apply filter_In in H as (H & _). cbn in E. subst. now apply (in_map fst) in H.
Qed.

Lemma existsb_In : forall i l, existsb (Nat.eqb i) l = true <-> In i l.
Proof. intros i l. rewrite existsb_exists. split; [intros (x & H & E); apply Nat.eqb_eq in E; now subst|intros H; exists i; split; [exact H|apply Nat.eqb_refl]]. Qed.

Definition has_own (s : dsym) : Prop := ds_term s = false /\ ds_dest s <> None.
(** Two symbols whose own destructors do the same. *)
Definition alike (s s2 : dsym) : Prop := has_own s2 /\ ds_dest s2 = ds_dest s /\ ds_dtnum s2 = ds_dtnum s.

Lemma same_dest_ok : forall s s2, has_own s -> (same_dest s s2 = true <-> alike s s2).
Proof.
  intros s s2 (T & H). unfold same_dest, alike, has_own. destruct (ds_dest s) as [a|]; [|congruence]. destruct (ds_dest s2) as [b|]; [|split; [discriminate|intros ((_ & K) & _); congruence]].
  rewrite !andb_true_iff, negb_true_iff, Z.eqb_eq, teqb_ok. split; [intros ((H1 & H2) & <-); repeat split; auto; discriminate|intros ((H1 & _) & [= ->] & H2); auto].
Qed.

Definition closed (syms : list (nat * dsym)) (done : list nat) : Prop := forall j s k s', In (j, s) syms -> In (k, s') syms -> In j done -> has_own s -> alike s s' -> In k done.

Lemma alike_sym : forall s s2, has_own s -> alike s s2 -> alike s2 s.
Proof. intros s s2 H (H2 & E1 & E2). split; [exact H|]. now split. Qed.

Lemma fst_inj : forall A (l : list (nat * A)) i a b, NoDup (map fst l) -> In (i, a) l -> In (i, b) l -> a = b.
Proof.
  intros A. induction l as [|(j, c) l IH]; intros i a b N H1 H2; [destruct H1|]. cbn in N. inversion N as [|? ? N1 N2]; subst.
  destruct H1 as [H1|H1], H2 as [H2|H2]; [congruence| | |exact (IH i a b N2 H1 H2)]; exfalso; apply N1; [injection H1 as -> ->; now apply (in_map fst) in H2|injection H2 as -> ->; now apply (in_map fst) in H1].
Qed.

(** The groups of own destructors: no label twice or in [done]; every symbol with a destructor that is not done has a label, and the
    group of a label does what its symbol wants. *)
Lemma own_groups_ok : forall syms done, NoDup (map fst syms) -> closed syms done ->
  NoDup (labels (own_groups syms done)) /\
  (forall i, In i (labels (own_groups syms done)) <-> ~ In i done /\ exists s, In (i, s) syms /\ has_own s) /\
  (forall g i, In g (own_groups syms done) -> In i (fst g) -> has_own (snd g) /\ exists s, In (i, s) syms /\ alike (snd g) s).
Proof.
  induction syms as [|(i, s) r IH]; intros done N C.
  - cbn. split; [constructor|]. split; [intros i; split; [intros []|intros (_ & s & [] & _)]|intros g i []].
  - cbn [map fst] in N. inversion N as [|? ? N1 N2]; subst. cbn [own_groups].
    assert (CR : closed r done) by (intros j a k b H1 H2; apply C; now right).
    destruct (ds_term s || match ds_dest s with None => true | Some _ => false end || existsb (Nat.eqb i) done)%bool eqn:B.
    + destruct (IH done N2 CR) as (I1 & I2 & I3). split; [exact I1|]. split.
      * intros k. rewrite I2. split; intros (H & s' & I & O); (split; [exact H|]); [exists s'; split; [now right|exact O]|]. destruct I as [I|I]; [|now exists s']. exfalso. injection I as <- <-.
        destruct O as (O1 & O2). rewrite O1 in B. destruct (ds_dest s); [|congruence]. cbn in B. now apply existsb_In in B.
      * intros g k G K. destruct (I3 g k G K) as (O & s' & I & AL). split; [exact O|]. exists s'. split; [now right|exact AL].
    + apply orb_false_iff in B as (B & B3). apply orb_false_iff in B as (B1 & B2).
      assert (OS : has_own s) by (split; [exact B1|destruct (ds_dest s); congruence]).
      assert (ND : ~ In i done) by (intros H; apply existsb_In in H; congruence).
      set (dup := map fst (filter (fun x => same_dest s (snd x)) r)).
      assert (DU : forall k, In k dup <-> exists s', In (k, s') r /\ alike s s').
      { intros k. unfold dup. rewrite in_map_iff. split.
        - intros ((k' & s') & <- & H). apply filter_In in H as (H1 & H2). exists s'. split; [exact H1|]. now apply same_dest_ok.
        - intros (s' & H1 & H2). exists (k, s'). split; [reflexivity|]. apply filter_In. split; [exact H1|]. now apply same_dest_ok. }
      assert (CD : closed r (dup ++ done)).
      { intros j a k b H1 H2 H3 H4 H5. apply in_app_iff in H3 as [H3|H3]; apply in_app_iff; [left|right; exact (CR j a k b H1 H2 H3 H4 H5)].
        apply DU in H3 as (a' & H3 & H6). rewrite (fst_inj _ _ _ _ _ N2 H3 H1) in H6. apply DU. exists b. split; [exact H2|]. destruct H5 as (H5 & E1 & E2), H6 as (_ & E3 & E4). split; [exact H5|]. split; congruence. }
      destruct (IH (dup ++ done) N2 CD) as (I1 & I2 & I3). change (labels ((i :: dup, s) :: own_groups r (dup ++ done))) with (i :: dup ++ labels (own_groups r (dup ++ done))).
      split; [|split].
      * constructor.
        -- rewrite in_app_iff. intros [H|H]; [apply DU in H as (s' & H & _); apply N1; now apply (in_map fst) in H|]. apply I2 in H as (_ & s' & H & _). apply N1. now apply (in_map fst) in H.
        -- apply NoDup_app_iff. split; [unfold dup; now apply filter_fst_NoDup|]. split; [exact I1|]. intros k H1 H2. apply I2 in H2 as (H2 & _). apply H2, in_app_iff. now left.
      * intros k. cbn [In]. rewrite in_app_iff, I2, DU. split.
        -- intros [<-|[(s' & H1 & H2)|(H1 & s' & H2 & H3)]].
           ++ split; [exact ND|]. exists s. split; [now left|exact OS].
           ++ split; [|exists s'; split; [now right|exact (proj1 H2)]]. intros H. apply ND. apply (C k s' i s); [now right|now left|exact H|exact (proj1 H2)|now apply alike_sym].
           ++ rewrite in_app_iff in H1. split; [tauto|]. exists s'. split; [now right|exact H3].
        -- intros (H1 & s' & [H2|H2] & H3); [injection H2 as -> ->; now left|right]. destruct (in_dec Nat.eq_dec k dup) as [H|H]; [left; now apply DU|right]. rewrite in_app_iff. split; [tauto|]. now exists s'.
      * intros g k [<-|G] K.
        -- cbn [fst snd] in *. split; [exact OS|]. destruct K as [<-|K]; [exists s; split; [now left|split; [exact OS|now split]]|]. apply DU in K as (s' & H1 & H2). exists s'. split; [now right|exact H2].
        -- destruct (I3 g k G K) as (O & s' & H1 & H2). split; [exact O|]. exists s'. split; [now right|exact H2].
Qed.

(** * The theorem about the cases *)

(** What must happen when the value of the symbol with index i is destroyed: the text of the declaration that applies. *)
Inductive wanted (e : emitopts) (i : nat) (s : dsym) : txt -> Prop :=
| wt_token t : ds_term s = true -> eo_tokendest e = Some t -> wanted e i s t
| wt_own t : ds_term s = false -> ds_dest s = Some t -> wanted e i s t
| wt_default t : ds_term s = false -> ds_dest s = None -> 0 < i -> eo_vardest e = Some t -> wanted e i s t.

(** The text that a group of cases writes. *)
Definition group_text (e : emitopts) (g : dgroup) : option txt :=
  if ds_term (snd g) then eo_tokendest e else match ds_dest (snd g) with Some t => Some t | None => eo_vardest e end.

Definition first_group (l : list (nat * dsym)) : list dgroup := match l with [] => [] | (i, s) :: r => [(i :: map fst r, s)] end.
Definition last_group (l : list (nat * dsym)) : list dgroup := match rev l with [] => [] | (i, s) :: r => [(rev (i :: map fst r), s)] end.

Lemma first_group_ok : forall l, labels (first_group l) = map fst l /\ forall g, In g (first_group l) -> fst g = map fst l /\ exists j, In (j, snd g) l.
Proof.
  intros [|(i, s) r]; cbn; [split; [reflexivity|intros g []]|]. split; [now rewrite app_nil_r|]. intros g [<-|[]]. split; [reflexivity|]. exists i. now left.
Qed.

Lemma last_group_ok : forall l, labels (last_group l) = map fst l /\ forall g, In g (last_group l) -> fst g = map fst l /\ exists j, In (j, snd g) l.
Proof.
  intros l. unfold last_group. destruct (rev l) as [|(i, s) r] eqn:E.
  - apply (f_equal (@rev _)) in E. rewrite rev_involutive in E. cbn in E. subst. split; [reflexivity|intros g []].
  - assert (EL : l = rev ((i, s) :: r)) by (rewrite <- E; now rewrite rev_involutive). assert (EM : rev (i :: map fst r) = map fst l) by (rewrite EL, map_rev; reflexivity).
    split; [unfold labels; cbn [flat_map fst]; now rewrite app_nil_r|]. intros g [<-|[]]. cbn [fst snd]. split; [exact EM|]. exists i. apply in_rev. rewrite E. now left.
Qed.

Definition terms (syms : list dsym) : list (nat * dsym) := filter (fun x => ds_term (snd x)) (index_from 0 syms).
Definition defaulted (syms : list dsym) : list (nat * dsym) :=
  filter (fun x => negb (ds_term (snd x)) && (0 <? fst x) && match ds_dest (snd x) with None => true | Some _ => false end)%bool (index_from 0 syms).

Lemma groups_eq : forall e syms, destructor_groups e syms =
  match eo_tokendest e with None => [] | Some _ => first_group (terms syms) end ++ match eo_vardest e with None => [] | Some _ => last_group (defaulted syms) end ++ own_groups (index_from 0 syms) [].
Proof. reflexivity. Qed.

Lemma all_nth : forall (syms : list dsym) i s, In (i, s) (index_from 0 syms) <-> nth_error syms i = Some s.
Proof. intros syms i s. rewrite index_from_nth. split; [intros (p & -> & H); exact H|intros H; exists i; split; [reflexivity|exact H]]. Qed.

Lemma terms_ok : forall syms i s, In (i, s) (terms syms) <-> nth_error syms i = Some s /\ ds_term s = true.
Proof. intros. unfold terms. rewrite filter_In, all_nth. reflexivity. Qed.

Lemma defaulted_ok : forall syms i s, In (i, s) (defaulted syms) <-> nth_error syms i = Some s /\ ds_term s = false /\ 0 < i /\ ds_dest s = None.
Proof.
  intros. unfold defaulted. rewrite filter_In, all_nth. cbn [fst snd]. rewrite !andb_true_iff, negb_true_iff, Nat.ltb_lt. split; [intros (H1 & (H2 & H3) & H4)|intros (H1 & H2 & H3 & H4)].
  - repeat split; auto. now destruct (ds_dest s).
  - repeat split; auto. now rewrite H4.
Qed.

Lemma in_fst : forall A (l : list (nat * A)) i, In i (map fst l) <-> exists a, In (i, a) l.
Proof. intros A l i. rewrite in_map_iff. split; [intros ((j & a) & <- & H); now exists a|intros (a & H); now exists (i, a)]. Qed.

Lemma opt_group : forall (o : option txt) (gs : list dgroup) g, In g (match o with None => [] | Some _ => gs end) <-> In g gs /\ o <> None.
Proof. intros [t|] gs g; split; [intros H; split; [exact H|discriminate]|tauto|intros []|intros (_ & H); congruence]. Qed.

Lemma labels_in : forall gs i, In i (labels gs) <-> exists g, In g gs /\ In i (fst g).
Proof. intros. unfold labels. apply in_flat_map. Qed.

Lemma wanted_term : forall e i s t, ds_term s = true -> (wanted e i s t <-> eo_tokendest e = Some t).
Proof. intros e i s t H. split; [intros W; inversion W; congruence|now apply wt_token]. Qed.

(** No symbol has two cases; exactly the symbols for which a declaration applies have one; it runs that declaration, for a destructor of
    the symbol's own with "$$" standing for its member of the union. *)
Lemma groups_labels : forall e syms, NoDup (labels (destructor_groups e syms)) /\
  (forall i, In i (labels (destructor_groups e syms)) <-> exists s t, nth_error syms i = Some s /\ wanted e i s t) /\
  (forall g i, In g (destructor_groups e syms) -> In i (fst g) -> exists s t, nth_error syms i = Some s /\ wanted e i s t /\ group_text e g = Some t /\
     ds_term (snd g) = ds_term s /\ (ds_dest s <> None -> ds_term s = false -> ds_dtnum (snd g) = ds_dtnum s) /\
     ((exists j, In j (fst g) /\ nth_error syms j = Some (snd g)) \/ ds_term s = false /\ ds_dest s <> None)).
Proof.
  intros e syms. rewrite groups_eq.
  destruct (own_groups_ok (index_from 0 syms) [] (index_from_NoDup _ _ _)) as (O1 & O2 & O3); [intros j a k b _ _ []|].
  destruct (first_group_ok (terms syms)) as (F1 & F2). destruct (last_group_ok (defaulted syms)) as (L1 & L2).
  set (g1 := match eo_tokendest e with None => [] | Some _ => first_group (terms syms) end). set (g2 := match eo_vardest e with None => [] | Some _ => last_group (defaulted syms) end). set (g3 := own_groups _ _) in *.
  assert (I1 : forall i, In i (labels g1) <-> eo_tokendest e <> None /\ exists s, nth_error syms i = Some s /\ ds_term s = true).
  { intros i. unfold g1. destruct (eo_tokendest e); [|split; [intros []|intros (H & _); congruence]]. rewrite F1, in_fst. split; [intros (s & H); apply terms_ok in H; split; [discriminate|now exists s]|intros (_ & s & H); exists s; now apply terms_ok]. }
  assert (I2 : forall i, In i (labels g2) <-> eo_vardest e <> None /\ exists s, nth_error syms i = Some s /\ ds_term s = false /\ 0 < i /\ ds_dest s = None).
  { intros i. unfold g2. destruct (eo_vardest e); [|split; [intros []|intros (H & _); congruence]]. rewrite L1, in_fst. split; [intros (s & H); apply defaulted_ok in H; split; [discriminate|now exists s]|intros (_ & s & H); exists s; now apply defaulted_ok]. }
  assert (I3 : forall i, In i (labels g3) <-> exists s, nth_error syms i = Some s /\ has_own s).
  { intros i. rewrite O2. split; [intros (_ & s & H1 & H2); exists s; now rewrite <- all_nth|intros (s & H1 & H2); split; [intros []|]; exists s; now rewrite all_nth]. }
  assert (D : labels (g1 ++ g2 ++ g3) = labels g1 ++ labels g2 ++ labels g3) by (unfold labels; now rewrite !flat_map_app). split; [|split].
  - rewrite D. apply NoDup_app_iff. split; [|split; [apply NoDup_app_iff; split; [|split; [exact O1|]]|]].
    + unfold g1. destruct (eo_tokendest e); [|constructor]. rewrite F1. apply filter_fst_NoDup, index_from_NoDup.
    + unfold g2. destruct (eo_vardest e); [|constructor]. rewrite L1. apply filter_fst_NoDup, index_from_NoDup.
    + intros i H1 H2. apply I2 in H1 as (_ & s & H1 & _ & _ & H3). apply I3 in H2 as (s' & H2 & _ & H4). congruence.
    + intros i H1 H2. apply I1 in H1 as (_ & s & H1 & H3). apply in_app_iff in H2 as [H2|H2]; [apply I2 in H2 as (_ & s' & H2 & H4 & _); congruence|apply I3 in H2 as (s' & H2 & H4 & _); congruence].
  - intros i. rewrite D, !in_app_iff, I1, I2, I3. split.
    + intros [(H & s & H1 & H2)|[(H & s & H1 & H2 & H3 & H4)|(s & H1 & H2 & H3)]].
      * destruct (eo_tokendest e) as [t|] eqn:E; [|congruence]. exists s, t. split; [exact H1|now apply wt_token].
      * destruct (eo_vardest e) as [t|] eqn:E; [|congruence]. exists s, t. split; [exact H1|now apply wt_default].
      * destruct (ds_dest s) as [t|] eqn:E; [|congruence]. exists s, t. split; [exact H1|now apply wt_own].
    + intros (s & t & H & W). inversion W as [t' H1 H2|t' H1 H2|t' H1 H2 H3 H4]; subst.
      * left. split; [congruence|now exists s].
      * right; right. exists s. split; [exact H|split; congruence].
      * right; left. split; [congruence|now exists s].
  - intros g i G I. apply in_app_iff in G as [G|G]; [|apply in_app_iff in G as [G|G]].
    + apply opt_group in G as (G & N). apply F2 in G as (EF & j & J). rewrite EF in I. apply in_fst in I as (s & I). apply terms_ok in I as (I & T), J as (J & TJ).
      destruct (eo_tokendest e) as [t|] eqn:E; [|congruence]. exists s, t. split; [exact I|]. split; [now apply wt_token|]. unfold group_text. rewrite TJ. split; [exact E|]. split; [congruence|]. split; [congruence|].
      left. exists j. split; [|exact J]. rewrite EF. apply in_fst. exists (snd g). now apply terms_ok.
    + apply opt_group in G as (G & N). apply L2 in G as (EF & j & J). rewrite EF in I. apply in_fst in I as (s & I). apply defaulted_ok in I as (I & T & P & DN). pose proof J as JJ. apply defaulted_ok in J as (J & TJ & PJ & DJ).
      destruct (eo_vardest e) as [t|] eqn:E; [|congruence]. exists s, t. split; [exact I|]. split; [now apply wt_default|]. unfold group_text. rewrite TJ, DJ. split; [exact E|]. split; [congruence|]. split; [congruence|].
      left. exists j. split; [|exact J]. rewrite EF. apply in_fst. now exists (snd g).
    + destruct (O3 g i G I) as ((T & OD) & s & H1 & (H2 & H3) & H4 & H5). apply all_nth in H1. destruct (ds_dest (snd g)) as [t|] eqn:E; [|congruence]. exists s, t.
      split; [exact H1|]. split; [now apply wt_own|]. unfold group_text. rewrite T, E. split; [reflexivity|]. split; [congruence|]. split; [congruence|]. right. split; congruence.
Qed.

(** * "$$" in a destructor *)

Definition no_dd (t : txt) : Prop := forall a b, t <> a ++ [36; 36]%Z ++ b.

(** Every "$$", from left to right, is replaced by [v]. *)
Inductive expands (v : txt) : txt -> txt -> Prop :=
| ex_end t : no_dd t -> expands v t t
| ex_pair a t u : no_dd (a ++ [36%Z]) -> expands v t u -> expands v (a ++ [36; 36]%Z ++ t) (a ++ v ++ u).

Definition dest_value (dt : Z) : txt := zs "(yypminor->yy" ++ num dt ++ zs ")".

Lemma dollars_S : forall f dt c r, dollars (S f) dt (c :: r) =
  if ((c =? 36)%Z && match r with d :: _ => (d =? 36)%Z | [] => false end)%bool then zs "(yypminor->yy" ++ zdec dt ++ zs ")" ++ dollars f dt (skipn 1 r) else c :: dollars f dt r.
Proof. reflexivity. Qed.

Lemma no_dd_tail : forall c t, no_dd (c :: t) -> no_dd t.
Proof. intros c t H a b E. apply (H (c :: a) b). now rewrite E. Qed.

Lemma no_dd_test : forall c r, no_dd (c :: r) -> ((c =? 36)%Z && match r with d :: _ => (d =? 36)%Z | [] => false end)%bool = false.
Proof.
  intros c [|d r] H; [apply andb_false_r|]. destruct (c =? 36)%Z eqn:E1; [|reflexivity]. destruct (d =? 36)%Z eqn:E2; [|reflexivity]. apply Z.eqb_eq in E1, E2. subst. now elim (H [] r).
Qed.

Lemma dollars_none : forall t f dt, List.length t <= f -> no_dd t -> dollars f dt t = t.
Proof.
  induction t as [|c t IH]; intros f dt L H; [destruct f; reflexivity|]. destruct f as [|f]; [cbn in L; lia|]. rewrite dollars_S, (no_dd_test _ _ H). f_equal. apply IH; [cbn in L; lia|exact (no_dd_tail _ _ H)].
Qed.

Lemma dollars_pair : forall a f dt t, List.length (a ++ [36; 36]%Z ++ t) <= f -> no_dd (a ++ [36%Z]) -> exists f', List.length t <= f' /\ dollars f dt (a ++ [36; 36]%Z ++ t) = a ++ (zs "(yypminor->yy" ++ zdec dt ++ zs ")") ++ dollars f' dt t.
Proof.
  induction a as [|c a IH]; intros f dt t L H.
  - cbn [app] in *. destruct f as [|f]; [cbn in L; lia|]. rewrite dollars_S. change (match 36%Z :: t with d :: _ => (d =? 36)%Z | [] => false end) with true. change (36 =? 36)%Z with true. cbn [andb skipn]. exists f. split; [cbn in L; lia|]. now rewrite <- !app_assoc.
  - rewrite <- app_comm_cons in *. destruct f as [|f]; [cbn in L; lia|]. rewrite dollars_S.
    assert (T : ((c =? 36)%Z && match a ++ [36; 36]%Z ++ t with d :: _ => (d =? 36)%Z | [] => false end)%bool = false).
    { destruct a as [|d a]; [pose proof (no_dd_test _ _ H) as T; exact T|]. exact (no_dd_test _ _ H). }
    rewrite T. destruct (IH f dt t) as (f' & L' & E); [cbn [List.length] in L; lia|exact (no_dd_tail _ _ H)|]. exists f'. split; [exact L'|]. now rewrite E.
Qed.

Lemma dollars_expands : forall n t f dt, List.length t < n -> List.length t <= f -> expands (zs "(yypminor->yy" ++ zdec dt ++ zs ")") t (dollars f dt t).
Proof.
  induction n as [|n IH]; intros t f dt L LF; [lia|]. pose proof (strstr_ok t [36; 36]%Z) as SS. destruct (strstr t [36; 36]%Z) as [k|].
  - destruct SS as ((a & b & E & LA) & MIN). subst t.
    assert (ND : no_dd (a ++ [36%Z])).
    { intros a' b' E'. assert (L' : List.length a <= List.length a'). { rewrite LA. apply (MIN a' (b' ++ 36%Z :: b)). change (a ++ [36; 36]%Z ++ b) with (a ++ [36%Z] ++ (36%Z :: b)). rewrite app_assoc, E'. now rewrite <- !app_assoc. }
      apply (f_equal (@List.length Z)) in E'. rewrite !app_length in E'. cbn in E'. lia. }
    destruct (dollars_pair a f dt b LF ND) as (f' & L' & ED). rewrite ED. apply ex_pair; [exact ND|]. apply IH; [rewrite !app_length in L; cbn in L; lia|exact L'].
  - rewrite dollars_none by (exact LF || exact SS). apply ex_end. exact SS.
Qed.

Theorem dollars_ok : forall t dt, (- 2 ^ 31 < dt < 2 ^ 31)%Z -> expands (dest_value dt) t (dollars (List.length t) dt t).
Proof. intros t dt H. unfold dest_value. rewrite <- zdec_num by exact H. apply (dollars_expands (S (List.length t))); lia. Qed.

(** * The text *)

Definition case_text (syms : list dsym) (i : nat) : txt := zs "    case " ++ num (Z.of_nat i) ++ zs ": /* " ++ name_of syms i ++ zs " */" ++ [10%Z].
(** [zdec] is what C prints for "%d"; it is [num] for ints (zdec_num). *)
Definition line_text (n : nat) (file : txt) : txt := zs "#line " ++ zdec (Z.of_nat n) ++ zs " """ ++ flat_map (fun c => if (c =? 92)%Z then [92; 92]%Z else [c]) file ++ zs """" ++ [10%Z].

(** What a group writes: its cases and a block with its destructor; the line directives are those of C66. *)
Inductive group_is (e : emitopts) (syms : list dsym) (g : dgroup) : txt -> Prop :=
| group_is_intro t u n : group_text e g = Some t -> expands (dest_value (ds_dtnum (snd g))) t u ->
    group_is e syms g (flat_map (case_text syms) (fst g) ++ zs "{" ++ [10%Z] ++
      (if (eo_nolinenos e || ds_term (snd g) || match ds_dest (snd g) with None => true | Some _ => false end)%bool then [] else line_text (ds_line (snd g)) (eo_filename e)) ++
      u ++ [10%Z] ++ (if eo_nolinenos e then [] else line_text n (eo_outname e)) ++ zs "}" ++ [10%Z] ++ zs "      break;" ++ [10%Z]).

Inductive writes (e : emitopts) (syms : list dsym) : list dgroup -> txt -> Prop :=
| wr_nil : writes e syms [] []
| wr_group g gs c t : group_is e syms g c -> writes e syms gs t -> writes e syms (g :: gs) (c ++ t)
| wr_line gs c t : In c [zs "      /* TERMINAL Destructor */"; zs "      /* Default NON-TERMINAL Destructor */"; zs "      break;"] -> writes e syms gs t -> writes e syms gs (c ++ [10%Z] ++ t).

Lemma writes_app : forall e syms gs hs t u, writes e syms gs t -> writes e syms hs u -> writes e syms (gs ++ hs) (t ++ u).
Proof. intros e syms gs hs t u H U. induction H; [exact U| |]; rewrite <- !app_assoc; [now apply wr_group|now apply wr_line]. Qed.

Definition small (syms : list dsym) : Prop := (Z.of_nat (List.length syms) < 2 ^ 31)%Z /\ Forall (fun s => (- 2 ^ 31 < ds_dtnum s < 2 ^ 31)%Z) syms.

Lemma cases_text : forall syms l o, (forall i, In i l -> (Z.of_nat i < 2 ^ 31)%Z) ->
  o_text (fold_left (fun o i => case_line i (name_of syms i) o) l o) = o_text o ++ flat_map (case_text syms) l.
Proof.
  induction l as [|i l IH]; intros o H; cbn [fold_left flat_map]; [now rewrite app_nil_r|]. rewrite IH by (intros j J; apply H; now right). unfold case_line, case_text. cbn [o_text inc put].
  rewrite zdec_num by (specialize (H i (or_introl eq_refl)); unfold int_ok; lia). now rewrite <- !app_assoc.
Qed.

Lemma group_emits : forall e syms g o, small syms -> (forall i, In i (fst g) -> i < List.length syms) -> (- 2 ^ 31 < ds_dtnum (snd g) < 2 ^ 31)%Z -> group_text e g <> None ->
  exists o' c, emit_group e syms g o = Ok o' /\ o_text o' = o_text o ++ c /\ group_is e syms g c.
Proof.
  intros e syms g o (SM & _) LI DT GT. destruct (group_text e g) as [t|] eqn:T; [clear GT|congruence]. unfold emit_group.
  assert (CT := cases_text syms (fst g) o ltac:(intros i I; specialize (LI i I); lia)). set (o1 := fold_left _ (fst g) o) in *.
  pose proof (dollars_ok t (ds_dtnum (snd g)) DT) as EX. set (u := dollars (List.length t) (ds_dtnum (snd g)) t) in *.
  pose proof (fun n => group_is_intro e syms g t u n T EX) as GI. unfold group_text in T. unfold emit_destructor_code. destruct (ds_term (snd g)) eqn:TM.
  - rewrite T. cbn [bind]. destruct (eo_nolinenos e) eqn:NL; cbn [orb] in GI.
    + eexists. eexists. split; [reflexivity|]. split; [|exact (GI 0)]. unfold break_line, back_to_out. cbn [o_text inc put]. rewrite CT. fold u. unfold nl. rewrite <- !app_assoc. reflexivity.
    + eexists. eexists. split; [reflexivity|]. split; [|eapply GI]. unfold break_line, back_to_out, tplt_linedir. cbn [o_text o_line inc put]. rewrite CT. fold u. unfold nl, line_text. rewrite <- !app_assoc. reflexivity.
  - destruct (ds_dest (snd g)) as [t'|] eqn:DD.
    + injection T as ->. cbn [bind]. destruct (eo_nolinenos e) eqn:NL; cbn [orb] in GI.
      * eexists. eexists. split; [reflexivity|]. split; [|exact (GI 0)]. unfold break_line, back_to_out. cbn [o_text inc put]. rewrite CT. fold u. unfold nl. rewrite <- !app_assoc. reflexivity.
      * eexists. eexists. split; [reflexivity|]. split; [|eapply GI]. unfold break_line, back_to_out, tplt_linedir. cbn [o_text o_line inc put]. rewrite CT. fold u. unfold nl, line_text. rewrite <- !app_assoc. reflexivity.
    + rewrite T. cbn [bind]. destruct (eo_nolinenos e) eqn:NL; cbn [orb] in GI.
      * eexists. eexists. split; [reflexivity|]. split; [|exact (GI 0)]. unfold break_line, back_to_out. cbn [o_text inc put]. rewrite CT. fold u. unfold nl. rewrite <- !app_assoc. reflexivity.
      * eexists. eexists. split; [reflexivity|]. split; [|eapply GI]. unfold break_line, back_to_out, tplt_linedir. cbn [o_text o_line inc put]. rewrite CT. fold u. unfold nl, line_text. rewrite <- !app_assoc. reflexivity.
Qed.

Lemma groups_emit : forall e syms gs o, small syms -> (forall g, In g gs -> (forall i, In i (fst g) -> i < List.length syms) /\ (- 2 ^ 31 < ds_dtnum (snd g) < 2 ^ 31)%Z /\ group_text e g <> None) ->
  exists o' c, emit_groups e syms gs o = Ok o' /\ o_text o' = o_text o ++ c /\ writes e syms gs c.
Proof.
  induction gs as [|g gs IH]; intros o SM H; [exists o, []; split; [reflexivity|]; split; [now rewrite app_nil_r|constructor]|]. cbn [emit_groups].
  destruct (H g (or_introl eq_refl)) as (H1 & H2 & H3). destruct (group_emits e syms g o SM H1 H2 H3) as (o1 & c1 & E1 & T1 & G1). rewrite E1. cbn [bind].
  destruct (IH o1 SM (fun g' I => H g' (or_intror I))) as (o2 & c2 & E2 & T2 & W2). exists o2, (c1 ++ c2). split; [exact E2|]. split; [rewrite T2, T1; now rewrite app_assoc|]. now constructor.
Qed.

Lemma last_own : forall syms done g, In g (own_groups syms done) -> exists i, In (i, snd g) syms /\ has_own (snd g) /\ (forall k, In k (fst g) -> exists s, In (k, s) syms).
Proof.
  induction syms as [|(i, s) r IH]; intros done g G; [destruct G|]. cbn [own_groups] in G. destruct (_ || _ || _)%bool eqn:B.
  - destruct (IH _ _ G) as (j & J & O & K). exists j. split; [now right|]. split; [exact O|]. intros k KK. destruct (K k KK) as (s' & KI). exists s'. now right.
  - destruct G as [<-|G].
    + apply orb_false_iff in B as (B & _). apply orb_false_iff in B as (B1 & B2). exists i. split; [now left|]. split; [split; [exact B1|cbn; destruct (ds_dest s); congruence]|].
      intros k [<-|K]; [exists s; now left|]. apply in_fst in K as (s' & K). apply filter_In in K as (K & _). exists s'. now right.
    + destruct (IH _ _ G) as (j & J & O & K). exists j. split; [now right|]. split; [exact O|]. intros k KK. destruct (K k KK) as (s' & KI). exists s'. now right.
Qed.

(** The groups, one after the other, and nothing else but comments and "break;". *)
Theorem C64_text : forall e syms o, small syms -> exists o' c, emit_destructors e syms o = Ok o' /\ o_text o' = o_text o ++ c /\ writes e syms (destructor_groups e syms) c.
Proof.
  intros e syms o SM.
  assert (INS : forall i s, In (i, s) (index_from 0 syms) -> i < List.length syms /\ (- 2 ^ 31 < ds_dtnum s < 2 ^ 31)%Z).
  { intros i s H. apply all_nth in H. split; [apply nth_error_Some; congruence|]. destruct SM as (_ & SM). apply nth_error_In in H. rewrite Forall_forall in SM. now apply SM. }
  set (tok := match eo_tokendest e with None => [] | Some _ => first_group (terms syms) end). set (dfl := match eo_vardest e with None => [] | Some _ => last_group (defaulted syms) end).
  assert (G1 : forall g, In g tok -> (forall i, In i (fst g) -> i < List.length syms) /\ (- 2 ^ 31 < ds_dtnum (snd g) < 2 ^ 31)%Z /\ group_text e g <> None).
  { intros g G. apply opt_group in G as (G & N). destruct (first_group_ok (terms syms)) as (_ & F). destruct (F g G) as (EF & j & J). pose proof J as J'. apply terms_ok in J' as (J1 & J2). split; [|split].
    - intros i I. rewrite EF in I. apply in_fst in I as (s & I). apply terms_ok in I as (I & _). apply nth_error_Some. congruence.
    - apply all_nth in J1. now apply (INS j).
    - unfold group_text. now rewrite J2. }
  assert (G2 : forall g, In g dfl -> (forall i, In i (fst g) -> i < List.length syms) /\ (- 2 ^ 31 < ds_dtnum (snd g) < 2 ^ 31)%Z /\ group_text e g <> None).
  { intros g G. apply opt_group in G as (G & N). destruct (last_group_ok (defaulted syms)) as (_ & F). destruct (F g G) as (EF & j & J). pose proof J as J'. apply defaulted_ok in J' as (J1 & J2 & J3 & J4). split; [|split].
    - intros i I. rewrite EF in I. apply in_fst in I as (s & I). apply defaulted_ok in I as (I & _). apply nth_error_Some. congruence.
    - apply all_nth in J1. now apply (INS j).
    - unfold group_text. now rewrite J2, J4. }
  assert (G3 : forall g, In g (own_groups (index_from 0 syms) []) -> (forall i, In i (fst g) -> i < List.length syms) /\ (- 2 ^ 31 < ds_dtnum (snd g) < 2 ^ 31)%Z /\ group_text e g <> None).
  { intros g G. destruct (last_own _ _ _ G) as (j & J & (O1 & O2) & K). split; [|split].
    - intros i I. destruct (K i I) as (s & KI). now apply (INS i s).
    - now apply (INS j).
    - unfold group_text. rewrite O1. destruct (ds_dest (snd g)); congruence. }
  rewrite groups_eq. fold tok dfl.
  change (emit_destructors e syms o) with
    (let o := match tok with [] => o | _ => inc 1 (put (zs "      /* TERMINAL Destructor */" ++ nl) o) end in
     o <- emit_groups e syms tok o ;;
     let o := match dfl with [] => o | _ => inc 1 (put (zs "      /* Default NON-TERMINAL Destructor */" ++ nl) o) end in
     o <- emit_groups e syms dfl o ;;
     let o := match eo_vardest e, dfl with Some _, [] => break_line o | _, _ => o end in
     emit_groups e syms (own_groups (index_from 0 syms) []) o). cbv zeta.
  assert (C1 : exists c, o_text (match tok with [] => o | _ => inc 1 (put (zs "      /* TERMINAL Destructor */" ++ nl) o) end) = o_text o ++ c /\ writes e syms [] c).
  { destruct tok; [exists []; split; [now rewrite app_nil_r|constructor]|]. eexists. split; [cbn [o_text inc put]; reflexivity|]. apply (wr_line _ _ _ _ []); [now left|constructor]. }
  destruct C1 as (c1 & C1 & W1). set (o1 := match tok with [] => o | _ => _ end) in *. destruct (groups_emit e syms tok o1 SM G1) as (o2 & c2 & E2 & T2 & W2). rewrite E2. cbn [bind].
  assert (C3 : exists c, o_text (match dfl with [] => o2 | _ => inc 1 (put (zs "      /* Default NON-TERMINAL Destructor */" ++ nl) o2) end) = o_text o2 ++ c /\ writes e syms [] c).
  { destruct dfl; [exists []; split; [now rewrite app_nil_r|constructor]|]. eexists. split; [cbn [o_text inc put]; reflexivity|]. apply (wr_line _ _ _ _ []); [right; now left|constructor]. }
  destruct C3 as (c3 & C3 & W3). set (o3 := match dfl with [] => o2 | _ => _ end) in *. destruct (groups_emit e syms dfl o3 SM G2) as (o4 & c4 & E4 & T4 & W4). rewrite E4. cbn [bind].
  assert (C5 : exists c, o_text (match eo_vardest e, dfl with Some _, [] => break_line o4 | _, _ => o4 end) = o_text o4 ++ c /\ writes e syms [] c).
  { destruct (eo_vardest e), dfl; try (exists []; split; [now rewrite app_nil_r|constructor]). eexists. split; [unfold break_line; cbn [o_text inc put]; reflexivity|]. apply (wr_line _ _ _ _ []); [right; right; now left|constructor]. }
  destruct C5 as (c5 & C5 & W5). set (o5 := match eo_vardest e, dfl with Some _, [] => break_line o4 | _, _ => o4 end) in *. destruct (groups_emit e syms _ o5 SM G3) as (o6 & c6 & E6 & T6 & W6). rewrite E6.
  exists o6, (c1 ++ c2 ++ c3 ++ c4 ++ c5 ++ c6). split; [reflexivity|]. split; [rewrite T6, C5, T4, C3, T2, C1; now rewrite <- !app_assoc|].
  apply (writes_app _ _ [] _ _ _ W1). apply (writes_app _ _ tok _ _ _ W2). apply (writes_app _ _ [] _ _ _ W3). apply (writes_app _ _ dfl _ _ _ W4). exact (writes_app _ _ [] _ _ _ W5 W6).
Qed.

(** * The theorems *)

(** No symbol has two cases; exactly the symbols for which a declaration applies have one; the group of a case writes that declaration. *)
Theorem C64_cases : forall e syms, NoDup (labels (destructor_groups e syms)) /\
  (forall i, In i (labels (destructor_groups e syms)) <-> exists s t, nth_error syms i = Some s /\ wanted e i s t) /\
  (forall g i s t, In g (destructor_groups e syms) -> In i (fst g) -> nth_error syms i = Some s -> wanted e i s t -> group_text e g = Some t).
Proof.
  intros e syms. destruct (groups_labels e syms) as (H1 & H2 & H3). split; [exact H1|]. split; [exact H2|]. intros g i s t G I S W. destruct (H3 g i G I) as (s' & t' & S' & W' & T & _).
  assert (s' = s) by congruence. subst s'. rewrite T. f_equal. inversion W; inversion W'; congruence.
Qed.

(** "$$" stands for the member of the symbol, if tokens use member 0 (C63) and for the default destructor all symbols with it
    use the same member. *)
Theorem C64_value_partial : forall e syms g i s, In g (destructor_groups e syms) -> In i (fst g) -> nth_error syms i = Some s ->
  (forall s, In s syms -> ds_term s = true -> ds_dtnum s = 0%Z) ->
  (ds_dest s = None -> forall j s', nth_error syms j = Some s' -> ds_term s' = false -> ds_dest s' = None -> 0 < j -> ds_dtnum s' = ds_dtnum s) ->
  ds_dtnum (snd g) = ds_dtnum s.
Proof.
  intros e syms g i s G I S TM DF. destruct (groups_labels e syms) as (_ & _ & H3). destruct (H3 g i G I) as (s' & t & S' & W & T & TS & OW & RP). assert (s' = s) by congruence. subst s'.
  destruct RP as [(j & J1 & J2)|(O1 & O2)]; [|now apply OW]. destruct (ds_term s) eqn:E.
  - rewrite (TM s), (TM (snd g)); try assumption; [reflexivity|exact (nth_error_In _ _ J2)|exact (nth_error_In _ _ S)].
  - destruct (ds_dest s) as [d|] eqn:D; [apply OW; congruence|]. destruct (H3 g j G J1) as (sj & tj & SJ & WJ & TJ & TSJ & OWJ & _). assert (sj = snd g) by congruence. subst sj.
    destruct (ds_dest (snd g)) as [d|] eqn:DG.
    + exfalso. rewrite groups_eq in G. apply in_app_iff in G as [G|G]; [|apply in_app_iff in G as [G|G]].
      * apply opt_group in G as (G & _). destruct (first_group_ok (terms syms)) as (_ & F). destruct (F g G) as (EF & _). rewrite EF in I. apply in_fst in I as (x & I). apply terms_ok in I as (I1 & I2). congruence.
      * apply opt_group in G as (G & _). destruct (last_group_ok (defaulted syms)) as (_ & F). destruct (F g G) as (_ & k & K). apply defaulted_ok in K as (_ & _ & _ & K). congruence.
      * destruct (own_groups_ok (index_from 0 syms) [] (index_from_NoDup _ _ _)) as (_ & _ & O3); [intros a b c d' _ _ []|]. destruct (O3 g i G I) as (_ & x & X1 & (_ & X2) & X3 & _). apply all_nth in X1. congruence.
    + apply (DF eq_refl j); [exact J2|congruence|exact DG|]. inversion WJ; congruence || assumption.
Qed.

(** The calls that translate_code writes for symbols without labels are for symbols that have a case, and all such symbols get a call. *)
Theorem C64_calls : forall e syms i s c, nth_error syms i = Some s -> 0 < i ->
  cs_index c = Z.of_nat i -> (cs_type c = STerminal <-> ds_term s = true) -> cs_dest c = (match ds_dest s with Some _ => true | None => false end) ->
  has_destructor (match eo_tokendest e with Some _ => true | None => false end) (match eo_vardest e with Some _ => true | None => false end) c = true <->
  In i (labels (destructor_groups e syms)).
Proof.
  intros e syms i s c S P IX TY DE. destruct (C64_cases e syms) as (_ & L & _). rewrite L. clear L. unfold has_destructor. rewrite DE.
  assert (TD : cs_type c = STerminal /\ ds_term s = true \/ cs_type c <> STerminal /\ ds_term s = false). { destruct (ds_term s); [left; split; [now apply TY|reflexivity]|right; split; [intros H; apply TY in H; discriminate H|reflexivity]]. }
  split.
  - intros H. destruct TD as [(T1 & T2)|(T1 & T2)].
    + rewrite T1 in H. destruct (eo_tokendest e) as [t|] eqn:E; [|discriminate H]. exists s, t. split; [exact S|now apply wt_token].
    + destruct (ds_dest s) as [t|] eqn:D; [exists s, t; split; [exact S|now apply wt_own]|]. destruct (eo_vardest e) as [t|] eqn:E; [exists s, t; split; [exact S|now apply wt_default]|]. destruct (cs_type c); [congruence|discriminate H|discriminate H].
  - intros (s' & t & S' & W). assert (s' = s) by congruence. subst s'. inversion W as [t' H1 H2|t' H1 H2|t' H1 H2 H3 H4]; subst.
    + destruct TD as [(T1 & T2)|(T1 & T2)]; [|congruence]. now rewrite T1, H2.
    + destruct TD as [(T1 & T2)|(T1 & T2)]; [congruence|]. rewrite H2. destruct (cs_type c); [congruence|apply orb_true_r|apply orb_true_r].
    + destruct TD as [(T1 & T2)|(T1 & T2)]; [congruence|]. rewrite H4. destruct (cs_type c); [congruence|reflexivity|reflexivity].
Qed.

(** * Examples *)

(** %token_destructor {free($$);}, %default_destructor {del($$);}; "$", two tokens, two nonterminals with the same destructor, one of another type,
    one without. *)
Definition ex64e : emitopts := mkEo (Some (zs "free($$);")) (Some (zs "del($$);")) false (zs "g.y") (zs "g.c").
Definition ex64 : list dsym :=
  [mkDs (zs "$") false 0 None 0; mkDs (zs "A") true 0 None 0; mkDs (zs "B") true 0 None 0;
   mkDs (zs "x") false 4 (Some (zs "kill($$,$);")) 7; mkDs (zs "y") false 5 (Some (zs "kill($$,$);")) 8; mkDs (zs "z") false 4 (Some (zs "kill($$,$);")) 9; mkDs (zs "w") false 4 None 0].

Example C64_hypotheses : small ex64 /\ map fst (destructor_groups ex64e ex64) = [[1; 2]; [6]; [3; 5]; [4]] /\
  exists o, emit_destructors ex64e ex64 (mkOut [] 1) = Ok o /\ o_line o = 31 /\ strstr (o_text o) (zs "    case 6: /* w */
{
del((yypminor->yy4));
#line 14 ""g.c""
}
      break;
    case 3: /* x */
    case 5: /* z */
{
#line 7 ""g.y""
kill((yypminor->yy4),$);
#line 22 ""g.c""
}
") = Some 170.
Proof. split; [split; [cbn; lia|repeat constructor; cbn; lia]|]. split; [reflexivity|]. eexists. split; [vm_compute; reflexivity|]. split; reflexivity. Qed.

(** * What does not hold *)

(** The default destructor is written once, with the member of the last symbol that has it.  For
    %type x {int}  %type y {char*}  %default_destructor {free($$);}  a value of x is destroyed as if it were one of y. *)
Theorem C64_default_refuted : exists e us syms ds ms g, print_stack_union None None us = Ok (ds, ms) /\ map (fun s => Z.to_nat (ds_dtnum s)) syms = ds /\
  In g (destructor_groups e syms) /\ In 2 (fst g) /\ ds_dtnum (snd g) = 1%Z /\ map ds_dtnum (firstn 1 (skipn 2 syms)) = [4%Z] /\ In (4, zs "int") ms /\ In (1, zs "char*") ms.
Proof.
  exists (mkEo None (Some (zs "free($$);")) true [] []), [mkUs false true None; mkUs false false None; mkUs false true (Some (zs "int")); mkUs false true (Some (zs "char*"))],
    [mkDs (zs "$") false 0 None 0; mkDs (zs "A") true 0 None 0; mkDs (zs "x") false 4 None 0; mkDs (zs "y") false 1 None 0], [0; 0; 4; 1], [(1, zs "char*"); (4, zs "int")],
    ([2; 3], mkDs (zs "y") false 1 None 0).
  split; [vm_compute; reflexivity|]. split; [reflexivity|]. split; [vm_compute; now left|]. split; [now left|]. split; [reflexivity|]. split; [reflexivity|]. split; [right; now left|now left].
Qed.

(** With an error symbol in the grammar "$$" in the default destructor is the int of the error symbol, if that comes last. *)
Theorem C64_error_refuted : exists e us syms ds ms g, print_stack_union None None us = Ok (ds, ms) /\ map (fun s => Z.to_nat (ds_dtnum s)) syms = ds /\
  In g (destructor_groups e syms) /\ In 2 (fst g) /\ ds_name (snd g) = zs "error" /\ In (Z.to_nat (ds_dtnum (snd g)), zs "int") ms /\ map us_type (firstn 1 (skipn 2 us)) = [Some (zs "char*")].
Proof.
  exists (mkEo None (Some (zs "free($$);")) true [] []), [mkUs false true None; mkUs false false None; mkUs false true (Some (zs "char*")); mkUs true true None],
    [mkDs (zs "$") false 0 None 0; mkDs (zs "A") true 0 None 0; mkDs (zs "x") false 1 None 0; mkDs (zs "error") false 9 None 0], [0; 0; 1; 9], [(1, zs "char*"); (9, zs "int")],
    ([2; 3], mkDs (zs "error") false 9 None 0).
  split; [vm_compute; reflexivity|]. split; [reflexivity|]. split; [vm_compute; now left|]. split; [now left|]. split; [reflexivity|]. split; [right; now left|reflexivity].
Qed.

(** A class of terminals is not in the switch (its index is not below nsymbol), but with %default_destructor translate_code writes a call for
    it, which does nothing; the token is not destroyed. *)
Theorem C64_class_refuted : exists e syms c, cs_type c = SMulti /\ has_destructor true true c = true /\ eo_tokendest e <> None /\ eo_vardest e <> None /\
  (Z.of_nat (List.length syms) < cs_index c)%Z /\ ~ In (Z.to_nat (cs_index c)) (labels (destructor_groups e syms)).
Proof.
  exists ex64e, ex64, (mkSym SMulti 8 0 false 0). split; [reflexivity|]. split; [reflexivity|]. split; [discriminate|]. split; [discriminate|]. split; [cbn; lia|]. vm_compute. intuition congruence.
Qed.

Print Assumptions dollars_ok.
Print Assumptions C64_text.
Print Assumptions C64_cases.
Print Assumptions C64_value_partial.
Print Assumptions C64_calls.
Print Assumptions C64_default_refuted.
Print Assumptions C64_error_refuted.
Print Assumptions C64_class_refuted.
