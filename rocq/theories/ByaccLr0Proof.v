(** byacc/lr0.c: the states built by generate_states. *)
From Coq Require Import List Arith NArith ZArith Lia Bool Sorted.
Import ListNotations.
From Verif Require Import Base SpecGrammar SpecGrammarFacts SpecLRFacts SpecLR0 SpecByacc
  ByaccWarshallModel ByaccWarshallProof ByaccLr0Model ByaccPackProof ByaccClosureProof.
Open Scope res_scope.

(** ** Sorted lists below a bound *)
Fixpoint sublists (n : nat) : list (list nat) :=
  match n with
  | O => [[]]
  | S m => sublists m ++ map (fun l => l ++ [m]) (sublists m)
  end.

Lemma sublists_length : forall n, length (sublists n) = 2 ^ n.
Proof. induction n as [|n IH]; [reflexivity|]. cbn [sublists Nat.pow]. rewrite app_length, map_length, IH. lia. Qed.

Lemma sublists_In : forall n l, srt l -> (forall x, In x l -> x < n) -> In l (sublists n).
Proof.
  induction n as [|n IH]; intros l H B.
  - destruct l as [|x l]; [now left|]. specialize (B x (or_introl eq_refl)). lia.
  - cbn [sublists]. apply in_or_app. destruct (in_dec Nat.eq_dec n l) as [I|I].
    + right. destruct (exists_last (l := l)) as (l' & y & E). { intros ->. destruct I. }
      subst l. apply srt_app in H as (A & _ & C).
      assert (y = n).
      { apply in_app_or in I as [I|[I|[]]]; [|auto]. specialize (C n y I (or_introl eq_refl)).
        assert (y < S n) by (apply B, in_or_app; right; now left). lia. }
      subst y. apply in_map_iff. exists l'. split; [auto|]. apply IH; [auto|]. intros x Hx. apply C; [auto|now left].
    + left. apply IH; [auto|]. intros x Hx. specialize (B x Hx). assert (x <> n) by congruence. lia.
Qed.

(** ** Sorting the symbols *)
Lemma ins_rev_In : forall s l x, In x (ins_rev s l) <-> x = s \/ In x l.
Proof.
  induction l as [|y l IH]; intros x; cbn [ins_rev]; [cbn; intuition congruence|].
  destruct (s <? y); cbn [In]; rewrite ?IH; intuition congruence.
Qed.

Lemma ins_rev_srt : forall s l, ~ In s l -> srt (rev l) -> srt (rev (ins_rev s l)).
Proof.
  induction l as [|y l IH]; intros N H; cbn [ins_rev rev app]; [repeat constructor|].
  cbn [rev] in H. apply srt_app in H as (A & B & C).
  destruct (Nat.ltb_spec s y) as [L|L]; cbn [rev].
  - apply srt_app. split; [apply IH; [intros I; apply N; now right|auto]|]. split; [auto|].
    intros u v Hu Hv. rewrite <- in_rev, ins_rev_In in Hu. destruct Hu as [->|Hu]; [destruct Hv as [<-|[]]; auto|].
    apply C; [now rewrite <- in_rev|auto].
  - assert (y < s) by (assert (s <> y) by (intros ->; apply N; now left); lia).
    apply srt_app. split; [apply srt_app; auto|]. split; [repeat constructor|].
    intros u v Hu [<-|[]]. apply in_app_or in Hu as [Hu|[<-|[]]]; [|auto]. specialize (C u y Hu (or_introl eq_refl)). lia.
Qed.

Lemma sort_syms_ok : forall l, NoDup l -> srt (sort_syms l) /\ forall x, In x (sort_syms l) <-> In x l.
Proof.
  intros l. unfold sort_syms.
  assert (G : forall l acc, NoDup l -> (forall x, In x l -> ~ In x acc) -> srt (rev acc) ->
    srt (rev (fold_left (fun acc s => ins_rev s acc) l acc)) /\
    forall x, In x (fold_left (fun acc s => ins_rev s acc) l acc) <-> In x l \/ In x acc).
  { clear l. induction l as [|y l IH]; intros acc N D H; cbn [fold_left].
    - split; [auto|]. intros x. cbn. tauto.
    - inversion N as [|? ? N1 N2]; subst. destruct (IH (ins_rev y acc) N2) as [A B].
      + intros x Hx. rewrite ins_rev_In. intros [->|I]; [auto|]. apply (D x); [now right|auto].
      + apply ins_rev_srt; [apply D; now left|auto].
      + split; [auto|]. intros x. rewrite B, ins_rev_In. cbn [In]. intuition congruence. }
  intros N. destruct (G l [] N) as [A B]; [intros x _ []|constructor|]. split; [auto|].
  intros x. rewrite <- in_rev, B. cbn. tauto.
Qed.

Lemma NoDup_map_in : forall A B (f : A -> B) l, (forall x y, In x l -> In y l -> f x = f y -> x = y) -> NoDup l -> NoDup (map f l).
Proof.
  induction l as [|a l IH]; intros I N; cbn [map]; [constructor|]. inversion N as [|? ? N1 N2]; subst. constructor.
  - intros J. apply in_map_iff in J as (y & E & Iy). apply I in E; [now subst|now right|now left].
  - apply IH; [|auto]. intros x y Hx Hy. apply I; now right.
Qed.

(** ** Counting positions *)
Lemma count_positions : forall (l : list Z) z P, NoDup P -> (forall p, In p P -> nth_error l p = Some z) ->
  length P <= count_occ Z.eq_dec l z.
Proof.
  induction l as [|a l IH]; intros z P N H.
  - destruct P as [|p P]; [cbn; lia|]. specialize (H p (or_introl eq_refl)). destruct p; discriminate.
  - assert (D : length P <= length (filter (fun p => p =? 0) P) + length (filter (fun p => negb (p =? 0)) P)).
    { clear. induction P as [|p P IH]; [cbn; lia|]. cbn [filter]. destruct (p =? 0); cbn [negb length]; lia. }
    assert (A : length (filter (fun p => negb (p =? 0)) P) <= count_occ Z.eq_dec l z).
    { rewrite <- (map_length pred). apply IH.
      - apply NoDup_map_in; [|now apply NoDup_filter].
        intros x y Hx Hy E. apply filter_In in Hx as [_ Hx]. apply filter_In in Hy as [_ Hy].
        apply negb_true_iff, Nat.eqb_neq in Hx. apply negb_true_iff, Nat.eqb_neq in Hy. lia.
      - intros p Hp. apply in_map_iff in Hp as (q & <- & Hq). apply filter_In in Hq as [Hq Nq].
        apply negb_true_iff, Nat.eqb_neq in Nq. specialize (H _ Hq). destruct q; [congruence|]. exact H. }
    assert (B : length (filter (fun p => p =? 0) P) <= 1).
    { assert (NF : NoDup (filter (fun p => p =? 0) P)) by now apply NoDup_filter.
      destruct (filter (fun p => p =? 0) P) as [|x [|y Q]] eqn:E; cbn; try lia. exfalso.
      assert (x = 0) by (assert (I : In x (filter (fun p => p =? 0) P)) by (rewrite E; now left); apply filter_In in I as [_ I]; now apply Nat.eqb_eq in I).
      assert (y = 0) by (assert (I : In y (filter (fun p => p =? 0) P)) by (rewrite E; right; now left); apply filter_In in I as [_ I]; now apply Nat.eqb_eq in I).
      subst. inversion NF as [|? ? NN _]; subst. apply NN. now left. }
    cbn [count_occ]. destruct (Z.eq_dec a z) as [->|NE]; [lia|].
    destruct (filter (fun p => p =? 0) P) as [|x Q] eqn:E; [cbn in *; lia|]. exfalso.
    assert (I : In x (filter (fun p => p =? 0) P)) by (rewrite E; now left). apply filter_In in I as [I1 I2].
    apply Nat.eqb_eq in I2. subst x. specialize (H 0 I1). cbn in H. congruence.
Qed.

Section Lr0.
Variable s : bsrc.
Hypothesis W : wf_src s.
Let b := pack_grammar s.
Let G := aug s.

(** [its] lists the positions of the closure of [nuc]. *)
Definition is_closure (nuc its : list nat) : Prop :=
  srt its /\ forall x, In x its <-> exists i, clos G (kitems s nuc) i /\ x = idx s i.

Lemma is_closure_ok : forall nuc its x, is_closure nuc its -> In x its -> exists i, item_ok G i /\ clos G (kitems s nuc) i /\ x = idx s i.
Proof.
  intros nuc its x [_ H] I. apply H in I as (i & C & E). exists i. split; [|auto].
  eapply clos_ok; [|exact C]. intros k [O _]. exact O.
Qed.

(** ** Reductions *)
Definition red_of (j : nat) : list nat :=
  match nth_error (ritem b) j with Some z => if (z <? 0)%Z then [Z.to_nat (- z)] else [] | None => [] end.

Lemma redset_eq : forall its out, (forall x, In x its -> x < nitems b) -> length (out ++ flat_map red_of its) <= S (nrules b) ->
  redset b its out = Ok (out ++ flat_map red_of its).
Proof.
  induction its as [|j its IH]; intros out H L; cbn [redset flat_map]; [now rewrite app_nil_r|].
  destruct (nth_error_lt_ex _ (ritem b) j) as (z & Ez); [apply H; now left|]. rewrite Ez. cbn [opt bind].
  unfold red_of in L |- *. cbn [flat_map] in L. rewrite Ez in L |- *. fold red_of in L |- *.
  assert (H' : forall x, In x its -> x < nitems b) by (intros; apply H; now right).
  destruct (z <? 0)%Z.
  - replace (length out <? S (nrules b)) with true.
    2:{ symmetry. apply Nat.ltb_lt. rewrite !app_length in L. cbn in L. lia. }
    rewrite IH; [now rewrite <- app_assoc|auto|]. rewrite <- app_assoc. exact L.
  - cbn [app] in L |- *. now apply IH.
Qed.

Lemma red_of_item : forall i r, item_ok G i -> (In r (red_of (idx s i)) <-> after_dot G i = None /\ fst i <> 0 /\ r = S (S (fst i))).
Proof.
  intros i r OK. unfold red_of. unfold b. rewrite (idx_ritem s i OK). fold G. destruct (after_dot G i) as [X|] eqn:A.
  - destruct (after_dot_wf s W _ _ A) as (x & -> & _ & _). replace (Z.of_nat x <? 0)%Z with false by (symmetry; apply Z.ltb_ge; lia).
    split; [intros []|intros [H _]; discriminate].
  - destruct (Nat.eqb_spec (fst i) 0) as [E|E].
    + cbn. split; [intros []|intros (_ & H & _); congruence].
    + replace (- Z.of_nat (S (S (fst i))) <? 0)%Z with true by (symmetry; apply Z.ltb_lt; lia).
      cbn [In]. replace (Z.to_nat (- - Z.of_nat (S (S (fst i))))) with (S (S (fst i))) by lia. intuition congruence.
Qed.

Lemma red_of_le1 : forall j, red_of j = [] \/ exists r, red_of j = [r].
Proof. intros j. unfold red_of. destruct (nth_error (ritem b) j) as [z|]; [|auto]. destruct (z <? 0)%Z; eauto. Qed.

Lemma complete_pos : forall i, item_ok G i -> after_dot G i = None -> fst i <> 0 ->
  exists l r, nth_error (prules s) (fst i) = Some (l, r) /\ snd i = length r.
Proof.
  intros [k d] (rl & E & L) A N. cbn [fst snd] in *. unfold after_dot in A. cbn [fst snd] in A. rewrite E in A.
  apply aug_rule in E as (l & r & E1 & E2 & E3 & _). exists l, r. split; [auto|].
  replace (k =? 0) with false in E3 by (symmetry; now apply Nat.eqb_neq). rewrite E3 in *. rewrite map_length in L.
  apply nth_error_None in A. rewrite map_length in A. lia.
Qed.

Lemma reds_srt : forall its, srt its -> (forall x, In x its -> exists i, item_ok G i /\ x = idx s i) -> srt (flat_map red_of its).
Proof.
  induction its as [|j its IH]; intros H O; cbn [flat_map]; [constructor|].
  inversion H as [|? ? H1 H2]; subst. rewrite Forall_forall in H2.
  apply srt_app. split; [|split; [apply IH; [auto|intros; apply O; now right]|]].
  - destruct (red_of_le1 j) as [->|(r & ->)]; repeat constructor.
  - intros u v Hu Hv. apply in_flat_map in Hv as (j' & I' & Hv). pose proof (H2 _ I') as Lj.
    destruct (O j (or_introl eq_refl)) as (i & Oi & ->). destruct (O j' (or_intror I')) as (i' & Oi' & ->).
    apply red_of_item in Hu as (A1 & A2 & ->); [|auto]. apply red_of_item in Hv as (B1 & B2 & ->); [|auto].
    destruct (complete_pos i Oi A1 A2) as (l & r & E1 & E2). destruct (complete_pos i' Oi' B1 B2) as (l' & r' & E1' & E2').
    unfold idx in Lj. destruct (Nat.lt_trichotomy (fst i) (fst i')) as [L|[L|L]]; [lia| |].
    + rewrite L in E1. rewrite E1 in E1'. inversion E1'; subst. rewrite L in Lj. lia.
    + pose proof (pos_lt s _ _ _ (fst i) (snd i') (snd i) E1' ltac:(lia) L). lia.
Qed.

Lemma redset_ok : forall nuc its, is_closure nuc its -> redset b its [] = Ok (flat_map red_of its) /\ srt (flat_map red_of its) /\
  forall r, In r (flat_map red_of its) <-> exists i, clos G (kitems s nuc) i /\ after_dot G i = None /\ fst i <> 0 /\ r = S (S (fst i)).
Proof.
  intros nuc its C.
  assert (O : forall x, In x its -> exists i, item_ok G i /\ x = idx s i).
  { intros x Hx. destruct (is_closure_ok _ _ _ C Hx) as (i & O & _ & E). eauto. }
  assert (SR : srt (flat_map red_of its)) by (apply reds_srt; [apply C|auto]).
  assert (MR : forall r, In r (flat_map red_of its) <-> exists i, clos G (kitems s nuc) i /\ after_dot G i = None /\ fst i <> 0 /\ r = S (S (fst i))).
  { intros r. rewrite in_flat_map. split.
    - intros (x & Hx & Hr). destruct (is_closure_ok _ _ _ C Hx) as (i & Oi & Ci & ->). apply red_of_item in Hr; [|auto]. exists i. auto.
    - intros (i & Ci & A). exists (idx s i). split; [apply C; eauto|]. apply red_of_item; [|auto].
      eapply clos_ok; [|exact Ci]. intros k [Ok _]. exact Ok. }
  split; [|split; auto]. apply (redset_eq its []).
  - intros x Hx. destruct (O x Hx) as (i & Oi & ->). now apply idx_range.
  - cbn [app]. apply Nat.le_trans with (nrules b); [|lia]. apply srt_length; [auto|]. intros r Hr. apply MR in Hr as (i & Ci & A1 & A2 & ->).
    assert (Oi : item_ok G i) by (eapply clos_ok; [|exact Ci]; intros k [Ok _]; exact Ok).
    apply item_ok_pos in Oi as (l & r & E & _). apply nth_error_Some_lt in E. unfold b. rewrite b_nrules. lia.
Qed.

(** ** Kernels of the successors *)
Definition has_sym (x j : nat) : bool :=
  match nth_error (ritem b) j with Some z => (0 <? z)%Z && (z =? Z.of_nat x)%Z | None => false end.
Definition gk (its : list nat) (x : nat) : list nat := map S (filter (has_sym x) its).

Lemma gk_app : forall a c x, gk (a ++ c) x = gk a x ++ gk c x.
Proof. intros. unfold gk. now rewrite filter_app, map_app. Qed.

Lemma srt_filter : forall f l, srt l -> srt (filter f l).
Proof.
  induction l as [|x l IH]; intros H; cbn [filter]; [constructor|]. inversion H as [|? ? H1 H2]; subst.
  destruct (f x); [|auto]. constructor; [auto|]. rewrite Forall_forall in *. intros y Hy. apply filter_In in Hy as [Hy _]. auto.
Qed.

Lemma srt_map_S : forall l, srt l -> srt (map S l).
Proof.
  induction l as [|x l IH]; intros H; cbn [map]; [constructor|]. inversion H as [|? ? H1 H2]; subst. constructor; [auto|].
  rewrite Forall_forall in *. intros y Hy. apply in_map_iff in Hy as (z & <- & Hz). specialize (H2 _ Hz). lia.
Qed.

Lemma gk_srt : forall its x, srt its -> srt (gk its x).
Proof. intros. unfold gk. now apply srt_map_S, srt_filter. Qed.

Definition ker_of (its : list nat) (x : nat) : option (list nat) :=
  match gk its x with [] => None | l => Some l end.

Lemma new_itemsets_ok : forall rest pre ker syms,
  srt (pre ++ rest) -> (forall x, In x (pre ++ rest) -> x < nitems b) ->
  length ker = nsyms b -> (forall x, x < nsyms b -> nth_error ker x = Some (ker_of pre x)) ->
  NoDup syms -> (forall x, In x syms <-> gk pre x <> []) -> (forall x, In x syms -> x < nsyms b) ->
  exists ker' syms', new_itemsets b rest ker syms = Ok (ker', syms') /\
    (forall x, x < nsyms b -> nth_error ker' x = Some (ker_of (pre ++ rest) x)) /\
    NoDup syms' /\ (forall x, In x syms' <-> gk (pre ++ rest) x <> []) /\ (forall x, In x syms' -> x < nsyms b).
Proof.
  induction rest as [|j rest IH]; intros pre ker syms SR B LK HK NS HS BS; cbn [new_itemsets].
  - exists ker, syms. rewrite app_nil_r. repeat split; auto; apply HS.
  - destruct (nth_error_lt_ex _ (ritem b) j) as (z & Ez). { apply B, in_or_app. right. now left. }
    rewrite Ez. cbn [opt bind].
    assert (AP : pre ++ j :: rest = (pre ++ [j]) ++ rest) by now rewrite <- app_assoc.
    destruct (Z.ltb_spec 0 z) as [Lz|Lz].
    + pose proof (ritem_range s W _ _ Ez) as RZ. set (x := Z.to_nat z).
      assert (Hx : x < nsyms b) by (unfold b; rewrite b_nsy; unfold x; lia).
      assert (G1 : forall y, gk [j] y = if y =? x then [S j] else []).
      { intros y. unfold gk. cbn [filter]. unfold has_sym. rewrite Ez.
        replace (0 <? z)%Z with true by (symmetry; now apply Z.ltb_lt). cbn [andb].
        destruct (Nat.eqb_spec y x) as [->|N].
        - replace (z =? Z.of_nat x)%Z with true by (symmetry; apply Z.eqb_eq; unfold x; lia). reflexivity.
        - replace (z =? Z.of_nat y)%Z with false by (symmetry; apply Z.eqb_neq; unfold x in N; lia). reflexivity. }
      rewrite (HK x Hx). cbn [opt bind]. cbv zeta.
      assert (OLD : match ker_of pre x with Some l => l | None => [] end = gk pre x).
      { unfold ker_of. destruct (gk pre x); reflexivity. }
      rewrite OLD.
      assert (CAP : length (gk pre x) < symbol_count b x).
      { unfold symbol_count. apply Nat.lt_le_trans with (length (gk (pre ++ [j]) x)).
        - rewrite gk_app, app_length, G1, Nat.eqb_refl. cbn. lia.
        - unfold gk. rewrite map_length. apply count_positions.
          + apply NoDup_filter, srt_NoDup. rewrite AP in SR. apply srt_app in SR. apply SR.
          + intros p Hp. apply filter_In in Hp as [_ Hp]. unfold has_sym in Hp.
            destruct (nth_error (ritem b) p) as [z'|]; [|discriminate]. apply andb_true_iff in Hp as [_ Hp].
            apply Z.eqb_eq in Hp. congruence. }
      replace (length (gk pre x) <? symbol_count b x) with true by (symmetry; now apply Nat.ltb_lt).
      set (ker1 := upd ker x (Some (gk pre x ++ [S j]))).
      assert (HK1 : forall y, y < nsyms b -> nth_error ker1 y = Some (ker_of (pre ++ [j]) y)).
      { intros y Hy. unfold ker1, ker_of. rewrite gk_app, G1. destruct (Nat.eqb_spec y x) as [->|N].
        - rewrite nth_error_upd_eq by lia. destruct (gk pre x); reflexivity.
        - rewrite nth_error_upd_ne by auto. rewrite app_nil_r. now apply HK. }
      assert (LK1 : length ker1 = nsyms b) by (unfold ker1; rewrite upd_length; auto).
      destruct (ker_of pre x) as [old|] eqn:KO.
      * destruct (IH (pre ++ [j]) ker1 syms) as (ker' & syms' & R1 & R2 & R3 & R4 & R5); auto.
        { now rewrite <- AP. } { now rewrite <- AP. }
        { intros y. rewrite HS, gk_app, G1. destruct (Nat.eqb_spec y x) as [->|N]; [|now rewrite app_nil_r].
          unfold ker_of in KO. destruct (gk pre x); [discriminate|]. cbn. split; intros _; discriminate. }
        exists ker', syms'. rewrite AP. auto.
      * assert (NI : ~ In x syms). { intros I. apply HS in I. unfold ker_of in KO. destruct (gk pre x); [congruence|discriminate]. }
        assert (LS : length (x :: syms) <= length (seq 0 (nsyms b))).
        { apply NoDup_incl_length; [now constructor|]. intros y [<-|Hy]; apply in_seq; [lia|]. specialize (BS _ Hy). lia. }
        rewrite seq_length in LS. cbn in LS.
        replace (length syms <? nsyms b) with true by (symmetry; apply Nat.ltb_lt; lia).
        destruct (IH (pre ++ [j]) ker1 (syms ++ [x])) as (ker' & syms' & R1 & R2 & R3 & R4 & R5); auto.
        { now rewrite <- AP. } { now rewrite <- AP. }
        { apply NoDup_app_iff. split; [auto|]. split; [repeat constructor; intros []|]. intros y Hy [<-|[]]. auto. }
        { intros y. rewrite in_app_iff, HS, gk_app, G1. destruct (Nat.eqb_spec y x) as [->|N].
          - cbn. split; [intros _ E; destruct (gk pre x); discriminate|auto].
          - rewrite app_nil_r. cbn. split; [intros [H|[H|[]]]; congruence|auto]. }
        { intros y Hy. apply in_app_or in Hy as [Hy|[<-|[]]]; auto. }
        exists ker', syms'. rewrite AP. auto.
    + assert (G1 : forall y, gk [j] y = []).
      { intros y. unfold gk. cbn [filter]. unfold has_sym. rewrite Ez.
        replace (0 <? z)%Z with false by (symmetry; apply Z.ltb_ge; auto). reflexivity. }
      destruct (IH (pre ++ [j]) ker syms) as (ker' & syms' & R1 & R2 & R3 & R4 & R5); auto.
      { now rewrite <- AP. } { now rewrite <- AP. }
      { intros y Hy. unfold ker_of. rewrite gk_app, G1, app_nil_r. now apply HK. }
      { intros y. rewrite gk_app, G1, app_nil_r. apply HS. }
      exists ker', syms'. rewrite AP. auto.
Qed.

Lemma idx_S : forall k d, idx s (k, S d) = S (idx s (k, d)).
Proof. intros. unfold idx. cbn [fst snd]. lia. Qed.

Lemma gk_items : forall nuc its x, is_closure nuc its -> 0 < x ->
  forall i, (kitems s (gk its x) i <-> goto_items G (clos G (kitems s nuc)) (ESym x) i).
Proof.
  intros nuc its x C Px i. unfold kitems, gk. fold G. rewrite in_map_iff. split.
  - intros [O (j & Ej & Ij)]. apply filter_In in Ij as [Ij Hj]. destruct (is_closure_ok _ _ _ C Ij) as (i' & O' & C' & ->).
    unfold has_sym in Hj. destruct (nth_error (ritem b) (idx s i')) as [z|] eqn:Ez; [|discriminate].
    apply andb_true_iff in Hj as [_ Hj]. apply Z.eqb_eq in Hj.
    assert (A : after_dot G i' = Some (ESym x)) by (apply (proj2 (idx_var s W i' z O' Ez x)); auto).
    exists i'. split; [auto|]. split; [auto|]. destruct i' as [k d]. rewrite <- idx_S in Ej.
    symmetry. apply (idx_inj s); [exact (proj2 (after_dot_ok _ _ _ A))|exact O|exact Ej].
  - intros (j & Cj & A & ->). split; [exact (proj2 (after_dot_ok _ _ _ A))|]. exists (idx s j). split.
    + destruct j. now rewrite idx_S.
    + apply filter_In. split; [apply C; eauto|]. unfold has_sym. unfold b. rewrite (idx_ritem s j (proj1 (after_dot_ok _ _ _ A))).
      fold G. rewrite A. apply andb_true_iff. split; [apply Z.ltb_lt; lia|apply Z.eqb_refl].
Qed.

Lemma gk_ok : forall nuc its x y, is_closure nuc its -> In y (gk its x) -> exists i, item_ok G i /\ y = idx s i /\ exists j, item_ok G j /\ after_dot G j = Some (ESym x) /\ i = (fst j, S (snd j)).
Proof.
  intros nuc its x y C H. unfold gk in H. apply in_map_iff in H as (j & <- & Ij). apply filter_In in Ij as [Ij Hj].
  destruct (is_closure_ok _ _ _ C Ij) as (i' & O' & C' & ->).
  unfold has_sym in Hj. destruct (nth_error (ritem b) (idx s i')) as [z|] eqn:Ez; [|discriminate].
  apply andb_true_iff in Hj as [Hz Hj]. apply Z.eqb_eq in Hj. apply Z.ltb_lt in Hz.
  assert (A : after_dot G i' = Some (ESym x)) by (apply (proj2 (idx_var s W i' z O' Ez x)); split; [lia|auto]).
  exists (fst i', S (snd i')). split; [exact (proj2 (after_dot_ok _ _ _ A))|]. split; [destruct i'; now rewrite idx_S|].
  exists i'. auto.
Qed.

(** ** The invariant *)
Definition wf_core (p : nat) (c : core) : Prop :=
  srt (c_items c) /\ c_items c <> [] /\ (forall y, In y (c_items c) -> exists i, item_ok G i /\ y = idx s i) /\
  (exists gm, forall i, clos G (kitems s (c_items c)) i <-> valid G gm i) /\
  (p = 0 -> c = mkCore 0 [1]) /\
  (p <> 0 -> forall y, In y (c_items c) -> exists j, item_ok G j /\ after_dot G j = Some (ESym (c_sym c)) /\ y = S (idx s j)).

Record TI (st : lr0st) : Prop := {
  ti_core0 : exists c, nth_error (l_cores st) 0 = Some c;
  ti_core : forall p c, nth_error (l_cores st) p = Some c -> wf_core p c;
  ti_dist : forall p p' c c', nth_error (l_cores st) p = Some c -> nth_error (l_cores st) p' = Some c' ->
    c_items c = c_items c' -> p = p';
  ti_len : length (l_set st) = nitems b;
  ti_chain : forall key chain, nth_error (l_set st) key = Some chain -> forall p, In p chain <->
    0 < p /\ exists c, nth_error (l_cores st) p = Some c /\ nth_error (c_items c) 0 = Some key
}.

Definition assoc (p : nat) (l : list (nat * list nat)) : list nat :=
  match find (fun e => fst e =? p) l with Some e => snd e | None => [] end.

(** What has been recorded for a processed state. *)
Record done (st : lr0st) (p : nat) (c : core) : Prop := {
  dn_its : exists its syms, is_closure (c_items c) its /\
    assoc p (l_reds st) = flat_map red_of its /\
    srt syms /\ (forall x, In x syms <-> gk its x <> []) /\
    Forall2 (fun x q' => exists c', nth_error (l_cores st) q' = Some c' /\ q' <> 0 /\ c_sym c' = x /\ c_items c' = gk its x)
      syms (assoc p (l_shifts st))
}.

Record LInv (q : nat) (st : lr0st) : Prop := {
  li_ti : TI st;
  li_q : q <= length (l_cores st);
  li_done : forall p c, p < q -> nth_error (l_cores st) p = Some c -> done st p c;
  li_sh : srt (map fst (l_shifts st)) /\ forall p sh, In (p, sh) (l_shifts st) -> p < q /\ sh <> [];
  li_rd : srt (map fst (l_reds st)) /\ forall p rd, In (p, rd) (l_reds st) -> p < q /\ rd <> []
}.

Lemma find_core_ok : forall st chain k, (forall p, In p chain -> p < length (l_cores st)) ->
  (exists q c, find_core st chain k = Ok (Some q) /\ In q chain /\ nth_error (l_cores st) q = Some c /\ c_items c = k) \/
  (find_core st chain k = Ok None /\ forall p c, In p chain -> nth_error (l_cores st) p = Some c -> c_items c <> k).
Proof.
  induction chain as [|q chain IH]; intros k H; cbn [find_core].
  - right. split; [auto|]. intros p c [].
  - destruct (nth_error_lt_ex _ (l_cores st) q) as (c & Ec); [apply H; now left|]. rewrite Ec. cbn [opt bind].
    destruct (list_eq_dec Nat.eq_dec (c_items c) k) as [E|E].
    + left. exists q, c. split; [auto|]. split; [now left|auto].
    + destruct (IH k) as [(q' & c' & A & B & D)|[A B]]; [intros; apply H; now right| |].
      * left. exists q', c'. split; [auto|]. split; [now right|auto].
      * right. split; [auto|]. intros p c' [<-|Hp] Ep; [congruence|]. eapply B; eauto.
Qed.

Lemma nth_error_app_snoc : forall A (l : list A) a q x, nth_error (l ++ [a]) q = Some x <->
  nth_error l q = Some x \/ (q = length l /\ x = a).
Proof.
  intros A l a q x. destruct (Nat.lt_ge_cases q (length l)) as [L|L].
  - rewrite nth_error_app1 by auto. split; [auto|]. intros [H|[-> _]]; [auto|lia].
  - rewrite nth_error_app2 by auto. destruct (q - length l) as [|m] eqn:E; cbn.
    + split; [intros H; inversion H; right; split; [lia|auto]|]. intros [H|[-> ->]]; [apply nth_error_Some_lt in H; lia|auto].
    + split; [destruct m; discriminate|]. intros [H|[-> _]]; [apply nth_error_Some_lt in H; lia|lia].
Qed.

(** The stored state only gains cores. *)
Definition ext (st st' : lr0st) : Prop :=
  (forall p c, nth_error (l_cores st) p = Some c -> nth_error (l_cores st') p = Some c) /\
  l_shifts st' = l_shifts st /\ l_reds st' = l_reds st.

Lemma ext_refl : forall st, ext st st.
Proof. intros st. split; auto. Qed.

Lemma ext_trans : forall a c e, ext a c -> ext c e -> ext a e.
Proof. intros a c e (A1 & A2 & A3) (B1 & B2 & B3). split; [auto|]. split; congruence. Qed.

Lemma get_state_ok : forall st ker nuc its x gm, TI st -> is_closure nuc its -> 0 < x -> gk its x <> [] ->
  nth_error ker x = Some (ker_of its x) -> (forall i, clos G (kitems s nuc) i <-> valid G gm i) ->
  exists q' st' c', get_state b ker x st = Ok (q', st') /\ TI st' /\ ext st st' /\
    nth_error (l_cores st') q' = Some c' /\ q' <> 0 /\ c_sym c' = x /\ c_items c' = gk its x.
Proof.
  intros st ker nuc its x gm T C Px NE HK HV. unfold get_state. rewrite HK. cbn [opt bind].
  assert (KO : ker_of its x = Some (gk its x)) by (unfold ker_of; destruct (gk its x); [congruence|auto]).
  rewrite KO. cbn [opt bind]. destruct (gk its x) as [|key kk] eqn:EG; [congruence|]. cbn [nth_error opt bind].
  assert (OKs : forall y, In y (key :: kk) -> exists i, item_ok G i /\ y = idx s i /\ exists j, item_ok G j /\ after_dot G j = Some (ESym x) /\ i = (fst j, S (snd j))).
  { intros y Hy. rewrite <- EG in Hy. eapply gk_ok; eauto. }
  assert (KB : key < nitems b). { destruct (OKs key (or_introl eq_refl)) as (i & O & -> & _). now apply idx_range. }
  replace (key <? nitems b) with true by (symmetry; now apply Nat.ltb_lt).
  destruct (nth_error_lt_ex _ (l_set st) key) as (chain & Ech); [rewrite (ti_len _ T); auto|]. rewrite Ech. cbn [opt bind].
  pose proof (ti_chain _ T _ _ Ech) as CH.
  assert (WFN : forall p, p <> 0 -> wf_core p (mkCore x (key :: kk))).
  { intros p Np. unfold wf_core. cbn [c_items c_sym]. split; [rewrite <- EG; apply gk_srt, C|]. split; [discriminate|].
    split; [intros y Hy; destruct (OKs y Hy) as (i & O & E & _); eauto|]. split.
    - exists (ESym x :: gm). intros i. rewrite valid_cons. rewrite <- EG. split; intros H.
      + eapply clos_ext; [|exact H]. intros k Hk. apply (gk_items _ _ _ C Px) in Hk as (j & Cj & A & E). exists j. rewrite <- HV. auto.
      + eapply clos_ext; [|exact H]. intros k (j & Cj & A & E). apply (gk_items _ _ _ C Px). exists j. rewrite HV. auto.
    - split; [congruence|]. intros _ y Hy. destruct (OKs y Hy) as (i & O & E & j & Oj & A & Ei). exists j. split; [auto|]. split; [auto|].
      subst. destruct j. cbn [fst snd]. now rewrite idx_S. }
  destruct (find_core_ok st chain (key :: kk)) as [(q & c & F & Iq & Ec & Eit)|[F NF]].
  { intros p Hp. apply CH in Hp as (_ & c & Ec & _). eapply nth_error_Some_lt; eauto. }
  - rewrite F. cbn [bind]. exists q, st, c. split; [auto|]. split; [auto|]. split; [apply ext_refl|]. split; [auto|].
    apply CH in Iq as (Lq & _). split; [lia|]. split; [|auto].
    destruct (ti_core _ T _ _ Ec) as (_ & _ & _ & _ & _ & WC). specialize (WC ltac:(lia) key). rewrite Eit in WC.
    destruct (WC (or_introl eq_refl)) as (j & Oj & A & E). destruct (OKs key (or_introl eq_refl)) as (i & O & E' & j' & Oj' & A' & Ei).
    subst i. destruct j' as [k' d']. cbn [fst snd] in *. rewrite idx_S in E'. assert (j = (k', d')) by (apply (idx_inj s); auto; lia).
    subst j. rewrite A in A'. now inversion A'.
  - rewrite F. cbn [bind]. unfold new_state. cbv zeta. cbn [l_cores l_set l_shifts l_reds].
    set (q := length (l_cores st)). set (st' := mkLr0 (l_cores st ++ [mkCore x (key :: kk)]) (upd (l_set st) key (chain ++ [q])) (l_shifts st) (l_reds st)).
    assert (Lq : 0 < q). { destruct (ti_core0 _ T) as (c0 & E0). apply nth_error_Some_lt in E0. unfold q. lia. }
    exists q, st', (mkCore x (key :: kk)). split; [reflexivity|].
    assert (EXT : ext st st').
    { split; [|split; reflexivity]. intros p c Ec. unfold st'. cbn [l_cores]. apply nth_error_app_snoc. auto. }
    split; [|split; [auto|]].
    + constructor.
      * destruct (ti_core0 _ T) as (c0 & E0). exists c0. now apply EXT.
      * intros p c Ec. unfold st' in Ec. cbn [l_cores] in Ec. apply nth_error_app_snoc in Ec as [Ec|[-> ->]]; [now apply (ti_core _ T)|].
        apply WFN. fold q. lia.
      * assert (AUX : forall p c, nth_error (l_cores st) p = Some c -> c_items c <> key :: kk).
        { intros p c Ec E. destruct (Nat.eq_dec p 0) as [->|Np].
          - destruct (ti_core _ T _ _ Ec) as (_ & _ & _ & _ & W0 & _). rewrite (W0 eq_refl) in E. cbn in E. inversion E; subst.
            destruct (OKs 1 (or_introl eq_refl)) as (i & O & E' & j' & Oj' & A' & Ei). subst i. destruct j' as [k' d']. cbn [fst snd] in *.
            rewrite idx_S in E'. pose proof (idx_range s (k', d') Oj'). lia.
          - apply (NF p c); auto. apply CH. split; [lia|]. exists c. split; [auto|]. now rewrite E. }
        intros p p' c c' Ec Ec' E. unfold st' in Ec, Ec'. cbn [l_cores] in Ec, Ec'.
        apply nth_error_app_snoc in Ec as [Ec|[-> ->]]; apply nth_error_app_snoc in Ec' as [Ec'|[-> ->]].
        -- eapply (ti_dist _ T); eauto.
        -- exfalso. eapply AUX; eauto.
        -- exfalso. eapply AUX; eauto.
        -- auto.
      * unfold st'. cbn [l_set]. rewrite upd_length. apply (ti_len _ T).
      * intros key' chain' E' p. unfold st' in E' |- *. cbn [l_set l_cores] in *.
        destruct (Nat.eq_dec key key') as [<-|N].
        -- rewrite nth_error_upd_eq in E' by (rewrite (ti_len _ T); auto). inversion E'; subst chain'. rewrite in_app_iff, CH. split.
           ++ intros [(H1 & c & H2 & H3)|[<-|[]]].
              ** split; [auto|]. exists c. split; [apply nth_error_app_snoc; auto|auto].
              ** split; [auto|]. exists (mkCore x (key :: kk)). split; [apply nth_error_app_snoc; auto|auto].
           ++ intros (H1 & c & H2 & H3). apply nth_error_app_snoc in H2 as [H2|[-> ->]]; [left; eauto|right; now left].
        -- rewrite nth_error_upd_ne in E' by auto. rewrite (ti_chain _ T _ _ E' p). split.
           ++ intros (H1 & c & H2 & H3). split; [auto|]. exists c. split; [apply nth_error_app_snoc; auto|auto].
           ++ intros (H1 & c & H2 & H3). split; [auto|]. apply nth_error_app_snoc in H2 as [H2|[-> ->]]; [eauto|].
              cbn in H3. congruence.
    + split; [unfold st'; cbn [l_cores]; apply nth_error_app_snoc; auto|]. split; [lia|]. auto.
Qed.

Lemma get_states_ok : forall syms st ker nuc its gm out, TI st -> is_closure nuc its ->
  (forall x, In x syms -> 0 < x /\ gk its x <> [] /\ nth_error ker x = Some (ker_of its x)) ->
  (forall i, clos G (kitems s nuc) i <-> valid G gm i) ->
  exists sh st', get_states b ker syms st out = Ok (out ++ sh, st') /\ TI st' /\ ext st st' /\
    Forall2 (fun x q' => exists c', nth_error (l_cores st') q' = Some c' /\ q' <> 0 /\ c_sym c' = x /\ c_items c' = gk its x) syms sh.
Proof.
  induction syms as [|x syms IH]; intros st ker nuc its gm out T C HS HV; cbn [get_states].
  - exists [], st. rewrite app_nil_r. split; [auto|]. split; [auto|]. split; [apply ext_refl|constructor].
  - destruct (HS x (or_introl eq_refl)) as (Px & NE & HK).
    destruct (get_state_ok st ker nuc its x gm T C Px NE HK HV) as (q & st1 & c & E & T1 & X1 & Ec & Nq & Sc & Ic).
    rewrite E. cbn [bind]. destruct (IH st1 ker nuc its gm (out ++ [q]) T1 C) as (sh & st2 & E2 & T2 & X2 & F2); auto.
    { intros y Hy. apply HS. now right. }
    exists (q :: sh), st2. split; [rewrite E2, <- app_assoc; reflexivity|]. split; [auto|]. split; [eapply ext_trans; eauto|].
    constructor; [|auto]. exists c. split; [now apply X2|auto].
Qed.

Lemma assoc_app_new : forall p q sh l, p <> q -> assoc p (l ++ [(q, sh)]) = assoc p l.
Proof.
  intros p q sh l N. unfold assoc. induction l as [|[a e] l IH]; cbn [app find fst].
  - replace (q =? p) with false by (symmetry; apply Nat.eqb_neq; auto). reflexivity.
  - destruct (a =? p); [reflexivity|exact IH].
Qed.

Lemma assoc_app_eq : forall q sh l, (forall p e, In (p, e) l -> p < q) -> assoc q (l ++ [(q, sh)]) = sh.
Proof.
  intros q sh l H. unfold assoc. induction l as [|[a e] l IH]; cbn [app find fst].
  - now rewrite Nat.eqb_refl.
  - replace (a =? q) with false. 2:{ symmetry. apply Nat.eqb_neq. specialize (H a e (or_introl eq_refl)). lia. }
    apply IH. intros p e' I. apply (H p e'). now right.
Qed.

Lemma assoc_none : forall q l, (forall p e, In (p, e) l -> p < q) -> assoc q l = [].
Proof.
  intros q l H. unfold assoc. induction l as [|[a e] l IH]; cbn [find fst]; [auto|].
  replace (a =? q) with false. 2:{ symmetry. apply Nat.eqb_neq. specialize (H a e (or_introl eq_refl)). lia. }
  apply IH. intros p e' I. apply (H p e'). now right.
Qed.

Lemma keys_snoc : forall (l : list (nat * list nat)) q sh, srt (map fst l) -> (forall p e, In (p, e) l -> p < q /\ e <> []) -> sh <> [] ->
  srt (map fst (l ++ [(q, sh)])) /\ forall p e, In (p, e) (l ++ [(q, sh)]) -> p < S q /\ e <> [].
Proof.
  intros l q sh H1 H2 N. split.
  - rewrite map_app. apply srt_app. split; [auto|]. split; [repeat constructor|].
    intros x y Hx [<-|[]]. apply in_map_iff in Hx as ([p e] & <- & I). apply H2 in I. cbn. lia.
  - intros p e I. apply in_app_or in I as [I|[I|[]]]; [apply H2 in I; split; [lia|tauto]|]. inversion I; subst. split; [lia|auto].
Qed.

(** The two ways a list of records grows. *)
Definition grow (q : nat) (e : list nat) (l l' : list (nat * list nat)) : Prop := l' = match e with [] => l | _ => l ++ [(q, e)] end.

Lemma grow_ok : forall q e l l', grow q e l l' -> srt (map fst l) -> (forall p e, In (p, e) l -> p < q /\ e <> []) ->
  srt (map fst l') /\ (forall p e, In (p, e) l' -> p < S q /\ e <> []) /\ assoc q l' = e /\ forall p, p <> q -> assoc p l' = assoc p l.
Proof.
  intros q e l l' -> H1 H2. destruct e as [|a e].
  - split; [auto|]. split; [intros p e I; apply H2 in I; split; [lia|tauto]|]. split; [|auto].
    apply assoc_none. intros p e I. apply (H2 p e I).
  - destruct (keys_snoc l q (a :: e) H1 H2 ltac:(discriminate)) as [A B]. split; [auto|]. split; [auto|]. split.
    + apply assoc_app_eq. intros p e' I. apply (H2 p e' I).
    + intros p N. now apply assoc_app_new.
Qed.

Variable fd : list N.
Hypothesis FD : fd_ok s fd.

Lemma TI_records : forall st sh rd, TI st -> TI (mkLr0 (l_cores st) (l_set st) sh rd).
Proof. intros st sh rd [A B C D E]. constructor; auto. Qed.

Lemma one_state_ok : forall q st c, LInv q st -> nth_error (l_cores st) q = Some c ->
  exists st', one_state b fd q c st = Ok st' /\ LInv (S q) st' /\ (forall p c, nth_error (l_cores st) p = Some c -> nth_error (l_cores st') p = Some c).
Proof.
  intros q st c [T Lq D [SH1 SH2] [RD1 RD2]] Ec. pose proof (ti_core _ T _ _ Ec) as WC. destruct WC as (W1 & W2 & W3 & (gm & W4) & W5 & W6).
  unfold one_state. destruct (closure_spec s W fd (c_items c) FD W1 W3) as (its & E1 & S1 & M1). unfold b. rewrite E1. cbn [bind]. fold b.
  assert (C : is_closure (c_items c) its) by (split; auto).
  destruct (redset_ok _ _ C) as (R1 & R2 & R3). set (rd := flat_map red_of its) in *.
  assert (SR : exists st1, save_reductions b q its st = Ok st1 /\ TI st1 /\ l_cores st1 = l_cores st /\ l_shifts st1 = l_shifts st /\ grow q rd (l_reds st) (l_reds st1)).
  { unfold save_reductions. rewrite R1. cbn [bind]. unfold grow. destruct rd as [|r rd].
    - exists st. auto.
    - eexists. split; [reflexivity|]. split; [now apply TI_records|]. auto. }
  destruct SR as (st1 & ES & T1 & C1 & SHE & RDE). rewrite ES. cbn [bind].
  assert (BI : forall x, In x its -> x < nitems b). { intros x Hx. destruct (is_closure_ok _ _ _ C Hx) as (i & O & _ & ->). now apply idx_range. }
  destruct (new_itemsets_ok its [] (repeat None (nsyms b)) []) as (ker & syms & N1 & N2 & N3 & N4 & N5).
  { exact S1. } { exact BI. } { apply repeat_length. }
  { intros x Hx. rewrite (nth_error_repeat _ Hx). reflexivity. }
  { constructor. } { intros x. cbn. split; [intros []|congruence]. } { intros x []. }
  rewrite N1. cbn [bind]. cbn [app] in N2, N4.
  destruct (sort_syms_ok syms N3) as [SS1 SS2].
  destruct (get_states_ok (sort_syms syms) st1 ker (c_items c) its gm [] T1 C) as (sh & st2 & G1 & T2 & X2 & F2).
  { intros x Hx. apply SS2 in Hx. pose proof (proj1 (N4 x) Hx) as NE. split; [|split; [auto|]].
    - destruct x; [|lia]. exfalso. unfold gk in NE. apply NE. 
      assert (FF : forall l, filter (has_sym 0) l = []).
      { induction l as [|j l IH]; [auto|]. cbn [filter]. unfold has_sym at 1. destruct (nth_error (ritem b) j) as [z|]; [|auto].
        destruct (Z.ltb_spec 0 z); cbn [andb]; [|auto]. replace (z =? Z.of_nat 0)%Z with false by (symmetry; apply Z.eqb_neq; lia). auto. }
      now rewrite FF.
    - apply N2. now apply N5. }
  { exact W4. }
  rewrite G1. cbn [bind app]. destruct X2 as (X2 & X3 & X4). rewrite C1 in X2. rewrite SHE in X3.
  assert (RES : exists st', (match sh with [] => Ok st2 | _ => Ok (save_shifts q sh st2) end) = Ok st' /\ TI st' /\ l_cores st' = l_cores st2 /\
    grow q sh (l_shifts st) (l_shifts st') /\ l_reds st' = l_reds st1).
  { unfold grow. destruct sh as [|a sh].
    - exists st2. auto.
    - eexists. split; [reflexivity|]. split; [now apply TI_records|]. unfold save_shifts. cbn [l_cores l_shifts l_reds]. rewrite X3. auto. }
  destruct RES as (st' & E' & T' & C' & SHG & RDX). exists st'. split; [exact E'|].
  assert (EXT : forall p c, nth_error (l_cores st) p = Some c -> nth_error (l_cores st') p = Some c) by (intros p c0 H; rewrite C'; now apply X2).
  split; [|exact EXT]. rewrite <- RDX in RDE.
  destruct (grow_ok _ _ _ _ SHG SH1 SH2) as (A1 & A2 & A3 & A4). destruct (grow_ok _ _ _ _ RDE RD1 RD2) as (B1 & B2 & B3 & B4).
  constructor; auto.
  - pose proof (nth_error_Some_lt _ _ _ _ (EXT _ _ Ec)). lia.
  - intros p c0 Hp E0. destruct (Nat.eq_dec p q) as [->|Np].
    + assert (c0 = c) by (apply EXT in Ec; congruence). subst c0. constructor. exists its, (sort_syms syms). split; [auto|].
      split; [exact B3|]. split; [auto|]. split; [intros x; rewrite SS2; apply N4|]. rewrite A3, C'. exact F2.
    + destruct (nth_error_lt_ex _ (l_cores st) p) as (c1 & Ec1). { pose proof (nth_error_Some_lt _ _ _ _ Ec). lia. }
      assert (c1 = c0) by (apply EXT in Ec1; congruence). subst c1.
      destruct (D p c0 ltac:(lia) Ec1) as [(its0 & syms0 & D1 & D2 & D3 & D4 & D5)]. constructor. exists its0, syms0.
      split; [auto|]. split; [rewrite B4 by auto; auto|]. split; [auto|]. split; [auto|]. rewrite A4 by auto.
      clear - D5 EXT. induction D5 as [|x q' l l' (c' & P1 & P2) D5 IH]; constructor; auto. exists c'. split; [now apply EXT|auto].
Qed.

(** ** Termination *)
Lemma cores_bound : forall st, TI st -> length (l_cores st) <= 2 ^ nitems b.
Proof.
  intros st T. rewrite <- (map_length c_items), <- sublists_length. apply NoDup_incl_length.
  - apply NoDup_nth_error. intros p p' Hp E. rewrite map_length in Hp.
    rewrite !nth_error_map in E. destruct (nth_error_lt_ex _ _ _ Hp) as (c & Ec). rewrite Ec in E. cbn in E.
    destruct (nth_error (l_cores st) p') as [c'|] eqn:Ec'; [|discriminate]. cbn in E. inversion E. eapply (ti_dist _ T); eauto.
  - intros k Hk. apply in_map_iff in Hk as (c & <- & Ic). apply In_nth_error in Ic as (p & Ec).
    destruct (ti_core _ T _ _ Ec) as (W1 & _ & W3 & _). apply sublists_In; [auto|].
    intros x Hx. destruct (W3 x Hx) as (i & O & ->). now apply idx_range.
Qed.

Lemma gen_loop_ok : forall fuel q st, LInv q st -> 2 ^ nitems b < fuel + q ->
  exists st', gen_loop fuel b fd q st = Ok st' /\ LInv (length (l_cores st')) st'.
Proof.
  induction fuel as [|fuel IH]; intros q st L F.
  - pose proof (cores_bound st (li_ti _ _ L)). pose proof (li_q _ _ L). lia.
  - cbn [gen_loop]. destruct (nth_error (l_cores st) q) as [c|] eqn:Ec.
    + destruct (one_state_ok q st c L Ec) as (st1 & E & L1 & _). rewrite E. cbn [bind]. apply IH; [auto|lia].
    + exists st. split; [auto|]. apply nth_error_None in Ec. pose proof (li_q _ _ L). now replace (length (l_cores st)) with q by lia.
Qed.

Lemma clos_start : forall i, clos G (kitems s [1]) i <-> valid G [] i.
Proof.
  assert (K : forall i, kitems s [1] i <-> start_items G i).
  { intros i. unfold kitems, start_items. split.
    - intros [O [E|[]]]. assert (O0 : item_ok G (0, 0)). { eexists. split; [reflexivity|cbn; lia]. }
      exists 0. split; [eexists; split; reflexivity|]. apply (idx_inj s); auto.
    - intros (r & (rl & E & L) & ->). assert (r = 0).
      { pose proof E as E0. apply aug_rule in E as (l & rr & E1 & E2 & _ & _ & I). destruct r as [|r]; [auto|]. exfalso.
        specialize (I ltac:(lia)). apply (ws_rules s W) in I as [I _]. cbn [g_start G aug] in L. unfold G, aug in L. cbn in L. lia. }
      subst r. split; [eexists; split; [exact E|cbn; lia]|]. left. reflexivity. }
  intros i. rewrite valid_nil. split; apply clos_ext; intros k; apply K.
Qed.

Lemma initialize_ok : exists st, initialize_states b (set_derives b) = Ok st /\ LInv 0 st.
Proof.
  unfold initialize_states. unfold b. rewrite start_eq.
  destruct (derives_of_ok s W (b_ntokens s)) as (L & E & M & SL). { destruct W. lia. }
  rewrite E. cbn [bind].
  assert (HL : L = [2]).
  { apply srt_ext; [auto|repeat constructor|]. intros r. rewrite M, Nat.sub_diag. split.
    - intros (k & rr & -> & H). rewrite Nat.add_0_r in H. destruct k as [|k]; [now left|]. exfalso.
      apply (prule_In s) in H. apply (ws_rules s W) in H as [H _]. lia.
    - intros [<-|[]]. exists 0. eexists. split; [auto|]. rewrite Nat.add_0_r. reflexivity. }
  subst L. cbn [map_res]. fold b. pose proof (rrhs_rule s 0) as R0. rewrite base_0 in R0. unfold b. rewrite R0 by (unfold prules; cbn; lia).
  cbn [opt bind]. fold b. eexists. split; [reflexivity|].
  assert (O0 : item_ok G (0, 0)). { eexists. split; [reflexivity|cbn; lia]. }
  constructor; cbn [l_cores l_set l_shifts l_reds map].
  - constructor; cbn [l_cores l_set l_shifts l_reds].
    + eexists. reflexivity.
    + intros [|p] c Ec; cbn in Ec; [|destruct p; discriminate]. inversion Ec; subst c. unfold wf_core. cbn [c_items].
      split; [repeat constructor|]. split; [discriminate|]. split.
      * intros y [<-|[]]. exists (0, 0). split; [auto|reflexivity].
      * split; [exists []; apply clos_start|]. split; [auto|]. congruence.
    + intros [|p] [|p'] c c' Ec Ec'; cbn in *; auto; try (destruct p; discriminate); try (destruct p'; discriminate).
    + apply repeat_length.
    + intros key chain Ech p. apply nth_error_In, repeat_spec in Ech. subst chain. split; [intros []|].
      intros (Hp & c & Ec & _). destruct p; [lia|]. destruct p; discriminate.
  - lia.
  - lia.
  - split; [constructor|intros p sh []].
  - split; [constructor|intros p rd []].
Qed.
End Lr0.

(** The result of lr0.c. *)
Definition lr0_ok (s : bsrc) (st : lr0st) : Prop := LInv s (length (l_cores st)) st.

Lemma generate_states_ok : forall s fuel, wf_src s -> b_nsyms s < fuel -> 2 ^ nitems (pack_grammar s) < fuel ->
  exists st, generate_states fuel (pack_grammar s) (set_derives (pack_grammar s)) = Ok st /\ lr0_ok s st.
Proof.
  intros s fuel W F1 F2. unfold generate_states. destruct (derives_fd s W fuel) as (fd & E & FD). { rewrite nvars_eq. lia. }
  rewrite E. cbn [bind]. destruct (initialize_ok s W) as (st0 & E0 & L0). rewrite E0. cbn [bind].
  destruct (gen_loop_ok s W fd FD fuel 0 st0 L0 ltac:(lia)) as (st & E1 & L1). exists st. auto.
Qed.
