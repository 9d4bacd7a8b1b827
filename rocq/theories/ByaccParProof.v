(** Proofs about conflict resolution in byacc (mkpar.c). *)
From Coq Require Import List Arith NArith ZArith Lia Bool Sorted.
Import ListNotations.
From Verif Require Import Base ByaccWarshallModel ByaccLr0Model ByaccLalrModel ByaccParModel SpecByaccConflicts.

(** ** The loop as a function of one group *)
Fixpoint rr_ph (flag : bool) (q : action) (l : list action) : action * list action * nat :=
  match l with
  | [] => (q, [], 0)
  | p :: r =>
      if flag && (0 <? a_prec q) && (0 <? a_prec p) && (a_prec q <? a_prec p) then
        let '(p', r', n) := rr_ph flag p r in (sup 2 q, p' :: r', n)
      else if flag && (0 <? a_prec q) && (0 <? a_prec p) && (a_prec p <? a_prec q) then
        let '(q', r', n) := rr_ph flag q r in (q', sup 2 p :: r', n)
      else let '(q', r', n) := rr_ph flag q r in (q', sup 1 p :: r', S n)
  end.

Fixpoint sr_ph (flag : bool) (q : action) (l : list action) : action * list action * nat * nat :=
  match l with
  | [] => (q, [], 0, 0)
  | p :: r =>
      if (0 <? a_prec q) && (0 <? a_prec p) then
        if a_prec q <? a_prec p then let '(p', r', n) := rr_ph flag p r in (sup 2 q, p' :: r', 0, n)
        else if a_prec p <? a_prec q then let '(q', r', sr, rr) := sr_ph flag q r in (q', sup 2 p :: r', sr, rr)
        else if is_left (a_assoc q) then let '(p', r', n) := rr_ph flag p r in (sup 2 q, p' :: r', 0, n)
        else if is_right (a_assoc q) then let '(q', r', sr, rr) := sr_ph flag q r in (q', sup 2 p :: r', sr, rr)
        else let '(q', r', sr, rr) := sr_ph flag (sup 2 q) r in (q', sup 2 p :: r', sr, rr)
      else let '(q', r', sr, rr) := sr_ph flag q r in (q', sup 1 p :: r', S sr, rr)
  end.

Lemma suppress_at : forall pre p post v, suppress (pre ++ p :: post) (length pre) v = Ok (pre ++ sup v p :: post).
Proof.
  intros pre p post v. unfold suppress. rewrite nth_error_app2 by lia. rewrite Nat.sub_diag. cbn [nth_error opt bind]. f_equal.
  induction pre as [|x pre IH]; cbn [app length upd]; [reflexivity|]. f_equal. exact IH.
Qed.

Lemma nth_at : forall (pre : list action) p post, nth_error (pre ++ p :: post) (length pre) = Some p.
Proof. intros. rewrite nth_error_app2 by lia. rewrite Nat.sub_diag. reflexivity. Qed.

Section Loop.
Variables flag fin : bool.

(** Position arithmetic: [pre ++ q :: mid ++ p :: post] seen from [p]. *)
Lemma assoc3 : forall (pre : list action) q mid p post, pre ++ q :: mid ++ p :: post = (pre ++ q :: mid) ++ p :: post.
Proof. intros. rewrite <- app_assoc. reflexivity. Qed.

Lemma rr_loop : forall l q pre mid rest n sr rr,
  (forall p, In p l -> a_sym p = a_sym q) -> fin && (a_sym q =? 0) = false -> a_shift q = false -> (forall p, In p l -> a_shift p = false) ->
  forall q' l' k, rr_ph flag q l = (q', l', k) ->
  exists ip, rc_loop flag fin (length l + n) (length (pre ++ q :: mid)) (pre ++ q :: mid ++ l ++ rest) (Some (a_sym q)) (Some (length pre)) sr rr =
    rc_loop flag fin n (length (pre ++ q :: mid) + length l) (pre ++ q' :: mid ++ l' ++ rest) (Some (a_sym q)) (Some ip) sr (rr + k).
Proof.
  induction l as [|p l IH]; intros q pre mid rest n sr rr HS HF HQ HL q' l' k E.
  - cbn in E. inversion E; subst. cbn [length]. rewrite !Nat.add_0_r. exists (length pre). reflexivity.
  - cbn [length Nat.add rc_loop app]. rewrite assoc3, nth_at. cbn [opt bind].
    assert (Sp : a_sym p = a_sym q) by (apply HS; now left). assert (Hp : a_shift p = false) by (apply HL; now left).
    rewrite Sp, Nat.eqb_refl. cbn [negb]. rewrite HF. rewrite <- assoc3, nth_at. cbn [opt bind]. rewrite HQ.
    cbn [rr_ph] in E.
    destruct (flag && (0 <? a_prec q) && (0 <? a_prec p) && (a_prec q <? a_prec p)) eqn:C1.
    + destruct (rr_ph flag p l) as [[p' r'] k'] eqn:E'. inversion E; subst. rewrite suppress_at. cbn [bind].
      destruct (IH p (pre ++ sup 2 q :: mid) [] rest n sr rr) with (q' := p') (l' := r') (k := k) as (ip & IP); auto.
      { intros x Hx. rewrite Sp. apply HS. now right. } { now rewrite Sp. } { intros x Hx. apply HL. now right. }
      exists ip. rewrite Sp in IP. cbn [app] in IP. rewrite <- !app_assoc in IP. cbn [app] in IP.
      replace (length (pre ++ q :: mid)) with (length (pre ++ sup 2 q :: mid)) by (rewrite !app_length; reflexivity).
      replace (S (length (pre ++ sup 2 q :: mid))) with (length (pre ++ sup 2 q :: mid ++ [p])) by (rewrite !app_length; cbn; rewrite !app_length; cbn; lia).
      rewrite IP. f_equal. rewrite !app_length; cbn; rewrite !app_length; cbn; lia.
    + destruct (flag && (0 <? a_prec q) && (0 <? a_prec p) && (a_prec p <? a_prec q)) eqn:C2.
      * destruct (rr_ph flag q l) as [[q1 r'] k'] eqn:E'. inversion E; subst. rewrite assoc3, suppress_at. cbn [bind].
        destruct (IH q pre (mid ++ [sup 2 p]) rest n sr rr) with (q' := q') (l' := r') (k := k) as (ip & IP); auto.
        { intros x Hx. apply HS. now right. } { intros x Hx. apply HL. now right. }
        exists ip. rewrite <- !app_assoc in *. cbn [app] in *.
        replace (S (length (pre ++ q :: mid))) with (length (pre ++ q :: mid ++ [sup 2 p])) by (rewrite !app_length; cbn; rewrite !app_length; cbn; lia).
        rewrite IP. rewrite <- ?app_assoc. cbn [app]. f_equal. rewrite !app_length; cbn; rewrite !app_length; cbn; lia.
      * destruct (rr_ph flag q l) as [[q1 r'] k'] eqn:E'. inversion E; subst. rewrite assoc3, suppress_at. cbn [bind].
        destruct (IH q pre (mid ++ [sup 1 p]) rest n sr (S rr)) with (q' := q') (l' := r') (k := k') as (ip & IP); auto.
        { intros x Hx. apply HS. now right. } { intros x Hx. apply HL. now right. }
        exists ip. rewrite <- !app_assoc in *. cbn [app] in *.
        replace (S (length (pre ++ q :: mid))) with (length (pre ++ q :: mid ++ [sup 1 p])) by (rewrite !app_length; cbn; rewrite !app_length; cbn; lia).
        rewrite IP. rewrite <- ?app_assoc. cbn [app]. f_equal; [rewrite !app_length; cbn; rewrite !app_length; cbn; lia|lia].
Qed.

Lemma sr_loop : forall l q pre mid rest n sr rr,
  (forall p, In p l -> a_sym p = a_sym q) -> fin && (a_sym q =? 0) = false -> a_shift q = true -> (forall p, In p l -> a_shift p = false) ->
  forall q' l' k k', sr_ph flag q l = (q', l', k, k') ->
  exists ip, rc_loop flag fin (length l + n) (length (pre ++ q :: mid)) (pre ++ q :: mid ++ l ++ rest) (Some (a_sym q)) (Some (length pre)) sr rr =
    rc_loop flag fin n (length (pre ++ q :: mid) + length l) (pre ++ q' :: mid ++ l' ++ rest) (Some (a_sym q)) (Some ip) (sr + k) (rr + k').
Proof.
  induction l as [|p l IH]; intros q pre mid rest n sr rr HS HF HQ HL q' l' k k' E.
  - cbn in E. inversion E; subst. cbn [length]. rewrite !Nat.add_0_r. exists (length pre). reflexivity.
  - cbn [length Nat.add rc_loop app]. rewrite assoc3, nth_at. cbn [opt bind].
    assert (Sp : a_sym p = a_sym q) by (apply HS; now left). assert (Hp : a_shift p = false) by (apply HL; now left).
    rewrite Sp, Nat.eqb_refl. cbn [negb]. rewrite HF. rewrite <- assoc3, nth_at. cbn [opt bind]. rewrite HQ.
    cbn [sr_ph] in E.
    assert (TK : forall q1 r1 k1 k1' v sr1, a_sym q1 = a_sym q -> a_shift q1 = true -> sr_ph flag q1 l = (q', r1, k1, k1') ->
      exists ip, rc_loop flag fin (length l + n) (S (length (pre ++ q :: mid))) (pre ++ q1 :: mid ++ sup v p :: l ++ rest) (Some (a_sym q)) (Some (length pre)) sr1 rr =
        rc_loop flag fin n (length (pre ++ q :: mid) + S (length l)) (pre ++ q' :: mid ++ sup v p :: r1 ++ rest) (Some (a_sym q)) (Some ip) (sr1 + k1) (rr + k1')).
    { intros q1 r1 k1 k1' v sr1 Q1 Q2 E1. destruct (IH q1 pre (mid ++ [sup v p]) rest n sr1 rr) with (q' := q') (l' := r1) (k := k1) (k' := k1') as (ip & IP); auto.
      { intros x Hx. rewrite Q1. apply HS. now right. } { now rewrite Q1. } { intros x Hx. apply HL. now right. }
      exists ip. rewrite <- !app_assoc in IP. cbn [app] in IP. rewrite Q1 in IP.
      replace (S (length (pre ++ q :: mid))) with (length (pre ++ q1 :: mid ++ [sup v p])) by (rewrite !app_length; cbn; rewrite !app_length; cbn; lia).
      rewrite IP. rewrite <- ?app_assoc. cbn [app]. f_equal. rewrite !app_length; cbn; rewrite !app_length; cbn; lia. }
    assert (RK : forall p1 r1 k1, rr_ph flag p l = (p1, r1, k1) ->
      exists ip, rc_loop flag fin (length l + n) (S (length (pre ++ q :: mid))) (pre ++ sup 2 q :: mid ++ p :: l ++ rest) (Some (a_sym q)) (Some (length (pre ++ q :: mid))) sr rr =
        rc_loop flag fin n (length (pre ++ q :: mid) + S (length l)) (pre ++ sup 2 q :: mid ++ p1 :: r1 ++ rest) (Some (a_sym q)) (Some ip) sr (rr + k1)).
    { intros p1 r1 k1 E1. destruct (rr_loop l p (pre ++ sup 2 q :: mid) [] rest n sr rr) with (q' := p1) (l' := r1) (k := k1) as (ip & IP); auto.
      { intros x Hx. rewrite Sp. apply HS. now right. } { now rewrite Sp. } { intros x Hx. apply HL. now right. }
      exists ip. rewrite Sp in IP. cbn [app] in IP. rewrite <- !app_assoc in IP. cbn [app] in IP.
      replace (length (pre ++ q :: mid)) with (length (pre ++ sup 2 q :: mid)) by (rewrite !app_length; reflexivity).
      replace (S (length (pre ++ sup 2 q :: mid))) with (length (pre ++ sup 2 q :: mid ++ [p])) by (rewrite !app_length; cbn; rewrite !app_length; cbn; lia).
      rewrite IP. f_equal. rewrite !app_length; cbn; rewrite !app_length; cbn; lia. }
    destruct ((0 <? a_prec q) && (0 <? a_prec p)).
    + destruct (a_prec q <? a_prec p).
      { destruct (rr_ph flag p l) as [[p1 r1] k1] eqn:E1. inversion E; subst. rewrite suppress_at. cbn [bind]. rewrite Nat.add_0_r. cbn [app]. apply RK. auto. }
      destruct (a_prec p <? a_prec q).
      { destruct (sr_ph flag q l) as [[[q1 r1] k1] k1'] eqn:E1. inversion E; subst. rewrite assoc3, suppress_at. cbn [bind]. rewrite <- assoc3. cbn [app]. apply TK; auto. }
      destruct (is_left (a_assoc q)).
      { destruct (rr_ph flag p l) as [[p1 r1] k1] eqn:E1. inversion E; subst. rewrite suppress_at. cbn [bind]. rewrite Nat.add_0_r. cbn [app]. apply RK. auto. }
      destruct (is_right (a_assoc q)).
      { destruct (sr_ph flag q l) as [[[q1 r1] k1] k1'] eqn:E1. inversion E; subst. rewrite assoc3, suppress_at. cbn [bind]. rewrite <- assoc3. cbn [app]. apply TK; auto. }
      destruct (sr_ph flag (sup 2 q) l) as [[[q1 r1] k1] k1'] eqn:E1. inversion E; subst. rewrite suppress_at. cbn [bind].
      assert (X : suppress (pre ++ sup 2 q :: mid ++ p :: l ++ rest) (length (pre ++ q :: mid)) 2 = Ok (pre ++ sup 2 q :: mid ++ sup 2 p :: l ++ rest)).
      { rewrite !assoc3. replace (length (pre ++ q :: mid)) with (length (pre ++ sup 2 q :: mid)) by (rewrite !app_length; reflexivity). apply suppress_at. }
      rewrite X. cbn [bind app]. apply TK; auto.
    + destruct (sr_ph flag q l) as [[[q1 r1] k1] k1'] eqn:E1. inversion E; subst. rewrite assoc3, suppress_at. cbn [bind]. rewrite <- assoc3. cbn [app].
      replace (sr + S k1) with (S sr + k1) by lia. apply TK; auto.
Qed.

Lemma fin_loop : forall l q pre mid rest n sr rr ip,
  (forall p, In p l -> a_sym p = a_sym q) -> fin && (a_sym q =? 0) = true ->
  rc_loop flag fin (length l + n) (length (pre ++ q :: mid)) (pre ++ q :: mid ++ l ++ rest) (Some (a_sym q)) ip sr rr =
    rc_loop flag fin n (length (pre ++ q :: mid) + length l) (pre ++ q :: mid ++ map (sup 1) l ++ rest) (Some (a_sym q)) ip (sr + length l) rr.
Proof.
  induction l as [|p l IH]; intros q pre mid rest n sr rr ip HS HF.
  - cbn [length map]. rewrite !Nat.add_0_r. reflexivity.
  - cbn [length Nat.add rc_loop app]. rewrite assoc3, nth_at. cbn [opt bind].
    assert (Sp : a_sym p = a_sym q) by (apply HS; now left). rewrite Sp, Nat.eqb_refl. cbn [negb]. rewrite HF. rewrite suppress_at. cbn [bind map app].
    rewrite <- assoc3. specialize (IH q pre (mid ++ [sup 1 p]) rest n (S sr) rr ip). rewrite <- !app_assoc in IH. cbn [app] in IH.
    replace (S (length (pre ++ q :: mid))) with (length (pre ++ q :: mid ++ [sup 1 p])) by (rewrite !app_length; cbn; rewrite !app_length; cbn; lia).
    rewrite IH; auto; [|intros x Hx; apply HS; now right].
    rewrite <- ?app_assoc. cbn [app]. f_equal; [rewrite !app_length; cbn; rewrite !app_length; cbn; lia|lia].
Qed.
End Loop.

(** ** One group *)
Lemma counts_nil : forall acts P, (forall p, In p acts -> ~ P p) -> counts acts P 0.
Proof. intros acts P H. exists []. split; [constructor|]. split; [reflexivity|]. intros p. split; [intros []|]. intros [H1 H2]. exfalso. eapply H; eauto. Qed.

Lemma counts_ext : forall acts P Q n, (forall p, In p acts -> (P p <-> Q p)) -> counts acts P n -> counts acts Q n.
Proof.
  intros acts P Q n H (L & H1 & H2 & H3). exists L. split; [auto|]. split; [auto|]. intros p. rewrite H3. split; intros [A B]; (split; [auto|]); now apply (H p A).
Qed.

Lemma counts_all : forall acts (P : action -> Prop), NoDup acts -> (forall p, In p acts -> P p) -> counts acts P (length acts).
Proof. intros acts P ND H. exists acts. split; [auto|]. split; [auto|]. intros p. split; [intros A; split; auto|tauto]. Qed.

(** Adding an element in front. *)
Lemma counts_cons_no : forall a acts (P Q : action -> Prop) n, ~ Q a -> (forall p, In p acts -> (P p <-> Q p)) -> counts acts P n -> counts (a :: acts) Q n.
Proof.
  intros a acts P Q n NA H (L & H1 & H2 & H3). exists L. split; [auto|]. split; [auto|]. intros p. rewrite H3. split.
  - intros [A B]. split; [now right|]. now apply (H p A).
  - intros [[<-|A] B]; [tauto|]. split; [auto|]. now apply (H p A).
Qed.
Lemma counts_cons_yes : forall a acts (P Q : action -> Prop) n, ~ In a acts -> Q a -> (forall p, In p acts -> (P p <-> Q p)) -> counts acts P n -> counts (a :: acts) Q (S n).
Proof.
  intros a acts P Q n NI QA H (L & H1 & H2 & H3). exists (a :: L). split; [constructor; [rewrite H3; tauto|auto]|]. split; [cbn; auto|]. intros p. cbn [In]. rewrite H3. split.
  - intros [<-|[A B]]; [split; auto|]. split; [now right|]. now apply (H p A).
  - intros [[<-|A] B]; [now left|]. right. split; [auto|]. now apply (H p A).
Qed.

Lemma counts_app : forall l1 l2 P n1 n2, (forall p, In p l1 -> ~ In p l2) -> counts l1 P n1 -> counts l2 P n2 -> counts (l1 ++ l2) P (n1 + n2).
Proof.
  intros l1 l2 P n1 n2 D (L1 & A1 & A2 & A3) (L2 & B1 & B2 & B3). exists (L1 ++ L2). split.
  - apply NoDup_app_iff. split; [auto|]. split; [auto|]. intros p Hp Hq. apply A3 in Hp. apply B3 in Hq. eapply D; [apply Hp|apply Hq].
  - split; [rewrite app_length; lia|]. intros p. rewrite !in_app_iff, A3, B3. tauto.
Qed.

(** Numbers increase. *)
Definition num_lt (a b : action) : Prop := a_num a < a_num b.

Lemma sup_supp : forall p, a_supp p = 0 -> sup 0 p = p.
Proof. intros [a b c d e f] H. cbn in *. now subst. Qed.
Lemma sup_sup : forall u v p, sup u (sup v p) = sup u p.
Proof. reflexivity. Qed.

Lemma map_sup_id : forall l, (forall p, In p l -> a_supp p = 0) -> map (sup 0) l = l.
Proof. induction l as [|p l IH]; intros H; cbn; [auto|]. rewrite sup_supp by (apply H; now left). f_equal. apply IH. intros x Hx. apply H. now right. Qed.

(** The first of a sorted list. *)
Lemma rr_false : forall l q, rr_ph false q l = (q, map (sup 1) l, length l).
Proof. induction l as [|p l IH]; intros q; cbn; [reflexivity|]. now rewrite IH. Qed.

Lemma ltb_t : forall a b, (a <? b) = true <-> a < b. Proof. exact Nat.ltb_lt. Qed.

(** Result of the comparison of the reductions [q :: l]. *)
Lemma rr_ph_ok : forall flag l q, Sorted.StronglySorted num_lt (q :: l) -> (forall p, In p (q :: l) -> a_supp p = 0) ->
  forall q' l' n, rr_ph flag q l = (q', l', n) ->
  map (sup 0) (q' :: l') = q :: l /\
  (forall p, In p (q :: l) -> (In p (q' :: l') <-> wins flag (fun x => In x (q :: l)) p)) /\
  counts (q :: l) (rr_conflict flag (fun x => In x (q :: l))) n.
Proof.
  intros flag. induction l as [|p l IH]; intros q SS HZ q' l' n E.
  - cbn in E. inversion E; subst. split; [cbn; rewrite sup_supp; auto; apply HZ; now left|]. split.
    + intros p [<-|[]]. split; [intros _|intros _; now left]. split; [now left|]. split; intros p' [<-|[]] H; lia.
    + apply counts_nil. intros p [<-|[]] (_ & f & [<-|[]] & H & _). lia.
  - assert (SQ : StronglySorted num_lt (q :: l)).
    { inversion SS as [|? ? S1 S2]; subst. inversion S1; subst. inversion S2; subst. constructor; auto. }
    assert (SP : StronglySorted num_lt (p :: l)) by (inversion SS; auto).
    assert (QP : a_num q < a_num p) by (inversion SS as [|? ? S1 S2]; subst; inversion S2; auto).
    assert (QL : forall x, In x l -> a_num q < a_num x).
    { inversion SQ as [|? ? S1 S2]; subst. rewrite Forall_forall in S2. exact S2. }
    assert (PL : forall x, In x l -> a_num p < a_num x).
    { inversion SP as [|? ? S1 S2]; subst. rewrite Forall_forall in S2. exact S2. }
    assert (Zq : a_supp q = 0) by (apply HZ; now left). assert (Zp : a_supp p = 0) by (apply HZ; right; now left).
    assert (ZQ : forall x, In x (q :: l) -> a_supp x = 0) by (intros x [<-|Hx]; apply HZ; [now left|right; now right]).
    assert (ZP : forall x, In x (p :: l) -> a_supp x = 0) by (intros x Hx; apply HZ; now right).
    assert (NPQ : p <> q) by (intros ->; lia).
    assert (NQL : ~ In q l) by (intros H; apply QL in H; lia). assert (NPL : ~ In p l) by (intros H; apply PL in H; lia).
    assert (FQ : forall x, In x (q :: p :: l) -> a_num q <= a_num x) by (intros x [<-|[<-|Hx]]; [lia|lia|apply QL in Hx; lia]).
    assert (FQ' : forall x, In x (q :: l) -> a_num q <= a_num x) by (intros x [<-|Hx]; [lia|apply QL in Hx; lia]).
    assert (FP' : forall x, In x (p :: l) -> a_num p <= a_num x) by (intros x [<-|Hx]; [lia|apply PL in Hx; lia]).
    assert (FF : forall f, In f (q :: p :: l) -> (forall x, In x (q :: p :: l) -> a_num f <= a_num x) -> f = q).
    { intros f [<-|[<-|Hf]] H; [auto| |]; specialize (H q (or_introl eq_refl)); [lia|apply QL in Hf; lia]. }
    assert (FF' : forall f, In f (q :: l) -> (forall x, In x (q :: l) -> a_num f <= a_num x) -> f = q).
    { intros f [<-|Hf] H; [auto|]; specialize (H q (or_introl eq_refl)); apply QL in Hf; lia. }
    assert (FFP : forall f, In f (p :: l) -> (forall x, In x (p :: l) -> a_num f <= a_num x) -> f = p).
    { intros f [<-|Hf] H; [auto|]; specialize (H p (or_introl eq_refl)); apply PL in Hf; lia. }
    cbn [rr_ph] in E.
    destruct (flag && (0 <? a_prec q) && (0 <? a_prec p) && (a_prec q <? a_prec p)) eqn:C1.
    + (* p replaces q *)
      apply andb_true_iff in C1 as (C1 & C1d). apply andb_true_iff in C1 as (C1 & C1c). apply andb_true_iff in C1 as (C1a & C1b).
      apply ltb_t in C1b, C1c, C1d. subst flag.
      destruct (rr_ph true p l) as [[p' r'] k'] eqn:E'. inversion E; subst. destruct (IH p SP ZP _ _ _ E') as (I1 & I2 & I3).
      split; [cbn [map]; rewrite sup_sup, sup_supp by auto; f_equal; exact I1|]. split.
      * intros x Hx. destruct Hx as [<-|Hx].
        -- split.
           ++ intros [H|H]; [exfalso; apply (f_equal a_supp) in H; cbn in H; lia|]. exfalso.
              assert (In (sup 0 q) (p :: l)) by (rewrite <- I1; now apply in_map). rewrite sup_supp in H0 by auto. apply FP' in H0. lia.
           ++ intros (_ & _ & H). exfalso. destruct (H p) as [H'|[H'|H']]; [right; now left|auto|discriminate|lia|lia].
        -- transitivity (In x (p' :: r')).
           { split; [|now right]. intros [H|H]; [|auto]. exfalso. apply (f_equal a_supp) in H. cbn in H. rewrite (ZP x Hx) in H. lia. }
           rewrite (I2 x Hx). unfold wins. split; intros (W1 & W2 & W3).
           ++ split; [now right|]. split.
              ** intros y [<-|Hy] Hn.
                 --- split; [auto|]. split; [|intros _; lia]. destruct Hx as [<-|Hx]; [lia|]. destruct (W2 p) as (_ & W2' & _); [now left|now apply PL|]. lia.
                 --- destruct (W2 y Hy Hn) as (V1 & V2 & V3). split; [auto|]. split; [auto|]. intros HF. exfalso.
                     assert (y = q) by (apply FF; auto; now right). subst. destruct Hy as [Hy|Hy]; auto.
              ** intros y [<-|Hy] Hn; [apply FP' in Hx; lia|]. apply W3; auto.
           ++ split; [auto|]. split.
              ** intros y Hy Hn. destruct (W2 y) as (V1 & V2 & V3); [now right|auto|]. split; [auto|]. split; [auto|]. intros HF. apply FFP in HF; [|auto]. subst. lia.
              ** intros y Hy Hn. apply W3; [now right|auto].
      * eapply counts_cons_no; [| |exact I3].
        -- intros (_ & f & Hf & Hn & _). apply FQ in Hf. lia.
        -- intros x Hx. unfold rr_conflict. split.
           ++ intros (_ & f & Hf & Hn & HF & Hc). assert (f = p) by (apply FFP; auto). subst f. split; [now right|]. exists q. split; [now left|].
              split; [lia|]. split; [exact FQ|]. destruct Hc as [Hc|[Hc|[Hc|((y & Hy & Hny & Hyx) & Hc)]]]; [discriminate|lia|tauto|].
              right. right. right. split; [exists y; split; [now right|auto]|]. intros z [<-|Hz] Hnz; [|auto]. specialize (Hc p (or_introl eq_refl) Hn). lia.
           ++ intros (_ & f & Hf & Hn & HF & Hc). assert (f = q) by (apply FF; auto). subst f.
              assert (x <> p \/ x = p) as [Nxp| ->] by (destruct (Nat.eq_dec (a_num x) (a_num p)); [right; destruct Hx as [Hx|Hx]; [auto|apply PL in Hx; lia]|left; intros ->; lia]).
              ** assert (HL : In x l) by (destruct Hx as [Hx|Hx]; [exfalso; now apply Nxp|auto]). split; [auto|]. exists p. split; [now left|]. split; [now apply PL|]. split; [exact FP'|].
                 destruct Hc as [Hc|[Hc|[Hc|((y & Hy & Hny & Hyx) & Hc)]]]; [discriminate|lia|tauto|]. right. right. right. split.
                 --- destruct Hy as [<-|Hy]; [|exists y; auto]. specialize (Hc p (or_intror (or_introl eq_refl)) (PL x HL)). lia.
                 --- intros z Hz. apply Hc. now right.
              ** exfalso. destruct Hc as [Hc|[Hc|[Hc|((y & Hy & Hny & Hyx) & Hc)]]]; [discriminate|lia|lia|].
                 destruct Hy as [<-|Hy]; [lia|]. apply FP' in Hy. lia.
    + destruct (flag && (0 <? a_prec q) && (0 <? a_prec p) && (a_prec p <? a_prec q)) eqn:C2.
      * (* p loses *)
        apply andb_true_iff in C2 as (C2 & C2d). apply andb_true_iff in C2 as (C2 & C2c). apply andb_true_iff in C2 as (C2a & C2b).
        apply ltb_t in C2b, C2c, C2d. subst flag.
        destruct (rr_ph true q l) as [[q1 r'] k'] eqn:E'. inversion E; subst. destruct (IH q SQ ZQ _ _ _ E') as (I1 & I2 & I3). cbn [map] in I1.
        assert (J1 : sup 0 q' = q) by congruence. assert (J2 : map (sup 0) r' = l) by congruence.
        split; [cbn [map]; rewrite sup_sup, J1, J2, (sup_supp p Zp); reflexivity|].
        assert (MEM : forall x, In x (q :: l) -> (In x (q' :: sup 2 p :: r') <-> In x (q' :: r'))).
        { intros x Hx. cbn [In]. split; [intros [H|[H|H]]; auto; exfalso; apply (f_equal a_supp) in H; cbn in H; rewrite (ZQ x Hx) in H; lia|tauto]. }
        split.
        -- intros x Hx. assert (x = p \/ In x (q :: l)) as [->|Hx'] by (destruct Hx as [H|[H|H]]; [right; now left|left; auto|right; now right]).
           ++ split.
              ** intros [H|[H|H]]; exfalso.
                 --- assert (HH : sup 0 q' = sup 0 p) by (now rewrite H). rewrite J1, sup_supp in HH; auto.
                 --- apply (f_equal a_supp) in H. cbn in H. lia.
                 --- apply (in_map (sup 0)) in H. rewrite J2, sup_supp in H; auto.
              ** intros (_ & H & _). exfalso. destruct (H q) as (_ & H' & _); [now left|auto|]. lia.
           ++ rewrite (MEM x Hx'), (I2 x Hx'). unfold wins. split; intros (W1 & W2 & W3).
              ** split; [auto|]. split.
                 --- intros y Hy Hn. assert (y = p \/ In y (q :: l)) as [->|Hy'] by (destruct Hy as [H|[H|H]]; [right; now left|left; auto|right; now right]).
                     +++ split; [auto|]. split; [|intros _; lia]. destruct Hx' as [<-|HL]; [lia|]. destruct (W2 q) as (_ & W & _); [now left|now apply QL|]. lia.
                     +++ destruct (W2 y Hy' Hn) as (V1 & V2 & V3). split; [auto|]. split; [auto|]. intros HF. apply V3. intros z Hz. apply HF. destruct Hz as [Hz|Hz]; [now left|right; now right].
                 --- intros y Hy Hn. assert (y = p \/ In y (q :: l)) as [->|Hy'] by (destruct Hy as [H|[H|H]]; [right; now left|left; auto|right; now right]).
                     +++ right. destruct Hx' as [<-|HL]; [lia|]. apply PL in HL. lia.
                     +++ apply W3; auto.
              ** assert (INC : forall z, In z (q :: l) -> In z (q :: p :: l)) by (intros z [Hz|Hz]; [now left|right; now right]).
                 split; [auto|]. split.
                 --- intros y Hy Hn. destruct (W2 y (INC y Hy) Hn) as (V1 & V2 & V3). split; [auto|]. split; [auto|]. intros HF.
                     assert (y = q) by (apply FF'; auto). subst y. lia.
                 --- intros y Hy Hn. apply W3; auto.
        -- assert (INC : forall z, In z (q :: l) -> In z (q :: p :: l)) by (intros z [Hz|Hz]; [now left|right; now right]).
           assert (CNT : counts (p :: q :: l) (rr_conflict true (fun x => In x (q :: p :: l))) n).
           { eapply counts_cons_no; [| |exact I3].
             - intros (_ & f & Hf & Hn & HF & Hc). assert (f = q) by (apply FF; auto). subst f.
               destruct Hc as [Hc|[Hc|[Hc|((y & Hy & Hny & Hyx) & Hc)]]]; [discriminate|lia|lia|].
               specialize (Hc q (or_introl eq_refl) Hn). lia.
             - intros x Hx. unfold rr_conflict. split.
               + intros (_ & f & Hf & Hn & HF & Hc). assert (f = q) by (apply FF'; auto). subst f. split; [auto|]. exists q. split; [now left|]. split; [auto|]. split; [exact FQ|].
                 destruct Hc as [Hc|[Hc|[Hc|((y & Hy & Hny & Hyx) & Hc)]]]; [discriminate|lia|tauto|]. right. right. right. split; [exists y; auto|].
                 intros z Hz Hnz. assert (z = p \/ In z (q :: l)) as [->|Hz'] by (destruct Hz as [H|[H|H]]; [right; now left|left; auto|right; now right]); [|auto].
                 specialize (Hc q (or_introl eq_refl) Hn). lia.
               + intros (_ & f & Hf & Hn & HF & Hc). assert (f = q) by (apply FF; auto). subst f. split; [auto|]. exists q. split; [now left|]. split; [auto|]. split; [exact FQ'|].
                 destruct Hc as [Hc|[Hc|[Hc|((y & Hy & Hny & Hyx) & Hc)]]]; [discriminate|lia|tauto|]. right. right. right. split.
                 * exists y. split; [|auto]. destruct Hy as [Hy|[<-|Hy]]; [now left| |now right]. exfalso. specialize (Hc q (or_introl eq_refl) Hn). lia.
                 * intros z Hz. apply Hc. auto. }
           destruct CNT as (L & N1 & N2 & N3). exists L. split; [auto|]. split; [auto|]. intros x. rewrite N3. cbn [In]. tauto.
      * (* p is a conflict *)
        assert (C : flag = false \/ a_prec q = 0 \/ a_prec p = 0 \/ a_prec p = a_prec q).
        { destruct flag; [|auto]. right. cbn [andb] in C1, C2. destruct (0 <? a_prec q) eqn:D1; [|left; apply Nat.ltb_ge in D1; lia].
          destruct (0 <? a_prec p) eqn:D2; [|right; left; apply Nat.ltb_ge in D2; lia]. cbn [andb] in C1, C2. apply Nat.ltb_ge in C1, C2. lia. }
        clear C1 C2.
        destruct (rr_ph flag q l) as [[q1 r'] k'] eqn:E'. inversion E; subst. destruct (IH q SQ ZQ _ _ _ E') as (I1 & I2 & I3). cbn [map] in I1.
        assert (J1 : sup 0 q' = q) by congruence. assert (J2 : map (sup 0) r' = l) by congruence.
        split; [cbn [map]; rewrite sup_sup, J1, J2, (sup_supp p Zp); reflexivity|].
        assert (MEM : forall x, In x (q :: l) -> (In x (q' :: sup 1 p :: r') <-> In x (q' :: r'))).
        { intros x Hx. cbn [In]. split; [intros [H|[H|H]]; auto; exfalso; apply (f_equal a_supp) in H; cbn in H; rewrite (ZQ x Hx) in H; lia|tauto]. }
        assert (INC : forall z, In z (q :: l) -> In z (q :: p :: l)) by (intros z [Hz|Hz]; [now left|right; now right]).
        split.
        -- intros x Hx. assert (x = p \/ In x (q :: l)) as [->|Hx'] by (destruct Hx as [H|[H|H]]; [right; now left|left; auto|right; now right]).
           ++ split.
              ** intros [H|[H|H]]; exfalso.
                 --- assert (HH : sup 0 q' = sup 0 p) by (now rewrite H). rewrite J1, sup_supp in HH; auto.
                 --- apply (f_equal a_supp) in H. cbn in H. lia.
                 --- apply (in_map (sup 0)) in H. rewrite J2, sup_supp in H; auto.
              ** intros (_ & H & _). exfalso. destruct (H q) as (H1 & H' & H''); [now left|auto|]. specialize (H'' FQ). subst flag. destruct C as [C|C]; [discriminate|lia].
           ++ rewrite (MEM x Hx'), (I2 x Hx'). unfold wins. split; intros (W1 & W2 & W3).
              ** split; [auto|]. split.
                 --- intros y Hy Hn. assert (y = p \/ In y (q :: l)) as [->|Hy'] by (destruct Hy as [H|[H|H]]; [right; now left|left; auto|right; now right]).
                     +++ destruct Hx' as [<-|HL]; [lia|]. destruct (W2 q) as (V1 & V2 & V3); [now left|now apply QL|]. specialize (V3 FQ'). split; [auto|].
                         subst flag. destruct C as [C|C]; [discriminate|]. split; [lia|]. intros HF. apply FF in HF; [|right; now left]. contradiction.
                     +++ destruct (W2 y Hy' Hn) as (V1 & V2 & V3). split; [auto|]. split; [auto|]. intros HF. apply V3. intros z Hz. apply HF. auto.
                 --- intros y Hy Hn. assert (y = p \/ In y (q :: l)) as [->|Hy'] by (destruct Hy as [H|[H|H]]; [right; now left|left; auto|right; now right]).
                     +++ destruct Hx' as [<-|HL]; [destruct C as [C|C]; [auto|lia]|]. apply PL in HL. lia.
                     +++ apply W3; auto.
              ** split; [auto|]. split.
                 --- intros y Hy Hn. destruct (W2 y (INC y Hy) Hn) as (V1 & V2 & V3). split; [auto|]. split; [auto|]. intros HF.
                     assert (y = q) by (apply FF'; auto). subst y. now apply V3.
                 --- intros y Hy Hn. apply W3; auto.
        -- assert (CNT : counts (p :: q :: l) (rr_conflict flag (fun x => In x (q :: p :: l))) (S k')).
           { eapply counts_cons_yes; [| | |exact I3].
             - intros [H|H]; auto.
             - split; [right; now left|]. exists q. split; [now left|]. split; [auto|]. split; [exact FQ|].
               destruct C as [C|[C|[C|C]]]; [auto..|]. right. right. right. split; [exists q; split; [now left|]; split; auto|].
               intros z [<-|Hz] Hnz; [lia|]. apply FP' in Hz. lia.
             - intros x Hx. unfold rr_conflict. split.
               + intros (_ & f & Hf & Hn & HF & Hc). assert (f = q) by (apply FF'; auto). subst f. split; [auto|]. exists q. split; [now left|]. split; [auto|]. split; [exact FQ|].
                 destruct Hc as [Hc|[Hc|[Hc|((y & Hy & Hny & Hyx) & Hc)]]]; [tauto..|].
                 destruct C as [C|[C|C]]; [auto|auto|]. right. right. right. split; [exists y; auto|].
                 intros z Hz Hnz. assert (z = p \/ In z (q :: l)) as [->|Hz'] by (destruct Hz as [H|[H|H]]; [right; now left|left; auto|right; now right]); [|auto].
                 specialize (Hc q (or_introl eq_refl) Hn). lia.
               + intros (_ & f & Hf & Hn & HF & Hc). assert (f = q) by (apply FF; auto). subst f. split; [auto|]. exists q. split; [now left|]. split; [auto|]. split; [exact FQ'|].
                 destruct Hc as [Hc|[Hc|[Hc|((y & Hy & Hny & Hyx) & Hc)]]]; [tauto..|].
                 destruct C as [C|[C|C]]; [auto|auto|]. destruct (Nat.eq_dec (a_prec x) 0); [auto|]. right. right. right. split.
                 * destruct Hy as [Hy|[<-|Hy]]; [exists y; split; [now left|auto]| |exists y; split; [now right|auto]].
                   exists q. split; [now left|]. split; [auto|]. lia.
                 * intros z Hz. apply Hc. auto. }
           destruct CNT as (L & N1 & N2 & N3). exists L. split; [auto|]. split; [auto|]. intros x. rewrite N3. cbn [In]. tauto.
Qed.

Lemma wins_ext : forall flag (C D : action -> Prop) p, (forall x, C x <-> D x) -> (wins flag C p <-> wins flag D p).
Proof.
  intros flag C D p H. unfold wins. assert (X : forall C D : action -> Prop, (forall x, C x <-> D x) ->
    C p /\ (forall p', C p' -> a_num p' < a_num p -> flag = true /\ a_prec p' < a_prec p /\ ((forall x, C x -> a_num p' <= a_num x) -> 0 < a_prec p')) /\
    (forall p', C p' -> a_num p < a_num p' -> flag = false \/ a_prec p = 0 \/ a_prec p' <= a_prec p) ->
    D p /\ (forall p', D p' -> a_num p' < a_num p -> flag = true /\ a_prec p' < a_prec p /\ ((forall x, D x -> a_num p' <= a_num x) -> 0 < a_prec p')) /\
    (forall p', D p' -> a_num p < a_num p' -> flag = false \/ a_prec p = 0 \/ a_prec p' <= a_prec p)).
  { clear. intros C D H (A & B & E). split; [now apply H|]. split.
    - intros p' Hp Hn. apply H in Hp. destruct (B p' Hp Hn) as (B1 & B2 & B3). split; [auto|]. split; [auto|]. intros HF. apply B3. intros x Hx. apply HF. now apply H.
    - intros p' Hp Hn. apply H in Hp. auto. }
  split; apply X; [auto|]. intros x. symmetry. auto.
Qed.

Lemma rr_ext : forall flag (C D : action -> Prop) p, (forall x, C x <-> D x) -> (rr_conflict flag C p <-> rr_conflict flag D p).
Proof.
  intros flag C D p H. assert (X : forall C D : action -> Prop, (forall x, C x <-> D x) -> rr_conflict flag C p -> rr_conflict flag D p).
  { clear. intros C D H (A & f & F1 & F2 & F3 & F4). split; [now apply H|]. exists f. split; [now apply H|]. split; [auto|]. split; [intros x Hx; apply F3; now apply H|].
    destruct F4 as [F|[F|[F|((y & Hy & Hny & Hyx) & Hc)]]]; [auto..|]. right. right. right. split; [exists y; split; [now apply H|auto]|]. intros x Hx. apply Hc. now apply H. }
  split; apply X; [auto|]. intros x. symmetry. auto.
Qed.

Definition cont (s : action) (l : list action) (p : action) : Prop := In p l /\ exists p', In p' l /\ a_num p' <= a_num p /\ beats s p'.

Lemma sr_ph_ok : forall flag s l q, a_supp s = 0 -> (q = s \/ q = sup 2 s) -> StronglySorted num_lt l -> (forall p, In p l -> a_supp p = 0) ->
  forall q' l' sr rr, sr_ph flag q l = (q', l', sr, rr) ->
  sup 0 q' = s /\ map (sup 0) l' = l /\
  (q' = s <-> q = s /\ forall r, In r l -> ~ beats s r /\ ~ ties s r) /\
  (forall p, In p l -> (In p l' <-> wins flag (cont s l) p)) /\
  counts l (fun p => (a_prec s = 0 \/ a_prec p = 0) /\ forall p', In p' l -> a_num p' < a_num p -> ~ beats s p') sr /\
  counts l (rr_conflict flag (cont s l)) rr.
Proof.
  intros flag s l q Zs. revert q. assert (NS : sup 2 s <> s) by (intros H; apply (f_equal a_supp) in H; cbn in H; lia).
  induction l as [|p l IH]; intros q HQ SS HZ q' l' sr rr E.
  - cbn in E. inversion E; subst. split; [destruct HQ as [->| ->]; [|rewrite sup_sup]; now apply sup_supp|]. split; [auto|].
    split; [split; [intros H; split; [auto|intros ? []]|tauto]|]. split; [intros ? []|]. split; apply counts_nil; intros ? [].
  - assert (Pq : a_prec q = a_prec s) by (destruct HQ as [->| ->]; auto). assert (Aq : a_assoc q = a_assoc s) by (destruct HQ as [->| ->]; auto).
    assert (SL : StronglySorted num_lt l) by (inversion SS; auto).
    assert (PL : forall x, In x l -> a_num p < a_num x) by (inversion SS as [|? ? S1 S2]; subst; rewrite Forall_forall in S2; exact S2).
    assert (NPL : ~ In p l) by (intros H; apply PL in H; lia).
    assert (Zp : a_supp p = 0) by (apply HZ; now left). assert (ZL : forall x, In x l -> a_supp x = 0) by (intros x Hx; apply HZ; now right).
    assert (SQ : sup 0 (sup 2 q) = s) by (destruct HQ as [->| ->]; rewrite !sup_sup; now apply sup_supp).
    assert (NQ : sup 2 q <> s) by (destruct HQ as [->| ->]; auto).
    (* p beats the shift *)
    assert (BE : beats s p -> forall p1 r1 k1, rr_ph flag p l = (p1, r1, k1) -> (q', l', sr, rr) = (sup 2 q, p1 :: r1, 0, k1) ->
      sup 0 q' = s /\ map (sup 0) l' = p :: l /\ (q' = s <-> q = s /\ forall r, In r (p :: l) -> ~ beats s r /\ ~ ties s r) /\
      (forall x, In x (p :: l) -> (In x l' <-> wins flag (cont s (p :: l)) x)) /\
      counts (p :: l) (fun x => (a_prec s = 0 \/ a_prec x = 0) /\ forall p', In p' (p :: l) -> a_num p' < a_num x -> ~ beats s p') sr /\
      counts (p :: l) (rr_conflict flag (cont s (p :: l))) rr).
    { intros B p1 r1 k1 E1 EE. inversion EE; subst q' l' sr rr. destruct (rr_ph_ok flag l p SS HZ _ _ _ E1) as (R1 & R2 & R3).
      assert (CC : forall x, In x (p :: l) <-> cont s (p :: l) x).
      { intros x. unfold cont. split; [|tauto]. intros Hx. split; [auto|]. exists p. split; [now left|]. split; [destruct Hx as [<-|Hx]; [lia|apply PL in Hx; lia]|auto]. }
      split; [auto|]. split; [auto|]. split; [split; [intros H; exfalso; auto|intros (_ & H); exfalso; destruct (H p) as [H1 _]; [now left|auto]]|].
      split; [intros x Hx; rewrite (R2 x Hx); apply wins_ext; exact CC|]. split.
      - apply counts_nil. intros x Hx (H1 & H2). destruct B as (B1 & B2 & B3). destruct Hx as [<-|Hx]; [lia|]. apply (H2 p); [now left|now apply PL|]. split; [auto|split; auto].
      - eapply counts_ext; [|exact R3]. intros x _. apply rr_ext. exact CC. }
    (* p does not *)
    assert (NB : ~ beats s p -> forall q0 r1 k1 k1' v, v <> 0 -> (q0 = s \/ q0 = sup 2 s) -> sr_ph flag q0 l = (q', r1, k1, k1') -> l' = sup v p :: r1 -> rr = k1' ->
      (q0 = s <-> q = s /\ ~ ties s p) -> 
      (a_prec s = 0 \/ a_prec p = 0) /\ sr = S k1 \/ ~ (a_prec s = 0 \/ a_prec p = 0) /\ sr = k1 ->
      sup 0 q' = s /\ map (sup 0) l' = p :: l /\ (q' = s <-> q = s /\ forall r, In r (p :: l) -> ~ beats s r /\ ~ ties s r) /\
      (forall x, In x (p :: l) -> (In x l' <-> wins flag (cont s (p :: l)) x)) /\
      counts (p :: l) (fun x => (a_prec s = 0 \/ a_prec x = 0) /\ forall p', In p' (p :: l) -> a_num p' < a_num x -> ~ beats s p') sr /\
      counts (p :: l) (rr_conflict flag (cont s (p :: l))) rr).
    { intros B q0 r1 k1 k1' v Nv H0 E1 -> -> HT HS. destruct (IH q0 H0 SL ZL _ _ _ _ E1) as (I1 & I2 & I3 & I4 & I5 & I6).
      assert (CC : forall x, cont s l x <-> cont s (p :: l) x).
      { intros x. unfold cont. split.
        - intros (Hx & y & Hy & Hn & Hb). split; [now right|]. exists y. split; [now right|auto].
        - intros (Hx & y & Hy & Hn & Hb). destruct Hy as [<-|Hy]; [contradiction|]. destruct Hx as [<-|Hx]; [apply PL in Hy; lia|]. split; [auto|]. exists y. auto. }
      assert (NC : ~ cont s (p :: l) p) by (rewrite <- CC; unfold cont; tauto).
      split; [auto|]. split; [cbn [map]; rewrite sup_sup, sup_supp by auto; now rewrite I2|]. split.
      { rewrite I3, HT. split.
        - intros ((H1 & H2) & H3). split; [auto|]. intros r [<-|Hr]; [split; auto|auto].
        - intros (H1 & H2). split; [split; [auto|apply (H2 p); now left]|]. intros r Hr. apply H2. now right. }
      split.
      { intros x [<-|Hx].
        - split; [|intros (W & _); contradiction]. intros [H|H].
          + exfalso. apply (f_equal a_supp) in H. cbn in H. lia.
          + exfalso. apply (in_map (sup 0)) in H. rewrite I2, sup_supp in H; auto.
        - rewrite (wins_ext flag _ _ x (fun y => iff_sym (CC y))), <- (I4 x Hx). cbn [In]. split; [|tauto]. intros [H|H]; [|auto]. exfalso.
          apply (f_equal a_supp) in H. cbn in H. rewrite (ZL x Hx) in H. lia. }
      split.
      { assert (EQ : forall x, In x l -> (((a_prec s = 0 \/ a_prec x = 0) /\ forall p', In p' l -> a_num p' < a_num x -> ~ beats s p') <->
          ((a_prec s = 0 \/ a_prec x = 0) /\ forall p', In p' (p :: l) -> a_num p' < a_num x -> ~ beats s p'))).
        { intros x Hx. split; intros (H1 & H2); (split; [auto|]); [intros y [<-|Hy]; auto|intros y Hy; apply H2; now right]. }
        destruct HS as [(HS & ->)|(HS & ->)].
        - eapply counts_cons_yes; [exact NPL| |exact EQ|exact I5]. split; [auto|]. intros y [<-|Hy] Hn; [lia|apply PL in Hy; lia].
        - eapply counts_cons_no; [|exact EQ|exact I5]. intros (H & _). auto. }
      eapply counts_cons_no; [| |exact I6]; [intros (H & _); contradiction|]. intros x _. apply rr_ext. exact CC. }
    cbn [sr_ph] in E. rewrite Pq, Aq in E.
    destruct ((0 <? a_prec s) && (0 <? a_prec p)) eqn:C.
    + apply andb_true_iff in C as (Ca & Cb). apply ltb_t in Ca, Cb.
      destruct (a_prec s <? a_prec p) eqn:D1.
      { apply ltb_t in D1. destruct (rr_ph flag p l) as [[p1 r1] k1] eqn:E1. eapply BE; [|reflexivity|auto]. split; [auto|split; [auto|lia]]. }
      apply Nat.ltb_ge in D1. destruct (a_prec p <? a_prec s) eqn:D2.
      { apply ltb_t in D2. destruct (sr_ph flag q l) as [[[q1 r1] k1] k1'] eqn:E1. inversion E; subst q' l' sr rr. eapply (NB) with (q0 := q) (v := 2); try exact E1; auto.
        - intros (_ & _ & [H|[H _]]); lia.
        - unfold ties. split; [intros H; split; [auto|lia]|tauto].
        - right. split; [lia|auto]. }
      apply Nat.ltb_ge in D2. assert (D : a_prec s = a_prec p) by lia.
      destruct (is_left (a_assoc s)) eqn:D3.
      { destruct (rr_ph flag p l) as [[p1 r1] k1] eqn:E1. eapply BE; [|reflexivity|auto]. split; [auto|split; [auto|]]. right. split; [auto|]. destruct (a_assoc s); auto; discriminate. }
      assert (NL : a_assoc s <> LEFT) by (intros H; rewrite H in D3; discriminate).
      destruct (is_right (a_assoc s)) eqn:D4.
      { destruct (sr_ph flag q l) as [[[q1 r1] k1] k1'] eqn:E1. inversion E; subst q' l' sr rr. eapply (NB) with (q0 := q) (v := 2); try exact E1; auto.
        - intros (_ & _ & [H|[_ H]]); [lia|contradiction].
        - unfold ties. split; [|tauto]. intros H. split; [auto|]. intros (_ & _ & _ & H'). apply H'. destruct (a_assoc s); auto; discriminate.
        - right. split; [lia|auto]. }
      assert (NR : a_assoc s <> RIGHT) by (intros H; rewrite H in D4; discriminate).
      destruct (sr_ph flag (sup 2 q) l) as [[[q1 r1] k1] k1'] eqn:E1. inversion E; subst q' l' sr rr. eapply (NB) with (q0 := sup 2 q) (v := 2); try exact E1; auto.
      * intros (_ & _ & [H|[_ H]]); [lia|contradiction].
      * right. destruct HQ as [->| ->]; [auto|apply sup_sup].
      * split; [intros H; contradiction|]. intros (_ & H). exfalso. apply H. unfold ties. auto.
      * right. split; [lia|auto].
    + assert (ZZ : a_prec s = 0 \/ a_prec p = 0). { apply andb_false_iff in C as [C|C]; apply Nat.ltb_ge in C; lia. }
      destruct (sr_ph flag q l) as [[[q1 r1] k1] k1'] eqn:E1. inversion E; subst q' l' sr rr. eapply (NB) with (q0 := q) (v := 1); try exact E1; auto.
      * intros (H1 & H2 & _). lia.
      * split; [|tauto]. intros H. split; [auto|]. intros (H1 & H2 & _). lia.
Qed.

(** ** Groups and the whole list *)
Definition resolve (flag fin : bool) (a : action) (l : list action) : action * list action * nat * nat :=
  if fin && (a_sym a =? 0) then (a, map (sup 1) l, length l, 0)
  else if a_shift a then sr_ph flag a l
  else let '(a', l', n) := rr_ph flag a l in (a', l', 0, n).

Lemma lt_irrefl : forall a, ~ act_lt a a.
Proof. intros a [H|(_ & [(H1 & H2)|(_ & _ & H)])]; [lia|congruence|lia]. Qed.
Lemma sorted_nodup : forall l, StronglySorted act_lt l -> NoDup l.
Proof. induction l as [|a l IH]; intros H; [constructor|]. inversion H as [|? ? H1 H2]; subst. constructor; [|auto]. intros Hi. rewrite Forall_forall in H2. apply (lt_irrefl a). auto. Qed.

Lemma group_ok : forall flag fin a l a' l' sr rr, StronglySorted act_lt (a :: l) -> (forall p, In p l -> a_sym p = a_sym a) -> (forall p, In p (a :: l) -> a_supp p = 0) ->
  resolve flag fin a l = (a', l', sr, rr) -> res_ok flag fin (a :: l) (a' :: l') sr rr.
Proof.
  intros flag fin a l a' l' sr rr SS HS HZ E. unfold resolve in E.
  assert (SA : forall p, In p (a :: l) -> a_sym p = a_sym a) by (intros p [<-|Hp]; auto).
  assert (LT : forall p, In p l -> act_lt a p) by (inversion SS as [|? ? S1 S2]; subst; rewrite Forall_forall in S2; exact S2).
  assert (LR : forall p, In p l -> a_shift p = false).
  { intros p Hp. destruct (LT p Hp) as [H|(_ & [(_ & H)|(_ & H & _)])]; auto. rewrite (HS p Hp) in H. lia. }
  assert (NSL : StronglySorted num_lt l).
  { assert (S1 : StronglySorted act_lt l) by (inversion SS; auto). clear - S1 HS LR. revert HS LR. induction S1 as [|x l S1 IH S2]; intros HS LR; constructor.
    - apply IH; intros p Hp; [apply HS|apply LR]; now right.
    - rewrite Forall_forall in *. intros y Hy. destruct (S2 y Hy) as [H|(_ & [(H & _)|(_ & _ & H)])]; [|rewrite (LR x) in H; [discriminate|now left]|exact H].
      rewrite (HS x), (HS y) in H; [lia|now right|now left]. }
  assert (ND : NoDup (a :: l)) by (now apply sorted_nodup).
  destruct (fin && (a_sym a =? 0)) eqn:F.
  - inversion E; subst a' l' sr rr.
    assert (S0 : forall p, In p (a :: l) -> fin && (a_sym p =? 0) = true) by (intros p Hp; rewrite (SA p Hp); exact F).
    assert (A0 : a_sym a = 0) by (apply andb_true_iff in F as (_ & F); apply Nat.eqb_eq in F; auto).
    constructor.
    + cbn [map]. rewrite map_map. rewrite (map_ext _ (sup 0)) by reflexivity. rewrite (map_sup_id (a :: l)) with (1 := HZ) || (rewrite sup_supp by (apply HZ; now left); f_equal; apply map_sup_id; intros p Hp; apply HZ; now right).
    + intros p Hp. unfold live_spec. rewrite (S0 p Hp). split.
      * intros [<-|Hi]; [|exfalso; apply in_map_iff in Hi as (y & <- & Hy); specialize (HZ _ Hp); cbn in HZ; lia].
        intros y [<-|Hy] _; [apply lt_irrefl|]. intros H. destruct H as [H|(_ & [(H1 & H2)|(_ & H1 & H2)])].
        -- rewrite (HS y Hy) in H. lia.
        -- rewrite (LR y Hy) in H1. discriminate.
        -- destruct (LT y Hy) as [H|(_ & [(H & _)|(_ & _ & H)])]; [rewrite (HS y Hy) in H; lia|congruence|lia].
      * intros H. left. destruct Hp as [<-|Hp]; [auto|]. exfalso. apply (H a); [now left|auto|auto].
    + eapply counts_cons_no with (P := fun _ => True).
      * unfold sr_spec. rewrite F. intros (y & Hy & _ & H). destruct Hy as [<-|Hy]; [now apply lt_irrefl in H|].
        destruct H as [H|(_ & [(H1 & H2)|(_ & H1 & H2)])].
        -- rewrite (HS y Hy) in H. lia.
        -- rewrite (LR y Hy) in H1. discriminate.
        -- destruct (LT y Hy) as [H|(_ & [(H & _)|(_ & _ & H)])]; [rewrite (HS y Hy) in H; lia|congruence|lia].
      * intros p Hp. unfold sr_spec. rewrite (S0 p (or_intror Hp)). split; [intros _|auto]. exists a. split; [now left|]. split; auto.
      * apply counts_all; [|auto]. now inversion ND.
    + apply counts_nil. intros p Hp (H & _). rewrite (S0 p Hp) in H. discriminate.
  - assert (S0 : forall p, In p (a :: l) -> fin && (a_sym p =? 0) = false) by (intros p Hp; rewrite (SA p Hp); exact F).
    destruct (a_shift a) eqn:SH.
    + assert (Za : a_supp a = 0) by (apply HZ; now left).
      destruct (sr_ph_ok flag a l a Za (or_introl eq_refl) NSL (fun p Hp => HZ p (or_intror Hp)) _ _ _ _ E) as (R1 & R2 & R3 & R4 & R5 & R6).
      assert (RO : forall p, reds_on (a :: l) (a_sym a) p <-> In p l).
      { intros p. unfold reds_on. split; [intros ([<-|H] & _ & H'); [congruence|auto]|]. intros H. split; [now right|]. split; auto. }
      assert (SO : forall p, shifts_on (a :: l) (a_sym a) p <-> p = a).
      { intros p. unfold shifts_on. split; [intros ([<-|H] & _ & H'); [auto|rewrite (LR p H) in H'; discriminate]|]. intros ->. split; [now left|auto]. }
      assert (CO : forall p, cont a l p <-> contender (a :: l) (a_sym a) p).
      { intros p. unfold cont, contender. rewrite RO. split.
        - intros (H & y & Hy & Hn & Hb). split; [auto|]. right. exists a, y. rewrite SO, RO. auto.
        - intros (H & [H'|(s & y & Hs & Hy & Hn & Hb)]); [exfalso; apply (H' a); now apply SO|]. apply SO in Hs. subst s. apply RO in Hy. split; [auto|]. exists y. auto. }
      assert (NA : forall p, In p l -> p <> a) by (intros p Hp ->; inversion ND; contradiction).
      constructor.
      * cbn [map]. now rewrite R1, R2.
      * intros p Hp. unfold live_spec. rewrite (S0 p Hp). destruct Hp as [<-|Hp].
        -- rewrite SH. transitivity (a' = a).
           { split; [|now left]. intros [H|H]; [auto|]. exfalso. apply (in_map (sup 0)) in H. rewrite R2, sup_supp in H by auto. inversion ND; contradiction. }
           rewrite R3. split; [intros (_ & H) r Hr; apply H; now apply RO|]. intros H. split; [auto|]. intros r Hr. apply H. now apply RO.
        -- rewrite (LR p Hp), (HS p Hp). rewrite <- (wins_ext flag _ _ p CO), <- (R4 p Hp). cbn [In]. split; [|tauto]. intros [H|H]; [|auto]. exfalso.
           assert (Zp : a_supp p = 0) by (apply HZ; now right). assert (HH : sup 0 a' = sup 0 p) by (now rewrite H). rewrite R1, (sup_supp p Zp) in HH. eapply NA; eauto.
      * eapply counts_cons_no; [| |exact R5].
        -- unfold sr_spec. rewrite F, SH. intros (H & _). discriminate.
        -- intros p Hp. unfold sr_spec. rewrite (S0 p (or_intror Hp)), (LR p Hp), (HS p Hp). split.
           ++ intros (H1 & H2). split; [auto|]. exists a. split; [now apply SO|]. split; [auto|]. intros y Hy. apply H2. now apply RO.
           ++ intros (_ & s & Hs & H1 & H2). apply SO in Hs. subst s. split; [auto|]. intros y Hy. apply H2. now apply RO.
      * eapply counts_cons_no; [| |exact R6].
        -- unfold rr_spec. intros (_ & H & _). apply CO in H as (H & _). eapply NA; eauto.
        -- intros p Hp. unfold rr_spec. rewrite (S0 p (or_intror Hp)), (HS p Hp). rewrite (rr_ext flag _ _ p CO). tauto.
    + destruct (rr_ph flag a l) as [[a1 l1] n1] eqn:E1. inversion E; subst a1 l1 sr n1.
      assert (NSA : StronglySorted num_lt (a :: l)).
      { constructor; [auto|]. rewrite Forall_forall. intros p Hp. destruct (LT p Hp) as [H|(_ & [(H & _)|(_ & _ & H)])]; [rewrite (HS p Hp) in H; lia|congruence|exact H]. }
      destruct (rr_ph_ok flag l a NSA HZ _ _ _ E1) as (R1 & R2 & R3).
      assert (LRA : forall p, In p (a :: l) -> a_shift p = false) by (intros p [<-|Hp]; auto).
      assert (SO : forall p, ~ shifts_on (a :: l) (a_sym a) p) by (intros p (H1 & _ & H2); rewrite (LRA p H1) in H2; discriminate).
      assert (CO : forall p, In p (a :: l) <-> contender (a :: l) (a_sym a) p).
      { intros p. unfold contender, reds_on. split; [|tauto]. intros H. split; [split; [auto|split; auto]|]. left. exact SO. }
      constructor.
      * exact R1.
      * intros p Hp. unfold live_spec. rewrite (S0 p Hp), (LRA p Hp), (SA p Hp), (R2 p Hp). apply wins_ext. exact CO.
      * apply counts_nil. intros p Hp. unfold sr_spec. rewrite (S0 p Hp), (SA p Hp). intros (_ & s & Hs & _). now apply SO in Hs.
      * eapply counts_ext; [|exact R3]. intros p Hp. unfold rr_spec. rewrite (S0 p Hp), (SA p Hp). rewrite (rr_ext flag _ _ p CO). tauto.
Qed.

(** Only the actions with the same token matter. *)
Lemma spec_local : forall flag fin A B p, (forall x, a_sym x = a_sym p -> (In x A <-> In x B)) ->
  (live_spec flag fin A p <-> live_spec flag fin B p) /\ (sr_spec flag fin A p <-> sr_spec flag fin B p) /\ (rr_spec flag fin A p <-> rr_spec flag fin B p).
Proof.
  intros flag fin A B p H.
  assert (RO : forall x, reds_on A (a_sym p) x <-> reds_on B (a_sym p) x).
  { intros x. unfold reds_on. split; intros (H1 & H2 & H3); (split; [apply H; auto|auto]). }
  assert (SO : forall x, shifts_on A (a_sym p) x <-> shifts_on B (a_sym p) x).
  { intros x. unfold shifts_on. split; intros (H1 & H2 & H3); (split; [apply H; auto|auto]). }
  assert (CO : forall x, contender A (a_sym p) x <-> contender B (a_sym p) x).
  { intros x. unfold contender. rewrite RO. split; intros (H1 & H2); (split; [auto|]); (destruct H2 as [H2|(s & y & Hs & Hy & Hr)]; [left; intros s Hs; apply (H2 s); now apply SO|]);
      right; exists s, y; (split; [now apply SO|]); (split; [now apply RO|auto]). }
  assert (Z0 : forall x, fin && (a_sym p =? 0) = true -> a_sym x = 0 -> (In x A <-> In x B)).
  { intros x E Ex. apply andb_true_iff in E as (_ & E). apply Nat.eqb_eq in E. apply H. congruence. }
  split; [|split].
  - unfold live_spec. destruct (fin && (a_sym p =? 0)) eqn:E.
    + split; intros HH x Hx Hs; apply HH; auto; now apply (Z0 x eq_refl Hs).
    + destruct (a_shift p); [|now apply wins_ext]. split; intros HH r Hr; apply HH; now apply RO.
  - unfold sr_spec. destruct (fin && (a_sym p =? 0)) eqn:E.
    + split; intros (x & Hx & Hs & Hl); exists x; (split; [now apply (Z0 x eq_refl Hs)|auto]).
    + split; intros (H1 & s & Hs & H2 & H3); (split; [auto|]); exists s; (split; [now apply SO|]); (split; [auto|]); intros x Hx; apply H3; now apply RO.
  - unfold rr_spec. rewrite (rr_ext flag _ _ p CO). tauto.
Qed.

Lemma res_app : forall flag fin A A' sa ra B B' sb rb, (forall x y, In x A -> In y B -> a_sym x <> a_sym y) ->
  res_ok flag fin A A' sa ra -> res_ok flag fin B B' sb rb -> res_ok flag fin (A ++ B) (A' ++ B') (sa + sb) (ra + rb).
Proof.
  intros flag fin A A' sa ra B B' sb rb D [A1 A2 A3 A4] [B1 B2 B3 B4].
  assert (LA : forall p, In p A -> forall x, a_sym x = a_sym p -> (In x (A ++ B) <-> In x A)).
  { intros p Hp x Hx. rewrite in_app_iff. split; [|tauto]. intros [H|H]; [auto|]. exfalso. eapply D; eauto. }
  assert (LB : forall p, In p B -> forall x, a_sym x = a_sym p -> (In x (A ++ B) <-> In x B)).
  { intros p Hp x Hx. rewrite in_app_iff. split; [|tauto]. intros [H|H]; [|auto]. exfalso. eapply D; eauto. }
  constructor.
  - rewrite map_app. congruence.
  - intros p Hp. apply in_app_iff in Hp as [Hp|Hp].
    + rewrite (proj1 (spec_local flag fin _ _ p (LA p Hp))), <- (A2 p Hp). rewrite in_app_iff. split; [|tauto]. intros [H|H]; [auto|]. exfalso.
      apply (in_map (sup 0)) in H. rewrite B1 in H. apply (D p _ Hp H). reflexivity.
    + rewrite (proj1 (spec_local flag fin _ _ p (LB p Hp))), <- (B2 p Hp). rewrite in_app_iff. split; [|tauto]. intros [H|H]; [|auto]. exfalso.
      apply (in_map (sup 0)) in H. rewrite A1 in H. apply (D _ p H Hp). reflexivity.
  - apply counts_app; [intros p H1 H2; eapply D; eauto| |].
    + eapply counts_ext; [|exact A3]. intros p Hp. symmetry. apply (spec_local flag fin _ _ p (LA p Hp)).
    + eapply counts_ext; [|exact B3]. intros p Hp. symmetry. apply (spec_local flag fin _ _ p (LB p Hp)).
  - apply counts_app; [intros p H1 H2; eapply D; eauto| |].
    + eapply counts_ext; [|exact A4]. intros p Hp. symmetry. apply (spec_local flag fin _ _ p (LA p Hp)).
    + eapply counts_ext; [|exact B4]. intros p Hp. symmetry. apply (spec_local flag fin _ _ p (LB p Hp)).
Qed.

(** The actions with the same token as the first. *)
Lemma first_group : forall l t, StronglySorted act_lt l -> (forall x, In x l -> t <= a_sym x) ->
  exists l1 l2, l = l1 ++ l2 /\ (forall x, In x l1 -> a_sym x = t) /\ (forall x, In x l2 -> t < a_sym x).
Proof.
  induction l as [|a l IH]; intros t SS HT; [exists [], []; repeat split; intros ? []|]. inversion SS as [|? ? S1 S2]; subst.
  assert (T : t <= a_sym a) by (apply HT; now left). destruct (Nat.eq_dec (a_sym a) t) as [E|N].
  - destruct (IH t S1) as (l1 & l2 & -> & H1 & H2); [intros x Hx; apply HT; now right|]. exists (a :: l1), l2. split; [auto|]. split; [intros x [<-|Hx]; auto|auto].
  - exists [], (a :: l). split; [auto|]. split; [intros ? []|]. intros x [<-|Hx]; [lia|]. rewrite Forall_forall in S2. destruct (S2 x Hx) as [H|(H & _)]; lia.
Qed.

Lemma sorted_app : forall l1 l2, StronglySorted act_lt (l1 ++ l2) -> StronglySorted act_lt l1 /\ StronglySorted act_lt l2.
Proof.
  induction l1 as [|a l1 IH]; intros l2 H; [split; [constructor|auto]|]. inversion H as [|? ? H1 H2]; subst. destruct (IH l2 H1) as (A & B). split; [|auto].
  constructor; [auto|]. rewrite Forall_forall in *. intros x Hx. apply H2. apply in_app_iff. now left.
Qed.

Lemma rc_all : forall flag fin m l done sym pref sr rr, length l <= m -> StronglySorted act_lt l -> (forall p, In p l -> a_supp p = 0) ->
  (forall p, In p l -> sym <> Some (a_sym p)) ->
  exists l' sr' rr', rc_loop flag fin (length l) (length done) (done ++ l) sym pref sr rr = Ok (done ++ l', sr + sr', rr + rr') /\ res_ok flag fin l l' sr' rr'.
Proof.
  intros flag fin. induction m as [|m IH]; intros l dn sym pref sr rr Hm SS HZ HS.
  - destruct l; [|cbn in Hm; lia]. exists [], 0, 0. split; [cbn; rewrite !Nat.add_0_r; reflexivity|]. constructor; [auto|intros ? []|apply counts_nil; intros ? []|apply counts_nil; intros ? []].
  - destruct l as [|a l]. { exists [], 0, 0. split; [cbn; rewrite !Nat.add_0_r; reflexivity|]. constructor; [auto|intros ? []|apply counts_nil; intros ? []|apply counts_nil; intros ? []]. }
    inversion SS as [|? ? S1 S2]; subst. rewrite Forall_forall in S2.
    destruct (first_group l (a_sym a) S1) as (l1 & l2 & -> & G1 & G2); [intros x Hx; destruct (S2 x Hx) as [H|(H & _)]; lia|].
    assert (SG : StronglySorted act_lt (a :: l1)) by (change (a :: l1 ++ l2) with ((a :: l1) ++ l2) in SS; apply (sorted_app _ _ SS)).
    assert (SR : StronglySorted act_lt l2) by (apply (sorted_app _ _ S1)).
    assert (RED : forall p, In p l1 -> a_shift p = false).
    { intros p Hp. destruct (S2 p) as [H|(_ & [(_ & H)|(_ & H & _)])]; auto; [apply in_app_iff; auto|]. rewrite (G1 p Hp) in H. lia. }
    destruct (resolve flag fin a l1) as [[[a' l1'] s1] r1] eqn:ER.
    assert (GO : res_ok flag fin (a :: l1) (a' :: l1') s1 r1).
    { eapply group_ok; eauto. intros p [<-|Hp]; apply HZ; [now left|right; apply in_app_iff; auto]. }
    assert (EX : exists ip, rc_loop flag fin (length (a :: l1 ++ l2)) (length dn) (dn ++ a :: l1 ++ l2) sym pref sr rr =
      rc_loop flag fin (length l2) (length (dn ++ a' :: l1')) ((dn ++ a' :: l1') ++ l2) (Some (a_sym a)) ip (sr + s1) (rr + r1)).
    { cbn [length rc_loop]. rewrite nth_at. cbn [opt bind].
      assert (X : match sym with Some s => a_sym a =? s | None => false end = false).
      { destruct sym as [s|]; [|auto]. apply Nat.eqb_neq. intros H. apply (HS a); [now left|]. congruence. }
      rewrite X. cbn [negb]. rewrite app_length. 
      assert (LL : length (a' :: l1') = length (a :: l1)) by (rewrite <- (ro_same _ _ _ _ _ _ GO), map_length; reflexivity). cbn [length] in LL.
      replace (S (length dn)) with (length (dn ++ a :: [])) by (rewrite app_length; cbn; lia).
      assert (LE : length (dn ++ [a]) + length l1 = length (dn ++ a' :: l1')) by (rewrite !app_length; cbn; lia).
      unfold resolve in ER. destruct (fin && (a_sym a =? 0)) eqn:F.
      - inversion ER; subst. pose proof (fin_loop flag fin l1 a' dn [] l2 (length l2) sr rr (Some (length dn)) G1 F) as FL. cbn [app] in FL. rewrite FL. exists (Some (length dn)).
        rewrite LE, <- app_assoc. cbn [app]. rewrite Nat.add_0_r. reflexivity.
      - destruct (a_shift a) eqn:SH.
        + destruct (sr_loop flag fin l1 a dn [] l2 (length l2) sr rr G1 F SH RED _ _ _ _ ER) as (ip & IP). cbn [app] in IP. rewrite IP. exists (Some ip).
          rewrite LE, <- app_assoc. reflexivity.
        + destruct (rr_ph flag a l1) as [[a1 l1''] n1] eqn:E1. inversion ER; subst.
          destruct (rr_loop flag fin l1 a dn [] l2 (length l2) sr rr G1 F SH RED _ _ _ E1) as (ip & IP). cbn [app] in IP. rewrite IP. exists (Some ip).
          rewrite LE, <- app_assoc, Nat.add_0_r. reflexivity. }
    destruct EX as (ip & EX). rewrite EX.
    destruct (IH l2 (dn ++ a' :: l1') (Some (a_sym a)) ip (sr + s1) (rr + r1)) as (l2' & s2 & r2 & E2 & O2); auto.
    + cbn in Hm. rewrite app_length in Hm. lia.
    + intros p Hp. apply HZ. right. apply in_app_iff. auto.
    + intros p Hp H. apply G2 in Hp. inversion H. lia.
    + exists ((a' :: l1') ++ l2'), (s1 + s2), (r1 + r2). split.
      * rewrite E2. rewrite <- app_assoc, !Nat.add_assoc. reflexivity.
      * change (a :: l1 ++ l2) with ((a :: l1) ++ l2). apply res_app; auto. intros x y Hx Hy HE. apply G2 in Hy. destruct Hx as [<-|Hx]; [lia|]. apply G1 in Hx. lia.
Qed.

Theorem remove_conflicts1_ok : forall flag fin acts, StronglySorted act_lt acts -> (forall p, In p acts -> a_supp p = 0) ->
  exists acts' sr rr, remove_conflicts1 flag fin acts = Ok (acts', sr, rr) /\ res_ok flag fin acts acts' sr rr.
Proof.
  intros flag fin acts SS HZ. destruct (rc_all flag fin (length acts) acts [] None None 0 0 (le_n _) SS HZ) as (l' & sr & rr & E & O); [discriminate|].
  exists l', sr, rr. split; [exact E|exact O].
Qed.
