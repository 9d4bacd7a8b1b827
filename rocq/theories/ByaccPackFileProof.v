(** Packing what the byacc reader has read. *)
From Coq Require Import String List Arith ZArith Bool Lia.
Import ListNotations.
From Verif Require Import Base SpecGrammar SpecGrammarFacts SpecByacc LemonTableModel LemonPreModel LemonCodeModel ByaccLr0Model ByaccParModel ByaccActionsProof ByaccTablesProof
  ByaccReaderModel Prop_ByaccReader ByaccRulesModel Prop_ByaccMidrule ByaccScanModel ByaccPackModel.
Open Scope rd_scope.

Lemma rmap_ok : forall A B (f : A -> rd B) (h : A -> B) l, (forall x, In x l -> f x = ROk (h x)) -> rmap f l = ROk (map h l).
Proof.
  intros A B f h. induction l as [|x l IH]; intros H; [reflexivity|]. cbn [rmap map]. rewrite H by now left. cbn [rbind]. rewrite IH by (intros y I; apply H; now right). reflexivity.
Qed.

Lemma bucket_eqb_iff : forall a b, bucket_eqb a b = true <-> a = b.
Proof.
  intros [i|i] [j|j]; cbn; try (split; discriminate); rewrite Nat.eqb_eq; split; [intros ->; reflexivity|intros H; now injection H|intros ->; reflexivity|intros H; now injection H].
Qed.

Fixpoint bpos (b : bucket) (l : list bucket) : nat := match l with [] => 0 | x :: r => if bucket_eqb x b then 0 else S (bpos b r) end.
Lemma bpos_ok : forall l b, In b l -> bucket_pos b l = ROk (bpos b l) /\ nth_error l (bpos b l) = Some b.
Proof.
  induction l as [|x l IH]; intros b I; [destruct I|]. cbn [bucket_pos bpos]. destruct (bucket_eqb x b) eqn:E.
  - apply bucket_eqb_iff in E. subst. auto.
  - destruct I as [->|I]; [assert (X : bucket_eqb b b = true) by (now apply bucket_eqb_iff); congruence|]. destruct (IH b I) as (-> & H). auto.
Qed.

(** * Strings under an injective renaming *)

Definition rename {A B} (f : A -> B) (R : list (A * list A)) : list (B * list B) := map (fun p => (f (fst p), map f (snd p))) R.

Lemma yields_map : forall A B (f : A -> B) (D : A -> Prop) R, (forall x y, D x -> D y -> f x = f y -> x = y) -> (forall x r, In (x, r) R -> D x /\ Forall D r) ->
  forall l w, yields R l w -> Forall D l -> yields (rename f R) (map f l) (map f w) /\ Forall D w.
Proof.
  intros A B f D R INJ DR l w H. induction H as [|x l w N H IH|x r l w w' I H1 IH1 H2 IH2]; intros FD.
  - split; constructor.
  - destruct (IH (Forall_inv_tail FD)) as (Y & FW). pose proof (Forall_inv FD) as Dx. cbn [map]. split; [|now constructor]. apply yields_token; [|exact Y].
    intros r I. apply in_map_iff in I. destruct I as ((y & r0) & E & I). injection E as E1 E2. cbn [fst] in E1. destruct (DR _ _ I) as (Dy & _). apply INJ in E1; auto. subst y. now apply (N r0).
  - destruct (DR _ _ I) as (_ & Dr). destruct (IH1 Dr) as (Y1 & W1). destruct (IH2 (Forall_inv_tail FD)) as (Y2 & W2). rewrite map_app. split; [|apply Forall_app; auto]. cbn [map].
    apply (yields_rule _ _ (map f r)); auto. apply in_map_iff. exists (x, r). auto.
Qed.

Lemma yields_unmap : forall A B (f : A -> B) (D : A -> Prop) R, (forall x y, D x -> D y -> f x = f y -> x = y) -> (forall x r, In (x, r) R -> D x /\ Forall D r) ->
  forall l' w', yields (rename f R) l' w' -> forall l, l' = map f l -> Forall D l -> exists w, w' = map f w /\ Forall D w /\ yields R l w.
Proof.
  intros A B f D R INJ DR l' w' H. induction H as [|x l' w' N H IH|x r' l' w1 w2 I H1 IH1 H2 IH2]; intros l E FD.
  - destruct l; [|discriminate]. exists []. repeat split; constructor.
  - destruct l as [|y l]; [discriminate|]. injection E as -> ->. destruct (IH l eq_refl (Forall_inv_tail FD)) as (w & -> & FW & Y). exists (y :: w). split; [reflexivity|]. pose proof (Forall_inv FD). split; [now constructor|].
    apply yields_token; [|exact Y]. intros r I. apply (N (map f r)). apply in_map_iff. exists (y, r). auto.
  - destruct l as [|y l]; [discriminate|]. injection E as -> ->. apply in_map_iff in I. destruct I as ((z & r) & E & I). injection E as E1 <-. cbn [fst snd] in *. destruct (DR _ _ I) as (Dz & Dr).
    apply INJ in E1; auto; [|now apply Forall_inv in FD]. subst z. destruct (IH1 r eq_refl Dr) as (v1 & -> & F1 & Y1). destruct (IH2 l eq_refl (Forall_inv_tail FD)) as (v2 & -> & F2 & Y2).
    exists (v1 ++ v2). rewrite map_app. split; [reflexivity|]. split; [apply Forall_app; auto|]. now apply (yields_rule _ _ r).
Qed.

Lemma map_inj_on : forall A B (f : A -> B) (D : A -> Prop), (forall x y, D x -> D y -> f x = f y -> x = y) -> forall u v, Forall D u -> Forall D v -> map f u = map f v -> u = v.
Proof.
  intros A B f D INJ. induction u as [|x u IH]; intros [|y v] Fu Fv E; try discriminate; [reflexivity|]. injection E as E1 E2. f_equal; [apply INJ; auto; [now apply Forall_inv in Fu|now apply Forall_inv in Fv]|].
  apply IH; auto; eapply Forall_inv_tail; eauto.
Qed.

Lemma yields_rename : forall A B (f : A -> B) (D : A -> Prop) R, (forall x y, D x -> D y -> f x = f y -> x = y) -> (forall x r, In (x, r) R -> D x /\ Forall D r) ->
  forall l w, Forall D l -> Forall D w -> (yields R l w <-> yields (rename f R) (map f l) (map f w)).
Proof.
  intros A B f D R INJ DR l w Dl Dw. split; [intros H; now apply (yields_map A B f D R INJ DR)|].
  intros H. destruct (yields_unmap A B f D R INJ DR _ _ H l eq_refl Dl) as (w2 & E & D2 & Y). apply (map_inj_on A B f D INJ) in E; auto. now subst w2.
Qed.

(** * Sentences *)

Lemma yields_app : forall A (R : list (A * list A)) l1 w1 l2 w2, yields R l1 w1 -> yields R l2 w2 -> yields R (l1 ++ l2) (w1 ++ w2).
Proof.
  intros A R l1 w1 l2 w2 H K. induction H as [|x l w N H IH|x r l w w' I H1 IH1 H2 IH2]; [exact K| |].
  - cbn [app]. now apply yields_token.
  - cbn [app]. rewrite <- app_assoc. now apply (yields_rule _ _ r).
Qed.
Lemma yields_split : forall A (R : list (A * list A)) l1 l2 w, yields R (l1 ++ l2) w -> exists w1 w2, w = w1 ++ w2 /\ yields R l1 w1 /\ yields R l2 w2.
Proof.
  intros A R. induction l1 as [|x l1 IH]; intros l2 w H; [exists [], w; repeat split; [constructor|exact H]|]. cbn [app] in H. inversion H as [|y l v N Y|y r l v v' I Y1 Y2]; subst.
  - destruct (IH _ _ Y) as (w1 & w2 & -> & Z1 & Z2). exists (x :: w1), w2. repeat split; auto. now apply yields_token.
  - destruct (IH _ _ Y2) as (w1 & w2 & -> & Z1 & Z2). exists (v ++ w1), w2. rewrite app_assoc. repeat split; auto. now apply (yields_rule _ _ r).
Qed.

Lemma map_sym_app : forall l u v, map ESym l = u ++ v -> exists a b, l = a ++ b /\ u = map ESym a /\ v = map ESym b.
Proof.
  induction l as [|x l IH]; intros u v E.
  - destruct u; [|discriminate]. cbn in E. subst v. exists [], []. auto.
  - destruct u as [|y u]; [cbn in E; subst v; exists [], (x :: l); auto|]. injection E as <- E. destruct (IH _ _ E) as (a & b & -> & -> & ->). exists (x :: a), b. auto.
Qed.
Lemma map_sym_inj : forall l m, map ESym l = map ESym m -> l = m.
Proof. induction l as [|x l IH]; intros [|y m] E; try discriminate; [reflexivity|]. injection E as -> E. f_equal. auto. Qed.

Lemma sentence_yields : forall s w, wf_src s -> (sentence (user s) w <-> Forall (fun t => t < b_ntokens s) w /\ yields (b_rules s) [S (b_ntokens s)] w).
Proof.
  intros s w W. unfold sentence. change (Forall (is_term (user s)) w) with (Forall (fun t => t < b_ntokens s) w).
  assert (NT : forall t r, t < b_ntokens s -> ~ In (t, r) (b_rules s)) by (intros t r L I; apply (ws_rules _ W) in I; lia).
  split; intros (F & H); (split; [exact F|]).
  - assert (G : forall u v, derives (user s) u v -> forall l w, u = map ESym l -> v = map ESym w -> Forall (fun t => t < b_ntokens s) w -> yields (b_rules s) l w); [|eapply G; eauto; reflexivity].
    clear w F H. intros u v D. induction D as [u|u u' v ST D IH]; intros l w Eu Ev F.
    + rewrite Eu in Ev. apply map_sym_inj in Ev. subst w. clear Eu. induction F as [|t l T F IH]; [constructor|]. apply yields_token; [intros r; now apply NT|exact IH].
    + destruct ST as [a b r I|a b ms t I].
      * cbn in I. apply in_map_iff in I. destruct I as ((x & rhs) & <- & I). cbn [r_lhs r_rhs spec_rule fst snd] in *. symmetry in Eu. apply map_sym_app in Eu. destruct Eu as (la & lb' & -> & -> & E2). destruct lb' as [|y lb]; [discriminate|]. injection E2 as <- ->.
        assert (Y : yields (b_rules s) (la ++ rhs ++ lb) w) by (apply IH; auto; now rewrite !map_app).
        apply yields_split in Y. destruct Y as (w1 & w23 & -> & Y1 & Y23). apply yields_split in Y23. destruct Y23 as (w2 & w3 & -> & Y2 & Y3). apply yields_app; [exact Y1|]. now apply (yields_rule _ _ rhs).
      * symmetry in Eu. apply map_sym_app in Eu. destruct Eu as (la & lb & _ & _ & E2). destruct lb; discriminate.
  - assert (G : forall l w, yields (b_rules s) l w -> derives (user s) (map ESym l) (map ESym w)); [|exact (G _ _ H)].
    clear w F H. intros l w H. induction H as [|x l w N H IH|x r l w w' I H1 IH1 H2 IH2].
    + apply derives_refl.
    + cbn [map]. apply (derives_app_r (user s) [ESym x]). exact IH.
    + cbn [map]. rewrite map_app. apply (derives_app (user s) [ESym x] _ (map ESym l)); [|exact IH2]. eapply derives_trans; [|exact IH1].
      apply (derives_rule (user s) (spec_rule (x, r))). cbn. apply in_map_iff. exists (x, r). auto.
Qed.

(** * The precedences *)

Lemma pack_precs_ok : forall z s prec ass expl, wf_src s -> List.length prec = b_nsyms s -> List.length ass = b_nsyms s -> List.length expl = List.length (b_rules s) ->
  exists pr, pack_precs z s prec ass expl = Ok pr /\ wf_prec s pr /\ symbol_prec pr = prec /\ symbol_assoc pr = ass /\
    forall i l rhs e, nth_error (b_rules s) i = Some (l, rhs) -> nth_error expl i = Some e ->
      rule_precedence z (b_ntokens s) prec ass rhs e = Ok (nth (i + 3) (rprec pr) 0, nth (i + 3) (rassoc pr) TOKEN).
Proof.
  intros z s prec ass expl W LP LA LE. unfold pack_precs. set (F := fun '((_, rhs), e) => rule_precedence z (b_ntokens s) prec ass rhs e). set (C := combine (b_rules s) expl).
  destruct (map_res_ok _ _ F C) as (l' & E & LL & N).
  { intros ((l & rhs) & e) I. unfold C in I. apply in_combine_l in I. unfold F.
    destruct (C45_rule_precedence z (b_ntokens s) prec ass rhs e) as (p0 & a0 & E0 & _); [|eauto]. intros x Ix. rewrite LP, LA. destruct (ws_rules _ W _ _ I) as (_ & H). specialize (H x Ix). lia. }
  change (map_res _ C) with (map_res F C). rewrite E. cbn [bind]. eexists. split; [reflexivity|].
  assert (LC : List.length C = List.length (b_rules s)) by (unfold C; rewrite combine_length, LE; lia). split.
  { constructor; cbn [symbol_prec symbol_assoc rprec rassoc]; auto; rewrite app_length, map_length; cbn [List.length]; lia. }
  split; [reflexivity|]. split; [reflexivity|]. intros i l rhs e E1 E2. cbn [rprec rassoc].
  assert (EC : nth_error C i = Some ((l, rhs), e)).
  { unfold C. clear - E1 E2. revert i expl E1 E2. generalize (b_rules s) as u. induction u as [|x u IH]; intros [|i] [|y v] H1 H2; try discriminate; cbn in *; [inversion H1; inversion H2; auto|auto]. }
  destruct (N _ _ EC) as (y & EY & NY). unfold F in EY. rewrite EY. f_equal.
  rewrite !app_nth2 by (cbn; lia). cbn [List.length]. replace (i + 3 - 3) with i by lia.
  rewrite (nth_error_nth (map fst l') i 0 (x := fst y)) by (rewrite nth_error_map, NY; reflexivity). rewrite (nth_error_nth (map snd l') i TOKEN (x := snd y)) by (rewrite nth_error_map, NY; reflexivity). now destruct y.
Qed.
