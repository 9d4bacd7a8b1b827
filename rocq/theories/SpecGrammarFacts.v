(** Facts about derivations, nullability and FIRST, used by all proofs. *)
From Coq Require Import List Arith Lia Bool.
Import ListNotations.
From Verif Require Import Base SpecGrammar.

Section Facts.
Variable g : grammar.

(** Derivations with an explicit number of steps. *)
Inductive dn : nat -> list elem -> list elem -> Prop :=
| dn_0 : forall u, dn 0 u u
| dn_S : forall n u v w, step g u v -> dn n v w -> dn (S n) u w.

Lemma dn_derives : forall n u w, dn n u w -> derives g u w.
Proof. intros n u w H. induction H. apply star_refl. eapply star_step; eauto. Qed.

Lemma derives_dn : forall u w, derives g u w -> exists n, dn n u w.
Proof.
  intros u w H. induction H.
  - exists 0. constructor.
  - destruct IHstar as [n Hn]. exists (S n). econstructor; eauto.
Qed.

Lemma step_app_l : forall u u' v, step g u u' -> step g (u ++ v) (u' ++ v).
Proof.
  intros u u' v H. destruct H.
  - rewrite <- !app_assoc. simpl. apply step_rule; auto.
  - rewrite <- !app_assoc. simpl. apply step_multi; auto.
Qed.

Lemma step_app_r : forall u v v', step g v v' -> step g (u ++ v) (u ++ v').
Proof.
  intros u v v' H. destruct H; rewrite !(app_assoc u u0).
  - apply step_rule; auto.
  - apply step_multi; auto.
Qed.

Lemma derives_refl : forall u, derives g u u.
Proof. intros; apply star_refl. Qed.

Lemma derives_trans : forall u v w, derives g u v -> derives g v w -> derives g u w.
Proof. intros; eapply star_trans; eauto. Qed.

Lemma derives_app_l : forall u u' v, derives g u u' -> derives g (u ++ v) (u' ++ v).
Proof.
  intros u u' v H. induction H. apply star_refl.
  eapply star_step; [apply step_app_l; eauto|auto].
Qed.

Lemma derives_app_r : forall u v v', derives g v v' -> derives g (u ++ v) (u ++ v').
Proof.
  intros u v v' H. induction H. apply star_refl.
  eapply star_step; [apply step_app_r; eauto|auto].
Qed.

Lemma derives_app : forall u u' v v', derives g u u' -> derives g v v' ->
  derives g (u ++ v) (u' ++ v').
Proof.
  intros. eapply derives_trans. apply derives_app_l; eauto. apply derives_app_r; auto.
Qed.

Lemma derives_rule : forall r, In r (g_rules g) -> derives g [ESym (r_lhs r)] (r_rhs r).
Proof.
  intros r H. apply star_one.
  pose proof (step_rule g [] [] r H) as St. simpl in St. now rewrite app_nil_r in St.
Qed.

Lemma derives_multi : forall l t, In t l -> derives g [EMulti l] [ESym t].
Proof. intros l t H. apply star_one. apply (step_multi g [] [] l t H). Qed.

(** Splitting [a ++ x :: b = u ++ v]. *)
Lemma app_cons_split : forall A (a b : list A) x u v,
  a ++ x :: b = u ++ v ->
  (exists c, u = a ++ x :: c /\ b = c ++ v) \/
  (exists c, v = c ++ x :: b /\ a = u ++ c).
Proof.
  intros A a. induction a as [|y a IH]; intros b x u v H; simpl in H.
  - destruct u as [|z u]; simpl in H.
    + right. exists []. simpl. auto.
    + inversion H; subst. left. exists u. auto.
  - destruct u as [|z u]; simpl in H.
    + right. exists (y :: a). simpl. auto.
    + inversion H; subst. destruct (IH _ _ _ _ H2) as [[c [E1 E2]]|[c [E1 E2]]]; subst.
      * left. exists c. auto.
      * right. exists c. auto.
Qed.

Lemma step_app_inv : forall u v w, step g (u ++ v) w ->
  (exists u', step g u u' /\ w = u' ++ v) \/ (exists v', step g v v' /\ w = u ++ v').
Proof.
  intros u v w H. remember (u ++ v) as x eqn:E. destruct H as [a b r Hr|a b l t Hl].
  - destruct (app_cons_split _ _ _ _ _ _ E) as [[c [E1 E2]]|[c [E1 E2]]]; subst.
    + left. exists (a ++ r_rhs r ++ c). split; [now apply step_rule|].
      now rewrite <- !app_assoc.
    + right. exists (c ++ r_rhs r ++ b). split; [now apply step_rule|].
      now rewrite <- !app_assoc.
  - destruct (app_cons_split _ _ _ _ _ _ E) as [[c [E1 E2]]|[c [E1 E2]]]; subst.
    + left. exists (a ++ ESym t :: c). split; [now apply step_multi|].
      now rewrite <- !app_assoc.
    + right. exists (c ++ ESym t :: b). split; [now apply step_multi|].
      now rewrite <- !app_assoc.
Qed.

Lemma dn_app_inv : forall n u v w, dn n (u ++ v) w ->
  exists n1 n2 w1 w2, n = n1 + n2 /\ w = w1 ++ w2 /\ dn n1 u w1 /\ dn n2 v w2.
Proof.
  intros n u v w H. remember (u ++ v) as x eqn:E. revert u v E.
  induction H as [x|n x y w St D IH]; intros u v E; subst.
  - exists 0, 0, u, v. repeat split; auto; constructor.
  - destruct (step_app_inv _ _ _ St) as [[u' [S1 E1]]|[v' [S1 E1]]].
    + destruct (IH _ _ E1) as (n1 & n2 & w1 & w2 & -> & -> & D1 & D2).
      exists (S n1), n2, w1, w2. repeat split; auto. econstructor; eauto.
    + destruct (IH _ _ E1) as (n1 & n2 & w1 & w2 & -> & -> & D1 & D2).
      exists n1, (S n2), w1, w2. repeat split; auto; try lia. econstructor; eauto.
Qed.

Lemma derives_app_inv : forall u v w, derives g (u ++ v) w ->
  exists w1 w2, w = w1 ++ w2 /\ derives g u w1 /\ derives g v w2.
Proof.
  intros u v w H. apply derives_dn in H as [n H].
  apply dn_app_inv in H as (n1 & n2 & w1 & w2 & _ & -> & D1 & D2).
  exists w1, w2. split; auto. split; eapply dn_derives; eauto.
Qed.

Lemma derives_nil_inv : forall w, derives g [] w -> w = [].
Proof.
  intros w H. remember [] as x eqn:E. destruct H as [|x y z St]; auto.
  subst. exfalso. inversion St; destruct u; discriminate.
Qed.

Lemma dn_nil_inv : forall n w, dn n [] w -> w = [].
Proof. intros. eapply derives_nil_inv, dn_derives; eauto. Qed.

(** A step from a single symbol. *)
Lemma step_sym_inv : forall s w, step g [ESym s] w ->
  exists r, In r (g_rules g) /\ r_lhs r = s /\ w = r_rhs r.
Proof.
  intros s w H. remember [ESym s] as x eqn:E. destruct H as [u v r Hr|u v l t Hl].
  - destruct u as [|a u]; simpl in E.
    + inversion E; subst. exists r. rewrite app_nil_r. auto.
    + inversion E. destruct u; discriminate.
  - destruct u as [|a u]; simpl in E.
    + inversion E.
    + inversion E. destruct u; discriminate.
Qed.

Lemma step_multi_inv : forall l w, step g [EMulti l] w -> exists t, In t l /\ w = [ESym t].
Proof.
  intros l w H. remember [EMulti l] as x eqn:E. destruct H as [u v r Hr|u v l' t Hl].
  - destruct u as [|a u]; simpl in E.
    + inversion E.
    + inversion E. destruct u; discriminate.
  - destruct u as [|a u]; simpl in E.
    + inversion E; subst. exists t. auto.
    + inversion E. destruct u; discriminate.
Qed.

Lemma nullable_nil : nullable g [].
Proof. apply star_refl. Qed.

Lemma nullable_app : forall u v, nullable g (u ++ v) <-> nullable g u /\ nullable g v.
Proof.
  intros u v. split.
  - intros H. apply derives_app_inv in H as (w1 & w2 & E & D1 & D2).
    symmetry in E. apply app_eq_nil in E as [-> ->]. auto.
  - intros [H1 H2]. apply (derives_app u [] v []); auto.
Qed.

Lemma nullable_cons : forall x v, nullable g (x :: v) <-> nullable g [x] /\ nullable g v.
Proof. intros x v. apply (nullable_app [x] v). Qed.

Lemma nullable_rule : forall r, In r (g_rules g) -> nullable g (r_rhs r) ->
  nullable g [ESym (r_lhs r)].
Proof. intros r H N. eapply derives_trans; eauto. apply derives_rule; auto. Qed.

Lemma first_cons : forall x v t,
  first g (x :: v) t <-> first g [x] t \/ (nullable g [x] /\ first g v t).
Proof.
  intros x v t. split.
  - intros [T [z D]]. change (x :: v) with ([x] ++ v) in D.
    apply derives_app_inv in D as (w1 & w2 & E & D1 & D2).
    destruct w1 as [|a w1]; simpl in E.
    + right. split; auto. split; auto. subst. eauto.
    + left. inversion E; subst. split; eauto.
  - intros [[T [z D]]|[N [T [z D]]]]; split; auto.
    + exists (z ++ v). change (x :: v) with ([x] ++ v).
      apply (derives_app_l [x] (ESym t :: z) v). auto.
    + exists z. change (x :: v) with ([x] ++ v).
      apply (derives_app [x] [] v (ESym t :: z)); auto.
Qed.

Lemma first_nil : forall t, ~ first g [] t.
Proof. intros t [_ [v D]]. apply derives_nil_inv in D. discriminate. Qed.

Lemma first_app : forall u v t,
  first g (u ++ v) t <-> first g u t \/ (nullable g u /\ first g v t).
Proof.
  induction u as [|x u IH]; intros v t; simpl.
  - split.
    + intros H. right. split; auto. apply nullable_nil.
    + intros [H|[_ H]]; auto. now apply first_nil in H.
  - rewrite first_cons, IH, (first_cons x u), (nullable_cons x u). tauto.
Qed.

Lemma first_rule : forall r t, In r (g_rules g) -> first g (r_rhs r) t ->
  first g [ESym (r_lhs r)] t.
Proof.
  intros r t H [T [v D]]. split; auto. exists v. eapply derives_trans; eauto.
  apply derives_rule; auto.
Qed.

Lemma first_multi : forall l t, is_term g t -> In t l -> first g [EMulti l] t.
Proof. intros l t T H. split; auto. exists []. now apply derives_multi. Qed.

Lemma first_term : forall t, is_term g t -> first g [ESym t] t.
Proof. intros t T. split; auto. exists []. apply derives_refl. Qed.

Lemma lhs_is_In : forall r A, lhs_is g r A -> exists rl, In rl (g_rules g) /\ r_lhs rl = A /\ rule_of g r = Some rl.
Proof. intros r A [rl [E L]]. exists rl. split; auto. eapply nth_error_In; eauto. Qed.

Hypothesis WF : wf_grammar g.

Lemma wf_lhs_nonterm : forall r, In r (g_rules g) -> is_nonterm g (r_lhs r).
Proof.
  intros r H. destruct WF as (_ & _ & F & _). rewrite Forall_forall in F.
  apply F in H. apply H.
Qed.

Lemma wf_rhs : forall r, In r (g_rules g) -> Forall (wf_elem g) (r_rhs r).
Proof.
  intros r H. destruct WF as (_ & _ & F & _). rewrite Forall_forall in F.
  apply F in H. apply H.
Qed.

Lemma term_no_step : forall t w, is_term g t -> ~ step g [ESym t] w.
Proof.
  intros t w T H. apply step_sym_inv in H as (r & Hr & E & _).
  apply wf_lhs_nonterm in Hr. unfold is_nonterm, is_term in *. lia.
Qed.

Lemma term_derives : forall t w, is_term g t -> derives g [ESym t] w -> w = [ESym t].
Proof.
  intros t w T H. remember [ESym t] as x eqn:E. destruct H; auto. subst.
  exfalso. eapply term_no_step; eauto.
Qed.

Lemma term_not_nullable : forall t, is_term g t -> ~ nullable g [ESym t].
Proof. intros t T H. apply term_derives in H; auto. discriminate. Qed.

Lemma first_term_inv : forall t u, is_term g t -> first g [ESym t] u -> u = t.
Proof. intros t u T [_ [v D]]. apply term_derives in D; auto. now inversion D. Qed.

Lemma first_term_cons : forall t v u, is_term g t -> (first g (ESym t :: v) u <-> u = t).
Proof.
  intros t v u T. rewrite first_cons. split.
  - intros [H|[H _]]. now apply first_term_inv in H. exfalso. eapply term_not_nullable; eauto.
  - intros ->. left. now apply first_term.
Qed.

Lemma multi_derives : forall l w, (forall t, In t l -> is_term g t) ->
  derives g [EMulti l] w -> w = [EMulti l] \/ exists t, In t l /\ w = [ESym t].
Proof.
  intros l w T H. remember [EMulti l] as x eqn:E. destruct H; auto. subst.
  apply step_multi_inv in H as [t [Ht ->]]. right. exists t. split; auto.
  apply term_derives in H0; auto.
Qed.

Lemma multi_not_nullable : forall l, (forall t, In t l -> is_term g t) -> ~ nullable g [EMulti l].
Proof.
  intros l T H. apply multi_derives in H as [H|[t [_ H]]]; auto; discriminate.
Qed.

Lemma first_multi_cons : forall l v u, (forall t, In t l -> is_term g t) ->
  (first g (EMulti l :: v) u <-> In u l).
Proof.
  intros l v u T. rewrite first_cons. split.
  - intros [[U [z D]]|[H _]].
    + apply multi_derives in D as [D|[t [Ht D]]]; auto; inversion D; subst; auto.
    + exfalso. eapply multi_not_nullable; eauto.
  - intros H. left. apply first_multi; auto.
Qed.

Lemma nullable_sym_inv : forall A, nullable g [ESym A] ->
  exists r, In r (g_rules g) /\ r_lhs r = A /\ nullable g (r_rhs r).
Proof.
  intros A H. unfold nullable, derives in H. inversion H as [|x y z St D]; subst.
  apply step_sym_inv in St as (r & Hr & E & ->). exists r. auto.
Qed.

Lemma first_sym_inv : forall A t, is_nonterm g A -> first g [ESym A] t ->
  exists r, In r (g_rules g) /\ r_lhs r = A /\ first g (r_rhs r) t.
Proof.
  intros A t NT [T [v D]]. unfold derives in D. inversion D as [|x y z St D']; subst.
  - unfold is_nonterm, is_term in *. lia.
  - apply step_sym_inv in St as (r & Hr & E & ->). exists r. repeat split; auto. exists v. auto.
Qed.

(** Induction principles used for completeness of fixed-point computations. *)
Lemma nullable_least : forall (P : nat -> Prop),
  (forall r, In r (g_rules g) ->
     Forall (fun e => match e with ESym s => P s | EMulti _ => False end) (r_rhs r) ->
     P (r_lhs r)) ->
  forall A, nullable g [ESym A] -> P A.
Proof.
  intros P HP A H. apply derives_dn in H as [n H]. revert A H.
  induction n as [n IH] using lt_wf_ind. intros A H.
  inversion H as [|m u v w St D]; subst.
  apply step_sym_inv in St as (r & Hr & <- & ->).
  apply HP; auto. clear H HP.
  assert (W := wf_rhs r Hr). revert D W. generalize (r_rhs r) as rhs.
  assert (HS : forall k rhs, k <= m -> dn k rhs [] -> Forall (wf_elem g) rhs ->
     Forall (fun e => match e with ESym s => P s | EMulti _ => False end) rhs).
  { intros k rhs. revert k. induction rhs as [|e rhs IHr]; intros k Hk D W; constructor.
    - change (e :: rhs) with ([e] ++ rhs) in D.
      apply dn_app_inv in D as (n1 & n2 & w1 & w2 & En & Ew & D1 & D2).
      symmetry in Ew. apply app_eq_nil in Ew as [-> ->].
      inversion W; subst. destruct e as [s|l].
      + apply (IH n1); auto. lia.
      + exfalso. eapply (multi_not_nullable l (proj2 H1)). eapply dn_derives; eauto.
    - change (e :: rhs) with ([e] ++ rhs) in D.
      apply dn_app_inv in D as (n1 & n2 & w1 & w2 & En & Ew & D1 & D2).
      symmetry in Ew. apply app_eq_nil in Ew as [-> ->].
      inversion W; subst. apply (IHr n2); auto. lia. }
  intros rhs D W. apply (HS m); auto.
Qed.

(** FIRST as the least relation closed under the syntactic rules. *)
Inductive firstc (t : nat) : list elem -> Prop :=
| firstc_term : forall v, is_term g t -> firstc t (ESym t :: v)
| firstc_multi : forall l v, is_term g t -> In t l -> firstc t (EMulti l :: v)
| firstc_rule : forall r v, In r (g_rules g) -> firstc t (r_rhs r) ->
    firstc t (ESym (r_lhs r) :: v)
| firstc_skip : forall x v, nullable g [x] -> firstc t v -> firstc t (x :: v).

Lemma firstc_first : forall t v, firstc t v -> first g v t.
Proof.
  intros t v H. induction H.
  - apply first_term_cons; auto.
  - apply first_cons. left. now apply first_multi.
  - apply first_cons. left. now apply first_rule.
  - apply first_cons. now right.
Qed.

Lemma first_firstc : forall t v, Forall (wf_elem g) v -> first g v t -> firstc t v.
Proof.
  intros t v W [T [z D]]. apply derives_dn in D as [n D]. revert v z W D.
  induction n as [n IH] using lt_wf_ind. intros v. revert n IH.
  induction v as [|x v IHv]; intros n IH z W D.
  - apply dn_nil_inv in D. discriminate.
  - inversion W as [|? ? Wx Wv]; subst.
    change (x :: v) with ([x] ++ v) in D.
    apply dn_app_inv in D as (n1 & n2 & w1 & w2 & En & Ew & D1 & D2).
    destruct w1 as [|a w1]; simpl in Ew.
    + apply firstc_skip.
      * eapply dn_derives; eauto.
      * subst w2. destruct (Nat.eq_dec n1 0) as [->|N].
        -- inversion D1.
        -- apply (IH n2) with (z := z); auto. lia.
    + inversion Ew; subst a z. clear Ew.
      destruct x as [s|l].
      * inversion D1 as [u|m u w y St D']; subst.
        -- now apply firstc_term.
        -- apply step_sym_inv in St as (r & Hr & <- & ->).
           apply firstc_rule; auto.
           apply (IH m) with (z := w1); auto; try lia. now apply wf_rhs.
      * apply dn_derives in D1. apply multi_derives in D1 as [D1|[u [Hu D1]]]; [| |exact (proj2 Wx)].
        -- discriminate.
        -- inversion D1; subst. now apply firstc_multi.
Qed.

End Facts.

Lemma lhs_is_nonterm : forall g, wf_grammar g -> forall r A, lhs_is g r A -> is_nonterm g A.
Proof.
  intros g WF r A H. apply lhs_is_In in H as (rl & H1 & <- & _). now apply wf_lhs_nonterm.
Qed.

(** A checker for concrete grammars. *)
Definition wf_elemb (g : grammar) (e : elem) : bool :=
  match e with
  | ESym s => s <? g_nsym g
  | EMulti l => match l with [] => false | _ => forallb (fun t => t <? g_nterm g) l end
  end.
Definition is_nontermb (g : grammar) (s : nat) : bool := (g_nterm g <=? s) && (s <? g_nsym g).
Definition wf_grammarb (g : grammar) : bool :=
  (0 <? g_nterm g) && (g_nterm g <=? g_nsym g) &&
  forallb (fun r => is_nontermb g (r_lhs r) && forallb (wf_elemb g) (r_rhs r)) (g_rules g) &&
  is_nontermb g (g_start g).

Lemma is_nontermb_ok : forall g s, is_nontermb g s = true -> is_nonterm g s.
Proof.
  unfold is_nontermb, is_nonterm. intros g s H. apply andb_prop in H. destruct H as [H1 H2].
  apply Nat.leb_le in H1. apply Nat.ltb_lt in H2. lia.
Qed.

Lemma wf_grammarb_ok : forall g, wf_grammarb g = true -> wf_grammar g.
Proof.
  intros g H. unfold wf_grammarb in H.
  apply andb_prop in H. destruct H as [H H4].
  apply andb_prop in H. destruct H as [H H3].
  apply andb_prop in H. destruct H as [H1 H2].
  apply Nat.ltb_lt in H1. apply Nat.leb_le in H2.
  split; [exact H1|]. split; [exact H2|]. split; [|now apply is_nontermb_ok].
  apply Forall_forall. intros r Hr. rewrite forallb_forall in H3. specialize (H3 r Hr).
  apply andb_prop in H3. destruct H3 as [H5 H6]. split; [now apply is_nontermb_ok|].
  apply Forall_forall. intros e He. rewrite forallb_forall in H6. specialize (H6 e He).
  destruct e as [s|l]; simpl in *.
  - now apply Nat.ltb_lt in H6.
  - destruct l as [|t0 l]; [discriminate|]. split; [discriminate|].
    intros t Ht. rewrite forallb_forall in H6. specialize (H6 t Ht). now apply Nat.ltb_lt in H6.
Qed.
