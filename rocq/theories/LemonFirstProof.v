(** Correctness of FindFirstSets. *)
From Coq Require Import List Arith Lia Bool.
Import ListNotations.
From Verif Require Import Base SpecGrammar SpecGrammarFacts LemonSetModel LemonSetProof LemonFirstModel.
Local Open Scope res_scope.

Section P.
Variable g : grammar.
Hypothesis WF : wf_grammar g.

Definition lam_sound (lam : list bool) : Prop :=
  forall s, SetFind lam s = true -> nullable g [ESym s].

Definition lam_le (a b : list bool) : Prop :=
  forall s, SetFind a s = true -> SetFind b s = true.

Definition elem_lam (lam : list bool) (e : elem) : Prop :=
  match e with ESym s => SetFind lam s = true | EMulti _ => False end.

Lemma all_lambda_ok : forall lam rhs, length lam = g_nsym g -> Forall (wf_elem g) rhs ->
  exists b, all_lambda lam rhs = Ok b /\ (b = true <-> Forall (elem_lam lam) rhs).
Proof.
  intros lam rhs L W. induction W as [|e rhs We W IH].
  - exists true. split; auto. split; auto.
  - destruct e as [s|l]; simpl.
    + simpl in We. rewrite <- L in We.
      destruct (nth_error_lt_ex _ lam s We) as [b E]. rewrite E.
      assert (F : SetFind lam s = b) by (apply nth_error_Some_nth; auto).
      destruct b.
      * destruct IH as [b [E1 E2]]. exists b. split; auto. rewrite E2. split.
        -- intros H. constructor; auto.
        -- intros H. now inversion H.
      * exists false. split; auto. split; [discriminate|].
        intros H. inversion H; subst. simpl in *. congruence.
    + exists false. split; auto. split; [discriminate|].
      intros H. inversion H; subst. simpl in *. contradiction.
Qed.

Lemma elem_lam_nullable : forall lam rhs, lam_sound lam -> Forall (elem_lam lam) rhs ->
  nullable g rhs.
Proof.
  intros lam rhs S H. induction H as [|e rhs He H IH].
  - apply nullable_nil.
  - apply nullable_cons. split; auto. destruct e; simpl in He; [auto|contradiction].
Qed.

Definition lam_closed (rules : list rule) (lam : list bool) : Prop :=
  forall r, In r rules -> Forall (elem_lam lam) (r_rhs r) -> SetFind lam (r_lhs r) = true.

Lemma lambda_pass_ok : forall rules lam progress,
  incl rules (g_rules g) -> length lam = g_nsym g -> lam_sound lam ->
  exists lam' p, lambda_pass rules lam progress = Ok (lam', p) /\
    length lam' = g_nsym g /\ lam_sound lam' /\ lam_le lam lam' /\
    (p = true -> progress = true \/ card lam < card lam') /\
    (p = false -> progress = false /\ lam' = lam /\ lam_closed rules lam).
Proof.
  induction rules as [|rp rules IH]; intros lam progress I L S; simpl.
  - exists lam, progress. split; [reflexivity|]. repeat (split; auto).
    + red; auto.
    + red. intros r [].
  - assert (Hrp : In rp (g_rules g)) by (apply I; left; auto).
    assert (I' : incl rules (g_rules g)) by (intros x Hx; apply I; right; auto).
    assert (Wl := wf_lhs_nonterm g WF rp Hrp).
    assert (Wr := wf_rhs g WF rp Hrp).
    assert (Hl : r_lhs rp < length lam) by (rewrite L; apply Wl).
    destruct (nth_error_lt_ex _ lam _ Hl) as [b E]. rewrite E. simpl.
    assert (F : SetFind lam (r_lhs rp) = b) by (apply nth_error_Some_nth; auto).
    destruct b.
    + destruct (IH lam progress I' L S) as (lam' & p & E1 & L1 & S1 & M1 & P1 & P2).
      exists lam', p. repeat (split; auto).
      * now apply P2.
      * now apply P2.
      * intros r [<-|Hr] HF; auto. now apply P2.
    + destruct (all_lambda_ok lam (r_rhs rp) L Wr) as [a [E2 E3]]. rewrite E2. simpl.
      destruct a.
      * assert (U : lam_sound (upd lam (r_lhs rp) true)).
        { intros s Hs. unfold SetFind in Hs.
          destruct (Nat.eq_dec (r_lhs rp) s) as [<-|N].
          - apply nullable_rule; auto. eapply elem_lam_nullable; eauto. now apply E3.
          - rewrite nth_upd_ne in Hs by auto. now apply S. }
        assert (ME : lam_le lam (upd lam (r_lhs rp) true)).
        { intros s Hs. unfold SetFind.
          destruct (Nat.eq_dec (r_lhs rp) s) as [<-|N].
          - now apply nth_upd_eq.
          - rewrite nth_upd_ne; auto. }
        assert (C : card lam < card (upd lam (r_lhs rp) true)).
        { apply card_strict; auto; [now rewrite upd_length|].
          exists (r_lhs rp). split; auto. now apply nth_upd_eq. }
        destruct (IH (upd lam (r_lhs rp) true) true I') as (lam' & p & E4 & L1 & S1 & M1 & P1 & P2); auto.
        { now rewrite upd_length. }
        exists lam', p. split; [auto|]. split; [auto|]. split; [auto|]. split.
        { intros s Hs. auto. }
        split.
        -- intros _. right.
           assert (card (upd lam (r_lhs rp) true) <= card lam').
           { apply card_mono; auto. rewrite upd_length. lia. }
           lia.
        -- intros Hp. destruct (P2 Hp). discriminate.
      * destruct (IH lam progress I' L S) as (lam' & p & E4 & L1 & S1 & M1 & P1 & P2).
        exists lam', p. repeat (split; auto).
        -- now apply P2.
        -- now apply P2.
        -- intros r [<-|Hr] HF; [|now apply P2].
           apply E3 in HF. discriminate.
Qed.

Lemma lambda_loop_ok : forall fuel lam,
  length lam = g_nsym g -> lam_sound lam -> g_nsym g - card lam < fuel ->
  exists lam', lambda_loop fuel (g_rules g) lam = Ok lam' /\ length lam' = g_nsym g /\
    lam_sound lam' /\ lam_closed (g_rules g) lam'.
Proof.
  induction fuel as [|fuel IH]; intros lam L S HF; [lia|]. simpl.
  destruct (lambda_pass_ok (g_rules g) lam false (incl_refl _) L S)
    as (lam' & p & E & L1 & S1 & M1 & P1 & P2).
  rewrite E. simpl. destruct p.
  - apply IH; auto. destruct (P1 eq_refl) as [H|H]; [discriminate|].
    pose proof (card_le_length lam'). lia.
  - destruct (P2 eq_refl) as (_ & -> & C). exists lam. auto.
Qed.

(** Specification of the nullable flags. *)
Definition lam_exact (lam : list bool) : Prop :=
  length lam = g_nsym g /\ forall s, SetFind lam s = true <-> nullable g [ESym s].

Lemma lambda_exact : forall fuel, g_nsym g < fuel ->
  exists lam, lambda_loop fuel (g_rules g) (repeat false (g_nsym g)) = Ok lam /\ lam_exact lam.
Proof.
  intros fuel HF.
  destruct (lambda_loop_ok fuel (repeat false (g_nsym g))) as (lam & E & L & S & C).
  - apply repeat_length.
  - intros s Hs. unfold SetFind in Hs. rewrite nth_repeat_same in Hs. discriminate.
  - lia.
  - exists lam. split; auto. split; auto. intros s. split; [apply S|].
    intros N. revert s N. apply nullable_least; auto.
Qed.

(** FIRST sets. *)
Definition fs_sound (fs : list cset) : Prop :=
  forall s t, SetFind (nth s fs []) t = true -> first g [ESym s] t.

Definition fs_shape (fs : list cset) : Prop :=
  length fs = g_nsym g /\ forall s, s < g_nsym g -> length (nth s fs []) = first_set_size g.

Definition fs_le (a b : list cset) : Prop :=
  forall s t, SetFind (nth s a []) t = true -> SetFind (nth s b []) t = true.

Definition fs_card (fs : list cset) : nat := sum (map card fs).

Lemma fs_card_upd_le : forall fs i a, card (nth i fs []) <= card a ->
  fs_card fs <= fs_card (upd fs i a).
Proof.
  unfold fs_card. induction fs as [|x fs IH]; intros [|i] a H; simpl in *; try lia.
  specialize (IH _ _ H). lia.
Qed.

Lemma fs_card_upd_lt : forall fs i a, i < length fs -> card (nth i fs []) < card a ->
  fs_card fs < fs_card (upd fs i a).
Proof.
  unfold fs_card. induction fs as [|x fs IH]; intros [|i] a H0 H; simpl in *; try lia.
  assert (i < length fs) by lia. specialize (IH _ _ H1 H). lia.
Qed.

Lemma fs_card_bound : forall fs, fs_shape fs -> fs_card fs <= g_nsym g * first_set_size g.
Proof.
  intros fs [L S]. unfold fs_card. revert S. rewrite <- L. clear L. intros S.
  assert (F : Forall (fun s => length s = first_set_size g) fs).
  { apply Forall_forall. intros x Hx. apply (In_nth _ _ []) in Hx as (n & Hn & <-).
    apply S; auto. }
  clear S. induction F as [|x fs Hx F IH]; simpl; [lia|].
  pose proof (card_le_length x). lia.
Qed.

(** The terminals contributed by scanning a right-hand side; [lam] exact. *)
Definition fs_has (fs : list cset) (e : elem) (t : nat) : Prop :=
  match e with
  | ESym s => if s <? g_nterm g then t = s else SetFind (nth s fs []) t = true
  | EMulti l => In t l
  end.

Fixpoint fs_contrib (fs : list cset) (rhs : list elem) (t : nat) : Prop :=
  match rhs with
  | [] => False
  | e :: rest => fs_has fs e t \/ (nullable g [e] /\ fs_contrib fs rest t)
  end.

Lemma SetAddAll_ok : forall l s progress, (forall t, In t l -> t < length s) ->
  exists s' p, SetAddAll s l progress = Ok (s', p) /\ length s' = length s /\
    (forall x, SetFind s' x = true <-> SetFind s x = true \/ In x l) /\
    (p = true <-> progress = true \/ exists x, SetFind s x = false /\ In x l).
Proof.
  induction l as [|t l IH]; intros s progress H; simpl.
  - exists s, progress. split; [reflexivity|]. split; [reflexivity|]. split.
    + intros; tauto.
    + split; auto. intros [|[x [_ []]]]; auto.
  - destruct (SetAdd_ok s t) as (s1 & E & L & M). { apply H; left; auto. }
    rewrite E. simpl.
    destruct (IH s1 (progress || negb (SetFind s t))) as (s' & p & E1 & L1 & M1 & P1).
    { intros u Hu. rewrite L. apply H. right; auto. }
    exists s', p. split; auto. split; [lia|]. split.
    + intros x. rewrite M1, M. intuition.
    + rewrite P1, orb_true_iff, negb_true_iff. split.
      * intros [[Hp|Hp]|[x [Hx1 Hx2]]]; auto.
        -- right. exists t. auto.
        -- right. exists x. split; auto.
           destruct (SetFind s x) eqn:Ex; auto.
           assert (SetFind s1 x = true) by (apply M; auto). congruence.
      * intros [Hp|[x [Hx1 [<-|Hx2]]]]; auto.
        destruct (SetFind s t) eqn:Et; auto.
        right. exists x. split; auto.
        destruct (SetFind s1 x) eqn:Ex; auto. apply M in Ex as [Ex|Ex]; congruence.
Qed.

Lemma sound_upd : forall fs s a,
  fs_sound fs -> (forall t, SetFind a t = true -> first g [ESym s] t) ->
  fs_sound (upd fs s a).
Proof.
  intros fs s a S H s' t. destruct (Nat.eq_dec s s') as [<-|N].
  - destruct (Nat.lt_ge_cases s (length fs)).
    + rewrite nth_upd_eq by auto. apply H.
    + rewrite upd_oob by auto. apply S.
  - rewrite nth_upd_ne by auto. apply S.
Qed.

Lemma shape_upd : forall fs s a, fs_shape fs -> length a = first_set_size g -> fs_shape (upd fs s a).
Proof.
  intros fs s a [L S] H. split; [now rewrite upd_length|].
  intros s' Hs. destruct (Nat.eq_dec s s') as [<-|N].
  - rewrite nth_upd_eq; auto. lia.
  - rewrite nth_upd_ne; auto.
Qed.

Lemma le_upd : forall fs s a, s < length fs ->
  (forall t, SetFind (nth s fs []) t = true -> SetFind a t = true) ->
  fs_le fs (upd fs s a).
Proof.
  intros fs s a L H s' t. destruct (Nat.eq_dec s s') as [<-|N].
  - rewrite nth_upd_eq by auto. apply H.
  - now rewrite nth_upd_ne by auto.
Qed.

Section Pass.
Variable lam : list bool.
Hypothesis LE : lam_exact lam.

(** One rule.  [s1 -> prefix rhs] is a rule tail: everything skipped so far is
    nullable. *)
Lemma first_rhs_ok : forall rhs s1 fs progress,
  is_nonterm g s1 -> Forall (wf_elem g) rhs ->
  (forall t, first g rhs t -> first g [ESym s1] t) ->
  fs_shape fs -> fs_sound fs ->
  exists fs' p, first_rhs (g_nterm g) lam s1 rhs fs progress = Ok (fs', p) /\
    fs_shape fs' /\ fs_sound fs' /\ fs_le fs fs' /\
    (p = true -> progress = true \/ fs_card fs < fs_card fs') /\
    fs_card fs <= fs_card fs' /\
    (p = false -> progress = false /\ fs' = fs /\
       forall t, fs_contrib fs rhs t -> SetFind (nth s1 fs []) t = true).
Proof.
  induction rhs as [|e rhs IH]; intros s1 fs progress NT W FT SH SO.
  - simpl. exists fs, progress. split; [reflexivity|]. split; [auto|]. split; [auto|].
    split; [red; auto|]. split; [auto|]. split; [auto|].
    intros Hp. split; [auto|]. split; [auto|]. intros t [].
  - inversion W as [|? ? We Wr]; subst.
    destruct SH as [L SZ]. assert (SH : fs_shape fs) by (split; auto).
    destruct LE as [LL LX].
    assert (Hs1 : s1 < length fs) by (rewrite L; apply NT).
    assert (HT : g_nterm g < first_set_size g) by (unfold first_set_size, SetSize; lia).
    destruct (nth_error_lt_ex _ fs _ Hs1) as [a Ea].
    assert (Ea' : nth s1 fs [] = a) by (apply nth_error_Some_nth; auto).
    assert (La : length a = first_set_size g) by (rewrite <- Ea'; apply SZ; lia).
    (* result of replacing the set of s1 by a larger one *)
    assert (REPL : forall a' c, length a' = length a ->
      (forall t, SetFind a t = true -> SetFind a' t = true) ->
      (forall t, SetFind a' t = true -> first g [ESym s1] t) ->
      (c = true <-> exists x, SetFind a x = false /\ SetFind a' x = true) ->
      fs_shape (upd fs s1 a') /\ fs_sound (upd fs s1 a') /\ fs_le fs (upd fs s1 a') /\
      (c = true -> fs_card fs < fs_card (upd fs s1 a')) /\
      fs_card fs <= fs_card (upd fs s1 a') /\
      (c = false -> upd fs s1 a' = fs /\ forall t, SetFind a' t = true -> SetFind a t = true)).
    { intros a' c La' Ha1 Ha2 Hc.
      split; [apply shape_upd; auto; lia|].
      split; [apply sound_upd; auto|].
      split; [apply le_upd; auto; now rewrite Ea'|].
      split; [intros ->; apply fs_card_upd_lt; auto; rewrite Ea'; apply card_strict; auto; now apply Hc|].
      split; [apply fs_card_upd_le; rewrite Ea'; apply card_mono; auto|].
      intros ->.
      assert (EQ : forall t, SetFind a' t = SetFind a t).
      { intros t. destruct (SetFind a t) eqn:E1.
        - now apply Ha1.
        - destruct (SetFind a' t) eqn:E2; auto.
          assert (false = true) by (apply Hc; eauto). discriminate. }
      split; [|intros t; now rewrite EQ].
      apply upd_same. rewrite Ea. f_equal.
      apply (nth_ext _ _ false false); [lia|]. intros n _. symmetry. apply EQ. }
    destruct e as [s2|l]; simpl first_rhs.
    + simpl in We. destruct (Nat.ltb_spec s2 (g_nterm g)) as [T2|NT2].
      * (* terminal *)
        rewrite Ea. simpl.
        destruct (SetAdd_ok a s2) as (a' & E & La' & M); [lia|]. rewrite E. simpl.
        destruct (REPL a' (negb (SetFind a s2))) as (R1 & R2 & R3 & R4 & R5 & R6); auto.
        { intros t Ht. apply M. auto. }
        { intros t Ht. apply M in Ht as [Ht| ->].
          - apply SO. now rewrite Ea'.
          - apply FT. apply first_term_cons; auto. }
        { rewrite negb_true_iff. split.
          - intros H. exists s2. split; auto. apply M. auto.
          - intros [x [Hx1 Hx2]]. apply M in Hx2 as [Hx2| ->]; congruence. }
        exists (upd fs s1 a'), (progress || negb (SetFind a s2)).
        split; [reflexivity|]. repeat (split; [assumption|]).
        split; [|split; [assumption|]].
        -- intros H. apply orb_true_iff in H as [H|H]; auto.
        -- intros H. apply orb_false_iff in H as [H1 H2]. split; auto.
           destruct (R6 H2) as [R6' R7]. split; auto.
           intros t. simpl. destruct (Nat.ltb_spec s2 (g_nterm g)); [|lia].
           intros [-> |[Hn _]].
           ++ rewrite Ea'. apply R7. apply M; auto.
           ++ exfalso. eapply term_not_nullable; eauto.
      * (* nonterminal *)
        assert (NTs2 : is_nonterm g s2) by (split; lia).
        destruct (Nat.eqb_spec s1 s2) as [<-|Ne].
        -- destruct (nth_error_lt_ex _ lam s1) as [b Eb]; [lia|]. rewrite Eb. simpl.
           assert (Fb : SetFind lam s1 = b) by (apply nth_error_Some_nth; auto).
           destruct b.
           ++ destruct (IH s1 fs progress) as (fs' & p & E & R1 & R2 & R3 & R4 & R5 & R6); auto.
              { intros t Ht. apply FT. apply first_cons. right. split; auto. now apply LX. }
              exists fs', p. split; [exact E|]. repeat (split; [assumption|]).
              intros Hp. destruct (R6 Hp) as (H1 & H2 & H3). split; auto. split; auto.
              intros t. simpl. destruct (Nat.ltb_spec s1 (g_nterm g)); [lia|].
              intros [Ht|[_ Ht]]; auto.
           ++ exists fs, progress. split; [reflexivity|]. split; [auto|]. split; [auto|].
              split; [red; auto|]. split; [auto|]. split; [auto|].
              intros Hp. split; auto. split; auto.
              intros t. simpl. destruct (Nat.ltb_spec s1 (g_nterm g)); [lia|].
              intros [Ht|[Hn _]]; auto. apply LX in Hn. congruence.
        -- assert (Hs2 : s2 < length fs) by lia.
           destruct (nth_error_lt_ex _ fs _ Hs2) as [b Eb].
           assert (Eb' : nth s2 fs [] = b) by (apply nth_error_Some_nth; auto).
           assert (Lb : length b = first_set_size g) by (rewrite <- Eb'; apply SZ; lia).
           rewrite Ea, Eb. simpl.
           destruct (SetUnion_ok a b) as (a' & c & E & La' & M & Pc); [lia|]. rewrite E. simpl.
           destruct (REPL a' c) as (R1 & R2 & R3 & R4 & R5 & R6); auto.
           { intros t Ht. apply M. auto. }
           { intros t Ht. apply M in Ht as [Ht|Ht].
             - apply SO. now rewrite Ea'.
             - apply FT. apply first_cons. left. apply SO. now rewrite Eb'. }
           { rewrite Pc. split; intros [x [Hx1 Hx2]]; exists x; split; auto.
             - apply M; auto.
             - apply M in Hx2 as [Hx2|Hx2]; [congruence|auto]. }
           destruct (nth_error_lt_ex _ lam s2) as [b2 Eb2]; [lia|]. rewrite Eb2. simpl.
           assert (Fb : SetFind lam s2 = b2) by (apply nth_error_Some_nth; auto).
           destruct b2.
           ++ destruct (IH s1 (upd fs s1 a') (progress || c))
                as (fs' & p & E' & Q1 & Q2 & Q3 & Q4 & Q5 & Q6); auto.
              { intros t Ht. apply FT. apply first_cons. right. split; auto. now apply LX. }
              exists fs', p. split; [exact E'|]. split; [auto|]. split; [auto|]. split.
              { intros s t Hst. apply Q3. now apply R3. }
              split; [|split; [lia|]].
              ** intros Hp. destruct (Q4 Hp) as [Hq|Hq].
                 --- apply orb_true_iff in Hq as [Hq|Hq]; auto. right. specialize (R4 Hq). lia.
                 --- right. lia.
              ** intros Hp. destruct (Q6 Hp) as (Q7 & Q8 & Q9).
                 apply orb_false_iff in Q7 as [Q7 Q10]. destruct (R6 Q10) as [R7 R8].
                 split; auto. rewrite R7 in *. split; auto.
                 intros t. simpl. destruct (Nat.ltb_spec s2 (g_nterm g)); [lia|].
                 intros [Ht|[_ Ht]]; auto.
                 rewrite Ea'. apply R8. apply M. right. now rewrite <- Eb'.
           ++ exists (upd fs s1 a'), (progress || c). split; [reflexivity|].
              repeat (split; [assumption|]). split; [|split; [assumption|]].
              ** intros H. apply orb_true_iff in H as [H|H]; auto.
              ** intros H. apply orb_false_iff in H as [H1 H2]. split; auto.
                 destruct (R6 H2) as [R7 R8]. split; auto.
                 intros t. simpl. destruct (Nat.ltb_spec s2 (g_nterm g)); [lia|].
                 intros [Ht|[Hn _]].
                 --- rewrite Ea'. apply R8. apply M. right. now rewrite <- Eb'.
                 --- apply LX in Hn. congruence.
    + (* multi-terminal *)
      apply proj2 in We. rewrite Ea. simpl.
      destruct (SetAddAll_ok l a progress) as (a' & p & E & La' & M & Pp).
      { intros t Ht. apply We in Ht. unfold is_term in Ht. lia. }
      rewrite E. simpl.
      set (c := negb (forallb (fun x => SetFind a x) l)).
      assert (Hc : c = true <-> exists x, SetFind a x = false /\ In x l).
      { unfold c. rewrite negb_true_iff. split.
        - intros Hf. clear -Hf. induction l as [|x l IHl]; simpl in Hf; [discriminate|].
          apply andb_false_iff in Hf as [Hf|Hf].
          + exists x. simpl. auto.
          + destruct (IHl Hf) as [y [Hy1 Hy2]]. exists y. simpl. auto.
        - intros [x [Hx1 Hx2]]. destruct (forallb (fun x => SetFind a x) l) eqn:Ef; auto.
          rewrite forallb_forall in Ef. apply Ef in Hx2. congruence. }
      destruct (REPL a' c) as (R1 & R2 & R3 & R4 & R5 & R6); auto.
      { intros t Ht. apply M. auto. }
      { intros t Ht. apply M in Ht as [Ht|Ht].
        - apply SO. now rewrite Ea'.
        - apply FT. apply first_multi_cons; auto. }
      { rewrite Hc. split; intros [x [Hx1 Hx2]]; exists x; split; auto.
        - apply M; auto.
        - apply M in Hx2 as [Hx2|Hx2]; [congruence|auto]. }
      exists (upd fs s1 a'), p. split; [reflexivity|].
      repeat (split; [assumption|]). split; [|split; [assumption|]].
      * intros H. apply Pp in H as [H|H]; auto. right. apply R4. now apply Hc.
      * intros H.
        assert (progress = false /\ c = false) as [H1 H2].
        { split.
          - destruct progress; auto. assert (p = true) by (apply Pp; auto). congruence.
          - destruct c eqn:Ec; auto. assert (p = true). { apply Pp. right. now apply Hc. } congruence. }
        split; auto. destruct (R6 H2) as [R7 R8]. split; auto.
        intros t. simpl. intros [Ht|[Hn _]].
        -- rewrite Ea'. apply R8. apply M. auto.
        -- exfalso. eapply multi_not_nullable; eauto.
Qed.

Lemma first_pass_ok : forall rules fs progress,
  incl rules (g_rules g) -> fs_shape fs -> fs_sound fs ->
  exists fs' p, first_pass (g_nterm g) lam rules fs progress = Ok (fs', p) /\
    fs_shape fs' /\ fs_sound fs' /\
    (p = true -> progress = true \/ fs_card fs < fs_card fs') /\
    fs_card fs <= fs_card fs' /\
    (p = false -> progress = false /\ fs' = fs /\
       forall r t, In r rules -> fs_contrib fs (r_rhs r) t -> SetFind (nth (r_lhs r) fs []) t = true).
Proof.
  induction rules as [|rp rules IH]; intros fs progress I SH SO; simpl.
  - exists fs, progress. split; [reflexivity|]. repeat (split; auto).
  - assert (Hrp : In rp (g_rules g)) by (apply I; left; auto).
    assert (I' : incl rules (g_rules g)) by (intros x Hx; apply I; right; auto).
    destruct (first_rhs_ok (r_rhs rp) (r_lhs rp) fs progress)
      as (fs1 & p1 & E1 & R1 & R2 & R3 & R4 & R5 & R6); auto.
    { apply wf_lhs_nonterm; auto. }
    { apply wf_rhs; auto. }
    { intros t. now apply first_rule. }
    rewrite E1. simpl.
    destruct (IH fs1 p1) as (fs' & p & E & Q1 & Q2 & Q4 & Q5 & Q6); auto.
    exists fs', p. split; [auto|]. split; [auto|]. split; [auto|]. split; [|split; [lia|]].
    + intros Hp. destruct (Q4 Hp) as [H|H]; [|right; lia].
      destruct (R4 H); auto. right. lia.
    + intros Hp. destruct (Q6 Hp) as (H1 & H2 & H3). destruct (R6 H1) as (H4 & H5 & H6).
      split; auto. rewrite H5 in *. split; auto.
      intros r t [<-|Hr] HC; auto.
Qed.

Lemma first_loop_ok : forall fuel fs,
  fs_shape fs -> fs_sound fs -> g_nsym g * first_set_size g - fs_card fs < fuel ->
  exists fs', first_loop fuel (g_nterm g) lam (g_rules g) fs = Ok fs' /\ fs_shape fs' /\
    fs_sound fs' /\
    (forall r t, In r (g_rules g) -> fs_contrib fs' (r_rhs r) t -> SetFind (nth (r_lhs r) fs' []) t = true).
Proof.
  induction fuel as [|fuel IH]; intros fs SH SO HF; [lia|]. simpl.
  destruct (first_pass_ok (g_rules g) fs false (incl_refl _) SH SO)
    as (fs' & p & E & Q1 & Q2 & Q4 & Q5 & Q6).
  rewrite E. simpl. destruct p.
  - apply IH; auto. destruct (Q4 eq_refl) as [H|H]; [discriminate|].
    pose proof (fs_card_bound fs' Q1). lia.
  - destruct (Q6 eq_refl) as (_ & -> & C). exists fs. auto.
Qed.

End Pass.

(** Specification of the FIRST sets: exact for every nonterminal. *)
Definition fs_exact (fs : list cset) : Prop :=
  fs_shape fs /\
  forall A t, is_nonterm g A -> (SetFind (nth A fs []) t = true <-> first g [ESym A] t).

Lemma fs_closed_complete : forall fs,
  (forall r t, In r (g_rules g) -> fs_contrib fs (r_rhs r) t -> SetFind (nth (r_lhs r) fs []) t = true) ->
  forall t v, firstc g t v -> Forall (wf_elem g) v -> fs_contrib fs v t.
Proof.
  intros fs C t v H. induction H as [v T|l v T Hl|r v Hr H IH|x v N H IH]; intros W; simpl.
  - left. destruct (Nat.ltb_spec t (g_nterm g)); auto. unfold is_term in T. lia.
  - left. auto.
  - left. assert (NT := wf_lhs_nonterm g WF r Hr). unfold is_nonterm in NT.
    destruct (Nat.ltb_spec (r_lhs r) (g_nterm g)); [lia|].
    apply C; auto. apply IH. now apply wf_rhs.
  - right. split; auto. apply IH. now inversion W.
Qed.

Lemma FindFirstSets_ok : exists lam fs,
  FindFirstSets (first_fuel g) g = Ok (lam, fs) /\ lam_exact lam /\ fs_exact fs.
Proof.
  unfold FindFirstSets, first_fuel.
  destruct (lambda_exact (S (g_nsym g * S (first_set_size g)))) as (lam & E & LE); [nia|].
  rewrite E. cbn [bind].
  destruct (first_loop_ok lam LE (S (g_nsym g * S (first_set_size g)))
     (repeat (SetNew (first_set_size g)) (g_nsym g))) as (fs & E2 & SH & SO & C).
  - split; [apply repeat_length|]. intros s Hs. rewrite nth_repeat_lt by auto. apply SetNew_length.
  - intros s t Hs. exfalso.
    assert (X : nth s (repeat (SetNew (first_set_size g)) (g_nsym g)) [] = SetNew (first_set_size g)
              \/ nth s (repeat (SetNew (first_set_size g)) (g_nsym g)) [] = []).
    { destruct (Nat.lt_ge_cases s (g_nsym g)).
      - left. now apply nth_repeat_lt.
      - right. apply nth_overflow. now rewrite repeat_length. }
    destruct X as [X|X]; rewrite X in Hs.
    + rewrite SetNew_find in Hs. discriminate.
    + unfold SetFind in Hs. destruct t; discriminate.
  - nia.
  - rewrite E2. cbn [bind]. exists lam, fs. split; [reflexivity|]. split; auto. split; auto.
    intros A t NT. split; [apply SO|].
    intros F. apply first_sym_inv in F as (r & Hr & <- & F); auto.
    apply C; auto. apply fs_closed_complete; auto.
    + apply first_firstc; auto. now apply wf_rhs.
    + now apply wf_rhs.
Qed.

(** More fuel never changes the answer. *)
Lemma lambda_loop_more : forall f1 rules lam r,
  lambda_loop f1 rules lam = Ok r -> forall f2, f1 <= f2 -> lambda_loop f2 rules lam = Ok r.
Proof.
  induction f1 as [|f1 IH]; intros rules lam r H f2 L; simpl in H; [discriminate|].
  destruct f2 as [|f2]; [lia|]. simpl.
  destruct (lambda_pass rules lam false) as [[lam' p]| |]; simpl in *; try discriminate.
  destruct p; auto. apply IH; auto. lia.
Qed.

End P.
