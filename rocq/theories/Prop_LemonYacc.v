(** C30: the yacc rules printed by lemon -y. *)
From Coq Require Import List Arith Lia Bool.
Import ListNotations.
From Verif Require Import Base SpecGrammar LemonYaccModel.
Open Scope res_scope.

(** The grammar a reader of the printed rules sees (%start is the start symbol, lemon/lemon.c:3623). *)
Definition printed (g : grammar) (ys : list yline) : grammar :=
  mkGrammar (g_nterm g) (g_nsym g) (map (fun y => mkRule (y_lhs y) (map ESym (y_rhs y))) ys) (g_start g).

(** [s] stands for the element [e]. *)
Definition stands (e : elem) (s : nat) : Prop := match e with ESym x => s = x | EMulti l => In s l end.

Definition is_multi (e : elem) : bool := match e with EMulti _ => true | _ => false end.
Definition multis (l : list elem) : nat := length (filter is_multi l).

Lemma print_rhs_stands : forall mt l x, print_rhs mt l = Ok x -> Forall2 stands l x.
Proof.
  induction l as [|[s|m] l IH]; intros x E; cbn [print_rhs] in E.
  - injection E as <-. constructor.
  - destruct (print_rhs mt l) as [y| |]; try discriminate. injection E as <-. constructor; [reflexivity|auto].
  - destruct mt as [j|]; [|discriminate]. cbn [opt bind] in E. destruct (nth_error m j) as [s|] eqn:N; [|discriminate]. cbn [opt bind] in E. destruct (print_rhs (Some j) l) as [y| |]; try discriminate.
    injection E as <-. constructor; [cbn; now apply nth_error_In in N|auto].
Qed.

Lemma print_alts_in : forall rp prec js ys, print_alts rp prec js = Ok ys ->
  (forall y, In y ys -> y_lhs y = r_lhs rp /\ y_prec y = prec /\ Forall2 stands (r_rhs rp) (y_rhs y)) /\ (forall j, In j js -> exists y, In y ys /\ rule_print_yacc0 rp prec (Some j) = Ok y).
Proof.
  induction js as [|j js IH]; intros ys E; cbn [print_alts] in E.
  - injection E as <-. split; [intros y []|intros j []].
  - destruct (rule_print_yacc0 rp prec (Some j)) as [y| |] eqn:Y; try discriminate. cbn [bind] in E. destruct (print_alts rp prec js) as [r| |]; try discriminate. injection E as <-. destruct (IH r eq_refl) as (A & B). split.
    + intros y' [<-|I]; [|auto]. unfold rule_print_yacc0 in Y. destruct (print_rhs (Some j) (r_rhs rp)) as [x| |] eqn:X; try discriminate. injection Y as <-. cbn. split; [reflexivity|]. split; [reflexivity|]. now apply print_rhs_stands in X.
    + intros j' [<-|I]; [exists y; split; [now left|exact Y]|]. destruct (B j' I) as (y' & I' & E'). exists y'. split; [now right|exact E'].
Qed.

Lemma yacc_rule_in : forall rp prec ys, rule_print_yacc rp prec = Ok ys -> forall y, In y ys -> y_lhs y = r_lhs rp /\ y_prec y = prec /\ Forall2 stands (r_rhs rp) (y_rhs y).
Proof.
  intros rp prec ys E y I. unfold rule_print_yacc in E. destruct (first_multi (r_rhs rp)) as [m|].
  - apply print_alts_in in E as (A & _). auto.
  - unfold rule_print_yacc0 in E. destruct (print_rhs None (r_rhs rp)) as [x| |] eqn:X; try discriminate. injection E as <-. destruct I as [<-|[]]. cbn. split; [reflexivity|]. split; [reflexivity|]. now apply print_rhs_stands in X.
Qed.

Lemma reprint_in : forall prec l ys, Reprint_yacc prec l = Ok ys -> forall y, In y ys -> exists rp, In rp l /\ y_lhs y = r_lhs rp /\ y_prec y = prec rp /\ Forall2 stands (r_rhs rp) (y_rhs y).
Proof.
  intros prec. induction l as [|rp l IH]; intros ys E y I; cbn [Reprint_yacc] in E.
  - injection E as <-. destruct I.
  - destruct (rule_print_yacc rp (prec rp)) as [x| |] eqn:X; try discriminate. cbn [bind] in E. destruct (Reprint_yacc prec l) as [r| |]; try discriminate. injection E as <-.
    apply in_app_iff in I as [I|I].
    + exists rp. split; [now left|]. eapply yacc_rule_in; eauto.
    + destruct (IH r eq_refl y I) as (rp' & I' & A). exists rp'. split; [now right|exact A].
Qed.

(** * Soundness *)

Lemma stands_derives : forall g l x u v, Forall2 stands l x -> derives g (u ++ l ++ v) (u ++ map ESym x ++ v).
Proof.
  intros g l x u v F. revert u. induction F as [|e s l x S F IH]; intros u; [apply star_refl|]. cbn [app map].
  specialize (IH (u ++ [ESym s])). rewrite <- !app_assoc in IH. cbn [app] in IH. destruct e as [y|m]; cbn in S.
  - subst s. exact IH.
  - eapply star_step; [apply step_multi; exact S|exact IH].
Qed.

Lemma printed_step : forall g ys prec a b, Reprint_yacc prec (g_rules g) = Ok ys -> step (printed g ys) a b -> derives g a b.
Proof.
  intros g ys prec a b E S. inversion S as [u v r I|u v l t I]; subst.
  - cbn in I. apply in_map_iff in I as (y & <- & I). cbn [r_lhs r_rhs]. destruct (reprint_in _ _ _ E y I) as (rp & IR & L & _ & F). rewrite L.
    eapply star_step; [apply step_rule; exact IR|]. now apply stands_derives.
  - eapply star_step; [apply step_multi; exact I|apply star_refl].
Qed.

(** * Completeness *)

Lemma no_multi_print : forall l x mt, multis l = 0 -> Forall2 stands l x -> print_rhs mt l = Ok x.
Proof.
  intros l x mt M F. induction F as [|[s|m] y l x S F IH]; cbn in *; [reflexivity| |discriminate]. subst y. rewrite IH by exact M. reflexivity.
Qed.

Lemma one_multi_print : forall l x, multis l = 1 -> Forall2 stands l x -> exists m j, first_multi l = Some m /\ j < length m /\ print_rhs (Some j) l = Ok x.
Proof.
  intros l x M F. induction F as [|[s|m] y l x S F IH]; cbn in M.
  - discriminate.
  - destruct (IH M) as (m & j & A & B & C). exists m, j. cbn in S. subst y. cbn [first_multi print_rhs]. rewrite C. auto.
  - cbn in S. destruct (In_nth_error _ _ S) as (j & N). exists m, j. cbn [first_multi print_rhs opt bind]. split; [reflexivity|]. split; [apply nth_error_Some; congruence|].
    rewrite N. cbn [opt bind]. rewrite (no_multi_print l x (Some j)); [reflexivity| |exact F]. unfold multis. injection M as M. exact M.
Qed.

Lemma one_multi_ok : forall rp prec, multis (r_rhs rp) <= 1 -> exists ys, rule_print_yacc rp prec = Ok ys.
Proof.
  intros rp prec M. unfold rule_print_yacc.
  assert (A : forall l mt, multis l = 0 -> exists x, print_rhs mt l = Ok x).
  { induction l as [|[s|m] l IH]; intros mt Z; cbn in Z |- *; [eauto| |discriminate]. destruct (IH mt Z) as (x & ->). cbn [bind]. eauto. }
  assert (B : forall l, multis l <= 1 -> match first_multi l with Some m => forall j, j < length m -> exists x, print_rhs (Some j) l = Ok x | None => multis l = 0 end).
  { induction l as [|[s|m] l IH]; intros Z; cbn in Z |- *; [reflexivity| |].
    - specialize (IH Z). destruct (first_multi l); [|exact IH]. intros j J. destruct (IH j J) as (x & ->). cbn [bind]. eauto.
    - intros j J. destruct (nth_error m j) eqn:N; [|apply nth_error_None in N; lia]. cbn [opt bind]. destruct (A l (Some j)) as (x & ->); [unfold multis; lia|]. cbn [bind]. eauto. }
  specialize (B _ M). destruct (first_multi (r_rhs rp)) as [m|].
  - assert (C : forall js, (forall j, In j js -> j < length m) -> exists ys, print_alts rp prec js = Ok ys).
    { induction js as [|j js IH]; intros H; cbn [print_alts]; [eauto|]. unfold rule_print_yacc0. destruct (B j (H j (or_introl eq_refl))) as (x & ->). cbn [bind]. destruct IH as (r & ->); [intros; apply H; now right|]. cbn [bind]. eauto. }
    apply C. intros j I. apply in_seq in I. lia.
  - unfold rule_print_yacc0. destruct (A _ None B) as (x & ->). cbn [bind]. eauto.
Qed.

Lemma reprint_ok : forall prec l, (forall rp, In rp l -> multis (r_rhs rp) <= 1) -> exists ys, Reprint_yacc prec l = Ok ys.
Proof.
  intros prec. induction l as [|rp l IH]; intros H; cbn [Reprint_yacc]; [eauto|]. destruct (one_multi_ok rp (prec rp) (H rp (or_introl eq_refl))) as (x & ->). destruct IH as (y & ->); [intros; apply H; now right|]. cbn. eauto.
Qed.

Lemma reprint_complete : forall prec l ys rp x, Reprint_yacc prec l = Ok ys -> In rp l -> multis (r_rhs rp) <= 1 -> Forall2 stands (r_rhs rp) x -> In (mkY (r_lhs rp) x (prec rp)) ys.
Proof.
  intros prec. induction l as [|r l IH]; intros ys rp x E I M F; [destruct I|]. cbn [Reprint_yacc] in E.
  destruct (rule_print_yacc r (prec r)) as [y| |] eqn:Y; try discriminate. cbn [bind] in E. destruct (Reprint_yacc prec l) as [z| |]; try discriminate. injection E as <-. apply in_app_iff.
  destruct I as [->|I]; [left|right; now apply IH]. unfold rule_print_yacc in Y. destruct (Nat.eq_dec (multis (r_rhs rp)) 1) as [O|O].
  - destruct (one_multi_print _ _ O F) as (m & j & FM & J & P). rewrite FM in Y. apply print_alts_in in Y as (_ & B). destruct (B j) as (y' & I' & E'); [apply in_seq; lia|]. unfold rule_print_yacc0 in E'. rewrite P in E'. injection E' as <-. exact I'.
  - assert (Z : multis (r_rhs rp) = 0) by lia.
    assert (N : first_multi (r_rhs rp) = None).
    { clear -Z. induction (r_rhs rp) as [|[s|m] l IH]; cbn in *; [reflexivity|auto|discriminate]. }
    rewrite N in Y. unfold rule_print_yacc0 in Y. rewrite (no_multi_print _ _ None Z F) in Y. injection Y as <-. now left.
Qed.

Lemma stands_map : forall w x, Forall2 stands (map ESym w) x -> x = w.
Proof. induction w as [|s w IH]; intros x F; cbn [map] in F; inversion F as [|? ? ? ? S F']; subst; [reflexivity|]. cbn in S. subst. f_equal. auto. Qed.

Lemma stands_self : forall w, Forall2 stands (map ESym w) w.
Proof. induction w; constructor; cbn; auto. Qed.

Lemma derives_choice : forall g ys prec a b, Reprint_yacc prec (g_rules g) = Ok ys -> (forall r, In r (g_rules g) -> multis (r_rhs r) <= 1) ->
  derives g a b -> forall x, Forall2 stands b x -> exists y, Forall2 stands a y /\ derives (printed g ys) (map ESym y) (map ESym x).
Proof.
  intros g ys prec a b E M D. induction D as [a|a c b S D IH]; intros x F.
  - exists x. split; [exact F|apply star_refl].
  - destruct (IH x F) as (y & FY & DY). inversion S as [u v r I|u v l t I]; subst.
    + apply Forall2_app_inv_l in FY as (y1 & y' & F1 & FY & ->). apply Forall2_app_inv_l in FY as (y2 & y3 & F2 & F3 & ->).
      exists (y1 ++ r_lhs r :: y3). split; [apply Forall2_app; [exact F1|constructor; [reflexivity|exact F3]]|].
      eapply star_step; [|exact DY]. rewrite !map_app. cbn [map].
      change (map ESym y2) with (r_rhs (mkRule (r_lhs r) (map ESym y2))). change (ESym (r_lhs r)) with (ESym (r_lhs (mkRule (r_lhs r) (map ESym y2)))) at 1.
      apply step_rule. cbn. apply in_map_iff. exists (mkY (r_lhs r) y2 (prec r)). split; [reflexivity|]. eapply reprint_complete; eauto.
    + apply Forall2_app_inv_l in FY as (y1 & y' & F1 & FY & ->). inversion FY as [|? t' ? y3 ST F3]; subst. cbn in ST. subst t'.
      exists (y1 ++ t :: y3). split; [apply Forall2_app; [exact F1|constructor; [exact I|exact F3]]|exact DY].
Qed.

(** * Theorems *)

(** Every string of the printed grammar is a string of the grammar. *)
Theorem C30_sound : forall g prec ys w, Reprint_yacc prec (g_rules g) = Ok ys -> sentence (printed g ys) w -> sentence g w.
Proof.
  intros g prec ys w E (F & D). split; [exact F|]. cbn [printed g_start] in D. clear F.
  induction D as [a|a c b S D IH]; [apply star_refl|]. eapply star_trans; [eapply printed_step; eauto|exact IH].
Qed.

(** With at most one multi-terminal in a rule the languages are the same, for every nonterminal. *)
Theorem C30_language_partial : forall g prec, (forall r, In r (g_rules g) -> multis (r_rhs r) <= 1) ->
  exists ys, Reprint_yacc prec (g_rules g) = Ok ys /\
    (forall w, sentence (printed g ys) w <-> sentence g w) /\
    (forall A w, derives (printed g ys) [ESym A] (map ESym w) <-> derives g [ESym A] (map ESym w)).
Proof.
  intros g prec M. destruct (reprint_ok prec _ M) as (ys & E). exists ys. split; [exact E|].
  assert (D : forall A w, derives (printed g ys) [ESym A] (map ESym w) <-> derives g [ESym A] (map ESym w)).
  { intros A w. split; intros D.
    - induction D as [a|a c b S D IH]; [apply star_refl|]. eapply star_trans; [eapply printed_step; eauto|exact IH].
    - destruct (derives_choice g ys prec _ _ E M D w (stands_self w)) as (y & F & D'). apply (stands_map [A]) in F. subst y. exact D'. }
  split; [|exact D]. intros w. unfold sentence, is_term. cbn [printed g_nterm g_start]. now rewrite D.
Qed.

Definition ex30 : grammar := mkGrammar 4 6 [mkRule 4 [ESym 5; EMulti [1; 2]; ESym 4]; mkRule 4 []; mkRule 5 [EMulti [2; 3; 1]]] 4.
Example C30_example : (forall r, In r (g_rules ex30) -> multis (r_rhs r) <= 1) /\
  Reprint_yacc (fun _ => None) (g_rules ex30) = Ok [mkY 4 [5; 1; 4] None; mkY 4 [5; 2; 4] None; mkY 4 [] None; mkY 5 [2] None; mkY 5 [3] None; mkY 5 [1] None].
Proof. split; [|reflexivity]. intros r I. cbn in I. destruct I as [<-|[<-|[<-|[]]]]; cbn; lia. Qed.

Ltac wf_ex :=
  split; [cbn; lia|split; [cbn; lia|split; [|unfold is_nonterm; cbn; lia]]];
  apply Forall_cons; [|apply Forall_nil]; split; [unfold is_nonterm; cbn; lia|];
  apply Forall_cons; [|apply Forall_cons; [|apply Forall_nil]]; (split; [discriminate|]); intros t H; unfold is_term; cbn in *; intuition lia.

(** With two multi-terminals the same member is taken in both: the string 1 4 of S ::= 1|2 3|4 is lost. *)
Definition ex30b : grammar := mkGrammar 5 6 [mkRule 5 [EMulti [1; 2]; EMulti [3; 4]]] 5.
Theorem C30_two_multis_refuted : exists g ys w, wf_grammar g /\ Reprint_yacc (fun _ => None) (g_rules g) = Ok ys /\ sentence g w /\ ~ sentence (printed g ys) w.
Proof.
  exists ex30b, [mkY 5 [1; 3] None; mkY 5 [2; 4] None], [1; 4].
  split; [wf_ex|].
  split; [reflexivity|]. split.
  - split; [repeat constructor; unfold is_term; cbn; lia|].
    eapply star_step; [apply (step_rule ex30b [] [] (mkRule 5 [EMulti [1; 2]; EMulti [3; 4]])); now left|]. cbn [app r_rhs].
    eapply star_step; [apply (step_multi ex30b [] [EMulti [3; 4]] [1; 2] 1); now left|]. cbn [app].
    eapply star_step; [apply (step_multi ex30b [ESym 1] [] [3; 4] 4); right; now left|]. apply star_refl.
  - intros (_ & D). cbn [printed g_start ex30b] in D.
    assert (X : forall a b, derives (printed ex30b [mkY 5 [1; 3] None; mkY 5 [2; 4] None]) a b -> b = [ESym 1; ESym 4] -> a <> [ESym 5] /\ a <> [ESym 1; ESym 3] /\ a <> [ESym 2; ESym 4]).
    { intros a b H. induction H as [a|a c b S H IH]; intros E; [subst a; repeat split; discriminate|]. specialize (IH E) as (I1 & I2 & I3).
      inversion S as [u v r I|u v l t I]; subst.
      - cbn in I. destruct I as [<-|[<-|[]]]; cbn in *; repeat split; intros Q; destruct u as [|x [|y u]]; inversion Q; subst; cbn in *; try congruence; destruct u; discriminate.
      - repeat split; intros Q; destruct u as [|x [|y u]]; inversion Q; subst; try discriminate; destruct u; discriminate. }
    destruct (X _ _ D eq_refl) as (A & _). now apply A.
Qed.

(** ... and with multi-terminals of different sizes subsym is read outside its array. *)
Theorem C30_subsym_refuted : exists g, wf_grammar g /\ Reprint_yacc (fun _ => None) (g_rules g) = Bad.
Proof.
  exists (mkGrammar 4 5 [mkRule 4 [EMulti [1; 2]; EMulti [3]]] 4). split; [|reflexivity].
  wf_ex.
Qed.

Print Assumptions C30_sound.
Print Assumptions C30_language_partial.
Print Assumptions C30_two_multis_refuted.
Print Assumptions C30_subsym_refuted.
