(** The lookahead sets of byacc/lalr.c as relations on states (the reads, includes and
    lookback relations), and their equality with the lookaheads of the grammar. *)
From Coq Require Import List Arith Lia Bool Sorted.
Import ListNotations.
From Verif Require Import Base SpecGrammar SpecGrammarFacts SpecLRFacts SpecByacc ByaccLr0Model ByaccPackProof ByaccClosureProof
  ByaccLr0Proof ByaccStatesProof.

Section Sem.
Variable s : bsrc.
Hypothesis W : wf_src s.
Variable st : lr0st.
Hypothesis LO : lr0_ok s st.
Local Notation G := (aug s).
Local Notation sitem := (sitem s st).
Local Notation go := (go st).
Local Notation nst := (nst st).

(** Rule [r] of the user is [A : l]. *)
Definition prl (r A : nat) (l : list nat) : Prop := r <> 0 /\ nth_error (prules s) r = Some (A, l).

Lemma prl_rule : forall r A l, prl r A l -> rule_of G r = Some (mkRule A (map ESym l)).
Proof. intros r A l [N E]. rewrite (aug_rule_inv s r A l E). replace (r =? 0) with false by (symmetry; now apply Nat.eqb_neq). auto. Qed.

Lemma prl_lhs : forall r A l, prl r A l -> lhs_is G r A.
Proof. intros r A l H. eexists. split; [apply prl_rule; exact H|reflexivity]. Qed.

Lemma lhs_prl : forall r A, lhs_is G r A -> A <> b_ntokens s -> exists l, prl r A l.
Proof.
  intros r A (rl & E & EA) N. destruct (aug_rule s r rl E) as (l & rr & P1 & P2 & _). exists rr. split; [|congruence].
  intros ->. cbn in E. inversion E. subst. cbn in N. congruence.
Qed.

Lemma prl_In : forall r A l, prl r A l -> In (A, l) (b_rules s).
Proof. intros r A l [N E]. destruct r as [|r]; [congruence|]. cbn in E. eapply nth_error_In; eauto. Qed.

Lemma prl_after : forall r A l d, prl r A l -> after_dot G (r, d) = option_map ESym (nth_error l d).
Proof. intros r A l d H. unfold after_dot. cbn [fst snd]. rewrite (prl_rule _ _ _ H). cbn [r_rhs]. apply nth_error_map. Qed.

Lemma prl_rest : forall r A l d, prl r A l -> rest_after G (r, d) = map ESym (skipn (S d) l).
Proof.
  intros r A l d H. unfold rest_after. cbn [fst snd]. rewrite (prl_rule _ _ _ H). cbn [r_rhs]. rewrite skipn_map. reflexivity.
Qed.

Lemma prl_sym : forall r A l x, prl r A l -> In x l -> 0 < x < b_nsyms s /\ x <> b_ntokens s.
Proof. intros r A l x H I. exact (proj2 (ws_rules s W A l (prl_In _ _ _ H)) x I). Qed.

Lemma prl_lhs_range : forall r A l, prl r A l -> b_ntokens s < A < b_nsyms s.
Proof. intros r A l H. exact (proj1 (ws_rules s W A l (prl_In _ _ _ H))). Qed.

(** ** Paths *)
Inductive path : nat -> list nat -> nat -> Prop :=
| path_nil : forall p, path p [] p
| path_cons : forall p x p' l q, go p x p' -> path p' l q -> path p (x :: l) q.

Lemma path_app : forall p l q l' q', path p l q -> path q l' q' -> path p (l ++ l') q'.
Proof. intros p l q l' q' H. induction H; intros H'; [auto|]. cbn. econstructor; eauto. Qed.

Lemma path_app_inv : forall l l' p q', path p (l ++ l') q' -> exists q, path p l q /\ path q l' q'.
Proof.
  induction l as [|x l IH]; intros l' p q' H; cbn in H; [exists p; split; [constructor|auto]|].
  inversion H; subst. destruct (IH _ _ _ H5) as (q & A & B). exists q. split; [econstructor; eauto|auto].
Qed.

Lemma path_det : forall p l q q', path p l q -> path p l q' -> q = q'.
Proof.
  intros p l q q' H. revert q'. induction H as [p|p x p' l q H H' IH]; intros q' P; inversion P; subst; auto.
  apply IH. replace p' with p'0; [auto|]. eapply (go_det s st LO); eauto.
Qed.

Lemma go_item : forall p x q i, go p x q -> sitem p i -> after_dot G i = Some (ESym x) -> sitem q (fst i, S (snd i)).
Proof.
  intros p x q i H Hi A. destruct (go_sitem s W st LO _ _ _ H) as (_ & _ & _ & _ & Sq). apply Sq. apply clos_base. exists i. auto.
Qed.

Lemma go_back : forall p x q r d, go p x q -> sitem q (r, S d) -> sitem p (r, d) /\ after_dot G (r, d) = Some (ESym x).
Proof.
  intros p x q r d H Hi. destruct (go_sitem s W st LO _ _ _ H) as (_ & _ & _ & _ & Sq). apply Sq in Hi.
  inversion Hi as [j K|j A r' Cj Aj Lr]; subst. destruct K as ([r0 d0] & A1 & A2 & A3). cbn in A3. inversion A3; subst. auto.
Qed.

Lemma closure_item : forall p i A r, sitem p i -> after_dot G i = Some (ESym A) -> lhs_is G r A -> sitem p (r, 0).
Proof. intros p i A r (c & E & C) H L. exists c. split; [auto|]. eapply clos_step; eauto. Qed.

Lemma path_item : forall r A pre l post p q, prl r A (pre ++ l ++ post) -> sitem p (r, length pre) -> path p l q -> sitem q (r, length pre + length l).
Proof.
  intros r A pre l. revert pre. induction l as [|x l IH]; intros pre post p q P Hi H; inversion H; subst.
  - cbn. rewrite Nat.add_0_r. auto.
  - assert (S1 : sitem p' (r, S (length pre))).
    { apply (go_item p x p' (r, length pre) H3 Hi). rewrite (prl_after _ _ _ _ P). rewrite nth_error_app2, Nat.sub_diag by auto. reflexivity. }
    replace (length pre + length (x :: l)) with (length (pre ++ [x]) + length l) by (rewrite app_length; cbn; lia).
    apply (IH (pre ++ [x]) post p' q); [rewrite <- app_assoc; exact P| |auto]. rewrite app_length. cbn. rewrite Nat.add_1_r. auto.
Qed.

Lemma path_ex : forall r A l pre p, prl r A (pre ++ l) -> sitem p (r, length pre) -> exists q, path p l q.
Proof.
  intros r A l. induction l as [|x l IH]; intros pre p P Hi; [exists p; constructor|].
  assert (AD : after_dot G (r, length pre) = Some (ESym x)).
  { rewrite (prl_after _ _ _ _ P). rewrite nth_error_app2, Nat.sub_diag by auto. reflexivity. }
  destruct (go_ex s W st LO p _ x Hi AD) as (p' & Hg). pose proof (go_item p x p' _ Hg Hi AD) as S1. cbn [fst snd] in S1.
  destruct (IH (pre ++ [x]) p') as (q & Hq); [rewrite <- app_assoc; exact P|rewrite app_length; cbn; rewrite Nat.add_1_r; auto|].
  exists q. econstructor; eauto.
Qed.

(** A nonterminal transition comes with the rules of the nonterminal. *)
Lemma goto_rule : forall p A q r, go p A q -> lhs_is G r A -> sitem p (r, 0).
Proof.
  intros p A q r H L. destruct (go_sitem s W st LO _ _ _ H) as (_ & (i & Si & Ai) & _). eapply closure_item; eauto.
Qed.

(** ** The relations *)

(** The tokens that can be shifted from a state after some empty nonterminals. *)
Inductive Rd : nat -> nat -> Prop :=
| rd_shift : forall q t q', go q t q' -> t < b_ntokens s -> Rd q t
| rd_null : forall q x q' t, go q x q' -> nullable G [ESym x] -> Rd q' t -> Rd q t.

(** The set of a nonterminal transition. *)
Inductive Fol : nat -> nat -> nat -> Prop :=
| fol_end : Fol 0 (S (b_ntokens s)) 0
| fol_read : forall p A q t, go p A q -> b_ntokens s < A -> Rd q t -> Fol p A t
| fol_inc : forall p A t r al B ga p' q', Fol p A t -> prl r A (al ++ B :: ga) -> path p al p' -> go p' B q' -> b_ntokens s < B ->
    nullable G (map ESym ga) -> Fol p' B t.

Lemma start_0 : sitem 0 (0, 0).
Proof. apply (sitem_0 s W st LO). apply valid_init. eexists. split; reflexivity. Qed.

Lemma fol_go : forall p A t, Fol p A t -> b_ntokens s < A /\ exists q, go p A q.
Proof.
  intros p A t H. destruct H.
  - split; [lia|]. apply (go_ex s W st LO 0 (0, 0)); [apply start_0|reflexivity].
  - split; [auto|eauto].
  - split; [auto|eauto].
Qed.

(** Any item of a state with [t] in the FIRST of what remains stems from a kernel
    item with that property. *)
Definition remaining (i : item) : list elem := match rule_of G (fst i) with Some r => skipn (snd i) (r_rhs r) | None => [] end.

Lemma remaining_cons : forall i X, after_dot G i = Some X -> remaining i = X :: rest_after G i.
Proof.
  intros i X H. unfold after_dot, remaining, rest_after in *. destruct (rule_of G (fst i)) as [r|]; [|discriminate].
  apply nth_error_split in H as (l1 & l2 & E & L). rewrite E, <- L. rewrite !skipn_app, Nat.sub_diag.
  replace (S (length l1) - length l1) with 1 by lia. rewrite skipn_all, (skipn_all2 l1 (n := S (length l1))) by lia. reflexivity.
Qed.

Lemma remaining_S : forall i, remaining (fst i, S (snd i)) = rest_after G i.
Proof. intros i. reflexivity. Qed.

Lemma lift_kernel : forall q i t, sitem q i -> first G (remaining i) t ->
  exists j, sitem q j /\ first G (remaining j) t /\ exists c, nth_error (l_cores st) q = Some c /\ kitems s (c_items c) j.
Proof.
  intros q i t (c & E & C). induction C as [i K|i A r C IH HA L]; intros F.
  - exists i. split; [exists c; split; [auto|now apply clos_base]|]. split; [auto|]. exists c. auto.
  - apply IH. rewrite (remaining_cons i _ HA). apply (first_cons G). left.
    destruct L as (rl & E1 & <-). apply (SpecGrammarFacts.first_rule G); [eapply nth_error_In; exact E1|].
    unfold remaining in F. cbn [fst snd] in F. rewrite E1 in F. exact F.
Qed.

Lemma rd_first : forall q t, Rd q t -> exists i, sitem q i /\ first G (remaining i) t.
Proof.
  intros q t H. induction H as [q t q' H L|q x q' t H N R IH].
  - destruct (go_sitem s W st LO _ _ _ H) as (P0 & (i & Si & Ai) & _). exists i. split; [auto|]. rewrite (remaining_cons i _ Ai).
    apply (first_cons G). left. apply (first_term G). unfold is_term. cbn. auto.
  - destruct IH as (i & Si & Fi). destruct (lift_kernel q' i t Si Fi) as ([r d] & Sj & Fj & (c & Ec & Kj)).
    destruct (go_sitem s W st LO _ _ _ H) as (_ & _ & Nq & _).
    apply (proj2 (proj2 (core_items s W st LO q' c Ec)) _ Sj) in Kj || (destruct Kj as [_ Kj]; apply (proj2 (proj2 (core_items s st LO q' c Ec)) _ Sj) in Kj).
    replace (q' =? 0) with false in Kj by (symmetry; now apply Nat.eqb_neq). cbn [snd] in Kj. destruct d as [|d]; [lia|].
    destruct (go_back q x q' r d H Sj) as [Sp Ap]. exists (r, d). split; [auto|]. rewrite (remaining_cons _ _ Ap).
    apply (first_cons G). right. split; [auto|]. exact Fj.
Qed.

Lemma first_rd : forall t v, firstc G t v -> forall q i, sitem q i -> remaining i = v -> Rd q t.
Proof.
  intros t v H. induction H as [v T|l v T I|rl v Ir H IH|x v N H IH]; intros q i Si E.
  - assert (A : after_dot G i = Some (ESym t)).
    { unfold remaining, after_dot in *. destruct (rule_of G (fst i)); [|discriminate]. clear - E. revert E. generalize (snd i). generalize (r_rhs r).
      intros l n. revert l. induction n; intros [|x l] E; cbn in *; try discriminate; auto. congruence. }
    destruct (go_ex s W st LO q i t Si A) as (q' & Hg). apply (rd_shift q t q' Hg). exact T.
  - exfalso. assert (A : after_dot G i = Some (EMulti l)).
    { unfold remaining, after_dot in *. destruct (rule_of G (fst i)); [|discriminate]. clear - E. revert E. generalize (snd i). generalize (r_rhs r).
      intros ll n. revert ll. induction n; intros [|x ll] E; cbn in *; try discriminate; auto. congruence. }
    destruct (after_dot_wf s W _ _ A) as (y & Ey & _). discriminate.
  - assert (A : after_dot G i = Some (ESym (r_lhs rl))).
    { unfold remaining, after_dot in *. destruct (rule_of G (fst i)); [|discriminate]. clear - E. revert E. generalize (snd i). generalize (r_rhs r).
      intros l n. revert l. induction n; intros [|x l] E; cbn in *; try discriminate; auto. congruence. }
    apply In_nth_error in Ir as (r & Er). apply (IH q (r, 0)).
    + eapply closure_item; eauto. exists rl. auto.
    + unfold remaining. cbn [fst snd]. unfold rule_of. rewrite Er. reflexivity.
  - assert (A : after_dot G i = Some x).
    { unfold remaining, after_dot in *. destruct (rule_of G (fst i)); [|discriminate]. clear - E. revert E. generalize (snd i). generalize (r_rhs r).
      intros l n. revert l. induction n; intros [|y l] E; cbn in *; try discriminate; auto. congruence. }
    destruct (after_dot_wf s W _ _ A) as (y & -> & _). destruct (go_ex s W st LO q i y Si A) as (q' & Hg).
    apply (rd_null q y q' t Hg N). apply (IH q' (fst i, S (snd i))).
    + eapply go_item; eauto.
    + rewrite remaining_S. rewrite (remaining_cons _ _ A) in E. congruence.
Qed.

(** ** Soundness *)
Definition leads (q : nat) (gm : list elem) : Prop := forall i, sitem q i <-> valid G gm i.

Lemma path_la : forall r A t l pre post p q gm, prl r A (pre ++ l ++ post) -> leads p gm -> la G gm (r, length pre) t -> path p l q ->
  exists gm', leads q gm' /\ la G gm' (r, length pre + length l) t.
Proof.
  intros r A t l. induction l as [|x l IH]; intros pre post p q gm P Le La H; inversion H; subst.
  - exists gm. cbn. rewrite Nat.add_0_r. auto.
  - assert (AD : after_dot G (r, length pre) = Some (ESym x)).
    { rewrite (prl_after _ _ _ _ P). rewrite nth_error_app2, Nat.sub_diag by auto. reflexivity. }
    destruct (IH (pre ++ [x]) post p' q (ESym x :: gm)) as (gm' & A1 & A2).
    + rewrite <- app_assoc. exact P.
    + intros i. exact (go_valid s W st LO p x p' gm H3 Le i).
    + rewrite app_length. cbn [length]. rewrite Nat.add_1_r. exact (la_goto G gm (r, length pre) t (ESym x) La AD).
    + auto.
    + exists gm'. split; [auto|]. rewrite app_length in A2. cbn [length] in *. replace (length pre + S (length l)) with (length pre + 1 + length l) by lia. auto.
Qed.

Lemma fol_la : forall p A t, Fol p A t -> exists gm, leads p gm /\ forall r, lhs_is G r A -> la G gm (r, 0) t.
Proof.
  intros p A t H. induction H as [|p A q t Hg NA R|p A t r al B ga p' q' F IH P Pa Hg NB Nu].
  - exists []. split; [intros i; apply (sitem_0 s W st LO)|]. intros r L. apply (la_null G [] (0, 0) 0 (S (b_ntokens s)) r).
    + apply la_init. eexists. split; reflexivity.
    + reflexivity.
    + exact L.
    + apply (nullable_nil G).
  - destruct (rd_first q t R) as (i & Si & Fi). destruct (lift_kernel q i t Si Fi) as ([r d] & Sj & Fj & (c & Ec & Kj)).
    destruct (go_sitem s W st LO _ _ _ Hg) as (_ & _ & Nq & _).
    destruct Kj as [_ Kj]. apply (proj2 (proj2 (core_items s st LO q c Ec)) _ Sj) in Kj.
    replace (q =? 0) with false in Kj by (symmetry; now apply Nat.eqb_neq). cbn [snd] in Kj. destruct d as [|d]; [lia|].
    destruct (go_back p A q r d Hg Sj) as [Sp Ap].
    destruct (sitem_gm s st LO p) as (gm & Hgm). { destruct Hg as [I _]. exact (shifts_bound s st LO _ _ I). }
    exists gm. split; [exact Hgm|]. intros r' L. apply (la_first G gm (r, d) A r' t); [now apply Hgm|auto|auto|]. exact Fj.
  - destruct IH as (gm & Le & La). destruct (path_la r A t al [] (B :: ga) p p' gm P Le (La r (prl_lhs _ _ _ P)) Pa) as (gm' & Le' & La').
    cbn [length] in La'. exists gm'. split; [auto|]. intros r' L. apply (la_null G gm' (r, length al) t B r').
    + exact La'.
    + rewrite (prl_after _ _ _ _ P), nth_error_app2, Nat.sub_diag by auto. reflexivity.
    + exact L.
    + rewrite (prl_rest _ _ _ _ P). replace (skipn (S (length al)) (al ++ B :: ga)) with ga; [auto|].
      rewrite skipn_app, skipn_all2 by lia. replace (S (length al) - length al) with 1 by lia. reflexivity.
Qed.

(** ** Completeness *)
Lemma la_fol : forall gm i t, la G gm i t -> forall q, leads q gm ->
  (fst i = 0 /\ t = 0) \/ exists A l p, prl (fst i) A l /\ path p (firstn (snd i) l) q /\ Fol p A t.
Proof.
  intros gm i t H. induction H as [r L|gm i A r u V HA L F|gm i t A r H IH HA L N|gm i t X H IH HA]; intros q Le.
  - left. cbn. split; [|auto]. destruct L as (rl & E & EA). destruct (aug_rule s r rl E) as (l & rr & P1 & P2 & _ & _ & P5).
    destruct (Nat.eq_dec r 0) as [|Nr]; [auto|]. exfalso. cbn in EA. pose proof (ws_rules s W l rr (P5 Nr)) as [Q _]. lia.
  - right. cbn [fst snd]. destruct (after_dot_wf s W _ _ HA) as (y & Ey & Ry & Ny). inversion Ey; subst y.
    destruct (lhs_prl r A L Ny) as (l & P). exists A, l, q. split; [exact P|]. split; [constructor|].
    apply Le in V. destruct (go_ex s W st LO q i A V HA) as (q' & Hg). apply (fol_read q A q' u Hg).
    + pose proof (prl_lhs_range _ _ _ P). lia.
    + apply (first_rd u (rest_after G i)) with (i := (fst i, S (snd i))).
      * apply first_firstc; [apply wf_aug; auto| |auto]. apply rest_after_wf. now apply wf_aug.
      * eapply go_item; eauto.
      * apply remaining_S.
  - right. cbn [fst snd]. destruct (after_dot_wf s W _ _ HA) as (y & Ey & Ry & Ny). inversion Ey; subst y.
    destruct (lhs_prl r A L Ny) as (l & P). exists A, l, q. split; [exact P|]. split; [constructor|].
    pose proof (prl_lhs_range _ _ _ P) as RA. pose proof (la_valid G _ _ _ H) as V. apply Le in V.
    destruct (IH q Le) as [[Z ->]|(A' & l' & p & P' & Pa & Fo)].
    + destruct i as [r0 d0]. cbn in Z. subst r0.
      assert (d0 = 0 /\ A = S (b_ntokens s)) as [-> ->]. { unfold after_dot in HA. cbn in HA. destruct d0 as [|[|]]; cbn in HA; inversion HA; auto. }
      rewrite (start_item s W st LO q V). apply fol_end.
    + destruct i as [r0 d0]. cbn [fst snd] in *. rewrite (prl_after _ _ _ _ P') in HA.
      destruct (nth_error l' d0) as [B|] eqn:EB; [|discriminate]. cbn in HA. inversion HA; subst B.
      rewrite (prl_rest _ _ _ _ P') in N.
      apply nth_error_split in EB as (l1 & l2 & El & Ll). subst l' d0.
      assert (F1 : firstn (length l1) (l1 ++ A :: l2) = l1) by (rewrite firstn_app, Nat.sub_diag, firstn_all; cbn; apply app_nil_r).
      rewrite F1 in Pa. destruct (go_ex s W st LO q (r0, length l1) A V) as (q' & Hg).
      { rewrite (prl_after _ _ _ _ P'), nth_error_app2, Nat.sub_diag by auto. reflexivity. }
      apply (fol_inc p A' t r0 l1 A l2 q q' Fo P' Pa Hg); [lia|].
      replace (skipn (S (length l1)) (l1 ++ A :: l2)) with l2 in N; [auto|].
      rewrite skipn_app, skipn_all2 by lia. replace (S (length l1) - length l1) with 1 by lia. reflexivity.
  - destruct (after_dot_wf s W _ _ HA) as (x & -> & _). pose proof (la_valid G _ _ _ H) as V.
    destruct (state_of s W st LO gm i V) as (q0 & Lq0 & Le0). cbn [fst snd].
    destruct (IH q0 Le0) as [Z|(A & l & p & P & Pa & Fo)]; [auto|]. right. exists A, l, p. split; [auto|]. split; [|auto].
    destruct (go_ex s W st LO q0 i x (proj2 (Le0 i) V) HA) as (q1 & Hg).
    destruct (go_sitem s W st LO _ _ _ Hg) as (_ & _ & _ & Lq1 & _).
    assert (q1 = q).
    { apply (state_inj s W st LO); [auto| |].
      - assert (S1 : sitem q (fst i, S (snd i))) by (apply Le; apply (valid_goto G gm i (ESym x)); auto). exact (sitem_lt s st q _ S1).
      - intros k. rewrite (Le k). exact (go_valid s W st LO q0 x q1 gm Hg Le0 k). }
    subst q1. destruct i as [r d]. cbn [fst snd] in *. rewrite (prl_after _ _ _ _ P) in HA.
    destruct (nth_error l d) as [B|] eqn:EB; [|discriminate]. cbn in HA. inversion HA; subst B.
    apply nth_error_split in EB as (l1 & l2 & El & Ll). subst l d.
    replace (firstn (S (length l1)) (l1 ++ x :: l2)) with (l1 ++ [x]).
    + replace (firstn (length l1) (l1 ++ x :: l2)) with l1 in Pa by (rewrite firstn_app, Nat.sub_diag, firstn_all; cbn; symmetry; apply app_nil_r).
      eapply path_app; [exact Pa|]. econstructor; [exact Hg|constructor].
    + rewrite firstn_app, firstn_all2 by lia. replace (S (length l1) - length l1) with 1 by lia. reflexivity.
Qed.

(** The lookaheads of rule [r] in state [q]. *)
Definition LAs (q r t : nat) : Prop := exists A l p, prl r A l /\ path p l q /\ Fol p A t.

Theorem LAs_la : forall q r A l t, prl r A l -> 
  (LAs q r t <-> exists gm, leads q gm /\ la G gm (r, length l) t).
Proof.
  intros q r A l t P. split.
  - intros (A' & l' & p & P' & Pa & Fo). assert (A' = A /\ l' = l) as [-> ->].
    { destruct P as [_ P]. destruct P' as [_ P']. rewrite P in P'. inversion P'. auto. }
    destruct (fol_la p A t Fo) as (gm & Le & La).
    destruct (path_la r A t l [] [] p q gm ltac:(cbn; rewrite app_nil_r; exact P) Le (La r (prl_lhs _ _ _ P)) Pa) as (gm' & L1 & L2). eauto.
  - intros (gm & Le & La). destruct (la_fol gm _ t La q Le) as [[Z _]|(A' & l' & p & P' & Pa & Fo)]; cbn [fst snd] in *.
    + destruct P as [N _]. congruence.
    + exists A', l', p. split; [auto|]. split; [|auto]. assert (l' = l) as ->.
      { destruct P as [_ P]. destruct P' as [_ P']. rewrite P in P'. inversion P'. auto. }
      now rewrite firstn_all in Pa.
Qed.
End Sem.
