(** The number of precedence levels byacc has counted in a file. *)
From Coq Require Import String List Arith ZArith Bool Lia.
Import ListNotations.
From Verif Require Import Base LemonTableModel LemonPreModel LemonCodeModel ByaccParModel ByaccReaderModel ByaccRulesModel ByaccScanModel Prop_ByaccLiteral SpecByaccFile
  ByaccScanProof ByaccTableProof ByaccDeclProof ByaccActionProof ByaccFileProof.
Open Scope rd_scope.

(** A tactic that goes through the binds of a hypothesis. *)
Ltac binds H :=
  repeat (cbn [rbind] in H; cbv beta iota zeta in H;
    match type of H with
    | RErr = ROk _ => discriminate H
    | RBad = ROk _ => discriminate H
    | RFuel = ROk _ => discriminate H
    | ROut = ROk _ => discriminate H
    | rbind ?m _ = ROk _ => let E := fresh "E" in destruct m eqn:E
    | (match ?m with _ => _ end) = ROk _ => let E := fresh "E" in destruct m eqn:E
    end).


Lemma lookup_prec : forall n s i s', lookup n s = (i, s') -> d_prec s' = d_prec s.
Proof. intros n s i s' H. unfold lookup in H. destruct (index_of _ _); injection H as _ <-; reflexivity. Qed.
Lemma update_prec : forall i f s, d_prec (update i f s) = d_prec s.
Proof. intros i f s. unfold update. destruct (nth_error _ _); reflexivity. Qed.

Lemma name_prec : forall t s i r s', get_name t s = ROk (i, r, s') -> d_prec s' = d_prec s.
Proof. intros t s i r s' H. unfold get_name in H. binds H. injection H as _ _ <-. eapply lookup_prec; eauto. Qed.
Lemma literal_prec : forall t s i r s', get_literal t s = ROk (i, r, s') -> d_prec s' = d_prec s.
Proof.
  intros t s i r s' H. unfold get_literal in H. destruct t as [|q t]; [discriminate|]. destruct (literal _ _ _) as [x| | | |]; try discriminate. cbn [rbind] in H. destruct (lookup _ s) as (j & s1) eqn:EL. apply lookup_prec in EL.
  cbv zeta in H. destruct (info _ _) as [b| | | |]; try discriminate. cbn [rbind] in H. injection H as _ _ <-. destruct (fst x) as [|c [|]]; rewrite ?update_prec; try exact EL. destruct (b_value b =? UNDEFINED)%Z; rewrite ?update_prec; exact EL.
Qed.
Lemma tag_prec : forall t s i r s', get_tag t s = ROk (i, r, s') -> d_prec s' = d_prec s.
Proof. intros t s i r s' H. unfold get_tag in H. binds H. injection H as _ _ <-. reflexivity. Qed.
Lemma flush_prec : forall s s', flush s = ROk s' -> d_prec s' = d_prec s.
Proof. intros s s' H. unfold flush in H. binds H; injection H as <-; reflexivity. Qed.
Lemma dollar_prec : forall its t s u r s', dollar its t s = ROk (Some (u, r, s')) -> d_prec s' = d_prec s.
Proof. intros its t s u r s' H. unfold dollar in H. binds H; try discriminate H; injection H as _ _ <-; try reflexivity; try (cbn [set_tags d_prec]); match goal with E : get_tag _ _ = _ |- _ => now apply tag_prec in E end. Qed.
Lemma action_prec : forall f its d t s r s', action_loop f its d t s = ROk (r, s') -> d_prec s' = d_prec s.
Proof.
  induction f as [|f IH]; intros its d t s r s' H; [discriminate|]. cbn [action_loop] in H. destruct t as [|c t]; [discriminate|].
  match type of H with rbind ?m _ = _ => destruct m as [x| | | |] eqn:EX; try discriminate H end. cbn [rbind] in H. destruct x as [((u & t1) & s1)|].
  - apply IH in H. rewrite H. cbn [add_out d_prec]. destruct (c =? 36)%Z; [now apply dollar_prec in EX|]. destruct (c =? 64)%Z; [|discriminate]. destruct (at_sign its t) as [[(u2 & t2)|]| | | |]; try discriminate EX. cbn [rbind] in EX. injection EX as _ _ <-. reflexivity.
  - binds H; first [apply IH in H; rewrite H; reflexivity|injection H as _ <-; reflexivity].
Qed.
Lemma copy_action_prec : forall t s r s', copy_action t s = ROk (r, s') -> d_prec s' = d_prec s.
Proof.
  intros t s r s' H. unfold copy_action in H. destruct (flush s) as [s1| | | |] eqn:E1; try discriminate H. apply flush_prec in E1. cbn [rbind] in H. cbv zeta in H. destruct (rule_items _) as [its| | | |]; try discriminate H. cbn [rbind] in H.
  match type of H with context [match ?m with Some t => _ | None => _ end] => destruct m as [t1|] end; match type of H with rbind ?m _ = _ => destruct m as [(t2 & s2)| | | |] eqn:E2; try discriminate H end; cbn [rbind] in H; injection H as _ <-; cbn [add_out set_rules d_prec]; apply action_prec in E2; rewrite E2; exact E1.
Qed.
Lemma begin_prec : forall i s s', begin_rule i s = ROk s' -> d_prec s' = d_prec s.
Proof. intros i s s' H. unfold begin_rule in H. binds H; injection H as <-; cbn [set_rules d_prec]; apply update_prec. Qed.
Lemma add_prec : forall t s r s', add_symbol t s = ROk (r, s') -> d_prec s' = d_prec s.
Proof.
  intros t s r s' H. unfold add_symbol in H. match type of H with rbind ?m _ = _ => destruct m as [((i & t1) & s1)| | | |] eqn:E1; try discriminate H end.
  assert (P : d_prec s1 = d_prec s) by (match type of E1 with (if ?b then _ else _) = _ => destruct b end; [eapply literal_prec; eauto|eapply name_prec; eauto]). clear E1. cbn [rbind] in H. destruct (next t1) as [(c & t2)| | | |]; try discriminate H. cbn [rbind] in H.
  assert (D : (exists s2, flush s1 = ROk s2 /\ d_prec s' = d_prec s2) \/ (exists s2, begin_rule i (set_rules (end_rule (d_rules s1)) s1) = ROk s2 /\ s' = s2)).
  { binds H; first [left; eexists; split; [first [eassumption|reflexivity]|injection H as _ <-; reflexivity]|right; eexists; split; [first [eassumption|reflexivity]|injection H as _ <-; reflexivity]]. }
  destruct D as [(s2 & E & ->)|(s2 & E & ->)]; [apply flush_prec in E|apply begin_prec in E]; cbn [set_rules d_prec] in E; congruence.
Qed.
Lemma mark_prec : forall t s b r s', mark_symbol t s = ROk (b, r, s') -> d_prec s' = d_prec s.
Proof.
  intros t s b r s' H. unfold mark_symbol in H. destruct t as [|c t]; [discriminate|]. destruct ((c =? 37) || (c =? 92))%Z; [injection H as _ _ <-; reflexivity|]. destruct (word_is (zs "empty") _); [injection H as _ _ <-; reflexivity|].
  destruct (_ || _)%bool; [|discriminate]. match type of H with rbind ?m _ = _ => destruct m as [(o & t1)| | | |]; try discriminate H end. cbn [rbind] in H.
  match type of H with rbind ?m _ = _ => destruct m as [((i & t2) & s1)| | | |] eqn:E1; try discriminate H end. cbn [rbind] in H. assert (P : d_prec s1 = d_prec s).
  { destruct o as [d|]; [|discriminate]. destruct (name_first d); [eapply name_prec; eauto|]. destruct (quote_first d); [eapply literal_prec; eauto|discriminate]. }
  destruct (r_prec (d_rules s1)); [discriminate|]. injection H as _ _ <-. exact P.
Qed.
Lemma loop_prec : forall f t s r s', rules_loop f t s = ROk (r, s') -> d_prec s' = d_prec s.
Proof.
  induction f as [|f IH]; intros t s r s' H; [discriminate|]. cbn [rules_loop] in H. destruct (next t) as [(c & t1)| | | |]; try discriminate H. cbn [rbind] in H. destruct c as [c|]; [|injection H as _ <-; reflexivity].
  destruct (_ || _)%bool. { destruct (add_symbol t1 s) as [(t2 & s2)| | | |] eqn:E; try discriminate H. cbn [rbind] in H. apply IH in H. apply add_prec in E. congruence. }
  destruct (_ || _)%bool. { destruct (copy_action t1 s) as [(t2 & s2)| | | |] eqn:E; try discriminate H. cbn [rbind] in H. apply IH in H. apply copy_action_prec in E. congruence. }
  destruct (_ =? _)%Z. { cbv zeta in H. destruct (r_lhs _); [discriminate|]. apply IH in H. exact H. }
  destruct (_ =? _)%Z; [|discriminate]. destruct (mark_symbol (tl t1) s) as [((b & t2) & s2)| | | |] eqn:E; try discriminate H. cbn [rbind] in H. apply mark_prec in E. destruct b; [injection H as _ <-; exact E|]. apply IH in H. congruence.
Qed.
Lemma start_prec : forall t s r s', declare_start t s = ROk (r, s') -> d_prec s' = d_prec s.
Proof.
  intros t s r s' H. unfold declare_start in H. destruct (next_some t) as [(c & t1)| | | |]; try discriminate H. cbn [rbind] in H. destruct (name_first c); [|discriminate]. destruct (get_name t1 s) as [((i & t2) & s1)| | | |] eqn:E; try discriminate H.
  apply name_prec in E. cbn [rbind] in H. binds H; injection H as _ <-; exact E.
Qed.
Lemma before_prec : forall f t s r s', before_rules f t s = ROk (r, s') -> d_prec s' = d_prec s.
Proof.
  induction f as [|f IH]; intros t s r s' H; [discriminate|]. cbn [before_rules] in H. destruct (next t) as [(c & t1)| | | |]; try discriminate H. cbn [rbind] in H.
  assert (D : s' = s \/ exists t2 s2, before_rules f t2 s2 = ROk (r, s') /\ (s2 = s \/ exists t3 t4, declare_start t3 s = ROk (t4, s2))).
  { binds H; first [injection H as _ <-; now left|right; do 2 eexists; split; [exact H|]; first [now left|right; do 2 eexists; eassumption]]. }
  destruct D as [->|(t2 & s2 & E & D)]; [reflexivity|]. apply IH in E. destruct D as [->|(t3 & t4 & D)]; [exact E|]. apply start_prec in D. congruence.
Qed.
Lemma advance_prec : forall t s r s', advance_to_start t s = ROk (r, s') -> d_prec s' = d_prec s.
Proof.
  intros t s r s' H. unfold advance_to_start in H. destruct (before_rules _ t s) as [(t1 & s1)| | | |] eqn:E1; try discriminate H. apply before_prec in E1. cbn [rbind] in H. destruct (next t1) as [(c & t2)| | | |]; try discriminate H. cbn [rbind] in H.
  destruct c as [c|]; [|discriminate]. destruct (negb _); [discriminate|]. destruct (get_name t2 s1) as [((i & t3) & s2)| | | |] eqn:E2; try discriminate H. apply name_prec in E2. cbn [rbind] in H. destruct (info i s2) as [b| | | |]; try discriminate H. cbn [rbind] in H.
  match type of H with rbind ?m _ = _ => destruct m as [s3| | | |] eqn:E3; try discriminate H end. assert (P : d_prec s3 = d_prec s2) by (binds E3; injection E3 as <-; reflexivity). cbn [rbind] in H.
  destruct (next_some t3) as [(d & t4)| | | |]; try discriminate H. cbn [rbind] in H. destruct (d =? 40)%Z; [discriminate|]. destruct (d =? 58)%Z; [|discriminate]. destruct (begin_rule i s3) as [s4| | | |] eqn:E4; try discriminate H. apply begin_prec in E4. cbn [rbind] in H. injection H as _ <-. congruence.
Qed.

(** All the precedence declarations are counted. *)
Lemma file_prec : forall F file s, file_text F (input file) -> file_ok F -> read_file file = ROk s -> d_prec s = fold_left level (f_decls F) 0.
Proof.
  intros F file s FT OK H. pose proof (file_fit F OK) as DF. inversion FT as [ds gs g t p q g' u G V DT Pp Pq G' VU GT EF ET]; subst F. cbn [f_decls f_groups] in *.
  assert (DOK : decls_ok [] 0 None false ds) by exact (decls_ok_of ds [] DF).
  destruct (decls_read ds t (p :: q :: g' ++ u) DT (S (List.length (g ++ t))) [] 0 None false false init_state g p q (g' ++ u) eq_refl Pp Pq G init_dst DOK (Nat.lt_succ_diag_r _)) as (s0 & E0 & D0).
  unfold read_file in H. rewrite <- ET in H. cbv zeta in H. rewrite E0 in H. cbn [rbind] in H. unfold read_rules in H. destruct (advance_to_start _ s0) as [(t1 & s1)| | | |] eqn:E1; try discriminate H. cbn [rbind] in H.
  destruct (rules_loop _ t1 s1) as [(t2 & s2)| | | |] eqn:E2; try discriminate H. cbn [rbind] in H. unfold check_symbols in H. binds H; injection H as <-; cbn [set_infos set_syms set_rules d_prec]; apply loop_prec in E2; apply advance_prec in E1; pose proof (dd_prec _ _ _ _ _ _ D0); congruence.
Qed.
