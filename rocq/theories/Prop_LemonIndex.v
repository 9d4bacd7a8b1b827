(** C59: the grammar and the settings the passes of lemon start from are those the file
    declares. *)
From Coq Require Import String List Arith ZArith Bool Lia.
Import ListNotations.
From Verif Require Import Base SpecGrammar CLib SpecGrammarFacts LemonParModel LemonSoundProof Prop_LemonTables Prop_LemonSound LemonTableModel LemonTableProof Prop_LemonSymbols LemonPreModel LemonActionModel LemonPipelineModel LemonReadModel LemonTabProof LemonScanProof Prop_LemonScan SpecItems LemonReadProof SpecFile LemonIndexProof Prop_LemonRead.
Local Open Scope res_scope.

(** The codes: 0 for "$", from 1 on the tokens, then the nonterminals, each in the order of
    their first mention; rules, start symbol, precedences, precedence marks, the wildcard,
    the symbol error and the fallback table refer to them. *)
Theorem C59_grammar : forall o items evs compress yacc a1 a2, let ign := ro_ignorePrec o in
  Forall item_shape items -> items_new ign items -> texts evs (flat_map item_tokens items) -> grammar_file ign items ->
  exists p P, feed_tokens o evs init_pst = Ok p /\ to_grammar o compress yacc a1 a2 (p_g p) =
    Ok (Some (grammar_of ign items,
      mkOpts ign (yacc || existsb (fun i => match i with IYaccPrec => true | _ => false end) items) compress P
        (map (precsym_of ign items) (filter is_rule items)) (map nocode_of (filter is_rule items))
        (option_map (code_of ign items) (wildcard_of items)) (error_of ign items) (fallbacks_of ign items) a1 a2, start_message ign items)) /\
    forall i, p_prec P i = match nth_error (order ign items) i with Some x => option_map fst (prec_of ign items x) | None => None end /\
              p_assoc P i = match nth_error (order ign items) i with Some x => match prec_of ign items x with Some (_, a) => a | None => UNK end | None => UNK end.
Proof.
  intros o items evs compress yacc a1 a2 ign SH NEW T GF. destruct (file_run o items evs SH NEW T) as (p & A & _ & G).
  destruct (to_grammar_ok o items (p_g p) compress yacc a1 a2 SH G GF) as (P & B & C). exists p, P. auto.
Qed.
Print Assumptions C59_grammar.

(** ** Codes *)
Lemma position_nth : forall x l, In x l -> nth_error l (position x l) = Some x.
Proof.
  intros x. induction l as [|y l IH]; intros I; [destruct I|]. cbn [position]. destruct (eqt y x) eqn:E; [apply eqt_ok in E; subst; reflexivity|]. cbn [nth_error]. apply IH.
  destruct I as [I|I]; [|exact I]. subst. rewrite eqt_refl in E. discriminate.
Qed.
Lemma position_inj : forall x y l, In x l -> In y l -> position x l = position y l -> x = y.
Proof. intros x y l I J E. apply position_nth in I, J. rewrite E in I. congruence. Qed.
Lemma position_lt : forall x l, In x l -> position x l < length l.
Proof. intros x l I. apply nth_error_Some. rewrite position_nth by exact I. discriminate. Qed.
Lemma position_app1 : forall x a b, In x a -> position x (a ++ b) = position x a.
Proof.
  intros x. induction a as [|y a IH]; intros b I; [destruct I|]. cbn [app position]. destruct (eqt y x) eqn:E; [reflexivity|]. f_equal. apply IH. destruct I as [I|I]; [|exact I]. subst. rewrite eqt_refl in E. discriminate.
Qed.
Lemma position_app2 : forall x a b, ~ In x a -> position x (a ++ b) = length a + position x b.
Proof.
  intros x. induction a as [|y a IH]; intros b N; [reflexivity|]. cbn [app position length]. destruct (eqt y x) eqn:E; [apply eqt_ok in E; destruct N; now left|]. rewrite IH by (intros I; apply N; now right). reflexivity.
Qed.

Section Codes.
Variable ign : bool.
Variable items : list item.
Notation code := (code_of ign items).
Notation G := (grammar_of ign items).
Hypothesis SH : Forall item_shape items.
Hypothesis NEW : items_new ign items.
Hypothesis GF : grammar_file ign items.

Lemma term_code : forall x, In x (terms_of ign items) -> 0 < code x < g_nterm G.
Proof.
  intros x I. unfold code_of, order, grammar_of. cbn [g_nterm position]. assert (U : upper x) by (apply filter_In in I; tauto).
  destruct (eqt (zs "$") x) eqn:E; [apply eqt_ok in E; subst; discriminate U|]. rewrite position_app1 by exact I. apply position_lt in I. lia.
Qed.

Lemma nonterm_code : forall x, In x (nonterms_of ign items) -> is_nonterm G (code x).
Proof.
  intros x I. unfold is_nonterm, code_of, order, grammar_of. cbn [g_nterm g_nsym position]. assert (L : lower x) by (apply filter_In in I as (_ & I); apply andb_true_iff in I; exact (proj1 I)).
  destruct (eqt (zs "$") x) eqn:E; [apply eqt_ok in E; subst; discriminate L|].
  rewrite position_app2. 2:{ intros J. apply filter_In in J as (_ & J). pose proof (lower_not_upper _ L). congruence. }
  rewrite position_app1 by exact I. apply position_lt in I. lia.
Qed.

Lemma mention_in : forall i x, In i items -> In x (mentions ign i) -> In x (symbols_of ign items).
Proof. intros i x I M. unfold symbols_of. rewrite firsts_In. right. apply in_flat_map. eauto. Qed.

Lemma class_of_In : forall l x ys, class_of l x = Some ys -> In (IClass x ys) l.
Proof.
  induction l as [|i l IH]; intros x ys H; [discriminate|]. destruct i; cbn [class_of] in H; try (right; apply IH; exact H). destruct (eqt x c) eqn:E; [|right; apply IH; exact H].
  apply eqt_ok in E. inversion H; subst. now left.
Qed.

Lemma upper_term : forall x, In x (symbols_of ign items) -> upper x -> In x (terms_of ign items).
Proof. intros x I U. apply filter_In. auto. Qed.
Lemma lower_nonterm : forall x, In x (symbols_of ign items) -> lower x -> class_of items x = None -> In x (nonterms_of ign items).
Proof. intros x I L C. apply filter_In. split; [exact I|]. unfold is_class. rewrite C. unfold lower in L. rewrite L. reflexivity. Qed.

(** The names in a right side. *)
Definition known (e : nelem) : Prop :=
  match e with NSym x => In x (terms_of ign items) \/ In x (nonterms_of ign items) | NAlt l => l <> [] /\ forall x, In x l -> In x (terms_of ign items) end.

Lemma means_known : forall lhs la rhs prec cd e, In (IRule lhs la rhs prec cd) items -> In e rhs -> known (means items e).
Proof.
  intros lhs la rhs prec cd e I J. assert (M : forall x, In x (re_name e :: re_alts e) -> In x (symbols_of ign items)).
  { intros x X. eapply mention_in; [exact I|]. cbn [mentions]. right. apply in_app_iff. left. apply in_flat_map. exists e. auto. }
  assert (Q := SH). rewrite Forall_forall in Q. pose proof (Q _ I) as RS. cbn [item_shape] in RS. destruct RS as (_ & _ & RS & _). rewrite Forall_forall in RS. destruct (RS e J) as (R1 & _ & R3).
  unfold means. destruct (re_alts e) as [|y ys] eqn:EA.
  - destruct (class_of items (re_name e)) as [zs0|] eqn:C.
    + apply class_of_In in C. cbn [known]. split; [eapply (gf_class _ _ GF); exact C|]. intros x X. apply upper_term; [eapply mention_in; [exact C|]; cbn [mentions]; now right|].
      specialize (Q _ C). cbn [item_shape] in Q. destruct Q as (_ & Q). rewrite Forall_forall in Q. auto.
    + cbn [known]. destruct (alpha_cases _ R1) as [U|L]; [left; apply upper_term; auto; apply M; now left|right; apply lower_nonterm; auto; apply M; now left].
  - cbn [known]. split; [discriminate|]. destruct R3 as (U & F); [discriminate|]. rewrite Forall_forall in F. intros x X. apply upper_term; [apply M; exact X|]. destruct X as [<-|X]; auto.
Qed.

Lemma elem_wf : forall e, known e -> wf_elem G (elem_of ign items e).
Proof.
  intros [x|l] K; cbn [elem_of wf_elem known] in *.
  - destruct K as [K|K]; [apply term_code in K; cbn [grammar_of g_nterm g_nsym] in *; lia|apply nonterm_code in K; unfold is_nonterm in K; lia].
  - destruct K as (N & K). split; [destruct l; [congruence|discriminate]|]. intros t I. apply in_map_iff in I as (x & <- & I). apply K, term_code in I. unfold is_term. lia.
Qed.

Lemma lhs_nonterm : forall lhs la rhs prec cd, In (IRule lhs la rhs prec cd) items -> In lhs (nonterms_of ign items).
Proof.
  intros lhs la rhs prec cd I. apply lower_nonterm; [eapply mention_in; [exact I|]; now left| |eapply (gf_lhs _ _ GF); exact I].
  assert (Q := SH). rewrite Forall_forall in Q. specialize (Q _ I). cbn [item_shape] in Q. tauto.
Qed.

Lemma first_lhs_In : (exists i, In i items /\ is_rule i = true) -> exists la rhs prec cd, In (IRule (first_lhs items) la rhs prec cd) items.
Proof.
  clear. intros (i & I & R). revert I. generalize items as l. induction l as [|k l IH]; intros I; [destruct I|].
  destruct k; cbn [first_lhs]; try (destruct I as [<-|I]; [discriminate R|]; destruct (IH I) as (j1 & j2 & j3 & j4 & J); exists j1, j2, j3, j4; now right).
  exists lalias, rhs, prec, code. now left.
Qed.

Lemma start_nonterm : In (start_of ign items) (nonterms_of ign items).
Proof.
  assert (F : In (first_lhs items) (nonterms_of ign items)) by (destruct (first_lhs_In (gf_rule _ _ GF)) as (a & b & c & d & J); eapply lhs_nonterm; exact J).
  unfold start_of. destruct (slot_text Gstart items) as [x|] eqn:E; [|exact F]. destruct (mem x (symbols_of ign items)) eqn:M; [|exact F]. apply mem_ok in M.
  destruct (gf_start _ _ GF x E) as (_ & K). destruct (K M) as (L & C). apply lower_nonterm; auto.
Qed.

Lemma rule_of_In : forall r, In r (g_rules G) <-> exists lhs la rhs prec cd, In (IRule lhs la rhs prec cd) items /\ r = rule_of ign items (IRule lhs la rhs prec cd).
Proof.
  intros r. cbn [grammar_of g_rules]. rewrite in_map_iff. split.
  - intros (i & <- & I). apply filter_In in I as (I & R). destruct i; try discriminate. exists lhs, lalias, rhs, prec, code. auto.
  - intros (lhs & la & rhs & prec & cd & I & ->). eexists. split; [reflexivity|]. apply filter_In. auto.
Qed.

Lemma grammar_wf : wf_grammar G.
Proof.
  split; [cbn; lia|]. split; [cbn; lia|]. split; [|apply nonterm_code, start_nonterm]. apply Forall_forall. intros r I. apply rule_of_In in I as (lhs & la & rhs & prec & cd & I & ->).
  split; cbn [rule_of r_lhs r_rhs]; [apply nonterm_code; eapply lhs_nonterm; exact I|]. apply Forall_forall. intros e J. apply in_map_iff in J as (n & <- & J). apply in_map_iff in J as (e & <- & J). apply elem_wf. eapply means_known; eauto.
Qed.

Lemma known_order : forall x, In x (terms_of ign items) \/ In x (nonterms_of ign items) -> In x (order ign items).
Proof. intros x [I|I]; unfold order; right; apply in_app_iff; [left; exact I|right; apply in_app_iff; left; exact I]. Qed.

Lemma code_inj : forall x y, In x (terms_of ign items) \/ In x (nonterms_of ign items) -> In y (terms_of ign items) \/ In y (nonterms_of ign items) -> code x = code y -> x = y.
Proof. intros x y I J E. eapply position_inj; [apply known_order; exact I|apply known_order; exact J|exact E]. Qed.

Notation tr := (map (elem_of ign items)).

Lemma step_forth : forall w w', nstep items w w' -> step G (tr w) (tr w').
Proof.
  intros w w' H. destruct H as [u v lhs la rhs prec cd I|u v l t I]; rewrite !map_app; cbn [map elem_of].
  - apply (step_rule G (tr u) (tr v) (rule_of ign items (IRule lhs la rhs prec cd))). apply rule_of_In. exists lhs, la, rhs, prec, cd. auto.
  - apply step_multi. apply in_map. exact I.
Qed.

Lemma tr_split : forall w a e b, tr w = a ++ e :: b -> exists u n v, w = u ++ n :: v /\ tr u = a /\ elem_of ign items n = e /\ tr v = b.
Proof.
  intros w a e b H. apply map_eq_app in H as (u & r & -> & A & B). destruct r as [|n v]; [discriminate|]. cbn [map] in B. injection B as B1 B2. exists u, n, v. auto.
Qed.

Lemma step_back : forall w W', Forall known w -> step G (tr w) W' -> exists w', W' = tr w' /\ nstep items w w' /\ Forall known w'.
Proof.
  intros w W' K H. inversion H as [a b r I E1 E2|a b l t I E1 E2]; symmetry in E1; apply tr_split in E1 as (u & n & v & -> & <- & EN & <-);
    apply Forall_app in K as (K1 & K2); inversion K2 as [|? ? KN KV]; subst.
  - apply rule_of_In in I as (lhs & la & rhs & prec & cd & I & ->). cbn [rule_of r_lhs r_rhs] in *. destruct n as [x|l]; [|discriminate]. cbn [elem_of] in EN. injection EN as EN.
    apply code_inj in EN; [|exact KN|right; eapply lhs_nonterm; exact I]. subst x. exists (u ++ map (means items) rhs ++ v). split; [rewrite !map_app; reflexivity|]. split; [eapply ns_rule; exact I|].
    apply Forall_app. split; [exact K1|]. apply Forall_app. split; [|exact KV]. apply Forall_forall. intros e J. apply in_map_iff in J as (e' & <- & J). eapply means_known; eauto.
  - destruct n as [x|l']; [discriminate|]. cbn [elem_of] in EN. injection EN as EN. subst l. apply in_map_iff in I as (x & <- & I). exists (u ++ NSym x :: v). split; [rewrite map_app; reflexivity|]. split; [apply ns_alt; exact I|].
    apply Forall_app. split; [exact K1|]. constructor; [|exact KV]. cbn [known] in *. left. apply KN. exact I.
Qed.

Lemma derives_back : forall W W', derives G W W' -> forall w, W = tr w -> Forall known w -> exists w', W' = tr w' /\ star (nstep items) w w' /\ Forall known w'.
Proof.
  intros W W' H. induction H as [W|W W1 W2 H _ IH]; intros w -> K.
  - exists w. split; [reflexivity|]. split; [apply star_refl|exact K].
  - destruct (step_back w W1 K H) as (w1 & -> & S1 & K1). destruct (IH w1 eq_refl K1) as (w2 & A & B & C). exists w2. split; [exact A|]. split; [eapply star_step; eauto|exact C].
Qed.

Lemma language : forall toks, Forall (fun x => In x (terms_of ign items)) toks -> (sentence G (map code toks) <-> nsentence ign items toks).
Proof.
  intros toks F. assert (TT : tr (map NSym toks) = map ESym (map code toks)) by (rewrite !map_map; reflexivity). split.
  - intros (_ & D). split; [eapply Forall_impl; [|exact F]; intros x I; apply filter_In in I; tauto|].
    destruct (derives_back _ _ D [NSym (start_of ign items)] eq_refl) as (w & E & S0 & K); [constructor; [right; apply start_nonterm|constructor]|].
    assert (w = map NSym toks); [|subst; exact S0]. rewrite <- TT in E. clear D S0 TT. revert w E K. induction F as [|x toks I F IH]; intros w E K.
    + destruct w; [reflexivity|discriminate].
    + destruct w as [|e w]; [discriminate|]. cbn [map] in E. injection E as E1 E2. inversion K as [|? ? K1 K2]; subst. destruct e as [y|l]; [|discriminate]. injection E1 as E1. apply code_inj in E1; [|left; exact I|exact K1]. subst y.
      cbn [map]. f_equal. apply IH; auto.
  - intros (_ & D). split; [apply Forall_forall; intros t I; apply in_map_iff in I as (x & <- & I); rewrite Forall_forall in F; apply F, term_code in I; unfold is_term; lia|].
    rewrite <- TT. unfold derives. cbn [grammar_of g_start]. change [ESym (code (start_of ign items))] with (tr [NSym (start_of ign items)]). clear TT F. induction D as [|w w1 w2 H _ IH]; [apply star_refl|]. eapply star_step; [apply step_forth; exact H|exact IH].
Qed.

Lemma derived_terms : forall toks, nsentence ign items toks -> Forall (fun x => In x (terms_of ign items)) toks.
Proof.
  intros toks (U & D). assert (K : Forall known (map NSym toks)).
  { assert (K0 : Forall known [NSym (start_of ign items)]) by (constructor; [right; apply start_nonterm|constructor]). revert K0. clear U. induction D as [|w w1 w2 H _ IH]; intros K0; [exact K0|]. apply IH.
    destruct H as [u v lhs la rhs prec cd I|u v l t I]; apply Forall_app in K0 as (K1 & K2); inversion K2 as [|? ? K3 K4]; subst.
    - apply Forall_app. split; [exact K1|]. apply Forall_app. split; [|exact K4]. apply Forall_forall. intros e J. apply in_map_iff in J as (e' & <- & J). eapply means_known; eauto.
    - apply Forall_app. split; [exact K1|]. constructor; [|exact K4]. left. apply K3. exact I. }
  rewrite Forall_forall in *. intros x I. specialize (U x I). specialize (K (NSym x) (in_map NSym toks x I)). destruct K as [K|K]; [exact K|]. apply filter_In in K as (_ & K). apply andb_true_iff in K as (K & _). rewrite (upper_not_lower _ U) in K. discriminate.
Qed.

Lemma order_nodup_terms : NoDup (zs "$" :: terms_of ign items).
Proof. constructor; [intros I; apply filter_In in I as (_ & I); discriminate I|]. apply NoDup_filter. apply firsts_NoDup. Qed.

Lemma codes_onto : forall c, 0 < c < g_nterm G -> exists x, In x (terms_of ign items) /\ code x = c.
Proof.
  intros c L. cbn [grammar_of g_nterm] in L. destruct (nth_error (zs "$" :: terms_of ign items) c) as [x|] eqn:E; [|apply nth_error_None in E; cbn [length] in E; lia]. exists x.
  assert (I : In x (terms_of ign items)) by (destruct c; [lia|]; cbn [nth_error] in E; eapply nth_error_In; eauto). split; [exact I|].
  unfold code_of, order. rewrite (app_comm_cons _ _ (zs "$")). rewrite position_app1 by (now right). pose proof order_nodup_terms as ND. rewrite NoDup_nth_error in ND. apply ND; [apply position_lt; now right|]. rewrite position_nth by (now right). congruence.
Qed.
End Codes.

(** The grammar is well-formed: nonterminals on the left, terminals and nonterminals on the
    right, no empty set of alternatives. *)
Theorem C59_well_formed : forall ign items, Forall item_shape items -> grammar_file ign items -> wf_grammar (grammar_of ign items).
Proof. intros ign items SH GF. apply grammar_wf; auto. Qed.
Print Assumptions C59_well_formed.

(** Its sentences are those of the file, by names; the codes of the terminals are the codes of
    the tokens mentioned. *)
Theorem C59_language : forall ign items, Forall item_shape items -> grammar_file ign items ->
  (forall toks, nsentence ign items toks -> Forall (fun x => In x (terms_of ign items)) toks) /\
  (forall toks, Forall (fun x => In x (terms_of ign items)) toks -> (sentence (grammar_of ign items) (map (code_of ign items) toks) <-> nsentence ign items toks)) /\
  (forall x y, In x (terms_of ign items) -> In y (terms_of ign items) -> code_of ign items x = code_of ign items y -> x = y) /\
  (forall c, 0 < c < g_nterm (grammar_of ign items) <-> exists x, In x (terms_of ign items) /\ code_of ign items x = c).
Proof.
  intros ign items SH GF. split; [intros; apply derived_terms; auto|]. split; [intros; apply language; auto|]. split; [intros; eapply code_inj; eauto|].
  intros c. split; [apply codes_onto|]. intros (x & I & <-). apply term_code. exact I.
Qed.
Print Assumptions C59_language.

(** The settings are as C14 and C15 need them if fallbacks are not chained and "error" is not
    a left side or a token class. *)
Theorem C59_settings : forall ign items yp compress P a1 a2, Forall item_shape items -> grammar_file ign items ->
  (forall x f, fallback_of items x = Some f -> fallback_of items f = None) ->
  (forall la rhs prec cd, ~ In (IRule (zs "error") la rhs prec cd) items) -> class_of items (zs "error") = None ->
  opts_ok (grammar_of ign items) (mkOpts ign yp compress P (map (precsym_of ign items) (filter is_rule items)) (map nocode_of (filter is_rule items))
        (option_map (code_of ign items) (wildcard_of items)) (error_of ign items) (fallbacks_of ign items) a1 a2).
Proof.
  intros ign items yp compress P a1 a2 SH GF CH NE EC. constructor; cbn [o_noCode o_fallback o_wildcard o_errsym].
  - cbn [grammar_of g_rules]. rewrite !map_length. reflexivity.
  - intros l E. unfold fallbacks_of in E. destruct (existsb _ items); [|discriminate].
    assert (FU : forall x f, fallback_of items x = Some f -> In x (terms_of ign items) /\ In f (terms_of ign items)).
    { intros x f H. apply fallback_of_In in H as (ys & I & X). assert (Q := SH). rewrite Forall_forall in Q. specialize (Q _ I). cbn [item_shape] in Q. destruct Q as (Q1 & Q2). rewrite Forall_forall in Q2.
      split; apply filter_In; (split; [eapply mention_in; [exact I|]|]); cbn [mentions]; [now right|apply Q2; exact X|now left|exact Q1]. }
    assert (D0 : fallback_of items (zs "$") = None).
    { destruct (fallback_of items (zs "$")) eqn:E0; [|reflexivity]. apply FU in E0 as (E0 & _). apply filter_In in E0 as (_ & E0). discriminate E0. }
    set (h := fun x => match fallback_of items x with Some f => code_of ign items f | None => 0 end).
    assert (EL : l = map h (zs "$" :: terms_of ign items)) by (injection E as E; symmetry; exact E). clear E. subst l.
    assert (NTH : forall c x, nth_error (zs "$" :: terms_of ign items) c = Some x -> nth c (map h (zs "$" :: terms_of ign items)) 0 = h x).
    { intros c x E. apply nth_error_nth. rewrite nth_error_map, E. reflexivity. }
    split; [cbn [grammar_of g_nterm]; rewrite map_length; reflexivity|]. split; [rewrite (NTH 0 (zs "$") eq_refl); unfold h; now rewrite D0|].
    intros t L. destruct (nth_error (zs "$" :: terms_of ign items) t) as [x|] eqn:E; [|apply nth_error_None in E; cbn [grammar_of g_nterm] in L; cbn [length] in E; lia]. rewrite (NTH _ _ E). unfold h at 1 2.
    destruct (fallback_of items x) as [f|] eqn:F.
    + destruct (FU _ _ F) as (_ & U). pose proof (term_code ign items f U) as TC. split; [lia|].
      assert (NF : nth_error (zs "$" :: terms_of ign items) (code_of ign items f) = Some f).
      { unfold code_of, order. rewrite (app_comm_cons _ _ (zs "$")). rewrite position_app1 by (now right). apply position_nth. now right. }
      rewrite (NTH _ _ NF). unfold h. rewrite (CH _ _ F). reflexivity.
    + split; [cbn; lia|]. rewrite (NTH 0 (zs "$") eq_refl). unfold h. now rewrite D0.
  - intros w E. destruct (wildcard_of items) as [x|] eqn:WX; [|discriminate]. injection E as <-. apply term_code.
    assert (WI : forall l y, wildcard_of l = Some y -> In (IWildcard y) l).
    { clear. induction l as [|i l IH]; intros y H; [discriminate|]. destruct i; cbn [wildcard_of] in H; try (right; apply IH; exact H). inversion H; subst. now left. }
    apply WI in WX. apply filter_In. split; [eapply mention_in; [exact WX|now left]|]. rewrite Forall_forall in SH. exact (SH _ WX).
  - intros e E. unfold error_of in E. destruct (mem (zs "error") (symbols_of ign items)) eqn:M; [|discriminate]. injection E as <-. apply mem_ok in M.
    assert (N : In (zs "error") (nonterms_of ign items)) by (apply lower_nonterm; auto; reflexivity).
    split; [exact (nonterm_code ign items _ N)|]. intros r I. apply rule_of_In in I as (lhs & la & rhs & prec & cd & I & ->). cbn [rule_of r_lhs]. intros X.
    apply code_inj in X; [|right; eapply lhs_nonterm; eauto|right; exact N]. subst. eapply NE; exact I.
Qed.
Print Assumptions C59_settings.

(** ** What the reader lets through *)
Definition addr0 : nat -> nat -> nat := fun _ i => i.
Definition read (z : text) : res (option (grammar * opts * nat)) :=
  g <- LemonReadModel.Parse [] quiet z ;; match g with Some g => to_grammar quiet true false addr0 addr0 g | None => Ok None end.

(** A token class as a left side, an empty token class, a token as the start symbol: files
    read without a message, grammars that are not well-formed. *)
Theorem C59_well_formed_refuted : exists z1 z2 z3 g1 g2 g3 o1 o2 o3,
  read z1 = Ok (Some (g1, o1, 0)) /\ read z2 = Ok (Some (g2, o2, 0)) /\ read z3 = Ok (Some (g3, o3, 0)) /\
  (exists r, In r (g_rules g1) /\ g_nsym g1 <= r_lhs r) /\
  (exists r, In r (g_rules g2) /\ In (EMulti []) (r_rhs r)) /\
  0 < g_start g3 < g_nterm g3.
Proof.
  exists (zs "%token_class c X. s ::= c Y. c ::= Y."), (zs "%token_class c . s ::= c."), (zs "%start_symbol A s ::= A."). do 6 eexists.
  split; [vm_compute; reflexivity|]. split; [vm_compute; reflexivity|]. split; [vm_compute; reflexivity|].
  split; [|split]; cbn [g_rules g_nsym g_nterm g_start].
  - eexists. split; [right; left; reflexivity|]. cbn. lia.
  - eexists. split; [left; reflexivity|]. now left.
  - lia.
Qed.
Print Assumptions C59_well_formed_refuted.

(** Chained fallbacks: no message, and the generated parser fails an assertion on a token
    whose fallback has a fallback. *)
Definition chained : text := zs "%fallback B A. %fallback C B. s ::= C.".
Definition chained_read := Eval vm_compute in match read chained with Ok (Some (g, o, _)) => (g, o) | _ => (mkGrammar 0 0 [] 0, plain_opts (mkGrammar 0 0 [] 0)) end.
Definition chained_gen := Eval vm_compute in match lemon_generate 100 100 100 (snd chained_read) (fst chained_read) with Ok c => c | _ => exc14 end.
Theorem C59_chained_refuted : exists z g o c toks,
  read z = Ok (Some (g, o, 0)) /\ wf_grammar g /\ lemon_generate 100 100 100 o g = Ok c /\
  Forall (fun t => 0 < t < g_nterm g) toks /\ LemonParModel.feed c (fun _ => None) 50 (LemonParModel.ParseInit 20) (map Z.of_nat toks) 1 = Bad.
Proof.
  exists chained, (fst chained_read), (snd chained_read), chained_gen, [2]. split; [vm_compute; reflexivity|]. split; [apply wf_grammarb_ok; reflexivity|].
  split; [vm_compute; reflexivity|]. split; [repeat constructor|]. vm_compute. reflexivity.
Qed.
Print Assumptions C59_chained_refuted.

(** Two %start_symbol lines name one symbol, their texts run together. *)
Theorem C59_start_twice_refuted : exists z g o x y r, z = zs "%start_symbol " ++ x ++ zs " %start_symbol " ++ y ++ zs " a ::= A. b ::= B. ab ::= C." /\ x = zs "a" /\ y = zs "b" /\
  read z = Ok (Some (g, o, 0)) /\ nth_error (g_rules g) 2 = Some r /\ g_start g = r_lhs r.
Proof. do 3 eexists. exists (zs "a"), (zs "b"). eexists. split; [reflexivity|]. split; [reflexivity|]. split; [reflexivity|]. split; [vm_compute; reflexivity|]. split; reflexivity. Qed.
Print Assumptions C59_start_twice_refuted.

(** ** Example *)
Lemma file_grammar : grammar_file false file_items.
Proof.
  constructor.
  - eexists. split; [do 10 right; left; reflexivity|reflexivity].
  - intros lhs la rhs prec cd I. unfold file_items in I. cbn [In] in I. repeat (destruct I as [I|I]; [try discriminate I; injection I as <- _ _ _ _; reflexivity|]). destruct I.
  - intros x E. vm_compute in E. injection E as <-. split; [discriminate|]. intros _. split; reflexivity.
  - intros c l I. unfold file_items in I. cbn [In] in I. repeat (destruct I as [I|I]; [try discriminate I; injection I as <- <-; discriminate|]). destruct I.
Qed.

Example C59_hypotheses : Forall item_shape file_items /\ items_new false file_items /\ grammar_file false file_items /\
  (exists evs, lexes complete 1%Z file evs /\ texts evs (flat_map item_tokens file_items)) /\
  (exists g o, read file = Ok (Some (g, o, 0)) /\ g = grammar_of false file_items /\ o_fallback o = fallbacks_of false file_items) /\
  (forall x f, fallback_of file_items x = Some f -> fallback_of file_items f = None) /\
  nsentence false file_items [zs "NUM"; zs "DIV"; zs "NUM"; zs "SEMI"] /\ ~ nsentence false file_items [zs "NUM"].
Proof.
  split; [exact file_shape|]. split; [exact file_new|]. split; [exact file_grammar|]. split; [exact C55_sample_lexes|].
  split. { do 2 eexists. split; [vm_compute; reflexivity|]. split; vm_compute; reflexivity. }
  split. { intros x f H. unfold file_items in H |- *. cbn [fallback_of] in H. destruct (mem x [zs "ABORT"]); [injection H as <-; reflexivity|discriminate]. }
  split.
  - split; [repeat constructor|]. 
    assert (R : forall k lhs la rhs prec cd u v, nth_error file_items k = Some (IRule lhs la rhs prec cd) -> nstep file_items (u ++ NSym lhs :: v) (u ++ map (means file_items) rhs ++ v)).
    { intros. eapply ns_rule. eapply nth_error_In; eauto. }
    eapply star_step; [exact (R 10 _ _ _ _ _ [] [] eq_refl)|].
    eapply star_step; [exact (R 12 _ _ _ _ _ [] [NSym (zs "SEMI")] eq_refl)|].
    eapply star_step; [exact (R 13 _ _ _ _ _ [] [NAlt [zs "TIMES"; zs "DIV"]; NSym (zs "e"); NSym (zs "SEMI")] eq_refl)|].
    eapply star_step; [exact (R 13 _ _ _ _ _ [NSym (zs "NUM"); NAlt [zs "TIMES"; zs "DIV"]] [NSym (zs "SEMI")] eq_refl)|].
    eapply star_step; [exact (ns_alt _ [NSym (zs "NUM")] [NSym (zs "NUM"); NSym (zs "SEMI")] [zs "TIMES"; zs "DIV"] (zs "DIV") (or_intror (or_introl eq_refl)))|]. apply star_refl.
  - intros (_ & D). inversion D as [|w w1 w2 S1 D1]; subst. 
    assert (L : forall a b, star (nstep file_items) a b -> (exists m, a = m ++ [NSym (zs "SEMI")]) -> exists m, b = m ++ [NSym (zs "SEMI")]).
    { clear. intros a b H. induction H as [|a b c H _ IH]; intros (m & ->); [eauto|]. apply IH. clear IH c.
      inversion H as [u v lhs la rhs prec cd I E1 E2|u v l t I E1 E2].
      - destruct (exists_last (l := v)) as (v' & z & ->).
        + intros ->. apply app_inj_tail in E1 as (_ & E1). assert (LE : lhs = zs "SEMI") by (injection E1 as E1; exact E1). subst lhs. unfold file_items in I. cbn [In] in I. repeat (destruct I as [I|I]; [discriminate I|]). destruct I.
        + change (u ++ NSym lhs :: v' ++ [z]) with (u ++ (NSym lhs :: v') ++ [z]) in E1. rewrite app_assoc in E1. apply app_inj_tail in E1 as (_ & E1). change (z = NSym (zs "SEMI")) in E1. subst z. exists (u ++ map (means file_items) rhs ++ v'). now rewrite <- !app_assoc.
      - destruct (exists_last (l := v)) as (v' & z & ->).
        + intros ->. apply app_inj_tail in E1 as (_ & E1). discriminate E1.
        + change (u ++ NAlt l :: v' ++ [z]) with (u ++ (NAlt l :: v') ++ [z]) in E1. rewrite app_assoc in E1. apply app_inj_tail in E1 as (_ & E1). change (z = NSym (zs "SEMI")) in E1. subst z. exists (u ++ NSym t :: v'). now rewrite <- app_assoc. }
    assert (X : exists m, w1 = m ++ [NSym (zs "SEMI")]).
    { inversion S1 as [u v lhs la rhs prec cd I E1 E2|u v l t I E1 E2]; destruct u as [|? [|? ?]]; try discriminate E1; cbn [app] in E1; injection E1 as E1 E3; subst v. subst lhs.
      unfold file_items in I. cbn [In] in I. repeat (destruct I as [I|I]; [try discriminate I; injection I as _ <- _ _; exists [NSym (zs "e")]; reflexivity|]). destruct I. }
    destruct (L _ _ D1 X) as (m & E). cbn [map] in E. destruct m as [|? [|? ?]]; discriminate E.
Qed.
