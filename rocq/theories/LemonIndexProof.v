(** Proofs about the part of main that numbers the symbols (C59). *)
From Coq Require Import String List Arith ZArith Bool Lia.
Import ListNotations.
From Verif Require Import Base SpecGrammar CLib LemonTableModel LemonTableProof Prop_LemonSymbols LemonPreModel LemonActionModel LemonPipelineModel LemonReadModel SpecItems LemonReadProof SpecFile.
Local Open Scope res_scope.

Lemma map_res_ok : forall A B (f : A -> res B) l l', Forall2 (fun a b => f a = Ok b) l l' -> map_res f l = Ok l'.
Proof. intros A B f l l' H. induction H as [|a b l l' E H IH]; [reflexivity|]. cbn [map_res]. rewrite E. cbn [bind]. rewrite IH. reflexivity. Qed.

Lemma Forall2_maps : forall A B C (P : A -> B -> Prop) (f : C -> B) l m, Forall2 (fun a c => P a (f c)) l m -> Forall2 P l (map f m).
Proof. induction 1; constructor; auto. Qed.

Lemma Forall2_in : forall A B (P Q : A -> B -> Prop) l m, Forall2 P l m -> (forall a b, In a l -> In b m -> P a b -> Q a b) -> Forall2 Q l m.
Proof. induction 1 as [|a b l m PA F IH]; intros H; constructor; [apply H; auto; now left|]. apply IH. intros; apply H; auto; now right. Qed.

Lemma Forall2_flip : forall A B (P : A -> B -> Prop) l m, Forall2 P l m -> Forall2 (fun b a => P a b) m l.
Proof. induction 1; constructor; auto. Qed.

Lemma NoDup_snoc : forall A (l : list A) x, NoDup l -> ~ In x l -> NoDup (l ++ [x]).
Proof.
  intros A l x H N. induction H as [|y l NI H IH]; cbn [app]; [repeat constructor; auto|]. constructor; [|apply IH; intros I; apply N; now right].
  rewrite in_app_iff. intros [I|[I|[]]]; [contradiction|]. subst. apply N. now left.
Qed.

(** ** Letters *)
Lemma alpha_cases : forall x, alpha x -> upper x \/ lower x.
Proof. intros x A. unfold alpha, upper, lower, isalpha, isupper, islower in *. apply orb_true_iff in A. exact A. Qed.
Lemma upper_alpha : forall x, upper x -> alpha x.
Proof. intros x A. unfold alpha, upper, isalpha, isupper in *. rewrite A. reflexivity. Qed.
Lemma lower_alpha : forall x, lower x -> alpha x.
Proof. intros x A. unfold alpha, lower, isalpha, islower in *. rewrite A. apply orb_true_r. Qed.
Lemma upper_not_lower : forall x, upper x -> islower (ch x 0) = false.
Proof. intros x U. apply upper_facts in U. tauto. Qed.
Lemma lower_not_upper : forall x, lower x -> isupper (ch x 0) = false.
Proof. intros x U. apply lower_facts in U. tauto. Qed.

Lemma mentions_alpha : forall ign i x, item_shape i -> In x (mentions ign i) -> alpha x.
Proof.
  assert (FU : forall l x, Forall upper l -> In x l -> alpha x) by (intros l x F I; rewrite Forall_forall in F; apply upper_alpha; auto).
  intros ign i x SH I. destruct i; cbn [mentions item_shape] in *.
  - destruct SH as (S1 & _ & S3 & S4 & _). destruct I as [<-|I]; [apply lower_alpha; auto|]. apply in_app_iff in I as [I|I].
    + apply in_flat_map in I as (e & I1 & I2). rewrite Forall_forall in S3. destruct (S3 e I1) as (R1 & _ & R3). destruct I2 as [<-|I2]; [exact R1|].
      destruct (re_alts e) as [|y ys] eqn:E; [destruct I2|]. destruct R3 as (_ & R3); [discriminate|]. eapply FU; eauto.
    + destruct prec as [p|]; [|destruct I]. destruct ign; [destruct I|]. destruct I as [<-|[]]. apply upper_alpha. exact S4.
  - destruct ign; [destruct I|]. eapply FU; [apply SH|exact I].
  - destruct SH as (U & F). destruct I as [<-|I]; [apply upper_alpha; auto|eapply FU; eauto].
  - eapply FU; eauto.
  - destruct I as [<-|[]]. apply upper_alpha; auto.
  - destruct SH as (U & F). destruct I as [<-|I]; [apply lower_alpha; auto|eapply FU; eauto].
  - destruct I.
  - destruct I as [<-|[]]. apply SH.
  - destruct I as [<-|[]]. apply SH.
  - destruct I.
Qed.

Section Index.
Variable o : ropts.
Variable items : list item.
Variable g : gram.
Notation ign := (ro_ignorePrec o).
Notation code := (code_of ign items).
Hypothesis SH : Forall item_shape items.
Hypothesis GI : GInv o items g.
Hypothesis GF : grammar_file ign items.

Lemma symbols_cons : exists rest, symbols_of ign items = zs "$" :: rest /\ forall x, In x rest -> alpha x.
Proof.
  unfold symbols_of. cbn [firsts]. eexists. split; [reflexivity|]. intros x I. apply filter_In in I as (I & _). rewrite firsts_In in I. apply in_flat_map in I as (i & I1 & I2).
  rewrite Forall_forall in SH. eapply mentions_alpha; eauto.
Qed.

Lemma mention_symbol : forall i x, In i items -> In x (mentions ign i) -> In x (symbols_of ign items).
Proof. intros i x I M. unfold symbols_of. rewrite firsts_In. right. apply in_flat_map. eauto. Qed.

Lemma symbol_cases : forall x, In x (symbols_of ign items) -> x = zs "$" \/ upper x \/ lower x.
Proof. intros x I. destruct symbols_cons as (rest & E & F). rewrite E in I. destruct I as [<-|I]; [now left|]. right. apply alpha_cases. auto. Qed.

Lemma no_default : ~ In default_name (symbols_of ign items).
Proof. intros I. apply symbol_cases in I. unfold upper, lower in I. cbn in I. destruct I as [I|[I|I]]; discriminate. Qed.

Lemma class_lower : forall x, is_class items x = true -> lower x.
Proof. intros x C. unfold is_class in C. destruct (class_of items x) eqn:E; [|discriminate]. eapply (gi_cls _ _ _ GI); eauto. Qed.

Lemma order_In : forall x, In x (symbols_of ign items) -> In x (order ign items).
Proof.
  intros x I. unfold order, terms_of, nonterms_of, classes_of. destruct (symbol_cases x I) as [->|[U|L]]; [now left| |].
  - right. apply in_app_iff. left. apply filter_In. auto.
  - right. apply in_app_iff. right. apply in_app_iff. destruct (is_class items x) eqn:C.
    + right. right. apply filter_In. auto.
    + left. apply filter_In. split; [exact I|]. rewrite C, L. reflexivity.
Qed.

Notation syms1 := (gr_syms g ++ [new_obj default_name]).

Lemma default_new : sym_new default_name (gr_syms g) = (List.length (gr_syms g), syms1).
Proof.
  unfold sym_new. destruct (sym_find default_name (gr_syms g)) as [i|] eqn:E; [|reflexivity]. apply sym_find_Some, isn_names in E. rewrite (si_names _ _ _ (gi_sym _ _ _ GI)) in E. destruct (no_default E).
Qed.

Lemma isn1 : forall j x, isn (gr_syms g) j x -> isn syms1 j x.
Proof. intros j x I. eapply keeps_isn; [apply keeps_app|exact I]. Qed.

Lemma names1 : names syms1 = symbols_of ign items ++ [default_name].
Proof. unfold names. rewrite filter_app, map_app. fold (names (gr_syms g)). rewrite (si_names _ _ _ (gi_sym _ _ _ GI)). reflexivity. Qed.

Lemma nodup1 : NoDup (names syms1).
Proof. rewrite names1. apply NoDup_snoc; [exact (si_nodup _ _ _ (gi_sym _ _ _ GI))|exact no_default]. Qed.

(** The sorted array. *)
Lemma sorted_ok : exists sorted, index_symbols (map as_lsym (filter so_named syms1)) =
    Ok (sorted, 1 + List.length (terms_of ign items) + List.length (nonterms_of ign items), 1 + List.length (terms_of ign items)) /\
  map ls_name sorted = order ign items.
Proof.
  destruct symbols_cons as (rest & ES & AL). pose proof (si_names _ _ _ (gi_sym _ _ _ GI)) as NM. rewrite ES in NM. unfold names in NM.
  destruct (filter so_named (gr_syms g)) as [|e ms] eqn:EF; [discriminate|]. cbn [map] in NM. injection NM as NE NR.
  assert (TY : forall s, In s (e :: ms) -> is_multi (as_lsym s) = is_class items (so_name s)).
  { intros s I. rewrite <- EF in I. apply filter_In in I as (I & NA). apply In_nth_error in I as (id & I). destruct (si_named _ _ _ (gi_sym _ _ _ GI) id s I NA) as (_ & _ & _ & T & _).
    cbn [view_of v_cls] in T. unfold is_multi, as_lsym, is_class. cbn [ls_type]. rewrite T. destruct (class_of items (so_name s)); [reflexivity|]. destruct (isupper _); reflexivity. }
  assert (NC : is_class items (zs "$") = false).
  { destruct (is_class items (zs "$")) eqn:C; [|reflexivity]. apply class_lower in C. discriminate C. }
  assert (FB : forall s, first_byte (as_lsym s) = ch (so_name s) 0) by (intros s; unfold first_byte, as_lsym, ch; cbn [ls_name]; destruct (so_name s); reflexivity).
  destruct (C24_codes (as_lsym e) (map as_lsym ms) (as_lsym (new_obj default_name))) as (sorted & n & m & IX & SO & EN & EM).
  - cbn [as_lsym ls_name]. exact NE.
  - rewrite TY by (now left). rewrite NE. exact NC.
  - reflexivity.
  - reflexivity.
  - intros s I. apply in_map_iff in I as (s' & <- & I). rewrite FB. assert (A : alpha (so_name s')) by (apply AL; rewrite <- NR; apply in_map; exact I).
    unfold alpha, isalpha in A. unfold letter. apply orb_true_iff in A. rewrite !andb_true_iff, !Z.leb_le in A. exact A.
  - cbv zeta in *.
    assert (FM : forall f P, (forall s, In s ms -> f (as_lsym s) = P (so_name s)) -> map ls_name (filter f (map as_lsym ms)) = filter P rest).
    { intros f P H. rewrite <- NR. clear -H. induction ms as [|s ms IH]; [reflexivity|]. cbn [map filter]. rewrite (H s) by (now left). destruct (P (so_name s)); cbn [map]; rewrite IH; auto; intros; apply H; now right. }
    assert (LET : forall s, In s ms -> upper (so_name s) \/ lower (so_name s)) by (intros s I; apply alpha_cases, AL; rewrite <- NR; apply in_map; exact I).
    assert (UN : forall s, upper_name (as_lsym s) = isupper (ch (so_name s) 0)) by (intros s; unfold upper_name, isupper; rewrite FB; reflexivity).
    assert (T1 : map ls_name (filter (fun s => negb (is_multi s) && upper_name s) (map as_lsym ms)) = terms_of ign items).
    { unfold terms_of. rewrite ES. cbn [filter]. change (isupper (ch (zs "$") 0)) with false. cbn iota. apply FM. intros s I. rewrite TY by (now right). rewrite UN.
      destruct (is_class items (so_name s)) eqn:C; [|reflexivity]. cbn [negb andb]. symmetry. apply lower_not_upper. apply class_lower. exact C. }
    assert (T2 : map ls_name (filter (fun s => negb (is_multi s) && negb (upper_name s)) (map as_lsym ms)) = nonterms_of ign items).
    { unfold nonterms_of. rewrite ES. cbn [filter]. change (islower (ch (zs "$") 0)) with false. cbn [andb]. apply FM. intros s I. rewrite TY by (now right). rewrite UN.
      rewrite andb_comm. f_equal. destruct (LET s I) as [U|L]; [rewrite (upper_not_lower _ U), U|rewrite (lower_not_upper _ L), L]; reflexivity. }
    assert (T3 : map ls_name (filter is_multi (map as_lsym ms)) = classes_of ign items).
    { unfold classes_of. rewrite ES. cbn [filter]. rewrite NC. apply FM. intros s I. apply TY. now right. }
    exists sorted. split.
    + rewrite filter_app, EF. cbn [filter so_named new_obj app map]. rewrite map_app. cbn [map]. rewrite IX. f_equal. f_equal; [f_equal|].
      * rewrite EM, EN. rewrite <- T1, <- T2, !map_length. reflexivity.
      * rewrite EN. rewrite <- T1, map_length. reflexivity.
    + rewrite SO. cbn [map]. rewrite !map_app. cbn [map]. rewrite T1, T2, T3. unfold order. cbn [as_lsym ls_name]. rewrite NE. reflexivity.
Qed.

Variable sorted : list lsym.
Hypothesis SN : map ls_name sorted = order ign items.
Notation g1 := (set_syms syms1 g).

Lemma index_from_pos : forall x l k, In x (map ls_name l) -> index_from k x l = Some (k + position x (map ls_name l)).
Proof.
  intros x. induction l as [|s l IH]; intros k I; [destruct I|]. cbn [index_from map position]. rewrite streq_eqt. destruct (eqt (ls_name s) x) eqn:E; [f_equal; lia|].
  destruct I as [I|I]; [rewrite I, eqt_refl in E; discriminate|]. rewrite IH by exact I. f_equal. lia.
Qed.

Lemma obj_index_ok : forall j x, isn syms1 j x -> In x (order ign items) -> obj_index g1 sorted j = Ok (code x).
Proof.
  intros j x (s & E & _ & <-) I. unfold obj_index. cbn [set_syms gr_syms]. rewrite E. cbn [opt bind]. rewrite (index_from_pos _ _ 0) by (rewrite SN; exact I). rewrite SN. reflexivity.
Qed.

Lemma isn_symbol : forall j x, isn (gr_syms g) j x -> In x (symbols_of ign items).
Proof. intros j x I. rewrite <- (si_names _ _ _ (gi_sym _ _ _ GI)). eapply isn_names; eauto. Qed.

Lemma obj_index_sym : forall j x, isn (gr_syms g) j x -> obj_index g1 sorted j = Ok (code x).
Proof. intros j x I. apply obj_index_ok; [apply isn1; exact I|]. apply order_In. eapply isn_symbol; eauto. Qed.

Lemma obj_indices : forall js xs, Forall2 (isn (gr_syms g)) js xs -> map_res (obj_index g1 sorted) js = Ok (map code xs).
Proof. intros js xs F. apply map_res_ok. apply Forall2_maps. eapply Forall2_mono; [|exact F]. intros a b I. apply obj_index_sym. exact I. Qed.

Lemma to_elem_ok : forall e a, elem_is (gr_syms g) e a -> to_elem g1 sorted (fst a) = Ok (elem_of ign items (means items e)).
Proof.
  intros e a (_ & H). unfold to_elem, means. cbn [set_syms gr_syms]. destruct (re_alts e) as [|y ys].
  - pose proof H as I. destruct H as (s & E & N & X). rewrite nth_error_app1 by (apply nth_error_Some; congruence). rewrite E. cbn [opt bind].
    destruct (si_named _ _ _ (gi_sym _ _ _ GI) _ _ E N) as (_ & _ & _ & T & SU & _). cbn [view_of v_cls] in T, SU. rewrite X in T, SU. rewrite T.
    destruct (class_of items (re_name e)) as [zs0|].
    + rewrite (obj_indices _ _ SU). reflexivity.
    + rewrite (obj_index_sym _ _ I). destruct (isupper _); reflexivity.
  - destruct H as (s & E & N & T & F). rewrite nth_error_app1 by (apply nth_error_Some; congruence). rewrite E. cbn [opt bind]. rewrite T, (obj_indices _ _ F). reflexivity.
Qed.

Lemma to_rules_ok : map_res (to_rule g1 sorted) (rev (gr_rules g)) = Ok (map (rule_of ign items) (filter is_rule items)).
Proof.
  apply map_res_ok. apply Forall2_maps. apply Forall2_flip. eapply Forall2_mono; [|exact (gi_rules _ _ _ GI)]. intros i r H. destruct i; cbn [rule_is] in H; try contradiction.
  destruct H as (H1 & _ & H3 & _). unfold to_rule. rewrite (obj_index_sym _ _ H1). cbn [bind].
  rewrite (map_res_ok _ _ (fun a => to_elem g1 sorted (fst a)) (rr_rhs r) (map (elem_of ign items) (map (means items) rhs))); [reflexivity|].
  apply Forall2_maps, Forall2_maps. apply Forall2_flip. eapply Forall2_mono; [|exact H3]. intros e a. apply to_elem_ok.
Qed.

Lemma precsyms_ok : map_res (fun rp => opt_index g1 sorted (rr_precsym rp)) (rev (gr_rules g)) = Ok (map (precsym_of ign items) (filter is_rule items)).
Proof.
  apply map_res_ok. apply Forall2_maps. apply Forall2_flip. eapply Forall2_mono; [|exact (gi_rules _ _ _ GI)]. intros i r H. destruct i; cbn [rule_is] in H; try contradiction.
  destruct H as (_ & _ & _ & H & _). unfold opt_index, precsym_of. destruct prec as [x|]; [|rewrite H; reflexivity]. pose proof obj_index_sym as OS. destruct ign; [rewrite H; reflexivity|].
  destruct H as (j & -> & I). rewrite (OS _ _ I). reflexivity.
Qed.

Lemma nocodes_ok : map (fun rp => match rr_code rp with None => true | Some _ => false end) (rev (gr_rules g)) = map nocode_of (filter is_rule items).
Proof.
  pose proof (gi_rules _ _ _ GI) as H. induction H as [|i r li lr H _ IH]; [reflexivity|]. cbn [map]. rewrite IH. f_equal. destruct i; cbn [rule_is] in H; try contradiction.
  destruct H as (_ & _ & _ & _ & _ & ->). unfold nocode_of, never_code. destruct code as [c|]; [|reflexivity]. destruct (eqt c _); reflexivity.
Qed.

Lemma wild_ok : opt_index g1 sorted (gr_wildcard g) = Ok (option_map code (wildcard_of items)).
Proof.
  pose proof (gi_wild _ _ _ GI) as H. unfold opt_index. destruct (wildcard_of items) as [x|]; [|rewrite H; reflexivity]. destruct H as (j & -> & I). rewrite (obj_index_sym _ _ I). reflexivity.
Qed.

Lemma find_symbol : forall x, sym_find x (gr_syms g) = None /\ ~ In x (symbols_of ign items) \/ exists j, sym_find x (gr_syms g) = Some j /\ isn (gr_syms g) j x.
Proof.
  intros x. destruct (sym_find x (gr_syms g)) as [j|] eqn:E; [right; exists j; split; auto; apply sym_find_Some; auto|]. left. split; [auto|].
  rewrite <- (si_names _ _ _ (gi_sym _ _ _ GI)). eapply find_from_None. exact E.
Qed.

Lemma err_ok : opt_index g1 sorted (sym_find (zs "error") (gr_syms g)) = Ok (error_of ign items).
Proof.
  unfold error_of, opt_index. destruct (find_symbol (zs "error")) as [(-> & N)|(j & -> & I)].
  - apply mem_no in N. rewrite N. reflexivity.
  - rewrite (obj_index_sym _ _ I). apply isn_symbol, mem_ok in I. rewrite I. reflexivity.
Qed.

Lemma find1 : forall x, In x (symbols_of ign items) -> exists j, sym_find x syms1 = Some j /\ isn (gr_syms g) j x /\ isn syms1 j x.
Proof.
  intros x I. destruct (find_symbol x) as [(_ & N)|(j & _ & J)]; [contradiction|]. exists j. split; [|split; [exact J|apply isn1; exact J]]. apply isn_find; [exact nodup1|]. apply isn1. exact J.
Qed.

Lemma first_lhs_ok : forall first rest, rev (gr_rules g) = first :: rest -> isn (gr_syms g) (rr_lhs first) (first_lhs items) /\ class_of items (first_lhs items) = None /\ lower (first_lhs items).
Proof.
  intros first rest E. pose proof (gi_rules _ _ _ GI) as H. rewrite E in H. inversion H as [|i r li lr R _ EQ X]; subst. clear H.
  assert (I : In i items) by (apply (filter_In is_rule i items); rewrite <- EQ; now left).
  assert (FL : forall l i li, i :: li = filter is_rule l -> match i with IRule lhs _ _ _ _ => first_lhs l = lhs | _ => False end).
  { clear. induction l as [|k l IH]; intros i li E; [discriminate|]. destruct k; cbn [filter is_rule] in E; try (apply IH in E; exact E). inversion E; subst. reflexivity. }
  pose proof (FL items i li EQ) as FE. destruct i; try contradiction. cbn [rule_is] in R. rewrite FE. destruct R as (R & _). split; [exact R|]. split; [eapply (gf_lhs _ _ GF); exact I|].
  rewrite Forall_forall in SH. specialize (SH _ I). cbn [item_shape] in SH. tauto.
Qed.

Lemma start_ok : forall first rest, rev (gr_rules g) = first :: rest ->
  exists sid, start_id g1 first = (sid, start_message ign items) /\ obj_index g1 sorted sid = Ok (code (start_of ign items)).
Proof.
  intros first rest E. destruct (first_lhs_ok _ _ E) as (FL & _ & _). unfold start_id, start_of, start_message. cbn [set_syms gr_syms gr_slots].
  rewrite (gi_slots _ _ _ GI) by (right; reflexivity). destruct (slot_text Gstart items) as [x|] eqn:SL.
  - destruct (gf_start _ _ GF x SL) as (ND & _). destruct (mem x (symbols_of ign items)) eqn:M.
    + apply mem_ok in M. destruct (find1 x M) as (j & -> & J & _). exists j. split; [reflexivity|]. apply obj_index_sym. exact J.
    + apply mem_no in M. destruct (sym_find x syms1) as [j|] eqn:F.
      * apply sym_find_Some, isn_names in F. rewrite names1 in F. apply in_app_iff in F as [F|[F|[]]]; [contradiction|]. exfalso. apply ND. symmetry. exact F.
      * exists (rr_lhs first). split; [reflexivity|]. apply obj_index_sym. exact FL.
  - exists (rr_lhs first). split; [reflexivity|]. apply obj_index_sym. exact FL.
Qed.

Lemma fallback_of_In : forall l x f, fallback_of l x = Some f -> exists ys, In (IFallback f ys) l /\ In x ys.
Proof.
  induction l as [|i l IH]; intros x f H; [discriminate|]. destruct i as [? ? ? ? ?|? ?|f' ys|?|?|? ?|? ?|? ?|? ?|]; cbn [fallback_of] in H;
    try (destruct (IH x f H) as (zs0 & A & B); exists zs0; split; [now right|exact B]).
  destruct (mem x ys) eqn:M; [apply mem_ok in M; inversion H; subst; exists ys; split; [now left|exact M]|]. destruct (IH x f H) as (zs0 & A & B); exists zs0; split; [now right|exact B].
Qed.

Lemma In_fallback : forall l f ys x, In (IFallback f ys) l -> In x ys -> fallback_of l x <> None.
Proof.
  induction l as [|i l IH]; intros f ys x I X; [destruct I|]. destruct I as [->|I].
  - cbn [fallback_of]. apply mem_ok in X. rewrite X. discriminate.
  - destruct i as [? ? ? ? ?|? ?|f' ys'|?|?|? ?|? ?|? ?|? ?|]; cbn [fallback_of]; try (eapply IH; eauto; fail). destruct (mem x ys'); [discriminate|]. eapply IH; eauto.
Qed.

Lemma fallback_upper : forall x f, fallback_of items x = Some f -> In x (terms_of ign items) /\ In f (terms_of ign items).
Proof.
  intros x f H. apply fallback_of_In in H as (ys & I & X). assert (Q := SH). rewrite Forall_forall in Q. specialize (Q _ I). cbn [item_shape] in Q. destruct Q as (Q1 & Q2). rewrite Forall_forall in Q2.
  split; apply filter_In; (split; [eapply mention_symbol; [exact I|]|]); cbn [mentions]; [now right|apply Q2; exact X|now left|exact Q1].
Qed.

Lemma fallbacks_ok : fallback_table g1 sorted (1 + List.length (terms_of ign items)) = Ok (fallbacks_of ign items).
Proof.
  unfold fallback_table, fallbacks_of. cbn [set_syms gr_syms].
  assert (EX : existsb (fun s => match so_fallback s with Some _ => true | None => false end) syms1 = existsb (fun i => match i with IFallback _ (_ :: _) => true | _ => false end) items).
  { apply Bool.eq_iff_eq_true. rewrite !existsb_exists. split.
    - intros (s & I & F). apply in_app_iff in I as [I|[<-|[]]]; [|discriminate F]. apply In_nth_error in I as (id & I). destruct (so_named s) eqn:N.
      + destruct (si_named _ _ _ (gi_sym _ _ _ GI) _ _ I N) as (_ & _ & FB & _). cbn [view_of v_fb] in FB. destruct (fallback_of items (so_name s)) as [f|] eqn:E; [|rewrite FB in F; discriminate].
        apply fallback_of_In in E as (ys & A & B). exists (IFallback f ys). split; [exact A|]. destruct ys; [destruct B|reflexivity].
      + destruct (si_anon _ _ _ (gi_sym _ _ _ GI) _ _ I N) as (_ & E). rewrite E in F. discriminate.
    - intros (i & I & F). destruct i as [? ? ? ? ?|? ?|f [|y ys]|?|?|? ?|? ?|? ?|? ?|]; try discriminate.
      pose proof (In_fallback items f (y :: ys) y I (or_introl eq_refl)) as NE. destruct (fallback_of items y) as [f'|] eqn:E; [|contradiction]. destruct (fallback_upper _ _ E) as (T & _).
      apply filter_In in T as (T & _). destruct (find1 y T) as (j & _ & (s & A & B & C) & _). exists s. split; [apply in_app_iff; left; eapply nth_error_In; eauto|].
      destruct (si_named _ _ _ (gi_sym _ _ _ GI) _ _ A B) as (_ & _ & FB & _). cbn [view_of v_fb] in FB. rewrite C, E in FB. destruct FB as (k & -> & _). reflexivity. }
  rewrite EX. destruct (existsb _ items); [|reflexivity].
  rewrite (map_res_ok _ _ (fallback_row g1 sorted) _ (map (fun x => match fallback_of items x with Some f => code f | None => 0 end) (zs "$" :: terms_of ign items))); [reflexivity|].
  apply Forall2_maps.
  assert (FN : map ls_name (firstn (1 + List.length (terms_of ign items)) sorted) = zs "$" :: terms_of ign items).
  { rewrite <- firstn_map, SN. unfold order. cbn [Nat.add firstn]. f_equal. rewrite firstn_app, Nat.sub_diag, firstn_all, firstn_O. apply app_nil_r. }
  assert (IN : forall x, In x (zs "$" :: terms_of ign items) -> In x (symbols_of ign items)).
  { intros x [<-|I]; [destruct symbols_cons as (rest & -> & _); now left|]. apply filter_In in I. tauto. }
  clear EX. rewrite <- FN in IN. rewrite <- FN. clear FN. revert IN. generalize (firstn (1 + List.length (terms_of ign items)) sorted). induction l as [|s l IH]; intros IN; cbn [map]; constructor.
  - unfold fallback_row. cbn [set_syms gr_syms]. destruct (find1 (ls_name s)) as (j & -> & (s' & A & B & C) & (s'' & A' & _ & _)); [apply IN; now left|]. cbn [opt bind]. rewrite A'. cbn [opt bind].
    rewrite nth_error_app1 in A' by (apply nth_error_Some; congruence). assert (s'' = s') by congruence. subst s''.
    destruct (si_named _ _ _ (gi_sym _ _ _ GI) _ _ A B) as (_ & _ & FB & _). cbn [view_of v_fb] in FB. rewrite C in FB. destruct (fallback_of items (ls_name s)) as [f|]; [|rewrite FB; reflexivity].
    destruct FB as (k & -> & K). apply obj_index_sym. exact K.
  - apply IH. intros x I. apply IN. now right.
Qed.

Lemma obj_at_ok : forall i, match nth_error (order ign items) i with
  | Some x => exists s, obj_at g1 sorted i = Some s /\ so_prec s = option_map fst (prec_of ign items x) /\ so_assoc s = match prec_of ign items x with Some (_, a) => a | None => UNK end
  | None => obj_at g1 sorted i = None
  end.
Proof.
  intros i. unfold obj_at. rewrite <- SN. rewrite nth_error_map. destruct (nth_error sorted i) as [s|] eqn:E; cbn [option_map]; [|reflexivity]. cbn [set_syms gr_syms].
  assert (I : In (ls_name s) (order ign items)) by (rewrite <- SN; apply in_map; eapply nth_error_In; eauto).
  assert (C : In (ls_name s) (symbols_of ign items) \/ ls_name s = default_name).
  { unfold order in I. destruct I as [I|I]; [left; rewrite <- I; destruct symbols_cons as (rest & -> & _); now left|]. apply in_app_iff in I as [I|I]; [left; apply filter_In in I; tauto|].
    apply in_app_iff in I as [I|I]; [left; apply filter_In in I; tauto|]. destruct I as [I|I]; [right; symmetry; exact I|left; apply filter_In in I; tauto]. }
  destruct C as [C|C].
  - destruct (find1 _ C) as (j & -> & (s' & A & B & D) & _). exists s'. rewrite nth_error_app1 by (apply nth_error_Some; congruence). split; [exact A|].
    destruct (si_named _ _ _ (gi_sym _ _ _ GI) _ _ A B) as (P1 & P2 & _). cbn [view_of v_prec] in P1, P2. rewrite D in P1, P2. auto.
  - assert (J : isn syms1 (List.length (gr_syms g)) default_name) by (exists (new_obj default_name); rewrite nth_error_app2, Nat.sub_diag by lia; repeat split).
    rewrite C, (isn_find _ _ _ nodup1 J). exists (new_obj default_name). rewrite nth_error_app2, Nat.sub_diag by lia. split; [reflexivity|].
    destruct (si_dom _ _ _ (gi_sym _ _ _ GI) default_name no_default) as (P & _). cbn [view_of v_prec] in P. rewrite P. split; reflexivity.
Qed.
End Index.

Lemma to_grammar_ok : forall o items g compress yacc a1 a2, let ign := ro_ignorePrec o in
  Forall item_shape items -> GInv o items g -> grammar_file ign items ->
  exists P, to_grammar o compress yacc a1 a2 g =
    Ok (Some (grammar_of ign items,
      mkOpts ign (yacc || existsb is_yacc items) compress P (map (precsym_of ign items) (filter is_rule items)) (map nocode_of (filter is_rule items))
        (option_map (code_of ign items) (wildcard_of items)) (error_of ign items) (fallbacks_of ign items) a1 a2, start_message ign items)) /\
    forall i, p_prec P i = match nth_error (order ign items) i with Some x => option_map fst (prec_of ign items x) | None => None end /\
              p_assoc P i = match nth_error (order ign items) i with Some x => match prec_of ign items x with Some (_, a) => a | None => UNK end | None => UNK end.
Proof.
  intros o items g compress yacc a1 a2 ign SH GI GF. unfold to_grammar. rewrite (gi_err _ _ _ GI). cbn [Nat.eqb negb].
  destruct (sorted_ok o items g SH GI) as (sorted & IX & SN).
  destruct (rev (gr_rules g)) as [|first rest] eqn:ER.
  { exfalso. pose proof (gi_rules _ _ _ GI) as R. rewrite ER in R. inversion R as [E|]. destruct (gf_rule _ _ GF) as (i & I & J). assert (X : In i (filter is_rule items)) by (apply filter_In; auto). rewrite <- E in X. destruct X. }
  rewrite (default_new o items g SH GI). cbn [snd]. unfold named. cbn [set_syms gr_syms]. rewrite IX. cbn [bind].
  rewrite <- ER.
  rewrite (to_rules_ok o items g SH GI sorted SN). cbn [bind].
  destruct (start_ok o items g SH GI GF sorted SN first rest ER) as (sid & -> & ->). cbn [bind].
  rewrite (precsyms_ok o items g SH GI GF sorted SN). cbn [bind].
  change (gr_wildcard (set_syms (gr_syms g ++ [new_obj default_name]) g)) with (gr_wildcard g). rewrite (wild_ok o items g SH GI sorted SN). cbn [bind].
  rewrite (err_ok o items g SH GI sorted SN). cbn [bind]. rewrite (fallbacks_ok o items g SH GI sorted SN). cbn [bind].
  rewrite (nocodes_ok o items g GI). change (gr_yaccPrec (set_syms (gr_syms g ++ [new_obj default_name]) g)) with (gr_yaccPrec g). rewrite (gi_yacc _ _ _ GI).
  eexists. split; [reflexivity|]. intros i. pose proof (obj_at_ok o items g SH GI sorted SN i) as OA. unfold read_precs. cbn [p_prec p_assoc].
  fold ign in OA. destruct (nth_error (order ign items) i) as [x|]; [destruct OA as (s & -> & A & B); auto|rewrite OA; auto].
Qed.
