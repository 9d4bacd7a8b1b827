(** C79: from the text of a grammar file to the C text of its parser, and to the strings the parser in that text accepts. *)
From Coq Require Import String List Arith ZArith NArith Bool Lia.
Import ListNotations.
From Verif Require Import Base SpecGrammar SpecGrammarFacts CLib SpecConflict LemonSetModel LemonFirstModel LemonSortModel Prop_LemonSort LemonStatesModel LemonCompressModel LemonReportModel LemonActionProof LemonParModel LemonGenProof LemonTabProof LemonSoundProof Prop_LemonTables Prop_LemonSound Prop_LemonComplete
  LemonTableModel LemonTableProof LemonPreModel LemonActionModel LemonPipelineModel LemonReadModel LemonScanProof Prop_LemonScan SpecItems LemonReadProof SpecFile LemonIndexProof Prop_LemonRead Prop_LemonIndex Prop_LemonEndToEnd
  ByaccScanModel LemonCodeModel SpecCode LemonCodeProof LemonReprintModel ReprintTextProof LemonReprintProof SpecCText CTextProof LemonTableTextModel Prop_LemonTableText ByaccTableTextProof ByaccNameTextProof LemonNameTextModel LemonNameTextProof Prop_LemonNameText LemonFileTextModel.
Import SpecFile.
Local Open Scope res_scope.

(** What %token_prefix says. *)
Definition prefix_of (items : list item) : text := match slot_text Gtokenprefix items with Some p => p | None => [] end.

Lemma nm_ident : forall x, nm x -> ident x.
Proof.
  intros [|c a] H; [destruct H|]. destruct H as (H1 & H2). cbn [ident]. split; [unfold w0, isalpha in *; lia|]. rewrite Forall_forall. rewrite forallb_forall in H2. exact H2.
Qed.

(** * The names *)

(** "$", the tokens and the nonterminals. *)
Definition names_of (ign : bool) (items : list item) : list text := zs "$" :: terms_of ign items ++ nonterms_of ign items.

Section Names.
Variables (defs : list text) (o : ropts) (z : text) (items : list item).
Notation ign := (ro_ignorePrec o).
Hypothesis D : declares defs z items.
Hypothesis SF : sound_file ign items.

Lemma names_read : forall compress yacc a1 a2, exists g op, LemonReadModel.Parse defs o z = Ok (Some g) /\ to_grammar o compress yacc a1 a2 g = Ok (Some (grammar_of ign items, op, start_message ign items)) /\
  symbol_names g = Ok (names_of ign items) /\ token_prefix g = prefix_of items /\ o_noCode op = map nocode_of (filter is_rule items).
Proof.
  intros compress yacc a1 a2. destruct D as (z1 & evs & P & L & T). destruct (C55_text defs o z z1 evs P L) as (p & A & B).
  destruct (file_run o items evs (sf_shape _ _ SF) (sf_new _ _ SF) T) as (p' & A' & _ & GI). rewrite A in A'. injection A' as <-.
  destruct (to_grammar_ok o items (p_g p) compress yacc a1 a2 (sf_shape _ _ SF) GI (sf_grammar _ _ SF)) as (PR & TG & _).
  destruct (sorted_ok o items (p_g p) (sf_shape _ _ SF) GI) as (sorted & IS & SN). destruct (printed_syms o items (p_g p) (sf_shape _ _ SF) GI sorted SN) as (syms & MS & PS).
  exists (p_g p). eexists. split; [exact B|]. split; [exact TG|]. split; [|split; [|reflexivity]].
  - unfold symbol_names. rewrite (default_new o items (p_g p) (sf_shape _ _ SF) GI). cbn [snd]. unfold named. cbn [LemonReadModel.set_syms gr_syms]. rewrite IS. cbn [bind]. rewrite MS. cbn [bind]. f_equal.
    clear - PS. unfold names_of. induction PS as [|s x l l' (H & _) _ IH]; [reflexivity|]. cbn [map]. now rewrite H, IH.
  - unfold token_prefix, prefix_of. rewrite (gi_slots _ _ _ GI) by (right; reflexivity). reflexivity.
Qed.

Lemma words : forall x, In x (terms_of ign items ++ nonterms_of ign items) -> nm x.
Proof.
  destruct D as (z1 & evs & _ & L & T). intros x I. apply (names_ok _ _ _ ign items L T (sf_shape _ _ SF)).
  - apply in_app_iff in I as [I|I]; apply filter_In in I; tauto.
  - unfold alpha, isalpha. apply in_app_iff in I as [I|I]; apply filter_In in I as (_ & I); cbn beta in I; [unfold isupper in I|apply andb_true_iff in I as (I & _); unfold islower in I]; lia.
Qed.

Lemma name_nth : forall i, i < g_nsym (grammar_of ign items) -> nth i (names_of ign items) [] = zs "$" \/ nm (nth i (names_of ign items) []).
Proof.
  intros [|i] L; [now left|]. right. apply words. cbn [names_of nth]. apply nth_In. cbn [grammar_of g_nsym] in L. rewrite app_length. lia.
Qed.
Lemma name_code : forall x, In x (terms_of ign items ++ nonterms_of ign items) -> nth (code_of ign items x) (names_of ign items) [] = x.
Proof.
  intros x I. apply nth_error_nth. unfold code_of, order, names_of. rewrite (app_assoc (terms_of ign items)), (app_comm_cons (terms_of ign items ++ _) _ (zs "$")). rewrite position_app1 by (now right). apply position_nth. now right.
Qed.
Lemma term_nth : forall i, 0 < i < g_nterm (grammar_of ign items) -> In (nth i (names_of ign items) []) (terms_of ign items) /\ code_of ign items (nth i (names_of ign items) []) = i.
Proof.
  intros i L. destruct (proj1 (proj2 (proj2 (proj2 (C59_language ign items (sf_shape _ _ SF) (sf_grammar _ _ SF)))) i) L) as (x & I & <-).
  rewrite name_code by (apply in_app_iff; now left). auto.
Qed.
End Names.

(** * The rules *)

(** A rule as a line of text, and the lines in the order of the numbers of the rules: those with code first. *)
Definition spelled (items : list item) (e : relem) : list text := match means items e with NSym x => [x] | NAlt l => l end.
Definition rule_line (items : list item) (i : item) : txt :=
  match i with IRule lhs _ rhs _ _ => lhs ++ zs " ::=" ++ concat (map (fun e => 32%Z :: bars (spelled items e)) rhs) | _ => [] end.
Definition rule_lines (items : list item) : list txt :=
  map (rule_line items) (filter (fun i => negb (nocode_of i)) (filter is_rule items)) ++ map (rule_line items) (filter nocode_of (filter is_rule items)).

Lemma filter_nth : forall A (f : A -> bool) l k, k < List.length (filter f l) -> exists r x, nth_error l r = Some x /\ f x = true /\ List.length (filter f (firstn r l)) = k /\ nth_error (filter f l) k = Some x.
Proof.
  intros A f. induction l as [|a l IH]; intros k L; [cbn in L; lia|]. cbn [filter] in *. destruct (f a) eqn:E.
  - destruct k as [|k]; [exists 0, a; cbn [filter firstn nth_error]; auto|]. cbn [List.length] in L. destruct (IH k ltac:(lia)) as (r & x & R & X & C & N). exists (S r), x. cbn [firstn filter nth_error]. rewrite E. cbn [List.length]. auto.
  - destruct (IH k L) as (r & x & R & X & C & N). exists (S r), x. cbn [firstn filter nth_error]. rewrite E. auto.
Qed.
Lemma filter_len : forall A (f : A -> bool) l, List.length (filter f l) + List.length (filter (fun x => negb (f x)) l) = List.length l.
Proof. intros A f l. induction l as [|a l IH]; [reflexivity|]. cbn [filter]. destruct (f a); cbn [negb List.length]; lia. Qed.
Lemma before_map : forall A (f : A -> bool) b l k, Prop_LemonSort.before b (map negb (map f l)) k = List.length (filter (fun x => Bool.eqb b (negb (f x))) (firstn k l)).
Proof.
  intros A f b l k. unfold Prop_LemonSort.before. rewrite map_map. rewrite firstn_map. induction (firstn k l) as [|a m IH]; [reflexivity|]. cbn [map filter]. destruct (Bool.eqb b (negb (f a))); cbn [List.length]; now rewrite IH.
Qed.
Lemma nth_same : forall A (l m : list A), List.length l = List.length m -> (forall k, k < List.length m -> nth_error l k = nth_error m k) -> l = m.
Proof.
  intros A. induction l as [|a l IH]; intros [|b m] E H; try discriminate; [reflexivity|]. pose proof (H 0 ltac:(cbn; lia)) as H0. injection H0 as ->. f_equal. apply IH; [now injection E|].
  intros k L. apply (H (S k)). cbn [List.length]. lia.
Qed.

Lemma lines_in_order : forall A (line : A -> txt) (f : A -> bool) (R : list A) (L : list txt), List.length L = List.length R ->
  (forall r x, nth_error R r = Some x -> nth_error L (nth r (number_rules (map negb (map f R))) 0) = Some (line x)) ->
  L = map line (filter (fun x => negb (f x)) R) ++ map line (filter f R).
Proof.
  intros A line f R L LEN H. set (T := map line (filter (fun x => negb (f x)) R) ++ map line (filter f R)).
  assert (LT : List.length T = List.length R) by (unfold T; rewrite app_length, !map_length; pose proof (filter_len A f R); lia).
  assert (EQ1 : forall l, filter (fun x => Bool.eqb true (negb (f x))) l = filter (fun x => negb (f x)) l) by (intros l; apply filter_ext; intros x; destruct (f x); reflexivity).
  assert (EQ2 : forall l, filter (fun x => Bool.eqb false (negb (f x))) l = filter f l) by (intros l; apply filter_ext; intros x; destruct (f x); reflexivity).
  assert (K : forall k, k < List.length T -> nth_error L k = nth_error T k).
  { intros k LK. unfold T in LK |- *. rewrite app_length, !map_length in LK. destruct (Nat.lt_ge_cases k (List.length (filter (fun x => negb (f x)) R))) as [C|C].
    - destruct (filter_nth A _ R k C) as (r & x & R1 & X & B & N). rewrite nth_error_app1 by (rewrite map_length; lia). rewrite nth_error_map, N. cbn [option_map]. rewrite <- (H r x R1). f_equal.
      symmetry. apply nth_error_nth. rewrite (Prop_LemonSort.C21_number_rules _ r true); [|rewrite !nth_error_map, R1; cbn [option_map]; now rewrite X]. rewrite before_map, EQ1. now rewrite B.
    - destruct (filter_nth A f R (k - List.length (filter (fun x => negb (f x)) R)) ltac:(lia)) as (r & x & R1 & X & B & N). rewrite nth_error_app2 by (rewrite map_length; lia). rewrite map_length, nth_error_map, N. cbn [option_map]. rewrite <- (H r x R1). f_equal.
      symmetry. apply nth_error_nth. rewrite (Prop_LemonSort.C21_number_rules _ r false); [|rewrite !nth_error_map, R1; cbn [option_map]; now rewrite X]. rewrite !before_map, EQ1, EQ2, B. rewrite !map_length, firstn_all. f_equal. lia. }
  apply nth_same; [congruence|exact K].
Qed.

(** * The text *)

(** The tables, read from the text, are those of [c]. *)
Definition text_has (t : txt) (c : gen) : Prop :=
  exists nrule nact d tcode taction tshift treduce mt xt mn xn nrhs,
    clex true t (parser_tokens c nrule nact d tcode taction tshift treduce mt xt mn xn nrhs) /\ map schar nrhs = g_nrhs c.
(** A line "#define w v". *)
Definition defines (ts : list ctok) (w : txt) (v : Z) : Prop := In (CD [W "define"; CW w; CN v]) ts.

(** All numbers in the file fit into int. *)
Definition fits (g : grammar) (c : gen) : Prop :=
  (YY_MIN_REDUCE (g_tab c) + Z.of_nat (List.length (g_rules g)) < 2 ^ 31 /\ Z.of_nat (g_nsym g) + YY_ACTTAB_COUNT (g_tab c) < 2 ^ 31 /\
   Z.of_nat (List.length (g_rules g)) < 2 ^ 31 /\ Z.of_nat (g_nsym g) < 2 ^ 31)%Z.

Lemma rule_line_ok : forall o defs z items, let ign := ro_ignorePrec o in declares defs z items -> sound_file ign items -> forall i, In i items -> is_rule i = true ->
  rule_words (fun k => nth k (names_of ign items) []) (SpecFile.rule_of ign items i) = rule_line items i.
Proof.
  intros o defs z items ign D SF i I R. destruct i as [lhs la rhs prec cd| | | | | | | | |]; try discriminate. unfold rule_words, rule_line. cbn [SpecFile.rule_of r_lhs r_rhs].
  assert (NC : forall x, In x (terms_of ign items ++ nonterms_of ign items) -> nth (code_of ign items x) (names_of ign items) [] = x) by (exact (name_code o items)).
  rewrite NC by (apply in_app_iff; right; eapply lhs_nonterm; [exact (sf_shape _ _ SF)|exact (sf_grammar _ _ SF)|exact I]). do 2 f_equal. rewrite !map_map. f_equal. apply map_ext_in. intros e J. f_equal. f_equal.
  pose proof (means_known ign items (sf_shape _ _ SF) (sf_grammar _ _ SF) _ _ _ _ _ _ I J) as K. unfold spelled. destruct (means items e) as [x|l]; cbn [known elem_of members map] in *.
  - rewrite NC; [reflexivity|]. apply in_app_iff. exact K.
  - destruct K as (_ & K). rewrite map_map. transitivity (map (fun x => x) l); [|apply map_id]. apply map_ext_in. intros x X. apply NC. apply in_app_iff. left. now apply K.
Qed.

Lemma defi : forall a b w v, CD [W "define"; CW a; CN b] = CD [W "define"; CW w; CN v] -> a = w /\ b = v.
Proof. intros a b w v E. assert (F : [W "define"; CW a; CN b] = [W "define"; CW w; CN v]) by congruence. apply (f_equal (@tl ctok)) in F. cbn [tl] in F. split; congruence. Qed.

(** Of a file whose names and numbers are not too long, lemon prints: a macro for each token, with its code; the tables of the
    parser [c] of C60; the names of the symbols, by codes; the rules, by their numbers; and a header with the codes of the tokens. *)
Theorem C79_text : forall sf ff cf defs o compress yacc mh dt a1 a2 old z items n c, let ign := ro_ignorePrec o in
  declares defs z items -> sound_file ign items -> small_lists sf ff (grammar_of ign items) ->
  lemon_text sf ff cf defs o compress yacc a1 a2 z = Ok (Some (n, c)) ->
  fits (grammar_of ign items) c -> (0 <= dt < 2 ^ 31)%Z -> terms_of ign items <> [] -> prefix_of items = [] \/ ident (prefix_of items) ->
  (forall x, In x (terms_of ign items) -> List.length (prefix_of items ++ x) < 900) ->
  exists t, lemon_print sf ff cf defs o compress yacc mh dt a1 a2 old z = Ok (Some (n, t)) /\
    (exists ts, clex true (lp_macros t) ts /\ forall w v, defines ts w v <-> exists x, In x (terms_of ign items) /\ w = prefix_of items ++ x /\ v = Z.of_nat (code_of ign items x)) /\
    text_has (lp_tables t) c /\
    clex true (lp_names t) (string_array "yyTokenName" (names_of ign items)) /\
    clex true (lp_rules t) (string_array "yyRuleName" (rule_lines items)) /\
    (if mh then lp_header t = None else exists h ts, lp_header t = Some h /\ clex true h ts /\
      (enumerators ts = map (fun x => (prefix_of items ++ x, Z.of_nat (code_of ign items x))) (terms_of ign items) ++ [(prefix_of items ++ zs "LEMON_LAST_TOKEN", Z.of_nat (S (List.length (terms_of ign items))))] \/
       old = Some h /\ forall w v, defines ts w v <-> exists x, In x (terms_of ign items) /\ w = prefix_of items ++ x /\ v = Z.of_nat (code_of ign items x))).
Proof.
  intros sf ff cf defs o compress yacc mh dt a1 a2 old z items n c ign D SF SM RUN (F1 & F2 & F3 & F4) DT NE PX LEN.
  pose proof (C59_well_formed ign items (sf_shape _ _ SF) (sf_grammar _ _ SF)) as WF.
  destruct (settings _ _ _ _ _ _ _ _ _ _ _ _ _ D SF RUN) as (op' & HG & EN & OO & _ & _ & _ & _).
  destruct (names_read defs o z items D SF compress yacc a1 a2) as (g & op & PA & TG & SN & TP & NC).
  assert (EOP : lemon_generate sf ff cf op (grammar_of ign items) = Ok c /\ opts_ok (grammar_of ign items) op).
  { clear HG OO. unfold lemon_text in RUN. rewrite PA in RUN. cbn [bind] in RUN. rewrite TG in RUN. cbn [bind] in RUN. fold ign in RUN.
    destruct (lemon_generate sf ff cf op (grammar_of ign items)) as [c'| |] eqn:E; [|discriminate|discriminate]. cbn [bind] in RUN. injection RUN as _ ->. split; [reflexivity|].
    destruct D as (z1 & evs & P & L & T). destruct (C55_text defs o z z1 evs P L) as (p & A & B).
    destruct (C59_grammar o items evs compress yacc a1 a2 (sf_shape _ _ SF) (sf_new _ _ SF) T (sf_grammar _ _ SF)) as (p' & PR & A' & B' & _). rewrite A in A'. injection A' as <-.
    rewrite B in PA. injection PA as <-. fold ign in B'. fold ign in TG. rewrite TG in B'. injection B' as ->. destruct (sf_error _ _ SF) as (E1 & E2).
    apply C59_settings; [exact (sf_shape _ _ SF)|exact (sf_grammar _ _ SF)|exact (sf_chain _ _ SF)|exact E1|exact E2]. }
  clear HG OO op'. destruct EOP as (HG & OO). fold ign in TG, SN, EN.
  set (G := grammar_of ign items) in *. set (nm' := fun i : nat => nth i (names_of ign items) ([] : txt)).
  assert (NM : forall i, i < g_nsym G -> nm' i = zs "$" \/ nm (nm' i)) by (exact (name_nth defs o z items D SF)).
  assert (CH : forall x, nm x -> Forall (fun ch => wordch ch = true) x) by (intros x X; apply ident_chars, nm_ident, X).
  assert (WC : forall ch, wordch ch = true -> (48 <= ch <= 122)%Z /\ ch <> 92%Z /\ ch <> 42%Z /\ ch <> 34%Z) by (intros ch X; unfold wordch, isalnum, isalpha, isupper, islower, isdigit in X; lia).
  assert (N1 : forall i, i < g_nsym G -> Forall strch (nm' i)).
  { intros i L. destruct (NM i L) as [->|X]; [repeat constructor; discriminate|]. eapply Forall_impl; [|exact (CH _ X)]. intros ch Y. specialize (WC ch Y). unfold strch. lia. }
  assert (N2 : forall i, ~ In 42%Z (nm' i)).
  { intros i I. destruct (Nat.lt_ge_cases i (g_nsym G)) as [L|L].
    - destruct (NM i L) as [E|X]; [rewrite E in I; destruct I as [I|[]]; discriminate|]. pose proof (CH _ X) as Y. rewrite Forall_forall in Y. specialize (WC _ (Y _ I)). lia.
    - unfold nm' in I. rewrite nth_overflow in I; [destruct I|]. unfold G in L. cbn [grammar_of g_nsym] in L. unfold names_of. cbn [List.length]. rewrite app_length. lia. }
  assert (IDP : forall x, nm x -> ident (prefix_of items ++ x)) by (intros x X; destruct PX as [->|PX]; [now apply nm_ident|apply ident_app; auto]).
  assert (TN : forall i, 0 < i < g_nterm G -> In (nm' i) (terms_of ign items) /\ code_of ign items (nm' i) = i) by (exact (term_nth o items SF)).
  assert (N3 : forall i, 0 < i < g_nterm G -> ident (prefix_of items ++ nm' i)).
  { intros i L. apply IDP. apply (words defs o z items D SF). apply in_app_iff. left. now apply TN. }
  assert (NT : 1 < g_nterm G) by (unfold G; cbn [grammar_of g_nterm]; destruct (terms_of ign items); [congruence|cbn [List.length]; lia]).
  assert (RL : forall rl, In rl (g_rules G) -> (Z.of_nat (List.length (r_rhs rl)) < 2 ^ 31)%Z) by (intros rl I; pose proof (len_ok o items SF rl I); lia).
  destruct (C75_tables_text nm' dt sf ff cf op G c WF SM (start_ok o items SF) OO HG N2 DT F1 F2 RL) as (t & tc & ta & tsh & tre & mt & xt & mn & xn & nrhs & GT & LX & SC & _).
  assert (B32 : (N.of_nat (List.length (g_rules G)) < 2 ^ 32)%N) by lia.
  assert (BI : int_ok (Z.of_nat (g_nsym G))) by (unfold int_ok; lia).
  destruct (C78_names_text nm' (prefix_of items) mh op G WF OO B32 BI N1 N3 NT) as (M1 & M2 & u & L & RT & M3 & LL & ML).
  assert (EL : L = rule_lines items).
  { unfold rule_lines. apply lines_in_order; [rewrite LL; unfold G; cbn [grammar_of g_rules]; now rewrite map_length|].
    intros r x R. assert (RX : nth_error (g_rules G) r = Some (SpecFile.rule_of ign items x)) by (unfold G; cbn [grammar_of g_rules]; rewrite nth_error_map, R; reflexivity).
    pose proof (ML r _ RX) as X. unfold opts_rinfo in X. cbn [ri_iRule] in X. fold ign in NC. rewrite NC in X. rewrite X. f_equal. apply nth_error_In, filter_In in R as (R1 & R2). exact (rule_line_ok o defs z items D SF x R1 R2). }
  assert (ENM : map nm' (seq 0 (g_nsym G)) = names_of ign items).
  { apply nth_same; [rewrite map_length, seq_length; unfold G, names_of; cbn [grammar_of g_nsym List.length]; rewrite app_length; lia|]. intros k K. rewrite nth_error_map.
    rewrite (nth_error_nth' (seq 0 (g_nsym G)) 0) by (rewrite seq_length; unfold G; cbn [grammar_of g_nsym]; unfold names_of in K; cbn [List.length] in K; rewrite app_length in K; lia).
    cbn [option_map]. rewrite seq_nth by (unfold G; cbn [grammar_of g_nsym]; unfold names_of in K; cbn [List.length] in K; rewrite app_length in K; lia). cbn [plus]. symmetry. now apply nth_error_nth'. }
  assert (NCX : forall x, In x (terms_of ign items ++ nonterms_of ign items) -> nth (code_of ign items x) (names_of ign items) [] = x) by (exact (name_code o items)).
  assert (DEF : forall A B w v, (forall x, In x A \/ In x B -> forall a b, x <> CD [W "define"; CW a; CN b]) ->
     (defines (A ++ flat_map (fun i => [CD [W "define"; CW (prefix_of items ++ nm' i); CN (Z.of_nat i)]]) (seq 1 (g_nterm G - 1)) ++ B) w v <-> exists x, In x (terms_of ign items) /\ w = prefix_of items ++ x /\ v = Z.of_nat (code_of ign items x))).
  { intros A B w v AB. unfold defines. rewrite !in_app_iff, in_flat_map. split.
    - intros [I|[(i & I & [E|[]])|I]]; [exfalso; exact (AB _ (or_introl I) w v eq_refl)| |exfalso; exact (AB _ (or_intror I) w v eq_refl)]. apply in_seq in I. apply defi in E as (<- & <-). destruct (TN i ltac:(lia)) as (T1 & T2).
      exists (nm' i). rewrite T2. auto.
    - intros (x & I & -> & ->). right. left. pose proof (term_code ign items x I) as TC. fold G in TC. exists (code_of ign items x). split; [apply in_seq; lia|]. left. unfold nm'. rewrite NCX by (apply in_app_iff; now left). reflexivity. }
  assert (HD : exists h, (if mh then Ok None else h <- ReportHeader (prefix_of items) nm' (g_nterm G) old ;; Ok (Some h)) = Ok h /\
    (if mh then h = None else exists h' ts, h = Some h' /\ clex true h' ts /\
      (enumerators ts = map (fun x => (prefix_of items ++ x, Z.of_nat (code_of ign items x))) (terms_of ign items) ++ [(prefix_of items ++ zs "LEMON_LAST_TOKEN", Z.of_nat (S (List.length (terms_of ign items))))] \/
       old = Some h' /\ forall w v, defines ts w v <-> exists x, In x (terms_of ign items) /\ w = prefix_of items ++ x /\ v = Z.of_nat (code_of ign items x)))).
  { destruct mh; [exists None; auto|]. destruct (C78_header (prefix_of items) nm' (g_nterm G) old) as (h & ts & EH & LH & CASES); [lia|unfold int_ok in *; destruct WF as (_ & ? & _); lia|apply IDP; vm_compute; auto|apply IDP; vm_compute; auto|exact N3| |].
    { intros i I. apply LEN. now apply TN. }
    exists (Some h). rewrite EH. split; [reflexivity|]. exists h, ts. split; [reflexivity|]. split; [exact LH|]. destruct CASES as [(body & _ & EE)|(EO & ET)].
    - left. rewrite EE. f_equal. apply nth_same; [rewrite !map_length, seq_length; unfold G; cbn [grammar_of g_nterm]; lia|]. intros k K. rewrite map_length in K. rewrite !nth_error_map.
      rewrite (nth_error_nth' (seq 1 _) 0) by (rewrite seq_length; unfold G; cbn [grammar_of g_nterm]; lia). rewrite seq_nth by (unfold G; cbn [grammar_of g_nterm]; lia). rewrite (nth_error_nth' (terms_of ign items) []) by exact K. cbn [option_map].
      assert (EX : nm' (1 + k) = nth k (terms_of ign items) []) by (unfold nm', names_of; cbn [plus nth]; rewrite app_nth1 by exact K; reflexivity).
      destruct (TN (1 + k)) as (_ & T2); [unfold G; cbn [grammar_of g_nterm]; lia|]. rewrite <- EX, T2. reflexivity.
    - right. split; [exact EO|]. intros w v. rewrite ET. rewrite <- (DEF [] [] w v) by (intros x [[]|[]]). rewrite app_nil_r. reflexivity. }
  destruct HD as (h & EH & HH). unfold lemon_print. rewrite PA. cbn [bind]. fold ign. rewrite TG. cbn [bind]. rewrite SN. cbn [bind]. fold G. change (fun i : nat => nth i (names_of ign items) []) with nm'.
  rewrite GT. cbn [bind]. rewrite RT. cbn [bind]. rewrite TP. rewrite EH. cbn [bind]. rewrite <- EN. eexists. split; [reflexivity|]. cbn [lp_macros lp_tables lp_names lp_rules lp_header].
  split; [|split; [|split; [|split]]].
  - eexists. split; [exact M1|]. intros w v. rewrite app_comm_cons. rewrite <- (DEF [CD (if mh then [W "if"; W "INTERFACE"] else [W "ifndef"; CW (prefix_of items ++ nm' 1)])] [CD [W "endif"]] w v); [reflexivity|].
    intros x [[<-|[]]|[<-|[]]] a b X; [destruct mh; discriminate|discriminate].
  - do 12 eexists. split; [exact LX|exact SC].
  - rewrite <- ENM. exact M2.
  - rewrite <- EL. exact M3.
  - exact HH.
Qed.
Print Assumptions C79_text.

(** * The language *)

Section Language.
Variables (sf ff cf : nat) (defs : list text) (o : ropts) (compress yacc mh : bool) (dt : Z) (a1 a2 : nat -> nat -> nat) (old : option txt) (z : text) (items : list item) (n : nat) (c : gen).
Notation ign := (ro_ignorePrec o).
Hypothesis D : declares defs z items.
Hypothesis SF : sound_file ign items.
Hypothesis SM : small_lists sf ff (grammar_of ign items).
Hypothesis RUN : lemon_text sf ff cf defs o compress yacc a1 a2 z = Ok (Some (n, c)).
Hypothesis FT : fits (grammar_of ign items) c.
Hypothesis DT : (0 <= dt < 2 ^ 31)%Z.
Hypothesis NE : terms_of ign items <> [].
Hypothesis PX : prefix_of items = [] \/ ident (prefix_of items).
Hypothesis LEN : forall x, In x (terms_of ign items) -> List.length (prefix_of items ++ x) < 900.

Lemma read_back : forall t ts c' toks ks, lemon_print sf ff cf defs o compress yacc mh dt a1 a2 old z = Ok (Some (n, t)) ->
  clex true (lp_macros t) ts -> text_has (lp_tables t) c' -> Forall2 (fun x k => defines ts (prefix_of items ++ x) k) toks ks ->
  c' = c /\ Forall (fun x => In x (terms_of ign items)) toks /\ ks = map Z.of_nat (map (code_of ign items) toks).
Proof.
  intros t ts c' toks ks P LX TH F. destruct (C79_text sf ff cf defs o compress yacc mh dt a1 a2 old z items n c D SF SM RUN FT DT NE PX LEN) as (t' & P' & (ts' & LX' & DF) & TH' & _).
  rewrite P in P'. injection P' as <-. pose proof (clex_deterministic _ _ _ LX _ LX') as <-. split.
  - destruct TH as (q1 & q2 & q3 & q4 & q5 & q6 & q7 & q8 & q9 & q10 & q11 & q12 & Q & Q'). destruct TH' as (r1 & r2 & r3 & r4 & r5 & r6 & r7 & r8 & r9 & r10 & r11 & r12 & R & R').
    exact (C75_tokens_determine _ _ _ _ _ _ _ _ _ _ _ _ _ _ _ _ _ _ _ _ _ _ _ _ _ _ _ Q R Q' R').
  - clear - F DF. induction F as [|x k toks ks X _ (IH1 & IH2)]; [split; [constructor|reflexivity]|]. apply DF in X as (y & I & E & ->). apply app_inv_head in E as <-. split; [constructor; auto|]. cbn [map]. now rewrite IH2.
Qed.
End Language.

(** The parser a C compiler reads from the text, given the values of the macros of the tokens: what it accepts is, up to
    %fallback and %wildcard, a sentence of the file. *)
Theorem C79_sound : forall sf ff cf defs o compress yacc mh dt a1 a2 old z items n c, let ign := ro_ignorePrec o in
  declares defs z items -> sound_file ign items -> small_lists sf ff (grammar_of ign items) ->
  lemon_text sf ff cf defs o compress yacc a1 a2 z = Ok (Some (n, c)) ->
  fits (grammar_of ign items) c -> (0 <= dt < 2 ^ 31)%Z -> terms_of ign items <> [] -> prefix_of items = [] \/ ident (prefix_of items) ->
  (forall x, In x (terms_of ign items) -> List.length (prefix_of items ++ x) < 900) ->
  exists t ts, lemon_print sf ff cf defs o compress yacc mh dt a1 a2 old z = Ok (Some (n, t)) /\ clex true (lp_macros t) ts /\
    (exists c', text_has (lp_tables t) c') /\
    forall c' grow cap fuel toks ks p p', text_has (lp_tables t) c' -> Forall2 (fun x k => defines ts (prefix_of items ++ x) k) toks ks ->
      LemonParModel.feed c' grow fuel (ParseInit cap) ks 1 = Ok p -> LemonParModel.Parse c' grow fuel p 0 (Tok 0) = Ok p' ->
      In EvAccept (p_log p') -> ~ In EvOverflow (p_log p') -> (forall m v, ~ In (EvSyntaxError m v) (p_log p')) ->
      exists toks', Forall2 (stands items) toks toks' /\ nsentence ign items toks'.
Proof.
  intros sf ff cf defs o compress yacc mh dt a1 a2 old z items n c ign D SF SM RUN FT DT NE PX LEN.
  destruct (C79_text sf ff cf defs o compress yacc mh dt a1 a2 old z items n c D SF SM RUN FT DT NE PX LEN) as (t & P & (ts & LX & DF) & TH & _).
  exists t, ts. split; [exact P|]. split; [exact LX|]. split; [now exists c|]. intros c' grow cap fuel toks ks p p' TH' F HF HP AC NOV NSE.
  destruct (read_back sf ff cf defs o compress yacc mh dt a1 a2 old z items n c D SF SM RUN FT DT NE PX LEN t ts c' toks ks P LX TH' F) as (-> & F' & ->).
  eapply (C60_sound sf ff cf defs o compress yacc a1 a2 z items n c grow cap fuel toks); [exact D|exact SF|exact SM|exact RUN|exact F'|].
  exists p, p'. split; [exact HF|]. split; [exact HP|]. split; [exact AC|]. split; [exact NOV|]. split; [exact NSE|reflexivity].
Qed.
Print Assumptions C79_sound.

(** If moreover the grammar has no conflicts and the file no %fallback, %wildcard or symbol error, then on a stack that can
    grow this parser ends on every string of tokens and accepts just the sentences of the file. *)
Theorem C79_decides : forall sf ff cf defs o compress yacc mh dt a1 a2 old z items n c, let ign := ro_ignorePrec o in
  declares defs z items -> sound_file ign items -> small_lists sf ff (grammar_of ign items) ->
  lemon_text sf ff cf defs o compress yacc a1 a2 z = Ok (Some (n, c)) ->
  fits (grammar_of ign items) c -> (0 <= dt < 2 ^ 31)%Z -> terms_of ign items <> [] -> prefix_of items = [] \/ ident (prefix_of items) ->
  (forall x, In x (terms_of ign items) -> List.length (prefix_of items ++ x) < 900) ->
  (forall x, fallback_of items x = None) -> wildcard_of items = None -> ~ In (zs "error") (symbols_of ign items) ->
  YY_SHIFT_COUNT (g_tab c) = YY_MAX_SHIFT (g_tab c) -> conflict_free (grammar_of ign items) -> all_productive (grammar_of ign items) ->
  exists t ts, lemon_print sf ff cf defs o compress yacc mh dt a1 a2 old z = Ok (Some (n, t)) /\ clex true (lp_macros t) ts /\
    (exists c', text_has (lp_tables t) c') /\
    forall c' grow cap toks ks, text_has (lp_tables t) c' -> Forall2 (fun x k => defines ts (prefix_of items ++ x) k) toks ks ->
      (forall m, (1 <= m)%Z -> exists m', grow m = Some m' /\ (m < m')%Z) -> (1 <= cap)%Z ->
      exists N p p', forall fuel, N <= fuel ->
        LemonParModel.feed c' grow fuel (ParseInit cap) ks 1 = Ok p /\ LemonParModel.Parse c' grow fuel p 0 (Tok 0) = Ok p' /\
        (nsentence ign items toks <-> In EvAccept (p_log p') /\ ~ In EvOverflow (p_log p') /\ forall m v, ~ In (EvSyntaxError m v) (p_log p')).
Proof.
  intros sf ff cf defs o compress yacc mh dt a1 a2 old z items n c ign D SF SM RUN FT DT NE PX LEN N1 N2 N3 FULL CF AP.
  destruct (C79_text sf ff cf defs o compress yacc mh dt a1 a2 old z items n c D SF SM RUN FT DT NE PX LEN) as (t & P & (ts & LX & DF) & TH & _).
  exists t, ts. split; [exact P|]. split; [exact LX|]. split; [now exists c|]. intros c' grow cap toks ks TH' F GR CP.
  destruct (read_back sf ff cf defs o compress yacc mh dt a1 a2 old z items n c D SF SM RUN FT DT NE PX LEN t ts c' toks ks P LX TH' F) as (-> & F' & ->).
  exact (C60_decides sf ff cf defs o compress yacc a1 a2 z items n c D SF SM RUN N1 N2 N3 FULL CF AP grow cap toks GR CP F').
Qed.
Print Assumptions C79_decides.

(** ** Example: the file of C60 with a prefix *)
Definition text79 : text := zs "%token_prefix TK_
" ++ text60.
Definition items79 : list item := IText Gtokenprefix (zs "TK_") :: items60.
Definition z79 := Eval vm_compute in match preprocess_input [] text79 with Ok (PPdone z) => z | _ => [] end.
Lemma declares79 : declares [] text79 items79.
Proof.
  exists z79. eexists. split; [vm_compute; reflexivity|]. split; [apply C54_tokens; split; [vm_compute; reflexivity|cbn; intuition discriminate]|].
  unfold texts. vm_compute. repeat constructor; eexists; reflexivity.
Qed.
Ltac rules79 I := unfold items79, items60 in I; cbn [In] in I; repeat (destruct I as [I|I]; [try discriminate I|]); try contradiction.
Lemma sound79 : sound_file false items79.
Proof.
  constructor.
  - unfold items79, items60, elem0, item_shape, relem_ok, opt_ok, upper, lower, alpha, arg_ok. repeat apply Forall_cons; try apply Forall_nil;
    repeat match goal with
    | |- _ /\ _ => split
    | |- Forall _ [] => constructor
    | |- Forall _ (_ :: _) => constructor
    | |- True => exact Logic.I
    | |- _ -> _ => intros
    | H : re_alts _ <> [] |- _ => first [now destruct H|clear H; cbn [re_alts re_name]]
    | |- match _ with Some _ => _ | None => _ end => cbn [re_alias]
    | |- isupper _ = true => reflexivity
    | |- islower _ = true => reflexivity
    | |- isalpha _ = true => reflexivity
    | |- ch _ 0 = 123%Z => reflexivity
    | |- _ \/ _ => first [left; reflexivity|right; left; reflexivity|right; right; reflexivity]
    end.
  - intros pre i post E. refine (news_ok false items79 [] _ pre i post E). clear. unfold items79, items60. cbn [news item_new app]. repeat match goal with |- _ /\ _ => split | |- True => exact Logic.I | |- _ -> False => intros X; vm_compute in X; intuition discriminate | |- ~ In _ _ => intros X; vm_compute in X; intuition discriminate | |- forall x, _ => intros x; cbn [In]; intuition; subst; reflexivity | |- _ -> _ => intros _ | |- _ <= _ => cbn; lia | |- NoDup _ => repeat constructor; cbn; intuition discriminate | |- _ = None => reflexivity end.
  - constructor.
    + eexists. split; [right; right; left; reflexivity|reflexivity].
    + intros lhs la rhs prec cd I. rules79 I; injection I as <- _ _ _ _; reflexivity.
    + intros x E. discriminate E.
    + intros c l I. rules79 I. injection I as <- <-. discriminate.
  - intros x f H. discriminate H.
  - split; [|reflexivity]. intros la rhs prec cd I. rules79 I.
  - intros lhs la rhs prec cd e I J _. rules79 I; injection I as _ _ <- _ _; cbn [In] in J; repeat (destruct J as [<-|J]; [intros X; vm_compute in X; discriminate X|]); destruct J.
  - intros lhs la rhs prec cd I. rules79 I; injection I as _ _ <- _ _; cbn; lia.
Qed.

Definition print79 := Eval vm_compute in match lemon_print 100 100 100 [] quiet true false false 0 addr0 addr0 None text79 with Ok (Some (_, t)) => t | _ => mkParts [] [] [] [] None end.

Example C79_hypotheses : declares [] text79 items79 /\ sound_file false items79 /\ small_lists 100 100 (grammar_of false items79) /\
  lemon_text 100 100 100 [] quiet true false addr0 addr0 text79 = Ok (Some (0, c60)) /\ fits (grammar_of false items79) c60 /\ terms_of false items79 <> [] /\ ident (prefix_of items79) /\
  (forall x, In x (terms_of false items79) -> List.length (prefix_of items79 ++ x) < 900) /\ (forall x, fallback_of items79 x = None) /\ wildcard_of items79 = None /\ ~ In (zs "error") (symbols_of false items79) /\
  YY_SHIFT_COUNT (g_tab c60) = YY_MAX_SHIFT (g_tab c60) /\ conflict_free (grammar_of false items79) /\ all_productive (grammar_of false items79) /\
  lemon_print 100 100 100 [] quiet true false false 0 addr0 addr0 None text79 = Ok (Some (0, print79)) /\
  lp_rules print79 = zs "static const char *const yyRuleName[] = {" ++ nl ++ zs " /*   0 */ ""p ::= e SEMI""," ++ nl ++ zs " /*   1 */ ""t ::= NUM|VAR""," ++ nl ++
    zs " /*   2 */ ""e ::= e PLUS|MINUS t""," ++ nl ++ zs " /*   3 */ ""e ::= t""," ++ nl ++ zs "};" ++ nl /\
  lp_header print79 = Some (zs "enum TK_LemonEnum {" ++ nl ++ zs " TK_PLUS =   1," ++ nl ++ zs " TK_MINUS =   2," ++ nl ++ zs " TK_SEMI =   3," ++ nl ++ zs " TK_NUM =   4," ++ nl ++ zs " TK_VAR =   5," ++ nl ++
    zs " TK_LEMON_LAST_TOKEN =   6" ++ nl ++ zs "};" ++ nl).
Proof.
  assert (EG : grammar_of false items79 = grammar_of false items60) by (vm_compute; reflexivity). rewrite EG.
  split; [exact declares79|]. split; [exact sound79|]. split; [exact (proj1 (proj2 (proj2 C60_hypotheses)))|]. split; [vm_compute; reflexivity|]. split; [vm_compute; repeat split; reflexivity|]. split; [vm_compute; discriminate|].
  split; [vm_compute; split; [reflexivity|repeat constructor]|]. split; [intros x I; cut (List.length (prefix_of items79 ++ x) < 20); [lia|]; vm_compute in I; repeat (destruct I as [<-|I]; [vm_compute; lia|]); destruct I|].
  split; [reflexivity|]. split; [reflexivity|]. split; [vm_compute; intuition discriminate|]. split; [vm_compute; reflexivity|]. split; [exact (proj1 (proj2 (proj2 (proj2 (proj2 (proj2 (proj2 (proj2 C60_hypotheses))))))))|].
  split; [exact (proj1 (proj2 C60_decides_hypotheses))|]. split; [vm_compute; reflexivity|]. split; vm_compute; reflexivity.
Qed.
