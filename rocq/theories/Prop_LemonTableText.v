(** C75: the constants and tables lemon prints, read by a C compiler. *)
From Coq Require Import String List Arith ZArith NArith Bool Lia Permutation.
Import ListNotations.
From Verif Require Import Base CLib SpecGrammar LemonSetModel LemonStatesModel LemonSortModel Prop_LemonSort LemonActionModel LemonCompressModel LemonActtabModel LemonReportModel LemonParModel LemonPipelineModel
  LemonGenProof LemonTabProof Prop_LemonTables LemonPreModel LemonCodeModel SpecCode LemonCodeProof LemonReprintModel SpecCText CTextProof LemonTableTextModel LemonTableRangeProof LemonTableTextProof Prop_LemonSound LemonEmitModel.
Local Open Scope res_scope.

(** What a C compiler must see: the constants, the tables of [c] and, for each rule, its left side and the negated
    length of its right side. *)
Definition parser_tokens (c : gen) (nrule nact dt : Z) (tcode taction tshift treduce : ctype) (mt xt mn xn : Z) (nrhs : list Z) : list ctok :=
  let t := g_tab c in
  (cdefw "YYCODETYPE" (ctype_words tcode) ++ cdef "YYNOCODE" (YYNOCODE t) ++ cdefw "YYACTIONTYPE" (ctype_words taction) ++
    match g_wildcard c with Some w => cdef "YYWILDCARD" w | None => [] end) ++
  (match g_errsym c with Some e => cdef "YYERRORSYMBOL" e ++ [CD [W "define"; W "YYERRSYMDT"; CW (zs "yy" ++ zdec dt)]] | None => [] end ++
    match g_fallback c with Some _ => cdef "YYFALLBACK" 1 | None => [] end) ++
  (cdef "YYNSTATE" (YY_MAX_SHIFT t + 1) ++ cdef "YYNRULE" nrule ++ cdef "YYNRULE_WITH_ACTION" nact ++ cdef "YYNTOKEN" (YYNTOKEN t) ++
    cdef "YY_MAX_SHIFT" (YY_MAX_SHIFT t) ++ cdef "YY_MIN_SHIFTREDUCE" (YY_MIN_SHIFTREDUCE t) ++ cdef "YY_MAX_SHIFTREDUCE" (YY_MAX_SHIFTREDUCE t) ++
    cdef "YY_ERROR_ACTION" (YY_ERROR_ACTION t) ++ cdef "YY_ACCEPT_ACTION" (YY_ACCEPT_ACTION t) ++ cdef "YY_NO_ACTION" (YY_NO_ACTION t) ++
    cdef "YY_MIN_REDUCE" (YY_MIN_REDUCE t) ++ cdef "YY_MAX_REDUCE" (YY_MIN_REDUCE t + nrule - 1)) ++
  (cdefp "YY_ACTTAB_COUNT" (YY_ACTTAB_COUNT t) ++ carray ["static"; "const"; "YYACTIONTYPE"]%string (zs "yy_action") (yy_action t) ++
    carray ["static"; "const"; "YYCODETYPE"]%string (zs "yy_lookahead") (yy_lookahead t) ++
    cdefp "YY_SHIFT_COUNT" (YY_SHIFT_COUNT t) ++ cdefp "YY_SHIFT_MIN" mt ++ cdefp "YY_SHIFT_MAX" xt ++
    carray ("static" :: "const" :: ctype_words tshift)%string (zs "yy_shift_ofst") (yy_shift_ofst t) ++
    cdefp "YY_REDUCE_COUNT" (YY_REDUCE_COUNT t) ++ cdefp "YY_REDUCE_MIN" mn ++ cdefp "YY_REDUCE_MAX" xn ++
    carray ("static" :: "const" :: ctype_words treduce)%string (zs "yy_reduce_ofst") (yy_reduce_ofst t) ++
    carray ["static"; "const"; "YYACTIONTYPE"]%string (zs "yy_default") (yy_default t)) ++
  match g_fallback c with Some l => carray ["static"; "const"; "YYCODETYPE"]%string (zs "yyFallback") l | None => [] end ++
  carray ["static"; "const"; "YYCODETYPE"]%string (zs "yyRuleInfoLhs") (g_lhs c) ++
  carray ["static"; "const"; "signed"; "char"]%string (zs "yyRuleInfoNRhs") nrhs.

Lemma ranges_int : forall lo hi l, (- 2 ^ 31 < lo)%Z -> (hi < 2 ^ 31)%Z -> Forall (fun v => lo <= v <= hi)%Z l -> Forall int_ok l.
Proof. intros lo hi l A B F. eapply Forall_impl; [|exact F]. intros v V. unfold int_ok. cbn beta in V. lia. Qed.
Lemma size_type_holds : forall lo hi l, (- 2 ^ 31 <= lo)%Z -> (hi < 2 ^ 31)%Z -> Forall (fun v => lo <= v <= hi)%Z l -> Forall (holds (fst (minimum_size_type lo hi))) l.
Proof.
  intros lo hi l A B F. pose proof (C26_minimum_size_type lo hi A B) as C. destruct (minimum_size_type lo hi) as (t & n). destruct C as (C & _). cbn [fst].
  eapply Forall_impl; [|exact F]. intros v V. apply C. exact V.
Qed.

Lemma rules_read : forall (rules : list SpecGrammar.rule) rs, (forall r, In r rs -> r < List.length rules) ->
  exists l, LemonReadModel.map_res (fun r => opt (nth_error rules r)) rs = Ok l /\ (forall x, In x l -> In x rules) /\
    map (fun r => match nth_error rules r with Some rl => Z.of_nat (r_lhs rl) | None => 0%Z end) rs = map (fun r => Z.of_nat (r_lhs r)) l /\
    map (fun r => schar (- match nth_error rules r with Some rl => Z.of_nat (List.length (r_rhs rl)) | None => 0%Z end)) rs = map schar (map (fun r => (- Z.of_nat (List.length (r_rhs r)))%Z) l).
Proof.
  intros rules. induction rs as [|r rs IH]; intros B; [exists []; repeat split; auto; intros x []|].
  destruct IH as (l & E & I & M1 & M2); [intros x X; apply B; now right|]. destruct (nth_error_lt_ex _ rules r (B r (or_introl eq_refl))) as (rl & ER).
  exists (rl :: l). cbn [LemonReadModel.map_res]. rewrite ER. cbn [opt bind]. rewrite E. cbn [bind]. split; [reflexivity|]. split.
  - intros x [<-|X]; [eapply nth_error_In; eauto|auto].
  - cbn [map]. rewrite ER, M1, M2. split; reflexivity.
Qed.

(** * The tokens tell the parser *)

Lemma nums_inj : forall vs ws x y, nums vs ++ CP 125%Z :: x = nums ws ++ CP 125%Z :: y -> vs = ws /\ x = y.
Proof.
  induction vs as [|v vs IH]; intros [|w ws] x y E; cbn [flat_map app] in E.
  - injection E as E. auto.
  - exfalso. rewrite <- !app_assoc in E. unfold cnum in E. destruct (w <? 0)%Z; cbn [app] in E; discriminate.
  - exfalso. rewrite <- !app_assoc in E. unfold cnum in E. destruct (v <? 0)%Z; cbn [app] in E; discriminate.
  - rewrite <- !app_assoc in E. cbn [app] in E. apply cnum_inj in E as (-> & E). destruct (IH ws x y E) as (-> & ->). auto.
Qed.
Lemma carray_app_inj : forall m n vs ws x y, carray m n vs ++ x = carray m n ws ++ y -> vs = ws /\ x = y.
Proof.
  intros m n vs ws x y E. unfold carray in E. rewrite <- !app_assoc in E. apply app_inv_head in E. cbn [app] in E. injection E as E. apply nums_inj in E as (-> & E). injection E as E. auto.
Qed.
Lemma ctype_words_inj : forall n t u x y, CW n <> W "char" -> CW n <> W "int" -> map W (ctype_words t) ++ CW n :: x = map W (ctype_words u) ++ CW n :: y -> t = u.
Proof.
  intros n t u x y N1 N2 E. destruct t, u; try reflexivity; exfalso; cbn [ctype_words map app] in E; unfold W in E; injection E as E; try discriminate;
  repeat match goal with H : CW _ :: _ = CW _ :: _ |- _ => injection H as H end; try discriminate; try (symmetry in E); unfold W in *; try congruence; try (subst; congruence).
Qed.
Lemma ctarray_app_inj : forall n t u vs ws x y, CW (zs n) <> W "char" -> CW (zs n) <> W "int" ->
  carray ("static" :: "const" :: ctype_words t)%string (zs n) vs ++ x = carray ("static" :: "const" :: ctype_words u)%string (zs n) ws ++ y -> t = u /\ vs = ws /\ x = y.
Proof.
  intros n t u vs ws x y N1 N2 E. assert (t = u).
  { unfold carray in E. cbn [map app] in E. injection E as E. rewrite <- !app_assoc in E. cbn [app] in E. eapply ctype_words_inj; [exact N1|exact N2|exact E]. }
  subst u. apply carray_app_inj in E. tauto.
Qed.
Lemma cnum_inj1 : forall v w, cnum v = cnum w -> v = w.
Proof. intros v w E. apply (cnum_inj v w [] []). now rewrite E. Qed.
Lemma cnum_inj2 : forall v w, cnum v ++ [CP 41%Z] = cnum w ++ [CP 41%Z] -> v = w.
Proof. intros v w E. apply app_inv_tail in E. now apply cnum_inj1. Qed.

Ltac differ E := unfold cdef, W in E; cbn [app] in E; discriminate E.

(** No other parser has the same tokens, or the same text. *)
Theorem C75_tokens_determine : forall text c c' nr nr' na na' d d' t1 t2 t3 t4 u1 u2 u3 u4 m1 m2 m3 m4 k1 k2 k3 k4 l l',
  clex true text (parser_tokens c nr na d t1 t2 t3 t4 m1 m2 m3 m4 l) -> clex true text (parser_tokens c' nr' na' d' u1 u2 u3 u4 k1 k2 k3 k4 l') ->
  map schar l = g_nrhs c -> map schar l' = g_nrhs c' -> c = c'.
Proof.
  intros text c c' nr nr' na na' d d' t1 t2 t3 t4 u1 u2 u3 u4 m1 m2 m3 m4 k1 k2 k3 k4 l l' H H' N N'.
  pose proof (clex_deterministic _ _ _ H _ H') as E. clear H H'. unfold parser_tokens in E. cbv zeta in E. rewrite <- !app_assoc in E.
  destruct c as [t fb wc es lh nh], c' as [t' fb' wc' es' lh' nh']. cbn [g_tab g_fallback g_wildcard g_errsym g_lhs g_nrhs] in *.
  destruct t as [f1 f2 f3 f4 f5 f6 f7 f8 f9 f10 f11 f12 f13 f14 f15 f16 f17], t' as [e1 e2 e3 e4 e5 e6 e7 e8 e9 e10 e11 e12 e13 e14 e15 e16 e17].
  cbn [YYNOCODE YYNTOKEN YY_MAX_SHIFT YY_MIN_SHIFTREDUCE YY_MAX_SHIFTREDUCE YY_ERROR_ACTION YY_ACCEPT_ACTION YY_NO_ACTION YY_MIN_REDUCE YY_ACTTAB_COUNT yy_action yy_lookahead
    YY_SHIFT_COUNT yy_shift_ofst YY_REDUCE_COUNT yy_reduce_ofst yy_default] in E.
  assert (DEF : forall n v w x y, cdef n v ++ x = cdef n w ++ y -> v = w /\ x = y) by (intros n v w x y X; unfold cdef in X; cbn [app] in X; injection X as X1 X2; apply cnum_inj1 in X1; auto).
  assert (DEFP : forall n v w x y, cdefp n v ++ x = cdefp n w ++ y -> v = w /\ x = y) by (intros n v w x y X; unfold cdefp in X; cbn [app] in X; injection X as X1 X2; apply cnum_inj2 in X1; auto).
  assert (DEFW : forall n v w x y, cdefw n v ++ x = cdefw n w ++ y -> x = y) by (intros n v w x y X; exact (f_equal (@tl ctok) X)).
  apply DEFW in E. apply DEF in E as (-> & E). apply DEFW in E.
  assert (EW : wc = wc').
  { destruct wc as [w|], wc' as [w'|]; auto.
    - apply DEF in E as (-> & _). reflexivity.
    - exfalso. destruct es', fb'; differ E.
    - exfalso. destruct es, fb; differ E. }
  subst wc'. apply app_inv_head in E.
  assert (EE : es = es').
  { destruct es as [e|], es' as [e'|]; auto.
    - rewrite <- !app_assoc in E. apply DEF in E as (-> & _). reflexivity.
    - exfalso. destruct fb'; differ E.
    - exfalso. destruct fb; differ E. }
  subst es'.
  match type of E with _ ++ ?F ++ ?X = _ ++ ?G ++ ?Y => assert (E0 : F ++ X = G ++ Y) end.
  { destruct es as [e|]; [|exact E]. rewrite <- !app_assoc in E. apply DEF in E as (_ & E). apply (f_equal (@tl ctok)) in E. cbn [app tl] in E. exact E. }
  clear E. rename E0 into E.
  assert (EF : fb = None <-> fb' = None).
  { destruct fb as [x|], fb' as [x'|]; split; intros X; try discriminate; auto; exfalso; differ E. }
  match type of E with _ ++ ?X = _ ++ ?Y => assert (E0 : X = Y) end.
  { destruct fb as [x|], fb' as [x'|]; [|exfalso; destruct EF as (_ & EF); specialize (EF eq_refl); discriminate|exfalso; destruct EF as (EF & _); specialize (EF eq_refl); discriminate|exact E].
    apply app_inv_head in E. exact E. }
  clear E. rename E0 into E.
  apply DEF in E as (E3 & E). do 3 apply DEF in E as (-> & E). apply DEF in E as (_ & E). do 6 apply DEF in E as (-> & E). apply DEF in E as (_ & E).
  assert (E3' : f3 = e3) by lia. subst e3. clear E3. apply DEFP in E as (-> & E). do 2 apply carray_app_inj in E as (-> & E). apply DEFP in E as (-> & E). do 2 apply DEFP in E as (_ & E).
  apply ctarray_app_inj in E as (_ & -> & E); [|discriminate|discriminate]. apply DEFP in E as (-> & E). do 2 apply DEFP in E as (_ & E). apply ctarray_app_inj in E as (_ & -> & E); [|discriminate|discriminate].
  apply carray_app_inj in E as (-> & E).
  assert (EB : fb = fb').
  { destruct fb as [x|], fb' as [x'|]; [|exfalso; destruct EF as (_ & EF); specialize (EF eq_refl); discriminate|exfalso; destruct EF as (EF & _); specialize (EF eq_refl); discriminate|reflexivity].
    apply carray_app_inj in E as (-> & _). reflexivity. }
  subst fb'. apply app_inv_head in E. apply carray_app_inj in E as (-> & E). apply carray_inj in E. subst l'. rewrite <- N, <- N'. reflexivity.
Qed.
Print Assumptions C75_tokens_determine.
(** C75.  If the numbers the generator computes are ints, the text it prints is, for a C compiler, the constants and
    tables of the parser [c], each table with a type that holds its numbers; right sides longer than 128
    symbols are cut by the type signed char.  [nm] are the names of the symbols, [dt] the number of the type of
    the symbol error. *)
Theorem C75_tables_text : forall nm dt sf ff cf o g c,
  wf_grammar g -> small_lists sf ff g -> start_not_rhs g -> opts_ok g o -> lemon_generate sf ff cf o g = Ok c ->
  (forall s, ~ In 42%Z (nm s)) -> (0 <= dt < 2 ^ 31)%Z ->
  let nrule := Z.of_nat (List.length (g_rules g)) in
  (YY_MIN_REDUCE (g_tab c) + nrule < 2 ^ 31)%Z -> (Z.of_nat (g_nsym g) + YY_ACTTAB_COUNT (g_tab c) < 2 ^ 31)%Z ->
  (forall r, In r (g_rules g) -> Z.of_nat (List.length (r_rhs r)) < 2 ^ 31)%Z ->
  exists text tcode taction tshift treduce mt xt mn xn nrhs,
    lemon_generate_text nm dt sf ff cf o g = Ok text /\
    clex true text (parser_tokens c nrule (Z.of_nat (List.length (filter negb (o_noCode o)))) dt tcode taction tshift treduce mt xt mn xn nrhs) /\
    map schar nrhs = g_nrhs c /\
    Forall (holds tcode) (YYNOCODE (g_tab c) :: yy_lookahead (g_tab c) ++ g_lhs c ++ match g_fallback c with Some l => l | None => [] end) /\
    Forall (holds taction) (yy_action (g_tab c) ++ yy_default (g_tab c)) /\
    Forall (holds tshift) (yy_shift_ofst (g_tab c)) /\ Forall (holds treduce) (yy_reduce_ofst (g_tab c)) /\
    mt = 0%Z /\ Forall (fun v => mn - 1 <= v <= xn)%Z (yy_reduce_ofst (g_tab c)).
Proof.
  intros nm dt sf ff cf o g c W SM SNR OO HG NM DT nrule IM IA IR.
  destruct (generated_rows g o sf ff cf c W SM SNR OO HG) as (aps & xs & sorted & nx & t & HA & HX & HS & HT & EC & NX & ROWS).
  unfold lemon_generate_text, lemon_back_text. rewrite HA. cbn [bind]. cbv zeta. rewrite HX. cbn [bind]. rewrite HS. cbn [bind].
  assert (GT : g_tab c = t) by (rewrite EC; reflexivity). rewrite GT in *.
  unfold ReportTable in HT. cbv zeta in HT. fold nrule in HT |- *. set (k := report_consts (Z.of_nat (List.length sorted)) nrule) in *.
  change (compute_action k (g_nterm g) (o_errsym o) (ri_iRule (opts_rinfo o)) (new_num sorted)) with (LemonTabProof.code_of g o sorted) in *.
  set (sts := map (state_row (g_nterm g) (g_nsym g) (LemonTabProof.code_of g o sorted)) (firstn nx sorted)) in *.
  assert (LS : List.length sts = nx) by (unfold sts; rewrite map_length, firstn_length; lia).
  assert (HN : (0 < Z.of_nat (g_nterm g) <= Z.of_nat (g_nsym g))%Z) by (destruct W as (W1 & W2 & _); lia).
  destruct (LemonReportProof.ReportTables_ok false _ _ _ _ _ _ HN (fun s I => proj1 (ROWS s I)) ltac:(discriminate) HT)
    as (C1 & C2 & C3 & C4 & C5 & C6 & C7 & C8 & C9 & _ & _ & SC & RC & _).
  unfold lenz in C3, SC, RC. rewrite LS in C3, SC, RC.
  assert (CODE : forall a, (LemonTabProof.code_of g o sorted a <= k_maxAction k)%Z).
  { intros a. unfold LemonTabProof.code_of, compute_action. fold nrule. fold k. unfold k. cbn [report_consts k_maxAction k_minReduce k_minShiftReduce k_errAction k_accAction].
    pose proof (irule_le g o OO (a_arg a)). pose proof (new_num_le sorted (a_arg a)). unfold nrule. destruct (a_type a); try lia. destruct (_ && _); lia. }
  destruct (ReportTables_ranges k nrule _ _ sts t (k_maxAction k) HN (fun s I => proj1 (ROWS s I))) as (mt & xt & mn & xn & HL & R0 & R1 & R2 & R3 & R4 & FA & FL & FS & FR & FD).
  { intros s la v I J. clear - CODE I J. subst sts. apply in_map_iff in I as (x & <- & _). cbn [state_row sr_tkn sr_nt] in J.
    destruct J as [J|J]; apply in_map_iff in J as (a & E & _); inversion E; subst; apply CODE. }
  { intros s I. destruct (ROWS s I) as (_ & D). unfold k. cbn [report_consts k_maxAction k_minReduce]. unfold nrule. lia. }
  { unfold k. cbn [report_consts k_maxAction k_noAction]. unfold nrule. lia. }
  { unfold k. cbn [report_consts k_maxAction k_errAction]. unfold nrule. lia. }
  { unfold k. cbn [report_consts k_minReduce]. unfold nrule. lia. }
  { exact HT. }
  assert (EM : k_maxAction k = (YY_MIN_REDUCE t + nrule)%Z) by (rewrite C9; reflexivity).
  assert (SZ : (0 <= Z.of_nat (List.length sorted))%Z) by lia. assert (NR : (0 <= nrule)%Z) by (unfold nrule; lia).
  assert (KS : (k_minShiftReduce k = Z.of_nat (List.length sorted) /\ k_errAction k = Z.of_nat (List.length sorted) + nrule /\ k_accAction k = Z.of_nat (List.length sorted) + nrule + 1 /\
     k_noAction k = Z.of_nat (List.length sorted) + nrule + 2 /\ k_minReduce k = Z.of_nat (List.length sorted) + nrule + 3)%Z) by (unfold k; cbn; repeat split; lia).
  destruct KS as (K1 & K2 & K3 & K4 & K5). rewrite C9 in IM.
  assert (SC0 : (-1 <= YY_SHIFT_COUNT t /\ -1 <= YY_REDUCE_COUNT t)%Z).
  { clear - HT. unfold ReportTables in HT. cbv zeta in HT. apply bind_Ok in HT as ([p os] & _ & HT). apply bind_Ok in HT as (n & _ & HT). apply bind_Ok in HT as (l1 & _ & HT). apply bind_Ok in HT as (l2 & _ & HT).
    match type of HT with Ok ?T = _ => assert (ET : t = T) by congruence end. rewrite ET. cbn [YY_SHIFT_COUNT YY_REDUCE_COUNT]. lia. }
  destruct (report_text_lexed k nrule _ _ sts t mt xt mn xn HT HL) as (z & HZ & LZ).
  { repeat constructor; unfold int_ok; lia. }
  { eapply ranges_int; [| |exact FA]; lia. } { eapply ranges_int; [| |exact FL]; lia. } { eapply ranges_int; [| |exact FS]; lia. } { eapply ranges_int; [| |exact FR]; lia. } { eapply ranges_int; [| |exact FD]; lia. }
  rewrite HZ. cbn [bind].
  assert (PERM : Permutation (Rule_sort (ri_iRule (opts_rinfo o)) (seq 0 (List.length (g_rules g)))) (seq 0 (List.length (g_rules g)))).
  { apply LemonSortProof.Rule_sort_perm. rewrite seq_length. apply lt_pow. unfold RULESLOTS. change (N.of_nat 32) with 32%N. unfold nrule in *. lia. }
  destruct (rules_read (g_rules g) (Rule_sort (ri_iRule (opts_rinfo o)) (seq 0 (List.length (g_rules g))))) as (rl & ERL & INR & M1 & M2).
  { intros r I. apply (Permutation_in _ PERM) in I. apply in_seq in I. lia. }
  rewrite ERL. cbn [bind].
  exists (types_text (Z.of_nat (g_nsym g)) (k_maxAction k) (option_map Z.of_nat (o_wildcard o)) ++
      error_text (option_map Z.of_nat (o_errsym o)) dt (match o_fallback o with Some _ => true | None => false end) ++
      consts_text k (Z.of_nat (List.length sts)) nrule (Z.of_nat (List.length (filter negb (o_noCode o)))) (Z.of_nat (g_nterm g)) ++
      z ++ fallback_text nm (o_fallback o) ++ rules_text nm rl).
  exists (fst (minimum_size_type 0 (Z.of_nat (g_nsym g)))), (fst (minimum_size_type 0 (k_maxAction k))),
    (fst (minimum_size_type mt (Z.of_nat (g_nterm g) + YY_ACTTAB_COUNT t))), (fst (minimum_size_type (mn - 1) xn)), mt, xt, mn, xn, (map (fun r => (- Z.of_nat (List.length (r_rhs r)))%Z) rl).
  assert (FN : (Z.of_nat (List.length (filter negb (o_noCode o))) <= nrule)%Z).
  { unfold nrule. rewrite <- (oo_code _ _ OO). apply Nat2Z.inj_le. clear. induction (o_noCode o) as [|b l IH]; cbn; [lia|]. destruct b; cbn; lia. }
  assert (WR : forall x, In x rl -> r_lhs x < g_nsym g) by (intros x I; destruct W as (_ & _ & W3 & _); rewrite Forall_forall in W3; destruct (W3 x (INR x I)) as ((_ & A) & _); exact A).
  assert (FB : forall l, o_fallback o = Some l -> Forall (fun v => 0 <= v <= Z.of_nat (g_nsym g))%Z (map Z.of_nat l)).
  { intros l E. destruct (oo_fb _ _ OO l E) as (L1 & _ & L2). apply Forall_forall. intros v I. apply in_map_iff in I as (x & <- & I). apply (In_nth _ _ 0) in I as (i & Hi & <-). rewrite L1 in Hi. destruct (L2 i Hi). lia. }
  assert (LH : Forall (fun v => 0 <= v <= Z.of_nat (g_nsym g))%Z (map (fun r => Z.of_nat (r_lhs r)) rl)) by (apply Forall_forall; intros v I; apply in_map_iff in I as (x & <- & I); specialize (WR x I); lia).
  split; [reflexivity|]. split.
  - apply (lexed_clex true _ _ true). unfold parser_tokens. cbv zeta. rewrite GT. 
    rewrite C1, C2, C3, C4, C5, C6, C7, C8, C9. rewrite EC. cbn [g_wildcard g_errsym g_fallback g_lhs].
    apply (lexed_app true _ _ true). { apply types_lexed; [unfold int_ok; lia|]. destruct (o_wildcard o) as [w|] eqn:EW; cbn [option_map]; [|exact Logic.I]. pose proof (oo_wild _ _ OO w EW). unfold int_ok. lia. }
    apply (lexed_app true _ _ true). { replace (match option_map (map Z.of_nat) (o_fallback o) with Some _ => cdef "YYFALLBACK" 1 | None => [] end) with (if match o_fallback o with Some _ => true | None => false end then cdef "YYFALLBACK" 1 else []) by (destruct (o_fallback o); reflexivity).
      apply error_lexed; [|unfold int_ok; lia|lia]. destruct (o_errsym o) as [e|] eqn:EE; cbn [option_map]; [|exact Logic.I]. destruct (oo_err _ _ OO e EE). unfold int_ok. lia. }
    apply (lexed_app true _ _ true). { replace (Z.of_nat nx - 1 + 1)%Z with (Z.of_nat nx) by lia. rewrite LS. apply consts_lexed. repeat constructor; unfold int_ok; lia. }
    apply (lexed_app true _ _ true); [exact LZ|].
    apply (lexed_app true _ _ true). { replace (match option_map (map Z.of_nat) (o_fallback o) with Some l => carray ["static"; "const"; "YYCODETYPE"]%string (zs "yyFallback") l | None => [] end) with
        (match o_fallback o with Some l => carray ["static"; "const"; "YYCODETYPE"]%string (zs "yyFallback") (map Z.of_nat l) | None => [] end) by (destruct (o_fallback o); reflexivity).
      apply fallback_lexed; [exact NM|]. intros l E. eapply ranges_int; [| |exact (FB l E)]; lia. }
    rewrite M1. apply rules_lexed; [exact NM| |].
    + eapply ranges_int; [| |exact LH]; lia.
    + apply Forall_forall. intros v I. apply in_map_iff in I as (x & <- & I). specialize (IR x (INR x I)). unfold int_ok. lia.
  - split; [rewrite EC; cbn [g_nrhs]; symmetry; exact M2|]. split.
    + apply size_type_holds; [lia|lia|]. constructor; [lia|]. apply Forall_app. split; [exact FL|]. apply Forall_app. split; [rewrite EC; cbn [g_lhs]; rewrite M1; exact LH|].
      rewrite EC. cbn [g_fallback]. destruct (o_fallback o) as [l|] eqn:EF; cbn [option_map]; [apply FB; reflexivity|constructor].
    + split; [apply size_type_holds; [lia|lia|]; apply Forall_app; split; assumption|]. split; [|split; [apply size_type_holds; [lia|lia|exact FR]|split; [exact R1|exact FR]]].
      apply size_type_holds; [lia|lia|]. eapply Forall_impl; [|exact FS]. intros v V. cbn beta in *. lia.
Qed.
Print Assumptions C75_tables_text.

(** The grammar exg14, e ::= e PLUS e | ID with %fallback ID NUM, in numbers. *)
Definition names75 (s : nat) : txt := nth s [zs "$"; zs "PLUS"; zs "ID"; zs "NUM"; zs "s"; zs "e"] [].
Definition text75 : txt := Eval vm_compute in match lemon_generate_text names75 0 100 100 100 exo14 exg14 with Ok z => z | _ => [] end.
Example C75_hypotheses : wf_grammar exg14 /\ small_lists 100 100 exg14 /\ start_not_rhs exg14 /\ opts_ok exg14 exo14 /\ lemon_generate 100 100 100 exo14 exg14 = Ok exc14 /\
  (forall s, ~ In 42%Z (names75 s)) /\ (YY_MIN_REDUCE (g_tab exc14) + 3 < 2 ^ 31)%Z /\ (6 + YY_ACTTAB_COUNT (g_tab exc14) < 2 ^ 31)%Z /\
  lemon_generate_text names75 0 100 100 100 exo14 exg14 = Ok text75 /\
  (exists a b, text75 = a ++ zs "static const YYACTIONTYPE yy_action[] = {" ++ nl ++ zs " /*     0 */     9,    2,   11,    1,   12,    7," ++ nl ++ zs "};" ++ nl ++ b) /\
  yy_action (g_tab exc14) = [9; 2; 11; 1; 12; 7]%Z.
Proof.
  destruct exg14_ok as (H1 & H2 & H3 & H4 & _). split; [exact H1|]. split; [exact H2|]. split; [exact H3|]. split; [exact H4|]. split; [exact exc14_ok|].
  split. { intros s. do 6 (destruct s as [|s]; [vm_compute; intuition discriminate|]). destruct s; intros []. }
  split; [vm_compute; reflexivity|]. split; [vm_compute; reflexivity|]. split; [vm_compute; reflexivity|].
  split; [|reflexivity]. exists (firstn 511 text75), (skipn 606 text75). vm_compute. reflexivity.
Qed.

(** The head of the generated file is meant to be one comment, but (lemon/lemon.c:4956-4961) the comment ends after the
    name of the grammar file, and when no -D option was used the rest, ".", and "*/", is C text: every such file begins
    with three tokens that no C declaration begins with. *)
Lemma head_tokens : forall filename, ~ In 42%Z filename -> clex true (o_text (emit_head filename (mkOut [] 1))) [CP 46%Z; CP 42%Z; CP 47%Z].
Proof.
  intros f N. cbn [emit_head inc put o_text o_line]. rewrite app_nil_l.
  replace ((zs "/* This file is automatically generated by Lemon from input grammar" ++ nl ++ zs "** source file """ ++ f ++ zs """. */" ++ nl) ++ zs "." ++ nl ++ zs "*/" ++ nl)
    with (47%Z :: 42%Z :: (zs " This file is automatically generated by Lemon from input grammar" ++ nl ++ zs "** source file """ ++ f ++ zs """. ") ++ 42%Z :: 47%Z :: (nl ++ zs "." ++ nl ++ zs "*/" ++ nl))
    by (rewrite <- !app_assoc; reflexivity).
  apply cl_comment; [|apply cl_line, cl_punct; [repeat split; try lia|discriminate|discriminate|]; apply cl_line, cl_punct; [repeat split; try lia|discriminate|discriminate|];
    apply cl_punct; [repeat split; try lia|discriminate|intros _; split; discriminate|]; apply cl_line, cl_end].
  intros x y E.
  assert (F : forall a x y, a ++ [42%Z] = x ++ 42%Z :: 47%Z :: y -> exists u v, a = u ++ 42%Z :: 47%Z :: v).
  { clear. intros a x y E. destruct (exists_last (l := 47%Z :: y)) as (v & l & EV); [discriminate|]. rewrite EV in E. rewrite app_comm_cons, app_assoc in E. apply app_inj_tail in E as (E & L). subst l.
    destruct v as [|q v]; [injection EV as X _; discriminate|]. cbn [app] in EV. injection EV as <- EV. exists x, v. exact E. }
  destruct (F _ _ _ E) as (u & v & EU). clear E F.
  set (pre := zs " This file is automatically generated by Lemon from input grammar" ++ nl) in *.
  assert (EU2 : (pre ++ [42%Z; 42%Z]) ++ 32%Z :: (zs "source file """ ++ f ++ zs """. ") = u ++ 42%Z :: 47%Z :: v) by (rewrite <- EU; unfold pre; rewrite <- !app_assoc; reflexivity). clear EU.
  assert (NS : ~ In 42%Z (32%Z :: zs "source file """ ++ f ++ zs """. ")).
  { intros [I|I]; [discriminate|]. apply in_app_iff in I as [I|I]; [revert I; vm_compute; intuition discriminate|]. apply in_app_iff in I as [I|I]; [contradiction|]. revert I. vm_compute. intuition discriminate. }
  set (post := zs "source file """ ++ f ++ zs """. ") in *. clearbody post.
  assert (G : forall p q u v, ~ In 42%Z q -> p ++ q = u ++ 42%Z :: 47%Z :: v -> (forall a b, p <> a ++ 42%Z :: 47%Z :: b) -> hd 0%Z q <> 47%Z -> False).
  { clear. induction p as [|c p IH]; intros q u v NQ E NP HQ.
    - apply NQ. cbn [app] in E. rewrite E. apply in_or_app. right. now left.
    - destruct u as [|d u]; cbn [app] in E.
      + injection E as -> E. destruct p as [|c p]; cbn [app] in E; [rewrite E in HQ; cbn in HQ; congruence|]. injection E as -> E. apply (NP [] p). reflexivity.
      + injection E as -> E. apply (IH q u v NQ E); [|exact HQ]. intros a b EP. apply (NP (d :: a) b). rewrite EP. reflexivity. }
  apply (G _ _ _ _ NS EU2); [|cbn; discriminate].
  intros a b EP. assert (K : forallb (fun c => negb (c =? 47)%Z) (pre ++ [42%Z; 42%Z]) = true) by (vm_compute; reflexivity). rewrite EP, forallb_app in K. apply andb_prop in K as (_ & K). discriminate K.
Qed.
Theorem C75_header_refuted : exists filename, ~ clex true (o_text (emit_head filename (mkOut [] 1))) [] /\
  forall f, ~ In 42%Z f -> clex true (o_text (emit_head f (mkOut [] 1))) [CP 46%Z; CP 42%Z; CP 47%Z].
Proof.
  exists (zs "parser.y"). split; [|exact head_tokens]. intros H. pose proof (clex_deterministic _ _ _ H _ (head_tokens (zs "parser.y") ltac:(vm_compute; intuition discriminate))). discriminate.
Qed.
Print Assumptions C75_header_refuted.
