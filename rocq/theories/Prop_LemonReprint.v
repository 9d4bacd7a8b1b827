(** C73: what lemon -y prints is, for byacc, a file with the same grammar. *)
From Coq Require Import String List Arith ZArith Bool Lia.
Import ListNotations.
From Verif Require Import Base SpecGrammar SpecGrammarFacts CLib SpecConflict LemonReportModel LemonParModel Prop_LemonTables LemonGenProof Prop_LemonComplete Prop_LemonScan LemonTableModel LemonPreModel LemonActionModel LemonPipelineModel LemonReadModel Prop_LemonRead Prop_LemonEndToEnd.
From Verif Require Import ByaccScanModel ByaccPackModel ByaccOutputModel ByaccParserModel Prop_ByaccParser Prop_ByaccMidrule ByaccPackFileProof.
From Verif Require Import SpecReduceChain LemonSoundProof.
From Verif Require Import LemonCodeModel LemonReprintModel SpecReprint ReprintTextProof LemonReprintProof ReprintFileProof.
From Verif Require ByaccParModel Prop_ByaccLiteral Prop_ByaccFile Prop_ByaccEndToEnd ByaccTerminatesProof Prop_ByaccTerminates.
From Verif Require Import SpecByaccFile SpecItems LemonReadProof SpecFile LemonIndexProof.

(** The name of the file has no end of line and no hash sign: it goes into a comment of the output. *)
Definition plain_name (f : text) : Prop := ~ In 10%Z f /\ ~ In 35%Z f.

Lemma printed : forall defs o z items, let ign := ro_ignorePrec o in
  declares defs z items -> Forall item_shape items -> items_new ign items -> grammar_file ign items -> plain_name (ro_filename o) ->
  (forall lhs la rhs prec code, In (IRule lhs la rhs prec code) items -> bars_fit (map (means items) rhs)) ->
  exists t, lemon_yacc defs o z = Ok (Some t) /\ ByaccScanModel.input t = t /\ file_text (yacc_file ign items) t /\ (forall x, In x (symbols_of ign items) -> alpha x -> nm x).
Proof.
  intros defs o z items ign (z1 & evs & PP & LX & TX) SH NEW GF (F1 & F2) BF. pose proof (names_ok _ _ _ ign items LX TX SH) as NMS.
  destruct (C55_text defs o z z1 evs PP LX) as (p & A & B). destruct (file_run o items evs SH NEW TX) as (p' & A' & _ & GI). rewrite A in A'. injection A' as <-.
  destruct (sorted_ok o items (p_g p) SH GI) as (sorted & IS & SN). destruct (printed_syms o items (p_g p) SH GI sorted SN) as (syms & MS & PS).
  destruct (reprint_ok o items (p_g p) SH GI GF NMS (ro_filename o) syms) as (t & RT & CL & FT); [|exact PS|exact BF|].
  { apply Forall_forall. intros c I. split; intros ->; [exact (F1 I)|exact (F2 I)]. }
  exists (t ++ nl). split; [|split; [|split; [exact FT|exact NMS]]].
  - unfold lemon_yacc. rewrite B. cbn [bind]. rewrite (gi_err _ _ _ GI). cbn [Nat.eqb negb].
    destruct (gr_rules (p_g p)) as [|r rs] eqn:ER; [exfalso; pose proof (gi_rules _ _ _ GI) as H; rewrite ER in H; inversion H as [E1|]; destruct (gf_rule _ _ GF) as (i & I & R); assert (J : In i (filter is_rule items)) by (apply filter_In; auto); rewrite <- E1 in J; destruct J|].
    rewrite (default_new o items (p_g p) SH GI). cbn [snd]. unfold named. cbn [LemonReadModel.set_syms gr_syms]. rewrite IS. cbn [bind]. rewrite MS. cbn [bind]. rewrite RT. reflexivity.
  - rewrite Prop_ByaccFile.C69_input.
    + rewrite rev_app_distr. cbn [nl rev app]. change ((10 =? 10)%Z) with true. cbn iota. apply app_nil_r.
    + intros l a b E _ (s1 & s2 & s3 & ds & s4 & f & r & _ & _ & _ & _ & _ & _ & _ & _ & _ & _ & LD).
      assert (I : In 35%Z ((t ++ nl) ++ [10%Z])) by (rewrite <- E; apply in_app_iff; right; rewrite app_assoc; apply in_app_iff; left; rewrite LD; apply in_app_iff; right; now left).
      apply in_app_iff in I as [I|[I|[]]]; [exact (CL I)|discriminate].
Qed.

(** At most one place of a rule has alternatives. *)
Definition one_place (items : list item) : Prop := forall lhs la rhs prec code, In (IRule lhs la rhs prec code) items -> alternatives (map (means items) rhs) <= 1.
(** No rule is for the symbol error. *)
Definition error_free (items : list item) : Prop := forall la rhs prec code, ~ In (IRule (zs "error") la rhs prec code) items.

(** Of a file without messages whose rules have alternatives in at most one place, lemon -y prints a text
    that byacc reads without a message as a grammar file F.  The start symbol of F is the left side of the first
    rule.  Its rules are those of the file in their order, one for each alternative, with the same %prec.  Its
    tokens are the tokens of the file, none with a number, and the precedences have the same order and associativities.  When the
    file has no other %start_symbol, its sentences are those of the file. *)
Theorem C73_file : forall defs o z items, let ign := ro_ignorePrec o in
  declares defs z items -> Forall item_shape items -> items_new ign items -> grammar_file ign items -> plain_name (ro_filename o) ->
  one_place items -> error_free items ->
  exists t F, lemon_yacc defs o z = Ok (Some t) /\ file_text F (ByaccScanModel.input t) /\ file_ok F /\ codes_fit F /\ (forall x, code_of_sym (file_facts F) x = None) /\
    goal_of F = first_lhs items /\ file_rules F = flat_map (item_rules ign items) items /\
    (forall x, upper x -> (file_token F x <-> In x (terms_of ign items))) /\
    (forall x, option_map snd (prec_of_sym (file_facts F) x) = option_map (fun v => yacc_assoc (snd v)) (prec_of ign items x)) /\
    (forall x y p q p' q' a b a' b', prec_of ign items x = Some (p, a) -> prec_of ign items y = Some (q, b) ->
       prec_of_sym (file_facts F) x = Some (p', a') -> prec_of_sym (file_facts F) y = Some (q', b') -> (p < q <-> p' < q')) /\
    (start_of ign items = first_lhs items -> forall w, Forall upper w -> (yields (file_grammar F) [goal_of F] w <-> nsentence ign items w)).
Proof.
  intros defs o z items ign D SH NEW GF PN ONE NERR.
  assert (BF : forall lhs la rhs prec code, In (IRule lhs la rhs prec code) items -> bars_fit (map (means items) rhs)) by (intros; apply one_fits; eapply ONE; eauto).
  destruct (printed defs o z items D SH NEW GF PN BF) as (t & LY & IT & FT & NMS). fold ign in LY, FT, NMS. exists t, (yacc_file ign items). rewrite IT.
  split; [exact LY|]. split; [exact FT|]. split; [apply yacc_file_ok; assumption|]. split; [apply yacc_codes_fit; assumption|]. split; [apply no_codes; assumption|]. split; [apply goal_ok; assumption|].
  split; [|split; [|split; [|split]]].
  - rewrite rules_lines. assert (K : forall l, incl l items -> flat_map (fun i => match i with IRule lhs _ rhs prec _ => map (fun xs => (lhs, yacc_body (if ign then None else prec) xs)) (lines_of (map (means items) rhs)) | _ => [] end) (filter is_rule l) = flat_map (item_rules ign items) l).
    { induction l as [|i l IH]; intros IN; [reflexivity|]. assert (IN2 : incl l items) by (intros x X; apply IN; now right). destruct i as [lhs la rhs prec code| | | | | | | | |]; cbn [filter is_rule flat_map item_rules app]; try (exact (IH IN2)).
      rewrite (IH IN2). f_equal. rewrite lines_choices; [reflexivity|]. eapply ONE. apply IN. now left. }
    apply K. apply incl_refl.
  - intros x U. apply tokens_ok; assumption.
  - intros x. rewrite prec_file by assumption. destruct (prec_of ign items x) as [(p & a)|]; reflexivity.
  - intros x y p q p' q' a b a' b' P Q P' Q'. rewrite prec_file in P', Q' by assumption. rewrite P in P'. rewrite Q in Q'. injection P' as <- _. injection Q' as <- _. eapply rank_mono; eauto.
  - intros ST w U. unfold nsentence. rewrite ST, goal_ok by assumption. split.
    + intros Y. split; [exact U|]. eapply (yields_sentence ign items) with (l := [first_lhs items]); eassumption.
    + intros (_ & S0). assert (X : exists xs, Forall2 chosen [NSym (first_lhs items)] xs /\ yields (file_grammar (yacc_file ign items)) xs w) by (eapply sentence_yields_file; eassumption). destruct X as (xs & C & Y). inversion C as [|e x l0 x3 C3 C4]; subst. inversion C4; subst. cbn [chosen] in C3. subst x. exact Y.
Qed.
Print Assumptions C73_file.

(** Both parsers, made from the same file: lemon's from the file, byacc's from what lemon -y prints of it.  If
    neither grammar has conflicts they find a token string correct or wrong together, unless byacc's stack runs
    out. *)
Theorem C73_agree : forall sf ff cf defs o compress yacc a1 a2 z items n c zb, let ign := ro_ignorePrec o in
  declares defs z items -> sound_file ign items -> small_lists sf ff (grammar_of ign items) ->
  lemon_text sf ff cf defs o compress yacc a1 a2 z = Ok (Some (n, c)) ->
  (forall x, fallback_of items x = None) -> wildcard_of items = None -> ~ In (zs "error") (symbols_of ign items) ->
  YY_SHIFT_COUNT (g_tab c) = YY_MAX_SHIFT (g_tab c) -> conflict_free (grammar_of ign items) -> all_productive (grammar_of ign items) ->
  plain_name (ro_filename o) -> one_place items -> start_of ign items = first_lhs items ->
  exists t s src pr sv (code : txt -> Z), lemon_yacc defs o z = Ok (Some t) /\ read_file t = ROk s /\ pack_file zb s = ROk (src, pr, sv) /\
    (forall x, In x (terms_of ign items) -> (256 < code x)%Z) /\
    forall f1 f2 f3 flag Y, byacc_generate f1 f2 f3 flag src pr sv = Ok Y -> all_productive (SpecByacc.aug src) -> conflict_free (SpecByacc.aug src) ->
    forall w lex mem grow cap, Forall (fun x => In x (terms_of ign items)) w -> (forall i x, nth_error w i = Some x -> lex i = code x) -> (lex (List.length w) <= 0)%Z ->
    (forall m, (1 <= m)%Z -> exists m', grow m = Some m' /\ (m < m')%Z) -> (1 <= cap)%Z ->
    exists N p p' e y, (forall fuel, N <= fuel ->
      LemonParModel.feed c grow fuel (ParseInit cap) (map Z.of_nat (map (code_of ign items) w)) 1 = Ok p /\ LemonParModel.Parse c grow fuel p 0 (Tok 0) = Ok p' /\
      yyparse Y lex fuel (fresh mem) = Ok (e, y)) /\
      (e = YOverflow /\ (In false mem \/ YYMAXDEPTH <= List.length (ks_st (y_stk y))) \/
       e <> YOverflow /\ ((In EvAccept (p_log p') /\ ~ In EvOverflow (p_log p') /\ forall m v, ~ In (EvSyntaxError m v) (p_log p')) <-> e = YAccept /\ y_nerrs y = 0)).
Proof.
  intros sf ff cf defs o compress yacc a1 a2 z items n c zb ign D SF SM RUN ND1 ND2 NER FULL CF AP PN ONE ST.
  destruct (C73_file defs o z items D (sf_shape _ _ SF) (sf_new _ _ SF) (sf_grammar _ _ SF) PN ONE (proj1 (sf_error _ _ SF))) as (t & F & LY & FT & FO & FC & NC & _ & _ & TK & _ & _ & LG). specialize (LG ST).
  destruct (Prop_ByaccEndToEnd.C70_decides zb F t FT FO FC) as (s & src & pr & sv & code & RF & PF & CD & DC). exists t, s, src, pr, sv, code.
  assert (UP : forall x, In x (terms_of ign items) -> upper x) by (intros x I; apply filter_In in I; tauto).
  split; [exact LY|]. split; [exact RF|]. split; [exact PF|]. split.
  { intros x I. specialize (CD x (proj2 (TK x (UP x I)) I)). rewrite NC in CD. destruct (list_eq_dec Z.eq_dec x (zs "error")) as [E|_]; [|exact CD]. apply UP in I. rewrite E in I. discriminate I. }
  intros f1 f2 f3 flag Y GY AP2 CF2 w lex mem grow cap FW LX LE GR CP.
  destruct (C60_decides sf ff cf defs o compress yacc a1 a2 z items n c D SF SM RUN ND1 ND2 NER FULL CF AP grow cap w GR CP FW) as (N & p & p' & H1).
  assert (FW2 : Forall (file_token F) w) by (eapply Forall_impl; [|exact FW]; intros x I; apply TK; auto).
  assert (FU : Forall upper w) by (eapply Forall_impl; [|exact FW]; exact UP).
  destruct (DC f1 f2 f3 flag Y GY AP2 CF2 w lex mem FW2 LX LE) as (N2 & e & y & H2 & H3).
  exists (Nat.max N N2), p, p', e, y. split.
  - intros fuel L. destruct (H1 fuel) as (A & B & _); [lia|]. split; [exact A|]. split; [exact B|]. apply H2. lia.
  - destruct H3 as [H3|(H3 & H4 & H5)]; [left; exact H3|right]. split; [exact H3|]. destruct (H1 N (le_n _)) as (_ & _ & H6). rewrite <- H6, <- (LG w FU). split; [intros Yw; split; [apply H5; exact Yw|apply H4; exact Yw]|intros (_ & Z0); apply H4; exact Z0].
Qed.
Print Assumptions C73_agree.

(** * What does not hold *)

(** Two places with alternatives: the rule s ::= A|B C|D is printed as s : A C and s : B D, so A D is lost. *)
Definition two73 : text := zs "s ::= A|B C|D.".
Definition two_items : list item := [IRule (zs "s") None [mkRelem (zs "A") [zs "B"] None; mkRelem (zs "C") [zs "D"] None] None None].
Ltac shapes := unfold elem0, item_shape, relem_ok, opt_ok, upper, lower, alpha, arg_ok; repeat apply Forall_cons; try apply Forall_nil;
    repeat match goal with
    | |- _ /\ _ => split
    | |- Forall _ [] => constructor
    | |- Forall _ (_ :: _) => constructor
    | |- True => exact Logic.I
    | |- ?a <> UNK => discriminate
    | |- _ -> _ => intros
    | H : re_alts _ <> [] |- _ => first [now destruct H|clear H; cbn [re_alts re_name]]
    | |- match _ with Some _ => _ | None => _ end => cbn [re_alias]
    | |- isupper _ = true => reflexivity
    | |- islower _ = true => reflexivity
    | |- isalpha _ = true => reflexivity
    | |- ch _ 0 = 123%Z => reflexivity
    | |- _ \/ _ => first [left; reflexivity|right; left; reflexivity|right; right; reflexivity]
    end.
Ltac new l := intros pre i post E; refine (news_ok false l [] _ pre i post E); clear; unfold l; cbn [news item_new app]; repeat match goal with |- _ /\ _ => split | |- True => exact Logic.I | |- _ -> False => intros X; vm_compute in X; intuition discriminate | |- ~ In _ _ => intros X; vm_compute in X; intuition discriminate | |- forall x, _ => intros x; cbn [In]; intuition; subst; reflexivity | |- _ -> _ => intros _ | |- _ <= _ => cbn; lia | |- NoDup _ => repeat constructor; cbn; intuition discriminate | |- _ = None => reflexivity end.
Ltac tokens := eexists; eexists; split; [vm_compute; reflexivity|]; split; [apply C54_tokens; split; [vm_compute; reflexivity|cbn; intuition discriminate]|]; unfold texts; vm_compute; repeat constructor; eexists; reflexivity.

Theorem C73_two_places_refuted : exists z items t F w, declares [] z items /\ Forall item_shape items /\ items_new false items /\ grammar_file false items /\ error_free items /\
  lemon_yacc [] quiet z = Ok (Some t) /\ file_text F (ByaccScanModel.input t) /\ file_ok F /\ goal_of F = start_of false items /\
  nsentence false items w /\ ~ yields (file_grammar F) [goal_of F] w.
Proof.
  exists two73, two_items. assert (D : declares [] two73 two_items) by tokens. assert (SH : Forall item_shape two_items) by shapes. assert (NEW : items_new false two_items) by new two_items.
  assert (GF : grammar_file false two_items).
  { constructor; [eexists; split; [left; reflexivity|reflexivity]| | |]; [intros ? ? ? ? ? [I|[]]; injection I as <- _ _ _ _; reflexivity|discriminate|intros ? ? [I|[]]; discriminate]. }
  assert (BF : forall lhs la rhs prec code, In (IRule lhs la rhs prec code) two_items -> bars_fit (map (means two_items) rhs)).
  { intros ? ? ? ? ? [I|[]]. injection I as _ _ <- _ _. intros ys ys' F I. vm_compute in F. injection F as <-. cbn [In] in I. destruct I as [I|[I|[]]]; vm_compute in I; injection I as <-; cbn; lia. }
  assert (NE : error_free two_items) by (intros ? ? ? ? [I|[]]; discriminate).
  destruct (printed [] quiet two73 two_items D SH NEW GF) as (t & LY & IT & FT & NMS); [split; intros I; vm_compute in I; intuition discriminate|exact BF|].
  exists t, (yacc_file false two_items), [zs "A"; zs "D"]. rewrite IT. do 6 (split; [assumption|]). split; [exact FT|]. split; [apply yacc_file_ok; assumption|]. split; [reflexivity|]. split.
  - split; [repeat constructor|]. eapply star_step; [exact (ns_rule two_items [] [] _ _ _ _ _ (or_introl eq_refl))|].
    eapply star_step; [exact (ns_alt _ [] [NAlt [zs "C"; zs "D"]] [zs "A"; zs "B"] (zs "A") (or_introl eq_refl))|].
    eapply star_step; [exact (ns_alt _ [NSym (zs "A")] [] [zs "C"; zs "D"] (zs "D") (or_intror (or_introl eq_refl)))|]. apply star_refl.
  - change (file_grammar (yacc_file false two_items)) with [(zs "s", [zs "A"; zs "C"]); (zs "s", [zs "B"; zs "D"])]. intros Y.
    assert (K : forall x w r, yields [(zs "s", [zs "A"; zs "C"]); (zs "s", [zs "B"; zs "D"])] (x :: r) w -> x <> zs "s" -> exists w', w = x :: w' /\ yields [(zs "s", [zs "A"; zs "C"]); (zs "s", [zs "B"; zs "D"])] r w').
    { intros x w r H N. inversion H as [|? ? ? ? ?|? ? ? ? ? I]; subst; [eauto|]. exfalso. destruct I as [I|[I|[]]]; injection I as I; intros; now apply N. }
    remember [zs "A"; zs "D"] as ad eqn:EA. inversion Y as [|x l w N Y0 EX EW|x r l w w' I Y1 Y2 EX EW]; [exact (N _ (or_introl eq_refl))|]. assert (W' : w' = []) by (inversion Y2; reflexivity). rewrite W', app_nil_r in EW. rewrite EW, EA in Y1. destruct I as [I|[I|[]]]; injection I as I; rewrite <- I in Y1.
    + apply K in Y1 as (w1 & E & Y1); [|discriminate]. apply K in Y1 as (w2 & E2 & Y1); [|discriminate]. rewrite E2 in E. discriminate E.
    + apply K in Y1 as (w1 & E & Y1); [|discriminate]. discriminate E.
Qed.

(** More alternatives in the first place than in a later one: the reprint reads behind the array of the later ones. *)
Theorem C73_bounds_refuted : exists z g, LemonReadModel.Parse [] quiet z = Ok (Some g) /\ gr_err g = 0 /\ lemon_yacc [] quiet z = Bad.
Proof. exists (zs "s ::= A|B|C D|E."). eexists. split; [vm_compute; reflexivity|]. split; vm_compute; reflexivity. Qed.

(** The reprint does not print %start_symbol: byacc starts with the first rule. *)
Theorem C73_start_refuted : exists z g t s b, LemonReadModel.Parse [] quiet z = Ok (Some g) /\ gr_err g = 0 /\ slot_get Gstart (gr_slots g) = Some (zs "t") /\
  lemon_yacc [] quiet z = Ok (Some t) /\ read_file t = ROk s /\ nth_error (d_infos s) (match d_goal s with Some i => i | None => 0 end) = Some b /\ b_name b = zs "s".
Proof. exists (zs "%start_symbol t s ::= A. t ::= B s."). do 4 eexists. split; [vm_compute; reflexivity|]. split; [vm_compute; reflexivity|]. split; [vm_compute; reflexivity|]. split; [vm_compute; reflexivity|]. split; [vm_compute; reflexivity|]. split; vm_compute; reflexivity. Qed.

(** A rule for the symbol error, which lemon takes, is an error in byacc. *)
Theorem C73_error_refuted : exists z g t, LemonReadModel.Parse [] quiet z = Ok (Some g) /\ gr_err g = 0 /\ lemon_yacc [] quiet z = Ok (Some t) /\ read_file t = RErr.
Proof. exists (zs "s ::= error. error ::= A."). do 2 eexists. split; [vm_compute; reflexivity|]. split; [vm_compute; reflexivity|]. split; [vm_compute; reflexivity|]. vm_compute. reflexivity. Qed.

(** An end of line in the name of the file ends the comment it is in. *)
Theorem C73_name_refuted : exists z f g t, LemonReadModel.Parse [] (mkRopts false true f) z = Ok (Some g) /\ gr_err g = 0 /\ lemon_yacc [] (mkRopts false true f) z = Ok (Some t) /\ read_file t = RErr.
Proof. exists (zs "s ::= A."), (zs "a" ++ [10%Z] ++ zs "b"). do 2 eexists. split; [vm_compute; reflexivity|]. split; [vm_compute; reflexivity|]. split; [vm_compute; reflexivity|]. vm_compute. reflexivity. Qed.

(** * Examples *)

(** The file of C60, and what is printed of it. *)
Definition printed60 : txt := zs "// Reprint of input file ""t.y"".
// Symbols:
//   0 $            2 MINUS        4 NUM          6 p            8 t         
//   1 PLUS         3 SEMI         5 VAR          7 e         
%token  PLUS MINUS SEMI NUM VAR


%start p

%%

p : e SEMI ;

e : e PLUS t ;
e : e MINUS t ;
e : t ;

t : NUM ;
t : VAR ;

".
Definition src60 : ByaccLr0Model.bsrc := ByaccLr0Model.mkSrc 7 11 [(8, [9; 4]); (9, [9; 2; 10]); (9, [9; 3; 10]); (9, [10]); (10, [5]); (10, [6])].

Example C73_hypotheses : declares [] text60 items60 /\ sound_file false items60 /\ plain_name (ro_filename quiet) /\ one_place items60 /\ error_free items60 /\ start_of false items60 = first_lhs items60 /\
  ~ In (zs "error") (symbols_of false items60) /\
  lemon_yacc [] quiet text60 = Ok (Some printed60) /\ all_productive (SpecByacc.aug src60) /\ conflict_free (SpecByacc.aug src60) /\
  exists s pr sv Y c, read_file printed60 = ROk s /\ pack_file false s = ROk (src60, pr, sv) /\ byacc_generate 300 300 300 false src60 pr sv = Ok Y /\
    yyparse Y (fun i => nth i [260; 258; 261; 259]%Z 0%Z) 50 (fresh []) = Ok (YAccept, c) /\ y_nerrs c = 0.
Proof.
  split; [exact declares60|]. split; [exact sound60|]. split; [split; intros I; vm_compute in I; intuition discriminate|].
  split; [intros lhs la rhs prec cd I; rules60 I; injection I as _ _ <- _ _; vm_compute; lia|]. split; [intros la rhs prec cd I; rules60 I|]. split; [reflexivity|]. split; [vm_compute; intuition discriminate|]. split; [vm_compute; reflexivity|]. split; [|split].
  - set (G := SpecByacc.aug src60).
    assert (P10 : derives G [ESym 10] [ESym 5]) by (apply (derives_rule G (SpecGrammar.mkRule 10 [ESym 5])); vm_compute; tauto).
    assert (P9 : derives G [ESym 9] [ESym 5]) by (eapply derives_trans; [apply (derives_rule G (SpecGrammar.mkRule 9 [ESym 10])); vm_compute; tauto|exact P10]).
    assert (P8 : derives G [ESym 8] [ESym 5; ESym 4]).
    { eapply derives_trans; [apply (derives_rule G (SpecGrammar.mkRule 8 [ESym 9; ESym 4])); vm_compute; tauto|]. exact (derives_app G [ESym 9] [ESym 5] [ESym 4] [ESym 4] P9 (derives_refl _ _)). }
    intros A [H1 H2]. vm_compute in H1, H2. assert (HA : A = 7 \/ A = 8 \/ A = 9 \/ A = 10) by lia. destruct HA as [->|[->|[->| ->]]].
    + exists [5; 4]. split; [repeat constructor|]. eapply derives_trans; [apply (derives_rule G (SpecGrammar.mkRule 7 [ESym 8])); vm_compute; tauto|exact P8].
    + exists [5; 4]. split; [repeat constructor|exact P8].
    + exists [5]. split; [repeat constructor|exact P9].
    + exists [5]. split; [repeat constructor|exact P10].
  - free.
  - do 5 eexists. split; [vm_compute; reflexivity|]. split; [vm_compute; reflexivity|]. split; [vm_compute; reflexivity|]. split; vm_compute; reflexivity.
Qed.

(** With three levels of precedence and a rule that has its own. *)
Definition text73 : text := zs "%left PLUS MINUS.
%nonassoc TIMES.
%right EXP.
e ::= e PLUS|MINUS e. e ::= MINUS e. [EXP] e ::= NUM.
".
Definition items_prec : list item :=
  [IAssoc LEFT [zs "PLUS"; zs "MINUS"]; IAssoc NONE [zs "TIMES"]; IAssoc RIGHT [zs "EXP"];
   IRule (zs "e") None [elem0 "e"; mkRelem (zs "PLUS") [zs "MINUS"] None; elem0 "e"] None None; IRule (zs "e") None [elem0 "MINUS"; elem0 "e"] (Some (zs "EXP")) None; IRule (zs "e") None [elem0 "NUM"] None None].
Example C73_precedence_hypotheses : declares [] text73 items_prec /\ Forall item_shape items_prec /\ items_new false items_prec /\ grammar_file false items_prec /\ one_place items_prec /\ error_free items_prec /\
  flat_map (item_rules false items_prec) items_prec =
    [(zs "e", [FSym (SName (zs "e")); FSym (SName (zs "PLUS")); FSym (SName (zs "e"))]); (zs "e", [FSym (SName (zs "e")); FSym (SName (zs "MINUS")); FSym (SName (zs "e"))]);
     (zs "e", [FSym (SName (zs "MINUS")); FSym (SName (zs "e")); FPrec (SName (zs "EXP"))]); (zs "e", [FSym (SName (zs "NUM"))])] /\
  exists t s, lemon_yacc [] quiet text73 = Ok (Some t) /\ read_file t = ROk s /\
    map (fun b => (b_name b, b_prec b, b_assoc b)) (d_infos s) =
      [(zs "error", 0, ByaccParModel.TOKEN); (zs "PLUS", 1, ByaccParModel.LEFT); (zs "MINUS", 1, ByaccParModel.LEFT); (zs "TIMES", 2, ByaccParModel.NONASSOC); (zs "EXP", 3, ByaccParModel.RIGHT);
       (zs "NUM", 0, ByaccParModel.TOKEN); (zs "e", 0, ByaccParModel.TOKEN)].
Proof.
  split; [tokens|]. split; [unfold items_prec; shapes|]. split; [new items_prec|]. split; [|split; [|split; [|split]]].
  - constructor; [eexists; split; [right; right; right; left; reflexivity|reflexivity]| | |]; [intros lhs la rhs prec cd I|discriminate|intros c l I]; unfold items_prec in I; cbn [In] in I; repeat (destruct I as [I|I]; [try discriminate I|]); try contradiction; injection I as <- _ _ _ _; reflexivity.
  - intros lhs la rhs prec cd I. unfold items_prec in I. cbn [In] in I. repeat (destruct I as [I|I]; [try discriminate I|]); try contradiction; injection I as _ _ <- _ _; vm_compute; lia.
  - intros la rhs prec cd I. unfold items_prec in I. cbn [In] in I. repeat (destruct I as [I|I]; [try discriminate I|]); contradiction.
  - vm_compute. reflexivity.
  - do 2 eexists. split; [vm_compute; reflexivity|]. split; vm_compute; reflexivity.
Qed.
