(** C74: what byacc -E prints is, for lemon, a file with the same grammar. *)
From Coq Require Import String List Arith ZArith Bool Lia.
Import ListNotations.
From Verif Require Import Base SpecGrammar SpecGrammarFacts CLib SpecConflict LemonReportModel LemonParModel Prop_LemonTables LemonGenProof Prop_LemonComplete Prop_LemonScan LemonTableModel LemonPreModel LemonActionModel LemonPipelineModel LemonReadModel Prop_LemonRead Prop_LemonEndToEnd.
From Verif Require Import ByaccScanModel ByaccPackModel ByaccOutputModel ByaccParserModel Prop_ByaccParser Prop_ByaccMidrule ByaccPackFileProof.
From Verif Require Import LemonCodeModel LemonSoundProof ByaccLemonTextModel ByaccLemonTextProof ByaccLemonFileProof ByaccLemonItemsProof.
From Verif Require ByaccParModel ByaccLemonModel Prop_ByaccLemon Prop_ByaccEndToEnd ByaccTableProof ByaccFilePackProof Prop_LemonReprint LemonReprintProof SpecReprint.
From Verif Require Import SpecByaccFile SpecItems LemonReadProof SpecFile LemonIndexProof.
Local Notation names := SpecByaccFile.names.
Local Notation prec_of := SpecItems.prec_of.

(** The symbol that gives a rule of a lemon file its precedence: that of the mark behind the rule, or the first
    one of the right-hand side that has a precedence. *)
Definition lemon_prec_symbol (items : list item) (rhs : list relem) (prec : option text) : option text :=
  match prec with
  | Some x => Some x
  | None => find (fun x => match prec_of false items x with Some _ => true | None => false end) (map re_name rhs)
  end.

(** The rule of a byacc file as a rule of a lemon file: the actions are gone, the names are changed. *)
Definition lemon_rule (name : txt -> txt) (r : txt * list fpart) : item :=
  IRule (name (fst r)) None (map (fun x => mkRelem (name x) [] None) (part_syms (snd r))) (option_map name (fmark (snd r))) None.

Lemma tn_upper : forall c r, Prop_ByaccLemon.ok_token (c :: r) -> isupper c = true -> tn (c :: r) = c :: r.
Proof.
  intros c r H U. unfold tn. destruct (Prop_ByaccLemon.token_form _ H) as [(E & _)|[(_ & X)|(b & _ & X & _)]].
  - now rewrite E.
  - exfalso. unfold isupper in U. apply andb_true_iff in U as (U1 & U2). apply Z.leb_le in U1, U2. assert (K : ByaccLemonModel.islower c = true \/ c = 95%Z) by (destruct r; auto). destruct K as [K| ->]; [apply Prop_ByaccLemon.lower_range in K|]; lia.
  - exfalso. injection X as -> _. discriminate U.
Qed.
Lemma vn_lower : forall c r, Prop_ByaccLemon.ok_var (c :: r) -> islower c = true -> vn (c :: r) = c :: r.
Proof.
  intros c r H U. unfold vn. inversion H as [c0 r0 U0 F L S1 S2|c0 r0 U0 F L|r0 F L]; subst.
  - apply Prop_ByaccLemon.lower_range in U0 as R. unfold ByaccLemonModel.get_lemon_rule_name. rewrite Prop_ByaccLemon.char0 by lia. cbn [bind].
    replace (c =? 46)%Z with false by (symmetry; apply Z.eqb_neq; lia). replace (c =? 95)%Z with false by (symmetry; apply Z.eqb_neq; lia).
    assert (NL : ByaccLemonModel.isupper c = false) by (destruct (ByaccLemonModel.isupper c) eqn:E; [apply Prop_ByaccLemon.upper_range in E; lia|reflexivity]). rewrite NL. unfold ByaccLemonModel.snp. rewrite firstn_all2 by exact L.
    now rewrite Prop_ByaccLemon.undot_word by (constructor; auto using Prop_ByaccLemon.lower_word).
  - exfalso. apply Prop_ByaccLemon.upper_range in U0. unfold islower in U. apply andb_true_iff in U as (U1 & U2). apply Z.leb_le in U1, U2. lia.
  - discriminate U.
Qed.

Section Printed.
Variable F : bfile.
Variable file : txt.
Hypothesis FT : file_text F (ByaccScanModel.input file).
Hypothesis OK : file_ok F.
Hypothesis LN : lemon_names F.
Variable ts : list txt.
Hypothesis TI : forall x, In x ts <-> file_token F x.
Local Notation items := (file_items F ts).

Lemma prec_lhs : forall x, is_lhs (file_facts F) x -> prec_of false items (vn x) = None.
Proof.
  intros x H. destruct (prec_of false items (vn x)) as [v|] eqn:E; [|reflexivity]. exfalso. apply prec_names in E. apply in_flat_map in E as (i & I & J).
  destruct (item_cases F ts TI i I) as [(? & _ & ->)|[(k & y & l & _ & EL & ->)|[->|(n & b & _ & ->)]]]; try contradiction.
  apply in_map_iff in J as (z & EZ & Iz). rewrite <- EL in Iz. apply filter_In in Iz as (Iz & _). apply TI in Iz. destruct (tok_ok F LN z Iz) as (_ & U). destruct (lhs_ok F LN x H) as (_ & U2). rewrite EZ in U. apply upper_not_lower in U. congruence.
Qed.
Lemma prec_name : forall x, In x (names (file_facts F)) ->
  (match prec_of false items (sn F x) with Some _ => true | None => false end) = (without_rules F x && negb (fst (prec_val F x) =? 0))%bool.
Proof.
  intros x I. destruct (name_cases F x I) as [H|H].
  - rewrite (sn_lhs F x H), (prec_lhs x H). assert (W : without_rules F x = false); [|now rewrite W]. destruct (without_rules F x) eqn:W; [|reflexivity]. apply Prop_ByaccEndToEnd.without_iff in W. contradiction.
  - rewrite (sn_tok F x H), (prec_items F LN ts TI x H). assert (W : without_rules F x = true) by (apply Prop_ByaccEndToEnd.without_iff; exact (proj2 H)). rewrite W. unfold prec_val. destruct (prec_of_sym (file_facts F) x) as [(p & a)|] eqn:E; cbn [option_map fst]; [|reflexivity].
    apply file_precs, decls_precs in E as (E & _). destruct p; [lia|reflexivity].
Qed.
Lemma find_filter : forall (p q : txt -> bool) l, find (fun x => p x && q x)%bool l = find q (filter p l).
Proof. intros p q. induction l as [|x l IH]; [reflexivity|]. cbn [find filter]. destruct (p x); cbn [andb find]; [destruct (q x); auto|exact IH]. Qed.
Lemma rule_prec : forall n b, In (n, b) (file_rules F) ->
  lemon_prec_symbol items (map (fun x => mkRelem (sn F x) [] None) (part_syms b)) (option_map (sn F) (fmark b)) = option_map (sn F) (prec_symbol true F b).
Proof.
  intros n b I. unfold lemon_prec_symbol, prec_symbol. destruct (fmark b) as [x|]; [reflexivity|]. cbn [option_map]. rewrite map_map. cbn [re_name]. rewrite Prop_ByaccEndToEnd.find_map. f_equal.
  rewrite <- find_filter. apply Prop_ByaccEndToEnd.find_ext_in. intros x J. apply prec_name. exact (syms_known F n b x I J).
Qed.
Lemma rules_named : map (rule_item F) (file_rules F) = map (lemon_rule (sn F)) (file_rules F).
Proof.
  apply map_ext_in. intros (n & b) I. unfold rule_item, lemon_rule. cbn [fst snd]. f_equal.
  - symmetry. apply sn_lhs. exact (lhs_of F n b I).
  - destruct (fmark b) as [x|] eqn:M; [|reflexivity]. cbn [option_map]. f_equal. symmetry. apply sn_tok. exact (ln_prec _ LN n b x I M).
Qed.
End Printed.

(** Of a grammar file without errors whose names byacc -E changes into different names of lemon, it prints a text
    that lemon reads without a message. The rules are those of the file without their actions, in the same
    order; tokens are tokens and begin with capitals; the start symbol, the associativities and the order of the
    precedences are kept; lemon takes the precedence of a rule from the symbol that byacc -z takes it from; and
    the language is the same. *)
Theorem C74_file : forall F file, file_text F (ByaccScanModel.input file) -> file_ok F -> lemon_names F ->
  exists t items (name : txt -> txt), byacc_lemon file = ROk t /\ declares [] t items /\ Forall item_shape items /\
    (forall ign, items_new ign items /\ grammar_file ign items /\ start_of ign items = name (goal_of F)) /\
    (forall x y, In x (names (file_facts F)) -> In y (names (file_facts F)) -> name x = name y -> x = y) /\
    (forall x, file_token F x -> upper (name x) /\ (upper x -> name x = x)) /\
    (forall x, is_lhs (file_facts F) x -> lower (name x) /\ (lower x -> name x = x)) /\
    filter is_rule items = map (lemon_rule name) (file_rules F) /\
    (forall ign y, In y (terms_of ign items) -> exists x, file_token F x /\ y = name x) /\
    (forall ign x, file_token F x -> x <> zs "error" -> In (name x) (terms_of ign items)) /\
    (exists rank : nat -> nat,
       (forall x, file_token F x -> prec_of false items (name x) = option_map (fun v => (rank (fst v), lemon_assoc (snd v))) (prec_of_sym (file_facts F) x)) /\
       (forall x y p q a b, file_token F x -> file_token F y -> prec_of_sym (file_facts F) x = Some (p, a) -> prec_of_sym (file_facts F) y = Some (q, b) -> (p < q <-> rank p < rank q))) /\
    (forall n b, In (n, b) (file_rules F) ->
       lemon_prec_symbol items (map (fun x => mkRelem (name x) [] None) (part_syms b)) (option_map name (fmark b)) = option_map name (prec_symbol true F b)) /\
    (forall ign w, Forall (file_token F) w -> (yields (file_grammar F) [goal_of F] w <-> nsentence ign items (map name w))).
Proof.
  intros F file FT OK LN. destruct (printed_doc F file FT OK LN) as (s & ts & t & RF & SO & BL & D). pose proof (sk_nodup _ _ _ SO) as TN. pose proof (sk_in _ _ _ SO) as TI.
  assert (NT : forall x, file_token F x -> sn F x = tn x) by (intros; now apply sn_tok). assert (GL : is_lhs (file_facts F) (goal_of F)) by exact (fo_goal _ OK).
  exists t, (file_items F ts), (sn F). split; [exact BL|]. split; [exact D|]. split; [exact (items_shape F file FT OK LN ts TI)|]. split; [|split; [|split; [|split; [|split; [|split; [|split; [|split; [|split]]]]]]]].
  - intros ign. split; [exact (items_fresh F LN ts TN TI ign)|]. split; [exact (items_grammar F OK LN ts TI ign)|]. rewrite (start_items F OK LN ts ign), (sn_lhs F _ GL). reflexivity.
  - exact (sn_same F LN).
  - intros x T. rewrite (NT x T). split; [exact (proj2 (tok_ok F LN x T))|]. intros U. pose proof (ln_tokens _ LN x T) as K. destruct x as [|c r]; [inversion K|]. now apply tn_upper.
  - intros x H. rewrite (sn_lhs F x H). split; [exact (proj2 (lhs_ok F LN x H))|]. intros U. pose proof (ln_lhs _ LN x H) as K. destruct x as [|c r]; [inversion K|]. now apply vn_lower.
  - rewrite items_rules. now apply rules_named.
  - intros ign y I. destruct (terms_from F LN ts TI ign y I) as (x & T & E). exists x. split; [exact T|]. now rewrite (NT x T).
  - intros ign x T NE. rewrite (NT x T). exact (terms_all F LN ts TI ign x T NE).
  - exists (ByaccLemonItemsProof.rank F ts). split; [|exact (rank_order F ts TI)]. intros x T. rewrite (NT x T). exact (prec_items F LN ts TI x T).
  - intros n b I. exact (rule_prec F LN ts TI n b I).
  - intros ign w FW. rewrite (items_language F file FT OK LN ts TI ign t D w FW). assert (E : map tn w = map (sn F) w); [|now rewrite E]. apply map_ext_in. intros x I. rewrite Forall_forall in FW. symmetry. apply NT. now apply FW.
Qed.
Print Assumptions C74_file.

(** Between the two parsers: from a grammar file without conflicts whose start symbol is in no right-hand side,
    the parser of byacc and the parser that lemon makes of what byacc -E prints accept the same strings of tokens. *)
Theorem C74_agree : forall zb F file o, let ign := ro_ignorePrec o in
  file_text F (ByaccScanModel.input file) -> file_ok F -> codes_fit F -> lemon_names F ->
  (forall n b, In (n, b) (file_rules F) -> ~ In (goal_of F) (part_syms b) /\ List.length (part_syms b) <= 128) ->
  exists t items (name : txt -> txt) s src pr sv (code : txt -> Z), byacc_lemon file = ROk t /\ declares [] t items /\
    (forall x y, file_token F x -> file_token F y -> name x = name y -> x = y) /\ (forall x, file_token F x -> x <> zs "error" -> In (name x) (terms_of ign items)) /\
    read_file file = ROk s /\ pack_file zb s = ROk (src, pr, sv) /\
    (forall n, file_token F n -> match code_of_sym (file_facts F) n with Some v => code n = v | None => if list_eq_dec Z.eq_dec n (zs "error") then code n = 256%Z else (256 < code n)%Z end) /\
    forall sf ff cf compress yacc a1 a2 n c, small_lists sf ff (grammar_of ign items) -> lemon_text sf ff cf [] o compress yacc a1 a2 t = Ok (Some (n, c)) ->
    YY_SHIFT_COUNT (g_tab c) = YY_MAX_SHIFT (g_tab c) -> conflict_free (grammar_of ign items) -> all_productive (grammar_of ign items) ->
    forall f1 f2 f3 flag Y, byacc_generate f1 f2 f3 flag src pr sv = Ok Y -> all_productive (SpecByacc.aug src) -> conflict_free (SpecByacc.aug src) ->
    forall w lex mem grow cap, Forall (fun x => file_token F x /\ x <> zs "error") w -> (forall i x, nth_error w i = Some x -> lex i = code x) -> (lex (List.length w) <= 0)%Z ->
    (forall m, (1 <= m)%Z -> exists m', grow m = Some m' /\ (m < m')%Z) -> (1 <= cap)%Z ->
    exists N p p' e y, (forall fuel, N <= fuel ->
      LemonParModel.feed c grow fuel (ParseInit cap) (map Z.of_nat (map (code_of ign items) (map name w))) 1 = Ok p /\ LemonParModel.Parse c grow fuel p 0 (Tok 0) = Ok p' /\
      yyparse Y lex fuel (fresh mem) = Ok (e, y)) /\
      (e = YOverflow /\ (In false mem \/ YYMAXDEPTH <= List.length (ks_st (y_stk y))) \/
       e <> YOverflow /\ ((In EvAccept (p_log p') /\ ~ In EvOverflow (p_log p') /\ forall m v, ~ In (EvSyntaxError m v) (p_log p')) <-> e = YAccept /\ y_nerrs y = 0)).
Proof.
  intros zb F file o ign FT OK CFT LN SHORT. destruct (printed_doc F file FT OK LN) as (s0 & ts & t & RF0 & SO & BL & D). pose proof (sk_nodup _ _ _ SO) as TN. pose proof (sk_in _ _ _ SO) as TI. clear SO RF0 s0.
  destruct (Prop_ByaccEndToEnd.C70_decides zb F file FT OK CFT) as (s & src & pr & sv & code & RF & PF & CD & DC). set (items := file_items F ts).
  exists t, items, tn, s, src, pr, sv, code. split; [exact BL|]. split; [exact D|]. split; [exact (tn_same F LN)|]. split; [exact (terms_all F LN ts TI ign)|]. split; [exact RF|]. split; [exact PF|]. split; [exact CD|].
  intros sf ff cf compress yacc a1 a2 n c SM RUN FULL CF AP f1 f2 f3 flag Y GY AP2 CF2 w lex mem grow cap FW LX LE GR CP.
  assert (FW1 : Forall (file_token F) w) by (eapply Forall_impl; [|exact FW]; cbn beta; tauto).
  assert (NV : forall x, is_lhs (file_facts F) x -> vn x <> zs "error").
  { intros x H E. pose proof (ln_lhs _ LN x H) as K. pose proof (vn_ok x K) as (E1 & _). rewrite E in E1. destruct (Prop_ByaccLemon.var_form x K) as [(E2 & _)|[E2|(E2 & r & ->)]]; rewrite E2 in E1; try discriminate E1. injection E1 as E1. rewrite E1 in H. exact (fo_lhs _ OK _ H (or_introl eq_refl)). }
  assert (SF : sound_file ign items).
  { constructor.
    - exact (items_shape F file FT OK LN ts TI).
    - exact (items_fresh F LN ts TN TI ign).
    - exact (items_grammar F OK LN ts TI ign).
    - intros x f E. unfold items in E. rewrite (no_fallbacks F ts TI x) in E. discriminate.
    - split; [|exact (no_classes F ts TI _)]. intros la rhs prec cd I. destruct (item_cases F ts TI _ I) as [(? & _ & E)|[(? & ? & ? & _ & _ & E)|[E|(m & b & J & E)]]]; try discriminate. injection E as E _ _ _ _. symmetry in E. revert E. apply NV. exact (lhs_of F m b J).
    - intros lhs la rhs prec cd e I Ie _. unfold items. rewrite (start_items F OK LN ts ign). destruct (item_cases F ts TI _ I) as [(? & _ & E)|[(? & ? & ? & _ & _ & E)|[E|(m & b & J & E)]]]; try discriminate. injection E as -> -> -> -> ->. cbn [fst snd] in Ie. apply in_map_iff in Ie as (x & <- & Ix). cbn [re_name]. intros E.
      rewrite <- (sn_lhs F _ (fo_goal _ OK)) in E. apply (sn_same F LN) in E; [|exact (syms_known F m b x J Ix)|apply ByaccFilePackProof.lhs_in_names; exact (fo_goal _ OK)]. subst x. exact (proj1 (SHORT m b J) Ix).
    - intros lhs la rhs prec cd I. destruct (item_cases F ts TI _ I) as [(? & _ & E)|[(? & ? & ? & _ & _ & E)|[E|(m & b & J & E)]]]; try discriminate. injection E as -> -> -> -> ->. cbn [fst snd]. rewrite map_length. exact (proj2 (SHORT m b J)). }
  assert (NER : ~ In (zs "error") (symbols_of ign items)).
  { intros I. unfold symbols_of in I. rewrite firsts_In in I. destruct I as [I|I]; [discriminate I|]. apply in_flat_map in I as (i & I & M).
    assert (NT : forall x, file_token F x -> tn x <> zs "error") by (intros x T E; pose proof (proj2 (tok_ok F LN x T)) as U; rewrite E in U; discriminate U).
    destruct (item_cases F ts TI i I) as [(x & T & ->)|[(k & x & l & _ & E & ->)|[->|(m & b & R & ->)]]]; cbn [mentions] in M.
    - destruct M as [M|[]]. exact (NT x T M).
    - destruct ign; [destruct M|]. apply in_map_iff in M as (x0 & M & Ix). rewrite <- E in Ix. apply filter_In in Ix as (Ix & _). apply TI in Ix. exact (NT x0 Ix M).
    - destruct M.
    - unfold rule_item in M. cbn [mentions] in M. destruct M as [M|M]; [exact (NV m (lhs_of F m b R) M)|]. apply in_app_iff in M as [M|M].
      + apply in_flat_map in M as (e & Ie & M). apply in_map_iff in Ie as (x & <- & Ix). cbn [re_name re_alts] in M. destruct M as [M|[]]. destruct (name_cases F x (syms_known F m b x R Ix)) as [H|H]; [rewrite (sn_lhs F x H) in M; exact (NV x H M)|rewrite (sn_tok F x H) in M; exact (NT x H M)].
      + cbn [snd] in M. destruct (fmark b) as [q|] eqn:EM; cbn [option_map] in M; [|destruct M]. destruct ign; [destruct M|]. destruct M as [M|[]]. exact (NT q (ln_prec _ LN m b q R EM) M). }
  assert (FW2 : Forall (fun x => In x (terms_of ign items)) (map tn w)) by (apply Forall_map; eapply Forall_impl; [|exact FW]; intros x (T & NE); exact (terms_all F LN ts TI ign x T NE)).
  destruct (C60_decides sf ff cf [] o compress yacc a1 a2 t items n c D SF SM RUN (no_fallbacks F ts TI) (no_wildcard F ts TI) NER FULL CF AP grow cap (map tn w) GR CP FW2) as (N & p & p' & H1).
  destruct (DC f1 f2 f3 flag Y GY AP2 CF2 w lex mem FW1 LX LE) as (N2 & e & y & H2 & H3).
  exists (Nat.max N N2), p, p', e, y. split.
  - intros fuel L. destruct (H1 fuel) as (A & B & _); [lia|]. split; [exact A|]. split; [exact B|]. apply H2. lia.
  - destruct H3 as [H3|(H3 & H4 & H5)]; [left; exact H3|right]. split; [exact H3|]. destruct (H1 N (le_n _)) as (_ & _ & H6). pose proof (items_language F file FT OK LN ts TI ign t D w FW1) as LG. fold items in LG. fold ign in H6. rewrite <- H6, <- LG. split; [intros Yw; split; [apply H5; exact Yw|apply H4; exact Yw]|intros (_ & Z0); apply H4; exact Z0].
Qed.
Print Assumptions C74_agree.

(** * What does not hold *)

(** Without the option -z byacc takes the precedence of a rule from its last token, lemon from the first one with a
    precedence, and nothing in the text tells lemon: the rule I T s has the precedence of T in byacc and that of I
    in lemon. The parser of byacc accepts I T X E X; the parser of lemon reports an error at E. *)
Definition file_ite : txt := zs "%token X
%nonassoc T
%nonassoc E
%nonassoc I
%%
p : s ;
s : I T s | I T s E s | X ;
".
Definition items_ite : list item :=
  map (fun x => IToken [zs x]) ["X"; "T"; "E"; "I"]%string ++
  [IAssoc NONE [zs "T"]; IAssoc NONE [zs "E"]; IAssoc NONE [zs "I"]; IText Gstart (zs "p"); IRule (zs "p") None [elem0 "s"] None None;
   IRule (zs "s") None (map elem0 ["I"; "T"; "s"]%string) None None; IRule (zs "s") None (map elem0 ["I"; "T"; "s"; "E"; "s"]%string) None None; IRule (zs "s") None [elem0 "X"] None None].
Theorem C74_precedence_refuted : exists file t items s src pr sv Y y n c p p' m v w,
  byacc_lemon file = ROk t /\ declares [] t items /\ read_file file = ROk s /\ pack_file false s = ROk (src, pr, sv) /\
  map b_name (firstn 5 (d_infos s)) = map zs ["error"; "X"; "T"; "E"; "I"]%string /\ firstn 6 sv = [0; 256; 257; 258; 259; 260]%Z /\ map (code_of false items) (map zs ["X"; "T"; "E"; "I"]%string) = [1; 2; 3; 4] /\
  w = [4; 2; 1; 3; 1] /\
  byacc_generate 300 300 300 false src pr sv = Ok Y /\ yyparse Y (fun i => nth i (map (fun k => 256 + Z.of_nat k)%Z w) 0%Z) 100 (fresh []) = Ok (YAccept, y) /\ y_nerrs y = 0 /\
  lemon_text 100 100 100 [] quiet true false Prop_LemonIndex.addr0 Prop_LemonIndex.addr0 t = Ok (Some (n, c)) /\
  LemonParModel.feed c (fun _ => None) 50 (ParseInit 100) (map Z.of_nat w) 1 = Ok p /\ LemonParModel.Parse c (fun _ => None) 50 p 0 (Tok 0) = Ok p' /\ In (EvSyntaxError m v) (p_log p').
Proof.
  exists file_ite. eexists. exists items_ite. do 12 eexists. exists [4; 2; 1; 3; 1]. split; [vm_compute; reflexivity|]. split; [Prop_LemonReprint.tokens|].
  split; [vm_compute; reflexivity|]. split; [vm_compute; reflexivity|]. split; [vm_compute; reflexivity|]. split; [vm_compute; reflexivity|]. split; [vm_compute; reflexivity|]. split; [reflexivity|].
  split; [vm_compute; reflexivity|]. split; [vm_compute; reflexivity|]. split; [vm_compute; reflexivity|]. split; [vm_compute; reflexivity|]. split; [vm_compute; reflexivity|]. split; [vm_compute; reflexivity|].
  vm_compute. do 4 right. left. reflexivity.
Qed.


(** The symbol error is printed as the token Tk_error, which is like any other one for lemon. After N N ; the parser of
    byacc has reported one error, recovered and accepted; the grammar that lemon reads has no error symbol at all. *)
Theorem C74_error_refuted : exists file t s src pr sv Y y g, byacc_lemon file = ROk t /\ read_file file = ROk s /\ pack_file false s = ROk (src, pr, sv) /\ byacc_generate 300 300 300 false src pr sv = Ok Y /\
  map b_name (firstn 3 (d_infos s)) = map zs ["error"; "N"; "';'"]%string /\ firstn 4 sv = [0; 256; 257; 59]%Z /\
  yyparse Y (fun i => nth i [257; 257; 59]%Z 0%Z) 100 (fresh []) = Ok (YAccept, y) /\ y_nerrs y = 1 /\
  LemonReadModel.Parse [] quiet t = Ok (Some g) /\ gr_err g = 0 /\ ~ In (zs "error") (map so_name (gr_syms g)) /\ In (zs "Tk_error") (map so_name (gr_syms g)).
Proof.
  exists (zs "%token N ';' %% p : N ';' | error ';' ;"). do 8 eexists. do 10 (split; [vm_compute; reflexivity|]). split; [intros X; vm_compute in X; intuition discriminate|vm_compute; tauto].
Qed.

(** Two tokens whose names become the same one are one token for lemon, without a message from either. *)
Theorem C74_names_refuted : exists file s t g, read_file file = ROk s /\ map b_name (firstn 3 (d_infos s)) = map zs ["error"; "Tk_if"; "if"]%string /\
  byacc_lemon file = ROk t /\ LemonReadModel.Parse [] quiet t = Ok (Some g) /\ gr_err g = 0 /\ filter (fun x => isupper (ch x 0)) (map so_name (gr_syms g)) = [zs "Tk_if"].
Proof. exists (zs "%token Tk_if if %% s : Tk_if if ;"). do 3 eexists. do 5 (split; [vm_compute; reflexivity|]). vm_compute. reflexivity. Qed.

(** A token that is a string is printed with its characters: what lemon then reads need not be a name. *)
Theorem C74_string_refuted : exists file s t g, read_file file = ROk s /\ byacc_lemon file = ROk t /\ LemonReadModel.Parse [] quiet t = Ok (Some g) /\ 0 < gr_err g.
Proof. exists (zs "%% s : ""=="" ;"). do 3 eexists. do 3 (split; [vm_compute; reflexivity|]). vm_compute. lia. Qed.

(** * Examples *)

(** [s : s '+' {..} N {..} | N | %prec '+'] with the code 300 for N. *)
Definition text74 : txt := zs "%token N .
%token Tk_PLUS .

%left /*1*/ Tk_PLUS .

%start_symbol s



s ::= s Tk_PLUS /*1L*/ N .
s ::= N .
s ::= /*empty*/ . [Tk_PLUS] /*1L*/
".
Lemma lhs_names : forall F x, is_lhs (file_facts F) x -> In x (map fst (file_rules F)).
Proof. intros F x H. apply ByaccFilePackProof.lhs_iff in H as (r & I). unfold file_grammar in I. apply in_map_iff in I as ((n & b) & E & I). injection E as -> _. apply in_map_iff. exists (x, b). auto. Qed.
Example C74_hypotheses : file_text Prop_ByaccFile.ex_F (ByaccScanModel.input Prop_ByaccFile.ex_file) /\ file_ok Prop_ByaccFile.ex_F /\ lemon_names Prop_ByaccFile.ex_F /\ byacc_lemon Prop_ByaccFile.ex_file = ROk text74.
Proof.
  split; [exact Prop_ByaccFile.ex_text|]. split; [exact Prop_ByaccFile.ex_ok|]. split; [|vm_compute; reflexivity]. constructor.
  - intros x T. apply Prop_ByaccEndToEnd.ex_tokens in T as [->|[->| ->]].
    + apply Prop_ByaccLemon.okt_lower; [reflexivity|repeat constructor|cbn; lia].
    + apply Prop_ByaccLemon.okt_upper; [reflexivity|repeat constructor|cbn; lia|reflexivity].
    + apply (Prop_ByaccLemon.okt_lit 43). unfold Prop_ByaccLemon.lit_ok. lia.
  - intros x H. apply lhs_names in H. vm_compute in H. assert (E : x = zs "s") by (destruct H as [<-|[<-|[<-|[]]]]; reflexivity). rewrite E. apply Prop_ByaccLemon.okv_lower; [reflexivity|constructor|cbn; lia|reflexivity|reflexivity].
  - intros n b x I M. assert (E : x = zs "'+'") by (vm_compute in I; destruct I as [I|[I|[I|[]]]]; injection I as _ <-; vm_compute in M; try discriminate M; injection M as <-; reflexivity). rewrite E.
    split; [vm_compute; tauto|intros H; apply lhs_names in H; vm_compute in H; intuition discriminate].
  - intros n b I. vm_compute in I. destruct I as [I|[I|[I|[]]]]; injection I as _ <-; vm_compute; lia.
Qed.

(** The file that lemon -y prints of the file of C60: back to lemon with byacc -E. *)
Definition F60 : bfile := LemonReprintProof.yacc_file false items60.
Definition back60 : txt := zs "%token PLUS .
%token MINUS .
%token SEMI .
%token NUM .
%token VAR .


%start_symbol p


p ::= e SEMI .

e ::= e PLUS t .
e ::= e MINUS t .
e ::= t .

t ::= NUM .
t ::= VAR .
".
Definition items74 : list item :=
  map (fun x => IToken [zs x]) ["PLUS"; "MINUS"; "SEMI"; "NUM"; "VAR"]%string ++
  [IText Gstart (zs "p"); IRule (zs "p") None (map elem0 ["e"; "SEMI"]%string) None None;
   IRule (zs "e") None (map elem0 ["e"; "PLUS"; "t"]%string) None None; IRule (zs "e") None (map elem0 ["e"; "MINUS"; "t"]%string) None None; IRule (zs "e") None [elem0 "t"] None None;
   IRule (zs "t") None [elem0 "NUM"] None None; IRule (zs "t") None [elem0 "VAR"] None None].
Lemma tokens60 : forall x, file_token F60 x -> In x (map zs ["error"; "PLUS"; "MINUS"; "SEMI"; "NUM"; "VAR"]%string).
Proof.
  intros x (I & NL). vm_compute in I. repeat (destruct I as [I|I]; [rewrite <- I; first [vm_compute; tauto|exfalso; apply NL; rewrite <- I; vm_compute; tauto]|]). destruct I.
Qed.
Example C74_agree_hypotheses : file_text F60 (ByaccScanModel.input Prop_LemonReprint.printed60) /\ file_ok F60 /\ codes_fit F60 /\ lemon_names F60 /\
  (forall n b, In (n, b) (file_rules F60) -> ~ In (goal_of F60) (part_syms b) /\ List.length (part_syms b) <= 128) /\
  byacc_lemon Prop_LemonReprint.printed60 = ROk back60 /\ declares [] back60 items74 /\ small_lists 100 100 (grammar_of false items74) /\ conflict_free (grammar_of false items74) /\ all_productive (grammar_of false items74) /\
  exists n c p p', lemon_text 100 100 100 [] quiet true false Prop_LemonIndex.addr0 Prop_LemonIndex.addr0 back60 = Ok (Some (n, c)) /\ YY_SHIFT_COUNT (g_tab c) = YY_MAX_SHIFT (g_tab c) /\
    LemonParModel.feed c (fun m => Some (m + 1)%Z) 50 (ParseInit 1) (map Z.of_nat (map (code_of false items74) toks60)) 1 = Ok p /\ LemonParModel.Parse c (fun m => Some (m + 1)%Z) 50 p 0 (Tok 0) = Ok p' /\ In EvAccept (p_log p').
Proof.
  assert (PN : Prop_LemonReprint.plain_name (ro_filename quiet)) by (split; intros I; vm_compute in I; intuition discriminate).
  assert (ONE : Prop_LemonReprint.one_place items60) by (intros lhs la rhs prec cd I; rules60 I; injection I as _ _ <- _ _; vm_compute; lia).
  destruct (Prop_LemonReprint.printed [] quiet text60 items60 declares60 (sf_shape _ _ sound60) (sf_new _ _ sound60) (sf_grammar _ _ sound60) PN) as (t & LY & IT & FT & NMS); [intros; apply ReprintFileProof.one_fits; eapply ONE; eauto|].
  assert (ET : t = Prop_LemonReprint.printed60) by (assert (E2 : LemonReprintModel.lemon_yacc [] quiet text60 = Ok (Some Prop_LemonReprint.printed60)) by (vm_compute; reflexivity); congruence). rewrite ET in IT, FT.
  assert (BF : forall lhs la rhs prec code, In (IRule lhs la rhs prec code) items60 -> LemonReprintProof.bars_fit (map (means items60) rhs)) by (intros; apply ReprintFileProof.one_fits; eapply ONE; eauto).
  split; [rewrite IT; exact FT|]. split; [apply ReprintFileProof.yacc_file_ok; [exact (sf_shape _ _ sound60)|exact (sf_grammar _ _ sound60)|exact NMS|exact (proj1 (sf_error _ _ sound60))|exact BF]|].
  split; [apply ReprintFileProof.yacc_codes_fit; [exact (sf_shape _ _ sound60)|exact NMS|exact BF]|]. split; [constructor|split].
  - intros x T. apply tokens60 in T. cbn [map In] in T.
    destruct T as [<-|T]; [apply Prop_ByaccLemon.okt_lower; [reflexivity|repeat constructor|cbn; lia]|].
    repeat (destruct T as [<-|T]; [apply Prop_ByaccLemon.okt_upper; [reflexivity|repeat constructor|cbn; lia|reflexivity]|]). destruct T.
  - intros x H. apply lhs_names in H. vm_compute in H. assert (E : x = zs "p" \/ x = zs "e" \/ x = zs "t") by (cbn; intuition). destruct E as [->|[->| ->]]; (apply Prop_ByaccLemon.okv_lower; [reflexivity|constructor|cbn; lia|reflexivity|reflexivity]).
  - intros n b x I M. exfalso. vm_compute in I. repeat (destruct I as [I|I]; [injection I as _ <-; vm_compute in M; discriminate M|]). destruct I.
  - intros n b I. vm_compute in I. repeat (destruct I as [I|I]; [injection I as _ <-; vm_compute; lia|]). destruct I.
  - intros n b I. vm_compute in I. repeat (destruct I as [I|I]; [injection I as _ <-; split; [intros X; vm_compute in X; intuition discriminate|vm_compute; lia]|]). destruct I.
  - split; [vm_compute; reflexivity|]. split; [Prop_LemonReprint.tokens|]. split; [small|]. split; [free|]. split.
    + set (G := grammar_of false items74).
      assert (P8 : derives G [ESym 8] [ESym 4]) by (apply (derives_rule G (SpecGrammar.mkRule 8 [ESym 4])); vm_compute; tauto).
      assert (P7 : derives G [ESym 7] [ESym 4]) by (eapply derives_trans; [apply (derives_rule G (SpecGrammar.mkRule 7 [ESym 8])); vm_compute; tauto|exact P8]).
      assert (P6 : derives G [ESym 6] [ESym 4; ESym 3]).
      { eapply derives_trans; [apply (derives_rule G (SpecGrammar.mkRule 6 [ESym 7; ESym 3])); vm_compute; tauto|]. exact (derives_app G [ESym 7] [ESym 4] [ESym 3] [ESym 3] P7 (derives_refl _ _)). }
      intros A [H1 H2]. vm_compute in H1, H2. assert (HA : A = 6 \/ A = 7 \/ A = 8) by lia. destruct HA as [->|[->| ->]].
      * exists [4; 3]. split; [repeat constructor|exact P6].
      * exists [4]. split; [repeat constructor|exact P7].
      * exists [4]. split; [repeat constructor|exact P8].
    + do 4 eexists. split; [vm_compute; reflexivity|]. split; [vm_compute; reflexivity|]. split; [vm_compute; reflexivity|]. split; [vm_compute; reflexivity|]. vm_compute. left. reflexivity.
Qed.
