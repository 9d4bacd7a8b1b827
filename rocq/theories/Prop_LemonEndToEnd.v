(** C60: from the text of a grammar file to the strings the generated parser accepts. *)
From Coq Require Import String List Arith ZArith Bool Lia.
Import ListNotations.
From Verif Require Import Base SpecGrammar SpecGrammarFacts CLib SpecConflict LemonSetModel LemonFirstModel LemonSortModel LemonStatesModel LemonCompressModel LemonReportModel LemonActionProof LemonParModel LemonGenProof LemonTabProof LemonSoundProof Prop_LemonTables Prop_LemonSound Prop_LemonComplete Prop_LemonTerminates
  LemonTableModel LemonTableProof LemonPreModel LemonActionModel LemonPipelineModel LemonReadModel LemonScanProof Prop_LemonScan SpecItems LemonReadProof SpecFile LemonIndexProof Prop_LemonRead Prop_LemonIndex.
Local Open Scope res_scope.

(** lemon.c 1735-1880 (main): read the file, index the symbols, and run the passes. *)
Definition lemon_text (sf ff cf : nat) (defs : list text) (o : ropts) (compress yacc : bool) (a1 a2 : nat -> nat -> nat) (z : text) : res (option (nat * gen)) :=
  r <- LemonReadModel.Parse defs o z ;;
  match r with
  | None => Ok None
  | Some g =>
      r <- to_grammar o compress yacc a1 a2 g ;;
      match r with
      | None => Ok None
      | Some (G, op, n) => c <- lemon_generate sf ff cf op G ;; Ok (Some (n, c))
      end
  end.

(** The grammar files the claim is about.  Beyond what C55 and C59 ask: fallbacks are not
    chained, "error" is not a left side or a token class, no right side uses the start symbol
    (lemon reports that) or is longer than 128 symbols. *)
Record sound_file (ign : bool) (items : list item) : Prop := {
  sf_shape : Forall item_shape items;
  sf_new : items_new ign items;
  sf_grammar : grammar_file ign items;
  sf_chain : forall x f, fallback_of items x = Some f -> fallback_of items f = None;
  sf_error : (forall la rhs prec cd, ~ In (IRule (zs "error") la rhs prec cd) items) /\ class_of items (zs "error") = None;
  sf_start : forall lhs la rhs prec cd e, In (IRule lhs la rhs prec cd) items -> In e rhs -> re_alts e = [] -> re_name e <> start_of ign items;
  sf_len : forall lhs la rhs prec cd, In (IRule lhs la rhs prec cd) items -> List.length rhs <= 128
}.

(** What the text is: the preprocessor leaves [z1] of it, and the tokens of [z1] are those of
    the items. *)
Definition declares (defs : list text) (z : text) (items : list item) : Prop :=
  exists z1 evs, preprocess_input defs z = Ok (PPdone z1) /\ lexes complete 1%Z z1 evs /\ texts evs (flat_map item_tokens items).

(** Token [x] can stand for token [y]. *)
Definition stands (items : list item) (x y : text) : Prop := y = x \/ fallback_of items x = Some y \/ wildcard_of items = Some y.

Section File.
Variables (sf ff cf : nat) (defs : list text) (o : ropts) (compress yacc : bool) (a1 a2 : nat -> nat -> nat) (z : text) (items : list item) (n : nat) (c : gen).
Notation ign := (ro_ignorePrec o).
Hypothesis D : declares defs z items.
Hypothesis SF : sound_file ign items.
Hypothesis RUN : lemon_text sf ff cf defs o compress yacc a1 a2 z = Ok (Some (n, c)).

Lemma start_ok : start_not_rhs (grammar_of ign items).
Proof.
  intros rl I J. apply rule_of_In in I as (lhs & la & rhs & prec & cd & I & ->). cbn [SpecFile.rule_of r_rhs grammar_of g_start] in J.
  apply in_map_iff in J as (m & E & J). apply in_map_iff in J as (e & <- & J). pose proof (means_known ign items (sf_shape _ _ SF) (sf_grammar _ _ SF) _ _ _ _ _ _ I J) as K.
  destruct (means items e) as [x|l] eqn:EM; [|discriminate]. cbn [elem_of] in E. injection E as E. apply code_inj in E; [|exact K|right; apply start_nonterm; [exact (sf_shape _ _ SF)|exact (sf_grammar _ _ SF)]].
  unfold means in EM. destruct (re_alts e) eqn:EA; [|discriminate]. destruct (class_of items (re_name e)); [discriminate|]. injection EM as EM. eapply (sf_start _ _ SF); [exact I|exact J|exact EA|congruence].
Qed.

Lemma len_ok : forall rl, In rl (g_rules (grammar_of ign items)) -> List.length (r_rhs rl) <= 128.
Proof. intros rl I. apply rule_of_In in I as (lhs & la & rhs & prec & cd & I & ->). cbn [SpecFile.rule_of r_rhs]. rewrite !map_length. eapply (sf_len _ _ SF); exact I. Qed.

Lemma settings : exists op, lemon_generate sf ff cf op (grammar_of ign items) = Ok c /\ n = start_message ign items /\ opts_ok (grammar_of ign items) op /\ o_compress op = compress /\
  o_wildcard op = option_map (code_of ign items) (wildcard_of items) /\ o_fallback op = fallbacks_of ign items /\ o_errsym op = error_of ign items.
Proof.
  destruct D as (z1 & evs & P & L & T). destruct (C55_text defs o z z1 evs P L) as (p & A & B).
  destruct (C59_grammar o items evs compress yacc a1 a2 (sf_shape _ _ SF) (sf_new _ _ SF) T (sf_grammar _ _ SF)) as (p' & PR & A' & B' & _). rewrite A in A'. injection A' as <-.
  unfold lemon_text in RUN. rewrite B in RUN. cbn [bind] in RUN. rewrite B' in RUN. cbn [bind] in RUN.
  match type of B' with _ = Ok (Some (_, ?op, _)) => set (OP := op) in * end. exists OP.
  destruct (lemon_generate sf ff cf OP (grammar_of ign items)) as [c'| |] eqn:E; [|discriminate|discriminate]. cbn [bind] in RUN. injection RUN as -> ->.
  split; [reflexivity|]. split; [reflexivity|]. split; [|repeat split; reflexivity]. destruct (sf_error _ _ SF) as (E1 & E2). apply C59_settings; [exact (sf_shape _ _ SF)|exact (sf_grammar _ _ SF)|exact (sf_chain _ _ SF)|exact E1|exact E2].
Qed.

Lemma term_position : forall x, In x (terms_of ign items) -> nth_error (zs "$" :: terms_of ign items) (code_of ign items x) = Some x.
Proof. intros x I. unfold code_of, order. rewrite (app_comm_cons _ _ (zs "$")). rewrite position_app1 by (now right). apply position_nth. now right. Qed.

Lemma matches_stands : forall op x s, o_wildcard op = option_map (code_of ign items) (wildcard_of items) -> o_fallback op = fallbacks_of ign items ->
  In x (terms_of ign items) -> matches op (code_of ign items x) s -> exists y, s = code_of ign items y /\ stands items x y /\ In y (terms_of ign items).
Proof.
  intros op x s W F I [M|[(M1 & M2)|(_ & M)]].
  - exists x. split; [congruence|]. split; [now left|exact I].
  - unfold LemonTabProof.fallback_of in M2. rewrite F in M2. unfold fallbacks_of in M2. destruct (existsb _ items); [|congruence].
    match type of M2 with nth _ (map ?h _) _ = _ => assert (N : nth (code_of ign items x) (map h (zs "$" :: terms_of ign items)) 0 = h x) by (apply nth_error_nth; rewrite nth_error_map, term_position by exact I; reflexivity) end.
    rewrite N in M2. destruct (fallback_of items x) as [f|] eqn:E; [|congruence]. exists f. split; [congruence|]. split; [right; left; exact E|].
    apply fallback_of_In in E as (ys & E & _). apply filter_In. split; [eapply mention_in; [exact E|]; now left|]. pose proof (sf_shape _ _ SF) as Q. rewrite Forall_forall in Q. specialize (Q _ E). exact (proj1 Q).
  - rewrite W in M. destruct (wildcard_of items) as [w|] eqn:E; [|discriminate]. injection M as M. exists w. split; [congruence|]. split; [right; right; exact E|].
    assert (WI : forall l y, wildcard_of l = Some y -> In (IWildcard y) l).
    { clear. induction l as [|i l IH]; intros y H; [discriminate|]. destruct i; cbn [wildcard_of] in H; try (right; apply IH; exact H). inversion H; subst. now left. }
    apply WI in E. apply filter_In. split; [eapply mention_in; [exact E|now left]|]. pose proof (sf_shape _ _ SF) as Q. rewrite Forall_forall in Q. exact (Q _ E).
Qed.
End File.

(** What the parser accepts is, after replacing tokens by their fallbacks or the wildcard, a
    sentence of the file. *)
Theorem C60_sound : forall sf ff cf defs o compress yacc a1 a2 z items n c grow cap fuel toks l, let ign := ro_ignorePrec o in
  declares defs z items -> sound_file ign items -> small_lists sf ff (grammar_of ign items) ->
  lemon_text sf ff cf defs o compress yacc a1 a2 z = Ok (Some (n, c)) ->
  Forall (fun x => In x (terms_of ign items)) toks -> accepts c grow cap fuel (map (code_of ign items) toks) l ->
  exists toks', Forall2 (stands items) toks toks' /\ nsentence ign items toks'.
Proof.
  intros sf ff cf defs o compress yacc a1 a2 z items n c grow cap fuel toks l ign D SF SM RUN FT (p & p' & HF & HP & AC & NOV & NSE & _).
  destruct (settings _ _ _ _ _ _ _ _ _ _ _ _ _ D SF RUN) as (op & HG & _ & OO & _ & W & F & _).
  assert (R : Forall (fun t => 0 < t < g_nterm (grammar_of ign items)) (map (code_of ign items) toks)).
  { apply Forall_forall. intros t I. apply in_map_iff in I as (x & <- & I). rewrite Forall_forall in FT. exact (term_code _ _ _ (FT x I)). }
  destruct (C14_accepted_is_sentence _ _ _ _ _ _ _ _ _ _ _ _ (C59_well_formed ign items (sf_shape _ _ SF) (sf_grammar _ _ SF)) SM (start_ok o items SF) OO (len_ok o items SF) HG R HF HP AC NOV NSE) as (toks2 & _ & _ & M & SE & _).
  assert (X : exists toks', toks2 = map (code_of ign items) toks' /\ Forall2 (stands items) toks toks' /\ Forall (fun x => In x (terms_of ign items)) toks').
  { clear HF SE R RUN. remember (map (code_of ign items) toks) as cs eqn:EC. revert toks EC FT. induction M as [|t t2 ts ts2 M _ IH]; intros toks EC FT.
    - destruct toks; [|discriminate]. exists []. repeat split; constructor.
    - destruct toks as [|x toks]; [discriminate|]. cbn [map] in EC. injection EC as -> EC. inversion FT as [|? ? F1 F2]; subst. destruct (IH toks eq_refl F2) as (toks' & -> & A & B).
      destruct (matches_stands o items SF op x t2 W F F1 M) as (y & -> & C & E). exists (y :: toks'). split; [reflexivity|]. split; constructor; auto. }
  destruct X as (toks' & -> & A & B). exists toks'. split; [exact A|]. apply (proj1 (proj2 (C59_language ign items (sf_shape _ _ SF) (sf_grammar _ _ SF)))); auto.
Qed.
Print Assumptions C60_sound.

Lemma no_fallbacks : forall ign items, (forall x, fallback_of items x = None) -> fallbacks_of ign items = None.
Proof.
  intros ign items ND1. unfold fallbacks_of.
  destruct (existsb _ items) eqn:E; [|reflexivity]. exfalso. apply existsb_exists in E as (i & I & E). destruct i as [| |f [|y ys]| | | | | | |]; try discriminate.
  assert (X : forall x ys0 l, In (IFallback f ys0) l -> In x ys0 -> fallback_of l x <> None).
  { clear. intros x ys0. induction l as [|i l IH]; intros I J; [destruct I|]. destruct I as [->|I].
    - cbn [fallback_of]. assert (M : mem x ys0 = true) by (apply mem_ok; exact J). rewrite M. discriminate.
    - destruct i; cbn [fallback_of]; try (apply IH; auto; fail). destruct (mem x l0); [discriminate|]. apply IH; auto. }
  eapply X; [exact I|now left|apply ND1].
Qed.

(** Every sentence of a file whose grammar has no LALR(1) conflicts is accepted, given enough
    stack, when yy_shift_ofst covers all states and the tables are not compressed or the file
    has no %fallback and no reduction has the %wildcard as a lookahead. *)
Theorem C60_complete : forall sf ff cf defs o compress yacc a1 a2 z items n c toks, let ign := ro_ignorePrec o in
  declares defs z items -> sound_file ign items -> small_lists sf ff (grammar_of ign items) ->
  lemon_text sf ff cf defs o compress yacc a1 a2 z = Ok (Some (n, c)) ->
  compress = false \/ (forall x, fallback_of items x = None) /\ (forall w, wildcard_of items = Some w -> never_reduced_on (grammar_of ign items) (code_of ign items w)) ->
  YY_SHIFT_COUNT (g_tab c) = YY_MAX_SHIFT (g_tab c) -> conflict_free (grammar_of ign items) ->
  nsentence ign items toks ->
  exists K N, forall grow cap fuel, stack_for K grow cap -> N <= fuel -> exists l, accepts c grow cap fuel (map (code_of ign items) toks) l.
Proof.
  intros sf ff cf defs o compress yacc a1 a2 z items n c toks ign D SF SM RUN ND FULL CF SE.
  destruct (settings _ _ _ _ _ _ _ _ _ _ _ _ _ D SF RUN) as (op & HG & _ & OO & CO & W & F & _).
  destruct (C59_language ign items (sf_shape _ _ SF) (sf_grammar _ _ SF)) as (L1 & L2 & _). pose proof (L1 _ SE) as FT.
  eapply C15_complete_partial; [exact (C59_well_formed ign items (sf_shape _ _ SF) (sf_grammar _ _ SF))|exact SM|exact (start_ok o items SF)|exact OO|exact (len_ok o items SF)|exact HG| |exact FULL|exact CF|apply (L2 _ FT); exact SE|].
  - destruct ND as [ND|(ND1 & ND2)]; [left; congruence|right]. rewrite W, F. split; [now apply no_fallbacks|]. destruct (wildcard_of items) as [w|]; intros v E; [|discriminate]. injection E as <-. now apply ND2.
  - intros I. apply in_map_iff in I as (x & E & I). rewrite Forall_forall in FT. pose proof (term_code _ _ _ (FT x I)). lia.
Qed.
Print Assumptions C60_complete.

(** If moreover the file has no %fallback, no %wildcard and no symbol error, and all its
    nonterminals derive strings of tokens, then on a stack that can grow the parser ends on
    every string of tokens and accepts exactly the sentences of the file. *)
Theorem C60_decides : forall sf ff cf defs o compress yacc a1 a2 z items n c, let ign := ro_ignorePrec o in
  declares defs z items -> sound_file ign items -> small_lists sf ff (grammar_of ign items) ->
  lemon_text sf ff cf defs o compress yacc a1 a2 z = Ok (Some (n, c)) ->
  (forall x, fallback_of items x = None) -> wildcard_of items = None -> ~ In (zs "error") (symbols_of ign items) ->
  YY_SHIFT_COUNT (g_tab c) = YY_MAX_SHIFT (g_tab c) -> conflict_free (grammar_of ign items) -> all_productive (grammar_of ign items) ->
  forall grow cap toks, (forall m, (1 <= m)%Z -> exists m', grow m = Some m' /\ (m < m')%Z) -> (1 <= cap)%Z -> Forall (fun x => In x (terms_of ign items)) toks ->
  exists N p p', forall fuel, N <= fuel ->
    LemonParModel.feed c grow fuel (ParseInit cap) (map Z.of_nat (map (code_of ign items) toks)) 1 = Ok p /\ LemonParModel.Parse c grow fuel p 0 (Tok 0) = Ok p' /\
    (nsentence ign items toks <-> In EvAccept (p_log p') /\ ~ In EvOverflow (p_log p') /\ forall m v, ~ In (EvSyntaxError m v) (p_log p')).
Proof.
  intros sf ff cf defs o compress yacc a1 a2 z items n c ign D SF SM RUN ND1 ND2 NERR FULL CF AP grow cap toks GR CP FT.
  destruct (settings _ _ _ _ _ _ _ _ _ _ _ _ _ D SF RUN) as (op & HG & _ & OO & CO & W & F & ER).
  destruct (C59_language ign items (sf_shape _ _ SF) (sf_grammar _ _ SF)) as (_ & L2 & _).
  assert (NE : o_errsym op = None).
  { rewrite ER. unfold error_of. destruct (mem _ _) eqn:M; [|reflexivity]. apply mem_ok in M. contradiction. }
  assert (R : Forall (fun t => 0 < t < g_nterm (grammar_of ign items)) (map (code_of ign items) toks)).
  { apply Forall_forall. intros t I. apply in_map_iff in I as (x & <- & I). rewrite Forall_forall in FT. exact (term_code _ _ _ (FT x I)). }
  destruct (C15_decides sf ff cf op (grammar_of ign items) c (C59_well_formed ign items (sf_shape _ _ SF) (sf_grammar _ _ SF)) SM (start_ok o items SF) OO (len_ok o items SF) HG NE AP CF FULL) with (grow := grow) (cap := cap) (toks := map (code_of ign items) toks) as (N & p & p' & H); [rewrite F; now apply no_fallbacks|rewrite W, ND2; reflexivity|exact GR|exact CP|exact R|].
  exists N, p, p'. intros fuel LF. destruct (H fuel LF) as (H1 & H2 & H3). split; [exact H1|]. split; [exact H2|]. rewrite <- H3. symmetry. apply L2. exact FT.
Qed.
Print Assumptions C60_decides.

(** ** Example *)
Definition text60 : text := zs "%ifdef OLD
%name Old
%endif
%token_class op PLUS MINUS. // both
p ::= e(X) SEMI. { show(X); }
e ::= e op t.
e ::= t.
t(R) ::= NUM|VAR(N). { R = N; }
".
Definition items60 : list item :=
  [IClass (zs "op") [zs "PLUS"; zs "MINUS"];
   IRule (zs "p") None [mkRelem (zs "e") [] (Some (zs "X")); elem0 "SEMI"] None (Some (zs "{ show(X); "));
   IRule (zs "e") None [elem0 "e"; elem0 "op"; elem0 "t"] None None; IRule (zs "e") None [elem0 "t"] None None;
   IRule (zs "t") (Some (zs "R")) [mkRelem (zs "NUM") [zs "VAR"] (Some (zs "N"))] None (Some (zs "{ R = N; "))].

Definition z60 := Eval vm_compute in match preprocess_input [] text60 with Ok (PPdone z) => z | _ => [] end.
Definition c60 := Eval vm_compute in match lemon_text 100 100 100 [] quiet true false addr0 addr0 text60 with Ok (Some (_, c)) => c | _ => exc14 end.
Definition toks60 : list text := map zs ["NUM"; "MINUS"; "VAR"; "SEMI"]%string.

Lemma declares60 : declares [] text60 items60.
Proof.
  exists z60. eexists. split; [vm_compute; reflexivity|]. split; [apply C54_tokens; split; [vm_compute; reflexivity|cbn; intuition discriminate]|].
  unfold texts. vm_compute. repeat constructor; eexists; reflexivity.
Qed.

Ltac rules60 I := unfold items60 in I; cbn [In] in I; repeat (destruct I as [I|I]; [try discriminate I|]); try contradiction.

Lemma sound60 : sound_file false items60.
Proof.
  constructor.
  - unfold items60, elem0, item_shape, relem_ok, opt_ok, upper, lower, alpha, arg_ok. repeat apply Forall_cons; try apply Forall_nil;
    repeat match goal with
    | |- _ /\ _ => split
    | |- Forall _ [] => constructor
    | |- Forall _ (_ :: _) => constructor
    | |- True => exact Logic.I
    | |- _ -> _ => intros
    | H : re_alts _ <> [] |- _ => first [now destruct H|clear H; cbn [re_alts re_name]]
    | |- match _ with Some _ => _ | None => _ end => cbn [re_alias]
    | |- isupper _ = true => reflexivity
    | |- islower _ = true => reflexivity
    | |- isalpha _ = true => reflexivity
    | |- ch _ 0 = 123%Z => reflexivity
    | |- _ \/ _ => first [left; reflexivity|right; left; reflexivity|right; right; reflexivity]
    end.
  - intros pre i post E. refine (news_ok false items60 [] _ pre i post E). clear. unfold items60. cbn [news item_new app]. repeat match goal with |- _ /\ _ => split | |- True => exact Logic.I | |- _ -> False => intros X; vm_compute in X; intuition discriminate | |- ~ In _ _ => intros X; vm_compute in X; intuition discriminate | |- forall x, _ => intros x; cbn [In]; intuition; subst; reflexivity | |- _ -> _ => intros _ | |- _ <= _ => cbn; lia | |- NoDup _ => repeat constructor; cbn; intuition discriminate | |- _ = None => reflexivity end.
  - constructor.
    + eexists. split; [right; left; reflexivity|reflexivity].
    + intros lhs la rhs prec cd I. rules60 I; injection I as <- _ _ _ _; reflexivity.
    + intros x E. discriminate E.
    + intros c l I. rules60 I. injection I as <- <-. discriminate.
  - intros x f H. discriminate H.
  - split; [|reflexivity]. intros la rhs prec cd I. rules60 I.
  - intros lhs la rhs prec cd e I J _. rules60 I; injection I as _ _ <- _ _; cbn [In] in J; repeat (destruct J as [<-|J]; [intros X; vm_compute in X; discriminate X|]); destruct J.
  - intros lhs la rhs prec cd I. rules60 I; injection I as _ _ <- _ _; cbn; lia.
Qed.

Example C60_hypotheses : declares [] text60 items60 /\ sound_file false items60 /\ small_lists 100 100 (grammar_of false items60) /\
  lemon_text 100 100 100 [] quiet true false addr0 addr0 text60 = Ok (Some (0, c60)) /\ (forall x, fallback_of items60 x = None) /\ wildcard_of items60 = None /\
  YY_SHIFT_COUNT (g_tab c60) = YY_MAX_SHIFT (g_tab c60) /\ conflict_free (grammar_of false items60) /\ nsentence false items60 toks60 /\
  Forall (fun x => In x (terms_of false items60)) toks60 /\ exists l, accepts c60 (fun _ => None) 50 100 (map (code_of false items60) toks60) l.
Proof.
  split; [exact declares60|]. split; [exact sound60|]. split; [small|]. split; [vm_compute; reflexivity|]. split; [reflexivity|]. split; [reflexivity|]. split; [vm_compute; reflexivity|].
  split; [free|].
  assert (R : forall k lhs la rhs prec cd u v, nth_error items60 k = Some (IRule lhs la rhs prec cd) -> nstep items60 (u ++ NSym lhs :: v) (u ++ map (means items60) rhs ++ v)).
  { intros. eapply ns_rule. eapply nth_error_In; eauto. }
  split.
  { split; [repeat constructor|].
    eapply star_step; [exact (R 1 _ _ _ _ _ [] [] eq_refl)|].
    eapply star_step; [exact (R 2 _ _ _ _ _ [] [NSym (zs "SEMI")] eq_refl)|].
    eapply star_step; [exact (R 3 _ _ _ _ _ [] [NAlt [zs "PLUS"; zs "MINUS"]; NSym (zs "t"); NSym (zs "SEMI")] eq_refl)|].
    eapply star_step; [exact (R 4 _ _ _ _ _ [] [NAlt [zs "PLUS"; zs "MINUS"]; NSym (zs "t"); NSym (zs "SEMI")] eq_refl)|].
    eapply star_step; [exact (R 4 _ _ _ _ _ [NAlt [zs "NUM"; zs "VAR"]; NAlt [zs "PLUS"; zs "MINUS"]] [NSym (zs "SEMI")] eq_refl)|].
    eapply star_step; [exact (ns_alt _ [] [NAlt [zs "PLUS"; zs "MINUS"]; NAlt [zs "NUM"; zs "VAR"]; NSym (zs "SEMI")] [zs "NUM"; zs "VAR"] (zs "NUM") (or_introl eq_refl))|].
    eapply star_step; [exact (ns_alt _ [NSym (zs "NUM")] [NAlt [zs "NUM"; zs "VAR"]; NSym (zs "SEMI")] [zs "PLUS"; zs "MINUS"] (zs "MINUS") (or_intror (or_introl eq_refl)))|].
    eapply star_step; [exact (ns_alt _ [NSym (zs "NUM"); NSym (zs "MINUS")] [NSym (zs "SEMI")] [zs "NUM"; zs "VAR"] (zs "VAR") (or_intror (or_introl eq_refl)))|]. apply star_refl. }
  split; [vm_compute; repeat constructor; tauto|].
  do 3 eexists. split; [vm_compute; reflexivity|]. split; [vm_compute; reflexivity|]. no_events. reflexivity.
Qed.

(** The same file for C60_decides: NUM VAR is not a sentence, and the parser ends with a syntax error. *)
Example C60_decides_hypotheses : ~ In (zs "error") (symbols_of false items60) /\ all_productive (grammar_of false items60) /\
  exists p, LemonParModel.feed c60 (fun n => Some (n + 1)%Z) 100 (ParseInit 1) (map Z.of_nat (map (code_of false items60) [zs "NUM"; zs "VAR"])) 1 = Ok p /\ exists m v, In (EvSyntaxError m v) (p_log p).
Proof.
  split; [vm_compute; intuition discriminate|]. split.
  - set (G := grammar_of false items60).
    assert (P8 : derives G [ESym 8] [ESym 4]).
    { eapply derives_trans; [apply (derives_rule G (mkRule 8 [EMulti [4; 5]])); vm_compute; tauto|]. apply (star_step _ _ [ESym 4]); [|apply star_refl]. apply (step_multi G [] [] [4; 5] 4). now left. }
    assert (P7 : derives G [ESym 7] [ESym 4]) by (eapply derives_trans; [apply (derives_rule G (mkRule 7 [ESym 8])); vm_compute; tauto|exact P8]).
    assert (P6 : derives G [ESym 6] [ESym 4; ESym 3]).
    { eapply derives_trans; [apply (derives_rule G (mkRule 6 [ESym 7; ESym 3])); vm_compute; tauto|]. exact (derives_app G [ESym 7] [ESym 4] [ESym 3] [ESym 3] P7 (derives_refl _ _)). }
    intros A [H1 H2]. vm_compute in H1, H2. assert (HA : A = 6 \/ A = 7 \/ A = 8) by lia. destruct HA as [->|[->| ->]].
    + exists [4; 3]. split; [repeat constructor|exact P6].
    + exists [4]. split; [repeat constructor|exact P7].
    + exists [4]. split; [repeat constructor|exact P8].
  - eexists. split; [vm_compute; reflexivity|]. do 2 eexists. vm_compute. right. left. reflexivity.
Qed.
