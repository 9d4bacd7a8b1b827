(** C70: byacc from the text of the grammar file to the parser. *)
From Coq Require Import String List Arith NArith ZArith Lia Bool.
Import ListNotations.
From Verif Require Import Base CLib SpecGrammar SpecGrammarFacts SpecLRFacts SpecLR0 SpecConflict SpecByacc ByaccLr0Model ByaccParModel ByaccActionsProof ByaccOutputModel ByaccTablesProof
  ByaccParserModel ByaccParserProof Prop_ByaccParser Prop_ByaccComplete Prop_ByaccTerminates Prop_LemonTables Prop_LemonComplete.
From Verif Require Import LemonTableModel LemonPreModel LemonCodeModel ByaccReaderModel Prop_ByaccReader ByaccRulesModel Prop_ByaccMidrule ByaccScanModel ByaccPackModel
  ByaccPackFileProof Prop_ByaccLiteral SpecByaccFile SpecByaccRules ByaccTableProof ByaccFileProof ByaccFilePackProof Prop_ByaccFile.

(** A sentence of the packed grammar is a string of the file's own rules. *)
Lemma packed_language : forall F file s src (idx : bucket -> nat), file_text F (input file) -> file_ok F -> read_file file = ROk s ->
  let N := num (file_facts F) in let grs := flat_map group_rules (conv_groups N 0 (f_groups F)) in
  b_rules src = rename idx (map fst (rules_out 0 grs)) -> wf_src src -> (forall a b, known F a -> known F b -> idx a = idx b -> a = b) ->
  idx (Name (N (goal_of F))) = S (b_ntokens src) -> In (goal_of F) (names (file_facts F)) ->
  forall w, Forall (fun n => In n (names (file_facts F))) w -> Forall (fun n => idx (Name (N n)) < b_ntokens src) w ->
  (sentence (user src) (map (fun n => idx (Name (N n))) w) <-> yields (file_grammar F) [goal_of F] w).
Proof.
  intros F file s src idx FT OK RF N grs ER WS INJ IG Ig w FW FT2.
  rewrite (sentence_yields src _ WS). rewrite ER, <- IG.
  assert (KW : Forall (known F) (map (fun n => Name (N n)) w)) by (apply Forall_forall; intros b Ib; apply in_map_iff in Ib; destruct Ib as (n & <- & In0); rewrite Forall_forall in FW; exists n; split; [now apply FW|reflexivity]).
  replace (map (fun n => idx (Name (N n))) w) with (map idx (map (fun n => Name (N n)) w)) by (now rewrite map_map).
  assert (TR : Forall (fun t => t < b_ntokens src) (map idx (map (fun n => Name (N n)) w))) by (rewrite map_map; apply Forall_forall; intros t It; apply in_map_iff in It; destruct It as (n & <- & In0); rewrite Forall_forall in FT2; now apply FT2).
  assert (KG : Forall (known F) [Name (N (goal_of F))]) by (constructor; [exists (goal_of F); auto|constructor]).
  assert (KR : forall x r, In (x, r) (map fst (rules_out 0 grs)) -> known F x /\ Forall (known F) r).
  { intros x r I. apply in_map_iff in I. destruct I as (((x0 & r0) & m) & E & I). cbn [fst] in E. injection E as -> ->. destruct (rules_known F _ _ _ I) as (H1 & H2 & _). auto. }
  pose proof (yields_rename _ _ idx (known F) _ INJ KR [Name (N (goal_of F))] _ KG KW) as Y1. cbn [map] in Y1.
  destruct (file_read F file FT OK) as (s0 & g & gs & tx & h' & _ & _ & CG & _). fold N in CG. destruct (C46_expansion g gs) as (st & E1 & E2 & _).
  assert (GR : group_rules g ++ flat_map group_rules gs = grs) by (unfold grs; rewrite CG; reflexivity). rewrite GR in E2.
  pose proof (C46_same_strings g gs st _ E1 E2 (N (goal_of F)) (map (fun n => Name (N n)) w)) as Y2. rewrite GR in Y2. unfold grs at 2 in Y2. rewrite plain_file in Y2.
  pose proof (yields_rename _ _ N (fun n => In n (names (file_facts F))) (file_grammar F) (N_inj F) (grammar_in F) [goal_of F] w) as Y3. cbn [map] in Y3.
  assert (Y4 : yields (file_grammar F) [goal_of F] w <-> yields (rename N (file_grammar F)) [N (goal_of F)] (map N w)) by (apply Y3; [constructor; [exact Ig|constructor]|exact FW]).
  rewrite Y4, <- Y1, Y2. split.
  - intros (_ & v & E & Y). replace (map N w) with v; [exact Y|]. apply (f_equal erase) in E. assert (EN : forall l, erase (map Name l) = l) by (induction l as [|a l IH]; [reflexivity|cbn [map erase flat_map app]; f_equal; exact IH]).
    rewrite EN in E. rewrite <- E, <- (map_map N Name). apply EN.
  - intros Y. split; [exact TR|]. exists (map N w). split; [now rewrite map_map|exact Y].
Qed.

(** The other way round: a sentence of the packed grammar consists of tokens of the file. *)
Lemma packed_names : forall F file s src (idx : bucket -> nat), file_text F (input file) -> file_ok F -> read_file file = ROk s ->
  let N := num (file_facts F) in let grs := flat_map group_rules (conv_groups N 0 (f_groups F)) in
  b_rules src = rename idx (map fst (rules_out 0 grs)) -> wf_src src -> (forall a b, known F a -> known F b -> idx a = idx b -> a = b) ->
  idx (Name (N (goal_of F))) = S (b_ntokens src) -> In (goal_of F) (names (file_facts F)) ->
  forall t, sentence (user src) t -> exists w, t = map (fun n => idx (Name (N n))) w /\ Forall (fun n => In n (names (file_facts F))) w.
Proof.
  intros F file s src idx FT OK RF N grs ER WS INJ IG Ig t SE. apply (sentence_yields src _ WS) in SE. destruct SE as (_ & Y). rewrite ER, <- IG in Y.
  assert (KG : Forall (known F) [Name (N (goal_of F))]) by (constructor; [exists (goal_of F); auto|constructor]).
  assert (KR : forall x r, In (x, r) (map fst (rules_out 0 grs)) -> known F x /\ Forall (known F) r).
  { intros x r I. apply in_map_iff in I. destruct I as (((x0 & r0) & m) & E & I). cbn [fst] in E. injection E as -> ->. destruct (rules_known F _ _ _ I) as (H1 & H2 & _). auto. }
  destruct (yields_unmap _ _ idx (known F) _ INJ KR _ _ Y [Name (N (goal_of F))] eq_refl KG) as (bs & -> & KB & Y2).
  destruct (file_read F file FT OK) as (s0 & g & gs & tx & h' & _ & _ & CG & _). fold N in CG. destruct (C46_expansion g gs) as (st & E1 & E2 & _).
  assert (GR : group_rules g ++ flat_map group_rules gs = grs) by (unfold grs; rewrite CG; reflexivity). rewrite GR in E2.
  apply (C46_same_strings g gs st _ E1 E2) in Y2. destruct Y2 as (v & -> & _). clear - KB. induction v as [|i v IH]; [exists []; split; [reflexivity|constructor]|].
  destruct (Forall_inv KB) as (n & In0 & E). destruct IH as (w & E2 & FW); [exact (Forall_inv_tail KB)|]. exists (n :: w). split; [|now constructor]. cbn [map]. rewrite E2, E. reflexivity.
Qed.

(** The whole of byacc: the codes of the tokens are those the file gives, or 256 for error, or new ones above 256,
    and different; and if the grammar of the file is without conflicts then yyparse, called with the codes of a
    string of tokens, returns 0 without an error message exactly for the strings of the rules of the file. *)
Theorem C70_language : forall z F file, file_text F (input file) -> file_ok F -> codes_fit F ->
  exists s src pr sv (code : txt -> Z), read_file file = ROk s /\ pack_file z s = ROk (src, pr, sv) /\
    (forall n, file_token F n -> match code_of_sym (file_facts F) n with Some v => code n = v | None => if teq n (zs "error") then code n = 256%Z else (256 < code n)%Z end) /\
    (forall n m, file_token F n -> file_token F m -> code n = code m -> n = m) /\
    forall f1 f2 f3 flag Y, byacc_generate f1 f2 f3 flag src pr sv = Ok Y -> conflict_free (aug src) ->
    forall w lex mem, Forall (file_token F) w -> (forall i n, nth_error w i = Some n -> lex i = code n) -> (lex (List.length w) <= 0)%Z ->
      (forall fuel c, yyparse Y lex fuel (fresh mem) <> Ok (YOverflow, c)) ->
      (yields (file_grammar F) [goal_of F] w <-> exists fuel c, yyparse Y lex fuel (fresh mem) = Ok (YAccept, c) /\ y_nerrs c = 0).
Proof.
  intros z F file FT OK CF. destruct (file_packed F z file FT OK CF) as (s & src & pr & sv & idx & RF & PF & ER & WS & WP & WV & V0 & INJ & IG & Ig & NM & GN & CD & _).
  exists s, src, pr, sv, (fun n => nth (idx (Name (num (file_facts F) n))) sv 0%Z). split; [exact RF|]. split; [exact PF|]. split; [exact CD|]. split.
  { intros n m (In0 & Ln) (Im & Lm) E. destruct (NM n In0) as (R1 & _). destruct (NM m Im) as (R2 & _). specialize (R1 Ln). specialize (R2 Lm). apply (N_inj F); auto.
    apply (sv_inj _ _ WV) in E; [|apply R1|apply R2]. apply INJ in E; [congruence|exists n; auto|exists m; auto]. }
  intros f1 f2 f3 flag Y EY CFR w lex mem FW LX LE NO.
  assert (FN : Forall (fun n => In n (names (file_facts F))) w) by (eapply Forall_impl; [|exact FW]; intros n Tn; apply Tn).
  assert (FR : Forall (fun n => 0 < idx (Name (num (file_facts F) n)) < b_ntokens src) w) by (eapply Forall_impl; [|exact FW]; intros n (In0 & Ln); destruct (NM n In0) as (R1 & _); now apply R1).
  rewrite <- (packed_language F file s src idx FT OK RF ER WS INJ IG Ig w FN) by (eapply Forall_impl; [|exact FR]; cbn beta; lia).
  apply (C52_language src f1 f2 f3 flag pr sv Y WS WP WV V0 EY CFR); auto.
  - apply Forall_forall. intros t It. apply in_map_iff in It. destruct It as (n & <- & In0). rewrite Forall_forall in FR. now apply FR.
  - split; [|now rewrite map_length]. intros i t Ei. rewrite nth_error_map in Ei. destruct (nth_error w i) as [n|] eqn:En; [|discriminate]. injection Ei as <-. now apply LX.
Qed.
Print Assumptions C70_language.

(** If moreover every nonterminal derives a string of tokens, yyparse returns on every string of tokens, and unless
    it ran out of stack the strings of the rules are those without an error message; for them it returns 0. *)
Theorem C70_decides : forall z F file, file_text F (input file) -> file_ok F -> codes_fit F ->
  exists s src pr sv (code : txt -> Z), read_file file = ROk s /\ pack_file z s = ROk (src, pr, sv) /\
    (forall n, file_token F n -> match code_of_sym (file_facts F) n with Some v => code n = v | None => if teq n (zs "error") then code n = 256%Z else (256 < code n)%Z end) /\
    forall f1 f2 f3 flag Y, byacc_generate f1 f2 f3 flag src pr sv = Ok Y -> all_productive (aug src) -> conflict_free (aug src) ->
    forall w lex mem, Forall (file_token F) w -> (forall i n, nth_error w i = Some n -> lex i = code n) -> (lex (List.length w) <= 0)%Z ->
    exists fuel e c, (forall fuel', fuel <= fuel' -> yyparse Y lex fuel' (fresh mem) = Ok (e, c)) /\
      (e = YOverflow /\ (In false mem \/ YYMAXDEPTH <= List.length (ks_st (y_stk c))) \/
       e <> YOverflow /\ (yields (file_grammar F) [goal_of F] w <-> y_nerrs c = 0) /\ (yields (file_grammar F) [goal_of F] w -> e = YAccept)).
Proof.
  intros z F file FT OK CF. destruct (file_packed F z file FT OK CF) as (s & src & pr & sv & idx & RF & PF & ER & WS & WP & WV & V0 & INJ & IG & Ig & NM & GN & CD & _).
  exists s, src, pr, sv, (fun n => nth (idx (Name (num (file_facts F) n))) sv 0%Z). split; [exact RF|]. split; [exact PF|]. split; [exact CD|].
  intros f1 f2 f3 flag Y EY AP CFR w lex mem FW LX LE.
  assert (FN : Forall (fun n => In n (names (file_facts F))) w) by (eapply Forall_impl; [|exact FW]; intros n Tn; apply Tn).
  assert (FR : Forall (fun n => 0 < idx (Name (num (file_facts F) n)) < b_ntokens src) w) by (eapply Forall_impl; [|exact FW]; intros n (In0 & Ln); destruct (NM n In0) as (R1 & _); now apply R1).
  assert (PL : sentence (user src) (map (fun n => idx (Name (num (file_facts F) n))) w) <-> yields (file_grammar F) [goal_of F] w).
  { apply (packed_language F file s src idx FT OK RF ER WS INJ IG Ig w FN). eapply Forall_impl; [|exact FR]; cbn beta; lia. }
  destruct (C71_decides src f1 f2 f3 flag pr sv Y WS WP WV V0 EY AP CFR (map (fun n => idx (Name (num (file_facts F) n))) w) lex mem) as (fuel & e & c & H1 & H2).
  - apply Forall_forall. intros t It. apply in_map_iff in It. destruct It as (n & <- & In0). rewrite Forall_forall in FR. now apply FR.
  - split; [|now rewrite map_length]. intros i t Ei. rewrite nth_error_map in Ei. destruct (nth_error w i) as [n|] eqn:En; [|discriminate]. injection Ei as <-. now apply LX.
  - exists fuel, e, c. split; [exact H1|]. rewrite <- PL. exact H2.
Qed.
Print Assumptions C70_decides.

(** With conflicts too, what yyparse accepts without an error message is a string of the rules of the file. *)
Theorem C70_accepted : forall z F file, file_text F (input file) -> file_ok F -> codes_fit F ->
  exists s src pr sv (code : txt -> Z), read_file file = ROk s /\ pack_file z s = ROk (src, pr, sv) /\
    (forall n, file_token F n -> match code_of_sym (file_facts F) n with Some v => code n = v | None => if teq n (zs "error") then code n = 256%Z else (256 < code n)%Z end) /\
    forall f1 f2 f3 flag Y, byacc_generate f1 f2 f3 flag src pr sv = Ok Y ->
    forall lex mem fuel c, yyparse Y lex fuel (fresh mem) = Ok (YAccept, c) -> y_nerrs c = 0 ->
    exists w, Forall (file_token F) w /\ yields (file_grammar F) [goal_of F] w /\ map lex (seq 0 (List.length w)) = map code w /\ (lex (List.length w) <= 0)%Z.
Proof.
  intros z F file FT OK CF. destruct (file_packed F z file FT OK CF) as (s & src & pr & sv & idx & RF & PF & ER & WS & WP & WV & V0 & INJ & IG & Ig & NM & GN & CD & _).
  exists s, src, pr, sv, (fun n => nth (idx (Name (num (file_facts F) n))) sv 0%Z). split; [exact RF|]. split; [exact PF|]. split; [exact CD|].
  intros f1 f2 f3 flag Y EY lex mem fuel c R N0. destruct (C48_accepted src f1 f2 f3 flag pr sv Y WS WP WV V0 EY lex mem fuel c R N0) as (n & toks & _ & SE & _ & M & LN).
  destruct (packed_names F file s src idx FT OK RF ER WS INJ IG Ig toks SE) as (w & -> & FW). exists w. rewrite map_map in M.
  assert (LW : List.length w = n) by (apply (f_equal (@List.length _)) in M; rewrite !map_length, seq_length in M; exact M).
  assert (FR : Forall (fun n => idx (Name (num (file_facts F) n)) < b_ntokens src) w).
  { apply Forall_forall. intros m Im. destruct SE as (FS & _). rewrite Forall_forall in FS. apply (FS (idx (Name (num (file_facts F) m)))). apply in_map_iff. exists m. auto. }
  split; [|split; [|split]].
  - apply Forall_forall. intros m Im. rewrite Forall_forall in FW, FR. split; [now apply FW|]. intros Lm. destruct (NM m (FW m Im)) as (_ & R2 & _). specialize (R2 Lm). specialize (FR m Im). lia.
  - now apply (packed_language F file s src idx FT OK RF ER WS INJ IG Ig w FW FR).
  - rewrite LW. symmetry. exact M.
  - now rewrite LW.
Qed.
Print Assumptions C70_accepted.

(** * Precedences *)

Lemma rules_out_nth : forall rs k i l b, nth_error rs i = Some (l, b) ->
  nth_error (rules_out k rs) (i + List.length (flat_map (fun r => embedded (snd r)) (firstn (S i) rs))) =
  Some (Name l, replaced (k + List.length (flat_map (fun r => embedded (snd r)) (firstn i rs))) b, mark b).
Proof.
  induction rs as [|(l0 & b0) rs IH]; intros k i l b E; [destruct i; discriminate|]. cbn [rules_out]. assert (LO : List.length (rule_out k l0 b0) = List.length (embedded b0) + 1) by (unfold rule_out; rewrite app_length, map_length, seq_length; reflexivity). destruct i as [|i].
  - injection E as -> ->. cbn [firstn flat_map snd List.length]. rewrite app_nil_r, !Nat.add_0_r. cbn [Nat.add]. rewrite nth_error_app1 by lia. unfold rule_out. rewrite nth_error_app2 by (rewrite map_length, seq_length; lia).
    rewrite map_length, seq_length, Nat.sub_diag. reflexivity.
  - cbn [nth_error] in E. change (firstn (S (S i)) ((l0, b0) :: rs)) with ((l0, b0) :: firstn (S i) rs). change (firstn (S i) ((l0, b0) :: rs)) with ((l0, b0) :: firstn i rs). cbn [flat_map snd]. rewrite !app_length.
    rewrite nth_error_app2 by lia. rewrite LO. replace (S i + _ - _) with (i + List.length (flat_map (fun r => embedded (snd r)) (firstn (S i) rs))) by lia. rewrite (IH _ _ _ _ E), Nat.add_assoc. reflexivity.
Qed.

Lemma conv_inner : forall num b k, List.length (embedded (conv num k b)) = inner b.
Proof.
  intros num. assert (FL : forall b k, followed (conv num k b) = existsb (fun p => match p with FPrec _ => false | _ => true end) b).
  { induction b as [|[x|ps|x] b IH]; intros k; cbn [conv followed existsb]; auto. apply IH. }
  induction b as [|[x|ps|x] b IH]; intros k; cbn [conv embedded inner]; auto. rewrite app_length, IH, FL. destruct (existsb _ b); reflexivity.
Qed.

Lemma inner_sum : forall num rs cs, Forall2 (fun r c => fst c = num (fst r) /\ exists j, snd c = conv num j (snd r)) rs cs ->
  forall i, List.length (flat_map (fun r => embedded (snd r)) (firstn i cs)) = list_sum (map (fun r => inner (snd r)) (firstn i rs)).
Proof.
  intros num rs cs H. induction H as [|r c rs cs (_ & j & E) H IH]; intros [|i]; try reflexivity. cbn [firstn flat_map map list_sum fold_right]. rewrite app_length, E, conv_inner, IH. reflexivity.
Qed.

Lemma Forall2_nth : forall A B (R : A -> B -> Prop) l m i x, Forall2 R l m -> nth_error l i = Some x -> exists y, nth_error m i = Some y /\ R x y.
Proof. intros A B R l m i x H. revert i. induction H as [|a b l m H1 H2 IH]; intros [|i] E; try discriminate; [injection E as <-; exists b; auto|exact (IH i E)]. Qed.

Lemma Forall2_len : forall A B (R : A -> B -> Prop) l m, Forall2 R l m -> List.length l = List.length m.
Proof. intros A B R l m H. induction H; cbn; congruence. Qed.

Lemma filter_map : forall A B (f : A -> B) p l, filter p (map f l) = map f (filter (fun x => p (f x)) l).
Proof. intros A B f p. induction l as [|x l IH]; [reflexivity|]. cbn [map filter]. destruct (p (f x)); cbn [map]; now rewrite IH. Qed.
Lemma find_map : forall A B (f : A -> B) p l, find p (map f l) = option_map f (find (fun x => p (f x)) l).
Proof. intros A B f p. induction l as [|x l IH]; [reflexivity|]. cbn [map find]. destruct (p (f x)); [reflexivity|exact IH]. Qed.
Lemma find_ext_in : forall A (p q : A -> bool) l, (forall x, In x l -> p x = q x) -> find p l = find q l.
Proof. intros A p q. induction l as [|x l IH]; intros H; [reflexivity|]. cbn [find]. rewrite (H x) by now left. destruct (q x); [reflexivity|]. apply IH. intros y I. apply H. now right. Qed.

Lemma without_iff : forall F n, without_rules F n = true <-> ~ is_lhs (file_facts F) n.
Proof.
  intros F n. unfold without_rules. rewrite negb_true_iff, lhs_iff. split.
  - intros H (r & I). unfold file_grammar in I. apply in_map_iff in I. destruct I as ((m & b) & E & I). cbn [fst snd] in E. injection E as -> _.
    assert (X : existsb (fun r => if list_eq_dec Z.eq_dec (fst r) n then true else false) (file_rules F) = true); [|congruence]. apply existsb_exists. exists (n, b). split; [exact I|]. cbn [fst]. destruct (list_eq_dec Z.eq_dec n n); [reflexivity|congruence].
  - intros H. destruct (existsb _ _) eqn:X; [|reflexivity]. exfalso. apply H. apply existsb_exists in X. destruct X as ((m & b) & I & X). cbn [fst] in X. destruct (list_eq_dec Z.eq_dec m n) as [->|]; [|discriminate].
    exists (part_syms b). unfold file_grammar. apply in_map_iff. exists (n, b). auto.
Qed.

(** Rule i of the file comes, in the order of the file, after the empty rules for the actions inside it and inside
    the rules before it.  Apart from the symbols of such actions it has the symbols of the file; its precedence is
    that of the symbol after %prec or else of its last token (its first token with a precedence under -z).  The
    rules for actions are empty, of precedence 0. *)
Theorem C70_rules : forall z F file, file_text F (input file) -> file_ok F -> codes_fit F ->
  exists s src pr sv (sym : txt -> nat), read_file file = ROk s /\ pack_file z s = ROk (src, pr, sv) /\
    let own x := existsb (Nat.eqb x) (map sym (names (file_facts F))) in
    (forall n m, In n (names (file_facts F)) -> In m (names (file_facts F)) -> sym n = sym m -> n = m) /\ sym (goal_of F) = S (b_ntokens src) /\
    (forall n, In n (names (file_facts F)) -> (file_token F n <-> sym n < b_ntokens src)) /\
    List.length (b_rules src) = List.length (file_rules F) + list_sum (map (fun r => inner (snd r)) (file_rules F)) /\
    (forall i n b, nth_error (file_rules F) i = Some (n, b) ->
       let k := i + list_sum (map (fun r => inner (snd r)) (firstn (S i) (file_rules F))) in
       exists r, nth_error (b_rules src) k = Some (sym n, r) /\ filter own r = map sym (part_syms b) /\ List.length r = List.length (part_syms b) + inner b /\
         match prec_symbol z F b with
         | Some m => (nth (k + 3) (rprec pr) 0, nth (k + 3) (rassoc pr) TOKEN) = prec_val F m
         | None => nth (k + 3) (rprec pr) 0 = 0
         end) /\
    forall k x r, nth_error (b_rules src) k = Some (x, r) -> own x = false -> r = [] /\ nth (k + 3) (rprec pr) 0 = 0.
Proof.
  intros z F file FT OK CF. destruct (file_packed F z file FT OK CF) as (s & src & pr & sv & idx & RF & PF & ER & WS & WP & WV & V0 & INJ & IG & Ig & NM & GN & CD & RP & _).
  set (L := file_facts F) in *. set (N := num L) in *. set (grs := flat_map group_rules (conv_groups N 0 (f_groups F))) in *.
  pose proof (conv_rules N (f_groups F) 0) as CR. fold grs in CR. change (flat_map (fun f => map (pair (f_lhs f)) (f_body f :: f_alts f)) (f_groups F)) with (file_rules F) in CR.
  exists s, src, pr, sv, (fun n => idx (Name (N n))). split; [exact RF|]. split; [exact PF|]. cbn zeta. set (sym := fun n => idx (Name (N n))). set (own := fun x => existsb (Nat.eqb x) (map sym (names L))).
  assert (KNm : forall n, In n (names L) -> known F (Name (N n))) by (intros n In0; exists n; auto).
  assert (OW : forall n, In n (names L) -> own (sym n) = true) by (intros n In0; apply existsb_exists; exists (sym n); split; [now apply in_map|apply Nat.eqb_refl]).
  assert (OG : forall j, known F (Gen j) -> own (idx (Gen j)) = false).
  { intros j Kj. destruct (own (idx (Gen j))) eqn:X; [|reflexivity]. apply existsb_exists in X. destruct X as (y & Iy & E). apply Nat.eqb_eq in E. apply in_map_iff in Iy. destruct Iy as (n & En & In0). unfold sym in En. rewrite <- En in E. apply INJ in E; [discriminate|exact Kj|auto]. }
  split; [intros n m In0 Im E; apply INJ in E; [injection E as E; now apply (N_inj F)|auto|auto]|]. split; [exact IG|]. split.
  { intros n In0. destruct (NM n In0) as (H1 & H2 & _). split; [intros (_ & X); now apply H1|]. intros X. split; [exact In0|]. intros Y. specialize (H2 Y). unfold sym in X. lia. }
  split.
  { rewrite ER. unfold rename. rewrite !map_length.
    assert (G : forall rs k, List.length (rules_out k rs) = List.length rs + List.length (flat_map (fun r => embedded (snd r)) rs)).
    { induction rs as [|(l & b) rs IH]; intros k; [reflexivity|]. cbn [rules_out flat_map snd List.length]. rewrite !app_length, IH. unfold rule_out. rewrite app_length, map_length, seq_length. cbn [List.length]. lia. }
    rewrite G. pose proof (Forall2_len _ _ _ _ _ CR) as LC. pose proof (inner_sum N _ _ CR (List.length grs)) as IS. rewrite firstn_all in IS. rewrite IS, <- LC, firstn_all. reflexivity. }
  split.
  - intros i n b Ei. destruct (Forall2_nth _ _ _ _ _ _ _ CR Ei) as ((l & c) & Ec & El & (j & Ej)). cbn [fst snd] in El, Ej. subst l c. pose proof (rules_out_nth grs 0 i _ _ Ec) as RO. rewrite (inner_sum N _ _ CR) in RO.
    set (k := i + _) in *. set (r := replaced _ _) in RO.
    assert (KR : Forall (known F) r) by (destruct (rules_known F _ _ _ (nth_error_In _ _ RO)) as (_ & H & _); exact H).
    assert (EE : erase r = map N (part_syms b)) by (unfold r; rewrite erase_replaced; apply conv_symbols).
    assert (PI : Forall (fun m => In m (names L)) (part_syms b)). { destruct (grammar_in F n (part_syms b)) as (_ & H); [|exact H]. unfold file_grammar. apply in_map_iff. exists (n, b). split; [reflexivity|eapply nth_error_In; eauto]. }
    exists (map idx r). split; [rewrite ER; unfold rename; rewrite map_map, nth_error_map, RO; reflexivity|]. split.
    { transitivity (map (fun i => idx (Name i)) (erase r)); [|rewrite EE, map_map; reflexivity]. clear - KR OW OG. induction r as [|[m|g] r IH]; [reflexivity| |]; cbn [map filter erase flat_map app]; pose proof (Forall_inv KR) as K; pose proof (IH (Forall_inv_tail KR)) as E.
      - destruct K as (m0 & Im & ->). change (idx (Name (num (file_facts F) m0))) with (sym m0). rewrite (OW m0 Im). cbn [map]. f_equal. exact E.
      - rewrite OG by exact K. exact E. }
    split.
    { rewrite map_length. unfold r. generalize (0 + List.length (flat_map (fun r => embedded (snd r)) (firstn i grs))) as q. clear. revert j. induction b as [|[x|ps|x] b IH]; intros j q; cbn [conv replaced part_syms flat_map app inner List.length]; auto.
      - rewrite IH. reflexivity.
      - assert (FL : forall b k, followed (conv N k b) = existsb (fun p => match p with FPrec _ => false | _ => true end) b) by (induction b0 as [|[x0|ps0|x0] b0 IH0]; intros k0; cbn [conv followed existsb]; auto; apply IH0).
        rewrite FL. destruct (existsb _ b); cbn [List.length]; rewrite IH; fold (part_syms b); lia. }
    pose proof (RP k _ _ _ RO) as RK. rewrite conv_mark in RK. unfold prec_symbol. destruct (fmark b) as [q|] eqn:EM.
    { cbn [option_map] in RK. destruct (fmark_in _ _ EM) as (x & Ix & ->). assert (Iq : In (sym_name x) (names L)). { destruct (part_in F n b (nth_error_In _ _ Ei)) as (_ & H). apply sym_in_names. apply (H _ Ix). now left. }
      assert (NN : nth (N (sym_name x)) (names L) [] = sym_name x) by (apply nth_error_nth; now apply pos_nth). rewrite NN in RK.
      destruct (C45_rule_precedence z (b_ntokens src) (symbol_prec pr) (symbol_assoc pr) (map idx r) (Some (prec_val F (sym_name x)))) as (p0 & a0 & E0 & E1).
      { intros y Iy. destruct (ws_rules _ WS (idx (Name (N n))) (map idx r)) as (_ & H); [rewrite ER; unfold rename; apply in_map_iff; exists (Name (N n), r); split; [reflexivity|]; apply in_map_iff; exists (Name (N n), r, mark (conv N j b)); split; [reflexivity|eapply nth_error_In; eauto]|]. specialize (H y Iy). rewrite (wp_sp _ _ WP), (wp_sa _ _ WP). lia. }
      rewrite E0 in RK. injection RK as <- <-. exact E1. }
    cbn [option_map] in RK. cbn zeta.
    destruct (C45_rule_precedence z (b_ntokens src) (symbol_prec pr) (symbol_assoc pr) (map idx r) None) as (p0 & a0 & E0 & E1).
    { intros y Iy. destruct (ws_rules _ WS (idx (Name (N n))) (map idx r)) as (_ & H); [rewrite ER; unfold rename; apply in_map_iff; exists (Name (N n), r); split; [reflexivity|]; apply in_map_iff; exists (Name (N n), r, mark (conv N j b)); split; [reflexivity|eapply nth_error_In; eauto]|]. specialize (H y Iy). rewrite (wp_sp _ _ WP), (wp_sa _ _ WP). lia. }
    rewrite E0 in RK. injection RK as <- <-.
    assert (FT2 : filter (fun x => x <? b_ntokens src) (map idx r) = map sym (filter (without_rules F) (part_syms b))).
    { transitivity (filter (fun x => x <? b_ntokens src) (map (fun i => idx (Name i)) (erase r))).
      - clear - KR GN. induction r as [|[m|g] r IH]; [reflexivity| |]; cbn [map filter erase flat_map app]; pose proof (Forall_inv KR) as K; pose proof (IH (Forall_inv_tail KR)) as E.
        + rewrite E. reflexivity.
        + specialize (GN g K). destruct (Nat.ltb_spec (idx (Gen g)) (b_ntokens src)); [lia|exact E].
      - rewrite EE, map_map, filter_map. apply f_equal. apply filter_ext_in. intros m Im. rewrite Forall_forall in PI. specialize (PI m Im). destruct (NM m PI) as (H1 & H2 & _).
        destruct (without_rules F m) eqn:W; [apply Nat.ltb_lt, H1; now apply without_iff|]. apply Nat.ltb_ge. destruct (Nat.le_gt_cases (b_ntokens src) (idx (Name (N m)))) as [|X]; [auto|]. exfalso. assert (W2 : without_rules F m = true); [|congruence]. apply without_iff. intros Y. specialize (H2 Y). lia. }
    rewrite FT2 in E1. set (toks := filter (without_rules F) (part_syms b)) in *.
    assert (TI : forall m, In m toks -> In m (names L)) by (intros m Im; apply filter_In in Im; rewrite Forall_forall in PI; now apply PI).
    assert (PV : forall m, In m (names L) -> (nth (sym m) (symbol_prec pr) 0, nth (sym m) (symbol_assoc pr) TOKEN) = prec_val F m) by (intros m Im; destruct (NM m Im) as (_ & _ & H); exact H).
    destruct z.
    + rewrite find_map, (find_ext_in _ _ (fun m => negb (fst (prec_val F m) =? 0))) in E1 by (intros m Im; rewrite <- (PV m (TI m Im)); reflexivity).
      destruct (find _ toks) as [m|] eqn:EF; cbn [option_map] in E1; [|exact E1]. apply find_some in EF. destruct EF as (Im & _). rewrite <- (PV m (TI m Im)). destruct E1 as (-> & ->). reflexivity.
    + unfold last_of in E1. rewrite <- map_rev in E1. destruct (rev toks) as [|m l] eqn:EV; [exact E1|]. cbn [map] in E1. assert (Im : In m toks) by (apply in_rev; rewrite EV; now left). rewrite <- (PV m (TI m Im)). destruct E1 as (-> & ->). reflexivity.
  - intros k x r Ek OX. rewrite ER in Ek. unfold rename in Ek. rewrite map_map, nth_error_map in Ek. destruct (nth_error (rules_out 0 grs) k) as [((y & r0) & m)|] eqn:E; [|discriminate]. cbn [option_map fst snd] in Ek. injection Ek as <- <-.
    destruct (rules_known F _ _ _ (nth_error_In _ _ E)) as (K & _). destruct y as [l|j].
    + destruct K as (n & In0 & ->). change (idx (Name (num (file_facts F) n))) with (sym n) in OX. rewrite OW in OX by exact In0. discriminate.
    + assert (GE : r0 = [] /\ m = Some 0).
      { pose proof (nth_error_In _ _ E) as I. clear - I. revert I. generalize 0 at 1. induction grs as [|(l & b) rs IH]; intros q I; [destruct I|]. cbn [rules_out] in I. apply in_app_or in I. destruct I as [I|I]; [|now apply IH in I].
        unfold rule_out in I. apply in_app_or in I. destruct I as [I|[I|[]]]; [|discriminate]. apply in_map_iff in I. destruct I as (j0 & E & _). injection E as _ <- <-. auto. }
      destruct GE as (-> & ->). split; [reflexivity|]. pose proof (RP k _ _ _ E) as RK. cbn in RK. unfold rule_precedence in RK. destruct z; cbn in RK; injection RK as <- _; reflexivity.
Qed.
Print Assumptions C70_rules.

(** * The example file *)

(** [s : s '+' {..} N {..} | N | %prec '+'] with the code 300 for N. *)
Lemma ex_tokens : forall n, file_token ex_F n -> n = zs "error" \/ n = zs "N" \/ n = zs "'+'".
Proof.
  intros n (I & H). vm_compute in I. destruct I as [<-|[<-|[<-|[<-|[]]]]]; [left; reflexivity|right; left; reflexivity|right; right; reflexivity|]. exfalso. apply H. vm_compute. tauto.
Qed.

Definition ex_src : bsrc := mkSrc 4 7 [(6, []); (5, [5; 3; 6; 2]); (5, [2]); (5, [])].
Definition ex_sv : list Z := [0; 256; 300; 43; -1; 0; 1]%Z.
Definition ex_pr : bprec := mkPrec [0; 0; 0; 1; 0; 0; 0] [TOKEN; TOKEN; TOKEN; LEFT; TOKEN; TOKEN; TOKEN] [0; 0; 0; 0; 0; 0; 1] [TOKEN; TOKEN; TOKEN; TOKEN; TOKEN; TOKEN; LEFT].

(** + N + N: the start symbol is empty at first. *)
Example C70_hypotheses : file_text ex_F (input ex_file) /\ file_ok ex_F /\ codes_fit ex_F /\
  (exists s Y, read_file ex_file = ROk s /\ pack_file false s = ROk (ex_src, ex_pr, ex_sv) /\ byacc_generate 300 300 300 false ex_src ex_pr ex_sv = Ok Y /\
     exists c, yyparse Y (fun i => nth i [43; 300; 43; 300]%Z 0%Z) 50 (fresh []) = Ok (YAccept, c) /\ y_nerrs c = 0) /\
  conflict_free (aug ex_src) /\ Forall (file_token ex_F) [zs "'+'"; zs "N"; zs "'+'"; zs "N"] /\
  yields (file_grammar ex_F) [goal_of ex_F] [zs "'+'"; zs "N"; zs "'+'"; zs "N"] /\
  (forall b, In b (map snd (file_rules ex_F)) -> fmark b = Some (zs "'+'") \/ inner b <= 1).
Proof.
  split; [exact ex_text|]. split; [exact ex_ok|]. split; [|split; [|split; [|split; [|split]]]].
  - split; [|split].
    + intros n v T. apply ex_tokens in T. destruct T as [-> | [-> | ->]]; vm_compute; intros E; inversion E; reflexivity.
    + intros n m v T T2. apply ex_tokens in T, T2. destruct T as [-> | [-> | ->]], T2 as [-> | [-> | ->]]; vm_compute; intros E E2; try reflexivity; congruence.
    + intros _ n T. apply ex_tokens in T. destruct T as [-> | [-> | ->]]; vm_compute; discriminate.
  - eexists. eexists. split; [vm_compute; reflexivity|]. split; [vm_compute; reflexivity|]. split; [vm_compute; reflexivity|]. eexists. split; vm_compute; reflexivity.
  - free.
  - assert (A : file_token ex_F (zs "'+'")) by (split; [vm_compute; tauto|intros H; vm_compute in H; repeat (destruct H as [H|H]; [discriminate|]); destruct H]).
    assert (B : file_token ex_F (zs "N")) by (split; [vm_compute; tauto|intros H; vm_compute in H; repeat (destruct H as [H|H]; [discriminate|]); destruct H]). repeat (constructor; [assumption|]). constructor.
  - change (file_grammar ex_F) with [(zs "s", [zs "s"; zs "'+'"; zs "N"]); (zs "s", [zs "N"]); (zs "s", [])]. change (goal_of ex_F) with (zs "s").
    assert (TK : forall n l w, n <> zs "s" -> yields [(zs "s", [zs "s"; zs "'+'"; zs "N"]); (zs "s", [zs "N"]); (zs "s", [])] l w -> yields [(zs "s", [zs "s"; zs "'+'"; zs "N"]); (zs "s", [zs "N"]); (zs "s", [])] (n :: l) (n :: w)).
    { intros n l w NE Y. apply yields_token; [|exact Y]. intros r [H|[H|[H|[]]]]; apply NE; apply (f_equal fst) in H; symmetry; exact H. }
    change [zs "'+'"; zs "N"; zs "'+'"; zs "N"] with ([zs "'+'"; zs "N"; zs "'+'"; zs "N"] ++ @nil txt). eapply yields_rule; [left; reflexivity| |constructor].
    change [zs "'+'"; zs "N"; zs "'+'"; zs "N"] with ([zs "'+'"; zs "N"] ++ [zs "'+'"; zs "N"]). eapply yields_rule; [left; reflexivity| |apply TK; [discriminate|]; apply TK; [discriminate|constructor]].
    apply (yields_rule _ (zs "s") [] [zs "'+'"; zs "N"] [] [zs "'+'"; zs "N"]); [right; right; left; reflexivity|constructor|apply TK; [discriminate|]; apply TK; [discriminate|constructor]].
  - intros b I. vm_compute in I. destruct I as [<-|[<-|[<-|[]]]]; [right; vm_compute; lia|right; vm_compute; lia|left; reflexivity].
Qed.

(** The same file for C70_decides: N N is read to the end, with an error. *)
Example C70_decides_hypotheses : all_productive (aug ex_src) /\
  exists Y c, byacc_generate 300 300 300 false ex_src ex_pr ex_sv = Ok Y /\ yyparse Y (fun i => nth i [300; 300]%Z 0%Z) 50 (fresh []) = Ok (YAbort, c) /\ y_nerrs c = 1.
Proof.
  split.
  - assert (P5 : derives (aug ex_src) [ESym 5] []) by (apply (derives_rule _ (SpecGrammar.mkRule 5 [])); cbn; tauto).
    intros A [H1 H2]. cbn in H1, H2. assert (HA : A = 4 \/ A = 5 \/ A = 6) by lia. destruct HA as [->|[->| ->]].
    + exists []. split; [constructor|]. eapply derives_trans; [apply (derives_rule _ (SpecGrammar.mkRule 4 [ESym 5])); cbn; tauto|exact P5].
    + exists []. split; [constructor|exact P5].
    + exists []. split; [constructor|]. apply (derives_rule _ (SpecGrammar.mkRule 6 [])); cbn; tauto.
  - do 2 eexists. split; [vm_compute; reflexivity|]. split; vm_compute; reflexivity.
Qed.
