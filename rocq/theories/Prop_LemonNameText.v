(** C78: the token macros, the tables of names for traces and the header file lemon prints, read by a C compiler. *)
From Coq Require Import String List Arith ZArith NArith Bool Lia Permutation.
Import ListNotations.
From Verif Require Import Base SpecGrammar LemonSortModel Prop_LemonSort LemonActionModel LemonCompressModel LemonPipelineModel LemonTabProof Prop_LemonSound ByaccScanModel LemonTableModel LemonPreModel LemonCodeModel Prop_LemonPrintf SpecCode
  LemonCodeProof LemonReprintModel SpecCText CTextProof LemonTableTextModel LemonTableTextProof Prop_LemonTableText ByaccTableTextProof ByaccNameTextProof LemonNameTextModel LemonNameTextProof.
Local Open Scope res_scope.

(** * What the text of a rule is *)

(** The names of a class of terminals with bars between them. *)
Fixpoint bars (l : list txt) : txt := match l with [] => [] | [x] => x | x :: l => x ++ 124%Z :: bars l end.
(** "lhs ::= x y|z": the left side, then each element after a blank. *)
Definition rule_words (nm : nat -> txt) (r : SpecGrammar.rule) : txt :=
  nm (r_lhs r) ++ zs " ::=" ++ concat (map (fun e => 32%Z :: bars (map nm (members e))) (r_rhs r)).

Lemma bars_ok : forall (nm : nat -> txt) l s, bars (map nm (s :: l)) = nm s ++ flat_map (fun s => zs "|" ++ nm s) l.
Proof.
  intros nm l. induction l as [|x l IH]; intros s; [cbn [map bars flat_map]; now rewrite app_nil_r|]. cbn [map] in *. change (bars (nm s :: nm x :: map nm l)) with (nm s ++ 124%Z :: bars (nm x :: map nm l)).
  rewrite IH. cbn [flat_map]. rewrite <- app_assoc. reflexivity.
Qed.
Lemma rule_words_ok : forall nm r, rule_print nm r = rule_words nm r.
Proof.
  intros nm r. unfold rule_print, rule_words. do 2 f_equal. rewrite flat_map_concat_map. f_equal. apply map_ext. intros [s|[|s l]]; [reflexivity|reflexivity|]. cbn [members]. rewrite bars_ok. reflexivity.
Qed.

Lemma rules_named : forall nm (rules : list SpecGrammar.rule) rs, (forall r, In r rs -> r < List.length rules) ->
  exists l, LemonReadModel.map_res (fun r => opt (nth_error rules r)) rs = Ok l /\ (forall x, In x l -> In x rules) /\ List.length l = List.length rs /\
    forall k r rl, nth_error rs k = Some r -> nth_error rules r = Some rl -> nth_error (map (rule_print nm) l) k = Some (rule_words nm rl).
Proof.
  intros nm rules. induction rs as [|r rs IH]; intros B; [exists []; repeat split; auto; [intros x []|intros [|k] r rl E; discriminate]|].
  destruct IH as (l & E & I & L & M); [intros x X; apply B; now right|]. destruct (nth_error_lt_ex _ rules r (B r (or_introl eq_refl))) as (rl & ER).
  exists (rl :: l). cbn [LemonReadModel.map_res]. rewrite ER. cbn [opt bind]. rewrite E. cbn [bind]. split; [reflexivity|]. split; [|split].
  - intros x [<-|X]; [eapply nth_error_In; eauto|auto].
  - cbn [List.length]. now rewrite L.
  - intros [|k] r' rl' E1 E2; cbn [map nth_error] in *; [|eapply M; eauto]. injection E1 as <-. rewrite ER in E2. injection E2 as <-. now rewrite rule_words_ok.
Qed.

(** * The macros and the tables *)

(** Each token has a macro with its number, guarded by the first token's (or by INTERFACE with -m); yyTokenName holds the
    names of the symbols in order; yyRuleName holds one text per rule, at the number reductions use for it. *)
Theorem C78_names_text : forall nm prefix mh o g,
  wf_grammar g -> opts_ok g o -> (N.of_nat (List.length (g_rules g)) < 2 ^ 32)%N -> int_ok (Z.of_nat (g_nsym g)) ->
  (forall i, i < g_nsym g -> Forall strch (nm i)) -> (forall i, 0 < i < g_nterm g -> ident (prefix ++ nm i)) -> 1 < g_nterm g ->
  clex true (token_defines mh prefix nm (g_nterm g))
    (CD (if mh then [W "if"; W "INTERFACE"] else [W "ifndef"; CW (prefix ++ nm 1)]) ::
      flat_map (fun i => [CD [W "define"; CW (prefix ++ nm i); CN (Z.of_nat i)]]) (seq 1 (g_nterm g - 1)) ++ [CD [W "endif"]]) /\
  clex true (names_text nm (g_nsym g)) (string_array "yyTokenName" (map nm (seq 0 (g_nsym g)))) /\
  exists z L, rulenames_text nm o g = Ok z /\ clex true z (string_array "yyRuleName" L) /\ List.length L = List.length (g_rules g) /\
    forall r rl, nth_error (g_rules g) r = Some rl -> nth_error L (ri_iRule (opts_rinfo o) r) = Some (rule_words nm rl).
Proof.
  intros nm prefix mh o g W OO SZ V NM ID NT. pose proof W as (W1 & W2 & W3 & _).
  assert (VT : int_ok (Z.of_nat (g_nterm g))) by (unfold int_ok in *; lia). split; [|split].
  - apply (lexed_clex true _ _ true). replace (flat_map (fun i => [CD [SpecCText.W "define"; CW (prefix ++ nm i); CN (Z.of_nat i)]]) (seq 1 (g_nterm g - 1))) with (defines_tokens prefix nm (g_nterm g)).
    + apply token_defines_lexed; [intros _; apply ID; lia|exact ID|exact VT].
    + unfold defines_tokens. rewrite !flat_map_concat_map. f_equal. apply map_ext. intros i. unfold cdeft, cnum. destruct (Z.ltb_spec (Z.of_nat i) 0); [lia|reflexivity].
  - apply (lexed_clex true _ _ true). now apply names_lexed.
  - destruct (rule_order (ri_iRule (opts_rinfo o)) (List.length (g_rules g)) SZ) as (LR & NR & _); [intros; now apply irule_lt|intros; eapply irule_inj; eauto|].
    assert (INR : forall r, In r (Rule_sort (ri_iRule (opts_rinfo o)) (seq 0 (List.length (g_rules g)))) -> r < List.length (g_rules g)).
    { intros r I. assert (PERM : Permutation (Rule_sort (ri_iRule (opts_rinfo o)) (seq 0 (List.length (g_rules g)))) (seq 0 (List.length (g_rules g)))).
      { apply LemonSortProof.Rule_sort_perm. rewrite seq_length. apply LemonGenProof.lt_pow. unfold RULESLOTS. exact SZ. }
      apply (Permutation_in _ PERM) in I. apply in_seq in I. lia. }
    destruct (rules_named nm (g_rules g) _ INR) as (l & E & IN & L & M). unfold rulenames_text. rewrite E. cbn [bind]. eexists. exists (map (rule_print nm) l). split; [reflexivity|]. split; [|split].
    + apply (lexed_clex true _ _ true). unfold string_array. rewrite app_assoc. apply (lexed_app true _ _ true); [apply line_lexed; [vm_compute; reflexivity|reflexivity]|].
      apply (lexed_app true _ _ true); [|apply close_lexed]. apply rulename_rows_lexed. apply Forall_forall. intros x I. apply rule_print_chars. intros i J. apply NM.
      rewrite Forall_forall in W3. destruct (W3 x (IN x I)) as ((_ & A) & B). destruct J as [<-|J]; [exact A|]. apply in_flat_map in J as (e & J1 & J2). rewrite Forall_forall in B. specialize (B e J1).
      destruct e as [s|m]; cbn [members wf_elem] in *; [destruct J2 as [<-|[]]; exact B|]. destruct B as (_ & B). specialize (B i J2). unfold is_term in B. lia.
    + rewrite map_length, L. exact LR.
    + intros r rl R. eapply M; [|exact R]. apply NR. apply nth_error_Some. congruence.
Qed.

Definition exg78 : grammar := mkGrammar 4 6 [SpecGrammar.mkRule 4 [ESym 5]; SpecGrammar.mkRule 5 [ESym 5; ESym 1; ESym 5]; SpecGrammar.mkRule 5 [EMulti [2; 3]]] 4.
Definition exo78 : opts :=
  mkOpts false false true (mkPrecs (fun s => if s =? 1 then Some 1 else None) (fun s => if s =? 1 then LEFT else UNK))
    [None; None; None] [true; false; false] None None None (fun _ i => i) (fun _ i => i).
Definition names78 (s : nat) : txt := nth s [zs "$"; zs "PLUS"; zs "ID"; zs "NUM"; zs "s"; zs "e"] [].

Example C78_names_hypotheses : wf_grammar exg78 /\ opts_ok exg78 exo78 /\ (N.of_nat (List.length (g_rules exg78)) < 2 ^ 32)%N /\ int_ok (Z.of_nat (g_nsym exg78)) /\
  (forall i, i < g_nsym exg78 -> Forall strch (names78 i)) /\ (forall i, 0 < i < g_nterm exg78 -> ident (zs "TK_" ++ names78 i)) /\ 1 < g_nterm exg78 /\
  token_defines false (zs "TK_") names78 4 = zs "#ifndef TK_PLUS" ++ nl ++ zs "#define TK_PLUS                            1" ++ nl ++ zs "#define TK_ID                              2" ++ nl ++
    zs "#define TK_NUM                             3" ++ nl ++ zs "#endif" ++ nl /\
  rulenames_text names78 exo78 exg78 = Ok (zs "static const char *const yyRuleName[] = {" ++ nl ++ zs " /*   0 */ ""e ::= e PLUS e""," ++ nl ++ zs " /*   1 */ ""e ::= ID|NUM""," ++ nl ++
    zs " /*   2 */ ""s ::= e""," ++ nl ++ zs "};" ++ nl).
Proof.
  split; [apply SpecGrammarFacts.wf_grammarb_ok; reflexivity|]. split.
  { constructor; [reflexivity| | |]; cbn [exo78 o_fallback o_wildcard o_errsym]; intros l E; discriminate. }
  split; [reflexivity|]. split; [vm_compute; split; congruence|]. split.
  { intros i L. do 6 (destruct i as [|i]; [repeat constructor; discriminate|]). cbn in L. lia. }
  split. { intros i (L1 & L2). cbn [g_nterm exg78] in L2. do 4 (destruct i as [|i]; [first [lia|idn]|]). lia. }
  split; [cbn; lia|]. split; vm_compute; reflexivity.
Qed.

(** The text of a rule tells the rule: its left side and, element by element, the symbols. *)
Theorem C78_rule_text_determines : forall nm g r r',
  (forall i, i < g_nsym g -> solid (nm i)) -> (forall i j, i < g_nsym g -> j < g_nsym g -> nm i = nm j -> i = j) -> wf_rule g r -> wf_rule g r' -> g_nterm g <= g_nsym g ->
  rule_words nm r = rule_words nm r' -> r_lhs r = r_lhs r' /\ map members (r_rhs r) = map members (r_rhs r').
Proof.
  intros nm g r r' SOL INJ W W' NT E. rewrite <- !rule_words_ok in E.
  assert (M : forall x, wf_rule g x -> Forall (fun e => members e <> [] /\ Forall (fun i => i < g_nsym g) (members e)) (r_rhs x)).
  { intros x (_ & F). rewrite Forall_forall in *. intros e I. specialize (F e I). destruct e as [s|l]; cbn [members wf_elem] in *; [split; [discriminate|constructor; [exact F|constructor]]|].
    destruct F as (N & F). split; [exact N|]. apply Forall_forall. intros t T. specialize (F t T). unfold is_term in F. lia. }
  destruct W as ((? & ?) & ?) eqn:EW. destruct W' as ((? & ?) & ?) eqn:EW'. apply (rule_tell nm (fun i => i < g_nsym g) SOL INJ); auto.
Qed.

Example C78_rule_text_hypotheses : (forall i, i < g_nsym exg78 -> solid (names78 i)) /\ (forall i j, i < g_nsym exg78 -> j < g_nsym exg78 -> names78 i = names78 j -> i = j) /\
  wf_rule exg78 (SpecGrammar.mkRule 5 [EMulti [2; 3]]) /\ wf_rule exg78 (SpecGrammar.mkRule 5 [ESym 2; ESym 3]) /\
  rule_words names78 (SpecGrammar.mkRule 5 [EMulti [2; 3]]) = zs "e ::= ID|NUM" /\ rule_words names78 (SpecGrammar.mkRule 5 [ESym 2; ESym 3]) = zs "e ::= ID NUM".
Proof.
  split. { intros i L. do 6 (destruct i as [|i]; [split; [discriminate|]; split; vm_compute; intuition discriminate|]). cbn in L. lia. }
  split. { intros i j L1 L2. cbn [g_nsym exg78] in *. do 6 (destruct i as [|i]; [do 6 (destruct j as [|j]; [first [reflexivity|intros E; vm_compute in E; discriminate]|]); lia|]). lia. }
  split; [split; [cbv; lia|constructor; [split; [discriminate|intros t [<-|[<-|[]]]; cbv; lia]|constructor]]|]. split; [split; [cbv; lia|constructor; [cbn; lia|constructor; [cbn; lia|constructor]]]|]. split; vm_compute; reflexivity.
Qed.

(** * The header *)

Lemma digits_len : forall f v acc d, LemonPrintfModel.digits f v acc = Ok d -> List.length d <= f + List.length acc.
Proof.
  induction f as [|f IH]; intros v acc d E; cbn [LemonPrintfModel.digits] in E; [destruct (0 <? v)%Z; [discriminate|injection E as <-; lia]|].
  destruct (0 <? v)%Z; [|injection E as <-; lia]. apply IH in E. cbn [List.length] in E. lia.
Qed.
Lemma zdec_len : forall v, List.length (zdec v) <= 51.
Proof.
  intros v. unfold zdec. destruct (LemonPrintfModel.digits 50 (Z.abs v) []) as [d| |] eqn:E; [|cbn; lia|cbn; lia]. apply digits_len in E. cbn [List.length] in E. destruct d as [|x d]; [cbn; lia|].
  rewrite app_length. destruct (v <? 0)%Z; cbn [List.length] in *; lia.
Qed.

(** The constants an enumeration declares, and their values. *)
Fixpoint enumerators (ts : list ctok) : list (txt * Z) :=
  match ts with
  | [] => []
  | t :: r => match t, r with CW w, CP 61%Z :: CN v :: _ => (w, v) :: enumerators r | _, _ => enumerators r end
  end.

Lemma enumerators_rows : forall p nm l x, enumerators (flat_map (fun i => [CW (p ++ nm i); CP 61%Z; CN (Z.of_nat i); CP 44%Z]) l ++ x) = map (fun i => (p ++ nm i, Z.of_nat i)) l ++ enumerators x.
Proof. intros p nm l x. induction l as [|i l IH]; [reflexivity|]. cbn [flat_map map app enumerators]. now rewrite IH. Qed.

(** Whatever the old header was, the new one is an enumeration of the tokens with their numbers and of LEMON_LAST_TOKEN
    with the number of terminals; except that a header with just the macros of the tokens is kept. *)
Theorem C78_header : forall prefix nm nterm old,
  0 < nterm -> int_ok (Z.of_nat nterm) -> ident (prefix ++ zs "LemonEnum") -> ident (prefix ++ zs "LEMON_LAST_TOKEN") -> (forall i, 0 < i < nterm -> ident (prefix ++ nm i)) ->
  (forall i, 0 < i < nterm -> List.length (prefix ++ nm i) < 900) ->
  exists z ts, ReportHeader prefix nm nterm old = Ok z /\ clex true z ts /\
    ((exists body, ts = [W "enum"; CW (prefix ++ zs "LemonEnum"); CP 123%Z] ++ body ++ [CP 125%Z; CP 59%Z] /\ 
        enumerators ts = map (fun i => (prefix ++ nm i, Z.of_nat i)) (seq 1 (nterm - 1)) ++ [(prefix ++ zs "LEMON_LAST_TOKEN", Z.of_nat nterm)]) \/
     (old = Some z /\ ts = flat_map (fun i => [CD [W "define"; CW (prefix ++ nm i); CN (Z.of_nat i)]]) (seq 1 (nterm - 1)))).
Proof.
  intros prefix nm nterm old NT V I1 I2 ID LEN.
  assert (NEW : clex true (header_text prefix nm nterm) (enum_tokens prefix nm nterm) /\
    exists body, enum_tokens prefix nm nterm = [W "enum"; CW (prefix ++ zs "LemonEnum"); CP 123%Z] ++ body ++ [CP 125%Z; CP 59%Z] /\
        enumerators (enum_tokens prefix nm nterm) = map (fun i => (prefix ++ nm i, Z.of_nat i)) (seq 1 (nterm - 1)) ++ [(prefix ++ zs "LEMON_LAST_TOKEN", Z.of_nat nterm)]).
  { split; [apply (lexed_clex true _ _ true); now apply header_lexed|].
    exists (flat_map (fun i => [CW (prefix ++ nm i); CP 61%Z; CN (Z.of_nat i); CP 44%Z]) (seq 1 (nterm - 1)) ++ [CW (prefix ++ zs "LEMON_LAST_TOKEN"); CP 61%Z; CN (Z.of_nat nterm)]).
    unfold enum_tokens. split; [rewrite <- !app_assoc; reflexivity|]. cbn [app enumerators]. rewrite enumerators_rows. reflexivity. }
  destruct NEW as (NEW & BODY). destruct old as [old|]; [|exists (header_text prefix nm nterm), (enum_tokens prefix nm nterm); split; [reflexivity|]; split; [exact NEW|left; exact BODY]].
  destruct (unchanged_ok prefix nm (nterm - 1) 1 old) as (b & E & B).
  { intros j J. specialize (ID j ltac:(lia)). specialize (LEN j ltac:(lia)). pose proof (ident_chars _ ID) as CH. apply Forall_app in CH as (CH1 & CH2).
    split; [now apply nl_in|]. split; [now apply nl_in|]. assert (VJ : int_ok (Z.of_nat j)) by (unfold int_ok in *; lia). split; [exact VJ|].
    unfold token_define, pad_right, pad_left. rewrite !app_length, !repeat_length in *. unfold ndec. pose proof (zdec_len (Z.of_nat j)). change (List.length (zs "#define ")) with 8. change (List.length (zs " ")) with 1. change (List.length nl) with 1. 
    assert (LINESIZE = 900 + 100) by reflexivity. lia. }
  unfold ReportHeader. rewrite E. cbn [bind]. destruct b.
  - exists old, (flat_map (fun i => [CD [W "define"; CW (prefix ++ nm i); CN (Z.of_nat i)]]) (seq 1 (nterm - 1))). split; [reflexivity|]. destruct B as (B & _). specialize (B eq_refl). split; [|right; auto].
    rewrite B. apply (lexed_clex true _ _ true). apply lines_lexed. intros i J. apply in_seq in J.
    replace [CD [W "define"; CW (prefix ++ nm i); CN (Z.of_nat i)]] with [cdeft (prefix ++ nm i) (Z.of_nat i)] by (unfold cdeft, cnum; destruct (Z.ltb_spec (Z.of_nat i) 0); [lia|reflexivity]).
    apply token_define_lexed; [apply ID; lia|unfold int_ok in *; lia].
  - exists (header_text prefix nm nterm), (enum_tokens prefix nm nterm). split; [reflexivity|]. split; [exact NEW|left; exact BODY].
Qed.

(** The names of distinct tokens other than LEMON_LAST_TOKEN are declared once each. *)
Theorem C78_header_distinct : forall prefix nm nterm,
  (forall i j, 0 < i < nterm -> 0 < j < nterm -> nm i = nm j -> i = j) -> (forall i, 0 < i < nterm -> nm i <> zs "LEMON_LAST_TOKEN") ->
  NoDup (map fst (enumerators (enum_tokens prefix nm nterm))).
Proof.
  intros prefix nm nterm INJ NL. unfold enum_tokens. cbn [app enumerators]. rewrite enumerators_rows. unfold W. cbn [enumerators]. rewrite map_app, map_map. cbn [map fst].
  assert (G : forall l, NoDup l -> (forall i, In i l -> 0 < i < nterm) -> NoDup (map (fun i => prefix ++ nm i) l ++ [prefix ++ zs "LEMON_LAST_TOKEN"])).
  { induction l as [|i l IH]; intros N H; cbn [map app]; [constructor; [intros []|constructor]|]. inversion N; subst. constructor; [|apply IH; [assumption|intros j J; apply H; now right]].
    rewrite in_app_iff, in_map_iff. intros [(j & E & J)|[E|[]]].
    - apply app_inv_head in E. apply INJ in E; [subst; contradiction|apply H; now right|apply H; now left].
    - apply app_inv_head in E. apply (NL i); [apply H; now left|congruence]. }
  apply G; [apply seq_NoDup|]. intros i I. apply in_seq in I. lia.
Qed.

Example C78_header_hypotheses : int_ok (Z.of_nat 4) /\ ident (zs "TK_" ++ zs "LemonEnum") /\ ident (zs "TK_" ++ zs "LEMON_LAST_TOKEN") /\ (forall i, 0 < i < 4 -> ident (zs "TK_" ++ names78 i)) /\
  (forall i, 0 < i < 4 -> List.length (zs "TK_" ++ names78 i) < 900) /\
  (forall i j, 0 < i < 4 -> 0 < j < 4 -> names78 i = names78 j -> i = j) /\ (forall i, 0 < i < 4 -> names78 i <> zs "LEMON_LAST_TOKEN") /\
  ReportHeader (zs "TK_") names78 4 (Some (zs "#define X" ++ nl)) = Ok (zs "enum TK_LemonEnum {" ++ nl ++ zs " TK_PLUS =   1," ++ nl ++ zs " TK_ID =   2," ++ nl ++ zs " TK_NUM =   3," ++ nl ++ zs " TK_LEMON_LAST_TOKEN =   4" ++ nl ++ zs "};" ++ nl).
Proof.
  split; [vm_compute; split; congruence|]. split; [idn|]. split; [idn|]. split. { intros i (L1 & L2). do 4 (destruct i as [|i]; [first [lia|idn]|]). lia. }
  split. { intros i (L1 & L2). do 4 (destruct i as [|i]; [first [lia|apply Nat.ltb_lt; reflexivity]|]). lia. }
  split. { intros i j L1 L2. do 4 (destruct i as [|i]; [do 4 (destruct j as [|j]; [first [reflexivity|intros E; vm_compute in E; discriminate]|]); lia|]). lia. }
  split; [|vm_compute; reflexivity]. intros i (L1 & L2). do 4 (destruct i as [|i]; [intros E; vm_compute in E; discriminate|]). lia.
Qed.

(** A token may be called LEMON_LAST_TOKEN; then the enumeration declares that word twice. *)
Theorem C78_last_token_refuted : exists nm nterm,
  (forall i, 0 < i < nterm -> ident (nm i)) /\ (forall i j, 0 < i < nterm -> 0 < j < nterm -> nm i = nm j -> i = j) /\
  exists z ts v v', ReportHeader [] nm nterm None = Ok z /\ clex true z ts /\ v <> v' /\ In (zs "LEMON_LAST_TOKEN", v) (enumerators ts) /\ In (zs "LEMON_LAST_TOKEN", v') (enumerators ts).
Proof.
  exists (fun i => nth i [zs "$"; zs "LEMON_LAST_TOKEN"; zs "ID"] []), 3.
  assert (ID : forall i, 0 < i < 3 -> ident (nth i [zs "$"; zs "LEMON_LAST_TOKEN"; zs "ID"] [])) by (intros i (L1 & L2); do 3 (destruct i as [|i]; [first [lia|cbn [nth]; idn]|]); lia).
  split; [exact ID|]. split. { intros i j L1 L2. do 3 (destruct i as [|i]; [do 3 (destruct j as [|j]; [first [reflexivity|intros E; vm_compute in E; discriminate]|]); lia|]). lia. }
  eexists. exists (enum_tokens [] (fun i => nth i [zs "$"; zs "LEMON_LAST_TOKEN"; zs "ID"] []) 3), 1%Z, 3%Z. split; [reflexivity|]. split.
  { apply (lexed_clex true _ _ true). apply header_lexed; [idn|idn|exact ID|vm_compute; split; congruence]. }
  split; [discriminate|]. vm_compute. split; auto.
Qed.

(** The check that is to leave an unchanged header alone compares with macros although an enumeration is written: it
    never finds the header lemon wrote. *)
Theorem C78_unchanged_refuted : forall prefix nm nterm,
  (forall i, 0 < i < nterm -> ident (prefix ++ nm i) /\ List.length (prefix ++ nm i) < 900) -> int_ok (Z.of_nat nterm) ->
  unchanged prefix nm (nterm - 1) 1 (header_text prefix nm nterm) = Ok false.
Proof.
  intros prefix nm nterm H V. destruct (nterm - 1) as [|k] eqn:K; [reflexivity|].
  assert (LEN : List.length (token_define 3 prefix nm 1) < LINESIZE).
  { destruct (H 1 ltac:(lia)) as (_ & L). unfold token_define, pad_right, pad_left, ndec. rewrite !app_length, !repeat_length in *. pose proof (zdec_len (Z.of_nat 1)).
    change (List.length (zs "#define ")) with 8. change (List.length (zs " ")) with 1. change (List.length nl) with 1. assert (LINESIZE = 900 + 100) by reflexivity. lia. }
  unfold header_text. change (zs "enum ") with (101%Z :: zs "num "). cbn [app unchanged]. destruct (fgets _ _) as [line rest] eqn:F.
  apply Nat.ltb_lt in LEN. rewrite LEN. destruct (text_eqb line (token_define 3 prefix nm 1)) eqn:T; [|reflexivity]. exfalso. apply text_eqb_ok in T. pose proof (fgets_split _ _ _ _ F) as E. rewrite T in E. discriminate.
Qed.

(** A header with the macros of the tokens, as the original lemon writes it, is kept: the program that includes it does
    not get the enumeration. *)
Theorem C78_kept_refuted : exists prefix nm nterm old z ts, 1 < nterm /\ ReportHeader prefix nm nterm (Some old) = Ok z /\ clex true z ts /\ enumerators ts = [] /\ z <> header_text prefix nm nterm.
Proof.
  exists (zs "TK_"), names78, 4, (flat_map (token_define 3 (zs "TK_") names78) (seq 1 3)), (flat_map (token_define 3 (zs "TK_") names78) (seq 1 3)), (defines_tokens (zs "TK_") names78 4).
  split; [lia|]. split; [vm_compute; reflexivity|]. split; [|split; [reflexivity|discriminate]]. apply (lexed_clex true _ _ true). apply lines_lexed. intros i I. apply in_seq in I.
  destruct C78_header_hypotheses as (_ & _ & _ & ID & _). apply token_define_lexed; [apply ID; lia|unfold int_ok; lia].
Qed.

Print Assumptions C78_names_text.
Print Assumptions C78_rule_text_determines.
Print Assumptions C78_header.
Print Assumptions C78_header_distinct.
Print Assumptions C78_last_token_refuted.
Print Assumptions C78_unchanged_refuted.
Print Assumptions C78_kept_refuted.
