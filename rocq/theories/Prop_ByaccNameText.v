(** C77: the names and rules byacc prints for the traces of the parser, read by a C compiler. *)
From Coq Require Import String List Arith ZArith NArith Bool Lia.
Import ListNotations.
From Verif Require Import Base ByaccScanModel LemonTableModel LemonPreModel LemonCodeModel Prop_LemonPrintf SpecCode LemonCodeProof LemonReprintModel SpecCText CTextProof LemonTableTextProof
  SpecGrammar SpecByacc ByaccLr0Model ByaccPackProof ByaccParModel ByaccOutputModel ByaccTablesProof Prop_ByaccConflicts Prop_ByaccPacking Prop_ByaccParser ByaccTableTextModel ByaccTableTextProof Prop_ByaccTableText ByaccNameTextModel ByaccNameTextProof.
Local Open Scope res_scope.

Lemma map_res_seq : forall (V Y : Type) (f : nat -> res Y) (P : Y -> V -> Prop) (vs : list V) a, (forall k v, nth_error vs k = Some v -> exists y, f (a + k) = Ok y /\ P y v) ->
  exists ys, ByaccLr0Model.map_res f (seq a (List.length vs)) = Ok ys /\ Forall2 P ys vs.
Proof.
  induction vs as [|v vs IH]; intros a H; cbn [List.length seq ByaccLr0Model.map_res]; [exists []; split; [reflexivity|constructor]|]. destruct (H 0 v eq_refl) as (y & E & Py). rewrite Nat.add_0_r in E. rewrite E. cbn [bind].
  destruct (IH (S a)) as (ys & E1 & F); [intros k w K; replace (S a + k) with (a + S k) by lia; apply H; exact K|]. rewrite E1. cbn [bind]. exists (y :: ys). split; [reflexivity|now constructor].
Qed.

Lemma skip_rule : forall (r L : list Z) j v, (forall d x, nth_error r d = Some x -> nth_error L (j + d) = Some x) -> nth_error L (j + List.length r) = Some v -> exists rest, skipn j L = r ++ v :: rest.
Proof.
  assert (K : forall (L : list Z) j x, nth_error L j = Some x -> skipn j L = x :: skipn (S j) L).
  { induction L as [|y L IH]; intros j x E; [destruct j; discriminate|]. destruct j as [|j]; [injection E as ->; reflexivity|]. cbn [skipn]. rewrite (IH j x E). reflexivity. }
  induction r as [|x r IH]; intros L j v H E; cbn [List.length app] in *.
  - rewrite Nat.add_0_r in E. exists (skipn (S j) L). now apply K.
  - pose proof (H 0 x eq_refl) as E0. rewrite Nat.add_0_r in E0. rewrite (K L j x E0). destruct (IH L (S j) v) as (rest & ER); [intros d y D; replace (S j + d) with (j + S d) by lia; now apply H|replace (S j + List.length r) with (j + S (List.length r)) by lia; exact E|].
    exists rest. now rewrite ER.
Qed.

Lemma all_set : forall (T : Type) (a : list (option T)), (forall p, p < List.length a -> exists o, nth_error a p = Some (Some o)) -> exists l, a = map Some l.
Proof.
  induction a as [|e a IH]; intros H; [now exists []|]. destruct (H 0) as (o & E); [cbn; lia|]. injection E as ->. destruct IH as (l & ->); [intros p L; apply (H (S p)); cbn; lia|]. now exists (o :: l).
Qed.

Lemma code_dec : forall (code : nat -> Z) n p, (exists j, j < n /\ code j = Z.of_nat p) \/ (forall j, j < n -> code j <> Z.of_nat p).
Proof.
  intros code n p. induction n as [|n IH]; [right; intros j L; lia|]. destruct IH as [(j & L & E)|IH]; [left; exists j; split; [lia|exact E]|]. destruct (Z.eq_dec (code n) (Z.of_nat p)) as [E|N]; [left; exists n; split; [lia|exact E]|].
  right. intros j L. destruct (Nat.eq_dec j n) as [->|]; [exact N|]. apply IH. lia.
Qed.

(** The tokens of the text: yyname with the entries [names], yyrule with the strings [rules]. *)
Definition ntokens_of (p : txt) (tt : bool) (names : list (option txt)) (rules : list txt) : list ctok :=
  (if tt then [CD [W "undef"; W "yytname"]; CD [W "define"; W "yytname"; W "yyname"]] else [CD [W "if"; W "YYDEBUG"]]) ++ sarray p "name" names ++
  (if tt then [CD [W "if"; W "YYDEBUG"]] else []) ++ sarray p "rule" (map Some rules) ++ [CD [W "endif"]].

(** C77.  For a C compiler the text byacc prints is two tables of strings.  The entry of yyname for the code of a symbol (the codes the
    table stos of C76 uses) is the name of the symbol, the entry for YYUNDFTOKEN is "illegal-symbol", the others are null pointers;
    yyrule is the list of rules, each one the name of the left side, " :", and the names on the right side, each behind a blank. *)
Theorem C77_names_text : forall p tt (nm : list txt) s sv,
  wf_src s -> wf_sv s sv -> nth (b_ntokens s) sv 0%Z = (-1)%Z -> ident p -> List.length nm = b_nsyms s ->
  (forall X n, nth_error nm X = Some n -> name_ok n) -> (forall X n, b_ntokens s <= X -> nth_error nm X = Some n -> Forall strch n) ->
  exists text names rules maxtok top,
    output_names p tt nm (pack_grammar s) sv = Ok text /\ clex true text (ntokens_of p tt names rules) /\
    (forall t, t < b_ntokens s -> (nth t sv 0 <= maxtok)%Z) /\ (exists t, t < b_ntokens s /\ nth t sv 0%Z = maxtok) /\
    Z.of_nat top = (maxtok + 1 + Z.of_nat (b_nsyms s - b_ntokens s))%Z /\ List.length names = S top /\
    (forall X n, nth_error nm X = Some n -> nth_error names (Z.to_nat (symbol_code s sv maxtok X)) = Some (Some n)) /\
    nth_error names top = Some (Some (zs "illegal-symbol")) /\
    (forall i, i < top -> (forall X, X < b_nsyms s -> symbol_code s sv maxtok X <> Z.of_nat i) -> nth_error names i = Some None) /\
    rules = map (rule_string nm) ((b_ntokens s, [S (b_ntokens s)]) :: b_rules s).
Proof.
  intros p tt nm s sv W0 SV S1 IP LN NO NP. pose proof (ws_tok s W0) as WT. pose proof (ws_goal s W0) as WG.
  destruct (max_tok_spec s sv W0 SV) as (M1 & t0 & Lt0 & M2). pose proof (max_sym_spec s sv W0 SV S1) as MS. pose proof (sv_pos _ _ SV t0 Lt0) as MP. rewrite M2 in MP.
  set (M := max_tok (b_ntokens s) sv) in *. set (code := symbol_code s sv M). set (mx := Z.to_nat (max_sym (b_ntokens s) sv)). assert (EM : Z.of_nat mx = (M + Z.of_nat (b_nsyms s - b_ntokens s))%Z) by (unfold mx; lia).
  assert (PV : forall i, i < b_nsyms s -> symbol_pval (b_ntokens s) sv i = Ok (code i)).
  { intros i Li. unfold symbol_pval. rewrite (nth_error_nth' sv 0%Z) by (rewrite (sv_len _ _ SV); exact Li). cbn [opt bind]. unfold code, symbol_code. fold M. destruct (Nat.ltb_spec i (b_ntokens s)); [reflexivity|].
    destruct (Nat.eqb_spec i (b_ntokens s)); [f_equal; lia|]. rewrite (sv_nt _ _ SV) by lia. f_equal. lia. }
  assert (CR : forall i, i < b_nsyms s -> (0 <= code i <= Z.of_nat mx)%Z).
  { intros i Li. unfold code, symbol_code. destruct (Nat.ltb_spec i (b_ntokens s)) as [L|L]; [pose proof (sv_pos _ _ SV i L); pose proof (M1 i L); lia|lia]. }
  assert (CI : forall i j, i < b_nsyms s -> j < b_nsyms s -> code i = code j -> i = j).
  { intros i j Li Lj. unfold code, symbol_code. destruct (Nat.ltb_spec i (b_ntokens s)) as [L|L], (Nat.ltb_spec j (b_ntokens s)) as [L'|L']; intros E; [now apply (sv_inj _ _ SV)|pose proof (M1 i L); lia|pose proof (M1 j L'); lia|lia]. }
  destruct (set_names_ok (b_ntokens s) nm sv code (b_nsyms s) (repeat (Some None) mx ++ [None; None])) as (a & A1 & A2 & A3 & A4).
  { intros j Lj. split; [now apply PV|]. split; [rewrite app_length, repeat_length; cbn [List.length]; pose proof (CR j Lj); lia|]. apply nth_error_lt_ex. lia. }
  rewrite app_length, repeat_length in A2. cbn [List.length] in A2.
  assert (TOP : code (b_nsyms s - 1) = Z.of_nat mx) by (unfold code, symbol_code; destruct (Nat.ltb_spec (b_nsyms s - 1) (b_ntokens s)); lia).
  set (a2 := upd a (S mx) (Some (Some (zs "illegal-symbol")))).
  assert (B1 : forall X, X < b_nsyms s -> nth_error a2 (Z.to_nat (code X)) = Some (Some (nth_error nm X))).
  { intros X L. unfold a2. rewrite nth_error_upd_ne by (pose proof (CR X L); lia). apply A4; [exact L|]. intros j Lj E. apply CI; auto. }
  assert (B2 : forall q, q < mx -> (forall j, j < b_nsyms s -> code j <> Z.of_nat q) -> nth_error a2 q = Some (Some None)).
  { intros q L K. unfold a2. rewrite nth_error_upd_ne by lia. rewrite A3 by exact K. rewrite nth_error_app1 by (rewrite repeat_length; exact L). now apply nth_error_repeat. }
  assert (B3 : nth_error a2 (S mx) = Some (Some (Some (zs "illegal-symbol")))) by (unfold a2; apply nth_error_upd_eq; eapply Nat.lt_le_trans; [|apply Nat.eq_le_incl; symmetry; exact A2]; lia).
  assert (B4 : forall q, q < List.length a2 -> exists o, nth_error a2 q = Some (Some o) /\ match o with Some n => name_ok n | None => True end).
  { intros q L. unfold a2 in L. rewrite upd_length in L. destruct (Nat.eq_dec q (S mx)) as [->|Nq].
    - exists (Some (zs "illegal-symbol")). split; [exact B3|]. left. split; [discriminate|]. split; [repeat constructor; discriminate|discriminate].
    - destruct (code_dec code (b_nsyms s) q) as [(j & Lj & Ej)|K].
      + exists (nth_error nm j). replace q with (Z.to_nat (code j)) by lia. split; [now apply B1|]. destruct (nth_error nm j) eqn:E; [eapply NO; eauto|exact Logic.I].
      + exists None. split; [|exact Logic.I]. apply B2; [|exact K]. specialize (K (b_nsyms s - 1) ltac:(lia)). lia. }
  destruct (all_set _ a2) as (names & EN); [intros q L; destruct (B4 q L) as (o & E & _); eauto|].
  assert (NN : forall n, In (Some n) names -> name_ok n).
  { intros n I. apply In_nth_error in I as (q & Eq). assert (Eq2 : nth_error a2 q = Some (Some (Some n))) by (rewrite EN, nth_error_map, Eq; reflexivity). destruct (B4 q) as (o & E & O); [eapply nth_error_Some_lt; eauto|]. rewrite Eq2 in E. injection E as <-. exact O. }
  assert (NTH : forall q o, nth_error a2 q = Some (Some o) -> nth_error names q = Some o) by (intros q o E; rewrite EN, nth_error_map in E; destruct (nth_error names q); [now injection E as ->|discriminate]).
  destruct (cells_lexed names 80 true NN) as (x & bx & X1 & X2).
  set (R := (b_ntokens s, [S (b_ntokens s)]) :: b_rules s). set (rules := map (rule_string nm) R).
  destruct (map_res_seq _ _ (rule_line (pack_grammar s) nm) (fun t v => exists x, cstr x v /\ t = zs """" ++ x ++ zs """," ++ nl) rules 2) as (ys & Y1 & Y2).
  { intros k v Ek. unfold rules in Ek. rewrite nth_error_map in Ek. destruct (nth_error R k) as [[l r]|] eqn:ER; [|discriminate]. injection Ek as <-.
    assert (RR : b_ntokens s <= l < b_nsyms s /\ (forall X, In X r -> 0 < X < b_nsyms s) /\ nth_error (rlhs (pack_grammar s)) (2 + k) = Some l /\ nth_error (rrhs (pack_grammar s)) (2 + k) = Some (base s k) /\
      exists v rest, (v <= 0)%Z /\ skipn (base s k) (ritem (pack_grammar s)) = map Z.of_nat r ++ v :: rest).
    { assert (exists r', nth_error (prules s) k = Some (l, r') /\ (k = 0 /\ l = b_ntokens s /\ r = [S (b_ntokens s)] /\ r' = [S (b_ntokens s); 0] \/ In (l, r) (b_rules s) /\ r' = r)) as (r' & EP & C).
      { destruct k as [|k]; unfold R in ER; cbn [nth_error] in ER; [injection ER as <- <-; eexists; split; [reflexivity|]; left; auto|]. exists r. split; [exact ER|]. right. split; [eapply nth_error_In; eauto|reflexivity]. }
      assert (LK : k < List.length (prules s)) by (eapply nth_error_Some_lt; eauto).
      assert (RL : nth_error (rlhs (pack_grammar s)) (2 + k) = Some l) by (rewrite b_rlhs; cbn [Nat.add nth_error]; rewrite nth_error_map, EP; reflexivity).
      assert (RH : nth_error (rrhs (pack_grammar s)) (2 + k) = Some (base s k)) by (apply b_rrhs; lia).
      destruct C as [(-> & -> & -> & ->)|(I & ->)].
      - split; [lia|]. split; [intros X [<-|[]]; lia|]. split; [exact RL|]. split; [exact RH|]. exists 0%Z. destruct (skip_rule [Z.of_nat (S (b_ntokens s))] (ritem (pack_grammar s)) (base s 0) 0%Z) as (rest & E).
        + intros d y D. destruct d as [|d]; [|destruct d; discriminate]. injection D as <-. rewrite (b_ritem s 0 _ _ 0 EP) by (cbn; lia). reflexivity.
        + change (List.length [Z.of_nat (S (b_ntokens s))]) with 1. rewrite (b_ritem s 0 _ _ 1 EP) by (cbn; lia). reflexivity.
        + exists rest. split; [lia|exact E].
      - destruct (ws_rules s W0 l r I) as (L1 & L2). split; [lia|]. split; [intros X IX; destruct (L2 X IX); lia|]. split; [exact RL|]. split; [exact RH|]. exists (- Z.of_nat (S (S k)))%Z. destruct (skip_rule (map Z.of_nat r) (ritem (pack_grammar s)) (base s k) (- Z.of_nat (S (S k)))%Z) as (rest & E).
        + intros d y D. rewrite nth_error_map in D. destruct (nth_error r d) as [z|] eqn:Ed; [|discriminate]. injection D as <-. rewrite (b_ritem s k _ _ d EP) by (apply Nat.lt_le_incl; eapply nth_error_Some_lt; eauto). unfold rcode. now rewrite Ed.
        + rewrite map_length. rewrite (b_ritem s k _ _ _ EP) by lia. unfold rcode. rewrite (proj2 (nth_error_None r (List.length r))) by lia. reflexivity.
        + exists rest. split; [lia|exact E]. }
    destruct RR as (R1 & R2 & R3 & R4 & v0 & rest & R5 & R6). assert (ENl : nth_error nm l = Some (nth l nm [])) by (apply nth_error_nth'; lia).
    destruct (items_ok nm r v0 rest) as (y & E1 & E2); [|exact R5|].
    { intros X IX. specialize (R2 X IX). split; [lia|]. apply (NO X). apply nth_error_nth'. lia. }
    unfold rule_line. rewrite R3. cbn [opt bind]. rewrite ENl. cbn [opt bind]. rewrite R4. cbn [opt bind]. rewrite R6, E1. cbn [bind]. eexists. split; [reflexivity|]. exists (nth l nm [] ++ zs " :" ++ y). split.
    - unfold rule_string. cbn [fst snd]. apply cstr_app; [apply cstr_plain; apply (NP l); [lia|exact ENl]|]. apply cstr_app; [apply cstr_plain; repeat constructor; discriminate|exact E2].
    - rewrite <- !app_assoc. reflexivity. }
  destruct (concat_lines ys rules true Y2) as (br & Y3).
  assert (NRU : nrules (pack_grammar s) - 2 = List.length rules) by (rewrite b_nrules; unfold rules, R, prules; rewrite map_length; cbn [List.length]; lia).
  assert (ID : forall n, Forall (fun c => wordch c = true) (zs n) -> ident (p ++ zs n)) by (intros n F; now apply ident_app).
  eexists. exists names, rules, M, (S mx). split.
  { unfold output_names, symnam. rewrite b_ntok. rewrite b_nsy. fold mx. rewrite A1. cbn [bind]. fold a2. rewrite EN, X1. cbn [bind]. rewrite NRU, Y1. cbn [bind]. reflexivity. }
  split.
  { apply (lexed_clex true _ _ true). unfold ntokens_of. apply (lexed_app true _ _ true); [destruct tt|].
    - replace (zs "#undef yytname" ++ nl ++ zs "#define yytname yyname" ++ nl) with ((zs "#undef yytname" ++ nl) ++ zs "#define yytname yyname" ++ nl) by (rewrite <- !app_assoc; reflexivity). apply (lexed_app true _ [CD [W "undef"; W "yytname"]] true); (apply line_lexed; [vm_compute; reflexivity|reflexivity]).
    - apply line_lexed; [vm_compute; reflexivity|reflexivity].
    - replace (start_str_table p "name" ++ x ++ end_table ++ (if tt then zs "#if YYDEBUG" ++ nl else []) ++ start_str_table p "rule" ++ List.concat ys ++ end_table ++ zs "#endif" ++ nl)
        with ((start_str_table p "name" ++ x ++ end_table) ++ (if tt then zs "#if YYDEBUG" ++ nl else []) ++ (start_str_table p "rule" ++ List.concat ys ++ end_table) ++ zs "#endif" ++ nl) by (rewrite <- !app_assoc; reflexivity).
      apply (lexed_app true _ _ true); [eapply sarray_lexed; [apply ID; repeat constructor|exact X2]|]. apply (lexed_app true _ _ true); [destruct tt; [apply line_lexed; [vm_compute; reflexivity|reflexivity]|apply lexed_nil]|].
      apply (lexed_app true _ _ true); [eapply sarray_lexed; [apply ID; repeat constructor|exact Y3]|]. apply line_lexed; [vm_compute; reflexivity|reflexivity]. }
  split; [exact M1|]. split; [exists t0; auto|]. split; [lia|]. split; [apply (f_equal (@List.length _)) in EN; rewrite map_length in EN; rewrite <- EN; unfold a2; rewrite upd_length; lia|]. split.
  { intros X n En. assert (L : X < b_nsyms s) by (rewrite <- LN; eapply nth_error_Some_lt; eauto). apply NTH. fold code. rewrite (B1 X L), En. reflexivity. }
  split; [now apply NTH|]. split; [|reflexivity]. intros i L K. apply NTH, B2; [|exact K]. specialize (K (b_nsyms s - 1) ltac:(lia)). fold code in K. lia.
Qed.
Print Assumptions C77_names_text.

(** The text has one reading. *)
Lemma entries_inj : forall l l' x y, flat_map entry l ++ CP 125%Z :: x = flat_map entry l' ++ CP 125%Z :: y -> l = l' /\ x = y.
Proof.
  induction l as [|e l IH]; intros [|e' l'] x y E; cbn [flat_map] in E.
  - injection E as ->. auto.
  - destruct e'; discriminate.
  - destruct e; discriminate.
  - destruct e, e'; cbn [entry app] in E; try discriminate; injection E as E; [subst|]; match goal with H : flat_map entry l ++ _ = _ |- _ => apply IH in H as (-> & ->) end; auto.
Qed.
Theorem C77_tokens_determine : forall text p tt names rules names' rules',
  clex true text (ntokens_of p tt names rules) -> clex true text (ntokens_of p tt names' rules') -> names = names' /\ rules = rules'.
Proof.
  intros text p tt names rules names' rules' H H'. pose proof (clex_deterministic _ _ _ H _ H') as E. clear H H'. unfold ntokens_of, sarray in E. apply app_inv_head in E. rewrite <- !app_assoc in E. apply app_inv_head in E.
  apply entries_inj in E as (-> & E). split; [reflexivity|]. cbn [app] in E. injection E as E. apply app_inv_head in E. apply (f_equal (skipn 10)) in E. cbn [skipn] in E. apply entries_inj in E as (E & _).
  revert rules' E. induction rules as [|r l IH]; intros [|r' l'] E; try discriminate; [reflexivity|]. cbn [map] in E. injection E as -> E. f_equal. now apply IH.
Qed.
Print Assumptions C77_tokens_determine.

(** The grammar of C39 with literals as names: the newline, the double quote, the backslash and a string with a tab and a backslash. *)
Definition names77 : list txt := [zs "$end"; zs "error"; literal_name [10%Z]; literal_name [34%Z]; literal_name [92%Z]; literal_name [97; 92; 9; 39]%Z; zs "$accept"; zs "e.$1"].
Definition sv77 : list Z := [0; 7; 4; 3; 5; 1; -1; 0]%Z.
Definition text77 : txt := Eval vm_compute in match output_names (zs "yy") false names77 (pack_grammar ex39) sv77 with Ok t => t | _ => [] end.
Lemma sv77_ok : wf_sv ex39 sv77.
Proof.
  constructor; [reflexivity| | |].
  - intros t L. assert (t = 0 \/ t = 1 \/ t = 2 \/ t = 3 \/ t = 4 \/ t = 5) as H by (cbn in L; lia). destruct H as [->|[->|[->|[->|[->| ->]]]]]; cbn; lia.
  - intros t t' L L' E. cbn in L, L'. do 6 (destruct t as [|t]; [do 6 (destruct t' as [|t']; [first [reflexivity|discriminate E]|]); lia|]). lia.
  - intros k L. cbn in L. assert (k = 7) as -> by lia. reflexivity.
Qed.
Example C77_hypotheses : wf_src ex39 /\ wf_sv ex39 sv77 /\ nth (b_ntokens ex39) sv77 0%Z = (-1)%Z /\ ident (zs "yy") /\ List.length names77 = b_nsyms ex39 /\
  (forall X n, nth_error names77 X = Some n -> name_ok n) /\ (forall X n, b_ntokens ex39 <= X -> nth_error names77 X = Some n -> Forall strch n) /\
  output_names (zs "yy") false names77 (pack_grammar ex39) sv77 = Ok text77 /\
  text77 = zs "#if YYDEBUG" ++ nl ++ zs "static const char *const yyname[] = {" ++ nl ++ nl ++
    zs """$end"",""\""a\\\\\\t'\"""",0,""'\""'"",""'\\n'"",""'\\\\'"",0,""error"",""$accept"",""e.$1""," ++ nl ++ zs """illegal-symbol""," ++ nl ++ zs "};" ++ nl ++
    zs "static const char *const yyrule[] = {" ++ nl ++ zs """$accept : e.$1""," ++ nl ++ zs """e.$1 : e.$1 '\\n' e.$1""," ++ nl ++ zs """e.$1 : e.$1 '\""' e.$1""," ++ nl ++
    zs """e.$1 : e.$1 '\\\\' e.$1""," ++ nl ++ zs """e.$1 : \""a\\\\\\t'\""""," ++ nl ++ zs """e.$1 : \""a\\\\\\t'\""""," ++ nl ++ nl ++ zs "};" ++ nl ++ zs "#endif" ++ nl.
Proof.
  destruct C48_hypotheses as (A & _). split; [exact A|]. split; [exact sv77_ok|]. split; [reflexivity|]. split; [idn|]. split; [reflexivity|]. split; [|split; [|split; vm_compute; reflexivity]].
  - intros X n E. assert (PL : forall t, t <> [] -> Forall strch t -> hd 0%Z t <> 39%Z -> name_ok t) by (intros; left; auto).
    assert (LI : forall l, Forall (fun c => 0 <= c <= 255)%Z l -> (List.length l = 1 \/ ~ In 34%Z l) -> name_ok (literal_name l)) by (intros l; right; exists l; auto).
    assert (L : X < 8) by (change 8 with (List.length names77); eapply nth_error_Some_lt; eauto). do 8 (destruct X as [|X]; [cbn [nth_error names77] in E; injection E as <-;
      first [apply PL; [discriminate|repeat constructor; discriminate|discriminate] | apply LI; [repeat constructor; lia|first [left; reflexivity|right; intros K; repeat (destruct K as [K|K]; [discriminate K|]); exact K]]]|]). lia.
  - intros X n G E. assert (L : X < 8) by (change 8 with (List.length names77); eapply nth_error_Some_lt; eauto). assert (X = 6 \/ X = 7) as [->| ->] by (cbn in G; lia); injection E as <-; repeat constructor; discriminate.
Qed.

(** * A text that is not C *)

(** Where the next character stands: in code, behind "/", in a string, behind a backslash in a string, in a comment, behind "*" in
    a comment.  A backslash in code has no next place. *)
Inductive place := InCode | Slash | InString | Escape | InComment | Star.
Definition step (s : place) (c : Z) : option place :=
  match s with
  | InCode | Slash => if (c =? 34)%Z then Some InString else if (c =? 92)%Z then None else if (c =? 47)%Z then Some Slash
      else if (c =? 42)%Z then Some (match s with Slash => InComment | _ => InCode end) else Some InCode
  | InString => Some (if (c =? 34)%Z then InCode else if (c =? 92)%Z then Escape else InString)
  | Escape => Some InString
  | InComment => Some (if (c =? 42)%Z then Star else InComment)
  | Star => Some (if (c =? 47)%Z then InCode else if (c =? 42)%Z then Star else InComment)
  end.
Fixpoint run (s : place) (t : txt) : option place := match t with [] => Some s | c :: r => match step s c with Some s' => run s' r | None => None end end.
Definition code_place (o : option place) : Prop := o = Some InCode \/ o = Some Slash.

Lemma run_app : forall t s u, run s (t ++ u) = match run s t with Some s' => run s' u | None => None end.
Proof. induction t as [|c t IH]; intros s u; [reflexivity|]. cbn [app run]. destruct (step s c); [apply IH|reflexivity]. Qed.
Lemma run_slash : forall t, code_place (run InCode t) -> match t with c :: _ => c <> 42%Z | [] => True end -> code_place (run Slash t).
Proof.
  intros [|c t] H N; [now right|]. cbn [run] in *. unfold step in *. destruct (Z.eqb_spec c 34); [exact H|]. destruct (Z.eqb_spec c 92); [exact H|]. destruct (Z.eqb_spec c 47); [exact H|]. destruct (Z.eqb_spec c 42); [contradiction|exact H].
Qed.
Lemma run_word : forall w t, Forall (fun c => wordch c = true) w -> run InCode (w ++ t) = run InCode t.
Proof.
  induction 1 as [|c w C F IH]; [reflexivity|]. cbn [app run]. unfold step. assert ((c <> 34 /\ c <> 92 /\ c <> 47 /\ c <> 42)%Z) as (N1 & N2 & N3 & N4) by (repeat split; intros ->; discriminate).
  destruct (Z.eqb_spec c 34); [contradiction|]. destruct (Z.eqb_spec c 92); [contradiction|]. destruct (Z.eqb_spec c 47); [contradiction|]. destruct (Z.eqb_spec c 42); [contradiction|]. exact IH.
Qed.
Lemma run_string : forall s v t, cstr s v -> run InString (s ++ t) = run InString t.
Proof.
  induction 1 as [|c s v C H IH|c s v C H IH]; [reflexivity| |]; cbn [app run step].
  - unfold strch in C. destruct (Z.eqb_spec c 34); [lia|]. destruct (Z.eqb_spec c 92); [lia|]. exact IH.
  - exact IH.
Qed.
Lemma run_comment : forall c t, no_close c -> run InComment (c ++ 42%Z :: 47%Z :: t) = run InCode t.
Proof.
  assert (K : forall c t, (no_close c -> run InComment (c ++ 42%Z :: 47%Z :: t) = run InCode t) /\ (no_close (42%Z :: c) -> run Star (c ++ 42%Z :: 47%Z :: t) = run InCode t)).
  { induction c as [|d c IH]; intros t; [split; reflexivity|]. destruct (IH t) as (I1 & I2). split; intros N; cbn [app run step].
    - destruct (Z.eqb_spec d 42) as [->|D]; [apply I2, N|]. apply I1. intros x y E. apply (N (d :: x) y). cbn [app]. now rewrite E.
    - destruct (Z.eqb_spec d 47) as [->|D]; [exfalso; apply (N [] (c ++ [42%Z])); reflexivity|]. assert (N' : no_close (d :: c)) by (intros x y E; apply (N (42%Z :: x) y); cbn [app] in *; now rewrite E).
      destruct (Z.eqb_spec d 42) as [->|D']; [apply I2, N'|]. apply I1. intros x y E. apply (N' (d :: x) y). cbn [app]. now rewrite E. }
  intros c t. apply K.
Qed.

(** Every text with tokens can be walked through and ends in code. *)
Lemma clex_run : forall b t ts, clex b t ts -> code_place (run InCode t).
Proof.
  induction 1 as [b|b c t ts C H IH|b t ts H IH|b c t ts C H IH|b c w t ts C W E H IH|b c d t ts C D Z0 E H IH|b s v t ts F H IH|b c t ts P B K H IH|l t ls ts N L IL H IH].
  - now left.
  - destruct C as [->| ->]; exact IH.
  - exact IH.
  - change (run InCode (47%Z :: 42%Z :: c ++ 42%Z :: 47%Z :: t)) with (run InComment (c ++ 42%Z :: 47%Z :: t)). now rewrite run_comment.
  - change (c :: w ++ t) with ((c :: w) ++ t). rewrite run_word; [exact IH|]. constructor; [now apply w0_wordch|exact W].
  - change (c :: d ++ t) with ((c :: d) ++ t). rewrite run_word; [exact IH|]. assert (WD : forall x, digit x -> wordch x = true) by (intros x X; unfold digit in X; unfold wordch, isalnum; lia). constructor; [now apply WD|]. eapply Forall_impl; [|exact D]. exact WD.
  - change (run InCode (34%Z :: s ++ 34%Z :: t)) with (run InString (s ++ 34%Z :: t)). rewrite (run_string s v _ F). exact IH.
  - cbn [run]. unfold step. destruct P as (_ & _ & P1 & _ & P2). destruct (Z.eqb_spec c 34); [contradiction|]. destruct (Z.eqb_spec c 92); [contradiction|]. destruct (Z.eqb_spec c 47) as [->|].
    + apply run_slash; [exact IH|]. specialize (K eq_refl). destruct t; [exact Logic.I|apply K].
    + destruct (Z.eqb_spec c 42); exact IH.
  - change (run InCode (35%Z :: l ++ 10%Z :: t)) with (run InCode (l ++ 10%Z :: t)). rewrite run_app. destruct IL as [IL|IL]; rewrite IL; exact IH.
Qed.

(** The string "a\"b" is a legal token of a grammar, but its entry in yyname and the rules with it are printed as "\"a\\"b\"", which
    no C compiler reads. *)
Theorem C77_quote_in_string_refuted : exists (nm : list txt) s sv text,
  wf_src s /\ wf_sv s sv /\ nth (b_ntokens s) sv 0%Z = (-1)%Z /\ List.length nm = b_nsyms s /\
  nth_error nm 5 = Some (literal_name [97; 34; 98]%Z) /\ (forall X n, nth_error nm X = Some n -> X <> 5 -> name_ok n) /\
  output_names (zs "yy") false nm (pack_grammar s) sv = Ok text /\ forall b ts, ~ clex b text ts.
Proof.
  destruct C77_hypotheses as (A & B & C & _ & _ & D & _). exists [zs "$end"; zs "error"; literal_name [10%Z]; literal_name [34%Z]; literal_name [92%Z]; literal_name [97; 34; 98]%Z; zs "$accept"; zs "e.$1"], ex39, sv77. eexists.
  split; [exact A|]. split; [exact B|]. split; [exact C|]. split; [reflexivity|]. split; [reflexivity|]. split.
  { intros X n E N. apply (D X). rewrite <- E. do 8 (destruct X as [|X]; [first [reflexivity|contradiction]|]). reflexivity. }
  split; [vm_compute; reflexivity|]. intros b ts H. apply clex_run in H. vm_compute in H. destruct H as [H|H]; discriminate H.
Qed.
Print Assumptions C77_quote_in_string_refuted.
