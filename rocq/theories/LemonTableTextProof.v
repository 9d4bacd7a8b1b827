(** The tokens of the tables lemon prints. *)
From Coq Require Import String List Arith ZArith NArith Bool Lia.
Import ListNotations.
From Verif Require Import Base CLib SpecGrammar LemonSetModel LemonStatesModel LemonSortModel LemonActionModel LemonCompressModel LemonActtabModel LemonReportModel LemonParModel LemonPipelineModel
  LemonTableModel LemonPreModel LemonCodeModel Prop_LemonPrintf SpecCode LemonCodeProof LemonReprintModel LemonReprintProof SpecCText CTextProof LemonTableTextModel.
Local Open Scope res_scope.

Notation nums := (flat_map (fun v => cnum v ++ [CP 44%Z])).

Lemma pad_star : forall n t, ~ In 42%Z t -> ~ In 42%Z (pad_left n t).
Proof. intros n t N I. unfold pad_left in I. apply in_app_iff in I as [I|I]; [apply repeat_spec in I; discriminate|contradiction]. Qed.
Lemma app_star : forall a b : txt, ~ In 42%Z a -> ~ In 42%Z b -> ~ In 42%Z (a ++ b).
Proof. intros a b A B I. apply in_app_iff in I as [I|I]; contradiction. Qed.
Ltac nostar := repeat first [assumption | apply pad_star | apply ndec_star | apply app_star | (intros K; cbn in K; repeat (destruct K as [K|K]; [discriminate K|]); exact K)].

Lemma lexed_end : forall b t b', lexed b t [] b' -> lexed b t ([] ++ []) b'.
Proof. intros b t b' H. exact H. Qed.

Lemma cell_lexed : forall b i j v, int_ok v -> lexed b (cell i j v) (cnum v ++ [CP 44%Z]) false.
Proof.
  intros b i j v V. unfold cell. apply (lexed_app b _ [] b).
  - destruct (j =? 0); [|apply lexed_nil].
    replace (zs " /* " ++ pad_left 5 (ndec i) ++ zs " */ ") with (zs " " ++ (zs "/*" ++ (zs " " ++ pad_left 5 (ndec i) ++ zs " ") ++ zs "*/") ++ zs " ") by (change (zs " /* ") with (zs " " ++ zs "/*" ++ zs " "); change (zs " */ ") with (zs " " ++ zs "*/" ++ zs " "); now rewrite <- !app_assoc).
    apply (lexed_app b _ [] b); [apply blank_lexed|]. apply (lexed_app b _ [] b); [|apply blank_lexed]. apply comment_lexed. nostar.
  - apply (lexed_app b _ [] b); [apply blank_lexed|]. apply comma_lexed. exact V.
Qed.

Lemma cells_lexed : forall n l i j b, Forall int_ok l -> exists b', lexed b (cells n i j l) (nums l) b'.
Proof.
  intros n. induction l as [|v l IH]; intros i j b F; cbn [cells flat_map]; [exists b; apply lexed_nil|]. inversion F; subst.
  destruct (_ || _).
  - destruct (IH (S i) 0 true H2) as (b' & L). exists b'. apply (lexed_app b _ _ false); [now apply cell_lexed|]. apply (lexed_app false _ [] true); [apply nl_lexed|exact L].
  - destruct (IH (S i) (S j) false H2) as (b' & L). exists b'. apply (lexed_app b _ _ false); [now apply cell_lexed|exact L].
Qed.

Lemma open_cells_lexed : forall l i j b t s, Forall int_ok l -> open_cells i j l = (t, s) -> fst s = i + List.length l /\ exists b', lexed b t (nums l) b'.
Proof.
  induction l as [|v l IH]; intros i j b t s F E; cbn [open_cells] in E.
  - injection E as <- <-. split; [cbn; lia|]. exists b. apply lexed_nil.
  - inversion F; subst. destruct (j =? 9).
    + destruct (open_cells (S i) 0 l) as (t0 & s0) eqn:E0. injection E as <- <-. destruct (IH _ _ true _ _ H2 E0) as (LN & b' & L). split; [cbn [List.length]; lia|]. exists b'. cbn [flat_map].
      apply (lexed_app b _ _ false); [now apply cell_lexed|]. exact (lexed_app false nl [] true _ _ _ (nl_lexed _) L).
    + destruct (open_cells (S i) (S j) l) as (t0 & s0) eqn:E0. injection E as <- <-. destruct (IH _ _ false _ _ H2 E0) as (LN & b' & L). split; [cbn [List.length]; lia|]. exists b'. cbn [flat_map].
      apply (lexed_app b _ _ false); [now apply cell_lexed|exact L].
Qed.

Lemma close_lexed : forall b, lexed b (zs "};" ++ nl) [CP 125%Z; CP 59%Z] true.
Proof. intros b. apply line_lexed; [destruct b; vm_compute; reflexivity|reflexivity]. Qed.

Definition array_head (mods : list string) (n : string) : list ctok := map W mods ++ [CW (zs n); CP 91%Z; CP 93%Z; CP 61%Z; CP 123%Z].
Lemma carray_split : forall m n vs, carray m (zs n) vs = array_head m n ++ nums vs ++ [CP 125%Z; CP 59%Z].
Proof. intros m n vs. unfold carray, array_head. now rewrite <- !app_assoc. Qed.

Definition head_ok (head : string) (mods : list string) (n : string) : Prop :=
  lexb (S (List.length (zs head ++ nl))) true (zs head ++ nl) = Some (array_head mods n).
Lemma head_lexed : forall head mods n, head_ok head mods n -> lexed true (zs head ++ nl) (array_head mods n) true.
Proof. intros head mods n H. apply line_lexed; [exact H|]. rewrite last_app by discriminate. reflexivity. Qed.

Lemma array_lexed : forall head mods n l, head_ok head mods n -> Forall int_ok l -> lexed true (array head l) (carray mods (zs n) l) true.
Proof.
  intros head mods n l H F. unfold array. rewrite carray_split. rewrite (app_assoc (zs head)). apply (lexed_app true _ _ true); [now apply head_lexed|].
  destruct (cells_lexed (List.length l) l 0 0 true F) as (b & L). apply (lexed_app true _ _ b); [exact L|apply close_lexed].
Qed.

Definition def_ok (s : string) (n : string) : Prop :=
  match zs s with c :: l => c = 35%Z /\ lexb (S (List.length l)) false l = Some [W "define"; W n] /\ List.last l 0%Z = 32%Z /\ ~ In 10%Z l | [] => False end.
Lemma def_lexed : forall s n v, def_ok s n -> int_ok v -> lexed true (define s v) (cdef n v) true.
Proof.
  intros s n v H V. unfold define, def_ok in *. destruct (zs s) as [|c l]; [destruct H|]. destruct H as (-> & H1 & H2 & H3). cbn [app]. apply (define_lexed l [W "define"; W n] v); assumption.
Qed.
Definition defp_ok (s : string) (n : string) : Prop :=
  match zs s with c :: l => c = 35%Z /\ lexb (S (List.length l)) false l = Some [W "define"; W n; CP 40%Z] /\ List.last l 0%Z = 40%Z /\ ~ In 10%Z l | [] => False end.
Lemma defp_lexed : forall s n v, defp_ok s n -> int_ok v -> lexed true (definep s v) (cdefp n v) true.
Proof.
  intros s n v H V. unfold definep, defp_ok in *. destruct (zs s) as [|c l]; [destruct H|]. destruct H as (-> & H1 & H2 & H3). cbn [app]. apply (definep_lexed l [W "define"; W n; CP 40%Z] v); assumption.
Qed.
Ltac lit_ok := split; [reflexivity|]; split; [vm_compute; reflexivity|]; split; [reflexivity|intros K; cbn in K; repeat (destruct K as [K|K]; [discriminate K|]); exact K].

(** The names of the types *)
Definition ctype_words (t : ctype) : list string :=
  match t with
  | T_uchar => ["unsigned"; "char"] | T_ushort => ["unsigned"; "short"; "int"] | T_uint => ["unsigned"; "int"]
  | T_schar => ["signed"; "char"] | T_short => ["short"] | T_int => ["int"]
  end%string.

Lemma types_lexed : forall ns mx w, int_ok ns -> match w with Some v => int_ok v | None => True end ->
  lexed true (types_text ns mx w) (cdefw "YYCODETYPE" (ctype_words (fst (minimum_size_type 0 ns))) ++ cdef "YYNOCODE" ns ++
    cdefw "YYACTIONTYPE" (ctype_words (fst (minimum_size_type 0 mx))) ++ match w with Some v => cdef "YYWILDCARD" v | None => [] end) true.
Proof.
  intros ns mx w N V. unfold types_text. rewrite (app_assoc (zs "#define YYCODETYPE ")), (app_assoc (_ ++ zs (ctype_text (fst (minimum_size_type 0 ns))))).
  apply (lexed_app true _ _ true). { apply line_lexed; [destruct (fst _); vm_compute; reflexivity|destruct (fst _); reflexivity]. }
  apply (lexed_app true _ _ true). { apply def_lexed; [lit_ok|exact N]. }
  rewrite (app_assoc (zs "#define YYACTIONTYPE ")), (app_assoc (_ ++ zs (ctype_text (fst (minimum_size_type 0 mx))))).
  apply (lexed_app true _ _ true). { apply line_lexed; [destruct (fst _); vm_compute; reflexivity|destruct (fst _); reflexivity]. }
  destruct w as [v|]; [|apply lexed_nil]. apply def_lexed; [lit_ok|exact V].
Qed.

Lemma errsymdt_lexed : forall dt, int_ok dt -> (0 <= dt)%Z -> lexed true (zs "#define YYERRSYMDT yy" ++ zdec dt ++ nl) [CD [W "define"; W "YYERRSYMDT"; CW (zs "yy" ++ zdec dt)]] true.
Proof.
  intros dt D P u us H. rewrite zdec_num by exact D. unfold num. destruct (Z.ltb_spec dt 0); [lia|]. destruct (digits_lex dt) as (c & d & E & C & F & _). rewrite E. change ([] ++ c :: d) with (c :: d). change ([CD [W "define"; W "YYERRSYMDT"; CW (zs "yy" ++ c :: d)]] ++ us) with (CD [W "define"; W "YYERRSYMDT"; CW (zs "yy" ++ c :: d)] :: us).
  assert (FW : Forall digit (c :: d)) by (constructor; auto).
  replace ((zs "#define YYERRSYMDT yy" ++ (c :: d) ++ nl) ++ u) with (35%Z :: (zs "define YYERRSYMDT " ++ zs "yy" ++ (c :: d)) ++ 10%Z :: u) by (rewrite <- !app_assoc; reflexivity).
  apply cl_dir; [| |exact H].
  - rewrite !in_app_iff. intros [I|[I|I]]; [cbn in I; repeat (destruct I as [I|I]; [discriminate I|]); exact I|cbn in I; repeat (destruct I as [I|I]; [discriminate I|]); exact I|].
    rewrite Forall_forall in FW. specialize (FW _ I). unfold digit in FW. lia.
  - apply (clex_part false (zs "define YYERRSYMDT ") [W "define"; W "YYERRSYMDT"]); [apply (lexb_ok 19); vm_compute; reflexivity|reflexivity|left; reflexivity| |].
    + intros K. cbn in K. repeat (destruct K as [K|K]; [discriminate K|]). exact K.
    + pose proof (cl_word false 121%Z (121%Z :: c :: d) [] []) as Q. rewrite !app_nil_r in Q. apply Q; [reflexivity| |exact Logic.I|constructor].
      constructor; [reflexivity|]. eapply Forall_impl; [|exact FW]. intros a A. unfold digit in A. unfold wordch, isalnum, isalpha. lia.
Qed.

Lemma error_lexed : forall e dt fb, match e with Some v => int_ok v | None => True end -> int_ok dt -> (0 <= dt)%Z ->
  lexed true (error_text e dt fb) (match e with Some v => cdef "YYERRORSYMBOL" v ++ [CD [W "define"; W "YYERRSYMDT"; CW (zs "yy" ++ zdec dt)]] | None => [] end ++
    if fb : bool then cdef "YYFALLBACK" 1 else []) true.
Proof.
  intros e dt fb V D P. unfold error_text. apply (lexed_app true _ _ true).
  - destruct e as [v|]; [|apply lexed_nil]. apply (lexed_app true _ _ true); [apply def_lexed; [lit_ok|exact V]|now apply errsymdt_lexed].
  - destruct fb; [|apply lexed_nil]. apply line_lexed; [vm_compute; reflexivity|reflexivity].
Qed.

Definition consts_tokens (k : consts) (nx nrule nact nterm : Z) : list ctok :=
  cdef "YYNSTATE" nx ++ cdef "YYNRULE" nrule ++ cdef "YYNRULE_WITH_ACTION" nact ++ cdef "YYNTOKEN" nterm ++ cdef "YY_MAX_SHIFT" (nx - 1) ++
  cdef "YY_MIN_SHIFTREDUCE" (k_minShiftReduce k) ++ cdef "YY_MAX_SHIFTREDUCE" (k_minShiftReduce k + nrule - 1) ++ cdef "YY_ERROR_ACTION" (k_errAction k) ++
  cdef "YY_ACCEPT_ACTION" (k_accAction k) ++ cdef "YY_NO_ACTION" (k_noAction k) ++ cdef "YY_MIN_REDUCE" (k_minReduce k) ++ cdef "YY_MAX_REDUCE" (k_minReduce k + nrule - 1).
Lemma consts_lexed : forall k nx nrule nact nterm, Forall int_ok [nx; nrule; nact; nterm; nx - 1; k_minShiftReduce k; k_minShiftReduce k + nrule - 1; k_errAction k; k_accAction k; k_noAction k; k_minReduce k; k_minReduce k + nrule - 1]%Z ->
  lexed true (consts_text k nx nrule nact nterm) (consts_tokens k nx nrule nact nterm) true.
Proof.
  intros k nx nrule nact nterm F. repeat match goal with H : Forall _ (_ :: _) |- _ => inversion H; clear H; subst end. unfold consts_text, consts_tokens.
  do 11 (apply (lexed_app true _ _ true); [apply def_lexed; [lit_ok|assumption]|]). apply def_lexed; [lit_ok|assumption].
Qed.

(** * Rows with comments *)

Lemma tail_lexed : forall b c, ~ In 42%Z c -> lexed b (zs "  /*" ++ c ++ zs "*/" ++ nl) [] true.
Proof.
  intros b c N. change (zs "  /*") with (zs " " ++ zs " " ++ zs "/*"). rewrite <- !app_assoc. apply (lexed_app b _ [] b); [apply blank_lexed|]. apply (lexed_app b _ [] b); [apply blank_lexed|].
  rewrite (app_assoc c), (app_assoc (zs "/*")). apply (lexed_app b _ [] b); [now apply comment_lexed|apply nl_lexed].
Qed.

Lemma fallback_row_lexed : forall nm i f, (forall s, ~ In 42%Z (nm s)) -> int_ok (Z.of_nat f) -> lexed true (fallback_row nm i f) (cnum (Z.of_nat f) ++ [CP 44%Z]) true.
Proof.
  intros nm i f N V. unfold fallback_row. destruct (Nat.eqb_spec f 0) as [->|NZ].
  - replace (zs "    0,  /* " ++ pad_left 10 (nm i) ++ zs " => nothing */" ++ nl) with ((pad_left 5 (zdec 0%Z) ++ [44%Z]) ++ zs "  /*" ++ (zs " " ++ pad_left 10 (nm i) ++ zs " => nothing ") ++ zs "*/" ++ nl)
      by (change (zs "    0,  /* ") with ((pad_left 5 (zdec 0%Z) ++ [44%Z]) ++ zs "  /*" ++ zs " "); change (zs " => nothing */") with (zs " => nothing " ++ zs "*/"); now rewrite <- !app_assoc).
    rewrite <- (app_nil_r (cnum _ ++ _)). apply (lexed_app true _ _ false); [apply comma_lexed; exact V|]. apply tail_lexed. specialize (N i). nostar.
  - replace (zs "  " ++ pad_left 3 (ndec f) ++ zs ",  /* " ++ pad_left 10 (nm i) ++ zs " => " ++ nm f ++ zs " */" ++ nl)
      with (repeat 32%Z 2 ++ (pad_left 3 (zdec (Z.of_nat f)) ++ [44%Z]) ++ zs "  /*" ++ (zs " " ++ pad_left 10 (nm i) ++ zs " => " ++ nm f ++ zs " ") ++ zs "*/" ++ nl)
      by (change (zs ",  /* ") with ([44%Z] ++ zs "  /*" ++ zs " "); change (zs " */") with (zs " " ++ zs "*/"); unfold ndec; rewrite <- !app_assoc; reflexivity).
    apply (lexed_app true _ [] true); [apply lexed_blanks|]. rewrite <- (app_nil_r (cnum _ ++ _)). apply (lexed_app true _ _ false); [apply comma_lexed; exact V|]. apply tail_lexed. pose proof (N i). pose proof (N f). nostar.
Qed.
Lemma fallback_rows_lexed : forall nm l i, (forall s, ~ In 42%Z (nm s)) -> Forall int_ok (map Z.of_nat l) -> lexed true (fallback_rows nm i l) (nums (map Z.of_nat l)) true.
Proof.
  intros nm. induction l as [|f l IH]; intros i N F; cbn [fallback_rows map flat_map]; [apply lexed_nil|]. inversion F; subst.
  apply (lexed_app true _ _ true); [now apply fallback_row_lexed|auto].
Qed.
Lemma fallback_lexed : forall nm fb, (forall s, ~ In 42%Z (nm s)) -> (forall l, fb = Some l -> Forall int_ok (map Z.of_nat l)) ->
  lexed true (fallback_text nm fb) (match fb with Some l => carray ["static"; "const"; "YYCODETYPE"]%string (zs "yyFallback") (map Z.of_nat l) | None => [] end) true.
Proof.
  intros nm [l|] N F; [|apply lexed_nil]. unfold fallback_text. rewrite carray_split, (app_assoc (zs "static const YYCODETYPE yyFallback[] = {")). apply (lexed_app true _ _ true).
  - apply (head_lexed "static const YYCODETYPE yyFallback[] = {"). vm_compute. reflexivity.
  - apply (lexed_app true _ _ true); [apply fallback_rows_lexed; auto|apply close_lexed].
Qed.

Lemma rule_print_star : forall nm r, (forall s, ~ In 42%Z (nm s)) -> ~ In 42%Z (rule_print nm r).
Proof.
  intros nm r N. unfold rule_print. pose proof (N (r_lhs r)). nostar. induction (r_rhs r) as [|e l IH]; [intros []|]. cbn [flat_map]. apply app_star; [|exact IH].
  destruct e as [s|[|s l0]]; cbn [elem_text]; [pose proof (N s); nostar|nostar|]. pose proof (N s). nostar. clear IH. induction l0 as [|x l0 IH]; [intros []|]. cbn [flat_map]. pose proof (N x). nostar.
Qed.
Lemma rule_rows_lexed : forall nm w value l i, (forall s, ~ In 42%Z (nm s)) -> Forall int_ok (map value l) -> lexed true (rule_rows nm w i value l) (nums (map value l)) true.
Proof.
  intros nm w value. induction l as [|r l IH]; intros i N F; cbn [rule_rows map flat_map]; [apply lexed_nil|]. inversion F; subst.
  apply (lexed_app true _ _ true); [|auto]. unfold rule_row.
  replace (zs "  " ++ pad_left w (zdec (value r)) ++ zs ",  /* (" ++ ndec i ++ zs ") " ++ rule_print nm r ++ zs " */" ++ nl)
    with (repeat 32%Z 2 ++ (pad_left w (zdec (value r)) ++ [44%Z]) ++ zs "  /*" ++ (zs " (" ++ ndec i ++ zs ") " ++ rule_print nm r ++ zs " ") ++ zs "*/" ++ nl)
    by (change (zs ",  /* (") with ([44%Z] ++ zs "  /*" ++ zs " ("); change (zs " */") with (zs " " ++ zs "*/"); rewrite <- !app_assoc; reflexivity).
  apply (lexed_app true _ [] true); [apply lexed_blanks|]. rewrite <- (app_nil_r (cnum _ ++ _)). apply (lexed_app true _ _ false); [now apply comma_lexed|]. apply tail_lexed. pose proof (rule_print_star nm r N). nostar.
Qed.
Lemma rules_lexed : forall nm l, (forall s, ~ In 42%Z (nm s)) -> Forall int_ok (map (fun r => Z.of_nat (r_lhs r)) l) -> Forall int_ok (map (fun r => (- Z.of_nat (List.length (r_rhs r)))%Z) l) ->
  lexed true (rules_text nm l) (carray ["static"; "const"; "YYCODETYPE"]%string (zs "yyRuleInfoLhs") (map (fun r => Z.of_nat (r_lhs r)) l) ++
    carray ["static"; "const"; "signed"; "char"]%string (zs "yyRuleInfoNRhs") (map (fun r => (- Z.of_nat (List.length (r_rhs r)))%Z) l)) true.
Proof.
  intros nm l N F1 F2. unfold rules_text. rewrite !carray_split. rewrite <- !app_assoc.
  rewrite (app_assoc (zs "static const YYCODETYPE yyRuleInfoLhs[] = {")). apply (lexed_app true _ _ true). { apply (head_lexed "static const YYCODETYPE yyRuleInfoLhs[] = {"). vm_compute. reflexivity. }
  apply (lexed_app true _ _ true); [apply rule_rows_lexed; auto|]. rewrite (app_assoc (zs "};")). apply (lexed_app true _ _ true); [apply close_lexed|].
  rewrite (app_assoc (zs "static const signed char yyRuleInfoNRhs[] = {")). apply (lexed_app true _ _ true). { apply (head_lexed "static const signed char yyRuleInfoNRhs[] = {"). vm_compute. reflexivity. }
  apply (lexed_app true _ _ true); [apply rule_rows_lexed; auto|apply close_lexed].
Qed.

(** * The tables *)
From Verif Require Import LemonActtabProof LemonReportProof LemonTableRangeProof.
Notation cell := LemonTableTextModel.cell.

Definition tables_tokens (t : tables) (ts tr : ctype) (mt xt mn xn : Z) : list ctok :=
  cdefp "YY_ACTTAB_COUNT" (YY_ACTTAB_COUNT t) ++ carray ["static"; "const"; "YYACTIONTYPE"]%string (zs "yy_action") (yy_action t) ++
  carray ["static"; "const"; "YYCODETYPE"]%string (zs "yy_lookahead") (yy_lookahead t) ++
  cdefp "YY_SHIFT_COUNT" (YY_SHIFT_COUNT t) ++ cdefp "YY_SHIFT_MIN" mt ++ cdefp "YY_SHIFT_MAX" xt ++
  carray ("static" :: "const" :: ctype_words ts)%string (zs "yy_shift_ofst") (yy_shift_ofst t) ++
  cdefp "YY_REDUCE_COUNT" (YY_REDUCE_COUNT t) ++ cdefp "YY_REDUCE_MIN" mn ++ cdefp "YY_REDUCE_MAX" xn ++
  carray ("static" :: "const" :: ctype_words tr)%string (zs "yy_reduce_ofst") (yy_reduce_ofst t) ++
  carray ["static"; "const"; "YYACTIONTYPE"]%string (zs "yy_default") (yy_default t).

Lemma nums_app : forall a b : list Z, nums (a ++ b) = nums a ++ nums b.
Proof. intros a b. now rewrite flat_map_app. Qed.

Lemma put_all_ge : forall L a n mn i a1 n1, put_all a n mn i L = Ok (a1, n1) -> (n <= n1)%Z.
Proof.
  induction L as [|[la ac] L IH]; intros a n mn i a1 n1 H; cbn [put_all] in H; [inversion H; lia|]. apply bind_Ok in H as (a2 & _ & H). apply IH in H.
  destruct (Z.leb_spec n (la - mn + i)); lia.
Qed.
Lemma add_rows_ge : forall rows p p1 os, add_rows p rows = Ok (p1, os) -> (nAction p <= nAction p1)%Z.
Proof.
  induction rows as [|r rows IH]; intros p p1 os H; cbn [add_rows] in H; [inversion H; subst; lia|].
  apply bind_Ok in H as ([p2 o2] & H1 & H). apply bind_Ok in H as ([p3 os3] & H2 & H). inversion H; subst. apply IH in H2.
  assert (E : forall row q, nAction (fold_left (fun p x => acttab_action p (fst x) (snd x)) row q) = nAction q).
  { induction row as [|[la ac] row IHr]; intros q; cbn [fold_left]; [reflexivity|]. rewrite IHr. cbn [fst snd]. unfold acttab_action. destruct (aLookahead q); [reflexivity|]. destruct (_ <? _)%Z; reflexivity. }
  unfold add_row in H1. specialize (E (fst r) p). set (q := fold_left _ _ _) in *. clearbody q. unfold acttab_insert in H1. destruct (_ <=? _)%Z; [discriminate|]. cbv zeta in H1.
  apply bind_Ok in H1 as (d & _ & H1). apply bind_Ok in H1 as (i & _ & H1). apply bind_Ok in H1 as ([a1 n1] & HP & H1). apply put_all_ge in HP.
  inversion H1 as [[X1 X2]]. rewrite <- X1 in H2. cbn [nAction] in H2. destruct (snd r && (n1 <=? i + t_nterminal q)%Z) eqn:B; [apply andb_prop in B as (_ & B); apply Z.leb_le in B|]; lia.
Qed.

Lemma report_text_lexed : forall k nrule ns nt sts t mt xt mn xn,
  ReportTables k nrule ns nt sts = Ok t -> ofst_limits ns nt sts = Ok (mt, xt, mn, xn) ->
  Forall int_ok [YY_ACTTAB_COUNT t; YY_SHIFT_COUNT t; mt; xt; YY_REDUCE_COUNT t; mn; xn] ->
  Forall int_ok (yy_action t) -> Forall int_ok (yy_lookahead t) -> Forall int_ok (yy_shift_ofst t) -> Forall int_ok (yy_reduce_ofst t) -> Forall int_ok (yy_default t) ->
  exists z, report_text k ns nt sts = Ok z /\
    lexed true z (tables_tokens t (fst (minimum_size_type mt (nt + YY_ACTTAB_COUNT t))) (fst (minimum_size_type (mn - 1) xn)) mt xt mn xn) true.
Proof.
  intros k nrule ns nt sts t mt xt mn xn H HL FC FA FL FS FR FD. unfold report_text, ReportTables, ofst_limits in *. cbv zeta in *.
  set (axs := take_nonempty (qsort axset_le (make_ax 0 sts))) in *. clearbody axs.
  apply bind_Ok in H as ([p os] & HR & H). rewrite HR in *. cbn [bind] in *.
  match type of HL with Ok ?T = _ => assert (EL : T = (mt, xt, mn, xn)) by congruence end. clear HL.
  injection EL as E1 E2 E3 E4. rewrite E1, E2, E3, E4 in *. clear E1 E2 E3 E4.
  apply bind_Ok in H as (n & HS & H). rewrite HS. cbn [bind]. apply bind_Ok in H as (acts & HA & H). rewrite HA. cbn [bind].
  apply bind_Ok in H as (lks & HK & H). rewrite HK. cbn [bind].
  match type of H with Ok ?T = _ => assert (ET : t = T) by congruence end. rewrite ET in *. clear ET H.
  cbn [YY_ACTTAB_COUNT yy_action yy_lookahead YY_SHIFT_COUNT yy_shift_ofst YY_REDUCE_COUNT yy_reduce_ofst yy_default] in *.
  repeat match goal with H : Forall int_ok (_ :: _) |- _ => inversion H; clear H; subst end. unfold tables_tokens.
  cbn [YY_ACTTAB_COUNT yy_action yy_lookahead YY_SHIFT_COUNT yy_shift_ofst YY_REDUCE_COUNT yy_reduce_ofst yy_default].
  apply Forall_app in FL as (FL1 & FL2).
  destruct (open_cells 0 0 _) as (u1 & s1) eqn:O1. destruct (open_cells_lexed _ _ _ true _ _ FL1 O1) as (I1 & b1 & L1). rewrite map_length in I1. destruct s1 as (i & j). cbn [fst] in I1.
  assert (EI : Z.of_nat i = nAction p).
  { apply rd_upto_ok in HK as (EK & _). rewrite EK, map_length, seq_length in I1. apply add_rows_ge in HR. cbn [acttab_alloc nAction] in HR. lia. }
  rewrite EI. destruct (open_cells i j _) as (u2 & s2) eqn:O2. destruct (open_cells_lexed _ _ _ b1 _ _ FL2 O2) as (_ & b2 & L2). destruct s2 as (i2 & j2).
  eexists. split; [reflexivity|]. rewrite <- !app_assoc.
  apply (lexed_app true _ _ true); [apply defp_lexed; [lit_ok|assumption]|].
  apply (lexed_app true _ _ true); [apply array_lexed; [vm_compute; reflexivity|exact FA]|].
  rewrite (carray_split _ "yy_lookahead"), nums_app, <- !app_assoc. rewrite (app_assoc (zs "static const YYCODETYPE yy_lookahead[] = {")).
  apply (lexed_app true _ _ true). { apply (head_lexed "static const YYCODETYPE yy_lookahead[] = {"). vm_compute. reflexivity. }
  apply (lexed_app true _ _ b1); [exact L1|]. apply (lexed_app b1 _ _ b2); [exact L2|].
  set (b3 := if 0 <? j2 then true else b2). apply (lexed_app b2 _ [] b3). { unfold b3. destruct (0 <? j2); [apply nl_lexed|apply lexed_nil]. }
  rewrite (app_assoc (zs "};")). apply (lexed_app b3 (zs "};" ++ nl) [CP 125%Z; CP 59%Z] true); [apply close_lexed|].
  do 3 (apply (lexed_app true _ _ true); [apply defp_lexed; [lit_ok|assumption]|]).
  apply (lexed_app true _ _ true). { apply array_lexed; [destruct (fst _); vm_compute; reflexivity|exact FS]. }
  do 3 (apply (lexed_app true _ _ true); [apply defp_lexed; [lit_ok|assumption]|]).
  apply (lexed_app true _ _ true). { apply array_lexed; [destruct (fst _); vm_compute; reflexivity|exact FR]. }
  apply array_lexed; [vm_compute; reflexivity|exact FD].
Qed.
