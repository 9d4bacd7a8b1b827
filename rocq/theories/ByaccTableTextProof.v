(** The tokens of the tables byacc prints. *)
From Coq Require Import String List Arith ZArith NArith Bool Lia.
Import ListNotations.
From Verif Require Import Base ByaccScanModel LemonTableModel LemonPreModel LemonCodeModel Prop_LemonPrintf SpecCode LemonCodeProof LemonReprintModel SpecCText CTextProof LemonTableTextProof
  ByaccLr0Model ByaccLalrModel ByaccParModel ByaccOutputModel ByaccParserModel ByaccTableRangeProof ByaccTableTextModel.
Local Open Scope res_scope.

(** A word of C. *)
Definition ident (w : txt) : Prop := match w with c :: r => w0 c = true /\ Forall (fun c => wordch c = true) r | [] => False end.

Lemma w0_wordch : forall c, w0 c = true -> wordch c = true.
Proof. intros c H. unfold w0, wordch, isalnum, isalpha in *. lia. Qed.
Lemma ident_app : forall p n, ident p -> Forall (fun c => wordch c = true) n -> ident (p ++ n).
Proof. intros [|c r] n H F; [destruct H|]. destruct H as (A & B). split; [exact A|]. apply Forall_app. auto. Qed.
Lemma ident_chars : forall w, ident w -> Forall (fun c => wordch c = true) w.
Proof. intros [|c r] H; [constructor|]. destruct H as (A & B). constructor; [now apply w0_wordch|exact B]. Qed.

Lemma word_clex : forall b w t ts, ident w -> ends t -> clex false t ts -> clex b (w ++ t) (CW w :: ts).
Proof. intros b [|c r] t ts I E H; [destruct I|]. destruct I as (A & B). cbn [app]. now apply cl_word. Qed.
Lemma word_lexed : forall b w, ident w -> lexed b (w ++ zs " ") [CW w] false.
Proof. intros b w I u us H. rewrite <- app_assoc. apply word_clex; [exact I|split; [reflexivity|discriminate]|]. cbn [zs app]. apply cl_blank; [now left|exact H]. Qed.
Lemma open_lexed : forall b w, ident w -> lexed b (w ++ zs "[] = {") [CW w; CP 91%Z; CP 93%Z; CP 61%Z; CP 123%Z] false.
Proof.
  intros b w I u us H. rewrite <- app_assoc. change ([CW w; CP 91%Z; CP 93%Z; CP 61%Z; CP 123%Z] ++ us) with (CW w :: CP 91%Z :: CP 93%Z :: CP 61%Z :: CP 123%Z :: us).
  apply word_clex; [exact I|split; [reflexivity|discriminate]|].
  change (zs "[] = {" ++ u) with (91%Z :: 93%Z :: 32%Z :: 61%Z :: 32%Z :: 123%Z :: u).
  repeat (first [apply cl_blank; [now left|] | apply cl_punct; [repeat split; try lia; discriminate|discriminate|discriminate|]]). exact H.
Qed.

Ltac idn := vm_compute; repeat constructor.

Lemma start_lexed : forall p n v, ident (p ++ zs n) -> int_ok v ->
  lexed true (start_int_table p n v) (map W ["static"; "const"; "YYINT"]%string ++ [CW (p ++ zs n); CP 91%Z; CP 93%Z; CP 61%Z; CP 123%Z] ++ cnum v ++ [CP 44%Z]) false.
Proof.
  intros p n v I V. unfold start_int_table. cbv zeta.
  replace (zs "static const YYINT " ++ p ++ zs n ++ zs "[] = {" ++ pad_left (if 34 - (List.length p + List.length (zs n)) <? 6 then 6 else 34 - (List.length p + List.length (zs n))) (zdec v) ++ zs ",")
    with ((zs "static" ++ zs " ") ++ (zs "const" ++ zs " ") ++ (zs "YYINT" ++ zs " ") ++ ((p ++ zs n) ++ zs "[] = {") ++ (pad_left (if 34 - (List.length p + List.length (zs n)) <? 6 then 6 else 34 - (List.length p + List.length (zs n))) (zdec v) ++ [44%Z]))
    by (rewrite <- !app_assoc; reflexivity).
  cbn [map]. change ([W "static"; W "const"; W "YYINT"] ++ ?x) with ([W "static"] ++ [W "const"] ++ [W "YYINT"] ++ x).
  apply (lexed_app true _ [W "static"] false); [apply word_lexed; idn|]. apply (lexed_app false _ [W "const"] false); [apply word_lexed; idn|]. apply (lexed_app false _ [W "YYINT"] false); [apply word_lexed; idn|].
  apply (lexed_app false _ _ false); [now apply open_lexed|]. now apply comma_lexed.
Qed.

Lemma int_cells_lexed : forall l j b, Forall int_ok l -> exists b', lexed b (int_cells j l) (nums l) b'.
Proof.
  induction l as [|v l IH]; intros j b F; cbn [int_cells flat_map]; [exists b; apply lexed_nil|]. inversion F; subst. destruct (10 <=? j).
  - destruct (IH 1 false H2) as (b' & L). exists b'. apply (lexed_app b nl [] true); [apply nl_lexed|]. apply (lexed_app true _ _ false); [now apply comma_lexed|exact L].
  - destruct (IH (S j) false H2) as (b' & L). exists b'. apply (lexed_app b _ _ false); [now apply comma_lexed|exact L].
Qed.

Definition yarray (p : txt) (n : string) (l : list Z) : list ctok := carray ["static"; "const"; "YYINT"]%string (p ++ zs n) l.

Lemma int_table_lexed : forall p n l, ident (p ++ zs n) -> ints l -> exists t, int_table p n l = Ok t /\ lexed true t (yarray p n l) true.
Proof.
  intros p n [|v r] I (NE & F); [contradiction|]. inversion F; subst. cbn [int_table]. eexists. split; [reflexivity|].
  unfold yarray, carray. cbn [flat_map]. replace (map W ["static"; "const"; "YYINT"]%string ++ [CW (p ++ zs n); CP 91%Z; CP 93%Z; CP 61%Z; CP 123%Z] ++ ((cnum v ++ [CP 44%Z]) ++ nums r) ++ [CP 125%Z; CP 59%Z])
    with ((map W ["static"; "const"; "YYINT"]%string ++ [CW (p ++ zs n); CP 91%Z; CP 93%Z; CP 61%Z; CP 123%Z] ++ cnum v ++ [CP 44%Z]) ++ nums r ++ [] ++ [CP 125%Z; CP 59%Z]) by (rewrite <- !app_assoc; reflexivity).
  apply (lexed_app true _ _ false); [now apply start_lexed|]. destruct (int_cells_lexed r 10 false H2) as (b' & L). apply (lexed_app false _ _ b'); [exact L|].
  apply (lexed_app b' nl [] true); [apply nl_lexed|apply close_lexed].
Qed.

(** * #define lines *)

Lemma zdec_nonl : forall v, int_ok v -> ~ In 10%Z (zdec v).
Proof.
  intros v V I. rewrite zdec_num in I by exact V. unfold num in I. apply in_app_iff in I as [I|I].
  - destruct (v <? 0)%Z; [destruct I as [I|I]; [discriminate|destruct I]|destruct I].
  - destruct (digits_lex v) as (c & d & E & C & D & _). rewrite E in I. assert (F : Forall digit (c :: d)) by (constructor; auto). rewrite Forall_forall in F. specialize (F _ I). unfold digit in F. lia.
Qed.

Definition cdeft (w : txt) (v : Z) : ctok := CD (W "define" :: CW w :: cnum v).
Lemma define_word_lexed : forall w v, ident w -> int_ok v -> lexed true (zs "#define " ++ w ++ zs " " ++ zdec v ++ nl) [cdeft w v] true.
Proof.
  intros w v I V u us H. replace ((zs "#define " ++ w ++ zs " " ++ zdec v ++ nl) ++ u) with (35%Z :: ((zs "define" ++ zs " ") ++ (w ++ zs " ") ++ zdec v) ++ 10%Z :: u) by (rewrite <- !app_assoc; reflexivity).
  cbn [app]. apply cl_dir; [| |exact H].
  - rewrite !in_app_iff. intros [[K|K]|[[K|K]|K]].
    + cbn in K. repeat (destruct K as [K|K]; [discriminate K|]). exact K.
    + cbn in K. repeat (destruct K as [K|K]; [discriminate K|]). exact K.
    + pose proof (ident_chars w I) as F. rewrite Forall_forall in F. specialize (F _ K). discriminate.
    + cbn in K. repeat (destruct K as [K|K]; [discriminate K|]). exact K.
    + exact (zdec_nonl v V K).
  - apply (word_lexed false (zs "define") ltac:(idn) _ (CW w :: cnum v)). apply (word_lexed false w I _ (cnum v)). pose proof (num_clex false v [] [] V Logic.I (cl_end _)) as Q. now rewrite !app_nil_r in Q.
Qed.

(** The macro a token name gives. *)
Definition names_macro (sflag : bool) (n w : txt) : Prop := ident w /\ (n = w \/ sflag = false /\ exists r, n = 34%Z :: w ++ 34%Z :: r).

Lemma name2_wordch : forall c, c <> 36%Z -> IS_NAME2 c = wordch c.
Proof. intros c N. unfold IS_NAME2, wordch. replace (c =? 36)%Z with false by lia. apply orb_false_r. Qed.
Lemma name1_w0 : forall c, c <> 36%Z -> IS_NAME1 c = w0 c.
Proof. intros c N. unfold IS_NAME1, w0. replace (c =? 36)%Z with false by lia. apply orb_false_r. Qed.
Lemma names2_wordch : forall r, ~ In 36%Z r -> forallb IS_NAME2 r = true <-> Forall (fun c => wordch c = true) r.
Proof.
  intros r N. rewrite forallb_forall, Forall_forall. split; intros H x I; specialize (H x I).
  - rewrite name2_wordch in H; [exact H|intros ->; contradiction].
  - rewrite name2_wordch; [exact H|intros ->; contradiction].
Qed.
Lemma quoted_ok : forall r, ~ In 36%Z r -> (quoted_name r = true <-> exists w q, r = w ++ 34%Z :: q /\ Forall (fun c => wordch c = true) w) /\
  (quoted_name r = true -> Forall (fun c => wordch c = true) (until_quote r) /\ exists q, r = until_quote r ++ 34%Z :: q).
Proof.
  induction r as [|c r IH]; intros N; cbn [quoted_name until_quote].
  - split; [|discriminate]. split; [discriminate|]. intros (w & q & E & _). destruct w; discriminate.
  - destruct IH as (IH1 & IH2); [intros I; apply N; now right|]. destruct (Z.eqb_spec c 34) as [->|C].
    + split; [|intros _; split; [constructor|now exists r]]. split; [intros _|reflexivity]. exists [], r. split; [reflexivity|constructor].
    + rewrite name2_wordch by (intros ->; apply N; now left). split.
      * rewrite andb_true_iff, IH1. split.
        -- intros (A & w & q & -> & F). exists (c :: w), q. split; [reflexivity|]. now constructor.
        -- intros (w & q & E & F). destruct w as [|d w]; cbn [app] in E; injection E as E1 E2; [congruence|]. inversion F; subst. split; [assumption|]. exists w, q. auto.
      * rewrite andb_true_iff. intros (A & B). destruct (IH2 B) as (F & q & E). split; [now constructor|]. exists q. cbn [app]. now rewrite <- E.
Qed.

Lemma define_token_ok : forall sflag n v, ~ In 36%Z n -> int_ok v ->
  (exists w, names_macro sflag n w /\ lexed true (define_token sflag n v) [cdeft w v] true /\ forall w', names_macro sflag n w' -> w' = w) \/
  ((forall w, ~ names_macro sflag n w) /\ define_token sflag n v = []).
Proof.
  assert (Q34 : wordch 34 = false) by reflexivity. assert (I34 : w0 34 = false) by reflexivity.
  intros sflag [|c r] v N V.
  - right. split; [|reflexivity]. intros w (I & [<-|(_ & q & E)]); [destruct I|discriminate].
  - unfold define_token. cbn [is_C_identifier starts bare_name]. destruct (Z.eqb_spec c 34) as [->|C].
    + replace (34 =? 34)%Z with true by reflexivity. cbn [starts andb negb]. destruct r as [|d r].
      * right. split; [|reflexivity]. intros w (I & [<-|(_ & q & E)]); [destruct I; congruence|]. injection E as E. destruct w; discriminate.
      * assert (Nd : d <> 36%Z) by (intros ->; apply N; right; now left). assert (Nr : ~ In 36%Z r) by (intros I; apply N; right; now right). rewrite (name1_w0 d Nd). destruct (quoted_ok r Nr) as (Q1 & Q2).
        destruct (w0 d && quoted_name r) eqn:B.
        -- apply andb_true_iff in B as (B1 & B2). destruct (Q2 B2) as (F & q & E). destruct sflag; cbn [negb orb andb].
           ++ right. split; [|reflexivity]. intros w (I & [<-|(K & _)]); [destruct I; congruence|discriminate].
           ++ left. exists (d :: until_quote r). assert (D34 : d <> 34%Z) by (intros ->; congruence). assert (IW : ident (d :: until_quote r)) by (split; assumption).
              split; [split; [exact IW|right; split; [reflexivity|]; exists q; cbn [app]; now rewrite <- E]|]. cbn [until_quote]. destruct (Z.eqb_spec d 34); [contradiction|].
              split; [now apply define_word_lexed|]. intros w' (I' & [<-|(_ & q' & E')]); [destruct I'; congruence|]. injection E' as E'. destruct w' as [|d' w']; [destruct I'|]. cbn [app] in E'. injection E' as <- E'.
              destruct I' as (_ & F'). rewrite E in E'. destruct (split_unique (fun c => wordch c = true) (fun c => wordch c = false) (until_quote r) w' (34%Z :: q) (34%Z :: q')) as (<- & _); auto. intros; congruence.
        -- right. split; [|reflexivity]. intros w (I & [<-|(_ & q & E)]); [destruct I; congruence|]. injection E as E. destruct w as [|d' w]; [destruct I|]. cbn [app] in E. injection E as <- E. destruct I as (I1 & I2).
           apply andb_false_iff in B as [B|B]; [congruence|]. apply not_true_iff_false in B. apply B, Q1. exists w, q. auto.
    + destruct (Z.eqb_spec 34 c) as [K|_]; [congruence|]. cbn [andb negb orb]. rewrite orb_true_r, andb_true_r.
      assert (Nc : c <> 36%Z) by (intros ->; apply N; now left). assert (Nr : ~ In 36%Z r) by (intros I; apply N; now right). rewrite (name1_w0 c Nc). destruct (w0 c && forallb IS_NAME2 r) eqn:B.
      * apply andb_true_iff in B as (B1 & B2). apply (names2_wordch r Nr) in B2. left. exists (c :: r). assert (IW : ident (c :: r)) by (split; assumption). split; [split; [exact IW|now left]|].
        split; [now apply define_word_lexed|]. intros w' (_ & [E|(_ & q & E)]); [congruence|]. injection E as -> E. contradiction.
      * right. split; [|reflexivity]. intros w (I & [<-|(_ & q & E)]); [|injection E as -> _; contradiction]. destruct I as (I1 & I2). apply (names2_wordch r Nr) in I2. rewrite I1, I2 in B. discriminate.
Qed.

Notation cdefs := (map (fun d : txt * Z => cdeft (fst d) (snd d))).

Lemma defs_lexed : forall sflag (nm : list txt) sv is, (forall i, In i is -> i < List.length nm /\ i < List.length sv) -> (forall i n, In i is -> nth_error nm i = Some n -> ~ In 36%Z n) -> Forall int_ok sv ->
  exists l defs, map_res (fun i => n <- opt (nth_error nm i) ;; v <- opt (nth_error sv i) ;; Ok (define_token sflag n v)) is = Ok l /\ lexed true (List.concat l) (cdefs defs) true /\
    forall w v, In (w, v) defs <-> exists i n, In i is /\ nth_error nm i = Some n /\ names_macro sflag n w /\ v = nth i sv 0%Z.
Proof.
  intros sflag nm sv. induction is as [|i is IH]; intros LI NN F.
  - exists [], []. split; [reflexivity|]. split; [apply lexed_nil|]. intros w v. split; [intros []|intros (i & n & [] & _)].
  - destruct IH as (l & defs & E & L & H); [intros j I; apply LI; now right|intros j m I; apply NN; now right|exact F|]. destruct (LI i (or_introl eq_refl)) as (L1 & L2).
    destruct (nth_error_lt_ex _ nm i L1) as (n & En). assert (Ev : nth_error sv i = Some (nth i sv 0%Z)) by (now apply nth_error_nth').
    assert (V : int_ok (nth i sv 0%Z)) by (rewrite Forall_forall in F; apply F; eapply nth_error_In; eauto).
    cbn [ByaccParModel.map_res ByaccLr0Model.map_res]. rewrite En. cbn [opt bind]. rewrite Ev. cbn [opt bind]. rewrite E. cbn [bind].
    destruct (define_token_ok sflag n (nth i sv 0%Z) (NN i n (or_introl eq_refl) En) V) as [(w & M & LW & U)|(NM & ->)].
    + exists (define_token sflag n (nth i sv 0%Z) :: l), ((w, nth i sv 0%Z) :: defs). split; [reflexivity|]. split; [cbn [List.concat map fst snd]; exact (lexed_app true _ [cdeft w (nth i sv 0%Z)] true _ _ _ LW L)|].
      intros w' v'. cbn [In]. rewrite H. split.
      * intros [K|(j & m & I & K)]; [injection K as <- <-; exists i, n; auto|exists j, m; tauto].
      * intros (j & m & [<-|I] & E2 & M2 & ->); [left|right; exists j, m; auto]. rewrite En in E2. injection E2 as <-. now rewrite (U w' M2).
    + exists ([] :: l), defs. split; [reflexivity|]. split; [exact L|]. intros w' v'. rewrite H. split.
      * intros (j & m & I & K). exists j, m. split; [now right|exact K].
      * intros (j & m & [<-|I] & E2 & M2 & ->); [|exists j, m; auto]. rewrite En in E2. injection E2 as <-. destruct (NM w' M2).
Qed.

Lemma def_line : forall n v, ident (zs n) -> int_ok v -> lexed true (zs "#define " ++ zs n ++ zs " " ++ zdec v ++ nl) (cdef n v) true.
Proof. intros n v I V. exact (define_word_lexed (zs n) v I V). Qed.
Ltac defl := match goal with |- lexed true (_ ++ zdec ?v ++ nl) (cdef ?n ?v) true => let H := fresh in assert (H : lexed true (zs "#define " ++ zs n ++ zs " " ++ zdec v ++ nl) (cdef n v) true); [apply def_line; [idn|try assumption]|exact H] end.

Lemma defines_lexed : forall sflag ntok (nm : list txt) sv, 2 <= ntok <= List.length nm -> ntok <= List.length sv -> (forall i n, 2 <= i < ntok -> nth_error nm i = Some n -> ~ In 36%Z n) -> Forall int_ok sv ->
  exists t defs, output_defines sflag ntok nm sv = Ok t /\ lexed true t (cdefs defs ++ cdef "YYERRCODE" (nth 1 sv 0%Z)) true /\
    forall w v, In (w, v) defs <-> exists i n, 2 <= i < ntok /\ nth_error nm i = Some n /\ names_macro sflag n w /\ v = nth i sv 0%Z.
Proof.
  intros sflag ntok nm sv L1 L2 NN F. destruct (defs_lexed sflag nm sv (seq 2 (ntok - 2))) as (l & defs & E & L & H); auto; [intros i I; apply in_seq in I; lia|intros i n I; apply NN; apply in_seq in I; lia|].
  assert (Ev : nth_error sv 1 = Some (nth 1 sv 0%Z)) by (apply nth_error_nth'; lia). assert (V : int_ok (nth 1 sv 0%Z)) by (rewrite Forall_forall in F; apply F; eapply nth_error_In; eauto).
  unfold output_defines. rewrite E. cbn [bind]. rewrite Ev. cbn [opt bind]. eexists. exists defs. split; [reflexivity|]. split.
  - apply (lexed_app true _ _ true); [exact L|]. change (zs "#define YYERRCODE ") with (zs "#define " ++ zs "YYERRCODE" ++ zs " "). rewrite <- !app_assoc. apply def_line; [idn|exact V].
  - intros w v. rewrite H. split; intros (i & n & I & K); exists i, n; (split; [|exact K]); [apply in_seq in I; lia|apply in_seq; lia].
Qed.

(** * The constants at the end *)

Definition cdirw (l : list ctok) : list ctok := [CD l].
Definition translate : list ctok :=
  [CD [W "define"; W "YYTRANSLATE"; CP 40; W "a"; CP 41; CP 40; CP 40; W "a"; CP 41; CP 62; W "YYMAXTOKEN"; CP 63; W "YYUNDFTOKEN"; CP 58; CP 40; W "a"; CP 41; CP 41]]%Z.
Definition debug_tokens (tflag : bool) (maxtok undf final : Z) : list ctok :=
  cdef "YYFINAL" final ++ [CD [W "ifndef"; W "YYDEBUG"]] ++ cdef "YYDEBUG" (if tflag then 1 else 0) ++ [CD [W "endif"]] ++ cdef "YYMAXTOKEN" maxtok ++ cdef "YYUNDFTOKEN" undf ++ translate.

Lemma debug_lexed : forall tflag ntok sv final, int_ok (Z.of_nat final) -> int_ok (max_tok ntok sv) -> int_ok (max_sym ntok sv + 1) ->
  lexed true (output_debug tflag ntok sv final) (debug_tokens tflag (max_tok ntok sv) (max_sym ntok sv + 1) (Z.of_nat final)) true.
Proof.
  intros tflag ntok sv final V1 V2 V3. unfold output_debug, debug_tokens.
  assert (VT : int_ok (if tflag then 1 else 0)) by (destruct tflag; unfold int_ok; lia).
  match goal with |- lexed _ (?a ++ ?b ++ ?c ++ ?r) _ _ => replace (a ++ b ++ c ++ r) with ((a ++ b ++ c) ++ r) by (now rewrite <- !app_assoc) end.
  apply (lexed_app true _ _ true); [defl|].
  rewrite (app_assoc (zs "#ifndef YYDEBUG")). apply (lexed_app true _ _ true); [apply line_lexed; [vm_compute; reflexivity|reflexivity]|].
  match goal with |- lexed _ (?a ++ ?b ++ ?c ++ ?r) _ _ => replace (a ++ b ++ c ++ r) with ((a ++ b ++ c) ++ r) by (now rewrite <- !app_assoc) end.
  apply (lexed_app true _ _ true); [defl|].
  rewrite (app_assoc (zs "#endif")). apply (lexed_app true _ _ true); [apply line_lexed; [vm_compute; reflexivity|reflexivity]|].
  match goal with |- lexed _ (?a ++ ?b ++ ?c ++ ?r) _ _ => replace (a ++ b ++ c ++ r) with ((a ++ b ++ c) ++ r) by (now rewrite <- !app_assoc) end.
  apply (lexed_app true _ _ true); [defl|].
  match goal with |- lexed _ (?a ++ ?b ++ ?c ++ ?r) _ _ => replace (a ++ b ++ c ++ r) with ((a ++ b ++ c) ++ r) by (now rewrite <- !app_assoc) end.
  apply (lexed_app true _ _ true); [defl|].
  apply line_lexed; [vm_compute; reflexivity|reflexivity].
Qed.

(** * All of it *)

(** What a C compiler must see: a macro for each name in [defs], YYERRCODE, the tables of [Y], the symbols [stos] that
    lead into the states, and the constants. *)
Definition ytokens (p : txt) (defs : list (txt * Z)) (Y : ytabs) (stos : list Z) (tflag : bool) (maxtok undf : Z) : list ctok :=
  cdefs defs ++ cdef "YYERRCODE" (y_errcode Y) ++ [W "typedef"; W "int"; W "YYINT"; CP 59%Z] ++
  yarray p "lhs" (y_lhs Y) ++ yarray p "len" (map Z.of_nat (y_len Y)) ++ yarray p "defred" (map Z.of_nat (y_defred Y)) ++
  [CD [W "if"; W "defined"; CP 40; W "YYDESTRUCT_CALL"; CP 41; CP 124; CP 124; W "defined"; CP 40; W "YYSTYPE_TOSTRING"; CP 41]]%Z ++ yarray p "stos" stos ++ [CD [W "endif"]] ++
  yarray p "dgoto" (map Z.of_nat (y_dgoto Y)) ++ yarray p "sindex" (y_sindex Y) ++ yarray p "rindex" (y_rindex Y) ++
  [CD [W "if"; W "YYBTYACC"]] ++ yarray p "cindex" (repeat 0%Z (List.length stos)) ++ [CD [W "endif"]] ++ yarray p "gindex" (y_gindex Y) ++
  cdef "YYTABLESIZE" (Z.of_nat (y_high Y)) ++ yarray p "table" (y_table Y) ++ yarray p "check" (y_check Y) ++
  [CD [W "if"; W "YYBTYACC"]] ++ yarray p "ctable" (repeat (-1)%Z (Nat.max 1 (y_high Y))) ++ [CD [W "endif"]] ++ debug_tokens tflag maxtok undf (Z.of_nat (y_final Y)).

Lemma endif_comment : lexed true (zs "#endif /* YYDESTRUCT_CALL || YYSTYPE_TOSTRING */" ++ nl) [CD [W "endif"]] true.
Proof.
  intros u us H. replace ((zs "#endif /* YYDESTRUCT_CALL || YYSTYPE_TOSTRING */" ++ nl) ++ u) with (35%Z :: ((zs "endif" ++ zs " ") ++ (zs "/*" ++ zs " YYDESTRUCT_CALL || YYSTYPE_TOSTRING " ++ zs "*/")) ++ 10%Z :: u) by (rewrite <- !app_assoc; reflexivity).
  cbn [app]. apply cl_dir; [| |exact H].
  - intros K. vm_compute in K. repeat (destruct K as [K|K]; [discriminate K|]). exact K.
  - apply (word_lexed false (zs "endif") ltac:(idn) _ []). apply (lexed_clex false _ [] false). apply comment_lexed. intros K. vm_compute in K. repeat (destruct K as [K|K]; [discriminate K|]). exact K.
Qed.

Definition pval_of (ntok : nat) (sv : list Z) (i : nat) : Z :=
  if i <? ntok then nth i sv 0%Z else if i =? ntok then (max_tok ntok sv + 1)%Z else (max_tok ntok sv + 1 + nth i sv 0 + 1)%Z.
Lemma pval_all : forall ntok sv access, (forall i, In i access -> i < List.length sv) -> exists pv, map_res (symbol_pval ntok sv) access = Ok pv /\ List.length pv = List.length access /\
  forall q i, nth_error access q = Some i -> nth_error pv q = Some (pval_of ntok sv i).
Proof.
  intros ntok sv. induction access as [|i access IH]; intros H.
  - exists []. split; [reflexivity|]. split; [reflexivity|]. intros [|q] i E; discriminate.
  - destruct IH as (pv & E & L & N); [intros j I; apply H; now right|]. cbn [ByaccParModel.map_res ByaccLr0Model.map_res]. unfold symbol_pval at 1. rewrite (nth_error_nth' sv 0%Z) by (apply H; now left). cbn [opt bind]. rewrite E. cbn [bind].
    eexists. split; [reflexivity|]. split; [cbn [List.length]; now rewrite L|]. intros [|q] j Ej; cbn [nth_error] in *; [injection Ej as <-; reflexivity|now apply N].
Qed.

Theorem text_lexed : forall p sflag tflag ntok (nm : list txt) sv access Y n, ident p -> 2 <= ntok <= List.length nm -> ntok <= List.length sv -> (forall i m, 2 <= i < ntok -> nth_error nm i = Some m -> ~ In 36%Z m) -> Forall int_ok sv ->
  tables_ints n Y -> y_errcode Y = nth 1 sv 0%Z -> List.length access = n -> (forall i, In i access -> i < List.length sv) -> (Z.of_nat n < 2 ^ 31)%Z -> (Z.of_nat (y_high Y) < 2 ^ 31 - 1)%Z ->
  (forall i, In i access -> int_ok (pval_of ntok sv i)) ->
  int_ok (max_tok ntok sv) -> int_ok (max_sym ntok sv + 1) ->
  exists text defs stos, output_text p sflag tflag ntok nm sv access Y = Ok (Some text) /\ clex true text (ytokens p defs Y stos tflag (max_tok ntok sv) (max_sym ntok sv + 1)) /\
    (forall w v, In (w, v) defs <-> exists i n, 2 <= i < ntok /\ nth_error nm i = Some n /\ names_macro sflag n w /\ v = nth i sv 0%Z) /\
    List.length stos = n /\
    forall q i, nth_error access q = Some i -> nth_error stos q = Some (pval_of ntok sv i).
Proof.
  intros p sflag tflag ntok nm sv access Y n IP L1 L2 NN F TI YE LA AR NB HB AI MI UI.
  destruct (defines_lexed sflag ntok nm sv L1 L2 NN F) as (td & defs & E1 & X1 & D). destruct (pval_all ntok sv access AR) as (pv & EP & LP & NP).
  assert (PI : Forall int_ok pv).
  { apply Forall_forall. intros x I. apply In_nth_error in I as (q & Eq). destruct (nth_error_lt_ex _ access q) as (i & Ei); [rewrite <- LP; eapply nth_error_Some_lt; eauto|]. pose proof (NP q i Ei) as K. rewrite Eq in K. injection K as ->. apply AI. eapply nth_error_In; eauto. }
  assert (N0 : n <> 0) by (pose proof (ti_final _ _ TI); lia). assert (ZI : int_ok 0) by (unfold int_ok; lia). assert (MI1 : int_ok (-1)) by (unfold int_ok; lia).
  assert (ID : forall s, Forall (fun c => wordch c = true) (zs s) -> ident (p ++ zs s)) by (intros s FS; now apply ident_app).
  destruct (int_table_lexed p "lhs" (y_lhs Y)) as (t1 & Q1 & X2); [apply ID; idn|apply TI|].
  destruct (int_table_lexed p "len" (map Z.of_nat (y_len Y))) as (t2 & Q2 & X3); [apply ID; idn|apply (ti_len _ _ TI)|].
  destruct (int_table_lexed p "defred" (map Z.of_nat (y_defred Y))) as (t3 & Q3 & X4); [apply ID; idn|apply (ti_defred _ _ TI)|].
  destruct (int_table_lexed p "stos" pv) as (t4 & Q4 & X5); [apply ID; idn|split; [intros ->; cbn in LP; congruence|exact PI]|].
  destruct (int_table_lexed p "dgoto" (map Z.of_nat (y_dgoto Y))) as (t5 & Q5 & X6); [apply ID; idn|apply (ti_dgoto _ _ TI)|].
  destruct (int_table_lexed p "sindex" (y_sindex Y)) as (t6 & Q6 & X7); [apply ID; idn|apply (ti_sindex _ _ TI)|].
  destruct (int_table_lexed p "rindex" (y_rindex Y)) as (t7 & Q7 & X8); [apply ID; idn|apply (ti_rindex _ _ TI)|].
  destruct (int_table_lexed p "cindex" (repeat 0%Z (List.length access))) as (t8 & Q8 & X9); [apply ID; idn|split; [rewrite LA; destruct n; [contradiction|discriminate]|now apply Forall_repeat]|].
  destruct (int_table_lexed p "gindex" (y_gindex Y)) as (t9 & Q9 & X10); [apply ID; idn|apply (ti_gindex _ _ TI)|].
  destruct (int_table_lexed p "table" (y_table Y)) as (t10 & Q10 & X11); [apply ID; idn|apply (ti_table _ _ TI)|].
  destruct (int_table_lexed p "check" (y_check Y)) as (t11 & Q11 & X12); [apply ID; idn|apply (ti_check _ _ TI)|].
  destruct (int_table_lexed p "ctable" (repeat (-1)%Z (Nat.max 1 (y_high Y)))) as (t12 & Q12 & X13); [apply ID; idn|split; [destruct (Nat.max 1 (y_high Y)) eqn:M; [lia|discriminate]|now apply Forall_repeat]|].
  unfold output_text. rewrite E1. cbn [bind]. rewrite Q1. cbn [bind]. rewrite Q2. cbn [bind]. rewrite Q3. cbn [bind]. rewrite EP. cbn [bind]. rewrite Q4. cbn [bind]. rewrite Q5. cbn [bind]. rewrite Q6. cbn [bind]. rewrite Q7. cbn [bind].
  rewrite Q8. cbn [bind]. rewrite Q9. cbn [bind]. rewrite Q10. cbn [bind]. rewrite Q11. cbn [bind]. rewrite Q12. cbn [bind].
  destruct (Z.leb_spec MAXYYINT (Z.of_nat (y_high Y))) as [K|K]; [unfold MAXYYINT in K; lia|].
  eexists. exists defs, pv. split; [reflexivity|]. split; [|split; [exact D|split; [congruence|exact NP]]].
  unfold ytokens. rewrite YE, LP. eapply (lexed_clex true _ _ true). rewrite (app_assoc (cdefs defs)).
  apply (lexed_app true _ _ true); [exact X1|]. rewrite (app_assoc (zs "typedef int YYINT;")). apply (lexed_app true _ _ true); [apply line_lexed; [vm_compute; reflexivity|reflexivity]|].
  do 3 (apply (lexed_app true _ _ true); [assumption|]).
  rewrite (app_assoc (zs "#if defined(YYDESTRUCT_CALL) || defined(YYSTYPE_TOSTRING)")). apply (lexed_app true _ _ true); [apply line_lexed; [vm_compute; reflexivity|reflexivity]|]. apply (lexed_app true _ _ true); [assumption|].
  rewrite (app_assoc (zs "#endif /* YYDESTRUCT_CALL || YYSTYPE_TOSTRING */")). apply (lexed_app true _ _ true); [exact endif_comment|].
  do 3 (apply (lexed_app true _ _ true); [assumption|]).
  rewrite (app_assoc (zs "#if YYBTYACC")). apply (lexed_app true _ _ true); [apply line_lexed; [vm_compute; reflexivity|reflexivity]|]. apply (lexed_app true _ _ true); [assumption|].
  rewrite (app_assoc (zs "#endif")). apply (lexed_app true _ _ true); [apply line_lexed; [vm_compute; reflexivity|reflexivity]|]. apply (lexed_app true _ _ true); [assumption|].
  match goal with |- lexed _ (?a ++ ?b ++ ?c ++ ?r) _ _ => replace (a ++ b ++ c ++ r) with ((a ++ b ++ c) ++ r) by (now rewrite <- !app_assoc) end.
  apply (lexed_app true _ _ true); [defl; unfold int_ok; lia|].
  do 2 (apply (lexed_app true _ _ true); [assumption|]).
  rewrite (app_assoc (zs "#if YYBTYACC")). apply (lexed_app true _ _ true); [apply line_lexed; [vm_compute; reflexivity|reflexivity]|]. apply (lexed_app true _ _ true); [assumption|].
  rewrite (app_assoc (zs "#endif")). apply (lexed_app true _ _ true); [apply line_lexed; [vm_compute; reflexivity|reflexivity]|].
  apply debug_lexed; auto. pose proof (ti_final _ _ TI). unfold int_ok. lia.
Qed.
