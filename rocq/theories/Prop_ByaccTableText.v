(** C76: the token codes, constants and tables byacc prints, read by a C compiler. *)
From Coq Require Import String List Arith ZArith NArith Bool Lia.
Import ListNotations.
From Verif Require Import Base ByaccScanModel LemonTableModel LemonPreModel LemonCodeModel Prop_LemonPrintf SpecCode LemonCodeProof LemonReprintModel SpecCText CTextProof LemonTableTextProof Prop_LemonTableText
  SpecGrammar SpecGrammarFacts SpecLRFacts SpecLR0 SpecByacc ByaccWarshallModel ByaccLr0Model ByaccPackProof ByaccLr0Proof ByaccStatesProof ByaccLalrModel ByaccLookSem ByaccGotoProof ByaccReadProof ByaccLookProof ByaccParModel SpecByaccConflicts
  ByaccParProof ByaccActionsProof ByaccOutputModel ByaccPackTableProof ByaccRowsProof Prop_ByaccConflicts Prop_ByaccPacking ByaccTablesProof ByaccParserModel ByaccParserProof Prop_ByaccParser ByaccTableRangeProof ByaccTableTextModel ByaccTableTextProof.
Local Open Scope res_scope.

Lemma nth_error_firstn : forall A n (l : list A) i, i < n -> nth_error (firstn n l) i = nth_error l i.
Proof. induction n as [|n IH]; intros l i L; [lia|]. destruct l as [|x l]; [reflexivity|]. destruct i as [|i]; [reflexivity|]. cbn. apply IH. lia. Qed.
Lemma nth_error_skip : forall A n (l : list A) i, nth_error (skipn n l) i = nth_error l (n + i).
Proof. induction n as [|n IH]; intros l i; [reflexivity|]. destruct l as [|x l]; [now destruct i|]. cbn. apply IH. Qed.

Lemma fold_max : forall l m, (m <= fold_left Z.max l m)%Z /\ (forall v, In v l -> v <= fold_left Z.max l m)%Z /\ (fold_left Z.max l m = m \/ In (fold_left Z.max l m) l).
Proof.
  induction l as [|x l IH]; intros m; cbn [fold_left]; [split; [lia|]; split; [intros v []|now left]|]. destruct (IH (Z.max m x)) as (A & B & C). set (r := fold_left Z.max l (Z.max m x)) in *. clearbody r. split; [lia|]. split.
  - intros v [<-|I]; [lia|now apply B].
  - destruct C as [C|C]; [|right; now right]. destruct (Z.max_spec m x) as [(_ & E)|(_ & E)]; [right; left; lia|left; lia].
Qed.
Lemma fold_sym : forall M l m, (m <= fold_left (fun m v => Z.max m (M + 1 + (v + 1))) l m)%Z /\ (forall v, In v l -> M + 1 + (v + 1) <= fold_left (fun m v => Z.max m (M + 1 + (v + 1))) l m)%Z /\
  (fold_left (fun m v => Z.max m (M + 1 + (v + 1))) l m = m \/ exists v, In v l /\ fold_left (fun m v => Z.max m (M + 1 + (v + 1))) l m = M + 1 + (v + 1))%Z.
Proof.
  intros M. induction l as [|x l IH]; intros m; cbn [fold_left]; [split; [lia|]; split; [intros v []|now left]|]. destruct (IH (Z.max m (M + 1 + (x + 1)))) as (A & B & C).
  set (r := fold_left _ l (Z.max m (M + 1 + (x + 1)))) in *. clearbody r. split; [lia|]. split.
  - intros v [<-|I]; [lia|now apply B].
  - destruct C as [C|(v & I & C)]; [|right; exists v; split; [now right|exact C]]. destruct (Z.max_spec m (M + 1 + (x + 1))) as [(_ & E)|(_ & E)]; [right; exists x; split; [now left|lia]|left; lia].
Qed.

Lemma max_tok_spec : forall s sv, wf_src s -> wf_sv s sv -> (forall t, t < b_ntokens s -> (nth t sv 0 <= max_tok (b_ntokens s) sv)%Z) /\ exists t, t < b_ntokens s /\ nth t sv 0%Z = max_tok (b_ntokens s) sv.
Proof.
  intros s sv W SV. pose proof (ws_tok s W). pose proof (ws_goal s W). unfold max_tok. destruct (fold_max (firstn (b_ntokens s) sv) 0) as (A & B & C). set (r := fold_left _ _ _) in *. clearbody r.
  assert (IN : forall t, t < b_ntokens s -> In (nth t sv 0%Z) (firstn (b_ntokens s) sv)).
  { intros t L. apply (nth_error_In _ t). rewrite nth_error_firstn by exact L. apply nth_error_nth'. rewrite (sv_len _ _ SV). lia. }
  split; [intros t L; apply B, IN, L|]. destruct C as [->|C].
  - exists 0. split; [lia|]. pose proof (sv_pos _ _ SV 0 ltac:(lia)). pose proof (B _ (IN 0 ltac:(lia))). lia.
  - apply In_nth_error in C as (t & C). assert (L : t < b_ntokens s) by (apply nth_error_Some_lt in C; rewrite firstn_length in C; lia). exists t. split; [exact L|]. rewrite nth_error_firstn in C by exact L. now apply nth_error_nth.
Qed.
Lemma max_sym_spec : forall s sv, wf_src s -> wf_sv s sv -> nth (b_ntokens s) sv 0%Z = (-1)%Z -> max_sym (b_ntokens s) sv = (max_tok (b_ntokens s) sv + Z.of_nat (b_nsyms s - b_ntokens s))%Z.
Proof.
  intros s sv W SV E1. pose proof (ws_tok s W). pose proof (ws_goal s W). unfold max_sym. set (M := max_tok (b_ntokens s) sv). destruct (fold_sym M (skipn (b_ntokens s) sv) M) as (A & B & C). set (r := fold_left _ _ _) in *. clearbody r.
  assert (V : forall v, In v (skipn (b_ntokens s) sv) -> (v <= Z.of_nat (b_nsyms s - b_ntokens s) - 2)%Z).
  { intros v I. apply In_nth_error in I as (i & Ei). rewrite nth_error_skip in Ei. assert (L : b_ntokens s + i < b_nsyms s) by (rewrite <- (sv_len _ _ SV); eapply nth_error_Some_lt; eauto).
    apply (nth_error_nth sv _ 0%Z) in Ei. destruct i as [|i]; [rewrite Nat.add_0_r in Ei; lia|]. rewrite (sv_nt _ _ SV (b_ntokens s + S i)) in Ei by lia. lia. }
  assert (TOP : In (Z.of_nat (b_nsyms s - b_ntokens s) - 2)%Z (skipn (b_ntokens s) sv)).
  { apply (nth_error_In _ (b_nsyms s - b_ntokens s - 1)). rewrite nth_error_skip. replace (b_ntokens s + (b_nsyms s - b_ntokens s - 1)) with (b_nsyms s - 1) by lia. rewrite (nth_error_nth' sv 0%Z) by (rewrite (sv_len _ _ SV); lia).
    f_equal. rewrite (sv_nt _ _ SV) by lia. lia. }
  specialize (B _ TOP). destruct C as [C|(v & I & C)]; [lia|]. specialize (V v I). lia.
Qed.

(** The code of a symbol in the table stos: the code of a token, and numbers above all codes for the nonterminals. *)
Definition symbol_code (s : bsrc) (sv : list Z) (maxtok : Z) (X : nat) : Z := if X <? b_ntokens s then nth X sv 0%Z else (maxtok + 1 + Z.of_nat (X - b_ntokens s))%Z.

(** C76.  If the codes and sizes are ints, the text byacc prints is, for a C compiler, one macro for each token whose name is a
    word of C (without -s, or such a word in double quotes), with the code of the token, and the tables and constants of the parser
    [Y]; the table stos names the symbol that leads into each state, YYMAXTOKEN is the largest code, and YYUNDFTOKEN the code of
    no symbol. *)
Theorem C76_tables_text : forall p sflag tflag (nm : list txt) s f1 f2 f3 flag pr sv Y,
  wf_src s -> wf_prec s pr -> wf_sv s sv -> byacc_generate f1 f2 f3 flag s pr sv = Ok Y ->
  nth (b_ntokens s) sv 0%Z = (-1)%Z -> ident p -> List.length nm = b_nsyms s -> (forall t n, 2 <= t < b_ntokens s -> nth_error nm t = Some n -> ~ In 36%Z n) ->
  (forall t, t < b_ntokens s -> (nth t sv 0 + Z.of_nat (b_nsyms s) + 1 < 2 ^ 31)%Z) -> (Z.of_nat (List.length (y_defred Y)) < 2 ^ 31)%Z ->
  (Z.of_nat (List.length (b_rules s)) < 2 ^ 31)%Z -> (forall l r, In (l, r) (b_rules s) -> Z.of_nat (List.length r) < 2 ^ 31)%Z -> (Z.of_nat (y_high Y) < 2 ^ 31 - 1)%Z ->
  exists text defs stos maxtok sts,
    byacc_generate_text p sflag tflag nm f1 f2 f3 flag s pr sv = Ok (Some text) /\
    clex true text (ytokens p defs Y stos tflag maxtok (maxtok + 1 + Z.of_nat (b_nsyms s - b_ntokens s))) /\
    (forall w v, In (w, v) defs <-> exists t n, 2 <= t < b_ntokens s /\ nth_error nm t = Some n /\ names_macro sflag n w /\ v = nth t sv 0%Z) /\
    (forall t, t < b_ntokens s -> (nth t sv 0 <= maxtok)%Z) /\ (exists t, t < b_ntokens s /\ nth t sv 0%Z = maxtok) /\
    lr0_automaton (aug s) sts /\ List.length stos = List.length sts /\ nth_error stos 0 = Some (nth 0 sv 0%Z) /\
    forall q I sh X q', nth_error sts q = Some (I, sh) -> In (X, q') sh -> nth_error stos q' = Some (symbol_code s sv maxtok X).
Proof.
  intros p sflag tflag nm s f1 f2 f3 flag pr sv Y W WP SV E S1 IP LN NN CB NB RB LB HB. pose proof (ws_tok s W) as WT. pose proof (ws_goal s W) as WG.
  destruct (max_tok_spec s sv W SV) as (M1 & t0 & Lt0 & M2). pose proof (max_sym_spec s sv W SV S1) as MS. pose proof (sv_pos _ _ SV t0 Lt0) as MP. pose proof (CB t0 Lt0) as MB. rewrite M2 in MP, MB.
  assert (SI : Forall int_ok sv).
  { apply Forall_forall. intros v I. apply In_nth_error in I as (i & Ei). assert (L : i < b_nsyms s) by (rewrite <- (sv_len _ _ SV); eapply nth_error_Some_lt; eauto). apply (nth_error_nth sv _ 0%Z) in Ei. subst v.
    destruct (Nat.lt_trichotomy i (b_ntokens s)) as [Li|[->|Li]]; unfold int_ok.
    - pose proof (sv_pos _ _ SV i Li). pose proof (CB i Li). lia.
    - lia.
    - rewrite (sv_nt _ _ SV) by lia. lia. }
  destruct (tables_are_ints s f1 f2 f3 flag pr sv Y W WP SV E SI NB RB LB ltac:(lia)) as (nl & st & T & P & E1 & LO & E2 & TO & E3 & E4 & TI).
  destruct (generated_ok _ _ _ _ _ _ _ _ W WP SV E) as (nl' & st' & T' & P' & F1 & LO' & F2 & TO' & F3 & PO & YO). rewrite E1 in F1. injection F1 as <- <-. rewrite E2 in F2. injection F2 as <-. rewrite E3 in F3. injection F3 as <-.
  assert (YE : y_errcode Y = nth 1 sv 0%Z).
  { unfold output_tables in E4. repeat match type of E4 with bind ?X _ = _ => destruct X eqn:?; try discriminate; cbn [bind] in E4 | (let '(_, _) := ?x in _) = _ => destruct x end.
    match type of E4 with Ok ?T0 = _ => assert (ET : Y = T0) by congruence end. rewrite ET. cbn [y_errcode]. match goal with H : opt (nth_error sv 1) = Ok _ |- _ => destruct (nth_error sv 1) eqn:N1; [|discriminate]; injection H as <- end. symmetry. now apply nth_error_nth. }
  assert (LA : List.length (t_access T) = nst st) by (rewrite (lo_access _ _ _ TO); unfold accessing; now rewrite map_length).
  assert (AC : forall q i, nth_error (t_access T) q = Some i -> q < nst st /\ i = acc st q).
  { intros q i Ei. assert (Lq : q < nst st) by (rewrite <- LA; eapply nth_error_Some_lt; eauto). split; [exact Lq|]. rewrite (lo_access _ _ _ TO), (accessing_nth st q Lq) in Ei. now injection Ei as <-. }
  assert (PV : forall i, i < b_nsyms s -> i <> b_ntokens s -> pval_of (b_ntokens s) sv i = symbol_code s sv (max_tok (b_ntokens s) sv) i).
  { intros i Li Ni. unfold pval_of, symbol_code. destruct (Nat.ltb_spec i (b_ntokens s)); [reflexivity|]. destruct (Nat.eqb_spec i (b_ntokens s)); [contradiction|]. rewrite (sv_nt _ _ SV) by lia. lia. }
  destruct (text_lexed p sflag tflag (b_ntokens s) nm sv (t_access T) Y (nst st)) as (text & defs & stos & X1 & X2 & X3 & X4 & X5); auto.
  - lia.
  - rewrite (sv_len _ _ SV). lia.
  - intros i I. apply In_nth_error in I as (q & Eq). destruct (AC q i Eq) as (Lq & ->). rewrite (sv_len _ _ SV). apply (acc_range s W st LO q Lq).
  - rewrite <- (ti_n _ _ TI). exact NB.
  - intros i I. apply In_nth_error in I as (q & Eq). destruct (AC q i Eq) as (Lq & ->). destruct (acc_range s W st LO q Lq) as (R1 & R2). rewrite PV by assumption. unfold symbol_code. destruct (Nat.ltb_spec (acc st q) (b_ntokens s)) as [L|L].
    + rewrite Forall_forall in SI. apply SI, nth_In. rewrite (sv_len _ _ SV). lia.
    + unfold int_ok. lia.
  - unfold int_ok. lia.
  - rewrite MS. unfold int_ok. lia.
  - destruct (lr0_view s W st LO) as (sts & A & L & V). exists text, defs, stos, (max_tok (b_ntokens s) sv), sts. split.
    { unfold byacc_generate_text. cbv zeta. rewrite E1. cbn [bind]. rewrite E2. cbn [bind]. rewrite E3. cbn [bind]. rewrite E4. cbn [bind]. rewrite b_ntok. exact X1. }
    split; [replace (max_tok (b_ntokens s) sv + 1 + Z.of_nat (b_nsyms s - b_ntokens s))%Z with (max_sym (b_ntokens s) sv + 1)%Z by lia; exact X2|]. split; [exact X3|]. split; [exact M1|]. split; [exists t0; auto|]. split; [exact A|]. split; [congruence|].
    destruct (go_range s W st LO _ _ _ (po_final _ _ _ _ _ _ PO)) as (_ & _ & N0 & _). split.
    + destruct (nth_error_lt_ex _ (t_access T) 0) as (i & Ei); [lia|]. rewrite (X5 0 i Ei). destruct (AC 0 i Ei) as (_ & ->). f_equal. destruct (nth_error_lt_ex _ (l_cores st) 0 N0) as (c & Ec).
      destruct (ti_core _ _ (ByaccStatesProof.T s st LO) 0 c Ec) as (_ & _ & _ & _ & C0 & _). unfold acc. rewrite Ec, (C0 eq_refl). unfold pval_of. cbn [c_sym]. destruct (Nat.ltb_spec 0 (b_ntokens s)); [reflexivity|lia].
    + intros q I sh X q' Eq Iq. assert (HG : go st q X q') by (destruct (V q I sh Eq) as (_ & _ & ->); apply in_map_iff in Iq; destruct Iq as (q2 & E' & I'); inversion E'; subst; split; auto).
      destruct (go_range s W st LO _ _ _ HG) as (R1 & R2 & _ & Lq & _ & RA). rewrite <- PV by lia. apply X5. rewrite (lo_access _ _ _ TO), (accessing_nth st q' Lq), RA. reflexivity.
Qed.
Print Assumptions C76_tables_text.

(** No other parser, list of macros or prefix-mate has the same text. *)
Lemma cdefs_inj : forall a b x y e e', cdefs a ++ cdef "YYERRCODE" e ++ W "typedef" :: x = cdefs b ++ cdef "YYERRCODE" e' ++ W "typedef" :: y -> a = b /\ e = e' /\ x = y.
Proof.
  assert (D : forall w v w' v', cdeft w v = cdeft w' v' -> w = w' /\ v = v') by (intros w v w' v' E; unfold cdeft in E; injection E as -> E; split; [reflexivity|now apply cnum_inj1]).
  induction a as [|(w & v) a IH]; intros [|(w' & v') b] x y e e' E; cbn [map app fst snd] in E.
  - unfold cdef in E. cbn [app] in E. injection E as E1 E2. apply cnum_inj1 in E1. auto.
  - exfalso. apply (f_equal (@tl ctok)) in E. destruct b; discriminate.
  - exfalso. apply (f_equal (@tl ctok)) in E. destruct a; discriminate.
  - pose proof (f_equal (hd (CP 0%Z)) E) as E1. cbn [hd] in E1. apply D in E1 as (-> & ->). apply (f_equal (@tl ctok)) in E. cbn [tl] in E. apply IH in E as (-> & -> & ->). auto.
Qed.
Lemma of_nat_inj : forall a b, map Z.of_nat a = map Z.of_nat b -> a = b.
Proof. induction a as [|x a IH]; intros [|y b] E; try discriminate; auto. cbn [map] in E. injection E as E1 E2. rewrite (IH b E2). f_equal. lia. Qed.

Theorem C76_tokens_determine : forall text p Y Y' d d' st st' tf tf' m m' u u',
  clex true text (ytokens p d Y st tf m u) -> clex true text (ytokens p d' Y' st' tf' m' u') -> Y = Y' /\ d = d' /\ st = st' /\ tf = tf' /\ m = m' /\ u = u'.
Proof.
  intros text p Y Y' d d' st st' tf tf' m m' u u' H H'. pose proof (clex_deterministic _ _ _ H _ H') as E. clear H H'. unfold ytokens, debug_tokens in E.
  assert (DEF : forall n v w x y, cdef n v ++ x = cdef n w ++ y -> v = w /\ x = y) by (intros n v w x y X; unfold cdef in X; cbn [app] in X; injection X as X1 X2; apply cnum_inj1 in X1; auto).
  destruct Y as [a1 a2 a3 a4 a5 a6 a7 a8 a9 a10 a11 a12], Y' as [c1 c2 c3 c4 c5 c6 c7 c8 c9 c10 c11 c12]. cbn [y_lhs y_len y_defred y_dgoto y_sindex y_rindex y_gindex y_high y_table y_check y_final y_errcode] in E.
  apply cdefs_inj in E as (-> & -> & E). apply (f_equal (@tl ctok)) in E. apply (f_equal (@tl ctok)) in E. apply (f_equal (@tl ctok)) in E. cbn [tl] in E. change ([] ++ ?x) with x in E.
  apply carray_app_inj in E as (-> & E). apply carray_app_inj in E as (EL & E). apply of_nat_inj in EL. subst c2. apply carray_app_inj in E as (EL & E). apply of_nat_inj in EL. subst c3.
  apply app_inv_head in E. apply carray_app_inj in E as (-> & E). apply app_inv_head in E. apply carray_app_inj in E as (EL & E). apply of_nat_inj in EL. subst c4. do 2 apply carray_app_inj in E as (-> & E).
  apply app_inv_head in E. apply carray_app_inj in E as (_ & E). apply app_inv_head in E. apply carray_app_inj in E as (-> & E). apply DEF in E as (EH & E). apply Nat2Z.inj in EH. subst. do 2 apply carray_app_inj in E as (-> & E).
  apply app_inv_head in E. apply carray_app_inj in E as (_ & E). apply app_inv_head in E. apply DEF in E as (EH & E). apply Nat2Z.inj in EH. subst. apply app_inv_head in E. apply DEF in E as (ET & E). apply app_inv_head in E. apply DEF in E as (-> & E). apply DEF in E as (-> & _).
  repeat split; auto. destruct tf, tf'; auto; discriminate.
Qed.
Print Assumptions C76_tokens_determine.

(** The grammar of C39 with names for its symbols; "a.b" and '<' give no macro, the name in quotes does. *)
Definition names76 : list txt := map zs ["$end"; "error"; "PLUS"; """while"""; "'<'"; "a.b"; "$accept"; "expr"]%string.
Definition text76 : txt := Eval vm_compute in match byacc_generate_text (zs "yy") false false names76 300 300 300 false ex39 pr39 sv39 with Ok (Some t) => t | _ => [] end.
Example C76_hypotheses : wf_src ex39 /\ wf_prec ex39 pr39 /\ wf_sv ex39 sv39 /\ byacc_generate 300 300 300 false ex39 pr39 sv39 = Ok Y39 /\
  nth (b_ntokens ex39) sv39 0%Z = (-1)%Z /\ ident (zs "yy") /\ List.length names76 = b_nsyms ex39 /\
  (forall t n, 2 <= t < b_ntokens ex39 -> nth_error names76 t = Some n -> ~ In 36%Z n) /\
  (forall t, t < b_ntokens ex39 -> (nth t sv39 0 + Z.of_nat (b_nsyms ex39) + 1 < 2 ^ 31)%Z) /\ (Z.of_nat (List.length (y_defred Y39)) < 2 ^ 31)%Z /\
  (Z.of_nat (List.length (b_rules ex39)) < 2 ^ 31)%Z /\ (forall l r, In (l, r) (b_rules ex39) -> Z.of_nat (List.length r) < 2 ^ 31)%Z /\ (Z.of_nat (y_high Y39) < 2 ^ 31 - 1)%Z /\
  byacc_generate_text (zs "yy") false false names76 300 300 300 false ex39 pr39 sv39 = Ok (Some text76) /\
  firstn 57 text76 = zs "#define PLUS 43" ++ nl ++ zs "#define while 42" ++ nl ++ zs "#define YYERRCODE 256" ++ nl ++ zs "ty".
Proof.
  destruct C48_hypotheses as (A & B & C & _ & D & _). split; [exact A|]. split; [exact B|]. split; [exact C|]. split; [exact D|]. split; [reflexivity|]. split; [idn|]. split; [reflexivity|]. split.
  { intros t n L E. assert (t = 2 \/ t = 3 \/ t = 4 \/ t = 5) as H by (cbn in L; lia). destruct H as [->|[->|[->| ->]]]; vm_compute in E; injection E as <-; intros K; vm_compute in K; repeat (destruct K as [K|K]; [discriminate K|]); exact K. }
  split. { intros t L. assert (t = 0 \/ t = 1 \/ t = 2 \/ t = 3 \/ t = 4 \/ t = 5) as H by (cbn in L; lia). destruct H as [->|[->|[->|[->|[->| ->]]]]]; vm_compute; reflexivity. }
  split; [vm_compute; reflexivity|]. split; [vm_compute; reflexivity|]. split.
  { intros l r I. cbn in I. repeat (destruct I as [I|I]; [injection I as <- <-; vm_compute; reflexivity|]). destruct I. }
  split; [vm_compute; reflexivity|]. split; vm_compute; reflexivity.
Qed.

(** Without -s, a token and a string of the same name give one macro two values, although all conditions of C76_tables_text hold; and a
    string gives a macro for a keyword of C ("while" above). *)
Theorem C76_macros_collide_refuted : exists nm s pr sv Y text defs stos m u w v v',
  wf_src s /\ wf_prec s pr /\ wf_sv s sv /\ byacc_generate 300 300 300 false s pr sv = Ok Y /\ NoDup nm /\
  byacc_generate_text (zs "yy") false false nm 300 300 300 false s pr sv = Ok (Some text) /\ clex true text (ytokens (zs "yy") defs Y stos false m u) /\
  In (w, v) defs /\ In (w, v') defs /\ v <> v'.
Proof.
  set (nm := map zs ["$end"; "error"; "PLUS"; """PLUS"""; "'<'"; "a.b"; "$accept"; "expr"]%string).
  destruct C76_hypotheses as (A & B & C & D & H1 & H2 & _ & _ & H5 & H6 & H7 & H8 & H9 & _).
  destruct (C76_tables_text (zs "yy") false false nm ex39 300 300 300 false pr39 sv39 Y39 A B C D H1 H2 eq_refl) as (text & defs & stos & m & sts & E1 & E2 & E3 & _); auto.
  { intros t n L E. assert (t = 2 \/ t = 3 \/ t = 4 \/ t = 5) as H by (cbn in L; lia). destruct H as [->|[->|[->| ->]]]; vm_compute in E; injection E as <-; intros K; vm_compute in K; repeat (destruct K as [K|K]; [discriminate K|]); exact K. }
  exists nm, ex39, pr39, sv39, Y39, text, defs, stos, m. eexists. exists (zs "PLUS"), 43%Z, 42%Z. split; [exact A|]. split; [exact B|]. split; [exact C|]. split; [exact D|]. split.
  { vm_compute. repeat constructor; intros K; cbn in K; repeat (destruct K as [K|K]; [discriminate K|]); exact K. }
  split; [exact E1|]. split; [exact E2|]. split; [|split; [|discriminate]].
  - apply E3. exists 2, (zs "PLUS"). split; [cbn; lia|]. split; [reflexivity|]. split; [|reflexivity]. split; [idn|now left].
  - apply E3. exists 3, (zs """PLUS"""). split; [cbn; lia|]. split; [reflexivity|]. split; [|reflexivity]. split; [idn|]. right. split; [reflexivity|]. exists []. reflexivity.
Qed.
Print Assumptions C76_macros_collide_refuted.

(** The bound on the codes is needed: a token with the code INT_MAX makes YYUNDFTOKEN and the codes of the nonterminals too large for int. *)
Theorem C76_largest_code_refuted : exists s pr sv Y, wf_src s /\ wf_prec s pr /\ wf_sv s sv /\ Forall int_ok sv /\ byacc_generate 300 300 300 false s pr sv = Ok Y /\
  ~ int_ok (max_sym (b_ntokens s) sv + 1) /\ exists x, symbol_pval (b_ntokens s) sv (S (b_ntokens s)) = Ok x /\ ~ int_ok x.
Proof.
  set (sv := [0; 256; 43; 42; 60; 2147483647; -1; 0]%Z). destruct C76_hypotheses as (A & B & _).
  exists ex39, pr39, sv. eexists. split; [exact A|]. split; [exact B|]. split.
  { constructor; [reflexivity| | |].
    - intros t L. assert (t = 0 \/ t = 1 \/ t = 2 \/ t = 3 \/ t = 4 \/ t = 5) as H by (cbn in L; lia). destruct H as [->|[->|[->|[->|[->| ->]]]]]; cbn; lia.
    - intros t t' L L' E. cbn in L, L'. do 6 (destruct t as [|t]; [do 6 (destruct t' as [|t']; [first [reflexivity|discriminate E]|]); lia|]). lia.
    - intros k L. cbn in L. assert (k = 7) as -> by lia. reflexivity. }
  split; [repeat constructor; unfold int_ok; lia|]. split; [vm_compute; reflexivity|]. split; [vm_compute; intros (_ & K); discriminate K|]. eexists. split; [vm_compute; reflexivity|]. vm_compute. intros (_ & K). discriminate K.
Qed.
Print Assumptions C76_largest_code_refuted.
