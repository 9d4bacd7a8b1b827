(** C43, C48, C49: the goto tables, and the generated parser. *)
From Coq Require Import List Arith NArith ZArith Lia Bool Sorted.
Import ListNotations.
From Verif Require Import Base SpecGrammar SpecGrammarFacts SpecLRFacts SpecLR0 SpecByacc ByaccWarshallModel ByaccWarshallProof ByaccLr0Model ByaccPackProof
  ByaccClosureProof ByaccNullProof ByaccLr0Proof ByaccStatesProof ByaccLalrModel ByaccDigraphProof ByaccTransposeProof ByaccLookSem ByaccGotoProof ByaccReadProof
  ByaccLookProof ByaccMono Prop_ByaccLookahead ByaccParModel SpecByaccConflicts ByaccParProof ByaccActionsProof ByaccOutputModel ByaccPackTableProof ByaccRowsProof Prop_ByaccConflicts Prop_ByaccPacking
  ByaccTablesProof ByaccParserModel ByaccParserProof.

Lemma passes : forall s f1 f2 flag pr nl st, wf_src s -> wf_prec s pr -> lr0 f1 (pack_grammar s) = Ok (nl, st) ->
  lr0_ok s st /\ forall T, lalr f2 (pack_grammar s) nl st = Ok T -> lalr_ok s st T /\ goto_ok s st (t_gotos T) /\
  exists P, make_parser flag (pack_grammar s) pr T = Ok P /\ par_ok s st T pr flag P.
Proof.
  intros s f1 f2 flag pr nl st W WP E. destruct (lr0_run s (f1 + S (b_nsyms s) + S (2 ^ nitems (pack_grammar s))) W ltac:(lia) ltac:(lia)) as (nl' & st' & E' & LO & NLl & NL).
  pose proof (lr0_mono f1 _ _ _ (Nat.le_trans _ _ _ (Nat.le_add_r f1 (S (b_nsyms s))) (Nat.le_add_r _ (S (2 ^ nitems (pack_grammar s))))) E) as E2. rewrite E2 in E'. inversion E'; subst nl' st'.
  split; [exact LO|]. intros T ET. destruct (lalr_total s W st LO nl NLl NL) as (g & G1 & G2 & TT). destruct (TT (f2 + ngotos g) ltac:(lia)) as (T' & OK & ET').
  rewrite (lalr_mono f2 (f2 + ngotos g) _ _ _ T ltac:(lia) ET) in ET'.
  assert (T' = T). { destruct (all_fit s st g nl); [inversion ET'; auto|discriminate]. } subst T'.
  split; [exact OK|]. split; [|exact (make_parser_ok s W st LO T OK pr WP flag)]. pose proof (lo_go _ _ _ OK) as GG. rewrite G1 in GG. inversion GG. rewrite <- H0. exact G2.
Qed.

Lemma generated_ok : forall s f1 f2 f3 flag pr sv Y, wf_src s -> wf_prec s pr -> wf_sv s sv -> byacc_generate f1 f2 f3 flag s pr sv = Ok Y ->
  exists nl st T P, lr0 f1 (pack_grammar s) = Ok (nl, st) /\ lr0_ok s st /\ lalr f2 (pack_grammar s) nl st = Ok T /\ lalr_ok s st T /\
    make_parser flag (pack_grammar s) pr T = Ok P /\ par_ok s st T pr flag P /\ ytab_ok s st P sv Y.
Proof.
  intros s f1 f2 f3 flag pr sv Y W WP SV E. unfold byacc_generate in E. cbv zeta in E.
  destruct (lr0 f1 (pack_grammar s)) as [[nl st]| |] eqn:E1; cbn [bind] in E; try discriminate. destruct (passes s f1 f2 flag pr nl st W WP E1) as (LO & H).
  destruct (lalr f2 (pack_grammar s) nl st) as [T| |] eqn:ET; cbn [bind] in E; try discriminate. destruct (H T eq_refl) as (TO & GO & P & EP & PO). rewrite EP in E. cbn [bind] in E.
  exists nl, st, T, P. split; [reflexivity|]. do 5 (split; [assumption|]). exact (output_tables_ok s W st LO T TO pr flag P PO sv SV (t_gotos T) GO eq_refl f3 Y E).
Qed.

(** For every state and nonterminal with a transition the lookup of yyparse in yygindex,
    yytable, yycheck, with yydgoto as default, gives the target of the transition. *)
Theorem C43_gotos : forall s f1 f2 f3 flag pr sv Y, wf_src s -> wf_prec s pr -> wf_sv s sv -> byacc_generate f1 f2 f3 flag s pr sv = Ok Y ->
  exists sts, lr0_automaton (aug s) sts /\
  forall p I sh X q, nth_error sts p = Some (I, sh) -> In (X, q) sh -> b_ntokens s < X ->
    exists ix d, nth_error (y_gindex Y) (X - b_ntokens s - 1) = Some ix /\ nth_error (y_dgoto Y) (X - b_ntokens s - 1) = Some d /\
      (ylookup (y_high Y) (y_table Y) (y_check Y) ix (Z.of_nat p) = Ok (Some (Z.of_nat q)) \/
       ylookup (y_high Y) (y_table Y) (y_check Y) ix (Z.of_nat p) = Ok None /\ d = q).
Proof.
  intros s f1 f2 f3 flag pr sv Y W WP SV E. destruct (generated_ok _ _ _ _ _ _ _ _ W WP SV E) as (nl & st & T & P & _ & LO & _ & _ & _ & _ & YO).
  destruct (lr0_view s W st LO) as (sts & A & L & V). exists sts. split; [exact A|]. intros p I sh X q Ep Iq LX.
  assert (HG : go st p X q) by (destruct (V p I sh Ep) as (_ & _ & ->); apply in_map_iff in Iq; destruct Iq as (q' & E' & I'); inversion E'; subst; split; auto).
  destruct (yo_go _ _ _ _ _ YO p X q HG LX) as (ix & d & o & H1 & H2 & H3 & H4). exists ix, d. split; [exact H1|]. split; [exact H2|]. rewrite H3.
  destruct o as [t|]; [left; now rewrite H4|right]. split; [reflexivity|lia].
Qed.
Print Assumptions C43_gotos.

(** And the lookups of yyparse for a token code: exactly the live shifts through
    yysindex, exactly the live reductions that are not the default through yyrindex,
    and yydefred is the default reduction. *)
Theorem C43_actions : forall s f1 f2 f3 flag pr sv Y, wf_src s -> wf_prec s pr -> wf_sv s sv -> byacc_generate f1 f2 f3 flag s pr sv = Ok Y ->
  exists nl st T P, lr0 f1 (pack_grammar s) = Ok (nl, st) /\ lalr f2 (pack_grammar s) nl st = Ok T /\ make_parser flag (pack_grammar s) pr T = Ok P /\
  forall p acts, nth_error (p_parser P) p = Some acts ->
    exists d ixs ixr, nth_error (p_defred P) p = Some d /\ nth_error (y_defred Y) p = Some (d - 2) /\ nth_error (y_sindex Y) p = Some ixs /\ nth_error (y_rindex Y) p = Some ixr /\
    forall t, t < b_ntokens s ->
      (exists o, ylookup (y_high Y) (y_table Y) (y_check Y) ixs (nth t sv 0%Z) = Ok o /\
         forall q, o = Some q <-> exists a, In a acts /\ a_supp a = 0 /\ a_shift a = true /\ a_sym a = t /\ q = Z.of_nat (a_num a)) /\
      (exists o, ylookup (y_high Y) (y_table Y) (y_check Y) ixr (nth t sv 0%Z) = Ok o /\
         forall r, o = Some r <-> exists a, In a acts /\ a_supp a = 0 /\ a_shift a = false /\ a_num a <> d /\ a_sym a = t /\ (r + 2)%Z = Z.of_nat (a_num a)).
Proof.
  intros s f1 f2 f3 flag pr sv Y W WP SV E. destruct (generated_ok _ _ _ _ _ _ _ _ W WP SV E) as (nl & st & T & P & E1 & LO & E2 & TO & E3 & PO & YO).
  exists nl, st, T, P. do 3 (split; [assumption|]). intros p acts Ea. assert (Lp : p < nst st) by (rewrite <- (po_len _ _ _ _ _ _ PO); eapply nth_error_Some_lt; eauto).
  destruct (parser_state s W st LO T pr flag P PO p Lp) as (acts' & Q1 & Q2 & Q3). assert (acts' = acts) by congruence. subst acts'.
  pose proof (yo_def _ _ _ _ _ YO _ _ Ea) as YD. pose proof (ws_tok s W) as WT.
  destruct (yo_sh _ _ _ _ _ YO p acts 0%Z Ea ltac:(lia)) as (ixs & _ & S1 & _). destruct (yo_rd _ _ _ _ _ YO p acts 0%Z Ea ltac:(lia)) as (ixr & _ & R1 & _).
  exists (sole_reduction acts), ixs, ixr. split; [exact Q2|]. split; [rewrite YD; destruct (Nat.eqb_spec (sole_reduction acts) 0) as [Z|Z]; [rewrite Z|]; reflexivity|].
  split; [exact S1|]. split; [exact R1|]. intros t Lt.
  assert (SY : forall a, In a acts -> a_supp a = 0 -> nth t sv 0%Z = nth (a_sym a) sv 0%Z -> a_sym a = t).
  { intros a Ia Za X. destruct (spec_range s W st LO pr p a Lp (ao_spec _ _ _ _ _ Q3 a Ia Za)) as [L1 _]. symmetry. apply (sv_inj _ _ SV); auto. }
  split.
  - destruct (yo_sh _ _ _ _ _ YO p acts (nth t sv 0%Z) Ea (sv_pos _ _ SV t Lt)) as (ix & o & S2 & S3 & S4). assert (ix = ixs) by congruence. subst ix. exists o. split; [exact S3|].
    intros q. rewrite S4. split; intros (a & A1 & A2 & A3 & A4 & A5); exists a; (split; [exact A1|]); (split; [exact A2|]); (split; [exact A3|]); split; auto. congruence.
  - destruct (yo_rd _ _ _ _ _ YO p acts (nth t sv 0%Z) Ea (sv_pos _ _ SV t Lt)) as (ix & o & S2 & S3 & S4). assert (ix = ixr) by congruence. subst ix. exists o. split; [exact S3|].
    intros q. rewrite S4. split; intros (a & A1 & A2 & A3 & A4 & A5 & A6); exists a; (split; [exact A1|]); (split; [exact A2|]); (split; [exact A3|]); (split; [exact A4|]); (split; [|lia]); auto. congruence.
Qed.
Print Assumptions C43_actions.


(** If yyparse returns 0 and has counted no error, the codes its scanner delivered
    before the end marker (0 or negative) are those of a sentence of the grammar. *)
Theorem C48_accepted : forall s f1 f2 f3 flag pr sv Y, wf_src s -> wf_prec s pr -> wf_sv s sv -> nth 0 sv 0%Z = 0%Z -> byacc_generate f1 f2 f3 flag s pr sv = Ok Y ->
  forall lex mem fuel c, yyparse Y lex fuel (fresh mem) = Ok (YAccept, c) -> y_nerrs c = 0 ->
  exists n toks, y_pos c = S n /\ sentence (user s) toks /\ ~ In 0 toks /\
    map (fun t => nth t sv 0%Z) toks = map lex (seq 0 n) /\ (lex n <= 0)%Z.
Proof.
  intros s f1 f2 f3 flag pr sv Y W WP SV SV0 E lex mem fuel c EY N. destruct (generated_ok _ _ _ _ _ _ _ _ W WP SV E) as (nl & st & T & P & E1 & LO & E2 & TO & E3 & PO & YO).
  destruct (yyparse_ok s W st LO T pr flag P PO sv SV SV0 Y YO lex mem fuel (fresh mem)) as [R|(e & c' & R & _ & H)].
  - left. repeat split; auto. apply incl_refl.
  - rewrite EY in R. discriminate.
  - rewrite EY in R. inversion R; subst e c'. destruct (H N) as (n & toks & H1 & H2 & H3 & H4 & H5). exists n, toks. split; [exact H1|]. split; [exact H2|]. split; [|auto].
    intros I. rewrite Forall_forall in H3. specialize (H3 0 I). lia.
Qed.
Print Assumptions C48_accepted.

(** A stack as the first call finds it, or as every call leaves it that got its first
    blocks of memory. *)
Definition clean_stack (k : ystack) : Prop :=
  (ks_scap k = 0 /\ ks_size k = 0) \/ (2 <= ks_size k /\ ks_size k <= ks_scap k /\ ks_size k <= ks_lcap k).

(** yyparse never touches memory outside its blocks and tables.  It returns YOverflow
    only when an allocation failed or 10000 states are stacked, and returns 1 only
    after counting an error; and it leaves a stack fit for the next call unless the
    very first allocation failed. *)
Theorem C49_safe : forall s f1 f2 f3 flag pr sv Y, wf_src s -> wf_prec s pr -> wf_sv s sv -> nth 0 sv 0%Z = 0%Z -> byacc_generate f1 f2 f3 flag s pr sv = Ok Y ->
  forall lex fuel k, clean_stack k ->
  yyparse Y lex fuel k <> Bad /\
  forall e c, yyparse Y lex fuel k = Ok (e, c) ->
    (clean_stack (y_stk c) \/ (e = YOverflow /\ ks_size (y_stk c) = 0 /\ In false (ks_mem k))) /\
    (e = YOverflow -> In false (ks_mem k) \/ YYMAXDEPTH <= length (ks_st (y_stk c))) /\
    (e = YAbort -> 0 < y_nerrs c).
Proof.
  intros s f1 f2 f3 flag pr sv Y W WP SV SV0 E lex fuel k CK. destruct (generated_ok _ _ _ _ _ _ _ _ W WP SV E) as (nl & st & T & P & E1 & LO & E2 & TO & E3 & PO & YO).
  destruct (yyparse_ok s W st LO T pr flag P PO sv SV SV0 Y YO lex (ks_mem k) fuel k) as [R|(e & c' & R & U & H)].
  - destruct CK as [(A & B)|(A & B & C)]; [left|right]; repeat split; auto; apply incl_refl.
  - rewrite R. split; [discriminate|]. discriminate.
  - split; [rewrite R; discriminate|]. intros e0 c0 E0. rewrite R in E0. inversion E0; subst e0 c0. split; [|split; intros ->; exact H].
    destruct U as [(A & B & C & _)|(A & B & C)]; [left; right; auto|right; auto].
Qed.
Print Assumptions C49_safe.

(** The grammar of Prop_ByaccConflicts, with the codes byacc gives its tokens. *)
Definition sv39 : list Z := [0; 256; 43; 42; 60; 257; -1; 0]%Z.
Definition Y39 : ytabs := Eval vm_compute in match byacc_generate 300 300 300 false ex39 pr39 sv39 with Ok Y => Y | _ => mkYtabs [] [] [] [] [] [] [] 0 [] [] 0 0%Z end.
Definition input (l : list Z) (n : nat) : Z := nth n l 0%Z.
Example C48_hypotheses : wf_src ex39 /\ wf_prec ex39 pr39 /\ wf_sv ex39 sv39 /\ nth 0 sv39 0%Z = 0%Z /\ byacc_generate 300 300 300 false ex39 pr39 sv39 = Ok Y39 /\
  (* id + id * id *)
  (exists c, yyparse Y39 (input [257; 43; 257; 42; 257; -5]%Z) 50 (fresh []) = Ok (YAccept, c) /\ y_nerrs c = 0 /\ y_pos c = 6) /\
  (* id < id < id, and id id *)
  (exists c, yyparse Y39 (input [257; 60; 257; 60; 257]%Z) 50 (fresh []) = Ok (YAbort, c) /\ y_nerrs c = 1) /\
  (exists c, yyparse Y39 (input [257; 257]%Z) 50 (fresh []) = Ok (YAbort, c) /\ y_nerrs c = 1) /\
  (exists c, yyparse Y39 (input [257; 257]%Z) 50 (fresh [false]) = Ok (YOverflow, c)).
Proof.
  split; [apply wf_srcb_ok; reflexivity|]. split; [constructor; reflexivity|]. split.
  { constructor; [reflexivity| | |]; cbn.
    - intros t L. do 6 (destruct t as [|t]; [cbn; lia|]). lia.
    - intros t t' L L'. do 6 (destruct t as [|t]; [do 6 (destruct t' as [|t']; [cbn; lia|]); lia|]). lia.
    - intros k L. assert (k = 7) by lia. subst. reflexivity. }
  split; [reflexivity|]. split; [vm_compute; reflexivity|].
  split; [eexists; split; [vm_compute; reflexivity|split; reflexivity]|]. split; [eexists; split; [vm_compute; reflexivity|reflexivity]|].
  split; [eexists; split; [vm_compute; reflexivity|reflexivity]|]. eexists; vm_compute; reflexivity.
Qed.
(** E has transitions from states 0, 3, 4 and 5: the default 2, and three entries. *)
Example C43_hypotheses : y_dgoto Y39 = [2] /\ y_gindex Y39 = [2%Z] /\
  map (ylookup (y_high Y39) (y_table Y39) (y_check Y39) 2) [0; 3; 4; 5]%Z = [Ok None; Ok (Some 6%Z); Ok (Some 7%Z); Ok (Some 8%Z)].
Proof. vm_compute. auto. Qed.

(** A grammar with an error rule: list : | list 'id' ';' | list error ';'. *)
Definition ex48 : bsrc := mkSrc 4 6 [(5, []); (5, [5; 2; 3]); (5, [5; 1; 3])].
Definition pr48 : bprec := mkPrec [0; 0; 0; 0; 0; 0] [TOKEN; TOKEN; TOKEN; TOKEN; TOKEN; TOKEN] [0; 0; 0; 0; 0; 0] [TOKEN; TOKEN; TOKEN; TOKEN; TOKEN; TOKEN].
Definition sv48 : list Z := [0; 256; 257; 59; -1; 0]%Z.
Definition Y48 : ytabs := Eval vm_compute in match byacc_generate 300 300 300 false ex48 pr48 sv48 with Ok Y => Y | _ => mkYtabs [] [] [] [] [] [] [] 0 [] [] 0 0%Z end.
(** Recovery after the error in the second statement; accepted, but with the error
    counted. *)
Example C49_hypotheses : wf_src ex48 /\ wf_prec ex48 pr48 /\ byacc_generate 300 300 300 false ex48 pr48 sv48 = Ok Y48 /\ clean_stack (fresh [true; true]) /\
  (exists c, yyparse Y48 (input [257; 59; 59; 257; 59]%Z) 50 (fresh [true; true]) = Ok (YAccept, c) /\ y_nerrs c = 1 /\ y_pos c = 6 /\ ks_size (y_stk c) = 200 /\ clean_stack (y_stk c)).
Proof.
  split; [apply wf_srcb_ok; reflexivity|]. split; [constructor; reflexivity|]. split; [vm_compute; reflexivity|]. split; [left; auto|].
  eexists. split; [vm_compute; reflexivity|]. do 3 (split; [reflexivity|]). right. cbn [y_stk ks_size ks_scap ks_lcap]. lia.
Qed.

(** When the first block can be had and the second not, the next call finds s_base set
    and l_base NULL; if the goal can be reduced at once it stores through l_base. *)
Theorem C49_second_call_refuted : exists s pr sv Y k c, wf_src s /\ wf_prec s pr /\ byacc_generate 300 300 300 false s pr sv = Ok Y /\
  k = fresh [true; false] /\ yyparse Y (fun _ => 0%Z) 50 k = Ok (YOverflow, c) /\ yyparse Y (fun _ => 0%Z) 50 (y_stk c) = Bad.
Proof.
  exists ex48, pr48, sv48, Y48, (fresh [true; false]). eexists. split; [apply wf_srcb_ok; reflexivity|]. split; [constructor; reflexivity|]. split; [vm_compute; reflexivity|]. split; [reflexivity|].
  split; [vm_compute; reflexivity|]. vm_compute. reflexivity.
Qed.
Print Assumptions C49_second_call_refuted.
