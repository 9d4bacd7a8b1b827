(** C71: yyparse for a grammar without conflicts ends on every input, and so decides the language. *)
From Coq Require Import List Arith ZArith Lia Bool.
Import ListNotations.
From Verif Require Import Base CLib SpecGrammar SpecGrammarFacts SpecLRFacts SpecLR0 SpecConflict LemonStatesModel LemonActionModel LemonReportModel LemonParModel LemonPipelineModel
  LemonGenProof LemonTabProof LemonSoundProof Prop_LemonSound LemonMachineProof LemonCompleteProof Prop_LemonTables Prop_LemonComplete.
From Verif Require Import SpecByacc SpecAgree ByaccWarshallModel ByaccWarshallProof ByaccLr0Model ByaccPackProof
  ByaccClosureProof ByaccNullProof ByaccLr0Proof ByaccStatesProof ByaccLalrModel ByaccDigraphProof ByaccTransposeProof ByaccLookSem ByaccGotoProof ByaccReadProof
  ByaccLookProof ByaccParModel SpecByaccConflicts ByaccParProof ByaccActionsProof ByaccOutputModel ByaccPackTableProof ByaccRowsProof Prop_ByaccConflicts Prop_ByaccPacking
  ByaccTablesProof ByaccParserModel ByaccParserProof Prop_ByaccParser ByaccCompleteProof.
From Verif Require Import Prop_ByaccComplete ByaccTerminatesProof.
Local Open Scope res_scope.

(** More fuel does not change a result. *)
Lemma yyrun_more : forall Y lex f c r, yyrun Y lex f c = Ok r -> forall f', f <= f' -> yyrun Y lex f' c = Ok r.
Proof.
  intros Y lex f. induction f as [|f IH]; intros c r H f' L; [discriminate|]. destruct f' as [|f']; [lia|]. cbn [yyrun] in *.
  apply bind_Ok in H as (x & -> & H). cbn [bind]. destruct x; [|exact H]. apply (IH _ _ H). lia.
Qed.

Lemma yyparse_more : forall Y lex f k r, yyparse Y lex f k = Ok r -> forall f', f <= f' -> yyparse Y lex f' k = Ok r.
Proof.
  intros Y lex f k r H f' L. unfold yyparse in *. destruct (if ks_scap k =? 0 then yygrowstack k else (true, k)) as [ok k1]. destruct ok; [|exact H].
  destruct (ks_scap k1 =? 0); [exact H|]. eapply yyrun_more; eauto.
Qed.

(** Whatever numbers yylex returns before its first end marker, and whatever stack an
    earlier call has left, yyparse returns: also when it has errors to recover from. *)
Theorem C71_terminates : forall s f1 f2 f3 flag pr sv Y, wf_src s -> wf_prec s pr -> wf_sv s sv -> nth 0 sv 0%Z = 0%Z -> byacc_generate f1 f2 f3 flag s pr sv = Ok Y ->
  all_productive (aug s) -> conflict_free (aug s) -> forall lex n k, (lex n <= 0)%Z -> clean_stack k ->
  exists fuel e c, forall fuel', fuel <= fuel' -> yyparse Y lex fuel' k = Ok (e, c).
Proof.
  intros s f1 f2 f3 flag pr sv Y W WP SV SV0 E AP CF lex n k LN CK. destruct (generated_ok _ _ _ _ _ _ _ _ W WP SV E) as (nl & st & T & P & E1 & LO & E2 & TO & E3 & PO & YO).
  destruct (yyparse_ends s W st LO T pr flag P PO sv SV SV0 Y YO lex (ks_mem k) AP CF n k LN) as (f & (e & c) & R).
  - destruct CK as [(A & B)|(A & B & C)]; [left|right]; repeat split; auto; apply incl_refl.
  - exists f, e, c. now apply yyparse_more.
Qed.
Print Assumptions C71_terminates.

(** So with enough stack it decides the language: it returns 0 without an error for the
    sentences, and for every other sequence of tokens it returns having reported one. *)
Theorem C71_decides : forall s f1 f2 f3 flag pr sv Y, wf_src s -> wf_prec s pr -> wf_sv s sv -> nth 0 sv 0%Z = 0%Z -> byacc_generate f1 f2 f3 flag s pr sv = Ok Y ->
  all_productive (aug s) -> conflict_free (aug s) -> forall w lex mem, Forall (fun t => 0 < t < b_ntokens s) w -> delivers lex sv w ->
  exists fuel e c, (forall fuel', fuel <= fuel' -> yyparse Y lex fuel' (fresh mem) = Ok (e, c)) /\
    (e = YOverflow /\ (In false mem \/ YYMAXDEPTH <= length (ks_st (y_stk c))) \/
     e <> YOverflow /\ (sentence (user s) w <-> y_nerrs c = 0) /\ (sentence (user s) w -> e = YAccept)).
Proof.
  intros s f1 f2 f3 flag pr sv Y W WP SV SV0 E AP CF w lex mem FW DL.
  assert (CK : clean_stack (fresh mem)) by (left; split; reflexivity).
  destruct (C71_terminates s f1 f2 f3 flag pr sv Y W WP SV SV0 E AP CF lex (length w) (fresh mem) (proj2 DL) CK) as (f & e & c & R).
  exists f, e, c. split; [exact R|]. pose proof (R f (le_n _)) as R0. destruct (C49_safe s f1 f2 f3 flag pr sv Y W WP SV SV0 E lex f (fresh mem) CK) as (_ & X). destruct (X e c R0) as (_ & X1 & X2). clear X.
  assert (SAME : forall f0 e0 c0, yyparse Y lex f0 (fresh mem) = Ok (e0, c0) -> e0 = e /\ c0 = c).
  { intros f0 e0 c0 H. pose proof (yyparse_more _ _ _ _ _ H (Nat.max f f0) (Nat.le_max_r _ _)) as H1. rewrite (R _ (Nat.le_max_l _ _)) in H1. inversion H1. auto. }
  assert (DO : e = YOverflow \/ e <> YOverflow) by (destruct e; [right|right|left]; congruence). destruct DO as [->|NO]; [left; split; [reflexivity|now apply X1]|right].
  split; [exact NO|].
  assert (FWD : sentence (user s) w -> e = YAccept /\ y_nerrs c = 0).
  { intros SE. destruct (C52_complete s f1 f2 f3 flag pr sv Y W WP SV SV0 E CF w lex SE DL (fresh mem) CK) as (f0 & e0 & c0 & R1 & H). destruct (SAME _ _ _ R1) as (-> & ->). destruct H as [(-> & H & _)|(H & _)]; [auto|contradiction]. }
  split; [split|].
  - intros SE. now apply FWD.
  - intros N. destruct e; [|specialize (X2 eq_refl); lia|contradiction].
    apply (C52_language s f1 f2 f3 flag pr sv Y W WP SV SV0 E CF w lex mem FW DL); [|eauto]. intros f0 c0 H. destruct (SAME _ _ _ H). discriminate.
  - intros SE. now apply FWD.
Qed.
Print Assumptions C71_decides.

(** ** Without the hypothesis on conflicts *)
Fixpoint rounds (Y : ytabs) (lex : nat -> Z) (n : nat) (c : ycfg) : res ycfg :=
  match n with
  | 0 => Ok c
  | S n => x <- yyloop Y lex c ;; match x with YNext c => rounds Y lex n c | YEnd _ _ => Bad end
  end.

Lemma rounds_cycle : forall Y lex n c, rounds Y lex (S n) c = Ok c -> forall f, yyrun Y lex f c = Fuel.
Proof.
  intros Y lex n c H f. assert (K : forall m c0 c1 f, rounds Y lex m c0 = Ok c1 -> (forall f0, f0 + m <= f -> yyrun Y lex f0 c1 = Fuel) -> yyrun Y lex f c0 = Fuel).
  { clear. induction m as [|m IH]; intros c0 c1 f H K; cbn [rounds] in H; [inversion H; subst; apply K; lia|]. destruct f as [|f]; [reflexivity|]. cbn [yyrun].
    apply bind_Ok in H as (x & -> & H). cbn [bind]. destruct x as [c2|]; [|discriminate]. eapply IH; [exact H|]. intros f0 L. apply K. lia. }
  induction f as [f IH] using lt_wf_ind. eapply K; [exact H|]. intros f0 L. apply IH. lia.
Qed.

Lemma rounds_run : forall Y lex n c c', rounds Y lex n c = Ok c' -> (forall f, yyrun Y lex f c' = Fuel) -> forall f, yyrun Y lex f c = Fuel.
Proof.
  intros Y lex n. induction n as [|n IH]; intros c c' H K f; cbn [rounds] in H; [inversion H; subst; auto|]. destruct f as [|f]; [reflexivity|]. cbn [yyrun].
  apply bind_Ok in H as (x & -> & H). cbn [bind]. destruct x as [c2|]; [|discriminate]. eapply IH; eauto.
Qed.

(** s : '(' t ')' ; t : a ; a : t %prec HIGH | 'x', with a lower precedence for ')'. *)
Definition ex52l : bsrc := mkSrc 5 9 [(6, [2; 7; 3]); (7, [8]); (8, [7]); (8, [4])].
Definition pr52l : bprec := mkPrec [0; 0; 0; 1; 0; 0; 0; 0; 0] [TOKEN; TOKEN; TOKEN; LEFT; TOKEN; TOKEN; TOKEN; TOKEN; TOKEN] [0; 0; 0; 0; 0; 2; 0] [TOKEN; TOKEN; TOKEN; TOKEN; TOKEN; LEFT; TOKEN].
Definition sv52l : list Z := [0; 256; 40; 41; 120; -1; 0; 1; 2]%Z.
Definition Y52l : ytabs := Eval vm_compute in match byacc_generate 300 300 300 false ex52l pr52l sv52l with Ok Y => Y | _ => mkYtabs [] [] [] [] [] [] [] 0 [] [] 0 0%Z end.

Ltac prod_by rl := eapply derives_trans; [apply (derives_rule _ rl); cbn; tauto|].

Lemma ex52l_productive : all_productive (aug ex52l).
Proof.
  assert (P8 : derives (aug ex52l) [ESym 8] [ESym 4]) by (apply (derives_rule _ (mkRule 8 [ESym 4])); cbn; tauto).
  assert (P7 : derives (aug ex52l) [ESym 7] [ESym 4]) by (prod_by (mkRule 7 [ESym 8]); exact P8).
  assert (P6 : derives (aug ex52l) [ESym 6] [ESym 2; ESym 4; ESym 3]).
  { prod_by (mkRule 6 [ESym 2; ESym 7; ESym 3]). exact (derives_app _ [ESym 2] [ESym 2] [ESym 7; ESym 3] [ESym 4; ESym 3] (derives_refl _ _) (derives_app _ [ESym 7] [ESym 4] [ESym 3] [ESym 3] P7 (derives_refl _ _))). }
  intros A [H1 H2]. cbn in H1, H2. assert (HA : A = 5 \/ A = 6 \/ A = 7 \/ A = 8) by lia. destruct HA as [->|[->|[->| ->]]].
  - exists [2; 4; 3]. split; [repeat constructor|]. prod_by (mkRule 5 [ESym 6]). exact P6.
  - exists [2; 4; 3]. split; [repeat constructor|exact P6].
  - exists [4]. split; [repeat constructor|exact P7].
  - exists [4]. split; [repeat constructor|exact P8].
Qed.

(** A conflict that the precedences resolve is not counted, and the parser runs forever:
    having read ( x it reduces t to a and a to t in turn. *)
Theorem C71_precedence_refuted : exists s pr sv Y nl st T P (lex : nat -> Z), wf_src s /\ wf_prec s pr /\ wf_sv s sv /\ nth 0 sv 0%Z = 0%Z /\ all_productive (aug s) /\
  lr0 300 (pack_grammar s) = Ok (nl, st) /\ lalr 300 (pack_grammar s) nl st = Ok T /\ make_parser false (pack_grammar s) pr T = Ok P /\ list_sum (p_SR P) = 0 /\ list_sum (p_RR P) = 0 /\
  byacc_generate 300 300 300 false s pr sv = Ok Y /\ (lex 3%nat <= 0)%Z /\ forall fuel, yyparse Y lex fuel (fresh []) = Fuel.
Proof.
  exists ex52l, pr52l, sv52l, Y52l. do 4 eexists. exists (input [40; 120; 41]%Z).
  split; [apply wf_srcb_ok; reflexivity|]. split; [constructor; reflexivity|]. split.
  { constructor; [reflexivity| | |]; cbn.
    - intros t L. do 5 (destruct t as [|t]; [cbn; lia|]). lia.
    - intros t t' L L'. do 5 (destruct t as [|t]; [do 5 (destruct t' as [|t']; [cbn; lia|]); lia|]). lia.
    - intros k L. assert (k = 6 \/ k = 7 \/ k = 8) as [-> | [-> | ->]] by lia; reflexivity. }
  split; [reflexivity|]. split; [exact ex52l_productive|].
  split; [vm_compute; reflexivity|]. split; [vm_compute; reflexivity|]. split; [vm_compute; reflexivity|]. split; [reflexivity|]. split; [reflexivity|].
  split; [vm_compute; reflexivity|]. split; [cbn; lia|]. intros fuel.
  change (yyparse Y52l (input [40; 120; 41]%Z) fuel (fresh [])) with
    (yyrun Y52l (input [40; 120; 41]%Z) fuel (mkYcfg (mkYstack [0] YYINITSTACKSIZE YYINITSTACKSIZE YYINITSTACKSIZE []) (-1)%Z 0 0 0)).
  eapply (rounds_run _ _ 3); [vm_compute; reflexivity|]. apply (rounds_cycle _ _ 1). vm_compute. reflexivity.
Qed.
Print Assumptions C71_precedence_refuted.

(** lines : | lines line ; line : ID ';' | error ';'. *)
Definition ex52e : bsrc := mkSrc 4 7 [(5, []); (5, [5; 6]); (6, [2; 3]); (6, [1; 3])].
Definition pr52e : bprec := mkPrec (repeat 0 7) (repeat TOKEN 7) (repeat 0 7) (repeat TOKEN 7).
Definition sv52e : list Z := [0; 256; 257; 59; -1; 0; 1]%Z.
Definition Y52e : ytabs := Eval vm_compute in match byacc_generate 300 300 300 false ex52e pr52e sv52e with Ok Y => Y | _ => mkYtabs [] [] [] [] [] [] [] 0 [] [] 0 0%Z end.

Lemma ex52e_productive : all_productive (aug ex52e).
Proof.
  assert (P5 : derives (aug ex52e) [ESym 5] []) by (apply (derives_rule _ (mkRule 5 [])); cbn; tauto).
  intros A [H1 H2]. cbn in H1, H2. assert (HA : A = 4 \/ A = 5 \/ A = 6) by lia. destruct HA as [->|[->| ->]].
  - exists []. split; [constructor|]. prod_by (mkRule 4 [ESym 5]). exact P5.
  - exists []. split; [constructor|exact P5].
  - exists [2; 3]. split; [repeat constructor|]. apply (derives_rule _ (mkRule 6 [ESym 2; ESym 3])); cbn; tauto.
Qed.

(** ID ; ; ID ; is read with one error, reported at the second semicolon; ID ID ID ends too. *)
Example C71_decides_hypotheses : wf_src ex52e /\ wf_prec ex52e pr52e /\ wf_sv ex52e sv52e /\ nth 0 sv52e 0%Z = 0%Z /\ byacc_generate 300 300 300 false ex52e pr52e sv52e = Ok Y52e /\
  all_productive (aug ex52e) /\ conflict_free (aug ex52e) /\ delivers (input [257; 59; 59; 257; 59]%Z) sv52e [2; 3; 3; 2; 3] /\
  (exists c, yyparse Y52e (input [257; 59; 59; 257; 59]%Z) 50 (fresh []) = Ok (YAccept, c) /\ y_nerrs c = 1) /\
  (exists c, yyparse Y52e (input [257; 59; 257; 59]%Z) 50 (fresh []) = Ok (YAccept, c) /\ y_nerrs c = 0) /\
  (exists c, yyparse Y52e (input [257; 257; 999; -5]%Z) 50 (fresh []) = Ok (YAbort, c) /\ y_nerrs c = 1).
Proof.
  split; [apply wf_srcb_ok; reflexivity|]. split; [constructor; reflexivity|]. split.
  { constructor; [reflexivity| | |]; cbn.
    - intros t L. do 4 (destruct t as [|t]; [cbn; lia|]). lia.
    - intros t t' L L'. do 4 (destruct t as [|t]; [do 4 (destruct t' as [|t']; [cbn; lia|]); lia|]). lia.
    - intros k L. assert (k = 5 \/ k = 6) as [-> | ->] by lia; reflexivity. }
  split; [reflexivity|]. split; [vm_compute; reflexivity|]. split; [exact ex52e_productive|]. split; [free|].
  split. { split; [|cbn; lia]. intros i t E. do 5 (destruct i as [|i]; [cbn in E; inversion E; reflexivity|]). destruct i; discriminate. }
  split; [|split]; eexists; (split; [vm_compute; reflexivity|reflexivity]).
Qed.
