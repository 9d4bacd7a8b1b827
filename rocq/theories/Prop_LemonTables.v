(** C10, C11, C13, C19, C26: the tables printed by lemon and how the driver reads
    them. *)
From Coq Require Import List ZArith NArith Bool Lia Arith Permutation Sorted.
Import ListNotations.
From Verif Require Import Base CLib SpecGrammar SpecGrammarFacts LemonSetModel LemonStatesModel LemonActionModel
  LemonCompressModel LemonActtabModel LemonActtabProof LemonReportModel LemonParModel LemonPipelineModel
  LemonReportProof LemonLookupProof Prop_LemonActtab.
Local Open Scope res_scope.
Local Open Scope Z_scope.

(** * C10, C19: lookups *)

(** The rows ReportTable builds for a state: terminals in the first list,
    nonterminals in the second, codes not negative, no pair twice. *)
Definition rows_ok (nt ns : Z) (sts : list srow) : Prop :=
  forall s, In s sts -> NoDup (sr_tkn s) /\ NoDup (sr_nt s) /\
    (forall la ac, In (la, ac) (sr_tkn s) -> 0 <= la < nt /\ 0 <= ac) /\
    (forall la ac, In (la, ac) (sr_nt s) -> nt <= la < ns /\ 0 <= ac).

(** The action a token finds: its own, else that of its fallback token, else that
    of the wildcard (never for end of input), else the default. *)
Inductive token_action (tkn : list (Z * Z)) (dflt : Z) (fb : Z -> Z) (w : option Z) : Z -> Z -> Prop :=
| ta_own : forall la ac, entered tkn la ac -> token_action tkn dflt fb w la ac
| ta_fallback : forall la ac, (forall a, ~ In (la, a) tkn) -> fb la <> 0 ->
    token_action tkn dflt fb w (fb la) ac -> token_action tkn dflt fb w la ac
| ta_wildcard : forall la x ac, (forall a, ~ In (la, a) tkn) -> fb la = 0 -> w = Some x -> 0 < la ->
    entered tkn x ac -> token_action tkn dflt fb w la ac
| ta_default : forall la, (forall a, ~ In (la, a) tkn) -> fb la = 0 ->
    (forall x, w = Some x -> la <= 0 \/ forall a, ~ In (x, a) tkn) -> token_action tkn dflt fb w la dflt.

Definition fb_of (l : option (list Z)) (la : Z) : Z := match l with Some l => nth (Z.to_nat la) l 0 | None => 0 end.

(** The fallback table has one entry per terminal and no chains; the wildcard is
    a terminal. *)
Definition fallbacks_ok (nt : Z) (c : gen) : Prop :=
  (forall l, g_fallback c = Some l -> Z.of_nat (length l) = nt /\
     forall la, 0 <= la < nt -> 0 <= nth (Z.to_nat la) l 0 < nt /\ nth (Z.to_nat (nth (Z.to_nat la) l 0)) l 0 = 0) /\
  (forall w, g_wildcard c = Some w -> 0 <= w < nt).

Lemma not_in_lookup : forall L la, (forall a, ~ In (la, a) L) <-> lookup_last L la = None.
Proof.
  intros L la. split.
  - intros H. destruct (lookup_last L la) eqn:E; [|auto]. apply lookup_last_In in E. now elim (H z).
  - intros H a I. destruct (lookup_last_ex _ _ _ I). congruence.
Qed.

Lemma token_action_spec : forall c nt tkn d la, fallbacks_ok nt c -> 0 <= la < nt ->
  token_action tkn d (fb_of (g_fallback c)) (g_wildcard c) la (find_spec tkn d (g_fallback c) (g_wildcard c) la).
Proof.
  intros c nt tkn d la (F1 & F2) LA. unfold find_spec.
  assert (WS : forall x, lookup_last tkn x = None -> fb_of (g_fallback c) x = 0 ->
     token_action tkn d (fb_of (g_fallback c)) (g_wildcard c) x (wild_spec tkn d (g_wildcard c) x)).
  { intros x EX FX. unfold wild_spec. destruct (g_wildcard c) as [w|] eqn:EW.
    - destruct (lookup_last tkn w) as [a|] eqn:EL; [destruct (Z.ltb_spec 0 x)|].
      + apply ta_wildcard with (x := w); [now apply not_in_lookup|auto|auto|auto|now apply lookup_last_entered].
      + apply ta_default; [now apply not_in_lookup|auto|]. intros y Y. left. lia.
      + apply ta_default; [now apply not_in_lookup|auto|]. intros y Y. inversion Y; subst y. right. now apply not_in_lookup.
    - apply ta_default; [now apply not_in_lookup|auto|]. intros y Y. discriminate. }
  destruct (lookup_last tkn la) as [a|] eqn:EL.
  - apply ta_own. now apply lookup_last_entered.
  - destruct (g_fallback c) as [l|] eqn:EF; [|now apply WS].
    destruct (F1 l eq_refl) as (FL & FV). destruct (FV la LA) as (V1 & V2). cbv zeta.
    destruct (Z.eqb_spec (nth (Z.to_nat la) l 0) 0) as [E0|E0]; [now apply WS|].
    apply ta_fallback; [now apply not_in_lookup|exact E0|]. cbn [fb_of].
    destruct (lookup_last tkn (nth (Z.to_nat la) l 0)) as [b|] eqn:EL2.
    + apply ta_own. now apply lookup_last_entered.
    + apply WS; auto.
Qed.

(** For the tables of any rows: every state up to YY_SHIFT_COUNT and every token
    code, the lookup stays inside the tables and returns the action the token
    should find.  States beyond YY_SHIFT_COUNT have no token row. *)
Theorem C19_find_shift_action : forall k nrule ns nt sts t c,
  0 < nt <= ns -> rows_ok nt ns sts -> ReportTables k nrule ns nt sts = Ok t ->
  g_tab c = t -> fallbacks_ok nt c ->
  forall i s, nth_error sts i = Some s ->
    (Z.of_nat i <= YY_SHIFT_COUNT t ->
     forall la, 0 <= la < nt -> exists v, yy_find_shift_action c la (Z.of_nat i) = Ok v /\
       token_action (sr_tkn s) (if sr_dflt s <? 0 then k_errAction k else sr_dflt s + k_minReduce k)
         (fb_of (g_fallback c)) (g_wildcard c) la v) /\
    (YY_SHIFT_COUNT t < Z.of_nat i -> sr_tkn s = []).
Proof.
  intros k nrule ns nt sts t c HN V H HC FB i s E.
  destruct (ReportTables_ok false k nrule ns nt sts t HN V ltac:(discriminate) H)
    as (C1 & C2 & C3 & C4 & C5 & C6 & C7 & C8 & C9 & LA & LL & SC & RC & ROWS).
  destruct (ROWS i s E) as (RT & _ & DF). subst t. split; [|apply (rt_noshift _ _ _ _ _ RT)].
  intros SI la B.
  rewrite (find_shift_ok c nt ns (Z.of_nat i) s _ HN RT C2 C1 DF la B).
  - eexists. split; [reflexivity|]. now apply token_action_spec with (nt := nt).
  - destruct FB as (_ & F2). unfold wild_ok. destruct (g_wildcard c); auto.
  - destruct FB as (F1 & _). unfold fallback_ok. destruct (g_fallback c) as [l|]; [|auto].
    destruct (F1 l eq_refl) as (A1 & A2). split; [auto|]. intros x X. apply A2. auto.
  - auto.
  - rewrite C3. unfold lenz. pose proof (nth_error_Some_lt _ _ _ _ E). lia.
Qed.
Print Assumptions C19_find_shift_action.

(** The wildcard and the fallback never override an action of the token itself. *)
Theorem C19_own_action_first : forall tkn d fb w la ac v, entered tkn la ac ->
  token_action tkn d fb w la v -> v = ac.
Proof.
  intros tkn d fb w la ac v EN TA. apply lookup_last_entered in EN.
  destruct TA as [la v E|la v N _ _|la x v N _ _ _ _|la N _ _].
  - apply lookup_last_entered in E. congruence.
  - apply not_in_lookup in N. congruence.
  - apply not_in_lookup in N. congruence.
  - apply not_in_lookup in N. congruence.
Qed.

(** The lookup of a nonterminal that has an action in the state finds it.  With an error
    symbol the lookup of any nonterminal in any state stays inside the tables; a symbol
    without an action in the state gets the default, if in every row of nonterminals the
    smallest and the largest add up to at most the numbers of terminals and of symbols. *)
Theorem C10_find_reduce_action : forall k nrule ns nt sts t c,
  0 < nt <= ns -> rows_ok nt ns sts -> ReportTables k nrule ns nt sts = Ok t -> g_tab c = t ->
  forall i s, nth_error sts i = Some s ->
    (forall la ac, nt <= la < ns -> entered (sr_nt s) la ac -> yy_find_reduce_action c (Z.of_nat i) la = Ok ac) /\
    (g_errsym c <> None -> forall la, nt <= la < ns -> exists v, yy_find_reduce_action c (Z.of_nat i) la = Ok v /\
       ((forall s', In s' sts -> sr_nt s' <> [] -> exists lo, In lo (map fst (sr_nt s')) /\ forall hi, In hi (map fst (sr_nt s')) -> lo + hi <= nt + ns) ->
        (forall a, ~ In (la, a) (sr_nt s)) -> v = if sr_dflt s <? 0 then k_errAction k else sr_dflt s + k_minReduce k)).
Proof.
  intros k nrule ns nt sts t c HN V H HC i s E.
  destruct (ReportTables_ok false k nrule ns nt sts t HN V ltac:(discriminate) H)
    as (C1 & C2 & C3 & C4 & C5 & C6 & C7 & C8 & C9 & LA & LL & SC & RC & ROWS).
  destruct (ROWS i s E) as (RT & _ & DF). subst t. split.
  - intros la ac B EN. apply lookup_last_entered in EN. exact (find_reduce_ok c nt ns (Z.of_nat i) s RT C1 la ac B EN).
  - intros ES la B. destruct (find_reduce_err_ok c nt ns (Z.of_nat i) s _ RT C1 LA DF la B ES ltac:(lia)) as (v & EV & AB). exists v. split; [exact EV|].
    intros SP NI. rewrite AB; [apply not_in_lookup in NI; now rewrite NI|].
    destruct (ReportTables_ok true k nrule ns nt sts (g_tab c) HN V) as (_ & _ & _ & _ & _ & _ & _ & _ & _ & _ & _ & _ & _ & ROWS'); [|exact H|exact (proj1 (proj2 (ROWS' i s E)) eq_refl)].
    intros _ s' I NE. exact (SP s' I NE).
Qed.
Print Assumptions C10_find_reduce_action.

(** The table shapes: one action per entry of yy_action, lookaheads for every
    offset plus every terminal, offsets of token rows not negative. *)
Theorem C10_bounds : forall k nrule ns nt sts t,
  0 < nt <= ns -> rows_ok nt ns sts -> ReportTables k nrule ns nt sts = Ok t ->
  Z.of_nat (length (yy_action t)) = YY_ACTTAB_COUNT t /\
  forall i o, nth_error (yy_shift_ofst t) i = Some o ->
    0 <= o <= YY_ACTTAB_COUNT t /\ o + nt <= Z.of_nat (length (yy_lookahead t)).
Proof.
  intros k nrule ns nt sts t HN V H.
  destruct (ReportTables_ok false k nrule ns nt sts t HN V ltac:(discriminate) H)
    as (C1 & C2 & C3 & C4 & C5 & C6 & C7 & C8 & C9 & LA & LL & SC & RC & ROWS).
  split; [exact LA|]. intros i o E.
  assert (LEN : Z.of_nat (length (yy_shift_ofst t)) = YY_SHIFT_COUNT t + 1).
  { clear - H. unfold ReportTables in H. cbv zeta in H.
    apply bind_Ok in H. destruct H as ([p os] & _ & H). cbn [fst snd] in H.
    apply bind_Ok in H. destruct H as (n & _ & H). apply bind_Ok in H. destruct H as (a & _ & H).
    apply bind_Ok in H. destruct H as (l & _ & H). inversion H. cbn [yy_shift_ofst YY_SHIFT_COUNT].
    rewrite map_length, firstn_length, map_length, seq_length.
    destruct (trim_none_spec (map (ofst_of (take_nonempty (qsort axset_le (make_ax 0 sts))) os true) (seq 0 (length sts))) (length sts)) as (T & _);
      [rewrite map_length, seq_length; lia|]. lia. }
  pose proof (nth_error_Some_lt _ _ _ _ E) as IL.
  assert (IS : (i < length sts)%nat) by (unfold lenz in SC; lia).
  destruct (nth_error_lt_ex _ sts i IS) as (s & ES). destruct (ROWS i s ES) as (RT & _).
  destruct (rt_shift _ _ _ _ _ RT ltac:(lia)) as (o' & RO & B1 & B2 & _).
  rewrite rdz_nat, E in RO. inversion RO; subst o'. split; auto.
Qed.
Print Assumptions C10_bounds.

(** Building the tables does not run off the action array when every token row
    holds a terminal whose code plus the number of terminals is at most the number
    of symbols. *)
Theorem C10_build_partial : forall k nrule ns nt sts,
  0 < nt <= ns -> rows_ok nt ns sts ->
  (forall s, In s sts -> sr_tkn s <> [] -> exists la, In la (map fst (sr_tkn s)) /\ la + nt <= ns) ->
  exists t, ReportTables k nrule ns nt sts = Ok t.
Proof. intros. apply ReportTables_total; auto. Qed.
Print Assumptions C10_build_partial.

(** Without that, a safe insertion can leave nAction beyond the allocated array,
    which acttab_action_size then reads. *)
Theorem C10_build_refuted : exists nt ns rows p os, 0 < nt <= ns /\ Forall (txn_ok nt ns) rows /\
  add_rows (acttab_alloc ns nt) rows = Ok (p, os) /\ acttab_action_size p = Bad.
Proof.
  exists 30, 31, [([(27, 4)], true)]. do 2 eexists. split; [lia|]. split.
  - constructor; [|constructor]. split; [discriminate|]. split; [repeat constructor; cbn; tauto|].
    cbn. intros la ac [E|[]]. inversion E. lia.
  - split; vm_compute; reflexivity.
Qed.

(** s : X a ; a : Y | a b ; b : B c ; c : (empty).
    Terminals 0 $, 1 X, 2 Y, 3 B; nonterminals 4 s, 5 a, 6 b, 7 c. *)
Definition exg10 : grammar := mkGrammar 4 8
  [mkRule 4 [ESym 1; ESym 5]; mkRule 5 [ESym 2]; mkRule 5 [ESym 5; ESym 6]; mkRule 6 [ESym 3; ESym 7]; mkRule 7 []] 4.
Definition noprec : precs := mkPrecs (fun _ => None) (fun _ => UNK).
Definition plain_opts (g : grammar) : opts :=
  mkOpts false false true noprec (map (fun _ => None) (g_rules g)) (map (fun _ => false) (g_rules g)) None None None
    (fun _ i => i) (fun _ i => i).

(** yy_shift_ofst is cut after the last state with a token row, but the parser
    looks up tokens in later states too: after the sentence prefix X Y B the
    driver is in state 3 and yy_shift_ofst has 3 entries. *)
Theorem C10_shift_ofst_refuted : exists g c p st, wf_grammar g /\
  lemon_generate 100 100 100 (plain_opts g) g = Ok c /\
  feed c (fun _ => None) 50 (ParseInit 20) [1; 2; 3] 1 = Ok p /\
  (exists e, nth_error (p_stack p) 0 = Some e /\ e_state e = st) /\
  st <= YY_MAX_SHIFT (g_tab c) /\ Z.of_nat (length (yy_shift_ofst (g_tab c))) <= st /\
  forall la, yy_find_shift_action c la st = Bad.
Proof.
  exists exg10. do 2 eexists. exists 3. split; [apply wf_grammarb_ok; reflexivity|].
  split; [vm_compute; reflexivity|]. split; [vm_compute; reflexivity|].
  split; [eexists; split; reflexivity|]. split; [vm_compute; discriminate|].
  split; [vm_compute; discriminate|]. intros la. reflexivity.
Qed.

(** A fallback token that itself has a fallback makes the driver abort. *)
Theorem C19_fallback_chain_refuted : exists g o c la st, wf_grammar g /\
  lemon_generate 100 100 100 o g = Ok c /\ 0 <= la < YYNTOKEN (g_tab c) /\ 0 <= st <= YY_SHIFT_COUNT (g_tab c) /\
  yy_find_shift_action c la st = Bad.
Proof.
  exists exg10, (mkOpts false false true noprec (map (fun _ => None) (g_rules exg10)) (map (fun _ => false) (g_rules exg10)) None None
    (Some [0; 0; 3; 1]%nat) (fun _ i => i) (fun _ i => i)).
  eexists. exists 2, 0. split; [apply wf_grammarb_ok; reflexivity|].
  split; [vm_compute; reflexivity|]. split; [vm_compute; split; [discriminate|reflexivity]|].
  split; [vm_compute; split; discriminate|]. vm_compute. reflexivity.
Qed.

(** Three states; token 1 has no row in state 1 and falls back to 2, token 3
    matches the wildcard 4. *)
Definition exsts : list srow :=
  [mkSrow [(1, 10); (2, 11)] [(6, 1); (7, 2)] (-1); mkSrow [(2, 1); (4, 12)] [(6, 2)] 0; mkSrow [] [(7, 0)] 1].
Definition exk : consts := report_consts 4 5.
Definition exgen (t : tables) : gen := mkGen t (Some [0; 2; 0; 0; 0; 0]) (Some 4) None [] [].

Example C19_ex : exists t, rows_ok 6 8 exsts /\ ReportTables exk 5 8 6 exsts = Ok t /\ fallbacks_ok 6 (exgen t) /\
  map (fun la => yy_find_shift_action (exgen t) la 1) [0; 1; 2; 3; 4] =
    [Ok (k_minReduce exk); Ok 1; Ok 1; Ok 12; Ok 12] /\
  yy_find_shift_action (exgen t) 1 0 = Ok 10.
Proof.
  eexists. split.
  { intros s [<-|[<-|[<-|[]]]]; cbn [sr_tkn sr_nt];
    (split; [repeat constructor; cbn; intuition discriminate|]);
    (split; [repeat constructor; cbn; intuition discriminate|]);
    (split; intros la ac I; cbn in I; intuition (try match goal with E : (_, _) = _ |- _ => inversion E end; lia)). }
  split; [vm_compute; reflexivity|]. split.
  { split; cbn [exgen g_fallback g_wildcard].
    - intros l E. inversion E; subst l. split; [reflexivity|]. intros la LA.
      assert (X : la = 0 \/ la = 1 \/ la = 2 \/ la = 3 \/ la = 4 \/ la = 5) by lia.
      destruct X as [->|[->|[->|[->|[->| ->]]]]]; (repeat split; vm_compute; solve [discriminate|reflexivity]).
    - intros w E. inversion E. lia. }
  split; vm_compute; reflexivity.
Qed.

Example C10_ex : exists t, ReportTables exk 5 14 6 exsts = Ok t /\
  (forall s, In s exsts -> sr_tkn s <> [] -> exists la, In la (map fst (sr_tkn s)) /\ la + 6 <= 14) /\
  YY_SHIFT_COUNT t = 1 /\ length (yy_lookahead t) = 14%nat.
Proof.
  eexists. split; [vm_compute; reflexivity|]. split; [|split; reflexivity].
  intros s [<-|[<-|[<-|[]]]] N; cbn; [exists 1|exists 2|now elim N]; (split; [auto|lia]).
Qed.

(** With an error symbol: nonterminal 7 has no action in state 1 and gets its default. *)
Example C10_find_reduce_ex : exists t, rows_ok 6 8 exsts /\ ReportTables exk 5 8 6 exsts = Ok t /\
  (forall s, In s exsts -> sr_nt s <> [] -> exists lo, In lo (map fst (sr_nt s)) /\ forall hi, In hi (map fst (sr_nt s)) -> lo + hi <= 6 + 8) /\
  map (fun la => yy_find_reduce_action (mkGen t None None (Some 6) [] []) 1 la) [6; 7] = [Ok 2; Ok (k_minReduce exk)] /\
  yy_find_reduce_action (mkGen t None None (Some 6) [] []) 2 7 = Ok 0.
Proof.
  eexists. split.
  { intros s [<-|[<-|[<-|[]]]]; cbn [sr_tkn sr_nt];
    (split; [repeat constructor; cbn; intuition discriminate|]);
    (split; [repeat constructor; cbn; intuition discriminate|]);
    (split; intros la ac I; cbn in I; intuition (try match goal with E : (_, _) = _ |- _ => inversion E end; lia)). }
  split; [vm_compute; reflexivity|]. split.
  { intros s [<-|[<-|[<-|[]]]] _; cbn; [exists 6|exists 6|exists 7]; (split; [auto|]); intros hi H; intuition lia. }
  split; vm_compute; reflexivity.
Qed.

(** * C11: action codes *)

(** What the driver does with an action code: the tests of Parse
    (lempar.c:887-980) in their order; the reduce pending after a shift-reduce. *)
Inductive decoded : Type := DShift (q : Z) | DShiftReduce (r : Z) | DReduce (r : Z) | DAccept | DError | DNone.
Definition decode (t : tables) (v : Z) : decoded :=
  if YY_MIN_REDUCE t <=? v then DReduce (v - YY_MIN_REDUCE t)
  else if v <=? YY_MAX_SHIFTREDUCE t then
    if YY_MAX_SHIFT t <? v then DShiftReduce (v - YY_MIN_SHIFTREDUCE t) else DShift v
  else if v =? YY_ACCEPT_ACTION t then DAccept
  else if v =? YY_ERROR_ACTION t then DError
  else DNone.

(** What an action of the generator means; actions resolved away mean nothing.
    A shift-reduce on a nonterminal (other than the error symbol) happens during
    a reduction and is a reduce. *)
Definition meaning (nterm : nat) (errsym : option nat) (irule statenum : nat -> nat) (a : action) : option decoded :=
  match a_type a with
  | SHIFT => Some (DShift (Z.of_nat (statenum (a_arg a))))
  | SHIFTREDUCE => Some ((if (a_sp a <? nterm)%nat || match errsym with Some e => (a_sp a =? e)%nat | None => false end
                          then DShiftReduce else DReduce) (Z.of_nat (irule (a_arg a))))
  | REDUCE => Some (DReduce (Z.of_nat (irule (a_arg a))))
  | ERROR => Some DError
  | ACCEPT => Some DAccept
  | _ => None
  end.

(** [nx] states are kept of [nstate]; the code computed for an action decodes to
    its meaning, and an action without a meaning gets a negative code, which
    ReportTable leaves out. *)
Theorem C11_decode : forall g errsym ri sorted nx t,
  (nx <= length sorted)%nat ->
  ReportTable g errsym ri sorted nx = Ok t ->
  forall a, (a_type a = SHIFT -> (new_num sorted (a_arg a) < nx)%nat) ->
    (ri_iRule ri (a_arg a) < length (g_rules g))%nat ->
    let code := compute_action (report_consts (Z.of_nat (length sorted)) (Z.of_nat (length (g_rules g))))
                  (g_nterm g) errsym (ri_iRule ri) (new_num sorted) a in
    match meaning (g_nterm g) errsym (ri_iRule ri) (new_num sorted) a with
    | Some d => 0 <= code /\ decode t code = d
    | None => code < 0
    end.
Proof.
  intros g errsym ri sorted nx t NX H a HS HR. cbv zeta. unfold ReportTable in H. cbv zeta in H.
  assert (CN : YY_MAX_SHIFT t = Z.of_nat nx - 1 /\
    YY_MIN_SHIFTREDUCE t = Z.of_nat (length sorted) /\
    YY_MAX_SHIFTREDUCE t = Z.of_nat (length sorted) + Z.of_nat (length (g_rules g)) - 1 /\
    YY_ERROR_ACTION t = Z.of_nat (length sorted) + Z.of_nat (length (g_rules g)) /\
    YY_ACCEPT_ACTION t = Z.of_nat (length sorted) + Z.of_nat (length (g_rules g)) + 1 /\
    YY_MIN_REDUCE t = Z.of_nat (length sorted) + Z.of_nat (length (g_rules g)) + 3).
  { unfold ReportTables in H. cbv zeta in H. apply bind_Ok in H. destruct H as ([p os] & _ & H). cbn [fst snd] in H.
    apply bind_Ok in H. destruct H as (n & _ & H). apply bind_Ok in H. destruct H as (x & _ & H).
    apply bind_Ok in H. destruct H as (l & _ & H).
    match type of H with Ok ?T = _ => assert (ET : t = T) by congruence end. rewrite ET. clear ET H.
    cbn [YY_MAX_SHIFT YY_MIN_SHIFTREDUCE YY_MAX_SHIFTREDUCE YY_ERROR_ACTION YY_ACCEPT_ACTION YY_MIN_REDUCE
      report_consts k_minShiftReduce k_errAction k_accAction k_noAction k_minReduce].
    rewrite map_length, firstn_length. repeat split; try lia. }
  destruct CN as (C1 & C2 & C3 & C4 & C5 & C6).
  assert (HL : Z.of_nat (length (firstn nx sorted)) = Z.of_nat nx) by (rewrite firstn_length; lia).
  unfold meaning, compute_action. cbn [report_consts k_minShiftReduce k_errAction k_accAction k_noAction k_minReduce].
  destruct (a_type a) eqn:ET; try lia; unfold decode; rewrite C1, C2, C3, C4, C5, C6.
  - specialize (HS eq_refl). split; [lia|].
    destruct (Z.leb_spec (Z.of_nat (length sorted) + Z.of_nat (length (g_rules g)) + 3) (Z.of_nat (new_num sorted (a_arg a)))); [lia|].
    destruct (Z.leb_spec (Z.of_nat (new_num sorted (a_arg a))) (Z.of_nat (length sorted) + Z.of_nat (length (g_rules g)) - 1)); [|lia].
    destruct (Z.ltb_spec (Z.of_nat nx - 1) (Z.of_nat (new_num sorted (a_arg a)))); [lia|auto].
  - split; [lia|]. destruct (Z.leb_spec (Z.of_nat (length sorted) + Z.of_nat (length (g_rules g)) + 3) (Z.of_nat (length sorted) + Z.of_nat (length (g_rules g)) + 1)); [lia|].
    destruct (Z.leb_spec (Z.of_nat (length sorted) + Z.of_nat (length (g_rules g)) + 1) (Z.of_nat (length sorted) + Z.of_nat (length (g_rules g)) - 1)); [lia|].
    rewrite Z.eqb_refl. auto.
  - split; [lia|]. destruct (Z.leb_spec (Z.of_nat (length sorted) + Z.of_nat (length (g_rules g)) + 3) (Z.of_nat (length sorted) + Z.of_nat (length (g_rules g)) + 1 + 1 + 1 + Z.of_nat (ri_iRule ri (a_arg a)))); [|lia].
    f_equal. lia.
  - split; [lia|]. destruct (Z.leb_spec (Z.of_nat (length sorted) + Z.of_nat (length (g_rules g)) + 3) (Z.of_nat (length sorted) + Z.of_nat (length (g_rules g)))); [lia|].
    destruct (Z.leb_spec (Z.of_nat (length sorted) + Z.of_nat (length (g_rules g))) (Z.of_nat (length sorted) + Z.of_nat (length (g_rules g)) - 1)); [lia|].
    destruct (Z.eqb_spec (Z.of_nat (length sorted) + Z.of_nat (length (g_rules g))) (Z.of_nat (length sorted) + Z.of_nat (length (g_rules g)) + 1)); [lia|].
    rewrite Z.eqb_refl. auto.
  - replace ((g_nterm g <=? a_sp a)%nat && match errsym with None => true | Some e => negb (a_sp a =? e)%nat end)
      with (negb ((a_sp a <? g_nterm g)%nat || match errsym with Some e => (a_sp a =? e)%nat | None => false end)).
    2:{ rewrite negb_orb. f_equal; [symmetry; apply Nat.leb_antisym|]. destruct errsym; auto. }
    destruct ((a_sp a <? g_nterm g)%nat || match errsym with Some e => (a_sp a =? e)%nat | None => false end); cbn [negb].
    + split; [lia|].
      destruct (Z.leb_spec (Z.of_nat (length sorted) + Z.of_nat (length (g_rules g)) + 3) (Z.of_nat (length sorted) + Z.of_nat (ri_iRule ri (a_arg a)))); [lia|].
      destruct (Z.leb_spec (Z.of_nat (length sorted) + Z.of_nat (ri_iRule ri (a_arg a))) (Z.of_nat (length sorted) + Z.of_nat (length (g_rules g)) - 1)); [|lia].
      destruct (Z.ltb_spec (Z.of_nat nx - 1) (Z.of_nat (length sorted) + Z.of_nat (ri_iRule ri (a_arg a)))); [|lia]. f_equal. lia.
    + split; [lia|].
      destruct (Z.leb_spec (Z.of_nat (length sorted) + Z.of_nat (length (g_rules g)) + 3) (Z.of_nat (length sorted) + Z.of_nat (length (g_rules g)) + 1 + 1 + 1 + Z.of_nat (ri_iRule ri (a_arg a)))); [|lia].
      f_equal. lia.
Qed.
Print Assumptions C11_decode.

(** A shift-reduce code on the stack is a pending reduction by its rule, which the
    driver takes without looking at the token. *)
Theorem C11_shiftreduce_pending : forall c grow p v major minor p1, 
  YY_MIN_SHIFTREDUCE (g_tab c) <= v -> YY_MAX_SHIFT (g_tab c) < v -> YY_MAX_SHIFT (g_tab c) < YY_MIN_REDUCE (g_tab c) ->
  yy_shift c grow p v major minor = Ok p1 -> hd_error (p_log p1) = Some (EvShift major minor) ->
  exists e, nth_error (p_stack p1) 0 = Some e /\ e_major e = major /\ e_minor e = minor /\
    forall la, yy_find_shift_action c la (e_state e) = Ok (YY_MIN_REDUCE (g_tab c) + (v - YY_MIN_SHIFTREDUCE (g_tab c))).
Proof.
  intros c grow p v major minor p1 H1 H2 H3 H HL. unfold yy_shift in H. cbv zeta in H.
  destruct (Z.ltb_spec (YY_MAX_SHIFT (g_tab c)) v); [|lia].
  assert (G : forall q, Ok (logev (put q (p_stack q) (mkEntry (v + (YY_MIN_REDUCE (g_tab c) - YY_MIN_SHIFTREDUCE (g_tab c))) major minor)) (EvShift major minor)) = Ok p1 ->
    exists e, nth_error (p_stack p1) 0 = Some e /\ e_major e = major /\ e_minor e = minor /\
    forall la, yy_find_shift_action c la (e_state e) = Ok (YY_MIN_REDUCE (g_tab c) + (v - YY_MIN_SHIFTREDUCE (g_tab c)))).
  { intros q E. inversion E. cbn. eexists. split; [reflexivity|]. cbn. split; [auto|]. split; [auto|].
    intros la. unfold yy_find_shift_action.
    destruct (Z.ltb_spec (YY_MAX_SHIFT (g_tab c)) (v + (YY_MIN_REDUCE (g_tab c) - YY_MIN_SHIFTREDUCE (g_tab c)))); [|lia].
    f_equal. lia. }
  destruct (p_cap p <=? tos_idx p + 1); [|eauto]. destruct (grow (p_cap p)); [eauto|].
  unfold yyStackOverflow in H. apply bind_Ok in H. destruct H as (q & _ & H). inversion H; subst p1.
  cbn in HL. discriminate.
Qed.
Print Assumptions C11_shiftreduce_pending.

Example C11_ex : exists xs sorted nx t,
  (aps <- lemon_actions 100 100 (plain_opts exg10) exg10 ;;
   CompressTables 100 (fun _ i => i) None exg10 (opts_rinfo (plain_opts exg10)) aps) = Ok xs /\
  ResortStates 4 8 None (ri_iRule (opts_rinfo (plain_opts exg10))) xs = Ok (sorted, nx) /\
  ReportTable exg10 None (opts_rinfo (plain_opts exg10)) sorted nx = Ok t /\
  (nx, length sorted) = (4, 7)%nat /\ map (decode t) [3; 7; 12; 13; 14; 15] = [DShift 3; DShiftReduce 0; DError; DAccept; DNone; DReduce 0].
Proof.
  do 4 eexists. split; [vm_compute; reflexivity|]. split; [vm_compute; reflexivity|].
  split; [vm_compute; reflexivity|]. split; vm_compute; reflexivity.
Qed.

(** * C13: state renumbering *)

Lemma count_states_num : forall nterm nsym code xs q l, count_states nterm nsym code q xs = Ok l ->
  map x_num l = seq q (length xs) /\ map (fun x => (x_ap x, x_auto x)) l = xs.
Proof.
  induction xs as [|[ap auto] xs IH]; intros q l H; cbn [count_states] in H.
  - inversion H; subst. auto.
  - apply bind_Ok in H. destruct H as ([[a b] d] & _ & H). cbn in H. apply bind_Ok in H. destruct H as (r & Hr & H).
    inversion H; subst l. destruct (IH _ _ Hr) as (E1 & E2). cbn. rewrite E1, E2. auto.
Qed.

Lemma trim_auto_spec : forall l n, (n <= length l)%nat -> (trim_auto l n <= n)%nat /\
  ((1 <= n)%nat -> (1 <= trim_auto l n)%nat) /\
  (forall i x, (trim_auto l n <= i < n)%nat -> nth_error l i = Some x -> x_auto x <> None) /\
  (forall x, (1 < trim_auto l n)%nat -> nth_error l (trim_auto l n - 1) = Some x -> x_auto x = None).
Proof.
  intros l. induction n as [|n IH]; intros H; cbn [trim_auto].
  - split; [auto|]. split; [lia|]. split; [intros; lia|intros; lia].
  - destruct IH as (A & B & C & D); [lia|].
    destruct (Nat.ltb_spec 1 (S n)) as [L|L]; cbn [andb].
    + destruct (nth_error l n) as [x|] eqn:E; [|apply nth_error_None in E; lia].
      destruct (x_auto x) as [r|] eqn:EX.
      * split; [lia|]. split; [intros; apply B; lia|]. split; [|auto].
        intros i y I Y. destruct (Nat.eq_dec i n) as [->|N]; [|apply (C i y); [lia|auto]].
        rewrite E in Y. inversion Y; subst. congruence.
      * split; [auto|]. split; [auto|]. split; [intros; lia|]. intros y _ Y. replace (S n - 1)%nat with n in Y by lia. congruence.
    + split; [auto|]. split; [auto|]. split; [intros; lia|]. intros; lia.
Qed.

Lemma stateResort_total : forall x y, stateResort_le x y = true \/ stateResort_le y x = true.
Proof.
  intros x y. unfold stateResort_le. cbv zeta.
  repeat match goal with |- context [?a =? ?b] => destruct (Z.eqb_spec a b) end; rewrite !Z.leb_le; lia.
Qed.

Lemma stateResort_trans : forall x y z, stateResort_le x y = true -> stateResort_le y z = true -> stateResort_le x z = true.
Proof.
  intros x y z. unfold stateResort_le. cbv zeta.
  repeat match goal with |- context [?a =? ?b] => destruct (Z.eqb_spec a b) end; rewrite !Z.leb_le; lia.
Qed.

(** ResortStates keeps every state (with its actions) exactly once and the first
    state first; it cuts off only states marked for shift-reduce, from the end,
    and the last state kept is not such a state (unless it is the first). *)
Theorem C13_renumber : forall nterm nsym errsym irule xs sorted nx,
  ResortStates nterm nsym errsym irule xs = Ok (sorted, nx) ->
  Permutation (map (fun x => (x_num x, (x_ap x, x_auto x))) sorted) (combine (seq 0 (length xs)) xs) /\
  (xs <> [] -> nth_error (map x_num sorted) 0 = Some 0%nat /\ (1 <= nx)%nat) /\
  (nx <= length sorted)%nat /\
  (forall i x, (nx <= i)%nat -> nth_error sorted i = Some x -> x_auto x <> None) /\
  (forall x, (1 < nx)%nat -> nth_error sorted (nx - 1) = Some x -> x_auto x = None).
Proof.
  intros nterm nsym errsym irule xs sorted nx H. unfold ResortStates in H. apply bind_Ok in H.
  destruct H as (l & HC & H). apply count_states_num in HC. destruct HC as (E1 & E2).
  assert (PL : map (fun x => (x_num x, (x_ap x, x_auto x))) l = combine (seq 0 (length xs)) xs).
  { rewrite <- E1. rewrite <- E2. clear. induction l as [|x l IH]; cbn; [auto|]. now rewrite IH. }
  destruct l as [|x0 r].
  - inversion H; subst sorted nx. split; [rewrite <- PL; constructor|].
    split; [destruct xs; [congruence|discriminate]|]. split; [auto|]. split; [intros [|i] x _ E; discriminate|intros; lia].
  - inversion H; subst sorted nx. clear H.
    set (sorted := x0 :: qsort stateResort_le r) in *.
    destruct (trim_auto_spec sorted (length sorted) (Nat.le_refl _)) as (A & B & C & D).
    split.
    + rewrite <- PL. apply Permutation_map. unfold sorted. constructor. apply Permutation_sym, qsort_perm.
    + split; [|split; [exact A|split]].
      * intros NE. split; [|apply B; unfold sorted; cbn; lia]. unfold sorted. cbn [map nth_error].
        destruct xs; [congruence|]. cbn in E1. inversion E1. auto.
      * intros i x I E. apply (C i x); [|auto]. split; [auto|]. eapply nth_error_Some_lt; eauto.
      * exact D.
Qed.
Print Assumptions C13_renumber.

(** The counters: number of terminal and nonterminal actions. *)
Lemma count_actions_spec : forall nterm nsym code auto l t n d t1 n1 d1,
  count_actions nterm nsym code auto l t n d = Ok (t1, n1, d1) ->
  t1 = (t + length (filter (fun a => (0 <=? code a)%Z && (a_sp a <? nterm)%nat) l))%nat /\
  n1 = (n + length (filter (fun a => (0 <=? code a)%Z && (negb (a_sp a <? nterm)%nat && (a_sp a <? nsym)%nat)) l))%nat.
Proof.
  induction l as [|a l IH]; intros t n d t1 n1 d1 H; cbn [count_actions] in H.
  - inversion H; subst. cbn. lia.
  - cbn [filter]. destruct (0 <=? code a); cbn [andb].
    + destruct (a_sp a <? nterm)%nat; cbn [negb andb].
      * apply IH in H. cbn [length]. lia.
      * destruct (a_sp a <? nsym)%nat.
        -- apply IH in H. cbn [length]. lia.
        -- destruct (match auto with None => true | Some rd => (a_arg a =? rd)%nat end); [|discriminate]. apply IH in H. lia.
    + apply IH in H. lia.
Qed.

Lemma count_states_counts : forall nterm nsym code xs q l x, count_states nterm nsym code q xs = Ok l -> In x l ->
  x_nTknAct x = length (filter (fun a => (0 <=? code a)%Z && (a_sp a <? nterm)%nat) (x_ap x)) /\
  x_nNtAct x = length (filter (fun a => (0 <=? code a)%Z && (negb (a_sp a <? nterm)%nat && (a_sp a <? nsym)%nat)) (x_ap x)).
Proof.
  induction xs as [|[ap auto] xs IH]; intros q l x H I; cbn [count_states] in H.
  - inversion H; subst. destruct I.
  - apply bind_Ok in H. destruct H as ([[a b] d] & HA & H). cbn in H. apply bind_Ok in H. destruct H as (r & Hr & H).
    inversion H; subst l. destruct I as [<-|I]; [|eapply IH; eauto]. cbn [x_nTknAct x_nNtAct x_ap].
    apply count_actions_spec in HA. lia.
Qed.

(** When a state marked for shift-reduce has only its default action and every
    other state has some action on a grammar symbol, no marked state is kept. *)
Theorem C13_removable_last : forall nterm nsym errsym irule xs sorted nx, (nterm <= nsym)%nat ->
  (forall ap r a, In (ap, Some r) xs -> In a ap -> (a_sp a < nsym)%nat -> ~ In (a_type a) [SHIFT; ACCEPT; REDUCE; ERROR; SHIFTREDUCE]) ->
  (forall ap, In (ap, None) xs -> exists a, In a ap /\ (a_sp a < nsym)%nat /\ In (a_type a) [SHIFT; ACCEPT; REDUCE; ERROR; SHIFTREDUCE]) ->
  ResortStates nterm nsym errsym irule xs = Ok (sorted, nx) ->
  forall i x, (1 <= i)%nat -> nth_error sorted i = Some x -> ((i < nx)%nat <-> x_auto x = None).
Proof.
  intros nterm nsym errsym irule xs sorted nx HNS HA HK H i x I1 E.
  pose proof (C13_renumber _ _ _ _ _ _ _ H) as (P & _ & NX & CUT & LAST).
  unfold ResortStates in H. apply bind_Ok in H. destruct H as (l & HC & H).
  pose proof (count_states_num _ _ _ _ _ _ HC) as (E1 & E2).
  destruct l as [|x0 r]. { inversion H; subst. destruct i; discriminate. }
  set (srt := qsort stateResort_le r) in *. assert (ES : sorted = x0 :: srt) by congruence. subst sorted.
  assert (MEM : forall y, In y (x0 :: srt) -> In y (x0 :: r)).
  { intros y [->|Y]; [now left|]. right. apply (Permutation_in _ (Permutation_sym (qsort_perm _ _)) Y). }
  assert (CNT : forall y, In y (x0 :: r) -> (x_auto y <> None -> x_nTknAct y = 0%nat /\ x_nNtAct y = 0%nat) /\
                       (x_auto y = None -> (0 < x_nTknAct y + x_nNtAct y)%nat)).
  { intros y Y. destruct (count_states_counts _ _ _ _ _ _ _ HC Y) as (N1 & N2).
    assert (IX : In (x_ap y, x_auto y) xs) by (rewrite <- E2; apply (in_map (fun x => (x_ap x, x_auto x)) _ _ Y)).
    assert (CODE : forall a, 0 <= compute_action zero_consts nterm errsym irule (fun q => q) a <-> In (a_type a) [SHIFT; ACCEPT; REDUCE; ERROR; SHIFTREDUCE]).
    { intros a. unfold compute_action. cbn [zero_consts k_minShiftReduce k_errAction k_accAction k_noAction k_minReduce].
      destruct (a_type a); cbn [In]; try destruct ((nterm <=? a_sp a)%nat && match errsym with Some e => negb (a_sp a =? e)%nat | None => true end);
      split; intros; try lia; intuition (try discriminate; try lia). }
    split.
    - intros AU. destruct (x_auto y) as [rr|] eqn:EA; [|congruence].
      assert (Z0 : forall f : action -> bool, (forall a, f a = true -> 0 <= compute_action zero_consts nterm errsym irule (fun q => q) a /\ (a_sp a < nsym)%nat) ->
                 filter f (x_ap y) = []).
      { intros f F. destruct (filter f (x_ap y)) as [|a w] eqn:EF; [auto|]. exfalso.
        assert (IA : In a (filter f (x_ap y))) by (rewrite EF; now left). apply filter_In in IA. destruct IA as (IA & FA).
        destruct (F a FA) as (F1 & F2). apply (HA _ _ a IX IA F2). now apply CODE. }
      rewrite N1, N2, !Z0; [auto| |].
      + intros a B. apply andb_true_iff in B. destruct B as (B1 & B2). apply andb_true_iff in B2. destruct B2 as (_ & B2).
        apply Z.leb_le in B1. apply Nat.ltb_lt in B2. auto.
      + intros a B. apply andb_true_iff in B. destruct B as (B1 & B2).
        apply Z.leb_le in B1. apply Nat.ltb_lt in B2. split; [auto|]. lia.
    - intros AU. rewrite AU in IX. destruct (HK _ IX) as (a & A1 & A2 & A3). apply CODE in A3.
      rewrite N1, N2.
      assert (IN : In a (filter (fun a => (0 <=? compute_action zero_consts nterm errsym irule (fun q => q) a) && (a_sp a <? nterm)%nat) (x_ap y)) \/
                   In a (filter (fun a => (0 <=? compute_action zero_consts nterm errsym irule (fun q => q) a) && (negb (a_sp a <? nterm)%nat && (a_sp a <? nsym)%nat)) (x_ap y))).
      { rewrite !filter_In. apply Z.leb_le in A3. rewrite A3. apply Nat.ltb_lt in A2. rewrite A2.
        destruct (a_sp a <? nterm)%nat; auto. }
      destruct IN as [IN|IN]; destruct (filter _ _) in IN |- *; try (now destruct IN); cbn [length]; lia. }
  split.
  - intros IN. destruct (x_auto x) as [rr|] eqn:EA; [|auto]. exfalso.
    assert (L1 : (nx - 1 < length (x0 :: srt))%nat) by lia.
    destruct (nth_error_lt_ex _ _ _ L1) as (y & EY).
    assert (NY : x_auto y = None) by (apply (LAST y); [lia|auto]).
    destruct (CNT x (MEM _ (nth_error_In _ _ E))) as (CX & _). destruct (CX ltac:(congruence)) as (X1 & X2).
    destruct (CNT y (MEM _ (nth_error_In _ _ EY))) as (_ & CY). specialize (CY NY).
    assert (NEQ : i <> (nx - 1)%nat). { intros ->. congruence. }
    assert (SO : stateResort_le x y = true).
    { destruct i as [|i]; [lia|]. cbn [nth_error] in E. remember (nx - 1)%nat as j. destruct j as [|j]; [lia|]. cbn [nth_error] in EY.
      pose proof (qsort_sorted stateResort_le stateResort_total stateResort_trans r) as SS. fold srt in SS.
      assert (LT : (i < j)%nat) by lia. clear - SS E EY LT. revert i j E EY LT. induction SS as [|z l S1 IH F]; intros i j E EY LT; [destruct i; discriminate|].
      destruct j as [|j]; [lia|]. destruct i as [|i].
      - inversion E; subst z. cbn in EY. rewrite Forall_forall in F. apply F. eapply nth_error_In; eauto.
      - apply (IH i j); auto. lia. }
    unfold stateResort_le in SO. rewrite X1, X2 in SO. cbv zeta in SO.
    destruct (Z.eqb_spec (Z.of_nat (x_nNtAct y) - Z.of_nat 0) 0); [destruct (Z.eqb_spec (Z.of_nat (x_nTknAct y) - Z.of_nat 0) 0)|];
      try lia; apply Z.leb_le in SO; lia.
  - intros EA. destruct (Nat.lt_ge_cases i nx) as [LL|LL]; [exact LL|]. exfalso. apply (CUT i x LL E EA).
Qed.
Print Assumptions C13_removable_last.

Definition emits (a : action) : bool := match a_type a with SHIFT | ACCEPT | REDUCE | ERROR | SHIFTREDUCE => true | _ => false end.
Example C13_ex : exists xs sorted nx,
  (aps <- lemon_actions 100 100 (plain_opts exg10) exg10 ;;
   CompressTables 100 (fun _ i => i) None exg10 (opts_rinfo (plain_opts exg10)) aps) = Ok xs /\
  ResortStates 4 8 None (ri_iRule (opts_rinfo (plain_opts exg10))) xs = Ok (sorted, nx) /\
  existsb (fun x => negb (fst x =? snd x)%nat) (combine (map x_num sorted) (seq 0 20)) = true /\
  (1 < nx < length sorted)%nat /\
  forallb (fun x => match snd x with
                    | Some _ => forallb (fun a => negb (a_sp a <? 8)%nat || negb (emits a)) (fst x)
                    | None => existsb (fun a => (a_sp a <? 8)%nat && emits a) (fst x) end) xs = true.
Proof.
  do 3 eexists. split; [vm_compute; reflexivity|]. split; [vm_compute; reflexivity|].
  split; [vm_compute; reflexivity|]. split; [vm_compute; repeat constructor|vm_compute; reflexivity].
Qed.

(** s : e DOT EOL ; e : e LT e | e GT e | ID, with LT and GT nonassociative.
    Terminals 0 $, 1 LT, 2 GT, 3 ID, 4 DOT, 5 EOL; nonterminals 6 s, 7 e. *)
Definition exg13 : grammar := mkGrammar 6 8
  [mkRule 6 [ESym 7; ESym 4; ESym 5]; mkRule 7 [ESym 7; ESym 1; ESym 7]; mkRule 7 [ESym 7; ESym 2; ESym 7]; mkRule 7 [ESym 3]] 6.
Definition exo13 : opts :=
  mkOpts false false true (mkPrecs (fun s => if (s =? 1)%nat || (s =? 2)%nat then Some 1%nat else None) (fun s => NONE))
    [None; None; None; None] [false; false; false; false] None None None (fun _ i => i) (fun _ i => i).

(** A state marked for shift-reduce that holds error actions can come before a
    state that must be kept, and is then kept too. *)
Theorem C13_removable_last_refuted : exists g o xs sorted nx i x,
  wf_grammar g /\ (aps <- lemon_actions 100 100 o g ;;
   CompressTables 100 (o_addr2 o) (o_wildcard o) g (opts_rinfo o) aps) = Ok xs /\
  ResortStates (g_nterm g) (g_nsym g) (o_errsym o) (ri_iRule (opts_rinfo o)) xs = Ok (sorted, nx) /\
  (1 <= i < nx)%nat /\ nth_error sorted i = Some x /\ x_auto x <> None.
Proof.
  exists exg13, exo13. do 3 eexists. exists 4%nat. eexists. split; [apply wf_grammarb_ok; vm_compute; reflexivity|].
  split; [vm_compute; reflexivity|]. split; [vm_compute; reflexivity|].
  split; [lia|]. split; [reflexivity|]. discriminate.
Qed.
Print Assumptions C13_removable_last_refuted.

(** C26.  What each C type holds, on a machine with 8, 16 and 32 bit char, short and int. *)
Definition ctype_range (t : ctype) : Z * Z :=
  match t with
  | T_uchar => (0, 2 ^ 8 - 1) | T_ushort => (0, 2 ^ 16 - 1) | T_uint => (0, 2 ^ 32 - 1)
  | T_schar => (- 2 ^ 7, 2 ^ 7 - 1) | T_short => (- 2 ^ 15, 2 ^ 15 - 1) | T_int => (- 2 ^ 31, 2 ^ 31 - 1)
  end.
Definition ctype_bytes (t : ctype) : Z :=
  match t with T_uchar | T_schar => 1 | T_ushort | T_short => 2 | T_uint | T_int => 4 end.
Definition holds (t : ctype) (v : Z) : Prop := fst (ctype_range t) <= v <= snd (ctype_range t).

Theorem C26_minimum_size_type : forall lwr upr, - 2 ^ 31 <= lwr -> upr < 2 ^ 31 ->
  let (t, n) := minimum_size_type lwr upr in
  (forall v, lwr <= v <= upr -> holds t v) /\ n = ctype_bytes t /\
  (forall t', lwr <= upr -> holds t' lwr -> holds t' upr -> ctype_bytes t' < ctype_bytes t ->
     upr = snd (ctype_range t') \/ lwr = fst (ctype_range t')).
Proof.
  intros lwr upr L U. unfold minimum_size_type.
  destruct (Z.leb_spec 0 lwr); [destruct (Z.leb_spec upr 255); [|destruct (Z.ltb_spec upr 65535)]|
    destruct (Z.leb_spec (-127) lwr), (Z.leb_spec upr 127); cbn [andb];
    try (destruct (Z.leb_spec (-32767) lwr), (Z.ltb_spec upr 32767); cbn [andb])];
  (split; [|split; [reflexivity|]]); unfold holds; cbn;
  try (intros; lia); intros t'; destruct t'; cbn; intros; try lia.
Qed.
Print Assumptions C26_minimum_size_type.

Example C26_ex : minimum_size_type (-100) 300 = (T_short, 2) /\ minimum_size_type 0 65535 = (T_uint, 4) /\ holds T_short 300 /\ ~ holds T_schar 300.
Proof. unfold holds. cbn. repeat split; try lia; reflexivity. Qed.
