(** The numbers in byacc's tables are ints. *)
From Coq Require Import List Arith NArith ZArith Lia Bool Sorted.
Import ListNotations.
From Verif Require Import Base SpecGrammar SpecGrammarFacts SpecLRFacts SpecLR0 SpecByacc ByaccWarshallModel ByaccLr0Model ByaccPackProof
  ByaccLr0Proof ByaccStatesProof ByaccLalrModel ByaccLookSem ByaccGotoProof ByaccReadProof
  ByaccLookProof ByaccParModel ByaccParProof ByaccActionsProof ByaccOutputModel ByaccPackTableProof ByaccRowsProof Prop_ByaccPacking ByaccTablesProof ByaccParserModel Prop_ByaccParser LemonCodeProof.

(** * What the cells of the packed tables hold *)

Section Cells.
Variable vs : list vec.
Let P (x : Z) : Prop := x = 0%Z \/ exists v e, In v vs /\ In e (v_ent v) /\ x = snd e.
Let Q (x : Z) : Prop := x = (-1)%Z \/ exists v e, In v vs /\ In e (v_ent v) /\ x = fst e.

Lemma Forall_repeat : forall A (R : A -> Prop) x n, R x -> Forall R (repeat x n).
Proof. intros A R x n H. apply Forall_forall. intros y I. apply repeat_spec in I. now subst. Qed.
Lemma Forall_put : forall A (R : A -> Prop) l i x l', put l i x = Ok l' -> Forall R l -> R x -> Forall R l'.
Proof.
  intros A R l i x l' E F H. unfold put in E. destruct (i <? length l); [|discriminate]. injection E as <-. revert i. induction F as [|y l Hy F IH]; intros i; [destruct i; constructor|].
  destruct i as [|i]; cbn [upd]; constructor; auto.
Qed.

Lemma try_cells_in : forall j l t c ok t' c', try_cells j l t c = Ok (ok, t', c') -> Forall P t -> Forall Q c -> Forall P t' /\ Forall Q c'.
Proof.
  intros j. induction l as [|e l IH]; intros t c ok t' c' E FT FC; cbn [try_cells] in E; [injection E as <- <- <-; auto|].
  destruct (_ <? 0)%Z; [discriminate|]. destruct (_ <=? _)%Z.
  - destruct (opt _) as [d| |]; try discriminate. cbn [bind] in E.
    assert (FT2 : Forall P (t ++ repeat 0%Z (newmax (length t) (Z.to_nat (j + fst e)) - length t))) by (apply Forall_app; split; [exact FT|apply Forall_repeat; now left]).
    assert (FC2 : Forall Q (c ++ repeat (-1)%Z (newmax (length t) (Z.to_nat (j + fst e)) - length t))) by (apply Forall_app; split; [exact FC|apply Forall_repeat; now left]).
    destruct (d =? -1)%Z; [eapply IH; eauto|injection E as <- <- <-; auto].
  - destruct (opt _) as [d| |]; try discriminate. cbn [bind] in E. destruct (d =? -1)%Z; [eapply IH; eauto|injection E as <- <- <-; auto].
Qed.
Lemma find_place_in : forall fuel j l pos t c j' t' c', find_place fuel j l pos t c = Ok (j', t', c') -> Forall P t -> Forall Q c -> Forall P t' /\ Forall Q c'.
Proof.
  induction fuel as [|f IH]; intros j l pos t c j' t' c' E FT FC; [discriminate|]. cbn [find_place] in E. destruct (j =? 0)%Z; [eapply IH; eauto|].
  destruct (try_cells j l t c) as [[[ok t1] c1]| |] eqn:ET; try discriminate. cbn [bind] in E. destruct (try_cells_in _ _ _ _ _ _ _ ET FT FC) as (F1 & F2).
  destruct (_ && _); [injection E as <- <- <-; auto|eapply IH; eauto].
Qed.
Lemma store_in : forall j v l t c h t' c' h', In v vs -> (forall e, In e l -> In e (v_ent v)) -> store j l t c h = Ok (t', c', h') -> Forall P t -> Forall Q c -> Forall P t' /\ Forall Q c'.
Proof.
  intros j v. induction l as [|e l IH]; intros t c h t' c' h' IV IE E FT FC; cbn [store] in E; [injection E as <- <- <-; auto|].
  destruct (_ <? 0)%Z; [discriminate|]. destruct (put t _ _) as [t1| |] eqn:E1; try discriminate. cbn [bind] in E. destruct (put c _ _) as [c1| |] eqn:E2; try discriminate. cbn [bind] in E.
  eapply IH; [exact IV| |exact E| |]; [intros x X; apply IE; now right| |].
  - eapply Forall_put; [exact E1|exact FT|]. right. exists v, e. split; [exact IV|]. split; [apply IE; now left|reflexivity].
  - eapply Forall_put; [exact E2|exact FC|]. right. exists v, e. split; [exact IV|]. split; [apply IE; now left|reflexivity].
Qed.
Lemma pack_loop_in : forall fuel n order prevs k k', pack_loop fuel vs n order prevs k = Ok k' -> Forall P (k_table k) -> Forall Q (k_check k) -> Forall P (k_table k') /\ Forall Q (k_check k').
Proof.
  intros fuel n. induction order as [|i order IH]; intros prevs k k' E FT FC; cbn [pack_loop] in E; [injection E as <-; auto|].
  destruct (nth_error vs i) as [v|] eqn:EV; [|discriminate]. cbn [opt bind] in E. destruct (matching_vector _ _ _ _ _) as [st| |]; try discriminate. cbn [bind] in E.
  match type of E with bind ?X _ = _ => destruct X as [[pl k1]| |] eqn:EX; try discriminate end. cbn [bind] in E. destruct (put _ _ _) as [bs| |]; try discriminate. cbn [bind] in E.
  assert (F : Forall P (k_table k1) /\ Forall Q (k_check k1)).
  { destruct st as [j|].
    - destruct (opt _) as [p| |]; try discriminate. cbn [bind] in EX. injection EX as <- <-. auto.
    - unfold pack_vector in EX. destruct (first_place _ _) as [j0| |]; try discriminate. cbn [bind] in EX. destruct (find_place _ _ _ _ _ _) as [[[j t] c]| |] eqn:EF; try discriminate. cbn [bind] in EX.
      destruct (store _ _ _ _ _) as [[[t2 c2] h]| |] eqn:ES; try discriminate. cbn [bind] in EX. destruct (low_loop _ _) as [lw| |]; try discriminate. cbn [bind] in EX. injection EX as <- <-. cbn [k_table k_check].
      destruct (find_place_in _ _ _ _ _ _ _ _ _ EF FT FC) as (F1 & F2). eapply store_in; [eapply nth_error_In; exact EV| |exact ES|exact F1|exact F2]. auto. }
  destruct F as (F1 & F2). eapply IH; [exact E|exact F1|exact F2].
Qed.
Lemma pack_table_in : forall fuel n k, pack_table fuel vs n = Ok k ->
  (forall x, In x (k_table k) -> x = 0%Z \/ exists v e, In v vs /\ In e (v_ent v) /\ x = snd e) /\
  (forall x, In x (k_check k) -> x = (-1)%Z \/ exists v e, In v vs /\ In e (v_ent v) /\ x = fst e).
Proof.
  intros fuel n k E. unfold pack_table in E. apply pack_loop_in in E; cbn [k_table k_check].
  - destruct E as (F1 & F2). rewrite Forall_forall in F1, F2. auto.
  - apply Forall_repeat. now left.
  - apply Forall_repeat. now left.
Qed.
End Cells.

Lemma max_count_le : forall c i m d, d <= i -> max_count c i m d <= i + length c.
Proof. induction c as [|x c IH]; intros i m d H; cbn [max_count length]; [lia|]. destruct (m <? x); [specialize (IH (S i) x i)|specialize (IH (S i) m d)]; lia. Qed.
Lemma count_to_length : forall to c c', count_to to c = Ok c' -> length c' = length c.
Proof.
  induction to as [|q to IH]; intros c c' E; cbn [count_to] in E; [now injection E as <-|]. destruct (opt _) as [x| |]; try discriminate. cbn [bind] in E. rewrite (IH _ _ E), upd_length. reflexivity.
Qed.
Lemma default_goto_le : forall b g n X d, default_goto b g n X = Ok d -> d <= n.
Proof.
  intros b g n X d E. unfold default_goto in E. destruct (opt _) as [m| |]; try discriminate. cbn [bind] in E. destruct (opt _) as [k| |]; try discriminate. cbn [bind] in E. destruct (m =? k); [injection E as <-; lia|].
  destruct (slice _ _ _) as [to| |]; try discriminate. cbn [bind] in E. destruct (count_to _ _) as [c| |] eqn:EC; try discriminate. cbn [bind] in E. injection E as <-. apply count_to_length in EC. rewrite repeat_length in EC.
  pose proof (max_count_le c 0 0 0 ltac:(lia)). lia.
Qed.
Lemma goto_loop_le : forall b sv g n syms cols dg cols', goto_loop b sv g n syms cols = Ok (dg, cols') -> forall d, In d dg -> d <= n.
Proof.
  intros b sv g n. induction syms as [|X syms IH]; intros cols dg cols' E d I; cbn [goto_loop] in E; [injection E as <- <-; destruct I|].
  destruct (default_goto b g n X) as [k| |] eqn:ED; try discriminate. cbn [bind] in E. destruct (save_column _ _ _ _) as [v| |]; try discriminate. cbn [bind] in E. destruct (opt _) as [x| |]; try discriminate. cbn [bind] in E.
  match type of E with bind ?X _ = _ => destruct X as [c1| |]; try discriminate end. cbn [bind] in E. destruct (goto_loop _ _ _ _ _ _) as [[dg1 c2]| |] eqn:EG; try discriminate. cbn [bind] in E. injection E as <- <-.
  destruct I as [<-|I]; [eapply default_goto_le; eauto|eapply IH; eauto].
Qed.

Section Ranges.
Variable s : bsrc.
Hypothesis W : wf_src s.
Variable st : lr0st.
Hypothesis LO : lr0_ok s st.
Variable T : lalr_tables.
Hypothesis TO : lalr_ok s st T.
Variable pr : bprec.
Hypothesis WP : wf_prec s pr.
Variable flag : bool.
Variable P : par.
Hypothesis PO : par_ok s st T pr flag P.
Variable sv : list Z.
Hypothesis SV : wf_sv s sv.
Hypothesis GO : goto_ok s st (t_gotos T).
Local Notation b := (pack_grammar s).
Local Notation nst := (nst st).
Local Notation nt := (b_ntokens s).

Lemma acc_range : forall q, q < nst -> acc st q < b_nsyms s /\ acc st q <> nt.
Proof.
  intros q Lq. unfold acc. destruct (nth_error_lt_ex _ (l_cores st) q Lq) as (c & E). rewrite E. pose proof (ws_goal s W). pose proof (ws_tok s W).
  destruct (ti_core _ _ (ByaccStatesProof.T s st LO) q c E) as (_ & N & _ & _ & C0 & C1). destruct (Nat.eq_dec q 0) as [->|Nq]; [rewrite (C0 eq_refl); cbn; lia|].
  destruct (c_items c) as [|y l]; [contradiction|]. destruct (C1 Nq y (or_introl eq_refl)) as (j & _ & A & _). destruct (after_dot_wf s W _ _ A) as (x & Ex & R & N2). injection Ex as Ex. lia.
Qed.

(** Entries: the index is the code of a token or a state, the value a state or a rule. *)
Lemma entries : forall f Y, output_tables f b sv T P = Ok Y ->
  exists vs k, pack_table f vs nst = Ok k /\ rows_ok vs /\ length vs = 3 * nst + (b_nsyms s - nt) /\
    (forall v e, In v vs -> In e (v_ent v) -> ((exists t, t < nt /\ fst e = nth t sv 0%Z) \/ (0 <= fst e < Z.of_nat nst)%Z) /\ (0 <= snd e < Z.of_nat nst \/ 0 <= snd e <= Z.of_nat (length (b_rules s)))%Z) /\
    y_high Y = k_high k /\ y_table Y = firstn (S (k_high k)) (k_table k) /\ y_check Y = firstn (S (k_high k)) (k_check k) /\
    length (k_base k) = length vs /\ S (k_high k) <= length (k_table k) /\ S (k_high k) <= length (k_check k) /\
    y_sindex Y = firstn nst (k_base k) /\ y_rindex Y = firstn nst (skipn nst (k_base k)) /\ y_gindex Y = firstn (b_nsyms s - nt - 1) (skipn (3 * nst) (k_base k)) /\
    length (y_dgoto Y) = b_nsyms s - nt - 1 /\ (forall d, In d (y_dgoto Y) -> d <= nst) /\
    rule_lhs b sv = Ok (y_lhs Y) /\ rule_len b = Ok (y_len Y) /\ y_defred Y = yydefred (p_defred P) /\ y_final Y = p_final P /\ y_errcode Y = nth 1 sv 0%Z.
Proof.
  intros f Y E. unfold output_tables in E.
  assert (LT : length (t_access T) = nst) by (rewrite (lo_access _ _ _ TO); unfold accessing; now rewrite map_length). rewrite LT in E.
  destruct (rule_tables_ok s W sv SV) as (lhs & len & R1 & R2 & _). rewrite R1 in E. cbn [bind] in E. rewrite R2 in E. cbn [bind] in E.
  destruct (token_rows_ok s W st LO T pr flag P PO sv SV) as (l1 & l2 & V1 & L1 & L2 & H1). rewrite V1 in E. cbn [bind] in E.
  unfold goto_actions, start_symbol in E. rewrite b_ntok, b_nsy, (nv s) in E.
  destruct (goto_loop_ok s W st LO sv SV (t_gotos T) GO (seq (S nt) (b_nsyms s - S nt)) (repeat no_vec (b_nsyms s - nt))) as (dg & cols & V2 & L3 & L4 & H2 & H3).
  { intros X I. apply in_seq in I. lia. } { apply seq_NoDup. } { apply repeat_length. }
  rewrite V2 in E. cbn [bind] in E. rewrite repeat_length in L4. rewrite seq_length in L3.
  set (vs := l1 ++ l2 ++ repeat no_vec nst ++ cols) in *. destruct (pack_table f vs nst) as [k| |] eqn:EP; cbn [bind] in E; try discriminate.
  assert (LV : length vs = 3 * nst + (b_nsyms s - nt)) by (unfold vs; rewrite !app_length, repeat_length; lia).
  pose proof (ws_goal s W) as WG. pose proof (ws_tok s W) as WT.
  destruct (vectors_ok s W st LO T pr flag P PO sv SV (t_gotos T) GO) as (l1' & l2' & dg' & cols' & W1 & W2 & W3 & _).
  rewrite V1 in W1. injection W1 as <- <-. unfold goto_actions, start_symbol in W2. rewrite b_ntok, b_nsy, (nv s), V2 in W2. injection W2 as <- <-. fold vs in W3.
  assert (LB : length (k_base k) = length vs /\ S (k_high k) <= length (k_table k) /\ length (k_table k) = length (k_check k)).
  { destruct (bound_ex vs) as (F & HF). set (f' := Nat.max f (S (length vs) * (F + 2))).
    pose proof (pack_loop_mono vs nst f f' _ _ _ _ EP ltac:(lia)) as E'.
    destruct (pack_table_ok vs nst W3 F HF f' ltac:(lia)) as [(pk & k' & Q1 & Q2)|[Q1 _]]; unfold pack_table in Q1; rewrite E' in Q1; [|discriminate].
    injection Q1 as <-. pose proof (pi_bl _ _ _ _ Q2). pose proof (pi_high _ _ _ _ Q2). pose proof (pi_len _ _ _ _ Q2). lia. }
  destruct LB as (LB & LH & LC).
  rewrite (slice_ok _ (k_base k) 0 nst) in E by lia. cbn [bind] in E.
  rewrite (slice_ok _ (k_base k) nst (2 * nst)) in E by lia. cbn [bind] in E.
  rewrite (slice_ok _ (k_base k) (3 * nst) (3 * nst + (b_nsyms s - nt) - 1)) in E by lia. cbn [bind] in E.
  rewrite (slice_ok _ (k_table k)) in E by lia. cbn [bind] in E. rewrite (slice_ok _ (k_check k)) in E by lia. cbn [bind] in E.
  rewrite (nth_error_nth' sv 0%Z) in E by (rewrite (sv_len _ _ SV); lia). cbn [opt bind] in E. rewrite !Nat.sub_0_r in E. cbn [skipn] in E.
  replace (2 * nst - nst) with nst in E by lia. replace (3 * nst + (b_nsyms s - nt) - 1 - 3 * nst) with (b_nsyms s - nt - 1) in E by lia.
  match type of E with Ok ?T0 = _ => assert (ET : Y = T0) by congruence end. clear E. exists vs, k. rewrite ET. cbn [y_lhs y_len y_defred y_dgoto y_sindex y_rindex y_gindex y_high y_table y_check y_final y_errcode].
  split; [exact EP|]. split; [exact W3|]. split; [exact LV|]. split.
  - intros v e Iv Ie. destruct e as (x & t). cbn [fst snd].
    assert (ST : forall p acts a, nth_error (p_parser P) p = Some acts -> In a acts -> a_supp a = 0 -> p < nst /\ act_spec s st pr p a).
    { intros p acts a Ep Ia Za. assert (Lp : p < nst) by (rewrite <- (po_len _ _ _ _ _ _ PO); eapply nth_error_Some_lt; eauto). split; [exact Lp|].
      destruct (parser_state s W st LO T pr flag P PO p Lp) as (acts' & Q1 & _ & Q3). assert (acts' = acts) by congruence. subst. now apply (ao_spec _ _ _ _ _ Q3). }
    unfold vs in Iv. rewrite !in_app_iff in Iv. destruct Iv as [Iv|[Iv|[Iv|Iv]]].
    + apply In_nth_error in Iv as (p & Ep). destruct (nth_error_lt_ex _ (p_parser P) p) as [acts Ea]; [rewrite (po_len _ _ _ _ _ _ PO), <- L1; eapply nth_error_Some_lt; eauto|].
      destruct (H1 p acts Ea) as (v1 & v2 & Q1 & _ & _ & _ & Q3 & _). assert (v1 = v) by congruence. subst v1. apply Q3 in Ie as (a & A1 & A2 & A3 & -> & ->). destruct (ST p acts a Ea A1 A2) as (Lp & SP).
      split; [left; exists (a_sym a); split; [apply (spec_range s W st LO pr p a Lp SP)|reflexivity]|]. left. destruct SP as [(t & q & H & L & ->)|(t & r & _ & _ & _ & ->)]; [|discriminate]. destruct (go_range s W st LO _ _ _ H) as (_ & _ & _ & R & _). cbn. lia.
    + apply In_nth_error in Iv as (p & Ep). destruct (nth_error_lt_ex _ (p_parser P) p) as [acts Ea]; [rewrite (po_len _ _ _ _ _ _ PO), <- L2; eapply nth_error_Some_lt; eauto|].
      destruct (H1 p acts Ea) as (v1 & v2 & _ & Q1 & _ & _ & _ & Q3). assert (v2 = v) by congruence. subst v2. apply Q3 in Ie as (a & A1 & A2 & A3 & _ & -> & ->). destruct (ST p acts a Ea A1 A2) as (Lp & SP).
      split; [left; exists (a_sym a); split; [apply (spec_range s W st LO pr p a Lp SP)|reflexivity]|]. right. destruct SP as [(t & q & H & L & ->)|(t & r & _ & R & _ & ->)]; [discriminate|]. destruct (reds_range s W st LO p _ Lp R) as (k0 & K1 & K2 & K3). cbn [a_num red_act]. lia.
    + apply repeat_spec in Iv. subst v. destruct Ie.
    + apply In_nth_error in Iv as (i & Ei). assert (Li : i < b_nsyms s - nt) by (rewrite <- L4; eapply nth_error_Some_lt; eauto).
      destruct (Nat.eq_dec i (b_nsyms s - nt - 1)) as [->|N].
      * rewrite H3 in Ei; [apply nth_error_In, repeat_spec in Ei; subst v; destruct Ie|]. intros X I. apply in_seq in I. lia.
      * destruct (H2 i (i + nt + 1)) as (d & v' & _ & (_ & Q) & Q2).
        { rewrite (nth_error_nth' _ 0) by (rewrite seq_length; lia). f_equal. rewrite seq_nth; lia. }
        replace (i + nt + 1 - nt - 1) with i in Q2 by lia. assert (v' = v) by congruence. subst v'. apply Q in Ie as (p & q & G1 & _ & -> & ->). destruct (go_range s W st LO _ _ _ G1) as (_ & _ & R1' & R2' & _). split; [right; lia|left; lia].
  - repeat (split; [first [reflexivity | lia | exact LB | exact LH]|]). split; [intros d I; eapply goto_loop_le; eauto|]. split; [exact R1|]. split; [exact R2|]. auto.
Qed.
End Ranges.

Lemma map_res_all : forall A B (f : A -> res B) l ys, map_res f l = Ok ys -> length ys = length l /\ forall y, In y ys -> exists x, In x l /\ f x = Ok y.
Proof.
  intros A B f. induction l as [|x l IH]; intros ys E; cbn [map_res] in E; [injection E as <-; split; [reflexivity|intros y []]|].
  destruct (f x) as [y| |] eqn:EX; try discriminate. cbn [bind] in E. destruct (map_res f l) as [ys0| |]; try discriminate. cbn [bind] in E. injection E as <-. destruct (IH ys0 eq_refl) as (L & H). split; [cbn; lia|].
  intros z [<-|I]; [exists x; split; [now left|exact EX]|]. destruct (H z I) as (x0 & I0 & E0). exists x0. split; [now right|exact E0].
Qed.

Lemma Forall_firstn : forall A (P : A -> Prop) n l, Forall P l -> Forall P (firstn n l).
Proof. intros A P n l H. rewrite Forall_forall in *. intros x I. apply H. rewrite <- (firstn_skipn n l). apply in_app_iff. now left. Qed.
Lemma Forall_skipn : forall A (P : A -> Prop) n l, Forall P l -> Forall P (skipn n l).
Proof. intros A P n l H. rewrite Forall_forall in *. intros x I. apply H. rewrite <- (firstn_skipn n l). apply in_app_iff. now right. Qed.

(** Every table is nonempty and holds ints. *)
Definition ints (l : list Z) : Prop := l <> [] /\ Forall int_ok l.
Record tables_ints (n : nat) (Y : ytabs) : Prop := {
  ti_lhs : ints (y_lhs Y); ti_len : ints (map Z.of_nat (y_len Y)); ti_defred : ints (map Z.of_nat (y_defred Y)); ti_dgoto : ints (map Z.of_nat (y_dgoto Y));
  ti_sindex : ints (y_sindex Y); ti_rindex : ints (y_rindex Y); ti_gindex : ints (y_gindex Y); ti_table : ints (y_table Y); ti_check : ints (y_check Y);
  ti_n : length (y_defred Y) = n; ti_final : y_final Y < n
}.

Lemma tables_are_ints : forall s f1 f2 f3 flag pr sv Y, wf_src s -> wf_prec s pr -> wf_sv s sv -> byacc_generate f1 f2 f3 flag s pr sv = Ok Y ->
  Forall int_ok sv -> (Z.of_nat (length (y_defred Y)) < 2 ^ 31)%Z -> (Z.of_nat (length (b_rules s)) < 2 ^ 31)%Z ->
  (forall l r, In (l, r) (b_rules s) -> Z.of_nat (length r) < 2 ^ 31)%Z -> (Z.of_nat (y_high Y) < 2 ^ 31)%Z ->
  exists nl st T P, lr0 f1 (pack_grammar s) = Ok (nl, st) /\ lr0_ok s st /\ lalr f2 (pack_grammar s) nl st = Ok T /\ lalr_ok s st T /\ make_parser flag (pack_grammar s) pr T = Ok P /\
    output_tables f3 (pack_grammar s) sv T P = Ok Y /\ tables_ints (nst st) Y.
Proof.
  intros s f1 f2 f3 flag pr sv Y W WP SV E SI NS NR NL NH. unfold byacc_generate in E. cbv zeta in E.
  destruct (lr0 f1 (pack_grammar s)) as [[nl st]| |] eqn:E1; cbn [bind] in E; try discriminate. destruct (passes s f1 f2 flag pr nl st W WP E1) as (LO & H).
  destruct (lalr f2 (pack_grammar s) nl st) as [T| |] eqn:ET; cbn [bind] in E; try discriminate. destruct (H T eq_refl) as (TO & GO & P & EP & PO). rewrite EP in E. cbn [bind] in E.
  exists nl, st, T, P. split; [reflexivity|]. split; [exact LO|]. split; [exact ET|]. split; [exact TO|]. split; [exact EP|]. split; [exact E|]. clear H.
  destruct (entries s W st LO T TO pr flag P PO sv SV GO f3 Y E) as (vs & k & EK & RO & LV & EN & YH & YT & YC & LB & LT & LC & Y1 & Y2 & Y3 & LD & DG & RL & RN & DR & YF & YE).
  pose proof (ws_goal s W) as WG. pose proof (ws_tok s W) as WT.
  assert (LDR : length (y_defred Y) = nst st) by (rewrite DR; unfold yydefred; rewrite map_length, (po_def _ _ _ _ _ _ PO), map_length; apply (po_len _ _ _ _ _ _ PO)).
  rewrite LDR in NS. destruct (go_range s W st LO _ _ _ (po_final _ _ _ _ _ _ PO)) as (_ & _ & N0 & NF & _).
  assert (ZI : int_ok 0) by (unfold int_ok; lia).
  assert (SVI : forall t, int_ok (nth t sv 0%Z)) by (intros t; destruct (nth_in_or_default t sv 0%Z) as [I| ->]; [rewrite Forall_forall in SI; now apply SI|exact ZI]).
  assert (EI : forall v e, In v vs -> In e (v_ent v) -> int_ok (fst e) /\ int_ok (snd e)).
  { intros v e Iv Ie. destruct (EN v e Iv Ie) as (F1 & F2). split.
    - destruct F1 as [(t & _ & ->)|F1]; [apply SVI|unfold int_ok; lia].
    - unfold int_ok. lia. }
  assert (NE : forall (l : list Z) n, n <> 0 -> length l = n -> l <> []) by (intros l n A B ->; cbn in B; congruence).
  destruct (bound_ex vs) as (F & HF). set (f' := Nat.max f3 (S (length vs) * (F + 2))).
  pose proof (pack_loop_mono vs (nst st) f3 f' _ _ _ _ EK ltac:(lia)) as E'.
  destruct (pack_table_ok vs (nst st) RO F HF f' ltac:(lia)) as [(pk & k' & Q1 & Q2)|[Q1 _]]; unfold pack_table in Q1; rewrite E' in Q1; [|discriminate]. injection Q1 as <-.
  assert (BI : Forall int_ok (k_base k)).
  { apply Forall_forall. intros x I. apply In_nth_error in I as (i & Ei). assert (Ex : nth i (k_base k) 0%Z = x) by (now apply nth_error_nth).
    match type of Q2 with pinv _ _ ?D _ => destruct (in_dec Nat.eq_dec i D) as [D0|D0] end; [|rewrite (pi_zero _ _ _ _ Q2 i D0) in Ex; subst; exact ZI].
    destruct (pi_base _ _ _ _ Q2 i D0) as (v & Ev & Ip). rewrite Ex in Ip. destruct (pi_ne _ _ _ _ Q2 _ _ Ip) as (_ & NN). destruct (v_ent v) as [|e l] eqn:EV; [contradiction|].
    destruct (pi_ent _ _ _ _ Q2 _ _ e Ip (or_introl eq_refl)) as (P1 & P2 & _ & _ & P3). destruct (EI v e) as (P4 & _); [eapply nth_error_In; eauto|rewrite EV; now left|].
    unfold loc in P3. rewrite YH in NH. unfold int_ok in *. lia. }
  destruct (pack_table_in vs _ _ _ EK) as (PI1 & PI2).
  constructor.
  - unfold rule_lhs in RL. destruct (opt (nth_error sv _)) as [x| |] eqn:E0; try discriminate. cbn [bind] in RL. destruct (map_res _ _) as [l| |] eqn:EM; try discriminate. cbn [bind] in RL. injection RL as <-.
    split; [discriminate|]. constructor.
    + destruct (nth_error sv _) eqn:E00; [|discriminate]. injection E0 as <-. rewrite Forall_forall in SI. apply SI. eapply nth_error_In; eauto.
    + apply Forall_forall. intros y I. destruct (map_res_all _ _ _ _ _ EM) as (_ & HM). destruct (HM y I) as (i & _ & EY). destruct (opt (nth_error (rlhs _) i)) as [a| |]; try discriminate. cbn [bind] in EY.
      destruct (nth_error sv a) eqn:E00; [|discriminate]. injection EY as <-. rewrite Forall_forall in SI. apply SI. eapply nth_error_In; eauto.
  - destruct (rule_tables_ok s W sv SV) as (lhs & len & _ & R2 & _ & R4). rewrite RN in R2. injection R2 as <-.
    assert (LL : length (y_len Y) = S (length (b_rules s))).
    { unfold rule_len in RN. destruct (map_res _ _) as [l| |] eqn:EM; try discriminate. cbn [bind] in RN. injection RN as <-. destruct (map_res_all _ _ _ _ _ EM) as (L & _). rewrite seq_length, (nrules_eq s) in L. cbn [length]. lia. }
    split; [apply (NE _ (S (length (b_rules s)))); [discriminate|now rewrite map_length]|]. apply Forall_forall. intros y I. apply in_map_iff in I as (n & <- & I).
    apply In_nth_error in I as (i & Ei). assert (Li : i < S (length (b_rules s))) by (rewrite <- LL; eapply nth_error_Some_lt; eauto). destruct i as [|i].
    + unfold rule_len in RN. destruct (map_res _ _) as [l| |] eqn:EM; try discriminate. cbn [bind] in RN. injection RN as RN. rewrite <- RN in Ei. cbn in Ei. injection Ei as <-. unfold int_ok. lia.
    + destruct (nth_error_lt_ex _ (b_rules s) i ltac:(lia)) as ((A & l) & ER). rewrite (R4 (S i) A l) in Ei by (split; [discriminate|exact ER]). injection Ei as <-. pose proof (NL A l (nth_error_In _ _ ER)). unfold int_ok. lia.
  - split; [apply (NE _ (nst st)); [lia|now rewrite map_length]|]. apply Forall_forall. intros y I. apply in_map_iff in I as (n & <- & I). rewrite DR in I. unfold yydefred in I. apply in_map_iff in I as (d & <- & I).
    rewrite (po_def _ _ _ _ _ _ PO) in I. apply in_map_iff in I as (acts & <- & I). apply In_nth_error in I as (p & Ep). assert (Lp : p < nst st) by (rewrite <- (po_len _ _ _ _ _ _ PO); eapply nth_error_Some_lt; eauto).
    destruct (parser_state s W st LO T pr flag P PO p Lp) as (acts' & Q3 & _ & Q4). assert (acts' = acts) by congruence. subst acts'. destruct (Nat.eqb_spec (sole_reduction acts) 0) as [D|D]; [exact ZI|].
    destruct (ao_def _ _ _ _ _ Q4 ltac:(lia)) as (_ & R). destruct (reds_range s W st LO p _ Lp R) as (k0 & _ & _ & K). unfold int_ok. lia.
  - split; [apply (NE _ (b_nsyms s - b_ntokens s - 1)); [lia|now rewrite map_length]|]. apply Forall_forall. intros y I. apply in_map_iff in I as (n & <- & I). specialize (DG n I). unfold int_ok. lia.
  - rewrite Y1. split; [apply (NE _ (nst st)); [lia|rewrite firstn_length; lia]|now apply Forall_firstn].
  - rewrite Y2. split; [apply (NE _ (nst st)); [lia|rewrite firstn_length, skipn_length; lia]|now apply Forall_firstn, Forall_skipn].
  - rewrite Y3. split; [apply (NE _ (b_nsyms s - b_ntokens s - 1)); [lia|rewrite firstn_length, skipn_length; lia]|now apply Forall_firstn, Forall_skipn].
  - rewrite YT. split; [apply (NE _ (S (k_high k))); [lia|rewrite firstn_length; lia]|]. apply Forall_firstn. apply Forall_forall. intros x Ix. destruct (PI1 x Ix) as [->|(v & e & Iv & Ie & ->)]; [exact ZI|now apply (EI v e)].
  - rewrite YC. split; [apply (NE _ (S (k_high k))); [lia|rewrite firstn_length; lia]|]. apply Forall_firstn. apply Forall_forall. intros x Ix. destruct (PI2 x Ix) as [->|(v & e & Iv & Ie & ->)]; [unfold int_ok; lia|now apply (EI v e)].
  - exact LDR.
  - rewrite YF. exact NF.
Qed.
