(** The ranges of the numbers in the tables lemon generates. *)
From Coq Require Import List ZArith NArith Bool Lia Arith Permutation Sorted.
Import ListNotations.
From Verif Require Import Base CLib SpecGrammar SpecGrammarFacts SpecLRFacts SpecLR0 LemonSetModel LemonFirstModel
  LemonSortModel LemonSortProof LemonStatesModel LemonStatesProof Prop_LemonStates LemonFollowModel LemonFollowProof
  LemonActionModel LemonActionProof Prop_LemonAction Prop_LemonSort LemonCompressModel LemonCompressProof
  LemonActtabModel LemonActtabProof LemonReportModel LemonParModel LemonPipelineModel LemonReportProof LemonLookupProof
  Prop_LemonTables LemonGenProof LemonTabProof.
Local Open Scope res_scope.

(** * The rows of a generated parser *)

Section Generate.
Variable g : grammar.
Variable o : opts.
Variable sf ff cf : nat.
Variable c : gen.
Hypothesis W : wf_grammar g.
Hypothesis SM : small_lists sf ff g.
Hypothesis SNR : start_not_rhs g.
Hypothesis OO : opts_ok g o.

Notation irule := (ri_iRule (opts_rinfo o)).

Lemma irule_le : forall r, irule r <= length (g_rules g).
Proof.
  intros r. destruct (Nat.lt_ge_cases r (length (g_rules g))) as [L|L]; [pose proof (irule_lt g o OO r L); lia|].
  unfold opts_rinfo. cbn [ri_iRule]. rewrite nth_overflow; [lia|]. rewrite C21_number_rules_length, map_length, (oo_code _ _ OO). exact L.
Qed.

Lemma new_num_le : forall sorted q, new_num sorted q <= length sorted.
Proof.
  intros sorted q. unfold new_num.
  assert (G : forall l i, (fix go (l : list xstate) (i : nat) : nat := match l with [] => i | x :: r => if Nat.eqb (x_num x) q then i else go r (S i) end) l i <= i + length l).
  { induction l as [|x l IH]; intros i; cbn [length]; [lia|]. destruct (Nat.eqb _ _); [lia|]. specialize (IH (S i)). lia. }
  exact (G sorted 0).
Qed.

Lemma generated_rows : lemon_generate sf ff cf o g = Ok c ->
  exists aps xs sorted nx t, lemon_actions sf ff o g = Ok aps /\
    (if o_compress o then CompressTables cf (o_addr2 o) (o_wildcard o) g (opts_rinfo o) aps else Ok (uncompressed aps)) = Ok xs /\
    ResortStates (g_nterm g) (g_nsym g) (o_errsym o) irule xs = Ok (sorted, nx) /\
    ReportTable g (o_errsym o) (opts_rinfo o) sorted nx = Ok t /\
    c = mkGen t (option_map (map Z.of_nat) (o_fallback o)) (option_map Z.of_nat (o_wildcard o)) (option_map Z.of_nat (o_errsym o))
          (map (fun r => match nth_error (g_rules g) r with Some rl => Z.of_nat (r_lhs rl) | None => 0%Z end) (Rule_sort irule (seq 0 (length (g_rules g)))))
          (map (fun r => schar (- match nth_error (g_rules g) r with Some rl => Z.of_nat (length (r_rhs rl)) | None => 0%Z end)) (Rule_sort irule (seq 0 (length (g_rules g))))) /\
    nx <= length sorted /\
    (forall s, In s (map (state_row (g_nterm g) (g_nsym g) (code_of g o sorted)) (firstn nx sorted)) ->
      valid_srow (Z.of_nat (g_nterm g)) (Z.of_nat (g_nsym g)) s /\ (sr_dflt s <= Z.of_nat (length (g_rules g)))%Z).
Proof.
  intros H. unfold lemon_generate in H. apply bind_Ok in H as (aps & HA & H).
  destruct (actions_resolved sf ff o g aps W SM SNR HA) as (L & HL & RS). exists aps.
  set (A := states_view L) in *. unfold lemon_back in H. cbv zeta in H. apply bind_Ok in H as (xs & HX & H). pose proof HX as HX0.
  assert (FN : final g A (opts_rinfo o) aps xs).
  { destruct (o_compress o); [eapply compressed_final; eauto|]. inversion HX; subst xs. apply uncompressed_final; auto. }
  assert (UN : o_compress o = false -> xs = uncompressed aps). { intros E. rewrite E in HX. inversion HX. auto. }
  clear HX. apply bind_Ok in H as ([sorted nx] & HS & H). cbn [fst snd] in H. apply bind_Ok in H as (t & HT & H).
  destruct (rule_tables _ _ _) as [tl tn] eqn:ERT in H.
  match type of H with Ok ?T = _ => assert (EC : c = T) by congruence end. clear H.
  exists xs, sorted, nx, t. split; [exact HA|]. split; [exact HX0|]. split; [exact HS|]. split; [exact HT|]. split; [unfold rule_tables in ERT; injection ERT as <- <-; exact EC|].
  pose proof (C13_renumber _ _ _ _ _ _ _ HS) as (PERM & FST & NXL & CUT & _).
  assert (LS : length sorted = length A).
  { rewrite <- (fn_len _ _ _ _ _ FN). apply Permutation_length in PERM. rewrite map_length, combine_length, seq_length in PERM. lia. }
  assert (NN : forall k x, nth_error sorted k = Some x -> nth_error xs (x_num x) = Some (x_ap x, x_auto x)).
  { intros k x E. apply nth_error_In in E. apply (in_map (fun x => (x_num x, (x_ap x, x_auto x)))) in E.
    apply (Permutation_in _ PERM) in E. apply nth_combine_seq in E as (_ & E). rewrite Nat.sub_0_r in E. auto. }
  assert (ND : NoDup (map x_num sorted)).
  { apply Permutation_map with (f := fst) in PERM. rewrite map_fst_combine_seq, map_map in PERM. cbn [fst] in PERM.
    eapply Permutation_NoDup; [apply Permutation_sym; exact PERM|apply seq_NoDup]. }
  assert (SORT : forall k x, nth_error sorted k = Some x ->
    nth_error xs (x_num x) = Some (x_ap x, x_auto x) /\ new_num sorted (x_num x) = k).
  { intros k x E. split; [eapply NN; eauto|]. apply new_num_at; auto. }
  assert (EX : forall q, q < length A -> exists k x, nth_error sorted k = Some x /\ x_num x = q /\ (auto_of xs q = None -> k < nx)).
  { intros q Hq. rewrite <- (fn_len _ _ _ _ _ FN) in Hq. destruct (nth_error_lt_ex _ xs q Hq) as ([l au] & E).
    pose proof (combine_seq_nth _ xs 0 q (l, au) E) as I. simpl in I. apply (Permutation_in _ (Permutation_sym PERM)) in I.
    apply in_map_iff in I as (x & EX & I). apply In_nth_error in I as (k & Hk). exists k, x. split; auto. inversion EX; subst.
    split; auto. intros AN. destruct (Nat.lt_ge_cases k nx) as [|GE]; auto. exfalso. apply (CUT k x GE Hk).
    unfold auto_of in AN. rewrite E in AN. auto. }
  assert (ANE : 0 < length A).
  { destruct (lr0_start _ _ (rs_auto _ _ _ RS)) as (I & sh & E & _). eapply nth_error_Some_lt; eauto. }
  assert (XNE : xs <> []) by (intros ->; pose proof (fn_len _ _ _ _ _ FN) as X; simpl in X; lia).
  destruct (FST XNE) as (F0 & NX1).
  assert (AUD : forall q r, auto_of xs q = Some r -> done g A q r).
  { intros q r E. unfold auto_of in E. destruct (nth_error xs q) as [[l au]|] eqn:EQ; [|discriminate]. subst au.
    assert (LQ : q < length aps).
    { rewrite (rs_len _ _ _ RS), <- (fn_len _ _ _ _ _ FN). eapply nth_error_Some_lt; eauto. }
    destruct (nth_error_lt_ex _ aps q LQ) as (ap & EA). destruct (fn_auto _ _ _ _ _ FN q ap l r EA EQ). auto. }
  (* codes *)
  set (ZA := Z.of_nat (length A)). set (ZR := Z.of_nat (length (g_rules g))).
  set (code := code_of g o sorted).
  assert (CODE : forall q a, act_ok g A (opts_rinfo o) (auto_of xs) q a ->
     match a_type a with
     | SHIFT => exists k x, nth_error sorted k = Some x /\ x_num x = a_arg a /\ k < nx /\ code a = Z.of_nat k
     | REDUCE => code a = (ZA + ZR + 3 + Z.of_nat (irule (a_arg a)))%Z /\ a_arg a < length (g_rules g)
     | SHIFTREDUCE => (code a = (ZA + ZR + 3 + Z.of_nat (irule (a_arg a)))%Z \/ code a = (ZA + Z.of_nat (irule (a_arg a)))%Z) /\ a_arg a < length (g_rules g)
     | ACCEPT => code a = (ZA + ZR + 1)%Z
     | _ => False
     end).
  { intros q a HO. destruct (act_ok_arg g A o W xs q a AUD HO) as (_ & X). unfold code, code_of, compute_action.
    cbn [report_consts k_minShiftReduce k_errAction k_accAction k_noAction k_minReduce]. rewrite LS. fold ZA ZR.
    destruct (a_type a); auto.
    - destruct X as (X1 & X2). destruct (EX _ X1) as (k & x & E1 & E2 & E3). exists k, x. split; auto. split; auto. split; auto.
      f_equal. rewrite <- E2. apply SORT. auto.
    - split; [lia|auto].
    - split; [|auto]. destruct (_ && _); [left; lia|right; auto]. }
  assert (EMC : forall a, (0 <=? code a)%Z = emits a).
  { intros a. unfold code, code_of, compute_action, emits.
    cbn [report_consts k_minShiftReduce k_errAction k_accAction k_noAction k_minReduce].
    destruct (a_type a); auto; try (destruct (_ && _)); apply Z.leb_le; lia. }
  (* rows *)
  assert (ROWV : forall s, In s (map (state_row (g_nterm g) (g_nsym g) code) (firstn nx sorted)) ->
     valid_srow (Z.of_nat (g_nterm g)) (Z.of_nat (g_nsym g)) s).
  { intros s Hs. apply in_map_iff in Hs as (x & <- & Hx).
    assert (Hin : In x sorted). { rewrite <- (firstn_skipn nx sorted). apply in_or_app. auto. }
    apply In_nth_error in Hin as (k & Hk). destruct (SORT k x Hk) as (HX & _).
    pose proof (fn_uniq _ _ _ _ _ FN _ _ _ HX) as UQ.
    assert (NDP : forall f, NoDup (map (fun a => (Z.of_nat (a_sp a), code a)) (filter (fun a => f a && (0 <=? code a)%Z) (x_ap x)))).
    { intros f.
      assert (INJ : forall a b, In a (x_ap x) -> In b (x_ap x) -> emits a = true -> emits b = true ->
         a_sp a = a_sp b -> code a = code b -> exec a = exec b).
      { assert (ER : forall a b, In a (x_ap x) -> exec a = true -> iserr b = true -> code a <> code b).
        { intros a b Ha Ea Eb. pose proof (CODE _ _ (fn_ok _ _ _ _ _ FN _ _ _ _ HX Ha Ea)) as CA.
          assert (CB : code b = (ZA + ZR)%Z).
          { unfold code, code_of, compute_action. unfold iserr in Eb. destruct (a_type b); try discriminate.
            cbn [report_consts k_errAction]. rewrite LS. auto. }
          rewrite CB. destruct (a_type a); try contradiction.
          - destruct CA as (k' & x' & _ & _ & CA1 & ->). unfold ZA, ZR. lia.
          - lia.
          - unfold ZA, ZR. lia.
          - destruct CA as ([CA|CA] & LA); rewrite CA; [unfold ZA, ZR; lia|]. pose proof (irule_lt g o OO _ LA). unfold ZA, ZR. lia. }
        intros a b Ha Hb Ea Eb _ E. rewrite emits_exec in Ea, Eb.
        destruct (exec a) eqn:XA, (exec b) eqn:XB; auto; simpl in *; exfalso; [apply (ER a b)|apply (ER b a)]; auto. }
      assert (ND2 : forall l, incl l (x_ap x) -> uniq l ->
         NoDup (map (fun a => (Z.of_nat (a_sp a), code a)) (filter (fun a => f a && (0 <=? code a)%Z) l))).
      { clear UQ. induction l as [|a l IH]; intros IC (U1 & U2); [constructor|]. cbn [filter] in *.
        assert (UL : uniq l).
        { split; [destruct (exec a)|destruct (iserr a)]; simpl in *; try (inversion U1; auto; fail); try (inversion U2; auto; fail); auto. }
        assert (IL : incl l (x_ap x)) by (intros y Hy; apply IC; right; auto).
        destruct (f a && (0 <=? code a)%Z) eqn:EF; [|apply IH; auto]. cbn [map]. constructor; [|apply IH; auto].
        intros C. apply in_map_iff in C as (b & EQ & Hb). apply filter_In in Hb as (Hb & FB).
        apply andb_true_iff in EF as (_ & EF). apply andb_true_iff in FB as (_ & FB). rewrite EMC in EF, FB.
        inversion EQ as [[E1 E2]]. apply Nat2Z.inj in E1.
        assert (XX : exec a = exec b) by (apply INJ; [apply IC; left; auto|apply IC; right; auto|auto|auto|auto|auto]).
        rewrite emits_exec in EF, FB. destruct (exec a) eqn:XA.
        - simpl in U1. inversion U1 as [|? ? U3 U4]; subst. apply U3. rewrite <- E1. apply in_map. apply filter_In. auto.
        - simpl in EF. rewrite EF in U2. simpl in U2. inversion U2 as [|? ? U3 U4]; subst. apply U3. rewrite <- E1. apply in_map.
          apply filter_In. split; auto. rewrite <- XX in FB. auto. }
      apply ND2; [apply incl_refl|exact UQ]. }
    unfold state_row. split; [apply NDP|]. split; [apply NDP|]. split.
    - intros la ac I. apply in_map_iff in I as (a & E & I). apply filter_In in I as (_ & I). apply andb_true_iff in I as (I1 & I2).
      apply Nat.ltb_lt in I1. apply Z.leb_le in I2. inversion E; subst. lia.
    - intros la ac I. apply in_map_iff in I as (a & E & I). apply filter_In in I as (I0 & I). apply andb_true_iff in I as (I1 & I2).
      apply andb_true_iff in I1 as (I1 & I3). apply negb_true_iff, Nat.ltb_ge in I1. apply negb_true_iff, Nat.eqb_neq in I3.
      apply Z.leb_le in I2. pose proof (fn_sp _ _ _ _ _ FN _ _ _ _ HX I0). inversion E; subst. lia. }
  assert (HN : (0 < Z.of_nat (g_nterm g) <= Z.of_nat (g_nsym g))%Z) by (destruct W as (W1 & W2 & _); lia).  split; [exact NXL|]. intros s Hs. split; [apply ROWV; exact Hs|]. apply in_map_iff in Hs as (x & <- & Hx). cbn [state_row sr_dflt].
  assert (Hin : In x sorted). { rewrite <- (firstn_skipn nx sorted). apply in_or_app. auto. }
  apply In_nth_error in Hin as (k & Hk). destruct (SORT k x Hk) as (HX & _).
  assert (ISD : forall a, In a (x_ap x) -> g_nsym g <= a_sp a -> is_dflt g a = true).
  { intros a Ha GE.
    assert (E : exec a = true) by (eapply (fn_ntexec _ _ _ _ _ FN); eauto; destruct W as (_ & W2 & _); lia).
    destruct (act_ok_arg g A o W xs _ a AUD (fn_ok _ _ _ _ _ FN _ _ _ _ HX Ha E)) as ([X|X] & _); [lia|auto]. }
  unfold ResortStates in HS. apply bind_Ok in HS as (l & HC & HS).
  assert (IL : In x l).
  { apply nth_error_In in Hk. destruct l as [|x0 rl]; [inversion HS; subst; destruct Hk|].
    match type of HS with Ok ?T = _ => assert (ES : (sorted, nx) = T) by congruence end. inversion ES as [[E1 E2]]. rewrite E1 in Hk. destruct Hk as [->|Hk]; [left; auto|right].
    apply (Permutation_in _ (Permutation_sym (qsort_perm _ _)) Hk). }
  destruct (count_states_dflt _ _ _ _ _ _ _ HC IL) as [(-> & NO)|(a & Ha & NN0 & SP & ->)]; [lia|].
  pose proof (ISD a Ha SP) as DA. unfold is_dflt in DA. unfold compute_action. destruct (a_type a); try discriminate. cbn [zero_consts k_minReduce]. pose proof (irule_le (a_arg a)). lia.
Qed.
End Generate.

(** * Packing *)
Local Open Scope Z_scope.

Lemma in_firstn : forall A n (l : list A) x, In x (firstn n l) -> In x l.
Proof. intros A n l x H. rewrite <- (firstn_skipn n l). apply in_or_app. now left. Qed.

Definition cleared (a : list (Z * Z)) : Prop := Forall (fun x => fst x < 0 -> snd x = -1) a.
Lemma cleared_cell : forall a k, cleared a -> fst (cell a k) < 0 -> snd (cell a k) = -1.
Proof.
  intros a k C L. destruct (Z_lt_le_dec k 0) as [K|K]; [rewrite cell_neg by exact K; reflexivity|].
  destruct (Z_lt_le_dec k (nActionAlloc a)) as [K2|K2]; [|rewrite cell_out by exact K2; reflexivity].
  unfold cell in *. destruct (Z.ltb_spec k 0); [lia|]. unfold cleared in C. rewrite Forall_forall in C. apply C; [|exact L]. apply nth_In. unfold nActionAlloc in K2. lia.
Qed.
Lemma cleared_put : forall L a n mn i a1 n1, cleared a -> Forall (fun x => 0 <= fst x) L -> put_all a n mn i L = Ok (a1, n1) -> cleared a1.
Proof.
  induction L as [|[la ac] L IH]; intros a n mn i a1 n1 C F H; cbn [put_all] in H; [inversion H; subst; exact C|].
  apply bind_Ok in H as (a2 & H1 & H2). inversion F; subst. eapply IH; [|eassumption|exact H2]. unfold wr in H1. destruct (_ || _); [discriminate|]. inversion H1; subst a2.
  unfold cleared in *. apply Forall_forall. intros x I. apply In_nth_error in I as (k & E). rewrite Forall_forall in C. destruct (Nat.eq_dec k (Z.to_nat (la - mn + i))) as [->|NE].
  - destruct (Nat.lt_ge_cases (Z.to_nat (la - mn + i)) (length a)) as [L1|L1].
    + rewrite nth_error_upd_eq in E by exact L1. inversion E; subst x. cbn [fst] in *. lia.
    + apply nth_error_Some_lt in E. rewrite upd_length in E. lia.
  - rewrite nth_error_upd_ne in E by congruence. apply C. eapply nth_error_In; eauto.
Qed.
Lemma fold_action_fields : forall row p, Forall (fun x => 0 <= fst x) row -> Forall (fun x => 0 <= fst x) (aLookahead p) ->
  let q := fold_left (fun p x => acttab_action p (fst x) (snd x)) row p in aAction q = aAction p /\ Forall (fun x => 0 <= fst x) (aLookahead q).
Proof.
  induction row as [|[la ac] row IH]; intros p F1 F2; cbn [fold_left]; [auto|]. inversion F1; subst. cbn [fst snd] in *.
  assert (E : aAction (acttab_action p la ac) = aAction p /\ aLookahead (acttab_action p la ac) = aLookahead p ++ [(la, ac)]).
  { unfold acttab_action. destruct (aLookahead p) eqn:EL; [auto|]. destruct (la <? mnLookahead p); auto. }
  destruct E as (E1 & E2). rewrite <- E1. apply IH; [assumption|]. rewrite E2. apply Forall_app. split; [exact F2|]. constructor; [assumption|constructor].
Qed.
Lemma cleared_row : forall p row p1 o, cleared (aAction p) -> Forall (fun x => 0 <= fst x) (aLookahead p) -> Forall (fun x => 0 <= fst x) (fst row) -> add_row p row = Ok (p1, o) ->
  cleared (aAction p1) /\ aLookahead p1 = [].
Proof.
  intros p row p1 o C F1 F2 H. unfold add_row in H. destruct (fold_action_fields (fst row) p F2 F1) as (E1 & E2). cbv zeta in E1, E2. set (q := fold_left _ _ _) in *. clearbody q.
  unfold acttab_insert in H. destruct (_ <=? _); [discriminate|]. cbv zeta in H. apply bind_Ok in H as (d & _ & H). apply bind_Ok in H as (i & _ & H). apply bind_Ok in H as ([a1 n1] & HP & H).
  inversion H; subst. cbn [aAction aLookahead]. clear H. split; [|reflexivity]. eapply cleared_put; [|exact E2|exact HP]. rewrite E1. unfold grow. cbv zeta. destruct (nActionAlloc (aAction p) <=? _); [|exact C].
  apply Forall_app. split; [exact C|]. apply Forall_forall. intros x I. apply repeat_spec in I. subst x. reflexivity.
Qed.
Lemma cleared_rows : forall rows p p1 os, cleared (aAction p) -> Forall (fun x => 0 <= fst x) (aLookahead p) -> (forall r, In r rows -> Forall (fun x => 0 <= fst x) (fst r)) ->
  add_rows p rows = Ok (p1, os) -> cleared (aAction p1).
Proof.
  induction rows as [|r rows IH]; intros p p1 os C F1 F2 H; cbn [add_rows] in H; [inversion H; subst; exact C|].
  apply bind_Ok in H as ([p2 o2] & H1 & H). apply bind_Ok in H as ([p3 os3] & H2 & H). inversion H; subst.
  destruct (cleared_row _ _ _ _ C F1 (F2 r (or_introl eq_refl)) H1) as (C2 & E2). eapply IH; [exact C2|rewrite E2; constructor| |exact H2]. intros x I. apply F2. now right.
Qed.

Lemma mx_ofst_ge : forall axs os tkn, 0 <= mx_ofst axs os tkn /\ forall a o, In (a, o) (combine axs os) -> ax_isTkn a = tkn -> o <= mx_ofst axs os tkn.
Proof.
  intros axs os tkn. unfold mx_ofst.
  assert (G : forall l acc, let m := fold_left (fun acc x => if Bool.eqb (ax_isTkn (fst x)) tkn then (if acc <? snd x then snd x else acc) else acc) l acc in
    acc <= m /\ forall a o, In (a, o) l -> ax_isTkn a = tkn -> o <= m).
  { induction l as [|[a z] l IH]; intros acc; cbn [fold_left]; cbv zeta.
    - split; [lia|]. intros a o [].
    - cbn [fst snd]. specialize (IH (if Bool.eqb (ax_isTkn a) tkn then if acc <? z then z else acc else acc)). cbv zeta in IH. destruct IH as (I1 & I2). set (m := fold_left _ _ _) in *. clearbody m. split.
      + destruct (Bool.eqb (ax_isTkn a) tkn); [destruct (Z.ltb_spec acc z); lia|lia].
      + intros a0 o0 [I|I] E; [|eauto]. inversion I; subst a0 o0. rewrite E, Bool.eqb_reflx in I1. destruct (Z.ltb_spec acc z); lia. }
  specialize (G (combine axs os) 0). cbv zeta in G. exact G.
Qed.
Lemma ofst_bounds : forall axs os tkn lo hi, lo <= 0 <= hi -> (forall a o, In (a, o) (combine axs os) -> ax_isTkn a = tkn -> lo <= o <= hi) ->
  lo <= mn_ofst axs os tkn /\ mx_ofst axs os tkn <= hi.
Proof.
  intros axs os tkn lo hi H B. unfold mn_ofst, mx_ofst.
  assert (G : forall l a1 a2, (forall a o, In (a, o) l -> ax_isTkn a = tkn -> lo <= o <= hi) -> lo <= a1 -> a2 <= hi ->
    lo <= fold_left (fun acc x => if Bool.eqb (ax_isTkn (fst x)) tkn then (if snd x <? acc then snd x else acc) else acc) l a1 /\
    fold_left (fun acc x => if Bool.eqb (ax_isTkn (fst x)) tkn then (if acc <? snd x then snd x else acc) else acc) l a2 <= hi).
  { induction l as [|[a z] l IH]; intros a1 a2 BB L1 L2; cbn [fold_left]; [auto|]. cbn [fst snd]. apply IH.
    - intros a0 o0 I. apply BB. now right.
    - destruct (Bool.eqb (ax_isTkn a) tkn) eqn:E; [|exact L1]. apply Bool.eqb_prop in E. destruct (BB a z (or_introl eq_refl) E). destruct (z <? a1); lia.
    - destruct (Bool.eqb (ax_isTkn a) tkn) eqn:E; [|exact L2]. apply Bool.eqb_prop in E. destruct (BB a z (or_introl eq_refl) E). destruct (a2 <? z); lia. }
  apply G; [exact B|lia|lia].
Qed.

(** The numbers printed beside the tables: YY_SHIFT_MIN, YY_SHIFT_MAX, YY_REDUCE_MIN, YY_REDUCE_MAX. *)
Definition ofst_limits (ns nt : Z) (sts : list srow) : res (Z * Z * Z * Z) :=
  let axs := take_nonempty (qsort axset_le (make_ax 0 sts)) in
  '(p, os) <- add_rows (acttab_alloc ns nt) (map (fun a => (ax_row a, ax_isTkn a)) axs) ;;
  Ok (mn_ofst axs os true, mx_ofst axs os true, mn_ofst axs os false, mx_ofst axs os false).

Lemma ReportTables_ranges : forall k nrule ns nt sts t M,
  0 < nt <= ns -> (forall s, In s sts -> valid_srow nt ns s) ->
  (forall s la v, In s sts -> In (la, v) (sr_tkn s) \/ In (la, v) (sr_nt s) -> v <= M) ->
  (forall s, In s sts -> sr_dflt s + k_minReduce k <= M) -> 0 <= k_noAction k <= M -> 0 <= k_errAction k <= M -> 0 <= k_minReduce k ->
  ReportTables k nrule ns nt sts = Ok t ->
  exists mt xt mn xn, ofst_limits ns nt sts = Ok (mt, xt, mn, xn) /\
  0 <= YY_ACTTAB_COUNT t /\ mt = 0 /\ 0 <= xt <= YY_ACTTAB_COUNT t /\ 1 - ns <= mn <= 0 /\ 0 <= xn <= YY_ACTTAB_COUNT t /\
  Forall (fun v => 0 <= v <= M) (yy_action t) /\ Forall (fun v => 0 <= v <= ns) (yy_lookahead t) /\
  Forall (fun v => 0 <= v <= YY_ACTTAB_COUNT t) (yy_shift_ofst t) /\ Forall (fun v => mn - 1 <= v <= xn) (yy_reduce_ofst t) /\
  Forall (fun v => 0 <= v <= M) (yy_default t).
Proof.
  intros k nrule ns nt sts t M HN V CM DM NA EA MR H. unfold ofst_limits. unfold ReportTables in H. cbv zeta in *.
  set (axs := take_nonempty (qsort axset_le (make_ax 0 sts))) in *.
  assert (AXS : forall a, In a axs -> exists s, nth_error sts (ax_stp a) = Some s /\
     ax_row a = (if ax_isTkn a then sr_tkn s else sr_nt s) /\ ax_row a <> []).
  { intros a I. unfold axs in I. apply take_nonempty_In in I; [|apply qsort_sorted; [apply axset_le_total|apply axset_le_trans]].
    destruct I as [I P]. apply (Permutation_in _ (Permutation_sym (qsort_perm axset_le (make_ax 0 sts)))) in I.
    apply make_ax_spec in I. destruct I as (s & E & _ & R & N).
    rewrite Nat.sub_0_r in E. exists s. split; [auto|]. split; [auto|]. intros X. rewrite X in N. cbn in N. lia. }
  clearbody axs.
  destruct (add_rows_ok false false (map (fun a => (ax_row a, ax_isTkn a)) axs) (acttab_alloc ns nt) [])
    as (p & os & HR & LEN & _ & (all & IV & INC) & PT & PS).
  { now apply Inv_alloc. }
  { intros r I. apply in_map_iff in I. destruct I as (a & <- & I). destruct (AXS a I) as (s & E & R & NE).
    destruct (V s (nth_error_In _ _ E)) as (V1 & V2 & V3 & V4). cbn [acttab_alloc t_nterminal t_nsymbol].
    split; cbn [fst snd]; [auto|]. rewrite R. split; [destruct (ax_isTkn a); auto|].
    intros la ac J. destruct (ax_isTkn a); [apply (V3 _ _ J)|apply (V4 _ _ J)]. }
  { discriminate. }
  { discriminate. }
  assert (CL : cleared (aAction p)).
  { eapply cleared_rows; [| | |exact HR]; [constructor|constructor|]. intros r I. apply in_map_iff in I as (a & <- & I). destruct (AXS a I) as (s & E & R & NE).
    destruct (V s (nth_error_In _ _ E)) as (V1 & V2 & V3 & V4). cbn [fst]. apply Forall_forall. intros [la ac] J. rewrite R in J. cbn [fst]. destruct (ax_isTkn a); [pose proof (V3 _ _ J)|pose proof (V4 _ _ J)]; lia. }
  rewrite HR in H. rewrite HR. cbn [bind] in *. cbn [acttab_alloc t_nterminal t_nsymbol] in PT, PS.
  apply bind_Ok in H. destruct H as (n & HS & H).
  apply bind_Ok in H. destruct H as (acts & HA & H).
  apply bind_Ok in H. destruct H as (lks & HK & H).
  unfold acttab_action_size in HS. apply action_size_ok in HS. destruct HS as (S1 & S2 & S3 & S4).
  apply rd_upto_ok in HA. destruct HA as (-> & HA2). apply rd_upto_ok in HK. destruct HK as (-> & HK2).
  pose proof (iv_n _ _ _ _ IV) as N0. rewrite Z2Nat.id in * by lia.
  match type of H with Ok ?T = _ => assert (ET : t = T) by congruence end. rewrite ET. clear ET H.
  cbn [YY_ACTTAB_COUNT yy_lookahead yy_action yy_shift_ofst yy_reduce_ofst yy_default].
  assert (INall : forall a o, In (a, o) (combine axs os) -> In ((ax_row a, ax_isTkn a), o) all).
  { intros a o I. rewrite INC, app_nil_r, <- in_rev. clear - I. revert os I. induction axs as [|x axs IH]; intros [|z os] I; cbn in *; try tauto.
    destruct I as [I|I]; [left; inversion I; auto|right; auto]. }
  assert (CELLN : forall k0, 0 <= fst (cell (aAction p) k0) -> 0 <= k0 < n).
  { intros k0 K0. pose proof (cell_in _ _ K0). split; [lia|].
    destruct (Z_lt_le_dec k0 n); [auto|]. exfalso.
    destruct (Z_lt_le_dec k0 (nAction p)); [specialize (S2 k0 ltac:(lia)); lia|].
    pose proof (iv_tail _ _ _ _ IV k0 l0). lia. }
  assert (OFS : forall a o, In (a, o) (combine axs os) -> 1 - ns <= o <= n /\ (ax_isTkn a = true -> 0 <= o)).
  { intros a o I. pose proof (INall a o I) as J. apply in_combine_l in I. destruct (AXS a I) as (s & E & R & NE). destruct (V s (nth_error_In _ _ E)) as (V1 & V2 & V3 & V4).
    destruct (ax_row a) as [|[la0 ac0] row] eqn:ER; [contradiction|].
    assert (LL : exists la ac, lookup_last (ax_row a) la = Some ac /\ In (la, ac) (ax_row a)).
    { destruct (lookup_last_ex (ax_row a) la0 ac0) as (ac & EL); [rewrite ER; left; reflexivity|]. exists la0, ac. split; [exact EL|apply lookup_last_In; exact EL]. }
    destruct LL as (la & ac & L1 & L2). rewrite <- ER in J. pose proof (iv_in _ _ _ _ IV _ o la ac J L1) as CE. rewrite ER, R in L2.
    assert (LA : 0 <= la < ns) by (destruct (ax_isTkn a); [pose proof (V3 _ _ L2)|pose proof (V4 _ _ L2)]; lia).
    assert (K : 0 <= o + la < n) by (apply CELLN; rewrite CE; cbn [fst]; lia). split; [lia|]. intros T. destruct (iv_safe _ _ _ _ IV _ _ J T). lia. }
  assert (OT : 0 <= mn_ofst axs os true /\ mx_ofst axs os true <= n) by (apply ofst_bounds; [lia|]; intros a o I T; destruct (OFS a o I) as (O1 & O2); specialize (O2 T); lia).
  assert (ON : 1 - ns <= mn_ofst axs os false /\ mx_ofst axs os false <= n) by (apply ofst_bounds; [lia|]; intros a o I T; destruct (OFS a o I) as (O1 & O2); lia).
  destruct (mn_ofst_le axs os true) as (MT & _). destruct (mn_ofst_le axs os false) as (MN & MN2). destruct (mx_ofst_ge axs os true) as (XT & _). destruct (mx_ofst_ge axs os false) as (XN & XN2).
  do 4 eexists. split; [reflexivity|]. split; [lia|]. split; [lia|]. split; [lia|]. split; [lia|]. split; [lia|].
  split; [|split; [|split; [|split]]]; apply Forall_forall; intros v Hv.
  - apply in_map_iff in Hv as (x & <- & Hx). apply in_map_iff in Hx as (i & <- & Hi). destruct (Z.ltb_spec (snd (cell (aAction p) (Z.of_nat i))) 0) as [C|C]; [lia|].
    destruct (Z_lt_le_dec (fst (cell (aAction p) (Z.of_nat i))) 0) as [F|F]; [rewrite (cleared_cell _ _ CL F) in C; lia|].
    destruct (iv_cover _ _ _ _ IV _ F) as (r & o & ac & IR & EO & LO). pose proof (iv_in _ _ _ _ IV r o _ ac IR LO) as CE. rewrite EO in CE. replace (Z.of_nat i - fst (cell (aAction p) (Z.of_nat i)) + fst (cell (aAction p) (Z.of_nat i))) with (Z.of_nat i) in CE by lia.
    split; [exact C|]. rewrite CE. cbn [snd]. rewrite INC, app_nil_r, <- in_rev in IR. apply in_combine_l in IR. apply in_map_iff in IR as (a & <- & Ha).
    destruct (AXS a Ha) as (s & Es & ER & _). cbn [fst] in LO. apply lookup_last_In in LO. rewrite ER in LO. apply (CM s (fst (cell (aAction p) (Z.of_nat i))) ac (nth_error_In _ _ Es)). destruct (ax_isTkn a); [left|right]; exact LO.
  - apply in_app_iff in Hv as [Hv|Hv]; [|apply repeat_spec in Hv; lia]. apply in_map_iff in Hv as (x & <- & Hx). apply in_map_iff in Hx as (i & <- & Hi).
    destruct (Z.ltb_spec (fst (cell (aAction p) (Z.of_nat i))) 0) as [F|F]; [lia|]. split; [exact F|].
    destruct (iv_cover _ _ _ _ IV _ F) as (r & o & ac & IR & EO & LO). apply lookup_last_In in LO. rewrite INC, app_nil_r, <- in_rev in IR. apply in_combine_l in IR. apply in_map_iff in IR as (a & <- & Ha).
    destruct (AXS a Ha) as (s & Es & ER & _). cbn [fst] in LO. rewrite ER in LO. destruct (V s (nth_error_In _ _ Es)) as (V1 & V2 & V3 & V4). destruct (ax_isTkn a); [pose proof (V3 _ _ LO)|pose proof (V4 _ _ LO)]; lia.
  - apply in_map_iff in Hv as (x & <- & Hx). destruct x as [z|]; [|lia]. apply in_firstn in Hx. apply in_map_iff in Hx as (i & HO & _). apply ofst_of_some in HO as (a & I & _ & T). destruct (OFS a z I) as (O1 & O2). specialize (O2 T). lia.
  - apply in_map_iff in Hv as (x & <- & Hx). destruct x as [z|]; [|lia]. apply in_firstn in Hx. apply in_map_iff in Hx as (i & HO & _). apply ofst_of_some in HO as (a & I & _ & T).
    pose proof (MN2 a z I T). pose proof (XN2 a z I T). lia.
  - apply in_map_iff in Hv as (s & <- & Hs). specialize (DM s Hs). destruct (Z.ltb_spec (sr_dflt s) 0); lia.
Qed.
