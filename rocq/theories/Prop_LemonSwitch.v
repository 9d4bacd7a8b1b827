(** C65: the switch over the rules in the generated yy_reduce: every rule runs its own code. *)
From Coq Require Import List Arith ZArith Bool Lia String Permutation.
Import ListNotations.
From Verif Require Import Base SpecGrammar LemonActionModel LemonReportModel LemonParModel LemonPipelineModel Prop_LemonDriver LemonSoundProof Prop_LemonSound.
From Verif Require Import LemonPreModel LemonPrintfModel LemonCodeModel Prop_LemonPrintf SpecCode LemonCodeProof Prop_LemonCode LemonEmitModel Prop_LemonUnion Prop_LemonDestructors.
Open Scope res_scope.

(** * The groups *)

Definition rgroup : Type := (list nat * erule)%type.
Definition rlabels (gs : list rgroup) : list nat := flat_map fst gs.

(** Two rules have the same text to run. *)
Definition equal_code (r r2 : erule) : Prop := er_code r2 = er_code r /\ er_prefix r2 = er_prefix r /\ er_suffix r2 = er_suffix r.

Lemma oeqb_ok : forall a b, oeqb a b = true <-> a = b.
Proof. intros [a|] [b|]; cbn; [rewrite teqb_ok; split; congruence|split; discriminate|split; discriminate|tauto]. Qed.

Lemma same_code_ok : forall r r2, same_code r r2 = true <-> equal_code r r2.
Proof. intros r r2. unfold same_code, equal_code. rewrite !andb_true_iff, teqb_ok, !oeqb_ok. tauto. Qed.

Definition rclosed (rules : list (nat * erule)) (done : list nat) : Prop := forall j a k b, In (j, a) rules -> In (k, b) rules -> In j done -> equal_code a b -> In k done.

Lemma rule_groups_ok : forall rules done gs d, NoDup (map fst rules) -> rclosed rules done -> rule_groups rules done = (gs, d) ->
  NoDup (rlabels gs) /\ (forall i, In i (rlabels gs) -> ~ In i done /\ exists r, In (i, r) rules) /\ (forall i, In i d <-> In i done \/ In i (rlabels gs)) /\
  (forall i r, In (i, r) rules -> er_nocode r = false -> In i d) /\
  (forall g, In g gs -> er_nocode (snd g) = false /\ exists i l, fst g = i :: l /\ In (i, snd g) rules) /\
  (forall g i, In g gs -> In i (fst g) -> exists r, In (i, r) rules /\ equal_code (snd g) r).
Proof.
  induction rules as [|(i, r) rest IH]; intros done gs d N C E.
  - cbn in E. injection E as <- <-. split; [constructor|]. split; [intros i []|]. split; [intros i; cbn; tauto|]. split; [intros i r []|]. split; [intros g []|intros g i []].
  - cbn [map fst] in N. inversion N as [|? ? N1 N2]; subst. cbn [rule_groups] in E. assert (CR : rclosed rest done) by (intros j a k b H1 H2; apply C; now right).
    destruct (existsb (Nat.eqb i) done || er_nocode r)%bool eqn:B.
    + destruct (IH done gs d N2 CR E) as (H1 & H2 & H3 & H4 & H5 & H6). split; [exact H1|]. split; [|split; [exact H3|split; [|split]]].
      * intros k K. destruct (H2 k K) as (K1 & r' & K2). split; [exact K1|]. exists r'. now right.
      * intros k r' [K|K] NC; [|exact (H4 k r' K NC)]. injection K as -> ->. rewrite NC, orb_false_r in B. apply existsb_In in B. apply H3. now left.
      * intros g G. destruct (H5 g G) as (G1 & k & l & G2 & G3). split; [exact G1|]. exists k, l. split; [exact G2|now right].
      * intros g k G K. destruct (H6 g k G K) as (r' & K1 & K2). exists r'. split; [now right|exact K2].
    + apply orb_false_iff in B as (B1 & B2). assert (ND : ~ In i done) by (intros H; apply existsb_In in H; congruence).
      set (dup := map fst (filter (fun x => same_code r (snd x)) rest)) in *.
      assert (DU : forall k, In k dup <-> exists r', In (k, r') rest /\ equal_code r r').
      { intros k. unfold dup. rewrite in_map_iff. split.
        - intros ((k' & r') & <- & H). apply filter_In in H as (H1 & H2). exists r'. split; [exact H1|]. now apply same_code_ok.
        - intros (r' & H1 & H2). exists (k, r'). split; [reflexivity|]. apply filter_In. split; [exact H1|]. now apply same_code_ok. }
      assert (CD : rclosed rest (i :: dup ++ done)).
      { intros j a k b H1 H2 H3 H4. destruct H3 as [<-|H3]; [elim N1; now apply (in_map fst) in H1|]. right. apply in_app_iff in H3 as [H3|H3]; apply in_app_iff; [left|right; exact (CR j a k b H1 H2 H3 H4)].
        apply DU in H3 as (a' & H3 & H6). rewrite (fst_inj _ _ _ _ _ N2 H3 H1) in H6. apply DU. exists b. split; [exact H2|]. unfold equal_code in *. destruct H4 as (? & ? & ?), H6 as (? & ? & ?). repeat split; congruence. }
      destruct (rule_groups rest (i :: dup ++ done)) as (gs', d') eqn:E'. injection E as <- <-.
      destruct (IH _ _ _ N2 CD E') as (H1 & H2 & H3 & H4 & H5 & H6). change (rlabels ((i :: dup, r) :: gs')) with (i :: dup ++ rlabels gs').
      split; [|split; [|split; [|split; [|split]]]].
      * constructor.
        -- rewrite in_app_iff. intros [H|H]; [apply DU in H as (r' & H & _); apply N1; now apply (in_map fst) in H|]. apply H2 in H as (_ & r' & H). apply N1. now apply (in_map fst) in H.
        -- apply NoDup_app_iff. split; [unfold dup; now apply filter_fst_NoDup|]. split; [exact H1|]. intros k K1 K2. apply H2 in K2 as (K2 & _). apply K2. right. apply in_app_iff. now left.
      * intros k [<-|K]; [split; [exact ND|exists r; now left]|]. apply in_app_iff in K as [K|K].
        -- apply DU in K as (r' & K1 & K2). split; [|exists r'; now right]. intros H. apply ND. apply (C k r' i r); [now right|now left|exact H|]. unfold equal_code in *. destruct K2 as (? & ? & ?). repeat split; congruence.
        -- destruct (H2 k K) as (K1 & r' & K2). split; [|exists r'; now right]. intros H. apply K1. right. apply in_app_iff. now right.
      * intros k. rewrite H3. cbn [In]. rewrite !in_app_iff. tauto.
      * intros k r' [K|K] NC; [|exact (H4 k r' K NC)]. injection K as <- <-. apply H3. left. now left.
      * intros g [<-|G]; [split; [exact B2|]; exists i, dup; split; [reflexivity|now left]|]. destruct (H5 g G) as (G1 & k & l & G2 & G3). split; [exact G1|]. exists k, l. split; [exact G2|now right].
      * intros g k [<-|G] K.
        -- cbn [fst snd] in *. destruct K as [<-|K]; [exists r; split; [now left|now repeat split]|]. apply DU in K as (r' & K1 & K2). exists r'. split; [now right|exact K2].
        -- destruct (H6 g k G K) as (r' & K1 & K2). exists r'. split; [now right|exact K2].
Qed.

Lemma default_rules_ok : forall rules done, (forall i r, In (i, r) rules -> er_nocode r = false -> In i done) ->
  default_rules rules done = Ok (map fst (filter (fun x => negb (existsb (Nat.eqb (fst x)) done)) rules)).
Proof.
  induction rules as [|(i, r) rest IH]; intros done H; [reflexivity|]. cbn [default_rules filter fst]. rewrite IH by (intros k r' K; apply H; now right). destruct (existsb (Nat.eqb i) done) eqn:E; cbn [negb]; [reflexivity|].
  destruct (er_nocode r) eqn:NC; [reflexivity|]. exfalso. specialize (H i r (or_introl eq_refl) NC). apply existsb_In in H. congruence.
Qed.

Lemma index_fst : forall A (l : list A) i, map fst (index_from i l) = seq i (List.length l).
Proof. induction l as [|a l IH]; intros i; cbn; [reflexivity|now rewrite IH]. Qed.

Lemma all_nth_r : forall A (l : list A) i a, In (i, a) (index_from 0 l) <-> nth_error l i = Some a.
Proof. intros A l i a. rewrite index_from_nth. split; [intros (p & -> & H); exact H|intros H; exists i; split; [reflexivity|exact H]]. Qed.

(** * The theorem about the groups *)

(** Every rule has exactly one place in the switch: a case whose code is its own, or the default case, which is for rules without code only.
    The assert does not fail. *)
Theorem C65_switch : forall rules, exists gs d, rule_switch rules = Ok (gs, d) /\ Permutation (rlabels gs ++ d) (seq 0 (List.length rules)) /\
  (forall g i, In g gs -> In i (fst g) -> exists r, nth_error rules i = Some r /\ equal_code (snd g) r) /\
  (forall i, In i d -> exists r, nth_error rules i = Some r /\ er_nocode r = true) /\
  (forall g, In g gs -> er_nocode (snd g) = false /\ exists i l, fst g = i :: l /\ nth_error rules i = Some (snd g)).
Proof.
  intros rules. unfold rule_switch. destruct (rule_groups (index_from 0 rules) []) as (gs, done) eqn:E.
  destruct (rule_groups_ok _ _ _ _ (index_from_NoDup _ rules 0) (fun j a k b _ _ (H : In j []) => match H with end) E) as (H1 & H2 & H3 & H4 & H5 & H6).
  rewrite (default_rules_ok _ _ H4). cbn [bind]. eexists. eexists. split; [reflexivity|].
  assert (DI : forall i, In i (map fst (filter (fun x => negb (existsb (Nat.eqb (fst x)) done)) (index_from 0 rules))) <-> (exists r, nth_error rules i = Some r) /\ ~ In i done).
  { intros i. rewrite in_map_iff. split.
    - intros ((k & r) & <- & K). apply filter_In in K as (K1 & K2). apply all_nth_r in K1. split; [now exists r|]. cbn [fst] in *. intros K. apply existsb_In in K. rewrite K in K2. discriminate K2.
    - intros ((r & K1) & K2). exists (i, r). split; [reflexivity|]. apply filter_In. split; [now apply all_nth_r|]. cbn [fst]. destruct (existsb (Nat.eqb i) done) eqn:B; [|reflexivity]. now apply existsb_In in B. }
  split; [|split; [|split]].
  - apply NoDup_Permutation.
    + apply NoDup_app_iff. split; [exact H1|]. split; [apply filter_fst_NoDup, index_from_NoDup|]. intros i K1 K2. apply DI in K2 as (_ & K2). apply K2, H3. now right.
    + apply seq_NoDup.
    + intros i. rewrite in_app_iff, in_seq, DI. split.
      * intros [K|((r & K) & _)]; [destruct (H2 i K) as (_ & r & K'); apply all_nth_r in K'|rename K into K']; assert (i < List.length rules) by (apply nth_error_Some; congruence); lia.
      * intros K. destruct (nth_error rules i) as [r|] eqn:R; [|apply nth_error_None in R; lia]. destruct (in_dec Nat.eq_dec i done) as [D|D]; [|right; split; [now exists r|exact D]]. apply H3 in D as [[]|D]. now left.
  - intros g i G I. destruct (H6 g i G I) as (r & K1 & K2). exists r. split; [now apply all_nth_r|exact K2].
  - intros i K. apply DI in K as ((r & K1) & K2). exists r. split; [exact K1|]. destruct (er_nocode r) eqn:NC; [reflexivity|]. elim K2. apply (H4 i r); [now apply all_nth_r|exact NC].
  - intros g G. destruct (H5 g G) as (G1 & i & l & G2 & G3). split; [exact G1|]. exists i, l. split; [exact G2|now apply all_nth_r].
Qed.

(** * With translate_code *)

(** The rules as they reach the switch: the result of translate_code with the line and so on. *)
Definition emitted (t : trans) (line : nat) (text : txt) (never does : bool) : erule := mkEr (tr_code t) (tr_prefix t) (tr_suffix t) (tr_nocode t) line text never does.

Definition translated (td vd : bool) (c : crule) (r : erule) : Prop :=
  exists t line text never does, translate_code td vd c = Ok t /\ r = emitted t line text never does.

(** What running the case of a rule must do (C62): the values without label are destroyed, the code runs with its labels replaced. *)
Definition runs (td vd : bool) (c : crule) (pa : list wpiece) (pb : option (list wpiece)) (r : erule) : Prop :=
  er_code r = new_code c pa pb /\ er_prefix r = some_text (before td vd c) /\ er_suffix r = some_text (after td vd c (direct c pb)).

Theorem C65_rules : forall td vd crules rules, Forall2 (translated td vd) crules rules -> exists gs d, rule_switch rules = Ok (gs, d) /\
  forall i c pa pb, nth_error crules i = Some c -> rule_ok c -> laid_out c (code_of c) pa pb -> no_label_last c pa -> no_label_last c (later pb) ->
    (exists g, In g gs /\ In i (fst g) /\ runs td vd c pa pb (snd g)) /\ ~ In i d \/
    In i d /\ ~ In i (rlabels gs) /\ cr_code c = None /\ before td vd c = [] /\ after td vd c (direct c pb) = [].
Proof.
  intros td vd crules rules F. destruct (C65_switch rules) as (gs & d & E & P & G & D & _). exists gs, d. split; [exact E|]. intros i c pa pb I R LO NA NB.
  assert (TR : exists r, nth_error rules i = Some r /\ translated td vd c r).
  { clear - F I. revert i I. induction F as [|c0 r0 cs rs H F IH]; intros [|i] I; try discriminate I; cbn in I; [injection I as ->; now exists r0|exact (IH i I)]. }
  destruct TR as (r & RI & t & line & text & never & does & TC & ER). destruct (translate_ok td vd c pa pb R LO NA NB) as (t' & TC' & C1 & C2 & C3 & C4 & _). rewrite TC in TC'. injection TC' as <-.
  assert (ND : NoDup (rlabels gs ++ d)) by (apply (Permutation_NoDup (Permutation_sym P)), seq_NoDup). apply NoDup_app_iff in ND as (_ & _ & ND).
  assert (IN : In i (rlabels gs ++ d)). { apply (Permutation_in i (Permutation_sym P)), in_seq. assert (i < List.length rules) by (apply nth_error_Some; congruence). lia. }
  apply in_app_iff in IN as [IN|IN].
  - left. split; [|now apply ND]. unfold rlabels in IN. apply in_flat_map in IN as (g & G1 & G2). exists g. split; [exact G1|]. split; [exact G2|]. destruct (G g i G1 G2) as (r' & R1 & E1 & E2 & E3). assert (r' = r) by congruence. subst r'. subst r. unfold runs. cbn in E1, E2, E3.
    split; [congruence|]. split; congruence.
  - right. split; [exact IN|]. split; [intros K; exact (ND i K IN)|]. destruct (D i IN) as (r' & R1 & NC). assert (r' = r) by congruence. subst r'. subst r. now apply C4.
Qed.

(** * The text *)

(** One block: the destruction before the code, the code in braces, the rest. *)
Inductive block_is (e : emitopts) (r : erule) : txt -> Prop :=
| block_is_intro n : block_is e r (
    match er_prefix r with Some p => zs "{" ++ p | None => [] end ++
    (if eo_nolinenos e then [] else line_text (er_line r) (eo_filename e)) ++
    zs "{" ++ er_code r ++ zs "}" ++ [10%Z] ++
    (if eo_nolinenos e then [] else line_text n (eo_outname e)) ++
    match er_suffix r with Some p => p | None => [] end ++
    match er_prefix r with Some _ => zs "}" ++ [10%Z] | None => [] end).

Definition rcase (rules : list erule) (i : nat) : txt := zs "      case " ++ num (Z.of_nat i) ++ zs ": /* " ++ text_of rules i ++ zs " */".
Definition testcase (i : nat) : txt := zs " yytestcase(yyruleno==" ++ num (Z.of_nat i) ++ zs ");".
Definition default_comment (rules : list erule) (i : nat) : txt :=
  match nth_error rules i with
  | None => []
  | Some r => zs "      /* (" ++ num (Z.of_nat i) ++ zs ") " ++ er_text r ++
      (if er_never r then zs " (NEVER REDUCES) */ assert(yyruleno!=" ++ num (Z.of_nat i) ++ zs ");"
       else if er_does r then zs " */" ++ testcase i else zs " (OPTIMIZED OUT) */ assert(yyruleno!=" ++ num (Z.of_nat i) ++ zs ");") ++ [10%Z]
  end.

Inductive switch_is (e : emitopts) (rules : list erule) : list rgroup -> txt -> Prop :=
| sw_nil : switch_is e rules [] []
| sw_group i l r gs c t : block_is e r c -> switch_is e rules gs t ->
    switch_is e rules ((i :: l, r) :: gs) (rcase rules i ++ [10%Z] ++ flat_map (fun j => rcase rules j ++ testcase j ++ [10%Z]) l ++ c ++ zs "        break;" ++ [10%Z] ++ t).

(** Prefixes and suffixes are null or not empty, as C62 says. *)
Definition tidy (r : erule) : Prop := er_prefix r <> Some [] /\ er_suffix r <> Some [].

Lemma code_emits : forall e r o, tidy r -> exists c, o_text (emit_code e r o) = o_text o ++ c /\ block_is e r c.
Proof.
  intros e r o (TP & TS). pose proof (block_is_intro e r) as BI. unfold emit_code, back_to_out, tplt_linedir, nl in *. unfold line_text in BI.
  destruct (er_prefix r) as [[|c p]|]; [now elim TP| |]; (destruct (er_suffix r) as [[|c' p']|]; [now elim TS| |]); destruct (eo_nolinenos e); eexists; (split; [|eapply BI]); cbn [o_text o_line inc put]; rewrite <- ?app_assoc; rewrite ?app_nil_r; try reflexivity.
  Unshelve. all: exact 0.
Qed.

Lemma emit_rule_cases : forall rules dup o, (forall j, In j dup -> int_ok (Z.of_nat j)) ->
  o_text (fold_left (fun o j => inc 1 (put (zs "      case " ++ zdec (Z.of_nat j) ++ zs ": /* " ++ text_of rules j ++ zs " */ yytestcase(yyruleno==" ++ zdec (Z.of_nat j) ++ zs ");" ++ nl) o)) dup o) =
  o_text o ++ flat_map (fun j => rcase rules j ++ testcase j ++ [10%Z]) dup.
Proof.
  induction dup as [|j dup IH]; intros o H; cbn [fold_left flat_map]; [now rewrite app_nil_r|]. rewrite IH by (intros k K; apply H; now right). cbn [o_text inc put]. rewrite zdec_num by (apply H; now left). unfold rcase, testcase, nl. rewrite <- !app_assoc.
  do 5 f_equal.
Qed.

Lemma groups_text : forall e rules gs o, (forall g, In g gs -> tidy (snd g) /\ fst g <> [] /\ forall j, In j (fst g) -> int_ok (Z.of_nat j)) ->
  exists c, o_text (fold_left (fun o g => emit_rule_group e rules g o) gs o) = o_text o ++ c /\ switch_is e rules gs c.
Proof.
  induction gs as [|(l, r) gs IH]; intros o H; [exists []; split; [now rewrite app_nil_r|constructor]|]. cbn [fold_left]. destruct (H _ (or_introl eq_refl)) as (TD & NE & IO). cbn [fst snd] in *.
  destruct (IH (emit_rule_group e rules (l, r) o) (fun g G => H g (or_intror G))) as (c & C1 & C2). destruct l as [|i l]; [congruence|].
  set (o1 := fold_left (fun o j => inc 1 (put (zs "      case " ++ zdec (Z.of_nat j) ++ zs ": /* " ++ text_of rules j ++ zs " */ yytestcase(yyruleno==" ++ zdec (Z.of_nat j) ++ zs ");" ++ nl) o)) l
    (inc 1 (put (zs "      case " ++ zdec (Z.of_nat i) ++ zs ": /* " ++ text_of rules i ++ zs " */" ++ nl) o))).
  assert (EG : emit_rule_group e rules (i :: l, r) o = inc 1 (put (zs "        break;" ++ nl) (emit_code e r o1))) by reflexivity.
  assert (T1 : o_text o1 = o_text o ++ rcase rules i ++ [10%Z] ++ flat_map (fun j => rcase rules j ++ testcase j ++ [10%Z]) l).
  { unfold o1. rewrite emit_rule_cases by (intros j J; apply IO; now right). cbn [o_text inc put]. rewrite zdec_num by (apply IO; now left). unfold rcase, nl. now rewrite <- !app_assoc. }
  destruct (code_emits e r o1 TD) as (b & B1 & B2). eexists. split; [|apply (sw_group e rules i l r gs b c B2 C2)]. rewrite C1, EG. cbn [o_text inc put]. rewrite B1, T1. unfold nl. now rewrite <- !app_assoc.
Qed.

Lemma default_text : forall rules d o, (forall j, In j d -> int_ok (Z.of_nat j)) -> o_text (fold_left (emit_default rules) d o) = o_text o ++ flat_map (default_comment rules) d.
Proof.
  induction d as [|i d IH]; intros o H; cbn [fold_left flat_map]; [now rewrite app_nil_r|]. rewrite IH by (intros k K; apply H; now right). unfold emit_default, default_comment, testcase. destruct (nth_error rules i) as [r|]; [|reflexivity].
  rewrite zdec_num by (apply H; now left). unfold nl. destruct (er_never r), (er_does r); cbn [o_text inc put]; now rewrite <- !app_assoc.
Qed.

(** The cases with their blocks, then the default case, which does nothing. *)
Theorem C65_text : forall e rules lhsminor o, (Z.of_nat (List.length rules) < 2 ^ 31)%Z -> Forall tidy rules ->
  exists gs d o' c, rule_switch rules = Ok (gs, d) /\ emit_rules e rules lhsminor o = Ok o' /\ switch_is e rules gs c /\
    o_text o' = o_text o ++ (if lhsminor then zs "        YYMINORTYPE yylhsminor;" ++ [10%Z] else []) ++ c ++ zs "      default:" ++ [10%Z] ++ flat_map (default_comment rules) d ++ zs "        break;" ++ [10%Z].
Proof.
  intros e rules lm o SM TD. destruct (C65_switch rules) as (gs & d & E & P & G & _ & G2).
  assert (IO : forall i, In i (rlabels gs ++ d) -> int_ok (Z.of_nat i)). { intros i I. apply (Permutation_in i P), in_seq in I. unfold int_ok. lia. }
  unfold emit_rules. rewrite E. cbn [bind fst snd]. set (o1 := if lm then _ else _).
  destruct (groups_text e rules gs o1) as (c & C1 & C2).
  { intros g GI. destruct (G2 g GI) as (_ & i & l & F & N). split; [rewrite Forall_forall in TD; apply TD; exact (nth_error_In _ _ N)|]. split; [rewrite F; discriminate|]. intros j J. apply IO, in_app_iff. left. unfold rlabels. apply in_flat_map. now exists g. }
  exists gs, d. eexists. exists c. split; [reflexivity|]. split; [reflexivity|]. split; [exact C2|]. cbn [o_text inc put]. rewrite default_text by (intros j J; apply IO, in_app_iff; now right). cbn [o_text inc put]. rewrite C1.
  assert (O1 : o_text o1 = o_text o ++ (if lm then zs "        YYMINORTYPE yylhsminor;" ++ [10%Z] else [])) by (unfold o1; destruct lm; [reflexivity|now rewrite app_nil_r]). rewrite O1. unfold nl. now rewrite <- !app_assoc.
Qed.

(** * Examples *)

(** Three rules with code, two of them the same, and two without; tokens have a destructor, so the rule with the unlabelled token x ::= A. has something to run. *)
Definition ex65 : list crule :=
  [mkRule (nt 4 20 false) (Some (zs "A")) [(nt 4 20 false, Some (zs "B")); (nt 4 21 false, Some (zs "C"))] (Some (zs "A=B+C;"));
   mkRule (nt 4 22 false) (Some (zs "Q")) [(nt 4 23 false, Some (zs "R")); (nt 4 21 false, Some (zs "S"))] (Some (zs "Q=R+S;"));
   mkRule (nt 4 22 false) None [(nt 4 23 false, None)] None;
   mkRule (nt 4 22 false) None [(tm 3, None)] None;
   mkRule (nt 4 22 false) None [] None].
Definition ex65t : list trans := Eval vm_compute in map (fun c => match translate_code true false c with Ok t => t | _ => mkTrans [] None None true [] false end) ex65.
Definition ex65r : list erule := map (fun t => emitted t 7 (zs "x ::= y") false true) ex65t.
Definition ex65e : emitopts := mkEo (Some (zs "free($$);")) None false (zs "g.y") (zs "g.c").

Example C65_hypotheses : Forall2 (translated true false) ex65 ex65r /\ Forall tidy ex65r /\ rule_switch ex65r = Ok ([([0; 1], nth 0 ex65r (mkEr [] None None true 0 [] true true)); ([3], nth 3 ex65r (mkEr [] None None true 0 [] true true))], [2; 4]) /\
  exists o, emit_rules ex65e ex65r true (mkOut [] 1) = Ok o /\ strstr (o_text o) (zs "      case 3: /* x ::= y */
{  yy_destructor(yypParser,3,&yymsp[0].minor);
#line 7 ""g.y""
{
}
#line 15 ""g.c""
}
        break;
") <> None.
Proof.
  split; [|split; [|split]].
  - repeat constructor; eexists; exists 7, (zs "x ::= y"), false, true; (split; [|reflexivity]); vm_compute; reflexivity.
  - repeat constructor; discriminate.
  - vm_compute. reflexivity.
  - eexists. split; [vm_compute; reflexivity|]. vm_compute. discriminate.
Qed.

(** * What does not hold *)

(** CompressTables looks at noCode before translate_code has found out that a rule without code must destroy the value of its symbol.  With
    s ::= x A. {..}   y ::= B. {..}   x ::= y.   %destructor y {..}
    the switch has a case for x ::= y. that destroys the value of y, but the parser never reduces by that rule, and the value is not destroyed
    at all. *)
Definition exg65 : grammar := mkGrammar 3 6 [SpecGrammar.mkRule 3 [ESym 4; ESym 1]; SpecGrammar.mkRule 5 [ESym 2]; SpecGrammar.mkRule 4 [ESym 5]] 3.
Definition exo65 : opts := mkOpts false false true (mkPrecs (fun _ => None) (fun _ => UNK)) [None; None; None] [false; false; true] None None None (fun _ i => i) (fun _ i => i).
Definition exc65 : gen := Eval vm_compute in get_gen (lemon_generate 100 100 100 exo65 exg65).

Theorem C65_unit_refuted : exists t p p', translate_code false false (mkRule (nt 1 4 false) None [(nt 1 5 true, None)] None) = Ok t /\
  tr_nocode t = false /\ tr_prefix t = Some (destroy (nt 1 5 true) 0) /\
  lemon_generate 100 100 100 exo65 exg65 = Ok exc65 /\ feed exc65 (fun _ => None) 50 (ParseInit 20) [2; 1]%Z 1 = Ok p /\ Parse exc65 (fun _ => None) 50 p 0 (Tok 0) = Ok p' /\
  In EvAccept (p_log p') /\ reductions (p_log p') = [1; 0]%Z /\ (forall m v, ~ In (EvDestroy m v) (p_log p')).
Proof.
  do 3 eexists. split; [vm_compute; reflexivity|]. split; [reflexivity|]. split; [vm_compute; reflexivity|]. split; [vm_compute; reflexivity|]. split; [vm_compute; reflexivity|]. split; [vm_compute; reflexivity|].
  split; [vm_compute; tauto|]. split; [vm_compute; reflexivity|]. intros m v. vm_compute. intuition discriminate.
Qed.

Print Assumptions C65_switch.
Print Assumptions C65_rules.
Print Assumptions C65_text.
Print Assumptions C65_unit_refuted.
