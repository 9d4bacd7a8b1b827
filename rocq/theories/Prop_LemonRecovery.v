(** C61: which syntax errors the driver lempar.c reports and how it recovers, for every table. *)
From Coq Require Import List ZArith Bool Lia.
Import ListNotations.
From Verif Require Import Base SpecGrammar SpecGrammarFacts LemonActionModel LemonReportModel LemonParModel LemonParProof LemonPipelineModel.
Local Open Scope res_scope.
Local Open Scope Z_scope.

(** ** Which errors are reported *)

(** An event that only a syntax error causes (in a run without overflow): a value is
    destroyed, the parse fails, or the error symbol is shifted. *)
Definition error_event (es : option Z) (ev : event) : bool :=
  match ev with
  | EvDestroy _ _ | EvFail => true
  | EvShift m _ => match es with Some s => m =? s | None => false end
  | _ => false
  end.

(** How many tokens were shifted since the last error; [None] if there was none since the
    start, the last acceptance or (without an error symbol) the last failure. *)
Fixpoint since (es : option Z) (log : list event) : option nat :=
  match log with
  | [] => None
  | EvAccept :: _ => None
  | EvFail :: r => match es with None => None | Some _ => Some 0%nat end
  | ev :: r =>
      if error_event es ev then Some 0%nat
      else match ev with EvShift _ _ => option_map S (since es r) | _ => since es r end
  end.

(** The tokens to be shifted before another error is reported. *)
Definition silence (es : option Z) : nat := match es with Some _ => 4 | None => 3 end.
Definition reportable (es : option Z) (w : option nat) : bool :=
  match w with None => true | Some n => (silence es <=? n)%nat end.

Section Reports.
Variable c : gen.
Variable grow : Z -> option Z.
Variable major : Z.
Variable minor : tree.
Let es := g_errsym c.
Hypothesis TK : es <> Some major.

Definition counts (p : parser) : Prop :=
  match since es (p_log p) with None => p_errcnt p < 0 | Some n => p_errcnt p = 3 - Z.of_nat n end.

Lemma counts_report : forall p, counts p ->
  (match es with Some _ => p_errcnt p <? 0 | None => p_errcnt p <=? 0 end) = reportable es (since es (p_log p)).
Proof.
  intros p H. unfold counts in H. destruct (since es (p_log p)) as [n|]; cbn [reportable].
  - unfold silence. rewrite H. destruct es.
    + destruct (Nat.leb_spec 4 n); [apply Z.ltb_lt; lia|apply Z.ltb_ge; lia].
    + destruct (Nat.leb_spec 3 n); [apply Z.leb_le; lia|apply Z.leb_gt; lia].
  - destruct es; [apply Z.ltb_lt|apply Z.leb_le]; lia.
Qed.

(** Events that change nothing. *)
Definition plain (ev : event) : Prop := match ev with EvReduce _ _ | EvOob => True | _ => False end.
Lemma since_plain : forall new l, Forall plain new -> since es (new ++ l) = since es l.
Proof.
  induction new as [|x new IH]; intros l F; [reflexivity|]. inversion F; subst. cbn [app since].
  destruct x; cbn [plain error_event] in *; try contradiction; now apply IH.
Qed.

(** What a call adds to the log. *)
Definition failed (new : list event) : bool := existsb (error_event es) new.
Definition reports (new : list event) : list event := filter (fun ev => match ev with EvSyntaxError _ _ => true | _ => false end) new.

Lemma failed_app : forall a b, failed (a ++ b) = failed a || failed b.
Proof. intros. apply existsb_app. Qed.
Lemma reports_app : forall a b, reports (a ++ b) = reports a ++ reports b.
Proof. intros. apply filter_app. Qed.
Lemma plain_failed : forall l, Forall plain l -> failed l = false /\ reports l = [].
Proof. induction 1 as [|x l P _ (A & B)]; [auto|]. cbn. destruct x; cbn in P; try contradiction; auto. Qed.
Lemma destroys_reports : forall l, reports (destroys l) = [].
Proof.
  intros l. destruct (reports (destroys l)) as [|ev t] eqn:E; [auto|]. assert (I : In ev (reports (destroys l))) by (rewrite E; now left).
  apply filter_In in I. destruct I as (I & EV). unfold destroys in I. apply in_rev, in_map_iff in I. destruct I as (x & <- & _). discriminate.
Qed.
Lemma oob_plain : forall b : bool, Forall plain (if b then [EvOob] else []).
Proof. intros []; repeat constructor. Qed.

(** The first part of the error branch: the report. *)
Definition reported (p p0 : parser) : Prop :=
  p_log p0 = (if reportable es (since es (p_log p)) then [EvSyntaxError major minor] else []) ++ p_log p /\
  p_stack p0 = p_stack p /\ p_errcnt p0 = p_errcnt p.
Lemma reported_some : forall p p0, counts p -> es <> None ->
  p0 = (if p_errcnt p <? 0 then logev p (EvSyntaxError major minor) else p) -> reported p p0.
Proof.
  intros p p0 CN ES E. pose proof (counts_report p CN) as CR. unfold reported. destruct es as [e|]; [|congruence]. rewrite CR in E. subst p0.
  destruct (reportable (Some e) (since (Some e) (p_log p))); auto.
Qed.
Lemma reported_none : forall p p0, counts p -> es = None ->
  p0 = (if p_errcnt p <=? 0 then logev p (EvSyntaxError major minor) else p) -> reported p p0.
Proof.
  intros p p0 CN ES E. pose proof (counts_report p CN) as CR. unfold reported. destruct es as [e|]; [congruence|]. rewrite CR in E. subst p0.
  destruct (reportable None (since None (p_log p))); auto.
Qed.
Lemma report_reports : forall b : bool, reports (if b then [EvSyntaxError major minor] else []) = if b then [EvSyntaxError major minor] else [].
Proof. intros []; reflexivity. Qed.

Lemma after_fail : forall a b (r : bool), let new := EvFail :: destroys a ++ EvDestroy major minor :: destroys b ++ (if r then [EvSyntaxError major minor] else []) in
  reports new = if failed new && r then [EvSyntaxError major minor] else [].
Proof.
  intros a b r new. subst new. change (failed (EvFail :: ?l)) with true. change (reports (EvFail :: ?l)) with (reports l). cbn [andb].
  rewrite reports_app, destroys_reports. change (reports (EvDestroy major minor :: ?l)) with (reports l). rewrite reports_app, destroys_reports. apply report_reports.
Qed.

Lemma run_log : forall p hit p', run c grow major minor p hit p' -> p_stack p <> [] -> exists new, p_log p' = new ++ p_log p.
Proof.
  intros p hit p' R. induction R; intros NE.
  - apply reduce_ok in H3. destruct H3 as (k & lhs & below & _ & _ & _ & _ & _ & _ & E).
    destruct IHR as (new & EN); [rewrite E; discriminate|]. rewrite EN, E. cbn [p_log]. rewrite app_comm_cons, app_assoc. eauto.
  - apply reduce_ok in H4. destruct H4 as (k & lhs & below & _ & _ & _ & _ & _ & _ & E).
    destruct IHR as (new & EN); [rewrite E; discriminate|]. rewrite EN, E. cbn [p_log with_cap]. rewrite app_comm_cons, app_assoc. eauto.
  - destruct (overflow_ok _ _ H4 NE) as (ab & b & E & ->). cbn [p_log]. rewrite app_comm_cons. eauto.
  - apply shift_ok in H2. cbv zeta in H2. destruct H2 as [(cap & _ & ->)|(_ & _ & H2)]; [|destruct (overflow_ok _ _ H2 NE) as (ab & b & E & ->)];
      cbn [p_log with_errcnt]; rewrite app_comm_cons; eauto.
  - exists [EvAccept]. reflexivity.
  - subst p0. destruct (p_errcnt p <? 0); [exists [EvDestroy major minor; EvSyntaxError major minor]|exists [EvDestroy major minor]]; reflexivity.
  - assert (NE0 : p_stack p0 <> [] /\ exists n0, p_log p0 = n0 ++ p_log p).
    { subst p0. destruct (p_errcnt p <? 0); (split; [exact NE|]); [exists [EvSyntaxError major minor]|exists []]; reflexivity. }
    destruct NE0 as (NE0 & n0 & RL). destruct (error_pop_ok _ _ _ _ _ _ _ H7 NE0) as (ab & rest & E & NR & EP1).
    assert (NE1 : p_stack (logev p1 (EvDestroy major minor)) <> []) by (rewrite EP1; auto).
    destruct (failed_ok _ _ H9 NE1) as (ab2 & b & EE & EP2).
    exists (EvFail :: destroys ab2 ++ EvDestroy major minor :: destroys ab ++ n0).
    cbn [with_errcnt p_log]; rewrite EP2; cbn [p_log logev]; rewrite EP1; cbn [p_log]; rewrite RL;
      cbn [app]; rewrite <- app_assoc; cbn [app]; rewrite <- app_assoc; reflexivity.
  - assert (NE0 : p_stack p0 <> [] /\ exists n0, p_log p0 = n0 ++ p_log p).
    { subst p0. destruct (p_errcnt p <? 0); (split; [exact NE|]); [exists [EvSyntaxError major minor]|exists []]; reflexivity. }
    destruct NE0 as (NE0 & n0 & RL). destruct (error_pop_ok _ _ _ _ _ _ _ H7 NE0) as (ab & rest & E & NR & EP1).
    assert (NE1 : p_stack p1 <> []) by (rewrite EP1; auto).
    apply shift_ok in H10. cbv zeta in H10. destruct H10 as [(cap & _ & EP2)|(_ & _ & H10)].
    + destruct IHR as (new & EN); [rewrite EP2; discriminate|]. rewrite EN, EP2. cbn [with_errcnt p_log]. rewrite EP1. cbn [p_log p_stack]. rewrite RL.
      rewrite app_comm_cons, !app_assoc. eauto.
    + destruct (overflow_ok _ _ H10 NE1) as (ab2 & b & EE & EP2). destruct IHR as (new & EN); [rewrite EP2; discriminate|].
      rewrite EN, EP2. cbn [with_errcnt p_log]. rewrite EP1. cbn [p_log p_stack]. rewrite RL. rewrite app_comm_cons, !app_assoc. eauto.
  - subst p0. destruct (p_errcnt p <=? 0); [exists [EvDestroy major minor; EvSyntaxError major minor]|exists [EvDestroy major minor]]; reflexivity.
  - assert (NE0 : p_stack p0 <> [] /\ exists n0, p_log p0 = n0 ++ p_log p).
    { subst p0. destruct (p_errcnt p <=? 0); (split; [exact NE|]); [exists [EvSyntaxError major minor]|exists []]; reflexivity. }
    destruct NE0 as (NE0 & n0 & RL).
    destruct (failed_ok _ _ H5 ltac:(exact NE0)) as (ab2 & b & EE & EP2).
    exists (EvFail :: destroys ab2 ++ EvDestroy major minor :: n0). cbn [with_errcnt p_log]. rewrite EP2. cbn [p_log logev with_errcnt]. rewrite RL.
    cbn [app]. rewrite <- app_assoc. reflexivity.
Qed.

Lemma run_stack : forall p hit p', run c grow major minor p hit p' -> p_stack p <> [] -> p_stack p' <> [].
Proof.
  intros p hit p' R. induction R; intros NE.
  - apply IHR. apply reduce_ok in H3. destruct H3 as (k & lhs & below & _ & _ & _ & _ & _ & _ & ->). discriminate.
  - apply IHR. apply reduce_ok in H4. destruct H4 as (k & lhs & below & _ & _ & _ & _ & _ & _ & ->). discriminate.
  - destruct (overflow_ok _ _ H4 NE) as (ab & b & E & ->). discriminate.
  - apply shift_ok in H2. cbv zeta in H2. destruct H2 as [(cap & _ & ->)|(_ & _ & H2)]; [discriminate|].
    destruct (overflow_ok _ _ H2 NE) as (ab & b & E & ->). discriminate.
  - discriminate.
  - subst p0. destruct (p_errcnt p <? 0); exact NE.
  - assert (NE0 : p_stack p0 <> []) by (subst p0; destruct (p_errcnt p <? 0); exact NE).
    destruct (error_pop_ok _ _ _ _ _ _ _ H7 NE0) as (ab & rest & E & NR & EP1).
    destruct (failed_ok _ _ H9) as (ab2 & b & EE & EP2); [rewrite EP1; exact NR|]. rewrite EP2. discriminate.
  - assert (NE0 : p_stack p0 <> []) by (subst p0; destruct (p_errcnt p <? 0); exact NE).
    destruct (error_pop_ok _ _ _ _ _ _ _ H7 NE0) as (ab & rest & E & NR & EP1).
    apply IHR. apply shift_ok in H10. cbv zeta in H10. destruct H10 as [(cap & _ & ->)|(_ & _ & H10)]; [discriminate|].
    destruct (overflow_ok _ _ H10) as (ab2 & b & EE & ->); [rewrite EP1; exact NR|discriminate].
  - subst p0. destruct (p_errcnt p <=? 0); exact NE.
  - assert (NE0 : p_stack p0 <> []) by (subst p0; destruct (p_errcnt p <=? 0); exact NE).
    destruct (failed_ok _ _ H5 NE0) as (ab2 & b & EE & EP2). rewrite EP2. discriminate.
Qed.

Lemma run_reports : forall p hit p', run c grow major minor p hit p' -> counts p -> p_stack p <> [] ->
  exists new, p_log p' = new ++ p_log p /\ (~ In EvOverflow new ->
    counts p' /\ p_stack p' <> [] /\ reports new = if failed new && reportable es (since es (p_log p)) then [EvSyntaxError major minor] else []).
Proof.
  intros p hit p' R. induction R; intros CN NE.
  - apply reduce_ok in H3. destruct H3 as (k & lhs & below & _ & _ & _ & _ & _ & _ & E).
    assert (EL : exists d, p_log p1 = d ++ p_log p /\ Forall plain d /\ p_errcnt p1 = p_errcnt p /\ p_stack p1 <> []).
    { rewrite E. eexists. split; [cbn [p_log]; rewrite app_comm_cons; reflexivity|]. split; [constructor; [exact Logic.I|apply oob_plain]|]. split; [reflexivity|discriminate]. }
    destruct EL as (d & EL & PD & EE & NE1).
    destruct IHR as (new & EN & K); [unfold counts; rewrite EL, since_plain, EE by exact PD; exact CN|exact NE1|].
    exists (new ++ d). split; [rewrite EN, EL, app_assoc; reflexivity|]. intros NO.
    destruct K as (K1 & K2 & K3); [intros I; apply NO, in_or_app; auto|]. split; [exact K1|]. split; [exact K2|].
    destruct (plain_failed _ PD) as (D1 & D2). rewrite reports_app, failed_app, D1, D2, orb_false_r, app_nil_r, K3, EL, since_plain by exact PD. reflexivity.
  - apply reduce_ok in H4. destruct H4 as (k & lhs & below & _ & _ & _ & _ & _ & _ & E).
    assert (EL : exists d, p_log p1 = d ++ p_log p /\ Forall plain d /\ p_errcnt p1 = p_errcnt p /\ p_stack p1 <> []).
    { rewrite E. eexists. split; [cbn [p_log with_cap]; rewrite app_comm_cons; reflexivity|]. split; [constructor; [exact Logic.I|apply oob_plain]|]. split; [reflexivity|discriminate]. }
    destruct EL as (d & EL & PD & EE & NE1).
    destruct IHR as (new & EN & K); [unfold counts; rewrite EL, since_plain, EE by exact PD; exact CN|exact NE1|].
    exists (new ++ d). split; [rewrite EN, EL, app_assoc; reflexivity|]. intros NO.
    destruct K as (K1 & K2 & K3); [intros I; apply NO, in_or_app; auto|]. split; [exact K1|]. split; [exact K2|].
    destruct (plain_failed _ PD) as (D1 & D2). rewrite reports_app, failed_app, D1, D2, orb_false_r, app_nil_r, K3, EL, since_plain by exact PD. reflexivity.
  - destruct (overflow_ok _ _ H4 NE) as (ab & b & E & ->). eexists. split; [cbn [p_log]; rewrite app_comm_cons; reflexivity|].
    intros NO. elim NO. now left.
  - apply shift_ok in H2. cbv zeta in H2. destruct H2 as [(cap & _ & ->)|(_ & _ & H2)].
    + eexists. split; [cbn [p_log with_errcnt]; rewrite app_comm_cons; reflexivity|]. intros _.
      assert (NS : error_event es (EvShift major minor) = false).
      { cbn. destruct es as [s|] eqn:E; [|auto]. apply Z.eqb_neq. congruence. }
      split; [|split; [discriminate|]].
      * unfold counts in *. cbn [with_errcnt p_log p_errcnt since]. rewrite NS, since_plain by apply oob_plain.
        destruct (since es (p_log p)); cbn [option_map]; lia.
      * destruct (plain_failed _ (oob_plain (cap <=? lenz (p_stack p)))) as (D1 & D2). unfold reports, failed in *. cbn [existsb filter].
        rewrite NS, D1, D2. reflexivity.
    + destruct (overflow_ok _ _ H2 NE) as (ab & b & E & ->). eexists. split; [cbn [p_log with_errcnt]; rewrite app_comm_cons; reflexivity|].
      intros NO. elim NO. now left.
  - exists [EvAccept]. split; [reflexivity|]. intros _. split; [cbn; lia|]. split; [discriminate|]. reflexivity.
  - destruct (reported_some p p0 CN ltac:(unfold es; congruence) H5) as (RL & RS & RE).
    eexists. split; [cbn [with_errcnt logev p_log]; rewrite RL, app_comm_cons; reflexivity|]. intros _.
    split; [unfold counts; cbn; lia|]. split; [cbn; now rewrite RS|].
    change (reports (if reportable es (since es (p_log p)) then [EvSyntaxError major minor] else []) = if true && reportable es (since es (p_log p)) then [EvSyntaxError major minor] else []).
    apply report_reports.
  - destruct (reported_some p p0 CN ltac:(unfold es; congruence) H6) as (RL & RS & RE).
    assert (NE0 : p_stack p0 <> []) by now rewrite RS.
    destruct (error_pop_ok _ _ _ _ _ _ _ H7 NE0) as (ab & rest & E & NR & EP1).
    assert (NE1 : p_stack (logev p1 (EvDestroy major minor)) <> []) by (rewrite EP1; auto).
    destruct (failed_ok _ _ H9 NE1) as (ab2 & b & EE & EP2).
    exists (EvFail :: destroys ab2 ++ EvDestroy major minor :: destroys ab ++ (if reportable es (since es (p_log p)) then [EvSyntaxError major minor] else [])).
    split; [cbn [with_errcnt p_log]; rewrite EP2; cbn [p_log logev]; rewrite EP1; cbn [p_log]; rewrite RL;
      cbn [app]; rewrite <- app_assoc; cbn [app]; rewrite <- app_assoc; reflexivity|]. intros _.
    assert (EL : p_log (with_errcnt p2 3) = EvFail :: destroys ab2 ++ p_log (logev p1 (EvDestroy major minor))) by (cbn [with_errcnt p_log]; rewrite EP2; reflexivity).
    split; [unfold counts; rewrite EL; cbn [since]; unfold es; rewrite H2; cbn; lia|]. split; [cbn; rewrite EP2; discriminate|].
    rewrite after_fail. reflexivity.
  - destruct (reported_some p p0 CN ltac:(unfold es; congruence) H6) as (RL & RS & RE).
    assert (NE0 : p_stack p0 <> []) by now rewrite RS.
    destruct (error_pop_ok _ _ _ _ _ _ _ H7 NE0) as (ab & rest & E & NR & EP1).
    assert (NE1 : p_stack p1 <> []) by (rewrite EP1; auto).
    apply shift_ok in H10. cbv zeta in H10. destruct H10 as [(cap & _ & EP2)|(_ & _ & H10)].
    + assert (SE : error_event es (EvShift es0 minor) = true) by (cbn; unfold es; rewrite H2; apply Z.eqb_refl).
      assert (EL : p_log (with_errcnt p2 3) = EvShift es0 minor :: (if cap <=? lenz (p_stack p1) then [EvOob] else []) ++ destroys ab ++
                    (if reportable es (since es (p_log p)) then [EvSyntaxError major minor] else []) ++ p_log p).
      { rewrite EP2. cbn [with_errcnt p_log]. rewrite EP1. cbn [p_log p_stack]. rewrite RL. reflexivity. }
      assert (SC : since es (p_log (with_errcnt p2 3)) = Some 0%nat) by (rewrite EL; cbn [since]; rewrite SE; reflexivity).
      destruct IHR as (new & EN & K); [unfold counts; rewrite SC; reflexivity|rewrite EP2; discriminate|].
      exists (new ++ EvShift es0 minor :: (if cap <=? lenz (p_stack p1) then [EvOob] else []) ++ destroys ab ++ (if reportable es (since es (p_log p)) then [EvSyntaxError major minor] else [])).
      split; [rewrite EN, EL, <- app_assoc; cbn [app]; rewrite <- !app_assoc; reflexivity|]. intros NO.
      destruct K as (K1 & K2 & K3); [intros I; apply NO, in_or_app; auto|]. split; [exact K1|]. split; [exact K2|].
      rewrite SC in K3. replace (reportable es (Some 0%nat)) with false in K3 by (cbn; unfold silence; destruct es; reflexivity). rewrite andb_false_r in K3.
      rewrite reports_app, failed_app, K3. cbn [app]. change (failed (EvShift es0 minor :: ?l)) with (error_event es (EvShift es0 minor) || failed l).
      rewrite SE. cbn [orb]. rewrite orb_true_r. cbn [andb]. change (reports (EvShift es0 minor :: ?l)) with (reports l).
      rewrite !reports_app, destroys_reports, (proj2 (plain_failed _ (oob_plain _))). apply report_reports.
    + destruct (overflow_ok _ _ H10 NE1) as (ab2 & b & EE & EP2).
      assert (EL : p_log (with_errcnt p2 3) = EvOverflow :: destroys ab2 ++ destroys ab ++
                    (if reportable es (since es (p_log p)) then [EvSyntaxError major minor] else []) ++ p_log p).
      { rewrite EP2. cbn [with_errcnt p_log]. rewrite EP1. cbn [p_log p_stack]. rewrite RL. reflexivity. }
      destruct (run_log _ _ _ R) as (new & EN); [rewrite EP2; discriminate|].
      exists (new ++ EvOverflow :: destroys ab2 ++ destroys ab ++ (if reportable es (since es (p_log p)) then [EvSyntaxError major minor] else [])).
      split; [rewrite EN, EL, <- app_assoc; cbn [app]; rewrite <- !app_assoc; reflexivity|]. intros NO. elim NO. apply in_or_app. right. now left.
  - destruct (reported_none p p0 CN ltac:(unfold es; congruence) H4) as (RL & RS & RE).
    eexists. split; [cbn [with_errcnt logev p_log]; rewrite RL, app_comm_cons; reflexivity|]. intros _.
    split; [unfold counts; cbn; lia|]. split; [cbn; now rewrite RS|].
    change (reports (if reportable es (since es (p_log p)) then [EvSyntaxError major minor] else []) = if true && reportable es (since es (p_log p)) then [EvSyntaxError major minor] else []).
    apply report_reports.
  - destruct (reported_none p p0 CN ltac:(unfold es; congruence) H4) as (RL & RS & RE).
    assert (NE1 : p_stack (logev (with_errcnt p0 3) (EvDestroy major minor)) <> []) by (cbn; now rewrite RS).
    destruct (failed_ok _ _ H5 NE1) as (ab2 & b & EE & EP2).
    exists (EvFail :: destroys ab2 ++ EvDestroy major minor :: destroys [] ++ (if reportable es (since es (p_log p)) then [EvSyntaxError major minor] else [])).
    split; [cbn [with_errcnt p_log]; rewrite EP2; cbn [p_log logev with_errcnt]; rewrite RL;
      cbn [app]; rewrite <- app_assoc; reflexivity|]. intros _.
    assert (EL : p_log (with_errcnt p2 (-1)) = EvFail :: destroys ab2 ++ p_log (logev (with_errcnt p0 3) (EvDestroy major minor))) by (cbn [with_errcnt p_log]; rewrite EP2; reflexivity).
    split; [unfold counts; rewrite EL; cbn [since]; unfold es; rewrite H2; cbn; lia|]. split; [cbn; rewrite EP2; discriminate|].
    rewrite after_fail. reflexivity.
Qed.
End Reports.

Lemma feed_counts : forall c grow fuel toks p id p', Forall (fun m => g_errsym c <> Some m) toks ->
  feed c grow fuel p toks id = Ok p' -> p_stack p <> [] -> exists new, p_log p' = new ++ p_log p /\
    (~ In EvOverflow new -> counts c p -> counts c p' /\ p_stack p' <> []).
Proof.
  intros c grow fuel toks. induction toks as [|m toks IH]; intros p id p' F H NE; cbn [feed] in H.
  - inversion H; subst. exists []. auto.
  - inversion F; subst. apply bind_Ok in H. destruct H as (p1 & HP & H). pose proof (Parse_run _ _ _ _ _ _ _ HP) as R.
    destruct (run_log c grow m _ p false p1 R NE) as (n1 & E1).
    assert (NE1 : p_stack p1 <> []) by (eapply run_stack; eauto).
    destruct (IH p1 _ _ H3 H NE1) as (n2 & E2 & K). exists (n2 ++ n1). split; [rewrite E2, E1, app_assoc; reflexivity|].
    intros NO CN. apply K; [intros I; apply NO, in_or_app; auto|].
    destruct (run_reports c grow m _ H2 p false p1 R CN NE) as (n1' & E1' & K1). rewrite E1 in E1'. apply app_inv_tail in E1'. subst n1'.
    apply K1. intros I. apply NO, in_or_app. auto.
Qed.

(** In a call of Parse at most one error is reported, with the token of the call: there
    is a report exactly if an error happens in the call and the last error before the
    call is far enough away. *)
Theorem C61_reported : forall c grow fuel cap toks p m v p',
  Forall (fun m => g_errsym c <> Some m) (m :: toks) ->
  feed c grow fuel (ParseInit cap) toks 1 = Ok p -> Parse c grow fuel p m v = Ok p' -> ~ In EvOverflow (p_log p') ->
  exists new, p_log p' = new ++ p_log p /\
    filter (fun ev => match ev with EvSyntaxError _ _ => true | _ => false end) new =
      if existsb (error_event (g_errsym c)) new && reportable (g_errsym c) (since (g_errsym c) (p_log p))
      then [EvSyntaxError m v] else [].
Proof.
  intros c grow fuel cap toks p m v p' F HF HP NO. inversion F; subst.
  destruct (feed_counts c grow fuel toks (ParseInit cap) 1 p H2 HF ltac:(discriminate)) as (n0 & E0 & K0).
  pose proof (Parse_run _ _ _ _ _ _ _ HP) as R.
  assert (NE : p_stack p <> []) by (intros E; unfold Parse, top in HP; rewrite E in HP; discriminate).
  destruct (run_log c grow m v p false p' R NE) as (n1 & E1).
  assert (CN : counts c p).
  { apply K0; [|unfold counts; cbn; lia]. intros I. apply NO. rewrite E1, E0. apply in_or_app. right. apply in_or_app. auto. }
  destruct (run_reports c grow m v H1 p false p' R CN NE) as (new & EN & K). exists new. split; [exact EN|].
  apply K. intros I. apply NO. rewrite EN. apply in_or_app. auto.
Qed.
Print Assumptions C61_reported.

(** ** Where recovery goes *)

(** The tables have an action for the error symbol in this state that is a shift or a
    shift-reduce. *)
Definition shifts_error (c : gen) (es : Z) (x : entry) (a : Z) : Prop :=
  yy_find_reduce_action c (e_state x) es = Ok a /\ a <= YY_MAX_SHIFTREDUCE (g_tab c).

Lemma error_pop_spec : forall c f p es a0 p' a, error_pop c f p es a0 = Ok (p', a) -> p_stack p <> [] ->
  exists i, (i < length (p_stack p))%nat /\
    p' = mkParser (skipn i (p_stack p)) (p_errcnt p) (p_cap p) (destroys (firstn i (p_stack p)) ++ p_log p) /\
    (forall j y b, (j < i)%nat -> nth_error (p_stack p) j = Some y -> ~ shifts_error c es y b) /\
    (S i = length (p_stack p) \/ (S i < length (p_stack p))%nat /\ exists x, nth_error (p_stack p) i = Some x /\ shifts_error c es x a).
Proof.
  induction f as [|f IH]; intros p es a0 p' a H NE; cbn [error_pop] in H.
  - destruct (tos_idx p <=? 0) eqn:ET; [|discriminate]. assert (p' = p) by congruence. subst p'. exists 0%nat.
    unfold tos_idx, lenz in ET. apply Z.leb_le in ET. destruct p as [[|e s] ec cp lg]; cbn [p_stack length] in *; [congruence|].
    split; [lia|]. split; [reflexivity|]. split; [lia|]. left. lia.
  - destruct (tos_idx p <=? 0) eqn:ET.
    { assert (p' = p) by congruence. subst p'. exists 0%nat.
      unfold tos_idx, lenz in ET. apply Z.leb_le in ET. destruct p as [[|e s] ec cp lg]; cbn [p_stack length] in *; [congruence|].
      split; [lia|]. split; [reflexivity|]. split; [lia|]. left. lia. }
    unfold tos_idx, lenz in ET. apply Z.leb_gt in ET.
    apply bind_Ok in H. destruct H as (e & HT & H). apply bind_Ok in H. destruct H as (a1 & HA & H).
    destruct p as [[|e0 s] ec cp lg]; cbn [p_stack length top] in *; [congruence|]. inversion HT; subst e0.
    destruct (Z.leb_spec a1 (YY_MAX_SHIFTREDUCE (g_tab c))) as [L|L].
    + inversion H; subst p' a1. exists 0%nat. split; [lia|]. split; [reflexivity|]. split; [lia|]. right. split; [lia|].
      exists e. split; [reflexivity|]. split; auto.
    + apply bind_Ok in H. destruct H as (p1 & HP & H). apply pop_ok in HP. destruct HP as (e1 & s1 & E & NS & ->).
      cbn [p_stack] in E. inversion E; subst e1 s1. destruct (IH _ _ _ _ _ H ltac:(exact NS)) as (i & I1 & -> & I2 & I3).
      cbn [p_stack p_errcnt p_cap p_log] in *. exists (S i). split; [lia|]. split.
      { cbn [skipn firstn]. unfold destroys. cbn [map rev]. rewrite <- app_assoc. reflexivity. }
      split.
      { intros [|j] y b J EJ; cbn [nth_error] in EJ; [|apply (I2 j); [lia|exact EJ]].
        inversion EJ; subst y. intros (S1 & S2). rewrite HA in S1. inversion S1; subst. lia. }
      destruct I3 as [I3|(I3 & x & X1 & X2)]; [left; lia|right]. split; [lia|]. exists x. auto.
Qed.

(** A parser with an error symbol that has no action for the token.  If the error symbol is
    on top of the stack, or was shifted in this call, the token is dropped and the stack
    stays.  Otherwise the states above the bottom one are searched from the top: the topmost
    that shifts the error symbol becomes the top, gets the error symbol pushed, and the same
    token is tried again; with no such state, or at the end of input, the parser fails.  The
    values taken off the stack are destroyed. *)
Theorem C61_recovery : forall c grow f p act major minor hit p' es e r,
  g_errsym c = Some es -> p_stack p = e :: r ->
  YY_MAX_SHIFTREDUCE (g_tab c) < YY_ERROR_ACTION (g_tab c) < YY_ACCEPT_ACTION (g_tab c) -> YY_ACCEPT_ACTION (g_tab c) < YY_MIN_REDUCE (g_tab c) ->
  yy_find_shift_action c major (e_state e) = Ok (YY_ERROR_ACTION (g_tab c)) ->
  parse_loop c grow f p act major minor hit = Ok p' -> ~ In EvOverflow (p_log p') ->
  let killed l := rev (map (fun x => EvDestroy (e_major x) (e_minor x)) l) in
  exists report, (report = [] \/ report = [EvSyntaxError major minor]) /\
  if (e_major e =? es) || hit
  then p' = mkParser (p_stack p) 3 (p_cap p) (EvDestroy major minor :: report ++ p_log p)
  else
    (major <> 0 /\ exists i x a st p2 f', nth_error (p_stack p) i = Some x /\ (S i < length (p_stack p))%nat /\ shifts_error c es x a /\
       (forall j y b, (j < i)%nat -> nth_error (p_stack p) j = Some y -> ~ shifts_error c es y b) /\
       st = (if YY_MAX_SHIFT (g_tab c) <? a then a - YY_MIN_SHIFTREDUCE (g_tab c) + YY_MIN_REDUCE (g_tab c) else a) /\
       p_stack p2 = mkEntry st es minor :: skipn i (p_stack p) /\ p_errcnt p2 = 3 /\
       filter (fun ev => match ev with EvOob => false | _ => true end) (p_log p2) =
         filter (fun ev => match ev with EvOob => false | _ => true end) (EvShift es minor :: killed (firstn i (p_stack p)) ++ report ++ p_log p) /\
       parse_loop c grow f' p2 st major minor true = Ok p') \/
    ((major = 0 \/ forall j y b, (S j < length (p_stack p))%nat -> nth_error (p_stack p) j = Some y -> ~ shifts_error c es y b) /\
       exists i, p' = mkParser [last (p_stack p) e] 3 (p_cap p)
          (EvFail :: killed (firstn (length (p_stack p) - 1 - i) (skipn i (p_stack p))) ++ EvDestroy major minor :: killed (firstn i (p_stack p)) ++ report ++ p_log p)).
Proof.
  intros c grow f p act major minor hit p' es e r EES ES ORD ORD2 LK H NO killed.
  destruct f as [|f]; [discriminate|]. cbn [parse_loop] in H. unfold top at 1 in H. rewrite ES in H. cbn [bind] in H.
  apply bind_Ok in H. destruct H as ([] & HA & H). apply assert_Ok, Z.eqb_eq in HA. subst act. rewrite LK in H. cbn [bind] in H.
  destruct (Z.leb_spec (YY_MIN_REDUCE (g_tab c)) (YY_ERROR_ACTION (g_tab c))) as [|_]; [lia|].
  destruct (Z.leb_spec (YY_ERROR_ACTION (g_tab c)) (YY_MAX_SHIFTREDUCE (g_tab c))) as [|_]; [lia|].
  destruct (Z.eqb_spec (YY_ERROR_ACTION (g_tab c)) (YY_ACCEPT_ACTION (g_tab c))) as [|_]; [lia|].
  rewrite Z.eqb_refl in H. cbn [assert bind] in H. rewrite EES in H.
  exists (if p_errcnt p <? 0 then [EvSyntaxError major minor] else []). split; [destruct (p_errcnt p <? 0); auto|].
  set (report := if p_errcnt p <? 0 then [EvSyntaxError major minor] else []).
  set (p0 := if p_errcnt p <? 0 then logev p (EvSyntaxError major minor) else p) in *.
  assert (P0 : p0 = mkParser (p_stack p) (p_errcnt p) (p_cap p) (report ++ p_log p)) by (unfold p0, report; destruct (p_errcnt p <? 0); destruct p; reflexivity).
  clearbody p0 report. subst p0. cbv zeta in H.
  destruct ((e_major e =? es) || hit).
  { inversion H; subst p'. reflexivity. }
  apply bind_Ok in H. destruct H as ([p1 a] & HP & H).
  apply error_pop_spec in HP; [|cbn [p_stack]; rewrite ES; discriminate]. cbn [p_stack p_errcnt p_cap p_log] in HP.
  destruct HP as (i & I1 & -> & I2 & I3).
  assert (KD : forall l, destroys l = killed l) by reflexivity.
  assert (TI : tos_idx (mkParser (skipn i (p_stack p)) (p_errcnt p) (p_cap p) (destroys (firstn i (p_stack p)) ++ report ++ p_log p)) = Z.of_nat (length (p_stack p)) - Z.of_nat i - 1).
  { unfold tos_idx, lenz. cbn [p_stack]. rewrite skipn_length. lia. }
  rewrite TI in H. destruct (_ || _) eqn:EB in H.
  - right. apply orb_true_iff in EB. rewrite Z.leb_le, Z.eqb_eq in EB. split.
    { destruct EB as [EB|EB]; [right|now left]. intros j y b J EJ. apply (I2 j); [lia|exact EJ]. }
    apply bind_Ok in H. destruct H as (p2 & HF & H). inversion H; subst p'. clear H. exists i.
    apply failed_ok in HF; [|cbn [logev p_stack]; intros E; apply (f_equal (@length entry)) in E; rewrite skipn_length in E; cbn in E; lia].
    destruct HF as (ab & b & EE & ->). cbn [logev p_stack p_errcnt p_cap p_log with_errcnt] in *.
    assert (LB : b = last (p_stack p) e).
    { rewrite <- (firstn_skipn i (p_stack p)), EE, app_assoc, last_last. reflexivity. }
    rewrite <- LB. f_equal. rewrite EE, !KD. f_equal. f_equal.
    replace (length (p_stack p) - 1 - i)%nat with (length ab).
    + rewrite firstn_app, firstn_all, Nat.sub_diag. cbn [firstn]. now rewrite app_nil_r.
    + apply (f_equal (@length entry)) in EE. rewrite skipn_length, app_length in EE. cbn [length] in EE. lia.
  - left. apply orb_false_iff in EB. destruct EB as (E1 & E2). apply Z.leb_gt in E1. apply Z.eqb_neq in E2. split; [exact E2|].
    destruct I3 as [I3|(I3 & x & X1 & X2)]; [lia|].
    apply bind_Ok in H. destruct H as (p2 & HS & H). apply bind_Ok in H. destruct H as (e2 & HT & H).
    assert (NS : skipn i (p_stack p) <> []) by (intros E; apply (f_equal (@length entry)) in E; rewrite skipn_length in E; cbn in E; lia).
    apply shift_ok in HS. cbv zeta in HS. cbn [p_stack p_errcnt p_cap p_log] in HS. destruct HS as [(cap & _ & EP2)|(_ & _ & HS)].
    + exists i, x, a, (e_state e2), (with_errcnt p2 3), f. split; [exact X1|]. split; [exact I3|]. split; [exact X2|]. split; [exact I2|].
      rewrite EP2 in HT. unfold top, with_errcnt in HT. cbn [p_stack] in HT. inversion HT; subst e2. cbn [e_state].
      split; [destruct (YY_MAX_SHIFT (g_tab c) <? a); lia|]. rewrite EP2. cbn [with_errcnt p_stack p_errcnt p_log]. split; [reflexivity|]. split; [reflexivity|].
      split.
      * cbn [filter]. f_equal. destruct (cap <=? lenz (skipn i (p_stack p))); reflexivity.
      * rewrite <- EP2. exact H.
    + exfalso. apply NO. apply overflow_ok in HS; [|exact NS]. cbn [p_stack p_errcnt p_cap p_log] in HS. destruct HS as (ab & b & EE & EP2).
      apply parse_loop_run in H. apply run_log in H; [|rewrite EP2; discriminate]. destruct H as (new & EN). rewrite EN, EP2.
      apply in_or_app. right. now left.
Qed.
Print Assumptions C61_recovery.

(** Without an error symbol the token is dropped and the stack stays; at the end of input
    the parser fails. *)
Theorem C61_no_symbol : forall c grow f p act major minor hit p' e r,
  g_errsym c = None -> p_stack p = e :: r ->
  YY_MAX_SHIFTREDUCE (g_tab c) < YY_ERROR_ACTION (g_tab c) < YY_ACCEPT_ACTION (g_tab c) -> YY_ACCEPT_ACTION (g_tab c) < YY_MIN_REDUCE (g_tab c) ->
  yy_find_shift_action c major (e_state e) = Ok (YY_ERROR_ACTION (g_tab c)) ->
  parse_loop c grow f p act major minor hit = Ok p' ->
  let report := if p_errcnt p <=? 0 then [EvSyntaxError major minor] else [] in
  if major =? 0
  then p_stack p' = [last (p_stack p) e] /\ p_errcnt p' = -1 /\
    p_log p' = EvFail :: rev (map (fun x => EvDestroy (e_major x) (e_minor x)) (removelast (p_stack p))) ++ EvDestroy major minor :: report ++ p_log p
  else p' = mkParser (p_stack p) 3 (p_cap p) (EvDestroy major minor :: report ++ p_log p).
Proof.
  intros c grow f p act major minor hit p' e r EES ES ORD ORD2 LK H report.
  destruct f as [|f]; [discriminate|]. cbn [parse_loop] in H. unfold top at 1 in H. rewrite ES in H. cbn [bind] in H.
  apply bind_Ok in H. destruct H as ([] & HA & H). apply assert_Ok, Z.eqb_eq in HA. subst act. rewrite LK in H. cbn [bind] in H.
  destruct (Z.leb_spec (YY_MIN_REDUCE (g_tab c)) (YY_ERROR_ACTION (g_tab c))) as [|_]; [lia|].
  destruct (Z.leb_spec (YY_ERROR_ACTION (g_tab c)) (YY_MAX_SHIFTREDUCE (g_tab c))) as [|_]; [lia|].
  destruct (Z.eqb_spec (YY_ERROR_ACTION (g_tab c)) (YY_ACCEPT_ACTION (g_tab c))) as [|_]; [lia|].
  rewrite Z.eqb_refl in H. cbn [assert bind] in H. rewrite EES in H.
  set (p0 := if p_errcnt p <=? 0 then logev p (EvSyntaxError major minor) else p) in *.
  assert (P0 : p0 = mkParser (p_stack p) (p_errcnt p) (p_cap p) (report ++ p_log p)) by (unfold p0, report; destruct (p_errcnt p <=? 0); destruct p; reflexivity).
  clearbody p0 report. subst p0. cbn [with_errcnt logev p_stack p_errcnt p_cap p_log] in H.
  destruct (major =? 0).
  - apply bind_Ok in H. destruct H as (p2 & HF & H). inversion H; subst p'. clear H.
    apply failed_ok in HF; [|cbn [p_stack]; rewrite ES; discriminate]. cbn [p_stack p_log logev with_errcnt] in HF. destruct HF as (ab & b & EE & ->).
    cbn [with_errcnt p_stack p_errcnt p_log]. rewrite EE, last_last, removelast_last. auto.
  - inversion H. reflexivity.
Qed.
Print Assumptions C61_no_symbol.

(** ** Examples *)

(** prog ::= list.  list ::= list stmt | stmt.  stmt ::= ID SEMI | error SEMI.
    $ 0, ID 1, SEMI 2, BAD 3, prog 4, list 5, stmt 6, error 7. *)
Definition g61 : grammar := mkGrammar 4 8
  [mkRule 4 [ESym 5]; mkRule 5 [ESym 5; ESym 6]; mkRule 5 [ESym 6]; mkRule 6 [ESym 1; ESym 2]; mkRule 6 [ESym 7; ESym 2]]%nat 4.
Definition o61 : opts :=
  mkOpts false false true (mkPrecs (fun _ => None) (fun _ => UNK)) [None; None; None; None; None] [false; false; false; false; false]
    None (Some 7%nat) None (fun _ i => i) (fun _ i => i).
Definition c61 : gen := Eval vm_compute in
  match lemon_generate 100 100 100 o61 g61 with Ok c => c | _ => mkGen (mkTables 0 0 0 0 0 0 0 0 0 0 [] [] 0 [] 0 [] []) None None None [] [] end.
Lemma c61_ok : lemon_generate 100 100 100 o61 g61 = Ok c61.
Proof. vm_compute. reflexivity. Qed.

Definition grow61 : Z -> option Z := fun _ => None.

(** The bottom state is never tried: with ID alone on the stack, the first token BAD ends the
    parse although the initial state shifts the error symbol. *)
Theorem C61_every_state_refuted : exists g o c es p p' x a, wf_grammar g /\ lemon_generate 100 100 100 o g = Ok c /\ g_errsym c = Some es /\
  feed c grow61 50 (ParseInit 20) [1] 1 = Ok p /\ In x (p_stack p) /\ shifts_error c es x a /\
  Parse c grow61 50 p 3 (Tok 2) = Ok p' /\ In EvFail (p_log p') /\ p_stack p' = [x].
Proof.
  exists g61, o61, c61, 7. do 2 eexists. exists (mkEntry 0 0 (Tok 0)). eexists. split; [apply wf_grammarb_ok; reflexivity|]. split; [exact c61_ok|].
  split; [reflexivity|]. split; [vm_compute; reflexivity|]. split; [vm_compute; auto|].
  split; [split; [vm_compute; reflexivity|vm_compute; discriminate]|]. split; [vm_compute; reflexivity|]. split; [vm_compute; auto|reflexivity].
Qed.
Print Assumptions C61_every_state_refuted.

(** [ID SEMI ID BAD BAD SEMI ID SEMI ID ID SEMI]: the fourth token is an error, reported; the
    state after [list] shifts the error symbol, BAD still has no action and is dropped, the
    next BAD too.  After four more tokens the next error is reported again. *)
Definition toks61 : list Z := [1; 2; 1; 3; 3; 2; 1; 2; 1].
Definition p61 (n : nat) : parser := match feed c61 grow61 50 (ParseInit 20) (firstn n toks61) 1 with Ok p => p | _ => ParseInit 0 end.
Example C61_hypotheses : Forall (fun m => g_errsym c61 <> Some m) (1 :: toks61) /\
  feed c61 grow61 50 (ParseInit 20) toks61 1 = Ok (p61 9) /\ since (g_errsym c61) (p_log (p61 9)) = Some 4%nat /\
  (exists p' new, Parse c61 grow61 50 (p61 9) 1 (Tok 10) = Ok p' /\ ~ In EvOverflow (p_log p') /\ p_log p' = new ++ p_log (p61 9) /\
     In (EvSyntaxError 1 (Tok 10)) new) /\
  since (g_errsym c61) (p_log (p61 8)) = Some 3%nat /\
  (exists p' new, Parse c61 grow61 50 (p61 8) 3 (Tok 9) = Ok p' /\ ~ In EvOverflow (p_log p') /\ p_log p' = new ++ p_log (p61 8) /\
     existsb (error_event (g_errsym c61)) new = true /\ reports new = []) /\
  YY_MAX_SHIFTREDUCE (g_tab c61) < YY_ERROR_ACTION (g_tab c61) < YY_ACCEPT_ACTION (g_tab c61) /\ YY_ACCEPT_ACTION (g_tab c61) < YY_MIN_REDUCE (g_tab c61) /\
  (exists e r p', p_stack (p61 3) = e :: r /\ yy_find_shift_action c61 3 (e_state e) = Ok (YY_ERROR_ACTION (g_tab c61)) /\ e_major e <> 7 /\
     parse_loop c61 grow61 50 (p61 3) (e_state e) 3 (Tok 4) false = Ok p' /\ ~ In EvOverflow (p_log p') /\ map e_major (p_stack p') = [7; 5; 0]).
Proof.
  split; [repeat constructor; discriminate|]. split; [vm_compute; reflexivity|]. split; [vm_compute; reflexivity|].
  split. { eexists. exists [EvDestroy 1 (Tok 10); EvShift 7 (Tok 10); EvDestroy 1 (Tok 9); EvSyntaxError 1 (Tok 10)].
    split; [vm_compute; reflexivity|]. split; [vm_compute; intuition discriminate|]. split; [vm_compute; reflexivity|]. cbn. auto. }
  split; [vm_compute; reflexivity|].
  split. { eexists. exists (firstn 4 match Parse c61 grow61 50 (p61 8) 3 (Tok 9) with Ok p => p_log p | _ => [] end).
    split; [vm_compute; reflexivity|]. split; [vm_compute; intuition discriminate|]. split; [vm_compute; reflexivity|]. split; vm_compute; reflexivity. }
  split; [vm_compute; split; reflexivity|]. split; [reflexivity|].
  do 3 eexists. split; [vm_compute; reflexivity|]. split; [vm_compute; reflexivity|]. split; [discriminate|]. split; [vm_compute; reflexivity|].
  split; [vm_compute; intuition discriminate|]. vm_compute. reflexivity.
Qed.

(** The same without the error symbol: ID ID, then ID and the end of input. *)
Definition c61n : gen := Eval vm_compute in
  match lemon_generate 100 100 100 (mkOpts false false true (mkPrecs (fun _ => None) (fun _ => UNK)) [None; None; None; None] [false; false; false; false]
    None None None (fun _ i => i) (fun _ i => i)) (mkGrammar 4 7 (firstn 4 (g_rules g61)) 4) with Ok c => c | _ => c61 end.
Definition p61n : parser := match feed c61n grow61 50 (ParseInit 20) [1] 1 with Ok p => p | _ => ParseInit 0 end.
Example C61_no_symbol_hypotheses : g_errsym c61n = None /\
  YY_MAX_SHIFTREDUCE (g_tab c61n) < YY_ERROR_ACTION (g_tab c61n) < YY_ACCEPT_ACTION (g_tab c61n) /\ YY_ACCEPT_ACTION (g_tab c61n) < YY_MIN_REDUCE (g_tab c61n) /\
  exists e r p1 p2, p_stack p61n = e :: r /\ yy_find_shift_action c61n 1 (e_state e) = Ok (YY_ERROR_ACTION (g_tab c61n)) /\
    yy_find_shift_action c61n 0 (e_state e) = Ok (YY_ERROR_ACTION (g_tab c61n)) /\
    parse_loop c61n grow61 50 p61n (e_state e) 1 (Tok 2) false = Ok p1 /\ length (p_stack p1) = 2%nat /\
    parse_loop c61n grow61 50 p61n (e_state e) 0 (Tok 2) false = Ok p2 /\ length (p_stack p2) = 1%nat.
Proof.
  split; [reflexivity|]. split; [vm_compute; split; reflexivity|]. split; [reflexivity|].
  do 4 eexists. split; [vm_compute; reflexivity|]. split; [vm_compute; reflexivity|]. split; [vm_compute; reflexivity|].
  split; [vm_compute; reflexivity|]. split; [reflexivity|]. split; [vm_compute; reflexivity|]. reflexivity.
Qed.
