(** C66: the line numbers of the generated parser, and the copying of the template. *)
From Coq Require Import List Arith ZArith Bool Lia String.
Import ListNotations.
From Verif Require Import Base LemonPreModel LemonPrintfModel LemonCodeModel Prop_LemonPrintf SpecCode LemonCodeProof LemonEmitModel Prop_LemonUnion Prop_LemonDestructors Prop_LemonSwitch.
Open Scope res_scope.

(** * Line numbers *)

(** lineno says on which line of the output the next character goes, or is [k] too small. *)
Definition lag (k : nat) (o : outp) : Prop := o_line o + k = S (newlines (o_text o)).

Definition plain (t : txt) : Prop := ~ In 10%Z t.

Lemma newlines_app : forall a b, newlines (a ++ b) = newlines a + newlines b.
Proof. intros a b. unfold newlines. rewrite filter_app, app_length. reflexivity. Qed.

Lemma newlines_cons : forall c t, newlines (c :: t) = (if (c =? 10)%Z then 1 else 0) + newlines t.
Proof. intros c t. unfold newlines. cbn [filter]. destruct (c =? 10)%Z; reflexivity. Qed.

Lemma newlines_plain : forall t, plain t -> newlines t = 0.
Proof.
  induction t as [|c t IH]; intros H; [reflexivity|]. rewrite newlines_cons, IH by (intros K; apply H; now right). destruct (c =? 10)%Z eqn:E; [|reflexivity]. apply Z.eqb_eq in E. elim H. now left.
Qed.

Lemma dec_plain : forall n, plain (dec n).
Proof. intros n I. destruct (dec_spec n) as (_ & F & _). rewrite Forall_forall in F. specialize (F _ I). discriminate F. Qed.

Lemma digits_plain : forall f v acc d, plain acc -> digits f v acc = Ok d -> plain d.
Proof.
  induction f as [|f IH]; intros v acc d P H; cbn [digits] in H; destruct (0 <? v)%Z; try discriminate H; try (injection H as <-; exact P).
  apply (IH _ _ _) in H; [exact H|]. intros [I|I]; [|exact (P I)]. pose proof (Z.mod_pos_bound v 10 ltac:(lia)). lia.
Qed.

Lemma zdec_plain : forall v, plain (zdec v).
Proof.
  intros v. unfold zdec. destruct (digits 50 (Z.abs v) []) as [d| |] eqn:E; try (intros []). apply digits_plain in E; [|intros []]. destruct d as [|c d]; [intros [H|[]]; discriminate H|]. intros I. apply in_app_iff in I as [I|I]; [|exact (E I)].
  destruct (v <? 0)%Z; [destruct I as [I|[]]; discriminate I|destruct I].
Qed.

(** ** Every function keeps the lag *)

Lemma lag_put : forall k o t, lag k o -> lag k (inc (newlines t) (put t o)).
Proof. intros k o t H. unfold lag in *. cbn [o_line o_text inc put]. rewrite newlines_app. lia. Qed.

Lemma lag_put_n : forall k o t n, lag k o -> newlines t = n -> lag k (inc n (put t o)).
Proof. intros k o t n H <-. now apply lag_put. Qed.

Lemma lag_put0 : forall k o t, lag k o -> newlines t = 0 -> lag k (put t o).
Proof. intros k o t H E. unfold lag in *. cbn [o_line o_text put]. rewrite newlines_app, E. lia. Qed.

Lemma lag_inc_put : forall k o t n, lag k o -> newlines t = n -> lag k (put t (inc n o)).
Proof. intros k o t n H <-. unfold lag in *. cbn [o_line o_text inc put]. rewrite newlines_app. lia. Qed.

Definition escaped (f : txt) : txt := flat_map (fun c => if (c =? 92)%Z then [92; 92]%Z else [c]) f.

Lemma escaped_lines : forall f, newlines (escaped f) = newlines f.
Proof.
  induction f as [|c f IH]; [reflexivity|]. unfold escaped in *. cbn [flat_map]. rewrite newlines_app, IH, newlines_cons. destruct (c =? 92)%Z eqn:E; [apply Z.eqb_eq in E; subst; reflexivity|]. rewrite newlines_cons. change (newlines []) with 0. lia.
Qed.

Lemma line_text_lines : forall n f, plain f -> newlines (line_text n f) = 1.
Proof. intros n f P. unfold line_text. fold (escaped f). rewrite !newlines_app, escaped_lines, (newlines_plain f P), (newlines_plain _ (zdec_plain _)). reflexivity. Qed.

Lemma linedir_eq : forall n f o, tplt_linedir n f o = put (line_text n f) o.
Proof. reflexivity. Qed.

(** The line directive for the generated file, when lineno is right, says the number of the line that follows it. *)
Lemma back_ok : forall k nolines out o, plain out -> lag k o ->
  lag k (back_to_out nolines out o) /\ (nolines = true -> back_to_out nolines out o = o) /\
  (nolines = false -> exists n, o_text (back_to_out nolines out o) = o_text o ++ line_text n out /\ n + k = S (newlines (o_text o ++ line_text n out))).
Proof.
  intros k nolines out o P H. unfold back_to_out. destruct nolines; [split; [exact H|]; split; [reflexivity|discriminate]|]. cbn zeta. rewrite linedir_eq. split; [apply lag_inc_put; [exact H|now apply line_text_lines]|]. split; [discriminate|]. intros _.
  exists (o_line (inc 1 o)). split; [reflexivity|]. rewrite newlines_app, line_text_lines by exact P. unfold lag in H. cbn [inc o_line]. lia.
Qed.

Lemma dollars_lines : forall f dt t, List.length t <= f -> newlines (dollars f dt t) = newlines t.
Proof.
  intros f dt. revert f. assert (G : forall n t f, List.length t < n -> List.length t <= f -> newlines (dollars f dt t) = newlines t).
  { induction n as [|n IH]; intros t f L LF; [lia|]. destruct t as [|c r]; [destruct f; reflexivity|]. destruct f as [|f]; [cbn in LF; lia|]. rewrite dollars_S. cbn [List.length] in L, LF.
    destruct (_ && _)%bool eqn:E.
    - apply andb_true_iff in E as (E1 & E2). apply Z.eqb_eq in E1. subst c. destruct r as [|d r]; [discriminate E2|]. apply Z.eqb_eq in E2. subst d. cbn [skipn]. cbn [List.length] in L, LF. rewrite !newlines_app, (newlines_plain _ (zdec_plain dt)), IH by lia. reflexivity.
    - rewrite !newlines_cons, IH by lia. reflexivity. }
  intros f t LF. apply (G (S (List.length t))); [lia|exact LF].
Qed.

Ltac lag_step := first [apply lag_put_n | apply lag_inc_put]; [|try reflexivity].

Lemma lag_destructor : forall k e s o o', plain (eo_filename e) -> plain (eo_outname e) -> lag k o -> emit_destructor_code e s o = Ok o' -> lag k o'.
Proof.
  intros k e s o o' PF PO H E. unfold emit_destructor_code in E.
  assert (B : forall cp o1 o2, lag k o1 -> Ok (inc 1 (put (zs "}" ++ nl) (back_to_out (eo_nolinenos e) (eo_outname e) (inc 1 (put nl (inc (newlines cp) (put (dollars (List.length cp) (ds_dtnum s) cp) o1))))))) = Ok o2 -> lag k o2).
  { intros cp o1 o2 H1 E1. injection E1 as <-. lag_step. apply back_ok; [exact PO|]. lag_step. apply lag_put_n; [exact H1|]. now apply dollars_lines. }
  destruct (ds_term s).
  - destruct (eo_tokendest e) as [cp|]; [|now injection E as <-]. refine (B cp _ _ _ E). now lag_step.
  - destruct (ds_dest s) as [cp|].
    + refine (B cp _ _ _ E). assert (H1 : lag k (inc 1 (put (zs "{" ++ nl) o))) by now lag_step. destruct (eo_nolinenos e); [exact H1|]. rewrite linedir_eq. apply lag_inc_put; [exact H1|now apply line_text_lines].
    + destruct (eo_vardest e) as [cp|]; [|discriminate E]. refine (B cp _ _ _ E). now lag_step.
Qed.

Definition plain_names (syms : list dsym) : Prop := Forall (fun s => plain (ds_name s)) syms.

Lemma name_plain : forall syms i, plain_names syms -> plain (name_of syms i).
Proof. intros syms i H. unfold name_of. destruct (nth_error syms i) as [s|] eqn:E; [|intros []]. unfold plain_names in H. rewrite Forall_forall in H. exact (H s (nth_error_In _ _ E)). Qed.

Lemma lag_cases : forall k syms l o, plain_names syms -> lag k o -> lag k (fold_left (fun o i => case_line i (name_of syms i) o) l o).
Proof.
  intros k syms. induction l as [|i l IH]; intros o P H; [exact H|]. cbn [fold_left]. apply IH; [exact P|]. apply lag_put_n; [exact H|]. rewrite !newlines_app, (newlines_plain _ (name_plain syms i P)), (newlines_plain _ (zdec_plain _)). reflexivity.
Qed.

Lemma lag_groups : forall k e syms gs o o', plain (eo_filename e) -> plain (eo_outname e) -> plain_names syms -> lag k o -> emit_groups e syms gs o = Ok o' -> lag k o'.
Proof.
  intros k e syms. induction gs as [|g gs IH]; intros o o' PF PO PN H E; cbn [emit_groups] in E; [now injection E as <-|]. unfold emit_group in E.
  destruct (emit_destructor_code e (snd g) _) as [o1| |] eqn:D; try discriminate E. cbn [bind] in E. refine (IH _ _ PF PO PN _ E). apply lag_put_n; [|reflexivity]. refine (lag_destructor k e _ _ _ PF PO _ D). now apply lag_cases.
Qed.

(** * The theorems *)

(** The text printed by tplt_print, emit_destructor_code and emit_code: lineno stays right (or as wrong as it was), and the directive
    gives the number of the next line (or [k] less). *)
Theorem C66_print : forall k nolines out t o, plain out -> lag k o -> t <> [] ->
  exists o', tplt_print nolines out (Some t) o = Ok o' /\ lag k o' /\
    exists u, (u = t \/ u = t ++ [10%Z]) /\ (exists v, u = v ++ [10%Z]) /\
      (nolines = true -> o_text o' = o_text o ++ u) /\
      (nolines = false -> exists n, o_text o' = o_text o ++ u ++ line_text n out /\ n + k = S (newlines (o_text o'))).
Proof.
  intros k nolines out t o P H NE. unfold tplt_print. destruct t as [|c r]; [congruence|]. set (t := c :: r) in *.
  set (o1 := inc (newlines t) (put t o)). assert (H1 : lag k o1) by now apply lag_put. set (o2 := if (last t 0 =? 10)%Z then o1 else inc 1 (put nl o1)).
  assert (H2 : lag k o2) by (unfold o2; destruct (_ =? 10)%Z; [exact H1|now lag_step]).
  assert (T2 : exists u, (u = t \/ u = t ++ [10%Z]) /\ (exists v, u = v ++ [10%Z]) /\ o_text o2 = o_text o ++ u).
  { unfold o2. destruct (last t 0 =? 10)%Z eqn:E.
    - exists t. split; [now left|]. split; [|reflexivity]. apply Z.eqb_eq in E. exists (removelast t). rewrite <- E. now apply app_removelast_last.
    - exists (t ++ [10%Z]). split; [now right|]. split; [now exists t|]. unfold o1, nl. cbn [o_text inc put]. now rewrite app_assoc. }
  destruct (back_ok k nolines out o2 P H2) as (B1 & B2 & B3). eexists. split; [reflexivity|]. split; [exact B1|]. destruct T2 as (u & U1 & U2 & U3). exists u. split; [exact U1|]. split; [exact U2|]. split.
  - intros N. fold t. change (inc (newlines t) (put t o)) with o1. fold o2. rewrite (B2 N). exact U3.
  - intros N. destruct (B3 N) as (n & E1 & E2). exists n. change (inc (newlines t) (put t o)) with o1. fold o2. rewrite E1. rewrite U3 in *. split; [now rewrite <- app_assoc|exact E2].
Qed.

Theorem C66_code : forall k e r o, plain (eo_filename e) -> plain (eo_outname e) -> tidy r -> lag k o -> lag k (emit_code e r o) /\
  (eo_nolinenos e = false -> exists n,
     let a := match er_prefix r with Some p => zs "{" ++ p | None => [] end ++ line_text (er_line r) (eo_filename e) ++ zs "{" ++ er_code r ++ zs "}" ++ [10%Z] in
     let b := match er_suffix r with Some p => p | None => [] end ++ match er_prefix r with Some _ => zs "}" ++ [10%Z] | None => [] end in
     o_text (emit_code e r o) = o_text o ++ a ++ line_text n (eo_outname e) ++ b /\ n + k = S (newlines (o_text o ++ a ++ line_text n (eo_outname e)))).
Proof.
  intros k e r o PF PO (TP & TS) H. unfold emit_code.
  set (o1 := match er_prefix r with Some (c :: p) => inc (newlines (c :: p)) (put (zs "{" ++ c :: p) o) | _ => o end).
  assert (H1 : lag k o1). { unfold o1. destruct (er_prefix r) as [[|c p]|]; [exact H| |exact H]. apply lag_put_n; [exact H|]. rewrite newlines_app. reflexivity. }
  set (o2 := if eo_nolinenos e then o1 else tplt_linedir (er_line r) (eo_filename e) (inc 1 o1)).
  assert (H2 : lag k o2). { unfold o2. destruct (eo_nolinenos e); [exact H1|]. rewrite linedir_eq. apply lag_inc_put; [exact H1|now apply line_text_lines]. }
  set (o3 := inc 1 (put (zs "}" ++ nl) (inc (newlines (er_code r)) (put (zs "{" ++ er_code r) o2)))).
  assert (H3 : lag k o3). { unfold o3. lag_step. apply lag_put_n; [exact H2|]. rewrite newlines_app. reflexivity. }
  destruct (back_ok k (eo_nolinenos e) (eo_outname e) o3 PO H3) as (B1 & B2 & B3). set (o4 := back_to_out (eo_nolinenos e) (eo_outname e) o3) in *.
  set (o5 := match er_suffix r with Some (c :: p) => inc (newlines (c :: p)) (put (c :: p) o4) | _ => o4 end).
  assert (H5 : lag k o5). { unfold o5. destruct (er_suffix r) as [[|c p]|]; [exact B1| |exact B1]. now apply lag_put. }
  assert (H6 : lag k (match er_prefix r with Some _ => inc 1 (put (zs "}" ++ nl) o5) | None => o5 end)) by (destruct (er_prefix r); [now lag_step|exact H5]).
  split; [exact H6|]. intros NL. destruct (B3 NL) as (n & E1 & E2). exists n. cbv zeta.
  assert (T1 : o_text o1 = o_text o ++ match er_prefix r with Some p => zs "{" ++ p | None => [] end). { unfold o1. destruct (er_prefix r) as [[|c p]|]; [now elim TP|reflexivity|now rewrite app_nil_r]. }
  assert (T3 : o_text o3 = o_text o ++ match er_prefix r with Some p => zs "{" ++ p | None => [] end ++ line_text (er_line r) (eo_filename e) ++ zs "{" ++ er_code r ++ zs "}" ++ [10%Z]).
  { unfold o3, o2. rewrite NL. rewrite linedir_eq. cbn [o_text inc put]. rewrite T1. unfold nl. now rewrite <- !app_assoc. }
  assert (T5 : o_text o5 = o_text o4 ++ match er_suffix r with Some p => p | None => [] end). { unfold o5. destruct (er_suffix r) as [[|c p]|]; [now elim TS|reflexivity|now rewrite app_nil_r]. }
  rewrite T3 in E1, E2. split; [|rewrite <- !app_assoc in E2; rewrite <- !app_assoc; exact E2].
  destruct (er_prefix r) as [p|]; cbn [o_text inc put]; rewrite T5, E1; unfold nl; rewrite <- !app_assoc; [reflexivity|now rewrite app_nil_r].
Qed.

Theorem C66_destructors : forall k e syms o o', plain (eo_filename e) -> plain (eo_outname e) -> plain_names syms -> lag k o -> emit_destructors e syms o = Ok o' -> lag k o'.
Proof.
  intros k e syms o o' PF PO PN H E. unfold emit_destructors in E. cbv zeta in E. set (tok := match eo_tokendest e with None => [] | Some _ => _ end) in E. set (dfl := match eo_vardest e with None => [] | Some _ => _ end) in E.
  set (o1 := match tok with [] => o | _ => _ end) in E. assert (H1 : lag k o1) by (unfold o1; destruct tok; [exact H|now lag_step]).
  destruct (emit_groups e syms tok o1) as [o2| |] eqn:E2; try discriminate E. cbn [bind] in E. pose proof (lag_groups _ _ _ _ _ _ PF PO PN H1 E2) as H2.
  set (o3 := match dfl with [] => o2 | _ => _ end) in E. assert (H3 : lag k o3) by (unfold o3; destruct dfl; [exact H2|now lag_step]).
  destruct (emit_groups e syms dfl o3) as [o4| |] eqn:E4; try discriminate E. cbn [bind] in E. pose proof (lag_groups _ _ _ _ _ _ PF PO PN H3 E4) as H4.
  refine (lag_groups _ _ _ _ _ _ PF PO PN _ E). destruct (eo_vardest e); [|exact H4]. destruct dfl; [now lag_step|exact H4].
Qed.

Lemma text_plain : forall rules i, Forall (fun r => plain (er_text r)) rules -> plain (text_of rules i).
Proof. intros rules i H. unfold text_of. destruct (nth_error rules i) as [s|] eqn:E; [|intros []]. rewrite Forall_forall in H. exact (H s (nth_error_In _ _ E)). Qed.

Theorem C66_rules : forall k e rules lm o o', plain (eo_filename e) -> plain (eo_outname e) -> Forall (fun r => plain (er_text r)) rules -> Forall tidy rules -> lag k o -> emit_rules e rules lm o = Ok o' -> lag k o'.
Proof.
  intros k e rules lm o o' PF PO PT TD H E. unfold emit_rules in E. destruct (C65_switch rules) as (gs & d & ES & _ & _ & _ & G2). rewrite ES in E. cbn [bind fst snd] in E. injection E as <-.
  set (o1 := if lm then _ else _). assert (H1 : lag k o1) by (unfold o1; destruct lm; [now lag_step|exact H]).
  assert (GS : forall gs' o, (forall g, In g gs' -> tidy (snd g)) -> lag k o -> lag k (fold_left (fun o g => emit_rule_group e rules g o) gs' o)).
  { induction gs' as [|g gs' IH]; intros o0 T0 H0; [exact H0|]. cbn [fold_left]. apply IH; [intros g' G'; apply T0; now right|]. unfold emit_rule_group. lag_step. apply C66_code; [exact PF|exact PO|apply T0; now left|].
    destruct (fst g) as [|i dup]; [exact H0|].
    assert (H2 : lag k (inc 1 (put (zs "      case " ++ zdec (Z.of_nat i) ++ zs ": /* " ++ text_of rules i ++ zs " */" ++ nl) o0))).
    { apply lag_put_n; [exact H0|]. rewrite !newlines_app, (newlines_plain _ (text_plain rules i PT)), (newlines_plain _ (zdec_plain _)). reflexivity. }
    generalize dependent (inc 1 (put (zs "      case " ++ zdec (Z.of_nat i) ++ zs ": /* " ++ text_of rules i ++ zs " */" ++ nl) o0)). induction dup as [|j dup IHd]; intros o3 H3; [exact H3|]. cbn [fold_left]. apply IHd.
    apply lag_put_n; [exact H3|]. rewrite !newlines_app, (newlines_plain _ (text_plain rules j PT)), (newlines_plain _ (zdec_plain _)). reflexivity. }
  assert (DS : forall d' o, lag k o -> lag k (fold_left (emit_default rules) d' o)).
  { induction d' as [|i d' IH]; intros o0 H0; [exact H0|]. cbn [fold_left]. apply IH. unfold emit_default. destruct (nth_error rules i) as [r|] eqn:R; [|exact H0].
    assert (PR : plain (er_text r)) by (rewrite Forall_forall in PT; exact (PT r (nth_error_In _ _ R))).
    assert (H4 : lag k (put (zs "      /* (" ++ zdec (Z.of_nat i) ++ zs ") " ++ er_text r) o0)) by (apply lag_put0; [exact H0|]; rewrite !newlines_app, (newlines_plain _ PR), (newlines_plain _ (zdec_plain _)); reflexivity).
    destruct (er_never r), (er_does r); (apply lag_put_n; [exact H4|]; rewrite !newlines_app, (newlines_plain _ (zdec_plain _)); reflexivity). }
  lag_step. apply DS. lag_step. apply GS; [|exact H1]. intros g G. destruct (G2 g G) as (_ & i & l & _ & N). rewrite Forall_forall in TD. exact (TD _ (nth_error_In _ _ N)).
Qed.

(** * The template *)

(** A line is a sequence of runs of letters and of other characters; runs are as long as possible. *)
Inductive lpiece : Type := Run (w : txt) | Oth (c : Z).
Definition lspell (ps : list lpiece) : txt := flat_map (fun p => match p with Run w => w | Oth c => [c] end) ps.
Fixpoint runs_ok (ps : list lpiece) : Prop :=
  match ps with
  | [] => True
  | Run w :: r => w <> [] /\ Forall (fun c => isalpha c = true) w /\ match r with Run _ :: _ => False | _ => True end /\ runs_ok r
  | Oth c :: r => isalpha c = false /\ runs_ok r
  end.

(** A run that begins with "Parse" begins with the name instead. *)
Definition renamed1 (name : txt) (p : lpiece) : txt :=
  match p with Run w => if starts (zs "Parse") w then name ++ skipn 5 w else w | Oth c => [c] end.
Definition renamed (name : txt) (ps : list lpiece) : txt := flat_map (renamed1 name) ps.

(** Every text has such pieces. *)
Fixpoint lpieces (t : txt) : list lpiece :=
  match t with
  | [] => []
  | c :: r => if isalpha c then match lpieces r with Run w :: ps => Run (c :: w) :: ps | ps => Run [c] :: ps end else Oth c :: lpieces r
  end.

Theorem lpieces_ok : forall t, lspell (lpieces t) = t /\ runs_ok (lpieces t).
Proof.
  induction t as [|c r (IH1 & IH2)]; [split; [reflexivity|exact Logic.I]|]. cbn [lpieces]. destruct (isalpha c) eqn:E.
  - destruct (lpieces r) as [|[w|d] ps].
    + cbn in *. subst r. split; [reflexivity|]. split; [discriminate|]. split; [now repeat constructor|]. split; exact Logic.I.
    + cbn in *. destruct IH2 as (H1 & H2 & H3 & H4). split; [now rewrite IH1|]. split; [discriminate|]. split; [now constructor|]. now split.
    + cbn in *. split; [now rewrite IH1|]. split; [discriminate|]. split; [now repeat constructor|]. now split.
  - cbn. split; [now f_equal|]. now split.
Qed.

Lemma rename_S : forall f name prev c r, rename (S f) name prev (c :: r) =
  if (starts (zs "Parse") (c :: r) && negb (isalpha prev))%bool then name ++ rename f name 101%Z (skipn 5 (c :: r)) else c :: rename f name c r.
Proof. reflexivity. Qed.

Definition other_first (t : txt) : Prop := match t with c :: _ => isalpha c = false | [] => True end.

(** Inside a run everything is copied. *)
Lemma rename_inside : forall w f name prev t, isalpha prev = true -> Forall (fun c => isalpha c = true) w -> other_first t -> List.length (w ++ t) <= f ->
  exists f' p', List.length t <= f' /\ isalpha p' = true /\ rename f name prev (w ++ t) = w ++ rename f' name p' t.
Proof.
  induction w as [|c w IH]; intros f name prev t P F O L; [exists f, prev; now repeat split|]. destruct f as [|f]; [cbn in L; lia|]. rewrite <- app_comm_cons, rename_S, P, andb_false_r.
  destruct (IH f name c t (Forall_inv F) (Forall_inv_tail F) O) as (f' & p' & H1 & H2 & H3); [cbn [app List.length] in L; lia|]. exists f', p'. split; [exact H1|]. split; [exact H2|]. now rewrite H3.
Qed.

Lemma starts_run : forall p w t, Forall (fun c => isalpha c = true) p -> other_first t -> starts p (w ++ t) = starts p w.
Proof.
  induction p as [|a p IH]; intros [|c w] t F O; cbn [starts app]; try reflexivity.
  - destruct t as [|d t]; [reflexivity|]. destruct (a =? d)%Z eqn:E; [|reflexivity]. apply Z.eqb_eq in E. subst d. pose proof (Forall_inv F) as K. cbn beta in K. cbn in O. congruence.
  - now rewrite (IH w t (Forall_inv_tail F) O).
Qed.

Lemma starts_split : forall p w, starts p w = true -> w = p ++ skipn (List.length p) w.
Proof. induction p as [|a p IH]; intros w H; [reflexivity|]. destruct w as [|c w]; [discriminate H|]. cbn in H. apply andb_true_iff in H as (H1 & H2). apply Z.eqb_eq in H1. subst. cbn. f_equal. now apply IH. Qed.

Lemma rename_ok : forall ps name prev f, runs_ok ps -> (isalpha prev = false \/ match ps with Run _ :: _ => False | _ => True end) -> List.length (lspell ps) <= f -> rename f name prev (lspell ps) = renamed name ps.
Proof.
  induction ps as [|p ps IH]; intros name prev f R P L; [destruct f; reflexivity|]. cbn [lspell renamed flat_map] in *. fold (lspell ps) in *. fold (renamed name ps). destruct p as [w|c]; cbn [renamed1].
  - destruct R as (NE & F & NX & R). assert (PV : isalpha prev = false) by (destruct P as [P|[]]; exact P).
    assert (OF : other_first (lspell ps)). { destruct ps as [|[w'|d] ps']; [exact Logic.I|destruct NX|]. destruct R as (R & _). exact R. }
    destruct w as [|c w]; [congruence|]. destruct f as [|f]; [cbn in L; lia|]. rewrite <- app_comm_cons, rename_S, PV. cbn [negb]. rewrite andb_true_r.
    assert (ST : starts (zs "Parse") (c :: w ++ lspell ps) = starts (zs "Parse") (c :: w)). { apply (starts_run (zs "Parse") (c :: w) (lspell ps)); [repeat constructor|exact OF]. }
    rewrite ST. destruct (starts (zs "Parse") (c :: w)) eqn:SW.
    + apply starts_split in SW. change (List.length (zs "Parse")) with 5 in SW. set (w' := skipn 5 (c :: w)) in *.
      assert (SK : skipn 5 (c :: w ++ lspell ps) = w' ++ lspell ps). { change (c :: w ++ lspell ps) with ((c :: w) ++ lspell ps). rewrite SW. reflexivity. }
      rewrite SK. assert (FW : Forall (fun c => isalpha c = true) w') by (rewrite SW in F; apply Forall_app in F; apply F).
      assert (LW : List.length (w' ++ lspell ps) <= f). { apply (f_equal (@List.length Z)) in SW. rewrite app_length in SW. cbn [List.length] in SW. change (List.length (zs "Parse")) with 5 in SW. rewrite app_length in L. rewrite app_length. cbn [List.length] in L. lia. }
      destruct (rename_inside w' f name 101%Z (lspell ps) eq_refl FW OF LW) as (f' & p' & L' & P' & E). rewrite E, <- app_assoc. do 2 f_equal. apply IH; [exact R| |exact L']. right. destruct ps as [|[]]; auto.
    + destruct (rename_inside w f name c (lspell ps) (Forall_inv F) (Forall_inv_tail F) OF) as (f' & p' & L' & P' & E); [cbn [app List.length] in L; lia|]. rewrite E. cbn [app]. do 2 f_equal. apply IH; [exact R| |exact L']. right. destruct ps as [|[]]; auto.
  - destruct R as (AC & R). destruct f as [|f]; [cbn in L; lia|]. change ([c] ++ lspell ps) with (c :: lspell ps) in *. rewrite rename_S. assert (ST : starts (zs "Parse") (c :: lspell ps) = false).
    { destruct (starts (zs "Parse") (c :: lspell ps)) eqn:E; [|reflexivity]. exfalso. apply starts_split in E. injection E as E _. subst c. discriminate AC. }
    rewrite ST. cbn [andb app]. f_equal. apply IH; [exact R|now left|cbn in L; lia].
Qed.

(** ** Lines *)

Lemma fgets_line : forall n l t, plain l -> List.length l < n -> fgets n (l ++ 10%Z :: t) = (l ++ [10%Z], t).
Proof.
  induction n as [|n IH]; intros l t P L; [lia|]. destruct l as [|c l]; [reflexivity|]. cbn [fgets app]. destruct (c =? 10)%Z eqn:E; [apply Z.eqb_eq in E; elim P; now left|]. rewrite IH; [reflexivity|intros K; apply P; now right|cbn in L; lia].
Qed.

(** The lines of a template before its next mark. *)
Definition short (l : txt) : Prop := plain l /\ List.length l < 999.
Definition body (ls : list txt) : txt := flat_map (fun l => l ++ [10%Z]) ls.
Definition marked (l : txt) : Prop := exists r, l = [37; 37]%Z ++ r.

Lemma is_mark_ok : forall l, is_mark l = true <-> marked l.
Proof.
  intros l. unfold is_mark. split.
  - intros H. apply starts_split in H. now exists (skipn 2 l).
  - intros (r & ->). reflexivity.
Qed.

(** The lines up to the mark are copied, words that begin with "Parse" beginning with the name; lineno counts them. *)
Theorem C66_xfer : forall k name ls m rest o, Forall (fun l => short l /\ ~ marked l) ls -> short m -> marked m -> (forall n, name = Some n -> plain n) -> lag k o ->
  let t := body ls ++ m ++ 10%Z :: rest in
  exists o', tplt_xfer (S (List.length t)) name t o = Ok (rest, o') /\ lag k o' /\
    o_text o' = o_text o ++ match name with Some n => flat_map (fun l => renamed n (lpieces l) ++ [10%Z]) ls | None => body ls end.
Proof.
  intros k name ls m rest o F SM MM PN H t. assert (G : forall ls f o, Forall (fun l => short l /\ ~ marked l) ls -> List.length ls < f -> lag k o ->
    exists o', tplt_xfer f name (body ls ++ m ++ 10%Z :: rest) o = Ok (rest, o') /\ lag k o' /\ o_text o' = o_text o ++ match name with Some n => flat_map (fun l => renamed n (lpieces l) ++ [10%Z]) ls | None => body ls end).
  { clear ls o F H t. induction ls as [|l ls IH]; intros f o F L H; (destruct f as [|f]; [cbn in L; lia|]); cbn [tplt_xfer body flat_map].
    - rewrite app_nil_l. destruct SM as (S1 & S2). rewrite fgets_line by assumption. destruct MM as (r & ->). cbn [app]. change (is_mark (37%Z :: 37%Z :: r ++ [10%Z])) with true. cbn iota. exists o. split; [reflexivity|]. split; [exact H|]. destruct name; now rewrite app_nil_r.
    - fold (body ls). destruct (Forall_inv F) as ((S1 & S2) & NM). rewrite <- !app_assoc. change ([10%Z] ++ body ls ++ m ++ 10%Z :: rest) with (10%Z :: (body ls ++ m ++ 10%Z :: rest)). rewrite fgets_line by assumption.
      assert (NMK : is_mark (l ++ [10%Z]) = false). { destruct (is_mark (l ++ [10%Z])) eqn:E; [|reflexivity]. exfalso. apply NM. apply is_mark_ok in E as (r & E). destruct l as [|a [|b l]]; try discriminate E. injection E as -> -> E. now exists l. }
      assert (LN : exists u, (match name with Some n => rename (List.length (l ++ [10%Z])) n 0%Z (l ++ [10%Z]) | None => l ++ [10%Z] end) = u /\ newlines u = 1 /\ u = match name with Some n => renamed n (lpieces l) ++ [10%Z] | None => l ++ [10%Z] end).
      { eexists. split; [reflexivity|]. destruct name as [n|]; [|split; [rewrite newlines_app, (newlines_plain l S1); reflexivity|reflexivity]].
        assert (RN : rename (List.length (l ++ [10%Z])) n 0%Z (l ++ [10%Z]) = renamed n (lpieces l) ++ [10%Z]).
        { destruct (lpieces_ok l) as (L1 & L2). assert (L3 : lspell (lpieces l ++ [Oth 10%Z]) = l ++ [10%Z]) by (unfold lspell in *; rewrite flat_map_app, L1; reflexivity).
          assert (L4 : runs_ok (lpieces l ++ [Oth 10%Z])). { clear - L2. induction (lpieces l) as [|p ps IH]; [now split|]. destruct p as [w|c]; cbn in *; [destruct L2 as (A & B & C & D)|destruct L2 as (A & D); split; [exact A|now apply IH]]. split; [exact A|]. split; [exact B|]. split; [destruct ps as [|[]]; [exact Logic.I|destruct C|exact Logic.I]|now apply IH]. }
          rewrite <- L3. rewrite rename_ok; [|exact L4|now left|lia]. unfold renamed. rewrite flat_map_app. reflexivity. }
        split; [|exact RN]. rewrite RN, newlines_app. change (newlines [10%Z]) with 1. assert (PR : plain (renamed n (lpieces l))).
        { destruct (lpieces_ok l) as (L1 & _). intros I. unfold renamed in I. apply in_flat_map in I as (p & P1 & P2). assert (PL : forall c, In c (lspell [p]) -> In c l). { intros c C. rewrite <- L1. unfold lspell in *. cbn in C. rewrite app_nil_r in C. apply in_flat_map. now exists p. }
          destruct p as [w|c]; cbn [renamed1] in P2.
          - unfold lspell in PL. cbn in PL. destruct (starts (zs "Parse") w); [|apply S1, PL; now rewrite app_nil_r]. apply in_app_iff in P2 as [P2|P2]; [exact (PN n eq_refl P2)|]. apply S1, PL. rewrite app_nil_r. rewrite <- (firstn_skipn 5 w). apply in_app_iff. now right.
          - apply S1, PL. exact P2. }
        rewrite (newlines_plain _ PR). reflexivity. }
      destruct LN as (u & U1 & U2 & U3). destruct (l ++ [10%Z]) as [|c0 r0] eqn:EL; [destruct l; discriminate EL|]. rewrite NMK. rewrite U1.
      destruct (IH f (put u (inc 1 o)) (Forall_inv_tail F)) as (o' & E1 & E2 & E3); [cbn in L; lia|unfold lag in *; cbn [o_line o_text put inc]; rewrite newlines_app, U2; lia|]. exists o'. split; [exact E1|]. split; [exact E2|]. rewrite E3. cbn [o_text put inc]. rewrite U3. unfold body. destruct name as [n|]; cbn [flat_map]; rewrite <- ?EL, ?app_assoc; reflexivity. }
  apply G; [exact F| |exact H]. unfold t. rewrite app_length. assert (List.length ls <= List.length (body ls)). { clear. induction ls as [|l ls IH]; [cbn; lia|]. unfold body in *. cbn [flat_map List.length]. rewrite !app_length. cbn [List.length]. lia. } lia.
Qed.

(** * The start of the file *)

Theorem C66_head : forall k file o, plain file -> lag k o -> lag k (emit_head file o).
Proof.
  intros k file o P H. unfold emit_head. cbn zeta. lag_step. apply lag_put_n; [exact H|]. rewrite !newlines_app, (newlines_plain _ P). reflexivity.
Qed.

(** The blank lines before %include's text go away and nothing else. *)
Theorem C66_include_text : forall t, exists a, t = a ++ strip_include [] t /\ Forall (fun c => isspace c = true) a /\ (a = [] \/ exists b, a = b ++ [10%Z]) /\
  (forall b r, strip_include [] t = b ++ 10%Z :: r -> ~ Forall (fun c => isspace c = true) b).
Proof.
  intros t. assert (G : forall t p, Forall (fun c => isspace c = true) p -> plain p -> exists a, p ++ t = a ++ strip_include p t /\ Forall (fun c => isspace c = true) a /\ (a = [] \/ exists b, a = b ++ [10%Z]) /\ (forall b r, strip_include p t = b ++ 10%Z :: r -> ~ Forall (fun c => isspace c = true) b)).
  { clear t. induction t as [|c t IH]; intros p FP PP; cbn [strip_include].
    - exists []. rewrite app_nil_r. split; [reflexivity|]. split; [constructor|]. split; [now left|]. intros b r E _. apply PP. rewrite E. apply in_elt.
    - destruct (isspace c) eqn:SC.
      + destruct (c =? 10)%Z eqn:E10.
        * apply Z.eqb_eq in E10. subst c. destruct (IH [] (Forall_nil _) (fun K => K)) as (a & A1 & A2 & A3 & A4). cbn [app] in A1. exists (p ++ 10%Z :: a). split; [rewrite <- app_assoc, <- app_comm_cons; congruence|]. split; [apply Forall_app; split; [exact FP|now constructor]|]. split; [right|exact A4].
          destruct A3 as [->|(b & ->)]; [now exists p|]. exists (p ++ 10%Z :: b). now rewrite <- app_assoc.
        * destruct (IH (p ++ [c])) as (a & A1 & A2 & A3 & A4); [apply Forall_app; split; [exact FP|now repeat constructor]|intros K; apply in_app_iff in K as [K|[K|[]]]; [now apply PP|]; subst; discriminate E10|]. exists a. rewrite <- app_assoc in A1. now repeat split.
      + exists []. split; [reflexivity|]. split; [constructor|]. split; [now left|]. intros b r E FB. revert p FP PP E. induction b as [|d b IHb]; intros p FP PP E.
        * destruct p as [|q p]; cbn in E; [injection E as -> _; discriminate SC|]. injection E as -> _. elim PP. now left.
        * destruct p as [|q p]; cbn in E; [injection E as -> _; pose proof (Forall_inv FB); congruence|]. injection E as -> E. apply (IHb (Forall_inv_tail FB) p (Forall_inv_tail FP)); [intros K; apply PP; now right|exact E]. }
  exact (G t [] (Forall_nil _) (fun K => K)).
Qed.

(** Without a header comment of its own %include lies between the first two parts of the template. *)
Theorem C66_include : forall k e name include ls m rest o, plain (eo_outname e) -> Forall (fun l => short l /\ ~ marked l) ls -> short m -> marked m -> (forall n, name = Some n -> plain n) -> lag k o ->
  (forall r, strip_include [] include <> 47%Z :: r) -> strip_include [] include <> [] ->
  exists o' u, emit_include e name (Some include) (body ls ++ m ++ 10%Z :: rest) o = Ok (rest, o') /\ lag k o' /\
    o_text o' = o_text o ++ match name with Some n => flat_map (fun l => renamed n (lpieces l) ++ [10%Z]) ls | None => body ls end ++ strip_include [] include ++ u /\
    (u = [] \/ u = [10%Z] \/ exists n, u = line_text n (eo_outname e) \/ u = 10%Z :: line_text n (eo_outname e)).
Proof.
  intros k e name include ls m rest o PO F SM MM PN H NS NE. set (inc0 := strip_include [] include) in *.
  assert (T : match inc0 with c :: _ => (c =? 47)%Z | [] => false end = false). { destruct inc0 as [|c r]; [reflexivity|]. destruct (c =? 47)%Z eqn:E; [|reflexivity]. apply Z.eqb_eq in E. subst c. elim (NS r). reflexivity. }
  destruct (C66_xfer k name ls m rest o F SM MM PN H) as (o1 & X1 & X2 & X3).
  destruct (C66_print k (eo_nolinenos e) (eo_outname e) inc0 o1 PO X2 NE) as (o2 & P1 & P2 & u & U1 & U2 & U3 & U4).
  assert (IE : emit_include e name (Some include) (body ls ++ m ++ 10%Z :: rest) o = Ok (rest, o2)).
  { unfold emit_include. cbv beta iota zeta. fold inc0. rewrite T, X1. cbn [bind fst snd]. exact (f_equal (fun r => bind r (fun o => Ok (rest, o))) P1). }
  rewrite IE.
  destruct (eo_nolinenos e) eqn:NL.
  - specialize (U3 eq_refl). destruct U1 as [-> | ->].
    + exists o2, []. split; [reflexivity|]. split; [exact P2|]. rewrite U3, X3, app_nil_r, !app_assoc. split; [reflexivity|now left].
    + exists o2, [10%Z]. split; [reflexivity|]. split; [exact P2|]. rewrite U3, X3, !app_assoc. split; [reflexivity|right; now left].
  - destruct (U4 eq_refl) as (n & N1 & N2). destruct U1 as [-> | ->].
    + exists o2, (line_text n (eo_outname e)). split; [reflexivity|]. split; [exact P2|]. rewrite N1, X3, !app_assoc. split; [reflexivity|]. right; right. exists n. now left.
    + exists o2, (10%Z :: line_text n (eo_outname e)). split; [reflexivity|]. split; [exact P2|]. split; [|right; right; exists n; now right]. rewrite N1, X3. change (10%Z :: line_text n (eo_outname e)) with ([10%Z] ++ line_text n (eo_outname e)). now rewrite !app_assoc.
Qed.

(** The numbers of the terminals: the count falls one behind unless the option -m is given. *)
Theorem C66_tokens : forall k (mh : bool) prefix names o, plain prefix -> Forall plain names -> lag k o -> lag (if mh then k else S k) (emit_tokens mh prefix names o).
Proof.
  intros k mh prefix names o PP PN H. unfold emit_tokens. cbn zeta. lag_step.
  assert (H0 : lag (if mh then k else S k) (if mh then inc 1 (put (zs "#if INTERFACE" ++ nl) o) else put (zs "#ifndef " ++ prefix ++ nth 0 names [] ++ nl) o)).
  { destruct mh; [now lag_step|]. unfold lag in *. cbn [o_line o_text put]. assert (P0 : plain (nth 0 names [])) by (destruct PN as [|x r X]; [intros K; exact K|exact X]). rewrite !newlines_app, (newlines_plain _ PP), (newlines_plain _ P0). change (newlines (zs "#ifndef ")) with 0. change (newlines nl) with 1. lia. }
  assert (G : forall l i k o, Forall plain l -> lag k o -> lag k (fold_left (fun o x => inc 1 (put (zs "#define " ++ prefix ++ (snd x ++ repeat 32%Z (30 - List.length (snd x))) ++ zs " " ++ (repeat 32%Z (2 - List.length (zdec (Z.of_nat (fst x)))) ++ zdec (Z.of_nat (fst x))) ++ nl) o)) (index_from i l) o)).
  { clear - PP. induction l as [|x l IH]; intros i k o F H; [exact H|]. cbn [index_from fold_left]. apply IH; [exact (Forall_inv_tail F)|]. apply lag_put_n; [exact H|]. cbn [fst snd].
    rewrite !newlines_app, (newlines_plain _ PP), (newlines_plain _ (Forall_inv F)), (newlines_plain _ (zdec_plain _)).
    assert (RP : forall n, newlines (repeat 32%Z n) = 0) by (induction n as [|n IHn]; [reflexivity|exact IHn]). rewrite !RP. reflexivity. }
  exact (G names 1 _ _ PN H0).
Qed.

(** * Where the numbers are wrong *)

Definition empty_out : outp := mkOut [] 1.
Definition opts0 : emitopts := mkEo None None false (zs "g.y") (zs "g.c").
Definition rule0 : erule := mkEr (zs " act(); ") None None false 7 (zs "a ::= B") false true.

(** The "#ifndef" before the numbers of the terminals is not counted: without -m every later #line that leads back to the generated file names the line before. *)
Theorem C66_line_refuted : exists e r prefix names a n b, plain (eo_filename e) /\ plain (eo_outname e) /\ tidy r /\ plain prefix /\ Forall plain names /\ names <> [] /\
  o_text (emit_code e r (emit_tokens false prefix names (emit_head (eo_filename e) empty_out))) = a ++ line_text n (eo_outname e) ++ b /\
  n <> S (newlines (a ++ line_text n (eo_outname e))).
Proof.
  set (o := emit_tokens false [] [zs "B"] (emit_head (zs "g.y") empty_out)).
  destruct (C66_code 1 opts0 rule0 o) as (_ & C).
  - intros K. cbn in K. intuition discriminate.
  - intros K. cbn in K. intuition discriminate.
  - vm_compute. intuition discriminate.
  - apply (C66_tokens 0 false); [intros []|repeat constructor; intros K; cbn in K; intuition discriminate|]. apply C66_head; [intros K; cbn in K; intuition discriminate|reflexivity].
  - destruct (C eq_refl) as (n & E & N). cbn zeta in E, N. eexists opts0, rule0, [], [zs "B"], _, n, _. split; [intros K; cbn in K; intuition discriminate|]. split; [intros K; cbn in K; intuition discriminate|]. split; [vm_compute; intuition discriminate|]. split; [intros []|]. split; [repeat constructor; intros K; cbn in K; intuition discriminate|]. split; [discriminate|]. split.
    + etransitivity; [exact E|]. rewrite app_assoc. reflexivity.
    + rewrite <- app_assoc. lia.
Qed.

(** When %include begins with a comment the header of the template is left out and yet counted. *)
Theorem C66_skip_refuted : exists e include tmpl o rest o', plain (eo_outname e) /\ lag 0 o /\ emit_include e None (Some include) tmpl o = Ok (rest, o') /\ ~ lag 0 o'.
Proof.
  exists opts0, (zs "/* mine */" ++ [10%Z]), (zs "/* header" ++ [10%Z] ++ zs "*/" ++ [10%Z] ++ zs "%%" ++ [10%Z] ++ zs "rest"), empty_out. eexists. eexists. split; [intros K; cbn in K; intuition discriminate|]. split; [reflexivity|]. split; [vm_compute; reflexivity|]. vm_compute. discriminate.
Qed.

(** Without %include, or with one of blank lines only, tplt_print reads the character before the empty text. *)
Theorem C66_no_include : forall e name ls m rest o, Forall (fun l => short l /\ ~ marked l) ls -> short m -> marked m -> (forall n, name = Some n -> plain n) -> lag 0 o ->
  emit_include e name None (body ls ++ m ++ 10%Z :: rest) o = Bad.
Proof.
  intros e name ls m rest o F SM MM PN H. destruct (C66_xfer 0 name ls m rest o F SM MM PN H) as (o1 & X1 & X2 & X3). unfold emit_include. cbv beta iota zeta. cbn [strip_include]. rewrite X1. reflexivity.
Qed.

Theorem C66_include_refuted : exists e name tmpl o, lag 0 o /\ emit_include e name None tmpl o = Bad.
Proof. exists opts0, None, (zs "%%" ++ [10%Z]), empty_out. split; reflexivity. Qed.

(** A line of the template longer than the buffer counts as two. *)
Theorem C66_long_refuted : exists l rest o o', plain l /\ lag 0 o /\ tplt_xfer (S (List.length (l ++ [10%Z]))) None (l ++ [10%Z]) o = Ok (rest, o') /\ o_text o' = o_text o ++ l ++ [10%Z] /\ ~ lag 0 o'.
Proof.
  exists (repeat 97%Z (Z.to_nat 1000)), [], empty_out. eexists. split; [intros K; apply repeat_spec in K; discriminate K|]. split; [reflexivity|]. split; [vm_compute; reflexivity|]. split; [vm_compute; reflexivity|]. vm_compute. discriminate.
Qed.

(** * Examples *)

Ltac is_plain := intros K; vm_compute in K; intuition discriminate.

Example C66_hypotheses :
  let ls := [zs "void ParseInit(void *Parser, XParse p){"; []; zs "  Parse1();"] in
  Forall (fun l => short l /\ ~ marked l) ls /\ short (zs "%% next") /\ marked (zs "%% next") /\ plain (zs "my") /\ lag 0 empty_out /\
  (exists rest o', tplt_xfer (Z.to_nat 200) (Some (zs "my")) (body ls ++ zs "%% next" ++ 10%Z :: zs "rest") empty_out = Ok (rest, o') /\ rest = zs "rest" /\
     o_text o' = body [zs "void myInit(void *myr, XParse p){"; []; zs "  my1();"] /\ o_line o' = 4) /\
  strip_include [] (zs "  " ++ [10%Z] ++ zs "  #include <x.h>") = zs "  #include <x.h>" /\
  (exists o', tplt_print false (zs "g.c") (Some (zs "int x;")) empty_out = Ok o' /\ o_text o' = zs "int x;" ++ [10%Z] ++ zs "#line 3 ""g.c""" ++ [10%Z] /\ o_line o' = 3).
Proof.
  cbn zeta. split; [repeat constructor; try is_plain; try (vm_compute; lia); intros (r & E); discriminate E|]. split; [split; [is_plain|vm_compute; lia]|]. split; [eexists; reflexivity|]. split; [is_plain|]. split; [reflexivity|].
  split; [eexists; eexists; split; [vm_compute; reflexivity|]; repeat split; vm_compute; reflexivity|]. split; [vm_compute; reflexivity|]. eexists. split; [vm_compute; reflexivity|]. split; vm_compute; reflexivity.
Qed.

Print Assumptions C66_print.
Print Assumptions C66_code.
Print Assumptions C66_destructors.
Print Assumptions C66_rules.
Print Assumptions C66_xfer.
Print Assumptions C66_include.
Print Assumptions C66_tokens.
Print Assumptions C66_line_refuted.
Print Assumptions C66_skip_refuted.
Print Assumptions C66_long_refuted.
Print Assumptions C66_no_include.
