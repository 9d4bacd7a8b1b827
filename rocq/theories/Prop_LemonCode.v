(** C62: what translate_code makes of the code of a rule, and what it reports. *)
From Coq Require Import List Arith ZArith Bool Lia String.
Import ListNotations.
From Verif Require Import Base LemonPreModel LemonPrintfModel LemonCodeModel Prop_LemonPrintf SpecCode LemonCodeProof.
Open Scope res_scope.

(** * Every text is cut in one way *)

(** The longest run of word characters. *)
Fixpoint run (t : txt) : txt * txt :=
  match t with c :: r => if wordch c then let (w, u) := run r in (c :: w, u) else ([], t) | [] => ([], []) end.

Fixpoint cutf (fuel : nat) (behind : bool) (t : txt) : list wpiece :=
  match fuel, t with
  | S f, c :: r => if (isalpha c && negb behind)%bool then let (w, u) := run r in W (c :: w) :: cutf f true u else O c :: cutf f (wordch c) r
  | _, _ => []
  end.

Lemma run_ok : forall t w u, run t = (w, u) -> t = w ++ u /\ Forall (fun c => wordch c = true) w /\ match u with c :: _ => wordch c = false | [] => True end.
Proof.
  induction t as [|c t IH]; intros w u H; cbn [run] in H; [injection H as <- <-; repeat split; constructor|]. destruct (wordch c) eqn:E.
  - destruct (run t) as (w', u') eqn:R. injection H as <- <-. destruct (IH _ _ eq_refl) as (-> & F & U). split; [reflexivity|]. split; [now constructor|exact U].
  - injection H as <- <-. split; [reflexivity|]. split; [constructor|exact E].
Qed.

Lemma run_len : forall t w u, run t = (w, u) -> List.length u <= List.length t.
Proof. intros t w u H. apply run_ok in H as (-> & _). rewrite app_length. lia. Qed.

Definition behind_of (p : wpiece) : bool := match p with W _ => true | O c => wordch c end.

Lemma cutf_ok : forall fuel t p, List.length t <= fuel -> no0 t -> (match p with W _ => match t with c :: _ => wordch c = false | [] => True end | O _ => True end) ->
  let ps := cutf fuel (behind_of p) t in wspell ps = t /\ Forall wf_piece ps /\ fits_all p ps.
Proof.
  induction fuel as [|f IH]; intros t p L N H; [destruct t; [repeat split; constructor|cbn in L; lia]|].
  destruct t as [|c r]; [repeat split; constructor|]. cbn [cutf]. cbn zeta. cbn [List.length] in L. inversion N as [|? ? N1 N2]; subst.
  destruct (isalpha c && negb (behind_of p))%bool eqn:E.
  - apply andb_true_iff in E as (E1 & E2). apply negb_true_iff in E2. destruct (run r) as (w, u) eqn:R. pose proof (run_len _ _ _ R) as LU. apply run_ok in R as (-> & F & U).
    destruct (IH u (W (c :: w)) ltac:(lia)) as (S1 & W1 & F1); [apply Forall_app in N2; apply N2|exact U|]. change (behind_of (W (c :: w))) with true in *.
    split; [cbn [wspell flat_map wspell1]; fold (wspell (cutf f true u)); rewrite S1; reflexivity|]. split; [constructor; [exists c, w; now repeat split|exact W1]|]. split; [|exact F1].
    destruct p as [v|d]; [discriminate E2|exact E2].
  - destruct (IH r (O c) ltac:(lia) N2 Logic.I) as (S1 & W1 & F1). cbn [behind_of] in *.
    split; [cbn [wspell flat_map wspell1 app]; fold (wspell (cutf f (wordch c) r)); now rewrite S1|]. split; [constructor; assumption|]. split; [|exact F1].
    destruct p as [v|d]; cbn [fits behind_of] in *; [exact H|]. intros AL. rewrite AL in E. cbn [andb] in E. now apply negb_false_iff in E.
Qed.

Definition pieces (t : txt) : list wpiece := cutf (List.length t) false t.

Theorem cut_pieces : forall t, no0 t -> cut t (pieces t).
Proof. intros t N. exact (cutf_ok (List.length t) t (O 32%Z) (le_n _) N Logic.I). Qed.

Lemma cut_unique_gen : forall ps qs p, Forall wf_piece ps -> Forall wf_piece qs -> fits_all p ps -> fits_all p qs -> wspell ps = wspell qs -> ps = qs.
Proof.
  assert (RU : forall w v a b, Forall (fun c => wordch c = true) w -> Forall (fun c => wordch c = true) v -> match a with c :: _ => wordch c = false | [] => True end ->
    match b with c :: _ => wordch c = false | [] => True end -> w ++ a = v ++ b -> w = v).
  { induction w as [|x w IH]; intros [|y v] a b FW FV A B E; try reflexivity.
    - cbn in E. subst a. inversion FV; congruence.
    - cbn in E. subst b. inversion FW; congruence.
    - injection E as -> E. inversion FW; inversion FV; subst. f_equal. now apply (IH v a b). }
  assert (HD : forall w ps, Forall wf_piece ps -> fits_all (W w) ps -> match wspell ps with c :: _ => wordch c = false | [] => True end).
  { intros w [|[v|c] ps] F H; [exact Logic.I|destruct H as ([] & _)|]. destruct H as (H & _). exact H. }
  induction ps as [|p0 ps IH]; intros qs p FP FQ HP HQ E.
  - destruct qs as [|q qs]; [reflexivity|]. exfalso. pose proof (Forall_inv FQ) as Q. destruct q as [w|c]; [destruct Q as (c & v & -> & _)|]; discriminate E.
  - destruct qs as [|q qs].
    + exfalso. pose proof (Forall_inv FP) as Q. destruct p0 as [w|c]; [destruct Q as (c & v & -> & _)|]; discriminate E.
    + pose proof (Forall_inv FP) as P1. pose proof (Forall_inv_tail FP) as P2. pose proof (Forall_inv FQ) as Q1. pose proof (Forall_inv_tail FQ) as Q2.
      destruct HP as (HP1 & HP2), HQ as (HQ1 & HQ2). change (wspell1 p0 ++ wspell ps = wspell1 q ++ wspell qs) in E.
      assert (WO : forall w c x y, is_word w -> fits p (W w) -> fits p (O c) -> w ++ x = c :: y -> False).
      { intros w c x y (d & v & -> & AL & _) F1 F2 EE. injection EE as -> _. destruct p as [u|e]; [exact F1|]. cbn in *. specialize (F2 AL). congruence. }
      assert (EQ : p0 = q).
      { destruct p0 as [w|c], q as [v|d]; cbn [wspell1 app] in E.
        - f_equal. assert (WA : forall u, is_word u -> Forall (fun c => wordch c = true) u) by (intros u (e & u' & -> & A & F); constructor; [now apply alpha_word|exact F]).
          apply (RU w v _ _ (WA _ P1) (WA _ Q1) (HD w ps P2 HP2) (HD v qs Q2 HQ2) E).
        - exfalso. exact (WO w d _ _ P1 HP1 HQ1 E).
        - exfalso. exact (WO v c _ _ Q1 HQ1 HP1 (eq_sym E)).
        - injection E as -> _. reflexivity. }
      subst q. f_equal. apply app_inv_head in E. apply (IH qs p0); assumption.
Qed.

Theorem cut_unique : forall t ps qs, cut t ps -> cut t qs -> ps = qs.
Proof. intros t ps qs (S1 & W1 & F1) (S2 & W2 & F2). apply (cut_unique_gen ps qs (O 32%Z)); congruence || assumption. Qed.

(** Hence the code of every rule has a layout. *)
Theorem laid_out_exists : forall r, no0 (code_of r) -> exists pa pb, laid_out r (code_of r) pa pb.
Proof.
  intros r N. destruct (comment r) as [c|] eqn:C.
  - pose proof (strstr_ok (code_of r) c) as SS. destruct (strstr (code_of r) c) as [k|].
    + destruct SS as ((a & b & E & L) & MIN). rewrite E in N. apply Forall_app in N as (NA & N). apply Forall_app in N as (_ & NB).
      exists (pieces a), (Some (pieces b)). exists c, a, b. split; [exact C|]. split; [exact E|]. split; [now apply cut_pieces|]. split; [now apply cut_pieces|]. rewrite L. exact MIN.
    + exists (pieces (code_of r)), None. split; [now apply cut_pieces|]. intros c' a b H. rewrite C in H. injection H as <-. apply SS.
  - exists (pieces (code_of r)), None. split; [now apply cut_pieces|]. intros c' a b H. congruence.
Qed.

(** * The theorem *)

(** If no part of the code ends with a label, translate_code stays inside its arrays; the new code is the old one with
    every label replaced by its place on the stack; what goes before and after destroys exactly the values without
    label, each once, and moves the left-hand side into place; and the messages are exactly the misuses. *)
Theorem C62_translate_partial : forall td vd r pa pb, rule_ok r -> laid_out r (code_of r) pa pb -> no_label_last r pa -> no_label_last r (later pb) ->
  exists t, translate_code td vd r = Ok t /\ tr_code t = new_code r pa pb /\
    tr_prefix t = some_text (before td vd r) /\ tr_suffix t = some_text (after td vd r (direct r pb)) /\
    (tr_nocode t = true <-> cr_code r = None /\ before td vd r = [] /\ after td vd r (direct r pb) = []) /\
    tr_lhsminor t = negb (direct r pb) /\ (forall m, In m (tr_msgs t) <-> misuse r pa pb m).
Proof. exact translate_ok. Qed.

(** Without any message: every label is used, none stands for two symbols, and where the left-hand side takes the
    place of a labelled first symbol, that symbol is not named any more behind the comment. *)
Theorem C62_no_message : forall td vd r pa pb t, rule_ok r -> laid_out r (code_of r) pa pb -> no_label_last r pa -> no_label_last r (later pb) ->
  translate_code td vd r = Ok t -> tr_msgs t = [] ->
  (forall i j l, label_at r i = Some l -> label_at r j = Some l -> i = j) /\
  (forall i l, label_at r i = Some l -> (0 < i -> cr_lhsalias r <> Some l) /\ (shared r /\ i = 0 \/ In (W l) (pa ++ later pb))) /\
  (forall l, cr_lhsalias r = Some l -> shared r \/ In (W l) (pa ++ later pb)) /\
  (forall l, label_at r 0 = Some l -> ~ shared r -> ~ In (W l) (later pb)).
Proof.
  intros td vd r pa pb t R LO NA NB E NM. destruct (translate_ok td vd r pa pb R LO NA NB) as (t' & E' & _ & _ & _ & _ & _ & MM). rewrite E in E'. injection E' as <-. rewrite NM in MM.
  assert (NO : forall m, ~ misuse r pa pb m) by (intros m H; apply MM in H; exact H). clear MM.
  assert (SD : shared r \/ ~ shared r).
  { unfold shared. destruct (cr_lhsalias r) as [l|]; [|right; intros (l & _ & _ & [=] & _)]. destruct (cr_rhs r) as [|[s [a|]] rest]; [right; intros (? & ? & ? & _ & [=])| |right; intros (? & ? & ? & _ & [=])].
    destruct (txt_dec l a) as [->|N]; [left; now exists a, s, rest|right; intros (l' & s' & r' & [= <-] & [= _ <- _]); congruence]. }
  assert (WD : forall p q : wpiece, {p = q} + {p <> q}). { decide equality; [apply txt_dec|apply Z.eq_dec]. }
  assert (TW : forall i j l, label_at r i = Some l -> label_at r j = Some l -> i = j).
  { intros i j l I J. destruct (lt_eq_lt_dec i j) as [[H|H]|H]; [|exact H|]; exfalso.
    - exact (NO _ (mu_twice r pa pb j i l H I J)).
    - exact (NO _ (mu_twice r pa pb i j l H J I)). }
  assert (SM : forall i l, label_at r i = Some l -> 0 < i -> cr_lhsalias r <> Some l) by (intros i l H1 H2 H3; exact (NO _ (mu_same r pa pb i l H2 H3 H1))).
  assert (ME : forall i l, label_at r i = Some l -> ~ (shared r /\ i = 0) -> means r l = Rhs i).
  { intros i l H1 H2. unfold means. assert (FL : first_label (cr_rhs r) l = Some i).
    { destruct (first_label (cr_rhs r) l) as [j|] eqn:F; [|now elim (first_label_none _ _ F i)]. apply first_label_some in F as (_ & F & _). f_equal. exact (TW j i l F H1). }
    rewrite FL. destruct (cr_lhsalias r) as [k|] eqn:EL; [|reflexivity]. destruct (txt_dec k l) as [->|_]; [|reflexivity]. exfalso. destruct i as [|i]; [|exact (SM (S i) l H1 ltac:(lia) eq_refl)].
    apply H2. split; [|reflexivity]. unfold label_at in H1. destruct (cr_rhs r) as [|[s a] rest] eqn:ER; [discriminate H1|]. cbn in H1. subst a. now exists l, s, rest. }
  split; [exact TW|]. split; [|split].
  - intros i l H. split; [now apply SM|]. destruct SD as [SD|SD].
    + destruct i as [|i]; [now left|]. right. destruct (in_dec WD (W l) (pa ++ later pb)) as [I|I]; [exact I|]. exfalso. apply (NO (MUnused (S i))). apply (mu_unused r pa pb (S i) l H); [discriminate|].
      intros w W1 W2. pose proof (means_rhs r w (S i) W2) as (_ & W3). rewrite H in W3. injection W3 as ->. contradiction.
    + right. destruct (in_dec WD (W l) (pa ++ later pb)) as [I|I]; [exact I|]. exfalso. apply (NO (MUnused i)). apply (mu_unused r pa pb i l H); [intros _; exact SD|].
      intros w W1 W2. pose proof (means_rhs r w i W2) as (_ & W3). rewrite H in W3. injection W3 as ->. contradiction.
  - intros l H. destruct SD as [SD|SD]; [now left|right]. destruct (in_dec WD (W l) (pa ++ later pb)) as [I|I]; [exact I|]. exfalso. exact (NO _ (mu_lhs r pa pb l H SD I)).
  - intros l H SN I. apply (NO MAfter). apply (mu_after r pa pb l I). apply (ME 0 l H). tauto.
Qed.

(** * Examples *)

Definition nt (dt idx : Z) (dest : bool) : csym := mkSym SNonterminal idx dt dest 0.
Definition tm (idx : Z) : csym := mkSym STerminal idx 0 false 0.

(** expr(A) ::= expr(B) PLUS term(C).  { A = B + C*B_C; f(@C, "B"); } *)
Definition ex62 : crule := mkRule (nt 12 20 false) (Some (zs "A")) [(nt 12 20 false, Some (zs "B")); (tm 3, None); (nt 7 21 true, Some (zs "C"))] (Some (zs " A = B + C*B_C; f(@C, ""B""); ")).

(** stmt(A) ::= expr(BB) SEMI.  { f(BB); /*A-overwrites-BB*/ A = 1; g(BB); } *)
Definition ex62b : crule := mkRule (nt 12 20 false) (Some (zs "A")) [(nt 12 20 false, Some (zs "BB")); (tm 3, None)] (Some (zs " f(BB); /*A-overwrites-BB*/ A = 1; g(BB); ")).

Lemma is_word_b : forall w, match w with c :: r => (isalpha c && forallb wordch r)%bool | [] => false end = true -> is_word w.
Proof. intros [|c r] H; [discriminate H|]. apply andb_true_iff in H as (H1 & H2). exists c, r. split; [reflexivity|]. split; [exact H1|]. now apply Forall_forall, forallb_forall. Qed.

Example C62_hypotheses : rule_ok ex62 /\ laid_out ex62 (code_of ex62) (pieces (code_of ex62)) None /\ no_label_last ex62 (pieces (code_of ex62)) /\
  exists t, translate_code true false ex62 = Ok t /\
    tr_code t = zs " yylhsminor.yy12 = yymsp[-2].minor.yy12 + yymsp[0].minor.yy7*B_C; f(yymsp[0].major, ""yymsp[-2].minor.yy12""); " /\
    tr_prefix t = None /\ tr_msgs t = [] /\ tr_lhsminor t = true /\
    tr_suffix t = Some (zs "  yy_destructor(yypParser,3,&yymsp[-1].minor);
  yymsp[-2].minor.yy12 = yylhsminor.yy12;
").
Proof.
  split; [|split; [|split]].
  - constructor.
    + cbn. lia.
    + intros l [= <-]. now apply is_word_b.
    + intros s a I. cbn in I. destruct I as [I|[I|[I|[]]]]; injection I as _ <- || discriminate I; now apply is_word_b.
    + repeat constructor; cbn; lia.
    + intros c H. vm_compute in H. injection H as <-. cbn. lia.
  - split; [apply cut_pieces; repeat constructor; discriminate|]. intros c a b H. assert (S0 : strstr (code_of ex62) c = None). { vm_compute in H. injection H as <-. reflexivity. }
    pose proof (strstr_ok (code_of ex62) c) as SS. rewrite S0 in SS. apply SS.
  - intros qs w E. apply (f_equal (@rev wpiece)) in E. rewrite rev_app_distr in E. vm_compute in E. discriminate E.
  - eexists. split; [vm_compute; reflexivity|]. repeat split; reflexivity.
Qed.

(** BB behind the comment is reported and left out. *)
Example C62_comment_hypotheses : laid_out ex62b (code_of ex62b) (pieces (zs " f(BB); ")) (Some (pieces (zs " A = 1; g(BB); "))) /\
  exists t, translate_code true false ex62b = Ok t /\
    tr_code t = zs " f(yymsp[-1].minor.yy12); /*A-overwrites-BB*/ yymsp[-1].minor.yy12 = 1; g(); " /\ tr_msgs t = [MAfter] /\ tr_lhsminor t = false.
Proof.
  split.
  - exists (zs "/*A-overwrites-BB*/"), (zs " f(BB); "), (zs " A = 1; g(BB); "). split; [reflexivity|]. split; [reflexivity|]. split; [apply cut_pieces; repeat constructor; discriminate|].
    split; [apply cut_pieces; repeat constructor; discriminate|]. intros a b E. pose proof (strstr_ok (code_of ex62b) (zs "/*A-overwrites-BB*/")) as SS.
    assert (S0 : strstr (code_of ex62b) (zs "/*A-overwrites-BB*/") = Some 8) by reflexivity. rewrite S0 in SS. destruct SS as (_ & SS). exact (SS a b E).
  - eexists. split; [vm_compute; reflexivity|]. repeat split; reflexivity.
Qed.

(** * What does not hold *)

(** expr(A) ::= expr(B) X. {A=B}: the loop steps over the terminating zero byte and reads behind the string. *)
Theorem C62_label_at_end_refuted : exists r, rule_ok r /\ code_of r = zs "A=B" /\ forall td vd, translate_code td vd r = Bad.
Proof.
  exists (mkRule (nt 12 20 false) (Some (zs "A")) [(nt 12 20 false, Some (zs "B")); (tm 3, None)] (Some (zs "A=B"))). split; [|split; [reflexivity|intros [] []; vm_compute; reflexivity]].
  constructor.
  - cbn. lia.
  - intros l [= <-]. now apply is_word_b.
  - intros s a I. cbn in I. destruct I as [I|[I|[]]]; injection I as _ <- || discriminate I; now apply is_word_b.
  - repeat constructor; cbn; lia.
  - intros c H. vm_compute in H. injection H as <-. cbn. lia.
Qed.

(** { x=B/*A-overwrites-B*/; A=1; f(B); }: the comment is stepped over, so the use of B behind it, which reads the value of A, is
    not reported; the labels inside the comment are replaced. *)
Theorem C62_comment_after_label_refuted : exists r pa pb t, rule_ok r /\ laid_out r (code_of r) pa (Some pb) /\ misuse r pa (Some pb) MAfter /\
  translate_code false false r = Ok t /\ tr_msgs t = [] /\ tr_lhsminor t = false.
Proof.
  set (r := mkRule (nt 12 20 false) (Some (zs "A")) [(nt 12 20 false, Some (zs "B")); (tm 3, None)] (Some (zs "x=B/*A-overwrites-B*/; A=1; f(B);"))).
  exists r, (pieces (zs "x=B")), (pieces (zs "; A=1; f(B);")).
  assert (T : exists t, translate_code false false r = Ok t /\ tr_msgs t = [] /\ tr_lhsminor t = false) by (eexists; split; [vm_compute; reflexivity|split; reflexivity]).
  destruct T as (t & T1 & T2). exists t. split; [|split; [|split; [|split; [exact T1|exact T2]]]].
  - constructor.
    + cbn. lia.
    + intros l [= <-]. now apply is_word_b.
    + intros s a I. cbn in I. destruct I as [I|[I|[]]]; injection I as _ <- || discriminate I; now apply is_word_b.
    + repeat constructor; cbn; lia.
    + intros c H. vm_compute in H. injection H as <-. cbn. lia.
  - exists (zs "/*A-overwrites-B*/"), (zs "x=B"), (zs "; A=1; f(B);"). split; [reflexivity|]. split; [reflexivity|]. split; [apply cut_pieces; repeat constructor; discriminate|].
    split; [apply cut_pieces; repeat constructor; discriminate|]. intros a b E. pose proof (strstr_ok (code_of r) (zs "/*A-overwrites-B*/")) as SS.
    assert (S0 : strstr (code_of r) (zs "/*A-overwrites-B*/") = Some 3) by reflexivity. rewrite S0 in SS. destruct SS as (_ & SS). exact (SS a b E).
  - apply (mu_after r _ _ (zs "B")); [|reflexivity]. vm_compute. tauto.
Qed.

(** A class of terminals (A|B) without label: with %token_destructor the value of the token is not destroyed. *)
Theorem C62_class_refuted : exists r s, rule_ok r /\ cr_rhs r = [(s, None); (tm 3, None)] /\ cs_type s = SMulti /\
  exists t, translate_code true false r = Ok t /\ tr_prefix t = None /\ tr_suffix t = Some (destroy (tm 3) 0).
Proof.
  exists (mkRule (nt 12 20 false) None [(mkSym SMulti 30 0 false 0, None); (tm 3, None)] None), (mkSym SMulti 30 0 false 0). split; [|split; [reflexivity|split; [reflexivity|]]].
  - constructor.
    + cbn. lia.
    + intros l [=].
    + intros s a I. cbn in I. destruct I as [I|[I|[]]]; discriminate I.
    + repeat constructor; cbn; lia.
    + intros c H. discriminate H.
  - eexists. split; [vm_compute; reflexivity|]. split; reflexivity.
Qed.

(** Labels of 450 characters: zOvwrt[900] is overrun. *)
Theorem C62_long_labels_refuted : exists r l, cr_lhsalias r = Some l /\ is_word l /\ List.length l = 450 /\ forall td vd, translate_code td vd r = Bad.
Proof.
  exists (mkRule (nt 12 20 false) (Some (repeat 97%Z 450)) [(nt 12 20 false, Some (repeat 98%Z 450))] (Some (zs ";"))), (repeat 97%Z 450).
  split; [reflexivity|]. split; [apply is_word_b; reflexivity|]. split; [reflexivity|]. intros [] []; vm_compute; reflexivity.
Qed.

Print Assumptions cut_pieces.
Print Assumptions cut_unique.
Print Assumptions laid_out_exists.
Print Assumptions C62_translate_partial.
Print Assumptions C62_no_message.
Print Assumptions C62_label_at_end_refuted.
Print Assumptions C62_comment_after_label_refuted.
Print Assumptions C62_class_refuted.
Print Assumptions C62_long_labels_refuted.
