(** Proofs about the preprocessor of lemon: the character loop is a loop over lines. *)
From Coq Require Import List Arith ZArith Bool Lia String.
Import ListNotations.
From Verif Require Import Base LemonPreModel.
Open Scope res_scope.

Definition nonl (l : list Z) : Prop := ~ In 10%Z l.

(** Lines joined by newlines. *)
Fixpoint join (ls : list (list Z)) : list Z :=
  match ls with [] => [] | [l] => l | l :: r => l ++ 10%Z :: join r end.

Inductive lkind : Type := LPlain | LIf | LElse | LEndif.

(** The kind of a line; [last] when no newline follows it. *)
Definition kind (last : bool) (l : list Z) : lkind :=
  if starts (zs "%endif") l && match nth_error l 6 with Some c => isspace c | None => negb last end then LEndif
  else if starts (zs "%else") l && match nth_error l 5 with Some c => isspace c | None => negb last end then LElse
  else if starts (zs "%ifdef ") l || starts (zs "%if ") l || starts (zs "%ifndef ") l then LIf
  else LPlain.

Inductive runres : Type := Lines (outs : list (list Z)) | Syn (lineno pos : Z) | Unt (lineno : Z).
Definition addl (l : list Z) (r : runres) : runres := match r with Lines o => Lines (l :: o) | x => x end.

(** Evaluate the condition of a directive line: excluded or not. *)
Definition cond (defs : list (list Z)) (l : list Z) : res Z := eval_pp defs (skipn (nospace l) l).

(** The loop over lines with the counter [n] of open excluded blocks. *)
Fixpoint run (defs : list (list Z)) (ls : list (list Z)) (n : nat) (ln sl : Z) : res runres :=
  match ls with
  | [] => Ok (if n =? 0 then Lines [] else Unt sl)
  | l :: r =>
      let continue out n sl := x <- run defs r n (ln + 1)%Z sl ;; Ok (addl out x) in
      match kind (match r with [] => true | _ => false end) l with
      | LPlain => continue (if n =? 0 then l else blank l) n sl
      | LEndif => continue (blank l) (n - 1) sl
      | LElse => if n =? 1 then continue (blank l) 0 sl else if n =? 0 then continue (blank l) 1 ln else continue (blank l) n sl
      | LIf => if negb (n =? 0) then continue (blank l) (n + 1) sl
               else v <- cond defs l ;;
                    if (v <? 0)%Z then Ok (Syn ln (- v - 1)%Z)
                    else if (if nospace l =? 7 then negb (v =? 0)%Z else (v =? 0)%Z) then continue (blank l) 1 ln
                    else continue (blank l) 0 sl
      end
  end.

Lemma blank_length : forall l, List.length (blank l) = List.length l.
Proof. intros l. unfold blank. apply map_length. Qed.

Lemma blank_nonl : forall l, nonl l -> blank l = repeat 32%Z (List.length l).
Proof.
  induction l as [|c l IH]; intros N; cbn [blank map List.length repeat]; [reflexivity|]. destruct (c =? 10)%Z eqn:E.
  - apply Z.eqb_eq in E. subst c. exfalso. apply N. now left.
  - f_equal. apply IH. intros I. apply N. now right.
Qed.

Lemma blank_range_split : forall p0 p1 r, blank_range (List.length p0) (List.length (p0 ++ p1)) (p0 ++ p1 ++ r) = p0 ++ blank p1 ++ r.
Proof.
  intros p0 p1 r. unfold blank_range. rewrite app_length.
  rewrite firstn_app, Nat.sub_diag, firstn_all. cbn [firstn]. rewrite app_nil_r. f_equal.
  rewrite skipn_app, Nat.sub_diag, skipn_all. cbn [skipn app].
  replace (List.length p0 + List.length p1 - List.length p0) with (List.length p1) by lia.
  rewrite firstn_app, Nat.sub_diag, firstn_all. cbn [firstn]. rewrite app_nil_r. f_equal.
  replace (Nat.max _ _) with (List.length (p0 ++ p1)) by (rewrite app_length; lia).
  rewrite app_assoc, skipn_app, Nat.sub_diag, skipn_all. reflexivity.
Qed.

Lemma linelen_app : forall l r, nonl l -> match r with x :: _ => x = 10%Z | [] => True end -> linelen (l ++ r) = List.length l.
Proof.
  induction l as [|c l IH]; intros r N R; cbn [app linelen List.length].
  - destruct r as [|x r]; [reflexivity|]. cbn [linelen]. now rewrite R.
  - destruct (c =? 10)%Z eqn:E.
    + apply Z.eqb_eq in E. subst c. exfalso. apply N. now left.
    + f_equal. apply IH; [|exact R]. intros I. apply N. now right.
Qed.

Lemma skipn_len : forall (pre r : list Z), skipn (List.length pre) (pre ++ r) = r.
Proof. intros. rewrite skipn_app, Nat.sub_diag, skipn_all. reflexivity. Qed.

Lemma blank_line_split : forall pre l r, nonl l -> match r with x :: _ => x = 10%Z | [] => True end ->
  blank_line (List.length pre) (pre ++ l ++ r) = pre ++ blank l ++ r.
Proof.
  intros pre l r N R. unfold blank_line. rewrite skipn_len, (linelen_app l r N R).
  replace (List.length pre + List.length l) with (List.length (pre ++ l)) by apply app_length. apply blank_range_split.
Qed.

Lemma nth_error_len : forall (pre r : list Z), nth_error (pre ++ r) (List.length pre) = match r with x :: _ => Some x | [] => None end.
Proof. intros. rewrite nth_error_app2, Nat.sub_diag by lia. destruct r; reflexivity. Qed.

(** The rest of a line. *)
Lemma scan_mid : forall defs l pre c r fuel n start ln sl, nonl (c :: l) -> match r with x :: _ => x = 10%Z | [] => True end ->
  List.length (l ++ r) < fuel ->
  pp_scan fuel defs ((pre ++ [c]) ++ l ++ r) (List.length (pre ++ [c])) n start ln sl =
  match r with
  | [] => Ok (if n =? 0 then PPdone (pre ++ c :: l) else PPunterminated sl)
  | _ :: r' => pp_scan (fuel - List.length l - 1) defs ((pre ++ c :: l ++ [10%Z]) ++ r') (List.length (pre ++ c :: l ++ [10%Z])) n start (ln + 1)%Z sl
  end.
Proof.
  intros defs l. induction l as [|d l IH]; intros pre c r fuel n start ln sl N R L; (destruct fuel as [|fuel]; [lia|]).
  - cbn [app] in *. destruct r as [|x r].
    + cbn [pp_scan]. rewrite nth_error_len. rewrite app_nil_r. reflexivity.
    + subst x. cbn [List.length]. replace (S fuel - 0 - 1) with fuel by lia.
      cbn [pp_scan]. rewrite nth_error_len. cbn [Z.eqb Pos.eqb negb orb].
      replace ((pre ++ [c]) ++ 10%Z :: r) with ((pre ++ [c; 10%Z]) ++ r) by (rewrite <- !app_assoc; reflexivity).
      replace (S (List.length (pre ++ [c]))) with (List.length (pre ++ [c; 10%Z])) by (rewrite !app_length; cbn; lia). reflexivity.
  - cbn [pp_scan]. rewrite nth_error_len. cbn [app].
    assert (D : (d =? 10)%Z = false). { apply Z.eqb_neq. intros ->. apply N. right. now left. }
    assert (C : (c =? 10)%Z = false). { apply Z.eqb_neq. intros ->. apply N. now left. }
    rewrite D.
    assert (P : nth (List.length (pre ++ [c]) - 1) ((pre ++ [c]) ++ d :: l ++ r) 0%Z = c).
    { rewrite app_nth1 by (rewrite app_length; cbn; lia). rewrite app_length. cbn [List.length]. replace (List.length pre + 1 - 1) with (List.length pre) by lia. rewrite app_nth2, Nat.sub_diag by lia. reflexivity. }
    rewrite P, C. replace (0 <? List.length (pre ++ [c])) with true by (symmetry; apply Nat.ltb_lt; rewrite app_length; cbn; lia). cbn [negb andb]. rewrite orb_true_r.
    replace ((pre ++ [c]) ++ d :: l ++ r) with (((pre ++ [c]) ++ [d]) ++ l ++ r) by (rewrite <- !app_assoc; reflexivity).
    replace (S (List.length (pre ++ [c]))) with (List.length ((pre ++ [c]) ++ [d])) by (rewrite !app_length; cbn; lia).
    rewrite IH; [| |exact R|cbn [app List.length] in L; lia].
    2: { intros I. apply N. now right. }
    destruct r as [|x r].
    + rewrite <- app_assoc. reflexivity.
    + rewrite <- !app_assoc. cbn [app List.length]. replace (S fuel - S (List.length l) - 1) with (fuel - List.length l - 1) by lia. reflexivity.
Qed.

Lemma starts_app : forall lit l r, nonl lit -> match r with x :: _ => x = 10%Z | [] => True end -> starts lit (l ++ r) = starts lit l.
Proof.
  induction lit as [|a lit IH]; intros l r N R; [reflexivity|]. destruct l as [|b l]; cbn [app starts].
  - destruct r as [|x r]; [reflexivity|]. subst x. destruct (a =? 10)%Z eqn:E; [|reflexivity]. apply Z.eqb_eq in E. subst a. exfalso. apply N. now left.
  - f_equal. apply IH; [|exact R]. intros I. apply N. now right.
Qed.

Lemma starts_len : forall lit l, starts lit l = true -> List.length lit <= List.length l.
Proof. induction lit as [|a lit IH]; intros [|b l] H; cbn in *; try lia; try discriminate. apply andb_true_iff in H as (_ & H). apply IH in H. lia. Qed.

Lemma nonl_dec : forall l, existsb (Z.eqb 10) l = false -> nonl l.
Proof. intros l E I. assert (existsb (Z.eqb 10) l = true) by (apply existsb_exists; exists 10%Z; auto). congruence. Qed.

Lemma space_at_app : forall l r k, k <= List.length l -> match r with x :: _ => x = 10%Z | [] => True end ->
  space_at (l ++ r) k = match nth_error l k with Some c => isspace c | None => match r with [] => false | _ => true end end.
Proof.
  intros l r k L R. unfold space_at. destruct (nth_error l k) eqn:E.
  - rewrite nth_error_app1 by (apply nth_error_Some; congruence). now rewrite E.
  - apply nth_error_None in E. replace k with (List.length l) by lia. rewrite nth_error_len. destruct r; [reflexivity|]. subst. reflexivity.
Qed.

(** The tests of the loop at the start of a line. *)
Definition islast (r : list Z) : bool := match r with [] => true | _ => false end.

Lemma tests : forall l r, nonl l -> match r with x :: _ => x = 10%Z | [] => True end ->
  starts (zs "%endif") (l ++ r) && space_at (l ++ r) 6 = starts (zs "%endif") l && match nth_error l 6 with Some c => isspace c | None => negb (islast r) end /\
  starts (zs "%else") (l ++ r) && space_at (l ++ r) 5 = starts (zs "%else") l && match nth_error l 5 with Some c => isspace c | None => negb (islast r) end /\
  starts (zs "%ifdef ") (l ++ r) = starts (zs "%ifdef ") l /\ starts (zs "%if ") (l ++ r) = starts (zs "%if ") l /\ starts (zs "%ifndef ") (l ++ r) = starts (zs "%ifndef ") l.
Proof.
  intros l r N R.
  rewrite !starts_app by (try exact R; apply nonl_dec; vm_compute; reflexivity).
  split; [|split; [|auto]].
  - destruct (starts (zs "%endif") l) eqn:E; [|reflexivity]. cbn [andb]. apply starts_len in E. rewrite space_at_app; [|exact E|exact R]. destruct (nth_error l 6); [reflexivity|]. destruct r; reflexivity.
  - destruct (starts (zs "%else") l) eqn:E; [|reflexivity]. cbn [andb]. apply starts_len in E. rewrite space_at_app; [|exact E|exact R]. destruct (nth_error l 5); [reflexivity|]. destruct r; reflexivity.
Qed.

Lemma kind_percent : forall b l, kind b l <> LPlain -> exists l', l = 37%Z :: l'.
Proof.
  intros b [|c l] H; [exfalso; apply H; destruct b; reflexivity|]. exists l. f_equal. destruct (Z.eq_dec c 37) as [E|E]; [exact E|]. exfalso. apply H.
  unfold kind. assert (X : forall s, starts (37%Z :: s) (c :: l) = false). { intros s. cbn [starts]. replace (37 =? c)%Z with false by (symmetry; apply Z.eqb_neq; lia). reflexivity. }
  change (zs "%endif") with (37%Z :: zs "endif"). change (zs "%else") with (37%Z :: zs "else"). change (zs "%ifdef ") with (37%Z :: zs "ifdef "). change (zs "%if ") with (37%Z :: zs "if "). change (zs "%ifndef ") with (37%Z :: zs "ifndef ").
  rewrite !X. reflexivity.
Qed.

Lemma nospace_app : forall l r, nospace l < List.length l -> nospace (l ++ r) = nospace l.
Proof.
  induction l as [|c l IH]; intros r H; cbn [nospace app List.length] in *; [lia|]. destruct (isspace c); [reflexivity|]. f_equal. apply IH. lia.
Qed.

Lemma nospace_starts : forall lit l, starts lit l = true -> nospace lit < List.length lit -> nospace l = nospace lit /\ nospace l < List.length l.
Proof.
  induction lit as [|a lit IH]; intros [|b l] H L; cbn [starts nospace List.length] in *; try lia; try discriminate.
  apply andb_true_iff in H as (E & H). apply Z.eqb_eq in E. subst b. destruct (isspace a); [split; [reflexivity|lia]|].
  destruct (IH l H ltac:(lia)). lia.
Qed.

Lemma kind_if : forall b l, kind b l = LIf -> nospace l < List.length l.
Proof.
  intros b l. unfold kind. destruct (_ && _); [discriminate|]. destruct (_ && _); [discriminate|].
  destruct (starts (zs "%ifdef ") l || starts (zs "%if ") l || starts (zs "%ifndef ") l) eqn:E; [|discriminate]. intros _.
  apply orb_true_iff in E as [E|E]; [apply orb_true_iff in E as [E|E]|]; apply nospace_starts in E; try (apply E); vm_compute; lia.
Qed.

Definition line_out (n : nat) (p0 p1 : list Z) : list Z := if n =? 0 then p0 ++ p1 else p0 ++ blank p1.

Definition result (pre : list Z) (r : res runres) : res ppout :=
  x <- r ;; Ok (match x with Lines o => PPdone (pre ++ join o) | Syn a b => PPsyntax a b | Unt a => PPunterminated a end).

Lemma result_add : forall pre l r (ls : list (list Z)),
  match ls with [] => True | _ => forall o, r = Ok (Lines o) -> o <> [] end ->
  result pre (x <- r ;; Ok (addl l x)) = match ls with [] => match r with Ok (Lines []) => Ok (PPdone (pre ++ l)) | _ => result pre (x <- r ;; Ok (addl l x)) end | _ => result (pre ++ l ++ [10%Z]) r end.
Proof.
  intros pre l r ls H. destruct ls as [|l' ls].
  - destruct r as [[[|o os]|a b|a]| |]; reflexivity.
  - destruct r as [[[|o os]|a b|a]| |]; try reflexivity.
    + exfalso. exact (H [] eq_refl eq_refl).
    + unfold result. cbn [bind addl]. do 2 f_equal. cbn [join]. rewrite <- !app_assoc. reflexivity.
Qed.

Lemma run_length : forall defs ls n ln sl o, run defs ls n ln sl = Ok (Lines o) -> List.length o = List.length ls.
Proof.
  intros defs. induction ls as [|l ls IH]; intros n ln sl o H; cbn [run] in H.
  - destruct (n =? 0); inversion H; subst; reflexivity.
  - assert (G : forall out n sl, (x <- run defs ls n (ln + 1)%Z sl ;; Ok (addl out x)) = Ok (Lines o) -> List.length o = S (List.length ls)).
    { intros out n0 sl0 X. destruct (run defs ls n0 (ln + 1)%Z sl0) as [[os| |]| |] eqn:E; cbn [bind addl] in X; try discriminate. inversion X; subst. cbn. f_equal. eauto. }
    cbn [List.length]. destruct (kind _ l).
    + eauto.
    + destruct (negb _); [eauto|]. destruct (cond defs l) as [v| |]; cbn [bind] in H; try discriminate. destruct (v <? 0)%Z; [discriminate|]. destruct (if nospace l =? 7 then _ else _); eauto.
    + destruct (n =? 1); [eauto|]. destruct (n =? 0); eauto.
    + eauto.
Qed.

(** After the line [l'] (the line as it stands in the text after this step) comes the rest. *)
Lemma finish_line : forall defs ls out n ln sl fuel start pre c l',
  (forall fuel pre p0 p1 start, ls <> [] -> pre = p0 ++ p1 -> (0 < n -> start = List.length p0) -> (pre = [] \/ exists q, pre = q ++ [10%Z]) ->
     List.length (join ls) < fuel ->
     pp_scan fuel defs (pre ++ join ls) (List.length pre) n start (ln + 1)%Z sl = result (line_out n p0 p1) (run defs ls n (ln + 1)%Z sl)) ->
  nonl (c :: l') -> forall p0 p1, pre ++ c :: l' = p0 ++ p1 -> (0 < n -> start = List.length p0) ->
  forall out0, line_out n p0 p1 = out0 ++ out ->
  (0 < n -> line_out n p0 (p1 ++ [10%Z]) = out0 ++ out ++ [10%Z]) ->
  List.length (l' ++ match ls with [] => [] | _ => 10%Z :: join ls end) < fuel ->
  pp_scan fuel defs ((pre ++ [c]) ++ l' ++ match ls with [] => [] | _ => 10%Z :: join ls end) (List.length (pre ++ [c])) n start ln sl =
  result out0 (x <- run defs ls n (ln + 1)%Z sl ;; Ok (addl out x)).
Proof.
  intros defs ls out n ln sl fuel start pre c l' IH N p0 p1 EP ST out0 EO EO2 L.
  rewrite (scan_mid defs l' pre c _ fuel n start ln sl N); [|destruct ls; reflexivity|exact L].
  destruct ls as [|l1 ls].
  - cbn [run bind]. unfold result. destruct (n =? 0) eqn:E; cbn [addl bind].
    + do 2 f_equal. cbn [join]. rewrite EP. rewrite <- EO. unfold line_out. now rewrite E.
    + reflexivity.
  - rewrite (IH _ _ p0 (p1 ++ [10%Z])).
    + rewrite (result_add _ _ _ (l1 :: ls)).
      2: { intros o E. apply run_length in E. intros ->. discriminate. }
      f_equal. destruct n as [|n].
      * unfold line_out in *. cbn [Nat.eqb] in *. rewrite app_assoc, EO, <- app_assoc. reflexivity.
      * apply EO2. lia.
    + discriminate.
    + rewrite (app_assoc p0), <- EP, <- app_assoc. reflexivity.
    + exact ST.
    + right. exists (pre ++ c :: l'). rewrite <- app_assoc. reflexivity.
    + rewrite app_length in L. cbn [List.length] in L. lia.
Qed.

Lemma blank_app : forall a b, blank (a ++ b) = blank a ++ blank b.
Proof. intros. unfold blank. apply map_app. Qed.

Lemma blank_idem : forall l, blank (blank l) = blank l.
Proof. intros l. unfold blank. rewrite map_map. apply map_ext. intros c. destruct (c =? 10)%Z eqn:E; reflexivity. Qed.

Lemma nonl_cons : forall c l, nonl (c :: l) -> nonl l.
Proof. intros c l N I. apply N. now right. Qed.

Lemma nonl_blank : forall l, nonl l -> nonl (blank l).
Proof. intros l N. rewrite blank_nonl by exact N. intros I. apply repeat_spec in I. discriminate. Qed.

Lemma scan_lines : forall defs ls n ln sl fuel pre p0 p1 start, Forall nonl ls -> ls <> [] -> pre = p0 ++ p1 -> (0 < n -> start = List.length p0) ->
  (pre = [] \/ exists q, pre = q ++ [10%Z]) -> List.length (join ls) < fuel ->
  pp_scan fuel defs (pre ++ join ls) (List.length pre) n start ln sl = result (line_out n p0 p1) (run defs ls n ln sl).
Proof.
  intros defs. induction ls as [|l ls IH]; intros n ln sl fuel pre p0 p1 start NL NE EP ST BOL L; [congruence|]. clear NE.
  apply Forall_cons_iff in NL as (N & NL).
  set (r := match ls with [] => [] | _ => 10%Z :: join ls end).
  assert (JE : join (l :: ls) = l ++ r). { unfold r. destruct ls; cbn [join]; [now rewrite app_nil_r|reflexivity]. }
  rewrite JE in *.
  assert (R : match r with x :: _ => x = 10%Z | [] => True end) by (unfold r; destruct ls; reflexivity).
  assert (RL : islast r = match ls with [] => true | _ => false end) by (unfold r; destruct ls; reflexivity).
  destruct (tests l r N R) as (T1 & T2 & T3 & T4 & T5).
  assert (IH' : forall n ln sl fuel pre p0 p1 start, ls <> [] -> pre = p0 ++ p1 -> (0 < n -> start = List.length p0) -> (pre = [] \/ exists q, pre = q ++ [10%Z]) ->
     List.length (join ls) < fuel -> pp_scan fuel defs (pre ++ join ls) (List.length pre) n start ln sl = result (line_out n p0 p1) (run defs ls n ln sl)).
  { intros n0 ln0 sl0 fuel0 pre0 p2 p3 start0 A B C D E. apply IH; auto. }
  clear IH. destruct fuel as [|fuel]; [lia|].
  destruct l as [|c l].
  - (* an empty line *)
    cbn [app] in *. assert (KP : kind (match ls with [] => true | _ => false end) [] = LPlain) by reflexivity.
    cbn [run]. rewrite KP. cbn [pp_scan]. rewrite nth_error_len. unfold r in *. destruct ls as [|l1 ls].
    + cbn [run bind]. rewrite app_nil_r. unfold result, line_out. destruct (n =? 0); cbn [addl bind]; [|reflexivity]. cbn [join]. now rewrite app_nil_r, EP.
    + cbn [Z.eqb Pos.eqb negb orb].
      replace (pre ++ 10%Z :: join (l1 :: ls)) with ((pre ++ [10%Z]) ++ join (l1 :: ls)) by (rewrite <- app_assoc; reflexivity).
      replace (S (List.length pre)) with (List.length (pre ++ [10%Z])) by (rewrite app_length; cbn; lia).
      rewrite (IH' n (ln + 1)%Z sl fuel (pre ++ [10%Z]) p0 (p1 ++ [10%Z]) start); [|discriminate|now rewrite EP, app_assoc|exact ST|right; eauto|cbn [List.length] in L; lia].
      rewrite (result_add _ _ _ (l1 :: ls)).
      2: { intros o E. apply run_length in E. intros ->. discriminate. }
      f_equal. unfold line_out. destruct (n =? 0); cbn [app]; rewrite <- ?app_assoc; [reflexivity|]. rewrite blank_app. reflexivity.
  - assert (C10 : (c =? 10)%Z = false). { apply Z.eqb_neq. intros ->. apply N. now left. }
    cbn [app List.length] in L.
    (* the two ways to continue: with the line as it is, or blanked *)
    assert (KEEP : forall n' sl' start' , (0 < n' -> n' = n /\ start' = start) -> (n' = 0 -> n = 0) ->
      pp_scan fuel defs (pre ++ (c :: l) ++ r) (S (List.length pre)) n' start' ln sl' =
      result (line_out n p0 p1) (x <- run defs ls n' (ln + 1)%Z sl' ;; Ok (addl (if n' =? 0 then c :: l else blank (c :: l)) x))).
    { intros n' sl' start' H1 H2. replace (pre ++ (c :: l) ++ r) with ((pre ++ [c]) ++ l ++ r) by (rewrite <- app_assoc; reflexivity).
      replace (S (List.length pre)) with (List.length (pre ++ [c])) by (rewrite app_length; cbn; lia).
      destruct n' as [|n'].
      - rewrite (H2 eq_refl). apply (finish_line defs ls (c :: l) 0 ln sl' fuel start' pre c l) with (p0 := pre ++ c :: l) (p1 := []).
        + intros; now apply IH'. + exact N. + now rewrite app_nil_r. + lia.
        + unfold line_out. cbn [Nat.eqb]. rewrite app_nil_r, EP. reflexivity. + lia. + fold r. lia.
      - destruct (H1 ltac:(lia)) as (<- & ->). cbn [Nat.eqb].
        apply (finish_line defs ls (blank (c :: l)) (S n') ln sl' fuel start pre c l) with (p0 := p0) (p1 := p1 ++ c :: l).
        + intros; now apply IH'. + exact N. + now rewrite EP, app_assoc. + exact ST.
        + unfold line_out. cbn [Nat.eqb]. now rewrite blank_app, app_assoc.
        + intros _. unfold line_out. cbn [Nat.eqb]. now rewrite !blank_app, !app_assoc. + fold r. lia. }
    assert (BLANK : forall n' sl' start' q0 q1, (0 < n' -> q1 = blank q1 \/ True) -> List.length (q0 ++ q1) = List.length pre -> (0 < n' -> start' = List.length q0) ->
      line_out n' q0 q1 = line_out n p0 p1 -> 
      pp_scan fuel defs ((q0 ++ q1) ++ blank (c :: l) ++ r) (S (List.length pre)) n' start' ln sl' =
      result (line_out n p0 p1) (x <- run defs ls n' (ln + 1)%Z sl' ;; Ok (addl (blank (c :: l)) x))).
    { intros n' sl' start' q0 q1 _ LEN ST' LO.
      change (blank (c :: l)) with ((if (c =? 10)%Z then 10%Z else 32%Z) :: blank l). rewrite C10.
      replace ((q0 ++ q1) ++ (32%Z :: blank l) ++ r) with (((q0 ++ q1) ++ [32%Z]) ++ blank l ++ r) by (rewrite <- !app_assoc; reflexivity).
      replace (S (List.length pre)) with (List.length ((q0 ++ q1) ++ [32%Z])) by (rewrite app_length, LEN; cbn; lia).
      rewrite <- LO.
      assert (NB : nonl (32%Z :: blank l)). { apply nonl_cons in N. apply nonl_blank in N. intros [E|I]; [discriminate|exact (N I)]. }
      assert (BB : blank (32%Z :: blank l) = 32%Z :: blank l) by (cbn [blank map]; change (map _ (blank l)) with (blank (blank l)); now rewrite blank_idem).
      destruct n' as [|n'].
      - apply (finish_line defs ls (32%Z :: blank l) 0 ln sl' fuel start' (q0 ++ q1) 32%Z (blank l)) with (p0 := (q0 ++ q1) ++ 32%Z :: blank l) (p1 := []).
        + intros; now apply IH'. + exact NB. + now rewrite app_nil_r. + lia. + unfold line_out. cbn [Nat.eqb]. now rewrite app_nil_r. + lia.
        + fold r. rewrite app_length, blank_length. rewrite app_length in L. lia.
      - apply (finish_line defs ls (32%Z :: blank l) (S n') ln sl' fuel start' (q0 ++ q1) 32%Z (blank l)) with (p0 := q0) (p1 := q1 ++ 32%Z :: blank l).
        + intros; now apply IH'. + exact NB. + now rewrite app_assoc. + exact ST'.
        + unfold line_out. cbn [Nat.eqb]. rewrite blank_app, BB, app_assoc. reflexivity.
        + intros _. unfold line_out. cbn [Nat.eqb]. rewrite !blank_app, BB, !app_assoc. reflexivity.
        + fold r. rewrite app_length, blank_length. rewrite app_length in L. lia. }
    (* the effect of the two blanking loops *)
    assert (BL : blank_line (List.length pre) (pre ++ (c :: l) ++ r) = pre ++ blank (c :: l) ++ r) by (apply blank_line_split; assumption).
    assert (BR : 0 < n -> blank_range start (List.length pre) (pre ++ (c :: l) ++ r) = (p0 ++ blank p1) ++ (c :: l) ++ r).
    { intros H. rewrite (ST H), EP, <- (app_assoc p0 p1), blank_range_split, <- app_assoc. reflexivity. }
    assert (BLR : 0 < n -> blank_line (List.length pre) ((p0 ++ blank p1) ++ (c :: l) ++ r) = (p0 ++ blank p1) ++ blank (c :: l) ++ r).
    { intros H. replace (List.length pre) with (List.length (p0 ++ blank p1)) by (rewrite EP, !app_length, blank_length; lia). apply blank_line_split; assumption. }
    cbn [run]. rewrite <- RL. unfold kind. cbn [pp_scan].
    rewrite nth_error_len. cbn [app]. change (c :: l ++ r) with ((c :: l) ++ r). rewrite C10, skipn_len, T1, T2, T3, T4, T5.
    destruct (c =? 37)%Z eqn:C37.
    2: { assert (KP : kind (islast r) (c :: l) = LPlain).
         { destruct (kind (islast r) (c :: l)) eqn:K; [reflexivity| | |]; (destruct (kind_percent (islast r) (c :: l)) as (l' & E); [congruence|]; inversion E; subst; discriminate). }
         unfold kind in KP. rewrite KP. cbn [negb orb]. rewrite KEEP; [|auto|auto]. reflexivity. }
    assert (FIRST : (0 <? List.length pre) && negb (nth (List.length pre - 1) (pre ++ (c :: l) ++ r) 0 =? 10)%Z = false).
    { destruct BOL as [->|(q & ->)]; [reflexivity|]. rewrite app_length. cbn [List.length]. replace (List.length q + 1 - 1) with (List.length q) by lia.
      rewrite <- app_assoc. rewrite app_nth2, Nat.sub_diag by lia. cbn [app nth Z.eqb Pos.eqb negb]. now rewrite andb_false_r. }
    rewrite FIRST. cbn [negb orb].
    assert (SAME : forall n' sl' start', (0 < n' -> start' = if n =? 0 then List.length pre else start) -> (n' = 0 -> n = 0) ->
      pp_scan fuel defs (pre ++ blank (c :: l) ++ r) (S (List.length pre)) n' start' ln sl' =
      result (line_out n p0 p1) (x <- run defs ls n' (ln + 1)%Z sl' ;; Ok (addl (blank (c :: l)) x))).
    { intros n' sl' start' H1 H2. destruct n as [|n].
      - specialize (BLANK n' sl' start' pre []). rewrite app_nil_r in BLANK. apply BLANK; auto.
        unfold line_out. cbn [Nat.eqb blank map]. rewrite !app_nil_r. destruct (n' =? 0); now rewrite EP.
      - destruct n' as [|n']; [specialize (H2 eq_refl); discriminate|]. rewrite EP. rewrite EP in BLANK. apply BLANK; auto. intros H. rewrite (H1 H). cbn [Nat.eqb]. apply ST. lia. }
    destruct (starts (zs "%endif") (c :: l) && _).
    { (* %endif *)
      destruct (n =? 1) eqn:E1.
      - apply Nat.eqb_eq in E1. subst n. rewrite BR, BLR by lia. cbn [Nat.sub]. apply BLANK; [auto|rewrite EP, !app_length, blank_length; lia|lia|reflexivity].
      - rewrite BL. apply SAME; [|apply Nat.eqb_neq in E1; lia].
        intros H. destruct n as [|n]; [lia|]. reflexivity. }
    destruct (starts (zs "%else") (c :: l) && _).
    { destruct (n =? 1) eqn:E1.
      - apply Nat.eqb_eq in E1. subst n. rewrite BR, BLR by lia. apply BLANK; [auto|rewrite EP, !app_length, blank_length; lia|lia|reflexivity].
      - destruct (n =? 0) eqn:E0.
        + rewrite BL. apply SAME; [reflexivity|apply Nat.eqb_eq in E0; lia].
        + rewrite BL. apply SAME; [reflexivity|auto]. }
    destruct (starts (zs "%ifdef ") (c :: l) || starts (zs "%if ") (c :: l) || starts (zs "%ifndef ") (c :: l)) eqn:EI.
    + destruct (n =? 0) eqn:E0; cbn [negb].
      * assert (NS : nospace (c :: l) < List.length (c :: l)).
        { apply orb_true_iff in EI as [EI|EI]; [apply orb_true_iff in EI as [EI|EI]|]; apply nospace_starts in EI; try (apply EI); vm_compute; lia. }
        assert (CE : eval_pp defs (firstn (linelen ((c :: l) ++ r) - nospace ((c :: l) ++ r)) (skipn (nospace ((c :: l) ++ r)) ((c :: l) ++ r))) = cond defs (c :: l)).
        { unfold cond. rewrite nospace_app by exact NS. rewrite linelen_app by assumption. f_equal.
          rewrite skipn_app. replace (nospace (c :: l) - List.length (c :: l)) with 0 by lia. rewrite skipn_O.
          rewrite <- (skipn_length (nospace (c :: l)) (c :: l)). rewrite firstn_app, Nat.sub_diag, firstn_all, firstn_O. now rewrite app_nil_r. }
        rewrite CE, nospace_app by exact NS. destruct (cond defs (c :: l)) as [v| |]; cbn [bind]; [|reflexivity|reflexivity].
        destruct (v <? 0)%Z; [reflexivity|]. rewrite BL. apply Nat.eqb_eq in E0.
        destruct (if nospace (c :: l) =? 7 then _ else _).
        -- apply SAME; [intros _; subst n; reflexivity|lia].
        -- apply SAME; [lia|auto].
      * rewrite BL. apply SAME; [reflexivity|lia].
    + rewrite KEEP; [|auto|auto]. reflexivity.
Qed.

(** Every text is a join of lines. *)
Fixpoint lines (z : list Z) : list (list Z) :=
  match z with
  | [] => [[]]
  | c :: r => if (c =? 10)%Z then [] :: lines r else match lines r with l :: ls => (c :: l) :: ls | [] => [[c]] end
  end.

Lemma lines_ok : forall z, join (lines z) = z /\ Forall nonl (lines z) /\ lines z <> [].
Proof.
  induction z as [|c z (J & F & NE)]; cbn [lines].
  - split; [reflexivity|]. split; [|discriminate]. constructor; [intros []|constructor].
  - destruct (c =? 10)%Z eqn:E.
    + apply Z.eqb_eq in E. subst c. split; [|split; [constructor; [intros []|exact F]|discriminate]]. destruct (lines z) as [|l ls]; [congruence|]. cbn [join app]. f_equal. exact J.
    + apply Z.eqb_neq in E. destruct (lines z) as [|l ls]; [congruence|]. inversion F as [|? ? F1 F2]; subst. split; [|split; [constructor; [|exact F2]|discriminate]].
      * destruct ls; reflexivity.
      * intros [X|X]; [congruence|exact (F1 X)].
Qed.

Lemma preprocess_lines : forall defs ls, Forall nonl ls -> ls <> [] ->
  preprocess_input defs (join ls) = result [] (run defs ls 0 1%Z 1%Z).
Proof.
  intros defs ls F NE. unfold preprocess_input.
  apply (scan_lines defs ls 0 1%Z 1%Z (S (List.length (join ls))) [] [] [] 0); auto.
Qed.
