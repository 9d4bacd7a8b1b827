(** C29: lemon_vsprintf against printf. *)
From Coq Require Import List Arith ZArith Bool Lia.
Import ListNotations.
From Verif Require Import Base LemonPreModel LemonPrintfModel.
Open Scope res_scope.

(** * What printf writes *)

(** Decimal text of a natural number. *)
Fixpoint dec_from (fuel : nat) (v : N) (acc : list Z) : list Z :=
  match fuel with
  | 0 => acc
  | S f => let acc' := (Z.of_N (v mod 10) + 48)%Z :: acc in if (v / 10 =? 0)%N then acc' else dec_from f (v / 10)%N acc'
  end.
Definition dec (v : N) : list Z := dec_from (S (N.to_nat (N.log2 v))) v [].

Definition value (l : list Z) : Z := fold_left (fun a c => (a * 10 + (c - 48))%Z) l 0%Z.

(** The pieces of a format with their arguments; a width is a number and a flag for "-". *)
Inductive piece : Type :=
| PLit (s : list Z)
| PPct
| PD (w : option (bool * N)) (v : Z)
| PS (w : option (bool * N)) (s : list Z)
| PPS (w : option (bool * N)) (k : Z) (s : list Z).

Definition spell_width (w : option (bool * N)) : list Z := match w with None => [] | Some (l, n) => (if l then [45%Z] else []) ++ dec n end.
Definition spell1 (p : piece) : list Z :=
  match p with
  | PLit s => s
  | PPct => [37; 37]%Z
  | PD w _ => 37%Z :: spell_width w ++ [100%Z]
  | PS w _ => 37%Z :: spell_width w ++ [115%Z]
  | PPS w _ _ => 37%Z :: spell_width w ++ [46; 42; 115]%Z
  end.
Definition args1 (p : piece) : list arg :=
  match p with PD _ v => [AInt v] | PS _ s => [AStr s] | PPS _ k s => [AInt k; AStr s] | _ => [] end.

Definition pad (w : option (bool * N)) (s : list Z) : list Z :=
  match w with
  | None => s
  | Some (true, n) => s ++ repeat 32%Z (N.to_nat n - length s)
  | Some (false, n) => repeat 32%Z (N.to_nat n - length s) ++ s
  end.
Definition text1 (p : piece) : list Z :=
  match p with
  | PLit s => s
  | PPct => [37%Z]
  | PD w v => pad w ((if (v <? 0)%Z then [45%Z] else []) ++ dec (Z.abs_N v))
  | PS w s => pad w s
  | PPS w k s => pad w (if (k <? 0)%Z then s else firstn (Z.to_nat k) s)
  end.

Definition wid_ok (w : option (bool * N)) : Prop := match w with None => True | Some (_, n) => (0 < n < 2 ^ 31 - 48)%N end.
(** Formats and arguments of C: no percent sign in literal text, int arguments, positive widths. *)
Definition fmt_ok (p : piece) : Prop :=
  match p with
  | PLit s => ~ In 37%Z s
  | PPct => True
  | PD w v => wid_ok w /\ (- 2 ^ 31 <= v < 2 ^ 31)%Z
  | PS w _ => wid_ok w
  | PPS w k _ => wid_ok w /\ (- 2 ^ 31 <= k < 2 ^ 31)%Z
  end.

(** The cases in which lemon_vsprintf does what printf does: with a width only positive numbers and
    texts that are not empty; never INT_MIN; a precision not longer than its text. *)
Definition lemon_ok (p : piece) : Prop :=
  match p with
  | PD None v => v <> (- 2 ^ 31)%Z
  | PD (Some _) v => (0 < v)%Z
  | PS (Some _) s => s <> []
  | PPS None k s => (k <= Z.of_nat (length s))%Z
  | PPS (Some _) k s => s <> [] /\ (k <> 0)%Z /\ (k <= Z.of_nat (length s))%Z
  | _ => True
  end.

(** * Decimal text *)

Lemma dec_from_app : forall fuel v acc, dec_from fuel v acc = dec_from fuel v [] ++ acc.
Proof.
  induction fuel as [|f IH]; intros v acc; cbn [dec_from]; [reflexivity|]. destruct (v / 10 =? 0)%N; [reflexivity|].
  rewrite (IH _ (_ :: acc)), (IH _ [_]). now rewrite <- app_assoc.
Qed.

Lemma log_div10 : forall v, (10 <= v)%N -> N.to_nat (N.log2 (v / 10)) < N.to_nat (N.log2 v).
Proof.
  intros v H. assert (A : (v / 10 <= v / 2)%N) by (apply N.div_le_compat_l; lia). apply N.log2_le_mono in A.
  assert (B : (N.log2 (v / 2) < N.log2 v)%N); [|lia].
  rewrite <- N.div2_div. rewrite N.div2_spec. rewrite N.log2_shiftr. assert (1 <= N.log2 v)%N by (change 1%N with (N.log2 2); apply N.log2_le_mono; lia). lia.
Qed.

(** [dec] is the decimal text: digits, without a leading zero, with the right value. *)
Lemma dec_eq : forall fuel v, N.to_nat (N.log2 v) < fuel -> dec_from fuel v [] = (if (v / 10 =? 0)%N then [] else dec (v / 10)) ++ [(Z.of_N (v mod 10) + 48)%Z].
Proof.
  assert (FUEL : forall f f' v, N.to_nat (N.log2 v) < f -> N.to_nat (N.log2 v) < f' -> dec_from f v [] = dec_from f' v []).
  { induction f as [|f IH]; intros f' v L L'; [lia|]. destruct f' as [|f']; [lia|]. cbn [dec_from]. destruct (v / 10 =? 0)%N eqn:E; [reflexivity|].
    rewrite (dec_from_app f), (dec_from_app f'). f_equal. apply N.eqb_neq in E.
    assert (G : (10 <= v)%N). { destruct (N.lt_ge_cases v 10) as [H|H]; [|exact H]. exfalso. apply E. now apply N.div_small. }
    pose proof (log_div10 v G). apply IH; lia. }
  intros fuel v L. destruct fuel as [|f]; [lia|]. cbn [dec_from]. destruct (v / 10 =? 0)%N eqn:E; [reflexivity|]. rewrite dec_from_app. f_equal. unfold dec. apply N.eqb_neq in E.
  assert (G : (10 <= v)%N). { destruct (N.lt_ge_cases v 10) as [H|H]; [|exact H]. exfalso. apply E. now apply N.div_small. }
  pose proof (log_div10 v G). apply FUEL; lia.
Qed.

Lemma dec_step : forall v, dec v = (if (v / 10 =? 0)%N then [] else dec (v / 10)) ++ [(Z.of_N (v mod 10) + 48)%Z].
Proof. intros v. unfold dec at 1. apply dec_eq. lia. Qed.

Lemma dec_ind : forall P : N -> Prop, (forall v, (v / 10 = 0)%N -> P v) -> (forall v, (v / 10 <> 0)%N -> P (v / 10)%N -> P v) -> forall v, P v.
Proof.
  intros P H1 H2 v. induction v as [v IH] using (well_founded_ind N.lt_wf_0). destruct (N.eq_dec (v / 10) 0) as [E|E]; [auto|]. apply H2; [exact E|]. apply IH.
  apply N.div_lt; [|lia]. destruct v; [exfalso; apply E; reflexivity|lia].
Qed.

Theorem dec_spec : forall v, value (dec v) = Z.of_N v /\ Forall (fun c => isdigit c = true) (dec v) /\ (dec v = [48%Z] \/ (exists c r, dec v = c :: r /\ c <> 48%Z)).
Proof.
  assert (DG : forall v, isdigit (Z.of_N (v mod 10) + 48) = true).
  { intros v. pose proof (N.mod_lt v 10 ltac:(lia)). unfold isdigit. apply andb_true_iff. rewrite !Z.leb_le. remember (v mod 10)%N as m. lia. }
  apply dec_ind.
  - intros v E. rewrite dec_step, E. cbn [N.eqb app]. pose proof (N.div_mod v 10 ltac:(lia)) as D. split; [|split].
    + cbn. lia. + repeat constructor. apply DG. + destruct (N.eq_dec (v mod 10) 0) as [Z0|Z0]; [left; rewrite Z0; reflexivity|right]. eexists _, []. split; [reflexivity|lia].
  - intros v E (V & F & L). rewrite dec_step. apply N.eqb_neq in E as E'. rewrite E'. pose proof (N.div_mod v 10 ltac:(lia)) as D. split; [|split].
    + unfold value in *. rewrite fold_left_app, V. cbn [fold_left]. lia.
    + apply Forall_app. split; [exact F|]. repeat constructor. apply DG.
    + right. destruct L as [L|(c & r & L & N)].
      * rewrite L in V. cbn in V. lia.
      * rewrite L. exists c. eexists. split; [reflexivity|exact N].
Qed.

(** * The stores *)

Lemma skipn_skipn : forall {A} x y (l : list A), skipn x (skipn y l) = skipn (x + y) l.
Proof.
  intros A x y. revert x. induction y as [|y IH]; intros x l; [now rewrite Nat.add_0_r|]. destruct l as [|a l]; [now rewrite !skipn_nil|]. rewrite <- plus_n_Sm. cbn [skipn]. apply IH.
Qed.

Lemma upd_split : forall {A} (d : list A) x r c, upd (d ++ x :: r) (length d) c = d ++ c :: r.
Proof. intros A. induction d as [|y d IH]; intros x r c; cbn; [reflexivity|]. now rewrite IH. Qed.

Lemma stores_ok : forall l d r, length l <= length r -> stores (d ++ r) (length d) l = Ok (d ++ l ++ skipn (length l) r).
Proof.
  induction l as [|c l IH]; intros d r L; cbn [stores length app skipn]; [reflexivity|]. destruct r as [|x r]; [cbn in L; lia|]. cbn [length] in L.
  unfold store. replace (length d <? length (d ++ x :: r)) with true by (symmetry; apply Nat.ltb_lt; rewrite app_length; cbn; lia). cbn [bind]. rewrite upd_split.
  replace (d ++ c :: r) with ((d ++ [c]) ++ r) by (rewrite <- app_assoc; reflexivity). replace (S (length d)) with (length (d ++ [c])) by (rewrite app_length; cbn; lia).
  rewrite IH by lia. cbn [skipn]. now rewrite <- app_assoc.
Qed.

(** lemon_addtext behind the text [d]; the byte behind it is zero before and after. *)
Definition wz (w : option (bool * N)) : Z := match w with None => 0 | Some (true, n) => - Z.of_N n | Some (false, n) => Z.of_N n end%Z.

Lemma addtext_ok : forall d r0 s k w, (k <= Z.of_nat (length s))%Z ->
  let t := if (k <? 0)%Z then s else firstn (Z.to_nat k) s in
  (t = [] -> w = None) -> length (pad w t) <= length r0 ->
  lemon_addtext (d ++ 0%Z :: r0) (length d) s k (wz w) = Ok (d ++ pad w t ++ 0%Z :: skipn (length (pad w t)) r0, length d + length (pad w t)).
Proof.
  intros d r0 s k w K t TE L. unfold lemon_addtext.
  assert (KL : (if (k <? 0)%Z then length s else Z.to_nat k) = length t).
  { unfold t. destruct (k <? 0)%Z eqn:E; [reflexivity|]. apply Z.ltb_ge in E. rewrite firstn_length. lia. }
  rewrite KL. assert (FT : firstn (length t) (s ++ [0%Z]) = t).
  { unfold t. destruct (k <? 0)%Z eqn:E.
    - rewrite firstn_app, Nat.sub_diag, firstn_all, firstn_O. apply app_nil_r.
    - apply Z.ltb_ge in E. rewrite firstn_length, Nat.min_l by lia. rewrite firstn_app. replace (Z.to_nat k - length s) with 0 by lia. rewrite firstn_O. apply app_nil_r. }
  assert (TL : length t <= length s) by (unfold t; destruct (k <? 0)%Z; [lia|rewrite firstn_length; lia]).
  clearbody t. clear KL.
  set (p1 := Z.to_nat (wz w - Z.of_nat (length t))). 
  assert (CASES : (exists n, w = Some (false, n) /\ pad w t = repeat 32%Z p1 ++ t /\ Z.to_nat (- (wz w - Z.of_nat p1) - Z.of_nat (length t)) = 0) \/
                  (p1 = 0 /\ pad w t = t ++ repeat 32%Z (Z.to_nat (- (wz w - Z.of_nat p1) - Z.of_nat (length t))))).
  { destruct w as [[[|] n]|]; cbn [wz pad] in *.
    - right. assert (p1 = 0) by (unfold p1; lia). split; [assumption|]. f_equal. f_equal. lia.
    - left. exists n. split; [reflexivity|]. split; [f_equal; f_equal; unfold p1; lia|]. unfold p1. lia.
    - right. assert (p1 = 0) by (unfold p1; lia). split; [assumption|]. replace (Z.to_nat _) with 0 by lia. cbn. now rewrite app_nil_r. }
  destruct t as [|c t].
  - rewrite (TE eq_refl) in *. cbn [pad wz length] in *. assert (H : p1 = 0) by (unfold p1; rewrite (TE eq_refl); reflexivity). rewrite H. cbn [repeat stores bind Nat.eqb]. cbn [app skipn]. now rewrite !Nat.add_0_r.
  - remember (c :: t) as ct eqn:ECT. assert (CT : (length ct =? 0) = false) by (subst ct; reflexivity).
    destruct CASES as [(n & -> & PE & Z2)|(Z1 & PE)].
    + rewrite PE in *. rewrite app_length, repeat_length in L. rewrite stores_ok by (rewrite repeat_length; cbn; lia). cbn [bind]. rewrite CT.
      replace (length s + 1 <? length ct) with false by (symmetry; apply Nat.ltb_ge; lia). rewrite FT, Z2.
      rewrite app_assoc. replace (length d + p1) with (length (d ++ repeat 32%Z p1)) by (rewrite app_length, repeat_length; lia).
      rewrite stores_ok. 2: { rewrite skipn_length, repeat_length. cbn [length]. lia. }
      cbn [bind repeat stores]. rewrite repeat_length. rewrite Nat.add_0_r.
      rewrite <- app_length. rewrite (app_assoc (d ++ repeat 32%Z p1)). unfold store.
      assert (SK : exists x, skipn (length ct) (skipn p1 (0%Z :: r0)) = x :: skipn (length (repeat 32%Z p1 ++ ct)) r0).
      { rewrite skipn_skipn, app_length, repeat_length. destruct (skipn (length ct + p1) (0%Z :: r0)) as [|x q] eqn:Q.
        - exfalso. apply (f_equal (@length Z)) in Q. rewrite skipn_length in Q. cbn [length] in Q. lia.
        - exists x. f_equal. assert (Q2 : q = skipn 1 (skipn (length ct + p1) (0%Z :: r0))) by (rewrite Q; reflexivity). rewrite Q2, skipn_skipn. replace (1 + (length ct + p1)) with (S (p1 + length ct)) by lia. reflexivity. }
      destruct SK as (x & SK). rewrite SK. replace (_ <? _) with true by (symmetry; apply Nat.ltb_lt; rewrite (app_length _ (x :: _)); cbn [length]; lia). cbn [bind].
      rewrite upd_split. rewrite <- !app_assoc. rewrite !app_length, repeat_length. f_equal; f_equal; lia.
    + rewrite Z1. cbn [repeat stores bind]. rewrite CT. replace (length s + 1 <? length ct) with false by (symmetry; apply Nat.ltb_ge; lia). rewrite FT.
      rewrite Z1 in PE. set (p2 := Z.to_nat (- (wz w - Z.of_nat 0) - Z.of_nat (length ct))) in *. rewrite PE in *. rewrite app_length, repeat_length in L. rewrite Nat.add_0_r.
      rewrite stores_ok by (cbn [length]; lia). cbn [bind]. rewrite app_assoc, <- app_length.
      rewrite stores_ok by (rewrite repeat_length, skipn_length; cbn [length]; lia). cbn [bind]. rewrite repeat_length.
      replace (length (d ++ ct) + p2) with (length ((d ++ ct) ++ repeat 32%Z p2)) by (rewrite (app_length (d ++ ct)), repeat_length; lia). rewrite (app_assoc (d ++ ct)). unfold store.
      assert (SK : exists x, skipn p2 (skipn (length ct) (0%Z :: r0)) = x :: skipn (length (ct ++ repeat 32%Z p2)) r0).
      { rewrite skipn_skipn, app_length, repeat_length. destruct (skipn (p2 + length ct) (0%Z :: r0)) as [|x q] eqn:Q.
        - exfalso. apply (f_equal (@length Z)) in Q. rewrite skipn_length in Q. cbn [length] in Q. lia.
        - exists x. f_equal. assert (Q2 : q = skipn 1 (skipn (p2 + length ct) (0%Z :: r0))) by (rewrite Q; reflexivity). rewrite Q2, skipn_skipn. replace (1 + (p2 + length ct)) with (S (length ct + p2)) by lia. reflexivity. }
      destruct SK as (x & SK). rewrite SK. replace (_ <? _) with true by (symmetry; apply Nat.ltb_lt; rewrite (app_length _ (x :: _)); cbn [length]; lia). cbn [bind].
      rewrite upd_split. rewrite <- !app_assoc. rewrite !app_length, repeat_length. f_equal; f_equal; lia.
Qed.

(** * The loop *)

Lemma value_app : forall a b, value (a ++ b) = fold_left (fun a c => (a * 10 + (c - 48))%Z) b (value a).
Proof. intros. unfold value. apply fold_left_app. Qed.

Lemma value_mono : forall l a, Forall (fun c => isdigit c = true) l -> (0 <= a)%Z -> (a <= fold_left (fun a c => (a * 10 + (c - 48))%Z) l a)%Z.
Proof.
  induction l as [|c l IH]; intros a F A; cbn [fold_left]; [lia|]. inversion F as [|? ? F1 F2]; subst. unfold isdigit in F1. apply andb_true_iff in F1 as (F1 & F3). apply Z.leb_le in F1, F3.
  specialize (IH (a * 10 + (c - 48))%Z F2 ltac:(lia)). lia.
Qed.

Lemma width_digits_ok : forall l r a, Forall (fun c => isdigit c = true) l -> (0 <= a)%Z -> (fold_left (fun a c => (a * 10 + (c - 48))%Z) l a < 2 ^ 31 - 48)%Z ->
  match r with c :: _ => isdigit c = false | [] => True end -> width_digits a (l ++ r) = Ok (fold_left (fun a c => (a * 10 + (c - 48))%Z) l a, r).
Proof.
  induction l as [|c l IH]; intros r a F A B R; cbn [app].
  - destruct r as [|c r]; [reflexivity|]. cbn [width_digits fold_left]. now rewrite R.
  - inversion F as [|? ? F1 F2]; subst. cbn [width_digits]. rewrite F1. cbn zeta. cbn [fold_left] in *.
    assert (F1' := F1). unfold isdigit in F1'. apply andb_true_iff in F1' as (G1 & G2). apply Z.leb_le in G1, G2.
    replace (a * 10 + c - 48)%Z with (a * 10 + (c - 48))%Z by lia.
    pose proof (value_mono l (a * 10 + (c - 48))%Z F2 ltac:(lia)). replace (_ <? _)%Z with true by (symmetry; apply Z.ltb_lt; lia). apply IH; auto. lia.
Qed.

Lemma width_ok : forall w c r, wid_ok w -> isdigit c = false -> (c =? 45)%Z = false -> width (spell_width w ++ c :: r) = Ok (wz w, c :: r).
Proof.
  intros [[l n]|] c r W D M; cbn [spell_width wz].
  - destruct (dec_spec n) as (V & F & L). cbn in W. unfold value in V.
    assert (WD : width_digits 0 (dec n ++ c :: r) = Ok (Z.of_N n, c :: r)). { rewrite width_digits_ok; [now rewrite V|exact F|lia|rewrite V; lia|exact D]. }
    destruct (dec n) as [|d q] eqn:E; [destruct L as [L|(x & y & L & _)]; discriminate|]. inversion F as [|? ? F1 F2]; subst.
    destruct l; cbn [app].
    + cbn [width]. replace (isdigit 45) with false by reflexivity. cbn [Z.eqb Pos.eqb]. rewrite F1. cbn [andb]. cbn [app] in WD. rewrite WD. cbn [bind fst snd]. reflexivity.
    + cbn [width]. rewrite F1. cbn [app] in WD. exact WD.
  - cbn [app width]. rewrite D, M. reflexivity.
Qed.

Lemma digits_ok : forall v room acc, (0 < v)%N -> length (dec v) <= room -> digits room (Z.of_N v) acc = Ok (dec v ++ acc).
Proof.
  apply (dec_ind (fun v => forall room acc, (0 < v)%N -> length (dec v) <= room -> digits room (Z.of_N v) acc = Ok (dec v ++ acc))).
  - intros v E room acc P L. rewrite dec_step in *. rewrite E in *. cbn [N.eqb app length] in *. destruct room as [|room]; [lia|]. cbn [digits]. replace (0 <? Z.of_N v)%Z with true by (symmetry; apply Z.ltb_lt; lia).
    replace (Z.of_N v / 10)%Z with 0%Z by (change 10%Z with (Z.of_N 10); rewrite <- N2Z.inj_div, E; reflexivity).
    replace (Z.of_N v mod 10)%Z with (Z.of_N (v mod 10)) by (now rewrite N2Z.inj_mod by lia). destruct room; reflexivity.
  - intros v E IH room acc P L. rewrite (dec_step v) in *. apply N.eqb_neq in E as E'. rewrite E' in *. rewrite app_length in L. cbn [length] in L. destruct room as [|room]; [lia|]. cbn [digits].
    replace (0 <? Z.of_N v)%Z with true by (symmetry; apply Z.ltb_lt; lia).
    replace (Z.of_N v / 10)%Z with (Z.of_N (v / 10)) by (change 10%Z with (Z.of_N 10); now rewrite <- N2Z.inj_div).
    replace (Z.of_N v mod 10)%Z with (Z.of_N (v mod 10)) by (now rewrite N2Z.inj_mod by lia).
    rewrite IH; [now rewrite <- app_assoc| |].
    { remember (v / 10)%N as q. lia. } { lia. }
Qed.

Lemma dec_len : forall n v, (v < 10 ^ N.of_nat (S n))%N -> length (dec v) <= S n.
Proof.
  induction n as [|n IH]; intros v H.
  - rewrite dec_step. replace (v / 10)%N with 0%N by (symmetry; apply N.div_small; cbn in H; lia). cbn. lia.
  - rewrite dec_step, app_length. cbn [length]. destruct (v / 10 =? 0)%N; [cbn; lia|]. specialize (IH (v / 10)%N). 
    assert (v / 10 < 10 ^ N.of_nat (S n))%N; [|specialize (IH H0); lia]. apply N.div_lt_upper_bound; [lia|].
    replace (N.of_nat (S (S n))) with (N.succ (N.of_nat (S n))) in H by lia. rewrite N.pow_succ_r' in H. exact H.
Qed.

Definition spell (ps : list piece) : list Z := flat_map spell1 ps.
Definition text (ps : list piece) : list Z := flat_map text1 ps.

Lemma addlit_ok : forall d r0 lit, length lit <= length r0 -> lemon_addtext (d ++ 0%Z :: r0) (length d) lit (Z.of_nat (length lit)) 0 = Ok ((d ++ lit) ++ 0%Z :: skipn (length lit) r0, length (d ++ lit)).
Proof.
  intros d r0 lit L. pose proof (addtext_ok d r0 lit (Z.of_nat (length lit)) None ltac:(lia)) as A. cbn zeta in A.
  replace (Z.of_nat (length lit) <? 0)%Z with false in A by (symmetry; apply Z.ltb_ge; lia). rewrite Nat2Z.id, firstn_all in A. cbn [pad wz] in A.
  rewrite A by (auto; lia). rewrite <- app_assoc, app_length. reflexivity.
Qed.

Ltac fin :=
  repeat (rewrite <- app_assoc; cbn [app]); rewrite ?skipn_skipn; cbn [app];
  match goal with |- ?L = ?R => match L with context [skipn ?a ?r] => match R with context [skipn ?b r] =>
    replace a with b by (repeat (rewrite ?app_length; cbn [length]); lia) end end end; reflexivity.

Lemma vs_ok : forall ps fuel lit d r0, Forall fmt_ok ps -> Forall lemon_ok ps -> length (spell ps) < fuel -> length (lit ++ text ps) <= length r0 ->
  vs_loop fuel (spell ps) lit (flat_map args1 ps) (d ++ 0%Z :: r0) (length d) =
  Ok (Some ((d ++ lit ++ text ps) ++ 0%Z :: skipn (length (lit ++ text ps)) r0, length (d ++ lit ++ text ps))).
Proof.
  induction ps as [|p ps IH]; intros fuel lit d r0 F G L R.
  - destruct fuel as [|fuel]; [lia|]. cbn [spell flat_map vs_loop text] in *. rewrite app_nil_r in *. rewrite addlit_ok by exact R. reflexivity.
  - inversion F as [|? ? F1 F2]; subst. inversion G as [|? ? G1 G2]; subst. cbn [spell text flat_map] in *. fold (spell ps) (text ps) in *.
    rewrite app_length in L.
    (* a conversion that writes [t] *)
    assert (CONV : forall t w k s args, (k <= Z.of_nat (length s))%Z -> t = pad w (if (k <? 0)%Z then s else firstn (Z.to_nat k) s) -> ((if (k <? 0)%Z then s else firstn (Z.to_nat k) s) = [] -> w = None) ->
      forall d2 r2 fuel2, length (t ++ text ps) <= length r2 -> length (spell ps) < fuel2 -> args = flat_map args1 ps ->
      (z <- lemon_addtext (d2 ++ 0%Z :: r2) (length d2) s k (wz w) ;; vs_loop fuel2 (spell ps) [] args (fst z) (snd z)) =
      Ok (Some ((d2 ++ t ++ text ps) ++ 0%Z :: skipn (length (t ++ text ps)) r2, length (d2 ++ t ++ text ps)))).
    { intros t w k s args K ET NT d2 r2 fuel2 L2 LF ->. rewrite app_length in L2. pose proof (addtext_ok d2 r2 s k w K) as A. cbn zeta in A. rewrite <- ET in A. rewrite A by (auto; lia). cbn [bind fst snd].
      rewrite <- app_length, (app_assoc d2). rewrite IH; [|exact F2|exact G2|exact LF|cbn [app]; rewrite skipn_length; lia].
      fin. }
    destruct p as [s| |w v|w s|w k s]; cbn [spell1 text1 args1 fmt_ok lemon_ok] in *.
    + (* literal *)
      clear CONV. revert fuel lit L R. induction s as [|c s IHs]; intros fuel lit L R; cbn [app] in *.
      * apply IH; auto.
      * destruct fuel as [|fuel]; [lia|]. cbn [vs_loop]. replace (c =? 37)%Z with false by (symmetry; apply Z.eqb_neq; intros ->; apply F1; now left).
        rewrite IHs.
        -- repeat (rewrite <- app_assoc; cbn [app]). reflexivity.
        -- constructor; [intros I; apply F1; now right|exact F2].
        -- constructor; [exact I|exact G2].
        -- intros I. apply F1. now right.
        -- cbn [length] in L. lia.
        -- rewrite <- app_assoc. exact R.
    + (* %% *)
      cbn [length] in L. destruct fuel as [|fuel]; [lia|]. rewrite app_length in R. cbn [app vs_loop]. cbn [Z.eqb Pos.eqb]. rewrite addlit_ok by lia. cbn [bind]. cbn [width].
      replace (isdigit 37) with false by reflexivity. cbn [Z.eqb Pos.eqb andb bind starts skipn].
      rewrite (CONV [37%Z] None 1%Z [37%Z]); try reflexivity; try (cbn; lia).
      * fin.
      * rewrite skipn_length. cbn [app length] in *. lia.
    + (* %d *)
      destruct F1 as (FW & FV). cbn [length] in L. rewrite app_length in L. cbn [length] in L. destruct fuel as [|fuel]; [lia|]. rewrite app_length in R.
      cbn [app vs_loop]. cbn [Z.eqb Pos.eqb]. rewrite addlit_ok by lia. cbn [bind]. rewrite <- app_assoc. cbn [app].
      rewrite width_ok by (auto; reflexivity). cbn [bind starts Z.eqb Pos.eqb andb skipn].
      assert (NM : (v =? - 2 ^ 31)%Z = false). { apply Z.eqb_neq. destruct w; lia. } rewrite NM.
      assert (DS : (0 < Z.abs v)%Z -> digits 50 (Z.abs v) [] = Ok (dec (Z.abs_N v))).
      { intros P. rewrite <- N2Z.inj_abs_N. rewrite digits_ok; [now rewrite app_nil_r|lia|].
        assert (length (dec (Z.abs_N v)) <= 10); [|lia]. apply (dec_len 9). assert (Z.abs v < 10 ^ 10)%Z by lia. apply N2Z.inj_lt. rewrite N2Z.inj_abs_N. exact H. }
      assert (DL : (0 < Z.abs v)%Z -> 1 <= length (dec (Z.abs_N v))). { intros P. rewrite dec_step, app_length. cbn. lia. }
      destruct (Z.lt_trichotomy v 0) as [NEG|[ZERO|POS]].
      * destruct w as [w|]; [lia|]. replace (v <? 0)%Z with true in * by (symmetry; apply Z.ltb_lt; exact NEG). cbn [pad wz] in *.
        pose proof (addtext_ok (d ++ lit) (skipn (length lit) r0) [45%Z] 1 None ltac:(cbn; lia)) as A. cbn zeta in A. cbn [Z.ltb Z.compare Z.to_nat Pos.to_nat Pos.iter_op Nat.add firstn pad wz] in A. change (Pos.to_nat 1) with 1 in A. cbn [firstn] in A.
        rewrite A; [|discriminate|rewrite skipn_length; rewrite !app_length in R; cbn [length] in *; lia]. cbn [bind fst snd]. rewrite DS by lia. cbn [bind].
        replace (length (d ++ lit) + length [45%Z]) with (length ((d ++ lit) ++ [45%Z])) by apply app_length. rewrite (app_assoc (d ++ lit)).
        change 0%Z with (wz None) at 3.
        rewrite (CONV (dec (Z.abs_N v)) None (Z.of_nat (length (dec (Z.abs_N v)))) (dec (Z.abs_N v))); auto; try lia.
        -- fin.
        -- cbn [pad]. replace (_ <? 0)%Z with false by (symmetry; apply Z.ltb_ge; lia). now rewrite Nat2Z.id, firstn_all.
        -- rewrite !skipn_length. rewrite !app_length in *. cbn [length] in *. lia.
      * subst v. destruct w as [w|]; [lia|]. cbn [Z.ltb Z.compare Z.eqb pad wz Z.abs Z.abs_N app] in *. assert (D0 : dec 0 = [48%Z]) by reflexivity. rewrite D0 in *.
        pose proof (addtext_ok (d ++ lit) (skipn (length lit) r0) [48%Z] 1 None ltac:(cbn; lia)) as A. cbn zeta in A. cbn [Z.ltb Z.compare pad wz] in A. change (Z.to_nat 1) with 1 in A. cbn [firstn] in A.
        rewrite A; [|discriminate|rewrite skipn_length; rewrite !app_length in R; cbn [length] in *; lia]. cbn [bind fst snd].
        replace (digits 50 0 []) with (Ok [] : res (list Z)) by reflexivity. cbn [bind length].
        replace (length (d ++ lit) + 1) with (length ((d ++ lit) ++ [48%Z])) by (rewrite (app_length (d ++ lit)); reflexivity). rewrite (app_assoc (d ++ lit)).
        change (Z.of_nat 0) with 0%Z.
        change (lemon_addtext (((d ++ lit) ++ [48%Z]) ++ 0%Z :: skipn 1 (skipn (length lit) r0)) (length ((d ++ lit) ++ [48%Z])) [] 0 0)
          with (lemon_addtext (((d ++ lit) ++ [48%Z]) ++ 0%Z :: skipn 1 (skipn (length lit) r0)) (length ((d ++ lit) ++ [48%Z])) [] 0 (wz None)).
        rewrite (CONV [] None 0%Z []); auto; try lia.
        -- fin.
        -- rewrite !skipn_length. rewrite !app_length in *. cbn [length] in *. lia.
      * replace (v <? 0)%Z with false in * by (symmetry; apply Z.ltb_ge; lia). replace (v =? 0)%Z with false by (symmetry; apply Z.eqb_neq; lia). cbn [bind fst snd app] in *. rewrite DS by lia. cbn [bind].
        rewrite (CONV (pad w (dec (Z.abs_N v))) w (Z.of_nat (length (dec (Z.abs_N v)))) (dec (Z.abs_N v))); auto; try lia.
        -- fin.
        -- replace (_ <? 0)%Z with false by (symmetry; apply Z.ltb_ge; lia). now rewrite Nat2Z.id, firstn_all.
        -- replace (_ <? 0)%Z with false by (symmetry; apply Z.ltb_ge; lia). rewrite Nat2Z.id, firstn_all. intros E. rewrite E in DL. cbn in DL. lia.
        -- rewrite !skipn_length. lia.
    + (* %s *)
      cbn [length] in L. rewrite app_length in L. cbn [length] in L. destruct fuel as [|fuel]; [lia|]. rewrite app_length in R.
      cbn [app vs_loop]. cbn [Z.eqb Pos.eqb]. rewrite addlit_ok by lia. cbn [bind]. rewrite <- app_assoc. cbn [app].
      rewrite width_ok by (auto; reflexivity). cbn [bind starts Z.eqb Pos.eqb andb skipn].
      rewrite (CONV (pad w s) w (-1)%Z s); auto; try lia.
      * fin.
      * cbn [Z.ltb Z.compare]. intros E. destruct w; [contradiction|reflexivity].
      * rewrite !skipn_length. lia.
    + (* %.*s *)
      destruct F1 as (FW & FV). cbn [length] in L. rewrite app_length in L. cbn [length] in L. destruct fuel as [|fuel]; [lia|]. rewrite app_length in R.
      cbn [app vs_loop]. cbn [Z.eqb Pos.eqb]. rewrite addlit_ok by lia. cbn [bind]. rewrite <- app_assoc. cbn [app].
      rewrite width_ok by (auto; reflexivity). cbn [bind starts Z.eqb Pos.eqb andb skipn].
      rewrite (CONV (pad w (if (k <? 0)%Z then s else firstn (Z.to_nat k) s)) w k s); auto; try lia.
      * fin.
      * destruct w; [apply G1|exact G1].
      * intros E. destruct w as [w|]; [|reflexivity]. exfalso. destruct G1 as (N1 & N2 & N3). destruct (k <? 0)%Z eqn:KN; [contradiction|]. apply Z.ltb_ge in KN.
        destruct s as [|x s]; [congruence|]. destruct (Z.to_nat k) eqn:KZ; [lia|]. discriminate.
      * rewrite !skipn_length. lia.
Qed.

(** * Theorems *)

(** In the cases [lemon_ok]: the text, the zero byte behind it and the count are those of sprintf, and
    nothing else in the buffer changes. *)
Theorem C29_text_partial : forall ps b, Forall fmt_ok ps -> Forall lemon_ok ps -> length (text ps) < length b ->
  lemon_vsprintf b (spell ps) (flat_map args1 ps) = Ok (Some (text ps ++ 0%Z :: skipn (S (length (text ps))) b, length (text ps))).
Proof.
  intros ps b F G L. destruct b as [|x b]; [cbn in L; lia|]. cbn [length] in L. unfold lemon_vsprintf, store. cbn [length Nat.ltb Nat.leb upd bind].
  pose proof (vs_ok ps (S (length (spell ps))) [] [] b F G ltac:(lia) ltac:(cbn [app]; lia)) as E. cbn [app length] in E. exact E.
Qed.

(** "#define %s%-30s %3d\n" as in ReportHeader, and a literal with %% and %.*s. *)
Definition ex29 : list piece := [PLit [35; 32]%Z; PS None []; PS (Some (true, 4%N)) [65; 66]%Z; PLit [32]%Z; PD (Some (false, 3%N)) 42; PPct; PPS None 1 [120; 121]%Z; PD None (-7); PD None 0].
Example C29_example : Forall fmt_ok ex29 /\ Forall lemon_ok ex29 /\ text ex29 = [35; 32; 65; 66; 32; 32; 32; 32; 52; 50; 37; 120; 45; 55; 48]%Z.
Proof.
  split; [|split; [|vm_compute; reflexivity]].
  - unfold ex29. repeat constructor; cbn; intuition (try congruence; try lia).
  - unfold ex29. repeat constructor; cbn; try lia; discriminate.
Qed.

(** A negative number with a width: the width is applied to the sign and to the digits. *)
Theorem C29_negative_width_refuted : exists ps b, Forall fmt_ok ps /\ text ps = [32; 45; 55]%Z /\
  exists b' n, lemon_vsprintf b (spell ps) (flat_map args1 ps) = Ok (Some (b', n)) /\ n = 6 /\ firstn 6 b' = [32; 32; 45; 32; 32; 55]%Z.
Proof.
  exists [PD (Some (false, 3%N)) (-7)], (repeat 1%Z 10). split; [repeat constructor; cbn; lia|]. split; [reflexivity|]. do 2 eexists. split; [vm_compute; reflexivity|]. split; reflexivity.
Qed.

(** Zero with a width: padded twice, and the terminating zero byte is lost. *)
Theorem C29_zero_width_refuted : exists ps b, Forall fmt_ok ps /\ text ps = [32; 48]%Z /\
  exists b' n, lemon_vsprintf b (spell ps) (flat_map args1 ps) = Ok (Some (b', n)) /\ n = 4 /\ firstn 4 b' = [32; 48; 32; 32]%Z /\ ~ In 0%Z b'.
Proof.
  exists [PD (Some (false, 2%N)) 0], (repeat 1%Z 10). split; [repeat constructor; cbn; lia|]. split; [reflexivity|]. do 2 eexists. split; [vm_compute; reflexivity|].
  split; [reflexivity|]. split; [reflexivity|]. intros I. cbn in I. intuition discriminate.
Qed.

(** An empty text, left-justified: no padding at all. *)
Theorem C29_empty_left_refuted : exists ps b, Forall fmt_ok ps /\ text ps = [32; 32]%Z /\
  exists b', lemon_vsprintf b (spell ps) (flat_map args1 ps) = Ok (Some (b', 0)).
Proof.
  exists [PS (Some (true, 2%N)) []], (repeat 1%Z 10). split; [repeat constructor; cbn; lia|]. split; [reflexivity|]. eexists. vm_compute. reflexivity.
Qed.

(** INT_MIN: signed overflow. *)
Theorem C29_int_min_refuted : exists ps, Forall fmt_ok ps /\ forall b, lemon_vsprintf b (spell ps) (flat_map args1 ps) = Bad.
Proof.
  exists [PD None (- 2 ^ 31)]. split; [repeat constructor; cbn; lia|]. intros b. destruct b as [|x b]; reflexivity.
Qed.

(** A precision longer than the text: read behind the end of the argument. *)
Theorem C29_precision_refuted : exists ps, Forall fmt_ok ps /\ text ps = [120]%Z /\ forall b, lemon_vsprintf b (spell ps) (flat_map args1 ps) = Bad.
Proof.
  exists [PPS None 3 [120]%Z]. split; [repeat constructor; cbn; lia|]. split; [reflexivity|]. intros b. destruct b as [|x b]; reflexivity.
Qed.

Print Assumptions dec_spec.
Print Assumptions C29_text_partial.
Print Assumptions C29_negative_width_refuted.
Print Assumptions C29_zero_width_refuted.
Print Assumptions C29_empty_left_refuted.
Print Assumptions C29_int_min_refuted.
Print Assumptions C29_precision_refuted.
