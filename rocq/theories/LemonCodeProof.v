(** Proofs about the model of translate_code. *)
From Coq Require Import List Arith ZArith Bool Lia String.
Import ListNotations.
From Verif Require Import Base LemonPreModel LemonPrintfModel LemonCodeModel Prop_LemonPrintf SpecCode.
Open Scope res_scope.

Definition int_ok (v : Z) : Prop := (- 2 ^ 31 < v < 2 ^ 31)%Z.

(** * Texts *)

Lemma teqb_ok : forall a b, teqb a b = true <-> a = b.
Proof.
  induction a as [|x a IH]; intros [|y b]; cbn [teqb]; split; intros H; try congruence; try reflexivity.
  - apply andb_true_iff in H as (H1 & H2). apply Z.eqb_eq in H1. apply IH in H2. congruence.
  - injection H as -> ->. apply andb_true_iff. split; [apply Z.eqb_refl|now apply IH].
Qed.

Lemma teqb_dec : forall a b (A : Type) (x y : A), (if teqb a b then x else y) = if txt_dec b a then x else y.
Proof.
  intros a b A x y. destruct (teqb a b) eqn:E; destruct (txt_dec b a) as [D|D]; try reflexivity.
  - apply teqb_ok in E. congruence.
  - subst. assert (teqb a a = true) by now apply teqb_ok. congruence.
Qed.

Definition no0 (t : txt) : Prop := Forall (fun c => c <> 0%Z) t.

Lemma cstr_ok : forall t r, no0 t -> cstr (t ++ 0%Z :: r) = Ok t.
Proof.
  induction t as [|c t IH]; intros r N; cbn [app cstr]; [reflexivity|]. inversion N as [|? ? N1 N2]; subst.
  apply Z.eqb_neq in N1. rewrite N1, (IH r N2). reflexivity.
Qed.

Lemma num_len : forall v, int_ok v -> List.length (num v) <= 11.
Proof.
  intros v H. unfold num. rewrite app_length. assert (D : List.length (dec (Z.abs_N v)) <= 10). { apply (dec_len 9). cbn. unfold int_ok in H. lia. }
  destruct (v <? 0)%Z; cbn [List.length]; lia.
Qed.

Lemma digit_no0 : forall l, Forall (fun c => isdigit c = true) l -> no0 l.
Proof. intros l. apply Forall_impl. intros c D ->. discriminate D. Qed.

Lemma num_no0 : forall v, no0 (num v).
Proof.
  intros v. unfold num, no0. apply Forall_app. split; [destruct (v <? 0)%Z; repeat constructor; lia|].
  apply digit_no0. apply dec_spec.
Qed.

Lemma num_cons : forall v, num v <> [].
Proof.
  intros v E. unfold num in E. destruct (v <? 0)%Z; [discriminate E|]. cbn [app] in E. destruct (dec_spec (Z.abs_N v)) as (_ & _ & [H|(c & r & H & _)]); rewrite H in E; discriminate E.
Qed.

Lemma sprintf_d : forall v, int_ok v -> exists r, lemon_vsprintf (repeat 1%Z 40) [37; 100]%Z [AInt v] = Ok (Some (num v ++ 0%Z :: r, List.length (num v))).
Proof.
  intros v H. pose proof (C29_text_partial [PD None v] (repeat 1%Z 40)) as E. cbn [flat_map app args1] in E.
  change (spell [PD None v]) with [37; 100]%Z in E.
  assert (T : Prop_LemonPrintf.text [PD None v] = num v). { unfold Prop_LemonPrintf.text. cbn [flat_map text1 pad]. now rewrite app_nil_r. }
  rewrite T in E. eexists. apply E.
  - repeat constructor; unfold int_ok in H; cbn; lia.
  - repeat constructor. cbn. unfold int_ok in H. lia.
  - rewrite repeat_length. pose proof (num_len v H). lia.
Qed.

Lemma zdec_num : forall v, int_ok v -> zdec v = num v.
Proof.
  intros v H. unfold zdec, num. destruct (Z.eq_dec v 0) as [->|N]; [reflexivity|].
  assert (E : digits 50 (Z.abs v) [] = Ok (dec (Z.abs_N v))).
  { pose proof (digits_ok (Z.abs_N v) 50 []) as D. rewrite app_nil_r in D. replace (Z.of_N (Z.abs_N v)) with (Z.abs v) in D by lia. apply D; [lia|].
    transitivity 10; [|lia]. apply (dec_len 9). cbn. unfold int_ok in H. lia. }
  rewrite E. destruct (dec_spec (Z.abs_N v)) as (_ & _ & [D|(c & r & D & _)]); rewrite D; [|reflexivity].
  destruct (v <? 0)%Z; reflexivity.
Qed.

(** * append_str *)

(** The buffer holds a text. *)
Definition Buf (b : sab) (t : txt) : Prop := sb_used b = List.length t /\ (t = [] \/ exists r, sb_z b = t ++ 0%Z :: r).

Lemma buf_init : Buf (mkSab [] 0) [].
Proof. split; [reflexivity|now left]. Qed.

Lemma reset_ok : forall b t, Buf b t -> no0 t -> exists o b', append_reset b = Ok (o, b') /\ Buf b' [] /\
  (o = Some t \/ t = [] /\ o = None).
Proof.
  intros [z u] t (U & Z) N. cbn [sb_used sb_z] in *. unfold append_reset. cbn [sb_z sb_used]. destruct z as [|c r].
  - destruct Z as [->|(r & Z)]; [|destruct t; discriminate Z]. exists None, (mkSab [] 0). split; [reflexivity|]. split; [apply buf_init|now right].
  - destruct Z as [->|(r' & Z)].
    + cbn [List.length] in U. subst u. cbn [Nat.eqb cstr Z.eqb bind]. exists (Some []). eexists. split; [reflexivity|]. split; [split; [reflexivity|now left]|now left].
    + destruct t as [|x t].
      * cbn [List.length] in U. subst u. cbn [Nat.eqb cstr Z.eqb bind]. exists (Some []). eexists. split; [reflexivity|]. split; [split; [reflexivity|now left]|now left].
      * subst u. cbn [List.length Nat.eqb]. rewrite Z, (cstr_ok _ _ N). cbn [bind]. eexists _, _. split; [reflexivity|]. split; [split; [reflexivity|now left]|now left].
Qed.

(** A text with at most two "%d". *)
Fixpoint expand (t : txt) (p1 p2 : Z) : txt :=
  match t with
  | [] => []
  | c :: r =>
      match r with
      | d :: r' => if ((c =? 37) && (d =? 100))%Z then num p1 ++ expand r' p2 p2 else c :: expand r p1 p2
      | [] => [c]
      end
  end.

Lemma expand_cons : forall c r p1 p2, expand (c :: r) p1 p2 =
  match r with d :: r' => if ((c =? 37) && (d =? 100))%Z then num p1 ++ expand r' p2 p2 else c :: expand r p1 p2 | [] => [c] end.
Proof. reflexivity. Qed.

Lemma store_ok : forall a x r c, store (a ++ x :: r) (List.length a) c = Ok (a ++ c :: r).
Proof.
  intros a x r c. unfold store. rewrite app_length. cbn [List.length]. destruct (_ <? _) eqn:E; [now rewrite upd_split|]. apply Nat.ltb_ge in E. lia.
Qed.

Lemma append_loop_ok : forall k t, List.length t <= k -> forall p1 p2 a r, int_ok p1 -> int_ok p2 -> List.length (expand t p1 p2) < List.length r ->
  exists r', append_loop (List.length t) t p1 p2 (a ++ r) (List.length a) = Ok ((a ++ expand t p1 p2) ++ r', List.length (a ++ expand t p1 p2)) /\ List.length r' = List.length r - List.length (expand t p1 p2).
Proof.
  induction k as [|k IH]; intros t K p1 p2 a r I1 I2 L.
  - destruct t; [|cbn in K; lia]. cbn [expand List.length append_loop]. exists r. rewrite app_nil_r. split; [reflexivity|lia].
  - destruct t as [|c t]; [cbn [expand List.length append_loop]; exists r; rewrite app_nil_r; split; [reflexivity|lia]|].
    cbn [List.length] in *. cbn [append_loop nth skipn].
    destruct (((c =? 37)%Z && (1 <=? List.length t) && (nth 0 t 0 =? 100)%Z)%bool) eqn:E.
    + apply andb_true_iff in E as (E & E3). apply andb_true_iff in E as (E1 & E2). destruct t as [|d t]; [discriminate E2|]. cbn [nth] in E3.
      rewrite expand_cons, E1, E3 in *. cbn [andb] in *. destruct (sprintf_d p1 I1) as (x & ->). cbn [bind]. rewrite cstr_ok by apply num_no0. cbn [bind].
      rewrite app_length in L. rewrite stores_ok by (rewrite app_length; cbn [List.length]; lia). cbn [bind List.length skipn].
      replace (a ++ (num p1 ++ [0%Z]) ++ skipn (List.length (num p1 ++ [0%Z])) r) with ((a ++ num p1) ++ (0%Z :: skipn (List.length (num p1 ++ [0%Z])) r)) by (rewrite <- !app_assoc; reflexivity).
      rewrite <- app_length. cbn [List.length] in K. destruct (IH t ltac:(lia) p2 p2 (a ++ num p1) (0%Z :: skipn (List.length (num p1 ++ [0%Z])) r) I2 I2) as (r' & E & R).
      { cbn [List.length]. rewrite skipn_length, app_length. cbn [List.length]. lia. }
      exists r'. rewrite E, <- !app_assoc. split; [reflexivity|]. rewrite R. cbn [List.length]. rewrite skipn_length, !app_length. cbn [List.length]. lia.
    + destruct r as [|y r]; [cbn in L; lia|]. rewrite store_ok. cbn [bind].
      assert (X : expand (c :: t) p1 p2 = c :: expand t p1 p2).
      { rewrite expand_cons. destruct t as [|d t]; [reflexivity|]. cbn [List.length Nat.leb nth] in E. rewrite andb_true_r in E. now rewrite E. }
      rewrite X in *. cbn [List.length] in L. destruct (IH t ltac:(lia) p1 p2 (a ++ [c]) r I1 I2 ltac:(lia)) as (r' & E' & R).
      exists r'. rewrite <- !app_assoc in E'. cbn [app] in E'. rewrite app_length in E'. cbn [List.length] in E'. rewrite Nat.add_1_r in E'. rewrite <- !app_assoc. cbn [app].
      rewrite E'. split; [reflexivity|]. cbn [List.length]. lia.
Qed.

(** append_str with n>=0: the whole text, or its first character. *)
Lemma append_gen : forall b out t n p1 p2, Buf b out -> int_ok p1 -> int_ok p2 -> List.length (expand t p1 p2) <= List.length t + 60 ->
  (n = 0%Z \/ n = Z.of_nat (List.length t)) ->
  exists b', append_str b t n p1 p2 = Ok b' /\ Buf b' (out ++ expand t p1 p2).
Proof.
  intros [z u] out t n p1 p2 (U & Z) I1 I2 L H. cbn [sb_z sb_used] in *. unfold append_str. cbn [sb_z sb_used].
  assert (N : (n <? 0)%Z = false) by (apply Z.ltb_ge; lia). rewrite N. cbn [bind].
  assert (K : (if (n <=? 0)%Z then List.length t else Z.to_nat n) = List.length t). { destruct (n <=? 0)%Z eqn:E; [reflexivity|]. apply Z.leb_gt in E. lia. }
  rewrite K. set (k := List.length t) in *.
  set (z' := if List.length z <=? k + 80 + u then z ++ repeat 1%Z (k + 80 + u + 200 - List.length z) else z).
  assert (P : exists r, z' = out ++ r /\ k + 80 <= List.length r).
  { assert (P : exists r, z = out ++ r \/ out = []). { destruct Z as [->|(r & ->)]; [exists []; now right|exists (0%Z :: r); now left]. }
    unfold z'. destruct (List.length z <=? k + 80 + u) eqn:E.
    - destruct P as (r & [->| ->]).
      + exists (r ++ repeat 1%Z (k + 80 + u + 200 - List.length (out ++ r))). rewrite app_assoc. split; [reflexivity|]. rewrite app_length, repeat_length, app_length. apply Nat.leb_le in E. rewrite app_length in E. lia.
      + cbn [List.length] in U. eexists. split; [reflexivity|]. rewrite app_length, repeat_length. apply Nat.leb_le in E. lia.
    - apply Nat.leb_gt in E. destruct P as (r & [->| ->]).
      + exists r. split; [reflexivity|]. rewrite app_length in E. lia.
      + exists z. split; [reflexivity|]. lia. }
  destruct P as (r & P & R). rewrite P, U. destruct (append_loop_ok k t ltac:(unfold k; lia) p1 p2 out r I1 I2 ltac:(lia)) as (r' & E & R').
  fold k in E. rewrite E. cbn [bind fst snd]. destruct r' as [|y r']; [cbn [List.length] in R'; lia|]. rewrite store_ok. cbn [bind].
  eexists. split; [reflexivity|]. split; [reflexivity|]. right. now exists r'.
Qed.

(** append_str with n=-1: the last character goes away first. *)
Lemma append_back : forall b out x t p1 p2, Buf b (out ++ [x]) -> int_ok p1 -> int_ok p2 -> List.length (expand t p1 p2) <= List.length t + 60 ->
  exists b', append_str b t (-1) p1 p2 = Ok b' /\ Buf b' (out ++ expand t p1 p2).
Proof.
  intros [z u] out x t p1 p2 (U & Z) I1 I2 L. cbn [sb_z sb_used] in *. destruct Z as [Z|(r0 & Z)]; [destruct out; discriminate Z|].
  rewrite app_length in U. cbn [List.length] in U.
  unfold append_str. cbn [sb_z sb_used]. change (-1 <? 0)%Z with true. change (-1 <=? 0)%Z with true. change (Z.to_nat (- -1)) with 1. cbn iota.
  destruct (Z.of_nat u + -1 <? 0)%Z eqn:E0; [apply Z.ltb_lt in E0; lia|]. cbn [bind]. replace (u - 1) with (List.length out) by lia.
  set (k := List.length t). set (z' := if List.length z <=? k + 80 + List.length out then z ++ repeat 1%Z (k + 80 + List.length out + 200 - List.length z) else z).
  assert (P : exists r, z' = out ++ r /\ k + 80 <= List.length r).
  { assert (ZZ : z = out ++ x :: 0%Z :: r0) by (rewrite Z, <- app_assoc; reflexivity). clearbody k. unfold z'. destruct (List.length z <=? k + 80 + List.length out) eqn:E.
    - exists ((x :: 0%Z :: r0) ++ repeat 1%Z (k + 80 + List.length out + 200 - List.length z)). split; [rewrite ZZ at 1; now rewrite <- app_assoc|].
      rewrite app_length, repeat_length. apply Nat.leb_le in E. rewrite ZZ, app_length in *. lia.
    - exists (x :: 0%Z :: r0). split; [exact ZZ|]. apply Nat.leb_gt in E. rewrite ZZ, app_length in E. lia. }
  destruct P as (r & P & R). rewrite P. destruct (append_loop_ok k t ltac:(unfold k; lia) p1 p2 out r I1 I2 ltac:(unfold k in *; lia)) as (r' & E & R').
  fold k in E. rewrite E. cbn [bind fst snd]. destruct r' as [|y r']; [cbn [List.length] in R'; unfold k in *; lia|]. rewrite store_ok. cbn [bind].
  eexists. split; [reflexivity|]. split; [reflexivity|]. right. now exists r'.
Qed.

Lemma expand_plain : forall t p1 p2, ~ In 37%Z t -> expand t p1 p2 = t.
Proof.
  induction t as [|c t IH]; intros p1 p2 N; [reflexivity|]. rewrite expand_cons. destruct t as [|d t]; [reflexivity|].
  destruct (Z.eq_dec c 37) as [->|C]; [elim N; now left|]. apply Z.eqb_neq in C. rewrite C. cbn [andb]. f_equal. apply IH. intros I. apply N. now right.
Qed.

Lemma append_plain : forall b out t, Buf b out -> ~ In 37%Z t -> exists b', append_str b t 0 0 0 = Ok b' /\ Buf b' (out ++ t).
Proof.
  intros b out t B N. destruct (append_gen b out t 0 0 0 B) as (b' & E & B').
  1, 2: unfold int_ok; lia. { rewrite (expand_plain _ _ _ N). lia. } { now left. }
  rewrite (expand_plain _ _ _ N) in B'. now exists b'.
Qed.

Lemma append_char : forall b out c, Buf b out -> exists b', append_str b [c] 1 0 0 = Ok b' /\ Buf b' (out ++ [c]).
Proof. intros b out c B. apply (append_gen b out [c] 1 0 0 B); try (unfold int_ok; lia); [cbn; lia|now right]. Qed.

Lemma append_two : forall b out t p1 p2, Buf b out -> int_ok p1 -> int_ok p2 -> (forall q1 q2, int_ok q1 -> int_ok q2 -> List.length (expand t q1 q2) <= List.length t + 60) ->
  exists b', append_str b t 0 p1 p2 = Ok b' /\ Buf b' (out ++ expand t p1 p2).
Proof. intros. apply append_gen; auto. Qed.

(** * Labels *)

Lemma find_label_ok : forall rhs w k, find_label rhs w k = match first_label rhs w with Some i => Some (k + i, fst (nth i rhs (dummy_sym, None))) | None => None end.
Proof.
  induction rhs as [|[s [a|]] rhs IH]; intros w k; cbn [find_label first_label]; [reflexivity| |].
  - rewrite teqb_dec. destruct (txt_dec a w) as [->|N]; [now rewrite Nat.add_0_r|]. rewrite IH. destruct (first_label rhs w); cbn [option_map nth]; [|reflexivity]. now rewrite <- plus_n_Sm.
  - rewrite IH. destruct (first_label rhs w); cbn [option_map nth]; [|reflexivity]. now rewrite <- plus_n_Sm.
Qed.

Lemma first_label_some : forall rhs w i, first_label rhs w = Some i -> i < List.length rhs /\ snd (nth i rhs (dummy_sym, None)) = Some w /\ (forall j, j < i -> snd (nth j rhs (dummy_sym, None)) <> Some w).
Proof.
  induction rhs as [|[s a] rhs IH]; intros w i H; cbn [first_label] in H; [discriminate H|].
  assert (G : (if match a with Some b => if txt_dec b w then true else false | None => false end then Some 0 else option_map S (first_label rhs w)) = Some i).
  { destruct a as [a|]; [destruct (txt_dec a w)|]; exact H. }
  destruct a as [a|].
  - destruct (txt_dec a w) as [->|N].
    + injection G as <-. cbn [List.length nth snd]. split; [lia|]. split; [reflexivity|lia].
    + destruct (first_label rhs w) as [j|] eqn:E; [|discriminate G]. injection G as <-. destruct (IH _ _ E) as (L & A & B). cbn [List.length nth]. split; [lia|]. split; [exact A|].
      intros [|k] K; cbn [nth snd]; [congruence|]. apply B. lia.
  - destruct (first_label rhs w) as [j|] eqn:E; [|discriminate G]. injection G as <-. destruct (IH _ _ E) as (L & A & B). cbn [List.length nth]. split; [lia|]. split; [exact A|].
    intros [|k] K; cbn [nth snd]; [congruence|]. apply B. lia.
Qed.

Lemma first_label_none : forall rhs w, first_label rhs w = None -> forall i, snd (nth i rhs (dummy_sym, None)) <> Some w.
Proof.
  induction rhs as [|[s a] rhs IH]; intros w H i; cbn [first_label] in H; [destruct i; cbn; congruence|].
  destruct a as [a|].
  - destruct (txt_dec a w) as [->|N]; [discriminate H|]. destruct (first_label rhs w) eqn:E; [discriminate H|]. destruct i as [|i]; cbn [nth snd]; [congruence|]. now apply IH.
  - destruct (first_label rhs w) eqn:E; [discriminate H|]. destruct i as [|i]; cbn [nth snd]; [congruence|]. now apply IH.
Qed.

Lemma means_rhs : forall r w i, means r w = Rhs i -> i < List.length (cr_rhs r) /\ label_at r i = Some w.
Proof.
  intros r w i H. unfold means in H. assert (F : first_label (cr_rhs r) w = Some i).
  { destruct (cr_lhsalias r) as [l|]; [destruct (txt_dec l w); [discriminate H|]|]; destruct (first_label (cr_rhs r) w); congruence. }
  apply first_label_some in F as (L & A & _). now split.
Qed.

Lemma offset_slot : forall r i, i < List.length (cr_rhs r) -> offset r i = slot r i.
Proof. intros r i H. unfold offset, slot. lia. Qed.

Lemma slot_int : forall r i, rule_ok r -> int_ok (slot r i).
Proof. intros r i R. pose proof (ro_len r R). unfold slot, int_ok. lia. Qed.

Lemma sym_ints : forall r i, rule_ok r -> int_ok (cs_index (sym_at r i)) /\ int_ok (cs_dtnum (sym_at r i)) /\ int_ok (cs_sub0 (sym_at r i)).
Proof.
  intros r i R. destruct (Nat.lt_ge_cases i (List.length (cr_rhs r))) as [L|L].
  - pose proof (ro_ints r R) as F. inversion F as [|? ? _ F']; subst. rewrite Forall_forall in F'. unfold sym_at. pose proof (nth_In (cr_rhs r) (dummy_sym, None) L) as I.
    repeat split; apply F'; apply in_flat_map; eexists; (split; [exact I|]); cbn; auto.
  - unfold sym_at. rewrite nth_overflow by exact L. cbn. unfold int_ok. lia.
Qed.

Lemma lhs_int : forall r, rule_ok r -> int_ok (cs_dtnum (cr_lhs r)).
Proof. intros r R. pose proof (ro_ints r R) as F. now inversion F. Qed.

Lemma type_int : forall r i, rule_ok r -> int_ok (type_of (sym_at r i)).
Proof. intros r i R. unfold type_of. destruct (sym_ints r i R) as (_ & A & B). destruct (cs_type _); assumption. Qed.

Lemma exp_value : forall k d, expand (zs "yymsp[%d].minor.yy%d") k d = value_at k d.
Proof. intros k d. unfold value_at. cbn. rewrite <- ?app_assoc. cbn. now rewrite app_nil_r. Qed.
Lemma exp_major : forall k d, expand (zs "yymsp[%d].major") k d = major_at k.
Proof. reflexivity. Qed.
Lemma exp_destroy : forall s k, expand (zs "  yy_destructor(yypParser,%d,&yymsp[%d].minor);
") (cs_index s) k = destroy s k.
Proof. reflexivity. Qed.

Lemma len_value : forall k d, int_ok k -> int_ok d -> List.length (value_at k d) <= 60.
Proof. intros k d K D. unfold value_at. rewrite !app_length. pose proof (num_len k K). pose proof (num_len d D). cbn. lia. Qed.
Lemma len_major : forall k, int_ok k -> List.length (major_at k) <= 60.
Proof. intros k K. unfold major_at. rewrite !app_length. pose proof (num_len k K). cbn. lia. Qed.
Lemma len_destroy : forall s k, int_ok (cs_index s) -> int_ok k -> List.length (destroy s k) <= 100.
Proof. intros s k I K. unfold destroy. rewrite !app_length. pose proof (num_len k K). pose proof (num_len _ I). cbn. lia. Qed.

Lemma no37_num : forall v, ~ In 37%Z (num v).
Proof.
  intros v H. unfold num in H. apply in_app_or in H as [H|H].
  - destruct (v <? 0)%Z; [|destruct H]. destruct H as [H|[]]; discriminate H.
  - destruct (dec_spec (Z.abs_N v)) as (_ & F & _). rewrite Forall_forall in F. specialize (F _ H). discriminate F.
Qed.

Lemma no37_lhs : forall r dir, ~ In 37%Z (lhs_text r dir).
Proof.
  intros r dir. assert (A : forall a b : txt, ~ In 37%Z a -> ~ In 37%Z b -> ~ In 37%Z (a ++ b)). { intros a b HA HB H. apply in_app_or in H. tauto. }
  unfold lhs_text, value_at. destruct dir; repeat first [apply no37_num | apply A]; intros H; cbn in H; repeat (destruct H as [H|H]; [discriminate H|]); exact H.
Qed.

Lemma no0_app : forall a b, no0 a -> no0 b -> no0 (a ++ b).
Proof. intros a b A B. apply Forall_app. now split. Qed.

Ltac t0 := first [apply num_no0 | repeat constructor; discriminate].
Lemma no0_value : forall k d, no0 (value_at k d). Proof. intros. unfold value_at. repeat first [apply num_no0 | apply no0_app]; t0. Qed.
Lemma no0_major : forall k, no0 (major_at k). Proof. intros. unfold major_at. repeat first [apply num_no0 | apply no0_app]; t0. Qed.
Lemma no0_destroy : forall s k, no0 (destroy s k). Proof. intros. unfold destroy. repeat first [apply num_no0 | apply no0_app]; t0. Qed.
Lemma no0_lhs : forall r dir, no0 (lhs_text r dir). Proof. intros. unfold lhs_text. destruct dir; [apply no0_value|]. repeat first [apply num_no0 | apply no0_app]; t0. Qed.

Lemma wordch_no0 : forall c, wordch c = true -> c <> 0%Z.
Proof. intros c H ->. discriminate H. Qed.
Lemma alpha_word : forall c, isalpha c = true -> wordch c = true.
Proof. intros c H. unfold wordch, isalnum. now rewrite H. Qed.
Lemma no0_word : forall w, is_word w -> no0 w.
Proof.
  intros w (c & r & -> & A & F). constructor; [apply wordch_no0; now apply alpha_word|]. revert F. apply Forall_impl. apply wordch_no0.
Qed.

(** * The loop over the code *)


Record pst : Type := mkP { p_out : txt; p_used : list bool; p_lhs : bool; p_msgs : list cmsg }.

Section Loop.
Variables (r : crule) (code zLhs zOvwrt : txt) (zSkip : option nat) (dir late : bool).
Hypothesis R : rule_ok r.
Hypothesis ZL : zLhs = lhs_text r dir.

Definition pword (at_ : bool) (w : txt) (x : pst) : pst :=
  match means r w with
  | Lhs => mkP (p_out x ++ lhs_text r dir) (p_used x) true (p_msgs x)
  | Rhs i =>
      if ((i =? 0) && late)%bool then mkP (p_out x) (upd (p_used x) i true) (p_lhs x) (p_msgs x ++ [MAfter])
      else if at_ then mkP (removelast (p_out x) ++ major_at (slot r i)) (upd (p_used x) i true) (p_lhs x) (p_msgs x)
      else mkP (p_out x ++ value_at (slot r i) (type_of (sym_at r i))) (upd (p_used x) i true) (p_lhs x) (p_msgs x)
  | Plain => mkP (p_out x ++ w) (p_used x) (p_lhs x) (p_msgs x)
  end.

Definition pchar (c : Z) (x : pst) : pst := mkP (p_out x ++ [c]) (p_used x) (p_lhs x) (p_msgs x).

Fixpoint pfold (at_ : bool) (x : pst) (ps : list wpiece) : pst :=
  match ps with
  | [] => x
  | W w :: q => pfold false (pword at_ w x) q
  | O c :: q => pfold (c =? 64)%Z (pchar c x) q
  end.

Definition St (s : tst) (x : pst) : Prop :=
  Buf (t_buf s) (p_out x) /\ t_used s = p_used x /\ t_lhsused s = p_lhs x /\ t_dont s = late /\ t_msgs s = p_msgs x.

Notation loop := (code_loop).
Ltac stt H := unfold St; cbn [t_buf t_used t_lhsused t_dont t_msgs p_out p_used p_lhs p_msgs pchar] in *; split; [exact H|]; repeat split; congruence.


Definition word_starts (cp : nat) (c : Z) : bool := (isalpha c && ((cp =? 0) || negb (wordch (nth (cp - 1) code 0%Z))))%bool.

Lemma rd_mid : forall a c b, code = a ++ c :: b -> rd code (List.length a) = Ok c.
Proof. intros a c b ->. unfold rd. rewrite nth_error_app2, Nat.sub_diag by lia. reflexivity. Qed.

Lemma skip_no : forall cp, zSkip <> Some cp -> match zSkip with Some k => cp =? k | None => false end = false.
Proof. intros cp H. destruct zSkip as [k|]; [|reflexivity]. apply Nat.eqb_neq. congruence. Qed.

Lemma finish_char : forall s x c, St s x -> exists b, append_str (t_buf s) [c] 1 0 0 = Ok b /\ St (mkTst b (t_used s) (t_lhsused s) (t_dont s) (t_msgs s)) (pchar c x).
Proof.
  intros s x c (B & U & L & D & M). destruct (append_char _ _ c B) as (b & E & B'). exists b. split; [exact E|]. unfold pchar; stt B'.
Qed.

Lemma step_plain : forall fuel a c b s x, code = a ++ c :: b -> c <> 0%Z -> zSkip <> Some (List.length a) -> word_starts (List.length a) c = false -> St s x ->
  exists s', loop (S fuel) r code zLhs zOvwrt zSkip (List.length a) s = loop fuel r code zLhs zOvwrt zSkip (S (List.length a)) s' /\ St s' (pchar c x).
Proof.
  intros fuel a c b s x C N K WS S0. cbn [code_loop]. rewrite (rd_mid _ _ _ C). cbn [bind]. apply Z.eqb_neq in N. rewrite N, (skip_no _ K). unfold word_starts in WS. rewrite WS. cbn [bind].
  rewrite (rd_mid _ _ _ C). cbn [bind]. destruct (finish_char s x c S0) as (b' & E & S'). rewrite E. cbn [bind]. eexists. split; [reflexivity|exact S'].
Qed.

Lemma word_end_ok : forall w t i, Forall (fun c => wordch c = true) w -> match t with c :: _ => wordch c = false | [] => True end -> word_end (w ++ t) i = i + List.length w.
Proof.
  induction w as [|c w IH]; intros t i F T; cbn [app List.length word_end].
  - destruct t as [|d t]; cbn [word_end]; [lia|]. rewrite T. lia.
  - inversion F as [|? ? F1 F2]; subst. rewrite F1, IH by assumption. lia.
Qed.

Lemma skipn_len : forall (A : Type) (a b : list A), skipn (List.length a) (a ++ b) = b.
Proof. intros. rewrite skipn_app, skipn_all, Nat.sub_diag. reflexivity. Qed.

Lemma firstn_len : forall (A : Type) (a b : list A), firstn (List.length a) (a ++ b) = a.
Proof. intros. rewrite firstn_app, firstn_all, Nat.sub_diag. cbn. apply app_nil_r. Qed.

(** The body of the loop on a word. *)
Lemma word_body : forall a w t s x, code = a ++ w ++ t -> is_word w -> match t with c :: _ => wordch c = false | [] => True end ->
  St s x -> (match a with [] => false | _ => (nth (List.length a - 1) code 0 =? 64)%Z end = true -> exists o, p_out x = o ++ [64%Z]) ->
  let at_ := match a with [] => false | _ => (nth (List.length a - 1) code 0 =? 64)%Z end in
  let cp := List.length a in
  exists s', (let xp := word_end (skipn (S cp) code) (S cp) in
    let w := firstn (xp - cp) (skipn cp code) in
    if match cr_lhsalias r with Some a => teqb w a | None => false end then
      b <- append_str (t_buf s) zLhs 0 0 0 ;;
      Ok (xp, mkTst b (t_used s) true (t_dont s) (t_msgs s))
    else
      match find_label (cr_rhs r) w 0 with
      | Some (i, sp) =>
          s <- rhs_label r i sp (negb (cp =? 0) && (nth (cp - 1) code 0 =? 64)%Z) s ;; Ok (xp, s)
      | None => Ok (cp, s)
      end) = Ok (match means r w with Plain => cp | _ => cp + List.length w end, s') /\
    match means r w with Plain => s' = s | _ => St s' (pword at_ w x) end.
Proof.
  intros a w t s x C (c & w' & -> & AL & F) T S0 AT at_ cp. cbn zeta.
  assert (XP : word_end (skipn (S cp) code) (S cp) = cp + List.length (c :: w')).
  { rewrite C. replace (a ++ (c :: w') ++ t) with ((a ++ [c]) ++ w' ++ t) by (rewrite <- app_assoc; reflexivity).
    replace (S cp) with (List.length (a ++ [c])) by (rewrite app_length; cbn; lia). rewrite skipn_len, word_end_ok by assumption. rewrite app_length. cbn. unfold cp. lia. }
  rewrite XP. replace (cp + List.length (c :: w') - cp) with (List.length (c :: w')) by lia.
  assert (WW : firstn (List.length (c :: w')) (skipn cp code) = c :: w'). { unfold cp. rewrite C, skipn_len. apply firstn_len. }
  rewrite WW. set (w := c :: w') in *. clearbody w. destruct S0 as (B & U & LH & D & M).
  assert (LT : match cr_lhsalias r with Some a0 => teqb w a0 | None => false end = match cr_lhsalias r with Some l => if txt_dec l w then true else false | None => false end).
  { destruct (cr_lhsalias r) as [l|]; [|reflexivity]. pose proof (teqb_dec w l bool true false) as E. destruct (teqb w l), (txt_dec l w); congruence. }
  rewrite LT. unfold pword. remember (means r w) as mn eqn:MN. pose proof MN as MN'. unfold means in MN'.
  assert (RHS : forall i, first_label (cr_rhs r) w = Some i -> mn = Rhs i ->
     exists s', (s0 <- rhs_label r (0 + i) (fst (nth i (cr_rhs r) (dummy_sym, None))) (negb (cp =? 0) && (nth (cp - 1) code 0 =? 64)%Z) s ;; Ok (cp + List.length w, s0)) = Ok (cp + List.length w, s') /\
     St s' (if ((i =? 0) && late)%bool then mkP (p_out x) (upd (p_used x) i true) (p_lhs x) (p_msgs x ++ [MAfter])
      else if at_ then mkP (removelast (p_out x) ++ major_at (slot r i)) (upd (p_used x) i true) (p_lhs x) (p_msgs x)
      else mkP (p_out x ++ value_at (slot r i) (type_of (sym_at r i))) (upd (p_used x) i true) (p_lhs x) (p_msgs x))).
  { intros i FL EM. apply first_label_some in FL as (IL & _ & _). cbn [Nat.add]. unfold rhs_label. rewrite D.
    destruct ((i =? 0) && late)%bool eqn:EL.
    - cbn [bind]. eexists. split; [reflexivity|]. stt B.
    - assert (AE : (negb (cp =? 0) && (nth (cp - 1) code 0 =? 64)%Z)%bool = at_). { unfold at_, cp. destruct a; reflexivity. }
      rewrite AE, (offset_slot r i IL). change (fst (nth i (cr_rhs r) (dummy_sym, None))) with (sym_at r i). change (value_dtnum (sym_at r i)) with (type_of (sym_at r i)).
      destruct at_ eqn:EA.
      + destruct (AT EA) as (o & EO). rewrite EO in B. destruct (append_back _ _ _ (zs "yymsp[%d].major") (slot r i) 0 B (slot_int r i R)) as (b & E & B').
        { unfold int_ok; lia. } { rewrite exp_major. pose proof (len_major _ (slot_int r i R)). cbn [zs List.length]. lia. }
        rewrite E. cbn [bind]. eexists. split; [reflexivity|]. rewrite exp_major in B'. rewrite EO, removelast_last; stt B'.
      + destruct (append_gen _ _ (zs "yymsp[%d].minor.yy%d") 0 (slot r i) (type_of (sym_at r i)) B (slot_int r i R) (type_int r i R)) as (b & E & B').
        { rewrite exp_value. pose proof (len_value _ _ (slot_int r i R) (type_int r i R)). cbn [zs List.length]. lia. } { now left. }
        rewrite E. cbn [bind]. eexists. split; [reflexivity|]. rewrite exp_value in B'. stt B'. }
  assert (NL : match first_label (cr_rhs r) w with Some i => Rhs i | None => Plain end = mn ->
     exists s', match find_label (cr_rhs r) w 0 with Some (i, sp) => s0 <- rhs_label r i sp (negb (cp =? 0) && (nth (cp - 1) code 0 =? 64)%Z) s ;; Ok (cp + List.length w, s0) | None => Ok (cp, s) end =
       Ok (match mn with Plain => cp | _ => cp + List.length w end, s') /\
     match mn with Plain => s' = s | _ => St s' match mn with
       | Lhs => mkP (p_out x ++ lhs_text r dir) (p_used x) true (p_msgs x)
       | Rhs i => if ((i =? 0) && late)%bool then mkP (p_out x) (upd (p_used x) i true) (p_lhs x) (p_msgs x ++ [MAfter])
           else if at_ then mkP (removelast (p_out x) ++ major_at (slot r i)) (upd (p_used x) i true) (p_lhs x) (p_msgs x)
           else mkP (p_out x ++ value_at (slot r i) (type_of (sym_at r i))) (upd (p_used x) i true) (p_lhs x) (p_msgs x)
       | Plain => mkP (p_out x ++ w) (p_used x) (p_lhs x) (p_msgs x) end end).
  { intros EM. rewrite find_label_ok. destruct (first_label (cr_rhs r) w) as [i|] eqn:FL; rewrite <- EM; [|exists s; split; reflexivity]. apply (RHS i eq_refl). congruence. }
  destruct (cr_lhsalias r) as [l|] eqn:EL; [|apply NL; congruence]. destruct (txt_dec l w) as [->|N]; [|apply NL; congruence].
  subst mn. destruct (append_plain _ _ zLhs B) as (b & E & B'). { rewrite ZL. apply no37_lhs. }
  rewrite E. cbn [bind]. eexists. split; [rewrite MN'; reflexivity|]. rewrite MN'. rewrite <- ZL; stt B'.
Qed.

(** The text before the current place ends with the piece [p]. *)
Definition ctx (a : txt) (p : wpiece) : Prop := (a = [] /\ p = O 32%Z) \/ (exists y, a = y ++ wspell1 p /\ wf_piece p).

Definition at_of (p : wpiece) : bool := match p with O c => (c =? 64)%Z | W _ => false end.

Lemma last_char : forall y c b, code = (y ++ [c]) ++ b -> nth (List.length (y ++ [c]) - 1) code 0%Z = c.
Proof.
  intros y c b ->. rewrite app_length. cbn [List.length]. replace (List.length y + 1 - 1) with (List.length y) by lia. rewrite <- app_assoc, app_nth2, Nat.sub_diag by lia. reflexivity.
Qed.

Lemma ctx_word : forall a w b p, ctx a p -> fits p (W w) -> code = a ++ w ++ b -> is_word w -> forall c w', w = c :: w' -> word_starts (List.length a) c = true.
Proof.
  intros a w b p C F E (c0 & w0 & E0 & AL & _) c w' E1. rewrite E1 in E0. injection E0 as -> _. unfold word_starts. rewrite AL. cbn [andb].
  destruct C as [(-> & ->)|(y & -> & P)]; [reflexivity|]. destruct p as [v|d]; [destruct F|]. cbn [fits] in F. cbn [wspell1] in *. rewrite (last_char y d _ E), F. apply orb_true_r.
Qed.

Lemma last_word : forall w, is_word w -> exists v d, w = v ++ [d] /\ wordch d = true.
Proof.
  intros w (c & r0 & -> & AL & F). destruct (exists_last (l := c :: r0) ltac:(discriminate)) as (v & d & E). exists v, d. split; [exact E|].
  assert (FA : Forall (fun c => wordch c = true) (c :: r0)) by (constructor; [now apply alpha_word|exact F]). rewrite E in FA. apply Forall_app in FA as (_ & FA). now inversion FA.
Qed.

Lemma ctx_other : forall a c b p, ctx a p -> fits p (O c) -> code = a ++ c :: b -> word_starts (List.length a) c = false.
Proof.
  intros a c b p C F E. unfold word_starts. destruct (isalpha c) eqn:AL; [|reflexivity]. cbn [andb]. destruct C as [(-> & ->)|(y & -> & P)].
  - cbn [fits] in F. specialize (F AL). discriminate F.
  - destruct p as [v|d]; cbn [wspell1 fits] in *.
    + rewrite (alpha_word _ AL) in F. discriminate F.
    + specialize (F AL). rewrite (last_char y d _ E), F. cbn [negb]. rewrite orb_false_r. apply Nat.eqb_neq. rewrite app_length. cbn. lia.
Qed.

Lemma ctx_at : forall a p b, ctx a p -> code = a ++ b -> (match a with [] => false | _ => (nth (List.length a - 1) code 0 =? 64)%Z end) = at_of p.
Proof.
  intros a p b C E. destruct C as [(-> & ->)|(y & -> & P)]; [reflexivity|]. destruct p as [v|d]; cbn [wspell1 at_of wf_piece] in *.
  - destruct (last_word v P) as (v' & d & -> & D). rewrite app_assoc in *. rewrite (last_char _ _ _ E). destruct ((y ++ v') ++ [d]) eqn:X; [destruct (y ++ v'); discriminate X|].
    apply Z.eqb_neq. intros ->. discriminate D.
  - rewrite (last_char _ _ _ E). destruct (y ++ [d]) eqn:X; [destruct y; discriminate X|]. reflexivity.
Qed.

(** Word characters behind a word character are copied. *)
Lemma copy_ok : forall v a b fuel s x, code = a ++ v ++ b -> Forall (fun c => wordch c = true) v -> (exists y d, a = y ++ [d] /\ wordch d = true) ->
  (forall k, zSkip = Some k -> k < List.length a \/ List.length (a ++ v) <= k) -> St s x ->
  exists s', loop (List.length v + fuel) r code zLhs zOvwrt zSkip (List.length a) s = loop fuel r code zLhs zOvwrt zSkip (List.length (a ++ v)) s' /\
    St s' (mkP (p_out x ++ v) (p_used x) (p_lhs x) (p_msgs x)).
Proof.
  induction v as [|c v IH]; intros a b fuel s x E F (y & d & EA & D) K S0.
  - exists s. rewrite !app_nil_r. split; [reflexivity|]. destruct x. exact S0.
  - pose proof (Forall_inv F) as F1. pose proof (Forall_inv_tail F) as F2. rewrite EA in *. clear a EA. cbn [List.length Nat.add].
    destruct (step_plain (List.length v + fuel) (y ++ [d]) c (v ++ b) s x E (wordch_no0 _ F1)) as (s1 & E1 & S1).
    { intros H. specialize (K _ H). rewrite !app_length in K. cbn [List.length] in K. lia. }
    { unfold word_starts. rewrite (last_char y d _ E), D. cbn [negb]. rewrite orb_false_r. destruct (isalpha c); [|reflexivity]. cbn [andb]. apply Nat.eqb_neq. rewrite app_length. cbn. lia. }
    { exact S0. }
    rewrite E1. destruct (IH ((y ++ [d]) ++ [c]) b fuel s1 (pchar c x)) as (s2 & E2 & S2).
    { rewrite E, <- !app_assoc. reflexivity. } { exact F2. } { now exists (y ++ [d]), c. }
    { intros k H. specialize (K k H). rewrite !app_length in *. cbn [List.length] in *. lia. } { exact S1. }
    exists s2. replace (S (List.length (y ++ [d]))) with (List.length ((y ++ [d]) ++ [c])) by (rewrite (app_length _ [c]); cbn; lia). rewrite E2.
    replace (((y ++ [d]) ++ [c]) ++ v) with ((y ++ [d]) ++ c :: v) by (rewrite <- !app_assoc; reflexivity). split; [reflexivity|].
    unfold pchar in S2. cbn [p_out p_used p_lhs p_msgs] in S2. rewrite <- app_assoc in S2. exact S2.
Qed.

Lemma no_label_tail : forall p q ps, no_label_last r (p :: q :: ps) -> no_label_last r (q :: ps).
Proof. intros p q ps H qs w E. apply (H (p :: qs) w). rewrite E. reflexivity. Qed.

Lemma loop_pieces : forall n ps, List.length ps <= n -> forall fuel a p b s x,
  code = a ++ wspell ps ++ b -> Forall wf_piece ps -> fits_all p ps -> ctx a p ->
  match b with c :: _ => wordch c = false | [] => True end -> no_label_last r ps ->
  (forall k, zSkip = Some k -> k < List.length a \/ List.length (a ++ wspell ps) <= k) ->
  St s x -> (at_of p = true -> exists o, p_out x = o ++ [64%Z]) -> List.length (wspell ps) < fuel ->
  exists fuel' s', fuel <= fuel' + List.length (wspell ps) /\
    loop fuel r code zLhs zOvwrt zSkip (List.length a) s = loop fuel' r code zLhs zOvwrt zSkip (List.length (a ++ wspell ps)) s' /\ St s' (pfold (at_of p) x ps).
Proof.
  induction n as [|n IH]; intros ps LN fuel a p b s x E F FT C T NL K S0 AT FU.
  - destruct ps; [|cbn in LN; lia]. exists fuel, s. cbn [wspell flat_map List.length pfold]. rewrite app_nil_r. split; [lia|]. split; [reflexivity|exact S0].
  - destruct ps as [|q ps]; [exists fuel, s; cbn [wspell flat_map List.length pfold]; rewrite app_nil_r; split; [lia|]; split; [reflexivity|exact S0]|].
    pose proof (Forall_inv F) as F1. pose proof (Forall_inv_tail F) as F2. destruct FT as (FT1 & FT2). cbn [List.length] in LN.
    change (wspell (q :: ps)) with (wspell1 q ++ wspell ps) in *. rewrite <- app_assoc in E.
    assert (NL' : no_label_last r ps). { destruct ps as [|q2 ps2]; [intros qs w X; destruct qs; discriminate X|]. now apply no_label_tail in NL. }
    destruct q as [w|c]; cbn [wspell1] in *.
    + (* a word *)
      pose proof F1 as F1'. destruct F1' as (c & w' & EW & AL & FW).
      assert (FB : match wspell ps ++ b with c :: _ => wordch c = false | [] => True end).
      { destruct ps as [|[v|d] ps2]; [exact T|destruct FT2 as ([] & _)|]. destruct FT2 as (X & _). exact X. }
      pose proof (ctx_word a w (wspell ps ++ b) p C FT1 E F1 c w' EW) as WS.
      assert (CP : code = a ++ c :: w' ++ wspell ps ++ b) by (rewrite E, EW; reflexivity).
      assert (N0 : c <> 0%Z) by (apply wordch_no0; now apply alpha_word).
      assert (NK : zSkip <> Some (List.length a)). { intros H. specialize (K _ H). rewrite EW in K. rewrite !app_length in K. cbn [List.length] in K. lia. }
      pose proof (ctx_at a p _ C E) as CA.
      destruct (word_body a w (wspell ps ++ b) s x E F1 FB S0) as (s1 & E1 & S1). { rewrite CA. exact AT. } cbn zeta in E1, S1. rewrite CA in S1.
      destruct fuel as [|fuel]; [lia|]. rewrite app_length in FU.
      assert (STEP : loop (S fuel) r code zLhs zOvwrt zSkip (List.length a) s =
         (let cp := match means r w with Plain => List.length a | _ => List.length a + List.length w end in
          d <- rd code cp ;; b <- append_str (t_buf s1) [d] 1 0 0 ;; loop fuel r code zLhs zOvwrt zSkip (S cp) (mkTst b (t_used s1) (t_lhsused s1) (t_dont s1) (t_msgs s1)))).
      { cbn [code_loop]. rewrite (rd_mid _ _ _ CP). cbn [bind]. apply Z.eqb_neq in N0. rewrite N0, (skip_no _ NK). unfold word_starts in WS. rewrite WS, E1. reflexivity. }
      rewrite STEP. cbn zeta. destruct (means r w) as [|i|] eqn:MW.
      3: { (* an ordinary word *)
        subst s1. rewrite (rd_mid _ _ _ CP). cbn [bind]. destruct (finish_char s x c S0) as (b1 & E2 & S2). rewrite E2. cbn [bind].
        assert (K1 : forall k, zSkip = Some k -> k < List.length (a ++ [c]) \/ List.length ((a ++ [c]) ++ w') <= k).
        { intros k H. specialize (K k H). rewrite EW in K. assert (k <> List.length a) by congruence. rewrite !app_length in *. cbn [List.length] in *. lia. }
        assert (CP1 : code = (a ++ [c]) ++ w' ++ wspell ps ++ b) by (rewrite CP, <- app_assoc; reflexivity).
        assert (CX1 : exists y d, a ++ [c] = y ++ [d] /\ wordch d = true) by (exists a, c; split; [reflexivity|now apply alpha_word]).
        destruct (copy_ok w' (a ++ [c]) (wspell ps ++ b) (fuel - List.length w') _ _ CP1 FW CX1 K1 S2) as (s2 & E3 & S3).
        rewrite EW in FU. cbn [List.length] in FU. replace (List.length w' + (fuel - List.length w')) with fuel in E3 by lia.
        replace (S (List.length a)) with (List.length (a ++ [c])) by (rewrite app_length; cbn; lia). rewrite E3.
        assert (AW : (a ++ [c]) ++ w' = a ++ w) by (rewrite EW, <- app_assoc; reflexivity). rewrite AW.
        destruct (IH ps ltac:(lia) (fuel - List.length w') (a ++ w) (W w) b s2 (pword (at_of p) w x)) as (f' & s' & FF & EE & SS); auto.
        { rewrite E, <- !app_assoc. reflexivity. } { right. exists a. split; [reflexivity|exact F1]. }
        { intros k H. specialize (K k H). rewrite EW in K. rewrite EW. rewrite !app_length in *. cbn [List.length] in *. lia. }
        { unfold pword. rewrite MW. unfold pchar in S3. cbn [p_out p_used p_lhs p_msgs] in S3. rewrite <- app_assoc in S3. cbn [app] in S3. rewrite <- EW in S3. exact S3. }
        { intros X. discriminate X. } { lia. }
        exists f', s'. split; [rewrite app_length, EW; cbn [List.length]; lia|]. rewrite EE, <- app_assoc. split; [reflexivity|exact SS]. }
      (* a label: the next character is copied at once *)
      all: destruct ps as [|[v|d] ps2]; [specialize (NL [] w eq_refl); congruence|destruct FT2 as ([] & _)|].
      all: pose proof (Forall_inv F2) as D0; pose proof (Forall_inv_tail F2) as F3; destruct FT2 as (FD & FT3); cbn [wf_piece fits] in D0, FD.
      all: change (wspell (O d :: ps2)) with (d :: wspell ps2) in *; cbn [List.length] in *.
      all: assert (CD : code = (a ++ w) ++ d :: wspell ps2 ++ b) by (rewrite E, <- app_assoc; reflexivity).
      all: rewrite <- app_length, (rd_mid _ _ _ CD); cbn [bind].
      all: destruct (finish_char _ _ d S1) as (b1 & E2 & S2); rewrite E2; cbn [bind].
      all: replace (S (List.length (a ++ w))) with (List.length ((a ++ w) ++ [d])) by (rewrite (app_length _ [d]); cbn; lia).
      all: assert (K1 : forall k, zSkip = Some k -> k < List.length ((a ++ w) ++ [d]) \/ List.length (((a ++ w) ++ [d]) ++ wspell ps2) <= k)
             by (intros k H; specialize (K k H); rewrite !app_length in *; cbn [List.length] in *; lia).
      all: assert (CP1 : code = ((a ++ w) ++ [d]) ++ wspell ps2 ++ b) by (rewrite CD, <- !app_assoc; reflexivity).
      all: assert (CX1 : ctx ((a ++ w) ++ [d]) (O d)) by (right; exists (a ++ w); split; [reflexivity|exact D0]).
      all: assert (NL2 : no_label_last r ps2) by (destruct ps2 as [|q2 ps3]; [intros qs w0 X; destruct qs; discriminate X|now apply no_label_tail in NL']).
      all: assert (AT1 : at_of (O d) = true -> exists o, p_out (pchar d (pword (at_of p) w x)) = o ++ [64%Z])
             by (intros X; cbn [at_of] in X; apply Z.eqb_eq in X; subst d; eexists; reflexivity).
      all: destruct (IH ps2 ltac:(lia) fuel ((a ++ w) ++ [d]) (O d) b _ _ CP1 F3 FT3 CX1 T NL2 K1 S2 AT1 ltac:(lia)) as (f' & s' & FF & EE & SS).
      all: exists f', s'; split; [rewrite app_length; cbn [List.length]; lia|].
      all: rewrite EE; replace (((a ++ w) ++ [d]) ++ wspell ps2) with (a ++ w ++ d :: wspell ps2) by (rewrite <- !app_assoc; reflexivity).
      all: split; [reflexivity|exact SS].
    + (* another character *)
      cbn [app List.length] in *. destruct fuel as [|fuel]; [lia|].
      destruct (step_plain fuel a c (wspell ps ++ b) s x E F1) as (s1 & E1 & S1).
      { intros H. specialize (K _ H). rewrite !app_length in K. cbn [List.length] in K. lia. } { exact (ctx_other a c _ p C FT1 E). } { exact S0. }
      rewrite E1. replace (S (List.length a)) with (List.length (a ++ [c])) by (rewrite app_length; cbn; lia).
      destruct (IH ps ltac:(lia) fuel (a ++ [c]) (O c) b s1 (pchar c x)) as (f' & s' & FF & EE & SS); auto.
      { rewrite E, <- app_assoc. reflexivity. } { right. exists a. split; [reflexivity|exact F1]. }
      { intros k H. specialize (K k H). rewrite !app_length in *. cbn [List.length] in *. lia. }
      { intros X. cbn [at_of] in X. apply Z.eqb_eq in X. subst c. eexists. reflexivity. } { lia. }
      exists f', s'. split; [lia|]. rewrite EE, <- app_assoc. split; [reflexivity|exact SS].
Qed.

End Loop.

(** * What the loop did *)

Lemma render_cons_O : forall r dir late c q, render r dir late (O c :: q) =
  match q with
  | W w :: q' => match means r w with Rhs i => if ((c =? 64)%Z && negb ((i =? 0) && late))%bool then major_at (slot r i) ++ render r dir late q' else c :: render r dir late q | _ => c :: render r dir late q end
  | _ => c :: render r dir late q
  end.
Proof. reflexivity. Qed.

Lemma render_cons_W : forall r dir late w q, render r dir late (W w :: q) =
  match means r w with Lhs => lhs_text r dir | Rhs i => if ((i =? 0) && late)%bool then [] else value_at (slot r i) (type_of (sym_at r i)) | Plain => w end ++ render r dir late q.
Proof. reflexivity. Qed.

Lemma pfold_out : forall r dir late ps x,
  p_out (pfold r dir late false x ps) = p_out x ++ render r dir late ps /\
  (forall o, p_out x = o ++ [64%Z] -> p_out (pfold r dir late true x ps) = o ++ render r dir late (O 64%Z :: ps)).
Proof.
  induction ps as [|p ps IH]; intros x.
  - cbn [pfold render]. rewrite app_nil_r. split; [reflexivity|]. intros o ->. reflexivity.
  - destruct p as [w|c].
    + cbn [pfold]. rewrite render_cons_W. split.
      * rewrite (proj1 (IH _)). unfold pword. destruct (means r w); [|destruct (_ && _)%bool|]; cbn [p_out]; rewrite <- ?app_assoc; reflexivity.
      * intros o EO. rewrite (proj1 (IH _)), render_cons_O. change (64 =? 64)%Z with true. rewrite render_cons_W. unfold pword.
        destruct (means r w) as [|i|]; [|destruct ((i =? 0) && late)%bool; cbn [negb andb]|]; cbn [p_out]; rewrite EO; rewrite ?removelast_last, <- ?app_assoc; reflexivity.
    + cbn [pfold]. assert (G : p_out (pfold r dir late (c =? 64)%Z (pchar c x) ps) = p_out x ++ render r dir late (O c :: ps)).
      { destruct (c =? 64)%Z eqn:E.
        - apply Z.eqb_eq in E. subst c. apply (proj2 (IH _)). reflexivity.
        - rewrite (proj1 (IH _)). unfold pchar. cbn [p_out]. rewrite <- app_assoc. cbn [app]. f_equal. rewrite render_cons_O, E. cbn [andb].
          destruct ps as [|[v|d] ps2]; try reflexivity. destruct (means r v); reflexivity. }
      split; [exact G|]. intros o EO. rewrite G, EO, <- app_assoc. reflexivity.
Qed.

Lemma pfold_lhs : forall r dir late ps at_ x, p_lhs (pfold r dir late at_ x ps) = true <-> p_lhs x = true \/ (exists w, In (W w) ps /\ means r w = Lhs).
Proof.
  induction ps as [|p ps IH]; intros at_ x; cbn [pfold].
  - split; [now left|]. intros [H|(w & [] & _)]. exact H.
  - destruct p as [w|c]; rewrite IH.
    + unfold pword. destruct (means r w) as [|i|] eqn:M.
      * cbn [p_lhs]. split; [intros _|intros _; now left]. right. exists w. split; [now left|exact M].
      * assert (X : p_lhs (if ((i =? 0) && late)%bool then mkP (p_out x) (upd (p_used x) i true) (p_lhs x) (p_msgs x ++ [MAfter]) else if at_ then mkP (removelast (p_out x) ++ major_at (slot r i)) (upd (p_used x) i true) (p_lhs x) (p_msgs x) else mkP (p_out x ++ value_at (slot r i) (type_of (sym_at r i))) (upd (p_used x) i true) (p_lhs x) (p_msgs x)) = p_lhs x) by (destruct (_ && _)%bool, at_; reflexivity).
        rewrite X. split; [intros [H|(v & I & H)]; [now left|right; exists v; split; [now right|exact H]]|]. intros [H|(v & [I|I] & H)]; [now left|congruence|right; exists v; now split].
      * cbn [p_lhs]. split; [intros [H|(v & I & H)]; [now left|right; exists v; split; [now right|exact H]]|]. intros [H|(v & [I|I] & H)]; [now left|congruence|right; exists v; now split].
    + cbn [pchar p_lhs]. split; [intros [H|(v & I & H)]; [now left|right; exists v; split; [now right|exact H]]|]. intros [H|(v & [I|I] & H)]; [now left|congruence|right; exists v; now split].
Qed.

Lemma nth_upd : forall (l : list bool) i j, i < List.length l -> nth j (upd l i true) false = if j =? i then true else nth j l false.
Proof.
  induction l as [|a l IH]; intros [|i] [|j] H; cbn in *; try lia; try reflexivity. apply IH. lia.
Qed.

Lemma pfold_used : forall r dir late ps at_ x, List.length (p_used x) = List.length (cr_rhs r) ->
  List.length (p_used (pfold r dir late at_ x ps)) = List.length (cr_rhs r) /\
  forall i, nth i (p_used (pfold r dir late at_ x ps)) false = true <-> nth i (p_used x) false = true \/ (exists w, In (W w) ps /\ means r w = Rhs i).
Proof.
  induction ps as [|p ps IH]; intros at_ x L; cbn [pfold].
  - split; [exact L|]. intros i. split; [now left|]. intros [H|(w & [] & _)]. exact H.
  - assert (P : exists at2 x2, pfold r dir late at_ x (p :: ps) = pfold r dir late at2 x2 ps /\
       p_used x2 = match p with W w => match means r w with Rhs i => upd (p_used x) i true | _ => p_used x end | O _ => p_used x end).
    { destruct p as [w|c]; cbn [pfold]; eexists _, _; (split; [reflexivity|]); [|reflexivity]. unfold pword. destruct (means r w); [reflexivity| |reflexivity]. destruct (_ && _)%bool, at_; reflexivity. }
    destruct P as (at2 & x2 & P & U). cbn [pfold] in P. rewrite P.
    assert (L2 : List.length (p_used x2) = List.length (cr_rhs r)). { rewrite U. destruct p as [w|c]; [destruct (means r w)|]; rewrite ?upd_length; exact L. }
    destruct (IH at2 x2 L2) as (LL & UU). split; [exact LL|]. intros i. rewrite UU, U.
    assert (SK : (forall w, p = W w -> means r w <> Rhs i) -> ((exists w, In (W w) ps /\ means r w = Rhs i) <-> (exists w, In (W w) (p :: ps) /\ means r w = Rhs i))).
    { intros H. split; intros (w & I & M); exists w; (split; [|exact M]); [now right|]. destruct I as [I|I]; [now elim (H w I)|exact I]. }
    destruct p as [w|c]; [destruct (means r w) as [|j|] eqn:M|].
    + rewrite SK; [reflexivity|]. intros v [= <-]. congruence.
    + rewrite nth_upd by (rewrite L; now apply means_rhs in M). destruct (i =? j) eqn:E.
      * apply Nat.eqb_eq in E. subst j. split; [intros _; right; exists w; split; [now left|exact M]|now left].
      * apply Nat.eqb_neq in E. rewrite SK; [reflexivity|]. intros v [= <-]. congruence.
    + rewrite SK; [reflexivity|]. intros v [= <-]. congruence.
    + rewrite SK; [reflexivity|]. intros v [=].
Qed.

Lemma pfold_msgs : forall r dir late ps at_ x m, In m (p_msgs (pfold r dir late at_ x ps)) <-> In m (p_msgs x) \/ (m = MAfter /\ late = true /\ exists w, In (W w) ps /\ means r w = Rhs 0).
Proof.
  induction ps as [|p ps IH]; intros at_ x m; cbn [pfold].
  - split; [now left|]. intros [H|(_ & _ & w & [] & _)]. exact H.
  - assert (SK : (forall w, p = W w -> means r w <> Rhs 0) -> ((exists w, In (W w) ps /\ means r w = Rhs 0) <-> (exists w, In (W w) (p :: ps) /\ means r w = Rhs 0))).
    { intros H. split; intros (w & I & M); exists w; (split; [|exact M]); [now right|]. destruct I as [I|I]; [now elim (H w I)|exact I]. }
    destruct p as [w|c]; rewrite IH.
    + unfold pword. destruct (means r w) as [|i|] eqn:M.
      * cbn [p_msgs]. rewrite SK; [reflexivity|]. intros v [= <-]. congruence.
      * destruct ((i =? 0) && late)%bool eqn:E.
        -- apply andb_true_iff in E as (E1 & E2). apply Nat.eqb_eq in E1. subst i. cbn [p_msgs]. rewrite in_app_iff. cbn [In]. split.
           ++ intros [[H|[H|[]]]|(H1 & H2 & v & I & H3)]; [now left|right; split; [now symmetry|split; [exact E2|exists w; split; [now left|exact M]]]|right; split; [exact H1|split; [exact H2|exists v; split; [now right|exact H3]]]].
           ++ intros [H|(H1 & _)]; [now left; left|left; right; left; now symmetry].
        -- assert (X : p_msgs (if at_ then mkP (removelast (p_out x) ++ major_at (slot r i)) (upd (p_used x) i true) (p_lhs x) (p_msgs x) else mkP (p_out x ++ value_at (slot r i) (type_of (sym_at r i))) (upd (p_used x) i true) (p_lhs x) (p_msgs x)) = p_msgs x) by (destruct at_; reflexivity).
           rewrite X. destruct late; [|split; (intros [H|(_ & H & _)]; [now left|discriminate H])]. rewrite SK; [reflexivity|]. intros v [= <-]. rewrite M. intros [= ->]. discriminate E.
      * cbn [p_msgs]. rewrite SK; [reflexivity|]. intros v [= <-]. congruence.
    + cbn [pchar p_msgs]. rewrite SK; [reflexivity|]. intros v [=].
Qed.

(** * The labels and the destructors *)

Lemma has_destructor_lost : forall td vd r i, label_at r i = None -> has_destructor td vd (sym_at r i) = lost td vd r i.
Proof. intros td vd r i H. unfold has_destructor, lost. rewrite H. destruct (cs_type (sym_at r i)); reflexivity. Qed.

Definition labelmsg (r : crule) (used : list bool) (i : nat) (x : cmsg) : Prop :=
  exists a, label_at r i = Some a /\
    (x = MSameLhs i /\ 0 < i /\ cr_lhsalias r = Some a \/ x = MTwice i /\ (exists j, j < i /\ label_at r j = Some a) \/ x = MUnused i /\ nth i used false = false).

Lemma label_loop_ok : forall td vd r used todo done b m out, rule_ok r -> done ++ todo = cr_rhs r -> Buf b out ->
  exists b' m', label_loop td vd r done todo used b m = Ok (b', m') /\
    Buf b' (out ++ flat_map (fun i => if 0 <? i then destroyed td vd r i else []) (seq (List.length done) (List.length todo))) /\
    (forall x, In x m' <-> In x m \/ exists i, List.length done <= i < List.length (cr_rhs r) /\ labelmsg r used i x).
Proof.
  intros td vd r used. induction todo as [|[sp al] todo IH]; intros done b m out R E B.
  - rewrite app_nil_r in E. subst done. exists b, m. cbn [label_loop List.length seq flat_map]. rewrite app_nil_r. split; [reflexivity|]. split; [exact B|].
    intros x. split; [now left|]. intros [H|(i & H & _)]; [exact H|lia].
  - set (i := List.length done) in *.
    assert (NI : nth i (cr_rhs r) (dummy_sym, None) = (sp, al)). { rewrite <- E, app_nth2 by (unfold i; lia). unfold i. now rewrite Nat.sub_diag. }
    assert (SI : sym_at r i = sp) by (unfold sym_at; now rewrite NI). assert (LI : label_at r i = al) by (unfold label_at; now rewrite NI).
    assert (IL : i < List.length (cr_rhs r)). { rewrite <- E, app_length. cbn [List.length]. unfold i. lia. }
    assert (E' : (done ++ [(sp, al)]) ++ todo = cr_rhs r) by (rewrite <- E, <- app_assoc; reflexivity).
    assert (LD : List.length (done ++ [(sp, al)]) = S i) by (rewrite app_length; cbn; unfold i; lia).
    cbn [List.length seq flat_map]. destruct al as [a|].
    + cbn [label_loop]. fold i. match goal with |- exists _ _, label_loop _ _ _ _ _ _ _ ?mm = _ /\ _ => destruct (IH _ b mm out R E' B) as (b' & m' & EE & BB & MM) end.
      exists b', m'. rewrite EE. split; [reflexivity|]. rewrite LD in BB, MM. split.
      * assert (DE : destroyed td vd r i = []). { unfold destroyed, lost. rewrite LI. reflexivity. }
        change (Buf b' (out ++ (if 0 <? i then destroyed td vd r i else []) ++ flat_map (fun i => if 0 <? i then destroyed td vd r i else []) (seq (S i) (List.length todo)))).
        rewrite DE. destruct (0 <? i); exact BB.
      * intros x. rewrite MM, !in_app_iff.
        assert (Q : labelmsg r used i x <->
          In x (if ((0 <? i) && match cr_lhsalias r with Some l => teqb l a | None => false end)%bool then [MSameLhs i] else []) \/
          In x (if ((0 <? i) && match find_label done a 0 with Some _ => true | None => false end)%bool then [MTwice i] else []) \/
          In x (if nth i used false then [] else [MUnused i])).
        { unfold labelmsg. rewrite LI.
          assert (Q1 : In x (if ((0 <? i) && match cr_lhsalias r with Some l => teqb l a | None => false end)%bool then [MSameLhs i] else []) <-> x = MSameLhs i /\ 0 < i /\ cr_lhsalias r = Some a).
          { destruct (cr_lhsalias r) as [l|]; [|rewrite andb_false_r; cbn; split; [tauto|intros (_ & _ & [=])]].
            destruct (0 <? i) eqn:Z; [apply Nat.ltb_lt in Z|apply Nat.ltb_ge in Z; cbn; split; [tauto|lia]]. cbn [andb]. destruct (teqb l a) eqn:T.
            - apply teqb_ok in T. subst l. cbn. intuition.
            - cbn. split; [tauto|]. intros (_ & _ & [= ->]). assert (teqb a a = true) by now apply teqb_ok. congruence. }
          assert (Q2 : In x (if ((0 <? i) && match find_label done a 0 with Some _ => true | None => false end)%bool then [MTwice i] else []) <-> x = MTwice i /\ (exists j, j < i /\ label_at r j = Some a)).
          { rewrite find_label_ok. assert (DJ : forall j, j < i -> snd (nth j done (dummy_sym, None)) = label_at r j). { intros j J. unfold label_at. rewrite <- E, app_nth1 by exact J. reflexivity. }
            destruct (first_label done a) as [j|] eqn:FL.
            - apply first_label_some in FL as (JL & JA & _). fold i in JL. assert (Z : (0 <? i) = true) by (apply Nat.ltb_lt; lia). rewrite Z. cbn. split.
              + intros [<-|[]]. split; [reflexivity|]. exists j. split; [exact JL|]. now rewrite <- DJ.
              + intros (-> & _). now left.
            - rewrite andb_false_r. cbn. split; [tauto|]. intros (_ & j & J & JA). apply (first_label_none done a FL j). now rewrite DJ. }
          assert (Q3 : In x (if nth i used false then [] else [MUnused i]) <-> x = MUnused i /\ nth i used false = false).
          { destruct (nth i used false); cbn; intuition; congruence. }
          rewrite Q1, Q2, Q3. split; [intros (a' & [= <-] & H); exact H|]. intros H. exists a. split; [reflexivity|exact H]. }
        split.
        -- intros [[H|H]|(j & J & H)]; [now left| |right; exists j; split; [lia|exact H]]. right. exists i. split; [lia|]. apply Q. tauto.
        -- intros [H|(j & J & H)]; [now left; left|]. destruct (Nat.eq_dec j i) as [->|N]; [left; right; apply Q in H; tauto|]. right. exists j. split; [lia|exact H].
    + assert (ST : exists b1, (if ((0 <? i) && has_destructor td vd sp)%bool then append_str b (zs "  yy_destructor(yypParser,%d,&yymsp[%d].minor);
") 0 (cs_index sp) (offset r i) else Ok b) = Ok b1 /\ Buf b1 (out ++ if 0 <? i then destroyed td vd r i else [])).
      { unfold destroyed. rewrite <- (has_destructor_lost td vd r i LI), SI. destruct (0 <? i); [|exists b; rewrite app_nil_r; now split]. destruct (has_destructor td vd sp); [|exists b; rewrite app_nil_r; now split].
        cbn [andb]. rewrite (offset_slot r i IL). destruct (sym_ints r i R) as (I1 & _). rewrite SI in I1. rewrite <- exp_destroy. apply append_gen; auto; [apply slot_int; exact R|].
        rewrite exp_destroy. pose proof (len_destroy sp _ I1 (slot_int r i R)). cbn [zs List.length]. lia. }
      destruct ST as (b1 & E1 & B1). cbn [label_loop]. fold i. rewrite E1. cbn [bind].
      destruct (IH _ b1 m _ R E' B1) as (b' & m' & EE & BB & MM). exists b', m'. rewrite EE. split; [reflexivity|]. rewrite LD in BB, MM. split; [rewrite app_assoc; exact BB|].
      intros x. rewrite MM. split; (intros [H|(j & J & H)]; [now left|]); right; exists j; (split; [|exact H]); [lia|].
      destruct (Nat.eq_dec j i) as [->|N]; [|lia]. destruct H as (a & H & _). rewrite LI in H. discriminate H.
Qed.

(** * The whole function *)

Lemma starts_ok : forall n h, starts n h = true <-> exists b, h = n ++ b.
Proof.
  induction n as [|x n IH]; intros h; cbn [starts app].
  - split; [intros _; now exists h|reflexivity].
  - destruct h as [|y h]; [split; [discriminate|intros (b & [=])]|]. rewrite andb_true_iff, Z.eqb_eq, IH. split.
    + intros (-> & b & ->). now exists b.
    + intros (b & [= -> ->]). split; [reflexivity|now exists b].
Qed.

Lemma strstr_ok : forall h n, match strstr h n with
  | Some k => (exists a b, h = a ++ n ++ b /\ List.length a = k) /\ (forall a b, h = a ++ n ++ b -> k <= List.length a)
  | None => forall a b, h <> a ++ n ++ b end.
Proof.
  induction h as [|c h IH]; intros n; cbn [strstr].
  - destruct (starts n []) eqn:E.
    + apply starts_ok in E as (b & E). split; [exists [], b; now split|lia].
    + intros a b H. destruct a; [|discriminate H]. assert (starts n [] = true) by (apply starts_ok; now exists b). congruence.
  - destruct (starts n (c :: h)) eqn:E.
    + apply starts_ok in E as (b & E). split; [exists [], b; now split|lia].
    + assert (N0 : forall b, c :: h <> n ++ b). { intros b H. assert (starts n (c :: h) = true) by (apply starts_ok; now exists b). congruence. }
      specialize (IH n). destruct (strstr h n) as [k|]; cbn [option_map].
      * destruct IH as ((a & b & -> & <-) & M). split; [exists (c :: a), b; now split|]. intros [|x a'] b' H; [now elim (N0 _ H)|]. injection H as _ H. specialize (M _ _ H). cbn. lia.
      * intros [|x a] b H; [now elim (N0 _ H)|]. injection H as _ H. now apply (IH a b).
Qed.

Lemma ovwrt_ok : forall l a, List.length (zs "/*" ++ l ++ zs "-overwrites-" ++ a ++ zs "*/") < 900 ->
  exists z n, lemon_vsprintf (repeat 1%Z 900) (zs "/*%s-overwrites-%s*/") [AStr l; AStr a] = Ok (Some ((zs "/*" ++ l ++ zs "-overwrites-" ++ a ++ zs "*/") ++ 0%Z :: z, n)).
Proof.
  intros l a H. pose proof (C29_text_partial [PLit (zs "/*"); PS None l; PLit (zs "-overwrites-"); PS None a; PLit (zs "*/")] (repeat 1%Z 900)) as E.
  change (spell _) with (zs "/*%s-overwrites-%s*/") in E. cbn [flat_map args1 app] in E.
  assert (T : Prop_LemonPrintf.text [PLit (zs "/*"); PS None l; PLit (zs "-overwrites-"); PS None a; PLit (zs "*/")] = zs "/*" ++ l ++ zs "-overwrites-" ++ a ++ zs "*/").
  { unfold Prop_LemonPrintf.text. cbn [flat_map text1 pad]. now rewrite app_nil_r. }
  rewrite T in E. eexists _, _. apply E; [| |rewrite repeat_length; exact H].
  - repeat constructor; intros X; cbn in X; repeat (destruct X as [X|X]; [discriminate X|]); exact X.
  - repeat constructor.
Qed.

Lemma comment_no0 : forall r c, rule_ok r -> comment r = Some c -> no0 c.
Proof.
  intros r c R H. unfold comment in H. destruct (cr_lhsalias r) as [l|] eqn:EL; [|discriminate H]. destruct (cr_rhs r) as [|[s [a|]] rest] eqn:ER; try discriminate H.
  destruct (txt_dec l a); [discriminate H|]. assert (HC : c = zs "/*" ++ l ++ zs "-overwrites-" ++ a ++ zs "*/") by congruence. rewrite HC. clear HC H. pose proof (no0_word _ (ro_lhs r R l EL)) as N1. assert (N2 : no0 a). { apply no0_word. apply (ro_rhs r R s a). rewrite ER. now left. }
  apply no0_app; [repeat constructor; discriminate|]. apply no0_app; [exact N1|]. apply no0_app; [repeat constructor; discriminate|]. apply no0_app; [exact N2|]. repeat constructor; discriminate.
Qed.

Lemma comment_shape : forall r c, comment r = Some c -> exists c', c = 47%Z :: c' ++ [47%Z].
Proof.
  intros r c H. unfold comment in H. destruct (cr_lhsalias r) as [l|]; [|discriminate H]. destruct (cr_rhs r) as [|[s [a|]] rest]; try discriminate H.
  destruct (txt_dec l a); [discriminate H|]. assert (HC : c = zs "/*" ++ l ++ zs "-overwrites-" ++ a ++ zs "*/") by congruence. rewrite HC. clear HC H. exists (42%Z :: l ++ zs "-overwrites-" ++ a ++ [42%Z]). change (zs "*/") with ([42%Z] ++ [47%Z]). change (zs "/*") with [47%Z; 42%Z].
  cbn [app]. rewrite <- !app_assoc. reflexivity.
Qed.

Lemma comment_no37 : forall r c, rule_ok r -> comment r = Some c -> ~ In 37%Z c.
Proof.
  intros r c R H. unfold comment in H. destruct (cr_lhsalias r) as [l|] eqn:EL; [|discriminate H]. destruct (cr_rhs r) as [|[s [a|]] rest] eqn:ER; try discriminate H.
  destruct (txt_dec l a); [discriminate H|]. assert (HC : c = zs "/*" ++ l ++ zs "-overwrites-" ++ a ++ zs "*/") by congruence. rewrite HC. clear HC H.
  assert (Q : forall w, is_word w -> ~ In 37%Z w). { intros w (x & v & -> & A & F) [->|I]; [discriminate A|]. rewrite Forall_forall in F. specialize (F _ I). discriminate F. }
  pose proof (Q _ (ro_lhs r R l EL)) as Q1. assert (Q2 : ~ In 37%Z a). { apply Q. apply (ro_rhs r R s a). rewrite ER. now left. }
  intros I. repeat (apply in_app_or in I as [I|I]; [first [exact (Q1 I) | exact (Q2 I) | cbn in I; repeat (destruct I as [I|I]; [discriminate I|]); exact I]|]).
  cbn in I; repeat (destruct I as [I|I]; [discriminate I|]); exact I.
Qed.

Lemma lhs_case_ok : forall td vd r code pa pb, rule_ok r -> laid_out r code pa pb ->
  exists lc, lhs_case td vd r code = Ok lc /\ Buf (lc_buf lc) [] /\ lc_prefix lc = some_text (before td vd r) /\ lc_direct lc = direct r pb /\ (lc_same lc = true <-> shared r) /\
    (forall m, In m (lc_msgs lc) <-> m = MDatatypes /\ shared r /\ cs_dtnum (cr_lhs r) <> cs_dtnum (sym_at r 0)) /\
    match pb with None => lc_skip lc = None | Some _ => exists k, lc_skip lc = Some k /\ comment r = Some (lc_ovwrt lc) /\ forall a b, code = a ++ lc_ovwrt lc ++ b -> (forall a' b', code = a' ++ lc_ovwrt lc ++ b' -> List.length a <= List.length a') -> k = List.length a end.
Proof.
  intros td vd r code pa pb R LO. unfold lhs_case. destruct (cr_rhs r) as [|[sp al] rest] eqn:ER.
  - exists (mkLc (mkSab [] 0) None true false [] [] None). assert (NS : ~ shared r) by (intros (l & s & rs & _ & H); rewrite ER in H; discriminate H).
    assert (NC : comment r = None) by (unfold comment; rewrite ER; destruct (cr_lhsalias r); reflexivity).
    split; [reflexivity|]. split; [apply buf_init|]. split; [unfold before; rewrite ER; reflexivity|]. split; [unfold direct; rewrite NC; reflexivity|]. split; [split; [discriminate|tauto]|].
    split; [intros m; cbn; split; [tauto|intros (_ & H & _); tauto]|]. destruct pb as [pb|]; [|reflexivity]. destruct LO as (c & a & b & H & _). congruence.
  - assert (S0 : sym_at r 0 = sp) by (unfold sym_at; rewrite ER; reflexivity). assert (L0 : label_at r 0 = al) by (unfold label_at; rewrite ER; reflexivity).
    assert (LL : 0 < List.length (cr_rhs r)) by (rewrite ER; cbn; lia).
    assert (BF : before td vd r = destroyed td vd r 0) by (unfold before; rewrite ER; reflexivity).
    destruct al as [a|].
    + assert (BN : some_text (before td vd r) = None) by (rewrite BF; unfold destroyed, lost; rewrite L0; reflexivity). rewrite BN.
      destruct (cr_lhsalias r) as [l|] eqn:EL.
      * destruct (teqb l a) eqn:T.
        -- apply teqb_ok in T. subst a. assert (SH : shared r) by (exists l, sp, rest; now split). assert (NC : comment r = None) by (unfold comment; rewrite EL, ER; destruct (txt_dec l l); congruence).
           eexists. split; [reflexivity|]. cbn [lc_buf lc_prefix lc_direct lc_same lc_msgs lc_ovwrt lc_skip]. split; [apply buf_init|]. split; [reflexivity|]. split; [unfold direct; rewrite NC; reflexivity|]. split; [split; auto|].
           split; [|destruct pb as [pb|]; [|reflexivity]; destruct LO as (c & x & b & H & _); congruence].
           intros m. rewrite S0. destruct (cs_dtnum (cr_lhs r) =? cs_dtnum sp)%Z eqn:D.
           ++ apply Z.eqb_eq in D. cbn. split; [tauto|]. intros (_ & _ & H). congruence.
           ++ apply Z.eqb_neq in D. cbn. split; [intros [H|[]]; split; [now symmetry|now split]|]. intros (-> & _). now left.
        -- assert (NE : l <> a) by (intros ->; assert (teqb a a = true) by (now apply teqb_ok); congruence).
           assert (NS : ~ shared r). { intros (l' & s & rs & H1 & H2). rewrite ER in H2. congruence. }
           assert (C0 : comment r = Some (zs "/*" ++ l ++ zs "-overwrites-" ++ a ++ zs "*/")). { unfold comment. rewrite EL, ER. destruct (txt_dec l a); [congruence|reflexivity]. }
           set (c := zs "/*" ++ l ++ zs "-overwrites-" ++ a ++ zs "*/") in *.
           destruct (ovwrt_ok l a (ro_room r R _ C0)) as (z & n & EO). fold c in EO. rewrite EO. cbn [bind]. rewrite (cstr_ok c z (comment_no0 r c R C0)). cbn [bind].
           assert (SAME : forall dir ov sk, In MDatatypes (lc_msgs (mkLc (mkSab [] 0) None dir false [] ov sk)) -> False) by (intros; contradiction).
           pose proof (strstr_ok code c) as SS. destruct (strstr code c) as [k|].
           ++ destruct SS as ((x & y & EX & LX) & MIN). destruct pb as [pb|].
              ** eexists. split; [reflexivity|]. cbn [lc_buf lc_prefix lc_direct lc_same lc_msgs lc_ovwrt lc_skip]. split; [apply buf_init|]. split; [reflexivity|]. split; [unfold direct; rewrite C0; reflexivity|].
                 split; [split; [discriminate|tauto]|]. split; [intros m; cbn; split; [tauto|intros (_ & H & _); tauto]|].
                 exists k. split; [reflexivity|]. split; [exact C0|]. intros a' b' E1 M1. apply Nat.le_antisymm; [now apply (MIN a' b')|]. rewrite <- LX. now apply (M1 x y).
              ** destruct LO as (_ & NO). now elim (NO c x y C0).
           ++ destruct pb as [pb|].
              ** destruct LO as (c' & x & y & C1 & E1 & _). rewrite C0 in C1. injection C1 as <-. now elim (SS x y).
              ** eexists. split; [reflexivity|]. cbn [lc_buf lc_prefix lc_direct lc_same lc_msgs lc_ovwrt lc_skip]. split; [apply buf_init|]. split; [reflexivity|]. split; [unfold direct; rewrite C0; reflexivity|].
                 split; [split; [discriminate|tauto]|]. split; [intros m; cbn; split; [tauto|intros (_ & H & _); tauto]|]. reflexivity.
      * assert (NS : ~ shared r) by (intros (l & s & rs & H & _); congruence). assert (NC : comment r = None) by (unfold comment; rewrite EL; reflexivity).
        eexists. split; [reflexivity|]. cbn [lc_buf lc_prefix lc_direct lc_same lc_msgs lc_ovwrt lc_skip]. split; [apply buf_init|]. split; [reflexivity|]. split; [unfold direct; rewrite NC; reflexivity|].
        split; [split; [discriminate|tauto]|]. split; [intros m; cbn; split; [tauto|intros (_ & H & _); tauto]|]. destruct pb as [pb|]; [|reflexivity]. destruct LO as (c & x & b & H & _). congruence.
    + assert (NS : ~ shared r). { intros (l & s & rs & _ & H). rewrite ER in H. discriminate H. }
      assert (NC : comment r = None). { unfold comment. rewrite ER. destruct (cr_lhsalias r); reflexivity. }
      assert (G : exists b, (if has_destructor td vd sp then
        b <- append_reset (mkSab [] 0) ;;
        b <- append_str (snd b) (zs "  yy_destructor(yypParser,%d,&yymsp[%d].minor);
") 0 (cs_index sp) (offset r 0) ;;
        tb <- append_reset b ;;
        match fst tb with Some t => Ok (mkLc (snd tb) (Some t) true false [] [] None) | None => Bad end
        else Ok (mkLc (mkSab [] 0) None true false [] [] None)) = Ok (mkLc b (some_text (before td vd r)) true false [] [] None) /\ Buf b []).
      { rewrite BF. unfold destroyed. rewrite <- (has_destructor_lost td vd r 0 L0), S0. destruct (has_destructor td vd sp); [|exists (mkSab [] 0); split; [reflexivity|apply buf_init]].
        change (append_reset (mkSab [] 0)) with (Ok (@None txt, mkSab [] 0)). cbn [bind snd]. rewrite (offset_slot r 0 LL). destruct (sym_ints r 0 R) as (I1 & _). rewrite S0 in I1.
        destruct (append_gen (mkSab [] 0) [] (zs "  yy_destructor(yypParser,%d,&yymsp[%d].minor);
") 0 (cs_index sp) (slot r 0) buf_init I1 (slot_int r 0 R)) as (b1 & E1 & B1).
        { rewrite exp_destroy. pose proof (len_destroy sp _ I1 (slot_int r 0 R)). cbn [zs List.length]. lia. } { now left. }
        rewrite E1. cbn [bind]. rewrite exp_destroy in B1. cbn [app] in B1. destruct (reset_ok _ _ B1 (no0_destroy _ _)) as (o & b2 & E2 & B2 & O2). rewrite E2. cbn [bind fst snd].
        assert (O3 : o = Some (destroy sp (slot r 0))). { destruct O2 as [O2|(O2 & _)]; [exact O2|discriminate O2]. }
        rewrite O3. exists b2. split; [reflexivity|exact B2]. }
      destruct G as (b & -> & B). eexists. split; [reflexivity|]. cbn [lc_buf lc_prefix lc_direct lc_same lc_msgs lc_ovwrt lc_skip]. split; [exact B|]. split; [reflexivity|].
      split; [unfold direct; rewrite NC; reflexivity|]. split; [split; [discriminate|tauto]|]. split; [intros m; cbn; split; [tauto|intros (_ & H & _); tauto]|].
      destruct pb as [pb|]; [|reflexivity]. destruct LO as (c & x & b' & H & _). congruence.
Qed.

Lemma no0_render : forall r dir late n ps, List.length ps <= n -> Forall wf_piece ps -> no0 (render r dir late ps).
Proof.
  intros r dir late. induction n as [|n IH]; intros ps L F.
  - destruct ps; [constructor|cbn in L; lia].
  - destruct ps as [|p ps]; [constructor|]. cbn [List.length] in L. pose proof (Forall_inv F) as F1. pose proof (Forall_inv_tail F) as F2. destruct p as [w|c]; cbn [wf_piece] in F1.
    + rewrite render_cons_W. apply no0_app; [|apply IH; [lia|exact F2]]. destruct (means r w); [apply no0_lhs| |now apply no0_word]. destruct (_ && _)%bool; [constructor|apply no0_value].
    + rewrite render_cons_O. assert (G : no0 (c :: render r dir late ps)) by (constructor; [exact F1|apply IH; [lia|exact F2]]).
      destruct ps as [|[w|d] ps2]; try exact G. destruct (means r w); try exact G. destruct (_ && _)%bool; [|exact G]. apply no0_app; [apply no0_major|]. apply IH; [cbn [List.length] in L; lia|exact (Forall_inv_tail F2)].
Qed.

Lemma render_nil : forall r dir ps, Forall wf_piece ps -> render r dir false ps = [] -> ps = [].
Proof.
  intros r dir [|p ps] F E; [reflexivity|]. exfalso. pose proof (Forall_inv F) as F1. destruct p as [w|c]; cbn [wf_piece] in F1.
  - rewrite render_cons_W in E. apply app_eq_nil in E as (E & _). destruct (means r w).
    + unfold lhs_text, value_at in E. destruct dir; discriminate E.
    + rewrite andb_false_r in E. discriminate E.
    + destruct F1 as (c & v & -> & _). discriminate E.
  - rewrite render_cons_O in E. destruct ps as [|[w|d] ps2]; try discriminate E. destruct (means r w); try discriminate E. destruct (_ && _)%bool; discriminate E.
Qed.

Lemma loop_end : forall fuel r code zLhs zOv zSk s, code_loop (S fuel) r code zLhs zOv zSk (List.length code) s = Ok s.
Proof.
  intros. cbn [code_loop]. unfold rd. rewrite (proj2 (nth_error_None code (List.length code))) by lia. rewrite Nat.eqb_refl. reflexivity.
Qed.

Lemma code_loop_ok : forall r code pa pb zOv zSk s x, rule_ok r -> laid_out r code pa pb -> no_label_last r pa -> no_label_last r (later pb) ->
  match pb with None => zSk = None | Some _ => comment r = Some zOv /\ forall a b, code = a ++ zOv ++ b -> (forall a' b', code = a' ++ zOv ++ b' -> List.length a <= List.length a') -> zSk = Some (List.length a) end ->
  St false s x -> p_out x = [] -> List.length (p_used x) = List.length (cr_rhs r) ->
  exists s', code_loop (S (List.length code)) r code (lhs_text r (direct r pb)) zOv zSk 0 s = Ok s' /\
    Buf (t_buf s') (new_code r pa pb) /\
    (t_lhsused s' = true <-> p_lhs x = true \/ exists w, In (W w) (pa ++ later pb) /\ means r w = Lhs) /\
    (forall i, nth i (t_used s') false = true <-> nth i (p_used x) false = true \/ exists w, In (W w) (pa ++ later pb) /\ means r w = Rhs i) /\
    (forall m, In m (t_msgs s') <-> In m (p_msgs x) \/ (m = MAfter /\ exists w, In (W w) (later pb) /\ means r w = Rhs 0)).
Proof.
  intros r code pa pb zOv zSk s x R LO NA NB SK S0 OX UX. destruct pb as [pb|].
  - destruct LO as (c & a & b & C0 & EC & (PA & FA & TA) & (PB & FB & TB) & MIN). destruct SK as (C1 & SK). rewrite C0 in C1. injection C1 as ->. specialize (SK a b EC MIN).
    assert (DI : direct r (Some pb) = true) by (unfold direct; destruct (comment r); reflexivity). rewrite DI. cbn [later] in *.
    destruct (comment_shape r zOv C0) as (c' & SH).
    destruct (loop_pieces r code (lhs_text r true) zOv zSk true false R eq_refl (List.length pa) pa (le_n _) (S (List.length code)) [] (O 32%Z) (zOv ++ b) s x) as (f1 & s1 & FF1 & E1 & S1); auto.
    { cbn [app]. now rewrite PA. } { now left. } { rewrite SH. reflexivity. } { intros k K. rewrite SK in K. injection K as <-. right. cbn [app]. rewrite PA. lia. }
    { intros X. discriminate X. } { rewrite PA, EC, !app_length. lia. }
    cbn [app List.length at_of] in E1, S1. change (32 =? 64)%Z with false in S1. rewrite PA in E1, FF1. rewrite E1. set (x1 := pfold r true false false x pa) in *.
    assert (LC : List.length code = List.length a + List.length zOv + List.length b) by (rewrite EC, !app_length; lia).
    assert (LZ : 2 <= List.length zOv) by (rewrite SH; cbn [List.length]; rewrite app_length; cbn; lia).
    destruct f1 as [|f1]; [lia|]. destruct S1 as (B1 & U1 & L1 & D1 & M1).
    destruct (append_plain _ _ zOv B1 (comment_no37 r zOv R C0)) as (b1 & A1 & B2).
    assert (ST1 : code_loop (S f1) r code (lhs_text r true) zOv zSk (List.length a) s1 = code_loop f1 r code (lhs_text r true) zOv zSk (List.length (a ++ zOv)) (mkTst b1 (t_used s1) (t_lhsused s1) true (t_msgs s1))).
    { cbn [code_loop]. assert (RD : rd code (List.length a) = Ok 47%Z). { apply (rd_mid code a 47%Z ((c' ++ [47%Z]) ++ b)). rewrite EC, SH. reflexivity. } rewrite RD. cbn [bind]. change (47 =? 0)%Z with false. cbn iota. rewrite SK, Nat.eqb_refl, A1. cbn [bind]. now rewrite app_length. }
    rewrite ST1.
    destruct (loop_pieces r code (lhs_text r true) zOv zSk true true R eq_refl (List.length pb) pb (le_n _) f1 (a ++ zOv) (O 47%Z) [] (mkTst b1 (t_used s1) (t_lhsused s1) true (t_msgs s1)) (mkP (p_out x1 ++ zOv) (p_used x1) (p_lhs x1) (p_msgs x1))) as (f2 & s2 & FF2 & E2 & S2); auto.
    { rewrite app_nil_r, PB, EC. now rewrite app_assoc. }
    { destruct pb as [|q pb']; [exact Logic.I|]. destruct TB as (T1 & T2). split; [|exact T2]. destruct q as [w|d]; [reflexivity|]. cbn [fits] in *. intros X. specialize (T1 X). discriminate T1. }
    { right. exists (a ++ 47%Z :: c'). cbn [wspell1 wf_piece]. split; [rewrite SH, <- app_assoc; reflexivity|discriminate]. }
    { intros k K. rewrite SK in K. injection K as <-. left. rewrite app_length. lia. }
    { repeat split; cbn [t_buf t_used t_lhsused t_dont t_msgs p_out p_used p_lhs p_msgs]; try congruence; apply B2. }
    { intros X. discriminate X. } { rewrite PB. lia. }
    rewrite E2, PB. assert (EE : List.length ((a ++ zOv) ++ b) = List.length code) by (rewrite EC, !app_length; lia). rewrite EE.
    rewrite PB in FF2. destruct f2 as [|f2]; [lia|]. rewrite loop_end. exists s2. split; [reflexivity|]. destruct S2 as (B3 & U3 & L3 & D3 & M3). cbn [at_of] in *. change (47 =? 64)%Z with false in *.
    rewrite (proj1 (pfold_out r true true pb _)) in B3. cbn [p_out] in B3. unfold x1 in B3. rewrite (proj1 (pfold_out r true false pa x)), OX in B3. cbn [app] in B3.
    split; [unfold new_code; rewrite C0, DI; rewrite <- app_assoc in B3; exact B3|].
    assert (JOIN : forall mn, (exists w, In (W w) (pa ++ pb) /\ means r w = mn) <-> (exists w, In (W w) pa /\ means r w = mn) \/ (exists w, In (W w) pb /\ means r w = mn)).
    { intros mn. split.
      - intros (w & I & H). apply in_app_or in I as [I|I]; [left|right]; now exists w.
      - intros [(w & I & H)|(w & I & H)]; exists w; (split; [apply in_or_app|exact H]); [now left|now right]. }
    split; [|split].
    + rewrite L3, pfold_lhs. cbn [p_lhs]. unfold x1. rewrite pfold_lhs, JOIN. tauto.
    + intros i. assert (UL : List.length (p_used x1) = List.length (cr_rhs r)) by (apply pfold_used; exact UX).
      rewrite U3. rewrite (proj2 (pfold_used r true true pb false (mkP (p_out x1 ++ zOv) (p_used x1) (p_lhs x1) (p_msgs x1)) UL) i). cbn [p_used]. unfold x1. rewrite (proj2 (pfold_used r true false pa false x UX) i), JOIN. tauto.
    + intros m. rewrite M3, pfold_msgs. cbn [p_msgs]. unfold x1. rewrite pfold_msgs. split.
      * intros [[H|(_ & H & _)]|(H1 & _ & H2)]; [now left|discriminate H|right; now split].
      * intros [H|(H1 & H2)]; [now left; left|right; now split].
  - destruct LO as ((PA & FA & TA) & _). subst zSk. cbn [later] in *. rewrite app_nil_r. set (dir := direct r None).
    destruct (loop_pieces r code (lhs_text r dir) zOv None dir false R eq_refl (List.length pa) pa (le_n _) (S (List.length code)) [] (O 32%Z) [] s x) as (f1 & s1 & FF1 & E1 & S1); auto.
    { cbn [app]. now rewrite PA, app_nil_r. } { now left. } { intros k [=]. } { intros X. discriminate X. } { rewrite PA. lia. }
    cbn [app List.length at_of] in E1, S1. change (32 =? 64)%Z with false in S1. rewrite PA in E1, FF1. rewrite E1. destruct f1 as [|f1]; [lia|]. rewrite loop_end.
    exists s1. split; [reflexivity|]. destruct S1 as (B3 & U3 & L3 & D3 & M3).
    rewrite (proj1 (pfold_out r dir false pa x)), OX in B3. cbn [app] in B3. split; [unfold new_code; rewrite app_nil_r; exact B3|]. split; [|split].
    + rewrite L3. apply pfold_lhs.
    + intros i. rewrite U3. apply (proj2 (pfold_used r dir false pa false x UX) i).
    + intros m. rewrite M3, pfold_msgs. split; (intros [H|H]; [now left|]); [destruct H as (_ & H & _); discriminate H|destruct H as (_ & w & [] & _)].
Qed.

Lemma means_lhs : forall r w, means r w = Lhs <-> cr_lhsalias r = Some w.
Proof.
  intros r w. unfold means. destruct (cr_lhsalias r) as [l|].
  - destruct (txt_dec l w) as [->|N]; [tauto|]. split; [|congruence]. destruct (first_label (cr_rhs r) w); discriminate.
  - split; [|congruence]. destruct (first_label (cr_rhs r) w); discriminate.
Qed.

Definition code_of (r : crule) : txt := match cr_code r with Some c => c | None => [10%Z] end.

Theorem translate_ok : forall td vd r pa pb, rule_ok r -> laid_out r (code_of r) pa pb -> no_label_last r pa -> no_label_last r (later pb) ->
  exists t, translate_code td vd r = Ok t /\ tr_code t = new_code r pa pb /\
    tr_prefix t = some_text (before td vd r) /\ tr_suffix t = some_text (after td vd r (direct r pb)) /\
    (tr_nocode t = true <-> cr_code r = None /\ before td vd r = [] /\ after td vd r (direct r pb) = []) /\
    tr_lhsminor t = negb (direct r pb) /\ (forall m, In m (tr_msgs t) <-> misuse r pa pb m).
Proof.
  intros td vd r pa pb R LO NA NB. unfold translate_code. pose proof (ro_len r R) as LN. destruct (1000 <? List.length (cr_rhs r)) eqn:E0; [apply Nat.ltb_lt in E0; lia|]. clear E0.
  fold (code_of r). set (code := code_of r) in *. destruct (lhs_case_ok td vd r code pa pb R LO) as (lc & E1 & B1 & PR & DR & SH & MS & SK). rewrite E1. cbn [bind].
  assert (I0 : int_ok (1 - Z.of_nat (List.length (cr_rhs r)))) by (unfold int_ok; lia).
  assert (ZL : (if lc_direct lc then zs "yymsp[" ++ zdec (1 - Z.of_nat (List.length (cr_rhs r))) ++ zs "].minor.yy" ++ zdec (cs_dtnum (cr_lhs r)) else zs "yylhsminor.yy" ++ zdec (cs_dtnum (cr_lhs r))) = lhs_text r (direct r pb)).
  { rewrite DR, !zdec_num by (assumption || apply lhs_int; exact R). reflexivity. }
  rewrite ZL. destruct (reset_ok _ _ B1 (Forall_nil _)) as (o1 & b2 & E2 & B2 & _). rewrite E2. cbn [bind snd].
  set (used0 := if lc_same lc then upd (repeat false (List.length (cr_rhs r))) 0 true else repeat false (List.length (cr_rhs r))).
  assert (UL : List.length used0 = List.length (cr_rhs r)) by (unfold used0; destruct (lc_same lc); rewrite ?upd_length, repeat_length; reflexivity).
  assert (UN : forall i, nth i used0 false = true <-> i = 0 /\ shared r).
  { intros i. assert (RP : nth i (repeat false (List.length (cr_rhs r))) false = false) by (clear; revert i; induction (List.length (cr_rhs r)); intros [|i]; cbn; auto).
    unfold used0. destruct (lc_same lc) eqn:SM.
    - assert (SHR : shared r) by now apply SH. assert (NL : 0 < List.length (repeat false (List.length (cr_rhs r)))). { rewrite repeat_length. destruct SHR as (l & s & rs & _ & ->). cbn. lia. }
      rewrite nth_upd by exact NL. destruct (i =? 0) eqn:E; [apply Nat.eqb_eq in E; tauto|]. apply Nat.eqb_neq in E. rewrite RP. split; [discriminate|intros (H & _); congruence].
    - rewrite RP. split; [discriminate|]. intros (_ & H). apply SH in H. discriminate H. }
  destruct (code_loop_ok r code pa pb (lc_ovwrt lc) (lc_skip lc) (mkTst b2 used0 (lc_same lc) false (lc_msgs lc)) (mkP [] used0 (lc_same lc) (lc_msgs lc)) R LO NA NB) as (s & E3 & B3 & LU & UU & MM).
  { destruct pb as [pb|]; [|exact SK]. destruct SK as (k & K1 & K2 & K3). split; [exact K2|]. intros a b EA MIN. rewrite K1. f_equal. exact (K3 a b EA MIN). }
  { unfold St. cbn [t_buf t_used t_lhsused t_dont t_msgs p_out p_used p_lhs p_msgs]. split; [exact B2|]. repeat split. } { reflexivity. } { exact UL. }
  rewrite E3. cbn [bind]. cbn [p_used p_lhs p_msgs] in LU, UU, MM.
  assert (WF : Forall wf_piece pa /\ Forall wf_piece (later pb)).
  { destruct pb as [pb|]; [destruct LO as (c & a & b & _ & _ & (_ & F1 & _) & (_ & F2 & _) & _)|destruct LO as ((_ & F1 & _) & _)]; split; first [exact F1 | exact F2 | constructor]. }
  assert (N0 : no0 (new_code r pa pb)).
  { unfold new_code. apply no0_app; [eapply no0_render; [apply le_n|apply WF]|]. destruct pb as [pb|]; [|constructor]. destruct (comment r) as [c|] eqn:C; [|constructor]. apply no0_app; [exact (comment_no0 r c R C)|]. eapply no0_render; [apply le_n|apply WF]. }
  destruct (reset_ok _ _ B3 N0) as (o4 & b4 & E4 & B4 & O4). rewrite E4. cbn [bind fst snd].
  destruct (reset_ok _ _ B4 (Forall_nil _)) as (o5 & b5 & E5 & B5 & _). rewrite E5. cbn [bind snd].
  match goal with |- context [label_loop td vd r [] (cr_rhs r) (t_used s) b5 ?m] => destruct (label_loop_ok td vd r (t_used s) (cr_rhs r) [] b5 m [] R eq_refl B5) as (b6 & m6 & E6 & B6 & M6) end.
  rewrite E6. cbn [bind fst snd List.length app] in *.
  assert (SUF : flat_map (fun i => if 0 <? i then destroyed td vd r i else []) (seq 0 (List.length (cr_rhs r))) = flat_map (destroyed td vd r) (seq 1 (List.length (cr_rhs r) - 1))).
  { destruct (List.length (cr_rhs r)) as [|n]; [reflexivity|]. cbn [seq flat_map]. change (0 <? 0) with false. cbn [app]. replace (S n - 1) with n by lia.
    assert (G : forall l, (forall i, In i l -> 0 < i) -> flat_map (fun i => if 0 <? i then destroyed td vd r i else []) l = flat_map (destroyed td vd r) l).
    { induction l as [|i l IH]; intros H; [reflexivity|]. cbn [flat_map]. rewrite IH by (intros j J; apply H; now right). assert (Z : (0 <? i) = true) by (apply Nat.ltb_lt; apply H; now left). now rewrite Z. }
    apply G. intros i I. apply in_seq in I. lia. }
  rewrite SUF in B6.
  assert (TAIL : exists b7, (if lc_direct lc then Ok b6 else b <- append_str b6 (zs "  yymsp[%d].minor.yy%d = ") 0 (1 - Z.of_nat (List.length (cr_rhs r))) (cs_dtnum (cr_lhs r)) ;; b <- append_str b (lhs_text r (direct r pb)) 0 0 0 ;; append_str b (zs ";
") 0 0 0) = Ok b7 /\ Buf b7 (after td vd r (direct r pb))).
  { rewrite DR. unfold after. destruct (direct r pb) eqn:DD; [exists b6; rewrite app_nil_r; now split|].
    assert (EX : expand (zs "  yymsp[%d].minor.yy%d = ") (1 - Z.of_nat (List.length (cr_rhs r))) (cs_dtnum (cr_lhs r)) = zs "  yymsp[" ++ num (1 - Z.of_nat (List.length (cr_rhs r))) ++ zs "].minor.yy" ++ num (cs_dtnum (cr_lhs r)) ++ zs " = ") by reflexivity.
    pose proof (num_len _ I0) as NL1. pose proof (num_len _ (lhs_int r R)) as NL2.
    destruct (append_gen b6 _ (zs "  yymsp[%d].minor.yy%d = ") 0 (1 - Z.of_nat (List.length (cr_rhs r))) (cs_dtnum (cr_lhs r)) B6 I0 (lhs_int r R)) as (c1 & X1 & Y1).
    { rewrite EX, !app_length. cbn [zs List.length]. lia. } { now left. }
    rewrite X1. cbn [bind]. destruct (append_plain c1 _ (lhs_text r false) Y1 (no37_lhs r false)) as (c2 & X2 & Y2). rewrite X2. cbn [bind].
    destruct (append_plain c2 _ (zs ";
") Y2) as (c3 & X3 & Y3). { intros X. cbn in X. repeat (destruct X as [X|X]; [discriminate X|]). exact X. }
    exists c3. split; [exact X3|]. rewrite EX in Y3. rewrite <- !app_assoc in Y3. exact Y3. }
  destruct TAIL as (b7 & E7 & B7). rewrite E7. cbn [bind].
  assert (N7 : no0 (after td vd r (direct r pb))).
  { unfold after. apply no0_app.
    - generalize (seq 1 (List.length (cr_rhs r) - 1)). clear. induction l as [|i l IH]; cbn [flat_map]; [constructor|]. apply no0_app; [|exact IH]. unfold destroyed. destruct (lost td vd r i); [apply no0_destroy|constructor].
    - destruct (direct r pb); [constructor|]. repeat (apply no0_app; [first [apply num_no0 | apply no0_lhs | repeat constructor; discriminate]|]). repeat constructor; discriminate. }
  destruct (reset_ok _ _ B7 N7) as (o8 & b8 & E8 & B8 & O8). rewrite E8. cbn [bind fst].
  assert (SU : match o8 with Some (c :: t) => Some (c :: t) | _ => None end = some_text (after td vd r (direct r pb))).
  { destruct O8 as [->|(-> & ->)]; [|reflexivity]. destruct (after td vd r (direct r pb)); reflexivity. }
  assert (CO : match o4 with Some (c :: t) => c :: t | _ => code end = new_code r pa pb).
  { destruct (new_code r pa pb) as [|c t] eqn:NC.
    - assert (code = []). { unfold new_code in NC. apply app_eq_nil in NC as (NC1 & NC2). apply render_nil in NC1; [|apply WF]. subst pa.
        destruct pb as [pb|]; [destruct LO as (c & a & b & C0 & _); rewrite C0 in NC2; destruct (comment_shape r c C0) as (c' & SHP); rewrite SHP in NC2; discriminate NC2|]. destruct LO as ((<- & _) & _). reflexivity. }
      destruct O4 as [->|(_ & ->)]; assumption.
    - destruct O4 as [->|(O4 & _)]; [reflexivity|discriminate O4]. }
  rewrite SU, CO. eexists. split; [reflexivity|]. cbn [tr_code tr_prefix tr_suffix tr_nocode tr_msgs tr_lhsminor]. split; [reflexivity|]. split; [exact PR|]. split; [reflexivity|]. split; [|split].
  - rewrite PR. destruct (cr_code r), (before td vd r), (after td vd r (direct r pb)); cbn [some_text]; split; try discriminate; try (intros (H1 & H2 & H3); discriminate); auto.
  - now rewrite DR.
  - intros m. rewrite M6, in_app_iff, MM, MS.
    assert (LUM : In m (match cr_lhsalias r with Some _ => if t_lhsused s then [] else [MLhsUnused] | None => [] end) <-> m = MLhsUnused /\ exists l, cr_lhsalias r = Some l /\ ~ shared r /\ ~ In (W l) (pa ++ later pb)).
    { destruct (cr_lhsalias r) as [l|] eqn:EL; [|cbn; split; [tauto|intros (_ & l & [=] & _)]].
      assert (LU' : t_lhsused s = true <-> shared r \/ In (W l) (pa ++ later pb)).
      { rewrite LU, SH. split; (intros [H|H]; [now left|right]).
        - destruct H as (w & I & M). apply means_lhs in M. congruence.
        - exists l. split; [exact H|]. now apply means_lhs. }
      destruct (t_lhsused s) eqn:TL.
      - cbn. split; [tauto|]. intros (_ & l' & [= <-] & H1 & H2). apply proj1 in LU'. destruct (LU' eq_refl); tauto.
      - cbn. split.
        + intros [<-|[]]. split; [reflexivity|]. exists l. split; [reflexivity|]. split; intros H; [assert (false = true) by (apply LU'; now left)|assert (false = true) by (apply LU'; now right)]; discriminate.
        + intros (-> & _). now left. }
    rewrite LUM. split.
    + intros [[[H|H]|H]|(i & I & a & L & H)].
      * destruct H as (-> & H1 & H2). now constructor.
      * destruct H as (-> & w & I & M). now apply (mu_after r pa pb w).
      * destruct H as (-> & l & H1 & H2 & H3). now apply (mu_lhs r pa pb l).
      * destruct H as [(-> & H1 & H2)|[(-> & j & J & H1)|(-> & H)]].
        -- now apply (mu_same r pa pb i a).
        -- now apply (mu_twice r pa pb i j a).
        -- assert (NU : ~ (nth i used0 false = true \/ exists w, In (W w) (pa ++ later pb) /\ means r w = Rhs i)) by (rewrite <- UU; congruence).
           apply (mu_unused r pa pb i a L).
           ++ intros -> S'. apply NU. left. apply UN. now split.
           ++ intros w W' M'. apply NU. right. now exists w.
    + assert (LIM : forall i l, label_at r i = Some l -> i < List.length (cr_rhs r)).
      { intros i l H. destruct (Nat.lt_ge_cases i (List.length (cr_rhs r))) as [X|X]; [exact X|]. unfold label_at in H. rewrite nth_overflow in H by exact X. discriminate H. }
      intros H. destruct H as [H1 H2|w H1 H2|l H1 H2 H3|i l H1 H2 H3|i j l H1 H2 H3|i l H1 H2 H3].
      * left. left. left. now split.
      * left. left. right. split; [reflexivity|]. exists w. now split.
      * left. right. split; [reflexivity|]. exists l. now split.
      * right. exists i. split; [split; [lia|now apply (LIM i l)]|]. exists l. split; [exact H3|]. left. now split.
      * right. exists i. split; [split; [lia|now apply (LIM i l)]|]. exists l. split; [exact H3|]. right. left. split; [reflexivity|]. exists j. now split.
      * right. exists i. split; [split; [lia|now apply (LIM i l)]|]. exists l. split; [exact H1|]. right. right. split; [reflexivity|].
        destruct (nth i (t_used s) false) eqn:X; [|reflexivity]. exfalso. apply UU in X as [X|(w & W' & M')]; [apply UN in X as (-> & X); now apply H2|now apply (H3 w)].
Qed.
