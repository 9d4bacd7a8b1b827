(** What byacc does with a file that has the form of a grammar file but not what is asked of one. *)
From Coq Require Import String List Arith ZArith Bool Lia.
Import ListNotations.
From Verif Require Import Base LemonTableModel LemonPreModel LemonCodeModel ByaccParModel ByaccReaderModel ByaccRulesModel ByaccScanModel Prop_ByaccMidrule Prop_ByaccLiteral SpecByaccFile SpecByaccRules ByaccScanProof ByaccTableProof ByaccDeclProof ByaccActionProof ByaccFileProof.
Open Scope rd_scope.

(** An error, or undefined behaviour (an int overflows). *)
Definition bad {A} (x : rd A) : Prop := x = RErr \/ x = RBad.
Lemma bad_bind : forall A B (x : rd A) (f : A -> rd B), bad x -> bad (rbind x f).
Proof. intros A B x f [->| ->]; [now left|now right]. Qed.

(** * Actions *)

Section Act.
Variable s0 : rdstate.
Variable its : list bucket.
Variable ts : list (option txt).
Variable l0 : bucket.
Variable lrest : list (option bucket).
Variable lt : option txt.
Hypothesis H_its : Forall2 (fun b tg => tag_of b s0 = ROk tg) its (rev ts).
Hypothesis H_lhs : r_lhs (d_rules s0) = Some l0 :: lrest.
Hypothesis H_lt : tag_of l0 s0 = ROk lt.
Notation tagsok l := (Forall (fun e : txt * bool => snd e = true) l).

Let len := its_len s0 its ts H_its.
Let nthi := its_nth s0 its ts H_its.

Lemma dollar_ref_bad : forall i u t r h l o, index_text i u t -> t <> [] -> tagsok l -> piece_out h lt ts (PRef i) = None -> bad (dollar its (u ++ r) (upd_out h l o s0)).
Proof.
  intros i u t r h l o H NE FT E. cbn [piece_out] in E. rewrite <- len in E.
  destruct H as [i u t NT|i u t NT PI]; apply (number_app _ _ _ r) in NT; auto; destruct (get_number_ok _ _ _ NT) as (GN & PV).
  - destruct (number_head _ _ _ NT) as (c & v & Ev & D). unfold dollar. rewrite Ev in *. unfold digit in D. rewrite (proj2 (Z.eqb_neq c 60)), (proj2 (Z.eqb_neq c 36)) by lia.
    rewrite (proj2 (isdigit_iff c) D), GN. cbn [rbind]. cbv beta iota. change (d_havetags (upd_out h l o s0)) with h. rewrite (proj2 (Z.ltb_ge i 0) PV) in E. cbn [orb] in E.
    destruct (h && negb (Z.of_nat (List.length its) =? 0)%Z)%bool.
    + destruct ((1 <=? i) && (i <=? Z.of_nat (List.length its)))%Z eqn:RG.
      * apply andb_true_iff in RG. rewrite !Z.leb_le in RG. destruct RG as (R1 & R2). rewrite (proj2 (Z.leb_gt i 0)), (proj2 (Z.ltb_ge (Z.of_nat (List.length its)) i)) by lia. cbn [orb].
        destruct (nthi (Z.to_nat i)) as (b & tg & A & B & C); [lia|]. replace (Z.to_nat (Z.of_nat (List.length its) - i)) with (List.length its - Z.to_nat i) by lia. rewrite A, tag_of_upd, C. cbn [rbind].
        replace (Z.to_nat (i - 1)) with (Z.to_nat i - 1) in E by lia. rewrite B in E. destruct tg as [g|]; [discriminate|now left].
      * assert (X : ((i <=? 0) || (Z.of_nat (List.length its) <? i))%Z = true). { apply andb_false_iff in RG. rewrite !Z.leb_gt in RG. apply orb_true_iff. rewrite Z.leb_le, Z.ltb_lt. lia. } rewrite X. now left.
    + unfold in_int in E. rewrite (proj2 (Z.leb_le 0 i) PV) in E. discriminate.
  - unfold dollar. cbn [app Z.eqb Pos.eqb]. change (isdigit 45) with false. cbv iota. rewrite GN. cbn [rbind]. cbv beta iota. change (d_havetags (upd_out h l o s0)) with h.
    destruct h; [now left|]. cbn [andb] in E. unfold in_int in E. rewrite (proj2 (Z.leb_gt 0 (- i))) in E by lia. cbn [orb] in E. unfold int_ok. destruct (_ <=? _)%Z; [discriminate|now right].
Qed.

Lemma dollar_tref_bad : forall g i u u' t r h l o, tag_text g u u' -> index_text i u' t -> t <> [] -> tagsok l -> piece_out h lt ts (PTRef g i) = None -> bad (dollar its (u ++ r) (upd_out h l o s0)).
Proof.
  intros g i u u' t r h l o TG H NE FT E. cbn [piece_out] in E. rewrite <- len in E. apply (tag_app _ _ _ r) in TG.
  destruct (get_tag_ok _ _ _ (upd_out h l o s0) TG FT) as (l' & GT & FT').
  assert (Hd : exists v, u ++ r = 60%Z :: v) by (destruct TG; eauto). destruct Hd as (v & Ev). unfold dollar. rewrite Ev in *. cbn [Z.eqb Pos.eqb]. rewrite GT. cbn [rbind]. cbv beta iota.
  destruct H as [i w t NT|i w t NT PI]; apply (number_app _ _ _ r) in NT; auto; destruct (get_number_ok _ _ _ NT) as (GN & PV).
  - unfold in_int in E. rewrite (proj2 (Z.leb_le 0 i) PV) in E. discriminate.
  - destruct (number_head _ _ _ NT) as (c & w' & Ew & D). cbn [app]. rewrite Ew in *. cbn [Z.eqb Pos.eqb]. change (isdigit 45) with false. cbv iota. rewrite (proj2 (isdigit_iff c) D). cbn [andb]. rewrite GN. cbn [rbind]. cbv beta iota.
    unfold in_int in E. rewrite (proj2 (Z.leb_gt 0 (- i))) in E by lia. cbn [orb] in E. unfold int_ok. destruct (_ <=? _)%Z; [discriminate|now right].
Qed.

Lemma dollar_val_bad : forall t r h l o, piece_out h lt ts PVal = None -> bad (dollar its (36%Z :: t ++ r) (upd_out h l o s0)).
Proof.
  intros t r h l o E. cbn [piece_out] in E. unfold dollar. cbn [Z.eqb Pos.eqb]. change (d_havetags (upd_out h l o s0)) with h. destruct h; [|discriminate].
  change (r_lhs (d_rules (upd_out true l o s0))) with (r_lhs (d_rules s0)). rewrite H_lhs, tag_of_upd, H_lt. cbn [rbind]. destruct lt; [discriminate|now left].
Qed.

Lemma at_ref_bad : forall i u t r h, index_text i u t -> t <> [] -> piece_out h lt ts (PLRef i) = None -> bad (at_sign its (u ++ r)).
Proof.
  intros i u t r h H NE E. cbn [piece_out] in E. rewrite <- len in E.
  destruct H as [i u t NT|i u t NT PI]; apply (number_app _ _ _ r) in NT; auto; destruct (get_number_ok _ _ _ NT) as (GN & PV); unfold in_int in E.
  - rewrite (proj2 (Z.leb_le 0 i) PV) in E. discriminate.
  - unfold at_sign. cbn [app Z.eqb Pos.eqb]. change (isdigit 45) with false. cbv iota. rewrite GN. cbn [rbind]. cbv beta iota.
    rewrite (proj2 (Z.leb_gt 0 (- i))) in E by lia. cbn [orb] in E. unfold int_ok. destruct (_ <=? _)%Z; [discriminate|now right].
Qed.

Lemma out_none : forall p ps h, pieces_out h lt ts (p :: ps) = None ->
  piece_out h lt ts p = None \/ exists o1, piece_out h lt ts p = Some o1 /\ pieces_out (h || tagged p) lt ts ps = None.
Proof.
  intros p ps h H. cbn [pieces_out] in H. destruct (piece_out h lt ts p) as [o1|]; [|now left]. right. exists o1. destruct (pieces_out (h || tagged p) lt ts ps) as [(o2 & h2)|]; [discriminate|auto].
Qed.

Ltac len_tac := repeat match goal with H : index_text _ _ _ |- _ => apply index_len in H | H : tag_text _ _ _ |- _ => apply tag_len in H end; cbn [List.length app] in *; rewrite ?app_length in *; cbn [List.length] in *; rewrite ?app_length in *; cbn [List.length] in *; lia.

Lemma loop_bad : forall d ps t, acts d ps t -> forall f h l o r, 1 <= d -> List.length t <= f -> tagsok l -> pieces_out h lt ts ps = None ->
  bad (action_loop f its (Z.of_nat d) (t ++ r) (upd_out h l o s0)).
Proof.
  intros d ps t H.
  induction H as [|d ps t H IH|d ps t H IH|d q u ps t Q C H IH|d b ps t I H IH|d b ps t I H IH|d ps t N H IH|d c w ps t N1 N2 W N H IH|d c ps t N1 N2 H IH|d ps t H IH|d i u ps t X H IH|d g u ps t X H IH|d g i u u' ps t X Y H IH|d ps t N H IH|d ps t H IH|d i u ps t X H IH|d ps t N H IH];
    intros f h l o r D1 LF FT E; (destruct f as [|f]; [cbn in LF; lia|]); destruct (out_none _ _ _ E) as [E1|(o1 & E1 & E2)]; try (cbn [piece_out] in E1; discriminate); try (cbn [tagged] in E2; rewrite ?orb_false_r, ?orb_true_r in E2).
  - cbn [app]. rewrite loop_S. cbn [Z.eqb Pos.eqb rbind]. change (IS_NAME1 125) with false. cbv iota zeta. rewrite (proj2 (Z.ltb_lt 0 (Z.of_nat (S (S d)) - 1))) by lia. replace (Z.of_nat (S (S d)) - 1)%Z with (Z.of_nat (S d)) by lia.
    rewrite add_upd. apply IH; try assumption; len_tac.
  - cbn [app]. rewrite loop_S. cbn [Z.eqb Pos.eqb rbind]. change (IS_NAME1 123) with false. cbv iota zeta. replace (Z.of_nat d + 1)%Z with (Z.of_nat (S d)) by lia.
    rewrite add_upd. apply IH; try assumption; len_tac.
  - cbn [app]. rewrite loop_S. rewrite (proj2 (Z.eqb_neq q 36)), (proj2 (Z.eqb_neq q 64)) by lia. cbn [rbind]. replace (IS_NAME1 q) with false by (destruct Q as [-> | ->]; reflexivity). cbv iota zeta.
    rewrite (proj2 (Z.eqb_neq q 59)), (proj2 (Z.eqb_neq q 123)), (proj2 (Z.eqb_neq q 125)) by lia. replace ((q =? 39) || (q =? 34))%Z with true by (destruct Q as [-> | ->]; reflexivity).
    rewrite <- app_assoc. rewrite (copy_string_ok q u Q C) by (rewrite !app_length; lia). cbn [rbind fst snd]. rewrite !add_upd. apply IH; try assumption; len_tac.
  - change (([47; 42]%Z ++ b ++ [42; 47]%Z ++ t) ++ r) with (47%Z :: 42%Z :: (b ++ [42; 47]%Z ++ t) ++ r). rewrite loop_S. cbn [Z.eqb Pos.eqb rbind orb]. change (IS_NAME1 47) with false. cbv iota zeta.
    rewrite <- !app_assoc. rewrite (copy_comment_star b (t ++ r) I). cbn [rbind fst snd]. rewrite !add_upd. apply IH; try assumption; len_tac.
  - change (([47; 47]%Z ++ b ++ 10%Z :: t) ++ r) with (47%Z :: 47%Z :: (b ++ 10%Z :: t) ++ r). rewrite loop_S. cbn [Z.eqb Pos.eqb rbind orb]. change (IS_NAME1 47) with false. cbv iota zeta.
    rewrite <- !app_assoc. cbn [app]. rewrite (copy_comment_line b (t ++ r) I). cbn [rbind fst snd]. rewrite !add_upd. apply (IH f h l _ r); try assumption; len_tac.
  - cbn [app]. rewrite loop_S. cbn [Z.eqb Pos.eqb rbind orb]. change (IS_NAME1 47) with false. cbv iota zeta.
    pose proof (acts_nonempty _ _ _ H) as NE. rewrite copy_comment_none; [|destruct t; [easy|discriminate]|now apply not_head_app]. cbn [rbind fst snd]. rewrite !add_upd. apply IH; try assumption; len_tac.
  - cbn [app]. rewrite loop_S. rewrite (proj2 (Z.eqb_neq _ _) N2). pose proof (name1_range c N1) as RC. rewrite (proj2 (Z.eqb_neq c 64)) by lia. cbn [rbind]. rewrite (proj2 (IS_NAME1_iff c) N1).
    rewrite <- app_assoc. rewrite (span_ok IS_NAME2 is_name2 IS_NAME2_iff w (t ++ r) W) by (apply not_head_app; [now apply acts_nonempty in H|exact N]). rewrite add_upd. apply IH; try assumption; len_tac.
  - cbn [app]. rewrite loop_S. cbn [In] in N2. assert (N36 : c <> 36%Z) by (intros ->; apply N1; unfold is_name1; auto).
    rewrite (proj2 (Z.eqb_neq _ _) N36). rewrite (proj2 (Z.eqb_neq c 64)) by lia. cbn [rbind]. rewrite (not_true _ _ (IS_NAME1_iff c) N1). cbv zeta.
    rewrite (proj2 (Z.eqb_neq c 123)), (proj2 (Z.eqb_neq c 125)), (proj2 (Z.eqb_neq c 39)), (proj2 (Z.eqb_neq c 34)), (proj2 (Z.eqb_neq c 47)) by lia. cbn [orb].
    rewrite (proj2 (Z.ltb_lt 0 (Z.of_nat d))) by lia. replace (if (c =? 59)%Z then _ else _) with (action_loop f its (Z.of_nat d) (t ++ r) (add_out [c] (upd_out h l o s0))) by now destruct (c =? 59)%Z.
    rewrite add_upd. apply IH; try assumption; len_tac.
  - cbn [app]. rewrite loop_S. cbn [Z.eqb Pos.eqb]. apply bad_bind, dollar_val_bad, E1.
  - cbn [app]. rewrite loop_S. cbn [Z.eqb Pos.eqb]. rewrite (dollar_val s0 its ts l0 lrest lt H_lhs H_lt t r h l o o1 E1). cbn [rbind]. cbv beta iota. rewrite add_upd. apply IH; try assumption; len_tac.
  - cbn [app]. rewrite loop_S. cbn [Z.eqb Pos.eqb]. apply bad_bind, (dollar_ref_bad i u t r h l o X); auto. now apply acts_nonempty in H.
  - cbn [app]. rewrite loop_S. cbn [Z.eqb Pos.eqb]. rewrite (dollar_ref s0 its ts lt H_its i u t r h l o o1 X) by (auto; now apply acts_nonempty in H). cbn [rbind]. cbv beta iota. rewrite add_upd. apply IH; try assumption; len_tac.
  - cbn [app]. rewrite loop_S. cbn [Z.eqb Pos.eqb]. destruct (dollar_tval s0 its g u t r h l o X FT) as (l1 & -> & FT1). cbn [rbind]. cbv beta iota. rewrite add_upd. apply IH; try assumption; len_tac.
  - cbn [app]. rewrite loop_S. cbn [Z.eqb Pos.eqb]. apply bad_bind, (dollar_tref_bad g i u u' t r h l o X Y); auto. now apply acts_nonempty in H.
  - cbn [app]. rewrite loop_S. cbn [Z.eqb Pos.eqb]. destruct (dollar_tref s0 its ts lt H_its g i u u' t r h l o o1 X Y) as (l1 & -> & FT1); auto; [now apply acts_nonempty in H|]. cbn [rbind]. cbv beta iota. rewrite add_upd. apply IH; try assumption; len_tac.
  - cbn [app]. rewrite loop_S. cbn [Z.eqb Pos.eqb]. pose proof (acts_nonempty _ _ _ H) as NE. rewrite dollar_none by assumption. cbn [rbind]. change (IS_NAME1 36) with true. cbv iota.
    change (t ++ r) with ([] ++ t ++ r) at 1. rewrite (span_ok IS_NAME2 is_name2 IS_NAME2_iff [] (t ++ r)); [|constructor|]. 2: { apply not_head_app; auto. destruct t; [easy|]. cbn in *. tauto. }
    rewrite add_upd. apply IH; try assumption; len_tac.
  - cbn [app]. rewrite loop_S. cbn [Z.eqb Pos.eqb]. rewrite at_loc. cbn [rbind]. cbv beta iota. rewrite add_upd. apply IH; try assumption; len_tac.
  - cbn [app]. rewrite loop_S. cbn [Z.eqb Pos.eqb]. apply bad_bind, bad_bind, (at_ref_bad i u t r h X); auto. now apply acts_nonempty in H.
  - cbn [app]. rewrite loop_S. cbn [Z.eqb Pos.eqb]. rewrite (at_ref s0 its ts lt H_its i u t r h o1 X) by (auto; now apply acts_nonempty in H). cbn [rbind]. cbv beta iota. rewrite add_upd. apply IH; try assumption; len_tac.
  - cbn [app]. rewrite loop_S. cbn [Z.eqb Pos.eqb]. pose proof (acts_nonempty _ _ _ H) as NE. rewrite at_none by assumption. cbn [rbind orb]. change (IS_NAME1 64) with false. cbv iota zeta.
    rewrite add_upd. apply IH; try assumption; len_tac.
Qed.
End Act.

(** * Declarations *)

Notation fit l := (Forall (fun n => ~ reserved n) l).

Lemma fit_dec : forall l, fit l \/ ~ fit l.
Proof.
  induction l as [|n l IH]; [left; constructor|]. destruct (reserved_dec n) as [R|R]; [right; intros F; now apply Forall_inv in F|].
  destruct IH as [IH|IH]; [left; now constructor|right; intros F; now apply Forall_inv_tail in F].
Qed.

Definition tokens_fit (go : option txt) (l : list (fsym * option Z)) : Prop :=
  fit (map (fun e => sym_name (fst e)) l) /\ forall n, go = Some n -> ~ In n (map (fun e => sym_name (fst e)) l).

(** The first symbol of a list of tokens. *)
Lemma token_first : forall L s go x t r, st_ok L s -> goal_is L go s -> symbol x t r ->
  get_sym t s = RErr \/ (exists i s1, get_sym t s = ROk (i, r, s1) /\ match d_goal s1 with Some g => g =? i | None => false end = true) \/ (~ reserved (sym_name x) /\ forall n, go = Some n -> n <> sym_name x).
Proof.
  intros L s go x t r ST GO SY. destruct (reserved_dec (sym_name x)) as [R|R]; [left; now apply (get_sym_bad s x t r)|right].
  destruct (get_sym_ok L s x t r ST SY R) as (s1 & E1 & ST1 & K1 & I1). destruct go as [m|]; [|right; split; [exact R|discriminate]].
  destruct (teq m (sym_name x)) as [->|N]; [left|right; split; [exact R|intros n E; injection E as <-; exact N]].
  exists (pos (sym_name x) (names (L ++ sym_facts x))), s1. split; [exact E1|]. pose proof (goal_is_app L (sym_facts x) _ s s1 GO (keeps_goal _ _ K1)) as (_ & ->). apply Nat.eqb_refl.
Qed.

Lemma tokens_bad : forall l t r, token_list l t r -> forall f L s k tag go c u, t = c :: u -> visible t -> List.length t < f -> st_ok L s -> goal_is L go s ->
  ~ tokens_fit go l -> bad (tokens_loop f k tag (pc c) t s).
Proof.
  intros l t r H. induction H as [r V N|x l t g u r SY G V N H IH|x v l t g u g' u' r SY G NT G' V H IH]; intros f L s k tag go c w Et VT LF ST GO NF.
  - exfalso. apply NF. split; [constructor|intros n _ []].
  - destruct f as [|f]; [lia|]. destruct (sym_head _ _ _ SY) as (c' & w' & Et' & SC). rewrite Et' in Et. injection Et as <- <-.
    cbn [tokens_loop]. destruct (start_vis c' w' SC) as (_ & ->). rewrite (proj2 (start_iff c') SC). cbn [negb]. subst t.
    change (if name_first c' then get_name (c' :: w') s else get_literal (c' :: w') s) with (get_sym (c' :: w') s).
    destruct (token_first L s go x _ _ ST GO SY) as [E|[(i & s1 & E & X)|(NR & NG)]]; [rewrite E; now left|rewrite E; cbn [rbind]; cbv beta iota; rewrite X; now left|].
    destruct (token_step L s k tag x _ (g ++ u) go ST SY NR GO NG) as (s' & (i & s1 & E1 & E2 & E3 & E4) & ST' & K' & I').
    rewrite E1. cbn [rbind]. cbv beta iota. rewrite E2. cbv zeta in E3 |- *. rewrite E3.
    destruct u as [|d u]; [destruct V|]. rewrite next_some_vis by assumption. cbn [rbind]. cbv beta iota. cbn in N. rewrite pc_digit by exact N.
    apply (IH f (L ++ item_facts (d_prec s) (kw_assoc k) tag (x, None)) s' k tag go d u eq_refl V); auto.
    + apply sym_shorter in SY. pose proof (gap_le g (d :: u)). lia.
    + now apply (goal_is_app L _ go s s'), keeps_goal.
    + intros (F1 & F2). apply NF. split; [constructor; assumption|]. intros n En [X|X]; [now apply (NG n En)|now apply (F2 n En)].
  - destruct f as [|f]; [lia|]. destruct (sym_head _ _ _ SY) as (c' & w' & Et' & SC). rewrite Et' in Et. injection Et as <- <-.
    cbn [tokens_loop]. destruct (start_vis c' w' SC) as (_ & ->). rewrite (proj2 (start_iff c') SC). cbn [negb]. subst t.
    change (if name_first c' then get_name (c' :: w') s else get_literal (c' :: w') s) with (get_sym (c' :: w') s).
    destruct (token_first L s go x _ _ ST GO SY) as [E|[(i & s1 & E & X)|(NR & NG)]]; [rewrite E; now left|rewrite E; cbn [rbind]; cbv beta iota; rewrite X; now left|].
    destruct (token_step L s k tag x _ (g ++ u) go ST SY NR GO NG) as (s' & (i & s1 & E1 & E2 & E3 & E4) & ST' & K' & I').
    rewrite E1. cbn [rbind]. cbv beta iota. rewrite E2. cbv zeta in E3 |- *. rewrite E3.
    destruct (number_head _ _ _ NT) as (d & u2 & Eu & D). destruct (digit_vis d u2 D) as (VD & PD). pose proof (number_shorter _ _ _ NT) as NS. pose proof (sym_shorter _ _ _ SY) as SS. rewrite Eu in SS, NS |- *.
    rewrite next_some_vis by assumption. rewrite PD. cbn [rbind]. cbv beta iota. rewrite (proj2 (isdigit_iff d) D). destruct (get_number_ok _ _ _ NT) as (EN & PV). rewrite Eu in EN. rewrite EN. cbn [rbind]. cbv beta iota.
    set (L1 := L ++ item_facts (d_prec s) (kw_assoc k) tag (x, None)) in *.
    destruct (update_ok L1 s' (sym_name x) (with_value v) (Val v) ST' I' (entry_val L1 (sym_name x) v) PV) as (ST2 & K2). rewrite <- E4 in ST2, K2.
    destruct u' as [|e u']; [destruct V|]. rewrite next_some_vis by assumption. cbn [rbind]. cbv beta iota. pose proof (gap_le g (d :: u2)). pose proof (gap_le g' (e :: u')).
    apply (IH f (L1 ++ [(sym_name x, Val v)]) (update i (with_value v) s') k tag go e u' eq_refl V); auto.
    + lia.
    + unfold L1. rewrite <- app_assoc. apply (goal_is_app L _ go s _ GO). rewrite (keeps_goal _ _ K2). now apply keeps_goal.
    + intros (F1 & F2). apply NF. split; [constructor; assumption|]. intros n En [X|X]; [now apply (NG n En)|now apply (F2 n En)].
Qed.

Lemma types_bad : forall l t r, type_list l t r -> forall f L s tag g0, gap g0 -> visible t -> List.length t < f -> st_ok L s -> ~ fit (map sym_name l) ->
  bad (types_loop f tag (g0 ++ t) s).
Proof.
  intros l t r H. induction H as [r V N|x l t g u r SY G V N H IH]; intros f L s tag g0 G0 VT LF ST NF; [exfalso; apply NF; constructor|].
  destruct f as [|f]; [lia|]. destruct (sym_head _ _ _ SY) as (c' & w' & Et & SC). pose proof (sym_shorter _ _ _ SY) as SS. pose proof (gap_le g u) as LG.
  destruct (reserved_dec (sym_name x)) as [R|R].
  - pose proof (get_sym_bad s x t _ SY R) as E. subst t. cbn [types_loop]. rewrite next_some_vis by assumption. cbn [rbind]. cbv beta iota. destruct (start_vis c' w' SC) as (_ & ->). rewrite (proj2 (start_iff c') SC). cbn [negb]. cbn [get_sym] in E.
    destruct (name_first c'); rewrite E; now left.
  - assert (NF' : ~ fit (map sym_name l)) by (intros F; apply NF; now constructor).
    destruct (get_sym_ok L s x t (g ++ u) ST SY R) as (s1 & E1 & ST1 & K1 & I1). set (n := sym_name x) in *. set (L1 := L ++ sym_facts x) in *.
    destruct (tag_step L1 s1 n tag ST1 I1) as (s2 & E2 & ST2 & K2 & N2).
    subst t. cbn [types_loop]. rewrite next_some_vis by assumption. cbn [rbind]. cbv beta iota. destruct (start_vis c' w' SC) as (_ & ->). rewrite (proj2 (start_iff c') SC). cbn [negb]. cbn [get_sym] in E1.
    destruct (name_first c') eqn:NF1.
    + rewrite E1. cbn [rbind]. cbv beta iota. destruct u as [|d u]; [destruct V|]. rewrite next_vis by assumption. cbn [rbind]. cbv beta iota.
      assert (X : forall A (a b : A), match pc d with 40%Z => a | _ => b end = b).
      { intros A a b. cbn in N. unfold pc. destruct (Z.eqb_spec d 92); [reflexivity|]. destruct d as [|p|p]; try reflexivity. do 6 (destruct p as [p|p|]; try reflexivity). now destruct N. }
      rewrite X. cbn [rbind]. cbv beta iota. rewrite E2. apply (IH f (L1 ++ tag_facts tag n) s2 tag [] G_nil V); [lia|exact ST2|exact NF'].
    + rewrite E1. cbn [rbind]. cbv beta iota. rewrite E2. apply (IH f (L1 ++ tag_facts tag n) s2 tag g G V); [lia|exact ST2|exact NF'].
Qed.

Lemma decl_bad : forall d t r, decl_text d t r -> forall f L p go h un s g0, gap g0 -> dst L p go h un s -> ~ decl_ok L go un d -> bad (read_declarations (S f) (g0 ++ t) s).
Proof.
  intros d t r H f L p go h un s g0 G0 D NOK.
  assert (ST : forall q t0, percent q -> read_declarations (S f) (g0 ++ q :: t0) s =
      ('(k, t) <- keyword t0 ;;
        match k with
        | KMARK => ROk (t, s)
        | KIDENT => t <- copy_ident t ;; read_declarations f t s
        | KTEXT => t <- copy_text t ;; read_declarations f t s
        | KUNION => '(t, s) <- copy_union t s ;; read_declarations f t s
        | KTOKEN | KLEFT | KRIGHT | KNONASSOC | KPRECEDENCE => '(t, s) <- declare_tokens k t s ;; read_declarations f t s
        | KEXPECT | KEXPECT_RR => '(t, s) <- declare_expect k t s ;; read_declarations f t s
        | KTYPE => '(t, s) <- declare_types t s ;; read_declarations f t s
        | KSTART => '(t, s) <- declare_start t s ;; read_declarations f t s
        | KFLAG => read_declarations f t s
        | KCODE | KOUT => ROut
        end)).
  { intros q t0 Q. destruct (percent_vis q t0 Q) as (V & PC). rewrite read_S, next_some_vis by assumption. cbn [rbind]. cbv beta iota. rewrite PC. reflexivity. }
  destruct H as [a tag l q t g u u' r Q TK G VU OT VU' TL|tag l q t g u u' r Q KT G VU OT VU' TL|n q t g u g' r Q KT G SY G' V|q t g r Q KT G V|q u g r Q PT G V|q t pre u g r Q KT PRE B G V|q t c b n u g r Q KT NC FB NT G V]; rewrite (ST q _ Q); clear ST.
  - destruct (token_key_ok _ _ _ TK) as (k & -> & IT & LT). cbn [rbind]. cbv beta iota.
    assert (B : bad (declare_tokens k (g ++ u) s)); [|destruct a as [[]|], k; try discriminate; now apply bad_bind].
    assert (KA : kw_assoc k = a) by (destruct a as [[]|], k; try discriminate; reflexivity).
    set (p' := level p (DTokens a tag l)). set (s0 := match kw_assoc k with Some _ => set_prec (S (d_prec s)) s | None => s end).
    assert (D0 : dst L p' go h un s0).
    { unfold s0, p'. rewrite KA. destruct D as [[A1 A2 A3 A4] D2 D3 D4 D5 D6]. destruct a; cbn [level]; (constructor; [constructor|..]); cbn; auto. }
    unfold declare_tokens. cbv zeta. fold s0. destruct OT as [u NL|tg t' g1 r' TG G1].
    + destruct u as [|c u]; [destruct VU|]. rewrite next_some_vis by assumption. cbn [rbind]. cbv beta iota. rewrite (not_lt c u NL).
      exact (tokens_bad l (c :: u) r TL (S (List.length (c :: u))) L s0 k None go c u eq_refl VU' (Nat.lt_succ_diag_r _) (dd_st _ _ _ _ _ _ D0) (dd_goal _ _ _ _ _ _ D0) NOK).
    + destruct (tag_head _ _ _ TG) as (t'' & ->). rewrite next_some_vis by assumption. cbn [rbind]. cbv beta iota. change (pc 60 =? 60)%Z with true. cbv iota.
      destruct (get_tag_ok tg _ _ s0 TG (so_tags _ _ (dd_st _ _ _ _ _ _ D0))) as (tl' & E1 & FT). rewrite E1. cbn [rbind]. cbv beta iota.
      destruct r' as [|c r']; [destruct VU'|]. rewrite next_some_vis by assumption. cbn [rbind]. cbv beta iota. pose proof (dst_tags _ _ _ _ _ _ tl' D0 FT) as D1.
      exact (tokens_bad l (c :: r') r TL (S (List.length (c :: r'))) L _ k (Some tg) go c r' eq_refl VU' (Nat.lt_succ_diag_r _) (dd_st _ _ _ _ _ _ D1) (dd_goal _ _ _ _ _ _ D1) NOK).
  - destruct (keyword_word _ (fun k => match k with KTYPE => true | _ => false end) _ _ KT eq_refl) as (k & -> & IT). cbn [rbind]. cbv beta iota. destruct k; try discriminate.
    assert (NF : ~ fit (map sym_name l)) by (intros F; apply NOK; split; [exact F|exact Logic.I]). apply bad_bind. unfold declare_types. destruct OT as [u NL|tg t' g1 r' TG G1].
    + destruct u as [|c u]; [destruct VU|]. rewrite next_some_vis by assumption. cbn [rbind]. cbv beta iota. rewrite (not_lt c u NL).
      exact (types_bad l (c :: u) r TL (S (List.length (c :: u))) L s None [] G_nil VU' (Nat.lt_succ_diag_r _) (dd_st _ _ _ _ _ _ D) NF).
    + destruct (tag_head _ _ _ TG) as (t'' & ->). rewrite next_some_vis by assumption. cbn [rbind]. cbv beta iota. change (pc 60 =? 60)%Z with true. cbv iota.
      destruct (get_tag_ok tg _ _ s TG (so_tags _ _ (dd_st _ _ _ _ _ _ D))) as (tl' & E1 & FT). rewrite E1. cbn [rbind]. cbv beta iota. pose proof (dst_tags _ _ _ _ _ _ tl' D FT) as D1.
      apply (types_bad l r' r TL (S (List.length (g1 ++ r'))) L (set_tags true tl' s) (Some tg) g1 G1 VU'); [pose proof (gap_le g1 r'); lia|exact (dd_st _ _ _ _ _ _ D1)|exact NF].
  - destruct (keyword_word _ (fun k => match k with KSTART => true | _ => false end) _ _ KT eq_refl) as (k & -> & IT). cbn [rbind]. cbv beta iota. destruct k; try discriminate.
    apply bad_bind. destruct (name_of_symbol _ _ _ SY) as (c & u' & -> & NF & V' & PC). unfold declare_start. rewrite next_some_vis by assumption. cbn [rbind]. cbv beta iota. rewrite PC, NF.
    destruct (reserved_dec n) as [R|R].
    + pose proof (get_sym_bad s _ _ _ SY R) as E. cbn [get_sym] in E. rewrite NF in E. rewrite E. now left.
    + destruct (get_sym_ok L s _ _ _ (dd_st _ _ _ _ _ _ D) SY R) as (s1 & E1 & ST1 & K1 & I1). cbn [get_sym] in E1. rewrite NF in E1. change (sym_facts (SName n)) with [(n, See)] in *. cbn [sym_name] in E1, I1. rewrite E1. cbn [rbind]. cbv beta iota.
      rewrite (info_ok _ _ n ST1 I1). cbn [rbind]. cbv beta iota.
      assert (T : tokenb L n = true). { destruct (tokenb L n) eqn:T; [reflexivity|]. exfalso. apply NOK. split; [constructor; [exact R|constructor]|]. intros X. apply tokenb_iff in X. congruence. }
      assert (T' : tokenb (L ++ [(n, See)]) n = true). { apply tokenb_iff. apply tokenb_iff in T. destruct T as [T|T]; [now left|right; apply in_or_app; now left]. }
      unfold entry, class_of. cbn [b_class]. rewrite T'. now left.
  - exfalso. apply NOK. split; [constructor|exact Logic.I].
  - exfalso. apply NOK. split; [constructor|exact Logic.I].
  - destruct (keyword_word _ (fun k => match k with KUNION => true | _ => false end) _ _ KT eq_refl) as (k & -> & IT). cbn [rbind]. cbv beta iota. destruct k; try discriminate.
    unfold copy_union. rewrite (dd_union _ _ _ _ _ _ D). destruct un; [now left|]. exfalso. apply NOK. split; [constructor|reflexivity].
  - exfalso. apply NOK. split; [constructor|exact Logic.I].
Qed.

Lemma decl_ok_dec : forall L go un d, decl_ok L go un d \/ ~ decl_ok L go un d.
Proof.
  intros L go un d. unfold decl_ok. destruct (fit_dec (decl_names d)) as [F|F]; [|right; tauto].
  assert (X : (match d with DTokens _ _ l => forall n, go = Some n -> ~ In n (map (fun e => sym_name (fst e)) l) | DStart n => ~ is_token L n | DUnion => un = false | _ => True end) \/
             ~ (match d with DTokens _ _ l => forall n, go = Some n -> ~ In n (map (fun e => sym_name (fst e)) l) | DStart n => ~ is_token L n | DUnion => un = false | _ => True end)); [|tauto].
  destruct d as [a tag l|tag l|n| |]; auto.
  - destruct go as [m|]; [|left; discriminate]. destruct (in_dec teq m (map (fun e => sym_name (fst e)) l)) as [I|I]; [right; intros H; now apply (H m)|left; intros n E; injection E as <-; exact I].
  - destruct (tokenb L n) eqn:T; [right; intros H; apply H; now apply tokenb_iff|left; intros X; apply tokenb_iff in X; congruence].
  - destruct un; [right; discriminate|now left].
Qed.

Lemma decls_bad : forall ds t r, decls_text ds t r -> forall f L p go h u s g0, gap g0 -> dst L p go h u s -> ~ decls_ok L p go u ds ->
  List.length (g0 ++ t) < f -> bad (read_declarations f (g0 ++ t) s).
Proof.
  intros ds t r H. induction H as [r|d l t u r DT H IH]; intros f L p go h un s g0 G0 D NOK LF; [exfalso; now apply NOK|].
  destruct f as [|f]; [lia|]. destruct (decl_ok_dec L go un d) as [OK|NO]; [|now apply (decl_bad d t u DT f L p go h un s g0)].
  destruct (decl_step d t u DT f L p go h un s g0 G0 D OK) as (g & s1 & G & E & D1 & LE & V). rewrite E. apply (IH f _ _ _ _ _ s1 g G D1); [|rewrite app_length in LF; lia].
  intros X. apply NOK. cbn [decls_ok]. auto.
Qed.

(** * Rules *)

Section Rules.
Variable LF : log.
Variable tg : txt -> option txt.
Variable goal : txt.
Notation pre := (pre LF).
Notation num := (num LF).
Notation rin := (rin LF tg goal).

Lemma sym_bad : forall x t r f g0 s, symbol x t r -> reserved (sym_name x) -> gap g0 -> bad (rules_loop (S f) (g0 ++ t) s).
Proof.
  intros x t r f g0 s SY R G0. pose proof (get_sym_bad s _ _ _ SY R) as E. destruct (sym_head _ _ _ SY) as (c & u & -> & SC). destruct (start_vis c u SC) as (V & PC).
  rewrite rules_S, next_vis by assumption. cbn [rbind]. cbv beta iota. rewrite PC, (proj2 (start_iff c) SC). unfold add_symbol. rewrite (add_get c u s SC), E. now left.
Qed.

Lemma prec_bad : forall x q t0 g t r f g0 s, percent q -> prec_open t0 (g ++ t) -> gap g -> symbol x t r -> reserved (sym_name x) -> gap g0 -> bad (rules_loop (S f) (g0 ++ q :: t0) s).
Proof.
  intros x q t0 g t r f g0 s Q PO G SY R G0. pose proof (get_sym_bad s _ _ _ SY R) as E.
  destruct (sym_head _ _ _ SY) as (c & u & -> & SC). destruct (start_vis c u SC) as (V & PC). destruct (percent_vis q t0 Q) as (VQ & PQ).
  assert (MS : mark_symbol t0 s = ('(i, t, s) <- get_sym (c :: u) s ;; match r_prec (d_rules s) with _ :: ps => let r := d_rules s in ROk (false, t, set_rules (mkR (r_items r) (r_lhs r) (Some i :: ps) (r_act r) (r_gensym r) (r_cases r)) s) | [] => RBad end)).
  { assert (NX : next (g ++ c :: u) = ROk (Some c, c :: u)) by (rewrite next_vis by assumption; now rewrite PC). remember (g ++ c :: u) as gu eqn:Egu. destruct PO as [w t PW NH|t].
    - assert (NE : t <> []) by (rewrite Egu; destruct g; discriminate). destruct (prec_word_ok w t PW NH NE) as (W1 & W2 & W3 & a & w' & EW & HA). remember (w ++ t) as wt eqn:Ewt. assert (Hwt : wt = a :: w' ++ t) by (rewrite Ewt, EW; reflexivity).
      unfold mark_symbol. rewrite Hwt at 1. rewrite (proj2 (Z.eqb_neq a 37)), (proj2 (Z.eqb_neq a 92)), (proj2 (Z.eqb_neq a 61)) by lia. cbn [orb]. rewrite W2, W1, W3, NX. cbn [rbind]. cbv beta iota. rewrite (mark_get c u s SC). reflexivity.
    - unfold mark_symbol. cbn [Z.eqb Pos.eqb orb]. change (word_is (zs "empty") (61%Z :: t)) with false. cbv iota. rewrite NX. cbn [rbind]. cbv beta iota. rewrite (mark_get c u s SC). reflexivity. }
  rewrite rules_S, next_vis by assumption. cbn [rbind]. cbv beta iota. rewrite PQ. change (name_first 37 || quote_first 37)%bool with false. cbn [Z.eqb Pos.eqb orb tl]. rewrite MS, E. now left.
Qed.

Lemma act_bad : forall ps t u r f g0 L lt ts pend h tx s, acts 1 ps u -> opening t (u ++ r) -> gap g0 -> pre L -> rin L lt ts pend h tx s ->
  pieces_out h lt (ts ++ if pend then [lt] else []) (PText [123%Z] :: ps) = None -> bad (rules_loop (S f) (g0 ++ t) s).
Proof.
  intros ps t u r f g0 L lt ts pend h tx s AC OP G0 P R E. set (ts' := ts ++ if pend then [lt] else []) in *.
  destruct (flush_ok _ _ _ _ _ _ _ _ _ _ P R) as (s1 & E1 & E2 & R1). fold ts' in R1. pose proof R1 as R1'. destruct R1' as [[S1 S2 S3 S4] T2 T3 T4 (its & I & l & rest & p & ps' & A & B & C & D & EL) T6 T7 (T8 & T9)].
  set (num' := List.length (r_lhs (d_rules s1)) - 1 - 2). set (pre_out := zs "case " ++ zdec (Z.of_nat num') ++ zs ":" ++ [10%Z]).
  set (s2 := set_rules (set_act true (d_rules s1)) s1).
  assert (DT : Forall2 (fun b tg => tag_of b s2 = ROk tg) its (rev ts')) by (revert D; apply Forall2_imp'; intros a b X; apply (bt_tag LF tg L s1 a b P (ri_st _ _ _ _ _ _ _ _ _ _ R1) T2 X)).
  assert (LT : tag_of l s2 = ROk lt) by (apply (bt_tag LF tg L s1 l lt P (ri_st _ _ _ _ _ _ _ _ _ _ R1) T2 EL)).
  assert (CC : copy_action t s = ('(t, s) <- action_loop (S (List.length (123%Z :: u ++ r))) its 0 (123%Z :: u ++ r) (add_out [9%Z] (add_out pre_out s2)) ;;
     let r := d_rules s in
     let s := set_rules (mkR (r_items r) (r_lhs r) (r_prec r) (r_act r) (r_gensym r) (r_cases r ++ [(num', List.length (r_cases r))])) s in
     ROk (t, add_out ([10%Z] ++ zs "break;" ++ [10%Z]) s))).
  { unfold copy_action. rewrite E1. cbn [rbind]. cbv zeta. fold s2. assert (X : rule_items (r_items (d_rules s2)) = ROk its) by (unfold s2; cbn; rewrite A; apply rule_items_ok). rewrite X. cbn [rbind].
    change (r_lhs (d_rules s2)) with (r_lhs (d_rules s1)). fold num'. fold pre_out.
    assert (Y : blanks_curl (match t with 61%Z :: r => r | _ => t end) = Some (123%Z :: u ++ r)) by (destruct OP as [v|b v F]; [reflexivity|now apply curl_ok]). rewrite Y. reflexivity. }
  assert (HD : exists c v, t = c :: v /\ (c = 123 \/ c = 61)%Z) by (destruct OP; eauto). destruct HD as (c & v & Et & HC).
  assert (V : visible (c :: v)) by (apply vis_in; cbn; lia). assert (EN : next (g0 ++ t) = ROk (Some (pc c), t)) by (rewrite Et; now apply next_vis). rewrite rules_S, EN. cbn [rbind]. cbv beta iota.
  replace (name_first (pc c) || quote_first (pc c))%bool with false by (destruct HC as [-> | ->]; reflexivity). replace ((pc c =? 123) || (pc c =? 61))%Z with true by (destruct HC as [-> | ->]; reflexivity).
  rewrite CC. clear CC. cbn [List.length]. rewrite loop_S. cbn [Z.eqb Pos.eqb rbind orb]. change (IS_NAME1 123) with false. cbv iota zeta.
  destruct (out_none ts' lt _ _ _ E) as [X|(o1 & X1 & X2)]; [discriminate|]. cbn [tagged] in X2. rewrite orb_false_r in X2.
  change (0 + 1)%Z with (Z.of_nat 1).
  assert (SO : add_out [123%Z] (add_out [9%Z] (add_out pre_out s2)) = upd_out h (d_tags s1) (pre_out ++ [9; 123]%Z) s2).
  { rewrite <- T3. unfold upd_out, add_out, set_tags, s2, set_rules. cbn [d_out d_havetags d_tags d_chain d_infos d_gtags d_goal d_prec d_union d_expect d_rules]. f_equal. rewrite <- !app_assoc. reflexivity. }
  rewrite SO. apply bad_bind, bad_bind. apply (loop_bad s2 its ts' l rest lt DT B LT 1 ps u AC); [lia|rewrite app_length; lia|exact S4|exact X2].
Qed.

Definition body_fit (lt : option txt) (ts : list (option txt)) (pend h : bool) (b : list fpart) : Prop := fit (body_names b) /\ body_out tg lt ts pend h b <> None.

Lemma bodies_bad : forall b t r, parts_text b t r -> forall f g0 L lt ts pend h tx s, gap g0 -> List.length (g0 ++ t) < f -> pre (L ++ flat_map part_facts b) -> rin L lt ts pend h tx s ->
  ~ body_fit lt ts pend h b -> bad (rules_loop f (g0 ++ t) s).
Proof.
  intros b t r H. induction H as [r|p b t u r PT H IH]; intros f g0 L lt ts pend h tx s G0 LF' P R NF; [exfalso; apply NF; split; [constructor|discriminate]|].
  cbn [flat_map] in P. rewrite app_assoc in P. pose proof (pre_app _ _ _ P) as P1. pose proof (part_shorter _ _ _ PT) as LE. destruct f as [|f]; [lia|]. rewrite app_length in LF'.
  assert (FITS : forall x, (p = FSym x \/ p = FPrec x) -> ~ reserved (sym_name x) -> fit (body_names b) -> fit (body_names (p :: b))).
  { intros x [-> | ->] NR F; unfold body_names; cbn [flat_map app]; constructor; assumption. }
  destruct PT as [x t g u SY G SU NU|ps v g u A G SU|ps bl v g u BL A G SU|x q w g t g' u Q W N G SY G' SU|x q g t g' u Q G SY G' SU].
  - destruct (reserved_dec (sym_name x)) as [RV|NR]; [now apply (sym_bad x t (g ++ u))|].
    destruct (sym_step LF tg goal x t g u f g0 L lt ts pend h tx s SY NR G SU NU G0 P1 R) as (s1 & E1 & _ & R1). rewrite E1. change u with ([] ++ u).
    apply (IH f [] _ _ _ _ _ _ s1 G_nil ltac:(cbn [app]; lia) P R1). intros (F1 & F2). apply NF. split; [apply (FITS x); auto|exact F2].
  - cbn [part_facts] in P1. rewrite app_nil_r in P1. destruct (pieces_out h lt (ts ++ (if pend then [lt] else [])) (PText [123%Z] :: ps)) as [(o & h1)|] eqn:PO.
    + destruct (act_step LF tg goal ps (123%Z :: v ++ g ++ u) v (g ++ u) f g0 L lt ts pend h tx s o h1 A (O_brace _) G0 P1 R PO) as (s1 & E1 & _ & R1). rewrite E1. cbn [part_facts] in P. rewrite app_nil_r in P.
      apply (IH f g _ _ _ _ _ _ s1 G ltac:(cbn [List.length] in *; rewrite !app_length in *; lia) P R1). intros (F1 & F2). apply NF. split; [exact F1|]. cbn [body_out]. rewrite PO. destruct (body_out _ _ _ _ _ b) as [(l' & h2)|]; [discriminate|now destruct F2].
    + now apply (act_bad ps (123%Z :: v ++ g ++ u) v (g ++ u) f g0 L lt ts pend h tx s A (O_brace _)).
  - cbn [part_facts] in P1. rewrite app_nil_r in P1. destruct (pieces_out h lt (ts ++ (if pend then [lt] else [])) (PText [123%Z] :: ps)) as [(o & h1)|] eqn:PO.
    + destruct (act_step LF tg goal ps (61%Z :: bl ++ 123%Z :: v ++ g ++ u) v (g ++ u) f g0 L lt ts pend h tx s o h1 A (O_eq _ _ BL) G0 P1 R PO) as (s1 & E1 & _ & R1). rewrite E1. cbn [part_facts] in P. rewrite app_nil_r in P.
      apply (IH f g _ _ _ _ _ _ s1 G ltac:(cbn [List.length] in *; rewrite !app_length in *; cbn [List.length] in *; rewrite !app_length in *; lia) P R1). intros (F1 & F2). apply NF. split; [exact F1|]. cbn [body_out]. rewrite PO. destruct (body_out _ _ _ _ _ b) as [(l' & h2)|]; [discriminate|now destruct F2].
    + now apply (act_bad ps (61%Z :: bl ++ 123%Z :: v ++ g ++ u) v (g ++ u) f g0 L lt ts pend h tx s A (O_eq _ _ BL)).
  - destruct (reserved_dec (sym_name x)) as [RV|NR]; [now apply (prec_bad x q (w ++ g ++ t) g t (g' ++ u) f g0 s Q (PO_word w (g ++ t) W N) G SY)|].
    destruct (prec_part_step LF tg goal x q (w ++ g ++ t) g t (g' ++ u) f g0 L lt ts pend h tx s Q (PO_word w (g ++ t) W N) G SY NR G0 P1 R) as (s1 & E1 & _ & R1). rewrite E1.
    apply (IH f g' _ _ _ _ _ _ s1 G' ltac:(apply sym_shorter in SY; cbn [List.length] in *; rewrite !app_length in *; lia) P R1). intros (F1 & F2). apply NF. split; [apply (FITS x); auto|exact F2].
  - destruct (reserved_dec (sym_name x)) as [RV|NR]; [now apply (prec_bad x q (61%Z :: g ++ t) g t (g' ++ u) f g0 s Q (PO_eq (g ++ t)) G SY)|].
    destruct (prec_part_step LF tg goal x q (61%Z :: g ++ t) g t (g' ++ u) f g0 L lt ts pend h tx s Q (PO_eq (g ++ t)) G SY NR G0 P1 R) as (s1 & E1 & _ & R1). rewrite E1.
    apply (IH f g' _ _ _ _ _ _ s1 G' ltac:(apply sym_shorter in SY; cbn [List.length] in *; rewrite !app_length in *; lia) P R1). intros (F1 & F2). apply NF. split; [apply (FITS x); auto|exact F2].
Qed.

Lemma out_app_eq : forall a b h o h1, rules_out_text tg h a = Some (o, h1) -> rules_out_text tg h (a ++ b) = match rules_out_text tg h1 b with Some (o2, h2) => Some (o ++ o2, h2) | None => None end.
Proof.
  induction a as [|(n & p) a IH]; intros b h o h1 H; cbn [app rules_out_text] in *; [injection H as <- <-; destruct (rules_out_text tg h b) as [(? & ?)|]; reflexivity|].
  destruct (body_out tg (tg n) [] false h p) as [(l & h2)|]; [|discriminate]. destruct (rules_out_text tg h2 a) as [(l' & h3)|] eqn:E; [|discriminate]. injection H as <- <-. rewrite (IH b h2 l' h3 E).
  destruct (rules_out_text tg h3 b) as [(? & ?)|]; [now rewrite app_assoc|reflexivity].
Qed.

Definition alts_fit (n : txt) (h : bool) (l : list (list fpart)) : Prop := fit (flat_map body_names l) /\ rules_out_text tg h (map (pair n) l) <> None.

(** A rule and the others of its group. *)
Lemma alts_cons : forall n h b l, body_fit (tg n) [] false h b -> (forall o h', body_out tg (tg n) [] false h b = Some (o, h') -> alts_fit n h' l) -> alts_fit n h (b :: l).
Proof.
  intros n h b l (B1 & B2) A. destruct (body_out tg (tg n) [] false h b) as [(o & h')|] eqn:E; [|now destruct B2]. destruct (A o h' eq_refl) as (A1 & A2).
  split; [cbn [flat_map]; apply Forall_app; auto|]. cbn [map rules_out_text]. rewrite E. destruct (rules_out_text tg h' (map (pair n) l)) as [(? & ?)|]; [discriminate|now destruct A2].
Qed.
Lemma body_fit_dec : forall lt ts pend h b, body_fit lt ts pend h b \/ ~ body_fit lt ts pend h b.
Proof. intros. unfold body_fit. destruct (fit_dec (body_names b)); [|right; tauto]. destruct (body_out tg lt ts pend h b); [left; split; [assumption|discriminate]|right; intros (_ & X); now apply X]. Qed.

Lemma alts_bad : forall l t r, alts_text l t r -> forall n f g0 L ts pend h tx s, gap g0 -> List.length (g0 ++ t) < f -> pre (L ++ flat_map (flat_map part_facts) l) -> rin L (tg n) ts pend h tx s ->
  ~ alts_fit n h l -> bad (rules_loop f (g0 ++ t) s).
Proof.
  intros l t r H. induction H as [r|b l g t u r G ST PT H IH]; intros n f g0 L ts pend h tx s G0 LF' P R NF; [exfalso; apply NF; split; [constructor|discriminate]|].
  cbn [flat_map] in P. rewrite app_assoc in P. pose proof (pre_app _ _ _ P) as P1.
  destruct f as [|f]; [lia|]. assert (V : visible (124%Z :: g ++ t)) by (apply vis_in; cbn; lia). rewrite rules_S, next_vis by assumption. cbn [rbind]. cbv beta iota. change (pc 124) with 124%Z. change (name_first 124 || quote_first 124)%bool with false. cbn [Z.eqb Pos.eqb orb tl].
  cbv zeta. destruct (rin_bar _ _ _ _ _ _ _ _ _ _ R) as (l0 & rest & EL & R0). change (r_lhs (end_rule (d_rules s))) with (r_lhs (d_rules s)). rewrite EL. rewrite app_length in LF'. cbn [List.length] in LF'.
  destruct (body_fit_dec (tg n) [] false h b) as [BF|BF]; [|now apply (bodies_bad b t u PT f g L (tg n) [] false h tx _ G ltac:(lia) P1 R0)].
  pose proof BF as (B1 & B2). destruct (body_out tg (tg n) [] false h b) as [(o & h2)|] eqn:BO; [|now destruct B2].
  destruct (bodies_ok LF tg goal b t u PT f g L (tg n) [] false h tx _ o h2 G ltac:(lia) P1 R0 B1 BO) as (f1 & g1 & s1 & ts1 & pend1 & G1 & LG1 & E1 & _ & R1 & _). rewrite E1.
  apply (IH n f1 g1 _ ts1 pend1 h2 (tx ++ o) s1 G1 LG1 P R1). intros A. apply NF. apply alts_cons; [exact BF|]. intros o' h' X. rewrite BO in X. injection X as <- <-. exact A.
Qed.

Lemma rest_bad : forall n b l u v r f g0 L h tx s, parts_text b u v -> alts_text l v r -> gap g0 -> List.length (g0 ++ u) < f ->
  pre (L ++ flat_map part_facts b ++ flat_map (flat_map part_facts) l) -> rin L (tg n) [] false h tx s -> ~ alts_fit n h (b :: l) -> bad (rules_loop f (g0 ++ u) s).
Proof.
  intros n b l u v r f g0 L h tx s PT AT G0 LF' P R NF. rewrite app_assoc in P. pose proof (pre_app _ _ _ P) as P1.
  destruct (body_fit_dec (tg n) [] false h b) as [BF|BF]; [|now apply (bodies_bad b u v PT f g0 L (tg n) [] false h tx s)].
  pose proof BF as (B1 & B2). destruct (body_out tg (tg n) [] false h b) as [(o & h2)|] eqn:BO; [|now destruct B2].
  destruct (bodies_ok LF tg goal b u v PT f g0 L (tg n) [] false h tx s o h2 G0 LF' P1 R B1 BO) as (f1 & g1 & s1 & ts1 & pend1 & G1 & LG1 & E1 & _ & R1 & _). rewrite E1.
  apply (alts_bad l v r AT n f1 g1 _ ts1 pend1 h2 (tx ++ o) s1 G1 LG1 P R1). intros A. apply NF. apply alts_cons; [exact BF|]. intros o' h' X. rewrite BO in X. injection X as <- <-. exact A.
Qed.

Definition group_fit (L : log) (h : bool) (f : fgroup) : Prop := ~ reserved (f_lhs f) /\ ~ is_token L (f_lhs f) /\ alts_fit (f_lhs f) h (f_body f :: f_alts f).

Lemma begin_bad : forall L n s, st_ok L s -> In n (names L) -> is_token L n -> begin_rule (pos n (names L)) s = RErr.
Proof.
  intros L n s ST I T. unfold begin_rule. rewrite (info_ok L s n ST I). cbn [rbind]. unfold entry, class_of. cbn [b_class]. now rewrite (proj2 (tokenb_iff L n) T).
Qed.
Lemma token_dec : forall L n, is_token L n \/ ~ is_token L n.
Proof. intros L n. destruct (tokenb L n) eqn:T; [left; now apply tokenb_iff|right; intros X; apply tokenb_iff in X; congruence]. Qed.
Lemma token_see : forall L n m, is_token L n -> is_token (L ++ [(m, See)]) n.
Proof. intros L n m [H|H]; [now left|right; apply in_or_app; now left]. Qed.

Lemma group_bad : forall fg t r f g0 L lt ts pend h tx s, group_text fg t r -> gap g0 -> List.length (g0 ++ t) < f -> pre (L ++ group_facts fg) -> rin L lt ts pend h tx s ->
  ~ group_fit L h fg -> bad (rules_loop f (g0 ++ t) s).
Proof.
  intros fg t r f g0 L lt ts pend h tx s GT G0 LF' P R NF. destruct GT as [n b l t g g' u v r SY G G' SU PT AT]. unfold group_fit in NF. cbn [f_lhs f_body f_alts] in *. destruct f as [|f]; [lia|].
  destruct (reserved_dec n) as [RV|NR]; [now apply (sym_bad (SName n) t (g ++ 58%Z :: g' ++ u) f g0 s SY)|].
  assert (EL : L ++ group_facts (mkF n b l) = ((L ++ [(n, See)]) ++ [(n, Lhs)]) ++ flat_map part_facts b ++ flat_map (flat_map part_facts) l) by (unfold group_facts; cbn [f_lhs f_body f_alts]; now rewrite <- !app_assoc).
  rewrite EL in *. pose proof (pre_app _ _ _ P) as P2. pose proof (pre_app _ _ _ P2) as P1.
  destruct (get_sym_ok L s _ _ _ (ri_st _ _ _ _ _ _ _ _ _ _ R) SY NR) as (s1 & E1 & ST1 & K1 & I1). change (sym_facts (SName n)) with [(n, See)] in *. cbn [sym_name] in *. pose proof (sym_shorter _ _ _ SY) as SS.
  destruct (sym_head _ _ _ SY) as (c & w & -> & SC). destruct (start_vis c w SC) as (V & PC). rewrite rules_S, next_vis by assumption. cbn [rbind]. cbv beta iota. rewrite PC, (proj2 (start_iff c) SC).
  rewrite (add_colon _ _ _ _ _ _ _ _ E1 SC G). set (s2 := set_rules (end_rule (d_rules s1)) s1).
  assert (ST2 : st_ok (L ++ [(n, See)]) s2) by (destruct ST1 as [S1 S2 S3 S4]; constructor; auto).
  destruct (token_dec L n) as [T|NT0]; [rewrite (begin_bad _ n s2 ST2 I1 (token_see _ _ _ T)); now left|]. rewrite (num_pos _ _ _ P1 I1).
  assert (NT : ~ is_token (L ++ [(n, See)]) n) by (intros X; now apply is_token_see in X).
  assert (NTG : no_tags [(n, See)]) by (intros m q [X|[]]; discriminate). pose proof (rin_keeps LF tg goal L [(n, See)] lt ts pend h tx s s1 R ST1 K1 NTG) as R1.
  destruct (begin_ok LF (L ++ [(n, See)]) n s2 P2 ST2 I1 NT) as (s3 & E3 & _ & _). rewrite E3. cbn [rbind]. cbv beta iota.
  destruct R1 as [T1 T2 T3 T4 T5 T6 T7 (T8 & T9)].
  destruct (begin_rin LF tg goal (L ++ [(n, See)]) n s2 s3 h tx (Some goal) P2 ST2 I1 NT T2 T3 T4 eq_refl T6 T8 T9 eq_refl (ex_intro _ _ eq_refl) E3) as (R3 & KR3).
  apply (rest_bad n b l u v r f g' ((L ++ [(n, See)]) ++ [(n, Lhs)]) h tx s3 PT AT G'); auto.
  { rewrite !app_length in *. cbn [List.length] in *. rewrite !app_length in *. lia. }
Qed.

Lemma group_fit_dec : forall L h f, group_fit L h f \/ ~ group_fit L h f.
Proof.
  intros L h f. unfold group_fit. destruct (reserved_dec (f_lhs f)); [right; tauto|]. destruct (token_dec L (f_lhs f)); [right; tauto|]. unfold alts_fit.
  destruct (fit_dec (flat_map body_names (f_body f :: f_alts f))); [|right; tauto]. destruct (rules_out_text tg h (map (pair (f_lhs f)) (f_body f :: f_alts f))); [left; split; [assumption|split; [assumption|split; [assumption|discriminate]]]|right; intros (_ & _ & _ & X); now apply X].
Qed.
Lemma group_fit_names : forall L h f, group_fit L h f -> fit (group_names f).
Proof. intros L h f (F1 & _ & F2 & _). constructor; [exact F1|exact F2]. Qed.

Fixpoint groups_fit (L : log) (h : bool) (gs : list fgroup) : Prop :=
  match gs with
  | [] => True
  | f :: r => group_fit L h f /\ forall o h', rules_out_text tg h (map (pair (f_lhs f)) (f_body f :: f_alts f)) = Some (o, h') -> groups_fit (L ++ group_facts f) h' r
  end.

Lemma groups_bad : forall gs t, groups_text gs t -> forall f g0 L lt ts pend h tx s, gap g0 -> List.length (g0 ++ t) < f -> pre (L ++ flat_map group_facts gs) -> rin L lt ts pend h tx s ->
  ~ groups_fit L h gs -> bad (rules_loop f (g0 ++ t) s).
Proof.
  intros gs t H. induction H as [|p q r Pp Pq|fg l t r GT H IH]; intros f g0 L lt ts pend h tx s G0 LF' P R NF; [exfalso; now apply NF|exfalso; now apply NF|].
  cbn [flat_map] in P. rewrite app_assoc in P. pose proof (pre_app _ _ _ P) as P1. destruct (group_fit_dec L h fg) as [GF|GF]; [|now apply (group_bad fg t r f g0 L lt ts pend h tx s)].
  pose proof GF as (F1 & F2 & F3 & F4). destruct (rules_out_text tg h (map (pair (f_lhs fg)) (f_body fg :: f_alts fg))) as [(o & h1)|] eqn:RO; [|now destruct F4].
  destruct (group_step LF tg goal fg t r f g0 L lt ts pend h tx s o h1 GT G0 LF' P1 R (group_fit_names _ _ _ GF) F2 RO) as (f1 & g1 & s1 & ts1 & pend1 & G1 & LG1 & E1 & _ & R1 & _). rewrite E1.
  apply (IH f1 g1 _ _ ts1 pend1 h1 (tx ++ o) s1 G1 LG1 P R1). intros X. apply NF. cbn [groups_fit]. split; [exact GF|]. intros o' h' Y. rewrite RO in Y. injection Y as <- <-. exact X.
Qed.

Lemma first_bad : forall fg t r g0 L go h s, group_text fg t r -> gap g0 -> pre (L ++ group_facts fg) -> ready tg L go h s ->
  match go with Some n => n | None => f_lhs fg end = goal -> ~ (hd 0%Z (f_lhs fg) <> 36%Z /\ group_fit L h fg) -> bad (read_rules (g0 ++ t) s).
Proof.
  intros fg t r g0 L go h s GT G0 P (ST & TG & HT & GO & RU & OU & GTG) EG NF. destruct GT as [n b l t g g' u v r SY G G' SU PT AT]. unfold group_fit in NF. cbn [f_lhs f_body f_alts] in *.
  destruct (name_of_symbol _ _ _ SY) as (c & w & Et & NF1 & V & PC).
  assert (HN : hd 0%Z n = c). { clear NF P EG PT AT. rewrite Et in SY. inversion SY as [m r' (W & _) N X1 X2 X3|]. destruct n as [|c0 n']; [easy|]. cbn [app] in X2. injection X2 as X2 _. cbn. exact X2. } rewrite HN in NF. subst t.
  assert (SC : sym_start c) by (apply start_iff; now rewrite NF1).
  assert (BR : before_rules (S (List.length (g0 ++ c :: w))) (g0 ++ c :: w) s = ROk (c :: w, s)).
  { cbn [before_rules]. rewrite next_vis by assumption. cbn [rbind]. cbv beta iota. rewrite PC. apply start_range in SC. cbn [In] in SC. assert (X : c <> 37%Z) by lia. destruct c as [|q|q]; try reflexivity. do 6 (destruct q as [q|q|]; try reflexivity). now destruct X. }
  unfold read_rules. assert (AD : advance_to_start (g0 ++ c :: w) s = (if negb (isalpha c || (c =? 95) || (c =? 46))%Z then RErr else
        '(i, t, s) <- get_name (c :: w) s ;;
        b <- info i s ;;
        s <- (match d_goal s with
              | Some _ => ROk s
              | None => match b_class b with TERM => RErr | _ => ROk (set_goal (Some i) s) end
              end) ;;
        '(c, t) <- next_some t ;;
        if (c =? 40)%Z then ROut
        else if (c =? 58)%Z then s <- begin_rule i s ;; ROk (tl t, s)
        else RErr)).
  { unfold advance_to_start. rewrite BR. cbn [rbind]. cbv beta iota. rewrite (next_here c w V), PC. reflexivity. }
  rewrite AD. clear AD. destruct (Z.eq_dec c 36) as [->|N36]; [now left|].
  assert (X : (isalpha c || (c =? 95) || (c =? 46))%Z = true). { apply name_first_iff in NF1. rewrite !orb_true_iff, !Z.eqb_eq. tauto. } rewrite X. cbn [negb]. clear X.
  destruct (reserved_dec n) as [RV|NR]. { pose proof (get_sym_bad s _ _ _ SY RV) as E. cbn [get_sym] in E. rewrite NF1 in E. rewrite E. now left. }
  assert (EL : L ++ group_facts (mkF n b l) = ((L ++ [(n, See)]) ++ [(n, Lhs)]) ++ flat_map part_facts b ++ flat_map (flat_map part_facts) l) by (unfold group_facts; cbn [f_lhs f_body f_alts]; now rewrite <- !app_assoc).
  rewrite EL in *. pose proof (pre_app _ _ _ P) as P2. pose proof (pre_app _ _ _ P2) as P1.
  destruct (get_sym_ok L s _ _ _ ST SY NR) as (s1 & E1 & ST1 & K1 & I1). change (sym_facts (SName n)) with [(n, See)] in *. cbn [sym_name] in *. cbn [get_sym] in E1. rewrite NF1 in E1. rewrite E1. cbn [rbind]. cbv beta iota.
  rewrite (info_ok _ _ n ST1 I1). cbn [rbind].
  destruct (token_dec L n) as [T|NT0].
  - apply (token_see _ _ n) in T. assert (CT : b_class (entry (L ++ [(n, See)]) n) = TERM) by (unfold entry, class_of; cbn [b_class]; now rewrite (proj2 (tokenb_iff _ n) T)).
    rewrite CT. destruct (d_goal s1) as [g1|] eqn:DG; [|now left]. cbn [rbind]. rewrite next_some_vis; [|exact G|apply vis_in; cbn; lia]. cbn [rbind]. cbv beta iota. change (pc 58) with 58%Z. cbn [Z.eqb Pos.eqb]. rewrite (begin_bad _ n s1 ST1 I1 T). now left.
  - assert (NT : ~ is_token (L ++ [(n, See)]) n) by (intros X; now apply is_token_see in X). pose proof (class_term _ _ NT) as CT. set (i := pos n (names (L ++ [(n, See)]))) in *. assert (Ei : i = num n) by now apply num_pos.
    set (s2 := match d_goal s1 with Some _ => s1 | None => set_goal (Some i) s1 end).
    assert (GS : match d_goal s1 with Some _ => ROk s1 | None => match b_class (entry (L ++ [(n, See)]) n) with TERM => RErr | _ => ROk (set_goal (Some i) s1) end end = ROk s2).
    { unfold s2. destruct (d_goal s1); [reflexivity|]. destruct (b_class (entry (L ++ [(n, See)]) n)); [reflexivity|now destruct CT|reflexivity]. }
    rewrite GS. cbn [rbind]. rewrite next_some_vis; [|exact G|apply vis_in; cbn; lia]. cbn [rbind]. cbv beta iota. change (pc 58) with 58%Z. cbn [Z.eqb Pos.eqb tl].
    assert (ST2 : st_ok (L ++ [(n, See)]) s2) by (unfold s2; destruct (d_goal s1); [exact ST1|]; destruct ST1 as [S1 S2 S3 S4]; constructor; auto).
    assert (G2 : goal_is (L ++ [(n, See)]) (Some goal) s2).
    { pose proof (goal_is_app L [(n, See)] go s s1 GO (keeps_goal _ _ K1)) as G1. unfold s2. destruct go as [m|]; unfold goal_is in G1 |- *.
      - destruct G1 as (Im & Em). rewrite Em. subst goal. auto.
      - rewrite G1. subst goal. split; [exact I1|reflexivity]. }
    assert (F2 : d_rules s2 = init_rules /\ d_out s2 = [] /\ d_gtags s2 = [] /\ d_havetags s2 = h).
    { assert (F1 : d_rules s1 = init_rules /\ d_out s1 = [] /\ d_gtags s1 = [] /\ d_havetags s1 = h) by (rewrite K1; cbn; auto). unfold s2. destruct (d_goal s1); exact F1. }
    destruct F2 as (F21 & F22 & F23 & F24). destruct (begin_ok LF (L ++ [(n, See)]) n s2 P2 ST2 I1 NT) as (s3 & E3 & _ & _). rewrite Ei, E3. cbn [rbind]. cbv beta iota.
    assert (NTG : no_tags [(n, See)]) by (intros m q [X|[]]; discriminate).
    destruct (begin_rin LF tg goal (L ++ [(n, See)]) n s2 s3 h [] (Some goal) P2 ST2 I1 NT) as (R3 & KR3); auto; try (rewrite ?F21, ?F22, ?F23; reflexivity).
    { intros m. rewrite tags_same by exact NTG. apply TG. } { rewrite F21. eexists. reflexivity. }
    apply bad_bind. apply (rest_bad n b l u v r (S (List.length (g' ++ u))) g' ((L ++ [(n, See)]) ++ [(n, Lhs)]) h [] s3 PT AT G'); auto.
    intros A. apply NF. auto.
Qed.
End Rules.

(** * The whole file *)

Lemma word_not_literal : forall n l, word n -> n <> literal_name l.
Proof.
  intros n l (W & _) E. destruct (literal_quote l) as (q & m & Eq & Q). rewrite E, Eq in W. destruct Q as [-> | ->]; destruct W as [W|[W|[W|W]]]; discriminate.
Qed.
Lemma sym_term : forall n x, word n -> ~ In (n, Term) (sym_facts x).
Proof.
  intros n [m|l] W H; cbn [sym_facts sym_name] in H; [destruct H as [H|[]]; discriminate|].
  destruct H as [H|[H|H]]; [discriminate|injection H as H; symmetry in H; now apply word_not_literal in H|]. destruct l as [|c [|]]; cbn in H; [tauto| |tauto]. destruct H as [H|[]]. discriminate.
Qed.
Lemma decl_term : forall n p d, word n -> In (n, Term) (decl_facts p d) -> exists a tag l, d = DTokens a tag l /\ In n (map (fun e => sym_name (fst e)) l).
Proof.
  intros n p d W H. destruct d as [a tag l|tag l|m| |]; cbn [decl_facts] in H.
  - exists a, tag, l. split; [reflexivity|]. apply in_flat_map in H. destruct H as ((x & v) & I & H). apply in_map_iff. exists (x, v). split; [|exact I]. cbn [fst]. apply in_app_or in H as [H|[H|H]]; [now apply sym_term in H|now injection H|].
    apply in_app_or in H as [H|H]; [destruct tag; [destruct H as [H|[]]; discriminate|destruct H]|]. apply in_app_or in H as [H|H]; [destruct a; [destruct H as [H|[]]; discriminate|destruct H]|]. destruct v; [destruct H as [H|[]]; discriminate|destruct H].
  - apply in_flat_map in H. destruct H as (x & I & H). apply in_app_or in H as [H|H]; [now apply sym_term in H|destruct tag; [destruct H as [H|[]]; discriminate|destruct H]].
  - destruct H as [H|[]]. discriminate.
  - destruct H.
  - destruct H.
Qed.

Definition start_word (d : decl) : Prop := match d with DStart n => word n | _ => True end.
Lemma decls_words : forall ds t r, decls_text ds t r -> Forall start_word ds.
Proof.
  intros ds t r H. induction H as [r|d l t u r DT H IH]; [constructor|]. constructor; [|exact IH]. destruct DT; try exact Logic.I. cbn [start_word]. match goal with S : symbol (SName ?n) _ _ |- word ?n => inversion S; assumption end.
Qed.
Lemma groups_words : forall gs t, groups_text gs t -> Forall (fun g => word (f_lhs g)) gs.
Proof.
  intros gs t H. induction H as [|p q r Pp Pq|fg l t r GT H IH]; [constructor|constructor|]. constructor; [|exact IH]. destruct GT as [n b l' t g g' u v r SY G G' SU PT AT]. cbn [f_lhs]. inversion SY. assumption.
Qed.

Lemma until_more : forall b d, until_start b = b \/ until_start (b ++ [d]) = until_start b.
Proof. induction b as [|c b IH]; intros d; [now left|]. destruct (IH d) as [E|E]; destruct c; cbn [app until_start]; rewrite ?E; auto. Qed.
Lemma goal_after : forall b a n, until_start b = b -> fold_left next_goal (a ++ DStart n :: b) None = Some n.
Proof.
  intros b a n U. rewrite fold_left_app. cbn [fold_left next_goal]. generalize (fold_left next_goal a None). intros _. revert U. induction b as [|d b IH]; intros U; [reflexivity|]. cbn [until_start fold_left] in *. destruct d; try discriminate; cbn [next_goal]; apply IH; congruence.
Qed.

Lemma decls_fit_more : forall a d, Forall start_word (a ++ [d]) -> decls_fit a -> decl_ok (decls_facts 0 a) (fold_left next_goal a None) (existsb decl_union a) d -> decls_fit (a ++ [d]).
Proof.
  intros a d W [F1 F2 F3] (O1 & O2). constructor.
  - rewrite flat_map_app. apply Forall_app. split; [exact F1|]. cbn [flat_map]. now rewrite app_nil_r.
  - intros a1 n b1 E. assert (WN : word n). { rewrite E in W. apply Forall_app in W. exact (Forall_inv (proj2 W)). }
    induction b1 as [|d' b1 _] using rev_ind.
    + apply app_inj_tail in E. destruct E as (<- & ->). cbn [until_start]. rewrite app_nil_r. exact O2.
    + assert (E' : a ++ [d] = (a1 ++ DStart n :: b1) ++ [d']) by (rewrite <- app_assoc; exact E). apply app_inj_tail in E'. destruct E' as (Ea & <-). specialize (F2 a1 n b1 Ea).
      destruct (until_more b1 d) as [U|U]; [|now rewrite U]. rewrite U in F2. intros T.
      assert (D : match d with DStart _ => True | _ => False end \/ match d with DStart _ => False | _ => True end) by (destruct d; auto). destruct D as [D|D].
      { destruct d; try contradiction. assert (X : until_start (b1 ++ [DStart n0]) = b1). { clear -U. induction b1 as [|c b1 IH]; [reflexivity|]. cbn [until_start app] in *. destruct c; try discriminate; injection U as U; now rewrite IH. } rewrite X in T. contradiction. }
      rewrite (until_end b1 d [] U D) in T. cbn [until_start] in T. rewrite app_assoc, facts_app in T. destruct T as [T|T]; [apply F2; now left|]. apply in_app_or in T as [T|T]; [apply F2; now right|].
      cbn [decls_facts] in T. rewrite app_nil_r in T. apply (decl_term n _ d WN) in T. destruct T as (as' & tag & l & -> & I). apply (O2 n); [rewrite Ea; now apply goal_after|exact I].
  - rewrite filter_app, app_length. cbn [filter]. destruct (decl_union d) eqn:U; cbn [List.length]; [|lia]. destruct d; try discriminate. apply union_none in O2. lia.
Qed.

Lemma decls_fit_of : forall b a, Forall start_word (a ++ b) -> decls_fit a -> decls_ok (decls_facts 0 a) (fold_left level a 0) (fold_left next_goal a None) (existsb decl_union a) b -> decls_fit (a ++ b).
Proof.
  induction b as [|d b IH]; intros a W F O; [now rewrite app_nil_r|]. cbn [decls_ok] in O. destruct O as (O1 & O2).
  assert (EA : a ++ d :: b = (a ++ [d]) ++ b) by (now rewrite <- app_assoc). rewrite EA in *. apply IH; [exact W| |].
  - apply decls_fit_more; [apply Forall_app in W; exact (proj1 W)|exact F|exact O1].
  - rewrite facts_app, !fold_left_app, existsb_app. cbn [decls_facts fold_left existsb]. now rewrite app_nil_r, orb_false_r.
Qed.
Lemma no_decls_fit : decls_fit [].
Proof. constructor; [constructor|intros [|] n b E; discriminate|cbn; lia]. Qed.

(** What the groups ask, said of the whole list. *)
Lemma groups_fit_names : forall tg gs L h, groups_fit tg L h gs -> fit (flat_map group_names gs) /\ rules_out_text tg h (flat_map (fun f => map (pair (f_lhs f)) (f_body f :: f_alts f)) gs) <> None /\ forall g, In g gs -> ~ is_token L (f_lhs g).
Proof.
  induction gs as [|f gs IH]; intros L h F; [split; [constructor|split; [discriminate|intros g []]]|]. cbn [groups_fit] in F. destruct F as (F & G). pose proof F as (F1 & F2 & F3 & F4).
  destruct (rules_out_text tg h (map (pair (f_lhs f)) (f_body f :: f_alts f))) as [(o & h1)|] eqn:E; [|now destruct F4]. destruct (IH _ _ (G o h1 eq_refl)) as (A1 & A2 & A3). split; [|split].
  - cbn [flat_map]. apply Forall_app. split; [now apply (group_fit_names tg L h)|exact A1].
  - cbn [flat_map]. rewrite (out_app_eq tg _ _ _ _ _ E). destruct (rules_out_text tg h1 _) as [(? & ?)|]; [discriminate|now destruct A2].
  - intros g [<-|I]; [exact F2|]. intros T. apply (A3 g I). destruct T as [T|T]; [now left|right; apply in_or_app; now left].
Qed.
Lemma sym_fst : forall e x, In e (sym_facts x) -> fst e = sym_name x.
Proof. intros e [m|l] H; cbn [sym_facts] in H; [destruct H as [<-|[]]; reflexivity|]. destruct H as [<-|[<-|H]]; [reflexivity|reflexivity|]. destruct l as [|c [|]]; cbn in H; [tauto| |tauto]. destruct H as [<-|[]]. reflexivity. Qed.
Lemma body_facts_names : forall n b, In n (map fst (flat_map part_facts b)) -> In n (body_names b).
Proof.
  intros n b H. apply in_map_iff in H. destruct H as (e & <- & I). apply in_flat_map in I. destruct I as (p & Ip & I). unfold body_names. apply in_flat_map. exists p. split; [exact Ip|].
  destruct p as [x|ps|x]; cbn [part_facts] in I; [|destruct I|]; apply sym_fst in I; left; auto.
Qed.
Lemma group_facts_names : forall n gs, In n (map fst (flat_map group_facts gs)) -> In n (flat_map group_names gs).
Proof.
  intros n gs H. apply in_map_iff in H. destruct H as (e & <- & I). apply in_flat_map in I. destruct I as (f & If & I). apply in_flat_map. exists f. split; [exact If|]. unfold group_facts in I. destruct I as [<-|[<-|I]]; [now left|now left|]. right.
  apply in_app_or in I as [I|I]; apply in_or_app; [left; apply body_facts_names; now apply in_map|right]. apply in_flat_map in I. destruct I as (b & Ib & I). apply in_flat_map. exists b. split; [exact Ib|]. apply body_facts_names. now apply in_map.
Qed.
Lemma group_no_term : forall n gs, word n -> ~ In (n, Term) (flat_map group_facts gs).
Proof.
  intros n gs W H. apply in_flat_map in H. destruct H as (f & _ & I). unfold group_facts in I. cbn [In] in I. destruct I as [I|[I|I]]; try discriminate.
  assert (P : forall b : list fpart, ~ In (n, Term) (flat_map part_facts b)). { intros b X. apply in_flat_map in X. destruct X as (p & _ & X). destruct p; cbn [part_facts] in X; try (now apply sym_term in X). destruct X. }
  apply in_app_or in I as [I|I]; [now apply P in I|]. apply in_flat_map in I. destruct I as (b & _ & I). now apply P in I.
Qed.
Lemma sym_no_lhs : forall n x, ~ In (n, Lhs) (sym_facts x).
Proof. intros n [m|l] H; cbn [sym_facts] in H; [destruct H as [H|[]]; discriminate|]. destruct H as [H|[H|H]]; try discriminate. destruct l as [|c [|]]; cbn in H; [tauto| |tauto]. destruct H as [H|[]]. discriminate. Qed.
Lemma decls_no_lhs : forall n ds p, ~ In (n, Lhs) (decls_facts p ds).
Proof.
  intros n. induction ds as [|d ds IH]; intros p H; [destruct H|]. cbn [decls_facts] in H. apply in_app_or in H as [H|H]; [|now apply IH in H]. destruct d as [a tag l|tag l|m| |]; cbn [decl_facts] in H.
  - apply in_flat_map in H. destruct H as ((x & v) & I & H). apply in_app_or in H as [H|[H|H]]; [now apply sym_no_lhs in H|discriminate|].
    apply in_app_or in H as [H|H]; [destruct tag; [destruct H as [H|[]]; discriminate|destruct H]|]. apply in_app_or in H as [H|H]; [destruct a; [destruct H as [H|[]]; discriminate|destruct H]|]. destruct v; [destruct H as [H|[]]; discriminate|destruct H].
  - apply in_flat_map in H. destruct H as (x & I & H). apply in_app_or in H as [H|H]; [now apply sym_no_lhs in H|destruct tag; [destruct H as [H|[]]; discriminate|destruct H]].
  - destruct H as [H|[]]. discriminate.
  - destruct H.
  - destruct H.
Qed.
Lemma lhs_group : forall n gs, In (n, Lhs) (flat_map group_facts gs) -> exists g, In g gs /\ f_lhs g = n.
Proof.
  intros n gs H. apply in_flat_map in H. destruct H as (f & If & I). exists f. split; [exact If|]. unfold group_facts in I. destruct I as [I|[I|I]]; [discriminate|now injection I|]. exfalso.
  assert (P : forall b : list fpart, ~ In (n, Lhs) (flat_map part_facts b)). { intros b X. apply in_flat_map in X. destruct X as (p & _ & X). destruct p; cbn [part_facts] in X; try (now apply sym_no_lhs in X). destruct X. }
  apply in_app_or in I as [I|I]; [now apply P in I|]. apply in_flat_map in I. destruct I as (b & _ & I). now apply P in I.
Qed.

(** The record without the rules of the start symbol. *)
Lemma file_but_goal : forall ds gs tg, tg = tag_of_sym (file_facts (mkFile ds gs)) -> decls_fit ds -> Forall (fun g => word (f_lhs g)) gs -> groups_fit tg (decls_facts 0 ds) (uses_tags (mkFile ds gs)) gs ->
  match gs with f :: _ => hd 0%Z (f_lhs f) <> 36%Z | [] => False end ->
  is_lhs (file_facts (mkFile ds gs)) (goal_of (mkFile ds gs)) -> file_ok (mkFile ds gs).
Proof.
  intros ds gs tg -> [D1 D2 D3] W GF H36 GO. destruct (groups_fit_names _ _ _ _ GF) as (G1 & G2 & G3). constructor; cbn [f_decls f_groups]; auto.
  - intros n I. unfold file_facts in I. cbn [f_decls f_groups] in I. rewrite map_app in I. apply in_app_or in I as [I|I].
    + apply decls_names_in in I. exact (proj1 (Forall_forall _ _) D1 n I).
    + apply group_facts_names in I. exact (proj1 (Forall_forall _ _) G1 n I).
  - intros n L T. unfold is_lhs, file_facts in L. cbn [f_decls f_groups] in L. apply in_app_or in L as [L|L]; [now apply decls_no_lhs in L|]. destruct (lhs_group _ _ L) as (g & Ig & <-). apply (G3 g Ig).
    destruct T as [T|T]; [now left|right]. unfold file_facts in T. cbn [f_decls f_groups] in T. apply in_app_or in T as [T|T]; [exact T|]. exfalso. apply (group_no_term _ gs (proj1 (Forall_forall _ _) W g Ig) T).
  - unfold file_actions. cbn [f_decls f_groups]. change (file_rules (mkFile ds gs)) with (flat_map (fun f => map (pair (f_lhs f)) (f_body f :: f_alts f)) gs). destruct (rules_out_text _ _ _) as [(? & ?)|]; [discriminate|now destruct G2].
Qed.

Lemma decls_ok_dec : forall ds L p go u, decls_ok L p go u ds \/ ~ decls_ok L p go u ds.
Proof.
  induction ds as [|d ds IH]; intros L p go u; [left; exact Logic.I|]. cbn [decls_ok]. destruct (decl_ok_dec L go u d); [|right; tauto]. destruct (IH (L ++ decl_facts p d) (level p d) (next_goal go d) (u || decl_union d)%bool); [left; auto|right; tauto].
Qed.
Lemma groups_fit_dec : forall tg gs L h, groups_fit tg L h gs \/ ~ groups_fit tg L h gs.
Proof.
  intros tg. induction gs as [|f gs IH]; intros L h; [left; exact Logic.I|]. cbn [groups_fit]. destruct (group_fit_dec tg L h f) as [F|F]; [|right; tauto].
  destruct (rules_out_text tg h (map (pair (f_lhs f)) (f_body f :: f_alts f))) as [(o & h1)|] eqn:E.
  - destruct (IH (L ++ group_facts f) h1) as [G|G]; [left; split; [exact F|]; intros o' h' X; injection X as <- <-; exact G|right; intros (_ & X); apply G; now apply (X o)].
  - left. split; [exact F|discriminate].
Qed.
Lemma lhs_dec : forall L n, is_lhs L n \/ ~ is_lhs L n.
Proof. intros L n. destruct (lhsb L n) eqn:E; [left; now apply lhsb_iff|right; intros X; apply lhsb_iff in X; congruence]. Qed.

Lemma file_reject : forall F file, file_text F (input file) -> file_ok F \/ bad (read_file file).
Proof.
  intros F file FT. destruct (input file) as [|c0 t0] eqn:EI; [|]; inversion FT as [ds gs g t p q g' u G V DT Pp Pq G' VU GT EF ET]; subst F.
  { destruct g; [|discriminate]. destruct t; [destruct V|discriminate]. }
  unfold read_file. rewrite EI. cbv zeta. rewrite <- ET. set (LF := file_facts (mkFile ds gs)) in *.
  destruct (decls_ok_dec ds [] 0 None false) as [DOK|ND]; [|right; apply bad_bind; exact (decls_bad ds t (p :: q :: g' ++ u) DT (S (List.length (g ++ t))) [] 0 None false false init_state g G init_dst ND (Nat.lt_succ_diag_r _))].
  pose proof (decls_fit_of ds [] (decls_words _ _ _ DT) no_decls_fit DOK) as DF. cbn [app] in DF.
  assert (TGS : forall n, tag_of_sym (decls_facts 0 ds) n = tag_of_sym LF n) by (intros n; unfold LF, file_facts; cbn [f_decls f_groups]; symmetry; apply tags_same, group_no_tags).
  destruct (decls_read ds t (p :: q :: g' ++ u) DT (S (List.length (g ++ t))) [] 0 None false false init_state g p q (g' ++ u) eq_refl Pp Pq G init_dst DOK (Nat.lt_succ_diag_r _)) as (s0 & E0 & D0). cbn [app orb] in D0.
  rewrite E0. cbn [rbind]. cbv beta iota. set (tg := tag_of_sym LF) in *. set (go := fold_left next_goal ds None) in *.
  destruct gs as [|fg gs].
  { right. apply bad_bind. unfold read_rules, advance_to_start. apply bad_bind, bad_bind. inversion GT as [X1 X2|p' q' r Pp' Pq' X1 X2|]; subst u; [destruct VU|].
    cbn [before_rules]. destruct (percent_vis p' (q' :: r) Pp') as (V' & PC). rewrite next_vis by assumption. cbn [rbind]. cbv beta iota. rewrite PC. cbn [tl].
    assert (K : keyword (q' :: r) = ROk (KMARK, r)) by (destruct Pq' as [-> | ->]; reflexivity). rewrite K. now left. }
  inversion GT as [| |fg' gs' u' r GT1 GT2 EA EB]; subst fg' gs' u'.
  assert (RD : ready tg (decls_facts 0 ds) go (uses_tags (mkFile ds (fg :: gs))) s0).
  { destruct D0 as [A1 A2 A3 A4 A5 (A6 & A7 & A8)]. split; [exact A1|]. split; [exact TGS|]. split; [exact A4|]. split; [exact A2|]. auto. }
  assert (PR : pre LF (decls_facts 0 ds ++ flat_map group_facts (fg :: gs))) by (exists []; rewrite app_nil_r; reflexivity).
  cbn [flat_map] in PR. rewrite app_assoc in PR. pose proof (pre_app _ _ _ PR) as PR1.
  assert (EG : match go with Some n => n | None => f_lhs fg end = goal_of (mkFile ds (fg :: gs))).
  { unfold go. rewrite goal_fold. unfold goal_of. cbn [f_decls f_groups]. destruct (starts_of ds) as [|a l]; [reflexivity|]. clear. revert a. induction l as [|b l IH]; intros a; [reflexivity|]. apply (IH b). }
  set (h := uses_tags (mkFile ds (fg :: gs))) in *.
  assert (D : (hd 0%Z (f_lhs fg) <> 36%Z /\ group_fit tg (decls_facts 0 ds) h fg) \/ ~ (hd 0%Z (f_lhs fg) <> 36%Z /\ group_fit tg (decls_facts 0 ds) h fg)).
  { destruct (Z.eq_dec (hd 0%Z (f_lhs fg)) 36); [right; tauto|]. destruct (group_fit_dec tg (decls_facts 0 ds) h fg); tauto. }
  destruct D as [(H36 & GF)|NG]; [|right; apply bad_bind; exact (first_bad LF tg _ fg u r g' (decls_facts 0 ds) go h s0 GT1 G' PR1 RD EG NG)].
  pose proof GF as (F1 & F2 & F3 & F4). destruct (rules_out_text tg h (map (pair (f_lhs fg)) (f_body fg :: f_alts fg))) as [(o1 & h1)|] eqn:X1; [|now destruct F4].
  destruct (first_ok LF tg (goal_of (mkFile ds (fg :: gs))) fg u r g' (decls_facts 0 ds) go h s0 o1 h1 GT1 G' PR1 RD H36 EG (group_fit_names _ _ _ _ GF) F2 X1) as (t' & s1 & E1 & KR1 & f' & g2 & s2 & ts2 & pend2 & G2 & LG2 & E2 & E3 & R2 & LO).
  unfold read_rules. rewrite E1. cbn [rbind]. cbv beta iota. rewrite E2.
  destruct (groups_fit_dec tg gs (decls_facts 0 ds ++ group_facts fg) h1) as [GFS|NGS]; [|right; apply bad_bind, bad_bind; exact (groups_bad LF tg _ gs r GT2 f' g2 _ _ ts2 pend2 h1 o1 s2 G2 LG2 PR R2 NGS)].
  assert (GALL : groups_fit tg (decls_facts 0 ds) h (fg :: gs)) by (cbn [groups_fit]; split; [exact GF|]; intros o' h' X; rewrite X1 in X; injection X as <- <-; exact GFS).
  assert (BG : is_lhs LF (goal_of (mkFile ds (fg :: gs))) -> file_ok (mkFile ds (fg :: gs))) by (intros X; apply (file_but_goal ds (fg :: gs) tg eq_refl DF (groups_words _ _ GT) GALL H36 X)).
  destruct (lhs_dec LF (goal_of (mkFile ds (fg :: gs)))) as [X|NL]; [left; now apply BG|]. right.
  destruct (groups_fit_names _ _ _ _ GALL) as (Q1 & Q2 & Q3). 
  assert (O0 : forall n, In n (map fst LF) -> ~ reserved n).
  { intros n I. unfold LF, file_facts in I. cbn [f_decls f_groups] in I. rewrite map_app in I. apply in_app_or in I as [I|I].
    + apply decls_names_in in I. exact (proj1 (Forall_forall _ _) (df_names _ DF) n I).
    + apply group_facts_names in I. exact (proj1 (Forall_forall _ _) Q1 n I). }
  assert (O1 : forall n, is_lhs LF n -> ~ is_token LF n).
  { intros n L T. unfold is_lhs, LF, file_facts in L. cbn [f_decls f_groups] in L. apply in_app_or in L as [L|L]; [now apply decls_no_lhs in L|]. destruct (lhs_group _ _ L) as (g3 & Ig & <-). apply (Q3 g3 Ig).
    destruct T as [T|T]; [now left|right]. unfold LF, file_facts in T. cbn [f_decls f_groups] in T. apply in_app_or in T as [T|T]; [exact T|]. exfalso. apply (group_no_term _ (fg :: gs) (proj1 (Forall_forall _ _) (groups_words _ _ GT) g3 Ig) T). }
  destruct (groups_fit_names _ _ _ _ GFS) as (_ & Q4 & _). destruct (rules_out_text tg h1 (flat_map (fun f => map (pair (f_lhs f)) (f_body f :: f_alts f)) gs)) as [(o2 & h')|] eqn:X2; [|now destruct Q4].
  destruct (groups_ok LF tg _ O1 O0 gs r GT2 f' g2 _ _ ts2 pend2 h1 o1 s2 o2 h' G2 LG2 PR R2 X2) as (rest & s3 & lt3 & ts3 & pend3 & E4 & E5 & R3).
  assert (EL : (decls_facts 0 ds ++ group_facts fg) ++ flat_map group_facts gs = LF) by (rewrite <- app_assoc; reflexivity). rewrite EL in R3.
  rewrite E4. cbn [rbind]. cbv beta iota. set (s4 := set_rules (end_rule (d_rules s3)) s3). destruct R3 as [T1 T2 T3 (T41 & T42) T5 T6 T7 (T8 & T9)].
  assert (ST4 : st_ok LF s4) by (destruct T1 as [S1 S2 S3 S4]; constructor; auto).
  unfold check_symbols. change (d_goal s4) with (d_goal s3). rewrite T42. rewrite (info_ok LF s4 _ ST4 T41). cbn [rbind].
  assert (NT : ~ is_token LF (goal_of (mkFile ds (fg :: gs)))).
  { rewrite <- EG. destruct go as [n|] eqn:GO; [|exfalso; apply NL; rewrite <- EG; unfold is_lhs, LF, file_facts; apply in_or_app; right; right; now left].
    destruct (goal_last ds n GO) as (a1 & b1 & Ed & U). pose proof (df_start _ DF a1 n b1 Ed) as NS. rewrite U in NS. intros T. apply NS.
    assert (WN : word n) by (pose proof (decls_words _ _ _ DT) as W; rewrite Ed in W; apply Forall_app in W; exact (Forall_inv (proj2 W))).
    destruct T as [T|T]; [now left|right]. unfold LF, file_facts in T. cbn [f_decls f_groups] in T. apply in_app_or in T as [T|T]; [|now apply group_no_term in T].
    rewrite Ed in T. rewrite facts_app in T |- *. cbn [decls_facts decl_facts level] in T. cbn [app In] in T. rewrite !in_app_iff in *. cbn [In] in T. destruct T as [T|[T|T]]; [now left|discriminate|now right]. }
  assert (CL : b_class (entry LF (goal_of (mkFile ds (fg :: gs)))) = UNKNOWN).
  { unfold entry, class_of. cbn [b_class]. destruct (tokenb LF _) eqn:B1; [apply tokenb_iff in B1; contradiction|]. destruct (lhsb LF _) eqn:B2; [apply lhsb_iff in B2; contradiction|reflexivity]. }
  rewrite CL. now left.
Qed.

(** The reader accepts a file exactly if the file is right. *)
Lemma file_exact : forall F file, file_text F (input file) -> (exists s, read_file file = ROk s) <-> file_ok F.
Proof.
  intros F file FT. split.
  - intros (s & E). destruct (file_reject F file FT) as [H|[X|X]]; [exact H|congruence|congruence].
  - intros OK. destruct (file_read F file FT OK) as (s & _ & _ & _ & _ & E & _). eauto.
Qed.
