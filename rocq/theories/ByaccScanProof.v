(** Lemmas on the byacc reader: words, gaps, keywords, copied text. *)
From Coq Require Import String List Arith ZArith Bool Lia.
Import ListNotations.
From Verif Require Import Base LemonTableModel LemonPreModel LemonCodeModel ByaccParModel ByaccReaderModel ByaccRulesModel ByaccScanModel Prop_ByaccLiteral SpecByaccFile.
Open Scope rd_scope.

Lemma teqb_eq : forall a b, teqb a b = true <-> a = b.
Proof.
  induction a as [|x a IH]; intros [|y b]; cbn; try (split; congruence). rewrite andb_true_iff, Z.eqb_eq, IH. split; [intros [-> ->]; reflexivity|intros H; injection H; auto].
Qed.
Lemma teqb_refl : forall a, teqb a a = true.
Proof. intros. now apply teqb_eq. Qed.
Lemma teqb_neq : forall a b, a <> b -> teqb a b = false.
Proof. intros a b N. destruct (teqb a b) eqn:E; [apply teqb_eq in E; congruence|reflexivity]. Qed.

(** * Gaps *)

Lemma is_blank_iff : forall c, is_blank c = true <-> blank c /\ c <> 10%Z.
Proof.
  intros c. unfold is_blank, blank. cbn [In]. rewrite !orb_true_iff, !Z.eqb_eq. lia.
Qed.
Lemma not_blank : forall c, ~ blank c -> (c =? 10)%Z = false /\ is_blank c = false.
Proof.
  intros c N. unfold blank in N. cbn [In] in N. split; [apply Z.eqb_neq; lia|]. destruct (is_blank c) eqn:E; [|reflexivity]. apply is_blank_iff in E. unfold blank in E. cbn [In] in E. lia.
Qed.

Lemma inside_cons : forall c b, inside (c :: b) -> inside b.
Proof. intros c b H x y E. apply (H (c :: x) y). cbn [app] in *. now rewrite E. Qed.

Definition star_slash (c : Z) (r : txt) : bool := ((c =? 42) && match r with d :: _ => d =? 47 | [] => false end)%Z.

Lemma inside_star : forall c b t, inside (c :: b) -> star_slash c (b ++ [42; 47]%Z ++ t) = false.
Proof.
  intros c b t H. unfold star_slash. destruct (Z.eqb_spec c 42) as [->|]; [|reflexivity]. cbn [andb].
  destruct b as [|d b]; [reflexivity|]. cbn [app]. apply Z.eqb_neq. intros ->. specialize (H [] (b ++ [42; 47]%Z) eq_refl). now destruct b.
Qed.

Lemma skip_comment_ok : forall b t, inside b -> skip_comment (b ++ [42; 47]%Z ++ t) = ROk t.
Proof.
  induction b as [|c b IH]; intros t H; [reflexivity|]. cbn [app skip_comment]. fold (star_slash c (b ++ [42; 47]%Z ++ t)).
  change (b ++ 42%Z :: 47%Z :: t) with (b ++ [42; 47]%Z ++ t). fold (star_slash c (b ++ [42; 47]%Z ++ t)).
  rewrite (inside_star c b t H). apply IH. now apply inside_cons in H.
Qed.

Lemma skip_line_ok : forall b t, ~ In 10%Z b -> skip_line (b ++ 10%Z :: t) = t.
Proof.
  induction b as [|c b IH]; intros t H; [reflexivity|]. cbn [app skip_line]. destruct (Z.eqb_spec c 10) as [->|]; [exfalso; apply H; now left|]. apply IH. intros X. apply H. now right.
Qed.

Definition pc (c : Z) : Z := if (c =? 92)%Z then 37%Z else c.

Lemma gap_step : forall g, gap g -> forall t R, (forall f, List.length t < f -> nextc f t = R) -> forall f, List.length (g ++ t) < f -> nextc f (g ++ t) = R.
Proof.
  intros g G. induction G as [|c g B G IH|b g I G IH|b g I G IH]; intros t R K f L.
  - now apply K.
  - destruct f as [|f]; [lia|]. cbn [app nextc]. cbn [app List.length] in L. destruct (Z.eqb_spec c 10) as [->|N]; [apply IH; auto; lia|].
    rewrite (proj2 (is_blank_iff c) (conj B N)). apply IH; auto; lia.
  - destruct f as [|f]; [lia|]. change (nextc (S f) (([47; 42]%Z ++ b ++ [42; 47]%Z ++ g) ++ t)) with (r' <- skip_comment ((b ++ [42; 47]%Z ++ g) ++ t) ;; nextc f r').
    rewrite <- !app_assoc. rewrite skip_comment_ok by exact I. cbn [rbind]. apply IH; auto. rewrite <- !app_assoc in L. rewrite !app_length in L. rewrite app_length. cbn [List.length] in L. lia.
  - destruct f as [|f]; [lia|]. change (nextc (S f) (([47; 47]%Z ++ b ++ 10%Z :: g) ++ t)) with (nextc f (skip_line ((b ++ 10%Z :: g) ++ t))).
    rewrite <- !app_assoc. cbn [app]. rewrite skip_line_ok by exact I. apply IH; auto. rewrite <- !app_assoc in L. rewrite !app_length in L. rewrite app_length. cbn [List.length app] in L. rewrite ?app_length in L. cbn [List.length app] in L. rewrite ?app_length in L. lia.
Qed.

Lemma next_vis : forall g c r, gap g -> visible (c :: r) -> next (g ++ c :: r) = ROk (Some (pc c), c :: r).
Proof.
  intros g c r G (NB & N255 & SL). unfold next. apply gap_step; [exact G| |lia]. intros [|f] L; [cbn in L; lia|]. cbn [nextc].
  destruct (not_blank c NB) as (-> & ->).
  assert (X : forall k, ((c =? 47) && match r with d :: _ => d =? k | [] => false end)%Z = true -> (k = 42 \/ k = 47)%Z -> False).
  { intros k E K. apply andb_true_iff in E. destruct E as (E1 & E2). apply Z.eqb_eq in E1. specialize (SL E1). destruct r as [|d r]; [discriminate|]. apply Z.eqb_eq in E2. lia. }
  destruct ((c =? 47) && match r with d :: _ => d =? 42 | [] => false end)%Z eqn:E1; [exfalso; apply (X 42%Z); auto|].
  destruct ((c =? 47) && match r with d :: _ => d =? 47 | [] => false end)%Z eqn:E2; [exfalso; apply (X 47%Z); auto|].
  now rewrite (proj2 (Z.eqb_neq _ _) N255).
Qed.

Lemma next_end : forall g, gap g -> next g = ROk (None, []).
Proof.
  intros g G. unfold next. rewrite <- (app_nil_r g) at 2. apply gap_step; [exact G| |rewrite app_nil_r; lia]. intros [|f] L; [cbn in L; lia|reflexivity].
Qed.

Lemma next_here : forall c r, visible (c :: r) -> next (c :: r) = ROk (Some (pc c), c :: r).
Proof. intros c r V. apply (next_vis [] c r); [constructor|exact V]. Qed.

Lemma next_some_vis : forall g c r, gap g -> visible (c :: r) -> next_some (g ++ c :: r) = ROk (pc c, c :: r).
Proof. intros g c r G V. unfold next_some. rewrite next_vis by assumption. reflexivity. Qed.

(** next, backwards: it skips a gap. *)
Lemma skip_comment_inv : forall t r, skip_comment t = ROk r -> exists b, t = b ++ [42; 47]%Z ++ r /\ inside b.
Proof.
  induction t as [|c t IH]; intros r H; [discriminate|]. cbn [skip_comment] in H. fold (star_slash c t) in H. destruct (star_slash c t) eqn:E.
  - unfold star_slash in E. apply andb_true_iff in E. destruct E as (E1 & E2). apply Z.eqb_eq in E1. subst c. destruct t as [|d t]; [discriminate|]. apply Z.eqb_eq in E2. subst d.
    injection H as <-. exists []. split; [reflexivity|]. intros x y E. apply (f_equal (@List.length Z)) in E. rewrite !app_length in E. cbn in E. destruct y; [reflexivity|cbn in E; lia].
  - apply IH in H. destruct H as (b & -> & I). exists (c :: b). split; [reflexivity|]. intros x y X. destruct x as [|a x].
    + exfalso. cbn [app] in X. injection X as -> X. unfold star_slash in E. cbn [Z.eqb Pos.eqb andb] in E.
      destruct b as [|d b]; cbn [app] in *; injection X as X _; [discriminate|]. subst d. discriminate.
    + cbn [app] in X. injection X as <- X. now apply (I x y).
Qed.

Lemma skip_line_inv : forall t, exists b r, skip_line t = r /\ ~ In 10%Z b /\ (t = b ++ 10%Z :: r \/ t = b /\ r = []).
Proof.
  induction t as [|c t IH]; [exists [], []; cbn; auto|]. cbn [skip_line]. destruct (Z.eqb_spec c 10) as [->|N].
  - exists [], t. cbn. auto.
  - destruct IH as (b & r & E & NI & X). exists (c :: b), r. split; [exact E|]. split; [intros [->|Y]; auto|]. destruct X as [->|(-> & ->)]; [now left|now right].
Qed.

(** Lines end with a newline. *)
Definition lined (t : txt) : Prop := t = [] \/ exists u, t = u ++ [10%Z].
Lemma lined_tail : forall a t, lined (a ++ t) -> lined t.
Proof.
  intros a t [H|(u & H)].
  - apply app_eq_nil in H. left. tauto.
  - destruct t as [|c t] using rev_ind; [now left|]. right. exists t. rewrite app_assoc in H. apply app_inj_tail in H. destruct H as (_ & ->). reflexivity.
Qed.

Lemma nextc_inv : forall f t o t', lined t -> nextc f t = ROk (o, t') -> exists g, gap g /\ t = g ++ t' /\
  match o with
  | Some c => visible t' /\ option_map pc (hd_error t') = Some c
  | None => t' = [] \/ hd_error t' = Some 255%Z
  end.
Proof.
  induction f as [|f IH]; intros t o t' LN H; [discriminate|]. destruct t as [|c r]; cbn [nextc] in H.
  { injection H as <- <-. exists []. split; [constructor|]. split; [reflexivity|]. now left. }
  assert (TL : lined r) by (apply (lined_tail [c]); exact LN).
  destruct (Z.eqb_spec c 10) as [->|N10].
  { apply IH in H; [|exact TL]. destruct H as (g & G & -> & X). exists (10%Z :: g). split; [constructor; [cbv; tauto|exact G]|]. split; [reflexivity|exact X]. }
  destruct (is_blank c) eqn:B.
  { apply IH in H; [|exact TL]. destruct H as (g & G & -> & X). exists (c :: g). apply is_blank_iff in B. split; [constructor; tauto|]. split; [reflexivity|exact X]. }
  destruct ((c =? 47) && match r with d :: _ => d =? 42 | [] => false end)%Z eqn:E1.
  { apply andb_true_iff in E1. destruct E1 as (E1 & E2). apply Z.eqb_eq in E1. subst c. destruct r as [|d r]; [discriminate|]. apply Z.eqb_eq in E2. subst d. cbn [tl] in H.
    destruct (skip_comment r) as [r'| | | |] eqn:SC; try discriminate. cbn [rbind] in H. apply skip_comment_inv in SC. destruct SC as (b & -> & I).
    apply IH in H; [|apply (lined_tail ([47; 42]%Z ++ b ++ [42; 47]%Z)); now rewrite <- !app_assoc]. destruct H as (g & G & -> & X).
    exists ([47; 42]%Z ++ b ++ [42; 47]%Z ++ g). split; [now constructor|]. split; [now rewrite <- !app_assoc|exact X]. }
  destruct ((c =? 47) && match r with d :: _ => d =? 47 | [] => false end)%Z eqn:E3.
  { apply andb_true_iff in E3. destruct E3 as (E3 & E2). apply Z.eqb_eq in E3. subst c. destruct r as [|d r]; [discriminate|]. apply Z.eqb_eq in E2. subst d. cbn [tl] in H.
    destruct (skip_line_inv r) as (b & r' & E & NI & [->|(-> & ->)]).
    - rewrite E in H. apply IH in H; [|apply (lined_tail ([47; 47]%Z ++ b ++ [10%Z])); now rewrite <- !app_assoc]. destruct H as (g & G & -> & X).
      exists ([47; 47]%Z ++ b ++ 10%Z :: g). split; [now constructor|]. split; [cbn [app]; now rewrite <- app_assoc|exact X].
    - exfalso. destruct LN as [LN|(u & LN)]; [discriminate|]. assert (X : In 10%Z (47%Z :: 47%Z :: b)) by (rewrite LN; apply in_or_app; right; now left).
      destruct X as [X|[X|X]]; [discriminate|discriminate|auto]. }
  injection H as <- <-. exists []. split; [constructor|]. split; [reflexivity|].
  destruct (Z.eqb_spec c 255) as [->|N255]; [now right|]. split; [|reflexivity]. split; [|split; [exact N255|]].
  - intros X. destruct (Z.eq_dec c 10); [congruence|]. assert (Y : is_blank c = true) by (apply is_blank_iff; auto). congruence.
  - intros ->. destruct r as [|d r]; [exact Logic.I|]. cbn [Z.eqb Pos.eqb andb] in *. apply Z.eqb_neq in E1. apply Z.eqb_neq in E3. auto.
Qed.

(** * Words *)

Lemma isdigit_iff : forall c, isdigit c = true <-> digit c.
Proof. intros c. unfold isdigit, digit. rewrite andb_true_iff, !Z.leb_le. reflexivity. Qed.
Lemma IS_IDENT_iff : forall c, IS_IDENT c = true <-> is_ident c.
Proof. intros c. unfold IS_IDENT, is_ident. rewrite !orb_true_iff, !Z.eqb_eq. tauto. Qed.
Lemma IS_NAME1_iff : forall c, IS_NAME1 c = true <-> is_name1 c.
Proof. intros c. unfold IS_NAME1, is_name1. rewrite !orb_true_iff, !Z.eqb_eq. tauto. Qed.
Lemma IS_NAME2_iff : forall c, IS_NAME2 c = true <-> is_name2 c.
Proof. intros c. unfold IS_NAME2, is_name2. rewrite !orb_true_iff, !Z.eqb_eq. tauto. Qed.
Lemma isalnum_or : forall c, isalnum c = (isalpha c || isdigit c)%bool.
Proof. reflexivity. Qed.
Lemma key_char_iff : forall c, key_char c = true <-> is_key c.
Proof. intros c. unfold key_char, is_key. rewrite isalnum_or. cbn [In]. rewrite !orb_true_iff, !Z.eqb_eq. intuition congruence. Qed.

Lemma not_true : forall (b : bool) (P : Prop), (b = true <-> P) -> ~ P -> b = false.
Proof. intros [|] P H N; [exfalso; apply N; now apply H|reflexivity]. Qed.

Lemma span_ok : forall (p : Z -> bool) (P : Z -> Prop), (forall c, p c = true <-> P c) -> forall w r, Forall P w -> not_head P r -> span p (w ++ r) = (w, r).
Proof.
  intros p P H. induction w as [|c w IH]; intros r F N; cbn [app span].
  - destruct r as [|c r]; [reflexivity|]. cbn [span]. now rewrite (not_true _ _ (H c) N).
  - rewrite (proj2 (H c) (Forall_inv F)), IH; auto. now apply Forall_inv_tail in F.
Qed.

Lemma digits_mono : forall ds n, (0 <= n)%Z -> Forall digit ds -> (n <= fold_left (fun n d => n * 10 + d) (map (fun d => d - 48) ds) n)%Z.
Proof.
  induction ds as [|d ds IH]; intros n N F; [cbn; lia|]. cbn [map fold_left]. pose proof (Forall_inv F) as D. unfold digit in D.
  specialize (IH (n * 10 + (d - 48))%Z ltac:(lia) (Forall_inv_tail F)). lia.
Qed.

Lemma number_ok : forall ds r n, (0 <= n)%Z -> Forall digit ds -> not_head digit r -> (fold_left (fun n d => n * 10 + d) (map (fun d => d - 48) ds) n <= 2147483647)%Z ->
  number n (ds ++ r) = ROk (fold_left (fun n d => n * 10 + d) (map (fun d => d - 48) ds) n, r)%Z.
Proof.
  induction ds as [|d ds IH]; intros r n N F A B; cbn [app map fold_left] in *.
  - destruct r as [|c r]; [reflexivity|]. cbn [number]. now rewrite (not_true _ _ (isdigit_iff c) A).
  - cbn [number]. pose proof (Forall_inv F) as D. rewrite (proj2 (isdigit_iff d) D). unfold digit in D.
    assert (E : (10 * n + (d - 48) = n * 10 + (d - 48))%Z) by lia. rewrite E. pose proof (digits_mono ds (n * 10 + (d - 48)) ltac:(lia) (Forall_inv_tail F)).
    destruct (Z.ltb_spec 2147483647 (n * 10 + (d - 48))); [lia|]. apply IH; auto; [lia|]. now apply Forall_inv_tail in F.
Qed.

Lemma get_number_ok : forall v t r, number_text v t r -> get_number t = ROk (v, r) /\ (0 <= v)%Z.
Proof.
  intros v t r H. destruct H as [ds r NE F A B]. unfold base in *. split; [unfold get_number; apply number_ok; auto; lia|]. now apply digits_mono.
Qed.

Lemma number_head : forall v t r, number_text v t r -> exists c u, t = c :: u /\ digit c.
Proof. intros v t r H. destruct H as [ds r NE F A B]. destruct ds as [|c ds]; [easy|]. exists c, (ds ++ r). split; [reflexivity|]. now apply Forall_inv in F. Qed.

Lemma same_lower : forall c d, same_key c d -> key_lower c = d.
Proof.
  intros c d H. unfold same_key in H. unfold key_lower, isupper. destruct H as [(R & [->| ->])|(-> & [->| ->])]; try reflexivity.
  - rewrite (proj2 (Z.leb_gt d 90)) by lia. rewrite andb_false_r. rewrite (proj2 (Z.eqb_neq d 95)) by lia. reflexivity.
  - rewrite (proj2 (Z.leb_le 65 (d - 32))), (proj2 (Z.leb_le (d - 32) 90)) by lia. cbn [andb]. lia.
Qed.
Lemma same_is_key : forall c d, same_key c d -> is_key c.
Proof.
  intros c d H. unfold same_key in H. unfold is_key, isalnum, isalpha. cbn [In]. destruct H as [(R & H)|(-> & H)]; [|right; lia]. left. apply orb_true_iff. left.
  rewrite orb_true_iff, !andb_true_iff, !Z.leb_le. lia.
Qed.
Lemma same_lowers : forall w k, Forall2 same_key w k -> map key_lower w = k /\ Forall is_key w.
Proof. intros w k H. induction H as [|c d w k S F (IH1 & IH2)]; [now split|]. split; [cbn [map]; rewrite IH1; f_equal; now apply same_lower|]. constructor; [now apply same_is_key in S|exact IH2]. Qed.
Lemma same_alpha : forall c d, same_key c d -> d <> 45%Z -> isalpha c = true.
Proof. intros c d [(R & H)|(E & _)] N; [|now destruct N]. unfold isalpha. rewrite orb_true_iff, !andb_true_iff, !Z.leb_le. lia. Qed.
Lemma key_parts : forall names t r, key_text names t r -> exists c w, t = (c :: w) ++ r /\ isalpha c = true /\ Forall is_key (c :: w) /\ In (map key_lower (c :: w)) names /\ not_head is_key r.
Proof.
  intros names t r H. destruct H as [w k r I F A N]. destruct F as [|c d w k S F]; [destruct A|]. exists c, w. split; [reflexivity|]. split; [now apply (same_alpha c d)|].
  assert (F' : Forall2 same_key (c :: w) (d :: k)) by now constructor. destruct (same_lowers _ _ F') as (E1 & E2). rewrite E1. auto.
Qed.

Lemma isalpha_range : forall c, isalpha c = true -> (65 <= c <= 90 \/ 97 <= c <= 122)%Z.
Proof. intros c H. unfold isalpha in H. rewrite ?orb_true_iff, ?andb_true_iff, ?Z.leb_le in H. lia. Qed.
Lemma isalnum_range : forall c, isalnum c = true -> (48 <= c <= 57 \/ 65 <= c <= 90 \/ 97 <= c <= 122)%Z.
Proof. intros c H. rewrite isalnum_or, orb_true_iff in H. destruct H as [H|H]; [apply isalpha_range in H; lia|apply isdigit_iff in H; unfold digit in H; lia]. Qed.

Lemma name1_range : forall c, is_name1 c -> (c = 36 \/ c = 95 \/ 65 <= c <= 90 \/ 97 <= c <= 122)%Z.
Proof. intros c [H|[H|H]]; try lia. apply isalpha_range in H. lia. Qed.

(** A character that is no blank, no slash and not the last one is visible. *)
Lemma vis : forall c r, ~ blank c -> c <> 255%Z -> c <> 47%Z -> visible (c :: r).
Proof. intros c r A B C. split; [exact A|]. split; [exact B|]. intros ->. congruence. Qed.
Lemma vis_in : forall c r, ~ In c [32; 9; 12; 13; 11; 44; 59; 10; 255; 47]%Z -> visible (c :: r).
Proof. intros c r H. cbn [In] in H. apply vis; [unfold blank; cbn [In]|..]; lia. Qed.

Lemma cache_tag_ok : forall n l, Forall (fun e => snd e = true) l -> exists l', cache_tag n l = ROk l' /\ Forall (fun e => snd e = true) l'.
Proof.
  intros n. induction l as [|e l IH]; intros F; cbn [cache_tag]; [eauto|]. rewrite (Forall_inv F). destruct (teqb (fst e) n); [eauto|].
  destruct (IH (Forall_inv_tail F)) as (l' & -> & F'). cbn [rbind]. exists (e :: l'). split; [reflexivity|]. constructor; [now apply Forall_inv in F|exact F'].
Qed.

Lemma pc_id : forall c, c <> 92%Z -> pc c = c.
Proof. intros c N. unfold pc. now rewrite (proj2 (Z.eqb_neq _ _) N). Qed.

Lemma get_tag_ok : forall g t r s, tag_text g t r -> Forall (fun e => snd e = true) (d_tags s) ->
  exists l, get_tag t s = ROk (g, r, set_tags true l s) /\ Forall (fun e => snd e = true) l.
Proof.
  intros g t r s H F. destruct H as [c w g1 g2 r G1 G2 N1 W N]. unfold get_tag. cbn [tl]. pose proof (name1_range c N1) as RC.
  rewrite next_some_vis; [|exact G1|apply vis_in; cbn; lia]. cbn [rbind fst snd]. rewrite pc_id by lia. rewrite (proj2 (IS_NAME1_iff c) N1). cbn [negb].
  rewrite (span_ok IS_IDENT is_ident IS_IDENT_iff) by assumption. rewrite next_some_vis; [|exact G2|apply vis_in; cbn; lia]. cbn [rbind fst snd tl].
  change (pc 62) with 62%Z. cbn [Z.eqb Pos.eqb]. destruct (cache_tag_ok (c :: w) _ F) as (l & -> & F'). cbn [rbind]. eauto.
Qed.

(** * Copied text *)

Lemma cstr_nonempty : forall q u, cstr q u -> u <> [].
Proof. intros q u H. destruct H; discriminate. Qed.

Lemma copy_string_ok : forall q u, (q = 39 \/ q = 34)%Z -> cstr q u -> forall f r, List.length u <= f -> copy_string f q (u ++ r) = ROk (u, r).
Proof.
  intros q u Q H. induction H as [|c t N1 N2 N3 H IH|c t H IH]; intros [|f] r L; try (cbn in L; lia).
  - cbn [app copy_string]. now rewrite Z.eqb_refl.
  - cbn [app copy_string]. rewrite (proj2 (Z.eqb_neq _ _) N1), (proj2 (Z.eqb_neq _ _) N2), (proj2 (Z.eqb_neq _ _) N3), IH by (cbn in L; lia). reflexivity.
  - cbn [app copy_string]. rewrite (proj2 (Z.eqb_neq 92 q)) by lia. cbn [Z.eqb Pos.eqb]. pose proof (cstr_nonempty _ _ H) as NE.
    replace (match t ++ r with [] => true | _ => false end) with false by (destruct t; [easy|reflexivity]). rewrite andb_false_r, IH by (cbn in L; lia). reflexivity.
Qed.

Lemma copy_stars_ok : forall b r, inside b -> copy_stars (b ++ [42; 47]%Z ++ r) = ROk (b ++ [42; 47]%Z, r).
Proof.
  induction b as [|c b IH]; intros r I; [reflexivity|]. change ((c :: b) ++ [42; 47]%Z ++ r) with (c :: (b ++ [42; 47]%Z ++ r)). cbn [copy_stars].
  fold (star_slash c (b ++ [42; 47]%Z ++ r)). rewrite (inside_star c b r I), IH by now apply inside_cons in I. reflexivity.
Qed.

Lemma spaced_cons : forall c r, spaced (c :: r) = c :: (if star_slash c r then [32%Z] else []) ++ spaced r.
Proof.
  intros c r. assert (X : forall A (x y : A), match c, r with 42%Z, 47%Z :: _ => x | _, _ => y end = if star_slash c r then x else y).
  { intros A x y. unfold star_slash. destruct (Z.eqb_spec c 42) as [->|N]; cbn [andb].
    - destruct r as [|d r]; [reflexivity|]. destruct (Z.eqb_spec d 47) as [->|M]; [reflexivity|].
      destruct d as [|p|p]; try reflexivity. do 6 (destruct p as [p|p|]; try reflexivity). now destruct M.
    - destruct c as [|p|p]; try reflexivity. do 6 (destruct p as [p|p|]; try reflexivity). now destruct N. }
  cbn [spaced]. now rewrite X.
Qed.

Lemma copy_slashes_ok : forall b r, ~ In 10%Z b -> copy_slashes (b ++ 10%Z :: r) = ROk (spaced b, 10%Z :: r).
Proof.
  induction b as [|c b IH]; intros r I; [reflexivity|]. cbn [app copy_slashes]. destruct (Z.eqb_spec c 10) as [->|N]; [exfalso; apply I; now left|].
  rewrite IH by (intros X; apply I; now right). cbn [rbind fst snd]. rewrite spaced_cons. unfold star_slash.
  destruct b as [|d b]; cbn [app]; [|reflexivity]. cbn [Z.eqb Pos.eqb]. rewrite andb_false_r. reflexivity.
Qed.

Lemma copy_comment_star : forall b r, inside b -> copy_comment (42%Z :: b ++ [42; 47]%Z ++ r) = ROk (42%Z :: b ++ [42; 47]%Z, r).
Proof. intros b r I. change (copy_comment (42%Z :: b ++ [42; 47]%Z ++ r)) with (x <- copy_stars (b ++ [42; 47]%Z ++ r) ;; ROk (42%Z :: fst x, snd x)). rewrite copy_stars_ok by exact I. reflexivity. Qed.
Lemma copy_comment_line : forall b r, ~ In 10%Z b -> copy_comment (47%Z :: b ++ 10%Z :: r) = ROk (42%Z :: spaced b ++ [42; 47]%Z, 10%Z :: r).
Proof. intros b r I. change (copy_comment (47%Z :: b ++ 10%Z :: r)) with (x <- copy_slashes (b ++ 10%Z :: r) ;; ROk (42%Z :: fst x ++ [42; 47]%Z, snd x)). rewrite copy_slashes_ok by exact I. reflexivity. Qed.
Lemma copy_comment_none : forall t, t <> [] -> not_head (fun c => c = 47 \/ c = 42)%Z t -> copy_comment t = ROk ([], t).
Proof.
  intros [|c t] NE N; [easy|]. cbn in N. unfold copy_comment. rewrite (proj2 (Z.eqb_neq c 47)), (proj2 (Z.eqb_neq c 42)) by lia. reflexivity.
Qed.

Lemma ptext_nonempty : forall u, ptext u -> u <> [].
Proof. intros u H. destruct H; discriminate. Qed.

Lemma copy_text_ok : forall u, ptext u -> forall f r, List.length u <= f -> copy_text_loop f (u ++ r) = ROk r.
Proof.
  intros u H. induction H as [c P|q u t Q C H IH|b t I H IH|b t I H IH|t N H IH|c t N1 N2 N3 N4 H IH]; intros [|f] r L; try (cbn in L; lia).
  - destruct P as [-> | ->]; reflexivity.
  - cbn [app copy_text_loop]. replace ((q =? 39) || (q =? 34))%Z with true by (destruct Q as [-> | ->]; reflexivity). rewrite <- app_assoc.
    rewrite (copy_string_ok q u Q C) by (rewrite !app_length; lia). cbn [rbind snd]. apply IH. cbn in L. rewrite app_length in L. lia.
  - change (copy_text_loop (S f) (([47; 42]%Z ++ b ++ [42; 47]%Z ++ t) ++ r)) with (x <- copy_comment (42%Z :: (b ++ [42; 47]%Z ++ t) ++ r) ;; copy_text_loop f (snd x)).
    rewrite <- !app_assoc. rewrite copy_comment_star by exact I. cbn [rbind snd]. apply IH. rewrite !app_length in L. cbn [List.length] in L. lia.
  - change (copy_text_loop (S f) (([47; 47]%Z ++ b ++ 10%Z :: t) ++ r)) with (x <- copy_comment (47%Z :: (b ++ 10%Z :: t) ++ r) ;; copy_text_loop f (snd x)).
    rewrite <- !app_assoc. cbn [app]. rewrite copy_comment_line by exact I. cbn [rbind snd]. apply (IH f r). rewrite !app_length in L. cbn [List.length] in *. lia.
  - change (copy_text_loop (S f) ((47%Z :: t) ++ r)) with (x <- copy_comment (t ++ r) ;; copy_text_loop f (snd x)). pose proof (ptext_nonempty _ H) as NE.
    rewrite copy_comment_none; [|destruct t; [easy|discriminate]|destruct t; [easy|exact N]]. cbn [rbind snd]. apply IH. cbn in L. lia.
  - cbn [app copy_text_loop]. rewrite (proj2 (Z.eqb_neq c 39) N1), (proj2 (Z.eqb_neq c 34) N2), (proj2 (Z.eqb_neq c 47) N3). cbn [orb].
    replace (((c =? 37) || (c =? 92)) && match t ++ r with d :: _ => d =? 125 | [] => false end)%Z with false; [apply IH; cbn in L; lia|].
    symmetry. apply andb_false_iff. destruct (Z.eqb_spec c 37) as [->|M1]; [|destruct (Z.eqb_spec c 92) as [->|M2]; [|now left]]; right;
      pose proof (ptext_nonempty _ H) as NE; (destruct t as [|d t]; [easy|]); cbn [app]; apply Z.eqb_neq; intros ->; apply N4; auto; unfold percent; auto.
Qed.

Lemma braces_nonempty : forall d u, braces d u -> u <> [].
Proof. intros d u H. destruct H; discriminate. Qed.

Lemma copy_union_ok : forall d u, braces d u -> forall f r, List.length u <= f -> copy_union_loop f false (Z.of_nat d) (u ++ r) = ROk r.
Proof.
  intros d u H. induction H as [|d t H IH|d t H IH|d q u t Q C H IH|d b t I H IH|d b t I H IH|d t N H IH|d c t N H IH]; intros [|f] r L; try (cbn in L; lia).
  - reflexivity.
  - cbn [app copy_union_loop andb Z.eqb Pos.eqb]. replace (Z.of_nat (S (S d)) - 1)%Z with (Z.of_nat (S d)) by lia. rewrite (proj2 (Z.eqb_neq _ 0)) by lia. apply IH. cbn in L. lia.
  - cbn [app copy_union_loop andb Z.eqb Pos.eqb]. replace (Z.of_nat d + 1)%Z with (Z.of_nat (S d)) by lia. apply IH. cbn in L. lia.
  - cbn [app copy_union_loop andb]. replace (q =? 123)%Z with false by (destruct Q as [-> | ->]; reflexivity). replace (q =? 125)%Z with false by (destruct Q as [-> | ->]; reflexivity).
    replace ((q =? 39) || (q =? 34))%Z with true by (destruct Q as [-> | ->]; reflexivity). rewrite <- app_assoc.
    rewrite (copy_string_ok q u Q C) by (rewrite !app_length; lia). cbn [rbind snd]. apply IH. cbn in L. rewrite app_length in L. lia.
  - change (copy_union_loop (S f) false (Z.of_nat d) (([47; 42]%Z ++ b ++ [42; 47]%Z ++ t) ++ r)) with (x <- copy_comment (42%Z :: (b ++ [42; 47]%Z ++ t) ++ r) ;; copy_union_loop f false (Z.of_nat d) (snd x)).
    rewrite <- !app_assoc. rewrite copy_comment_star by exact I. cbn [rbind snd]. apply IH. rewrite !app_length in L. cbn [List.length] in L. lia.
  - change (copy_union_loop (S f) false (Z.of_nat d) (([47; 47]%Z ++ b ++ 10%Z :: t) ++ r)) with (x <- copy_comment (47%Z :: (b ++ 10%Z :: t) ++ r) ;; copy_union_loop f false (Z.of_nat d) (snd x)).
    rewrite <- !app_assoc. cbn [app]. rewrite copy_comment_line by exact I. cbn [rbind snd]. apply (IH f r). rewrite !app_length in L. cbn [List.length] in *. lia.
  - change (copy_union_loop (S f) false (Z.of_nat d) ((47%Z :: t) ++ r)) with (x <- copy_comment (t ++ r) ;; copy_union_loop f false (Z.of_nat d) (snd x)). pose proof (braces_nonempty _ _ H) as NE.
    rewrite copy_comment_none; [|destruct t; [easy|discriminate]|destruct t; [easy|exact N]]. cbn [rbind snd]. apply IH. cbn in L. lia.
  - cbn [app copy_union_loop andb]. cbn [In] in N.
    repeat match goal with |- context [(c =? ?k)%Z] => rewrite (proj2 (Z.eqb_neq c k)) by lia end. cbn [orb]. apply IH. cbn in L. lia.
Qed.

Lemma union_prefix_ok : forall pre, Forall (fun c => (1 <= c <= 127)%Z /\ (isspace c = true \/ is_ident c)) pre -> forall f u r, List.length (pre ++ 123%Z :: u ++ r) < f ->
  braces 1 u -> copy_union_loop f true 0 (pre ++ 123%Z :: u ++ r) = ROk r.
Proof.
  intros pre F. induction F as [|c pre (RC & X) F IH]; intros [|f] u r L B; try lia.
  - cbn [app copy_union_loop andb Z.ltb Z.compare Pos.compare Pos.compare_cont Z.eqb Pos.eqb negb]. apply (copy_union_ok 1 u B). cbn in L. rewrite app_length in L. lia.
  - cbn [app copy_union_loop]. cbn [app List.length] in L. rewrite (proj2 (Z.ltb_ge 127 c)) by lia. cbn [andb].
    assert (XB : (isspace c || IS_IDENT c)%bool = true) by (apply orb_true_iff; destruct X; [auto|right; now apply IS_IDENT_iff]).
    destruct (Z.eqb_spec c 10) as [->|N10].
    + cbn [negb andb Z.eqb Pos.eqb orb]. apply IH; auto. lia.
    + destruct (Z.eqb_spec c 123) as [->|N123]; [exfalso; destruct X as [X|X]; [discriminate|apply IS_IDENT_iff in X; discriminate]|]. cbn [negb andb]. rewrite XB. apply IH; auto. lia.
Qed.

Lemma expect_ok : forall b n u r, Forall (fun c => isspace c = true /\ c <> 10%Z) b -> number_text n u r -> expect_number (b ++ u) = ROk (n, r).
Proof.
  intros b n u r F N. induction F as [|c b (S1 & S2) F IH]; cbn [app].
  - destruct (number_head _ _ _ N) as (c & v & -> & D). cbn [expect_number]. rewrite (proj2 (isdigit_iff c) D). now apply get_number_ok.
  - cbn [expect_number]. assert (ND : ~ digit c /\ isalpha c = false).
    { unfold isspace in S1. rewrite ?orb_true_iff, ?andb_true_iff, ?Z.leb_le, ?Z.eqb_eq in S1. split; [unfold digit; lia|]. destruct (isalpha c) eqn:E; [apply isalpha_range in E; lia|reflexivity]. }
    rewrite (not_true _ _ (isdigit_iff c)) by tauto. rewrite (proj2 (Z.eqb_neq _ _) S2), (proj2 ND), S1. cbn [orb negb]. exact IH.
Qed.
