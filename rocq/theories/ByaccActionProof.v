(** What byacc makes of the text of an action. *)
From Coq Require Import String List Arith ZArith Bool Lia.
Import ListNotations.
From Verif Require Import Base LemonTableModel LemonPreModel LemonCodeModel ByaccParModel ByaccReaderModel ByaccRulesModel ByaccScanModel Prop_ByaccLiteral SpecByaccFile ByaccScanProof ByaccTableProof.
Open Scope rd_scope.

Lemma acts_nonempty : forall d ps t, acts d ps t -> t <> [].
Proof. intros d ps t H. destruct H; discriminate. Qed.
Lemma not_head_app : forall (P : Z -> Prop) t r, t <> [] -> not_head P t -> not_head P (t ++ r).
Proof. intros P [|c t] r NE H; [easy|exact H]. Qed.
Lemma number_app : forall v t u r, number_text v t u -> u <> [] -> number_text v (t ++ r) (u ++ r).
Proof. intros v t u r H NE. destruct H as [ds u A B C D]. rewrite <- app_assoc. constructor; auto. now apply not_head_app. Qed.
Lemma tag_app : forall g t u r, tag_text g t u -> tag_text g (t ++ r) (u ++ r).
Proof.
  intros g t u r H. destruct H as [c w g1 g2 u G1 G2 N W NH]. cbn [app]. rewrite <- !app_assoc. cbn [app]. rewrite <- !app_assoc. cbn [app]. constructor; auto.
  destruct g2; exact NH.
Qed.
Lemma tag_len : forall g t r, tag_text g t r -> List.length r < List.length t.
Proof. intros g t r H. destruct H. cbn [List.length]. rewrite !app_length. cbn. rewrite !app_length. cbn. lia. Qed.
Lemma number_len : forall v t r, number_text v t r -> List.length r < List.length t.
Proof. intros v t r H. destruct H as [ds r NE]. rewrite app_length. destruct ds; [easy|]. cbn. lia. Qed.
Lemma index_len : forall v t r, index_text v t r -> List.length r < List.length t.
Proof. intros v t r H. destruct H as [i t r H|i t r H]; apply number_len in H; cbn [List.length]; lia. Qed.

Definition upd_out (h : bool) (l : list (txt * bool)) (o : txt) (s : rdstate) : rdstate := set_tags h l (add_out o s).

Lemma upd_out_upd : forall h l o h1 l1 o1 s, upd_out h l o (upd_out h1 l1 o1 s) = upd_out h l (o1 ++ o) s.
Proof. intros. unfold upd_out, set_tags, add_out. cbn. now rewrite app_assoc. Qed.
Lemma add_out_upd : forall o s, add_out o s = upd_out (d_havetags s) (d_tags s) o s.
Proof. reflexivity. Qed.

Section Act.
Variable s0 : rdstate.
Variable its : list bucket.
Variable ts : list (option txt).
Variable l0 : bucket.
Variable lrest : list (option bucket).
Variable lt : option txt.
Hypothesis H_its : Forall2 (fun b tg => tag_of b s0 = ROk tg) its (rev ts).
Hypothesis H_lhs : r_lhs (d_rules s0) = Some l0 :: lrest.
Hypothesis H_lt : tag_of l0 s0 = ROk lt.

Notation tagsok l := (Forall (fun e : txt * bool => snd e = true) l).

Lemma tag_of_upd : forall b h l o, tag_of b (upd_out h l o s0) = tag_of b s0.
Proof. reflexivity. Qed.

Lemma its_len : List.length its = List.length ts.
Proof. assert (X : List.length its = List.length (rev ts)) by (clear -H_its; revert H_its; generalize (rev ts); intros r F; induction F; cbn; congruence). now rewrite rev_length in X. Qed.

Lemma its_nth : forall i, 1 <= i <= List.length its -> exists b tg, nth_error its (List.length its - i) = Some b /\ nth_error ts (i - 1) = Some tg /\ tag_of b s0 = ROk tg.
Proof.
  intros i R. assert (G : forall (l : list bucket) (r : list (option txt)), Forall2 (fun b tg => tag_of b s0 = ROk tg) l r -> forall k, k < List.length l -> exists b tg, nth_error l k = Some b /\ nth_error r k = Some tg /\ tag_of b s0 = ROk tg).
  { intros l r F. induction F as [|b tg l r H F IH]; intros k K; [cbn in K; lia|]. destruct k as [|k]; [exists b, tg; auto|]. cbn in K. destruct (IH k) as (b' & tg' & A); [lia|]. exists b', tg'. exact A. }
  destruct (G _ _ H_its (List.length its - i)) as (b & tg & A & B & C); [lia|]. exists b, tg. split; [exact A|]. split; [|exact C].
  rewrite its_len in B, R. rewrite <- (rev_length ts) in B, R. rewrite <- (rev_involutive ts). rewrite rev_length in R.
  assert (X : forall (l : list (option txt)) k, k < List.length l -> nth_error (rev l) k = nth_error l (List.length l - S k)).
  { intros l k K. rewrite (nth_error_nth' (rev l) None) by now rewrite rev_length. rewrite (nth_error_nth' l None) by lia. f_equal. rewrite rev_nth by exact K. reflexivity. }
  rewrite X by (rewrite rev_length; lia). rewrite rev_length in *. replace (List.length ts - S (i - 1)) with (List.length ts - i) by lia. exact B.
Qed.

Lemma mark_at_text : forall arr k g, mark_text (zs arr) k ++ dot g = mark_at arr k g.
Proof. intros. unfold mark_text, mark_at. rewrite <- !app_assoc. reflexivity. Qed.

(** References. *)
Lemma dollar_ref : forall i u t r h l o o', index_text i u t -> t <> [] -> tagsok l -> piece_out h lt ts (PRef i) = Some o' ->
  dollar its (u ++ r) (upd_out h l o s0) = ROk (Some (o', t ++ r, upd_out h l o s0)).
Proof.
  intros i u t r h l o o' H NE FT E. cbn [piece_out] in E. rewrite <- its_len in E.
  destruct H as [i u t NT|i u t NT PI]; apply (number_app _ _ _ r) in NT; auto; destruct (get_number_ok _ _ _ NT) as (GN & PV).
  - destruct (number_head _ _ _ NT) as (c & v & Ev & D). unfold dollar. rewrite Ev in *. unfold digit in D. rewrite (proj2 (Z.eqb_neq c 60)), (proj2 (Z.eqb_neq c 36)) by lia.
    rewrite (proj2 (isdigit_iff c) D), GN. cbn [rbind]. cbv beta iota. change (d_havetags (upd_out h l o s0)) with h. rewrite (proj2 (Z.ltb_ge i 0) PV) in E. cbn [orb] in E.
    destruct (h && negb (Z.of_nat (List.length its) =? 0)%Z)%bool.
    + destruct ((1 <=? i) && (i <=? Z.of_nat (List.length its)))%Z eqn:RG; [|discriminate]. apply andb_true_iff in RG. rewrite !Z.leb_le in RG. destruct RG as (R1 & R2).
      rewrite (proj2 (Z.leb_gt i 0)), (proj2 (Z.ltb_ge (Z.of_nat (List.length its)) i)) by lia. cbn [orb].
      destruct (its_nth (Z.to_nat i)) as (b & tg & A & B & C); [lia|]. replace (Z.to_nat (Z.of_nat (List.length its) - i)) with (List.length its - Z.to_nat i) by lia. rewrite A, tag_of_upd, C. cbn [rbind].
      replace (Z.to_nat (i - 1)) with (Z.to_nat i - 1) in E by lia. rewrite B in E. destruct tg as [g|]; [|discriminate]. injection E as <-. f_equal. f_equal. f_equal. f_equal. rewrite <- mark_at_text. reflexivity.
    + destruct (in_int _); [|discriminate]. injection E as <-. unfold place. rewrite <- mark_at_text. cbn [dot]. now rewrite app_nil_r.
  - unfold dollar. cbn [app Z.eqb Pos.eqb]. change (isdigit 45) with false. cbv iota. rewrite GN. cbn [rbind]. cbv beta iota. change (d_havetags (upd_out h l o s0)) with h.
    rewrite (proj2 (Z.ltb_lt (- i) 0)) in E by lia. cbn [orb andb] in E. destruct h; cbn [andb] in E.
    + rewrite (proj2 (Z.leb_gt 1 (- i))) in E by lia. discriminate.
    + unfold in_int in E. rewrite (proj2 (Z.leb_gt 0 (- i))) in E by lia. cbn [orb] in E. unfold int_ok. destruct (_ <=? _)%Z; [|discriminate]. injection E as <-. rewrite <- mark_at_text. cbn [dot]. now rewrite app_nil_r.
Qed.

Lemma dollar_tref : forall g i u u' t r h l o o', tag_text g u u' -> index_text i u' t -> t <> [] -> tagsok l -> piece_out h lt ts (PTRef g i) = Some o' ->
  exists l', dollar its (u ++ r) (upd_out h l o s0) = ROk (Some (o', t ++ r, upd_out true l' o s0)) /\ tagsok l'.
Proof.
  intros g i u u' t r h l o o' TG H NE FT E. cbn [piece_out] in E. rewrite <- its_len in E. apply (tag_app _ _ _ r) in TG.
  destruct (get_tag_ok _ _ _ (upd_out h l o s0) TG FT) as (l' & GT & FT'). exists l'. split; [|exact FT'].
  assert (Hd : exists v, u ++ r = 60%Z :: v) by (destruct TG; eauto). destruct Hd as (v & Ev). unfold dollar. rewrite Ev in *. cbn [Z.eqb Pos.eqb]. rewrite GT. cbn [rbind]. cbv beta iota.
  change (set_tags true l' (upd_out h l o s0)) with (upd_out true l' o s0).
  destruct H as [i w t NT|i w t NT PI]; apply (number_app _ _ _ r) in NT; auto; destruct (get_number_ok _ _ _ NT) as (GN & PV).
  - destruct (number_head _ _ _ NT) as (c & w' & Ew & D). rewrite Ew in *. unfold digit in D. rewrite (proj2 (Z.eqb_neq c 36)) by lia. rewrite (proj2 (isdigit_iff c) D), GN. cbn [rbind]. cbv beta iota.
    destruct (in_int _); [|discriminate]. injection E as <-. unfold place. rewrite <- mark_at_text. reflexivity.
  - destruct (number_head _ _ _ NT) as (c & w' & Ew & D). cbn [app]. rewrite Ew in *. cbn [Z.eqb Pos.eqb]. change (isdigit 45) with false. cbv iota. rewrite (proj2 (isdigit_iff c) D). cbn [andb]. rewrite GN. cbn [rbind]. cbv beta iota.
    unfold in_int in E. rewrite (proj2 (Z.leb_gt 0 (- i))) in E by lia. cbn [orb] in E. unfold int_ok. destruct (_ <=? _)%Z; [|discriminate]. injection E as <-. rewrite <- mark_at_text. reflexivity.
Qed.

Lemma dollar_tval : forall g u t r h l o, tag_text g u (36%Z :: t) -> tagsok l ->
  exists l', dollar its (u ++ r) (upd_out h l o s0) = ROk (Some (zs "yyval." ++ g, t ++ r, upd_out true l' o s0)) /\ tagsok l'.
Proof.
  intros g u t r h l o TG FT. apply (tag_app _ _ _ r) in TG.
  destruct (get_tag_ok _ _ _ (upd_out h l o s0) TG FT) as (l' & GT & FT'). exists l'. split; [|exact FT'].
  assert (Hd : exists v, u ++ r = 60%Z :: v) by (destruct TG; eauto). destruct Hd as (v & Ev). unfold dollar. rewrite Ev in *. cbn [Z.eqb Pos.eqb]. rewrite GT. reflexivity.
Qed.

Lemma dollar_val : forall t r h l o o', piece_out h lt ts PVal = Some o' ->
  dollar its (36%Z :: t ++ r) (upd_out h l o s0) = ROk (Some (o', t ++ r, upd_out h l o s0)).
Proof.
  intros t r h l o o' E. cbn [piece_out] in E. unfold dollar. cbn [Z.eqb Pos.eqb]. change (d_havetags (upd_out h l o s0)) with h. destruct h; [|now injection E as <-].
  change (r_lhs (d_rules (upd_out true l o s0))) with (r_lhs (d_rules s0)). rewrite H_lhs, tag_of_upd, H_lt. cbn [rbind]. destruct lt; [|discriminate]. now injection E as <-.
Qed.

Lemma dollar_none : forall t r s, t <> [] -> not_head (fun c => is_name2 c \/ c = 60 \/ c = 45)%Z t -> dollar its (t ++ r) s = ROk None.
Proof.
  intros [|c t] r s NE H; [easy|]. cbn in H. unfold dollar. cbn [app]. rewrite (proj2 (Z.eqb_neq c 60)), (proj2 (Z.eqb_neq c 45)) by tauto.
  assert (N : ~ is_name2 c) by tauto. unfold is_name2 in N. rewrite (proj2 (Z.eqb_neq c 36)), (proj2 (Z.eqb_neq c 95)) by tauto.
  assert (A : isalnum c = false) by (destruct (isalnum c); tauto). unfold isalnum in A. apply orb_false_iff in A. destruct A as (A1 & A2).
  assert (D : isdigit c = false). { unfold isdigit. exact A2. }
  rewrite D, A1. reflexivity.
Qed.

Lemma at_loc : forall t r, at_sign its (36%Z :: t ++ r) = ROk (Some (zs "yyloc", t ++ r)).
Proof. reflexivity. Qed.
Lemma at_ref : forall i u t r h o', index_text i u t -> t <> [] -> piece_out h lt ts (PLRef i) = Some o' -> at_sign its (u ++ r) = ROk (Some (o', t ++ r)).
Proof.
  intros i u t r h o' H NE E. cbn [piece_out] in E. rewrite <- its_len in E.
  destruct H as [i u t NT|i u t NT PI]; apply (number_app _ _ _ r) in NT; auto; destruct (get_number_ok _ _ _ NT) as (GN & PV).
  - destruct (number_head _ _ _ NT) as (c & v & Ev & D). unfold at_sign. rewrite Ev in *. unfold digit in D. rewrite (proj2 (Z.eqb_neq c 36)) by lia. rewrite (proj2 (isdigit_iff c) D), GN. cbn [rbind]. cbv beta iota.
    destruct (in_int _); [|discriminate]. injection E as <-. unfold place. rewrite <- mark_at_text. cbn [dot]. now rewrite app_nil_r.
  - unfold at_sign. cbn [app Z.eqb Pos.eqb]. change (isdigit 45) with false. cbv iota. rewrite GN. cbn [rbind]. cbv beta iota.
    unfold in_int in E. rewrite (proj2 (Z.leb_gt 0 (- i))) in E by lia. cbn [orb] in E. unfold int_ok. destruct (_ <=? _)%Z; [|discriminate]. injection E as <-. rewrite <- mark_at_text. cbn [dot]. now rewrite app_nil_r.
Qed.
Lemma at_none : forall t r, t <> [] -> not_head (fun c => digit c \/ c = 36 \/ c = 45)%Z t -> at_sign its (t ++ r) = ROk None.
Proof.
  intros [|c t] r NE H; [easy|]. cbn in H. unfold at_sign. cbn [app]. rewrite (proj2 (Z.eqb_neq c 36)), (proj2 (Z.eqb_neq c 45)) by tauto. now rewrite (not_true _ _ (isdigit_iff c)) by tauto.
Qed.

Lemma loop_S : forall f depth c r s, action_loop (S f) its depth (c :: r) s =
          (x <- (if (c =? 36)%Z then dollar its r s
                else if (c =? 64)%Z then y <- at_sign its r ;; ROk (match y with Some (u, t) => Some (u, t, s) | None => None end)
                else ROk None) ;;
          match x with
          | Some (u, t, s) => action_loop f its depth t (add_out u s)
          | None =>
              if IS_NAME1 c then
                let (w, t) := span IS_NAME2 r in action_loop f its depth t (add_out (c :: w) s)
              else
                let s := add_out [c] s in
                if (c =? 59)%Z then (if (0 <? depth)%Z then action_loop f its depth r s else ROk (r, s))
                else if (c =? 123)%Z then action_loop f its (depth + 1) r s
                else if (c =? 125)%Z then (if (0 <? depth - 1)%Z then action_loop f its (depth - 1) r s else ROk (r, s))
                else if ((c =? 39) || (c =? 34))%Z then
                  y <- copy_string (S (List.length r)) c r ;; action_loop f its depth (snd y) (add_out (fst y) s)
                else if (c =? 47)%Z then y <- copy_comment r ;; action_loop f its depth (snd y) (add_out (fst y) s)
                else action_loop f its depth r s
          end).
Proof. reflexivity. Qed.

Lemma out_split : forall p ps h out h', pieces_out h lt ts (p :: ps) = Some (out, h') ->
  exists o1 o2, piece_out h lt ts p = Some o1 /\ pieces_out (h || tagged p) lt ts ps = Some (o2, h') /\ out = o1 ++ o2.
Proof.
  intros p ps h out h' H. cbn [pieces_out] in H. destruct (piece_out h lt ts p) as [o1|]; [|discriminate]. destruct (pieces_out (h || tagged p) lt ts ps) as [(o2 & h2)|]; [|discriminate]. injection H as <- <-. eauto.
Qed.

Lemma add_upd : forall u h l o s, add_out u (upd_out h l o s) = upd_out h l (o ++ u) s.
Proof. intros. unfold upd_out, add_out, set_tags. cbn. now rewrite app_assoc. Qed.

Ltac len_tac := repeat match goal with H : index_text _ _ _ |- _ => apply index_len in H | H : tag_text _ _ _ |- _ => apply tag_len in H end; cbn [List.length app] in *; rewrite ?app_length in *; cbn [List.length] in *; rewrite ?app_length in *; cbn [List.length] in *; lia.

Lemma loop_ok : forall d ps t, acts d ps t -> forall f h l o r out h', 1 <= d -> List.length t <= f -> tagsok l -> pieces_out h lt ts ps = Some (out, h') ->
  exists l', action_loop f its (Z.of_nat d) (t ++ r) (upd_out h l o s0) = ROk (r, upd_out h' l' (o ++ out) s0) /\ tagsok l'.
Proof.
  intros d ps t H.
  induction H as [|d ps t H IH|d ps t H IH|d q u ps t Q C H IH|d b ps t I H IH|d b ps t I H IH|d ps t N H IH|d c w ps t N1 N2 W N H IH|d c ps t N1 N2 H IH|d ps t H IH|d i u ps t X H IH|d g u ps t X H IH|d g i u u' ps t X Y H IH|d ps t N H IH|d ps t H IH|d i u ps t X H IH|d ps t N H IH];
    intros f h l o r out h' D1 LF FT E; (destruct f as [|f]; [cbn in LF; lia|]); destruct (out_split _ _ _ _ _ E) as (o1 & o2 & E1 & E2 & ->); cbn [tagged] in E2; rewrite ?orb_false_r, ?orb_true_r in E2; cbn [piece_out] in E1.
  - injection E1 as <-. cbn [pieces_out] in E2. injection E2 as <- <-. cbn [app]. rewrite loop_S. cbn [Z.eqb Pos.eqb rbind]. change (IS_NAME1 125) with false. cbv iota zeta. change (0 <? Z.of_nat 1 - 1)%Z with false. cbv iota. exists l. rewrite add_upd. auto.
  - injection E1 as <-. cbn [app]. rewrite loop_S. cbn [Z.eqb Pos.eqb rbind]. change (IS_NAME1 125) with false. cbv iota zeta. rewrite (proj2 (Z.ltb_lt 0 (Z.of_nat (S (S d)) - 1))) by lia. replace (Z.of_nat (S (S d)) - 1)%Z with (Z.of_nat (S d)) by lia.
    rewrite add_upd. destruct (IH f h l (o ++ [125%Z]) r o2 h') as (l' & A & B); try assumption; try len_tac. exists l'. rewrite A, <- app_assoc. auto.
  - injection E1 as <-. cbn [app]. rewrite loop_S. cbn [Z.eqb Pos.eqb rbind]. change (IS_NAME1 123) with false. cbv iota zeta. replace (Z.of_nat d + 1)%Z with (Z.of_nat (S d)) by lia.
    rewrite add_upd. destruct (IH f h l (o ++ [123%Z]) r o2 h') as (l' & A & B); try assumption; try len_tac. exists l'. rewrite A, <- app_assoc. auto.
  - injection E1 as <-. cbn [app]. rewrite loop_S. rewrite (proj2 (Z.eqb_neq q 36)), (proj2 (Z.eqb_neq q 64)) by lia. cbn [rbind]. replace (IS_NAME1 q) with false by (destruct Q as [-> | ->]; reflexivity). cbv iota zeta.
    rewrite (proj2 (Z.eqb_neq q 59)), (proj2 (Z.eqb_neq q 123)), (proj2 (Z.eqb_neq q 125)) by lia. replace ((q =? 39) || (q =? 34))%Z with true by (destruct Q as [-> | ->]; reflexivity).
    rewrite <- app_assoc. rewrite (copy_string_ok q u Q C) by (rewrite !app_length; lia). cbn [rbind fst snd]. rewrite !add_upd. rewrite <- app_assoc. cbn [app].
    destruct (IH f h l (o ++ q :: u) r o2 h') as (l' & A & B); try assumption; try len_tac. exists l'. rewrite A, <- app_assoc. auto.
  - injection E1 as <-. change (([47; 42]%Z ++ b ++ [42; 47]%Z ++ t) ++ r) with (47%Z :: 42%Z :: (b ++ [42; 47]%Z ++ t) ++ r). rewrite loop_S. cbn [Z.eqb Pos.eqb rbind orb]. change (IS_NAME1 47) with false. cbv iota zeta.
    rewrite <- !app_assoc. rewrite (copy_comment_star b (t ++ r) I). cbn [rbind fst snd]. rewrite !add_upd. 
    destruct (IH f h l ((o ++ [47%Z]) ++ 42%Z :: b ++ [42; 47]%Z) r o2 h') as (l' & A & B); try assumption; try len_tac. exists l'. rewrite A. rewrite <- !app_assoc. cbn [app]. rewrite <- !app_assoc. auto.
  - injection E1 as <-. change (([47; 47]%Z ++ b ++ 10%Z :: t) ++ r) with (47%Z :: 47%Z :: (b ++ 10%Z :: t) ++ r). rewrite loop_S. cbn [Z.eqb Pos.eqb rbind orb]. change (IS_NAME1 47) with false. cbv iota zeta.
    rewrite <- !app_assoc. cbn [app]. rewrite (copy_comment_line b (t ++ r) I). cbn [rbind fst snd]. rewrite !add_upd. 
    destruct (IH f h l ((o ++ [47%Z]) ++ 42%Z :: spaced b ++ [42; 47]%Z) r o2 h') as (l' & A & B); try assumption; try len_tac. cbn [app] in A. exists l'. rewrite A. rewrite <- !app_assoc. cbn [app]. rewrite <- !app_assoc. auto.
  - injection E1 as <-. cbn [app]. rewrite loop_S. cbn [Z.eqb Pos.eqb rbind orb]. change (IS_NAME1 47) with false. cbv iota zeta.
    pose proof (acts_nonempty _ _ _ H) as NE. rewrite copy_comment_none; [|destruct t; [easy|discriminate]|now apply not_head_app]. cbn [rbind fst snd]. rewrite !add_upd.
    destruct (IH f h l ((o ++ [47%Z]) ++ []) r o2 h') as (l' & A & B); try assumption; try len_tac. exists l'. rewrite A. rewrite <- !app_assoc. auto.
  - injection E1 as <-. cbn [app]. rewrite loop_S. rewrite (proj2 (Z.eqb_neq _ _) N2). pose proof (name1_range c N1) as RC. rewrite (proj2 (Z.eqb_neq c 64)) by lia. cbn [rbind]. rewrite (proj2 (IS_NAME1_iff c) N1).
    rewrite <- app_assoc. rewrite (span_ok IS_NAME2 is_name2 IS_NAME2_iff w (t ++ r) W) by (apply not_head_app; [now apply acts_nonempty in H|exact N]). rewrite add_upd.
    destruct (IH f h l (o ++ c :: w) r o2 h') as (l' & A & B); try assumption; try len_tac. exists l'. rewrite A, <- app_assoc. auto.
  - injection E1 as <-. cbn [app]. rewrite loop_S. cbn [In] in N2. assert (N36 : c <> 36%Z) by (intros ->; apply N1; unfold is_name1; auto).
    rewrite (proj2 (Z.eqb_neq _ _) N36). rewrite (proj2 (Z.eqb_neq c 64)) by lia. cbn [rbind]. rewrite (not_true _ _ (IS_NAME1_iff c) N1). cbv zeta.
    rewrite (proj2 (Z.eqb_neq c 123)), (proj2 (Z.eqb_neq c 125)), (proj2 (Z.eqb_neq c 39)), (proj2 (Z.eqb_neq c 34)), (proj2 (Z.eqb_neq c 47)) by lia. cbn [orb].
    rewrite (proj2 (Z.ltb_lt 0 (Z.of_nat d))) by lia. replace (if (c =? 59)%Z then _ else _) with (action_loop f its (Z.of_nat d) (t ++ r) (add_out [c] (upd_out h l o s0))) by now destruct (c =? 59)%Z.
    rewrite add_upd. destruct (IH f h l (o ++ [c]) r o2 h') as (l' & A & B); try assumption; try len_tac. exists l'. rewrite A, <- app_assoc. auto.
  - cbn [app]. rewrite loop_S. cbn [Z.eqb Pos.eqb]. rewrite (dollar_val t r h l o o1 E1). cbn [rbind]. cbv beta iota. rewrite add_upd. destruct (IH f h l (o ++ o1) r o2 h') as (l' & A & B); try assumption; try len_tac. exists l'. rewrite A, <- app_assoc. auto.
  - cbn [app]. rewrite loop_S. cbn [Z.eqb Pos.eqb]. rewrite (dollar_ref i u t r h l o o1 X) by (auto; now apply acts_nonempty in H). cbn [rbind]. cbv beta iota. rewrite add_upd.
    destruct (IH f h l (o ++ o1) r o2 h') as (l' & A & B); try assumption; try len_tac. exists l'. rewrite A, <- app_assoc. auto.
  - cbn [app]. rewrite loop_S. cbn [Z.eqb Pos.eqb]. destruct (dollar_tval g u t r h l o X FT) as (l1 & -> & FT1). injection E1 as <-. cbn [rbind]. cbv beta iota. rewrite add_upd.
    destruct (IH f true l1 (o ++ zs "yyval." ++ g) r o2 h') as (l' & A & B); try assumption; try len_tac. exists l'. rewrite A, <- !app_assoc. auto.
  - cbn [app]. rewrite loop_S. cbn [Z.eqb Pos.eqb]. destruct (dollar_tref g i u u' t r h l o o1 X Y) as (l1 & -> & FT1); auto; [now apply acts_nonempty in H|]. cbn [rbind]. cbv beta iota. rewrite add_upd.
    destruct (IH f true l1 (o ++ o1) r o2 h') as (l' & A & B); try assumption; try len_tac. exists l'. rewrite A, <- !app_assoc. auto.
  - injection E1 as <-. cbn [app]. rewrite loop_S. cbn [Z.eqb Pos.eqb]. pose proof (acts_nonempty _ _ _ H) as NE. rewrite dollar_none by assumption. cbn [rbind]. change (IS_NAME1 36) with true. cbv iota.
    change (t ++ r) with ([] ++ t ++ r) at 1. rewrite (span_ok IS_NAME2 is_name2 IS_NAME2_iff [] (t ++ r)); [|constructor|]. 2: { apply not_head_app; auto. destruct t; [easy|]. cbn in *. tauto. }
    rewrite add_upd. destruct (IH f h l (o ++ [36%Z]) r o2 h') as (l' & A & B); try assumption; try len_tac. exists l'. rewrite A, <- !app_assoc. auto.
  - cbn [app]. rewrite loop_S. cbn [Z.eqb Pos.eqb]. rewrite at_loc. injection E1 as <-. cbn [rbind]. cbv beta iota. rewrite add_upd. destruct (IH f h l (o ++ zs "yyloc") r o2 h') as (l' & A & B); try assumption; try len_tac. exists l'. rewrite A, <- !app_assoc. auto.
  - cbn [app]. rewrite loop_S. cbn [Z.eqb Pos.eqb]. rewrite (at_ref i u t r h o1 X) by (auto; now apply acts_nonempty in H). cbn [rbind]. cbv beta iota. rewrite add_upd.
    destruct (IH f h l (o ++ o1) r o2 h') as (l' & A & B); try assumption; try len_tac. exists l'. rewrite A, <- app_assoc. auto.
  - injection E1 as <-. cbn [app]. rewrite loop_S. cbn [Z.eqb Pos.eqb]. pose proof (acts_nonempty _ _ _ H) as NE. rewrite at_none by assumption. cbn [rbind orb]. change (IS_NAME1 64) with false. cbv iota zeta.
    rewrite add_upd. destruct (IH f h l (o ++ [64%Z]) r o2 h') as (l' & A & B); try assumption; try len_tac. exists l'. rewrite A, <- !app_assoc. auto.
Qed.
End Act.
