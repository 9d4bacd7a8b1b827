(** C67: quoted literals in byacc. *)
From Coq Require Import String List Arith ZArith Bool Lia.
Import ListNotations.
From Verif Require Import Base LemonTableModel LemonPreModel LemonCodeModel ByaccParModel ByaccReaderModel ByaccRulesModel ByaccScanModel.
Open Scope rd_scope.

(** * How a sequence of characters may be written between quotes *)

Definition octal (c : Z) : Prop := (48 <= c <= 55)%Z.
Definition hex (c v : Z) : Prop := ((48 <= c <= 57 /\ v = c - 48) \/ (65 <= c <= 70 /\ v = c - 55) \/ (97 <= c <= 102 /\ v = c - 87))%Z.
Definition base (b : Z) (ds : list Z) : Z := fold_left (fun n d => n * b + d)%Z ds 0%Z.

(** The letters behind a backslash that stand for control characters. *)
Definition letters : list (Z * Z) := [(97, 7); (98, 8); (102, 12); (110, 10); (114, 13); (116, 9); (118, 11)]%Z.

(** [lit q l t]: the text t, with the closing quote q at its end, stands for the characters l. *)
Inductive lit (q : Z) : list Z -> txt -> Prop :=
| L_end : lit q [] [q]
| L_char c l t : c <> q -> c <> 10%Z -> c <> 92%Z -> lit q l t -> lit q (c :: l) (c :: t)
| L_line l t : lit q l t -> lit q l (92%Z :: 10%Z :: t)
| L_octal ds l t : Forall octal ds -> 1 <= List.length ds <= 3 -> (base 8 (map (fun d => d - 48) ds) <= 255)%Z ->
    (List.length ds < 3 -> match t with d :: _ => ~ octal d | [] => True end) -> lit q l t ->
    lit q (base 8 (map (fun d => (d - 48)%Z) ds) :: l) (92%Z :: ds ++ t)
| L_hex ds vs l t : Forall2 hex ds vs -> ds <> [] -> (base 16 vs <= 255)%Z ->
    match t with d :: _ => forall v, ~ hex d v | [] => True end -> lit q l t -> lit q (base 16 vs :: l) (92%Z :: 120%Z :: ds ++ t)
| L_letter e c l t : In (e, c) letters -> lit q l t -> lit q (c :: l) (92%Z :: e :: t)
| L_self c l t : c <> 10%Z -> c <> 120%Z -> ~ octal c -> ~ In c (map fst letters) -> lit q l t -> lit q (c :: l) (92%Z :: c :: t).

(** * The reader takes exactly these texts *)

Lemma IS_OCTAL_iff : forall c, IS_OCTAL c = true <-> octal c.
Proof. intros c. unfold IS_OCTAL, octal. rewrite andb_true_iff, !Z.leb_le. reflexivity. Qed.
Lemma IS_OCTAL_not : forall c, IS_OCTAL c = false <-> ~ octal c.
Proof. intros c. rewrite <- IS_OCTAL_iff. destruct (IS_OCTAL c); split; congruence. Qed.

Lemma hexval_iff : forall c v, hexval c = Some v <-> hex c v.
Proof.
  intros c v. unfold hexval, hex.
  destruct ((48 <=? c) && (c <=? 57))%Z eqn:E1; [|destruct ((65 <=? c) && (c <=? 70))%Z eqn:E2; [|destruct ((97 <=? c) && (c <=? 102))%Z eqn:E3]];
    rewrite ?andb_true_iff, ?andb_false_iff, ?Z.leb_le, ?Z.leb_gt in *; (split; [intros H; try injection H as <-; try discriminate; lia|intros H; try (f_equal; lia)]).
Qed.
Lemma hexval_none : forall c, hexval c = None <-> forall v, ~ hex c v.
Proof.
  intros c. split.
  - intros H v X. apply hexval_iff in X. congruence.
  - intros H. destruct (hexval c) as [v|] eqn:E; [|reflexivity]. apply hexval_iff in E. now destruct (H v).
Qed.

Lemma hex_range : forall c v, hex c v -> (0 <= v <= 15)%Z.
Proof. intros c v H. unfold hex in H. lia. Qed.

Lemma fold_hex_mono : forall vs n, (0 <= n)%Z -> Forall (fun v => 0 <= v <= 15)%Z vs -> (n <= fold_left (fun n d => n * 16 + d) vs n)%Z.
Proof.
  induction vs as [|v vs IH]; intros n N F; [cbn; lia|]. cbn [fold_left]. pose proof (Forall_inv F). cbn in H.
  specialize (IH (n * 16 + v)%Z ltac:(lia) (Forall_inv_tail F)). lia.
Qed.

Lemma hexrest_ok : forall ds vs n t, Forall2 hex ds vs -> (0 <= n)%Z -> (fold_left (fun n d => n * 16 + d) vs n <= 255)%Z ->
  match t with d :: _ => forall v, ~ hex d v | [] => False end -> hexrest n (ds ++ t) = ROk (fold_left (fun n d => n * 16 + d) vs n, t)%Z.
Proof.
  induction ds as [|d ds IH]; intros vs n t F N B E; inversion F as [|? v ? vs' H1 H2]; subst; cbn [app fold_left] in *.
  - destruct t as [|d t]; [easy|]. cbn [hexrest]. now rewrite (proj2 (hexval_none d) E).
  - cbn [hexrest]. rewrite (proj2 (hexval_iff d v) H1). pose proof (hex_range _ _ H1).
    assert (FV : Forall (fun v => 0 <= v <= 15)%Z vs') by (clear -H2; induction H2; constructor; eauto using hex_range).
    pose proof (fold_hex_mono vs' (n * 16 + v) ltac:(lia) FV).
    destruct (Z.ltb_spec 255 (n * 16 + v)); [lia|]. apply IH; auto. lia.
Qed.

Lemma hexrest_inv : forall t n m r, (0 <= n)%Z -> hexrest n t = ROk (m, r) -> exists ds vs, t = ds ++ r /\ Forall2 hex ds vs /\
  m = fold_left (fun n d => n * 16 + d)%Z vs n /\ (n <= 255 -> m <= 255)%Z /\ match r with d :: _ => forall v, ~ hex d v | [] => False end.
Proof.
  induction t as [|c t IH]; intros n m r N H; [discriminate|]. cbn [hexrest] in H. destruct (hexval c) as [v|] eqn:E.
  - destruct (Z.ltb_spec 255 (n * 16 + v)); [discriminate|]. apply hexval_iff in E. pose proof (hex_range _ _ E).
    apply IH in H; [|lia]. destruct H as (ds & vs & -> & F & -> & B & X). exists (c :: ds), (v :: vs). split; [reflexivity|]. split; [now constructor|]. split; [reflexivity|]. split; [|exact X]. intros _. apply B. lia.
  - injection H as <- <-. exists [], []. pose proof (proj1 (hexval_none c) E) as E'. split; [reflexivity|]. split; [constructor|]. split; [reflexivity|]. split; [auto|exact E'].
Qed.

Lemma lit_nonempty : forall q l t, lit q l t -> t <> [].
Proof. intros q l t H. destruct H; discriminate. Qed.

(** What escape does, by the head of the text. *)
Lemma letter_cases : forall c, In c (map fst letters) -> exists e, In (c, e) letters /\ forall r, escape (c :: r) = ROk (Some e, r).
Proof.
  intros c H. cbn in H. repeat (destruct H as [<- | H]; [eexists; split; [cbn; tauto|reflexivity]|]). destruct H.
Qed.

Lemma self_case : forall c r, c <> 10%Z -> c <> 120%Z -> ~ octal c -> ~ In c (map fst letters) -> escape (c :: r) = ROk (Some c, r).
Proof.
  intros c r H1 H2 H3 H4. unfold escape. rewrite (proj2 (Z.eqb_neq _ _) H1), (proj2 (IS_OCTAL_not _) H3), (proj2 (Z.eqb_neq _ _) H2).
  cbn in H4. repeat match goal with |- context [(c =? ?k)%Z] => destruct (Z.eqb_spec c k); [exfalso; subst; tauto|] end. reflexivity.
Qed.

Lemma octal_escape : forall ds t, Forall octal ds -> 1 <= List.length ds <= 3 -> (base 8 (map (fun d => d - 48) ds) <= 255)%Z -> t <> [] ->
  (List.length ds < 3 -> match t with d :: _ => ~ octal d | [] => True end) ->
  escape (ds ++ t) = ROk (Some (base 8 (map (fun d => (d - 48)%Z) ds)), t).
Proof.
  intros ds t F L B NE A. assert (OC : forall d, octal d -> (d =? 10)%Z = false) by (intros d H; apply Z.eqb_neq; unfold octal in H; lia).
  destruct t as [|e t]; [easy|]. destruct ds as [|a ds]; [cbn in L; lia|].
  pose proof (Forall_inv F) as Fa. pose proof (Forall_inv_tail F) as F'. cbn [app]. unfold escape. rewrite (OC a Fa), (proj2 (IS_OCTAL_iff a) Fa).
  destruct ds as [|b ds].
  { cbn [app]. rewrite (proj2 (IS_OCTAL_not e) (A ltac:(cbn; lia))). unfold base. cbn [map fold_left]. reflexivity. }
  pose proof (Forall_inv F') as Fb. pose proof (Forall_inv_tail F') as F''. cbn [app]. rewrite (proj2 (IS_OCTAL_iff b) Fb).
  destruct ds as [|c ds].
  { cbn [app]. rewrite (proj2 (IS_OCTAL_not e) (A ltac:(cbn; lia))). unfold base in *. cbn [map fold_left] in *.
    change (0 * 8 + (a - 48))%Z with (a - 48)%Z in *. destruct (Z.ltb_spec 255 ((a - 48) * 8 + (b - 48))); [lia|reflexivity]. }
  pose proof (Forall_inv F'') as Fc. cbn [app]. destruct ds; [|cbn in L; lia]. rewrite (proj2 (IS_OCTAL_iff c) Fc). unfold base in *. cbn [map fold_left app] in *.
  change (0 * 8 + (a - 48))%Z with (a - 48)%Z in *. destruct (Z.ltb_spec 255 (((a - 48) * 8 + (b - 48)) * 8 + (c - 48))); [lia|reflexivity].
Qed.

Lemma hex_escape : forall ds vs t, Forall2 hex ds vs -> ds <> [] -> (base 16 vs <= 255)%Z -> t <> [] ->
  match t with d :: _ => forall v, ~ hex d v | [] => True end -> escape (120%Z :: ds ++ t) = ROk (Some (base 16 vs), t).
Proof.
  intros ds vs t F NE B NT A. destruct F as [|d v ds vs H F]; [easy|]. cbn [app].
  change (escape (120%Z :: d :: ds ++ t)) with (match hexval d with None => RErr | Some n => x <- hexrest n (ds ++ t) ;; ROk (Some (fst x), snd x) end).
  rewrite (proj2 (hexval_iff d v) H). pose proof (hex_range _ _ H). unfold base in *. cbn [fold_left] in *. change (0 * 16 + v)%Z with v in *.
  rewrite (hexrest_ok ds vs v t F); [reflexivity| |exact B|now destruct t]. match goal with R : (0 <= v <= 15)%Z |- _ => exact (proj1 R) end.
Qed.

Lemma lit_read : forall q l t, (q = 39 \/ q = 34)%Z -> lit q l t -> forall f r, List.length t <= f -> literal f q (t ++ r) = ROk (l, r).
Proof.
  intros q l t Q H. induction H as [|c l t H1 H2 H3 H IH|l t H IH|ds l t F L B A H IH|ds vs l t F NE B A H IH|e c l t I H IH|c l t H1 H2 H3 H4 H IH];
    intros [|f] r Lf; try (cbn in Lf; lia).
  - cbn [app literal]. now rewrite Z.eqb_refl.
  - cbn [app literal]. rewrite (proj2 (Z.eqb_neq _ _) H1), (proj2 (Z.eqb_neq _ _) H2), (proj2 (Z.eqb_neq _ _) H3), (IH f r) by (cbn in Lf; lia). reflexivity.
  - cbn [app literal]. assert (E : (92 =? q)%Z = false) by (apply Z.eqb_neq; lia). rewrite E. cbn [Z.eqb Pos.eqb].
    pose proof (lit_nonempty _ _ _ H). destruct t as [|d t]; [easy|].
    change (escape (10%Z :: (d :: t) ++ r)) with (@ROk (option Z * txt) (None, (d :: t) ++ r)). cbn [rbind fst snd]. rewrite (IH f r) by (cbn in *; lia). reflexivity.
  - cbn [app literal]. assert (E : (92 =? q)%Z = false) by (apply Z.eqb_neq; lia). rewrite E. cbn [Z.eqb Pos.eqb]. rewrite <- app_assoc.
    rewrite octal_escape; auto; [|pose proof (lit_nonempty _ _ _ H); destruct t; easy|intros X; specialize (A X); pose proof (lit_nonempty _ _ _ H); destruct t; [easy|exact A]].
    cbn [rbind fst snd]. rewrite (IH f r) by (cbn in Lf; rewrite app_length in Lf; lia). reflexivity.
  - cbn [app literal]. assert (E : (92 =? q)%Z = false) by (apply Z.eqb_neq; lia). rewrite E. cbn [Z.eqb Pos.eqb]. rewrite <- app_assoc.
    rewrite (hex_escape ds vs); auto; [|pose proof (lit_nonempty _ _ _ H); destruct t; easy|pose proof (lit_nonempty _ _ _ H); destruct t; [easy|exact A]].
    cbn [rbind fst snd]. rewrite (IH f r) by (cbn in Lf; rewrite app_length in Lf; lia). reflexivity.
  - cbn [app literal]. assert (E : (92 =? q)%Z = false) by (apply Z.eqb_neq; lia). rewrite E. cbn [Z.eqb Pos.eqb].
    assert (X : escape (e :: t ++ r) = ROk (Some c, t ++ r)). { cbn in I. repeat (destruct I as [I|I]; [injection I as <- <-; reflexivity|]). destruct I. }
    rewrite X. cbn [rbind fst snd]. rewrite (IH f r) by (cbn in Lf; lia). reflexivity.
  - cbn [app literal]. assert (E : (92 =? q)%Z = false) by (apply Z.eqb_neq; lia). rewrite E. cbn [Z.eqb Pos.eqb].
    rewrite self_case; auto. cbn [rbind fst snd]. rewrite (IH f r) by (cbn in Lf; lia). reflexivity.
Qed.

Lemma octal_dec : forall c, octal c \/ ~ octal c.
Proof. intros c. unfold octal. lia. Qed.

(** One escape sequence of [t]. *)
Inductive esc : option Z -> txt -> txt -> Prop :=
| X_line r : r <> [] -> esc None (10%Z :: r) r
| X_octal ds r : Forall octal ds -> 1 <= List.length ds <= 3 -> (base 8 (map (fun d => d - 48) ds) <= 255)%Z ->
    (List.length ds < 3 -> match r with d :: _ => ~ octal d | [] => True end) -> esc (Some (base 8 (map (fun d => (d - 48)%Z) ds))) (ds ++ r) r
| X_hex ds vs r : Forall2 hex ds vs -> ds <> [] -> (base 16 vs <= 255)%Z ->
    match r with d :: _ => forall v, ~ hex d v | [] => True end -> esc (Some (base 16 vs)) (120%Z :: ds ++ r) r
| X_letter e c r : In (e, c) letters -> esc (Some c) (e :: r) r
| X_self c r : c <> 10%Z -> c <> 120%Z -> ~ octal c -> ~ In c (map fst letters) -> esc (Some c) (c :: r) r.

Lemma escape_inv : forall t o r, escape t = ROk (o, r) -> esc o t r.
Proof.
  intros [|c t] o r H; [discriminate|]. destruct (Z.eq_dec c 10) as [->|N1].
  { cbn in H. destruct t; [discriminate|]. injection H as <- <-. now constructor. }
  destruct (octal_dec c) as [O|NO].
  - unfold escape in H. rewrite (proj2 (Z.eqb_neq _ _) N1), (proj2 (IS_OCTAL_iff c) O) in H.
    destruct t as [|d t]; [discriminate|]. destruct (IS_OCTAL d) eqn:Ed.
    + destruct t as [|e t]; [discriminate|]. destruct (IS_OCTAL e) eqn:Ee.
      * destruct (Z.ltb_spec 255 (((c - 48) * 8 + (d - 48)) * 8 + (e - 48))); [discriminate|]. injection H as <- <-.
        apply IS_OCTAL_iff in Ed. apply IS_OCTAL_iff in Ee.
        change (esc (Some (base 8 (map (fun d => (d - 48)%Z) [c; d; e]))) ([c; d; e] ++ t) t). constructor; auto; cbn; unfold base; cbn; try lia.
      * destruct (Z.ltb_spec 255 ((c - 48) * 8 + (d - 48))); [discriminate|]. injection H as <- <-.
        apply IS_OCTAL_iff in Ed. apply IS_OCTAL_not in Ee.
        change (esc (Some (base 8 (map (fun d => (d - 48)%Z) [c; d]))) ([c; d] ++ e :: t) (e :: t)). constructor; auto; cbn; unfold base; cbn; try lia.
    + injection H as <- <-. apply IS_OCTAL_not in Ed.
      change (esc (Some (base 8 (map (fun d => (d - 48)%Z) [c]))) ([c] ++ d :: t) (d :: t)). constructor; auto; cbn; unfold base, octal in *; cbn; try lia.
  - destruct (Z.eq_dec c 120) as [->|N2].
    { destruct t as [|d t]; [discriminate|].
      change (match hexval d with None => RErr | Some n => x <- hexrest n t ;; ROk (Some (fst x), snd x) end = ROk (o, r)) in H.
      destruct (hexval d) as [n|] eqn:E; [|discriminate]. destruct (hexrest n t) as [[m r']| | | |] eqn:E2; try discriminate.
      cbn [rbind fst snd] in H. injection H as <- <-. apply hexval_iff in E. pose proof (hex_range _ _ E).
      apply hexrest_inv in E2; [|lia]. destruct E2 as (ds & vs & -> & F & -> & B & X).
      change (esc (Some (base 16 (n :: vs))) (120%Z :: (d :: ds) ++ r') r'). constructor; auto; [discriminate| |].
      - unfold base. cbn [fold_left]. change (0 * 16 + n)%Z with n. apply B. lia.
      - destruct r'; auto. }
    destruct (in_dec Z.eq_dec c (map fst letters)) as [IL|NL].
    + destruct (letter_cases c IL) as (e & I & X). rewrite X in H. injection H as <- <-. now constructor.
    + rewrite self_case in H; auto. injection H as <- <-. now constructor.
Qed.

Lemma read_lit : forall q, (q = 39 \/ q = 34)%Z -> forall f t l r, literal f q t = ROk (l, r) -> exists t0, t = t0 ++ r /\ lit q l t0.
Proof.
  intros q Q. induction f as [|f IH]; intros t l r H; [discriminate|]. destruct t as [|c t]; [discriminate|]. cbn [literal] in H.
  destruct (Z.eqb_spec c q) as [->|N]. { injection H as <- <-. exists [q]. split; [reflexivity|constructor]. }
  destruct (Z.eqb_spec c 10) as [->|N1]; [discriminate|]. destruct (Z.eqb_spec c 92) as [->|N2].
  - destruct (escape t) as [[o t2]| | | |] eqn:E; try discriminate. cbn [rbind fst snd] in H.
    destruct (literal f q t2) as [[l' r']| | | |] eqn:E2; try discriminate. cbn [rbind fst snd] in H. injection H as Hl <-.
    apply IH in E2. destruct E2 as (t0 & -> & L). apply escape_inv in E. pose proof (lit_nonempty _ _ _ L) as NE.
    inversion E; subst.
    + exists (92%Z :: 10%Z :: t0). split; [reflexivity|now constructor].
    + exists (92%Z :: ds ++ t0). split; [cbn [app]; now rewrite <- app_assoc|]. constructor; auto. intros X. specialize (H2 X). now destruct t0.
    + exists (92%Z :: 120%Z :: ds ++ t0). split; [cbn; now rewrite <- app_assoc|]. constructor; auto. now destruct t0.
    + exists (92%Z :: e :: t0). split; [reflexivity|now constructor].
    + exists (92%Z :: c :: t0). split; [reflexivity|now constructor].
  - destruct (literal f q t) as [[l' r']| | | |] eqn:E2; try discriminate. cbn [rbind fst snd] in H. injection H as <- <-.
    apply IH in E2. destruct E2 as (t0 & -> & L). exists (c :: t0). split; [reflexivity|now constructor].
Qed.

(** The reader of literals takes exactly the texts that stand for some characters, and finds these. *)
Theorem C67_literal : forall q t l r, (q = 39 \/ q = 34)%Z ->
  (literal (S (List.length t)) q t = ROk (l, r) <-> exists t0, t = t0 ++ r /\ lit q l t0).
Proof.
  intros q t l r Q. split; [now apply read_lit|]. intros (t0 & -> & L). apply (lit_read q l t0 Q L). rewrite app_length. lia.
Qed.
Print Assumptions C67_literal.

(** * The name of the symbol *)

Definition byte (c : Z) : Prop := (0 <= c <= 255)%Z.
Definition quote_of (l : list Z) : Z := if List.length l =? 1 then 39%Z else 34%Z.

Lemma divmod8 : forall c, byte c -> (c = (c / 64 mod 8) * 64 + (c / 8 mod 8) * 8 + c mod 8 /\ 0 <= c / 64 mod 8 <= 7 /\ 0 <= c / 8 mod 8 <= 7 /\ 0 <= c mod 8 <= 7)%Z.
Proof.
  intros c H. unfold byte in H. pose proof (Z.mod_pos_bound c 8 ltac:(lia)). pose proof (Z.mod_pos_bound (c / 8) 8 ltac:(lia)). pose proof (Z.mod_pos_bound (c / 64) 8 ltac:(lia)).
  pose proof (Z.div_mod c 8 ltac:(lia)). pose proof (Z.div_mod (c / 8) 8 ltac:(lia)). rewrite Z.div_div in H4 by lia. change (8 * 8)%Z with 64%Z in H4.
  assert (c / 64 < 8)%Z by (apply Z.div_lt_upper_bound; lia). assert (0 <= c / 64)%Z by (apply Z.div_pos; lia).
  rewrite (Z.mod_small (c / 64) 8) in * by lia. lia.
Qed.

Lemma name_char_lit : forall q c l t, (q = 39 \/ q = 34)%Z -> byte c -> lit q l t -> lit q (c :: l) (name_char q c ++ t).
Proof.
  intros q c l t Q B L. unfold name_char. destruct ((c =? 92) || (c =? q))%Z eqn:E.
  { rewrite orb_true_iff, !Z.eqb_eq in E. cbn [app]. apply L_self; auto; try (destruct E; unfold octal; lia).
    cbn. destruct E as [-> | ->]; [|destruct Q as [-> | ->]]; intros X; repeat (destruct X as [X|X]; [discriminate|]); destruct X. }
  rewrite orb_false_iff, !Z.eqb_neq in E. destruct (isprint c) eqn:P.
  { unfold isprint in P. rewrite andb_true_iff, !Z.leb_le in P. cbn [app]. constructor; auto; lia. }
  repeat match goal with |- context [(c =? ?k)%Z] => destruct (Z.eqb_spec c k); [subst; cbn [app]; apply L_letter; [cbn; tauto|exact L]|] end.
  pose proof (divmod8 c B) as (EC & A1 & A2 & A3).
  set (a := (c / 64 mod 8)%Z) in *. set (b := (c / 8 mod 8)%Z) in *. set (d := (c mod 8)%Z) in *.
  assert (X : base 8 (map (fun d => (d - 48)%Z) [a + 48; b + 48; d + 48]%Z) = c) by (unfold base; cbn [map fold_left]; lia).
  rewrite <- X at 1. change ((92%Z :: [a + 48; b + 48; d + 48]%Z) ++ t) with (92%Z :: [a + 48; b + 48; d + 48]%Z ++ t).
  apply L_octal; auto.
  - repeat constructor; unfold octal; lia.
  - cbn. lia.
  - rewrite X. unfold byte in B. lia.
  - cbn. lia.
Qed.

(** The name is itself a way to write the literal. *)
Theorem C67_name_is_literal : forall l, Forall byte l -> exists t, literal_name l = quote_of l :: t /\ lit (quote_of l) l t.
Proof.
  intros l F. unfold literal_name. exists (flat_map (name_char (quote_of l)) l ++ [quote_of l]). split; [reflexivity|].
  assert (Q : (quote_of l = 39 \/ quote_of l = 34)%Z) by (unfold quote_of; destruct (_ =? _); auto). revert Q. generalize (quote_of l) as q. intros q Q.
  induction F as [|c l B F IH]; [constructor|]. cbn [flat_map]. rewrite <- app_assoc. now apply name_char_lit.
Qed.
Print Assumptions C67_name_is_literal.

(** Different sequences of characters have different names, whatever the quotes. *)
Theorem C67_name_injective : forall l l', Forall byte l -> Forall byte l' -> literal_name l = literal_name l' -> l = l'.
Proof.
  intros l l' F F' E. destruct (C67_name_is_literal l F) as (t & E1 & L1). destruct (C67_name_is_literal l' F') as (t' & E2 & L2).
  rewrite E1, E2 in E. injection E as E3 ->. assert (Q : (quote_of l = 39 \/ quote_of l = 34)%Z) by (unfold quote_of; destruct (_ =? _); auto).
  rewrite <- E3 in L2. pose proof (lit_read _ _ _ Q L1 (List.length t') [] (le_n _)) as R1. pose proof (lit_read _ _ _ Q L2 (List.length t') [] (le_n _)) as R2.
  rewrite R1 in R2. now injection R2.
Qed.
Print Assumptions C67_name_injective.

(** * The symbol *)

Lemma lit_bytes : forall q l t, lit q l t -> Forall (fun c => 1 <= c <= 255)%Z t -> Forall byte l.
Proof.
  intros q l t H. induction H as [|c l t H1 H2 H3 H IH|l t H IH|ds l t F L B A H IH|ds vs l t F NE B A H IH|e c l t I H IH|c l t H1 H2 H3 H4 H IH]; intros T.
  - constructor.
  - pose proof (Forall_inv T). cbn in H0. constructor; [unfold byte; lia|]. apply IH. now apply Forall_inv_tail in T.
  - apply IH. now do 2 apply Forall_inv_tail in T.
  - apply Forall_inv_tail in T. apply Forall_app in T. constructor; [|now apply IH]. split; [|exact B].
    clear -F. unfold base. assert (X : forall n, (0 <= n)%Z -> (0 <= fold_left (fun n d => n * 8 + d) (map (fun d => d - 48) ds) n)%Z); [|apply X; lia].
    induction F as [|d ds D F IH]; intros n N; [exact N|]. cbn [map fold_left]. apply IH. unfold octal in D. lia.
  - do 2 apply Forall_inv_tail in T. apply Forall_app in T. constructor; [|now apply IH]. split; [|exact B].
    clear -F. unfold base. assert (X : forall n, (0 <= n)%Z -> (0 <= fold_left (fun n d => n * 16 + d) vs n)%Z); [|apply X; lia].
    induction F as [|d v ds vs D F IH]; intros n N; [exact N|]. cbn [fold_left]. apply IH. pose proof (hex_range _ _ D). lia.
  - constructor; [|apply IH; now do 2 apply Forall_inv_tail in T]. unfold byte. cbn in I. repeat (destruct I as [I|I]; [injection I as <- <-; lia|]). destruct I.
  - apply Forall_inv_tail in T. pose proof (Forall_inv T). cbn in H0. constructor; [unfold byte; lia|]. apply IH. now apply Forall_inv_tail in T.
Qed.

(** * Examples *)

Example ex67 : lit 39 [65; 10; 83; 92]%Z (zs "\x41\n\123\\'") /\ literal_name [65%Z] = zs "'A'" /\ literal_name [65; 10; 200]%Z = 34%Z :: zs "A\n\310" ++ [34%Z].
Proof.
  split; [|split; vm_compute; reflexivity]. pose proof (proj1 (C67_literal 39 (zs "\x41\n\123\\'") [65; 10; 83; 92]%Z [] (or_introl eq_refl)) eq_refl) as (t0 & E & L). rewrite app_nil_r in E. rewrite E. exact L.
Qed.

(** Not all that C takes for a character constant: the octal number may not exceed 255. *)
Example ex67_range : literal 10 39 (zs "\777'") = RErr.
Proof. reflexivity. Qed.

(** A literal of one character in double quotes is the same symbol as one in single quotes. *)
Theorem C67_quotes : forall l t t' r r' f f', lit 39 l t -> lit 34 l t' -> List.length t <= f -> List.length t' <= f' ->
  exists n, (exists s, literal f 39 (t ++ r) = ROk (s, r) /\ literal_name s = n) /\ (exists s, literal f' 34 (t' ++ r') = ROk (s, r') /\ literal_name s = n).
Proof.
  intros l t t' r r' f f' H H' F F'. exists (literal_name l). split; exists l; (split; [|reflexivity]); apply lit_read; auto.
Qed.
Print Assumptions C67_quotes.
