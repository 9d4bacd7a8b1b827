(** The tokens of lemon's token macros, name tables and header file. *)
From Coq Require Import String List Arith ZArith NArith Bool Lia.
Import ListNotations.
From Verif Require Import Base SpecGrammar ByaccScanModel LemonTableModel LemonPreModel LemonCodeModel Prop_LemonPrintf SpecCode LemonCodeProof LemonReprintModel SpecCText CTextProof LemonTableTextModel LemonTableTextProof
  ByaccTableTextProof ByaccNameTextProof LemonNameTextModel.
Local Open Scope res_scope.

(** * Lines *)

Lemma nl_in : forall (t : txt), Forall (fun c => wordch c = true) t -> ~ In 10%Z t.
Proof. intros t F I. rewrite Forall_forall in F. specialize (F _ I). discriminate. Qed.
Lemma repeat_in : forall n (c : Z), In c (repeat 32%Z n) -> c = 32%Z.
Proof. intros n c I. now apply repeat_spec in I. Qed.

(** #define with blanks between the word and the number. *)
Lemma define_pad_lexed : forall w v n m, ident w -> int_ok v ->
  lexed true (zs "#define " ++ (w ++ repeat 32%Z n) ++ zs " " ++ pad_left m (zdec v) ++ nl) [cdeft w v] true.
Proof.
  intros w v n m I V u us H. unfold pad_left. set (k := m - List.length (zdec v)).
  replace ((zs "#define " ++ (w ++ repeat 32%Z n) ++ zs " " ++ (repeat 32%Z k ++ zdec v) ++ nl) ++ u) with (35%Z :: ((zs "define" ++ zs " ") ++ (w ++ repeat 32%Z n ++ 32%Z :: repeat 32%Z k ++ zdec v)) ++ 10%Z :: u) by (rewrite <- !app_assoc; cbn [app]; rewrite <- !app_assoc; reflexivity).
  cbn [app]. apply cl_dir; [| |exact H].
  - intros K. apply in_app_iff in K as [K|K]; [cbn in K; repeat (destruct K as [K|K]; [discriminate K|]); exact K|].
    apply in_app_iff in K as [K|K]; [exact (nl_in w (ident_chars w I) K)|]. apply in_app_iff in K as [K|K]; [apply repeat_in in K; discriminate|].
    destruct K as [K|K]; [discriminate|]. apply in_app_iff in K as [K|K]; [apply repeat_in in K; discriminate|]. exact (zdec_nonl v V K).
  - apply (word_lexed false (zs "define") ltac:(idn) _ (CW w :: cnum v)). apply word_clex; [exact I|destruct n; (split; [reflexivity|discriminate])|].
    change (cnum v) with ([] ++ cnum v). apply (lexed_blanks false n). change (32%Z :: repeat 32%Z k ++ zdec v) with (repeat 32%Z (S k) ++ zdec v). change (cnum v) with ([] ++ cnum v). apply (lexed_blanks false (S k)).
    pose proof (num_clex false v [] [] V Logic.I (cl_end _)) as Q. now rewrite !app_nil_r in Q.
Qed.

Lemma token_define_lexed : forall w p nm i, ident (p ++ nm i) -> int_ok (Z.of_nat i) -> lexed true (token_define w p nm i) [cdeft (p ++ nm i) (Z.of_nat i)] true.
Proof.
  intros w p nm i I V. unfold token_define, pad_right, ndec. rewrite (app_assoc p). rewrite (app_assoc p (nm i)). rewrite <- (app_assoc (p ++ nm i)). rewrite (app_assoc (p ++ nm i)).
  apply define_pad_lexed; assumption.
Qed.

Lemma lines_lexed : forall {A} (f : A -> txt) (g : A -> list ctok) l, (forall x, In x l -> lexed true (f x) (g x) true) -> lexed true (flat_map f l) (flat_map g l) true.
Proof.
  intros A f g. induction l as [|x l IH]; intros H; cbn [flat_map]; [apply lexed_nil|]. apply (lexed_app true _ _ true); [apply H; now left|]. apply IH. intros y I. apply H. now right.
Qed.

(** #word word *)
Lemma dir_lexed : forall a w, ident (zs a) -> ident w -> lexed true (zs "#" ++ zs a ++ zs " " ++ w ++ nl) [CD [W a; CW w]] true.
Proof.
  intros a w A I u us H. replace ((zs "#" ++ zs a ++ zs " " ++ w ++ nl) ++ u) with (35%Z :: ((zs a ++ zs " ") ++ w) ++ 10%Z :: u) by (rewrite <- !app_assoc; reflexivity).
  cbn [app]. apply cl_dir; [| |exact H].
  - intros K. apply in_app_iff in K as [K|K]; [|exact (nl_in w (ident_chars w I) K)]. apply in_app_iff in K as [K|K]; [exact (nl_in _ (ident_chars _ A) K)|]. cbn in K. destruct K as [K|K]; [discriminate|exact K].
  - apply (word_lexed false (zs a) A _ [CW w]). rewrite <- (app_nil_r w) at 1. apply word_clex; [exact I|exact Logic.I|apply cl_end].
Qed.

Definition defines_tokens (p : txt) (nm : nat -> txt) (nterm : nat) : list ctok := flat_map (fun i => [cdeft (p ++ nm i) (Z.of_nat i)]) (seq 1 (nterm - 1)).

Lemma token_defines_lexed : forall mh p nm nterm, (mh = false -> ident (p ++ nm 1)) -> (forall i, 0 < i < nterm -> ident (p ++ nm i)) -> int_ok (Z.of_nat nterm) ->
  lexed true (token_defines mh p nm nterm) (CD (if mh then [W "if"; W "INTERFACE"] else [W "ifndef"; CW (p ++ nm 1)]) :: defines_tokens p nm nterm ++ [CD [W "endif"]]) true.
Proof.
  intros mh p nm nterm I1 I V. unfold token_defines.
  change (CD (if mh then [W "if"; W "INTERFACE"] else [W "ifndef"; CW (p ++ nm 1)]) :: defines_tokens p nm nterm ++ [CD [W "endif"]])
    with ([CD (if mh then [W "if"; W "INTERFACE"] else [W "ifndef"; CW (p ++ nm 1)])] ++ defines_tokens p nm nterm ++ [CD [W "endif"]]).
  apply (lexed_app true _ _ true).
  { destruct mh; [apply line_lexed; [vm_compute; reflexivity|reflexivity]|]. pose proof (dir_lexed "ifndef" (p ++ nm 1) ltac:(idn) (I1 eq_refl)) as D. rewrite <- (app_assoc p) in D. exact D. }
  apply (lexed_app true _ _ true); [|apply line_lexed; [vm_compute; reflexivity|reflexivity]].
  apply lines_lexed. intros i J. apply in_seq in J. apply token_define_lexed; [apply I; lia|unfold int_ok in *; lia].
Qed.

(** * Tables of strings *)

Definition strings (l : list txt) : list ctok := flat_map (fun s => [CS s; CP 44%Z]) l.
Definition string_array (n : string) (l : list txt) : list ctok :=
  [W "static"; W "const"; W "char"; CP 42%Z; W "const"; W n; CP 91%Z; CP 93%Z; CP 61%Z; CP 123%Z] ++ strings l ++ [CP 125%Z; CP 59%Z].

Lemma strings_map : forall {A} (f : A -> txt) l, strings (map f l) = flat_map (fun x => [CS (f x); CP 44%Z]) l.
Proof. intros A f l. induction l as [|x l IH]; [reflexivity|]. cbn [map]. unfold strings in *. cbn [flat_map]. now rewrite IH. Qed.

Lemma string_row_lexed : forall a m i s, (a = zs " " \/ a = zs "  ") -> Forall strch s -> lexed true (a ++ zs "/* " ++ pad_left m (ndec i) ++ zs " */ """ ++ s ++ zs """," ++ nl) [CS s; CP 44%Z] true.
Proof.
  intros a m i s A F. replace (a ++ zs "/* " ++ pad_left m (ndec i) ++ zs " */ """ ++ s ++ zs """," ++ nl)
    with (a ++ (zs "/*" ++ (zs " " ++ pad_left m (ndec i) ++ zs " ") ++ zs "*/") ++ zs " " ++ (zs """" ++ s ++ zs """,") ++ nl) by (rewrite <- !app_assoc; reflexivity).
  change ([CS s; CP 44%Z]) with ([] ++ [] ++ [] ++ [CS s; CP 44%Z] ++ []).
  apply (lexed_app true _ _ true). { destruct A as [->| ->]; [apply (lexed_blanks true 1)|apply (lexed_blanks true 2)]. }
  apply (lexed_app true _ _ true). { apply comment_lexed. nostar. }
  apply (lexed_app true _ _ true); [apply blank_lexed|]. apply (lexed_app true _ _ false); [apply str_lexed; now apply cstr_plain|apply nl_lexed].
Qed.

Lemma names_lexed : forall nm nsym, (forall i, i < nsym -> Forall strch (nm i)) -> lexed true (names_text nm nsym) (string_array "yyTokenName" (map nm (seq 0 nsym))) true.
Proof.
  intros nm nsym H. unfold names_text, string_array. rewrite app_assoc. apply (lexed_app true _ _ true); [apply line_lexed; [vm_compute; reflexivity|reflexivity]|].
  apply (lexed_app true _ _ true); [|apply close_lexed]. rewrite strings_map.
  apply lines_lexed. intros i I. apply in_seq in I. unfold name_row. replace (zs "  /* ") with (zs "  " ++ zs "/* ") by reflexivity. rewrite <- app_assoc. apply string_row_lexed; [now right|apply H; lia].
Qed.

(** The symbols of an element of a right-hand side. *)
Definition members (e : elem) : list nat := match e with ESym s => [s] | EMulti l => l end.

Lemma rule_print_chars : forall nm r, (forall i, In i (r_lhs r :: flat_map members (r_rhs r)) -> Forall strch (nm i)) -> Forall strch (rule_print nm r).
Proof.
  intros nm r H. unfold rule_print. assert (P : forall s, Forall strch (zs s) -> Forall strch (zs s)) by auto.
  apply Forall_app. split; [apply H; now left|]. apply Forall_app. split; [repeat constructor; discriminate|].
  assert (G : forall l, (forall e i, In e l -> In i (members e) -> Forall strch (nm i)) -> Forall strch (flat_map (elem_text nm) l)).
  { induction l as [|e l IH]; intros K; cbn [flat_map]; [constructor|]. apply Forall_app. split; [|apply IH; intros; eapply K; eauto; now right].
    assert (SP : Forall strch (zs " ")) by (repeat constructor; discriminate). destruct e as [s|[|s l0]]; cbn [elem_text].
    - apply Forall_app. split; [exact SP|]. apply (K (ESym s)); [now left|now left].
    - exact SP.
    - apply Forall_app. split; [exact SP|]. apply Forall_app. split; [apply (K (EMulti (s :: l0))); [now left|now left]|].
      assert (Q : forall l1, (forall i, In i l1 -> Forall strch (nm i)) -> Forall strch (flat_map (fun s => zs "|" ++ nm s) l1)).
      { induction l1 as [|x l1 IQ]; intros J; cbn [flat_map]; [constructor|]. apply Forall_app. split; [apply Forall_app; split; [repeat constructor; discriminate|apply J; now left]|]. apply IQ. intros i I. apply J. now right. }
      apply Q. intros i I. apply (K (EMulti (s :: l0))); [now left|now right]. }
  apply G. intros e i I J. apply H. right. apply in_flat_map. eauto.
Qed.

Lemma rulename_rows_lexed : forall nm l i, Forall (fun r => Forall strch (rule_print nm r)) l -> lexed true (rulename_rows nm i l) (strings (map (rule_print nm) l)) true.
Proof.
  intros nm l. induction l as [|r l IH]; intros i F; cbn [rulename_rows map]; [apply lexed_nil|]. inversion F; subst.
  change (strings (rule_print nm r :: map (rule_print nm) l)) with ([CS (rule_print nm r); CP 44%Z] ++ strings (map (rule_print nm) l)). apply (lexed_app true _ _ true); [|now apply IH].
  unfold writeRuleText. replace (zs " /* ") with (zs " " ++ zs "/* ") by reflexivity. rewrite <- app_assoc. apply string_row_lexed; [now left|assumption].
Qed.

(** * The header *)

Definition enum_tokens (p : txt) (nm : nat -> txt) (nterm : nat) : list ctok :=
  [W "enum"; CW (p ++ zs "LemonEnum"); CP 123%Z] ++ flat_map (fun i => [CW (p ++ nm i); CP 61%Z; CN (Z.of_nat i); CP 44%Z]) (seq 1 (nterm - 1)) ++
  [CW (p ++ zs "LEMON_LAST_TOKEN"); CP 61%Z; CN (Z.of_nat nterm); CP 125%Z; CP 59%Z].

Lemma equals_lexed : forall b, lexed b (zs "= ") [CP 61%Z] false.
Proof. intros b u us H. cbn [zs app]. apply cl_punct; [repeat split; try lia; discriminate|discriminate|discriminate|]. apply cl_blank; [now left|exact H]. Qed.

Lemma header_lexed : forall p nm nterm, ident (p ++ zs "LemonEnum") -> ident (p ++ zs "LEMON_LAST_TOKEN") -> (forall i, 0 < i < nterm -> ident (p ++ nm i)) -> int_ok (Z.of_nat nterm) ->
  lexed true (header_text p nm nterm) (enum_tokens p nm nterm) true.
Proof.
  intros p nm nterm I1 I2 I V. unfold header_text, enum_tokens.
  replace (zs "enum " ++ p ++ zs "LemonEnum {" ++ nl ++ flat_map (enum_row p nm) (seq 1 (nterm - 1)) ++ zs " " ++ p ++ zs "LEMON_LAST_TOKEN" ++ zs " = " ++ pad_left 3 (ndec nterm) ++ nl ++ zs "};" ++ nl)
    with (((zs "enum" ++ zs " ") ++ ((p ++ zs "LemonEnum") ++ zs " ") ++ zs "{" ++ nl) ++ flat_map (enum_row p nm) (seq 1 (nterm - 1)) ++ zs " " ++ ((p ++ zs "LEMON_LAST_TOKEN") ++ zs " ") ++ zs "= " ++ (pad_left 3 (ndec nterm) ++ nl) ++ zs "};" ++ nl)
    by (rewrite <- !app_assoc; reflexivity).
  apply (lexed_app true _ _ true).
  { change [W "enum"; CW (p ++ zs "LemonEnum"); CP 123%Z] with ([W "enum"] ++ [CW (p ++ zs "LemonEnum")] ++ [CP 123%Z]). apply (lexed_app true _ _ false); [apply word_lexed; idn|].
    apply (lexed_app false _ _ false); [now apply word_lexed|]. apply line_lexed; [vm_compute; reflexivity|reflexivity]. }
  apply (lexed_app true _ _ true).
  { apply lines_lexed. intros i J. apply in_seq in J. unfold enum_row.
    replace (zs " " ++ p ++ nm i ++ zs " = " ++ pad_left 3 (ndec i) ++ zs "," ++ nl) with (zs " " ++ ((p ++ nm i) ++ zs " ") ++ zs "= " ++ (pad_left 3 (ndec i) ++ [44%Z]) ++ nl) by (rewrite <- !app_assoc; reflexivity).
    replace [CW (p ++ nm i); CP 61%Z; CN (Z.of_nat i); CP 44%Z] with ([] ++ [CW (p ++ nm i)] ++ [CP 61%Z] ++ (cnum (Z.of_nat i) ++ [CP 44%Z]) ++ []) by (unfold cnum; destruct (Z.ltb_spec (Z.of_nat i) 0); [lia|reflexivity]).
    apply (lexed_app true _ _ true); [apply blank_lexed|]. apply (lexed_app true _ _ false); [apply word_lexed, I; lia|]. apply (lexed_app false _ _ false); [apply equals_lexed|].
    apply (lexed_app false _ _ false); [apply comma_lexed; unfold int_ok in *; lia|apply nl_lexed]. }
  replace [CW (p ++ zs "LEMON_LAST_TOKEN"); CP 61%Z; CN (Z.of_nat nterm); CP 125%Z; CP 59%Z] with ([] ++ [CW (p ++ zs "LEMON_LAST_TOKEN")] ++ [CP 61%Z] ++ cnum (Z.of_nat nterm) ++ [CP 125%Z; CP 59%Z])
    by (unfold cnum; destruct (Z.ltb_spec (Z.of_nat nterm) 0); [lia|reflexivity]).
  apply (lexed_app true _ _ true); [apply blank_lexed|]. apply (lexed_app true _ _ false); [now apply word_lexed|]. apply (lexed_app false _ _ false); [apply equals_lexed|].
  apply (lexed_app false _ _ true); [|apply close_lexed]. intros u us H. unfold pad_left. rewrite <- !app_assoc. change (cnum (Z.of_nat nterm) ++ us) with ([] ++ (cnum (Z.of_nat nterm) ++ us)).
  apply (lexed_blanks false). apply num_clex; [exact V|split; [reflexivity|discriminate]|]. now apply cl_line.
Qed.

(** * An old header *)

Lemma fgets_line : forall a n r, ~ In 10%Z a -> List.length a < n -> fgets n (a ++ 10%Z :: r) = (a ++ [10%Z], r).
Proof.
  induction a as [|c a IH]; intros n r N L; (destruct n as [|n]; [cbn in L; lia|]); cbn [app fgets]; [reflexivity|].
  destruct (Z.eqb_spec c 10) as [->|_]; [exfalso; apply N; now left|]. rewrite IH; [reflexivity|intros I; apply N; now right|cbn in L; lia].
Qed.
Lemma fgets_split : forall n t a b, fgets n t = (a, b) -> t = a ++ b.
Proof.
  induction n as [|n IH]; intros t a b E; cbn [fgets] in E; [injection E as <- <-; reflexivity|]. destruct t as [|c t]; [injection E as <- <-; reflexivity|].
  destruct (c =? 10)%Z; [injection E as <- <-; reflexivity|]. destruct (fgets n t) as [x y] eqn:F. injection E as <- <-. cbn [app]. f_equal. now apply IH.
Qed.
Lemma text_eqb_ok : forall a b, text_eqb a b = true <-> a = b.
Proof. intros a b. unfold text_eqb. destruct (list_eq_dec Z.eq_dec a b); split; congruence. Qed.

Lemma unchanged_ok : forall p nm k i old, (forall j, i <= j < i + k -> ~ In 10%Z p /\ ~ In 10%Z (nm j) /\ int_ok (Z.of_nat j) /\ List.length (token_define 3 p nm j) < LINESIZE) ->
  exists b, unchanged p nm k i old = Ok b /\ (b = true <-> old = flat_map (token_define 3 p nm) (seq i k)).
Proof.
  intros p nm. induction k as [|k IH]; intros i old H; cbn [unchanged seq flat_map].
  - eexists. split; [reflexivity|]. destruct old; split; congruence.
  - destruct (H i ltac:(lia)) as (N1 & N2 & V & L). destruct (IH (S i) (snd (fgets (LINESIZE - 1) old))) as (b & E & B); [intros j J; apply H; lia|].
    assert (D : exists a, token_define 3 p nm i = a ++ [10%Z] /\ ~ In 10%Z a).
    { exists (zs "#define " ++ p ++ pad_right 30 (nm i) ++ zs " " ++ pad_left 3 (ndec i)). split; [unfold token_define; now rewrite <- !app_assoc|].
      unfold pad_left, pad_right, ndec. intros K. apply in_app_iff in K as [K|K]; [vm_compute in K; repeat (destruct K as [K|K]; [discriminate K|]); exact K|].
      apply in_app_iff in K as [K|K]; [contradiction|]. apply in_app_iff in K as [K|K].
      { apply in_app_iff in K as [K|K]; [contradiction|apply repeat_in in K; discriminate]. }
      apply in_app_iff in K as [K|K]; [vm_compute in K; destruct K as [K|K]; [discriminate K|exact K]|].
      apply in_app_iff in K as [K|K]; [apply repeat_in in K; discriminate|exact (zdec_nonl _ V K)]. }
    destruct D as (a & D & NA). destruct old as [|c old].
    + exists false. split; [reflexivity|]. split; [discriminate|]. intros X. exfalso. rewrite D in X. destruct a; discriminate.
    + destruct (fgets (LINESIZE - 1) (c :: old)) as [line rest] eqn:F. cbn [snd] in *. destruct (Nat.ltb_spec (List.length (token_define 3 p nm i)) LINESIZE); [|lia].
      destruct (text_eqb line (token_define 3 p nm i)) eqn:T.
      * exists b. split; [exact E|]. apply text_eqb_ok in T. rewrite (fgets_split _ _ _ _ F), T. rewrite B. split; [intros ->; reflexivity|apply app_inv_head].
      * exists false. split; [reflexivity|]. split; [discriminate|]. intros X. exfalso. rewrite X, D, <- app_assoc in F. cbn [app] in F. rewrite fgets_line in F; [|exact NA|rewrite D, app_length in L; cbn in L; lia].
        injection F as F1 F2. rewrite <- D in F1. rewrite F1 in T. assert (text_eqb line line = true) by (now apply text_eqb_ok). congruence.
Qed.

(** * The text of a rule tells the rule *)

(** A name that no blank or bar and nothing empty hides. *)
Definition solid (n : txt) : Prop := n <> [] /\ ~ In 32%Z n /\ ~ In 124%Z n.

Lemma cut : forall a b x y : txt, ~ In 32%Z a -> ~ In 124%Z a -> ~ In 32%Z b -> ~ In 124%Z b ->
  (x = [] \/ hd 0%Z x = 32%Z \/ hd 0%Z x = 124%Z) -> (y = [] \/ hd 0%Z y = 32%Z \/ hd 0%Z y = 124%Z) -> a ++ x = b ++ y -> a = b /\ x = y.
Proof.
  intros a b x y A1 A2 B1 B2 X Y. apply (split_unique (fun c => c <> 32 /\ c <> 124)%Z (fun c => c = 32 \/ c = 124)%Z).
  - intros c. lia.
  - apply Forall_forall. intros c I. split; intros ->; contradiction.
  - apply Forall_forall. intros c I. split; intros ->; contradiction.
  - destruct x; [exact Logic.I|]. cbn in X. destruct X as [X|X]; [discriminate|exact X].
  - destruct y; [exact Logic.I|]. cbn in Y. destruct Y as [Y|Y]; [discriminate|exact Y].
Qed.

Section Tells.
Variable nm : nat -> txt.
Variable D : nat -> Prop.
Hypothesis SOL : forall i, D i -> solid (nm i).
Hypothesis INJ : forall i j, D i -> D j -> nm i = nm j -> i = j.

Definition rest_of (l : list elem) : txt := flat_map (elem_text nm) l.
Lemma rest_hd : forall l, rest_of l = [] \/ hd 0%Z (rest_of l) = 32%Z \/ hd 0%Z (rest_of l) = 124%Z.
Proof. intros [|[s|[|s l0]] l]; [now left|right; left; reflexivity|right; left; reflexivity|right; left; reflexivity]. Qed.

Lemma bars_tell : forall l l' x y, Forall D l -> Forall D l' -> (x = [] \/ hd 0%Z x = 32%Z) -> (y = [] \/ hd 0%Z y = 32%Z) ->
  flat_map (fun s => zs "|" ++ nm s) l ++ x = flat_map (fun s => zs "|" ++ nm s) l' ++ y -> l = l' /\ x = y.
Proof.
  assert (HD : forall l (x : txt), (x = [] \/ hd 0%Z x = 32%Z) -> let z := flat_map (fun s => zs "|" ++ nm s) l ++ x in z = [] \/ hd 0%Z z = 32%Z \/ hd 0%Z z = 124%Z).
  { intros [|s l] x X; cbn [flat_map app]; [destruct X as [->|X]; auto|]. right. right. reflexivity. }
  induction l as [|s l IH]; intros [|s' l'] x y F F' X Y E; cbn [flat_map app] in E.
  - auto.
  - exfalso. subst x. destruct X as [X|X]; [discriminate|]. cbn in X. discriminate.
  - exfalso. subst y. destruct Y as [Y|Y]; [discriminate|]. cbn in Y. discriminate.
  - inversion F; subst. inversion F'; subst. rewrite <- !app_assoc in E. cbn [zs app] in E. apply (f_equal (@tl Z)) in E. cbn [tl] in E.
    destruct (SOL s) as (_ & S1 & S2); auto. destruct (SOL s') as (_ & T1 & T2); auto.
    apply cut in E as (E1 & E2); auto. apply INJ in E1; auto. subst s'. destruct (IH l' x y) as (-> & ->); auto.
Qed.

Lemma rest_tell : forall l l', Forall (fun e => members e <> [] /\ Forall D (members e)) l -> Forall (fun e => members e <> [] /\ Forall D (members e)) l' ->
  rest_of l = rest_of l' -> map members l = map members l'.
Proof.
  assert (ET : forall e, members e <> [] -> exists s l, members e = s :: l /\ elem_text nm e = 32%Z :: nm s ++ flat_map (fun s => zs "|" ++ nm s) l).
  { intros [s|[|s l]] N; [exists s, []; split; [reflexivity|]; cbn [elem_text flat_map]; rewrite app_nil_r; reflexivity|contradiction|exists s, l; split; reflexivity]. }
  assert (HB : forall l, rest_of l = [] \/ hd 0%Z (rest_of l) = 32%Z) by (intros [|[s|[|s l0]] l]; [now left|right; reflexivity|right; reflexivity|right; reflexivity]).
  assert (HD : forall l (x : txt), (x = [] \/ hd 0%Z x = 32%Z) -> let z := flat_map (fun s => zs "|" ++ nm s) l ++ x in z = [] \/ hd 0%Z z = 32%Z \/ hd 0%Z z = 124%Z).
  { intros [|s l] x X; cbn [flat_map app]; [destruct X as [->|X]; auto|]. right. right. reflexivity. }
  induction l as [|e l IH]; intros [|e' l'] F F' E.
  - reflexivity.
  - exfalso. inversion F' as [|? ? (N & _)]; subst. destruct (ET e' N) as (s & m & _ & T). unfold rest_of in E. cbn [flat_map] in E. rewrite T in E. discriminate.
  - exfalso. inversion F as [|? ? (N & _)]; subst. destruct (ET e N) as (s & m & _ & T). unfold rest_of in E. cbn [flat_map] in E. rewrite T in E. discriminate.
  - inversion F as [|? ? (N & P) F2]; subst. inversion F' as [|? ? (N' & P') F2']; subst. destruct (ET e N) as (s & m & M & T). destruct (ET e' N') as (s' & m' & M' & T').
    unfold rest_of in E. cbn [flat_map] in E. rewrite T, T' in E. rewrite <- !app_comm_cons, <- !app_assoc in E. apply (f_equal (@tl Z)) in E. cbn [tl] in E. fold (rest_of l) in E. fold (rest_of l') in E.
    rewrite M in P. rewrite M' in P'. inversion P; subst. inversion P'; subst. destruct (SOL s) as (_ & S1 & S2); auto. destruct (SOL s') as (_ & T1 & T2); auto.
    apply cut in E as (E1 & E2); auto. apply INJ in E1; auto. subst s'. apply bars_tell in E2 as (-> & E2); auto. cbn [map]. rewrite M, M'. f_equal. now apply IH.
Qed.

Lemma rule_tell : forall r r', D (r_lhs r) -> D (r_lhs r') -> Forall (fun e => members e <> [] /\ Forall D (members e)) (r_rhs r) -> Forall (fun e => members e <> [] /\ Forall D (members e)) (r_rhs r') ->
  rule_print nm r = rule_print nm r' -> r_lhs r = r_lhs r' /\ map members (r_rhs r) = map members (r_rhs r').
Proof.
  intros r r' A A' F F' E. unfold rule_print in E. destruct (SOL _ A) as (_ & S1 & S2). destruct (SOL _ A') as (_ & T1 & T2).
  apply cut in E as (E1 & E2); auto; try (right; left; reflexivity). apply INJ in E1; auto. split; [exact E1|]. apply app_inv_head in E2. now apply rest_tell.
Qed.
End Tells.
