(** The tokens of yyname and yyrule. *)
From Coq Require Import String List Arith ZArith NArith Bool Lia.
Import ListNotations.
From Verif Require Import Base ByaccScanModel LemonTableModel LemonPreModel LemonCodeModel Prop_LemonPrintf SpecCode LemonCodeProof LemonReprintModel SpecCText CTextProof LemonTableTextProof
  ByaccLr0Model ByaccPackProof ByaccTableTextModel ByaccTableTextProof ByaccNameTextModel.
Local Open Scope res_scope.

(** * The names *)

(** The text between the quotes of a name. *)
Inductive body (q : Z) : txt -> Prop :=
| b_nil : body q []
| b_char : forall c t, strch c -> c <> q -> body q t -> body q (c :: t)
| b_esc : forall d t, strch d \/ d = 92%Z -> body q t -> body q (92%Z :: d :: t).

Lemma body_app : forall q t u, body q t -> body q u -> body q (t ++ u).
Proof. intros q t u H U. induction H; cbn [app]; auto; [now apply b_char|now apply b_esc]. Qed.
Lemma body_plain : forall q t, Forall strch t -> ~ In q t -> body q t.
Proof. induction t as [|c t IH]; intros F N; [constructor|]. inversion F; subst. constructor; auto. - intros ->. apply N. now left. - apply IH; auto. intros I. apply N. now right. Qed.

Lemma body_escape : forall q t u, body q t -> q <> 92%Z -> exists x, escape_until q (t ++ q :: u) = Ok x /\ count_until q (t ++ q :: u) = Ok (List.length x) /\ cstr x t.
Proof.
  intros q t u B Q. induction B as [|c t C N B (x & E1 & E2 & E3)|d t D B (x & E1 & E2 & E3)]; cbn [app escape_until count_until].
  - rewrite Z.eqb_refl. exists []. repeat split. constructor.
  - assert (c <> 92%Z) by (unfold strch in C; lia). destruct (Z.eqb_spec c q); [contradiction|]. destruct (Z.eqb_spec c 92); [contradiction|]. rewrite E1, E2. cbn [bind]. exists (c :: x). repeat split. now constructor.
  - destruct (Z.eqb_spec 92 q); [congruence|]. replace (92 =? 92)%Z with true by reflexivity. rewrite E1, E2. cbn [bind]. destruct (Z.eqb_spec d 92) as [->|ND].
    + eexists. split; [reflexivity|]. split; [cbn [app List.length]; f_equal; lia|]. cbn [app]. apply cs_esc; [now right|]. apply cs_esc; [now right|]. exact E3.
    + destruct D as [D|D]; [|contradiction]. eexists. split; [reflexivity|]. split; [cbn [app List.length]; f_equal; lia|]. cbn [app]. apply cs_esc; [now right|]. apply cs_char; assumption.
Qed.

Lemma cstr_app : forall a x b y, cstr a x -> cstr b y -> cstr (a ++ b) (x ++ y).
Proof. intros a x b y H Y. induction H; cbn [app]; auto; [now apply cs_char|now apply cs_esc]. Qed.
Lemma cstr_plain : forall t, Forall strch t -> cstr t t.
Proof. induction 1; constructor; auto. Qed.

Ltac cs := repeat first [apply cs_nil | apply cs_char; [first [assumption|unfold strch; lia]|] | apply cs_esc; [first [now left|now right]|]].

(** A character as get_literal() writes it. *)
Lemma name_char_body : forall q c, (q = 39 \/ q = 34)%Z -> (0 <= c <= 255)%Z -> c <> 34%Z -> body q (name_char q c).
Proof.
  intros q c Q C N. unfold name_char. assert (P : forall d, (48 <= d <= 55)%Z -> strch d /\ d <> q) by (intros d D; unfold strch; lia).
  destruct ((c =? 92) || (c =? q))%Z eqn:E.
  - apply b_esc; [|constructor]. apply orb_true_iff in E as [E|E]; apply Z.eqb_eq in E; [now right|]. left. unfold strch. lia.
  - apply orb_false_iff in E as (E1 & E2). apply Z.eqb_neq in E1, E2. destruct (isprint c) eqn:IP.
    + unfold isprint in IP. apply b_char; [unfold strch; lia|exact E2|constructor].
    + repeat match goal with |- context [if (c =? ?k)%Z then _ else _] => destruct (c =? k)%Z; [apply b_esc; [left; unfold strch; lia|constructor]|] end.
      assert (D : forall x, (48 <= x mod 8 + 48 <= 55)%Z) by (intros x; pose proof (Z.mod_pos_bound x 8 ltac:(lia)); lia).
      apply b_esc; [left; apply P, D|]. apply b_char; [apply P, D|apply P, D|]. apply b_char; [apply P, D|apply P, D|]. constructor.
Qed.

(** The names byacc gives to symbols: names of printable characters, and literals. *)
Definition name_ok (n : txt) : Prop :=
  (n <> [] /\ Forall strch n /\ hd 0%Z n <> 39%Z) \/
  exists l, Forall (fun c => 0 <= c <= 255)%Z l /\ (List.length l = 1 \/ ~ In 34%Z l) /\ n = literal_name l.

Lemma flat_body : forall q l, (q = 39 \/ q = 34)%Z -> Forall (fun c => 0 <= c <= 255)%Z l -> ~ In 34%Z l -> body q (flat_map (name_char q) l).
Proof.
  intros q l Q F N. induction F as [|c l C F IH]; cbn [flat_map]; [constructor|]. apply body_app; [apply name_char_body; auto; intros ->; apply N; now left|].
  apply IH. intros I. apply N. now right.
Qed.

(** A name is plain, the quote in quotes, a character in single quotes or a string. *)
Lemma name_cases : forall n, name_ok n ->
  (n <> [] /\ Forall strch n /\ hd 0%Z n <> 39%Z) \/ n = zs "'""'" \/ (exists c, (0 <= c <= 255)%Z /\ c <> 34%Z /\ n = 39%Z :: name_char 39 c ++ [39%Z]) \/ exists t, body 34 t /\ n = 34%Z :: t ++ [34%Z].
Proof.
  intros n [H|(l & F & C & ->)]; [now left|]. right. unfold literal_name. destruct (Nat.eqb_spec (List.length l) 1) as [L|L].
  - destruct l as [|c [|d l]]; try discriminate. cbv zeta. cbn [flat_map]. rewrite app_nil_r. inversion F; subst. destruct (Z.eq_dec c 34) as [->|N]; [left; reflexivity|]. right. left. exists c. auto.
  - destruct C as [C|C]; [contradiction|]. right. right. cbv zeta. exists (flat_map (name_char 34) l). split; [|reflexivity]. apply flat_body; auto.
Qed.

Lemma str_lexed : forall b x v, cstr x v -> lexed b (zs """" ++ x ++ zs """,") [CS v; CP 44%Z] false.
Proof.
  intros b x v C u us H. replace ((zs """" ++ x ++ zs """,") ++ u) with (34%Z :: x ++ 34%Z :: 44%Z :: u) by (rewrite <- !app_assoc; reflexivity).
  cbn [app]. apply cl_str; [exact C|]. apply cl_punct; [repeat split; try lia; discriminate|discriminate|discriminate|exact H].
Qed.

Definition entry (n : option txt) : list ctok := match n with Some v => [CS v; CP 44%Z] | None => [CN 0; CP 44%Z] end.

Lemma name_char_start : forall c, (0 <= c <= 255)%Z -> c <> 34%Z -> exists d r, name_char 39 c = d :: r /\ d <> 34%Z /\ (d <> 92%Z -> r = [] /\ strch d) /\ (d = 92%Z -> exists e r', r = e :: r' /\ (strch e \/ e = 92%Z) /\ Forall strch r' /\ ~ In 39%Z r').
Proof.
  intros c C N. unfold name_char. destruct ((c =? 92) || (c =? 39))%Z eqn:E.
  - exists 92%Z, [c]. split; [reflexivity|]. split; [discriminate|]. split; [intros K; contradiction|]. intros _. exists c, []. split; [reflexivity|]. split; [|split; [constructor|intros []]].
    apply orb_true_iff in E as [E|E]; apply Z.eqb_eq in E; [now right|]. left. unfold strch. lia.
  - apply orb_false_iff in E as (E1 & E2). apply Z.eqb_neq in E1, E2. destruct (isprint c) eqn:IP.
    + unfold isprint in IP. exists c, []. split; [reflexivity|]. split; [exact N|]. split; [intros _; split; [reflexivity|unfold strch; lia]|intros K; contradiction].
    + exists 92%Z. eexists. split; [reflexivity|]. split; [discriminate|]. split; [intros K; contradiction|]. intros _.
      repeat match goal with |- context [if (c =? ?k)%Z then _ else _] => destruct (c =? k)%Z; [eexists; exists []; split; [reflexivity|]; split; [left; unfold strch; lia|split; [constructor|intros []]]|] end.
      eexists. eexists. split; [reflexivity|]. assert (D : forall x, (48 <= x mod 8 + 48 <= 55)%Z) by (intros x; pose proof (Z.mod_pos_bound x 8 ltac:(lia)); lia).
      assert (P : forall d, (48 <= d <= 55)%Z -> strch d) by (intros d K; unfold strch; lia). split; [left; apply P, D|]. split; [repeat constructor; apply P, D|].
      intros [K|[K|[]]]; [pose proof (D (c / 8)%Z)|pose proof (D c)]; lia.
Qed.

Lemma cell_lexed : forall n, match n with Some x => name_ok x | None => True end -> exists k t, name_cell n = Ok (k, t) /\ k = List.length t /\ forall b, lexed b t (entry n) false.
Proof.
  intros [n|] H.
  - destruct (name_cases n H) as [(NE & F & H39)|[->|[(c & C & N & ->)|(t & B & ->)]]].
    + destruct n as [|c r]; [contradiction|]. cbn [hd] in H39. inversion F; subst. cbn [name_cell]. destruct (Z.eqb_spec c 34); [unfold strch in *; lia|]. destruct (Z.eqb_spec c 39); [contradiction|].
      eexists. eexists. split; [reflexivity|]. split; [rewrite !app_length; cbn [List.length zs]; lia|]. intros b. cbn [entry]. apply str_lexed, cstr_plain. now constructor.
    + eexists. eexists. split; [reflexivity|]. split; [reflexivity|]. intros b. cbn [entry]. apply (str_lexed b (zs "'\""'")). change (cstr [39; 92; 34; 39]%Z [39; 34; 39]%Z). repeat (first [apply cs_nil | apply cs_char; [unfold strch; lia|] | apply cs_esc; [now left|]]).
    + cbn [name_cell]. replace (39 =? 34)%Z with false by reflexivity. replace (39 =? 39)%Z with true by reflexivity. destruct (name_char_start c C N) as (d & r & E & D & _).
      replace (starts [34%Z] (name_char 39 c ++ [39%Z])) with false by (rewrite E; cbn [app starts]; destruct (Z.eqb_spec 34 d); [congruence|reflexivity]).
      destruct (body_escape 39 (name_char 39 c) [] (name_char_body 39 c (or_introl eq_refl) C N) ltac:(lia)) as (x & E1 & E2 & E3). rewrite E1, E2. cbn [bind]. eexists. eexists. split; [reflexivity|]. split; [rewrite !app_length; cbn [List.length zs]; lia|].
      intros b. cbn [entry]. replace (zs """'" ++ x ++ zs "'"",") with (zs """" ++ ([39%Z] ++ x ++ [39%Z]) ++ zs """,") by (rewrite <- !app_assoc; reflexivity).
      apply str_lexed. change (39%Z :: name_char 39 c ++ [39%Z]) with ([39%Z] ++ name_char 39 c ++ [39%Z]). repeat apply cstr_app; auto; apply cstr_plain; repeat constructor; unfold strch; lia.
    + cbn [name_cell]. replace (34 =? 34)%Z with true by reflexivity. destruct (body_escape 34 t [] B ltac:(lia)) as (x & E1 & E2 & E3). rewrite E1, E2. cbn [bind]. eexists. eexists. split; [reflexivity|]. split; [rewrite !app_length; cbn [List.length zs]; lia|].
      intros b. cbn [entry]. replace (zs """\""" ++ x ++ zs "\"""",") with (zs """" ++ ([92; 34]%Z ++ x ++ [92; 34]%Z) ++ zs """,") by (rewrite <- !app_assoc; reflexivity).
      apply str_lexed. change (34%Z :: t ++ [34%Z]) with ([34%Z] ++ t ++ [34%Z]). repeat apply cstr_app; auto; cs.
  - cbn [name_cell]. eexists. eexists. split; [reflexivity|]. split; [reflexivity|]. intros b u us U. cbn [entry app zs]. change (CN 0) with (CN (value [48%Z])). apply (cl_num b 48%Z []); [unfold digit; lia|constructor|reflexivity|split; [reflexivity|discriminate]|].
    apply cl_punct; [repeat split; try lia; discriminate|discriminate|discriminate|exact U].
Qed.

Lemma cells_lexed : forall (l : list (option txt)) j b, (forall n, In (Some n) l -> name_ok n) -> exists t b', name_cells j (map Some l) = Ok t /\ lexed b t (flat_map entry l) b'.
Proof.
  induction l as [|e l IH]; intros j b H; cbn [map name_cells flat_map]; [exists [], b; split; [reflexivity|apply lexed_nil]|].
  destruct (cell_lexed e) as (k & x & E & _ & L); [destruct e; [apply H; now left|exact Logic.I]|]. cbn [opt bind]. rewrite E. cbn [bind]. destruct (80 <? j + k).
  - destruct (IH k false) as (t & b' & E1 & L1); [intros n I; apply H; now right|]. rewrite E1. cbn [bind]. exists (nl ++ x ++ t), b'. split; [reflexivity|]. change (entry e ++ flat_map entry l) with ([] ++ entry e ++ flat_map entry l).
    apply (lexed_app b nl [] true); [apply nl_lexed|]. apply (lexed_app true x _ false); auto.
  - destruct (IH (j + k) false) as (t & b' & E1 & L1); [intros n I; apply H; now right|]. rewrite E1. cbn [bind]. exists (x ++ t), b'. split; [reflexivity|]. apply (lexed_app b x _ false); auto.
Qed.

(** * The rules *)

Lemma item_ok : forall n, name_ok n -> exists x, rule_item n = Ok x /\ cstr x (32%Z :: n).
Proof.
  intros n H. assert (S32 : strch 32) by (unfold strch; lia). assert (S39 : strch 39) by (unfold strch; lia). destruct (name_cases n H) as [(NE & F & H39)|[->|[(c & C & N & ->)|(t & B & ->)]]].
  - destruct n as [|c r]; [contradiction|]. cbn [hd] in H39. inversion F; subst. cbn [rule_item]. destruct (Z.eqb_spec c 34); [unfold strch in *; lia|]. destruct (Z.eqb_spec c 39); [contradiction|].
    eexists. split; [reflexivity|]. cbn [app zs]. apply cstr_plain. now constructor.
  - eexists. split; [reflexivity|]. change (cstr [32; 39; 92; 34; 39]%Z [32; 39; 34; 39]%Z). repeat (first [apply cs_nil | apply cs_char; [unfold strch; lia|] | apply cs_esc; [now left|]]).
  - cbn [rule_item]. replace (39 =? 34)%Z with false by reflexivity. replace (39 =? 39)%Z with true by reflexivity. destruct (name_char_start c C N) as (d & r & E & D & D1 & D2). rewrite E. cbn [app starts skipn].
    destruct (Z.eqb_spec 34 d); [congruence|]. cbn [andb]. destruct (Z.eqb_spec 92 d) as [<-|ND]; cbn [andb].
    + destruct (D2 eq_refl) as (e & r' & -> & Se & Fr & Nr). cbn [app].
      assert (CU : forall t, ~ In 39%Z t -> copy_until 39 (t ++ [39%Z]) = Ok t).
      { induction t as [|y t IH]; intros K; cbn [app copy_until]; [reflexivity|]. destruct (Z.eqb_spec y 39); [exfalso; apply K; left; congruence|]. rewrite IH by (intros I; apply K; now right). reflexivity. }
      rewrite (CU r' Nr). cbn [bind]. eexists. split; [reflexivity|]. change (32%Z :: 39%Z :: 92%Z :: e :: r' ++ [39%Z]) with ([32; 39]%Z ++ [92%Z] ++ [e] ++ r' ++ [39%Z]).
      change (zs " '\\") with ([32; 39]%Z ++ [92; 92]%Z). rewrite <- app_assoc. apply cstr_app; [cs|]. apply cstr_app; [cs|]. apply cstr_app; [|apply cstr_app; [now apply cstr_plain|cs]].
      destruct (Z.eqb_spec e 92) as [->|Ne]; [apply cs_esc; [now right|constructor]|]. destruct Se as [Se|Se]; [|contradiction]. cs.
    + destruct (D1 ltac:(congruence)) as (-> & Sd). eexists. split; [reflexivity|]. change (cstr [32; 39; d; 39]%Z [32; 39; d; 39]%Z). cs.
  - cbn [rule_item]. replace (34 =? 34)%Z with true by reflexivity. destruct (body_escape 34 t [] B ltac:(lia)) as (x & E1 & _ & E3). rewrite E1. cbn [bind]. eexists. split; [reflexivity|].
    change (zs " \""") with ([32%Z] ++ [92; 34]%Z). rewrite <- app_assoc. change (32%Z :: 34%Z :: t ++ [34%Z]) with ([32%Z] ++ [34%Z] ++ t ++ [34%Z]). repeat apply cstr_app; auto; cs.
Qed.

(** The text of a rule, as the traces of the parser show it. *)
Definition rule_string (nm : list txt) (r : nat * list nat) : txt := nth (fst r) nm [] ++ zs " :" ++ flat_map (fun X => 32%Z :: nth X nm []) (snd r).

Lemma items_ok : forall (nm : list txt) r v rest, (forall X, In X r -> 0 < X < List.length nm /\ name_ok (nth X nm [])) -> (v <= 0)%Z ->
  exists x, rule_items nm (map Z.of_nat r ++ v :: rest) = Ok x /\ cstr x (flat_map (fun X => 32%Z :: nth X nm []) r).
Proof.
  intros nm r v rest H V. induction r as [|X r IH]; cbn [map app rule_items flat_map].
  - destruct (Z.ltb_spec 0 v); [lia|]. exists []. split; [reflexivity|constructor].
  - destruct (H X (or_introl eq_refl)) as ((X0 & XL) & XN). destruct (Z.ltb_spec 0 (Z.of_nat X)); [|lia]. rewrite Nat2Z.id. assert (EN : nth_error nm X = Some (nth X nm [])) by (now apply nth_error_nth'). rewrite EN. cbn [opt bind]. destruct (item_ok _ XN) as (x & E & C). rewrite E. cbn [bind].
    destruct IH as (y & E1 & C1); [intros Y I; apply H; now right|]. rewrite E1. cbn [bind]. exists (x ++ y). split; [reflexivity|]. change (32%Z :: nth X nm [] ++ flat_map (fun X => 32%Z :: nth X nm []) r) with ((32%Z :: nth X nm []) ++ flat_map (fun X => 32%Z :: nth X nm []) r). now apply cstr_app.
Qed.

Lemma concat_lines : forall (ls : list txt) (vs : list txt) b, Forall2 (fun t v => exists x, cstr x v /\ t = zs """" ++ x ++ zs """," ++ nl) ls vs ->
  exists b', lexed b (List.concat ls) (flat_map entry (map Some vs)) b'.
Proof.
  intros ls vs b F. revert b. induction F as [|t v ls vs (x & C & ->) F IH]; intros b; cbn [List.concat map flat_map]; [exists b; apply lexed_nil|]. destruct (IH true) as (b' & L). exists b'.
  apply (lexed_app b _ _ true); [|exact L]. replace (zs """" ++ x ++ zs """," ++ nl) with ((zs """" ++ x ++ zs """,") ++ nl) by (rewrite <- !app_assoc; reflexivity). change (entry (Some v)) with ([CS v; CP 44%Z] ++ []).
  apply (lexed_app b _ _ false); [now apply str_lexed|apply nl_lexed].
Qed.

(** * The array symnam *)

Lemma set_names_ok : forall ntok nm sv code i (a : list (option (option txt))), (forall j, j < i -> symbol_pval ntok sv j = Ok (code j) /\ (0 <= code j < Z.of_nat (List.length a))%Z /\ exists n, nth_error nm j = Some n) ->
  exists a', set_names ntok nm sv i a = Ok a' /\ List.length a' = List.length a /\
    (forall p, (forall j, j < i -> code j <> Z.of_nat p) -> nth_error a' p = nth_error a p) /\
    (forall j, j < i -> (forall j', j' < i -> code j' = code j -> j' = j) -> nth_error a' (Z.to_nat (code j)) = Some (Some (nth_error nm j))).
Proof.
  induction i as [|i IH]; intros a H; cbn [set_names].
  - exists a. split; [reflexivity|]. split; [reflexivity|]. split; [reflexivity|]. intros j L. lia.
  - destruct (H i ltac:(lia)) as (E & R & n & En). rewrite E, En. cbn [opt bind]. destruct (Z.ltb_spec (code i) 0); [lia|]. destruct (Z.leb_spec (Z.of_nat (List.length a)) (code i)); [lia|]. cbn [orb].
    destruct (IH (upd a (Z.to_nat (code i)) (Some (Some n)))) as (a' & E1 & E2 & E3 & E4); [intros j L; rewrite upd_length; apply H; lia|]. rewrite upd_length in E2. exists a'. split; [exact E1|]. split; [exact E2|]. split.
    + intros p K. rewrite E3 by (intros j L; apply K; lia). apply nth_error_upd_ne. specialize (K i ltac:(lia)). lia.
    + intros j L U. destruct (Nat.eq_dec j i) as [->|Nj].
      * rewrite E3. { rewrite nth_error_upd_eq by lia. now rewrite En. } intros j' L' K. assert (j' = i) by (apply U; lia). lia.
      * apply E4; [lia|]. intros j' L' K. apply U; lia.
Qed.

Definition sarray (p : txt) (n : string) (l : list (option txt)) : list ctok :=
  [W "static"; W "const"; W "char"; CP 42%Z; W "const"; CW (p ++ zs n); CP 91%Z; CP 93%Z; CP 61%Z; CP 123%Z] ++ flat_map entry l ++ [CP 125%Z; CP 59%Z].

Lemma sarray_lexed : forall p n l x b, ident (p ++ zs n) -> lexed true x (flat_map entry l) b -> lexed true (start_str_table p n ++ x ++ end_table) (sarray p n l) true.
Proof.
  intros p n l x b I L. unfold sarray, start_str_table, end_table.
  replace ((zs "static const char *const " ++ p ++ zs n ++ zs "[] = {" ++ nl) ++ x ++ nl ++ zs "};" ++ nl)
    with ((zs "static" ++ zs " ") ++ zs "const char *const " ++ ((p ++ zs n) ++ zs "[] = {") ++ nl ++ x ++ nl ++ zs "};" ++ nl) by (rewrite <- !app_assoc; reflexivity).
  change ([W "static"; W "const"; W "char"; CP 42%Z; W "const"; CW (p ++ zs n); CP 91%Z; CP 93%Z; CP 61%Z; CP 123%Z] ++ flat_map entry l ++ [CP 125%Z; CP 59%Z])
    with ([W "static"] ++ [W "const"; W "char"; CP 42%Z; W "const"] ++ [CW (p ++ zs n); CP 91%Z; CP 93%Z; CP 61%Z; CP 123%Z] ++ [] ++ flat_map entry l ++ [] ++ [CP 125%Z; CP 59%Z]).
  apply (lexed_app true _ [W "static"] false); [apply word_lexed; idn|]. apply (lexed_app false _ _ false).
  { apply (clex_part false); [|reflexivity|left; reflexivity|intros K; vm_compute in K; repeat (destruct K as [K|K]; [discriminate K|]); exact K].
    apply (lexb_ok 40). vm_compute. reflexivity. }
  apply (lexed_app false _ _ false); [now apply open_lexed|]. apply (lexed_app false nl [] true); [apply nl_lexed|]. apply (lexed_app true x _ b); [exact L|]. apply (lexed_app b nl [] true); [apply nl_lexed|apply close_lexed].
Qed.
