(** The declarations of a file as byacc reads them. *)
From Coq Require Import String List Arith ZArith Bool Lia.
Import ListNotations.
From Verif Require Import Base LemonTableModel LemonPreModel LemonCodeModel ByaccParModel ByaccReaderModel ByaccRulesModel ByaccScanModel Prop_ByaccLiteral SpecByaccFile ByaccScanProof ByaccTableProof.
Open Scope rd_scope.

(** * Heads and lengths *)

Lemma start_iff : forall c, (name_first c || quote_first c)%bool = true <-> sym_start c.
Proof.
  intros c. unfold sym_start, quote_first. rewrite orb_true_iff, name_first_iff, orb_true_iff, !Z.eqb_eq. cbn [In]. intuition congruence.
Qed.
Lemma start_range : forall c, sym_start c -> ~ In c [32; 9; 12; 13; 11; 44; 59; 10; 255; 47; 92; 58; 40; 60; 123; 61; 124; 37]%Z.
Proof. intros c [H|H]; [apply isalpha_range in H|]; cbn [In] in *; lia. Qed.
Lemma sym_head : forall x t r, symbol x t r -> exists c u, t = c :: u /\ sym_start c.
Proof.
  intros x t r H. destruct H as [n r (W & _) N|q l u r Q _ _].
  - destruct n as [|c n]; [easy|]. exists c, (n ++ r). split; [reflexivity|]. unfold sym_start. cbn [In]. intuition congruence.
  - exists q, (u ++ r). split; [reflexivity|]. right. cbn [In]. destruct Q as [-> | ->]; tauto.
Qed.
Lemma start_vis : forall c u, sym_start c -> visible (c :: u) /\ pc c = c.
Proof. intros c u H. apply start_range in H. split; [apply vis_in|apply pc_id]; cbn [In] in *; lia. Qed.
Lemma sym_shorter : forall x t r, symbol x t r -> List.length r < List.length t.
Proof. intros x t r H. destruct H as [n r (W & _) N|q l u r Q _ _]; [destruct n; [easy|]|]; cbn [app List.length]; rewrite app_length; lia. Qed.
Lemma number_shorter : forall v t r, number_text v t r -> List.length r < List.length t.
Proof. intros v t r H. destruct H as [ds r NE]. rewrite app_length. destruct ds; [easy|]. cbn. lia. Qed.
Lemma tag_shorter : forall g t r, tag_text g t r -> List.length r < List.length t.
Proof. intros g t r H. destruct H. cbn [List.length]. rewrite !app_length. cbn. rewrite !app_length. cbn. lia. Qed.
Lemma gap_le : forall (g u : txt), List.length u <= List.length (g ++ u).
Proof. intros. rewrite app_length. lia. Qed.
Lemma pc_start : forall c, (name_first (pc c) || quote_first (pc c))%bool = true <-> sym_start c.
Proof. intros c. rewrite start_iff. unfold pc. destruct (Z.eqb_spec c 92) as [->|N]; [|tauto]. split; [intros [H|H]; [discriminate|cbn in H; lia]|intros [H|H]; [discriminate|cbn in H; lia]]. Qed.
Lemma not_start : forall c, ~ sym_start c -> (name_first (pc c) || quote_first (pc c))%bool = false.
Proof. intros c N. apply (not_true _ _ (pc_start c) N). Qed.

(** * Facts added *)

Lemma keeps_goal : forall s s', keeps s s' -> d_goal s' = d_goal s.
Proof. intros s s' K. rewrite K. reflexivity. Qed.
Lemma keeps_prec : forall s s', keeps s s' -> d_prec s' = d_prec s.
Proof. intros s s' K. rewrite K. reflexivity. Qed.

Lemma tag_step : forall L s n tag, st_ok L s -> In n (names L) ->
  exists s', match tag with Some _ => update (pos n (names L)) (with_tag tag) s | None => s end = s' /\ st_ok (L ++ tag_facts tag n) s' /\ keeps s s' /\ names (L ++ tag_facts tag n) = names L.
Proof.
  intros L s n [g|] ST I; eexists; (split; [reflexivity|]); cbn [tag_facts].
  - destruct (update_ok L s n (with_tag (Some g)) (Tag g) ST I (entry_tag L n g) Logic.I) as (A & B). split; [exact A|]. split; [exact B|]. now apply names_same.
  - rewrite app_nil_r. split; [exact ST|]. split; [apply keeps_refl|reflexivity].
Qed.
Lemma prec_step : forall L s n p a, st_ok L s -> In n (names L) ->
  exists s', match a with Some a => update (pos n (names L)) (with_prec p a) s | None => s end = s' /\ st_ok (L ++ match a with Some a => [(n, Prec p a)] | None => [] end) s' /\ keeps s s' /\
  names (L ++ match a with Some a => [(n, Prec p a)] | None => [] end) = names L.
Proof.
  intros L s n p [a|] ST I; eexists; (split; [reflexivity|]).
  - destruct (update_ok L s n (with_prec p a) (Prec p a) ST I (entry_prec L n p a) Logic.I) as (A & B). split; [exact A|]. split; [exact B|]. now apply names_same.
  - rewrite app_nil_r. split; [exact ST|]. split; [apply keeps_refl|reflexivity].
Qed.

Definition goal_is (L : log) (go : option txt) (s : rdstate) : Prop :=
  match go with None => d_goal s = None | Some n => In n (names L) /\ d_goal s = Some (pos n (names L)) end.
Lemma goal_is_app : forall L M go s s', goal_is L go s -> d_goal s' = d_goal s -> goal_is (L ++ M) go s'.
Proof. intros L M [n|] s s' H E; unfold goal_is in *; [|congruence]. destruct H as (I & H). split; [now apply names_in_app|]. rewrite pos_names_app by exact I. congruence. Qed.

Definition item_facts (p : nat) (a : option bassoc) (tag : option txt) (e : fsym * option Z) : log :=
  let (x, v) := e in
  sym_facts x ++ (sym_name x, Term) :: tag_facts tag (sym_name x) ++ match a with Some a => [(sym_name x, Prec p a)] | None => [] end ++
  match v with Some v => [(sym_name x, Val v)] | None => [] end.

(** One token up to its code. *)
Lemma token_step : forall L s k tag x t r go, st_ok L s -> symbol x t r -> ~ reserved (sym_name x) -> goal_is L go s -> (forall n, go = Some n -> n <> sym_name x) ->
  exists s', (exists i s1, get_sym t s = ROk (i, r, s1) /\ match d_goal s1 with Some g => g =? i | None => false end = false /\
     (let s := update i (with_class TERM) s1 in
      let s := match tag with Some _ => update i (with_tag tag) s | None => s end in
      match kw_assoc k with Some a => update i (with_prec (d_prec s) a) s | None => s end) = s' /\ i = pos (sym_name x) (names (L ++ item_facts (d_prec s) (kw_assoc k) tag (x, None)))) /\
  st_ok (L ++ item_facts (d_prec s) (kw_assoc k) tag (x, None)) s' /\ keeps s s' /\ In (sym_name x) (names (L ++ item_facts (d_prec s) (kw_assoc k) tag (x, None))).
Proof.
  intros L s k tag x t r go ST SY NR G NG. destruct (get_sym_ok L s x t r ST SY NR) as (s1 & E1 & ST1 & K1 & I1). set (n := sym_name x) in *. set (L1 := L ++ sym_facts x) in *.
  destruct (update_ok L1 s1 n (with_class TERM) Term ST1 I1 (entry_term L1 n) Logic.I) as (ST2 & K2). set (s2 := update (pos n (names L1)) (with_class TERM) s1) in *.
  assert (N2 : names (L1 ++ [(n, Term)]) = names L1) by now apply names_same. set (L2 := L1 ++ [(n, Term)]) in *.
  assert (I2 : In n (names L2)) by now rewrite N2.
  destruct (tag_step L2 s2 n tag ST2 I2) as (s3 & E3 & ST3 & K3 & N3). set (L3 := L2 ++ tag_facts tag n) in *. assert (I3 : In n (names L3)) by now rewrite N3.
  destruct (prec_step L3 s3 n (d_prec s3) (kw_assoc k) ST3 I3) as (s4 & E4 & ST4 & K4 & N4).
  assert (DP : d_prec s3 = d_prec s) by (rewrite (keeps_prec _ _ K3), (keeps_prec _ _ K2), (keeps_prec _ _ K1); reflexivity).
  assert (EL : L ++ item_facts (d_prec s) (kw_assoc k) tag (x, None) = L3 ++ match kw_assoc k with Some a => [(n, Prec (d_prec s3) a)] | None => [] end).
  { unfold item_facts, L3, L2, L1. rewrite app_nil_r, DP. fold n. rewrite <- !app_assoc. reflexivity. }
  rewrite EL. exists s4. split; [|split; [exact ST4|]; split; [|rewrite N4; exact I3]].
  2: { apply (keeps_trans s s1); auto. apply (keeps_trans s1 s2); auto. now apply (keeps_trans s2 s3). }
  exists (pos n (names L1)), s1. split; [exact E1|]. split.
  - assert (G1 : goal_is L1 go s1) by (apply (goal_is_app L (sym_facts x) go s s1 G), keeps_goal, K1). destruct go as [m|]; unfold goal_is in G1; [|now rewrite G1]. destruct G1 as (Im & ->).
    apply Nat.eqb_neq. intros E. apply pos_inj in E; auto. now apply (NG m).
  - cbv zeta. split; [|now rewrite N4, N3, N2]. fold s2. rewrite N2 in E3. rewrite N3, N2 in E4. rewrite E3. exact E4.
Qed.

Lemma item_value : forall p a tag x v, item_facts p a tag (x, Some v) = item_facts p a tag (x, None) ++ [(sym_name x, Val v)].
Proof. intros. unfold item_facts. rewrite app_nil_r, <- app_assoc. cbn [app]. rewrite <- !app_assoc. reflexivity. Qed.

Lemma digit_vis : forall c u, digit c -> visible (c :: u) /\ pc c = c.
Proof. intros c u D. unfold digit in D. split; [apply vis_in|apply pc_id]; cbn [In]; lia. Qed.
Lemma pc_digit : forall c, ~ digit c -> isdigit (pc c) = false.
Proof. intros c N. apply (not_true _ _ (isdigit_iff (pc c))). unfold pc. destruct (Z.eqb_spec c 92) as [->|]; [|exact N]. unfold digit. lia. Qed.

Lemma tokens_ok : forall l t r, token_list l t r -> forall f L s k tag go c u, t = c :: u -> visible t -> List.length t < f -> st_ok L s -> goal_is L go s ->
  Forall (fun n => ~ reserved n) (map (fun e => sym_name (fst e)) l) -> (forall n, go = Some n -> ~ In n (map (fun e => sym_name (fst e)) l)) ->
  exists s', tokens_loop f k tag (pc c) t s = ROk (r, s') /\ st_ok (L ++ flat_map (item_facts (d_prec s) (kw_assoc k) tag) l) s' /\ keeps s s'.
Proof.
  intros l t r H. induction H as [r V N|x l t g u r SY G V N H IH|x v l t g u g' u' r SY G NT G' V H IH]; intros f L s k tag go c w Et VT LF ST GO NRS NG.
  - destruct f as [|f]; [lia|]. subst r. cbn [tokens_loop]. cbn in N. rewrite not_start by exact N. cbn [negb]. exists s. cbn [flat_map]. rewrite app_nil_r. split; [reflexivity|]. split; [exact ST|apply keeps_refl].
  - destruct f as [|f]; [lia|]. destruct (sym_head _ _ _ SY) as (c' & w' & Et' & SC). rewrite Et' in Et. injection Et as <- <-. cbn [map fst] in NG, NRS. pose proof (Forall_inv NRS) as NR. apply Forall_inv_tail in NRS. cbv beta in NR.
    destruct (token_step L s k tag x t (g ++ u) go ST SY NR GO) as (s' & (i & s1 & E1 & E2 & E3 & E4) & ST' & K' & I'); [intros n En X; apply (NG n En); left; congruence|].
    cbn [tokens_loop]. destruct (start_vis c' w' SC) as (_ & ->). rewrite (proj2 (start_iff c') SC). cbn [negb]. subst t.
    change (if name_first c' then get_name (c' :: w') s else get_literal (c' :: w') s) with (get_sym (c' :: w') s). rewrite E1. cbn [rbind]. cbv beta iota. rewrite E2. cbv zeta in E3 |- *. rewrite E3.
    destruct u as [|d u]; [destruct V|]. rewrite next_some_vis by assumption. cbn [rbind]. cbv beta iota. cbn in N. rewrite pc_digit by exact N.
    destruct (IH f (L ++ item_facts (d_prec s) (kw_assoc k) tag (x, None)) s' k tag go d u eq_refl V) as (s2 & E5 & ST2 & K2); auto.
    + apply sym_shorter in SY. pose proof (gap_le g (d :: u)). lia.
    + now apply (goal_is_app L _ go s s'), keeps_goal.
    + intros n En X. apply (NG n En). now right.
    + exists s2. rewrite E5. split; [reflexivity|]. cbn [flat_map]. rewrite app_assoc. rewrite (keeps_prec _ _ K') in ST2. split; [exact ST2|now apply (keeps_trans s s')].
  - destruct f as [|f]; [lia|]. destruct (sym_head _ _ _ SY) as (c' & w' & Et' & SC). rewrite Et' in Et. injection Et as <- <-. cbn [map fst] in NG, NRS. pose proof (Forall_inv NRS) as NR. apply Forall_inv_tail in NRS. cbv beta in NR.
    destruct (token_step L s k tag x t (g ++ u) go ST SY NR GO) as (s' & (i & s1 & E1 & E2 & E3 & E4) & ST' & K' & I'); [intros n En X; apply (NG n En); left; congruence|].
    cbn [tokens_loop]. destruct (start_vis c' w' SC) as (_ & ->). rewrite (proj2 (start_iff c') SC). cbn [negb]. subst t.
    change (if name_first c' then get_name (c' :: w') s else get_literal (c' :: w') s) with (get_sym (c' :: w') s). rewrite E1. cbn [rbind]. cbv beta iota. rewrite E2. cbv zeta in E3 |- *. rewrite E3.
    destruct (number_head _ _ _ NT) as (d & u2 & Eu & D). destruct (digit_vis d u2 D) as (VD & PD). pose proof (number_shorter _ _ _ NT) as NS. pose proof (sym_shorter _ _ _ SY) as SS. rewrite Eu in SS, NS |- *.
    rewrite next_some_vis by assumption. rewrite PD. cbn [rbind]. cbv beta iota. rewrite (proj2 (isdigit_iff d) D). destruct (get_number_ok _ _ _ NT) as (EN & PV). rewrite Eu in EN. rewrite EN. cbn [rbind]. cbv beta iota.
    set (L1 := L ++ item_facts (d_prec s) (kw_assoc k) tag (x, None)) in *.
    destruct (update_ok L1 s' (sym_name x) (with_value v) (Val v) ST' I' (entry_val L1 (sym_name x) v) PV) as (ST2 & K2). rewrite <- E4 in ST2, K2.
    destruct u' as [|e u']; [destruct V|]. rewrite next_some_vis by assumption. cbn [rbind]. cbv beta iota. pose proof (gap_le g (d :: u2)). pose proof (gap_le g' (e :: u')).
    destruct (IH f (L1 ++ [(sym_name x, Val v)]) (update i (with_value v) s') k tag go e u' eq_refl V) as (s3 & E5 & ST3 & K3); auto.
    + lia.
    + unfold L1. rewrite <- app_assoc. apply (goal_is_app L _ go s _ GO). rewrite (keeps_goal _ _ K2). now apply keeps_goal.
    + intros n En X. apply (NG n En). now right.
    + exists s3. rewrite E5. split; [reflexivity|]. cbn [flat_map]. rewrite item_value, !app_assoc. fold L1.
      rewrite (keeps_prec _ _ K2), (keeps_prec _ _ K') in ST3. split; [exact ST3|]. apply (keeps_trans s s'); auto. now apply (keeps_trans s' (update i (with_value v) s')).
Qed.

Lemma types_ok : forall l t r, type_list l t r -> forall f L s tag g0, gap g0 -> visible t -> List.length t < f -> st_ok L s -> Forall (fun n => ~ reserved n) (map sym_name l) ->
  exists s', types_loop f tag (g0 ++ t) s = ROk (r, s') /\ st_ok (L ++ flat_map (fun x => sym_facts x ++ tag_facts tag (sym_name x)) l) s' /\ keeps s s'.
Proof.
  intros l t r H. induction H as [r V N|x l t g u r SY G V N H IH]; intros f L s tag g0 G0 VT LF ST NRS.
  - destruct f as [|f]; [lia|]. destruct r as [|c r]; [destruct V|]. cbn [types_loop]. rewrite next_some_vis by assumption. cbn [rbind]. cbv beta iota. cbn in N. rewrite not_start by exact N. cbn [negb]. exists s. cbn [flat_map]. rewrite app_nil_r. split; [reflexivity|]. split; [exact ST|apply keeps_refl].
  - destruct f as [|f]; [lia|]. destruct (sym_head _ _ _ SY) as (c' & w' & Et & SC). pose proof (sym_shorter _ _ _ SY) as SS. pose proof (gap_le g u) as LG.
    cbn [map] in NRS. pose proof (Forall_inv NRS) as NR. apply Forall_inv_tail in NRS. cbv beta in NR.
    destruct (get_sym_ok L s x t (g ++ u) ST SY NR) as (s1 & E1 & ST1 & K1 & I1). set (n := sym_name x) in *. set (L1 := L ++ sym_facts x) in *.
    destruct (tag_step L1 s1 n tag ST1 I1) as (s2 & E2 & ST2 & K2 & N2).
    subst t. cbn [types_loop]. rewrite next_some_vis by assumption. cbn [rbind]. cbv beta iota. destruct (start_vis c' w' SC) as (_ & ->). rewrite (proj2 (start_iff c') SC). cbn [negb]. cbn [get_sym] in E1.
    destruct (name_first c') eqn:NF.
    + rewrite E1. cbn [rbind]. cbv beta iota. destruct u as [|d u]; [destruct V|]. rewrite next_vis by assumption. cbn [rbind]. cbv beta iota.
      assert (X : forall A (a b : A), match pc d with 40%Z => a | _ => b end = b).
      { intros A a b. cbn in N. unfold pc. destruct (Z.eqb_spec d 92); [reflexivity|]. destruct d as [|p|p]; try reflexivity. do 6 (destruct p as [p|p|]; try reflexivity). now destruct N. }
      rewrite X. cbn [rbind]. cbv beta iota. rewrite E2.
      destruct (IH f (L1 ++ tag_facts tag n) s2 tag [] G_nil V) as (s3 & E3 & ST3 & K3); [lia|exact ST2|exact NRS|]. cbn [app] in E3. exists s3. rewrite E3. split; [reflexivity|]. cbn [flat_map]. rewrite !app_assoc. split; [exact ST3|].
      apply (keeps_trans s s1); auto. now apply (keeps_trans s1 s2).
    + rewrite E1. cbn [rbind]. cbv beta iota. rewrite E2. destruct (IH f (L1 ++ tag_facts tag n) s2 tag g G V) as (s3 & E3 & ST3 & K3); [lia|exact ST2|exact NRS|]. exists s3. rewrite E3. split; [reflexivity|]. cbn [flat_map]. rewrite !app_assoc. split; [exact ST3|].
      apply (keeps_trans s s1); auto. now apply (keeps_trans s1 s2).
Qed.

(** * The state between declarations *)

Record dst (L : log) (p : nat) (go : option txt) (h u : bool) (s : rdstate) : Prop := {
  dd_st : st_ok L s;
  dd_goal : goal_is L go s;
  dd_prec : d_prec s = p;
  dd_tags : d_havetags s = h;
  dd_union : d_union s = u;
  dd_rules : d_rules s = init_rules /\ d_out s = [] /\ d_gtags s = []
}.

Definition next_goal (go : option txt) (d : decl) : option txt := match d with DStart n => Some n | _ => go end.
Definition decl_tags (d : decl) : bool := match d with DTokens _ (Some _) _ | DTypes (Some _) _ => true | _ => false end.
Definition decl_union (d : decl) : bool := match d with DUnion => true | _ => false end.
Definition decl_names (d : decl) : list txt :=
  match d with DTokens _ _ l => map (fun e => sym_name (fst e)) l | DTypes _ l => map sym_name l | DStart n => [n] | DUnion | DOther => [] end.
Definition decl_ok (L : log) (go : option txt) (u : bool) (d : decl) : Prop :=
  Forall (fun n => ~ reserved n) (decl_names d) /\
  match d with
  | DTokens _ _ l => forall n, go = Some n -> ~ In n (map (fun e => sym_name (fst e)) l)
  | DStart n => ~ is_token L n
  | DUnion => u = false
  | _ => True
  end.

Lemma dst_keeps : forall L M p go h u s s', dst L p go h u s -> st_ok (L ++ M) s' -> keeps s s' -> dst (L ++ M) p go h u s'.
Proof.
  intros L M p go h u s s' [D1 D2 D3 D4 D5 D6] ST K. constructor; auto; try (rewrite K; cbn; assumption). apply (goal_is_app L M go s s' D2), keeps_goal, K.
Qed.

Lemma dst_tags : forall L p go h u s l, dst L p go h u s -> Forall (fun e => snd e = true) l -> dst L p go true u (set_tags true l s).
Proof. intros L p go h u s l [[A1 A2 A3 A4] D2 D3 D4 D5 D6] F. constructor; auto. constructor; auto. Qed.

Lemma key_head : forall ns t r, key_text ns t r -> List.length r < List.length t.
Proof. intros ns t r H. destruct (key_parts _ _ _ H) as (c & w & -> & _). rewrite app_length. cbn. lia. Qed.


Lemma keyword_word : forall ns (P : kw -> bool) t r, key_text ns t r ->
  forallb (fun n => match find (fun e => teqb (fst e) n) keywords with Some e => P (snd e) | None => false end) ns = true -> exists k, keyword t = ROk (k, r) /\ P k = true.
Proof.
  intros ns P t r H F. destruct (key_parts _ _ _ H) as (c & w & -> & A & FW & I & N). cbn [app keyword]. rewrite A.
  change (c :: w ++ r) with ((c :: w) ++ r). rewrite (span_ok key_char is_key key_char_iff) by assumption.
  apply (proj1 (forallb_forall _ _) F) in I. cbv beta in I. destruct (find _ keywords) as [e|] eqn:E; [|discriminate]. exists (snd e). split; [reflexivity|exact I].
Qed.

Definition is_tokens (a : option bassoc) (k : kw) : bool :=
  match a, k with None, KTOKEN | Some LEFT, KLEFT | Some RIGHT, KRIGHT | Some NONASSOC, KNONASSOC | Some PRECEDENCE, KPRECEDENCE => true | _, _ => false end.

Lemma token_key_ok : forall a t r, token_key a t r -> exists k, keyword t = ROk (k, r) /\ is_tokens a k = true /\ List.length r < List.length t.
Proof.
  intros a t r H. destruct H as [t r H|r|t r H|r|t r H|r|t r H|r|t r H]; try (eexists; split; [reflexivity|]; split; [reflexivity|cbn; lia]).
  - destruct (keyword_word _ (is_tokens None) _ _ H eq_refl) as (k & E & P). exists k. split; [exact E|]. split; [exact P|now apply key_head in H].
  - destruct (keyword_word _ (is_tokens (Some LEFT)) _ _ H eq_refl) as (k & E & P). exists k. split; [exact E|]. split; [exact P|now apply key_head in H].
  - destruct (keyword_word _ (is_tokens (Some RIGHT)) _ _ H eq_refl) as (k & E & P). exists k. split; [exact E|]. split; [exact P|now apply key_head in H].
  - destruct (keyword_word _ (is_tokens (Some NONASSOC)) _ _ H eq_refl) as (k & E & P). exists k. split; [exact E|]. split; [exact P|now apply key_head in H].
  - destruct (keyword_word _ (is_tokens (Some PRECEDENCE)) _ _ H eq_refl) as (k & E & P). exists k. split; [exact E|]. split; [exact P|now apply key_head in H].
Qed.

Lemma percent_vis : forall p t, percent p -> visible (p :: t) /\ pc p = 37%Z.
Proof. intros p t [-> | ->]; (split; [apply vis_in; cbn; lia|reflexivity]). Qed.

Lemma read_S : forall f t s, read_declarations (S f) t s =
      ('(c, t) <- next_some t ;;
      if negb (c =? 37)%Z then RErr
      else
        '(k, t) <- keyword (tl t) ;;
        match k with
        | KMARK => ROk (t, s)
        | KIDENT => t <- copy_ident t ;; read_declarations f t s
        | KTEXT => t <- copy_text t ;; read_declarations f t s
        | KUNION => '(t, s) <- copy_union t s ;; read_declarations f t s
        | KTOKEN | KLEFT | KRIGHT | KNONASSOC | KPRECEDENCE => '(t, s) <- declare_tokens k t s ;; read_declarations f t s
        | KEXPECT | KEXPECT_RR => '(t, s) <- declare_expect k t s ;; read_declarations f t s
        | KTYPE => '(t, s) <- declare_types t s ;; read_declarations f t s
        | KSTART => '(t, s) <- declare_start t s ;; read_declarations f t s
        | KFLAG => read_declarations f t s
        | KCODE | KOUT => ROut
        end).
Proof. reflexivity. Qed.

Lemma dst_app_nil : forall L p go h u s, dst L p go h u s -> dst (L ++ []) p go h u s.
Proof. intros L p go h u s D. now rewrite app_nil_r. Qed.

Lemma not_lt : forall c u, not_head (eq 60%Z) (c :: u) -> (pc c =? 60)%Z = false.
Proof. intros c u N. cbn in N. apply Z.eqb_neq. unfold pc. destruct (Z.eqb_spec c 92); lia. Qed.

Lemma tag_head : forall g t r, tag_text g t r -> exists u, t = 60%Z :: u.
Proof. intros g t r H. destruct H. eauto. Qed.

Lemma declare_tokens_ok : forall k a tag l g u u' r L p go h un s, is_tokens a k = true -> gap g -> visible u -> opt_tag tag u u' -> visible u' -> token_list l u' r ->
  dst L p go h un s -> decl_ok L go un (DTokens a tag l) ->
  exists s', declare_tokens k (g ++ u) s = ROk (r, s') /\ dst (L ++ decl_facts p (DTokens a tag l)) (level p (DTokens a tag l)) go (h || decl_tags (DTokens a tag l)) un s'.
Proof.
  intros k a tag l g u u' r L p go h un s IT G VU OT VU' TL D OK.
  assert (KA : kw_assoc k = a) by (destruct a as [[]|], k; try discriminate; reflexivity).
  set (p' := level p (DTokens a tag l)). set (s0 := match kw_assoc k with Some _ => set_prec (S (d_prec s)) s | None => s end).
  assert (D0 : dst L p' go h un s0).
  { unfold s0, p'. rewrite KA. destruct D as [[A1 A2 A3 A4] D2 D3 D4 D5 D6]. destruct a; cbn [level]; (constructor; [constructor|..]); cbn; auto. }
  assert (FE : flat_map (item_facts p' a tag) l = decl_facts p (DTokens a tag l)) by (unfold p'; destruct a; reflexivity).
  unfold declare_tokens. cbv zeta. fold s0. destruct OT as [u NL|tg t g1 r' TG G1].
  - destruct u as [|c u]; [destruct VU|]. rewrite next_some_vis by assumption. cbn [rbind]. cbv beta iota. rewrite (not_lt c u NL).
    destruct (tokens_ok l (c :: u) r TL (S (List.length (c :: u))) L s0 k None go c u eq_refl VU' (Nat.lt_succ_diag_r _) (dd_st _ _ _ _ _ _ D0) (dd_goal _ _ _ _ _ _ D0) (proj1 OK) (proj2 OK)) as (s' & E & ST & K).
    exists s'. rewrite E. split; [reflexivity|]. rewrite KA, (dd_prec _ _ _ _ _ _ D0), FE in ST. cbn [decl_tags]. rewrite orb_false_r. exact (dst_keeps _ _ _ _ _ _ _ _ D0 ST K).
  - destruct (tag_head _ _ _ TG) as (t' & ->). rewrite next_some_vis by assumption. cbn [rbind]. cbv beta iota. change (pc 60 =? 60)%Z with true. cbv iota.
    destruct (get_tag_ok tg _ _ s0 TG (so_tags _ _ (dd_st _ _ _ _ _ _ D0))) as (tl' & E1 & FT). rewrite E1. cbn [rbind]. cbv beta iota.
    destruct r' as [|c r']; [destruct VU'|]. rewrite next_some_vis by assumption. cbn [rbind]. cbv beta iota. pose proof (dst_tags _ _ _ _ _ _ tl' D0 FT) as D1.
    destruct (tokens_ok l (c :: r') r TL (S (List.length (c :: r'))) L _ k (Some tg) go c r' eq_refl VU' (Nat.lt_succ_diag_r _) (dd_st _ _ _ _ _ _ D1) (dd_goal _ _ _ _ _ _ D1) (proj1 OK) (proj2 OK)) as (s' & E & ST & K).
    exists s'. rewrite E. split; [reflexivity|]. rewrite KA, (dd_prec _ _ _ _ _ _ D1), FE in ST. cbn [decl_tags]. rewrite orb_true_r. exact (dst_keeps _ _ _ _ _ _ _ _ D1 ST K).
Qed.

Lemma declare_types_ok : forall tag l g u u' r L p go h un s, gap g -> visible u -> opt_tag tag u u' -> visible u' -> type_list l u' r ->
  dst L p go h un s -> Forall (fun n => ~ reserved n) (map sym_name l) ->
  exists s', declare_types (g ++ u) s = ROk (r, s') /\ dst (L ++ decl_facts p (DTypes tag l)) p go (h || decl_tags (DTypes tag l)) un s'.
Proof.
  intros tag l g u u' r L p go h un s G VU OT VU' TL D NRS. unfold declare_types. destruct OT as [u NL|tg t g1 r' TG G1].
  - destruct u as [|c u]; [destruct VU|]. rewrite next_some_vis by assumption. cbn [rbind]. cbv beta iota. rewrite (not_lt c u NL).
    destruct (types_ok l (c :: u) r TL (S (List.length (c :: u))) L s None [] G_nil VU' (Nat.lt_succ_diag_r _) (dd_st _ _ _ _ _ _ D) NRS) as (s' & E & ST & K). cbn [app] in E.
    exists s'. rewrite E. split; [reflexivity|]. cbn [decl_tags]. rewrite orb_false_r. exact (dst_keeps _ _ _ _ _ _ _ _ D ST K).
  - destruct (tag_head _ _ _ TG) as (t' & ->). rewrite next_some_vis by assumption. cbn [rbind]. cbv beta iota. change (pc 60 =? 60)%Z with true. cbv iota.
    destruct (get_tag_ok tg _ _ s TG (so_tags _ _ (dd_st _ _ _ _ _ _ D))) as (tl' & E1 & FT). rewrite E1. cbn [rbind]. cbv beta iota. pose proof (dst_tags _ _ _ _ _ _ tl' D FT) as D1.
    destruct (types_ok l r' r TL (S (List.length (g1 ++ r'))) L (set_tags true tl' s) (Some tg) g1 G1 VU') as (s' & E & ST & K); [pose proof (gap_le g1 r'); lia|exact (dd_st _ _ _ _ _ _ D1)|exact NRS|].
    exists s'. rewrite E. split; [reflexivity|]. cbn [decl_tags]. rewrite orb_true_r. exact (dst_keeps _ _ _ _ _ _ _ _ D1 ST K).
Qed.

Lemma name_of_symbol : forall n t r, symbol (SName n) t r -> exists c u, t = c :: u /\ name_first c = true /\ visible t /\ pc c = c.
Proof.
  intros n t r H. inversion H as [m r' (W & _) N E1 E2 E3|]; subst. destruct n as [|c n]; [easy|]. exists c, (n ++ r). split; [reflexivity|]. split; [now apply name_first_iff|]. apply start_vis. apply start_iff. apply orb_true_iff. left. now apply name_first_iff.
Qed.

Lemma class_term : forall L n, ~ is_token L n -> b_class (entry L n) <> TERM.
Proof. intros L n N. unfold entry, class_of. cbn [b_class]. rewrite (not_true _ _ (tokenb_iff L n) N). destruct (lhsb L n); discriminate. Qed.
Lemma is_token_see : forall L n m, is_token (L ++ [(m, See)]) n -> is_token L n.
Proof. intros L n m [H|H]; [now left|]. apply in_app_or in H as [H|[H|[]]]; [now right|discriminate]. Qed.

Lemma declare_start_ok : forall n g u r L p go h un s, gap g -> symbol (SName n) u r -> dst L p go h un s -> ~ reserved n -> ~ is_token L n ->
  exists s', declare_start (g ++ u) s = ROk (r, s') /\ dst (L ++ [(n, See)]) p (Some n) h un s'.
Proof.
  intros n g u r L p go h un s G SY D NR NT. destruct (name_of_symbol _ _ _ SY) as (c & u' & -> & NF & V & PC). unfold declare_start. rewrite next_some_vis by assumption. cbn [rbind]. cbv beta iota. rewrite PC, NF.
  destruct (get_sym_ok L s _ _ _ (dd_st _ _ _ _ _ _ D) SY NR) as (s1 & E1 & ST1 & K1 & I1). cbn [get_sym] in E1. rewrite NF in E1. change (sym_facts (SName n)) with [(n, See)] in *. cbn [sym_name] in E1, I1. rewrite E1. cbn [rbind]. cbv beta iota.
  rewrite (info_ok _ _ n ST1 I1). cbn [rbind]. cbv beta iota.
  assert (NT' : ~ is_token (L ++ [(n, See)]) n) by (intros X; now apply is_token_see in X). apply class_term in NT'.
  pose proof (dst_keeps L [(n, See)] p go h un s s1 D ST1 K1) as D1.
  exists (set_goal (Some (pos n (names (L ++ [(n, See)])))) s1). split; [destruct (b_class (entry (L ++ [(n, See)]) n)); [reflexivity|now destruct NT'|reflexivity]|].
  destruct D1 as [[A1 A2 A3 A4] D2 D3 D4 D5 D6]. constructor; auto; [constructor; auto|]. cbn. split; [exact I1|reflexivity].
Qed.

Lemma token_list_end : forall l t r, token_list l t r -> visible r /\ List.length r <= List.length t.
Proof.
  intros l t r H. induction H as [r V N|x l t g u r SY G V N H (IH1 & IH2)|x v l t g u g' u' r SY G NT G' V H (IH1 & IH2)]; (split; [assumption|]); [lia|..].
  - apply sym_shorter in SY. pose proof (gap_le g u). lia.
  - apply sym_shorter in SY. apply number_shorter in NT. pose proof (gap_le g u). pose proof (gap_le g' u'). lia.
Qed.
Lemma type_list_end : forall l t r, type_list l t r -> visible r /\ List.length r <= List.length t.
Proof.
  intros l t r H. induction H as [r V N|x l t g u r SY G V N H (IH1 & IH2)]; (split; [assumption|]); [lia|]. apply sym_shorter in SY. pose proof (gap_le g u). lia.
Qed.
Lemma opt_tag_end : forall tag t r, opt_tag tag t r -> List.length r <= List.length t.
Proof. intros tag t r H. destruct H as [r|g t g1 r H G]; [lia|]. apply tag_shorter in H. pose proof (gap_le g1 r). lia. Qed.

Lemma decl_step : forall d t r, decl_text d t r -> forall f L p go h un s g0, gap g0 -> dst L p go h un s -> decl_ok L go un d ->
  exists g s', gap g /\ read_declarations (S f) (g0 ++ t) s = read_declarations f (g ++ r) s' /\
    dst (L ++ decl_facts p d) (level p d) (next_goal go d) (h || decl_tags d) (un || decl_union d) s' /\ List.length (g ++ r) < List.length t /\ visible r.
Proof.
  intros d t r H f L p go h un s g0 G0 D OK.
  assert (ST : forall q t0, percent q -> read_declarations (S f) (g0 ++ q :: t0) s =
      ('(k, t) <- keyword t0 ;;
        match k with
        | KMARK => ROk (t, s)
        | KIDENT => t <- copy_ident t ;; read_declarations f t s
        | KTEXT => t <- copy_text t ;; read_declarations f t s
        | KUNION => '(t, s) <- copy_union t s ;; read_declarations f t s
        | KTOKEN | KLEFT | KRIGHT | KNONASSOC | KPRECEDENCE => '(t, s) <- declare_tokens k t s ;; read_declarations f t s
        | KEXPECT | KEXPECT_RR => '(t, s) <- declare_expect k t s ;; read_declarations f t s
        | KTYPE => '(t, s) <- declare_types t s ;; read_declarations f t s
        | KSTART => '(t, s) <- declare_start t s ;; read_declarations f t s
        | KFLAG => read_declarations f t s
        | KCODE | KOUT => ROut
        end)).
  { intros q t0 Q. destruct (percent_vis q t0 Q) as (V & PC). rewrite read_S, next_some_vis by assumption. cbn [rbind]. cbv beta iota. rewrite PC. reflexivity. }
  destruct H as [a tag l q t g u u' r Q TK G VU OT VU' TL|tag l q t g u u' r Q KT G VU OT VU' TL|n q t g u g' r Q KT G SY G' V|q t g r Q KT G V|q u g r Q PT G V|q t pre u g r Q KT PRE B G V|q t c b n u g r Q KT NC FB NT G V]; rewrite (ST q _ Q); clear ST.
  - destruct (token_key_ok _ _ _ TK) as (k & -> & IT & LT). cbn [rbind]. cbv beta iota. destruct (declare_tokens_ok k a tag l g u u' r L p go h un s IT G VU OT VU' TL D OK) as (s' & E & D').
    exists [], s'. split; [constructor|]. split; [destruct a as [[]|], k; try discriminate; rewrite E; reflexivity|].
    rewrite orb_false_r. split; [exact D'|]. destruct (token_list_end _ _ _ TL) as (V & LE). split; [|exact V]. apply opt_tag_end in OT. pose proof (gap_le g u). cbn [app List.length]. lia.
  - pose proof (key_head _ _ _ KT) as LT. destruct (keyword_word _ (fun k => match k with KTYPE => true | _ => false end) _ _ KT eq_refl) as (k & -> & IT). cbn [rbind]. cbv beta iota. destruct k; try discriminate.
    destruct (declare_types_ok tag l g u u' r L p go h un s G VU OT VU' TL D (proj1 OK)) as (s' & E & D'). rewrite E. cbn [rbind]. cbv beta iota.
    exists [], s'. split; [constructor|]. split; [reflexivity|]. rewrite orb_false_r. split; [exact D'|]. destruct (type_list_end _ _ _ TL) as (V & LE). split; [|exact V]. apply opt_tag_end in OT. pose proof (gap_le g u). cbn [app List.length]. lia.
  - pose proof (key_head _ _ _ KT) as LT. destruct (keyword_word _ (fun k => match k with KSTART => true | _ => false end) _ _ KT eq_refl) as (k & -> & IT). cbn [rbind]. cbv beta iota. destruct k; try discriminate.
    destruct (declare_start_ok n g u (g' ++ r) L p go h un s G SY D (Forall_inv (proj1 OK)) (proj2 OK)) as (s' & E & D'). rewrite E. cbn [rbind]. cbv beta iota.
    exists g', s'. split; [exact G'|]. split; [reflexivity|]. cbn [decl_tags decl_union level next_goal decl_facts]. rewrite !orb_false_r. split; [exact D'|]. split; [|exact V]. apply sym_shorter in SY. pose proof (gap_le g u). cbn [List.length]. lia.
  - pose proof (key_head _ _ _ KT) as LT. destruct (keyword_word _ (fun k => match k with KFLAG => true | _ => false end) _ _ KT eq_refl) as (k & -> & IT). cbn [rbind]. cbv beta iota. destruct k; try discriminate.
    exists g, s. split; [exact G|]. split; [reflexivity|]. cbn [decl_tags decl_union level next_goal decl_facts]. rewrite !orb_false_r, app_nil_r. split; [exact D|]. split; [|exact V]. cbn [List.length]. lia.
  - change (keyword (123%Z :: u ++ g ++ r)) with (@ROk (kw * txt) (KTEXT, u ++ g ++ r)). cbn [rbind]. cbv beta iota. unfold copy_text. rewrite copy_text_ok by (try exact PT; rewrite app_length; lia). cbn [rbind].
    exists g, s. split; [exact G|]. split; [reflexivity|]. cbn [decl_tags decl_union level next_goal decl_facts]. rewrite !orb_false_r, app_nil_r. split; [exact D|]. split; [|exact V]. cbn [List.length]. rewrite !app_length. lia.
  - pose proof (key_head _ _ _ KT) as LT. destruct (keyword_word _ (fun k => match k with KUNION => true | _ => false end) _ _ KT eq_refl) as (k & -> & IT). cbn [rbind]. cbv beta iota. destruct k; try discriminate.
    apply proj2 in OK. unfold copy_union. rewrite (dd_union _ _ _ _ _ _ D), OK. rewrite union_prefix_ok by (try exact PRE; try exact B; lia). cbn [rbind]. cbv beta iota.
    exists g, (set_union true s). split; [exact G|]. split; [reflexivity|]. cbn [decl_tags decl_union level next_goal decl_facts]. rewrite orb_false_r, orb_true_r, app_nil_r. split; [|split; [|exact V]].
    + destruct D as [[A1 A2 A3 A4] D2 D3 D4 D5 D6]. constructor; auto. constructor; auto.
    + rewrite app_length in LT. cbn [List.length] in LT |- *. rewrite app_length in LT. lia.
  - pose proof (key_head _ _ _ KT) as LT. destruct (keyword_word _ (fun k => match k with KEXPECT | KEXPECT_RR => true | _ => false end) _ _ KT eq_refl) as (k & -> & IT). cbn [rbind]. cbv beta iota.
    assert (E : declare_expect k (c :: b ++ u) s = ROk (g ++ r, set_expect (match k with KEXPECT => (n, snd (d_expect s)) | _ => (fst (d_expect s), n) end) s)).
    { unfold declare_expect. rewrite (proj2 (Z.eqb_neq _ _) NC), (expect_ok b n u (g ++ r) FB NT). reflexivity. }
    exists g, (set_expect (match k with KEXPECT => (n, snd (d_expect s)) | _ => (fst (d_expect s), n) end) s). split; [exact G|]. split; [destruct k; try discriminate; rewrite E; reflexivity|].
    cbn [decl_tags decl_union level next_goal decl_facts]. rewrite !orb_false_r, app_nil_r. split; [|split; [|exact V]].
    + destruct D as [[A1 A2 A3 A4] D2 D3 D4 D5 D6]. constructor; auto. constructor; auto.
    + apply number_shorter in NT. cbn [List.length] in LT |- *. rewrite (app_length b u) in LT. lia.
Qed.

(** All declarations. *)
Fixpoint decls_ok (L : log) (p : nat) (go : option txt) (u : bool) (l : list decl) : Prop :=
  match l with
  | [] => True
  | d :: r => decl_ok L go u d /\ decls_ok (L ++ decl_facts p d) (level p d) (next_goal go d) (u || decl_union d) r
  end.

Lemma decls_read : forall ds t r, decls_text ds t r -> forall f L p go h u s g0 a b v, r = a :: b :: v -> percent a -> percent b -> gap g0 -> dst L p go h u s -> decls_ok L p go u ds ->
  List.length (g0 ++ t) < f ->
  exists s', read_declarations f (g0 ++ t) s = ROk (v, s') /\
    dst (L ++ decls_facts p ds) (fold_left level ds p) (fold_left next_goal ds go) (h || existsb decl_tags ds) (u || existsb decl_union ds) s'.
Proof.
  intros ds t r H. induction H as [r|d l t u r DT H IH]; intros f L p go h un s g0 a b v Er Pa Pb G0 D OK LF.
  - subst r. destruct f as [|f]; [lia|]. destruct (percent_vis a (b :: v) Pa) as (V & PC). rewrite read_S, next_some_vis by assumption. cbn [rbind]. cbv beta iota. rewrite PC. cbn [Z.eqb Pos.eqb negb tl].
    assert (K : keyword (b :: v) = ROk (KMARK, v)) by (destruct Pb as [-> | ->]; reflexivity). rewrite K. cbn [rbind]. cbv beta iota. exists s. split; [reflexivity|]. cbn [decls_facts fold_left existsb]. rewrite app_nil_r, !orb_false_r. exact D.
  - destruct f as [|f]; [lia|]. cbn [decls_ok] in OK. destruct OK as (OK1 & OK2). destruct (decl_step d t u DT f L p go h un s g0 G0 D OK1) as (g & s1 & G & E & D1 & LE & V).
    destruct (IH f _ _ _ _ _ s1 g a b v Er Pa Pb G D1 OK2) as (s' & E' & D'); [rewrite app_length in LF; lia|]. exists s'. rewrite E, E'. split; [reflexivity|].
    cbn [decls_facts fold_left existsb]. rewrite app_assoc, !orb_assoc. exact D'.
Qed.
