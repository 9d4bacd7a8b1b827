(** C69: %start behind the mark. *)
From Coq Require Import String List Arith ZArith Lia Bool.
Import ListNotations.
From Verif Require Import Base LemonTableModel LemonPreModel LemonCodeModel ByaccReaderModel ByaccRulesModel ByaccScanModel SpecByaccFile ByaccScanProof ByaccDeclProof.
Local Open Scope rd_scope.

Lemma gap_head : forall g r, gap g -> g <> [] -> exists c x, g ++ r = c :: x /\ (blank c \/ c = 47%Z).
Proof. intros g r G N. destruct G as [|c g B G|b g I G|b g I G]; [now destruct N| | |]; (eexists; eexists; split; [reflexivity|auto]). Qed.
Lemma gap_not_ident : forall g r, gap g -> g <> [] -> not_head is_ident (g ++ r).
Proof.
  intros g r G N. destruct (gap_head g r G N) as (c & x & -> & H). cbn [not_head]. unfold is_ident, isalnum, isalpha. unfold blank in H. intros K. destruct H as [H|H]; destruct K as [K|[K|[K|K]]]; try lia; cbn [In] in H; lia.
Qed.
Lemma gap_not_key : forall g r, gap g -> g <> [] -> not_head is_key (g ++ r).
Proof.
  intros g r G N. destruct (gap_head g r G N) as (c & x & -> & H). cbn [not_head]. unfold is_key, isalnum, isalpha. unfold blank in H. cbn [In]. intros K. destruct H as [H|H]; destruct K as [K|[K|[K|[K|[K|[]]]]]]; try lia; cbn [In] in H; lia.
Qed.

(** What declare_start does to the state. *)
Definition start_state (n : txt) (s : rdstate) : rd rdstate :=
  if is_reserved n then RErr else let (i, s) := lookup n s in b <- info i s ;; match b_class b with TERM => RErr | _ => ROk (set_goal (Some i) s) end.

Lemma start_step : forall g n g' r s, gap g -> word n -> gap g' -> g' <> [] -> declare_start (g ++ n ++ g' ++ r) s = (s' <- start_state n s ;; ROk (g' ++ r, s')).
Proof.
  intros g n g' r s G W G' N. assert (SY : symbol (SName n) (n ++ g' ++ r) (g' ++ r)) by (apply S_name; [exact W|now apply gap_not_ident]).
  destruct (name_of_symbol _ _ _ SY) as (c & u & E & NF & V & PC). unfold declare_start. rewrite E in V |- *. rewrite next_some_vis by assumption. cbn [rbind]. cbv beta iota. rewrite PC, NF. unfold get_name, start_state. rewrite <- E.
  rewrite (span_ok IS_IDENT is_ident IS_IDENT_iff) by (try apply (proj2 W); now apply gap_not_ident). destruct (is_reserved n); [reflexivity|]. destruct (lookup n s) as (i & s1). cbn [rbind]. cbv beta iota. destruct (info i s1) as [b| | | |]; try reflexivity. cbn [rbind]. destruct (b_class b); reflexivity.
Qed.
Lemma start_key : forall w g r, Forall2 same_key w (zs "start") -> gap g -> g <> [] -> keyword (w ++ g ++ r) = ROk (KSTART, g ++ r).
Proof.
  intros w g r K G N. assert (KT : key_text [zs "start"] (w ++ g ++ r) (g ++ r)) by (apply (K_key _ w (zs "start")); [now left|exact K|discriminate|now apply gap_not_key]).
  destruct (keyword_word _ (fun k => match k with KSTART => true | _ => false end) _ _ KT eq_refl) as (k & E & P). destruct k; try discriminate. exact E.
Qed.
Lemma not37 : forall (A : Type) (x y : A) z, z <> 37%Z -> match Some z with Some 37%Z => x | _ => y end = y.
Proof. intros A x y z N. destruct z as [|p|p]; try reflexivity. do 6 (destruct p as [p|p|]; try reflexivity). now destruct N. Qed.
Lemma percent_vis : forall c r, percent c -> visible (c :: r) /\ pc c = 37%Z.
Proof. intros c r [-> | ->]; (split; [split; [intros H; unfold blank in H; cbn [In] in H; lia|split; lia]|reflexivity]). Qed.
Lemma rules_begin : forall f g u s, gap g -> visible u -> not_head percent u -> before_rules (S f) (g ++ u) s = ROk (u, s).
Proof.
  intros f g [|c u] s G V N; [destruct V|]. cbn [before_rules]. rewrite next_vis by assumption. cbn [rbind]. cbv beta iota. apply not37. intros E. apply N. unfold percent. unfold pc in E. destruct (Z.eqb_spec c 92); [now right|now left].
Qed.

(** A file that begins with %start and one with the same declaration behind the mark, before the first rule, are the same to
    byacc, whatever follows (rules that are rejected too). *)
Theorem C69_start_behind_mark : forall file file' p w g n g' q q' h u,
  percent p -> Forall2 same_key w (zs "start") -> gap g -> g <> [] -> word n -> gap g' -> g' <> [] -> percent q -> percent q' -> gap h -> visible u -> not_head percent u ->
  input file = p :: w ++ g ++ n ++ g' ++ q :: q' :: h ++ u -> input file' = q :: q' :: h ++ p :: w ++ g ++ n ++ g' ++ u ->
  read_file file = read_file file'.
Proof.
  intros file file' p w g n g' q q' h u P K G GN W G' GN' Q Q' H V NP E E'.
  assert (MK : forall r s f, read_declarations (S f) (q :: q' :: r) s = ROk (r, s)).
  { intros r s f. cbn [read_declarations]. destruct (percent_vis q (q' :: r) Q) as (VQ & PQ). pose proof (next_some_vis [] q (q' :: r) G_nil VQ) as NS. cbn [app] in NS. rewrite NS. cbn [rbind]. cbv beta iota. rewrite PQ. cbn [negb Z.eqb Pos.eqb tl]. unfold keyword. destruct Q' as [-> | ->]; reflexivity. }
  assert (MK' : forall r s f, read_declarations (S f) (g' ++ q :: q' :: r) s = ROk (r, s)).
  { intros r s f. cbn [read_declarations]. destruct (percent_vis q (q' :: r) Q) as (VQ & PQ). rewrite next_some_vis by assumption. cbn [rbind]. cbv beta iota. rewrite PQ. cbn [negb Z.eqb Pos.eqb tl]. unfold keyword. destruct Q' as [-> | ->]; reflexivity. }
  unfold read_file. rewrite E, E'. cbv zeta. rewrite MK. cbn [rbind]. cbv beta iota.
  set (T := w ++ g ++ n ++ g' ++ q :: q' :: h ++ u).
  assert (E1 : read_declarations (S (List.length (p :: T))) (p :: T) init_state = (s <- start_state n init_state ;; ROk (h ++ u, s))).
  { cbn [List.length]. set (f := List.length T). cbn [read_declarations]. destruct (percent_vis p T P) as (VP & PP). pose proof (next_some_vis [] p T G_nil VP) as NS. cbn [app] in NS. rewrite NS. cbn [rbind]. cbv beta iota. rewrite PP. cbn [negb Z.eqb Pos.eqb tl]. unfold T. rewrite start_key by assumption. cbn [rbind]. cbv beta iota.
    rewrite start_step by assumption. destruct (start_state n init_state) as [s| | | |]; try reflexivity. cbn [rbind]. cbv beta iota. apply MK'. }
  rewrite E1.
  assert (E2 : forall s0, advance_to_start (h ++ p :: w ++ g ++ n ++ g' ++ u) s0 = (s <- start_state n s0 ;; advance_to_start (h ++ u) s)).
  { intros s0. unfold advance_to_start. assert (B : before_rules (S (List.length (h ++ p :: w ++ g ++ n ++ g' ++ u))) (h ++ p :: w ++ g ++ n ++ g' ++ u) s0 = (s <- start_state n s0 ;; ROk (u, s))).
    { rewrite app_length. cbn [List.length]. rewrite Nat.add_succ_r. set (f := List.length h + _). cbn [before_rules]. destruct (percent_vis p (w ++ g ++ n ++ g' ++ u) P) as (VP & PP). rewrite next_vis by assumption. cbn [rbind]. cbv beta iota. rewrite PP. cbv iota. cbn [tl].
      rewrite start_key by assumption. cbn [rbind]. cbv beta iota. rewrite start_step by assumption. destruct (start_state n s0) as [s| | | |]; try reflexivity. cbn [rbind]. cbv beta iota. now apply rules_begin. }
    rewrite B. destruct (start_state n s0) as [s| | | |]; try reflexivity. cbn [rbind]. cbv beta iota. rewrite rules_begin by assumption. reflexivity. }
  unfold read_rules. rewrite E2. destruct (start_state n init_state) as [s| | | |]; reflexivity.
Qed.
Print Assumptions C69_start_behind_mark.

(** The start symbol is b and not the left side of the first rule. *)
Example C69_start_behind_mark_hypotheses :
  let a := zs "%start b" ++ [10%Z] ++ zs "%%" ++ [10%Z] ++ zs "a : ; b : a ;" ++ [10%Z] in
  let c := zs "%%" ++ [10%Z] ++ zs "%start b" ++ [10%Z] ++ zs "a : ; b : a ;" ++ [10%Z] in
  input a = a /\ input c = c /\ exists s, read_file a = ROk s /\ read_file c = ROk s /\ d_goal s = Some 1 /\ option_map b_name (nth_error (d_infos s) 1) = Some (zs "b") /\ option_map b_name (nth_error (d_infos s) 2) = Some (zs "a").
Proof. cbv zeta. split; [vm_compute; reflexivity|]. split; [vm_compute; reflexivity|]. eexists. split; [vm_compute; reflexivity|]. split; [vm_compute; reflexivity|]. split; [reflexivity|]. split; vm_compute; reflexivity. Qed.
Example C69_start_behind_mark_use : read_file (zs "%START b %% a : ; b : a ;") = read_file (zs "%% %START b a : ; b : a ;").
Proof.
  assert (B : gap (zs " ")) by (apply G_blank; [now left|apply G_nil]).
  apply (C69_start_behind_mark _ _ 37%Z (zs "START") (zs " ") (zs "b") (zs " ") 37%Z 37%Z (zs " ") (zs "a : ; b : a ;" ++ [10%Z])); try exact B; try (now left); try (vm_compute; reflexivity); try discriminate.
  - vm_compute zs. do 5 (apply Forall2_cons; [unfold same_key; lia|]). apply Forall2_nil.
  - split; [left; reflexivity|]. apply Forall_cons; [left; reflexivity|apply Forall_nil].
  - change (zs "a : ; b : a ;" ++ [10%Z]) with (97%Z :: zs " : ; b : a ;" ++ [10%Z]). split; [intros H; unfold blank in H; cbn [In] in H; lia|split; lia].
  - cbn. unfold percent. lia.
Qed.

(** C text in %{ and %} behind the mark does not matter to the grammar, whatever follows. *)
Theorem C69_text_behind_mark : forall file file' p t g q q' h u,
  percent p -> ptext t -> gap g -> percent q -> percent q' -> gap h -> visible u -> not_head percent u ->
  input file = q :: q' :: h ++ u -> input file' = q :: q' :: h ++ p :: 123%Z :: t ++ g ++ u ->
  read_file file = read_file file'.
Proof.
  intros file file' p t g q q' h u P T G Q Q' H V NP E E'.
  assert (MK : forall r s f, read_declarations (S f) (q :: q' :: r) s = ROk (r, s)).
  { intros r s f. cbn [read_declarations]. destruct (percent_vis q (q' :: r) Q) as (VQ & PQ). pose proof (next_some_vis [] q (q' :: r) G_nil VQ) as NS. cbn [app] in NS. rewrite NS. cbn [rbind]. cbv beta iota. rewrite PQ. cbn [negb Z.eqb Pos.eqb tl]. unfold keyword. destruct Q' as [-> | ->]; reflexivity. }
  unfold read_file. rewrite E, E'. cbv zeta. rewrite !MK. cbn [rbind]. cbv beta iota. unfold read_rules, advance_to_start. rewrite rules_begin by assumption.
  assert (B : before_rules (S (List.length (h ++ p :: 123%Z :: t ++ g ++ u))) (h ++ p :: 123%Z :: t ++ g ++ u) init_state = ROk (u, init_state)).
  { rewrite app_length. cbn [List.length]. rewrite Nat.add_succ_r. set (f := List.length h + _). cbn [before_rules]. destruct (percent_vis p (123%Z :: t ++ g ++ u) P) as (VP & PP). rewrite next_vis by assumption. cbn [rbind]. cbv beta iota. rewrite PP. cbv iota. cbn [tl].
    change (keyword (123%Z :: t ++ g ++ u)) with (@ROk (kw * txt) (KTEXT, t ++ g ++ u)). cbn [rbind]. cbv beta iota. unfold copy_text. rewrite copy_text_ok by (try exact T; rewrite app_length; lia). cbn [rbind]. unfold f. rewrite Nat.add_succ_r. now apply rules_begin. }
  now rewrite B.
Qed.
Print Assumptions C69_text_behind_mark.
Example C69_text_behind_mark_use :
  read_file (zs "%% a : 'x' ;") = read_file (zs "%% %{i%2%} a : 'x' ;") /\ exists s, read_file (zs "%% a : 'x' ;") = ROk s /\ option_map b_name (nth_error (d_infos s) 1) = Some (zs "a").
Proof.
  split; [|eexists; split; vm_compute; reflexivity].
  assert (B : gap (zs " ")) by (apply G_blank; [now left|apply G_nil]).
  apply (C69_text_behind_mark _ _ 37%Z (zs "i%2%}") (zs " ") 37%Z 37%Z (zs " ") (zs "a : 'x' ;" ++ [10%Z])); try exact B; try (now left); try (vm_compute; reflexivity).
  - change (ptext [105; 37; 50; 37; 125]%Z). apply P_char; try lia; [cbn; lia|]. apply P_char; try lia; [cbn; lia|]. apply P_char; try lia; [cbn; lia|]. apply P_end. now left.
  - change (zs "a : 'x' ;" ++ [10%Z]) with (97%Z :: zs " : 'x' ;" ++ [10%Z]). split; [intros H; unfold blank in H; cbn [In] in H; lia|split; lia].
  - cbn. unfold percent. lia.
Qed.

(** All other declarations (but %code, which is not modelled), and a second mark, are errors behind the mark. *)
Definition early_only : list txt :=
  [zs "token"; zs "term"; zs "left"; zs "right"; zs "nonassoc"; zs "binary"; zs "precedence"; zs "type"; zs "nterm"; zs "union"; zs "expect"; zs "expect-rr"; zs "ident";
   zs "define"; zs "destructor"; zs "initial-action"; zs "lex-param"; zs "parse-param"] ++ flags.
Theorem C69_late_declaration : forall file p t r q q' h,
  percent p -> key_text early_only t r \/ (exists c, percent c /\ t = c :: r) -> percent q -> percent q' -> gap h -> input file = q :: q' :: h ++ p :: t -> read_file file = RErr.
Proof.
  intros file p t r q q' h P T Q Q' H E.
  assert (MK : forall r s f, read_declarations (S f) (q :: q' :: r) s = ROk (r, s)).
  { intros r0 s f. cbn [read_declarations]. destruct (percent_vis q (q' :: r0) Q) as (VQ & PQ). pose proof (next_some_vis [] q (q' :: r0) G_nil VQ) as NS. cbn [app] in NS. rewrite NS. cbn [rbind]. cbv beta iota. rewrite PQ. cbn [negb Z.eqb Pos.eqb tl]. unfold keyword. destruct Q' as [-> | ->]; reflexivity. }
  unfold read_file. rewrite E. cbv zeta. rewrite !MK. cbn [rbind]. cbv beta iota. unfold read_rules, advance_to_start. cbn [before_rules]. destruct (percent_vis p t P) as (VP & PP). rewrite next_vis by assumption. cbn [rbind]. cbv beta iota. rewrite PP. cbv iota. cbn [tl].
  assert (K : exists k, keyword t = ROk (k, r) /\ match k with KTEXT | KSTART | KCODE => false | _ => true end = true).
  { destruct T as [T|(c & C & ->)].
    - apply (keyword_word _ (fun k => match k with KTEXT | KSTART | KCODE => false | _ => true end) _ _ T). vm_compute. reflexivity.
    - exists KMARK. unfold keyword. destruct C as [-> | ->]; split; reflexivity. }
  destruct K as (k & -> & K). cbn [rbind]. cbv beta iota. destruct k; try discriminate; reflexivity.
Qed.
Print Assumptions C69_late_declaration.
Example C69_late_declaration_use : read_file (zs "%% %Token b") = RErr.
Proof.
  apply (C69_late_declaration _ 37%Z (zs "Token b" ++ [10%Z]) (zs " b" ++ [10%Z]) 37%Z 37%Z (zs " ")); try (now left).
  - left. apply (K_key early_only (zs "Token") (zs "token") (zs " b" ++ [10%Z])); [now left| |discriminate|].
    + vm_compute zs. do 5 (apply Forall2_cons; [unfold same_key; lia|]). apply Forall2_nil.
    + apply (gap_not_key (zs " ") (zs "b" ++ [10%Z])); [|discriminate]. apply G_blank; [now left|apply G_nil].
  - apply G_blank; [now left|apply G_nil].
  - vm_compute. reflexivity.
Qed.
