(** Proofs about the text that lemon -y prints (C73). *)
From Coq Require Import String List Arith ZArith Bool Lia.
Import ListNotations.
From Verif Require Import Base CLib LemonTableModel LemonTableProof LemonPreModel LemonActionModel LemonPipelineModel LemonReadModel SpecItems LemonReadProof SpecFile LemonIndexProof.
From Verif Require Import LemonCodeModel LemonReprintModel SpecReprint ReprintTextProof.
From Verif Require LemonScanProof LemonPrintfModel ByaccParModel ByaccReaderModel ByaccScanModel Prop_ByaccLiteral SpecByaccFile.
Import SpecByaccFile.
Local Open Scope res_scope.

(** * Characters *)

(** Neither a newline nor a number sign. *)
Definition flat (t : txt) : Prop := Forall (fun c => c <> 10 /\ c <> 35)%Z t.
Definition clean (t : txt) : Prop := ~ In 35%Z t.
Lemma flat_app : forall a b, flat a -> flat b -> flat (a ++ b).
Proof. intros a b A B. apply Forall_app. auto. Qed.
Lemma flat_no10 : forall a, flat a -> ~ In 10%Z a.
Proof. intros a A I. unfold flat in A. rewrite Forall_forall in A. destruct (A _ I). lia. Qed.
Lemma flat_clean : forall a, flat a -> clean a.
Proof. intros a A I. unfold flat in A. rewrite Forall_forall in A. destruct (A _ I). lia. Qed.
Lemma clean_app : forall a b, clean a -> clean b -> clean (a ++ b).
Proof. intros a b A B I. apply in_app_iff in I as [I|I]; auto. Qed.
Ltac lit := (unfold flat; repeat (constructor; [split; discriminate|]); constructor) || (let K := fresh in intros K; cbn in K; repeat (destruct K as [K|K]; [discriminate K|]); destruct K).

Lemma digits_range : forall f v acc d, LemonPrintfModel.digits f v acc = Ok d -> Forall (fun c => 45 <= c <= 57)%Z acc -> Forall (fun c => 45 <= c <= 57)%Z d.
Proof.
  induction f as [|f IH]; intros v acc d E F; cbn [LemonPrintfModel.digits] in E; destruct (0 <? v)%Z eqn:Q; try discriminate; try (injection E as <-; exact F).
  apply IH in E; [exact E|]. constructor; [|exact F]. pose proof (Z.mod_pos_bound v 10 eq_refl). lia.
Qed.
Lemma ndec_range : forall n, Forall (fun c => 45 <= c <= 57)%Z (ndec n).
Proof.
  intros n. unfold ndec, zdec. destruct (LemonPrintfModel.digits 50 (Z.abs (Z.of_nat n)) []) as [d| |] eqn:E; try (constructor; fail). apply digits_range in E; [|constructor].
  destruct d as [|c d]; [repeat constructor; discriminate|]. apply Forall_app. split; [|exact E]. destruct (_ <? 0)%Z; repeat constructor; discriminate.
Qed.
Lemma ndec_flat : forall n, flat (ndec n).
Proof. intros n. eapply Forall_impl; [|apply ndec_range]. cbn beta. lia. Qed.
Lemma ndec_star : forall n, ~ In 42%Z (ndec n).
Proof. intros n I. pose proof (ndec_range n) as F. rewrite Forall_forall in F. specialize (F _ I). cbn beta in F. lia. Qed.

Lemma wordch_range : forall c, wordch c = true -> (48 <= c <= 122)%Z.
Proof.
  intros c H. unfold wordch, isalnum in H. rewrite !orb_true_iff, andb_true_iff, !Z.leb_le, Z.eqb_eq in H. destruct H as [[H|H]|H]; try lia. apply alpha_range in H. lia.
Qed.
Lemma nm_flat : forall x, nm x -> flat x.
Proof.
  intros [|c a] H; [destruct H|]. destruct H as (H1 & H2). constructor; [apply alpha_range in H1; lia|]. apply Forall_forall. intros d I. rewrite forallb_forall in H2. specialize (H2 d I). apply wordch_range in H2. lia.
Qed.

(** Comments with precedences. *)
Lemma commented : forall s, gap (prec_commented s) /\ (prec_commented s = [] \/ ReprintTextProof.spaced (prec_commented s)) /\ clean (prec_commented s).
Proof.
  intros s. unfold prec_commented. destruct (so_prec s) as [p|]; [|split; [constructor|split; [now left|intros []]]].
  assert (C : In (get_symbol_prec_chr s) [76; 82; 78; 80; 85]%Z) by (unfold get_symbol_prec_chr; destruct (so_prec s), (so_type s), (so_assoc s); cbn [In]; tauto).
  split; [|split; [right; reflexivity|]].
  - change (zs " /*" ++ ndec p ++ [get_symbol_prec_chr s] ++ zs "*/") with (32%Z :: zs "/*" ++ ndec p ++ [get_symbol_prec_chr s] ++ zs "*/"). apply gap_32.
    replace (zs "/*" ++ ndec p ++ [get_symbol_prec_chr s] ++ zs "*/") with (comment (ndec p ++ [get_symbol_prec_chr s])) by (unfold comment; now rewrite <- !app_assoc).
    apply gap_comment1. intros I. apply in_app_iff in I as [I|I]; [exact (ndec_star p I)|]. destruct I as [I|[]]. rewrite I in C. cbn [In] in C. lia.
  - apply clean_app; [lit|]. apply clean_app; [apply flat_clean, ndec_flat|]. apply clean_app; [|lit]. intros [I|[]]. rewrite I in C. cbn [In] in C. lia.
Qed.

(** * The list of symbols *)
Lemma column_ok : forall skip maxlen (names : list text), 1 <= skip -> Forall flat names -> forall f j, List.length names - j < f ->
  exists x, column f skip maxlen names j = Ok x /\ flat x.
Proof.
  intros skip maxlen names SK FN. induction f as [|f IH]; intros j L; cbn [column]; [lia|]. destruct (j <? List.length names) eqn:Q; [|exists []; split; [reflexivity|constructor]].
  apply Nat.ltb_lt in Q. destruct (nth_error names j) as [x|] eqn:E; [|apply nth_error_None in E; lia]. cbn [opt bind]. destruct (IH (j + skip)) as (r & -> & FR); [lia|]. cbn [bind].
  eexists. split; [reflexivity|]. assert (FX : flat x) by (rewrite Forall_forall in FN; apply FN; eapply nth_error_In; eauto).
  assert (SP : forall n, flat (repeat 32%Z n)) by (intros n; apply Forall_forall; intros c I; apply repeat_spec in I; lia).
  apply flat_app; [lit|]. apply flat_app; [apply flat_app; [apply SP|apply ndec_flat]|]. apply flat_app; [lit|]. apply flat_app; [|exact FR].
  apply flat_app; [|apply SP]. apply Forall_forall. intros c I. unfold flat in FX. rewrite Forall_forall in FX. apply FX. rewrite <- (firstn_skipn maxlen x). apply in_app_iff. now left.
Qed.
Lemma columns_ok : forall skip maxlen (names : list text) l, 1 <= skip -> Forall flat names -> exists x, columns skip maxlen names l = Ok x /\ gap x /\ clean x.
Proof.
  intros skip maxlen names l SK FN. induction l as [|i l IH]; cbn [columns]; [exists []; split; [reflexivity|split; [constructor|intros []]]|].
  destruct (column_ok skip maxlen names SK FN (S (List.length names)) i) as (x & -> & FX); [lia|]. cbn [bind]. destruct IH as (r & -> & G & C). cbn [bind]. eexists. split; [reflexivity|]. split.
  - apply (G_line x r); [now apply flat_no10|exact G].
  - apply clean_app; [lit|]. apply clean_app; [now apply flat_clean|]. apply clean_app; [lit|exact C].
Qed.
Lemma token_numbers_ok : forall filename (names : list text), flat filename -> Forall flat names -> exists h, Reprint_token_numbers filename names = Ok h /\ gap h /\ clean h.
Proof.
  intros filename names FF FN. unfold Reprint_token_numbers. set (maxlen := fold_left _ _ _). set (nc := Nat.max 1 _). set (skip := _ / nc).
  assert (H : exists x, columns skip maxlen names (seq 0 skip) = Ok x /\ gap x /\ clean x).
  { destruct skip as [|k]; [exists []; split; [reflexivity|split; [constructor|intros []]]|]. apply columns_ok; [lia|exact FN]. }
  destruct H as (x & -> & G & C). cbn [bind]. eexists. split; [reflexivity|]. split.
  - change (gap (zs "//" ++ (zs " Reprint of input file """ ++ filename ++ zs """." ++ nl ++ zs "// Symbols:" ++ nl ++ x))).
    replace (zs " Reprint of input file """ ++ filename ++ zs """." ++ nl ++ zs "// Symbols:" ++ nl ++ x) with ((zs " Reprint of input file """ ++ filename ++ zs """.") ++ 10%Z :: zs "//" ++ zs " Symbols:" ++ 10%Z :: x) by (rewrite <- !app_assoc; reflexivity).
    apply G_line; [apply flat_no10; repeat apply flat_app; auto; lit|]. apply G_line; [lit|exact G].
  - apply clean_app; [lit|]. apply clean_app; [now apply flat_clean|]. apply clean_app; [lit|]. apply clean_app; [lit|]. apply clean_app; [lit|]. apply clean_app; [lit|exact C].
Qed.

(** * The tokens and levels *)

(** An object prints as the symbol [x] of the file. *)
Definition prints (ign : bool) (items : list item) (s : sobj) (x : text) : Prop :=
  so_name s = x /\ is_terminal s = isupper (ch x 0) /\ so_prec s = option_map fst (prec_of ign items x) /\ (forall p a, prec_of ign items x = Some (p, a) -> so_assoc s = a).

Section Decls.
Variable ign : bool.
Variable items : list item.
Notation prints := (prints ign items).

Definition toks (l : list text) : list (fsym * option Z) := map (fun x => (SName x, None)) l.
Definition at_level (j : nat) (x : text) : bool := match prec_of ign items x with Some (p, _) => p =? j | None => false end.
Definition assoc_of (x : text) : e_assoc := match prec_of ign items x with Some (_, a) => a | None => UNK end.
Definition token_decl (terms : list text) : list SpecByaccFile.decl := match terms with [] => [] | _ => [DTokens None None (toks terms)] end.
Definition level_decl (terms : list text) (j : nat) : list SpecByaccFile.decl :=
  match filter (at_level j) terms with
  | [] => []
  | (x :: _) as l => [DTokens (Some (yacc_assoc (assoc_of x))) None (toks l)]
  end.

Lemma token_names_ok : forall l names b T R, Forall2 prints l names -> Forall nm names -> not_head is_ident T -> gtoks [] T R -> clean T ->
  gtoks (toks names) (token_names b l ++ T) R /\ clean (token_names b l ++ T) /\ not_head is_ident (token_names b l ++ T).
Proof.
  intros l names b T R H. revert b. induction H as [|s x l names (P & _) H IH]; intros b N NI G C; [split; [exact G|split; [exact C|exact NI]]|]. inversion N as [|? ? N1 N2]; subst.
  destruct (IH (S b) N2 NI G C) as (G1 & C1 & NI1). cbn [token_names toks map]. set (e := if S b mod 6 =? 0 then nl ++ zs " " else []).
  assert (GE : gap e) by (unfold e; destruct (_ =? 0); [apply gap_10, gap_32; constructor|constructor]).
  assert (CE : clean e) by (unfold e; destruct (_ =? 0); [lit|intros []]).
  rewrite <- !app_assoc. split; [|split].
  - apply gtoks_cons; [exact N1| |now apply gtoks_gap]. unfold e. destruct (_ =? 0); [|exact NI1]. apply (not_ident 10%Z). right. now left.
  - apply clean_app; [lit|]. apply clean_app; [now apply flat_clean, nm_flat|]. now apply clean_app.
  - apply (not_ident 32%Z). now left.
Qed.

Lemma filter_prints : forall p q l names, (forall s x, prints s x -> p s = q x) -> Forall2 prints l names -> Forall2 prints (filter p l) (filter q names).
Proof. intros p q l names E H. induction H as [|s x l names P H IH]; [constructor|]. cbn [filter]. rewrite (E _ _ P). destruct (q x); [constructor|]; auto. Qed.

Lemma gdecls_next : forall ds T R, gdecls ds T R -> exists g r, T = g ++ 37%Z :: r /\ gap g /\ decls_text ds (37%Z :: r) R.
Proof. intros ds T R H. exact H. Qed.

Lemma token_line_ok : forall syms names ds T R, Forall2 prints syms names -> Forall nm (filter (fun x => isupper (ch x 0)) names) -> gdecls ds T R -> clean T ->
  gdecls (token_decl (filter (fun x => isupper (ch x 0)) names) ++ ds) (token_line syms ++ T) R /\ clean (token_line syms ++ T).
Proof.
  intros syms names ds T R H N (g & r & -> & G & D) C. pose proof (filter_prints is_terminal (fun x => isupper (ch x 0)) syms names (fun s x P => proj1 (proj2 P)) H) as H2.
  unfold token_line, token_decl. revert N H2. generalize (filter (fun x => isupper (ch x 0)) names). intros terms N H2. inversion H2 as [|s x l terms' P H3 E1 E2].
  - cbn [app]. split; [apply (gdecls_gap nl); [apply gap_10; constructor|exists g, r; auto]|]. apply clean_app; [lit|exact C].
  - rewrite E1, E2 in *. rewrite <- !app_assoc. assert (G0 : gtoks [] (nl ++ nl ++ g ++ 37%Z :: r) (37%Z :: r)).
    { change (nl ++ nl ++ g ++ 37%Z :: r) with ((nl ++ nl ++ g) ++ 37%Z :: r). apply gtoks_end. now apply gap_10, gap_10. }
    destruct (token_names_ok (filter is_terminal syms) terms 0 (nl ++ nl ++ g ++ 37%Z :: r) (37%Z :: r) H2 N) as (A1 & A2 & A3); [apply (not_ident 10%Z); right; now left|exact G0|apply clean_app; [lit|]; apply clean_app; [lit|exact C]|].
    split.
    + eapply gdecls_tokens with (k := zs "token"); [| |exact D|reflexivity].
      * constructor. apply key_at; [now left| |discriminate]. repeat constructor; discriminate.
      * apply (gtoks_gap [32%Z]); [apply gap_32; constructor|exact A1].
    + apply clean_app; [lit|]. exact A2.
Qed.

Hypothesis SAME : forall x y p a b, prec_of ign items x = Some (p, a) -> prec_of ign items y = Some (p, b) -> a = b.
Hypothesis KNOWN : forall x p a, prec_of ign items x = Some (p, a) -> a <> UNK.

Lemma assoc_key : forall a r, a <> UNK -> token_key (Some (yacc_assoc a)) (sassoc a ++ 32%Z :: r) (32%Z :: r).
Proof.
  intros a r H. destruct a; [constructor 3|constructor 5|constructor 7|constructor 9|congruence]; (apply key_at; [cbn [In]; tauto| |discriminate]); repeat constructor; discriminate.
Qed.

Lemma level_names_ok : forall l names T R, Forall2 prints l names -> Forall nm names -> not_head is_ident T -> gtoks [] T R -> clean T ->
  gtoks (toks names) (flat_map (fun s => zs " " ++ so_name s) l ++ T) R /\ clean (flat_map (fun s => zs " " ++ so_name s) l ++ T) /\ not_head is_ident (flat_map (fun s => zs " " ++ so_name s) l ++ T).
Proof.
  intros l names T R H. induction H as [|s x l names (P & _) H IH]; intros N NI G C; [split; [exact G|split; [exact C|exact NI]]|]. inversion N as [|? ? N1 N2]; subst.
  destruct (IH N2 NI G C) as (G1 & C1 & NI1). cbn [flat_map toks map]. rewrite <- !app_assoc. split; [|split].
  - now apply gtoks_cons.
  - apply clean_app; [lit|]. apply clean_app; [now apply flat_clean, nm_flat|exact C1].
  - apply (not_ident 32%Z). now left.
Qed.

Definition terminal_level (j : nat) (x : text) : bool := isupper (ch x 0) && at_level j x.

Lemma level_line_ok : forall syms names j ds T R, Forall2 prints syms names -> Forall nm (filter (fun x => isupper (ch x 0)) names) -> gdecls ds T R -> clean T ->
  gdecls (level_decl (filter (fun x => isupper (ch x 0)) names) j ++ ds) (level_line syms j ++ T) R /\ clean (level_line syms j ++ T).
Proof.
  intros syms names j ds T R H N (g & r & -> & G & D) C.
  assert (H2 : Forall2 prints (filter (has_level j) syms) (filter (at_level j) (filter (fun x => isupper (ch x 0)) names))).
  { assert (E : filter (at_level j) (filter (fun x => isupper (ch x 0)) names) = filter (terminal_level j) names).
    { clear. induction names as [|x l IH]; [reflexivity|]. cbn [filter]. unfold terminal_level at 1. destruct (isupper (ch x 0)); cbn [andb filter]; [destruct (at_level j x); rewrite IH; reflexivity|exact IH]. }
    rewrite E. apply filter_prints; [|exact H]. intros s x (_ & P1 & P2 & _). unfold has_level, terminal_level, at_level. rewrite P1, P2. destruct (prec_of ign items x) as [(p, a)|]; reflexivity. }
  unfold level_line, level_decl.
  assert (N2 : Forall nm (filter (at_level j) (filter (fun x => isupper (ch x 0)) names))) by (apply Forall_forall; intros x I; apply filter_In in I as (I & _); rewrite Forall_forall in N; now apply N).
  assert (AL : forall x, In x (filter (at_level j) (filter (fun x => isupper (ch x 0)) names)) -> at_level j x = true) by (intros x I; apply filter_In in I; tauto).
  revert H2 N2 AL. generalize (filter (at_level j) (filter (fun x => isupper (ch x 0)) names)) as lv. generalize (filter (has_level j) syms) as ls. intros ls lv H2 N2 AL.
  destruct H2 as [|s x ls lv P H2]; [cbn [app]; split; [exists g, r; auto|exact C]|].
  assert (A : so_assoc s = assoc_of x /\ assoc_of x <> UNK).
  { pose proof (AL x (or_introl eq_refl)) as Q. unfold at_level in Q. unfold assoc_of. destruct P as (_ & _ & _ & P). destruct (prec_of ign items x) as [(p, a)|] eqn:E; [|discriminate]. split; [eapply P; reflexivity|eapply KNOWN; eauto]. }
  destruct A as (A1 & A2). rewrite A1. rewrite <- !app_assoc.
  assert (G0 : gtoks [] (nl ++ g ++ 37%Z :: r) (37%Z :: r)).
  { change (nl ++ g ++ 37%Z :: r) with ((nl ++ g) ++ 37%Z :: r). apply gtoks_end. now apply gap_10. }
  destruct (level_names_ok (s :: ls) (x :: lv) (nl ++ g ++ 37%Z :: r) (37%Z :: r)) as (B1 & B2 & B3); [now constructor|exact N2|apply (not_ident 10%Z); right; now left|exact G0|apply clean_app; [lit|exact C]|].
  split.
  - eapply gdecls_tokens with (k := sassoc (assoc_of x)) (u := zs "/*" ++ ndec j ++ zs "*/" ++ flat_map (fun s0 => zs " " ++ so_name s0) (s :: ls) ++ nl ++ g ++ 37%Z :: r); [now apply assoc_key| |exact D|reflexivity].
    apply (gtoks_gap [32%Z]); [apply gap_32; constructor|]. replace (zs "/*" ++ ndec j ++ zs "*/" ++ flat_map (fun s0 => zs " " ++ so_name s0) (s :: ls) ++ nl ++ g ++ 37%Z :: r) with (comment (ndec j) ++ flat_map (fun s0 => zs " " ++ so_name s0) (s :: ls) ++ nl ++ g ++ 37%Z :: r) by (unfold comment; now rewrite <- !app_assoc).
    apply gtoks_gap; [apply gap_comment1, ndec_star|exact B1].
  - apply clean_app; [lit|]. apply clean_app; [destruct (assoc_of x); lit|]. apply clean_app; [lit|]. apply clean_app; [apply flat_clean, ndec_flat|]. apply clean_app; [lit|exact B2].
Qed.

Lemma levels_ok : forall syms names js ds T R, Forall2 prints syms names -> Forall nm (filter (fun x => isupper (ch x 0)) names) -> gdecls ds T R -> clean T ->
  gdecls (flat_map (level_decl (filter (fun x => isupper (ch x 0)) names)) js ++ ds) (flat_map (level_line syms) js ++ T) R /\ clean (flat_map (level_line syms) js ++ T).
Proof.
  intros syms names js ds T R H N G C. induction js as [|j js IH]; [auto|]. cbn [flat_map]. rewrite <- !app_assoc. destruct IH as (G1 & C1). now apply level_line_ok.
Qed.
End Decls.

(** * The rules *)

(** The lines of a rule: the same place of all alternatives, up to the number of the first. *)
Definition pick (j : nat) (e : nelem) : text := match e with NSym x => x | NAlt l => nth j l [] end.
Fixpoint first_alt (l : list nelem) : option (list text) :=
  match l with [] => None | NAlt ys :: _ => Some ys | NSym _ :: r => first_alt r end.
Definition lines_of (l : list nelem) : list (list text) :=
  match first_alt l with Some ys => map (fun j => map (pick j) l) (seq 0 (List.length ys)) | None => [map (pick 0) l] end.
(** No alternatives are fewer than the first ones of the right side. *)
Definition bars_fit (l : list nelem) : Prop := forall ys ys', first_alt l = Some ys -> In (NAlt ys') l -> List.length ys <= List.length ys'.

Definition rule_groups (ign : bool) (items : list item) (i : item) : list fgroup :=
  match i with
  | IRule lhs _ rhs prec _ => map (fun xs => mkF lhs (yacc_body (if ign then None else prec) xs) []) (lines_of (map (means items) rhs))
  | _ => []
  end.

(** The rest of the rules after a gap. *)
Definition name_or_end (R : txt) : Prop := R = [] \/ exists x r, nm x /\ R = x ++ r.
Definition ggroups (gs : list fgroup) (T : txt) : Prop := exists g R, T = g ++ R /\ gap g /\ name_or_end R /\ groups_text gs R.

Section Rules.
Variable o : ropts.
Variable items : list item.
Variable g : gram.
Notation ign := (ro_ignorePrec o).
Hypothesis SH : Forall item_shape items.
Hypothesis GI : GInv o items g.
Hypothesis NMS : forall x, In x (symbols_of ign items) -> alpha x -> nm x.
Notation g1 := (set_syms (gr_syms g ++ [new_obj default_name]) g).

Lemma class_In : forall l x ys, class_of l x = Some ys -> In (IClass x ys) l.
Proof.
  induction l as [|i l IH]; intros x ys H; [discriminate|]. destruct i as [? ? ? ? ?|? ?|? ?|?|?|c l0|? ?|? ?|? ?|]; cbn [class_of] in H; try (right; apply IH; exact H).
  destruct (eqt x c) eqn:E; [|right; apply IH; exact H]. apply eqt_ok in E. injection H as <-. subst c. now left.
Qed.
Lemma isn_nm : forall j x, isn (gr_syms g) j x -> alpha x -> nm x.
Proof. intros j x I A. apply NMS; [|exact A]. eapply isn_symbol; eauto. Qed.

Lemma obj_named : forall j x, isn (gr_syms g) j x -> exists s, obj g1 j = Ok s /\ so_name s = x /\ so_named s = true /\ nth_error (gr_syms g) j = Some s.
Proof.
  intros j x (s & E & N & X). exists s. unfold obj. cbn [set_syms gr_syms]. rewrite nth_error_app1 by (apply nth_error_Some; congruence). rewrite E. auto.
Qed.

(** What an element prints: a name and a comment. *)
Lemma elem_ok : forall mt e a, relem_ok e -> elem_is (gr_syms g) e a ->
  (forall l, means items e = NAlt l -> exists j, mt = Some j /\ j < List.length l) ->
  exists s s', obj g1 (fst a) = Ok s /\
    match so_type s with MULTITERMINAL => j <- opt mt ;; k <- opt (nth_error (so_sub s) j) ;; obj g1 k | _ => Ok s end = Ok s' /\
    so_name s' = pick (match mt with Some j => j | None => 0 end) (means items e) /\ nm (so_name s').
Proof.
  intros mt e a (R1 & _ & R3) (_ & H) M. unfold means in *. destruct (re_alts e) as [|y ys].
  - destruct (obj_named _ _ H) as (s & E & X & N & E0). exists s. destruct (si_named _ _ _ (gi_sym _ _ _ GI) _ _ E0 N) as (_ & _ & _ & T & SU & _). cbn [view_of v_cls] in T, SU. rewrite X in T, SU. rewrite T.
    destruct (class_of items (re_name e)) as [zs0|] eqn:C.
    + destruct (M zs0 eq_refl) as (j & -> & L). cbn [opt bind]. destruct (nth_error zs0 j) as [x|] eqn:EX; [|apply nth_error_None in EX; lia].
      assert (LK : exists k, nth_error (so_sub s) j = Some k /\ isn (gr_syms g) k x).
      { clear -SU EX. revert j EX. induction SU as [|k y l m I SU IH]; intros j EX; [destruct j; discriminate|]. destruct j as [|j]; [cbn [nth_error] in *; injection EX as <-; eauto|apply IH; exact EX]. }
      destruct LK as (k & -> & IK). cbn [opt bind]. destruct (obj_named _ _ IK) as (s' & -> & X' & _). exists s'. split; [exact E|]. split; [reflexivity|]. cbn [pick]. rewrite (nth_error_nth _ _ _ EX), X'. split; [reflexivity|].
      eapply isn_nm; [exact IK|]. apply class_In in C. assert (Q := SH). rewrite Forall_forall in Q. specialize (Q _ C). destruct Q as (_ & Q). rewrite Forall_forall in Q. apply upper_alpha, Q. eapply nth_error_In; eauto.
    + exists s. split; [exact E|]. split; [destruct (isupper _); reflexivity|]. cbn [pick]. split; [exact X|]. rewrite X. eapply isn_nm; eauto.
  - destruct H as (s & E & N & T & F). exists s. destruct (M _ eq_refl) as (j & -> & L). cbn [opt bind].
    assert (EO : obj g1 (fst a) = Ok s) by (unfold obj; cbn [set_syms gr_syms]; rewrite nth_error_app1 by (apply nth_error_Some; congruence); rewrite E; reflexivity).
    destruct (nth_error (re_name e :: y :: ys) j) as [x|] eqn:EX; [|apply nth_error_None in EX; lia].
    assert (LK : exists k, nth_error (so_sub s) j = Some k /\ isn (gr_syms g) k x).
    { clear -F EX. revert j EX. induction F as [|k y0 l m I SU IH]; intros j EX; [destruct j; discriminate|]. destruct j as [|j]; [cbn [nth_error] in *; injection EX as <-; eauto|apply IH; exact EX]. }
    destruct LK as (k & EK & IK). destruct (obj_named _ _ IK) as (s' & E' & X' & _). exists s'. split; [exact EO|]. split; [rewrite T, EK; cbn [opt bind]; exact E'|]. cbn [pick]. rewrite (nth_error_nth _ _ _ EX), X'. split; [reflexivity|].
    eapply isn_nm; [exact IK|]. apply upper_alpha. destruct R3 as (U1 & U2); [discriminate|]. apply nth_error_In in EX. destruct EX as [<-|EX]; [exact U1|]. rewrite Forall_forall in U2. apply U2. exact EX.
Qed.

Lemma rhs_ok : forall mt rhs rr, Forall2 (elem_is (gr_syms g)) rhs rr -> Forall relem_ok rhs ->
  (forall l, In (NAlt l) (map (means items) rhs) -> exists j, mt = Some j /\ j < List.length l) ->
  exists t, rhs_text g1 mt rr = Ok t /\ forall b T R, ReprintTextProof.spaced T -> gparts b T R -> clean T ->
    ReprintTextProof.spaced (t ++ T) /\ clean (t ++ T) /\
    gparts (map (fun x => FSym (SName x)) (map (pick (match mt with Some j => j | None => 0 end)) (map (means items) rhs)) ++ b) (t ++ T) R.
Proof.
  intros mt rhs rr H. induction H as [|e a rhs rr EI H IH]; intros F M.
  - exists []. split; [reflexivity|]. intros b T R S0 G C. auto.
  - destruct a as (id & al). inversion F as [|? ? F1 F2]; subst. destruct (elem_ok mt e (id, al) F1 EI) as (s & s' & E1 & E2 & E3 & E4); [intros l E; apply M; left; exact E|].
    destruct IH as (t & E & K); [exact F2|intros l I; apply M; right; exact I|]. cbn [rhs_text]. cbn [fst] in E1. rewrite E1. cbn [bind]. rewrite E2. cbn [bind]. rewrite E. cbn [bind]. eexists. split; [reflexivity|].
    intros b T R S0 G C. destruct (K b T R S0 G C) as (K1 & K2 & K3). destruct (commented s') as (C1 & C2 & C3). rewrite <- !app_assoc. split; [reflexivity|]. split.
    + apply clean_app; [lit|]. apply clean_app; [now apply flat_clean, nm_flat|]. now apply clean_app.
    + cbn [map app]. rewrite <- E3. apply gparts_sym; auto.
Qed.

Definition rule_prec (i : item) : option text := match i with IRule _ _ _ (Some x) _ => if ign then None else Some x | _ => None end.

Lemma line_ok : forall mt lhs la rhs prec code r, In (IRule lhs la rhs prec code) items -> rule_is ign (gr_syms g) (IRule lhs la rhs prec code) r ->
  (forall l, In (NAlt l) (map (means items) rhs) -> exists j, mt = Some j /\ j < List.length l) ->
  exists x e, rule_print_yacc0 g1 r mt = Ok x /\ line_end g1 r = Ok e /\ forall gs T, ggroups gs T -> clean T ->
    clean (x ++ e ++ T) /\ ggroups (mkF lhs (yacc_body (if ign then None else prec) (map (pick (match mt with Some j => j | None => 0 end)) (map (means items) rhs))) [] :: gs) (x ++ e ++ T).
Proof.
  intros mt lhs la rhs prec code r I (H1 & _ & H3 & H4 & _) M. assert (Q := SH). rewrite Forall_forall in Q. specialize (Q _ I). cbn [item_shape] in Q. destruct Q as (Q1 & _ & Q3 & Q4 & _).
  destruct (obj_named _ _ H1) as (s & E & X & _). assert (NL : nm lhs) by (eapply isn_nm; [exact H1|now apply lower_alpha]).
  destruct (rhs_ok mt rhs (rr_rhs r) H3 Q3 M) as (t & ET & KT).
  assert (EE : exists e, line_end g1 r = Ok e /\ forall R T sep, T = sep ++ R -> gap sep -> name_or_end R -> clean T ->
      clean (e ++ T) /\ ReprintTextProof.spaced (e ++ T) /\ gparts (match (if ign then None else prec) with Some x => [FPrec (SName x)] | None => [] end) (e ++ T) R).
  { assert (B : forall R T sep, T = sep ++ R -> gap sep -> name_or_end R -> clean T -> clean ((zs " ;" ++ nl) ++ T) /\ ReprintTextProof.spaced ((zs " ;" ++ nl) ++ T) /\ gparts [] ((zs " ;" ++ nl) ++ T) R).
    { intros R T sep -> G N C. split; [apply clean_app; [lit|exact C]|]. split; [reflexivity|]. rewrite app_assoc. apply gparts_end; [|exact N]. now apply gap_32, gap_59, gap_10. }
    unfold line_end. pose proof isn_nm as INM. pose proof obj_named as ON. destruct prec as [x|]; [|rewrite H4; eexists; split; [reflexivity|]; destruct ign; exact B].
    destruct ign; [rewrite H4; eexists; split; [reflexivity|exact B]|]. destruct H4 as (j & -> & J). destruct (ON _ _ J) as (s' & -> & X' & _). cbn [bind]. eexists. split; [reflexivity|].
    intros R T sep ET2 G N C. destruct (B R T sep ET2 G N C) as (B1 & B2 & B3). destruct (commented s') as (C1 & C2 & C3). assert (NX : nm (so_name s')) by (rewrite X'; eapply INM; [exact J|now apply upper_alpha]).
    replace ((zs " %prec " ++ so_name s' ++ prec_commented s' ++ zs " ;" ++ nl) ++ T) with (zs " %prec " ++ so_name s' ++ prec_commented s' ++ (zs " ;" ++ nl) ++ T) by (rewrite <- !app_assoc; reflexivity).
    split; [|split; [reflexivity|]].
    - apply clean_app; [lit|]. apply clean_app; [now apply flat_clean, nm_flat|]. now apply clean_app.
    - rewrite <- X'. apply gparts_prec; auto. }
  destruct EE as (e & EE & KE).
  assert (EX : exists t', match rr_rhs r with [] => Ok (zs " /*empty*/") | l => rhs_text g1 mt l end = Ok t' /\ (t' = t \/ t' = zs " /*empty*/" /\ t = [])).
  { destruct (rr_rhs r); [|exists t; auto]. cbn [rhs_text] in ET. injection ET as <-. exists (zs " /*empty*/"). auto. }
  destruct EX as (t' & EX & TT). exists (lhs ++ zs " :" ++ t'), e. split; [unfold rule_print_yacc0; rewrite E; cbn [bind]; rewrite EX, X; reflexivity|]. split; [exact EE|].
  intros gs T (sep & R & ETT & G & N & GT) C. destruct (KE R T sep ETT G N C) as (B1 & B2 & B3). destruct (KT _ _ _ B2 B3 B1) as (D1 & D2 & D3).
  assert (D : clean (t' ++ e ++ T) /\ gparts (yacc_body (if ign then None else prec) (map (pick (match mt with Some j => j | None => 0 end)) (map (means items) rhs))) (t' ++ e ++ T) R).
  { destruct TT as [->|(-> & ->)]; [auto|]. cbn [app] in D2, D3. split; [apply clean_app; [lit|exact D2]|]. apply gparts_gap; [|exact D3].
    change (zs " /*empty*/") with (32%Z :: comment (zs "empty")). apply gap_32, gap_comment1. lit. }
  destruct D as (D4 & D5). rewrite <- !app_assoc. split; [apply clean_app; [now apply flat_clean, nm_flat|]; apply clean_app; [lit|exact D4]|].
  exists [], (lhs ++ zs " :" ++ t' ++ e ++ T). split; [reflexivity|]. split; [constructor|]. split; [right; eauto|]. econstructor; [|exact GT]. now apply group_line.
Qed.

Lemma first_sub_ok : forall rhs rr, Forall2 (elem_is (gr_syms g)) rhs rr -> exists m, first_sub g1 rr = Ok m /\ option_map (@List.length nat) m = option_map (@List.length text) (first_alt (map (means items) rhs)).
Proof.
  intros rhs rr H. induction H as [|e a rhs rr (_ & EI) H IH]; [exists None; auto|]. destruct a as (id & al). cbn [first_sub map first_alt fst] in *. unfold means at 1. destruct (re_alts e) as [|y ys].
  - destruct (obj_named _ _ EI) as (s & -> & X & N & E0). cbn [bind]. destruct (si_named _ _ _ (gi_sym _ _ _ GI) _ _ E0 N) as (_ & _ & _ & T & SU & _). cbn [view_of v_cls] in T, SU. rewrite X in T, SU. rewrite T.
    destruct (class_of items (re_name e)) as [zs0|]; [|destruct (isupper _); exact IH]. exists (Some (so_sub s)). split; [reflexivity|]. cbn [option_map]. f_equal. clear -SU. induction SU; cbn [List.length]; congruence.
  - destruct EI as (s & E & N & T & F). assert (EO : obj g1 id = Ok s) by (unfold obj; cbn [set_syms gr_syms]; rewrite nth_error_app1 by (apply nth_error_Some; congruence); rewrite E; reflexivity).
    rewrite EO. cbn [bind]. rewrite T. exists (Some (so_sub s)). split; [reflexivity|]. cbn [option_map]. f_equal. clear -F. remember (re_name e :: y :: ys) as l. clear Heql. induction F; cbn [List.length]; congruence.
Qed.

Lemma no_alt : forall l ys, first_alt l = None -> ~ In (NAlt ys) l.
Proof. induction l as [|[x|zs0] l IH]; intros ys E; [intros []| |discriminate]. cbn [first_alt] in E. intros [I|I]; [discriminate|]. eapply IH; eauto. Qed.

Lemma rule_ok : forall i r, In i items -> rule_is ign (gr_syms g) i r -> (match i with IRule _ _ rhs _ _ => bars_fit (map (means items) rhs) | _ => True end) ->
  exists t, rule_print_yacc g1 r = Ok t /\ forall gs T, ggroups gs T -> clean T -> clean (t ++ T) /\ ggroups (rule_groups ign items i ++ gs) (t ++ T).
Proof.
  intros i r I H BF. destruct i as [lhs la rhs prec code| | | | | | | | |]; cbn [rule_is] in H; try contradiction.
  assert (H0 : rule_is ign (gr_syms g) (IRule lhs la rhs prec code) r) by exact H. destruct H as (_ & _ & H3 & _).
  destruct (first_sub_ok _ _ H3) as (m & EM & LM). unfold rule_print_yacc. rewrite EM. cbn [bind rule_groups]. unfold lines_of. destruct (first_alt (map (means items) rhs)) as [ys|] eqn:FA.
  - destruct m as [sub|]; [|discriminate]. cbn [option_map] in LM. injection LM as LM. rewrite LM.
    assert (JS : forall js, (forall j, In j js -> j < List.length ys) -> exists t, rule_alts g1 r js = Ok t /\ forall gs T, ggroups gs T -> clean T -> clean (t ++ T) /\
       ggroups (map (fun xs => mkF lhs (yacc_body (if ign then None else prec) xs) []) (map (fun j => map (pick j) (map (means items) rhs)) js) ++ gs) (t ++ T)).
    { induction js as [|j js IH]; intros B; [exists []; split; [reflexivity|auto]|]. destruct IH as (t & ET & K); [intros j' J; apply B; now right|].
      destruct (line_ok (Some j) _ _ _ _ _ _ I H0) as (x & e & E1 & E2 & K2).
      { intros l J. exists j. split; [reflexivity|]. eapply Nat.lt_le_trans; [apply B; now left|]. eapply BF; eauto. }
      cbn [rule_alts]. rewrite E1. cbn [bind]. rewrite E2. cbn [bind]. rewrite ET. cbn [bind]. eexists. split; [reflexivity|]. intros gs T G C. destruct (K gs T G C) as (K3 & K4). rewrite <- !app_assoc. cbn [map app]. apply K2; auto. }
    apply JS. intros j J. apply in_seq in J. lia.
  - destruct m as [sub|]; [discriminate|]. destruct (line_ok None _ _ _ _ _ _ I H0) as (x & e & E1 & E2 & K2); [intros l J; destruct (no_alt _ _ FA J)|].
    rewrite E1. cbn [bind]. rewrite E2. cbn [bind]. eexists. split; [reflexivity|]. intros gs T G C. rewrite <- app_assoc. cbn [map app]. apply K2; auto.
Qed.

Lemma rules_ok : forall its rs, Forall2 (rule_is ign (gr_syms g)) its rs -> (forall i, In i its -> In i items) ->
  (forall lhs la rhs prec code, In (IRule lhs la rhs prec code) its -> bars_fit (map (means items) rhs)) ->
  forall prev, exists t, rules_text g1 prev rs = Ok t /\ forall gs T, ggroups gs T -> clean T -> clean (t ++ T) /\ ggroups (flat_map (rule_groups ign items) its ++ gs) (t ++ T).
Proof.
  intros its rs H. induction H as [|i r its rs RI H IH]; intros IN BF prev; [exists []; split; [reflexivity|auto]|]. cbn [rules_text flat_map].
  assert (RL : exists x, isn (gr_syms g) (rr_lhs r) x) by (destruct i; cbn [rule_is] in RI; try contradiction; destruct RI as (RI & _); eauto). destruct RL as (x & IX). destruct (obj_named _ _ IX) as (s & -> & _). cbn [bind].
  destruct (rule_ok i r) as (t & -> & K); [apply IN; now left|exact RI|destruct i; try exact Logic.I; eapply BF; left; reflexivity|]. cbn [bind].
  destruct (IH (fun i I => IN i (or_intror I)) (fun l la rh p c I => BF l la rh p c (or_intror I)) (Some (so_name s))) as (t2 & -> & K2). cbn [bind]. eexists. split; [reflexivity|].
  intros gs T G C. destruct (K2 gs T G C) as (C2 & G2). destruct (K _ _ G2 C2) as (C3 & G3). rewrite <- !app_assoc.
  match goal with |- clean (?s0 ++ _) /\ _ => assert (SEP : s0 = [] \/ s0 = nl) by (destruct prev; [destruct (list_eq_dec _ _ _)|]; auto); destruct SEP as [->| ->] end; [auto|].
  split; [apply clean_app; [lit|exact C3]|]. destruct G3 as (g0 & R & -> & G4 & H4). exists (nl ++ g0), R. split; [now rewrite app_assoc|]. split; [now apply gap_10|exact H4].
Qed.
End Rules.

(** * The names *)
Lemma lexes_words : forall E n z evs, LemonScanProof.lexes E n z evs -> forall k x, In (EvTok k x) evs -> (alpha x -> nm x) /\ forall b y, x = b :: y -> (b = 47 \/ b = 124)%Z -> alpha y -> nm y.
Proof.
  intros E n z evs H. induction H as [n z HE|n c z l SP H IH|n a z l N B H IH|n a z l N H IH|n a z l N H IH|n a z l N H IH|n c a z l A W B H IH|n z l H IH|n b c a z l B A W D H IH|n c z l SP AN N B1 B2 B3 H IH]; intros k x I;
    try (destruct I; fail); try (apply (IH k x I); fail); (destruct I as [I|I]; [injection I as <- <-|apply (IH k x I)]).
  - split; [intros Q; discriminate Q|]. intros b y [= <- <-] [Q|Q]; discriminate Q.
  - split; [intros Q; discriminate Q|]. intros b y [= <- <-] [Q|Q]; discriminate Q.
  - split; [intros Q; split; [exact Q|exact W]|]. intros b y [= <- <-] [Q|Q]; subst; discriminate A.
  - split; [intros Q; discriminate Q|]. intros b y [= <- <-] [Q|Q]; discriminate Q.
  - split; [intros Q; destruct B as [-> | ->]; discriminate Q|]. intros b' y [= <- <-] _ _. split; [exact A|exact W].
  - split; [intros Q; change (isalpha c = true) in Q; unfold isalnum in AN; rewrite Q in AN; discriminate AN|]. intros b y [= <- <-] _ Q. discriminate Q.
Qed.

Lemma texts_In : forall evs l x, texts evs l -> In x l -> exists k, In (EvTok k x) evs.
Proof. intros evs l x H. induction H as [|e y evs l (k & ->) H IH]; intros I; [destruct I|]. destruct I as [<-|I]; [exists k; now left|]. destruct (IH I) as (k' & J). exists k'. now right. Qed.

Lemma mention_token : forall ign i x, item_shape i -> In x (mentions ign i) -> In x (item_tokens i) \/ In (124%Z :: x) (item_tokens i).
Proof.
  intros ign i x SH0 I. destruct i; cbn [mentions item_tokens] in *.
  - destruct I as [<-|I]; [left; now left|]. apply in_app_iff in I as [I|I].
    + apply in_flat_map in I as (e & I1 & I2). assert (K : In x (relem_tokens e) \/ In (124%Z :: x) (relem_tokens e)).
      { unfold relem_tokens. destruct I2 as [<-|I2]; [left; now left|]. right. right. apply in_app_iff. left. apply in_map_iff. exists x. split; [reflexivity|exact I2]. }
      destruct K as [K|K]; [left|right]; right; apply in_app_iff; right; apply in_app_iff; right; apply in_app_iff; left; apply in_flat_map; eauto.
    + destruct prec as [p|]; [|destruct I]. destruct ign; [destruct I|]. destruct I as [<-|[]]. left. right. rewrite !in_app_iff. right. right. right. right. left. right. now left.
  - destruct ign; [destruct I|]. left. right. right. apply in_app_iff. now left.
  - left. right. right. destruct I as [<-|I]; [now left|]. right. apply in_app_iff. now left.
  - left. right. right. apply in_app_iff. now left.
  - destruct I as [<-|[]]. left. right. right. now left.
  - left. right. right. destruct I as [<-|I]; [now left|]. right. apply in_app_iff. now left.
  - destruct I.
  - destruct I as [<-|[]]. left. right. right. now left.
  - destruct I as [<-|[]]. left. right. right. now left.
  - destruct I.
Qed.

Lemma names_ok : forall E z1 evs ign items, LemonScanProof.lexes E 1%Z z1 evs -> texts evs (flat_map item_tokens items) -> Forall item_shape items ->
  forall x, In x (symbols_of ign items) -> alpha x -> nm x.
Proof.
  intros E z1 evs ign items L T SH x I A. unfold symbols_of in I. rewrite firsts_In in I. destruct I as [<-|I]; [discriminate A|]. apply in_flat_map in I as (i & I1 & I2). rewrite Forall_forall in SH.
  destruct (mention_token ign i x (SH _ I1) I2) as [K|K].
  - destruct (texts_In evs _ x T) as (k & J); [apply in_flat_map; eauto|]. apply (lexes_words _ _ _ _ L _ _ J). exact A.
  - destruct (texts_In evs _ _ T (proj2 (in_flat_map _ _ _) (ex_intro _ i (conj I1 K)))) as (k & J). eapply (proj2 (lexes_words _ _ _ _ L _ _ J)); [reflexivity|now right|exact A].
Qed.

(** * The whole file *)
Definition yacc_file (ign : bool) (items : list item) : bfile :=
  let terms := terms_of ign items in
  mkFile (token_decl terms ++ flat_map (level_decl ign items terms) (seq 0 (S (List.length (filter is_assoc items)))) ++ [DStart (first_lhs items)])
    (flat_map (rule_groups ign items) (filter is_rule items)).

Lemma prec_from_item : forall l n x p a, prec_from n l x = Some (p, a) -> exists pre ys post, l = pre ++ IAssoc a ys :: post /\ p = n + List.length (filter is_assoc pre) /\ In x ys.
Proof.
  induction l as [|i l IH]; intros n x p a H; [discriminate|]. destruct i as [? ? ? ? ?|a0 ys|? ?|?|?|? ?|? ?|? ?|? ?|]; cbn [prec_from] in H;
    try (destruct (IH _ _ _ _ H) as (pre & zs0 & post & -> & -> & I); eexists (_ :: pre), zs0, post; split; [reflexivity|split; [reflexivity|exact I]]).
  destruct (mem x ys) eqn:M.
  - injection H as <- <-. exists [], ys, l. split; [reflexivity|]. split; [cbn [filter List.length]; lia|now apply mem_ok].
  - destruct (IH _ _ _ _ H) as (pre & zs0 & post & -> & -> & I). exists (IAssoc a0 ys :: pre), zs0, post. split; [reflexivity|]. split; [cbn [filter is_assoc List.length]; lia|exact I].
Qed.
Lemma prec_same : forall ign items x y p a b, prec_of ign items x = Some (p, a) -> prec_of ign items y = Some (p, b) -> a = b.
Proof.
  intros ign items x y p a b. unfold prec_of. destruct ign; [discriminate|]. generalize 1. induction items as [|i l IH]; intros n H1 H2; [discriminate|].
  destruct i as [? ? ? ? ?|a0 ys|? ?|?|?|? ?|? ?|? ?|? ?|]; cbn [prec_from] in H1, H2; try (eapply IH; eauto; fail).
  destruct (mem x ys), (mem y ys); [congruence| | |eapply IH; eauto].
  - injection H1 as <- <-. apply prec_from_item in H2 as (? & ? & ? & _ & ? & _). lia.
  - injection H2 as <- <-. apply prec_from_item in H1 as (? & ? & ? & _ & ? & _). lia.
Qed.
Lemma prec_known : forall ign items x p a, Forall item_shape items -> prec_of ign items x = Some (p, a) -> a <> UNK /\ upper x /\ 1 <= p <= List.length (filter is_assoc items) /\ In x (terms_of ign items).
Proof.
  intros ign items x p a SH H. unfold prec_of in H. destruct ign; [discriminate|]. apply prec_from_item in H as (pre & ys & post & -> & -> & I). rewrite Forall_forall in SH.
  assert (J : In (IAssoc a ys) (pre ++ IAssoc a ys :: post)) by (apply in_app_iff; right; now left). destruct (SH _ J) as (S1 & S2). rewrite Forall_forall in S2. split; [exact S1|]. split; [now apply S2|].
  split; [rewrite filter_app; cbn [filter is_assoc]; rewrite app_length; cbn [List.length]; lia|]. apply filter_In. split; [|exact (S2 _ I)]. unfold symbols_of. rewrite firsts_In. right. apply in_flat_map. eauto.
Qed.

Section File.
Variable o : ropts.
Variable items : list item.
Variable g : gram.
Notation ign := (ro_ignorePrec o).
Hypothesis SH : Forall item_shape items.
Hypothesis GI : GInv o items g.
Hypothesis GF : grammar_file ign items.
Hypothesis NMS : forall x, In x (symbols_of ign items) -> alpha x -> nm x.
Notation g1 := (set_syms (gr_syms g ++ [new_obj default_name]) g).

Lemma printed_syms : forall sorted, map ls_name sorted = order ign items ->
  exists syms, map_res (fun i => opt (obj_at g1 sorted i)) (seq 0 (1 + List.length (terms_of ign items) + List.length (nonterms_of ign items))) = Ok syms /\
    Forall2 (prints ign items) syms (zs "$" :: terms_of ign items ++ nonterms_of ign items).
Proof.
  intros sorted SN.
  assert (K : forall L pre post, order ign items = pre ++ L ++ post -> (forall x, In x L -> In x (symbols_of ign items)) ->
    exists syms, map_res (fun i => opt (obj_at g1 sorted i)) (seq (List.length pre) (List.length L)) = Ok syms /\ Forall2 (prints ign items) syms L).
  { induction L as [|x L IH]; intros pre post EO IN; [exists []; split; [reflexivity|constructor]|]. cbn [List.length seq map_res].
    destruct (IH (pre ++ [x]) post) as (syms & E & F); [rewrite EO, <- app_assoc; reflexivity|intros y I; apply IN; now right|]. rewrite app_length in E. cbn [List.length] in E. rewrite Nat.add_1_r in E.
    assert (EN : nth_error (map ls_name sorted) (List.length pre) = Some x) by (rewrite SN, EO, nth_error_app2, Nat.sub_diag by lia; reflexivity).
    rewrite nth_error_map in EN. unfold obj_at at 1. destruct (nth_error sorted (List.length pre)) as [s|]; [|discriminate]. cbn [option_map] in EN. injection EN as EN. rewrite EN. cbn [set_syms gr_syms].
    destruct (find1 o items g SH GI x (IN x (or_introl eq_refl))) as (j & -> & (s' & A & B & D) & _). rewrite nth_error_app1 by (apply nth_error_Some; congruence). rewrite A. cbn [opt bind].
    rewrite E. cbn [bind]. exists (s' :: syms). split; [reflexivity|]. constructor; [|exact F]. destruct (si_named _ _ _ (gi_sym _ _ _ GI) _ _ A B) as (P1 & P2 & _ & T & _). cbn [view_of v_prec v_cls] in P1, P2, T. rewrite D in *.
    split; [exact D|]. split; [|split; [exact P1|]].
    - unfold is_terminal. rewrite T. destruct (class_of items x) as [ys|] eqn:C; [symmetry; apply lower_not_upper; eapply (gi_cls _ _ _ GI); eauto|]. destruct (isupper _); reflexivity.
    - intros p a EP. rewrite EP in P2. exact P2. }
  destruct (K (zs "$" :: terms_of ign items ++ nonterms_of ign items) [] (zs "{default}" :: classes_of ign items)) as (syms & E & F).
  - unfold order. cbn [app]. rewrite <- app_assoc. reflexivity.
  - intros x [<-|I]; [destruct (symbols_cons o items SH) as (rest & -> & _); now left|]. apply in_app_iff in I as [I|I]; apply filter_In in I; tauto.
  - exists syms. split; [|exact F]. cbn [List.length] in E. rewrite app_length in E. exact E.
Qed.

Lemma terms_filter : filter (fun x => isupper (ch x 0)) (zs "$" :: terms_of ign items ++ nonterms_of ign items) = terms_of ign items.
Proof.
  cbn [filter]. change (isupper (ch (zs "$") 0)) with false. cbn iota. rewrite filter_app.
  assert (A : forall (f : text -> bool) l, (forall x, In x l -> f x = true) -> filter f l = l) by (intros f; induction l as [|x l IH]; intros H; [reflexivity|]; cbn [filter]; rewrite H by (now left); rewrite IH; [reflexivity|]; intros; apply H; now right).
  assert (B : forall (f : text -> bool) l, (forall x, In x l -> f x = false) -> filter f l = []) by (intros f; induction l as [|x l IH]; intros H; [reflexivity|]; cbn [filter]; rewrite H by (now left); apply IH; intros; apply H; now right).
  rewrite A, B; [apply app_nil_r| |].
  - intros x I. apply filter_In in I as (_ & I). apply andb_true_iff in I as (I & _). now apply lower_not_upper.
  - intros x I. apply filter_In in I as (_ & I). exact I.
Qed.

Lemma terms_nm : Forall nm (terms_of ign items).
Proof. apply Forall_forall. intros x I. apply filter_In in I as (I & U). apply NMS; [exact I|]. now apply upper_alpha. Qed.

Lemma groups_visible : forall gs R, groups_text gs R -> name_or_end R -> gs <> [] -> visible R.
Proof.
  intros gs R H [->|(x & r & N & ->)] NE; [|now apply nm_visible]. inversion H as [| |f l t r GT GS]; subst; [congruence|]. inversion GT as [n b l0 t g0 g' u v r0 SY]; subst. inversion SY as [n0 r1 W|]; subst.
  destruct n as [|c n]; [destruct W as ([] & _)|discriminate].
Qed.

Lemma rules_nonempty : flat_map (rule_groups ign items) (filter is_rule items) <> [].
Proof.
  destruct (gf_rule _ _ GF) as (i & I & R). intros E. assert (X : rule_groups ign items i = []).
  { destruct (rule_groups ign items i) as [|f l] eqn:Q; [reflexivity|]. assert (J : In f (flat_map (rule_groups ign items) (filter is_rule items))) by (apply in_flat_map; exists i; split; [apply filter_In; auto|rewrite Q; now left]). rewrite E in J. destruct J. }
  destruct i as [lhs la rhs prec code| | | | | | | | |]; try discriminate R. cbn [rule_groups] in X. unfold lines_of in X. destruct (first_alt (map (means items) rhs)) as [ys|] eqn:FA; [|discriminate].
  destruct ys as [|y ys]; [|discriminate]. assert (J : In (NAlt []) (map (means items) rhs)).
  { clear -FA. induction (map (means items) rhs) as [|[x|l] r IH]; [discriminate|right; apply IH; exact FA|]. cbn [first_alt] in FA. injection FA as ->. now left. }
  apply in_map_iff in J as (e & J & _). unfold means in J. destruct (re_alts e); [|discriminate]. destruct (class_of items (re_name e)) as [l|] eqn:C; [|discriminate]. injection J as ->. apply class_In in C. exact (gf_class _ _ GF _ _ C eq_refl).
Qed.

Lemma reprint_ok : forall filename syms, flat filename -> Forall2 (prints ign items) syms (zs "$" :: terms_of ign items ++ nonterms_of ign items) ->
  (forall lhs la rhs prec code, In (IRule lhs la rhs prec code) items -> bars_fit (map (means items) rhs)) ->
  exists t, Reprint_yacc filename g1 syms = Ok (t ++ nl) /\ clean (t ++ nl) /\ file_text (yacc_file ign items) (t ++ nl).
Proof.
  intros filename syms FF PS BF. unfold Reprint_yacc. cbn [set_syms gr_rules gr_preccounter]. destruct (rev (gr_rules g)) as [|first rest] eqn:RR.
  { exfalso. pose proof (gi_rules _ _ _ GI) as H. rewrite RR in H. inversion H as [E1|]. destruct (gf_rule _ _ GF) as (i & I & R). assert (J : In i (filter is_rule items)) by (apply filter_In; auto). rewrite <- E1 in J. destruct J. }
  destruct (token_numbers_ok filename (map so_name syms) FF) as (h & -> & GH & CH).
  { assert (E : map so_name syms = zs "$" :: terms_of ign items ++ nonterms_of ign items) by (clear -PS; induction PS as [|s x l m (P & _) PS IH]; [reflexivity|cbn [map]; rewrite P, IH; reflexivity]).
    rewrite E. constructor; [lit|]. apply Forall_forall. intros x I. apply nm_flat. apply in_app_iff in I as [I|I]; apply filter_In in I as (I & U); apply NMS; auto; [now apply upper_alpha|]. apply andb_true_iff in U as (U & _). now apply lower_alpha. }
  cbn [bind]. destruct (first_lhs_ok o items g SH GI GF _ _ RR) as (FL & _ & FLO). destruct (obj_named g _ _ FL) as (s & -> & X & _). cbn [bind].
  destruct (rules_ok o items g SH GI NMS (filter is_rule items) (first :: rest)) with (prev := @None text) as (r & -> & K).
  { rewrite <- RR. exact (gi_rules _ _ _ GI). }
  { intros i I. apply filter_In in I. tauto. }
  { intros. eapply BF. match goal with H : In _ (filter _ _) |- _ => apply filter_In in H; apply H end. }
  cbn [bind]. rewrite X. clear X. destruct (K [] nl) as (CR & GR); [exists nl, []; split; [reflexivity|]; split; [apply gap_10; constructor|]; split; [now left|constructor]|lit|].
  rewrite app_nil_r in GR. assert (NF : nm (first_lhs items)) by (eapply isn_nm; eauto; now apply lower_alpha).
  destruct GR as (g0 & R & ER & G0 & NE & GT). set (T0 := zs "%%" ++ nl ++ nl ++ r ++ nl).
  assert (CT0 : clean T0) by (apply clean_app; [lit|]; apply clean_app; [lit|]; apply clean_app; [lit|exact CR]).
  assert (DS : gdecls [DStart (first_lhs items)] (nl ++ zs "%start " ++ first_lhs items ++ nl ++ nl ++ T0) T0).
  { apply (gdecls_gap nl); [apply gap_10; constructor|]. apply gdecls_start; [exact NF| |apply (not_ident 10%Z); right; now left]. exists (nl ++ nl), (zs "%" ++ nl ++ nl ++ r ++ nl). split; [reflexivity|]. split; [apply gap_10, gap_10; constructor|reflexivity]. }
  assert (CS : clean (nl ++ zs "%start " ++ first_lhs items ++ nl ++ nl ++ T0)) by (apply clean_app; [lit|]; apply clean_app; [lit|]; apply clean_app; [now apply flat_clean, nm_flat|]; apply clean_app; [lit|]; apply clean_app; [lit|exact CT0]).
  rewrite (gi_count _ _ _ GI).
  assert (TN : Forall nm (filter (fun x => isupper (ch x 0)) (zs "$" :: terms_of ign items ++ nonterms_of ign items))) by (rewrite terms_filter; exact terms_nm).
  destruct (levels_ok ign items (fun x p a H => proj1 (prec_known ign items x p a SH H)) syms _ (seq 0 (S (List.length (filter is_assoc items)))) _ _ _ PS TN DS CS) as (DL & CL).
  destruct (token_line_ok ign items syms _ _ _ _ PS TN DL CL) as (DT & CT). rewrite terms_filter in DT.
  exists (h ++ Reprint_tokens syms (List.length (filter is_assoc items)) ++ nl ++ zs "%start " ++ first_lhs items ++ nl ++ nl ++ zs "%%" ++ nl ++ nl ++ r). unfold Reprint_tokens.
  split; [rewrite <- !app_assoc; reflexivity|]. rewrite <- !app_assoc. fold T0. split; [now apply clean_app|].
  destruct DT as (g2 & r2 & -> & G2 & DD). rewrite app_assoc. apply (FT_file _ _ (h ++ g2) (37%Z :: r2) 37%Z 37%Z (nl ++ nl ++ g0) R); [now apply gap_app|apply percent_visible| |now left|now left|now apply gap_10, gap_10| |exact GT].
  - replace (37%Z :: 37%Z :: (nl ++ nl ++ g0) ++ R) with T0; [exact DD|]. unfold T0. rewrite ER, <- !app_assoc. reflexivity.
  - eapply groups_visible; [exact GT|exact NE|exact rules_nonempty].
Qed.
End File.
