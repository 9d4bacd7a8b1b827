(** Proofs about the yacc file that lemon -y prints, as a grammar file of byacc (C73). *)
From Coq Require Import String List Arith ZArith Bool Lia.
Import ListNotations.
From Verif Require Import Base CLib LemonTableModel LemonPreModel LemonActionModel LemonPipelineModel LemonReadModel SpecItems LemonReadProof SpecFile LemonIndexProof.
From Verif Require Import LemonCodeModel LemonReprintModel SpecReprint ReprintTextProof LemonReprintProof.
From Verif Require Import Prop_ByaccMidrule ByaccPackFileProof ByaccTableProof ByaccFileProof.
From Verif Require ByaccParModel ByaccReaderModel ByaccScanModel Prop_ByaccLiteral.
From Verif Require Import SpecByaccFile.

(** * Lines and choices *)
Lemma pick_syms : forall j k l, first_alt l = None -> map (pick j) l = map (pick k) l.
Proof. intros j k. induction l as [|[x|ys] l IH]; intros H; [reflexivity| |discriminate]. cbn [map pick]. f_equal. now apply IH. Qed.
Lemma choices_none : forall l, first_alt l = None -> choices l = [map (pick 0) l].
Proof. induction l as [|[x|ys] l IH]; intros H; [reflexivity| |discriminate]. cbn [choices map pick]. rewrite IH by exact H. reflexivity. Qed.
Lemma none_alternatives : forall l, alternatives l = 0 -> first_alt l = None.
Proof. unfold alternatives. induction l as [|[x|ys] l IH]; intros H; [reflexivity|apply IH; exact H|discriminate H]. Qed.

Lemma lines_choices : forall l, alternatives l <= 1 -> lines_of l = choices l.
Proof.
  unfold lines_of. induction l as [|[x|ys] l IH]; intros H; [reflexivity| |].
  - assert (H2 : alternatives l <= 1) by exact H. specialize (IH H2). cbn [first_alt choices map pick]. rewrite <- IH. destruct (first_alt l) as [ys|]; [|reflexivity]. rewrite map_map. reflexivity.
  - assert (N : first_alt l = None) by (apply none_alternatives; unfold alternatives in *; cbn [filter List.length] in H; lia). cbn [first_alt choices]. rewrite (choices_none _ N). cbn [map].
    assert (E : map (fun j => pick j (NAlt ys) :: map (pick j) l) (seq 0 (List.length ys)) = map (fun y => y :: map (pick 0) l) ys).
    { transitivity (map (fun j => nth j ys [] :: map (pick 0) l) (seq 0 (List.length ys))); [apply map_ext; intros j; cbn [pick]; f_equal; now apply pick_syms|].
      rewrite <- (map_map (fun j => nth j ys []) (fun y => y :: map (pick 0) l)). f_equal. clear. induction ys as [|y ys IH]; [reflexivity|]. cbn [List.length seq map]. f_equal. rewrite <- seq_shift, map_map. exact IH. }
    rewrite E. clear. induction ys as [|y ys IH]; [reflexivity|]. cbn [flat_map map app]. now f_equal.
Qed.
Lemma one_fits : forall l, alternatives l <= 1 -> bars_fit l.
Proof.
  intros l. unfold bars_fit. induction l as [|[x|ys] l IH]; intros H ys0 ys' F I; [discriminate| |].
  - destruct I as [I|I]; [discriminate|]. eapply IH; eauto.
  - cbn [first_alt] in F. injection F as <-. destruct I as [I|I]; [injection I as ->; lia|]. exfalso. apply (no_alt l ys'); [|exact I]. apply none_alternatives. unfold alternatives in *. cbn [filter List.length] in H. lia.
Qed.

(** One token for every place. *)
Definition chosen (e : nelem) (x : text) : Prop := match e with NSym y => x = y | NAlt l => In x l end.
Lemma choices_chosen : forall l xs, In xs (choices l) <-> Forall2 chosen l xs.
Proof.
  induction l as [|[x|ys] l IH]; intros xs; cbn [choices].
  - split; [intros [<-|[]]; constructor|intros H; inversion H; now left].
  - rewrite in_map_iff. split.
    + intros (xs' & <- & I). constructor; [reflexivity|]. now apply IH.
    + intros H. inversion H as [|e y l0 xs' C H2]; subst. cbn [chosen] in C. subst y. exists xs'. split; [reflexivity|]. now apply IH.
  - rewrite in_flat_map. split.
    + intros (y & Y & I). apply in_map_iff in I as (xs' & <- & I). constructor; [exact Y|]. now apply IH.
    + intros H. inversion H as [|e y l0 xs' C H2]; subst. exists y. split; [exact C|]. apply in_map. now apply IH.
Qed.
Lemma lines_chosen : forall l xs, bars_fit l -> In xs (lines_of l) -> Forall2 chosen l xs.
Proof.
  intros l xs BF I. unfold lines_of in I. assert (K : forall j l', (forall ys, In (NAlt ys) l' -> j < List.length ys) -> Forall2 chosen l' (map (pick j) l')).
  { intros j. induction l' as [|[x|ys] l' IH]; intros H; [constructor| |]; cbn [map pick]; (constructor; [|apply IH; intros; apply H; now right]); [reflexivity|]. cbn [chosen]. apply nth_In. apply H. now left. }
  destruct (first_alt l) as [ys|] eqn:FA.
  - apply in_map_iff in I as (j & <- & J). apply in_seq in J. apply K. intros ys' Y. specialize (BF ys ys' FA Y). lia.
  - destruct I as [<-|[]]. apply K. intros ys Y. destruct (no_alt _ _ FA Y).
Qed.

Section File.
Variable ign : bool.
Variable items : list item.
Hypothesis SH : Forall item_shape items.
Hypothesis GF : grammar_file ign items.
Hypothesis NMS : forall x, In x (symbols_of ign items) -> alpha x -> nm x.
Hypothesis NERR : forall la rhs prec cd, ~ In (IRule (zs "error") la rhs prec cd) items.
Hypothesis BF : forall lhs la rhs prec code, In (IRule lhs la rhs prec code) items -> bars_fit (map (means items) rhs).
Notation F := (yacc_file ign items).
Notation terms := (terms_of ign items).

Lemma mention_in : forall i x, In i items -> In x (mentions ign i) -> In x (symbols_of ign items).
Proof. intros i x I M. unfold symbols_of. rewrite firsts_In. right. apply in_flat_map. eauto. Qed.
Lemma term_in : forall x, In x (symbols_of ign items) -> upper x -> In x terms.
Proof. intros x I U. apply filter_In. auto. Qed.
Lemma lhs_lower : forall lhs la rhs prec code, In (IRule lhs la rhs prec code) items -> lower lhs /\ nm lhs /\ In lhs (symbols_of ign items).
Proof.
  intros lhs la rhs prec code I. assert (Q := SH). rewrite Forall_forall in Q. destruct (Q _ I) as (L & _). assert (J : In lhs (symbols_of ign items)) by (eapply mention_in; [exact I|now left]). split; [exact L|]. split; [apply NMS; [exact J|now apply lower_alpha]|exact J].
Qed.
Lemma first_lhs_rule : exists la rhs prec code, In (IRule (first_lhs items) la rhs prec code) items.
Proof.
  destruct (gf_rule _ _ GF) as (i & I & R). clear -I R. induction items as [|k l IH]; [destruct I|]. destruct k; cbn [first_lhs]; try (destruct I as [<-|I]; [discriminate R|]; destruct (IH I) as (la0 & rhs0 & p0 & c0 & J); exists la0, rhs0, p0, c0; now right).
  do 4 eexists. now left.
Qed.
Lemma first_nm : nm (first_lhs items) /\ lower (first_lhs items).
Proof. destruct first_lhs_rule as (la & rhs & p & c & I). apply lhs_lower in I. tauto. Qed.

(** The symbols a place stands for. *)
Lemma chosen_symbol : forall lhs la rhs prec code e x, In (IRule lhs la rhs prec code) items -> In e rhs -> chosen (means items e) x -> In x (symbols_of ign items) /\ alpha x.
Proof.
  intros lhs la rhs prec code e x I E C. assert (Q := SH). rewrite Forall_forall in Q. destruct (Q _ I) as (_ & _ & R & _). rewrite Forall_forall in R. destruct (R _ E) as (R1 & _ & R3).
  assert (M : forall y, In y (re_name e :: re_alts e) -> In y (symbols_of ign items)).
  { intros y Y. eapply mention_in; [exact I|]. cbn [mentions]. right. apply in_app_iff. left. apply in_flat_map. exists e. auto. }
  unfold means in C. destruct (re_alts e) as [|y ys].
  - destruct (SpecItems.class_of items (re_name e)) as [zs0|] eqn:CL; cbn [chosen] in C.
    + apply class_In in CL. destruct (Q _ CL) as (_ & U). rewrite Forall_forall in U. split; [eapply mention_in; [exact CL|now right]|apply upper_alpha, U; exact C].
    + subst x. split; [apply M; now left|exact R1].
  - cbn [chosen] in C. destruct R3 as (U1 & U2); [discriminate|]. split; [apply M; exact C|]. apply upper_alpha. destruct C as [<-|C]; [exact U1|]. rewrite Forall_forall in U2. now apply U2.
Qed.
Lemma prec_symbol : forall lhs la rhs x code, In (IRule lhs la rhs (Some x) code) items -> ign = false -> In x (symbols_of ign items) /\ upper x.
Proof.
  intros lhs la rhs x code I E. assert (Q := SH). rewrite Forall_forall in Q. destruct (Q _ I) as (_ & _ & _ & U & _). cbn [opt_ok] in U. split; [|exact U].
  eapply mention_in; [exact I|]. cbn [mentions]. right. apply in_app_iff. right. rewrite E. now left.
Qed.

Lemma rule_groups_nonempty : forall lhs la rhs prec code, In (IRule lhs la rhs prec code) items -> exists xs, In xs (lines_of (map (means items) rhs)).
Proof.
  intros lhs la rhs prec code I. unfold lines_of. destruct (first_alt (map (means items) rhs)) as [ys|] eqn:FA; [|eexists; now left]. destruct ys as [|y ys]; [|eexists; now left]. exfalso.
  assert (J : In (NAlt []) (map (means items) rhs)).
  { clear -FA. induction (map (means items) rhs) as [|[x|l] r IH]; [discriminate|right; apply IH; exact FA|]. cbn [first_alt] in FA. injection FA as ->. now left. }
  apply in_map_iff in J as (e & J & _). unfold means in J. destruct (re_alts e); [|discriminate]. destruct (SpecItems.class_of items (re_name e)) as [l|] eqn:C; [|discriminate]. injection J as ->. apply class_In in C. exact (gf_class _ _ GF _ _ C eq_refl).
Qed.

Lemma group_In : forall f, In f (f_groups F) <-> exists lhs la rhs prec code xs, In (IRule lhs la rhs prec code) items /\ In xs (lines_of (map (means items) rhs)) /\ f = mkF lhs (yacc_body (if ign then None else prec) xs) [].
Proof.
  intros f. unfold yacc_file. cbn [f_groups]. rewrite in_flat_map. split.
  - intros (i & I & J). apply filter_In in I as (I & R). destruct i as [lhs la rhs prec code| | | | | | | | |]; try discriminate R. cbn [rule_groups] in J. apply in_map_iff in J as (xs & <- & J). exists lhs, la, rhs, prec, code, xs. auto.
  - intros (lhs & la & rhs & prec & code & xs & I & J & ->). exists (IRule lhs la rhs prec code). split; [apply filter_In; auto|]. cbn [rule_groups]. apply in_map_iff. exists xs. auto.
Qed.

(** * The facts of the declarations *)
Definition dshape (d : SpecByaccFile.decl) : Prop :=
  match d with
  | DTokens _ None l => exists ys, l = toks ys /\ forall n, In n ys -> In n terms
  | DStart n => n = first_lhs items
  | _ => False
  end.
Lemma decls_shape : Forall dshape (f_decls F).
Proof.
  unfold yacc_file. cbn [f_decls]. apply Forall_app. split; [|apply Forall_app; split].
  - unfold token_decl. destruct terms as [|x l] eqn:E; constructor; [|constructor]. cbn [dshape]. exists (x :: l). split; [reflexivity|]. rewrite E. auto.
  - apply Forall_forall. intros d I. apply in_flat_map in I as (j & _ & I). unfold level_decl in I. destruct (filter (at_level ign items j) terms) as [|x l] eqn:E; [destruct I|]. destruct I as [<-|[]]. cbn [dshape]. exists (x :: l). split; [reflexivity|]. rewrite <- E. intros n I. apply filter_In in I. tauto.
  - constructor; [reflexivity|constructor].
Qed.
Lemma decls_facts_In : forall l p n x, Forall dshape l -> In (n, x) (decls_facts p l) -> match x with See => In n terms \/ n = first_lhs items | Term | Prec _ _ => In n terms | _ => False end.
Proof.
  induction l as [|d l IH]; intros p n x S0 I; [destruct I|]. inversion S0 as [|? ? S1 S2]; subst. cbn [decls_facts] in I. apply in_app_iff in I as [I|I]; [|eapply IH; eauto].
  destruct d as [a [tg|] l0|? ?|m| |]; cbn [dshape] in S1; try contradiction.
  - destruct S1 as (ys & -> & S1). cbn [decl_facts] in I. apply in_flat_map in I as ((s & v) & I1 & I2). apply in_map_iff in I1 as (m & E & M). injection E as <- <-. apply S1 in M. cbn [sym_facts sym_name tag_facts app] in I2.
    destruct I2 as [I2|[I2|I2]]; try (injection I2 as <- <-; auto). destruct a as [a|]; [destruct I2 as [I2|[]]; injection I2 as <- <-; exact M|destruct I2].
  - subst m. destruct I as [I|[]]. injection I as <- <-. now right.
Qed.

Lemma part_facts_In : forall prec xs n x, In (n, x) (flat_map part_facts (yacc_body prec xs)) -> x = See /\ (In n xs \/ prec = Some n).
Proof.
  intros prec xs n x I. apply in_flat_map in I as (p & I1 & I2). unfold yacc_body in I1. apply in_app_iff in I1 as [I1|I1].
  - apply in_map_iff in I1 as (y & <- & I1). destruct I2 as [I2|[]]. injection I2 as <- <-. auto.
  - destruct prec as [y|]; [|destruct I1]. destruct I1 as [<-|[]]. destruct I2 as [I2|[]]. injection I2 as <- <-. auto.
Qed.
Lemma groups_facts_In : forall n x, In (n, x) (flat_map group_facts (f_groups F)) ->
  (x = See \/ x = Lhs /\ exists la rhs prec code, In (IRule n la rhs prec code) items) /\ In n (symbols_of ign items) /\ alpha n.
Proof.
  intros n x I. apply in_flat_map in I as (f & I1 & I2). apply group_In in I1 as (lhs & la & rhs & prec & code & xs & I & J & ->). unfold group_facts in I2. cbn [f_lhs f_body f_alts flat_map] in I2. rewrite app_nil_r in I2.
  destruct (lhs_lower _ _ _ _ _ I) as (L1 & L2 & L3). destruct I2 as [I2|[I2|I2]].
  - injection I2 as <- <-. split; [now left|]. split; [exact L3|now apply lower_alpha].
  - injection I2 as <- <-. split; [right; split; [reflexivity|eauto]|]. split; [exact L3|now apply lower_alpha].
  - apply part_facts_In in I2 as (-> & K). split; [now left|]. destruct K as [K|K].
    + pose proof (lines_chosen _ _ (BF _ _ _ _ _ I) J) as C. assert (X : exists e, In e rhs /\ chosen (means items e) n).
      { clear -C K. remember (map (means items) rhs) as l eqn:E. revert rhs E. induction C as [|m y l xs C1 C2 IH]; intros rhs E; [destruct K|]. destruct rhs as [|e rhs]; [discriminate|]. injection E as -> E. destruct K as [->|K]; [exists e; split; [now left|exact C1]|]. destruct (IH K rhs E) as (e' & A & B). exists e'. split; [now right|exact B]. }
      destruct X as (e & X1 & X2). eapply chosen_symbol; eauto.
    + assert (EI : ign = false) by (clear -K; destruct ign; [discriminate|reflexivity]). rewrite EI in K. subst prec. destruct (prec_symbol _ _ _ _ _ I EI) as (P1 & P2). split; [exact P1|now apply upper_alpha].
Qed.

Lemma facts_nm : forall n, In n (map fst (file_facts F)) -> nm n /\ (In n (symbols_of ign items)).
Proof.
  intros n I. apply in_map_iff in I as ((m & x) & E & I). cbn [fst] in E. subst m. apply in_app_iff in I as [I|I].
  - apply decls_facts_In in I; [|apply decls_shape]. assert (K : In n terms \/ n = first_lhs items) by (destruct x; tauto). destruct K as [K| ->].
    + apply filter_In in K as (K & U). split; [apply NMS; [exact K|now apply upper_alpha]|exact K].
    + split; [apply first_nm|]. destruct first_lhs_rule as (la & rhs & p & c & J). apply lhs_lower in J. tauto.
  - apply groups_facts_In in I as (_ & I1 & I2). auto.
Qed.
Lemma facts_lhs : forall n, is_lhs (file_facts F) n -> exists la rhs prec code, In (IRule n la rhs prec code) items.
Proof. intros n I. apply in_app_iff in I as [I|I]; [apply decls_facts_In in I; [destruct I|apply decls_shape]|]. apply groups_facts_In in I as ([I|(_ & I)] & _); [discriminate|exact I]. Qed.
Lemma lhs_facts : forall n la rhs prec code, In (IRule n la rhs prec code) items -> is_lhs (file_facts F) n.
Proof.
  intros n la rhs prec code I. destruct (rule_groups_nonempty _ _ _ _ _ I) as (xs & J). apply in_app_iff. right. apply in_flat_map. eexists. split; [apply group_In; do 6 eexists; split; [exact I|split; [exact J|reflexivity]]|]. right. now left.
Qed.
Lemma facts_term : forall n, In (n, Term) (file_facts F) -> In n terms.
Proof. intros n I. apply in_app_iff in I as [I|I]; [apply decls_facts_In in I; [exact I|apply decls_shape]|]. apply groups_facts_In in I as ([I|(I & _)] & _); discriminate. Qed.

Lemma lower_not_term : forall n, lower n -> ~ In n terms.
Proof. intros n L I. apply filter_In in I as (_ & U). rewrite (lower_not_upper _ L) in U. discriminate. Qed.

Lemma goal_ok : goal_of F = first_lhs items.
Proof.
  unfold goal_of, yacc_file, starts_of. cbn [f_decls]. rewrite !flat_map_app. cbn [flat_map]. rewrite app_assoc. apply last_last.
Qed.

Lemma acts_ok : forall tg h rs, Forall (fun r => Forall (fun p => match p with FAct _ => False | _ => True end) (snd r)) rs -> exists l, rules_out_text tg h rs = Some (l, h).
Proof.
  intros tg h rs H. induction H as [|(n & b) rs H0 H IH]; [exists []; reflexivity|]. cbn [rules_out_text]. cbn [snd] in H0.
  assert (B : forall b lt its pend, Forall (fun p => match p with FAct _ => False | _ => True end) b -> body_out tg lt its pend h b = Some ([], h)).
  { clear. induction b as [|p b IH]; intros lt its pend F; [reflexivity|]. inversion F as [|? ? F1 F2]; subst. destruct p as [x|ps|x]; [|contradiction|]; cbn [body_out]; now apply IH. }
  rewrite B by exact H0. destruct IH as (l & ->). exists l. reflexivity.
Qed.

Lemma yacc_file_ok : file_ok F.
Proof.
  constructor.
  - intros n I. apply facts_nm in I as (N & _). destruct n as [|c n]; [destruct N|]. destruct N as (N & _). apply alpha_range in N. intros [R|[R|[R|(ds & _ & _ & R)]]]; injection R as R; lia.
  - intros n L T. apply facts_lhs in L as (la & rhs & prec & code & I). destruct T as [->|T]; [exact (NERR _ _ _ _ I)|]. apply facts_term in T. apply lhs_lower in I as (L & _). exact (lower_not_term _ L T).
  - intros a n b E T. pose proof decls_shape as D. rewrite E in D. apply Forall_app in D as (D1 & D2). inversion D2 as [|? ? D3 D4]; subst. cbn [dshape] in D3. subst n.
    assert (D5 : Forall dshape (a ++ until_start b)).
    { apply Forall_app. split; [exact D1|]. clear -D4. induction b as [|d b IH]; [constructor|]. inversion D4 as [|? ? X1 X2]; subst. destruct d; cbn [until_start]; try (constructor; [exact X1|apply IH; exact X2]). constructor. }
    destruct T as [T|T]; [destruct first_lhs_rule as (la & rhs & p & c & I); rewrite T in I; exact (NERR _ _ _ _ I)|]. apply decls_facts_In in T; [|exact D5]. exact (lower_not_term _ (proj2 first_nm) T).
  - rewrite goal_ok. destruct first_lhs_rule as (la & rhs & p & c & I). eapply lhs_facts. exact I.
  - unfold file_actions. destruct (acts_ok (tag_of_sym (file_facts F)) (uses_tags F) (file_rules F)) as (l & ->); [|discriminate].
    apply Forall_forall. intros (n & b) I. unfold file_rules in I. apply in_flat_map in I as (f & I & J). apply group_In in I as (lhs & la & rhs & prec & code & xs & _ & _ & ->). cbn [f_lhs f_body f_alts map] in J. destruct J as [J|[]]. injection J as <- <-. cbn [snd].
    unfold yacc_body. apply Forall_app. split; [apply Forall_forall; intros p P; apply in_map_iff in P as (x & <- & _); exact Logic.I|]. destruct (if ign then None else prec); repeat constructor.
  - assert (E : filter (fun d => match d with DUnion => true | _ => false end) (f_decls F) = []); [|rewrite E; cbn [List.length]; lia]. pose proof decls_shape as D. induction D as [|d l S0 D IH]; [reflexivity|]. destruct d as [a [tg|] l0|? ?|m| |]; cbn [dshape] in S0; try contradiction; exact IH.
  - destruct (f_groups F) as [|f l] eqn:E.
    + destruct first_lhs_rule as (la & rhs & p & c & I). destruct (rule_groups_nonempty _ _ _ _ _ I) as (xs & J). assert (K : In (mkF (first_lhs items) (yacc_body (if ign then None else p) xs) []) (f_groups F)) by (apply group_In; do 6 eexists; split; [exact I|split; [exact J|reflexivity]]). rewrite E in K. exact K.
    + assert (K : In f (f_groups F)) by (rewrite E; now left). apply group_In in K as (lhs & la & rhs & prec & code & xs & I & _ & ->). cbn [f_lhs]. apply lhs_lower in I as (_ & N & _). destruct lhs as [|c n]; [destruct N|]. destruct N as (N & _). cbn [hd]. apply alpha_range in N. lia.
Qed.

Lemma no_codes : forall n, code_of_sym (file_facts F) n = None.
Proof.
  intros n. assert (K : forall m x, In (m, x) (file_facts F) -> match x with Val _ | Char _ => False | _ => True end).
  { intros m x I. apply in_app_iff in I as [I|I]; [apply decls_facts_In in I; [destruct x; auto|apply decls_shape]|]. apply groups_facts_In in I as ([->|(-> & _)] & _); exact Logic.I. }
  unfold code_of_sym. rewrite latest_none; [apply latest_none|]; intros m x I; specialize (K m x I); destruct x; try contradiction; reflexivity.
Qed.
Lemma yacc_codes_fit : codes_fit F.
Proof. unfold codes_fit. split; [|split]; intros; rewrite no_codes in *; discriminate. Qed.

(** The tokens. *)
Lemma names_In : forall n, In n (SpecByaccFile.names (file_facts F)) <-> n = zs "error" \/ In n (map fst (file_facts F)).
Proof. intros n. unfold SpecByaccFile.names. rewrite firsts_incl. cbn [In]. split; [intros ([H|H] & _); auto|intros [->|H]; split; auto]. Qed.
Lemma tokens_ok : forall x, upper x -> (file_token F x <-> In x terms).
Proof.
  intros x U. unfold file_token. rewrite names_In. split.
  - intros ([->|I] & _); [discriminate U|]. apply facts_nm in I as (_ & I). now apply term_in.
  - intros I. split.
    + right. apply in_map_iff. exists (x, See). split; [reflexivity|]. apply in_app_iff. left. unfold yacc_file. cbn [f_decls]. unfold token_decl. destruct terms as [|y l] eqn:E; [destruct I|]. cbn [app decls_facts]. apply in_app_iff. left. rewrite <- E in *.
      cbn [decl_facts]. apply in_flat_map. exists (SName x, None). split; [apply in_map_iff; exists x; auto|]. now left.
    + intros L. apply facts_lhs in L as (la & rhs & prec & code & J). apply lhs_lower in J as (J & _). exact (lower_not_term _ J I).
Qed.

(** The rules. *)
Lemma rules_lines : file_rules F = flat_map (fun i => match i with IRule lhs _ rhs prec _ => map (fun xs => (lhs, yacc_body (if ign then None else prec) xs)) (lines_of (map (means items) rhs)) | _ => [] end) (filter is_rule items).
Proof.
  unfold file_rules, yacc_file. cbn [f_groups]. induction (filter is_rule items) as [|i l IH]; [reflexivity|]. cbn [flat_map]. rewrite flat_map_app, IH. f_equal. destruct i as [lhs la rhs prec code| | | | | | | | |]; try reflexivity. cbn [rule_groups].
  induction (lines_of (map (means items) rhs)) as [|xs r IH2]; [reflexivity|]. cbn [map flat_map f_lhs f_body f_alts app]. f_equal. exact IH2.
Qed.
Lemma part_syms_body : forall prec xs, part_syms (yacc_body prec xs) = xs.
Proof.
  intros prec xs. unfold part_syms, yacc_body. rewrite flat_map_app. replace (flat_map (fun p => match p with FSym x => [sym_name x] | _ => [] end) (map (fun x => FSym (SName x)) xs)) with xs; [destruct prec; cbn; now rewrite app_nil_r|].
  induction xs as [|x xs IH]; [reflexivity|]. cbn [map flat_map sym_name app]. f_equal. exact IH.
Qed.
Lemma grammar_In : forall n r, In (n, r) (file_grammar F) <-> exists la rhs prec code, In (IRule n la rhs prec code) items /\ In r (lines_of (map (means items) rhs)).
Proof.
  intros n r. unfold file_grammar. rewrite in_map_iff. unfold file_rules. split.
  - intros ((m & b) & E & I). injection E as -> <-. apply in_flat_map in I as (f & I & J). apply group_In in I as (lhs & la & rhs & prec & code & xs & I & L & ->). cbn [f_lhs f_body f_alts map] in J. destruct J as [J|[]]. injection J as <- <-. rewrite part_syms_body. eauto 6.
  - intros (la & rhs & prec & code & I & L). exists (n, yacc_body (if ign then None else prec) r). split; [cbn [fst snd]; now rewrite part_syms_body|]. apply in_flat_map. eexists. split; [apply group_In; do 6 eexists; split; [exact I|split; [exact L|reflexivity]]|]. now left.
Qed.

(** * The language *)
Lemma star_prefix : forall p a b, star (nstep items) a b -> star (nstep items) (p ++ a) (p ++ b).
Proof.
  intros p a b H. induction H as [a|a b c S0 H IH]; [constructor|]. econstructor; [|exact IH]. destruct S0 as [u v lhs la rhs prec code I|u v l t I].
  - replace (p ++ u ++ NSym lhs :: v) with ((p ++ u) ++ NSym lhs :: v) by (now rewrite app_assoc). rewrite (app_assoc p). econstructor. exact I.
  - replace (p ++ u ++ NAlt l :: v) with ((p ++ u) ++ NAlt l :: v) by (now rewrite app_assoc). rewrite (app_assoc p). now constructor.
Qed.
Lemma star_suffix : forall q a b, star (nstep items) a b -> star (nstep items) (a ++ q) (b ++ q).
Proof.
  intros q a b H. induction H as [a|a b c S0 H IH]; [constructor|]. econstructor; [|exact IH]. destruct S0 as [u v lhs la rhs prec code I|u v l t I]; rewrite <- !app_assoc; cbn [app].
  - econstructor. exact I.
  - now constructor.
Qed.
Lemma star_chosen : forall l xs, Forall2 chosen l xs -> star (nstep items) l (map NSym xs).
Proof.
  intros l xs H. induction H as [|e x l xs C H IH]; [constructor|]. cbn [map]. assert (S1 : star (nstep items) (e :: l) (NSym x :: l)) by (destruct e as [y|ys]; cbn [chosen] in C; [subst; constructor|]; apply star_one; apply (ns_alt items [] l ys x C)).
  eapply star_trans; [exact S1|]. apply (star_prefix [NSym x]). exact IH.
Qed.

Lemma yields_sentence : forall l w, yields (file_grammar F) l w -> star (nstep items) (map NSym l) (map NSym w).
Proof.
  intros l w H. induction H as [|x l w N H IH|x r l w w' I H1 IH1 H2 IH2]; [constructor|cbn [map]; apply (star_prefix [NSym x]); exact IH|].
  apply grammar_In in I as (la & rhs & prec & code & I & L). cbn [map]. eapply star_step; [apply (ns_rule items [] (map NSym l) x la rhs prec code I)|]. cbn [app]. rewrite map_app.
  eapply star_trans; [apply star_suffix, star_chosen, lines_chosen; [eapply BF; exact I|exact L]|]. eapply star_trans; [apply star_suffix; exact IH1|]. apply star_prefix. exact IH2.
Qed.

Hypothesis ONE : forall lhs la rhs prec code, In (IRule lhs la rhs prec code) items -> alternatives (map (means items) rhs) <= 1.

Lemma Forall2_app_l : forall A B (P : A -> B -> Prop) a b m, Forall2 P (a ++ b) m -> exists m1 m2, m = m1 ++ m2 /\ Forall2 P a m1 /\ Forall2 P b m2.
Proof. intros A B P a b m H. apply Forall2_app_inv_l in H as (m1 & m2 & H1 & H2 & ->). eauto. Qed.

Lemma sentence_yields_file : forall e w, star (nstep items) e (map NSym w) -> Forall upper w -> exists xs, Forall2 chosen e xs /\ yields (file_grammar F) xs w.
Proof.
  intros e w H U. remember (map NSym w) as t eqn:ET. induction H as [t|a b c S0 H IH].
  - subst t. exists w. split; [clear; induction w; constructor; auto; reflexivity|]. induction U as [|x w U0 U IH]; [constructor|]. constructor; [|exact IH]. intros r I. apply grammar_In in I as (la & rhs & prec & code & I & _). apply lhs_lower in I as (L & _). exfalso. pose proof (lower_not_upper _ L) as NU. unfold upper in *. congruence.
  - destruct (IH ET) as (xs & C & Y). clear IH. destruct S0 as [u v lhs la rhs prec code I|u v l t I].
    + apply Forall2_app_l in C as (x1 & x2 & -> & C1 & C2). apply Forall2_app_l in C2 as (x3 & x4 & -> & C3 & C4). apply yields_split in Y as (w1 & w2 & -> & Y1 & Y2). apply yields_split in Y2 as (w3 & w4 & -> & Y3 & Y4).
      exists (x1 ++ lhs :: x4). split; [apply Forall2_app; [exact C1|constructor; [reflexivity|exact C4]]|]. apply yields_app; [exact Y1|]. apply (yields_rule _ lhs x3 x4 w3 w4); [|exact Y3|exact Y4].
      apply grammar_In. exists la, rhs, prec, code. split; [exact I|]. rewrite lines_choices by (eapply ONE; exact I). now apply choices_chosen.
    + apply Forall2_app_l in C as (x1 & x2 & -> & C1 & C2). inversion C2 as [|e0 x l0 x3 C3 C4]; subst. cbn [chosen] in C3. subst x. exists (x1 ++ t :: x3). split; [apply Forall2_app; [exact C1|constructor; [exact I|exact C4]]|exact Y].
Qed.

(** * Precedences *)
Definition used_level (j : nat) : bool := match filter (at_level ign items j) terms with [] => false | _ => true end.
Definition rank (p : nat) : nat := List.length (filter used_level (seq 0 (S p))).
Definition precf (x : fact) : option (nat * ByaccParModel.bassoc) := match x with Prec p a => Some (p, a) | _ => None end.

Lemma latest_level : forall n q a l, latest precf n (decl_facts q (DTokens (Some a) None (toks l))) = if in_dec (list_eq_dec Z.eq_dec) n l then Some (S q, a) else None.
Proof.
  intros n q a l. induction l as [|x l IH]; [reflexivity|].
  change (decl_facts q (DTokens (Some a) None (toks (x :: l)))) with ([(x, See); (x, Term); (x, Prec (S q) a)] ++ decl_facts q (DTokens (Some a) None (toks l))). rewrite latest_app, IH. cbn [latest precf].
  destruct (in_dec (list_eq_dec Z.eq_dec) n (x :: l)) as [I|I], (in_dec (list_eq_dec Z.eq_dec) n l) as [J|J].
  - reflexivity.
  - destruct I as [->|I]; [|contradiction]. destruct (list_eq_dec Z.eq_dec n n) as [_|X]; [reflexivity|congruence].
  - exfalso. apply I. now right.
  - destruct (list_eq_dec Z.eq_dec x n) as [->|X]; [exfalso; apply I; now left|reflexivity].
Qed.
Lemma decls_facts_app : forall a b p, decls_facts p (a ++ b) = decls_facts p a ++ decls_facts (fold_left level a p) b.
Proof. induction a as [|d a IH]; intros b p; [reflexivity|]. cbn [app decls_facts fold_left]. now rewrite IH, app_assoc. Qed.

Lemma levels_latest : forall n k s q, latest precf n (decls_facts q (flat_map (level_decl ign items terms) (seq s k))) =
  match SpecItems.prec_of ign items n with
  | Some (p, a) => if (s <=? p) && (p <? s + k) then Some (q + List.length (filter used_level (seq s (S p - s))), yacc_assoc a) else None
  | None => None
  end.
Proof.
  intros n. induction k as [|k IH]; intros s q.
  - cbn [seq flat_map decls_facts latest]. destruct (SpecItems.prec_of ign items n) as [(p, a)|]; [|reflexivity]. destruct (Nat.leb_spec s p), (Nat.ltb_spec p (s + 0)); cbn [andb]; try reflexivity; lia.
  - cbn [seq flat_map]. rewrite decls_facts_app, latest_app, IH. clear IH.
    assert (L : latest precf n (decls_facts q (level_decl ign items terms s)) = match SpecItems.prec_of ign items n with Some (p, a) => if p =? s then Some (S q, yacc_assoc a) else None | None => None end).
    { unfold level_decl. destruct (filter (at_level ign items s) terms) as [|x l] eqn:E.
      - cbn [decls_facts latest]. destruct (SpecItems.prec_of ign items n) as [(p, a)|] eqn:P; [|reflexivity]. destruct (Nat.eqb_spec p s) as [->|]; [|reflexivity]. exfalso. assert (I : In n (filter (at_level ign items s) terms)) by (apply filter_In; split; [eapply prec_known; eauto|unfold at_level; rewrite P; apply Nat.eqb_refl]). rewrite E in I. exact I.
      - cbn [decls_facts]. rewrite app_nil_r, latest_level. destruct (in_dec (list_eq_dec Z.eq_dec) n (x :: l)) as [I|I].
        + assert (X : In x (filter (at_level ign items s) terms)) by (rewrite E; now left). rewrite <- E in I. apply filter_In in I as (_ & I). apply filter_In in X as (_ & X). unfold at_level in I, X. unfold assoc_of. destruct (SpecItems.prec_of ign items n) as [(p, a)|] eqn:P1; [|discriminate]. destruct (SpecItems.prec_of ign items x) as [(p', a')|] eqn:P2; [|discriminate]. rewrite I. apply Nat.eqb_eq in I, X. subst. rewrite (prec_same _ _ _ _ _ _ _ P1 P2). reflexivity.
        + destruct (SpecItems.prec_of ign items n) as [(p, a)|] eqn:P; [|reflexivity]. destruct (Nat.eqb_spec p s) as [->|]; [|reflexivity]. exfalso. apply I. rewrite <- E. apply filter_In. split; [eapply prec_known; eauto|unfold at_level; rewrite P; apply Nat.eqb_refl]. }
    rewrite L. clear L. assert (Q : fold_left level (level_decl ign items terms s) q = q + (if used_level s then 1 else 0)) by (unfold level_decl, used_level; destruct (filter (at_level ign items s) terms); cbn [fold_left level]; lia). rewrite Q.
    destruct (SpecItems.prec_of ign items n) as [(p, a)|] eqn:P; [|reflexivity]. assert (US : p = s -> used_level s = true).
    { intros <-. unfold used_level. destruct (filter (at_level ign items p) terms) as [|x l] eqn:E; [|reflexivity]. assert (I : In n (filter (at_level ign items p) terms)) by (apply filter_In; split; [eapply prec_known; eauto|unfold at_level; rewrite P; apply Nat.eqb_refl]). rewrite E in I. destruct I. }
    destruct (Nat.leb_spec (S s) p), (Nat.ltb_spec p (S s + k)), (Nat.leb_spec s p), (Nat.ltb_spec p (s + S k)), (Nat.eqb_spec p s); cbn [andb]; try lia; try reflexivity.
    + f_equal. f_equal. replace (S p - s) with (S (S p - S s)) by lia. cbn [seq filter]. destruct (used_level s); cbn [List.length]; lia.
    + subst p. replace (S s - s) with 1 by lia. cbn [seq filter]. rewrite US by reflexivity. cbn [List.length]. f_equal. f_equal. lia.
Qed.

Lemma prec_file : forall n, prec_of_sym (file_facts F) n = match SpecItems.prec_of ign items n with Some (p, a) => Some (rank p, yacc_assoc a) | None => None end.
Proof.
  intros n. unfold prec_of_sym. change (fun x => match x with Prec p a => Some (p, a) | _ => None end) with precf. unfold file_facts. rewrite latest_app.
  rewrite (latest_none _ precf n (flat_map group_facts (f_groups F))) by (intros m x I; apply groups_facts_In in I as ([->|(-> & _)] & _); reflexivity).
  unfold yacc_file. cbn [f_decls]. rewrite decls_facts_app, latest_app. assert (T0 : fold_left level (token_decl terms) 0 = 0) by (unfold token_decl; destruct terms; reflexivity). rewrite T0, decls_facts_app, latest_app. cbn [decls_facts decl_facts app latest precf].
  assert (E1 : (if list_eq_dec Z.eq_dec (first_lhs items) n then @None (nat * ByaccParModel.bassoc) else None) = None) by (destruct (list_eq_dec _ _ _); reflexivity). rewrite E1. rewrite levels_latest.
  assert (E2 : latest precf n (decls_facts 0 (token_decl terms)) = None).
  { apply latest_none. intros m x I. unfold token_decl in I. destruct terms as [|y l]; [destruct I|]. cbn [decls_facts] in I. rewrite app_nil_r in I. cbn [decl_facts] in I. apply in_flat_map in I as ((s & v) & I1 & I2). apply in_map_iff in I1 as (k & E & _). injection E as <- <-. destruct I2 as [I2|[I2|[]]]; injection I2 as <- <-; reflexivity. }
  rewrite E2. destruct (SpecItems.prec_of ign items n) as [(p, a)|] eqn:P; [|reflexivity]. destruct (prec_known _ _ _ _ _ SH P) as (_ & _ & B & _). destruct (Nat.leb_spec 0 p), (Nat.ltb_spec p (0 + S (List.length (filter is_assoc items)))); cbn [andb]; try lia. rewrite Nat.sub_0_r. reflexivity.
Qed.

Lemma rank_mono : forall x y p q a b, SpecItems.prec_of ign items x = Some (p, a) -> SpecItems.prec_of ign items y = Some (q, b) -> (p < q <-> rank p < rank q).
Proof.
  intros x y p q a b P Q. assert (K : forall p q y b, SpecItems.prec_of ign items y = Some (q, b) -> p < q -> rank p < rank q).
  { clear -SH. intros p q y b Q L. unfold rank. replace (seq 0 (S q)) with (seq 0 (S p) ++ seq (S p) (q - p)) by (rewrite <- seq_app; f_equal; lia). rewrite filter_app, app_length.
    assert (I : In q (filter used_level (seq (S p) (q - p)))).
    { apply filter_In. split; [apply in_seq; lia|]. unfold used_level. destruct (filter (at_level ign items q) terms) as [|z l] eqn:E; [|reflexivity]. assert (I : In y (filter (at_level ign items q) terms)) by (apply filter_In; split; [eapply prec_known; eauto|unfold at_level; rewrite Q; apply Nat.eqb_refl]). rewrite E in I. destruct I. }
    destruct (filter used_level (seq (S p) (q - p))); [destruct I|cbn [List.length]; lia]. }
  split; [eapply K; eauto|]. intros L. destruct (Nat.lt_total p q) as [H|[->|H]]; [exact H|lia|]. pose proof (K q p x a P H). lia.
Qed.
End File.
