(** The items that byacc -E prints of a grammar file. *)
From Coq Require Import String List Arith ZArith Bool Lia.
Import ListNotations.
From Verif Require Import Base LemonTableModel LemonPreModel ByaccParModel Prop_ByaccMidrule ByaccPackFileProof SpecByaccFile ByaccTableProof ByaccFilePackProof ByaccLemonTextProof ByaccLemonFileProof.
From Verif Require LemonIndexProof LemonActionModel LemonReprintProof ReprintFileProof SpecReprint Prop_ByaccLemon Prop_LemonEndToEnd.
From Verif Require Import LemonReadModel SpecItems LemonReadProof SpecFile.
Local Notation names := SpecByaccFile.names.

(** * Lists *)
Lemma NoDup_keyed : forall A (f : A -> nat) l ks, NoDup l -> NoDup ks -> NoDup (flat_map (fun k => filter (fun x => f x =? k) l) ks).
Proof.
  intros A f l ks NL NK. induction NK as [|k ks NI NK IH]; [constructor|]. cbn [flat_map]. apply NoDup_app_iff. split; [now apply NoDup_filter|]. split; [exact IH|].
  intros x I J. apply filter_In in I as (_ & I). apply in_flat_map in J as (k' & Ik & J). apply filter_In in J as (_ & J). apply Nat.eqb_eq in I, J. congruence.
Qed.
Lemma NoDup_map_on : forall A B (f : A -> B) l, (forall x y, In x l -> In y l -> f x = f y -> x = y) -> NoDup l -> NoDup (map f l).
Proof.
  intros A B f l H N. induction N as [|x l NI N IH]; [constructor|]. cbn [map]. constructor; [|apply IH; intros; apply H; auto; now right].
  intros I. apply in_map_iff in I as (y & E & I). apply H in E; [subst; contradiction|now right|now left].
Qed.

(** The tokens that have a precedence. *)
Definition assoc_names (l : list item) : list text := flat_map (fun i => match i with IAssoc _ xs => xs | _ => [] end) l.
Lemma prec_names : forall l n x v, prec_from n l x = Some v -> In x (assoc_names l).
Proof.
  induction l as [|i l IH]; intros n x v H; [discriminate|]. unfold assoc_names. cbn [flat_map]. apply in_app_iff. destruct i as [| a ys| | | | | | | |]; cbn [prec_from] in H; try (right; now apply IH in H).
  destruct (mem x ys) eqn:E; [left; now apply mem_ok|right; now apply IH in H].
Qed.

Section Items.
Variable F : bfile.
Variable file : LemonCodeModel.txt.
Hypothesis FT : file_text F (ByaccScanModel.input file).
Hypothesis OK : file_ok F.
Hypothesis LN : lemon_names F.
Variable ts : list text.
Hypothesis TN : NoDup ts.
Hypothesis TI : forall x, In x ts <-> SpecByaccFile.file_token F x.
Let L := file_facts F.
Let top := fold_left level (f_decls F) 0.
Local Notation items := (file_items F ts).
Local Notation sn := (sn F).

Lemma tok_ok : forall x, SpecByaccFile.file_token F x -> wname (tn x) /\ upper (tn x).
Proof. intros x T. destruct (tn_ok x (ln_tokens _ LN x T)) as (_ & A & B). auto. Qed.
Lemma lhs_ok : forall x, is_lhs L x -> wname (vn x) /\ lower (vn x).
Proof. intros x T. destruct (vn_ok x (ln_lhs _ LN x T)) as (_ & A & B). auto. Qed.
Lemma tn_same : forall x y, SpecByaccFile.file_token F x -> SpecByaccFile.file_token F y -> tn x = tn y -> x = y.
Proof. intros x y X Y. apply tn_inj; now apply (ln_tokens _ LN). Qed.
Lemma sn_tok : forall x, SpecByaccFile.file_token F x -> sn x = tn x.
Proof. intros x T. unfold ByaccLemonFileProof.sn. pose proof (proj2 (tokb F x (proj1 T)) T) as E. cbn zeta in E. now rewrite E. Qed.
Lemma sn_lhs : forall x, is_lhs L x -> sn x = vn x.
Proof. intros x T. unfold ByaccLemonFileProof.sn. apply lhsb_iff in T. unfold L in T. now rewrite T. Qed.
Lemma name_cases : forall x, In x (names L) -> is_lhs L x \/ SpecByaccFile.file_token F x.
Proof. intros x I. destruct (lhsb L x) eqn:E; [left; now apply lhsb_iff|right]. now apply tokb. Qed.
Lemma sn_alpha : forall x, In x (names L) -> alpha (sn x).
Proof.
  intros x I. unfold alpha, isalpha. destruct (name_cases x I) as [H|H]; [rewrite (sn_lhs x H); destruct (lhs_ok x H) as (_ & A); unfold lower, LemonReadModel.islower in A; rewrite A; apply orb_true_r|].
  rewrite (sn_tok x H). destruct (tok_ok x H) as (_ & A). unfold upper, isupper in A. now rewrite A.
Qed.
Lemma sn_same : forall x y, In x (names L) -> In y (names L) -> sn x = sn y -> x = y.
Proof.
  assert (D : forall x y, is_lhs L x -> SpecByaccFile.file_token F y -> vn x <> tn y).
  { intros x y X Y E. destruct (lhs_ok x X) as (_ & A). destruct (tok_ok y Y) as (_ & B). rewrite E in A. apply LemonIndexProof.lower_not_upper in A. unfold upper in B. congruence. }
  intros x y I J. destruct (name_cases x I) as [X|X], (name_cases y J) as [Y|Y]; rewrite ?(sn_lhs x X), ?(sn_lhs y Y), ?(sn_tok x X), ?(sn_tok y Y).
  - apply vn_inj; now apply (ln_lhs _ LN).
  - intros E. now apply D in E.
  - intros E. symmetry in E. now apply D in E.
  - now apply tn_same.
Qed.
Lemma syms_known : forall n b x, In (n, b) (file_rules F) -> In x (part_syms b) -> In x (names L).
Proof. intros n b x I J. destruct (grammar_in F n (part_syms b)) as (_ & FA); [apply in_map_iff; exists (n, b); auto|]. rewrite Forall_forall in FA. now apply FA. Qed.
Lemma lhs_of : forall n b, In (n, b) (file_rules F) -> is_lhs L n.
Proof. intros n b I. now destruct (part_in _ _ _ I). Qed.

(** * The items *)
Lemma item_cases : forall i, In i items ->
  (exists x, SpecByaccFile.file_token F x /\ i = IToken [tn x]) \/ (exists k x l, 0 < k /\ lev F k ts = x :: l /\ i = IAssoc (lemon_assoc (snd (prec_val F x))) (map tn (x :: l))) \/
  i = IText LemonReadModel.Gstart (vn (goal_of F)) \/ exists n b, In (n, b) (file_rules F) /\ i = rule_item F (n, b).
Proof.
  intros i I. unfold file_items in I. apply in_app_iff in I as [I|I]; [|apply in_app_iff in I as [I|[I|I]]].
  - apply in_map_iff in I as (x & <- & I). apply filter_In in I as (I & _). left. exists x. split; [now apply TI|reflexivity].
  - unfold levels in I. apply in_flat_map in I as (k & K & I). apply in_seq in K. unfold level_item in I. destruct (lev F k ts) as [|x l] eqn:E; [destruct I|]. destruct I as [<-|[]]. right. left. exists k, x, l. split; [lia|auto].
  - right. right. now left.
  - apply in_map_iff in I as ((n & b) & <- & I). right. right. right. eauto.
Qed.
Lemma lev_tok : forall k x, In x (lev F k ts) -> SpecByaccFile.file_token F x /\ at_lev F k x = true.
Proof. intros k x I. apply filter_In in I as (I & E). split; [now apply TI|exact E]. Qed.

Lemma items_shape : Forall item_shape items.
Proof.
  apply Forall_forall. intros i I. destruct (item_cases i I) as [(x & T & ->)|[(k & x & l & P & E & ->)|[->|(n & b & R & ->)]]]; cbn [item_shape].
  - repeat constructor. now apply tok_ok.
  - assert (J : forall y, In y (x :: l) -> SpecByaccFile.file_token F y /\ at_lev F k y = true) by (intros y Iy; apply lev_tok; now rewrite E). split.
    + destruct (J x (or_introl eq_refl)) as (_ & E1). destruct (level_assoc F file FT x k E1 P) as (A & _). destruct (snd (prec_val F x)); try discriminate. now destruct A.
    + apply Forall_forall. intros y Iy. apply in_map_iff in Iy as (y0 & <- & Iy). apply tok_ok. now apply J.
  - right. right. destruct (lhs_ok _ (fo_goal _ OK)) as ((c & r & E & A & _) & _). rewrite E. exact A.
  - cbn [rule_item fst snd]. split; [apply lhs_ok; eapply lhs_of; eauto|]. split; [exact Logic.I|]. split; [|split; [|exact Logic.I]].
    + apply Forall_forall. intros e Ie. apply in_map_iff in Ie as (x & <- & Ix). split; [apply sn_alpha; eapply syms_known; eauto|]. split; [exact Logic.I|]. intros X. now destruct X.
    + cbn [snd]. destruct (fmark b) as [p|] eqn:EM; [|exact Logic.I]. cbn [option_map opt_ok]. apply tok_ok. eapply (ln_prec _ LN); eauto.
Qed.

Lemma assoc_names_items : assoc_names items = map tn (flat_map (fun k => lev F k ts) (seq 1 top)).
Proof.
  unfold assoc_names, file_items. rewrite !flat_map_app. cbn [flat_map app].
  assert (A : forall l, flat_map (fun i => match i with IAssoc _ xs => xs | _ => [] end) (map (fun x => IToken [tn x]) l) = []) by (induction l; auto).
  assert (B : forall l, flat_map (fun i => match i with IAssoc _ xs => xs | _ => [] end) (map (rule_item F) l) = []) by (induction l; auto). rewrite A, B, app_nil_r. cbn [app]. unfold levels. fold top.
  induction (seq 1 top) as [|k ks IH]; [reflexivity|]. cbn [flat_map]. rewrite flat_map_app, IH, map_app. f_equal. unfold level_item. destruct (lev F k ts); [reflexivity|]. cbn [flat_map]. apply app_nil_r.
Qed.
Lemma assoc_once : NoDup (assoc_names items).
Proof.
  rewrite assoc_names_items. apply NoDup_map_on.
  - intros x y I J. apply in_flat_map in I as (k & _ & I). apply in_flat_map in J as (k' & _ & J). apply lev_tok in I as (I & _). apply lev_tok in J as (J & _). now apply tn_same.
  - apply (NoDup_keyed _ (fun x => fst (prec_val F x))); [exact TN|apply seq_NoDup].
Qed.
Lemma items_fresh : forall ign, items_new ign items.
Proof.
  intros ign pre i post E. assert (I : In i items) by (rewrite E; apply in_app_iff; right; now left). destruct (item_cases i I) as [(x & T & ->)|[(k & x & l & P & EL & ->)|[->|(n & b & R & ->)]]]; cbn [item_new].
  - exact Logic.I.
  - intros ->. pose proof assoc_once as ND. rewrite E in ND. unfold assoc_names in ND. rewrite flat_map_app in ND. cbn [flat_map] in ND. apply NoDup_app_iff in ND as (N1 & N2 & N3). apply NoDup_app_iff in N2 as (N2 & _). split; [exact N2|].
    intros y Iy. unfold prec_of. destruct (prec_from 1 pre y) as [v|] eqn:EP; [|reflexivity]. exfalso. apply prec_names in EP. apply (N3 y EP). apply in_app_iff. now left.
  - exact Logic.I.
  - unfold rule_item. cbn [fst snd item_new]. rewrite map_length. exact (ln_len _ LN n b R).
Qed.
Lemma no_classes : forall x, class_of items x = None.
Proof.
  intros x. assert (H : forall l, (forall c ys, ~ In (IClass c ys) l) -> class_of l x = None).
  { induction l as [|i l IH]; intros H; [reflexivity|]. assert (IH' : class_of l x = None) by (apply IH; intros c ys I; apply (H c ys); now right). destruct i; cbn [class_of]; auto. exfalso. eapply H. now left. }
  apply H. intros c ys I. destruct (item_cases _ I) as [(? & _ & E)|[(? & ? & ? & _ & _ & E)|[E|(? & ? & _ & E)]]]; discriminate.
Qed.
Lemma no_fallbacks : forall x, fallback_of items x = None.
Proof.
  intros x. assert (H : forall l, (forall c ys, ~ In (IFallback c ys) l) -> fallback_of l x = None).
  { induction l as [|i l IH]; intros H; [reflexivity|]. assert (IH' : fallback_of l x = None) by (apply IH; intros c ys I; apply (H c ys); now right). destruct i; cbn [fallback_of]; auto. exfalso. eapply H. now left. }
  apply H. intros c ys I. destruct (item_cases _ I) as [(? & _ & E)|[(? & ? & ? & _ & _ & E)|[E|(? & ? & _ & E)]]]; discriminate.
Qed.
Lemma no_wildcard : wildcard_of items = None.
Proof.
  assert (H : forall l, (forall c, ~ In (IWildcard c) l) -> wildcard_of l = None).
  { induction l as [|i l IH]; intros H; [reflexivity|]. assert (IH' : wildcard_of l = None) by (apply IH; intros c I; apply (H c); now right). destruct i; cbn [wildcard_of]; auto. exfalso. eapply H. now left. }
  apply H. intros c I. destruct (item_cases _ I) as [(? & _ & E)|[(? & ? & ? & _ & _ & E)|[E|(? & ? & _ & E)]]]; discriminate.
Qed.
Lemma slots_none : forall l, (forall i, In i l -> match i with IText _ _ => False | _ => True end) -> slot_args LemonReadModel.Gstart l = [].
Proof. induction l as [|i l IH]; intros H; [reflexivity|]. pose proof (H i (or_introl eq_refl)) as X. destruct i; try (now destruct X); apply IH; intros; apply H; now right. Qed.
Lemma slot_args_app : forall g a b, slot_args g (a ++ b) = slot_args g a ++ slot_args g b.
Proof. intros g. induction a as [|i a IH]; intros b; [reflexivity|]. destruct i; cbn [app slot_args]; auto. destruct (LemonReadModel.gslot_beq g s); cbn [app]; now rewrite IH. Qed.
Lemma start_slot : slot_text LemonReadModel.Gstart items = Some (vn (goal_of F)).
Proof.
  unfold slot_text, file_items. rewrite !slot_args_app. rewrite slots_none. 2:{ intros i I. apply in_map_iff in I as (x & <- & _). exact Logic.I. }
  rewrite slots_none. 2:{ intros i I. unfold levels in I. apply in_flat_map in I as (k & _ & I). unfold level_item in I. destruct (lev F k ts); [destruct I|]. destruct I as [<-|[]]. exact Logic.I. }
  cbn [app slot_args LemonReadModel.gslot_beq]. rewrite slots_none. 2:{ intros i I. apply in_map_iff in I as (x & <- & _). exact Logic.I. }
  destruct (lhs_ok _ (fo_goal _ OK)) as ((c & r & E & A & _) & _). rewrite E. cbn [concat]. rewrite app_nil_r. f_equal. unfold arg_text. replace ((c =? 34)%Z || (c =? 123)%Z)%bool with false; [reflexivity|]. symmetry. apply orb_false_iff. split; apply Z.eqb_neq; intros ->; discriminate.
Qed.
Lemma rule_in : forall n b, In (n, b) (file_rules F) -> In (rule_item F (n, b)) items.
Proof. intros n b I. unfold file_items. apply in_app_iff. right. apply in_app_iff. right. right. now apply in_map. Qed.
Lemma goal_rule : exists b, In (goal_of F, b) (file_rules F).
Proof. pose proof (fo_goal _ OK) as H. apply lhs_iff in H as (r & I). apply in_map_iff in I as ((n & b) & E & I). cbn [fst snd] in E. injection E as E _. subst n. eauto. Qed.
Lemma goal_mentioned : forall ign, In (vn (goal_of F)) (symbols_of ign items).
Proof. intros ign. unfold symbols_of. rewrite firsts_In. right. destruct goal_rule as (b & I). apply in_flat_map. exists (rule_item F (goal_of F, b)). split; [now apply rule_in|]. now left. Qed.
Lemma start_items : forall ign, start_of ign items = vn (goal_of F).
Proof. intros ign. unfold start_of. rewrite start_slot. pose proof (goal_mentioned ign) as M. apply mem_ok in M. now rewrite M. Qed.
Lemma items_grammar : forall ign, grammar_file ign items.
Proof.
  intros ign. constructor.
  - destruct goal_rule as (b & I). exists (rule_item F (goal_of F, b)). split; [now apply rule_in|reflexivity].
  - intros. apply no_classes.
  - intros x E. rewrite start_slot in E. injection E as <-. destruct (lhs_ok _ (fo_goal _ OK)) as (_ & A). split; [intros X; rewrite X in A; discriminate|]. intros _. split; [exact A|apply no_classes].
  - intros c l I. destruct (item_cases _ I) as [(? & _ & E)|[(? & ? & ? & _ & _ & E)|[E|(? & ? & _ & E)]]]; discriminate.
Qed.
Lemma items_rules : filter is_rule items = map (rule_item F) (file_rules F).
Proof.
  unfold file_items. rewrite !filter_app. cbn [filter is_rule].
  assert (A : forall l, (forall i, In i l -> is_rule i = false) -> filter is_rule l = []) by (induction l as [|i l IH]; intros H; [reflexivity|]; cbn [filter]; rewrite (H i (or_introl eq_refl)); apply IH; intros; apply H; now right).
  rewrite A. 2:{ intros i I. apply in_map_iff in I as (x & <- & _). reflexivity. }
  rewrite A. 2:{ intros i I. unfold levels in I. apply in_flat_map in I as (k & _ & I). unfold level_item in I. destruct (lev F k ts); [destruct I|]. destruct I as [<-|[]]. reflexivity. }
  cbn [app]. induction (file_rules F) as [|r l IH]; [reflexivity|]. cbn [map filter rule_item is_rule]. fold (rule_item F r). now rewrite IH.
Qed.

(** * Tokens *)
Lemma terms_from : forall ign y, In y (terms_of ign items) -> exists x, SpecByaccFile.file_token F x /\ y = tn x.
Proof.
  intros ign y I. apply filter_In in I as (I & U). unfold symbols_of in I. rewrite firsts_In in I. destruct I as [<-|I]; [discriminate|]. apply in_flat_map in I as (i & I & M). destruct (item_cases i I) as [(x & T & ->)|[(k & x & l & P & E & ->)|[->|(n & b & R & ->)]]]; cbn [mentions] in M.
  - destruct M as [<-|[]]. eauto.
  - destruct ign; [destruct M|]. apply in_map_iff in M as (x0 & <- & M). exists x0. split; [|reflexivity]. rewrite <- E in M. now apply lev_tok in M.
  - destruct M.
  - cbn [rule_item mentions fst snd] in M. destruct M as [<-|M].
    + destruct (lhs_ok n (lhs_of _ _ R)) as (_ & A). apply LemonIndexProof.lower_not_upper in A. congruence.
    + apply in_app_iff in M as [M|M].
      * apply in_flat_map in M as (e & Ie & M). apply in_map_iff in Ie as (x & <- & Ix). cbn [re_name re_alts] in M. destruct M as [<-|[]]. pose proof (syms_known _ _ _ R Ix) as KN. destruct (name_cases x KN) as [H|H]; [|exists x; split; [exact H|now apply sn_tok]].
        rewrite (sn_lhs x H) in U. destruct (lhs_ok x H) as (_ & A). apply LemonIndexProof.lower_not_upper in A. congruence.
      * destruct (fmark b) as [p|] eqn:EM; cbn [option_map] in M; [|destruct M]. destruct ign; [destruct M|]. destruct M as [<-|[]]. exists p. split; [eapply (ln_prec _ LN); eauto|reflexivity].
Qed.
Lemma terms_all : forall ign x, SpecByaccFile.file_token F x -> x <> zs "error" -> In (tn x) (terms_of ign items).
Proof.
  intros ign x T NE. apply filter_In. split; [|now apply tok_ok]. unfold symbols_of. rewrite firsts_In. right. apply in_flat_map. exists (IToken [tn x]). split; [|now left]. unfold file_items. apply in_app_iff. left. apply in_map_iff. exists x. split; [reflexivity|]. apply filter_In. split; [now apply TI|].
  unfold errorb. destruct (list_eq_dec Z.eq_dec x (zs "error")); [contradiction|reflexivity].
Qed.

(** * Precedences *)
Definition used (k : nat) : bool := match lev F k ts with [] => false | _ => true end.
Lemma prec_other : forall l n x, (forall i, In i l -> match i with IAssoc _ _ => False | _ => True end) -> prec_from n l x = None.
Proof. induction l as [|i l IH]; intros n x H; [reflexivity|]. pose proof (H i (or_introl eq_refl)) as X. destruct i; try (now destruct X); apply IH; intros; apply H; now right. Qed.
Lemma prec_skip : forall l r n x, (forall i, In i l -> match i with IAssoc _ _ => False | _ => True end) -> prec_from n (l ++ r) x = prec_from n r x.
Proof. induction l as [|i l IH]; intros r n x H; [reflexivity|]. pose proof (H i (or_introl eq_refl)) as X. destruct i; try (now destruct X); apply IH; intros; apply H; now right. Qed.
Lemma prec_levels : forall x m s n r, SpecByaccFile.file_token F x -> (forall i, prec_from i r (tn x) = None) ->
  let p := fst (prec_val F x) in
  prec_from n (flat_map (level_item F ts) (seq s m) ++ r) (tn x) = if ((s <=? p) && (p <? s + m))%bool then Some (n + List.length (filter used (seq s (p - s))), lemon_assoc (snd (prec_val F x))) else None.
Proof.
  intros x m. induction m as [|m IH]; intros s n r T R p.
  - cbn [seq flat_map app]. rewrite R. replace ((s <=? p) && (p <? s + 0))%bool with false; [reflexivity|]. symmetry. apply andb_false_iff. rewrite Nat.leb_gt, Nat.ltb_ge. lia.
  - cbn [seq flat_map]. rewrite <- app_assoc. unfold level_item at 1. destruct (lev F s ts) as [|y l] eqn:E.
    + cbn [app]. rewrite IH by assumption. fold p. assert (NS : p <> s). { intros X. assert (I : In x (lev F s ts)) by (apply filter_In; split; [now apply TI|apply Nat.eqb_eq; exact X]). rewrite E in I. destruct I. }
      destruct ((S s <=? p) && (p <? S s + m))%bool eqn:B.
      * apply andb_true_iff in B as (B1 & B2). apply Nat.leb_le in B1. apply Nat.ltb_lt in B2. replace ((s <=? p) && (p <? s + S m))%bool with true by (symmetry; apply andb_true_iff; rewrite Nat.leb_le, Nat.ltb_lt; lia).
        replace (p - s) with (S (p - S s)) by lia. cbn [seq filter]. unfold used at 2. rewrite E. reflexivity.
      * replace ((s <=? p) && (p <? s + S m))%bool with false; [reflexivity|]. symmetry. apply andb_false_iff in B. apply andb_false_iff. rewrite Nat.leb_gt, Nat.ltb_ge in *. lia.
    + cbn [app prec_from]. destruct (mem (tn x) (map tn (y :: l))) eqn:M.
      * apply mem_ok in M. apply in_map_iff in M as (x' & EX & I). rewrite <- E in I. pose proof I as I0. apply lev_tok in I as (T' & A). apply tn_same in EX; [|assumption|assumption]. subst x'.
        unfold at_lev in A. apply Nat.eqb_eq in A. assert (PS : p = s) by exact A. rewrite PS. replace ((s <=? s) && (s <? s + S m))%bool with true by (symmetry; apply andb_true_iff; rewrite Nat.leb_le, Nat.ltb_lt; lia). rewrite Nat.sub_diag. cbn [seq filter List.length]. rewrite Nat.add_0_r. do 2 f_equal.
        assert (Iy : In y (lev F s ts)) by (rewrite E; now left). apply lev_tok in Iy as (Ty & Ay). destruct (Nat.eq_dec s 0) as [Z0|NZ].
        { rewrite Z0 in *. rewrite (level_zero F y Ay), (level_zero F x); [reflexivity|]. apply Nat.eqb_eq. exact PS. }
        f_equal. assert (Ax : at_lev F s x = true) by (apply Nat.eqb_eq; exact PS). pose proof (level_pos F y s Ay ltac:(lia)) as PY. pose proof (level_pos F x s Ax ltac:(lia)) as PX. exact (decls_same _ _ _ _ _ _ _ PY PX).
      * rewrite IH by assumption. fold p. assert (NS : p <> s). { intros X. apply mem_no in M. apply M. apply in_map. rewrite <- E. apply filter_In. split; [now apply TI|apply Nat.eqb_eq; exact X]. }
        destruct ((S s <=? p) && (p <? S s + m))%bool eqn:B.
        -- apply andb_true_iff in B as (B1 & B2). apply Nat.leb_le in B1. apply Nat.ltb_lt in B2. replace ((s <=? p) && (p <? s + S m))%bool with true by (symmetry; apply andb_true_iff; rewrite Nat.leb_le, Nat.ltb_lt; lia).
           replace (p - s) with (S (p - S s)) by lia. cbn [seq filter]. unfold used at 2. rewrite E. cbn [List.length]. do 2 f_equal. lia.
        -- replace ((s <=? p) && (p <? s + S m))%bool with false; [reflexivity|]. symmetry. apply andb_false_iff in B. apply andb_false_iff. rewrite Nat.leb_gt, Nat.ltb_ge in *. lia.
Qed.
(** The number of a level: how many levels up to it have tokens. *)
Definition rank (p : nat) : nat := 1 + List.length (filter used (seq 1 (p - 1))).
Lemma prec_items : forall x, SpecByaccFile.file_token F x -> prec_of false items (tn x) = option_map (fun v => (rank (fst v), lemon_assoc (snd v))) (prec_of_sym L x).
Proof.
  intros x T. unfold prec_of, file_items. rewrite prec_skip by (intros i I; apply in_map_iff in I as (? & <- & _); exact Logic.I). unfold levels. fold top.
  rewrite prec_levels; [|exact T|intros n; apply prec_other; intros i [<-|I]; [exact Logic.I|apply in_map_iff in I as (? & <- & _); exact Logic.I]].
  unfold prec_val. fold L. destruct (prec_of_sym L x) as [(p & a)|] eqn:E; cbn [fst snd option_map]; [|reflexivity].
  apply file_precs, decls_precs in E as (E & _). fold top in E. replace ((1 <=? p) && (p <? 1 + top))%bool with true by (symmetry; apply andb_true_iff; rewrite Nat.leb_le, Nat.ltb_lt; lia). reflexivity.
Qed.
Lemma rank_less : forall x y p q a b, SpecByaccFile.file_token F x -> prec_of_sym L x = Some (p, a) -> prec_of_sym L y = Some (q, b) -> p < q -> rank p < rank q.
Proof.
  intros x y p q a b T P Q LT. apply file_precs in P as P1. apply decls_precs in P1 as (P1 & _). unfold rank. replace (q - 1) with ((p - 1) + (q - p)) by lia. rewrite seq_app, filter_app, app_length.
  assert (I : In p (filter used (seq (1 + (p - 1)) (q - p)))).
  { apply filter_In. split; [apply in_seq; lia|]. unfold used. destruct (lev F p ts) as [|u l] eqn:E; [|reflexivity]. assert (X : In x (lev F p ts)) by (apply filter_In; split; [now apply TI|unfold at_lev, prec_val; fold L; rewrite P; apply Nat.eqb_refl]). rewrite E in X. destruct X. }
  destruct (filter used (seq (1 + (p - 1)) (q - p))); [destruct I|cbn [List.length]; lia].
Qed.
Lemma rank_order : forall x y p q a b, SpecByaccFile.file_token F x -> SpecByaccFile.file_token F y -> prec_of_sym L x = Some (p, a) -> prec_of_sym L y = Some (q, b) -> (p < q <-> rank p < rank q).
Proof.
  intros x y p q a b X Y P Q. split; [intros LT0; exact (rank_less x y p q a b X P Q LT0)|]. intros LT. destruct (lt_eq_lt_dec p q) as [[H|H]|H]; [exact H|subst; lia|]. pose proof (rank_less y x q p b a Y Q P H). lia.
Qed.

(** * The language *)
Lemma relem_means : forall x, means items (mkRelem (sn x) [] None) = NSym (sn x).
Proof. intros x. unfold means. cbn [re_alts re_name]. now rewrite no_classes. Qed.
Lemma map_means : forall l, map (means items) (map (fun x => mkRelem (sn x) [] None) l) = map NSym (map sn l).
Proof. intros l. rewrite !map_map. apply map_ext. apply relem_means. Qed.
Lemma no_alternatives : forall l : list text, SpecReprint.alternatives (map NSym l) = 0.
Proof. intros l. unfold SpecReprint.alternatives. induction l; auto. Qed.
Lemma choices_syms : forall l, SpecReprint.choices (map NSym l) = [l].
Proof. induction l as [|x l IH]; [reflexivity|]. cbn [map SpecReprint.choices]. rewrite IH. reflexivity. Qed.
Lemma items_single : forall lhs la rhs prec code, In (IRule lhs la rhs prec code) items -> SpecReprint.alternatives (map (means items) rhs) <= 1.
Proof.
  intros lhs la rhs prec code I. destruct (item_cases _ I) as [(? & _ & E)|[(? & ? & ? & _ & _ & E)|[E|(n & b & _ & E)]]]; try discriminate. injection E as -> -> -> -> ->. cbn [fst snd]. rewrite map_means, no_alternatives. lia.
Qed.
Lemma items_grammar_rules : forall ign, file_grammar (LemonReprintProof.yacc_file ign items) = rename sn (file_grammar F).
Proof.
  intros ign. unfold file_grammar at 1. rewrite ReprintFileProof.rules_lines, items_rules. unfold file_grammar.
  assert (H : forall l, incl l (file_rules F) -> map (fun r : text * list fpart => (fst r, part_syms (snd r))) (flat_map (fun i => match i with IRule lhs _ rhs prec _ => map (fun xs => (lhs, SpecReprint.yacc_body (if ign then None else prec) xs)) (LemonReprintProof.lines_of (map (means items) rhs)) | _ => [] end) (map (rule_item F) l)) =
    rename sn (map (fun r => (fst r, part_syms (snd r))) l)); [|apply H, incl_refl].
  induction l as [|(n & b) l IH]; intros IN; [reflexivity|]. cbn [map flat_map rename fst snd]. rewrite map_app, IH by (intros x X; apply IN; now right). unfold rule_item at 1. cbn [fst snd].
  rewrite map_means, ReprintFileProof.lines_choices by (rewrite no_alternatives; lia). rewrite choices_syms. cbn [map fst snd app]. rewrite ReprintFileProof.part_syms_body. rewrite (sn_lhs n) by (eapply lhs_of; apply IN; now left). reflexivity.
Qed.
Lemma items_language : forall ign t, Prop_LemonEndToEnd.declares [] t items -> forall w, Forall (SpecByaccFile.file_token F) w -> (yields (file_grammar F) [goal_of F] w <-> nsentence ign items (map tn w)).
Proof.
  intros ign t (z1 & evs & PP & LX & TX) w FW. pose proof (LemonReprintProof.names_ok _ _ _ ign items LX TX items_shape) as NMS.
  assert (E : map tn w = map sn w) by (apply map_ext_in; intros x I; symmetry; apply sn_tok; rewrite Forall_forall in FW; auto).
  assert (G : In (goal_of F) (names L)) by (apply lhs_in_names, fo_goal, OK).
  rewrite (yields_rename _ _ sn (fun x => In x (names L)) (file_grammar F)); [| |intros x r I; apply (grammar_in F x r I)|constructor; [exact G|constructor]|eapply Forall_impl; [|exact FW]; intros x (I & _); exact I]; [|intros x y; apply sn_same].
  cbn [map]. rewrite (sn_lhs _ (fo_goal _ OK)), <- E, <- (items_grammar_rules ign). unfold nsentence. rewrite start_items.
  assert (U : Forall upper (map tn w)) by (apply Forall_map; eapply Forall_impl; [|exact FW]; intros x T; now apply tok_ok). split.
  - intros Y. split; [exact U|]. apply (ReprintFileProof.yields_sentence ign items) with (l := [vn (goal_of F)]); [|exact Y]. intros lhs la rhs prec code I. apply ReprintFileProof.one_fits. eapply items_single; eauto.
  - intros (_ & S0). destruct (ReprintFileProof.sentence_yields_file ign items items_shape NMS items_single _ _ S0 U) as (xs & C & Y). inversion C as [|e x l0 x3 C3 C4]; subst. inversion C4; subst. cbn [ReprintFileProof.chosen] in C3. subst x. exact Y.
Qed.
End Items.
