(** Soundness of the generated parsers: the stack always spells a viable prefix
    and its values are parse trees of the tokens read. *)
From Coq Require Import List ZArith NArith Bool Lia Arith Permutation Sorted.
Import ListNotations.
From Verif Require Import Base CLib SpecGrammar SpecGrammarFacts SpecLRFacts SpecLR0 SpecReduceChain LemonSetModel LemonFirstModel
  LemonSortModel LemonStatesModel LemonStatesProof Prop_LemonStates
  LemonActionModel LemonActionProof Prop_LemonAction LemonCompressModel LemonCompressProof
  LemonReportModel LemonParModel LemonParProof LemonPipelineModel LemonReportProof LemonLookupProof
  Prop_LemonTables LemonGenProof LemonTabProof.
Local Open Scope res_scope.

(** * Parse trees *)

(** Token [la] can stand for terminal [s]: it is [s], or its fallback is [s], or
    [s] is the wildcard. *)
Definition matches (o : opts) (la s : nat) : Prop :=
  la = s \/ (s <> 0 /\ fallback_of o la = s) \/ (0 < la /\ o_wildcard o = Some s).

(** [ptree X T w]: the value [T] is a parse tree of symbol [X] over the tokens [w]
    (pairs of token code and number).  A rule without code and with one
    nonterminal on its right may be passed over. *)
Inductive ptree (g : grammar) (o : opts) : elem -> tree -> list (nat * nat) -> Prop :=
| pt_tok : forall s la id, is_term g s -> matches o la s -> ptree g o (ESym s) (Tok id) [(la, id)]
| pt_multi : forall l s la id, In s l -> matches o la s -> ptree g o (EMulti l) (Tok id) [(la, id)]
| pt_rule : forall r rl ts w, rule_of g r = Some rl -> ptrees g o (r_rhs rl) ts w ->
    ptree g o (ESym (r_lhs rl)) (Nod (Z.of_nat (ri_iRule (opts_rinfo o) r)) ts) w
| pt_unit : forall r rl B T w, rule_of g r = Some rl -> ri_noCode (opts_rinfo o) r = true -> r_rhs rl = [ESym B] -> is_nonterm g B ->
    ptree g o (ESym B) T w -> ptree g o (ESym (r_lhs rl)) T w
with ptrees (g : grammar) (o : opts) : list elem -> list tree -> list (nat * nat) -> Prop :=
| pts_nil : ptrees g o [] [] []
| pts_cons : forall X l T ts w ws, ptree g o X T w -> ptrees g o l ts ws -> ptrees g o (X :: l) (T :: ts) (w ++ ws).

Scheme ptree_ind2 := Induction for ptree Sort Prop
  with ptrees_ind2 := Induction for ptrees Sort Prop.

(** The shifts and reductions of a bottom-up, left to right traversal. *)
Inductive pstep : Type := Sh (id : nat) | Re (rule : Z).
Fixpoint post (t : tree) : list pstep :=
  match t with
  | Tok id => [Sh id]
  | Nod r ts => flat_map post ts ++ [Re r]
  end.

(** The shifts and reductions recorded in a log (newest first). *)
Definition psteps1 (e : event) : list pstep :=
  match e with
  | EvShift _ (Tok id) => [Sh id]
  | EvReduce r _ => [Re r]
  | _ => []
  end.
Definition psteps (l : list event) : list pstep := flat_map psteps1 (rev l).

Lemma ptrees_app : forall g o l1 ts1 w1 l2 ts2 w2, ptrees g o l1 ts1 w1 -> ptrees g o l2 ts2 w2 ->
  ptrees g o (l1 ++ l2) (ts1 ++ ts2) (w1 ++ w2).
Proof.
  intros g o l1 ts1 w1 l2 ts2 w2 H H2. induction H; simpl; auto. rewrite <- app_assoc. constructor; auto.
Qed.

(** A parse tree is a derivation of a string its tokens can stand for. *)
Lemma ptree_derives : forall g o X T w, wf_grammar g -> wf_elem g X -> ptree g o X T w ->
  exists v, Forall2 (fun x s => matches o (fst x) s) w v /\ Forall (is_term g) v /\ derives g [X] (map ESym v).
Proof.
  intros g o X T w W WX H. revert WX.
  induction H using ptree_ind2 with (P0 := fun l ts w _ => Forall (wf_elem g) l ->
    exists v, Forall2 (fun x s => matches o (fst x) s) w v /\ Forall (is_term g) v /\ derives g l (map ESym v)).
  - intros _. exists [s]. split; [constructor; auto|]. split; [constructor; auto|]. apply derives_refl.
  - intros (_ & WX). exists [s]. split; [constructor; auto|]. split; [constructor; auto|]. apply derives_multi. auto.
  - intros _. assert (IR : In rl (g_rules g)) by (eapply nth_error_In; eauto).
    destruct IHptree as (v & V1 & V2 & V3); [apply wf_rhs; auto|].
    exists v. split; auto. split; auto. eapply derives_trans; [apply derives_rule; auto|exact V3].
  - intros _. assert (IR : In rl (g_rules g)) by (eapply nth_error_In; eauto).
    destruct IHptree as (v & V1 & V2 & V3). { pose proof (wf_rhs g W rl IR) as F. rewrite e1 in F. inversion F; auto. }
    exists v. split; auto. split; auto. eapply derives_trans; [apply derives_rule; auto|]. rewrite e1. exact V3.
  - intros _. exists []. split; [constructor|]. split; [constructor|]. apply derives_refl.
  - intros WF. inversion WF as [|? ? W1 W2]; subst. destruct (IHptree W1) as (v1 & A1 & A2 & A3).
    destruct (IHptree0 W2) as (v2 & B1 & B2 & B3). exists (v1 ++ v2). split; [apply Forall2_app; auto|].
    split; [apply Forall_app; auto|]. rewrite map_app. change (X :: l) with ([X] ++ l). apply derives_app; auto.
Qed.

(** * Items and prefixes *)

Lemma valid_split : forall g r rl k gm, rule_of g r = Some rl -> valid g gm (r, k) ->
  exists gm', gm = rev (firstn k (r_rhs rl)) ++ gm' /\ valid g gm' (r, 0) /\ k <= length (r_rhs rl).
Proof.
  intros g r rl k. induction k as [|k IH]; intros gm R V.
  - exists gm. simpl. auto with arith.
  - remember (r, S k) as it eqn:EI. destruct V as [r0 L|gm1 i0 B r0 V1 AD L|gm1 [r0 k0] X V1 AD]; inversion EI; subst r0 k0. clear EI.
    destruct (IH gm1 R V1) as (gm' & -> & V0 & L). exists gm'. split; [|split; auto].
    + unfold after_dot in AD. cbn [fst snd] in AD. rewrite R in AD. 
      assert (F : firstn (S k) (r_rhs rl) = firstn k (r_rhs rl) ++ [X]).
      { clear - AD. revert k AD. induction (r_rhs rl) as [|Y l IHl]; intros [|k] AD; try discriminate; simpl in *.
        - congruence.
        - f_equal. apply IHl. auto. }
      rewrite F, rev_app_distr. reflexivity.
    + unfold after_dot in AD. cbn [fst snd] in AD. rewrite R in AD. apply nth_error_Some_lt in AD. lia.
Qed.

Lemma nonterm_elem : forall g X s, wf_elem g X -> g_nterm g <= s -> In s (elem_syms X) -> X = ESym s.
Proof.
  intros g [t|l] s WX NT H; simpl in *; [destruct H as [<-|[]]; auto|].
  destruct WX as (_ & WX). specialize (WX s H). unfold is_term in WX. lia.
Qed.

Lemma start_la : forall g gm i t, start_not_rhs g -> la g gm i t -> lhs_is g (fst i) (g_start g) -> t = 0.
Proof.
  intros g gm i t SN H. induction H as [r L|gm i B r u V AD L F|gm i t B r H IH AD L N|gm i t X H IH AD]; intros LS; auto.
  - exfalso. cbn [fst] in LS. destruct L as (rl & R & E1). destruct LS as (rl' & R' & E2). rewrite R in R'. inversion R'; subst rl'.
    apply after_dot_rhs in AD as (rl2 & I1 & I2). apply (SN rl2 I1). congruence.
  - exfalso. cbn [fst] in LS. destruct L as (rl & R & E1). destruct LS as (rl' & R' & E2). rewrite R in R'. inversion R'; subst rl'.
    apply after_dot_rhs in AD as (rl2 & I1 & I2). apply (SN rl2 I1). congruence.
Qed.

(** The look-up of a token needs no more than two rounds. *)
Lemma bind_nofuel : forall X Y (x : res X) (k : X -> res Y), x <> Fuel -> (forall v, x = Ok v -> k v <> Fuel) -> bind x k <> Fuel.
Proof. intros X Y [v| |] k N1 N2; cbn [bind]; auto; discriminate. Qed.
Lemma rdz_nofuel : forall X (l : list X) i, rdz l i <> Fuel.
Proof. intros X l i. unfold rdz. destruct (i <? 0)%Z; [discriminate|]. destruct (nth_error l (Z.to_nat i)); discriminate. Qed.
Lemma assert_nofuel : forall b, assert b <> Fuel.
Proof. intros []; discriminate. Qed.

Lemma find_loop_nofuel : forall f c la st, (f = 0 -> forall fb y, g_fallback c = Some fb -> rdz fb la = Ok y -> y = 0%Z) ->
  (f <= 1) -> find_shift_loop (S f) c la st <> Fuel.
Proof.
  assert (FW : forall c st i l, find_wild c st i l <> Fuel).
  { intros c st i l. unfold find_wild. destruct (g_wildcard c) as [w0|]; [|apply rdz_nofuel]. apply bind_nofuel; [apply assert_nofuel|].
    intros [] _. apply bind_nofuel; [apply rdz_nofuel|]. intros v _. destruct (_ && _); apply rdz_nofuel. }
  induction f as [|f IH]; intros c la st H LF; [|remember (S f) as f' eqn:EN]; cbn [find_shift_loop];
    (apply bind_nofuel; [apply rdz_nofuel|]; intros i0 _; do 5 (apply bind_nofuel; [apply assert_nofuel|]; intros [] _);
     cbv zeta; apply bind_nofuel; [apply assert_nofuel|]; intros [] _; apply bind_nofuel; [apply rdz_nofuel|]; intros x _;
     destruct (negb (x =? la)%Z); [|apply bind_nofuel; [apply assert_nofuel|]; intros [] _; apply rdz_nofuel];
     destruct (g_fallback c) as [fb|] eqn:EF; [|apply FW]; apply bind_nofuel; [apply assert_nofuel|]; intros [] _;
     apply bind_nofuel; [apply rdz_nofuel|]; intros y HY).
  - rewrite (H eq_refl fb y eq_refl HY). cbn [Z.eqb negb]. apply FW.
  - destruct (negb (y =? 0)%Z); [|apply FW]. apply bind_nofuel; [apply rdz_nofuel|]. intros z HZ. apply bind_nofuel; [apply assert_nofuel|].
    intros [] HA. apply assert_Ok, Z.eqb_eq in HA. subst z f'. apply IH; [|lia]. intros _ fb' y' E1 E2. rewrite EF in E1. inversion E1; subst. congruence.
Qed.

Lemma find_shift_nofuel : forall c la st, yy_find_shift_action c la st <> Fuel.
Proof.
  intros c la st. unfold yy_find_shift_action. destruct (_ <? _)%Z; [discriminate|]. apply bind_nofuel; [apply assert_nofuel|].
  intros [] _. apply find_loop_nofuel; [lia|lia].
Qed.

Section Sound.
Variable g : grammar.
Variable o : opts.
Variable c : gen.
Variable A : list lr0_state.
Variable aps : list (list action).
Variable xs : list (list action * option nat).
Variable sorted : list xstate.
Variable nx : nat.
Hypothesis W : wf_grammar g.
Hypothesis SNR : start_not_rhs g.
Hypothesis OO : opts_ok g o.
Hypothesis GK : gen_ok g o c A aps xs sorted nx.
Hypothesis R128 : forall r rl, rule_of g r = Some rl -> length (r_rhs rl) <= 128.

Notation irule := (ri_iRule (opts_rinfo o)).
Notation MAXS := (YY_MAX_SHIFT (g_tab c)).
Notation MINSR := (YY_MIN_SHIFTREDUCE (g_tab c)).
Notation MAXSR := (YY_MAX_SHIFTREDUCE (g_tab c)).
Notation ERR := (YY_ERROR_ACTION (g_tab c)).
Notation ACC := (YY_ACCEPT_ACTION (g_tab c)).
Notation MINR := (YY_MIN_REDUCE (g_tab c)).

Let RS := gk_resolved _ _ _ _ _ _ _ _ GK.
Let FN := gk_final _ _ _ _ _ _ _ _ GK.
Let AUT := rs_auto _ _ _ RS.

(** State [q] is the state of prefix [gm]. *)
Definition path (gm : list elem) (q : nat) : Prop := exists I sh, nth_error A q = Some (I, sh) /\ is_valid_set g gm I.

Lemma path_trans : forall gm q X q', path gm q -> trans g A q X q' -> path (X :: gm) q'.
Proof.
  intros gm q X q' (I & sh & E & V) (I' & sh' & J & sh2 & E1 & E2 & _ & S1). rewrite E in E1. inversion E1; subst I' sh'.
  exists J, sh2. split; auto.
Qed.

Lemma path_0 : path [] 0.
Proof. destruct (lr0_start _ _ AUT) as (I & sh & E & V). exists I, sh. auto. Qed.

Lemma path_uniq : forall gm q q', path gm q -> path gm q' -> q = q'.
Proof.
  intros gm q q' (I & sh & E & V) (I' & sh' & E' & V'). eapply (lr0_distinct _ _ AUT); eauto.
  intros i. rewrite (V i), (V' i). tauto.
Qed.

Lemma path_start : forall gm i, path gm 0 -> valid g gm i -> gm = [].
Proof.
  intros gm i P V. destruct P as (I & sh & E & VS). destruct (lr0_start _ _ AUT) as (I0 & sh0 & E0 & V0).
  rewrite E in E0. inversion E0; subst I0 sh0.
  assert (K : forall gm i, valid g gm i -> gm = [] -> exists r, valid g [] (r, 0) /\ lhs_is g r (g_start g)).
  { intros gm1 i1 H1. induction H1 as [r L|gm1 i1 B r H1 IH AD L|gm1 i1 X H1 IH AD]; intros EQ; try discriminate; auto.
    exists r. split; auto. constructor. auto. }
  apply VS, V0 in V. destruct (K [] i V eq_refl) as (r & VR & LR). apply V0, VS in VR.
  apply valid_zero in VR as [(-> & _)|(j & B & VJ & AD & LB)]; auto. exfalso.
  destruct LR as (rl & R & E1). destruct LB as (rl' & R' & E2). rewrite R in R'. inversion R'; subst rl'.
  apply after_dot_rhs in AD as (rl2 & I1 & I2). apply (SNR rl2 I1). congruence.
Qed.

Lemma consts_ok : MAXS = (Z.of_nat nx - 1)%Z /\ MINSR = Z.of_nat (length A) /\
  MAXSR = (Z.of_nat (length A) + Z.of_nat (length (g_rules g)) - 1)%Z /\
  ERR = (Z.of_nat (length A) + Z.of_nat (length (g_rules g)))%Z /\
  ACC = (Z.of_nat (length A) + Z.of_nat (length (g_rules g)) + 1)%Z /\
  MINR = (Z.of_nat (length A) + Z.of_nat (length (g_rules g)) + 3)%Z /\ 1 <= nx <= length A.
Proof. pose proof (gk_consts _ _ _ _ _ _ _ _ GK). pose proof (gk_nx _ _ _ _ _ _ _ _ GK). tauto. Qed.

Lemma auto_facts : forall q r, auto_of xs q = Some r -> exists rl, rule_of g r = Some rl /\
  has_item A q (r, length (r_rhs rl)) /\ lhsStart g r = false /\ r_rhs rl <> [].
Proof.
  intros q r H. unfold auto_of in H. destruct (nth_error xs q) as [[l au]|] eqn:EQ; [|discriminate]. subst au.
  assert (LQ : q < length aps).
  { rewrite (rs_len _ _ _ RS), <- (fn_len _ _ _ _ _ FN). eapply nth_error_Some_lt; eauto. }
  destruct (nth_error_lt_ex _ aps q LQ) as (ap & EA). destruct (fn_auto _ _ _ _ _ FN q ap l r EA EQ) as ((rl & R & HI) & LS & NE & _).
  exists rl. split; auto.
Qed.

(** ** Codes *)

Lemma code_shift : forall s q, q < length A -> auto_of xs q = None ->
  exists k x, code_of g o sorted (mkAction SHIFT s q) = Z.of_nat k /\ nth_error sorted k = Some x /\ x_num x = q /\ k < nx.
Proof.
  intros s q L AN. destruct (gk_ex _ _ _ _ _ _ _ _ GK q L) as (k & x & E1 & E2 & E3). exists k, x.
  split; [|auto]. unfold code_of, compute_action. simpl. f_equal. rewrite <- E2. apply (gk_sorted _ _ _ _ _ _ _ _ GK). auto.
Qed.

Lemma code_other : forall a, match a_type a with
  | REDUCE => code_of g o sorted a = (MINR + Z.of_nat (irule (a_arg a)))%Z
  | ERROR => code_of g o sorted a = ERR
  | ACCEPT => code_of g o sorted a = ACC
  | SHIFTREDUCE => (a_sp a < g_nterm g -> code_of g o sorted a = (MINSR + Z.of_nat (irule (a_arg a)))%Z) /\
     (g_nterm g <= a_sp a -> o_errsym o <> Some (a_sp a) -> code_of g o sorted a = (MINR + Z.of_nat (irule (a_arg a)))%Z) /\
     (code_of g o sorted a = (MINSR + Z.of_nat (irule (a_arg a)))%Z \/ code_of g o sorted a = (MINR + Z.of_nat (irule (a_arg a)))%Z)
  | _ => True
  end.
Proof.
  intros a. destruct consts_ok as (C1 & C2 & C3 & C4 & C5 & C6 & C7). unfold code_of, compute_action.
  cbn [report_consts k_minShiftReduce k_errAction k_accAction k_noAction k_minReduce]. rewrite (gk_ns _ _ _ _ _ _ _ _ GK).
  rewrite C2, C4, C5, C6. destruct (a_type a); auto; try lia.
  split; [|split].
  - intros L. destruct (Nat.leb_spec (g_nterm g) (a_sp a)); [lia|]. simpl. auto.
  - intros L E. destruct (Nat.leb_spec (g_nterm g) (a_sp a)); [|lia]. simpl.
    destruct (o_errsym o) as [e|]; [|lia]. destruct (Nat.eqb_spec (a_sp a) e); [congruence|simpl; lia].
  - destruct (_ && _); [right; lia|left; auto].
Qed.

Lemma pick_matches : forall l la a, pick o l la = Some a -> In a l /\ emits a = true /\ matches o la (a_sp a) /\
  (la < g_nterm g -> a_sp a < g_nterm g).
Proof.
  intros l la a H. unfold pick in H.
  assert (WILD : forall f, pick_wild o l f = Some a -> 0 < f /\ In a l /\ emits a = true /\ o_wildcard o = Some (a_sp a) /\ a_sp a < g_nterm g).
  { intros f Hf. unfold pick_wild in Hf. destruct (o_wildcard o) as [w|] eqn:EW; [|discriminate].
    destruct (Nat.ltb_spec 0 f); [|discriminate]. apply act_at_In in Hf as (I & E & <-). split; auto. split; auto. split; auto.
    split; auto. apply (oo_wild _ _ OO _ EW). }
  destruct (act_at l la) as [b|] eqn:E1.
  - inversion H; subst b. apply act_at_In in E1 as (I & E & S1). split; auto. split; auto. split; [left; auto|lia].
  - cbv zeta in H. destruct (Nat.eqb_spec (fallback_of o la) 0) as [F0|F0].
    + apply WILD in H as (L & I & E & WI & B). split; auto. split; auto. split; auto. right. right. auto.
    + destruct (act_at l (fallback_of o la)) as [b|] eqn:E2.
      * inversion H; subst b. apply act_at_In in E2 as (I & E & S1). split; auto. split; auto. split; [right; left; split; congruence|].
        intros L. rewrite S1. unfold fallback_of in *. destruct (o_fallback o) as [fl|] eqn:EF; [|lia].
        destruct (oo_fb _ _ OO fl EF) as (_ & _ & F2). apply F2. auto.
      * apply WILD in H as (L & I & E & WI & B). split; auto. split; auto. split; auto. right. right. split; auto.
        destruct la; [|lia]. exfalso. unfold fallback_of in F0. destruct (o_fallback o) as [fl|] eqn:EF; [|lia].
        destruct (oo_fb _ _ OO fl EF) as (_ & F1 & _). lia.
Qed.

Lemma matches_0 : forall la, matches o la 0 -> la = 0.
Proof.
  intros la [M|[(M & _)|(M & E)]]; auto; [lia|]. pose proof (oo_wild _ _ OO _ E). lia.
Qed.

(** ** Meaning of the actions *)

Lemma act_sr : forall q a, act_ok g A (opts_rinfo o) (auto_of xs) q a -> a_type a = SHIFTREDUCE ->
  exists q', auto_of xs q' = Some (a_arg a).
Proof.
  intros q a H. induction H; simpl; intros T; try discriminate; eauto.
Qed.

Lemma act_sr_sp : forall q a, act_ok g A (opts_rinfo o) (auto_of xs) q a -> a_type a = SHIFTREDUCE -> a_sp a < g_nsym g.
Proof.
  intros q a H. induction H as [s q' TR AN|s q' r TR AU|t r LT D|r D LS|x E|s r rl a H1 IH1 NT R LR NC H2 IH2 SP];
    cbn [a_type a_sp] in *; intros T; try discriminate; auto.
  destruct TR as (X & HX & T1). destruct T1 as (I & sh & J & sh' & E1 & E2 & (i & Hi & AD) & S1).
  apply (elem_sym_lt g X _ W (after_dot_wf g i X W AD) HX).
Qed.

Lemma act_acc : forall q a, act_ok g A (opts_rinfo o) (auto_of xs) q a -> a_type a = ACCEPT -> a_sp a = g_start g /\ q = 0.
Proof.
  intros q a H. induction H as [| | | |x|s r rl a H1 IH1 NT R LR NC H2 IH2 SP]; simpl; intros T; try discriminate; auto.
  exfalso. destruct (IH2 T) as (E & _). destruct (act_sr _ _ H1 eq_refl) as (q' & AU). simpl in AU.
  destruct (auto_facts _ _ AU) as (rl' & R' & _ & LS & _). rewrite R in R'. inversion R'; subst rl'.
  unfold lhsStart in LS. unfold rule_of in R. rewrite R in LS. apply Nat.eqb_neq in LS. congruence.
Qed.

(** [up s B]: [B] derives [s] by rules with one symbol on the right. *)
Inductive up (s : nat) : nat -> Prop :=
| up_refl : up s s
| up_step : forall r rl B, up s B -> rule_of g r = Some rl -> r_rhs rl = [ESym B] -> is_nonterm g B -> up s (r_lhs rl).

Lemma up_trans : forall s t u, up s t -> up t u -> up s u.
Proof. intros s t u H H2. induction H2; auto. eapply up_step; eauto. Qed.

(** What a nonterminal's action does after prefix [gm], for a value that is a
    parse tree of the nonterminal. *)
Definition means (gm : list elem) (T : tree) (w : list (nat * nat)) (a : action) : Prop :=
  exists B, up (a_sp a) B /\ is_nonterm g B /\ ptree g o (ESym B) T w /\
  match a_type a with
  | SHIFT => path (ESym B :: gm) (a_arg a) /\ auto_of xs (a_arg a) = None
  | SHIFTREDUCE => exists rl, rule_of g (a_arg a) = Some rl /\ valid g (ESym B :: gm) (a_arg a, length (r_rhs rl)) /\
      r_rhs rl <> [] /\ lhsStart g (a_arg a) = false
  | ACCEPT => B = g_start g /\ gm = []
  | _ => False
  end.

Lemma tr_sym : forall q s q', tr g A q s q' -> g_nterm g <= s -> trans g A q (ESym s) q'.
Proof.
  intros q s q' (X & HX & T) NT. destruct T as (I & sh & J & sh' & E1 & E2 & (i & Hi & AD) & S1).
  pose proof (nonterm_elem g X s (after_dot_wf g i X W AD) NT HX) as ->. exists I, sh, J, sh'. split; auto. split; auto. split; eauto.
Qed.

Lemma item_valid : forall gm q r k, path gm q -> has_item A q (r, k) -> valid g gm (r, k).
Proof.
  intros gm q r k (I & sh & E & V) (I' & sh' & E' & Hi). rewrite E in E'. inversion E'; subst. apply V. auto.
Qed.

Lemma goto_means : forall q a, act_ok g A (opts_rinfo o) (auto_of xs) q a ->
  forall gm T w i, path gm q -> valid g gm i -> g_nterm g <= a_sp a < g_nsym g -> ptree g o (ESym (a_sp a)) T w -> means gm T w a.
Proof.
  intros q a H. induction H as [s q' TR AN|s q' r TR AU|t r LT D|r D LS|x E|s r rl a H1 IH1 NT R LR NC H2 IH2 SP];
    intros gm T w i P V B PT; cbn [a_sp] in *.
  - exists s. split; [constructor|]. split; auto. split; auto. cbn [a_type a_arg]. split; auto. eapply path_trans; eauto. apply tr_sym; [auto|lia].
  - exists s. split; [constructor|]. split; auto. split; auto. cbn [a_type a_arg]. destruct (auto_facts _ _ AU) as (rl & R & HI & LS & NE). exists rl. split; auto.
    split; auto. eapply item_valid; eauto. eapply path_trans; eauto. apply tr_sym; [auto|lia].
  - lia.
  - lia.
  - exists (g_start g). split; [constructor|]. split; auto. split; auto. cbn [a_type]. split; auto. subst q. eapply path_start; eauto.
  - destruct (IH1 gm T w i P V B PT) as (B1 & U1 & N1 & PT1 & M1). cbn [a_type a_arg] in M1. destruct M1 as (rl' & R' & V1 & NE & LS).
    rewrite R in R'. inversion R'; subst rl'.
    destruct (valid_split g r rl _ _ R V1) as (gm' & EG & V0 & _). rewrite firstn_all in EG. rewrite LR in V1.
    destruct (r_rhs rl) as [|X [|? ?]] eqn:ER; try discriminate. simpl in EG. inversion EG; subst X gm'.
    assert (IR : In rl (g_rules g)) by (eapply nth_error_In; eauto).
    assert (LB : is_nonterm g (r_lhs rl)) by (apply (lhs_nonterm g r _ W); exists rl; auto).
    destruct (IH2 gm T w i) as (B2 & U2 & N2 & PT2 & M2); auto; [rewrite SP; auto|rewrite SP; eapply pt_unit; eauto|].
    exists B2. split; [|auto]. cbn [a_sp]. eapply up_trans; [|exact U2]. rewrite SP. cbn [a_sp] in U1. eapply up_step; eauto.
Qed.

(** ** The stack *)

Definition real (gm : list elem) (v : Z) : Prop :=
  exists k x, v = Z.of_nat k /\ k < nx /\ nth_error sorted k = Some x /\ path gm (x_num x).
Definition pend (gm : list elem) (v : Z) : Prop :=
  exists r rl, v = (MINR + Z.of_nat (irule r))%Z /\ rule_of g r = Some rl /\ valid g gm (r, length (r_rhs rl)) /\ lhsStart g r = false /\ r_rhs rl <> [].
Definition accd (gm : list elem) (v : Z) : Prop := gm = [ESym (g_start g)] /\ v = ACC.

Inductive stk : list elem -> list entry -> list (nat * nat) -> Prop :=
| stk_nil : forall e, e_state e = 0%Z -> stk [] [e] []
| stk_cons : forall X gm e e0 st w1 w2, stk gm (e0 :: st) w1 -> real gm (e_state e0) -> ptree g o X (e_minor e) w2 ->
    stk (X :: gm) (e :: e0 :: st) (w1 ++ w2).

Definition minors (es : list entry) : list tree := map e_minor (removelast es).

Lemma stk_pop : forall l gm es w, stk (rev l ++ gm) es w ->
  exists es1 es2 w1 w2, es = es1 ++ es2 /\ length es1 = length l /\ stk gm es2 w1 /\ w = w1 ++ w2 /\
    ptrees g o l (rev (map e_minor es1)) w2 /\ (l <> [] -> exists e r, es2 = e :: r /\ real gm (e_state e)).
Proof.
  induction l as [|X l IH] using rev_ind; intros gm es w H.
  - exists [], es, w, []. simpl in *. rewrite app_nil_r. split; auto. split; auto. split; auto. split; auto. split; [constructor|congruence].
  - rewrite rev_app_distr in H. simpl in H. remember (X :: rev l ++ gm) as G eqn:EG. destruct H as [e E|Y gm0 e e0 st wa wb H RL PT]; [discriminate|].
    inversion EG; subst Y gm0. destruct (IH gm _ _ H) as (es1 & es2 & w1 & w2 & E & LE & S2 & EW & PS & HL).
    exists (e :: es1), es2, w1, (w2 ++ wb). rewrite E. split; auto. split; [rewrite app_length; simpl; lia|]. split; auto.
    split; [rewrite EW, app_assoc; auto|]. split.
    + simpl. apply ptrees_app; auto. rewrite <- (app_nil_r wb). constructor; [auto|constructor].
    + intros _. destruct l as [|Z l].
      * destruct es1; [|discriminate]. simpl in *. exists e0, st. auto.
      * apply HL. discriminate.
Qed.

Lemma stk_nonempty : forall gm es w, stk gm es w -> es <> [].
Proof. intros gm es w H. destruct H; discriminate. Qed.

Lemma minors_app : forall a b, b <> [] -> minors (a ++ b) = map e_minor a ++ minors b.
Proof. intros a b N. unfold minors. rewrite removelast_app by auto. apply map_app. Qed.

Definition clean (l : list event) : Prop := forall ev, In ev l -> match ev with EvSyntaxError _ _ | EvOverflow => False | _ => True end.

Definition Inv (tops : list elem -> Z -> Prop) (p : parser) (w : list (nat * nat)) : Prop :=
  exists gm e r, p_stack p = e :: r /\ stk gm (e :: r) w /\ tops gm (e_state e) /\
    psteps (p_log p) = flat_map post (rev (minors (e :: r))) /\ (p_errcnt p < 0)%Z /\ ~ In EvAccept (p_log p).

Definition tops (la : nat) (gm : list elem) (v : Z) : Prop := real gm v \/ pend gm v \/ (accd gm v /\ la = 0).
Definition tops0 (gm : list elem) (v : Z) : Prop := real gm v \/ pend gm v.

Lemma psteps_cons : forall e l, psteps (e :: l) = psteps l ++ psteps1 e.
Proof. intros e l. unfold psteps. simpl. rewrite flat_map_app. simpl. rewrite app_nil_r. auto. Qed.

Lemma flat_post : forall ts T, flat_map post (rev (T :: ts)) = flat_map post (rev ts) ++ post T.
Proof. intros ts T. simpl. rewrite flat_map_app. simpl. rewrite app_nil_r. auto. Qed.

Lemma psteps_oob : forall (b : bool) l, psteps ((if b then [EvOob] else []) ++ l) = psteps l.
Proof. intros [] l; auto. simpl. rewrite psteps_cons. simpl. apply app_nil_r. Qed.

Lemma oob_acc : forall (b : bool) l, In EvAccept ((if b then [EvOob] else []) ++ l) -> In EvAccept l.
Proof. intros [] l H; auto. destruct H; [discriminate|auto]. Qed.

(** ** Looking at a token *)

Lemma rule_lt' : forall r rl, rule_of g r = Some rl -> r < length (g_rules g).
Proof. intros r rl R. eapply nth_error_Some_lt; eauto. Qed.

Lemma irule_b : forall r rl, rule_of g r = Some rl -> (0 <= Z.of_nat (irule r) < Z.of_nat (length (g_rules g)))%Z.
Proof. intros r rl R. pose proof (irule_lt g o OO r (rule_lt' _ _ R)). lia. Qed.

Lemma done_valid : forall gm q r, path gm q -> done g A q r -> exists rl, rule_of g r = Some rl /\ valid g gm (r, length (r_rhs rl)).
Proof. intros gm q r P (rl & R & HI). exists rl. split; auto. eapply item_valid; eauto. Qed.

Lemma start_rule : forall r rl, rule_of g r = Some rl -> lhsStart g r = true -> lhs_is g r (g_start g).
Proof. intros r rl R H. exists rl. split; auto. unfold lhsStart in H. unfold rule_of in R. rewrite R in H. apply Nat.eqb_eq in H. auto. Qed.

Inductive looked (gm : list elem) (la id : nat) (st v : Z) : Prop :=
| lk_shift : forall X, ptree g o X (Tok id) [(la, id)] -> real (X :: gm) v -> (v <= MAXS)%Z -> looked gm la id st v
| lk_sr : forall X r, ptree g o X (Tok id) [(la, id)] -> v = (MINSR + Z.of_nat (irule r))%Z ->
    pend (X :: gm) (MINR + Z.of_nat (irule r)) -> (MAXS < v <= MAXSR)%Z -> looked gm la id st v
| lk_red : forall r rl, v = (MINR + Z.of_nat (irule r))%Z -> rule_of g r = Some rl -> valid g gm (r, length (r_rhs rl)) ->
    (lhsStart g r = true -> la = 0) -> real gm st \/ r_rhs rl <> [] -> looked gm la id st v
| lk_err : v = ERR -> looked gm la id st v.

Lemma tok_ptree : forall s la id X, s < g_nterm g -> matches o la s -> In s (elem_syms X) -> ptree g o X (Tok id) [(la, id)].
Proof.
  intros s la id [t|l] L M H; simpl in H; [destruct H as [<-|[]]; constructor; auto|econstructor; eauto].
Qed.

Lemma look_real : forall gm la id st v, la < g_nterm g -> real gm st -> yy_find_shift_action c (Z.of_nat la) st = Ok v -> looked gm la id st v.
Proof.
  intros gm la id st v LA RST H. assert (RST' := RST). destruct RST' as (k & x & -> & LK & EX & P).
  destruct consts_ok as (C1 & C2 & C3 & C4 & C5 & C6 & C7).
  assert (SC : (Z.of_nat k <= YY_SHIFT_COUNT (g_tab c))%Z).
  { unfold yy_find_shift_action in H. destruct (Z.ltb_spec MAXS (Z.of_nat k)); [lia|]. apply bind_Ok in H as ([] & HA & _).
    apply assert_Ok, Z.leb_le in HA. auto. }
  rewrite (gk_shift _ _ _ _ _ _ _ _ GK k x la EX LK LA SC) in H.
  assert (EV : v = tok_code g o sorted (x_ap x) la) by congruence. clear H.
  destruct (gk_sorted _ _ _ _ _ _ _ _ GK k x EX) as (EXS & _).
  unfold tok_code in EV. destruct (pick o (x_ap x) la) as [a|] eqn:EP.
  - destruct (pick_matches _ _ _ EP) as (IA & EM & MA & SP). specialize (SP LA). rewrite emits_exec in EM. apply orb_true_iff in EM.
    destruct EM as [EM|EM].
    + pose proof (fn_ok _ _ _ _ _ FN _ _ _ a EXS IA EM) as AO.
      pose proof (code_other a) as CO. rewrite <- EV in CO.
      inversion AO as [s q' TR AN E|s q' r TR AU E|t r LT D E|r D LS E|x0 E E2|s r rl a0 H1 NT R LR NC H2 SP2 E]; subst a; cbn [a_sp a_type a_arg] in *.
      * destruct TR as (X & HX & TR). pose proof (path_trans _ _ _ _ P TR) as P2.
        assert (LQ : q' < length A). { destruct P2 as (I & sh & E2 & _). eapply nth_error_Some_lt; eauto. }
        destruct (code_shift s q' LQ AN) as (k' & x' & EC & E1 & E2 & L2). apply (lk_shift _ _ _ _ _ X).
        -- eapply tok_ptree; eauto.
        -- exists k', x'. rewrite EV, EC, E2. auto.
        -- rewrite EV, EC, C1. lia.
      * destruct TR as (X & HX & TR). pose proof (path_trans _ _ _ _ P TR) as P2. destruct (auto_facts _ _ AU) as (rl & R & HI & LS & NE).
        destruct CO as (CO & _ & _). pose proof (irule_b _ _ R) as IB.
        apply (lk_sr _ _ _ _ _ X r); auto.
        -- eapply tok_ptree; eauto.
        -- exists r, rl. split; auto. split; auto. split; [eapply item_valid; eauto|auto].
        -- rewrite (CO SP). lia.
      * destruct D as (rl & I & sh & gm' & R & HI & HIn & VS & LA0). apply (lk_red _ _ _ _ _ r rl); auto.
        -- eapply item_valid; eauto. exists I, sh. auto.
        -- intros LS. pose proof (start_la g _ _ _ SNR LA0 (start_rule _ _ R LS)) as E0. subst t. apply matches_0; auto.
      * destruct W as (_ & W2 & _). lia.
      * destruct W as (_ & _ & _ & W4). unfold is_nonterm in W4. lia.
      * lia.
    + pose proof (code_other a) as CO. rewrite <- EV in CO. destruct a as [[] s z]; try discriminate. apply lk_err. auto.
  - unfold dflt_rule in EV. destruct (find (is_dflt g) (x_ap x)) as [a|] eqn:EF; cbn [option_map] in EV.
    + apply find_some in EF as (IA & ID). destruct a as [[] s z]; try discriminate. cbn in ID. apply Nat.eqb_eq in ID. subst s.
      pose proof (fn_ok _ _ _ _ _ FN _ _ _ _ EXS IA eq_refl) as AO.
      inversion AO as [| |t r LT D E|r D LS E| |s r rl a0 H1 NT R LR NC H2 SP2 E].
      * destruct W as (_ & W2 & _). lia.
      * subst r. destruct (done_valid _ _ _ P D) as (rl & R & V). apply (lk_red _ _ _ _ _ z rl); auto; [|congruence].
        rewrite EV. cbn [a_arg]. cbn [report_consts k_minReduce]. rewrite (gk_ns _ _ _ _ _ _ _ _ GK). lia.
      * exfalso. pose proof (act_sr_sp _ _ H1 eq_refl) as B. cbn [a_sp] in B. lia.
    + apply lk_err. rewrite EV. cbn [report_consts k_errAction]. rewrite (gk_ns _ _ _ _ _ _ _ _ GK). lia.
Qed.


Lemma look_pend : forall gm la id st v, pend gm st -> yy_find_shift_action c la st = Ok v -> looked gm (Z.to_nat la) id st v.
Proof.
  intros gm la id st v (r & rl & -> & R & V & LS & NE) H. destruct consts_ok as (C1 & C2 & C3 & C4 & C5 & C6 & C7).
  pose proof (irule_b _ _ R) as IB. unfold yy_find_shift_action in H.
  destruct (Z.ltb_spec MAXS (MINR + Z.of_nat (irule r))) as [L|L]; [|lia]. inversion H; subst v.
  apply (lk_red _ _ _ _ _ r rl); auto. congruence.
Qed.

(** ** A reduction *)

Lemma schar_small : forall n, n <= 128 -> schar (- Z.of_nat n) = (- Z.of_nat n)%Z.
Proof. intros n L. unfold schar. rewrite Z.mod_small; lia. Qed.

Lemma goto_action : forall gm k x r rl, nth_error sorted k = Some x -> k < nx -> path gm (x_num x) -> valid g gm (r, 0) ->
  rule_of g r = Some rl -> exists a, In a (x_ap x) /\ a_sp a = r_lhs rl /\ exec a = true /\
    act_ok g A (opts_rinfo o) (auto_of xs) (x_num x) a.
Proof.
  intros gm k x r rl EX LK P V R. destruct (gk_sorted _ _ _ _ _ _ _ _ GK k x EX) as (EXS & _).
  assert (LQ : x_num x < length aps). { rewrite (rs_len _ _ _ RS), <- (fn_len _ _ _ _ _ FN). eapply nth_error_Some_lt; eauto. }
  destruct (nth_error_lt_ex _ aps _ LQ) as (ap & EA).
  assert (LH : lhs_is g r (r_lhs rl)) by (exists rl; auto).
  pose proof (lhs_nonterm g r _ W LH) as NB.
  assert (K : exists a, In a ap /\ a_sp a = r_lhs rl).
  { apply valid_zero in V as [(EG & LS)|(i & B & VI & AD & LB)].
    - subst gm. pose proof (path_uniq _ _ _ P path_0) as E0. rewrite E0 in EA. destruct (rs_acc _ _ _ RS ap EA) as (y & IY).
      exists (mkAction ACCEPT (g_start g) y). split; auto. destruct LS as (rl2 & R2 & E2). cbn [a_sp]. congruence.
    - assert (B = r_lhs rl). { destruct LB as (rl2 & R2 & E2). congruence. } subst B.
      destruct P as (I & sh & E & VS). apply VS in VI.
      destruct (trans_ex g A (x_num x) I sh gm i (ESym (r_lhs rl)) AUT E VS VI AD) as (q' & J & sh' & TR & _).
      exists (mkAction SHIFT (r_lhs rl) q'). split; auto. apply (rs_goto _ _ _ RS _ _ _ _ EA); [lia|]. exists (ESym (r_lhs rl)). split; auto. left; auto. }
  destruct K as (a & IA & SP). destruct (fn_nt _ _ _ _ _ FN _ _ _ _ a EA EXS IA) as (a' & IA' & SP' & EX'); [lia|].
  exists a'. split; auto. split; [congruence|]. split; auto. eapply (fn_ok _ _ _ _ _ FN); eauto.
Qed.

Lemma reduce_inv : forall la p w gm e r0 r rl p1 act, p_stack p = e :: r0 -> stk gm (e :: r0) w ->
  (real gm (e_state e) \/ r_rhs rl <> []) ->
  psteps (p_log p) = flat_map post (rev (minors (e :: r0))) -> (p_errcnt p < 0)%Z -> ~ In EvAccept (p_log p) ->
  rule_of g r = Some rl -> valid g gm (r, length (r_rhs rl)) -> (lhsStart g r = true -> la = 0) ->
  yy_reduce c p (Z.of_nat (irule r)) = Ok (p1, act) -> Inv (tops la) p1 w.
Proof.
  intros la p w gm e r0 r rl p1 act EP HS RL PS EC NA R V LS H.
  destruct (valid_split g r rl _ _ R V) as (gm' & EG & V0 & _). rewrite firstn_all in EG. subst gm.
  destruct (stk_pop _ _ _ _ HS) as (es1 & es2 & w1 & w2 & EE & LE & S2 & EW & PT & HL).
  assert (exists b r1, es2 = b :: r1 /\ real gm' (e_state b)) as (b & r1 & -> & RB).
  { destruct (r_rhs rl) as [|X l] eqn:ER; [|apply HL; discriminate].
    destruct es1; [|discriminate]. simpl in EE. subst es2. exists e, r0. split; auto. destruct RL as [RL|RL]; [auto|congruence]. }
  destruct (gk_rule _ _ _ _ _ _ _ _ GK r rl R) as (GL & GN).
  apply reduce_ok in H. destruct H as (n & lhs & below & HN & HLh & HB & HA & A1 & A2 & EP1).
  rewrite GN in HN. rewrite (schar_small _ (R128 _ _ R)) in HN. assert (n = length (r_rhs rl)) by (injection HN; lia). subst n.
  rewrite GL in HLh. assert (ELH : lhs = Z.of_nat (r_lhs rl)) by congruence. subst lhs.
  rewrite EP, EE, <- LE in *. rewrite nth_error_app2, Nat.sub_diag in HB by lia. cbn [nth_error] in HB. assert (below = b) by congruence. subst below.
  rewrite firstn_app, Nat.sub_diag, firstn_all in EP1. cbn [firstn] in EP1. rewrite app_nil_r in EP1.
  rewrite skipn_app, Nat.sub_diag, skipn_all in EP1. cbn [skipn app] in EP1.
  destruct RB as (k & x & EV & LK & EX & P). rewrite EV in HA.
  destruct (goto_action gm' k x r rl EX LK P V0 R) as (a & IA & SP & EXA & AO).
  assert (LH : lhs_is g r (r_lhs rl)) by (exists rl; auto). pose proof (lhs_nonterm g r _ W LH) as NB.
  rewrite <- SP in HA. rewrite (gk_reduce _ _ _ _ _ _ _ _ GK k x a EX LK IA EXA ltac:(lia)) in HA.
  assert (EACT : act = code_of g o sorted a) by congruence.
  assert (PTR : ptree g o (ESym (a_sp a)) (Nod (Z.of_nat (irule r)) (map e_minor (rev es1))) w2).
  { rewrite SP. apply pt_rule; auto. rewrite map_rev. auto. }
  destruct (goto_means _ _ AO gm' _ _ _ P V0 ltac:(lia) PTR) as (B & UB & NTB & PTB & M).
  exists (ESym B :: gm'), (mkEntry act (Z.of_nat (r_lhs rl)) (Nod (Z.of_nat (irule r)) (map e_minor (rev es1)))), (b :: r1).
  split; [rewrite EP1; auto|]. split.
  { rewrite EW. constructor; auto. exists k, x. auto. }
  split.
  - cbn [e_state]. rewrite EACT. pose proof (code_other a) as CO. destruct a as [ty sp arg]. cbn [a_type a_arg a_sp] in *.
    destruct ty; try contradiction.
    + destruct M as (P2 & AN). assert (LQ : arg < length A). { destruct P2 as (I & sh & E2 & _). eapply nth_error_Some_lt; eauto. }
      destruct (code_shift sp arg LQ AN) as (k' & x' & EC' & E1 & E2 & L2). left. exists k', x'. rewrite E2. auto.
    + destruct M as (EB & EG). subst B gm'. right. right. split; [split; auto|]. apply LS.
      pose proof (act_acc _ _ AO eq_refl) as (E1 & _). cbn [a_sp] in E1. unfold lhsStart. unfold rule_of in R. rewrite R. apply Nat.eqb_eq. congruence.
    + destruct M as (rl' & R' & V' & NE & LS'). right. left. exists arg, rl'. split; [|auto]. apply CO; [lia|].
      intros EE'. destruct (oo_err _ _ OO _ EE') as (_ & NR). apply (NR rl); [eapply nth_error_In; eauto|congruence].
  - rewrite EP1. cbn [p_log p_errcnt]. split; [|split; auto].
    + rewrite psteps_cons, psteps_oob, PS. cbn [psteps1].
      change (mkEntry act (Z.of_nat (r_lhs rl)) (Nod (Z.of_nat (irule r)) (map e_minor (rev es1))) :: b :: r1)
        with ([mkEntry act (Z.of_nat (r_lhs rl)) (Nod (Z.of_nat (irule r)) (map e_minor (rev es1)))] ++ b :: r1).
      rewrite !minors_app by discriminate. cbn [map e_minor app]. rewrite flat_post. rewrite rev_app_distr, flat_map_app.
      rewrite <- map_rev. cbn [post]. rewrite <- app_assoc. auto.
    + intros [I|I]; [discriminate|]. apply oob_acc in I. auto.
Qed.

(** ** One call *)

Lemma clean_app : forall a b, clean (a ++ b) -> clean b.
Proof. intros a b H ev I. apply H. apply in_or_app. auto. Qed.

Lemma look_inv : forall la id gm st v, la < g_nterm g -> tops la gm st -> yy_find_shift_action c (Z.of_nat la) st = Ok v ->
  (tops0 gm st /\ looked gm la id st v) \/ (accd gm st /\ la = 0 /\ v = ACC).
Proof.
  intros la id gm st v LA [T|[T|(T & E)]] H.
  - left. split; [left; auto|]. eapply look_real; eauto.
  - left. split; [right; auto|]. rewrite <- (Nat2Z.id la). eapply look_pend; eauto.
  - right. split; auto. split; auto. destruct T as (_ & ->). destruct consts_ok as (C1 & C2 & C3 & C4 & C5 & C6 & C7).
    unfold yy_find_shift_action in H. destruct (Z.ltb_spec MAXS ACC) as [L|L]; [congruence|lia].
Qed.

Definition accepted (p' : parser) (w : list (nat * nat)) : Prop :=
  exists T, ptree g o (ESym (g_start g)) T w /\ psteps (p_log p') = post T.

Lemma stk_top : forall gm e r w, stk gm (e :: r) w -> gm = [] -> r = [] /\ w = [].
Proof. intros gm e r w H. remember (e :: r) as es eqn:E. destruct H as [b B|X gm0 e1 e0 st w1 w2 H1 RL PT]; intros EG; [inversion E; auto|discriminate]. Qed.

Lemma run_log : forall grow major minor p hit p', run c grow major minor p hit p' -> p_stack p <> [] ->
  p_stack p' <> [] /\ exists new, p_log p' = new ++ p_log p.
Proof.
  intros grow major minor p hit p' H. 
  assert (RED : forall p r p1 act, yy_reduce c p r = Ok (p1, act) -> p_stack p1 <> [] /\ exists new, p_log p1 = new ++ p_log p).
  { intros q r q1 act HR. apply reduce_ok in HR as (n & lhs & b & _ & _ & _ & _ & _ & _ & ->). cbn [p_stack p_log].
    split; [discriminate|]. eexists (_ :: _). reflexivity. }
  assert (OVF : forall p p', p_stack p <> [] -> yyStackOverflow p = Ok p' -> p_stack p' <> [] /\ exists new, p_log p' = new ++ p_log p).
  { intros q q' NE HO. apply overflow_ok in HO as (ab & b & E & ->); auto. cbn [p_stack p_log].
    split; [discriminate|]. eexists (_ :: _). reflexivity. }
  assert (FLD : forall p p', p_stack p <> [] -> yy_parse_failed p = Ok p' -> p_stack p' <> [] /\ exists new, p_log p' = new ++ p_log p).
  { intros q q' NE HO. apply failed_ok in HO as (ab & b & E & ->); auto. cbn [p_stack p_log].
    split; [discriminate|]. eexists (_ :: _). reflexivity. }
  assert (SHF : forall p v M m p1, p_stack p <> [] -> yy_shift c grow p v M m = Ok p1 -> p_stack p1 <> [] /\ exists new, p_log p1 = new ++ p_log p).
  { intros q v M m q1 NE HS. apply shift_ok in HS as [(cap & _ & ->)|(_ & _ & HO)]; [|eapply OVF; eauto]. cbn [p_stack p_log].
    split; [discriminate|]. eexists (_ :: _). reflexivity. }
  assert (P0 : forall (b : bool) q e, let q0 := if b then logev q e else q in p_stack q0 = p_stack q /\ exists new, p_log q0 = new ++ p_log q).
  { intros [] q e; cbn; split; auto; [exists [e]|exists []]; auto. }
  assert (TR : forall (l1 l2 l3 : list event), (exists n, l1 = n ++ l2) -> (exists n, l2 = n ++ l3) -> exists n, l1 = n ++ l3).
  { intros l1 l2 l3 (n1 & ->) (n2 & ->). exists (n1 ++ n2). apply app_assoc. }
  induction H as [p hit v n p1 act p' LK L NR C HR H IH|p hit v cap p1 act p' LK L NR C G HR H IH|p hit v p' LK L NR C G HO
    |p hit v p1 LK L L2 HS|p hit e b LK L L2 EP|p hit es e r p0 LK L L2 GE EP HM E0|p hit es e r p0 p1 a p2 LK L L2 GE EP NM NH E0 EPOP TZ HF
    |p hit es e r p0 p1 a p2 p' LK L L2 GE EP NM NH E0 EPOP TZ MZ HS H IH|p hit p0 LK L L2 GE MZ E0|p hit p0 p2 LK L L2 GE MZ E0 HF]; intros NE.
  - destruct (RED _ _ _ _ HR) as (N1 & X1). destruct (IH N1) as (N2 & X2). split; auto. eapply TR; eauto.
  - destruct (RED _ _ _ _ HR) as (N1 & X1). destruct (IH N1) as (N2 & X2). split; auto. eapply TR; eauto.
  - eapply OVF; eauto.
  - destruct (SHF _ _ _ _ _ NE HS). auto.
  - cbn. split; [discriminate|]. exists [EvAccept]. auto.
  - destruct (P0 (p_errcnt p <? 0)%Z p (EvSyntaxError major minor)) as (S0 & (n & X0)). rewrite <- E0 in *. cbn. rewrite S0, X0. split; auto.
    exists (EvDestroy major minor :: n). auto.
  - destruct (P0 (p_errcnt p <? 0)%Z p (EvSyntaxError major minor)) as (S0 & X0). rewrite <- E0 in *.
    apply error_pop_ok in EPOP as (ab & rest & E1 & NR & ->); [|congruence]. apply FLD in HF; [|cbn; auto]. destruct HF as (N2 & X2). cbn. split; auto.
    eapply TR; [exact X2|]. cbn. eapply TR; [|exact X0]. eexists (_ :: _). reflexivity.
  - destruct (P0 (p_errcnt p <? 0)%Z p (EvSyntaxError major minor)) as (S0 & X0). rewrite <- E0 in *.
    apply error_pop_ok in EPOP as (ab & rest & E1 & NR & ->); [|congruence]. apply SHF in HS; [|cbn; auto]. destruct HS as (N2 & X2).
    destruct (IH N2) as (N3 & X3). split; auto. eapply TR; [exact X3|]. cbn in *. eapply TR; [exact X2|]. eapply TR; [|exact X0]. eexists. reflexivity.
  - destruct (P0 (p_errcnt p <=? 0)%Z p (EvSyntaxError major minor)) as (S0 & (n & X0)). rewrite <- E0 in *. cbn. rewrite S0, X0. split; auto.
    exists (EvDestroy major minor :: n). auto.
  - destruct (P0 (p_errcnt p <=? 0)%Z p (EvSyntaxError major minor)) as (S0 & X0). rewrite <- E0 in *.
    apply FLD in HF; [|cbn; congruence]. destruct HF as (N2 & X2). cbn in *. split; auto. eapply TR; [exact X2|]. eapply TR; [|exact X0].
    exists [EvDestroy major minor]. auto.
Qed.

Lemma clean_log : forall grow major minor p hit p', run c grow major minor p hit p' -> p_stack p <> [] -> clean (p_log p') -> clean (p_log p).
Proof. intros grow major minor p hit p' H NE C. destruct (run_log _ _ _ _ _ _ H NE) as (_ & (n & E)). rewrite E in C. eapply clean_app; eauto. Qed.

Lemma run_inv : forall grow la id p hit p' w, run c grow (Z.of_nat la) (Tok id) p hit p' -> la < g_nterm g -> Inv (tops la) p w ->
  clean (p_log p') -> Inv tops0 p' (w ++ [(la, id)]) \/ (la = 0 /\ accepted p' w).
Proof.
  intros grow la id p hit p' w H LA. destruct consts_ok as (C1 & C2 & C3 & C4 & C5 & C6 & C7).
  assert (RED : forall p v p1 act w, looks c (Z.of_nat la) p v -> (MINR <= v)%Z -> Inv (tops la) p w ->
     yy_reduce c p (v - MINR) = Ok (p1, act) -> Inv (tops la) p1 w).
  { intros q v q1 act w0 (e & r & ES & LV) L (gm & e' & r' & ES' & HS & T & PS & EC & NA) HR. rewrite ES in ES'. inversion ES'; subst e' r'.
    destruct (look_inv la id gm _ v LA T LV) as [(T0 & LK)|(T0 & _ & EV)]; [|lia].
    destruct LK as [X PT (k & x & EV & LK & _) LM|X r0 PT EV PD LM|r0 rl EV R V LS RR|EV]; try lia.
    subst v. replace (MINR + Z.of_nat (irule r0) - MINR)%Z with (Z.of_nat (irule r0)) in HR by lia.
    exact (reduce_inv la q w0 gm e r r0 rl q1 act ES HS RR PS EC NA R V LS HR). }
  assert (ERRC : forall p (b : bool), looks c (Z.of_nat la) p ERR -> Inv (tops la) p w -> (p_errcnt p < 0)%Z) by (intros q b _ (? & ? & ? & ? & ? & ? & ? & ? & ?); auto).
  assert (BADEV : forall q m v l, clean (l ++ EvSyntaxError m v :: p_log q) -> False).
  { intros q m v l CL. apply (CL (EvSyntaxError m v)). apply in_or_app. right. left. auto. }
  remember (Z.of_nat la) as major eqn:EM. remember (Tok id) as minor eqn:EI.
  induction H as [p hit v n p1 act p' LK L NR C HR H IH|p hit v cap p1 act p' LK L NR C G HR H IH|p hit v p' LK L NR C G HO
    |p hit v p1 LK L L2 HS|p hit e b LK L L2 EP|p hit es e r p0 LK L L2 GE EP HM E0|p hit es e r p0 p1 a p2 LK L L2 GE EP NM NH E0 EPOP TZ HF
    |p hit es e r p0 p1 a p2 p' LK L L2 GE EP NM NH E0 EPOP TZ MZ HS H IH|p hit p0 LK L L2 GE MZ E0|p hit p0 p2 LK L L2 GE MZ E0 HF]; intros IV CL.
  - apply IH; auto. eapply RED; eauto.
  - apply IH; auto. exact (RED (with_cap p cap) v p1 act w LK L IV HR).
  - exfalso. apply overflow_ok in HO as (ab & b & _ & ->). { apply (CL EvOverflow). left; auto. }
    destruct IV as (gm & e & r & -> & _). discriminate.
  - destruct IV as (gm & e & r & ES & HS' & T & PS & EC & NA). destruct LK as (e' & r' & ES' & LV). rewrite ES in ES'. inversion ES'; subst e' r'. subst major.
    assert (NE : p_stack p <> []) by (rewrite ES; discriminate).
    apply shift_ok in HS. cbv zeta in HS. destruct HS as [(cap & _ & EP1)|(_ & _ & HO)].
    2:{ exfalso. apply overflow_ok in HO as (ab & b & _ & ->); auto. apply (CL EvOverflow). left; auto. }
    destruct (look_inv la id gm _ v LA T LV) as [(T0 & LK)|(T0 & _ & EV)]; [|lia].
    assert (RT : real gm (e_state e) \/ (MINR <= v)%Z).
    { destruct T0 as [T0|T0]; auto. right. destruct T0 as (r1 & rl1 & EV & R1 & _). rewrite EV in LV. unfold yy_find_shift_action in LV.
      pose proof (irule_b _ _ R1). destruct (Z.ltb_spec MAXS (MINR + Z.of_nat (irule r1))); [|lia]. injection LV; lia. }
    destruct RT as [RT|RT]; [|lia].
    left. subst minor.
    assert (FIN : forall X st, (st = if (MAXS <? v)%Z then (v + (MINR - MINSR))%Z else v) -> ptree g o X (Tok id) [(la, id)] -> tops0 (X :: gm) st ->
      Inv tops0 (with_errcnt p1 (p_errcnt p1 - 1)) (w ++ [(la, id)])).
    { intros X st E1 PT T1. rewrite EP1. exists (X :: gm), (mkEntry st (Z.of_nat la) (Tok id)), (e :: r). rewrite <- E1, ES. cbn [with_errcnt p_stack p_log p_errcnt e_state].
      split; auto. split; [constructor; auto|]. split; auto. split.
      - rewrite psteps_cons, psteps_oob, PS. cbn [psteps1].
        change (mkEntry st (Z.of_nat la) (Tok id) :: e :: r) with ([mkEntry st (Z.of_nat la) (Tok id)] ++ e :: r).
        rewrite (minors_app [_]) by discriminate. cbn [map app]. rewrite flat_post. auto.
      - split; [lia|]. intros [I|I]; [discriminate|]. apply oob_acc in I. auto. }
    destruct LK as [X PT RL LM|X r0 PT EV PD LM|r0 rl EV R V LS RR|EV]; try lia.
    + apply (FIN X v); auto; [|left; auto]. destruct (Z.ltb_spec MAXS v); [lia|auto].
    + apply (FIN X (MINR + Z.of_nat (irule r0))%Z); auto; [|right; auto]. destruct (Z.ltb_spec MAXS v); lia.
  - destruct IV as (gm & e' & r' & ES & HS' & T & PS & EC & NA). destruct LK as (e2 & r2 & ES' & LV). rewrite EP in *. inversion ES; subst e' r'. inversion ES'; subst e2 r2. subst major.
    destruct (look_inv la id gm _ _ LA T LV) as [(T0 & LK)|(T0 & E0 & EV)].
    { destruct LK as [X PT (k & x & EV & LK & _) LM|X r0 PT EV PD LM|r0 rl EV R V LS RR|EV]; try lia. }
    right. split; auto. destruct T0 as (-> & _).
    remember [ESym (g_start g)] as G eqn:EG. remember [e; b] as EE eqn:EEE. destruct HS' as [b0 B0|X gm0 e1 e0 st w1 w2 H1 RL PT]; [discriminate|].
    inversion EG; subst X gm0. inversion EEE; subst e1 e0 st. destruct (stk_top _ _ _ _ H1 eq_refl) as (_ & ->).
    exists (e_minor e). split; auto. cbn [logev with_errcnt with_stack p_log p_stack]. rewrite psteps_cons. cbn [psteps1]. rewrite app_nil_r, PS.
    cbn. rewrite app_nil_r. auto.
  - exfalso. pose proof (ERRC _ true LK IV) as EC. destruct (Z.ltb_spec (p_errcnt p) 0); [|lia]. subst p0. cbn in CL.
    apply (BADEV p major minor [EvDestroy major minor]). auto.
  - exfalso. pose proof (ERRC _ true LK IV) as EC. destruct (Z.ltb_spec (p_errcnt p) 0); [|lia]. subst p0.
    apply error_pop_ok in EPOP as (ab & rest & E1 & NR & ->); [|cbn; rewrite EP; discriminate].
    apply failed_ok in HF as (ab2 & b & E2 & ->); [|cbn; auto]. cbn in CL.
    change (clean ((EvFail :: destroys ab2) ++ [EvDestroy major minor] ++ destroys ab ++ EvSyntaxError major minor :: p_log p)) in CL.
    rewrite !app_assoc in CL. eapply BADEV; eauto.
  - exfalso. pose proof (ERRC _ true LK IV) as EC. destruct (Z.ltb_spec (p_errcnt p) 0); [|lia]. subst p0.
    apply error_pop_ok in EPOP as (ab & rest & E1 & NR & ->); [|cbn; rewrite EP; discriminate].
    assert (K : exists n, p_log (with_errcnt p2 3) = n ++ EvSyntaxError major minor :: p_log p /\ p_stack p2 <> []).
    { apply shift_ok in HS as [(cap & _ & ->)|(_ & _ & HO)]; cbn.
      - eexists (_ :: _ ++ _). cbn. rewrite <- app_assoc. split; [reflexivity|discriminate].
      - apply overflow_ok in HO as (ab2 & b & _ & ->); [|auto]. cbn. eexists (_ :: _ ++ _). cbn. rewrite <- app_assoc. split; [reflexivity|discriminate]. }
    destruct K as (n & EL & NE2). apply clean_log in H; [|auto|auto]. rewrite EL in H. eapply BADEV; eauto.
  - exfalso. pose proof (ERRC _ true LK IV) as EC. destruct (Z.leb_spec (p_errcnt p) 0); [|lia]. subst p0. cbn in CL.
    apply (BADEV p major minor [EvDestroy major minor]). auto.
  - exfalso. pose proof (ERRC _ true LK IV) as EC. destruct (Z.leb_spec (p_errcnt p) 0); [|lia]. subst p0.
    apply failed_ok in HF as (ab2 & b & E2 & ->); [|cbn; destruct IV as (? & ? & ? & -> & _); discriminate]. cbn in CL.
    change (clean ((EvFail :: destroys ab2) ++ [EvDestroy major minor] ++ EvSyntaxError major minor :: p_log p)) in CL.
    rewrite !app_assoc in CL. eapply BADEV; eauto.
Qed.

(** ** Progress: without an error symbol the driver never gets stuck *)

Definition SInv (tp : list elem -> Z -> Prop) (p : parser) : Prop :=
  exists gm e r w, p_stack p = e :: r /\ stk gm (e :: r) w /\ tp gm (e_state e).

Lemma reduce_total : forall la p w gm e r0 r rl, p_stack p = e :: r0 -> stk gm (e :: r0) w ->
  (real gm (e_state e) \/ r_rhs rl <> []) ->
  rule_of g r = Some rl -> valid g gm (r, length (r_rhs rl)) -> (lhsStart g r = true -> la = 0) ->
  exists p1 act gm' B e1 r1, yy_reduce c p (Z.of_nat (irule r)) = Ok (p1, act) /\
    gm = rev (r_rhs rl) ++ gm' /\ up (r_lhs rl) B /\ is_nonterm g B /\ p_stack p1 = e1 :: r1 /\
    stk (ESym B :: gm') (e1 :: r1) w /\ tops la (ESym B :: gm') (e_state e1) /\ e_state e1 = act.
Proof.
  intros la p w gm e r0 r rl EP HS RL R V LS. destruct consts_ok as (C1 & C2 & C3 & C4 & C5 & C6 & C7).
  destruct (valid_split g r rl _ _ R V) as (gm' & EG & V0 & _). rewrite firstn_all in EG. subst gm.
  destruct (stk_pop _ _ _ _ HS) as (es1 & es2 & w1 & w2 & EE & LE & S2 & EW & PT & HL).
  assert (exists b r1, es2 = b :: r1 /\ real gm' (e_state b)) as (b & r1 & -> & RB).
  { destruct (r_rhs rl) as [|X l] eqn:ER; [|apply HL; discriminate].
    destruct es1; [|discriminate]. simpl in EE. subst es2. exists e, r0. split; auto. destruct RL as [RL|RL]; [auto|congruence]. }
  destruct (gk_rule _ _ _ _ _ _ _ _ GK r rl R) as (GL & GN).
  rewrite (schar_small _ (R128 _ _ R)) in GN.
  assert (RB' := RB). destruct RB' as (k & x & EV & LK & EX & P).
  destruct (goto_action gm' k x r rl EX LK P V0 R) as (a & IA & SP & EXA & AO).
  assert (LH : lhs_is g r (r_lhs rl)) by (exists rl; auto). pose proof (lhs_nonterm g r _ W LH) as NB.
  pose proof (gk_reduce _ _ _ _ _ _ _ _ GK k x a EX LK IA EXA ltac:(lia)) as HA. rewrite SP in HA.
  assert (PTR : ptree g o (ESym (a_sp a)) (Nod (Z.of_nat (irule r)) (map e_minor (rev es1))) w2).
  { rewrite SP. apply pt_rule; auto. rewrite map_rev. auto. }
  destruct (goto_means _ _ AO gm' _ _ _ P V0 ltac:(lia) PTR) as (B & UB & NTB & PTB & M).
  assert (TP : tops la (ESym B :: gm') (code_of g o sorted a)).
  { pose proof (code_other a) as CO. destruct a as [ty sp arg]. cbn [a_type a_arg a_sp] in *.
    destruct ty; try contradiction.
    + destruct M as (P2 & AN). assert (LQ : arg < length A). { destruct P2 as (I & sh & E2 & _). eapply nth_error_Some_lt; eauto. }
      destruct (code_shift sp arg LQ AN) as (k' & x' & EC' & E1 & E2 & L2). left. exists k', x'. rewrite E2. auto.
    + destruct M as (EB & EG). subst B gm'. right. right. split; [split; auto|]. apply LS.
      pose proof (act_acc _ _ AO eq_refl) as (E1 & _). cbn [a_sp] in E1. unfold lhsStart. unfold rule_of in R. rewrite R. apply Nat.eqb_eq. congruence.
    + destruct M as (rl' & R' & V' & NE & LS'). right. left. exists arg, rl'. split; [|auto]. apply CO; [lia|].
      intros EE'. destruct (oo_err _ _ OO _ EE') as (_ & NR). apply (NR rl); [eapply nth_error_In; eauto|congruence]. }
  assert (RNG : (code_of g o sorted a <= MAXS)%Z \/ (MAXSR < code_of g o sorted a)%Z /\ code_of g o sorted a <> ERR).
  { destruct TP as [(k' & x' & E1 & L1 & _)|[(r' & rl' & E1 & _)|((_ & E1) & _)]]; rewrite E1; lia. }
  unfold yy_reduce. rewrite GL, GN. cbn [bind].
  destruct (Z.ltb_spec 0 (- Z.of_nat (length (r_rhs rl)))); [lia|]. cbv zeta.
  rewrite Z.opp_involutive, Nat2Z.id. rewrite EP, EE, <- LE. rewrite nth_error_app2, Nat.sub_diag by lia. cbn [nth_error opt bind].
  rewrite EV, HA. cbn [bind].
  assert (A1 : negb ((MAXS <? code_of g o sorted a)%Z && (code_of g o sorted a <=? MAXSR)%Z) = true).
  { destruct (Z.ltb_spec MAXS (code_of g o sorted a)); auto. destruct (Z.leb_spec (code_of g o sorted a) MAXSR); auto. lia. }
  assert (A2 : negb (code_of g o sorted a =? ERR)%Z = true).
  { destruct (Z.eqb_spec (code_of g o sorted a) ERR); auto. lia. }
  rewrite A1, A2. cbn [assert bind].
  rewrite firstn_app, Nat.sub_diag, firstn_all. cbn [firstn]. rewrite app_nil_r.
  rewrite skipn_app, Nat.sub_diag, skipn_all. cbn [skipn app].
  set (e' := mkEntry (code_of g o sorted a) (Z.of_nat (r_lhs rl)) (Nod (Z.of_nat (irule r)) (map e_minor (rev es1)))).
  assert (ST : p_stack (put p (b :: r1) e') = e' :: b :: r1) by (unfold put; destruct (p_cap p <=? lenz (b :: r1))%Z; auto).
  eexists. eexists. exists gm', B, e', (b :: r1). split; [reflexivity|]. split; auto. split; [rewrite <- SP; auto|]. split; auto.
  split; [exact ST|]. split; [|split; auto]. rewrite EW. constructor; auto.
Qed.

Lemma overflow_SInv : forall p p', (exists gm e r w, p_stack p = e :: r /\ stk gm (e :: r) w) -> yyStackOverflow p = Ok p' -> SInv tops0 p'.
Proof.
  intros p p' (gm & e & r & w & EP & HS) H. apply overflow_ok in H as (ab & b & E & ->); [|rewrite EP; discriminate].
  rewrite EP in E. assert (ST : forall gm es w, stk gm es w -> forall ab b, es = ab ++ [b] -> e_state b = 0%Z).
  { clear. intros gm es w H. induction H as [e E|X gm e e0 st w1 w2 H IH RL PT]; intros ab b EE.
    - destruct ab as [|? [|? ?]]; try discriminate. inversion EE; subst; auto.
    - destruct ab as [|x ab]; [discriminate|]. inversion EE. eapply IH; eauto. }
  exists [], b, [], []. cbn [p_stack]. split; auto. pose proof (ST _ _ _ HS _ _ E) as Z0. split; [constructor; auto|]. left.
  destruct (gk_first _ _ _ _ _ _ _ _ GK) as (x & EX & N0). exists 0, x. rewrite Z0. split; auto. split; [destruct consts_ok as (C1 & C2 & C3 & C4 & C5 & C6 & C7); lia|]. split; auto. rewrite N0. apply path_0.
Qed.

Lemma failed_SInv : forall p p', (exists gm e r w, p_stack p = e :: r /\ stk gm (e :: r) w) -> yy_parse_failed p = Ok p' -> SInv tops0 p'.
Proof.
  intros p p' K H. unfold yy_parse_failed in H. apply bind_Ok in H as (p1 & HP & H).
  destruct (overflow_SInv p (logev p1 EvOverflow) K) as (gm & e & r & w & X1 & X2 & X3).
  { unfold yyStackOverflow. rewrite HP. auto. }
  assert (p' = logev p1 EvFail) by congruence. subst p'. exists gm, e, r, w. auto.
Qed.

Hypothesis NOERR : o_errsym o = None.
Lemma look_err : forall la (id : nat) p, la < g_nterm g -> looks c (Z.of_nat la) p ERR -> SInv (tops la) p -> SInv tops0 p.
Proof.
  intros la id p LA (e & r & ES & LV) (gm & e' & r' & w & ES' & HS & T). rewrite ES in ES'. inversion ES'; subst e' r'.
  destruct consts_ok as (C1 & C2 & C3 & C4 & C5 & C6 & C7).
  destruct (look_inv la id gm _ _ LA T LV) as [(T0 & _)|(_ & _ & EV)]; [|lia]. exists gm, e, r, w. auto.
Qed.

(** The stack invariant over a call, whatever happens in it. *)
Lemma run_SInv : forall grow la id p hit p', run c grow (Z.of_nat la) (Tok id) p hit p' -> la < g_nterm g -> SInv (tops la) p -> SInv tops0 p'.
Proof.
  intros grow la id p hit p' H LA. destruct consts_ok as (C1 & C2 & C3 & C4 & C5 & C6 & C7).
  assert (RED : forall p v p1 act, looks c (Z.of_nat la) p v -> (MINR <= v)%Z -> SInv (tops la) p ->
     yy_reduce c p (v - MINR) = Ok (p1, act) -> SInv (tops la) p1).
  { intros q v q1 act (e & r & ES & LV) L (gm & e' & r' & w0 & ES' & HS & T) HR. rewrite ES in ES'. inversion ES'; subst e' r'.
    destruct (look_inv la id gm _ v LA T LV) as [(T0 & LK)|(T0 & _ & EV)]; [|lia].
    destruct LK as [X PT (k & x & EV & LK & _) LM|X r0 PT EV PD LM|r0 rl EV R V LS RR|EV]; try lia.
    subst v. replace (MINR + Z.of_nat (irule r0) - MINR)%Z with (Z.of_nat (irule r0)) in HR by lia.
    destruct (reduce_total la q w0 gm e r r0 rl ES HS RR R V LS) as (p1 & act' & gm' & B & e1 & r1 & HR' & _ & _ & _ & E1 & S1 & T1 & E2).
    rewrite HR in HR'. inversion HR'; subst p1 act'. exists (ESym B :: gm'), e1, r1, w0. auto. }
  assert (NES : g_errsym c = None) by (rewrite (gk_errsym _ _ _ _ _ _ _ _ GK), NOERR; auto).
  assert (KSI : forall p, SInv (tops la) p -> exists gm e r w, p_stack p = e :: r /\ stk gm (e :: r) w).
  { intros q (gm & e & r & w & X1 & X2 & _). exists gm, e, r, w. auto. }
  remember (Z.of_nat la) as major eqn:EM. remember (Tok id) as minor eqn:EI.
  induction H as [p hit v n p1 act p' LK L NR C HR H IH|p hit v cap p1 act p' LK L NR C G HR H IH|p hit v p' LK L NR C G HO
    |p hit v p1 LK L L2 HS|p hit e b LK L L2 EP|p hit es e r p0 LK L L2 GE EP HM E0|p hit es e r p0 p1 a p2 LK L L2 GE EP NM NH E0 EPOP TZ HF
    |p hit es e r p0 p1 a p2 p' LK L L2 GE EP NM NH E0 EPOP TZ MZ HS H IH|p hit p0 LK L L2 GE MZ E0|p hit p0 p2 LK L L2 GE MZ E0 HF]; intros IV; try congruence.
  - apply IH; auto. eapply RED; eauto.
  - apply IH; auto. exact (RED (with_cap p cap) v p1 act LK L IV HR).
  - eapply overflow_SInv; eauto.
  - pose proof (KSI _ IV) as KS. destruct IV as (gm & e & r & w & ES & HS' & T). destruct LK as (e' & r' & ES' & LV). rewrite ES in ES'. inversion ES'; subst e' r'. subst major.
    apply shift_ok in HS. cbv zeta in HS. destruct HS as [(cap & _ & EP1)|(_ & _ & HO)].
    2:{ destruct (overflow_SInv _ _ KS HO) as (gm1 & e1 & r1 & w1 & Y1 & Y2 & Y3). exists gm1, e1, r1, w1. auto. }
    destruct (look_inv la id gm _ v LA T LV) as [(T0 & LK)|(T0 & _ & EV)]; [|lia].
    assert (RT : real gm (e_state e) \/ (MINR <= v)%Z).
    { destruct T0 as [T0|T0]; auto. right. destruct T0 as (r1 & rl1 & EV & R1 & _). rewrite EV in LV. unfold yy_find_shift_action in LV.
      pose proof (irule_b _ _ R1). destruct (Z.ltb_spec MAXS (MINR + Z.of_nat (irule r1))); [|lia]. injection LV; lia. }
    destruct RT as [RT|RT]; [|lia]. subst minor.
    destruct LK as [X PT RL LM|X r0 PT EV PD LM|r0 rl EV R V LS RR|EV]; try lia.
    + exists (X :: gm), (mkEntry v (Z.of_nat la) (Tok id)), (e :: r), (w ++ [(la, id)]). rewrite EP1, ES. destruct (Z.ltb_spec MAXS v); [lia|].
      split; auto. split; [constructor; auto|left; auto].
    + exists (X :: gm), (mkEntry (MINR + Z.of_nat (irule r0)) (Z.of_nat la) (Tok id)), (e :: r), (w ++ [(la, id)]). rewrite EP1, ES.
      destruct (Z.ltb_spec MAXS v); [|lia]. replace (v + (MINR - MINSR))%Z with (MINR + Z.of_nat (irule r0))%Z by lia.
      split; auto. split; [constructor; auto|right; auto].
  - destruct IV as (gm & e' & r' & w & ES & HS' & T). destruct LK as (e2 & r2 & ES' & LV). rewrite EP in *. inversion ES; subst e' r'. inversion ES'; subst e2 r2. subst major.
    destruct (look_inv la id gm _ _ LA T LV) as [(T0 & LK)|(T0 & E0 & EV)].
    { destruct LK as [X PT (k & x & EV & LK & _) LM|X r0 PT EV PD LM|r0 rl EV R V LS RR|EV]; try lia. }
    destruct T0 as (-> & _).
    remember [ESym (g_start g)] as G eqn:EG. remember [e; b] as EE eqn:EEE. destruct HS' as [b0 B0|X gm0 e1 e0 st w1 w2 H1 RL PT]; [discriminate|].
    inversion EG; subst X gm0. inversion EEE; subst e1 e0 st. exists [], b, [], w1. split; auto. split; auto. left; auto.
  - destruct (look_err la id p) as (gm & e & r & w & X1 & X2 & X3); [subst major; auto..|].
    exists gm, e, r, w. subst p0. destruct (p_errcnt p <=? 0)%Z; auto.
  - destruct (KSI _ IV) as (gm & e & r & w & X1 & X2).
    assert (KS : exists gm e r w, p_stack (logev (with_errcnt p0 3) (EvDestroy major minor)) = e :: r /\ stk gm (e :: r) w).
    { exists gm, e, r, w. subst p0. destruct (p_errcnt p <=? 0)%Z; auto. }
    destruct (failed_SInv _ _ KS HF) as (gm1 & e1 & r1 & w1 & Y1 & Y2 & Y3). exists gm1, e1, r1, w1. auto.
Qed.

(** ** Termination, for grammars without empty rules and cycles *)
Section Terminates.
Variable rank : nat -> nat.
Variable K : nat.
Hypothesis NOEPS : forall rl, In rl (g_rules g) -> r_rhs rl <> [].
Hypothesis RANK : forall rl B, In rl (g_rules g) -> r_rhs rl = [ESym B] -> is_nonterm g B -> rank B < rank (r_lhs rl).
Hypothesis RK : forall s, rank s < K.

Definition rk (X : elem) : nat := match X with ESym s => if s <? g_nterm g then 0 else S (rank s) | EMulti _ => 0 end.
Definition meas (gm : list elem) : nat := match gm with [] => 0 | X :: _ => length gm * (K + 2) + (K - rk X) end.

Lemma up_rank : forall s t, up s t -> rank s <= rank t.
Proof. intros s t H. induction H as [|r rl B H IH R E N]; auto. pose proof (RANK rl B ltac:(eapply nth_error_In; eauto) E N). lia. Qed.

Lemma meas_reduce : forall r rl gm' B, rule_of g r = Some rl -> up (r_lhs rl) B -> is_nonterm g B ->
  meas (ESym B :: gm') < meas (rev (r_rhs rl) ++ gm').
Proof.
  intros r rl gm' B R U N. assert (IR : In rl (g_rules g)) by (eapply nth_error_In; eauto).
  assert (RB : rk (ESym B) = S (rank B)). { unfold rk. destruct (Nat.ltb_spec B (g_nterm g)); auto. unfold is_nonterm in N. lia. }
  pose proof (up_rank _ _ U) as UR. pose proof (RK B) as RKB.
  assert (LL : 1 <= length (r_rhs rl)). { pose proof (NOEPS rl IR). destruct (r_rhs rl); simpl; [congruence|lia]. }
  destruct (rev (r_rhs rl)) as [|X [|Y l]] eqn:ER.
  - apply (f_equal (@length elem)) in ER. rewrite rev_length in ER. simpl in ER. lia.
  - assert (E1 : r_rhs rl = [X]) by (rewrite <- (rev_involutive (r_rhs rl)), ER; auto).
    unfold meas. cbn [app length]. rewrite RB. 
    assert (rk X < S (rank B)); [|nia]. destruct X as [s|l]; unfold rk; [|lia]. destruct (Nat.ltb_spec s (g_nterm g)) as [L|L]; [lia|].
    assert (NS : is_nonterm g s). { pose proof (wf_rhs g W rl IR) as F. rewrite E1 in F. inversion F as [|? ? WE _]; subst. simpl in WE. unfold is_nonterm. lia. }
    pose proof (RANK rl s IR E1 NS). lia.
  - unfold meas. cbn [app length]. rewrite RB, app_length. nia.
Qed.

Lemma loop_fuel : forall grow la id f p gm e r w hit, la < g_nterm g -> p_stack p = e :: r -> stk gm (e :: r) w -> tops la gm (e_state e) ->
  meas gm < f -> parse_loop c grow f p (e_state e) (Z.of_nat la) (Tok id) hit <> Fuel.
Proof.
  intros grow la id f. induction f as [|f IH]; intros p gm e r w hit LA EP HS T LF; [lia|]. cbn [parse_loop].
  destruct consts_ok as (C1 & C2 & C3 & C4 & C5 & C6 & C7).
  unfold top. rewrite EP. cbn [bind]. rewrite Z.eqb_refl. cbn [assert bind].
  assert (NB : forall X (x : res X) (k : X -> res parser), x <> Fuel -> (forall v, x = Ok v -> k v <> Fuel) -> bind x k <> Fuel).
  { intros X [v| |] k N1 N2; cbn [bind]; auto; discriminate. }
  apply NB.
  { apply find_shift_nofuel. }
  intros v LV.
  assert (NOV : yyStackOverflow p <> Fuel).
  { destruct (overflow_total p) as (p' & ->); [rewrite EP|]; discriminate. }
  assert (RED : forall q r0 rl, p_stack q = e :: r -> rule_of g r0 = Some rl -> valid g gm (r0, length (r_rhs rl)) -> (lhsStart g r0 = true -> la = 0) ->
     real gm (e_state e) \/ r_rhs rl <> [] ->
     ('(p1, act) <- yy_reduce c q (Z.of_nat (irule r0)) ;; parse_loop c grow f p1 act (Z.of_nat la) (Tok id) hit) <> Fuel).
  { intros q r0 rl EQ R V LS RR. destruct (reduce_total la q w gm e r r0 rl EQ HS RR R V LS) as (p1 & act & gm' & B & e1 & r1 & HR & EG & UB & NTB & E1 & S1 & T1 & E2).
    rewrite HR. cbn [bind]. rewrite <- E2. apply (IH p1 (ESym B :: gm') e1 r1 w hit LA E1 S1 T1).
    pose proof (meas_reduce r0 rl gm' B R UB NTB). rewrite EG in LF. lia. }
  assert (SH : forall v, (p1 <- yy_shift c grow p v (Z.of_nat la) (Tok id) ;; Ok (with_errcnt p1 (p_errcnt p1 - 1))) <> Fuel).
  { intros v0. apply NB; [|discriminate]. unfold yy_shift. destruct (p_cap p <=? tos_idx p + 1)%Z; [destruct (grow (p_cap p)); [discriminate|auto]|discriminate]. }
  destruct (look_inv la id gm _ v LA T LV) as [(T0 & LK)|(T0 & EL & EV)].
  - destruct LK as [X PT RL LM|X r0 PT EV PD LM|r0 rl EV R V LS RR|EV].
    + destruct (Z.leb_spec MINR v); [lia|]. destruct (Z.leb_spec v MAXSR); [|lia]. apply SH.
    + destruct (Z.leb_spec MINR v); [lia|]. destruct (Z.leb_spec v MAXSR); [|lia]. apply SH.
    + destruct (Z.leb_spec MINR v); [|lia]. subst v. replace (MINR + Z.of_nat (irule r0) - MINR)%Z with (Z.of_nat (irule r0)) by lia.
      destruct (gk_rule _ _ _ _ _ _ _ _ GK r0 rl R) as (GL & GN). rewrite GN. cbn [bind].
      destruct (schar (- Z.of_nat (length (r_rhs rl))) =? 0)%Z; [|apply (RED p r0 rl); auto].
      destruct (p_cap p - 1 <=? tos_idx p)%Z; [|apply (RED p r0 rl); auto].
      destruct (grow (p_cap p)) as [n|]; [apply (RED (with_cap p n) r0 rl); auto|auto].
    + subst v. destruct (Z.leb_spec MINR ERR); [lia|]. destruct (Z.leb_spec ERR MAXSR); [lia|]. destruct (Z.eqb_spec ERR ACC); [lia|].
      rewrite Z.eqb_refl. cbn [assert bind]. rewrite (gk_errsym _ _ _ _ _ _ _ _ GK), NOERR. cbn [option_map]. cbv zeta.
      destruct (Z.of_nat la =? 0)%Z; [|discriminate]. apply NB; [|discriminate]. unfold yy_parse_failed.
      match goal with |- context[pop_all (length (p_stack ?q)) ?q] => destruct (pop_all_total (length (p_stack q)) q) as (p1 & ->) end; [lia| |discriminate].
      destruct (p_errcnt p <=? 0)%Z; cbn; rewrite EP; discriminate.
  - subst v. destruct (Z.leb_spec MINR ACC); [lia|]. destruct (Z.leb_spec ACC MAXSR); [lia|]. rewrite Z.eqb_refl.
    destruct r as [|? [|? ?]]; discriminate.
Qed.
End Terminates.

(** ** A call that has not ended has reduced as often as it had fuel *)

Lemma up_lifts : forall s t, up s t -> lifts g s t.
Proof. intros s t H. induction H as [|r rl B H IH R E N]; [constructor|eapply lifts_step; eauto]. Qed.

Lemma chain_app : forall n a b, chain g n a b -> forall m d, chain g m b d -> chain g (n + m) a d.
Proof. intros n a b H. induction H as [gm|n gm gm1 gm' R C IH]; intros m d K; [exact K|]. cbn. econstructor; eauto. Qed.

Lemma chain_viable : forall n a b, chain g n a b -> viable g b -> viable g a.
Proof. intros n a b H V. destruct H as [gm|n gm gm1 gm' (r & rl & gm0 & R & VA & _) C]; [exact V|]. eexists. exact VA. Qed.

Lemma loop_chain : forall grow la id f p gm e r w hit, la < g_nterm g -> p_stack p = e :: r -> stk gm (e :: r) w -> tops la gm (e_state e) ->
  parse_loop c grow f p (e_state e) (Z.of_nat la) (Tok id) hit = Fuel -> f = 0 \/ exists m gm', f <= S m /\ chain g m gm gm' /\ viable g gm'.
Proof.
  intros grow la id f. induction f as [|f IH]; intros p gm e r w hit LA EP HS T; [auto|].
  assert (QQ : exists Q : Prop, Q = (S f = 0 \/ exists m gm', S f <= S m /\ chain g m gm gm' /\ viable g gm')) by (eexists; reflexivity). destruct QQ as (Q & EQ). rewrite <- EQ. cbn [parse_loop].
  destruct consts_ok as (C1 & C2 & C3 & C4 & C5 & C6 & C7).
  unfold top. rewrite EP. cbn [bind]. rewrite Z.eqb_refl. cbn [assert bind].
  assert (NB : forall X (x : res X) (k : X -> res parser), x <> Fuel -> (forall v, x = Ok v -> k v = Fuel -> Q) -> bind x k = Fuel -> Q).
  { intros X [v| |] k N1 N2; cbn [bind]; intros H; [eauto|discriminate|congruence]. }
  apply NB.
  { apply find_shift_nofuel. }
  intros v LV.
  assert (NOV : yyStackOverflow p <> Fuel).
  { destruct (overflow_total p) as (p' & ->); [rewrite EP|]; discriminate. }
  assert (RED : forall q r0 rl, p_stack q = e :: r -> rule_of g r0 = Some rl -> valid g gm (r0, length (r_rhs rl)) -> (lhsStart g r0 = true -> la = 0) ->
     real gm (e_state e) \/ r_rhs rl <> [] ->
     ('(p1, act) <- yy_reduce c q (Z.of_nat (irule r0)) ;; parse_loop c grow f p1 act (Z.of_nat la) (Tok id) hit) = Fuel -> Q).
  { intros q r0 rl EQ' R V LS RR. destruct (reduce_total la q w gm e r r0 rl EQ' HS RR R V LS) as (p1 & act & gm' & B & e1 & r1 & HR & EG & UB & NTB & E1 & S1 & T1 & E2).
    rewrite HR. cbn [bind]. rewrite <- E2. intros HF. rewrite EQ. right. destruct (IH p1 (ESym B :: gm') e1 r1 w hit LA E1 S1 T1 HF) as [->|(m & gm2 & LM & CH & VI)].
    - exists 0, gm. split; [lia|]. split; [constructor|]. eexists. exact V.
    - destruct (lifts_chain g _ _ (up_lifts _ _ UB) gm' (chain_viable _ _ _ CH VI)) as (n & CN & _). exists (S (n + m)), gm2. split; [lia|]. split; [|exact VI].
      econstructor; [|eapply chain_app; eauto]. exists r0, rl, gm'. split; [exact R|]. split; [exact V|]. split; [exact EG|reflexivity]. }
  assert (SH : forall v, (p1 <- yy_shift c grow p v (Z.of_nat la) (Tok id) ;; Ok (with_errcnt p1 (p_errcnt p1 - 1))) = Fuel -> Q).
  { intros v0. apply NB; [|discriminate]. unfold yy_shift. destruct (p_cap p <=? tos_idx p + 1)%Z; [destruct (grow (p_cap p)); [discriminate|auto]|discriminate]. }
  destruct (look_inv la id gm _ v LA T LV) as [(T0 & LK)|(T0 & EL & EV)].
  - destruct LK as [X PT RL LM|X r0 PT EV PD LM|r0 rl EV R V LS RR|EV].
    + destruct (Z.leb_spec MINR v); [lia|]. destruct (Z.leb_spec v MAXSR); [|lia]. apply SH.
    + destruct (Z.leb_spec MINR v); [lia|]. destruct (Z.leb_spec v MAXSR); [|lia]. apply SH.
    + destruct (Z.leb_spec MINR v); [|lia]. subst v. replace (MINR + Z.of_nat (irule r0) - MINR)%Z with (Z.of_nat (irule r0)) by lia.
      destruct (gk_rule _ _ _ _ _ _ _ _ GK r0 rl R) as (GL & GN). rewrite GN. cbn [bind].
      destruct (schar (- Z.of_nat (length (r_rhs rl))) =? 0)%Z; [|apply (RED p r0 rl); auto].
      destruct (p_cap p - 1 <=? tos_idx p)%Z; [|apply (RED p r0 rl); auto].
      destruct (grow (p_cap p)) as [n|]; [apply (RED (with_cap p n) r0 rl); auto|congruence].
    + subst v. destruct (Z.leb_spec MINR ERR); [lia|]. destruct (Z.leb_spec ERR MAXSR); [lia|]. destruct (Z.eqb_spec ERR ACC); [lia|].
      rewrite Z.eqb_refl. cbn [assert bind]. rewrite (gk_errsym _ _ _ _ _ _ _ _ GK), NOERR. cbn [option_map]. cbv zeta.
      destruct (Z.of_nat la =? 0)%Z; [|discriminate]. apply NB; [|discriminate]. unfold yy_parse_failed.
      match goal with |- context[pop_all (length (p_stack ?q)) ?q] => destruct (pop_all_total (length (p_stack q)) q) as (p1 & ->) end; [lia| |discriminate].
      destruct (p_errcnt p <=? 0)%Z; cbn; rewrite EP; discriminate.
  - subst v. destruct (Z.leb_spec MINR ACC); [lia|]. destruct (Z.leb_spec ACC MAXSR); [lia|]. rewrite Z.eqb_refl.
    destruct r as [|? [|? ?]]; discriminate.
Qed.

Hypothesis FULL : YY_SHIFT_COUNT (g_tab c) = MAXS.

Lemma find_shift_total : forall la gm st, la < g_nterm g -> tops la gm st -> exists v, yy_find_shift_action c (Z.of_nat la) st = Ok v.
Proof.
  intros la gm st LA T. destruct consts_ok as (C1 & C2 & C3 & C4 & C5 & C6 & C7).
  assert (K : (MAXS < st)%Z -> exists v, yy_find_shift_action c (Z.of_nat la) st = Ok v).
  { intros L. unfold yy_find_shift_action. destruct (Z.ltb_spec MAXS st); [eauto|lia]. }
  destruct T as [(k & x & E & LK & EX & P)|[(r & rl & E & _)|((_ & E) & _)]].
  - subst st. eexists. eapply (gk_shift _ _ _ _ _ _ _ _ GK); eauto. lia.
  - apply K. lia.
  - apply K. lia.
Qed.

Lemma loop_safe : forall grow la id f p e r hit, la < g_nterm g -> SInv (tops la) p -> p_stack p = e :: r ->
  parse_loop c grow f p (e_state e) (Z.of_nat la) (Tok id) hit = Fuel \/
  exists p', parse_loop c grow f p (e_state e) (Z.of_nat la) (Tok id) hit = Ok p' /\ SInv tops0 p'.
Proof.
  intros grow la id f. induction f as [|f IH]; intros p e r hit LA SI EP; cbn [parse_loop]; [left; auto|].
  destruct consts_ok as (C1 & C2 & C3 & C4 & C5 & C6 & C7).
  destruct SI as (gm & e' & r' & w & EP' & HS & T). rewrite EP in EP'. inversion EP'; subst e' r'.
  unfold top. rewrite EP. cbn [bind]. rewrite Z.eqb_refl. cbn [assert bind].
  destruct (find_shift_total la gm _ LA T) as (v & LV). rewrite LV. cbn [bind].
  assert (KS : exists gm e r w, p_stack p = e :: r /\ stk gm (e :: r) w) by (exists gm, e, r, w; auto).
  assert (RED : forall q r0 rl, p_stack q = e :: r -> rule_of g r0 = Some rl -> valid g gm (r0, length (r_rhs rl)) -> (lhsStart g r0 = true -> la = 0) ->
     real gm (e_state e) \/ r_rhs rl <> [] ->
     ('(p1, act) <- yy_reduce c q (Z.of_nat (irule r0)) ;; parse_loop c grow f p1 act (Z.of_nat la) (Tok id) hit) = Fuel \/
     exists p', ('(p1, act) <- yy_reduce c q (Z.of_nat (irule r0)) ;; parse_loop c grow f p1 act (Z.of_nat la) (Tok id) hit) = Ok p' /\ SInv tops0 p').
  { intros q r0 rl EQ R V LS RR. destruct (reduce_total la q w gm e r r0 rl EQ HS RR R V LS) as (p1 & act & gm' & B & e1 & r1 & HR & _ & _ & _ & E1 & S1 & T1 & E2).
    rewrite HR. cbn [bind]. rewrite <- E2. apply (IH p1 e1 r1 hit LA); auto. exists (ESym B :: gm'), e1, r1, w. auto. }
  destruct (look_inv la id gm _ v LA T LV) as [(T0 & LK)|(T0 & EL & EV)].
  - destruct LK as [X PT RL LM|X r0 PT EV PD LM|r0 rl EV R V LS RR|EV].
    + (* shift *)
      assert (RT : real gm (e_state e)).
      { destruct T0 as [T0|T0]; auto. exfalso. destruct T0 as (r1 & rl1 & EV1 & R1 & _). rewrite EV1 in LV. unfold yy_find_shift_action in LV.
        destruct (Z.ltb_spec MAXS (MINR + Z.of_nat (irule r1))); [|lia]. injection LV; lia. }
      destruct (Z.leb_spec MINR v); [lia|]. destruct (Z.leb_spec v MAXSR); [|lia]. right.
      unfold yy_shift. destruct (Z.ltb_spec MAXS v); [lia|].
      assert (FIN : forall q, p_stack q = e :: r -> SInv tops0 (with_errcnt (logev (put q (p_stack q) (mkEntry v (Z.of_nat la) (Tok id))) (EvShift (Z.of_nat la) (Tok id))) (p_errcnt (logev (put q (p_stack q) (mkEntry v (Z.of_nat la) (Tok id))) (EvShift (Z.of_nat la) (Tok id))) - 1))).
      { intros q EQ. exists (X :: gm), (mkEntry v (Z.of_nat la) (Tok id)), (e :: r), (w ++ [(la, id)]).
        split; [cbn; unfold put; rewrite EQ; destruct (p_cap q <=? lenz (e :: r))%Z; auto|]. split; [constructor; auto|left; auto]. }
      destruct (p_cap p <=? tos_idx p + 1)%Z; [destruct (grow (p_cap p)) as [n|]|]; cbn [bind].
      * eexists. split; [reflexivity|]. apply (FIN (with_cap p n)). exact EP.
      * destruct (overflow_total p) as (p' & HO); [rewrite EP; discriminate|]. rewrite HO. cbn [bind]. eexists. split; [reflexivity|].
        destruct (overflow_SInv _ _ KS HO) as (gm1 & e1 & r1 & w1 & Y1 & Y2 & Y3). exists gm1, e1, r1, w1. auto.
      * eexists. split; [reflexivity|]. apply FIN. exact EP.
    + assert (RT : real gm (e_state e)).
      { destruct T0 as [T0|T0]; auto. exfalso. destruct T0 as (r1 & rl1 & EV1 & R1 & _). rewrite EV1 in LV. unfold yy_find_shift_action in LV.
        destruct (Z.ltb_spec MAXS (MINR + Z.of_nat (irule r1))); [|lia]. injection LV; lia. }
      destruct (Z.leb_spec MINR v); [lia|]. destruct (Z.leb_spec v MAXSR); [|lia]. right.
      unfold yy_shift. destruct (Z.ltb_spec MAXS v); [|lia]. replace (v + (MINR - MINSR))%Z with (MINR + Z.of_nat (irule r0))%Z by lia.
      set (st := (MINR + Z.of_nat (irule r0))%Z) in *.
      assert (FIN : forall q, p_stack q = e :: r -> SInv tops0 (with_errcnt (logev (put q (p_stack q) (mkEntry st (Z.of_nat la) (Tok id))) (EvShift (Z.of_nat la) (Tok id))) (p_errcnt (logev (put q (p_stack q) (mkEntry st (Z.of_nat la) (Tok id))) (EvShift (Z.of_nat la) (Tok id))) - 1))).
      { intros q EQ. exists (X :: gm), (mkEntry st (Z.of_nat la) (Tok id)), (e :: r), (w ++ [(la, id)]).
        split; [cbn; unfold put; rewrite EQ; destruct (p_cap q <=? lenz (e :: r))%Z; auto|]. split; [constructor; auto|right; auto]. }
      destruct (p_cap p <=? tos_idx p + 1)%Z; [destruct (grow (p_cap p)) as [n|]|]; cbn [bind].
      * eexists. split; [reflexivity|]. apply (FIN (with_cap p n)). exact EP.
      * destruct (overflow_total p) as (p' & HO); [rewrite EP; discriminate|]. rewrite HO. cbn [bind]. eexists. split; [reflexivity|].
        destruct (overflow_SInv _ _ KS HO) as (gm1 & e1 & r1 & w1 & Y1 & Y2 & Y3). exists gm1, e1, r1, w1. auto.
      * eexists. split; [reflexivity|]. apply FIN. exact EP.
    + destruct (Z.leb_spec MINR v); [|lia]. subst v. replace (MINR + Z.of_nat (irule r0) - MINR)%Z with (Z.of_nat (irule r0)) by lia.
      destruct (gk_rule _ _ _ _ _ _ _ _ GK r0 rl R) as (GL & GN). rewrite GN. cbn [bind].
      destruct (schar (- Z.of_nat (length (r_rhs rl))) =? 0)%Z; [|apply (RED p r0 rl); auto].
      destruct (p_cap p - 1 <=? tos_idx p)%Z; [|apply (RED p r0 rl); auto].
      destruct (grow (p_cap p)) as [n|]; [apply (RED (with_cap p n) r0 rl); auto|].
      destruct (overflow_total p) as (p' & HO); [rewrite EP; discriminate|]. rewrite HO. right. eexists. split; [reflexivity|].
      eapply overflow_SInv; eauto.
    + subst v. destruct (Z.leb_spec MINR ERR); [lia|]. destruct (Z.leb_spec ERR MAXSR); [lia|]. destruct (Z.eqb_spec ERR ACC); [lia|].
      rewrite Z.eqb_refl. cbn [assert bind]. rewrite (gk_errsym _ _ _ _ _ _ _ _ GK), NOERR. cbn [option_map]. right.
      set (p0 := if (p_errcnt p <=? 0)%Z then logev p (EvSyntaxError (Z.of_nat la) (Tok id)) else p).
      assert (ST0 : p_stack p0 = e :: r) by (unfold p0; destruct (p_errcnt p <=? 0)%Z; auto).
      assert (KS1 : exists gm e r w, p_stack (logev (with_errcnt p0 3) (EvDestroy (Z.of_nat la) (Tok id))) = e :: r /\ stk gm (e :: r) w) by (exists gm, e, r, w; auto).
      cbv zeta. destruct (Z.eqb_spec (Z.of_nat la) 0) as [M0|M0].
      * assert (TOT : exists p2, yy_parse_failed (logev (with_errcnt p0 3) (EvDestroy (Z.of_nat la) (Tok id))) = Ok p2).
        { unfold yy_parse_failed. destruct (pop_all_total (length (p_stack (logev (with_errcnt p0 3) (EvDestroy (Z.of_nat la) (Tok id)))))
            (logev (with_errcnt p0 3) (EvDestroy (Z.of_nat la) (Tok id)))) as (p1 & ->); [lia|cbn; rewrite ST0; discriminate|]. cbn [bind]. eauto. }
        destruct TOT as (p2 & HF). rewrite HF. cbn [bind]. eexists. split; [reflexivity|].
        destruct (failed_SInv _ _ KS1 HF) as (gm1 & e1 & r1 & w1 & Y1 & Y2 & Y3). exists gm1, e1, r1, w1. auto.
      * eexists. split; [reflexivity|]. exists gm, e, r, w. auto.
  - (* accept *)
    subst v. destruct (Z.leb_spec MINR ACC); [lia|]. destruct (Z.leb_spec ACC MAXSR); [lia|]. rewrite Z.eqb_refl.
    destruct T0 as (-> & _). remember [ESym (g_start g)] as G eqn:EG. remember (e :: r) as EE eqn:EEE.
    destruct HS as [b0 B0|X gm0 e1 e0 st w1 w2 H1 RL PT]; [discriminate|]. inversion EG; subst X gm0. inversion EEE; subst e1 r.
    destruct (stk_top _ _ _ _ H1 eq_refl) as (-> & _). right. eexists. split; [reflexivity|].
    exists [], e0, [], w1. split; [auto|]. split; auto. left; auto.
Qed.

End Sound.
