(** The reader of lemon never uses a bad index, whatever the tokens are; its count of
    messages never goes down; the buffers of the declarations are long enough. *)
From Coq Require Import String List Arith ZArith Bool Lia.
Import ListNotations.
From Verif Require Import Base LemonTableModel LemonPreModel LemonActionModel LemonReadModel.

Record SafeC (n : nat) (c : ctl) : Prop := mkSafeC {
  sc_rhs : Forall (fun a : nat * option text => fst a < n) (c_rhs c);
  sc_slot : match c_slot c with Some (SDestr i) | Some (SDtype i) => i < n | _ => True end;
  sc_line : match c_linenoslot c with Some i => i < n | None => True end;
  sc_arg : c_state c = WAITING_FOR_DECL_ARG -> c_slot c <> None;
  sc_cls : c_state c = WAITING_FOR_CLASS_TOKEN -> c_class c < n
}.
Definition SafeL (l : list sobj) : Prop := forall id s, nth_error l id = Some s -> Forall (fun i => i < length l) (so_sub s).
Definition Safe (p : pst) : Prop := SafeC (length (gr_syms (p_g p))) (p_c p) /\ SafeL (gr_syms (p_g p)).

Lemma SafeC_mono : forall n m c, n <= m -> SafeC n c -> SafeC m c.
Proof.
  intros n m c L [A B C D E]. constructor; auto.
  - eapply Forall_impl; [|exact A]. cbn. intros; lia.
  - destruct (c_slot c) as [[]|]; auto; lia.
  - destruct (c_linenoslot c); auto; lia.
  - intros H. specialize (E H). lia.
Qed.

Lemma find_from_lt : forall x l i j, find_from i x l = Some j -> i <= j < i + length l.
Proof.
  induction l as [|s l IH]; intros i j H; [discriminate|]. cbn [find_from] in H. destruct (so_named s && streq (so_name s) x); [inversion H; subst; cbn; lia|]. apply IH in H. cbn. lia.
Qed.
Lemma SafeL_app : forall l s, SafeL l -> Forall (fun i => i < length l) (so_sub s) -> SafeL (l ++ [s]).
Proof.
  intros l s H K id t E. rewrite app_length. cbn [length]. destruct (Nat.lt_ge_cases id (length l)) as [L|L].
  - rewrite nth_error_app1 in E by exact L. eapply Forall_impl; [|exact (H _ _ E)]. cbn. intros; lia.
  - rewrite nth_error_app2 in E by exact L. destruct (id - length l) as [|k]; [|destruct k; discriminate]. cbn in E. inversion E; subst. eapply Forall_impl; [|exact K]. cbn. intros; lia.
Qed.
Lemma sym_new_safe : forall x l i l', SafeL l -> sym_new x l = (i, l') -> SafeL l' /\ length l <= length l' /\ i < length l'.
Proof.
  intros x l i l' H E. unfold sym_new, sym_find in E. destruct (find_from 0 x l) as [j|] eqn:F; inversion E; subst.
  - apply find_from_lt in F. split; [exact H|lia].
  - split; [apply SafeL_app; [exact H|constructor]|]. rewrite app_length. cbn. lia.
Qed.
Lemma upd_safe : forall l i s, SafeL l -> Forall (fun i => i < length l) (so_sub s) -> SafeL (upd l i s).
Proof.
  intros l i s H K id t E. rewrite upd_length. destruct (Nat.eq_dec id i) as [->|N].
  - destruct (Nat.lt_ge_cases i (length l)) as [L|L].
    + rewrite nth_error_upd_eq in E by exact L. inversion E; subst. exact K.
    + assert (X : nth_error (upd l i s) i = None) by (apply nth_error_None; rewrite upd_length; lia). congruence.
  - rewrite nth_error_upd_ne in E by auto. eapply H; eauto.
Qed.

Definition fine (p : pst) (r : res pst) : Prop := exists p', r = Ok p' /\ Safe p' /\ gr_err (p_g p) <= gr_err (p_g p').

Lemma some_at : forall A (l : list A) i, i < length l -> exists a, nth_error l i = Some a.
Proof. intros A l i H. destruct (nth_error l i) eqn:E; [eauto|]. apply nth_error_None in E. lia. Qed.

Lemma last_rhs_In : forall l a, last_rhs l = Some a -> In a l.
Proof. induction l as [|x l IH]; intros a H; [discriminate|]. cbn [last_rhs] in H. destruct l; [inversion H; now left|]. right. now apply IH. Qed.
Lemma last_rhs_some : forall l, 0 < length l -> exists a, last_rhs l = Some a.
Proof. induction l as [|x l IH]; intros H; [cbn in H; lia|]. cbn [last_rhs]. destruct l; [eauto|]. apply IH. cbn. lia. Qed.
Lemma removelast_Forall : forall A (P : A -> Prop) l, Forall P l -> Forall P (removelast l).
Proof. induction l as [|x l IH]; intros H; [constructor|]. inversion H; subst. cbn [removelast]. destruct l; [constructor|]. constructor; auto. Qed.
Lemma upd_last_Forall : forall (P : nat * option text -> Prop) f l, Forall P l -> (forall a, In a l -> P (f a)) -> Forall P (upd_last f l).
Proof.
  intros P f l H K. unfold upd_last. destruct (last_rhs l) as [a|] eqn:E; [|exact H]. apply Forall_app. split; [now apply removelast_Forall|]. constructor; [|constructor]. apply K. now apply last_rhs_In.
Qed.

Lemma compound_safe : forall x c g, Safe (mkPst c g) -> 0 < length (c_rhs c) -> fine (mkPst c g) (rhs_compound x c g).
Proof.
  intros x c g (SC & SL) L. cbn [p_c p_g] in *. unfold rhs_compound. destruct (last_rhs_some _ L) as (a & EA). rewrite EA. cbn [opt bind].
  pose proof (last_rhs_In _ _ EA) as IA. pose proof (sc_rhs _ _ SC) as RH. rewrite Forall_forall in RH. destruct (some_at _ _ _ (RH a IA)) as (msp & EM). rewrite EM. cbn [opt bind].
  destruct (match so_type msp with MULTITERMINAL => (fst a, gr_syms g) | _ => (length (gr_syms g), gr_syms g ++ [mkSobj (so_name msp) false MULTITERMINAL (Some 0) LEFT None [fst a] None 0%Z None]) end) as [m l1] eqn:EX.
  assert (S1 : SafeL l1 /\ length (gr_syms g) <= length l1 /\ m < length l1).
  { pose proof (RH a IA) as RA.
    assert (W : SafeL (gr_syms g ++ [mkSobj (so_name msp) false MULTITERMINAL (Some 0) LEFT None [fst a] None 0%Z None])) by (apply SafeL_app; [exact SL|cbn; constructor; [exact RA|constructor]]).
    destruct (so_type msp); inversion EX; subst; try rewrite app_length; cbn [length]; auto with arith; split; auto; lia. }
  destruct S1 as (S1 & L1 & M1). destruct (sym_new (tl x) l1) as [i l2] eqn:EN. destruct (sym_new_safe _ _ _ _ S1 EN) as (S2 & L2 & I2).
  destruct (some_at _ l2 m ltac:(lia)) as (mo & EO). rewrite EO. cbn [opt bind]. set (l3 := upd l2 m _).
  assert (F3 : Forall (fun j => j < length l2) (so_sub mo ++ [i])) by (apply Forall_app; split; [exact (S2 _ _ EO)|constructor; [exact I2|constructor]]).
  assert (S3 : SafeL l3) by (apply upd_safe; [exact S2|exact F3]). assert (L3 : length l3 = length l2) by apply upd_length.
  destruct (some_at _ (so_sub mo ++ [i]) 0 ltac:(rewrite app_length; cbn; lia)) as (k0 & EK). rewrite EK. cbn [opt bind].
  rewrite Forall_forall in F3. pose proof (F3 k0 (nth_error_In _ _ EK)) as K0. destruct (some_at _ l3 k0 ltac:(lia)) as (o0 & E0). rewrite E0. cbn [opt bind].
  eexists. split; [reflexivity|].
  assert (SC' : SafeC (length l3) (set_rhs IN_RHS (upd_last (fun a => (m, snd a)) (c_rhs c)) c)).
  { assert (SCm : SafeC (length l3) c) by (eapply SafeC_mono; [|exact SC]; lia). destruct SCm. constructor; cbn; auto; try discriminate. apply upd_last_Forall; [assumption|]. intros b _. cbn. lia. }
  destruct (islower (ch x 1) || islower (ch (so_name o0) 0)); (split; [split; [exact SC'|exact S3]|]); cbn; lia.
Qed.

Lemma decl_safe : forall o line x c g, Safe (mkPst c g) -> c_state c = WAITING_FOR_DECL_ARG -> exists g1, decl_arg o line x c g = Ok g1 /\ length (gr_syms g1) = length (gr_syms g) /\ SafeL (gr_syms g1) /\ gr_err g1 = gr_err g.
Proof.
  intros o line x c g (SC & SL) ST. cbn [p_c p_g] in *. unfold decl_arg. pose proof (sc_arg _ _ SC ST) as NE. destruct (c_slot c) as [sl|] eqn:ES; [|congruence]. cbn [opt bind].
  pose proof (sc_slot _ _ SC) as SS. rewrite ES in SS.
  assert (G : exists old, get_slot sl g = Ok old).
  { destruct sl; cbn [get_slot]; [eauto| |]; destruct (some_at _ _ _ SS) as (s & ->); cbn; eauto. }
  destruct G as (old & ->). cbn [bind]. pose proof (sc_line _ _ SC) as SN.
  assert (D : exists d, match c_linenoslot c with None => Ok None | Some i => y <- opt (nth_error (gr_syms g) i) ;; Ok (Some (i, so_destln y)) end = Ok d).
  { destruct (c_linenoslot c) as [i|]; [|eauto]. destruct (some_at _ _ _ SN) as (s & ->). cbn. eauto. }
  destruct D as (d & ->). cbn [bind]. set (v := decl_text _ _ _ _ _).
  set (g1 := match d with Some (i, 0%Z) => match nth_error (gr_syms g) i with Some y => set_syms (upd (gr_syms g) i (with_destln line y)) g | None => g end | _ => g end).
  assert (A : length (gr_syms g1) = length (gr_syms g) /\ SafeL (gr_syms g1) /\ gr_err g1 = gr_err g).
  { unfold g1. destruct d as [[i [| |]]|]; auto. destruct (nth_error (gr_syms g) i) as [y|] eqn:EY; auto. cbn [gr_syms gr_err set_syms]. split; [apply upd_length|]. split; [|reflexivity]. apply upd_safe; [exact SL|]. cbn. exact (SL _ _ EY). }
  destruct A as (A1 & A2 & A3). destruct sl as [k|i|i]; cbn [put_slot].
  - eexists. split; [reflexivity|]. auto.
  - destruct (some_at _ (gr_syms g1) i ltac:(lia)) as (s & E). rewrite E. cbn [opt bind]. eexists. split; [reflexivity|]. cbn [gr_syms gr_err set_syms]. rewrite upd_length. split; [exact A1|]. split; [|exact A3]. apply upd_safe; [exact A2|]. cbn. exact (A2 _ _ E).
  - destruct (some_at _ (gr_syms g1) i ltac:(lia)) as (s & E). rewrite E. cbn [opt bind]. eexists. split; [reflexivity|]. cbn [gr_syms gr_err set_syms]. rewrite upd_length. split; [exact A1|]. split; [|exact A3]. apply upd_safe; [exact A2|]. cbn. exact (A2 _ _ E).
Qed.

Ltac sc := match goal with H : SafeC _ _ |- SafeC _ _ => destruct H; constructor; cbn; auto; try discriminate; try congruence end.
Ltac plain := eexists; split; [reflexivity|]; split; [split; cbn [p_c p_g gr_syms set_syms set_rules set_slots set_wildcard set_yaccPrec next_prec add_err]; [sc|assumption]|cbn; lia].
Ltac new x EN S2 L2 I2 := match goal with SL : SafeL ?l |- context [sym_new x ?l] => let i := fresh "i" in let l' := fresh "l" in destruct (sym_new x l) as [i l'] eqn:EN; destruct (sym_new_safe _ _ _ _ SL EN) as (S2 & L2 & I2) end.
Ltac grow SC L2 := apply (SafeC_mono _ _ _ L2) in SC.
Ltac plainL := eexists; split; [reflexivity|]; split; [split; cbn [p_c p_g gr_syms set_syms set_rules set_slots set_wildcard set_yaccPrec next_prec add_err]; [|assumption]|cbn; lia].

Lemma step_safe : forall o line x p, Safe p -> fine p (parseonetoken o line x p).
Proof.
  intros o line x [c g] SP. pose proof SP as (SC & SL). cbn [p_c p_g] in SC, SL. unfold parseonetoken. cbn [p_c p_g]. unfold fine. cbn [p_g].
  destruct (c_state c) eqn:ST.
  1,2: destruct (ch x 0 =? 37)%Z; [plain|]; destruct (islower (ch x 0)); [new x EN S2 L2 I2; grow SC L2; plain|]; destruct (ch x 0 =? 123)%Z; [|destruct (ch x 0 =? 91)%Z; plain];
       destruct (gr_rules g) as [|rp rest]; [plain|]; destruct (rr_code rp); plain.
  - (* keyword *) destruct (isalpha (ch x 0)); [|plain]. destruct (kw_find x keywords) as [[]|]; plain.
  - (* decl arg *) destruct ((ch x 0 =? 123)%Z || (ch x 0 =? 34)%Z || isalnum (ch x 0)); [|plain]. destruct (decl_safe o line x c g SP ST) as (g1 & -> & L & S1 & E1). cbn [bind]. eexists. split; [reflexivity|]. split; [split; cbn [p_c p_g]; [rewrite L; sc|exact S1]|cbn; lia].
  - (* precedence symbol *)
    destruct (ch x 0 =? 46)%Z; [plain|]. destruct (isupper (ch x 0)); [|plain]. destruct (ro_ignorePrec o); [exists (mkPst c g); auto|]. new x EN S2 L2 I2. destruct (some_at _ _ _ I2) as (s & E). rewrite E. cbn [opt bind].
    destruct (so_prec s); [grow SC L2; plain|]. eexists; split; [reflexivity|]. split; [split; cbn [p_c p_g gr_syms set_syms]; [rewrite upd_length; exact (SafeC_mono _ _ _ L2 SC)|]|cbn; lia]. apply upd_safe; [exact S2|]. cbn. exact (S2 _ _ E).
  - (* arrow *) destruct ((ch x 0 =? 58)%Z && (ch x 1 =? 58)%Z && (ch x 2 =? 61)%Z); [plain|]. destruct (ch x 0 =? 40)%Z; plain.
  - (* IN_RHS *)
    destruct (ch x 0 =? 46)%Z; [plain|]. destruct (isalpha (ch x 0)).
    + destruct (MAXRHS <=? length (c_rhs c)); [plain|]. new x EN S2 L2 I2. grow SC L2. plainL. destruct SC. constructor; cbn; auto; try discriminate. apply Forall_app. split; [assumption|]. constructor; [exact I2|constructor].
    + destruct (((ch x 0 =? 124)%Z || (ch x 0 =? 47)%Z) && (0 <? length (c_rhs c)) && isupper (ch x 1)) eqn:B; [|destruct ((ch x 0 =? 40)%Z && (0 <? length (c_rhs c))); plain].
      apply andb_true_iff in B as (B & _). apply andb_true_iff in B as (_ & B). apply Nat.ltb_lt in B. exact (compound_safe x c g SP B).
  - destruct (isalpha (ch x 0)); plain.
  - destruct (ch x 0 =? 41)%Z; plain.
  - destruct ((ch x 0 =? 58)%Z && (ch x 1 =? 58)%Z && (ch x 2 =? 61)%Z); plain.
  - (* RHS alias *) destruct (isalpha (ch x 0)); [|plain]. plainL. destruct SC. constructor; cbn; auto; try discriminate. apply upd_last_Forall; [assumption|]. intros a A. cbn. rewrite Forall_forall in sc_rhs0. auto.
  - destruct (ch x 0 =? 41)%Z; plain.
  - (* mark *) destruct (isupper (ch x 0)); cbn [negb]; [|plain]. destruct (gr_rules g) as [|rp rest]; [plain|]. destruct (rr_precsym rp); [plain|]. destruct (ro_ignorePrec o); [plain|]. new x EN S2 L2 I2. grow SC L2. plain.
  - destruct (ch x 0 =? 93)%Z; cbn [negb]; plain.
  - destruct (ch x 0 =? 46)%Z; [plain|]. destruct (ch x 0 =? 37)%Z; [plain|]. exists (mkPst c g). auto.
  - destruct (ch x 0 =? 46)%Z; [plain|]. destruct (ch x 0 =? 37)%Z; [plain|]. exists (mkPst c g). auto.
  - (* destructor *) destruct (isalpha (ch x 0)); cbn [negb]; [|plain]. new x EN S2 L2 I2. grow SC L2. plain.
  - (* type *) destruct (isalpha (ch x 0)); cbn [negb]; [|plain]. new x EN S2 L2 I2. destruct (some_at _ _ _ I2) as (s & E). rewrite E. cbn [opt bind]. destruct (so_dtype s); [plain|]. grow SC L2. plain.
  - (* fallback *)
    destruct (ch x 0 =? 46)%Z; [plain|]. destruct (isupper (ch x 0)); cbn [negb]; [|plain]. new x EN S2 L2 I2. destruct (c_fallback c); [|grow SC L2; plain]. destruct (some_at _ _ _ I2) as (s & E). rewrite E. cbn [opt bind].
    destruct (so_fallback s); [grow SC L2; plain|]. eexists; split; [reflexivity|]. split; [split; cbn [p_c p_g gr_syms set_syms]; [rewrite upd_length; exact (SafeC_mono _ _ _ L2 SC)|]|cbn; lia]. apply upd_safe; [exact S2|]. cbn. exact (S2 _ _ E).
  - (* wildcard *) destruct (ch x 0 =? 46)%Z; [plain|]. destruct (isupper (ch x 0)); cbn [negb]; [|plain]. new x EN S2 L2 I2. grow SC L2. destruct (gr_wildcard g); plain.
  - (* class *) destruct (islower (ch x 0)); cbn [negb]; [|plain]. destruct (sym_find x (gr_syms g)); [plain|]. new x EN S2 L2 I2. destruct (some_at _ _ _ I2) as (s & E). rewrite E. cbn [opt bind]. grow SC L2.
    eexists; split; [reflexivity|]. split; [split; cbn [p_c p_g gr_syms set_syms]; [rewrite upd_length; sc|]|cbn; lia]. apply upd_safe; [exact S2|constructor].
  - (* class token *) destruct (ch x 0 =? 46)%Z; [plain|]. destruct (isupper (ch x 0) || ((ch x 0 =? 124)%Z || (ch x 0 =? 47)%Z) && isupper (ch x 1)); [|plain].
    destruct (sym_new (if isupper (ch x 0) then x else tl x) (gr_syms g)) as [i l1] eqn:EN. destruct (sym_new_safe _ _ _ _ SL EN) as (S2 & L2 & I2). pose proof (sc_cls _ _ SC ST) as CL. destruct (some_at _ l1 (c_class c) ltac:(lia)) as (s & E). rewrite E. cbn [opt bind].
    eexists; split; [reflexivity|]. split; [split; cbn [p_c p_g gr_syms set_syms]; [rewrite upd_length; exact (SafeC_mono _ _ _ L2 SC)|]|cbn; lia]. apply upd_safe; [exact S2|]. cbn. apply Forall_app. split; [exact (S2 _ _ E)|]. constructor; [exact I2|constructor].
  - (* token *) destruct (ch x 0 =? 46)%Z; [plain|]. destruct (isupper (ch x 0)); cbn [negb]; [|plain]. new x EN S2 L2 I2. grow SC L2. plain.
Qed.

Lemma feed_safe : forall o evs p, Safe p -> fine p (feed_tokens o evs p).
Proof.
  induction evs as [|e evs IH]; intros p S0; [exists p; auto|]. destruct e as [line x|]; cbn [feed_tokens].
  - destruct (step_safe o line x p S0) as (p1 & -> & S1 & L1). cbn [bind]. destruct (IH p1 S1) as (p2 & -> & S2 & L2). exists p2. split; [reflexivity|]. split; [exact S2|lia].
  - destruct (IH (mkPst (p_c p) (add_err (p_g p))) S0) as (p2 & -> & S2 & L2). exists p2. split; [reflexivity|]. split; [exact S2|]. cbn in L2. lia.
Qed.

Lemma init_safe : Safe init_pst.
Proof.
  split; [constructor; cbn; auto; try discriminate|]. intros [|[|id]] s E; cbn in E; try discriminate. injection E as <-. constructor.
Qed.

(** ** The buffers *)
Lemma escaped_length : forall z, length (escaped z) = length z + count_occ Z.eq_dec z 92%Z.
Proof.
  induction z as [|c z IH]; [reflexivity|]. cbn [escaped count_occ length]. destruct (c =? 92)%Z eqn:E.
  - apply Z.eqb_eq in E. subst. destruct (Z.eq_dec 92 92); [|congruence]. cbn [length]. lia.
  - apply Z.eqb_neq in E. destruct (Z.eq_dec c 92); [congruence|]. cbn [length]. lia.
Qed.

Lemma decl_fits : forall add line filename old new, S (length (decl_text add line filename old new)) <= decl_size add line filename old new.
Proof.
  intros add line filename old new. unfold decl_text, decl_size. rewrite !app_length. destruct add; cbn [length]; [|lia]. unfold line_macro. rewrite !app_length, escaped_length. destruct ((0 <? length old) && negb (nth (length old - 1) old 0 =? 10)%Z); cbn [length]; lia.
Qed.
