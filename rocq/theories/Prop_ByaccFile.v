(** C68, C69: what byacc makes of a grammar file: its lines, symbols, rules and actions. *)
From Coq Require Import String List Arith ZArith Bool Lia.
Import ListNotations.
From Verif Require Import Base LemonTableModel LemonPreModel LemonCodeModel ByaccParModel ByaccReaderModel ByaccRulesModel Prop_ByaccMidrule ByaccScanModel Prop_ByaccLiteral SpecByaccFile
  ByaccScanProof ByaccTableProof ByaccDeclProof ByaccActionProof SpecByaccRules ByaccFileProof.

(** * Lines *)

(** A line directive: [# line <digits> "<name>"] with blanks before and between, and anything behind. *)
Definition blanks (s : txt) : Prop := Forall (fun c => isspace c = true) s.
Definition line_directive (l : txt) : Prop := exists s1 s2 s3 ds s4 f r, blanks s1 /\ blanks s2 /\ blanks s3 /\ s3 <> [] /\ Forall digit ds /\ ds <> [] /\ blanks s4 /\ s4 <> [] /\
  f <> [] /\ ~ In 34%Z f /\ l = s1 ++ 35%Z :: s2 ++ zs "line" ++ s3 ++ ds ++ s4 ++ 34%Z :: f ++ 34%Z :: r.

Lemma dir_ok : forall t, directive 0 ldOK t = true.
Proof. induction t as [|c t IH]; [reflexivity|]. exact IH. Qed.

Lemma dir_file : forall t, directive 0 ldFILE t = true <-> exists f r, ~ In 34%Z f /\ t = f ++ 34%Z :: r.
Proof.
  induction t as [|c t IH].
  - split; [discriminate|]. intros (f & r & _ & E). destruct f; discriminate.
  - cbn [directive]. destruct (Z.eqb_spec c 34) as [->|N].
    + split; [intros _; exists [], t; auto|]. intros _. apply dir_ok.
    + rewrite IH. split.
      * intros (f & r & I & ->). exists (c :: f), r. split; [|reflexivity]. cbn. intros [X|X]; [congruence|auto].
      * intros (f & r & I & E). destruct f as [|d f]; [injection E as -> ->; now destruct N|]. injection E as -> ->. exists f, r. split; [|reflexivity]. intros X. apply I. now right.
Qed.

Lemma dir_spc4 : forall t, directive 0 ldSPC4 t = true <-> exists s f r, blanks s /\ f <> [] /\ ~ In 34%Z f /\ t = s ++ 34%Z :: f ++ 34%Z :: r.
Proof.
  induction t as [|c t IH].
  - split; [discriminate|]. intros (s & f & r & _ & _ & _ & E). destruct s; discriminate.
  - cbn [directive]. destruct (isspace c) eqn:SP.
    + rewrite IH. split.
      * intros (s & f & r & H & X & Y & ->). exists (c :: s), f, r. repeat split; auto. now constructor.
      * intros (s & f & r & H & X & Y & E). destruct s as [|d s]; [injection E as -> ->; discriminate|]. injection E as -> ->. exists s, f, r. repeat split; auto. now apply Forall_inv_tail in H.
    + destruct (Z.eqb_spec c 34) as [->|N].
      * assert (X : (match t with 34%Z :: _ => false | _ => directive 0 ldFILE t end) = match t with d :: _ => if (d =? 34)%Z then false else directive 0 ldFILE t | [] => false end).
        { destruct t as [|d t]; [reflexivity|]. destruct (Z.eqb_spec d 34) as [->|N]; [reflexivity|]. destruct d as [|q|q]; try reflexivity. do 6 (destruct q as [q|q|]; try reflexivity). now destruct N. }
        rewrite X. clear X. split.
        -- intros H. destruct t as [|d t]; [discriminate|]. destruct (Z.eqb_spec d 34) as [->|N]; [discriminate|]. apply dir_file in H. destruct H as (f & r & I & E).
           exists [], f, r. repeat split; [constructor| |exact I|now rewrite E]. intros ->. injection E as -> ->. now destruct N.
        -- intros (s & f & r & H & NE & I & E). destruct s as [|d s]; [|injection E as <- _; apply Forall_inv in H; discriminate]. injection E as ->. destruct f as [|d f]; [easy|]. cbn [app].
           destruct (Z.eqb_spec d 34) as [->|N]; [exfalso; apply I; now left|]. apply (proj2 (dir_file ((d :: f) ++ 34%Z :: r))). exists (d :: f), r. auto.
      * split; [discriminate|]. intros (s & f & r & H & _ & _ & E). destruct s as [|d s]; [injection E as -> _; now destruct N|]. injection E as -> _. apply Forall_inv in H. congruence.
Qed.

Lemma isdigit_iff : forall c, isdigit c = true <-> digit c.
Proof. intros c. unfold isdigit, digit. rewrite andb_true_iff, !Z.leb_le. reflexivity. Qed.
Lemma digit_space : forall c, digit c -> isspace c = false.
Proof. intros c H. unfold digit in H. destruct (isspace c) eqn:E; [|reflexivity]. unfold isspace in E. rewrite orb_true_iff, andb_true_iff, Z.eqb_eq, !Z.leb_le in E. lia. Qed.

Lemma dir_num : forall t, directive 0 ldNUM t = true <-> exists ds s f r, Forall digit ds /\ blanks s /\ s <> [] /\ f <> [] /\ ~ In 34%Z f /\ t = ds ++ s ++ 34%Z :: f ++ 34%Z :: r.
Proof.
  induction t as [|c t IH].
  - split; [discriminate|]. intros (ds & s & f & r & _ & _ & NE & _ & _ & E). destruct ds; [|discriminate]. destruct s; [easy|discriminate].
  - cbn [directive]. destruct (isdigit c) eqn:D.
    + rewrite IH. apply isdigit_iff in D. split.
      * intros (ds & s & f & r & A & B & C & X & Y & ->). exists (c :: ds), s, f, r. repeat split; auto.
      * intros (ds & s & f & r & A & B & C & X & Y & E). destruct ds as [|d ds].
        -- destruct s as [|d s]; [easy|]. injection E as -> _. apply Forall_inv in B. rewrite (digit_space _ D) in B. discriminate.
        -- injection E as -> ->. exists ds, s, f, r. repeat split; auto. now apply Forall_inv_tail in A.
    + assert (ND : ~ digit c) by (rewrite <- isdigit_iff; congruence). destruct (isspace c) eqn:SP.
      * rewrite dir_spc4. split.
        -- intros (s & f & r & H & X & Y & ->). exists [], (c :: s), f, r. repeat split; auto; [now constructor|discriminate].
        -- intros (ds & s & f & r & A & B & C & X & Y & E). destruct ds as [|d ds]; [|injection E as -> _; now apply Forall_inv in A]. destruct s as [|d s]; [easy|]. injection E as -> ->. exists s, f, r. repeat split; auto. now apply Forall_inv_tail in B.
      * split; [discriminate|]. intros (ds & s & f & r & A & B & C & X & Y & E). destruct ds as [|d ds]; [|injection E as -> _; now apply Forall_inv in A]. destruct s as [|d s]; [easy|]. injection E as -> _. apply Forall_inv in B. congruence.
Qed.

Lemma dir_spc3 : forall t, directive 0 ldSPC3 t = true <-> exists s3 ds s f r, blanks s3 /\ Forall digit ds /\ ds <> [] /\ blanks s /\ s <> [] /\ f <> [] /\ ~ In 34%Z f /\ t = s3 ++ ds ++ s ++ 34%Z :: f ++ 34%Z :: r.
Proof.
  induction t as [|c t IH].
  - split; [discriminate|]. intros (s3 & ds & s & f & r & _ & _ & NE & _ & _ & _ & _ & E). destruct s3; [|discriminate]. destruct ds; [easy|discriminate].
  - cbn [directive]. destruct (isspace c) eqn:SP.
    + rewrite IH. split.
      * intros (s3 & ds & s & f & r & A & X1 & X2 & X3 & X4 & X5 & X6 & ->). exists (c :: s3), ds, s, f, r. repeat split; auto. now constructor.
      * intros (s3 & ds & s & f & r & A & X1 & X2 & X3 & X4 & X5 & X6 & E). destruct s3 as [|d s3].
        -- destruct ds as [|d ds]; [easy|]. injection E as -> _. apply Forall_inv in X1. rewrite (digit_space _ X1) in SP. discriminate.
        -- injection E as -> ->. exists s3, ds, s, f, r. repeat split; auto. now apply Forall_inv_tail in A.
    + destruct (isdigit c) eqn:D.
      * apply isdigit_iff in D. rewrite dir_num. split.
        -- intros (ds & s & f & r & A & X3 & X4 & X5 & X6 & ->). exists [], (c :: ds), s, f, r. repeat split; auto; [constructor|discriminate].
        -- intros (s3 & ds & s & f & r & A & X1 & X2 & X3 & X4 & X5 & X6 & E). destruct s3 as [|d s3]; [|injection E as -> _; apply Forall_inv in A; congruence].
           destruct ds as [|d ds]; [easy|]. injection E as -> ->. exists ds, s, f, r. repeat split; auto. now apply Forall_inv_tail in X1.
      * split; [discriminate|]. intros (s3 & ds & s & f & r & A & X1 & X2 & X3 & X4 & X5 & X6 & E). destruct s3 as [|d s3]; [|injection E as -> _; apply Forall_inv in A; congruence].
        destruct ds as [|d ds]; [easy|]. injection E as -> _. apply Forall_inv in X1. apply isdigit_iff in X1. congruence.
Qed.

Lemma dir_skip : forall k ld a t, List.length a = k -> directive k ld (a ++ t) = directive 0 ld t.
Proof. induction k as [|k IH]; intros ld [|c a] t H; try discriminate; [reflexivity|]. cbn [app directive]. apply IH. now injection H. Qed.

Lemma starts_app : forall p t, starts p (p ++ t) = true.
Proof. induction p as [|c p IH]; intros t; [reflexivity|]. cbn [app starts]. now rewrite Z.eqb_refl, IH. Qed.
Lemma starts_iff : forall p t, starts p t = true <-> exists r, t = p ++ r.
Proof.
  split; [|intros (r & ->); apply starts_app]. revert t. induction p as [|c p IH]; intros t H; [now exists t|]. destruct t as [|d t]; [discriminate|]. cbn [starts] in H. rewrite andb_true_iff, Z.eqb_eq in H. destruct H as (-> & H).
  apply IH in H. destruct H as (r & ->). now exists r.
Qed.

Lemma dir_spc2 : forall t, (exists u, t = u ++ [10%Z]) -> directive 0 ldSPC2 t = true <-> exists s2 u, blanks s2 /\ t = s2 ++ zs "line" ++ u /\ directive 0 ldSPC3 u = true /\ match u with c :: _ => isspace c = true | [] => False end.
Proof.
  induction t as [|c t IH]; intros (v & EV).
  - destruct v; discriminate.
  - cbn [directive]. destruct (isspace c) eqn:SP.
    + assert (SPL : forall s2 u, c :: t = s2 ++ zs "line" ++ u -> exists s', s2 = c :: s' /\ t = s' ++ zs "line" ++ u).
      { intros s2 u E. destruct s2 as [|d s2]; [injection E as -> _; discriminate|]. injection E as -> ->. now exists s2. }
      destruct v as [|d v].
      { injection EV as -> ->. split; [discriminate|]. intros (s2 & u & _ & E & _). apply SPL in E. destruct E as (s' & _ & E). destruct s'; discriminate. }
      injection EV as -> ->. rewrite IH by now exists v. split.
      * intros (s2 & u & A & -> & X & Y). exists (d :: s2), u. repeat split; auto. now constructor.
      * intros (s2 & u & A & E & X & Y). apply SPL in E. destruct E as (s' & -> & ->). exists s', u. repeat split; auto. now apply Forall_inv_tail in A.
    + destruct (starts (zs "line") (c :: t)) eqn:ST.
      * apply starts_iff in ST. destruct ST as (u & E). rewrite E. change (skipn 4 (zs "line" ++ u)) with u.
        assert (E' : t = skipn 1 (zs "line") ++ u) by (injection E; auto).
        assert (U : forall s2 u', c :: t = s2 ++ zs "line" ++ u' -> blanks s2 -> u' = u).
        { intros s2 u' X B. destruct s2 as [|d s2]; [rewrite E in X; now injection X|]. injection X as <- _. apply Forall_inv in B. congruence. }
        destruct u as [|d u]. { exfalso. rewrite EV in E. apply (f_equal (@rev Z)) in E. rewrite rev_app_distr in E. discriminate. }
        destruct (isspace d) eqn:SD.
        -- rewrite E'. change (skipn 1 (zs "line") ++ d :: u) with ([105; 110; 101; d]%Z ++ u). rewrite dir_skip by reflexivity. split.
           ++ intros H. exists [], (d :: u). repeat split; [constructor| |exact SD]. cbn [directive]. now rewrite SD.
           ++ intros (s2 & u' & A & X & Y & Z0). rewrite <- E in X. apply U in X; [|exact A]. subst u'. cbn [directive] in Y. now rewrite SD in Y.
        -- split; [discriminate|]. intros (s2 & u' & A & X & Y & Z0). rewrite <- E in X. apply U in X; [|exact A]. subst u'. congruence.
      * split; [discriminate|]. intros (s2 & u & A & X & Y & Z0). destruct s2 as [|d s2].
        -- cbn [app] in X. rewrite X in ST. change (starts (zs "line") (zs "line" ++ u) = false) in ST. rewrite starts_app in ST. discriminate.
        -- injection X as <- _. apply Forall_inv in A. congruence.
Qed.

Lemma dir_spc1 : forall t, (exists u, t = u ++ [10%Z]) -> directive 0 ldSPC1 t = true <-> exists s1 u, blanks s1 /\ t = s1 ++ 35%Z :: u /\ directive 0 ldSPC2 u = true.
Proof.
  induction t as [|c t IH]; intros (v & EV).
  - destruct v; discriminate.
  - cbn [directive]. destruct (isspace c) eqn:SP.
    + destruct v as [|d v].
      { injection EV as -> ->. split; [discriminate|]. intros (s1 & u & _ & E & _). destruct s1 as [|d s1]; [discriminate|]. injection E as _ E. destruct s1; discriminate. }
      injection EV as -> ->. rewrite IH by now exists v. split.
      * intros (s1 & u & A & -> & X). exists (d :: s1), u. repeat split; auto. now constructor.
      * intros (s1 & u & A & E & X). destruct s1 as [|e s1]; [injection E as -> _; discriminate|]. injection E as -> ->. exists s1, u. repeat split; auto. now apply Forall_inv_tail in A.
    + destruct (Z.eqb_spec c 35) as [->|N].
      * split; [intros H; exists [], t; repeat split; [constructor|exact H]|]. intros (s1 & u & A & E & X). destruct s1 as [|d s1]; [injection E as ->; exact X|]. injection E as <- _. apply Forall_inv in A. discriminate.
      * split; [discriminate|]. intros (s1 & u & A & E & X). destruct s1 as [|d s1]; [injection E as -> _; now destruct N|]. injection E as <- _. apply Forall_inv in A. congruence.
Qed.

(** get_line() leaves out exactly the lines that are directives with a number and a file name. *)
Theorem C69_directive : forall l, directive 0 ldSPC1 (l ++ [10%Z]) = true <-> line_directive (l ++ [10%Z]).
Proof.
  intros l. rewrite dir_spc1 by now exists l. unfold line_directive. split.
  - intros (s1 & u & A & E & X). assert (U : exists v, u = v ++ [10%Z]).
    { destruct (exists_last (l := u)) as (v & x & ->); [intros ->; apply (f_equal (@rev Z)) in E; rewrite !rev_app_distr in E; discriminate|]. exists v. f_equal. f_equal. change (35%Z :: v ++ [x]) with ((35%Z :: v) ++ [x]) in E. rewrite app_assoc in E. apply app_inj_tail in E. now destruct E. }
    apply dir_spc2 in X; [|exact U]. destruct X as (s2 & w & B & -> & C & D). apply dir_spc3 in C. destruct C as (s3 & ds & s & f & r & X0 & X1 & X2 & X3 & X4 & X5 & X6 & ->).
    exists s1, s2, s3, ds, s, f, r. repeat split; auto. intros ->. destruct ds as [|d ds]; [easy|]. cbn [app] in D. apply Forall_inv in X1. rewrite (digit_space _ X1) in D. discriminate.
  - intros (s1 & s2 & s3 & ds & s4 & f & r & A1 & A2 & A3 & A3' & A4 & A4' & A5 & A5' & A6 & A7 & E). exists s1, (s2 ++ zs "line" ++ s3 ++ ds ++ s4 ++ 34%Z :: f ++ 34%Z :: r).
    split; [exact A1|]. split; [exact E|]. apply dir_spc2.
    + set (u := s2 ++ _) in *. destruct (exists_last (l := u)) as (v & x & Ev); [unfold u; destruct s2; discriminate|]. exists v. rewrite Ev in *. f_equal. f_equal. change (35%Z :: v ++ [x]) with ((35%Z :: v) ++ [x]) in E. rewrite app_assoc in E. apply app_inj_tail in E. now destruct E.
    + exists s2, (s3 ++ ds ++ s4 ++ 34%Z :: f ++ 34%Z :: r). split; [exact A2|]. split; [reflexivity|]. split.
      * apply dir_spc3. exists s3, ds, s4, f, r. repeat split; auto.
      * destruct s3 as [|c s3]; [easy|]. cbn [app]. now apply Forall_inv in A3.
Qed.
Print Assumptions C69_directive.

(** A file without directives is read as it is, with a newline at its end. *)
Theorem C69_input : forall t, (forall l a b, a ++ l ++ [10%Z] ++ b = t ++ [10%Z] -> ~ In 10%Z l -> ~ line_directive (l ++ [10%Z])) ->
  input t = t ++ match rev t with [] => [] | c :: _ => if (c =? 10)%Z then [] else [10%Z] end.
Proof.
  intros t H. unfold input.
  assert (A : forall t cur, ~ In 10%Z cur -> concat (file_lines cur t) = cur ++ t ++ match rev (cur ++ t) with [] => [] | c :: _ => if (c =? 10)%Z then [] else [10%Z] end).
  { clear. induction t as [|c t IH]; intros cur N.
    - rewrite app_nil_r. destruct (rev cur) as [|e r] eqn:R; [apply (f_equal (@rev Z)) in R; rewrite rev_involutive in R; subst; reflexivity|].
      assert (X : file_lines cur [] = [cur ++ [10%Z]]) by (destruct cur; [discriminate|reflexivity]). rewrite X. cbn [concat]. rewrite app_nil_r. f_equal.
      destruct (Z.eqb_spec e 10) as [->|]; [|reflexivity]. exfalso. apply N. apply in_rev. rewrite R. now left.
    - cbn [file_lines]. destruct (Z.eqb_spec c 10) as [->|NC].
      + cbn [concat]. rewrite IH by (intros []). cbn [app]. rewrite <- app_assoc. cbn [app]. f_equal. f_equal. f_equal. replace (rev (cur ++ 10%Z :: t)) with (rev t ++ 10%Z :: rev cur) by (rewrite rev_app_distr; cbn [rev]; now rewrite <- app_assoc).
        destruct (rev t); reflexivity.
      + rewrite IH by (intros X; apply in_app_or in X as [X|[X|[]]]; congruence). rewrite <- !app_assoc. reflexivity. }
  assert (B : forall t0 cur a, (forall l, In l (file_lines cur t0) -> ~ line_directive l) -> filter (fun l => negb (directive 0 ldSPC1 l)) (a ++ file_lines cur t0) = filter (fun l => negb (directive 0 ldSPC1 l)) a ++ file_lines cur t0).
  { clear. intros t0 cur a X. rewrite filter_app. f_equal. assert (Y : forall l, In l (file_lines cur t0) -> exists m, l = m ++ [10%Z]).
    { clear. revert cur. induction t0 as [|c t IH]; intros cur l I; cbn [file_lines] in I; [destruct cur; [destruct I|]; destruct I as [<- |[]]; eexists; reflexivity|]. destruct (c =? 10)%Z; [destruct I as [<- |I]; [eexists; reflexivity|]|]; eapply IH; eauto. }
    induction (file_lines cur t0) as [|l ls IH]; [reflexivity|]. cbn [filter]. destruct (Y l (or_introl eq_refl)) as (m & ->). destruct (directive 0 ldSPC1 (m ++ [10%Z])) eqn:E; [exfalso; apply (X _ (or_introl eq_refl)); now apply C69_directive|].
    cbn [negb]. f_equal. apply IH; intros; [apply X|apply Y]; now right. }
  assert (C : forall l, In l (file_lines [] t) -> ~ line_directive l).
  { assert (G : forall t0 cur a, ~ In 10%Z cur -> a ++ cur ++ t0 = t -> forall l, In l (file_lines cur t0) -> ~ line_directive l); [|apply (G t [] []); auto].
    induction t0 as [|c t0 IH]; intros cur a N E l I; cbn [file_lines] in I.
    - assert (I' : In l [cur ++ [10%Z]]) by (destruct cur; [destruct I|exact I]). destruct I' as [<- |[]]. apply (H cur a []); [|exact N]. rewrite <- E, !app_nil_r, <- app_assoc. reflexivity.
    - destruct (Z.eqb_spec c 10) as [->|NC].
      + destruct I as [<- |I].
        * apply (H cur a (t0 ++ [10%Z])); [|exact N]. rewrite <- E, <- !app_assoc. reflexivity.
        * apply (IH [] (a ++ cur ++ [10%Z])) with (l := l); [intros []| |exact I]. rewrite <- E, <- !app_assoc. reflexivity.
      + apply (IH (cur ++ [c]) a) with (l := l); [intros X; apply in_app_or in X as [X|[X|[]]]; congruence| |exact I]. rewrite <- E, <- app_assoc. reflexivity. }
  pose proof (B t [] [] C) as X. cbn [app filter] in X. rewrite X. apply (A t []). intros [].
Qed.
Print Assumptions C69_input.

(** * Symbols, start symbol and rules *)

(** The table of symbols after reading any file that spells F: one entry per symbol, in the order of their first
    occurrence; those with rules are nonterminals and all others tokens, with the code, precedence and tag last
    declared.  The goal is the start symbol, and the rules are those of the file, read as in C46. *)
Theorem C69_file : forall F file, file_text F (input file) -> file_ok F ->
  let L := file_facts F in
  exists s, read_file file = ROk s /\ List.length (d_infos s) = List.length (names L) /\
    (forall n, In n (names L) -> exists b, nth_error (d_infos s) (pos n (names L)) = Some b /\ b_name b = n /\
       (is_lhs L n /\ b_class b = NONTERM \/ ~ is_lhs L n /\ b_class b = TERM) /\
       b_value b = match code_of_sym L n with Some v => v | None => UNDEFINED end /\
       (b_prec b, b_assoc b) = match prec_of_sym L n with Some x => x | None => (0, TOKEN) end /\ b_tag b = tag_of_sym L n) /\
    In (goal_of F) (names L) /\ d_goal s = Some (pos (goal_of F) (names L)) /\
    exists g gs, conv_groups (fun n => pos n (names L)) 0 (f_groups F) = g :: gs /\ read_grammar (gr_lhs g) (source_events g gs) = Ok (d_rules s).
Proof.
  intros F file FT OK L. destruct (file_read F file FT OK) as (s & g & gs & tx & h' & E & ST & CG & RG & GO & IG & _). fold L in E, ST, CG, GO, IG.
  eexists. split; [exact E|]. unfold table. cbn [d_infos set_infos set_syms d_goal d_rules]. split; [now rewrite !map_length|]. split.
  { intros n I. rewrite !nth_error_map, (pos_nth _ _ I). cbn [option_map]. eexists. split; [reflexivity|]. pose proof (fo_lhs _ OK n) as LT. fold L in LT.
    unfold entry. cbn [b_class]. unfold class_of. destruct (lhsb L n) eqn:EL.
    - apply lhsb_iff in EL. specialize (LT EL). destruct (tokenb L n) eqn:ET; [apply tokenb_iff in ET; now destruct LT|]. cbn. repeat split; auto. destruct (prec_of_sym L n) as [(p & a)|]; reflexivity.
    - assert (NL : ~ is_lhs L n) by (intros X; apply lhsb_iff in X; congruence). destruct (tokenb L n); cbn; (repeat split; auto; destruct (prec_of_sym L n) as [(p & a)|]; reflexivity). }
  split; [exact IG|]. split; [exact GO|]. exists g, gs. split; [exact CG|exact RG].
Qed.
Print Assumptions C69_file.

(** * Actions *)

(** The file of the actions: a case per action with the number of its rule and the text of the action, its
    references replaced. *)
Theorem C68_actions : forall F file, file_text F (input file) -> file_ok F ->
  exists s tx, read_file file = ROk s /\ file_actions F = Some tx /\
    let cases := cases_out 1 (flat_map group_rules (conv_groups (fun n => pos n (names (file_facts F))) 0 (f_groups F))) in
    List.length tx = List.length cases /\ d_out s = cases_text cases tx.
Proof.
  intros F file FT OK. destruct (file_read F file FT OK) as (s & g & gs & tx & h' & E & ST & CG & RG & GO & IG & RO & DO & LT).
  eexists. exists tx. split; [exact E|]. split; [unfold file_actions; now rewrite RO|]. cbn zeta. change (fun n : txt => pos n (names (file_facts F))) with (num (file_facts F)). rewrite CG. cbn [flat_map].
  destruct (C46_expansion g gs) as (st & E1 & _ & E2). rewrite E1 in RG. injection RG as ->. rewrite <- E2. split; [exact LT|exact DO].
Qed.
Print Assumptions C68_actions.

(** * An example *)

Definition ex_name (s : string) : fsym := SName (zs s).
Definition ex_file : txt := zs "%token<i>N 300%left'+'%type<i>s%%s:s'+'{x=$<i>1;}N{$$=$1;//*/" ++ [10%Z] ++ zs "}|N|%prec'+'".
Definition ex_F : bfile := mkFile
  [DTokens None (Some (zs "i")) [(ex_name "N", Some 300%Z)]; DTokens (Some LEFT) None [(SLit (zs "+"), None)]; DTypes (Some (zs "i")) [ex_name "s"]]
  [mkF (zs "s")
     [FSym (ex_name "s"); FSym (SLit (zs "+")); FAct [PText (zs "{"); PText (zs "x"); PText (zs "="); PTRef (zs "i") 1; PText (zs ";"); PText (zs "}")]; FSym (ex_name "N");
      FAct [PText (zs "{"); PVal; PText (zs "="); PRef 1; PText (zs ";"); PLine (zs "*/"); PText [10%Z]; PText (zs "}")]]
     [[FSym (ex_name "N")]; [FPrec (SLit (zs "+"))]]].

Ltac chars := repeat (first [exact Logic.I | apply Forall_nil | apply Forall_cons; [first [left; reflexivity | right; left; reflexivity | right; right; left; reflexivity | right; right; right; reflexivity]|]]).
Ltac not_in := cbn; intros H; repeat (destruct H as [H|H]; try discriminate); try contradiction; auto.
Definition visibleb (t : txt) : bool :=
  match t with
  | [] => false
  | c :: r => negb (existsb (Z.eqb c) [32; 9; 12; 13; 11; 44; 59; 10; 255]%Z) && (negb (c =? 47)%Z || match r with d :: _ => negb (d =? 47)%Z && negb (d =? 42)%Z | [] => true end)
  end.
Lemma visible_of : forall t, visibleb t = true -> visible t.
Proof.
  intros [|c r] H; [discriminate|]. cbn [visibleb] in H. rewrite andb_true_iff, negb_true_iff, orb_true_iff, negb_true_iff in H. destruct H as (H1 & H2).
  assert (N : ~ In c [32; 9; 12; 13; 11; 44; 59; 10; 255]%Z). { intros X. assert (Y : existsb (Z.eqb c) [32; 9; 12; 13; 11; 44; 59; 10; 255]%Z = true) by (apply existsb_exists; exists c; split; [exact X|apply Z.eqb_refl]). congruence. }
  split; [intros X; apply N; unfold blank in X; cbn in X |- *; tauto|]. split; [intros ->; apply N; cbn; tauto|]. intros ->. destruct H2 as [H2|H2]; [discriminate|]. destruct r as [|d r]; [exact Logic.I|]. rewrite andb_true_iff, !negb_true_iff, !Z.eqb_neq in H2. tauto.
Qed.
Ltac vis := apply visible_of; reflexivity.

Lemma word_of : forall n, (match n with c :: _ => isalpha c | [] => false end && forallb IS_IDENT n)%bool = true -> word n.
Proof.
  intros n H. rewrite andb_true_iff in H. destruct H as (H1 & H2). split; [destruct n; [discriminate|auto]|].
  apply Forall_forall. intros c I. rewrite forallb_forall in H2. specialize (H2 c I). unfold IS_IDENT in H2. unfold is_ident. rewrite !orb_true_iff, !Z.eqb_eq in H2. tauto.
Qed.
Lemma head_of : forall r, match r with c :: _ => IS_IDENT c | [] => false end = false -> not_head is_ident r.
Proof. intros [|c r] H; [exact Logic.I|]. intros X. unfold is_ident in X. unfold IS_IDENT in H. rewrite !orb_false_iff, !Z.eqb_neq in H. destruct H as (((H1 & H2) & H3) & H4). destruct X as [X|[X|[X|X]]]; congruence. Qed.

Lemma ex_sym : forall s r, (match zs s with c :: _ => isalpha c | [] => false end && forallb IS_IDENT (zs s))%bool = true -> match r with c :: _ => IS_IDENT c | [] => false end = false -> symbol (ex_name s) (zs s ++ r) r.
Proof. intros s r H1 H2. apply S_name; [now apply word_of|now apply head_of]. Qed.
Lemma ex_plus : forall r, symbol (SLit (zs "+")) (zs "'+'" ++ r) r.
Proof. intros r. apply (S_lit 39 (zs "+") (zs "+'") r); [now left| |apply Forall_cons; [vm_compute; split; discriminate|apply Forall_nil]]. apply L_char; [discriminate|discriminate|discriminate|]. apply L_end. Qed.
Lemma ex_num : forall s v r, forallb isdigit (zs s) = true -> zs s <> [] -> match r with c :: _ => isdigit c | [] => false end = false -> v = base 10 (map (fun d => d - 48)%Z (zs s)) -> (v <= 2147483647)%Z -> number_text v (zs s ++ r) r.
Proof.
  intros s v r H1 H2 H3 -> H4. apply N_digits; auto.
  - apply Forall_forall. intros c I. rewrite forallb_forall in H1. apply isdigit_iff. auto.
  - destruct r as [|c r]; [exact Logic.I|]. intros X. apply isdigit_iff in X. congruence.
Qed.
Lemma ex_key : forall ns s r, In (zs s) ns -> match zs s with c :: _ => isalpha c | [] => false end = true -> forallb (fun c => (97 <=? c) && (c <=? 122))%Z (zs s) = true -> match r with c :: _ => (isalnum c || existsb (Z.eqb c) [45; 46; 36; 95])%Z | [] => false end = false -> key_text ns (zs s ++ r) r.
Proof.
  intros ns s r H1 H2 H3 H4. apply (K_key ns (zs s) (zs s) r); auto.
  - clear - H3. induction (zs s) as [|c w IH]; constructor; cbn [forallb] in H3; rewrite !andb_true_iff, !Z.leb_le in H3; [left; split; [lia|now left]|tauto].
  - destruct (zs s) as [|c w]; [discriminate|]. intros ->. discriminate.
  - destruct r as [|c r]; [exact Logic.I|]. rewrite orb_false_iff in H4. destruct H4 as (H4 & H5). intros [X|X]; [congruence|]. assert (Y : existsb (Z.eqb c) [45; 46; 36; 95]%Z = true) by (apply existsb_exists; exists c; split; [exact X|apply Z.eqb_refl]). congruence.
Qed.
Lemma ex_tag : forall r, tag_text (zs "i") (zs "<i>" ++ r) r.
Proof. intros r. apply (T_tag 105 [] [] [] r); [constructor|constructor|left; reflexivity|constructor|]. intros X. unfold is_ident in X. cbn in X. destruct X as [X|[X|[X|X]]]; discriminate. Qed.

Example ex_text : file_text ex_F (input ex_file).
Proof.
  set (t := input ex_file). assert (E : t = ex_file ++ [10%Z]) by (vm_compute; reflexivity). rewrite E. clear t E. unfold ex_file.
  change ((zs "%token<i>N 300%left'+'%type<i>s%%s:s'+'{x=$<i>1;}N{$$=$1;//*/" ++ [10%Z] ++ zs "}|N|%prec'+'") ++ [10%Z])
    with ([] ++ (zs "%token<i>N 300%left'+'%type<i>s%%s:s'+'{x=$<i>1;}N{$$=$1;//*/" ++ [10%Z] ++ zs "}|N|%prec'+'" ++ [10%Z])).
  set (rules := zs "s:s'+'{x=$<i>1;}N{$$=$1;//*/" ++ [10%Z] ++ zs "}|N|%prec'+'" ++ [10%Z]).
  apply FT_file with (p := 37%Z) (q := 37%Z) (g' := []) (u := rules); try (now left); [constructor|vis| |constructor|vis|].
  - eapply DS_cons; [|eapply DS_cons; [|eapply DS_cons; [|apply DS_nil]]].
    + eapply (DT_tokens None (Some (zs "i")) _ 37 _ [] _ _ (zs "%left'+'%type<i>s%%" ++ rules)); [now left|apply TK_token, (ex_key _ "token"); [now left|reflexivity|reflexivity|reflexivity]|constructor|vis| | |].
      * apply (OT_some (zs "i") _ [] (zs "N 300%left'+'%type<i>s%%" ++ rules)); [apply ex_tag|constructor].
      * vis.
      * eapply (TL_value (ex_name "N") 300 [] _ [32%Z] _ [] (zs "%left'+'%type<i>s%%" ++ rules)); [now apply (ex_sym "N")|repeat constructor; cbn; auto|now apply (ex_num "300")|constructor|vis|].
        apply TL_nil; [vis|]. unfold sym_start. cbn. intros [X|X]; [discriminate|lia].
    + eapply (DT_tokens (Some LEFT) None _ 37 _ [] _ _ (zs "%type<i>s%%" ++ rules)); [now left|apply TK_left, (ex_key _ "left"); [now left|reflexivity|reflexivity|reflexivity]|constructor|vis|apply OT_none; discriminate|vis|].
      eapply (TL_plain _ [] _ [] (zs "%type<i>s%%" ++ rules)); [apply ex_plus|constructor|vis|cbn; unfold digit; lia|].
      apply TL_nil; [vis|]. unfold sym_start. cbn. intros [X|X]; [discriminate|lia].
    + eapply (DT_types (Some (zs "i")) _ 37 _ [] _ _ (zs "%%" ++ rules)); [now left|apply (ex_key _ "type"); [now left|reflexivity|reflexivity|reflexivity]|constructor|vis| | |].
      * apply (OT_some (zs "i") _ [] (zs "s%%" ++ rules)); [apply ex_tag|constructor].
      * vis.
      * eapply (YL_cons (ex_name "s") [] _ [] (zs "%%" ++ rules)); [now apply (ex_sym "s")|constructor|vis|discriminate|].
        apply YL_nil; [vis|]. unfold sym_start. cbn. intros [X|X]; [discriminate|lia].
  - eapply RT_cons; [|apply RT_end]. eapply (GT_group _ _ _ _ [] [] _ (zs "|N|%prec'+'" ++ [10%Z])); [now apply (ex_sym "s")|constructor|constructor|right; vis| |].
    + eapply PS_cons. { eapply (PT_sym _ _ [] _); [now apply (ex_sym "s")|constructor|right; vis|cbn; lia]. }
      eapply PS_cons. { eapply (PT_sym _ _ [] _); [apply ex_plus|constructor|right; vis|cbn; lia]. }
      eapply PS_cons. { eapply (PT_act _ (zs "x=$<i>1;}") [] _); [|constructor|right; vis]. 
        apply (A_name 1 120 [] _ (zs "=$<i>1;}")); [left; reflexivity|discriminate|constructor|cbn; intros [X|[X|X]]; discriminate|].
        apply A_char; [intros [X|[X|X]]; discriminate|not_in|]. eapply (A_tref _ (zs "i") 1 _ (zs "1;}") _ (zs ";}")); [apply ex_tag|apply I_pos; apply (ex_num "1"); reflexivity || discriminate || lia|].
        apply A_char; [intros [X|[X|X]]; discriminate|not_in|]. apply A_last. }
      eapply PS_cons. { eapply (PT_sym _ _ [] _); [now apply (ex_sym "N")|constructor|right; vis|cbn; lia]. }
      eapply PS_cons; [|apply PS_nil]. eapply (PT_act _ (zs "$$=$1;//*/" ++ [10%Z] ++ zs "}") [] _); [|constructor|right; vis].
      apply A_val. apply A_char; [intros [X|[X|X]]; discriminate|not_in|]. eapply (A_ref _ 1 _ _ (zs ";//*/" ++ [10%Z] ++ zs "}")); [apply I_pos; apply (ex_num "1"); reflexivity || discriminate || lia|].
      apply A_char; [intros [X|[X|X]]; discriminate|not_in|]. apply (A_line 1 (zs "*/") _ (zs "}")); [not_in|]. apply A_char; [intros [X|[X|X]]; discriminate|not_in|]. apply A_last.
    + apply (AL_cons _ _ [] _ (zs "|%prec'+'" ++ [10%Z])); [constructor|right; vis| |].
      * eapply PS_cons; [|apply PS_nil]. eapply (PT_sym _ _ [] _); [now apply (ex_sym "N")|constructor|right; vis|cbn; lia].
      * apply (AL_cons _ _ [] _ []); [constructor|right; vis| |apply AL_nil]. eapply PS_cons; [|apply PS_nil].
        eapply (PT_prec _ 37 (zs "prec") [] _ [10%Z] []); [now left|repeat constructor|apply head_of; reflexivity|constructor|apply ex_plus|repeat constructor; cbn; tauto|now left].
Qed.

Lemma not_reserved : forall L, forallb (fun n => negb (is_reserved n)) (map fst L) = true -> forall n : txt, In n (map (@fst txt fact) L) -> ~ reserved n.
Proof. intros L H n I R. rewrite forallb_forall in H. specialize (H n I). apply reserved_iff in R. rewrite R in H. discriminate. Qed.

Example ex_ok : file_ok ex_F.
Proof.
  constructor.
  - apply not_reserved. vm_compute. reflexivity.
  - intros n H X. assert (E : n = zs "s"). { vm_compute in H. repeat (destruct H as [H|H]; [injection H as <-; reflexivity || discriminate|]). destruct H. } subst n. destruct X as [X|X]; [discriminate|]. vm_compute in X. repeat (destruct X as [X|X]; [discriminate|]). destruct X.
  - intros a n b E. destruct a as [|d1 [|d2 [|d3 [|d4 a]]]]; discriminate.
  - vm_compute. tauto.
  - vm_compute. discriminate.
  - vm_compute. lia.
  - vm_compute. discriminate.
Qed.

Example ex_read : exists s, read_file ex_file = ROk s /\ map b_name (d_infos s) = [zs "error"; zs "N"; zs "'+'"; zs "s"] /\
  d_out s = zs "case 1:" ++ [10; 9]%Z ++ zs "{x=yystack.l_mark[-1].i;}" ++ [10%Z] ++ zs "break;" ++ [10%Z] ++
            zs "case 2:" ++ [10; 9]%Z ++ zs "{yyval.i=yystack.l_mark[-3].i;/** /*/" ++ [10%Z] ++ zs "}" ++ [10%Z] ++ zs "break;" ++ [10%Z].
Proof. eexists. split; [vm_compute; reflexivity|]. split; vm_compute; reflexivity. Qed.

(** * What does not hold *)

(** The comment above line_directive() also admits a directive without a file name; such a line is not one, and the
    reader stops at it. *)
Theorem C69_directive_refuted : exists ds, Forall digit ds /\ ds <> [] /\ directive 0 ldSPC1 (zs "#line " ++ ds ++ [10%Z]) = false /\
  read_file (zs "%%s:'a'") <> RErr /\ read_file (zs "#line " ++ ds ++ [10%Z] ++ zs "%%s:'a'") = RErr.
Proof.
  exists (zs "5"). split; [apply Forall_cons; [vm_compute; split; discriminate|apply Forall_nil]|]. split; [discriminate|]. split; [reflexivity|]. split; [vm_compute; discriminate|vm_compute; reflexivity].
Qed.
Print Assumptions C69_directive_refuted.

(** %empty ends the rules: mark_symbol() returns 1 for it as for %%, and what follows is ignored without a word. *)
Theorem C69_empty_refuted : exists a b s s', read_file (a ++ zs "%empty;" ++ b) = ROk s /\ read_file (a ++ zs ";" ++ b) = ROk s' /\
  In (zs "t") (map b_name (d_infos s')) /\ ~ In (zs "t") (map b_name (d_infos s)).
Proof.
  exists (zs "%%s:'a'|"), (zs "t:'b'"). eexists. eexists. split; [vm_compute; reflexivity|]. split; [vm_compute; reflexivity|]. split; [vm_compute; tauto|]. vm_compute. intros H. repeat (destruct H as [H|H]; [discriminate|]). destruct H.
Qed.
Print Assumptions C69_empty_refuted.

(** So does the byte 255, which is EOF as a signed char. *)
Theorem C69_byte_refuted : exists a b, b <> [] /\ read_file (a ++ b) = read_file a /\ (exists s, read_file a = ROk s) /\ ~ In 37%Z b.
Proof. exists (zs "%%s:'a'"), (255%Z :: zs "}}"). split; [discriminate|]. split; [vm_compute; reflexivity|]. split; [eexists; vm_compute; reflexivity|]. vm_compute. intros H. repeat (destruct H as [H|H]; [discriminate|]). destruct H. Qed.
Print Assumptions C69_byte_refuted.

(** A literal for the character 0 is a token with the code of the end of the input. *)
Theorem C69_zero_refuted : exists F file s b, file_text F (input file) /\ file_ok F /\ read_file file = ROk s /\ In b (d_infos s) /\ b_class b = TERM /\ b_value b = 0%Z.
Proof.
  exists (mkFile [] [mkF (zs "s") [FSym (SLit [0%Z])] []]), (zs "%%s:'\0'"). eexists. exists (mkB (zs "'\000'") TERM 0 0 TOKEN None). split; [|split; [|split; [vm_compute; reflexivity|split; [vm_compute; tauto|split; reflexivity]]]].
  - set (t := input _). assert (E : t = [] ++ zs "%%" ++ zs "s:'\0'" ++ [10%Z]) by reflexivity. rewrite E. clear t E.
    apply FT_file with (p := 37%Z) (q := 37%Z) (g' := []) (u := zs "s:'\0'" ++ [10%Z]); try (now left); [constructor|vis|constructor|vis|].
    eapply RT_cons; [|apply RT_end]. eapply (GT_group _ _ _ _ [] [] _ []); [now apply (ex_sym "s")|constructor|constructor|right; vis| |apply AL_nil].
    eapply PS_cons; [|apply PS_nil]. eapply (PT_sym _ _ [10%Z] _); [|repeat constructor; cbn; tauto|now left|exact Logic.I].
    apply (S_lit 39 [0%Z] (zs "\0'") [10%Z]); [now left| |apply Forall_cons; [split; discriminate|apply Forall_nil]].
    apply (L_octal 39 (zs "0") [] (zs "'")); [apply Forall_cons; [vm_compute; split; discriminate|apply Forall_nil]|cbn; lia|vm_compute; discriminate|intros _; vm_compute; intros [X _]; now apply X|apply L_end].
  - constructor.
    + apply not_reserved. vm_compute. reflexivity.
    + intros n H X. assert (E : n = zs "s"). { vm_compute in H. repeat (destruct H as [H|H]; [injection H as <-; reflexivity || discriminate|]). destruct H. } subst n. destruct X as [X|X]; [discriminate|]. vm_compute in X. repeat (destruct X as [X|X]; [discriminate|]). destruct X.
    + intros a n b E. destruct a; discriminate.
    + vm_compute. tauto.
    + vm_compute. discriminate.
    + vm_compute. lia.
    + vm_compute. discriminate.
Qed.
Print Assumptions C69_zero_refuted.

(** A reference beyond the symbols of a rule is an error when tags are used, but not if the rule has no symbols. *)
Theorem C68_reference_refuted : exists a b s, read_file (a ++ zs "{$5=1;}") = ROk s /\ read_file (a ++ b ++ zs "{$5=1;}") = RErr.
Proof. exists (zs "%type<i>s%%s:"), (zs "s"). eexists. split; vm_compute; reflexivity. Qed.
Print Assumptions C68_reference_refuted.

(** The tag of $<foo>$ is compared with the name in $foo behind the end of that name. *)
Theorem C68_safe_refuted : exists file, read_file file = RBad.
Proof. exists (zs "%%s:'a'{$foo;$<foo>$=1;}"). vm_compute. reflexivity. Qed.
Print Assumptions C68_safe_refuted.

(** A reference directly behind a name is part of the name. *)
Theorem C68_name_refuted : exists a s, read_file (a ++ zs "x$1;}") = ROk s /\ d_out s = zs "case 1:" ++ [10; 9]%Z ++ zs "{x$1;}" ++ [10%Z] ++ zs "break;" ++ [10%Z].
Proof. exists (zs "%%s:'a'{"). eexists. split; vm_compute; reflexivity. Qed.
Print Assumptions C68_name_refuted.
