(** C28: the boolean expressions of %if, %ifdef and %ifndef. *)
From Coq Require Import List Arith ZArith Bool Lia String Ascii.
Import ListNotations.
From Verif Require Import Base LemonTableModel LemonTableProof LemonPreModel.
Open Scope res_scope.

(** * Expressions *)

Inductive tok : Type := TName (w : list Z) | TNot | TAnd | TOr | TL | TR.

(** A text is a spelling of a list of tokens: blanks anywhere between tokens, none inside; a name is not
    followed by a character that would continue it. *)
Inductive spells : list Z -> list tok -> Prop :=
| sp_nil : spells [] []
| sp_space : forall c s ts, isspace c = true -> spells s ts -> spells (c :: s) ts
| sp_not : forall s ts, spells s ts -> spells (33%Z :: s) (TNot :: ts)
| sp_and : forall s ts, spells s ts -> spells (38%Z :: 38%Z :: s) (TAnd :: ts)
| sp_or : forall s ts, spells s ts -> spells (124%Z :: 124%Z :: s) (TOr :: ts)
| sp_l : forall s ts, spells s ts -> spells (40%Z :: s) (TL :: ts)
| sp_r : forall s ts, spells s ts -> spells (41%Z :: s) (TR :: ts)
| sp_name : forall c w s ts, isalpha c = true -> forallb wordch w = true -> match s with x :: _ => wordch x = false | [] => True end ->
    spells s ts -> spells (c :: w ++ s) (TName (c :: w) :: ts).

(** Expressions as sequences of terms joined by && and ||. *)
Inductive tm : Type := Nm (w : list Z) | Nt (t : tm) | Pr (e : ex)
with ex : Type := One (t : tm) | AndE (t : tm) (e : ex) | OrE (t : tm) (e : ex).

Scheme tm_ind2 := Induction for tm Sort Prop with ex_ind2 := Induction for ex Sort Prop.
Combined Scheme tm_ex_ind from tm_ind2, ex_ind2.

Fixpoint toks_t (t : tm) : list tok :=
  match t with Nm w => [TName w] | Nt t' => TNot :: toks_t t' | Pr e => TL :: toks_e e ++ [TR] end
with toks_e (e : ex) : list tok :=
  match e with One t => toks_t t | AndE t e' => toks_t t ++ TAnd :: toks_e e' | OrE t e' => toks_t t ++ TOr :: toks_e e' end.

Section Val.
Variable defs : list (list Z).

(** The value as in C: && binds tighter than ||; a sequence is a disjunction of conjunctions.
    [acc] is the value of the conjunction read so far. *)
Fixpoint cval_t (t : tm) : bool :=
  match t with
  | Nm w => if in_dec (list_eq_dec Z.eq_dec) w defs then true else false
  | Nt t' => negb (cval_t t')
  | Pr e => cval_acc true e
  end
with cval_acc (acc : bool) (e : ex) : bool :=
  match e with
  | One t => acc && cval_t t
  | AndE t e' => cval_acc (acc && cval_t t) e'
  | OrE t e' => (acc && cval_t t) || cval_acc true e'
  end.

(** The value when both operators have one precedence and associate to the right. *)
Fixpoint rval_t (t : tm) : bool :=
  match t with
  | Nm w => if in_dec (list_eq_dec Z.eq_dec) w defs then true else false
  | Nt t' => negb (rval_t t')
  | Pr e => rval e
  end
with rval (e : ex) : bool :=
  match e with
  | One t => rval_t t
  | AndE t e' => rval_t t && rval e'
  | OrE t e' => rval_t t || rval e'
  end.
End Val.

(** No && stands to the left of a || at the same level. *)
Fixpoint has_or (e : ex) : bool := match e with One _ => false | AndE _ e' => has_or e' | OrE _ _ => true end.
Fixpoint unmixed_t (t : tm) : bool :=
  match t with Nm _ => true | Nt t' => unmixed_t t' | Pr e => unmixed e end
with unmixed (e : ex) : bool :=
  match e with
  | One t => unmixed_t t
  | AndE t e' => unmixed_t t && negb (has_or e') && unmixed e'
  | OrE t e' => unmixed_t t && unmixed e'
  end.

(** * Lemmas *)

Section Eqs.
Variable defs : list (list Z).
Lemma cv_nm : forall w, cval_t defs (Nm w) = if in_dec (list_eq_dec Z.eq_dec) w defs then true else false. Proof. reflexivity. Qed.
Lemma cv_nt : forall t, cval_t defs (Nt t) = negb (cval_t defs t). Proof. reflexivity. Qed.
Lemma cv_pr : forall e, cval_t defs (Pr e) = cval_acc defs true e. Proof. reflexivity. Qed.
Lemma cv_one : forall a t, cval_acc defs a (One t) = a && cval_t defs t. Proof. reflexivity. Qed.
Lemma cv_and : forall a t e, cval_acc defs a (AndE t e) = cval_acc defs (a && cval_t defs t) e. Proof. reflexivity. Qed.
Lemma cv_or : forall a t e, cval_acc defs a (OrE t e) = (a && cval_t defs t) || cval_acc defs true e. Proof. reflexivity. Qed.
Lemma rv_nm : forall w, rval_t defs (Nm w) = if in_dec (list_eq_dec Z.eq_dec) w defs then true else false. Proof. reflexivity. Qed.
Lemma rv_nt : forall t, rval_t defs (Nt t) = negb (rval_t defs t). Proof. reflexivity. Qed.
Lemma rv_pr : forall e, rval_t defs (Pr e) = rval defs e. Proof. reflexivity. Qed.
Lemma rv_one : forall t, rval defs (One t) = rval_t defs t. Proof. reflexivity. Qed.
Lemma rv_and : forall t e, rval defs (AndE t e) = rval_t defs t && rval defs e. Proof. reflexivity. Qed.
Lemma rv_or : forall t e, rval defs (OrE t e) = rval_t defs t || rval defs e. Proof. reflexivity. Qed.
End Eqs.
Lemma um_nt : forall t, unmixed_t (Nt t) = unmixed_t t. Proof. reflexivity. Qed.
Lemma um_pr : forall e, unmixed_t (Pr e) = unmixed e. Proof. reflexivity. Qed.
Lemma um_one : forall t, unmixed (One t) = unmixed_t t. Proof. reflexivity. Qed.
Lemma um_and : forall t e, unmixed (AndE t e) = unmixed_t t && negb (has_or e) && unmixed e. Proof. reflexivity. Qed.
Lemma um_or : forall t e, unmixed (OrE t e) = unmixed_t t && unmixed e. Proof. reflexivity. Qed.
Lemma tk_nt : forall t, toks_t (Nt t) = TNot :: toks_t t. Proof. reflexivity. Qed.
Lemma tk_pr : forall e, toks_t (Pr e) = TL :: toks_e e ++ [TR]. Proof. reflexivity. Qed.
Lemma tk_one : forall t, toks_e (One t) = toks_t t. Proof. reflexivity. Qed.
Lemma tk_and : forall t e, toks_e (AndE t e) = toks_t t ++ TAnd :: toks_e e. Proof. reflexivity. Qed.
Lemma tk_or : forall t e, toks_e (OrE t e) = toks_t t ++ TOr :: toks_e e. Proof. reflexivity. Qed.
Global Hint Rewrite cv_nm cv_nt cv_pr cv_one cv_and cv_or rv_nm rv_nt rv_pr rv_one rv_and rv_or um_nt um_pr um_one um_and um_or tk_nt tk_pr tk_one tk_and tk_or : vals.

Lemma cval_rval : forall defs,
  (forall t, unmixed_t t = true -> cval_t defs t = rval_t defs t) /\
  (forall e, unmixed e = true -> (forall acc, has_or e = false -> cval_acc defs acc e = acc && rval defs e) /\ cval_acc defs true e = rval defs e).
Proof.
  intros defs. apply tm_ex_ind; autorewrite with vals; cbn [has_or].
  - intros w U. autorewrite with vals. reflexivity.
  - intros t IH U. autorewrite with vals in *. now rewrite IH.
  - intros e IH U. autorewrite with vals in *. now apply IH.
  - intros t IH U. autorewrite with vals in *. split; [intros acc _; autorewrite with vals; now rewrite IH|now rewrite IH].
  - intros t IHt e IHe U. autorewrite with vals in *. apply andb_true_iff in U as (U & U3). apply andb_true_iff in U as (U1 & U2). apply negb_true_iff in U2.
    destruct (IHe U3) as (A & B). rewrite (IHt U1). split.
    + intros acc _. autorewrite with vals. rewrite IHt by exact U1. rewrite A by exact U2. now rewrite andb_assoc.
    + cbn [andb]. now rewrite A.
  - intros t IHt e IHe U. autorewrite with vals in *. apply andb_true_iff in U as (U1 & U3). destruct (IHe U3) as (A & B). rewrite (IHt U1), B. split; [discriminate|reflexivity].
Qed.

Definition word_end (s : list Z) : Prop := match s with x :: _ => wordch x = false | [] => True end.
Lemma word_app : forall w s, forallb wordch w = true -> match s with x :: _ => wordch x = false | [] => True end -> word (w ++ s) = (w, s).
Proof.
  induction w as [|c w IH]; intros s F E; cbn [app].
  - destruct s as [|x s]; [reflexivity|]. cbn [word]. now rewrite E.
  - cbn [forallb] in F. apply andb_true_iff in F as (F1 & F2). cbn [word]. rewrite F1, (IH s F2 E). reflexivity.
Qed.

Lemma wordch_facts : forall c, wordch c = true -> isspace c = false /\ (c =? 33)%Z = false /\ (c =? 124)%Z = false /\ (c =? 38)%Z = false /\ (c =? 40)%Z = false /\ (c =? 41)%Z = false.
Proof.
  intros c H. unfold wordch, isalnum, isalpha, isspace in *.
  rewrite !orb_true_iff, !andb_true_iff, !Z.leb_le, Z.eqb_eq in H. rewrite orb_false_iff, andb_false_iff, !Z.eqb_neq, !Z.leb_gt. lia.
Qed.

Lemma alpha_word : forall c, isalpha c = true -> wordch c = true.
Proof. intros c H. unfold wordch, isalnum. now rewrite H. Qed.

Lemma space_facts : forall c, isspace c = true -> (c =? 40)%Z = false /\ (c =? 41)%Z = false.
Proof. intros c H. unfold isspace in H. rewrite orb_true_iff, andb_true_iff, !Z.leb_le, Z.eqb_eq in H. rewrite !Z.eqb_neq. lia. Qed.

(** The search for the closing parenthesis on tokens. *)
Fixpoint match_tok (n : nat) (ts : list tok) : option (list tok * list tok) :=
  match ts with
  | [] => None
  | TR :: r => match n with 1 => Some ([], r) | _ => match match_tok (n - 1) r with Some (a, b) => Some (TR :: a, b) | None => None end end
  | TL :: r => match match_tok (S n) r with Some (a, b) => Some (TL :: a, b) | None => None end
  | t :: r => match match_tok n r with Some (a, b) => Some (t :: a, b) | None => None end
  end.

Lemma match_paren_word : forall w n s, forallb wordch w = true ->
  match_paren n (w ++ s) = match match_paren n s with Some (a, b) => Some (w ++ a, b) | None => None end.
Proof.
  induction w as [|c w IH]; intros n s F; cbn [app]; [destruct (match_paren n s) as [(a & b)|]; reflexivity|].
  cbn [forallb] in F. apply andb_true_iff in F as (F1 & F2). destruct (wordch_facts c F1) as (_ & _ & _ & _ & E1 & E2).
  cbn [match_paren]. rewrite E1, E2, (IH n s F2). destruct (match_paren n s) as [(a & b)|]; reflexivity.
Qed.

Lemma match_spells : forall s ts, spells s ts -> forall n, 1 <= n ->
  match match_tok n ts with
  | Some (ta, tb) => exists a b, match_paren n s = Some (a, b) /\ spells a ta /\ spells b tb /\ word_end s = word_end s /\ (match s with x :: _ => match a with y :: _ => y = x | [] => x = 41%Z end | [] => False end)
  | None => True
  end.
Proof.
  induction 1 as [|c s ts C H IH|s ts H IH|s ts H IH|s ts H IH|s ts H IH|s ts H IH|c w s ts C W E H IH]; intros n L; cbn [match_tok]; auto.
  - specialize (IH n L). destruct (match_tok n ts) as [(ta & tb)|]; [|exact I]. destruct IH as (a & b & M & A & B & _ & _).
    destruct (space_facts c C) as (E1 & E2). exists (c :: a), b. cbn [match_paren]. rewrite E1, E2, M. split; [reflexivity|]. split; [now constructor|]. auto.
  - specialize (IH n L). destruct (match_tok n ts) as [(ta & tb)|]; [|exact I]. destruct IH as (a & b & M & A & B & _ & _).
    exists (33%Z :: a), b. cbn [match_paren Z.eqb Pos.eqb]. rewrite M. split; [reflexivity|]. split; [now constructor|]. auto.
  - specialize (IH n L). destruct (match_tok n ts) as [(ta & tb)|]; [|exact I]. destruct IH as (a & b & M & A & B & _ & _).
    exists (38%Z :: 38%Z :: a), b. cbn [match_paren Z.eqb Pos.eqb]. rewrite M. split; [reflexivity|]. split; [now constructor|]. auto.
  - specialize (IH n L). destruct (match_tok n ts) as [(ta & tb)|]; [|exact I]. destruct IH as (a & b & M & A & B & _ & _).
    exists (124%Z :: 124%Z :: a), b. cbn [match_paren Z.eqb Pos.eqb]. rewrite M. split; [reflexivity|]. split; [now constructor|]. auto.
  - specialize (IH (S n) ltac:(lia)). destruct (match_tok (S n) ts) as [(ta & tb)|]; [|exact I]. destruct IH as (a & b & M & A & B & _ & _).
    exists (40%Z :: a), b. cbn [match_paren Z.eqb Pos.eqb]. rewrite M. split; [reflexivity|]. split; [now constructor|]. auto.
  - destruct n as [|[|n]]; [lia| |].
    + exists [], s. cbn [match_paren Z.eqb Pos.eqb]. split; [reflexivity|]. split; [constructor|]. auto.
    + specialize (IH (S n) ltac:(lia)). replace (S (S n) - 1) with (S n) by lia. destruct (match_tok (S n) ts) as [(ta & tb)|]; [|exact I]. destruct IH as (a & b & M & A & B & _ & _).
      exists (41%Z :: a), b. cbn [match_paren Z.eqb Pos.eqb]. replace (S (S n) - 1) with (S n) by lia. rewrite M. split; [reflexivity|]. split; [now constructor|]. auto.
  - specialize (IH n L). destruct (match_tok n ts) as [(ta & tb)|]; [|exact I]. destruct IH as (a & b & M & A & B & _ & F).
    destruct (wordch_facts c (alpha_word c C)) as (_ & _ & _ & _ & E1 & E2).
    exists (c :: w ++ a), b. cbn [match_paren]. rewrite E1, E2, (match_paren_word w n s W), M. split; [reflexivity|]. split; [|auto]. apply sp_name; auto.
    destruct a as [|y a]; [exact I|]. destruct s as [|x s]; [destruct F|]. subst y. exact E.
Qed.

Lemma match_tok_app :
  (forall t n r, 1 <= n -> match_tok n (toks_t t ++ r) = match match_tok n r with Some (a, b) => Some (toks_t t ++ a, b) | None => None end) /\
  (forall e n r, 1 <= n -> match_tok n (toks_e e ++ r) = match match_tok n r with Some (a, b) => Some (toks_e e ++ a, b) | None => None end).
Proof.
  apply tm_ex_ind.
  - intros w n r L. autorewrite with vals. reflexivity.
  - intros t IH n r L. autorewrite with vals. cbn [app match_tok]. rewrite IH by exact L. destruct (match_tok n r) as [(a & b)|]; reflexivity.
  - intros e IH n r L. autorewrite with vals. cbn [app match_tok]. rewrite <- app_assoc. rewrite IH by lia. cbn [app match_tok].
    destruct n as [|n]; [lia|]. replace (S (S n) - 1) with (S n) by lia. destruct (match_tok (S n) r) as [(a & b)|]; [|reflexivity]. now rewrite <- app_assoc.
  - intros t IH n r L. autorewrite with vals. now apply IH.
  - intros t IHt e IHe n r L. autorewrite with vals. rewrite <- app_assoc. cbn [app]. rewrite IHt by exact L. cbn [match_tok]. rewrite IHe by exact L. destruct (match_tok n r) as [(a & b)|]; [|reflexivity]. now rewrite <- app_assoc.
  - intros t IHt e IHe n r L. autorewrite with vals. rewrite <- app_assoc. cbn [app]. rewrite IHt by exact L. cbn [match_tok]. rewrite IHe by exact L. destruct (match_tok n r) as [(a & b)|]; [|reflexivity]. now rewrite <- app_assoc.
Qed.

Lemma match_paren_len : forall z n a b, match_paren n z = Some (a, b) -> List.length z = S (List.length a + List.length b).
Proof.
  induction z as [|c z IH]; intros n a b M; [discriminate|]. cbn [match_paren] in M. destruct (c =? 41)%Z.
  - destruct n as [|[|n]].
    + destruct (match_paren (0 - 1) z) as [(a' & b')|] eqn:E; [|discriminate]. inversion M; subst. apply IH in E. cbn. lia.
    + inversion M; subst. cbn. lia.
    + destruct (match_paren (S (S n) - 1) z) as [(a' & b')|] eqn:E; [|discriminate]. inversion M; subst. apply IH in E. cbn. lia.
  - destruct (match_paren _ z) as [(a' & b')|] eqn:E; [|discriminate]. inversion M; subst. apply IH in E. cbn. lia.
Qed.

(** Skip the blanks before the next token. *)
Lemma skip_blanks : forall s ts, spells s ts -> forall defs fuel i neg r ok, List.length s < fuel ->
  exists s' fuel' i', spells s' ts /\ List.length s' < fuel' /\ pp_loop fuel defs s i neg r ok = pp_loop fuel' defs s' i' neg r ok /\
    match s' with x :: _ => isspace x = false | [] => ts = [] end.
Proof.
  induction 1 as [|c s ts C H IH|s ts H IH|s ts H IH|s ts H IH|s ts H IH|s ts H IH|c w s ts C W E H IH]; intros defs fuel i neg r ok L.
  - exists [], fuel, i. split; [constructor|]. auto.
  - destruct fuel as [|fuel]; [lia|]. cbn [List.length] in L. destruct (IH defs fuel (i + 1)%Z neg r ok ltac:(lia)) as (s' & f' & i' & A & B & D & F). exists s', f', i'.
    split; [exact A|]. split; [exact B|]. split; [|exact F]. cbn [pp_loop]. now rewrite C.
  - exists (33%Z :: s), fuel, i. split; [now constructor|]. auto.
  - exists (38%Z :: 38%Z :: s), fuel, i. split; [now constructor|]. auto.
  - exists (124%Z :: 124%Z :: s), fuel, i. split; [now constructor|]. auto.
  - exists (40%Z :: s), fuel, i. split; [now constructor|]. auto.
  - exists (41%Z :: s), fuel, i. split; [now constructor|]. auto.
  - exists (c :: w ++ s), fuel, i. split; [now constructor|]. split; [exact L|]. split; [reflexivity|]. apply wordch_facts, alpha_word, C.
Qed.

Lemma defs_ok : forall defs w, existsb (streq w) defs = if in_dec (list_eq_dec Z.eq_dec) w defs then true else false.
Proof.
  intros defs w. destruct (in_dec _ w defs) as [I|N].
  - apply existsb_exists. exists w. split; [exact I|]. now apply streq_ok.
  - destruct (existsb _ _) eqn:E; [|reflexivity]. apply existsb_exists in E as (x & I & Q). apply streq_ok in Q. subst x. contradiction.
Qed.

Lemma eval_terms : forall defs,
  (forall t s rest fuel i neg r, spells s (toks_t t ++ rest) -> List.length s < fuel ->
     exists s' fuel' i', spells s' rest /\ List.length s' < fuel' /\ pp_loop fuel defs s i neg r true = pp_loop fuel' defs s' i' false (xorb neg (rval_t defs t)) false) /\
  (forall e s fuel i r, spells s (toks_e e) -> List.length s < fuel -> pp_loop fuel defs s i false r true = Ok (if rval defs e then 1 else 0)%Z).
Proof.
  intros defs. apply tm_ex_ind.
  - intros w s rest fuel i neg r SP L. autorewrite with vals in *. cbn [app] in SP. destruct (skip_blanks _ _ SP defs fuel i neg r true L) as (s1 & f1 & i1 & A1 & L1 & E1 & F1).
    rewrite E1. inversion A1; subst; [congruence|]. destruct f1 as [|f1]; [lia|].
    destruct (wordch_facts c (alpha_word c H1)) as (W1 & W2 & W3 & W4 & W5 & W6).
    exists s0, f1. eexists. split; [assumption|]. split; [cbn [List.length] in L1; rewrite app_length in L1; lia|].
    cbn [pp_loop starts]. rewrite W1, W2, W5, H1. rewrite (Z.eqb_sym 124 c), (Z.eqb_sym 38 c), W3, W4. cbn [andb]. rewrite (word_app w0 s0 H2 H4). rewrite defs_ok. reflexivity.
  - intros t IH s rest fuel i neg r SP L. autorewrite with vals in *. cbn [app] in SP. destruct (skip_blanks _ _ SP defs fuel i neg r true L) as (s1 & f1 & i1 & A1 & L1 & E1 & F1).
    rewrite E1. inversion A1; subst; [congruence|]. destruct f1 as [|f1]; [lia|]. cbn [List.length] in L1.
    destruct (IH s0 rest f1 (i1 + 1)%Z (negb neg) r H1 ltac:(lia)) as (s2 & f2 & i2 & A2 & L2 & E2). exists s2, f2, i2. split; [exact A2|]. split; [exact L2|].
    cbn [pp_loop isspace Z.eqb Pos.eqb orb Z.leb Z.compare Pos.compare Pos.compare_cont andb]. rewrite E2. f_equal. destruct neg, (rval_t defs t); reflexivity.
  - intros e IH s rest fuel i neg r SP L. autorewrite with vals in *. cbn [app] in SP. rewrite <- app_assoc in SP. cbn [app] in SP. destruct (skip_blanks _ _ SP defs fuel i neg r true L) as (s1 & f1 & i1 & A1 & L1 & E1 & F1).
    rewrite E1. inversion A1; subst; [congruence|]. destruct f1 as [|f1]; [lia|]. cbn [List.length] in L1.
    pose proof (match_spells _ _ H1 1 ltac:(lia)) as M. rewrite (proj2 match_tok_app) in M by lia. cbn [match_tok] in M. rewrite app_nil_r in M.
    destruct M as (a & b & M & SA & SB & _ & _). pose proof (match_paren_len _ _ _ _ M) as ML.
    exists b, f1. eexists. split; [exact SB|]. split; [lia|].
    cbn [pp_loop isspace Z.eqb Pos.eqb orb Z.leb Z.compare Pos.compare Pos.compare_cont andb starts]. rewrite M.
    rewrite (IH a f1 0%Z false SA ltac:(lia)). cbn [bind]. destruct (rval defs e); cbn [Z.ltb Z.compare Z.eqb negb]; reflexivity.
  - intros t IH s fuel i r SP L. autorewrite with vals in *. rewrite <- (app_nil_r (toks_t t)) in SP. destruct (IH _ _ _ i false r SP L) as (s1 & f1 & i1 & A1 & L1 & E1). rewrite E1. replace (xorb false (rval_t defs t)) with (rval_t defs t) by (destruct (rval_t defs t); reflexivity).
    destruct (skip_blanks _ _ A1 defs f1 i1 false (rval_t defs t) false L1) as (s2 & f2 & i2 & A2 & L2 & E2 & F2). rewrite E2. destruct f2 as [|f2]; [lia|].
    inversion A2; subst; [reflexivity|congruence].
  - intros t IHt e IHe s fuel i r SP L. autorewrite with vals in *. destruct (IHt _ _ _ i false r SP L) as (s1 & f1 & i1 & A1 & L1 & E1). rewrite E1. replace (xorb false (rval_t defs t)) with (rval_t defs t) by (destruct (rval_t defs t); reflexivity).
    destruct (skip_blanks _ _ A1 defs f1 i1 false (rval_t defs t) false L1) as (s2 & f2 & i2 & A2 & L2 & E2 & F2). rewrite E2. destruct f2 as [|f2]; [lia|].
    inversion A2; subst; [congruence|]. cbn [pp_loop isspace Z.eqb Pos.eqb orb Z.leb Z.compare Pos.compare Pos.compare_cont andb starts].
    destruct (rval_t defs t); cbn [negb andb]; [|reflexivity]. cbn [tl]. apply IHe; [assumption|]. cbn [List.length] in L2. lia.
  - intros t IHt e IHe s fuel i r SP L. autorewrite with vals in *. destruct (IHt _ _ _ i false r SP L) as (s1 & f1 & i1 & A1 & L1 & E1). rewrite E1. replace (xorb false (rval_t defs t)) with (rval_t defs t) by (destruct (rval_t defs t); reflexivity).
    destruct (skip_blanks _ _ A1 defs f1 i1 false (rval_t defs t) false L1) as (s2 & f2 & i2 & A2 & L2 & E2 & F2). rewrite E2. destruct f2 as [|f2]; [lia|].
    inversion A2; subst; [congruence|]. cbn [pp_loop isspace Z.eqb Pos.eqb orb Z.leb Z.compare Pos.compare Pos.compare_cont andb starts].
    destruct (rval_t defs t); cbn [negb orb]; [reflexivity|]. cbn [tl]. apply IHe; [assumption|]. cbn [List.length] in L2. lia.
Qed.

(** * Theorems *)

(** Every spelling of every expression is accepted; its value is the one with && and || of equal
    precedence, associating to the right. *)
Theorem C28_right_value : forall defs e s, spells s (toks_e e) -> eval_pp defs s = Ok (if rval defs e then 1 else 0)%Z.
Proof. intros defs e s SP. apply eval_terms; [exact SP|lia]. Qed.

(** When no && stands to the left of a || at the same level, this is the value as in C. *)
Theorem C28_value_partial : forall defs e s, spells s (toks_e e) -> unmixed e = true ->
  eval_pp defs s = Ok (if cval_acc defs true e then 1 else 0)%Z.
Proof. intros defs e s SP U. rewrite (C28_right_value defs e s SP). now rewrite (proj2 (proj2 (cval_rval defs) e U)). Qed.

Example C28_example : exists e, spells (zs " A||!(B && !A) && A ") (toks_e e) /\ unmixed e = true /\ cval_acc [zs "B"] true e = false.
Proof.
  exists (OrE (Nm (zs "A")) (AndE (Nt (Pr (AndE (Nm (zs "B")) (One (Nt (Nm (zs "A"))))))) (One (Nm (zs "A"))))).
  split; [|split; vm_compute; reflexivity].
  assert (NM : forall c s ts, isalpha c = true -> match s with x :: _ => wordch x = false | [] => True end -> spells s ts -> spells (c :: s) (TName [c] :: ts)).
  { intros c s ts A W SP. apply (sp_name c [] s ts A eq_refl W SP). }
  cbn [toks_e toks_t app].
  repeat first [apply sp_nil | apply sp_space; [reflexivity|] | apply sp_not | apply sp_and | apply sp_or | apply sp_l | apply sp_r | apply NM; [reflexivity|reflexivity|]].
Qed.

(** With && to the left of || the value differs from C: B && B || A with only A defined. *)
Theorem C28_precedence_refuted : exists defs e s, spells s (toks_e e) /\ cval_acc defs true e = true /\ eval_pp defs s = Ok 0%Z.
Proof.
  exists [zs "A"], (AndE (Nm (zs "B")) (OrE (Nm (zs "B")) (One (Nm (zs "A"))))), (zs "B&&B||A"). split; [|split; vm_compute; reflexivity].
  assert (NM : forall c s ts, isalpha c = true -> match s with x :: _ => wordch x = false | [] => True end -> spells s ts -> spells (c :: s) (TName [c] :: ts)).
  { intros c s ts A W SP. apply (sp_name c [] s ts A eq_refl W SP). }
  repeat first [apply sp_nil | apply NM; [reflexivity|first [reflexivity|exact I]|] | apply sp_and | apply sp_or].
Qed.

Lemma spells_tokens : forall s ts ts', spells s ts -> spells s ts' -> ts = ts'.
Proof.
  intros s ts ts' H. revert ts'. induction H as [|c s ts C H IH|s ts H IH|s ts H IH|s ts H IH|s ts H IH|s ts H IH|c w s ts C W E H IH]; intros ts' H'; inversion H'; subst; try discriminate; auto;
    try (f_equal; auto; fail);
    try match goal with X : isalpha ?c = true, Y : isspace ?c = true |- _ => pose proof (proj1 (wordch_facts _ (alpha_word _ X))); congruence end.
  assert (Q : word (w ++ s) = word (w0 ++ s0)) by congruence. rewrite !word_app in Q by assumption. inversion Q; subst. f_equal. auto.
Qed.

(** Texts that are no expression are accepted: an unclosed parenthesis, a missing operand, garbage
    after an operator that decides the value. *)
Theorem C28_malformed_refuted : exists defs, forall s, In s (map zs ["("; "(||A"; "A &&"; "!"; "A || )"; ""])%string ->
  (forall e, ~ spells s (toks_e e)) /\ exists v, eval_pp defs s = Ok v /\ (0 <= v)%Z.
Proof.
  exists [zs "A"]. intros s I.
  assert (KEY : forall s ts, spells s ts -> (forall e, toks_e e <> ts) -> forall e, ~ spells s (toks_e e)).
  { intros s0 ts SP N e SP'. exact (N e (spells_tokens _ _ _ SP' SP)). }
  assert (BAL : (forall t, exists p, forall r n, 1 <= n -> match_tok n (toks_t t ++ r) = match match_tok n r with Some (a, b) => Some (p ++ a, b) | None => None end) /\ True).
  { split; [|exact Logic.I]. intros t. exists (toks_t t). intros r n L. now apply match_tok_app. }
  assert (ENDR : forall e, match_tok 1 (toks_e e ++ [TR]) = Some (toks_e e, [])).
  { intros e. rewrite (proj2 match_tok_app) by lia. cbn [match_tok]. now rewrite app_nil_r. }
  assert (LASTT : (forall t, exists x l, toks_t t = l ++ [x] /\ (x = TR \/ exists w, x = TName w)) /\ (forall e, exists x l, toks_e e = l ++ [x] /\ (x = TR \/ exists w, x = TName w))).
  { apply tm_ex_ind.
    - intros w. exists (TName w), []. eauto.
    - intros t (x & l & E & X). autorewrite with vals. exists x, (TNot :: l). rewrite E. auto.
    - intros e _. autorewrite with vals. exists TR, (TL :: toks_e e). auto.
    - intros t H. autorewrite with vals. exact H.
    - intros t _ e (x & l & E & X). autorewrite with vals. exists x, (toks_t t ++ TAnd :: l). rewrite E, <- app_assoc. auto.
    - intros t _ e (x & l & E & X). autorewrite with vals. exists x, (toks_t t ++ TOr :: l). rewrite E, <- app_assoc. auto. }
  assert (NM : forall c s ts, isalpha c = true -> match s with x :: _ => wordch x = false | [] => True end -> spells s ts -> spells (c :: s) (TName [c] :: ts)).
  { intros c s0 ts A W SP. apply (sp_name c [] s0 ts A eq_refl W SP). }
  assert (LAST : forall e ts x, toks_e e = ts ++ [x] -> x = TR \/ exists w, x = TName w).
  { intros e ts x E. destruct (proj2 LASTT e) as (y & l & E' & Y). rewrite E in E'. apply app_inj_tail in E' as (_ & ->). exact Y. }
  cbn [map In] in I. destruct I as [<-|[<-|[<-|[<-|[<-|[<-|[]]]]]]].
  - split; [|exists 0%Z; split; [vm_compute; reflexivity|lia]]. apply (KEY _ [TL]); [apply sp_l, sp_nil|]. intros e E. pose proof (ENDR e) as X. rewrite E in X. discriminate.
  - split; [|exists 1%Z; split; [vm_compute; reflexivity|lia]]. apply (KEY _ [TL; TOr; TName (zs "A")]).
    { apply sp_l, sp_or. apply NM; [reflexivity|exact Logic.I|apply sp_nil]. }
    intros e E. pose proof (ENDR e) as X. rewrite E in X. discriminate.
  - split; [|exists 1%Z; split; [vm_compute; reflexivity|lia]]. apply (KEY _ [TName (zs "A"); TAnd]).
    { apply NM; [reflexivity|reflexivity|]. apply sp_space; [reflexivity|]. apply sp_and. apply sp_nil. }
    intros e E. destruct (LAST e [TName (zs "A")] TAnd E) as [X|(w & X)]; discriminate.
  - split; [|exists 0%Z; split; [vm_compute; reflexivity|lia]]. apply (KEY _ [TNot]); [apply sp_not, sp_nil|].
    intros e E. destruct (LAST e [] TNot E) as [X|(w & X)]; discriminate.
  - split; [|exists 1%Z; split; [vm_compute; reflexivity|lia]]. apply (KEY _ [TName (zs "A"); TOr; TR]).
    { apply NM; [reflexivity|reflexivity|]. apply sp_space; [reflexivity|]. apply sp_or. apply sp_space; [reflexivity|]. apply sp_r. apply sp_nil. }
    intros e E. pose proof (ENDR e) as X. rewrite E in X. discriminate.
  - split; [|exists 0%Z; split; [vm_compute; reflexivity|lia]]. apply (KEY _ []); [constructor|].
    intros e E. destruct (proj2 LASTT e) as (y & l & E' & Y). rewrite E in E'. destruct l; discriminate.
Qed.

Print Assumptions C28_right_value.
Print Assumptions C28_value_partial.
Print Assumptions C28_precedence_refuted.
Print Assumptions C28_malformed_refuted.
