(** Lemmas on the scanner of lemon: it recognises exactly the lexical grammar below. *)
From Coq Require Import List Arith ZArith Bool Lia.
Import ListNotations.
From Verif Require Import Base LemonTableModel LemonPreModel LemonReadModel.
Local Open Scope Z_scope.

(** ** The lexical grammar *)

(** The number of newlines. *)
Definition newlines (z : text) : Z := Z.of_nat (count_occ Z.eq_dec z 10).

Definition contains (a z : text) : Prop := exists u v, z = u ++ a ++ v.

(** Does not start with one of the characters [l]. *)
Definition not_next (l : list Z) (z : text) : Prop := forall c r, z = c :: r -> ~ In c l.

(** The inside of a literal that starts with [q]. *)
Inductive literal (q : Z) : text -> Prop :=
| lit_nil : literal q []
| lit_char : forall c a, c <> q -> c <> 92 -> literal q a -> literal q (c :: a)
| lit_esc : forall c a, literal q a -> literal q (92 :: c :: a).

(** The inside of a block of C code: braces are balanced outside comments and literals. *)
Inductive code : text -> Prop :=
| code_nil : code []
| code_char : forall c a, ~ In c [123; 125; 39; 34] -> (c = 47 -> not_next [47; 42] a) -> code a -> code (c :: a)
| code_block : forall a b, code a -> code b -> code (123 :: a ++ 125 :: b)
| code_comment : forall a b, ~ contains [42; 47] a -> code b -> code (47 :: 42 :: a ++ 42 :: 47 :: b)
| code_line : forall a b, ~ In 10 a -> code b -> code (47 :: 47 :: a ++ 10 :: b)
| code_lit : forall q a b, q = 39 \/ q = 34 -> literal q a -> code b -> code (q :: a ++ q :: b).

(** [lexes E line z l]: the text [z], whose first line is number [line], consists of blanks,
    comments and the tokens [l], and a rest described by [E]. *)
Inductive lexes (E : text -> Prop) : Z -> text -> list event -> Prop :=
| lx_end : forall n z, E z -> lexes E n z []
| lx_blank : forall n c z l, isspace c = true -> lexes E (n + newlines [c]) z l -> lexes E n (c :: z) l
| lx_line : forall n a z l, ~ In 10 a -> z = [] \/ (exists z', z = 10 :: z') -> lexes E n z l -> lexes E n (47 :: 47 :: a ++ z) l
| lx_comment : forall n a z l, ~ contains [42; 47] a -> lexes E (n + newlines a) z l -> lexes E n (47 :: 42 :: a ++ 42 :: 47 :: z) l
| lx_string : forall n a z l, ~ In 34 a -> lexes E (n + newlines a) z l -> lexes E n (34 :: a ++ 34 :: z) (EvTok n (34 :: a) :: l)
| lx_code : forall n a z l, code a -> lexes E (n + newlines a) z l -> lexes E n (123 :: a ++ 125 :: z) (EvTok n (123 :: a) :: l)
| lx_word : forall n c a z l, isalnum c = true -> forallb wordch a = true -> (forall d r, z = d :: r -> wordch d = false) -> lexes E n z l ->
    lexes E n (c :: a ++ z) (EvTok n (c :: a) :: l)
| lx_arrow : forall n z l, lexes E n z l -> lexes E n (58 :: 58 :: 61 :: z) (EvTok n [58; 58; 61] :: l)
| lx_alt : forall n b c a z l, b = 47 \/ b = 124 -> isalpha c = true -> forallb wordch a = true -> (forall d r, z = d :: r -> wordch d = false) -> lexes E n z l ->
    lexes E n (b :: c :: a ++ z) (EvTok n (b :: c :: a) :: l)
| lx_char : forall n c z l, isspace c = false -> isalnum c = false -> ~ In c [34; 123] ->
    (c = 47 -> not_next [47; 42] z) -> (c = 47 \/ c = 124 -> forall d r, z = d :: r -> isalpha d = false) -> (c = 58 -> forall r, z <> 58 :: 61 :: r) ->
    lexes E n z l -> lexes E n (c :: z) (EvTok n [c] :: l).

(** A comment or literal that starts here and is not closed before the end of the text. *)
Inductive unclosed : text -> Prop :=
| uc_comment : forall a, ~ contains [42; 47] a -> unclosed (47 :: 42 :: a)
| uc_line : forall a, ~ In 10 a -> unclosed (47 :: 47 :: a)
| uc_lit : forall q a, q = 39 \/ q = 34 -> literal q a -> unclosed (q :: a)
| uc_lit_esc : forall q a, q = 39 \/ q = 34 -> literal q a -> unclosed (q :: a ++ [92]).

(** C code inside [n] open braces of which at least one stays open, and a rest described by [E]. *)
Inductive runs (E : text -> Prop) : nat -> text -> Prop :=
| rn_end : forall n z, E z -> runs E n z
| rn_char : forall n c a, ~ In c [123; 125; 39; 34] -> (c = 47 -> not_next [47; 42] a) -> runs E n a -> runs E n (c :: a)
| rn_open : forall n a, runs E (S n) a -> runs E n (123 :: a)
| rn_close : forall n a, (0 < n)%nat -> runs E n a -> runs E (S n) (125 :: a)
| rn_comment : forall n a b, ~ contains [42; 47] a -> runs E n b -> runs E n (47 :: 42 :: a ++ 42 :: 47 :: b)
| rn_line : forall n a b, ~ In 10 a -> runs E n b -> runs E n (47 :: 47 :: a ++ 10 :: b)
| rn_lit : forall n q a b, q = 39 \/ q = 34 -> literal q a -> runs E n b -> runs E n (q :: a ++ q :: b).

(** The four ways a text can end: after its last token or in a comment between tokens; in a
    string; in a block of C code; in a comment or literal in a block of C code. *)
Definition complete (z : text) : Prop := z = [] \/ exists a, z = 47 :: 42 :: a /\ ~ contains [42; 47] a.
Definition open_string (z : text) : Prop := exists a, z = 34 :: a /\ ~ In 34 a.
Definition open_code (z : text) : Prop := exists a, z = 123 :: a /\ runs (fun r => r = []) 1 a.
Definition overrun (z : text) : Prop := exists a, z = 123 :: a /\ runs unclosed 1 a.

(** ** Code blocks *)
Lemma newlines_cons : forall c z, newlines (c :: z) = newlines [c] + newlines z.
Proof. intros c z. unfold newlines. cbn [count_occ]. destruct (Z.eq_dec c 10); lia. Qed.
Lemma newlines_app : forall a b, newlines (a ++ b) = newlines a + newlines b.
Proof. intros a b. unfold newlines. rewrite count_occ_app. lia. Qed.
Lemma newlines_1 : forall c, newlines [c] = if c =? 10 then 1 else 0.
Proof. intros c. unfold newlines. cbn [count_occ]. destruct (Z.eq_dec c 10) as [->|N]; [reflexivity|]. apply Z.eqb_neq in N. rewrite N. reflexivity. Qed.
Lemma bump_line : forall n c, (if c =? 10 then n + 1 else n) = n + newlines [c].
Proof. intros n c. rewrite newlines_1. destruct (c =? 10); lia. Qed.

(** Code with [n] open braces. *)
Inductive codes : nat -> text -> Prop :=
| cs_nil : codes 1 []
| cs_char : forall n c a, ~ In c [123; 125; 39; 34] -> (c = 47 -> not_next [47; 42] a) -> codes n a -> codes n (c :: a)
| cs_open : forall n a, (0 < n)%nat -> codes (S n) a -> codes n (123 :: a)
| cs_close : forall n a, (0 < n)%nat -> codes n a -> codes (S n) (125 :: a)
| cs_comment : forall n a b, ~ contains [42; 47] a -> codes n b -> codes n (47 :: 42 :: a ++ 42 :: 47 :: b)
| cs_line : forall n a b, ~ In 10 a -> codes n b -> codes n (47 :: 47 :: a ++ 10 :: b)
| cs_lit : forall n q a b, q = 39 \/ q = 34 -> literal q a -> codes n b -> codes n (q :: a ++ q :: b).

Lemma codes_pos : forall n a, codes n a -> (0 < n)%nat.
Proof. induction 1; auto; lia. Qed.

Lemma code_codes : forall a, code a -> forall n b, codes n b -> not_next [47; 42] b -> codes n (a ++ b).
Proof.
  induction 1; intros n b' C N; cbn [app]; auto.
  - constructor; auto. intros E. specialize (H0 E). destruct a as [|d a]; [exact N|]. intros c' r K. inversion K; subst. apply (H0 c' a eq_refl).
  - rewrite <- app_assoc. cbn [app]. apply cs_open; [eapply codes_pos; eauto|]. apply IHcode1.
    + apply cs_close; [eapply codes_pos; eauto|]. apply IHcode2; auto.
    + intros c r K. inversion K; subst. cbn. lia.
  - rewrite <- app_assoc. cbn [app]. apply cs_comment; auto.
  - rewrite <- app_assoc. cbn [app]. apply cs_line; auto.
  - rewrite <- app_assoc. cbn [app]. apply cs_lit; auto.
Qed.

Fixpoint closed (n : nat) (a : text) : Prop :=
  match n with
  | 0%nat => False
  | S 0 => code a
  | S n' => exists u v, a = u ++ 125 :: v /\ code u /\ closed n' v
  end.
Lemma closed_pre : forall p n b, (forall x y, b = x ++ y -> code x -> code (p ++ x)) -> closed n b -> closed n (p ++ b).
Proof.
  intros p n b K C. destruct n as [|[|n]]; [exact C|apply (K b []); [now rewrite app_nil_r|exact C]|].
  destruct C as (u & v & -> & A & B). exists (p ++ u), v. split; [now rewrite <- app_assoc|]. split; [|exact B]. eapply K; eauto.
Qed.
Lemma codes_closed : forall n a, codes n a -> closed n a.
Proof.
  induction 1.
  - apply code_nil.
  - change (c :: a) with ([c] ++ a). apply closed_pre; [|exact IHcodes]. intros x y -> X. apply code_char; auto. intros E. specialize (H0 E).
    destruct x as [|d x]; [intros ? ? K; discriminate|]. intros c' r K. inversion K; subst. eapply H0. cbn. reflexivity.
  - destruct n as [|n]; [lia|]. destruct IHcodes as (u & v & -> & A & B). change (123 :: u ++ 125 :: v) with ((123 :: u) ++ (125 :: v)).
    replace ((123 :: u) ++ 125 :: v) with ((123 :: u ++ [125]) ++ v) by (cbn; rewrite <- app_assoc; reflexivity).
    apply closed_pre; [|exact B]. intros x y _ X. cbn. rewrite <- app_assoc. now apply code_block.
  - destruct n as [|n]; [lia|]. exists [], a. split; [reflexivity|]. split; [constructor|exact IHcodes].
  - replace (47 :: 42 :: a ++ 42 :: 47 :: b) with ((47 :: 42 :: a ++ [42; 47]) ++ b) by (cbn; rewrite <- app_assoc; reflexivity).
    apply closed_pre; [|exact IHcodes]. intros x y _ X. cbn. rewrite <- app_assoc. now apply code_comment.
  - replace (47 :: 47 :: a ++ 10 :: b) with ((47 :: 47 :: a ++ [10]) ++ b) by (cbn; rewrite <- app_assoc; reflexivity).
    apply closed_pre; [|exact IHcodes]. intros x y _ X. cbn. rewrite <- app_assoc. now apply code_line.
  - replace (q :: a ++ q :: b) with ((q :: a ++ [q]) ++ b) by (cbn; rewrite <- app_assoc; reflexivity).
    apply closed_pre; [|exact IHcodes]. intros x y _ X. cbn. rewrite <- app_assoc. now apply code_lit.
Qed.

(** The four modes. *)
Definition okm (m : cmode) (a : text) : Prop :=
  match m with
  | MCode n => codes n a
  | MComment n p => exists u v, a = u ++ 47 :: v /\ ~ contains [42; 47] (p :: u) /\ (exists u', p :: u = u' ++ [42]) /\ codes n v
  | MLine n => exists u v, a = u ++ 10 :: v /\ ~ In 10 u /\ codes n v
  | MStr n q p => exists u v, a = u ++ q :: v /\ literal q (if p =? 92 then 92 :: u else u) /\ codes n v
  end.
Definition mlevel (m : cmode) : nat := match m with MCode n | MComment n _ | MLine n | MStr n _ _ => n end.
Definition quote (m : cmode) : Prop := match m with MStr _ q _ => q = 39 \/ q = 34 | _ => True end.

Lemma contains_cons : forall a c z, contains a z -> contains a (c :: z).
Proof. intros a c z (u & v & ->). exists (c :: u), v. reflexivity. Qed.

Lemma scan_code_ok : forall a m line rest, okm m a -> quote m -> scan_code m line (a ++ 125 :: rest) = Ok (a, 125 :: rest, line + newlines a).
Proof.
  intros a. remember (length a) as k eqn:K. assert (L : (length a <= k)%nat) by lia. clear K. revert a L.
  induction k as [|k IH]; intros a L m line rest M Q.
  { destruct a; [|cbn in L; lia]. destruct m; cbn in M.
    - inversion M; subst. cbn. unfold newlines. cbn. now rewrite Z.add_0_r.
    - destruct M as (u & v & E & _). destruct u; discriminate.
    - destruct M as (u & v & E & _). destruct u; discriminate.
    - destruct M as (u & v & E & _). destruct u; discriminate. }
  assert (NEXT : forall c a m, (length a <= k)%nat -> okm m a -> quote m -> forall line1, line1 = line + newlines [c] ->
    bind (scan_code m line1 (a ++ 125 :: rest)) (fun '(x, b, l) => Ok (c :: x, b, l)) = Ok (c :: a, 125 :: rest, line + newlines (c :: a))).
  { intros c a' m' L' M' Q' line1 ->. rewrite (IH a' L' m' _ rest M' Q'). cbn [bind]. rewrite (newlines_cons c a'). now rewrite Z.add_assoc. }
  destruct m as [n|n p|n|n q p]; cbn [okm] in M.
  - inversion M; subst; cbn [app scan_code].
    + cbn. unfold newlines. cbn. now rewrite Z.add_0_r.
    + cbn in H. rewrite bump_line. destruct (c =? 125) eqn:E1; [apply Z.eqb_eq in E1; lia|]. destruct (c =? 123) eqn:E2; [apply Z.eqb_eq in E2; lia|]. cbn [andb].
      assert (NN : okm (MCode n) a0) by exact H1. assert (LL : (length a0 <= k)%nat) by (cbn in L; lia).
      destruct (c =? 10) eqn:E3; [apply NEXT; auto; exact Logic.I|].
      assert (E4 : (c =? 39) || (c =? 34) = false) by (apply orb_false_iff; split; apply Z.eqb_neq; lia).
      destruct (a0 ++ 125 :: rest) as [|d r'] eqn:ER; [destruct a0; discriminate|]. rewrite E4.
      assert (E5 : (c =? 47) && (d =? 42) = false /\ (c =? 47) && (d =? 47) = false).
      { destruct (c =? 47) eqn:E5; [|auto]. apply Z.eqb_eq in E5. specialize (H0 E5). cbn [andb]. destruct a0 as [|d0 a0]; cbn in ER; inversion ER; subst; [auto|].
        specialize (H0 _ _ eq_refl). cbn in H0. split; apply Z.eqb_neq; lia. }
      destruct E5 as (-> & ->). rewrite <- ER. apply NEXT; auto; exact Logic.I.
    + cbn [Z.eqb Pos.eqb andb]. apply (NEXT 123); cbn [okm quote]; auto; [cbn in L; lia|unfold newlines; cbn; lia].
    + cbn [Z.eqb Pos.eqb]. assert (E : (S n0 <=? 1)%nat = false) by (apply Nat.leb_gt; lia). rewrite E. cbn [andb].
      replace (S n0 - 1)%nat with n0 by lia. apply (NEXT 125); cbn [okm quote]; auto; [cbn in L; lia|unfold newlines; cbn; lia].
    + cbn [Z.eqb Pos.eqb andb orb]. rewrite <- app_assoc. cbn [app].
      assert (LL : (length (a0 ++ 42%Z :: 47%Z :: b) <= k)%nat) by (cbn in L; lia).
      replace (a0 ++ 42 :: 47 :: b ++ 125 :: rest) with ((a0 ++ 42 :: 47 :: b) ++ 125 :: rest) by (rewrite <- app_assoc; reflexivity).
      rewrite (IH _ LL (MComment n 0) line rest); [| |exact Logic.I].
      * cbn [bind]. rewrite (newlines_cons 47), (newlines_cons 42 (a0 ++ _)). reflexivity.
      * exists (a0 ++ [42]), b. split; [rewrite <- app_assoc; reflexivity|]. split; [|split; [exists (0 :: a0); reflexivity|auto]].
        intros (u & v & X). apply H. destruct u as [|x u]; [discriminate|]. cbn in X. inversion X as [[X1 X2]].
        destruct (exists_last (l := v)) as (v' & y & ->).
        { intros ->. revert X2. replace (u ++ [42; 47]) with ((u ++ [42]) ++ [47]) by (rewrite <- app_assoc; reflexivity). intros X2. apply app_inj_tail in X2 as (_ & X2). discriminate. }
        replace (u ++ 42 :: 47 :: v' ++ [y]) with ((u ++ 42 :: 47 :: v') ++ [y]) in X2 by (rewrite <- app_assoc; reflexivity).
        apply app_inj_tail in X2 as (X2 & _). exists u, v'. exact X2.
    + cbn [Z.eqb Pos.eqb andb orb]. rewrite <- app_assoc. cbn [app].
      assert (LL : (length (a0 ++ 10%Z :: b) <= k)%nat) by (cbn in L; lia).
      replace (a0 ++ 10 :: b ++ 125 :: rest) with ((a0 ++ 10 :: b) ++ 125 :: rest) by (rewrite <- app_assoc; reflexivity).
      rewrite (IH _ LL (MLine n) line rest); [| |exact Logic.I].
      * cbn [bind]. rewrite (newlines_cons 47), (newlines_cons 47 (a0 ++ _)). reflexivity.
      * exists a0, b. auto.
    + assert (EQ : q =? 125 = false /\ q =? 123 = false /\ q =? 10 = false /\ q =? 47 = false /\ (q =? 39) || (q =? 34) = true) by (destruct H; subst q; auto).
      destruct EQ as (-> & -> & -> & -> & ->). cbn [andb].
      assert (LL : (length (a0 ++ q :: b) <= k)%nat) by (cbn in L; lia).
      assert (NX : bind (scan_code (MStr n q 0) line ((a0 ++ q :: b) ++ 125 :: rest)) (fun '(x, b, l) => Ok (q :: x, b, l)) = Ok (q :: a0 ++ q :: b, 125 :: rest, line + newlines (q :: a0 ++ q :: b))).
      { apply NEXT; auto. - exists a0, b. cbn. auto. - rewrite newlines_1. destruct H; subst q; cbn; lia. }
      rewrite <- app_assoc in NX. cbn [app] in NX |- *. rewrite <- app_assoc. cbn [app].
      destruct (a0 ++ q :: b ++ 125 :: rest) as [|d r'] eqn:ER; [destruct a0; discriminate|]. exact NX.
  - destruct M as (u & v & -> & NC & (u' & E) & C). destruct u as [|c u]; cbn [app] in *.
    + assert (p = 42) by (destruct u' as [|? [|]]; inversion E; auto). subst p. cbn [scan_code Z.eqb Pos.eqb andb]. apply NEXT; [cbn in L; lia|exact C|exact Logic.I|rewrite newlines_1; cbn; lia].
    + cbn [scan_code]. rewrite bump_line. assert (X : (c =? 47) && (p =? 42) = false).
      { destruct (c =? 47) eqn:E1; [|reflexivity]. destruct (p =? 42) eqn:E2; [|reflexivity]. apply Z.eqb_eq in E1, E2. subst. destruct NC. exists [], u. reflexivity. }
      rewrite X. apply NEXT; [cbn in L; lia| |exact Logic.I|reflexivity]. exists u, v. split; [reflexivity|]. split; [intros Y; apply NC; now apply contains_cons|]. split; [|exact C].
      destruct u' as [|x u']; [inversion E|]. exists u'. cbn in E. now inversion E.
  - destruct M as (u & v & -> & NI & C). destruct u as [|c u]; cbn [app scan_code]; rewrite bump_line.
    + cbn [Z.eqb Pos.eqb]. apply NEXT; [cbn in L; lia|exact C|exact Logic.I|reflexivity].
    + destruct (c =? 10) eqn:E; [apply Z.eqb_eq in E; subst; destruct NI; now left|]. apply NEXT; [cbn in L; lia| |exact Logic.I|reflexivity]. exists u, v. split; [reflexivity|]. split; [|exact C]. intros X. apply NI. now right.
  - destruct M as (u & v & -> & LI & C). cbn [quote] in Q. destruct u as [|c u]; cbn [app scan_code]; rewrite bump_line.
    + rewrite Z.eqb_refl. destruct (p =? 92) eqn:E; [inversion LI; congruence|]. cbn [andb negb].
      apply NEXT; [cbn in L; lia|exact C|exact Logic.I|]. rewrite newlines_1. destruct Q; subst q; cbn; lia.
    + destruct (p =? 92) eqn:E.
      * rewrite andb_false_r. apply NEXT; [cbn in L; lia| |exact Q|reflexivity]. exists u, v. split; [reflexivity|]. split; [|exact C]. cbn. inversion LI; subst; [congruence|assumption].
      * rewrite andb_true_r. assert (X : c =? q = false).
        { inversion LI; subst; apply Z.eqb_neq; [assumption|]. destruct Q; subst q; discriminate. }
        rewrite X. apply NEXT; [cbn in L; lia| |exact Q|reflexivity]. exists u, v. split; [reflexivity|]. split; [|exact C].
        destruct (c =? 92) eqn:E2; [apply Z.eqb_eq in E2; subst c; exact LI|]. apply Z.eqb_neq in E2. inversion LI; subst; [assumption|congruence].
Qed.

Lemma scan_code_inv : forall z m line a b l, scan_code m line z = Ok (a, b, l) -> (0 < mlevel m)%nat -> quote m ->
  z = a ++ b /\ l = line + newlines a /\ (b = [] \/ (exists r, b = 125 :: r) /\ okm m a).
Proof.
  intros z. remember (length z) as k eqn:K. assert (L : (length z <= k)%nat) by lia. clear K. revert z L.
  induction k as [|k IH]; intros z L m line a b l H P Q.
  { destruct z; [|cbn in L; lia]. destruct m; cbn in H; inversion H; subst. unfold newlines. cbn. rewrite Z.add_0_r. auto. }
  destruct z as [|c z]. { destruct m; cbn in H; inversion H; subst. unfold newlines. cbn. rewrite Z.add_0_r. auto. }
  assert (NEXT : forall m', bind (scan_code m' (line + newlines [c]) z) (fun '(x, b, l) => Ok (c :: x, b, l)) = Ok (a, b, l) -> (0 < mlevel m')%nat -> quote m' ->
    exists a', a = c :: a' /\ z = a' ++ b /\ l = line + newlines a /\ (b = [] \/ (exists r, b = 125 :: r) /\ okm m' a')).
  { intros m' H' P' Q'. apply bind_Ok in H' as ([[x b'] l'] & E1 & E2). inversion E2; subst. destruct (IH z ltac:(cbn in L; lia) _ _ _ _ _ E1 P' Q') as (A & B & C).
    exists x. split; [reflexivity|]. split; [exact A|]. split; [|exact C]. rewrite B, (newlines_cons c x). lia. }
  destruct m as [n|n p|n|n q p]; cbn [scan_code] in H; cbn [mlevel quote] in *.
  - destruct ((c =? 125) && (n <=? 1)%nat) eqn:E1.
    { apply andb_true_iff in E1 as (E1 & E2). apply Z.eqb_eq in E1. apply Nat.leb_le in E2. inversion H; subst. split; [reflexivity|]. split; [unfold newlines; cbn; lia|]. right. split; [eauto|].
      cbn. assert (n = 1%nat) by lia. subst. constructor. }
    rewrite bump_line in H.
    assert (OTHER : forall m', bind (scan_code m' (line + newlines [c]) z) (fun '(x, b, l) => Ok (c :: x, b, l)) = Ok (a, b, l) -> (0 < mlevel m')%nat -> quote m' ->
       (forall a', z = a' ++ b -> okm m' a' -> (exists r, b = 125 :: r) -> codes n (c :: a')) ->
       c :: z = a ++ b /\ l = line + newlines a /\ (b = [] \/ (exists r, b = 125 :: r) /\ codes n a)).
    { intros m' H' P' Q' X. destruct (NEXT m' H' P' Q') as (a' & -> & -> & B & C). split; [reflexivity|]. split; [exact B|]. destruct C as [C|(C1 & C2)]; [auto|]. right. split; [exact C1|]. now apply X. }
    destruct (c =? 10) eqn:E2.
    { apply Z.eqb_eq in E2. subst c. apply (OTHER (MCode n)); auto. intros a' _ X _. apply cs_char; [cbn; lia|discriminate|exact X]. }
    destruct (c =? 123) eqn:E3.
    { apply Z.eqb_eq in E3. subst c. apply (OTHER (MCode (S n))); cbn; auto; try lia. intros a' _ X _. now apply cs_open. }
    destruct (c =? 125) eqn:E4.
    { apply Z.eqb_eq in E4. subst c. cbn [andb] in E1. apply Nat.leb_gt in E1. apply (OTHER (MCode (n - 1))); cbn [okm mlevel quote]; auto; try lia. intros a' _ X _. replace n with (S (n - 1)) by lia. apply cs_close; [lia|exact X]. }
    assert (PLAIN : (c =? 39) || (c =? 34) = false -> not_next [47; 42] z \/ c <> 47 ->
      bind (scan_code (MCode n) (line + newlines [c]) z) (fun '(x, b, l) => Ok (c :: x, b, l)) = Ok (a, b, l) -> c :: z = a ++ b /\ l = line + newlines a /\ (b = [] \/ (exists r, b = 125 :: r) /\ codes n a)).
    { intros EQ NN H'. apply (OTHER (MCode n)); auto. intros a' Z' X _. apply orb_false_iff in EQ as (Q1 & Q2). apply Z.eqb_neq in E2, E3, E4, Q1, Q2. apply cs_char; [cbn; lia| |exact X].
      intros E. destruct NN as [NN|NN]; [|congruence]. destruct a' as [|d a']; [intros ? ? K; discriminate|]. intros c' r K. inversion K; subst. eapply NN. reflexivity. }
    assert (LIT : (c =? 39) || (c =? 34) = true -> bind (scan_code (MStr n c 0) (line + newlines [c]) z) (fun '(x, b, l) => Ok (c :: x, b, l)) = Ok (a, b, l) ->
      c :: z = a ++ b /\ l = line + newlines a /\ (b = [] \/ (exists r, b = 125 :: r) /\ codes n a)).
    { intros EQ H'. apply orb_true_iff in EQ. rewrite !Z.eqb_eq in EQ. apply (OTHER (MStr n c 0)); auto. intros a' _ (u & v & -> & LI & C) _. apply cs_lit; auto. }
    destruct z as [|d z'].
    + destruct ((c =? 39) || (c =? 34)) eqn:E5; [apply LIT; auto|]. apply PLAIN; auto. left. intros ? ? K; discriminate.
    + destruct ((c =? 47) && (d =? 42)) eqn:E6.
      { apply andb_true_iff in E6 as (E6 & E7). apply Z.eqb_eq in E6, E7. subst c d. apply bind_Ok in H as ([[x b'] l'] & F1 & F2). inversion F2; subst.
        destruct (IH z' ltac:(cbn in L; lia) _ _ _ _ _ F1) as (A & B & C); [exact P|exact Logic.I|]. split; [cbn; now rewrite A|]. split; [rewrite B, (newlines_cons 47), (newlines_cons 42); reflexivity|].
        destruct C as [C|(C1 & (u & v & -> & NC & (u' & EU) & CC))]; [auto|]. right. split; [exact C1|].
        destruct u' as [|y u']; [discriminate|]. cbn in EU. inversion EU; subst. rewrite <- app_assoc. cbn [app]. apply cs_comment; [|exact CC].
        intros (w1 & w2 & ->). apply NC. exists (0 :: w1), (w2 ++ [42]). cbn. now rewrite <- app_assoc. }
      destruct ((c =? 47) && (d =? 47)) eqn:E7.
      { apply andb_true_iff in E7 as (E7 & E8). apply Z.eqb_eq in E7, E8. subst c d. apply bind_Ok in H as ([[x b'] l'] & F1 & F2). inversion F2; subst.
        destruct (IH z' ltac:(cbn in L; lia) _ _ _ _ _ F1) as (A & B & C); [exact P|exact Logic.I|]. split; [cbn; now rewrite A|]. split; [rewrite B, (newlines_cons 47), (newlines_cons 47 x); reflexivity|].
        destruct C as [C|(C1 & (u & v & -> & NC & CC))]; [auto|]. right. split; [exact C1|]. now apply cs_line. }
      destruct ((c =? 39) || (c =? 34)) eqn:E5; [apply LIT; auto|]. apply PLAIN; auto.
      destruct (Z.eq_dec c 47) as [->|N]; [|auto]. left. intros ? ? K. inversion K; subst. cbn in E6, E7. apply Z.eqb_neq in E6, E7. cbn. lia.
  - rewrite bump_line in H. destruct ((c =? 47) && (p =? 42)) eqn:E.
    + apply andb_true_iff in E as (E1 & E2). apply Z.eqb_eq in E1, E2. subst. destruct (NEXT (MCode n) H P Logic.I) as (a' & -> & -> & B & C). split; [reflexivity|]. split; [exact B|]. destruct C as [C|(C1 & C2)]; [auto|]. right. split; [exact C1|].
      exists [], a'. split; [reflexivity|]. split; [|split; [exists []; reflexivity|exact C2]]. intros ([|? [|]] & ? & K); discriminate.
    + destruct (NEXT (MComment n c) H P Logic.I) as (a' & -> & -> & B & C). split; [reflexivity|]. split; [exact B|]. destruct C as [C|(C1 & (u & v & -> & NC & (u' & EU) & CC))]; [auto|]. right. split; [exact C1|].
      exists (c :: u), v. split; [reflexivity|]. split; [|split; [exists (p :: u'); now rewrite EU|exact CC]]. intros ([|y w1] & w2 & K); cbn in K; inversion K; subst; [discriminate|]. apply NC. exists w1, w2. assumption.
  - rewrite bump_line in H. destruct (c =? 10) eqn:E.
    + apply Z.eqb_eq in E. subst. destruct (NEXT (MCode n) H P Logic.I) as (a' & -> & -> & B & C). split; [reflexivity|]. split; [exact B|]. destruct C as [C|(C1 & C2)]; [auto|]. right. split; [exact C1|]. exists [], a'. split; [reflexivity|]. split; [intros []|exact C2].
    + apply Z.eqb_neq in E. destruct (NEXT (MLine n) H P Logic.I) as (a' & -> & -> & B & C). split; [reflexivity|]. split; [exact B|]. destruct C as [C|(C1 & (u & v & -> & NC & CC))]; [auto|]. right. split; [exact C1|]. exists (c :: u), v. split; [reflexivity|]. split; [|exact CC]. intros [K|K]; auto.
  - destruct ((c =? q) && negb (p =? 92)) eqn:E.
    + apply andb_true_iff in E as (E1 & E2). apply Z.eqb_eq in E1. apply negb_true_iff in E2. subst c. replace line with (line + newlines [q]) in H by (rewrite newlines_1; destruct Q; subst q; cbn; lia).
      destruct (NEXT (MCode n) H P Logic.I) as (a' & -> & -> & B & C). split; [reflexivity|]. split; [exact B|]. destruct C as [C|(C1 & C2)]; [auto|]. right. split; [exact C1|]. exists [], a'. split; [reflexivity|]. rewrite E2. split; [constructor|exact C2].
    + rewrite bump_line in H. destruct (NEXT _ H P Q) as (a' & -> & -> & B & C). split; [reflexivity|]. split; [exact B|]. destruct C as [C|(C1 & (u & v & -> & LI & CC))]; [auto|]. right. split; [exact C1|].
      exists (c :: u), v. split; [reflexivity|]. split; [|exact CC]. destruct (p =? 92) eqn:E1.
      * cbn in LI. now apply lit_esc.
      * rewrite andb_true_r in E. apply Z.eqb_neq in E. destruct (c =? 92) eqn:E2; [apply Z.eqb_eq in E2; subst c; exact LI|]. apply Z.eqb_neq in E2. now apply lit_char.
Qed.

(** ** Blocks that are not closed *)
Definition rokm (E : text -> Prop) (m : cmode) (a : text) : Prop :=
  match m with
  | MCode n => runs E n a
  | MComment n p => exists u v, a = u ++ 47 :: v /\ ~ contains [42; 47] (p :: u) /\ (exists u', p :: u = u' ++ [42]) /\ runs E n v
  | MLine n => exists u v, a = u ++ 10 :: v /\ ~ In 10 u /\ runs E n v
  | MStr n q p => exists u v, a = u ++ q :: v /\ literal q (if p =? 92 then 92 :: u else u) /\ runs E n v
  end.

Definition prefixed (u : text) (r : res (text * text * Z)) : res (text * text * Z) := '(a, b, l) <- r ;; Ok (u ++ a, b, l).
Lemma prefixed_app : forall u v r, prefixed u (prefixed v r) = prefixed (u ++ v) r.
Proof. intros u v [[[a b] l]| |]; cbn; [now rewrite app_assoc|reflexivity|reflexivity]. Qed.
Lemma prefixed_cons : forall c r, bind r (fun '(x, b, l) => Ok (c :: x, b, l)) = prefixed [c] r.
Proof. intros c [[[a b] l]| |]; reflexivity. Qed.
Lemma prefixed_cons2 : forall c d r, bind r (fun '(x, b, l) => Ok (c :: d :: x, b, l)) = prefixed [c; d] r.
Proof. intros c d [[[a b] l]| |]; reflexivity. Qed.

Lemma split_comment : forall a (b : text), ~ contains [42; 47] a -> exists u, a ++ 42 :: 47 :: b = u ++ 47 :: b /\ ~ contains [42; 47] (0 :: u) /\ (exists u', 0 :: u = u' ++ [42]).
Proof.
  intros a b H. exists (a ++ [42]). split; [now rewrite <- app_assoc|]. split; [|exists (0 :: a); reflexivity].
  intros (u & v & X). apply H. destruct u as [|x u]; [discriminate|]. cbn in X. inversion X as [[X1 X2]].
  destruct (exists_last (l := v)) as (v' & y & ->).
  { intros ->. revert X2. replace (u ++ [42; 47]) with ((u ++ [42]) ++ [47]) by (rewrite <- app_assoc; reflexivity). intros X2. apply app_inj_tail in X2 as (_ & X2). discriminate. }
  replace (u ++ 42 :: 47 :: v' ++ [y]) with ((u ++ 42 :: 47 :: v') ++ [y]) in X2 by (rewrite <- app_assoc; reflexivity).
  apply app_inj_tail in X2 as (X2 & _). exists u, v'. exact X2.
Qed.

Lemma scan_code_runs : forall E a m line, rokm E m a -> quote m ->
  exists u z n, a = u ++ z /\ E z /\ scan_code m line a = prefixed u (scan_code (MCode n) (line + newlines u) z).
Proof.
  intros E a. remember (length a) as k eqn:K. assert (L : (length a <= k)%nat) by lia. clear K. revert a L.
  assert (END : forall n line z, E z -> exists u z' n', z = u ++ z' /\ E z' /\ scan_code (MCode n) line z = prefixed u (scan_code (MCode n') (line + newlines u) z')).
  { intros n line z H. exists [], z, n. split; [reflexivity|]. split; [exact H|]. unfold newlines. cbn [count_occ]. rewrite Z.add_0_r. destruct (scan_code (MCode n) line z) as [[[a b] l]| |]; reflexivity. }
  induction k as [|k IH]; intros a L m line M Q.
  { destruct a; [|cbn in L; lia]. destruct m; cbn in M.
    - inversion M; subst. now apply END.
    - destruct M as (u & v & X & _). destruct u; discriminate.
    - destruct M as (u & v & X & _). destruct u; discriminate.
    - destruct M as (u & v & X & _). destruct u; discriminate. }
  assert (NEXT : forall c a m, (length a <= k)%nat -> rokm E m a -> quote m -> forall line1, line1 = line + newlines [c] ->
    exists u z n, c :: a = u ++ z /\ E z /\ bind (scan_code m line1 a) (fun '(x, b, l) => Ok (c :: x, b, l)) = prefixed u (scan_code (MCode n) (line + newlines u) z)).
  { intros c a' m' L' M' Q' line1 ->. destruct (IH a' L' m' (line + newlines [c]) M' Q') as (u & z & n & -> & EZ & S1). exists (c :: u), z, n. split; [reflexivity|]. split; [exact EZ|].
    rewrite prefixed_cons, S1, prefixed_app. rewrite (newlines_cons c u), Z.add_assoc. reflexivity. }
  destruct m as [n|n p|n|n q p]; cbn [rokm] in M.
  - inversion M; subst; [now apply END| | | | | |]; cbn [app scan_code].
    + cbn in H. rewrite bump_line. destruct (c =? 125) eqn:E1; [apply Z.eqb_eq in E1; lia|]. destruct (c =? 123) eqn:E2; [apply Z.eqb_eq in E2; lia|]. cbn [andb].
      assert (NN : rokm E (MCode n) a0) by exact H1. assert (LL : (length a0 <= k)%nat) by (cbn in L; lia).
      destruct (c =? 10) eqn:E3; [apply NEXT; auto; exact Logic.I|].
      assert (E4 : (c =? 39) || (c =? 34) = false) by (apply orb_false_iff; split; apply Z.eqb_neq; lia). rewrite E4.
      destruct a0 as [|d r'] eqn:ER; [apply NEXT; auto; exact Logic.I|].
      assert (E5 : (c =? 47) && (d =? 42) = false /\ (c =? 47) && (d =? 47) = false).
      { destruct (c =? 47) eqn:E5; [|auto]. apply Z.eqb_eq in E5. specialize (H0 E5). cbn [andb]. specialize (H0 _ _ eq_refl). cbn in H0. split; apply Z.eqb_neq; lia. }
      destruct E5 as (-> & ->). apply NEXT; auto; exact Logic.I.
    + cbn [Z.eqb Pos.eqb andb]. apply (NEXT 123); cbn [rokm quote]; auto; [cbn in L; lia|unfold newlines; cbn; lia].
    + cbn [Z.eqb Pos.eqb]. assert (X : (S n0 <=? 1)%nat = false) by (apply Nat.leb_gt; lia). rewrite X. cbn [andb].
      replace (S n0 - 1)%nat with n0 by lia. apply (NEXT 125); cbn [rokm quote]; auto; [cbn in L; lia|unfold newlines; cbn; lia].
    + cbn [Z.eqb Pos.eqb andb orb]. assert (LL : (length (a0 ++ 42%Z :: 47%Z :: b) <= k)%nat) by (cbn in L; lia).
      destruct (split_comment a0 b H) as (u0 & X1 & X2 & X3).
      destruct (IH _ LL (MComment n 0) line) as (u & z & n' & X & EZ & S1); [exists u0, b; auto|exact Logic.I|].
      exists (47 :: 42 :: u), z, n'. split; [cbn [app]; now rewrite X|]. split; [exact EZ|]. rewrite prefixed_cons2, S1, prefixed_app, (newlines_cons 47), (newlines_cons 42). reflexivity.
    + cbn [Z.eqb Pos.eqb andb orb]. assert (LL : (length (a0 ++ 10%Z :: b) <= k)%nat) by (cbn in L; lia).
      destruct (IH _ LL (MLine n) line) as (u & z & n' & X & EZ & S1); [exists a0, b; auto|exact Logic.I|].
      exists (47 :: 47 :: u), z, n'. split; [cbn [app]; now rewrite X|]. split; [exact EZ|]. rewrite prefixed_cons2, S1, prefixed_app, (newlines_cons 47), (newlines_cons 47 u). reflexivity.
    + assert (EQ : q =? 125 = false /\ q =? 123 = false /\ q =? 10 = false /\ q =? 47 = false /\ (q =? 39) || (q =? 34) = true) by (destruct H; subst q; auto).
      destruct EQ as (-> & -> & -> & -> & ->). cbn [andb].
      assert (LL : (length (a0 ++ q :: b) <= k)%nat) by (cbn in L; lia).
      assert (NX : exists u z n', q :: a0 ++ q :: b = u ++ z /\ E z /\ bind (scan_code (MStr n q 0) line (a0 ++ q :: b)) (fun '(x, b, l) => Ok (q :: x, b, l)) = prefixed u (scan_code (MCode n') (line + newlines u) z)).
      { apply NEXT; auto. - exists a0, b. cbn. auto. - rewrite newlines_1. destruct H; subst q; cbn; lia. }
      destruct (a0 ++ q :: b) as [|d r']; exact NX.
  - destruct M as (u & v & -> & NC & (u' & X) & C). destruct u as [|c u]; cbn [app] in *.
    + assert (p = 42) by (destruct u' as [|? [|]]; inversion X; auto). subst p. cbn [scan_code Z.eqb Pos.eqb andb]. apply NEXT; [cbn in L; lia|exact C|exact Logic.I|rewrite newlines_1; cbn; lia].
    + cbn [scan_code]. rewrite bump_line. assert (Y : (c =? 47) && (p =? 42) = false).
      { destruct (c =? 47) eqn:E1; [|reflexivity]. destruct (p =? 42) eqn:E2; [|reflexivity]. apply Z.eqb_eq in E1, E2. subst. destruct NC. exists [], u. reflexivity. }
      rewrite Y. apply NEXT; [cbn in L; lia| |exact Logic.I|reflexivity]. exists u, v. split; [reflexivity|]. split; [intros Z'; apply NC; now apply contains_cons|]. split; [|exact C].
      destruct u' as [|x u']; [inversion X|]. exists u'. cbn in X. now inversion X.
  - destruct M as (u & v & -> & NI & C). destruct u as [|c u]; cbn [app scan_code]; rewrite bump_line.
    + cbn [Z.eqb Pos.eqb]. apply NEXT; [cbn in L; lia|exact C|exact Logic.I|reflexivity].
    + destruct (c =? 10) eqn:X; [apply Z.eqb_eq in X; subst; destruct NI; now left|]. apply NEXT; [cbn in L; lia| |exact Logic.I|reflexivity]. exists u, v. split; [reflexivity|]. split; [|exact C]. intros Y. apply NI. now right.
  - destruct M as (u & v & -> & LI & C). cbn [quote] in Q. destruct u as [|c u]; cbn [app scan_code]; rewrite bump_line.
    + rewrite Z.eqb_refl. destruct (p =? 92) eqn:X; [inversion LI; congruence|]. cbn [andb negb].
      apply NEXT; [cbn in L; lia|exact C|exact Logic.I|]. rewrite newlines_1. destruct Q; subst q; cbn; lia.
    + destruct (p =? 92) eqn:X.
      * rewrite andb_false_r. apply NEXT; [cbn in L; lia| |exact Q|reflexivity]. exists u, v. split; [reflexivity|]. split; [|exact C]. cbn. inversion LI; subst; [congruence|assumption].
      * rewrite andb_true_r. assert (Y : c =? q = false).
        { inversion LI; subst; apply Z.eqb_neq; [assumption|]. destruct Q; subst q; discriminate. }
        rewrite Y. apply NEXT; [cbn in L; lia| |exact Q|reflexivity]. exists u, v. split; [reflexivity|]. split; [|exact C].
        destruct (c =? 92) eqn:E2; [apply Z.eqb_eq in E2; subst c; exact LI|]. apply Z.eqb_neq in E2. inversion LI; subst; [assumption|congruence].
Qed.

(** The modes inside a comment or literal that runs to the end of the text. *)
Definition badm (m : cmode) (z : text) : Prop :=
  match m with
  | MCode _ => False
  | MComment _ p => ~ contains [42; 47] (p :: z)
  | MLine _ => ~ In 10 z
  | MStr _ q p => let z' := if p =? 92 then 92 :: z else z in literal q z' \/ exists b, z' = b ++ [92] /\ literal q b
  end.

Lemma no_comment_end : forall p a, ~ contains [42; 47] a -> (p = 42 -> not_next [47] a) -> ~ contains [42; 47] (p :: a).
Proof.
  intros p a N X ([|y u] & v & K); cbn in K; inversion K; subst; [|apply N; exists u, v; reflexivity]. destruct (X eq_refl 47 v eq_refl). now left.
Qed.

Lemma scan_code_bad : forall z m line, badm m z -> quote m -> scan_code m line z = Bad.
Proof.
  induction z as [|c z IH]; intros m line B Q; [destruct m; [destruct B|reflexivity..]|].
  assert (NEXT : forall m line, badm m z -> quote m -> bind (scan_code m line z) (fun '(x, b, l) => Ok (c :: x, b, l)) = Bad) by (intros m' l' B' Q'; now rewrite (IH m' l' B' Q')).
  destruct m as [n|n p|n|n q p]; cbn [scan_code badm quote] in *; [destruct B| | |].
  - destruct ((c =? 47) && (p =? 42)) eqn:E.
    + apply andb_true_iff in E as (E1 & E2). apply Z.eqb_eq in E1, E2. subst. destruct B. exists [], z. reflexivity.
    + apply NEXT; [|exact Q]. cbn. intros X. apply B. now apply contains_cons.
  - destruct (c =? 10) eqn:E; [apply Z.eqb_eq in E; subst; destruct B; now left|]. apply NEXT; [|exact Q]. cbn. intros X. apply B. now right.
  - assert (LI : forall l, literal q (c :: l) -> p =? 92 = false -> c =? q = false).
    { intros l X _. inversion X; subst; apply Z.eqb_neq; [assumption|]. destruct Q; subst q; discriminate. }
    destruct (p =? 92) eqn:E.
    + rewrite andb_false_r. apply NEXT; [|exact Q]. cbn. destruct B as [B|(b & B1 & B2)].
      * inversion B; subst; [congruence|auto].
      * destruct b as [|x [|y b]]; cbn in B1; inversion B1; subst; inversion B2; subst; try congruence; eauto.
    + rewrite andb_true_r. assert (CQ : c =? q = false).
      { destruct B as [B|([|x b] & B1 & B2)]; [eapply LI; eauto| |].
        - cbn in B1. inversion B1; subst. apply Z.eqb_neq. destruct Q; subst q; discriminate.
        - cbn in B1. inversion B1; subst. eapply LI; eauto. }
      rewrite CQ. apply NEXT; [|exact Q]. cbn. destruct (c =? 92) eqn:E2.
      * apply Z.eqb_eq in E2. subst c. exact B.
      * apply Z.eqb_neq in E2. destruct B as [B|([|x b] & B1 & B2)].
        -- inversion B; subst; [auto|congruence].
        -- cbn in B1. inversion B1; subst. congruence.
        -- cbn in B1. inversion B1; subst. inversion B2; subst; [eauto|congruence].
Qed.

Lemma unclosed_bad : forall z n line, unclosed z -> scan_code (MCode n) line z = Bad.
Proof.
  intros z n line U. inversion U as [a H|a H|q a H L|q a H L]; subst; cbn [scan_code].
  - cbn [Z.eqb Pos.eqb andb]. rewrite (scan_code_bad a (MComment n 0) line); [reflexivity| |exact Logic.I]. apply no_comment_end; [exact H|discriminate].
  - cbn [Z.eqb Pos.eqb andb]. rewrite (scan_code_bad a (MLine n) line); [reflexivity|exact H|exact Logic.I].
  - assert (EQ : q =? 125 = false /\ q =? 123 = false /\ q =? 10 = false /\ q =? 47 = false /\ (q =? 39) || (q =? 34) = true) by (destruct H; subst q; auto).
    destruct EQ as (-> & -> & -> & -> & ->). cbn [andb]. rewrite (scan_code_bad a (MStr n q 0) line); [|cbn; auto|exact H]. destruct a; reflexivity.
  - assert (EQ : q =? 125 = false /\ q =? 123 = false /\ q =? 10 = false /\ q =? 47 = false /\ (q =? 39) || (q =? 34) = true) by (destruct H; subst q; auto).
    destruct EQ as (-> & -> & -> & -> & ->). cbn [andb]. rewrite (scan_code_bad (a ++ [92]) (MStr n q 0) line); [|cbn; eauto|exact H]. destruct (a ++ [92]); reflexivity.
Qed.

(** Every text is a closed block and a rest, or one of the two kinds of open blocks. *)
Lemma scan_code_total : forall z m line, quote m -> (0 < mlevel m)%nat ->
  (exists a b l, scan_code m line z = Ok (a, 125 :: b, l)) \/ rokm (fun r => r = []) m z \/ (badm m z \/ rokm unclosed m z).
Proof.
  intros z. remember (length z) as k eqn:K. assert (L : (length z <= k)%nat) by lia. clear K. revert z L.
  assert (NIL : forall m line, quote m -> (exists a b l, scan_code m line [] = Ok (a, 125 :: b, l)) \/ rokm (fun r => r = []) m [] \/ (badm m [] \/ rokm unclosed m [])).
  { intros [n|n p|n|n q p] line Q; cbn [rokm badm].
    - right. left. now constructor.
    - right. right. left. intros ([|? [|]] & ? & X); discriminate.
    - right. right. left. intros [].
    - right. right. left. destruct (p =? 92); [right; exists []; split; [reflexivity|constructor]|left; constructor]. }
  induction k as [|k IH]; intros z L m line Q P; (destruct z as [|c z]; [now apply NIL|]); [cbn in L; lia|].
  assert (NEXT : forall m' line' (X Y : Prop), quote m' -> (0 < mlevel m')%nat -> (rokm (fun r => r = []) m' z -> X) -> (badm m' z \/ rokm unclosed m' z -> Y) ->
     (exists a b l, bind (scan_code m' line' z) (fun '(x, b, l) => Ok (c :: x, b, l)) = Ok (a, 125 :: b, l)) \/ X \/ Y).
  { intros m' line' X Y Q' P' HX HY. destruct (IH z ltac:(cbn in L; lia) m' line' Q' P') as [(x & b & l & ->)|[B|B]]; cbn [bind]; eauto 6. }
  destruct m as [n|n p|n|n q p]; cbn [scan_code quote mlevel] in *.
  - destruct ((c =? 125) && (n <=? 1)%nat) eqn:E1.
    { apply andb_true_iff in E1 as (E1 & E2). apply Z.eqb_eq in E1. subst c. left. eauto. }
    set (l1 := if c =? 10 then line + 1 else line). cbn [rokm badm].
    destruct (c =? 10) eqn:E2. { apply Z.eqb_eq in E2. subst c. apply NEXT; auto; [intros X|intros [[]|X]; right]; (apply rn_char; [cbn; lia|discriminate|exact X]). }
    destruct (c =? 123) eqn:E3. { apply Z.eqb_eq in E3. subst c. apply NEXT; cbn; auto; try lia; [intros X|intros [[]|X]; right]; now apply rn_open. }
    destruct (c =? 125) eqn:E4.
    { apply Z.eqb_eq in E4. subst c. cbn [andb] in E1. apply Nat.leb_gt in E1. apply NEXT; cbn [mlevel quote rokm badm]; auto; try lia; [intros X|intros [[]|X]; right]; (replace n with (S (n - 1)) by lia; apply rn_close; [lia|exact X]). }
    assert (LIT : (c =? 39) || (c =? 34) = true ->
      (exists a b l, bind (scan_code (MStr n c 0) l1 z) (fun '(x, b, l) => Ok (c :: x, b, l)) = Ok (a, 125 :: b, l)) \/ runs (fun r => r = []) n (c :: z) \/ (False \/ runs unclosed n (c :: z))).
    { intros X. rewrite orb_true_iff, !Z.eqb_eq in X. apply NEXT; auto; cbn [rokm badm].
      - intros (u & v & -> & LI & C). apply rn_lit; auto.
      - change (0 =? 92) with false. cbn iota zeta. intros [[B|(b & -> & B)]|(u & v & -> & LI & C)]; right; [apply rn_end, uc_lit; auto|apply rn_end, uc_lit_esc; auto|apply rn_lit; auto]. }
    assert (CODE : (c =? 39) || (c =? 34) = false -> (c = 47 -> not_next [47; 42] z) ->
      (exists a b l, bind (scan_code (MCode n) l1 z) (fun '(x, b, l) => Ok (c :: x, b, l)) = Ok (a, 125 :: b, l)) \/ runs (fun r => r = []) n (c :: z) \/ (False \/ runs unclosed n (c :: z))).
    { intros X NN. apply orb_false_iff in X as (X1 & X2). apply Z.eqb_neq in X1, X2, E3, E4. apply NEXT; auto; [intros X|intros [[]|X]; right]; (apply rn_char; [cbn; lia|exact NN|exact X]). }
    destruct z as [|d r].
    + destruct ((c =? 39) || (c =? 34)) eqn:E5; [now apply LIT|]. apply CODE; [reflexivity|]. intros _ ? ? K; discriminate.
    + assert (TWO : forall m' (X Y : Prop), quote m' -> (0 < mlevel m')%nat -> (rokm (fun r => r = []) m' r -> X) -> (badm m' r \/ rokm unclosed m' r -> Y) ->
         (exists a b l, bind (scan_code m' line r) (fun '(a, b, l) => Ok (c :: d :: a, b, l)) = Ok (a, 125 :: b, l)) \/ X \/ Y).
      { intros m' X Y Q' P' HX HY. destruct (IH r ltac:(cbn in L; lia) m' line Q' P') as [(x & b & l & ->)|[B|B]]; cbn [bind]; eauto 6. }
      assert (REJOIN : forall u v, (forall w, 0 :: u = w ++ [42] -> u ++ 47 :: v = tl w ++ 42 :: 47 :: v)).
      { intros u v [|x w] X; [discriminate|]. cbn in X. inversion X; subst. cbn [tl]. now rewrite <- app_assoc. }
      destruct ((c =? 47) && (d =? 42)) eqn:E5.
      { apply andb_true_iff in E5 as (E5 & E6). apply Z.eqb_eq in E5, E6. subst c d.
        assert (CM : forall E, rokm E (MComment n 0) r -> runs E n (47 :: 42 :: r)).
        { intros E (u & v & -> & NC & (w & X) & C). rewrite (REJOIN u v w X). apply rn_comment; [|exact C]. destruct w as [|x w]; [discriminate|]. cbn in X. inversion X; subst. cbn [tl].
          intros (w1 & w2 & ->). apply NC. exists (0 :: w1), (w2 ++ [42]). cbn. now rewrite <- app_assoc. }
        apply TWO; [exact Logic.I|exact P|apply CM|]. intros [B|B]; right; [|now apply CM]. apply rn_end, uc_comment. intros X. apply B. now apply contains_cons. }
      destruct ((c =? 47) && (d =? 47)) eqn:E6.
      { apply andb_true_iff in E6 as (E6 & E7). apply Z.eqb_eq in E6, E7. subst c d.
        assert (CM : forall E, rokm E (MLine n) r -> runs E n (47 :: 47 :: r)) by (intros E (u & v & -> & NC & C); now apply rn_line).
        apply TWO; [exact Logic.I|exact P|apply CM|]. intros [B|B]; right; [|now apply CM]. now apply rn_end, uc_line. }
      destruct ((c =? 39) || (c =? 34)) eqn:E7; [now apply LIT|]. apply CODE; [reflexivity|]. intros -> ? ? K. inversion K; subst. cbn in E5, E6. apply Z.eqb_neq in E5, E6. cbn. lia.
  - assert (CM : forall E, (c =? 47) && (p =? 42) = false -> rokm E (MComment n c) z -> rokm E (MComment n p) (c :: z)).
    { intros E X (u & v & -> & NC & (u' & EU) & CC). exists (c :: u), v. split; [reflexivity|]. split; [|split; [exists (p :: u'); now rewrite EU|exact CC]]. intros ([|y w1] & w2 & K); cbn in K; inversion K; subst; [discriminate|]. apply NC. exists w1, w2. assumption. }
    destruct ((c =? 47) && (p =? 42)) eqn:E.
    + apply andb_true_iff in E as (E1 & E2). apply Z.eqb_eq in E1, E2. subst.
      assert (CE : forall E, runs E n z -> rokm E (MComment n 42) (47 :: z)).
      { intros E C2. exists [], z. split; [reflexivity|]. split; [|split; [exists []; reflexivity|exact C2]]. intros ([|? [|]] & ? & K); discriminate. }
      apply NEXT; [exact Logic.I|exact P|apply CE|]. intros [[]|B]. right. now apply CE.
    + apply NEXT; auto. intros [B|B]; [|auto]. left. cbn [badm] in *. apply no_comment_end; [exact B|]. intros -> d r X. inversion X; subst. intros [<-|[]]. discriminate.
  - destruct (c =? 10) eqn:E.
    + apply Z.eqb_eq in E. subst. assert (CE : forall E, runs E n z -> rokm E (MLine n) (10 :: z)) by (intros E C2; exists [], z; split; [reflexivity|]; split; [intros []|exact C2]).
      apply NEXT; [exact Logic.I|exact P|apply CE|]. intros [[]|B]. right. now apply CE.
    + apply Z.eqb_neq in E. assert (CE : forall E, rokm E (MLine n) z -> rokm E (MLine n) (c :: z)).
      { intros E' (u & v & -> & NC & CC). exists (c :: u), v. split; [reflexivity|]. split; [|exact CC]. intros [K|K]; auto. }
      apply NEXT; auto. intros [B|B]; [|auto]. left. intros [X|X]; auto.
  - destruct ((c =? q) && negb (p =? 92)) eqn:E.
    + apply andb_true_iff in E as (E1 & E2). apply Z.eqb_eq in E1. apply negb_true_iff in E2. subst c.
      assert (CE : forall E, runs E n z -> rokm E (MStr n q p) (q :: z)) by (intros E C2; exists [], z; split; [reflexivity|]; rewrite E2; split; [constructor|exact C2]).
      apply NEXT; [exact Logic.I|exact P|apply CE|]. intros [[]|B]. right. now apply CE.
    + assert (CE : forall l, literal q (if (if p =? 92 then 0 else c) =? 92 then 92 :: l else l) -> literal q (if p =? 92 then 92 :: c :: l else c :: l)).
      { intros l LI. destruct (p =? 92) eqn:E1.
        - cbn in LI. now apply lit_esc.
        - rewrite andb_true_r in E. apply Z.eqb_neq in E. destruct (c =? 92) eqn:E2; [apply Z.eqb_eq in E2; subst c; exact LI|]. apply Z.eqb_neq in E2. now apply lit_char. }
      apply NEXT; auto; cbn [rokm badm].
      * intros (u & v & -> & LI & CC). exists (c :: u), v. split; [reflexivity|]. split; [|exact CC]. now apply CE.
      * intros [[B|(b & B1 & B2)]|(u & v & -> & LI & CC)].
        -- left. left. now apply CE.
        -- left. right. destruct (p =? 92) eqn:E1.
           ++ cbn in B1. subst z. exists (92 :: c :: b). split; [reflexivity|]. now apply lit_esc.
           ++ rewrite andb_true_r in E. apply Z.eqb_neq in E. destruct (c =? 92) eqn:E2; [apply Z.eqb_eq in E2; subst c; eauto|]. apply Z.eqb_neq in E2. subst z. exists (c :: b). split; [reflexivity|]. now apply lit_char.
        -- right. exists (c :: u), v. split; [reflexivity|]. split; [|exact CC]. now apply CE.
Qed.

(** ** The scan loop *)
Lemma word_app : forall a z, forallb wordch a = true -> (forall d r, z = d :: r -> wordch d = false) -> word (a ++ z) = (a, z).
Proof.
  induction a as [|c a IH]; intros z F N; cbn [app word].
  - destruct z as [|d z]; [reflexivity|]. cbn. now rewrite (N d z eq_refl).
  - cbn in F. apply andb_true_iff in F as (F1 & F2). now rewrite F1, (IH z F2 N).
Qed.
Lemma word_inv : forall z a b, word z = (a, b) -> z = a ++ b /\ forallb wordch a = true /\ (forall d r, b = d :: r -> wordch d = false).
Proof.
  induction z as [|c z IH]; intros a b H; cbn [word] in H; [inversion H; subst; repeat split; intros; discriminate|].
  destruct (wordch c) eqn:E.
  - destruct (word z) as [a' b'] eqn:W. inversion H; subst. destruct (IH _ _ eq_refl) as (A & B & C). split; [now rewrite A|]. split; [cbn; now rewrite E|exact C].
  - inversion H; subst. split; [reflexivity|]. split; [reflexivity|]. intros d r K. inversion K; subst. exact E.
Qed.

Lemma to_eol_app : forall a z, ~ In 10 a -> z = [] \/ (exists z', z = 10 :: z') -> to_eol (a ++ z) = z.
Proof.
  induction a as [|c a IH]; intros z N Z'; cbn [app to_eol]; [destruct Z' as [->|(z' & ->)]; reflexivity|].
  destruct (c =? 10) eqn:E; [apply Z.eqb_eq in E; subst; destruct N; now left|]. apply IH; [intros K; apply N; now right|auto].
Qed.
Lemma to_eol_inv : forall z, exists a, z = a ++ to_eol z /\ ~ In 10 a /\ (to_eol z = [] \/ exists z', to_eol z = 10 :: z').
Proof.
  induction z as [|c z (a & A & B & C)]; cbn [to_eol]; [exists []; repeat split; auto|]. destruct (c =? 10) eqn:E.
  - apply Z.eqb_eq in E. subst. exists []. repeat split; eauto.
  - apply Z.eqb_neq in E. exists (c :: a). split; [cbn; now rewrite <- A|]. split; [intros [K|K]; auto|exact C].
Qed.

Lemma skip_comment_app : forall a p n z, ~ contains [42; 47] (p :: a) -> skip_comment p n (a ++ 42 :: 47 :: z) = (z, n + newlines a).
Proof.
  induction a as [|c a IH]; intros p n z N; cbn [app skip_comment].
  - change (42 =? 47) with false. change (42 =? 10) with false. cbn [andb]. change (47 =? 47) with true. change (42 =? 42) with true. cbn [andb]. unfold newlines. cbn. now rewrite Z.add_0_r.
  - destruct ((c =? 47) && (p =? 42)) eqn:E.
    + apply andb_true_iff in E as (E1 & E2). apply Z.eqb_eq in E1, E2. subst. destruct N. exists [], a. reflexivity.
    + rewrite bump_line, IH; [|intros K; apply N; now apply contains_cons]. rewrite (newlines_cons c a). now rewrite Z.add_assoc.
Qed.
Lemma skip_comment_open : forall a p n, ~ contains [42; 47] (p :: a) -> fst (skip_comment p n a) = [].
Proof.
  induction a as [|c a IH]; intros p n N; cbn [skip_comment]; [reflexivity|]. destruct ((c =? 47) && (p =? 42)) eqn:E.
  - apply andb_true_iff in E as (E1 & E2). apply Z.eqb_eq in E1, E2. subst. destruct N. exists [], a. reflexivity.
  - apply IH. intros K; apply N; now apply contains_cons.
Qed.
Lemma skip_comment_inv : forall z p n z' n', skip_comment p n z = (z', n') ->
  (~ contains [42; 47] (p :: z) /\ z' = []) \/ (p = 42 /\ z = 47 :: z' /\ n' = n) \/ (exists a, z = a ++ 42 :: 47 :: z' /\ ~ contains [42; 47] (p :: a) /\ n' = n + newlines a).
Proof.
  induction z as [|c z IH]; intros p n z' n' H; cbn [skip_comment] in H.
  - inversion H; subst. left. split; [|reflexivity]. intros ([|? [|]] & ? & K); discriminate.
  - destruct ((c =? 47) && (p =? 42)) eqn:E.
    + apply andb_true_iff in E as (E1 & E2). apply Z.eqb_eq in E1, E2. inversion H; subst. auto.
    + rewrite bump_line in H. assert (NX : forall a, ~ contains [42; 47] (c :: a) -> ~ contains [42; 47] (p :: c :: a)).
      { intros a N. apply no_comment_end; [exact N|]. intros -> d r K. inversion K; subst. intros [<-|[]]. rewrite !Z.eqb_refl in E. discriminate. }
      destruct (IH _ _ _ _ H) as [(A & B)|[(-> & -> & ->)|(a & -> & A & ->)]].
      * left. auto.
      * right. right. exists []. split; [reflexivity|]. split; [|unfold newlines; cbn; lia]. intros ([|? [|]] & ? & K); discriminate.
      * right. right. exists (c :: a). split; [reflexivity|]. split; [now apply NX|]. rewrite (newlines_cons c a). lia.
Qed.

Lemma scan_string_app : forall a n z, ~ In 34 a -> scan_string n (a ++ 34 :: z) = (a, 34 :: z, n + newlines a).
Proof.
  induction a as [|c a IH]; intros n z N; cbn [app scan_string].
  - change (34 =? 34) with true. cbn. unfold newlines. cbn. now rewrite Z.add_0_r.
  - destruct (c =? 34) eqn:E; [apply Z.eqb_eq in E; subst; destruct N; now left|]. rewrite bump_line, IH; [|intros K; apply N; now right]. rewrite (newlines_cons c a). now rewrite Z.add_assoc.
Qed.
Lemma scan_string_inv : forall z n a b l, scan_string n z = (a, b, l) -> z = a ++ b /\ ~ In 34 a /\ (b = [] \/ exists r, b = 34 :: r) /\ l = n + newlines a.
Proof.
  induction z as [|c z IH]; intros n a b l H; cbn [scan_string] in H; [inversion H; subst; unfold newlines; cbn; rewrite Z.add_0_r; auto|].
  destruct (c =? 34) eqn:E.
  - apply Z.eqb_eq in E. inversion H; subst. unfold newlines. cbn. rewrite Z.add_0_r. repeat split; eauto.
  - apply Z.eqb_neq in E. rewrite bump_line in H. destruct (scan_string (n + newlines [c]) z) as [[a' b'] l'] eqn:W. inversion H; subst. destruct (IH _ _ _ _ W) as (A & B & C & D). subst z.
    split; [reflexivity|]. split; [intros [K|K]; auto|]. split; [exact C|]. rewrite (newlines_cons c a'). lia.
Qed.

Ltac zcase c k := let E := fresh "E" in destruct (c =? k) eqn:E; [apply Z.eqb_eq in E; subst c|].

Lemma alnum_not : forall c, isalnum c = true -> isspace c = false /\ c =? 47 = false /\ c =? 34 = false /\ c =? 123 = false /\ c =? 10 = false.
Proof.
  intros c H. unfold isalnum, isalpha in H. rewrite !orb_true_iff, !andb_true_iff, !Z.leb_le in H. unfold isspace. rewrite orb_false_iff, andb_false_iff, !Z.eqb_neq, !Z.leb_gt. lia.
Qed.
Lemma space_not : forall c, isspace c = true -> c =? 47 = false.
Proof. intros c H. unfold isspace in H. rewrite orb_true_iff, andb_true_iff, !Z.leb_le, Z.eqb_eq in H. apply Z.eqb_neq. lia. Qed.
Lemma alpha_word : forall c, isalpha c = true -> wordch c = true.
Proof. intros c H. unfold wordch, isalnum. now rewrite H. Qed.
Lemma alnum_word : forall c, isalnum c = true -> wordch c = true.
Proof. intros c H. unfold wordch. now rewrite H. Qed.
Lemma ch0_next : forall z k, k <> 0 -> (ch z 0 =? k) = match z with c :: _ => c =? k | [] => false end.
Proof. intros [|c z] k N; cbn; [destruct k; congruence || reflexivity|reflexivity]. Qed.

Lemma scan_lexes : forall E n z l, lexes E n z l -> exists n' z', E z' /\
  forall fuel, (length z < fuel)%nat -> exists fuel', (length z' < fuel')%nat /\ scan fuel n z = bind (scan fuel' n' z') (fun l' => Ok (l ++ l')).
Proof.
  assert (CONS : forall (r : res (list event)) l t, bind (bind r (fun l' => Ok (l ++ l'))) (fun l => Ok (t :: l)) = bind r (fun l' => Ok ((t :: l) ++ l'))) by (intros [l'| |] l t; reflexivity).
  induction 1 as [n z EZ|n c z l H H0 IH|n a z l H Hz H0 IH|n a z l H H0 IH|n a z l H H0 IH|n a z l H H0 IH|n c a z l H H1 H2 H0 IH|n z l H0 IH|n b c a z l H H1 H2 H3 H0 IH|n c z l H H1 H2 H3 H4 H5 H0 IH].
  { exists n, z. split; [exact EZ|]. intros fuel F. exists fuel. split; [exact F|]. destruct (scan fuel n z); reflexivity. }
  all: destruct IH as (n' & z' & EZ & IH); exists n', z'; (split; [exact EZ|]); intros [|fuel] F; [lia|];
       (assert (LEN : (length z < fuel)%nat) by (cbn in F; rewrite ?app_length in F; cbn in F; lia));
       destruct (IH fuel LEN) as (f' & F' & SC); exists f'; (split; [exact F'|]); cbn [scan].
  - rewrite bump_line, H. exact SC.
  - change (isspace 47) with false. cbn [andb ch nth]. change (47 =? 47) with true. cbn [andb]. cbn [tl]. rewrite to_eol_app by assumption. change (47 =? 10) with false. cbn iota. exact SC.
  - change (isspace 47) with false. cbn [ch nth tl]. change (47 =? 47) with true. change (42 =? 47) with false. change (42 =? 42) with true. cbn [andb]. change (47 =? 10) with false. cbn iota.
    destruct a as [|c a].
    + cbn [app]. cbn [nth]. change (42 =? 47) with false. cbn iota. pose proof (skip_comment_app [] 42 n z ltac:(intros ([|? [|]] & ? & K); discriminate)) as K0. cbn [app] in K0. rewrite K0. exact SC.
    + cbn [app nth]. zcase c 47.
      * cbn [tl]. rewrite (skip_comment_app a 47 n z H). rewrite (newlines_cons 47 a) in SC. exact SC.
      * change (c :: a ++ 42 :: 47 :: z) with ((c :: a) ++ 42 :: 47 :: z). rewrite (skip_comment_app (c :: a) 42 n z); [exact SC|].
        apply no_comment_end; [exact H|]. intros _ d r K. inversion K; subst. intros [<-|[]]. rewrite Z.eqb_refl in E0. discriminate.
  - change (isspace 34) with false. change (34 =? 47) with false. change (34 =? 34) with true. change (34 =? 10) with false. cbn [andb]. cbn iota. rewrite scan_string_app by assumption. cbn [tl].
    rewrite SC. cbn [app]. apply CONS.
  - change (isspace 123) with false. change (123 =? 47) with false. change (123 =? 34) with false. change (123 =? 123) with true. change (123 =? 10) with false. cbn [andb]. cbn iota.
    rewrite (scan_code_ok a (MCode 1) n z); [|cbn [okm]; rewrite <- (app_nil_r a); apply code_codes; [exact H|constructor|intros ? ? K; discriminate]|exact Logic.I].
    cbn [bind tl]. rewrite SC. cbn [app]. apply CONS.
  - destruct (alnum_not c H) as (A1 & A2 & A3 & A4 & A5). rewrite A1, A2, A3, A4, A5, H. cbn [andb]. change (c :: a ++ z) with ((c :: a) ++ z). rewrite (word_app (c :: a) z); [|cbn; rewrite alnum_word; auto|assumption].
    rewrite SC. apply CONS.
  - cbn [ch nth tl]. change (isspace 58) with false. change (58 =? 47) with false. change (58 =? 34) with false. change (58 =? 123) with false. change (isalnum 58) with false. change (58 =? 58) with true. change (61 =? 61) with true. cbn [andb]. change (58 =? 10) with false. cbn iota.
    rewrite SC. apply CONS.
  - cbn [app ch nth tl].
    assert (B : isspace b = false /\ b =? 34 = false /\ b =? 123 = false /\ b =? 10 = false /\ b =? 58 = false /\ isalnum b = false /\ (b =? 47) || (b =? 124) = true) by (destruct H; subst b; auto 10).
    destruct B as (-> & -> & -> & -> & -> & -> & B7). assert (C : (c =? 47) = false /\ (c =? 42) = false).
    { unfold isalpha in H1. rewrite !orb_true_iff, !andb_true_iff, !Z.leb_le in H1. rewrite !Z.eqb_neq. lia. }
    destruct C as (-> & ->). rewrite !andb_false_r. cbn [andb]. rewrite B7, H1. cbn [andb]. rewrite (word_app a z) by assumption. rewrite SC. apply CONS.
  - rewrite H, H1. cbn in H2. assert (X1 : c =? 34 = false) by (apply Z.eqb_neq; lia). assert (X2 : c =? 123 = false) by (apply Z.eqb_neq; lia). rewrite X1, X2.
    assert (X0 : c =? 10 = false) by (apply Z.eqb_neq; intros ->; discriminate). rewrite X0.
    rewrite !ch0_next by lia.
    assert (X3 : (c =? 47) && match z with d :: _ => d =? 47 | [] => false end = false /\ (c =? 47) && match z with d :: _ => d =? 42 | [] => false end = false).
    { zcase c 47; [|auto]. cbn [andb]. destruct z as [|d z]; [auto|]. pose proof (H3 eq_refl d z eq_refl) as Y. cbn in Y. rewrite !Z.eqb_neq. lia. }
    destruct X3 as (-> & ->).
    assert (X4 : ((c =? 47) || (c =? 124)) && isalpha (ch z 0) = false).
    { destruct ((c =? 47) || (c =? 124)) eqn:EE; [|reflexivity]. cbn [andb]. rewrite orb_true_iff, !Z.eqb_eq in EE. destruct z as [|d z]; [reflexivity|]. cbn. eapply H4; eauto. }
    assert (X5 : (c =? 58) && match z with d :: _ => d =? 58 | [] => false end && (ch z 1 =? 61) = false).
    { zcase c 58; [|reflexivity]. cbn [andb]. destruct z as [|d z]; [reflexivity|]. zcase d 58; [|reflexivity]. destruct z as [|d z]; [reflexivity|]. cbn [ch nth andb]. zcase d 61; [|reflexivity]. now destruct (H5 eq_refl z). }
    rewrite X4, X5. rewrite SC. apply CONS.
Qed.

(** ** The ends of a text *)
Lemma scan_complete : forall fuel n z, complete z -> (length z < fuel)%nat -> scan fuel n z = Ok [].
Proof.
  intros [|fuel] n z C F; [lia|]. destruct C as [->|(a & -> & H)]; [reflexivity|]. cbn [scan].
  change (isspace 47) with false. cbn [ch nth tl]. change (47 =? 47) with true. change (42 =? 47) with false. change (42 =? 42) with true. cbn [andb]. change (47 =? 10) with false. cbn iota.
  assert (SC : forall p r n', ~ contains [42; 47] (p :: r) -> (length r < fuel)%nat -> (let (r2, line2) := skip_comment p n' r in scan fuel line2 r2) = Ok []).
  { intros p r n' N L. pose proof (skip_comment_open r p n' N) as S0. destruct (skip_comment p n' r) as [r2 l2]. cbn in S0. subst r2. destruct fuel; [lia|reflexivity]. }
  destruct a as [|c a]; [cbn [nth]; change (0 =? 47) with false; cbn iota; apply SC; [intros ([|? [|]] & ? & K); discriminate|cbn in F |- *; lia]|].
  cbn [nth]. zcase c 47; cbn [tl]; apply SC; try (cbn in F |- *; lia); [exact H|]. apply no_comment_end; [exact H|]. intros _ d r K. inversion K; subst. intros [<-|[]]. rewrite Z.eqb_refl in E. discriminate.
Qed.

Lemma scan_open_string : forall fuel n z, open_string z -> (length z < fuel)%nat -> scan fuel n z = Ok [EvErr; EvTok n z].
Proof.
  intros [|fuel] n z (a & -> & H) F; [lia|]. cbn [scan]. change (isspace 34) with false. change (34 =? 47) with false. change (34 =? 34) with true. change (34 =? 10) with false. cbn [andb]. cbn iota.
  destruct (scan_string n a) as [[x b] l] eqn:S1. destruct (scan_string_inv _ _ _ _ _ S1) as (-> & _ & [->|(r & ->)] & _); [|destruct H; apply in_app_iff; right; now left].
  cbn [tl]. destruct fuel; [cbn in F; lia|]. cbn [scan bind app]. now rewrite app_nil_r.
Qed.

Lemma scan_open_code : forall fuel n z, open_code z -> (length z < fuel)%nat -> scan fuel n z = Ok [EvErr; EvTok n z].
Proof.
  intros [|fuel] n z (a & -> & H) F; [lia|]. cbn [scan]. change (isspace 123) with false. change (123 =? 47) with false. change (123 =? 34) with false. change (123 =? 123) with true. change (123 =? 10) with false. cbn [andb]. cbn iota.
  destruct (scan_code_runs (fun r => r = []) a (MCode 1) n H Logic.I) as (u & z & k & -> & -> & ->). cbn [scan_code prefixed bind tl app]. destruct fuel; [cbn in F; lia|]. cbn [scan bind]. reflexivity.
Qed.

Lemma scan_overrun : forall fuel n z, overrun z -> (length z < fuel)%nat -> scan fuel n z = Bad.
Proof.
  intros [|fuel] n z (a & -> & H) F; [lia|]. cbn [scan]. change (isspace 123) with false. change (123 =? 47) with false. change (123 =? 34) with false. change (123 =? 123) with true. change (123 =? 10) with false. cbn [andb]. cbn iota.
  destruct (scan_code_runs unclosed a (MCode 1) n H Logic.I) as (u & z & k & -> & U & ->). now rewrite (unclosed_bad _ _ _ U).
Qed.

(** Every text has tokens and one of the four ends. *)
Definition some_end (z : text) : Prop := complete z \/ open_string z \/ open_code z \/ overrun z.

Lemma lexes_total : forall k n z, (length z <= k)%nat -> exists l, lexes some_end n z l.
Proof.
  induction k as [|k IH]; intros n z L. { destruct z; [|cbn in L; lia]. exists []. apply lx_end. left. now left. }
  destruct z as [|c r]; [exists []; apply lx_end; left; now left|]. cbn in L.
  destruct (isspace c) eqn:SP. { destruct (IH (n + newlines [c]) r ltac:(lia)) as (l & X). exists l. now apply lx_blank. }
  destruct ((c =? 47) && match r with d :: _ => d =? 47 | [] => false end) eqn:E1.
  { apply andb_true_iff in E1 as (E1 & E2). apply Z.eqb_eq in E1. destruct r as [|d r]; [discriminate|]. apply Z.eqb_eq in E2. subst c d. destruct (to_eol_inv r) as (a & A & B & C).
    assert (LT : (length (to_eol r) <= k)%nat) by (rewrite A in L; cbn in L; rewrite app_length in L; lia). destruct (IH n (to_eol r) LT) as (l & X). exists l. rewrite A. now apply lx_line. }
  destruct ((c =? 47) && match r with d :: _ => d =? 42 | [] => false end) eqn:E2.
  { apply andb_true_iff in E2 as (E2 & E3). apply Z.eqb_eq in E2. destruct r as [|d r]; [discriminate|]. apply Z.eqb_eq in E3. subst c d. cbn in L.
    destruct (skip_comment 0 n r) as [z' n'] eqn:SK. destruct (skip_comment_inv _ _ _ _ _ SK) as [(A & _)|[(A & _)|(a & -> & A & _)]]; [|discriminate|].
    - exists []. apply lx_end. left. right. exists r. split; [reflexivity|]. intros K. apply A. now apply contains_cons.
    - destruct (IH (n + newlines a) z') as (l & X); [rewrite app_length in L; cbn in L; lia|]. exists l. apply lx_comment; [|exact X]. intros K. apply A. now apply contains_cons. }
  destruct (c =? 34) eqn:E3.
  { apply Z.eqb_eq in E3. subst c. destruct (scan_string n r) as [[a b] l2] eqn:S1. destruct (scan_string_inv _ _ _ _ _ S1) as (-> & A & [->|(r' & ->)] & _).
    - exists []. apply lx_end. right. left. exists a. rewrite app_nil_r. auto.
    - destruct (IH (n + newlines a) r') as (l & X); [rewrite app_length in L; cbn in L; lia|]. eexists. apply lx_string; [exact A|exact X]. }
  destruct (c =? 123) eqn:E4.
  { apply Z.eqb_eq in E4. subst c. destruct (scan_code_total r (MCode 1) n Logic.I ltac:(cbn; lia)) as [(a & b & l2 & S1)|[B|[[]|B]]].
    - destruct (scan_code_inv _ _ _ _ _ _ S1) as (-> & _ & [X|(_ & A)]); [cbn; lia|exact Logic.I|discriminate|].
      destruct (IH (n + newlines a) b) as (l & X); [rewrite app_length in L; cbn in L; lia|]. eexists. apply lx_code; [exact (codes_closed 1 a A)|exact X].
    - exists []. apply lx_end. right. right. left. exists r. auto.
    - exists []. apply lx_end. right. right. right. exists r. auto. }
  destruct (isalnum c) eqn:E5.
  { destruct (word r) as [a b] eqn:W. destruct (word_inv _ _ _ W) as (-> & B & C). destruct (IH n b) as (l & X); [rewrite app_length in L; lia|]. eexists. apply lx_word; eauto. }
  destruct ((c =? 58) && match r with d :: _ => d =? 58 | [] => false end && (ch r 1 =? 61)) eqn:E6.
  { apply andb_true_iff in E6 as (E6 & E7). apply andb_true_iff in E6 as (E6 & E8). destruct r as [|d r]; [discriminate|]. apply Z.eqb_eq in E6, E8. destruct r as [|e r]; [discriminate|]. cbn in E7. apply Z.eqb_eq in E7. subst. cbn in L.
    destruct (IH n r ltac:(lia)) as (l & X). eexists. apply lx_arrow. exact X. }
  destruct (((c =? 47) || (c =? 124)) && isalpha (ch r 0)) eqn:E7.
  { apply andb_true_iff in E7 as (E7 & E8). rewrite orb_true_iff, !Z.eqb_eq in E7. destruct r as [|d r]; [discriminate|]. cbn [ch nth] in E8. destruct (word r) as [a b] eqn:W.
    destruct (word_inv _ _ _ W) as (-> & B & C). destruct (IH n b) as (l & X); [cbn in L; rewrite app_length in L; lia|]. eexists. apply lx_alt; eauto. }
  destruct (IH n r ltac:(lia)) as (l & X). eexists. apply Z.eqb_neq in E3, E4. apply lx_char; eauto.
  - cbn. lia.
  - intros ->. cbn [Z.eqb Pos.eqb andb] in E1, E2. intros d r' K. subst r. apply Z.eqb_neq in E1, E2. cbn. lia.
  - intros Y d r' K. subst r. assert (Y' : (c =? 47) || (c =? 124) = true) by (rewrite orb_true_iff, !Z.eqb_eq; tauto). rewrite Y' in E7. exact E7.
  - intros -> r' K. subst r. discriminate.
Qed.

(** The end of a text can be singled out. *)
Lemma lexes_or : forall A B n z l, lexes (fun z => A z \/ B z) n z l -> lexes A n z l \/ lexes B n z l.
Proof.
  induction 1 as [n z [H|H]| | | | | | | | | ]; [left; now constructor|right; now constructor|..]; destruct IHlexes as [X|X]; [left|right|left|right|left|right|left|right|left|right|left|right|left|right|left|right|left|right].
  - apply lx_blank; auto.
  - apply lx_blank; auto.
  - apply lx_line; auto.
  - apply lx_line; auto.
  - apply lx_comment; auto.
  - apply lx_comment; auto.
  - apply lx_string; auto.
  - apply lx_string; auto.
  - apply lx_code; auto.
  - apply lx_code; auto.
  - apply lx_word; auto.
  - apply lx_word; auto.
  - apply lx_arrow; auto.
  - apply lx_arrow; auto.
  - apply lx_alt; auto.
  - apply lx_alt; auto.
  - apply lx_char; auto.
  - apply lx_char; auto.
Qed.
