(** The tokens of a C text, as far as tables of numbers need them: words, decimal numbers, strings, punctuation,
    comments and directives ("#" at the start of a line).  Written after the C standard, not after the programs that
    print such texts.  Two-character operators are two tokens; character constants, octal numbers, "//", backslashes
    outside of strings and, in strings, escapes other than those of backslash and quote are left out: they have no
    tokens here. *)
From Coq Require Import String List Arith ZArith Bool Lia.
Import ListNotations.
From Verif Require Import Base LemonTableModel LemonPreModel LemonCodeModel Prop_LemonPrintf.

Inductive ctok : Type :=
| CW (w : txt)          (** a word *)
| CN (v : Z)            (** a number *)
| CP (c : Z)            (** a punctuation character *)
| CS (s : txt)          (** a string: its characters *)
| CD (l : list ctok).   (** a directive: the tokens after "#" *)

Definition w0 (c : Z) : bool := isalpha c || (c =? 95)%Z.
Definition digit (c : Z) : Prop := (48 <= c <= 57)%Z.
Definition punct (c : Z) : Prop := (33 <= c <= 126)%Z /\ wordch c = false /\ c <> 34%Z /\ c <> 39%Z /\ c <> 92%Z.
Definition strch (c : Z) : Prop := (32 <= c <= 126)%Z /\ c <> 34%Z /\ c <> 92%Z.

(** The characters between the quotes of a string, and the string. *)
Inductive cstr : txt -> txt -> Prop :=
| cs_nil : cstr [] []
| cs_char : forall c s v, strch c -> cstr s v -> cstr (c :: s) (c :: v)
| cs_esc : forall c s v, c = 34%Z \/ c = 92%Z -> cstr s v -> cstr (92%Z :: c :: s) (c :: v).

(** A word or number ends before [t]. *)
Definition ends (t : txt) : Prop := match t with [] => True | c :: _ => wordch c = false /\ c <> 46%Z end.

(** No comment ends inside [c] when its end stands after it. *)
Definition no_close (c : txt) : Prop := forall x y, c ++ [42%Z] <> x ++ 42%Z :: 47%Z :: y.

(** [clex b t ts]: the tokens of [t] are [ts]; [b] says whether nothing but blanks and comments stands before [t] on
    its line. *)
Inductive clex : bool -> txt -> list ctok -> Prop :=
| cl_end : forall b, clex b [] []
| cl_blank : forall b c t ts, c = 32%Z \/ c = 9%Z -> clex b t ts -> clex b (c :: t) ts
| cl_line : forall b t ts, clex true t ts -> clex b (10%Z :: t) ts
| cl_comment : forall b c t ts, no_close c -> clex b t ts -> clex b (47%Z :: 42%Z :: c ++ 42%Z :: 47%Z :: t) ts
| cl_word : forall b c w t ts, w0 c = true -> Forall (fun c => wordch c = true) w -> ends t -> clex false t ts -> clex b (c :: w ++ t) (CW (c :: w) :: ts)
| cl_num : forall b c d t ts, digit c -> Forall digit d -> (c = 48%Z -> d = []) -> ends t -> clex false t ts -> clex b (c :: d ++ t) (CN (value (c :: d)) :: ts)
| cl_str : forall b s v t ts, cstr s v -> clex false t ts -> clex b (34%Z :: s ++ 34%Z :: t) (CS v :: ts)
| cl_punct : forall b c t ts, punct c -> (c = 35%Z -> b = false) -> (c = 47%Z -> match t with d :: _ => d <> 42%Z /\ d <> 47%Z | [] => True end) ->
    clex false t ts -> clex b (c :: t) (CP c :: ts)
| cl_dir : forall l t ls ts, ~ In 10%Z l -> clex false l ls -> clex true t ts -> clex true (35%Z :: l ++ 10%Z :: t) (CD ls :: ts).

(** * A text has one list of tokens *)

Lemma split_unique : forall (P Q : Z -> Prop) a b x y, (forall c, P c -> Q c -> False) -> Forall P a -> Forall P b ->
  match x with [] => True | c :: _ => Q c end -> match y with [] => True | c :: _ => Q c end -> a ++ x = b ++ y -> a = b /\ x = y.
Proof.
  induction a as [|c a IH]; intros b x y D A B X Y E.
  - destruct b as [|d b]; [split; [reflexivity|exact E]|]. cbn [app] in E. subst x. inversion B; subst. exfalso. eapply D; eauto.
  - inversion A; subst. destruct b as [|d b].
    + cbn [app] in E. subst y. exfalso. eapply D; eauto.
    + cbn [app] in E. injection E as -> E. inversion B; subst. destruct (IH b x y) as (-> & ->); auto.
Qed.

Lemma cstr_unique : forall s v, cstr s v -> forall s' v' t t', cstr s' v' -> s ++ 34%Z :: t = s' ++ 34%Z :: t' -> v = v' /\ t = t'.
Proof.
  induction 1 as [|c s v C H IH|c s v C H IH]; intros s' v' t t' H' E; destruct H' as [|c' s2 v2 C' H2|c' s2 v2 C' H2]; cbn [app] in E.
  - injection E as ->. auto.
  - exfalso. injection E as E1 E2. unfold strch in C'. lia.
  - discriminate.
  - exfalso. injection E as E1 E2. unfold strch in C. lia.
  - injection E as -> E. destruct (IH _ _ _ _ H2 E) as (-> & ->). auto.
  - exfalso. injection E as E1 E2. unfold strch in C. lia.
  - discriminate.
  - exfalso. injection E as E1 E2. unfold strch in C'. lia.
  - injection E as -> E. destruct (IH _ _ _ _ H2 E) as (-> & ->). auto.
Qed.

Lemma comment_unique : forall a b x y, no_close a -> no_close b -> a ++ 42%Z :: 47%Z :: x = b ++ 42%Z :: 47%Z :: y -> a = b /\ x = y.
Proof.
  assert (K : forall a b x y, a ++ 42%Z :: 47%Z :: x = b ++ 42%Z :: 47%Z :: y -> List.length a < List.length b -> no_close b -> False).
  { clear. induction a as [|c a IH]; intros b x y E L N.
    - destruct b as [|d b]; [cbn in L; lia|]. cbn [app] in E. injection E as <- E. destruct b as [|d b].
      + cbn [app] in E. discriminate.
      + cbn [app] in E. injection E as <- E. eapply (N [] (b ++ [42%Z])). reflexivity.
    - destruct b as [|d b]; [cbn in L; lia|]. cbn [app] in E. injection E as <- E. eapply (IH b); [exact E|cbn in L; lia|].
      intros u v F. apply (N (c :: u) v). cbn [app]. now rewrite F. }
  intros a b x y A B E. destruct (Nat.lt_trichotomy (List.length a) (List.length b)) as [L|[L|L]].
  - exfalso. eapply K; eauto.
  - apply app_eq_app in E as (l & [(E1 & E2)|(E1 & E2)]); subst; rewrite app_length in L; destruct l; cbn in L; try lia; rewrite app_nil_r; cbn [app] in E2; injection E2 as E2; auto.
  - exfalso. symmetry in E. eapply K; eauto.
Qed.

Theorem clex_deterministic : forall b t ts, clex b t ts -> forall ts', clex b t ts' -> ts = ts'.
Proof.
  assert (WC : forall c, w0 c = true -> (c <> 32 /\ c <> 9 /\ c <> 10 /\ c <> 47 /\ c <> 34 /\ c <> 35 /\ (c < 48 \/ c > 57))%Z /\ wordch c = true).
  { intros c H. unfold w0, wordch, isalnum, isalpha in *. split; [|lia]. lia. }
  assert (DC : forall c, digit c -> (c <> 32 /\ c <> 9 /\ c <> 10 /\ c <> 47 /\ c <> 34 /\ c <> 35)%Z /\ wordch c = true).
  { intros c H. unfold digit, wordch, isalnum in *. split; [lia|]. unfold isalpha. lia. }
  assert (PC : forall c, punct c -> (c <> 32 /\ c <> 9 /\ c <> 10 /\ c <> 34)%Z /\ wordch c = false) by (intros c (H1 & H2 & H3 & _); split; [lia|exact H2]).
  assert (EN : forall a b x y, Forall (fun c => wordch c = true) a -> Forall (fun c => wordch c = true) b -> ends x -> ends y -> a ++ x = b ++ y -> a = b /\ x = y).
  { intros a b x y A B X Y. apply (split_unique (fun c => wordch c = true) (fun c => wordch c = false)); auto; [intros; congruence| |]; [destruct x|destruct y]; cbn in *; tauto. }
  induction 1 as [b|b c t ts C H IH|b t ts H IH|b c t ts C H IH|b c w t ts C W E H IH|b c d t ts C D Z0 E H IH|b s v t ts F H IH|b c t ts P B K H IH|l t ls ts N L IL H IH]; intros ts' H'.
  - inversion H'; reflexivity.
  - inversion H'; subst; try (apply IH; assumption); exfalso;
      repeat match goal with X : w0 _ = true |- _ => apply WC in X | X : digit _ |- _ => apply DC in X | X : punct _ |- _ => apply PC in X end; lia.
  - inversion H'; subst; try (apply IH; assumption); exfalso;
      repeat match goal with X : w0 _ = true |- _ => apply WC in X | X : digit _ |- _ => apply DC in X | X : punct _ |- _ => apply PC in X end; lia.
  - inversion H' as [|? ? ? ? C'|? ? ? ?|? c' t' ? C' H'' Q1 Q2|? ? ? ? ? W'|? ? ? ? ? D'|? ? ? ? ? F'|? ? ? ? P' B' K'|? ? ? ? N']; subst; try lia.
    + destruct (comment_unique c' c t' t C' C) as (-> & ->); [congruence|]. apply IH. assumption.
    + apply WC in W'. lia.
    + apply DC in D'. lia.
  - destruct (WC _ C) as (C1 & C2). inversion H' as [|? ? ? ? C'|? ? ? ?|? c' t' ? C' H'' Q1 Q2|? c' w' t' ts2 W' W2 E2 H2 Q1|? ? ? ? ? D'|? ? ? ? ? F'|? ? ? ? P' B' K'|? ? ? ? N']; subst; try lia.
    + destruct (EN w' w t' t) as (-> & ->); auto. f_equal. apply IH. assumption.
    + unfold digit in D'. lia.
    + apply PC in P'. destruct P' as (_ & P'). congruence.
  - destruct (DC _ C) as (C1 & C2). assert (DW : forall d, Forall digit d -> Forall (fun c => wordch c = true) d) by (intros d0; apply Forall_impl; intros a; apply DC).
    inversion H' as [|? ? ? ? C'|? ? ? ?|? c' t' ? C' H'' Q1 Q2|? c' w' t' ts2 W' W2 E2 H2 Q1|? c' d' t' ts2 D' D2 Z2 E2 H2 Q1|? ? ? ? ? F'|? ? ? ? P' B' K'|? ? ? ? N']; subst; try lia.
    + apply WC in W'. unfold digit in C. lia.
    + destruct (EN d' d t' t) as (-> & ->); auto. f_equal. apply IH. assumption.
    + apply PC in P'. destruct P' as (_ & P'). congruence.
  - inversion H' as [|? ? ? ? C'|? ? ? ?|? c' t' ? C' H'' Q1 Q2|? c' w' t' ts2 W' W2 E2 H2 Q1|? c' d' t' ts2 D' D2 Z2 E2 H2 Q1|? s' v' t' ts2 F' H2 Q1 Q2|? ? ? ? P' B' K'|? ? ? ? N']; subst; try lia.
    + apply WC in W'. lia.
    + apply DC in D'. lia.
    + destruct (cstr_unique _ _ F' _ _ t' t F) as (-> & ->); [congruence|]. f_equal. apply IH. assumption.
    + apply PC in P'. lia.
  - destruct (PC _ P) as (P1 & P2). inversion H' as [|? ? ? ? C'|? ? ? ?|? c' t' ? C' H'' Q1 Q2|? c' w' t' ts2 W' W2 E2 H2 Q1|? c' d' t' ts2 D' D2 Z2 E2 H2 Q1|? s' v' t' ts2 F' H2 Q1 Q2|? ? ? ? P' B' K'|? ? ? ? N']; subst; try lia.
    + apply WC in W'. destruct W' as (_ & W'). congruence.
    + apply DC in D'. destruct D' as (_ & D'). congruence.
    + f_equal. apply IH. assumption.
  - inversion H' as [|? ? ? ? C'|? ? ? ?|? c' t' ? C' H'' Q1 Q2|? c' w' t' ts2 W' W2 E2 H2 Q1|? c' d' t' ts2 D' D2 Z2 E2 H2 Q1|? s' v' t' ts2 F' H2 Q1 Q2|? ? ? ? P' B' K'|l' t' ls' ts2 N' L' H2 Q1]; subst; try lia.
    + apply WC in W'. lia.
    + apply DC in D'. lia.
    + destruct (split_unique (fun c => c <> 10%Z) (fun c => c = 10%Z) l' l (10%Z :: t') (10%Z :: t)) as (-> & Q); auto.
      1,2: apply Forall_forall; intros c I ->; contradiction.
      injection Q as ->. rewrite (IL _ L'). f_equal. apply IH. assumption.
Qed.

(** * Definitions of constants and tables *)

Definition W (s : string) : ctok := CW (zs s).
Definition cnum (v : Z) : list ctok := if (v <? 0)%Z then [CP 45%Z; CN (- v)%Z] else [CN v].
(** #define n v, or with parentheses; #define n words *)
Definition cdef (n : string) (v : Z) : list ctok := [CD (W "define" :: W n :: cnum v)].
Definition cdefp (n : string) (v : Z) : list ctok := [CD (W "define" :: W n :: CP 40%Z :: cnum v ++ [CP 41%Z])].
Definition cdefw (n : string) (ws : list string) : list ctok := [CD (W "define" :: W n :: map W ws)].
(** mods type n[] = { v, v, ... }; *)
Definition carray (mods : list string) (n : txt) (vs : list Z) : list ctok :=
  map W mods ++ [CW n; CP 91%Z; CP 93%Z; CP 61%Z; CP 123%Z] ++ flat_map (fun v => cnum v ++ [CP 44%Z]) vs ++ [CP 125%Z; CP 59%Z].

(** The tokens tell the numbers. *)
Lemma cnum_inj : forall v w x y, cnum v ++ CP 44%Z :: x = cnum w ++ CP 44%Z :: y -> v = w /\ x = y.
Proof.
  intros v w x y. unfold cnum. destruct (Z.ltb_spec v 0), (Z.ltb_spec w 0); cbn [app]; intros E; try discriminate; injection E as E1 E2; split; auto; lia.
Qed.
Lemma carray_inj : forall m n vs ws, carray m n vs = carray m n ws -> vs = ws.
Proof.
  intros m n vs ws E. unfold carray in E. apply app_inv_head in E. cbn [app] in E. injection E as E. revert ws E.
  induction vs as [|v vs IH]; intros [|w ws] E; auto.
  - exfalso. cbn [flat_map app] in E. unfold cnum in E. destruct (w <? 0)%Z; cbn [app] in E; discriminate.
  - exfalso. cbn [flat_map app] in E. unfold cnum in E. destruct (v <? 0)%Z; cbn [app] in E; discriminate.
  - cbn [flat_map] in E. rewrite <- !app_assoc in E. cbn [app] in E. apply cnum_inj in E as (-> & E). now rewrite (IH ws E).
Qed.
