(** Reading printed C texts: literal lines are computed, numbers and comments are put between them. *)
From Coq Require Import String List Arith ZArith NArith Bool Lia.
Import ListNotations.
From Verif Require Import Base LemonTableModel LemonPreModel LemonCodeModel Prop_LemonPrintf SpecCode LemonCodeProof LemonReprintModel SpecCText.

(** [t] has the tokens [ts] whatever follows it. *)
Definition lexed (b : bool) (t : txt) (ts : list ctok) (b' : bool) : Prop :=
  forall u us, clex b' u us -> clex b (t ++ u) (ts ++ us).

Lemma lexed_nil : forall b, lexed b [] [] b.
Proof. intros b u us H. exact H. Qed.
Lemma lexed_app : forall b t ts b1 t1 ts1 b2, lexed b t ts b1 -> lexed b1 t1 ts1 b2 -> lexed b (t ++ t1) (ts ++ ts1) b2.
Proof. intros b t ts b1 t1 ts1 b2 A B u us H. rewrite <- !app_assoc. apply A, B, H. Qed.
Lemma lexed_clex : forall b t ts b', lexed b t ts b' -> clex b t ts.
Proof. intros b t ts b' H. specialize (H [] [] (cl_end _)). now rewrite !app_nil_r in H. Qed.

Lemma lexed_blanks : forall b n, lexed b (repeat 32%Z n) [] b.
Proof. intros b n u us H. induction n as [|n IH]; [exact H|]. cbn [repeat app]. apply cl_blank; [now left|exact IH]. Qed.

(** * A lexer that computes, for the literal parts *)

Fixpoint span (p : Z -> bool) (t : txt) : txt * txt :=
  match t with c :: r => if p c then let (a, b) := span p r in (c :: a, b) else ([], t) | [] => ([], []) end.
Definition endsb (t : txt) : bool := match t with [] => true | c :: _ => negb (wordch c) && negb (c =? 46)%Z end.
Definition digitb (c : Z) : bool := ((48 <=? c) && (c <=? 57))%Z.
Definition punctb (c : Z) : bool := ((33 <=? c) && (c <=? 126) && negb (wordch c) && negb (c =? 34) && negb (c =? 39) && negb (c =? 92) && negb (c =? 47))%Z.
Fixpoint lexb (f : nat) (b : bool) (t : txt) : option (list ctok) :=
  match f with
  | 0 => None
  | S f =>
      match t with
      | [] => Some []
      | c :: r =>
          if (c =? 32)%Z then lexb f b r
          else if (c =? 10)%Z then lexb f true r
          else if w0 c then let (w, r') := span wordch r in if endsb r' then option_map (cons (CW (c :: w))) (lexb f false r') else None
          else if digitb c then let (w, r') := span digitb r in if endsb r' && (negb (c =? 48)%Z || match w with [] => true | _ => false end) then option_map (cons (CN (value (c :: w)))) (lexb f false r') else None
          else if (c =? 35)%Z && b then
            let (l, r') := span (fun c => negb (c =? 10)%Z) r in
            match r' with
            | _ :: r'' => match lexb f false l, lexb f true r'' with Some ls, Some ts => Some (CD ls :: ts) | _, _ => None end
            | [] => None
            end
          else if punctb c then option_map (cons (CP c)) (lexb f false r) else None
      end
  end.

Lemma span_spec : forall p t a b, span p t = (a, b) -> t = a ++ b /\ Forall (fun c => p c = true) a /\ match b with [] => True | c :: _ => p c = false end.
Proof.
  intros p. induction t as [|c t IH]; intros a b E; cbn [span] in E.
  - injection E as <- <-. repeat split; constructor.
  - destruct (p c) eqn:C.
    + destruct (span p t) as (a0 & b0). injection E as <- <-. destruct (IH _ _ eq_refl) as (-> & H1 & H2). repeat split; auto.
    + injection E as <- <-. repeat split; auto.
Qed.
Lemma endsb_ok : forall t, endsb t = true -> ends t.
Proof. intros [|c t] H; [exact Logic.I|]. cbn in *. apply andb_true_iff in H as (H1 & H2). split; [now destruct (wordch c)|lia]. Qed.

Lemma lexb_ok : forall f b t ts, lexb f b t = Some ts -> clex b t ts.
Proof.
  induction f as [|f IH]; intros b t ts E; [discriminate|]. cbn [lexb] in E. destruct t as [|c r]; [injection E as <-; constructor|].
  destruct (Z.eqb_spec c 32) as [->|C1]; [apply cl_blank; auto|]. destruct (Z.eqb_spec c 10) as [->|C2]; [apply cl_line; auto|].
  destruct (w0 c) eqn:C3.
  { destruct (span wordch r) as (w & r') eqn:S1. apply span_spec in S1 as (-> & S2 & _). destruct (endsb r') eqn:S3; [|discriminate]. destruct (lexb f false r') eqn:L; [|discriminate]. injection E as <-.
    apply cl_word; auto. now apply endsb_ok. }
  destruct (digitb c) eqn:C4.
  { destruct (span digitb r) as (w & r') eqn:S1. apply span_spec in S1 as (-> & S2 & _). destruct (endsb r') eqn:S3; [|discriminate]. destruct (_ || _) eqn:S4; [|discriminate]. cbn [andb] in E. destruct (lexb f false r') eqn:L; [|discriminate]. injection E as <-.
    apply cl_num; auto; [unfold digitb in C4; unfold digit; lia| | |now apply endsb_ok].
    - eapply Forall_impl; [|exact S2]. unfold digitb, digit. intros a. lia.
    - intros ->. cbn in S4. destruct w; [reflexivity|discriminate]. }
  destruct (_ && b) eqn:C5.
  { apply andb_true_iff in C5 as (C5 & ->). assert (c = 35%Z) as -> by lia. destruct (span _ r) as (l & r') eqn:S1. apply span_spec in S1 as (-> & S2 & S3). destruct r' as [|d r']; [discriminate|].
    assert (d = 10%Z) as -> by lia. destruct (lexb f false l) eqn:L1; [|discriminate]. destruct (lexb f true r') eqn:L2; [|discriminate]. injection E as <-.
    apply cl_dir; auto. intros I. rewrite Forall_forall in S2. specialize (S2 _ I). discriminate. }
  destruct (punctb c) eqn:C6; [|discriminate]. destruct (lexb f false r) eqn:L; [|discriminate]. injection E as <-.
  unfold punctb in C6. repeat (apply andb_true_iff in C6 as (C6 & ?)). apply cl_punct; auto; [|intros ->; destruct b; [discriminate C5|reflexivity]|intros ->; discriminate].
  unfold punct. repeat split; try lia. now destruct (wordch c).
Qed.

Lemma last_app : forall (a b : txt) d, b <> [] -> List.last (a ++ b) d = List.last b d.
Proof.
  induction a as [|c a IH]; intros b d N; [reflexivity|]. cbn [app]. destruct (a ++ b) as [|x y] eqn:E; [apply app_eq_nil in E as (_ & E); contradiction|].
  change (List.last (x :: y) d = List.last b d). rewrite <- E. now apply IH.
Qed.
Lemma last_in : forall (a : txt) d, a <> [] -> In (List.last a d) a.
Proof. induction a as [|c a IH]; intros d N; [contradiction|]. destruct a as [|x a]; [now left|]. right. now apply IH. Qed.

(** Lines. *)
Lemma clex_line : forall b t ts, clex b t ts -> List.last t 0%Z = 10%Z -> lexed b t ts true.
Proof.
  assert (LC : forall c t, List.last (c :: t) 0%Z = 10%Z -> c <> 10%Z -> t <> [] /\ List.last t 0%Z = 10%Z) by (intros c [|d t] H N; [cbn in H; contradiction|split; [discriminate|exact H]]).
  assert (LA : forall a t, List.last (a ++ t) 0%Z = 10%Z -> Forall (fun c => c <> 10%Z) a -> a <> [] -> t <> [] /\ List.last t 0%Z = 10%Z).
  { intros a t H N NE. destruct t as [|d t]; [exfalso; rewrite app_nil_r in H; rewrite Forall_forall in N; apply (N (List.last a 0%Z)); [now apply last_in|exact H]|].
    split; [discriminate|]. rewrite last_app in H by discriminate. exact H. }
  assert (WN : forall c, wordch c = true -> c <> 10%Z) by (intros c H ->; discriminate).
  assert (EA : forall t u, t <> [] -> ends t -> ends (t ++ u)) by (intros [|c t] u N H; [contradiction|exact H]).
  induction 1 as [b|b c t ts C H IH|b t ts H IH|b c t ts C H IH|b c w t ts C W E H IH|b c d t ts C D Z0 E H IH|b s v t ts F H IH|b c t ts P B K H IH|l t ls ts N L _ H IH]; intros LT u us HU.
  - discriminate.
  - apply LC in LT as (_ & LT); [|lia]. cbn [app]. apply cl_blank; [exact C|]. now apply IH.
  - cbn [app]. apply cl_line. destruct t as [|d t]; [|now apply IH]. inversion H; subst. exact HU.
  - cbn [app]. rewrite <- app_assoc. cbn [app]. apply cl_comment; [exact C|]. apply IH; [|exact HU]. change (47%Z :: 42%Z :: c ++ 42%Z :: 47%Z :: t) with ((47%Z :: 42%Z :: c) ++ [42%Z; 47%Z] ++ t) in LT. rewrite last_app in LT by discriminate.
    apply LA in LT; [apply LT|repeat constructor; lia|discriminate].
  - cbn [app]. rewrite <- app_assoc. change (c :: w ++ t) with ((c :: w) ++ t) in LT. apply LA in LT as (NT & LT); [| |discriminate].
    + apply cl_word; auto. now apply IH.
    + constructor; [intros ->; discriminate|]. eapply Forall_impl; [|exact W]. exact WN.
  - cbn [app]. rewrite <- app_assoc. change (c :: d ++ t) with ((c :: d) ++ t) in LT. apply LA in LT as (NT & LT); [| |discriminate].
    + apply cl_num; auto. now apply IH.
    + constructor; [unfold digit in C; lia|]. eapply Forall_impl; [|exact D]. unfold digit. intros; lia.
  - cbn [app]. rewrite <- app_assoc. cbn [app]. eapply cl_str; [exact F|]. apply IH; [|exact HU]. change (34%Z :: s ++ 34%Z :: t) with ((34%Z :: s) ++ [34%Z] ++ t) in LT. rewrite last_app in LT by discriminate.
    apply LA in LT; [apply LT|repeat constructor; lia|discriminate].
  - cbn [app]. assert (c <> 10%Z) by (destruct P; lia). apply LC in LT as (NT & LT); [|assumption]. apply cl_punct; auto; [|now apply IH]. intros Q. specialize (K Q). destruct t; [contradiction|exact K].
  - cbn [app]. rewrite <- app_assoc. cbn [app]. apply cl_dir; auto. destruct t as [|d t]; [inversion H; subst; exact HU|]. apply IH; [|exact HU].
    change (35%Z :: l ++ 10%Z :: d :: t) with ((35%Z :: l) ++ [10%Z] ++ d :: t) in LT. rewrite last_app in LT by discriminate. exact LT.
Qed.

(** Words with a blank or a bracket behind them, on one line. *)
Lemma clex_part : forall b t ts, clex b t ts -> b = false -> (List.last t 0%Z = 32 \/ List.last t 0%Z = 40)%Z -> ~ In 10%Z t -> lexed false t ts false.
Proof.
  assert (LC : forall c t, (List.last (c :: t) 0 = 32 \/ List.last (c :: t) 0 = 40)%Z -> c <> 32%Z -> c <> 40%Z -> t <> [] /\ (List.last t 0 = 32 \/ List.last t 0 = 40)%Z) by (intros c [|d t] H N; [cbn in H; lia|split; [discriminate|exact H]]).
  assert (LA : forall a t, (List.last (a ++ t) 0 = 32 \/ List.last (a ++ t) 0 = 40)%Z -> Forall (fun c => c <> 32 /\ c <> 40)%Z a -> a <> [] -> t <> [] /\ (List.last t 0 = 32 \/ List.last t 0 = 40)%Z).
  { intros a t H N NE. destruct t as [|d t]; [exfalso; rewrite app_nil_r in H; rewrite Forall_forall in N; specialize (N _ (last_in a 0%Z NE)); cbn beta in N; lia|].
    split; [discriminate|]. rewrite last_app in H by discriminate. exact H. }
  assert (WN : forall c, wordch c = true -> (c <> 32 /\ c <> 40)%Z) by (intros c H; split; intros ->; discriminate).
  assert (EA : forall t u, t <> [] -> ends t -> ends (t ++ u)) by (intros [|c t] u N H; [contradiction|exact H]).
  induction 1 as [b|b c t ts C H IH|b t ts H IH|b c t ts C H IH|b c w t ts C W E H IH|b c d t ts C D Z0 E H IH|b s v t ts F H IH|b c t ts P B K H IH|l t ls ts N L _ H IH]; intros Eb LT N10 u us HU; subst.
  - cbn in LT. lia.
  - cbn [app]. apply cl_blank; [exact C|]. destruct t as [|d t]; [inversion H; subst; exact HU|]. apply IH; auto. intros I. apply N10. now right.
  - exfalso. apply N10. now left.
  - cbn [app]. rewrite <- app_assoc. cbn [app]. apply cl_comment; [exact C|]. change (47%Z :: 42%Z :: c ++ 42%Z :: 47%Z :: t) with ((47%Z :: 42%Z :: c) ++ [42%Z; 47%Z] ++ t) in *. rewrite last_app in LT by discriminate.
    apply LA in LT; [|repeat constructor; lia|discriminate]. apply IH; auto; [apply LT|]. intros I. apply N10. rewrite !in_app_iff. auto.
  - cbn [app]. rewrite <- app_assoc. change (c :: w ++ t) with ((c :: w) ++ t) in *. apply LA in LT as (NT & LT); [| |discriminate].
    + apply cl_word; auto. apply IH; auto. intros I. apply N10. rewrite in_app_iff. auto.
    + constructor; [split; intros ->; discriminate|]. eapply Forall_impl; [|exact W]. exact WN.
  - cbn [app]. rewrite <- app_assoc. change (c :: d ++ t) with ((c :: d) ++ t) in *. apply LA in LT as (NT & LT); [| |discriminate].
    + apply cl_num; auto. apply IH; auto. intros I. apply N10. rewrite in_app_iff. auto.
    + constructor; [unfold digit in C; lia|]. eapply Forall_impl; [|exact D]. unfold digit. intros; lia.
  - cbn [app]. rewrite <- app_assoc. cbn [app]. eapply cl_str; [exact F|]. change (34%Z :: s ++ 34%Z :: t) with ((34%Z :: s) ++ [34%Z] ++ t) in *. rewrite last_app in LT by discriminate.
    apply LA in LT; [|repeat constructor; lia|discriminate]. apply IH; auto; [apply LT|]. intros I. apply N10. rewrite !in_app_iff. auto.
  - cbn [app]. destruct t as [|d t].
    + inversion H; subst. cbn in LT. assert (c = 40%Z) as -> by (destruct P; lia). cbn [app]. apply cl_punct; auto; intros Q; discriminate.
    + apply cl_punct; auto. apply IH; auto. intros I. apply N10. now right.
  - discriminate.
Qed.

(** * Numbers *)

Lemma digits_lex : forall v, exists c d, dec (Z.abs_N v) = c :: d /\ digit c /\ Forall digit d /\ (c = 48%Z -> d = []) /\ value (c :: d) = Z.abs v.
Proof.
  intros v. destruct (dec_spec (Z.abs_N v)) as (D1 & D2 & D3). rewrite N2Z.inj_abs_N in D1.
  assert (DG : forall c, LemonPrintfModel.isdigit c = true -> digit c) by (intros c; unfold LemonPrintfModel.isdigit, digit; lia).
  destruct D3 as [D3|(c & r & D3 & N)]; rewrite D3 in *.
  - exists 48%Z, []. repeat split; auto; unfold digit; lia.
  - inversion D2; subst. exists c, r. split; [reflexivity|]. split; [auto|]. split; [eapply Forall_impl; [exact DG|assumption]|]. split; [contradiction|exact D1].
Qed.

Lemma num_clex : forall b v t ts, int_ok v -> ends t -> clex false t ts -> clex b (zdec v ++ t) (cnum v ++ ts).
Proof.
  intros b v t ts V E H. rewrite zdec_num by exact V. unfold num, cnum. destruct (digits_lex v) as (c & d & -> & C & D & Z0 & EV).
  destruct (Z.ltb_spec v 0) as [L|L]; cbn [app].
  - apply cl_punct; [repeat split; try lia; discriminate|discriminate|discriminate|]. replace (- v)%Z with (value (c :: d)) by lia. apply cl_num; auto.
  - replace v with (value (c :: d)) by lia. apply cl_num; auto.
Qed.

Lemma comma_lexed : forall b v n, int_ok v -> lexed b (pad_left n (zdec v) ++ [44%Z]) (cnum v ++ [CP 44%Z]) false.
Proof.
  intros b v n V u us H. unfold pad_left. rewrite <- !app_assoc. apply (lexed_blanks b _ _ (cnum v ++ [CP 44%Z] ++ us)). apply num_clex; [exact V|split; [reflexivity|discriminate]|].
  cbn [app]. apply cl_punct; [repeat split; try lia; discriminate|discriminate|discriminate|exact H].
Qed.

Lemma comment_lexed : forall b c, ~ In 42%Z c -> lexed b (zs "/*" ++ c ++ zs "*/") [] b.
Proof.
  intros b c N u us H. rewrite <- !app_assoc. cbn. apply cl_comment; [|exact H]. intros x y E.
  assert (L : List.last (x ++ 42%Z :: 47%Z :: y) 0%Z = 42%Z) by (rewrite <- E; rewrite last_app by discriminate; reflexivity).
  destruct (@exists_last _ (47%Z :: y)) as (l & z & E2); [discriminate|]. rewrite E2 in *. change (x ++ 42%Z :: l ++ [z]) with (x ++ [42%Z] ++ l ++ [z]) in *.
  rewrite !app_assoc in E. apply app_inj_tail in E as (E & _). apply N. rewrite E, !in_app_iff. left. right. now left.
Qed.
Lemma nl_lexed : forall b, lexed b nl [] true.
Proof. intros b u us H. apply cl_line. exact H. Qed.
Lemma blank_lexed : forall b, lexed b (zs " ") [] b.
Proof. intros b. apply (lexed_blanks b 1). Qed.

(** #define lines *)
Lemma define_lexed : forall l ls v, lexb (S (List.length l)) false l = Some ls -> List.last l 0%Z = 32%Z -> ~ In 10%Z l -> int_ok v ->
  lexed true (35%Z :: l ++ zdec v ++ nl) [CD (ls ++ cnum v)] true.
Proof.
  intros l ls v L1 L2 N V u us H. apply lexb_ok in L1. cbn [app]. rewrite <- !app_assoc. rewrite (app_assoc l). cbn [nl app]. apply cl_dir; [|  |exact H].
  - rewrite in_app_iff. intros [I|I]; [contradiction|]. rewrite zdec_num in I by exact V. unfold num in I. apply in_app_iff in I as [I|I].
    + destruct (v <? 0)%Z; [destruct I as [I|I]; [discriminate|destruct I]|destruct I].
    + destruct (digits_lex v) as (c & d & E & C & D & _). rewrite E in I. assert (F : Forall digit (c :: d)) by (constructor; auto). rewrite Forall_forall in F. specialize (F _ I). unfold digit in F. lia.
  - apply (clex_part _ _ _ L1 eq_refl); [now left|exact N|]. pose proof (num_clex false v [] [] V Logic.I (cl_end _)) as Q. now rewrite !app_nil_r in Q.
Qed.
Lemma definep_lexed : forall l ls v, lexb (S (List.length l)) false l = Some ls -> List.last l 0%Z = 40%Z -> ~ In 10%Z l -> int_ok v ->
  lexed true (35%Z :: l ++ zdec v ++ 41%Z :: nl) [CD (ls ++ cnum v ++ [CP 41%Z])] true.
Proof.
  intros l ls v L1 L2 N V u us H. apply lexb_ok in L1. cbn [app]. rewrite <- !app_assoc. cbn [nl app]. replace (l ++ zdec v ++ 41%Z :: 10%Z :: u) with ((l ++ zdec v ++ [41%Z]) ++ 10%Z :: u) by (now rewrite <- !app_assoc). apply cl_dir; [|  |exact H].
  - rewrite !in_app_iff. intros [I|[I|[I|I]]]; [contradiction| |discriminate|destruct I]. rewrite zdec_num in I by exact V. unfold num in I. apply in_app_iff in I as [I|I].
    + destruct (v <? 0)%Z; [destruct I as [I|I]; [discriminate|destruct I]|destruct I].
    + destruct (digits_lex v) as (c & d & E & C & D & _). rewrite E in I. assert (F : Forall digit (c :: d)) by (constructor; auto). rewrite Forall_forall in F. specialize (F _ I). unfold digit in F. lia.
  - apply (clex_part _ _ _ L1 eq_refl); [now right|exact N|]. apply num_clex; [exact V|split; [reflexivity|discriminate]|]. apply cl_punct; [repeat split; try lia; discriminate|discriminate|discriminate|constructor].
Qed.

(** Literal lines *)
Lemma line_lexed : forall b t ts, lexb (S (List.length t)) b t = Some ts -> List.last t 0%Z = 10%Z -> lexed b t ts true.
Proof. intros b t ts L1 L2. apply clex_line; [|exact L2]. eapply lexb_ok; exact L1. Qed.
