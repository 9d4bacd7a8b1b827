(** Proofs about the spelling of yacc files that have one rule per line (C73). *)
From Coq Require Import String List Arith ZArith Bool Lia.
Import ListNotations.
From Verif Require Import Base LemonTableModel LemonPreModel LemonCodeModel ByaccParModel ByaccReaderModel ByaccScanModel Prop_ByaccLiteral SpecByaccFile.

(** A name of letters, digits and underscores that begins with a letter. *)
Definition nm (x : txt) : Prop := match x with c :: a => isalpha c = true /\ forallb wordch a = true | [] => False end.

Lemma nm_word : forall x, nm x -> word x.
Proof.
  intros [|c a] H; [destruct H|]. destruct H as (H1 & H2). split; [now left|]. constructor; [left; unfold isalnum; rewrite H1; reflexivity|].
  apply Forall_forall. intros d I. rewrite forallb_forall in H2. specialize (H2 d I). unfold wordch in H2. apply orb_true_iff in H2 as [H2|H2]; [now left|]. right. left. now apply Z.eqb_eq.
Qed.
Lemma alpha_range : forall c, isalpha c = true -> (65 <= c <= 90 \/ 97 <= c <= 122)%Z.
Proof. intros c H. unfold isalpha in H. rewrite orb_true_iff, !andb_true_iff, !Z.leb_le in H. lia. Qed.
Lemma alpha_visible : forall c r, isalpha c = true -> visible (c :: r).
Proof. intros c r H. apply alpha_range in H. repeat split; try lia. unfold blank. cbn [In]. lia. Qed.
Lemma nm_visible : forall x r, nm x -> visible (x ++ r).
Proof. intros [|c a] r H; [destruct H|]. apply alpha_visible. apply H. Qed.
Lemma nm_stop : forall x r, nm x -> stop (x ++ r).
Proof. intros x r H. right. now apply nm_visible. Qed.
Lemma nm_head : forall x r (P : Z -> Prop), nm x -> (forall c, isalpha c = true -> ~ P c) -> not_head P (x ++ r).
Proof. intros [|c a] r P H Q; [destruct H|]. apply Q. apply H. Qed.

Lemma not_ident : forall c r, In c [32; 10]%Z -> not_head is_ident (c :: r).
Proof. intros c r [<-|[<-|[]]]; intros [H|[H|[H|H]]]; discriminate H. Qed.
Lemma blank_ident : forall g r, gap g -> g <> [] -> not_head is_ident (g ++ r).
Proof.
  intros g r G N. destruct G as [|c g B G|b g I G|b g I G]; [congruence| | |]; cbn [app not_head].
  - intros H. unfold blank in B. cbn [In] in B. destruct B as [<-|[<-|[<-|[<-|[<-|[<-|[<-|[<-|[]]]]]]]]]; destruct H as [H|[H|[H|H]]]; discriminate H.
  - intros [H|[H|[H|H]]]; discriminate H.
  - intros [H|[H|[H|H]]]; discriminate H.
Qed.

Lemma gap_app : forall g h, gap g -> gap h -> gap (g ++ h).
Proof.
  intros g h G H. induction G as [|c g B G IH|b g I G IH|b g I G IH]; [exact H| | |].
  - now constructor.
  - rewrite <- !app_assoc. now constructor.
  - rewrite <- app_assoc. cbn [app]. rewrite <- app_assoc. cbn [app]. now constructor.
Qed.
Lemma gap_32 : forall g, gap g -> gap (32%Z :: g).
Proof. intros g G. constructor; [unfold blank; cbn [In]; lia|exact G]. Qed.
Lemma gap_10 : forall g, gap g -> gap (10%Z :: g).
Proof. intros g G. constructor; [unfold blank; cbn [In]; lia|exact G]. Qed.
Lemma gap_59 : forall g, gap g -> gap (59%Z :: g).
Proof. intros g G. constructor; [unfold blank; cbn [In]; lia|exact G]. Qed.

(** Comments without a star. *)
Lemma no_star_inside : forall b, ~ In 42%Z b -> inside b.
Proof.
  intros b N x y E. assert (X : List.length x = List.length b).
  { assert (K : forall (b x y : list Z), ~ In 42%Z b -> b ++ [42; 47]%Z = x ++ [42; 47]%Z ++ y -> List.length x = List.length b).
    { clear. induction b as [|c b IH]; intros x y N E.
      - destruct x as [|d x]; [reflexivity|]. cbn [app] in E. injection E as <- E. destruct x as [|d x]; [discriminate|]. cbn [app] in E. injection E as <- E. destruct x; discriminate.
      - destruct x as [|d x]; cbn [app] in E; [injection E as -> _; exfalso; apply N; now left|]. injection E as <- E. cbn [List.length]. f_equal. eapply IH; [|exact E]. intros I. apply N. now right. }
    eapply K; eauto. }
  assert (Y : List.length (b ++ [42; 47]%Z) = List.length (x ++ [42; 47]%Z ++ y)) by (rewrite E; reflexivity). rewrite !app_length in Y. cbn [List.length] in Y. destruct y; [reflexivity|cbn [List.length] in Y; lia].
Qed.
Definition comment (b : txt) : txt := zs "/*" ++ b ++ zs "*/".
Lemma gap_comment : forall b g, ~ In 42%Z b -> gap g -> gap (comment b ++ g).
Proof. intros b g N G. unfold comment. rewrite <- !app_assoc. apply (G_star b g); [now apply no_star_inside|exact G]. Qed.
Lemma gap_comment1 : forall b, ~ In 42%Z b -> gap (comment b).
Proof. intros b N. rewrite <- (app_nil_r (comment b)). apply gap_comment; [exact N|constructor]. Qed.

(** * Rules *)

(** What is between the names of a right side: nothing or blanks and comments that begin with a space. *)
Definition spaced (t : txt) : Prop := match t with c :: _ => c = 32%Z | [] => False end.
Lemma spaced_ident : forall t, spaced t -> not_head is_ident t.
Proof. intros [|c t] H; [destruct H|]. cbn [spaced] in H. subst c. apply not_ident. now left. Qed.

(** The rest of a right side after a gap; [R] is the text of the next rule. *)
Definition gparts (b : list fpart) (T R : txt) : Prop :=
  exists g u, T = g ++ u /\ gap g /\ stop u /\ not_head (fun c => c = 58 \/ c = 40)%Z u /\ parts_text b u R.

Lemma gparts_end : forall g R, gap g -> R = [] \/ (exists x r, nm x /\ R = x ++ r) -> gparts [] (g ++ R) R.
Proof.
  intros g R G H. exists g, R. split; [reflexivity|]. split; [exact G|]. split; [|split; [|constructor]].
  - destruct H as [->|(x & r & N & ->)]; [now left|now apply nm_stop].
  - destruct H as [->|(x & r & N & ->)]; [exact Logic.I|]. apply nm_head; [exact N|]. intros c A. apply alpha_range in A. lia.
Qed.

Lemma gparts_gap : forall g b T R, gap g -> gparts b T R -> gparts b (g ++ T) R.
Proof. intros g b T R G (g0 & u & -> & G0 & H). exists (g ++ g0), u. split; [now rewrite app_assoc|]. split; [now apply gap_app|exact H]. Qed.

Lemma name_gap : forall c T, gap c -> c = [] \/ spaced c -> spaced T -> not_head is_ident (c ++ T).
Proof. intros c T _ [->|H] S0; [now apply spaced_ident|]. destruct c as [|a c]; [destruct H|]. cbn [spaced] in H. subst a. cbn [app]. apply not_ident. now left. Qed.

Lemma gparts_sym : forall n c b T R, nm n -> gap c -> c = [] \/ spaced c -> spaced T -> gparts b T R -> gparts (FSym (SName n) :: b) (zs " " ++ n ++ c ++ T) R.
Proof.
  intros n c b T R N G C ST (g & u & E & G0 & S0 & NH & P). exists (zs " "), (n ++ c ++ T). split; [reflexivity|]. split; [apply gap_32; constructor|]. split; [now apply nm_stop|].
  split; [apply nm_head; [exact N|]; intros d A; apply alpha_range in A; lia|]. econstructor; [|exact P].
  apply (PT_sym (SName n) (n ++ c ++ T) (c ++ g) u); [|now apply gap_app|exact S0|exact NH].
  replace ((c ++ g) ++ u) with (c ++ T) by (rewrite E, app_assoc; reflexivity). constructor; [now apply nm_word|]. now apply name_gap.
Qed.

Lemma gparts_prec : forall n c b T R, nm n -> gap c -> c = [] \/ spaced c -> spaced T -> gparts b T R -> gparts (FPrec (SName n) :: b) (zs " %prec " ++ n ++ c ++ T) R.
Proof.
  intros n c b T R N G C ST (g & u & E & G0 & S0 & NH & P). exists (zs " "), (37%Z :: zs "prec" ++ zs " " ++ n ++ c ++ T). split; [reflexivity|]. split; [apply gap_32; constructor|].
  split; [right; cbn [visible]; unfold blank; cbn [In]; repeat split; try lia|]. split; [cbn [not_head]; lia|]. econstructor; [|exact P].
  apply (PT_prec (SName n) 37%Z (zs "prec") (zs " ") (n ++ c ++ T) (c ++ g) u); [now left|repeat constructor; now left|apply not_ident; now left|apply gap_32; constructor| |now apply gap_app|exact S0].
  replace ((c ++ g) ++ u) with (c ++ T) by (rewrite E, app_assoc; reflexivity). constructor; [now apply nm_word|]. now apply name_gap.
Qed.

Lemma group_line : forall n b T R, nm n -> gparts b T R -> group_text (mkF n b []) (n ++ zs " :" ++ T) R.
Proof.
  intros n b T R N (g & u & -> & G & S0 & _ & P). apply (GT_group n b [] (n ++ zs " :" ++ g ++ u) (zs " ") g u R R); [|apply gap_32; constructor|exact G|exact S0|exact P|constructor].
  change (zs " :" ++ g ++ u) with (zs " " ++ 58%Z :: g ++ u). constructor; [now apply nm_word|]. apply not_ident. now left.
Qed.

(** * Declarations *)

Definition no_digit_lt (u : txt) : Prop := not_head digit u /\ not_head (eq 60%Z) u.
Definition gtoks (l : list (fsym * option Z)) (T R : txt) : Prop :=
  exists g u, T = g ++ u /\ gap g /\ visible u /\ no_digit_lt u /\ token_list l u R.

Lemma percent_visible : forall r, visible (37%Z :: r).
Proof. intros r. cbn [visible]. unfold blank. cbn [In]. repeat split; lia. Qed.

Lemma gtoks_end : forall g r, gap g -> gtoks [] (g ++ 37%Z :: r) (37%Z :: r).
Proof.
  intros g r G. exists g, (37%Z :: r). split; [reflexivity|]. split; [exact G|]. split; [apply percent_visible|]. split; [split; [unfold digit; cbn [not_head]; lia|cbn [not_head]; lia]|].
  constructor; [apply percent_visible|]. cbn [not_head]. unfold sym_start. cbn [In]. intros [H|H]; [discriminate|lia].
Qed.
Lemma gtoks_gap : forall g l T R, gap g -> gtoks l T R -> gtoks l (g ++ T) R.
Proof. intros g l T R G (g0 & u & -> & G0 & H). exists (g ++ g0), u. split; [now rewrite app_assoc|]. split; [now apply gap_app|exact H]. Qed.
Lemma gtoks_cons : forall n l T R, nm n -> not_head is_ident T -> gtoks l T R -> gtoks ((SName n, None) :: l) (zs " " ++ n ++ T) R.
Proof.
  intros n l T R N NI (g & u & -> & G & V & (D1 & D2) & P). exists (zs " "), (n ++ g ++ u). split; [reflexivity|]. split; [apply gap_32; constructor|]. split; [now apply nm_visible|].
  split; [split; apply nm_head; auto; intros c A; apply alpha_range in A; unfold digit; lia|]. apply (TL_plain (SName n) l (n ++ g ++ u) g u R); auto. constructor; [now apply nm_word|exact NI].
Qed.

(** The rest of the declarations after a gap; they end in front of a percent sign. *)
Definition gdecls (ds : list decl) (T R : txt) : Prop := exists g r, T = g ++ 37%Z :: r /\ gap g /\ decls_text ds (37%Z :: r) R.

Lemma gdecls_end : forall g r, gap g -> gdecls [] (g ++ 37%Z :: r) (37%Z :: r).
Proof. intros g r G. exists g, r. split; [reflexivity|]. split; [exact G|constructor]. Qed.
Lemma gdecls_gap : forall g ds T R, gap g -> gdecls ds T R -> gdecls ds (g ++ T) R.
Proof. intros g ds T R G (g0 & r & -> & G0 & H). exists (g ++ g0), r. split; [now rewrite app_assoc|]. split; [now apply gap_app|exact H]. Qed.

(** Keywords in small letters. *)
Lemma same_key_refl : forall k, Forall (fun c => 97 <= c <= 122)%Z k -> Forall2 same_key k k.
Proof. induction 1; constructor; auto. left. auto. Qed.
Lemma key_at : forall names k r, In k names -> Forall (fun c => 97 <= c <= 122)%Z k -> k <> [] -> key_text names (k ++ 32%Z :: r) (32%Z :: r).
Proof.
  intros names k r I F N. apply (K_key names k k); [exact I|now apply same_key_refl| |]; [destruct k as [|c k]; [congruence|inversion F; subst; lia]|].
  cbn [not_head]. unfold is_key. intros [H|H]; [discriminate H|cbn [In] in H; lia].
Qed.

(** A declaration of tokens: the keyword, [u], where the names follow, and [T] after the names. *)
Lemma gdecls_tokens : forall a k l u T ds R r, token_key a (k ++ 32%Z :: u) (32%Z :: u) -> gtoks l (32%Z :: u) (37%Z :: r) ->
  decls_text ds (37%Z :: r) R -> T = 37%Z :: k ++ 32%Z :: u -> gdecls (DTokens a None l :: ds) T R.
Proof.
  intros a k l u T ds R r K (g & v & E & G & V & (D1 & D2) & P) D ->. exists [], (k ++ 32%Z :: u). split; [reflexivity|]. split; [constructor|]. econstructor; [|exact D].
  rewrite E in *. apply (DT_tokens a None l 37%Z (k ++ g ++ v) g v v (37%Z :: r)); auto; [now left|constructor; exact D2].
Qed.

Lemma gdecls_start : forall n T R, nm n -> (exists g r, T = g ++ 37%Z :: r /\ gap g /\ R = 37%Z :: r) -> not_head is_ident T ->
  gdecls [DStart n] (zs "%start " ++ n ++ T) R.
Proof.
  intros n T R N (g & r & -> & G & ->) NI. exists [], (zs "start " ++ n ++ g ++ 37%Z :: r). split; [reflexivity|]. split; [constructor|]. econstructor; [|constructor].
  apply (DT_start n 37%Z (zs "start " ++ n ++ g ++ 37%Z :: r) (zs " ") (n ++ g ++ 37%Z :: r) g (37%Z :: r)); [now left| |apply gap_32; constructor| |exact G|apply percent_visible].
  - apply (key_at [zs "start"] (zs "start")); [now left| |discriminate]. repeat constructor; discriminate.
  - constructor; [now apply nm_word|exact NI].
Qed.
