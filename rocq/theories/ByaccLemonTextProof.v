(** The text of byacc -E: lines, and their tokens for lemon. *)
From Coq Require Import String List Arith ZArith Bool Lia.
Import ListNotations.
From Verif Require Import Base LemonTableModel LemonPreModel LemonPreProof Prop_LemonPre LemonActionModel LemonReadModel LemonScanProof SpecItems LemonReadProof LemonReprintModel LemonReprintProof.
From Verif Require ByaccLemonModel Prop_ByaccLemon ByaccParModel Prop_LemonEndToEnd.
From Verif Require Import ByaccRulesModel ByaccReaderModel ByaccScanModel ByaccPackModel ByaccLemonTextModel.

(** * Texts and tokens *)
Definition lx (z : text) (xs : list text) : Prop := forall n, exists evs, lexes complete n z evs /\ texts evs xs.
Definition wname (w : text) : Prop := exists c r, w = c :: r /\ isalnum c = true /\ forallb wordch r = true.
Definition nw (z : text) : Prop := match z with d :: _ => wordch d = false | [] => True end.

Lemma lx_nil : lx [] [].
Proof. intros n. exists []. split; [apply lx_end; now left|constructor]. Qed.
Lemma lx_sp : forall c z xs, isspace c = true -> lx z xs -> lx (c :: z) xs.
Proof. intros c z xs S0 H n. destruct (H (n + newlines [c])%Z) as (evs & L & T). exists evs. split; [now apply lx_blank|exact T]. Qed.
Lemma lx_note : forall a z xs, ~ contains [42; 47]%Z a -> lx z xs -> lx ([47; 42]%Z ++ a ++ [42; 47]%Z ++ z) xs.
Proof. intros a z xs N H n. destruct (H (n + newlines a)%Z) as (evs & L & T). exists evs. split; [exact (lx_comment _ n a z evs N L)|exact T]. Qed.
Lemma lx_name : forall w z xs, wname w -> nw z -> lx z xs -> lx (w ++ z) (w :: xs).
Proof.
  intros w z xs (c & r & -> & A & B) N H n. destruct (H n) as (evs & L & T). exists (EvTok n (c :: r) :: evs). split; [|constructor; [eauto|exact T]]. apply lx_word; auto. intros d q ->. exact N.
Qed.
Lemma lx_mark : forall c z xs, In c [37; 46; 91; 93]%Z -> lx z xs -> lx (c :: z) ([c] :: xs).
Proof.
  intros c z xs I H n. destruct (H n) as (evs & L & T). exists (EvTok n [c] :: evs). split; [|constructor; [eauto|exact T]].
  cbn in I. destruct I as [<-|[<-|[<-|[<-|[]]]]]; (apply lx_char; [reflexivity|reflexivity|cbn; lia|discriminate|intros [X|X]; discriminate|discriminate|exact L]).
Qed.
Lemma lx_becomes : forall z xs, lx z xs -> lx (zs "::=" ++ z) (zs "::=" :: xs).
Proof. intros z xs H n. destruct (H n) as (evs & L & T). exists (EvTok n (zs "::=") :: evs). split; [now apply (lx_arrow _ n z evs)|constructor; [eauto|exact T]]. Qed.

(** A line, with its tokens. *)
Definition lxl (l : text) (xs : list text) : Prop := forall z ys, lx z ys -> lx (l ++ 10%Z :: z) (xs ++ ys).
Lemma lines_lx : forall ls xss, Forall2 lxl ls xss -> lx (Prop_LemonPre.flat ls) (concat xss).
Proof.
  intros ls xss H. induction H as [|l xs ls xss H1 H2 IH]; [apply lx_nil|]. cbn [Prop_LemonPre.flat flat_map concat]. rewrite <- app_assoc. cbn [app]. apply H1. exact IH.
Qed.
Lemma lxl_nil : lxl [] [].
Proof. intros z ys H. now apply lx_sp. Qed.

(** Nothing in the text is a directive of the preprocessor. *)
Definition free_line (l : text) : Prop := nonl l /\ kind false l = LPlain.
Lemma lines_kept : forall ls, Forall free_line ls -> preprocess_input [] (Prop_LemonPre.flat ls) = Ok (PPdone (Prop_LemonPre.flat ls)).
Proof.
  intros ls F. pose proof (C27_selection [] ls ls []) as K. rewrite !app_nil_r in K. apply K; [|eapply Forall_impl; [|exact F]; now intros ? (? & _)|intros []|reflexivity].
  clear K. induction F as [|l ls (N & K) F IH]; [constructor|]. exact (doc_line [] true l ls ls K IH).
Qed.
Lemma not_percent : forall c l, c <> 37%Z -> kind false (c :: l) = LPlain.
Proof. intros c l H. destruct (kind false (c :: l)) eqn:E; [reflexivity| | |]; (assert (X : kind false (c :: l) <> LPlain) by (rewrite E; discriminate); apply kind_percent in X as (l' & X); congruence). Qed.

(** * Names *)
Definition tn (x : text) : text := match ByaccLemonModel.get_lemon_token_name x with Ok y => y | _ => [] end.
Definition vn (x : text) : text := match ByaccLemonModel.get_lemon_rule_name x with Ok y => y | _ => [] end.

Lemma wname_words : forall c r, isalnum c = true -> Forall (fun x => wordch x = true) r -> wname (c :: r).
Proof. intros c r A F. exists c, r. split; [reflexivity|]. split; [exact A|]. apply forallb_forall. apply Forall_forall. exact F. Qed.
Lemma upper_alnum : forall c, ByaccLemonModel.isupper c = true -> isalnum c = true.
Proof. intros c H. unfold isalnum, isalpha. unfold ByaccLemonModel.isupper in H. rewrite H. reflexivity. Qed.
Lemma lower_alnum : forall c, ByaccLemonModel.islower c = true -> isalnum c = true.
Proof. intros c H. unfold isalnum, isalpha. unfold ByaccLemonModel.islower in H. rewrite H. rewrite orb_true_r. reflexivity. Qed.
Lemma ascii_words : forall b, Prop_ByaccLemon.lit_ok b -> Forall (fun x => wordch x = true) (Prop_ByaccLemon.ascii b).
Proof.
  intros b H. apply Prop_ByaccLemon.lit_in in H. assert (A : forallb (fun b => forallb wordch (Prop_ByaccLemon.ascii b)) Prop_ByaccLemon.lits = true) by (vm_compute; reflexivity).
  rewrite forallb_forall in A. specialize (A b H). apply Forall_forall. rewrite forallb_forall in A. exact A.
Qed.

Lemma tn_ok : forall x, Prop_ByaccLemon.ok_token x -> ByaccLemonModel.get_lemon_token_name x = Ok (tn x) /\ wname (tn x) /\ upper (tn x).
Proof.
  intros x H. destruct (Prop_ByaccLemon.token_upper_first x H) as (y & E & c & r & -> & U). unfold tn. rewrite E. split; [reflexivity|]. split; [|exact U].
  inversion H as [c0 r0 U0 F L S0|c0 d r0 U0 F L|r0 F L|b B]; subst x.
  - rewrite Prop_ByaccLemon.token_upper in E by assumption. injection E as <- <-. apply wname_words; [now apply upper_alnum|exact F].
  - rewrite Prop_ByaccLemon.token_lower in E by assumption. injection E as <- <-. apply wname_words; [reflexivity|]. repeat (constructor; [reflexivity|]). constructor; [now apply Prop_ByaccLemon.lower_word|exact F].
  - rewrite Prop_ByaccLemon.token_under in E by assumption. injection E as <- <-. apply wname_words; [reflexivity|]. repeat (constructor; [reflexivity|]). exact F.
  - rewrite Prop_ByaccLemon.lit_name in E by assumption. injection E as <- <-. apply wname_words; [reflexivity|]. repeat (constructor; [reflexivity|]). now apply ascii_words.
Qed.
Lemma vn_ok : forall x, Prop_ByaccLemon.ok_var x -> ByaccLemonModel.get_lemon_rule_name x = Ok (vn x) /\ wname (vn x) /\ lower (vn x).
Proof.
  intros x H. unfold vn. destruct (Prop_ByaccLemon.var_form x H) as [(E & _ & _ & c & r & -> & LO)|[E|(E & r & ->)]]; rewrite E; (split; [reflexivity|]).
  - split; [|exact LO]. inversion H as [c0 r0 U0 F L S1 S2|c0 r0 U0 F L|r0 F L]; subst; [|apply Prop_ByaccLemon.upper_range in U0; apply Prop_ByaccLemon.lower_range in LO; lia|discriminate]. apply wname_words; [now apply lower_alnum|exact F].
  - split; [|reflexivity]. apply wname_words; [reflexivity|]. constructor; [reflexivity|]. inversion H as [c0 r0 U0 F L S1 S2|c0 r0 U0 F L|r0 F L]; subst.
    + constructor; [now apply Prop_ByaccLemon.lower_word|exact F].
    + constructor; [now apply Prop_ByaccLemon.upper_word|exact F].
    + constructor; [reflexivity|exact F].
  - split; [|reflexivity]. apply wname_words; [reflexivity|]. inversion H as [c0 r0 U0 F L S1 S2|c0 r0 U0 F L|r0 F L]; subst; [discriminate|discriminate|]. constructor; [reflexivity|exact F].
Qed.
Lemma tn_inj : forall x y, Prop_ByaccLemon.ok_token x -> Prop_ByaccLemon.ok_token y -> tn x = tn y -> x = y.
Proof. intros x y X Y E. destruct (tn_ok x X) as (A & _). destruct (tn_ok y Y) as (B & _). rewrite E in A. exact (Prop_ByaccLemon.token_inj x y _ X Y A B). Qed.
Lemma vn_inj : forall x y, Prop_ByaccLemon.ok_var x -> Prop_ByaccLemon.ok_var y -> vn x = vn y -> x = y.
Proof. intros x y X Y E. destruct (vn_ok x X) as (A & _). destruct (vn_ok y Y) as (B & _). rewrite E in A. exact (Prop_ByaccLemon.var_inj x y _ X Y A B). Qed.

Lemma word_line : forall d, wordch d = true -> d <> 10%Z.
Proof. intros d H ->. discriminate. Qed.
Lemma wname_all : forall w, wname w -> Forall (fun d => wordch d = true) w.
Proof. intros w (c & r & -> & A & B). constructor; [unfold wordch; rewrite A; reflexivity|]. rewrite forallb_forall in B. apply Forall_forall. auto. Qed.
Lemma wname_nonl : forall w, wname w -> nonl w.
Proof. intros w H I. apply wname_all in H. rewrite Forall_forall in H. apply H in I. discriminate. Qed.
Lemma wname_head : forall w, wname w -> exists c r, w = c :: r /\ c <> 37%Z.
Proof. intros w (c & r & -> & A & _). exists c, r. split; [reflexivity|]. intros ->. discriminate. Qed.
Lemma nonl_app : forall a b, nonl a -> nonl b -> nonl (a ++ b).
Proof. intros a b A B I. apply in_app_iff in I as [I|I]; [exact (A I)|exact (B I)]. Qed.

(** * Pieces of a line *)

(** A piece that begins with a space, or is empty. *)
Record seg (u : text) (xs : list text) : Prop := {
  sg_lx : forall z ys, nw z -> lx z ys -> lx (u ++ z) (xs ++ ys);
  sg_line : nonl u;
  sg_head : u = [] \/ exists r, u = 32%Z :: r
}.
Lemma seg_nil : seg [] [].
Proof. constructor; [auto|intros []|now left]. Qed.
Lemma seg_nw : forall u xs z, seg u xs -> nw z -> nw (u ++ z).
Proof. intros u xs z [_ _ [->|(r & ->)]] N; [exact N|reflexivity]. Qed.
Lemma seg_app : forall u xs v ys, seg u xs -> seg v ys -> seg (u ++ v) (xs ++ ys).
Proof.
  intros u xs v ys U V. constructor.
  - intros z zs N L. rewrite <- !app_assoc. apply (sg_lx _ _ U); [eapply seg_nw; eauto|]. now apply (sg_lx _ _ V).
  - apply nonl_app; [apply (sg_line _ _ U)|apply (sg_line _ _ V)].
  - destruct (sg_head _ _ U) as [->|(r & ->)]; [apply (sg_head _ _ V)|right; now exists (r ++ v)].
Qed.
Lemma seg_name : forall w, wname w -> seg (32%Z :: w) [w].
Proof.
  intros w H. constructor; [|intros [I|I]; [discriminate|exact (wname_nonl w H I)]|right; eexists; reflexivity].
  intros z ys N L. cbn [app]. apply lx_sp; [reflexivity|]. now apply lx_name.
Qed.
Lemma digits_plain : forall n x, Forall (fun c => 45 <= c <= 90)%Z x -> Forall (fun c => 45 <= c <= 90)%Z (decimal n ++ x).
Proof. intros n x H. apply Forall_app. split; [|exact H]. change (decimal n) with (ndec n). eapply Forall_impl; [|apply ndec_range]. cbn beta. intros a ?. lia. Qed.
Lemma note_seg : forall a, (Forall (fun c => 45 <= c <= 122) a)%Z -> seg (zs " /*" ++ a ++ zs "*/") [].
Proof.
  intros a F. rewrite Forall_forall in F. constructor; [| |right; eexists; reflexivity].
  - intros z ys N L. change (zs " /*") with (32%Z :: [47; 42]%Z). cbn [app]. apply lx_sp; [reflexivity|]. change (zs "*/") with [42; 47]%Z. rewrite <- app_assoc. apply (lx_note a z ys); [|exact L].
    intros (p & q & E). assert (I : In 42%Z a) by (rewrite E; apply in_app_iff; right; now left). apply F in I. lia.
  - apply nonl_app; [intros I; cbn in I; intuition discriminate|]. apply nonl_app; [|intros I; cbn in I; intuition discriminate]. intros I. apply F in I. lia.
Qed.
Lemma decimal_seg : forall n, seg (zs " /*" ++ decimal n ++ zs "*/") [].
Proof. intros n. apply note_seg. rewrite <- (app_nil_r (decimal n)). eapply Forall_impl; [|apply digits_plain; constructor]. cbn beta. intros. lia. Qed.
Lemma comment_seg : forall n a, seg (prec_comment n a) [].
Proof.
  intros n a. unfold prec_comment. rewrite (app_assoc (decimal n)). apply note_seg. eapply Forall_impl; [|apply (digits_plain n (zs match a with ByaccParModel.LEFT => "L" | ByaccParModel.RIGHT => "R" | ByaccParModel.NONASSOC => "N" | ByaccParModel.PRECEDENCE => "P" | ByaccParModel.TOKEN => "U" end))]; [cbn beta; intros; lia|].
  destruct a; repeat constructor; discriminate.
Qed.
Lemma dot_seg : seg (zs " .") [SpecItems.dot].
Proof. constructor; [|intros I; cbn in I; intuition discriminate|right; eexists; reflexivity]. intros z ys N L. change (zs " ." ++ z) with (32%Z :: 46%Z :: z). apply lx_sp; [reflexivity|]. apply lx_mark; [cbn; tauto|exact L]. Qed.
Lemma becomes_seg : seg (zs " ::=") [zs "::="].
Proof. constructor; [|intros I; cbn in I; intuition discriminate|right; eexists; reflexivity]. intros z ys N L. change (zs " ::=" ++ z) with (32%Z :: zs "::=" ++ z). apply lx_sp; [reflexivity|]. now apply lx_becomes. Qed.
Lemma mark_seg : forall w, wname w -> seg (zs " [" ++ w ++ zs "]") [zs "["; w; zs "]"].
Proof.
  intros w H. constructor; [| |right; eexists; reflexivity].
  - intros z ys N L. change (zs " [") with [32; 91]%Z. cbn [app]. apply lx_sp; [reflexivity|]. apply (lx_mark 91 _ (w :: zs "]" :: ys)); [cbn; tauto|]. rewrite <- app_assoc. apply lx_name; [exact H|reflexivity|]. apply (lx_mark 93); [cbn; tauto|exact L].
  - apply nonl_app; [intros I; cbn in I; intuition discriminate|]. apply nonl_app; [now apply wname_nonl|intros I; cbn in I; intuition discriminate].
Qed.
Lemma segs_names : forall l, Forall wname l -> seg (concat (map (cons 32%Z) l)) l.
Proof. induction l as [|w l IH]; intros F; [apply seg_nil|]. inversion F as [|? ? A B]; subst. cbn [map concat]. apply (seg_app (32%Z :: w) [w] _ l); [now apply seg_name|auto]. Qed.

(** A piece at the beginning of a line. *)
Lemma seg_line : forall w u xs, wname w -> seg u xs -> lxl (w ++ u) (w :: xs) /\ free_line (w ++ u).
Proof.
  intros w u xs H U. split.
  - intros z ys L. rewrite <- app_assoc. cbn [app]. apply lx_name; [exact H|eapply seg_nw; [exact U|reflexivity]|]. apply (sg_lx _ _ U); [reflexivity|]. now apply lx_sp.
  - split; [apply nonl_app; [now apply wname_nonl|apply (sg_line _ _ U)]|]. destruct (wname_head w H) as (c & r & -> & N). cbn [app]. now apply not_percent.
Qed.
Lemma keyword_line : forall w u xs, wname w -> kind false (37%Z :: w ++ u) = LPlain -> seg u xs -> lxl (37%Z :: w ++ u) (zs "%" :: w :: xs) /\ free_line (37%Z :: w ++ u).
Proof.
  intros w u xs H K U. destruct (seg_line w u xs H U) as (A & (B & _)). split.
  - intros z ys L. cbn [app]. apply (lx_mark 37); [cbn; tauto|]. apply A. exact L.
  - split; [intros [I|I]; [discriminate|exact (B I)]|exact K].
Qed.

(** * Documents *)
Definition doc_ok (t : text) (xs : list text) : Prop :=
  exists ls xss, t = Prop_LemonPre.flat ls /\ Forall free_line ls /\ Forall2 lxl ls xss /\ concat xss = xs.
Lemma doc_nil : doc_ok [] [].
Proof. exists [], []. repeat split; constructor. Qed.
Lemma doc_app : forall t xs u ys, doc_ok t xs -> doc_ok u ys -> doc_ok (t ++ u) (xs ++ ys).
Proof.
  intros t xs u ys (l1 & x1 & -> & F1 & G1 & <-) (l2 & x2 & -> & F2 & G2 & <-). exists (l1 ++ l2), (x1 ++ x2). split; [symmetry; apply flat_map_app|]. split; [now apply Forall_app|]. split; [now apply Forall2_app|apply concat_app].
Qed.
Lemma doc_one : forall l xs, lxl l xs /\ free_line l -> doc_ok (l ++ eol) xs.
Proof. intros l xs (A & B). exists [l], [xs]. split; [cbn [Prop_LemonPre.flat flat_map]; now rewrite app_nil_r|]. split; [repeat constructor; apply B|]. split; [repeat constructor; exact A|apply app_nil_r]. Qed.
Lemma doc_eol : doc_ok eol [].
Proof. apply (doc_one [] []). split; [apply lxl_nil|]. split; [intros []|reflexivity]. Qed.
Lemma doc_concat : forall A (f : A -> text) (g : A -> list text) l, (forall x, In x l -> doc_ok (f x) (g x)) -> doc_ok (concat (map f l)) (flat_map g l).
Proof. intros A f g l. induction l as [|x l IH]; intros H; [apply doc_nil|]. cbn [map concat flat_map]. apply doc_app; [apply H; now left|apply IH; intros y I; apply H; now right]. Qed.
Lemma doc_declares : forall t items, doc_ok t (flat_map item_tokens items) -> Prop_LemonEndToEnd.declares [] t items.
Proof.
  intros t items (ls & xss & -> & F & G & E). pose proof (lines_lx ls xss G 1%Z) as (evs & L & T). exists (Prop_LemonPre.flat ls), evs. split; [now apply lines_kept|]. split; [exact L|]. now rewrite <- E.
Qed.
