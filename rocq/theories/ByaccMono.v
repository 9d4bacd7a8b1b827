(** More fuel does not change the result of lr0 and lalr. *)
From Coq Require Import List Arith NArith Lia Bool.
Import ListNotations.
From Verif Require Import Base ByaccWarshallModel ByaccLr0Model ByaccLalrModel.

Definition le_res {A} (a b : res A) : Prop := forall r, a = Ok r -> b = Ok r.
Lemma le_refl : forall A (a : res A), le_res a a.
Proof. intros A a r E. exact E. Qed.
Lemma le_fuel : forall A (a : res A), le_res Fuel a.
Proof. intros A a r E. discriminate. Qed.
Lemma le_bind : forall A B (a a' : res A) (f f' : A -> res B), le_res a a' -> (forall x, le_res (f x) (f' x)) -> le_res (bind a f) (bind a' f').
Proof. intros A B a a' f f' H1 H2 r E. destruct a as [x| |]; cbn in E; try discriminate. rewrite (H1 x eq_refl). cbn. now apply H2. Qed.

Local Ltac go := repeat first
  [ apply le_refl | apply le_bind; [|intros ?]
  | match goal with |- le_res (if ?x then _ else _) _ => destruct x end
  | match goal with |- le_res (match ?x with _ => _ end) _ => destruct x end ].

Lemma col_loop_mono : forall f f' a rowi i ccol rowj relend rowsize, f <= f' -> le_res (col_loop f a rowi i ccol rowj relend rowsize) (col_loop f' a rowi i ccol rowj relend rowsize).
Proof.
  induction f as [|f IH]; intros f' a rowi i ccol rowj relend rowsize L; [apply le_fuel|]. destruct f' as [|f']; [lia|]. cbn [col_loop].
  go; apply IH; lia.
Qed.

Lemma row_loop_mono : forall f f' g g' W a cword i rowi relend rowsize, f <= f' -> g <= g' -> le_res (row_loop f g W a cword i rowi relend rowsize) (row_loop f' g' W a cword i rowi relend rowsize).
Proof.
  induction f as [|f IH]; intros f' g g' W a cword i rowi relend rowsize L L'; [apply le_fuel|]. destruct f' as [|f']; [lia|]. cbn [row_loop].
  go; try (apply col_loop_mono; lia); apply IH; lia.
Qed.

Lemma diag_loop_mono : forall f f' W a i rp relend rowsize, f <= f' -> le_res (diag_loop f W a i rp relend rowsize) (diag_loop f' W a i rp relend rowsize).
Proof.
  induction f as [|f IH]; intros f' W a i rp relend rowsize L; [apply le_fuel|]. destruct f' as [|f']; [lia|]. cbn [diag_loop]. cbv zeta. go; apply IH; lia.
Qed.

Lemma null_loop_mono : forall f f' b nl, f <= f' -> le_res (null_loop f b nl) (null_loop f' b nl).
Proof.
  induction f as [|f IH]; intros f' b nl L; [apply le_fuel|]. destruct f' as [|f']; [lia|]. cbn [null_loop]. go. apply IH; lia.
Qed.

Lemma gen_loop_mono : forall f f' b fd q s, f <= f' -> le_res (gen_loop f b fd q s) (gen_loop f' b fd q s).
Proof.
  induction f as [|f IH]; intros f' b fd q s L; [apply le_fuel|]. destruct f' as [|f']; [lia|]. cbn [gen_loop]. go. apply IH; lia.
Qed.

Theorem lr0_mono : forall f f' b r, f <= f' -> lr0 f b = Ok r -> lr0 f' b = Ok r.
Proof.
  intros f f' b r L. revert r. change (le_res (lr0 f b) (lr0 f' b)). unfold lr0. cbv zeta. apply le_bind; [apply null_loop_mono; exact L|]. intros nl.
  apply le_bind; [|intros; apply le_refl]. unfold generate_states. apply le_bind.
  - unfold set_first_derives, set_EFF, reflexive_transitive_closure, transitive_closure. cbv zeta.
    apply le_bind; [|intros; apply le_refl]. apply le_bind; [apply le_refl|]. intros x. apply le_bind; [apply row_loop_mono; exact L|]. intros y. apply diag_loop_mono. exact L.
  - intros fd. apply le_bind; [apply le_refl|]. intros s. apply gen_loop_mono. exact L.
Qed.

Lemma edge_loop_mono : forall t t' ts i l g, (forall j h, le_res (t j h) (t' j h)) -> le_res (edge_loop t ts i l g) (edge_loop t' ts i l g).
Proof.
  intros t t' ts i l. induction l as [|j l IH]; intros g H; [apply le_refl|]. cbn [edge_loop].
  apply le_bind; [apply le_refl|]. intros xj. apply le_bind; [destruct (xj =? 0); [apply H|apply le_refl]|]. intros g1. do 3 (apply le_bind; [apply le_refl|]; intros ?). apply IH. exact H.
Qed.

Lemma traverse_mono : forall f f' ts inf R i g, f <= f' -> le_res (traverse f ts inf R i g) (traverse f' ts inf R i g).
Proof.
  induction f as [|f IH]; intros f' ts inf R i g L; [apply le_fuel|]. destruct f' as [|f']; [lia|]. cbn [traverse]. cbv zeta.
  do 3 (apply le_bind; [apply le_refl|]; intros ?). apply le_bind; [apply edge_loop_mono; intros; apply IH; lia|]. intros. apply le_refl.
Qed.

Lemma digraph_loop_mono : forall f f' ts inf R k i g, f <= f' -> le_res (digraph_loop f ts inf R i k g) (digraph_loop f' ts inf R i k g).
Proof.
  intros f f' ts inf R. induction k as [|k IH]; intros i g L; [apply le_refl|]. cbn [digraph_loop]. do 2 (apply le_bind; [apply le_refl|]; intros ?).
  apply le_bind; [|intros; apply IH; exact L]. destruct (x =? 0); [|apply le_refl]. destruct x0; [|apply le_refl]. apply traverse_mono. exact L.
Qed.

Lemma digraph_mono : forall f f' ts n R F, f <= f' -> le_res (digraph f ts n R F) (digraph f' ts n R F).
Proof. intros f f' ts n R F L. unfold digraph. apply le_bind; [|intros; apply le_refl]. apply digraph_loop_mono. exact L. Qed.

Theorem lalr_mono : forall f f' b nl s r, f <= f' -> lalr f b nl s = Ok r -> lalr f' b nl s = Ok r.
Proof.
  intros f f' b nl s r L. revert r. change (le_res (lalr f b nl s) (lalr f' b nl s)). unfold lalr. cbv zeta. do 3 (apply le_bind; [apply le_refl|]; intros ?).
  apply le_bind; [|intros F; apply le_bind; [apply le_refl|]; intros [inc lb]; apply le_bind; [apply digraph_mono; exact L|intros; apply le_refl]].
  unfold initialize_F. cbv zeta. apply le_bind; [apply le_refl|]. intros [F reads]. apply le_bind; [apply le_refl|]. intros F0. apply digraph_mono. exact L.
Qed.
