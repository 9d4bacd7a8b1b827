(** More rounds do not change the outcome of a call of the lemon driver. *)
From Coq Require Import List ZArith Bool Lia Arith.
Import ListNotations.
From Verif Require Import Base CLib LemonReportModel LemonParModel.
Local Open Scope res_scope.

Section Fuel.
Variable c : gen.
Variable grow : Z -> option Z.

Definition same_or (x y : res parser) : Prop := x = Fuel \/ y = x.

Lemma same_refl : forall x, same_or x x.
Proof. now right. Qed.
Lemma same_bind : forall X (x : res X) (k k' : X -> res parser), (forall v, same_or (k v) (k' v)) -> same_or (bind x k) (bind x k').
Proof. intros X [v| |] k k' H; cbn [bind]; [apply H|apply same_refl|now left]. Qed.

Lemma loop_more : forall f f' p a m v hit, f <= f' -> same_or (parse_loop c grow f p a m v hit) (parse_loop c grow f' p a m v hit).
Proof.
  induction f as [|f IH]; intros f' p a m v hit L; [now left|]. destruct f' as [|f']; [lia|]. assert (L' : f <= f') by lia. cbn [parse_loop].
  repeat match goal with
  | |- same_or ?x ?x => apply same_refl
  | |- same_or (parse_loop _ _ _ _ _ _ _ _) (parse_loop _ _ _ _ _ _ _ _) => apply IH; exact L'
  | |- same_or (bind _ _) (bind _ _) => apply same_bind; intros
  | |- same_or (if ?b then _ else _) _ => destruct b
  | |- same_or (match ?x with _ => _ end) _ => destruct x
  | |- same_or (let _ := _ in _) _ => cbv zeta
  end.
Qed.

Lemma Parse_more : forall f f' p m v, f <= f' -> same_or (Parse c grow f p m v) (Parse c grow f' p m v).
Proof. intros f f' p m v L. unfold Parse. apply same_bind. intros e. now apply loop_more. Qed.

Lemma Parse_more_Ok : forall f f' p m v p', f <= f' -> Parse c grow f p m v = Ok p' -> Parse c grow f' p m v = Ok p'.
Proof. intros f f' p m v p' L H. destruct (Parse_more f f' p m v L) as [E|E]; congruence. Qed.

Lemma feed_more : forall f f' toks p n p', f <= f' -> feed c grow f p toks n = Ok p' -> feed c grow f' p toks n = Ok p'.
Proof.
  intros f f' toks. induction toks as [|t toks IH]; intros p n p' L H; [exact H|]. cbn [feed] in *.
  destruct (Parse c grow f p t (Tok n)) as [p1| |] eqn:E; try discriminate. rewrite (Parse_more_Ok _ _ _ _ _ _ L E). cbn [bind] in *. now apply IH.
Qed.
End Fuel.
