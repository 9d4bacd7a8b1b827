(** What lemon's reader does after an unknown declaration: the fields that are left over in
    the parser are not used again, and the count of messages has no influence. *)
From Coq Require Import String List Arith ZArith Bool Lia.
Import ListNotations.
From Verif Require Import Base LemonTableModel LemonPreModel LemonActionModel LemonReadModel SpecItems LemonReadProof LemonReadSafe.

(** The fields that are used in a state agree. *)
Definition between (s : e_state) : Prop := s = INITIALIZE \/ s = WAITING_FOR_DECL_OR_RULE.
Definition live (c c' : ctl) : Prop :=
  match c_state c with
  | WAITING_FOR_ARROW | LHS_ALIAS_1 | LHS_ALIAS_2 | LHS_ALIAS_3 | IN_RHS | RHS_ALIAS_1 | RHS_ALIAS_2 =>
      c_lhs c = c_lhs c' /\ c_lhsalias c = c_lhsalias c' /\ c_rhs c = c_rhs c'
  | WAITING_FOR_DECL_ARG => c_slot c = c_slot c' /\ c_insertLine c = c_insertLine c' /\ c_linenoslot c = c_linenoslot c'
  | WAITING_FOR_DATATYPE_SYMBOL => c_linenoslot c = c_linenoslot c'
  | WAITING_FOR_PRECEDENCE_SYMBOL => c_assoc c = c_assoc c'
  | WAITING_FOR_FALLBACK_ID => c_fallback c = c_fallback c'
  | WAITING_FOR_CLASS_TOKEN => c_class c = c_class c'
  | _ => True
  end.
Definition alike (c c' : ctl) : Prop := (between (c_state c) /\ between (c_state c')) \/ (c_state c = c_state c' /\ live c c').

Definition one_more (r r' : res pst) : Prop :=
  match r, r' with
  | Ok p, Ok p' => alike (p_c p) (p_c p') /\ p_g p = add_err (p_g p')
  | Bad, Bad => True
  | Fuel, Fuel => True
  | _, _ => False
  end.

Lemma alike_refl : forall c, alike c c.
Proof. intros c. right. split; [reflexivity|]. unfold live. destruct (c_state c); auto. Qed.

Lemma put_more : forall s v g, match put_slot s v (add_err g), put_slot s v g with Ok a, Ok b => a = add_err b | Bad, Bad => True | Fuel, Fuel => True | _, _ => False end.
Proof. intros [k|i|i] v g; cbn [put_slot add_err gr_syms gr_slots set_slots]; [reflexivity| |]; destruct (nth_error (gr_syms g) i); cbn; auto. Qed.

Lemma get_more : forall s g, get_slot s (add_err g) = get_slot s g.
Proof. intros [k|i|i] g; reflexivity. Qed.

Lemma decl_more : forall o n x c c' g, c_slot c = c_slot c' -> c_insertLine c = c_insertLine c' -> c_linenoslot c = c_linenoslot c' ->
  match decl_arg o n x c (add_err g), decl_arg o n x c' g with Ok a, Ok b => a = add_err b | Bad, Bad => True | Fuel, Fuel => True | _, _ => False end.
Proof.
  intros o n x c c' g A B C. unfold decl_arg. rewrite A, B, C. destruct (c_slot c') as [s|]; cbn [opt bind]; [|exact Logic.I]. rewrite get_more. destruct (get_slot s g) as [v| |]; cbn [bind]; auto.
  change (gr_syms (add_err g)) with (gr_syms g). destruct (c_linenoslot c') as [i|]; cbn [bind]; [|apply put_more].
  destruct (nth_error (gr_syms g) i) as [y|]; cbn [opt bind]; [|exact Logic.I]. destruct (so_destln y); cbv iota beta; try apply put_more. destruct (nth_error (gr_syms g) i); [apply (put_more s _ (set_syms _ g))|apply put_more].
Qed.

Lemma compound_more : forall x c c' g, c_lhs c = c_lhs c' -> c_lhsalias c = c_lhsalias c' -> c_rhs c = c_rhs c' -> one_more (rhs_compound x c (add_err g)) (rhs_compound x c' g).
Proof.
  intros x c c' g A B C. unfold rhs_compound. rewrite C. change (gr_syms (add_err g)) with (gr_syms g). destruct (last_rhs (c_rhs c')) as [a|]; cbn [opt bind]; [|exact Logic.I].
  destruct (nth_error (gr_syms g) (fst a)) as [m|]; cbn [opt bind]; [|exact Logic.I].
  match goal with |- context [let '(_, _) := ?b in _] => destruct b as [k l1] end. destruct (sym_new (tl x) l1) as [i l2]. destruct (nth_error l2 k) as [mo|]; cbn [opt bind]; [|exact Logic.I].
  destruct (nth_error (so_sub mo ++ [i]) 0) as [k0|]; cbn [opt bind]; [|exact Logic.I]. match goal with |- context [opt ?b] => destruct b end; cbn [opt bind]; [|exact Logic.I].
  split; [right; split; [reflexivity|]; cbn; auto|]. cbn [p_g]. destruct (_ || _); reflexivity.
Qed.

Ltac fin := first [exact Logic.I | split; [first [assumption | left; cbn; unfold between; now auto | right; split; [reflexivity|cbn; now auto] | exact Logic.I] | reflexivity]].
Ltac cases := repeat first
  [ fin
  | match goal with
    | |- context [opt ?b] => destruct b; cbn [opt bind]
    | |- context [if ?b then _ else _] => match b with context [if _ then _ else _] => fail 1 | _ => destruct b; cbn [bind] end
    | |- context [match ?b with Some _ => _ | None => _ end] => destruct b; cbn [bind]
    | |- context [match ?b with [] => _ | _ :: _ => _ end] => destruct b; cbn [bind]
    | |- context [let (_, _) := ?b in _] => destruct b; cbn [bind]
    | |- context [match ?k with KSlot _ _ => _ | _ => _ end] => destruct k
    | |- one_more (rhs_compound _ _ _) _ => now apply compound_more
    end ].

Lemma token_more : forall o n x c c' g, alike c c' -> one_more (parseonetoken o n x (mkPst c (add_err g))) (parseonetoken o n x (mkPst c' g)).
Proof.
  intros o n x c c' g A. pose proof A as AL. unfold parseonetoken. cbn [p_c p_g]. change (gr_syms (add_err g)) with (gr_syms g). change (gr_rules (add_err g)) with (gr_rules g). change (gr_wildcard (add_err g)) with (gr_wildcard g). change (gr_preccounter (add_err g)) with (gr_preccounter g).
  destruct A as [(A & A')|(A & L)].
  - destruct A as [A|A], A' as [A'|A']; rewrite A, A'; cases.
  - unfold live in L. rewrite A in *. destruct (c_state c') eqn:E.
    all: try (destruct L as (L1 & L2 & L3); rewrite ?L1, ?L2, ?L3). all: try rewrite L.
    all: cbn [bind].
    all: try solve [cases].
    all: try (destruct (_ || _); [|cases]; pose proof (decl_more o n x c c' g L1 L2 L3) as D; destruct (decl_arg o n x c (add_err g)), (decl_arg o n x c' g); try contradiction; cbn [bind]; try exact Logic.I; subst; fin).
    destruct (ch x 0 =? 46)%Z; [cases|]. destruct (negb _); [cases|]. destruct (sym_new x (gr_syms g)) as [i l]. destruct (c_fallback c'); [cases|].
    split; [|reflexivity]. right. split; [cbn; congruence|]. unfold live. cbn [c_state c_fallback set_fallback p_c]. now rewrite A.
Qed.

Lemma feed_more : forall o evs c c' g, alike c c' -> one_more (feed_tokens o evs (mkPst c (add_err g))) (feed_tokens o evs (mkPst c' g)).
Proof.
  induction evs as [|e evs IH]; intros c c' g A; [cbn; auto|]. destruct e as [n x|]; cbn [feed_tokens].
  - pose proof (token_more o n x c c' g A) as T. destruct (parseonetoken o n x (mkPst c (add_err g))) as [[c1 g1]| |], (parseonetoken o n x (mkPst c' g)) as [[c2 g2]| |]; try contradiction; cbn [bind]; try exact Logic.I.
    destruct T as (A1 & E). cbn [p_c p_g] in *. subst g1. now apply IH.
  - cbn [p_c p_g]. apply (IH c c' (add_err g) A).
Qed.

(** Tokens that do not end the search. *)
Lemma skip_run : forall o xs evs c g, texts evs xs -> Forall (fun x => ch x 0 <> 46%Z /\ ch x 0 <> 37%Z) xs -> c_state c = RESYNC_AFTER_DECL_ERROR -> feed_tokens o evs (mkPst c g) = Ok (mkPst c g).
Proof.
  induction xs as [|x xs IH]; intros evs c g T F E; [apply texts_nil in T; now subst|]. apply texts_cons in T as (n & evs' & -> & T). cbn [feed_tokens]. destruct (Forall_inv F) as (F1 & F2).
  unfold parseonetoken at 1. cbn [p_c p_g]. rewrite E. apply Z.eqb_neq in F1, F2. rewrite F1, F2. cbn [bind]. apply IH; auto. now apply Forall_inv_tail in F.
Qed.

Lemma unknown_run : forall o n n' w p, ready p -> kw_find w keywords = None -> exists c, c_state c = RESYNC_AFTER_DECL_ERROR /\
  feed_tokens o [EvTok n (zs "%"); EvTok n' w] p = Ok (mkPst c (add_err (p_g p))).
Proof.
  intros o n n' w p R K. cbn [feed_tokens]. rewrite (pct o n p R). cbn [bind]. unfold parseonetoken. cbn [p_c p_g c_state set_state]. rewrite K. destruct (isalpha (ch w 0)); eexists; (split; [|reflexivity]); reflexivity.
Qed.

Lemma resync : forall o e1 p1 n n' w em junk e e2, feed_tokens o e1 init_pst = Ok p1 -> ready p1 -> kw_find w keywords = None -> texts em junk -> Forall (fun x => ch x 0 <> 46%Z /\ ch x 0 <> 37%Z) junk ->
  (exists k, e = [EvTok k (zs ".")]) \/ (e = [] /\ exists k r, e2 = EvTok k (zs "%") :: r) ->
  one_more (feed_tokens o (e1 ++ [EvTok n (zs "%"); EvTok n' w] ++ em ++ e ++ e2) init_pst) (feed_tokens o (e1 ++ e2) init_pst).
Proof.
  intros o e1 p1 n n' w em junk e e2 F R K T NJ D. rewrite !feed_app, F. cbn [bind]. rewrite feed_app. destruct (unknown_run o n n' w p1 R K) as (c & E & U). rewrite U. cbn [bind]. rewrite feed_app, (skip_run o junk em c _ T NJ E). cbn [bind].
  rewrite feed_app. destruct p1 as [c1 g1]. cbn [p_g]. unfold ready in R. cbn [p_c] in R. destruct D as [(k & ->)|(-> & k & r & ->)].
  - cbn [feed_tokens]. unfold parseonetoken at 1. cbn [p_c p_g]. rewrite E. change (ch (zs ".") 0 =? 46)%Z with true. cbn [bind]. apply feed_more. left. split; [now right|exact R].
  - cbn [feed_tokens]. cbn [bind]. unfold parseonetoken at 1 2. cbn [p_c p_g]. rewrite E. change (ch (zs "%") 0 =? 46)%Z with false. change (ch (zs "%") 0 =? 37)%Z with true.
    destruct R as [-> | ->]; cbn [bind]; apply feed_more; right; split; [reflexivity|exact Logic.I|reflexivity|exact Logic.I].
Qed.
