(** C09: the packed action table of lemon. *)
From Coq Require Import List ZArith Bool Lia Arith.
Import ListNotations.
From Verif Require Import Base LemonActtabModel LemonActtabProof.
Local Open Scope Z_scope.

(** A transaction: the lookahead/action pairs entered and whether it is inserted
    with makeItSafe.  lemon enters terminals [0 .. nt-1] in safe transactions and
    nonterminals [nt .. ns-1] in the others, never an empty one, never the same
    pair twice. *)
Definition txn_ok (nt ns : Z) (x : list (Z * Z) * bool) : Prop :=
  fst x <> [] /\ NoDup (fst x) /\
  forall la ac, In (la, ac) (fst x) -> if snd x then 0 <= la < nt else nt <= la < ns.

(** The last pair entered for a lookahead. *)
Inductive entered : list (Z * Z) -> Z -> Z -> Prop :=
| entered_at : forall a la ac b, (forall ac', ~ In (la, ac') b) -> entered (a ++ (la, ac) :: b) la ac.

(** What looking up [la] at an offset finds. *)
Definition slot (p : acttab) (o la : Z) : res (Z * Z) := rd (aAction p) (o + la).

Lemma lookup_last_entered : forall L la ac, lookup_last L la = Some ac <-> entered L la ac.
Proof.
  induction L as [|[l a] L IH]; intros la ac; cbn [lookup_last].
  - split; [discriminate|]. intros H. remember [] as E. destruct H. destruct a; discriminate.
  - destruct (lookup_last L la) as [x|] eqn:EL.
    + split.
      * intros H. inversion H; subst x. apply IH in EL. destruct EL as [a0 la0 ac0 b N]. apply (entered_at ((l, a) :: a0)). auto.
      * intros H. remember ((l, a) :: L) as E. destruct H as [a0 la0 ac0 b N]. destruct a0 as [|y a0]; cbn in HeqE; inversion HeqE; subst.
        -- exfalso. apply (N x). now apply lookup_last_In.
        -- rewrite <- EL. apply IH. now constructor.
    + assert (NO : forall a', ~ In (la, a') L).
      { intros a' I. destruct (lookup_last_ex _ _ _ I). congruence. }
      destruct (Z.eqb_spec l la) as [->|NE].
      * split.
        -- intros H. inversion H; subst. apply (entered_at []). auto.
        -- intros H. remember ((la, a) :: L) as E. destruct H as [a0 la0 ac0 b N].
           destruct a0 as [|y a0]; cbn in HeqE; inversion HeqE; subst; [auto|].
           exfalso. apply (NO ac0). apply in_elt.
      * split; [discriminate|]. intros H. remember ((l, a) :: L) as E. destruct H as [a0 la0 ac0 b N].
        destruct a0 as [|y a0]; cbn in HeqE; inversion HeqE; subst; [congruence|]. exfalso. apply (NO ac0). apply in_elt.
Qed.

Lemma nth_combine : forall A B (l : list A) (m : list B) i x y, nth_error l i = Some x -> nth_error m i = Some y ->
  In (x, y) (combine l m).
Proof.
  induction l as [|a l IH]; intros [|b m] [|i] x y H1 H2; cbn in *; try discriminate.
  - inversion H1; inversion H2; auto.
  - right. eauto.
Qed.

(** Every sequence of transactions succeeds; afterwards the offset returned for
    each of them finds each action entered in it. *)
Theorem C09_present : forall nt ns rows, 0 < nt <= ns -> Forall (txn_ok nt ns) rows ->
  exists p os, add_rows (acttab_alloc ns nt) rows = Ok (p, os) /\ length os = length rows /\
  forall i L safe o, nth_error rows i = Some (L, safe) -> nth_error os i = Some o ->
    forall la ac, entered L la ac -> slot p o la = Ok (la, ac).
Proof.
  intros nt ns rows HN V. rewrite Forall_forall in V.
  destruct (add_rows_ok false false rows (acttab_alloc ns nt) []) as (p & os & E & LEN & _ & (all & IV & EA) & PT & PS);
    [now apply Inv_alloc|exact V|discriminate|discriminate|].
  exists p, os. split; [auto|]. split; [auto|]. intros i L safe o H1 H2 la ac EN.
  apply lookup_last_entered in EN.
  assert (IR : In ((L, safe), o) all) by (rewrite EA, app_nil_r, <- in_rev; eapply nth_combine; eauto).
  pose proof (iv_in _ _ _ _ IV _ _ _ _ IR EN) as C. unfold slot. rewrite rd_ok; [now rewrite C|].
  apply cell_in. rewrite C. cbn [fst]. specialize (V _ (nth_error_In _ _ H1)). destruct V as (_ & _ & V).
  specialize (V la ac (lookup_last_In _ _ _ EN)). destruct safe; cbn [snd] in V; lia.
Qed.
Print Assumptions C09_present.

(** A terminal not entered in a safe transaction is not found at its offset,
    whatever else the table holds. *)
Theorem C09_absent_safe : forall nt ns rows p os, 0 < nt <= ns -> Forall (txn_ok nt ns) rows ->
  add_rows (acttab_alloc ns nt) rows = Ok (p, os) ->
  forall i L o, nth_error rows i = Some (L, true) -> nth_error os i = Some o ->
    forall la, 0 <= la < nt -> (forall ac, ~ In (la, ac) L) ->
    0 <= o + la < nAction p /\ forall x, slot p o la = Ok x -> fst x <> la.
Proof.
  intros nt ns rows p os HN V E i L o H1 H2 la LA NI. rewrite Forall_forall in V.
  destruct (add_rows_ok false false rows (acttab_alloc ns nt) []) as (p' & os' & E' & LEN & _ & (all & IV & EA) & PT & PS);
    [now apply Inv_alloc|exact V|discriminate|discriminate|]. rewrite E in E'. inversion E'; subst p' os'.
  cbn [acttab_alloc t_nterminal t_nsymbol] in PT, PS.
  assert (IR : In ((L, true), o) all) by (rewrite EA, app_nil_r, <- in_rev; eapply nth_combine; eauto).
  pose proof (iv_safe _ _ _ _ IV _ _ IR eq_refl) as SF. rewrite PT in SF. split; [lia|].
  intros x R X. unfold slot in R.
  assert (C : x = cell (aAction p) (o + la)).
  { unfold rd in R. unfold cell. destruct (o + la <? 0); [discriminate|]. apply opt_Ok in R. symmetry. now apply nth_error_Some_nth. }
  assert (CP : 0 <= fst (cell (aAction p) (o + la))) by (rewrite <- C; lia).
  destruct (iv_cover _ _ _ _ IV _ CP) as (r2 & o2 & a2 & I2 & E2 & L2). rewrite <- C, X in E2, L2.
  assert (o2 = o) by lia. subst o2.
  pose proof (iv_valid _ _ _ _ IV _ _ I2) as (_ & _ & W3). rewrite PT, PS in W3.
  specialize (W3 _ _ (lookup_last_In _ _ _ L2)). destruct (snd r2) eqn:ES; [|lia].
  pose proof (iv_uniq _ _ _ _ IV _ _ _ _ IR I2 ltac:(lia) ltac:(right; auto) la) as U. cbn [fst] in U.
  rewrite L2 in U. apply lookup_last_In in U. apply (NI _ U).
Qed.
Print Assumptions C09_absent_safe.

(** The same holds for every symbol and every transaction when the smallest and
    the largest nonterminal of each transaction of nonterminals add up to at most
    the number of terminals plus the number of symbols; so it does when each holds the
    first nonterminal. *)
Theorem C09_absent_all_partial : forall nt ns rows p os, 0 < nt <= ns -> Forall (txn_ok nt ns) rows ->
  (forall L, In (L, false) rows -> exists lo, In lo (map fst L) /\ forall hi, In hi (map fst L) -> lo + hi <= nt + ns) ->
  add_rows (acttab_alloc ns nt) rows = Ok (p, os) ->
  forall i L safe o, nth_error rows i = Some (L, safe) -> nth_error os i = Some o ->
    forall la, 0 <= la < ns -> (forall ac, ~ In (la, ac) L) ->
    forall x, slot p o la = Ok x -> fst x <> la.
Proof.
  intros nt ns rows p os HN V LS E i L safe o H1 H2 la LA NI. rewrite Forall_forall in V.
  destruct (add_rows_ok true false rows (acttab_alloc ns nt) []) as (p' & os' & E' & LEN & _ & (all & IV & EA) & PT & PS);
    [now apply Inv_alloc|exact V| |discriminate|].
  { intros _ [L1 s1] I X. cbn [fst snd] in *. subst s1. exact (LS _ I). }
  rewrite E in E'. inversion E'; subst p' os'.
  assert (IR : In ((L, safe), o) all) by (rewrite EA, app_nil_r, <- in_rev; eapply nth_combine; eauto).
  intros x R X. unfold slot in R.
  assert (C : x = cell (aAction p) (o + la)).
  { unfold rd in R. unfold cell. destruct (o + la <? 0); [discriminate|]. apply opt_Ok in R. symmetry. now apply nth_error_Some_nth. }
  assert (CP : 0 <= fst (cell (aAction p) (o + la))) by (rewrite <- C; lia).
  destruct (iv_cover _ _ _ _ IV _ CP) as (r2 & o2 & a2 & I2 & E2 & L2). rewrite <- C, X in E2, L2.
  assert (o2 = o) by lia. subst o2.
  pose proof (iv_uniq _ _ _ _ IV _ _ _ _ IR I2 ltac:(lia) ltac:(left; auto) la) as U. cbn [fst] in U.
  rewrite L2 in U. apply lookup_last_In in U. apply (NI _ U).
Qed.
Print Assumptions C09_absent_all_partial.

(** Without that bound a transaction of nonterminals can be laid over the offset
    of another one: the search for a hole ends at the end of the allocated array
    and the place reached is used unchecked.  The earlier transaction then
    answers for a nonterminal that was never entered in it. *)
Theorem C09_absent_all_refuted : exists nt ns rows p os i L o la ac,
  0 < nt <= ns /\ Forall (txn_ok nt ns) rows /\ add_rows (acttab_alloc ns nt) rows = Ok (p, os) /\
  nth_error rows i = Some (L, false) /\ nth_error os i = Some o /\ nt <= la < ns /\
  (forall a, ~ In (la, a) L) /\ slot p o la = Ok (la, ac).
Proof.
  exists 1, 13, (map (fun k => ([(1, k)], false)) [0; 1; 2; 3; 4; 5; 6; 7; 8; 9; 10; 11] ++ [([(12, 99)], false)]).
  do 2 eexists. exists 11%nat, [(1, 11)], 10, 12, 99.
  split; [lia|]. split.
  { repeat (constructor; [split; [discriminate|split; [repeat constructor; cbn; tauto|]];
      cbn; intros la ac [E|[]]; inversion E; lia|]). constructor. }
  split; [vm_compute; reflexivity|]. split; [reflexivity|]. split; [reflexivity|]. split; [lia|].
  split; [|vm_compute; reflexivity]. cbn. intros a [E|[]]; inversion E.
Qed.

(** Entering the same pair twice in one transaction (lemon does not) can make it
    share the slots of a different transaction. *)
Theorem C09_repeated_pair_refuted : exists nt ns rows p os i L o la ac,
  0 < nt <= ns /\ add_rows (acttab_alloc ns nt) rows = Ok (p, os) /\
  nth_error rows i = Some (L, true) /\ nth_error os i = Some o /\ 0 <= la < nt /\
  (forall a, ~ In (la, a) L) /\ slot p o la = Ok (la, ac).
Proof.
  exists 4, 6, [([(1, 5); (2, 7)], true); ([(1, 5); (1, 5)], true)]. do 2 eexists.
  exists 1%nat, [(1, 5); (1, 5)], 0, 2, 7. split; [lia|]. split; [vm_compute; reflexivity|].
  split; [reflexivity|]. split; [reflexivity|]. split; [lia|]. split; [|vm_compute; reflexivity].
  cbn. intros a [E|[E|[]]]; inversion E.
Qed.

(** Transactions sharing slots, interleaved ones, and one with two actions for the
    same terminal (the last one counts). *)
Definition exrows : list (list (Z * Z) * bool) :=
  [([(0, 11); (2, 12); (3, 13)], true); ([(4, 3); (6, 5)], false); ([(1, 9)], true); ([(0, 11); (2, 12); (3, 13)], true);
   ([(5, 2); (4, 3)], false); ([(3, 1); (3, 2)], true)].

Example C09_ex : Forall (txn_ok 4 10) exrows /\
  (forall L, In (L, false) exrows -> exists lo, In lo (map fst L) /\ forall hi, In hi (map fst L) -> lo + hi <= 4 + 10) /\
  exists p os, add_rows (acttab_alloc 10 4) exrows = Ok (p, os) /\
    nth_error os 0 = nth_error os 3 /\ nth_error os 0 <> nth_error os 2 /\
    (exists o, nth_error os 5 = Some o /\ slot p o 3 = Ok (3, 2)).
Proof.
  split.
  { unfold exrows. repeat (constructor; [split; [discriminate|split; [repeat constructor; cbn; intuition discriminate|]];
      cbn; intros la ac H; intuition (try match goal with E : (_, _) = _ |- _ => inversion E end; lia)|]). constructor. }
  split.
  { cbn. intros L H. exists 4.
    destruct H as [H|[H|[H|[H|[H|[H|[]]]]]]]; inversion H; clear H; subst L; cbn [map fst In]; (split; [auto|intros hi [<-|[<-|[]]]; lia]). }
  do 2 eexists. split; [vm_compute; reflexivity|]. split; [reflexivity|]. split; [discriminate|].
  eexists. split; [reflexivity|]. vm_compute. reflexivity.
Qed.
