(** Proofs about the lookup functions of the driver on generated tables. *)
From Coq Require Import List ZArith Bool Lia Arith.
Import ListNotations.
From Verif Require Import Base CLib SpecGrammar LemonStatesModel LemonCompressModel LemonActtabModel LemonActtabProof
  LemonReportModel LemonParModel LemonReportProof.
Local Open Scope res_scope.
Local Open Scope Z_scope.

(** What the lookup of terminal [la] in a row should give: own entry, else the
    entry of the fallback token, else the wildcard's, else the default. *)
Definition wild_spec (tkn : list (Z * Z)) (dflt : Z) (w : option Z) (la : Z) : Z :=
  match w with
  | Some z => match lookup_last tkn z with Some a => if 0 <? la then a else dflt | None => dflt end
  | None => dflt
  end.

Definition find_spec (tkn : list (Z * Z)) (dflt : Z) (fb : option (list Z)) (w : option Z) (la : Z) : Z :=
  match lookup_last tkn la with
  | Some a => a
  | None =>
      match fb with
      | None => wild_spec tkn dflt w la
      | Some l =>
          let f := nth (Z.to_nat la) l 0 in
          if f =? 0 then wild_spec tkn dflt w la
          else match lookup_last tkn f with Some a => a | None => wild_spec tkn dflt w f end
      end
  end.

(** A fallback table as ReportTable prints it: one entry per terminal, no chains. *)
Definition fallback_ok (nt : Z) (fb : option (list Z)) : Prop :=
  match fb with
  | None => True
  | Some l => lenz l = nt /\ forall la, 0 <= la < nt -> let f := nth (Z.to_nat la) l 0 in
      0 <= f < nt /\ nth (Z.to_nat f) l 0 = 0
  end.

Definition wild_ok (nt : Z) (w : option Z) : Prop := match w with None => True | Some z => 0 <= z < nt end.

Lemma rdz_nth : forall (l : list Z) i, 0 <= i < lenz l -> rdz l i = Ok (nth (Z.to_nat i) l 0).
Proof.
  intros l i H. unfold rdz, lenz in *. destruct (Z.ltb_spec i 0); [lia|].
  rewrite (nth_error_nth' l 0) by lia. reflexivity.
Qed.

Lemma assert_true : forall b, b = true -> assert b = Ok tt.
Proof. intros b ->. reflexivity. Qed.

Ltac asrt := rewrite assert_true by (first [apply Z.leb_le; lia | apply Z.ltb_lt; lia | apply negb_true_iff, Z.eqb_neq; lia]); cbn [bind].

Section Lookup.
Variable c : gen.
Variable nt ns : Z.
Variable st : Z.
Variable s : srow.
Variable d : Z.
Hypothesis NT : 0 < nt <= ns.
Hypothesis RT : row_tables (g_tab c) nt ns st s.
Hypothesis T1 : YYNTOKEN (g_tab c) = nt.
Hypothesis T2 : YYNOCODE (g_tab c) = ns.
Hypothesis TA : lenz (yy_action (g_tab c)) = YY_ACTTAB_COUNT (g_tab c).
Hypothesis D : rdz (yy_default (g_tab c)) st = Ok d.

Lemma find_wild_ok : forall o la, wild_ok nt (g_wildcard c) ->
  st <= YY_SHIFT_COUNT (g_tab c) -> rdz (yy_shift_ofst (g_tab c)) st = Ok o ->
  find_wild c st (o + la) la = Ok (wild_spec (sr_tkn s) d (g_wildcard c) la).
Proof.
  intros o la W SC RO. unfold find_wild, wild_spec. destruct (g_wildcard c) as [w|]; [|auto].
  destruct (rt_shift _ _ _ _ _ RT SC) as (o' & RO' & B1 & B2 & LK). rewrite RO in RO'. inversion RO'; subst o'.
  cbv zeta. replace (o + la - la + w) with (o + w) by lia. cbn [wild_ok] in W.
  asrt. destruct (LK w W) as (x & -> & LX). cbn [bind].
  destruct (lookup_last (sr_tkn s) w) as [a|] eqn:EL.
  - destruct LX as (-> & L1 & L2). rewrite Z.eqb_refl. cbn [andb]. destruct (0 <? la); auto.
  - destruct (Z.eqb_spec x w); [congruence|]. cbn [andb]. auto.
Qed.

Lemma find_shift_loop_ok : forall f la, 0 <= la < nt -> wild_ok nt (g_wildcard c) -> fallback_ok nt (g_fallback c) ->
  st <= YY_SHIFT_COUNT (g_tab c) ->
  find_shift_loop (S (S f)) c la st = Ok (find_spec (sr_tkn s) d (g_fallback c) (g_wildcard c) la).
Proof.
  intros f la LA W FB SC.
  destruct (rt_shift _ _ _ _ _ RT SC) as (o & RO & B1 & B2 & LK).
  assert (ONE : forall n la0, 0 <= la0 < nt ->
     (match g_fallback c with None => True | Some l => nth (Z.to_nat la0) l 0 = 0 end) ->
     find_shift_loop (S n) c la0 st = Ok (match lookup_last (sr_tkn s) la0 with Some a => a | None => wild_spec (sr_tkn s) d (g_wildcard c) la0 end)).
  { intros n la0 LA0 F0. cbn [find_shift_loop]. cbv zeta. rewrite RO. cbn [bind]. rewrite T1, T2.
    asrt. asrt. asrt. asrt. asrt. asrt.
    destruct (LK la0 LA0) as (x & -> & LX). cbn [bind].
    destruct (lookup_last (sr_tkn s) la0) as [a|] eqn:EL.
    - destruct LX as (-> & L1 & L2). rewrite Z.eqb_refl. cbn [negb]. asrt. auto.
    - destruct (Z.eqb_spec x la0); [congruence|]. cbn [negb].
      destruct (g_fallback c) as [l|] eqn:EF.
      + destruct FB as (FL & _). asrt. rewrite rdz_nth by lia. cbn [bind]. rewrite F0. cbn [Z.eqb negb].
        apply find_wild_ok; auto.
      + apply find_wild_ok; auto. }
  unfold find_spec. destruct (g_fallback c) as [l|] eqn:EF.
  2:{ rewrite ONE; auto. }
  destruct FB as (FL & FB). destruct (FB la LA) as (F1 & F2). cbv zeta in *.
  destruct (Z.eqb_spec (nth (Z.to_nat la) l 0) 0) as [E0|E0].
  { rewrite ONE; auto. }
  remember (S f) as f1. cbn [find_shift_loop]. cbv zeta. rewrite RO. cbn [bind]. rewrite T1, T2.
  asrt. asrt. asrt. asrt. asrt. asrt.
  destruct (LK la LA) as (x & -> & LX). cbn [bind].
  destruct (lookup_last (sr_tkn s) la) as [a|] eqn:EL.
  - destruct LX as (-> & L1 & L2). rewrite Z.eqb_refl. cbn [negb]. asrt. auto.
  - destruct (Z.eqb_spec x la); [congruence|]. cbn [negb]. rewrite EF. asrt. rewrite rdz_nth by lia. cbn [bind].
    destruct (Z.eqb_spec (nth (Z.to_nat la) l 0) 0); [congruence|]. cbn [negb].
    rewrite rdz_nth by lia. cbn [bind]. rewrite F2. cbn [Z.eqb]. cbn [assert bind]. subst f1.
    rewrite ONE; auto.
Qed.

Lemma find_shift_ok : forall la, 0 <= la < nt -> wild_ok nt (g_wildcard c) -> fallback_ok nt (g_fallback c) ->
  st <= YY_SHIFT_COUNT (g_tab c) -> st <= YY_MAX_SHIFT (g_tab c) ->
  yy_find_shift_action c la st = Ok (find_spec (sr_tkn s) d (g_fallback c) (g_wildcard c) la).
Proof.
  intros la LA W FB SC MS. unfold yy_find_shift_action. cbv zeta.
  destruct (Z.ltb_spec (YY_MAX_SHIFT (g_tab c)) st); [lia|]. asrt. now apply find_shift_loop_ok.
Qed.

Lemma find_reduce_ok : forall la ac, nt <= la < ns -> lookup_last (sr_nt s) la = Some ac ->
  yy_find_reduce_action c st la = Ok ac.
Proof.
  intros la ac LA EL. unfold yy_find_reduce_action. cbv zeta.
  destruct (rt_reduce _ _ _ _ _ RT la ac EL) as (R1 & o & RO & B & L1 & L2).
  rewrite T2. destruct (g_errsym c).
  - destruct (Z.ltb_spec (YY_REDUCE_COUNT (g_tab c)) st); [lia|]. rewrite RO. cbn [bind]. asrt.
    destruct (Z.ltb_spec (o + la) 0); [lia|]. destruct (Z.leb_spec (YY_ACTTAB_COUNT (g_tab c)) (o + la)); [lia|].
    cbn [orb]. rewrite L1. cbn [bind]. rewrite Z.eqb_refl. auto.
  - asrt. rewrite RO. cbn [bind]. asrt.
    destruct (Z.leb_spec 0 (o + la)); [|lia]. destruct (Z.ltb_spec (o + la) (YY_ACTTAB_COUNT (g_tab c))); [|lia].
    cbn [andb assert bind]. rewrite L1. cbn [bind]. rewrite Z.eqb_refl. auto.
Qed.

(** The lookup of a nonterminal in a parser with an error symbol never fails. *)
Lemma find_reduce_err_ok : forall la, nt <= la < ns -> g_errsym c <> None ->
  YY_ACTTAB_COUNT (g_tab c) <= lenz (yy_lookahead (g_tab c)) ->
  exists ac, yy_find_reduce_action c st la = Ok ac /\
    (row_absent (g_tab c) nt ns st s -> ac = match lookup_last (sr_nt s) la with Some a => a | None => d end).
Proof.
  intros la LA ES BB. destruct (lookup_last (sr_nt s) la) as [ac|] eqn:EL.
  { exists ac. split; [now apply find_reduce_ok|auto]. }
  unfold yy_find_reduce_action. cbv zeta. destruct (g_errsym c); [|congruence].
  destruct (Z.ltb_spec (YY_REDUCE_COUNT (g_tab c)) st) as [G|G].
  { exists d. auto. }
  destruct (rt_reduce_ofst _ _ _ _ _ RT G) as (o & RO). rewrite RO. cbn [bind]. rewrite T2. asrt.
  destruct (Z.ltb_spec (o + la) 0); [exists d; auto|].
  destruct (Z.leb_spec (YY_ACTTAB_COUNT (g_tab c)) (o + la)); [exists d; auto|]. cbn [orb].
  rewrite rdz_nth by lia. cbn [bind].
  destruct (Z.eqb_spec (nth (Z.to_nat (o + la)) (yy_lookahead (g_tab c)) 0) la) as [EQ|EQ]; cbn [negb].
  - rewrite rdz_nth by lia. eexists. split; [reflexivity|]. intros AB. exfalso.
    destruct (AB la LA EL G) as (o' & RO' & X). rewrite RO in RO'. inversion RO'; subst o'.
    destruct X as [X|[X|(x & X & NX)]]; try lia. rewrite rdz_nth in X by lia. congruence.
  - exists d. auto.
Qed.

End Lookup.
