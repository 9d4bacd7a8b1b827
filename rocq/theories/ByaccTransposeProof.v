(** byacc/lalr.c: transpose. *)
From Coq Require Import List Arith NArith Lia Bool.
Import ListNotations.
From Verif Require Import Base ByaccLalrModel.
Open Scope res_scope.

Definition row (o : option (list nat)) : list nat := match o with Some l => l | None => [] end.
Notation occ l j := (count_occ Nat.eq_dec l j).

(** The entries [i] due to index [j], for rows numbered from [i]. *)
Fixpoint tr (i : nat) (R : list (option (list nat))) (j : nat) : list nat :=
  match R with
  | [] => []
  | o :: r => repeat i (occ (row o) j) ++ tr (S i) r j
  end.

Lemma count_edges_ok : forall l ned, (forall j, In j l -> j < length ned) ->
  exists ned', count_edges l ned = Ok ned' /\ length ned' = length ned /\ forall j, j < length ned -> nth j ned' 0 = nth j ned 0 + occ l j.
Proof.
  induction l as [|x l IH]; intros ned H; cbn [count_edges].
  - exists ned. split; [reflexivity|]. split; [auto|]. intros j _. cbn. lia.
  - assert (Lx : x < length ned) by (apply H; now left). rewrite (nth_error_nth' _ 0 Lx). cbn [opt bind].
    destruct (IH (upd ned x (S (nth x ned 0)))) as (ned' & E & L & C).
    { intros j Hj. rewrite upd_length. apply H. now right. }
    exists ned'. split; [exact E|]. rewrite upd_length in L. split; [auto|]. intros j Lj. rewrite C by (rewrite upd_length; auto).
    cbn [count_occ]. destruct (Nat.eq_dec x j) as [->|N]; [rewrite nth_upd_eq by auto; lia|rewrite nth_upd_ne by auto; lia].
Qed.

Lemma count_rel_ok : forall R ned i, (forall o j, In o R -> In j (row o) -> j < length ned) ->
  exists ned', count_rel R ned = Ok ned' /\ length ned' = length ned /\ forall j, j < length ned -> nth j ned' 0 = nth j ned 0 + length (tr i R j).
Proof.
  induction R as [|o R IH]; intros ned i H; cbn [count_rel].
  - exists ned. split; [reflexivity|]. split; [auto|]. intros j _. cbn. lia.
  - destruct (count_edges_ok (row o) ned) as (n1 & E1 & L1 & C1); [intros j Hj; eapply H; [now left|auto]|].
    destruct (IH n1 (S i)) as (n2 & E2 & L2 & C2); [intros o' j Ho Hj; rewrite L1; eapply H; [right; exact Ho|auto]|].
    exists n2. split.
    + destruct o as [l|]; cbn [row] in *; [rewrite E1; exact E2|]. inversion E1. subst n1. exact E2.
    + split; [lia|]. intros j Lj. rewrite C2 by lia. rewrite C1 by auto. cbn [tr]. rewrite app_length, repeat_length. lia.
Qed.

Lemma put_edges_ok : forall i l ned T, length T = length ned ->
  (forall j, In j l -> j < length T) -> (forall j, j < length T -> length (nth j T []) + occ l j <= nth j ned 0) ->
  exists T', put_edges i l ned T = Ok T' /\ length T' = length T /\ forall j, j < length T -> nth j T' [] = nth j T [] ++ repeat i (occ l j).
Proof.
  induction l as [|x l IH]; intros ned T LT H C; cbn [put_edges].
  - exists T. split; [reflexivity|]. split; [auto|]. intros j _. cbn. now rewrite app_nil_r.
  - assert (Lx : x < length T) by (apply H; now left). rewrite (nth_error_nth' ned 0) by lia. rewrite (nth_error_nth' T [] Lx). cbn [opt bind].
    pose proof (C x Lx) as Cx. cbn [count_occ] in Cx. destruct (Nat.eq_dec x x) as [_|]; [|congruence].
    replace (length (nth x T []) <? nth x ned 0) with true by (symmetry; apply Nat.ltb_lt; lia).
    destruct (IH ned (upd T x (nth x T [] ++ [i]))) as (T' & E & L & D); rewrite ?upd_length; auto.
    { intros j Hj. apply H. now right. }
    { intros j Lj. specialize (C j Lj). cbn [count_occ] in C. destruct (Nat.eq_dec x j) as [->|N].
      - rewrite nth_upd_eq by auto. rewrite app_length. cbn [length]. lia.
      - rewrite nth_upd_ne by auto. lia. }
    exists T'. split; [exact E|]. rewrite upd_length in L. split; [auto|]. intros j Lj. rewrite D by (rewrite upd_length; auto).
    cbn [count_occ]. destruct (Nat.eq_dec x j) as [->|N]; [|now rewrite nth_upd_ne by auto].
    rewrite nth_upd_eq by auto. rewrite <- app_assoc. reflexivity.
Qed.

Lemma put_rel_ok : forall R ned T i, length T = length ned ->
  (forall o j, In o R -> In j (row o) -> j < length T) ->
  (forall j, j < length T -> length (nth j T []) + length (tr i R j) <= nth j ned 0) ->
  exists T', put_rel i R ned T = Ok T' /\ length T' = length T /\ forall j, j < length T -> nth j T' [] = nth j T [] ++ tr i R j.
Proof.
  induction R as [|o R IH]; intros ned T i LT H C; cbn [put_rel].
  - exists T. split; [reflexivity|]. split; [auto|]. intros j _. cbn. now rewrite app_nil_r.
  - destruct (put_edges_ok i (row o) ned T LT) as (T1 & E1 & L1 & D1).
    { intros j Hj. eapply H; [now left|auto]. }
    { intros j Lj. specialize (C j Lj). cbn [tr] in C. rewrite app_length, repeat_length in C. lia. }
    destruct (IH ned T1 (S i)) as (T2 & E2 & L2 & D2); rewrite ?L1; auto.
    { intros o' j Ho Hj. eapply H; [right; exact Ho|auto]. }
    { intros j Lj. rewrite D1 by auto. specialize (C j Lj). cbn [tr] in C. rewrite app_length in *. lia. }
    exists T2. split.
    + destruct o as [l|]; cbn [row] in *; [rewrite E1; exact E2|]. inversion E1. subst T1. exact E2.
    + split; [lia|]. intros j Lj. rewrite D2 by lia. rewrite D1 by auto. cbn [tr]. now rewrite <- app_assoc.
Qed.

Lemma finish_all_ok : forall ned T, length T = length ned ->
  length (finish_all ned T) = length T /\
  forall j, j < length T -> nth_error (finish_all ned T) j = Some (finish (nth j ned 0) (nth j T [])).
Proof.
  induction ned as [|k ned IH]; intros [|e T] L; try discriminate; cbn [finish_all length] in *.
  - split; [auto|]. intros j H. lia.
  - destruct (IH T) as [A B]; [lia|]. split; [lia|]. intros [|j] H; cbn [nth_error nth]; [reflexivity|]. apply B. lia.
Qed.

Theorem transpose_ok : forall R n, (forall o j, In o R -> In j (row o) -> j < n) ->
  exists T, transpose R n = Ok T /\ length T = n /\
  forall j, j < n -> nth_error T j = Some (if tr 0 R j then None else Some (tr 0 R j)).
Proof.
  intros R n H. unfold transpose.
  destruct (count_rel_ok R (repeat 0 n) 0) as (ned & E1 & L1 & C1); [rewrite repeat_length; auto|]. rewrite E1. cbn [bind].
  rewrite repeat_length in L1, C1.
  assert (CN : forall j, j < n -> nth j ned 0 = length (tr 0 R j)) by (intros j Hj; rewrite C1, nth_repeat by auto; lia).
  destruct (put_rel_ok R ned (repeat [] n) 0) as (T & E2 & L2 & D2); rewrite ?repeat_length in *; auto.
  { intros j Hj. rewrite nth_repeat, CN by auto. cbn. lia. }
  rewrite E2. cbn [bind]. destruct (finish_all_ok ned T) as [F1 F2]; [lia|].
  exists (finish_all ned T). split; [reflexivity|]. split; [lia|]. intros j Hj. rewrite F2 by lia.
  rewrite D2, nth_repeat, CN by auto. cbn [app]. unfold finish. rewrite Nat.sub_diag. cbn [repeat]. rewrite app_nil_r.
  destruct (tr 0 R j); reflexivity.
Qed.

(** The same list as a function of the indices. *)
Lemma tr_flat : forall R i j, tr i R j = flat_map (fun k => repeat k (occ (row (nth (k - i) R None)) j)) (seq i (length R)).
Proof.
  induction R as [|o R IH]; intros i j; [reflexivity|]. cbn [tr length seq flat_map]. rewrite Nat.sub_diag. cbn [nth]. f_equal.
  rewrite IH. rewrite !flat_map_concat_map. f_equal. apply map_ext_in. intros k Hk. apply in_seq in Hk.
  replace (k - i) with (S (k - S i)) by lia. reflexivity.
Qed.

Lemma In_repeat : forall (k x c : nat), In x (repeat k c) <-> x = k /\ 0 < c.
Proof.
  intros k x c. induction c as [|c IH]; cbn; [split; [easy|lia]|]. rewrite IH. split; [intros [->|[-> _]]; lia|intros [-> _]; auto].
Qed.

(** Its elements. *)
Lemma tr_In : forall R j k, In k (tr 0 R j) <-> exists l, nth_error R k = Some (Some l) /\ In j l.
Proof.
  intros R j k. rewrite tr_flat, in_flat_map. split.
  - intros (x & Hx & H). apply In_repeat in H as [-> H]. rewrite Nat.sub_0_r in H. apply in_seq in Hx.
    assert (C : In j (row (nth x R None))) by (apply (count_occ_In Nat.eq_dec); auto).
    destruct (nth_error R x) as [[l|]|] eqn:E; pose proof (nth_error_nth _ _ None E) as Q || (apply nth_error_None in E; lia); rewrite Q in C; [|destruct C].
    exists l. split; [auto|exact C].
  - intros (l & E & H). exists k. split; [apply in_seq; apply nth_error_Some_lt in E; lia|]. apply In_repeat. split; [auto|].
    rewrite Nat.sub_0_r. rewrite (nth_error_nth _ _ None E). cbn [row]. now apply (count_occ_In Nat.eq_dec).
Qed.
