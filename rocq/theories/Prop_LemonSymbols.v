(** C24: the order and the numbering of the symbols. *)
From Coq Require Import List Arith ZArith Bool Lia Permutation Sorted.
Import ListNotations.
From Verif Require Import Base CLib LemonTableModel LemonTableProof.
Open Scope res_scope.

(** The three classes, by the type and the first byte of the name (0 for the empty name). *)
Definition is_multi (s : lsym) : bool := match ls_type s with MULTITERMINAL => true | _ => false end.
Definition first_byte (s : lsym) : Z := match ls_name s with c :: _ => c | [] => 0%Z end.
Definition class1 (s : lsym) : bool := negb (is_multi s) && (first_byte s <=? 90)%Z.
Definition class2 (s : lsym) : bool := negb (is_multi s) && (90 <? first_byte s)%Z.

Definition cls (k : Z) (p : lsym * nat) : bool := (symclass (fst p) =? k)%Z.
Local Notation sle := (fun a b => (Symbolcmpp a b <=? 0)%Z).

Lemma symclass_cases : forall s, symclass s = 1%Z \/ symclass s = 2%Z \/ symclass s = 3%Z.
Proof. intros s. unfold symclass. destruct (ls_type s); auto; destruct (ls_name s); auto; destruct (90 <? z)%Z; auto. Qed.

Lemma sle_iff : forall a b, sle a b = true <-> (symclass (fst a) < symclass (fst b))%Z \/ (symclass (fst a) = symclass (fst b) /\ snd a <= snd b).
Proof. intros a b. unfold Symbolcmpp. cbn zeta. rewrite Z.leb_le. destruct (_ =? _)%Z eqn:E; [apply Z.eqb_eq in E|apply Z.eqb_neq in E]; lia. Qed.

Lemma three_perm : forall l, Permutation l (filter (cls 1) l ++ filter (cls 2) l ++ filter (cls 3) l).
Proof.
  induction l as [|p l IH]; [constructor|]. cbn [filter].
  assert (C : forall k, cls k p = (symclass (fst p) =? k)%Z) by reflexivity. rewrite !C.
  destruct (symclass_cases (fst p)) as [E|[E|E]]; rewrite E; cbn [Z.eqb Pos.eqb].
  - cbn [app]. apply perm_skip. exact IH.
  - apply Permutation_cons_app. exact IH.
  - rewrite (app_assoc (filter (cls 1) l) (filter (cls 2) l)). apply Permutation_cons_app. rewrite <- app_assoc. exact IH.
Qed.

Lemma filter_combine_sorted : forall (f : lsym * nat -> bool) l i, 
  StronglySorted (fun a b => snd a <= snd b) (filter f (combine l (seq i (length l)))) /\ Forall (fun p => i <= snd p) (filter f (combine l (seq i (length l)))).
Proof.
  intros f. induction l as [|x l IH]; intros i; cbn [length seq combine filter]; [split; constructor|]. destruct (IH (S i)) as (A & B).
  assert (B' : Forall (fun p => i <= snd p) (filter f (combine l (seq (S i) (length l))))) by (eapply Forall_impl; [|exact B]; cbn; intros; lia).
  destruct (f (x, i)); [|auto]. split; [constructor; [exact A|exact B']|constructor; [cbn; lia|exact B']].
Qed.

Lemma ss_app : forall {A} (R : A -> A -> Prop) l l', StronglySorted R l -> StronglySorted R l' -> (forall x y, In x l -> In y l' -> R x y) -> StronglySorted R (l ++ l').
Proof.
  intros A R l l' H. induction H as [|x l H IH F]; intros H' X; [exact H'|]. cbn [app]. constructor.
  - apply IH; [exact H'|]. intros; apply X; [now right|assumption].
  - apply Forall_app. split; [exact F|]. apply Forall_forall. intros y I. apply X; [now left|exact I].
Qed.

Lemma ss_impl : forall {A} (R R' : A -> A -> Prop) l, StronglySorted R l -> (forall x y, In x l -> In y l -> R x y -> R' x y) -> StronglySorted R' l.
Proof.
  intros A R R' l H. induction H as [|x l H IH F]; intros X; [constructor|]. constructor.
  - apply IH. intros; apply X; [now right|now right|assumption].
  - rewrite Forall_forall in *. intros y I. apply X; [now left|now right|auto].
Qed.

Lemma map_fst_filter : forall (f : lsym -> bool) l i, map fst (filter (fun p => f (fst p)) (combine l (seq i (length l)))) = filter f l.
Proof. intros f. induction l as [|x l IH]; intros i; cbn [length seq combine filter map fst]; [reflexivity|]. destruct (f x); cbn [map fst]; now rewrite IH. Qed.

Lemma index_inj : forall (l : list lsym) i x y, In x (combine l (seq i (length l))) -> In y (combine l (seq i (length l))) -> snd x = snd y -> x = y.
Proof.
  assert (G : forall (l : list lsym) i x, In x (combine l (seq i (length l))) -> i <= snd x).
  { intros l i (a & n) I. apply in_combine_r in I. apply in_seq in I. cbn. lia. }
  induction l as [|a l IH]; intros i x y Ix Iy E; [destruct Ix|]. cbn [length seq combine] in Ix, Iy. destruct Ix as [<-|Ix], Iy as [<-|Iy]; [reflexivity| | |eauto].
  - apply G in Iy. cbn in E. lia.
  - apply G in Ix. cbn in E. lia.
Qed.

Lemma sort_symbols_eq : forall l, sort_symbols l = filter (fun s => symclass s =? 1)%Z l ++ filter (fun s => symclass s =? 2)%Z l ++ filter (fun s => symclass s =? 3)%Z l.
Proof.
  intros l. unfold sort_symbols. set (c := combine l (seq 0 (length l))).
  rewrite <- (qsort_unique sle) with (l' := filter (cls 1) c ++ filter (cls 2) c ++ filter (cls 3) c).
  - rewrite !map_app. unfold cls, c. now rewrite !(map_fst_filter (fun s => symclass s =? _)%Z l 0).
  - intros x y. rewrite !sle_iff. lia.
  - intros x y z. rewrite !sle_iff. lia.
  - intros x y Ix Iy. rewrite !sle_iff. intros A B. eapply index_inj; eauto. lia.
  - apply three_perm.
  - assert (PART : forall k, StronglySorted (fun a b => sle a b = true) (filter (cls k) c)).
    { intros k. eapply ss_impl; [apply (proj1 (filter_combine_sorted (cls k) l 0))|]. intros x y Ix Iy L. apply filter_In in Ix as (_ & Ix). apply filter_In in Iy as (_ & Iy).
      unfold cls in Ix, Iy. apply Z.eqb_eq in Ix, Iy. apply sle_iff. cbn beta in *. lia. }
    apply ss_app; [apply PART| |].
    + apply ss_app; [apply PART|apply PART|]. intros x y Ix Iy. apply filter_In in Ix as (_ & Ix). apply filter_In in Iy as (_ & Iy). unfold cls in Ix, Iy. apply Z.eqb_eq in Ix, Iy. apply sle_iff. cbn beta in *. lia.
    + intros x y Ix Iy. apply filter_In in Ix as (_ & Ix). apply in_app_iff in Iy as [Iy|Iy]; apply filter_In in Iy as (_ & Iy); unfold cls in Ix, Iy; apply Z.eqb_eq in Ix, Iy; apply sle_iff; lia.
Qed.

(** Whatever the algorithm of qsort, the sorted array is the first class, then the second, then
    the multi-terminals, each in declaration order. *)
Theorem C24_order : forall l l',
  Permutation (combine l (seq 0 (length l))) l' -> StronglySorted (fun a b => (Symbolcmpp a b <= 0)%Z) l' ->
  map fst l' = filter class1 l ++ filter class2 l ++ filter is_multi l /\ sort_symbols l = map fst l'.
Proof.
  intros l l' P SS.
  assert (E : l' = qsort sle (combine l (seq 0 (length l)))).
  { apply qsort_unique.
    - intros x y. rewrite !sle_iff. lia.
    - intros x y z. rewrite !sle_iff. lia.
    - intros x y Ix Iy. rewrite !sle_iff. intros A B. eapply index_inj; eauto. lia.
    - exact P.
    - eapply ss_impl; [exact SS|]. intros x y _ _ H. now apply Z.leb_le. }
  assert (S0 : sort_symbols l = map fst l') by (rewrite E; reflexivity). split; [|exact S0]. rewrite <- S0, sort_symbols_eq.
  f_equal; [|f_equal]; apply filter_ext; intros s; unfold class1, class2, is_multi, first_byte, symclass; destruct (ls_type s); cbn [negb andb Z.eqb Pos.eqb]; try reflexivity;
    destruct (ls_name s) as [|c r]; try reflexivity; destruct (Z.ltb_spec 90 c); destruct (Z.leb_spec c 90); try lia; reflexivity.
Qed.

Lemma sort_classes : forall l, sort_symbols l = filter class1 l ++ filter class2 l ++ filter is_multi l.
Proof.
  intros l. destruct (C24_order l (qsort sle (combine l (seq 0 (length l))))) as (A & B).
  - apply qsort_perm.
  - eapply ss_impl; [apply (qsort_sorted sle)|].
    + intros x y. rewrite !sle_iff. lia.
    + intros x y z. rewrite !sle_iff. lia.
    + intros x y _ _ H. now apply Z.leb_le.
  - now rewrite B.
Qed.

Lemma drop_multi_ok : forall m l x, Forall (fun s => is_multi s = true) m -> is_multi x = false ->
  drop_multi (l ++ x :: m) (length (l ++ x :: m)) = Ok (S (length l)).
Proof.
  intros m l x F X. induction m as [|y m IH] using rev_ind.
  - rewrite app_length, Nat.add_comm. cbn [length Nat.add drop_multi]. rewrite nth_error_app2, Nat.sub_diag by lia. cbn [nth_error opt bind].
    unfold is_multi in X. destruct (ls_type x); try discriminate; reflexivity.
  - apply Forall_app in F as (F & Y). specialize (IH F).
    replace (l ++ x :: m ++ [y]) with ((l ++ x :: m) ++ [y]) by (now rewrite <- app_assoc).
    rewrite app_length, Nat.add_comm. cbn [length Nat.add drop_multi]. rewrite nth_error_app2, Nat.sub_diag by lia. cbn [nth_error opt bind].
    inversion Y as [|a b Y1 Y2]; subst. unfold is_multi in Y1. destruct (ls_type y); try discriminate.
    rewrite <- IH. assert (G : forall n k z, n <= length k -> drop_multi (k ++ [z]) n = drop_multi k n).
    { induction n as [|n IHn]; intros k z L; [reflexivity|]. cbn [drop_multi]. rewrite nth_error_app1 by lia. destruct (nth_error k n); [|reflexivity]. cbn [opt bind]. destruct (ls_type l0); auto. apply IHn. lia. }
    apply G. lia.
Qed.

Lemma skip_upper_ok : forall a x r i, Forall (fun s => exists c q, ls_name s = c :: q /\ isupper c = true) a ->
  match ls_name x with c :: _ => isupper c | [] => false end = false -> skip_upper (a ++ x :: r) i = Ok (i + length a).
Proof.
  induction a as [|s a IH]; intros x r i F X; cbn [app skip_upper length].
  - rewrite X. f_equal. lia.
  - inversion F as [|? ? (c & q & E & U) F']; subst. rewrite E, U. rewrite IH by assumption. f_equal. lia.
Qed.

Definition letter (c : Z) : Prop := (65 <= c <= 90 \/ 97 <= c <= 122)%Z.
Definition upper_name (s : lsym) : bool := (65 <=? first_byte s)%Z && (first_byte s <=? 90)%Z.

(** The symbols of a grammar: "$" first, "{default}" last, the others named with a letter.  Then
    the codes are: 0 for "$", 1 .. nterminal-1 for the terminals in declaration order, from
    nterminal to nsymbol-1 the nonterminals in declaration order, nsymbol for "{default}", then
    the multi-terminals. *)
Theorem C24_codes : forall eos mids dflt,
  ls_name eos = [36]%Z -> is_multi eos = false -> ls_name dflt = default_name -> is_multi dflt = false ->
  (forall s, In s mids -> letter (first_byte s)) ->
  exists sorted nsymbol nterminal, index_symbols (eos :: mids ++ [dflt]) = Ok (sorted, nsymbol, nterminal) /\
    let terms := filter (fun s => negb (is_multi s) && upper_name s) mids in
    let nonterms := filter (fun s => negb (is_multi s) && negb (upper_name s)) mids in
    sorted = eos :: terms ++ nonterms ++ dflt :: filter is_multi mids /\
    nterminal = 1 + length terms /\ nsymbol = nterminal + length nonterms.
Proof.
  intros eos mids dflt E1 M1 E2 M2 LT. cbn zeta.
  set (terms := filter (fun s => negb (is_multi s) && upper_name s) mids). set (nonterms := filter (fun s => negb (is_multi s) && negb (upper_name s)) mids).
  assert (SRT : sort_symbols (eos :: mids ++ [dflt]) = eos :: terms ++ nonterms ++ dflt :: filter is_multi mids).
  { rewrite sort_classes. cbn [filter]. rewrite !filter_app. cbn [filter].
    assert (A1 : class1 eos = true) by (unfold class1, first_byte; now rewrite M1, E1).
    assert (A2 : class2 eos = false) by (unfold class2, first_byte; now rewrite M1, E1).
    assert (A3 : class1 dflt = false) by (unfold class1, first_byte; now rewrite M2, E2).
    assert (A4 : class2 dflt = true) by (unfold class2, first_byte; now rewrite M2, E2).
    rewrite A1, A2, A3, A4, M1, M2, !app_nil_r. cbn [app]. f_equal.
    assert (X1 : filter class1 mids = terms).
    { apply filter_ext_in. intros s I. unfold class1, upper_name. f_equal. specialize (LT s I). unfold letter in LT.
      destruct (65 <=? first_byte s)%Z eqn:Q; cbn [andb]; [reflexivity|]. apply Z.leb_gt in Q. lia. }
    assert (X2 : filter class2 mids = nonterms).
    { apply filter_ext_in. intros s I. unfold class2, upper_name. f_equal. specialize (LT s I). unfold letter in LT.
      destruct (90 <? first_byte s)%Z eqn:Q; [apply Z.ltb_lt in Q|apply Z.ltb_ge in Q].
      - replace (first_byte s <=? 90)%Z with false by (symmetry; apply Z.leb_gt; lia). now rewrite andb_false_r.
      - replace (first_byte s <=? 90)%Z with true by (symmetry; apply Z.leb_le; lia). rewrite andb_true_r.
        replace (65 <=? first_byte s)%Z with true by (symmetry; apply Z.leb_le; lia). reflexivity. }
    rewrite X1, X2. now rewrite <- app_assoc. }
  exists (eos :: terms ++ nonterms ++ dflt :: filter is_multi mids), (1 + length terms + length nonterms), (1 + length terms).
  split; [|split; [reflexivity|split; [reflexivity|reflexivity]]].
  unfold index_symbols. rewrite SRT. cbn zeta.
  assert (EQS : eos :: terms ++ nonterms ++ dflt :: filter is_multi mids = (eos :: terms ++ nonterms) ++ dflt :: filter is_multi mids) by (cbn [app]; now rewrite <- app_assoc).
  remember (eos :: terms ++ nonterms ++ dflt :: filter is_multi mids) as SL eqn:ESL.
  replace (drop_multi SL (length SL)) with (Ok (S (length (eos :: terms ++ nonterms))) : res nat)
    by (rewrite EQS; symmetry; apply drop_multi_ok; [apply Forall_forall; intros s I; now apply filter_In in I|exact M2]).
  cbn [bind]. replace (S (length (eos :: terms ++ nonterms)) - 1) with (length (eos :: terms ++ nonterms)) by lia.
  replace (nth_error SL (length (eos :: terms ++ nonterms))) with (Some dflt) by (rewrite EQS, nth_error_app2, Nat.sub_diag by lia; reflexivity).
  cbn [opt bind]. rewrite (proj2 (streq_ok (ls_name dflt) default_name) E2). rewrite ESL at 1.
  cbn [skipn].
  assert (SK : exists x r, nonterms ++ dflt :: filter is_multi mids = x :: r /\ match ls_name x with c :: _ => isupper c | [] => false end = false).
  { destruct nonterms as [|x nt] eqn:NT; [exists dflt; eexists; split; [reflexivity|]; rewrite E2; reflexivity|].
    exists x. eexists. split; [reflexivity|]. assert (I : In x nonterms) by (rewrite NT; now left). unfold nonterms in I. apply filter_In in I as (_ & I).
    apply andb_true_iff in I as (_ & I). unfold upper_name, first_byte in I. destruct (ls_name x); [reflexivity|]. unfold isupper. now apply negb_true_iff in I. }
  destruct SK as (x & r & EQ & U). rewrite EQ. rewrite skip_upper_ok; [| |exact U].
  - cbn [bind]. f_equal. f_equal. f_equal. cbn [length]. rewrite app_length. reflexivity.
  - apply Forall_forall. intros s I. apply filter_In in I as (I & W). apply andb_true_iff in W as (_ & W). unfold upper_name, first_byte in W.
    destruct (ls_name s) as [|c q] eqn:N; [discriminate|]. exists c, q. split; [reflexivity|exact W].
Qed.

(** a multi-terminal declared first and a nonterminal before a terminal. *)
Definition ex24 : list lsym := [mkLsym [109]%Z MULTITERMINAL 1; mkLsym [101]%Z NONTERMINAL 2; mkLsym [80]%Z TERMINAL 1; mkLsym [65]%Z TERMINAL 1; mkLsym [116]%Z NONTERMINAL 1].
Example C24_example : (forall s, In s ex24 -> letter (first_byte s)) /\
  index_symbols (mkLsym [36]%Z NONTERMINAL 1 :: ex24 ++ [mkLsym default_name NONTERMINAL 1]) =
  Ok ([mkLsym [36]%Z NONTERMINAL 1; mkLsym [80]%Z TERMINAL 1; mkLsym [65]%Z TERMINAL 1; mkLsym [101]%Z NONTERMINAL 2; mkLsym [116]%Z NONTERMINAL 1; mkLsym default_name NONTERMINAL 1; mkLsym [109]%Z MULTITERMINAL 1], 5, 3).
Proof.
  split; [|vm_compute; reflexivity]. intros s I. cbn in I. unfold letter. destruct I as [<-|[<-|[<-|[<-|[<-|[]]]]]]; vm_compute; intuition congruence.
Qed.

Print Assumptions C24_order.
Print Assumptions C24_codes.
