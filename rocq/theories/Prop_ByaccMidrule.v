(** C46: mid-rule actions in byacc. *)
From Coq Require Import List Arith Bool Lia.
Import ListNotations.
From Verif Require Import Base ByaccRulesModel.
Open Scope res_scope.

(** * The source: rules with actions and %prec marks anywhere *)

Inductive part : Type := Sym (n : nat) | Act (a : nat) | Prec (p : nat).

(** A group [lhs : body | body | ...]. *)
Record group : Type := mkGroup { gr_lhs : nat; gr_body : list part; gr_alts : list (list part) }.

Definition part_event (p : part) : event :=
  match p with Sym n => ESymbol n | Act a => EAction a | Prec p => EPrec p end.

Definition group_events (g : group) : list event :=
  map part_event (gr_body g) ++ flat_map (fun b => EBar :: map part_event b) (gr_alts g).

(** The events after the first [lhs :]. *)
Definition source_events (g : group) (gs : list group) : list event :=
  group_events g ++ flat_map (fun h => EColon (gr_lhs h) :: group_events h) gs.

Definition group_rules (g : group) : list (nat * list part) := map (pair (gr_lhs g)) (gr_body g :: gr_alts g).

Definition symbols (b : list part) : list nat := flat_map (fun p => match p with Sym n => [n] | _ => [] end) b.
Definition actions (b : list part) : list nat := flat_map (fun p => match p with Act a => [a] | _ => [] end) b.
Definition mark (b : list part) : option nat :=
  match rev (flat_map (fun p => match p with Prec p => [p] | _ => [] end) b) with [] => None | p :: _ => Some p end.

(** Is there something after an action? *)
Definition followed (r : list part) : bool := existsb (fun p => match p with Prec _ => false | _ => true end) r.

(** The actions that are followed by a symbol or an action. *)
Fixpoint embedded (b : list part) : list nat :=
  match b with
  | [] => []
  | Act a :: r => (if followed r then [a] else []) ++ embedded r
  | _ :: r => embedded r
  end.

(** The right-hand side with the embedded actions replaced by Gen (k+1), Gen (k+2)... *)
Fixpoint replaced (k : nat) (b : list part) : list bucket :=
  match b with
  | [] => []
  | Sym n :: r => Name n :: replaced k r
  | Act a :: r => if followed r then Gen (S k) :: replaced (S k) r else replaced k r
  | Prec _ :: r => replaced k r
  end.

Definition rule_out (k : nat) (l : nat) (b : list part) : list (bucket * list bucket * option nat) :=
  map (fun j => (Gen j, [], Some 0)) (seq (S k) (length (embedded b))) ++ [(Name l, replaced k b, mark b)].

Fixpoint rules_out (k : nat) (rs : list (nat * list part)) : list (bucket * list bucket * option nat) :=
  match rs with
  | [] => []
  | (l, b) :: r => rule_out k l b ++ rules_out (k + length (embedded b)) r
  end.

(** The number of the case of each action: action i of a rule goes with the i-th of
    the byacc rules of that source rule. *)
Fixpoint cases_out (n : nat) (rs : list (nat * list part)) : list (nat * nat) :=
  match rs with
  | [] => []
  | (_, b) :: r => combine (seq n (length (actions b))) (actions b) ++ cases_out (n + length (embedded b) + 1) r
  end.

(** * One rule *)

(** As [replaced] and [embedded] with an action pending. *)
Definition pend (f : bool) (b : list part) : bool := f && followed b.
Definition repl (f : bool) (k : nat) (b : list part) : list bucket :=
  if pend f b then Gen (S k) :: replaced (S k) b else replaced k b.
Definition nemb (f : bool) (b : list part) : nat := (if pend f b then 1 else 0) + length (embedded b).

Definition gens (k n : nat) : list (option bucket) := map (fun j => Some (Gen j)) (rev (seq (S k) n)).

Lemma shift_ok : forall (R : list bucket) I, shift_items (map Some R ++ None :: I) = Ok (map Some R ++ None :: None :: I).
Proof. induction R as [|x R IH]; intros I; [reflexivity|]. cbn [map app shift_items]. rewrite IH. reflexivity. Qed.

Fixpoint mark_from (m : option nat) (b : list part) : option nat :=
  match b with [] => m | Prec p :: r => mark_from (Some p) r | _ :: r => mark_from m r end.

Lemma mark_from_ok : forall b m, mark_from m b = match mark b with Some p => Some p | None => m end.
Proof.
  unfold mark. induction b as [|[n|a|p] b IH]; intros m; cbn [mark_from flat_map app]; auto. rewrite IH. cbn [rev].
  destruct (rev _); reflexivity.
Qed.

Lemma seq_S_rev : forall k n, rev (seq k (S n)) = rev (seq (S k) n) ++ [k].
Proof. intros. reflexivity. Qed.

Lemma gens_S : forall k n, gens k (S n) = gens (S k) n ++ [Some (Gen (S k))].
Proof. intros. unfold gens. rewrite seq_S_rev, map_app. reflexivity. Qed.

Lemma repeat_snoc : forall A (x : A) n l, repeat x n ++ x :: l = x :: repeat x n ++ l.
Proof. intros A x. induction n as [|n IH]; intros l; [reflexivity|]. cbn [repeat app]. now rewrite IH. Qed.

Lemma not_followed : forall b, followed b = false -> actions b = [].
Proof. induction b as [|[n|a|p] b IH]; intros H; try discriminate; auto. Qed.

Lemma body_ok : forall b R I l L m P f k C, 2 <= length L ->
  exists f', read_events (map part_event b) (mkR (map Some R ++ None :: I) (l :: L) (m :: P) f k C) =
    Ok (mkR (map Some (rev (repl f k b) ++ R) ++ repeat None (nemb f b) ++ None :: I)
            (l :: gens k (nemb f b) ++ L) (mark_from m b :: repeat (Some 0) (nemb f b) ++ P) f' (k + nemb f b)
            (C ++ combine (seq (length L - 2 + if pend f b then 1 else 0) (length (actions b))) (actions b))).
Proof.
  induction b as [|[n|a|p] b IH]; intros R I l L m P f k C HL.
  - exists f. cbn [map read_events]. unfold repl, nemb, pend. cbn [followed existsb]. rewrite andb_false_r. cbn.
    now rewrite app_nil_r, Nat.add_0_r.
  - cbn [map part_event read_events read_event]. unfold flush_action. cbn [r_act]. destruct f.
    + unfold insert_empty_rule. cbn [r_items r_lhs r_prec r_gensym r_cases r_act]. rewrite shift_ok. cbn [bind set_act r_items r_lhs r_prec r_gensym r_cases r_act].
      specialize (IH (Name n :: Gen (S k) :: R) (None :: I) l (Some (Gen (S k)) :: L) m (Some 0 :: P) false (S k) C ltac:(cbn; lia)).
      cbn [map app] in IH. destruct IH as (f' & IH). exists f'. rewrite IH.
      unfold repl, nemb, pend. cbn [andb followed existsb orb replaced embedded Nat.add mark_from actions flat_map app].
      f_equal. f_equal.
      * cbn [rev]. rewrite <- !app_assoc. cbn [app]. f_equal. cbn [repeat app]. apply repeat_snoc.
      * rewrite gens_S, <- app_assoc. reflexivity.
      * f_equal. cbn [repeat]. apply repeat_snoc.
      * lia.
      * f_equal. f_equal. f_equal. cbn [length]. lia.
    + cbn [bind set_act r_items r_lhs r_prec r_gensym r_cases r_act].
      specialize (IH (Name n :: R) I l L m P false k C HL). cbn [map app] in IH. destruct IH as (f' & IH). exists f'. rewrite IH.
      unfold repl, nemb, pend. cbn [andb followed existsb orb replaced embedded Nat.add mark_from actions flat_map app].
      f_equal. f_equal. cbn [rev]. rewrite <- !app_assoc. reflexivity.
  - cbn [map part_event read_events read_event]. unfold flush_action. cbn [r_act]. destruct f.
    + unfold insert_empty_rule. cbn [r_items r_lhs r_prec r_gensym r_cases r_act]. rewrite shift_ok. cbn [bind set_act r_items r_lhs r_prec r_gensym r_cases r_act].
      match goal with |- context [mkR _ _ _ true (S k) ?C1] => specialize (IH (Gen (S k) :: R) (None :: I) l (Some (Gen (S k)) :: L) m (Some 0 :: P) true (S k) C1 ltac:(cbn; lia)) end.
      cbn [map app] in IH. destruct IH as (f' & IH). exists f'. rewrite IH.
      unfold repl, nemb, pend. cbn [andb followed existsb orb replaced embedded Nat.add mark_from actions flat_map app length].
      fold (followed b). f_equal. f_equal.
      * destruct (followed b); cbn [rev app length Nat.add repeat]; rewrite <- ?app_assoc; cbn [app]; f_equal; cbn [repeat app]; rewrite ?repeat_snoc; reflexivity.
      * destruct (followed b); cbn [app length Nat.add]; rewrite ?gens_S, <- ?app_assoc; reflexivity.
      * f_equal. destruct (followed b); cbn [app length Nat.add repeat]; rewrite ?repeat_snoc; reflexivity.
      * destruct (followed b); cbn [app length]; lia.
      * rewrite <- app_assoc. f_equal. cbn [app seq combine length]. f_equal; [f_equal; cbn [length]; lia|]. 
        destruct (followed b) eqn:F; [|apply not_followed in F; unfold actions in *; rewrite F; reflexivity]. f_equal. f_equal. cbn [length]; lia.
    + cbn [bind set_act r_items r_lhs r_prec r_gensym r_cases r_act].
      match goal with |- context [mkR _ _ _ true k ?C1] => specialize (IH R I l L m P true k C1 HL) end.
      destruct IH as (f' & IH). exists f'. rewrite IH.
      unfold repl, nemb, pend. cbn [andb followed existsb orb replaced embedded Nat.add mark_from actions flat_map app length].
      fold (followed b). f_equal. f_equal.
      * destruct (followed b); reflexivity.
      * destruct (followed b); reflexivity.
      * destruct (followed b); reflexivity.
      * destruct (followed b); reflexivity.
      * rewrite <- app_assoc. f_equal. cbn [app seq combine length]. f_equal; [f_equal; lia|]. 
        destruct (followed b) eqn:F; [|apply not_followed in F; unfold actions in *; rewrite F; reflexivity]. f_equal. f_equal. lia.
  - cbn [map part_event read_events read_event bind r_prec r_items r_lhs r_gensym r_cases r_act].
    destruct (IH R I l L (Some p) P f k C HL) as (f' & IH'). exists f'. rewrite IH'. reflexivity.
Qed.

(** * The whole rule section *)

Lemma read_events_app : forall a b st, read_events (a ++ b) st = (st' <- read_events a st ;; read_events b st').
Proof.
  induction a as [|e a IH]; intros b st; [reflexivity|]. cbn [app read_events]. destruct (read_event e st); cbn [bind]; auto.
Qed.

(** The arrays, from the first element on, after some complete rules. *)
Definition items_of (rs : list (bucket * list bucket * option nat)) : list (option bucket) :=
  flat_map (fun '(_, rhs, _) => map Some rhs ++ [None]) rs.
Definition lhs_of (rs : list (bucket * list bucket * option nat)) : list (option bucket) := map (fun '(l, _, _) => Some l) rs.
Definition prec_of (rs : list (bucket * list bucket * option nat)) : list (option nat) := map (fun '(_, _, p) => p) rs.

Definition closed (rs : list (bucket * list bucket * option nat)) (k : nat) (C : list (nat * nat)) : rstate :=
  mkR (rev (items_of rs) ++ [None; None; None; None]) (rev (lhs_of rs) ++ [None; None; None]) (rev (prec_of rs) ++ [Some 0; Some 0; Some 0]) false k C.

Lemma gens_rev : forall k n, gens k n = rev (map (fun j => Some (Gen j)) (seq (S k) n)).
Proof. intros. unfold gens. now rewrite map_rev. Qed.

Lemma items_empty : forall l, items_of (map (fun j => (Gen j, [], Some 0)) l) = repeat None (length l).
Proof. induction l as [|x l IH]; [reflexivity|]. cbn [map items_of flat_map app length repeat]. f_equal. exact IH. Qed.

Lemma prec_empty : forall l, prec_of (map (fun j => (Gen j, [], Some 0)) l) = repeat (Some 0) (length l).
Proof. induction l as [|x l IH]; [reflexivity|]. cbn [map prec_of length repeat]. f_equal. exact IH. Qed.

Lemma lhs_empty : forall l, lhs_of (map (fun j => (Gen j, [], Some 0)) l) = map (fun j => Some (Gen j)) l.
Proof. induction l as [|x l IH]; [reflexivity|]. cbn [map lhs_of]. f_equal. exact IH. Qed.

Lemma repeat_rev : forall A (x : A) n, rev (repeat x n) = repeat x n.
Proof. intros A x. induction n as [|n IH]; [reflexivity|]. cbn [repeat rev]. rewrite IH. clear. induction n as [|n IH]; [reflexivity|]. cbn. now rewrite IH. Qed.

Lemma items_app : forall a b, items_of (a ++ b) = items_of a ++ items_of b.
Proof. intros. apply flat_map_app. Qed.

(** One body, from its start to its end. *)
Lemma rule_ok : forall rs k C l b, exists st f,
  read_events (map part_event b) (start_rule (Some (Name l)) (closed rs k C)) = Ok st /\
  end_rule st = closed (rs ++ rule_out k l b) (k + length (embedded b))
    (C ++ combine (seq (length rs + 1) (length (actions b))) (actions b)) /\
  r_lhs st = Some (Name l) :: f.
Proof.
  intros rs k C l b. unfold closed, start_rule. cbn [r_items r_lhs r_prec r_act r_gensym r_cases].
  set (L := rev (lhs_of rs) ++ [None; None; None]). set (P := rev (prec_of rs) ++ [Some 0; Some 0; Some 0]).
  assert (LL : length L = length rs + 3) by (unfold L, lhs_of; rewrite app_length, rev_length, map_length; reflexivity).
  assert (IT : exists I, rev (items_of rs) ++ [None; None; None; None] = map Some [] ++ None :: I).
  { destruct rs as [|r rs] using rev_ind; [eexists; reflexivity|]. unfold items_of. rewrite flat_map_app, rev_app_distr.
    destruct r as ((u & v) & w). cbn [flat_map]. rewrite app_nil_r, rev_app_distr. cbn [rev app]. eexists. reflexivity. }
  destruct IT as (I & IT). rewrite IT.
  destruct (body_ok b [] I (Some (Name l)) L None P false k C ltac:(lia)) as (f' & E). rewrite E. clear E.
  unfold repl, nemb, pend. cbn [andb Nat.add]. rewrite app_nil_r, Nat.add_0_r.
  eexists. eexists. split; [reflexivity|]. split; [|reflexivity].
  unfold end_rule. cbn [r_items r_lhs r_prec r_act r_gensym r_cases]. f_equal.
  - cbn [map app] in IT. rewrite <- IT. unfold rule_out. rewrite !items_app, items_empty, seq_length.
    assert (X : items_of [(Name l, replaced k b, mark b)] = map Some (replaced k b) ++ [None]) by (cbn [items_of flat_map]; apply app_nil_r).
    rewrite X, !rev_app_distr, repeat_rev, <- !app_assoc, map_rev. reflexivity.
  - unfold rule_out. rewrite app_assoc. unfold lhs_of. rewrite !map_app. cbn [map]. rewrite !rev_app_distr. cbn [rev app].
    fold (lhs_of rs). fold (lhs_of (map (fun j => (Gen j, [], Some 0)) (seq (S k) (length (embedded b))))). rewrite lhs_empty, <- gens_rev, <- app_assoc. reflexivity.
  - unfold rule_out. rewrite app_assoc. unfold prec_of. rewrite !map_app. cbn [map]. rewrite !rev_app_distr. cbn [rev app].
    fold (prec_of rs). fold (prec_of (map (fun j => (Gen j, [], Some 0)) (seq (S k) (length (embedded b))))). rewrite prec_empty, seq_length, repeat_rev, <- app_assoc.
    rewrite mark_from_ok. unfold P. destruct (mark b); reflexivity.
  - rewrite LL. do 3 f_equal. lia.
Qed.

Lemma rules_out_app : forall a b k, rules_out k (a ++ b) = rules_out k a ++ rules_out (k + length (flat_map (fun r => embedded (snd r)) a)) b.
Proof.
  induction a as [|(l & x) a IH]; intros b k; cbn [app rules_out flat_map length]; [now rewrite Nat.add_0_r|].
  rewrite IH, <- app_assoc, app_length, Nat.add_assoc. reflexivity.
Qed.

Lemma cases_out_app : forall a b n, cases_out n (a ++ b) = cases_out n a ++ cases_out (n + length (rules_out 0 a)) b.
Proof.
  assert (G : forall a k k', length (rules_out k a) = length (rules_out k' a)).
  { induction a as [|(l & x) a IH]; intros k k'; [reflexivity|]. cbn [rules_out]. rewrite !app_length. rewrite (IH _ (k' + length (embedded x))).
    unfold rule_out. rewrite !app_length, !map_length, !seq_length. reflexivity. }
  induction a as [|(l & x) a IH]; intros b n; cbn [app rules_out cases_out length]; [now rewrite Nat.add_0_r|].
  rewrite IH, <- app_assoc. do 3 f_equal. rewrite app_length. unfold rule_out at 1. rewrite app_length, map_length, seq_length. cbn [length].
  rewrite (G a (0 + length (embedded x)) 0). lia.
Qed.

(** The state when [rs] has been read completely. *)
Definition after (rs : list (nat * list part)) : rstate :=
  closed (rules_out 0 rs) (length (flat_map (fun r => embedded (snd r)) rs)) (cases_out 1 rs).

Lemma after_snoc : forall rs l b, exists st f,
  read_events (map part_event b) (start_rule (Some (Name l)) (after rs)) = Ok st /\
  end_rule st = after (rs ++ [(l, b)]) /\ r_lhs st = Some (Name l) :: f.
Proof.
  intros rs l b. unfold after. set (k := length (flat_map (fun r => embedded (snd r)) rs)).
  destruct (rule_ok (rules_out 0 rs) k (cases_out 1 rs) l b) as (st & f & E & E' & E''). exists st, f. split; [exact E|]. split; [|exact E''].
  rewrite E'. rewrite rules_out_app, cases_out_app, flat_map_app, app_length. fold k. cbn [rules_out cases_out flat_map snd Nat.add]. rewrite !app_nil_r.
  do 3 f_equal. f_equal. lia.
Qed.

Lemma after_alts : forall alts rs l st f, end_rule st = after rs -> r_lhs st = Some (Name l) :: f ->
  exists st' f', read_events (flat_map (fun b => EBar :: map part_event b) alts) st = Ok st' /\
    end_rule st' = after (rs ++ map (pair l) alts) /\ r_lhs st' = Some (Name l) :: f'.
Proof.
  induction alts as [|b alts IH]; intros rs l st f E EL.
  - exists st, f. cbn [flat_map read_events map]. rewrite app_nil_r. auto.
  - cbn [flat_map app read_events read_event]. assert (X : r_lhs (end_rule st) = Some (Name l) :: f) by exact EL. rewrite X. cbn [bind].
    rewrite E. rewrite read_events_app. destruct (after_snoc rs l b) as (st1 & f1 & E1 & E2 & E3). rewrite E1. cbn [bind].
    destruct (IH _ _ _ _ E2 E3) as (st' & f' & E4 & E5 & E6). exists st', f'. split; [exact E4|]. split; [|exact E6].
    rewrite E5. rewrite <- app_assoc. reflexivity.
Qed.

Lemma group_ok : forall g rs, exists st,
  read_events (group_events g) (start_rule (Some (Name (gr_lhs g))) (after rs)) = Ok st /\ end_rule st = after (rs ++ group_rules g).
Proof.
  intros g rs. unfold group_events. rewrite read_events_app. destruct (after_snoc rs (gr_lhs g) (gr_body g)) as (st1 & f1 & E1 & E2 & E3).
  rewrite E1. cbn [bind]. destruct (after_alts (gr_alts g) _ _ _ _ E2 E3) as (st' & f' & E4 & E5 & _). exists st'. split; [exact E4|].
  rewrite E5, <- app_assoc. reflexivity.
Qed.

Lemma groups_ok : forall gs rs st, end_rule st = after rs ->
  exists st', read_events (flat_map (fun h => EColon (gr_lhs h) :: group_events h) gs) st = Ok st' /\ end_rule st' = after (rs ++ flat_map group_rules gs).
Proof.
  induction gs as [|h gs IH]; intros rs st E.
  - exists st. cbn [flat_map read_events]. rewrite app_nil_r. auto.
  - cbn [flat_map app read_events read_event bind]. rewrite E, read_events_app. destruct (group_ok h rs) as (st1 & E1 & E2). rewrite E1. cbn [bind].
    destruct (IH _ _ E2) as (st' & E3 & E4). exists st'. split; [exact E3|]. rewrite E4, <- app_assoc. reflexivity.
Qed.

Lemma read_ok : forall g gs, read_grammar (gr_lhs g) (source_events g gs) = Ok (after (group_rules g ++ flat_map group_rules gs)).
Proof.
  intros g gs. unfold read_grammar, source_events. rewrite read_events_app.
  destruct (group_ok g []) as (st1 & E1 & E2). change (after []) with init_rules in E1. rewrite E1. cbn [bind].
  destruct (groups_ok gs _ _ E2) as (st' & E3 & E4). rewrite E3. cbn [bind]. now rewrite E4.
Qed.

Lemma take_rule_ok : forall rhs I, take_rule (map Some rhs ++ None :: I) = Ok (rhs, I).
Proof. induction rhs as [|x rhs IH]; intros I; [reflexivity|]. cbn [map app take_rule]. rewrite IH. reflexivity. Qed.

Lemma take_rules_ok : forall rs, take_rules (lhs_of rs) (prec_of rs) (items_of rs) = Ok rs.
Proof.
  induction rs as [|((l & rhs) & p) rs IH]; [reflexivity|]. cbn [lhs_of prec_of map items_of flat_map take_rules].
  rewrite <- app_assoc. cbn [app]. rewrite take_rule_ok. cbn [bind fst snd]. unfold lhs_of, prec_of, items_of in IH. rewrite IH. reflexivity.
Qed.

Lemma pack_closed : forall rs k C, pack_rules (closed rs k C) = Ok rs.
Proof.
  intros rs k C. unfold pack_rules, closed. cbn [r_lhs r_prec r_items]. rewrite !rev_app_distr, !rev_involutive. cbn [rev app skipn]. apply take_rules_ok.
Qed.

(** * Strings of tokens *)

(** The strings of tokens a sequence of symbols stands for; a token is a symbol
    without rules. *)
Inductive yields {A : Type} (rules : list (A * list A)) : list A -> list A -> Prop :=
| yields_nil : yields rules [] []
| yields_token : forall x l w, (forall r, ~ In (x, r) rules) -> yields rules l w -> yields rules (x :: l) (x :: w)
| yields_rule : forall x r l w w', In (x, r) rules -> yields rules r w -> yields rules l w' -> yields rules (x :: l) (w ++ w').

(** The user's rules without their actions. *)
Definition plain (rs : list (nat * list part)) : list (nat * list nat) := map (fun '(l, b) => (l, symbols b)) rs.

Definition erase (l : list bucket) : list nat := flat_map (fun x => match x with Name n => [n] | Gen _ => [] end) l.

Lemma erase_replaced : forall b k, erase (replaced k b) = symbols b.
Proof.
  induction b as [|[n|a|p] b IH]; intros k; cbn [replaced]; auto.
  - cbn [erase flat_map symbols app]. f_equal. apply IH.
  - destruct (followed b); [cbn [erase flat_map app]|]; apply IH.
Qed.

Lemma replaced_gens : forall b k j, In (Gen j) (replaced k b) -> S k <= j < S k + length (embedded b).
Proof.
  induction b as [|[n|a|p] b IH]; intros k j H; cbn [replaced embedded] in *; [destruct H| | |auto].
  - destruct H as [H|H]; [discriminate|auto].
  - destruct (followed b); cbn [app length] in *; [|auto]. destruct H as [H|H]; [inversion H; lia|]. apply IH in H. lia.
Qed.

Definition strip (rs : list (bucket * list bucket * option nat)) : list (bucket * list bucket) := map fst rs.

Lemma rules_out_in : forall rs k x r, In (x, r) (strip (rules_out k rs)) ->
  (exists j, x = Gen j /\ r = []) \/
  (exists l, x = Name l /\ In (l, erase r) (plain rs) /\ forall j, In (Gen j) r -> In (Gen j, []) (strip (rules_out k rs))).
Proof.
  induction rs as [|(l & b) rs IH]; intros k x r H; cbn [rules_out] in *; [destruct H|].
  unfold strip in *. rewrite map_app in *. apply in_app_or in H as [H|H].
  - unfold rule_out in H. rewrite map_app in H. apply in_app_or in H as [H|[H|[]]].
    + rewrite map_map in H. apply in_map_iff in H as (j & E & _). inversion E. left. eauto.
    + inversion H; subst. right. exists l. split; [reflexivity|]. split.
      * left. now rewrite erase_replaced.
      * intros j Hj. apply replaced_gens in Hj. apply in_or_app. left. unfold rule_out. rewrite map_app. apply in_or_app. left.
        rewrite map_map. apply in_map_iff. exists j. split; [reflexivity|]. apply in_seq. lia.
  - destruct (IH _ _ _ H) as [?|(m & -> & P & Q)]; [auto|]. right. exists m. split; [reflexivity|]. split; [now right|].
    intros j Hj. apply in_or_app. right. auto.
Qed.

Lemma rules_out_ex : forall rs k l r, In (l, r) (plain rs) -> exists r', In (Name l, r') (strip (rules_out k rs)) /\ erase r' = r.
Proof.
  induction rs as [|(m & b) rs IH]; intros k l r H; [destruct H|]. cbn [plain map] in H. cbn [rules_out]. unfold strip. rewrite map_app.
  destruct H as [H|H].
  - inversion H; subst. exists (replaced k b). split; [|apply erase_replaced]. apply in_or_app. left. unfold rule_out. rewrite map_app. apply in_or_app. right. now left.
  - destruct (IH (k + length (embedded b)) _ _ H) as (r' & I & E). exists r'. split; [|exact E]. apply in_or_app. now right.
Qed.

Lemma yields_erase : forall rs k x w, yields (strip (rules_out k rs)) x w ->
  (forall j, In (Gen j) x -> In (Gen j, []) (strip (rules_out k rs))) ->
  exists v, w = map Name v /\ yields (plain rs) (erase x) v.
Proof.
  intros rs k x w H. induction H as [|x l w T Y IH|x r l w w' I Y IH Y' IH']; intros G.
  - exists []. split; [reflexivity|constructor].
  - destruct x as [n|j]; [|exfalso; apply (T []); apply G; now left].
    destruct IH as (v & -> & Y'); [intros j Hj; apply G; now right|]. exists (n :: v). split; [reflexivity|].
    cbn [erase flat_map app]. constructor; [|exact Y']. intros r Hr. destruct (rules_out_ex rs k _ _ Hr) as (r' & I & _). exact (T _ I).
  - destruct (rules_out_in _ _ _ _ I) as [(j & -> & ->)|(m & -> & P & Q)].
    + destruct IH' as (v & -> & Y1); [intros i Hi; apply G; now right|]. inversion Y; subst. exists v. split; [reflexivity|]. exact Y1.
    + destruct IH as (v & -> & Y1); [exact Q|]. destruct IH' as (v' & -> & Y2); [intros i Hi; apply G; now right|].
      exists (v ++ v'). split; [now rewrite map_app|]. cbn [erase flat_map app]. econstructor; eauto.
Qed.

Lemma yields_insert : forall rs k l w, yields (plain rs) l w -> forall x, erase x = l ->
  (forall j, In (Gen j) x -> In (Gen j, []) (strip (rules_out k rs))) -> yields (strip (rules_out k rs)) x (map Name w).
Proof.
  intros rs k l w H. induction H as [|n l w T Y IH|n r l w w' I Y IH Y' IH'].
  - induction x as [|[m|j] x IH]; intros E G; [constructor|discriminate|]. cbn [map].
    change (@nil bucket) with (@nil bucket ++ @nil bucket). econstructor; [apply G; now left|constructor|].
    apply IH; [exact E|]. intros i Hi. apply G. now right.
  - induction x as [|[m|j] x IHx]; intros E G; [discriminate| |].
    + cbn [erase flat_map app] in E. inversion E; subst. cbn [map]. constructor.
      * intros r Hr. destruct (rules_out_in _ _ _ _ Hr) as [(j & E1 & _)|(q & E1 & P & _)]; [discriminate|]. inversion E1; subst. exact (T _ P).
      * apply IH; [reflexivity|]. intros i Hi. apply G. now right.
    + change (map Name (n :: w)) with (@nil bucket ++ map Name (n :: w)). econstructor; [apply G; now left|constructor|].
      apply IHx; [exact E|]. intros i Hi. apply G. now right.
  - induction x as [|[m|j] x IHx]; intros E G; [discriminate| |].
    + cbn [erase flat_map app] in E. inversion E; subst. rewrite map_app. destruct (rules_out_ex rs k _ _ I) as (r' & I' & ER).
      econstructor; [exact I'| |apply IH'; [reflexivity|intros i Hi; apply G; now right]].
      apply IH; [exact ER|]. intros i Hi. destruct (rules_out_in _ _ _ _ I') as [(j & E1 & _)|(q & _ & _ & Q)]; [discriminate|auto].
    + change (map Name (w ++ w')) with (@nil bucket ++ map Name (w ++ w')). econstructor; [apply G; now left|constructor|].
      apply IHx; [exact E|]. intros i Hi. apply G. now right.
Qed.

(** * C46 *)

(** What the reader makes of the rules: before each rule come as many empty rules as
    it has embedded actions, in order, for new symbols which replace the actions in
    the rule; the rule keeps its %prec mark, the empty ones have precedence 0, and
    each action is put in the switch under the number (less 2) of the empty rule for
    it, or of the rule itself if it ends the rule. *)
Theorem C46_expansion : forall g gs, exists st,
  read_grammar (gr_lhs g) (source_events g gs) = Ok st /\
  pack_rules st = Ok (rules_out 0 (group_rules g ++ flat_map group_rules gs)) /\
  r_cases st = cases_out 1 (group_rules g ++ flat_map group_rules gs).
Proof. intros g gs. rewrite read_ok. eexists. split; [reflexivity|]. split; [apply pack_closed|reflexivity]. Qed.
Print Assumptions C46_expansion.

(** Every symbol of the user derives the same strings of tokens. *)
Theorem C46_same_strings : forall g gs st rules, read_grammar (gr_lhs g) (source_events g gs) = Ok st -> pack_rules st = Ok rules ->
  forall n w, yields (map fst rules) [Name n] w <-> exists v, w = map Name v /\ yields (plain (group_rules g ++ flat_map group_rules gs)) [n] v.
Proof.
  intros g gs st rules E P n w. rewrite read_ok in E. generalize dependent (group_rules g ++ flat_map group_rules gs). intros rs E. inversion E; subst st. unfold after in P. rewrite pack_closed in P. inversion P; subst rules.
  change (map fst ?x) with (strip x). split.
  - intros Y. apply (yields_erase _ _ _ _ Y). intros j [H|[]]. discriminate.
  - intros (v & -> & Y). apply (yields_insert _ _ _ _ Y [Name n]); [reflexivity|]. intros j [H|[]]. discriminate.
Qed.
Print Assumptions C46_same_strings.

(** The new symbols are fresh: every one of them has exactly one rule, which is empty,
    and occurs at most once in the right-hand sides; there is one per embedded action. *)
Definition gen_list (l : list bucket) : list nat := flat_map (fun x => match x with Gen j => [j] | Name _ => [] end) l.

Lemma gen_replaced : forall b k, gen_list (replaced k b) = seq (S k) (length (embedded b)).
Proof.
  induction b as [|[n|a|p] b IH]; intros k; cbn [replaced embedded]; auto.
  - cbn [gen_list flat_map app]. apply IH.
  - destruct (followed b); cbn [app length seq]; [|apply IH]. cbn [gen_list flat_map app]. f_equal. apply IH.
Qed.

Lemma gen_rules : forall rs k,
  gen_list (flat_map snd (strip (rules_out k rs))) = seq (S k) (length (flat_map (fun r => embedded (snd r)) rs)) /\
  gen_list (map fst (strip (rules_out k rs))) = seq (S k) (length (flat_map (fun r => embedded (snd r)) rs)).
Proof.
  assert (GA : forall a b, gen_list (a ++ b) = gen_list a ++ gen_list b) by (intros; apply flat_map_app).
  induction rs as [|(l & b) rs IH]; intros k; [split; reflexivity|]. cbn [rules_out flat_map snd]. unfold strip in *. rewrite !map_app, flat_map_app, !GA.
  destruct (IH (k + length (embedded b))) as (IH1 & IH2). rewrite IH1, IH2, app_length, seq_app. clear IH1 IH2.
  unfold rule_out. rewrite !map_app, flat_map_app, !GA. cbn [map fst snd flat_map app]. rewrite app_nil_r, gen_replaced. cbn [gen_list flat_map]. rewrite app_nil_r.
  assert (X : forall l, flat_map snd (map fst (map (fun j => (Gen j, @nil bucket, Some 0)) l)) = []) by (induction l0; auto).
  assert (Y : forall l, gen_list (map fst (map fst (map (fun j => (Gen j, @nil bucket, Some 0)) l))) = l) by (induction l0 as [|? ? IHl]; auto; cbn; now f_equal).
  rewrite X, Y. cbn [gen_list flat_map app]. split; f_equal; f_equal; lia.
Qed.

Theorem C46_fresh : forall g gs st rules, read_grammar (gr_lhs g) (source_events g gs) = Ok st -> pack_rules st = Ok rules ->
  let new := seq 1 (length (flat_map (fun r => embedded (snd r)) (group_rules g ++ flat_map group_rules gs))) in
  gen_list (map (fun r => fst (fst r)) rules) = new /\ gen_list (flat_map (fun r => snd (fst r)) rules) = new /\
  forall j r p, In (Gen j, r, p) rules -> r = [].
Proof.
  intros g gs st rules E P. rewrite read_ok in E. cbn zeta. generalize dependent (group_rules g ++ flat_map group_rules gs). intros rs E.
  inversion E; subst st. unfold after in P. rewrite pack_closed in P. inversion P; subst rules. destruct (gen_rules rs 0) as (A & B). split; [|split].
  - rewrite <- B. unfold strip. now rewrite map_map.
  - rewrite <- A. unfold strip. f_equal. clear. induction (rules_out 0 rs) as [|x l IH]; [reflexivity|]. cbn [flat_map map]. now rewrite IH.
  - intros j r p I. apply (in_map fst) in I. cbn [fst] in I. change (In (Gen j, r) (strip (rules_out 0 rs))) in I.
    destruct (rules_out_in _ _ _ _ I) as [(i & _ & ->)|(m & Em & _)]; [reflexivity|discriminate].
Qed.
Print Assumptions C46_fresh.

(** a : b {10} {11} c %prec 5 {12} d {13} | {14} ; b : {15} e *)
Definition ex46 := mkGroup 0 [Sym 1; Act 10; Act 11; Sym 2; Prec 5; Act 12; Sym 3; Act 13] [[Act 14]].
Definition ex46' := [mkGroup 1 [Act 15; Sym 4] []].

Example C46_example : exists st, read_grammar 0 (source_events ex46 ex46') = Ok st /\
  pack_rules st = Ok [(Gen 1, [], Some 0); (Gen 2, [], Some 0); (Gen 3, [], Some 0);
    (Name 0, [Name 1; Gen 1; Gen 2; Name 2; Gen 3; Name 3], Some 5); (Name 0, [], None);
    (Gen 4, [], Some 0); (Name 1, [Gen 4; Name 4], None)] /\
  r_cases st = [(1, 10); (2, 11); (3, 12); (4, 13); (5, 14); (6, 15)].
Proof. eexists. split; [vm_compute; reflexivity|]. split; reflexivity. Qed.
