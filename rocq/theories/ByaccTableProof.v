(** The symbol table of the byacc reader and the facts it stands for. *)
From Coq Require Import String List Arith ZArith Bool Lia.
Import ListNotations.
From Verif Require Import Base LemonTableModel LemonPreModel LemonCodeModel ByaccParModel ByaccReaderModel ByaccRulesModel ByaccScanModel Prop_ByaccLiteral SpecByaccFile ByaccScanProof.
Open Scope rd_scope.

Notation teq := (list_eq_dec Z.eq_dec).

(** * Names *)

Lemma firsts_incl : forall l seen n, In n (firsts seen l) <-> In n l /\ ~ In n seen.
Proof.
  induction l as [|m l IH]; intros seen n; cbn [firsts In]; [tauto|]. destruct (in_dec teq m seen) as [I|N].
  - rewrite IH. split; [tauto|]. intros [[->|H] X]; tauto.
  - cbn [In]. rewrite IH. cbn [In]. split; [intros [->|(H & X)]; tauto|]. intros [[->|H] X]; [now left|]. destruct (teq m n); [now left|right; tauto].
Qed.

Lemma firsts_nodup : forall l seen, NoDup (firsts seen l).
Proof.
  induction l as [|m l IH]; intros seen; cbn [firsts]; [constructor|]. destruct (in_dec teq m seen); [apply IH|]. constructor; [|apply IH]. rewrite firsts_incl. cbn [In]. tauto.
Qed.

Lemma firsts_ext : forall l s1 s2, (forall n, In n s1 <-> In n s2) -> firsts s1 l = firsts s2 l.
Proof.
  induction l as [|m l IH]; intros s1 s2 H; [reflexivity|]. cbn [firsts]. destruct (in_dec teq m s1) as [I|N], (in_dec teq m s2) as [I'|N']; try (exfalso; apply H in I; tauto); try (exfalso; apply H in I'; tauto).
  - now apply IH.
  - f_equal. apply IH. intros n. cbn [In]. rewrite H. tauto.
Qed.

Lemma firsts_app : forall a seen b, firsts seen (a ++ b) = firsts seen a ++ firsts (a ++ seen) b.
Proof.
  induction a as [|m a IH]; intros seen b; [reflexivity|]. cbn [app firsts]. destruct (in_dec teq m seen) as [I|N].
  - rewrite IH. f_equal. apply firsts_ext. intros n. cbn [In]. rewrite !in_app_iff. split; [tauto|]. intros [->|H]; tauto.
  - cbn [app]. f_equal. rewrite IH. f_equal. apply firsts_ext. intros n. cbn [In]. rewrite !in_app_iff. cbn [In]. tauto.
Qed.

Lemma names_app : forall L M, names (L ++ M) = names L ++ firsts (zs "error" :: map fst L) (map fst M).
Proof.
  intros L M. unfold names. rewrite map_app. change (zs "error" :: map fst L ++ map fst M) with ((zs "error" :: map fst L) ++ map fst M).
  rewrite firsts_app, app_nil_r. reflexivity.
Qed.
Lemma names_in : forall L n, In n (names L) <-> n = zs "error" \/ In n (map fst L).
Proof. intros L n. unfold names. rewrite firsts_incl. cbn [In]. split; [intros ([H|H] & _); auto|intros [H|H]; auto]. Qed.
Lemma names_nodup : forall L, NoDup (names L).
Proof. intros L. apply firsts_nodup. Qed.
Lemma names_snoc : forall L n x, names (L ++ [(n, x)]) = names L ++ (if in_dec teq n (names L) then [] else [n]).
Proof.
  intros L n x. rewrite names_app. f_equal. cbn [map fst firsts]. pose proof (names_in L n) as H.
  assert (H' : In n (zs "error" :: map fst L) <-> In n (names L)) by (rewrite H; cbn [In]; split; intros [X|X]; auto).
  destruct (in_dec teq n (zs "error" :: map fst L)) as [I|N], (in_dec teq n (names L)) as [I'|N']; try reflexivity; exfalso; tauto.
Qed.
Lemma names_in_app : forall L M n, In n (names L) -> In n (names (L ++ M)).
Proof. intros L M n H. rewrite names_app. apply in_or_app. now left. Qed.

Lemma pos_app : forall l m n, In n l -> pos n (l ++ m) = pos n l.
Proof. induction l as [|x l IH]; intros m n H; [destruct H|]. cbn [app pos]. destruct (teq x n); [reflexivity|]. f_equal. apply IH. destruct H; [congruence|assumption]. Qed.
Lemma pos_lt : forall l n, In n l -> pos n l < List.length l.
Proof. induction l as [|x l IH]; intros n H; [destruct H|]. cbn [pos List.length]. destruct (teq x n); [lia|]. destruct H as [H|H]; [congruence|]. apply IH in H. lia. Qed.
Lemma pos_nth : forall l n, In n l -> nth_error l (pos n l) = Some n.
Proof. induction l as [|x l IH]; intros n H; [destruct H|]. cbn [pos]. destruct (teq x n) as [->|N]; [reflexivity|]. cbn. apply IH. destruct H; [congruence|assumption]. Qed.
Lemma pos_end : forall l n, ~ In n l -> pos n (l ++ [n]) = List.length l.
Proof. induction l as [|x l IH]; intros n H; cbn [app pos List.length]; [now destruct (teq n n)|]. destruct (teq x n) as [->|N]; [exfalso; apply H; now left|]. f_equal. apply IH. intros X. apply H. now right. Qed.
Lemma pos_inj : forall l n m, In n l -> In m l -> pos n l = pos m l -> n = m.
Proof. intros l n m H1 H2 E. pose proof (pos_nth l n H1). pose proof (pos_nth l m H2). congruence. Qed.
Lemma pos_names_app : forall L M n, In n (names L) -> pos n (names (L ++ M)) = pos n (names L).
Proof. intros L M n H. rewrite names_app. now apply pos_app. Qed.

(** * Entries *)

Lemma latest_app : forall A (f : fact -> option A) n L M, latest f n (L ++ M) = match latest f n M with Some a => Some a | None => latest f n L end.
Proof.
  intros A f n. induction L as [|(m & x) L IH]; intros M; cbn [app latest]; [now destruct (latest f n M)|]. rewrite IH. now destruct (latest f n M).
Qed.
Lemma latest_snoc : forall A (f : fact -> option A) n L m x, latest f n (L ++ [(m, x)]) = if teq m n then match f x with Some a => Some a | None => latest f n L end else latest f n L.
Proof. intros. rewrite latest_app. cbn [latest]. destruct (teq m n); reflexivity. Qed.
Lemma latest_in : forall A (f : fact -> option A) n L a, latest f n L = Some a -> exists x, In (n, x) L /\ f x = Some a.
Proof.
  intros A f n. induction L as [|(m & x) L IH]; intros a H; [discriminate|]. cbn [latest] in H. destruct (latest f n L) as [b|] eqn:E.
  - destruct (IH _ H) as (y & I & Y). exists y. split; [now right|exact Y].
  - destruct (teq m n) as [->|]; [|discriminate]. exists x. split; [now left|exact H].
Qed.

Definition has (p : fact -> bool) (L : log) (n : txt) : bool := existsb (fun e => if teq (fst e) n then p (snd e) else false) L.
Definition tokenb (L : log) (n : txt) : bool := (if teq n (zs "error") then true else has (fun x => match x with Term => true | _ => false end) L n).
Definition lhsb (L : log) (n : txt) : bool := has (fun x => match x with Lhs => true | _ => false end) L n.

Lemma has_snoc : forall p L n m x, has p (L ++ [(m, x)]) n = (has p L n || if teq m n then p x else false)%bool.
Proof. intros. unfold has. rewrite existsb_app. cbn [existsb fst snd]. now rewrite orb_false_r. Qed.
Lemma tokenb_iff : forall L n, tokenb L n = true <-> is_token L n.
Proof.
  intros L n. unfold tokenb, is_token, has. destruct (teq n (zs "error")) as [->|N]; [tauto|]. rewrite existsb_exists. split.
  - intros ((m & x) & I & E). cbn [fst snd] in E. destruct (teq m n) as [->|]; [|discriminate]. destruct x; try discriminate. now right.
  - intros [H|H]; [contradiction|]. exists (n, Term). split; [exact H|]. cbn [fst snd]. destruct (teq n n); congruence.
Qed.
Lemma lhsb_iff : forall L n, lhsb L n = true <-> is_lhs L n.
Proof.
  intros L n. unfold lhsb, is_lhs, has. rewrite existsb_exists. split.
  - intros ((m & x) & I & E). cbn [fst snd] in E. destruct (teq m n) as [->|]; [|discriminate]. destruct x; try discriminate. exact I.
  - intros H. exists (n, Lhs). split; [exact H|]. cbn [fst snd]. destruct (teq n n); congruence.
Qed.

Definition class_of (L : log) (n : txt) : bclass := if tokenb L n then TERM else if lhsb L n then NONTERM else UNKNOWN.
Definition entry (L : log) (n : txt) : binfo :=
  mkB n (class_of L n) (match code_of_sym L n with Some v => v | None => UNDEFINED end)
    (match prec_of_sym L n with Some (p, _) => p | None => 0 end) (match prec_of_sym L n with Some (_, a) => a | None => TOKEN end) (tag_of_sym L n).
Definition table (L : log) : list binfo := map (entry L) (names L).

Lemma entry_other : forall L n x m, m <> n -> entry (L ++ [(n, x)]) m = entry L m.
Proof.
  intros L n x m N. unfold entry, class_of, tokenb, lhsb, code_of_sym, prec_of_sym, tag_of_sym. rewrite !has_snoc, !latest_snoc.
  destruct (teq n m); [congruence|]. rewrite !orb_false_r. reflexivity.
Qed.

Lemma entry_fresh : forall L n, ~ In n (names L) -> entry (L ++ [(n, See)]) n = mkB n UNKNOWN UNDEFINED 0 TOKEN None.
Proof.
  intros L n N. assert (NI : forall x, ~ In (n, x) L) by (intros x I; apply N; apply names_in; right; now apply (in_map fst) in I).
  assert (NE : n <> zs "error") by (intros ->; apply N; apply names_in; now left).
  assert (LN : forall A (f : fact -> option A), latest f n L = None). { intros A f. destruct (latest f n L) eqn:E; [|reflexivity]. apply latest_in in E. destruct E as (x & I & _). now apply NI in I. }
  unfold entry, class_of, code_of_sym, prec_of_sym, tag_of_sym. rewrite !latest_snoc. destruct (teq n n) as [_|]; [|congruence]. rewrite !LN.
  assert (T : tokenb (L ++ [(n, See)]) n = false). { destruct (tokenb _ n) eqn:E; [|reflexivity]. apply tokenb_iff in E. destruct E as [E|E]; [contradiction|]. apply in_app_or in E as [E|[E|[]]]; [now apply NI in E|discriminate]. }
  assert (H : lhsb (L ++ [(n, See)]) n = false). { destruct (lhsb _ n) eqn:E; [|reflexivity]. apply lhsb_iff in E. apply in_app_or in E as [E|[E|[]]]; [now apply NI in E|discriminate]. }
  now rewrite T, H.
Qed.

Lemma entry_see : forall L n, In n (names L) -> entry (L ++ [(n, See)]) n = entry L n.
Proof.
  intros L n _. unfold entry, class_of, tokenb, lhsb, code_of_sym, prec_of_sym, tag_of_sym. rewrite !has_snoc, !latest_snoc. destruct (teq n n); [|congruence]. rewrite !orb_false_r. reflexivity.
Qed.

Lemma index_of_table : forall (f : txt -> binfo) l n, (forall m, b_name (f m) = m) -> index_of n (map f l) = if in_dec teq n l then Some (pos n l) else None.
Proof.
  intros f l n H. induction l as [|m l IH]; [reflexivity|]. cbn [map index_of pos]. rewrite H. destruct (teq m n) as [->|N].
  - rewrite teqb_refl. destruct (in_dec teq n (n :: l)) as [|X]; [reflexivity|exfalso; apply X; now left].
  - rewrite teqb_neq by exact N. rewrite IH. destruct (in_dec teq n l) as [I|NI], (in_dec teq n (m :: l)) as [I'|NI']; try reflexivity; exfalso.
    + apply NI'. now right.
    + destruct I'; [congruence|tauto].
Qed.

Lemma map_upd_one : forall (f g : txt -> binfo) l n, NoDup l -> In n l -> (forall m, m <> n -> g m = f m) -> map g l = upd (map f l) (pos n l) (g n).
Proof.
  intros f g. induction l as [|m l IH]; intros n ND I H; [destruct I|]. inversion ND as [|? ? N1 N2]; subst. cbn [map pos]. destruct (teq m n) as [->|N].
  - cbn [upd]. f_equal. apply map_ext_in. intros a Ia. apply H. intros ->. contradiction.
  - cbn [upd]. rewrite (H m N). f_equal. apply IH; auto. destruct I; [congruence|assumption].
Qed.

(** * The state *)

(** Only the symbols have changed. *)
Definition keeps (s s' : rdstate) : Prop := s' = set_syms (d_chain s') (d_infos s') s.
Lemma keeps_refl : forall s, keeps s s.
Proof. intros []. reflexivity. Qed.
Lemma keeps_trans : forall a b c, keeps a b -> keeps b c -> keeps a c.
Proof. intros a b c H1 H2. unfold keeps in *. rewrite H2. cbn. rewrite H1. reflexivity. Qed.

(** The chain holds every bucket once. *)
Record chain_ok (ch : list bucket) (n g : nat) : Prop := {
  co_nodup : NoDup ch;
  co_name : forall i, In (Name i) ch <-> i < n;
  co_gen : forall k, In (Gen k) ch <-> 1 <= k <= g;
  co_head : exists r, ch = Name 0 :: r
}.

(** Codes are not negative; a literal of one character has its own name. *)
Definition log_ok (L : log) : Prop := forall n x, In (n, x) L -> match x with Val v => (0 <= v)%Z | Char c => byte c /\ n = literal_name [c] | _ => True end.

Record st_ok (L : log) (s : rdstate) : Prop := {
  so_table : d_infos s = table L;
  so_log : log_ok L;
  so_chain : chain_ok (d_chain s) (List.length (names L)) (r_gensym (d_rules s));
  so_tags : Forall (fun e => snd e = true) (d_tags s)
}.

Lemma log_ok_snoc : forall L n x, log_ok L -> match x with Val v => (0 <= v)%Z | Char c => byte c /\ n = literal_name [c] | _ => True end -> log_ok (L ++ [(n, x)]).
Proof. intros L n x H X m y I. apply in_app_or in I as [I|[I|[]]]; [now apply (H m y)|]. injection I as <- <-. exact X. Qed.

Lemma lookup_ok : forall L s n, st_ok L s -> exists s', lookup n s = (pos n (names (L ++ [(n, See)])), s') /\ st_ok (L ++ [(n, See)]) s' /\ keeps s s' /\ In n (names (L ++ [(n, See)])).
Proof.
  intros L s n [T LO C TG]. unfold lookup. rewrite T. unfold table. rewrite index_of_table by reflexivity. rewrite names_snoc.
  assert (LO' : log_ok (L ++ [(n, See)])) by now apply log_ok_snoc. destruct (in_dec teq n (names L)) as [I|N].
  - rewrite app_nil_r. exists s. split; [reflexivity|]. split; [|split; [apply keeps_refl|exact I]]. constructor; auto; rewrite ?names_snoc; destruct (in_dec teq n (names L)); try contradiction; rewrite ?app_nil_r; auto.
    rewrite T. unfold table. rewrite names_snoc. destruct (in_dec teq n (names L)); [|contradiction]. rewrite app_nil_r. apply map_ext. intros m. destruct (teq m n) as [->|NE]; [now rewrite entry_see|now rewrite entry_other].
  - rewrite map_length, pos_end by exact N. eexists. split; [reflexivity|]. split; [|split; [reflexivity|apply in_or_app; right; now left]].
    constructor; cbn [set_syms d_infos d_chain d_tags d_rules]; auto.
    + unfold table. rewrite names_snoc. destruct (in_dec teq n (names L)); [contradiction|]. rewrite map_app. cbn [map]. rewrite entry_fresh by exact N. f_equal.
      apply map_ext_in. intros m Im. rewrite entry_other; [reflexivity|]. intros ->. contradiction.
    + rewrite names_snoc. destruct (in_dec teq n (names L)); [contradiction|]. destruct C as [C1 C2 C3 (r & C4)]. rewrite app_length. cbn [List.length]. constructor.
      * apply NoDup_app_iff. split; [exact C1|]. split; [repeat constructor; cbn; tauto|]. intros x Ix [<-|[]]. apply C2 in Ix. now apply Nat.lt_irrefl in Ix.
      * intros i. rewrite in_app_iff, C2. cbn [In]. split; [intros [H|[H|[]]]; [lia|injection H as <-; exact (Nat.lt_add_pos_r 1 _ Nat.lt_0_1)]|]. intros H. destruct (Nat.eq_dec i (List.length (names L))); [right; left; congruence|left; lia].
      * intros k. rewrite in_app_iff, C3. cbn [In]. split; [intros [H|[H|[]]]; [exact H|discriminate]|auto].
      * exists (r ++ [Name (List.length (names L))]). rewrite C4. reflexivity.
Qed.

Lemma update_ok : forall L s n f x, st_ok L s -> In n (names L) -> f (entry L n) = entry (L ++ [(n, x)]) n ->
  match x with Val v => (0 <= v)%Z | Char c => byte c /\ n = literal_name [c] | _ => True end ->
  st_ok (L ++ [(n, x)]) (update (pos n (names L)) f s) /\ keeps s (update (pos n (names L)) f s).
Proof.
  intros L s n f x [T LO C TG] I E X. unfold update. rewrite T. unfold table at 1 3. rewrite nth_error_map, (pos_nth _ _ I). cbn [option_map]. split; [|reflexivity].
  assert (NM : names (L ++ [(n, x)]) = names L) by (rewrite names_snoc; destruct (in_dec teq n (names L)); [apply app_nil_r|contradiction]).
  constructor; cbn [set_infos set_syms d_infos d_chain d_tags d_rules].
  - unfold table. rewrite NM, E. symmetry. apply map_upd_one; auto; [apply names_nodup|]. intros m N. now apply entry_other.
  - now apply log_ok_snoc.
  - now rewrite NM.
  - exact TG.
Qed.

Lemma info_ok : forall L s n, st_ok L s -> In n (names L) -> info (pos n (names L)) s = ROk (entry L n).
Proof. intros L s n H I. unfold info. rewrite (so_table _ _ H). unfold table. now rewrite nth_error_map, (pos_nth _ _ I). Qed.

Lemma names_same : forall L n x, In n (names L) -> names (L ++ [(n, x)]) = names L.
Proof. intros L n x I. rewrite names_snoc. destruct (in_dec teq n (names L)); [apply app_nil_r|contradiction]. Qed.

(** How an entry changes. *)
Ltac entry_tac := unfold entry, class_of, tokenb, lhsb, code_of_sym, prec_of_sym, tag_of_sym, with_class, with_value, with_prec, with_tag; cbn [b_name b_class b_value b_prec b_assoc b_tag];
  rewrite ?has_snoc, ?latest_snoc; match goal with |- context [teq ?n ?n] => destruct (teq n n) as [_|]; [|congruence] end; rewrite ?orb_true_r, ?orb_false_r.

Lemma entry_term : forall L n, with_class TERM (entry L n) = entry (L ++ [(n, Term)]) n.
Proof. intros L n. entry_tac. now destruct (teq n (zs "error")). Qed.
Lemma entry_lhs : forall L n, tokenb L n = false -> with_class NONTERM (entry L n) = entry (L ++ [(n, Lhs)]) n.
Proof. intros L n T. unfold tokenb in T. entry_tac. rewrite T. reflexivity. Qed.
Lemma entry_tag : forall L n g, with_tag (Some g) (entry L n) = entry (L ++ [(n, Tag g)]) n.
Proof. intros L n g. entry_tac. reflexivity. Qed.
Lemma entry_prec : forall L n p a, with_prec p a (entry L n) = entry (L ++ [(n, Prec p a)]) n.
Proof. intros L n p a. entry_tac. reflexivity. Qed.
Lemma entry_val : forall L n v, with_value v (entry L n) = entry (L ++ [(n, Val v)]) n.
Proof. intros L n v. entry_tac. reflexivity. Qed.
Lemma entry_char : forall L n c, log_ok L -> n = literal_name [c] -> byte c ->
  (if (b_value (entry L n) =? UNDEFINED)%Z then with_value c (entry L n) else entry L n) = entry (L ++ [(n, Char c)]) n.
Proof.
  intros L n c LO E B. entry_tac. destruct (latest (fun x => match x with Val v => Some v | _ => None end) n L) as [v|] eqn:V.
  - apply latest_in in V. destruct V as (x & I & V). destruct x; try discriminate. injection V as ->. specialize (LO _ _ I). cbn in LO. unfold UNDEFINED. rewrite (proj2 (Z.eqb_neq v (-1))) by lia. reflexivity.
  - destruct (latest (fun x => match x with Char c => Some c | _ => None end) n L) as [d|] eqn:D.
    + apply latest_in in D. destruct D as (x & I & D). destruct x; try discriminate. injection D as ->. specialize (LO _ _ I). cbn in LO. destruct LO as (BD & ED).
      assert (X : [c] = [d]) by (apply C67_name_injective; [constructor; [exact B|constructor]|constructor; [exact BD|constructor]|congruence]). injection X as ->.
      unfold byte in BD. unfold UNDEFINED. rewrite (proj2 (Z.eqb_neq d (-1))) by lia. reflexivity.
    + reflexivity.
Qed.

(** * Symbols read *)

Lemma reserved_iff : forall n, is_reserved n = true <-> reserved n.
Proof.
  intros n. unfold is_reserved, reserved. rewrite !orb_true_iff, !teqb_eq. split.
  - intros [[[H|H]|H]|H]; auto. right. right. right. destruct n as [|a n]; [discriminate|].
    destruct (Z.eq_dec a 36) as [->|Na]; [|exfalso; destruct a as [|p|p]; try discriminate; do 6 (destruct p as [p|p|]; try discriminate); now destruct Na].
    destruct n as [|b n]; [discriminate|].
    destruct (Z.eq_dec b 36) as [->|Nb]; [|exfalso; destruct b as [|p|p]; try discriminate; do 6 (destruct p as [p|p|]; try discriminate); now destruct Nb].
    destruct n as [|c r]; [discriminate|].
    apply andb_true_iff in H. destruct H as (H1 & H2). exists (c :: r). split; [discriminate|]. split; [|reflexivity]. constructor; [now apply isdigit_iff|]. apply Forall_forall. intros x Ix. apply isdigit_iff. now apply (proj1 (forallb_forall _ _) H2).
  - intros [H|[H|[H|(ds & NE & F & ->)]]]; auto. right. destruct ds as [|c r]; [easy|]. cbn [app zs]. change (zs "$$" ++ c :: r) with (36%Z :: 36%Z :: c :: r). cbv iota beta. apply andb_true_iff. split; [apply isdigit_iff; now apply Forall_inv in F|]. apply forallb_forall. intros x Ix. apply isdigit_iff. apply Forall_inv_tail in F. now apply (proj1 (Forall_forall _ _) F).
Qed.

Definition get_sym (t : txt) (s : rdstate) : rd (nat * txt * rdstate) :=
  match t with c :: _ => if name_first c then get_name t s else get_literal t s | [] => RErr end.

Lemma quote_not_name : forall q, (q = 39 \/ q = 34)%Z -> name_first q = false.
Proof. intros q [-> | ->]; reflexivity. Qed.

Lemma name_first_iff : forall c, name_first c = true <-> (isalpha c = true \/ c = 95%Z \/ c = 46%Z \/ c = 36%Z).
Proof. intros c. unfold name_first. rewrite !orb_true_iff, !Z.eqb_eq. tauto. Qed.

Lemma get_sym_ok : forall L s x t r, st_ok L s -> symbol x t r -> ~ reserved (sym_name x) -> exists s', get_sym t s = ROk (pos (sym_name x) (names (L ++ sym_facts x)), r, s') /\
  st_ok (L ++ sym_facts x) s' /\ keeps s s' /\ In (sym_name x) (names (L ++ sym_facts x)).
Proof.
  intros L s x t r ST H W3. destruct H as [n r (W1 & W2) N|q l u r Q LT B].
  - cbn [sym_name sym_facts] in *. destruct n as [|c n]; [easy|]. unfold get_sym. cbn [app]. rewrite (proj2 (name_first_iff c) W1). change (c :: n ++ r) with ((c :: n) ++ r).
    unfold get_name. rewrite (span_ok IS_IDENT is_ident IS_IDENT_iff) by assumption.
    destruct (is_reserved (c :: n)) eqn:R; [apply reserved_iff in R; contradiction|]. destruct (lookup_ok L s (c :: n) ST) as (s' & E & ST' & K & I). rewrite E. eauto.
  - clear W3. cbn [sym_name]. unfold get_sym. rewrite (quote_not_name q Q). unfold get_literal. set (n := literal_name l). rewrite (lit_read q l u Q LT) by (rewrite app_length; lia). cbn [rbind fst snd].
    destruct (lookup_ok L s n ST) as (s1 & E1 & ST1 & K1 & I1). unfold n in E1 at 1. rewrite E1.
    assert (U1 : st_ok ((L ++ [(n, See)]) ++ [(n, Term)]) (update (pos n (names (L ++ [(n, See)]))) (with_class TERM) s1) /\ keeps s1 (update (pos n (names (L ++ [(n, See)]))) (with_class TERM) s1)) by (apply update_ok; auto; apply entry_term).
    destruct U1 as (ST2 & K2). assert (NM : names ((L ++ [(n, See)]) ++ [(n, Term)]) = names (L ++ [(n, See)])) by (apply names_same; exact I1).
    set (s2 := update (pos n (names (L ++ [(n, See)]))) (with_class TERM) s1) in *. cbv zeta.
    assert (IN : info (pos n (names (L ++ [(n, See)]))) s2 = ROk (entry ((L ++ [(n, See)]) ++ [(n, Term)]) n)) by (rewrite <- NM; apply info_ok; [exact ST2|rewrite NM; exact I1]).
    rewrite IN. cbn [rbind]. destruct l as [|c [|c' l]].
    + change (sym_facts (SLit [])) with ([(n, See)] ++ [(n, Term)]). rewrite app_assoc. exists s2. rewrite NM. split; [reflexivity|]. split; [exact ST2|]. split; [now apply (keeps_trans s s1)|exact I1].
    + set (L2 := (L ++ [(n, See)]) ++ [(n, Term)]) in *. assert (BC : byte c) by now apply Forall_inv in B.
      assert (EC := entry_char L2 n c (so_log _ _ ST2) eq_refl BC).
      assert (U3 : exists s3, (if (b_value (entry L2 n) =? UNDEFINED)%Z then update (pos n (names (L ++ [(n, See)]))) (with_value c) s2 else s2) = s3 /\ st_ok (L2 ++ [(n, Char c)]) s3 /\ keeps s2 s3).
      { destruct (b_value (entry L2 n) =? UNDEFINED)%Z.
        - eexists. split; [reflexivity|]. rewrite <- NM. apply update_ok; auto; try (rewrite NM; exact I1). 
        - exists s2. split; [reflexivity|]. split; [|apply keeps_refl]. destruct ST2 as [A1 A2 A3 A4]. assert (NN : names (L2 ++ [(n, Char c)]) = names L2) by (apply names_same; rewrite NM; exact I1).
          constructor; auto; [|now apply log_ok_snoc|now rewrite NN]. rewrite A1. unfold table. rewrite NN. apply map_ext. intros m. destruct (teq m n) as [->|NE]; [exact EC|now rewrite entry_other]. }
      destruct U3 as (s3 & E3 & ST3 & K3). rewrite E3. exists s3. assert (EL : L ++ sym_facts (SLit [c]) = L2 ++ [(n, Char c)]) by (unfold L2; now rewrite <- !app_assoc). rewrite EL.
      assert (NN : names (L2 ++ [(n, Char c)]) = names (L ++ [(n, See)])) by (rewrite names_same; [exact NM|rewrite NM; exact I1]). rewrite NN.
      split; [reflexivity|]. split; [exact ST3|]. split; [apply (keeps_trans s s1); auto; now apply (keeps_trans s1 s2)|exact I1].
    + change (sym_facts (SLit (c :: c' :: l))) with ([(n, See)] ++ [(n, Term)]). rewrite app_assoc. exists s2. rewrite NM. split; [reflexivity|]. split; [exact ST2|]. split; [now apply (keeps_trans s s1)|exact I1].
Qed.

(** A reserved name is an error. *)
Lemma literal_quote : forall l, exists q m, literal_name l = q :: m /\ (q = 39 \/ q = 34)%Z.
Proof. intros l. unfold literal_name. cbv zeta. destruct (List.length l =? 1); eauto. Qed.
Lemma get_sym_bad : forall s x t r, symbol x t r -> reserved (sym_name x) -> get_sym t s = RErr.
Proof.
  intros s x t r H R. destruct H as [n r (W1 & W2) N|q l u r Q LT B].
  - cbn [sym_name] in R. destruct n as [|c n]; [easy|]. unfold get_sym. cbn [app]. rewrite (proj2 (name_first_iff c) W1). change (c :: n ++ r) with ((c :: n) ++ r).
    unfold get_name. rewrite (span_ok IS_IDENT is_ident IS_IDENT_iff) by assumption. now rewrite (proj2 (reserved_iff _) R).
  - exfalso. cbn [sym_name] in R. destruct (literal_quote l) as (c & m & E & Q'). rewrite E in R. destruct R as [R|[R|[R|(ds & _ & _ & R)]]]; injection R as R _; destruct Q'; lia.
Qed.
Lemma reserved_dec : forall n, reserved n \/ ~ reserved n.
Proof. intros n. destruct (is_reserved n) eqn:E; [left; now apply reserved_iff|right; intros R; apply reserved_iff in R; congruence]. Qed.
