(** C44, C45: token codes and rule precedences of byacc. *)
From Coq Require Import List Arith ZArith Bool Lia.
Import ListNotations.
From Verif Require Import Base SpecGrammar SpecByacc ByaccLr0Model ByaccLalrModel ByaccParModel ByaccActionsProof ByaccTablesProof ByaccReaderModel ByaccReaderProof.
From Verif Require LemonActionModel Prop_LemonAction.

Open Scope res_scope.

(** * C44 *)

(** The code byacc gives to the symbol declared at place [a]. *)
Definition code_of (pk : packed) (a : nat) : option Z :=
  match nth_error (pk_index pk) a with Some i => nth_error (pk_value pk) i | None => None end.

Lemma filter_rank : forall (syms : list bsym) a x, nth_error syms a = Some x -> sy_term x = true ->
  nth_error (filter sy_term syms) (nterm (firstn a syms)) = Some x.
Proof.
  induction syms as [|y r IH]; intros a x E T; [destruct a; discriminate|].
  destruct a as [|a]; cbn [nth_error] in E.
  - inversion E; subst. cbn [firstn filter]. rewrite T. reflexivity.
  - cbn [firstn]. unfold nterm. cbn [filter]. destruct (sy_term y); cbn [length nth_error]; apply IH; auto.
Qed.

Lemma rank_lt : forall (syms : list bsym) a x, nth_error syms a = Some x -> sy_term x = true -> nterm (firstn a syms) < nterm syms.
Proof. intros syms a x E T. pose proof (filter_rank syms a x E T) as H. apply nth_error_Some. congruence. Qed.

Lemma rank_inj : forall (syms : list bsym) a b x y, nth_error syms a = Some x -> sy_term x = true ->
  nth_error syms b = Some y -> sy_term y = true -> nterm (firstn a syms) = nterm (firstn b syms) -> a = b.
Proof.
  induction syms as [|z r IH]; intros a b x y E T E' T' H; [destruct a; discriminate|].
  destruct a as [|a], b as [|b]; auto; cbn [nth_error] in E, E'; cbn [firstn] in H; unfold nterm in H; cbn [filter] in H.
  - inversion E; subst. rewrite T in H. discriminate.
  - inversion E'; subst. rewrite T' in H. discriminate.
  - f_equal. apply (IH a b x y); auto. destruct (sy_term z); cbn [length] in H; unfold nterm; lia.
Qed.

Lemma rank_ex : forall (syms : list bsym) t, t < nterm syms -> exists a x, nth_error syms a = Some x /\ sy_term x = true /\ nterm (firstn a syms) = t.
Proof.
  induction syms as [|z r IH]; unfold nterm; cbn [filter]; intros t H; [cbn in H; lia|].
  destruct (sy_term z) eqn:T; cbn [length] in H.
  - destruct t as [|t]; [exists 0, z; auto|]. destruct (IH t) as (a & x & E & Tx & R); [unfold nterm; lia|].
    exists (S a), x. split; [exact E|]. split; [exact Tx|]. cbn [firstn]. rewrite <- R. unfold nterm. cbn [filter]. rewrite T. reflexivity.
  - destruct (IH t) as (a & x & E & Tx & R); [exact H|].
    exists (S a), x. split; [exact E|]. split; [exact Tx|]. cbn [firstn]. rewrite <- R. unfold nterm. cbn [filter]. rewrite T. reflexivity.
Qed.

Lemma code_term : forall syms goal pk a x, pack_spec syms goal pk -> nth_error syms a = Some x -> sy_term x = true ->
  code_of pk a = nth_error (token_codes (map sy_value (filter sy_term syms))) (nterm (firstn a syms)).
Proof.
  intros syms goal pk a x P E T. unfold code_of. rewrite (ps_tok _ _ _ P _ _ E T). pose proof (rank_lt _ _ _ E T) as L.
  assert (B : S (nterm (firstn a syms)) < length (pk_value pk)).
  { rewrite (ps_vl _ _ _ P), (ps_ns _ _ _ P). pose proof (nonterm_count syms). lia. }
  rewrite (nth_error_nth' _ 0%Z B), (ps_code _ _ _ P) by exact L. symmetry. apply nth_error_nth'.
  rewrite token_codes_length, map_length. exact L.
Qed.

Lemma some_eq : forall A (x y : A), Some x = Some y -> x = y.
Proof. congruence. Qed.

(** Every token gets a code: an explicit one is kept, error without one gets 256, and a
    code chosen by byacc is above 256 and differs from the code of every other token,
    chosen or explicit. *)
Theorem C44_token_codes : forall syms goal g e, nth_error syms goal = Some g -> sy_term g = false ->
  nth_error syms 0 = Some e -> sy_term e = true ->
  exists pk, pack_symbols syms goal = Ok pk /\
    (sy_value e = UNDEFINED -> code_of pk 0 = Some 256%Z) /\
    forall a x, nth_error syms a = Some x -> sy_term x = true ->
      (sy_value x <> UNDEFINED -> code_of pk a = Some (sy_value x)) /\
      (a <> 0 -> sy_value x = UNDEFINED -> exists c, code_of pk a = Some c /\ (256 < c)%Z /\
         forall b y, b <> a -> nth_error syms b = Some y -> sy_term y = true -> code_of pk b <> Some c).
Proof.
  intros syms goal g e G TG E0 T0. destruct (pack_symbols_ok syms goal g G TG) as (pk & EP & P).
  exists pk. split; [exact EP|]. split.
  - intros U. rewrite (code_term _ _ _ _ _ P E0 T0). cbn [firstn]. apply token_codes_error.
    pose proof (filter_rank _ _ _ E0 T0) as F. cbn [firstn] in F. change (nterm []) with 0 in *. rewrite nth_error_map, F. cbn. now rewrite U.
  - intros a x E T. pose proof (filter_rank _ _ _ E T) as F. split.
    + intros U. rewrite (code_term _ _ _ _ _ P E T). apply token_codes_explicit; auto. rewrite nth_error_map, F. reflexivity.
    + intros A U. pose proof (rank_lt _ _ _ E T) as L.
      destruct (nth_error (token_codes (map sy_value (filter sy_term syms))) (nterm (firstn a syms))) as [c|] eqn:C.
      2: { apply nth_error_None in C. rewrite token_codes_length, map_length in C. unfold nterm in L at 2. lia. }
      exists c. split; [now rewrite (code_term _ _ _ _ _ P E T)|].
      assert (R0 : 0 < nterm (firstn a syms)).
      { destruct (Nat.eq_dec (nterm (firstn a syms)) 0) as [Z|]; [|lia]. exfalso. apply A.
        apply (rank_inj syms a 0 x e); auto. }
      destruct (token_codes_auto _ _ _ R0 ltac:(rewrite nth_error_map, F; cbn; now rewrite U) C) as (C1 & C2). split; [exact C1|].
      intros b y Hb Eb Tb CB. rewrite (code_term _ _ _ _ _ P Eb Tb) in CB. eapply C2; [|exact CB|reflexivity].
      intros R. apply Hb. eapply rank_inj; eauto.
Qed.
Print Assumptions C44_token_codes.

(** The numbering used by the rest of the generator: tokens come first, then $accept,
    the start symbol and the other nonterminals; if the user's own codes are positive,
    pairwise different and do not take error's 256 then codes identify tokens, as
    the output routines and the parser require. *)
Theorem C44_numbering : forall syms goal g e rules, nth_error syms goal = Some g -> sy_term g = false ->
  nth_error syms 0 = Some e -> sy_term e = true ->
  (forall a x, nth_error syms a = Some x -> sy_term x = true -> sy_value x = UNDEFINED \/ (0 < sy_value x)%Z) ->
  (forall a b x y, nth_error syms a = Some x -> sy_term x = true -> nth_error syms b = Some y -> sy_term y = true ->
     sy_value x = sy_value y -> sy_value x <> UNDEFINED -> a = b) ->
  (sy_value e = UNDEFINED -> forall a x, nth_error syms a = Some x -> sy_term x = true -> sy_value x <> 256%Z) ->
  exists pk, pack_symbols syms goal = Ok pk /\
    pk_ntokens pk = S (length (filter sy_term syms)) /\ pk_nsyms pk = length syms + 2 /\
    nth_error (pk_index pk) goal = Some (S (pk_ntokens pk)) /\ NoDup (pk_index pk) /\
    (forall a x i, nth_error syms a = Some x -> nth_error (pk_index pk) a = Some i ->
       (sy_term x = true -> 0 < i < pk_ntokens pk) /\ (sy_term x = false -> pk_ntokens pk < i < pk_nsyms pk) /\
       nth i (pk_prec pk) 0 = sy_prec x /\ nth i (pk_assoc pk) TOKEN = sy_assoc x) /\
    wf_sv (mkSrc (pk_ntokens pk) (pk_nsyms pk) rules) (pk_value pk) /\ nth 0 (pk_value pk) 1%Z = 0%Z.
Proof.
  intros syms goal g e rules G TG E0 T0 HP HD HE. destruct (pack_symbols_ok syms goal g G TG) as (pk & EP & P).
  exists pk. split; [exact EP|]. split; [apply (ps_nt _ _ _ P)|]. split; [rewrite (ps_ns _ _ _ P); lia|].
  split; [apply (ps_goal _ _ _ P)|]. split; [apply (ps_nd _ _ _ P)|]. split.
  { intros a x i E I. split; [|split; [|split]].
    - intros T. rewrite (ps_tok _ _ _ P _ _ E T) in I. inversion I; subst. rewrite (ps_nt _ _ _ P). pose proof (rank_lt _ _ _ E T). lia.
    - intros T. eapply (ps_ntm _ _ _ P); eauto.
    - eapply (ps_prec _ _ _ P); eauto.
    - eapply (ps_assoc _ _ _ P); eauto. }
  assert (EX : nth 0 (pk_value pk) 1%Z = 0%Z).
  { pose proof (ps_end _ _ _ P) as X. pose proof (ps_vl _ _ _ P) as VL. rewrite (ps_ns _ _ _ P) in VL.
    destruct (pk_value pk) as [|v vs]; [discriminate|]. exact X. }
  split; [|exact EX].
  (* the code of token t+1 *)
  assert (K : forall t, t < nterm syms -> exists a x, nth_error syms a = Some x /\ sy_term x = true /\ nterm (firstn a syms) = t /\
     code_of pk a = Some (nth (S t) (pk_value pk) 0%Z)).
  { intros t Ht. destruct (rank_ex syms t Ht) as (a & x & E & T & R). exists a, x. split; [exact E|]. split; [exact T|]. split; [exact R|].
    unfold code_of. rewrite (ps_tok _ _ _ P _ _ E T), R. apply nth_error_nth'.
    rewrite (ps_vl _ _ _ P), (ps_ns _ _ _ P). pose proof (nonterm_count syms). lia. }
  destruct (C44_token_codes syms goal g e G TG E0 T0) as (pk' & EP' & CE & CC). rewrite EP in EP'. inversion EP'; subst pk'. clear EP'.
  assert (POS : forall t, t < nterm syms -> (0 < nth (S t) (pk_value pk) 0)%Z).
  { intros t Ht. destruct (K t Ht) as (a & x & E & T & R & C). destruct (CC a x E T) as (C1 & C2).
    destruct (Z.eq_dec (sy_value x) UNDEFINED) as [U|U].
    - destruct (Nat.eq_dec a 0) as [->|A].
      + rewrite E0 in E. inversion E; subst x. rewrite (CE U) in C. apply some_eq in C. lia.
      + destruct (C2 A U) as (c & C' & Hc & _). rewrite C' in C. apply some_eq in C. lia.
    - rewrite (C1 U) in C. apply some_eq in C. rewrite <- C. destruct (HP a x E T); [contradiction|auto]. }
  constructor; cbn [b_ntokens b_nsyms].
  - apply (ps_vl _ _ _ P).
  - rewrite (ps_nt _ _ _ P). intros [|t] Ht; [rewrite (ps_end _ _ _ P); lia|]. specialize (POS t ltac:(lia)). lia.
  - rewrite (ps_nt _ _ _ P). intros [|t] [|t'] Ht Ht' EQ; auto.
    + rewrite (ps_end _ _ _ P) in EQ. specialize (POS t' ltac:(lia)). lia.
    + rewrite (ps_end _ _ _ P) in EQ. specialize (POS t ltac:(lia)). lia.
    + destruct (K t ltac:(lia)) as (a & x & E & T & R & C). destruct (K t' ltac:(lia)) as (b & y & E' & T' & R' & C').
      assert (AB : a = b); [|subst b; congruence].
      rewrite <- EQ in C'. destruct (Nat.eq_dec a b) as [|N]; [auto|exfalso].
      destruct (CC a x E T) as (C1 & C2). destruct (CC b y E' T') as (D1 & D2).
      destruct (Z.eq_dec (sy_value x) UNDEFINED) as [U|U], (Nat.eq_dec a 0) as [A|A].
      * subst a. rewrite E0 in E. inversion E; subst x. rewrite (CE U) in C. pose proof (some_eq _ _ _ C) as C0.
        destruct (Z.eq_dec (sy_value y) UNDEFINED) as [V|V].
        -- destruct (D2 ltac:(lia) V) as (c & X & Hc & _). rewrite X in C'. apply some_eq in C'. lia.
        -- rewrite (D1 V) in C'. pose proof (some_eq _ _ _ C') as Y. apply (HE U b y E' T'). congruence.
      * destruct (C2 A U) as (c & X & _ & Y). rewrite X in C. pose proof (some_eq _ _ _ C) as C0. apply (Y b y); auto. congruence.
      * destruct (Z.eq_dec (sy_value y) UNDEFINED) as [V|V].
        -- destruct (D2 ltac:(lia) V) as (c & X & _ & Y). rewrite X in C'. pose proof (some_eq _ _ _ C') as C0. apply (Y a x); auto. congruence.
        -- rewrite (C1 U) in C. rewrite (D1 V) in C'. pose proof (some_eq _ _ _ C) as X. pose proof (some_eq _ _ _ C') as Y. apply N. apply (HD a b x y); auto. congruence.
      * destruct (Z.eq_dec (sy_value y) UNDEFINED) as [V|V].
        -- destruct (Nat.eq_dec b 0) as [B|B].
           ++ subst b. rewrite E0 in E'. inversion E'; subst y. rewrite (CE V) in C'. pose proof (some_eq _ _ _ C') as Y. rewrite (C1 U) in C. pose proof (some_eq _ _ _ C) as X.
              apply (HE V a x E T). congruence.
           ++ destruct (D2 B V) as (c & X & _ & Y). rewrite X in C'. pose proof (some_eq _ _ _ C') as C0. apply (Y a x); auto. congruence.
        -- rewrite (C1 U) in C. rewrite (D1 V) in C'. pose proof (some_eq _ _ _ C) as X. pose proof (some_eq _ _ _ C') as Y. apply N. apply (HD a b x y); auto. congruence.
  - apply (ps_nv _ _ _ P).
Qed.
Print Assumptions C44_numbering.

Definition tok (v : Z) := mkSym true v 0 TOKEN.
Definition nt := mkSym false UNDEFINED 0 TOKEN.

(** error, three automatic tokens around explicit 257, 259, 'a' and 300, and three
    nonterminals of which the second is the goal. *)
Definition ex44 := [tok UNDEFINED; tok UNDEFINED; nt; tok 259; tok 97; nt; tok UNDEFINED; tok 257; tok 300; nt; tok UNDEFINED].

Example C44_hypotheses : 
  (nth_error ex44 5 = Some nt /\ nth_error ex44 0 = Some (tok UNDEFINED) /\
   forallb (fun x => negb (sy_term x) || (sy_value x =? UNDEFINED)%Z || (0 <? sy_value x)%Z) ex44 = true) /\
  pack_symbols ex44 5 = Ok (mkPacked 9 13 [1; 2; 11; 3; 4; 10; 5; 6; 7; 12; 8]
    [0; 256; 258; 259; 97; 260; 257; 300; 261; -1; 0; 1; 2]%Z (repeat 0 13) (repeat TOKEN 13)).
Proof. vm_compute. repeat split; reflexivity. Qed.

(** The claim fails for error: its default 256 is given even if the user declared
    another token with the code 256, so error and that token are indistinguishable. *)
Theorem C44_error_code_refuted : exists syms goal pk a, pack_symbols syms goal = Ok pk /\ nth_error syms 0 = Some (tok UNDEFINED) /\
  nth_error syms a = Some (tok 256) /\ a <> 0 /\ code_of pk 0 = code_of pk a.
Proof. exists [tok UNDEFINED; tok 256; nt], 2. eexists. exists 1. split; [vm_compute; reflexivity|]. repeat split. discriminate. Qed.
Print Assumptions C44_error_code_refuted.

(** Explicit duplicates and the code 0 of the end marker are not excluded either. *)
Theorem C44_explicit_code_refuted : exists syms goal pk a b, pack_symbols syms goal = Ok pk /\ a <> b /\
  nth_error syms a = Some (tok 300) /\ nth_error syms b = Some (tok 300) /\ code_of pk a = code_of pk b.
Proof. exists [tok UNDEFINED; tok 300; tok 300; nt], 3. eexists. exists 1, 2. split; [vm_compute; reflexivity|]. repeat split. discriminate. Qed.
Print Assumptions C44_explicit_code_refuted.

(** * C45 *)

Definition last_of {A} (l : list A) : option A := match rev l with [] => None | x :: _ => Some x end.

Lemma last_of_cons : forall A (x : A) l, last_of (x :: l) = match last_of l with Some y => Some y | None => Some x end.
Proof. intros A x l. unfold last_of. cbn [rev]. destruct (rev l); reflexivity. Qed.

Definition pair_of (prec : list nat) (ass : list bassoc) (t : nat) : nat * bassoc := (nth t prec 0, nth t ass TOKEN).

Lemma nth_error_ok : forall A (l : list A) i d, i < length l -> nth_error l i = Some (nth i l d).
Proof. intros. now apply nth_error_nth'. Qed.

Lemma prec_items_yacc : forall n prec ass rhs p a, (forall x, In x rhs -> x < length prec /\ x < length ass) ->
  prec_items false n prec ass rhs p a = Ok (match last_of (filter (fun x => x <? n) rhs) with Some t => pair_of prec ass t | None => (p, a) end).
Proof.
  induction rhs as [|x r IH]; intros p a B; [reflexivity|]. cbn [prec_items filter]. destruct (B x ltac:(now left)) as (B1 & B2).
  assert (B' : forall y, In y r -> y < length prec /\ y < length ass) by (intros y Hy; apply B; now right).
  destruct (x <? n).
  - rewrite orb_true_r, (nth_error_ok _ _ _ 0 B1), (nth_error_ok _ _ _ TOKEN B2). cbn [opt bind]. rewrite IH by exact B'.
    rewrite last_of_cons. destruct (last_of (filter (fun x => x <? n) r)); reflexivity.
  - now rewrite IH.
Qed.

Lemma prec_items_lemon : forall n prec ass rhs p a, (forall x, In x rhs -> x < length prec /\ x < length ass) ->
  exists p' a', prec_items true n prec ass rhs p a = Ok (p', a') /\
    if p =? 0 then
      match find (fun t => negb (nth t prec 0 =? 0)) (filter (fun x => x <? n) rhs) with
      | Some t => (p', a') = pair_of prec ass t
      | None => p' = 0
      end
    else p' = p /\ a' = a.
Proof.
  induction rhs as [|x r IH]; intros p a B.
  - exists p, a. split; [reflexivity|]. destruct (p =? 0) eqn:E; [now apply Nat.eqb_eq in E|auto].
  - cbn [prec_items filter]. destruct (B x ltac:(now left)) as (B1 & B2).
    assert (B' : forall y, In y r -> y < length prec /\ y < length ass) by (intros y Hy; apply B; now right).
    destruct (x <? n).
    + rewrite orb_false_r. destruct (p =? 0) eqn:E.
      * rewrite (nth_error_ok _ _ _ 0 B1), (nth_error_ok _ _ _ TOKEN B2). cbn [opt bind find].
        destruct (IH (nth x prec 0) (nth x ass TOKEN) B') as (p' & a' & E' & H). exists p', a'. split; [exact E'|].
        destruct (nth x prec 0 =? 0); cbn [negb]; [exact H|]. destruct H as [-> ->]. reflexivity.
      * destruct (IH p a B') as (p' & a' & E' & H). rewrite E in H. eauto.
    + apply IH. exact B'.
Qed.

(** %prec decides; otherwise a rule takes the precedence and associativity of its last
    terminal, or with -z those of its first terminal that has a precedence, and it has
    no precedence if there is no such terminal. *)
Theorem C45_rule_precedence : forall z n prec ass rhs expl, (forall x, In x rhs -> x < length prec /\ x < length ass) ->
  let terminals := filter (fun x => x <? n) rhs in
  exists p a, rule_precedence z n prec ass rhs expl = Ok (p, a) /\
    match expl with
    | Some e => (p, a) = e
    | None =>
        match (if z then find (fun t => negb (nth t prec 0 =? 0)) terminals else last_of terminals) with
        | Some t => p = nth t prec 0 /\ a = nth t ass TOKEN
        | None => p = 0
        end
    end.
Proof.
  intros z n prec ass rhs expl B. cbn zeta. unfold rule_precedence. destruct z.
  - destruct (prec_items_lemon n prec ass rhs 0 TOKEN B) as (p & a & E & H). rewrite E. cbn [bind].
    destruct expl as [(p0 & a0)|]; [exists p0, a0; auto|]. exists p, a. split; [reflexivity|]. cbn [Nat.eqb] in H.
    destruct (find _ _); [|exact H]. inversion H; auto.
  - rewrite prec_items_yacc by exact B. cbn [bind]. destruct expl as [(p0 & a0)|]; [exists p0, a0; auto|].
    destruct (last_of _) as [t|]; [exists (nth t prec 0), (nth t ass TOKEN); auto|exists 0, TOKEN; auto].
Qed.
Print Assumptions C45_rule_precedence.

(** '+' (index 2, level 1) and '*' (index 3, level 2) on the same right-hand side. *)
Example C45_ex : let prec := [0; 0; 1; 2; 0; 0; 0] in let ass := [TOKEN; TOKEN; LEFT; RIGHT; TOKEN; TOKEN; TOKEN] in
  rule_precedence false 5 prec ass [6; 2; 6; 3; 6] None = Ok (2, RIGHT) /\
  rule_precedence false 5 prec ass [6; 2; 6; 3; 4] None = Ok (0, TOKEN) /\
  rule_precedence true 5 prec ass [4; 2; 6; 3; 6] None = Ok (1, LEFT) /\
  rule_precedence false 5 prec ass [6; 2; 6; 3; 6] (Some (9, NONASSOC)) = Ok (9, NONASSOC).
Proof. vm_compute. repeat split; reflexivity. Qed.

Lemma map_res_ok : forall A B (f : A -> res B) l, (forall x, In x l -> exists y, f x = Ok y) ->
  exists l', map_res f l = Ok l' /\ length l' = length l /\ forall i x, nth_error l i = Some x -> exists y, f x = Ok y /\ nth_error l' i = Some y.
Proof.
  induction l as [|x l IH]; intros H.
  - exists []. split; [reflexivity|]. split; auto. intros [|i]; discriminate.
  - destruct (H x ltac:(now left)) as (y & E). destruct IH as (l' & E' & L & N); [intros; apply H; now right|].
    cbn [map_res]. rewrite E. cbn [bind]. rewrite E'. cbn [bind]. exists (y :: l'). split; [reflexivity|]. split; [cbn; lia|].
    intros [|i] u Hu; cbn [nth_error] in *; [inversion Hu; subst; eauto|auto].
Qed.

Definition level (p : LemonActionModel.precs) (o : option nat) : nat :=
  match o with Some t => match LemonActionModel.p_prec p t with Some n => n | None => 0 end | None => 0 end.

(** For the same grammar, declarations and %prec/[precedence] marks the rule
    precedence levels of byacc -z are those of lemon, and those of byacc without -z
    are those of lemon in yacc mode; level 0 stands for no precedence. *)
Theorem C45_agrees_with_lemon : forall z s p prec ass marks, wf_src s ->
  length prec = b_nsyms s -> length ass = b_nsyms s -> length marks = length (b_rules s) ->
  (forall t, t < b_ntokens s -> nth t prec 0 = level p (Some t)) ->
  (forall t l, LemonActionModel.p_prec p t = Some l -> 0 < l) ->
  (forall t, In (Some t) marks -> t < b_ntokens s) ->
  exists pr, pack_precs z s prec ass (map (option_map (pair_of prec ass)) marks) = Ok pr /\ wf_prec s pr /\
    forall r ps, nth_error (LemonActionModel.FindRulePrecedences false (negb z) p (user s) marks) r = Some ps ->
      nth (r + 3) (rprec pr) 0 = level p ps.
Proof.
  intros z s p prec ass marks W LP LA LM HP HN HM.
  assert (B : forall l rhs, In (l, rhs) (b_rules s) -> forall x, In x rhs -> x < length prec /\ x < length ass).
  { intros l rhs I x Ix. rewrite LP, LA. destruct (ws_rules _ W _ _ I) as (_ & H). specialize (H x Ix). lia. }
  unfold pack_precs.
  set (L := combine (b_rules s) (map (option_map (pair_of prec ass)) marks)).
  set (F := fun '((_, rhs), e) => rule_precedence z (b_ntokens s) prec ass rhs e).
  destruct (map_res_ok _ _ F L) as (l' & E & LL & N).
  { intros ((l & rhs) & e) I. unfold L in I. apply in_combine_l in I. unfold F.
    destruct (C45_rule_precedence z (b_ntokens s) prec ass rhs e (B _ _ I)) as (p0 & a0 & E0 & _). eauto. }
  change (map_res _ L) with (map_res F L). rewrite E. cbn [bind]. eexists. split; [reflexivity|].
  assert (LC : length L = length (b_rules s)) by (unfold L; rewrite combine_length, map_length, LM; lia).
  split.
  { constructor; cbn [symbol_prec symbol_assoc rprec rassoc]; auto; rewrite app_length, map_length; cbn [length]; lia. }
  intros r ps H. cbn [rprec].
  assert (NA : forall m, nth (r + 3) ([0; 0; 0] ++ m) 0 = nth r m 0).
  { intros m. rewrite app_nth2 by (cbn; lia). f_equal. cbn. lia. }
  rewrite NA. unfold LemonActionModel.FindRulePrecedences in H. rewrite nth_error_map in H.
  destruct (nth_error (combine (g_rules (user s)) marks) r) as [(rl & mk)|] eqn:EC; [|discriminate].
  cbn [option_map] in H. inversion H as [H0]. clear H.
  assert (CS : forall A B (u : list A) (v : list B) i a b, nth_error (combine u v) i = Some (a, b) -> nth_error u i = Some a /\ nth_error v i = Some b).
  { clear. induction u as [|x u IH]; intros [|y v] [|i] a b H; try discriminate; cbn in *; [inversion H; auto|auto]. }
  apply CS in EC as (ER & EM). cbn [user g_rules] in ER. rewrite nth_error_map in ER.
  destruct (nth_error (b_rules s) r) as [(l & rhs)|] eqn:EB; [|discriminate]. cbn in ER. inversion ER; subst rl. clear ER.
  assert (EL : nth_error L r = Some ((l, rhs), option_map (pair_of prec ass) mk)).
  { unfold L. assert (CI : forall A B (u : list A) (v : list B) i a b, nth_error u i = Some a -> nth_error v i = Some b -> nth_error (combine u v) i = Some (a, b)).
    { clear. induction u as [|x u IH]; intros [|y v] [|i] a b H1 H2; try discriminate; cbn in *; [inversion H1; inversion H2; auto|auto]. }
    apply CI; auto. rewrite nth_error_map, EM. reflexivity. }
  destruct (N _ _ EL) as (y & EY & NY). unfold F in EY.
  pose proof (nth_error_In _ _ EB) as IB.
  destruct (C45_rule_precedence z (b_ntokens s) prec ass rhs (option_map (pair_of prec ass) mk) (B _ _ IB)) as (p0 & a0 & E0 & S0).
  rewrite EY in E0. inversion E0; subst y. clear E0.
  assert (NV : nth r (map fst l') 0 = p0).
  { apply nth_error_nth. rewrite nth_error_map, NY. reflexivity. }
  rewrite NV. unfold spec_rule. cbn [r_rhs fst snd]. unfold LemonActionModel.rule_precsym. destruct mk as [t|]; cbn [option_map] in S0.
  - inversion S0; subst. apply HP. apply HM. eapply nth_error_In; eauto.
  - assert (RT : Prop_LemonAction.rhs_terminals (user s) (map ESym rhs) = filter (fun x => x <? b_ntokens s) rhs).
    { clear. unfold Prop_LemonAction.rhs_terminals, user. cbn [g_nterm]. induction rhs as [|x rhs IH]; auto. cbn [map flat_map filter].
      rewrite IH. destruct (x <? b_ntokens s); reflexivity. }
    assert (TR : forall t, In t (filter (fun x => x <? b_ntokens s) rhs) -> t < b_ntokens s).
    { intros t Ht. apply filter_In in Ht. now apply Nat.ltb_lt. }
    destruct z; cbn [negb].
    + pose proof (Prop_LemonAction.prec_rhs_first p (user s) (map ESym rhs)) as X. rewrite RT in X. cbn [user g_nterm spec_rule r_rhs fst snd] in X |- *. rewrite X. clear X.
      assert (FE : forall ts, (forall t, In t ts -> t < b_ntokens s) ->
         find (fun t => negb (nth t prec 0 =? 0)) ts = find (LemonActionModel.has_prec p) ts).
      { clear - HP HN. induction ts as [|t ts IH]; intros Ht; auto. cbn [find].
        rewrite (HP t) by (apply Ht; now left). unfold level, LemonActionModel.has_prec. rewrite IH by (intros; apply Ht; now right).
        destruct (LemonActionModel.p_prec p t) as [k|] eqn:E; [|reflexivity]. specialize (HN _ _ E). destruct k; [lia|reflexivity]. }
      rewrite FE in S0 by exact TR.
      destruct (find (LemonActionModel.has_prec p) (filter (fun x => x <? b_ntokens s) rhs)) as [t|] eqn:EF.
      * apply find_some in EF as (I & HS). rewrite HS. destruct S0 as (-> & _). apply HP. auto.
      * exact S0.
    + pose proof (Prop_LemonAction.prec_rhs_last p (user s) (map ESym rhs) None) as X. rewrite RT in X. cbn [user g_nterm spec_rule r_rhs fst snd] in X |- *. rewrite X. clear X.
      change (Prop_LemonAction.last_error (filter (fun x => x <? b_ntokens s) rhs)) with (last_of (filter (fun x => x <? b_ntokens s) rhs)).
      destruct (last_of (filter (fun x => x <? b_ntokens s) rhs)) as [t|] eqn:EF.
      * destruct S0 as (-> & _).
        assert (I : In t (filter (fun x => x <? b_ntokens s) rhs)).
        { unfold last_of in EF. destruct (rev (filter (fun x => x <? b_ntokens s) rhs)) as [|u w] eqn:ER; [discriminate|].
          inversion EF; subst u. apply in_rev. rewrite ER. now left. }
        rewrite HP by auto. unfold LemonActionModel.has_prec. unfold level at 1. destruct (LemonActionModel.p_prec p t) eqn:EE; cbn [level]; [now rewrite EE|reflexivity].
      * exact S0.
Qed.
Print Assumptions C45_agrees_with_lemon.

(** expr : expr '+' expr '*' expr | '-' expr %prec '*' | NUM, with the levels
    '+' 1 and '*' 2. *)
Definition ex45 := mkSrc 6 8 [(7, [7; 2; 7; 3; 7]); (7, [4; 7]); (7, [5])].
Definition prec45 := [0; 0; 1; 2; 0; 0; 0; 0].
Definition ass45 := [TOKEN; TOKEN; LEFT; LEFT; TOKEN; TOKEN; TOKEN; TOKEN].
Definition lprec45 := LemonActionModel.mkPrecs (fun t => if t =? 2 then Some 1 else if t =? 3 then Some 2 else None) (fun _ => LemonActionModel.LEFT).

Example C45_hypotheses : wf_src ex45 /\
  (forall t, t < b_ntokens ex45 -> nth t prec45 0 = level lprec45 (Some t)) /\
  (forall t l, LemonActionModel.p_prec lprec45 t = Some l -> 0 < l) /\
  LemonActionModel.FindRulePrecedences false false lprec45 (user ex45) [None; Some 3; None] = [Some 2; Some 3; None] /\
  LemonActionModel.FindRulePrecedences false true lprec45 (user ex45) [None; Some 3; None] = [Some 3; Some 3; None] /\
  (exists pr, pack_precs true ex45 prec45 ass45 [None; Some (2, LEFT); None] = Ok pr /\ rprec pr = [0; 0; 0; 1; 2; 0]) /\
  (exists pr, pack_precs false ex45 prec45 ass45 [None; Some (2, LEFT); None] = Ok pr /\ rprec pr = [0; 0; 0; 2; 2; 0]).
Proof.
  split; [apply wf_srcb_ok; reflexivity|]. split.
  { intros t H. cbn [b_ntokens ex45] in H. do 6 (destruct t as [|t]; [reflexivity|]). lia. }
  split.
  { intros t l. cbn. destruct (t =? 2); [intros H; inversion H; lia|]. destruct (t =? 3); [intros H; inversion H; lia|discriminate]. }
  split; [reflexivity|]. split; [reflexivity|]. split; eexists; split; reflexivity.
Qed.
