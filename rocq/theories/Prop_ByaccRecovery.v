(** C58: error reports and recovery of the parser generated by byacc; and the stack
    limit of C49. *)
From Coq Require Import List Arith ZArith Lia Bool.
Import ListNotations.
From Verif Require Import Base ByaccLr0Model ByaccLalrModel ByaccParModel ByaccOutputModel ByaccParserModel SpecByacc Prop_ByaccParser.
Local Open Scope res_scope.

(** ** What is counted *)

(** The tokens that have left the input: those read but the one still at hand. *)
Definition consumed (c : ycfg) : nat := y_pos c - (if (y_char c <? 0)%Z then 0 else 1).

Section Recovery.
Variable Y : ytabs.
Variable lex : nat -> Z.

(** The token to be seen next. *)
Definition token (c : ycfg) : Z := if (y_char c <? 0)%Z then (if (lex (y_pos c) <? 0)%Z then 0%Z else lex (y_pos c)) else y_char c.

(** The tables have no action for the state on top of the stack and the next token. *)
Definition no_entry (index : list Z) (q : nat) (x : Z) : bool :=
  match nth_error index q with
  | Some ix => match ylookup (y_high Y) (y_table Y) (y_check Y) ix x with Ok None => true | _ => false end
  | None => false
  end.
Definition stuck (c : ycfg) : bool :=
  let q := hd 0 (ks_st (y_stk c)) in
  match nth_error (y_defred Y) q with Some 0 => no_entry (y_sindex Y) q (token c) && no_entry (y_rindex Y) q (token c) | _ => false end.

(** From [c] to [c'] a token went onto the stack. *)
Definition shifted (c c' : ycfg) : bool :=
  (consumed c' =? S (consumed c)) && (length (ks_st (y_stk c')) =? S (length (ks_st (y_stk c)))).

(** The configurations of a run, the last first. *)
Inductive trace : list ycfg -> Prop :=
| tr_start : forall q size scap lcap mem, trace [mkYcfg (mkYstack [q] size scap lcap mem) (-1)%Z 0 0 0]
| tr_step : forall c c' l, trace (c :: l) -> yyloop Y lex c = Ok (YNext c') -> trace (c' :: c :: l).

(** How many tokens were shifted since the parser was last stuck; [None] if it never was. *)
Fixpoint quiet (l : list ycfg) : option nat :=
  match l with
  | c' :: r => match r with
      | c :: _ => if stuck c then Some 0 else if shifted c c' then option_map S (quiet r) else quiet r
      | [] => None
      end
  | [] => None
  end.

(** Being stuck is an error to be reported, at first and after three tokens. *)
Definition reportable (w : option nat) : bool := match w with None => true | Some n => 3 <=? n end.

Fixpoint errors (l : list ycfg) : nat :=
  match l with
  | _ :: r => match r with c :: _ => (if stuck c && reportable (quiet r) then 1 else 0) + errors r | [] => 0 end
  | [] => 0
  end.

(** ** Steps *)
Local Notation st c := (ks_st (y_stk c)).
Definition okc (c : ycfg) : Prop := ((0 <= y_char c)%Z -> 1 <= y_pos c).

Lemma read_spec : forall c, okc c -> let c' := read lex c in
  y_stk c' = y_stk c /\ y_char c' = token c /\ (0 <= y_char c')%Z /\ y_flag c' = y_flag c /\ y_nerrs c' = y_nerrs c /\ consumed c' = consumed c /\ 1 <= y_pos c'.
Proof.
  intros c OK. unfold read, token, consumed. destruct (Z.ltb_spec (y_char c) 0) as [L|L]; cbn [y_stk y_char y_flag y_nerrs y_pos].
  - assert (0 <= (if (lex (y_pos c) <? 0)%Z then 0 else lex (y_pos c)))%Z by (destruct (Z.ltb_spec (lex (y_pos c)) 0); lia).
    destruct (Z.ltb_spec (if (lex (y_pos c) <? 0)%Z then 0 else lex (y_pos c))%Z 0); [lia|]. repeat split; auto; lia.
  - destruct (Z.ltb_spec (y_char c) 0); [lia|]. repeat split; auto.
Qed.

Definition same (c c' : ycfg) : Prop := y_flag c' = y_flag c /\ y_nerrs c' = y_nerrs c /\ consumed c' = consumed c /\ okc c'.

Lemma yyreduce_same : forall c n x, okc c -> yyreduce Y lex c n = Ok x -> match x with YNext c' => same c c' | YEnd _ c' => same c c' end.
Proof.
  intros c n x OK H. unfold yyreduce in H. apply bind_Ok in H as (m & _ & H). destruct (length (st c) <=? m); [discriminate|]. cbv zeta in H.
  apply bind_Ok in H as (a & _ & H). destruct (_ && _).
  - apply bind_Ok in H as (k & _ & H).
    set (c1 := mkYcfg k (y_char c) (y_flag c) (y_nerrs c) (y_pos c)) in *.
    assert (OK1 : okc c1) by exact OK. destruct (read_spec c1 OK1) as (R1 & R2 & R3 & R4 & R5 & R6 & R7).
    destruct ((y_char (read lex c1) =? 0)%Z); inversion H; subst x; (split; [exact R4|split; [exact R5|split; [exact R6|intros _; exact R7]]]).
  - apply bind_Ok in H as (a' & _ & H). apply bind_Ok in H as (ix & _ & H). apply bind_Ok in H as (o & _ & H). apply bind_Ok in H as (q & _ & H).
    destruct (room _) as [ok k]. destruct ok; [apply bind_Ok in H as (k' & _ & H)|]; inversion H; subst x; repeat split; auto.
Qed.

Lemma recover_same : forall n c x, recover Y n c = Ok x ->
  match x with YNext c' | YEnd _ c' => y_flag c' = y_flag c /\ y_nerrs c' = y_nerrs c /\ y_char c' = y_char c /\ y_pos c' = y_pos c end.
Proof.
  induction n as [|n IH]; intros c x H; cbn [recover] in H; apply bind_Ok in H as (ix & _ & H); apply bind_Ok in H as (o & _ & H); destruct o as [t|].
  - destruct (room _) as [ok k]. destruct ok; [apply bind_Ok in H as (q & _ & H); apply bind_Ok in H as (k' & _ & H)|]; inversion H; subst x; auto.
  - destruct (length (st c) <=? 1); [|discriminate]. inversion H; subst x; auto.
  - destruct (room _) as [ok k]. destruct ok; [apply bind_Ok in H as (q & _ & H); apply bind_Ok in H as (k' & _ & H)|]; inversion H; subst x; auto.
  - destruct (length (st c) <=? 1); [inversion H; subst x; auto|]. apply IH in H. destruct x; exact H.
Qed.

Lemma opt_Ok : forall A (o : option A) a, opt o = Ok a -> o = Some a.
Proof. intros A [x|] a H; inversion H; auto. Qed.

Lemma push_len : forall k q k', push k q = Ok k' -> ks_st k' = q :: ks_st k.
Proof. intros k q k' H. unfold push in H. destruct (_ && _); inversion H; subst. reflexivity. Qed.

Lemma room_st : forall k b k', room k = (b, k') -> ks_st k' = ks_st k.
Proof.
  intros k b k' H. unfold room in H. destruct (_ || _); [|inversion H; subst; auto]. unfold yygrowstack in H. cbv zeta in H.
  destruct (_ || _); [|inversion H; subst; auto]. destruct (realloc (ks_mem k)) as [[|] m1]; [destruct (realloc m1) as [[|] m2]|]; inversion H; subst; auto.
Qed.

(** One round: nothing but the stack, a shift, or an error. *)
Lemma yyloop_cases : forall c x, okc c -> yyloop Y lex c = Ok x ->
  let c' := match x with YNext c' => c' | YEnd _ c' => c' end in
  (stuck c = false /\ same c c') \/
  (stuck c = false /\ consumed c' = S (consumed c) /\ length (st c') = S (length (st c)) /\ y_flag c' = y_flag c - 1 /\ y_nerrs c' = y_nerrs c /\ okc c' /\ x = YNext c') \/
  (stuck c = true /\ (y_flag c < 3 /\ consumed c' = consumed c /\ y_flag c' = 3 \/ 3 <= y_flag c /\ y_flag c' = y_flag c /\ st c' = st c /\ consumed c <= consumed c') /\
     y_nerrs c' = (if y_flag c =? 0 then 1 else 0) + y_nerrs c /\ okc c').
Proof.
  intros c x OK H. cbv zeta. unfold yyloop in H. cbv zeta in H. set (q := hd 0 (st c)) in *. apply bind_Ok in H as (d & HD & H). apply opt_Ok in HD.
  destruct (Nat.eqb_spec d 0) as [->|N]; cbn [negb] in H.
  2:{ left. split; [unfold stuck; fold q; rewrite HD; destruct d; [congruence|auto]|]. apply yyreduce_same in H; auto. destruct x; auto. }
  destruct (read_spec c OK) as (R1 & R2 & R3 & R4 & R5 & R6 & R7). set (c1 := read lex c) in *.
  assert (OK1 : okc c1) by (intros _; exact R7).
  apply bind_Ok in H as (ix & HS & H). apply opt_Ok in HS. apply bind_Ok in H as (o & HL & H). unfold look in HL. rewrite R2 in HL.
  destruct o as [t|].
  { assert (SF : stuck c = false). { unfold stuck. fold q. rewrite HD. unfold no_entry at 1. rewrite HS, HL. reflexivity. }
    destruct (room (y_stk c1)) as [ok k] eqn:RM. pose proof (room_st _ _ _ RM) as RS. destruct ok.
    - apply bind_Ok in H as (q' & _ & H). apply bind_Ok in H as (k' & HP & H). inversion H; subst x. right. left. split; [exact SF|].
      apply push_len in HP. split; [|split; [|split; [|split; [|split]]]]; auto; cbn [y_stk y_char y_flag y_nerrs y_pos].
      + unfold consumed in *. cbn [y_char y_pos]. change (-1 <? 0)%Z with true. cbn iota. destruct (Z.ltb_spec (y_char c1) 0); [lia|]. lia.
      + rewrite HP, RS, R1. reflexivity.
      + now rewrite R4.
      + intros X. cbn in X. lia.
    - inversion H; subst x. left. split; [exact SF|]. split; [exact R4|]. split; [exact R5|]. split; [exact R6|]. intros _. exact R7. }
  apply bind_Ok in H as (ix2 & HR & H). apply opt_Ok in HR. apply bind_Ok in H as (o & HL2 & H). unfold look in HL2. rewrite R2 in HL2. destruct o as [t|].
  { assert (SF : stuck c = false). { unfold stuck. fold q. rewrite HD. unfold no_entry. rewrite HS, HL, HR, HL2. reflexivity. }
    apply bind_Ok in H as (n & _ & H). apply yyreduce_same in H; auto. left. split; [exact SF|]. unfold same in *.
    destruct x; destruct H as (X1 & X2 & X3 & X4); (split; [congruence|]; split; [congruence|]; split; [congruence|exact X4]). }
  right. right. assert (SF : stuck c = true). { unfold stuck. fold q. rewrite HD. unfold no_entry. rewrite HS, HL, HR, HL2. reflexivity. }
  split; [exact SF|]. unfold yyerror_part in H. cbv zeta in H. rewrite R4, R5 in H.
  assert (NE : (if y_flag c =? 0 then S (y_nerrs c) else y_nerrs c) = (if y_flag c =? 0 then 1 else 0) + y_nerrs c) by (destruct (y_flag c =? 0); reflexivity).
  destruct (Nat.ltb_spec (y_flag c) 3) as [L|L].
  - apply recover_same in H. cbn [y_flag y_nerrs y_char y_pos] in H.
    assert (K : forall c', y_char c' = y_char c1 -> y_pos c' = y_pos c1 -> consumed c' = consumed c /\ okc c').
    { intros c' E1 E2. unfold consumed, okc in *. rewrite E1, E2. auto. }
    destruct x as [c'|e c']; destruct H as (X1 & X2 & X3 & X4); destruct (K c' X3 X4) as (K1 & K2); (split; [left; auto|split; [congruence|exact K2]]).
  - destruct (Nat.eqb_spec (y_flag c) 0) as [Z|_]; [lia|]. destruct (y_char c1 =? 0)%Z; inversion H; subst x.
    + split; [right; rewrite R1, R4; split; [auto|split; [auto|split; [auto|lia]]]|]. split; [exact R5|exact OK1].
    + split; [right; cbn [y_stk y_flag]; rewrite R1; split; [auto|split; [auto|split; [auto|]]]|].
      * unfold consumed in *. cbn [y_char y_pos]. change (-1 <? 0)%Z with true. cbn iota. destruct (Z.ltb_spec (y_char c1) 0); lia.
      * split; [cbn; auto|]. intros X. cbn in X. lia.
Qed.

Lemma quiet_cons : forall c c' l, quiet (c' :: c :: l) = if stuck c then Some 0 else if shifted c c' then option_map S (quiet (c :: l)) else quiet (c :: l).
Proof. reflexivity. Qed.
Lemma errors_cons : forall c c' l, errors (c' :: c :: l) = (if stuck c && reportable (quiet (c :: l)) then 1 else 0) + errors (c :: l).
Proof. reflexivity. Qed.

Record inv (l : list ycfg) (c : ycfg) : Prop := {
  iv_ok : okc c;
  iv_flag : y_flag c = match quiet l with None => 0 | Some n => 3 - n end;
  iv_nerrs : y_nerrs c = errors l;
  iv_space : 3 * y_nerrs c <= consumed c + y_flag c
}.

Lemma trace_inv : forall l, trace l -> forall c r, l = c :: r -> inv l c.
Proof.
  intros l T. induction T as [q size scap lcap mem|c c' l T IH H]; intros c0 r E.
  - inversion E; subst. constructor; try reflexivity. intros X; cbn in X; lia.
  - inversion E; subst c0 r. destruct (IH c l eq_refl) as [OK FL NE SP]. clear E.
    pose proof (yyloop_cases c (YNext c') OK H) as X. cbv zeta iota in X.
    destruct X as [(SF & (X1 & X2 & X3 & X4))|[(SF & X1 & X2 & X3 & X4 & X5 & _)|(SF & X1 & X2 & X3)]].
    + assert (NS : shifted c c' = false) by (unfold shifted; rewrite X3; destruct (Nat.eqb_spec (consumed c) (S (consumed c))); [lia|auto]).
      constructor; auto; rewrite ?quiet_cons, ?errors_cons; rewrite ?SF, ?NS; cbn [andb]; rewrite ?X1, ?X2, ?X3; auto.
    + assert (NS : shifted c c' = true) by (unfold shifted; rewrite X1, X2, !Nat.eqb_refl; reflexivity).
      constructor; auto; rewrite ?quiet_cons, ?errors_cons; rewrite ?SF, ?NS; cbn [andb]; [|rewrite X4; auto|rewrite X4; lia].
      rewrite X3, FL. destruct (quiet (c :: l)) as [n|]; cbn [option_map]; lia.
    + constructor; auto; rewrite ?quiet_cons, ?errors_cons; rewrite ?SF; cbn [andb].
      * destruct X1 as [(_ & _ & X1)|(L3 & X1 & _ & _)]; auto. rewrite X1, FL. rewrite FL in L3. destruct (quiet (c :: l)); lia.
      * rewrite X2, NE. f_equal. rewrite FL. unfold reportable. destruct (quiet (c :: l)) as [n|]; [|reflexivity].
        destruct (Nat.leb_spec 3 n); destruct (Nat.eqb_spec (3 - n) 0); lia.
      * rewrite X2. destruct X1 as [(L3 & X1 & X1')|(L3 & X1 & _ & X1')]; rewrite ?X1, ?X1'; destruct (Nat.eqb_spec (y_flag c) 0); lia.
Qed.

Lemma yyrun_trace : forall fuel c l e c', trace (c :: l) -> yyrun Y lex fuel c = Ok (e, c') ->
  exists c1 l1, trace (c1 :: l1) /\ yyloop Y lex c1 = Ok (YEnd e c').
Proof.
  induction fuel as [|f IH]; intros c l e c' T H; cbn [yyrun] in H; [discriminate|]. apply bind_Ok in H as (x & HX & H). destruct x as [c2|e2 c2].
  - eapply IH; [|exact H]. apply tr_step; eauto.
  - inversion H; subst. eauto.
Qed.
End Recovery.

(** yynerrs counts exactly the times the parser is stuck for the first time or with
    three tokens shifted since it was last stuck. *)
Theorem C58_counted : forall Y lex c l, trace Y lex (c :: l) -> y_nerrs c = errors Y lex (c :: l).
Proof. intros Y lex c l T. exact (iv_nerrs _ _ _ _ (trace_inv _ _ _ T c l eq_refl)). Qed.
Print Assumptions C58_counted.

(** So is the number left when yyparse returns. *)
Theorem C58_returned : forall Y lex fuel k e c, yyparse Y lex fuel k = Ok (e, c) ->
  (e = YOverflow /\ y_nerrs c = 0) \/
  exists c1 l, trace Y lex (c1 :: l) /\ yyloop Y lex c1 = Ok (YEnd e c) /\
    y_nerrs c = errors Y lex (c1 :: l) + (if stuck Y lex c1 && reportable (quiet Y lex (c1 :: l)) then 1 else 0).
Proof.
  intros Y lex fuel k e c H. unfold yyparse in H. destruct (if ks_scap k =? 0 then yygrowstack k else (true, k)) as [ok k1]. destruct ok.
  - destruct (ks_scap k1 =? 0); [discriminate|]. right. eapply (yyrun_trace Y lex) in H; [|apply tr_start]. destruct H as (c1 & l & T & HY).
    exists c1, l. split; [exact T|]. split; [exact HY|]. destruct (trace_inv _ _ _ T c1 l eq_refl) as [OK FL NE SP].
    pose proof (yyloop_cases Y lex c1 _ OK HY) as X. cbv zeta iota in X.
    destruct X as [(SF & (X1 & X2 & X3 & X4))|[(_ & _ & _ & _ & _ & _ & X)|(SF & X1 & X2 & X3)]]; [|discriminate|].
    + rewrite SF. cbn [andb]. rewrite X2, NE. lia.
    + rewrite SF. cbn [andb]. rewrite X2, NE, FL. unfold reportable. destruct (quiet Y lex (c1 :: l)) as [n|]; [|cbn; lia].
      destruct (Nat.leb_spec 3 n); destruct (Nat.eqb_spec (3 - n) 0); lia.
  - inversion H; subst. left. auto.
Qed.
Print Assumptions C58_returned.

(** Reported errors are at least three tokens apart. *)
Theorem C58_spacing : forall Y lex c l, trace Y lex (c :: l) -> 3 * y_nerrs c <= consumed c + 3.
Proof.
  intros Y lex c l T. destruct (trace_inv _ _ _ T c l eq_refl) as [_ FL _ SP]. destruct (quiet Y lex (c :: l)); lia.
Qed.
Print Assumptions C58_spacing.

(** ** Where recovery goes *)

(** The tables have a shift of the token error in state [q], to [t]. *)
Definition shifts_error (Y : ytabs) (q : nat) (t : Z) : Prop :=
  exists ix, nth_error (y_sindex Y) q = Some ix /\ ylookup (y_high Y) (y_table Y) (y_check Y) ix (y_errcode Y) = Ok (Some t).

(** A search that goes on finds the topmost state with such a shift and pushes its
    target; one that aborts has seen every state. *)
Lemma recover_spec : forall Y n c x, ks_st (y_stk c) <> [] -> recover Y n c = Ok x ->
  match x with
  | YNext c' => exists i q t, nth_error (ks_st (y_stk c)) i = Some q /\ shifts_error Y q t /\ (0 <= t)%Z /\
      (forall j q' t', j < i -> nth_error (ks_st (y_stk c)) j = Some q' -> ~ shifts_error Y q' t') /\
      ks_st (y_stk c') = Z.to_nat t :: skipn i (ks_st (y_stk c))
  | YEnd YAbort _ => forall q t, In q (ks_st (y_stk c)) -> ~ shifts_error Y q t
  | YEnd YAccept _ => False
  | YEnd YOverflow _ => True
  end.
Proof.
  intros Y. induction n as [|n IH]; intros c x NE H; cbn [recover] in H; destruct (ks_st (y_stk c)) as [|q0 r] eqn:ES; try congruence; cbn [hd tl length] in H;
    apply bind_Ok in H as (ix & HX & H); apply opt_Ok in HX; apply bind_Ok in H as (o & HL & H); unfold look in HL.
  all: assert (TOP : forall t, o = Some t -> shifts_error Y q0 t) by (intros t ->; exists ix; auto).
  all: assert (NONE : o = None -> forall t, ~ shifts_error Y q0 t) by (intros -> t (ix' & A & B); congruence).
  all: destruct o as [t|].
  1,3: destruct (room (y_stk c)) as [ok k] eqn:RM; apply room_st in RM; destruct ok; [|inversion H; subst x; exact Logic.I];
    apply bind_Ok in H as (q & HN & H); apply bind_Ok in H as (k' & HP & H); inversion H; subst x; cbn [y_stk]; apply push_len in HP;
    unfold num in HN; destruct (Z.leb_spec 0 t); inversion HN; subst q;
    exists 0, q0, t; split; [reflexivity|]; split; [apply TOP; auto|]; split; [auto|]; split; [intros j q' t' L; lia|]; cbn [skipn]; congruence.
  - destruct (Nat.leb_spec (S (length r)) 1); [|discriminate]. inversion H; subst x. destruct r; [|cbn in *; lia]. intros q t [<-|[]]. apply NONE; auto.
  - destruct (Nat.leb_spec (S (length r)) 1).
    + inversion H; subst x. destruct r; [|cbn in *; lia]. intros q t [<-|[]]. apply NONE; auto.
    + apply IH in H; cbn [y_stk ks_st] in *; [|destruct r; [cbn in *; lia|discriminate]]. destruct x as [c'|e c'].
      * destruct H as (i & q & t & A & B & C & D & E). exists (S i), q, t. split; [exact A|]. split; [exact B|]. split; [exact C|]. split; [|exact E].
        intros [|j] q' t' L N; cbn in N; [inversion N; subst; apply NONE; auto|]. apply (D j); auto. lia.
      * destruct e; auto. intros q t [<-|I]; [apply NONE; auto|apply H; auto].
Qed.

Lemma recover_stack : forall Y n c c', recover Y n c = Ok (YNext c') -> ks_st (y_stk c') <> [].
Proof.
  intros Y. induction n as [|n IH]; intros c c' H; cbn [recover] in H; apply bind_Ok in H as (ix & _ & H); apply bind_Ok in H as (o & _ & H); destruct o as [t|].
  1,3: destruct (room _) as [ok k]; destruct ok; [|discriminate]; apply bind_Ok in H as (q & _ & H); apply bind_Ok in H as (k' & HP & H); inversion H; subst; cbn [y_stk]; apply push_len in HP; rewrite HP; discriminate.
  - destruct (length (ks_st (y_stk c)) <=? 1); discriminate.
  - destruct (length (ks_st (y_stk c)) <=? 1); [discriminate|]. eapply IH; exact H.
Qed.

Lemma yyreduce_stack : forall Y lex c n c', yyreduce Y lex c n = Ok (YNext c') -> ks_st (y_stk c') <> [].
Proof.
  intros Y lex c n c' H. unfold yyreduce in H. apply bind_Ok in H as (m & _ & H). destruct (_ <=? m); [discriminate|]. cbv zeta in H.
  apply bind_Ok in H as (a & _ & H). destruct (_ && _).
  - apply bind_Ok in H as (k & HP & H). apply push_len in HP.
    assert (R : forall c0, y_stk (read lex c0) = y_stk c0) by (intros c0; unfold read; destruct (_ <? _)%Z; reflexivity).
    destruct (_ =? 0)%Z; inversion H; subst. rewrite R. cbn [y_stk]. rewrite HP. discriminate.
  - apply bind_Ok in H as (a' & _ & H). apply bind_Ok in H as (ix & _ & H). apply bind_Ok in H as (o & _ & H). apply bind_Ok in H as (q & _ & H).
    destruct (room _) as [ok k]. destruct ok; [apply bind_Ok in H as (k' & HP & H)|discriminate]. apply push_len in HP. inversion H; subst. cbn [y_stk]. rewrite HP. discriminate.
Qed.

Lemma trace_stack : forall Y lex l, trace Y lex l -> forall c r, l = c :: r -> ks_st (y_stk c) <> [].
Proof.
  intros Y lex l T. induction T as [q size scap lcap mem|c c' l T IH H]; intros c0 r E; inversion E; subst; [discriminate|]. specialize (IH c l eq_refl).
  assert (R : y_stk (read lex c) = y_stk c) by (unfold read; destruct (_ <? _)%Z; reflexivity).
  unfold yyloop in H. cbv zeta in H. apply bind_Ok in H as (d & _ & H). destruct (negb (d =? 0)); [eapply yyreduce_stack; exact H|].
  apply bind_Ok in H as (ix & _ & H). apply bind_Ok in H as (o & _ & H). destruct o as [t|].
  - destruct (room _) as [ok k]. destruct ok; [|discriminate]. apply bind_Ok in H as (q & _ & H). apply bind_Ok in H as (k' & HP & H). apply push_len in HP. inversion H; subst. cbn [y_stk]. rewrite HP. discriminate.
  - apply bind_Ok in H as (ix2 & _ & H). apply bind_Ok in H as (o & _ & H). destruct o as [t|].
    + apply bind_Ok in H as (n & _ & H). eapply yyreduce_stack; exact H.
    + unfold yyerror_part in H. cbv zeta in H. destruct (_ <? 3); [eapply recover_stack; exact H|]. destruct (_ =? 0)%Z; inversion H; subst. cbn [y_stk]. congruence.
Qed.

(** What a parser does when stuck.  Unless no token was shifted since it was last
    stuck, it pops to the topmost state that can shift error, and shifts it, keeping the
    token at hand; it gives up only if no state on the stack can.  Otherwise it drops
    the token, and gives up only at the end of the input. *)
Theorem C58_recovery : forall Y lex c l x, trace Y lex (c :: l) -> stuck Y lex c = true -> yyloop Y lex c = Ok x ->
  match x with
  | YNext c' =>
      if match quiet Y lex (c :: l) with Some 0 => true | _ => false end
      then ks_st (y_stk c') = ks_st (y_stk c) /\ token lex c <> 0%Z /\ consumed c' = S (consumed c)
      else consumed c' = consumed c /\ exists i q t, nth_error (ks_st (y_stk c)) i = Some q /\ shifts_error Y q t /\ (0 <= t)%Z /\
        (forall j q' t', j < i -> nth_error (ks_st (y_stk c)) j = Some q' -> ~ shifts_error Y q' t') /\
        ks_st (y_stk c') = Z.to_nat t :: skipn i (ks_st (y_stk c))
  | YEnd YAbort _ =>
      if match quiet Y lex (c :: l) with Some 0 => true | _ => false end
      then token lex c = 0%Z
      else forall q t, In q (ks_st (y_stk c)) -> ~ shifts_error Y q t
  | YEnd YAccept _ => False
  | YEnd YOverflow _ => True
  end.
Proof.
  intros Y lex c l x T SF H. pose proof (trace_stack _ _ _ T c l eq_refl) as NE. destruct (trace_inv _ _ _ T c l eq_refl) as [OK FL _ _].
  assert (FQ : (match quiet Y lex (c :: l) with Some 0 => true | _ => false end) = negb (y_flag c <? 3)).
  { rewrite FL. destruct (quiet Y lex (c :: l)) as [[|n]|]; auto. destruct (Nat.ltb_spec (3 - S n) 3); auto; lia. }
  rewrite FQ. clear FQ. pose proof (yyloop_cases Y lex c x OK H) as CS. cbv zeta in CS.
  assert (HE : yyerror_part Y (read lex c) = Ok x).
  { clear CS FL. destruct (read_spec lex c OK) as (R1 & R2 & R3 & R4 & R5 & R6 & R7).
    unfold stuck in SF. unfold yyloop in H. cbv zeta in H, SF. set (q := hd 0 (ks_st (y_stk c))) in *.
    destruct (nth_error (y_defred Y) q) as [[|d]|]; try discriminate. cbn [bind opt Nat.eqb negb] in H. apply andb_true_iff in SF as (SF1 & SF2).
    unfold no_entry in SF1, SF2. unfold look in H. rewrite R2 in H.
    destruct (nth_error (y_sindex Y) q) as [i1|]; [|discriminate]. cbn [bind opt] in H.
    destruct (ylookup (y_high Y) (y_table Y) (y_check Y) i1 (token lex c)) as [[t|]| |]; try discriminate. cbn [bind] in H.
    destruct (nth_error (y_rindex Y) q) as [i2|]; [|discriminate]. cbn [bind opt] in H.
    destruct (ylookup (y_high Y) (y_table Y) (y_check Y) i2 (token lex c)) as [[t|]| |]; try discriminate. cbn [bind] in H. exact H. }
  destruct CS as [(C & _)|[(C & _)|(_ & CS & _ & _)]]; try congruence.
  destruct (read_spec lex c OK) as (R1 & R2 & R3 & R4 & R5 & R6 & R7).
  unfold yyerror_part in HE. cbv zeta in HE. rewrite R4 in HE. destruct (Nat.ltb_spec (y_flag c) 3) as [L|L]; cbn [negb].
  - apply recover_spec in HE; cbn [y_stk] in *; rewrite R1 in *; auto. destruct x as [c'|[]  c']; auto.
    split; [|exact HE]. destruct CS as [(_ & CS & _)|(CS & _)]; [exact CS|lia].
  - destruct (Z.eqb_spec (y_char (read lex c)) 0) as [Z|Z]; inversion HE; subst x.
    + congruence.
    + cbn [y_stk]. split; [congruence|]. split; [congruence|]. unfold consumed in *. cbn [y_char y_pos]. change (-1 <? 0)%Z with true. cbn iota.
      destruct (Z.ltb_spec (y_char (read lex c)) 0); lia.
Qed.
Print Assumptions C58_recovery.

(** ** The limit of the stack *)

(** Nothing is larger than YYMAXDEPTH. *)
Definition within (k : ystack) : Prop :=
  ks_size k <= YYMAXDEPTH /\ ks_scap k <= YYMAXDEPTH /\ ks_lcap k <= YYMAXDEPTH /\ length (ks_st k) <= YYMAXDEPTH.

Lemma init_max : 1 <= YYINITSTACKSIZE <= YYMAXDEPTH.
Proof. split; apply Nat.leb_le; vm_compute; reflexivity. Qed.

Lemma grow_within : forall k b k', yygrowstack k = (b, k') -> within k -> within k'.
Proof.
  intros k b k' H (A & B & C & D). pose proof init_max as (I1 & I2). unfold yygrowstack in H. cbv zeta in H. destruct (_ || _); [|inversion H; subst; repeat split; auto].
  remember (if ks_size k =? 0 then YYINITSTACKSIZE else if YYMAXDEPTH <? ks_size k * 2 then YYMAXDEPTH else ks_size k * 2) as ns.
  assert (ns <= YYMAXDEPTH) by (subst ns; destruct (ks_size k =? 0); auto; destruct (Nat.ltb_spec YYMAXDEPTH (ks_size k * 2)); lia). clear Heqns.
  destruct (realloc (ks_mem k)) as [[|] m1]; [destruct (realloc m1) as [[|] m2]|]; inversion H; subst; repeat split; auto.
Qed.

Lemma room_within : forall k b k', room k = (b, k') -> within k -> within k'.
Proof. intros k b k' H W. unfold room in H. destruct (_ || _); [eapply grow_within; eauto|inversion H; subst; auto]. Qed.

Lemma push_within : forall k q k', push k q = Ok k' -> within k -> within k'.
Proof.
  intros k q k' H (A & B & C & D). unfold push in H. cbv zeta in H. destruct (Nat.ltb_spec (length (ks_st k)) (ks_scap k)); cbn [andb] in H; [|discriminate].
  destruct (_ <? _); inversion H; subst. repeat split; auto. cbn [ks_st length]. lia.
Qed.

Lemma pop_within : forall k n, within k -> within (mkYstack (skipn n (ks_st k)) (ks_size k) (ks_scap k) (ks_lcap k) (ks_mem k)).
Proof. intros k n (A & B & C & D). repeat split; auto. cbn [ks_st]. rewrite skipn_length. lia. Qed.

Lemma yyreduce_within : forall Y lex c n x, within (y_stk c) -> yyreduce Y lex c n = Ok x -> match x with YNext c' | YEnd _ c' => within (y_stk c') end.
Proof.
  intros Y lex c n x W H. unfold yyreduce in H. apply bind_Ok in H as (m & _ & H). destruct (_ <=? m); [discriminate|]. cbv zeta in H.
  pose proof (pop_within _ m W) as W'.
  apply bind_Ok in H as (a & _ & H). destruct (_ && _).
  - apply bind_Ok in H as (k & HP & H). pose proof (push_within _ _ _ HP W') as W2.
    assert (R : forall c0, y_stk (read lex c0) = y_stk c0) by (intros c0; unfold read; destruct (_ <? _)%Z; reflexivity).
    destruct (_ =? 0)%Z; inversion H; subst; rewrite R; exact W2.
  - apply bind_Ok in H as (a' & _ & H). apply bind_Ok in H as (ix & _ & H). apply bind_Ok in H as (o & _ & H). apply bind_Ok in H as (q & _ & H).
    destruct (room _) as [ok k] eqn:RM. pose proof (room_within _ _ _ RM W') as W2. destruct ok; [apply bind_Ok in H as (k' & HP & H)|]; inversion H; subst; cbn [y_stk]; auto.
    eapply push_within; eauto.
Qed.

Lemma recover_within : forall Y n c x, within (y_stk c) -> recover Y n c = Ok x -> match x with YNext c' | YEnd _ c' => within (y_stk c') end.
Proof.
  intros Y. induction n as [|n IH]; intros c x W H; cbn [recover] in H; apply bind_Ok in H as (ix & _ & H); apply bind_Ok in H as (o & _ & H); destruct o as [t|].
  1,3: destruct (room _) as [ok k] eqn:RM; pose proof (room_within _ _ _ RM W) as W2; destruct ok; [|inversion H; subst; exact W2]; apply bind_Ok in H as (q & _ & H); apply bind_Ok in H as (k' & HP & H);
    inversion H; subst; cbn [y_stk]; eapply push_within; eauto.
  - destruct (_ <=? 1); inversion H; subst; auto.
  - destruct (_ <=? 1); [inversion H; subst; auto|]. eapply IH; [|exact H]. exact (pop_within _ 1 W).
Qed.

Lemma yyloop_within : forall Y lex c x, within (y_stk c) -> yyloop Y lex c = Ok x -> match x with YNext c' | YEnd _ c' => within (y_stk c') end.
Proof.
  intros Y lex c x W H. assert (R : y_stk (read lex c) = y_stk c) by (unfold read; destruct (_ <? _)%Z; reflexivity).
  assert (W' : within (y_stk (read lex c))) by (rewrite R; exact W).
  unfold yyloop in H. cbv zeta in H. apply bind_Ok in H as (d & _ & H). destruct (negb (d =? 0)); [eapply yyreduce_within; [|exact H]; exact W|].
  apply bind_Ok in H as (ix & _ & H). apply bind_Ok in H as (o & _ & H). destruct o as [t|].
  - destruct (room _) as [ok k] eqn:RM. pose proof (room_within _ _ _ RM W') as W2. destruct ok; [|inversion H; subst; exact W2]. apply bind_Ok in H as (q & _ & H). apply bind_Ok in H as (k' & HP & H).
    inversion H; subst. cbn [y_stk]. eapply push_within; eauto.
  - apply bind_Ok in H as (ix2 & _ & H). apply bind_Ok in H as (o & _ & H). destruct o as [t|].
    + apply bind_Ok in H as (n & _ & H). eapply yyreduce_within; [|exact H]; exact W'.
    + unfold yyerror_part in H. cbv zeta in H. destruct (_ <? 3); [eapply recover_within; [|exact H]; exact W'|]. destruct (_ =? 0)%Z; inversion H; subst; exact W'.
Qed.

Lemma yyrun_within : forall Y lex fuel c e c', within (y_stk c) -> yyrun Y lex fuel c = Ok (e, c') -> within (y_stk c').
Proof.
  intros Y lex. induction fuel as [|f IH]; intros c e c' W H; cbn [yyrun] in H; [discriminate|]. apply bind_Ok in H as (x & HX & H).
  pose proof (yyloop_within _ _ _ _ W HX) as W2. destruct x as [c2|e2 c2]; [eapply IH; eauto|inversion H; subst; exact W2].
Qed.

(** The stacks of the parser never have more than YYMAXDEPTH entries, whatever the
    tables and the input are, in any number of calls. *)
Theorem C49_limit : forall Y lex fuel k e c, within k -> yyparse Y lex fuel k = Ok (e, c) -> within (y_stk c).
Proof.
  intros Y lex fuel k e c W H. unfold yyparse in H. destruct (if ks_scap k =? 0 then yygrowstack k else (true, k)) as [ok k1] eqn:EG.
  assert (W1 : within k1) by (destruct (ks_scap k =? 0); [eapply grow_within; eauto|inversion EG; subst; auto]). destruct ok.
  - destruct (ks_scap k1 =? 0); [discriminate|]. eapply yyrun_within; [|exact H]. destruct W1 as (A & B & C & D). pose proof init_max. repeat split; auto. cbn [y_stk ks_st length]. lia.
  - inversion H; subst. exact W1.
Qed.
Print Assumptions C49_limit.

(** ** Examples *)
Fixpoint steps (n : nat) (Y : ytabs) (lex : nat -> Z) (l : list ycfg) : list ycfg :=
  match n, l with
  | S n, c :: _ => match yyloop Y lex c with Ok (YNext c') => steps n Y lex (c' :: l) | _ => l end
  | _, _ => l
  end.
Lemma steps_trace : forall Y lex n l, trace Y lex l -> trace Y lex (steps n Y lex l).
Proof.
  intros Y lex. induction n as [|n IH]; intros l T; cbn [steps]; auto. destruct l as [|c l]; auto. destruct (yyloop Y lex c) as [[c'|]| |] eqn:E; auto.
  apply IH. apply tr_step; auto.
Qed.
Definition start48 : ycfg := mkYcfg (mkYstack [0] 200 200 200 []) (-1)%Z 0 0 0.

(** [id ; ; id id ; id ; id id ;] for list : | list 'id' ';' | list error ';'.  The third
    token is an error, reported.  The parser is stuck again at the fifth, after two
    tokens: not reported.  Then three are shifted, and the last but one is reported.
    Twice the token at hand is dropped. *)
Definition in58 : nat -> Z := input [257; 59; 59; 257; 257; 59; 257; 59; 257; 257; 59]%Z.
Definition tr58 : list ycfg := Eval vm_compute in steps 60 Y48 in58 [start48].
Example C58_hypotheses : trace Y48 in58 tr58 /\ length tr58 = 20 /\
  map (fun c => (y_pos c, y_nerrs c, stuck Y48 in58 c)) (rev tr58) =
    [(0, 0, false); (1, 0, false); (1, 0, false); (2, 0, false); (3, 0, true); (3, 1, false); (3, 1, false); (4, 1, false); (4, 1, true); (5, 1, true);
     (5, 1, false); (6, 1, false); (7, 1, false); (7, 1, false); (8, 1, false); (9, 1, false); (9, 1, true); (10, 2, true); (10, 2, false); (11, 2, false)] /\
  quiet Y48 in58 tr58 = Some 1 /\ errors Y48 in58 tr58 = 2 /\
  match yyparse Y48 in58 60 (fresh []) with Ok (YAccept, c) => y_nerrs c = 2 /\ within (fresh []) | _ => False end /\
  match yyparse Y39 (input [257; 257]%Z) 50 (fresh []) with Ok (YAbort, c) => y_nerrs c = 1 | _ => False end.
Proof.
  split; [exact (steps_trace Y48 in58 60 [start48] (tr_start Y48 in58 0 200 200 200 []))|]. do 4 (split; [vm_compute; reflexivity|]). split; [|vm_compute; reflexivity].
  assert (W : within (fresh [])) by (repeat split; apply Nat.le_0_l).
  assert (E : match yyparse Y48 in58 60 (fresh []) with Ok (YAccept, c) => y_nerrs c =? 2 | _ => false end = true) by (vm_compute; reflexivity).
  destruct (yyparse Y48 in58 60 (fresh [])) as [[[] c]| |]; try discriminate. apply Nat.eqb_eq in E. auto.
Qed.
