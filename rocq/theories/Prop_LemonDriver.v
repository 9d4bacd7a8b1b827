(** C16, C17, C18: the stack, the token values and the error reports of the
    driver lempar.c, for every table. *)
From Coq Require Import List ZArith Bool Lia.
Import ListNotations.
From Verif Require Import Base LemonReportModel LemonParModel LemonParProof.
Local Open Scope res_scope.
Local Open Scope Z_scope.

(** * C16: the stack stays within its capacity *)

(** Growing the stack makes it larger. *)
Definition grow_ok (grow : Z -> option Z) : Prop := forall n m, grow n = Some m -> n < m.

(** The stack holds the bottom entry and fits, and nothing was written outside. *)
Definition within (p : parser) : Prop :=
  1 <= lenz (p_stack p) <= p_cap p /\ ~ In EvOob (p_log p).

Lemma within_ne : forall p, within p -> p_stack p <> [].
Proof. intros p (H & _) E. rewrite E in H. cbn in H. lia. Qed.

Lemma destroys_oob : forall l, ~ In EvOob (destroys l).
Proof.
  intros l I. unfold destroys in I. apply in_rev in I. apply in_map_iff in I. destruct I as (e & E & _). discriminate.
Qed.

Lemma within_overflow : forall p p', within p -> yyStackOverflow p = Ok p' -> within p'.
Proof.
  intros p p' W H. apply overflow_ok in H; [|now apply within_ne]. destruct H as (ab & b & E & ->).
  destruct W as (B & O). split; cbn [p_stack p_cap p_log].
  - rewrite E in B. unfold lenz in *. rewrite app_length in B. cbn in *. lia.
  - intros [D|I]; [discriminate|]. apply in_app_or in I. destruct I as [I|I]; [now apply destroys_oob in I|auto].
Qed.

Lemma within_failed : forall p p', within p -> yy_parse_failed p = Ok p' -> within p'.
Proof.
  intros p p' W H. apply failed_ok in H; [|now apply within_ne]. destruct H as (ab & b & E & ->).
  destruct W as (B & O). split; cbn [p_stack p_cap p_log].
  - rewrite E in B. unfold lenz in *. rewrite app_length in B. cbn in *. lia.
  - intros [D|I]; [discriminate|]. apply in_app_or in I. destruct I as [I|I]; [now apply destroys_oob in I|auto].
Qed.

Lemma within_shift : forall c grow p v m t p', grow_ok grow -> within p -> yy_shift c grow p v m t = Ok p' -> within p'.
Proof.
  intros c grow p v m t p' G W H. apply shift_ok in H. cbv zeta in H.
  destruct H as [(cap & HC & ->)|(_ & _ & H)]; [|eapply within_overflow; eauto].
  destruct W as (B & O). assert (L : lenz (p_stack p) < cap).
  { destruct HC as [(L & ->)|(L & E)]; [auto|]. apply G in E. lia. }
  split; cbn [p_stack p_cap p_log]; [rewrite lenz_cons; lia|].
  destruct (Z.leb_spec cap (lenz (p_stack p))); [lia|]. cbn. intros [D|I]; [discriminate|auto].
Qed.

Lemma within_reduce : forall c p r p1 act n, within p -> rdz (g_nrhs c) r = Ok n -> (n = 0 -> tos_idx p < p_cap p - 1) ->
  yy_reduce c p r = Ok (p1, act) -> within p1.
Proof.
  intros c p r p1 act n (B & O) HN HZ H. apply reduce_ok in H.
  destruct H as (k & lhs & below & HK & _ & EB & _ & _ & _ & ->). rewrite HK in HN. assert (EN : n = - Z.of_nat k) by congruence.
  pose proof (nth_error_Some_lt _ _ _ _ EB) as LT.
  assert (L : lenz (skipn k (p_stack p)) < p_cap p).
  { unfold lenz. rewrite skipn_length. unfold tos_idx, lenz in *. lia. }
  split; cbn [p_stack p_cap p_log].
  - rewrite lenz_cons. pose proof (lenz_nonneg _ (skipn k (p_stack p))). lia.
  - destruct (Z.leb_spec (p_cap p) (lenz (skipn k (p_stack p)))); [lia|]. cbn. intros [D|I]; [discriminate|auto].
Qed.

Lemma within_logev : forall p e, within p -> e <> EvOob -> within (logev p e).
Proof. intros p e (B & O) N. split; [auto|]. cbn. intros [D|I]; [congruence|auto]. Qed.

Lemma within_errcnt : forall p n, within p -> within (with_errcnt p n).
Proof. intros p n W. exact W. Qed.

Lemma within_error_pop : forall c f p es a p' a', within p -> error_pop c f p es a = Ok (p', a') -> within p'.
Proof.
  intros c f p es a p' a' W H. apply error_pop_ok in H; [|now apply within_ne]. destruct H as (ab & rest & E & NR & ->).
  destruct W as (B & O). split; cbn [p_stack p_cap p_log].
  - rewrite E in B. unfold lenz in *. rewrite app_length in B. destruct rest; [congruence|]. cbn in *. lia.
  - intros I. apply in_app_or in I. destruct I as [I|I]; [now apply destroys_oob in I|auto].
Qed.

Lemma within_run : forall c grow major minor p hit p', grow_ok grow -> run c grow major minor p hit p' -> within p -> within p'.
Proof.
  intros c grow major minor p hit p' G R. induction R; intros W.
  - apply IHR. eapply within_reduce; eauto.
  - apply IHR. eapply within_reduce with (n := 0) (p := with_cap p cap); eauto.
    + apply G in H3. destruct W as (B & O). split; [cbn; lia|auto].
    + intros _. apply G in H3. destruct W as (B & O). unfold tos_idx in *. cbn [with_cap p_stack p_cap]. lia.
  - eapply within_overflow; eauto.
  - apply within_errcnt. eapply within_shift; eauto.
  - apply within_logev; [|discriminate]. apply within_errcnt. destruct W as (B & O). split; [|auto].
    cbn [with_stack p_stack p_cap]. rewrite H2 in B. unfold lenz in *. cbn in *. lia.
  - apply within_errcnt, within_logev; [|discriminate]. subst p0. destruct (p_errcnt p <? 0); auto. now apply within_logev.
  - apply within_errcnt. eapply within_failed; [|eassumption]. apply within_logev; [|discriminate].
    eapply within_error_pop; [|eassumption]. subst p0. destruct (p_errcnt p <? 0); auto. now apply within_logev.
  - apply IHR. apply within_errcnt. eapply within_shift; [exact G| |eassumption].
    eapply within_error_pop; [|eassumption]. subst p0. destruct (p_errcnt p <? 0); auto. now apply within_logev.
  - apply within_logev; [|discriminate]. apply within_errcnt. subst p0. destruct (p_errcnt p <=? 0); auto. now apply within_logev.
  - apply within_errcnt. eapply within_failed; [|eassumption]. apply within_logev; [|discriminate]. apply within_errcnt.
    subst p0. destruct (p_errcnt p <=? 0); auto. now apply within_logev.
Qed.

(** Whatever the tables and the tokens, no entry is written outside the allocated
    stack. *)
Theorem C16_no_write_outside : forall c grow fuel toks cap p,
  grow_ok grow -> 1 <= cap -> feed c grow fuel (ParseInit cap) toks 1 = Ok p ->
  ~ In EvOob (p_log p) /\ 1 <= Z.of_nat (length (p_stack p)) <= p_cap p.
Proof.
  intros c grow fuel toks cap p G C H.
  assert (W : within p); [|destruct W as (B & O); split; auto].
  assert (W0 : within (ParseInit cap)) by (split; [cbn; lia|cbn; auto]).
  revert H W0. generalize (ParseInit cap) 1%nat. induction toks as [|x toks IH]; intros q id H W0; cbn [feed] in H.
  - inversion H; subst. auto.
  - apply bind_Ok in H. destruct H as (q1 & HP & H). apply (IH _ _ H). eapply within_run; eauto. eapply Parse_run; eauto.
Qed.
Print Assumptions C16_no_write_outside.

(** A push on a full stack that cannot grow changes nothing but this: every entry
    above the bottom is destroyed, top first, and then the overflow callback runs,
    once. *)
Theorem C16_full_stack_overflows : forall c grow p v major minor,
  p_stack p <> [] -> p_cap p <= Z.of_nat (length (p_stack p)) -> grow (p_cap p) = None ->
  exists above b, p_stack p = above ++ [b] /\
  yy_shift c grow p v major minor =
    Ok (mkParser [b] (p_errcnt p) (p_cap p)
         (EvOverflow :: rev (map (fun e => EvDestroy (e_major e) (e_minor e)) above) ++ p_log p)).
Proof.
  intros c grow p v major minor NE L G. destruct (overflow_total p NE) as (p' & H).
  destruct (overflow_ok _ _ H NE) as (ab & b & E & ->). exists ab, b. split; [auto|].
  unfold yy_shift. unfold tos_idx. cbv zeta. replace (lenz (p_stack p) - 1 + 1) with (lenz (p_stack p)) by lia.
  destruct (Z.leb_spec (p_cap p) (lenz (p_stack p))) as [|C]; [|unfold lenz in C; lia]. rewrite G. exact H.
Qed.
Print Assumptions C16_full_stack_overflows.

(** A push when there is room, or when the stack can grow, does not overflow and
    leaves the entries below alone. *)
Theorem C16_room_no_overflow : forall c grow p v major minor p1,
  (Z.of_nat (length (p_stack p)) < p_cap p \/ grow (p_cap p) <> None) ->
  yy_shift c grow p v major minor = Ok p1 ->
  tl (p_stack p1) = p_stack p /\ (In EvOverflow (p_log p1) -> In EvOverflow (p_log p)).
Proof.
  intros c grow p v major minor p1 R H. apply shift_ok in H. cbv zeta in H.
  destruct H as [(cap & HC & ->)|(L & G & _)].
  - cbn [p_stack p_log tl]. split; [auto|]. intros [D|I]; [discriminate|].
    apply in_app_or in I. destruct I as [I|I]; [|auto]. destruct (cap <=? lenz (p_stack p)); [destruct I as [I|[]]; discriminate|destruct I].
  - destruct R as [R|R]; [unfold lenz in L; lia|congruence].
Qed.
Print Assumptions C16_room_no_overflow.

(** * C17: token values *)

(** The token values in a list of symbol codes and values; the values of error
    symbols are not counted, they are copies. *)
Definition held1 (es : option Z) (x : Z * tree) : list nat :=
  match snd x with
  | Tok id => match es with Some s => if fst x =? s then [] else [id] | None => [id] end
  | Nod _ _ => []
  end.
Definition consumed (es : option Z) (ev : event) : list nat :=
  match ev with
  | EvReduce _ rhs => flat_map (held1 es) rhs
  | EvDestroy m v => held1 es (m, v)
  | _ => []
  end.

(** Conditions every generated table meets (proved in Prop_LemonSound.v): the
    codes are laid out in order, looking up a token finds neither accept nor the
    number of a removed state, and neither does looking up the error symbol. *)
Record sane (c : gen) : Prop := {
  sane_order : 0 <= YY_MAX_SHIFT (g_tab c) /\ YY_MAX_SHIFT (g_tab c) < YY_MIN_SHIFTREDUCE (g_tab c) /\
    YY_MIN_SHIFTREDUCE (g_tab c) <= YY_MAX_SHIFTREDUCE (g_tab c) + 1 /\
    YY_MAX_SHIFTREDUCE (g_tab c) < YY_ACCEPT_ACTION (g_tab c) /\ YY_ACCEPT_ACTION (g_tab c) < YY_MIN_REDUCE (g_tab c);
  sane_lookup : forall la st v, 0 <= la -> st <= YY_MAX_SHIFT (g_tab c) -> yy_find_shift_action c la st = Ok v ->
    v <> YY_ACCEPT_ACTION (g_tab c) /\ (YY_MAX_SHIFT (g_tab c) < v -> YY_MIN_SHIFTREDUCE (g_tab c) <= v);
  sane_error : forall es st v, g_errsym c = Some es -> yy_find_reduce_action c st es = Ok v ->
    YY_MAX_SHIFT (g_tab c) < v -> YY_MIN_SHIFTREDUCE (g_tab c) <= v
}.

Section C17.
Variable c : gen.
Variable grow : Z -> option Z.
Let es := g_errsym c.

Definition view (e : entry) : Z * tree := (e_major e, e_minor e).
Definition held (l : list entry) : list nat := flat_map (fun e => held1 es (view e)) l.
Definition cnt (p : parser) (id : nat) : nat :=
  (count_occ Nat.eq_dec (flat_map (consumed es) (p_log p)) id + count_occ Nat.eq_dec (held (p_stack p)) id)%nat.

(** No token value sits in an entry whose state is the accept code, and no state
    on the stack is a shift-reduce code. *)
Definition noacc (p : parser) : Prop :=
  p_stack p <> [] /\ forall e, In e (p_stack p) ->
    (e_state e = YY_ACCEPT_ACTION (g_tab c) -> held1 es (view e) = []) /\
    (e_state e <= YY_MAX_SHIFT (g_tab c) \/ YY_MAX_SHIFTREDUCE (g_tab c) < e_state e).

Lemma held_app : forall a b, held (a ++ b) = held a ++ held b.
Proof. intros. unfold held. apply flat_map_app. Qed.

Lemma held_count_rev : forall l id, count_occ Nat.eq_dec (held (rev l)) id = count_occ Nat.eq_dec (held l) id.
Proof.
  induction l as [|e l IH]; intros id; [auto|]. cbn [rev]. rewrite held_app, count_occ_app, IH.
  unfold held at 2. cbn [flat_map]. rewrite app_nil_r. unfold held at 2. cbn [flat_map]. rewrite count_occ_app. fold (held l). lia.
Qed.

Lemma consumed_destroys : forall l id, count_occ Nat.eq_dec (flat_map (consumed es) (destroys l)) id = count_occ Nat.eq_dec (held l) id.
Proof.
  induction l as [|e l IH]; intros id; [auto|]. unfold destroys in *. cbn [map rev]. rewrite flat_map_app, count_occ_app, IH.
  cbn [flat_map]. rewrite app_nil_r. unfold held at 2. cbn [flat_map]. rewrite count_occ_app. fold (held l). cbn [consumed].
  change (held1 es (view e)) with (held1 es (e_major e, e_minor e)). lia.
Qed.

Lemma flat_view : forall l, flat_map (held1 es) (map view l) = held l.
Proof. intros l. unfold held. induction l as [|e l IH]; [auto|]. cbn [map flat_map]. now rewrite IH. Qed.

Lemma cnt_popped : forall ab rest ec cap lg ec' cap' lg' id, flat_map (consumed es) lg' = flat_map (consumed es) lg ->
  cnt (mkParser rest ec' cap' (destroys ab ++ lg')) id = cnt (mkParser (ab ++ rest) ec cap lg) id.
Proof.
  intros ab rest ec cap lg ec' cap' lg' id E. unfold cnt. cbn [p_log p_stack].
  rewrite held_app, flat_map_app, !count_occ_app, consumed_destroys, E. lia.
Qed.

Lemma cnt_reduce : forall p r p1 act id, yy_reduce c p r = Ok (p1, act) -> cnt p1 id = cnt p id.
Proof.
  intros p r p1 act id H. apply reduce_ok in H. destruct H as (n & lhs & below & _ & _ & EB & _ & _ & _ & ->).
  unfold cnt. cbn [p_log p_stack]. cbn [flat_map consumed]. rewrite flat_map_app, !count_occ_app.
  replace (flat_map (consumed es) (if p_cap p <=? lenz (skipn n (p_stack p)) then [EvOob] else [])) with (@nil nat)
    by (destruct (p_cap p <=? lenz (skipn n (p_stack p))); auto).
  change (fun e : entry => (e_major e, e_minor e)) with view. rewrite flat_view, held_count_rev.
  change (held (mkEntry act lhs (Nod r (map e_minor (rev (firstn n (p_stack p))))) :: skipn n (p_stack p))) with (held (skipn n (p_stack p))).
  assert (E : held (p_stack p) = held (firstn n (p_stack p)) ++ held (skipn n (p_stack p))) by (rewrite <- held_app, firstn_skipn; auto).
  rewrite E, count_occ_app. cbn [count_occ]. lia.
Qed.

Lemma noacc_reduce : forall p r p1 act, yy_reduce c p r = Ok (p1, act) -> noacc p -> noacc p1.
Proof.
  intros p r p1 act H (NE & NA). apply reduce_ok in H. destruct H as (n & lhs & below & _ & _ & EB & _ & G & _ & ->).
  split; [discriminate|]. cbn [p_stack]. intros e [<-|I].
  - split; [intros _; reflexivity|]. cbn [e_state]. lia.
  - apply NA. rewrite <- (firstn_skipn n (p_stack p)). apply in_or_app. auto.
Qed.

Definition one (v : Z) (m : tree) (id : nat) : nat := count_occ Nat.eq_dec (held1 es (v, m)) id.

Lemma cnt_shift : forall p v major minor p1 id, p_stack p <> [] -> yy_shift c grow p v major minor = Ok p1 ->
  cnt p1 id = (cnt p id + one major minor id)%nat \/ (cnt p1 id = cnt p id /\ In EvOverflow (p_log p1)).
Proof.
  intros p v major minor p1 id NE H. apply shift_ok in H. cbv zeta in H.
  destruct H as [(cap & HC & ->)|(_ & _ & H)].
  - left. unfold cnt, one. cbn [p_log p_stack]. cbn [flat_map consumed app]. rewrite flat_map_app, count_occ_app.
    unfold held at 1. cbn [flat_map]. rewrite count_occ_app. fold (held (p_stack p)). unfold view at 1. cbn [e_major e_minor].
    destruct (cap <=? lenz (p_stack p)); cbn [flat_map consumed app count_occ]; lia.
  - right. destruct (overflow_ok _ _ H NE) as (ab & b & E & ->). split; [|left; auto].
    destruct p as [s ec cp lg]. cbn [p_stack p_errcnt p_cap p_log] in *. subst s.
    erewrite <- (cnt_popped ab [b] ec cp lg ec cp lg id eq_refl). unfold cnt. cbn [p_log p_stack flat_map consumed app]. auto.
Qed.

Lemma noacc_shift : forall p v major minor p1, sane c -> v <= YY_MAX_SHIFTREDUCE (g_tab c) ->
  (YY_MAX_SHIFT (g_tab c) < v -> YY_MIN_SHIFTREDUCE (g_tab c) <= v) ->
  yy_shift c grow p v major minor = Ok p1 -> noacc p -> noacc p1.
Proof.
  intros p v major minor p1 SN LE GAP H (NE & NA). apply shift_ok in H. cbv zeta in H.
  destruct H as [(cap & HC & ->)|(_ & _ & H)].
  - split; [discriminate|]. cbn [p_stack]. intros e [<-|I]; [|auto]. cbn [e_state].
    pose proof (sane_order c SN). destruct (Z.ltb_spec (YY_MAX_SHIFT (g_tab c)) v); split; try lia; intros E; exfalso; lia.
  - destruct (overflow_ok _ _ H NE) as (ab & b & E & ->). split; [discriminate|]. cbn [p_stack]. intros e [<-|[]]. apply NA.
    rewrite E. apply in_or_app. right. now left.
Qed.

Lemma one_es : forall v m id, es = Some v -> one v m id = 0%nat.
Proof. intros v m id E. unfold one, held1. rewrite E. cbn [fst snd]. destruct m; [rewrite Z.eqb_refl|]; auto. Qed.

Lemma cnt_logev : forall p ev id, cnt (logev p ev) id = (count_occ Nat.eq_dec (consumed es ev) id + cnt p id)%nat.
Proof. intros p ev id. unfold cnt, logev. cbn [p_log p_stack flat_map]. rewrite count_occ_app. lia. Qed.

Lemma noacc_popped : forall p ab rest ec cap lg, noacc p -> p_stack p = ab ++ rest -> rest <> [] -> noacc (mkParser rest ec cap lg).
Proof.
  intros p ab rest ec cap lg (NE & NA) E NR. split; [auto|]. cbn [p_stack]. intros e I. apply NA. rewrite E. apply in_or_app. auto.
Qed.

Lemma cnt_failed : forall p p' id, yy_parse_failed p = Ok p' -> p_stack p <> [] -> cnt p' id = cnt p id.
Proof.
  intros p p' id H NE. apply failed_ok in H; [|auto]. destruct H as (ab & b & E & ->). destruct p as [s ec cp lg].
  cbn [p_stack p_errcnt p_cap p_log] in *. subst s.
  erewrite <- (cnt_popped ab [b] ec cp lg ec cp lg id eq_refl). unfold cnt. cbn [p_log p_stack flat_map consumed app]. auto.
Qed.

Lemma cnt_error_pop : forall f p s a p' a' id, error_pop c f p s a = Ok (p', a') -> p_stack p <> [] -> cnt p' id = cnt p id.
Proof.
  intros f p s a p' a' id H NE. apply error_pop_ok in H; [|auto]. destruct H as (ab & rest & E & NR & ->). destruct p as [st ec cp lg].
  cbn [p_stack p_errcnt p_cap p_log] in *. subst st. now apply cnt_popped.
Qed.


Lemma error_pop_gap : forall f p s a p' a', error_pop c f p s a = Ok (p', a') -> 0 < tos_idx p' ->
  a' <= YY_MAX_SHIFTREDUCE (g_tab c) /\ exists e r, p_stack p' = e :: r /\ yy_find_reduce_action c (e_state e) s = Ok a'.
Proof.
  induction f as [|f IH]; intros p s a p' a' H T; cbn [error_pop] in H;
    destruct (Z.leb_spec (tos_idx p) 0) as [L|L]; try discriminate; try (assert (p' = p) by congruence; subst p'; lia).
  apply bind_Ok in H. destruct H as (e & HT & H). apply bind_Ok in H. destruct H as (a1 & HA & H).
  destruct (Z.leb_spec a1 (YY_MAX_SHIFTREDUCE (g_tab c))) as [L1|L1].
  - assert (E1 : p' = p) by congruence. assert (E2 : a' = a1) by congruence. subst p' a'. split; [auto|].
    unfold top in HT. destruct (p_stack p) as [|e0 r]; [discriminate|]. inversion HT; subst e0. eauto.
  - apply bind_Ok in H. destruct H as (p1 & HP & H). eauto.
Qed.

Lemma shift_log : forall p v major minor p1, p_stack p <> [] -> yy_shift c grow p v major minor = Ok p1 -> exists new, p_log p1 = new ++ p_log p.
Proof.
  intros p v major minor p1 NE H. apply shift_ok in H. cbv zeta in H.
  destruct H as [(cap & HC & ->)|(_ & _ & H)]; cbn [p_log].
  - rewrite app_comm_cons. eauto.
  - destruct (overflow_ok _ _ H NE) as (ab & b & E & ->). cbn [p_log]. rewrite app_comm_cons. eauto.
Qed.

Lemma noacc_logev : forall p e, noacc p -> noacc (logev p e).
Proof. intros p e H. exact H. Qed.
Lemma noacc_errcnt : forall p n, noacc p -> noacc (with_errcnt p n).
Proof. intros p e H. exact H. Qed.

Lemma one_destroy : forall major minor id, count_occ Nat.eq_dec (consumed es (EvDestroy major minor)) id = one major minor id.
Proof. auto. Qed.

Lemma run_count : forall major minor p hit p', sane c -> 0 <= major -> run c grow major minor p hit p' -> noacc p ->
  noacc p' /\ (exists new, p_log p' = new ++ p_log p) /\ forall id,
    (cnt p' id <= cnt p id + one major minor id)%nat /\
    (~ In EvOverflow (p_log p') ->
       cnt p' id = (cnt p id + one major minor id)%nat \/ (cnt p' id = cnt p id /\ exists l, p_log p' = EvAccept :: l)).
Proof.
  intros major minor p hit p' SN MP R. induction R; intros NA.
  - destruct IHR as (A & (new & B) & C); [eapply noacc_reduce; eauto|]. split; [auto|]. split.
    + apply reduce_ok in H3. destruct H3 as (k & lhs & below & _ & _ & _ & _ & _ & _ & ->). cbn [p_log] in B. rewrite B.
      rewrite app_comm_cons, app_assoc. eauto.
    + intros id. pose proof (cnt_reduce _ _ _ _ id H3) as E. rewrite <- E. apply C.
  - destruct IHR as (A & (new & B) & C); [eapply noacc_reduce; eauto|]. split; [auto|]. split.
    + apply reduce_ok in H4. destruct H4 as (k & lhs & below & _ & _ & _ & _ & _ & _ & ->). cbn [p_log with_cap] in B. rewrite B.
      rewrite app_comm_cons, app_assoc. eauto.
    + intros id. pose proof (cnt_reduce _ _ _ _ id H4) as E. change (cnt (with_cap p cap) id) with (cnt p id) in E. rewrite <- E. apply C.
  - pose proof NA as (NE & _). destruct (overflow_ok _ _ H4 NE) as (ab & b & E & ->).
    split; [eapply noacc_popped; [exact NA|eauto|discriminate]|]. cbn [p_log]. split; [exists (EvOverflow :: destroys ab); auto|].
    intros id. split; [|intros N; elim N; now left]. destruct p as [s ec cp lg]. cbn [p_stack p_errcnt p_cap p_log] in *. subst s.
    rewrite <- (cnt_popped ab [b] ec cp lg ec cp lg id eq_refl). unfold cnt. cbn [p_log p_stack flat_map consumed app]. lia.
  - assert (NA2 : noacc p1).
    { eapply noacc_shift; [exact SN|eassumption| |eassumption|exact NA]. destruct H as (e & r & EP & HL).
      destruct (Z.le_gt_cases (e_state e) (YY_MAX_SHIFT (g_tab c))) as [L|L].
      - apply (sane_lookup c SN _ _ _ MP L HL).
      - unfold yy_find_shift_action in HL. destruct (Z.ltb_spec (YY_MAX_SHIFT (g_tab c)) (e_state e)); [|lia].
        assert (v = e_state e) by congruence. subst v. intros _.
        destruct NA as (_ & NA). destruct (NA e) as (_ & [N|N]); [rewrite EP; now left|lia|]. pose proof (sane_order c SN). lia. }
    split; [exact NA2|]. pose proof NA as (NE & _). split; [exact (shift_log _ _ _ _ _ NE H2)|]. intros id. change (cnt (with_errcnt p1 (p_errcnt p1 - 1)) id) with (cnt p1 id).
    destruct (cnt_shift _ _ _ _ _ id NE H2) as [E|(E & O)]; rewrite E; [split; [lia|auto]|]. split; [lia|]. intros N. elim N. exact O.
  - assert (NB : noacc (with_stack p [b])).
    { destruct NA as (NE & NA). split; [discriminate|]. cbn. intros x [<-|[]]. apply NA. rewrite H2. right. now left. }
    split; [exact NB|]. split; [exists [EvAccept]; auto|]. intros id.
    assert (E : cnt (logev (with_errcnt (with_stack p [b]) (-1)) EvAccept) id = cnt p id).
    { rewrite cnt_logev. cbn [consumed count_occ]. unfold cnt. cbn [with_errcnt with_stack p_log p_stack]. rewrite H2.
      unfold held. cbn [flat_map]. rewrite app_nil_r.
      assert (Z0 : held1 es (view e) = []).
      { destruct NA as (_ & NA). destruct H as (e1 & r1 & EP & HL). rewrite H2 in EP. inversion EP; subst e1 r1.
        destruct (NA e) as (N1 & N2); [rewrite H2; now left|].
        destruct (Z.le_gt_cases (e_state e) (YY_MAX_SHIFT (g_tab c))) as [L|L].
        - destruct (sane_lookup c SN _ _ _ MP L HL) as (X & _). now elim X.
        - unfold yy_find_shift_action in HL. destruct (Z.ltb_spec (YY_MAX_SHIFT (g_tab c)) (e_state e)); [|lia].
          apply N1. congruence. }
      rewrite Z0. cbn. lia. }
    rewrite E. split; [lia|]. intros _. right. split; [auto|]. cbn. eauto.
  - assert (E0 : forall id, cnt p0 id = cnt p id) by (intros id; subst p0; destruct (p_errcnt p <? 0); auto; rewrite cnt_logev; auto).
    assert (S0 : p_stack p0 = p_stack p) by (subst p0; destruct (p_errcnt p <? 0); auto).
    split. { destruct NA as (NE & NA). split; cbn; rewrite S0; auto. }
    split. { cbn. subst p0. destruct (p_errcnt p <? 0); cbn; [exists [EvDestroy major minor; EvSyntaxError major minor]|exists [EvDestroy major minor]]; auto. }
    intros id. match goal with |- context [cnt ?q id] => assert (E : cnt q id = (cnt p id + one major minor id)%nat) end.
    { change (cnt (logev p0 (EvDestroy major minor)) id = (cnt p id + one major minor id)%nat). rewrite cnt_logev, E0, one_destroy. lia. }
    rewrite E. split; [lia|auto].
  - assert (E0 : forall id, cnt p0 id = cnt p id) by (intros id; subst p0; destruct (p_errcnt p <? 0); auto; rewrite cnt_logev; auto).
    assert (S0 : p_stack p0 = p_stack p) by (subst p0; destruct (p_errcnt p <? 0); auto).
    assert (L0 : exists new, p_log p0 = new ++ p_log p) by (subst p0; destruct (p_errcnt p <? 0); [exists [EvSyntaxError major minor]|exists []]; auto).
    pose proof NA as (NE & _). assert (NE0 : p_stack p0 <> []) by now rewrite S0.
    pose proof (fun id => cnt_error_pop _ _ _ _ _ _ id H7 NE0) as E1.
    destruct (error_pop_ok _ _ _ _ _ _ _ H7 NE0) as (ab & rest & E & NR & EP1).
    assert (NE1 : p_stack (logev p1 (EvDestroy major minor)) <> []) by (rewrite EP1; auto).
    pose proof (fun id => cnt_failed _ _ id H9 NE1) as E2.
    destruct (failed_ok _ _ H9 NE1) as (ab2 & b & EE & EP2). rewrite EP1 in EE. cbn in EE.
    split. { rewrite EP2. eapply noacc_popped; [exact NA|rewrite <- S0, E, EE, app_assoc; reflexivity|discriminate]. }
    split. { rewrite EP2, EP1. cbn. destruct L0 as (new & ->). exists (EvFail :: destroys ab2 ++ EvDestroy major minor :: destroys ab ++ new).
             cbn. rewrite <- !app_assoc. cbn. rewrite <- !app_assoc. auto. }
    intros id. match goal with |- context [cnt ?q id] => assert (EC : cnt q id = (cnt p id + one major minor id)%nat) end.
    { change (cnt p2 id = (cnt p id + one major minor id)%nat). rewrite E2, cnt_logev, E1, E0, one_destroy. lia. }
    rewrite EC. split; [lia|auto].
  - assert (E0 : forall id, cnt p0 id = cnt p id) by (intros id; subst p0; destruct (p_errcnt p <? 0); auto; rewrite cnt_logev; auto).
    assert (S0 : p_stack p0 = p_stack p) by (subst p0; destruct (p_errcnt p <? 0); auto).
    assert (L0 : exists new, p_log p0 = new ++ p_log p) by (subst p0; destruct (p_errcnt p <? 0); [exists [EvSyntaxError major minor]|exists []]; auto).
    pose proof NA as (NE & _). assert (NE0 : p_stack p0 <> []) by now rewrite S0.
    pose proof (fun id => cnt_error_pop _ _ _ _ _ _ id H7 NE0) as E1.
    destruct (error_pop_gap _ _ _ _ _ _ H7 H8) as (LE & e1 & r1 & EQ & FR).
    destruct (error_pop_ok _ _ _ _ _ _ _ H7 NE0) as (ab & rest & E & NR & EP1).
    assert (NA1 : noacc p1) by (rewrite EP1; eapply noacc_popped; [exact NA|rewrite <- S0; eauto|auto]).
    assert (NA2 : noacc p2).
    { eapply noacc_shift; [exact SN|exact LE| |eassumption|exact NA1]. apply (sane_error c SN es0 _ _ H2 FR). }
    destruct IHR as (A & (new & B) & C); [exact NA2|]. split; [auto|].
    assert (NE1 : p_stack p1 <> []) by (rewrite EP1; auto). split.
    { destruct (shift_log _ _ _ _ _ NE1 H10) as (n2 & L2). change (p_log (with_errcnt p2 3)) with (p_log p2) in B. rewrite B, L2, EP1.
      cbn. destruct L0 as (n0 & ->). exists (new ++ n2 ++ destroys ab ++ n0). rewrite <- !app_assoc. auto. }
    intros id. assert (ES : es = Some es0) by exact H2.
    assert (E2 : cnt p2 id = cnt p id).
    { destruct (cnt_shift _ _ _ _ _ id NE1 H10) as [X|(X & _)]; rewrite X, E1, E0, ?(one_es es0 minor id ES); lia. }
    specialize (C id). change (cnt (with_errcnt p2 3) id) with (cnt p2 id) in C. rewrite E2 in C. exact C.
  - assert (E0 : forall id, cnt p0 id = cnt p id) by (intros id; subst p0; destruct (p_errcnt p <=? 0); auto; rewrite cnt_logev; auto).
    assert (S0 : p_stack p0 = p_stack p) by (subst p0; destruct (p_errcnt p <=? 0); auto).
    split. { destruct NA as (NE & NA). split; cbn; rewrite S0; auto. }
    split. { cbn. subst p0. destruct (p_errcnt p <=? 0); cbn; [exists [EvDestroy major minor; EvSyntaxError major minor]|exists [EvDestroy major minor]]; auto. }
    intros id. match goal with |- context [cnt ?q id] => assert (E : cnt q id = (cnt p id + one major minor id)%nat) end.
    { rewrite cnt_logev. change (cnt (with_errcnt p0 3) id) with (cnt p0 id). rewrite E0, one_destroy. lia. }
    rewrite E. split; [lia|auto].
  - assert (E0 : forall id, cnt p0 id = cnt p id) by (intros id; subst p0; destruct (p_errcnt p <=? 0); auto; rewrite cnt_logev; auto).
    assert (S0 : p_stack p0 = p_stack p) by (subst p0; destruct (p_errcnt p <=? 0); auto).
    assert (L0 : exists new, p_log p0 = new ++ p_log p) by (subst p0; destruct (p_errcnt p <=? 0); [exists [EvSyntaxError major minor]|exists []]; auto).
    pose proof NA as (NE & _).
    assert (NE1 : p_stack (logev (with_errcnt p0 3) (EvDestroy major minor)) <> []) by (cbn; now rewrite S0).
    pose proof (fun id => cnt_failed _ _ id H5 NE1) as E2.
    destruct (failed_ok _ _ H5 NE1) as (ab2 & b & EE & EP2). cbn in EE. rewrite S0 in EE.
    split. { rewrite EP2. eapply noacc_popped; [exact NA|exact EE|discriminate]. }
    split. { rewrite EP2. cbn. destruct L0 as (new & ->). exists (EvFail :: destroys ab2 ++ EvDestroy major minor :: new).
             cbn. rewrite <- !app_assoc. auto. }
    intros id. match goal with |- context [cnt ?q id] => assert (EC : cnt q id = (cnt p id + one major minor id)%nat) end.
    { change (cnt p2 id = (cnt p id + one major minor id)%nat). rewrite E2, cnt_logev.
      change (cnt (with_errcnt p0 3) id) with (cnt p0 id). rewrite E0, one_destroy. lia. }
    rewrite EC. split; [lia|auto].
Qed.

End C17.

Lemma init_noacc : forall c cap, sane c -> noacc c (ParseInit cap).
Proof.
  intros c cap SN. split; [discriminate|]. cbn. intros e [<-|[]]. cbn. pose proof (sane_order c SN). split; [intros E; lia|lia].
Qed.

Lemma feed_count : forall c grow fuel toks p p' n, sane c -> noacc c p ->
  Forall (fun m => 0 <= m /\ g_errsym c <> Some m) toks -> feed c grow fuel p toks n = Ok p' ->
  noacc c p' /\ (exists new, p_log p' = new ++ p_log p) /\ forall id,
    (cnt c p' id <= cnt c p id + (if (n <=? id) && (id <? n + length toks) then 1 else 0))%nat /\
    (~ In EvOverflow (p_log p') -> ~ In EvAccept (p_log p') ->
     cnt c p' id = (cnt c p id + (if (n <=? id) && (id <? n + length toks) then 1 else 0))%nat).
Proof.
  intros c grow fuel toks. induction toks as [|m toks IH]; intros p p' n SN NA FM H; cbn [feed] in H.
  - inversion H; subst p'. split; [auto|]. split; [exists []; auto|]. intros id. cbn [length].
    destruct (Nat.leb_spec n id), (Nat.ltb_spec id (n + 0)); cbn [andb]; split; intros; lia.
  - apply bind_Ok in H. destruct H as (p1 & HP & H). apply Parse_run in HP. inversion FM; subst.
    match goal with X : 0 <= m /\ _ |- _ => destruct X as (MP & MNE) end.
    destruct (run_count c grow m (Tok n) p false p1 SN MP HP NA) as (NA1 & (n1 & L1) & C1).
    destruct (IH _ _ _ SN NA1 H3 H) as (NA2 & (n2 & L2) & C2). split; [auto|]. split.
    { rewrite L2, L1, app_assoc. eauto. }
    intros id. specialize (C1 id). specialize (C2 id).
    assert (ONE : one c m (Tok n) id = if (n =? id)%nat then 1%nat else 0%nat).
    { unfold one, held1. cbn [fst snd]. destruct (g_errsym c) as [s|] eqn:ES.
      - destruct (Z.eqb_spec m s); [congruence|]. cbn. destruct (Nat.eq_dec n id), (Nat.eqb_spec n id); auto; lia.
      - cbn. destruct (Nat.eq_dec n id), (Nat.eqb_spec n id); auto; lia. }
    rewrite ONE in C1. destruct C1 as (C1 & C1'). destruct C2 as (C2 & C2'). cbn [length]. split.
    + clear C1' C2'. destruct (Nat.eqb_spec n id), (Nat.leb_spec n id), (Nat.ltb_spec id (n + S (length toks))),
        (Nat.leb_spec (S n) id), (Nat.ltb_spec id (S n + length toks)); cbn [andb] in *; lia.
    + intros NO NAC. destruct C1' as [E|(E & l & EL)].
      * intros I. apply NO. rewrite L2. apply in_or_app. auto.
      * rewrite (C2' NO NAC), E. destruct (Nat.eqb_spec n id), (Nat.leb_spec n id), (Nat.ltb_spec id (n + S (length toks))),
        (Nat.leb_spec (S n) id), (Nat.ltb_spec id (S n + length toks)); cbn [andb] in *; lia.
      * exfalso. apply NAC. rewrite L2, EL. apply in_or_app. right. now left.
Qed.


(** The bottom entry stays. *)
Lemma run_bottom : forall c grow major minor p hit p', run c grow major minor p hit p' ->
  forall b, (exists l, p_stack p = l ++ [b]) -> exists l, p_stack p' = l ++ [b].
Proof.
  assert (UNI : forall (l : list entry) b ab r, l ++ [b] = ab ++ r -> r <> [] -> exists r', r = r' ++ [b]).
  { intros l b ab r E NR. destruct (exists_last NR) as (r' & b' & ->). rewrite app_assoc in E. apply app_inj_tail in E.
    destruct E as (_ & ->). eauto. }
  assert (RED : forall c p r p1 act b, yy_reduce c p r = Ok (p1, act) -> (exists l, p_stack p = l ++ [b]) -> exists l, p_stack p1 = l ++ [b]).
  { intros c p r p1 act b H (l & E). apply reduce_ok in H. destruct H as (n & lhs & below & _ & _ & EB & _ & _ & _ & ->). cbn [p_stack].
    destruct (UNI l b (firstn n (p_stack p)) (skipn n (p_stack p))) as (r' & ->).
    - now rewrite firstn_skipn.
    - intros E2. apply nth_error_Some_lt in EB. pose proof (skipn_length n (p_stack p)) as SL. rewrite E2 in SL. cbn in SL. lia.
    - rewrite app_comm_cons. eauto. }
  assert (NEL : forall p b, (exists l, p_stack p = l ++ [b]) -> p_stack p <> []).
  { intros p b (l & E) N. rewrite N in E. destruct l; discriminate. }
  assert (OV : forall p p1 b, yyStackOverflow p = Ok p1 -> (exists l, p_stack p = l ++ [b]) -> exists l, p_stack p1 = l ++ [b]).
  { intros p p1 b H L. destruct (overflow_ok _ _ H (NEL _ _ L)) as (ab & b' & E & ->). destruct L as (l & EL). cbn [p_stack].
    rewrite EL in E. apply app_inj_tail in E. destruct E as (_ & ->). exists []. auto. }
  assert (FL : forall p p1 b, yy_parse_failed p = Ok p1 -> (exists l, p_stack p = l ++ [b]) -> exists l, p_stack p1 = l ++ [b]).
  { intros p p1 b H L. destruct (failed_ok _ _ H (NEL _ _ L)) as (ab & b' & E & ->). destruct L as (l & EL). cbn [p_stack].
    rewrite EL in E. apply app_inj_tail in E. destruct E as (_ & ->). exists []. auto. }
  assert (SH : forall c grow p v m x p1 b, yy_shift c grow p v m x = Ok p1 -> (exists l, p_stack p = l ++ [b]) -> exists l, p_stack p1 = l ++ [b]).
  { intros c grow p v m x p1 b H L. apply shift_ok in H. cbv zeta in H. destruct H as [(cap & _ & ->)|(_ & _ & H)]; [|eauto].
    cbn [p_stack]. destruct L as (l & ->). rewrite app_comm_cons. eauto. }
  intros c grow major minor p hit p' R. induction R; intros b0 L.
  - eauto.
  - apply IHR. eapply RED; [exact H4|]. exact L.
  - eauto.
  - cbn. eauto.
  - destruct L as (l & E). rewrite H2 in E. change [e; b] with ([e] ++ [b]) in E. apply app_inj_tail in E. destruct E as (_ & ->).
    exists []. auto.
  - cbn. subst p0. destruct (p_errcnt p <? 0); cbn; auto.
  - cbn. assert (L0 : exists l, p_stack p0 = l ++ [b0]) by (subst p0; destruct (p_errcnt p <? 0); cbn; auto).
    destruct (error_pop_ok _ _ _ _ _ _ _ H7 (NEL _ _ L0)) as (ab & rest & E & NR & EP1).
    eapply FL; [exact H9|]. rewrite EP1. cbn. destruct L0 as (l & EL). rewrite EL in E. eauto.
  - assert (L0 : exists l, p_stack p0 = l ++ [b0]) by (subst p0; destruct (p_errcnt p <? 0); cbn; auto).
    destruct (error_pop_ok _ _ _ _ _ _ _ H7 (NEL _ _ L0)) as (ab & rest & E & NR & EP1).
    apply IHR. cbn. eapply SH; [exact H10|]. rewrite EP1. cbn. destruct L0 as (l & EL). rewrite EL in E. eauto.
  - cbn. subst p0. destruct (p_errcnt p <=? 0); cbn; auto.
  - cbn. eapply FL; [exact H5|]. cbn. subst p0. destruct (p_errcnt p <=? 0); cbn; auto.
Qed.

Lemma feed_bottom : forall c grow fuel toks p n p' b, feed c grow fuel p toks n = Ok p' ->
  (exists l, p_stack p = l ++ [b]) -> exists l, p_stack p' = l ++ [b].
Proof.
  intros c grow fuel toks. induction toks as [|m toks IH]; intros p n p' b H L; cbn [feed] in H.
  - inversion H; subst. auto.
  - apply bind_Ok in H. destruct H as (p1 & HP & H). apply (IH _ _ _ _ H). eapply run_bottom; eauto. eapply Parse_run; eauto.
Qed.

(** Feed tokens numbered from 1, then end of input, then finalise the parser.  If
    the parse was not accepted before the end of input and the stack never
    overflowed, every token value was exactly once popped by a reduction or
    destroyed.  (Entries of the error symbol, which hold copies, do not count.) *)
Theorem C17_exactly_once : forall c grow fuel cap toks p p1 p2,
  sane c -> Forall (fun m => 0 <= m /\ g_errsym c <> Some m) toks ->
  feed c grow fuel (ParseInit cap) toks 1 = Ok p -> ~ In EvAccept (p_log p) ->
  Parse c grow fuel p 0 (Tok 0) = Ok p1 -> ~ In EvOverflow (p_log p1) ->
  ParseFinalize p1 = Ok p2 ->
  forall id, (1 <= id <= length toks)%nat ->
    count_occ Nat.eq_dec (flat_map (consumed (g_errsym c)) (p_log p2)) id = 1%nat.
Proof.
  intros c grow fuel cap toks p p1 p2 SN FM HF NAC HP NOV HZ id ID.
  destruct (feed_count _ _ _ _ _ _ _ SN (init_noacc c cap SN) FM HF) as (NA & _ & C).
  pose proof (Parse_run _ _ _ _ _ _ _ HP) as HR.
  destruct (run_count c grow 0 (Tok 0) p false p1 SN (Z.le_refl 0) HR NA) as (NA1 & (new & L1) & C1).
  specialize (C id). specialize (C1 id). destruct C as (_ & C). destruct C1 as (_ & C1). specialize (C1 NOV).
  assert (ONE : one c 0 (Tok 0) id = 0%nat).
  { unfold one, held1. cbn [fst snd]. destruct (g_errsym c) as [s|]; [destruct (0 =? s)|]; cbn; destruct id; lia. }
  rewrite ONE in C1.
  assert (E : cnt c p id = 1%nat).
  { rewrite C; [|intros I; apply NOV; rewrite L1; apply in_or_app; auto|auto].
    assert (Z0 : cnt c (ParseInit cap) id = 0%nat).
    { unfold cnt, held, view, held1. cbn. destruct (g_errsym c) as [s|]; [destruct s|]; cbn; destruct id; lia. }
    rewrite Z0. destruct (Nat.leb_spec 1 id), (Nat.ltb_spec id (1 + length toks)); cbn [andb]; lia. }
  assert (E1 : cnt c p1 id = 1%nat) by lia.
  unfold ParseFinalize in HZ. destruct NA1 as (NE1 & _). destruct (pop_all_ok _ _ _ HZ NE1) as (ab & b & ES & ->). cbn [p_log].
  assert (E2 : cnt c (mkParser [b] (p_errcnt p1) (p_cap p1) (destroys ab ++ p_log p1)) id = 1%nat).
  { rewrite <- E1. destruct p1 as [s ec cp lg]. cbn [p_stack p_errcnt p_cap p_log] in *. subst s. now apply cnt_popped. }
  assert (BT : exists l, p_stack p1 = l ++ [mkEntry 0 0 (Tok 0)]).
  { eapply run_bottom; [exact HR|]. eapply feed_bottom; [exact HF|]. exists []. auto. }
  destruct BT as (l & BT). rewrite ES in BT. apply app_inj_tail in BT. destruct BT as (_ & ->).
  unfold cnt in E2. cbn [p_log p_stack] in E2. 
  assert (Z0 : count_occ Nat.eq_dec (held c [mkEntry 0 0 (Tok 0)]) id = 0%nat).
  { unfold held, view, held1. cbn. destruct (g_errsym c) as [s|]; [destruct s|]; cbn; destruct id; lia. }
  lia.
Qed.
Print Assumptions C17_exactly_once.

(** Even when the stack overflows, no token value is used twice. *)
Theorem C17_at_most_once : forall c grow fuel cap toks p p2,
  sane c -> Forall (fun m => 0 <= m /\ g_errsym c <> Some m) toks ->
  feed c grow fuel (ParseInit cap) toks 1 = Ok p -> ParseFinalize p = Ok p2 ->
  forall id, (1 <= id)%nat ->
    (count_occ Nat.eq_dec (flat_map (consumed (g_errsym c)) (p_log p2)) id <= 1)%nat.
Proof.
  intros c grow fuel cap toks p p2 SN FM HF HZ id ID.
  destruct (feed_count _ _ _ _ _ _ _ SN (init_noacc c cap SN) FM HF) as (NA & _ & C). destruct (C id) as (C1 & _).
  assert (Z0 : cnt c (ParseInit cap) id = 0%nat).
  { unfold cnt, held, view, held1. cbn. destruct (g_errsym c) as [s|]; [destruct s|]; cbn; destruct id; lia. }
  rewrite Z0 in C1. unfold ParseFinalize in HZ. destruct NA as (NE1 & _). destruct (pop_all_ok _ _ _ HZ NE1) as (ab & b & ES & ->). cbn [p_log].
  assert (E2 : cnt c (mkParser [b] (p_errcnt p) (p_cap p) (destroys ab ++ p_log p)) id = cnt c p id).
  { destruct p as [s ec cp lg]. cbn [p_stack p_errcnt p_cap p_log] in *. subst s. now apply cnt_popped. }
  unfold cnt at 1 in E2. cbn [p_log p_stack] in E2. destruct ((1 <=? id)%nat && (id <? 1 + length toks)%nat); lia.
Qed.
Print Assumptions C17_at_most_once.

(** * C18: error reports *)

Definition is_shift (es : option Z) (ev : event) : bool :=
  match ev with EvShift m _ => match es with Some s => negb (m =? s) | None => true end | _ => false end.
Definition shifts (es : option Z) (l : list event) : Z := Z.of_nat (length (filter (is_shift es) l)).

(** Events after which reporting starts afresh: acceptance, overflow, and, without
    an error symbol, the failure of the parse. *)
Definition restarts (es : option Z) (ev : event) : Prop :=
  ev = EvAccept \/ ev = EvOverflow \/ (es = None /\ ev = EvFail).

Definition throttled (es : option Z) (p : parser) : Prop :=
  forall l1 m v l2, p_log p = l1 ++ EvSyntaxError m v :: l2 -> (forall ev, In ev l1 -> ~ restarts es ev) ->
    (forall m v, ~ In (EvSyntaxError m v) l1) -> 3 - shifts es l1 <= p_errcnt p.

(** Reports are at least [k] token shifts apart. *)
Definition spaced (es : option Z) (k : Z) (log : list event) : Prop :=
  forall l0 m v l1 m' v' l2, log = l0 ++ EvSyntaxError m v :: l1 ++ EvSyntaxError m' v' :: l2 ->
    (forall ev, In ev l1 -> ~ restarts es ev) -> (forall m v, ~ In (EvSyntaxError m v) l1) -> k <= shifts es l1.

Definition quiet (l : list event) : Prop := forall m v, ~ In (EvSyntaxError m v) l.

Lemma shifts_app : forall es a b, shifts es (a ++ b) = shifts es a + shifts es b.
Proof. intros. unfold shifts. rewrite filter_app, app_length. lia. Qed.
Lemma shifts_nonneg : forall es l, 0 <= shifts es l.
Proof. intros. unfold shifts. lia. Qed.

(** Splitting at a report that is not in the newest part. *)
Lemma split_old : forall new old l1 m v l2, quiet new -> new ++ old = l1 ++ EvSyntaxError m v :: l2 ->
  exists l1', l1 = new ++ l1' /\ old = l1' ++ EvSyntaxError m v :: l2.
Proof.
  induction new as [|x new IH]; intros old l1 m v l2 Q E; [exists l1; auto|].
  destruct l1 as [|y l1]; cbn in E.
  - inversion E; subst x. exfalso. apply (Q m v). now left.
  - inversion E; subst y. destruct (IH old l1 m v l2) as (l1' & -> & E2); [intros a b I; apply (Q a b); now right|auto|]. exists l1'. split; auto.
Qed.

Lemma throttled_ext : forall es p p' new, throttled es p -> p_log p' = new ++ p_log p -> quiet new ->
  p_errcnt p - shifts es new <= p_errcnt p' \/ (exists ev, In ev new /\ restarts es ev) -> throttled es p'.
Proof.
  intros es p p' new T E Q D l1 m v l2 EL NR NS. rewrite E in EL.
  destruct (split_old _ _ _ _ _ _ Q EL) as (l1' & -> & E2). destruct D as [D|(ev & I & R)].
  - rewrite shifts_app. assert (X : 3 - shifts es l1' <= p_errcnt p); [|lia]. apply (T l1' m v l2 E2).
    + intros ev I. apply NR. apply in_or_app. auto.
    + intros a b I. apply (NS a b). apply in_or_app. auto.
  - exfalso. apply (NR ev); [apply in_or_app; auto|auto].
Qed.

Lemma throttled_3 : forall es p, 3 <= p_errcnt p -> throttled es p.
Proof. intros es p H l1 m v l2 E _ _. pose proof (shifts_nonneg es l1). lia. Qed.

Lemma spaced_ext : forall es k new old, spaced es k old -> quiet new -> spaced es k (new ++ old).
Proof.
  intros es k new old SP Q l0 m v l1 m' v' l2 E NR NS.
  destruct (split_old _ _ _ _ _ _ Q E) as (l0' & -> & E2). eapply SP; eauto.
Qed.

Definition bound (es : option Z) : Z := match es with Some _ => 4 | None => 3 end.

Lemma spaced_report : forall es p m v, throttled es p -> spaced es (bound es) (p_log p) -> p_errcnt p <= 3 - bound es ->
  spaced es (bound es) (EvSyntaxError m v :: p_log p).
Proof.
  intros es p m v T SP L l0 m1 v1 l1 m2 v2 l2 E NR NS. destruct l0 as [|x l0]; cbn in E.
  - inversion E; subst m1 v1. match goal with X : p_log p = _ |- _ => pose proof (T _ _ _ _ X NR NS) end. lia.
  - inversion E. eapply SP; eauto.
Qed.

Definition err_inv (c : gen) (p : parser) : Prop :=
  p_stack p <> [] /\ throttled (g_errsym c) p /\ spaced (g_errsym c) (bound (g_errsym c)) (p_log p).

Lemma quiet_destroys : forall l, quiet (destroys l).
Proof. intros l m v I. unfold destroys in I. apply in_rev, in_map_iff in I. destruct I as (e & E & _). discriminate. Qed.
Lemma quiet_app : forall a b, quiet a -> quiet b -> quiet (a ++ b).
Proof. intros a b A B m v I. apply in_app_or in I. destruct I as [I|I]; [apply (A m v I)|apply (B m v I)]. Qed.
Lemma quiet_cons : forall e l, (forall m v, e <> EvSyntaxError m v) -> quiet l -> quiet (e :: l).
Proof. intros e l N Q m v [I|I]; [apply (N m v I)|apply (Q m v I)]. Qed.
Lemma quiet_nil : quiet [].
Proof. intros m v []. Qed.
Lemma quiet_oob : forall b : bool, quiet (if b then [EvOob] else []).
Proof. intros [] m v I; [destruct I as [I|[]]; discriminate|destruct I]. Qed.

Lemma inv_ext : forall c p p' new, err_inv c p -> p_stack p' <> [] -> p_log p' = new ++ p_log p -> quiet new ->
  p_errcnt p - shifts (g_errsym c) new <= p_errcnt p' \/ (exists ev, In ev new /\ restarts (g_errsym c) ev) -> err_inv c p'.
Proof.
  intros c p p' new (NE & T & SP) NE' E Q D. split; [auto|]. split; [eapply throttled_ext; eauto|]. rewrite E. now apply spaced_ext.
Qed.

Lemma inv_reduce : forall c p r p1 act, yy_reduce c p r = Ok (p1, act) -> err_inv c p -> err_inv c p1.
Proof.
  intros c p r p1 act H I. apply reduce_ok in H. destruct H as (n & lhs & below & _ & _ & _ & _ & _ & _ & ->).
  eapply inv_ext; [exact I|discriminate|cbn [p_log]; rewrite app_comm_cons; reflexivity| |].
  - apply quiet_cons; [discriminate|apply quiet_oob].
  - left. cbn [p_errcnt]. pose proof (shifts_nonneg (g_errsym c) (EvReduce r (map (fun e => (e_major e, e_minor e)) (rev (firstn n (p_stack p)))) ::
      (if p_cap p <=? lenz (skipn n (p_stack p)) then [EvOob] else []))). lia.
Qed.

Lemma inv_overflow : forall c p p1, yyStackOverflow p = Ok p1 -> err_inv c p -> err_inv c p1.
Proof.
  intros c p p1 H I. pose proof I as (NE & _). destruct (overflow_ok _ _ H NE) as (ab & b & E & ->).
  eapply inv_ext; [exact I|discriminate|cbn [p_log]; rewrite app_comm_cons; reflexivity| |].
  - apply quiet_cons; [discriminate|apply quiet_destroys].
  - right. exists EvOverflow. split; [now left|]. right. now left.
Qed.

Lemma inv_report : forall c p m v p0, err_inv c p ->
  p0 = (if (match g_errsym c with Some _ => p_errcnt p <? 0 | None => p_errcnt p <=? 0 end) then logev p (EvSyntaxError m v) else p) ->
  spaced (g_errsym c) (bound (g_errsym c)) (p_log p0) /\ p_stack p0 = p_stack p.
Proof.
  intros c p m v p0 (NE & T & SP) ->. destruct (match g_errsym c with Some _ => p_errcnt p <? 0 | None => p_errcnt p <=? 0 end) eqn:EB; [|auto].
  split; [|auto]. cbn [logev p_log]. apply (spaced_report (g_errsym c) p); auto.
  unfold bound. destruct (g_errsym c); [apply Z.ltb_lt in EB|apply Z.leb_le in EB]; lia.
Qed.

Lemma run_err : forall c grow major minor p hit p', g_errsym c <> Some major ->
  run c grow major minor p hit p' -> err_inv c p -> err_inv c p'.
Proof.
  intros c grow major minor p hit p' TK R. induction R; intros I.
  - apply IHR. eapply inv_reduce; eauto.
  - apply IHR. eapply inv_reduce; [exact H4|]. exact I.
  - eapply inv_overflow; eauto.
  - apply shift_ok in H2. cbv zeta in H2. destruct H2 as [(cap & _ & ->)|(_ & _ & H2)].
    + eapply inv_ext; [exact I|discriminate|cbn [p_log with_errcnt]; rewrite app_comm_cons; reflexivity| |].
      * apply quiet_cons; [discriminate|apply quiet_oob].
      * left. cbn [p_errcnt with_errcnt]. change (EvShift major minor :: (if cap <=? lenz (p_stack p) then [EvOob] else []))
          with ([EvShift major minor] ++ (if cap <=? lenz (p_stack p) then [EvOob] else [])).
        rewrite shifts_app. pose proof (shifts_nonneg (g_errsym c) (if cap <=? lenz (p_stack p) then [EvOob] else [])).
        assert (shifts (g_errsym c) [EvShift major minor] = 1); [|lia]. unfold shifts. cbn [filter is_shift].
        destruct (g_errsym c) as [s|]; [|auto]. destruct (Z.eqb_spec major s); [congruence|auto].
    + pose proof I as (NE & _). destruct (overflow_ok _ _ H2 NE) as (ab & b & E & ->).
      eapply inv_ext; [exact I|discriminate|cbn [p_log with_errcnt]; rewrite app_comm_cons; reflexivity| |].
      * apply quiet_cons; [discriminate|apply quiet_destroys].
      * right. exists EvOverflow. split; [now left|]. right. now left.
  - eapply inv_ext with (new := [EvAccept]); [exact I|discriminate|reflexivity| |].
    + apply quiet_cons; [discriminate|apply quiet_nil].
    + right. exists EvAccept. split; [now left|]. now left.
  - pose proof I as (NE & T & SP). destruct (inv_report c p major minor p0 I) as (SP0 & S0); [rewrite H2; auto|].
    split; [cbn; now rewrite S0|]. split; [apply throttled_3; cbn; lia|].
    change (spaced (g_errsym c) (bound (g_errsym c)) ([EvDestroy major minor] ++ p_log p0)). apply spaced_ext; [auto|].
    apply quiet_cons; [discriminate|apply quiet_nil].
  - pose proof I as (NE & T & SP). destruct (inv_report c p major minor p0 I) as (SP0 & S0); [rewrite H2; auto|].
    assert (NE0 : p_stack p0 <> []) by now rewrite S0.
    destruct (error_pop_ok _ _ _ _ _ _ _ H7 NE0) as (ab & rest & E & NR & EP1).
    assert (NE1 : p_stack (logev p1 (EvDestroy major minor)) <> []) by (rewrite EP1; auto).
    destruct (failed_ok _ _ H9 NE1) as (ab2 & b & EE & EP2).
    split; [cbn; rewrite EP2; discriminate|]. split; [apply throttled_3; cbn; lia|].
    cbn [with_errcnt p_log]. rewrite EP2. cbn [p_log]. rewrite EP1. cbn [logev p_log].
    rewrite app_comm_cons. apply spaced_ext; [|apply quiet_cons; [discriminate|apply quiet_destroys]].
    rewrite app_comm_cons. apply spaced_ext; [auto|]. apply quiet_cons; [discriminate|apply quiet_destroys].
  - pose proof I as (NE & T & SP). destruct (inv_report c p major minor p0 I) as (SP0 & S0); [rewrite H2; auto|].
    assert (NE0 : p_stack p0 <> []) by now rewrite S0.
    destruct (error_pop_ok _ _ _ _ _ _ _ H7 NE0) as (ab & rest & E & NR & EP1).
    apply IHR. assert (SP1 : spaced (g_errsym c) (bound (g_errsym c)) (p_log p1)).
    { rewrite EP1. cbn [p_log]. apply spaced_ext; [auto|apply quiet_destroys]. }
    assert (NE1 : p_stack p1 <> []) by (rewrite EP1; auto).
    apply shift_ok in H10. cbv zeta in H10. destruct H10 as [(cap & _ & ->)|(_ & _ & H10)].
    + split; [discriminate|]. split; [apply throttled_3; cbn; lia|]. cbn [with_errcnt p_log].
      rewrite app_comm_cons. apply spaced_ext; [auto|]. apply quiet_cons; [discriminate|apply quiet_oob].
    + destruct (overflow_ok _ _ H10 NE1) as (ab2 & b & EE & ->).
      split; [discriminate|]. split; [apply throttled_3; cbn; lia|]. cbn [with_errcnt p_log].
      rewrite app_comm_cons. apply spaced_ext; [auto|]. apply quiet_cons; [discriminate|apply quiet_destroys].
  - pose proof I as (NE & T & SP). destruct (inv_report c p major minor p0 I) as (SP0 & S0); [rewrite H2; auto|].
    split; [cbn; now rewrite S0|]. split; [apply throttled_3; cbn; lia|].
    change (spaced (g_errsym c) (bound (g_errsym c)) ([EvDestroy major minor] ++ p_log p0)). apply spaced_ext; [auto|].
    apply quiet_cons; [discriminate|apply quiet_nil].
  - pose proof I as (NE & T & SP). destruct (inv_report c p major minor p0 I) as (SP0 & S0); [rewrite H2; auto|].
    assert (NE1 : p_stack (logev (with_errcnt p0 3) (EvDestroy major minor)) <> []) by (cbn; now rewrite S0).
    destruct (failed_ok _ _ H5 NE1) as (ab2 & b & EE & EP2).
    split; [cbn; rewrite EP2; discriminate|].
    assert (EL : p_log (with_errcnt p2 (-1)) = (EvFail :: destroys ab2 ++ [EvDestroy major minor]) ++ p_log p0).
    { cbn. rewrite EP2. cbn. rewrite <- app_assoc. auto. }
    assert (QT : quiet (EvFail :: destroys ab2 ++ [EvDestroy major minor])).
    { apply quiet_cons; [discriminate|]. apply quiet_app; [apply quiet_destroys|]. apply quiet_cons; [discriminate|apply quiet_nil]. }
    split.
    + intros l1 m v l2 EQ NR NS. rewrite EL in EQ. destruct (split_old _ _ _ _ _ _ QT EQ) as (l1' & -> & _).
      exfalso. apply (NR EvFail); [now left|]. right. right. auto.
    + rewrite EL. now apply spaced_ext.
Qed.

(** Between two reported syntax errors at least three tokens (with an error
    symbol, four) are shifted, unless the parser accepted, overflowed or (without
    an error symbol) failed in between. *)
Theorem C18_throttled : forall c grow fuel cap toks p,
  Forall (fun m => g_errsym c <> Some m) toks ->
  feed c grow fuel (ParseInit cap) toks 1 = Ok p ->
  forall l0 m v l1 m' v' l2, p_log p = l0 ++ EvSyntaxError m v :: l1 ++ EvSyntaxError m' v' :: l2 ->
    (forall ev, In ev l1 -> ~ restarts (g_errsym c) ev) -> (forall m v, ~ In (EvSyntaxError m v) l1) ->
    (match g_errsym c with Some _ => 4 | None => 3 end <=
     length (filter (fun ev => match ev with EvShift s _ => match g_errsym c with Some es => negb (s =? es)%Z | None => true end | _ => false end) l1))%nat.
Proof.
  intros c grow fuel cap toks p FM H l0 m v l1 m' v' l2 E NR NS.
  assert (I : err_inv c p).
  { assert (I0 : err_inv c (ParseInit cap)).
    { split; [discriminate|]. split.
      - intros k1 a b k2 EE. destruct k1; discriminate.
      - intros k0 a b k1 a' b' k2 EE. destruct k0; discriminate. }
    revert I0 H FM. generalize (ParseInit cap) 1%nat. clear. induction toks as [|x toks IH]; intros q n I0 H FM; cbn [feed] in H.
    - inversion H; subst. auto.
    - apply bind_Ok in H. destruct H as (q1 & HP & H). inversion FM; subst. apply (IH _ _ (run_err _ _ _ _ _ _ _ H2 (Parse_run _ _ _ _ _ _ _ HP) I0) H); auto. }
  destruct I as (_ & _ & SP). pose proof (SP _ _ _ _ _ _ _ E NR NS) as B. unfold bound, shifts, is_shift in B.
  destruct (g_errsym c); lia.
Qed.
Print Assumptions C18_throttled.
