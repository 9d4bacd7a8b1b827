(** Facts about the driver of lempar.c that hold for every table. *)
From Coq Require Import List ZArith Bool Lia.
Import ListNotations.
From Verif Require Import Base LemonReportModel LemonParModel.
Local Open Scope res_scope.
Local Open Scope Z_scope.

Lemma assert_Ok : forall b u, assert b = Ok u -> b = true.
Proof. intros [] u H; [auto|discriminate]. Qed.

Lemma lenz_cons : forall A (x : A) l, lenz (x :: l) = lenz l + 1.
Proof. intros. unfold lenz. cbn [length]. lia. Qed.
Lemma lenz_nonneg : forall A (l : list A), 0 <= lenz l.
Proof. intros. unfold lenz. lia. Qed.

(** The events of destroying a list of entries, the first one first. *)
Definition destroys (l : list entry) : list event := rev (map (fun e => EvDestroy (e_major e) (e_minor e)) l).

Lemma pop_ok : forall p p', yy_pop_parser_stack p = Ok p' ->
  exists e s, p_stack p = e :: s /\ s <> [] /\ p' = mkParser s (p_errcnt p) (p_cap p) (EvDestroy (e_major e) (e_minor e) :: p_log p).
Proof.
  intros [st ec cap lg] p' H. unfold yy_pop_parser_stack in H. cbn in H. destruct st as [|e [|e2 s]]; try discriminate.
  inversion H; subst. exists e, (e2 :: s). cbn. repeat split; auto. discriminate.
Qed.

(** Popping everything leaves the bottom entry. *)
Lemma pop_all_ok : forall f p p', pop_all f p = Ok p' -> p_stack p <> [] ->
  exists above b, p_stack p = above ++ [b] /\
    p' = mkParser [b] (p_errcnt p) (p_cap p) (destroys above ++ p_log p).
Proof.
  induction f as [|f IH]; intros p p' H NE; cbn [pop_all] in H.
  - unfold tos_idx in H. destruct (Z.leb_spec (lenz (p_stack p) - 1) 0) as [L|L]; [|discriminate].
    destruct p as [[|b [|e s]] ec cap lg]; cbn [p_stack] in *; [congruence| |unfold lenz in L; cbn [length] in L; lia].
    inversion H; subst. exists [], b. auto.
  - unfold tos_idx in H. destruct (Z.leb_spec (lenz (p_stack p) - 1) 0) as [L|L].
    + destruct p as [[|b [|e s]] ec cap lg]; cbn [p_stack] in *; [congruence| |unfold lenz in L; cbn [length] in L; lia].
      inversion H; subst. exists [], b. auto.
    + apply bind_Ok in H. destruct H as (p1 & H1 & H). apply pop_ok in H1. destruct H1 as (e & s & E & NS & ->).
      destruct (IH _ _ H) as (ab & b & E2 & ->); [auto|]. cbn [p_stack p_errcnt p_cap p_log] in *. subst s.
      exists (e :: ab), b. split; [auto|]. unfold destroys. cbn [map rev]. rewrite <- app_assoc. auto.
Qed.

Lemma pop_all_total : forall f p, (length (p_stack p) <= S f)%nat -> p_stack p <> [] -> exists p', pop_all f p = Ok p'.
Proof.
  induction f as [|f IH]; intros p L NE; cbn [pop_all]; unfold tos_idx;
    destruct (Z.leb_spec (lenz (p_stack p) - 1) 0) as [G|G]; eauto; unfold lenz in G.
  - lia.
  - unfold yy_pop_parser_stack. destruct (p_stack p) as [|e [|e2 s]] eqn:E; try (cbn in G; lia). cbn [bind].
    apply IH; cbn [logev with_stack p_stack tl length] in *; [lia|discriminate].
Qed.

(** The stack overflow handler destroys every entry above the bottom, top first,
    then calls the callback. *)
Lemma overflow_ok : forall p p', yyStackOverflow p = Ok p' -> p_stack p <> [] ->
  exists above b, p_stack p = above ++ [b] /\
    p' = mkParser [b] (p_errcnt p) (p_cap p) (EvOverflow :: destroys above ++ p_log p).
Proof.
  intros p p' H NE. unfold yyStackOverflow in H. apply bind_Ok in H. destruct H as (p1 & H1 & H).
  apply pop_all_ok in H1; [|auto]. destruct H1 as (ab & b & E & ->). inversion H; subst. eauto.
Qed.

Lemma overflow_total : forall p, p_stack p <> [] -> exists p', yyStackOverflow p = Ok p'.
Proof.
  intros p NE. unfold yyStackOverflow. destruct (pop_all_total (length (p_stack p)) p) as (p1 & ->); [lia|auto|].
  cbn [bind]. eauto.
Qed.

Lemma failed_ok : forall p p', yy_parse_failed p = Ok p' -> p_stack p <> [] ->
  exists above b, p_stack p = above ++ [b] /\
    p' = mkParser [b] (p_errcnt p) (p_cap p) (EvFail :: destroys above ++ p_log p).
Proof.
  intros p p' H NE. unfold yy_parse_failed in H. apply bind_Ok in H. destruct H as (p1 & H1 & H).
  apply pop_all_ok in H1; [|auto]. destruct H1 as (ab & b & E & ->). inversion H; subst. eauto.
Qed.

Section Run.
Variable c : gen.
Variable grow : Z -> option Z.
Variable major : Z.
Variable minor : tree.
Let t := g_tab c.

(** The action found for the token in the state on top of the stack. *)
Definition looks (p : parser) (v : Z) : Prop := exists e r, p_stack p = e :: r /\ yy_find_shift_action c major (e_state e) = Ok v.

(** What the loop of Parse does, as a relation. *)
Inductive run : parser -> bool -> parser -> Prop :=
| run_reduce : forall p hit v n p1 act p',
    looks p v -> YY_MIN_REDUCE t <= v -> rdz (g_nrhs c) (v - YY_MIN_REDUCE t) = Ok n ->
    (n = 0 -> tos_idx p < p_cap p - 1) ->
    yy_reduce c p (v - YY_MIN_REDUCE t) = Ok (p1, act) -> run p1 hit p' -> run p hit p'
| run_grow : forall p hit v cap p1 act p',
    looks p v -> YY_MIN_REDUCE t <= v -> rdz (g_nrhs c) (v - YY_MIN_REDUCE t) = Ok 0 ->
    p_cap p - 1 <= tos_idx p -> grow (p_cap p) = Some cap ->
    yy_reduce c (with_cap p cap) (v - YY_MIN_REDUCE t) = Ok (p1, act) -> run p1 hit p' -> run p hit p'
| run_overflow : forall p hit v p',
    looks p v -> YY_MIN_REDUCE t <= v -> rdz (g_nrhs c) (v - YY_MIN_REDUCE t) = Ok 0 ->
    p_cap p - 1 <= tos_idx p -> grow (p_cap p) = None -> yyStackOverflow p = Ok p' -> run p hit p'
| run_shift : forall p hit v p1,
    looks p v -> v < YY_MIN_REDUCE t -> v <= YY_MAX_SHIFTREDUCE t ->
    yy_shift c grow p v major minor = Ok p1 -> run p hit (with_errcnt p1 (p_errcnt p1 - 1))
| run_accept : forall p hit e b,
    looks p (YY_ACCEPT_ACTION t) -> YY_ACCEPT_ACTION t < YY_MIN_REDUCE t -> YY_MAX_SHIFTREDUCE t < YY_ACCEPT_ACTION t -> p_stack p = [e; b] ->
    run p hit (logev (with_errcnt (with_stack p [b]) (-1)) EvAccept)
| run_discard : forall p hit es e r p0,
    looks p (YY_ERROR_ACTION t) -> YY_ERROR_ACTION t < YY_MIN_REDUCE t -> YY_MAX_SHIFTREDUCE t < YY_ERROR_ACTION t -> g_errsym c = Some es -> p_stack p = e :: r ->
    e_major e = es \/ hit = true ->
    p0 = (if p_errcnt p <? 0 then logev p (EvSyntaxError major minor) else p) ->
    run p hit (with_errcnt (logev p0 (EvDestroy major minor)) 3)
| run_fail : forall p hit es e r p0 p1 a p2,
    looks p (YY_ERROR_ACTION t) -> YY_ERROR_ACTION t < YY_MIN_REDUCE t -> YY_MAX_SHIFTREDUCE t < YY_ERROR_ACTION t -> g_errsym c = Some es -> p_stack p = e :: r ->
    e_major e <> es -> hit = false ->
    p0 = (if p_errcnt p <? 0 then logev p (EvSyntaxError major minor) else p) ->
    error_pop c (length (p_stack p0)) p0 es (YY_ERROR_ACTION t) = Ok (p1, a) -> tos_idx p1 <= 0 \/ major = 0 ->
    yy_parse_failed (logev p1 (EvDestroy major minor)) = Ok p2 ->
    run p hit (with_errcnt p2 3)
| run_recover : forall p hit es e r p0 p1 a p2 p',
    looks p (YY_ERROR_ACTION t) -> YY_ERROR_ACTION t < YY_MIN_REDUCE t -> YY_MAX_SHIFTREDUCE t < YY_ERROR_ACTION t -> g_errsym c = Some es -> p_stack p = e :: r ->
    e_major e <> es -> hit = false ->
    p0 = (if p_errcnt p <? 0 then logev p (EvSyntaxError major minor) else p) ->
    error_pop c (length (p_stack p0)) p0 es (YY_ERROR_ACTION t) = Ok (p1, a) -> 0 < tos_idx p1 -> major <> 0 ->
    yy_shift c grow p1 a es minor = Ok p2 ->
    run (with_errcnt p2 3) true p' -> run p hit p'
| run_drop : forall p hit p0,
    looks p (YY_ERROR_ACTION t) -> YY_ERROR_ACTION t < YY_MIN_REDUCE t -> YY_MAX_SHIFTREDUCE t < YY_ERROR_ACTION t -> g_errsym c = None -> major <> 0 ->
    p0 = (if p_errcnt p <=? 0 then logev p (EvSyntaxError major minor) else p) ->
    run p hit (logev (with_errcnt p0 3) (EvDestroy major minor))
| run_end : forall p hit p0 p2,
    looks p (YY_ERROR_ACTION t) -> YY_ERROR_ACTION t < YY_MIN_REDUCE t -> YY_MAX_SHIFTREDUCE t < YY_ERROR_ACTION t -> g_errsym c = None -> major = 0 ->
    p0 = (if p_errcnt p <=? 0 then logev p (EvSyntaxError major minor) else p) ->
    yy_parse_failed (logev (with_errcnt p0 3) (EvDestroy major minor)) = Ok p2 ->
    run p hit (with_errcnt p2 (-1)).

Lemma parse_loop_run : forall f p act hit p',
  parse_loop c grow f p act major minor hit = Ok p' -> run p hit p'.
Proof.
  induction f as [|f IH]; intros p act hit p' H; cbn [parse_loop] in H; [discriminate|].
  apply bind_Ok in H. destruct H as (e & HT & H). apply bind_Ok in H. destruct H as ([] & HA & H).
  apply assert_Ok, Z.eqb_eq in HA. subst act. apply bind_Ok in H. destruct H as (v & HV & H).
  unfold top in HT. destruct (p_stack p) as [|e0 r] eqn:EP; [discriminate|]. inversion HT; subst e0. clear HT.
  assert (LK : looks p v) by (exists e, r; auto).
  fold t in H. destruct (Z.leb_spec (YY_MIN_REDUCE t) v) as [L|L].
  - apply bind_Ok in H. destruct H as (n & HN & H).
    destruct (Z.eqb_spec n 0) as [N0|N0].
    + subst n. destruct (Z.leb_spec (p_cap p - 1) (tos_idx p)) as [C|C].
      * destruct (grow (p_cap p)) as [cap|] eqn:EG.
        -- apply bind_Ok in H. destruct H as ([p1 a1] & HR & H). eapply run_grow; eauto.
        -- eapply run_overflow; eauto.
      * apply bind_Ok in H. destruct H as ([p1 a1] & HR & H). eapply run_reduce; eauto.
    + apply bind_Ok in H. destruct H as ([p1 a1] & HR & H). eapply run_reduce; eauto. intros; lia.
  - destruct (Z.leb_spec v (YY_MAX_SHIFTREDUCE t)) as [L2|L2].
    + apply bind_Ok in H. destruct H as (p1 & HS & H).
      assert (E : p' = with_errcnt p1 (p_errcnt p1 - 1)) by congruence. subst p'. eapply run_shift; eauto.
    + destruct (Z.eqb_spec v (YY_ACCEPT_ACTION t)) as [EA|EA].
      * subst v. destruct r as [|b [|? ?]]; try discriminate. 
        match type of H with Ok ?T = _ => assert (E : p' = T) by congruence end. rewrite E. eapply run_accept; eauto.
      * apply bind_Ok in H. destruct H as ([] & HE & H). apply assert_Ok, Z.eqb_eq in HE. subst v.
        destruct (g_errsym c) as [es|] eqn:ES.
        -- remember (if p_errcnt p <? 0 then logev p (EvSyntaxError major minor) else p) as p0 eqn:EP0. cbv zeta in H.
           destruct ((e_major e =? es) || hit) eqn:EB.
           ++ match type of H with Ok ?T = _ => assert (E : p' = T) by congruence end. rewrite E.
              eapply run_discard; eauto. apply orb_true_iff in EB. rewrite Z.eqb_eq in EB. auto.
           ++ apply orb_false_iff in EB. rewrite Z.eqb_neq in EB. destruct EB as (EB & EH).
              apply bind_Ok in H. destruct H as ([p1 a] & HP & H).
              destruct ((tos_idx p1 <=? 0) || (major =? 0)) eqn:EF.
              ** apply bind_Ok in H. destruct H as (p2 & HF & H).
                 match type of H with Ok ?T = _ => assert (E : p' = T) by congruence end. rewrite E.
                 eapply run_fail; eauto. apply orb_true_iff in EF. rewrite Z.eqb_eq, Z.leb_le in EF. auto.
              ** apply orb_false_iff in EF. rewrite Z.eqb_neq, Z.leb_gt in EF. destruct EF as (E1 & E2).
                 apply bind_Ok in H. destruct H as (p2 & HS & H). apply bind_Ok in H. destruct H as (e2 & HT2 & H).
                 eapply run_recover; eauto.
        -- remember (if p_errcnt p <=? 0 then logev p (EvSyntaxError major minor) else p) as p0 eqn:EP0. cbv zeta in H.
           destruct (Z.eqb_spec major 0) as [M0|M0].
           ++ apply bind_Ok in H. destruct H as (p2 & HF & H).
              match type of H with Ok ?T = _ => assert (E : p' = T) by congruence end. rewrite E. eapply run_end; eauto.
           ++ match type of H with Ok ?T = _ => assert (E : p' = T) by congruence end. rewrite E. eapply run_drop; eauto.
Qed.

Lemma Parse_run : forall f p p', Parse c grow f p major minor = Ok p' -> run p false p'.
Proof.
  intros f p p' H. unfold Parse in H. apply bind_Ok in H. destruct H as (e & _ & H). now apply parse_loop_run in H.
Qed.

End Run.

(** What the primitive steps do. *)
Lemma reduce_ok : forall c p r p1 act, yy_reduce c p r = Ok (p1, act) ->
  exists n lhs below, rdz (g_nrhs c) r = Ok (- Z.of_nat n) /\ rdz (g_lhs c) r = Ok lhs /\
    nth_error (p_stack p) n = Some below /\ yy_find_reduce_action c (e_state below) lhs = Ok act /\
    (YY_MAX_SHIFT (g_tab c) < act -> YY_MAX_SHIFTREDUCE (g_tab c) < act) /\ act <> YY_ERROR_ACTION (g_tab c) /\
    p1 = mkParser (mkEntry act lhs (Nod r (map e_minor (rev (firstn n (p_stack p))))) :: skipn n (p_stack p))
           (p_errcnt p) (p_cap p)
           (EvReduce r (map (fun e => (e_major e, e_minor e)) (rev (firstn n (p_stack p)))) ::
            (if p_cap p <=? lenz (skipn n (p_stack p)) then [EvOob] else []) ++ p_log p).
Proof.
  intros c p r p1 act H. unfold yy_reduce in H. apply bind_Ok in H. destruct H as (lhs & HL & H).
  apply bind_Ok in H. destruct H as (sz & HS & H). destruct (Z.ltb_spec 0 sz) as [|L]; [discriminate|].
  cbv zeta in H. apply bind_Ok in H. destruct H as (below & HB & H). apply opt_Ok in HB.
  apply bind_Ok in H. destruct H as (a & HA & H). apply bind_Ok in H. destruct H as ([] & A1 & H).
  apply bind_Ok in H. destruct H as ([] & A2 & H). apply assert_Ok in A1. apply assert_Ok in A2.
  exists (Z.to_nat (- sz)), lhs, below. rewrite Z2Nat.id by lia. rewrite Z.opp_involutive.
  assert (EA : a = act) by congruence. subst a.
  split; [auto|]. split; [auto|]. split; [auto|]. split; [auto|]. split.
  - intros G. apply negb_true_iff, andb_false_iff in A1. rewrite Z.ltb_ge, Z.leb_gt in A1. lia.
  - split. + apply negb_true_iff, Z.eqb_neq in A2. auto.
    + match type of H with Ok (?T, _) = _ => assert (E : p1 = T) by congruence end. rewrite E.
      unfold logev, put, with_stack. destruct p as [s ec cp lg]. cbn [p_stack p_errcnt p_cap p_log].
      destruct (cp <=? lenz (skipn (Z.to_nat (- sz)) s)); cbn; auto.
Qed.

(** A shift pushes an entry or overflows. *)
Lemma shift_ok : forall c grow p v major minor p1, yy_shift c grow p v major minor = Ok p1 ->
  let st := if YY_MAX_SHIFT (g_tab c) <? v then v + (YY_MIN_REDUCE (g_tab c) - YY_MIN_SHIFTREDUCE (g_tab c)) else v in
  (exists cap, (lenz (p_stack p) < p_cap p /\ cap = p_cap p \/ p_cap p <= lenz (p_stack p) /\ grow (p_cap p) = Some cap) /\
    p1 = mkParser (mkEntry st major minor :: p_stack p) (p_errcnt p) cap
       (EvShift major minor :: (if cap <=? lenz (p_stack p) then [EvOob] else []) ++ p_log p)) \/
  (p_cap p <= lenz (p_stack p) /\ grow (p_cap p) = None /\ yyStackOverflow p = Ok p1).
Proof.
  intros c grow p v major minor p1 H st. unfold yy_shift in H. cbv zeta in H. fold st in H.
  unfold tos_idx in H. replace (lenz (p_stack p) - 1 + 1) with (lenz (p_stack p)) in H by lia.
  assert (G : forall q, Ok (logev (put q (p_stack q) (mkEntry st major minor)) (EvShift major minor)) = Ok p1 ->
     p1 = mkParser (mkEntry st major minor :: p_stack q) (p_errcnt q) (p_cap q)
       (EvShift major minor :: (if p_cap q <=? lenz (p_stack q) then [EvOob] else []) ++ p_log q)).
  { intros q E. match type of E with Ok ?T = _ => assert (E1 : p1 = T) by congruence end. rewrite E1.
    unfold logev, put, with_stack. destruct q as [s ec cp lg]. cbn [p_stack p_errcnt p_cap p_log].
    destruct (cp <=? lenz s); cbn; auto. }
  destruct (Z.leb_spec (p_cap p) (lenz (p_stack p))) as [L|L].
  - destruct (grow (p_cap p)) as [cap|] eqn:EG; [|right; auto]. left. exists cap. split; [auto|].
    apply G in H. exact H.
  - left. exists (p_cap p). split; [auto|]. apply G in H. exact H.
Qed.

(** Looking for a state that shifts the error symbol only pops. *)
Lemma error_pop_ok : forall c f p es a p' a', error_pop c f p es a = Ok (p', a') -> p_stack p <> [] ->
  exists above rest, p_stack p = above ++ rest /\ rest <> [] /\
    p' = mkParser rest (p_errcnt p) (p_cap p) (destroys above ++ p_log p).
Proof.
  induction f as [|f IH]; intros p es a p' a' H NE; cbn [error_pop] in H.
  - destruct (tos_idx p <=? 0); [|discriminate]. assert (p' = p) by congruence. subst p'.
    exists [], (p_stack p). split; [auto|]. split; [auto|]. destruct p; auto.
  - destruct (tos_idx p <=? 0).
    + assert (p' = p) by congruence. subst p'.
      exists [], (p_stack p). split; [auto|]. split; [auto|]. destruct p; auto.
    + apply bind_Ok in H. destruct H as (e & HT & H). apply bind_Ok in H. destruct H as (a1 & HA & H).
      destruct (a1 <=? YY_MAX_SHIFTREDUCE (g_tab c)).
      * assert (p' = p) by congruence. subst p'.
        exists [], (p_stack p). split; [auto|]. split; [auto|]. destruct p; auto.
      * apply bind_Ok in H. destruct H as (p1 & HP & H). apply pop_ok in HP. destruct HP as (e1 & s & E & NS & ->).
        destruct (IH _ _ _ _ _ H) as (ab & rest & E2 & NR & ->); [auto|]. cbn [p_stack p_errcnt p_cap p_log] in *. subst s.
        exists (e1 :: ab), rest. split; [auto|]. split; [auto|]. unfold destroys. cbn [map rev]. rewrite <- app_assoc. auto.
Qed.
