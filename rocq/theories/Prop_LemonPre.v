(** C27: the preprocessor keeps the shape of the text and selects branches. *)
From Coq Require Import List Arith ZArith Bool Lia String.
Import ListNotations.
From Verif Require Import Base LemonPreModel LemonPreProof Prop_LemonPreBool.
Open Scope res_scope.

(** * Shape *)

(** Character by character: unchanged, or a blank in place of a character that is no newline. *)
Definition kept (a b : Z) : Prop := b = a \/ (b = 32%Z /\ a <> 10%Z).

Lemma kept_refl : forall l, Forall2 kept l l.
Proof. induction l; constructor; [now left|auto]. Qed.

Lemma kept_blank : forall l, Forall2 kept l (blank l).
Proof.
  induction l as [|c l IH]; cbn [blank map]; constructor; [|exact IH]. destruct (c =? 10)%Z eqn:E.
  - apply Z.eqb_eq in E. now left.
  - apply Z.eqb_neq in E. right. auto.
Qed.

Lemma kept_app : forall a b c d, Forall2 kept a b -> Forall2 kept c d -> Forall2 kept (a ++ c) (b ++ d).
Proof. intros a b c d. apply Forall2_app. Qed.

Lemma run_kept : forall defs ls n ln sl o, run defs ls n ln sl = Ok (Lines o) -> Forall2 kept (join ls) (join o).
Proof.
  intros defs. induction ls as [|l ls IH]; intros n ln sl o H; cbn [run] in H.
  - destruct (n =? 0); inversion H; subst; constructor.
  - assert (G : forall out n sl, Forall2 kept l out -> (x <- run defs ls n (ln + 1)%Z sl ;; Ok (addl out x)) = Ok (Lines o) -> Forall2 kept (join (l :: ls)) (join o)).
    { intros out n0 sl0 KO X. destruct (run defs ls n0 (ln + 1)%Z sl0) as [[os| |]| |] eqn:E; cbn [bind addl] in X; try discriminate. inversion X; subst.
      pose proof (run_length _ _ _ _ _ _ E) as LE. apply IH in E. destruct ls as [|l1 ls], os as [|o1 os]; try discriminate; [exact KO|].
      cbn [join]. apply kept_app; [exact KO|]. constructor; [now left|exact E]. }
    pose proof (kept_refl l) as KR. pose proof (kept_blank l) as KB.
    destruct (kind _ l).
    + destruct (n =? 0); eauto.
    + destruct (negb _); [eauto|]. destruct (cond defs l) as [v| |]; cbn [bind] in H; try discriminate. destruct (v <? 0)%Z; [discriminate|]. destruct (if nospace l =? 7 then _ else _); eauto.
    + destruct (n =? 1); [eauto|]. destruct (n =? 0); eauto.
    + eauto.
Qed.

(** For every text: the length and every newline stay; a character stays or becomes a blank. *)
Theorem C27_shape : forall defs z z', preprocess_input defs z = Ok (PPdone z') ->
  List.length z' = List.length z /\
  (forall i, nth_error z i = Some 10%Z <-> nth_error z' i = Some 10%Z) /\
  (forall i a b, nth_error z i = Some a -> nth_error z' i = Some b -> b = a \/ b = 32%Z).
Proof.
  intros defs z z' H. destruct (lines_ok z) as (J & F & NE). rewrite <- J in H. rewrite preprocess_lines in H by assumption.
  assert (K : Forall2 kept z z').
  { destruct (run defs (lines z) 0 1%Z 1%Z) as [[o| |]| |] eqn:E; cbn in H; try discriminate. inversion H; subst. apply run_kept in E. now rewrite J in E. }
  clear -K. induction K as [|a b z z' K1 K (L & NL & S0)].
  - split; [reflexivity|]. split; [tauto|]. intros [|i]; discriminate.
  - split; [cbn; now rewrite L|]. split.
    + intros [|i]; cbn [nth_error]; [|apply NL]. destruct K1 as [->|(-> & N)]; [tauto|]. split; intros E; inversion E; congruence.
    + intros [|i] x y; cbn [nth_error]; [|apply S0]. intros E1 E2. inversion E1; inversion E2; subst. destruct K1 as [->|(-> & _)]; auto.
Qed.

(** It always ends: with a text, or with one of the two messages. *)
Lemma eval_pp_total : forall fuel defs z i neg r ok, List.length z < fuel -> exists v, pp_loop fuel defs z i neg r ok = Ok v.
Proof.
  induction fuel as [|fuel IH]; intros defs z i neg r ok L; [lia|]. cbn [pp_loop]. destruct z as [|c z]; [eauto|]. cbn [List.length] in L.
  destruct (isspace c); [apply IH; lia|]. destruct (c =? 33)%Z; [destruct ok; [apply IH; lia|eauto]|].
  assert (T : List.length (tl z) <= List.length z) by (destruct z; cbn; lia).
  destruct (starts [124; 124]%Z (c :: z)); [destruct ok; [eauto|]; destruct r; [eauto|]; apply IH; lia|].
  destruct (starts [38; 38]%Z (c :: z)); [destruct ok; [eauto|]; destruct (negb r); [eauto|]; apply IH; lia|].
  destruct (c =? 40)%Z.
  - destruct ok; [|eauto]. destruct (match_paren 1 z) as [(a & b)|] eqn:M; [|apply IH; lia]. apply match_paren_len in M.
    destruct (IH defs a 0%Z false false true ltac:(lia)) as (v & E). rewrite E. cbn [bind]. destruct (v <? 0)%Z; [eauto|]. apply IH. lia.
  - destruct (isalpha c); [|eauto]. destruct ok; [|eauto]. destruct (word z) as (a & b) eqn:W. apply IH.
    enough (List.length b <= List.length z) by lia. clear -W. revert a b W. induction z as [|x z IHz]; intros a b W; cbn [word] in W; [inversion W; subst; cbn; lia|].
    destruct (wordch x); [|inversion W; subst; cbn; lia]. destruct (word z) as (a' & b'). inversion W; subst. specialize (IHz _ _ eq_refl). cbn. lia.
Qed.

Theorem C27_total : forall defs z, exists r, preprocess_input defs z = Ok r.
Proof.
  intros defs z. destruct (lines_ok z) as (J & F & NE). rewrite <- J, preprocess_lines by assumption.
  assert (G : forall ls n ln sl, exists x, run defs ls n ln sl = Ok x).
  { clear. induction ls as [|l ls IH]; intros n ln sl; cbn [run]; [eauto|].
    assert (G : forall out n sl, exists x, (x <- run defs ls n (ln + 1)%Z sl ;; Ok (addl out x)) = Ok x).
    { intros out n0 sl0. destruct (IH n0 (ln + 1)%Z sl0) as (x & E). rewrite E. cbn [bind]. eauto. }
    destruct (kind _ l).
    - apply G.
    - destruct (negb _); [apply G|]. unfold cond. destruct (eval_pp_total (S (List.length (skipn (nospace l) l))) defs (skipn (nospace l) l) 0%Z false false true ltac:(lia)) as (v & E).
      unfold eval_pp. rewrite E. cbn [bind]. destruct (v <? 0)%Z; [eauto|]. destruct (if nospace l =? 7 then _ else _); apply G.
    - destruct (n =? 1); [apply G|]. destruct (n =? 0); apply G.
    - apply G. }
  destruct (G (lines z) 0 1%Z 1%Z) as (x & E). rewrite E. cbn. eauto.
Qed.

(** * Selection *)

(** The condition on a directive line: the value of the text after the keyword, negated for %ifndef. *)
Definition holds (defs : list (list Z)) (l : list Z) (b : bool) : Prop :=
  exists v, eval_pp defs (skipn (nospace l) l) = Ok v /\ (0 <= v)%Z /\ b = if starts (zs "%ifndef ") l then (v =? 0)%Z else negb (v =? 0)%Z.

(** Well-nested lines, each followed by a newline, and what must come out.  [sel] says whether
    the place is selected by the enclosing conditions. *)
Inductive doc (defs : list (list Z)) : bool -> list (list Z) -> list (list Z) -> Prop :=
| doc_nil : forall sel, doc defs sel [] []
| doc_line : forall sel l ins outs, kind false l = LPlain -> doc defs sel ins outs ->
    doc defs sel (l :: ins) ((if sel then l else blank l) :: outs)
| doc_if : forall sel b d e i1 o1 ins outs, kind false d = LIf -> kind false e = LEndif -> (sel = true -> holds defs d b) ->
    doc defs (sel && b) i1 o1 -> doc defs sel ins outs ->
    doc defs sel (d :: i1 ++ e :: ins) (blank d :: o1 ++ blank e :: outs)
| doc_else : forall sel b d m e i1 o1 i2 o2 ins outs, kind false d = LIf -> kind false m = LElse -> kind false e = LEndif -> (sel = true -> holds defs d b) ->
    doc defs (sel && b) i1 o1 -> doc defs (sel && negb b) i2 o2 -> doc defs sel ins outs ->
    doc defs sel (d :: i1 ++ m :: i2 ++ e :: ins) (blank d :: o1 ++ blank m :: o2 ++ blank e :: outs).

Fixpoint addls (ls : list (list Z)) (r : runres) : runres := match ls with [] => r | l :: t => addl l (addls t r) end.

Lemma addls_lines : forall ls o, addls ls (Lines o) = Lines (ls ++ o).
Proof. induction ls as [|l ls IH]; intros o; cbn [addls app]; [reflexivity|]. now rewrite IH. Qed.
Lemma addls_app : forall a b r, addls (a ++ b) r = addls a (addls b r).
Proof. induction a as [|l a IH]; intros b r; cbn [addls app]; [reflexivity|]. now rewrite IH. Qed.

(** Outside excluded text the remembered line number plays no role. *)
Lemma run_sl : forall defs ls ln sl sl', run defs ls 0 ln sl = run defs ls 0 ln sl'.
Proof.
  intros defs. induction ls as [|l ls IH]; intros ln sl sl'; cbn [run Nat.eqb negb Nat.sub]; [reflexivity|].
  destruct (kind _ l).
  - now rewrite (IH _ sl sl').
  - destruct (cond defs l) as [v| |]; cbn [bind]; try reflexivity. destruct (v <? 0)%Z; [reflexivity|]. destruct (if nospace l =? 7 then _ else _); [reflexivity|]. now rewrite (IH _ sl sl').
  - reflexivity.
  - now rewrite (IH _ sl sl').
Qed.

Definition seln (sel : bool) (n : nat) : Prop := if sel then n = 0 else 0 < n.

Lemma nospace_ifndef : forall l, kind false l = LIf -> (nospace l =? 7) = starts (zs "%ifndef ") l.
Proof.
  intros l. unfold kind. destruct (_ && _); [discriminate|]. destruct (_ && _); [discriminate|].
  destruct (starts (zs "%ifdef ") l || starts (zs "%if ") l || starts (zs "%ifndef ") l) eqn:E; [|discriminate]. intros _.
  destruct (starts (zs "%ifndef ") l) eqn:E3.
  - apply nospace_starts in E3 as (E3 & _); [|vm_compute; lia]. rewrite E3. reflexivity.
  - rewrite orb_false_r in E. apply orb_true_iff in E as [E|E]; (apply nospace_starts in E as (E & _); [|vm_compute; lia]); rewrite E; reflexivity.
Qed.

Lemma doc_run : forall defs sel ins outs, doc defs sel ins outs -> forall n, seln sel n -> forall rest ln sl, rest <> [] ->
  run defs (ins ++ rest) n ln sl = (x <- run defs rest n (ln + Z.of_nat (List.length ins))%Z sl ;; Ok (addls outs x)).
Proof.
  assert (BA : forall (r : res runres) a b, (x <- (y <- r ;; Ok (addls a y)) ;; Ok (addls b x)) = (x <- r ;; Ok (addls (b ++ a) x))).
  { intros r a b. destruct r; cbn [bind]; [now rewrite addls_app|reflexivity|reflexivity]. }
  assert (BA1 : forall (r : res runres) a b, (x <- (y <- r ;; Ok (addls a y)) ;; Ok (addl b x)) = (x <- r ;; Ok (addls (b :: a) x))).
  { intros r a b. destruct r; reflexivity. }
  intros defs sel ins outs H. induction H as [sel|sel l ins outs K H IH|sel b d e i1 o1 ins outs KD KE HB H1 IH1 H2 IH2|sel b d m e i1 o1 i2 o2 ins outs KD KM KE HB H1 IH1 H2 IH2 H3 IH3]; intros n SN rest ln sl NE.
  - cbn [app List.length]. rewrite Z.add_0_r. destruct (run defs rest n ln sl); reflexivity.
  - assert (LAST : match ins ++ rest with [] => true | _ => false end = false) by (destruct ins; [destruct rest; [congruence|reflexivity]|reflexivity]).
    cbn [app run]. rewrite LAST, K. rewrite (IH n SN rest _ sl NE). rewrite BA1. cbn [List.length].
    replace (ln + 1 + Z.of_nat (List.length ins))%Z with (ln + Z.of_nat (S (List.length ins)))%Z by lia.
    replace (if n =? 0 then l else blank l) with (if sel then l else blank l); [reflexivity|]. unfold seln in SN. destruct sel; [now rewrite SN|]. destruct n; [lia|reflexivity].
  - (* %if .. %endif *)
    assert (ENDIF : forall n' ln' sl', (n' = 0 \/ n' = S n \/ (n = 0 /\ n' = 1)) -> (n' = 0 -> n = 0) ->
       run defs (e :: ins ++ rest) n' ln' sl' = (x <- run defs (ins ++ rest) n (ln' + 1)%Z sl' ;; Ok (addls [blank e] x))).
    { intros n' ln' sl' HN H0. assert (LAST : match ins ++ rest with [] => true | _ => false end = false) by (destruct ins; [destruct rest; [congruence|reflexivity]|reflexivity]).
      cbn [run]. rewrite LAST, KE. replace (n' - 1) with n by (destruct HN as [->|[->|(-> & ->)]]; [specialize (H0 eq_refl)| |]; lia). reflexivity. }
    cbn [app]. rewrite <- app_assoc. cbn [app run].
    assert (LAST : match i1 ++ e :: ins ++ rest with [] => true | _ => false end = false) by (destruct i1; reflexivity). rewrite LAST, KD.
    assert (TAIL : forall b1 n' sl', b1 = sel && b -> seln b1 n' -> (n' = 0 \/ n' = S n \/ (n = 0 /\ n' = 1)) -> (n' = 0 -> n = 0) -> (n = 0 \/ sl' = sl) ->
      (x <- run defs (i1 ++ e :: ins ++ rest) n' (ln + 1)%Z sl' ;; Ok (addl (blank d) x)) =
      (x <- run defs rest n (ln + Z.of_nat (List.length (d :: i1 ++ e :: ins)))%Z sl ;; Ok (addls (blank d :: o1 ++ blank e :: outs) x))).
    { intros b1 n' sl' -> SN' HN H0 HS. rewrite (IH1 n' SN' (e :: ins ++ rest)) by discriminate. rewrite ENDIF by assumption.
      rewrite (IH2 n SN rest) by exact NE. rewrite !BA, BA1. rewrite <- app_assoc. cbn [app].
      replace (ln + 1 + Z.of_nat (List.length i1) + 1 + Z.of_nat (List.length ins))%Z with (ln + Z.of_nat (List.length (d :: i1 ++ e :: ins)))%Z by (cbn [List.length]; rewrite app_length; cbn [List.length]; lia).
      destruct HS as [->| ->]; [|reflexivity]. now rewrite (run_sl defs rest _ sl' sl). }
    destruct sel; unfold seln in SN.
    + subst n. cbn [Nat.eqb negb]. destruct (HB eq_refl) as (v & EV & VP & EB). unfold cond. rewrite EV. cbn [bind]. replace (v <? 0)%Z with false by (symmetry; apply Z.ltb_ge; lia).
      rewrite (nospace_ifndef d KD). destruct (starts (zs "%ifndef ") d).
      * destruct (v =? 0)%Z; cbn [negb]; subst b.
        -- apply (TAIL true); auto. reflexivity.
        -- apply (TAIL false); auto. unfold seln; lia.
      * destruct (v =? 0)%Z; cbn [negb] in *; subst b.
        -- apply (TAIL false); auto. unfold seln; lia.
        -- apply (TAIL true); auto. reflexivity.
    + destruct n as [|n]; [lia|]. cbn [Nat.eqb negb]. apply (TAIL false); auto.
      * unfold seln. lia. * right. left. lia. * lia.
  - (* %if .. %else .. %endif *)
    assert (ENDIF : forall n' ln' sl', (n' = 0 \/ n' = S n \/ (n = 0 /\ n' = 1)) -> (n' = 0 -> n = 0) ->
       run defs (e :: ins ++ rest) n' ln' sl' = (x <- run defs (ins ++ rest) n (ln' + 1)%Z sl' ;; Ok (addls [blank e] x))).
    { intros n' ln' sl' HN H0. assert (LAST : match ins ++ rest with [] => true | _ => false end = false) by (destruct ins; [destruct rest; [congruence|reflexivity]|reflexivity]).
      cbn [run]. rewrite LAST, KE. replace (n' - 1) with n by (destruct HN as [->|[->|(-> & ->)]]; [specialize (H0 eq_refl)| |]; lia). reflexivity. }
    assert (ELSE : forall n1 n2 ln' sl', (n1 = 1 /\ n2 = 0) \/ (n1 = 0 /\ n2 = 1) \/ (1 < n1 /\ n2 = n1) -> exists sl2, (1 < n1 -> sl2 = sl') /\
       run defs (m :: i2 ++ e :: ins ++ rest) n1 ln' sl' = (x <- run defs (i2 ++ e :: ins ++ rest) n2 (ln' + 1)%Z sl2 ;; Ok (addls [blank m] x))).
    { intros n1 n2 ln' sl' HN. assert (LAST : match i2 ++ e :: ins ++ rest with [] => true | _ => false end = false) by (destruct i2; reflexivity).
      cbn [run]. rewrite LAST, KM. destruct HN as [(-> & ->)|[(-> & ->)|(H & ->)]]; cbn [Nat.eqb].
      - exists sl'. auto. - exists ln'. split; [lia|reflexivity].
      - exists sl'. split; [auto|]. destruct n1 as [|[|n1]]; [lia|lia|reflexivity]. }
    cbn [app]. rewrite <- app_assoc. cbn [app]. rewrite <- app_assoc. cbn [app run].
    assert (LAST : match i1 ++ m :: i2 ++ e :: ins ++ rest with [] => true | _ => false end = false) by (destruct i1; reflexivity). rewrite LAST, KD.
    assert (TAIL : forall n1 n2 sl', seln (sel && b) n1 -> seln (sel && negb b) n2 -> ((n1 = 1 /\ n2 = 0) \/ (n1 = 0 /\ n2 = 1) \/ (1 < n1 /\ n2 = n1)) -> 
      (n2 = 0 \/ n2 = S n \/ (n = 0 /\ n2 = 1)) -> (n2 = 0 -> n = 0) -> (n = 0 \/ (sl' = sl /\ 1 < n1)) ->
      (x <- run defs (i1 ++ m :: i2 ++ e :: ins ++ rest) n1 (ln + 1)%Z sl' ;; Ok (addl (blank d) x)) =
      (x <- run defs rest n (ln + Z.of_nat (List.length (d :: i1 ++ m :: i2 ++ e :: ins)))%Z sl ;; Ok (addls (blank d :: o1 ++ blank m :: o2 ++ blank e :: outs) x))).
    { intros n1 n2 sl' S1 S2 HN HN2 H0 HS. rewrite (IH1 n1 S1 (m :: i2 ++ e :: ins ++ rest)) by discriminate.
      destruct (ELSE n1 n2 (ln + 1 + Z.of_nat (List.length i1))%Z sl' HN) as (sl2 & ES & EE). rewrite EE. rewrite (IH2 n2 S2 (e :: ins ++ rest)) by discriminate. rewrite ENDIF by assumption.
      rewrite (IH3 n SN rest) by exact NE. rewrite !BA, BA1. rewrite <- !app_assoc. cbn [app].
      replace (ln + 1 + Z.of_nat (List.length i1) + 1 + Z.of_nat (List.length i2) + 1 + Z.of_nat (List.length ins))%Z with (ln + Z.of_nat (List.length (d :: i1 ++ m :: i2 ++ e :: ins)))%Z by (cbn [List.length]; rewrite app_length; cbn [List.length]; rewrite app_length; cbn [List.length]; lia).
      destruct HS as [->|(-> & HL)]; [|now rewrite (ES HL)]. now rewrite (run_sl defs rest _ sl2 sl). }
    destruct sel; unfold seln in SN.
    + subst n. cbn [Nat.eqb negb]. destruct (HB eq_refl) as (v & EV & VP & EB). unfold cond. rewrite EV. cbn [bind]. replace (v <? 0)%Z with false by (symmetry; apply Z.ltb_ge; lia).
      rewrite (nospace_ifndef d KD). destruct (starts (zs "%ifndef ") d); destruct (v =? 0)%Z; cbn [negb] in *; subst b; cbn [andb negb] in *;
        first [apply (TAIL 0 1); auto; unfold seln; lia | apply (TAIL 1 0); auto; unfold seln; lia].
    + destruct n as [|n]; [lia|]. cbn [Nat.eqb negb]. replace (S n + 1) with (S (S n)) by lia. apply (TAIL (S (S n)) (S (S n))); auto; unfold seln; cbn [andb]; lia.
Qed.

Definition flat (ls : list (list Z)) : list Z := flat_map (fun l => l ++ [10%Z]) ls.

Lemma flat_join : forall ls l, flat ls ++ l = join (ls ++ [l]).
Proof.
  induction ls as [|x ls IH]; intros l; [reflexivity|]. cbn [flat flat_map app]. fold (flat ls). rewrite <- !app_assoc. cbn [app]. rewrite IH. destruct ls; reflexivity.
Qed.

(** For every well-nested text: the directive lines and the lines of excluded branches are blanked,
    all others are untouched.  The last line has no newline and is not a directive. *)
Theorem C27_selection : forall defs ins outs lastl, doc defs true ins outs -> Forall nonl ins -> nonl lastl -> kind true lastl = LPlain ->
  preprocess_input defs (flat ins ++ lastl) = Ok (PPdone (flat outs ++ lastl)).
Proof.
  intros defs ins outs lastl D F N K. rewrite !flat_join. rewrite preprocess_lines; [|apply Forall_app; auto|destruct ins; discriminate].
  rewrite (doc_run defs true ins outs D 0 eq_refl [lastl]) by discriminate. cbn [run]. rewrite K. cbn [Nat.eqb bind addl]. rewrite addls_lines. reflexivity.
Qed.

(** An excluded branch that is never closed is reported with the line that opened it. *)
Theorem C27_unterminated : forall defs ins outs d i2 o2 lastl, doc defs true ins outs -> kind false d = LIf -> holds defs d false -> doc defs false i2 o2 ->
  Forall nonl (ins ++ d :: i2) -> nonl lastl -> kind true lastl = LPlain ->
  preprocess_input defs (flat (ins ++ d :: i2) ++ lastl) = Ok (PPunterminated (1 + Z.of_nat (List.length ins))).
Proof.
  intros defs ins outs d i2 o2 lastl D KD (v & EV & VP & EB) D2 F N K. rewrite !flat_join. rewrite preprocess_lines; [|apply Forall_app; auto|destruct ins; discriminate].
  rewrite <- app_assoc. cbn [app]. rewrite (doc_run defs true ins outs D 0 eq_refl (d :: i2 ++ [lastl])) by discriminate. cbn [run].
  replace (match i2 ++ [lastl] with [] => true | _ => false end) with false by (destruct i2; reflexivity). rewrite KD. cbn [Nat.eqb negb]. unfold cond. rewrite EV. cbn [bind].
  replace (v <? 0)%Z with false by (symmetry; apply Z.ltb_ge; lia). rewrite (nospace_ifndef d KD).
  replace (if starts (zs "%ifndef ") d then negb (v =? 0)%Z else (v =? 0)%Z) with true by (destruct (starts (zs "%ifndef ") d); destruct (v =? 0)%Z; cbn in *; congruence).
  rewrite (doc_run defs false i2 o2 D2 1 ltac:(cbn; lia) [lastl]) by discriminate. cbn [run]. rewrite K. cbn [Nat.eqb bind addl].
  assert (U : forall ls a, addls ls (Unt a) = Unt a) by (induction ls as [|l ls IH]; intros a; cbn [addls]; [reflexivity|now rewrite IH]).
  rewrite !U. cbn [addl bind]. rewrite U. reflexivity.
Qed.

(** Nested conditions; the first branch is excluded and holds another %if. *)
Definition ex27 : list (list Z) := map zs ["a ::= B."; "%ifdef X"; "b"; "%if (syntax"; "c"; "%else"; "d"; "%endif"; "%else"; "e"; "%ifndef X || Y"; "f"; "%endif // "; "%endif"; "g"]%string.
Example C27_example : exists outs, doc [zs "Z"] true ex27 outs /\ Forall nonl ex27 /\
  outs = map zs ["a ::= B."; "        "; " "; "           "; " "; "     "; " "; "      "; "     "; "e"; "              "; "f"; "          "; "      "; "g"]%string.
Proof.
  eexists. split; [|split].
  - apply doc_line; [reflexivity|].
    eapply (doc_else _ true false (zs "%ifdef X") (zs "%else") (zs "%endif") (map zs ["b"; "%if (syntax"; "c"; "%else"; "d"; "%endif"]%string) _ (map zs ["e"; "%ifndef X || Y"; "f"; "%endif // "]%string)); try reflexivity.
    + intros _. exists 0%Z. split; [vm_compute; reflexivity|]. split; [lia|reflexivity].
    + cbn [andb]. apply doc_line; [reflexivity|]. eapply (doc_else _ false true (zs "%if (syntax") (zs "%else") (zs "%endif") [zs "c"] _ [zs "d"]); try reflexivity; try discriminate; repeat (apply doc_line; [reflexivity|]); apply doc_nil.
    + cbn [andb negb]. apply doc_line; [reflexivity|]. eapply (doc_if _ true true (zs "%ifndef X || Y") (zs "%endif // ") [zs "f"]); try reflexivity.
      * intros _. exists 0%Z. split; [vm_compute; reflexivity|]. split; [lia|reflexivity].
      * cbn [andb]. apply doc_line; [reflexivity|]. apply doc_nil.
      * apply doc_nil.
    + apply doc_line; [reflexivity|]. apply doc_nil.
  - unfold ex27. cbn [map]. repeat constructor; apply nonl_dec; vm_compute; reflexivity.
  - vm_compute. reflexivity.
Qed.

(** A stray %else, outside every conditional, starts an excluded branch. *)
Theorem C27_stray_else_refuted : exists z, (forall l, In l (lines z) -> kind false l <> LIf) /\
  preprocess_input [] z = Ok (PPdone (zs "     " ++ [10%Z] ++ zs " " ++ [10%Z] ++ zs "      " ++ [10%Z])) /\ nth_error z 6 = Some 97%Z.
Proof.
  exists (zs "%else" ++ [10%Z] ++ zs "a" ++ [10%Z] ++ zs "%endif" ++ [10%Z]). split; [|split; vm_compute; reflexivity].
  intros l I. vm_compute in I. destruct I as [<-|[<-|[<-|[<-|[]]]]]; vm_compute; discriminate.
Qed.

(** A final %endif without a newline is not seen, so a closed branch is reported as unterminated. *)
Theorem C27_last_endif_refuted : exists l1 l2 l3, kind false l1 = LIf /\ holds [] l1 false /\ kind false l2 = LPlain /\ kind false l3 = LEndif /\
  preprocess_input [] (flat [l1; l2] ++ l3) = Ok (PPunterminated 1).
Proof.
  exists (zs "%ifdef X"), (zs "a"), (zs "%endif"). split; [reflexivity|]. split; [|repeat split; vm_compute; reflexivity].
  exists 0%Z. split; [vm_compute; reflexivity|]. split; [lia|reflexivity].
Qed.

Print Assumptions C27_shape.
Print Assumptions C27_total.
Print Assumptions C27_selection.
Print Assumptions C27_unterminated.
Print Assumptions C27_stray_else_refuted.
Print Assumptions C27_last_endif_refuted.
