(** The rules of a file as byacc reads them, and the whole file. *)
From Coq Require Import String List Arith ZArith Bool Lia.
Import ListNotations.
From Verif Require Import Base LemonTableModel LemonPreModel LemonCodeModel ByaccParModel ByaccReaderModel ByaccRulesModel ByaccScanModel Prop_ByaccMidrule Prop_ByaccLiteral SpecByaccFile SpecByaccRules ByaccScanProof ByaccTableProof ByaccDeclProof ByaccActionProof.
Open Scope rd_scope.

Lemma latest_none : forall A (f : fact -> option A) n M, (forall m x, In (m, x) M -> f x = None) -> latest f n M = None.
Proof.
  intros A f n. induction M as [|(m & x) M IH]; intros H; [reflexivity|]. cbn [latest]. rewrite IH by (intros m' x' I; apply (H m'); now right). destruct (teq m n); [|reflexivity]. apply (H m). now left.
Qed.
Definition no_tags (M : log) : Prop := forall m g, ~ In (m, Tag g) M.
Lemma tags_same : forall L M n, no_tags M -> tag_of_sym (L ++ M) n = tag_of_sym L n.
Proof.
  intros L M n H. unfold tag_of_sym. rewrite latest_app, latest_none; [reflexivity|]. intros m x I. destruct x; try reflexivity. now apply H in I.
Qed.
Lemma sym_no_tags : forall x, no_tags (sym_facts x).
Proof. intros [n|l] m g H; cbn in H; [destruct H as [H|[]]; discriminate|]. destruct H as [H|[H|H]]; try discriminate. destruct l as [|c [|]]; cbn in H; [tauto| |tauto]. destruct H as [H|[]]; discriminate. Qed.

Lemma events_app : forall a b st, read_events (a ++ b) st = match read_events a st with Ok st' => read_events b st' | Bad => Bad | Fuel => Fuel end.
Proof.
  induction a as [|e a IH]; intros b st; [reflexivity|]. cbn [app read_events]. destruct (read_event e st) as [st'| |]; [apply IH|reflexivity|reflexivity].
Qed.

Lemma Forall2_imp' : forall A B (P Q : A -> B -> Prop), (forall a b, P a b -> Q a b) -> forall l r, Forall2 P l r -> Forall2 Q l r.
Proof. intros A B P Q H l r F. induction F; constructor; auto. Qed.

Section Rules.
Variable LF : log.
Variable tg : txt -> option txt.
Variable goal : txt.

Definition num (n : txt) : nat := pos n (names LF).
Definition pre (L : log) : Prop := exists M, LF = L ++ M.
Lemma pre_app : forall L M, pre (L ++ M) -> pre L.
Proof. intros L M (N & E). exists (M ++ N). now rewrite app_assoc. Qed.
Lemma num_pos : forall L n, pre L -> In n (names L) -> pos n (names L) = num n.
Proof. intros L n (M & E) I. unfold num. rewrite E. symmetry. now apply pos_names_app. Qed.

Definition bt (L : log) (gt : list (option txt)) (b : bucket) (tag : option txt) : Prop :=
  (exists n, In n (names L) /\ b = Name (num n) /\ tag = tg n) \/ (exists k, b = Gen (S k) /\ nth_error gt k = Some tag).

Lemma bt_more : forall L M gt gt' b tag, bt L gt b tag -> bt (L ++ M) (gt ++ gt') b tag.
Proof.
  intros L M gt gt' b tag [(n & I & H)|(k & E & H)]; [left|right].
  - exists n. split; [now apply names_in_app|exact H].
  - exists k. split; [exact E|]. rewrite nth_error_app1; [exact H|]. apply nth_error_Some. congruence.
Qed.

Record rin (L : log) (lt : option txt) (ts : list (option txt)) (pend h : bool) (tx : list txt) (s : rdstate) : Prop := {
  ri_st : st_ok L s;
  ri_tg : forall n, tag_of_sym L n = tg n;
  ri_h : d_havetags s = h;
  ri_goal : goal_is L (Some goal) s;
  ri_its : exists its I l rest p ps, r_items (d_rules s) = map Some its ++ None :: I /\ r_lhs (d_rules s) = Some l :: rest /\ r_prec (d_rules s) = p :: ps /\
           Forall2 (bt L (d_gtags s)) its (rev ts) /\ bt L (d_gtags s) l lt;
  ri_gt : List.length (d_gtags s) = r_gensym (d_rules s);
  ri_act : r_act (d_rules s) = pend;
  ri_out : d_out s = cases_text (r_cases (d_rules s)) tx /\ List.length tx = List.length (r_cases (d_rules s))
}.

Lemma bt_tag : forall L s b tag, pre L -> st_ok L s -> (forall n, tag_of_sym L n = tg n) -> bt L (d_gtags s) b tag -> tag_of b s = ROk tag.
Proof.
  intros L s b tag P ST TG [(n & I & -> & ->)|(k & -> & H)]; cbn [tag_of].
  - rewrite <- (num_pos L n P I), (info_ok L s n ST I). cbn [rbind]. f_equal. cbn. apply TG.
  - cbn [Nat.sub]. rewrite Nat.sub_0_r, H. reflexivity.
Qed.

Lemma rin_keeps : forall L M lt ts pend h tx s s', rin L lt ts pend h tx s -> st_ok (L ++ M) s' -> keeps s s' -> no_tags M -> rin (L ++ M) lt ts pend h tx s'.
Proof.
  intros L M lt ts pend h tx s s' [R1 R2 R3 R4 (its & I & l & rest & p & ps & A & B & C & D & E) R6 R7 R8] ST K NT.
  assert (KG : d_gtags s' = d_gtags s) by (rewrite K; reflexivity). assert (KR : d_rules s' = d_rules s) by (rewrite K; reflexivity).
  constructor; rewrite ?KR, ?KG; auto.
  - intros n. rewrite tags_same by exact NT. apply R2.
  - rewrite K. exact R3.
  - apply (goal_is_app L M (Some goal) s s' R4), keeps_goal, K.
  - exists its, I, l, rest, p, ps. rewrite <- (app_nil_r (d_gtags s)). split; [exact A|]. split; [exact B|]. split; [exact C|]. split; [|now apply bt_more]. revert D. apply Forall2_imp'. intros a b. apply bt_more.
  - rewrite K. exact R8.
Qed.

Lemma flush_ok : forall L lt ts pend h tx s, pre L -> rin L lt ts pend h tx s ->
  exists s', flush s = ROk s' /\ flush_action (d_rules s) = Ok (d_rules s') /\ rin L lt (ts ++ if pend then [lt] else []) pend h tx s'.
Proof.
  intros L lt ts pend h tx s P R. destruct R as [R1 R2 R3 R4 (its & I & l & rest & p & ps & A & B & C & D & E) R6 R7 R8]. unfold flush, flush_action. rewrite R7. destruct pend.
  - rewrite B, (bt_tag L s l lt P R1 R2 E). cbn [rbind]. unfold insert_empty_rule. rewrite A, B, C, shift_ok. cbn [bind lift rbind]. eexists. split; [reflexivity|]. split; [reflexivity|].
    cbn [r_gensym r_items r_lhs r_prec r_act r_cases]. set (g := r_gensym (d_rules s)) in *. cbn [set_gtags set_syms set_rules]. destruct R1 as [S1 S2 S3 S4].
    constructor; cbn [d_infos d_chain d_tags d_rules d_gtags d_havetags d_goal d_out set_gtags set_syms set_rules r_gensym r_items r_lhs r_prec r_act r_cases]; auto.
    + constructor; cbn; auto. destruct S3 as [C1 C2 C3 (r & C4)]. fold g in C3. constructor.
      * apply NoDup_app_iff. split; [exact C1|]. split; [repeat constructor; cbn; tauto|]. intros x Ix [<-|[]]. apply C3 in Ix. lia.
      * intros i. rewrite in_app_iff, C2. cbn [In]. split; [intros [H|[H|[]]]; [exact H|discriminate]|auto].
      * intros k. rewrite in_app_iff, C3. cbn [In]. split; [intros [H|[H|[]]]; [lia|injection H as <-; lia]|]. intros H. destruct (Nat.eq_dec k (S g)); [right; left; congruence|left; lia].
      * exists (r ++ [Gen (S g)]). rewrite C4. reflexivity.
    + exists (Gen (S g) :: its), (None :: I), l, (Some (Gen (S g)) :: rest), p, (Some 0 :: ps). split; [reflexivity|]. split; [reflexivity|]. split; [reflexivity|]. rewrite rev_app_distr. cbn [rev app].
      assert (M : forall b t, bt L (d_gtags s) b t -> bt L (d_gtags s ++ [lt]) b t) by (intros b t X; rewrite <- (app_nil_r L); now apply bt_more). split; [|now apply M].
      constructor; [|now apply (Forall2_imp' _ _ _ _ M)]. right. exists g. split; [reflexivity|]. rewrite nth_error_app2 by lia. replace (g - List.length (d_gtags s)) with 0 by lia. reflexivity.
    + rewrite app_length, R6. cbn. lia.
  - exists s. split; [reflexivity|]. split; [reflexivity|]. rewrite app_nil_r. constructor; auto. exists its, I, l, rest, p, ps. auto.
Qed.

Lemma rules_S : forall f t s, rules_loop (S f) t s =
      ('(c, t) <- next t ;;
      match c with
      | None => ROk (t, s)
      | Some c =>
          if (name_first c || quote_first c)%bool then '(t, s) <- add_symbol t s ;; rules_loop f t s
          else if ((c =? 123) || (c =? 61))%Z then '(t, s) <- copy_action t s ;; rules_loop f t s
          else if (c =? 124)%Z then
            let r := end_rule (d_rules s) in
            match r_lhs r with
            | l :: _ => rules_loop f (tl t) (set_rules (start_rule l r) s)
            | [] => RBad
            end
          else if (c =? 37)%Z then
            '(b, t, s) <- mark_symbol (tl t) s ;; if b then ROk (t, s) else rules_loop f t s
          else RErr
      end).
Proof. reflexivity. Qed.

Lemma add_get : forall c u s, sym_start c -> (if quote_first c then get_literal (c :: u) s else get_name (c :: u) s) = get_sym (c :: u) s.
Proof.
  intros c u s SC. unfold get_sym. apply start_iff in SC. apply orb_true_iff in SC. destruct (name_first c) eqn:N, (quote_first c) eqn:Q; try reflexivity; [|destruct SC; discriminate].
  exfalso. unfold quote_first in Q. apply orb_true_iff in Q. rewrite !Z.eqb_eq in Q. destruct Q as [-> | ->]; discriminate.
Qed.

(** A character that is not [k]. *)
Lemma not_char : forall A (a b : A) d, d <> 40%Z -> d <> 58%Z -> forall c, match Some d with Some 40%Z => a | Some 58%Z => c | _ => b end = b.
Proof. intros A a b d N1 N2 c. destruct d as [|p|p]; try reflexivity. do 6 (destruct p as [p|p|]; try reflexivity); congruence. Qed.

Definition push (i : nat) (s : rdstate) : rdstate :=
  let r := set_act false (d_rules s) in set_rules (mkR (Some (Name i) :: r_items r) (r_lhs r) (r_prec r) (r_act r) (r_gensym r) (r_cases r)) s.

Lemma add_plain : forall c u i r0 s1 c' t s, get_sym (c :: u) s = ROk (i, r0, s1) -> sym_start c -> next r0 = ROk (c', t) -> match c' with Some d => d <> 40%Z /\ d <> 58%Z | None => True end ->
  add_symbol (c :: u) s = (s <- flush s1 ;; ROk (t, push i s)).
Proof.
  intros c u i r0 s1 c' t s E SC EN NC. unfold add_symbol. rewrite (add_get c u s SC), E. cbn [rbind]. cbv beta iota. rewrite EN. cbn [rbind]. cbv beta iota. destruct c' as [d|]; [|reflexivity]. destruct NC as (N1 & N2). now rewrite not_char.
Qed.

Lemma push_ok : forall L lt ts pend h tx s x, pre L -> In (sym_name x) (names L) -> rin L lt ts pend h tx s -> rin L lt (ts ++ [tg (sym_name x)]) false h tx (push (num (sym_name x)) s).
Proof.
  intros L lt ts pend h tx s x P IX [[S1 S2 S3 S4] R2 R3 R4 (its & I & l & rest & p & ps & A & B & C & D & E) R6 R7 R8]. constructor; cbn; auto.
  - constructor; auto.
  - exists (Name (num (sym_name x)) :: its), I, l, rest, p, ps. rewrite A, B, C. split; [reflexivity|]. split; [reflexivity|]. split; [reflexivity|]. split; [|exact E].
    rewrite rev_app_distr. cbn [rev app]. constructor; [|exact D]. left. exists (sym_name x). auto.
Qed.

Lemma stop_next : forall g r, gap g -> stop r -> not_head (fun c => c = 58 \/ c = 40)%Z r -> exists c, next (g ++ r) = ROk (c, r) /\ match c with Some d => d <> 40%Z /\ d <> 58%Z | None => True end.
Proof.
  intros g r G [->|V] N.
  - exists None. rewrite app_nil_r, next_end by exact G. auto.
  - destruct r as [|c r]; [destruct V|]. exists (Some (pc c)). rewrite next_vis by assumption. split; [reflexivity|]. cbn in N. unfold pc. destruct (Z.eqb_spec c 92); lia.
Qed.

Lemma sym_step : forall x t g r f g0 L lt ts pend h tx s, symbol x t (g ++ r) -> ~ reserved (sym_name x) -> gap g -> stop r -> not_head (fun c => c = 58 \/ c = 40)%Z r -> gap g0 -> pre (L ++ sym_facts x) -> rin L lt ts pend h tx s ->
  exists s', rules_loop (S f) (g0 ++ t) s = rules_loop f r s' /\ read_event (ESymbol (num (sym_name x))) (d_rules s) = Ok (d_rules s') /\
    rin (L ++ sym_facts x) lt (ts ++ (if pend then [lt] else []) ++ [tg (sym_name x)]) false h tx s'.
Proof.
  intros x t g r f g0 L lt ts pend h tx s SY NRS G SR NR G0 P R. destruct (get_sym_ok L s x t (g ++ r) (ri_st _ _ _ _ _ _ _ R) SY NRS) as (s1 & E1 & ST1 & K1 & I1).
  destruct (sym_head _ _ _ SY) as (c & u & -> & SC). destruct (start_vis c u SC) as (V & PC). rewrite rules_S, next_vis by assumption. cbn [rbind]. cbv beta iota. rewrite PC, (proj2 (start_iff c) SC).
  destruct (stop_next g r G SR NR) as (c' & EN & NC). rewrite (add_plain _ _ _ _ _ _ _ _ E1 SC EN NC). rewrite (num_pos _ _ P I1) in *.
  pose proof (rin_keeps L (sym_facts x) lt ts pend h tx s s1 R ST1 K1 (sym_no_tags x)) as R1. destruct (flush_ok _ _ _ _ _ _ _ P R1) as (s2 & E2 & E3 & R2). rewrite E2. cbn [rbind]. cbv beta iota.
  exists (push (num (sym_name x)) s2). split; [reflexivity|]. split; [|rewrite app_assoc; now apply (push_ok _ _ _ pend)].
  assert (KR : d_rules s1 = d_rules s) by (rewrite K1; reflexivity). rewrite KR in E3. cbn [read_event]. rewrite E3. reflexivity.
Qed.

Lemma rule_items_ok : forall its I, rule_items (map Some its ++ None :: I) = ROk its.
Proof. induction its as [|b its IH]; intros I; [reflexivity|]. cbn [map app rule_items]. rewrite IH. reflexivity. Qed.

Lemma curl_ok : forall b u, Forall (fun c => isspace c = true /\ c <> 10%Z) b -> blanks_curl (b ++ 123%Z :: u) = Some (123%Z :: u).
Proof.
  intros b u F. induction F as [|c b (S1 & S2) F IH]; [reflexivity|]. cbn [app blanks_curl]. destruct (Z.eqb_spec c 123) as [->|N]; [discriminate|]. rewrite S1, (proj2 (Z.eqb_neq _ _) S2). exact IH.
Qed.

Lemma cases_snoc : forall cs tx c u, List.length tx = List.length cs -> cases_text (cs ++ [c]) (tx ++ [u]) = cases_text cs tx ++ case_out (fst c) u.
Proof.
  intros cs tx c u E. unfold cases_text. assert (X : combine (cs ++ [c]) (tx ++ [u]) = combine cs tx ++ [(c, u)]).
  { revert tx E. induction cs as [|a cs IH]; intros [|b tx] E; try discriminate; [reflexivity|]. cbn [app combine]. rewrite IH by (cbn in E; lia). reflexivity. }
  rewrite X, flat_map_app. cbn [flat_map fst snd]. now rewrite app_nil_r.
Qed.

(** The text from = or the brace on. *)
Inductive opening : txt -> txt -> Prop :=
| O_brace u : opening (123%Z :: u) u
| O_eq b u : Forall (fun c => isspace c = true /\ c <> 10%Z) b -> opening (61%Z :: b ++ 123%Z :: u) u.

Lemma act_step : forall ps t u r f g0 L lt ts pend h tx s o h', acts 1 ps u -> opening t (u ++ r) -> gap g0 -> pre L -> rin L lt ts pend h tx s ->
  pieces_out h lt (ts ++ if pend then [lt] else []) (PText [123%Z] :: ps) = Some (o, h') ->
  exists s', rules_loop (S f) (g0 ++ t) s = rules_loop f r s' /\ read_event (EAction (List.length tx)) (d_rules s) = Ok (d_rules s') /\
    rin L lt (ts ++ if pend then [lt] else []) true h' (tx ++ [o]) s'.
Proof.
  intros ps t u r f g0 L lt ts pend h tx s o h' AC OP G0 P R E. set (ts' := ts ++ if pend then [lt] else []) in *.
  destruct (flush_ok _ _ _ _ _ _ _ P R) as (s1 & E1 & E2 & R1). fold ts' in R1. pose proof R1 as R1'. destruct R1' as [[S1 S2 S3 S4] T2 T3 T4 (its & I & l & rest & p & ps' & A & B & C & D & EL) T6 T7 (T8 & T9)].
  set (num' := List.length (r_lhs (d_rules s1)) - 1 - 2). set (pre_out := zs "case " ++ zdec (Z.of_nat num') ++ zs ":" ++ [10%Z]).
  set (s2 := set_rules (set_act true (d_rules s1)) s1).
  assert (DT : Forall2 (fun b tg => tag_of b s2 = ROk tg) its (rev ts')) by (revert D; apply Forall2_imp'; intros a b X; apply (bt_tag L s1 a b P (ri_st _ _ _ _ _ _ _ R1) T2 X)).
  assert (LT : tag_of l s2 = ROk lt) by (apply (bt_tag L s1 l lt P (ri_st _ _ _ _ _ _ _ R1) T2 EL)).
  assert (CA : forall t0, (match t0 with 61%Z :: r => r | _ => t0 end) = t0 \/ True) by auto.
  assert (CC : copy_action t s = ('(t, s) <- action_loop (S (List.length (123%Z :: u ++ r))) its 0 (123%Z :: u ++ r) (add_out [9%Z] (add_out pre_out s2)) ;;
     let r := d_rules s in
     let s := set_rules (mkR (r_items r) (r_lhs r) (r_prec r) (r_act r) (r_gensym r) (r_cases r ++ [(num', List.length (r_cases r))])) s in
     ROk (t, add_out ([10%Z] ++ zs "break;" ++ [10%Z]) s))).
  { unfold copy_action. rewrite E1. cbn [rbind]. cbv zeta. fold s2. assert (X : rule_items (r_items (d_rules s2)) = ROk its) by (unfold s2; cbn; rewrite A; apply rule_items_ok). rewrite X. cbn [rbind].
    change (r_lhs (d_rules s2)) with (r_lhs (d_rules s1)). fold num'. fold pre_out.
    assert (Y : blanks_curl (match t with 61%Z :: r => r | _ => t end) = Some (123%Z :: u ++ r)) by (destruct OP as [v|b v F]; [reflexivity|now apply curl_ok]). rewrite Y. reflexivity. }
  assert (HD : exists c v, t = c :: v /\ (c = 123 \/ c = 61)%Z) by (destruct OP; eauto). destruct HD as (c & v & Et & HC).
  assert (V : visible (c :: v)) by (apply vis_in; cbn; lia). assert (EN : next (g0 ++ t) = ROk (Some (pc c), t)) by (rewrite Et; now apply next_vis). rewrite rules_S, EN. cbn [rbind]. cbv beta iota.
  replace (name_first (pc c) || quote_first (pc c))%bool with false by (destruct HC as [-> | ->]; reflexivity). replace ((pc c =? 123) || (pc c =? 61))%Z with true by (destruct HC as [-> | ->]; reflexivity).
  rewrite CC. clear CC CA. cbn [List.length]. rewrite loop_S. cbn [Z.eqb Pos.eqb rbind orb]. change (IS_NAME1 123) with false. cbv iota zeta.
  destruct (out_split ts' lt _ _ _ _ _ E) as (o1 & o2 & X1 & X2 & ->). cbn [piece_out] in X1. injection X1 as <-. cbn [tagged] in X2. rewrite orb_false_r in X2.
  change (0 + 1)%Z with (Z.of_nat 1).
  assert (SO : add_out [123%Z] (add_out [9%Z] (add_out pre_out s2)) = upd_out h (d_tags s1) (pre_out ++ [9; 123]%Z) s2).
  { rewrite <- T3. unfold upd_out, add_out, set_tags, s2, set_rules. cbn [d_out d_havetags d_tags d_chain d_infos d_gtags d_goal d_prec d_union d_expect d_rules]. f_equal. rewrite <- !app_assoc. reflexivity. }
  rewrite SO. destruct (loop_ok s2 its ts' l rest lt DT B LT 1 ps u AC (S (List.length (u ++ r))) h (d_tags s1) (pre_out ++ [9; 123]%Z) r o2 h' (le_n _)) as (l' & EQ & FT); [rewrite app_length; lia|exact S4|exact X2|].
  rewrite EQ. cbn [rbind]. cbv beta iota zeta. eexists. split; [reflexivity|]. split.
  - cbn [read_event]. rewrite E2. cbn [bind]. f_equal. unfold upd_out, s2. cbn. rewrite T9. reflexivity.
  - unfold upd_out, s2. constructor; cbn [d_infos d_chain d_tags d_rules d_gtags d_havetags d_goal d_out set_tags add_out set_rules r_gensym r_items r_lhs r_prec r_act r_cases set_act]; auto.
    + constructor; auto.
    + exists its, I, l, rest, p, ps'. auto.
    + rewrite T8, app_length, cases_snoc by exact T9. rewrite app_length. cbn [List.length]. split; [|lia]. rewrite <- !app_assoc. f_equal. unfold case_out, pre_out. cbn [fst]. rewrite <- !app_assoc. reflexivity.
Qed.

Lemma prec_word_ok : forall w t, prec_word w -> not_head is_ident t -> t <> [] -> word_is (zs "prec") (w ++ t) = true /\ word_is (zs "empty") (w ++ t) = false /\ skipn 4 (w ++ t) = t /\ exists c r, w = c :: r /\ (c = 112 \/ c = 80)%Z.
Proof.
  intros w t H NH NE. unfold prec_word in H. change (zs "prec") with [112; 114; 101; 99]%Z in *.
  inversion H as [|a ? w1 ? A1 H1]; subst. inversion H1 as [|b ? w2 ? A2 H2]; subst. inversion H2 as [|c ? w3 ? A3 H3]; subst. inversion H3 as [|d ? w4 ? A4 H4]; subst. inversion H4; subst.
  cbn [app]. change (zs "empty") with [101; 109; 112; 116; 121]%Z. cbn [word_is]. unfold lower_is.
  assert (X : forall x k, (x = k \/ x = k - 32)%Z -> ((x =? k) || (x =? k - 32))%Z = true) by (intros x k [-> | ->]; rewrite Z.eqb_refl, ?orb_true_r; reflexivity).
  rewrite !X by assumption. split; [|split; [|split; [reflexivity|]]].
  - destruct t as [|e t]; [easy|]. cbn in NH |- *. rewrite (not_true _ _ (IS_IDENT_iff e) NH). reflexivity.
  - rewrite (proj2 (Z.eqb_neq a 101)), (proj2 (Z.eqb_neq a (101 - 32))) by lia. reflexivity.
  - exists a, [b; c; d]. split; [reflexivity|lia].
Qed.

(** What follows the percent sign of a precedence. *)
Inductive prec_open : txt -> txt -> Prop :=
| PO_word w t : prec_word w -> not_head is_ident t -> prec_open (w ++ t) t
| PO_eq t : prec_open (61%Z :: t) t.

Lemma mark_get : forall c u s, sym_start c -> (if name_first c then get_name (c :: u) s else if quote_first c then get_literal (c :: u) s else RErr) = get_sym (c :: u) s.
Proof. intros c u s SC. unfold get_sym. apply start_iff in SC. apply orb_true_iff in SC. destruct (name_first c); [reflexivity|]. destruct (quote_first c); [reflexivity|]. destruct SC; discriminate. Qed.

Lemma prec_part_step : forall x q t0 g t r f g0 L lt ts pend h tx s, percent q -> prec_open t0 (g ++ t) -> gap g -> symbol x t r -> ~ reserved (sym_name x) -> gap g0 -> pre (L ++ sym_facts x) -> rin L lt ts pend h tx s ->
  exists s', rules_loop (S f) (g0 ++ q :: t0) s = rules_loop f r s' /\ read_event (EPrec (num (sym_name x))) (d_rules s) = Ok (d_rules s') /\ rin (L ++ sym_facts x) lt ts pend h tx s'.
Proof.
  intros x q t0 g t r f g0 L lt ts pend h tx s Q PO G SY NRS G0 P R. destruct (get_sym_ok L s x t r (ri_st _ _ _ _ _ _ _ R) SY NRS) as (s1 & E1 & ST1 & K1 & I1).
  destruct (sym_head _ _ _ SY) as (c & u & -> & SC). destruct (start_vis c u SC) as (V & PC). destruct (percent_vis q t0 Q) as (VQ & PQ).
  assert (MS : mark_symbol t0 s = ('(i, t, s) <- get_sym (c :: u) s ;; match r_prec (d_rules s) with _ :: ps => let r := d_rules s in ROk (false, t, set_rules (mkR (r_items r) (r_lhs r) (Some i :: ps) (r_act r) (r_gensym r) (r_cases r)) s) | [] => RBad end)).
  { assert (NX : next (g ++ c :: u) = ROk (Some c, c :: u)) by (rewrite next_vis by assumption; now rewrite PC). remember (g ++ c :: u) as gu eqn:Egu. destruct PO as [w t PW NH|t].
    - assert (NE : t <> []) by (rewrite Egu; destruct g; discriminate). destruct (prec_word_ok w t PW NH NE) as (W1 & W2 & W3 & a & w' & EW & HA). remember (w ++ t) as wt eqn:Ewt. assert (Hwt : wt = a :: w' ++ t) by (rewrite Ewt, EW; reflexivity).
      unfold mark_symbol. rewrite Hwt at 1. rewrite (proj2 (Z.eqb_neq a 37)), (proj2 (Z.eqb_neq a 92)), (proj2 (Z.eqb_neq a 61)) by lia. cbn [orb]. rewrite W2, W1, W3, NX. cbn [rbind]. cbv beta iota. rewrite (mark_get c u s SC). reflexivity.
    - unfold mark_symbol. cbn [Z.eqb Pos.eqb orb]. change (word_is (zs "empty") (61%Z :: t)) with false. cbv iota. rewrite NX. cbn [rbind]. cbv beta iota. rewrite (mark_get c u s SC). reflexivity. }
  rewrite rules_S, next_vis by assumption. cbn [rbind]. cbv beta iota. rewrite PQ. change (name_first 37 || quote_first 37)%bool with false. cbn [Z.eqb Pos.eqb orb tl]. rewrite MS, E1. cbn [rbind]. cbv beta iota.
  pose proof (rin_keeps L (sym_facts x) lt ts pend h tx s s1 R ST1 K1 (sym_no_tags x)) as R1. rewrite (num_pos _ _ P I1).
  assert (KR : d_rules s1 = d_rules s) by (rewrite K1; reflexivity).
  destruct R1 as [[S1 S2 S3 S4] T2 T3 T4 (its & I & l & rest & p & ps & A & B & C & D & EL) T6 T7 T8]. rewrite C. cbv zeta. eexists. split; [reflexivity|]. split.
  - cbn [read_event]. rewrite <- KR, C. reflexivity.
  - constructor; cbn; auto.
    + constructor; auto.
    + exists its, I, l, rest, (Some (num (sym_name x))), ps. auto.
Qed.

Definition body_names (b : list fpart) : list txt := flat_map (fun p => match p with FSym x | FPrec x => [sym_name x] | FAct _ => [] end) b.
Notation fit l := (Forall (fun n => ~ reserved n) l).

Lemma part_shorter : forall p t r, part_text p t r -> List.length r < List.length t.
Proof.
  intros p t r H. destruct H as [x t g r SY G|ps u g r A G|ps b u g r B A G|x q w g t g' r Q W N G SY G'|x q g t g' r Q G SY G']; try (apply sym_shorter in SY; rewrite app_length in SY); cbn [List.length]; rewrite ?app_length; cbn [List.length]; rewrite ?app_length; lia.
Qed.

Lemma bodies_ok : forall b t r, parts_text b t r -> forall f g0 L lt ts pend h tx s os h', gap g0 -> List.length (g0 ++ t) < f -> pre (L ++ flat_map part_facts b) -> rin L lt ts pend h tx s ->
  fit (body_names b) -> body_out tg lt ts pend h b = Some (os, h') ->
  exists f' g s' ts' pend', gap g /\ List.length (g ++ r) < f' /\ rules_loop f (g0 ++ t) s = rules_loop f' (g ++ r) s' /\
    read_events (map part_event (conv num (List.length tx) b)) (d_rules s) = Ok (d_rules s') /\ rin (L ++ flat_map part_facts b) lt ts' pend' h' (tx ++ os) s' /\ List.length os = acts_in b.
Proof.
  intros b t r H. induction H as [r|p b t u r PT H IH]; intros f g0 L lt ts pend h tx s os h' G0 LF' P R NRS BO.
  - cbn [body_out] in BO. injection BO as <- <-. exists f, g0, s, ts, pend. cbn [flat_map conv map read_events]. rewrite !app_nil_r. auto 10.
  - cbn [flat_map] in P. rewrite app_assoc in P. pose proof (pre_app _ _ P) as P1. pose proof (part_shorter _ _ _ PT) as LE. destruct f as [|f]; [lia|]. rewrite app_length in LF'. unfold body_names in NRS. cbn [flat_map] in NRS. apply Forall_app in NRS. destruct NRS as (NR1 & NRS). fold (body_names b) in NRS.
    assert (STEP : exists g s1 e ts1 pend1 h1 o1 os1, gap g /\ List.length (g ++ u) < f /\ rules_loop (S f) (g0 ++ t) s = rules_loop f (g ++ u) s1 /\ read_event e (d_rules s) = Ok (d_rules s1) /\
        map part_event (conv num (List.length tx) (p :: b)) = e :: map part_event (conv num (List.length (tx ++ o1)) b) /\
        rin (L ++ part_facts p) lt ts1 pend1 h1 (tx ++ o1) s1 /\ body_out tg lt ts1 pend1 h1 b = Some (os1, h') /\ os = o1 ++ os1 /\ List.length o1 = acts_in [p]).
    { destruct PT as [x t g u SY G SU NU|ps v g u A G SU|ps bl v g u BL A G SU|x q w g t g' u Q W N G SY G' SU|x q g t g' u Q G SY G' SU].
      - destruct (sym_step x t g u f g0 L lt ts pend h tx s SY (Forall_inv NR1) G SU NU G0 P1 R) as (s1 & E1 & E2 & R1). exists [], s1, (ESymbol (num (sym_name x))), (ts ++ (if pend then [lt] else []) ++ [tg (sym_name x)]), false, h, [], os.
        rewrite !app_nil_r. cbn [body_out] in BO. split; [constructor|]. split; [cbn [app]; lia|]. split; [exact E1|]. split; [exact E2|]. split; [reflexivity|]. split; [exact R1|]. split; [exact BO|]. split; reflexivity.
      - cbn [body_out] in BO. destruct (pieces_out h lt (ts ++ (if pend then [lt] else [])) (PText [123%Z] :: ps)) as [(o & h1)|] eqn:PO; [|discriminate].
        destruct (body_out tg lt (ts ++ (if pend then [lt] else [])) true h1 b) as [(os1 & h2)|] eqn:BO'; [|discriminate]. injection BO as <- <-. cbn [part_facts] in P1. rewrite app_nil_r in P1.
        destruct (act_step ps (123%Z :: v ++ g ++ u) v (g ++ u) f g0 L lt ts pend h tx s o h1 A (O_brace _) G0 P1 R PO) as (s1 & E1 & E2 & R1).
        exists g, s1, (EAction (List.length tx)), (ts ++ (if pend then [lt] else [])), true, h1, [o], os1. cbn [part_facts]. rewrite app_nil_r. split; [exact G|]. split; [cbn [List.length] in *; rewrite !app_length in *; lia|]. split; [exact E1|]. split; [exact E2|].
        split; [cbn [conv map part_event]; rewrite app_length; cbn [List.length]; now rewrite Nat.add_1_r|]. auto.
      - cbn [body_out] in BO. destruct (pieces_out h lt (ts ++ (if pend then [lt] else [])) (PText [123%Z] :: ps)) as [(o & h1)|] eqn:PO; [|discriminate].
        destruct (body_out tg lt (ts ++ (if pend then [lt] else [])) true h1 b) as [(os1 & h2)|] eqn:BO'; [|discriminate]. injection BO as <- <-. cbn [part_facts] in P1. rewrite app_nil_r in P1.
        destruct (act_step ps (61%Z :: bl ++ 123%Z :: v ++ g ++ u) v (g ++ u) f g0 L lt ts pend h tx s o h1 A (O_eq _ _ BL) G0 P1 R PO) as (s1 & E1 & E2 & R1).
        exists g, s1, (EAction (List.length tx)), (ts ++ (if pend then [lt] else [])), true, h1, [o], os1. cbn [part_facts]. rewrite app_nil_r. split; [exact G|]. split; [cbn [List.length] in *; rewrite !app_length in *; cbn [List.length] in *; rewrite !app_length in *; lia|]. split; [exact E1|]. split; [exact E2|].
        split; [cbn [conv map part_event]; rewrite app_length; cbn [List.length]; now rewrite Nat.add_1_r|]. auto.
      - destruct (prec_part_step x q (w ++ g ++ t) g t (g' ++ u) f g0 L lt ts pend h tx s Q (PO_word w (g ++ t) W N) G SY (Forall_inv NR1) G0 P1 R) as (s1 & E1 & E2 & R1). cbn [body_out] in BO.
        exists g', s1, (EPrec (num (sym_name x))), ts, pend, h, [], os. rewrite !app_nil_r. split; [exact G'|]. split; [apply sym_shorter in SY; cbn [List.length] in *; rewrite !app_length in *; lia|]. split; [exact E1|]. split; [exact E2|]. split; [reflexivity|]. auto.
      - destruct (prec_part_step x q (61%Z :: g ++ t) g t (g' ++ u) f g0 L lt ts pend h tx s Q (PO_eq (g ++ t)) G SY (Forall_inv NR1) G0 P1 R) as (s1 & E1 & E2 & R1). cbn [body_out] in BO.
        exists g', s1, (EPrec (num (sym_name x))), ts, pend, h, [], os. rewrite !app_nil_r. split; [exact G'|]. split; [apply sym_shorter in SY; cbn [List.length] in *; rewrite !app_length in *; lia|]. split; [exact E1|]. split; [exact E2|]. split; [reflexivity|]. auto. }
    destruct STEP as (g & s1 & e & ts1 & pend1 & h1 & o1 & os1 & G & LG & E1 & E2 & E3 & R1 & BO1 & -> & LO).
    destruct (IH f g (L ++ part_facts p) lt ts1 pend1 h1 (tx ++ o1) s1 os1 h' G LG P R1 NRS BO1) as (f' & g' & s' & ts' & pend' & G' & LG' & E4 & E5 & R2 & LO2).
    exists f', g', s', ts', pend'. split; [exact G'|]. split; [exact LG'|]. split; [congruence|]. split; [rewrite E3; cbn [read_events]; rewrite E2; exact E5|]. cbn [flat_map]. rewrite !app_assoc. split; [exact R2|].
    rewrite app_length, LO, LO2. unfold acts_in. cbn [filter]. destruct p; reflexivity.
Qed.

Lemma rin_bar : forall L lt ts pend h tx s, rin L lt ts pend h tx s -> exists l rest, r_lhs (d_rules s) = Some l :: rest /\ rin L lt [] false h tx (set_rules (start_rule (Some l) (end_rule (d_rules s))) s).
Proof.
  intros L lt ts pend h tx s [[S1 S2 S3 S4] R2 R3 R4 (its & I & l & rest & p & ps & A & B & C & D & E) R6 R7 R8]. exists l, rest. split; [exact B|]. constructor; cbn; auto.
  - constructor; auto.
  - exists [], (r_items (d_rules s)), l, (r_lhs (d_rules s)), None, (r_prec (d_rules s)). cbn. split; [reflexivity|]. split; [reflexivity|]. split; [reflexivity|]. split; [constructor|exact E].
Qed.

Lemma out_app : forall a b h o h', rules_out_text tg h (a ++ b) = Some (o, h') -> exists o1 h1 o2, rules_out_text tg h a = Some (o1, h1) /\ rules_out_text tg h1 b = Some (o2, h') /\ o = o1 ++ o2.
Proof.
  induction a as [|(n & p) a IH]; intros b h o h' H; cbn [app rules_out_text] in *; [exists [], h, o; auto|].
  destruct (body_out tg (tg n) [] false h p) as [(l & h1)|]; [|discriminate]. destruct (rules_out_text tg h1 (a ++ b)) as [(l' & h2)|] eqn:E; [|discriminate]. injection H as <- <-.
  destruct (IH _ _ _ _ E) as (o1 & h3 & o2 & E1 & E2 & ->). rewrite E1. exists (l ++ o1), h3, o2. rewrite app_assoc. auto.
Qed.

Lemma alts_ok : forall l t r, alts_text l t r -> forall n f g0 L ts pend h tx s os h', gap g0 -> List.length (g0 ++ t) < f -> pre (L ++ flat_map (flat_map part_facts) l) -> rin L (tg n) ts pend h tx s ->
  fit (flat_map body_names l) -> rules_out_text tg h (map (pair n) l) = Some (os, h') ->
  exists f' g s' ts' pend', gap g /\ List.length (g ++ r) < f' /\ rules_loop f (g0 ++ t) s = rules_loop f' (g ++ r) s' /\
    read_events (flat_map (fun b => EBar :: map part_event b) (conv_alts num (List.length tx) l)) (d_rules s) = Ok (d_rules s') /\
    rin (L ++ flat_map (flat_map part_facts) l) (tg n) ts' pend' h' (tx ++ os) s' /\ List.length os = alts_acts l.
Proof.
  intros l t r H. induction H as [r|b l g t u r G ST PT H IH]; intros n f g0 L ts pend h tx s os h' G0 LF' P R NRS RO.
  - cbn [map rules_out_text] in RO. injection RO as <- <-. exists f, g0, s, ts, pend. cbn [flat_map conv_alts read_events]. rewrite !app_nil_r. auto 10.
  - cbn [flat_map] in NRS. apply Forall_app in NRS. destruct NRS as (NR1 & NRS). cbn [map] in RO. change ((n, b) :: map (pair n) l) with ([(n, b)] ++ map (pair n) l) in RO. destruct (out_app _ _ _ _ _ RO) as (o1 & h1 & o2 & X1 & X2 & ->). cbn [rules_out_text] in X1.
    destruct (body_out tg (tg n) [] false h b) as [(o & h2)|] eqn:BO; [|discriminate]. injection X1 as <- <-. rewrite app_nil_r in *. cbn [flat_map] in P. rewrite app_assoc in P. pose proof (pre_app _ _ P) as P1.
    destruct f as [|f]; [lia|]. assert (V : visible (124%Z :: g ++ t)) by (apply vis_in; cbn; lia). rewrite rules_S, next_vis by assumption. cbn [rbind]. cbv beta iota. change (pc 124) with 124%Z. change (name_first 124 || quote_first 124)%bool with false. cbn [Z.eqb Pos.eqb orb tl].
    cbv zeta. destruct (rin_bar _ _ _ _ _ _ _ R) as (l0 & rest & EL & R0). change (r_lhs (end_rule (d_rules s))) with (r_lhs (d_rules s)). rewrite EL. rewrite app_length in LF'. cbn [List.length] in LF'.
    destruct (bodies_ok b t u PT f g L (tg n) [] false h tx _ o h2 G ltac:(lia) P1 R0 NR1 BO) as (f1 & g1 & s1 & ts1 & pend1 & G1 & LG1 & E1 & E2 & R1 & LO1).
    destruct (IH n f1 g1 _ ts1 pend1 h2 (tx ++ o) s1 o2 h' G1 LG1 P R1 NRS X2) as (f2 & g2 & s2 & ts2 & pend2 & G2 & LG2 & E3 & E4 & R2 & LO2).
    exists f2, g2, s2, ts2, pend2. split; [exact G2|]. split; [exact LG2|]. split; [congruence|]. cbn [conv_alts flat_map app]. split.
    + cbn [read_events read_event]. change (r_lhs (end_rule (d_rules s))) with (r_lhs (d_rules s)). rewrite EL. cbn [bind]. rewrite events_app. cbn [set_rules d_rules] in E2. rewrite E2. rewrite app_length, LO1 in E4. exact E4.
    + rewrite !app_assoc. split; [exact R2|]. rewrite app_length, LO1, LO2. unfold alts_acts. reflexivity.
Qed.

(** * A left side *)

Lemma begin_ok : forall L n s, pre (L ++ [(n, Lhs)]) -> st_ok L s -> In n (names L) -> ~ is_token L n ->
  exists s', begin_rule (num n) s = ROk s' /\ st_ok (L ++ [(n, Lhs)]) s' /\ s' = set_rules (start_rule (Some (Name (num n))) (d_rules s)) (set_syms (d_chain s') (d_infos s') s).
Proof.
  intros L n s P ST I NT. pose proof (pre_app _ _ P) as P1. unfold begin_rule. rewrite <- (num_pos L n P1 I), (info_ok L s n ST I). cbn [rbind].
  pose proof (class_term L n NT) as NC. destruct (update_ok L s n (with_class NONTERM) Lhs ST I (entry_lhs L n (not_true _ _ (tokenb_iff L n) NT)) Logic.I) as ([S1 S2 S3 S4] & K).
  exists (set_rules (start_rule (Some (Name (pos n (names L)))) (d_rules s)) (update (pos n (names L)) (with_class NONTERM) s)). split; [destruct (b_class (entry L n)); [reflexivity|now destruct NC|reflexivity]|]. split.
  - constructor; auto. assert (KR : d_rules (update (pos n (names L)) (with_class NONTERM) s) = d_rules s) by (rewrite K; reflexivity). rewrite KR in S3. exact S3.
  - rewrite K. reflexivity.
Qed.

(** The state at the beginning of a right side. *)
Lemma begin_rin : forall L n s s1 h tx gl, pre (L ++ [(n, Lhs)]) -> st_ok L s -> In n (names L) -> ~ is_token L n -> (forall m, tag_of_sym L m = tg m) -> d_havetags s = h -> goal_is L gl s -> gl = Some goal ->
  List.length (d_gtags s) = r_gensym (d_rules s) -> d_out s = cases_text (r_cases (d_rules s)) tx -> List.length tx = List.length (r_cases (d_rules s)) -> r_act (d_rules s) = false ->
  (exists I, r_items (d_rules s) = None :: I) -> begin_rule (num n) s = ROk s1 -> rin (L ++ [(n, Lhs)]) (tg n) [] false h tx s1 /\ d_rules s1 = start_rule (Some (Name (num n))) (d_rules s).
Proof.
  intros L n s s1 h tx gl P ST I NT TG H GO -> GT DO LT RA (It & EI) E. destruct (begin_ok L n s P ST I NT) as (s' & E' & ST' & K). rewrite E in E'. injection E' as <-.
  assert (NTG : no_tags [(n, Lhs)]) by (intros m g [X|[]]; discriminate).
  assert (KG : d_gtags s1 = d_gtags s) by (rewrite K; reflexivity). assert (KR : d_rules s1 = start_rule (Some (Name (num n))) (d_rules s)) by (rewrite K; reflexivity). split; [|exact KR].
  constructor; rewrite ?KR, ?KG; auto.
  - intros m. rewrite tags_same by exact NTG. apply TG.
  - rewrite K. exact H.
  - apply (goal_is_app L [(n, Lhs)] (Some goal) s s1 GO). rewrite K. reflexivity.
  - exists [], It, (Name (num n)), (r_lhs (d_rules s)), None, (r_prec (d_rules s)). cbn. rewrite EI. split; [reflexivity|]. split; [reflexivity|]. split; [reflexivity|]. split; [constructor|].
    left. exists n. split; [now apply names_in_app|]. auto.
  - rewrite K. cbn. auto.
Qed.

(** The rest of a group behind its colon. *)
Lemma group_rest : forall n b l u v r f g0 L h tx s os h', parts_text b u v -> alts_text l v r -> gap g0 -> List.length (g0 ++ u) < f ->
  pre (L ++ flat_map part_facts b ++ flat_map (flat_map part_facts) l) -> rin L (tg n) [] false h tx s -> fit (body_names b ++ flat_map body_names l) -> rules_out_text tg h (map (pair n) (b :: l)) = Some (os, h') ->
  exists f' g s' ts' pend', gap g /\ List.length (g ++ r) < f' /\ rules_loop f (g0 ++ u) s = rules_loop f' (g ++ r) s' /\
    read_events (group_events (conv_group num (List.length tx) (mkF n b l))) (d_rules s) = Ok (d_rules s') /\
    rin (L ++ flat_map part_facts b ++ flat_map (flat_map part_facts) l) (tg n) ts' pend' h' (tx ++ os) s' /\ List.length os = group_acts (mkF n b l).
Proof.
  intros n b l u v r f g0 L h tx s os h' PT AT G0 LF' P R NRS RO. apply Forall_app in NRS. destruct NRS as (NR1 & NRS). rewrite app_assoc in P. pose proof (pre_app _ _ P) as P1.
  cbn [map] in RO. change ((n, b) :: map (pair n) l) with ([(n, b)] ++ map (pair n) l) in RO. destruct (out_app _ _ _ _ _ RO) as (o1 & h1 & o2 & X1 & X2 & ->). cbn [rules_out_text] in X1.
  destruct (body_out tg (tg n) [] false h b) as [(o & h2)|] eqn:BO; [|discriminate]. injection X1 as <- <-. rewrite app_nil_r in *.
  destruct (bodies_ok b u v PT f g0 L (tg n) [] false h tx s o h2 G0 LF' P1 R NR1 BO) as (f1 & g1 & s1 & ts1 & pend1 & G1 & LG1 & E1 & E2 & R1 & LO1).
  destruct (alts_ok l v r AT n f1 g1 _ ts1 pend1 h2 (tx ++ o) s1 o2 h' G1 LG1 P R1 NRS X2) as (f2 & g2 & s2 & ts2 & pend2 & G2 & LG2 & E3 & E4 & R2 & LO2).
  exists f2, g2, s2, ts2, pend2. split; [exact G2|]. split; [exact LG2|]. split; [congruence|]. split.
  - unfold group_events, conv_group. cbn [gr_body gr_alts f_lhs f_body f_alts]. rewrite events_app, E2. rewrite app_length, LO1 in E4. exact E4.
  - rewrite !app_assoc. split; [exact R2|]. rewrite app_length, LO1, LO2. reflexivity.
Qed.

Definition group_names (f : fgroup) : list txt := f_lhs f :: body_names (f_body f) ++ flat_map body_names (f_alts f).

Lemma pre_token : forall L n, pre L -> is_token L n -> is_token LF n.
Proof. intros L n (M & ->) [H|H]; [now left|right]. apply in_or_app. now left. Qed.
Lemma pre_lhs : forall L n, pre L -> In (n, Lhs) L -> is_lhs LF n.
Proof. intros L n (M & ->) H. apply in_or_app. now left. Qed.

Lemma add_colon : forall c u i g g' u' s1 s, get_sym (c :: u) s = ROk (i, g ++ 58%Z :: g' ++ u', s1) -> sym_start c -> gap g ->
  add_symbol (c :: u) s = (s <- begin_rule i (set_rules (end_rule (d_rules s1)) s1) ;; ROk (g' ++ u', s)).
Proof.
  intros c u i g g' u' s1 s E SC G. unfold add_symbol. rewrite (add_get c u s SC), E. cbn [rbind]. cbv beta iota. rewrite next_vis; [|exact G|apply vis_in; cbn; lia]. reflexivity.
Qed.

Lemma group_step : forall fg t r f g0 L lt ts pend h tx s os h', group_text fg t r -> gap g0 -> List.length (g0 ++ t) < f -> pre (L ++ group_facts fg) -> rin L lt ts pend h tx s ->
  fit (group_names fg) -> ~ is_token L (f_lhs fg) -> rules_out_text tg h (map (pair (f_lhs fg)) (f_body fg :: f_alts fg)) = Some (os, h') ->
  exists f' g s' ts' pend', gap g /\ List.length (g ++ r) < f' /\ rules_loop f (g0 ++ t) s = rules_loop f' (g ++ r) s' /\
    read_events (EColon (num (f_lhs fg)) :: group_events (conv_group num (List.length tx) fg)) (d_rules s) = Ok (d_rules s') /\
    rin (L ++ group_facts fg) (tg (f_lhs fg)) ts' pend' h' (tx ++ os) s' /\ List.length os = group_acts fg.
Proof.
  intros fg t r f g0 L lt ts pend h tx s os h' GT G0 LF' P R NRS NT0 RO. destruct GT as [n b l t g g' u v r SY G G' SU PT AT]. unfold group_names in NRS. cbn [f_lhs f_body f_alts] in *. pose proof (Forall_inv NRS) as NR. apply Forall_inv_tail in NRS. cbv beta in NR.
  assert (EL : L ++ group_facts (mkF n b l) = ((L ++ [(n, See)]) ++ [(n, Lhs)]) ++ flat_map part_facts b ++ flat_map (flat_map part_facts) l) by (unfold group_facts; cbn [f_lhs f_body f_alts]; now rewrite <- !app_assoc).
  rewrite EL in *. pose proof (pre_app _ _ P) as P2. pose proof (pre_app _ _ P2) as P1.
  destruct (get_sym_ok L s _ _ _ (ri_st _ _ _ _ _ _ _ R) SY NR) as (s1 & E1 & ST1 & K1 & I1). change (sym_facts (SName n)) with [(n, See)] in *. cbn [sym_name] in *. pose proof (sym_shorter _ _ _ SY) as SS.
  destruct (sym_head _ _ _ SY) as (c & w & -> & SC). destruct (start_vis c w SC) as (V & PC). destruct f as [|f]; [lia|]. rewrite rules_S, next_vis by assumption. cbn [rbind]. cbv beta iota. rewrite PC, (proj2 (start_iff c) SC).
  rewrite (add_colon _ _ _ _ _ _ _ _ E1 SC G). rewrite (num_pos _ _ P1 I1).
  assert (NT : ~ is_token (L ++ [(n, See)]) n) by (intros X; now apply is_token_see in X).
  assert (NTG : no_tags [(n, See)]) by (intros m q [X|[]]; discriminate). pose proof (rin_keeps L [(n, See)] lt ts pend h tx s s1 R ST1 K1 NTG) as R1.
  assert (KR : d_rules s1 = d_rules s) by (rewrite K1; reflexivity).
  set (s2 := set_rules (end_rule (d_rules s1)) s1).
  assert (ST2 : st_ok (L ++ [(n, See)]) s2) by (destruct ST1 as [S1 S2 S3 S4]; constructor; auto).
  destruct (begin_ok (L ++ [(n, See)]) n s2 P2 ST2 I1 NT) as (s3 & E3 & _ & _). rewrite E3. cbn [rbind]. cbv beta iota.
  destruct R1 as [T1 T2 T3 T4 T5 T6 T7 (T8 & T9)].
  destruct (begin_rin (L ++ [(n, See)]) n s2 s3 h tx (Some goal) P2 ST2 I1 NT T2 T3 T4 eq_refl T6 T8 T9 eq_refl (ex_intro _ _ eq_refl) E3) as (R3 & KR3).
  destruct (group_rest n b l u v r f g' ((L ++ [(n, See)]) ++ [(n, Lhs)]) h tx s3 os h' PT AT G') as (f' & g2 & s' & ts' & pend' & G2 & LG2 & E4 & E5 & R4 & LO); auto.
  { rewrite !app_length in *. cbn [List.length] in *. rewrite !app_length in *. lia. }
  exists f', g2, s', ts', pend'. split; [exact G2|]. split; [exact LG2|]. split; [exact E4|]. split; [|auto]. cbn [read_events read_event bind]. rewrite <- KR. change (end_rule (d_rules s1)) with (d_rules s2). rewrite <- KR3. exact E5.
Qed.

Section All.
Hypothesis lhs_not_token : forall n, is_lhs LF n -> ~ is_token LF n.
Hypothesis names_fit : forall n, In n (map fst LF) -> ~ reserved n.

Lemma pre_fit : forall L fg, pre (L ++ group_facts fg) -> fit (group_names fg).
Proof.
  intros L fg (M & E). apply Forall_forall. intros n I. apply names_fit. rewrite E, !map_app. apply in_or_app. left. apply in_or_app. right. unfold group_facts. cbn [map fst]. destruct I as [I|I]; [now left|right; right].
  assert (B : forall b, In n (body_names b) -> In n (map fst (flat_map part_facts b))).
  { intros b X. unfold body_names in X. apply in_flat_map in X. destruct X as (p & Ip & X). apply in_map_iff. exists (n, See). split; [reflexivity|]. apply in_flat_map. exists p. split; [exact Ip|]. destruct p as [x|ps|x]; [|destruct X|]; (destruct X as [<-|[]]; now left). }
  rewrite map_app. apply in_or_app. apply in_app_or in I as [I|I]; [left; now apply B|right]. apply in_flat_map in I. destruct I as (b & Ib & I). apply B in I. apply in_map_iff in I. destruct I as (e & <- & I). apply in_map. apply in_flat_map. eauto.
Qed.
Lemma pre_not : forall L fg, pre (L ++ group_facts fg) -> ~ is_token L (f_lhs fg).
Proof.
  intros L fg P X. apply (pre_token _ _ (pre_app _ _ P)) in X. apply (lhs_not_token (f_lhs fg)) in X; [exact X|]. apply (pre_lhs _ _ P). apply in_or_app. right. right. now left.
Qed.

Lemma groups_ok : forall gs t, groups_text gs t -> forall f g0 L lt ts pend h tx s os h', gap g0 -> List.length (g0 ++ t) < f -> pre (L ++ flat_map group_facts gs) -> rin L lt ts pend h tx s ->
  rules_out_text tg h (flat_map (fun f => map (pair (f_lhs f)) (f_body f :: f_alts f)) gs) = Some (os, h') ->
  exists rest s' lt' ts' pend', rules_loop f (g0 ++ t) s = ROk (rest, s') /\
    read_events (flat_map (fun g => EColon (gr_lhs g) :: group_events g) (conv_groups num (List.length tx) gs)) (d_rules s) = Ok (d_rules s') /\
    rin (L ++ flat_map group_facts gs) lt' ts' pend' h' (tx ++ os) s'.
Proof.
  intros gs t H. induction H as [|p q r Pp Pq|fg l t r GT H IH]; intros f g0 L lt ts pend h tx s os h' G0 LF' P R RO.
  - cbn [flat_map rules_out_text] in RO. injection RO as <- <-. destruct f as [|f]; [lia|]. rewrite rules_S, app_nil_r, next_end by exact G0. cbn [rbind]. exists [], s, lt, ts, pend. cbn [flat_map conv_groups read_events]. rewrite !app_nil_r. auto.
  - cbn [flat_map rules_out_text] in RO. injection RO as <- <-. destruct f as [|f]; [lia|]. destruct (percent_vis p (q :: r) Pp) as (V & PC). rewrite rules_S, next_vis by assumption. cbn [rbind]. cbv beta iota. rewrite PC.
    change (name_first 37 || quote_first 37)%bool with false. cbn [Z.eqb Pos.eqb orb tl]. assert (M : mark_symbol (q :: r) s = ROk (true, r, s)) by (destruct Pq as [-> | ->]; reflexivity). rewrite M. cbn [rbind]. cbv beta iota.
    exists r, s, lt, ts, pend. cbn [flat_map conv_groups read_events]. rewrite !app_nil_r. auto.
  - cbn [flat_map] in RO. destruct (out_app _ _ _ _ _ RO) as (o1 & h1 & o2 & X1 & X2 & ->). cbn [flat_map] in P. rewrite app_assoc in P. pose proof (pre_app _ _ P) as P1.
    destruct (group_step fg t r f g0 L lt ts pend h tx s o1 h1 GT G0 LF' P1 R (pre_fit _ _ P1) (pre_not _ _ P1) X1) as (f1 & g1 & s1 & ts1 & pend1 & G1 & LG1 & E1 & E2 & R1 & LO).
    destruct (IH f1 g1 _ _ ts1 pend1 h1 (tx ++ o1) s1 o2 h' G1 LG1 P R1 X2) as (rest & s' & lt' & ts' & pend' & E3 & E4 & R2).
    exists rest, s', lt', ts', pend'. split; [congruence|]. cbn [conv_groups flat_map]. split; [|now rewrite !app_assoc]. rewrite events_app. cbn [gr_lhs conv_group]. rewrite E2. rewrite app_length, LO in E4. exact E4.
Qed.

End All.

(** The first group. *)
Definition ready (L : log) (go : option txt) (h : bool) (s : rdstate) : Prop :=
  st_ok L s /\ (forall n, tag_of_sym L n = tg n) /\ d_havetags s = h /\ goal_is L go s /\ d_rules s = init_rules /\ d_out s = [] /\ d_gtags s = [].

Lemma first_ok : forall fg t r g0 L go h s os h', group_text fg t r -> gap g0 -> pre (L ++ group_facts fg) -> ready L go h s -> hd 0%Z (f_lhs fg) <> 36%Z ->
  match go with Some n => n | None => f_lhs fg end = goal ->
  fit (group_names fg) -> ~ is_token L (f_lhs fg) -> rules_out_text tg h (map (pair (f_lhs fg)) (f_body fg :: f_alts fg)) = Some (os, h') ->
  exists t' s1, advance_to_start (g0 ++ t) s = ROk (t', s1) /\ d_rules s1 = start_rule (Some (Name (num (f_lhs fg)))) init_rules /\
  exists f' g s' ts' pend', gap g /\ List.length (g ++ r) < f' /\ rules_loop (S (List.length t')) t' s1 = rules_loop f' (g ++ r) s' /\
    read_events (group_events (conv_group num 0 fg)) (d_rules s1) = Ok (d_rules s') /\
    rin (L ++ group_facts fg) (tg (f_lhs fg)) ts' pend' h' os s' /\ List.length os = group_acts fg.
Proof.
  intros fg t r g0 L go h s os h' GT G0 P (ST & TG & HT & GO & RU & OU & GTG) N36 EG NRS NT0 RO. destruct GT as [n b l t g g' u v r SY G G' SU PT AT]. unfold group_names in NRS. cbn [f_lhs f_body f_alts] in *. pose proof (Forall_inv NRS) as NR. apply Forall_inv_tail in NRS. cbv beta in NR.
  assert (EL : L ++ group_facts (mkF n b l) = ((L ++ [(n, See)]) ++ [(n, Lhs)]) ++ flat_map part_facts b ++ flat_map (flat_map part_facts) l) by (unfold group_facts; cbn [f_lhs f_body f_alts]; now rewrite <- !app_assoc).
  rewrite EL in *. pose proof (pre_app _ _ P) as P2. pose proof (pre_app _ _ P2) as P1.
  destruct (get_sym_ok L s _ _ _ ST SY NR) as (s1 & E1 & ST1 & K1 & I1). change (sym_facts (SName n)) with [(n, See)] in *. cbn [sym_name] in *.
  assert (N36' : exists c w, t = c :: w /\ name_first c = true /\ c <> 36%Z).
  { inversion SY as [m r' (W & _) N X1 X2 X3|]; subst. destruct n as [|c n]; [easy|]. cbn in N36. exists c, (n ++ g ++ 58%Z :: g' ++ u). split; [reflexivity|]. split; [now apply name_first_iff|exact N36]. }
  destruct N36' as (c & w & -> & NF & NC). assert (SC : sym_start c) by (apply start_iff; now rewrite NF). destruct (start_vis c w SC) as (V & PC). cbn [get_sym] in E1. rewrite NF in E1.
  assert (NT : ~ is_token (L ++ [(n, See)]) n) by (intros X; now apply is_token_see in X).
  assert (BR : before_rules (S (List.length (g0 ++ c :: w))) (g0 ++ c :: w) s = ROk (c :: w, s)).
  { cbn [before_rules]. rewrite next_vis by assumption. cbn [rbind]. cbv beta iota. rewrite PC. apply start_range in SC. cbn [In] in SC. assert (X : c <> 37%Z) by lia. destruct c as [|q|q]; try reflexivity. do 6 (destruct q as [q|q|]; try reflexivity). now destruct X. }
  pose proof (class_term _ _ NT) as CT. set (i := pos n (names (L ++ [(n, See)]))) in *. assert (Ei : i = num n) by now apply num_pos.
  set (s2 := match d_goal s1 with Some _ => s1 | None => set_goal (Some i) s1 end).
  assert (GS : match d_goal s1 with Some _ => ROk s1 | None => match b_class (entry (L ++ [(n, See)]) n) with TERM => RErr | _ => ROk (set_goal (Some i) s1) end end = ROk s2).
  { unfold s2. destruct (d_goal s1); [reflexivity|]. destruct (b_class (entry (L ++ [(n, See)]) n)); [reflexivity|now destruct CT|reflexivity]. }
  assert (ST2 : st_ok (L ++ [(n, See)]) s2) by (unfold s2; destruct (d_goal s1); [exact ST1|]; destruct ST1 as [S1 S2 S3 S4]; constructor; auto).
  assert (G2 : goal_is (L ++ [(n, See)]) (Some goal) s2).
  { pose proof (goal_is_app L [(n, See)] go s s1 GO (keeps_goal _ _ K1)) as G1. unfold s2. destruct go as [m|]; unfold goal_is in G1 |- *.
    - destruct G1 as (Im & Em). rewrite Em. subst goal. auto.
    - rewrite G1. subst goal. split; [exact I1|reflexivity]. }
  assert (F2 : d_rules s2 = init_rules /\ d_out s2 = [] /\ d_gtags s2 = [] /\ d_havetags s2 = h).
  { assert (F1 : d_rules s1 = init_rules /\ d_out s1 = [] /\ d_gtags s1 = [] /\ d_havetags s1 = h) by (rewrite K1; cbn; auto). unfold s2. destruct (d_goal s1); exact F1. }
  destruct F2 as (F21 & F22 & F23 & F24). destruct (begin_ok (L ++ [(n, See)]) n s2 P2 ST2 I1 NT) as (s3 & E3 & _ & _).
  assert (AD : advance_to_start (g0 ++ c :: w) s = ROk (g' ++ u, s3)).
  { unfold advance_to_start. rewrite BR. cbn [rbind]. cbv beta iota. rewrite (next_here c w V), PC. cbn [rbind]. cbv beta iota.
    assert (X : (isalpha c || (c =? 95) || (c =? 46))%Z = true). { apply name_first_iff in NF. rewrite !orb_true_iff, !Z.eqb_eq. tauto. } rewrite X. cbn [negb]. rewrite E1. cbn [rbind]. cbv beta iota.
    unfold i. rewrite (info_ok _ _ n ST1 I1). fold i. cbn [rbind]. rewrite GS. cbn [rbind]. rewrite next_some_vis; [|exact G|apply vis_in; cbn; lia]. cbn [rbind]. cbv beta iota. change (pc 58) with 58%Z. cbn [Z.eqb Pos.eqb]. rewrite Ei, E3. reflexivity. }
  assert (NTG : no_tags [(n, See)]) by (intros m q [X|[]]; discriminate).
  destruct (begin_rin (L ++ [(n, See)]) n s2 s3 h [] (Some goal) P2 ST2 I1 NT) as (R3 & KR3); auto; try (rewrite ?F21, ?F22, ?F23; reflexivity).
  { intros m. rewrite tags_same by exact NTG. apply TG. } { rewrite F21. eexists. reflexivity. }
  exists (g' ++ u), s3. split; [exact AD|]. rewrite F21 in KR3. split; [exact KR3|].
  destruct (group_rest n b l u v r (S (List.length (g' ++ u))) g' ((L ++ [(n, See)]) ++ [(n, Lhs)]) h [] s3 os h' PT AT G') as (f' & g2 & s' & ts' & pend' & GG2 & LG2 & E4 & E5 & R4 & LO); auto.
  exists f', g2, s', ts', pend'. auto 10.
Qed.
End Rules.

(** * The whole file *)

Lemma init_dst : dst [] 0 None false false init_state.
Proof.
  constructor; try reflexivity; [|repeat split]. constructor.
  - reflexivity.
  - intros n x [].
  - cbn. constructor.
    + repeat constructor. intros [].
    + intros i. cbn [In]. split; [intros [H|[]]; injection H as <-; lia|]. intros H. left. f_equal. lia.
    + intros k. cbn [In]. split; [intros [H|[]]; discriminate|lia].
    + exists []. reflexivity.
  - constructor.
Qed.

Lemma item_in : forall p a tag l e, In e l -> In (sym_name (fst e), Term) (decl_facts p (DTokens a tag l)).
Proof.
  intros p a tag l (x & v) I. cbn [decl_facts fst]. apply in_flat_map. exists (x, v). split; [exact I|]. apply in_or_app. right. now left.
Qed.

Lemma facts_app : forall a b p, decls_facts p (a ++ b) = decls_facts p a ++ decls_facts (fold_left level a p) b.
Proof. induction a as [|d a IH]; intros b p; [reflexivity|]. cbn [app decls_facts fold_left]. now rewrite IH, app_assoc. Qed.
Lemma facts_in : forall e d ds p, In d ds -> (forall q, In e (decl_facts q d)) -> In e (decls_facts p ds).
Proof. intros e d ds. induction ds as [|d' ds IH]; intros p I H; [destruct I|]. cbn [decls_facts]. apply in_or_app. destruct I as [->|I]; [left; apply H|right; now apply IH]. Qed.
Lemma decl_names_in : forall p d n, In n (map fst (decl_facts p d)) <-> In n (decl_names d).
Proof.
  intros p d n. assert (SF : forall x, In n (map fst (sym_facts x)) <-> n = sym_name x).
  { intros [m|l]; cbn; [split; [intros [H|[]]|left]; auto|]. split; [|auto]. intros [H|[H|H]]; auto. destruct l as [|c [|]]; cbn in H; [tauto| |tauto]. destruct H as [H|[]]; auto. }
  assert (TF : forall tag m, In n (map fst (tag_facts tag m)) -> n = m) by (intros [g|] m; cbn; [intros [H|[]]; auto|tauto]).
  destruct d as [a tag l|tag l|m| |]; cbn [decl_facts decl_names].
  - rewrite !in_map_iff. split.
    + intros (e & <- & I). apply in_flat_map in I. destruct I as ((x & v) & Ix & I). exists (x, v). split; [|exact Ix]. cbn [fst]. apply in_app_or in I as [I|[I|I]].
      * symmetry. apply (in_map fst) in I. destruct x as [m|l']; cbn in I |- *; [destruct I as [I|[]]; auto|]. destruct I as [I|[I|I]]; auto. destruct l' as [|c [|]]; cbn in I; [tauto| |tauto]. destruct I as [I|[]]; auto.
      * subst e. reflexivity.
      * apply in_app_or in I as [I|I]; [destruct tag; [destruct I as [<-|[]]; reflexivity|destruct I]|]. apply in_app_or in I as [I|I]; [destruct a; [destruct I as [<-|[]]; reflexivity|destruct I]|]. destruct v; [destruct I as [<-|[]]; reflexivity|destruct I].
    + intros ((x & v) & <- & I). exists (sym_name x, Term). split; [reflexivity|]. apply in_flat_map. exists (x, v). split; [exact I|]. apply in_or_app. right. now left.
  - rewrite !in_map_iff. split.
    + intros (e & <- & I). apply in_flat_map in I. destruct I as (x & Ix & I). exists x. split; [|exact Ix]. apply in_app_or in I as [I|I].
      * apply (in_map fst) in I. destruct x as [m|l']; cbn in I |- *; [destruct I as [I|[]]; auto|]. destruct I as [I|[I|I]]; auto. destruct l' as [|c [|]]; cbn in I; [tauto| |tauto]. destruct I as [I|[]]; auto.
      * destruct tag; [destruct I as [<-|[]]; reflexivity|destruct I].
    + intros (x & <- & I). exists (sym_name x, See). split; [reflexivity|]. apply in_flat_map. exists x. split; [exact I|]. now left.
  - cbn. tauto.
  - cbn. tauto.
  - cbn. tauto.
Qed.
Lemma decls_names_in : forall ds p n, In n (map fst (decls_facts p ds)) <-> In n (flat_map decl_names ds).
Proof. induction ds as [|d ds IH]; intros p n; [reflexivity|]. cbn [decls_facts flat_map]. rewrite map_app, !in_app_iff, IH, decl_names_in. reflexivity. Qed.

(** What is asked of the declarations of a file. *)
Record decls_fit (ds : list decl) : Prop := {
  df_names : Forall (fun n => ~ reserved n) (flat_map decl_names ds);
  df_start : forall a n b, ds = a ++ DStart n :: b -> ~ is_token (decls_facts 0 (a ++ until_start b)) n;
  df_union : List.length (filter decl_union ds) <= 1
}.

Lemma until_end : forall b d r, until_start b = b -> match d with DStart _ => False | _ => True end -> until_start (b ++ d :: r) = b ++ d :: until_start r.
Proof. induction b as [|c b IH]; intros d r H N; [destruct d; [reflexivity|reflexivity|destruct N|reflexivity|reflexivity]|]. cbn [app until_start] in *. destruct c; try discriminate; injection H as H; now rewrite IH. Qed.
Lemma goal_last : forall a n, fold_left next_goal a None = Some n -> exists a1 b1, a = a1 ++ DStart n :: b1 /\ until_start b1 = b1.
Proof.
  intros a. induction a as [|d a IH] using rev_ind; intros n H; [discriminate|]. rewrite fold_left_app in H. cbn [fold_left] in H.
  assert (D : d = DStart n \/ match d with DStart _ => False | _ => True end /\ fold_left next_goal a None = Some n) by (destruct d; cbn [next_goal] in H; auto; left; congruence).
  destruct D as [->|(N & D)]; [exists a, []; auto|]. destruct (IH n D) as (a1 & b1 & -> & U). exists a1, (b1 ++ [d]). rewrite <- app_assoc. split; [reflexivity|]. now apply until_end.
Qed.
Lemma union_count : forall a, existsb decl_union a = true -> 1 <= List.length (filter decl_union a).
Proof. induction a as [|d a IH]; intros H; [discriminate|]. cbn [existsb filter] in *. destruct (decl_union d); cbn [List.length]; [lia|]. now apply IH. Qed.
Lemma union_none : forall a, existsb decl_union a = false -> List.length (filter decl_union a) = 0.
Proof. induction a as [|d a IH]; intros H; [reflexivity|]. cbn [existsb filter] in *. destruct (decl_union d); [discriminate|]. now apply IH. Qed.

Lemma decls_ok_of : forall b a, decls_fit (a ++ b) -> decls_ok (decls_facts 0 a) (fold_left level a 0) (fold_left next_goal a None) (existsb decl_union a) b.
Proof.
  induction b as [|d b IH]; intros a F; [exact Logic.I|]. cbn [decls_ok]. split.
  - destruct F as [F1 F2 F3]. rewrite flat_map_app in F1. apply Forall_app in F1. destruct F1 as (_ & F1). cbn [flat_map] in F1. apply Forall_app in F1. destruct F1 as (F1 & _). split; [exact F1|].
    destruct d as [as' tag l|tag l|n| |]; auto.
    + intros n En X. destruct (goal_last a n En) as (a1 & b1 & Ea & U). rewrite Ea, <- app_assoc in F2. apply (F2 a1 n (b1 ++ DTokens as' tag l :: b) eq_refl). rewrite until_end by (auto; exact Logic.I). right.
      apply in_map_iff in X. destruct X as (e & <- & I). apply (facts_in _ (DTokens as' tag l)); [rewrite !in_app_iff; right; right; now left|]. intros q. now apply item_in.
    + intros X. apply (F2 a n b eq_refl). destruct X as [X|X]; [now left|right]. rewrite facts_app. apply in_or_app. now left.
    + destruct (existsb decl_union a) eqn:E; [|reflexivity]. apply union_count in E. rewrite filter_app, app_length in F3. cbn [filter decl_union List.length] in F3. lia.
  - specialize (IH (a ++ [d])). rewrite <- app_assoc in IH. specialize (IH F). rewrite facts_app, !fold_left_app, existsb_app in IH. cbn [decls_facts fold_left existsb] in IH. rewrite app_nil_r, orb_false_r in IH. exact IH.
Qed.

Lemma file_fit : forall F, file_ok F -> decls_fit (f_decls F).
Proof.
  intros F OK. constructor.
  - apply Forall_forall. intros n I. apply (fo_names _ OK). unfold file_facts. rewrite map_app. apply in_or_app. left. now apply decls_names_in.
  - exact (fo_start _ OK).
  - exact (fo_union _ OK).
Qed.

Lemma goal_fold : forall ds go, fold_left next_goal ds go = match starts_of ds with [] => go | l => Some (last l []) end.
Proof.
  induction ds as [|d ds IH]; intros go; [reflexivity|]. cbn [fold_left]. rewrite IH. destruct d; cbn [next_goal starts_of flat_map app]; try reflexivity. fold (starts_of ds). destruct (starts_of ds); reflexivity.
Qed.

Lemma group_no_tags : forall gs, no_tags (flat_map group_facts gs).
Proof.
  intros gs m g I. apply in_flat_map in I. destruct I as (f & _ & I). unfold group_facts in I. cbn [In] in I. destruct I as [I|[I|I]]; try discriminate.
  assert (P : forall b : list fpart, ~ In (m, Tag g) (flat_map part_facts b)). { intros b X. apply in_flat_map in X. destruct X as (p & _ & X). destruct p; cbn [part_facts] in X; try (now apply sym_no_tags in X). destruct X. }
  apply in_app_or in I as [I|I]; [now apply P in I|]. apply in_flat_map in I. destruct I as (b & _ & I). now apply P in I.
Qed.

Lemma file_read : forall F file, file_text F (input file) -> file_ok F ->
  exists s g gs tx h', read_file file = ROk (set_infos (map (fun b => match b_class b with UNKNOWN => with_class TERM b | _ => b end) (table (file_facts F))) s) /\
    st_ok (file_facts F) s /\ conv_groups (num (file_facts F)) 0 (f_groups F) = g :: gs /\
    read_grammar (gr_lhs g) (source_events g gs) = Ok (d_rules s) /\
    d_goal s = Some (num (file_facts F) (goal_of F)) /\ In (goal_of F) (names (file_facts F)) /\
    rules_out_text (tag_of_sym (file_facts F)) (uses_tags F) (file_rules F) = Some (tx, h') /\ d_out s = cases_text (r_cases (d_rules s)) tx /\ List.length tx = List.length (r_cases (d_rules s)).
Proof.
  intros F file FT OK. pose proof (file_fit F OK) as DF. destruct OK as [O0 O1 O2 O3 O4 O5 O6]. set (LF := file_facts F) in *. destruct (input file) as [|c0 t0] eqn:EI; [|]; inversion FT as [ds gs g t p q g' u G V DT Pp Pq G' VU GT EF ET]; subst F.
  { destruct g; [|discriminate]. destruct t; [destruct V|discriminate]. }
  cbn [f_decls f_groups] in *. destruct gs as [|fg gs]; [now destruct O6|].
  assert (TGS : forall n, tag_of_sym (decls_facts 0 ds) n = tag_of_sym LF n) by (intros n; unfold LF, file_facts; cbn [f_decls f_groups]; symmetry; apply tags_same, group_no_tags).
  assert (DOK : decls_ok [] 0 None false ds) by exact (decls_ok_of ds [] DF).
  destruct (decls_read ds t (p :: q :: g' ++ u) DT (S (List.length (g ++ t))) [] 0 None false false init_state g p q (g' ++ u) eq_refl Pp Pq G init_dst DOK (Nat.lt_succ_diag_r _)) as (s0 & E0 & D0). cbn [app orb] in D0.
  unfold file_actions in O4. cbn [f_decls f_groups] in *. destruct (rules_out_text (tag_of_sym (file_facts (mkFile ds (fg :: gs)))) (uses_tags (mkFile ds (fg :: gs))) (file_rules (mkFile ds (fg :: gs)))) as [(tx & h')|] eqn:RO; [|now destruct O4]. fold LF in RO.
  assert (GR : groups_text (fg :: gs) u) by exact GT. inversion GR as [| |fg' gs' u' r GT1 GT2 EA EB]; subst fg' gs' u'.
  unfold file_rules in RO. cbn [f_groups flat_map] in RO. destruct (out_app _ _ _ _ _ _ RO) as (o1 & h1 & o2 & X1 & X2 & ETX).
  set (tg := tag_of_sym LF) in *. set (go := fold_left next_goal ds None) in *.
  assert (RD : ready tg (decls_facts 0 ds) go (uses_tags (mkFile ds (fg :: gs))) s0).
  { destruct D0 as [A1 A2 A3 A4 A5 (A6 & A7 & A8)]. split; [exact A1|]. split; [exact TGS|]. split; [exact A4|]. split; [exact A2|]. auto. }
  assert (PR : pre LF (decls_facts 0 ds ++ flat_map group_facts (fg :: gs))) by (exists []; rewrite app_nil_r; reflexivity).
  cbn [flat_map] in PR. rewrite app_assoc in PR. pose proof (pre_app _ _ _ PR) as PR1.
  assert (EG : match go with Some n => n | None => f_lhs fg end = goal_of (mkFile ds (fg :: gs))).
  { unfold go. rewrite goal_fold. unfold goal_of. cbn [f_decls f_groups]. destruct (starts_of ds) as [|a l]; [reflexivity|]. clear. revert a. induction l as [|b l IH]; intros a; [reflexivity|]. apply (IH b). }
  destruct (first_ok LF tg (goal_of (mkFile ds (fg :: gs))) fg u r g' (decls_facts 0 ds) go _ s0 o1 h1 GT1 G' PR1 RD O6 EG (pre_fit LF O0 _ _ PR1) (pre_not LF O1 _ _ PR1) X1) as (t' & s1 & E1 & KR1 & f' & g2 & s2 & ts2 & pend2 & G2 & LG2 & E2 & E3 & R2 & LO).
  destruct (groups_ok LF tg _ O1 O0 gs r GT2 f' g2 _ _ ts2 pend2 h1 o1 s2 o2 h' G2 LG2 PR R2 X2) as (rest & s3 & lt3 & ts3 & pend3 & E4 & E5 & R3).
  assert (EL : (decls_facts 0 ds ++ group_facts fg) ++ flat_map group_facts gs = LF) by (rewrite <- app_assoc; reflexivity). rewrite EL in R3. rewrite <- ETX in R3.
  set (s4 := set_rules (end_rule (d_rules s3)) s3). destruct R3 as [T1 T2 T3 (T41 & T42) T5 T6 T7 (T8 & T9)].
  assert (ST4 : st_ok LF s4) by (destruct T1 as [S1 S2 S3 S4]; constructor; auto).
  exists s4, (conv_group (num LF) 0 fg), (conv_groups (num LF) (group_acts fg) gs), tx, h'.
  split; [|split; [exact ST4|]; split; [reflexivity|]; split; [|split; [exact T42|split; [exact T41|split; [|split; [exact T8|exact T9]]]]]].
  - unfold read_file. rewrite EI. cbv zeta. rewrite <- ET. rewrite E0. cbn [rbind]. cbv beta iota. unfold read_rules. rewrite E1. cbn [rbind]. cbv beta iota. rewrite E2, E4. cbn [rbind]. cbv beta iota. fold s4.
    unfold check_symbols. change (d_goal s4) with (d_goal s3). rewrite T42. rewrite (info_ok LF s4 _ ST4 T41). cbn [rbind].
    assert (CL : b_class (entry LF (goal_of (mkFile ds (fg :: gs)))) <> UNKNOWN). { unfold entry, class_of. cbn [b_class]. apply lhsb_iff in O3. rewrite O3. destruct (tokenb LF _); discriminate. }
    assert (DI : d_infos s4 = table LF) by exact (so_table _ _ ST4). rewrite DI. destruct (b_class (entry LF (goal_of (mkFile ds (fg :: gs))))); [now destruct CL|reflexivity|reflexivity].
  - unfold read_grammar. cbn [gr_lhs conv_group]. rewrite <- KR1. unfold source_events. rewrite events_app, E3. cbn [List.length] in E5. rewrite LO in E5. rewrite E5. reflexivity.
  - exact RO.
Qed.
