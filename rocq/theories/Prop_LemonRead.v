(** C55: the parser of lemon grammar files, against the files of items of SpecItems. *)
From Coq Require Import String List Arith ZArith Bool Lia.
Import ListNotations.
From Verif Require Import Base LemonTableModel LemonPreModel LemonActionModel LemonReadModel LemonScanProof Prop_LemonScan SpecItems LemonReadProof LemonReadSafe LemonReadBack LemonReadResync.

(** Whatever tokens the scanner hands over, none of the array accesses and pointers of
    parseonetoken is bad, and its count of messages does not go down. *)
Theorem C55_safe : forall o evs evs', exists p p', feed_tokens o evs init_pst = Ok p /\ feed_tokens o (evs ++ evs') init_pst = Ok p' /\ gr_err (p_g p) <= gr_err (p_g p').
Proof.
  intros o evs evs'. destruct (feed_safe o evs init_pst init_safe) as (p & A & S0 & _). destruct (feed_safe o evs' p S0) as (p' & B & _ & L). exists p, p'. split; [exact A|]. split; [|exact L]. now rewrite feed_app, A.
Qed.

(** The text of a declaration with its zero byte fits into the buffer asked of realloc. *)
Theorem C55_decl_fits : forall add line filename old new, S (length (decl_text add line filename old new)) <= decl_size add line filename old new.
Proof. exact decl_fits. Qed.

(** A file of items is read without a message exactly when no item declares something again
    and no right side has more than 1000 symbols. *)
Theorem C55_messages : forall o items evs, Forall item_shape items -> texts evs (flat_map item_tokens items) ->
  ((exists p, feed_tokens o evs init_pst = Ok p /\ gr_err (p_g p) = 0) <-> items_new (ro_ignorePrec o) items).
Proof.
  intros o items evs SH T. split; [exact (back_file o items evs SH T)|]. intros NEW. destruct (file_run o items evs SH NEW T) as (p & A & _ & G). exists p. split; [exact A|exact (gi_err _ _ _ G)].
Qed.

(** The object at [id] is the symbol called [x]. *)
Definition is_sym (g : gram) (id : nat) (x : text) : Prop := exists s, nth_error (gr_syms g) id = Some s /\ so_named s = true /\ so_name s = x.

(** An element of a right side is the symbol with that name, or a multi-terminal of its own
    whose members are the alternatives in their order; the alias is kept. *)
Definition is_relem (g : gram) (e : relem) (a : nat * option text) : Prop :=
  snd a = re_alias e /\
  match re_alts e with
  | [] => is_sym g (fst a) (re_name e)
  | ys => exists s, nth_error (gr_syms g) (fst a) = Some s /\ so_named s = false /\ so_type s = MULTITERMINAL /\ Forall2 (is_sym g) (so_sub s) (re_name e :: ys)
  end.
Definition is_rrule (ign : bool) (g : gram) (i : item) (r : rrule) : Prop :=
  exists lhs la rhs prec code, i = IRule lhs la rhs prec code /\
    is_sym g (rr_lhs r) lhs /\ rr_lhsalias r = la /\ Forall2 (is_relem g) rhs (rr_rhs r) /\
    match prec with Some x => if ign then rr_precsym r = None else exists j, rr_precsym r = Some j /\ is_sym g j x | None => rr_precsym r = None end /\
    (code = Some (zs "{NEVER-REDUCE") -> rr_never r = true /\ rr_code r = None) /\
    (code <> Some (zs "{NEVER-REDUCE") -> rr_never r = false /\ rr_code r = match code with Some c => Some (tl c) | None => None end).

(** What such a file makes of the data of lemon: the symbols in the order of their first
    mention after "$", with their kind, precedence, fallback, members and data type as the
    items declare them; the rules in the order of the file; the wildcard; the texts of the
    declarations. *)
Theorem C55_reads : forall o items evs, let ign := ro_ignorePrec o in
  Forall item_shape items -> items_new ign items -> texts evs (flat_map item_tokens items) ->
  exists p, feed_tokens o evs init_pst = Ok p /\ let g := p_g p in
    gr_err g = 0 /\
    map so_name (filter so_named (gr_syms g)) = symbols_of ign items /\ NoDup (symbols_of ign items) /\
    (forall id s, nth_error (gr_syms g) id = Some s -> so_named s = true ->
       so_prec s = option_map fst (prec_of ign items (so_name s)) /\
       so_assoc s = match prec_of ign items (so_name s) with Some (_, a) => a | None => UNK end /\
       match fallback_of items (so_name s) with None => so_fallback s = None | Some f => exists j, so_fallback s = Some j /\ is_sym g j f end /\
       so_type s = match class_of items (so_name s) with Some _ => MULTITERMINAL | None => if isupper (ch (so_name s) 0) then TERMINAL else NONTERMINAL end /\
       match class_of items (so_name s) with None => so_sub s = [] | Some ys => Forall2 (is_sym g) (so_sub s) ys end /\
       so_dtype s = type_of items (so_name s)) /\
    Forall2 (is_rrule ign g) (filter is_rule items) (rev (gr_rules g)) /\
    match wildcard_of items with None => gr_wildcard g = None | Some x => exists j, gr_wildcard g = Some j /\ is_sym g j x end /\
    (forall s, ro_nolinenos o = true \/ is_code s = false -> slot_get s (gr_slots g) = slot_text s items) /\
    gr_yaccPrec g = existsb (fun i => match i with IYaccPrec => true | _ => false end) items.
Proof.
  intros o items evs ign SH NEW T. destruct (file_run o items evs SH NEW T) as (p & A & _ & G). exists p. split; [exact A|]. destruct G as [E [N D NM AN DM] C R W SL CN Y]. cbn zeta.
  split; [exact E|]. split; [exact N|]. split; [exact D|]. split; [exact NM|]. split; [|auto].
  eapply Forall2_mono; [|exact R]. intros i r. destruct i; cbn [rule_is]; try contradiction. intros (B1 & B2 & B3 & B4 & B5 & B6).
  exists lhs, lalias, rhs, prec, code. split; [reflexivity|]. split; [exact B1|]. split; [exact B2|]. split; [exact B3|]. split; [exact B4|]. rewrite B5, B6. unfold never_code. split.
  - intros ->. rewrite eqt_refl. auto.
  - intros H. destruct code as [c|]; [|auto]. assert (X : eqt c (zs "{NEVER-REDUCE") = false) by (apply eqt_ne; congruence). rewrite X. auto.
Qed.

(** What the reader gets is what the lexical grammar of C54 makes of the text that the
    preprocessor leaves. *)
Theorem C55_text : forall defs o z z1 evs, preprocess_input defs z = Ok (PPdone z1) -> lexes complete 1%Z z1 evs ->
  exists p, feed_tokens o evs init_pst = Ok p /\ Parse defs o z = Ok (Some (p_g p)).
Proof.
  intros defs o z z1 evs P L. destruct (feed_safe o evs init_pst init_safe) as (p & A & _). exists p. split; [exact A|]. unfold Parse. rewrite P. cbn [bind]. apply C54_tokens in L as (L & _). rewrite L. cbn [bind]. rewrite A. reflexivity.
Qed.

(** A declaration that lemon does not know, after a correct beginning: one message, and the
    file is read as though the tokens up to the next dot, or up to in front of the next
    percent sign, were not there. *)
Definition declaration_words : list text := map zs
  ["name"; "include"; "code"; "token_destructor"; "default_destructor"; "token_prefix"; "syntax_error"; "parse_accept"; "parse_failure"; "stack_overflow";
   "extra_argument"; "extra_context"; "token_type"; "default_type"; "stack_size"; "expect"; "start_symbol"; "left"; "right"; "nonassoc"; "precedence";
   "destructor"; "type"; "fallback"; "token"; "wildcard"; "token_class"; "yacc_prec"]%string.

Theorem C55_unknown_declaration : forall o items e1 n n' w em junk e e2, Forall item_shape items -> items_new (ro_ignorePrec o) items -> texts e1 (flat_map item_tokens items) ->
  ~ In w declaration_words -> texts em junk -> Forall (fun x => ch x 0 <> 46%Z /\ ch x 0 <> 37%Z) junk ->
  (exists k, e = [EvTok k (zs ".")]) \/ (e = [] /\ exists k r, e2 = EvTok k (zs "%") :: r) ->
  exists p p', feed_tokens o (e1 ++ [EvTok n (zs "%"); EvTok n' w] ++ em ++ e ++ e2) init_pst = Ok p /\ feed_tokens o (e1 ++ e2) init_pst = Ok p' /\
    let (g, g') := (p_g p, p_g p') in
    gr_err g = S (gr_err g') /\ gr_syms g = gr_syms g' /\ gr_rules g = gr_rules g' /\ gr_slots g = gr_slots g' /\ gr_wildcard g = gr_wildcard g' /\ gr_yaccPrec g = gr_yaccPrec g' /\ gr_preccounter g = gr_preccounter g'.
Proof.
  intros o items e1 n n' w em junk e e2 SH NEW T W TM NJ D. destruct (file_run o items e1 SH NEW T) as (p1 & A & R & _).
  assert (K : kw_find w keywords = None).
  { assert (X : forall l : list (text * kw), ~ In w (map fst l) -> kw_find w l = None).
    { induction l as [|[y k] l IH]; intros H; [reflexivity|]. cbn [kw_find]. rewrite streq_eqt. cbn [map fst In] in H. destruct (eqt w y) eqn:E; [apply eqt_ok in E; subst; tauto|]. apply IH. tauto. }
    apply X. exact W. }
  pose proof (resync o e1 p1 n n' w em junk e e2 A R K TM NJ D) as M.
  destruct (feed_safe o (e1 ++ [EvTok n (zs "%"); EvTok n' w] ++ em ++ e ++ e2) init_pst init_safe) as (p & B & _). destruct (feed_safe o (e1 ++ e2) init_pst init_safe) as (p' & C & _).
  exists p, p'. split; [exact B|]. split; [exact C|]. rewrite B, C in M. destruct M as (_ & M). cbv zeta. rewrite M. cbn. auto 10.
Qed.

(** ** What is not so *)
Definition quiet : ropts := mkRopts false true (zs "t.y").

(** A file cut off in the middle of a rule is read without a message; the unfinished rule is
    dropped (no check of ps.state after the loop, lemon/lemon.c:3106-3217). *)
Theorem C55_cut_refuted : exists z z' g g', z' = z ++ zs " c ::= D" /\
  Parse [] quiet z = Ok (Some g) /\ Parse [] quiet z' = Ok (Some g') /\ gr_err g' = 0 /\ gr_rules g' = gr_rules g.
Proof.
  exists (zs "a ::= B."), (zs "a ::= B. c ::= D"). eexists. eexists. split; [reflexivity|]. split; [vm_compute; reflexivity|]. split; [vm_compute; reflexivity|]. split; reflexivity.
Qed.

(** A bar after a token class adds the token to the class itself (lemon/lemon.c:2524-2540):
    one more rule s ::= c|Z, and the rule s ::= c in front of it takes Z as well. *)
Theorem C55_class_bar_refuted : exists z z' g g' r r' c c' k, z' = z ++ zs " s ::= c|Z." /\
  Parse [] quiet z = Ok (Some g) /\ Parse [] quiet z' = Ok (Some g') /\ gr_err g' = 0 /\
  gr_rules g = [r] /\ gr_rules g' = [r'; r] /\ rr_rhs r = [(k, None)] /\
  nth_error (gr_syms g) k = Some c /\ so_name c = zs "c" /\ length (so_sub c) = 2 /\
  nth_error (gr_syms g') k = Some c' /\ so_name c' = zs "c" /\ length (so_sub c') = 3.
Proof.
  exists (zs "%token_class c X Y. s ::= c."), (zs "%token_class c X Y. s ::= c. s ::= c|Z."). do 7 eexists. split; [reflexivity|]. split; [vm_compute; reflexivity|]. split; [vm_compute; reflexivity|]. repeat (split; [reflexivity|]). reflexivity.
Qed.

(** Option -u, documented to ignore precedences, also changes the order of the symbols and
    so the token codes (lemon/lemon.c:2700-2724: Symbol_new is skipped). *)
Theorem C55_order_u_refuted : exists z g g', Parse [] quiet z = Ok (Some g) /\ Parse [] (mkRopts true true (zs "t.y")) z = Ok (Some g') /\
  map so_name (filter so_named (gr_syms g)) = map zs ["$"%string; "B"%string; "A"%string; "s"%string] /\
  map so_name (filter so_named (gr_syms g')) = map zs ["$"%string; "s"%string; "A"%string; "B"%string].
Proof. exists (zs "%left B A. s ::= A B."). do 2 eexists. split; [vm_compute; reflexivity|]. split; [vm_compute; reflexivity|]. split; reflexivity. Qed.

(** ** Examples *)
Fixpoint news (ign : bool) (pre l : list item) : Prop := match l with [] => True | i :: r => item_new ign pre i /\ news ign (pre ++ [i]) r end.
Lemma news_ok : forall ign l pre, news ign pre l -> forall a i b, l = a ++ i :: b -> item_new ign (pre ++ a) i.
Proof.
  induction l as [|k l IH]; intros pre H a i b E; [destruct a; discriminate|]. destruct H as (H & K). destruct a as [|k' a]; inversion E; subst; [now rewrite app_nil_r|].
  rewrite (app_assoc pre [k'] a : pre ++ k' :: a = _). eapply IH; eauto.
Qed.

Definition file : text := zs "%name Calc %token_class op TIMES DIV. %left PLUS MINUS. %fallback ID ABORT. %wildcard ANY.
%token_type {int} %type e {int} %destructor e { drop($$); }
%include { #include <stdio.h> }
%start_symbol p
p ::= e(X) SEMI. { show(X); }
e(R) ::= e(A) PLUS|MINUS e(B). [PLUS] { R = A+B; }
e ::= e op e.
e(R) ::= NUM.
".
Definition elem0 (x : string) : relem := mkRelem (zs x) [] None.
Definition file_items : list item :=
  [IText Gname (zs "Calc"); IClass (zs "op") [zs "TIMES"; zs "DIV"]; IAssoc LEFT [zs "PLUS"; zs "MINUS"]; IFallback (zs "ID") [zs "ABORT"]; IWildcard (zs "ANY");
   IText Gtokentype (zs "{int"); IType (zs "e") (zs "{int"); IDestructor (zs "e") (zs "{ drop($$); "); IText Ginclude (zs "{ #include <stdio.h> "); IText Gstart (zs "p");
   IRule (zs "p") None [mkRelem (zs "e") [] (Some (zs "X")); elem0 "SEMI"] None (Some (zs "{ show(X); "));
   IRule (zs "e") (Some (zs "R")) [mkRelem (zs "e") [] (Some (zs "A")); mkRelem (zs "PLUS") [zs "MINUS"] None; mkRelem (zs "e") [] (Some (zs "B"))] (Some (zs "PLUS")) (Some (zs "{ R = A+B; "));
   IRule (zs "e") None [elem0 "e"; elem0 "op"; elem0 "e"] None None; IRule (zs "e") (Some (zs "R")) [elem0 "NUM"] None None].

Lemma file_shape : Forall item_shape file_items.
Proof.
  unfold file_items, elem0, item_shape, relem_ok, opt_ok, upper, lower, alpha, arg_ok. repeat apply Forall_cons; try apply Forall_nil;
    repeat match goal with
    | |- _ /\ _ => split
    | |- Forall _ [] => constructor
    | |- Forall _ (_ :: _) => constructor
    | |- True => exact Logic.I
    | |- _ -> _ => intros
    | H : re_alts _ <> [] |- _ => first [now destruct H|clear H; cbn [re_alts re_name]]
    | |- LEFT <> UNK => discriminate
    | |- match _ with Some _ => _ | None => _ end => cbn [re_alias]
    | |- isupper _ = true => reflexivity
    | |- islower _ = true => reflexivity
    | |- isalpha _ = true => reflexivity
    | |- ch _ 0 = 123%Z => reflexivity
    | |- _ \/ _ => first [left; reflexivity|right; left; reflexivity|right; right; reflexivity]
    end.
Qed.
Lemma file_new : items_new false file_items.
Proof.
  intros pre i post E. refine (news_ok false file_items [] _ pre i post E). clear. unfold file_items. cbn [news item_new app]. repeat match goal with |- _ /\ _ => split | |- True => exact Logic.I | |- _ -> False => intros X; vm_compute in X; intuition discriminate | |- ~ In _ _ => intros X; vm_compute in X; intuition discriminate | |- forall x, _ => intros x; cbn [In]; intuition; subst; reflexivity | |- _ -> _ => intros _ | |- _ <= _ => cbn; lia | |- NoDup _ => repeat constructor; cbn; intuition discriminate | |- _ = None => reflexivity end.
Qed.

Example C55_sample_lexes : exists evs, lexes complete 1%Z file evs /\ texts evs (flat_map item_tokens file_items).
Proof.
  eexists. split; [apply C54_tokens; split; [vm_compute; reflexivity|cbn; intuition discriminate]|].
  unfold texts. vm_compute. repeat constructor; eexists; reflexivity.
Qed.

Example C55_sample : exists p g, Parse [] quiet file = Ok (Some g) /\ g = p_g p /\ gr_err g = 0 /\ map so_name (filter so_named (gr_syms g)) = symbols_of false file_items /\
  length (gr_rules g) = 4 /\ slot_get Gstart (gr_slots g) = Some (zs "p").
Proof.
  destruct C55_sample_lexes as (evs & L & T). destruct (C55_text [] quiet file file evs eq_refl L) as (p & A & B). exists p, (p_g p).
  destruct (C55_reads quiet file_items evs file_shape file_new T) as (p' & A' & E & N & _ & _ & R & _ & SL & _). assert (p = p') by congruence. subst p'. split; [exact B|]. split; [reflexivity|]. split; [exact E|]. split; [exact N|].
  split; [|apply SL; now left]. assert (X : length (filter is_rule file_items) = length (rev (gr_rules (p_g p)))) by (clear -R; induction R; cbn; congruence). rewrite rev_length in X. now rewrite <- X.
Qed.

(** Two declarations of one token: a message. *)
Example C55_sample_message : forall evs, texts evs (flat_map item_tokens [IAssoc LEFT [zs "A"]; IAssoc RIGHT [zs "B"; zs "A"]]) -> ~ exists p, feed_tokens quiet evs init_pst = Ok p /\ gr_err (p_g p) = 0.
Proof.
  intros evs T H. assert (NEW : items_new false [IAssoc LEFT [zs "A"]; IAssoc RIGHT [zs "B"; zs "A"]]).
  { eapply (C55_messages quiet); eauto. repeat constructor; try discriminate. }
  destruct (NEW [IAssoc LEFT [zs "A"]] _ [] eq_refl eq_refl) as (_ & X). specialize (X (zs "A") ltac:(cbn; auto)). discriminate.
Qed.

(** "%left A. %foo X { } %token B. s ::= A B." is read like "%left A. %token B. s ::= A B." *)
Example C55_sample_unknown : exists p p',
  feed_tokens quiet (map (EvTok 1) (map zs ["%"; "left"; "A"; "."; "%"; "foo"; "X"; "{ "; "%"; "token"; "B"; "."; "s"; "::="; "A"; "B"; "."]%string)) init_pst = Ok p /\
  feed_tokens quiet (map (EvTok 1) (map zs ["%"; "left"; "A"; "."; "%"; "token"; "B"; "."; "s"; "::="; "A"; "B"; "."]%string)) init_pst = Ok p' /\
  gr_err (p_g p) = 1 /\ gr_err (p_g p') = 0 /\ gr_rules (p_g p) = gr_rules (p_g p') /\ length (gr_rules (p_g p)) = 1.
Proof.
  destruct (C55_unknown_declaration quiet [IAssoc LEFT [zs "A"]] (map (EvTok 1) (map zs ["%"; "left"; "A"; "."]%string)) 1 1 (zs "foo")
    (map (EvTok 1) (map zs ["X"; "{ "]%string)) (map zs ["X"; "{ "]%string) [] (map (EvTok 1) (map zs ["%"; "token"; "B"; "."; "s"; "::="; "A"; "B"; "."]%string))) as (p & p' & A & B & E & _ & R & _).
  - repeat constructor; discriminate.
  - intros a i b. apply (news_ok false [IAssoc LEFT [zs "A"]] []). cbn. split; [|exact Logic.I]. intros _. split; [repeat constructor; auto|auto].
  - repeat constructor; eexists; reflexivity.
  - vm_compute. intros H. repeat (destruct H as [H|H]; [discriminate|]). exact H.
  - repeat constructor; eexists; reflexivity.
  - repeat constructor; discriminate.
  - right. split; [reflexivity|]. do 2 eexists. reflexivity.
  - exists p, p'. split; [exact A|]. split; [exact B|]. assert (Z1 : gr_err (p_g p') = 0) by (revert B; vm_compute; intros B; injection B as <-; reflexivity).
    split; [now rewrite E, Z1|]. split; [exact Z1|]. split; [exact R|]. rewrite R. revert B; vm_compute; intros B; injection B as <-; reflexivity.
Qed.
Example C55_sample_fits : decl_text true 12%Z (zs "a\b.y") (zs "x") (zs "y") = zs ("x" ++ String (Ascii.ascii_of_nat 10) ("#line 12 ""a\\b.y""" ++ String (Ascii.ascii_of_nat 10) "y")).
Proof. vm_compute. reflexivity. Qed.

Print Assumptions C55_safe.
Print Assumptions C55_decl_fits.
Print Assumptions C55_messages.
Print Assumptions C55_reads.
Print Assumptions C55_text.
Print Assumptions C55_cut_refuted.
Print Assumptions C55_class_bar_refuted.
Print Assumptions C55_order_u_refuted.
Print Assumptions C55_unknown_declaration.
