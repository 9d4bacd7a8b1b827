(** C80: the C text byacc prints for a grammar file. *)
From Coq Require Import String List Arith NArith ZArith Lia Bool.
Import ListNotations.
From Verif Require Import Base CLib SpecGrammar SpecGrammarFacts SpecLRFacts SpecLR0 SpecConflict SpecByacc ByaccLr0Model ByaccParModel ByaccActionsProof ByaccOutputModel ByaccTablesProof
  ByaccParserModel ByaccParserProof Prop_ByaccParser Prop_ByaccComplete Prop_ByaccTerminates Prop_LemonTables Prop_LemonComplete.
From Verif Require Import LemonTableModel LemonPreModel LemonCodeModel ByaccReaderModel Prop_ByaccReader ByaccRulesModel Prop_ByaccMidrule ByaccScanModel ByaccPackModel
  ByaccPackFileProof Prop_ByaccLiteral SpecByaccFile SpecByaccRules ByaccTableProof ByaccFileProof ByaccFilePackProof Prop_ByaccFile Prop_ByaccEndToEnd.
From Verif Require ByaccRejectProof.
From Verif Require Import LemonReprintModel SpecCText CTextProof ByaccTableTextModel ByaccTableTextProof Prop_ByaccTableText ByaccNameTextModel ByaccNameTextProof Prop_ByaccNameText ByaccFileTextModel.

(** ** The names *)

(** The name of a symbol of the file, or of the k-th action inside a rule. *)
Definition text_of (F : bfile) (b : bucket) : txt := match b with Name i => nth i (names (file_facts F)) [] | Gen k => zs "$$" ++ ndec k end.

Lemma rmap_all : forall (A B : Type) (f : A -> rd B) (g : A -> B) l, (forall x, In x l -> f x = ROk (g x)) -> rmap f l = ROk (map g l).
Proof. induction l as [|x l IH]; intros H; [reflexivity|]. cbn [rmap map]. rewrite (H x) by now left. cbn [rbind]. rewrite IH by (intros y I; apply H; now right). reflexivity. Qed.

Lemma bucket_at_ok : forall (idx : bucket -> nat) chain b, In b chain -> (forall a, In a chain -> idx a = idx b -> a = b) -> bucket_at (idx b) chain (map idx chain) = ROk b.
Proof.
  intros idx. induction chain as [|a chain IH]; intros b I H; [destruct I|]. cbn [map bucket_at]. destruct (Nat.eqb_spec (idx a) (idx b)) as [E|N]; [f_equal; apply H; [now left|exact E]|].
  apply IH; [destruct I as [->|I]; [now destruct N|exact I]|]. intros c Ic. apply H. now right.
Qed.

Lemma indices : forall (l : list nat) n, NoDup l -> Forall (fun x => x < n) l -> List.length l = n -> forall i, i < n -> In i l.
Proof.
  intros l n ND F E i Li. assert (I : incl (seq 0 n) l); [|apply I, in_seq; lia]. apply NoDup_length_incl; [exact ND|rewrite seq_length; lia|]. intros x Ix. rewrite Forall_forall in F. specialize (F x Ix). apply in_seq. lia.
Qed.

Lemma map_nodup : forall (idx : bucket -> nat) l, (forall a b, In a l -> In b l -> idx a = idx b -> a = b) -> NoDup l -> NoDup (map idx l).
Proof.
  intros idx. induction l as [|x l IH]; intros H ND; [constructor|]. inversion_clear ND. cbn [map]. constructor; [|apply IH; [intros a b Ia Ib; apply H; now right|assumption]].
  intros I. apply in_map_iff in I. destruct I as (y & E & Iy). assert (y = x) by (apply H; [now right|now left|exact E]). subst. contradiction.
Qed.

Lemma nth_error_seq0 : forall n i, i < n -> nth_error (seq 0 n) i = Some i.
Proof. intros n i L. rewrite (nth_error_nth' (seq 0 n) 0) by (rewrite seq_length; exact L). now rewrite seq_nth. Qed.

Lemma names_packed : forall F s (src : bsrc) (idx : bucket -> nat),
  wf_src src -> (forall a b, known F a -> known F b -> idx a = idx b -> a = b) -> (forall b, known F b -> 0 < idx b < b_nsyms src /\ idx b <> b_ntokens src) ->
  (exists syms gp pk, rmap (bucket_sym s) (d_chain s) = ROk syms /\ d_goal s = Some (num (file_facts F) (goal_of F)) /\ bucket_pos (Name (num (file_facts F) (goal_of F))) (d_chain s) = ROk gp /\
     pack_symbols syms gp = Ok pk /\ pk_ntokens pk = b_ntokens src /\ pk_nsyms pk = b_nsyms src /\ pk_index pk = map idx (d_chain s)) ->
  NoDup (d_chain s) -> b_nsyms src = List.length (d_chain s) + 2 -> (forall b, known F b <-> In b (d_chain s)) ->
  (forall n, In n (names (file_facts F)) -> exists x, info (num (file_facts F) n) s = ROk x /\ b_name x = n) ->
  exists nm, pack_names s = ROk nm /\ List.length nm = b_nsyms src /\ nth_error nm 0 = Some (zs "$end") /\ nth_error nm (b_ntokens src) = Some (zs "$accept") /\
    (forall b, known F b -> nth_error nm (idx b) = Some (text_of F b)) /\
    (forall t n, nth_error nm t = Some n -> t = 0 \/ t = b_ntokens src \/ exists b, known F b /\ idx b = t /\ n = text_of F b).
Proof.
  intros F s src idx WS INJ RG (syms & gp & pk & E1 & E2 & E3 & E4 & T & NS & IX) ND LN KN INF. pose proof (ws_tok _ WS) as WT. pose proof (ws_goal _ WS) as WG.
  set (chain := d_chain s) in *.
  assert (ON : forall i, i < b_nsyms src -> i = 0 \/ i = b_ntokens src \/ exists b, known F b /\ idx b = i).
  { intros i Li. assert (I : In i (0 :: b_ntokens src :: map idx chain)).
    { apply (indices _ (b_nsyms src)); [| |cbn [List.length]; rewrite map_length; lia|exact Li].
      - constructor; [intros [X|X]; [lia|]; apply in_map_iff in X; destruct X as (b & X & Ib); apply KN, RG in Ib; lia|]. constructor; [intros X; apply in_map_iff in X; destruct X as (b & X & Ib); apply KN, RG in Ib; lia|].
        apply map_nodup; [intros a b Ia Ib; apply INJ; now apply KN|exact ND].
      - constructor; [lia|]. constructor; [lia|]. apply Forall_forall. intros x X. apply in_map_iff in X. destruct X as (b & <- & Ib). apply KN, RG in Ib. lia. }
    destruct I as [<-|[<-|I]]; [auto|auto|]. right. right. apply in_map_iff in I. destruct I as (b & E & Ib). exists b. split; [now apply KN|exact E]. }
  assert (BN : forall b, known F b -> bucket_name s b = ROk (text_of F b)).
  { intros [i|k] K; [|reflexivity]. destruct K as (n & In0 & ->). destruct (INF n In0) as (x & EI & EN). cbn [bucket_name text_of]. rewrite EI. cbn [rbind]. f_equal. rewrite EN. symmetry. apply nth_error_nth. now apply pos_nth. }
  set (val := fun i => if i =? 0 then zs "$end" else if i =? b_ntokens src then zs "$accept" else match bucket_at i chain (map idx chain) with ROk b => text_of F b | _ => [] end).
  assert (AT : forall b, known F b -> bucket_at (idx b) chain (map idx chain) = ROk b) by (intros b K; apply bucket_at_ok; [now apply KN|]; intros a Ia; apply INJ; [now apply KN|exact K]).
  assert (VB : forall b, known F b -> val (idx b) = text_of F b).
  { intros b K. destruct (RG b K) as (R1 & R2). unfold val. destruct (Nat.eqb_spec (idx b) 0); [lia|]. destruct (Nat.eqb_spec (idx b) (b_ntokens src)); [contradiction|]. now rewrite (AT b K). }
  exists (map val (seq 0 (b_nsyms src))). split.
  { unfold pack_names. fold chain. rewrite E1. cbn [rbind]. rewrite E2. cbn [rbind]. rewrite E3. cbn [rbind]. rewrite E4. cbn [rbind lift]. rewrite T, NS, IX. apply rmap_all. intros i Ii. apply in_seq in Ii.
    unfold val. destruct (Nat.eqb_spec i 0); [reflexivity|]. destruct (Nat.eqb_spec i (b_ntokens src)); [reflexivity|]. destruct (ON i) as [?|[?|(b & K & <-)]]; [lia|lia|contradiction|]. rewrite (AT b K). cbn [rbind]. now apply BN. }
  split; [now rewrite map_length, seq_length|].
  assert (NT : forall i, i < b_nsyms src -> nth_error (map val (seq 0 (b_nsyms src))) i = Some (val i)) by (intros i Li; rewrite nth_error_map, nth_error_seq0 by exact Li; reflexivity).
  split; [rewrite NT by lia; reflexivity|]. split; [rewrite NT by lia; unfold val; destruct (Nat.eqb_spec (b_ntokens src) 0); [lia|]; now rewrite Nat.eqb_refl|]. split.
  - intros b K. rewrite NT by (apply RG in K; lia). now rewrite VB.
  - intros t n E. assert (Lt : t < b_nsyms src) by (apply nth_error_Some_lt in E; rewrite map_length, seq_length in E; exact E). rewrite NT in E by exact Lt. injection E as <-.
    destruct (ON t Lt) as [->|[->|(b & K & <-)]]; [auto|auto|]. right. right. exists b. split; [exact K|]. split; [reflexivity|now apply VB].
Qed.

(** ** The rules *)

(** The right side of a rule after [k] actions inside rules, and the rules of the file in their order; each action inside a rule
    has an empty rule before it. *)
Fixpoint body_text (k : nat) (b : list fpart) : txt :=
  match b with
  | [] => []
  | FSym x :: r => 32%Z :: sym_name x ++ body_text k r
  | FAct _ :: r => if existsb (fun p => match p with FPrec _ => false | _ => true end) r then zs " $$" ++ ndec (S k) ++ body_text (S k) r else body_text k r
  | FPrec _ :: r => body_text k r
  end.
Fixpoint lines (k : nat) (rs : list (txt * list fpart)) : list txt :=
  match rs with
  | [] => []
  | (n, b) :: r => map (fun j => zs "$$" ++ ndec j ++ zs " :") (seq (S k) (inner b)) ++ (n ++ zs " :" ++ body_text k b) :: lines (k + inner b) r
  end.

Definition line_of (F : bfile) (r : bucket * list bucket) : txt := text_of F (fst r) ++ zs " :" ++ flat_map (fun b => 32%Z :: text_of F b) (snd r).

Lemma name_text : forall F n, In n (names (file_facts F)) -> text_of F (Name (num (file_facts F) n)) = n.
Proof. intros F n I. cbn [text_of]. apply nth_error_nth. now apply pos_nth. Qed.

Lemma conv_followed : forall num b k, followed (conv num k b) = existsb (fun p => match p with FPrec _ => false | _ => true end) b.
Proof. induction b as [|[x|ps|x] b IH]; intros k; cbn [conv followed existsb]; auto. apply IH. Qed.

Lemma body_line : forall F b k j, Forall (fun n => In n (names (file_facts F))) (part_syms b) ->
  flat_map (fun b => 32%Z :: text_of F b) (replaced k (conv (num (file_facts F)) j b)) = body_text k b.
Proof.
  intros F. induction b as [|[x|ps|x] b IH]; intros k j FS; [reflexivity| | |].
  - cbn [part_syms flat_map app] in FS. change (flat_map _ b) with (part_syms b) in FS. cbn [conv replaced flat_map body_text app]. rewrite name_text by exact (Forall_inv FS). rewrite IH by exact (Forall_inv_tail FS). reflexivity.
  - cbn [part_syms flat_map app] in FS. change (flat_map _ b) with (part_syms b) in FS. cbn [conv replaced body_text]. rewrite conv_followed. destruct (existsb _ b); [|now apply IH]. cbn [flat_map text_of]. rewrite IH by exact FS. change (zs " $$") with (32%Z :: zs "$$"). cbn [app]. now rewrite <- app_assoc.
  - cbn [part_syms flat_map app] in FS. change (flat_map _ b) with (part_syms b) in FS. cbn [conv replaced body_text]. now apply IH.
Qed.

Lemma lines_out : forall F rs cs, Forall2 (fun r c => fst c = num (file_facts F) (fst r) /\ exists j, snd c = conv (num (file_facts F)) j (snd r)) rs cs ->
  (forall n b, In (n, b) rs -> In n (names (file_facts F)) /\ Forall (fun n => In n (names (file_facts F))) (part_syms b)) ->
  forall k, map (line_of F) (map fst (rules_out k cs)) = lines k rs.
Proof.
  intros F rs cs H. induction H as [|(n & b) (l & c) rs cs (E1 & j & E2) H IH]; intros K k; [reflexivity|]. cbn [fst snd] in E1, E2. subst l c. destruct (K n b (or_introl eq_refl)) as (K1 & K2). cbn [rules_out lines]. rewrite !map_app, conv_inner, IH by (intros m d I; apply K; now right).
  unfold rule_out. rewrite !map_app, !map_map, conv_inner, <- app_assoc. apply f_equal2; [apply map_ext; intros i; unfold line_of; cbn [fst snd text_of flat_map]; rewrite <- app_assoc; reflexivity|].
  cbn [map app fst]. f_equal. unfold line_of. cbn [fst snd]. rewrite name_text by exact K1. rewrite body_line by exact K2. reflexivity.
Qed.

(** ** The file *)

Lemma packed : forall z F file, file_text F (input file) -> file_ok F -> codes_fit F ->
  exists s src pr sv (idx : bucket -> nat) nm, read_file file = ROk s /\ pack_file z s = ROk (src, pr, sv) /\ pack_names s = ROk nm /\ List.length nm = b_nsyms src /\
    wf_src src /\ wf_prec src pr /\ wf_sv src sv /\ nth 0 sv 0%Z = 0%Z /\ nth (b_ntokens src) sv 0%Z = (-1)%Z /\
    (let code := fun n => nth (idx (Name (num (file_facts F) n))) sv 0%Z in
     (forall n, file_token F n -> match code_of_sym (file_facts F) n with Some v => code n = v | None => if teq n (zs "error") then code n = 256%Z else (256 < code n)%Z end) /\
     (forall n m, file_token F n -> file_token F m -> code n = code m -> n = m)) /\
    (forall n, file_token F n -> 0 < idx (Name (num (file_facts F) n)) < b_ntokens src /\ nth_error nm (idx (Name (num (file_facts F) n))) = Some n) /\
    (forall t n, 2 <= t < b_ntokens src -> nth_error nm t = Some n -> file_token F n /\ n <> zs "error" /\ t = idx (Name (num (file_facts F) n))) /\
    (forall n, file_token F n -> n <> zs "error" -> 2 <= idx (Name (num (file_facts F) n))) /\
    (forall t n, nth_error nm t = Some n -> n = zs "$end" \/ n = zs "$accept" \/ (exists k, n = zs "$$" ++ ndec k) \/ In n (names (file_facts F)) /\ (b_ntokens src <= t -> is_lhs (file_facts F) n)) /\
    nth_error nm 0 = Some (zs "$end") /\
    map (rule_string nm) ((b_ntokens src, [S (b_ntokens src)]) :: b_rules src) = (zs "$accept : " ++ goal_of F) :: lines 0 (file_rules F) /\
    (forall w, Forall (file_token F) w -> (sentence (user src) (map (fun n => idx (Name (num (file_facts F) n))) w) <-> yields (file_grammar F) [goal_of F] w)) /\
    (forall t, sentence (user src) t -> exists w, t = map (fun n => idx (Name (num (file_facts F) n))) w /\ Forall (file_token F) w).
Proof.
  intros z F file FT OK CF. destruct (file_packed F z file FT OK CF) as (s & src & pr & sv & idx & RF & PF & ER & WS & WP & WV & V0 & INJ & IG & Ig & NM & GN & CD & _ & PK & CH1 & CH2 & KN & INF & E1 & S1).
  set (L := file_facts F) in *. set (N := num L) in *. pose proof (ws_tok _ WS) as WT. pose proof (ws_goal _ WS) as WG.
  assert (LD : forall n, is_lhs L n \/ ~ is_lhs L n) by (intros n; destruct (without_rules F n) eqn:W; [right; now apply without_iff|left; destruct (in_dec (list_eq_dec Z.eq_dec) n (map fst (file_grammar F))) as [I|I]; [apply lhs_iff; apply in_map_iff in I; destruct I as ((m & r) & <- & I); exists r; exact I|exfalso; assert (X : without_rules F n = true); [apply without_iff; intros X; apply I; apply lhs_iff in X; destruct X as (r & X); apply in_map_iff; exists (n, r); auto|congruence]]]).
  assert (RG : forall b, known F b -> 0 < idx b < b_nsyms src /\ idx b <> b_ntokens src).
  { intros [i|k] K; [|specialize (GN k K); lia]. destruct K as (n & In0 & ->). destruct (NM n In0) as (A & B & _). fold L in A, B. fold N in A, B. destruct (LD n) as [H|H]; [specialize (B H); fold L N; lia|specialize (A H); fold L N; lia]. }
  destruct (names_packed F s src idx WS INJ RG PK CH1 CH2 KN INF) as (nm & EN & LN & N0 & NA & NB & NI).
  assert (IE : In (zs "error") (names L)) by (apply names_in; now left).
  assert (TR : forall n, file_token F n -> 0 < idx (Name (N n)) < b_ntokens src) by (intros n (In0 & H); destruct (NM n In0) as (A & _); now apply A).
  assert (KNm : forall n, In n (names L) -> known F (Name (N n))) by (intros n In0; exists n; split; [exact In0|reflexivity]).
  exists s, src, pr, sv, idx, nm. split; [exact RF|]. split; [exact PF|]. split; [exact EN|]. split; [exact LN|]. split; [exact WS|]. split; [exact WP|]. split; [exact WV|]. split; [exact V0|]. split; [exact S1|].
  split. { split; [exact CD|]. intros n m Tn Tm E. apply (N_inj F); [apply Tn|apply Tm|]. apply (sv_inj _ _ WV) in E; [|apply TR, Tn|apply TR, Tm]. apply INJ in E; [injection E as E; exact E|apply KNm, Tn|apply KNm, Tm]. }
  split. { intros n Tn. split; [now apply TR|]. fold L N. rewrite (NB _ (KNm n (proj1 Tn))). f_equal. apply name_text. apply Tn. }
  split. { intros t n Lt E. destruct (NI t n E) as [->|[->|([i|k] & K & Ei & En)]]; [lia|lia| |specialize (GN k K); lia].
    destruct K as (m & Im & ->). change (num (file_facts F) m) with (N m) in *. subst n t. rewrite (name_text F m Im : text_of F (Name (N m)) = m). split; [|split; [|reflexivity]].
    - split; [exact Im|]. intros H. destruct (NM m Im) as (_ & B & _). specialize (B H). fold N in B. lia.
    - intros ->. fold N in E1. lia. }
  split. { intros n Tn NE. pose proof (TR n Tn) as R. fold L N. assert (idx (Name (N n)) <> 1); [|lia]. intros E. rewrite <- E1 in E. apply INJ in E; [|apply KNm, Tn|apply KNm, IE]. apply NE, (N_inj F); [apply Tn|exact IE|]. injection E as E; exact E. }
  split. { intros t n E. destruct (NI t n E) as [->|[->|([i|k] & K & Ei & En)]]; [left; rewrite N0 in E; now injection E as <-|right; left; rewrite NA in E; now injection E as <-| |right; right; left; exists k; exact En]. destruct K as (m & Im & ->). right. right. right.
    rewrite (name_text F m Im : text_of F (Name (num (file_facts F) m)) = m) in En. subst n. split; [exact Im|]. intros Lt. destruct (LD m) as [H|H]; [exact H|]. pose proof (TR m (conj Im H)) as R. change (num (file_facts F) m) with (N m) in Ei. lia. }
  split; [exact N0|].
  split.
  { cbn [map]. f_equal.
    - unfold rule_string. cbn [fst snd flat_map]. rewrite (nth_error_nth _ _ _ NA). rewrite <- IG, (nth_error_nth _ _ _ (NB _ (KNm _ Ig))). rewrite (name_text F _ Ig : text_of F (Name (N (goal_of F))) = goal_of F). rewrite app_nil_r. reflexivity.
    - rewrite ER. rewrite <- (lines_out F (file_rules F) _ (conv_rules N (f_groups F) 0)).
      + unfold rename. rewrite map_map. apply map_ext_in. intros (x & r) I. apply in_map_iff in I. destruct I as (((x0 & r0) & m) & E & I). cbn [fst] in E. injection E as -> ->. destruct (rules_known F _ _ _ I) as (K1 & K2 & _).
        unfold rule_string, line_of. cbn [fst snd]. rewrite (nth_error_nth _ _ _ (NB _ K1)). f_equal. f_equal. rewrite flat_map_concat_map, map_map, <- flat_map_concat_map. clear - K2 NB.
        induction r as [|b r IH]; [reflexivity|]. cbn [flat_map]. rewrite (nth_error_nth _ _ _ (NB _ (Forall_inv K2))). rewrite IH by exact (Forall_inv_tail K2). reflexivity.
      + intros n b I. apply (grammar_in F n (part_syms b)). unfold file_grammar. apply in_map_iff. exists (n, b). auto. }
  split.
  - intros w FW. apply (packed_language F file s src idx FT OK RF ER WS INJ IG Ig w); [eapply Forall_impl; [|exact FW]; intros n Tn; apply Tn|]. eapply Forall_impl; [|exact FW]. intros n Tn. exact (proj2 (TR n Tn)).
  - intros t SE. destruct (packed_names F file s src idx FT OK RF ER WS INJ IG Ig t SE) as (w & -> & FW). exists w. split; [reflexivity|]. apply Forall_forall. intros m Im. rewrite Forall_forall in FW. split; [now apply FW|]. intros Lm.
    destruct (NM m (FW m Im)) as (_ & R2 & _). specialize (R2 Lm). destruct SE as (FS & _). rewrite Forall_forall in FS. specialize (FS (idx (Name (num (file_facts F) m)))). cbv beta in FS. assert (X : idx (Name (num (file_facts F) m)) < b_ntokens src) by (apply FS; apply in_map_iff; exists m; auto). fold L N in X. lia.
Qed.

(** The numbers in the text are ints. *)
Definition ints (s : bsrc) (sv : list Z) (Y : ytabs) : Prop :=
  (forall t, t < b_ntokens s -> (nth t sv 0 + Z.of_nat (b_nsyms s) + 1 < 2 ^ 31)%Z) /\ (Z.of_nat (List.length (y_defred Y)) < 2 ^ 31)%Z /\
  (Z.of_nat (List.length (b_rules s)) < 2 ^ 31)%Z /\ (forall l r, In (l, r) (b_rules s) -> Z.of_nat (List.length r) < 2 ^ 31)%Z /\ (Z.of_nat (y_high Y) < 2 ^ 31 - 1)%Z.

(** The names can be printed: no $ in a token and no double quote in a literal of more than one character. *)
Definition printable (F : bfile) : Prop :=
  (forall n, file_token F n -> ~ In 36%Z n) /\ (forall l, Forall byte l -> In (literal_name l) (names (file_facts F)) -> List.length l = 1 \/ ~ In 34%Z l).

(** The names in a file. *)
Definition spelled (n : txt) : Prop := word n \/ exists l, Forall byte l /\ n = literal_name l.
Lemma symbol_spelled : forall x t r, symbol x t r -> spelled (sym_name x).
Proof. intros x t r H. destruct H as [n r W _|q l u r _ _ B]; [left; exact W|right; exists l; auto]. Qed.
Lemma sym_facts_spelled : forall x, spelled (sym_name x) -> Forall (fun e => spelled (fst e)) (sym_facts x).
Proof.
  intros [n|l] H; [apply Forall_cons; [exact H|apply Forall_nil]|]. unfold sym_facts. apply Forall_cons; [exact H|]. apply Forall_cons; [exact H|]. destruct l as [|c [|]]; [apply Forall_nil|apply Forall_cons; [exact H|apply Forall_nil]|apply Forall_nil].
Qed.
Lemma token_list_spelled : forall l t r, token_list l t r -> Forall (fun e => spelled (sym_name (fst e))) l.
Proof. intros l t r H. induction H; [constructor| |]; (constructor; [eapply symbol_spelled; eauto|assumption]). Qed.
Lemma type_list_spelled : forall l t r, type_list l t r -> Forall (fun x => spelled (sym_name x)) l.
Proof. intros l t r H. induction H; [constructor|]. constructor; [eapply symbol_spelled; eauto|assumption]. Qed.
Lemma tag_spelled : forall tag n, spelled n -> Forall (fun e => spelled (fst e)) (tag_facts tag n).
Proof. intros [g|] n H; [apply Forall_cons; [exact H|apply Forall_nil]|apply Forall_nil]. Qed.
Lemma flat_spelled : forall (A : Type) (f : A -> log) l, (forall x, In x l -> Forall (fun e => spelled (fst e)) (f x)) -> Forall (fun e => spelled (fst e)) (flat_map f l).
Proof. intros A f. induction l as [|x l IH]; intros H; [constructor|]. cbn [flat_map]. apply Forall_app. split; [apply H; now left|apply IH; intros y I; apply H; now right]. Qed.
Lemma decls_spelled : forall ds t r, decls_text ds t r -> forall p, Forall (fun e => spelled (fst e)) (decls_facts p ds).
Proof.
  intros ds t r H. induction H as [r|d l t u r DT H IH]; intros p; [constructor|]. cbn [decls_facts]. apply Forall_app. split; [|apply IH]. destruct DT; cbn [decl_facts]; try constructor.
  - apply flat_spelled. intros (x & v) I. match goal with K : token_list _ _ _ |- _ => apply token_list_spelled in K; rewrite Forall_forall in K; specialize (K _ I); cbn [fst] in K; rename K into SX end.
    apply Forall_app. split; [now apply sym_facts_spelled|]. constructor; [exact SX|]. apply Forall_app. split; [now apply tag_spelled|]. apply Forall_app. split; [destruct a|destruct v]; [apply Forall_cons; [exact SX|apply Forall_nil]|apply Forall_nil|apply Forall_cons; [exact SX|apply Forall_nil]|apply Forall_nil].
  - apply flat_spelled. intros x I. match goal with K : type_list _ _ _ |- _ => apply type_list_spelled in K; rewrite Forall_forall in K; specialize (K _ I); rename K into SX end.
    apply Forall_app. split; [now apply sym_facts_spelled|now apply tag_spelled].
  - match goal with K : symbol (SName _) _ _ |- _ => exact (symbol_spelled _ _ _ K) end.
  - constructor.
Qed.
Lemma parts_spelled : forall b t r, parts_text b t r -> Forall (fun e => spelled (fst e)) (flat_map part_facts b).
Proof.
  intros b t r H. induction H as [r|p b t u r PT H IH]; [constructor|]. cbn [flat_map]. apply Forall_app. split; [|exact IH]. destruct PT; cbn [part_facts]; try apply Forall_nil;
    apply sym_facts_spelled; match goal with K : symbol _ _ _ |- _ => exact (symbol_spelled _ _ _ K) end.
Qed.
Lemma alts_spelled : forall l t r, alts_text l t r -> Forall (fun e => spelled (fst e)) (flat_map (flat_map part_facts) l).
Proof. intros l t r H. induction H as [r|b l g t u r G ST PT H IH]; [constructor|]. cbn [flat_map]. apply Forall_app. split; [eapply parts_spelled; eauto|exact IH]. Qed.
Lemma groups_spelled : forall gs t, groups_text gs t -> Forall (fun e => spelled (fst e)) (flat_map group_facts gs).
Proof.
  intros gs t H. induction H as [|p q r Pp Pq|f l t r GT H IH]; [constructor|constructor|]. cbn [flat_map]. apply Forall_app. split; [|exact IH]. destruct GT as [n b l' t g g' u v r SY G G' SU PT AT]. unfold group_facts. cbn [f_lhs f_body f_alts].
  apply symbol_spelled in SY. constructor; [exact SY|]. constructor; [exact SY|]. apply Forall_app. split; [eapply parts_spelled; eauto|eapply alts_spelled; eauto].
Qed.

Lemma ident_strch : forall c, is_ident c -> strch c.
Proof. intros c H. unfold is_ident, isalnum, isalpha, isdigit in H. unfold strch. destruct H as [H|[->|[->| ->]]]; lia. Qed.
Lemma word_strch : forall n, word n -> Forall strch n.
Proof. intros n (_ & H). eapply Forall_impl; [exact ident_strch|exact H]. Qed.
Lemma names_ok : forall F t, file_text F t -> printable F -> (forall n, In n (names (file_facts F)) -> name_ok n) /\ (forall n, is_lhs (file_facts F) n -> Forall strch n).
Proof.
  intros F t FT (_ & PL). destruct FT as [ds gs g t p q g' u G V DT P Q G' V' GT]. split.
  - intros n I. assert (SP : spelled n).
    { apply names_in in I. destruct I as [->|I]; [left; split; [left; reflexivity|repeat constructor; left; reflexivity]|]. apply in_map_iff in I. destruct I as (e & <- & I). unfold file_facts in I. cbn [f_decls f_groups] in I. apply in_app_or in I.
      destruct I as [I|I]; [pose proof (decls_spelled _ _ _ DT 0) as K|pose proof (groups_spelled _ _ GT) as K]; rewrite Forall_forall in K; exact (K e I). }
    destruct SP as [W|(l & B & ->)].
    + left. destruct n as [|c r]; [destruct W as ([] & _)|]. split; [discriminate|]. split; [now apply word_strch|]. cbn [hd]. intros ->. destruct W as ([W|[W|[W|W]]] & _); discriminate W.
    + right. exists l. split; [exact B|]. split; [now apply PL|reflexivity].
  - intros n I. apply lhs_iff in I. destruct I as (r & I). unfold file_grammar, file_rules in I. cbn [f_groups] in I. apply in_map_iff in I. destruct I as ((m & b) & E & I). cbn [fst snd] in E. injection E as -> _. apply in_flat_map in I. destruct I as (f & If & I). apply in_map_iff in I. destruct I as (b' & E & _). injection E as <- _.
    apply word_strch. pose proof (ByaccRejectProof.groups_words _ _ GT) as W. rewrite Forall_forall in W. exact (W f If).
Qed.

Lemma gen_strch : forall k, Forall strch (zs "$$" ++ ndec k).
Proof.
  intros k. apply Forall_app. split; [repeat constructor; discriminate|]. eapply Forall_impl; [|apply LemonReprintProof.ndec_range]. intros c R. cbv beta in R. split; [lia|]. split; lia.
Qed.

(** The text, its tokens, and the codes of the macros, for all the theorems below. *)
Lemma printed : forall p z sflag tflag tt F file, file_text F (input file) -> file_ok F -> codes_fit F -> ident p -> printable F ->
  exists s src pr sv (code : txt -> Z), read_file file = ROk s /\ pack_file z s = ROk (src, pr, sv) /\
    (forall n, file_token F n -> match code_of_sym (file_facts F) n with Some v => code n = v | None => if teq n (zs "error") then code n = 256%Z else (256 < code n)%Z end) /\
    (forall n m, file_token F n -> file_token F m -> code n = code m -> n = m) /\
    forall f1 f2 f3 flag Y, byacc_generate f1 f2 f3 flag src pr sv = Ok Y -> ints src sv Y ->
    (exists text u defs stos maxtok undf names,
      byacc_print p z sflag tflag tt f1 f2 f3 flag file = ROk (Some text, u) /\
      clex true text (ytokens p defs Y stos tflag maxtok undf) /\
      (forall w v, In (w, v) defs <-> exists n, file_token F n /\ n <> zs "error" /\ names_macro sflag n w /\ v = code n) /\
      (forall n, file_token F n -> (code n <= maxtok)%Z) /\ (maxtok < undf)%Z /\
      clex true u (ntokens_of p tt names ((zs "$accept : " ++ goal_of F) :: lines 0 (file_rules F))) /\
      (forall n, file_token F n -> nth_error names (Z.to_nat (code n)) = Some (Some n)) /\
      nth_error names 0 = Some (Some (zs "$end")) /\ nth_error names (Z.to_nat undf) = Some (Some (zs "illegal-symbol"))) /\
    (all_productive (aug src) -> conflict_free (aug src) ->
     forall w lex mem, Forall (file_token F) w -> (forall i n, nth_error w i = Some n -> lex i = code n) -> (lex (List.length w) <= 0)%Z ->
     exists fuel e c, (forall fuel', fuel <= fuel' -> yyparse Y lex fuel' (fresh mem) = Ok (e, c)) /\
       (e = YOverflow /\ (In false mem \/ YYMAXDEPTH <= List.length (ks_st (y_stk c))) \/
        e <> YOverflow /\ (yields (file_grammar F) [goal_of F] w <-> y_nerrs c = 0) /\ (yields (file_grammar F) [goal_of F] w -> e = YAccept))) /\
    (forall lex mem fuel c, yyparse Y lex fuel (fresh mem) = Ok (YAccept, c) -> y_nerrs c = 0 ->
     exists w, Forall (file_token F) w /\ yields (file_grammar F) [goal_of F] w /\ map lex (seq 0 (List.length w)) = map code w /\ (lex (List.length w) <= 0)%Z).
Proof.
  intros p z sflag tflag tt F file FT OK CF IP PR. destruct (names_ok F _ FT PR) as (P2 & P3). destruct PR as (P1 & _).
  destruct (packed z F file FT OK CF) as (s & src & pr & sv & idx & nm & RF & PF & EN & LN & WS & WP & WV & V0 & S1 & (CD & CI) & TK & TI & T2 & NI & N0 & RU & PL & PN).
  pose proof (ws_tok _ WS) as WT. pose proof (ws_goal _ WS) as WG. set (code := fun n => nth (idx (Name (num (file_facts F) n))) sv 0%Z) in *.
  exists s, src, pr, sv, code. split; [exact RF|]. split; [exact PF|]. split; [exact CD|]. split; [exact CI|]. intros f1 f2 f3 flag Y EY (B1 & B2 & B3 & B4 & B5). split; [|split].
  - destruct (C76_tables_text p sflag tflag nm src f1 f2 f3 flag pr sv Y WS WP WV EY S1 IP LN) as (text & defs & stos & M & sts & E1 & E2 & E3 & M1 & (tm & Ltm & M2) & _); auto.
    { intros t n Lt En. destruct (TI t n Lt En) as (Tn & _). now apply P1. }
    destruct (C77_names_text p tt nm src sv WS WV S1 IP LN) as (u & nms & rules & M' & top & F1 & F2 & M1' & (tm' & Ltm' & M2') & F3 & F4 & F5 & F6 & _ & F7).
    { intros X n En. destruct (NI X n En) as [->|[->|[(k & ->)|(I & _)]]]; [| | |now apply P2].
      - left. split; [discriminate|]. split; [repeat constructor; discriminate|discriminate].
      - left. split; [discriminate|]. split; [repeat constructor; discriminate|discriminate].
      - left. split; [discriminate|]. split; [apply gen_strch|discriminate]. }
    { intros X n LX En. destruct (NI X n En) as [->|[->|[(k & ->)|(_ & I)]]]; [repeat constructor; discriminate|repeat constructor; discriminate|apply gen_strch|apply P3, I, LX]. }
    assert (EM : M' = M) by (specialize (M1 tm' Ltm'); specialize (M1' tm Ltm); lia). rewrite EM in F3, F5. rewrite RU in F7. subst rules.
    exists text, u, defs, stos, M. eexists. exists nms. split.
    { unfold byacc_print. rewrite RF. cbn [rbind]. rewrite PF. cbn [rbind]. rewrite EN. cbn [rbind]. rewrite E1. cbn [lift rbind]. rewrite F1. reflexivity. }
    split; [exact E2|]. split.
    { intros w v. rewrite E3. split.
      - intros (t & n & Lt & En & MC & ->). destruct (TI t n Lt En) as (Tn & NE & ->). exists n. auto.
      - intros (n & Tn & NE & MC & ->). destruct (TK n Tn) as (R & En). exists (idx (Name (num (file_facts F) n))), n. split; [split; [now apply T2|apply R]|]. split; [exact En|]. split; [exact MC|reflexivity]. }
    split; [intros n Tn; apply M1, TK, Tn|]. split; [lia|]. split; [exact F2|]. split.
    { intros n Tn. destruct (TK n Tn) as (R & En). pose proof (F5 _ _ En) as X. unfold symbol_code in X. rewrite (proj2 (Nat.ltb_lt _ _) (proj2 R)) in X. exact X. }
    split; [pose proof (F5 _ _ N0) as X; unfold symbol_code in X; rewrite (proj2 (Nat.ltb_lt 0 (b_ntokens src))) in X by lia; rewrite V0 in X; exact X|].
    rewrite <- F3, Nat2Z.id. exact F6.
  - intros AP CFR w lex mem FW LX LE.
    destruct (C71_decides src f1 f2 f3 flag pr sv Y WS WP WV V0 EY AP CFR (map (fun n => idx (Name (num (file_facts F) n))) w) lex mem) as (fuel & e & c & H1 & H2).
    + apply Forall_forall. intros t It. apply in_map_iff in It. destruct It as (n & <- & In0). rewrite Forall_forall in FW. apply TK. now apply FW.
    + split; [|now rewrite map_length]. intros i t Ei. rewrite nth_error_map in Ei. destruct (nth_error w i) as [n|] eqn:En; [|discriminate]. injection Ei as <-. now apply LX.
    + exists fuel, e, c. split; [exact H1|]. rewrite <- (PL w FW). exact H2.
  - intros lex mem fuel c R NE0. destruct (C48_accepted src f1 f2 f3 flag pr sv Y WS WP WV V0 EY lex mem fuel c R NE0) as (n & toks & _ & SE & _ & M & LE).
    destruct (PN toks SE) as (w & -> & FW). exists w. rewrite map_map in M.
    assert (LW : List.length w = n) by (apply (f_equal (@List.length _)) in M; rewrite !map_length, seq_length in M; exact M).
    split; [exact FW|]. split; [now apply (PL w FW)|]. rewrite LW. split; [symmetry; exact M|exact LE].
Qed.

(** C80.  For a grammar file byacc prints two texts.  To a C compiler the first is the tables of a parser [Y], a macro for each token
    of the file but error whose name (without -s: or the characters between double quotes) is a word of C, with its code, and constants
    above the codes; the second names every token at its code and lists the rules of the file in their order. *)
Theorem C80_text : forall p z sflag tflag tt F file, file_text F (input file) -> file_ok F -> codes_fit F -> ident p -> printable F ->
  exists s src pr sv (code : txt -> Z), read_file file = ROk s /\ pack_file z s = ROk (src, pr, sv) /\
    (forall n, file_token F n -> match code_of_sym (file_facts F) n with Some v => code n = v | None => if teq n (zs "error") then code n = 256%Z else (256 < code n)%Z end) /\
    (forall n m, file_token F n -> file_token F m -> code n = code m -> n = m) /\
    forall f1 f2 f3 flag Y, byacc_generate f1 f2 f3 flag src pr sv = Ok Y -> ints src sv Y ->
    exists text u defs stos maxtok undf names,
      byacc_print p z sflag tflag tt f1 f2 f3 flag file = ROk (Some text, u) /\
      clex true text (ytokens p defs Y stos tflag maxtok undf) /\
      (forall w v, In (w, v) defs <-> exists n, file_token F n /\ n <> zs "error" /\ names_macro sflag n w /\ v = code n) /\
      (forall n, file_token F n -> (code n <= maxtok)%Z) /\ (maxtok < undf)%Z /\
      clex true u (ntokens_of p tt names ((zs "$accept : " ++ goal_of F) :: lines 0 (file_rules F))) /\
      (forall n, file_token F n -> nth_error names (Z.to_nat (code n)) = Some (Some n)) /\
      nth_error names 0 = Some (Some (zs "$end")) /\ nth_error names (Z.to_nat undf) = Some (Some (zs "illegal-symbol")).
Proof.
  intros p z sflag tflag tt F file FT OK CF IP PR. destruct (printed p z sflag tflag tt F file FT OK CF IP PR) as (s & src & pr & sv & code & RF & PF & CD & CI & H). exists s, src, pr, sv, code. split; [exact RF|]. split; [exact PF|]. split; [exact CD|]. split; [exact CI|].
  intros f1 f2 f3 flag Y EY I. exact (proj1 (H f1 f2 f3 flag Y EY I)).
Qed.
Print Assumptions C80_text.

(** A lexer returns for a token the value of one of its macros, or the code the file gives to it. *)
Definition denotes (F : bfile) (sflag : bool) (defs : list (txt * Z)) (n : txt) (v : Z) : Prop :=
  code_of_sym (file_facts F) n = Some v \/ exists m, names_macro sflag n m /\ In (m, v) defs.
(** No two tokens have one macro (C76_macros_collide_refuted). *)
Definition apart (F : bfile) (sflag : bool) : Prop := forall n n' m, file_token F n -> file_token F n' -> names_macro sflag n m -> names_macro sflag n' m -> n = n'.

(** Whatever macros and parser a C compiler reads from the text: if the grammar has no conflicts and every nonterminal derives a string
    of tokens, that parser with a lexer that uses those macros returns on every string of tokens; the strings of the rules of the file
    are those without an error message, and for them it returns 0, or the stack ran over. *)
Theorem C80_decides : forall p z sflag tflag tt F file, file_text F (input file) -> file_ok F -> codes_fit F -> ident p -> printable F -> apart F sflag ->
  exists s src pr sv, read_file file = ROk s /\ pack_file z s = ROk (src, pr, sv) /\
    forall f1 f2 f3 flag Y, byacc_generate f1 f2 f3 flag src pr sv = Ok Y -> ints src sv Y -> all_productive (aug src) -> conflict_free (aug src) ->
    exists text u, byacc_print p z sflag tflag tt f1 f2 f3 flag file = ROk (Some text, u) /\
      forall Y' defs stos tf maxtok undf, clex true text (ytokens p defs Y' stos tf maxtok undf) ->
      forall w lex mem, Forall (file_token F) w -> (forall i n, nth_error w i = Some n -> denotes F sflag defs n (lex i)) -> (lex (List.length w) <= 0)%Z ->
      exists fuel e c, (forall fuel', fuel <= fuel' -> yyparse Y' lex fuel' (fresh mem) = Ok (e, c)) /\
        (e = YOverflow /\ (In false mem \/ YYMAXDEPTH <= List.length (ks_st (y_stk c))) \/
         e <> YOverflow /\ (yields (file_grammar F) [goal_of F] w <-> y_nerrs c = 0) /\ (yields (file_grammar F) [goal_of F] w -> e = YAccept)).
Proof.
  intros p z sflag tflag tt F file FT OK CF IP PR AP. destruct (printed p z sflag tflag tt F file FT OK CF IP PR) as (s & src & pr & sv & code & RF & PF & CD & CI & H). exists s, src, pr, sv. split; [exact RF|]. split; [exact PF|].
  intros f1 f2 f3 flag Y EY I PV CFR. destruct (H f1 f2 f3 flag Y EY I) as ((text & u & defs & stos & M & un & nms & E1 & E2 & E3 & _) & D & _). exists text, u. split; [exact E1|].
  intros Y' defs' stos' tf' M' un' R. destruct (C76_tokens_determine _ _ _ _ _ _ _ _ _ _ _ _ _ _ E2 R) as (<- & <- & _). intros w lex mem FW LX LE. apply (D PV CFR w lex mem FW); [|exact LE].
  intros i n Ei. assert (Tn : file_token F n) by (rewrite Forall_forall in FW; apply FW; eapply nth_error_In; eauto). destruct (LX i n Ei) as [K|(m & MC & K)].
  - pose proof (CD n Tn) as X. rewrite K in X. now rewrite X.
  - apply E3 in K. destruct K as (n' & Tn' & _ & MC' & ->). now rewrite (AP n n' m Tn Tn' MC MC').
Qed.
Print Assumptions C80_decides.

(** With conflicts too, what that parser accepts without an error message is a string of the rules of the file, and the lexer returned the
    values of the macros and the codes the file gives. *)
Theorem C80_accepted : forall p z sflag tflag tt F file, file_text F (input file) -> file_ok F -> codes_fit F -> ident p -> printable F ->
  exists s src pr sv, read_file file = ROk s /\ pack_file z s = ROk (src, pr, sv) /\
    forall f1 f2 f3 flag Y, byacc_generate f1 f2 f3 flag src pr sv = Ok Y -> ints src sv Y ->
    exists text u, byacc_print p z sflag tflag tt f1 f2 f3 flag file = ROk (Some text, u) /\
      forall Y' defs stos tf maxtok undf, clex true text (ytokens p defs Y' stos tf maxtok undf) ->
      forall lex mem fuel c, yyparse Y' lex fuel (fresh mem) = Ok (YAccept, c) -> y_nerrs c = 0 ->
      exists w, Forall (file_token F) w /\ yields (file_grammar F) [goal_of F] w /\ (lex (List.length w) <= 0)%Z /\
        forall i n, nth_error w i = Some n -> (forall v, code_of_sym (file_facts F) n = Some v -> lex i = v) /\ (forall m, names_macro sflag n m -> n <> zs "error" -> In (m, lex i) defs).
Proof.
  intros p z sflag tflag tt F file FT OK CF IP PR. destruct (printed p z sflag tflag tt F file FT OK CF IP PR) as (s & src & pr & sv & code & RF & PF & CD & CI & H). exists s, src, pr, sv. split; [exact RF|]. split; [exact PF|].
  intros f1 f2 f3 flag Y EY I. destruct (H f1 f2 f3 flag Y EY I) as ((text & u & defs & stos & M & un & nms & E1 & E2 & E3 & _) & _ & A). exists text, u. split; [exact E1|].
  intros Y' defs' stos' tf' M' un' R. destruct (C76_tokens_determine _ _ _ _ _ _ _ _ _ _ _ _ _ _ E2 R) as (<- & <- & _). intros lex mem fuel c EP NE0. destruct (A lex mem fuel c EP NE0) as (w & FW & YW & ML & LE). exists w. split; [exact FW|]. split; [exact YW|]. split; [exact LE|].
  intros i n Ei. assert (Tn : file_token F n) by (rewrite Forall_forall in FW; apply FW; eapply nth_error_In; eauto). assert (Li : i < List.length w) by (eapply nth_error_Some_lt; eauto).
  assert (LC : lex i = code n) by (apply (f_equal (fun l => nth_error l i)) in ML; rewrite !nth_error_map, nth_error_seq0, Ei in ML by exact Li; cbn [option_map] in ML; congruence). rewrite LC. split.
  - intros v K. pose proof (CD n Tn) as X. rewrite K in X. exact X.
  - intros m MC NE. apply E3. exists n. auto.
Qed.
Print Assumptions C80_accepted.

(** The file of C70: [s : s '+' {..} N {..} | N | %prec '+'] with the code 300 for N. *)
Definition print80 : option (txt * txt) := Eval vm_compute in match byacc_print (zs "yy") false false false false 300 300 300 false ex_file with ROk (Some t, u) => Some (t, u) | _ => None end.
Example C80_hypotheses : file_text ex_F (input ex_file) /\ file_ok ex_F /\ codes_fit ex_F /\ ident (zs "yy") /\ printable ex_F /\ apart ex_F false /\
  (exists s Y, read_file ex_file = ROk s /\ pack_file false s = ROk (ex_src, ex_pr, ex_sv) /\ byacc_generate 300 300 300 false ex_src ex_pr ex_sv = Ok Y /\ ints ex_src ex_sv Y) /\
  all_productive (aug ex_src) /\ conflict_free (aug ex_src) /\
  (exists text u, print80 = Some (text, u) /\ byacc_print (zs "yy") false false false false 300 300 300 false ex_file = ROk (Some text, u) /\
    firstn 36 text = zs "#define N 300" ++ nl ++ zs "#define YYERRCODE 256" ++ nl /\
    skipn 719 u = zs "static const char *const yyrule[] = {" ++ nl ++ zs """$accept : s""," ++ nl ++ zs """$$1 :""," ++ nl ++ zs """s : s '+' $$1 N""," ++ nl ++ zs """s : N""," ++ nl ++ zs """s :""," ++ nl ++ nl ++ zs "};" ++ nl ++ zs "#endif" ++ nl) /\
  lines 0 (file_rules ex_F) = [zs "$$1 :"; zs "s : s '+' $$1 N"; zs "s : N"; zs "s :"].
Proof.
  destruct C70_hypotheses as (A & B & C & (s & Y & D1 & D2 & D3 & _) & CFR & _). destruct C70_decides_hypotheses as (AP & _). split; [exact A|]. split; [exact B|]. split; [exact C|]. split; [idn|]. split.
  { split.
    - intros n T. apply ex_tokens in T. destruct T as [-> | [-> | ->]]; intros K; vm_compute in K; repeat (destruct K as [K|K]; [discriminate K|]); exact K.
    - intros l _ I. vm_compute in I. change (In (literal_name l) (map zs ["error"; "N"; "'+'"; "s"]%string)) in I. unfold literal_name in I. destruct (Nat.eqb_spec (List.length l) 1) as [E|E]; [left; exact E|]. exfalso. destruct I as [I|[I|[I|[I|[]]]]]; discriminate I. }
  split.
  { assert (K : forall n m, file_token ex_F n -> names_macro false n m -> n = m).
    { intros n m T (I & [E|(_ & r & E)]); [exact E|]. exfalso. apply ex_tokens in T. destruct T as [-> | [-> | ->]]; discriminate E. }
    intros n n' m T T' M M'. rewrite (K n m T M). symmetry. now apply K. }
  split.
  { exists s, Y. split; [exact D1|]. split; [exact D2|]. split; [exact D3|]. vm_compute in D3. injection D3 as <-. split; [|split; [vm_compute; reflexivity|split; [vm_compute; reflexivity|split; [|vm_compute; reflexivity]]]].
    - intros t L. assert (t = 0 \/ t = 1 \/ t = 2 \/ t = 3) as H by (cbn in L; lia). destruct H as [->|[->|[->| ->]]]; vm_compute; reflexivity.
    - intros l r I. cbn in I. repeat (destruct I as [I|I]; [injection I as <- <-; vm_compute; reflexivity|]). destruct I. }
  split; [exact AP|]. split; [exact CFR|]. split; [|vm_compute; reflexivity].
  eexists. eexists. split; [reflexivity|]. split; [vm_compute; reflexivity|]. split; vm_compute; reflexivity.
Qed.
