(** Model of the rule section of byacc/reader.c: read_grammar, start_rule, end_rule,
    add_symbol, copy_action, insert_empty_rule, mark_symbol and the walk over pitem in
    pack_grammar.

    The scanner is replaced by the sequence of constructs it finds.  A bucket is
    either the one lookup() keeps for a name or one made by insert_empty_rule with a
    number of its own.  The arrays pitem, plhs, rprec are lists whose head is the
    last element.  Not modelled: the checks and warnings on tags and start symbols,
    inherited arguments (YYBTYACC with '(') and the text of the actions. *)
From Coq Require Import List Arith Bool Lia.
Import ListNotations.
From Verif Require Import Base.
Open Scope res_scope.

Inductive bucket : Type := Name (n : nat) | Gen (k : nat).

(** What read_grammar finds next: a symbol not followed by ':', an action, '|', %prec
    with the precedence of its symbol, a symbol followed by ':'. *)
Inductive event : Type := ESymbol (n : nat) | EAction (a : nat) | EBar | EPrec (p : nat) | EColon (n : nat).

(** pitem[0..nitems-1], plhs[0..nrules], rprec[0..nrules] ([None] is UNDEFINED),
    last_was_action, gensym, and the cases written to action_file. *)
Record rstate : Type := mkR {
  r_items : list (option bucket);
  r_lhs : list (option bucket);
  r_prec : list (option nat);
  r_act : bool;
  r_gensym : nat;
  r_cases : list (nat * nat)
}.

(** byacc/reader.c:2097-2140 initialize_grammar. *)
Definition init_rules : rstate :=
  mkR [None; None; None; None] [None; None; None] [Some 0; Some 0; Some 0] false 0 [].

(** byacc/reader.c:2659-2672 start_rule. *)
Definition start_rule (bp : option bucket) (st : rstate) : rstate :=
  mkR (r_items st) (bp :: r_lhs st) (None :: r_prec st) (r_act st) (r_gensym st) (r_cases st).

(** byacc/reader.c:2674-2698 end_rule; nrules is then the length of [r_lhs]. *)
Definition end_rule (st : rstate) : rstate :=
  mkR (None :: r_items st) (r_lhs st) (r_prec st) false (r_gensym st) (r_cases st).

(** byacc/reader.c:2717-2719: the loop that makes room before the items of the
    current rule; running off the front of pitem is Bad. *)
Fixpoint shift_items (l : list (option bucket)) : res (list (option bucket)) :=
  match l with
  | [] => Bad
  | None :: r => Ok (None :: None :: r)
  | Some x :: r => r' <- shift_items r ;; Ok (Some x :: r')
  end.

(** byacc/reader.c:2700-2731 insert_empty_rule. *)
Definition insert_empty_rule (st : rstate) : res rstate :=
  let bp := Gen (S (r_gensym st)) in
  items <- shift_items (r_items st) ;;
  match r_lhs st, r_prec st with
  | l :: ls, p :: ps =>
      Ok (mkR (Some bp :: items) (l :: Some bp :: ls) (p :: Some 0 :: ps) (r_act st) (S (r_gensym st)) (r_cases st))
  | _, _ => Bad
  end.

(** byacc/reader.c:2828-2830 and 2900-2902. *)
Definition flush_action (st : rstate) : res rstate :=
  if r_act st then insert_empty_rule st else Ok st.

Definition set_act (b : bool) (st : rstate) : rstate :=
  mkR (r_items st) (r_lhs st) (r_prec st) b (r_gensym st) (r_cases st).

(** byacc/reader.c:3602-3650, one round of the loop of read_grammar: add_symbol
    (2771-2878), copy_action (2880-2906), '|' and mark_symbol (3591-3599). *)
Definition read_event (e : event) (st : rstate) : res rstate :=
  match e with
  | ESymbol n =>
      st1 <- flush_action st ;;
      let st2 := set_act false st1 in
      Ok (mkR (Some (Name n) :: r_items st2) (r_lhs st2) (r_prec st2) (r_act st2) (r_gensym st2) (r_cases st2))
  | EAction a =>
      st1 <- flush_action st ;;
      let st2 := set_act true st1 in
      (* begin_case(f, nrules - RULE_NUM_OFFSET) *)
      Ok (mkR (r_items st2) (r_lhs st2) (r_prec st2) (r_act st2) (r_gensym st2) (r_cases st2 ++ [(length (r_lhs st2) - 1 - 2, a)]))
  | EBar =>
      let st1 := end_rule st in
      match r_lhs st1 with
      | l :: _ => Ok (start_rule l st1)
      | [] => Bad
      end
  | EColon n => Ok (start_rule (Some (Name n)) (end_rule st))
  | EPrec p =>
      match r_prec st with
      | _ :: ps => Ok (mkR (r_items st) (r_lhs st) (Some p :: ps) (r_act st) (r_gensym st) (r_cases st))
      | [] => Bad
      end
  end.

Fixpoint read_events (l : list event) (st : rstate) : res rstate :=
  match l with
  | [] => Ok st
  | e :: r => st' <- read_event e st ;; read_events r st'
  end.

(** byacc/reader.c:3602-3655 read_grammar; [n0] is the symbol advance_to_start finds. *)
Definition read_grammar (n0 : nat) (l : list event) : res rstate :=
  st <- read_events l (start_rule (Some (Name n0)) init_rules) ;; Ok (end_rule st).

(** byacc/reader.c:3991-4003: the items of one rule, up to the null entry. *)
Fixpoint take_rule (l : list (option bucket)) : res (list bucket * list (option bucket)) :=
  match l with
  | [] => Bad
  | None :: r => Ok ([], r)
  | Some x :: r => p <- take_rule r ;; Ok (x :: fst p, snd p)
  end.

(** byacc/reader.c:3968-4016: the rules from number 3 on, with the marks of %prec. *)
Fixpoint take_rules (lhs : list (option bucket)) (prec : list (option nat)) (items : list (option bucket))
  : res (list (bucket * list bucket * option nat)) :=
  match lhs, prec with
  | [], [] => Ok []
  | Some l :: lhs', p :: prec' =>
      q <- take_rule items ;; rs <- take_rules lhs' prec' (snd q) ;; Ok ((l, fst q, p) :: rs)
  | _, _ => Bad
  end.

Definition pack_rules (st : rstate) : res (list (bucket * list bucket * option nat)) :=
  take_rules (skipn 3 (rev (r_lhs st))) (skipn 3 (rev (r_prec st))) (skipn 4 (rev (r_items st))).
