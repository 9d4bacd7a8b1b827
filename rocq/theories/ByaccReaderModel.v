(** Model of the end of byacc/reader.c: pack_symbols (numbering of the symbols and
    token codes) and the precedences of the rules (mark_symbol, pack_grammar).

    Buckets are list elements in the order of the [next] chain (the order of
    creation).  Value_t is taken as unbounded. *)
From Coq Require Import List Arith ZArith Bool Lia.
Import ListNotations.
From Verif Require Import Base ByaccLr0Model ByaccLalrModel ByaccParModel.

Definition UNDEFINED : Z := (-1)%Z.

(** The fields class (is it TERM?), value, prec and assoc of a bucket. *)
Record bsym := mkSym { sy_term : bool; sy_value : Z; sy_prec : nat; sy_assoc : bassoc }.

(** byacc/reader.c:3842-3844: insertion into the sorted part of symbol_value; the list
    is kept from its last element down. *)
Fixpoint ins_down (n : Z) (l : list Z) : list Z :=
  match l with
  | x :: r => if (n <? x)%Z then x :: ins_down n r else n :: l
  | [] => [n]
  end.

(** byacc/reader.c:3836-3846: the explicit codes above 256, ascending. *)
Definition explicit_codes (vals : list Z) : list Z :=
  rev (fold_left (fun l n => if (256 <? n)%Z then ins_down n l else l) vals []).

(** byacc/reader.c:3859-3864: [l] are symbol_value[j .. k-1]; [inner] when control is
    in the inner loop, that is after symbol_value[j-1] was equal to [n]. *)
Fixpoint skip_used (inner : bool) (l : list Z) (n : Z) : list Z * Z :=
  match l with
  | [] => ([], if inner then (n + 1)%Z else n)
  | x :: r =>
      if (n =? x)%Z then skip_used true r n
      else if inner then
        if (n + 1 =? x)%Z then skip_used true r (n + 1)%Z else (l, (n + 1)%Z)
      else (l, n)
  end.

(** byacc/reader.c:3855-3868: the codes of the tokens from v[2] on. *)
Fixpoint assign_codes (vals : list Z) (l : list Z) (n : Z) : list Z :=
  match vals with
  | [] => []
  | x :: r =>
      if (x =? UNDEFINED)%Z then
        let '(l', n') := skip_used false l n in
        n' :: assign_codes r l' (n' + 1)%Z
      else x :: assign_codes r l n
  end.

(** byacc/reader.c:3835-3868: the codes of v[1], v[2], ... *)
Definition token_codes (vals : list Z) : list Z :=
  match vals with
  | [] => []
  | e :: r => (if (e =? UNDEFINED)%Z then 256%Z else e) :: assign_codes r (explicit_codes vals) 257%Z
  end.

(** byacc/reader.c:3813-3822: the index of each bucket; [i] and [k] are the next
    indices for a token and for a nonterminal, [pos] the position of the bucket. *)
Fixpoint sym_indices (syms : list bsym) (pos goal start i k : nat) : list nat :=
  match syms with
  | [] => []
  | x :: r =>
      if sy_term x then i :: sym_indices r (S pos) goal start (S i) k
      else if pos =? goal then S start :: sym_indices r (S pos) goal start i k
      else k :: sym_indices r (S pos) goal start i (S k)
  end.

(** byacc/reader.c:3824-3833 and 3902-3907: the pairs (index, value) of the
    nonterminals. *)
Fixpoint nt_values (syms : list bsym) (idx : list nat) (pos goal : nat) (k : Z) : list (nat * Z) :=
  match syms, idx with
  | x :: r, i :: idx' =>
      if sy_term x then nt_values r idx' (S pos) goal k
      else if pos =? goal then (i, 0%Z) :: nt_values r idx' (S pos) goal k
      else (i, k) :: nt_values r idx' (S pos) goal (k + 1)%Z
  | _, _ => []
  end.

Record packed := mkPacked { pk_ntokens : nat; pk_nsyms : nat; pk_index : list nat; pk_value : list Z; pk_prec : list nat; pk_assoc : list bassoc }.

(** byacc/reader.c:3750-3929 pack_symbols without the names; [goal] is the position of
    the goal symbol.  The writes of 3870-3907 into the arrays. *)
Definition pack_symbols (syms : list bsym) (goal : nat) : res packed :=
  let terms := filter sy_term syms in
  let ntokens := S (length terms) in
  let nsyms := 2 + length syms in
  let idx := sym_indices syms 0 goal ntokens 1 (ntokens + 2) in
  let codes := token_codes (map sy_value terms) in
  let zeros := repeat 0%Z nsyms in
  (* $end, the tokens, $accept *)
  let value0 := (0%Z :: codes ++ [(-1)%Z]) ++ repeat 0%Z (nsyms - ntokens - 1) in
  value <- fold_left (fun r p => a <- r ;; put a (fst p) (snd p)) (nt_values syms idx 0 goal 1%Z) (Ok value0) ;;
  prec <- fold_left (fun r p => a <- r ;; put a (fst p) (sy_prec (snd p))) (combine idx syms) (Ok (repeat 0 nsyms)) ;;
  ass <- fold_left (fun r p => a <- r ;; put a (fst p) (sy_assoc (snd p))) (combine idx syms) (Ok (repeat TOKEN nsyms)) ;;
  Ok (mkPacked ntokens nsyms idx value prec ass).

(** byacc/reader.c:3989-4007: the loop over the right-hand side of a rule; with
    lemon_prec_flag (-z) the first terminal with a precedence is kept. *)
Fixpoint prec_items (lemon_prec_flag : bool) (ntokens : nat) (prec : list nat) (ass : list bassoc) (rhs : list nat) (prec2 : nat) (a : bassoc) : res (nat * bassoc) :=
  match rhs with
  | [] => Ok (prec2, a)
  | x :: r =>
      if x <? ntokens then
        if (prec2 =? 0) || negb lemon_prec_flag then
          p <- opt (nth_error prec x) ;; a' <- opt (nth_error ass x) ;;
          prec_items lemon_prec_flag ntokens prec ass r p a'
        else prec_items lemon_prec_flag ntokens prec ass r prec2 a
      else prec_items lemon_prec_flag ntokens prec ass r prec2 a
  end.

(** byacc/reader.c:3988-4015: rprec and rassoc of one rule; [None] is UNDEFINED, else
    what mark_symbol stored for %prec (byacc/reader.c:3595-3599). *)
Definition rule_precedence (lemon_prec_flag : bool) (ntokens : nat) (prec : list nat) (ass : list bassoc) (rhs : list nat) (expl : option (nat * bassoc)) : res (nat * bassoc) :=
  p <- prec_items lemon_prec_flag ntokens prec ass rhs 0 TOKEN ;;
  Ok (match expl with Some e => e | None => p end).

(** The precedences handed to mkpar.c; rules 0, 1 and 2 have none
    (byacc/reader.c:2121-2131). *)
Definition pack_precs (lemon_prec_flag : bool) (s : bsrc) (prec : list nat) (ass : list bassoc) (expl : list (option (nat * bassoc))) : res bprec :=
  l <- map_res (fun '((_, rhs), e) => rule_precedence lemon_prec_flag (b_ntokens s) prec ass rhs e) (combine (b_rules s) expl) ;;
  Ok (mkPrec prec ass ([0; 0; 0] ++ map fst l) ([TOKEN; TOKEN; TOKEN] ++ map snd l)).
