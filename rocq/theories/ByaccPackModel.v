(** Model of byacc/reader.c:5177-5178: from the symbols and rules that were read to what lr0(), lalr(),
    make_parser() and output() work on.  pack_symbols is that of ByaccReaderModel over the chain of all buckets,
    pack_grammar the arrays of ByaccRulesModel with the index of every bucket. *)
From Coq Require Import String List Arith ZArith Bool Lia.
Import ListNotations.
From Verif Require Import Base LemonTableModel LemonPreModel LemonCodeModel ByaccLr0Model ByaccParModel ByaccReaderModel ByaccRulesModel ByaccScanModel.
Open Scope rd_scope.

Fixpoint rmap {A B} (f : A -> rd B) (l : list A) : rd (list B) :=
  match l with [] => ROk [] | x :: r => y <- f x ;; ys <- rmap f r ;; ROk (y :: ys) end.

(** What pack_symbols reads of a bucket; those of byacc/reader.c:2700-2713 insert_empty_rule have the class ACTION
    and what symtab.c:25-56 make_bucket gives them. *)
Definition bucket_sym (s : rdstate) (b : bucket) : rd bsym :=
  match b with
  | Name i => x <- info i s ;; ROk (mkSym (match b_class x with TERM => true | _ => false end) (b_value x) (b_prec x) (b_assoc x))
  | Gen _ => ROk (mkSym false UNDEFINED 0 TOKEN)
  end.

Definition bucket_eqb (a b : bucket) : bool :=
  match a, b with Name i, Name j => i =? j | Gen i, Gen j => i =? j | _, _ => false end.
Fixpoint bucket_pos (b : bucket) (l : list bucket) : rd nat :=
  match l with [] => RBad | x :: r => if bucket_eqb x b then ROk 0 else k <- bucket_pos b r ;; ROk (S k) end.

(** bp->index *)
Definition bucket_index (chain : list bucket) (pk : packed) (b : bucket) : rd nat :=
  k <- bucket_pos b chain ;; match nth_error (pk_index pk) k with Some i => ROk i | None => RBad end.

(** rprec and rassoc before pack_grammar: byacc/reader.c:3595-3599 for %prec, 2725-2728 for the rules of
    insert_empty_rule, else UNDEFINED *)
Definition explicit_prec (s : rdstate) (l : bucket) (p : option nat) : rd (option (nat * bassoc)) :=
  match p, l with
  | None, _ => ROk None
  | Some _, Gen _ => ROk (Some (0, TOKEN))
  | Some i, Name _ => x <- info i s ;; ROk (Some (b_prec x, b_assoc x))
  end.

(** [z]: lemon_prec_flag; the result: the grammar, its precedences, symbol_value *)
Definition pack_file (z : bool) (s : rdstate) : rd (bsrc * bprec * list Z) :=
  let chain := d_chain s in
  syms <- rmap (bucket_sym s) chain ;;
  g <- match d_goal s with Some g => ROk g | None => RBad end ;;
  gp <- bucket_pos (Name g) chain ;;
  pk <- lift (pack_symbols syms gp) ;;
  rs <- lift (pack_rules (d_rules s)) ;;
  rules <- rmap (fun x => l <- bucket_index chain pk (fst (fst x)) ;; r <- rmap (bucket_index chain pk) (snd (fst x)) ;; ROk (l, r)) rs ;;
  expl <- rmap (fun x => explicit_prec s (fst (fst x)) (snd x)) rs ;;
  let src := mkSrc (pk_ntokens pk) (pk_nsyms pk) rules in
  pr <- lift (pack_precs z src (pk_prec pk) (pk_assoc pk) expl) ;;
  ROk (src, pr, pk_value pk).
