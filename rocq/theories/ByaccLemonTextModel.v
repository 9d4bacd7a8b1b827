(** Model of byacc/reader.c:4361-4448 print_grammar_lemon (byacc -E), character by character, on what the reader has
    read.  A symbol is its bucket: symbol_name[1..ntokens-1] are the names of the buckets of the class TERM in the
    order of the chain, as pack_symbols puts them there (byacc/reader.c:3795-3815), and symbol_prec and
    symbol_assoc are those of the bucket.  symbol_name[0] is "$end", without a precedence: every loop over the
    tokens skips it.  The rules are those that pack_grammar puts into rlhs and ritem (byacc/reader.c:3970-4018).
    The names are those of ByaccLemonModel. *)
From Coq Require Import String List Arith ZArith Bool Lia.
Import ListNotations.
From Verif Require Import Base LemonTableModel LemonPreModel LemonCodeModel ByaccParModel ByaccReaderModel ByaccRulesModel ByaccScanModel ByaccPackModel.
From Verif Require ByaccLemonModel.
Open Scope rd_scope.

Definition token_text (n : txt) : rd txt := lift (ByaccLemonModel.get_lemon_token_name n).
Definition rule_text (n : txt) : rd txt := lift (ByaccLemonModel.get_lemon_rule_name n).
Notation dollar_first := ByaccLemonModel.dollar.
Definition decimal (n : nat) : txt := zdec (Z.of_nat n).
Definition eol : txt := [10%Z].

(** The tokens. *)
Definition bucket_infos (s : rdstate) (b : bucket) : rd (list binfo) :=
  match b with Name i => x <- info i s ;; ROk [x] | Gen _ => ROk [] end.
Definition is_term (x : binfo) : bool := match b_class x with TERM => true | _ => false end.
Definition tokens_of (s : rdstate) : rd (list binfo) :=
  l <- rmap (bucket_infos s) (d_chain s) ;; ROk (filter is_term (concat l)).

(** byacc/reader.c:4371-4377 *)
Definition token_line (x : binfo) : rd txt :=
  if (dollar_first (b_name x) || teqb (b_name x) (zs "error") || match b_name x with c :: _ => (c =? 34)%Z | [] => false end)%bool then ROk []
  else n <- token_text (b_name x) ;; ROk (zs "%token " ++ n ++ zs " ." ++ eol).

(** byacc/reader.c:4334-4358 get_prec_name *)
Definition get_prec_name (a : bassoc) : option txt :=
  match a with LEFT => Some (zs "left") | RIGHT => Some (zs "right") | NONASSOC => Some (zs "nonassoc") | PRECEDENCE => Some (zs "precedence") | TOKEN => None end.

(** byacc/reader.c:4381-4401: one value of k; [sassoc]: the line has begun *)
Fixpoint prec_line (k : nat) (sassoc : bool) (l : list binfo) : rd txt :=
  match l with
  | [] => ROk (if sassoc then zs " ." ++ eol else [])
  | x :: r =>
      if ((b_prec x =? k) && negb (dollar_first (b_name x)))%bool then
        if sassoc then n <- token_text (b_name x) ;; u <- prec_line k true r ;; ROk (zs " " ++ n ++ u)
        else match get_prec_name (b_assoc x) with
             | None => prec_line k false r
             | Some w => n <- token_text (b_name x) ;; u <- prec_line k true r ;; ROk (zs "%" ++ w ++ zs " /*" ++ decimal k ++ zs "*/" ++ zs " " ++ n ++ u)
             end
      else prec_line k sassoc r
  end.

(** byacc/reader.c:4312-4324 print_symbol_prec_assoc_commented *)
Definition prec_comment (p : nat) (a : bassoc) : txt :=
  zs " /*" ++ decimal p ++ zs (match a with LEFT => "L" | RIGHT => "R" | NONASSOC => "N" | PRECEDENCE => "P" | TOKEN => "U" end) ++ zs "*/".

(** byacc/reader.c:4421-4437: one symbol of a right side; the symbols of insert_empty_rule have names that begin
    with a dollar sign (byacc/reader.c:2710) *)
Definition item_text (s : rdstate) (b : bucket) : rd txt :=
  match b with
  | Gen _ => ROk []
  | Name i =>
      x <- info i s ;;
      if dollar_first (b_name x) then ROk []
      else if is_term x then n <- token_text (b_name x) ;; ROk (zs " " ++ n ++ if b_prec x =? 0 then [] else prec_comment (b_prec x) (b_assoc x))
      else n <- rule_text (b_name x) ;; ROk (zs " " ++ n)
  end.

(** byacc/reader.c:4405-4447: one rule, unless its left side begins with a dollar sign; rprec_bucket is the symbol
    of %prec (byacc/reader.c:3597) *)
Definition rule_line (s : rdstate) (x : bucket * list bucket * option nat) : rd txt :=
  let '(l, r, p) := x in
  match l with
  | Gen _ => ROk []
  | Name i =>
      y <- info i s ;;
      if dollar_first (b_name y) then ROk []
      else
        h <- rule_text (b_name y) ;;
        u <- (match r with [] => ROk (zs " /*empty*/") | _ => us <- rmap (item_text s) r ;; ROk (concat us) end) ;;
        v <- (match p with
              | Some j => q <- info j s ;; n <- token_text (b_name q) ;; ROk (zs " . [" ++ n ++ zs "]" ++ prec_comment (b_prec q) (b_assoc q) ++ eol)
              | None => ROk (zs " ." ++ eol)
              end) ;;
        ROk (h ++ zs " ::=" ++ u ++ v)
  end.

(** byacc/reader.c:4405-4447: the loop over the rules of the file; [prev] is rlhs[i-1] *)
Fixpoint rule_lines (s : rdstate) (prev : option bucket) (rs : list (bucket * list bucket * option nat)) : rd txt :=
  match rs with
  | [] => ROk []
  | x :: r =>
      let l := fst (fst x) in
      u <- rule_line s x ;; v <- rule_lines s (Some l) r ;;
      ROk ((if match prev with Some b => bucket_eqb b l | None => false end then [] else eol) ++ u ++ v)
  end.

(** byacc/reader.c:4361-4448 print_grammar_lemon; the rule 2 of $accept only prints an end of line. *)
Definition print_grammar_lemon (s : rdstate) : rd txt :=
  ts <- tokens_of s ;;
  a <- rmap token_line ts ;;
  b <- rmap (fun k => prec_line k false ts) (seq 0 (S (d_prec s))) ;;
  g <- match d_goal s with Some g => ROk g | None => RBad end ;;
  x <- info g s ;;
  n <- rule_text (b_name x) ;;
  rs <- lift (pack_rules (d_rules s)) ;;
  c <- rule_lines s None rs ;;
  ROk (concat a ++ eol ++ concat b ++ eol ++ zs "%start_symbol " ++ n ++ eol ++ eol ++ c).

(** byacc -E on a file: byacc/reader.c:5170-5185 reader() *)
Definition byacc_lemon (file : txt) : rd txt := s <- read_file file ;; print_grammar_lemon s.
