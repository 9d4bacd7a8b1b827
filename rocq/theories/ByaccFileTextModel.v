(** From the text of a grammar file to the C text byacc prints for it: read_file and pack_file of the reader, the names of
    the symbols, and the printing of ByaccTableTextModel and ByaccNameTextModel (byacc/main.c:960-970). *)
From Coq Require Import String List Arith ZArith Bool.
Import ListNotations.
From Verif Require Import Base LemonTableModel LemonPreModel LemonCodeModel LemonReprintModel ByaccLr0Model ByaccParModel ByaccReaderModel ByaccRulesModel ByaccScanModel ByaccPackModel
  ByaccTableTextModel ByaccNameTextModel.
Local Open Scope rd_scope.

(** bp->name; that of byacc/reader.c:2700-2713 insert_empty_rule is "$$%d" with the new gensym. *)
Definition bucket_name (s : rdstate) (b : bucket) : rd txt :=
  match b with
  | Name i => x <- info i s ;; ROk (b_name x)
  | Gen k => ROk (zs "$$" ++ ndec k)
  end.

(** The bucket with the index [i]. *)
Fixpoint bucket_at (i : nat) (chain : list bucket) (ix : list nat) : rd bucket :=
  match chain, ix with
  | b :: chain', k :: ix' => if k =? i then ROk b else bucket_at i chain' ix'
  | _, _ => RBad
  end.

(** symbol_name (byacc/reader.c:3870, 3880, 3895, 3905; name_pool holds "$accept" and "$end", 3675-3684).  The array is
    given entry by entry and not by the assignments; no two buckets have one index (C44). *)
Definition pack_names (s : rdstate) : rd (list txt) :=
  let chain := d_chain s in
  syms <- rmap (bucket_sym s) chain ;;
  g <- match d_goal s with Some g => ROk g | None => RBad end ;;
  gp <- bucket_pos (Name g) chain ;;
  pk <- lift (pack_symbols syms gp) ;;
  rmap (fun i => if i =? 0 then ROk (zs "$end") else if i =? pk_ntokens pk then ROk (zs "$accept")
                 else b <- bucket_at i chain (pk_index pk) ;; bucket_name s b) (seq 0 (pk_nsyms pk)).

(** The tables ([None]: as in ByaccTableTextModel) and the names.  [z] is lemon_prec_flag, [sflag] -s, [tflag] -t, [tt] token_table,
    [flag] as in ByaccParModel; between and behind the two are the texts of the skeleton and of the file. *)
Definition byacc_print (p : txt) (z sflag tflag tt : bool) (f1 f2 f3 : nat) (flag : bool) (file : txt) : rd (option txt * txt) :=
  s <- read_file file ;;
  '(src, pr, sv) <- pack_file z s ;;
  nm <- pack_names s ;;
  t <- lift (byacc_generate_text p sflag tflag nm f1 f2 f3 flag src pr sv) ;;
  u <- lift (output_names p tt nm (pack_grammar src) sv) ;;
  ROk (t, u).
