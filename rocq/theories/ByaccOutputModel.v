(** Model of byacc/output.c: the tables of the generated parser.

    Simplifications: integers are unbounded, so the tests against MAXTABLE and
    MAXYYINT (fatal errors) are left out; S->backtrack is 0 (set only by option -B),
    so the third family of vectors stays empty; a vector's froms and tos are one list
    of pairs; calloc and realloc never fail; writing an array to the output file is
    returning it.  Reading or writing outside an array is [Bad]. *)
From Coq Require Import List Arith NArith ZArith Lia Bool.
Import ListNotations.
From Verif Require Import Base ByaccWarshallModel ByaccLr0Model ByaccLalrModel ByaccParModel.
Open Scope res_scope.

(** A vector: byacc/defs.h froms[i] and tos[i], paired, and width[i]; tally[i] is the
    number of pairs. *)
Record vec : Type := mkVec { v_ent : list (Z * Z); v_width : Z }.
Definition tally (v : vec) : nat := length (v_ent v).
(** NEW2 clears the arrays (byacc/output.c:1128-1131). *)
Definition no_vec : vec := mkVec [] 0.

(** byacc/defs.h:125. *)
Definition RULE_NUM_OFFSET : Z := 2.

(** ** token_actions *)

(** byacc/output.c:446-485, the loop over the actions of a state: the two parts of
    actionrow and the two counters; [dr] is S->defred[i]. *)
Fixpoint act_rows (dr : nat) (l : list action) (sh rd : list Z) (ns nr : nat) : res (list Z * list Z * nat * nat) :=
  match l with
  | [] => Ok (sh, rd, ns, nr)
  | p :: r =>
      if a_supp p =? 0 then
        if a_shift p then
          sh' <- put sh (a_sym p) (Z.of_nat (a_num p)) ;; act_rows dr r sh' rd (S ns) nr
        else if negb (a_num p =? dr) then
          rd' <- put rd (a_sym p) (Z.of_nat (a_num p)) ;; act_rows dr r sh rd' ns (S nr)
        else act_rows dr r sh rd ns nr
      else act_rows dr r sh rd ns nr
  end.

(** byacc/output.c:545-558 and 565-578: from token [j] on; [cap] is the number of
    entries allocated, [off] is subtracted from each entry.  min is [None] for
    MAXYYINT. *)
Fixpoint row_vec (sv : list Z) (off : Z) (row : list Z) (j cap : nat) (mn : option Z) (mx : Z) : res (list (Z * Z) * option Z * Z) :=
  match row with
  | [] => Ok ([], mn, mx)
  | x :: r =>
      if (x =? 0)%Z then row_vec sv off r (S j) cap mn mx
      else
        v <- opt (nth_error sv j) ;;
        match cap with
        | O => Bad
        | S cap' =>
            '(l, mn', mx') <- row_vec sv off r (S j) cap'
                                (match mn with Some m => Some (Z.min m v) | None => Some v end) (Z.max mx v) ;;
            Ok ((v, (x - off)%Z) :: l, mn', mx')
        end
  end.
(** byacc/output.c:538-560 and 561-580; entries allocated but not written stay 0. *)
Definition mk_row (sv : list Z) (off : Z) (row : list Z) (count : nat) : res vec :=
  if count =? 0 then Ok no_vec
  else
    '(l, mn, mx) <- row_vec sv off row 0 count None 0 ;;
    m <- opt mn ;;
    Ok (mkVec (l ++ repeat (0, 0)%Z (count - length l)) (mx - m + 1)).

(** byacc/output.c:429-603: the two vectors of one state. *)
Definition token_row (b : bgram) (sv : list Z) (acts : list action) (dr : nat) : res (vec * vec) :=
  '(sh, rd, ns, nr) <- act_rows dr acts (repeat 0%Z (ntokens b)) (repeat 0%Z (ntokens b)) 0 0 ;;
  v1 <- mk_row sv 0 sh ns ;;
  v2 <- mk_row sv RULE_NUM_OFFSET rd nr ;;
  Ok (v1, v2).
Fixpoint token_rows (b : bgram) (sv : list Z) (parser : list (list action)) (defred : list nat) : res (list vec * list vec) :=
  match parser, defred with
  | [], _ => Ok ([], [])
  | acts :: r, d :: ds =>
      '(v1, v2) <- token_row b sv acts d ;;
      '(l1, l2) <- token_rows b sv r ds ;;
      Ok (v1 :: l1, v2 :: l2)
  | _ :: _, [] => Bad
  end.

(** ** goto_actions *)

(** byacc/output.c:624-625. *)
Fixpoint count_to (to : list nat) (count : list nat) : res (list nat) :=
  match to with
  | [] => Ok count
  | q :: r => c <- opt (nth_error count q) ;; count_to r (upd count q (S c))
  end.
(** byacc/output.c:627-636: states [i], [i]+1, ... *)
Fixpoint max_count (count : list nat) (i max default_state : nat) : nat :=
  match count with
  | [] => default_state
  | c :: r => if max <? c then max_count r (S i) c i else max_count r (S i) max default_state
  end.
(** The entries [m], ..., [n]-1 of an array. *)
Definition slice {A} (l : list A) (m n : nat) : res (list A) :=
  if (m <=? n) && negb (n <=? length l) then Bad else Ok (firstn (n - m) (skipn m l)).

(** byacc/output.c:606-639 default_goto. *)
Definition default_goto (b : bgram) (g : gotos) (nstates symbol : nat) : res nat :=
  m <- opt (nth_error (g_map g) (symbol - ntokens b)) ;;
  n <- opt (nth_error (g_map g) (S (symbol - ntokens b))) ;;
  if m =? n then Ok 0
  else
    to <- slice (g_to g) m n ;;
    count <- count_to to (repeat 0 nstates) ;;
    Ok (max_count count 0 0 0).

(** byacc/output.c:641-681 save_column: the vector of the column. *)
Definition save_column (b : bgram) (g : gotos) (symbol default_state : nat) : res vec :=
  m <- opt (nth_error (g_map g) (symbol - ntokens b)) ;;
  n <- opt (nth_error (g_map g) (S (symbol - ntokens b))) ;;
  to <- slice (g_to g) m n ;;
  from <- slice (g_from g) m n ;;
  let l := filter (fun e => negb (snd e =? default_state)) (combine from to) in
  match l with
  | [] => Ok no_vec
  | e :: _ =>
      Ok (mkVec (map (fun e => (Z.of_nat (fst e), Z.of_nat (snd e))) l)
            (Z.of_nat (fst (last l e)) - Z.of_nat (fst e) + 1))
  end.

(** byacc/output.c:683-712 goto_actions: dgoto and the columns, placed at
    symbol_value[symbol] in [cols]. *)
Fixpoint goto_loop (b : bgram) (sv : list Z) (g : gotos) (nstates : nat) (syms : list nat) (cols : list vec) : res (list nat * list vec) :=
  match syms with
  | [] => Ok ([], cols)
  | symbol :: r =>
      k <- default_goto b g nstates symbol ;;
      v <- save_column b g symbol k ;;
      x <- opt (nth_error sv symbol) ;;
      cols' <- (if (0 <=? x)%Z then put cols (Z.to_nat x) v else Bad) ;;
      '(dg, cols'') <- goto_loop b sv g nstates r cols' ;;
      Ok (k :: dg, cols'')
  end.
Definition goto_actions (b : bgram) (sv : list Z) (g : gotos) (nstates : nat) : res (list nat * list vec) :=
  goto_loop b sv g nstates (seq (S (start_symbol b)) (nsyms b - S (start_symbol b))) (repeat no_vec (nvars b)).

(** ** sort_actions *)

(** byacc/output.c:729-745: insert vector [i]; [ro] is order, last entry first. *)
Definition order_insert (vs : list vec) (ro : list nat) (i : nat) (v : vec) : list nat :=
  let w k := v_width (nth k vs no_vec) in
  let t k := tally (nth k vs no_vec) in
  let (l1, n1) := span (fun k => (w k <? v_width v)%Z) ro in
  let (l2, n2) := span (fun k => (w k =? v_width v)%Z && (t k <? tally v)) n1 in
  l1 ++ l2 ++ i :: n2.
(** byacc/output.c:725-749: vectors [i], [i]+1, ... *)
Fixpoint sort_loop (vs l : list vec) (i : nat) (ro : list nat) : list nat :=
  match l with
  | [] => ro
  | v :: r => sort_loop vs r (S i) (if 0 <? tally v then order_insert vs ro i v else ro)
  end.
(** byacc/output.c:714-750 sort_actions. *)
Definition sort_actions (vs : list vec) : list nat := rev (sort_loop vs vs 0 []).

(** ** pack_table *)

Record pack : Type := mkPack {
  k_table : list Z;
  k_check : list Z;
  k_lowzero : nat;
  k_high : nat;
  k_pos : list Z;      (** pos[0..], the entries written so far *)
  k_base : list Z
}.

(** byacc/output.c:796-804: the comparison loop. *)
Fixpoint same_ent (a b : list (Z * Z)) : bool :=
  match a, b with
  | x :: a', y :: b' => (snd x =? snd y)%Z && (fst x =? fst y)%Z && same_ent a' b'
  | _, _ => true
  end.
(** byacc/output.c:785-808: [prevs] are order[vector-1], ..., order[0]. *)
Fixpoint match_loop (vs : list vec) (v : vec) (prevs : list nat) : res (option nat) :=
  match prevs with
  | [] => Ok None
  | j :: r =>
      u <- opt (nth_error vs j) ;;
      if negb (v_width u =? v_width v)%Z || negb (tally u =? tally v) then Ok None
      else if same_ent (v_ent u) (v_ent v) then Ok (Some j)
      else match_loop vs v r
  end.
(** byacc/output.c:770-811 matching_vector; [None] is -1. *)
Definition matching_vector (vs : list vec) (nstates i : nat) (v : vec) (prevs : list nat) : res (option nat) :=
  if 2 * nstates <=? i then Ok None else match_loop vs v prevs.

(** byacc/output.c:850-857: do newmax += 200 while newmax <= loc, from [maxtable]
    (called with loc >= maxtable - 1). *)
Definition newmax (maxtable loc : nat) : nat := maxtable + 200 * S ((loc - maxtable) / 200).

(** byacc/output.c:841-877: the test of the cells of a vector at [j]. *)
Fixpoint try_cells (j : Z) (l : list (Z * Z)) (table check : list Z) : res (bool * list Z * list Z) :=
  match l with
  | [] => Ok (true, table, check)
  | e :: r =>
      let loc := (j + fst e)%Z in
      if (loc <? 0)%Z then Bad
      else
        let n := length table in
        let '(table', check') :=
          if (Z.of_nat n - 1 <=? loc)%Z
          then (table ++ repeat 0%Z (newmax n (Z.to_nat loc) - n), check ++ repeat (-1)%Z (newmax n (Z.to_nat loc) - n))
          else (table, check) in
        c <- opt (nth_error check' (Z.to_nat loc)) ;;
        if (c =? -1)%Z then try_cells j r table' check' else Ok (false, table', check')
  end.

(** byacc/output.c:836-900: the search for a place, [for (;; ++j)]. *)
Fixpoint find_place (fuel : nat) (j : Z) (l : list (Z * Z)) (pos table check : list Z) : res (Z * list Z * list Z) :=
  match fuel with
  | O => Fuel
  | S f =>
      if (j =? 0)%Z then find_place f (j + 1) l pos table check
      else
        '(ok, table', check') <- try_cells j l table check ;;
        if ok && negb (existsb (Z.eqb j) pos) then Ok (j, table', check')
        else find_place f (j + 1) l pos table' check'
  end.

(** byacc/output.c:885-892: store the vector. *)
Fixpoint store (j : Z) (l : list (Z * Z)) (table check : list Z) (high : nat) : res (list Z * list Z * nat) :=
  match l with
  | [] => Ok (table, check, high)
  | e :: r =>
      let loc := (j + fst e)%Z in
      if (loc <? 0)%Z then Bad
      else
        table' <- put table (Z.to_nat loc) (snd e) ;;
        check' <- put check (Z.to_nat loc) (fst e) ;;
        store j r table' check' (Nat.max high (Z.to_nat loc))
  end.

(** byacc/output.c:894-895: [while (check[lowzero] != -1) ++lowzero]; [l] is check from
    lowzero on. *)
Fixpoint low_loop (l : list Z) (low : nat) : res nat :=
  match l with
  | [] => Bad
  | c :: r => if (c =? -1)%Z then Ok low else low_loop r (S low)
  end.

(** byacc/output.c:831-835: the largest lowzero - from[k]. *)
Definition first_place (low : nat) (l : list (Z * Z)) : res Z :=
  match l with
  | [] => Bad   (* assert(t) *)
  | e :: r => Ok (fold_left (fun j x => Z.max j (Z.of_nat low - fst x)) r (Z.of_nat low - fst e)%Z)
  end.

(** byacc/output.c:813-900 pack_vector. *)
Definition pack_vector (fuel : nat) (v : vec) (k : pack) : res (Z * pack) :=
  j0 <- first_place (k_lowzero k) (v_ent v) ;;
  '(j, table, check) <- find_place fuel j0 (v_ent v) (k_pos k) (k_table k) (k_check k) ;;
  '(table', check', high) <- store j (v_ent v) table check (k_high k) ;;
  low <- low_loop (skipn (k_lowzero k) check') (k_lowzero k) ;;
  Ok (j, mkPack table' check' low high (k_pos k) (k_base k)).

(** byacc/output.c:918-929: the vectors still to be placed; [prevs] are those placed,
    last first. *)
Fixpoint pack_loop (fuel : nat) (vs : list vec) (nstates : nat) (order prevs : list nat) (k : pack) : res pack :=
  match order with
  | [] => Ok k
  | i :: r =>
      v <- opt (nth_error vs i) ;;
      st <- matching_vector vs nstates i v prevs ;;
      '(place, k') <- match st with
                      | Some j => p <- opt (nth_error (k_base k) j) ;; Ok (p, k)
                      | None => pack_vector fuel v k
                      end ;;
      base' <- put (k_base k') i place ;;
      pack_loop fuel vs nstates r (i :: prevs)
        (mkPack (k_table k') (k_check k') (k_lowzero k') (k_high k') (k_pos k' ++ [place]) base')
  end.
(** byacc/output.c:895-929 pack_table. *)
Definition pack_table (fuel : nat) (vs : list vec) (nstates : nat) : res pack :=
  pack_loop fuel vs nstates (sort_actions vs) []
    (mkPack (repeat 0%Z 1000) (repeat (-1)%Z 1000) 0 0 [] (repeat 0%Z (length vs))).

(** ** The tables of the generated parser *)
Record ytabs : Type := mkYtabs {
  y_lhs : list Z;
  y_len : list nat;
  y_defred : list nat;
  y_dgoto : list nat;
  y_sindex : list Z;
  y_rindex : list Z;
  y_gindex : list Z;
  y_high : nat;         (** YYTABLESIZE *)
  y_table : list Z;
  y_check : list Z;
  y_final : nat;        (** YYFINAL *)
  y_errcode : Z         (** YYERRCODE *)
}.

(** byacc/output.c:284-325 output_rule_data: yylhs and yylen. *)
Definition rule_lhs (b : bgram) (sv : list Z) : res (list Z) :=
  x <- opt (nth_error sv (start_symbol b)) ;;
  l <- map_res (fun i => a <- opt (nth_error (rlhs b) i) ;; opt (nth_error sv a)) (seq 3 (nrules b - 3)) ;;
  Ok (x :: l).
Definition rule_len (b : bgram) : res (list nat) :=
  l <- map_res (fun i => m <- opt (nth_error (rrhs b) i) ;; n <- opt (nth_error (rrhs b) (S i)) ;; Ok (n - m - 1)) (seq 3 (nrules b - 3)) ;;
  Ok (2 :: l).

(** byacc/output.c:327-349 output_yydefred. *)
Definition yydefred (defred : list nat) : list nat :=
  map (fun d => if d =? 0 then 0 else d - 2) defred.

(** byacc/output.c:1122-1153 output_actions, with output_base 942-1023, output_table
    1025-1058 and output_check 1060-1085; YYFINAL is byacc/output.c:1326, YYERRCODE
    1249. *)
Definition output_tables (fuel : nat) (b : bgram) (sv : list Z) (T : lalr_tables) (P : par) : res ytabs :=
  let n := length (t_access T) in
  lhs <- rule_lhs b sv ;;
  len <- rule_len b ;;
  '(shs, rds) <- token_rows b sv (p_parser P) (p_defred P) ;;
  '(dg, cols) <- goto_actions b sv (t_gotos T) n ;;
  k <- pack_table fuel (shs ++ rds ++ repeat no_vec n ++ cols) n ;;
  s1 <- slice (k_base k) 0 n ;;
  s2 <- slice (k_base k) n (2 * n) ;;
  s3 <- slice (k_base k) (3 * n) (3 * n + nvars b - 1) ;;
  tb <- slice (k_table k) 0 (S (k_high k)) ;;
  ck <- slice (k_check k) 0 (S (k_high k)) ;;
  ec <- opt (nth_error sv 1) ;;
  Ok (mkYtabs lhs len (yydefred (p_defred P)) dg s1 s2 s3 (k_high k) tb ck (p_final P) ec).

(** byacc/yaccpar.skel:209-210, 225-226, 245-246, 333-334: the test
    [(yyn = index) != 0 && (yyn += x) >= 0 && yyn <= YYTABLESIZE && yycheck[yyn] == x]
    and the entry yytable[yyn]. *)
Definition ylookup (high : nat) (table check : list Z) (index x : Z) : res (option Z) :=
  if (index =? 0)%Z then Ok None
  else
    let yyn := (index + x)%Z in
    if (yyn <? 0)%Z || (Z.of_nat high <? yyn)%Z then Ok None
    else
      c <- opt (nth_error check (Z.to_nat yyn)) ;;
      if (c =? x)%Z then t <- opt (nth_error table (Z.to_nat yyn)) ;; Ok (Some t) else Ok None.
