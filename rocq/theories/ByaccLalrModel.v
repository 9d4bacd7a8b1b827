(** Model of byacc/lalr.c: lookahead sets by the method of DeRemer and Pennello.

    Simplifications: integers are unbounded (the check against MAXYYINT in
    set_goto_map is left out); a list terminated by -1 is a list, a null pointer to
    one is [None]; the arrays goto_map and temp_map are indexed from the first
    nonterminal ([symbol - ntokens]); calloc never fails.  Reading or writing outside
    an array, using a null pointer and a failing assert are [Bad]. *)
From Coq Require Import List Arith NArith ZArith Lia Bool.
Import ListNotations.
From Verif Require Import Base ByaccWarshallModel ByaccLr0Model.
Open Scope res_scope.

(** Array store. *)
Definition put {A} (l : list A) (i : nat) (x : A) : res (list A) :=
  if i <? length l then Ok (upd l i x) else Bad.

(** byacc/lalr.c:68-86 set_shift_table and set_reduction_table. *)
Fixpoint set_table (l : list (nat * list nat)) (t : list (option (list nat))) : res (list (option (list nat))) :=
  match l with
  | [] => Ok t
  | (q, e) :: r => t' <- put t q (Some e) ;; set_table r t'
  end.

(** byacc/lalr.c:58-66 set_accessing_symbol. *)
Definition accessing (s : lr0st) : list nat := map c_sym (l_cores s).

(** byacc/lalr.c:88-114 set_maxrhs. *)
Fixpoint maxrhs_loop (it : list Z) (len max : nat) : nat :=
  match it with
  | [] => max
  | x :: r => if (0 <=? x)%Z then maxrhs_loop r (S len) max else maxrhs_loop r 0 (Nat.max max len)
  end.
Definition set_maxrhs (b : bgram) : nat := maxrhs_loop (ritem b) 0 0.

(** byacc/lalr.c:123-131: the array lookaheads (with its last entry). *)
Fixpoint la_starts (reds : list (option (list nat))) (k : nat) : list nat :=
  match reds with
  | [] => [k]
  | rp :: r => k :: la_starts r (k + match rp with Some l => length l | None => 0 end)
  end.
(** byacc/lalr.c:137-149: LAruleno. *)
Definition la_rules (reds : list (option (list nat))) : list nat :=
  flat_map (fun rp => match rp with Some l => l | None => [] end) reds.

(** ** set_goto_map *)

(** byacc/lalr.c:172-184: the shifts of one state, last first. *)
Fixpoint count_gotos (b : bgram) (ac : list nat) (l gm : list nat) (n : nat) : res (list nat * nat) :=
  match l with
  | [] => Ok (gm, n)
  | q :: r =>
      symbol <- opt (nth_error ac q) ;;
      if symbol <? start_symbol b then Ok (gm, n)
      else
        x <- opt (nth_error gm (symbol - ntokens b)) ;;
        count_gotos b ac r (upd gm (symbol - ntokens b) (S x)) (S n)
  end.
(** byacc/lalr.c:170-185. *)
Fixpoint count_all (b : bgram) (ac : list nat) (sh : list (nat * list nat)) (gm : list nat) (n : nat) : res (list nat * nat) :=
  match sh with
  | [] => Ok (gm, n)
  | (_, l) :: r => '(gm', n') <- count_gotos b ac (rev l) gm n ;; count_all b ac r gm' n'
  end.
(** byacc/lalr.c:187-196: the new contents of goto_map and temp_map; [gm] are the
    nvars counters. *)
Fixpoint prefix_sums (gm : list nat) (k : nat) : list nat :=
  match gm with
  | [] => []
  | x :: r => k :: prefix_sums r (k + x)
  end.

(** byacc/lalr.c:208-220. *)
Fixpoint fill_gotos (b : bgram) (ac : list nat) (state1 : nat) (l tm from to : list nat) : res (list nat * list nat * list nat) :=
  match l with
  | [] => Ok (tm, from, to)
  | state2 :: r =>
      symbol <- opt (nth_error ac state2) ;;
      if symbol <? start_symbol b then Ok (tm, from, to)
      else
        k <- opt (nth_error tm (symbol - ntokens b)) ;;
        from' <- put from k state1 ;;
        to' <- put to k state2 ;;
        fill_gotos b ac state1 r (upd tm (symbol - ntokens b) (S k)) from' to'
  end.
(** byacc/lalr.c:204-221. *)
Fixpoint fill_all (b : bgram) (ac : list nat) (sh : list (nat * list nat)) (tm from to : list nat) : res (list nat * list nat * list nat) :=
  match sh with
  | [] => Ok (tm, from, to)
  | (q, l) :: r => '(tm', from', to') <- fill_gotos b ac q (rev l) tm from to ;; fill_all b ac r tm' from' to'
  end.

Record gotos : Type := mkGotos { g_map : list nat; g_from : list nat; g_to : list nat }.
Definition ngotos (g : gotos) : nat := length (g_from g).

(** byacc/lalr.c:153-224 set_goto_map. *)
Definition set_goto_map (b : bgram) (s : lr0st) : res gotos :=
  '(gm, n) <- count_all b (accessing s) (l_shifts s) (repeat 0 (S (nvars b))) 0 ;;
  let tm := prefix_sums (firstn (nvars b) gm) 0 ++ [n] in
  '(_, from, to) <- fill_all b (accessing s) (l_shifts s) tm (repeat 0 n) (repeat 0 n) ;;
  Ok (mkGotos tm from to).

(** byacc/lalr.c:227-247 map_goto. *)
Fixpoint map_loop (fuel : nat) (from : list nat) (state low high : nat) : res nat :=
  match fuel with
  | O => Fuel
  | S f =>
      if low <=? high then
        let middle := (low + high) / 2 in
        s <- opt (nth_error from middle) ;;
        if s =? state then Ok middle
        else if s <? state then map_loop f from state (S middle) high
        else if middle =? 0 then Bad else map_loop f from state low (middle - 1)
      else Bad
  end.
Definition map_goto (b : bgram) (g : gotos) (state symbol : nat) : res nat :=
  low <- opt (nth_error (g_map g) (symbol - ntokens b)) ;;
  high <- opt (nth_error (g_map g) (S (symbol - ntokens b))) ;;
  map_loop (S (S (ngotos g))) (g_from g) state low high.

(** ** digraph *)
Record dg : Type := mkDg { d_index : list nat; d_vert : list nat; d_top : nat; d_F : list N }.

(** byacc/lalr.c:600-605: [while (fp1 < fp3) *fp2++ = *fp1++]. *)
Fixpoint copy_words (a : list N) (fp2 fp1 k : nat) : res (list N) :=
  match k with
  | O => Ok a
  | S k' =>
      x <- opt (nth_error a fp1) ;;
      a' <- put a fp2 x ;;
      copy_words a' (S fp2) (S fp1) k'
  end.

(** byacc/lalr.c:590-607: pop down to [i]; [top] is d_top. *)
Fixpoint pop_loop (ts inf i top : nat) (ix vert : list nat) (F : list N) : res (list nat * nat * list N) :=
  match top with
  | O => Bad
  | S top' =>
      j <- opt (nth_error vert top) ;;
      ix' <- put ix j inf ;;
      if i =? j then Ok (ix', top', F)
      else
        F' <- copy_words F (j * ts) (i * ts) ts ;;
        pop_loop ts inf i top' ix' vert F'
  end.

(** byacc/lalr.c:576-588: the loop over the related indices of [i]; [trav] is the
    recursive call. *)
Fixpoint edge_loop (trav : nat -> dg -> res dg) (ts i : nat) (l : list nat) (g : dg) : res dg :=
  match l with
  | [] => Ok g
  | j :: r =>
      xj <- opt (nth_error (d_index g) j) ;;
      g1 <- (if xj =? 0 then trav j g else Ok g) ;;
      xi <- opt (nth_error (d_index g1) i) ;;
      xj1 <- opt (nth_error (d_index g1) j) ;;
      F' <- or_words (d_F g1) (i * ts) (j * ts) ts ;;
      edge_loop trav ts i r (mkDg (if xj1 <? xi then upd (d_index g1) i xj1 else d_index g1) (d_vert g1) (d_top g1) F')
  end.

(** byacc/lalr.c:561-609 traverse; [ts] is fs3_tokensetsize. *)
Fixpoint traverse (fuel ts inf : nat) (R : list (option (list nat))) (i : nat) (g : dg) : res dg :=
  match fuel with
  | O => Fuel
  | S f =>
      let top := S (d_top g) in
      vert <- put (d_vert g) top i ;;
      ix <- put (d_index g) i top ;;
      rp <- opt (nth_error R i) ;;
      g2 <- edge_loop (traverse f ts inf R) ts i (match rp with Some l => l | None => [] end) (mkDg ix vert top (d_F g)) ;;
      xi <- opt (nth_error (d_index g2) i) ;;
      if xi =? top then
        '(ix', top', F') <- pop_loop ts inf i (d_top g2) (d_index g2) (d_vert g2) (d_F g2) ;;
        Ok (mkDg ix' (d_vert g2) top' F')
      else Ok g2
  end.

(** byacc/lalr.c:550-554: [k] indices from [i]. *)
Fixpoint digraph_loop (fuel ts inf : nat) (R : list (option (list nat))) (i k : nat) (g : dg) : res dg :=
  match k with
  | O => Ok g
  | S k' =>
      x <- opt (nth_error (d_index g) i) ;;
      rp <- opt (nth_error R i) ;;
      g' <- (if x =? 0 then match rp with Some _ => traverse fuel ts inf R i g | None => Ok g end else Ok g) ;;
      digraph_loop fuel ts inf R (S i) k' g'
  end.

(** byacc/lalr.c:536-558 digraph; [n] is fs3_ngotos. *)
Definition digraph (fuel ts n : nat) (R : list (option (list nat))) (F : list N) : res (list N) :=
  g <- digraph_loop fuel ts (n + 2) R 0 n (mkDg (repeat 0 (S n)) (repeat 0 (S n)) 0 F) ;;
  Ok (d_F g).

(** ** initialize_F *)

(** byacc/lalr.c:283-289: the tokens of [l]; what remains starts with a
    nonterminal. *)
Fixpoint f_tokens (b : bgram) (ac l : list nat) (F : list N) (rowp : nat) : res (list N * list nat) :=
  match l with
  | [] => Ok (F, [])
  | q :: r =>
      symbol <- opt (nth_error ac q) ;;
      if start_symbol b <=? symbol then Ok (F, l)
      else F' <- SETBIT BPW F rowp symbol ;; f_tokens b ac r F' rowp
  end.
(** Storing at edge[nedges++]; edge has ngotos + 1 entries (byacc/lalr.c:269, 345). *)
Definition push_edge (g : gotos) (edge : list nat) (x : nat) : res (list nat) :=
  if length edge <? S (ngotos g) then Ok (edge ++ [x]) else Bad.
(** byacc/lalr.c:291-296. *)
Fixpoint f_reads (b : bgram) (g : gotos) (ac : list nat) (nl : list bool) (stateno : nat) (l edge : list nat) : res (list nat) :=
  match l with
  | [] => Ok edge
  | q :: r =>
      symbol <- opt (nth_error ac q) ;;
      n <- opt (nth_error nl symbol) ;;
      if n then e <- map_goto b g stateno symbol ;; edge' <- push_edge g edge e ;; f_reads b g ac nl stateno r edge'
      else f_reads b g ac nl stateno r edge
  end.
Definition some_edges (l : list nat) : option (list nat) := match l with [] => None | _ => Some l end.

(** byacc/lalr.c:273-311: the remaining entries of to_state. *)
Fixpoint f_loop (b : bgram) (g : gotos) (ac : list nat) (nl : list bool) (sht : list (option (list nat))) (ts : nat)
  (to : list nat) (F : list N) (rowp : nat) (reads : list (option (list nat))) : res (list N * list (option (list nat))) :=
  match to with
  | [] => Ok (F, reads)
  | stateno :: r =>
      sp <- opt (nth_error sht stateno) ;;
      '(F', e) <- match sp with
                  | None => Ok (F, [])
                  | Some l =>
                      '(F', l') <- f_tokens b ac l F rowp ;;
                      e <- f_reads b g ac nl stateno l' [] ;;
                      Ok (F', e)
                  end ;;
      f_loop b g ac nl sht ts r F' (rowp + ts) (reads ++ [some_edges e])
  end.

(** byacc/lalr.c:250-323 initialize_F. *)
Definition initialize_F (fuel : nat) (b : bgram) (g : gotos) (ac : list nat) (nl : list bool) (sht : list (option (list nat))) : res (list N) :=
  let ts := WORDSIZE BPW (ntokens b) in
  '(F, reads) <- f_loop b g ac nl sht ts (g_to g) (repeat 0%N (ngotos g * ts)) 0 [] ;;
  F0 <- SETBIT BPW F 0 0 ;;
  digraph fuel ts (ngotos g) reads F0.

(** ** build_relations *)

(** byacc/lalr.c:369-374: the target over [symbol2], or the last one. *)
Fixpoint find_shift (ac l : list nat) (symbol2 stateno : nat) : res nat :=
  match l with
  | [] => Ok stateno
  | q :: r =>
      a <- opt (nth_error ac q) ;;
      if a =? symbol2 then Ok q else find_shift ac r symbol2 q
  end.

(** byacc/lalr.c:362-377: run over the right-hand side that starts at [rp]; [cap] is
    the size of the array states; results: final rp, stateno, states. *)
Fixpoint walk_rhs (fuel : nat) (b : bgram) (ac : list nat) (sht : list (option (list nat))) (cap rp stateno : nat) (states : list nat)
  : res (nat * nat * list nat) :=
  match fuel with
  | O => Fuel
  | S f =>
      x <- opt (nth_error (ritem b) rp) ;;
      if (0 <=? x)%Z then
        sp <- opt (nth_error sht stateno) ;;
        l <- opt sp ;;
        q <- find_shift ac l (Z.to_nat x) stateno ;;
        if length states <? cap then walk_rhs f b ac sht cap (S rp) q (states ++ [q]) else Bad
      else Ok (rp, stateno, states)
  end.

(** byacc/lalr.c:417-439 add_lookback_edge; the loop at 427-433 first. *)
Fixpoint find_la (rules : list nat) (ruleno i k : nat) (n : nat) : res nat :=
  match n with
  | O => Bad
  | S n' =>
      if i <? k then
        r <- opt (nth_error rules i) ;;
        if r =? ruleno then Ok i else find_la rules ruleno (S i) k n'
      else Bad
  end.
Definition add_lookback_edge (starts rules : list nat) (stateno ruleno gotono : nat) (lb : list (list nat)) : res (list (list nat)) :=
  i <- opt (nth_error starts stateno) ;;
  k <- opt (nth_error starts (S stateno)) ;;
  j <- find_la rules ruleno i k (S (k - i)) ;;
  l <- opt (nth_error lb j) ;;
  Ok (upd lb j (gotono :: l)).

(** byacc/lalr.c:383-395: back over the right-hand side; [len] is length. *)
Fixpoint back_edges (fuel : nat) (b : bgram) (g : gotos) (nl : list bool) (states : list nat) (rp len : nat) (edge : list nat) : res (list nat) :=
  match fuel with
  | O => Fuel
  | S f =>
      match rp with
      | O => Bad
      | S rp' =>
          x <- opt (nth_error (ritem b) rp') ;;
          if ISVAR b x then
            match len with
            | O => Bad
            | S len' =>
                stateno <- opt (nth_error states len') ;;
                e <- map_goto b g stateno (Z.to_nat x) ;;
                edge' <- push_edge g edge e ;;
                n <- opt (nth_error nl (Z.to_nat x)) ;;
                if n && (0 <? len') then back_edges f b g nl states rp' len' edge' else Ok edge'
            end
          else Ok edge
      end
  end.

(** byacc/lalr.c:355-396: the remaining rules of the nonterminal of goto [i]. *)
Fixpoint rel_rules (b : bgram) (g : gotos) (ac : list nat) (nl : list bool) (sht : list (option (list nat))) (cap : nat) (starts rules : list nat)
  (i state1 : nat) (rs : list nat) (edge : list nat) (lb : list (list nat)) : res (list nat * list (list nat)) :=
  match rs with
  | [] => Ok (edge, lb)
  | r :: rs' =>
      rp <- opt (nth_error (rrhs b) r) ;;
      '(rp', stateno, states) <- walk_rhs (S (nitems b)) b ac sht cap rp state1 [state1] ;;
      lb' <- add_lookback_edge starts rules stateno r i lb ;;
      edge' <- back_edges (S (S (nitems b))) b g nl states rp' (length states - 1) edge ;;
      rel_rules b g ac nl sht cap starts rules i state1 rs' edge' lb'
  end.

(** byacc/lalr.c:348-404: gotos [i], [i]+1, ... ([k] of them). *)
Fixpoint rel_loop (b : bgram) (d : list (list nat)) (g : gotos) (ac : list nat) (nl : list bool) (sht : list (option (list nat))) (cap : nat)
  (starts rules : list nat) (i k : nat) (inc : list (option (list nat))) (lb : list (list nat)) : res (list (option (list nat)) * list (list nat)) :=
  match k with
  | O => Ok (inc, lb)
  | S k' =>
      q <- opt (nth_error (g_to g) i) ;;
      symbol1 <- opt (nth_error ac q) ;;
      state1 <- opt (nth_error (g_from g) i) ;;
      rs <- derives_of b d symbol1 ;;
      '(edge, lb') <- rel_rules b g ac nl sht cap starts rules i state1 rs [] lb ;;
      rel_loop b d g ac nl sht cap starts rules (S i) k' (inc ++ [some_edges edge]) lb'
  end.

(** ** transpose *)

(** byacc/lalr.c:451-461: count the occurrences of each index. *)
Fixpoint count_edges (l nedges : list nat) : res (list nat) :=
  match l with
  | [] => Ok nedges
  | j :: r => x <- opt (nth_error nedges j) ;; count_edges r (upd nedges j (S x))
  end.
Fixpoint count_rel (R : list (option (list nat))) (nedges : list nat) : res (list nat) :=
  match R with
  | [] => Ok nedges
  | None :: r => count_rel r nedges
  | Some l :: r => n' <- count_edges l nedges ;; count_rel r n'
  end.
(** byacc/lalr.c:482-490: the entries written so far, per index; writing through
    temp_R, which is null where nothing was counted, and must not reach the -1. *)
Fixpoint put_edges (i : nat) (l nedges : list nat) (T : list (list nat)) : res (list (list nat)) :=
  match l with
  | [] => Ok T
  | j :: r =>
      k <- opt (nth_error nedges j) ;;
      e <- opt (nth_error T j) ;;
      if length e <? k then put_edges i r nedges (upd T j (e ++ [i])) else Bad
  end.
Fixpoint put_rel (i : nat) (R : list (option (list nat))) (nedges : list nat) (T : list (list nat)) : res (list (list nat)) :=
  match R with
  | [] => Ok T
  | None :: r => put_rel (S i) r nedges T
  | Some l :: r => T' <- put_edges i l nedges T ;; put_rel (S i) r nedges T'
  end.
(** What is read back: a null pointer where nothing was counted, else [k] entries
    (calloc leaves 0 where nothing was written). *)
Definition finish (k : nat) (e : list nat) : option (list nat) :=
  if k =? 0 then None else Some (e ++ repeat 0 (k - length e)).
Fixpoint finish_all (nedges : list nat) (T : list (list nat)) : list (option (list nat)) :=
  match nedges, T with
  | k :: ks, e :: es => finish k e :: finish_all ks es
  | _, _ => []
  end.
(** byacc/lalr.c:442-494 transpose. *)
Definition transpose (R : list (option (list nat))) (n : nat) : res (list (option (list nat))) :=
  nedges <- count_rel R (repeat 0 n) ;;
  T <- put_rel 0 R nedges (repeat [] n) ;;
  Ok (finish_all nedges T).

(** byacc/lalr.c:326-415 build_relations: the (transposed) includes relation and
    lookback. *)
Definition build_relations (b : bgram) (d : list (list nat)) (g : gotos) (ac : list nat) (nl : list bool) (sht : list (option (list nat)))
  (starts rules : list nat) : res (list (option (list nat)) * list (list nat)) :=
  '(inc, lb) <- rel_loop b d g ac nl sht (S (set_maxrhs b)) starts rules 0 (ngotos g) [] (repeat [] (length rules)) ;;
  inc' <- transpose inc (ngotos g) ;;
  Ok (inc', lb).

(** ** compute_lookaheads *)

(** byacc/lalr.c:515-521. *)
Fixpoint la_union (ts : nat) (F : list N) (l : list nat) (LA : list N) (rowp : nat) : res (list N) :=
  match l with
  | [] => Ok LA
  | e :: r => LA' <- or_from LA rowp F (ts * e) ts ;; la_union ts F r LA' rowp
  end.
(** byacc/lalr.c:510-523. *)
Fixpoint la_loop (ts : nat) (F : list N) (lb : list (list nat)) (LA : list N) (rowp : nat) : res (list N) :=
  match lb with
  | [] => Ok LA
  | l :: r => LA' <- la_union ts F l LA rowp ;; la_loop ts F r LA' (rowp + ts)
  end.

(** What the rest of byacc uses. *)
Record lalr_tables : Type := mkLalr {
  t_access : list nat;                    (** accessing_symbol *)
  t_shift : list (option (list nat));     (** shift_table *)
  t_red : list (option (list nat));       (** reduction_table *)
  t_gotos : gotos;                        (** goto_map, from_state, to_state *)
  t_start : list nat;                     (** lookaheads *)
  t_rule : list nat;                      (** LAruleno *)
  t_LA : list N                           (** LA *)
}.

(** byacc/lalr.c:29-46 lalr. *)
Definition lalr (fuel : nat) (b : bgram) (nl : list bool) (s : lr0st) : res lalr_tables :=
  let ts := WORDSIZE BPW (ntokens b) in
  let ac := accessing s in
  sht <- set_table (l_shifts s) (repeat None (length (l_cores s))) ;;
  rdt <- set_table (l_reds s) (repeat None (length (l_cores s))) ;;
  let starts := la_starts rdt 0 in
  let rules := la_rules rdt in
  g <- set_goto_map b s ;;
  F <- initialize_F fuel b g ac nl sht ;;
  '(inc, lb) <- build_relations b (set_derives b) g ac nl sht starts rules ;;
  F' <- digraph fuel ts (ngotos g) inc F ;;
  LA <- la_loop ts F' lb (repeat 0%N (length rules * ts)) 0 ;;
  Ok (mkLalr ac sht rdt g starts rules LA).
