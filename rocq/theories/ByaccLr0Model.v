(** Model of the construction of the LR(0) automaton by byacc: the packed grammar
    arrays (byacc/reader.c pack_grammar), byacc/closure.c and byacc/lr0.c.

    Simplifications: integers are unbounded (Value_t is int; the check
    [nstates >= MAXYYINT] of new_state, which exits with a message, is left out);
    the sentinel-terminated slices of fs4_rules are lists; the linked lists of
    cores, shifts and reductions are lists in creation order; a core's hash chain
    (fields [link]) is the list of the numbers of its states; memory exhaustion is
    not modelled.  An access outside an array is [Bad]. *)
From Coq Require Import List Arith NArith ZArith Lia Bool.
Import ListNotations.
From Verif Require Import Base ByaccWarshallModel.
Open Scope res_scope.

(** BITS_PER_WORD, byacc/defs.h:74-82 (size_t). *)
Definition BPW : nat := 64.

(** What the reader hands over: symbols are numbered by pack_symbols
    (byacc/reader.c:3750-3930): 0 is $end, 1 is the token error, tokens are below
    [b_ntokens], the number [b_ntokens] is $accept and [b_ntokens]+1 the start
    symbol of the user's grammar (the field goal).  [b_rules] are the rules
    numbered from 3 (arrays plhs and pitem cut at their null entries). *)
Record bsrc : Type := mkSrc {
  b_ntokens : nat;
  b_nsyms : nat;
  b_rules : list (nat * list nat)
}.

(** The packed arrays. *)
Record bgram : Type := mkBG {
  ntokens : nat;
  nsyms : nat;
  ritem : list Z;
  rlhs : list nat;
  rrhs : list nat
}.

Definition nrules (b : bgram) : nat := length (rlhs b).
Definition nitems (b : bgram) : nat := length (ritem b).
Definition nvars (b : bgram) : nat := nsyms b - ntokens b.
(** byacc/reader.c:3766 *)
Definition start_symbol (b : bgram) : nat := ntokens b.

(** byacc/defs.h:197 ISVAR, on a possibly negative ritem entry. *)
Definition ISVAR (b : bgram) (s : Z) : bool := (Z.of_nat (start_symbol b) <=? s)%Z.

(** byacc/reader.c:3970-4018, the loop over the rules from 3 (precedences are
    modelled elsewhere): the ritem entries, rlhs and rrhs of rules [i], [i]+1, ...,
    rrhs ending with the final [rrhs[nrules]]. *)
Fixpoint pack_rules (i j : nat) (rs : list (nat * list nat)) : list Z * list nat * list nat :=
  match rs with
  | [] => ([], [], [j])
  | (l, r) :: rs' =>
      let '(it, ls, os) := pack_rules (S i) (S (j + length r)) rs' in
      (map Z.of_nat r ++ (- Z.of_nat i)%Z :: it, l :: ls, j :: os)
  end.

(** byacc/reader.c:3932-4026 pack_grammar. *)
Definition pack_grammar (s : bsrc) : bgram :=
  let goal := S (b_ntokens s) in
  let '(it, ls, os) := pack_rules 3 4 (b_rules s) in
  mkBG (b_ntokens s) (b_nsyms s)
    ((-1)%Z :: Z.of_nat goal :: 0%Z :: (-2)%Z :: it)
    (0 :: 0 :: b_ntokens s :: ls)
    (0 :: 0 :: 1 :: os).

(** byacc/lr0.c:463-490 set_derives: the rules of each nonterminal, from
    start_symbol on. *)
Definition set_derives (b : bgram) : list (list nat) :=
  map (fun lhs => filter (fun i => match nth_error (rlhs b) i with Some l => l =? lhs | None => false end) (seq 0 (nrules b)))
      (seq (start_symbol b) (nvars b)).

(** Access to derives[s]. *)
Definition derives_of (b : bgram) (d : list (list nat)) (s : nat) : res (list nat) :=
  if s <? start_symbol b then Bad else opt (nth_error d (s - start_symbol b)).

(** byacc/lr0.c:532-550: one pass over ritem from position 1; [inr] tells that the
    inner loop (535-540) is running. *)
Fixpoint null_pass (b : bgram) (l : list Z) (inr empty : bool) (nl : list bool) (done : bool) : res (list bool * bool) :=
  match l with
  | [] => if inr then Bad else Ok (nl, done)
  | j :: r =>
      if (0 <=? j)%Z then
        v <- opt (nth_error nl (Z.to_nat j)) ;;
        null_pass b r true (if v then empty else false) nl done
      else if empty then
        lhs <- opt (nth_error (rlhs b) (Z.to_nat (- j))) ;;
        v <- opt (nth_error nl lhs) ;;
        if v then null_pass b r false true nl done
        else null_pass b r false true (upd nl lhs true) false
      else null_pass b r false true nl done
  end.

(** byacc/lr0.c:528-551. *)
Fixpoint null_loop (fuel : nat) (b : bgram) (nl : list bool) : res (list bool) :=
  match fuel with
  | O => Fuel
  | S f =>
      '(nl', done) <- null_pass b (tl (ritem b)) false true nl true ;;
      if done then Ok nl' else null_loop f b nl'
  end.

(** byacc/lr0.c:516-562 set_nullable. *)
Definition set_nullable (fuel : nat) (b : bgram) : res (list bool) :=
  null_loop fuel b (repeat false (nsyms b)).

(** * byacc/closure.c *)

(** byacc/closure.c:21-29: the rules of one nonterminal. *)
Fixpoint eff_rules (b : bgram) (l : list nat) (a : list N) (row : nat) : res (list N) :=
  match l with
  | [] => Ok a
  | rule :: r =>
      if rule =? 0 then Ok a
      else
        o <- opt (nth_error (rrhs b) rule) ;;
        symbol <- opt (nth_error (ritem b) o) ;;
        if ISVAR b symbol then
          a' <- SETBIT BPW a row (Z.to_nat symbol - start_symbol b) ;;
          eff_rules b r a' row
        else eff_rules b r a row
  end.

(** byacc/closure.c:17-31. *)
Fixpoint eff_rows (b : bgram) (d : list (list nat)) (a : list N) (row rowsize : nat) : res (list N) :=
  match d with
  | [] => Ok a
  | l :: d' =>
      a' <- eff_rules b l a row ;;
      eff_rows b d' a' (row + rowsize) rowsize
  end.

(** byacc/closure.c:6-38 set_EFF. *)
Definition set_EFF (fuel : nat) (b : bgram) (d : list (list nat)) : res (list N) :=
  let rowsize := WORDSIZE BPW (nvars b) in
  a <- eff_rows b d (repeat 0%N (nvars b * rowsize)) 0 rowsize ;;
  reflexive_transitive_closure fuel BPW a (nvars b).

(** byacc/closure.c:75-79. *)
Fixpoint set_bits (a : list N) (row : nat) (l : list nat) : res (list N) :=
  match l with
  | [] => Ok a
  | r :: l' => a' <- SETBIT BPW a row r ;; set_bits a' row l'
  end.

(** byacc/closure.c:65-81: the loop over [j] for one row; [d] are derives[j],
    derives[j]+1, ... *)
Fixpoint fd_cols (eff : list N) (d : list (list nat)) (a : list N) (rrow vrow k : nat) (cword : N) : res (list N) :=
  match d with
  | [] => Ok a
  | rules :: d' =>
      '(cw, vr, k') <- (if BPW <=? k then w <- opt (nth_error eff vrow) ;; Ok (w, S vrow, 0) else Ok (cword, vrow, k)) ;;
      a' <- (if negb (N.eqb (N.land cw (N.shiftl 1 (N.of_nat k'))) 0) then set_bits a rrow rules else Ok a) ;;
      fd_cols eff d' a' rrow vr (S k') cw
  end.

(** byacc/closure.c:59-84: rows [i], [i]+1, ..., [k] of them. *)
Fixpoint fd_rows (b : bgram) (eff : list N) (d : list (list nat)) (a : list N) (k i rrow : nat) : res (list N) :=
  match k with
  | O => Ok a
  | S k' =>
      a' <- fd_cols eff d a rrow ((i - ntokens b) * WORDSIZE BPW (nvars b)) BPW 0%N ;;
      fd_rows b eff d a' k' (S i) (rrow + WORDSIZE BPW (nrules b))
  end.

(** byacc/closure.c:41-91 set_first_derives. *)
Definition set_first_derives (fuel : nat) (b : bgram) (d : list (list nat)) : res (list N) :=
  eff <- set_EFF fuel b d ;;
  fd_rows b eff d (repeat 0%N (nvars b * WORDSIZE BPW (nrules b))) (nvars b) (start_symbol b) 0.

(** byacc/closure.c:121-122: [*rsp++ |= *dsp++], [k] times. *)
Fixpoint or_from (rs : list N) (rsp : nat) (fd : list N) (dsp k : nat) : res (list N) :=
  match k with
  | O => Ok rs
  | S k' =>
      x <- opt (nth_error rs rsp) ;;
      y <- opt (nth_error fd dsp) ;;
      or_from (upd rs rsp (N.lor x y)) (S rsp) fd (S dsp) k'
  end.

(** byacc/closure.c:113-124. *)
Fixpoint ruleset_of (b : bgram) (fd : list N) (nucleus : list nat) (rs : list N) : res (list N) :=
  match nucleus with
  | [] => Ok rs
  | c :: r =>
      symbol <- opt (nth_error (ritem b) c) ;;
      if ISVAR b symbol then
        rs' <- or_from rs 0 fd ((Z.to_nat symbol - ntokens b) * WORDSIZE BPW (nrules b)) (WORDSIZE BPW (nrules b)) ;;
        ruleset_of b fd r rs'
      else ruleset_of b fd r rs
  end.

(** Storing at itemsetend; the array has nitems entries (byacc/lr0.c:115). *)
Definition push_item (b : bgram) (out : list nat) (x : nat) : res (list nat) :=
  if length out <? nitems b then Ok (out ++ [x]) else Bad.

(** byacc/closure.c:140-141. *)
Fixpoint take_lt (b : bgram) (csp : list nat) (itemno : nat) (out : list nat) : res (list nat * list nat) :=
  match csp with
  | [] => Ok ([], out)
  | c :: r => if c <? itemno then out' <- push_item b out c ;; take_lt b r itemno out' else Ok (csp, out)
  end.

(** byacc/closure.c:143-144. *)
Fixpoint drop_eq (csp : list nat) (itemno : nat) : list nat :=
  match csp with
  | [] => []
  | c :: r => if c =? itemno then drop_eq r itemno else csp
  end.

(** byacc/closure.c:135-146: bits [i], [i]+1, ... of a word ([k] of them). *)
Fixpoint word_bits (b : bgram) (word : N) (ruleno i k : nat) (csp out : list nat) : res (list nat * list nat) :=
  match k with
  | O => Ok (csp, out)
  | S k' =>
      if negb (N.eqb (N.land word (N.shiftl 1 (N.of_nat i))) 0) then
        itemno <- opt (nth_error (rrhs b) (ruleno + i)) ;;
        '(csp1, out1) <- take_lt b csp itemno out ;;
        out2 <- push_item b out1 itemno ;;
        word_bits b word ruleno (S i) k' (drop_eq csp1 itemno) out2
      else word_bits b word ruleno (S i) k' csp out
  end.

(** byacc/closure.c:129-149. *)
Fixpoint emit_words (b : bgram) (rs : list N) (ruleno : nat) (csp out : list nat) : res (list nat * list nat) :=
  match rs with
  | [] => Ok (csp, out)
  | word :: rs' =>
      '(csp1, out1) <- (if negb (N.eqb word 0) then word_bits b word ruleno 0 BPW csp out else Ok (csp, out)) ;;
      emit_words b rs' (ruleno + BPW) csp1 out1
  end.

(** byacc/closure.c:151-152. *)
Fixpoint push_all (b : bgram) (csp out : list nat) : res (list nat) :=
  match csp with
  | [] => Ok out
  | c :: r => out' <- push_item b out c ;; push_all b r out'
  end.

(** byacc/closure.c:94-157 closure. *)
Definition closure (b : bgram) (fd : list N) (nucleus : list nat) : res (list nat) :=
  rs <- ruleset_of b fd nucleus (repeat 0%N (WORDSIZE BPW (nrules b))) ;;
  '(csp, out) <- emit_words b rs 0 nucleus [] ;;
  push_all b csp out.

(** * byacc/lr0.c *)

(** byacc/lr0.c:33-42: how often a symbol occurs in ritem, which is the room for its
    kernel items (49-55). *)
Definition symbol_count (b : bgram) (s : nat) : nat := count_occ Z.eq_dec (ritem b) (Z.of_nat s).

Record core : Type := mkCore { c_sym : nat; c_items : list nat }.

(** first_state with the cores, fs4_state_set with the chains, first_shift and
    first_reduction with state numbers. *)
Record lr0st : Type := mkLr0 {
  l_cores : list core;
  l_set : list (list nat);
  l_shifts : list (nat * list nat);
  l_reds : list (nat * list nat)
}.

(** byacc/lr0.c:420-428: the completed rules of an item set, at most nrules + 1. *)
Fixpoint redset (b : bgram) (its : list nat) (out : list nat) : res (list nat) :=
  match its with
  | [] => Ok out
  | i :: r =>
      it <- opt (nth_error (ritem b) i) ;;
      if (it <? 0)%Z then
        (if length out <? S (nrules b) then redset b r (out ++ [Z.to_nat (- it)]) else Bad)
      else redset b r out
  end.

(** byacc/lr0.c:412-460 save_reductions. *)
Definition save_reductions (b : bgram) (q : nat) (its : list nat) (s : lr0st) : res lr0st :=
  rd <- redset b its [] ;;
  match rd with
  | [] => Ok s
  | _ => Ok (mkLr0 (l_cores s) (l_set s) (l_shifts s) (l_reds s ++ [(q, rd)]))
  end.

(** byacc/lr0.c:227-259 new_itemsets: per symbol the kernel items (None: kernel_end
    is null) and the symbols in the order met.  A kernel slice has symbol_count
    entries, fs4_shift_symbol nsyms. *)
Fixpoint new_itemsets (b : bgram) (its : list nat) (ker : list (option (list nat))) (syms : list nat)
  : res (list (option (list nat)) * list nat) :=
  match its with
  | [] => Ok (ker, syms)
  | j :: r =>
      symbol <- opt (nth_error (ritem b) j) ;;
      if (0 <? symbol)%Z then
        let s := Z.to_nat symbol in
        k <- opt (nth_error ker s) ;;
        let old := match k with Some l => l | None => [] end in
        if length old <? symbol_count b s then
          let ker' := upd ker s (Some (old ++ [S j])) in
          match k with
          | Some _ => new_itemsets b r ker' syms
          | None => if length syms <? nsyms b then new_itemsets b r ker' (syms ++ [s]) else Bad
          end
        else Bad
      else new_itemsets b r ker syms
  end.

(** byacc/lr0.c:79-90: insertion sort; the sorted part is kept reversed. *)
Fixpoint ins_rev (s : nat) (l : list nat) : list nat :=
  match l with
  | [] => [s]
  | x :: r => if s <? x then x :: ins_rev s r else s :: x :: r
  end.
Definition sort_syms (l : list nat) : list nat := rev (fold_left (fun acc s => ins_rev s acc) l []).

(** byacc/lr0.c:262-296 new_state, with the number of the new state. *)
Definition new_state (symbol : nat) (k : list nat) (s : lr0st) : nat * lr0st :=
  (length (l_cores s), mkLr0 (l_cores s ++ [mkCore symbol k]) (l_set s) (l_shifts s) (l_reds s)).

(** byacc/lr0.c:160-176: look for a core with these items along a chain. *)
Fixpoint find_core (s : lr0st) (chain : list nat) (k : list nat) : res (option nat) :=
  match chain with
  | [] => Ok None
  | q :: r =>
      c <- opt (nth_error (l_cores s) q) ;;
      if list_eq_dec Nat.eq_dec (c_items c) k then Ok (Some q) else find_core s r k
  end.

(** byacc/lr0.c:137-197 get_state. *)
Definition get_state (b : bgram) (ker : list (option (list nat))) (symbol : nat) (s : lr0st) : res (nat * lr0st) :=
  ok <- opt (nth_error ker symbol) ;;
  k <- opt ok ;;
  key <- opt (nth_error k 0) ;;
  if key <? nitems b then
    chain <- opt (nth_error (l_set s) key) ;;
    f <- find_core s chain k ;;
    match f with
    | Some q => Ok (q, s)
    | None =>
        let '(q, s') := new_state symbol k s in
        Ok (q, mkLr0 (l_cores s') (upd (l_set s') key (chain ++ [q])) (l_shifts s') (l_reds s'))
    end
  else Bad.

(** byacc/lr0.c:92-96. *)
Fixpoint get_states (b : bgram) (ker : list (option (list nat))) (syms : list nat) (s : lr0st) (out : list nat)
  : res (list nat * lr0st) :=
  match syms with
  | [] => Ok (out, s)
  | x :: r =>
      '(q, s') <- get_state b ker x s ;;
      get_states b ker r s' (out ++ [q])
  end.

(** byacc/lr0.c:379-409 save_shifts. *)
Definition save_shifts (q : nat) (sh : list nat) (s : lr0st) : lr0st :=
  mkLr0 (l_cores s) (l_set s) (l_shifts s ++ [(q, sh)]) (l_reds s).

(** byacc/lr0.c:122-128: the body of the main loop for state [q]. *)
Definition one_state (b : bgram) (fd : list N) (q : nat) (c : core) (s : lr0st) : res lr0st :=
  its <- closure b fd (c_items c) ;;
  s1 <- save_reductions b q its s ;;
  '(ker, syms) <- new_itemsets b its (repeat None (nsyms b)) [] ;;
  '(sh, s2) <- get_states b ker (sort_syms syms) s1 [] ;;
  match sh with
  | [] => Ok s2
  | _ => Ok (save_shifts q sh s2)
  end.

(** byacc/lr0.c:120-131. *)
Fixpoint gen_loop (fuel : nat) (b : bgram) (fd : list N) (q : nat) (s : lr0st) : res lr0st :=
  match fuel with
  | O => Fuel
  | S f =>
      match nth_error (l_cores s) q with
      | None => Ok s
      | Some c => s' <- one_state b fd q c s ;; gen_loop f b fd (S q) s'
      end
  end.

Fixpoint map_res {A B} (f : A -> res B) (l : list A) : res (list B) :=
  match l with
  | [] => Ok []
  | x :: r => y <- f x ;; ys <- map_res f r ;; Ok (y :: ys)
  end.

(** byacc/lr0.c:200-224 initialize_states. *)
Definition initialize_states (b : bgram) (d : list (list nat)) : res lr0st :=
  ds <- derives_of b d (start_symbol b) ;;
  items <- map_res (fun r => opt (nth_error (rrhs b) r)) ds ;;
  Ok (mkLr0 [mkCore 0 items] (repeat [] (nitems b)) [] []).

(** byacc/lr0.c:112-134 generate_states. *)
Definition generate_states (fuel : nat) (b : bgram) (d : list (list nat)) : res lr0st :=
  fd <- set_first_derives fuel b d ;;
  s <- initialize_states b d ;;
  gen_loop fuel b fd 0 s.

(** byacc/lr0.c:565-570 lr0. *)
Definition lr0 (fuel : nat) (b : bgram) : res (list bool * lr0st) :=
  let d := set_derives b in
  nl <- set_nullable fuel b ;;
  s <- generate_states fuel b d ;;
  Ok (nl, s).
