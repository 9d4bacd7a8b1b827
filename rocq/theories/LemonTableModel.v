(** Model of the hash tables of lemon (lemon/lemon.c:5803-6495): Strsafe, Symbol_new and
    the four tables x1 (strings), x2 (symbols), x3 (states), x4 (configurations).

    The four tables have the same code up to the types, the hash function and the
    comparison, so they are instances of one definition.  Keys are the contents
    that the comparison looks at; data are addresses or ids.  The chain of nodes
    that starts at ht[h] is a list of node numbers; the [from] links are never read
    and are left out.  Memory allocation succeeds. *)
From Coq Require Import List Arith NArith ZArith Bool Lia.
Import ListNotations.
From Verif Require Import Base CLib.
Open Scope res_scope.

Section Table.
Variables (K D : Type) (hash : K -> N) (keyeq : K -> K -> bool).

(** size, tbl[0..count-1] as pairs of key and data, ht[0..size-1]. *)
Record htab : Type := mkTab { h_size : nat; h_tbl : list (K * D); h_ht : list (list nat) }.

(** lemon/lemon.c:6030-6047 Symbol_init and its copies. *)
Definition tab_init (size : nat) : htab := mkTab size [] (repeat [] size).

(** h & (size-1) *)
Definition slot (size : nat) (k : K) : nat := N.to_nat (N.land (hash k) (N.of_nat (size - 1))).

(** lemon/lemon.c:6067-6076 and 6124-6129: the walk along a chain. *)
Fixpoint tab_walk (tbl : list (K * D)) (k : K) (chain : list nat) : res (option D) :=
  match chain with
  | [] => Ok None
  | i :: r => e <- opt (nth_error tbl i) ;; if keyeq (fst e) k then Ok (Some (snd e)) else tab_walk tbl k r
  end.

(** Put node [i] with key [k] at the head of its chain. *)
Definition link (size : nat) (k : K) (i : nat) (ht : list (list nat)) : res (list (list nat)) :=
  let h := slot size k in
  c <- opt (nth_error ht h) ;; Ok (upd ht h (i :: c)).

(** lemon/lemon.c:6087-6098: the nodes are entered in order. *)
Fixpoint relink (size : nat) (tbl : list (K * D)) (i : nat) (ht : list (list nat)) : res (list (list nat)) :=
  match tbl with
  | [] => Ok ht
  | e :: r => ht' <- link size (fst e) i ht ;; relink size r (S i) ht'
  end.

(** lemon/lemon.c:6077-6103: a table of twice the size. *)
Definition tab_grow (t : htab) : res htab :=
  let size := h_size t * 2 in
  ht <- relink size (h_tbl t) 0 (repeat [] size) ;; Ok (mkTab size (h_tbl t) ht).

(** lemon/lemon.c:6056-6114 Symbol_insert and its copies; false when the key exists. *)
Definition tab_insert (k : K) (d : D) (t : htab) : res (bool * htab) :=
  c <- opt (nth_error (h_ht t) (slot (h_size t) k)) ;;
  f <- tab_walk (h_tbl t) k c ;;
  match f with
  | Some _ => Ok (false, t)
  | None =>
      t1 <- (if h_size t <=? length (h_tbl t) then tab_grow t else Ok t) ;;
      let i := length (h_tbl t1) in
      (* the store to tbl[count++] *)
      if i <? h_size t1 then
        ht <- link (h_size t1) k i (h_ht t1) ;;
        Ok (true, mkTab (h_size t1) (h_tbl t1 ++ [(k, d)]) ht)
      else Bad
  end.

(** lemon/lemon.c:6118-6131 Symbol_find and its copies. *)
Definition tab_find (k : K) (t : htab) : res (option D) :=
  c <- opt (nth_error (h_ht t) (slot (h_size t) k)) ;; tab_walk (h_tbl t) k c.

(** lemon/lemon.c:6154-6165 Symbol_arrayof and State_arrayof. *)
Definition tab_arrayof (t : htab) : list D := map snd (h_tbl t).

(** lemon/lemon.c:6486-6495 Configtable_clear. *)
Definition tab_clear (t : htab) : htab :=
  if length (h_tbl t) =? 0 then t else mkTab (h_size t) [] (repeat [] (h_size t)).

Fixpoint tab_inserts (l : list (K * D)) (t : htab) : res (list bool * htab) :=
  match l with
  | [] => Ok ([], t)
  | (k, d) :: r => p <- tab_insert k d t ;; q <- tab_inserts r (snd p) ;; Ok (fst p :: fst q, snd q)
  end.
End Table.

Arguments mkTab {K D}. Arguments h_size {K D}. Arguments h_tbl {K D}. Arguments h_ht {K D}.
Arguments tab_init {K D}. Arguments tab_arrayof {K D}. Arguments tab_clear {K D}.

(** Arithmetic of unsigned. *)
Definition u32 (x : Z) : N := Z.to_N (x mod 2 ^ 32).

(** lemon/lemon.c:5803-5808 strhash; characters are signed. *)
Fixpoint strhash_from (h : N) (x : list Z) : N :=
  match x with [] => h | c :: r => strhash_from (u32 (Z.of_N h * 13 + c)) r end.
Definition strhash (x : list Z) : N := strhash_from 0 x.

(** strcmp(a,b)==0 *)
Fixpoint streq (a b : list Z) : bool :=
  match a, b with
  | [], [] => true
  | x :: a', y :: b' => (x =? y)%Z && streq a' b'
  | _, _ => false
  end.

(** A configuration as the comparisons see it: rp->index and dot. *)
Definition cfgkey : Type := (nat * nat)%type.

(** lemon/lemon.c:6168-6176 Configcmp. *)
Definition Configcmp (a b : cfgkey) : Z :=
  let x := (Z.of_nat (fst a) - Z.of_nat (fst b))%Z in
  if (x =? 0)%Z then (Z.of_nat (snd a) - Z.of_nat (snd b))%Z else x.

(** lemon/lemon.c:6353-6358 confighash. *)
Definition confighash (a : cfgkey) : N := u32 (Z.of_nat (fst a) * 37 + Z.of_nat (snd a)).

(** lemon/lemon.c:6179-6191 statecmp; a state is the list of its basis along bp. *)
Fixpoint statecmp (a b : list cfgkey) : Z :=
  match a, b with
  | x :: a', y :: b' => let rc := Configcmp x y in if (rc =? 0)%Z then statecmp a' b' else rc
  | [], [] => 0%Z
  | _ :: _, [] => 1%Z
  | [], _ :: _ => (-1)%Z
  end.

(** lemon/lemon.c:6194-6202 statehash. *)
Fixpoint statehash_from (h : N) (a : list cfgkey) : N :=
  match a with
  | [] => h
  | x :: r => statehash_from (u32 (Z.of_N h * 571 + Z.of_nat (fst x) * 37 + Z.of_nat (snd x))) r
  end.
Definition statehash (a : list cfgkey) : N := statehash_from 0 a.

(** The tables: Strsafe (initial size 1024, lemon/lemon.c:5851), Symbol and State (128),
    Configtable (64). *)
Definition Strsafe_insert {D} := @tab_insert (list Z) D strhash streq.
Definition Strsafe_find {D} := @tab_find (list Z) D strhash streq.
Definition Symbol_insert {D} := @tab_insert (list Z) D strhash streq.
Definition Symbol_find {D} := @tab_find (list Z) D strhash streq.
Definition State_insert {D} := @tab_insert (list cfgkey) D statehash (fun a b => (statecmp a b =? 0)%Z).
Definition State_find {D} := @tab_find (list cfgkey) D statehash (fun a b => (statecmp a b =? 0)%Z).
Definition Configtable_insert {D} := @tab_insert cfgkey D confighash (fun a b => (Configcmp a b =? 0)%Z).
Definition Configtable_find {D} := @tab_find cfgkey D confighash (fun a b => (Configcmp a b =? 0)%Z).

(** lemon/lemon.c:5814-5829 Strsafe.  The heap is the list of the strings allocated so
    far; a pointer is a place in it. *)
Definition Strsafe (y : list Z) (st : htab (list Z) nat * list (list Z)) : res (nat * (htab (list Z) nat * list (list Z))) :=
  let (t, heap) := st in
  z <- Strsafe_find y t ;;
  match z with
  | Some p => Ok (p, st)
  | None => let p := length heap in
      r <- Strsafe_insert y p t ;; Ok (p, (snd r, heap ++ [y]))
  end.

Fixpoint Strsafes (l : list (list Z)) (st : htab (list Z) nat * list (list Z)) : res (list nat * (htab (list Z) nat * list (list Z))) :=
  match l with
  | [] => Ok ([], st)
  | y :: r => p <- Strsafe y st ;; q <- Strsafes r (snd p) ;; Ok (fst p :: fst q, snd q)
  end.

(** type, name[0], useCnt of a symbol; the id is its place in the list of symbols. *)
Inductive symtype : Type := TERMINAL | NONTERMINAL | MULTITERMINAL.
Record lsym : Type := mkLsym { ls_name : list Z; ls_type : symtype; ls_uses : nat }.

Definition isupper (c : Z) : bool := ((65 <=? c) && (c <=? 90))%Z.

(** lemon/lemon.c:5955-5980 Symbol_new; a symbol is its id. *)
Definition Symbol_new (x : list Z) (st : htab (list Z) nat * list lsym) : res (nat * (htab (list Z) nat * list lsym)) :=
  let (t, syms) := st in
  f <- Symbol_find x t ;;
  match f with
  | Some i => s <- opt (nth_error syms i) ;;
      Ok (i, (t, upd syms i (mkLsym (ls_name s) (ls_type s) (S (ls_uses s)))))
  | None =>
      let i := length syms in
      let ty := match x with c :: _ => if isupper c then TERMINAL else NONTERMINAL | [] => NONTERMINAL end in
      r <- Symbol_insert x i t ;;
      Ok (i, (snd r, syms ++ [mkLsym x ty 1]))
  end.

Fixpoint Symbol_news (l : list (list Z)) (st : htab (list Z) nat * list lsym) : res (list nat * (htab (list Z) nat * list lsym)) :=
  match l with
  | [] => Ok ([], st)
  | y :: r => p <- Symbol_new y st ;; q <- Symbol_news r (snd p) ;; Ok (fst p :: fst q, snd q)
  end.

(** lemon/lemon.c:5996-6003 Symbolcmpp on symbols with their field index. *)
Definition symclass (s : lsym) : Z :=
  match ls_type s with
  | MULTITERMINAL => 3
  | _ => match ls_name s with c :: _ => if 90 <? c then 2 else 1 | [] => 1 (* the zero byte *) end
  end%Z.
Definition Symbolcmpp (a b : lsym * nat) : Z :=
  let i1 := symclass (fst a) in let i2 := symclass (fst b) in
  (if i1 =? i2 then Z.of_nat (snd a) - Z.of_nat (snd b) else i1 - i2)%Z.

(** lemon/lemon.c:1766-1767: the fields index are set and the array is sorted. *)
Definition sort_symbols (l : list lsym) : list lsym :=
  map fst (qsort (fun a b => (Symbolcmpp a b <=? 0)%Z) (combine l (seq 0 (length l)))).

(** lemon/lemon.c:1769: while( symbols[i-1]->type==MULTITERMINAL ) i--; [Bad] when it runs off the array. *)
Fixpoint drop_multi (l : list lsym) (i : nat) : res nat :=
  match i with
  | 0 => Bad
  | S i' => s <- opt (nth_error l i') ;; match ls_type s with MULTITERMINAL => drop_multi l i' | _ => Ok i end
  end.

(** lemon/lemon.c:1772: for(i=1; ISUPPER(symbols[i]->name[0]); i++); the list starts at symbols[i]. *)
Fixpoint skip_upper (l : list lsym) (i : nat) : res nat :=
  match l with
  | [] => Bad
  | s :: r => if match ls_name s with c :: _ => isupper c | [] => false end then skip_upper r (S i) else Ok i
  end.

(** "{default}" *)
Definition default_name : list Z := [123; 100; 101; 102; 97; 117; 108; 116; 125]%Z.

(** lemon/lemon.c:1764-1773: symbols, nsymbol, nterminal; a failed assert is [Bad]. *)
Definition index_symbols (l : list lsym) : res (list lsym * nat * nat) :=
  let s := sort_symbols l in
  i <- drop_multi s (length s) ;;
  d <- opt (nth_error s (i - 1)) ;;
  if streq (ls_name d) default_name then
    n <- skip_upper (skipn 1 s) 1 ;; Ok (s, i - 1, n)
  else Bad.
