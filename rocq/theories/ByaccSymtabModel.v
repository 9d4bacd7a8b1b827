(** Model of byacc/symtab.c: the symbol table.

    A name is the list of its characters (as signed char, without the final 0).  A
    bucket is identified by its place in the chain first_symbol -> next -> ..., and
    [s_names] are the names along that chain.  The other fields of a bucket do not
    matter here. *)
From Coq Require Import List Arith ZArith Bool Lia.
Import ListNotations.
From Verif Require Import Base.
Open Scope res_scope.

Definition TABLE_SIZE : nat := 1024.

(** byacc/symtab.c:15-21: the loop of hash. *)
Fixpoint hash_loop (s : list Z) (k : Z) : Z :=
  match s with
  | [] => k
  | c :: r => hash_loop r (Z.land (31 * k + c) 1023)
  end.

(** byacc/symtab.c:10-24 hash; the assertion fails for the empty name.  The first
    character is not masked: a name of one negative character gives a negative result. *)
Definition hash (name : list Z) : res Z :=
  match name with [] => Bad | c :: r => Ok (hash_loop r c) end.

Record symtab : Type := mkSymtab { s_table : list (list nat); s_names : list (list Z) }.

Fixpoint name_eqb (a b : list Z) : bool :=
  match a, b with
  | [], [] => true
  | x :: a', y :: b' => (x =? y)%Z && name_eqb a' b'
  | _, _ => false
  end.

(** byacc/symtab.c:67-73: the walk along the links of a table entry. *)
Fixpoint walk (names : list (list Z)) (name : list Z) (chain : list nat) : res (option nat) :=
  match chain with
  | [] => Ok None
  | b :: r => n <- opt (nth_error names b) ;; if name_eqb name n then Ok (Some b) else walk names name r
  end.

(** byacc/symtab.c:59-82 lookup. *)
Definition lookup (name : list Z) (st : symtab) : res (nat * symtab) :=
  h <- hash name ;;
  if (h <? 0)%Z then Bad else
  chain <- opt (nth_error (s_table st) (Z.to_nat h)) ;;
  f <- walk (s_names st) name chain ;;
  match f with
  | Some b => Ok (b, st)
  | None => let b := length (s_names st) in
      Ok (b, mkSymtab (upd (s_table st) (Z.to_nat h) (chain ++ [b])) (s_names st ++ [name]))
  end.

(** byacc/reader.c:2707-2710: insert_empty_rule appends a bucket to the chain without
    entering it into the table. *)
Definition add_unhashed (name : list Z) (st : symtab) : nat * symtab :=
  (length (s_names st), mkSymtab (s_table st) (s_names st ++ [name])).

(** "error" *)
Definition ERROR_NAME : list Z := [101; 114; 114; 111; 114]%Z.

(** byacc/symtab.c:84-104 create_symbol_table. *)
Definition create_symbol_table : res symtab :=
  h <- hash ERROR_NAME ;;
  if (h <? 0)%Z || (Z.of_nat TABLE_SIZE <=? h)%Z then Bad else
  Ok (mkSymtab (upd (repeat [] TABLE_SIZE) (Z.to_nat h) [0]) [ERROR_NAME]).

(** A sequence of uses of the table and the buckets they return. *)
Inductive use : Type := Lookup (name : list Z) | Unhashed (name : list Z).

Fixpoint run_uses (l : list use) (st : symtab) : res (list nat * symtab) :=
  match l with
  | [] => Ok ([], st)
  | Lookup n :: r => p <- lookup n st ;; q <- run_uses r (snd p) ;; Ok (fst p :: fst q, snd q)
  | Unhashed n :: r => let p := add_unhashed n st in q <- run_uses r (snd p) ;; Ok (fst p :: fst q, snd q)
  end.

Definition symbol_uses (l : list use) : res (list nat * symtab) :=
  st <- create_symbol_table ;; run_uses l st.
