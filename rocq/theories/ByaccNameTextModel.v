(** The tables of strings byacc prints for the traces of the parser (byacc/output.c:1318, 1342-1345, 1358-1575): yyname, the
    names of the symbols by their codes, and yyrule, the rules.  Without -r; config.h:107 defines YYBTYACC. *)
From Coq Require Import String List Arith ZArith Bool.
Import ListNotations.
From Verif Require Import Base LemonTableModel LemonPreModel LemonCodeModel LemonReprintModel ByaccLr0Model ByaccTableTextModel.
Local Open Scope res_scope.

(** ** The array symnam *)

(** byacc/output.c:1366-1367: from the last symbol down to the first.  An entry is [None] as long as nothing is assigned to
    it; a code outside of the array is [Bad]. *)
Fixpoint set_names (ntok : nat) (nm : list txt) (sv : list Z) (i : nat) (a : list (option (option txt))) : res (list (option (option txt))) :=
  match i with
  | 0 => Ok a
  | S i' =>
      v <- symbol_pval ntok sv i' ;;
      n <- opt (nth_error nm i') ;;
      if ((v <? 0) || (Z.of_nat (List.length a) <=? v))%Z then Bad else set_names ntok nm sv i' (upd a (Z.to_nat v) (Some (Some n)))
  end.

(** byacc/output.c:1358-1368; max + 2 entries, the first max of them set to 0. *)
Definition symnam (ntok nsyms : nat) (nm : list txt) (sv : list Z) : res (list (option (option txt))) :=
  let max := Z.to_nat (max_sym ntok sv) in
  a <- set_names ntok nm sv nsyms (repeat (Some None) max ++ [None; None]) ;;
  Ok (upd a (S max) (Some (Some (zs "illegal-symbol")))).

(** ** yyname *)

(** byacc/output.c:1407-1416 and 1455-1464: the number of characters up to the quote [q] as they are printed.  A name without
    its closing quote is read past its end: [Bad]. *)
Fixpoint count_until (q : Z) (t : txt) : res nat :=
  match t with
  | [] => Bad
  | c :: r =>
      if (c =? q)%Z then Ok 0
      else if (c =? 92)%Z then
        match r with [] => Bad | d :: r' => k <- count_until q r' ;; Ok (1 + 2 + (if (d =? 92)%Z then 1 else 0) + k) end
      else k <- count_until q r ;; Ok (1 + k)
  end.

(** byacc/output.c:1424-1437, 1472-1485 and 1533-1545: the characters up to the quote, each backslash twice. *)
Fixpoint escape_until (q : Z) (t : txt) : res txt :=
  match t with
  | [] => Bad
  | c :: r =>
      if (c =? q)%Z then Ok []
      else if (c =? 92)%Z then
        match r with [] => Bad | d :: r' => x <- escape_until q r' ;; Ok ([92; 92]%Z ++ (if (d =? 92)%Z then [92; 92]%Z else [d]) ++ x) end
      else x <- escape_until q r ;; Ok (c :: x)
  end.

(** byacc/output.c:1402-1516: one entry, the number of its characters and the characters.  The loop at 1499-1503 reads past the
    end of an empty name. *)
Definition name_cell (n : option txt) : res (nat * txt) :=
  match n with
  | None => Ok (2, zs "0,")
  | Some [] => Bad
  | Some (c :: r) =>
      if (c =? 34)%Z then
        k <- count_until 34 r ;; x <- escape_until 34 r ;; Ok (7 + k, zs """\""" ++ x ++ zs "\"""",")
      else if (c =? 39)%Z then
        if starts [34%Z] r then Ok (7, zs """'\""'"",")
        else k <- count_until 39 r ;; x <- escape_until 39 r ;; Ok (5 + k, zs """'" ++ x ++ zs "'"",")
      else Ok (List.length (c :: r) + 3, zs """" ++ (c :: r) ++ zs """,")
  end.

(** byacc/output.c:1399-1517: lines of at most 80 characters; reading an entry that was never set is [Bad]. *)
Fixpoint name_cells (j : nat) (l : list (option (option txt))) : res txt :=
  match l with
  | [] => Ok []
  | e :: r =>
      n <- opt e ;; '(k, x) <- name_cell n ;;
      if 80 <? j + k then y <- name_cells k r ;; Ok (nl ++ x ++ y) else y <- name_cells (j + k) r ;; Ok (x ++ y)
  end.

(** ** yyrule *)

(** byacc/output.c:1559-1560 *)
Fixpoint copy_until (q : Z) (t : txt) : res txt :=
  match t with [] => Bad | c :: r => if (c =? q)%Z then Ok [] else x <- copy_until q r ;; Ok (c :: x) end.

(** byacc/output.c:1529-1567: a symbol on the right side; [hd 0] reads the zero byte at the end of a name. *)
Definition rule_item (n : txt) : res txt :=
  match n with
  | [] => Ok (zs " ")
  | c :: r =>
      if (c =? 34)%Z then x <- escape_until 34 r ;; Ok (zs " \""" ++ x ++ zs "\""")
      else if (c =? 39)%Z then
        if starts [34%Z] r then Ok (zs " '\""'")
        else if starts [92%Z] r then
          match skipn 1 r with
          | [] => Bad
          | e :: r' => x <- copy_until 39 r' ;; Ok (zs " '\\" ++ (if (e =? 92)%Z then zs "\\" else [e]) ++ x ++ zs "'")
          end
        else Ok (zs " '" ++ [hd 0%Z r] ++ zs "'")
      else Ok (zs " " ++ n)
  end.

(** byacc/output.c:1527: as long as ritem[j] > 0. *)
Fixpoint rule_items (nm : list txt) (l : list Z) : res txt :=
  match l with
  | [] => Bad
  | v :: r => if (0 <? v)%Z then n <- opt (nth_error nm (Z.to_nat v)) ;; x <- rule_item n ;; y <- rule_items nm r ;; Ok (x ++ y) else Ok []
  end.

(** byacc/output.c:1526-1570: one rule. *)
Definition rule_line (b : bgram) (nm : list txt) (i : nat) : res txt :=
  l <- opt (nth_error (rlhs b) i) ;; n <- opt (nth_error nm l) ;; j <- opt (nth_error (rrhs b) i) ;;
  x <- rule_items nm (skipn j (ritem b)) ;;
  Ok (zs """" ++ n ++ zs " :" ++ x ++ zs """," ++ nl).

(** ** Both tables *)

(** byacc/output.c:222-229 start_str_table *)
Definition start_str_table (prefix : txt) (name : string) : txt := zs "static const char *const " ++ prefix ++ zs name ++ zs "[] = {" ++ nl.
(** byacc/output.c:231-236 end_table *)
Definition end_table : txt := nl ++ zs "};" ++ nl.

(** byacc/output.c:1385-1398, 1518-1574; [tt] is token_table (the declaration %token-table). *)
Definition output_names (prefix : txt) (tt : bool) (nm : list txt) (b : bgram) (sv : list Z) : res txt :=
  a <- symnam (ntokens b) (nsyms b) nm sv ;;
  x <- name_cells 80 a ;;
  y <- map_res (rule_line b nm) (seq 2 (nrules b - 2)) ;;
  Ok ((if tt then zs "#undef yytname" ++ nl ++ zs "#define yytname yyname" ++ nl else zs "#if YYDEBUG" ++ nl) ++
      start_str_table prefix "name" ++ x ++ end_table ++
      (if tt then zs "#if YYDEBUG" ++ nl else []) ++
      start_str_table prefix "rule" ++ List.concat y ++ end_table ++ zs "#endif" ++ nl).
