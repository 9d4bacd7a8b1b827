(** Model of the grammar reader of lemon: the scanner Parse (lemon/lemon.c:3061-3217), the
    parser of single tokens parseonetoken (lemon/lemon.c:2346-2891) and the part of main that
    indexes the symbols (lemon/lemon.c:1746-1786).

    Texts are lists of characters without the terminating zero byte, as in LemonPreModel.
    A symbol object is the index of its record in [gr_syms], the order of the calloc calls
    (the field id); Strsafe is the identity, and Symbol_new and Symbol_find search that list
    by name (the hash tables are LemonTableModel, C22 and C23).  Error messages are only
    counted.  calloc, malloc and realloc succeed.  The fields bContent, useCnt, has_fallback
    (derived in [fallback_table]), declkeyword and nrule (the length of [gr_rules]) are left
    out; the stored text of a declaration is [decl_text], the size of the buffer it is put
    together in [decl_size]. *)
From Coq Require Import List Arith ZArith Bool String Ascii Lia.
Import ListNotations.
From Verif Require Import Base SpecGrammar LemonTableModel LemonPreModel LemonActionModel LemonPipelineModel.
Local Open Scope res_scope.

Notation text := (list Z).

Definition islower (c : Z) : bool := ((97 <=? c) && (c <=? 122))%Z.

(** x[i] of a zero-terminated string. *)
Definition ch (x : text) (i : nat) : Z := nth i x 0%Z.

(** ** The scanner *)

(** What the scanner hands on: a token with the line it starts on, or an error message. *)
Inductive event : Type := EvTok (line : Z) (x : text) | EvErr.

(** lemon/lemon.c:3126: while( ( c= *cp)!=0 && c!='\n' ) cp++; *)
Fixpoint to_eol (z : text) : text :=
  match z with [] => [] | c :: r => if (c =? 10)%Z then z else to_eol r end.

(** lemon/lemon.c:3132-3136: the rest of a C comment; [prev] is cp[-1].  The rest of the text
    and the line number. *)
Fixpoint skip_comment (prev : Z) (line : Z) (z : text) : text * Z :=
  match z with
  | [] => ([], line)
  | c :: r =>
      if (c =? 47)%Z && (prev =? 42)%Z then (r, line)
      else skip_comment c (if (c =? 10)%Z then line + 1 else line)%Z r
  end.

(** lemon/lemon.c:3142-3146: the characters of a string literal, the text from the closing
    quote on ([] when there is none), the line number. *)
Fixpoint scan_string (line : Z) (z : text) : text * text * Z :=
  match z with
  | [] => ([], [], line)
  | c :: r =>
      if (c =? 34)%Z then ([], z, line)
      else let '(a, b, l) := scan_string (if (c =? 10)%Z then line + 1 else line)%Z r in (c :: a, b, l)
  end.

(** Where the scanner is inside a block of C code (lemon/lemon.c:3157-3189). *)
Inductive cmode : Type :=
| MCode (level : nat)                 (* the for loop *)
| MComment (level : nat) (prevc : Z)  (* the while loop of a C comment *)
| MLine (level : nat)                 (* the while loop of a C++ comment *)
| MStr (level : nat) (startchar prevc : Z).  (* the for loop of a literal *)

(** lemon/lemon.c:3157-3189.  The characters of the block, the text from the closing brace on
    ([] when there is none), the line number.  When a comment or a literal in the block runs
    to the end of the text its loop stops at the zero byte, and the cp++ of the for loop goes
    on behind it: [Bad]. *)
Fixpoint scan_code (m : cmode) (line : Z) (z : text) : res (text * text * Z) :=
  match z with
  | [] => match m with MCode _ => Ok ([], [], line) | _ => Bad end
  | c :: r =>
      let line1 := (if (c =? 10)%Z then line + 1 else line)%Z in
      let next m := '(a, b, l) <- scan_code m line1 r ;; Ok (c :: a, b, l) in
      match m with
      | MCode level =>
          if (c =? 125)%Z && (level <=? 1) then Ok ([], z, line)
          else if (c =? 10)%Z then next (MCode level)
          else if (c =? 123)%Z then next (MCode (S level))
          else if (c =? 125)%Z then next (MCode (level - 1))
          else
            match r with
            | d :: r' =>
                if (c =? 47)%Z && (d =? 42)%Z then '(a, b, l) <- scan_code (MComment level 0%Z) line r' ;; Ok (c :: d :: a, b, l)
                else if (c =? 47)%Z && (d =? 47)%Z then '(a, b, l) <- scan_code (MLine level) line r' ;; Ok (c :: d :: a, b, l)
                else if (c =? 39)%Z || (c =? 34)%Z then next (MStr level c 0%Z)
                else next (MCode level)
            | [] => if (c =? 39)%Z || (c =? 34)%Z then next (MStr level c 0%Z) else next (MCode level)
            end
      | MComment level prevc =>
          if (c =? 47)%Z && (prevc =? 42)%Z then next (MCode level) else next (MComment level c)
      | MLine level =>
          if (c =? 10)%Z then next (MCode level) else next (MLine level)
      | MStr level startchar prevc =>
          if (c =? startchar)%Z && negb (prevc =? 92)%Z then
            '(a, b, l) <- scan_code (MCode level) line r ;; Ok (c :: a, b, l)
          else next (MStr level startchar (if (prevc =? 92)%Z then 0%Z else c))
      end
  end.

(** lemon/lemon.c:3115-3212: the scan loop. *)
Fixpoint scan (fuel : nat) (line : Z) (z : text) : res (list event) :=
  match fuel with
  | 0 => Fuel
  | S fuel' =>
      match z with
      | [] => Ok []
      | c :: r =>
          let line := (if (c =? 10)%Z then line + 1 else line)%Z in
          if isspace c then scan fuel' line r
          else if (c =? 47)%Z && (ch r 0 =? 47)%Z then scan fuel' line (to_eol (tl r))
          else if (c =? 47)%Z && (ch r 0 =? 42)%Z then
            let '(prev, r1) := if (ch (tl r) 0 =? 47)%Z then (47%Z, tl (tl r)) else (42%Z, tl r) in
            let (r2, line2) := skip_comment prev line r1 in scan fuel' line2 r2
          else if (c =? 34)%Z then
            let '(a, b, line2) := scan_string line r in
            l <- scan fuel' line2 (tl b) ;;
            Ok (match b with [] => [EvErr] | _ => [] end ++ EvTok line (c :: a) :: l)
          else if (c =? 123)%Z then
            '(a, b, line2) <- scan_code (MCode 1) line r ;;
            l <- scan fuel' line2 (tl b) ;;
            Ok (match b with [] => [EvErr] | _ => [] end ++ EvTok line (c :: a) :: l)
          else if isalnum c then
            let (a, b) := word z in
            l <- scan fuel' line b ;; Ok (EvTok line a :: l)
          else if (c =? 58)%Z && (ch r 0 =? 58)%Z && (ch r 1 =? 61)%Z then
            l <- scan fuel' line (tl (tl r)) ;; Ok (EvTok line [58; 58; 61]%Z :: l)
          else if ((c =? 47)%Z || (c =? 124)%Z) && isalpha (ch r 0) then
            let (a, b) := word (tl r) in
            l <- scan fuel' line b ;; Ok (EvTok line (c :: ch r 0 :: a) :: l)
          else l <- scan fuel' line r ;; Ok (EvTok line [c] :: l)
      end
  end.

(** ** The parser of tokens *)

(** lemon/lemon.c:2296-2319 *)
Inductive e_state : Type :=
| INITIALIZE | WAITING_FOR_DECL_OR_RULE | WAITING_FOR_DECL_KEYWORD | WAITING_FOR_DECL_ARG
| WAITING_FOR_PRECEDENCE_SYMBOL | WAITING_FOR_ARROW | IN_RHS | LHS_ALIAS_1 | LHS_ALIAS_2 | LHS_ALIAS_3
| RHS_ALIAS_1 | RHS_ALIAS_2 | PRECEDENCE_MARK_1 | PRECEDENCE_MARK_2 | RESYNC_AFTER_RULE_ERROR
| RESYNC_AFTER_DECL_ERROR | WAITING_FOR_DESTRUCTOR_SYMBOL | WAITING_FOR_DATATYPE_SYMBOL
| WAITING_FOR_FALLBACK_ID | WAITING_FOR_WILDCARD_ID | WAITING_FOR_CLASS_ID | WAITING_FOR_CLASS_TOKEN
| WAITING_FOR_TOKEN_NAME.

(** struct symbol, lemon/lemon.c:258-285.  [so_named] is false for the multi-terminals
    written A|B, which are not entered in the symbol table. *)
Record sobj : Type := mkSobj {
  so_name : text;
  so_named : bool;
  so_type : symtype;
  so_prec : option nat;      (* None for -1 *)
  so_assoc : e_assoc;
  so_fallback : option nat;
  so_sub : list nat;
  so_destr : option text;
  so_destln : Z;
  so_dtype : option text
}.

(** struct rule, lemon/lemon.c:291-314. *)
Record rrule : Type := mkRrule {
  rr_lhs : nat;
  rr_lhsalias : option text;
  rr_rhs : list (nat * option text);
  rr_precsym : option nat;
  rr_code : option text;
  rr_line : Z;
  rr_never : bool
}.

(** The char* fields of struct lemon that hold the argument of a declaration. *)
Inductive gslot : Type :=
| Gname | Ginclude | Gextracode | Gtokendest | Gvardest | Gtokenprefix | Gerror | Gaccept | Gfailure
| Goverflow | Garg | Gctx | Gtokentype | Gvartype | Gstacksize | Gexpect | Gstart.
Scheme Equality for gslot.

Inductive slot : Type := SLem (s : gslot) | SDestr (id : nat) | SDtype (id : nat).

(** What the reader builds, struct lemon and the symbols; the rules with the last one
    (prevrule, lastrule) first. *)
Record gram : Type := mkGram {
  gr_err : nat;
  gr_syms : list sobj;
  gr_rules : list rrule;
  gr_slots : list (gslot * text);
  gr_wildcard : option nat;
  gr_yaccPrec : bool;
  gr_preccounter : nat
}.

(** The fields of struct pstate used from one token to the next. *)
Record ctl : Type := mkCtl {
  c_state : e_state;
  c_lhs : nat;
  c_lhsalias : option text;
  c_rhs : list (nat * option text);
  c_fallback : option nat;
  c_class : nat;
  c_slot : option slot;
  c_insertLine : bool;
  c_linenoslot : option nat;
  c_assoc : e_assoc
}.

Record pst : Type := mkPst { p_c : ctl; p_g : gram }.

(** The parameters of a run: lem.ignorePrec (-u), nolinenosflag (-l), filename. *)
Record ropts : Type := mkRopts { ro_ignorePrec : bool; ro_nolinenos : bool; ro_filename : text }.

Definition set_state (s : e_state) (c : ctl) : ctl :=
  mkCtl s (c_lhs c) (c_lhsalias c) (c_rhs c) (c_fallback c) (c_class c) (c_slot c) (c_insertLine c) (c_linenoslot c) (c_assoc c).
Definition set_lhs (s : e_state) (l : nat) (a : option text) (r : list (nat * option text)) (c : ctl) : ctl :=
  mkCtl s l a r (c_fallback c) (c_class c) (c_slot c) (c_insertLine c) (c_linenoslot c) (c_assoc c).
Definition set_rhs (s : e_state) (r : list (nat * option text)) (c : ctl) : ctl := set_lhs s (c_lhs c) (c_lhsalias c) r c.
Definition set_fallback (f : option nat) (c : ctl) : ctl :=
  mkCtl (c_state c) (c_lhs c) (c_lhsalias c) (c_rhs c) f (c_class c) (c_slot c) (c_insertLine c) (c_linenoslot c) (c_assoc c).
Definition set_class (s : e_state) (k : nat) (c : ctl) : ctl :=
  mkCtl s (c_lhs c) (c_lhsalias c) (c_rhs c) (c_fallback c) k (c_slot c) (c_insertLine c) (c_linenoslot c) (c_assoc c).
Definition set_slot (s : e_state) (k : option slot) (il : bool) (ln : option nat) (c : ctl) : ctl :=
  mkCtl s (c_lhs c) (c_lhsalias c) (c_rhs c) (c_fallback c) (c_class c) k il ln (c_assoc c).
Definition set_assoc (s : e_state) (a : e_assoc) (c : ctl) : ctl :=
  mkCtl s (c_lhs c) (c_lhsalias c) (c_rhs c) (c_fallback c) (c_class c) (c_slot c) (c_insertLine c) (c_linenoslot c) a.

Definition add_err (g : gram) : gram :=
  mkGram (S (gr_err g)) (gr_syms g) (gr_rules g) (gr_slots g) (gr_wildcard g) (gr_yaccPrec g) (gr_preccounter g).
Definition set_syms (l : list sobj) (g : gram) : gram :=
  mkGram (gr_err g) l (gr_rules g) (gr_slots g) (gr_wildcard g) (gr_yaccPrec g) (gr_preccounter g).
Definition set_rules (l : list rrule) (g : gram) : gram :=
  mkGram (gr_err g) (gr_syms g) l (gr_slots g) (gr_wildcard g) (gr_yaccPrec g) (gr_preccounter g).
Definition set_slots (l : list (gslot * text)) (g : gram) : gram :=
  mkGram (gr_err g) (gr_syms g) (gr_rules g) l (gr_wildcard g) (gr_yaccPrec g) (gr_preccounter g).
Definition set_wildcard (w : option nat) (g : gram) : gram :=
  mkGram (gr_err g) (gr_syms g) (gr_rules g) (gr_slots g) w (gr_yaccPrec g) (gr_preccounter g).
Definition set_yaccPrec (g : gram) : gram :=
  mkGram (gr_err g) (gr_syms g) (gr_rules g) (gr_slots g) (gr_wildcard g) true (gr_preccounter g).
Definition next_prec (g : gram) : gram :=
  mkGram (gr_err g) (gr_syms g) (gr_rules g) (gr_slots g) (gr_wildcard g) (gr_yaccPrec g) (S (gr_preccounter g)).

(** lemon/lemon.c:6120-6133 Symbol_find, by name. *)
Fixpoint find_from (i : nat) (x : text) (l : list sobj) : option nat :=
  match l with
  | [] => None
  | s :: r => if so_named s && streq (so_name s) x then Some i else find_from (S i) x r
  end.
Definition sym_find (x : text) (l : list sobj) : option nat := find_from 0 x l.

(** lemon/lemon.c:5955-5980 Symbol_new *)
Definition new_obj (x : text) : sobj :=
  mkSobj x true (if isupper (ch x 0) then TERMINAL else NONTERMINAL) None UNK None [] None 0%Z None.
Definition sym_new (x : text) (l : list sobj) : nat * list sobj :=
  match sym_find x l with Some i => (i, l) | None => (List.length l, l ++ [new_obj x]) end.

(** Stores into one field of a symbol. *)
Definition with_prec (n : nat) (a : e_assoc) (s : sobj) : sobj :=
  mkSobj (so_name s) (so_named s) (so_type s) (Some n) a (so_fallback s) (so_sub s) (so_destr s) (so_destln s) (so_dtype s).
Definition with_fallback (f : nat) (s : sobj) : sobj :=
  mkSobj (so_name s) (so_named s) (so_type s) (so_prec s) (so_assoc s) (Some f) (so_sub s) (so_destr s) (so_destln s) (so_dtype s).
Definition with_type_sub (t : symtype) (l : list nat) (s : sobj) : sobj :=
  mkSobj (so_name s) (so_named s) t (so_prec s) (so_assoc s) (so_fallback s) l (so_destr s) (so_destln s) (so_dtype s).
Definition with_destr (d : text) (s : sobj) : sobj :=
  mkSobj (so_name s) (so_named s) (so_type s) (so_prec s) (so_assoc s) (so_fallback s) (so_sub s) (Some d) (so_destln s) (so_dtype s).
Definition with_destln (n : Z) (s : sobj) : sobj :=
  mkSobj (so_name s) (so_named s) (so_type s) (so_prec s) (so_assoc s) (so_fallback s) (so_sub s) (so_destr s) n (so_dtype s).
Definition with_dtype (d : text) (s : sobj) : sobj :=
  mkSobj (so_name s) (so_named s) (so_type s) (so_prec s) (so_assoc s) (so_fallback s) (so_sub s) (so_destr s) (so_destln s) (Some d).

(** The keywords of lemon/lemon.c:2582-2660 *)
Inductive kw : Type :=
| KSlot (s : gslot) (insertLine : bool) | KAssoc (a : e_assoc) | KDestructor | KType | KFallback | KToken | KWildcard | KClass | KYaccPrec.
Definition keywords : list (text * kw) :=
  map (fun p => (zs (fst p), snd p))
   [("name"%string, KSlot Gname false); ("include"%string, KSlot Ginclude true); ("code"%string, KSlot Gextracode true);
    ("token_destructor"%string, KSlot Gtokendest true); ("default_destructor"%string, KSlot Gvardest true);
    ("token_prefix"%string, KSlot Gtokenprefix false); ("syntax_error"%string, KSlot Gerror true);
    ("parse_accept"%string, KSlot Gaccept true); ("parse_failure"%string, KSlot Gfailure true);
    ("stack_overflow"%string, KSlot Goverflow true); ("extra_argument"%string, KSlot Garg false);
    ("extra_context"%string, KSlot Gctx false); ("token_type"%string, KSlot Gtokentype false);
    ("default_type"%string, KSlot Gvartype false); ("stack_size"%string, KSlot Gstacksize false);
    ("expect"%string, KSlot Gexpect false); ("start_symbol"%string, KSlot Gstart false);
    ("left"%string, KAssoc LEFT); ("right"%string, KAssoc RIGHT); ("nonassoc"%string, KAssoc NONE);
    ("precedence"%string, KAssoc PRECEDENCE); ("destructor"%string, KDestructor); ("type"%string, KType);
    ("fallback"%string, KFallback); ("token"%string, KToken); ("wildcard"%string, KWildcard);
    ("token_class"%string, KClass); ("yacc_prec"%string, KYaccPrec)].
Fixpoint kw_find (x : text) (l : list (text * kw)) : option kw :=
  match l with [] => None | (y, k) :: r => if streq x y then Some k else kw_find x r end.

Fixpoint slot_get (s : gslot) (l : list (gslot * text)) : option text :=
  match l with [] => None | (s', v) :: r => if gslot_beq s s' then Some v else slot_get s r end.

(** *psp->declargslot *)
Definition get_slot (s : slot) (g : gram) : res (option text) :=
  match s with
  | SLem k => Ok (slot_get k (gr_slots g))
  | SDestr i => o <- opt (nth_error (gr_syms g) i) ;; Ok (so_destr o)
  | SDtype i => o <- opt (nth_error (gr_syms g) i) ;; Ok (so_dtype o)
  end.
Definition put_slot (s : slot) (v : text) (g : gram) : res gram :=
  match s with
  | SLem k => Ok (set_slots ((k, v) :: gr_slots g) g)
  | SDestr i => o <- opt (nth_error (gr_syms g) i) ;; Ok (set_syms (upd (gr_syms g) i (with_destr v o)) g)
  | SDtype i => o <- opt (nth_error (gr_syms g) i) ;; Ok (set_syms (upd (gr_syms g) i (with_dtype v o)) g)
  end.

(** The decimal digits of a line number: "%d". *)
Fixpoint digits (fuel : nat) (n : Z) (acc : text) : text :=
  match fuel with
  | 0 => acc
  | S f => let acc := (48 + n mod 10)%Z :: acc in if (n <? 10)%Z then acc else digits f (n / 10)%Z acc
  end.
Definition show_line (n : Z) : text := zs "#line " ++ digits 10 n [] ++ [32]%Z.

(** lemon/lemon.c:2745-2758: the file name with doubled backslashes. *)
Fixpoint escaped (z : text) : text :=
  match z with [] => [] | c :: r => if (c =? 92)%Z then 92%Z :: 92%Z :: escaped r else c :: escaped r end.

(** lemon/lemon.c:2738-2762: what is appended in front of the argument. *)
Definition line_macro (old : text) (line : Z) (filename : text) : text :=
  (if (0 <? List.length old) && negb (nth (List.length old - 1) old 0 =? 10)%Z then [10]%Z else []) ++
  show_line line ++ [34]%Z ++ escaped filename ++ [34; 10]%Z.

(** lemon/lemon.c:2717-2777: what the field holds afterwards. *)
Definition decl_text (add : bool) (line : Z) (filename old zNew : text) : text :=
  old ++ (if add then line_macro old line filename else []) ++ zNew.

(** lemon/lemon.c:2729-2746: n, the size realloc is asked for. *)
Definition decl_size (add : bool) (line : Z) (filename old zNew : text) : nat :=
  List.length old + List.length zNew + 20 +
  (if add then List.length (show_line line) + List.length filename + count_occ Z.eq_dec filename 92%Z else 0).

(** lemon/lemon.c:2731-2777, the case of a legal argument. *)
Definition decl_arg (o : ropts) (line : Z) (x : text) (c : ctl) (g : gram) : res gram :=
  let zNew := if (ch x 0 =? 34)%Z || (ch x 0 =? 123)%Z then tl x else x in
  s <- opt (c_slot c) ;;
  old <- get_slot s g ;;
  let zOld := match old with Some v => v | None => [] end in
  destln <- match c_linenoslot c with None => Ok None | Some i => y <- opt (nth_error (gr_syms g) i) ;; Ok (Some (i, so_destln y)) end ;;
  let add := negb (ro_nolinenos o) && c_insertLine c && (1 <? line)%Z
             && match destln with None => true | Some (_, d) => negb (d =? 0)%Z end in
  let g1 := match destln with
            | Some (i, 0%Z) => match nth_error (gr_syms g) i with Some y => set_syms (upd (gr_syms g) i (with_destln line y)) g | None => g end
            | _ => g
            end in
  put_slot s (decl_text add line (ro_filename o) zOld zNew) g1.

Definition MAXRHS : nat := 1000.

(** The last element of the right side: psp->rhs[psp->nrhs-1] *)
Fixpoint last_rhs (l : list (nat * option text)) : option (nat * option text) :=
  match l with [] => None | [a] => Some a | _ :: r => last_rhs r end.
Definition upd_last (f : nat * option text -> nat * option text) (l : list (nat * option text)) : list (nat * option text) :=
  match last_rhs l with Some a => removelast l ++ [f a] | None => l end.

(** lemon/lemon.c:2521-2545: |X or /X after a symbol of the right side. *)
Definition rhs_compound (x : text) (c : ctl) (g : gram) : res pst :=
  a <- opt (last_rhs (c_rhs c)) ;;
  msp <- opt (nth_error (gr_syms g) (fst a)) ;;
  let '(m, l1) :=
    match so_type msp with
    | MULTITERMINAL => (fst a, gr_syms g)
    | _ => (List.length (gr_syms g), gr_syms g ++ [mkSobj (so_name msp) false MULTITERMINAL (Some 0) LEFT None [fst a] None 0%Z None])
    end in
  let (i, l2) := sym_new (tl x) l1 in
  mo <- opt (nth_error l2 m) ;;
  let l3 := upd l2 m (with_type_sub (so_type mo) (so_sub mo ++ [i]) mo) in
  let c1 := set_rhs IN_RHS (upd_last (fun a => (m, snd a)) (c_rhs c)) c in
  k0 <- opt (nth_error (so_sub mo ++ [i]) 0) ;;
  o0 <- opt (nth_error l3 k0) ;;
  let g1 := set_syms l3 g in
  Ok (mkPst c1 (if islower (ch x 1) || islower (ch (so_name o0) 0) then add_err g1 else g1)).

(** lemon/lemon.c:2346-2891 parseonetoken *)
Definition parseonetoken (o : ropts) (line : Z) (x : text) (p : pst) : res pst :=
  let c := p_c p in
  let g := p_g p in
  let go s := Ok (mkPst (set_state s c) g) in
  let err s := Ok (mkPst (set_state s c) (add_err g)) in
  let x0 := ch x 0 in
  match c_state c with
  | INITIALIZE | WAITING_FOR_DECL_OR_RULE =>
      (* INITIALIZE also clears prevrule, preccounter, firstrule, lastrule and nrule,
         which are clear as long as the parser is in this state *)
      if (x0 =? 37)%Z then go WAITING_FOR_DECL_KEYWORD
      else if islower x0 then
        let (i, l) := sym_new x (gr_syms g) in
        Ok (mkPst (set_lhs WAITING_FOR_ARROW i None [] c) (set_syms l g))
      else if (x0 =? 123)%Z then
        match gr_rules g with
        | [] => err (c_state c)
        | rp :: rest =>
            match rr_code rp with
            | Some _ => err (c_state c)
            | None =>
                let rp1 :=
                  if streq x (zs "{NEVER-REDUCE") then
                    mkRrule (rr_lhs rp) (rr_lhsalias rp) (rr_rhs rp) (rr_precsym rp) None (rr_line rp) true
                  else mkRrule (rr_lhs rp) (rr_lhsalias rp) (rr_rhs rp) (rr_precsym rp) (Some (tl x)) line (rr_never rp) in
                Ok (mkPst c (set_rules (rp1 :: rest) g))
            end
        end
      else if (x0 =? 91)%Z then go PRECEDENCE_MARK_1
      else err (c_state c)
  | PRECEDENCE_MARK_1 =>
      if negb (isupper x0) then err PRECEDENCE_MARK_2
      else
        match gr_rules g with
        | [] => err PRECEDENCE_MARK_2
        | rp :: rest =>
            match rr_precsym rp with
            | Some _ => err PRECEDENCE_MARK_2
            | None =>
                if ro_ignorePrec o then go PRECEDENCE_MARK_2
                else
                  let (i, l) := sym_new x (gr_syms g) in
                  let rp1 := mkRrule (rr_lhs rp) (rr_lhsalias rp) (rr_rhs rp) (Some i) (rr_code rp) (rr_line rp) (rr_never rp) in
                  Ok (mkPst (set_state PRECEDENCE_MARK_2 c) (set_rules (rp1 :: rest) (set_syms l g)))
            end
        end
  | PRECEDENCE_MARK_2 =>
      if negb (x0 =? 93)%Z then err WAITING_FOR_DECL_OR_RULE else go WAITING_FOR_DECL_OR_RULE
  | WAITING_FOR_ARROW =>
      if (x0 =? 58)%Z && (ch x 1 =? 58)%Z && (ch x 2 =? 61)%Z then go IN_RHS
      else if (x0 =? 40)%Z then go LHS_ALIAS_1
      else err RESYNC_AFTER_RULE_ERROR
  | LHS_ALIAS_1 =>
      if isalpha x0 then Ok (mkPst (set_lhs LHS_ALIAS_2 (c_lhs c) (Some x) (c_rhs c) c) g)
      else err RESYNC_AFTER_RULE_ERROR
  | LHS_ALIAS_2 => if (x0 =? 41)%Z then go LHS_ALIAS_3 else err RESYNC_AFTER_RULE_ERROR
  | LHS_ALIAS_3 =>
      if (x0 =? 58)%Z && (ch x 1 =? 58)%Z && (ch x 2 =? 61)%Z then go IN_RHS else err RESYNC_AFTER_RULE_ERROR
  | IN_RHS =>
      if (x0 =? 46)%Z then
        Ok (mkPst (set_state WAITING_FOR_DECL_OR_RULE c)
              (set_rules (mkRrule (c_lhs c) (c_lhsalias c) (c_rhs c) None None 0%Z false :: gr_rules g) g))
      else if isalpha x0 then
        if MAXRHS <=? List.length (c_rhs c) then err RESYNC_AFTER_RULE_ERROR
        else
          let (i, l) := sym_new x (gr_syms g) in
          Ok (mkPst (set_rhs IN_RHS (c_rhs c ++ [(i, None)]) c) (set_syms l g))
      else if ((x0 =? 124)%Z || (x0 =? 47)%Z) && (0 <? List.length (c_rhs c)) && isupper (ch x 1) then
        rhs_compound x c g
      else if (x0 =? 40)%Z && (0 <? List.length (c_rhs c)) then go RHS_ALIAS_1
      else err RESYNC_AFTER_RULE_ERROR
  | RHS_ALIAS_1 =>
      if isalpha x0 then Ok (mkPst (set_rhs RHS_ALIAS_2 (upd_last (fun a => (fst a, Some x)) (c_rhs c)) c) g)
      else err RESYNC_AFTER_RULE_ERROR
  | RHS_ALIAS_2 => if (x0 =? 41)%Z then go IN_RHS else err RESYNC_AFTER_RULE_ERROR
  | WAITING_FOR_DECL_KEYWORD =>
      if isalpha x0 then
        match kw_find x keywords with
        | Some (KSlot s il) => Ok (mkPst (set_slot WAITING_FOR_DECL_ARG (Some (SLem s)) il None c) g)
        | Some (KAssoc a) => Ok (mkPst (set_assoc WAITING_FOR_PRECEDENCE_SYMBOL a (set_slot WAITING_FOR_DECL_ARG None true None c)) (next_prec g))
        | Some KDestructor => Ok (mkPst (set_slot WAITING_FOR_DESTRUCTOR_SYMBOL None true None c) g)
        | Some KType => Ok (mkPst (set_slot WAITING_FOR_DATATYPE_SYMBOL None true None c) g)
        | Some KFallback => Ok (mkPst (set_fallback None (set_slot WAITING_FOR_FALLBACK_ID None true None c)) g)
        | Some KToken => Ok (mkPst (set_slot WAITING_FOR_TOKEN_NAME None true None c) g)
        | Some KWildcard => Ok (mkPst (set_slot WAITING_FOR_WILDCARD_ID None true None c) g)
        | Some KClass => Ok (mkPst (set_slot WAITING_FOR_CLASS_ID None true None c) g)
        | Some KYaccPrec => Ok (mkPst (set_slot WAITING_FOR_DECL_OR_RULE None false None c) (set_yaccPrec g))
        | None => Ok (mkPst (set_slot RESYNC_AFTER_DECL_ERROR None true None c) (add_err g))
        end
      else err RESYNC_AFTER_DECL_ERROR
  | WAITING_FOR_DESTRUCTOR_SYMBOL =>
      if negb (isalpha x0) then err RESYNC_AFTER_DECL_ERROR
      else
        let (i, l) := sym_new x (gr_syms g) in
        Ok (mkPst (set_slot WAITING_FOR_DECL_ARG (Some (SDestr i)) true (Some i) c) (set_syms l g))
  | WAITING_FOR_DATATYPE_SYMBOL =>
      if negb (isalpha x0) then err RESYNC_AFTER_DECL_ERROR
      else
        let (i, l) := sym_new x (gr_syms g) in
        so <- opt (nth_error l i) ;;
        match so_dtype so with
        | Some _ => err RESYNC_AFTER_DECL_ERROR
        | None => Ok (mkPst (set_slot WAITING_FOR_DECL_ARG (Some (SDtype i)) false (c_linenoslot c) c) (set_syms l g))
        end
  | WAITING_FOR_PRECEDENCE_SYMBOL =>
      if (x0 =? 46)%Z then go WAITING_FOR_DECL_OR_RULE
      else if isupper x0 then
        if ro_ignorePrec o then Ok p
        else
          let (i, l) := sym_new x (gr_syms g) in
          so <- opt (nth_error l i) ;;
          match so_prec so with
          | Some _ => Ok (mkPst c (add_err (set_syms l g)))
          | None => Ok (mkPst c (set_syms (upd l i (with_prec (gr_preccounter g) (c_assoc c) so)) g))
          end
      else err (c_state c)
  | WAITING_FOR_DECL_ARG =>
      if (x0 =? 123)%Z || (x0 =? 34)%Z || isalnum x0 then
        g1 <- decl_arg o line x c g ;; Ok (mkPst (set_state WAITING_FOR_DECL_OR_RULE c) g1)
      else err RESYNC_AFTER_DECL_ERROR
  | WAITING_FOR_FALLBACK_ID =>
      if (x0 =? 46)%Z then go WAITING_FOR_DECL_OR_RULE
      else if negb (isupper x0) then err (c_state c)
      else
        let (i, l) := sym_new x (gr_syms g) in
        match c_fallback c with
        | None => Ok (mkPst (set_fallback (Some i) c) (set_syms l g))
        | Some f =>
            so <- opt (nth_error l i) ;;
            match so_fallback so with
            | Some _ => Ok (mkPst c (add_err (set_syms l g)))
            | None => Ok (mkPst c (set_syms (upd l i (with_fallback f so)) g))
            end
        end
  | WAITING_FOR_TOKEN_NAME =>
      if (x0 =? 46)%Z then go WAITING_FOR_DECL_OR_RULE
      else if negb (isupper x0) then err (c_state c)
      else let (i, l) := sym_new x (gr_syms g) in Ok (mkPst c (set_syms l g))
  | WAITING_FOR_WILDCARD_ID =>
      if (x0 =? 46)%Z then go WAITING_FOR_DECL_OR_RULE
      else if negb (isupper x0) then err (c_state c)
      else
        let (i, l) := sym_new x (gr_syms g) in
        match gr_wildcard g with
        | None => Ok (mkPst c (set_wildcard (Some i) (set_syms l g)))
        | Some _ => Ok (mkPst c (add_err (set_syms l g)))
        end
  | WAITING_FOR_CLASS_ID =>
      if negb (islower x0) then err RESYNC_AFTER_DECL_ERROR
      else
        match sym_find x (gr_syms g) with
        | Some _ => err RESYNC_AFTER_DECL_ERROR
        | None =>
            let (i, l) := sym_new x (gr_syms g) in
            so <- opt (nth_error l i) ;;
            Ok (mkPst (set_class WAITING_FOR_CLASS_TOKEN i c) (set_syms (upd l i (with_type_sub MULTITERMINAL [] so)) g))
        end
  | WAITING_FOR_CLASS_TOKEN =>
      if (x0 =? 46)%Z then go WAITING_FOR_DECL_OR_RULE
      else if isupper x0 || (((x0 =? 124)%Z || (x0 =? 47)%Z) && isupper (ch x 1)) then
        let (i, l) := sym_new (if isupper x0 then x else tl x) (gr_syms g) in
        so <- opt (nth_error l (c_class c)) ;;
        Ok (mkPst c (set_syms (upd l (c_class c) (with_type_sub (so_type so) (so_sub so ++ [i]) so)) g))
      else err RESYNC_AFTER_DECL_ERROR
  | RESYNC_AFTER_RULE_ERROR | RESYNC_AFTER_DECL_ERROR =>
      if (x0 =? 46)%Z then go WAITING_FOR_DECL_OR_RULE
      else if (x0 =? 37)%Z then go WAITING_FOR_DECL_KEYWORD
      else Ok p
  end.

(** The calls of parseonetoken; a message of the scanner is counted as well. *)
Fixpoint feed_tokens (o : ropts) (l : list event) (p : pst) : res pst :=
  match l with
  | [] => Ok p
  | EvErr :: r => feed_tokens o r (mkPst (p_c p) (add_err (p_g p)))
  | EvTok line x :: r => p1 <- parseonetoken o line x p ;; feed_tokens o r p1
  end.

(** memset(&ps,0,sizeof(ps)), and the symbol "$" of main (lemon/lemon.c:1748). *)
Definition init_ctl : ctl := mkCtl INITIALIZE 0 None [] None 0 None false None LEFT.
Definition init_gram : gram := mkGram 0 (snd (sym_new (zs "$") [])) [] [] None false 0.
Definition init_pst : pst := mkPst init_ctl init_gram.

(** lemon/lemon.c:3061-3217 Parse, from the text of the file on; None for the two exits of
    the preprocessor. *)
Definition Parse (defs : list text) (o : ropts) (z : text) : res (option gram) :=
  q <- preprocess_input defs z ;;
  match q with
  | PPdone z1 => l <- scan (S (List.length z1)) 1%Z z1 ;; p <- feed_tokens o l init_pst ;; Ok (Some (p_g p))
  | _ => Ok None
  end.

(** ** What main makes of it (lemon/lemon.c:1752-1786) *)

(** The named symbols as Symbol_arrayof gives them, in the order of their creation. *)
Definition named (g : gram) : list sobj := filter so_named (gr_syms g).
Definition as_lsym (s : sobj) : lsym := mkLsym (so_name s) (so_type s) 0.

(** The place of a name in lem.symbols: the field index. *)
Fixpoint index_from (i : nat) (x : text) (l : list lsym) : option nat :=
  match l with [] => None | s :: r => if streq (ls_name s) x then Some i else index_from (S i) x r end.

(** The index of the symbol object [id]. *)
Definition obj_index (g : gram) (sorted : list lsym) (id : nat) : res nat :=
  s <- opt (nth_error (gr_syms g) id) ;; opt (index_from 0 (so_name s) sorted).

Fixpoint map_res {A B} (f : A -> res B) (l : list A) : res (list B) :=
  match l with [] => Ok [] | a :: r => b <- f a ;; l' <- map_res f r ;; Ok (b :: l') end.

(** An element of a right side as the passes of the generator see it. *)
Definition to_elem (g : gram) (sorted : list lsym) (id : nat) : res elem :=
  s <- opt (nth_error (gr_syms g) id) ;;
  match so_type s with
  | MULTITERMINAL => l <- map_res (obj_index g sorted) (so_sub s) ;; Ok (EMulti l)
  | _ => i <- obj_index g sorted id ;; Ok (ESym i)
  end.
Definition to_rule (g : gram) (sorted : list lsym) (rp : rrule) : res rule :=
  l <- obj_index g sorted (rr_lhs rp) ;;
  r <- map_res (fun a => to_elem g sorted (fst a)) (rr_rhs rp) ;;
  Ok (mkRule l r).

(** lemon/lemon.c:963-975: the start symbol; None with a message. *)
Definition start_id (g : gram) (first : rrule) : nat * nat :=
  match slot_get Gstart (gr_slots g) with
  | Some x => match sym_find x (gr_syms g) with Some i => (i, 0) | None => (rr_lhs first, 1) end
  | None => (rr_lhs first, 0)
  end.

(** lemon/lemon.c:5315-5330: the fallback table, when has_fallback is set. *)
Definition fallback_row (g : gram) (sorted : list lsym) (s : lsym) : res nat :=
  i <- opt (sym_find (ls_name s) (gr_syms g)) ;;
  so <- opt (nth_error (gr_syms g) i) ;;
  match so_fallback so with None => Ok 0 | Some f => obj_index g sorted f end.
Definition fallback_table (g : gram) (sorted : list lsym) (nterminal : nat) : res (option (list nat)) :=
  if existsb (fun s => match so_fallback s with Some _ => true | None => false end) (gr_syms g) then
    l <- map_res (fallback_row g sorted) (firstn nterminal sorted) ;; Ok (Some l)
  else Ok None.

Definition opt_index (g : gram) (sorted : list lsym) (o : option nat) : res (option nat) :=
  match o with None => Ok None | Some id => i <- obj_index g sorted id ;; Ok (Some i) end.

(** Fields of the symbol with a given index. *)
Definition obj_at (g : gram) (sorted : list lsym) (i : nat) : option sobj :=
  match nth_error sorted i with
  | Some s => match sym_find (ls_name s) (gr_syms g) with Some id => nth_error (gr_syms g) id | None => None end
  | None => None
  end.
Definition read_precs (g : gram) (sorted : list lsym) : precs :=
  mkPrecs (fun i => match obj_at g sorted i with Some s => so_prec s | None => None end)
          (fun i => match obj_at g sorted i with Some s => so_assoc s | None => UNK end).

(** The grammar and the settings the generator starts from, and the number of messages
    about the start symbol.  None when main stops: errors, or no rules (1752-1756).
    [o], [compress], [addr1], [addr2] as in LemonPipelineModel. *)
Definition to_grammar (o : ropts) (compress yaccflag : bool) (addr1 addr2 : nat -> nat -> nat) (g0 : gram) : res (option (grammar * opts * nat)) :=
  if negb (gr_err g0 =? 0) then Ok None
  else
    match rev (gr_rules g0) with
    | [] => Ok None
    | (first :: _) as rules =>
        let err := sym_find (zs "error") (gr_syms g0) in
        let g := set_syms (snd (sym_new default_name (gr_syms g0))) g0 in
        '(sorted, nsymbol, nterminal) <- index_symbols (map as_lsym (named g)) ;;
        rs <- map_res (to_rule g sorted) rules ;;
        let (sid, serr) := start_id g first in
        st <- obj_index g sorted sid ;;
        ps <- map_res (fun rp => opt_index g sorted (rr_precsym rp)) rules ;;
        wc <- opt_index g sorted (gr_wildcard g) ;;
        er <- opt_index g sorted err ;;
        fb <- fallback_table g sorted nterminal ;;
        Ok (Some (mkGrammar nterminal nsymbol rs st,
             mkOpts (ro_ignorePrec o) (yaccflag || gr_yaccPrec g) compress (read_precs g sorted) ps
               (map (fun rp => match rr_code rp with None => true | Some _ => false end) rules) wc er fb addr1 addr2,
             serr))
    end.
