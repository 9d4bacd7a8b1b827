(** Specification of lemon grammar files as sequences of items: how an item is written as
    tokens, and what a file of items declares.  Only the types [e_assoc] and [gslot] are
    taken from the models. *)
From Coq Require Import String List Arith ZArith Bool Lia.
Import ListNotations.
From Verif Require Import Base LemonTableModel LemonPreModel LemonActionModel LemonReadModel.

(** A symbol of a right side with the alternatives joined to it by bars, and its alias. *)
Record relem : Type := mkRelem { re_name : text; re_alts : list text; re_alias : option text }.

Inductive item : Type :=
| IRule (lhs : text) (lalias : option text) (rhs : list relem) (prec code : option text)
| IAssoc (a : e_assoc) (l : list text)
| IFallback (f : text) (l : list text)
| IToken (l : list text)
| IWildcard (x : text)
| IClass (c : text) (l : list text)
| IText (s : gslot) (arg : text)
| IDestructor (x arg : text)
| IType (x arg : text)
| IYaccPrec.

(** ** Tokens *)
Definition dot : text := zs ".".
Definition alias_tokens (a : option text) : list text :=
  match a with None => [] | Some x => [zs "("; x; zs ")"] end.
Definition relem_tokens (e : relem) : list text :=
  re_name e :: map (fun y => zs "|" ++ y) (re_alts e) ++ alias_tokens (re_alias e).
Definition assoc_word (a : e_assoc) : text :=
  zs (match a with LEFT => "left" | RIGHT => "right" | NONE => "nonassoc" | PRECEDENCE => "precedence" | UNK => "" end)%string.
Definition slot_word (s : gslot) : text :=
  zs (match s with
  | Gname => "name" | Ginclude => "include" | Gextracode => "code" | Gtokendest => "token_destructor"
  | Gvardest => "default_destructor" | Gtokenprefix => "token_prefix" | Gerror => "syntax_error"
  | Gaccept => "parse_accept" | Gfailure => "parse_failure" | Goverflow => "stack_overflow"
  | Garg => "extra_argument" | Gctx => "extra_context" | Gtokentype => "token_type" | Gvartype => "default_type"
  | Gstacksize => "stack_size" | Gexpect => "expect" | Gstart => "start_symbol"
  end)%string.
Definition decl (w : text) (l : list text) : list text := zs "%" :: w :: l ++ [dot].
Definition item_tokens (i : item) : list text :=
  match i with
  | IRule lhs la rhs prec code =>
      lhs :: alias_tokens la ++ [zs "::="] ++ flat_map relem_tokens rhs ++ [dot] ++
      match prec with None => [] | Some x => [zs "["; x; zs "]"] end ++
      match code with None => [] | Some c => [c] end
  | IAssoc a l => decl (assoc_word a) l
  | IFallback f l => decl (zs "fallback") (f :: l)
  | IToken l => decl (zs "token") l
  | IWildcard x => decl (zs "wildcard") [x]
  | IClass c l => decl (zs "token_class") (c :: l)
  | IText s arg => [zs "%"; slot_word s; arg]
  | IDestructor x arg => [zs "%"; zs "destructor"; x; arg]
  | IType x arg => [zs "%"; zs "type"; x; arg]
  | IYaccPrec => [zs "%"; zs "yacc_prec"]
  end.

(** ** Declarations.  [ign] is the option -u, which skips precedences. *)
Definition eqt (x y : text) : bool := if list_eq_dec Z.eq_dec x y then true else false.
Definition mem (x : text) (l : list text) : bool := existsb (eqt x) l.

(** The symbols in the order they are mentioned. *)
Definition mentions (ign : bool) (i : item) : list text :=
  match i with
  | IRule lhs _ rhs prec _ =>
      lhs :: flat_map (fun e => re_name e :: re_alts e) rhs ++ match prec with Some x => if ign then [] else [x] | None => [] end
  | IAssoc _ l => if ign then [] else l
  | IFallback f l => f :: l
  | IToken l => l
  | IWildcard x => [x]
  | IClass c l => c :: l
  | IDestructor x _ | IType x _ => [x]
  | IText _ _ | IYaccPrec => []
  end.
(** First occurrences only. *)
Fixpoint firsts (l : list text) : list text :=
  match l with [] => [] | x :: r => x :: filter (fun y => negb (eqt x y)) (firsts r) end.
Definition symbols_of (ign : bool) (l : list item) : list text := firsts (zs "$" :: flat_map (mentions ign) l).

(** The precedence of a token: the number of the declaration that names it. *)
Fixpoint prec_from (n : nat) (l : list item) (x : text) : option (nat * e_assoc) :=
  match l with
  | [] => None
  | IAssoc a ys :: r => if mem x ys then Some (n, a) else prec_from (S n) r x
  | _ :: r => prec_from n r x
  end.
Definition prec_of (ign : bool) (l : list item) (x : text) : option (nat * e_assoc) := if ign then None else prec_from 1 l x.

Fixpoint fallback_of (l : list item) (x : text) : option text :=
  match l with
  | [] => None
  | IFallback f ys :: r => if mem x ys then Some f else fallback_of r x
  | _ :: r => fallback_of r x
  end.

(** The tokens of a token class. *)
Fixpoint class_of (l : list item) (x : text) : option (list text) :=
  match l with
  | [] => None
  | IClass c ys :: r => if eqt x c then Some ys else class_of r x
  | _ :: r => class_of r x
  end.

Fixpoint wildcard_of (l : list item) : option text :=
  match l with [] => None | IWildcard x :: _ => Some x | _ :: r => wildcard_of r end.

(** The argument without the opening quote or brace. *)
Definition arg_text (x : text) : text := match x with c :: r => if (c =? 34)%Z || (c =? 123)%Z then r else x | [] => [] end.

Fixpoint type_of (l : list item) (x : text) : option text :=
  match l with
  | [] => None
  | IType y arg :: r => if eqt x y then Some (arg_text arg) else type_of r x
  | _ :: r => type_of r x
  end.

(** The arguments of a declaration like %include, put together. *)
Fixpoint slot_args (s : gslot) (l : list item) : list text :=
  match l with
  | [] => []
  | IText s' arg :: r => if gslot_beq s s' then arg_text arg :: slot_args s r else slot_args s r
  | _ :: r => slot_args s r
  end.
Definition slot_text (s : gslot) (l : list item) : option text :=
  match slot_args s l with [] => None | a => Some (concat a) end.
(** The declarations whose argument is code, and gets #line directives unless -l is given. *)
Definition is_code (s : gslot) : bool :=
  match s with
  | Ginclude | Gextracode | Gtokendest | Gvardest | Gerror | Gaccept | Gfailure | Goverflow => true
  | _ => false
  end.

Definition is_rule (i : item) : bool := match i with IRule _ _ _ _ _ => true | _ => false end.

(** ** Correct files *)
Definition upper (x : text) : Prop := isupper (ch x 0) = true.
Definition lower (x : text) : Prop := islower (ch x 0) = true.
Definition alpha (x : text) : Prop := isalpha (ch x 0) = true.
Definition opt_ok (P : text -> Prop) (o : option text) : Prop := match o with Some x => P x | None => True end.
Definition arg_ok (x : text) : Prop := ch x 0 = 123%Z \/ ch x 0 = 34%Z \/ isalnum (ch x 0) = true.

Definition relem_ok (e : relem) : Prop :=
  alpha (re_name e) /\ opt_ok alpha (re_alias e) /\ (re_alts e <> [] -> upper (re_name e) /\ Forall upper (re_alts e)).

(** The names are written as the item asks for: tokens with a capital, other symbols without. *)
Definition item_shape (i : item) : Prop :=
  match i with
  | IRule lhs la rhs prec code =>
      lower lhs /\ opt_ok alpha la /\ Forall relem_ok rhs /\ opt_ok upper prec /\ opt_ok (fun c => ch c 0 = 123%Z) code
  | IAssoc a l => a <> UNK /\ Forall upper l
  | IFallback f l => upper f /\ Forall upper l
  | IToken l => Forall upper l
  | IWildcard x => upper x
  | IClass c l => lower c /\ Forall upper l
  | IText s arg => arg_ok arg
  | IDestructor x arg => alpha x /\ arg_ok arg
  | IType x arg => alpha x /\ arg_ok arg
  | IYaccPrec => True
  end.
(** [item_new ign pre i]: the item declares nothing that the items [pre] or itself declare
    already, and its right side is not too long. *)
Definition item_new (ign : bool) (pre : list item) (i : item) : Prop :=
  match i with
  | IRule _ _ rhs _ _ => length rhs <= 1000
  | IAssoc _ l => ign = false -> NoDup l /\ forall x, In x l -> prec_of ign pre x = None
  | IFallback _ l => NoDup l /\ forall x, In x l -> fallback_of pre x = None
  | IWildcard _ => wildcard_of pre = None
  | IClass c _ => ~ In c (symbols_of ign pre)
  | IType x _ => type_of pre x = None
  | _ => True
  end.
Definition items_new (ign : bool) (l : list item) : Prop := forall pre i post, l = pre ++ i :: post -> item_new ign pre i.
