(** Specification: the language of a grammar file, by the names of its symbols, and the
    codes of the symbols.  The items are those of SpecItems. *)
From Coq Require Import String List Arith ZArith Bool Lia.
Import ListNotations.
From Verif Require Import Base SpecGrammar LemonTableModel LemonPreModel LemonActionModel LemonReadModel SpecItems.

(** ** The language *)

(** A place of a right side: a symbol, or one of several tokens. *)
Inductive nelem : Type := NSym (x : text) | NAlt (l : list text).

Definition means (items : list item) (e : relem) : nelem :=
  match re_alts e with
  | [] => match class_of items (re_name e) with Some ys => NAlt ys | None => NSym (re_name e) end
  | ys => NAlt (re_name e :: ys)
  end.

Inductive nstep (items : list item) : list nelem -> list nelem -> Prop :=
| ns_rule : forall u v lhs la rhs prec code, In (IRule lhs la rhs prec code) items ->
    nstep items (u ++ NSym lhs :: v) (u ++ map (means items) rhs ++ v)
| ns_alt : forall u v l t, In t l -> nstep items (u ++ NAlt l :: v) (u ++ NSym t :: v).

(** The start symbol: that of %start_symbol if it occurs, or the left side of the first rule. *)
Fixpoint first_lhs (items : list item) : text :=
  match items with [] => [] | IRule lhs _ _ _ _ :: _ => lhs | _ :: r => first_lhs r end.
Definition start_of (ign : bool) (items : list item) : text :=
  match slot_text Gstart items with
  | Some x => if mem x (symbols_of ign items) then x else first_lhs items
  | None => first_lhs items
  end.

(** The sentences: the token strings derived from the start symbol. *)
Definition nsentence (ign : bool) (items : list item) (toks : list text) : Prop :=
  Forall upper toks /\ star (nstep items) [NSym (start_of ign items)] (map NSym toks).

(** ** The codes *)
Definition is_class (items : list item) (x : text) : bool := match class_of items x with Some _ => true | None => false end.
Definition terms_of (ign : bool) (items : list item) : list text := filter (fun x => isupper (ch x 0)) (symbols_of ign items).
Definition nonterms_of (ign : bool) (items : list item) : list text :=
  filter (fun x => islower (ch x 0) && negb (is_class items x)) (symbols_of ign items).
Definition classes_of (ign : bool) (items : list item) : list text := filter (is_class items) (symbols_of ign items).

(** "$", the tokens and the nonterminals, each in the order they are first mentioned. *)
Definition order (ign : bool) (items : list item) : list text :=
  zs "$" :: terms_of ign items ++ nonterms_of ign items ++ zs "{default}" :: classes_of ign items.
Fixpoint position (x : text) (l : list text) : nat :=
  match l with [] => 0 | y :: r => if eqt y x then 0 else S (position x r) end.
Definition code_of (ign : bool) (items : list item) (x : text) : nat := position x (order ign items).

(** Files that declare a grammar: there is a rule, no token class is a left side or the
    start symbol, the start symbol is not a token, no token class is empty. *)
Record grammar_file (ign : bool) (items : list item) : Prop := {
  gf_rule : exists i, In i items /\ is_rule i = true;
  gf_lhs : forall lhs la rhs prec code, In (IRule lhs la rhs prec code) items -> class_of items lhs = None;
  gf_start : forall x, slot_text Gstart items = Some x ->
    x <> zs "{default}" /\ (In x (symbols_of ign items) -> lower x /\ class_of items x = None);
  gf_class : forall c l, In (IClass c l) items -> l <> []
}.

(** ** The grammar by codes *)
Section Codes.
Variable ign : bool.
Variable items : list item.
Notation code := (code_of ign items).

Definition elem_of (e : nelem) : elem := match e with NSym x => ESym (code x) | NAlt l => EMulti (map code l) end.
Definition rule_of (i : item) : rule :=
  match i with IRule lhs _ rhs _ _ => mkRule (code lhs) (map elem_of (map (means items) rhs)) | _ => mkRule 0 [] end.
Definition grammar_of : grammar :=
  mkGrammar (1 + length (terms_of ign items)) (1 + length (terms_of ign items) + length (nonterms_of ign items))
    (map rule_of (filter is_rule items)) (code (start_of ign items)).

(** What else is declared, by codes. *)
Definition precsym_of (i : item) : option nat := match i with IRule _ _ _ (Some x) _ => if ign then None else Some (code x) | _ => None end.
Definition nocode_of (i : item) : bool :=
  match i with IRule _ _ _ _ (Some c) => eqt c (zs "{NEVER-REDUCE") | _ => true end.
Definition error_of : option nat := if mem (zs "error") (symbols_of ign items) then Some (code (zs "error")) else None.
Definition fallbacks_of : option (list nat) :=
  if existsb (fun i => match i with IFallback _ (_ :: _) => true | _ => false end) items then
    Some (map (fun x => match fallback_of items x with Some f => code f | None => 0 end) (zs "$" :: terms_of ign items))
  else None.
Definition start_message : nat :=
  match slot_text Gstart items with Some x => if mem x (symbols_of ign items) then 0 else 1 | None => 0 end.
End Codes.
