(** Specification: the yacc file that declares the grammar of a lemon file. *)
From Coq Require Import String List Arith ZArith Bool.
Import ListNotations.
From Verif Require Import Base LemonTableModel LemonPreModel LemonActionModel LemonReadModel SpecItems SpecFile.
From Verif Require LemonCodeModel ByaccParModel ByaccReaderModel ByaccScanModel Prop_ByaccLiteral SpecByaccFile.
Import SpecByaccFile.

(** The right sides with one token in each place: all choices, the last place varying fastest. *)
Fixpoint choices (l : list nelem) : list (list text) :=
  match l with
  | [] => [[]]
  | NSym x :: r => map (cons x) (choices r)
  | NAlt ys :: r => flat_map (fun y => map (cons y) (choices r)) ys
  end.
(** How many places of a right side have alternatives. *)
Definition alternatives (l : list nelem) : nat := List.length (filter (fun e => match e with NAlt _ => true | NSym _ => false end) l).

(** A right side and what follows %prec, for byacc. *)
Definition yacc_body (prec : option text) (xs : list text) : list fpart :=
  map (fun x => FSym (SName x)) xs ++ match prec with Some x => [FPrec (SName x)] | None => [] end.

(** The associativities of byacc. *)
Definition yacc_assoc (a : e_assoc) : ByaccParModel.bassoc :=
  match a with LEFT => ByaccParModel.LEFT | RIGHT => ByaccParModel.RIGHT | PRECEDENCE => ByaccParModel.PRECEDENCE | _ => ByaccParModel.NONASSOC end.

Section Items.
Variable ign : bool.
Variable items : list item.

Definition item_rules (i : item) : list (text * list fpart) :=
  match i with
  | IRule lhs _ rhs prec _ => map (fun xs => (lhs, yacc_body (if ign then None else prec) xs)) (choices (map (means items) rhs))
  | _ => []
  end.
End Items.
