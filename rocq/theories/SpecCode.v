(** What the code of a rule becomes: the words of a C text, the labels of a rule, and where the values of
    the symbols lie on the parser's stack.  Written against the documentation of lemon and the comments of
    translate_code, not against its loop. *)
From Coq Require Import List Arith ZArith Bool Lia String.
Import ListNotations.
From Verif Require Import Base LemonPreModel LemonCodeModel Prop_LemonPrintf.

Definition txt_dec : forall a b : txt, {a = b} + {a <> b} := list_eq_dec Z.eq_dec.

(** * Words *)

(** A text is a sequence of words, which are letters followed by letters, digits and "_", and of other
    characters.  Words are as long as possible: no word character stands beside a word, and a letter that is
    not in a word has a word character before it (as in "1a" or "_a"). *)
Inductive wpiece : Type := W (w : txt) | O (c : Z).

Definition wspell1 (p : wpiece) : txt := match p with W w => w | O c => [c] end.
Definition wspell (ps : list wpiece) : txt := flat_map wspell1 ps.

Definition is_word (w : txt) : Prop := exists c r, w = c :: r /\ isalpha c = true /\ Forall (fun c => wordch c = true) r.

Definition wf_piece (p : wpiece) : Prop := match p with W w => is_word w | O c => c <> 0%Z end.

Definition fits (p q : wpiece) : Prop :=
  match p, q with
  | W _, W _ => False
  | W _, O c => wordch c = false
  | O c, W _ => wordch c = false
  | O c, O d => isalpha d = true -> wordch c = true
  end.

Fixpoint fits_all (p : wpiece) (ps : list wpiece) : Prop :=
  match ps with [] => True | q :: r => fits p q /\ fits_all q r end.

(** The text [t] is cut into [ps]; the text begins as if a blank stood before it. *)
Definition cut (t : txt) (ps : list wpiece) : Prop := wspell ps = t /\ Forall wf_piece ps /\ fits_all (O 32%Z) ps.

(** * Labels *)

Definition num (v : Z) : txt := (if (v <? 0)%Z then [45%Z] else []) ++ dec (Z.abs_N v).

(** The i-th symbol of the right-hand side is the first one labelled [w]. *)
Fixpoint first_label (rhs : list (csym * option txt)) (w : txt) : option nat :=
  match rhs with
  | [] => None
  | (_, a) :: r =>
      match a with
      | Some b => if txt_dec b w then Some 0 else option_map S (first_label r w)
      | None => option_map S (first_label r w)
      end
  end.

Inductive meaning : Type := Lhs | Rhs (i : nat) | Plain.

(** What a word of the code stands for: the label of the left-hand side goes first. *)
Definition means (r : crule) (w : txt) : meaning :=
  match cr_lhsalias r with
  | Some l => if txt_dec l w then Lhs else match first_label (cr_rhs r) w with Some i => Rhs i | None => Plain end
  | None => match first_label (cr_rhs r) w with Some i => Rhs i | None => Plain end
  end.

(** * Where the values lie *)

(** When a rule with n symbols is reduced, the i-th of them lies n-1-i entries below the top. *)
Definition slot (r : crule) (i : nat) : Z := (- Z.of_nat (List.length (cr_rhs r) - 1 - i))%Z.

(** A class of terminals has the type of its first member. *)
Definition type_of (s : csym) : Z := match cs_type s with SMulti => cs_sub0 s | _ => cs_dtnum s end.

Definition value_at (k dt : Z) : txt := zs "yymsp[" ++ num k ++ zs "].minor.yy" ++ num dt.
Definition major_at (k : Z) : txt := zs "yymsp[" ++ num k ++ zs "].major".
Definition destroy (s : csym) (k : Z) : txt := zs "  yy_destructor(yypParser," ++ num (cs_index s) ++ zs ",&yymsp[" ++ num k ++ zs "].minor);" ++ [10%Z].

Definition dummy_sym : csym := mkSym STerminal 0 0 false 0.
Definition sym_at (r : crule) (i : nat) : csym := fst (nth i (cr_rhs r) (dummy_sym, None)).
Definition label_at (r : crule) (i : nat) : option txt := snd (nth i (cr_rhs r) (dummy_sym, None)).

(** The comment by which the user says that the left-hand side may overwrite the first symbol on the right;
    it only matters if both have labels and the labels differ. *)
Definition comment (r : crule) : option txt :=
  match cr_lhsalias r, cr_rhs r with
  | Some l, (_, Some a) :: _ => if txt_dec l a then None else Some (zs "/*" ++ l ++ zs "-overwrites-" ++ a ++ zs "*/")
  | _, _ => None
  end.

(** The label of the left-hand side is also that of the first symbol on the right. *)
Definition shared (r : crule) : Prop := exists l s rest, cr_lhsalias r = Some l /\ cr_rhs r = (s, Some l) :: rest.

(** The code is one text without the comment, or a text, the first comment and another text. *)
Definition laid_out (r : crule) (code : txt) (pa : list wpiece) (pb : option (list wpiece)) : Prop :=
  match pb with
  | None => cut code pa /\ (forall c a b, comment r = Some c -> code <> a ++ c ++ b)
  | Some pb => exists c a b, comment r = Some c /\ code = a ++ c ++ b /\ cut a pa /\ cut b pb /\
                 (forall a' b', code = a' ++ c ++ b' -> List.length a <= List.length a')
  end.

(** The value of the left-hand side is put where the first symbol on the right is, unless that symbol may
    still be read. *)
Definition direct (r : crule) (pb : option (list wpiece)) : bool :=
  match comment r, pb with Some _, None => false | _, _ => true end.

Definition lhs_text (r : crule) (dir : bool) : txt :=
  if dir then value_at (1 - Z.of_nat (List.length (cr_rhs r))) (cs_dtnum (cr_lhs r)) else zs "yylhsminor.yy" ++ num (cs_dtnum (cr_lhs r)).

(** The code with the labels replaced.  "@" before the label of a symbol on the right asks for the token
    number instead of the value.  [late] is the part behind the comment, where the label of the first symbol is an
    error and left out. *)
Fixpoint render (r : crule) (dir late : bool) (ps : list wpiece) : txt :=
  match ps with
  | [] => []
  | p :: q =>
      match p with
      | W w =>
          match means r w with
          | Lhs => lhs_text r dir
          | Rhs i => if ((i =? 0) && late)%bool then [] else value_at (slot r i) (type_of (sym_at r i))
          | Plain => w
          end ++ render r dir late q
      | O c =>
          match q with
          | W w :: q' =>
              match means r w with
              | Rhs i => if ((c =? 64)%Z && negb ((i =? 0) && late))%bool then major_at (slot r i) ++ render r dir late q' else c :: render r dir late q
              | _ => c :: render r dir late q
              end
          | _ => c :: render r dir late q
          end
      end
  end.

(** The last piece is not a label. *)
Definition no_label_last (r : crule) (ps : list wpiece) : Prop := forall qs w, ps = qs ++ [W w] -> means r w = Plain.

Definition later (pb : option (list wpiece)) : list wpiece := match pb with Some l => l | None => [] end.

Definition new_code (r : crule) (pa : list wpiece) (pb : option (list wpiece)) : txt :=
  render r (direct r pb) false pa ++ match pb, comment r with Some l, Some c => c ++ render r true true l | _, _ => [] end.

(** The i-th symbol loses its value without the code having a name for it. *)
Definition lost (td vd : bool) (r : crule) (i : nat) : bool :=
  match label_at r i with None => match cs_type (sym_at r i) with STerminal => td | _ => vd || cs_dest (sym_at r i) end | Some _ => false end.

Definition destroyed (td vd : bool) (r : crule) (i : nat) : txt := if lost td vd r i then destroy (sym_at r i) (slot r i) else [].

(** What goes before and after the code: the first symbol is destroyed before, as the left-hand side takes its
    place, the others after; the left-hand side is moved into place last. *)
Definition before (td vd : bool) (r : crule) : txt := match cr_rhs r with [] => [] | _ => destroyed td vd r 0 end.
Definition after (td vd : bool) (r : crule) (dir : bool) : txt :=
  flat_map (destroyed td vd r) (seq 1 (List.length (cr_rhs r) - 1)) ++
  if dir then [] else zs "  yymsp[" ++ num (1 - Z.of_nat (List.length (cr_rhs r))) ++ zs "].minor.yy" ++ num (cs_dtnum (cr_lhs r)) ++ zs " = " ++ lhs_text r false ++ zs ";" ++ [10%Z].

Definition some_text (t : txt) : option txt := match t with [] => None | _ => Some t end.

(** * What is reported *)

Inductive misuse (r : crule) (pa : list wpiece) (pb : option (list wpiece)) : cmsg -> Prop :=
| mu_types : shared r -> cs_dtnum (cr_lhs r) <> cs_dtnum (sym_at r 0) -> misuse r pa pb MDatatypes
| mu_after w : In (W w) (later pb) -> means r w = Rhs 0 -> misuse r pa pb MAfter
| mu_lhs l : cr_lhsalias r = Some l -> ~ shared r -> ~ In (W l) (pa ++ later pb) -> misuse r pa pb MLhsUnused
| mu_same i l : 0 < i -> cr_lhsalias r = Some l -> label_at r i = Some l -> misuse r pa pb (MSameLhs i)
| mu_twice i j l : j < i -> label_at r j = Some l -> label_at r i = Some l -> misuse r pa pb (MTwice i)
| mu_unused i l : label_at r i = Some l -> (i = 0 -> ~ shared r) -> (forall w, In (W w) (pa ++ later pb) -> means r w <> Rhs i) -> misuse r pa pb (MUnused i).

(** * Rules as the reader of lemon makes them *)

Record rule_ok (r : crule) : Prop := {
  ro_len : List.length (cr_rhs r) <= 1000;
  ro_lhs : forall l, cr_lhsalias r = Some l -> is_word l;
  ro_rhs : forall s a, In (s, Some a) (cr_rhs r) -> is_word a;
  ro_ints : Forall (fun v => (- 2 ^ 31 < v < 2 ^ 31)%Z) (cs_dtnum (cr_lhs r) :: flat_map (fun x => [cs_index (fst x); cs_dtnum (fst x); cs_sub0 (fst x)]) (cr_rhs r));
  ro_room : forall c, comment r = Some c -> List.length c < 900
}.
