(** Specification: the files byacc reads, as abstract grammar files and the texts that spell them. *)
From Coq Require Import String List Arith ZArith Bool Lia.
Import ListNotations.
From Verif Require Import Base LemonTableModel LemonPreModel LemonCodeModel ByaccParModel ByaccReaderModel ByaccScanModel Prop_ByaccLiteral.

(** * Text between the words *)

Definition blank (c : Z) : Prop := In c [32; 9; 12; 13; 11; 44; 59; 10]%Z.

(** The inside of a comment: the first star and slash are those that end it. *)
Definition inside (b : txt) : Prop := forall x y, b ++ [42; 47]%Z = x ++ [42; 47]%Z ++ y -> y = [].

Inductive gap : txt -> Prop :=
| G_nil : gap []
| G_blank c g : blank c -> gap g -> gap (c :: g)
| G_star b g : inside b -> gap g -> gap ([47; 42]%Z ++ b ++ [42; 47]%Z ++ g)
| G_line b g : ~ In 10%Z b -> gap g -> gap ([47; 47]%Z ++ b ++ 10%Z :: g).

(** The text begins with a character that is part of no gap, nor the one that is taken for the end. *)
Definition visible (t : txt) : Prop :=
  match t with
  | [] => False
  | c :: r => ~ blank c /\ c <> 255%Z /\ (c = 47%Z -> match r with d :: _ => d <> 47%Z /\ d <> 42%Z | [] => True end)
  end.

Definition percent (c : Z) : Prop := c = 37%Z \/ c = 92%Z.

Definition is_ident (c : Z) : Prop := isalnum c = true \/ c = 95%Z \/ c = 46%Z \/ c = 36%Z.
Definition is_name1 (c : Z) : Prop := isalpha c = true \/ c = 95%Z \/ c = 36%Z.
Definition is_name2 (c : Z) : Prop := isalnum c = true \/ c = 95%Z \/ c = 36%Z.
Definition is_key (c : Z) : Prop := isalnum c = true \/ In c [45; 46; 36; 95]%Z.
Definition not_head (P : Z -> Prop) (t : txt) : Prop := match t with c :: _ => ~ P c | [] => True end.
Definition digit (c : Z) : Prop := (48 <= c <= 57)%Z.

(** The names that may not be used. *)
Definition reserved (n : txt) : Prop :=
  n = zs "." \/ n = zs "$accept" \/ n = zs "$end" \/ exists ds, ds <> [] /\ Forall digit ds /\ n = zs "$$" ++ ds.

(** A symbol: a name or a literal. *)
Inductive fsym : Type := SName (n : txt) | SLit (l : list Z).
Definition sym_name (x : fsym) : txt := match x with SName n => n | SLit l => literal_name l end.

Definition word (n : txt) : Prop :=
  match n with c :: _ => isalpha c = true \/ c = 95%Z \/ c = 46%Z \/ c = 36%Z | [] => False end /\ Forall is_ident n.

(** [symbol x t r]: t is a spelling of x and then r. *)
Inductive symbol : fsym -> txt -> txt -> Prop :=
| S_name n r : word n -> not_head is_ident r -> symbol (SName n) (n ++ r) r
| S_lit q l u r : (q = 39 \/ q = 34)%Z -> lit q l u -> Forall byte l -> symbol (SLit l) (q :: u ++ r) r.

(** Digits for a number of type int. *)
Inductive number_text : Z -> txt -> txt -> Prop :=
| N_digits ds r : ds <> [] -> Forall digit ds -> not_head digit r -> (base 10 (map (fun d => d - 48) ds) <= 2147483647)%Z ->
    number_text (base 10 (map (fun d => (d - 48)%Z) ds)) (ds ++ r) r.

(** A tag between angle brackets. *)
Inductive tag_text : txt -> txt -> txt -> Prop :=
| T_tag c w g1 g2 r : gap g1 -> gap g2 -> is_name1 c -> Forall is_ident w -> not_head is_ident (g2 ++ 62%Z :: r) ->
    tag_text (c :: w) (60%Z :: g1 ++ c :: w ++ g2 ++ 62%Z :: r) r.

(** A keyword behind the percent sign, in capitals or not, with _ for -. *)
Definition same_key (c d : Z) : Prop := ((97 <= d <= 122) /\ (c = d \/ c = d - 32) \/ d = 45 /\ (c = 45 \/ c = 95))%Z.
Inductive key_text (names : list txt) : txt -> txt -> Prop :=
| K_key w k r : In k names -> Forall2 same_key w k -> match k with c :: _ => c <> 45%Z | [] => False end -> not_head is_key r -> key_text names (w ++ r) r.

(** * Text of C: strings and comments *)

(** Up to the closing quote; a backslash takes the next character with it. *)
Inductive cstr (q : Z) : txt -> Prop :=
| CS_end : cstr q [q]
| CS_char c t : c <> q -> c <> 10%Z -> c <> 92%Z -> cstr q t -> cstr q (c :: t)
| CS_esc c t : cstr q t -> cstr q (92%Z :: c :: t).

(** Up to a percent sign and a brace outside of strings and comments. *)
Inductive ptext : txt -> Prop :=
| P_end c : percent c -> ptext [c; 125%Z]
| P_string q u t : (q = 39 \/ q = 34)%Z -> cstr q u -> ptext t -> ptext (q :: u ++ t)
| P_star b t : inside b -> ptext t -> ptext ([47; 42]%Z ++ b ++ [42; 47]%Z ++ t)
| P_line b t : ~ In 10%Z b -> ptext (10%Z :: t) -> ptext ([47; 47]%Z ++ b ++ 10%Z :: t)
| P_slash t : not_head (fun c => c = 47 \/ c = 42)%Z t -> ptext t -> ptext (47%Z :: t)
| P_char c t : c <> 39%Z -> c <> 34%Z -> c <> 47%Z -> (percent c -> not_head (eq 125%Z) t) -> ptext t -> ptext (c :: t).

(** Up to the brace that closes the d open ones. *)
Inductive braces : nat -> txt -> Prop :=
| B_last : braces 1 [125%Z]
| B_close d t : braces (S d) t -> braces (S (S d)) (125%Z :: t)
| B_open d t : braces (S d) t -> braces d (123%Z :: t)
| B_string d q u t : (q = 39 \/ q = 34)%Z -> cstr q u -> braces d t -> braces d (q :: u ++ t)
| B_star d b t : inside b -> braces d t -> braces d ([47; 42]%Z ++ b ++ [42; 47]%Z ++ t)
| B_line d b t : ~ In 10%Z b -> braces d (10%Z :: t) -> braces d ([47; 47]%Z ++ b ++ 10%Z :: t)
| B_slash d t : not_head (fun c => c = 47 \/ c = 42)%Z t -> braces d t -> braces d (47%Z :: t)
| B_char d c t : ~ In c [39; 34; 47; 123; 125]%Z -> braces d t -> braces d (c :: t).

(** * Declarations *)

(** %token and the like (with the associativity, if it gives a precedence), %type, %start, %union, and others that
    do not matter to the grammar. *)
Inductive decl : Type :=
| DTokens (a : option bassoc) (tag : option txt) (l : list (fsym * option Z))
| DTypes (tag : option txt) (l : list fsym)
| DStart (n : txt)
| DUnion
| DOther.

(** Keyword for tokens. *)
Inductive token_key : option bassoc -> txt -> txt -> Prop :=
| TK_token t r : key_text [zs "token"; zs "term"] t r -> token_key None t r
| TK_0 r : token_key None (48%Z :: r) r
| TK_left t r : key_text [zs "left"] t r -> token_key (Some LEFT) t r
| TK_lt r : token_key (Some LEFT) (60%Z :: r) r
| TK_right t r : key_text [zs "right"] t r -> token_key (Some RIGHT) t r
| TK_gt r : token_key (Some RIGHT) (62%Z :: r) r
| TK_nonassoc t r : key_text [zs "nonassoc"; zs "binary"] t r -> token_key (Some NONASSOC) t r
| TK_2 r : token_key (Some NONASSOC) (50%Z :: r) r
| TK_precedence t r : key_text [zs "precedence"] t r -> token_key (Some PRECEDENCE) t r.

(** The text of a list ends where no symbol begins. *)
Definition sym_start (c : Z) : Prop := isalpha c = true \/ In c [95; 46; 36; 39; 34]%Z.

Inductive opt_tag : option txt -> txt -> txt -> Prop :=
| OT_none r : not_head (eq 60%Z) r -> opt_tag None r r
| OT_some g t g1 r : tag_text g t (g1 ++ r) -> gap g1 -> opt_tag (Some g) t r.

Inductive token_list : list (fsym * option Z) -> txt -> txt -> Prop :=
| TL_nil r : visible r -> not_head sym_start r -> token_list [] r r
| TL_plain x l t g u r : symbol x t (g ++ u) -> gap g -> visible u -> not_head digit u -> token_list l u r -> token_list ((x, None) :: l) t r
| TL_value x v l t g u g' u' r : symbol x t (g ++ u) -> gap g -> number_text v u (g' ++ u') -> gap g' -> visible u' -> token_list l u' r ->
    token_list ((x, Some v) :: l) t r.

Inductive type_list : list fsym -> txt -> txt -> Prop :=
| YL_nil r : visible r -> not_head sym_start r -> type_list [] r r
| YL_cons x l t g u r : symbol x t (g ++ u) -> gap g -> visible u -> not_head (eq 40%Z) u -> type_list l u r -> type_list (x :: l) t r.

Definition flags : list txt := [zs "debug"; zs "error-verbose"; zs "locations"; zs "pure-parser"; zs "token-table"; zs "yacc"].

(** One declaration from its percent sign to the next visible character. *)
Inductive decl_text : decl -> txt -> txt -> Prop :=
| DT_tokens a tag l p t g u u' r : percent p -> token_key a t (g ++ u) -> gap g -> visible u -> opt_tag tag u u' -> visible u' -> token_list l u' r ->
    decl_text (DTokens a tag l) (p :: t) r
| DT_types tag l p t g u u' r : percent p -> key_text [zs "type"; zs "nterm"] t (g ++ u) -> gap g -> visible u -> opt_tag tag u u' -> visible u' -> type_list l u' r ->
    decl_text (DTypes tag l) (p :: t) r
| DT_start n p t g u g' r : percent p -> key_text [zs "start"] t (g ++ u) -> gap g -> symbol (SName n) u (g' ++ r) -> gap g' -> visible r ->
    decl_text (DStart n) (p :: t) r
| DT_flag p t g r : percent p -> key_text flags t (g ++ r) -> gap g -> visible r -> decl_text DOther (p :: t) r
| DT_text p u g r : percent p -> ptext u -> gap g -> visible r -> decl_text DOther (p :: 123%Z :: u ++ g ++ r) r
| DT_union p t pre u g r : percent p -> key_text [zs "union"] t (pre ++ 123%Z :: u ++ g ++ r) ->
    Forall (fun c => (1 <= c <= 127)%Z /\ (isspace c = true \/ is_ident c)) pre -> braces 1 u -> gap g -> visible r -> decl_text DUnion (p :: t) r
| DT_expect p t c b n u g r : percent p -> key_text [zs "expect"; zs "expect-rr"] t (c :: b ++ u) -> c <> 10%Z ->
    Forall (fun c => isspace c = true /\ c <> 10%Z) b -> number_text n u (g ++ r) -> gap g -> visible r -> decl_text DOther (p :: t) r.

(** * Actions *)

(** Text copied as it is, a comment that ends with the line, $$, $i, $<g>$, $<g>i, @$, @i. *)
Inductive apiece : Type :=
| PText (u : txt) | PLine (b : txt) | PVal | PRef (i : Z) | PTVal (g : txt) | PTRef (g : txt) (i : Z) | PLoc | PLRef (i : Z).

(** An index with or without a minus sign. *)
Inductive index_text : Z -> txt -> txt -> Prop :=
| I_pos i t r : number_text i t r -> index_text i t r
| I_neg i t r : number_text i t r -> (0 < i)%Z -> index_text (- i) (45%Z :: t) r.

(** Up to the brace that closes the d open ones. *)
Inductive acts : nat -> list apiece -> txt -> Prop :=
| A_last : acts 1 [PText [125%Z]] [125%Z]
| A_close d ps t : acts (S d) ps t -> acts (S (S d)) (PText [125%Z] :: ps) (125%Z :: t)
| A_open d ps t : acts (S d) ps t -> acts d (PText [123%Z] :: ps) (123%Z :: t)
| A_string d q u ps t : (q = 39 \/ q = 34)%Z -> cstr q u -> acts d ps t -> acts d (PText (q :: u) :: ps) (q :: u ++ t)
| A_star d b ps t : inside b -> acts d ps t -> acts d (PText ([47; 42]%Z ++ b ++ [42; 47]%Z) :: ps) ([47; 42]%Z ++ b ++ [42; 47]%Z ++ t)
| A_line d b ps t : ~ In 10%Z b -> acts d ps (10%Z :: t) -> acts d (PLine b :: ps) ([47; 47]%Z ++ b ++ 10%Z :: t)
| A_slash d ps t : not_head (fun c => c = 47 \/ c = 42)%Z t -> acts d ps t -> acts d (PText [47%Z] :: ps) (47%Z :: t)
| A_name d c w ps t : is_name1 c -> c <> 36%Z -> Forall is_name2 w -> not_head is_name2 t -> acts d ps t -> acts d (PText (c :: w) :: ps) (c :: w ++ t)
| A_char d c ps t : ~ is_name1 c -> ~ In c [39; 34; 47; 64; 123; 125]%Z -> acts d ps t -> acts d (PText [c] :: ps) (c :: t)
| A_val d ps t : acts d ps t -> acts d (PVal :: ps) (36%Z :: 36%Z :: t)
| A_ref d i u ps t : index_text i u t -> acts d ps t -> acts d (PRef i :: ps) (36%Z :: u)
| A_tval d g u ps t : tag_text g u (36%Z :: t) -> acts d ps t -> acts d (PTVal g :: ps) (36%Z :: u)
| A_tref d g i u u' ps t : tag_text g u u' -> index_text i u' t -> acts d ps t -> acts d (PTRef g i :: ps) (36%Z :: u)
| A_dollar d ps t : not_head (fun c => is_name2 c \/ c = 60 \/ c = 45)%Z t -> acts d ps t -> acts d (PText [36%Z] :: ps) (36%Z :: t)
| A_loc d ps t : acts d ps t -> acts d (PLoc :: ps) (64%Z :: 36%Z :: t)
| A_lref d i u ps t : index_text i u t -> acts d ps t -> acts d (PLRef i :: ps) (64%Z :: u)
| A_at d ps t : not_head (fun c => digit c \/ c = 36 \/ c = 45)%Z t -> acts d ps t -> acts d (PText [64%Z] :: ps) (64%Z :: t).

(** A comment to the end of the line becomes one of the other kind, with a space in every star and slash. *)
Fixpoint spaced (b : txt) : txt :=
  match b with
  | [] => []
  | c :: r => c :: (match c, r with 42%Z, 47%Z :: _ => [32%Z] | _, _ => [] end) ++ spaced r
  end.

Definition dot (g : option txt) : txt := match g with Some g => 46%Z :: g | None => [] end.
Definition mark_at (arr : string) (k : Z) (g : option txt) : txt := zs "yystack." ++ zs arr ++ zs "[" ++ zdec k ++ zs "]" ++ dot g.

Definition tagged (p : apiece) : bool := match p with PTVal _ | PTRef _ _ => true | _ => false end.
(** The place i - n is that of an int; n is one. *)
Definition in_int (n i : Z) : bool := ((0 <=? i) || (-2147483648 <=? i - n))%Z.

(** What becomes of a piece when n symbols with the tags [its] stand before the action in a rule whose left side
    has the tag [lt]; [h]: some tag has been used.  [None]: an error. *)
Definition piece_out (h : bool) (lt : option txt) (its : list (option txt)) (p : apiece) : option txt :=
  let n := Z.of_nat (List.length its) in
  match p with
  | PText u => Some u
  | PLine b => Some ([47; 42]%Z ++ spaced b ++ [42; 47]%Z)
  | PVal => if h then match lt with Some g => Some (zs "yyval." ++ g) | None => None end else Some (zs "yyval")
  | PTVal g => Some (zs "yyval." ++ g)
  | PRef i =>
      if (h && ((i <? 0)%Z || negb (n =? 0)%Z))%bool then
        if ((1 <=? i) && (i <=? n))%Z then
          match nth_error its (Z.to_nat (i - 1)) with Some (Some g) => Some (mark_at "l_mark" (i - n) (Some g)) | _ => None end
        else None
      else if in_int n i then Some (mark_at "l_mark" (i - n) None) else None
  | PTRef g i => if in_int n i then Some (mark_at "l_mark" (i - n) (Some g)) else None
  | PLoc => Some (zs "yyloc")
  | PLRef i => if in_int n i then Some (mark_at "p_mark" (i - n) None) else None
  end.

Fixpoint pieces_out (h : bool) (lt : option txt) (its : list (option txt)) (ps : list apiece) : option (txt * bool) :=
  match ps with
  | [] => Some ([], h)
  | p :: r =>
      match piece_out h lt its p, pieces_out (h || tagged p) lt its r with
      | Some u, Some (v, h') => Some (u ++ v, h')
      | _, _ => None
      end
  end.

(** * Rules *)

Inductive fpart : Type := FSym (x : fsym) | FAct (ps : list apiece) | FPrec (x : fsym).
Record fgroup : Type := mkF { f_lhs : txt; f_body : list fpart; f_alts : list (list fpart) }.
Record bfile : Type := mkFile { f_decls : list decl; f_groups : list fgroup }.

Definition stop (r : txt) : Prop := r = [] \/ visible r.

(** The word prec in capitals or not. *)
Definition prec_word (w : txt) : Prop := Forall2 (fun c d => c = d \/ c = d - 32)%Z w (zs "prec").

(** From a visible character to the next one. *)
Inductive part_text : fpart -> txt -> txt -> Prop :=
| PT_sym x t g r : symbol x t (g ++ r) -> gap g -> stop r -> not_head (fun c => c = 58 \/ c = 40)%Z r -> part_text (FSym x) t r
| PT_act ps u g r : acts 1 ps u -> gap g -> stop r -> part_text (FAct (PText [123%Z] :: ps)) (123%Z :: u ++ g ++ r) r
| PT_eq ps b u g r : Forall (fun c => isspace c = true /\ c <> 10%Z) b -> acts 1 ps u -> gap g -> stop r ->
    part_text (FAct (PText [123%Z] :: ps)) (61%Z :: b ++ 123%Z :: u ++ g ++ r) r
| PT_prec x p w g t g' r : percent p -> prec_word w -> not_head is_ident (g ++ t) -> gap g -> symbol x t (g' ++ r) -> gap g' -> stop r ->
    part_text (FPrec x) (p :: w ++ g ++ t) r
| PT_preq x p g t g' r : percent p -> gap g -> symbol x t (g' ++ r) -> gap g' -> stop r -> part_text (FPrec x) (p :: 61%Z :: g ++ t) r.

Inductive parts_text : list fpart -> txt -> txt -> Prop :=
| PS_nil r : parts_text [] r r
| PS_cons p b t u r : part_text p t u -> parts_text b u r -> parts_text (p :: b) t r.

Inductive alts_text : list (list fpart) -> txt -> txt -> Prop :=
| AL_nil r : alts_text [] r r
| AL_cons b l g t u r : gap g -> stop t -> parts_text b t u -> alts_text l u r -> alts_text (b :: l) (124%Z :: g ++ t) r.

Inductive group_text : fgroup -> txt -> txt -> Prop :=
| GT_group n b l t g g' u v r : symbol (SName n) t (g ++ 58%Z :: g' ++ u) -> gap g -> gap g' -> stop u -> parts_text b u v -> alts_text l v r ->
    group_text (mkF n b l) t r.

(** The rules end with the file or at the second mark. *)
Inductive groups_text : list fgroup -> txt -> Prop :=
| RT_end : groups_text [] []
| RT_mark p q r : percent p -> percent q -> groups_text [] (p :: q :: r)
| RT_cons f l t r : group_text f t r -> groups_text l r -> groups_text (f :: l) t.

Inductive decls_text : list decl -> txt -> txt -> Prop :=
| DS_nil r : decls_text [] r r
| DS_cons d l t u r : decl_text d t u -> decls_text l u r -> decls_text (d :: l) t r.

Inductive file_text : bfile -> txt -> Prop :=
| FT_file ds gs g t p q g' u : gap g -> visible t -> decls_text ds t (p :: q :: g' ++ u) -> percent p -> percent q -> gap g' -> visible u -> groups_text gs u ->
    file_text (mkFile ds gs) (g ++ t).

(** * What a file says about its symbols *)

(** The symbol occurs, it is a token, it is the literal of one character, its tag, level and associativity, code,
    it is the left side of rules. *)
Inductive fact : Type := See | Term | Char (c : Z) | Tag (g : txt) | Prec (p : nat) (a : bassoc) | Val (v : Z) | Lhs.
Definition log : Type := list (txt * fact).

Definition sym_facts (x : fsym) : log :=
  (sym_name x, See) ::
  match x with SName _ => [] | SLit l => (sym_name x, Term) :: match l with [c] => [(sym_name x, Char c)] | _ => [] end end.
Definition tag_facts (tag : option txt) (n : txt) : log := match tag with Some g => [(n, Tag g)] | None => [] end.

(** The level of a declaration is its number among those that give a precedence. *)
Definition level (p : nat) (d : decl) : nat := match d with DTokens (Some _) _ _ => S p | _ => p end.

Definition decl_facts (p : nat) (d : decl) : log :=
  match d with
  | DTokens a tag l =>
      flat_map (fun '(x, v) => sym_facts x ++ (sym_name x, Term) :: tag_facts tag (sym_name x) ++
                  match a with Some a => [(sym_name x, Prec (S p) a)] | None => [] end ++
                  match v with Some v => [(sym_name x, Val v)] | None => [] end) l
  | DTypes tag l => flat_map (fun x => sym_facts x ++ tag_facts tag (sym_name x)) l
  | DStart n => [(n, See)]
  | DUnion | DOther => []
  end.
Fixpoint decls_facts (p : nat) (l : list decl) : log :=
  match l with [] => [] | d :: r => decl_facts p d ++ decls_facts (level p d) r end.

Definition part_facts (p : fpart) : log := match p with FSym x | FPrec x => sym_facts x | FAct _ => [] end.
Definition group_facts (f : fgroup) : log :=
  (f_lhs f, See) :: (f_lhs f, Lhs) :: flat_map part_facts (f_body f) ++ flat_map (flat_map part_facts) (f_alts f).
Definition file_facts (F : bfile) : log := decls_facts 0 (f_decls F) ++ flat_map group_facts (f_groups F).

(** The symbols in the order of their first occurrence; [error] is there from the beginning. *)
Fixpoint firsts (seen : list txt) (l : list txt) : list txt :=
  match l with [] => [] | n :: r => if in_dec (list_eq_dec Z.eq_dec) n seen then firsts seen r else n :: firsts (n :: seen) r end.
Definition names (L : log) : list txt := firsts [] (zs "error" :: map fst L).

(** The number of a symbol. *)
Fixpoint pos (n : txt) (l : list txt) : nat :=
  match l with [] => 0 | m :: r => if list_eq_dec Z.eq_dec m n then 0 else S (pos n r) end.

(** The last fact of a kind about a symbol. *)
Fixpoint latest {A} (f : fact -> option A) (n : txt) (L : log) : option A :=
  match L with
  | [] => None
  | (m, x) :: r =>
      match latest f n r with
      | Some a => Some a
      | None => if list_eq_dec Z.eq_dec m n then f x else None
      end
  end.
Definition is_token (L : log) (n : txt) : Prop := n = zs "error" \/ In (n, Term) L.
Definition is_lhs (L : log) (n : txt) : Prop := In (n, Lhs) L.
Definition tag_of_sym (L : log) (n : txt) : option txt := latest (fun x => match x with Tag g => Some g | _ => None end) n L.
Definition prec_of_sym (L : log) (n : txt) : option (nat * bassoc) := latest (fun x => match x with Prec p a => Some (p, a) | _ => None end) n L.
Definition code_of_sym (L : log) (n : txt) : option Z :=
  match latest (fun x => match x with Val v => Some v | _ => None end) n L with
  | Some v => Some v
  | None => latest (fun x => match x with Char c => Some c | _ => None end) n L
  end.

(** The start symbol: the last %start, or the left side of the first rule. *)
Definition starts_of (l : list decl) : list txt := flat_map (fun d => match d with DStart n => [n] | _ => [] end) l.
Definition goal_of (F : bfile) : txt :=
  last (starts_of (f_decls F)) (match f_groups F with f :: _ => f_lhs f | [] => [] end).

(** The rules, and those of the grammar without actions. *)
Definition file_rules (F : bfile) : list (txt * list fpart) :=
  flat_map (fun f => map (pair (f_lhs f)) (f_body f :: f_alts f)) (f_groups F).
Definition part_syms (b : list fpart) : list txt := flat_map (fun p => match p with FSym x => [sym_name x] | _ => [] end) b.
Definition file_grammar (F : bfile) : list (txt * list txt) := map (fun r => (fst r, part_syms (snd r))) (file_rules F).

(** The texts of the actions of one rule; an action that is followed by a symbol or another action has a place
    among the symbols, with the tag of the left side. *)
Fixpoint body_out (tg : txt -> option txt) (lt : option txt) (its : list (option txt)) (pending : bool) (h : bool) (b : list fpart) : option (list txt * bool) :=
  match b with
  | [] => Some ([], h)
  | FSym x :: r => body_out tg lt (its ++ (if pending then [lt] else []) ++ [tg (sym_name x)]) false h r
  | FPrec _ :: r => body_out tg lt its pending h r
  | FAct ps :: r =>
      let its := its ++ (if pending then [lt] else []) in
      match pieces_out h lt its ps with
      | Some (u, h) => match body_out tg lt its true h r with Some (l, h) => Some (u :: l, h) | None => None end
      | None => None
      end
  end.
Fixpoint rules_out_text (tg : txt -> option txt) (h : bool) (rs : list (txt * list fpart)) : option (list txt * bool) :=
  match rs with
  | [] => Some ([], h)
  | (n, b) :: r =>
      match body_out tg (tg n) [] false h b with
      | Some (l, h) => match rules_out_text tg h r with Some (l', h) => Some (l ++ l', h) | None => None end
      | None => None
      end
  end.
Definition uses_tags (F : bfile) : bool :=
  existsb (fun d => match d with DTokens _ (Some _) _ | DTypes (Some _) _ => true | _ => false end) (f_decls F).
Definition file_actions (F : bfile) : option (list txt) :=
  option_map fst (rules_out_text (tag_of_sym (file_facts F)) (uses_tags F) (file_rules F)).

(** The declarations up to the next %start. *)
Fixpoint until_start (l : list decl) : list decl :=
  match l with [] => [] | DStart _ :: _ => [] | d :: r => d :: until_start r end.

(** No reserved name is used, no left side is a token, no symbol of a %start is a token before the next %start, the
    start symbol has rules, the actions use the tags rightly, there is at most one %union, and the first left side
    does not begin with a dollar sign. *)
Record file_ok (F : bfile) : Prop := {
  fo_names : forall n, In n (map fst (file_facts F)) -> ~ reserved n;
  fo_lhs : forall n, is_lhs (file_facts F) n -> ~ is_token (file_facts F) n;
  fo_start : forall a n b, f_decls F = a ++ DStart n :: b -> ~ is_token (decls_facts 0 (a ++ until_start b)) n;
  fo_goal : is_lhs (file_facts F) (goal_of F);
  fo_act : file_actions F <> None;
  fo_union : List.length (filter (fun d => match d with DUnion => true | _ => false end) (f_decls F)) <= 1;
  fo_first : match f_groups F with f :: _ => hd 0%Z (f_lhs f) <> 36%Z | [] => False end
}.

(** * What a grammar file means to the parser *)

(** A symbol without rules is a token. *)
Definition file_token (F : bfile) (n : txt) : Prop := In n (names (file_facts F)) /\ ~ is_lhs (file_facts F) n.

(** The codes given to tokens are positive and different, and none is that of error. *)
Definition codes_fit (F : bfile) : Prop :=
  (forall n v, file_token F n -> code_of_sym (file_facts F) n = Some v -> (0 < v)%Z) /\
  (forall n m v, file_token F n -> file_token F m -> code_of_sym (file_facts F) n = Some v -> code_of_sym (file_facts F) m = Some v -> n = m) /\
  (code_of_sym (file_facts F) (zs "error") = None -> forall n, file_token F n -> code_of_sym (file_facts F) n <> Some 256%Z).

(** The symbol after the last %prec of a rule. *)
Definition fmark (b : list fpart) : option txt :=
  match rev (flat_map (fun p => match p with FPrec x => [sym_name x] | _ => [] end) b) with [] => None | n :: _ => Some n end.
Definition prec_val (F : bfile) (n : txt) : nat * bassoc := match prec_of_sym (file_facts F) n with Some x => x | None => (0, TOKEN) end.

(** The symbol that gives a rule its precedence: that after %prec, or the last token; with the option -z the
    first token that has a precedence. *)
Definition without_rules (F : bfile) (n : txt) : bool := negb (existsb (fun r => if list_eq_dec Z.eq_dec (fst r) n then true else false) (file_rules F)).
Definition prec_symbol (z : bool) (F : bfile) (b : list fpart) : option txt :=
  match fmark b with
  | Some n => Some n
  | None =>
      let toks := filter (without_rules F) (part_syms b) in
      if z then find (fun n => negb (fst (prec_val F n) =? 0)) toks else match rev toks with [] => None | n :: _ => Some n end
  end.

(** The number of actions of a rule that are followed by a symbol or an action. *)
Fixpoint inner (b : list fpart) : nat :=
  match b with
  | [] => 0
  | FAct _ :: r => (if existsb (fun p => match p with FPrec _ => false | _ => true end) r then 1 else 0) + inner r
  | _ :: r => inner r
  end.
