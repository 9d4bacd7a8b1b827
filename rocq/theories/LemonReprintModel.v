(** Model of the text lemon -y prints: the reprint of a grammar file as a yacc file
    (lemon/lemon.c:3335-3470, 3560-3635, 1757-1795).  The structures are those of LemonReadModel: a pointer to a symbol
    is its place in [gr_syms]; a symbol without precedence (prec -1) has [so_prec] None.  Only isYacc is modelled, and
    the option rpyflag, not rpyflag2. *)
From Coq Require Import String List Arith ZArith Bool.
Import ListNotations.
From Verif Require Import Base LemonTableModel LemonPreModel LemonActionModel LemonCodeModel LemonReadModel.
Local Open Scope res_scope.

(** printf of a string or number with a width. *)
Definition pad_left (n : nat) (t : txt) : txt := repeat 32%Z (n - List.length t) ++ t.
Definition pad_right (n : nat) (t : txt) : txt := t ++ repeat 32%Z (n - List.length t).
Definition ndec (n : nat) : txt := zdec (Z.of_nat n).
Definition nl : txt := [10%Z].

(** lemon/lemon.c:3338-3353 get_symbol_prec_chr *)
Definition get_symbol_prec_chr (s : sobj) : Z :=
  match so_prec s, so_type s with
  | Some _, TERMINAL => match so_assoc s with LEFT => 76 | RIGHT => 82 | NONE => 78 | PRECEDENCE => 80 | UNK => 85 end%Z
  | _, _ => 85%Z
  end.

(** lemon/lemon.c:3355-3360 print_symbol_prec_commented *)
Definition prec_commented (s : sobj) : txt :=
  match so_prec s with Some p => zs " /*" ++ ndec p ++ [get_symbol_prec_chr s] ++ zs "*/" | None => [] end.

(** lemon/lemon.c:3390-3414 Reprint_token_numbers; [names] are those of the first nsymbol symbols. *)
Fixpoint column (fuel skip maxlen : nat) (names : list text) (j : nat) : res txt :=
  match fuel with
  | 0 => Fuel
  | S f =>
      if j <? List.length names then
        x <- opt (nth_error names j) ;;
        r <- column f skip maxlen names (j + skip) ;;
        Ok (zs " " ++ pad_left 3 (ndec j) ++ zs " " ++ pad_right maxlen (firstn maxlen x) ++ r)
      else Ok []
  end.
Fixpoint columns (skip maxlen : nat) (names : list text) (l : list nat) : res txt :=
  match l with
  | [] => Ok []
  | i :: l => x <- column (S (List.length names)) skip maxlen names i ;; r <- columns skip maxlen names l ;; Ok (zs "//" ++ x ++ nl ++ r)
  end.
Definition Reprint_token_numbers (filename : text) (names : list text) : res txt :=
  let maxlen := fold_left Nat.max (map (@List.length Z) names) 10 in
  let ncolumns := Nat.max 1 (76 / (maxlen + 5)) in
  let skip := (List.length names + ncolumns - 1) / ncolumns in
  c <- columns skip maxlen names (seq 0 skip) ;;
  Ok (zs "// Reprint of input file """ ++ filename ++ zs """." ++ nl ++ zs "// Symbols:" ++ nl ++ c).

(** lemon/lemon.c:3420-3434, the tokens; [b] counts them. *)
Fixpoint token_names (b : nat) (l : list sobj) : txt :=
  match l with
  | [] => []
  | s :: l => zs " " ++ so_name s ++ (if S b mod 6 =? 0 then nl ++ zs " " else []) ++ token_names (S b) l
  end.
Definition is_terminal (s : sobj) : bool := match so_type s with TERMINAL => true | _ => false end.
Definition token_line (syms : list sobj) : txt :=
  match filter is_terminal syms with
  | [] => []
  | l => zs "%token " ++ token_names 0 l ++ nl
  end ++ nl.

(** lemon/lemon.c:3454-3485, the precedences; one level. *)
Definition has_level (j : nat) (s : sobj) : bool := is_terminal s && match so_prec s with Some p => p =? j | None => false end.
Definition sassoc (a : e_assoc) : txt :=
  zs (match a with LEFT => "left" | RIGHT => "right" | NONE => "nonassoc" | PRECEDENCE => "precedence" | UNK => "UNKNOWN" end)%string.
Definition level_line (syms : list sobj) (j : nat) : txt :=
  match filter (has_level j) syms with
  | [] => []
  | (s :: _) as l => zs "%" ++ sassoc (so_assoc s) ++ zs " /*" ++ ndec j ++ zs "*/" ++ flat_map (fun s => zs " " ++ so_name s) l ++ nl
  end.
(** lemon/lemon.c:3416-3486 Reprint_tokens(lemp, "", 1) *)
Definition Reprint_tokens (syms : list sobj) (preccounter : nat) : txt :=
  token_line syms ++ flat_map (level_line syms) (seq 0 (S preccounter)).

(** lemon/lemon.c:3561-3583 rule_print_yacc0; [mt] is mt_idx, None for -1. *)
Definition obj (g : gram) (id : nat) : res sobj := opt (nth_error (gr_syms g) id).
Fixpoint rhs_text (g : gram) (mt : option nat) (l : list (nat * option text)) : res txt :=
  match l with
  | [] => Ok []
  | (id, _) :: l =>
      s <- obj g id ;;
      s <- match so_type s with
           | MULTITERMINAL => j <- opt mt ;; k <- opt (nth_error (so_sub s) j) ;; obj g k
           | _ => Ok s
           end ;;
      r <- rhs_text g mt l ;;
      Ok (zs " " ++ so_name s ++ prec_commented s ++ r)
  end.
Definition rule_print_yacc0 (g : gram) (rp : rrule) (mt : option nat) : res txt :=
  l <- obj g (rr_lhs rp) ;;
  r <- match rr_rhs rp with [] => Ok (zs " /*empty*/") | rhs => rhs_text g mt rhs end ;;
  Ok (so_name l ++ zs " :" ++ r).
(** The end of a line: %prec and the semicolon. *)
Definition line_end (g : gram) (rp : rrule) : res txt :=
  match rr_precsym rp with
  | None => Ok (zs " ;" ++ nl)
  | Some id => s <- obj g id ;; Ok (zs " %prec " ++ so_name s ++ prec_commented s ++ zs " ;" ++ nl)
  end.

(** lemon/lemon.c:3585-3608 rule_print_yacc *)
Fixpoint first_sub (g : gram) (l : list (nat * option text)) : res (option (list nat)) :=
  match l with
  | [] => Ok None
  | (id, _) :: l => s <- obj g id ;; match so_type s with MULTITERMINAL => Ok (Some (so_sub s)) | _ => first_sub g l end
  end.
Fixpoint rule_alts (g : gram) (rp : rrule) (js : list nat) : res txt :=
  match js with
  | [] => Ok []
  | j :: js => x <- rule_print_yacc0 g rp (Some j) ;; e <- line_end g rp ;; r <- rule_alts g rp js ;; Ok (x ++ e ++ r)
  end.
Definition rule_print_yacc (g : gram) (rp : rrule) : res txt :=
  m <- first_sub g (rr_rhs rp) ;;
  match m with
  | Some sub => rule_alts g rp (seq 0 (List.length sub))
  | None => x <- rule_print_yacc0 g rp None ;; e <- line_end g rp ;; Ok (x ++ e)
  end.

(** lemon/lemon.c:3625-3630: an empty line where the left side changes. *)
Fixpoint rules_text (g : gram) (prev : option text) (l : list rrule) : res txt :=
  match l with
  | [] => Ok []
  | rp :: l =>
      s <- obj g (rr_lhs rp) ;;
      x <- rule_print_yacc g rp ;;
      r <- rules_text g (Some (so_name s)) l ;;
      Ok (match prev with Some n => if list_eq_dec Z.eq_dec n (so_name s) then [] else nl | None => [] end ++ x ++ r)
  end.

(** lemon/lemon.c:3612-3632 Reprint_yacc; [syms] are the first nsymbol symbols, startRule is the first rule (1788). *)
Definition Reprint_yacc (filename : text) (g : gram) (syms : list sobj) : res txt :=
  match rev (gr_rules g) with
  | [] => Bad
  | (first :: _) as rules =>
      a <- Reprint_token_numbers filename (map so_name syms) ;;
      s <- obj g (rr_lhs first) ;;
      r <- rules_text g None rules ;;
      Ok (a ++ Reprint_tokens syms (gr_preccounter g) ++ nl ++ zs "%start " ++ so_name s ++ nl ++ nl ++ zs "%%" ++ nl ++ nl ++ r ++ nl)
  end.

(** lemon/lemon.c:1752-1795: what lemon -y prints for the text of a file; None if it stops before. *)
Definition lemon_yacc (defs : list text) (o : ropts) (z : text) : res (option txt) :=
  r <- LemonReadModel.Parse defs o z ;;
  match r with
  | None => Ok None
  | Some g0 =>
      if negb (gr_err g0 =? 0) then Ok None
      else
        match gr_rules g0 with
        | [] => Ok None
        | _ =>
            let g := set_syms (snd (sym_new default_name (gr_syms g0))) g0 in
            '(sorted, nsymbol, _) <- index_symbols (map as_lsym (named g)) ;;
            syms <- map_res (fun i => opt (obj_at g sorted i)) (seq 0 nsymbol) ;;
            t <- Reprint_yacc (ro_filename o) g syms ;;
            Ok (Some t)
        end
  end.
