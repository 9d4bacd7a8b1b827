(** The names and rules lemon prints for traces, the token macros and the header file (lemon/lemon.c:4995-5008, 5335-5352,
    5513-5556).  [nm] gives the names of the symbols, [prefix] is tokenprefix, empty when there is none. *)
From Coq Require Import String List Arith ZArith Bool.
Import ListNotations.
From Verif Require Import Base SpecGrammar LemonSortModel LemonActionModel LemonCompressModel LemonPipelineModel LemonPreModel LemonCodeModel LemonReprintModel LemonTableTextModel.
Local Open Scope res_scope.

(** * The token macros *)

(** lemon/lemon.c:5003-5006: tokens [i], ..., [i + k - 1]; "%-30s" and "%2d" ("%3d" in the header). *)
Definition token_define (w : nat) (prefix : txt) (nm : nat -> txt) (i : nat) : txt :=
  zs "#define " ++ prefix ++ pad_right 30 (nm i) ++ zs " " ++ pad_left w (ndec i) ++ nl.
(** lemon/lemon.c:4995-5007; [mh] is mhflag (option -m).  symbols[1] exists whenever there is a rule. *)
Definition token_defines (mh : bool) (prefix : txt) (nm : nat -> txt) (nterm : nat) : txt :=
  (if mh then zs "#if INTERFACE" ++ nl else zs "#ifndef " ++ prefix ++ nm 1 ++ nl) ++
  flat_map (token_define 2 prefix nm) (seq 1 (nterm - 1)) ++ zs "#endif" ++ nl.

(** * yyTokenName and yyRuleName *)

(** lemon/lemon.c:5335-5339 with the lines of the template (lemon/lempar.c:262-264). *)
Definition name_row (nm : nat -> txt) (i : nat) : txt := zs "  /* " ++ pad_left 4 (ndec i) ++ zs " */ """ ++ nm i ++ zs """," ++ nl.
Definition names_text (nm : nat -> txt) (nsym : nat) : txt :=
  zs "static const char *const yyTokenName[] = { " ++ nl ++ flat_map (name_row nm) (seq 0 nsym) ++ zs "};" ++ nl.

(** lemon/lemon.c:4638-4654 writeRuleText prints the same as rule_print with with_comments 0. *)
Definition writeRuleText (nm : nat -> txt) (r : SpecGrammar.rule) : txt := rule_print nm r.

(** lemon/lemon.c:5342-5351 with the lines of the template (lemon/lempar.c:270-272): the rules in the order of
    lemp->rule, which is the order of iRule. *)
Fixpoint rulename_rows (nm : nat -> txt) (i : nat) (l : list SpecGrammar.rule) : txt :=
  match l with [] => [] | r :: l => (zs " /* " ++ pad_left 3 (ndec i) ++ zs " */ """ ++ writeRuleText nm r ++ zs """," ++ nl) ++ rulename_rows nm (S i) l end.
Definition rulenames_text (nm : nat -> txt) (o : opts) (g : grammar) : res txt :=
  rules <- LemonReadModel.map_res (fun r => opt (nth_error (g_rules g) r)) (Rule_sort (ri_iRule (opts_rinfo o)) (seq 0 (List.length (g_rules g)))) ;;
  Ok (zs "static const char *const yyRuleName[] = {" ++ nl ++ rulename_rows nm 0 rules ++ zs "};" ++ nl).

(** * The header file *)

(** fgets: at most [n] characters, up to the end of the line. *)
Fixpoint fgets (n : nat) (t : txt) : txt * txt :=
  match n, t with
  | S n, c :: r => if (c =? 10)%Z then ([c], r) else let '(a, b) := fgets n r in (c :: a, b)
  | _, _ => ([], t)
  end.

(** LINESIZE *)
Definition LINESIZE : nat := 1000.
Definition text_eqb (a b : txt) : bool := if list_eq_dec Z.eq_dec a b then true else false.

(** lemon/lemon.c:5524-5535: whether the file holds the [k] lines of tokens [i], ... and nothing else.  A pattern that
    does not fit its buffer is [Bad]. *)
Fixpoint unchanged (prefix : txt) (nm : nat -> txt) (k i : nat) (old : txt) : res bool :=
  match k with
  | 0 => Ok (match old with [] => true | _ => false end)
  | S k =>
      match old with
      | [] => Ok false
      | _ =>
          let '(line, rest) := fgets (LINESIZE - 1) old in
          let pattern := token_define 3 prefix nm i in
          if List.length pattern <? LINESIZE then (if text_eqb line pattern then unchanged prefix nm k (S i) rest else Ok false) else Bad
      end
  end.

(** lemon/lemon.c:5541-5549 *)
Definition enum_row (prefix : txt) (nm : nat -> txt) (i : nat) : txt := zs " " ++ prefix ++ nm i ++ zs " = " ++ pad_left 3 (ndec i) ++ zs "," ++ nl.
Definition header_text (prefix : txt) (nm : nat -> txt) (nterm : nat) : txt :=
  zs "enum " ++ prefix ++ zs "LemonEnum {" ++ nl ++ flat_map (enum_row prefix nm) (seq 1 (nterm - 1)) ++
  zs " " ++ prefix ++ zs "LEMON_LAST_TOKEN" ++ zs " = " ++ pad_left 3 (ndec nterm) ++ nl ++ zs "};" ++ nl.

(** lemon/lemon.c:5513-5553 ReportHeader: what is in the file afterwards, when it was [old] (or did not exist) before and
    can be written.  The last number is the [i] the loop ends with, which is 1 when nterm is 0. *)
Definition ReportHeader (prefix : txt) (nm : nat -> txt) (nterm : nat) (old : option txt) : res txt :=
  match old with
  | Some z => b <- unchanged prefix nm (nterm - 1) 1 z ;; Ok (if b then z else header_text prefix nm nterm)
  | None => Ok (header_text prefix nm nterm)
  end.
