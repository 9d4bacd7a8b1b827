(** Model of the lookahead computation of lemon/lemon.c: FindLinks and
    FindFollowSets.  Same representation as LemonStatesModel.v.  The stp field
    set by FindLinks (lines 1141-1147) is only read by the -p report and is not
    modelled. *)
From Coq Require Import List Arith Bool.
Import ListNotations.
From Verif Require Import Base SpecGrammar LemonSetModel LemonFirstModel LemonSortModel LemonStatesModel.
Local Open Scope res_scope.

(** lemon/lemon.c:1154-1157: for each backlink of [cfp], Plink_add (3233-3242)
    pushes [cfp] at the front of the forward links of the source. *)
Fixpoint links_one (h : list config) (cfp : nat) (bl : list nat) : res (list config) :=
  match bl with
  | [] => Ok h
  | o :: bl' =>
      c <- opt (nth_error h o) ;;
      links_one (upd h o (with_fplp c (cfp :: c_fplp c))) cfp bl'
  end.

(** lemon/lemon.c:1153: loop over the configurations of a state. *)
Fixpoint links_cfgs (h : list config) (l : list nat) : res (list config) :=
  match l with
  | [] => Ok h
  | x :: r =>
      c <- opt (nth_error h x) ;;
      h1 <- links_one h x (c_bplp c) ;;
      links_cfgs h1 r
  end.

(** All configurations in the order of the loops over states and configurations. *)
Definition all_cfgs (L : lemon) : list nat := flat_map s_cfp (l_states L).

(** lemon/lemon.c:1131-1160 FindLinks. *)
Definition FindLinks (L : lemon) : res lemon :=
  h <- links_cfgs (l_cfgs L) (all_cfgs L) ;;
  Ok (set_cfgs L h).

(** lemon/lemon.c:1186-1192: propagate the follow set of [cfp] along its links. *)
Fixpoint follow_links (h : list config) (cfp : nat) (links : list nat) (progress : bool)
  : res (list config * bool) :=
  match links with
  | [] => Ok (h, progress)
  | p :: r =>
      c <- opt (nth_error h cfp) ;;
      d <- opt (nth_error h p) ;;
      '(w, change) <- SetUnion (c_fws d) (c_fws c) ;;
      let d1 := with_fws d w in
      if (change : bool) then follow_links (upd h p (with_comp d1 false)) cfp r true
      else follow_links (upd h p d1) cfp r progress
  end.

(** lemon/lemon.c:1182-1195: one pass over all configurations. *)
Fixpoint follow_pass (h : list config) (l : list nat) (progress : bool) : res (list config * bool) :=
  match l with
  | [] => Ok (h, progress)
  | x :: r =>
      c <- opt (nth_error h x) ;;
      if c_comp c then follow_pass h r progress
      else
        '(h1, p) <- follow_links h x (c_fplp c) progress ;;
        c1 <- opt (nth_error h1 x) ;;
        follow_pass (upd h1 x (with_comp c1 true)) r p
  end.

(** lemon/lemon.c:1180-1197: the do-while loop. *)
Fixpoint follow_loop (fuel : nat) (h : list config) (l : list nat) : res (list config) :=
  match fuel with
  | 0 => Fuel
  | S f =>
      '(h1, progress) <- follow_pass h l false ;;
      if (progress : bool) then follow_loop f h1 l else Ok h1
  end.

(** lemon/lemon.c:1166-1198 FindFollowSets; lines 1173-1178 mark all
    configurations incomplete. *)
Definition FindFollowSets (fuel : nat) (L : lemon) : res lemon :=
  h0 <- clear_status (l_cfgs L) (all_cfgs L) ;;
  h <- follow_loop fuel h0 (all_cfgs L) ;;
  Ok (set_cfgs L h).

(** Passes that always suffice: every pass but the last adds an element. *)
Definition follow_fuel (L : lemon) : nat :=
  S (list_sum (map (fun c => length (c_fws c)) (l_cfgs L))).
