(** Model of rule precedences, action lists and conflict resolution in
    lemon/lemon.c: FindRulePrecedences, actioncmp, Action_sort, FindActions,
    resolve_conflict.

    A symbol's prec<0 is [None].  Rules are identified by rule.index (their
    source position).  The counters nconflict_sr and nconflict_rr, which only
    feed the statistics output, are not modelled. *)
From Coq Require Import List Arith Bool.
Import ListNotations.
From Verif Require Import Base SpecGrammar LemonSetModel LemonFirstModel LemonSortModel LemonStatesModel LemonFollowModel.
Local Open Scope res_scope.

(** lemon/lemon.c:253-260 enum e_assoc. *)
Inductive e_assoc : Type := LEFT | RIGHT | NONE | PRECEDENCE | UNK.

(** The fields prec and assoc of struct symbol (lemon/lemon.c:267-268). *)
Record precs : Type := mkPrecs {
  p_prec : nat -> option nat;
  p_assoc : nat -> e_assoc
}.

Definition has_prec (p : precs) (s : nat) : bool :=
  match p_prec p s with Some _ => true | None => false end.

(** lemon/lemon.c:872-877: the loop over the members of a multi-terminal. *)
Fixpoint prec_members (yaccPrec : bool) (p : precs) (l : list nat) (use_sp : option nat) : option nat :=
  match l with
  | [] => use_sp
  | s :: r =>
      if has_prec p s || yaccPrec then
        if yaccPrec then prec_members yaccPrec p r (Some s) else Some s
      else prec_members yaccPrec p r use_sp
  end.

(** lemon/lemon.c:866-882: the loop over the right-hand side. *)
Fixpoint prec_rhs (yaccPrec : bool) (p : precs) (nterm : nat) (rhs : list elem) (use_sp : option nat)
  : option nat :=
  match rhs with
  | [] => use_sp
  | e :: r =>
      match use_sp, yaccPrec with
      | Some _, false => use_sp
      | _, _ =>
          match e with
          | EMulti l => prec_rhs yaccPrec p nterm r (prec_members yaccPrec p l use_sp)
          | ESym s =>
              if (s <? nterm) && (has_prec p s || yaccPrec)
              then prec_rhs yaccPrec p nterm r (Some s)
              else prec_rhs yaccPrec p nterm r use_sp
          end
      end
  end.

(** lemon/lemon.c:862-885: one rule; [precsym] is its value before the call. *)
Definition rule_precsym (yaccPrec : bool) (p : precs) (nterm : nat) (rhs : list elem) (precsym : option nat)
  : option nat :=
  match precsym with
  | Some s => Some s
  | None =>
      match prec_rhs yaccPrec p nterm rhs None with
      | Some s => if has_prec p s then Some s else None
      | None => None
      end
  end.

(** lemon/lemon.c:857-887 FindRulePrecedences: the precsym of each rule. *)
Definition FindRulePrecedences (ignorePrec yaccPrec : bool) (p : precs) (g : grammar) (precsym : list (option nat))
  : list (option nat) :=
  if ignorePrec then precsym
  else map (fun '(r, ps) => rule_precsym yaccPrec p (g_nterm g) (r_rhs r) ps) (combine (g_rules g) precsym).

(** The value of an enumerator of e_action as used by actioncmp (enum order,
    lemon/lemon.c:337-349). *)
Definition e_action_num (t : e_action) : nat :=
  match t with
  | SHIFT => 0 | ACCEPT => 1 | REDUCE => 2 | ERROR => 3 | SSCONFLICT => 4 | SRCONFLICT => 5
  | RRCONFLICT => 6 | SH_RESOLVED => 7 | RD_RESOLVED => 8 | NOT_USED => 9 | SHIFTREDUCE => 10
  end.

(** lemon/lemon.c:560-577 actioncmp, as cmp(x,y)<=0 on pairs of the node address
    and its contents.  Ties are broken by the address ([ap2 - ap1]); the cast
    of the pointer difference to int is taken to keep its sign. *)
Definition actioncmp_le (x y : nat * action) : bool :=
  let (ax, a) := x in
  let (ay, b) := y in
  if a_sp a =? a_sp b then
    if e_action_num (a_type a) =? e_action_num (a_type b) then
      match a_type a with
      | REDUCE | SHIFTREDUCE => if a_arg a =? a_arg b then ay <=? ax else a_arg a <? a_arg b
      | _ => ay <=? ax
      end
    else e_action_num (a_type a) <? e_action_num (a_type b)
  else a_sp a <? a_sp b.

(** lemon/lemon.c:579-585 Action_sort; [addr i] is the address of the i-th node
    of the list. *)
Definition Action_sort (addr : nat -> nat) (ap : list action) : list action :=
  map snd (msort actioncmp_le (combine (map addr (seq 0 (length ap))) ap)).

(** lemon/lemon.c:1220-1226: reduce actions of one completed configuration. *)
Fixpoint reduces_one (fws : cset) (r : nat) (terms : list nat) (ap : list action) : list action :=
  match terms with
  | [] => ap
  | j :: t => reduces_one fws r t (if SetFind fws j then Action_add ap REDUCE j r else ap)
  end.

(** lemon/lemon.c:1218-1229: loop over the configurations of a state. *)
Fixpoint reduces_cfgs (g : grammar) (h : list config) (l : list nat) (ap : list action) : res (list action) :=
  match l with
  | [] => Ok ap
  | x :: r =>
      c <- opt (nth_error h x) ;;
      rp <- opt (nth_error (g_rules g) (c_rp c)) ;;
      if length (r_rhs rp) =? c_dot c
      then reduces_cfgs g h r (reduces_one (c_fws c) (c_rp c) (seq 0 (g_nterm g)) ap)
      else reduces_cfgs g h r ap
  end.

(** lemon/lemon.c:1216-1230: loop over the states. *)
Fixpoint reduces_states (g : grammar) (h : list config) (sts : list state) : res (list (list action)) :=
  match sts with
  | [] => Ok []
  | st :: r =>
      ap <- reduces_cfgs g h (s_cfp st) (s_ap st) ;;
      aps <- reduces_states g h r ;;
      Ok (ap :: aps)
  end.

(** lemon/lemon.c:1216-1250, FindActions up to adding the accepting token: the
    action list of each state. *)
Definition actions_added (g : grammar) (L : lemon) : res (list (list action)) :=
  aps <- reduces_states g (l_cfgs L) (l_states L) ;;
  match aps with
  | [] => Bad
  | ap0 :: r => Ok (Action_add ap0 ACCEPT (g_start g) 0 :: r)
  end.

Definition with_type (a : action) (t : e_action) : action := mkAction t (a_sp a) (a_arg a).

(** The action types named in the assertion at lemon/lemon.c:1340-1351. *)
Definition settled (t : e_action) : bool :=
  match t with
  | SH_RESOLVED | RD_RESOLVED | SSCONFLICT | SRCONFLICT | RRCONFLICT => true
  | _ => false
  end.

(** lemon/lemon.c:1293-1356 resolve_conflict; [ps] gives rule.precsym.  Returns
    both actions and errcnt; a failed assertion is [Bad]. *)
Definition resolve_conflict (p : precs) (ps : list (option nat)) (apx apy : action)
  : res (action * action * nat) :=
  if negb (a_sp apx =? a_sp apy) then Bad else
  match a_type apx, a_type apy with
  | SHIFT, SHIFT => Ok (apx, with_type apy SSCONFLICT, 1)
  | SHIFT, REDUCE =>
      o <- opt (nth_error ps (a_arg apy)) ;;
      match o with
      | None => Ok (apx, with_type apy SRCONFLICT, 1)
      | Some spy =>
          match p_prec p (a_sp apx), p_prec p spy with
          | Some px, Some py =>
              if py <? px then Ok (apx, with_type apy RD_RESOLVED, 0)
              else if px <? py then Ok (with_type apx SH_RESOLVED, apy, 0)
              else match p_assoc p (a_sp apx) with
                   | RIGHT => Ok (apx, with_type apy RD_RESOLVED, 0)
                   | LEFT => Ok (with_type apx SH_RESOLVED, apy, 0)
                   | NONE | PRECEDENCE => Ok (with_type apx ERROR, apy, 0)
                   | UNK => Bad
                   end
          | _, _ => Ok (apx, with_type apy SRCONFLICT, 1)
          end
      end
  | REDUCE, REDUCE =>
      ox <- opt (nth_error ps (a_arg apx)) ;;
      oy <- opt (nth_error ps (a_arg apy)) ;;
      match ox, oy with
      | Some spx, Some spy =>
          match p_prec p spx, p_prec p spy with
          | Some px, Some py =>
              if px =? py then Ok (apx, with_type apy RRCONFLICT, 1)
              else if py <? px then Ok (apx, with_type apy RD_RESOLVED, 0)
              else Ok (with_type apx RD_RESOLVED, apy, 0)
          | _, _ => Ok (apx, with_type apy RRCONFLICT, 1)
          end
      | _, _ => Ok (apx, with_type apy RRCONFLICT, 1)
      end
  | tx, ty => if settled tx || settled ty then Ok (apx, apy, 0) else Bad
  end.

(** lemon/lemon.c:1259-1263: the inner loop, [ap] against the following actions
    on the same symbol. *)
Fixpoint resolve_inner (p : precs) (ps : list (option nat)) (ap : action) (rest : list action)
  : res (action * list action * nat) :=
  match rest with
  | [] => Ok (ap, [], 0)
  | nap :: r =>
      if a_sp nap =? a_sp ap then
        '(ap1, nap1, n) <- resolve_conflict p ps ap nap ;;
        '(ap2, r2, m) <- resolve_inner p ps ap1 r ;;
        Ok (ap2, nap1 :: r2, n + m)
      else Ok (ap, rest, 0)
  end.

(** lemon/lemon.c:1258-1264: the outer loop; fuel = length of the list. *)
Fixpoint resolve_list (fuel : nat) (p : precs) (ps : list (option nat)) (l : list action)
  : res (list action * nat) :=
  match l with
  | [] => Ok ([], 0)
  | ap :: rest =>
      match fuel with
      | 0 => Fuel
      | S f =>
          '(ap1, rest1, n) <- resolve_inner p ps ap rest ;;
          '(rest2, m) <- resolve_list f p ps rest1 ;;
          Ok (ap1 :: rest2, n + m)
      end
  end.

(** lemon/lemon.c:1253-1265: resolution in every state; [addr q i] is the
    address of the i-th action node of state [q]. *)
Fixpoint resolve_states (addr : nat -> nat -> nat) (p : precs) (ps : list (option nat)) (q : nat)
  (aps : list (list action)) : res (list (list action) * nat) :=
  match aps with
  | [] => Ok ([], 0)
  | ap :: r =>
      '(ap1, n) <- resolve_list (length ap) p ps (Action_sort (addr q) ap) ;;
      '(r1, m) <- resolve_states addr p ps (S q) r ;;
      Ok (ap1 :: r1, n + m)
  end.

(** lemon/lemon.c:1268-1274: the rules that some REDUCE action uses. *)
Definition canReduce (aps : list (list action)) (r : nat) : bool :=
  existsb (existsb (fun a => match a_type a with REDUCE => a_arg a =? r | _ => false end)) aps.

(** lemon/lemon.c:1204-1280 FindActions: the action lists, nconflict, and the
    rules reported as "This rule can not be reduced" (errorcnt grows by their
    number). *)
Definition FindActions (addr : nat -> nat -> nat) (p : precs) (ps : list (option nat)) (g : grammar) (L : lemon)
  : res (list (list action) * nat * list nat) :=
  aps <- actions_added g L ;;
  '(aps1, n) <- resolve_states addr p ps 0 aps ;;
  Ok (aps1, n, filter (fun r => negb (canReduce aps1 r)) (seq 0 (length (g_rules g)))).

(** lemon/lemon.c:1822-1841 (in main): first sets, states, links, follow sets. *)
Definition lemon_front (sfuel ffuel : nat) (g : grammar) : res lemon :=
  '(lam, fs) <- FindFirstSets (first_fuel g) g ;;
  L <- FindStates sfuel g lam fs ;;
  L1 <- FindLinks L ;;
  FindFollowSets ffuel L1.
