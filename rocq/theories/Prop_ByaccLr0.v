(** C34: the LR(0) states built by byacc. *)
From Coq Require Import List Arith NArith ZArith Lia Bool Sorted.
Import ListNotations.
From Verif Require Import Base SpecGrammar SpecLRFacts SpecLR0 SpecByacc ByaccLr0Model ByaccPackProof ByaccClosureProof
  ByaccNullProof ByaccLr0Proof ByaccStatesProof.

(** For every grammar lr0 ends (there are at most 2^nitems states) and stays inside
    its arrays.  The states are those of the LR(0) automaton of the grammar with the
    rule $accept : goal.  A state holds, in increasing order, the positions of its
    kernel items; the list first_shift has at most one record per state, which holds
    the targets of the transitions of the closure in increasing order of symbol; and
    the list first_reduction has at most one per state, which holds the rules of the
    completed items of the closure (except $accept : goal .) in increasing order. *)
Theorem C34_lr0_states : forall s fuel, wf_src s -> b_nsyms s < fuel -> 2 ^ nitems (pack_grammar s) < fuel ->
  exists nl st sts, lr0 fuel (pack_grammar s) = Ok (nl, st) /\
  lr0_automaton (aug s) sts /\ length sts = length (l_cores st) /\
  StronglySorted lt (map fst (l_shifts st)) /\ StronglySorted lt (map fst (l_reds st)) /\
  forall p I sh c, nth_error sts p = Some (I, sh) -> nth_error (l_cores st) p = Some c ->
    (StronglySorted lt (c_items c) /\
     forall y, In y (c_items c) <-> exists i, In i I /\ y = idx s i /\ (if p =? 0 then i = (0, 0) else 0 < snd i)) /\
    (sh = map (fun q => (match nth_error (l_cores st) q with Some c => c_sym c | None => 0 end, q))
            (match find (fun e => fst e =? p) (l_shifts st) with Some e => snd e | None => [] end) /\
     StronglySorted lt (map fst sh)) /\
    (let rd := match find (fun e => fst e =? p) (l_reds st) with Some e => snd e | None => [] end in
     StronglySorted lt rd /\
     forall r, In r rd <-> exists i, In i I /\ after_dot (aug s) i = None /\ fst i <> 0 /\ r = fst i + 2).
Proof.
  intros s fuel W F1 F2. destruct (set_nullable_ok s W fuel F1) as (nl & N1 & _).
  destruct (generate_states_ok s fuel W F1 F2) as (st & E & LO). destruct (lr0_view s W st LO) as (sts & A & L & V).
  exists nl, st, sts. split. { unfold lr0. rewrite N1. cbn [bind]. rewrite E. reflexivity. }
  split; [exact A|]. split; [exact L|]. split; [apply LO|]. split; [apply LO|].
  intros p I sh c Ep Ec. destruct (V _ _ _ Ep) as (V1 & V2 & V3). split; [|split].
  - destruct (core_items s st LO p c Ec) as (K1 & K2 & K3). split; [auto|]. intros y. split.
    + intros Iy. destruct (K2 y Iy) as (i & Si & ->). exists i. split; [now apply V2|]. split; [auto|]. now apply K3.
    + intros (i & Ii & -> & Hi). apply V2 in Ii. now apply (K3 i).
  - split; [exact V3|]. rewrite V3, map_map. cbn [fst]. exact (shifts_srt s st LO p).
  - cbv zeta. destruct (reds_spec s W st LO p) as (R1 & R2); [eapply nth_error_Some_lt; eauto|].
    unfold reds_of, assoc in R1, R2. split; [exact R1|]. intros r. rewrite R2. split; intros (i & Si & H); exists i.
    + split; [now apply V2|]. destruct H as (H1 & H2 & H3). split; [auto|]. split; [auto|lia].
    + split; [now apply V2|]. destruct H as (H1 & H2 & H3). split; [auto|]. split; [auto|lia].
Qed.
Print Assumptions C34_lr0_states.

(** Tokens $end, error, '+', 'n'; e : e '+' t | t ; t : 'n'. *)
Definition ex34 : bsrc := mkSrc 4 7 [(5, [5; 2; 6]); (5, [6]); (6, [3])].
Definition lr34 : lr0st := Eval vm_compute in match lr0 20 (pack_grammar ex34) with Ok (_, st) => st | _ => mkLr0 [] [] [] [] end.
Example C34_hypotheses : wf_src ex34 /\ b_nsyms ex34 < 20 /\ length (l_cores lr34) = 6 /\
  lr0 20 (pack_grammar ex34) = Ok ([false; false; false; false; false; false; false], lr34) /\
  l_shifts lr34 = [(0, [1; 2; 3]); (2, [4]); (4, [1; 5])] /\ l_reds lr34 = [(1, [5]); (3, [4]); (5, [3])].
Proof.
  split; [apply wf_srcb_ok; reflexivity|]. split; [cbn; lia|]. split; [reflexivity|].
  split; [vm_compute; reflexivity|]. split; reflexivity.
Qed.
