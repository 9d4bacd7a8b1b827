(** C31: byacc's nullable nonterminals. *)
From Coq Require Import List Arith NArith ZArith Lia Bool.
Import ListNotations.
From Verif Require Import Base SpecGrammar SpecByacc ByaccLr0Model ByaccPackProof ByaccNullProof.

(** On every grammar set_nullable ends after at most nsyms + 1 passes, stays inside
    its arrays, and marks exactly the symbols that derive the empty string ($accept,
    which has no rule in the user's grammar, is not marked). *)
Theorem C31_nullable_exact : forall s fuel, wf_src s -> b_nsyms s < fuel ->
  exists nl, set_nullable fuel (pack_grammar s) = Ok nl /\ length nl = b_nsyms s /\
    forall x, nth x nl false = true <-> derives (user s) [ESym x] [].
Proof. intros s fuel W F. exact (set_nullable_ok s W fuel F). Qed.
Print Assumptions C31_nullable_exact.

(** Tokens $end, error, X; e : f f | X, f : g, g : empty | g g, h : X h. *)
Definition ex31 : bsrc := mkSrc 3 8 [(4, [5; 5]); (4, [2]); (5, [6]); (6, []); (6, [6; 6]); (7, [2; 7])].
Example C31_hypotheses : wf_src ex31 /\ b_nsyms ex31 < 9 /\
  set_nullable 9 (pack_grammar ex31) = Ok [false; false; false; false; true; true; true; false].
Proof. split; [apply wf_srcb_ok; reflexivity|]. split; [cbn; lia|reflexivity]. Qed.
