(** C01, C25: nullability, FIRST sets and terminal sets of lemon. *)
From Coq Require Import List Arith Lia Bool.
Import ListNotations.
From Verif Require Import Base SpecGrammar SpecGrammarFacts LemonSetModel LemonSetProof LemonFirstModel LemonFirstProof.

(** C25 *)
Theorem C25_SetAdd : forall s e, e < length s ->
  exists s', SetAdd s e = Ok (s', negb (SetFind s e)) /\
    length s' = length s /\
    forall x, SetFind s' x = true <-> SetFind s x = true \/ x = e.
Proof. exact SetAdd_ok. Qed.
Print Assumptions C25_SetAdd.

Example C25_SetAdd_ex : SetAdd [false; true; false] 2 = Ok ([false; true; true], true)
  /\ SetAdd [false; true; false] 1 = Ok ([false; true; false], false).
Proof. split; reflexivity. Qed.

(** Adding outside of the set is caught by the assertion. *)
Theorem C25_SetAdd_assert : forall s e, length s <= e -> SetAdd s e = Bad.
Proof. exact SetAdd_bad. Qed.
Print Assumptions C25_SetAdd_assert.

Theorem C25_SetUnion : forall s1 s2, length s1 = length s2 ->
  exists s' p, SetUnion s1 s2 = Ok (s', p) /\
    length s' = length s1 /\
    (forall x, SetFind s' x = true <-> SetFind s1 x = true \/ SetFind s2 x = true) /\
    (p = true <-> exists x, SetFind s1 x = false /\ SetFind s2 x = true).
Proof. exact SetUnion_ok. Qed.
Print Assumptions C25_SetUnion.

Example C25_SetUnion_ex : SetUnion [false; true; false] [true; true; false] = Ok ([true; true; false], true)
  /\ SetUnion [true; true; false] [true; false; false] = Ok ([true; true; false], false).
Proof. split; reflexivity. Qed.

Theorem C25_SetNew : forall n x, length (SetNew n) = n /\ SetFind (SetNew n) x = false.
Proof. intros n x. split; [apply SetNew_length | apply SetNew_find]. Qed.
Print Assumptions C25_SetNew.

(** C01 *)
Theorem C01_FindFirstSets : forall g, wf_grammar g ->
  exists lam fs, FindFirstSets (first_fuel g) g = Ok (lam, fs) /\
    (length lam = g_nsym g /\ forall s, SetFind lam s = true <-> nullable g [ESym s]) /\
    (forall A t, is_nonterm g A -> (SetFind (nth A fs []) t = true <-> first g [ESym A] t)).
Proof.
  intros g WF. destruct (FindFirstSets_ok g WF) as (lam & fs & E & L & F).
  exists lam, fs. split; [exact E|]. split; [exact L|exact (proj2 F)].
Qed.
Print Assumptions C01_FindFirstSets.

(** S : A B | t2 ; A : (empty) | 1|3 ; B : A A S | (empty): terminals 0..3. *)
Definition exg : grammar := mkGrammar 4 7
  [mkRule 4 [ESym 5; ESym 6]; mkRule 4 [ESym 2]; mkRule 5 []; mkRule 5 [EMulti [1; 3]];
   mkRule 6 [ESym 5; ESym 5; ESym 4]; mkRule 6 []] 4.

Example C01_ex_wf : wf_grammar exg.
Proof. apply wf_grammarb_ok. reflexivity. Qed.

Example C01_ex_run : exists lam fs, FindFirstSets (first_fuel exg) exg = Ok (lam, fs)
  /\ lam = [false; false; false; false; true; true; true]
  /\ nth_error fs 4 = Some [false; true; true; true; false; false]
  /\ nth_error fs 5 = Some [false; true; false; true; false; false].
Proof. do 2 eexists. split; [vm_compute; reflexivity|]. repeat split. Qed.
