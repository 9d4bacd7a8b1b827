(** C33: byacc's closure of a kernel. *)
From Coq Require Import List Arith NArith ZArith Lia Bool Sorted.
Import ListNotations.
From Verif Require Import Base SpecGrammar SpecLRFacts SpecByacc ByaccLr0Model ByaccPackProof ByaccClosureProof Prop_ByaccNullable.

(** byacc stands for an item by its position in the array ritem.  For every grammar
    set_first_derives succeeds, and with its result closure, given the positions of
    any items in increasing order, returns the positions of exactly the items of
    their closure, strictly increasing, and stays inside all its arrays. *)
Theorem C33_closure_exact : forall s fuel, wf_src s -> b_nsyms s < fuel ->
  exists fd, set_first_derives fuel (pack_grammar s) (set_derives (pack_grammar s)) = Ok fd /\
  forall K, (forall i, In i K -> item_ok (aug s) i) -> StronglySorted lt (map (idx s) K) ->
  exists I, closure (pack_grammar s) fd (map (idx s) K) = Ok (map (idx s) I) /\
    StronglySorted lt (map (idx s) I) /\ NoDup I /\
    forall i, In i I <-> clos (aug s) (fun k => In k K) i.
Proof.
  intros s fuel W F. destruct (derives_fd s W fuel) as (fd & E & FD). { rewrite nvars_eq. lia. }
  exists fd. split; [exact E|]. intros K OK SK.
  destruct (closure_spec s W fd (map (idx s) K) FD SK) as (its & C & S & M).
  { intros c Hc. apply in_map_iff in Hc as (i & <- & Hi). exists i. auto. }
  assert (KK : forall i, kitems s (map (idx s) K) i <-> In i K).
  { intros i. split.
    - intros [O I]. apply in_map_iff in I as (j & Ej & Ij). apply idx_inj in Ej; [now subst|now apply OK|auto].
    - intros I. split; [auto|]. now apply in_map. }
  assert (X : exists I, its = map (idx s) I /\ forall i, In i I -> clos (aug s) (fun k => In k K) i).
  { assert (MM : forall x, In x its -> exists i, clos (aug s) (fun k => In k K) i /\ x = idx s i).
    { intros x Hx. apply M in Hx as (i & Ci & ->). exists i. split; [|auto]. eapply clos_ext; [|exact Ci]. intros j. apply KK. }
    clear - MM. induction its as [|x its IH]; [exists []; split; [auto|intros i []]|].
    destruct IH as (I & -> & H). { intros y Hy. apply MM. now right. }
    destruct (MM x (or_introl eq_refl)) as (i & Ci & ->). exists (i :: I). split; [auto|]. intros j [<-|Hj]; auto. }
  destruct X as (I & -> & HI). exists I. split; [auto|]. split; [auto|]. split.
  { apply srt_NoDup, NoDup_map_inv in S. exact S. }
  intros i. split; [apply HI|]. intros Ci.
  assert (C2 : clos (aug s) (kitems s (map (idx s) K)) i) by (eapply clos_ext; [|exact Ci]; intros j; apply KK).
  assert (I2 : In (idx s i) (map (idx s) I)) by (apply M; exists i; auto).
  apply in_map_iff in I2 as (j & Ej & Ij). apply idx_inj in Ej; [now subst| |].
  - apply (clos_ok _ (fun k => In k K)); [auto|now apply HI].
  - apply (clos_ok _ (fun k => In k K)); auto.
Qed.
Print Assumptions C33_closure_exact.

(** The closure of {f : g .} and {g : g . g}, with the grammar of C31. *)
Definition fd31 : list N := match set_first_derives 9 (pack_grammar ex31) (set_derives (pack_grammar ex31)) with Ok fd => fd | _ => [] end.
Example C33_hypotheses : StronglySorted lt (map (idx ex31) [(3, 1); (5, 1)]) /\
  (forall i, In i [(3, 1); (5, 1)] -> item_ok (aug ex31) i) /\
  closure (pack_grammar ex31) fd31 (map (idx ex31) [(3, 1); (5, 1)]) =
    Ok (map (idx ex31) [(3, 1); (4, 0); (5, 0); (5, 1)]).
Proof.
  split; [cbn; repeat constructor|]. split; [|vm_compute; reflexivity].
  intros i [<-|[<-|[]]]; eexists; (split; [reflexivity|cbn; lia]).
Qed.
