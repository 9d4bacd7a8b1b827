(** C42: byacc's packed tables return exactly what was put in. *)
From Coq Require Import List Arith NArith ZArith Lia Bool.
Import ListNotations.
From Verif Require Import Base ByaccWarshallModel ByaccLr0Model ByaccLalrModel ByaccParModel ByaccOutputModel ByaccPackTableProof.

(** A bound for all indices. *)
Lemma bound_ex : forall vs : list vec, exists F, forall v e, In v vs -> In e (v_ent v) -> (fst e <= Z.of_nat F)%Z.
Proof.
  induction vs as [|v vs (F & H)]; [exists 0; intros v e []|].
  assert (X : exists G, forall e, In e (v_ent v) -> (fst e <= Z.of_nat G)%Z).
  { induction (v_ent v) as [|a l (G & HG)]; [exists 0; intros e []|]. exists (Nat.max G (Z.to_nat (fst a))). intros e [<-|I]; [lia|]. specialize (HG e I). lia. }
  destruct X as (G & HG). exists (Nat.max F G). intros u e [<-|I] Ie; [specialize (HG e Ie)|specialize (H u e I Ie)]; lia.
Qed.

(** More fuel does not change a result. *)
Lemma find_place_mono : forall l pos fuel fuel' j t c r, find_place fuel j l pos t c = Ok r -> fuel <= fuel' -> find_place fuel' j l pos t c = Ok r.
Proof.
  intros l pos. induction fuel as [|f IH]; intros fuel' j t c r E L; [discriminate|]. destruct fuel' as [|f']; [lia|]. cbn [find_place] in *.
  destruct (j =? 0)%Z; [apply IH; [exact E|lia]|]. destruct (try_cells j l t c) as [[[ok t'] c']| |]; cbn [bind] in *; try discriminate.
  destruct (ok && negb (existsb (Z.eqb j) pos)); [exact E|]. apply IH; [exact E|lia].
Qed.
Lemma pack_vector_mono : forall fuel fuel' v k r, pack_vector fuel v k = Ok r -> fuel <= fuel' -> pack_vector fuel' v k = Ok r.
Proof.
  intros fuel fuel' v k r E L. unfold pack_vector in *. destruct (first_place (k_lowzero k) (v_ent v)) as [j0| |]; cbn [bind] in *; try discriminate.
  destruct (find_place fuel j0 (v_ent v) (k_pos k) (k_table k) (k_check k)) as [x| |] eqn:E1; cbn [bind] in E; try discriminate.
  rewrite (find_place_mono _ _ _ _ _ _ _ _ E1 L). exact E.
Qed.
Lemma pack_loop_mono : forall vs n fuel fuel' order prevs k r, pack_loop fuel vs n order prevs k = Ok r -> fuel <= fuel' -> pack_loop fuel' vs n order prevs k = Ok r.
Proof.
  intros vs n fuel fuel'. induction order as [|i order IH]; intros prevs k r E L; cbn [pack_loop] in *; [exact E|].
  destruct (opt (nth_error vs i)) as [v| |]; cbn [bind] in *; try discriminate. destruct (matching_vector vs n i v prevs) as [o| |]; cbn [bind] in *; try discriminate.
  destruct o as [j|].
  - destruct (bind (opt (nth_error (k_base k) j)) (fun p => Ok (p, k))) as [[p k']| |]; cbn [bind] in *; try discriminate.
    destruct (put (k_base k') i p) as [bs| |]; cbn [bind] in *; try discriminate. now apply IH.
  - destruct (pack_vector fuel v k) as [[p k']| |] eqn:E1; cbn [bind] in E; try discriminate. rewrite (pack_vector_mono _ _ _ _ _ E1 L). cbn [bind].
    destruct (put (k_base k') i p) as [bs| |]; cbn [bind] in *; try discriminate. now apply IH.
Qed.

(** Every vector has indices at least 0 and pairwise different (token codes and state
    numbers). *)
Definition rows_ok (vs : list vec) : Prop :=
  forall v, In v vs -> (forall e, In e (v_ent v) -> (0 <= fst e)%Z) /\ NoDup (map fst (v_ent v)).

(** Whenever packing succeeds, the parser's lookup in the tables as they are written
    out, at the base of vector [i] with any index [x], reads within the tables and
    finds [t] exactly if the vector has the entry [x -> t]. *)
Theorem C42_lookup : forall fuel vs nstates k, rows_ok vs -> pack_table fuel vs nstates = Ok k ->
  forall i v x, nth_error vs i = Some v -> (0 <= x)%Z ->
  exists o, ylookup (k_high k) (firstn (S (k_high k)) (k_table k)) (firstn (S (k_high k)) (k_check k)) (nth i (k_base k) 0%Z) x = Ok o /\
    forall t, o = Some t <-> In (x, t) (v_ent v).
Proof.
  intros fuel vs n k RO E i v x Ev Hx. destruct (bound_ex vs) as (F & HF).
  set (f' := Nat.max fuel (S (length vs) * (F + 2))).
  pose proof (pack_loop_mono vs n fuel f' _ _ _ _ E ltac:(lia)) as E'.
  destruct (pack_table_ok vs n RO F HF f' ltac:(lia)) as [(pk & k' & E1 & E2)|[E1 _]]; unfold pack_table in E1; rewrite E' in E1; [|discriminate].
  inversion E1; subst k'. exact (lookup_ok vs pk k E2 i v x Ev Hx).
Qed.
Print Assumptions C42_lookup.

(** Packing always ends, and with fewer than 1000 entries in all it never touches
    memory outside its arrays. *)
Theorem C42_safe : forall vs nstates, rows_ok vs -> exists fuel0, forall fuel, fuel0 <= fuel ->
  (exists k, pack_table fuel vs nstates = Ok k) \/ (pack_table fuel vs nstates = Bad /\ 1000 <= list_sum (map (fun v => length (v_ent v)) vs)).
Proof.
  intros vs n RO. destruct (bound_ex vs) as (F & HF). exists (S (length vs) * (F + 2)). intros fuel Hf.
  destruct (pack_table_ok vs n RO F HF fuel Hf) as [(pk & k & E1 & _)|E]; [left; exists k; exact E1|right; exact E].
Qed.
Print Assumptions C42_safe.

(** From 1000 entries on it may: the row {1, 1200} goes to cells 0 and 1199, which
    makes the table grow to exactly 1200 cells; the row {3, ..., 1200} then fills cells
    1 to 1198, and the loop that moves lowzero reads check[1200]. *)
Definition over42 : list vec :=
  [mkVec [(1, 1); (1200, 2)]%Z 1200; mkVec (map (fun i => (Z.of_nat i, Z.of_nat i)) (seq 3 1198)) 1198].
Theorem C42_overflow_refuted : exists vs nstates fuel, rows_ok vs /\ pack_table fuel vs nstates = Bad.
Proof.
  exists over42, 1, 10. split; [|vm_compute; reflexivity].
  intros v [<-|[<-|[]]]; cbn [v_ent].
  - split; [intros e [<-|[<-|[]]]; cbn; lia|]. repeat constructor; cbn; intuition lia.
  - split; [intros e I; apply in_map_iff in I; destruct I as (i & <- & _); cbn; lia|]. rewrite map_map. cbn [fst].
    apply FinFun.Injective_map_NoDup; [intros a b; lia|apply seq_NoDup].
Qed.
Print Assumptions C42_overflow_refuted.

(** Two tokens with the same code: the later entry of a row hides the earlier. *)
Theorem C42_duplicate_refuted : exists vs nstates k i v x t, pack_table 10 vs nstates = Ok k /\ nth_error vs i = Some v /\ (0 <= x)%Z /\ In (x, t) (v_ent v) /\
  ylookup (k_high k) (firstn (S (k_high k)) (k_table k)) (firstn (S (k_high k)) (k_check k)) (nth i (k_base k) 0%Z) x <> Ok (Some t).
Proof.
  exists [mkVec [(300, 1); (300, 2)]%Z 1], 1. eexists. exists 0. eexists. exists 300%Z, 1%Z. split; [vm_compute; reflexivity|]. split; [reflexivity|]. split; [lia|].
  split; [now left|]. vm_compute. discriminate.
Qed.
Print Assumptions C42_duplicate_refuted.

(** Four rows with overlapping indices and equal rows: rows 0 and 1 interleave, row 2
    equals row 0 and shares its place, row 3 is empty. *)
Definition ex42 : list vec :=
  [mkVec [(40, 1); (42, 2); (45, 3)]%Z 6; mkVec [(40, 7); (41, 8); (43, 9)]%Z 4; mkVec [(40, 1); (42, 2); (45, 3)]%Z 6; mkVec [] 0; mkVec [(0, 5); (2, 6)]%Z 3].
Definition k42 : pack := Eval vm_compute in match pack_table 100 ex42 2 with Ok k => k | _ => mkPack [] [] 0 0 [] [] end.
Example C42_hypotheses : rows_ok ex42 /\ pack_table 100 ex42 2 = Ok k42 /\ k_base k42 = [-40; -37; -40; 0; 7]%Z /\ k_high k42 = 9 /\
  ylookup (k_high k42) (firstn (S (k_high k42)) (k_table k42)) (firstn (S (k_high k42)) (k_check k42)) (-37) 43 = Ok (Some 9%Z) /\
  ylookup (k_high k42) (firstn (S (k_high k42)) (k_table k42)) (firstn (S (k_high k42)) (k_check k42)) (-37) 42 = Ok None.
Proof.
  split.
  - intros v [<-|[<-|[<-|[<-|[<-|[]]]]]]; cbn; (split; [intros e H; intuition (subst; cbn; lia)|]); repeat constructor; cbn; intuition lia.
  - repeat split; vm_compute; reflexivity.
Qed.
