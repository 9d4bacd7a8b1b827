(** C54: the scanner of lemon recognises the lexical grammar [lexes] of LemonScanProof, with
    right line numbers. *)
From Coq Require Import String List Arith ZArith Bool Lia.
Import ListNotations.
From Verif Require Import Base LemonTableModel LemonPreModel LemonReadModel LemonScanProof.
Local Open Scope Z_scope.

Lemma lexes_no_error : forall E n z l, lexes E n z l -> ~ In EvErr l.
Proof. intros E n z l H. induction H; cbn; try tauto; (intros [K|K]; [discriminate|tauto]). Qed.

Lemma scan_total : forall n z, exists l,
  (lexes complete n z l /\ scan (S (length z)) n z = Ok l) \/
  (exists m t, (lexes open_string n z l \/ lexes open_code n z l) /\ scan (S (length z)) n z = Ok (l ++ [EvErr; EvTok m t])) \/
  (lexes overrun n z l /\ scan (S (length z)) n z = Bad).
Proof.
  intros n z. destruct (lexes_total (length z) n z (le_n _)) as (l & H). exists l. apply lexes_or in H as [H|H]; [|apply lexes_or in H as [H|H]; [|apply lexes_or in H as [H|H]]];
    destruct (scan_lexes _ _ _ _ H) as (n' & z' & EZ & K); destruct (K (S (length z)) ltac:(lia)) as (f & F & ->).
  - left. split; [exact H|]. rewrite (scan_complete _ _ _ EZ F). cbn [bind]. now rewrite app_nil_r.
  - right. left. exists n', z'. split; [auto|]. now rewrite (scan_open_string _ _ _ EZ F).
  - right. left. exists n', z'. split; [auto|]. now rewrite (scan_open_code _ _ _ EZ F).
  - right. right. split; [exact H|]. now rewrite (scan_overrun _ _ _ EZ F).
Qed.

(** The scanner ends without a message and hands on the tokens [l] exactly when [l] are the
    tokens of the text. *)
Theorem C54_tokens : forall n z l, (scan (S (length z)) n z = Ok l /\ ~ In EvErr l) <-> lexes complete n z l.
Proof.
  intros n z l. split.
  - intros (H & NE). destruct (scan_total n z) as (l' & [(X & Y)|[(m & t & _ & Y)|(_ & Y)]]); rewrite Y in H; inversion H; subst; [exact X|]. destruct NE. apply in_app_iff. right. now left.
  - intros H. split; [|eapply lexes_no_error; eauto]. destruct (scan_lexes _ _ _ _ H) as (n' & z' & EZ & K). destruct (K (S (length z)) ltac:(lia)) as (f & F & ->).
    rewrite (scan_complete _ _ _ EZ F). cbn [bind]. now rewrite app_nil_r.
Qed.

(** It gives a message, after the tokens in front of it, exactly when the text ends in a
    string or in a block of C code; the rest of the text is then the last token. *)
Theorem C54_message : forall n z l,
  (exists m t, scan (S (length z)) n z = Ok (l ++ [EvErr; EvTok m t])) <-> lexes (fun r => open_string r \/ open_code r) n z l.
Proof.
  intros n z l. split.
  - intros (m & t & H). destruct (scan_total n z) as (l' & [(X & Y)|[(m' & t' & X & Y)|(_ & Y)]]); rewrite Y in H; [|inversion H as [H']; clear H|discriminate].
    + inversion H; subst. pose proof (lexes_no_error _ _ _ _ X) as NE. destruct NE. apply in_app_iff. right. now left.
    + replace [EvErr; EvTok m' t'] with ([EvErr] ++ [EvTok m' t']) in H' by reflexivity. replace [EvErr; EvTok m t] with ([EvErr] ++ [EvTok m t]) in H' by reflexivity.
      rewrite !app_assoc in H'. apply app_inj_tail in H' as (H1 & _). apply app_inj_tail in H1 as (-> & _).
      assert (MONO : forall A B : text -> Prop, (forall r, A r -> B r) -> lexes A n z l -> lexes B n z l).
      { clear. intros A B AB H. revert AB. induction H; intros AB; [apply lx_end|apply lx_blank|apply lx_line|apply lx_comment|apply lx_string|apply lx_code|apply lx_word|apply lx_arrow|apply lx_alt|apply lx_char]; auto. }
      destruct X as [X|X]; (eapply MONO; [|exact X]); auto.
  - intros H. destruct (scan_lexes _ _ _ _ H) as (n' & z' & EZ & K). destruct (K (S (length z)) ltac:(lia)) as (f & F & ->). exists n', z'.
    destruct EZ as [EZ|EZ]; [rewrite (scan_open_string _ _ _ EZ F)|rewrite (scan_open_code _ _ _ EZ F)]; reflexivity.
Qed.

(** It runs out of the text exactly when the text ends in a comment or a literal that starts
    in an open block of C code. *)
Theorem C54_in_bounds : forall n z, (exists r, scan (S (length z)) n z = Ok r) <-> ~ exists l, lexes overrun n z l.
Proof.
  intros n z. split.
  - intros (r & H) (l & X). destruct (scan_lexes _ _ _ _ X) as (n' & z' & EZ & K). destruct (K (S (length z)) ltac:(lia)) as (f & F & Y). rewrite (scan_overrun _ _ _ EZ F) in Y. cbn [bind] in Y. congruence.
  - intros H. destruct (scan_total n z) as (l' & [(X & Y)|[(m & t & _ & Y)|(X & Y)]]); eauto. destruct H. eauto.
Qed.

(** Such texts exist: the cp++ of the loop over the block then steps over the zero byte
    (lemon/lemon.c:3157-3189). *)
Theorem C54_bounds_refuted : exists z, scan (S (length z)) 1 z = Bad /\ exists l, lexes overrun 1 z l.
Proof.
  exists (zs "a::=B.{/*"). split; [vm_compute; reflexivity|]. destruct (scan_total 1 (zs "a::=B.{/*")) as (l' & [(X & Y)|[(m & t & _ & Y)|(X & Y)]]); [vm_compute in Y; discriminate|vm_compute in Y; discriminate|eauto].
Qed.

(** ** Examples *)
Definition sample : text := zs "// rules
e ::= e /* op */ PLUS|MINUS t(X). { f(""}'""); // }
}
%name ""P""".

Example C54_sample : lexes complete 1 sample
  [EvTok 2 (zs "e"); EvTok 2 (zs "::="); EvTok 2 (zs "e"); EvTok 2 (zs "PLUS"); EvTok 2 (zs "|MINUS"); EvTok 2 (zs "t"); EvTok 2 (zs "("); EvTok 2 (zs "X"); EvTok 2 (zs ")"); EvTok 2 (zs ".");
   EvTok 2 (zs "{ f(""}'""); // }
"); EvTok 4 (zs "%"); EvTok 4 (zs "name"); EvTok 4 (zs """P")].
Proof. apply C54_tokens. split; [vm_compute; reflexivity|]. cbn. intuition discriminate. Qed.

Example C54_sample_message : lexes (fun r => open_string r \/ open_code r) 1 (zs "a { b }
{{ '}' }") [EvTok 1 (zs "a"); EvTok 1 (zs "{ b ")].
Proof. apply C54_message. exists 2, (zs "{{ '}' }"). vm_compute. reflexivity. Qed.

Example C54_sample_bounds : ~ exists l, lexes overrun 1 sample l.
Proof. apply C54_in_bounds. eexists. vm_compute. reflexivity. Qed.

Print Assumptions C54_tokens.
Print Assumptions C54_message.
Print Assumptions C54_in_bounds.
Print Assumptions C54_bounds_refuted.
