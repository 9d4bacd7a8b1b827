(** C72: which grammar files the reader of byacc accepts. *)
From Coq Require Import String List Arith ZArith Bool Lia.
Import ListNotations.
From Verif Require Import Base LemonTableModel LemonPreModel LemonCodeModel ByaccParModel ByaccReaderModel ByaccRulesModel ByaccScanModel SpecByaccFile
  ByaccScanProof ByaccTableProof ByaccDeclProof ByaccActionProof ByaccFileProof ByaccRejectProof Prop_ByaccFile.

(** A text with the form of a grammar file is accepted exactly if it breaks none of the rules of [file_ok]. *)
Theorem C72_accepts : forall F file, file_text F (input file) -> (exists s, read_file file = ROk s) <-> file_ok F.
Proof. exact file_exact. Qed.
Print Assumptions C72_accepts.

(** If it is not accepted, byacc stops with a message (or reads a tag that is not there); it does not run on. *)
Theorem C72_rejects : forall F file, file_text F (input file) -> ~ file_ok F -> read_file file = RErr \/ read_file file = RBad.
Proof. intros F file FT N. destruct (file_reject F file FT) as [H|H]; [contradiction|exact H]. Qed.
Print Assumptions C72_rejects.

(** A text has one meaning as far as being accepted goes: two readings of it are both right or both wrong. *)
Theorem C72_agree : forall F G file, file_text F (input file) -> file_text G (input file) -> file_ok F -> file_ok G.
Proof. intros F G file A B H. apply (C72_accepts G file B). now apply (C72_accepts F file A). Qed.
Print Assumptions C72_agree.

(** * Examples *)

Example accepted : exists s, read_file ex_file = ROk s.
Proof. apply (C72_accepts ex_F ex_file ex_text). exact ex_ok. Qed.

(** The start symbol is a token. *)
Definition bad_file : txt := zs "%token N%start N%%s:N".
Definition bad_F : bfile := mkFile [DTokens None None [(ex_name "N", None)]; DStart (zs "N")] [mkF (zs "s") [FSym (ex_name "N")] []].
Example bad_text : file_text bad_F (input bad_file).
Proof.
  set (t := input bad_file). assert (E : t = [] ++ zs "%token N%start N%%" ++ zs "s:N" ++ [10%Z]) by reflexivity. rewrite E. clear t E.
  apply FT_file with (p := 37%Z) (q := 37%Z) (g' := []) (u := zs "s:N" ++ [10%Z]); try (now left); [constructor|vis| |constructor|vis|].
  - eapply DS_cons; [|eapply DS_cons; [|apply DS_nil]].
    + eapply (DT_tokens None None _ 37 _ [32%Z] _ _ (zs "%start N%%s:N" ++ [10%Z])); [now left|apply TK_token, (ex_key _ "token"); [now left|reflexivity|reflexivity|reflexivity]|repeat constructor; cbn; auto|vis|apply OT_none; discriminate|vis|].
      eapply (TL_plain (ex_name "N") [] _ [] (zs "%start N%%s:N" ++ [10%Z])); [now apply (ex_sym "N")|constructor|vis|cbn; unfold digit; lia|].
      apply TL_nil; [vis|]. unfold sym_start. cbn. intros [X|X]; [discriminate|lia].
    + eapply (DT_start (zs "N") 37 _ [32%Z] _ [] (zs "%%s:N" ++ [10%Z])); [now left|apply (ex_key _ "start"); [now left|reflexivity|reflexivity|reflexivity]|repeat constructor; cbn; auto| |constructor|vis]. now apply (ex_sym "N").
  - eapply RT_cons; [|apply RT_end]. eapply (GT_group _ _ _ _ [] [] _ []); [now apply (ex_sym "s")|constructor|constructor|right; vis| |apply AL_nil].
    eapply PS_cons; [|apply PS_nil]. eapply (PT_sym _ _ [10%Z] _); [now apply (ex_sym "N")|repeat constructor; cbn; tauto|now left|exact Logic.I].
Qed.
Example bad_not_ok : ~ file_ok bad_F.
Proof. intros [_ _ H _ _ _ _]. apply (H [DTokens None None [(ex_name "N", None)]] (zs "N") [] eq_refl). right. vm_compute. tauto. Qed.
Example rejected : read_file bad_file = RErr \/ read_file bad_file = RBad.
Proof. exact (C72_rejects bad_F bad_file bad_text bad_not_ok). Qed.

(** Each rule of [file_ok] broken once. *)
Example rejected_all : Forall (fun f => read_file f = RErr)
  [zs "%%s:$accept"; zs "%token s%%s:"; zs "%start s%token s%%s:"; zs "%start t%%s:"; zs "%type<i>s%%s:t{$1;}"; zs "%union{int i;}%union{int j;}%%s:"; zs "%%$s:"; zs "%%%%"; zs "%%error:"].
Proof. repeat (constructor; [vm_compute; reflexivity|]). constructor. Qed.

(** * What does not hold *)

(** A symbol named in %start may be a token, if another %start comes first. *)
Theorem C72_start_refuted : exists a b s, read_file (a ++ b) = RErr /\ read_file (a ++ zs "%start s" ++ b) = ROk s /\ a = zs "%start t" /\ b = zs "%token t%%s:t".
Proof. exists (zs "%start t"), (zs "%token t%%s:t"). eexists. split; [vm_compute; reflexivity|]. split; [vm_compute; reflexivity|]. split; reflexivity. Qed.
Print Assumptions C72_start_refuted.

(** The order of the rules matters: a left side that begins with a dollar sign may not come first. *)
Theorem C72_order_refuted : exists a b s, read_file (zs "%start s%%" ++ a ++ b) = ROk s /\ read_file (zs "%start s%%" ++ b ++ a) = RErr.
Proof. exists (zs "s:'x';"), (zs "$t:'y';"). eexists. split; vm_compute; reflexivity. Qed.
Print Assumptions C72_order_refuted.

(** With tags, a reference to symbol 0 of a rule without symbols is an error if it is written with a minus sign. *)
Theorem C72_zero_refuted : exists a b s, read_file (a ++ zs "$0" ++ b) = ROk s /\ read_file (a ++ zs "$-0" ++ b) = RErr.
Proof. exists (zs "%type<i>s%%s:{"), (zs ";}"). eexists. split; vm_compute; reflexivity. Qed.
Print Assumptions C72_zero_refuted.

(** A number that the reader accepts can be too small for the arithmetic on it. *)
Theorem C72_overflow_refuted : exists n s, read_file (zs "%%s:'a' 'b'{$-" ++ n ++ zs ";}") = RBad /\ read_file (zs "%%s:'a'{$-" ++ n ++ zs ";}") = ROk s /\ n = zs "2147483647".
Proof. exists (zs "2147483647"). eexists. split; [vm_compute; reflexivity|]. split; [vm_compute; reflexivity|reflexivity]. Qed.
Print Assumptions C72_overflow_refuted.
