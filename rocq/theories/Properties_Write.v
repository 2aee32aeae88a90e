(** C18: reading back what was written. *)
From Coq Require Import ZArith String List Bool Lia.
From Verif Require Import Base Model_Num Model_Lit Model_Read Spec_Read Proofs_ReadTerm Proofs_ReadGap Model_Write Spec_Write Proofs_Write.
Import ListNotations.
Open Scope Z_scope.

(** every readable object, in front of any text that ends a token, for every reader with library extensions *)
Theorem C18_write_then_read : forall r v k, Forall aside r -> readable v -> ends_token k ->
  exists d, returns r (wr false v ++ k) (ROk (d, k, r)) /\ sexp d = v.
Proof. exact written_reads. Qed.
Print Assumptions C18_write_then_read.
(** several objects, one to a line, are read back and then the end of the file *)
Theorem C18_lines_read_back : forall r vs, Forall aside r -> Forall readable vs ->
  reads_all r (concat (map (fun v => wr false v ++ [10]) vs)) vs.
Proof. exact lines_read. Qed.
Print Assumptions C18_lines_read_back.
(** different objects are written differently *)
Theorem C18_writing_is_injective : forall v w, readable v -> readable w -> wr false v = wr false w -> v = w.
Proof. exact wr_injective. Qed.
Print Assumptions C18_writing_is_injective.
(** the least fixnum is written as a numeral that reads as a procedure: string->number is given the digits without
    the sign, and 8388608 is not a fixnum *)
Theorem C18_least_fixnum_refuted : exists z d, - 8388608 <= z <= 8388607 /\ returns [] (wr false (VFix z)) (ROk (d, [], [])) /\ sexp d = VProc d.
Proof.
  exists (-8388608). eexists. split; [lia|]. split.
  - exists (enough (codes "-8388608")). intros n L. rewrite (top_mono_le _ _ [] (wr false (VFix (-8388608))) L); vm_compute; [reflexivity|discriminate].
  - reflexivity.
Qed.
Print Assumptions C18_least_fixnum_refuted.
Definition ex_value : value :=
  VPair (VSym (codes "->a$b")) (VPair (VVec [VFix (-12); VStr [97; 34; 92; 10; 233]; VChr 41]) (VBox (VPair (VBool true) (VPair VNil (VChr 32))))).
Example C18_case : readable ex_value /\
  wr false ex_value = codes "(->a$b #(-12 " ++ [34; 97; 92; 34; 92; 92; 10; 233; 34] ++ codes " #\)) . #&(#t () . #\space))" /\
  exists d, read_text [] (wr false ex_value) = ROk (d, [], []) /\ sexp d = ex_value.
Proof.
  split; [|split; [vm_compute; reflexivity|eexists; split; [vm_compute; reflexivity|vm_compute; reflexivity]]]. unfold ex_value. apply rd_pair; [|apply rd_pair].
  - apply rd_sym. right. left. exists [97; 36; 98]. split; [reflexivity|]. constructor; [left; left; right; lia|]. constructor; [left; right; vm_compute; tauto|].
    constructor; [left; left; right; lia|constructor].
  - apply rd_vec. constructor; [apply rd_fix; lia|]. constructor; [apply rd_str; repeat (constructor; [lia|]); constructor|]. constructor; [apply rd_chr; lia|constructor].
  - apply rd_box, rd_pair; [apply rd_bool|apply rd_pair; [apply rd_nil|apply rd_chr; lia]].
Qed.
