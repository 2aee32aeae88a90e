(** C43: the peephole pass over generated C text. *)
From Coq Require Import String ZArith List Bool.
From Verif Require Import Base Model_Lit Model_CStr Model_Clean Spec_Clean Proofs_Clean.
Import ListNotations.
Open Scope Z_scope.

(** On every text the pass ends without an index error and rewrites exactly the pieces of the two
    shapes, from the left, up to the first double quote. *)
Theorem C43_rewrites_exactly : forall s, (exists t, cleanup_c_code s = Val t) /\
  forall t, cleanup_c_code s = Val t <-> clean s t.
Proof. intros s. split; [destruct (cleanup_ok s) as (t & E & _); eauto|]. intros t. apply clean_iff. Qed.
Print Assumptions C43_rewrites_exactly.
Example C43_rewrites_exactly_ex :
  cleanup_c_code (codes "r[1] = (r[2]); r[3] = (r[3]); r[4] = (r[12]); x = (r[7]); f(""r[1] = (r[1]);"")") =
  Val (codes "r[1] = r[2];   /* r[3] */     r[4] = (r[12]); x = r[7];   f(""r[1] = (r[1]);"")").
Proof. vm_compute. reflexivity. Qed.

Theorem C43_length : forall s t, cleanup_c_code s = Val t -> List.length t = List.length s.
Proof. intros s t E. apply clean_length. now apply clean_iff. Qed.
Print Assumptions C43_length.
Example C43_length_ex : exists t, cleanup_c_code (codes "r[0] = (r[0]);") = Val t /\ t <> codes "r[0] = (r[0]);".
Proof. eexists. split; [vm_compute; reflexivity|]. vm_compute. discriminate. Qed.

(** Nothing from the first double quote on is changed. *)
Theorem C43_after_quote : forall a b t, cleanup_c_code (a ++ 34 :: b) = Val t ->
  exists a', t = a' ++ 34 :: b /\ List.length a' = List.length a.
Proof. intros a b t E. apply clean_iff in E. exact (clean_quote _ _ E a b eq_refl). Qed.
Print Assumptions C43_after_quote.
Example C43_after_quote_ex : cleanup_c_code (codes "y = (r[1]);" ++ 34 :: codes "y = (r[1]);") =
  Val (codes "y = r[1];  " ++ 34 :: codes "y = (r[1]);").
Proof. vm_compute. reflexivity. Qed.

(** Sequences of register moves, with any register numbers: the text before and the text after the
    pass both have a meaning, and it is the same. *)
Theorem C43_register_moves : forall l r, Forall (fun m => numeral10 (fst m) /\ numeral10 (snd m)) l ->
  exists t, cleanup_c_code (print_moves l) = Val t /\
  (exists r1 r2, exec (print_moves l) r r1 /\ exec t r r2) /\
  forall r1 r2, exec (print_moves l) r r1 -> exec t r r2 -> forall x, r2 x = r1 x.
Proof. exact moves_same. Qed.
Print Assumptions C43_register_moves.
Example C43_register_moves_ex :
  cleanup_c_code (print_moves [(codes "1", codes "2"); (codes "0", codes "0"); (codes "10", codes "3"); (codes "3", codes "10")]) =
  Val (codes "r[1] = r[2];  " ++ eol ++ codes "/* r[0] */    " ++ eol ++ codes "r[10] = r[3];  " ++ eol ++ codes "r[3] = (r[10]);" ++ eol).
Proof. vm_compute. reflexivity. Qed.

(** "Only redundant parentheses change" is false: apart from blanks and parentheses the texts
    differ. *)
Definition strip (s : str) : str := filter (fun c => negb ((c =? 32) || (c =? 40) || (c =? 41))) s.
Theorem C43_only_parentheses_refuted : exists s t, cleanup_c_code s = Val t /\ strip s <> strip t.
Proof. exists (codes "r[0] = (r[0]);"), (codes "/* r[0] */    "). split; vm_compute; [reflexivity|discriminate]. Qed.
Print Assumptions C43_only_parentheses_refuted.

(** The pass does not look at what precedes [r]: an assignment to another array is deleted, and a
    move inside a comment ends the comment early. *)
Theorem C43_context_refuted :
  (exists s t, cleanup_c_code s = Val t /\ s = codes "cur[3] = (r[3]);" /\ ~ In 61 t) /\
  (exists t a b, cleanup_c_code (codes "/* r[1] = (r[1]); g(); */") = Val t /\
     t = codes "/*" ++ a ++ codes "*/" ++ b /\ (forall x y, a <> x ++ 42 :: 47 :: y) /\ In 103 b).
Proof.
  split.
  - exists (codes "cur[3] = (r[3]);"), (codes "cu/* r[3] */    "). split; [vm_compute; reflexivity|]. split; [reflexivity|]. vm_compute. intuition discriminate.
  - exists (codes "/* /* r[1] */     g(); */"), (codes " /* r[1] "), (codes "     g(); */"). split; [vm_compute; reflexivity|].
    split; [vm_compute; reflexivity|]. split; [|vm_compute; tauto].
    intros x y E. vm_compute in E. do 9 (destruct x as [|? x]; [discriminate|injection E as _ E]). destruct x; discriminate.
Qed.
Print Assumptions C43_context_refuted.
