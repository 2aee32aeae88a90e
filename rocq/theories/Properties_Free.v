(** C28: the free-variable analysis is exact. *)
From Coq Require Import ZArith List Bool.
From Verif Require Import Model_Core Spec_Sem Spec_Free Proofs_Free Proofs_Agree.
Import ListNotations.
Open Scope Z_scope.

(** exp->free-vars lists each variable with a free occurrence once, and nothing else; exp->free-lexvars lists those that
    are not global *)
Theorem C28_free_vars_exact e :
  NoDup (exp_free_vars e) /\ (forall x, In x (exp_free_vars e) <-> free_in x e) /\
  NoDup (exp_free_lexvars e) /\ (forall x, In x (exp_free_lexvars e) <-> global_id x = false /\ free_in x e).
Proof.
  split; [apply free_vars_NoDup|split; [intro; apply free_vars_free|split; [apply free_lexvars_NoDup | intro; apply free_lexvars_free]]].
Qed.
(** variables a, b, c, d, f and the global g *)
Local Definition a := mkid 1 XNone.
Local Definition b := mkid 2 XNone.
Local Definition c := mkid 3 XNone.
Local Definition d := mkid 4 XNone.
Local Definition f := mkid 5 XNone.
Local Definition g := mkid (-1) XNone.
(** (lambda (a) (set! b (fix ((f (lambda (c) (f c d g)))) (f a c)))): the last c is free *)
Local Definition ex := ELam [a] (ESet b (EFix [f] [([c], EApp (EVar f) [EVar c; EVar d; EVar g])] (EApp (EVar f) [EVar a; EVar c]))).
Example C28_free_vars_exact_ex :
  exp_free_vars ex = [c; g; d; b] /\ exp_free_lexvars ex = [c; d; b] /\ free_in c ex /\ ~ free_in a ex.
Proof.
  assert (E : exp_free_vars ex = [c; g; d; b]) by (vm_compute; reflexivity).
  split; [exact E|split; [vm_compute; reflexivity|split]].
  - apply free_vars_free. rewrite E. now left.
  - intros F. apply free_vars_free in F. rewrite E in F. cbn in F. intuition discriminate.
Qed.
Print Assumptions C28_free_vars_exact.

(** the counts and flags that the passes use are the numbers of free occurrences *)
Theorem C28_use_counts x e :
  occurs any_use x e (var_reference_count x e) /\ occurs assignment x e (var_assignment_count x e) /\
  (var_referenced_in_exp x e = true <-> free_in x e) /\ (var_assigned_in_exp x e = true <-> assigned_in x e).
Proof.
  split; [apply reference_count|split; [apply assignment_count|split; [apply referenced_free | apply assigned_assigned]]].
Qed.
Example C28_use_counts_ex :
  var_reference_count c ex = 1%nat /\ var_assignment_count b ex = 1%nat /\ var_assigned_in_exp c ex = false /\
  var_reference_count a (EPrim ENo [36] [EVar a; EIf (EVar a) (ESet a (EVar b)) (ELam [a] (EVar a))]) = 3%nat.
Proof. vm_compute. auto. Qed.
Print Assumptions C28_use_counts.

(** environments that give the same values to the free local variables give the same runs, whatever the stack, the
    memory and the meaning of primitives *)
Theorem C28_free_vars_suffice P m e r r' k w :
  (forall x, In x (exp_free_lexvars e) -> lookup r x = lookup r' x) ->
  simulates P m m (Ev e r k w) (Ev e r' k w) /\ simulates P m m (Ev e r' k w) (Ev e r k w).
Proof.
  intros A. split; apply agree_runs; intros x F G; [|symmetry]; apply A; apply free_lexvars_free; auto.
Qed.
Example C28_free_vars_suffice_ex :
  let r := [(c, VC (CInt 1)); (a, VC (CInt 7)); (d, VLoc 0); (b, VRef 3)] in
  let r' := [(b, VRef 3); (d, VLoc 0); (f, VC CVoid); (c, VC (CInt 1)); (c, VC (CInt 2))] in
  forall x, In x (exp_free_lexvars ex) -> lookup r x = lookup r' x.
Proof. cbn zeta. intros x I. assert (E : exp_free_lexvars ex = [c; d; b]) by (vm_compute; reflexivity). rewrite E in I.
  cbn in I. destruct I as [<-|[<-|[<-|[]]]]; reflexivity. Qed.
Print Assumptions C28_free_vars_suffice.
