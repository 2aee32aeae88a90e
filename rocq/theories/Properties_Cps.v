(** C31: conversion to continuation-passing style, /repo/5.sf:24-168. *)
From Coq Require Import ZArith String List Bool Lia.
From Verif Require Import Model_Lit Model_Core Model_Cps Spec_Sem Spec_Free Spec_Scope Spec_Lift Spec_Cps Proofs_Sim Proofs_Core Proofs_Free Proofs_Run
  Proofs_Cps Proofs_CpsRun Proofs_CpsOk Proofs_CpsMore Proofs_CpsStack.
Import ListNotations.
Open Scope Z_scope.

(** The converted program does what the program does.  ktrap() (the continuation handed to continuations) is a constant. *)
Theorem C31_meaning_preserved P kc e n e' n' : P the_ktrap_prim = SRet (AConst kc) -> 0 <= n -> distinct n e -> closed e -> no_local_set e -> tame P e ->
  cps_convert e n = Some (e', n') -> refines P MDirect MDirect e e'.
Proof. exact (convert_ok P kc e n e' n'). Qed.
Local Definition v (z : Z) : id := mkid z XNone.
Local Definition num (z : Z) : exp := EPrim ENo (codes "n" ++ [z]) [].
Local Definition two : prim := codes "two".
Local Definition P (p : prim) : script :=
  if zlist_dec p two then SEmit (AReg 0) (SEmit (AReg 1) (SRet (AReg 1)))
  else if zlist_dec p the_ktrap_prim then SRet (AConst CVoid)
  else match p with [_; 0] => SRet (AConst (CBool false)) | [_; z] => SRet (AConst (CInt z)) | _ => SFail end.
(** (fix ((f (lambda (x) (if x (two x (f 0)) 7)))) (let ((a (letcc k (begin (two (f 5) (throw k 9)) 3)))) (two (f a) a))) *)
Local Definition prog : exp :=
  EFix [v 1] [([v 2], EIf (EVar (v 2)) (EPrim EAny two [EVar (v 2); EApp (EVar (v 1)) [num 0]]) (num 7))]
    (let_exp [v 3] [ELetcc (v 4) (let_exp [v 5] [EPrim EAny two [EApp (EVar (v 1)) [num 5]; EWithcc (EVar (v 4)) (num 9)]] (num 3))]
      (EPrim EAny two [EApp (EVar (v 1)) [EVar (v 3)]; EVar (v 3)])).
Example C31_meaning_preserved_ex :
  P the_ktrap_prim = SRet (AConst CVoid) /\ distinct 5 prog /\ closed prog /\ no_local_set prog /\ tame P prog /\
  exists e' n', cps_convert prog 5 = Some (e', n') /\
    (forall g i, left_outcome P MDirect 300 prog g i =
       Some (Some (ShC (CInt 9)), [ShC (CInt 5); ShC (CInt 7); ShC (CInt 9); ShC (CInt 7); ShC (CInt 7); ShC (CInt 9)])) /\
    (forall g i, left_outcome P MDirect 1000 e' g i =
       Some (Some (ShC (CInt 9)), [ShC (CInt 5); ShC (CInt 7); ShC (CInt 9); ShC (CInt 7); ShC (CInt 7); ShC (CInt 9)])).
Proof.
  split; [reflexivity|]. split; [split; [repeat constructor; cbn; intuition discriminate | intros x; cbn; intuition (subst; cbn; lia)]|].
  split. { intros x F. apply free_vars_free in F. vm_compute in F. repeat (destruct F as [<-|F]; [reflexivity|]). destruct F. }
  split; [cbn; tauto|]. split; [cbn; tauto|].
  eexists _, _. split; [vm_compute; reflexivity|]. split; intros g i; vm_compute; reflexivity.
Qed.
Print Assumptions C31_meaning_preserved.

(** in the result every call is a tail call, whatever the program *)
Theorem C31_only_tail_calls e n e' n' : cps_convert e n = Some (e', n') -> tails true e'.
Proof. exact (convert_tails e n e' n'). Qed.
Example C31_only_tail_calls_ex : ~ tails true prog /\ exists e' n', cps_convert prog 5 = Some (e', n') /\ tails true e'.
Proof.
  split; [cbn; intuition discriminate|]. destruct (cps_convert prog 5) as [(e' & n')|] eqn:E; [|vm_compute in E; discriminate].
  exists e', n'. split; [reflexivity | exact (convert_tails _ _ _ _ E)].
Qed.
Print Assumptions C31_only_tail_calls.

(** hence, however long the converted program runs, no more operations wait for an operand than its text is nested deep *)
Theorem C31_bounded_stack P e n e' n' g i t : cps_convert e n = Some (e', n') -> star P MDirect (start e' g i) t ->
  (length (pending t) <= height e')%nat.
Proof. intros E S. exact (bounded_stack P e' g i t (convert_tails e n e' n' E) S). Qed.
(** the program itself may need more: a loop that calls itself in an operand *)
Local Definition loop : exp := EFix [v 1] [([], EPrim EAny two [EApp (EVar (v 1)) []; num 1])] (EApp (EVar (v 1)) []).
Local Fixpoint walk (n : nat) (s : state) : state := match n with O => s | S n' => match succs P MDirect s with t :: _ => walk n' t | [] => s end end.
Local Lemma walk_star n : forall s, star P MDirect s (walk n s).
Proof.
  induction n as [|n IH]; intros s; [constructor|]. cbn [walk]. destruct (succs P MDirect s) as [|t l] eqn:E; [constructor|]. eapply star_step; [apply succs_step; rewrite E; now left | apply IH].
Qed.
Example C31_bounded_stack_ex :
  (exists t, star P MDirect (start loop (fun _ => CVoid) []) t /\ length (pending t) = 20%nat) /\
  exists e' n', cps_convert loop 1 = Some (e', n') /\ height loop = 4%nat /\ height e' = 8%nat /\
  exists t, star P MDirect (start e' (fun _ => CVoid) []) t /\ length (pending t) = 1%nat.
Proof.
  split.
  - eexists. split; [apply (walk_star 137) | vm_compute; reflexivity].
  - eexists _, _. split; [vm_compute; reflexivity|]. split; [reflexivity|]. split; [vm_compute; reflexivity|].
    eexists. split; [apply (walk_star 103) | vm_compute; reflexivity].
Qed.
Print Assumptions C31_bounded_stack.

(** the pass succeeds on every program without assignments to local variables *)
Theorem C31_converts e n : no_local_set e -> exists e' n', cps_convert e n = Some (e', n').
Proof.
  intros N. unfold cps_convert. cbn [fresh].
  match goal with |- exists e' n', p_cps ?p ?k ?m = _ => destruct (proj2 (conv_total e N) k m) as ((e' & n') & E) end. eauto.
Qed.
Example C31_converts_ex : no_local_set prog /\ cps_convert (let_exp [v 1] [num 5] (ESet (v 1) (num 6))) 1 = None.
Proof. split; [cbn; tauto | reflexivity]. Qed.
Print Assumptions C31_converts.

(** the names of the converted program are distinct again, and it has no new free variables, as the later passes need *)
Theorem C31_names_distinct e n e' n' : 0 <= n -> distinct n e -> cps_convert e n = Some (e', n') -> distinct n' e' /\ n <= n'.
Proof. exact (convert_distinct e n e' n'). Qed.
Example C31_names_distinct_ex : distinct 5 prog /\ exists e', cps_convert prog 5 = Some (e', 20) /\ length (binders e') = 15%nat.
Proof. split; [apply C31_meaning_preserved_ex|]. eexists. split; vm_compute; reflexivity. Qed.
Print Assumptions C31_names_distinct.
Theorem C31_no_new_variables e n e' n' x : cps_convert e n = Some (e', n') -> free_in x e' -> free_in x e.
Proof. exact (convert_free e n e' n' x). Qed.
Example C31_no_new_variables_ex : exists e' n', cps_convert (EApp (EVar (v (-1))) [EApp (EVar (v (-2))) [num 1]; num 2]) 0 = Some (e', n') /\ exp_free_vars e' = [v (-2); v (-1)].
Proof. eexists _, _. split; vm_compute; reflexivity. Qed.
Print Assumptions C31_no_new_variables.

(** A continuation expression of withcc that is not plain is evaluated too late: here a global variable, changed in the
    meantime.  (fix ((f (lambda () (set! g (lambda (x) (halt 2)))))) (begin (set! g (lambda (x) (halt 1))) (withcc g (begin (f) 7))))
    gives 1; converted, it gives 2. *)
Theorem C31_late_continuation_refuted : exists P kc e n e' n', P the_ktrap_prim = SRet (AConst kc) /\ 0 <= n /\ distinct n e /\ closed e /\ no_local_set e /\
  cps_convert e n = Some (e', n') /\ ~ refines P MDirect MDirect e e'.
Proof.
  exists P, CVoid, (EFix [v 5] [([], ESet (v (-1)) (ELam [v 4] (halt_exp (num 2))))]
    (let_exp [v 1] [ESet (v (-1)) (ELam [v 2] (halt_exp (num 1)))] (EWithcc (EVar (v (-1))) (let_exp [v 3] [EApp (EVar (v 5)) []] (num 7))))), 5.
  eexists _, _. split; [reflexivity|]. split; [lia|]. split; [split; [repeat constructor; cbn; intuition discriminate | intros x; cbn; intuition (subst; cbn; lia)]|].
  split. { intros x F. apply free_vars_free in F. vm_compute in F. repeat (destruct F as [<-|F]; [reflexivity|]). destruct F. }
  split; [cbn; tauto|]. split; [vm_compute; reflexivity|].
  apply (not_refines P MDirect MDirect 50 100) with (g := fun _ => CVoid) (i := []) (os := [(Some (ShC (CInt 1)), [])]) (s := ShC (CInt 2)) (o := []); [vm_compute; reflexivity | reflexivity | vm_compute; reflexivity|].
  intros [E|[]]. discriminate.
Qed.
Print Assumptions C31_late_continuation_refuted.
