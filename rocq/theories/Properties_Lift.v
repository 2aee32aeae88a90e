(** C32: lambda lifting, /repo/5.sf:195-268. *)
From Coq Require Import ZArith String List Bool Lia.
From Verif Require Import Model_Lit Model_Core Model_Lift Spec_Sem Spec_Free Spec_Scope Spec_Lift Proofs_Sim Proofs_Core Proofs_Free Proofs_Extra Proofs_Lift Proofs_LiftOk Proofs_Run.
Import ListNotations.
Open Scope Z_scope.

(** the extra parameters of the procedures of a group: the iteration ends, and each procedure gets exactly the local
    variables it needs, each once *)
Theorem C32_extra_parameters ids lams : NoDup ids -> (forall x, In x ids -> global_id x = false) -> length lams = length ids ->
  exists xss, extra_vars ids lams = Some xss /\ length xss = length ids /\ (forall i, NoDup (nth i xss [])) /\
    forall i x, In x (nth i xss []) <-> needs ids lams i x.
Proof. exact (extra_vars_spec ids lams). Qed.
Local Definition v (z : Z) : id := mkid z XNone.
Local Definition num (z : Z) : exp := EPrim ENo (codes "n" ++ [z]) [].
Local Definition two : prim := codes "two".
(** three procedures, each calling the next; the last one also calls the first *)
Local Definition ids3 := [v 3; v 4; v 5].
Local Definition lams3 := [([v 6], EApp (EVar (v 4)) [EVar (v 6)]); ([v 7], EPrim EAny two [EVar (v 1); EApp (EVar (v 5)) [EVar (v 7)]]);
                           ([v 8], EIf (EVar (v 8)) (EApp (EVar (v 3)) [EVar (v 2)]) (EVar (v 2)))].
Example C32_extra_parameters_ex :
  NoDup ids3 /\ (forall x, In x ids3 -> global_id x = false) /\ length lams3 = length ids3 /\
  extra_vars ids3 lams3 = Some [[v 1; v 2]; [v 1; v 2]; [v 2; v 1]] /\ extra_vars [v 3; v 4] [([v 6], EVar (v 4)); ([v 7], EVar (v 1))] = Some [[v 1]; [v 1]] /\
  extra_vars [v 3; v 4] [([v 6], EVar (v 2)); ([v 7], EApp (EVar (v 3)) [EVar (v 1)])] = Some [[v 2]; [v 1; v 2]].
Proof.
  split; [repeat constructor; cbn; intuition discriminate|split; [intros x; cbn; intuition (subst; reflexivity)|split; [reflexivity|]]].
  vm_compute. auto.
Qed.
Print Assumptions C32_extra_parameters.

(** lifting preserves what programs do *)
Theorem C32_meaning_preserved P e n e' n' : 0 <= n -> distinct n e -> closed e -> lambda_lift e n = Some (e', n') -> refines P MDirect MDirect e e'.
Proof. exact (lambda_lift_refines P e n e' n'). Qed.
Local Definition prog : exp := let_exp [v 1; v 2] [num 5; num 0] (EFix ids3 lams3 (let_exp [v 9] [ELam [v 10] (EApp (EVar (v 3)) [EVar (v 1)])] (EApp (EVar (v 9)) [num 1]))).
Local Definition P (p : prim) : script :=
  if zlist_dec p two then SEmit (AReg 0) (SEmit (AReg 1) (SRet (AReg 1)))
  else match p with [_; 0] => SRet (AConst (CBool false)) | [_; z] => SRet (AConst (CInt z)) | _ => SFail end.
Example C32_meaning_preserved_ex :
  distinct 10 prog /\ closed prog /\ exists e' n', lambda_lift prog 10 = Some (e', n') /\
    (forall g i, left_outcome P MDirect 200 prog g i = Some (Some (ShC (CBool false)), [ShC (CInt 5); ShC (CBool false); ShC (CInt 5); ShC (CBool false)])) /\
    (forall g i, left_outcome P MDirect 1000 e' g i = Some (Some (ShC (CBool false)), [ShC (CInt 5); ShC (CBool false); ShC (CInt 5); ShC (CBool false)])).
Proof.
  split; [split; [repeat constructor; cbn; intuition discriminate | intros x; cbn; intuition (subst; cbn; lia)]|].
  split.
  { intros x F. apply free_vars_free in F. vm_compute in F. repeat (destruct F as [<-|F]; [reflexivity|]). destruct F. }
  eexists _, _. split; [vm_compute; reflexivity|]. split; intros g i; vm_compute; reflexivity.
Qed.
Print Assumptions C32_meaning_preserved.

(** every lifted procedure, and what is left of the program, uses no variables but its own, globals, and the labels of
    the lifted procedures, which are all different; bindings of unused wrappers do not count *)
Theorem C32_lifted_closed e n ls lams b n' : 0 <= n -> distinct n e -> closed e -> lambda_lift e n = Some (EFix ls lams b, n') ->
  NoDup ls /\ length ls = length lams /\ (forall t, In t ls -> label_id t = true) /\
  (forall ps c x, In (ps, c) lams -> used_in x (ELam ps c) -> global_id x = true \/ In x ls) /\
  (forall x, used_in x b -> global_id x = true \/ In x ls).
Proof. exact (lambda_lift_closed e n ls lams b n'). Qed.
Example C32_lifted_closed_ex :
  distinct 10 prog /\ closed prog /\ exists ls lams b, lambda_lift prog 10 = Some (EFix ls lams b, 29) /\
    map (fun l => length (fst l)) lams = [3; 3; 3; 3]%nat /\ forall x, In x (exp_free_vars (EFix ls lams b)) -> global_id x = true.
Proof.
  destruct C32_meaning_preserved_ex as (A & B & _). split; [assumption|split; [assumption|]].
  eexists _, _, _. split; [vm_compute; reflexivity|]. split; [vm_compute; reflexivity|]. intros x F. vm_compute in F. destruct F.
Qed.
Print Assumptions C32_lifted_closed.

(** ... but every procedure of a group gets wrappers for all procedures of the group, and a wrapper that is not used may
    mention variables that are bound nowhere *)
Theorem C32_unused_wrappers_refuted :
  exists e n ls lams b n', 0 <= n /\ distinct n e /\ closed e /\ lambda_lift e n = Some (EFix ls lams b, n') /\
    exists ps c x, In (ps, c) lams /\ In x (exp_free_vars (ELam ps c)) /\ global_id x = false /\ ~ In x ls.
Proof.
  exists (let_exp [v 1] [num 5] (EFix [v 2; v 3] [([], num 1); ([], EVar (v 1))] (EPrim EAny two [EApp (EVar (v 2)) []; EApp (EVar (v 3)) []]))), 3.
  eexists _, _, _, _. split; [lia|]. split.
  { split; [repeat constructor; cbn; intuition discriminate | intros x; cbn; intuition (subst; cbn; lia)]. }
  split. { intros x F. apply free_vars_free in F. vm_compute in F. destruct F. }
  split; [vm_compute; reflexivity|]. eexists _, _, (v 1). split; [right; left; reflexivity|]. split; [vm_compute; auto|].
  split; [reflexivity|]. vm_compute. intuition discriminate.
Qed.
Print Assumptions C32_unused_wrappers_refuted.

(** all procedures have become lifted ones: apart from the operators of lets, the only lambda expressions left inside are
    wrappers that call a lifted procedure *)
Theorem C32_flat e n ls lams b n' : lambda_lift e n = Some (EFix ls lams b, n') -> flat ls b /\ forall ps c, In (ps, c) lams -> flat ls c.
Proof. exact (lambda_lift_flat e n ls lams b n'). Qed.
Example C32_flat_ex : exists ls lams b, lambda_lift prog 10 = Some (EFix ls lams b, 29) /\ length ls = 4%nat.
Proof. eexists _, _, _. split; vm_compute; reflexivity. Qed.
Print Assumptions C32_flat.

(** the pass succeeds on every program it is meant for *)
Theorem C32_lifts e n : direct e -> no_local_set e -> exists ls lams b n', lambda_lift e n = Some (EFix ls lams b, n').
Proof. exact (lambda_lift_total e n). Qed.
Example C32_lifts_ex : direct prog /\ no_local_set prog.
Proof.
  split; cbn; tauto.
Qed.
Print Assumptions C32_lifts.
