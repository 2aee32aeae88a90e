(** C29: assignment conversion. *)
From Coq Require Import ZArith String List Bool Lia.
From Verif Require Import Model_Lit Model_Core Model_Assign Spec_Sem Spec_Free Spec_Scope Proofs_Sim Proofs_Core Proofs_Run Proofs_Free Proofs_Assign Proofs_Box Proofs_Honest.
Import ListNotations.
Open Scope Z_scope.

(** The converted program does what the program does: in the program each local variable is a cell, in the converted
    program it is a value that never changes.  Nothing is asked of the primitives except that the three box primitives
    make, read and write a box. *)
Theorem C29_assignments_preserved P e n e' n' :
  P the_box_prim = SAlloc [AReg 0] (SRet (AReg 1)) ->
  P the_boxref_prim = SGet (AReg 0) 0 (SRet (AReg 1)) ->
  P the_boxset_prim = SPut (AReg 0) 0 (AReg 1) (SRet (AReg 1)) ->
  0 <= n -> distinct n e -> remove_assignments e n = Some (e', n') -> refines P MCells MDirect e e'.
Proof. intros A B C N D E. exact (remove_assignments_refines P e n e' n' (conj A (conj B C)) D N E). Qed.

(** a counter: (let ((c 5)) ((lambda (bump) (begin (bump 7) (cons-like c (bump 8)))) (lambda (d) (set! c d)))) *)
Local Definition c := mkid 1 XNone.
Local Definition bump := mkid 2 XNone.
Local Definition d := mkid 3 XNone.
Local Definition i := mkid 4 XNone.
Local Definition num (z : Z) : exp := EPrim ENo (codes "n" ++ [z]) [].
Local Definition two : prim := codes "two".
Local Definition prog : exp :=
  let_exp [c] [num 5] (let_exp [bump] [ELam [d] (ESet c (EVar d))]
    (let_exp [i] [EApp (EVar bump) [num 7]] (EPrim EAny two [EVar c; EApp (EVar bump) [num 8]]))).
Local Definition P (p : prim) : script :=
  if zlist_dec p the_box_prim then SAlloc [AReg 0] (SRet (AReg 1))
  else if zlist_dec p the_boxref_prim then SGet (AReg 0) 0 (SRet (AReg 1))
  else if zlist_dec p the_boxset_prim then SPut (AReg 0) 0 (AReg 1) (SRet (AReg 1))
  else if zlist_dec p two then SEmit (AReg 0) (SEmit (AReg 1) (SRet (AReg 0)))
  else match p with [_; z] => SRet (AConst (CInt z)) | _ => SFail end.
Local Definition prog' : option exp := option_map fst (remove_assignments prog 4).
(** both programs end in the same two ways: the operands of two may be evaluated in either order *)
Example C29_assignments_preserved_ex :
  distinct 4 prog /\ P the_box_prim = SAlloc [AReg 0] (SRet (AReg 1)) /\ P the_boxref_prim = SGet (AReg 0) 0 (SRet (AReg 1)) /\
  P the_boxset_prim = SPut (AReg 0) 0 (AReg 1) (SRet (AReg 1)) /\
  exists e' n', remove_assignments prog 4 = Some (e', n') /\ n' = 5 /\
    (forall g i, outcomes P MCells 100 prog g i =
       Some [(Some (ShC (CInt 7)), [ShC (CInt 7); ShC (CInt 8)]); (Some (ShC (CInt 8)), [ShC (CInt 8); ShC (CInt 8)])]) /\
    (forall g i, outcomes P MDirect 200 e' g i =
       Some [(Some (ShC (CInt 7)), [ShC (CInt 7); ShC (CInt 8)]); (Some (ShC (CInt 8)), [ShC (CInt 8); ShC (CInt 8)])]).
Proof.
  split; [split; [repeat constructor; cbn; intuition discriminate | intros x; cbn; intuition (subst; cbn; lia)]|].
  split; [reflexivity|split; [reflexivity|split; [reflexivity|]]].
  eexists _, _. split; [vm_compute; reflexivity|]. split; [reflexivity|split; intros g i'; vm_compute; reflexivity].
Qed.
Print Assumptions C29_assignments_preserved.

(** no assignment to a local variable is left, whatever the program *)
Theorem C29_no_local_assignment e n e' n' : remove_assignments e n = Some (e', n') -> no_local_set e'.
Proof. exact (box_clean e [] n e' n'). Qed.
Example C29_no_local_assignment_ex :
  ~ no_local_set prog /\ exists e' n', remove_assignments prog 4 = Some (e', n') /\ no_local_set e'.
Proof.
  split; [cbn; intuition discriminate|].
  destruct (remove_assignments prog 4) as [(e' & n')|] eqn:E; [|discriminate].
  exists e', n'. split; [reflexivity | exact (box_clean prog [] 4 e' n' E)].
Qed.
Print Assumptions C29_no_local_assignment.

(** the conversion succeeds on every program in which the assigned variables are global or bound by lambda or letcc *)
Theorem C29_converts e n : assignable e -> (forall x, assigned_in x e -> global_id x = true) -> exists e' n', remove_assignments e n = Some (e', n').
Proof. intros A H. apply box_total; [assumption|]. intros x X G. rewrite (H x X) in G. discriminate. Qed.
Example C29_converts_ex :
  assignable prog /\ (forall x, assigned_in x prog -> global_id x = true) /\
  remove_assignments (ESet c (num 1)) 4 = None /\ remove_assignments (EFix [c] [([], num 1)] (ESet c (num 1))) 4 = None.
Proof.
  split; [cbn; tauto|split; [|vm_compute; auto]]. intros x A. apply assigned_assigned in A. revert A.
  unfold var_assigned_in_exp, prog. intros A. vm_compute in A. repeat (destruct (id_dec x _) in A; try discriminate). discriminate.
Qed.
Print Assumptions C29_converts.

(** the names of the converted program are distinct again, as the later passes need *)
Theorem C29_names_distinct e n e' n' : 0 <= n -> distinct n e -> remove_assignments e n = Some (e', n') -> distinct n' e' /\ n <= n'.
Proof. exact (box_distinct e n e' n'). Qed.
Example C29_names_distinct_ex :
  distinct 4 prog /\ option_map (fun p => map ts (binders (fst p))) (remove_assignments prog 4) = Some [1; 5; 2; 4; 3].
Proof. split; [exact (proj1 C29_assignments_preserved_ex) | vm_compute; reflexivity]. Qed.
Print Assumptions C29_names_distinct.

(** the operations on boxes are declared with all the effects they have, so that later passes do not drop, repeat or move
    them *)
Theorem C29_effects_declared P e n e' n' : P the_box_prim = SAlloc [AReg 0] (SRet (AReg 1)) -> P the_boxref_prim = SGet (AReg 0) 0 (SRet (AReg 1)) ->
  P the_boxset_prim = SPut (AReg 0) 0 (AReg 1) (SRet (AReg 1)) -> honest P e -> remove_assignments e n = Some (e', n') -> honest P e'.
Proof. intros A B C H. exact (box_honest P (conj A (conj B C)) e H [] n e' n'). Qed.
Example C29_effects_declared_ex : honest P prog /\ P the_box_prim = SAlloc [AReg 0] (SRet (AReg 1)) /\ ~ honest P (EPrim ENo the_box_prim [num 1]).
Proof. vm_compute. intuition. Qed.
Print Assumptions C29_effects_declared.
