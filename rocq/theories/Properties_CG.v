(** C35: operands loaded over live registers.  C48: conditionals as C expressions. *)
From Coq Require Import ZArith List Bool Lia.
From Verif Require Import Model_CG Spec_CG Proofs_CG.
Import ListNotations.
Open Scope Z_scope.

(** For every register environment and operand list, whatever the temporaries compute: the
    registers the jump's target sees are the operands' values evaluated one after the other before
    any move, and the store is the one after these evaluations.  It holds for the moves in place
    ([JFast]) and for the shifted window ([JSlow]). *)
Theorem C35_parallel_assignment : forall val store truth vbool primsem gread cvar kind compute rands renv ts cs renv' j r st,
  cg_prim_args kind rands renv = Some (ts, cs, renv') -> cg_jump kind rands renv = Some j ->
  let (r1, st1) := run_temps val store compute ts r st in
  let (vs, st2) := eval_list val store (evalc val store truth vbool primsem gread cvar r1) cs st1 in
  exists w, run_jump val store truth vbool primsem gread cvar compute j r st = (w, st2) /\
  length vs = length rands /\ forall i v, nth_error vs i = Some v -> w i = v.
Proof. exact jump_ok. Qed.
Print Assumptions C35_parallel_assignment.

(** A machine to run examples: values and stores are numbers, primitive 1 adds, 2 counts its calls *)
Definition ex_prim (p : prim) (vs : list Z) (st : Z) : Z * Z :=
  if p_text p =? 0 then (0, st)
  else if p_text p =? 1 then (fold_right Z.add 0 vs, st)
  else if p_text p =? 2 then (Z.b2z (st =? 0), st + 1)
  else (Z.b2z (nth 0 vs 0 =? nth 1 vs 0), st).
Definition ex_kind (x : id) : idkind := KLocal.
Definition ex_run (j : jump) (r : nat -> Z) : Z * list Z :=
  let (w, st) := run_jump Z Z (fun v => negb (v =? 0)) Z.b2z ex_prim (fun _ _ => 0) (fun _ => 0) (fun _ r st => (r, st)) j r 0 in
  (st, [w 0%nat; w 1%nat; w 2%nat]).
Definition p_add : prim := mkprim 1 (Some t_obj).
(** registers a, b, c (c latest); operands a, b + b, a + c may be moved in place... *)
Example C35_fast_ex : exists j, cg_jump ex_kind [EVar 1; EPrim NoE p_add [EVar 2; EVar 2]; EVar 3] [SId 3; SId 2; SId 1] = Some j /\
  (exists ts cs, j = JFast ts cs) /\ ex_run j (fun n => nth n [10; 20; 30] 0) = (0, [10; 40; 30]).
Proof. eexists. split; [vm_compute; reflexivity|]. split; [eauto|vm_compute; reflexivity]. Qed.
(** ...while an exchange of two registers needs the shifted window *)
Example C35_slow_ex : exists j, cg_jump ex_kind [EVar 2; EVar 1] [SId 3; SId 2; SId 1] = Some j /\
  (exists ts cs, j = JSlow 3 ts cs) /\ ex_run j (fun n => nth n [10; 20; 30] 0) = (0, [20; 10; 0]).
Proof. eexists. split; [vm_compute; reflexivity|]. split; [eauto|vm_compute; reflexivity]. Qed.

(** Every operand is computed into a register beforehand or contains no primitive that may allocate, so no
    collection can happen while the operands of a primitive or the moves of a jump are evaluated. *)
Theorem C35_inline_operands_do_not_allocate : forall kind rands renv ts cs renv', cg_prim_args kind rands renv = Some (ts, cs, renv') ->
  forall i e, nth_error rands i = Some e -> (exists n rv, In (n, e, rv) ts /\ nth_error cs i = Some (CReg n)) \/ no_alloc e.
Proof. exact args_no_alloc. Qed.
Print Assumptions C35_inline_operands_do_not_allocate.
Example C35_inline_operands_ex :
  cg_prim_args ex_kind [EPrim StarE p_add [EVar 1]; EPrim ObsE p_add [EVar 1]] [SId 1]
  = Some ([(1%nat, EPrim StarE p_add [EVar 1], [SId 1])], [CReg 1; CCall p_add [CReg 0]], [STmp; SId 1]).
Proof. reflexivity. Qed.

(** Expressions without effects on the store: the generated C expression computes exactly what the
    expression means, for every choice of variables, registers and primitives. *)
Theorem C48_inline_meaning : forall kind val store truth vbool primsem gread cvar local renv r e c st v st',
  (forall b, truth (vbool b) = b) ->
  (forall p vs st, p_type p = Some t_bool -> exists b, fst (primsem p vs st) = vbool b) ->
  (forall st, primsem p_false [] st = (vbool false, st)) ->
  (forall x, kind x = KCvar t_bool -> exists b, cvar x = vbool b) ->
  (forall x n, kind x = KLocal -> reg_of renv x n -> r n = local x) ->
  quiet primsem e -> cg_cexp kind e renv = Some c ->
  (means kind val store truth primsem gread cvar local e st v st' <->
   evalc val store truth vbool primsem gread cvar r c st = (v, st')).
Proof.
  intros kind val store truth vbool primsem gread cvar local renv r e c st v st' H1 H2 H3 H4 H5 Q E.
  eapply cg_sem_iff; eauto. now apply quiet_safe.
Qed.
Print Assumptions C48_inline_meaning.

(** More generally for expressions with effects, unless a test with effects is repeated as the
    first branch. *)
Theorem C48_inline_effects : forall kind val store truth vbool primsem gread cvar local renv r e c st v st',
  (forall b, truth (vbool b) = b) ->
  (forall p vs st, p_type p = Some t_bool -> exists b, fst (primsem p vs st) = vbool b) ->
  (forall st, primsem p_false [] st = (vbool false, st)) ->
  (forall x, kind x = KCvar t_bool -> exists b, cvar x = vbool b) ->
  (forall x n, kind x = KLocal -> reg_of renv x n -> r n = local x) ->
  or_safe primsem kind renv e -> cg_cexp kind e renv = Some c ->
  (means kind val store truth primsem gread cvar local e st v st' <->
   evalc val store truth vbool primsem gread cvar r c st = (v, st')).
Proof. intros. eapply cg_sem_iff; eauto. Qed.
Print Assumptions C48_inline_effects.
Definition p_count : prim := mkprim 2 (Some t_bool).
Definition p_eq : prim := mkprim 3 (Some t_bool).
Definition ex_if : exp := EIf (EPrim NoE p_eq [EVar 1; EVar 2]) (EPrim NoE p_eq [EVar 1; EVar 2])
  (EIf (EVar 3) (EPrim NoE p_eq [EVar 2; EVar 3]) (EPrim NoE p_false [])).
Example C48_inline_ex : exists c, cg_cexp ex_kind ex_if [SId 3; STmp; SId 2; SId 1] = Some c /\
  c = COr (CCall p_eq [CReg 0; CReg 1]) (CAnd (CReg 3) (CCall p_eq [CReg 1; CReg 3])) /\
  quiet (store := Z) ex_prim ex_if /\
  evalc Z Z (fun v => negb (v =? 0)) Z.b2z ex_prim (fun _ _ => 0) (fun _ => 0) (fun n => nth n [5; 7; 0; 7] 0) c 3 = (1, 3).
Proof.
  eexists. split; [vm_compute; reflexivity|]. split; [reflexivity|]. split; [|vm_compute; reflexivity].
  unfold ex_if. repeat (constructor; try (intros vs st; reflexivity)).
Qed.

(** The restriction is needed: a test with an effect, repeated as the first branch, is evaluated
    only once by the generated code. *)
Theorem C48_repeated_test_refuted : exists e c v st' w st2,
  cg_cexp ex_kind e [] = Some c /\
  means ex_kind Z Z (fun v => negb (v =? 0)) ex_prim (fun _ _ => 0) (fun _ => 0) (fun _ => 0) e 0 v st' /\
  evalc Z Z (fun v => negb (v =? 0)) Z.b2z ex_prim (fun _ _ => 0) (fun _ => 0) (fun _ => 0) c 0 = (w, st2) /\
  w <> v /\ st2 <> st'.
Proof.
  exists (EIf (EPrim ObsPutE p_count []) (EPrim ObsPutE p_count []) (EPrim NoE p_eq [EPrim NoE p_false []; EPrim NoE p_false []])),
    (COr (CCall p_count []) (CCall p_eq [CCall p_false []; CCall p_false []])), 0, 2, 1, 1.
  split; [vm_compute; reflexivity|]. split; [|split; [vm_compute; reflexivity|lia]].
  eapply (m_true _ _ _ _ _ _ _ _ _ _ _ _ 1 1); [eapply m_prim; [constructor|reflexivity]|reflexivity|eapply m_prim; [constructor|reflexivity]].
Qed.
Print Assumptions C48_repeated_test_refuted.
