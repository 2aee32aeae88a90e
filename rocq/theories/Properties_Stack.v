(** C58: functions that run on the C stack, /repo/6.sf:641-868. *)
From Coq Require Import ZArith String List Bool Lia Permutation.
From Verif Require Import Base Model_Lit Model_CStr Model_Core Model_Globals Model_Beta Model_Stack Spec_Scope Spec_Globals Spec_Stack Spec_StackTail Proofs_StackFun Proofs_StackGen Proofs_StackTail Proofs_StackCalls Proofs_StackLoops.
Import ListNotations.
Open Scope Z_scope.

(** Whatever the C function returns for some arguments, in whatever order C evaluates operands, is a value that the Scheme function may
    return for them, with the same effects.  This holds for all values, worlds and primitives. *)
Theorem C58_stack : forall (V W : Type) (truth : V -> bool) (prim_does : prim -> list V -> W -> V -> W -> Prop) (globals : id -> V)
  self fuel e n ps b code, 0 <= n -> s_function self e ps b -> distinct n e -> gen_function self fuel e n = Some code ->
  forall vs w v w', c_returns V W truth prim_does globals self code vs w v w' -> length vs = length ps ->
    eval V W truth prim_does globals self ps b [] (bind V ps vs globals) b w v w'.
Proof. exact stack_sound. Qed.

(** (define (f x acc) (if (zero? x) acc (f (dec x) (add acc x)))) *)
Definition self1 := mkid (-5) XPrivate.
Definition x1 := mkid 1 XNone.
Definition x2 := mkid 2 XNone.
Definition p_zero : prim := codes "bool(fixnum_from_$arg == 0)".
Definition p_dec : prim := codes "fixnum(fixnum_from_$arg - 1)".
Definition p_add : prim := codes "fixnum(fixnum_from_$arg + fixnum_from_$arg)".
Definition sum_body : exp :=
  EIf (EPrim ENo p_zero [EVar x1]) (EVar x2) (EApp (EVar self1) [EPrim ENo p_dec [EVar x1]; EPrim ENo p_add [EVar x2; EVar x1]]).
Definition t3 := mkid 3 XNone.
Definition t4 := mkid 4 XNone.
Definition sum_code : cfun := mkcfun [x1; x2] true
  (SIf (XPrim p_zero [XVar x1]) (SSet TReturn (XVar x2))
       (SSeq [SSet (TVar t4) (XPrim p_add [XVar x2; XVar x1]); SSet (TVar t3) (XPrim p_dec [XVar x1]); SGoto self1 [(x1, XVar t3); (x2, XVar t4)]])).
Definition prims1 (p : prim) (vs : list Z) (w : list Z) (v : Z) (w' : list Z) : Prop :=
  w' = w /\ match vs with
            | [a] => (p = p_zero /\ v = (if a =? 0 then 1 else 0)) \/ (p = p_dec /\ v = a - 1)
            | [a; b] => p = p_add /\ v = a + b
            | _ => False
            end.
Example C58_stack_ex :
  s_function self1 (ELam [x1; x2] sum_body) [x1; x2] sum_body /\ distinct 2 (ELam [x1; x2] sum_body) /\
  gen_function self1 10 (ELam [x1; x2] sum_body) 2 = Some sum_code /\
  c_returns Z (list Z) (fun v => negb (v =? 0)) prims1 (fun _ => 0) self1 sum_code [1; 7] [9] 8 [9].
Proof.
  split; [|split; [|split]].
  - constructor. repeat (constructor; try (cbn; tauto); try reflexivity; intros; cbn [In] in *; repeat match goal with H : _ \/ _ |- _ => destruct H | H : False |- _ => destruct H end; subst).
  - split; [repeat constructor; cbn; intuition discriminate|]. cbn. intros x [<-|[<-|[]]]; cbn; lia.
  - vm_compute. reflexivity.
  - exists 30%nat, (fun _ => 0). split; [reflexivity|]. cbn [cf_body cf_params sum_code].
    assert (forall n s w x, ceval Z (list Z) (fun v => negb (v =? 0)) prims1 (fun _ => 0) self1 sum_code (S n) s w (XVar x) (s x) w) as Hv by (intros; constructor).
    assert (forall n s w p x v, prims1 p [s x] w v w -> ceval Z (list Z) (fun v => negb (v =? 0)) prims1 (fun _ => 0) self1 sum_code (S (S (S n))) s w (XPrim p [XVar x]) v w) as H1.
    { intros n s w p x v H. apply (ce_prim _ _ _ _ _ _ _ _ _ _ _ _ [s x] w); [reflexivity| |exact H]. cbn [combine]. eapply cs_pick; [reflexivity|apply Hv|constructor]. }
    assert (forall n s w p x y v, prims1 p [s x; s y] w v w -> ceval Z (list Z) (fun v => negb (v =? 0)) prims1 (fun _ => 0) self1 sum_code (S (S (S (S n)))) s w (XPrim p [XVar x; XVar y]) v w) as H2.
    { intros n s w p x y v H. apply (ce_prim _ _ _ _ _ _ _ _ _ _ _ _ [s x; s y] w); [reflexivity| |exact H]. cbn [combine].
      eapply cs_pick; [reflexivity|apply Hv|]. eapply cs_pick; [reflexivity|apply Hv|constructor]. }
    eapply (r_if _ _ _ _ _ _ _ 29); [apply (H1 26%nat) with (v := 0); split; [easy|]; left; split; reflexivity|]. cbn [negb Z.eqb].
    apply (r_seq _ _ _ _ _ _ _ 28). cbn [app].
    eapply (r_set _ _ _ _ _ _ _ 27); [discriminate|apply (H2 23%nat); split; [easy|split; reflexivity]|].
    eapply (r_set _ _ _ _ _ _ _ 26); [discriminate|apply (H1 23%nat); split; [easy|right; split; reflexivity]|].
    eapply (r_assign _ _ _ _ _ _ _ 25); [apply (Hv 24%nat)|]. eapply (r_assign _ _ _ _ _ _ _ 24); [apply (Hv 23%nat)|].
    eapply (r_goto _ _ _ _ _ _ _ 23); [reflexivity|]. cbn [cf_body].
    eapply (r_if _ _ _ _ _ _ _ 22); [apply (H1 19%nat) with (v := 1); split; [easy|]; left; split; reflexivity|]. cbn [negb Z.eqb].
    apply (r_return _ _ _ _ _ _ _ 21). exact (Hv 20%nat _ _ x2).
Qed.
Print Assumptions C58_stack.

(** Every jump in a function without loops has its label.  The full statement, for all functions, is false (below): the tests
    for "is this label used" (702-718) do not look into loops. *)
Theorem C58_labels_partial : forall self fuel e n ps b code, s_function self e ps b -> distinct n e -> no_loop b = true ->
  gen_function self fuel e n = Some code -> complete self code.
Proof. exact stack_labels. Qed.
(** a function with a letrec whose functions jump to each other, one of them used nowhere *)
Definition g1 := mkid 3 XNone.
Definition g2 := mkid 4 XNone.
Definition y1 := mkid 5 XNone.
Definition y2 := mkid 6 XNone.
Definition two_body : exp :=
  EFix [g1; g2] [([y1], EIf (EVar y1) (EApp (EVar self1) [EVar y1]) (EVar x1)); ([y2], EVar y2)] (EApp (EVar g1) [EVar x1]).
Example C58_labels_ex : s_function self1 (ELam [x1] two_body) [x1] two_body /\ distinct 6 (ELam [x1] two_body) /\ no_loop two_body = true /\
  exists code, gen_function self1 10 (ELam [x1] two_body) 6 = Some code /\ cf_label code = true /\ jumps_out (cf_body code) = [self1].
Proof.
  split; [|split; [|split]].
  - constructor. apply sb_fix; [reflexivity|cbn; intuition discriminate| |].
    + apply (sb_goto _ _ _ _ g1 [y1]); [discriminate|reflexivity|reflexivity|]. intros e [<-|[]]. constructor. left. now left.
    + intros lam [<-|[<-|[]]]; cbn [fst snd app]; repeat (constructor; try (cbn; tauto); try reflexivity; intros); cbn [In] in *.
      destruct H as [<-|[]]. constructor. left. now left.
  - split; [repeat constructor; cbn; intuition discriminate|]. cbn. intros x I. repeat (destruct I as [<-|I]; [cbn; lia|]). destruct I.
  - reflexivity.
  - eexists. split; [vm_compute; reflexivity|]. split; reflexivity.
Qed.
Print Assumptions C58_labels_partial.

(** (define (f x) (let loop ([i x]) (if i (f i) (loop x)))): the C code jumps to the label of f, which is not written: the function is
    accepted for the C stack, and the C compiler rejects it. *)
Definition i1 := mkid 3 XNone.
Definition lp := mkid 4 XNone.
Definition loop_body : exp := EApp (EFix [lp] [([i1], EIf (EVar i1) (EApp (EVar self1) [EVar i1]) (EApp (EVar lp) [EVar x1]))] (EVar lp)) [EVar x1].
Theorem C58_labels_refuted : exists self e n ps b code, s_function self e ps b /\ distinct n e /\
  ag_stack_function 10 e self [] = Some true /\ gen_function self 10 e n = Some code /\ ~ complete self code.
Proof.
  exists self1, (ELam [x1] loop_body), 4, [x1], loop_body. eexists. split; [|split; [|split; [|split]]].
  - constructor. apply sb_loop; [discriminate|reflexivity|intros e [<-|[]]; constructor; left; now left|].
    apply sb_if; [constructor; left; now left| |].
    + apply sb_self; [reflexivity|]. intros e [<-|[]]. constructor. left. now left.
    + apply (sb_goto _ _ _ _ lp [i1]); [discriminate|reflexivity|reflexivity|]. intros e [<-|[]]. constructor. left. right. now left.
  - split; [repeat constructor; cbn; intuition discriminate|]. cbn. intros x I. repeat (destruct I as [<-|I]; [cbn; lia|]). destruct I.
  - vm_compute. reflexivity.
  - vm_compute. reflexivity.
  - intro C. destruct (C self1) as [_ H]; [vm_compute; tauto|discriminate H].
Qed.
Print Assumptions C58_labels_refuted.

(** The generator gives code for every function of this form. *)
Theorem C58_succeeds : forall self e n ps b, s_function self e ps b -> distinct n e -> exists fuel code, gen_function self fuel e n = Some code.
Proof. exact stack_succeeds. Qed.
(** a function with a loop *)
Example C58_succeeds_ex : s_function self1 (ELam [x1] loop_body) [x1] loop_body /\ distinct 4 (ELam [x1] loop_body) /\
  gen_function self1 3 (ELam [x1] loop_body) 4 = None /\ gen_function self1 10 (ELam [x1] loop_body) 4 <> None.
Proof.
  split; [|split; [|split; [reflexivity|discriminate]]].
  - constructor. apply sb_loop; [discriminate|reflexivity|intros e [<-|[]]; constructor; left; now left|].
    apply sb_if; [constructor; left; now left| |].
    + apply sb_self; [reflexivity|]. intros e [<-|[]]. constructor. left. now left.
    + apply (sb_goto _ _ _ _ lp [i1]); [discriminate|reflexivity|reflexivity|]. intros e [<-|[]]. constructor. left. right. now left.
  - split; [repeat constructor; cbn; intuition discriminate|]. cbn. intros x I. repeat (destruct I as [<-|I]; [cbn; lia|]). destruct I.
Qed.
Print Assumptions C58_succeeds.

(** Tail calls need no stack: no statement returns the value of a call. *)
Theorem C58_tail : forall self fuel e n code, gen_function self fuel e n = Some code -> keeps_stack (cf_body code).
Proof. exact stack_tail. Qed.
(** (lambda (x) (if x (f (f x)) x)): the inner call is a call, the outer call a jump *)
Example C58_tail_ex : exists code, gen_function self1 10 (ELam [x1] (EIf (EVar x1) (EApp (EVar self1) [EApp (EVar self1) [EVar x1]]) (EVar x1))) 1 = Some code /\
  cf_body code = SIf (XVar x1) (SSeq [SSet (TVar x2) (XCall self1 [XVar x1]); SGoto self1 [(x1, XVar x2)]]) (SSet TReturn (XVar x1)) /\
  ~ keeps_stack (SIf (XVar x1) (SSet TReturn (XCall self1 [XCall self1 [XVar x1]])) (SSet TReturn (XVar x1))).
Proof.
  eexists. split; [vm_compute; reflexivity|]. split; [reflexivity|]. intro H. inversion H as [| | |c a b Ka Kb| | |]; subst. inversion Ka as [c E|t c N| | | | |]; subst; [discriminate E|now apply N].
Qed.
Print Assumptions C58_tail.

(** The C code calls no C function but itself.  The full statement, for all functions that the analysis accepts, is false (below): it also
    accepts letrecs outside return position if nothing but their own functions calls them. *)
Theorem C58_calls_partial : forall self fuel e n ps b code, s_function self e ps b -> gen_function self fuel e n = Some code ->
  forall f, In f (s_calls (cf_body code)) -> f = self.
Proof. exact stack_calls. Qed.
(** (lambda (x) (if x (f (f x)) x)) *)
Example C58_calls_ex : exists b code, s_function self1 (ELam [x1] b) [x1] b /\ gen_function self1 10 (ELam [x1] b) 1 = Some code /\ s_calls (cf_body code) = [self1].
Proof.
  exists (EIf (EVar x1) (EApp (EVar self1) [EApp (EVar self1) [EVar x1]]) (EVar x1)). eexists. split; [|split; [vm_compute; reflexivity|reflexivity]].
  constructor. apply sb_if; [constructor; left; now left| |constructor; left; now left].
  apply sb_self; [reflexivity|]. intros e [<-|[]]. apply sb_self; [reflexivity|]. intros e [<-|[]]. constructor. left. now left.
Qed.
Print Assumptions C58_calls_partial.

(** (define (f x) (begin (letrec ([g (lambda (y) (g y))]) x) x)): the C code calls a C function for g, which does not exist. *)
Definition g_body : exp := EApp (ELam [mkid 5 XNone] (EVar x1)) [EFix [g1] [([g2], EApp (EVar g1) [EVar g2])] (EVar x1)].
Theorem C58_calls_refuted : exists self e n code f, distinct n e /\ ag_stack_function 10 e self [] = Some true /\
  gen_function self 20 e n = Some code /\ In f (s_calls (cf_body code)) /\ f <> self.
Proof.
  exists self1, (ELam [x1] g_body), 5. eexists. exists g1. split; [|split; [|split; [vm_compute; reflexivity|split; [vm_compute; tauto|discriminate]]]].
  - split; [repeat constructor; cbn; intuition discriminate|]. cbn. intros x I. repeat (destruct I as [<-|I]; [cbn; lia|]). destruct I.
  - vm_compute. reflexivity.
Qed.
Print Assumptions C58_calls_refuted.

(** Every jump has its label also in functions with loops that jump only to themselves; C58_labels_refuted has a loop that does not. *)
Theorem C58_loops_partial : forall self fuel e n ps b code, s_function self e ps b -> distinct n e -> closed_loops b = true ->
  gen_function self fuel e n = Some code -> complete self code.
Proof. exact stack_closed. Qed.
(** (lambda (x) (if x (let loop ([i x]) (if i i (loop x))) (f x))) *)
Definition closed_body : exp :=
  EIf (EVar x1) (EApp (EFix [lp] [([i1], EIf (EVar i1) (EVar i1) (EApp (EVar lp) [EVar x1]))] (EVar lp)) [EVar x1]) (EApp (EVar self1) [EVar x1]).
Example C58_loops_ex : s_function self1 (ELam [x1] closed_body) [x1] closed_body /\ distinct 4 (ELam [x1] closed_body) /\
  closed_loops closed_body = true /\ no_loop closed_body = false /\ closed_loops loop_body = false /\
  exists code, gen_function self1 10 (ELam [x1] closed_body) 4 = Some code /\ jumps_out (cf_body code) = [self1].
Proof.
  split; [|split; [|split; [reflexivity|split; [reflexivity|split; [reflexivity|eexists; split; [vm_compute; reflexivity|reflexivity]]]]]].
  - constructor. apply sb_if; [constructor; left; now left| |apply sb_self; [reflexivity|]; intros e [<-|[]]; constructor; left; now left].
    apply sb_loop; [discriminate|reflexivity|intros e [<-|[]]; constructor; left; now left|].
    apply sb_if; [constructor; left; now left|constructor; left; now left|].
    apply (sb_goto _ _ _ _ lp [i1]); [discriminate|reflexivity|reflexivity|]. intros e [<-|[]]. constructor. left. right. now left.
  - split; [repeat constructor; cbn; intuition discriminate|]. cbn. intros x I. repeat (destruct I as [<-|I]; [cbn; lia|]). destruct I.
Qed.
Print Assumptions C58_loops_partial.
