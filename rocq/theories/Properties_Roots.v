(** C54: the global variables of modules, /repo/7.sf:113-124, 541-552, 704-745. *)
From Coq Require Import ZArith String List Bool Lia Permutation.
From Verif Require Import Base Model_Lit Model_Core Model_Beta Model_CodeGen Model_Roots Spec_Sem Spec_Free Spec_Scope Spec_CodeGen Spec_Collect Spec_Roots
  Proofs_CStr Proofs_Core Proofs_Free Proofs_Globals Proofs_Roots.
Import ListNotations.
Open Scope Z_scope.

Lemma distinct_locals n e : distinct n e -> locals e.
Proof. intros (_ & D) x I. apply D in I. unfold global_id. apply Z.ltb_ge. lia. Qed.
(** Whatever code stores in a global variable is an object that the collector finds, or a block outside the heap; variables that
    are set are defined in the module, those that are used are declared. *)
Theorem C54_statements n ls lams b prog x s : let e := EFix ls lams b in
  distinct n e -> code_generate e = Some prog -> global_id x = true -> statement_of s prog ->
  (stores x s -> In x (live_roots e)) /\
  (stores x s \/ stores_static x s -> exists d, In (x, d) (compile_globals e) /\ d <> DExtern) /\
  (uses x s -> exists d, In (x, d) (compile_globals e)).
Proof.
  intros e D G X S. apply distinct_locals in D. split; [intros St; eapply stored_rooted; eauto|]. destruct (prog_good ls lams b prog G x s S) as (A & B & C). fold e in A, B, C. split.
  - intros H. assert (K : (1 <= times x (sets e))%nat) by (destruct H as [H|H]; [apply A in H; lia | now apply B]). assert (Q := hits_assigned x e D X K).
    exists (declare e x). split.
    + apply in_map_iff. exists x. split; [reflexivity|]. apply free_vars_free. now apply Proofs_Globals.assigned_free.
    + unfold declare. apply assigned_assigned in Q. rewrite Q. now destruct (global_id_private_constant x).
  - intros H. apply C in H. exists (declare e x). apply in_map_iff. exists x. split; [reflexivity|]. apply free_vars_free. now apply refs_free.
Qed.
(** A global variable that is not in the table never holds anything but what it held at first, or a block outside the heap. *)
Theorem C54_runs P order junk dot n ls lams b prog x t0 t : let e := EFix ls lams b in
  distinct n e -> code_generate e = Some prog -> global_id x = true -> ~ In x (live_roots e) -> mstar P order junk dot prog t0 t ->
  gl (mmem t) x = gl (mmem t0) x \/ exists lb, gl (mmem t) x = clo lb [].
Proof.
  intros e D G X N R. apply (run_held P order junk dot prog x t0 t); [|exact R]. intros k K St. apply N. eapply stored_rooted; eauto. eapply distinct_locals; eauto.
Qed.
(** The tables name each variable once, and the table of the collector only what the module defines. *)
Theorem C54_tables e : NoDup (live_roots e) /\ NoDup (map fst (compile_globals e)) /\ forall x, In x (live_roots e) -> In x (exp_free_vars e) /\ var_assignment_count x e <> O.
Proof.
  split; [apply NoDup_filter, free_vars_NoDup|]. split.
  - unfold compile_globals. rewrite map_map, map_id. apply free_vars_NoDup.
  - intros x I. apply filter_In in I. destruct I as (I & K). split; [exact I|]. cbv zeta in K. destruct (Nat.eqb_spec (var_assignment_count x e) 0); [discriminate | assumption].
Qed.

Local Definition v (z : Z) : id := mkid z XNone.
Local Definition t (z : Z) : id := mkid z XTrue.
Local Definition f := v (-1).
Local Definition g := v (-2).
Local Definition h := v (-3).
Local Definition a := v (-4).
Local Definition priv := mkid (-5) XPrivate.
Local Definition read : prim := codes "obj(read())".
Local Definition wrap (x y k : Z) := ELam [v x; v y] (EApp (EVar (t k)) [EVar (v x); EVar (v y)]).
(** (t1 k x): (begin (set! h (read)) (k k h)), (t2 k x): (a k x) *)
Local Definition ls := [t 1; t 2].
Local Definition lams : list (list id * exp) :=
  [([v 3; v 4], let_exp [v 5] [ESet h (EPrim EAny read [])] (EApp (EVar (v 3)) [EVar (v 3); EVar h]));
   ([v 6; v 7], EApp (EVar a) [EVar (v 6); EVar (v 7)])].
(** f and the private constant are set to a procedure once, g twice, h to what is read, a is defined elsewhere *)
Local Definition mainx : exp :=
  let_exp [v 20] [ESet f (wrap 8 9 1)] (let_exp [v 21] [ESet g (wrap 10 11 1)] (let_exp [v 22] [ESet g (wrap 12 13 2)] (let_exp [v 23] [ESet priv (wrap 14 15 2)]
    (EApp (EVar f) [EVar g; EVar priv])))).
Ltac dist := split; [repeat constructor; vm_compute; intuition discriminate | intros x H; vm_compute in H; repeat (destruct H as [<-|H]; [vm_compute; intuition discriminate|]); destruct H].
Example C54_statements_ex : exists prog, distinct 23 (EFix ls lams mainx) /\ code_generate (EFix ls lams mainx) = Some prog /\
  statement_of (KSet (TGlob h) (XPrim read [])) prog /\ statement_of (KStatic g (t 2)) prog /\
  live_roots (EFix ls lams mainx) = [g; h] /\
  compile_globals (EFix ls lams mainx) = [(priv, DStatic); (g, DHere); (f, DHere); (a, DExtern); (h, DHere)].
Proof.
  eexists. split; [dist|]. split; [vm_compute; reflexivity|]. split.
  - right. eexists (t 1), _. split; [now left|]. apply wi_first, wi_first, wi_here.
  - split; [left; apply wi_second, wi_second, wi_first, wi_here | split; vm_compute; reflexivity].
Qed.
(** the main code is run: f is not in the table and holds a block outside the heap *)
Local Definition P (p : prim) : script := if zlist_dec p read then SInput (SRet (AReg 0)) else if zlist_dec p the_void_prim then SRet (AConst CVoid) else SFail.
Example C54_runs_ex : exists prog r r' w, code_generate (EFix ls lams mainx) = Some prog /\ ~ In f (live_roots (EFix ls lams mainx)) /\
  mstar P (fun l => seq 0 (length l)) (fun _ => VC CVoid) (fun _ => false) prog (MAt None r (mkst [] (fun _ => VC CVoid) [] [CVoid])) (MAt (Some (t 1)) r' w) /\
  gl w f = clo (t 1) [].
Proof.
  eexists. exists (fun _ => VC CVoid). eexists. eexists. split; [vm_compute; reflexivity|]. split; [vm_compute; intuition discriminate|]. split.
  - eapply mr_step; [|apply mr_refl]. eapply ms_jump; [reflexivity | cbn [main]; vm_compute; reflexivity | eapply en_clo with (us := []); reflexivity].
  - vm_compute. reflexivity.
Qed.
Print Assumptions C54_statements.
Print Assumptions C54_runs.
Print Assumptions C54_tables.
