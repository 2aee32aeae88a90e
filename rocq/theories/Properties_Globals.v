(** C51: analysis of global variables, /repo/4.sf:418-650. *)
From Coq Require Import ZArith String List Bool Lia.
From Verif Require Import Base Model_Lit Model_Core Model_Globals Spec_Sem Spec_Free Spec_Scope Spec_Lift Spec_Letrec Spec_Globals Proofs_Sim Proofs_Core Proofs_Free Proofs_Run
  Proofs_Globals Proofs_GlobalsMain Proofs_GlobalsBy Proofs_GlobalsStack.
Import ListNotations.
Open Scope Z_scope.

(** Replacing globals by the simple values they are defined with, and dropping private constants that are not needed any
    more, keeps the meaning of a program, and the globals that other modules can see: if no variable is read before it is
    assigned, definitions do not mention local variables, and no private constant is a simple recursive procedure.
    Missing: programs of which functions are moved to the C stack (the list of these is empty here); the full statement is the same
    for any list, with operations obj(cxs_f(...)) that do what these functions do. *)
Theorem C51_meaning_partial P nm fuel e n e' n' :
  makes P the_void_prim CVoid -> honest P e -> no_local_set e -> (forall x, In x (binders e) -> global_id x = false) ->
  0 <= n -> (forall x, free_in x e -> - n <= ts x) -> lifted [] e -> no_private_rec e -> (forall x d, defines x d e -> closed d) -> careful P e ->
  analyze_globals nm fuel e n = Some (e', [], n') -> refines_on public P e (storage (same_symbol e n) e').
Proof. exact (globals_refine P nm fuel e n e' n'). Qed.
Local Definition v (z : Z) : id := mkid z XNone.
Local Definition q (z : Z) : id := mkid z XPrivate.
Local Definition c (z : Z) : id := mkid z XTrue.
Local Definition read : prim := codes "obj(read())".
Local Definition write : prim := codes "void(write($arg))".
Local Definition dec : prim := codes "fixnum($arg - 1)".
Local Definition num (z : Z) : exp := EPrim ENo (codes "n" ++ [z]) [].
Local Definition P (p : prim) : script :=
  if zlist_dec p the_void_prim then SRet (AConst CVoid)
  else if zlist_dec p read then SInput (SRet (AReg 0))
  else if zlist_dec p write then SEmit (AReg 0) (SRet (AConst CVoid))
  else if zlist_dec p dec then STest (AReg 0) (fun s => match s with ShC (CInt z) => SRet (AConst (if z =? 0 then CBool false else CInt (z - 1))) | _ => SFail end)
  else match p with [_; z] => SRet (AConst (CInt z)) | _ => SFail end.
Local Definition begin (d : Z) (a b : exp) : exp := let_exp [v d] [a] b.
Local Definition Rd : exp := EPrim EAny read [].
Local Definition Wr (e : exp) : exp := EPrim EAny write [e].
Local Definition Dec (e : exp) : exp := EPrim ENo dec [e].
Local Definition V (z : Z) : exp := EVar (v z).
(** (set! %1 7), private; (define dec1 (lambda (x) (dec x))); (define k %1);
    (define loop (lambda (n) (let ((m (dec1 n))) (write k) (if m (loop m) last)))); (define last (read)); (loop (read)) *)
Local Definition prog : exp :=
  begin 10 (ESet (q (-1)) (num 7))
  (begin 11 (ESet (v (-2)) (ELam [v 1] (Dec (V 1))))
  (begin 12 (ESet (v (-3)) (EVar (q (-1))))
  (begin 13 (ESet (v (-4)) (ELam [v 2] (let_exp [v 3] [EApp (V (-2)) [V 2]] (begin 4 (Wr (V (-3))) (EIf (V 3) (EApp (V (-4)) [V 3]) (V (-5)))))))
    (begin 14 (ESet (v (-5)) Rd) (EApp (V (-4)) [Rd]))))).
Local Definition after : exp :=
  begin 10 void_exp
  (begin 11 (ESet (c (-24)) (ELam [v 1] (Dec (V 1))))
  (begin 12 (ESet (c (-23)) (num 7))
  (begin 13 (ESet (c (-22)) (ELam [v 2] (let_exp [v 3] [EApp (ELam [v 1] (Dec (V 1))) [V 2]] (begin 4 (Wr (num 7)) (EIf (V 3) (EApp (EVar (c (-22))) [V 3]) (EVar (c (-21))))))))
    (begin 14 (ESet (c (-21)) Rd) (EApp (EVar (c (-22))) [Rd]))))).
Local Lemma void_makes : makes P the_void_prim CVoid.
Proof. split; [discriminate|]. reflexivity. Qed.
Ltac closed := intros x F; apply free_vars_free in F; vm_compute in F; repeat (destruct F as [<-|F]; [reflexivity|]); destruct F.
Ltac locals := intros x F; cbn in F; repeat (destruct F as [<-|F]; [reflexivity|]); destruct F.
Ltac low := intros x F; apply free_vars_free in F; vm_compute in F; repeat (destruct F as [<-|F]; [vm_compute; discriminate|]); destruct F.
Ltac privates := intros x F; apply free_vars_free in F; vm_compute in F; repeat (destruct F as [<-|F]; [try discriminate; try (intros _; cbn; auto; fail)|]); destruct F.
Ltac unassigned := intros x F; apply assigned_sets in F; vm_compute in F; repeat (destruct F as [<-|F]; [reflexivity|]); destruct F.
Ltac lift := repeat (apply li_const; [reflexivity | cbn; intuition discriminate | privates | unassigned|]); apply li_body; [privates | unassigned].
Ltac defs := intros x d D; apply defines_sets in D; cbn in D; repeat (destruct D as [[= <- <-]|D]; [closed|]); destruct D.
Ltac norec := intros x y xs b ls Px D; apply defines_sets in D; vm_compute in D; repeat (destruct D as [D|D]; [discriminate D|]); destruct D.
Ltac honest := vm_compute; repeat match goal with |- _ /\ _ => split | |- True => exact Logic.I | |- forall x : shape, _ => let s := fresh in intros s; destruct s as [k| |]; [destruct k|..] | |- context [match ?z with Z0 => _ | Zpos _ => _ | Zneg _ => _ end] => destruct z end.
Example C51_meaning_partial_ex : honest P prog /\ no_local_set prog /\ (forall x, In x (binders prog) -> global_id x = false) /\ (forall x, free_in x prog -> - 20 <= ts x) /\
  lifted [] prog /\ no_private_rec prog /\ (forall x d, defines x d prog -> closed d) /\ careful P prog /\
  (forall nm, analyze_globals nm 100 prog 20 = Some (after, [], 24)) /\
  same_symbol prog 20 = [(q (-1), q (-1)); (c (-24), v (-2)); (c (-23), v (-3)); (c (-22), v (-4)); (c (-21), v (-5))] /\
  (forall g, left_outcome P MDirect 300 prog g [CInt 9; CInt 1] = Some (Some (ShC (CInt 9)), [ShC (CInt 7); ShC (CInt 7)]) /\
             left_outcome P MDirect 300 (storage (same_symbol prog 20) after) g [CInt 9; CInt 1] = Some (Some (ShC (CInt 9)), [ShC (CInt 7); ShC (CInt 7)])).
Proof.
  split; [honest|]. split; [vm_compute; auto 30|]. split; [locals|]. split; [low|]. split; [lift|]. split; [norec|]. split; [defs|].
  split; [apply (careful_by 60); intros g [|]; vm_compute; reflexivity|]. split; [reflexivity|]. split; [reflexivity|]. intros g. split; vm_compute; reflexivity.
Qed.
Print Assumptions C51_meaning_partial.

(** What the theorem asks of a program, but for reads before assignments, local variables in definitions, and recursive private constants *)
Definition ordinary (P : prim -> script) (e : exp) (n : Z) : Prop := makes P the_void_prim CVoid /\ honest P e /\ no_local_set e /\
  (forall x, In x (binders e) -> global_id x = false) /\ 0 <= n /\ (forall x, free_in x e -> - n <= ts x) /\ lifted [] e /\ closed e.
Definition broken (P : prim -> script) (e : exp) (n : Z) : Prop :=
  exists e' n', (forall nm, analyze_globals nm 100 e n = Some (e', [], n')) /\ ~ refines_on public P e (storage (same_symbol e n) e').
Ltac ordinary := split; [apply void_makes|]; split; [honest|]; split; [vm_compute; auto 30|]; split; [locals|]; split; [lia|]; split; [low|]; split; [lift | closed].
(** Definitions in the body of a let are found too, and values that mention its variables are put where these mean nothing:
    (begin (let ((t 7)) (set! g (lambda (x) (dec t)))) (g 3)). *)
Local Definition inside : exp := begin 10 (let_exp [v 1] [num 7] (ESet (v (-1)) (ELam [v 2] (Dec (V 1))))) (EApp (V (-1)) [num 3]).
Theorem C51_scope_refuted : exists P e n, ordinary P e n /\ no_private_rec e /\ careful P e /\ broken P e n.
Proof.
  exists P, inside, 10. split; [ordinary|]. split; [norec|]. split; [apply (careful_by 60); intros g i; vm_compute; reflexivity|].
  eexists _, _. split; [reflexivity|]. apply (not_refines_on_wrong P public 50 50) with (g := fun _ => CVoid) (i := []) (os := [(Some (ShC (CInt 6)), [])]) (o := []); vm_compute; reflexivity.
Qed.
Print Assumptions C51_scope_refuted.

(** A variable that is read before it is assigned seems to have its value already: (begin (write g) (set! g 7) g). *)
Local Definition hasty : exp := begin 10 (Wr (V (-1))) (begin 11 (ESet (v (-1)) (num 7)) (V (-1))).
Theorem C51_early_refuted : exists P e n, ordinary P e n /\ no_private_rec e /\ (forall x d, defines x d e -> closed d) /\ broken P e n.
Proof.
  exists P, hasty, 11. split; [ordinary|]. split; [norec|]. split; [defs|].
  eexists _, _. split; [reflexivity|].
  apply (not_refines_on P public 50 50) with (g := fun _ => CInt 1) (i := []) (os := [(Some (ShC (CInt 7)), [ShC (CInt 1)])]) (s := ShC (CInt 7)) (o := [ShC (CInt 7)]); [vm_compute; reflexivity | reflexivity | vm_compute; reflexivity|].
  intros [E|[]]. discriminate.
Qed.
Print Assumptions C51_early_refuted.

(** The assignment of a private constant that is a simple recursive procedure is dropped as if the procedure were one for the
    C stack, but the procedure itself still refers to the constant:
    (%quote (letrec ((f (lambda (x) (identity (lambda (y) (f x)))))) f)). *)
Local Definition ident : prim := codes "($arg)".
Local Definition P2 (p : prim) : script := if zlist_dec p ident then SRet (AReg 0) else P p.
Local Definition orphan : exp :=
  begin 10 (ESet (q (-1)) (EFix [v 1] [([v 2], EPrim ENo ident [ELam [v 3] (EApp (V 1) [V 2])])] (V 1))) (EApp (EApp (EVar (q (-1))) [num 1]) [num 2]).
Theorem C51_private_rec_refuted : exists P e n, ordinary P e n /\ (forall x d, defines x d e -> closed d) /\ careful P e /\ broken P e n.
Proof.
  exists P2, orphan, 10. split.
  { split; [split; [discriminate | reflexivity]|]. split; [honest|]. split; [vm_compute; auto 30|]. split; [locals|]. split; [lia|]. split; [low|]. split; [lift | closed]. }
  split; [defs|]. split; [apply (careful_by 60); intros g i; vm_compute; reflexivity|].
  eexists _, _. split; [reflexivity|]. apply (not_refines_on_wrong P2 public 100 100) with (g := fun _ => CVoid) (i := []) (os := [(Some ShProc, [])]) (o := []); vm_compute; reflexivity.
Qed.
Print Assumptions C51_private_rec_refuted.

(** The test for functions that can use the C stack follows the definitions that have been inlined, and never ends if these call
    each other: (define (f x) (dec (g x))) (define (g y) (dec (f y))) (define (h z) (if z (f z) 1)) *)
Local Definition lamf : exp := ELam [v 1] (Dec (EApp (V (-2)) [V 1])).
Local Definition lamg : exp := ELam [v 2] (Dec (EApp lamf [V 2])).
Local Lemma sf_prim f self p l s L t : stack_fn (S f) self (EPrim ENo p l) s L t = andmap (fun e => stack_fn f self e s L false) l.
Proof. reflexivity. Qed.
Local Lemma sf_let f self x b r s L t : stack_fn (S f) self (EApp (ELam [x] b) [r]) s L t = and_then (andmap (fun e => stack_fn f self e s L false) [r]) (stack_fn f self b ((x, None) :: s) L t).
Proof. reflexivity. Qed.
Local Lemma sf_call f self x xs b l s t : id_eqb x self = false -> assq x s = Some (Some (ELam xs b)) -> stack_fn (S f) self (EApp (EVar x) l) s [] t = stack_fn f self (EApp (ELam xs b) l) s [] t.
Proof. intros N A. cbn [stack_fn let_view rec_view]. rewrite N, A. cbn [memq existsb]. now rewrite andb_false_r. Qed.
Local Lemma sf_var f self a s L t : assq a s = Some None -> stack_fn (S f) self (EVar a) s L t = Some true.
Proof. intros A. cbn [stack_fn]. now rewrite A. Qed.
Local Lemma assq_skip {A} x y (a : A) s : id_eqb x y = false -> assq x ((y, a) :: s) = assq x s.
Proof. intros E. cbn [assq]. now rewrite E. Qed.
Local Definition knows (s : known) : Prop := assq (v (-1)) s = Some (Some lamf) /\ assq (v (-2)) s = Some (Some lamg).
Local Lemma knows_more a s : (0 <=? ts a) = true -> knows s -> knows ((a, None) :: s).
Proof.
  intros L (A & B). assert (N : forall z, z < 0 -> id_eqb (v z) a = false).
  { intros z Z. destruct (id_eqb (v z) a) eqn:E; [|reflexivity]. apply id_eqb_eq in E. subst a. apply Z.leb_le in L. cbn in L. lia. }
  split; rewrite assq_skip; auto; apply N; lia.
Qed.
(** a call of f or g *)
Local Lemma loops : forall k fuel s a tail, (fuel <= k)%nat -> knows s -> assq a s = Some None ->
  stack_fn fuel (v (-3)) (EApp lamf [EVar a]) s [] tail = None /\ stack_fn fuel (v (-3)) (EApp (V (-2)) [EVar a]) s [] tail = None.
Proof.
  induction k as [|k IH]; intros fuel s a tail L K A; [destruct fuel; [easy | lia]|]. destruct fuel as [|fuel]; [easy|]. split.
  - unfold lamf at 1. rewrite sf_let. cbn [andmap]. destruct fuel as [|fuel]; [reflexivity|]. rewrite (sf_var fuel _ _ _ _ _ A). cbn [and_then].
    unfold Dec. rewrite sf_prim. cbn [andmap]. assert (K1 : knows ((v 1, None) :: s)) by (apply knows_more; [reflexivity | assumption]).
    assert (X := proj2 (IH fuel ((v 1, None) :: s) (v 1) false ltac:(lia) K1 eq_refl)). unfold V in *. rewrite X. reflexivity.
  - unfold V. rewrite (sf_call fuel (v (-3)) (v (-2)) [v 2] (Dec (EApp lamf [V 2])) _ s tail eq_refl (proj2 K)). destruct fuel as [|fuel]; [reflexivity|].
    rewrite sf_let. cbn [andmap]. destruct fuel as [|fuel]; [reflexivity|]. rewrite (sf_var fuel _ _ _ _ _ A). cbn [and_then].
    unfold Dec. rewrite sf_prim. cbn [andmap]. assert (K1 : knows ((v 2, None) :: s)) by (apply knows_more; [reflexivity | assumption]).
    unfold V. rewrite (proj1 (IH fuel ((v 2, None) :: s) (v 2) false ltac:(lia) K1 eq_refl)). reflexivity.
Qed.
Local Definition body3 : exp := EIf (V 3) (EApp (V (-1)) [V 3]) (num 1).
Local Lemma body_loops fuel s : knows s -> assq (v 3) s = Some None -> stack_fn fuel (v (-3)) body3 s [] true = None.
Proof.
  intros K A. destruct fuel as [|fuel]; [reflexivity|]. change (and_then (stack_fn fuel (v (-3)) (V 3) s [] false) (and_then (stack_fn fuel (v (-3)) (EApp (V (-1)) [V 3]) s [] true) (stack_fn fuel (v (-3)) (num 1) s [] true)) = None).
  destruct fuel as [|fuel]; [reflexivity|]. unfold V. rewrite (sf_var fuel _ _ _ _ _ A). cbn [and_then]. rewrite (sf_call fuel (v (-3)) (v (-1)) [v 1] (Dec (EApp (V (-2)) [V 1])) _ s true eq_refl (proj1 K)).
  fold lamf. rewrite (proj1 (loops fuel fuel s (v 3) true (le_n _) K A)). reflexivity.
Qed.
Local Definition mutual : exp :=
  begin 10 (ESet (v (-1)) lamf) (begin 11 (ESet (v (-2)) (ELam [v 2] (Dec (EApp (V (-1)) [V 2])))) (begin 12 (ESet (v (-3)) (ELam [v 3] body3)) (V (-3)))).
Local Lemma mutual_defs : gls mutual mutual 12 [] = ([(v (-1), c (-15), lamf); (v (-2), c (-14), ELam [v 2] (Dec (EApp (V (-1)) [V 2]))); (v (-3), c (-13), ELam [v 3] body3)], 15).
Proof. vm_compute. reflexivity. Qed.
Local Lemma first nm fuel sf : finalize nm fuel (v (-1)) (c (-15)) lamf [] sf = Some (mkent (v (-1)) (c (-15)) lamf None, sf).
Proof. reflexivity. Qed.
Local Lemma second nm fuel sf : finalize nm fuel (v (-2)) (c (-14)) (ELam [v 2] (Dec (EApp (V (-1)) [V 2]))) [mkent (v (-1)) (c (-15)) lamf None] sf = Some (mkent (v (-2)) (c (-14)) lamg None, sf).
Proof. reflexivity. Qed.
Local Lemma third nm fuel sf : finalize nm fuel (v (-3)) (c (-13)) (ELam [v 3] body3) [mkent (v (-2)) (c (-14)) lamg None; mkent (v (-1)) (c (-15)) lamf None] sf = None.
Proof.
  unfold finalize. cbn [rec_view]. unfold finalize_plain. change (ag_simple (ELam [v 3] body3)) with false. cbn [andb ag_stack_function].
  rewrite body_loops; [reflexivity | split; reflexivity | reflexivity].
Qed.
Theorem C51_terminates_refuted : exists P e n, ordinary P e n /\ no_private_rec e /\ (forall x d, defines x d e -> closed d) /\ careful P e /\ forall nm fuel, analyze_globals nm fuel e n = None.
Proof.
  exists P, mutual, 12. split; [ordinary|]. split; [norec|]. split; [defs|]. split; [apply (careful_by 60); intros g i; vm_compute; reflexivity|]. intros nm fuel.
  unfold analyze_globals. rewrite mutual_defs. cbn [finalize_all]. rewrite first. cbn [finalize_all]. rewrite second. cbn [finalize_all]. rewrite third. reflexivity.
Qed.
Print Assumptions C51_terminates_refuted.

(** A function moved to the C stack can still contain calls of other procedures, which cannot be compiled (6.sf:822-824 stops
    with an error): the test looks through all definitions inlined so far, but a definition that was inlined early still
    refers to the later ones by name:  (define (f x) (dec (g x))) (define (g y) (dec y)) (define (h z) (if z (f z) 1)) *)
Local Definition backward : exp :=
  begin 10 (ESet (v (-1)) lamf) (begin 11 (ESet (v (-2)) (ELam [v 2] (Dec (V 2)))) (begin 12 (ESet (v (-3)) (ELam [v 3] body3)) (EApp (V (-3)) [Rd]))).
Theorem C51_stack_refuted : exists P e n fuel h f n', ordinary P e n /\ no_private_rec e /\ (forall x d, defines x d e -> closed d) /\ careful P e /\
  (forall nm, exists e', analyze_globals nm fuel e n = Some (e', [(h, f)], n')) /\ ~ c_function h f.
Proof.
  exists P, backward, 12, 100%nat, (v (-3)), (ELam [v 3] (EIf (V 3) (EApp lamf [V 3]) (num 1))), 15. split; [ordinary|]. split; [norec|]. split; [defs|].
  split; [apply (careful_by 60); intros g i; vm_compute; reflexivity|]. split; [intros nm; eexists; reflexivity|].
  intros H. inversion H as [xs b B E| |]; subst. inversion B as [|? ? ? ? ? ? _ B1 _ E1| | | | | |]; subst. inversion B1 as [| | |? ? ? ? ? ? _ _ B2 E2| | | |]; subst. 
  inversion B2 as [| |? ? ? ? ? ? _ B3 E3| | | | |]; subst. specialize (B3 _ (or_introl eq_refl)). inversion B3.
Qed.
Print Assumptions C51_stack_refuted.

(** If the program is a row of definitions, of which the simple ones mention no variable that is defined at the same place or later,
    every function moved to the C stack consists of operations, branches, blocks, loops and calls of itself in tail position. *)
Theorem C51_stack P nm fuel e n e' sf n' :
  honest P e -> no_local_set e -> (forall x, In x (binders e) -> global_id x = false) ->
  0 <= n -> (forall x, free_in x e -> - n <= ts x) -> lifted [] e -> no_private_rec e -> (forall x d, defines x d e -> closed d) -> forward e ->
  analyze_globals nm fuel e n = Some (e', sf, n') -> forall x f, In (x, f) sf -> c_function x f.
Proof. exact (globals_stack P nm fuel e n e' sf n'). Qed.
(** (define (f x) (dec x)) (define (h z) (if z (h (f z)) 1)) (define (g z) (if z (f (h z)) 1)) (h (g (read))): the loop h is
    a function, and g, that calls it by its stack version *)
Local Definition stacky : exp :=
  begin 10 (ESet (v (-1)) (ELam [v 1] (Dec (V 1))))
  (begin 11 (ESet (v (-2)) (ELam [v 3] (EIf (V 3) (EApp (V (-2)) [EApp (V (-1)) [V 3]]) (num 1))))
  (begin 12 (ESet (v (-3)) (ELam [v 4] (EIf (V 4) (EApp (V (-1)) [EApp (V (-2)) [V 4]]) (num 1)))) (EApp (V (-2)) [EApp (V (-3)) [Rd]]))).
Ltac nodef := intros x d D; apply defines_sets in D; vm_compute in D; repeat (destruct D as [D|D]; [discriminate D|]); destruct D.
Ltac unstraight := let H := fresh in intros H; exfalso; repeat match goal with H : straight _ |- _ => inversion H; subst; clear H end.
Ltac later_free := intros _ z F; apply free_vars_free in F; vm_compute in F; repeat (destruct F as [<-|F]; [split; [discriminate|]; intros A; apply assigned_sets in A; vm_compute in A; repeat (destruct A as [A|A]; [discriminate A|]); destruct A|]); destruct F.
Example C51_stack_ex : ordinary P stacky 12 /\ no_private_rec stacky /\ (forall x d, defines x d stacky -> closed d) /\ forward stacky /\
  (forall nm, exists e', analyze_globals nm 100 stacky 12 = Some (e',
    [(v (-2), ELam [v 3] (EIf (V 3) (EApp (V (-2)) [EApp (ELam [v 1] (Dec (V 1))) [V 3]]) (num 1)));
     (v (-3), ELam [v 4] (EIf (V 4) (EApp (ELam [v 1] (Dec (V 1))) [EApp (ELam [v 3] (EPrim EObAct (stack_prim nm (v (-2)) 1) [V 3])) [V 4]]) (num 1)))], 15)).
Proof.
  split; [ordinary|]. split; [norec|]. split; [defs|]. split; [|intros nm; eexists; reflexivity].
  apply fw_def; [nodef | later_free|]. apply fw_def; [nodef | unstraight|]. apply fw_def; [nodef | unstraight|]. apply fw_body. nodef.
Qed.
Print Assumptions C51_stack.
