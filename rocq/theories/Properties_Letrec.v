(** C30: letrec and letrec*, /repo/4.sf:18-290. *)
From Coq Require Import ZArith String List Bool Lia.
From Verif Require Import Base Model_Lit Model_Core Model_Letrec Spec_Sem Spec_Free Spec_Scope Spec_Lift Spec_Letrec Proofs_Sim Proofs_Core Proofs_Free Proofs_Run.
From Verif Require Import Spec_Beta Proofs_Letrec Proofs_LetrecSim Proofs_LetrecFix Proofs_LetrecAll Proofs_LetrecScope Proofs_LetrecTotal.
Import ListNotations.
Open Scope Z_scope.

(** The pass keeps the meaning of a settled program (Spec_Letrec: in a letrec* an initial value that will be computed early is
    a procedure, a constant or a variable that never changes; every other value stays in its place; all values of a letrec
    can be computed at any time).  Before the pass it is an error to use a variable that has no value yet.
    Missing: letrec* with other simple values, letrec with complex values.  The statement for all programs is false, see below. *)
Theorem C30_meaning_preserved_partial P asg e n e' n' : makes P the_void_prim CVoid -> closed e -> distinct n e -> settled P asg e ->
  fix_letrecs e n = Some (e', n') -> refines P MStrict MCells e e'.
Proof.
  intros V C D S E. apply FX_refines; [exact V|]. destruct (fixl_ok P asg _ e n S D n e' n' (Z.le_refl n) E) as (_ & _ & _ & F). apply F.
  - intros x Fx G. rewrite (C x Fx) in G. discriminate.
  - split; intros; reflexivity.
Qed.
Local Definition v (z : Z) : id := mkid z XNone.
Local Definition read : prim := codes "obj(read())".
Local Definition write : prim := codes "void(write($arg))".
Local Definition dec : prim := codes "fixnum($arg - 1)".
Local Definition num (z : Z) : exp := EPrim ENo (codes "n" ++ [z]) [].
Local Definition P (p : prim) : script :=
  if zlist_dec p the_void_prim then SRet (AConst CVoid)
  else if zlist_dec p read then SInput (SRet (AReg 0))
  else if zlist_dec p write then SEmit (AReg 0) (SRet (AConst CVoid))
  else if zlist_dec p dec then STest (AReg 0) (fun s => match s with ShC (CInt z) => SRet (AConst (if z =? 0 then CBool false else CInt (z - 1))) | _ => SFail end)
  else match p with [_; z] => SRet (AConst (CInt z)) | _ => SFail end.
Local Definition begin (d : Z) (a b : exp) : exp := let_exp [v d] [a] b.
Local Definition Rd : exp := EPrim EAny read [].
Local Definition Wr (e : exp) : exp := EPrim EAny write [e].
Local Definition V (z : Z) : exp := EVar (v z).
Local Definition hop (n other : Z) (last : exp) : exp :=
  let t := n + 10 in ELam [v n] (let_exp [v t] [EPrim ENo dec [V n]] (EIf (V t) (EApp (V other) [V t]) last)).
(** (letrec* ((even? (lambda (n) ... (odd? ...) 100)) (odd? (lambda (n) ... (even? ...) 200)) (k 7) (unused (read)) (x (begin (write k) (read))))
      (begin (set! x (dec x)) (even? x))) *)
Local Definition prog : exp :=
  let_exp [v 1; v 2; v 3; v 4; v 5] (map (fun _ => void_exp) [v 1; v 2; v 3; v 4; v 5])
    (begin 30 (ESet (v 1) (hop 6 2 (num 100))) (begin 31 (ESet (v 2) (hop 7 1 (num 200))) (begin 32 (ESet (v 3) (num 7))
      (begin 33 (ESet (v 4) Rd) (begin 34 (ESet (v 5) (begin 35 (Wr (V 3)) Rd))
        (begin 36 (ESet (v 5) (EPrim ENo dec [V 5])) (EApp (V 1) [V 5]))))))).
Local Definition after : exp :=
  let_exp [v 3; v 5] [num 7; void_exp]
    (EFix [v 1; v 2] [([v 6], let_exp [v 16] [EPrim ENo dec [V 6]] (EIf (V 16) (EApp (V 2) [V 16]) (num 100)));
                      ([v 7], let_exp [v 17] [EPrim ENo dec [V 7]] (EIf (V 17) (EApp (V 1) [V 17]) (num 200)))]
      (begin 38 Rd (begin 37 (ESet (v 5) (begin 35 (Wr (V 3)) Rd))
        (begin 36 (ESet (v 5) (EPrim ENo dec [V 5])) (EApp (V 1) [V 5]))))).
Local Definition asg (x : id) : bool := id_eqb x (v 5).
Ltac closed := intros x F; apply free_vars_free in F; vm_compute in F; repeat (destruct F as [<-|F]; [reflexivity|]); destruct F.
Ltac dist := split; [repeat constructor; cbn; intuition discriminate | intros x; cbn; intuition (subst; cbn; lia)].
Ltac unfree := let F := fresh in intros F; apply free_vars_free in F; vm_compute in F; repeat (destruct F as [F|F]; [discriminate F|]); destruct F.
Ltac unassigned := let F := fresh in intros F; apply assigned_assigned in F; vm_compute in F; discriminate F.
Ltac const p c := split; [let E := fresh in intros E; discriminate E | intros w; reflexivity].
Local Lemma num_makes z : makes P (codes "n" ++ [z]) (CInt z).
Proof. split; [discriminate|]. intros w. unfold P. repeat match goal with |- context [if zlist_dec ?a ?b then _ else _] => destruct (zlist_dec a b) as [E|_]; [discriminate E|] end. reflexivity. Qed.
Local Lemma void_makes : makes P the_void_prim CVoid.
Proof. split; [discriminate|]. reflexivity. Qed.
(** operands that are not all placeholders *)
Local Lemma plain f l : (exists e, In e l /\ forall ef l, e <> EPrim ef the_void_prim l) -> settled P asg f -> (forall e, In e l -> settled P asg e) -> settled P asg (EApp f l).
Proof. intros (e & I & N) F L. apply se_app; [|assumption|assumption]. intros ids c _ _ H _. destruct (H e I) as (ef & l0 & ->). exact (N ef l0 eq_refl). Qed.
Ltac each_in := let x := fresh in let H := fresh in intros x H; repeat (destruct H as [<-|H]; [|]); [..|destruct H].
Ltac settle :=
  match goal with
  | |- settled _ _ (EVar _) => apply se_var
  | |- settled _ _ (ESet _ _) => apply se_set; settle
  | |- settled _ _ (EIf _ _ _) => apply se_if; settle
  | |- settled _ _ (EPrim _ _ _) => apply se_prim; each_in; settle
  | |- settled _ _ (ELam _ _) => apply se_lam; [each_in; try unassigned; try (intros _; reflexivity) | settle]
  | |- settled _ _ (EApp _ _) => apply plain; [eexists; split; [now left | let E := fresh in intros ? ? E; discriminate E] | settle | each_in; settle]
  end.
Local Lemma prog_settled : settled P asg prog.
Proof.
  unfold prog, let_exp at 1. eapply se_letrecs.
  - unfold begin at 1. unfold let_exp at 1. repeat (apply ch_cons; [|unfree]; unfold begin at 1; unfold let_exp at 1). apply ch_nil.
  - intros i y e Y E.
    assert (C : forall x0 : id, (forall a, In a [hop 6 2 (num 100); hop 7 1 (num 200); num 7; Rd; begin 35 (Wr (V 3)) Rd; begin 36 (ESet (v 5) (EPrim ENo dec [V 5])) (EApp (V 1) [V 5])] -> ~ assigned_in x0 a) ->
      forall a, In a ([hop 6 2 (num 100); hop 7 1 (num 200); num 7; Rd; begin 35 (Wr (V 3)) Rd] ++ [begin 36 (ESet (v 5) (EPrim ENo dec [V 5])) (EApp (V 1) [V 5])]) -> assigned_in x0 a -> asg x0 = true).
    { intros x0 H a I F. destruct (H a I F). }
    destruct i as [|[|[|[|[|i]]]]]; [| | | | |destruct i; discriminate Y]; injection Y as <-; injection E as <-; (split; [first [intros; reflexivity | apply C; each_in; unassigned]|]).
    + left. apply sy_lam.
    + left. apply sy_lam.
    + left. apply sy_const with (c := CInt 7); [reflexivity | apply num_makes].
    + right. left. each_in; unfree.
    + right. right. left. eexists. split; [right; right; right; right; right; now left|]. apply assigned_assigned. vm_compute. reflexivity.
  - each_in; unfold hop, num, Rd, begin, Wr, V, let_exp; settle.
  - unfold begin, let_exp, V. settle.
Qed.
Example C30_meaning_preserved_ex : makes P the_void_prim CVoid /\ closed prog /\ distinct 36 prog /\ settled P asg prog /\ fix_letrecs prog 36 = Some (after, 38) /\
  (forall g, left_outcome P MStrict 300 prog g [CInt 9; CInt 4] = Some (Some (ShC (CInt 200)), [ShC (CInt 7)]) /\
             left_outcome P MCells 300 after g [CInt 9; CInt 4] = Some (Some (ShC (CInt 200)), [ShC (CInt 7)])).
Proof.
  split; [apply void_makes|]. split; [closed|]. split; [dist|]. split; [exact prog_settled|]. split; [vm_compute; reflexivity|]. intros g. split; vm_compute; reflexivity.
Qed.
Print Assumptions C30_meaning_preserved_partial.

(** and a letrec: (letrec ((f (lambda (n) ... (g ...) 100)) (g (lambda (n) ... (f ...) 200)) (k 7) (unused 8)) (f (begin (write k) (read)))) *)
Local Definition prog2 : exp :=
  let_exp [v 1; v 2; v 3; v 4] (map (fun _ => void_exp) [v 1; v 2; v 3; v 4])
    (begin 30 (let_exp [v 21; v 22; v 23; v 24] [hop 6 2 (num 100); hop 7 1 (num 200); num 7; num 8]
                (begin 31 (ESet (v 1) (V 21)) (begin 32 (ESet (v 2) (V 22)) (begin 33 (ESet (v 3) (V 23)) (begin 34 (ESet (v 4) (V 24)) void_exp)))))
      (EApp (V 1) [begin 35 (Wr (V 3)) Rd])).
Local Definition after2 : exp :=
  let_exp [v 3] [num 7]
    (EFix [v 1; v 2] [([v 6], let_exp [v 16] [EPrim ENo dec [V 6]] (EIf (V 16) (EApp (V 2) [V 16]) (num 100)));
                      ([v 7], let_exp [v 17] [EPrim ENo dec [V 7]] (EIf (V 17) (EApp (V 1) [V 17]) (num 200)))]
      (begin 36 (num 8) (EApp (V 1) [begin 35 (Wr (V 3)) Rd]))).
Local Definition none (x : id) : bool := false.
Local Lemma plain2 f l : (exists e, In e l /\ forall ef l, e <> EPrim ef the_void_prim l) -> settled P none f -> (forall e, In e l -> settled P none e) -> settled P none (EApp f l).
Proof. intros (e & I & N) F L. apply se_app; [|assumption|assumption]. intros ids c _ _ H _. destruct (H e I) as (ef & l0 & ->). exact (N ef l0 eq_refl). Qed.
Ltac settle2 :=
  match goal with
  | |- settled _ _ (EVar _) => apply se_var
  | |- settled _ _ (EIf _ _ _) => apply se_if; settle2
  | |- settled _ _ (EPrim _ _ _) => apply se_prim; each_in; settle2
  | |- settled _ _ (ELam _ _) => apply se_lam; [each_in; unassigned | settle2]
  | |- settled _ _ (EApp _ _) => apply plain2; [eexists; split; [now left | let E := fresh in intros ? ? E; discriminate E] | settle2 | each_in; settle2]
  end.
Local Lemma prog2_settled : settled P none prog2.
Proof.
  unfold prog2, let_exp at 1. eapply se_letrec.
  - unfold begin at 1. unfold let_exp at 1 2. apply std_intro; [|unfree]. repeat (apply sto_cons; [|unfree]). apply sto_nil.
  - intros i y e Y E.
    destruct i as [|[|[|[|i]]]]; [| | | |destruct i; discriminate Y]; injection Y as <-; injection E as <-; (split; [|each_in; unassigned]).
    + apply sy_lam.
    + apply sy_lam.
    + apply sy_const with (c := CInt 7); [reflexivity | apply num_makes].
    + apply sy_const with (c := CInt 8); [reflexivity | apply num_makes].
  - reflexivity.
  - each_in; unfold hop, num, Rd, begin, Wr, V, let_exp; settle2.
  - unfold begin, Wr, Rd, let_exp, V. settle2.
Qed.
Example C30_meaning_preserved_ex2 : closed prog2 /\ distinct 35 prog2 /\ settled P none prog2 /\ fix_letrecs prog2 35 = Some (after2, 36) /\
  (forall g, left_outcome P MStrict 300 prog2 g [CInt 4] = Some (Some (ShC (CInt 100)), [ShC (CInt 7)]) /\
             left_outcome P MCells 300 after2 g [CInt 4] = Some (Some (ShC (CInt 100)), [ShC (CInt 7)])).
Proof.
  split; [closed|]. split; [dist|]. split; [exact prog2_settled|]. split; [vm_compute; reflexivity|]. intros g. split; vm_compute; reflexivity.
Qed.

(** The full statement, for all programs, is false.  A value that reads a variable is moved before the assignment to it:
    (let ((x 1)) (letrec* ((a (begin (set! x 2) 3)) (b x)) b)) gives 1. *)
Definition changed (P : prim -> script) (e : exp) : Prop := makes P the_void_prim CVoid /\ closed e /\
  exists n e' n', 0 <= n /\ distinct n e /\ fix_letrecs e n = Some (e', n') /\ ~ refines P MStrict MCells e e'.
Local Definition fail : prim := codes "fixnum(fail())".
Theorem C30_moved_read_refuted : exists P e, changed P e.
Proof.
  exists P, (let_exp [v 1] [num 1] (let_exp [v 2; v 3] [void_exp; void_exp] (begin 4 (ESet (v 2) (begin 5 (ESet (v 1) (num 2)) (num 3))) (begin 6 (ESet (v 3) (V 1)) (V 3))))).
  split; [apply void_makes|]. split; [closed|]. exists 6. eexists _, _. split; [lia|]. split; [dist|]. split; [vm_compute; reflexivity|].
  apply (not_refines P MStrict MCells 100 100) with (g := fun _ => CVoid) (i := []) (os := [(Some (ShC (CInt 2)), [])]) (s := ShC (CInt 1)) (o := []); [vm_compute; reflexivity | reflexivity | vm_compute; reflexivity|].
  intros [E|[]]. discriminate.
Qed.
Print Assumptions C30_moved_read_refuted.
(** A control transfer counts as simple and is moved before an output: (letcc k (letrec* ((a (write 1)) (b (withcc k 2))) b)). *)
Theorem C30_moved_jump_refuted : exists P e, changed P e.
Proof.
  exists P, (ELetcc (v 1) (let_exp [v 2; v 3] [void_exp; void_exp] (begin 4 (ESet (v 2) (Wr (num 1))) (begin 6 (ESet (v 3) (EWithcc (V 1) (num 2))) (V 3))))).
  split; [apply void_makes|]. split; [closed|]. exists 6. eexists _, _. split; [lia|]. split; [dist|]. split; [vm_compute; reflexivity|].
  apply (not_refines P MStrict MCells 100 100) with (g := fun _ => CVoid) (i := []) (os := [(Some (ShC (CInt 2)), [ShC (CInt 1)])]) (s := ShC (CInt 2)) (o := []); [vm_compute; reflexivity | reflexivity | vm_compute; reflexivity|].
  intros [E|[]]. discriminate.
Qed.
Print Assumptions C30_moved_jump_refuted.
(** An operation that fails is moved before the end of the program: (letrec* ((a (halt 1)) (b (fail))) b). *)
Theorem C30_moved_failure_refuted : exists P e, changed P e.
Proof.
  exists P, (let_exp [v 2; v 3] [void_exp; void_exp] (begin 4 (ESet (v 2) (EPrim EAny the_halt_prim [num 1])) (begin 6 (ESet (v 3) (EPrim ENo fail [])) (V 3)))).
  split; [apply void_makes|]. split; [closed|]. exists 6. eexists _, _. split; [lia|]. split; [dist|]. split; [vm_compute; reflexivity|].
  apply (not_refines_wrong P MStrict MCells 100 100) with (g := fun _ => CVoid) (i := []) (os := [(Some (ShC (CInt 1)), [])]) (o := []); [vm_compute; reflexivity | reflexivity | vm_compute; reflexivity].
Qed.
Print Assumptions C30_moved_failure_refuted.
(** The test for a letrec takes car of the empty list: (let ((a (void))) (let () (set! g a) 5) 6).  The program itself
    gives 6. *)
Theorem C30_crash_refuted : exists P e n, makes P the_void_prim CVoid /\ closed e /\ distinct n e /\ letrec_view e = UB /\ (forall fuel m, fixl fuel e m = None) /\
  forall g i, outcomes P MCells 100 e g i = Some [(Some (ShC (CInt 6)), [])].
Proof.
  exists P, (let_exp [v 1] [void_exp] (begin 2 (let_exp [] [] (begin 3 (ESet (mkid (-5) XNone) (V 1)) (num 5))) (num 6))), 3.
  split; [apply void_makes|]. split; [closed|]. split; [dist|]. split; [vm_compute; reflexivity|]. split; [intros [|fuel] m; reflexivity|]. intros g i. vm_compute. reflexivity.
Qed.
Print Assumptions C30_crash_refuted.

(** For every program: the numbers of new identifiers go up, every variable is still bound at one place, no variable of a fix
    is assigned, and no variable becomes free or assigned that was not. *)
Theorem C30_scope e n e' n' : 0 <= n -> distinct n e -> fix_letrecs e n = Some (e', n') ->
  n <= n' /\ distinct n' e' /\ assignable e' /\ (forall x, free_in x e' -> free_in x e) /\ (forall x, assigned_in x e' -> assigned_in x e).
Proof. exact (fix_letrecs_scope e n e' n'). Qed.
(** (letrec ((f (lambda () (f))) (x (read)) (y (f)) (unused (read))) (set! x y) (f)) *)
Local Definition mixed : exp :=
  let_exp [v 1; v 2; v 3; v 4] (map (fun _ => void_exp) [v 1; v 2; v 3; v 4])
    (begin 30 (let_exp [v 11; v 12; v 13; v 14] [ELam [] (EApp (V 1) []); Rd; EApp (V 1) []; Rd]
                (begin 31 (ESet (v 1) (V 11)) (begin 32 (ESet (v 2) (V 12)) (begin 33 (ESet (v 3) (V 13)) (begin 34 (ESet (v 4) (V 14)) void_exp)))))
      (begin 35 (ESet (v 2) (V 3)) (EApp (V 1) []))).
Example C30_scope_ex : 0 <= 40 /\ distinct 40 mixed /\ fix_letrecs mixed 40 =
  Some (let_exp [v 2; v 3] [void_exp; void_exp] (EFix [v 1] [([], EApp (V 1) [])]
          (begin 46 Rd (begin 45 (let_exp [v 41; v 42] [Rd; EApp (V 1) []] (begin 44 (ESet (v 2) (V 41)) (begin 43 (ESet (v 3) (V 42)) void_exp)))
            (begin 35 (ESet (v 2) (V 3)) (EApp (V 1) []))))), 46).
Proof. split; [lia|]. split; [dist | vm_compute; reflexivity]. Qed.
Print Assumptions C30_scope.
(** The pass succeeds unless the program has a fix already or its test for a letrec fails somewhere; there it always fails. *)
Theorem C30_converts e n : every (fun a => (forall xs ls b, a <> EFix xs ls b) /\ ~ overrun a) e -> exists e' n', fix_letrecs e n = Some (e', n').
Proof. intros H. destruct (fixl_works _ e (le_n _) H n) as ((e' & n') & E). eauto. Qed.
Ltac everywhere := constructor; [split; [intros ? ? ? E; discriminate E | intros E; apply letrec_view_UB in E; vm_compute in E; discriminate E] |
  let ys := fresh in let a := fresh in let I := fresh in intros ys a I; cbn in I; repeat (destruct I as [I|I]; [injection I as <- <-; everywhere|]); destruct I].
Example C30_converts_ex : every (fun a => (forall xs ls b, a <> EFix xs ls b) /\ ~ overrun a) mixed.
Proof. everywhere. Qed.
Print Assumptions C30_converts.
Theorem C30_overrun e : overrun e -> letrec_view e = UB /\ forall n, fix_letrecs e n = None.
Proof. intros O. split; [now apply letrec_view_UB | intros n; now apply overrun_fails]. Qed.
(** (let ((x (void))) (let ((t (read))) (set! g t) (set! h t)) 6) *)
Example C30_overrun_ex : overrun (let_exp [v 1] [void_exp] (begin 2 (let_exp [v 3] [Rd] (begin 4 (ESet (mkid (-5) XNone) (V 3)) (begin 5 (ESet (mkid (-6) XNone) (V 3)) void_exp))) (num 6))).
Proof.
  constructor; [reflexivity | intros a [<-|[]]; exists ENo, []; reflexivity | reflexivity | unfree|].
  constructor; [cbn; intuition discriminate | unfree|]. constructor. unfree.
Qed.
Print Assumptions C30_overrun.
