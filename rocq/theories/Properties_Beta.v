(** C33: beta substitution, /repo/4.sf:738-905. *)
From Coq Require Import ZArith String List Bool Lia.
From Verif Require Import Base Model_Lit Model_Core Model_Beta Spec_Sem Spec_Free Spec_Scope Spec_Lift Spec_Beta Proofs_Sim Proofs_Core Proofs_Free Proofs_Run Proofs_Det Proofs_BetaMore.
Import ListNotations.
Open Scope Z_scope.

(** After a careful run (Spec_Beta: nothing is captured, only quiet operands are dropped, an operand with effects moves only past
    operands that touch nothing) the program does what it did before. *)
Theorem C33_meaning_preserved P tot hc hl fuel e e' : (forall p, tot p = true -> forall w, run (P p) [] w <> None) -> fine P e -> closed e ->
  careful tot hc hl fuel e [] = true -> beta_substitute hc hl fuel e = Some e' -> refines P MDirect MDirect e e'.
Proof. exact (beta_meaning P tot hc hl fuel e e'). Qed.
Local Definition v (z : Z) : id := mkid z XNone.
Local Definition gk : id := mkid (-5) XTrue.
Local Definition one : prim := codes "fixnum(1)".
Local Definition two : prim := codes "fixnum(2)".
Local Definition plus : prim := codes "fixnum(fxadd(fixnum_from_$arg, fixnum_from_$arg))".
Local Definition inc : prim := codes "fixnum(fixnum_from_$arg + 1)".
Local Definition cons_ : prim := codes "obj(cons($arg, $arg))".
Local Definition read : prim := codes "obj(read())".
Local Definition write : prim := codes "void(write($arg))".
Local Definition fail : prim := codes "fixnum(fail())".
Local Definition P (p : prim) : script :=
  if zlist_dec p one then SRet (AConst (CInt 1))
  else if zlist_dec p two then SRet (AConst (CInt 2))
  else if zlist_dec p plus then STest (AReg 0) (fun s => STest (AReg 1) (fun t => match s, t with ShC (CInt a), ShC (CInt b) => SRet (AConst (CInt (a + b))) | _, _ => SFail end))
  else if zlist_dec p inc then STest (AReg 0) (fun s => match s with ShC (CInt a) => SRet (AConst (CInt (a + 1))) | _ => SFail end)
  else if zlist_dec p cons_ then SAlloc [AReg 0; AReg 1] (SRet (AReg 2))
  else if zlist_dec p read then SInput (SRet (AReg 0))
  else if zlist_dec p write then SEmit (AReg 0) (SRet (AConst CVoid))
  else SFail.
Local Definition tab : list (effect * prim) := [(ENo, one); (ENo, two); (ENo, plus); (ENo, inc); (EAl, cons_); (EAny, read); (EAny, write); (ENo, fail)].
Local Lemma tab_ok : Forall (fun d => honours (fst d) (P (snd d))) tab.
Proof.
  repeat constructor.
  - intros s t. cbn [honours snd fst]. destruct s as [[]| |]; try exact Logic.I. destruct t as [[]| |]; exact Logic.I.
  - intros s. cbn [honours snd fst]. destruct s as [[]| |]; exact Logic.I.
Qed.
Local Definition tot (p : prim) : bool := if zlist_dec p one then true else if zlist_dec p two then true else false.
Local Lemma tot_ok p : tot p = true -> forall w, run (P p) [] w <> None.
Proof. unfold tot, P. destruct (zlist_dec p one); [discriminate|]. destruct (zlist_dec p two); discriminate. Qed.
Local Notation "a +' b" := (EPrim ENo plus [a; b]) (at level 50, left associativity).
Local Notation "1'" := (EPrim ENo one []).
Local Notation "2'" := (EPrim ENo two []).
(** (let ((k 1)) (let ((dbl (lambda (x) (fx+ x x)))) (let ((dead (cons k k)))
      (begin (let ((a (read))) (write a)) (dbl (fx+ (dbl k) (read))))))) *)
Local Definition prog : exp :=
  let_exp [v 1] [1']
    (let_exp [v 2] [ELam [v 3] (EVar (v 3) +' EVar (v 3))]
      (let_exp [v 4] [EPrim EAl cons_ [EVar (v 1); EVar (v 1)]]
        (let_exp [v 5] [let_exp [v 6] [EPrim EAny read []] (EPrim EAny write [EVar (v 6)])]
          (EApp (EVar (v 2)) [EApp (EVar (v 2)) [EVar (v 1)] +' EPrim EAny read []])))).
Local Definition after : exp :=
  let_exp [v 5] [EPrim EAny write [EPrim EAny read []]] (let_exp [v 3] [(1' +' 1') +' EPrim EAny read []] (EVar (v 3) +' EVar (v 3))).
Ltac closed := intros x F; apply free_vars_free in F; vm_compute in F; repeat (destruct F as [<-|F]; [reflexivity|]); destruct F.
Ltac dist := split; [repeat constructor; cbn; intuition discriminate | intros x; cbn; intuition (subst; cbn; lia)].
Ltac fine := apply (fine_by P tab 20 _ tab_ok); vm_compute; reflexivity.
Example C33_meaning_preserved_ex : fine P prog /\ closed prog /\ careful tot false false 50 prog [] = true /\ beta_substitute false false 50 prog = Some after /\
  (forall g, left_outcome P MDirect 300 prog g [CInt 5; CInt 8] = Some (Some (ShC (CInt 20)), [ShC (CInt 5)]) /\
             left_outcome P MDirect 300 after g [CInt 5; CInt 8] = Some (Some (ShC (CInt 20)), [ShC (CInt 5)])).
Proof.
  split; [fine|]. split; [closed|]. split; [vm_compute; reflexivity|]. split; [vm_compute; reflexivity|]. intros g. split; vm_compute; reflexivity.
Qed.
Print Assumptions C33_meaning_preserved.

(** Every run, careful or not, gives a program whose procedures bind distinct local identifiers and without new free variables. *)
Theorem C33_scope hc hl fuel e e' : well_bound e -> beta_substitute hc hl fuel e = Some e' -> well_bound e' /\ forall x, free_in x e' -> free_in x e.
Proof. exact (beta_scope hc hl fuel e e'). Qed.
Example C33_scope_ex : well_bound prog /\ beta_substitute true true 50 prog =
  Some (let_exp [v 2] [ELam [v 3] (EVar (v 3) +' EVar (v 3))]
         (let_exp [v 5] [let_exp [v 6] [EPrim EAny read []] (EPrim EAny write [EVar (v 6)])] (EApp (EVar (v 2)) [EApp (EVar (v 2)) [1'] +' EPrim EAny read []]))).
Proof. split; [apply (well_bound_by 20); vm_compute; reflexivity | vm_compute; reflexivity]. Qed.
Print Assumptions C33_scope.

(** The result of a careful run again assigns global variables only, and its primitive operations keep to their declared effects. *)
Theorem C33_fine P tot hc hl fuel e e' : (forall p, tot p = true -> forall w, run (P p) [] w <> None) -> fine P e -> closed e ->
  careful tot hc hl fuel e [] = true -> beta_substitute hc hl fuel e = Some e' -> fine P e'.
Proof. exact (beta_fine P tot hc hl fuel e e'). Qed.
Example C33_fine_ex : fine P prog /\ fine P after /\ ~ fine P (EPrim ENo write [1']).
Proof.
  split; [fine|]. split; [fine|]. intros [H _]. unfold node_ok in H. destruct (zlist_dec write the_halt_prim) as [E|_]; [discriminate E|]. vm_compute in H. tauto.
Qed.
Print Assumptions C33_fine.

(** A variable can be captured: every variable of the program is bound once, but a procedure that is copied to two places is
    not renamed, and the substitution for the parameter of one copy reaches the parameter of the other.
    (let ((g (lambda (x k) (k x x)))) (g (fx+1 1) (lambda (u v) (fx+ u (g (fx+1 (fx+1 1)) (lambda (s t) (fx+ s t))))))) *)
Local Definition inc' (e : exp) : exp := EPrim ENo inc [e].
Local Definition capt : exp :=
  let_exp [v 1] [ELam [v 2; v 3] (EApp (EVar (v 3)) [EVar (v 2); EVar (v 2)])]
    (EApp (EVar (v 1)) [inc' 1'; ELam [v 4; v 5] (EVar (v 4) +' EApp (EVar (v 1)) [inc' (inc' 1'); ELam [v 6; v 7] (EVar (v 6) +' EVar (v 7))])]).
Theorem C33_capture_refuted : exists P hc hl fuel e n e', fine P e /\ closed e /\ distinct n e /\ 0 <= n /\ beta_substitute hc hl fuel e = Some e' /\ ~ refines P MDirect MDirect e e'.
Proof.
  exists P, false, false, 100%nat, capt, 10. eexists. split; [fine|]. split; [closed|]. split; [dist|]. split; [lia|]. split; [vm_compute; reflexivity|].
  apply (not_refines_pure P [one; plus; inc]) with (n := 50%nat) (n' := 100%nat) (v := VC (CInt 8)) (g := fun _ => CVoid) (i := []) (s := ShC (CInt 6)) (o := []); [|vm_compute; reflexivity | vm_compute; reflexivity | discriminate].
  repeat (constructor; [split; [discriminate|]|]); try constructor; intros s; cbn [honours].
  - intros t. destruct s as [[]| |]; try exact Logic.I. destruct t as [[]| |]; exact Logic.I.
  - destruct s as [[]| |]; exact Logic.I.
Qed.
Print Assumptions C33_capture_refuted.

(** A control transfer whose value is not used is dropped: (letcc k (begin (withcc k 1) 2)). *)
Theorem C33_dropped_jump_refuted : exists P hc hl fuel e n e', fine P e /\ closed e /\ distinct n e /\ 0 <= n /\ beta_substitute hc hl fuel e = Some e' /\ ~ refines P MDirect MDirect e e'.
Proof.
  exists P, false, false, 100%nat, (ELetcc (v 1) (let_exp [v 2] [EWithcc (EVar (v 1)) 1'] 2')), 10. eexists. split; [fine|]. split; [closed|]. split; [dist|]. split; [lia|]. split; [vm_compute; reflexivity|].
  apply (not_refines P MDirect MDirect 50 100) with (g := fun _ => CVoid) (i := []) (os := [(Some (ShC (CInt 1)), [])]) (s := ShC (CInt 2)) (o := []); [vm_compute; reflexivity | reflexivity | vm_compute; reflexivity|].
  intros [E|[]]. discriminate.
Qed.
Print Assumptions C33_dropped_jump_refuted.

(** An operand that ends the program is moved into a call, beside an operand that fails: (let ((x (halt 1))) (fx+ (fail) x)). *)
Theorem C33_moved_operand_refuted : exists P hc hl fuel e n e', fine P e /\ closed e /\ distinct n e /\ 0 <= n /\ beta_substitute hc hl fuel e = Some e' /\ ~ refines P MDirect MDirect e e'.
Proof.
  exists P, false, false, 100%nat, (let_exp [v 1] [EPrim EAny the_halt_prim [1']] (EPrim ENo fail [] +' EVar (v 1))), 10. eexists. split; [fine|]. split; [closed|]. split; [dist|]. split; [lia|]. split; [vm_compute; reflexivity|].
  apply (not_refines_wrong P MDirect MDirect 50 100) with (g := fun _ => CVoid) (i := []) (os := [(Some (ShC (CInt 1)), [])]) (o := []); [vm_compute; reflexivity | reflexivity | vm_compute; reflexivity].
Qed.
Print Assumptions C33_moved_operand_refuted.
