(** C49: unboxing of values, /repo/5.sf:273-360. *)
From Coq Require Import ZArith String List Bool Lia.
From Verif Require Import Base Model_Lit Model_Core Model_Fold Model_Letrec Model_Unbox Spec_Sem Spec_Free Spec_Scope Spec_Lift Spec_Fold Spec_Unbox
  Proofs_CStr Proofs_Sim Proofs_Core Proofs_Free Proofs_Run Proofs_FoldText Proofs_UnboxSem Proofs_UnboxRun Proofs_Unbox Proofs_UnboxUse Proofs_UnboxTyped Proofs_UnboxBy.
Import ListNotations.
Open Scope Z_scope.

(** With typed variables, and the conversions that giving them values needs, the program does what it did before: if primitives
    keep what their texts say of types, parameters that get a type are sure to be used, and tests are of local variables. *)
Theorem C49_meaning_preserved P of fits e n e' n' : unboxing P of fits -> 0 <= n -> distinct n e -> closed e -> untyped e ->
  gentle e -> local_tests e -> plain_tests e -> neat e -> unbox_values e n = Some (e', n') -> refines P MDirect MDirect e (explicit e').
Proof.
  intros U N D Cl Un G LT PT NT E. apply (unbox_sound P of fits U).
  exact (unbox_uv P of fits U e G LT PT NT _ e [] n e' n' E (inv0_start true n e N D Un Cl) (po_here e) (incl_refl _)).
Qed.
Local Definition v (z : Z) : id := mkid z XNone.
Local Definition flo : list Z := codes "flonum".
Local Definition c (z : Z) : id := mkid z (XC flo).
Local Definition is_fl : prim := codes "bool(is_flonum_$arg)".
Local Definition plus : prim := codes "flonum($live, flonum_from_$arg + flonum_from_$arg)".
Local Definition nt : prim := codes "bool(!bool_from_$arg)".
Local Definition one : prim := codes "flonum($live, 1.0)".
Local Definition no : prim := codes "bool(0)".
Local Definition read : prim := codes "obj(read())".
Local Definition write : prim := codes "void(write($arg))".
Local Definition of (t : list Z) (s : shape) : bool :=
  match s with
  | ShC (CFlo _) => if zlist_dec t flo then true else false
  | ShC (CBool _) => if zlist_dec t (codes "bool") then true else false
  | _ => false
  end.
Local Definition fits (t : list Z) (s : shape) : bool := of t s || (if zlist_dec t (codes "bool") then true else false).
Local Definition after_unbox (p : prim) : option (list Z) :=
  if zlist_dec (firstn 6 p) (codes "unbox ") then if forallb (fun x => existsb (Z.eqb x) (codes "abcdefghijklmnopqrstuvwxyzABCDEFGHIJKLMNOPQRSTUVWXYZ0123456789_")) (skipn 6 p) then Some (skipn 6 p) else None else None.
Local Definition P (p : prim) : script :=
  match after_unbox p with
  | Some t => STest (AReg 0) (fun s => if fits t s then SRet (AReg 0) else SFail)
  | None =>
    if zlist_dec p is_fl then STest (AReg 0) (fun s => SRet (AConst (CBool (of flo s))))
    else if zlist_dec p plus then STest (AReg 0) (fun s => STest (AReg 1) (fun t => match s, t with ShC (CFlo a), ShC (CFlo b) => SRet (AConst (CFlo (a + b))) | _, _ => SFail end))
    else if zlist_dec p nt then STest (AReg 0) (fun s => SRet (AConst (CBool match s with ShC (CBool false) => true | _ => false end)))
    else if zlist_dec p one then SRet (AConst (CFlo 1))
    else if zlist_dec p no then SRet (AConst (CBool false))
    else if zlist_dec p read then SInput (SRet (AReg 0))
    else if zlist_dec p write then SEmit (AReg 0) (SRet (AConst CVoid))
    else SFail
  end.
Local Lemma unbox_conv t : name t -> after_unbox (conv t) = Some t.
Proof.
  intros N. unfold after_unbox, conv. change (firstn 6 (codes "unbox " ++ t)) with (codes "unbox "). change (skipn 6 (codes "unbox " ++ t)) with t. destruct (zlist_dec _ _) as [_|Y]; [|contradiction].
  rewrite (proj2 (forallb_forall _ t)); [reflexivity|]. intros x J. apply existsb_exists. exists x. split; [|apply Z.eqb_refl]. unfold name in N. rewrite Forall_forall in N. auto.
Qed.
Local Lemma unbox_inv p t : after_unbox p = Some t -> p = conv t /\ name t.
Proof.
  unfold after_unbox. destruct (zlist_dec (firstn 6 p) (codes "unbox ")) as [E|]; [|discriminate]. destruct (forallb _ _) eqn:F; [|discriminate]. intros [= <-]. split; [unfold conv; rewrite <- E; symmetry; apply firstn_skipn|].
  unfold name. apply Forall_forall. intros x J. rewrite forallb_forall in F. specialize (F x J). apply existsb_exists in F. destruct F as (y & I & Y). apply Z.eqb_eq in Y. now subst.
Qed.
Local Lemma conv_chars t x : name t -> In x (conv t) -> existsb (Z.eqb x) (codes "(${") = true -> False.
Proof.
  intros N J X. unfold conv in J. apply in_app_iff in J. destruct J as [J|J].
  - repeat (destruct J as [<-|J]; [discriminate X|]). destruct J.
  - unfold name in N. rewrite Forall_forall in N. specialize (N x J). repeat (destruct N as [<-|N]; [discriminate X|]). destruct N.
Qed.
Local Lemma typed_paren t p : typed_text t p -> In 40 p.
Proof. intros (_ & b & -> & _). apply in_app_iff. right. now left. Qed.
Local Lemma result_paren t p : result_text t p -> In 40 p.
Proof.
  intros [(s & (a & b & (-> & _) & _) & T)|(_ & T)]; [|eapply typed_paren; eauto]. apply typed_paren in T. rewrite !in_app_iff. auto.
Qed.
Local Lemma check_paren t p : check_text t p -> In 40 p.
Proof. intros (_ & a & -> & _). rewrite !in_app_iff. right. left. cbn. tauto. Qed.
Local Lemma assert_paren t p : assert_text t p -> In 40 p.
Proof. intros (_ & a & -> & _). rewrite !in_app_iff. right. left. cbn. tauto. Qed.
Local Lemma argref_dollar p i t : c_argref_ctype p i = Some t -> In 36 p.
Proof.
  unfold c_argref_ctype. cbn [argref_loop]. destruct (search_ok p (codes "$")) as [(a & b & (-> & _) & _)|(_ & _ & -> & _)]; [|discriminate]. intros _. apply in_app_iff. right. now left.
Qed.
Ltac texts R := repeat match type of R with context [if zlist_dec ?a ?b then _ else _] => destruct (zlist_dec a b) as [->|_] end; try discriminate R.
Local Lemma P_types : c_types P of.
Proof.
  constructor.
  - intros p t vs w u w' T D R. unfold P in R. destruct (after_unbox p) as [t1|] eqn:A.
    { apply unbox_inv in A. destruct A as (-> & N). apply result_paren in T. exfalso. exact (conv_chars t1 40 N T eq_refl). }
    clear A. apply result_ok in T. apply dull_ok in D. texts R; vm_compute in T; injection T as <-; try discriminate D.
    + destruct vs as [|x ?]; [discriminate R|]. cbn in R. injection R as <- <-. reflexivity.
    + destruct vs as [|x [|y ?]]; try discriminate R; cbn [run atom_val nth_error] in R; destruct (shape_of x) as [[]| |]; try discriminate R. destruct (shape_of y) as [[]| |]; try discriminate R. injection R as <- <-. reflexivity.
    + destruct vs as [|x ?]; [discriminate R|]. cbn in R. injection R as <- <-. reflexivity.
    + cbn in R. injection R as <- <-. reflexivity.
    + cbn in R. injection R as <- <-. reflexivity.
  - intros p t u w x w' T R. unfold P in R. destruct (after_unbox p) as [t1|] eqn:A.
    { apply unbox_inv in A. destruct A as (-> & N). apply check_paren in T. exfalso. exact (conv_chars t1 40 N T eq_refl). }
    clear A. apply check_ok in T. texts R; vm_compute in T; try discriminate T; injection T as <-; cbn [run atom_val nth_error] in R; injection R as <- <-; cbn [is_true].
    change [102; 108; 111; 110; 117; 109] with flo. destruct (of flo (shape_of u)); reflexivity.
  - intros p t u w x w' T R. unfold P in R. destruct (after_unbox p) as [t1|] eqn:A.
    { apply unbox_inv in A. destruct A as (-> & N). apply assert_paren in T. exfalso. exact (conv_chars t1 40 N T eq_refl). }
    clear A. apply assert_ok in T. texts R; vm_compute in T; discriminate T.
  - intros t u s _ _. destruct s as [[]| |]; cbn [of]; try discriminate; destruct (zlist_dec t _) as [->|]; try discriminate; destruct (zlist_dec u _) as [->|]; try discriminate; reflexivity.
Qed.
Local Lemma P_unboxing : unboxing P of fits.
Proof.
  constructor.
  - exact P_types.
  - intros t s _ O. unfold fits. now rewrite O.
  - intros p i t vs w x w' u A Ub R N. unfold P in R. destruct (after_unbox p) as [t1|] eqn:C.
    { apply unbox_inv in C. destruct C as (-> & Nm). apply argref_dollar in A. exfalso. exact (conv_chars t1 36 Nm A eq_refl). }
    clear C. texts R.
    + destruct i as [|[|i]]; vm_compute in A; discriminate A.
    + destruct vs as [|x1 [|x2 vs]]; try discriminate R; cbn [run atom_val nth_error] in R; destruct (shape_of x1) as [[]| |] eqn:S1; try discriminate R; destruct (shape_of x2) as [[]| |] eqn:S2; try discriminate R.
      destruct i as [|[|i]]; [| |vm_compute in A; discriminate A]; vm_compute in A; injection A as <-; cbn in N; injection N as <-; [rewrite S1 | rewrite S2]; reflexivity.
    + destruct i as [|i]; [|vm_compute in A; discriminate A]. vm_compute in A. injection A as <-. unfold fits. apply orb_true_iff. now right.
    + vm_compute in A. discriminate A.
    + vm_compute in A. discriminate A.
    + vm_compute in A. discriminate A.
    + destruct i; vm_compute in A; discriminate A.
  - intros t x w N. unfold P. rewrite unbox_conv by assumption. cbn [run atom_val nth_error]. destruct (fits t (shape_of x)); reflexivity.
  - intros t p u w x w' C R. unfold P in R. destruct (after_unbox p) as [t1|] eqn:A.
    { apply unbox_inv in A. destruct A as (-> & N). apply check_paren in C. exfalso. exact (conv_chars t1 40 N C eq_refl). }
    clear A. apply check_ok in C. texts R; vm_compute in C; try discriminate C; injection C as <-; cbn [run atom_val nth_error] in R; now injection R as _ <-.
Qed.
Local Notation "a +' b" := (EPrim EAl plus [a; b]) (at level 50, left associativity).
Local Notation V z := (EVar (v z)).
Local Notation C z := (EVar (c z)).
Local Notation "1'" := (EPrim EAl one []).
Local Notation no' := (EPrim ENo no []).
Local Notation Rd := (EPrim EAny read []).
(** (let ((dbl (lambda (x) (fl+ x x)))) (let ((r (read))) (if (flonum? r) (let ((s (fl+ r r))) (begin (write (fl+ s s)) (dbl (fl+ s r)))) #f))) *)
Local Definition prog : exp :=
  let_exp [v 1] [ELam [v 2] (V 2 +' V 2)]
    (let_exp [v 3] [Rd]
      (EIf (EPrim ENo is_fl [V 3])
        (let_exp [v 4] [V 3 +' V 3] (let_exp [v 5] [EPrim EAny write [V 4 +' V 4]] (EApp (V 1) [V 4 +' V 3])))
        no')).
Local Definition after : exp :=
  let_exp [v 1] [ELam [v 2] (let_exp [c 6] [V 2] (C 6 +' C 6))]
    (let_exp [v 3] [Rd]
      (EIf (EPrim ENo is_fl [V 3])
        (let_exp [c 7] [V 3] (let_exp [c 8] [C 7 +' C 7] (let_exp [v 5] [EPrim EAny write [C 8 +' C 8]] (EApp (V 1) [C 8 +' C 7]))))
        no')).
Ltac closed := intros x F; apply free_vars_free in F; vm_compute in F; repeat (destruct F as [<-|F]; [reflexivity|]); destruct F.
Ltac dist := split; [repeat constructor; cbn; intuition discriminate | intros x; cbn; intuition (subst; cbn; lia)].
Local Lemma prog_gentle : gentle prog.
Proof.
  apply gentle_by. intros xs b x t J I W _. cbn in J. destruct J as [[= <- <-]|[]]. destruct I as [<-|[]]. vm_compute in W. injection W as <-.
  apply su_use with 0%nat; [discriminate | reflexivity | vm_compute; reflexivity|]. intros e [<-|[<-|[]]]; exact I.
Qed.
Example C49_meaning_preserved_ex : unboxing P of fits /\ distinct 5 prog /\ closed prog /\ untyped prog /\ gentle prog /\ local_tests prog /\ plain_tests prog /\ neat prog /\
  unbox_values prog 5 = Some (after, 8) /\
  (forall g, left_outcome P MDirect 300 prog g [CFlo 5] = Some (Some (ShC (CFlo 30)), [ShC (CFlo 20)]) /\
             left_outcome P MDirect 300 (explicit after) g [CFlo 5] = Some (Some (ShC (CFlo 30)), [ShC (CFlo 20)]) /\
             left_outcome P MDirect 300 (explicit after) g [CVoid] = Some (Some (ShC (CBool false)), [])).
Proof.
  split; [exact P_unboxing|]. split; [dist|]. split; [closed|]. split; [apply untyped_by; reflexivity|]. split; [exact prog_gentle|]. split; [apply local_by; vm_compute; reflexivity|].
  split; [apply plain_by; vm_compute; reflexivity|]. split; [apply neat_by; vm_compute; reflexivity|]. split; [vm_compute; reflexivity|]. intros g. split; [|split]; vm_compute; reflexivity.
Qed.
Print Assumptions C49_meaning_preserved.

(** A parameter is converted when the procedure is called, even if it is then not used:
    (let ((f (lambda (x y) (if y (fl+ x x) 1.0)))) (f #f #f)). *)
Local Definition hasty : exp := let_exp [v 1] [ELam [v 2; v 3] (EIf (V 3) (V 2 +' V 2) 1')] (EApp (V 1) [no'; no']).
Theorem C49_hasty_refuted : exists P of fits e n e' n', unboxing P of fits /\ 0 <= n /\ distinct n e /\ closed e /\ untyped e /\
  local_tests e /\ plain_tests e /\ neat e /\ unbox_values e n = Some (e', n') /\ ~ refines P MDirect MDirect e (explicit e').
Proof.
  exists P, of, fits, hasty, 3. eexists _, _. split; [exact P_unboxing|]. split; [lia|]. split; [dist|]. split; [closed|]. split; [apply untyped_by; reflexivity|]. split; [apply local_by; vm_compute; reflexivity|].
  split; [apply plain_by; vm_compute; reflexivity|]. split; [apply neat_by; vm_compute; reflexivity|]. split; [vm_compute; reflexivity|].
  apply (not_refines_wrong P MDirect MDirect 50 100) with (g := fun _ => CVoid) (i := []) (os := [(Some (ShC (CFlo 1)), [])]) (o := []); vm_compute; reflexivity.
Qed.
Print Assumptions C49_hasty_refuted.

(** After a test of a global variable its old value is used, although a call has assigned a new one:
    (let ((f (lambda () (set! g (read))))) (if (flonum? g) (begin (f) (fl+ g g)) 1.0)). *)
Local Definition stale : exp :=
  let_exp [v 1] [ELam [] (ESet (v (-1)) Rd)] (EIf (EPrim ENo is_fl [V (-1)]) (let_exp [v 2] [EApp (V 1) []] (V (-1) +' V (-1))) 1').
Theorem C49_stale_refuted : exists P of fits e n e' n', unboxing P of fits /\ 0 <= n /\ distinct n e /\ closed e /\ untyped e /\
  gentle e /\ plain_tests e /\ neat e /\ unbox_values e n = Some (e', n') /\ ~ refines P MDirect MDirect e (explicit e').
Proof.
  exists P, of, fits, stale, 2. eexists _, _. split; [exact P_unboxing|]. split; [lia|]. split; [dist|]. split; [closed|]. split; [apply untyped_by; reflexivity|].
  split; [apply gentle_by; intros xs b x t J I; cbn in J; destruct J as [[= <- <-]|[]]; destruct I|].
  split; [apply plain_by; vm_compute; reflexivity|]. split; [apply neat_by; vm_compute; reflexivity|]. split; [vm_compute; reflexivity|].
  apply (not_refines P MDirect MDirect 50 100) with (g := fun _ => CFlo 5) (i := [CFlo 7]) (os := [(Some (ShC (CFlo 14)), [])]) (s := ShC (CFlo 10)) (o := []); [vm_compute; reflexivity | reflexivity | vm_compute; reflexivity|].
  intros [E|[]]. discriminate.
Qed.
Print Assumptions C49_stale_refuted.

(** Every variable of the new program that has a C type is used at this type only: no typed variable is ever stored, passed or
    assigned as an object. *)
Theorem C49_uses e n e' n' : 0 <= n -> distinct n e -> untyped e -> closed e -> plain_tests e -> unbox_values e n = Some (e', n') -> typed_uses e'.
Proof. exact (unbox_uses_typed e n e' n'). Qed.
Example C49_uses_ex : unbox_values prog 5 = Some (after, 8) /\ typed_uses after /\ ~ typed_uses (let_exp [c 1] [1'] (EApp (V (-1)) [C 1 +' C 1; C 1])).
Proof.
  split; [vm_compute; reflexivity|]. split.
  - eapply (C49_uses prog 5); [lia | dist | apply untyped_by; reflexivity | closed | apply plain_by; vm_compute; reflexivity | vm_compute; reflexivity].
  - intros H. assert (Z := H [c 1] (EApp (V (-1)) [C 1 +' C 1; C 1]) (ELam [c 1] (EApp (V (-1)) [C 1 +' C 1; C 1])) (c 1) flo None). discriminate Z; [econstructor; [now left | constructor] | now left | now left | reflexivity|].
    apply us_part with [] (C 1); [right; right; now left | intros [] | intros [] | constructor].
Qed.
Print Assumptions C49_uses.

(** Every variable is still bound once, and the new program has no new free variables. *)
Theorem C49_scope e n e' n' : 0 <= n -> distinct n e -> untyped e -> closed e -> plain_tests e -> unbox_values e n = Some (e', n') -> distinct n' e' /\ closed e'.
Proof. exact (unbox_scope e n e' n'). Qed.
Example C49_scope_ex : distinct 8 after /\ closed after /\ ~ distinct 5 after.
Proof. split; [dist|]. split; [closed|]. intros (_ & H). assert (Z : 0 <= ts (c 6) <= 5) by (apply H; cbn; tauto). cbn in Z. lia. Qed.
Print Assumptions C49_scope.

(** The pass has a clause for every program without letcc, withcc and assignments to local variables, and for no other. *)
Theorem C49_succeeds e n : (exists e' n', unbox_values e n = Some (e', n')) <-> late e.
Proof. exact (unbox_succeeds e n). Qed.
Example C49_succeeds_ex : late prog /\ ~ late (ELam [v 1] (ESet (v 1) 1')) /\ unbox_values (ELam [v 1] (ESet (v 1) 1')) 1 = None.
Proof.
  split; [apply late_by; vm_compute; reflexivity|]. split; [|vm_compute; reflexivity]. intros H. assert (Z := H (ESet (v 1) 1')). cbn in Z. discriminate Z. econstructor; [now left | constructor].
Qed.
Print Assumptions C49_succeeds.

(** The type that is found for a variable (3.sf:838-846) is the one it is used at everywhere. *)
Theorem C49_found x e t : (var_unboxed_ctype_in_exp x e = Some t <-> only_at t x e /\ free_in x e) /\
  (var_unboxed_ctype_in_exp x e = Some t /\ (1 < var_reference_count x e)%nat <-> worth t x e).
Proof. split; [apply found_type | symmetry; apply found_worth]. Qed.
Example C49_found_ex : only_at flo (v 1) (V 1 +' V 1) /\ worth flo (v 1) (V 1 +' V 1) /\ ~ only_at flo (v 1) (EPrim EAny write [V 1]) /\ ~ only_at flo (v 1) (EIf (V 1) (V 1 +' V 1) 1').
Proof.
  split; [apply (proj1 (C49_found _ _ _)); vm_compute; reflexivity|]. split; [apply (proj2 (C49_found _ _ _)); split; [vm_compute; reflexivity | vm_compute; lia]|]. split; intros (_ & H).
  - assert (Z := H None). discriminate Z. apply (us_operand (v 1) EAny write [V 1] 0 eq_refl).
  - assert (Z := H None). discriminate Z. apply us_part with [] (V 1); [now left | intros [] | intros [] | constructor].
Qed.
Print Assumptions C49_found.
