(** C34: constant folding, /repo/4.sf:656-731. *)
From Coq Require Import ZArith String List Bool Lia.
From Verif Require Import Base Model_Lit Model_Core Model_Fold Spec_Sem Spec_Free Spec_Scope Spec_Fold Proofs_Sim Proofs_Core Proofs_Free Proofs_Run
  Proofs_FoldText Proofs_FoldWf Proofs_Fold Proofs_FoldMore.
Import ListNotations.
Open Scope Z_scope.

(** The folded program does what the program does, if primitives keep what their texts say of types, and if assertions are
    made of local variables. *)
Theorem C34_meaning_preserved P of fuel e n e' n' : c_types P of -> 0 <= n -> foldable n e ->
  constant_fold fuel e n = Some (e', n') -> refines P MDirect MDirect e e'.
Proof.
  intros CT L F E. apply (chain_refines P (known of [])); [intros x t u A; discriminate A|].
  apply (fold_chain P of CT fuel e [] n e' n' [] E (foldable_wf n e F) L); [intros x [] | intros x t A; discriminate A].
Qed.
Local Definition v (z : Z) : id := mkid z XNone.
Local Definition is_fx : prim := codes "bool(is_fixnum_$arg)".
Local Definition is_bl : prim := codes "bool(is_bool_$arg)".
Local Definition as_fx : prim := codes "void(assert(is_fixnum_$arg))".
Local Definition one : prim := codes "fixnum(1)".
Local Definition two : prim := codes "fixnum(2)".
Local Definition no : prim := codes "bool(0)".
Local Definition read : prim := codes "obj(read())".
Local Definition write : prim := codes "void(write($arg))".
Local Definition of (t : list Z) (s : shape) : bool :=
  match s with
  | ShC (CInt _) => if zlist_dec t (codes "fixnum") then true else false
  | ShC (CBool _) => if zlist_dec t (codes "bool") then true else false
  | _ => false
  end.
Local Definition P (p : prim) : script :=
  if zlist_dec p is_fx then STest (AReg 0) (fun s => SRet (AConst (CBool (of (codes "fixnum") s))))
  else if zlist_dec p is_bl then STest (AReg 0) (fun s => SRet (AConst (CBool (of (codes "bool") s))))
  else if zlist_dec p as_fx then STest (AReg 0) (fun s => if of (codes "fixnum") s then SRet (AConst CVoid) else SFail)
  else if zlist_dec p one then SRet (AConst (CInt 1))
  else if zlist_dec p two then SRet (AConst (CInt 2))
  else if zlist_dec p no then SRet (AConst (CBool false))
  else if zlist_dec p read then SInput (SRet (AReg 0))
  else if zlist_dec p write then SEmit (AReg 0) (SRet (AConst CVoid))
  else SFail.
Local Lemma P_types : c_types P of.
Proof.
  constructor.
  - intros p t vs w u w' T D R. apply result_ok in T. apply dull_ok in D. unfold P in R.
    repeat match type of R with context [if ?c then _ else _] => destruct c as [->|_] end; try discriminate R; vm_compute in T; injection T as <-; try discriminate D.
    + destruct vs as [|x ?]; [discriminate R|]. cbn in R. injection R as <- <-. reflexivity.
    + destruct vs as [|x ?]; [discriminate R|]. cbn in R. injection R as <- <-. reflexivity.
    + cbn in R. injection R as <- <-. reflexivity.
    + cbn in R. injection R as <- <-. reflexivity.
    + cbn in R. injection R as <- <-. reflexivity.
  - intros p t u w x w' T R. apply check_ok in T. unfold P in R.
    repeat match type of R with context [if ?c then _ else _] => destruct c as [->|_] end; try discriminate R; vm_compute in T; try discriminate T; injection T as <-; cbn [run atom_val nth_error] in R; injection R as <- <-; cbn [is_true].
    + destruct (of _ _); reflexivity.
    + destruct (of _ _); reflexivity.
  - intros p t u w x w' T R. apply assert_ok in T. unfold P in R.
    repeat match type of R with context [if zlist_dec ?a ?b then _ else _] => destruct (zlist_dec a b) as [->|_] end; try discriminate R; vm_compute in T; try discriminate T; injection T as <-; cbn [run atom_val nth_error] in R.
    change (of (codes "fixnum") (shape_of u) = true). destruct (of (codes "fixnum") (shape_of u)); [reflexivity | discriminate R].
  - intros t u s _ _. destruct s as [[]| |]; cbn [of]; try discriminate; destruct (zlist_dec t _) as [->|]; try discriminate; destruct (zlist_dec u _) as [->|]; try discriminate; reflexivity.
Qed.
(** (let ((a (read))) (begin (fixnum:: a) (let ((b (if (fixnum? a) 2 #f))) (begin (write (if (boolean? b) 1 b)) (if (fixnum? (read)) a b))))) *)
Local Definition prog : exp :=
  let_exp [v 1] [EPrim EAny read []]
    (let_exp [v 2] [EPrim EAny as_fx [EVar (v 1)]]
      (let_exp [v 3] [EIf (EPrim ENo is_fx [EVar (v 1)]) (EPrim ENo two []) (EPrim ENo no [])]
        (let_exp [v 4] [EPrim EAny write [EIf (EPrim ENo is_bl [EVar (v 3)]) (EPrim ENo one []) (EVar (v 3))]]
          (EIf (EPrim ENo is_fx [EPrim EAny read []]) (EVar (v 1)) (EVar (v 3)))))).
Local Definition folded : exp :=
  let_exp [v 1] [EPrim EAny read []]
    (let_exp [v 8] [EPrim EAny as_fx [EVar (v 1)]]
      (let_exp [v 3] [let_exp [v 5] [EPrim ENo is_fx [EVar (v 1)]] (EPrim ENo two [])]
        (let_exp [v 7] [EPrim EAny write [let_exp [v 6] [EPrim ENo is_bl [EVar (v 3)]] (EVar (v 3))]]
          (EIf (EPrim ENo is_fx [EPrim EAny read []]) (EVar (v 1)) (EVar (v 3)))))).
Local Lemma prog_foldable : foldable 4 prog.
Proof.
  assert (D : distinct 4 prog) by (split; [repeat constructor; cbn; intuition discriminate | intros x; cbn; intuition (subst; cbn; lia)]).
  split; [apply distinct_no_shadow; [exact D | intros x []]|].
  split. { intros x F. apply free_vars_free in F. vm_compute in F. repeat (destruct F as [<-|F]; [reflexivity|]). destruct F. }
  split; [cbn; tauto|]. apply (la_ok 50). vm_compute. reflexivity.
Qed.
Example C34_meaning_preserved_ex : c_types P of /\ foldable 4 prog /\ constant_fold 100 prog 4 = Some (folded, 8) /\
  (forall g, left_outcome P MDirect 300 prog g [CInt 5; CVoid] = Some (Some (ShC (CInt 2)), [ShC (CInt 2)]) /\
             left_outcome P MDirect 300 folded g [CInt 5; CVoid] = Some (Some (ShC (CInt 2)), [ShC (CInt 2)])).
Proof. split; [exact P_types|]. split; [exact prog_foldable|]. split; [vm_compute; reflexivity|]. intros g. split; vm_compute; reflexivity. Qed.
Print Assumptions C34_meaning_preserved.

(** what the folder learns when an assertion is made of a global variable, it believes even after an assignment *)
Theorem C34_global_assert_refuted : exists P of fuel e n e' n', c_types P of /\ 0 <= n /\ distinct n e /\ (forall x, free_in x e -> global_id x = true) /\ no_local_set e /\
  constant_fold fuel e n = Some (e', n') /\ ~ refines P MDirect MDirect e e'.
Proof.
  exists P, of, 100%nat, (let_exp [v 1] [EPrim EAny as_fx [EVar (v (-1))]] (let_exp [v 2] [ESet (v (-1)) (EPrim ENo no [])] (EIf (EPrim ENo is_fx [EVar (v (-1))]) (EPrim ENo one []) (EPrim ENo two [])))), 2.
  eexists _, _. split; [exact P_types|]. split; [lia|]. split; [split; [repeat constructor; cbn; intuition discriminate | intros x; cbn; intuition (subst; cbn; lia)]|].
  split. { intros x F. apply free_vars_free in F. vm_compute in F. repeat (destruct F as [<-|F]; [reflexivity|]). destruct F. }
  split; [cbn; tauto|]. split; [vm_compute; reflexivity|].
  apply (not_refines P MDirect MDirect 50 100) with (g := fun _ => CInt 7) (i := []) (os := [(Some (ShC (CInt 2)), [])]) (s := ShC (CInt 1)) (o := []); [vm_compute; reflexivity | reflexivity | vm_compute; reflexivity|].
  intros [E|[]]. discriminate.
Qed.
Print Assumptions C34_global_assert_refuted.

(** the folder ends, and refuses no such program: as many nested calls as the program has nodes are enough *)
Theorem C34_total fuel e n : 0 <= n -> foldable n e -> (esize e <= fuel)%nat -> exists e' n', constant_fold fuel e n = Some (e', n').
Proof. exact (fold_total_ok fuel e n). Qed.
Example C34_total_ex : esize prog = 27%nat /\ constant_fold 5 prog 4 = None.
Proof. split; vm_compute; reflexivity. Qed.
Print Assumptions C34_total.

(** the result can be folded again, it is no bigger, it has no new free variables, and if every variable was bound once, every variable still is *)
Theorem C34_well_formed fuel e n e' n' : 0 <= n -> foldable n e -> constant_fold fuel e n = Some (e', n') ->
  n <= n' /\ foldable n' e' /\ (esize e' <= esize e)%nat /\ (forall x, free_in x e' -> free_in x e) /\ (distinct n e -> distinct n' e').
Proof. exact (fold_wf_ok fuel e n e' n'). Qed.
Example C34_well_formed_ex : foldable 4 prog /\ constant_fold 100 prog 4 = Some (folded, 8) /\ esize folded = 27%nat /\ distinct 8 folded.
Proof.
  split; [exact prog_foldable|]. split; [vm_compute; reflexivity|]. split; [vm_compute; reflexivity|].
  split; [repeat constructor; cbn; intuition discriminate | intros x; cbn; intuition (subst; cbn; lia)].
Qed.
Print Assumptions C34_well_formed.

(** the types read off the texts of primitives are those the texts spell, 6.sf:119-152 *)
Theorem C34_texts p t : (typecheck_prim_ctype p = Some t <-> check_text t p) /\ (typeassert_prim_ctype p = Some t <-> assert_text t p) /\
  (prim_ctype p = Some t <-> result_text t p) /\ (dull t = false <-> telling t).
Proof. split; [apply check_ok|]. split; [apply assert_ok|]. split; [apply result_ok | apply dull_ok]. Qed.
Example C34_texts_ex : check_text (codes "fixnum") (codes "bool(is_fixnum_$arg)") /\ assert_text (codes "flonum") (codes "void(assert(is_flonum_$arg))") /\
  result_text (codes "fixnum") (codes "{ fixnum_t n = $arg; $return  fixnum(n); }") /\ telling (codes "fixnum") /\ ~ telling (codes "obj") /\
  (forall t, ~ check_text t (codes "bool(is_fixnum_($arg))")).
Proof.
  split; [apply check_ok; vm_compute; reflexivity|]. split; [apply assert_ok; vm_compute; reflexivity|]. split; [apply result_ok; vm_compute; reflexivity|].
  split; [apply dull_ok; reflexivity|]. split; [intros H; apply dull_ok in H; discriminate H|]. intros t H. apply check_ok in H. vm_compute in H. discriminate.
Qed.
Print Assumptions C34_texts.
