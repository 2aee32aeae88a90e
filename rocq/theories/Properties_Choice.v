(** C33, the choices of beta substitution, /repo/4.sf:740-817, 858-891. *)
From Coq Require Import ZArith String List Bool Lia.
From Verif Require Import Base Model_Lit Model_CStr Model_Core Model_Beta Spec_Sem Spec_Fold Spec_Free Spec_Choice Proofs_Sim Proofs_Core Proofs_Free Proofs_BetaPure.
Import ListNotations.
Open Scope Z_scope.

Lemma forallb_Forall_if {A} (f : A -> bool) (P : A -> Prop) l : (forall x, In x l -> f x = true -> P x) -> forallb f l = true -> Forall P l.
Proof. intros H F. rewrite forallb_forall in F. apply Forall_forall. auto. Qed.
Lemma occurs_fun h x e : forall n m, occurs h x e n -> occurs h x e m -> n = m.
Proof.
  induction e as [e IH] using parts_ind. intros n m [ns F] [ms G]. f_equal. f_equal. revert ms G. induction F as [|[ys e'] n0 ps ns HP F IHF]; intros ms G; inversion G as [|? m0 ? ms' HQ G']; subst; [reflexivity|].
  f_equal; [|apply IHF; [intros zs a I; apply (IH zs a); now right | assumption]]. cbn [fst snd] in *. destruct HP as [[I ->]|[I HP]], HQ as [[J ->]|[J HQ]]; try contradiction; [reflexivity|]. apply (IH ys e'); [now left | assumption | assumption].
Qed.
Lemma transparent_eff ef : ref_transparent_effect ef = true -> ~ may_alloc ef /\ ~ may_look ef /\ ~ may_act ef.
Proof. destruct ef; try discriminate. cbn. tauto. Qed.
Lemma transparent_same m : forall e, (esize e <= m)%nat -> bs_ref_transparent e = true -> same_value e.
Proof.
  induction m as [|m IH]; intros e; [destruct e; cbn [esize]; lia|]. destruct e; cbn [bs_ref_transparent esize]; intros S Q; try discriminate.
  - apply orb_true_iff in Q. destruct Q as [Q|Q]; [apply sv_local; now apply negb_true_iff in Q | now apply sv_const].
  - rewrite !andb_true_iff in Q. destruct Q as [[A B] C]. constructor; apply IH; (assumption || lia).
  - apply andb_true_iff in Q. destruct Q as [A B]. destruct (transparent_eff _ A) as (X & Y & Z). constructor; try assumption.
    apply (forallb_Forall_if bs_ref_transparent); [|assumption]. intros x I. apply size_in in I. apply IH. lia.
  - destruct e; try discriminate. rewrite !andb_true_iff in Q. destruct Q as (A & B & C). apply Nat.eqb_eq in A. cbn [esize] in S. constructor; [assumption | |].
    + apply (forallb_Forall_if bs_ref_transparent); [|assumption]. intros x I. apply size_in in I. apply IH. lia.
    + apply IH; [lia | assumption].
  - constructor.
Qed.
Lemma removable_idle m : forall e, (esize e <= m)%nat -> bs_removable_if_dead e = true -> idle e.
Proof.
  induction m as [|m IH]; intros e; [destruct e; cbn [esize]; lia|]. destruct e; cbn [bs_removable_if_dead esize]; intros S Q; try discriminate.
  - constructor.
  - rewrite !andb_true_iff in Q. destruct Q as [[A B] C]. constructor; apply IH; (assumption || lia).
  - apply andb_true_iff in Q. destruct Q as [A B]. constructor; [destruct ef; (discriminate || (cbn; tauto))|].
    apply (forallb_Forall_if bs_removable_if_dead); [|assumption]. intros x I. apply size_in in I. apply IH. lia.
  - destruct e; try discriminate. rewrite !andb_true_iff in Q. destruct Q as (A & B & C). apply Nat.eqb_eq in A. cbn [esize] in S. constructor; [assumption | |].
    + apply (forallb_Forall_if bs_removable_if_dead); [|assumption]. intros x I. apply size_in in I. apply IH. lia.
    + apply IH; [lia | assumption].
  - constructor.
  - constructor. apply IH; [lia | assumption].
  - apply andb_true_iff in Q. destruct Q. constructor; apply IH; (assumption || lia).
Qed.
Lemma zero_atom e : bs_zero_cost e = true -> atom e.
Proof.
  destruct e; try discriminate; cbn [bs_zero_cost]; intros Q.
  - constructor. now apply (transparent_same 1).
  - rewrite !andb_true_iff in Q. destruct Q as [[A B] C]. destruct l; [|discriminate]. constructor; [|assumption].
    destruct (transparent_eff _ A) as (X & Y & Z). now constructor.
Qed.
Lemma zero_atoms l : forallb bs_zero_cost l = true -> Forall atom l.
Proof. apply forallb_Forall_if. intros. now apply zero_atom. Qed.
Lemma atom_same e : atom e -> same_value e.
Proof. now inversion 1. Qed.
Lemma curry_shape xs : forall l, curry_args xs l = true -> exists l', l = map EVar xs ++ l'.
Proof.
  induction xs as [|x xs IH]; intros l; cbn [curry_args]; [intros _; now exists l|]. destruct l as [|a l]; [discriminate|]. destruct a; try discriminate.
  intros Q. apply andb_true_iff in Q. destruct Q as [A B]. apply id_eqb_eq in A. subst. destruct (IH _ B) as (l' & ->). now exists l'.
Qed.
Lemma one_of_in x l : existsb (id_one_of x) l = true -> In (EVar x) l.
Proof. intros E. apply existsb_exists in E. destruct E as (a & I & Q). destruct a; try discriminate. cbn in Q. apply id_eqb_eq in Q. now subst. Qed.

(** Every operand of a let is kept, or treated in a way that is allowed (Spec_Choice): it is dropped only if nothing uses the
    variable and it does not act; it is moved only if it is the same wherever it is evaluated, or, before conversion to
    continuation-passing style, becomes an operand beside such; it is copied only if it is small. *)
Theorem C33_choices hc hl x e body n : occurs any_use x body n -> allowed hc hl x e body n (bs_choose hc hl x e body).
Proof.
  intros O. assert (E : n = var_reference_count x body) by (eapply occurs_fun; [eassumption | apply reference_count]).
  rewrite E. clear O E n. unfold bs_choose. set (n := var_reference_count x body).
  destruct (Nat.eqb_spec n 0) as [->|N0].
  { destruct (bs_removable_if_dead e) eqn:R; [apply al_drop; now apply (removable_idle (esize e)) | apply al_pass]. }
  destruct (Nat.eqb_spec n 1) as [->|N1].
  { destruct (bs_ref_transparent e) eqn:R; [apply al_once; now apply (transparent_same (esize e))|]. cbn [orb]. destruct hc; [apply al_pass|]. cbn [negb andb].
    destruct (bs_arg_of_application x body) eqn:A; [|apply al_pass]. apply al_move; [reflexivity|]. destruct body; try discriminate; cbn [bs_arg_of_application] in A; rewrite !andb_true_iff in A.
    - destruct A as [A B]. constructor; [now apply one_of_in|]. apply (forallb_Forall_if bs_ref_transparent); [|assumption]. intros y _. now apply (transparent_same (esize y)).
    - destruct A as [[A B] C]. constructor.
      + apply orb_true_iff in C. destruct C as [C|C]; [left; destruct body; try discriminate; cbn in C; apply id_eqb_eq in C; now subst | right; now apply one_of_in].
      + constructor; [now apply (transparent_same (esize body))|]. apply (forallb_Forall_if bs_ref_transparent); [|assumption]. intros y _. now apply (transparent_same (esize y)). }
  assert (L : (1 < n)%nat) by lia.
  destruct (Nat.eqb n 2 && negb hc && bs_cheap_ref_transparent e) eqn:C2.
  { rewrite !andb_true_iff in C2. destruct C2 as [[A B] C]. apply Nat.eqb_eq in A. destruct hc; [discriminate|]. destruct e; try discriminate. cbn [bs_cheap_ref_transparent] in C.
    rewrite !andb_true_iff in C. destruct C as [[C D] F]. apply Nat.leb_le in D. assert (X := zero_atoms _ F).
    assert (SV : same_value (EPrim ef p l)) by (destruct (transparent_eff _ C) as (U & V & W); constructor; try assumption; eapply Forall_impl; [|exact X]; apply atom_same).
    apply al_copy; [assumption | assumption|]. apply cp_prim; try assumption; try reflexivity. now constructor. }
  assert (Q : forall e, copied hc hl n e -> (exists xs b, e = ELam xs b) ->
            allowed hc hl x e body n (if var_only_applied_in_exp x body then CSubst else CPartial)).
  { intros e0 CP (xs & b & ->). destruct (var_only_applied_in_exp x body); [apply al_copy; [assumption | constructor | assumption] | eapply al_heads; [assumption | reflexivity | assumption]]. }
  assert (Z : allowed hc hl x e body n (if bs_zero_cost e then CSubst else CPass)).
  { destruct (bs_zero_cost e) eqn:ZC; [|apply al_pass]. apply zero_atom in ZC. apply al_copy; [assumption | now apply atom_same | now constructor]. }
  destruct hl.
  - destruct (curry_expp e) eqn:CU; [|exact Z]. apply Q; destruct e as [| | | | |xs b| | |]; try discriminate; [|eauto]. cbn [curry_expp] in CU. destruct b as [| | | |f l| | | |]; try discriminate. destruct f; try discriminate.
    apply andb_true_iff in CU. destruct CU as [A B]. destruct (curry_shape _ _ B) as (l' & ->). now apply cp_curry.
  - destruct (bs_cheap_lambda e) eqn:CL; [|exact Z]. apply Q; destruct e as [| | | | |xs b| | |]; try discriminate; [|eauto]. cbn [bs_cheap_lambda] in CL. apply cp_lam; [reflexivity|].
    destruct b; try discriminate; [constructor; now apply zero_atoms|]. apply andb_true_iff in CL. destruct CL. constructor; [now apply zero_atom | now apply zero_atoms].
Qed.
Local Definition v (z : Z) : id := mkid z XNone.
Local Definition plus : prim := codes "fixnum(fxadd(fixnum_from_$arg, fixnum_from_$arg))".
Local Definition read : prim := codes "obj(read())".
Example C33_choices_ex :
  let sum := EPrim ENo plus [EVar (v 2); EVar (v 3)] in
  let inp := EPrim EAny read [] in
  let pair a b := EPrim ENo plus [a; b] in
  bs_choose false false (v 1) sum (pair (EVar (v 1)) (EVar (v 1))) = CSubst /\ bs_choose true false (v 1) sum (pair (EVar (v 1)) (EVar (v 1))) = CPass /\
  bs_choose false false (v 1) inp (pair (EVar (v 1)) (EVar (v 2))) = CSubst /\ bs_choose true false (v 1) inp (pair (EVar (v 1)) (EVar (v 2))) = CPass /\
  bs_choose true true (v 1) inp (EVar (v 2)) = CPass /\ bs_choose true true (v 1) sum (EVar (v 2)) = CDrop /\
  bs_choose true false (v 1) (ELam [v 4] (pair (EVar (v 4)) (EVar (v 4)))) (pair (EVar (v 1)) (EApp (EVar (v 1)) [EVar (v 2)])) = CPartial /\
  occurs any_use (v 1) (pair (EVar (v 1)) (EVar (v 1))) 2.
Proof. cbn zeta. repeat (split; [vm_compute; reflexivity|]). apply (reference_count (v 1) (EPrim ENo plus [EVar (v 1); EVar (v 1)])). Qed.
Print Assumptions C33_choices.
