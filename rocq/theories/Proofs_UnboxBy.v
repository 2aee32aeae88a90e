(** The conditions of Spec_Unbox, to be computed. *)
From Coq Require Import ZArith String List Bool Lia.
From Verif Require Import Base Model_Lit Model_Core Model_Fold Model_Letrec Model_Unbox Spec_Sem Spec_Free Spec_Scope Spec_Lift Spec_Fold Spec_Unbox
  Proofs_Core Proofs_Free Proofs_FoldText Proofs_UnboxUse Proofs_UnboxTyped Properties_Choice.
Import ListNotations.
Open Scope Z_scope.

(** ** The type that a variable is used at *)
Lemma loop_all t us : unboxed t -> us <> [] -> (forall u, In u us -> ref_ctype u = Some t) -> forall acc, (acc = None \/ acc = Some t) -> unboxed_loop us acc = Some t.
Proof.
  intros (D & NO). induction us as [|u us IH]; [easy|]. intros _ H acc A. cbn [unboxed_loop]. unfold var_use_unboxed_ctype. rewrite (H u (or_introl eq_refl)). apply dull_ok in D. rewrite D. destruct (zlist_dec t (codes "objptr")) as [E|_]; [contradiction|]. cbn [orb].
  assert (Z : match acc with None => true | Some t0 => if zlist_dec t t0 then true else false end = true). { destruct A as [->| ->]; [reflexivity|]. destruct (zlist_dec t t); [reflexivity | contradiction]. }
  rewrite Z. destruct us as [|u2 us]; [reflexivity|]. apply IH; [discriminate | intros w J; apply H; now right | now right].
Qed.
Theorem found_type x e t : var_unboxed_ctype_in_exp x e = Some t <-> only_at t x e /\ free_in x e.
Proof.
  split; [intros E; apply in_exp_ok in E; tauto|]. intros ((U & O) & F). apply loop_all; auto.
  - apply vinfo_free in F. apply in_map_iff in F. destruct F as ((y & vu) & Ey & J). cbn in Ey. subst y. apply uses_of in J. intros Z. rewrite Z in J. destruct J.
  - intros vu J. apply uses_of, entry_use in J. now apply O.
Qed.
Theorem found_worth x e t : worth t x e <-> var_unboxed_ctype_in_exp x e = Some t /\ (1 < var_reference_count x e)%nat.
Proof.
  split.
  - intros (O & k & C & L). assert (K := occurs_fun any_use x e k _ C (reference_count x e)). subst k. split; [|assumption]. apply found_type. split; [assumption|].
    apply (occurs_free any_use free_in x (free_in_eq x) e _ C). lia.
  - intros (V & L). apply found_type in V. split; [apply V|]. eexists. split; [apply reference_count | assumption].
Qed.

(** ** Parts *)
Fixpoint subs (f : nat) (e : exp) : list exp := match f with O => [] | S f => e :: flat_map (fun p => subs f (snd p)) (parts e) end.
Lemma subs_in e1 e : part_of e1 e -> forall f, (exp_depth e <= f)%nat -> In e1 (subs f e).
Proof.
  induction 1 as [|ys e2 e J Po IH]; intros f L.
  - destruct f; [destruct e1; cbn in L; lia | now left].
  - destruct f; [destruct e; cbn in L; lia|]. cbn [subs]. right. apply in_flat_map. exists (ys, e2). split; [assumption|]. apply IH. assert (Y := depth_part _ _ _ J). lia.
Qed.
Definition parts_by (q : exp -> bool) (e : exp) : bool := forallb q (subs (exp_depth e) e).
Lemma parts_ok q e e1 : parts_by q e = true -> part_of e1 e -> q e1 = true.
Proof. intros H Po. unfold parts_by in H. rewrite forallb_forall in H. apply H. now apply subs_in. Qed.
Definition none {A} (o : option A) : bool := match o with None => true | _ => false end.
Lemma plain_by e : parts_by (fun e => match e with EPrim _ p [EVar _] => none (typecheck_prim_ctype p) || none (c_argref_ctype p 0) | _ => true end) e = true -> plain_tests e.
Proof. intros H ef p x t Po C. apply (parts_ok _ _ _ H) in Po. apply check_ok in C. cbn beta iota in Po. rewrite C in Po. cbn [none orb] in Po. destruct (c_argref_ctype p 0); [discriminate Po | reflexivity]. Qed.
Lemma local_by e : parts_by (fun e => match e with EIf (EPrim _ p [EVar x]) b _ => none (unbox_ctype_test (EPrim ENo p [EVar x]) b) || negb (global_id x) | _ => true end) e = true -> local_tests e.
Proof.
  intros H ef p x b c t Po C W. apply (parts_ok _ _ _ H) in Po. apply check_ok in C. cbn [unbox_ctype_test] in Po. rewrite C in Po. assert (D : dull t = false) by (apply dull_ok; apply W). apply found_worth in W. destruct W as (W & L). rewrite W in Po.
  apply Nat.ltb_lt in L. rewrite L, D in Po. destruct (zlist_dec t t) as [_|Y]; [|contradiction]. cbn in Po. now destruct (global_id x).
Qed.
Lemma neat_by e : parts_by (fun e => match e with EApp (EApp (ELam [] _) []) _ => false | EApp (EApp (ELam [x] (EVar y)) [_]) _ => if id_dec x y then false else true | _ => true end) e = true -> neat e.
Proof.
  intros H f l Po. apply (parts_ok _ _ _ H) in Po. split.
  - intros b ->. discriminate Po.
  - intros x a ->. cbn in Po. destruct (id_dec x x); [discriminate | contradiction].
Qed.
Lemma gentle_by e : (forall xs b x t, In (xs, b) (procs e) -> In x xs -> var_unboxed_ctype_in_exp x b = Some t -> (1 <? var_reference_count x b)%nat = true -> sure x t b) -> gentle e.
Proof. intros H xs b x t J I W. apply found_worth in W. destruct W as (W & L). apply (H xs b x t J I W). now apply Nat.ltb_lt. Qed.
Lemma late_by e : parts_by (fun e => match e with ELetcc _ _ | EWithcc _ _ => false | ESet x _ => global_id x | _ => true end) e = true -> late e.
Proof. intros H e1 Po. apply (parts_ok _ _ _ H) in Po. destruct e1; auto; discriminate. Qed.
Lemma untyped_by e : forallb (fun y => match xt y with XC _ => false | _ => true end) (binders e) = true -> untyped e.
Proof. intros H y t J X. rewrite forallb_forall in H. specialize (H y J). rewrite X in H. discriminate. Qed.
