(** C40: equal? of the large library ends on every finite heap, circular or not, and answers whether the two objects
    unfold to the same tree. *)
From Coq Require Import ZArith List Bool Lia.
From Verif Require Import Model_Circ Spec_Circ Proofs_Circ.
Import ListNotations.
Open Scope Z_scope.

Theorem C40_equal_decides_unfolding : forall w dom, finite_heap w dom -> forall d x y, (length dom < d)%nat ->
  exists b, isequal w d x y = Some b /\ (b = true <-> same_unfolding w x y).
Proof. exact isequal_ok. Qed.
Print Assumptions C40_equal_decides_unfolding.

(** the first stage alone: an answer above zero means equal, below zero different, and it ends within its 500 units *)
Theorem C40_bounded_stage : forall w dom, finite_heap w dom -> forall x y,
  exists f, boundequal w 501 x y 500 = Some f /\ (0 < f -> same_unfolding w x y) /\ (f < 0 -> exists n, ~ upto w n x y).
Proof.
  intros w dom F x y. destruct (boundequal_ok w dom F 501 x y 500) as (f & E & _ & P & N); [lia|]. eauto.
Qed.
Print Assumptions C40_bounded_stage.

(** equal? of the large library is reflexive, symmetric and transitive *)
Theorem C40_equivalence : forall w dom, finite_heap w dom -> forall d x y z, (length dom < d)%nat ->
  isequal w d x x = Some true /\ isequal w d x y = isequal w d y x /\
  (isequal w d x y = Some true -> isequal w d y z = Some true -> isequal w d x z = Some true).
Proof.
  intros w dom F d x y z L.
  destruct (isequal_ok w dom F d x x L) as (bx & Ex & Hx), (isequal_ok w dom F d x y L) as (b1 & E1 & H1),
    (isequal_ok w dom F d y x L) as (b2 & E2 & H2), (isequal_ok w dom F d y z L) as (b3 & E3 & H3),
    (isequal_ok w dom F d x z L) as (b4 & E4 & H4).
  rewrite Ex, E1, E2, E3, E4. split; [|split].
  - f_equal. apply Hx. intros n. apply upto_refl.
  - f_equal. apply eq_true_iff_eq. rewrite H1, H2. split; intros S n; apply upto_sym, S.
  - intros A B. injection A as A. injection B as B. f_equal. apply H4. apply H1 in A. apply H3 in B. intros n.
    eapply upto_trans; [apply A|apply B].
Qed.
Print Assumptions C40_equivalence.

(** Pairs are blocks with tag 1.  At 2: the circular list #0=(7 . #0#); at 4 and 6 the same list written with two pairs;
    at 8: #0=(7 9 . #0#) in two pairs, the second at 10. *)
Definition rings : world := mkworld
  (fun o => existsb (Z.eqb o) [2; 4; 6; 8; 10])
  (fun o => NBlk (if o =? 2 then [1; 7; 2] else if o =? 4 then [1; 7; 6] else if o =? 6 then [1; 7; 4]
                  else if o =? 8 then [1; 7; 10] else [1; 9; 8])).
Example rings_finite : finite_heap rings [2; 4; 6; 8; 10].
Proof.
  split; [|split].
  - intros o. cbn [heap_obj rings]. rewrite existsb_exists. split.
    + intros (y & I & E). apply Z.eqb_eq in E. now subst.
    + intros I. exists o. split; [auto|apply Z.eqb_refl].
  - intros o I. cbn [In] in I. repeat destruct I as [<-|I]; try (split; [reflexivity|reflexivity]). contradiction.
  - intros o s _ E. discriminate.
Qed.
(** the first stage gives up on rings, the second one decides *)
Example ring_bounded : boundequal rings 501 2 4 500 = Some 0.
Proof. vm_compute. reflexivity. Qed.
Example ring_same : isequal rings 6 2 4 = Some true.
Proof. vm_compute. reflexivity. Qed.
Example ring_other : isequal rings 6 2 8 = Some false.
Proof. vm_compute. reflexivity. Qed.
