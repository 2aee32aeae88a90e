(** Assignment conversion declares effects honestly. *)
From Coq Require Import ZArith String List Bool Lia.
From Verif Require Import Model_Lit Model_Core Model_Assign Spec_Sem Spec_Free Spec_Scope Proofs_Sim Proofs_Core Proofs_Free Proofs_Assign Proofs_Box.
Import ListNotations.
Open Scope Z_scope.

Section Honest.
Variable P : prim -> script.
Hypothesis K : knows_boxes P.
Lemma box_exp_honest e : honest P e -> honest P (box_exp e).
Proof. intros H. destruct K as (K1 & _ & _). unfold box_exp. cbn [honest fold_right]. destruct (zlist_dec _ _) as [Q|_]; [discriminate|]. rewrite K1. cbn. tauto. Qed.
Lemma boxref_honest e : honest P e -> honest P (boxref_exp e).
Proof. intros H. destruct K as (_ & K1 & _). unfold boxref_exp. cbn [honest fold_right]. destruct (zlist_dec _ _) as [Q|_]; [discriminate|]. rewrite K1. cbn. tauto. Qed.
Lemma boxset_honest b e : honest P b -> honest P e -> honest P (boxset_exp b e).
Proof. intros H H'. destruct K as (_ & _ & K1). unfold boxset_exp. cbn [honest fold_right]. destruct (zlist_dec _ _) as [Q|_]; [discriminate|]. rewrite K1. cbn. tauto. Qed.
Lemma let_boxes_honest bs b : honest P b -> honest P (let_boxes bs b).
Proof.
  intros H. unfold let_boxes, let_exp. cbn [honest]. split; [assumption|]. apply fold_and. apply Forall_forall. intros e I. apply in_map_iff in I.
  destruct I as (xb & <- & _). apply box_exp_honest. exact Logic.I.
Qed.
Definition hon (e : exp) : Prop := honest P e -> forall s n e' n', box s e n = Some (e', n') -> honest P e'.
Lemma list_honest s l : Forall hon l -> Forall (honest P) l -> forall n l' n', box_list s l n = Some (l', n') -> Forall (honest P) l'.
Proof.
  induction 1 as [|e l H _ IH]; intros HL n l' n' E; cbn in E; [injection E as <- <-; constructor|].
  destruct (box s e n) as [(e1 & n1)|] eqn:E1; [|discriminate]. destruct (box_list s l n1) as [(l1 & n2)|] eqn:E2; [|discriminate]. injection E as <- <-.
  inversion HL; subst. constructor; [eapply H; eauto | eapply IH; eauto].
Qed.
Lemma lam_honest s xs b n y n' : hon b -> honest P b -> box_lam s xs b n = Some (y, n') -> honest P (snd y).
Proof.
  intros H HB E. unfold box_lam in E. destruct (box_params xs b n) as (bs & n1). destruct (box (rev bs ++ s) b n1) as [(b' & n2)|] eqn:B; [|discriminate].
  injection E as <- <-. cbn. apply let_boxes_honest. eapply H; eauto.
Qed.
Lemma box_honest e : hon e.
Proof.
  induction e as [x|x e IH|a b c IHa IHb IHc|ef p l IH|f l IHf IHl|xs b IH|xs ls b IHl IHb|x b IH|k e IHk IHe] using exp_ind2; intros HH s n e' n' E; cbn [honest] in HH; rewrite ?fold_and in HH.
  - cbn in E. injection E as <- <-. destruct (assq x s); [apply boxref_honest; exact Logic.I | exact Logic.I].
  - cbn in E. destruct (global_id x) eqn:GX.
    + destruct (box s e n) as [(e1 & n1)|] eqn:E1; [|discriminate]. injection E as <- <-. cbn. eapply IH; eauto.
    + destruct (assq x s) as [b|] eqn:Q; [|discriminate]. destruct (box s e n) as [(e1 & n1)|] eqn:E1; [|discriminate]. injection E as <- <-. apply boxset_honest; [exact Logic.I | eapply IH; eauto].
  - cbn in E. destruct (box s a n) as [(a1 & n1)|] eqn:E1; [|discriminate]. destruct (box s b n1) as [(b1 & n2)|] eqn:E2; [|discriminate].
    destruct (box s c n2) as [(c1 & n3)|] eqn:E3; [|discriminate]. injection E as <- <-. destruct HH as (H1 & H2 & H3). cbn. split; [eapply IHa; eauto|split; [eapply IHb; eauto | eapply IHc; eauto]].
  - rewrite box_prim in E. destruct (box_list s l n) as [(l1 & n1)|] eqn:E1; [|discriminate]. injection E as <- <-. cbn [honest]. destruct HH as (H1 & H2). split; [exact H1|]. apply fold_and. eapply list_honest; eauto.
  - destruct HH as (HF & HL). destruct (box_app s f l n) as [(b & -> & -> & Q)|[(x & e1 & -> & -> & Q)|Q]]; rewrite Q in E.
    + specialize (IHf HF s n (ELam [] (let_boxes [] e')) n'). cbn in IHf. rewrite E in IHf. now apply IHf.
    + inversion IHl; subst. inversion HL; subst. eapply H1; eauto.
    + unfold box_call in E. destruct (box s f n) as [(f1 & n1)|] eqn:E1; [|discriminate]. destruct (box_list s l n1) as [(l1 & n2)|] eqn:E2; [|discriminate].
      injection E as <- <-. cbn. split; [eapply IHf; eauto | apply fold_and; eapply list_honest; eauto].
  - rewrite box_lambda in E. destruct (box_lam s xs b n) as [((ys & b') & n1)|] eqn:E1; [|discriminate]. injection E as <- <-. exact (lam_honest _ _ _ _ _ _ IH HH E1).
  - rewrite box_fix in E. destruct (box_lams s ls n) as [(ls' & n1)|] eqn:E1; [|discriminate].
    destruct (box s b n1) as [(b' & n2)|] eqn:E2; [|discriminate]. injection E as <- <-. cbn [honest]. destruct HH as (HL & HB). split; [|eapply IHb; eauto]. apply (fold_and (fun l => honest P (snd l))).
    clear - E1 IHl HL K. revert HL n ls' n1 E1. induction IHl as [|(ys & e) ls He _ IHls]; intros HL n ls' n1 E1; cbn in E1; [injection E1 as <- <-; constructor|].
    destruct (box_lam s ys e n) as [(y & n3)|] eqn:E3; [|discriminate]. destruct (box_lams s ls n3) as [(l1 & n4)|] eqn:E4; [|discriminate]. injection E1 as <- <-.
    inversion HL as [|? ? HL1 HL2]; subst. constructor; [exact (lam_honest _ _ _ _ _ _ He HL1 E3) | eapply IHls; eauto].
  - cbn [box] in E. destruct (var_assigned_in_exp x b) eqn:V.
    + cbn [fresh] in E. destruct (box ((x, mkid (n + 1) XNone) :: s) b (n + 1)) as [(b' & n2)|] eqn:E1; [|discriminate]. injection E as <- <-.
      cbn [honest]. apply let_boxes_honest. eapply IH; eauto.
    + destruct (box s b n) as [(b' & n2)|] eqn:E1; [|discriminate]. injection E as <- <-. cbn. eapply IH; eauto.
  - cbn in E. destruct (box s k n) as [(a1 & n1)|] eqn:E1; [|discriminate]. destruct (box s e n1) as [(b1 & n2)|] eqn:E2; [|discriminate]. injection E as <- <-.
    destruct HH as (H1 & H2). cbn. split; [eapply IHk; eauto | eapply IHe; eauto].
Qed.
End Honest.
