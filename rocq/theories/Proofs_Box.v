(** The conversion function satisfies the conversion relation. *)
From Coq Require Import ZArith String List Bool Lia.
From Verif Require Import Model_Lit Model_Core Model_Assign Spec_Sem Spec_Free Spec_Scope Proofs_Sim Proofs_Core Proofs_Free Proofs_Assign.
Import ListNotations.
Open Scope Z_scope.

Section Parts.
Variable s : substs.
Definition box_lam (xs : list id) (b : exp) (n : Z) : option ((list id * exp) * Z) :=
  let (bs, n1) := box_params xs b n in
  match box (rev bs ++ s) b n1 with Some (b', n2) => Some ((xs, let_boxes bs b'), n2) | None => None end.
Fixpoint box_list (l : list exp) (n : Z) : option (list exp * Z) :=
  match l with
  | [] => Some ([], n)
  | e :: l' =>
    match box s e n with
    | Some (e', n1) => match box_list l' n1 with Some (l1, n2) => Some (e' :: l1, n2) | None => None end
    | None => None
    end
  end.
Fixpoint box_lams (l : list (list id * exp)) (n : Z) : option (list (list id * exp) * Z) :=
  match l with
  | [] => Some ([], n)
  | (ys, e) :: l' =>
    match box_lam ys e n with
    | Some (y, n1) => match box_lams l' n1 with Some (l1, n2) => Some (y :: l1, n2) | None => None end
    | None => None
    end
  end.
End Parts.
Lemma box_prim s ef p l n : box s (EPrim ef p l) n = match box_list s l n with Some (l', n1) => Some (EPrim ef p l', n1) | None => None end.
Proof. reflexivity. Qed.
Definition box_call (s : substs) (f : exp) (l : list exp) (n : Z) : option (exp * Z) :=
  match box s f n with
  | Some (f', n1) => match box_list s l n1 with Some (l', n2) => Some (EApp f' l', n2) | None => None end
  | None => None
  end.
Lemma box_app s f l n :
  (exists b, f = ELam [] b /\ l = [] /\ box s (EApp f l) n = box s b n) \/
  (exists x e1, f = ELam [x] (EVar x) /\ l = [e1] /\ box s (EApp f l) n = box s e1 n) \/
  box s (EApp f l) n = box_call s f l n.
Proof.
  destruct f as [|?|?|?|?|xs b|?|?|?]; try (right; right; reflexivity).
  destruct xs as [|x [|]]; [| |right; right; reflexivity].
  - destruct l; [left; eauto | right; right; reflexivity].
  - destruct b as [y|?|?|?|?|?|?|?|?]; try (right; right; reflexivity). destruct l as [|e1 [|]]; try (right; right; reflexivity).
    destruct (id_dec x y) as [->|N].
    + right; left. exists y, e1. split; [reflexivity|split; [reflexivity|]]. cbn [box]. now rewrite id_eqb_refl.
    + right; right. cbn [box]. unfold id_eqb. destruct (id_dec x y); [easy | reflexivity].
Qed.
Lemma box_fix s xs ls b n : box s (EFix xs ls b) n =
  match box_lams s ls n with
  | Some (ls', n1) => match box s b n1 with Some (b', n2) => Some (EFix xs ls' b', n2) | None => None end
  | None => None
  end.
Proof. reflexivity. Qed.
Lemma box_lambda s xs b n : box s (ELam xs b) n = match box_lam s xs b n with Some ((_, b'), n1) => Some (ELam xs b', n1) | None => None end.
Proof. reflexivity. Qed.

(** the names of boxes *)
Lemma box_params_spec b xs : forall n bs n1, box_params xs b n = (bs, n1) ->
  map fst bs = filter (fun x => var_assigned_in_exp x b) xs /\ n <= n1 /\ NoDup (map snd bs) /\
  forall y, In y (map snd bs) -> n < ts y <= n1.
Proof.
  induction xs as [|x xs IH]; intros n bs n1 E; cbn [box_params filter] in *.
  - injection E as <- <-. cbn. split; [reflexivity|split; [lia|split; [constructor | easy]]].
  - destruct (var_assigned_in_exp x b).
    + destruct (box_params xs b (n + 1)) as (l & n2) eqn:E1. cbn in E. rewrite E1 in E. injection E as <- <-.
      destruct (IH _ _ _ E1) as (A & B & C & D). cbn. split; [now rewrite A|split; [lia|split]].
      * constructor; [|assumption]. intros I. apply D in I. cbn in I. lia.
      * intros y [<-|I]; [cbn; lia | apply D in I; lia].
    + apply IH in E. assumption.
Qed.

Section Rel.
(** what is known about the context when an expression is converted *)
Record inv (G : ctx) (s : substs) (bd : list id) (n : Z) : Prop := {
  iv_nodup : NoDup bd;
  iv_range : forall x, In x bd -> 0 <= ts x <= n;
  iv_names : forall y p, assq y G = Some p -> ~ In y bd /\ ~ In (tgt y p) bd /\ ts (tgt y p) <= n /\ 0 <= ts y;
  iv_boxes : forall y b, assq y s = Some b <-> assq y G = Some (RBox b);
  iv_local : forall y b, assq y s = Some b -> 0 <= ts b;
  iv_pos : 0 <= n }.
Lemma local_id x n : 0 <= ts x <= n -> global_id x = false.
Proof. intros H. unfold global_id. apply Z.ltb_ge. lia. Qed.
Lemma NoDup_app_l {A} (a b : list A) : NoDup (a ++ b) -> NoDup a.
Proof. induction a as [|x a IH]; cbn; intros N; [constructor|]. inversion N; subst. constructor; [|auto]. intros I. apply H1. apply in_or_app. now left. Qed.
Lemma NoDup_app_r {A} (a b : list A) : NoDup (a ++ b) -> NoDup b.
Proof. induction a as [|x a IH]; cbn; intros N; [assumption|]. inversion N; subst. auto. Qed.
Lemma NoDup_app_no {A} (a b : list A) x : NoDup (a ++ b) -> In x a -> ~ In x b.
Proof.
  induction a as [|y a IH]; cbn; [easy|]. intros N [->|I] J; inversion N; subst; [apply H1; apply in_or_app; now right | now apply IH].
Qed.
Lemma inv_sub G s bd bd' n n' : inv G s bd n -> n <= n' -> (NoDup bd -> NoDup bd') -> incl bd' bd -> inv G s bd' n'.
Proof.
  intros [A B C D E F] L N I. constructor; auto.
  - intros x X. apply I, B in X. lia.
  - intros y p Q. destruct (C y p Q) as (C1 & C2 & C3 & C4). split; [auto|split; [auto | lia]].
  - lia.
Qed.
Lemma inv_l G s a b n n' : inv G s (a ++ b) n -> n <= n' -> inv G s a n'.
Proof. intros I L. eapply inv_sub; [exact I | assumption | apply NoDup_app_l | apply incl_appl, incl_refl]. Qed.
Lemma inv_r G s a b n n' : inv G s (a ++ b) n -> n <= n' -> inv G s b n'.
Proof. intros I L. eapply inv_sub; [exact I | assumption | apply NoDup_app_r | apply incl_appr, incl_refl]. Qed.

Lemma assq_params bs xs y : In y xs -> assq y (params bs xs) = Some (rep_of bs y).
Proof.
  unfold params. induction xs as [|x xs IH]; [easy|]. cbn. intros I. destruct (id_dec y x) as [->|N].
  - now rewrite id_eqb_refl.
  - rewrite (proj2 (id_eqb_neq _ _) N). apply IH. destruct I; [congruence | assumption].
Qed.
Lemma assq_params_none bs xs y : ~ In y xs -> assq y (params bs xs) = None.
Proof. intros N. apply assq_None. unfold params. rewrite map_map. cbn. now rewrite map_id. Qed.
Lemma rep_tgt_params b xs n bs n1 y p : box_params xs b n = (bs, n1) -> In y xs -> p = rep_of bs y -> tgt y p = y \/ In (tgt y p) (map snd bs).
Proof.
  intros _ _ ->. unfold rep_of. destruct (assq y bs) as [c|] eqn:Q; [right | now left]. cbn. apply assq_In in Q. apply in_map_iff. now exists (y, c).
Qed.

Lemma bind_inv G s xs b n bs n1 : inv G s (xs ++ binders b) n -> box_params xs b n = (bs, n1) ->
  boxes_ok G xs bs /\ n <= n1 /\ inv (params bs xs ++ G) (rev bs ++ s) (binders b) n1.
Proof.
  intros I E. destruct (box_params_spec _ _ _ _ _ E) as (F & L & N & R).
  pose proof (iv_nodup _ _ _ _ I) as ND. pose proof (NoDup_app_l _ _ ND) as NX.
  assert (NF : NoDup (map fst bs)) by (rewrite F; apply NoDup_filter, NX).
  assert (IF : incl (map fst bs) xs) by (rewrite F; intros z Z; now apply filter_In in Z).
  split; [|split; [assumption|]].
  - split; [assumption|split; [assumption|split; [assumption|split; [assumption|split; [|split]]]]].
    + intros y Y. pose proof (R y Y) as Ry. split.
      * intros X. pose proof (iv_range _ _ _ _ I y (in_or_app _ _ _ (or_introl X))). lia.
      * apply (local_id y n1). pose proof (iv_pos _ _ _ _ I). lia.
    + intros x X. apply (local_id x n). apply (iv_range _ _ _ _ I). apply in_or_app. now left.
    + intros y p Q _ J. destruct (iv_names _ _ _ _ I y p Q) as (_ & C2 & C3 & _). apply in_app_or in J. destruct J as [J|J].
      * apply C2, in_or_app. now left.
      * apply R in J. lia.
  - destruct (inv_r _ _ _ _ _ n1 I L) as [A B C D E0 P]. constructor; auto.
    + intros y p Q. rewrite assq_app in Q. destruct (in_dec id_dec y xs) as [X|X].
      * rewrite (assq_params _ _ _ X) in Q. injection Q as <-. pose proof (NoDup_app_no _ _ _ ND X) as NB. split; [assumption|].
        destruct (rep_tgt_params _ _ _ _ _ _ _ E X eq_refl) as [T|T].
        -- rewrite T. split; [assumption|]. pose proof (iv_range _ _ _ _ I y (in_or_app _ _ _ (or_introl X))). lia.
        -- pose proof (R _ T). pose proof (iv_range _ _ _ _ I y (in_or_app _ _ _ (or_introl X))). split; [|lia]. intros J. pose proof (iv_range _ _ _ _ I _ (in_or_app _ _ _ (or_intror J))). lia.
      * rewrite (assq_params_none _ _ _ X) in Q. apply C. assumption.
    + intros y c. rewrite !assq_app. destruct (in_dec id_dec y xs) as [X|X].
      * rewrite (assq_params _ _ _ X). assert (S0 : assq y s = None).
        { destruct (assq y s) as [d|] eqn:Q; [|reflexivity]. apply (iv_boxes _ _ _ _ I) in Q. destruct (iv_names _ _ _ _ I _ _ Q) as (H & _).
          exfalso. apply H, in_or_app. now left. }
        assert (RV : assq y (rev bs) = assq y bs).
        { destruct (assq y bs) as [d|] eqn:Q.
          - apply In_assq; [rewrite map_rev; now apply NoDup_rev | apply in_rev; rewrite rev_involutive; now apply assq_In].
          - apply assq_None. rewrite map_rev. intros J. apply in_rev in J.
            apply in_map_iff in J. destruct J as ((z & d) & <- & J). cbn in Q. apply In_assq in J; [congruence | assumption]. }
        rewrite RV. unfold rep_of. destruct (assq y bs) as [d|]; [split; congruence|]. rewrite S0. split; discriminate.
      * rewrite (assq_params_none _ _ _ X). assert (RV : assq y (rev bs) = None).
        { apply assq_None. rewrite map_rev. intros J. apply in_rev in J. apply X, IF. assumption. }
        rewrite RV. apply (iv_boxes _ _ _ _ I).
    + intros y c Q. rewrite assq_app in Q. destruct (assq y (rev bs)) as [d|] eqn:Q1.
      * injection Q as <-. apply assq_In in Q1. apply in_rev in Q1. pose proof (R d (in_map snd _ _ Q1)). pose proof (iv_pos _ _ _ _ I). cbn in *. lia.
      * eapply E0; eauto.
Qed.

Lemma inv_fix G s xs bd n : inv G s (xs ++ bd) n -> (forall x, In x xs -> global_id x = false) /\ keeps G xs xs /\ inv (fixes xs ++ G) s bd n.
Proof.
  intros I. pose proof (iv_nodup _ _ _ _ I) as ND. split; [|split].
  - intros x X. apply (local_id x n). apply (iv_range _ _ _ _ I), in_or_app. now left.
  - intros y p Q _ J. destruct (iv_names _ _ _ _ I y p Q) as (_ & C2 & _). apply C2, in_or_app. now left.
  - assert (Yes : forall y, In y xs -> assq y (fixes xs) = Some RFix).
    { intros y. unfold fixes. clear. induction xs as [|x xs IH]; [easy|]. cbn. intros J. destruct (id_eqb y x) eqn:E; [reflexivity|].
      apply id_eqb_neq in E. apply IH. destruct J; [congruence | assumption]. }
    assert (No : forall y, ~ In y xs -> assq y (fixes xs) = None).
    { intros y N. apply assq_None. unfold fixes. rewrite map_map. cbn. now rewrite map_id. }
    destruct (inv_r _ _ _ _ _ n I (Z.le_refl n)) as [A B C D E0 P]. constructor; auto.
    + intros y p Q. rewrite assq_app in Q. destruct (in_dec id_dec y xs) as [X|X].
      * rewrite (Yes _ X) in Q. injection Q as <-. pose proof (NoDup_app_no _ _ _ ND X) as NB. cbn. split; [assumption|split; [assumption|]].
        pose proof (iv_range _ _ _ _ I y (in_or_app _ _ _ (or_introl X))). lia.
      * rewrite (No _ X) in Q. apply C. assumption.
    + intros y c. rewrite assq_app. destruct (in_dec id_dec y xs) as [X|X].
      * rewrite (Yes _ X). split; [|discriminate]. intros Q. apply D in Q. destruct (iv_names _ _ _ _ I _ _ Q) as (H & _). exfalso. apply H, in_or_app. now left.
      * rewrite (No _ X). apply D.
Qed.

Definition sound (e : exp) : Prop := forall G s n e' n', inv G s (binders e) n -> box s e n = Some (e', n') -> AC G e e' /\ n <= n'.
Lemma list_sound l : Forall sound l -> forall G s n l' n', inv G s (flat_map binders l) n -> box_list s l n = Some (l', n') -> Forall2 (AC G) l l' /\ n <= n'.
Proof.
  induction 1 as [|e l H _ IH]; intros G s n l' n' I E; cbn in E, I.
  - injection E as <- <-. split; [constructor | lia].
  - destruct (box s e n) as [(e1 & n1)|] eqn:E1; [|discriminate]. destruct (box_list s l n1) as [(l1 & n2)|] eqn:E2; [|discriminate]. injection E as <- <-.
    destruct (H G s n e1 n1 (inv_l _ _ _ _ _ _ I (Z.le_refl n)) E1) as (A1 & L1). destruct (IH G s n1 l1 n2 (inv_r _ _ _ _ _ _ I L1) E2) as (A2 & L2).
    split; [now constructor | lia].
Qed.
Lemma lam_sound xs b : sound b -> forall G s n y n', inv G s (xs ++ binders b) n -> box_lam s xs b n = Some (y, n') ->
  exists b', y = (xs, b') /\ AL G xs b b' /\ n <= n'.
Proof.
  intros H G s n y n' I E. unfold box_lam in E. destruct (box_params xs b n) as (bs & n1) eqn:BP.
  destruct (bind_inv _ _ _ _ _ _ _ I BP) as (OK & L & I1). destruct (box (rev bs ++ s) b n1) as [(b' & n2)|] eqn:B; [|discriminate]. injection E as <- <-.
  destruct (H _ _ _ _ _ I1 B) as (A & L2). exists (let_boxes bs b'). split; [reflexivity|split; [now constructor | lia]].
Qed.
Lemma AC_lam_inv G xs b b' : AC G (ELam xs b) (ELam xs b') -> AL G xs b b'.
Proof. inversion 1; assumption. Qed.
Lemma box_sound e : sound e.
Proof.
  induction e as [x|x e IH|a b c IHa IHb IHc|ef p l IH|f l IHf IHl|xs b IH|xs ls b IHl IHb|x b IH|k e IHk IHe] using exp_ind2; intros G s n e' n' I E.
  - cbn in E. injection E as <- <-. split; [|lia]. destruct (global_id x) eqn:GX.
    + destruct (assq x s) as [b|] eqn:Q.
      * apply (iv_boxes _ _ _ _ I), (iv_names _ _ _ _ I) in Q. apply Z.ltb_lt in GX. lia.
      * now apply ac_gvar.
    + destruct (assq x s) as [b|] eqn:Q.
      * apply ac_boxed; [assumption | | now apply (iv_boxes _ _ _ _ I)]. apply (local_id b (ts b)). pose proof (iv_local _ _ _ _ I _ _ Q). lia.
      * apply ac_var; [assumption|]. intros b Q1. apply (iv_boxes _ _ _ _ I) in Q1. congruence.
  - cbn in E, I. destruct (global_id x) eqn:GX.
    + destruct (box s e n) as [(e1 & n1)|] eqn:E1; [|discriminate]. injection E as <- <-. destruct (IH _ _ _ _ _ I E1). split; [now apply ac_gset | assumption].
    + destruct (assq x s) as [b|] eqn:Q; [|discriminate]. destruct (box s e n) as [(e1 & n1)|] eqn:E1; [|discriminate]. injection E as <- <-.
      destruct (IH _ _ _ _ _ I E1). split; [|assumption]. apply ac_set; [assumption | | now apply (iv_boxes _ _ _ _ I) | assumption].
      apply (local_id b (ts b)). pose proof (iv_local _ _ _ _ I _ _ Q). lia.
  - cbn in E, I. destruct (box s a n) as [(a1 & n1)|] eqn:E1; [|discriminate]. destruct (box s b n1) as [(b1 & n2)|] eqn:E2; [|discriminate].
    destruct (box s c n2) as [(c1 & n3)|] eqn:E3; [|discriminate]. injection E as <- <-.
    destruct (IHa _ _ _ _ _ (inv_l _ _ _ _ _ _ I (Z.le_refl n)) E1) as (A1 & L1). pose proof (inv_r _ _ _ _ _ n1 I L1) as I1.
    destruct (IHb _ _ _ _ _ (inv_l _ _ _ _ _ _ I1 (Z.le_refl n1)) E2) as (A2 & L2). pose proof (inv_r _ _ _ _ _ n2 I1 L2) as I2.
    destruct (IHc _ _ _ _ _ I2 E3) as (A3 & L3). split; [now apply ac_if | lia].
  - rewrite box_prim in E. cbn in I. destruct (box_list s l n) as [(l1 & n1)|] eqn:E1; [|discriminate]. injection E as <- <-.
    destruct (list_sound l IH _ _ _ _ _ I E1). split; [now apply ac_prim | assumption].
  - cbn [binders] in I. destruct (box_app s f l n) as [(b & -> & -> & Q)|[(x & e1 & -> & -> & Q)|Q]]; rewrite Q in E.
    + cbn in I. rewrite app_nil_r in I. destruct (IHf G s n (ELam [] (let_boxes [] e')) n' I) as (A & L).
      { cbn. now rewrite E. }
      split; [|assumption]. apply ac_null. apply AC_lam_inv in A. inversion A as [xs b0 bs b' OK A1 Q1 Q2 Q3]; subst.
      destruct bs as [|(z & d) bs]; [|discriminate]. exact A1.
    + cbn in I. rewrite app_nil_r in I. pose proof (inv_r _ _ [x] _ _ n I (Z.le_refl n)) as I1. inversion IHl as [|? ? H1 _]; subst.
      destruct (H1 _ _ _ _ _ I1 E). split; [|assumption]. apply ac_ident; [|assumption]. apply (local_id x n). apply (iv_range _ _ _ _ I). now left.
    + unfold box_call in E. destruct (box s f n) as [(f1 & n1)|] eqn:E1; [|discriminate]. destruct (box_list s l n1) as [(l1 & n2)|] eqn:E2; [|discriminate].
      injection E as <- <-. destruct (IHf _ _ _ _ _ (inv_l _ _ _ _ _ _ I (Z.le_refl n)) E1) as (A1 & L1).
      destruct (list_sound l IHl _ _ _ _ _ (inv_r _ _ _ _ _ n1 I L1) E2) as (A2 & L2). split; [now apply ac_app | lia].
  - rewrite box_lambda in E. cbn [binders] in I. destruct (box_lam s xs b n) as [((ys & b') & n1)|] eqn:E1; [|discriminate]. injection E as <- <-.
    destruct (lam_sound _ _ IH _ _ _ _ _ I E1) as (b1 & [= -> ->] & A & L). split; [now apply ac_lam | assumption].
  - rewrite box_fix in E. cbn [binders] in I. destruct (box_lams s ls n) as [(ls' & n1)|] eqn:E1; [|discriminate].
    destruct (box s b n1) as [(b' & n2)|] eqn:E2; [|discriminate]. injection E as <- <-.
    destruct (inv_fix _ _ _ _ _ I) as (GX & KP & I1).
    assert (A1 : Forall2 (AF (fixes xs ++ G)) ls ls' /\ n <= n1).
    { pose proof (inv_l _ _ _ _ _ n I1 (Z.le_refl n)) as I2. clear I I1 E2 IHb. revert n ls' n1 E1 I2.
      induction IHl as [|(ys & e) ls He _ IHls]; intros n ls' n1 E1 I2; cbn in E1, I2.
      - injection E1 as <- <-. split; [constructor | lia].
      - destruct (box_lam s ys e n) as [(y & n3)|] eqn:E3; [|discriminate]. destruct (box_lams s ls n3) as [(l1 & n4)|] eqn:E4; [|discriminate]. injection E1 as <- <-.
        destruct (lam_sound _ _ He _ _ _ _ _ (inv_l _ _ _ _ _ n I2 (Z.le_refl n)) E3) as (b1 & -> & A & L).
        destruct (IHls _ _ _ E4 (inv_r _ _ _ _ _ n3 I2 L)) as (A2 & L2). split; [constructor; [now constructor | assumption] | lia]. }
    destruct A1 as (A1 & L1). destruct (IHb _ _ _ _ _ (inv_r _ _ _ _ _ n1 I1 L1) E2) as (A2 & L2). split; [now apply ac_fix | lia].
  - cbn [binders] in I. change (x :: binders b) with ([x] ++ binders b) in I. cbn [box] in E.
    destruct (var_assigned_in_exp x b) eqn:V.
    + cbn [fresh] in E. destruct (box ((x, mkid (n + 1) XNone) :: s) b (n + 1)) as [(b' & n2)|] eqn:E1; [|discriminate]. injection E as <- <-.
      assert (BP : box_params [x] b n = ([(x, mkid (n + 1) XNone)], n + 1)) by (cbn; now rewrite V).
      destruct (bind_inv _ _ _ _ _ _ _ I BP) as (OK & L & I1). destruct (IH _ _ _ _ _ I1 E1) as (A & L2). split; [|lia]. apply ac_letcc_box. now constructor.
    + destruct (box s b n) as [(b' & n2)|] eqn:E1; [|discriminate]. injection E as <- <-.
      assert (BP : box_params [x] b n = ([], n)) by (cbn; now rewrite V).
      destruct (bind_inv _ _ _ _ _ _ _ I BP) as (OK & L & I1). destruct (IH _ _ _ _ _ I1 E1) as (A & L2). split; [|lia]. now apply ac_letcc.
  - cbn in E, I. destruct (box s k n) as [(a1 & n1)|] eqn:E1; [|discriminate]. destruct (box s e n1) as [(b1 & n2)|] eqn:E2; [|discriminate]. injection E as <- <-.
    destruct (IHk _ _ _ _ _ (inv_l _ _ _ _ _ _ I (Z.le_refl n)) E1) as (A1 & L1).
    destruct (IHe _ _ _ _ _ (inv_r _ _ _ _ _ n1 I L1) E2) as (A2 & L2). split; [now apply ac_with | lia].
Qed.

Theorem remove_assignments_refines P e n e' n' : knows_boxes P -> distinct n e -> 0 <= n -> remove_assignments e n = Some (e', n') ->
  refines P MCells MDirect e e'.
Proof.
  intros PB (N & R) P0 E. apply (AC_refines P PB). apply (box_sound e [] [] n e' n'); [|exact E].
  constructor; auto; try discriminate. intros y b. cbn. split; discriminate.
Qed.
End Rel.

(** ** No assignment to a local variable is left *)
Lemma fold_and {A} (Q : A -> Prop) l : fold_right (fun e p => Q e /\ p) True l <-> Forall Q l.
Proof. induction l; cbn; [split; constructor|]. rewrite IHl. split; [intros (X & Y); now constructor | inversion 1; auto]. Qed.
Lemma let_boxes_clean bs b : no_local_set b -> no_local_set (let_boxes bs b).
Proof.
  intros H. unfold let_boxes, let_exp. cbn. split; [assumption|]. apply fold_and. apply Forall_forall. intros e I. apply in_map_iff in I.
  destruct I as (xb & <- & _). cbn. auto.
Qed.
Definition clean (e : exp) : Prop := forall s n e' n', box s e n = Some (e', n') -> no_local_set e'.
Lemma list_clean s l : Forall clean l -> forall n l' n', box_list s l n = Some (l', n') -> Forall no_local_set l'.
Proof.
  induction 1 as [|e l H _ IH]; intros n l' n' E; cbn in E; [injection E as <- <-; constructor|].
  destruct (box s e n) as [(e1 & n1)|] eqn:E1; [|discriminate]. destruct (box_list s l n1) as [(l1 & n2)|] eqn:E2; [|discriminate]. injection E as <- <-.
  constructor; [eapply H; eauto | eapply IH; eauto].
Qed.
Lemma lam_clean s xs b n y n' : clean b -> box_lam s xs b n = Some (y, n') -> no_local_set (snd y).
Proof.
  intros H E. unfold box_lam in E. destruct (box_params xs b n) as (bs & n1). destruct (box (rev bs ++ s) b n1) as [(b' & n2)|] eqn:B; [|discriminate].
  injection E as <- <-. cbn. apply let_boxes_clean. eapply H; eauto.
Qed.
Lemma box_clean e : clean e.
Proof.
  induction e as [x|x e IH|a b c IHa IHb IHc|ef p l IH|f l IHf IHl|xs b IH|xs ls b IHl IHb|x b IH|k e IHk IHe] using exp_ind2; intros s n e' n' E.
  - cbn in E. injection E as <- <-. destruct (assq x s); cbn; auto.
  - cbn in E. destruct (global_id x) eqn:GX.
    + destruct (box s e n) as [(e1 & n1)|] eqn:E1; [|discriminate]. injection E as <- <-. cbn. split; [assumption | eapply IH; eauto].
    + destruct (assq x s) as [b|] eqn:Q; [|discriminate]. destruct (box s e n) as [(e1 & n1)|] eqn:E1; [|discriminate]. injection E as <- <-. cbn.
      split; [auto|split; [eapply IH; eauto | auto]].
  - cbn in E. destruct (box s a n) as [(a1 & n1)|] eqn:E1; [|discriminate]. destruct (box s b n1) as [(b1 & n2)|] eqn:E2; [|discriminate].
    destruct (box s c n2) as [(c1 & n3)|] eqn:E3; [|discriminate]. injection E as <- <-. cbn. split; [eapply IHa; eauto|split; [eapply IHb; eauto | eapply IHc; eauto]].
  - rewrite box_prim in E. destruct (box_list s l n) as [(l1 & n1)|] eqn:E1; [|discriminate]. injection E as <- <-. cbn. apply fold_and. eapply list_clean; eauto.
  - destruct (box_app s f l n) as [(b & -> & -> & Q)|[(x & e1 & -> & -> & Q)|Q]]; rewrite Q in E.
    + specialize (IHf s n (ELam [] (let_boxes [] e')) n'). cbn in IHf. rewrite E in IHf. now apply IHf.
    + inversion IHl; subst. eapply H1; eauto.
    + unfold box_call in E. destruct (box s f n) as [(f1 & n1)|] eqn:E1; [|discriminate]. destruct (box_list s l n1) as [(l1 & n2)|] eqn:E2; [|discriminate].
      injection E as <- <-. cbn. split; [eapply IHf; eauto | apply fold_and; eapply list_clean; eauto].
  - rewrite box_lambda in E. destruct (box_lam s xs b n) as [((ys & b') & n1)|] eqn:E1; [|discriminate]. injection E as <- <-. exact (lam_clean _ _ _ _ _ _ IH E1).
  - rewrite box_fix in E. destruct (box_lams s ls n) as [(ls' & n1)|] eqn:E1; [|discriminate].
    destruct (box s b n1) as [(b' & n2)|] eqn:E2; [|discriminate]. injection E as <- <-. cbn. split; [|eapply IHb; eauto]. apply (fold_and (fun l => no_local_set (snd l))).
    clear - E1 IHl. revert n ls' n1 E1. induction IHl as [|(ys & e) ls He _ IHls]; intros n ls' n1 E1; cbn in E1; [injection E1 as <- <-; constructor|].
    destruct (box_lam s ys e n) as [(y & n3)|] eqn:E3; [|discriminate]. destruct (box_lams s ls n3) as [(l1 & n4)|] eqn:E4; [|discriminate]. injection E1 as <- <-.
    constructor; [exact (lam_clean _ _ _ _ _ _ He E3) | eapply IHls; eauto].
  - cbn [box] in E. destruct (var_assigned_in_exp x b) eqn:V.
    + cbn [fresh] in E. destruct (box ((x, mkid (n + 1) XNone) :: s) b (n + 1)) as [(b' & n2)|] eqn:E1; [|discriminate]. injection E as <- <-.
      cbn [no_local_set]. apply let_boxes_clean. eapply IH; eauto.
    + destruct (box s b n) as [(b' & n2)|] eqn:E1; [|discriminate]. injection E as <- <-. cbn. eapply IH; eauto.
  - cbn in E. destruct (box s k n) as [(a1 & n1)|] eqn:E1; [|discriminate]. destruct (box s e n1) as [(b1 & n2)|] eqn:E2; [|discriminate]. injection E as <- <-.
    cbn. split; [eapply IHk; eauto | eapply IHe; eauto].
Qed.

(** ** The pass succeeds when every assigned variable is global or bound by lambda or letcc *)
Definition has_box (s : substs) (e : exp) : Prop := forall x, assigned_in x e -> global_id x = false -> assq x s <> None.
Definition total (e : exp) : Prop := forall s n, assignable e -> has_box s e -> exists e' n', box s e n = Some (e', n').
Lemma has_part s e ys e' : has_box s e -> In (ys, e') (parts e) -> (forall x, In x ys -> assigned_in x e' -> global_id x = false -> assq x s <> None) -> has_box s e'.
Proof.
  intros H I F x A G. destruct (in_dec id_dec x ys) as [X|X]; [now apply F|]. apply H; [|assumption]. eapply asg_part; eauto.
Qed.
Lemma list_total s l : Forall total l -> Forall assignable l -> (forall e, In e l -> has_box s e) -> forall n, exists l' n', box_list s l n = Some (l', n').
Proof.
  induction 1 as [|e l H _ IH]; intros A B n; cbn; [eauto|]. inversion A; subst.
  destruct (H s n H2 (B e (or_introl eq_refl))) as (e' & n1 & ->). destruct (IH H3 (fun x I => B x (or_intror I)) n1) as (l' & n2 & ->). eauto.
Qed.
Lemma bound_has_box s e ys b n bs n1 : has_box s e -> In (ys, b) (parts e) -> box_params ys b n = (bs, n1) -> has_box (rev bs ++ s) b.
Proof.
  intros H I E x A G. rewrite assq_app. destruct (assq x (rev bs)) eqn:Q; [discriminate|]. apply assq_None in Q.
  apply H; [|assumption]. eapply asg_part; [exact I | | exact A]. intros X. apply Q. rewrite map_rev, <- in_rev.
  destruct (box_params_spec _ _ _ _ _ E) as (-> & _). apply filter_In. split; [assumption|]. now apply assigned_assigned.
Qed.
Lemma lam_total s xs b e n : total b -> assignable b -> has_box s e -> In (xs, b) (parts e) -> exists y n', box_lam s xs b n = Some (y, n').
Proof.
  intros T A H I. unfold box_lam. destruct (box_params xs b n) as (bs & n1) eqn:BP.
  destruct (T (rev bs ++ s) n1 A (bound_has_box _ _ _ _ _ _ _ H I BP)) as (b' & n2 & ->). eauto.
Qed.
Lemma box_total e : total e.
Proof.
  induction e as [x|x e IH|a b c IHa IHb IHc|ef p l IH|f l IHf IHl|xs b IH|xs ls b IHl IHb|x b IH|k e IHk IHe] using exp_ind2; intros s n A H.
  - cbn. eauto.
  - cbn in *. assert (He : has_box s e) by (apply (has_part s (ESet x e) [] e H); [now left | easy]).
    destruct (IH s n A He) as (e' & n' & ->). destruct (global_id x) eqn:GX; [eauto|].
    destruct (assq x s) eqn:Q; [eauto|]. exfalso. apply (H x); [econstructor; reflexivity | assumption | assumption].
  - cbn in A. destruct A as (Aa & Ab & Ac). cbn [box].
    destruct (IHa s n Aa) as (a' & n1 & ->); [apply (has_part s _ [] a H); [now left | easy]|].
    destruct (IHb s n1 Ab) as (b' & n2 & ->); [apply (has_part s _ [] b H); [now right; left | easy]|].
    destruct (IHc s n2 Ac) as (c' & n3 & ->); [apply (has_part s _ [] c H); [now right; right; left | easy]|]. eauto.
  - rewrite box_prim. cbn in A. apply fold_and in A. destruct (list_total s l IH A) with (n := n) as (l' & n1 & ->); [|eauto].
    intros e I. apply (has_part s _ [] e H); [cbn; now apply in_map | easy].
  - cbn in A. destruct A as (Af & Al). apply fold_and in Al.
    assert (Hf : has_box s f) by (apply (has_part s _ [] f H); [now left | easy]).
    assert (Hl : forall e, In e l -> has_box s e) by (intros e I; apply (has_part s _ [] e H); [right; now apply in_map | easy]).
    destruct (box_app s f l n) as [(b & -> & -> & Q)|[(x & e1 & -> & -> & Q)|Q]]; rewrite Q.
    + destruct (IHf s n Af Hf) as (f' & n1 & E). cbn in E. destruct (box s b n) as [(b' & n2)|]; [eauto | discriminate].
    + inversion IHl; inversion Al; subst. apply H2; [assumption | apply Hl; now left].
    + unfold box_call. destruct (IHf s n Af Hf) as (f' & n1 & ->). destruct (list_total s l IHl Al Hl n1) as (l' & n2 & ->). eauto.
  - rewrite box_lambda. destruct (lam_total s xs b (ELam xs b) n IH A H (or_introl eq_refl)) as ((? & ?) & n1 & ->). eauto.
  - rewrite box_fix. cbn in A. destruct A as (Al & Ab & Ax). apply (fold_and (fun l => assignable (snd l))) in Al.
    assert (L : forall n, exists ls' n1, box_lams s ls n = Some (ls', n1)).
    { assert (H' : forall l, In l ls -> has_box s (ELam (fst l) (snd l))).
      { intros l I x As G. inversion As as [? Q|ys e' I1 N1 A1]; [discriminate|]. cbn in I1. destruct I1 as [[= <- <-]|[]].
        destruct (in_dec id_dec x xs) as [X|X]; [exfalso; now apply (proj2 (Ax x X) l I)|].
        apply H; [|assumption]. eapply asg_part; [right; apply in_map_iff; exists l; split; [reflexivity | exact I] | | exact A1].
        intros J. apply in_app_or in J. tauto. }
      clear - IHl Al H'. induction IHl as [|(ys & e) ls He _ IHls]; intros n; cbn; [eauto|]. inversion Al; subst.
      destruct (lam_total s ys e (ELam ys e) n He H1 (H' (ys, e) (or_introl eq_refl)) (or_introl eq_refl)) as (y & n1 & ->).
      destruct (IHls H2 (fun l I => H' l (or_intror I)) n1) as (ls' & n2 & ->). eauto. }
    destruct (L n) as (ls' & n1 & ->). destruct (IHb s n1 Ab) as (b' & n2 & ->); [|eauto].
    apply (has_part s _ xs b H); [now left|]. intros x X As. exfalso. now apply (proj1 (Ax x X)).
  - cbn [box]. cbn in A. destruct (var_assigned_in_exp x b) eqn:V.
    + cbn [fresh]. destruct (IH ((x, mkid (n + 1) XNone) :: s) (n + 1) A) as (b' & n2 & ->); [|eauto].
      assert (BP : box_params [x] b n = ([(x, mkid (n + 1) XNone)], n + 1)) by (cbn; now rewrite V).
      exact (bound_has_box _ _ _ _ _ _ _ H (or_introl eq_refl) BP).
    + destruct (IH s n A) as (b' & n2 & ->); [|eauto].
      assert (BP : box_params [x] b n = ([], n)) by (cbn; now rewrite V).
      exact (bound_has_box _ _ _ _ _ _ _ H (or_introl eq_refl) BP).
  - cbn in A. destruct A as (Aa & Ab). cbn [box].
    destruct (IHk s n Aa) as (a' & n1 & ->); [apply (has_part s _ [] k H); [now left | easy]|].
    destruct (IHe s n1 Ab) as (b' & n2 & ->); [apply (has_part s _ [] e H); [now right; left | easy]|]. eauto.
Qed.

(** ** The names of the result are distinct *)
(** the names [l'] come from [l] or are new *)
Definition from (l : list id) (n : Z) (l' : list id) (n' : Z) : Prop :=
  NoDup l' /\ n <= n' /\ forall x, In x l' -> In x l \/ n < ts x <= n'.
Definition old (l : list id) (n : Z) : Prop := NoDup l /\ forall x, In x l -> ts x <= n.
Lemma old_l a b n n' : old (a ++ b) n -> n <= n' -> old a n'.
Proof. intros (N & R) L. split; [eapply NoDup_app_l; eauto|]. intros x I. assert (ts x <= n) by (apply R, in_or_app; now left). lia. Qed.
Lemma old_r a b n n' : old (a ++ b) n -> n <= n' -> old b n'.
Proof. intros (N & R) L. split; [eapply NoDup_app_r; eauto|]. intros x I. assert (ts x <= n) by (apply R, in_or_app; now right). lia. Qed.
Lemma NoDup_join {A} (a b : list A) : NoDup a -> NoDup b -> (forall x, In x a -> ~ In x b) -> NoDup (a ++ b).
Proof.
  induction 1 as [|x a X N IH]; cbn; intros Nb D; [assumption|]. constructor; [|apply IH; auto].
  intros I. apply in_app_or in I. destruct I; [easy | apply (D x); auto].
Qed.
Lemma from_app a b a' b' n n1 n2 : old (a ++ b) n -> from a n a' n1 -> from b n1 b' n2 -> from (a ++ b) n (a' ++ b') n2.
Proof.
  intros (N & R) (Na & La & Fa) (Nb & Lb & Fb). split; [|split; [lia|]].
  - apply NoDup_join; [assumption | assumption|]. intros x Ia Ib. specialize (Fa x Ia). specialize (Fb x Ib).
    assert (Ra : In x a -> ts x <= n) by (intros; apply R, in_or_app; auto). assert (Rb : In x b -> ts x <= n) by (intros; apply R, in_or_app; auto).
    destruct Fa as [Fa|Fa], Fb as [Fb|Fb]; try (specialize (Ra Fa)); try (specialize (Rb Fb)); try lia. exact (NoDup_app_no _ _ _ N Fa Fb).
  - intros x I. apply in_app_or in I. destruct I as [I|I]; [destruct (Fa x I) | destruct (Fb x I)]; try (left; apply in_or_app; now auto); right; lia.
Qed.
Lemma from_refl l n : old l n -> from l n l n.
Proof. intros (N & _). split; [assumption|split; [lia | auto]]. Qed.
Lemma from_sub a l n l' n' : incl a l -> from a n l' n' -> from l n l' n'.
Proof. intros I (N & L & F). split; [assumption|split; [assumption|]]. intros x X. destruct (F x X); [left; now apply I | now right]. Qed.
Definition fromb (e : exp) : Prop := forall s n e' n', old (binders e) n -> box s e n = Some (e', n') -> from (binders e) n (binders e') n'.
Lemma list_from s l : Forall fromb l -> forall n l' n', old (flat_map binders l) n -> box_list s l n = Some (l', n') -> from (flat_map binders l) n (flat_map binders l') n'.
Proof.
  induction 1 as [|e l H _ IH]; intros n l' n' O E; cbn in E, O; [injection E as <- <-; now apply from_refl|].
  destruct (box s e n) as [(e1 & n1)|] eqn:E1; [|discriminate]. destruct (box_list s l n1) as [(l1 & n2)|] eqn:E2; [|discriminate]. injection E as <- <-.
  pose proof (H _ _ _ _ (old_l _ _ _ n O (Z.le_refl n)) E1) as F1. cbn. eapply from_app; [exact O | exact F1|].
  apply (IH _ _ _ (old_r _ _ _ _ O (proj1 (proj2 F1))) E2).
Qed.
Lemma let_boxes_binders bs b : binders (let_boxes bs b) = map snd bs ++ binders b.
Proof.
  unfold let_boxes, let_exp. cbn. rewrite <- (app_nil_r (map snd bs ++ binders b)) at 2. f_equal. induction bs; [reflexivity | cbn; assumption].
Qed.
Lemma lam_from s xs b n y n' : fromb b -> old (xs ++ binders b) n -> box_lam s xs b n = Some (y, n') -> fst y = xs /\ from (xs ++ binders b) n (fst y ++ binders (snd y)) n'.
Proof.
  intros H O E. unfold box_lam in E. destruct (box_params xs b n) as (bs & n1) eqn:BP. destruct (box (rev bs ++ s) b n1) as [(b' & n2)|] eqn:B; [|discriminate].
  injection E as <- <-. cbn [fst snd]. split; [reflexivity|]. rewrite let_boxes_binders. destruct (box_params_spec _ _ _ _ _ BP) as (_ & L & N & R).
  change (xs ++ binders b) with (xs ++ [] ++ binders b). eapply from_app; [exact O | apply from_refl, (old_l _ _ _ n O (Z.le_refl n))|].
  eapply (from_app _ _ _ _ n n1); [apply (old_r _ _ _ n O (Z.le_refl n)) | | apply (H _ _ _ _ (old_r _ _ _ _ O L) B)].
  split; [assumption|split; [assumption | auto]].
Qed.
Lemma box_from e : fromb e.
Proof.
  induction e as [x|x e IH|a b c IHa IHb IHc|ef p l IH|f l IHf IHl|xs b IH|xs ls b IHl IHb|x b IH|k e IHk IHe] using exp_ind2; intros s n e' n' O E.
  - cbn in E. injection E as <- <-. destruct (assq x s); apply (from_refl []), O.
  - cbn in E. destruct (global_id x) eqn:GX.
    + destruct (box s e n) as [(e1 & n1)|] eqn:E1; [|discriminate]. injection E as <- <-. apply (IH _ _ _ _ O E1).
    + destruct (assq x s) as [b|] eqn:Q; [|discriminate]. destruct (box s e n) as [(e1 & n1)|] eqn:E1; [|discriminate]. injection E as <- <-. cbn.
      rewrite app_nil_r. apply (IH _ _ _ _ O E1).
  - cbn in E, O. destruct (box s a n) as [(a1 & n1)|] eqn:E1; [|discriminate]. destruct (box s b n1) as [(b1 & n2)|] eqn:E2; [|discriminate].
    destruct (box s c n2) as [(c1 & n3)|] eqn:E3; [|discriminate]. injection E as <- <-. cbn.
    pose proof (IHa _ _ _ _ (old_l _ _ _ n O (Z.le_refl n)) E1) as F1. pose proof (old_r _ _ _ n1 O (proj1 (proj2 F1))) as O1.
    pose proof (IHb _ _ _ _ (old_l _ _ _ n1 O1 (Z.le_refl n1)) E2) as F2. pose proof (old_r _ _ _ n2 O1 (proj1 (proj2 F2))) as O2.
    eapply from_app; [exact O | exact F1|]. eapply from_app; [exact O1 | exact F2 | apply (IHc _ _ _ _ O2 E3)].
  - rewrite box_prim in E. destruct (box_list s l n) as [(l1 & n1)|] eqn:E1; [|discriminate]. injection E as <- <-. apply (list_from _ _ IH _ _ _ O E1).
  - cbn [binders] in O. destruct (box_app s f l n) as [(b & -> & -> & Q)|[(x & e1 & -> & -> & Q)|Q]]; rewrite Q in E.
    + specialize (IHf s n (ELam [] (let_boxes [] e')) n'). cbn in IHf, O |- *. rewrite app_nil_r in *. rewrite E in IHf. exact (IHf O eq_refl).
    + inversion IHl; subst. apply from_sub with (binders e1); [intros z Z; cbn; right; now rewrite app_nil_r|]. eapply H1; [|exact E].
      cbn in O. rewrite app_nil_r in O. apply (old_r [x] _ _ n O (Z.le_refl n)).
    + unfold box_call in E. destruct (box s f n) as [(f1 & n1)|] eqn:E1; [|discriminate]. destruct (box_list s l n1) as [(l1 & n2)|] eqn:E2; [|discriminate].
      injection E as <- <-. pose proof (IHf _ _ _ _ (old_l _ _ _ n O (Z.le_refl n)) E1) as F1. cbn [binders].
      eapply from_app; [exact O | exact F1|]. apply (list_from _ _ IHl _ _ _ (old_r _ _ _ _ O (proj1 (proj2 F1))) E2).
  - rewrite box_lambda in E. destruct (box_lam s xs b n) as [((ys & b') & n1)|] eqn:E1; [|discriminate]. injection E as <- <-.
    destruct (lam_from _ _ _ _ _ _ IH O E1) as (Q & F). cbn in Q. subst ys. exact F.
  - rewrite box_fix in E. cbn [binders] in O. destruct (box_lams s ls n) as [(ls' & n1)|] eqn:E1; [|discriminate].
    destruct (box s b n1) as [(b' & n2)|] eqn:E2; [|discriminate]. injection E as <- <-. cbn [binders].
    pose proof (old_r _ _ _ n O (Z.le_refl n)) as O1. pose proof (old_l _ _ _ n O1 (Z.le_refl n)) as O2.
    assert (F1 : from (flat_map (fun l => fst l ++ binders (snd l)) ls) n (flat_map (fun l => fst l ++ binders (snd l)) ls') n1).
    { clear - E1 IHl O2. revert n ls' n1 E1 O2. induction IHl as [|(ys & e) ls He _ IHls]; intros n ls' n1 E1 O2; cbn in E1, O2.
      - injection E1 as <- <-. now apply from_refl.
      - destruct (box_lam s ys e n) as [(y & n3)|] eqn:E3; [|discriminate]. destruct (box_lams s ls n3) as [(l1 & n4)|] eqn:E4; [|discriminate]. injection E1 as <- <-.
        destruct (lam_from _ _ _ _ _ _ He (old_l _ _ _ n O2 (Z.le_refl n)) E3) as (_ & F1). cbn [flat_map].
        eapply from_app; [exact O2 | exact F1 | apply (IHls _ _ _ E4 (old_r _ _ _ _ O2 (proj1 (proj2 F1))))]. }
    eapply from_app; [exact O | apply from_refl, (old_l _ _ _ n O (Z.le_refl n))|].
    eapply from_app; [exact O1 | exact F1 | apply (IHb _ _ _ _ (old_r _ _ _ _ O1 (proj1 (proj2 F1))) E2)].
  - assert (BL : forall y n1, box_lam s [x] b n = Some (y, n1) -> from (binders (ELetcc x b)) n (binders (ELetcc x (snd y))) n1).
    { intros y n1 B. destruct (lam_from s [x] b n y n1 IH O B) as (Q & F). rewrite Q in F. exact F. }
    cbn [box] in E. destruct (var_assigned_in_exp x b) eqn:V.
    + cbn [fresh] in E. destruct (box ((x, mkid (n + 1) XNone) :: s) b (n + 1)) as [(b' & n2)|] eqn:E1; [|discriminate]. injection E as <- <-.
      apply (BL ([x], let_boxes [(x, mkid (n + 1) XNone)] b')). unfold box_lam. cbn. rewrite V. cbn. now rewrite E1.
    + destruct (box s b n) as [(b' & n2)|] eqn:E1; [|discriminate]. injection E as <- <-.
      assert (B : box_lam s [x] b n = Some (([x], let_boxes [] b'), n2)) by (unfold box_lam; cbn; rewrite V; cbn; now rewrite E1).
      apply BL in B. cbn in B. now rewrite app_nil_r in B.
  - cbn in E, O. destruct (box s k n) as [(a1 & n1)|] eqn:E1; [|discriminate]. destruct (box s e n1) as [(b1 & n2)|] eqn:E2; [|discriminate]. injection E as <- <-.
    pose proof (IHk _ _ _ _ (old_l _ _ _ n O (Z.le_refl n)) E1) as F1. cbn.
    eapply from_app; [exact O | exact F1 | apply (IHe _ _ _ _ (old_r _ _ _ _ O (proj1 (proj2 F1))) E2)].
Qed.
Lemma box_distinct e n e' n' : 0 <= n -> distinct n e -> remove_assignments e n = Some (e', n') -> distinct n' e' /\ n <= n'.
Proof.
  intros P (N & R) E. destruct (box_from e [] n e' n') as (N' & L & F); [|exact E|].
  - split; [assumption|]. intros x I. apply R in I. lia.
  - split; [|assumption]. split; [assumption|]. intros x I. destruct (F x I) as [H|H]; [apply R in H; lia | lia].
Qed.
