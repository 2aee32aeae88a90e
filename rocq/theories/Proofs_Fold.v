(** Constant folding preserves meaning. *)
From Coq Require Import ZArith List Bool Lia.
From Verif Require Import Model_Lit Model_Core Model_Fold Spec_Sem Spec_Free Spec_Fold Proofs_Sim Proofs_Core Proofs_Free Proofs_Agree Proofs_FoldSem Proofs_FoldRun Proofs_FoldText Proofs_FoldWf.
Import ListNotations.
Open Scope Z_scope.
Implicit Types S : env -> Prop.
Implicit Types Q Qt : shape -> Prop.

Section Fold.
Variable P : prim -> script.
Notation TJ := (TJ P).
Notation CF := (CF P).

(** ** Sequences of rewriting steps *)
Lemma Forall2_impl_in {A B} (R R' : A -> B -> Prop) l l' : (forall x y, In x l -> R x y -> R' x y) -> Forall2 R l l' -> Forall2 R' l l'.
Proof. intros H F. induction F as [|x y l l' X F IH]; constructor; [apply H; [now left | assumption] | apply IH; intros; apply H; auto; now right]. Qed.
Lemma cf_mono m : forall e S S' e', (esize e <= m)%nat -> (forall r, S' r -> S r) -> CF S e e' -> CF S' e e'.
Proof.
  induction m as [|m IH]; intros e S S' e' Sz H C; [assert (X := esize_pos e); lia|].
  destruct C as [S x|S x e e' C|S a b c a' b' c' Ca Cb Cc|S k a b c a' u y Ca Cu HT NF|S ef p l l' Cl|S f l f' l' NL Cf Cl|S ids ids' b l b' l' Qs Cl Cb HJ HI|S b b' C|S x e e' G C|S ids b b' C|S ids lams lams' b b' CL C|S x b b' C|S k0 e k0' e' Ck C]; cbn in Sz.
  - constructor.
  - constructor. eapply IH; eauto. lia.
  - constructor; (eapply IH; [|exact H|eassumption]); lia.
  - apply cf_fold with k; [eapply IH; [|exact H|eassumption]; lia| |auto|assumption]. eapply IH; [|exact H|eassumption]. destruct k; lia.
  - constructor. eapply Forall2_impl_in; [|exact Cl]. intros x y I X. eapply IH; [|exact H|eassumption]. assert (K := sum_in esize x l I). lia.
  - constructor; [assumption|eapply IH; [|exact H|eassumption]; lia|]. eapply Forall2_impl_in; [|exact Cl]. intros x y I X. eapply IH; [|exact H|eassumption]. assert (K := sum_in esize x l I). lia.
  - apply cf_let with Qs; auto.
    + eapply Forall2_impl_in; [|exact Cl]. intros x y I X. eapply IH; [|exact H|eassumption]. assert (K := sum_in esize x l I). lia.
    + eapply IH; [| |exact Cb]; [lia|]. intros r1 (r & vs & h & h' & A & B). exists r, vs, h, h'. auto.
  - constructor. eapply IH; [|exact H|eassumption]; lia.
  - constructor; [assumption|]. eapply IH; [|exact H|eassumption]; lia.
  - constructor. eapply IH; [| |eassumption]; [lia|]. intros r1 (r & vs & h & h' & A & B). exists r, vs, h, h'. auto.
  - assert (HF : forall r, fixed ids lams S' r -> fixed ids lams S r) by (intros r (r0 & A & B); exists r0; auto). constructor.
    + eapply Forall2_impl_in; [|exact CL]. intros x y I (A & X). split; [assumption|]. eapply IH; [| |eassumption]; [assert (K := sum_in (fun l => esize (snd l)) x lams I); cbn in K; lia|].
      intros r1 (r & vs & h & h' & A1 & B1). exists r, vs, h, h'. auto.
    + eapply IH; [|exact HF|eassumption]. lia.
  - constructor. eapply IH; [| |eassumption]; [lia|]. intros r1 (r & vs & h & h' & A & B). exists r, vs, h, h'. auto.
  - constructor; (eapply IH; [|exact H|eassumption]); lia.
Qed.
Lemma CF_mono S S' e e' : (forall r, S' r -> S r) -> CF S e e' -> CF S' e e'.
Proof. apply (cf_mono (esize e)). lia. Qed.
Lemma cf_apps S f f' l l' : CF S f f' -> Forall2 (CF S) l l' -> CF S (EApp f l) (EApp f' l').
Proof.
  intros C F. destruct (is_lam f) eqn:L; [|now constructor]. destruct f as [| | | | |ids b| | |]; try discriminate. inversion C as [| | | | | | | | |? ? ? b' C'| | |]; subst.
  apply cf_let with (fun _ => map (fun _ => top) l); auto.
  - apply (CF_mono (ext ids S)); [|assumption]. intros r1 (r & vs & h & h' & A & B & D). exists r, vs, h, h'. auto.
  - intros. apply tj_tops.
Qed.
Lemma cf_refl e : forall S, CF S e e.
Proof.
  induction e as [x|x e IH|a IHa b IHb c IHc|ef p l IH|f l IHf IHl|ids b IH|ids lams b IHl IHb|x b IH|k e IHk IHe] using exp_ind2; intros S; try (constructor; auto; fail).
  - constructor. induction IH; constructor; auto.
  - apply cf_apps; auto. induction IHl; constructor; auto.
  - constructor; auto. assert (G : forall ls, Forall2 (fun l l' => fst l' = fst l /\ CF (ext (fst l) (fixed ids ls S)) (snd l) (snd l')) lams lams) by (intros ls; induction IHl; constructor; auto). apply G.
Qed.
Lemma cfs_refl l S : Forall2 (CF S) l l.
Proof. induction l; constructor; auto. apply cf_refl. Qed.

Inductive chain S : exp -> exp -> Prop :=
| ch_nil e : chain S e e
| ch_cons e e1 e2 : CF S e e1 -> chain S e1 e2 -> chain S e e2.
Lemma chain_trans S a b c : chain S a b -> chain S b c -> chain S a c.
Proof. induction 1; intros; auto. econstructor; eauto. Qed.
Lemma chain_one S a b : CF S a b -> chain S a b.
Proof. intros. econstructor; [eassumption | constructor]. Qed.
Lemma chain_map S S' F a b : (forall x y, CF S x y -> CF S' (F x) (F y)) -> chain S a b -> chain S' (F a) (F b).
Proof. intros H C. induction C; [constructor|]. econstructor; eauto. Qed.
Lemma chain_list S S' F l l' : (forall x y, Forall2 (CF S) x y -> CF S' (F x) (F y)) -> Forall2 (chain S) l l' -> chain S' (F l) (F l').
Proof.
  intros H C. revert F H. induction C as [|x y l l' X C IH]; intros F H; [constructor|]. apply chain_trans with (F (y :: l)).
  - apply (chain_map S S' (fun z => F (z :: l))); [|assumption]. intros a b A. apply H. constructor; [assumption | apply cfs_refl].
  - apply (IH (fun z => F (y :: z))). intros a b A. apply H. constructor; [apply cf_refl | assumption].
Qed.
Lemma chain_refines S e e' : S [] -> chain S e e' -> refines P MDirect MDirect e e'.
Proof.
  intros Sr C. induction C as [e|e e1 e2 C CC IH]; [apply CF_refines with S; [apply cf_refl | assumption]|].
  eapply refines_trans; [|exact IH]. now apply CF_refines with S.
Qed.

(** ** What is known of variables *)
Variable of : list Z -> shape -> bool.
Hypothesis CT : c_types P of.
Definition has (t : list Z) (s : shape) : Prop := dull t = false -> of t s = true.
Definition has_opt (o : option (list Z)) (s : shape) : Prop := match o with Some t => has t s | None => True end.
Definition known (env : tenv) (r : Spec_Sem.env) : Prop := forall x t v, assq x env = Some (Some t) -> lookup r x = Some v -> has t (shape_of v).
Definition inside (X : list id) (env : tenv) : Prop := forall x t, assq x env = Some t -> In x X.

Lemma assq_app {A} x (l : list (id * A)) env : ~ In x (map fst l) -> assq x (l ++ env) = assq x env.
Proof. induction l as [|(y & a) l IH]; cbn [map fst assq app]; [reflexivity|]. intros N. rewrite IH by firstorder. assert (E : x <> y) by (intros ->; apply N; now left). now rewrite (proj2 (id_eqb_neq _ _) E). Qed.
Lemma assq_move {A} x y (a : A) l env : ~ In y (map fst l) -> assq x ((y, a) :: l ++ env) = assq x (l ++ (y, a) :: env).
Proof.
  induction l as [|(z & b) l IH]; intros N; [reflexivity|]. cbn [map fst app assq] in *. rewrite <- IH by firstorder. cbn [assq].
  destruct (id_eqb x z) eqn:E; [|reflexivity]. apply id_eqb_eq in E. subst z. assert (E : x <> y) by (intros ->; apply N; now left). now rewrite (proj2 (id_eqb_neq _ _) E).
Qed.
Lemma combine_fst {A} (ids : list id) (l : list A) x : In x (map fst (combine ids l)) -> In x ids.
Proof. revert l. induction ids as [|y ids IH]; intros [|a l]; cbn; auto; try easy. intros [->|I]; eauto. Qed.
Lemma inside_let X env ids (tys : list (option (list Z))) : inside X env -> inside (ids ++ X) (combine ids tys ++ env).
Proof.
  intros H x t A. apply in_or_app. destruct (in_dec id_dec x ids) as [I|I]; [now left|]. right. rewrite assq_app in A by (intros J; now apply combine_fst in J). eauto.
Qed.
Lemma inside_more X X' env : inside X env -> inside (X' ++ X) env.
Proof. intros H x t A. apply in_or_app. right. eauto. Qed.
Lemma known_let ids : forall X env r tys vs r1 h h', known env r -> inside X env -> NoDup ids -> (forall y, In y ids -> ~ In y X) -> sats (map has_opt tys) vs ->
  bind MDirect ids vs r h = Some (r1, h') -> known (combine ids tys ++ env) r1.
Proof.
  induction ids as [|x ids IH]; intros X env r tys vs r1 h h' K I ND NX H B.
  - destruct vs; [|discriminate]. injection B as <- <-. exact K.
  - destruct vs as [|v vs]; [discriminate|]. cbn [bind] in B. destruct tys as [|ty tys]; [inversion H|]. inversion H as [|? ? ? ? H1 H2]; subst. inversion ND as [|? ? N1 N2]; subst.
    assert (NX1 : ~ In x X) by (apply NX; now left).
    assert (G : known (combine ids tys ++ (x, ty) :: env) r1).
    { apply (IH (x :: X) _ ((x, v) :: r) _ vs r1 h h'); auto.
      - intros y t u A L. rewrite lookup_cons in L. cbn [assq] in A. destruct (id_eqb y x); [|eapply K; eauto]. injection A as ->. injection L as <-. exact H1.
      - intros y t A. cbn [assq] in A. destruct (id_eqb y x) eqn:E; [apply id_eqb_eq in E; now left | right; eauto].
      - intros y J [<-|K2]; [auto|]. apply (NX y); [now right | assumption]. }
    intros y t u A L. apply (G y t u); [|assumption]. cbn [combine app] in A. rewrite assq_move in A; [assumption|]. intros J. now apply combine_fst in J.
Qed.
(** variables that are bound otherwise *)
Lemma bind_other ids : forall vs r h r1 h' x, bind MDirect ids vs r h = Some (r1, h') -> ~ In x ids -> lookup r1 x = lookup r x.
Proof.
  induction ids as [|y ids IH]; intros vs r h r1 h' x B N; destruct vs as [|v vs]; try discriminate; [injection B as <- <-; reflexivity|].
  cbn [bind] in B. rewrite (IH _ _ _ _ _ _ B) by firstorder. rewrite lookup_cons. assert (E : x <> y) by (intros ->; apply N; now left). now rewrite (proj2 (id_eqb_neq _ _) E).
Qed.
Lemma fix_other ids lams r x : ~ In x ids -> lookup (bind_fix ids lams r) x = lookup r x.
Proof.
  unfold bind_fix. assert (G : forall ys i, ~ In x ys -> lookup (bind_fix_from i ys ids lams r) x = lookup r x); [|apply G].
  induction ys as [|y ys IH]; intros i N; cbn [bind_fix_from]; [reflexivity|]. rewrite lookup_cons. assert (E : x <> y) by (intros ->; apply N; now left). rewrite (proj2 (id_eqb_neq _ _) E). apply IH. firstorder.
Qed.
Lemma known_ext ids X env r1 : inside X env -> (forall y, In y ids -> ~ In y X) -> ext ids (known env) r1 -> known env r1.
Proof.
  intros I N (r & vs & h & h' & K & B) x t v A L. apply (K x t v A). rewrite <- (bind_other _ _ _ _ _ _ x B); [assumption|]. intros J. apply (N x J). eauto.
Qed.
Lemma known_fixed ids lams X env r1 : inside X env -> (forall y, In y ids -> ~ In y X) -> fixed ids lams (known env) r1 -> known env r1.
Proof.
  intros I N (r & K & ->) x t v A L. apply (K x t v A). rewrite <- (fix_other ids lams r x); [assumption|]. intros J. apply (N x J). eauto.
Qed.

(** ** Types of expressions *)
Lemma types_ok m : forall e n X env r t, (esize e <= m)%nat -> wf n X e -> (forall x, In x X -> 0 <= ts x <= n) -> inside X env -> known env r -> exp_ctype e env = Some t -> TJ r e (has t).
Proof.
  induction m as [|m IH]; intros e n X env r t Sz W B I K E; [assert (Y := esize_pos e); lia|].
  destruct e as [x|x e1|a b c|ef p l|rator rands|ids b|ids lams b|x b|k e1]; cbn [exp_ctype] in E; try discriminate.
  - destruct (assq x env) as [ty|] eqn:A; [|discriminate]. subst ty. apply tj_var.
    + unfold global_id. apply Z.ltb_ge. apply B. eauto.
    + intros v L. eapply K; eauto.
  - destruct (exp_ctype b env) as [t1|] eqn:E1; [|discriminate]. destruct (exp_ctype c env) as [t2|] eqn:E2; [|discriminate]. destruct (zlist_dec t1 t2) as [<-|]; [|discriminate]. injection E as <-. cbn in Sz.
    apply tj_if; (eapply IH; [| | |exact I|exact K|eassumption]); try lia; eauto; apply (wf_part0 _ _ _ _ W); cbn; auto.
  - eapply tj_prim; [apply tj_tops|]. intros vs w v w' _ Rn D. apply (ct_result P of CT p t vs w v w'); auto; [now apply result_ok | now apply dull_ok].
  - destruct rator as [| | | | |ids b| | |]; try discriminate. destruct (Nat.eqb_spec (length ids) (length rands)) as [L|]; [|discriminate]. cbn in Sz.
    assert (Wl := wf_part0 _ _ _ (ELam ids b) W (or_introl eq_refl)). destruct (wf_ids _ _ _ ids b Wl (or_introl eq_refl)) as (ND & BI). assert (W2 := wf_part _ _ _ ids b Wl (or_introl eq_refl)).
    assert (Wr : forall e, In e rands -> wf n X e) by (intros e J; apply (wf_part0 _ _ _ _ W); cbn; right; now apply in_map).
    apply tj_let with (map has_opt (map (fun r => exp_ctype r env) rands)).
    + assert (G : forall l, (forall e, In e l -> In e rands) -> Forall2 (TJ r) l (map has_opt (map (fun r => exp_ctype r env) l))); [|apply G; auto].
      induction l as [|e l IHl]; intros Sub; cbn [map]; constructor; [|apply IHl; intros; apply Sub; now right]. destruct (exp_ctype e env) as [t1|] eqn:E1; cbn [has_opt]; [|apply tj_top; intros s; exact Logic.I].
      assert (Ie := Sub e (or_introl eq_refl)). eapply IH; [| | |exact I|exact K|eassumption]; eauto. assert (Y := sum_in esize e rands Ie). lia.
    + intros vs r1 h h' H Bi. eapply (IH b n (ids ++ X)); [lia | exact W2 | | apply inside_let; exact I | | exact E].
      * intros y J. apply in_app_or in J. destruct J as [J|J]; [apply BI, J | auto].
      * eapply known_let; eauto. intros y J. apply BI, J.
Qed.
Lemma list_types r n X env l : (forall e, In e l -> wf n X e) -> (forall x, In x X -> 0 <= ts x <= n) -> inside X env -> known env r -> Forall2 (TJ r) l (map has_opt (map (fun e => exp_ctype e env) l)).
Proof.
  intros W B I K. induction l as [|e l IHl]; cbn [map]; constructor; [|apply IHl; intros; apply W; now right].
  destruct (exp_ctype e env) as [t1|] eqn:E1; cbn [has_opt]; [|apply tj_top; intros s; exact Logic.I]. apply (types_ok (esize e) e n X env r t1); auto. apply W. now left.
Qed.
Lemma check_tj m : forall e n X env r k, (esize e <= m)%nat -> wf n X e -> (forall x, In x X -> 0 <= ts x <= n) -> inside X env -> known env r -> fold_typecheck e env = Some k ->
  TJ r e (fun s => truth s = k).
Proof.
  induction m as [|m IH]; intros e n X env r k Sz W B I K E; [assert (Y := esize_pos e); lia|].
  destruct e as [x|x e1|a b c|ef p l|rator rands|ids b|ids lams b|x b|k0 e1]; cbn [fold_typecheck] in E; try discriminate.
  - destruct l as [|a [|]]; try discriminate. destruct (typecheck_prim_ctype p) as [t|] eqn:T; [|discriminate]. destruct (exp_ctype a env) as [u|] eqn:U; [|discriminate].
    destruct (dull t) eqn:D1; [discriminate|]. destruct (dull u) eqn:D2; [discriminate|]. cbn in E. apply check_ok in T.
    assert (J : TJ r a (has u)) by (apply (types_ok (esize a) a n X env r u); auto; apply (wf_part0 _ _ _ _ W); cbn; auto).
    apply tj_prim with [has u]; [constructor; [exact J | constructor]|]. intros vs w v w' H Rn. inversion H as [|? v0 ? vs0 H1 H2]; subst. inversion H2; subst.
    rewrite <- truth_is, (ct_check P of CT p t v0 w v w' T Rn). unfold sat, has in H1. specialize (H1 D2). apply dull_ok in D1, D2.
    destruct (zlist_dec t u) as [<-|N]; injection E as <-; [assumption|]. destruct (of t (shape_of v0)) eqn:O; [|reflexivity]. contradiction N. exact (ct_one P of CT t u _ D1 D2 O H1).
  - destruct rator as [| | | | |ids b| | |]; try discriminate. destruct (Nat.eqb_spec (length ids) (length rands)) as [L|]; [|discriminate]. cbn in Sz.
    assert (Wl := wf_part0 _ _ _ (ELam ids b) W (or_introl eq_refl)). destruct (wf_ids _ _ _ ids b Wl (or_introl eq_refl)) as (ND & BI). assert (W2 := wf_part _ _ _ ids b Wl (or_introl eq_refl)).
    apply tj_let with (map has_opt (map (fun r => exp_ctype r env) rands)).
    + apply list_types with n X; auto. intros e J; apply (wf_part0 _ _ _ _ W); cbn; right; now apply in_map.
    + intros vs r1 h h' H Bi. eapply (IH b n (ids ++ X)); [lia | exact W2 | | apply inside_let; exact I | | exact E].
      * intros y J. apply in_app_or in J. destruct J as [J|J]; [apply BI, J | auto].
      * eapply known_let; eauto. intros y J. apply BI, J.
Qed.
(** ** The passes over expressions *)
Lemma assert_inv n X e env env2 : wf n X e -> fold_typeassert e env = Some env2 -> exists ef p x t, e = EPrim ef p [EVar x] /\ assert_text t p /\ env2 = (x, Some t) :: env /\ global_id x = false /\ In x X.
Proof.
  intros W E. destruct e as [| | |ef p l| | | | |]; try discriminate. destruct l as [|[x| | | | | | | |] [|]]; try discriminate. cbn [fold_typeassert] in E.
  destruct (typeassert_prim_ctype p) as [t|] eqn:T; [|discriminate]. destruct (_ && _); [|discriminate]. injection E as <-. exists ef, p, x, t.
  assert (G : global_id x = false). { destruct (wf_here _ _ _ W) as (_ & H). cbn in H. apply H; [congruence|]. apply free_here. constructor. }
  split; [reflexivity|]. split; [now apply assert_ok|]. split; [reflexivity|]. split; [assumption|].
  assert (Wx := wf_part0 _ _ _ (EVar x) W (or_introl eq_refl)). destruct (wf_here _ _ _ Wx) as (H & _). destruct (H x); [constructor | congruence | assumption].
Qed.
Lemma chain_begin S S2 y e1 f1 e2 f2 y' Qs : chain S e1 f1 -> (forall r, S r -> TJ r f1 (Qs r)) -> (forall r1, after [y] (fun r => [Qs r]) S r1 -> S2 r1) -> chain S2 e2 f2 ->
  ~ free_in y f2 -> ~ free_in y' f2 -> chain S (EApp (ELam [y] e2) [e1]) (EApp (ELam [y'] f2) [f1]).
Proof.
  intros C1 J Sub C2 N N'. apply chain_trans with (EApp (ELam [y] e2) [f1]).
  { apply (chain_map S S (fun z => EApp (ELam [y] e2) [z])); [|assumption]. intros a b A. apply cf_apps; [apply cf_refl | constructor; [assumption | constructor]]. }
  apply chain_trans with (EApp (ELam [y] f2) [f1]).
  { apply (chain_map S2 S (fun z => EApp (ELam [y] z) [f1])); [|assumption]. intros a b A. apply cf_let with (fun r => [Qs r]); [apply cfs_refl | | | now left].
    - now apply (CF_mono S2).
    - intros r Sr. constructor; [auto | constructor]. }
  apply chain_one. apply cf_let with (fun r => [Qs r]); [apply cfs_refl | apply cf_refl | |].
  - intros r Sr. constructor; [auto | constructor].
  - right. exists y, y'. auto.
Qed.
Lemma cf_list_chain f env X l : (forall e n e' n' X, const_fold f e env n = Some (e', n') -> wf n X e -> 0 <= n -> (forall x, In x X -> 0 <= ts x <= n) -> inside X env -> chain (known env) e e') ->
  forall n l' n', cf_list (fun e n => const_fold f e env n) l n = Some (l', n') -> Forall (wf n X) l -> 0 <= n -> (forall x, In x X -> 0 <= ts x <= n) -> inside X env -> Forall2 (chain (known env)) l l'.
Proof.
  intros IH. induction l as [|e l IHl]; intros n l' n' E W Pn B I; cbn [cf_list] in E; [injection E as <- <-; constructor|].
  destruct (const_fold f e env n) as [(e1 & n1)|] eqn:E1; [|discriminate]. destruct (cf_list _ l n1) as [(l2 & n2)|] eqn:E2; [|discriminate]. injection E as <- <-.
  inversion W as [|? ? W1 W2]; subst. destruct (fold_inv _ _ _ _ _ _ _ E1 W1 Pn B) as (L1 & F1). constructor; [eapply IH; eauto|].
  apply (IHl n1 l2 n2 E2); [eapply Forall_impl; [|exact W2]; intros; now apply wf_up with n | lia | intros x J; specialize (B x J); lia | assumption].
Qed.
Lemma cf_lams_chain f env X ids e l : (forall e n e' n' X, const_fold f e env n = Some (e', n') -> wf n X e -> 0 <= n -> (forall x, In x X -> 0 <= ts x <= n) -> inside X env -> chain (known env) e e') ->
  forall n l' n' pre, cf_lams (fun e n => const_fold f e env n) l n = Some (l', n') -> Forall (fun l => wf n ((ids ++ fst l) ++ X) (snd l)) l -> 0 <= n -> (forall l0 x, In l0 l -> In x ((ids ++ fst l0) ++ X) -> 0 <= ts x <= n) ->
  inside X env -> (forall l0 x, In l0 l -> In x (ids ++ fst l0) -> ~ In x X) -> chain (known env) (EFix ids (pre ++ l) e) (EFix ids (pre ++ l') e).
Proof.
  intros IH. induction l as [|(xs & b) l IHl]; intros n l' n' pre E W Pn B I N; cbn [cf_lams] in E; [injection E as <- <-; constructor|].
  destruct (const_fold f b env n) as [(b1 & n1)|] eqn:E1; [|discriminate]. destruct (cf_lams _ l n1) as [(l2 & n2)|] eqn:E2; [|discriminate]. injection E as <- <-.
  inversion W as [|? ? W1 W2]; subst. cbn [fst snd] in *. destruct (fold_inv _ _ _ _ _ _ _ E1 W1 Pn (fun x => B (xs, b) x (or_introl eq_refl))) as (L1 & F1).
  assert (C := IH _ _ _ _ _ E1 W1 Pn (fun x => B (xs, b) x (or_introl eq_refl)) (inside_more _ _ _ I)).
  assert (NI : forall y, In y (ids ++ xs) -> ~ In y X) by (intros y J; exact (N (xs, b) y (or_introl eq_refl) J)).
  apply chain_trans with (EFix ids (pre ++ (xs, b1) :: l) e).
  - apply (chain_map (known env) (known env) (fun z => EFix ids (pre ++ (xs, z) :: l) e)); [|assumption]. intros z z' Cz. constructor; [|apply cf_refl]. set (ls := pre ++ (xs, z) :: l).
    assert (G : forall k, Forall2 (fun l l' => fst l' = fst l /\ CF (ext (fst l) (fixed ids ls (known env))) (snd l) (snd l')) k k) by (induction k; constructor; auto; split; [reflexivity | apply cf_refl]).
    apply Forall2_app; [apply G|]. constructor; [|apply G]. split; [reflexivity|]. cbn [fst snd]. apply (CF_mono (known env)); [|assumption].
    intros r1 E. apply (known_ext xs X); [assumption | intros y J; apply NI; apply in_or_app; now right|]. destruct E as (r & vs & h & h' & K & Bi). exists r, vs, h, h'. split; [|assumption].
    apply (known_fixed ids ls X); [assumption | intros y J; apply NI; apply in_or_app; now left | assumption].
  - assert (R : forall l1, pre ++ (xs, b1) :: l1 = (pre ++ [(xs, b1)]) ++ l1) by (intros; now rewrite <- app_assoc). rewrite (R l), (R l2). apply (IHl n1 l2 n2); auto.
    + eapply Forall_impl; [|exact W2]; intros; now apply wf_up with n.
    + lia.
    + intros l0 x J1 J2. specialize (B l0 x (or_intror J1) J2). lia.
    + intros l0 x J1 J2. exact (N l0 x (or_intror J1) J2).
Qed.

Theorem fold_chain f : forall e env n e' n' X, const_fold f e env n = Some (e', n') -> wf n X e -> 0 <= n -> (forall x, In x X -> 0 <= ts x <= n) -> inside X env -> chain (known env) e e'.
Proof.
  induction f as [|f IH]; intros e env n e' n' X E W Pn B IX; [discriminate|].
  assert (UP : forall n1 x, n <= n1 -> In x X -> 0 <= ts x <= n1) by (intros n1 x L I; specialize (B x I); lia).
  assert (UPS : forall ys b n1 y, In (ys, b) (parts e) -> n <= n1 -> In y (ys ++ X) -> 0 <= ts y <= n1).
  { intros ys b n1 y I L J. apply in_app_or in J. destruct J as [J|J]; [|auto]. destruct (wf_ids _ _ _ _ _ W I) as (_ & BI). destruct (BI y J). lia. }
  destruct e as [x|x e1|a b c|ef p l|rator rands|ids b|ids lams b|x b|k e1]; cbn [const_fold] in E.
  - injection E as <- <-. constructor.
  - destruct (global_id x); [|discriminate]. destruct (const_fold f e1 env n) as [(f1 & n1)|] eqn:E1; [|discriminate]. injection E as <- <-.
    apply (chain_map (known env) _ (ESet x)); [intros; now constructor|]. eapply IH; eauto. apply (wf_part0 _ _ _ _ W). now left.
  - destruct (const_fold f a env n) as [(a' & n1)|] eqn:E1; [|discriminate]. destruct (const_fold f b env n1) as [(b' & n2)|] eqn:E2; [|discriminate]. destruct (const_fold f c env n2) as [(c' & n3)|] eqn:E3; [|discriminate].
    assert (Wa := wf_part0 _ _ _ a W (or_introl eq_refl)). assert (Wb := wf_part0 _ _ _ b W (or_intror (or_introl eq_refl))). assert (Wc := wf_part0 _ _ _ c W (or_intror (or_intror (or_introl eq_refl)))).
    destruct (fold_inv _ _ _ _ _ _ X E1 Wa Pn B) as (L1 & F1). assert (Wb1 := wf_up _ _ _ n1 Wb L1).
    destruct (fold_inv _ _ _ _ _ _ X E2 Wb1) as (L2 & F2); [lia | auto|]. assert (Wc2 : wf n2 X c) by (apply wf_up with n; [assumption | lia]).
    destruct (fold_inv _ _ _ _ _ _ X E3 Wc2) as (L3 & F3); [lia | intros; apply UP; [lia | assumption]|].
    assert (C1 := IH _ _ _ _ _ X E1 Wa Pn B IX). assert (C2 := IH _ _ _ _ _ X E2 Wb1 ltac:(lia) (fun x => UP n1 x L1) IX). assert (C3 := IH _ _ _ _ _ X E3 Wc2 ltac:(lia) (fun x => UP n2 x ltac:(lia)) IX).
    assert (C : chain (known env) (EIf a b c) (EIf a' b' c')).
    { apply chain_trans with (EIf a' b c); [apply (chain_map (known env) _ (fun z => EIf z b c)); [intros; constructor; auto; apply cf_refl | assumption]|].
      apply chain_trans with (EIf a' b' c); [apply (chain_map (known env) _ (fun z => EIf a' z c)); [intros; constructor; auto; apply cf_refl | assumption]|].
      apply (chain_map (known env) _ (fun z => EIf a' b' z)); [intros; constructor; auto; apply cf_refl | assumption]. }
    destruct (fold_typecheck a' env) as [k|] eqn:FT; [|injection E as <- <-; exact C]. apply chain_trans with (EIf a' b' c'); [exact C|].
    assert (E' : begin_exp a' (if k then b' else c') n3 = (e', n')) by congruence. clear E. unfold begin_exp in E'. destruct (fresh XNone n3) as (y & n4) eqn:Fr. injection E' as <- <-. destruct (fresh_ok _ _ _ Fr) as (-> & T & G); [lia|].
    apply chain_one. apply cf_fold with k; [apply cf_refl..| |].
    + intros r K. apply (check_tj (esize a') a' n1 X env r k); auto. apply (fo_wf _ _ _ _ F1).
    + intros Fy. assert (Wu : wf n3 X (if k then b' else c')) by (destruct k; [apply wf_up with n2; [apply F2 | assumption] | apply F3]). destruct (wf_free _ _ _ Wu y Fy) as [Gy|Iy]; [congruence|]. specialize (B y Iy). lia.
  - destruct (cf_list _ l n) as [(l' & n1)|] eqn:E1; [|discriminate]. injection E as <- <-. apply (chain_list (known env) (known env) (EPrim ef p)); [intros; now constructor|].
    apply (cf_list_chain f env X l (fun e n e' n' X => IH e env n e' n' X) n l' n1 E1); auto. apply Forall_forall; intros e I; apply (wf_part0 _ _ _ _ W); cbn; now apply in_map.
  - destruct (degenerate_let (EApp rator rands)) as [b|] eqn:DL.
    + destruct (degenerate_inv _ _ DL) as [D|(x & D)]; rewrite D in *; clear D.
      * assert (W2 := wf_part0 _ _ _ b (wf_part0 _ _ _ (ELam [] b) W (or_introl eq_refl)) (or_introl eq_refl)). apply chain_trans with b; [|eapply IH; eauto]. apply chain_one. apply cf_null. apply cf_refl.
      * assert (W2 := wf_part0 _ _ _ b W (or_intror (or_introl eq_refl))). apply chain_trans with b; [|eapply IH; eauto]. apply chain_one. apply cf_ident; [|apply cf_refl].
        destruct (wf_ids _ _ _ [x] (EVar x) (wf_part0 _ _ _ (ELam [x] (EVar x)) W (or_introl eq_refl)) (or_introl eq_refl)) as (_ & BI). destruct (BI x (or_introl eq_refl)). unfold global_id. apply Z.ltb_ge. lia.
    + destruct (begin_view (EApp rator rands)) as [(e1 & e2)|] eqn:BV.
      * destruct (begin_view_inv _ _ _ BV) as (x & D & NF). rewrite D in *. clear D DL BV.
        destruct (const_fold f e1 env n) as [(f1 & n1)|] eqn:E1; [|discriminate]. destruct (const_fold f e2 _ n1) as [(f2 & n2)|] eqn:E2; [|discriminate].
        assert (Wl := wf_part0 _ _ _ (ELam [x] e2) W (or_introl eq_refl)). destruct (wf_ids _ _ _ [x] e2 Wl (or_introl eq_refl)) as (ND & BI).
        assert (W1 := wf_part0 _ _ _ e1 W (or_intror (or_introl eq_refl))). assert (W2 := wf_part _ _ _ [x] e2 Wl (or_introl eq_refl)).
        destruct (fold_inv _ _ _ _ _ _ X E1 W1 Pn B) as (L1 & F1). assert (W2' := wf_up _ _ _ n1 W2 L1).
        assert (B2 : forall y, In y ([x] ++ X) -> 0 <= ts y <= n1) by (intros y [<-|J]; [destruct (BI x (or_introl eq_refl)); lia | auto]).
        destruct (fold_inv _ _ _ _ _ _ ([x] ++ X) E2 W2') as (L2 & F2); [lia | assumption|].
        assert (E' : begin_exp f1 f2 n2 = (e', n')) by congruence. clear E. unfold begin_exp in E'. destruct (fresh XNone n2) as (y & n4) eqn:Fr. injection E' as <- <-. destruct (fresh_ok _ _ _ Fr) as (-> & T & G); [lia|].
        assert (C1 := IH _ _ _ _ _ X E1 W1 Pn B IX).
        assert (N1 : ~ free_in x f2) by (intros Fx; apply NF; now apply (fo_free _ _ _ _ F2)).
        assert (N2 : ~ free_in y f2).
        { intros Fy. destruct (wf_free _ _ _ (fo_wf _ _ _ _ F2) y Fy) as [Gy|Iy]; [congruence|]. specialize (B2 y Iy). lia. }
        assert (NX : ~ In x X) by (apply BI; now left).
        destruct (fold_typeassert f1 env) as [env2|] eqn:FA.
        -- destruct (assert_inv _ _ _ _ _ (fo_wf _ _ _ _ F1) FA) as (ef & p & z & t & -> & AT & -> & Gz & Iz).
           apply (chain_begin (known env) (known ((z, Some t) :: env)) x e1 _ e2 f2 y (fun r _ => forall v, lookup r z = Some v -> has t (shape_of v))); auto.
           ++ intros r K. apply tj_prim with [fun s => forall v, lookup r z = Some v -> s = shape_of v].
              ** constructor; [|constructor]. apply tj_var; [assumption|]. intros v L v2 L2'. congruence.
              ** intros vs w v w' H Rn u Lu _. inversion H as [|? v0 ? vs0 H1 H2]; subst. inversion H2; subst. unfold sat in H1. rewrite <- (H1 u Lu). exact (ct_assert P of CT p t v0 w v w' AT Rn).
           ++ intros r1 (r & vs & h & h' & K & H & Bi) z' t' v' A L. destruct vs as [|v [|]]; try discriminate. cbn [bind] in Bi. injection Bi as <- <-. inversion H as [|? ? ? ? H1 H2]; subst. unfold sat in H1.
              rewrite lookup_cons in L. cbn [assq] in A. destruct (id_eqb z' x) eqn:Ex.
              ** exfalso. apply id_eqb_eq in Ex. subst z'. destruct (id_eqb x z) eqn:Ez; [apply id_eqb_eq in Ez; subst; auto|]. apply NX. eauto.
              ** destruct (id_eqb z' z) eqn:Ez; [apply id_eqb_eq in Ez; subst z'; injection A as <-; auto | eapply K; eauto].
           ++ eapply IH; [exact E2 | exact W2' | lia | exact B2|]. intros z' t' A. cbn [assq] in A. destruct (id_eqb z' z) eqn:Ez; [apply id_eqb_eq in Ez; subst z'; now right | right; eauto].
        -- apply (chain_begin (known env) (known env) x e1 f1 e2 f2 y (fun _ => top)); auto.
           ++ intros r K. apply tj_top. intros s. exact I.
           ++ intros r1 (r & vs & h & h' & K & H & Bi). apply (known_ext [x] X); [assumption | intros z [<-|[]]; assumption|]. exists r, vs, h, h'. auto.
           ++ eapply IH; [exact E2 | exact W2' | lia | exact B2|]. now apply (inside_more X [x]).
      * destruct (let_view (EApp rator rands)) as [((ids & rands0) & b)|] eqn:LV.
        -- destruct (let_view_inv _ _ _ _ LV) as (D & LL). assert (rator = ELam ids b) by congruence. assert (rands0 = rands) by congruence. subst rator rands0. clear D DL BV LV.
           destruct (cf_list _ rands n) as [(l' & n1)|] eqn:E1; [|discriminate]. destruct (const_fold f b _ n1) as [(b' & n2)|] eqn:E2; [|discriminate]. injection E as <- <-. unfold let_exp.
           assert (Wr : Forall (wf n X) rands) by (apply Forall_forall; intros e I; apply (wf_part0 _ _ _ _ W); cbn; right; now apply in_map).
           destruct (cf_list_inv f env (fun e n e' n' X => fold_inv f e env n e' n' X) X rands n l' n1 E1) as (L1 & F1); auto.
           assert (Wl := wf_part0 _ _ _ (ELam ids b) W (or_introl eq_refl)). destruct (wf_ids _ _ _ ids b Wl (or_introl eq_refl)) as (ND & BI). assert (W2 := wf_up _ _ _ n1 (wf_part _ _ _ ids b Wl (or_introl eq_refl)) L1).
           assert (Wr' : forall e, In e l' -> wf n1 X e) by (clear - F1; induction F1 as [|? ? ? ? F]; intros z I; [easy|]; destruct I as [<-|I]; [apply F | auto]).
           assert (J : forall r, known env r -> Forall2 (TJ r) l' (map has_opt (map (fun r => exp_ctype r env) l'))) by (intros r K; apply list_types with n1 X; auto).
           apply chain_trans with (EApp (ELam ids b) l').
           ++ apply (chain_list (known env) (known env) (EApp (ELam ids b))); [intros; apply cf_apps; [apply cf_refl | assumption]|].
              apply (cf_list_chain f env X rands (fun e n e' n' X => IH e env n e' n' X) n l' n1 E1); auto.
           ++ apply (chain_map (known (combine ids (map (fun r => exp_ctype r env) l') ++ env)) (known env) (fun z => EApp (ELam ids z) l')).
              ** intros z z' Cz. apply cf_let with (fun _ => map has_opt (map (fun r => exp_ctype r env) l')); [apply cfs_refl | | exact J | now left].
                 eapply CF_mono; [|exact Cz]. intros r1 (r & vs & h & h' & K & H & Bi). eapply known_let; eauto. intros y I. apply BI, I.
              ** eapply IH; [exact E2 | exact W2 | lia | | now apply inside_let]. intros y I. apply in_app_or in I. destruct I as [I|I]; [destruct (BI y I); lia | auto].
        -- destruct (const_fold f rator env n) as [(rator' & n1)|] eqn:E1; [|discriminate]. destruct (cf_list _ rands n1) as [(rands' & n2)|] eqn:E2; [|discriminate].
           assert (Wr := wf_part0 _ _ _ rator W (or_introl eq_refl)). destruct (fold_inv _ _ _ _ _ _ X E1 Wr Pn B) as (L1 & F1).
           assert (Wl : Forall (wf n1 X) rands) by (apply Forall_forall; intros e I; apply wf_up with n; [apply (wf_part0 _ _ _ _ W); cbn; right; now apply in_map | assumption]).
           destruct (cf_list_inv f env (fun e n e' n' X => fold_inv f e env n e' n' X) X rands n1 rands' n2 E2) as (L2 & F2); auto; [lia|].
           assert (C : chain (known env) (EApp rator rands) (EApp rator' rands')).
           { apply chain_trans with (EApp rator' rands).
             - apply (chain_map (known env) _ (fun z => EApp z rands)); [intros; apply cf_apps; [assumption | apply cfs_refl]|]. eapply IH; eauto.
             - apply (chain_list (known env) (known env) (EApp rator')); [intros; apply cf_apps; [apply cf_refl | assumption]|].
               apply (cf_list_chain f env X rands (fun e n e' n' X => IH e env n e' n' X) n1 rands' n2 E2); auto. lia. }
           destruct (let_view (EApp rator' rands')) as [?|]; [|injection E as <- <-; exact C].
           apply chain_trans with (EApp rator' rands'); [exact C|]. eapply IH; [exact E | | lia | intros x I; apply (UP n2 x); [lia | exact I] | exact IX].
           apply (fo_wf X n2 (EApp rator rands)). apply app_folds with n; auto; [lia | now apply folds_up with n1|]. intros x ->. destruct f; [discriminate|]. cbn in E1. congruence.
  - destruct (const_fold f b env n) as [(b' & n1)|] eqn:E1; [|discriminate]. injection E as <- <-. destruct (wf_ids _ _ _ ids b W (or_introl eq_refl)) as (ND & BI).
    apply (chain_map (known env) _ (ELam ids)).
    + intros z z' Cz. constructor. eapply CF_mono; [|exact Cz]. intros r1. apply known_ext with X; [assumption|]. intros y J. apply BI, J.
    + eapply IH; [exact E1 | apply (wf_part _ _ _ ids b W); now left | assumption | intros y J; apply (UPS ids b n y); [now left | lia | assumption] | now apply inside_more].
  - destruct (cf_lams _ lams n) as [(lams' & n1)|] eqn:E1; [|discriminate]. destruct (const_fold f b env n1) as [(b' & n2)|] eqn:E2; [|discriminate]. injection E as <- <-.
    assert (Wl : Forall (fun l => wf n ((ids ++ fst l) ++ X) (snd l)) lams) by (apply Forall_forall; intros l I; apply (wf_part _ _ _ _ _ W); right; apply in_map_iff; eauto).
    assert (Bl : forall l x, In l lams -> In x ((ids ++ fst l) ++ X) -> 0 <= ts x <= n) by (intros l x I J; apply (UPS (ids ++ fst l) (snd l) n x); [right; apply in_map_iff; eauto | lia | assumption]).
    destruct (cf_lams_inv f env (fun e n e' n' X => fold_inv f e env n e' n' X) X ids lams n lams' n1 E1) as (L1 & F1); auto.
    { intros l y I J. apply (Bl l y I). apply in_or_app. now left. }
    destruct (wf_ids _ _ _ ids b W (or_introl eq_refl)) as (ND & BI).
    apply chain_trans with (EFix ids lams' b).
    + apply (cf_lams_chain f env X ids b lams (fun e n e' n' X => IH e env n e' n' X) n lams' n1 [] E1); auto.
      intros l y I J. apply (wf_ids _ _ _ (ids ++ fst l) (snd l) W); [|assumption]. right. apply in_map_iff. eauto.
    + apply (chain_map (known env) _ (EFix ids lams')).
      * intros z z' Cz. constructor.
        -- generalize lams' at 1. intros ls. clear. induction lams'; constructor; auto. split; [reflexivity | apply cf_refl].
        -- eapply CF_mono; [|exact Cz]. intros r1. apply known_fixed with X; [assumption|]. intros y J. apply BI, J.
      * eapply IH; [exact E2 | apply wf_up with n; [apply (wf_part _ _ _ ids b W); now left | assumption] | lia | intros y J; apply (UPS ids b n1 y); [now left | lia | assumption] | now apply inside_more].
  - destruct (const_fold f b env n) as [(b' & n1)|] eqn:E1; [|discriminate]. injection E as <- <-. destruct (wf_ids _ _ _ [x] b W (or_introl eq_refl)) as (ND & BI).
    apply (chain_map (known env) _ (ELetcc x)).
    + intros z z' Cz. constructor. eapply CF_mono; [|exact Cz]. intros r1. apply known_ext with X; [assumption|]. intros y J. apply BI, J.
    + eapply IH; [exact E1 | apply (wf_part _ _ _ [x] b W); now left | assumption | intros y J; apply (UPS [x] b n y); [now left | lia | assumption] | now apply (inside_more X [x])].
  - destruct (const_fold f k env n) as [(k' & n1)|] eqn:E1; [|discriminate]. destruct (const_fold f e1 env n1) as [(f1 & n2)|] eqn:E2; [|discriminate]. injection E as <- <-.
    assert (Wk := wf_part0 _ _ _ k W (or_introl eq_refl)). assert (We := wf_part0 _ _ _ e1 W (or_intror (or_introl eq_refl))).
    destruct (fold_inv _ _ _ _ _ _ X E1 Wk Pn B) as (L1 & F1).
    apply chain_trans with (EWithcc k' e1).
    + apply (chain_map (known env) _ (fun z => EWithcc z e1)); [intros; constructor; [assumption | apply cf_refl]|]. eapply IH; eauto.
    + apply (chain_map (known env) _ (EWithcc k')); [intros; constructor; [apply cf_refl | assumption]|]. apply (IH e1 env n1 f1 n2 X E2); [now apply wf_up with n | lia | auto | exact IX].
Qed.
End Fold.
