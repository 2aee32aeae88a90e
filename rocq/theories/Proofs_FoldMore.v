(** Binding occurrences after constant folding, and the hypotheses of the theorems. *)
From Coq Require Import ZArith List Bool Lia.
From Verif Require Import Model_Lit Model_Core Model_Fold Spec_Sem Spec_Free Spec_Scope Spec_Fold Proofs_Sim Proofs_Core Proofs_Free Proofs_Box Proofs_Agree Proofs_LiftOk Proofs_CpsMore Proofs_FoldSem Proofs_FoldRun Proofs_FoldText Proofs_FoldWf.
Import ListNotations.
Open Scope Z_scope.

Lemma few_distinct e n e' n' : n <= n' -> (forall x, (cb x e' <= cb x e + nw n n' x)%nat) -> 0 <= n -> distinct n e -> distinct n' e'.
Proof.
  intros L Q Ln (D1 & D2).
  assert (B : forall x, nw n n' x = 1%nat -> cb x e = 0%nat).
  { intros x W. destruct (Nat.eq_dec (cb x e) 0) as [|Z]; [assumption|]. exfalso. assert (I : In x (binders e)) by (apply (count_occ_In id_dec); unfold cb, cnt in Z; lia).
    specialize (D2 x I). unfold nw in W. destruct (Z.ltb_spec n (ts x)); [lia | discriminate]. }
  assert (W01 : forall x, nw n n' x = 0%nat \/ nw n n' x = 1%nat) by (intros x; unfold nw; destruct (_ && _); auto).
  split.
  - apply (NoDup_count_occ id_dec). intros x. pose proof (proj1 (NoDup_count_occ id_dec (binders e)) D1 x) as C1. specialize (Q x). unfold cb, cnt in *. destruct (W01 x) as [W|W]; [lia|].
    specialize (B x W). lia.
  - intros x I. apply (count_occ_In id_dec) in I. specialize (Q x). unfold cb, cnt in *. destruct (W01 x) as [W|W].
    + assert (J : In x (binders e)) by (apply (count_occ_In id_dec); lia). specialize (D2 x J). lia.
    + unfold nw in W. destruct (Z.ltb_spec n (ts x)); [|discriminate]. destruct (Z.leb_spec (ts x) n'); [lia | discriminate].
Qed.
Lemma cf_list_few f env x l : (forall e n e' n', const_fold f e env n = Some (e', n') -> n <= n' /\ (cb x e' <= cb x e + nw n n' x)%nat) ->
  forall n l' n', cf_list (fun e n => const_fold f e env n) l n = Some (l', n') -> n <= n' /\ (cbs x l' <= cbs x l + nw n n' x)%nat.
Proof.
  intros IH. induction l as [|e l IHl]; intros n l' n' E; cbn [cf_list] in E; [injection E as <- <-; split; [lia | apply Nat.le_add_r]|].
  destruct (const_fold f e env n) as [(e1 & n1)|] eqn:E1; [|discriminate]. destruct (cf_list _ l n1) as [(l2 & n2)|] eqn:E2; [|discriminate]. injection E as <- <-.
  destruct (IH _ _ _ _ E1) as (L1 & Q1). destruct (IHl _ _ _ E2) as (L2 & Q2). rewrite !cbs_cons. pose proof (nw_add n n1 n2 x L1 L2). split; lia.
Qed.
Lemma cf_lams_few f env x l : (forall e n e' n', const_fold f e env n = Some (e', n') -> n <= n' /\ (cb x e' <= cb x e + nw n n' x)%nat) ->
  forall n l' n', cf_lams (fun e n => const_fold f e env n) l n = Some (l', n') -> n <= n' /\ (cbl x l' <= cbl x l + nw n n' x)%nat.
Proof.
  intros IH. induction l as [|(xs & e) l IHl]; intros n l' n' E; cbn [cf_lams] in E; [injection E as <- <-; split; [lia | apply Nat.le_add_r]|].
  destruct (const_fold f e env n) as [(e1 & n1)|] eqn:E1; [|discriminate]. destruct (cf_lams _ l n1) as [(l2 & n2)|] eqn:E2; [|discriminate]. injection E as <- <-.
  destruct (IH _ _ _ _ E1) as (L1 & Q1). destruct (IHl _ _ _ E2) as (L2 & Q2). rewrite !cbl_cons. cbn [fst snd]. pose proof (nw_add n n1 n2 x L1 L2). split; lia.
Qed.
Lemma begin_few x a u n e n' : begin_exp a u n = (e, n') -> n <= n' /\ (cb x e <= cb x a + cb x u + nw n n' x)%nat.
Proof. unfold begin_exp. cbn [fresh]. intros [= <- <-]. pose proof (nw_one n XNone x). split; [lia|]. sums. lia. Qed.
Theorem fold_few x f : forall e env n e' n', const_fold f e env n = Some (e', n') -> n <= n' /\ (cb x e' <= cb x e + nw n n' x)%nat.
Proof.
  induction f as [|f IH]; intros e env n e' n' E; [discriminate|].
  destruct e as [y|y e1|a b c|ef p l|rator rands|ids b|ids lams b|y b|k e1]; cbn [const_fold] in E.
  - injection E as <- <-. split; lia.
  - destruct (global_id y); [|discriminate]. destruct (const_fold f e1 env n) as [(f1 & n1)|] eqn:E1; [|discriminate]. injection E as <- <-. destruct (IH _ _ _ _ _ E1). split; [assumption | sums; lia].
  - destruct (const_fold f a env n) as [(a' & n1)|] eqn:E1; [|discriminate]. destruct (const_fold f b env n1) as [(b' & n2)|] eqn:E2; [|discriminate]. destruct (const_fold f c env n2) as [(c' & n3)|] eqn:E3; [|discriminate].
    destruct (IH _ _ _ _ _ E1) as (L1 & Q1), (IH _ _ _ _ _ E2) as (L2 & Q2), (IH _ _ _ _ _ E3) as (L3 & Q3). pose proof (nw_add n n1 n2 x L1 L2). pose proof (nw_add n n2 n3 x ltac:(lia) L3).
    destruct (fold_typecheck a' env) as [k|].
    + assert (E' : begin_exp a' (if k then b' else c') n3 = (e', n')) by congruence. destruct (begin_few x _ _ _ _ _ E') as (L4 & Q4). pose proof (nw_add n n3 n' x ltac:(lia) L4). split; [lia|]. sums. destruct k; lia.
    + injection E as <- <-. split; [lia|]. sums. lia.
  - destruct (cf_list _ l n) as [(l' & n1)|] eqn:E1; [|discriminate]. injection E as <- <-. destruct (cf_list_few f env x l (fun e => IH e env) _ _ _ E1). split; [assumption | sums; lia].
  - destruct (degenerate_let (EApp rator rands)) as [b|] eqn:DL.
    + destruct (IH _ _ _ _ _ E) as (L1 & Q1). split; [assumption|]. destruct (degenerate_inv _ _ DL) as [D|(z & D)]; rewrite D; sums; lia.
    + destruct (begin_view (EApp rator rands)) as [(e1 & e2)|] eqn:BV.
      * destruct (begin_view_inv _ _ _ BV) as (z & D & NF). rewrite D. destruct (const_fold f e1 env n) as [(f1 & n1)|] eqn:E1; [|discriminate]. destruct (const_fold f e2 _ n1) as [(f2 & n2)|] eqn:E2; [|discriminate].
        destruct (IH _ _ _ _ _ E1) as (L1 & Q1), (IH _ _ _ _ _ E2) as (L2 & Q2). assert (E' : begin_exp f1 f2 n2 = (e', n')) by congruence. destruct (begin_few x _ _ _ _ _ E') as (L4 & Q4).
        pose proof (nw_add n n1 n2 x L1 L2). pose proof (nw_add n n2 n' x ltac:(lia) L4). split; [lia|]. sums. lia.
      * destruct (let_view (EApp rator rands)) as [((ids & rands0) & b)|] eqn:LV.
        -- destruct (let_view_inv _ _ _ _ LV) as (D & _). rewrite D. destruct (cf_list _ rands0 n) as [(l' & n1)|] eqn:E1; [|discriminate]. destruct (const_fold f b _ n1) as [(b' & n2)|] eqn:E2; [|discriminate]. injection E as <- <-.
           destruct (cf_list_few f env x rands0 (fun e => IH e env) _ _ _ E1) as (L1 & Q1), (IH _ _ _ _ _ E2) as (L2 & Q2). pose proof (nw_add n n1 n2 x L1 L2). split; [lia|]. sums. lia.
        -- destruct (const_fold f rator env n) as [(rator' & n1)|] eqn:E1; [|discriminate]. destruct (cf_list _ rands n1) as [(rands' & n2)|] eqn:E2; [|discriminate].
           destruct (IH _ _ _ _ _ E1) as (L1 & Q1), (cf_list_few f env x rands (fun e => IH e env) _ _ _ E2) as (L2 & Q2). pose proof (nw_add n n1 n2 x L1 L2).
           destruct (let_view (EApp rator' rands')) as [?|]; [|injection E as <- <-; split; [lia | sums; lia]]. destruct (IH _ _ _ _ _ E) as (L3 & Q3). pose proof (nw_add n n2 n' x ltac:(lia) L3). split; [lia|]. sums. lia.
  - destruct (const_fold f b env n) as [(b' & n1)|] eqn:E1; [|discriminate]. injection E as <- <-. destruct (IH _ _ _ _ _ E1). split; [assumption | sums; lia].
  - destruct (cf_lams _ lams n) as [(lams' & n1)|] eqn:E1; [|discriminate]. destruct (const_fold f b env n1) as [(b' & n2)|] eqn:E2; [|discriminate]. injection E as <- <-.
    destruct (cf_lams_few f env x lams (fun e => IH e env) _ _ _ E1) as (L1 & Q1), (IH _ _ _ _ _ E2) as (L2 & Q2). pose proof (nw_add n n1 n2 x L1 L2). split; [lia|]. sums. lia.
  - destruct (const_fold f b env n) as [(b' & n1)|] eqn:E1; [|discriminate]. injection E as <- <-. destruct (IH _ _ _ _ _ E1). split; [assumption | sums; lia].
  - destruct (const_fold f k env n) as [(k' & n1)|] eqn:E1; [|discriminate]. destruct (const_fold f e1 env n1) as [(f1 & n2)|] eqn:E2; [|discriminate]. injection E as <- <-.
    destruct (IH _ _ _ _ _ E1) as (L1 & Q1), (IH _ _ _ _ _ E2) as (L2 & Q2). pose proof (nw_add n n1 n2 x L1 L2). split; [lia|]. sums. lia.
Qed.

(** ** The hypotheses *)
Lemma fold_and {A} (F : A -> Prop) l : fold_right (fun e p => F e /\ p) True l <-> Forall F l.
Proof. induction l as [|x l IH]; cbn; split; intros H; auto; [destruct H; constructor; tauto | inversion H; tauto]. Qed.
Lemma no_local_set_eq e : no_local_set e <-> match e with ESet x _ => global_id x = true | _ => True end /\ forall ys e', In (ys, e') (parts e) -> no_local_set e'.
Proof.
  destruct e as [y|y e1|a b c|ef p l|f l|ids b|ids lams b|y b|k e1]; cbn [no_local_set parts]; rewrite ?fold_and, ?Forall_forall.
  - split; [intros _; split; [exact Logic.I | intros ys e' []] | trivial].
  - split; [intros (H & G); split; [exact H | intros ys e' [[= <- <-]|[]]; exact G] | intros (H & G); split; [exact H | apply (G [] e1); now left]].
  - split; [intros (H & G & K); split; [exact Logic.I | intros ys e' [[= <- <-]|[[= <- <-]|[[= <- <-]|[]]]]; assumption]|].
    intros (_ & G). repeat split; [apply (G [] a) | apply (G [] b) | apply (G [] c)]; cbn; auto.
  - split; [intros H; split; [exact Logic.I | intros ys e' J; apply in_map_iff in J; destruct J as (z & [= <- <-] & J); auto] | intros (_ & G) z J; apply (G [] z), in_map_iff; eauto].
  - split; [intros (H & K); split; [exact Logic.I | intros ys e' [[= <- <-]|J]; [exact H | apply in_map_iff in J; destruct J as (z & [= <- <-] & J); auto]]|].
    intros (_ & G). split; [apply (G [] f); now left | intros z J; apply (G [] z); right; apply in_map_iff; eauto].
  - split; [intros H; split; [exact Logic.I | intros ys e' [[= <- <-]|[]]; exact H] | intros (_ & G); apply (G ids b); now left].
  - split.
    + intros (H & K); split; [exact Logic.I | intros ys e' [[= <- <-]|J]; [exact K | apply in_map_iff in J; destruct J as (z & [= <- <-] & J); auto]].
    + intros (_ & G). split; [|apply (G ids b); now left]. intros z J. apply (G (ids ++ fst z) (snd z)). right. apply in_map_iff. eauto.
  - split; [intros H; split; [exact Logic.I | intros ys e' [[= <- <-]|[]]; exact H] | intros (_ & G); apply (G [y] b); now left].
  - split; [intros (H & G); split; [exact Logic.I | intros ys e' [[= <- <-]|[[= <- <-]|[]]]; assumption] | intros (_ & G); split; [apply (G [] k) | apply (G [] e1)]; cbn; auto].
Qed.
Lemma spec_wf n X e : no_shadow n X e -> (forall x, free_in x e -> global_id x = true \/ In x X) -> no_local_set e -> local_asserts e -> wf n X e.
Proof.
  induction 1 as [X e A B IH]; intros F N L. apply no_local_set_eq in N. destruct N as (N1 & N2). constructor.
  - split; [intros x Nx; apply F; now apply free_here|]. destruct e as [y|y e1|a b c|ef p l|f l|ids b|ids lams b|y b|k e1]; auto. destruct l as [|a [|]]; auto.
    intros T. destruct (typeassert_prim_ctype p) as [t|] eqn:E; [|contradiction]. apply assert_ok in E. eapply L; [apply po_here | exact E].
  - exact A.
  - intros ys e' I. apply (IH _ _ I).
    + intros x Fx. destruct (in_dec id_dec x ys) as [J|J]; [right; apply in_or_app; now left|]. destruct (F x) as [G|G]; [eapply free_part; eauto | now left | right; apply in_or_app; now right].
    + eauto.
    + intros ef p t a Po. apply (L ef p t a). eapply po_in; eauto.
Qed.
Lemma wf_no_shadow n X e : wf n X e -> no_shadow n X e.
Proof. induction 1 as [X e H B P IH]. constructor; auto. Qed.
Lemma wf_no_set n X e : wf n X e -> no_local_set e.
Proof.
  induction 1 as [X e H B P IH]. apply no_local_set_eq. split; [|auto]. destruct H as (_ & H). destruct e; auto.
Qed.
Lemma wf_asserts n X e : wf n X e -> local_asserts e.
Proof.
  induction 1 as [X e H B P IH]. intros ef p t a Po T. inversion Po as [|ys e1 ? I Po1]; subst; [|eapply IH; eauto].
  destruct H as (_ & H). cbn in H. apply H. apply assert_ok in T. congruence.
Qed.
Lemma parts_NoDup e ys e' : In (ys, e') (parts e) -> NoDup (binders e) -> NoDup ys.
Proof.
  destruct e as [y|y e1|a b c|ef p l|f l|ids b|ids lams b|y b|k e1]; cbn [parts binders]; intros J N.
  - destruct J.
  - destruct J as [[= <- <-]|[]]. constructor.
  - destruct J as [[= <- <-]|[[= <- <-]|[[= <- <-]|[]]]]; constructor.
  - apply in_map_iff in J. destruct J as (z & [= <- <-] & J). constructor.
  - destruct J as [[= <- <-]|J]; [constructor|]. apply in_map_iff in J. destruct J as (z & [= <- <-] & J). constructor.
  - destruct J as [[= <- <-]|[]]. eapply NoDup_app_l; eauto.
  - destruct J as [[= <- <-]|J]; [eapply NoDup_app_l; eauto|]. apply in_map_iff in J. destruct J as ((ps & z) & [= <- <-] & J). cbn [fst snd] in *.
    pose proof (NoDup_app_r _ _ N) as N1. apply NoDup_app_l in N1. pose proof (NoDup_flat (fun l => fst l ++ binders (snd l)) lams (ps, z) N1 J) as N2. cbn [fst snd] in N2.
    assert (D : forall y, In y ids -> ~ In y ps).
    { intros y A B. eapply NoDup_app_no in A; [|exact N]. apply A, in_or_app. left. apply (incl_flat (fun l => fst l ++ binders (snd l)) lams (ps, z) J), in_or_app. now left. }
    apply NoDup_app_l in N. apply NoDup_app_l in N2. clear - N N2 D. induction ids as [|y ids IH]; [assumption|]. inversion N; subst. cbn. constructor.
    + intros K. apply in_app_or in K. destruct K; [contradiction | eapply D; [now left | eassumption]].
    + apply IH; [assumption|]. intros; apply D. now right.
  - destruct J as [[= <- <-]|[]]. constructor; [easy | constructor].
  - destruct J as [[= <- <-]|[[= <- <-]|[]]]; constructor.
Qed.
Lemma distinct_no_shadow n e : forall X, distinct n e -> (forall x, In x X -> ~ In x (binders e)) -> no_shadow n X e.
Proof.
  induction e as [e IH] using parts_ind; intros X (D & R) H. constructor.
  - intros ys e' I. destruct (parts_binders _ _ _ I) as (A & B & C). split; [eapply parts_NoDup; eauto|]. intros y J. split; [|apply R; auto]. intros K. apply (H y K). auto.
  - intros ys e' I. destruct (parts_binders _ _ _ I) as (A & B & C). apply (IH _ _ I); [split; [apply C, D | auto]|].
    intros x J. apply in_app_or in J. destruct J as [J|J]; [now apply C | intros K; apply (H x J); auto].
Qed.

(** ** The folder *)
Lemma foldable_wf n e : foldable n e -> wf n [] e.
Proof. intros (A & B & C & D). apply spec_wf; auto. Qed.
Lemma fold_total_ok fuel e n : 0 <= n -> foldable n e -> (esize e <= fuel)%nat -> exists e' n', constant_fold fuel e n = Some (e', n').
Proof.
  intros L F S. destruct (constant_fold fuel e n) as [(e' & n')|] eqn:E; [eauto|]. exfalso. exact (fold_total fuel e [] n [] S (foldable_wf n e F) L (fun x (K : In x []) => match K with end) E).
Qed.
Lemma fold_wf_ok fuel e n e' n' : 0 <= n -> foldable n e -> constant_fold fuel e n = Some (e', n') ->
  n <= n' /\ foldable n' e' /\ (esize e' <= esize e)%nat /\ (forall x, free_in x e' -> free_in x e) /\ (distinct n e -> distinct n' e').
Proof.
  intros L F E. destruct (fold_inv fuel e [] n e' n' [] E (foldable_wf n e F) L (fun x (K : In x []) => match K with end)) as (L2 & [W Fr Sz _ _]).
  split; [assumption|]. split.
  - split; [now apply wf_no_shadow|]. split; [intros x Fx; apply F, Fr, Fx|]. split; [eapply wf_no_set; eauto | eapply wf_asserts; eauto].
  - split; [assumption|]. split; [assumption|]. intros D. apply (few_distinct e n e' n' L2); [|assumption|assumption]. intros x. exact (proj2 (fold_few x fuel e [] n e' n' E)).
Qed.

(** ** Deciding whether assertions are local *)
Definition ng (a : exp) : bool :=
  match a with EPrim _ _ _ | EApp (EVar _) _ => true | _ => forallb (fun x => negb (global_id x)) (exp_free_vars a) end.
Fixpoint la (f : nat) (e : exp) : bool :=
  match f with
  | O => false
  | S f => match e with EPrim _ p [a] => match typeassert_prim_ctype p with Some _ => ng a | None => true end | _ => true end && forallb (fun p => la f (snd p)) (parts e)
  end.
Lemma ng_ok a : ng a = true -> not_global a.
Proof.
  assert (G : forallb (fun x => negb (global_id x)) (exp_free_vars a) = true -> forall x, free_in x a -> global_id x = false).
  { intros A x F. rewrite forallb_forall in A. apply free_vars_free in F. specialize (A x F). now destruct (global_id x). }
  destruct a as [| | | |f l| | | |]; try exact G; [exact (fun _ => Logic.I)|]. destruct f; try exact G. exact (fun _ => Logic.I).
Qed.
Lemma la_ok f : forall e, la f e = true -> local_asserts e.
Proof.
  induction f as [|f IH]; intros e A; [discriminate|]. cbn [la] in A. apply andb_prop in A. destruct A as (A & B). rewrite forallb_forall in B.
  intros ef p t a Po T. inversion Po as [|ys e1 ? J Po1]; subst; [|exact (IH _ (B _ J) ef p t a Po1 T)].
  apply assert_ok in T. rewrite T in A. now apply ng_ok.
Qed.
