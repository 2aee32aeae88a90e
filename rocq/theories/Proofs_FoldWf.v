(** Constant folding keeps programs well formed, does not make them bigger and always ends. *)
From Coq Require Import ZArith List Bool Lia.
From Verif Require Import Model_Lit Model_Core Model_Fold Spec_Sem Spec_Free Spec_Fold Proofs_Sim Proofs_Core Proofs_Free Proofs_Agree Proofs_FoldSem Proofs_FoldRun Proofs_FoldText.
Import ListNotations.
Open Scope Z_scope.

Definition here (X : list id) (e : exp) : Prop :=
  (forall x, named x e -> global_id x = true \/ In x X) /\
  match e with ESet x _ => global_id x = true | EPrim _ p [a] => typeassert_prim_ctype p <> None -> not_global a | _ => True end.
Inductive wf (n : Z) : list id -> exp -> Prop :=
| wf_i X e : here X e -> (forall ys e', In (ys, e') (parts e) -> NoDup ys /\ forall y, In y ys -> ~ In y X /\ 0 <= ts y <= n) ->
    (forall ys e', In (ys, e') (parts e) -> wf n (ys ++ X) e') -> wf n X e.

Lemma wf_free n X e : wf n X e -> forall x, free_in x e -> global_id x = true \/ In x X.
Proof.
  induction 1 as [X e H B P IH]; intros x F. inversion F as [N|ys e' I NI Fe]; [now apply H|].
  destruct (IH _ _ I x Fe) as [G|G]; [auto|]. apply in_app_or in G. tauto.
Qed.
Lemma wf_scope n X e : wf n X e -> forall X' n', n <= n' -> (forall x, In x X' -> In x X \/ n < ts x) -> (forall x, free_in x e -> In x X -> In x X') -> wf n' X' e.
Proof.
  induction 1 as [X e H B P IH]; intros X' n' L A C. constructor.
  - destruct H as (H1 & H2). split; [|assumption]. intros x N. destruct (H1 x N) as [G|G]; auto. right. apply C; [now apply free_here | assumption].
  - intros ys e' I. destruct (B _ _ I) as (N & F). split; [assumption|]. intros y J. destruct (F y J) as (F1 & F2). split; [|lia]. intros K. destruct (A y K); [auto | lia].
  - intros ys e' I. destruct (B _ _ I) as (N & F). apply (IH _ _ I).
    + assumption.
    + intros x J. apply in_app_or in J. rewrite in_app_iff. destruct J as [J|J]; [auto|]. destruct (A x J); auto.
    + intros x Fx J. apply in_or_app. apply in_app_or in J. destruct J as [J|J]; [now left|]. destruct (in_dec id_dec x ys); [now left|]. right. apply C; [|assumption]. eapply free_part; eauto.
Qed.
Lemma wf_up n X e n' : wf n X e -> n <= n' -> wf n' X e.
Proof. intros W L. eapply wf_scope; eauto. Qed.
Lemma wf_part n X e ys e' : wf n X e -> In (ys, e') (parts e) -> wf n (ys ++ X) e'.
Proof. destruct 1; auto. Qed.
Lemma wf_part0 n X e e' : wf n X e -> In ([], e') (parts e) -> wf n X e'.
Proof. intros W I. exact (wf_part _ _ _ _ _ W I). Qed.
Lemma wf_ids n X e ys e' : wf n X e -> In (ys, e') (parts e) -> NoDup ys /\ forall y, In y ys -> ~ In y X /\ 0 <= ts y <= n.
Proof. intros W I. destruct W as [? ? H B P]. exact (B _ _ I). Qed.
Lemma wf_here n X e : wf n X e -> here X e.
Proof. destruct 1. assumption. Qed.
Lemma wf_cong n n' X e e' : wf n X e -> n <= n' -> here X e' -> Forall2 (fun p p' => fst p' = fst p /\ wf n' (fst p ++ X) (snd p')) (parts e) (parts e') -> wf n' X e'.
Proof.
  intros W L H F. assert (G : forall ys e2, In (ys, e2) (parts e') -> exists e1, In (ys, e1) (parts e) /\ wf n' (ys ++ X) e2).
  { clear - F. induction F as [|(ys0 & e0) (ys1 & e1) l l' (A & B) F IH]; intros ys e2 I; [easy|]. cbn in A, B. subst ys1. destruct I as [[= <- <-]|I]; [exists e0; split; [now left | assumption]|].
    destruct (IH _ _ I) as (e3 & I3 & W3). exists e3. split; [now right | assumption]. }
  constructor; [assumption|..]; intros ys e2 I; destruct (G _ _ I) as (e1 & I1 & W1); [|assumption]. destruct (wf_ids _ _ _ _ _ W I1) as (N & A). split; [assumption|]. intros y J. destruct (A y J). split; [assumption | lia].
Qed.
Lemma free_cong e e' : (forall x, named x e' -> named x e) -> Forall2 (fun p p' => fst p' = fst p /\ forall x, free_in x (snd p') -> free_in x (snd p)) (parts e) (parts e') ->
  forall x, free_in x e' -> free_in x e.
Proof.
  intros N F x H. inversion H as [K|ys e1 I NI Fe]; [apply free_here; auto|]. clear H N. assert (G : exists e0, In (ys, e0) (parts e) /\ free_in x e0); [|destruct G as (e0 & I0 & F0); eapply free_part; eauto].
  induction F as [|(ys0 & e0) (ys1 & e2) l l' (A & B) F IH]; [easy|]. cbn in A, B. subst ys1. destruct I as [[= <- <-]|I]; [exists e0; split; [now left | auto]|]. destruct (IH I) as (e3 & I3 & F3). exists e3. split; [now right | assumption].
Qed.
Lemma esize_pos e : (1 <= esize e)%nat.
Proof. destruct e; cbn; lia. Qed.

(** ** What one call of the folder does *)
Record folds (X : list id) (n' : Z) (e e' : exp) : Prop := {
  fo_wf : wf n' X e';
  fo_free : forall x, free_in x e' -> free_in x e;
  fo_size : (esize e' <= esize e)%nat;
  fo_lam : is_lam e' = true -> is_lam e = false -> (esize e' < esize e)%nat;
  fo_local : not_global e -> not_global e' }.
Lemma no_globals_not_global e : (forall x, free_in x e -> global_id x = false) -> not_global e.
Proof. intros H. destruct e as [| | | |[]| | | |]; cbn [not_global]; auto. Qed.
Lemma folds_up X n1 n2 e e' : n1 <= n2 -> folds X n1 e e' -> folds X n2 e e'.
Proof. intros L []. split; auto. now apply wf_up with n1. Qed.
Lemma folds_refl X n e : wf n X e -> folds X n e e.
Proof. intros W. split; auto. congruence. Qed.
Lemma folds_trans X n e e1 e2 : folds X n e e1 -> folds X n e1 e2 -> folds X n e e2.
Proof.
  intros [A1 B1 C1 D1 E1] [A2 B2 C2 D2 E2]. split; auto; [lia|]. intros L NL. destruct (is_lam e1) eqn:L1; [specialize (D1 eq_refl NL); lia | specialize (D2 L eq_refl); lia].
Qed.
(** other forms keep their kind *)
Definition keeps (e e' : exp) : Prop :=
  (is_lam e' = true -> is_lam e = true) /\ (not_global e -> (forall x, free_in x e' -> free_in x e) -> not_global e').
Lemma keeps_free e e' : (is_lam e' = true -> is_lam e = true) -> match e with EPrim _ _ _ | EApp (EVar _) _ => False | _ => True end -> keeps e e'.
Proof. intros L H. split; [assumption|]. intros N F. apply no_globals_not_global. intros x Fx. destruct e as [| | | |[]| | | |]; cbn in N; try easy; auto. Qed.
Lemma keeps_same e e' : is_lam e' = is_lam e -> match e' with EPrim _ _ _ | EApp (EVar _) _ => True | _ => False end -> keeps e e'.
Proof. intros L H. split; [congruence|]. intros _ _. destruct e' as [| | | |[]| | | |]; cbn in *; easy. Qed.

Section Fold.
Variable f : nat.
Variable env : tenv.
Hypothesis IH : forall e n e' n' X, const_fold f e env n = Some (e', n') -> wf n X e -> 0 <= n -> (forall x, In x X -> 0 <= ts x <= n) -> n <= n' /\ folds X n' e e'.
Lemma cf_list_inv X l : forall n l' n', cf_list (fun e n => const_fold f e env n) l n = Some (l', n') -> Forall (wf n X) l -> 0 <= n -> (forall x, In x X -> 0 <= ts x <= n) ->
  n <= n' /\ Forall2 (folds X n') l l'.
Proof.
  induction l as [|e l IHl]; intros n l' n' E W P B; cbn [cf_list] in E; [injection E as <- <-; split; [lia | constructor]|].
  destruct (const_fold f e env n) as [(e1 & n1)|] eqn:E1; [|discriminate]. destruct (cf_list _ l n1) as [(l2 & n2)|] eqn:E2; [|discriminate]. injection E as <- <-.
  inversion W as [|? ? W1 W2]; subst. destruct (IH _ _ _ _ _ E1 W1 P B) as (L1 & F1).
  destruct (IHl n1 l2 n2 E2) as (L2 & F2); [eapply Forall_impl; [|exact W2]; intros; now apply wf_up with n | lia | intros x I; specialize (B x I); lia|].
  split; [lia|]. constructor; [now apply folds_up with n1 | assumption].
Qed.
Lemma cf_lams_inv X ids l : forall n l' n', cf_lams (fun e n => const_fold f e env n) l n = Some (l', n') -> Forall (fun l => wf n ((ids ++ fst l) ++ X) (snd l)) l -> 0 <= n ->
  (forall x, In x X -> 0 <= ts x <= n) -> (forall l0 x, In l0 l -> In x (ids ++ fst l0) -> 0 <= ts x <= n) ->
  n <= n' /\ Forall2 (fun l l' => fst l' = fst l /\ folds ((ids ++ fst l) ++ X) n' (snd l) (snd l')) l l'.
Proof.
  induction l as [|(xs & b) l IHl]; intros n l' n' E W P B C; cbn [cf_lams] in E; [injection E as <- <-; split; [lia | constructor]|].
  destruct (const_fold f b env n) as [(e1 & n1)|] eqn:E1; [|discriminate]. destruct (cf_lams _ l n1) as [(l2 & n2)|] eqn:E2; [|discriminate]. injection E as <- <-.
  inversion W as [|? ? W1 W2]; subst. cbn [fst snd] in *. destruct (IH _ _ _ _ _ E1 W1 P) as (L1 & F1).
  { intros x I. apply in_app_or in I. destruct I as [I|I]; [apply (C (xs, b)); [now left | exact I] | auto]. }
  destruct (IHl n1 l2 n2 E2) as (L2 & F2).
  - eapply Forall_impl; [|exact W2]; intros; now apply wf_up with n.
  - lia.
  - intros x I; specialize (B x I); lia.
  - intros l0 x I J. specialize (C l0 x (or_intror I) J). lia.
  - split; [lia|]. constructor; [split; [reflexivity | now apply folds_up with n1] | assumption].
Qed.
End Fold.
Lemma list_sizes X n l l' : Forall2 (folds X n) l l' -> (list_sum (map esize l') <= list_sum (map esize l))%nat.
Proof. unfold list_sum. induction 1 as [|e e' l l' F _ IH]; cbn; [lia|]. apply fo_size in F. lia. Qed.
Lemma list_parts X n l l' : Forall2 (folds X n) l l' -> Forall2 (fun p p' => fst p' = fst p /\ wf n (fst p ++ X) (snd p')) (map (pair []) l) (map (pair []) l').
Proof. induction 1 as [|e e' l l' F _ IH]; cbn; constructor; auto. split; [reflexivity|]. apply F. Qed.
Lemma list_frees X n l l' : Forall2 (folds X n) l l' ->
  Forall2 (fun p p' : list id * exp => fst p' = fst p /\ forall x, free_in x (snd p') -> free_in x (snd p)) (map (pair []) l) (map (pair []) l').
Proof. induction 1 as [|e e' l l' F _ IH]; cbn; constructor; auto. split; [reflexivity|]. apply F. Qed.

Lemma fresh_ok n y n' : fresh XNone n = (y, n') -> 0 <= n -> n' = n + 1 /\ ts y = n + 1 /\ global_id y = false.
Proof. intros [= <- <-] P. cbn [ts]. repeat split. unfold global_id. cbn [ts]. apply Z.ltb_ge. lia. Qed.
(** a sequence that is made anew *)
Lemma begin_ok X n n1 a u e1 n' e : wf n X e -> n <= n1 -> 0 <= n -> (forall x, In x X -> 0 <= ts x <= n1) -> wf n1 X a -> wf n1 X u -> begin_exp a u n1 = (e1, n') ->
  (forall x, free_in x a \/ free_in x u -> free_in x e) -> (2 + esize u + esize a <= esize e)%nat -> match e with EPrim _ _ _ | EApp (EVar _) _ => False | _ => True end ->
  n1 <= n' /\ folds X n' e e1.
Proof.
  intros W L P B Wa Wu E F Sz K. unfold begin_exp in E. destruct (fresh XNone n1) as (y & n2) eqn:Fr. injection E as <- <-. destruct (fresh_ok _ _ _ Fr) as (-> & T & G); [lia|].
  assert (NX : ~ In y X) by (intros I; specialize (B y I); lia).
  assert (FR : forall x, free_in x (EApp (ELam [y] u) [a]) -> free_in x e).
  { intros x H. inversion H as [N|ys e' I NI Fe]; [inversion N|]. destruct I as [[= <- <-]|[[= <- <-]|[]]]; [|auto]. inversion Fe as [N|ys e' I NI2 Fe2]; [inversion N|]. destruct I as [[= <- <-]|[]]. auto. }
  split; [lia|]. split.
  - constructor.
    + split; [intros x N; inversion N | exact I].
    + intros ys e' [[= <- <-]|[[= <- <-]|[]]]; (split; [constructor | easy]).
    + intros ys e' [[= <- <-]|[[= <- <-]|[]]]; [|now apply wf_up with n1; [assumption | lia]]. constructor.
      * split; [intros x N; inversion N | exact I].
      * intros ys e' [[= <- <-]|[]]. split; [constructor; [easy | constructor]|]. intros z [<-|[]]. split; [assumption | lia].
      * intros ys e' [[= <- <-]|[]]. apply wf_scope with n1 X; [assumption | lia | |].
        -- intros x [<-|I]; [right; lia | now left].
        -- intros x _ I. now right.
  - exact FR.
  - cbn. lia.
  - discriminate.
  - intros N. apply (proj2 (keeps_free e (EApp (ELam [y] u) [a]) ltac:(discriminate) K) N FR).
Qed.
Lemma begin_view_inv e e1 e2 : begin_view e = Some (e1, e2) -> exists x, e = EApp (ELam [x] e2) [e1] /\ ~ free_in x e2.
Proof.
  unfold begin_view, let_view. destruct e as [| | | |[] rands| | | |]; try discriminate. destruct (Nat.eqb _ _); [|discriminate]. destruct xs as [|x []]; try discriminate. destruct rands as [|a []]; try discriminate.
  destruct (var_referenced_in_exp x _) eqn:V; [discriminate|]. intros [= <- <-]. exists x. split; [reflexivity|]. rewrite <- referenced_free. congruence.
Qed.
Lemma let_view_inv e ids rands b : let_view e = Some (ids, rands, b) -> e = EApp (ELam ids b) rands /\ length ids = length rands.
Proof. unfold let_view. destruct e as [| | | |[] l| | | |]; try discriminate. destruct (Nat.eqb_spec (length xs) (length l)); [|discriminate]. intros [= <- <- <-]. auto. Qed.
Lemma degenerate_inv e b : degenerate_let e = Some b -> e = EApp (ELam [] b) [] \/ exists x, e = EApp (ELam [x] (EVar x)) [b].
Proof.
  unfold degenerate_let. destruct e as [| | | |[| | | | |xs e| | |] l| | | |]; try discriminate. destruct xs as [|x [|]]; try discriminate.
  - destruct l; [|discriminate]. intros [= <-]. now left.
  - destruct e; try discriminate. destruct l as [|a [|]]; try discriminate. destruct (id_eqb x _) eqn:E; [|discriminate]. apply id_eqb_eq in E. subst. intros [= <-]. right. eauto.
Qed.

Lemma folds_inner X n e b e' : folds X n b e' -> (forall x, free_in x b -> free_in x e) -> (esize b < esize e)%nat -> match e with EPrim _ _ _ | EApp (EVar _) _ => False | _ => True end ->
  folds X n e e'.
Proof.
  intros [A B C D E] F Sz K. split; auto; [lia | intros; lia|]. intros N. apply no_globals_not_global. intros x Fx. destruct e as [| | | |[]| | | |]; cbn [not_global] in N; try easy; auto.
Qed.
Lemma lam_folds X n n' ids b b' : wf n X (ELam ids b) -> n <= n' -> folds (ids ++ X) n' b b' -> folds X n' (ELam ids b) (ELam ids b').
Proof.
  intros W L F1. assert (FR : forall y, free_in y (ELam ids b') -> free_in y (ELam ids b)).
  { apply free_cong; [intros y N; inversion N|]. constructor; [split; [reflexivity | apply F1] | constructor]. }
  split; [|exact FR|cbn; apply fo_size in F1; lia|discriminate|cbn [not_global] in *; auto].
  apply wf_cong with n (ELam ids b); auto; [split; [intros y N; inversion N; subst; auto | exact I]|]. constructor; [split; [reflexivity | apply F1] | constructor].
Qed.
Lemma app_folds X n n' f l f' l' : wf n X (EApp f l) -> n <= n' -> folds X n' f f' -> Forall2 (folds X n') l l' -> (forall x, f = EVar x -> f' = EVar x) ->
  folds X n' (EApp f l) (EApp f' l').
Proof.
  intros W L Ff Fl V. assert (FR : forall y, free_in y (EApp f' l') -> free_in y (EApp f l)).
  { apply free_cong; [intros y N; inversion N|]. cbn [parts]. constructor; [split; [reflexivity | apply Ff] | now apply (list_frees X n')]. }
  split; [|exact FR|cbn; apply fo_size in Ff; apply list_sizes in Fl; lia|discriminate|].
  - apply wf_cong with n (EApp f l); auto; [split; [intros y N; inversion N; subst; auto | exact I]|]. cbn [parts]. constructor; [split; [reflexivity | apply Ff] | now apply (list_parts X)].
  - intros N. destruct f as [x| | | | | | | |]; [rewrite (V x eq_refl); exact I|..]; (apply no_globals_not_global; intros y Fy; apply N; auto).
Qed.

Theorem fold_inv f : forall e env n e' n' X, const_fold f e env n = Some (e', n') -> wf n X e -> 0 <= n -> (forall x, In x X -> 0 <= ts x <= n) -> n <= n' /\ folds X n' e e'.
Proof.
  induction f as [|f IH]; intros e env n e' n' X E W P B; [discriminate|].
  assert (UP : forall n1 x, n <= n1 -> In x X -> 0 <= ts x <= n1) by (intros n1 x L I; specialize (B x I); lia).
  destruct e as [x|x e1|a b c|ef p l|rator rands|ids b|ids lams b|x b|k e1]; cbn [const_fold] in E.
  - injection E as <- <-. split; [lia | now apply folds_refl].
  - destruct (global_id x) eqn:G; [|discriminate]. destruct (const_fold f e1 env n) as [(f1 & n1)|] eqn:E1; [|discriminate]. injection E as <- <-.
    destruct (IH _ _ _ _ _ X E1) as (L1 & F1); [apply (wf_part0 _ _ _ _ W); now left | assumption..|]. split; [assumption|]. 
    assert (FR : forall y, free_in y (ESet x f1) -> free_in y (ESet x e1)).
    { apply free_cong; [intros y N; inversion N; constructor|]. constructor; [split; [reflexivity | apply F1] | constructor]. }
    split; [|exact FR|cbn; apply fo_size in F1; lia|discriminate|].
    + apply wf_cong with n (ESet x e1); auto; [split; [intros y N; inversion N; subst; auto | exact G]|]. constructor; [split; [reflexivity | apply F1] | constructor].
    + intros N. cbn [not_global] in *. auto.
  - destruct (const_fold f a env n) as [(a' & n1)|] eqn:E1; [|discriminate]. destruct (const_fold f b env n1) as [(b' & n2)|] eqn:E2; [|discriminate]. destruct (const_fold f c env n2) as [(c' & n3)|] eqn:E3; [|discriminate].
    assert (Wa := wf_part0 _ _ _ a W (or_introl eq_refl)). assert (Wb := wf_part0 _ _ _ b W (or_intror (or_introl eq_refl))). assert (Wc := wf_part0 _ _ _ c W (or_intror (or_intror (or_introl eq_refl)))).
    destruct (IH _ _ _ _ _ X E1 Wa P B) as (L1 & F1). destruct (IH _ _ _ _ _ X E2) as (L2 & F2); [now apply wf_up with n | lia | auto|]. destruct (IH _ _ _ _ _ X E3) as (L3 & F3); [apply wf_up with n; [assumption | lia] | lia | intros; apply UP; [lia | assumption]|].
    apply (folds_up _ _ n3) in F1; [|lia]. apply (folds_up _ _ n3) in F2; [|lia].
    destruct (fold_typecheck a' env) as [k|].
    + assert (E' : begin_exp a' (if k then b' else c') n3 = (e', n')) by congruence. clear E. rename E' into E. apply (begin_ok X n n3 a' (if k then b' else c') e' n' (EIf a b c)) in E; auto; [|lia|intros; apply UP; [lia | assumption]|apply F1|destruct k; [apply F2 | apply F3]| |].
      * destruct E. split; [lia | assumption].
      * intros x [Fx|Fx]; [apply free_part with [] a; [now left | easy | now apply (fo_free _ _ _ _ F1)]|]. destruct k; [apply free_part with [] b; [cbn; auto | easy | now apply (fo_free _ _ _ _ F2)] | apply free_part with [] c; [cbn; auto | easy | now apply (fo_free _ _ _ _ F3)]].
      * apply fo_size in F1, F2, F3. assert (Pb := esize_pos b). assert (Pc := esize_pos c). cbn. destruct k; lia.
    + injection E as <- <-. split; [lia|].
      assert (FR : forall y, free_in y (EIf a' b' c') -> free_in y (EIf a b c)).
      { apply free_cong; [intros y N; inversion N|]. constructor; [split; [reflexivity | apply F1]|]. constructor; [split; [reflexivity | apply F2]|]. constructor; [split; [reflexivity | apply F3]|]. constructor. }
      split; [|exact FR| |discriminate|].
      * apply wf_cong with n (EIf a b c); auto; [lia|split; [intros y N; inversion N | exact I]|]. constructor; [split; [reflexivity | apply F1]|]. constructor; [split; [reflexivity | apply F2]|]. constructor; [split; [reflexivity | apply F3]|]. constructor.
      * apply fo_size in F1, F2, F3. cbn. lia.
      * cbn [not_global] in *. auto.
  - destruct (cf_list _ l n) as [(l' & n1)|] eqn:E1; [|discriminate]. injection E as <- <-. 
    destruct (cf_list_inv f env (fun e n e' n' X => IH e env n e' n' X) X l n l' n1 E1) as (L1 & F1); auto; [apply Forall_forall; intros e I; apply (wf_part0 _ _ _ _ W); cbn; now apply in_map|]. split; [assumption|].
    split; [| |cbn; apply list_sizes in F1; lia|discriminate|intros _; exact I].
    + apply wf_cong with n (EPrim ef p l); auto; [|now apply (list_parts X)]. split; [intros y N; inversion N|]. destruct (wf_here _ _ _ W) as (_ & H). cbn in H. clear E1 W. destruct F1 as [|a a' l l' F1 F]; [exact I|]. destruct F; [|exact I]. intros T. apply F1. now apply H.
    + apply free_cong; [intros y N; inversion N | now apply (list_frees X n1)].
  - destruct (degenerate_let (EApp rator rands)) as [b|] eqn:DL.
    + destruct (degenerate_inv _ _ DL) as [D|(x & D)]; rewrite D in *; clear D.
      * assert (W2 := wf_part0 _ _ _ b (wf_part0 _ _ _ (ELam [] b) W (or_introl eq_refl)) (or_introl eq_refl)). destruct (IH _ _ _ _ _ X E W2 P B) as (L1 & F1). split; [assumption|].
        apply folds_inner with b; auto; [|cbn; lia]. intros x Fx. apply free_part with [] (ELam [] b); [now left | easy|]. apply free_part with [] b; [now left | easy | assumption].
      * assert (W2 := wf_part0 _ _ _ b W (or_intror (or_introl eq_refl))). destruct (IH _ _ _ _ _ X E W2 P B) as (L1 & F1). split; [assumption|].
        apply folds_inner with b; auto; [|cbn; lia]. intros y Fy. apply free_part with [] b; [cbn; auto | easy | assumption].
    + destruct (begin_view (EApp rator rands)) as [(e1 & e2)|] eqn:BV.
      * destruct (begin_view_inv _ _ _ BV) as (x & D & NF). rewrite D in *. clear D DL BV.
        destruct (const_fold f e1 env n) as [(f1 & n1)|] eqn:E1; [|discriminate]. destruct (const_fold f e2 _ n1) as [(f2 & n2)|] eqn:E2; [|discriminate].
        assert (Wl := wf_part0 _ _ _ (ELam [x] e2) W (or_introl eq_refl)). destruct (wf_ids _ _ _ [x] e2 Wl (or_introl eq_refl)) as (ND & BI).
        assert (W1 := wf_part0 _ _ _ e1 W (or_intror (or_introl eq_refl))). assert (W2 := wf_part _ _ _ [x] e2 Wl (or_introl eq_refl)).
        destruct (IH _ _ _ _ _ X E1 W1 P B) as (L1 & F1). destruct (IH _ _ _ _ _ ([x] ++ X) E2) as (L2 & F2); [now apply wf_up with n | lia | |].
        { intros y [<-|J]; [destruct (BI x (or_introl eq_refl)); lia | auto]. }
        assert (E' : begin_exp f1 f2 n2 = (e', n')) by congruence. clear E. apply (folds_up _ _ n2) in F1; [|assumption].
        apply (begin_ok X n n2 f1 f2 e' n' (EApp (ELam [x] e2) [e1])) in E'; auto.
        -- destruct E'. split; [lia | assumption].
        -- lia.
        -- intros y J. apply UP; [lia | assumption].
        -- apply F1.
        -- apply wf_scope with n2 ([x] ++ X); [apply F2 | lia | intros y J; left; now right|]. intros y Fy [<-|J]; [|assumption]. contradiction NF. now apply (fo_free _ _ _ _ F2).
        -- intros y [Fy|Fy]; [apply free_part with [] e1; [cbn; auto | easy | now apply (fo_free _ _ _ _ F1)]|]. apply (fo_free _ _ _ _ F2) in Fy.
           apply free_part with [] (ELam [x] e2); [now left | easy|]. apply free_part with [x] e2; [now left | intros [<-|[]]; auto | assumption].
        -- apply fo_size in F1, F2. cbn. lia.
      * destruct (let_view (EApp rator rands)) as [((ids & rands0) & b)|] eqn:LV.
        -- destruct (let_view_inv _ _ _ _ LV) as (D & LL). assert (rator = ELam ids b) by congruence. assert (rands0 = rands) by congruence. subst rator rands0. clear D DL BV LV.
           destruct (cf_list _ rands n) as [(l' & n1)|] eqn:E1; [|discriminate]. destruct (const_fold f b _ n1) as [(b' & n2)|] eqn:E2; [|discriminate]. injection E as <- <-.
           destruct (cf_list_inv f env (fun e n e' n' X => IH e env n e' n' X) X rands n l' n1 E1) as (L1 & F1); auto; [apply Forall_forall; intros e I; apply (wf_part0 _ _ _ _ W); cbn; right; now apply in_map|].
           assert (Wl := wf_part0 _ _ _ (ELam ids b) W (or_introl eq_refl)). destruct (wf_ids _ _ _ ids b Wl (or_introl eq_refl)) as (ND & BI). assert (W2 := wf_part _ _ _ ids b Wl (or_introl eq_refl)).
           destruct (IH _ _ _ _ _ (ids ++ X) E2) as (L2 & F2); [now apply wf_up with n | lia | |].
           { intros y J. apply in_app_or in J. destruct J as [J|J]; [destruct (BI y J); lia | auto]. }
           split; [lia|]. apply app_folds with n; auto; [lia | apply lam_folds with n; auto; lia | | discriminate].
           clear - F1 L2. induction F1; constructor; auto. now apply folds_up with n1.
        -- destruct (const_fold f rator env n) as [(rator' & n1)|] eqn:E1; [|discriminate]. destruct (cf_list _ rands n1) as [(rands' & n2)|] eqn:E2; [|discriminate].
           assert (Wr := wf_part0 _ _ _ rator W (or_introl eq_refl)). destruct (IH _ _ _ _ _ X E1 Wr P B) as (L1 & F1).
           destruct (cf_list_inv f env (fun e n e' n' X => IH e env n e' n' X) X rands n1 rands' n2 E2) as (L2 & F2); [apply Forall_forall; intros e I; apply wf_up with n; [apply (wf_part0 _ _ _ _ W); cbn; right; now apply in_map | assumption]|lia|auto|].
           assert (FA : folds X n2 (EApp rator rands) (EApp rator' rands')).
           { apply app_folds with n; auto; [lia | now apply folds_up with n1|]. intros x ->. destruct f; [discriminate|]. cbn in E1. congruence. }
           destruct (let_view (EApp rator' rands')) as [?|].
           ++ destruct (IH _ _ _ _ _ X E) as (L3 & F3); [apply FA | lia | intros; apply UP; [lia | assumption]|]. split; [lia|]. apply folds_trans with (EApp rator' rands'); [now apply folds_up with n2 | assumption].
           ++ injection E as <- <-. split; [lia | assumption].
  - destruct (const_fold f b env n) as [(b' & n1)|] eqn:E1; [|discriminate]. injection E as <- <-. destruct (wf_ids _ _ _ ids b W (or_introl eq_refl)) as (ND & BI).
    destruct (IH _ _ _ _ _ (ids ++ X) E1) as (L1 & F1); [apply (wf_part _ _ _ _ _ W); now left | assumption | intros y J; apply in_app_or in J; destruct J as [J|J]; [apply BI, J | auto] |]. split; [assumption|].
    assert (FR : forall y, free_in y (ELam ids b') -> free_in y (ELam ids b)).
    { apply free_cong; [intros y N; inversion N|]. constructor; [split; [reflexivity | apply F1] | constructor]. }
    split; [|exact FR|cbn; apply fo_size in F1; lia|discriminate|cbn [not_global] in *; auto].
    apply wf_cong with n (ELam ids b); auto; [split; [intros y N; inversion N; subst; auto | exact I]|]. constructor; [split; [reflexivity | apply F1] | constructor].
  - destruct (cf_lams _ lams n) as [(lams' & n1)|] eqn:E1; [|discriminate]. destruct (const_fold f b env n1) as [(b' & n2)|] eqn:E2; [|discriminate]. injection E as <- <-.
    destruct (cf_lams_inv f env (fun e n e' n' X => IH e env n e' n' X) X ids lams n lams' n1 E1) as (L1 & F1); auto.
    { apply Forall_forall. intros l I. apply (wf_part _ _ _ _ _ W). right. apply in_map_iff. eauto. }
    { intros l y I J. apply (wf_ids _ _ _ (ids ++ fst l) (snd l) W); [|assumption]. right. apply in_map_iff. eauto. }
    destruct (wf_ids _ _ _ ids b W (or_introl eq_refl)) as (ND & BI). assert (W2 := wf_part _ _ _ ids b W (or_introl eq_refl)).
    destruct (IH _ _ _ _ _ (ids ++ X) E2) as (L2 & F2); [now apply wf_up with n | lia | |].
    { intros y J. apply in_app_or in J. destruct J as [J|J]; [destruct (BI y J); lia | auto]. }
    assert (F3 : Forall2 (fun l l' => fst l' = fst l /\ folds ((ids ++ fst l) ++ X) n2 (snd l) (snd l')) lams lams').
    { clear - F1 L2. induction F1 as [|? ? ? ? (? & ?)]; constructor; auto. split; [assumption | now apply folds_up with n1]. }
    clear F1. split; [lia|]. assert (FR : forall y, free_in y (EFix ids lams' b') -> free_in y (EFix ids lams b)).
    { apply free_cong; [intros y N; inversion N|]. cbn [parts]. constructor; [split; [reflexivity | apply F2]|]. clear - F3. induction F3 as [|? ? ? ? (A & F)]; cbn; constructor; auto. cbn. rewrite A. split; [reflexivity | apply F]. }
    split; [|exact FR| |discriminate|cbn [not_global] in *; auto].
    + apply wf_cong with n (EFix ids lams b); auto; [lia | split; [intros y N; inversion N | exact I]|]. cbn [parts]. constructor; [split; [reflexivity | apply F2]|]. clear - F3. induction F3 as [|? ? ? ? (A & F)]; cbn; constructor; auto. cbn. rewrite A. split; [reflexivity | apply F].
    + apply fo_size in F2. cbn. assert (Sz : (list_sum (map (fun l => esize (snd l)) lams') <= list_sum (map (fun l => esize (snd l)) lams))%nat).
      { clear - F3. unfold list_sum. induction F3 as [|? ? ? ? (A & F)]; cbn; [lia|]. apply fo_size in F. lia. }
      lia.
  - destruct (const_fold f b env n) as [(b' & n1)|] eqn:E1; [|discriminate]. injection E as <- <-. destruct (wf_ids _ _ _ [x] b W (or_introl eq_refl)) as (ND & BI).
    destruct (IH _ _ _ _ _ ([x] ++ X) E1) as (L1 & F1); [apply (wf_part _ _ _ _ _ W); now left | assumption | intros y J; apply in_app_or in J; destruct J as [J|J]; [apply BI, J | auto] |]. split; [assumption|].
    assert (FR : forall y, free_in y (ELetcc x b') -> free_in y (ELetcc x b)).
    { apply free_cong; [intros y N; inversion N|]. constructor; [split; [reflexivity | apply F1] | constructor]. }
    split; [|exact FR|cbn; apply fo_size in F1; lia|discriminate|cbn [not_global] in *; auto].
    apply wf_cong with n (ELetcc x b); auto; [split; [intros y N; inversion N; subst; auto | exact I]|]. constructor; [split; [reflexivity | apply F1] | constructor].
  - destruct (const_fold f k env n) as [(k' & n1)|] eqn:E1; [|discriminate]. destruct (const_fold f e1 env n1) as [(f1 & n2)|] eqn:E2; [|discriminate]. injection E as <- <-.
    assert (Wk := wf_part0 _ _ _ k W (or_introl eq_refl)). assert (We := wf_part0 _ _ _ e1 W (or_intror (or_introl eq_refl))).
    destruct (IH _ _ _ _ _ X E1 Wk P B) as (L1 & F1). destruct (IH _ _ _ _ _ X E2) as (L2 & F2); [now apply wf_up with n | lia | auto|]. apply (folds_up _ _ n2) in F1; [|lia]. split; [lia|].
    assert (FR : forall y, free_in y (EWithcc k' f1) -> free_in y (EWithcc k e1)).
    { apply free_cong; [intros y N; inversion N|]. constructor; [split; [reflexivity | apply F1]|]. constructor; [split; [reflexivity | apply F2]|]. constructor. }
    split; [|exact FR| |discriminate|].
    + apply wf_cong with n (EWithcc k e1); auto; [lia|split; [intros y N; inversion N | exact I]|]. constructor; [split; [reflexivity | apply F1]|]. constructor; [split; [reflexivity | apply F2]|]. constructor.
    + apply fo_size in F1, F2. cbn. lia.
    + cbn [not_global] in *. auto.
Qed.

(** ** The folder always ends *)
Lemma sum_in {A} (g : A -> nat) x l : In x l -> (g x <= list_sum (map g l))%nat.
Proof. unfold list_sum. induction l as [|y l IH]; cbn; [easy|]. intros [->|I]; [lia|]. specialize (IH I). lia. Qed.
Lemma cf_list_total f env X l : (forall e n, In e l -> wf n X e -> 0 <= n -> (forall x, In x X -> 0 <= ts x <= n) -> const_fold f e env n <> None) ->
  forall n, Forall (wf n X) l -> 0 <= n -> (forall x, In x X -> 0 <= ts x <= n) -> cf_list (fun e n => const_fold f e env n) l n <> None.
Proof.
  induction l as [|e l IH]; intros H n W P B; cbn [cf_list]; [discriminate|]. inversion W as [|? ? W1 W2]; subst. assert (T := H e n (or_introl eq_refl) W1 P B).
  destruct (const_fold f e env n) as [(e1 & n1)|] eqn:E1; [|contradiction]. destruct (fold_inv _ _ _ _ _ _ _ E1 W1 P B) as (L1 & _).
  assert (T2 : cf_list (fun e n => const_fold f e env n) l n1 <> None).
  { apply IH; [intros; apply H; auto; now right | eapply Forall_impl; [|exact W2]; intros; now apply wf_up with n | lia | intros x I; specialize (B x I); lia]. }
  destruct (cf_list _ l n1) as [(l2 & n2)|]; [discriminate | contradiction].
Qed.
Lemma cf_lams_total f env X ids l : (forall l0 n, In l0 l -> wf n ((ids ++ fst l0) ++ X) (snd l0) -> 0 <= n -> (forall x, In x ((ids ++ fst l0) ++ X) -> 0 <= ts x <= n) -> const_fold f (snd l0) env n <> None) ->
  forall n, Forall (fun l => wf n ((ids ++ fst l) ++ X) (snd l)) l -> 0 <= n -> (forall l0 x, In l0 l -> In x ((ids ++ fst l0) ++ X) -> 0 <= ts x <= n) -> cf_lams (fun e n => const_fold f e env n) l n <> None.
Proof.
  induction l as [|(xs & e) l IH]; intros H n W P B; cbn [cf_lams]; [discriminate|]. inversion W as [|? ? W1 W2]; subst. cbn [fst snd] in *. assert (T := H (xs, e) n (or_introl eq_refl) W1 P (fun x => B (xs, e) x (or_introl eq_refl))).
  cbn [snd] in T. destruct (const_fold f e env n) as [(e1 & n1)|] eqn:E1; [|contradiction]. destruct (fold_inv _ _ _ _ _ _ _ E1 W1 P (fun x => B (xs, e) x (or_introl eq_refl))) as (L1 & _).
  assert (T2 : cf_lams (fun e n => const_fold f e env n) l n1 <> None).
  { apply IH; [intros; apply H; auto; now right | eapply Forall_impl; [|exact W2]; intros; now apply wf_up with n | lia | intros l0 x I J; specialize (B l0 x (or_intror I) J); lia]. }
  destruct (cf_lams _ l n1) as [(l2 & n2)|]; [discriminate | contradiction].
Qed.
Theorem fold_total f : forall e env n X, (esize e <= f)%nat -> wf n X e -> 0 <= n -> (forall x, In x X -> 0 <= ts x <= n) -> const_fold f e env n <> None.
Proof.
  induction f as [|f IH]; intros e env n X Sz W P B; [assert (H := esize_pos e); lia|].
  assert (UP : forall n1 x, n <= n1 -> In x X -> 0 <= ts x <= n1) by (intros n1 x L I; specialize (B x I); lia).
  assert (UPS : forall ys b n1 y, In (ys, b) (parts e) -> n <= n1 -> In y (ys ++ X) -> 0 <= ts y <= n1).
  { intros ys b n1 y I L J. apply in_app_or in J. destruct J as [J|J]; [|auto]. destruct (wf_ids _ _ _ _ _ W I) as (_ & BI). destruct (BI y J). lia. }
  destruct e as [x|x e1|a b c|ef p l|rator rands|ids b|ids lams b|x b|k e1]; cbn [const_fold esize] in *.
  - discriminate.
  - destruct (wf_here _ _ _ W) as (_ & G). cbn in G. rewrite G. assert (T : const_fold f e1 env n <> None) by (apply IH with X; auto; [lia | apply (wf_part0 _ _ _ _ W); now left]).
    destruct (const_fold f e1 env n) as [(? & ?)|]; [discriminate | contradiction].
  - assert (Wa := wf_part0 _ _ _ a W (or_introl eq_refl)). assert (Wb := wf_part0 _ _ _ b W (or_intror (or_introl eq_refl))). assert (Wc := wf_part0 _ _ _ c W (or_intror (or_intror (or_introl eq_refl)))).
    assert (T : const_fold f a env n <> None) by (apply IH with X; auto; lia). destruct (const_fold f a env n) as [(a' & n1)|] eqn:E1; [clear T|contradiction].
    destruct (fold_inv _ _ _ _ _ _ _ E1 Wa P B) as (L1 & F1). assert (T : const_fold f b env n1 <> None) by (apply IH with X; auto; [lia | now apply wf_up with n | lia]). destruct (const_fold f b env n1) as [(b' & n2)|] eqn:E2; [clear T|contradiction].
    destruct (fold_inv _ _ _ _ _ _ X E2) as (L2 & F2); [now apply wf_up with n | lia | auto|]. assert (T : const_fold f c env n2 <> None) by (apply IH with X; [lia | apply wf_up with n; [assumption | lia] | lia | intros; apply UP; [lia | assumption]]).
    destruct (const_fold f c env n2) as [(c' & n3)|] eqn:E3; [|contradiction]. destruct (fold_typecheck a' env); discriminate.
  - assert (T : cf_list (fun e n => const_fold f e env n) l n <> None).
    { apply cf_list_total with X; auto.
      - intros e n1 I We P1 B1. apply IH with X; auto. assert (H := sum_in esize e l I). lia.
      - apply Forall_forall; intros e I; apply (wf_part0 _ _ _ _ W); cbn; now apply in_map. }
    destruct (cf_list _ l n) as [(? & ?)|]; [discriminate | contradiction].
  - destruct (degenerate_let (EApp rator rands)) as [b|] eqn:DL.
    + destruct (degenerate_inv _ _ DL) as [D|(x & D)]; injection D as -> ->; cbn in Sz.
      * apply IH with X; auto; [lia|]. exact (wf_part0 _ _ _ b (wf_part0 _ _ _ (ELam [] b) W (or_introl eq_refl)) (or_introl eq_refl)).
      * apply IH with X; auto; [lia|]. exact (wf_part0 _ _ _ b W (or_intror (or_introl eq_refl))).
    + destruct (begin_view (EApp rator rands)) as [(e1 & e2)|] eqn:BV.
      * destruct (begin_view_inv _ _ _ BV) as (x & D & NF). injection D as -> ->. cbn in Sz. clear DL BV.
        assert (Wl := wf_part0 _ _ _ (ELam [x] e2) W (or_introl eq_refl)). destruct (wf_ids _ _ _ [x] e2 Wl (or_introl eq_refl)) as (ND & BI).
        assert (W1 := wf_part0 _ _ _ e1 W (or_intror (or_introl eq_refl))). assert (W2 := wf_part _ _ _ [x] e2 Wl (or_introl eq_refl)).
        assert (T : const_fold f e1 env n <> None) by (apply IH with X; auto; lia). destruct (const_fold f e1 env n) as [(f1 & n1)|] eqn:E1; [clear T|contradiction]. destruct (fold_inv _ _ _ _ _ _ _ E1 W1 P B) as (L1 & F1).
        set (env2 := match fold_typeassert f1 env with Some env2 => env2 | None => env end).
        assert (T : const_fold f e2 env2 n1 <> None).
        { apply IH with ([x] ++ X); [lia | now apply wf_up with n | lia|]. intros y [<-|J]; [destruct (BI x (or_introl eq_refl)); lia | auto]. }
        destruct (const_fold f e2 env2 n1) as [(f2 & n2)|] eqn:E2; [discriminate | contradiction].
      * destruct (let_view (EApp rator rands)) as [((ids & rands0) & b)|] eqn:LV.
        -- destruct (let_view_inv _ _ _ _ LV) as (D & LL). assert (rator = ELam ids b) by congruence. assert (rands0 = rands) by congruence. subst rator rands0. clear D DL BV LV. cbn in Sz.
           assert (Wr : Forall (wf n X) rands) by (apply Forall_forall; intros e I; apply (wf_part0 _ _ _ _ W); cbn; right; now apply in_map).
           assert (T : cf_list (fun e n => const_fold f e env n) rands n <> None).
           { apply cf_list_total with X; auto. intros e n1 I We P1 B1. apply IH with X; auto. assert (H := sum_in esize e rands I). lia. }
           destruct (cf_list _ rands n) as [(l' & n1)|] eqn:E1; [clear T|contradiction].
           destruct (cf_list_inv f env (fun e n e' n' X => fold_inv f e env n e' n' X) X rands n l' n1 E1) as (L1 & F1); auto.
           assert (Wl := wf_part0 _ _ _ (ELam ids b) W (or_introl eq_refl)). destruct (wf_ids _ _ _ ids b Wl (or_introl eq_refl)) as (ND & BI). assert (W2 := wf_part _ _ _ ids b Wl (or_introl eq_refl)).
           set (env2 := combine ids (map (fun r => exp_ctype r env) l') ++ env).
           assert (T : const_fold f b env2 n1 <> None).
           { apply IH with (ids ++ X); [lia | now apply wf_up with n | lia|]. intros y J. apply in_app_or in J. destruct J as [J|J]; [destruct (BI y J); lia | auto]. }
           destruct (const_fold f b env2 n1) as [(b' & n2)|] eqn:E2; [discriminate | contradiction].
        -- assert (Wr := wf_part0 _ _ _ rator W (or_introl eq_refl)).
           assert (T : const_fold f rator env n <> None) by (apply IH with X; auto; lia). destruct (const_fold f rator env n) as [(rator' & n1)|] eqn:E1; [clear T|contradiction]. destruct (fold_inv _ _ _ _ _ _ _ E1 Wr P B) as (L1 & F1).
           assert (Wl : Forall (wf n1 X) rands) by (apply Forall_forall; intros e I; apply wf_up with n; [apply (wf_part0 _ _ _ _ W); cbn; right; now apply in_map | assumption]).
           assert (T : cf_list (fun e n => const_fold f e env n) rands n1 <> None).
           { apply cf_list_total with X; auto; [|lia]. intros e n2 I We P1 B1. apply IH with X; auto. assert (H := sum_in esize e rands I). lia. }
           destruct (cf_list _ rands n1) as [(rands' & n2)|] eqn:E2; [clear T|contradiction].
           destruct (cf_list_inv f env (fun e n e' n' X => fold_inv f e env n e' n' X) X rands n1 rands' n2 E2) as (L2 & F2); auto; [lia|].
           destruct (let_view (EApp rator' rands')) as [((ids & l) & b)|] eqn:LV2; [|discriminate].
           destruct (let_view_inv _ _ _ _ LV2) as (D & LL). assert (rator' = ELam ids b) by congruence. subst rator'.
           assert (NL : is_lam rator = false).
           { destruct rator as [| | | | |ids0 b0| | |]; try reflexivity. exfalso. destruct f; [discriminate|]. cbn [const_fold] in E1. destruct (const_fold f b0 env n) as [(? & ?)|]; [|discriminate]. injection E1 as <- <- <-.
             unfold let_view in LV, LV2. assert (H := Forall2_len _ _ _ F2). rewrite H in LV. destruct (Nat.eqb (length ids0) (length rands')); discriminate. }
           assert (SL := fo_lam _ _ _ _ F1 eq_refl NL). assert (SR := list_sizes _ _ _ _ F2).
           apply IH with X; [cbn [esize] in *; lia | | lia | intros; apply UP; [lia | assumption]].
           apply (fo_wf X n2 (EApp rator rands)). apply app_folds with n; auto; [lia | now apply folds_up with n1|]. intros x ->. destruct f; [discriminate|]. cbn in E1. congruence.
  - assert (T : const_fold f b env n <> None) by (apply IH with (ids ++ X); [lia | apply (wf_part _ _ _ _ _ W); now left | assumption | intros y J; apply (UPS ids b n y); [now left | lia | assumption]]).
    destruct (const_fold f b env n) as [(? & ?)|]; [discriminate | contradiction].
  - assert (Wl : Forall (fun l => wf n ((ids ++ fst l) ++ X) (snd l)) lams) by (apply Forall_forall; intros l I; apply (wf_part _ _ _ _ _ W); right; apply in_map_iff; eauto).
    assert (Bl : forall l x, In l lams -> In x ((ids ++ fst l) ++ X) -> 0 <= ts x <= n) by (intros l x I J; apply (UPS (ids ++ fst l) (snd l) n x); [right; apply in_map_iff; eauto | lia | assumption]).
    assert (T : cf_lams (fun e n => const_fold f e env n) lams n <> None).
    { apply cf_lams_total with X ids; auto. intros l n1 I Wb P1 B1. apply IH with ((ids ++ fst l) ++ X); auto. assert (H := sum_in (fun l => esize (snd l)) l lams I). cbn in H. lia. }
    destruct (cf_lams _ lams n) as [(lams' & n1)|] eqn:E1; [clear T|contradiction].
    destruct (cf_lams_inv f env (fun e n e' n' X => fold_inv f e env n e' n' X) X ids lams n lams' n1 E1) as (L1 & F1); auto.
    { intros l y I J. apply (Bl l y I). apply in_or_app. now left. }
    assert (T : const_fold f b env n1 <> None) by (apply IH with (ids ++ X); [lia | apply wf_up with n; [apply (wf_part _ _ _ _ _ W); now left | assumption] | lia | intros y J; apply (UPS ids b n1 y); [now left | lia | assumption]]).
    destruct (const_fold f b env n1) as [(? & ?)|]; [discriminate | contradiction].
  - assert (T : const_fold f b env n <> None) by (apply IH with ([x] ++ X); [lia | apply (wf_part _ _ _ _ _ W); now left | assumption | intros y J; apply (UPS [x] b n y); [now left | lia | assumption]]).
    destruct (const_fold f b env n) as [(? & ?)|]; [discriminate | contradiction].
  - assert (Wk := wf_part0 _ _ _ k W (or_introl eq_refl)). assert (We := wf_part0 _ _ _ e1 W (or_intror (or_introl eq_refl))).
    assert (T : const_fold f k env n <> None) by (apply IH with X; auto; lia). destruct (const_fold f k env n) as [(k' & n1)|] eqn:E1; [clear T|contradiction]. destruct (fold_inv _ _ _ _ _ _ _ E1 Wk P B) as (L1 & F1).
    assert (T : const_fold f e1 env n1 <> None) by (apply IH with X; auto; [lia | now apply wf_up with n | lia]). destruct (const_fold f e1 env n1) as [(? & ?)|]; [discriminate | contradiction].
Qed.
