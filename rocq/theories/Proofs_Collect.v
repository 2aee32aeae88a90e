(** Collections and operands. *)
From Coq Require Import ZArith String List Bool Lia Permutation.
From Verif Require Import Base Model_Lit Model_Core Model_Beta Spec_Sem Spec_Free Spec_Scope Spec_Fold Spec_Cps Spec_Lift Spec_Unbox
  Proofs_Sim Proofs_Core Proofs_Free Proofs_FoldWf Model_CodeGen Spec_CodeGen Spec_Collect Proofs_CodeGen Proofs_CodeGenRun Proofs_CodeGenSome.
Import ListNotations.

Section Collect.
Variable order : list cexp -> list nat.
Variable collects : prim -> bool.
Hypothesis any : any_order order.
Notation clocked := (clocked order collects).
Notation each := (each order collects).
Notation stale_operands := (stale_operands order collects).
Notation stale := (stale order collects).

(** C expressions in which nothing is collected *)
Fixpoint calm (c : cexp) : Prop :=
  match c with
  | XIf a b c => calm a /\ calm b /\ calm c
  | XPrim p l => collects p = false /\ fold_right (fun c q => calm c /\ q) True l
  | _ => True
  end.
(** C expressions in which no old value is used *)
Fixpoint fresh (c : cexp) : Prop :=
  match c with
  | XIf a b c => fresh a /\ fresh b /\ fresh c
  | XPrim p l => fold_right (fun c q => fresh c /\ q) True l /\ ((length l <= 1)%nat \/ Forall calm l)
  | _ => True
  end.
Lemma fold_and (Q : cexp -> Prop) l : fold_right (fun c q => Q c /\ q) True l <-> Forall Q l.
Proof. induction l as [|c l IH]; cbn; [easy|]. rewrite IH, Forall_cons_iff. easy. Qed.
Lemma each_calm l : (forall c, In c l -> forall n o, clocked c n o -> o = Some (n, n)) -> forall is n o, each is l n o -> exists ts, o = Some (ts, n) /\ Forall (eq n) ts.
Proof.
  intros H. induction is as [|i is IH]; intros n o E; inversion E; subst.
  - eauto.
  - match goal with X : clocked ?c n _ |- _ => apply H in X; [injection X as -> ->|eapply nth_error_In; eassumption] end.
    match goal with X : each is l n _ |- _ => apply IH in X; destruct X as (ts' & [= -> ->] & F) end. eauto.
  - match goal with X : clocked ?c n _ |- _ => apply H in X; [discriminate|eapply nth_error_In; eassumption] end.
  - match goal with X : clocked ?c n (Some _) |- _ => apply H in X; [injection X as -> ->|eapply nth_error_In; eassumption] end.
    match goal with X : each is l n _ |- _ => apply IH in X; destruct X as (ts' & X & F); discriminate end.
Qed.
Lemma calm_ok c : calm c -> forall n o, clocked c n o -> o = Some (n, n).
Proof.
  induction c as [i|x|x|a b c IHa IHb IHc|p l IH] using cexp_ind2; intros C n o K; try (now inversion K).
  - cbn [calm] in C. destruct C as (Ca & Cb & Cc). inversion K; subst.
    + match goal with X : clocked a _ _ |- _ => apply (IHa Ca) in X; discriminate end.
    + match goal with X : clocked a _ _ |- _ => apply (IHa Ca) in X; injection X as -> -> end. now apply (IHb Cb).
    + match goal with X : clocked a _ _ |- _ => apply (IHa Ca) in X; injection X as -> -> end. now apply (IHc Cc).
  - cbn [calm] in C. destruct C as (Cp & Cl). rewrite fold_and in Cl. rewrite Forall_forall in IH, Cl. assert (H := each_calm l (fun c I => IH c I (Cl c I))). inversion K; subst.
    + match goal with X : each _ _ _ _ |- _ => apply H in X; destruct X as (ts' & [= -> ->] & _) end. unfold after. now rewrite Cp.
    + match goal with X : each _ _ _ _ |- _ => apply H in X; destruct X as (ts' & [= -> ->] & F) end. rewrite Forall_forall in F. exfalso. match goal with X : In ?t ts' |- _ => apply F in X; congruence end.
    + match goal with X : each _ _ _ _ |- _ => apply H in X; destruct X as (ts' & X & _); discriminate end.
Qed.
Lemma fresh_ok c : fresh c -> forall n o, clocked c n o -> exists m, o = Some (m, m).
Proof.
  induction c as [i|x|x|a b c IHa IHb IHc|p l IH] using cexp_ind2; intros C n o K; try (inversion K; eauto; fail).
  - cbn [fresh] in C. destruct C as (Ca & Cb & Cc). inversion K; subst.
    + match goal with X : clocked a _ _ |- _ => apply (IHa Ca) in X; destruct X; discriminate end.
    + eapply (IHb Cb); eauto.
    + eapply (IHc Cc); eauto.
  - cbn [fresh] in C. destruct C as (Cf & Cl). rewrite fold_and in Cf.
    assert (H : forall n o, each (order l) l n o -> exists ts m, o = Some (ts, m) /\ Forall (eq m) ts).
    { destruct Cl as [L|Cl].
      - clear K. intros n0 o0 E. assert (Pm := any l). destruct l as [|c [|]]; [| |cbn in L; lia].
        + cbn in Pm. apply Permutation_sym, Permutation_nil in Pm. rewrite Pm in E. inversion E; subst. exists [], n0. auto.
        + cbn in Pm. apply Permutation_sym, Permutation_length_1_inv in Pm. rewrite Pm in E. inversion IH as [|? ? IHc _]; subst. inversion Cf as [|? ? Fc _]; subst.
          inversion E; subst; match goal with X : nth_error [c] 0 = Some ?d |- _ => injection X as <- end; match goal with X : clocked c _ _ |- _ => apply (IHc Fc) in X; destruct X as (q9 & X); try discriminate; injection X as -> -> end.
          * match goal with X : each [] _ _ _ |- _ => inversion X; subst end. eauto.
          * match goal with X : each [] _ _ _ |- _ => inversion X end.
      - intros n0 o0 E. rewrite Forall_forall in Cl. apply each_calm in E; [|intros c I; now apply calm_ok, Cl]. destruct E as (ts & -> & F). eauto. }
    inversion K; subst.
    + eauto.
    + match goal with X : each _ _ _ _ |- _ => apply H in X; destruct X as (ts' & m' & [= -> ->] & F) end. rewrite Forall_forall in F. exfalso. match goal with X : In ?t ts' |- _ => apply F in X; congruence end.
    + match goal with X : each _ _ _ _ |- _ => apply H in X; destruct X as (ts' & m' & X & _); discriminate end.
Qed.
Lemma calm_operands l : Forall calm l -> ~ stale_operands l.
Proof.
  intros C. rewrite Forall_forall in C. assert (H := each_calm l (fun c I => calm_ok c (C c I))). intros [n E|n ts m t E I N]; apply H in E; destruct E as (ts' & E & F); [discriminate|].
  injection E as -> ->. rewrite Forall_forall in F. apply F in I. congruence.
Qed.

(** ** The C expressions of the generator *)
Definition tells (e : exp) : Prop := forall ef p l, part_of (EPrim ef p l) e -> collects p = true -> gc_safe_effect ef = false.
Lemma tells_part e ys e' : tells e -> In (ys, e') (parts e) -> tells e'.
Proof. intros T I ef p l H. apply (T ef p l). eapply po_in; eauto. Qed.
Lemma tame_part e ys e' : tame e -> In (ys, e') (parts e) -> tame e'.
Proof. intros T I ef p l H. apply (T ef p l). eapply po_in; eauto. Qed.
Lemma cg_var_calm x r c : cg_var x r = Some c -> calm c.
Proof. unfold cg_var. destruct (label_id x); [discriminate|]. destruct (global_id x); [now intros [= <-]|]. destruct (cvar_type x); [now intros [= <-]|]. destruct (rposq x r); [now intros [= <-] | discriminate]. Qed.
Lemma calm_fresh c : calm c -> fresh c.
Proof.
  induction c as [i|x|x|a b c IHa IHb IHc|p l IH] using cexp_ind2; cbn [calm fresh]; try tauto.
  intros (_ & F). rewrite fold_and in *. split; [|now right]. rewrite Forall_forall in *. auto.
Qed.
Lemma if_cexp a b c r q : cg_cexp (EIf a b c) r = Some q -> exists a' b' c', cg_cexp a r = Some a' /\ cg_cexp b r = Some b' /\ cg_cexp c r = Some c' /\ q = XIf a' b' c'.
Proof. cbn [cg_cexp]. destruct (cg_cexp a r), (cg_cexp b r), (cg_cexp c r); try discriminate. intros [= <-]. eauto 8. Qed.
Lemma prim_cexp_inv ef p l r q : cg_cexp (EPrim ef p l) r = Some q -> exists cs, Forall2 (fun e c => cg_cexp e r = Some c) l cs /\ q = XPrim p cs.
Proof. cbn [cg_cexp]. destruct (all_some _) as [cs|] eqn:E; [|discriminate]. intros [= <-]. exists cs. split; [|reflexivity]. now apply (all_some_in (fun e => cg_cexp e r)). Qed.
Lemma forall2_in {A B} (Q : A -> B -> Prop) l l' b : Forall2 Q l l' -> In b l' -> exists a, In a l /\ Q a b.
Proof. induction 1; [easy|]. intros [<-|I]; [eexists; split; [now left | eassumption]|]. destruct (IHForall2 I) as (a & J & K). exists a. split; [now right | assumption]. Qed.
Lemma safe_calm e : forall r c, tells e -> (forall ef p l, part_of (EPrim ef p l) e -> gc_safe_effect ef = true) -> cg_cexp e r = Some c -> calm c.
Proof.
  induction e as [x|x e IH|a b c0 IHa IHb IHc|ef p l IH|f l IHf IH|xs b IH|xs lams0 b _ IH|x b IH|k e IHk IHe] using exp_ind2; intros r c T G E; try discriminate.
  - now apply cg_var_calm in E.
  - destruct (if_cexp _ _ _ _ _ E) as (a' & b' & c' & Ea & Eb & Ec & ->).
    assert (H : forall ys d, In (ys, d) (parts (EIf a b c0)) -> tells d /\ forall ef p l, part_of (EPrim ef p l) d -> gc_safe_effect ef = true) by (intros ys d I; split; [eapply tells_part; eauto | intros ef p l Q; apply (G ef p l); eapply po_in; eauto]).
    cbn [calm]. split; [|split]; [eapply IHa | eapply IHb | eapply IHc]; try eassumption; apply (H []); cbn; auto.
  - destruct (prim_cexp_inv _ _ _ _ _ E) as (cs & F & ->). cbn [calm]. split.
    + destruct (collects p) eqn:Cp; [|reflexivity]. assert (X := T ef p l (po_here _) Cp). rewrite (G ef p l (po_here _)) in X. discriminate.
    + rewrite fold_and. apply Forall_forall. intros c I. destruct (forall2_in _ _ _ _ F I) as (d & J & Ed). rewrite Forall_forall in IH.
      assert (K : In ([], d) (parts (EPrim ef p l))) by (now apply in_map_pair). apply (IH d J r c); [eapply tells_part; eauto | | assumption]. intros ef' p' l' Q. apply (G ef' p' l'). eapply po_in; eauto.
Qed.
Lemma gcsafe_parts e : cg_gcsafe_cexpp e = true -> forall ef p l, part_of (EPrim ef p l) e -> gc_safe_effect ef = true.
Proof.
  induction e as [x|x e IH|a b c0 IHa IHb IHc|ef p l IH|f l IHf IH|xs b IH|xs lams0 b _ IH|x b IH|k e IHk IHe] using exp_ind2; intros G ef0 p0 l0 H; try discriminate.
  - inversion H as [|ys d ? I]; subst. destruct I.
  - cbn [cg_gcsafe_cexpp] in G. apply andb_prop in G. destruct G as (G & Gc). apply andb_prop in G. destruct G as (Ga & Gb). inversion H as [|ys d ? I Q]; subst.
    destruct I as [[= <- <-]|[[= <- <-]|[[= <- <-]|[]]]]; eauto.
  - cbn [cg_gcsafe_cexpp] in G. apply andb_prop in G. destruct G as (G & Gl). apply andb_prop in G. destruct G as (_ & Ge). inversion H as [|ys d ? I Q]; subst; [assumption|].
    cbn in I. apply in_map_iff in I. destruct I as (d' & [= <- <-] & I). rewrite Forall_forall in IH. rewrite forallb_forall in Gl. eapply IH; eauto.
Qed.
Lemma cexp_fresh e : forall r c, tells e -> tame e -> cg_cexpp e = true -> cg_cexp e r = Some c -> fresh c.
Proof.
  induction e as [x|x e IH|a b c0 IHa IHb IHc|ef p l IH|f l IHf IH|xs b IH|xs lams0 b _ IH|x b IH|k e IHk IHe] using exp_ind2; intros r c T Ta Cp E; try discriminate.
  - apply calm_fresh. now apply cg_var_calm in E.
  - destruct (if_cexp _ _ _ _ _ E) as (a' & b' & c' & Ea & Eb & Ec & ->). cbn [cg_cexpp] in Cp. apply andb_prop in Cp. destruct Cp as (Cp & Cc). apply andb_prop in Cp. destruct Cp as (Ca & Cb).
    assert (H : forall d, In ([], d) (parts (EIf a b c0)) -> tells d /\ tame d) by (intros d I; split; [eapply tells_part; eauto | eapply tame_part; eauto]).
    cbn [fresh]. split; [|split]; [eapply IHa | eapply IHb | eapply IHc]; try eassumption; apply H; cbn; auto.
  - destruct (prim_cexp_inv _ _ _ _ _ E) as (cs & F & ->). cbn [cg_cexpp] in Cp. apply andb_prop in Cp. destruct Cp as (Cp & Cl). rewrite forallb_forall in Cl. cbn [fresh]. split.
    + rewrite fold_and. apply Forall_forall. intros c I. destruct (forall2_in _ _ _ _ F I) as (d & J & Ed). rewrite Forall_forall in IH.
      assert (K : In ([], d) (parts (EPrim ef p l))) by (now apply in_map_pair). apply (IH d J r c); [eapply tells_part; eauto | eapply tame_part; eauto | now apply Cl | assumption].
    + assert (Le : length l = length cs) by (clear - F; induction F; cbn; congruence). destruct (le_lt_dec (length cs) 1) as [L|L]; [now left | right]. apply Forall_forall. intros c I. destruct (forall2_in _ _ _ _ F I) as (d & J & Ed).
      assert (K : In ([], d) (parts (EPrim ef p l))) by (now apply in_map_pair). eapply safe_calm; [eapply tells_part; eauto | | exact Ed]. intros ef' p' l' Q. eapply (Ta ef p l (po_here _) Cp); [lia | exact J | exact Q].
Qed.
Lemma args_calm : forall l r cs r', Forall tells l -> cg_args l r = Some (cs, r') -> Forall calm cs.
Proof.
  induction l as [|e l IH]; intros r cs r' T E; cbn [cg_args] in E; [injection E as <- <-; constructor|]. inversion T; subst. destruct (cg_gcsafe_cexpp e) eqn:G.
  - destruct (cg_cexp e r) as [c|] eqn:Ec; [|discriminate]. destruct (cg_args l r) as [(cs' & r2)|] eqn:Ea; [|discriminate]. injection E as <- <-. constructor; [|eauto]. eapply safe_calm; eauto. now apply gcsafe_parts.
  - destruct (cg_args l (None :: r)) as [(cs' & r2)|] eqn:Ea; [|discriminate]. injection E as <- <-. constructor; [exact I | eauto].
Qed.

(** ** Code.  [tm]: all operations are tame *)
Variable tm : Prop.
Definition fine (s : code) : Prop := match s with KSet _ _ | KIf _ _ _ => tm -> ~ stale s | _ => ~ stale s end.
Definition all_fine (c : code) : Prop := forall s, within s c -> fine s.
Lemma fine_set t c : (tm -> fresh c) -> all_fine (KSet t c).
Proof. intros F s W. inversion W; subst. intros Tm St. inversion St; subst. match goal with X : clocked c _ _ |- _ => apply (fresh_ok c (F Tm)) in X; destruct X; discriminate end. Qed.
Lemma fine_seq a b : all_fine a -> all_fine b -> all_fine (KSeq a b).
Proof. intros A B s W. inversion W; subst; auto. cbn. intros St. inversion St. Qed.
Lemma fine_block x a : all_fine a -> all_fine (KBlock x a).
Proof. intros A s W. inversion W; subst; auto. cbn. intros St. inversion St. Qed.
Lemma fine_if c a b : (tm -> fresh c) -> all_fine a -> all_fine b -> all_fine (KIf c a b).
Proof.
  intros F A B s W. inversion W; subst; auto. intros Tm St. inversion St; subst. match goal with X : clocked c _ _ |- _ => apply (fresh_ok c (F Tm)) in X; destruct X; discriminate end.
Qed.
Lemma fine_prim t p l : Forall calm l -> all_fine (KPrim t p l).
Proof. intros C s W. inversion W; subst. intros St. inversion St; subst. now apply (calm_operands l). Qed.
Lemma fine_clo t p l : Forall calm l -> all_fine (KClo t p l).
Proof. intros C s W. inversion W; subst. intros St. inversion St; subst. now apply (calm_operands l). Qed.
Lemma fine_goto t p l : Forall calm l -> all_fine (KGoto t p l).
Proof. intros C s W. inversion W; subst. intros St. inversion St; subst. now apply (calm_operands l). Qed.
Lemma fine_jump t l : Forall calm l -> all_fine (KJump t l).
Proof. intros C s W. inversion W; subst. intros St. inversion St; subst. now apply (calm_operands l). Qed.
Lemma fine_static x l : all_fine (KStatic x l).
Proof. intros s W. inversion W; subst. intros St. inversion St. Qed.
Hypothesis void_calm : collects the_void_prim = false.
Variable ls : list id.
Variable gcl : list (id * id).
Definition made (e : exp) : Prop := tells e -> (tm -> tame e) -> forall t r c, cg ls gcl e t r = Some c -> all_fine c.
Definition okl (l : list exp) : Prop := Forall (fun e => made e /\ tells e /\ (tm -> tame e)) l.
Lemma okl_list e l : Forall made l -> tells e -> (tm -> tame e) -> (forall x, In x l -> In ([], x) (parts e)) -> okl l.
Proof.
  intros M T Ta I. unfold okl. rewrite Forall_forall in *. intros x J. split; [auto|]. split; [eapply tells_part; eauto | intros Tm; eapply tame_part; [now apply Ta | eauto]].
Qed.
Lemma temps_fine : forall l r k c, okl l -> (forall c', k = Some c' -> all_fine c') -> cg_temps (pairs ls gcl l) r k = Some c -> all_fine c.
Proof.
  induction l as [|e l IH]; intros r k c M K E; [now apply K in E|]. inversion M as [|? ? (Me & Te & Tm) Ml]; subst. unfold pairs in E. cbn [map cg_temps] in E. fold (pairs ls gcl l) in E. destruct (cg_gcsafe_cexpp e); [eauto|].
  destruct (cg ls gcl e (TReg (length r)) r) as [c1|] eqn:E1; [|discriminate]. destruct (cg_temps (pairs ls gcl l) (None :: r) k) as [c2|] eqn:E2; [|discriminate]. injection E as <-.
  apply fine_seq; [eapply Me; eauto | eapply IH; eauto].
Qed.
Lemma primapp_fine l r k c : okl l -> (forall cs n, Forall calm cs -> all_fine (k cs n)) -> cg_primapp (pairs ls gcl l) r k = Some c -> all_fine c.
Proof.
  intros M K. unfold cg_primapp. rewrite pairs_fst. destruct (cg_args l r) as [(cs & r')|] eqn:A; [|discriminate]. intros E. eapply temps_fine; [exact M | | exact E].
  intros c' [= <-]. apply K. eapply args_calm; [|exact A]. unfold okl in M. rewrite Forall_forall in *. intros e I. now apply M.
Qed.
Lemma kseq_inv a b c : kseq a b = Some c -> exists a' b', a = Some a' /\ b = Some b' /\ c = KSeq a' b'.
Proof. unfold kseq. destruct a, b; try discriminate. intros [= <-]. eauto. Qed.
Lemma lets_fine bd t : forall ids l r c, okl l -> (forall r' c', cg ls gcl bd t r' = Some c' -> all_fine c') -> cg_lets ids (map (cg ls gcl) l) r (fun r' => cg ls gcl bd t r') = Some c -> all_fine c.
Proof.
  induction ids as [|x ids IH]; intros l r c M B E; [cbn in E; eauto|]. destruct l as [|e l]; [cbn in E; eauto|]. inversion M as [|? ? (Me & Te & Tm) Ml]; subst. cbn [map cg_lets] in E. destruct (cvar_type x) as [ty|].
  - destruct (kseq _ _) as [q|] eqn:K; [|discriminate]. injection E as <-. destruct (kseq_inv _ _ _ K) as (a & b & Ea & Eb & ->). apply fine_block, fine_seq; [eapply Me; eauto | eapply IH; eauto].
  - destruct (kseq_inv _ _ _ E) as (a & b & Ea & Eb & ->). apply fine_seq; [eapply Me; eauto | eapply IH; eauto].
Qed.
Lemma app_fine f l : (forall xs b, f <> ELam xs b) -> made f -> Forall made l -> made (EApp f l).
Proof.
  intros N Mf Ml T Ta t r c E. rewrite cg_app_eq in E by assumption.
  assert (O : okl (f :: l)) by (eapply okl_list; [constructor; eassumption | exact T | exact Ta |]; intros x [<-|I]; [now left | right; now apply in_map_pair]).
  assert (Goto : forall lb, cg_goto ls gcl lb l r = Some c -> all_fine c) by (intros lb; apply primapp_fine; [now inversion O | intros; now apply fine_goto]).
  assert (Jump : cg_jump ls gcl f l r = Some c -> all_fine c) by (apply (primapp_fine (f :: l)); [assumption | intros; now apply fine_jump]).
  destruct f as [x| | | | | | | |]; auto. destruct (label_id x).
  - destruct (memq x ls); [eauto | discriminate].
  - destruct (gc_label gcl x) as [lb|]; [|auto]. destruct (gc_defined ls gcl x lb); [eauto | discriminate].
Qed.
Lemma lam_fine xs bd : (forall y zs, bd = EApp (EVar y) zs -> Forall made zs) -> made (ELam xs bd).
Proof.
  intros Mz T Ta t r c E. destruct bd as [| | | |[y| | | | | | | |] zs| | | |]; try discriminate.
  assert (Q : cg ls gcl (ELam xs (EApp (EVar y) zs)) t r = match curry_view (ELam xs (EApp (EVar y) zs)) with Some _ => if memq y ls then cg_primapp (rev (skipn (length xs) (pairs ls gcl zs))) r (fun cs _ => KClo t y cs) else None | None => None end) by reflexivity.
  rewrite Q in E. destruct (curry_view _); [|discriminate]. destruct (memq y ls); [|discriminate].
  assert (rev (skipn (length xs) (pairs ls gcl zs)) = pairs ls gcl (rev (skipn (length xs) zs))) as S. { unfold pairs. now rewrite skipn_map, map_rev. }
  rewrite S in E. revert E. apply primapp_fine; [|intros; now apply fine_clo].
  assert (O : okl zs).
  { assert (Tb : tells (EApp (EVar y) zs)) by (eapply tells_part; [exact T | now left]). assert (Tmb : tm -> tame (EApp (EVar y) zs)) by (intros Tm; eapply tame_part; [now apply Ta | now left]).
    eapply okl_list; [eapply Mz; reflexivity | exact Tb | exact Tmb |]. intros x I. right. now apply in_map_pair. }
  unfold okl in *. rewrite Forall_forall in *. intros x I. apply O. apply in_rev in I. rewrite <- (firstn_skipn (length xs) zs). apply in_or_app. now right.
Qed.
Lemma let_fine xs bd l : made (ELam xs bd) -> made bd -> Forall made l -> made (EApp (ELam xs bd) l).
Proof.
  intros Mlam Mb Ml T Ta t r c E.
  assert (O : okl l) by (eapply okl_list; [eassumption | exact T | exact Ta |]; intros x I; right; now apply in_map_pair).
  assert (Bd : forall t r c, cg ls gcl bd t r = Some c -> all_fine c).
  { apply Mb; [eapply tells_part; [eapply tells_part; [exact T | now left] | now left] | intros Tm; eapply tame_part; [eapply tame_part; [now apply Ta | now left] | now left]]. }
  destruct (Nat.eq_dec (length xs) (length l)) as [Le|Le].
  2:{ assert (Q : cg ls gcl (EApp (ELam xs bd) l) t r = if Nat.eqb (length xs) (length l) then cg_let ls gcl xs bd l t r else cg_jump ls gcl (ELam xs bd) l r) by reflexivity.
      rewrite Q in E. apply Nat.eqb_neq in Le. rewrite Le in E. revert E. apply (primapp_fine (ELam xs bd :: l)); [|intros; now apply fine_jump]. constructor; [|exact O].
      split; [exact Mlam | split; [eapply tells_part; [exact T | now left] | intros Tm; eapply tame_part; [now apply Ta | now left]]]. }
  rewrite cg_let_eq in E by assumption. unfold cg_let in E. cbv zeta in E. destruct (degenerate_let (EApp (ELam xs bd) l)) as [d|] eqn:Dg.
  - destruct xs as [|x xs]; [eauto|]. destruct l as [|e1 l]; [discriminate|]. inversion O as [|? ? (Me & Te & Tm) _]; subst. eapply Me; eauto.
  - destruct (begin_view (EApp (ELam xs bd) l)) as [(e1 & e2)|] eqn:B.
    + destruct l as [|d l]; [discriminate|]. inversion O as [|? ? (Me & Te & Tm) _]; subst.
      assert (Gen : kseq (cg ls gcl d TVoid r) (cg ls gcl bd t r) = Some c -> all_fine c) by (intros K; destruct (kseq_inv _ _ _ K) as (a & b & Ea & Eb & ->); apply fine_seq; [eapply Me; eauto | eauto]).
      destruct e1 as [|x0 c0| | | | | | |]; auto. destruct (curry_view c0) as [((lb & ys) & [|? ?])|]; auto. destruct (global_id x0 && memq lb ls); [|discriminate].
      destruct (kseq_inv _ _ _ E) as (a & b & [= <-] & Eb & ->). apply fine_seq; [apply fine_static | eauto].
    + eapply lets_fine; eauto.
Qed.
Lemma cexp_fine e t r c : tells e -> (tm -> tame e) -> cg_cexpp e = true -> option_map (KSet t) (cg_cexp e r) = Some c -> all_fine c.
Proof. intros T Ta Cp E. destruct (cg_cexp e r) as [q|] eqn:Q; [|discriminate]. injection E as <-. apply fine_set. intros Tm. eapply cexp_fresh; eauto. Qed.
Lemma cg_fine e : made e.
Proof.
  assert (Q : made e /\ (forall xs bd, e = ELam xs bd -> made bd) /\ forall f l, e = EApp f l -> Forall made l); [|apply Q].
  induction e as [x|x e IH|a b c IHa IHb IHc|ef p l IH|f l IHf IH|xs b IH|xs lams0 b _ IH|x b IH|k e IHk IHe] using exp_ind2;
    (split; [|split; [intros xs0 bd0 E0; try discriminate | intros f0 l0 E0; try discriminate]]).
  - intros T Ta t r c E. now apply (cexp_fine (EVar x) t r c T Ta eq_refl).
  - destruct IH as (IH & _). intros T Ta t r c E.
    change (cg ls gcl (ESet x e) t r) with (if global_id x then kseq (cg ls gcl e (TGlob x) r) (option_map (KSet t) (cg_cexp void_exp r)) else None) in E.
    destruct (global_id x); [|discriminate]. destruct (kseq_inv _ _ _ E) as (a & b & Ea & Eb & ->). apply fine_seq.
    + eapply IH; [eapply tells_part; [exact T | now left] | intros Tm; eapply tame_part; [now apply Ta | now left] | exact Ea].
    + cbn in Eb. injection Eb as <-. apply fine_set. intros _. cbn. split; [exact I | now left; lia].
  - destruct IHa as (IHa & _), IHb as (IHb & _), IHc as (IHc & _). intros T Ta t r q E.
    change (cg ls gcl (EIf a b c) t r) with (if cg_cexpp (EIf a b c) then option_map (KSet t) (cg_cexp (EIf a b c) r) else
        if cg_cexpp a then match cg_cexp a r, cg ls gcl b t r, cg ls gcl c t r with Some a', Some b', Some c' => Some (KIf a' b' c') | _, _, _ => None end
        else match cg ls gcl a (TReg (length r)) r, cg ls gcl b t r, cg ls gcl c t r with Some a', Some b', Some c' => Some (KSeq a' (KIf (XReg (length r)) b' c')) | _, _, _ => None end) in E.
    destruct (cg_cexpp (EIf a b c)) eqn:C; [now apply (cexp_fine _ t r q T Ta C)|].
    assert (H : forall d, In ([], d) (parts (EIf a b c)) -> tells d /\ (tm -> tame d)) by (intros d J; split; [eapply tells_part; eauto | intros Tm; eapply tame_part; [now apply Ta | eauto]]).
    destruct (H a) as (Ta1 & Ta2); [cbn; auto|]. destruct (H b) as (Tb1 & Tb2); [cbn; auto|]. destruct (H c) as (Tc1 & Tc2); [cbn; auto|].
    destruct (cg_cexpp a) eqn:Ca.
    + destruct (cg_cexp a r) as [a'|] eqn:Ea; [|discriminate]. destruct (cg ls gcl b t r) as [b'|] eqn:Eb; [|discriminate]. destruct (cg ls gcl c t r) as [c'|] eqn:Ec; [|discriminate]. injection E as <-.
      apply fine_if; [intros Tm; exact (cexp_fresh a r a' Ta1 (Ta2 Tm) Ca Ea) | exact (IHb Tb1 Tb2 _ _ _ Eb) | exact (IHc Tc1 Tc2 _ _ _ Ec)].
    + destruct (cg ls gcl a (TReg (length r)) r) as [a'|] eqn:Ea; [|discriminate]. destruct (cg ls gcl b t r) as [b'|] eqn:Eb; [|discriminate]. destruct (cg ls gcl c t r) as [c'|] eqn:Ec; [|discriminate]. injection E as <-.
      apply fine_seq; [exact (IHa Ta1 Ta2 _ _ _ Ea)|]. apply fine_if; [intros _; exact I | exact (IHb Tb1 Tb2 _ _ _ Eb) | exact (IHc Tc1 Tc2 _ _ _ Ec)].
  - assert (D : Forall made l) by (eapply Forall_impl; [|exact IH]; cbn; tauto). intros T Ta t r q E.
    change (cg ls gcl (EPrim ef p l) t r) with (if cg_cexpp (EPrim ef p l) then option_map (KSet t) (cg_cexp (EPrim ef p l) r) else cg_primapp (pairs ls gcl l) r (fun cs _ => KPrim t p cs)) in E.
    destruct (cg_cexpp (EPrim ef p l)) eqn:C; [now apply (cexp_fine _ t r q T Ta C)|]. revert E. apply primapp_fine; [|intros; now apply fine_prim].
    eapply okl_list; [exact D | exact T | exact Ta |]. intros x J. now apply in_map_pair.
  - assert (D : Forall made l) by (eapply Forall_impl; [|exact IH]; cbn; tauto).
    destruct f as [| | | | |xs bd| | |]; try (apply app_fine; [discriminate | apply IHf | assumption]). apply let_fine; [apply IHf | | assumption]. now apply (proj1 (proj2 IHf) xs).
  - injection E0 as <- <-. eapply Forall_impl; [|exact IH]; cbn; tauto.
  - apply lam_fine. intros y zs ->. now apply (proj2 (proj2 IH) (EVar y)).
  - injection E0 as <- <-. apply IH.
  - intros T Ta t r c E. discriminate.
  - intros T Ta t r c E. discriminate.
  - intros T Ta t r c E. discriminate.
Qed.
End Collect.

Lemma prog_fine order collects (tm : Prop) ls lams b prog : any_order order -> honest collects (EFix ls lams b) -> (tm -> tame (EFix ls lams b)) -> code_generate (EFix ls lams b) = Some prog ->
  forall s, statement_of s prog -> fine order collects tm s.
Proof.
  intros A (V & T) Ta G s. unfold code_generate in G. set (all := flat_map _ _ ++ _) in G. destruct (forallb _ all); [|discriminate].
  destruct (cg ls _ b (TReg 0) []) as [c|] eqn:Eb; [|discriminate]. destruct (all_some _) as [cs|] eqn:El; [|discriminate]. injection G as <-.
  assert (H : forall ys d, In (ys, d) (parts (EFix ls lams b)) -> tells collects d /\ (tm -> tame d)) by (intros ys d J; split; [eapply tells_part; eauto | intros Tm; eapply tame_part; [now apply Ta | eauto]]).
  intros [W|(lab & q & I & W)].
  - cbn in W. destruct (H ls b) as (H1 & H2); [now left|]. exact (cg_fine order collects A tm V ls _ b H1 H2 _ _ _ Eb s W).
  - cbn [labelled] in I. apply in_combine_r in I. apply in_map_iff in I. destruct I as ((lab' & c') & <- & I). cbn [text snd] in W. apply in_combine_r in I.
    apply all_some_in in El. destruct (forall2_in _ _ _ _ El I) as ((ps & d) & J & Ed). cbn [fst snd] in Ed. destruct (H (ls ++ ps) d) as (H1 & H2); [right; apply in_map_iff; exists (ps, d); auto|].
    exact (cg_fine order collects A tm V ls _ d H1 H2 _ _ _ Ed s W).
Qed.
