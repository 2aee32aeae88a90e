(** The code generator ends with code. *)
From Coq Require Import ZArith String List Bool Lia.
From Verif Require Import Base Model_Lit Model_Core Model_Beta Spec_Sem Spec_Free Spec_Scope Spec_Fold Spec_Cps Spec_Lift Spec_Unbox
  Proofs_Sim Proofs_Core Proofs_Free Proofs_FoldWf Model_CodeGen Spec_CodeGen Proofs_CodeGen Proofs_CodeGenRun.
Import ListNotations.
Open Scope Z_scope.

Section Some_code.
Variable ls : list id.
Variable gcl : list (id * id).
Variable L : list (id * nat).
Variable W : id -> nat.
Hypothesis Lls : forall t n, In (t, n) L -> label_id t = true /\ In t ls.
Hypothesis Gok : forall x lb, gc_label gcl x = Some lb -> gc_defined ls gcl x lb = true.

Definition present (r : renv) (x : id) : Prop := label_id x = true \/ global_id x = true \/ (exists t, cvar_type x = Some t) \/ exists p, rposq x r = Some p.
Definition scope (r : renv) (e : exp) : Prop := forall x, free_in x e -> present r x.
Lemma present_none r x : present r x -> present (None :: r) x.
Proof. intros [H|[H|[H|(p & H)]]]; unfold present; auto. cbn. rewrite H. cbn. eauto 6. Qed.
Lemma scope_none r e : scope r e -> scope (None :: r) e.
Proof. intros S x F. now apply present_none, S. Qed.
Lemma scope_part r e e' : scope r e -> In ([], e') (parts e) -> scope r e'.
Proof. intros S I x F. apply S. eapply free_part; eauto. Qed.
Lemma var_some x r : label_id x = false -> present r x -> exists c, cg_var x r = Some c.
Proof.
  intros La [H|[H|[(t & H)|(p & H)]]]; [congruence| | |]; unfold cg_var; rewrite La.
  - rewrite H. eauto.
  - rewrite H. destruct (global_id x); eauto.
  - rewrite H. destruct (global_id x); [|destruct (cvar_type x)]; eauto.
Qed.
Lemma all_some_ex {A B} (f : A -> option B) l : (forall a, In a l -> exists b, f a = Some b) -> exists r, all_some (map f l) = Some r.
Proof.
  induction l as [|a l IH]; intros H; [now exists []|]. destruct (H a) as (b & Eb); [now left|]. destruct IH as (r & Er); [intros; apply H; now right|]. exists (b :: r). cbn. now rewrite Eb, Er.
Qed.
Lemma cexp_some e : forall r, cg_cexpp e = true -> fit L W e -> scope r e -> exists c, cg_cexp e r = Some c.
Proof.
  induction e as [x|x e IH|a b c IHa IHb IHc|ef p l IH|f l IHf IH|xs b IH|xs lams0 b _ IH|x b IH|k e IHk IHe] using exp_ind2; intros r C F S; try discriminate.
  - inversion F; subst. apply var_some; [assumption|]. apply S. apply free_here. now left.
  - cbn [cg_cexpp] in C. apply andb_prop in C. destruct C as (C & Cc). apply andb_prop in C. destruct C as (Ca & Cb). inversion F; subst.
    destruct (IHa r) as (a' & Ea); [assumption..| eapply scope_part; [exact S | cbn; auto] |]. destruct (IHb r) as (b' & Eb); [assumption..| eapply scope_part; [exact S | cbn; auto] |].
    destruct (IHc r) as (c' & Ec); [assumption..| eapply scope_part; [exact S | cbn; auto] |]. cbn [cg_cexp]. rewrite Ea, Eb, Ec. eauto.
  - cbn [cg_cexpp] in C. apply andb_prop in C. destruct C as (_ & C). inversion F; subst. cbn [cg_cexp].
    destruct (all_some_ex (fun e => cg_cexp e r) l) as (q & ->); [|cbn; eauto]. intros a I. rewrite Forall_forall in IH. rewrite forallb_forall in C.
    match goal with Fo : Forall (fit L W) l |- _ => rewrite Forall_forall in Fo; apply (IH a I); [now apply C | now apply Fo |] end. eapply scope_part; [exact S|]. now apply in_map_pair.
Qed.
Definition done (e : exp) : Prop := fit L W e -> forall t r, scope r e -> exists c, cg ls gcl e t r = Some c.
Lemma args_some : forall l r, Forall (fit L W) l -> Forall (scope r) l -> exists cs r', cg_args l r = Some (cs, r').
Proof.
  induction l as [|e l IH]; intros r F S; [cbn; eauto|]. inversion F; subst. inversion S; subst. cbn [cg_args]. destruct (cg_gcsafe_cexpp e) eqn:G.
  - destruct (cexp_some e r) as (c & ->); [now apply gcsafe_cexp | assumption..|]. destruct (IH r) as (cs & r' & ->); [assumption..|]. eauto.
  - destruct (IH (None :: r)) as (cs & r' & ->); [assumption | | eauto]. eapply Forall_impl; [|eassumption]. intros a. apply scope_none.
Qed.
Lemma temps_some : forall l r k, Forall done l -> Forall (fit L W) l -> Forall (scope r) l -> (exists c, k = Some c) -> exists c, cg_temps (pairs ls gcl l) r k = Some c.
Proof.
  induction l as [|e l IH]; intros r k D F S K; [exact K|]. inversion D; subst. inversion F; subst. inversion S; subst. unfold pairs. cbn [map cg_temps]. fold (pairs ls gcl l). destruct (cg_gcsafe_cexpp e) eqn:G.
  - now apply IH.
  - match goal with De : done e |- _ => destruct (De ltac:(assumption) (TReg (length r)) r) as (c & Ec); [assumption|] end. change (cg ls gcl e (TReg (length r)) r) with (cg ls gcl e (TReg (length r)) r) in Ec. rewrite Ec.
    destruct (IH (None :: r) k) as (c' & ->); [assumption..| | exact K | cbn; eauto]. eapply Forall_impl; [|eassumption]. intros a. apply scope_none.
Qed.
Lemma primapp_some l r k : Forall done l -> Forall (fit L W) l -> Forall (scope r) l -> exists c, cg_primapp (pairs ls gcl l) r k = Some c.
Proof.
  intros D F S. unfold cg_primapp. rewrite pairs_fst. destruct (args_some l r F S) as (cs & r' & ->). apply temps_some; eauto.
Qed.
Lemma scope_list e l r : scope r e -> (forall x, In x l -> In ([], x) (parts e)) -> Forall (scope r) l.
Proof. intros S I. apply Forall_forall. intros x J. eapply scope_part; eauto. Qed.
Lemma labelled x n : In (x, n) L -> memq x ls = true.
Proof. intros I. apply memq_In. now apply (Lls x n). Qed.
Lemma app_some f l : (forall xs b, f <> ELam xs b) -> done f -> Forall done l -> done (EApp f l).
Proof.
  intros N Df Dl F t r S. rewrite cg_app_eq by assumption. assert (Sl : Forall (scope r) l) by (eapply scope_list; [exact S|]; intros x I; right; now apply in_map_pair).
  assert (Goto : Forall (fit L W) l -> forall lb, exists c, cg_goto ls gcl lb l r = Some c) by (intros Fl lb; now apply primapp_some).
  assert (Jump : fit L W f -> Forall (fit L W) l -> exists c, cg_jump ls gcl f l r = Some c).
  { intros Ff Fl. apply (primapp_some (f :: l)); constructor; try assumption. eapply scope_part; [exact S | now left]. }
  inversion F as [| | | |f0 l0 _ Ff Fl|t0 l0 I Fl|ids l0 b0 Le Fl Fb|]; subst.
  - destruct f as [x| | | | | | | |]; auto. inversion Ff as [? La| | | | | | |]; subst. rewrite La. destruct (gc_label gcl x) as [lb|] eqn:E; [|auto]. rewrite (Gok x lb E). auto.
  - destruct (Lls _ _ I) as (-> & _). rewrite (labelled _ _ I). auto.
  - now destruct (N ids b0).
Qed.
Lemma rposq_skip x y r p : rposq x r = Some p -> exists p', rposq x (Some y :: r) = Some p'.
Proof. intros H. cbn. destruct (id_eqb y x); [eauto|]. rewrite H. cbn. eauto. Qed.
Lemma present_cons r x y : present r x -> present (Some y :: r) x.
Proof. intros [H|[H|[H|(p & H)]]]; unfold present; auto. right. right. right. eapply rposq_skip; eauto. Qed.
Lemma lets_some bd t : forall ids l r, length ids = length l -> (forall e, In e l -> done e) -> Forall (fit L W) l -> Forall (scope r) l ->
  (forall r', (forall x, present r x -> present r' x) -> (forall x, In x ids -> present r' x) -> exists c, cg ls gcl bd t r' = Some c) ->
  exists c, cg_lets ids (map (cg ls gcl) l) r (fun r' => cg ls gcl bd t r') = Some c.
Proof.
  induction ids as [|x ids IH]; intros l r Le D F S B; destruct l as [|e l]; try discriminate.
  - cbn. apply B; [auto | easy].
  - injection Le as Le. inversion F; subst. inversion S; subst. cbn [map cg_lets]. destruct (cvar_type x) as [ty|] eqn:Cv.
    + destruct (D e (or_introl eq_refl) ltac:(assumption) (TCvar x ty) r) as (c & ->); [assumption|].
      destruct (IH l r Le) as (c' & ->); [intros; apply D; now right | assumption | assumption | | cbn; eauto].
      intros r' P1 P2. apply B; [assumption|]. intros y [<-|I]; [|auto]. right. right. left. eauto.
    + destruct (D e (or_introl eq_refl) ltac:(assumption) (TReg (length r)) r) as (c & ->); [assumption|].
      destruct (IH l (Some x :: r) Le) as (c' & ->); [intros; apply D; now right | assumption | | | cbn; eauto].
      * eapply Forall_impl; [|eassumption]. intros a Sa y Fy. now apply present_cons, Sa.
      * intros r' P1 P2. apply B; [intros y Py; apply P1; now apply present_cons|]. intros y [<-|I]; [|auto]. apply P1. right. right. right. cbn. rewrite id_eqb_refl. eauto.
Qed.
Lemma curry_label c lb ys rands : fit L W c -> curry_view c = Some (lb, ys, rands) -> memq lb ls = true.
Proof.
  intros F V. destruct (curry_inv _ _ _ _ V) as (zs & -> & _). inversion F; subst. eapply labelled; eauto.
Qed.
Lemma let_some xs bd l : done bd -> Forall done l -> done (EApp (ELam xs bd) l).
Proof.
  intros Db Dl F t r S. inversion F as [| | | |f0 l0 N _ _| |ids l0 b0 Le Fl Fb|]; subst; [now destruct (N xs bd)|]. rewrite cg_let_eq by assumption.
  assert (Sl : Forall (scope r) l) by (eapply scope_list; [exact S|]; intros x I; right; now apply in_map_pair).
  rewrite Forall_forall in Dl.
  assert (Sb : forall r', (forall x, present r x -> present r' x) -> (forall x, In x xs -> present r' x) -> scope r' bd).
  { intros r' P1 P2 x Fx. destruct (in_dec id_dec x xs) as [I|I]; [auto|]. apply P1, S. eapply free_part; [now left | easy |]. eapply free_part; [now left | assumption | assumption]. }
  unfold cg_let. cbv zeta. destruct (degenerate_let (EApp (ELam xs bd) l)) as [d|] eqn:Dg.
  - destruct xs as [|x [|]]; [| |discriminate]; destruct l as [|e1 [|]]; try discriminate.
    + apply (Db Fb). apply Sb; [auto | easy].
    + inversion Fl; subst. inversion Sl; subst. apply (Dl e1); auto. now left.
  - destruct (begin_view (EApp (ELam xs bd) l)) as [(e1 & e2)|] eqn:B.
    + destruct (begin_view_inv _ _ _ B) as (x & E & Nf). injection E as -> -> ->. inversion Fl; subst. inversion Sl; subst.
      assert (Sb' : scope r e2).
      { intros y Fy. apply S. eapply free_part; [now left | easy |]. eapply free_part; [now left | | exact Fy]. intros [->|[]]. now apply Nf. }
      destruct (Db Fb t r Sb') as (cb & Eb). destruct (Dl e1 (or_introl eq_refl) ltac:(assumption) TVoid r) as (c1 & Ec1); [assumption|].
      assert (Gen : exists c, kseq (cg ls gcl e1 TVoid r) (cg ls gcl e2 t r) = Some c) by (rewrite Ec1, Eb; cbn; eauto).
      destruct e1 as [|x0 c| | | | | | |]; try exact Gen. destruct (curry_view c) as [((lb & ys) & [|? ?])|] eqn:V; try exact Gen.
      match goal with H : fit L W (ESet x0 c) |- _ => inversion H; subst end. rewrite (curry_label c lb ys []) by assumption. match goal with H : global_id x0 = true |- _ => rewrite H end. rewrite Eb. cbn. eauto.
    + apply lets_some; auto.
Qed.
Lemma vars_done l : Forall done (map EVar l).
Proof. apply Forall_forall. intros e I. apply in_map_iff in I. destruct I as (x & <- & _). intros F t r S. destruct (cexp_some (EVar x) r eq_refl F S) as (c & E). cbn [cg cg_cexpp]. rewrite E. cbn. eauto. Qed.
Lemma curry_ok ys : forall cs, (fix loop (ids : list id) (rands : list exp) : bool :=
  match ids with
  | [] => true
  | y :: ids' => match rands with EVar z :: rands' => id_eqb z y && loop ids' rands' | _ => false end
  end) ys (map EVar (ys ++ cs)) = true.
Proof. induction ys as [|y ys IH]; intros cs; [reflexivity|]. cbn. now rewrite id_eqb_refl, IH. Qed.
Lemma lam_some xs b : done (ELam xs b).
Proof.
  intros F t r S. inversion F as [| | | | | | |ys t0 cs I Wt Nl Nc]; subst. destruct (Lls _ _ I) as (Lt & _).
  assert (cg ls gcl (ELam xs (EApp (EVar t0) (map EVar (xs ++ cs)))) t r =
    match curry_view (ELam xs (EApp (EVar t0) (map EVar (xs ++ cs)))) with
    | Some _ => if memq t0 ls then cg_primapp (rev (skipn (length xs) (pairs ls gcl (map EVar (xs ++ cs))))) r (fun cs _ => KClo t t0 cs) else None
    | None => None
    end) as -> by reflexivity.
  unfold curry_view. rewrite Lt. rewrite curry_ok. cbn [andb]. rewrite (labelled _ _ I).
  assert (rev (skipn (length xs) (pairs ls gcl (map EVar (xs ++ cs)))) = pairs ls gcl (map EVar (rev cs))) as ->.
  { unfold pairs. rewrite map_map, map_app. replace (length xs) with (length (map (fun x => (EVar x, cg ls gcl (EVar x))) xs)) by apply map_length. rewrite skipn_app_len, map_map, map_rev. reflexivity. }
  apply primapp_some.
  - apply vars_done.
  - apply Forall_forall. intros e J. apply in_map_iff in J. destruct J as (x & <- & J). apply in_rev in J. constructor. rewrite Forall_forall in Nl. auto.
  - apply Forall_forall. intros e J. apply in_map_iff in J. destruct J as (x & <- & J). apply in_rev in J. intros y Fy.
    assert (y = x) as -> by (now apply Proofs_BetaFree.free_var).
    apply S. eapply free_part; [now left | now apply Nc |]. apply (free_part _ _ [] (EVar x)); [|easy | exact Fy]. right. apply in_map_pair. apply in_map. apply in_or_app. now right.
Qed.
Lemma cg_some e : done e.
Proof.
  assert (Q : done e /\ forall xs bd, e = ELam xs bd -> done bd); [|apply Q].
  induction e as [x|x e IH|a b c IHa IHb IHc|ef p l IH|f l IHf IH|xs b IH|xs lams0 b _ IH|x b IH|k e IHk IHe] using exp_ind2; (split; [|intros xs0 bd0 E; try discriminate]).
  - pose proof (vars_done [x]) as V. now inversion V.
  - destruct IH as (IH & _). intros F t r S. inversion F; subst. destruct (IH ltac:(assumption) (TGlob x) r) as (c & Ec); [eapply scope_part; [exact S | now left]|].
    change (cg ls gcl (ESet x e) t r) with (if global_id x then kseq (cg ls gcl e (TGlob x) r) (option_map (KSet t) (cg_cexp void_exp r)) else None). match goal with H : global_id x = true |- _ => rewrite H end. rewrite Ec. cbn. eauto.
  - destruct IHa as (IHa & _), IHb as (IHb & _), IHc as (IHc & _). intros F t r S. destruct (cg_cexpp (EIf a b c)) eqn:C.
    { destruct (cexp_some _ r C F S) as (q & E). change (cg ls gcl (EIf a b c) t r) with (if cg_cexpp (EIf a b c) then option_map (KSet t) (cg_cexp (EIf a b c) r) else
        if cg_cexpp a then match cg_cexp a r, cg ls gcl b t r, cg ls gcl c t r with Some a', Some b', Some c' => Some (KIf a' b' c') | _, _, _ => None end
        else match cg ls gcl a (TReg (length r)) r, cg ls gcl b t r, cg ls gcl c t r with Some a', Some b', Some c' => Some (KSeq a' (KIf (XReg (length r)) b' c')) | _, _, _ => None end). rewrite C, E. cbn. eauto. }
    change (cg ls gcl (EIf a b c) t r) with (if cg_cexpp (EIf a b c) then option_map (KSet t) (cg_cexp (EIf a b c) r) else
        if cg_cexpp a then match cg_cexp a r, cg ls gcl b t r, cg ls gcl c t r with Some a', Some b', Some c' => Some (KIf a' b' c') | _, _, _ => None end
        else match cg ls gcl a (TReg (length r)) r, cg ls gcl b t r, cg ls gcl c t r with Some a', Some b', Some c' => Some (KSeq a' (KIf (XReg (length r)) b' c')) | _, _, _ => None end). rewrite C.
    inversion F; subst. assert (Sa : scope r a) by (eapply scope_part; [exact S | cbn; auto]).
    destruct (IHb ltac:(assumption) t r) as (b' & ->); [eapply scope_part; [exact S | cbn; auto]|]. destruct (IHc ltac:(assumption) t r) as (c' & ->); [eapply scope_part; [exact S | cbn; auto]|].
    destruct (cg_cexpp a) eqn:Ca.
    + destruct (cexp_some a r) as (a' & ->); [assumption..|]. eauto.
    + destruct (IHa ltac:(assumption) (TReg (length r)) r Sa) as (a' & ->). eauto.
  - assert (D : Forall done l) by (eapply Forall_impl; [|exact IH]; cbn; tauto). intros F t r S. destruct (cg_cexpp (EPrim ef p l)) eqn:C.
    + destruct (cexp_some _ r C F S) as (q & E). change (cg ls gcl (EPrim ef p l) t r) with (if cg_cexpp (EPrim ef p l) then option_map (KSet t) (cg_cexp (EPrim ef p l) r) else cg_primapp (pairs ls gcl l) r (fun cs _ => KPrim t p cs)).
      rewrite C, E. cbn. eauto.
    + change (cg ls gcl (EPrim ef p l) t r) with (if cg_cexpp (EPrim ef p l) then option_map (KSet t) (cg_cexp (EPrim ef p l) r) else cg_primapp (pairs ls gcl l) r (fun cs _ => KPrim t p cs)). rewrite C. inversion F; subst.
      apply primapp_some; [assumption..|]. eapply scope_list; [exact S|]. intros x I. now apply in_map_pair.
  - assert (D : Forall done l) by (eapply Forall_impl; [|exact IH]; cbn; tauto).
    destruct f as [| | | | |xs bd| | |]; try (apply app_some; [discriminate | apply IHf | assumption]). apply let_some; [|assumption]. now apply (proj2 IHf xs).
  - apply lam_some.
  - injection E as <- <-. apply IH.
  - intros F. inversion F.
  - intros F. inversion F.
  - intros F. inversion F.
Qed.
End Some_code.

(** ** Programs *)
Definition fits (ls : list id) (L : list (id * nat)) (W : id -> nat) (f : found) : Prop :=
  match f with
  | FCurry lb ys n => In (lb, length ys + n)%nat L /\ W lb = length ys
  | FGoto lb n => In (lb, n) L
  | FStatic _ lb => exists n, In (lb, n) L
  end.
Lemma curry_fits ls L W c lb ys rands : fit L W c -> curry_view c = Some (lb, ys, rands) -> fits ls L W (FCurry lb ys (length rands)).
Proof.
  intros F V. destruct (curry_inv _ _ _ _ V) as (zs & -> & ->). inversion F; subst. cbn. rewrite map_app. replace (length ys) with (length (map EVar ys)) at 2 by apply map_length. rewrite skipn_app_len, map_length. auto.
Qed.
Lemma collect_fit ls L W e : (forall t n, In (t, n) L -> label_id t = true) -> fit L W e -> forall f, In f (collect e) -> fits ls L W f.
Proof.
  intros Lb. assert (Q : (fit L W e -> forall f, In f (collect e) -> fits ls L W f) /\ forall xs bd, e = ELam xs bd -> fit L W bd -> forall f, In f (collect bd) -> fits ls L W f); [|apply Q].
  induction e as [x|x e IH|a b c IHa IHb IHc|ef p l IH|f l IHf IH|xs b IH|xs lams0 b _ IH|x b IH|k e IHk IHe] using exp_ind2; (split; [intros F g I|intros xs0 bd0 E; try discriminate]); try (now inversion F).
  - inversion F; subst. now apply IH.
  - inversion F; subst. cbn [collect] in I. rewrite !in_app_iff in I. destruct I as [I|[I|I]]; [now apply IHa | now apply IHb | now apply IHc].
  - inversion F; subst. cbn [collect] in I. apply in_flat_map in I. destruct I as (d & J & I). rewrite Forall_forall in IH. match goal with H : Forall _ l |- _ => rewrite Forall_forall in H; now apply (IH d J); [apply H|] end.
  - assert (Hl : Forall (fit L W) l -> In g (flat_map collect l) -> fits ls L W g).
    { intros Fl J. apply in_flat_map in J. destruct J as (d & J & K). rewrite Forall_forall in IH, Fl. now apply (IH d J); [apply Fl|]. }
    inversion F as [| | | |f0 l0 N Ff Fl|t0 l0 J Fl|ids l0 b0 Le Fl Fb|]; subst.
    + assert (Gen : In g (collect f ++ flat_map collect l) -> fits ls L W g) by (intros J; apply in_app_or in J; destruct J as [J|J]; [now apply IHf | auto]).
      destruct f as [x| | | | |xs bd| | |]; auto; [|now destruct (N xs bd)]. inversion Ff as [? La| | | | | | |]; subst. cbn [collect] in I. rewrite La in I. auto.
    + cbn [collect] in I. rewrite (Lb _ _ J) in I. destruct I as [<-|I]; [exact J | auto].
    + assert (Ge2 : In g (flat_map collect l ++ collect b0) -> fits ls L W g) by (intros J; apply in_app_or in J; destruct J as [J|J]; [auto | now apply (proj2 IHf ids b0 eq_refl Fb)]).
      cbn [collect] in I. rewrite Le, Nat.eqb_refl in I. destruct (begin_view (EApp (ELam ids b0) l)) as [(e1 & e2)|] eqn:B; [|auto].
      destruct e1 as [|x0 c| | | | | | |]; auto. destruct (curry_view c) as [((lb & ys) & [|? ?])|] eqn:V; auto. destruct (global_id x0) eqn:G; [|auto].
      destruct (begin_view_inv _ _ _ B) as (x & [= -> -> ->] & _). inversion Fl as [|? ? Fs _]; subst. inversion Fs; subst.
      assert (Fc := curry_fits ls L W c lb ys [] ltac:(assumption) V). destruct I as [<-|[<-|I]]; [exact Fc | exists (length ys + 0)%nat; apply Fc |]. apply Ge2. apply in_or_app. now right.
  - inversion F as [| | | | | | |ys t0 cs I0 Wt Nl Nc]; subst. cbn [collect] in I. destruct (curry_view _) as [((lb & ys) & rands)|] eqn:V; [|easy].
    assert (Fc := curry_fits ls L W _ lb ys rands F V). destruct I as [<-|I]; [exact Fc|]. exfalso. apply in_concat in I. destruct I as (q & J & I).
    assert (In q (map collect (map EVar (xs ++ cs)))) as K. { rewrite <- (firstn_skipn (length ys)). apply in_or_app. now right. }
    apply in_map_iff in K. destruct K as (d & <- & K). apply in_map_iff in K. destruct K as (z & <- & _). easy.
  - injection E as <- <-. apply IH.
Qed.
Lemma find_curry_some lb all ids n : In (FCurry lb ids n) all -> exists ids' n', find_curry lb all = Some (ids', n').
Proof.
  induction all as [|f all IH]; [easy|]. intros [->|I]; cbn; [rewrite id_eqb_refl; eauto|]. destruct f; auto. destruct (id_eqb lb lb0); eauto.
Qed.
Lemma find_goto_some lb all n : In (FGoto lb n) all -> exists n', find_goto lb all = Some n' /\ In (FGoto lb n') all.
Proof.
  induction all as [|f all IH]; [easy|]. intros [->|I]; cbn.
  - rewrite id_eqb_refl. eauto.
  - destruct f as [| |y m]; try (destruct (IH I) as (q & E & J); eauto). destruct (id_eqb lb y) eqn:Q; [|eauto]. apply id_eqb_eq in Q. subst. eauto.
Qed.
Lemma assq_in {A} x (l : list (id * A)) a : assq x l = Some a -> In (x, a) l.
Proof.
  induction l as [|(y & b) l IH]; [discriminate|]. cbn. destruct (id_eqb _ _) eqn:Q; [|auto]. apply id_eqb_eq in Q. subst. intros [= ->]. now left.
Qed.
Lemma assq_ex {A} x (l : list (id * A)) a : In (x, a) l -> exists b, assq x l = Some b.
Proof.
  induction l as [|(y & b) l IH]; [easy|]. intros [[= -> ->]|I]; cbn; [rewrite id_eqb_refl; eauto|]. destruct (id_eqb _ _); eauto.
Qed.
Lemma constant_rev x lb all : In (FStatic x lb) all -> global_id_constant x = true -> In (lb, x) (constant_labels all).
Proof. intros I G. unfold constant_labels. apply in_rev. rewrite rev_involutive. apply in_flat_map. exists (FStatic x lb). split; [assumption|]. rewrite G. now left. Qed.
Section Prog.
Variable ls : list id.
Variable lams : list (list id * exp).
Variable b : exp.
Variable W : id -> nat.
Hypothesis nd : NoDup ls.
Hypothesis len : length ls = length lams.
Hypothesis lab : Forall (fun x => label_id x = true) ls.
Hypothesis cl : closed (EFix ls lams b).
Let L := combine ls (map (fun l : list id * exp => length (fst l)) lams).
Hypothesis fl : Forall (fun l : list id * exp => fit L W (snd l)) lams.
Hypothesis fb : fit L W b.
Hypothesis one : forall x x' t ys ys', global_id_constant x = true -> global_id_constant x' = true -> assigns x (ELam ys (EApp (EVar t) (map EVar ys))) (EFix ls lams b) ->
  assigns x' (ELam ys' (EApp (EVar t) (map EVar ys'))) (EFix ls lams b) -> x = x'.
Let all := flat_map (fun l : list id * exp => collect (snd l)) lams ++ collect b.
Let gcl := constant_labels all.
Lemma in_L t n : In (t, n) L -> label_id t = true /\ In t ls.
Proof. intros I. apply in_combine_l in I. rewrite Forall_forall in lab. auto. Qed.
Lemma fun_L t n n' : In (t, n) L -> In (t, n') L -> n = n'.
Proof.
  unfold L. clear - nd. revert lams. induction ls as [|x l IH]; intros [|l0 lams]; cbn; try easy. inversion nd as [|? ? Nx nd']; subst. intros [E|I] [E'|I'].
  - congruence.
  - apply in_combine_l in I'. injection E as -> _. easy.
  - apply in_combine_l in I. injection E' as -> _. easy.
  - eapply (IH nd'); eauto.
Qed.
Lemma all_fit f : In f all -> fits ls L W f.
Proof.
  intros I. assert (Lb : forall t n, In (t, n) L -> label_id t = true) by (intros t n J; now apply in_L in J). unfold all in I. apply in_app_or in I. destruct I as [I|I].
  - apply in_flat_map in I. destruct I as (l & J & I). rewrite Forall_forall in fl. exact (collect_fit ls L W (snd l) Lb (fl l J) f I).
  - exact (collect_fit ls L W b Lb fb f I).
Qed.
Lemma all_stand f : In f all -> stands f (EFix ls lams b).
Proof.
  intros I. unfold all in I. apply in_app_or in I. destruct I as [I|I].
  - apply in_flat_map in I. destruct I as (l & J & I). apply (stands_part f _ (ls ++ fst l) (snd l)); [now apply collect_stands|]. right. apply in_map_iff. exists l. split; [reflexivity | assumption].
  - apply (stands_part f _ ls b); [now apply collect_stands | now left].
Qed.
Lemma constants_ok x lb : gc_label gcl x = Some lb -> gc_defined ls gcl x lb = true.
Proof.
  unfold gc_label, gc_defined. destruct (find (fun p => id_eqb x (snd p)) gcl) as [(lb' & y)|] eqn:E; [|discriminate]. intros [= ->]. apply find_some in E. destruct E as (I & Q). apply id_eqb_eq in Q. cbn in Q. subst y.
  destruct (constant_in _ _ _ I) as (Gx & Ix). destruct (assq_ex _ _ _ I) as (y & Ey). rewrite Ey. apply assq_in in Ey. destruct (constant_in _ _ _ Ey) as (Gy & Iy).
  destruct (all_stand _ Ix) as (_ & ys & Px). destruct (all_stand _ Iy) as (_ & ys' & Py). assert (x = y) as -> by (eapply one; eassumption). rewrite id_eqb_refl. cbn [andb].
  destruct (all_fit _ Ix) as (n & In0). apply memq_In. now apply (in_L lb n).
Qed.
Lemma all_agree : forallb (agrees ls all) all = true.
Proof.
  apply forallb_forall. intros f I. assert (F := all_fit f I). destruct f as [lb ids n|x lb|lb n]; cbn [agrees]; [| reflexivity |].
  - destruct F as (F1 & F2). apply andb_true_intro. split; [apply memq_In; now apply in_L in F1|]. destruct (find_curry_some _ _ _ _ I) as (ids' & n' & E). rewrite E.
    destruct (all_fit _ (find_curry_in _ _ _ _ E)) as (F3 & F4). assert (A := fun_L _ _ _ F1 F3). assert (length ids = length ids') as E1 by congruence. rewrite E1, Nat.eqb_refl. cbn [andb]. apply Nat.eqb_eq. lia.
  - apply andb_true_intro. split; [apply memq_In; now apply in_L in F|]. destruct (find_goto_some _ _ _ I) as (n' & -> & J). apply Nat.eqb_eq. exact (fun_L _ _ _ F (all_fit _ J)).
Qed.
Lemma some_ok : exists prog, code_generate (EFix ls lams b) = Some prog.
Proof.
  unfold code_generate. fold all. fold gcl. rewrite all_agree.
  assert (Sc : forall ys e, In (ls ++ ys, e) (parts (EFix ls lams b)) -> scope (rev (map Some ys)) e).
  { intros ys e I x F. destruct (in_dec id_dec x ls) as [J|J]; [left; rewrite Forall_forall in lab; auto|]. destruct (in_dec id_dec x ys) as [K|K].
    - destruct (rposq x (rev (map Some ys))) as [p|] eqn:E; [right; right; right; eauto|]. exfalso. clear - K E. apply (in_map Some), in_rev in K. revert K E. generalize (rev (map Some ys)). intros r.
      induction r as [|o r IH]; [easy|]. intros [->|K]; cbn; [now rewrite id_eqb_refl|]. destruct o as [y|]; [destruct (id_eqb y x); [easy|]|]; (destruct (rposq x r); [easy | auto]).
    - right. left. apply cl. eapply free_part; [exact I | | exact F]. intros Q. apply in_app_or in Q. tauto. }
  destruct (cg_some ls gcl L W in_L constants_ok b fb (TReg O) []) as (c & ->). { apply (Sc [] b). rewrite app_nil_r. now left. }
  destruct (all_some_ex (fun l : list id * exp => cg ls gcl (snd l) (TReg (length (fst l))) (rev (map Some (fst l)))) lams) as (cs & ->); [|eauto].
  intros (ps, e) I. cbn [fst snd]. apply (cg_some ls gcl L W in_L constants_ok e (proj1 (Forall_forall _ _) fl _ I)). apply Sc. right. apply in_map_iff. exists (ps, e). auto.
Qed.
End Prog.
