(** Inlined globals: programs and their translations, values, and definitions that can be evaluated any number of times. *)
From Coq Require Import ZArith List Bool Lia.
From Verif Require Import Model_Lit Model_Core Model_Globals Spec_Sem Spec_Free Spec_Lift Spec_Fold Spec_Letrec Spec_Globals Proofs_Sim Proofs_Core Proofs_Free Proofs_SimOn.
From Verif Require Proofs_Agree.
Import ListNotations.
Open Scope Z_scope.

Lemma run_gl p : forall rs w v w', run p rs w = Some (v, w') -> gl w' = gl w.
Proof.
  induction p as [a| |a f IH|a b f IH|l p IH|a i p IH|a i b p IH|a p IH|p IH]; cbn [run]; intros rs w v w' E;
    repeat match type of E with context [match ?c with _ => _ end] => destruct c; try discriminate end;
    try discriminate; try (injection E as <- <-; reflexivity); apply IH in E; exact E.
Qed.

Section Sem.
Variable P : prim -> script.
Variable inl : id -> option exp.
Variable gone : id -> Prop.
Variable def : id -> exp.

(** expressions that are put for a variable *)
Inductive inlv : exp -> Prop :=
| iv_prim p : p <> the_halt_prim -> honours ENo (P p) -> inlv (EPrim ENo p [])
| iv_lam xs b : inlv (ELam xs b)
| iv_null e : inlv e -> inlv (EApp (ELam [] e) [])
| iv_id x e : global_id x = false -> inlv e -> inlv (EApp (ELam [x] (EVar x)) [e]).

Inductive tr : exp -> exp -> Prop :=
| tr_var x : ~ gone x -> tr (EVar x) (EVar x)
| tr_inl x e : inl x = Some e -> tr (EVar x) e
| tr_set x e e' : global_id x = true -> ~ gone x -> (forall d, inl x = Some d -> e = def x /\ inlv e') -> tr e e' -> tr (ESet x e) (ESet x e')
| tr_gone x : gone x -> tr (ESet x (def x)) void_exp
| tr_null b b' : tr b b' -> tr (EApp (ELam [] b) []) b'
| tr_ident x e e' : global_id x = false -> tr e e' -> tr (EApp (ELam [x] (EVar x)) [e]) e'
| tr_if a a' b b' c c' : tr a a' -> tr b b' -> tr c c' -> tr (EIf a b c) (EIf a' b' c')
| tr_prim ef p l l' : Forall2 tr l l' -> tr (EPrim ef p l) (EPrim ef p l')
| tr_app f f' l l' : degenerate_let (EApp f l) = None -> tr f f' -> Forall2 tr l l' -> tr (EApp f l) (EApp f' l')
| tr_lam xs b b' : tr b b' -> tr (ELam xs b) (ELam xs b')
| tr_fix xs ls ls' b b' : Forall2 (fun l l' => fst l' = fst l /\ tr (snd l) (snd l')) ls ls' -> tr b b' -> tr (EFix xs ls b) (EFix xs ls' b')
| tr_letcc x b b' : tr b b' -> tr (ELetcc x b) (ELetcc x b')
| tr_with k k' e e' : tr k k' -> tr e e' -> tr (EWithcc k e) (EWithcc k' e').

(** values of such expressions in the old program *)
Inductive means : exp -> val -> Prop :=
| mn_prim p c : (forall w, run (P p) [] w = Some (VC c, w)) -> means (EPrim ENo p []) (VC c)
| mn_lam xs b b' r : tr b b' -> closed (ELam xs b) -> ag_simple b = true -> means (ELam xs b') (VClo xs b r)
| mn_null e v : means e v -> means (EApp (ELam [] e) []) v
| mn_id x e v : means e v -> means (EApp (ELam [x] (EVar x)) [e]) v.

Hypothesis inl_ok : forall x e, inl x = Some e -> global_id x = true /\ inlv e /\ tr (def x) e /\ ag_simple (def x) = true /\ closed (def x).
Hypothesis gone_inl : forall x, gone x -> exists e, inl x = Some e.

(** ** The old program *)
Variable s0 : state.
Hypothesis timely : forall x e s, inl x = Some e -> early P x s0 s -> forall r k w, s <> Ev (EVar x) r k w.
Definition inv (s : state) : Prop := forall x e, inl x = Some e -> means e (gl (mem s) x) \/ early P x s0 s.
Definition quiet (s : state) : Prop := forall x e, inl x = Some e -> forall vs r k w, s <> Args (OSet x) (map SDone vs) r k w.
Notation step := (step P MDirect).
Notation star := (star P MDirect).
Notation wrong := (wrong P MDirect).
Inductive qstar : state -> state -> Prop :=
| qs_refl s : qstar s s
| qs_step s s' s'' : step s s' -> quiet s -> qstar s' s'' -> qstar s s''.
Lemma qstar_star s s' : qstar s s' -> star s s'.
Proof. induction 1; econstructor; eauto. Qed.
Lemma qstar_trans a b c : qstar a b -> qstar b c -> qstar a c.
Proof. induction 1; intros; [assumption | econstructor; eauto]. Qed.
Lemma qstar_one a b : step a b -> quiet a -> qstar a b.
Proof. intros. econstructor; eauto. constructor. Qed.
Lemma step_gl s s' x : step s s' -> (forall vs r k w, s <> Args (OSet x) (map SDone vs) r k w) -> gl (mem s') x = gl (mem s) x.
Proof.
  intros S N. destruct S; try reflexivity. destruct H; try reflexivity.
  - cbn. destruct (id_eqb x x0) eqn:E; [|reflexivity]. apply id_eqb_eq in E. subst. exfalso. exact (N [v] r k w eq_refl).
  - cbn. now rewrite (run_gl _ _ _ _ _ H0).
Qed.
Lemma inv_step s s' : inv s -> step s s' -> quiet s -> inv s'.
Proof.
  intros I S Q x e L. destruct (I x e L) as [M|A].
  - left. now rewrite (step_gl _ _ x S (Q x e L)).
  - right. apply ea_step with s; [assumption | assumption | exact (Q x e L)].
Qed.
Lemma inv_qstar s s' : qstar s s' -> inv s -> inv s'.
Proof. induction 1; intros; eauto using inv_step. Qed.
Lemma quiet_ev e r k w : quiet (Ev e r k w).
Proof. intros x d _ vs r1 k1 w1 E. discriminate. Qed.
Lemma quiet_ret v k w : quiet (Ret v k w).
Proof. intros x d _ vs r1 k1 w1 E. discriminate. Qed.
Lemma quiet_op o l r k w : (forall x, o <> OSet x) -> quiet (Args o l r k w).
Proof. intros N x d _ vs r1 k1 w1 E. injection E as E _ _ _ _. now apply N in E. Qed.
Lemma quiet_todo o l e r k w : In (STodo e) l -> quiet (Args o l r k w).
Proof. intros N x d _ vs r1 k1 w1 E. injection E as _ -> _ _ _. apply in_map_iff in N. destruct N as (? & ? & _). discriminate. Qed.
Lemma quiet_set x l r k w : inl x = None -> quiet (Args (OSet x) l r k w).
Proof. intros N y d L vs r1 k1 w1 E. injection E as -> _ _ _ _. congruence. Qed.

(** ** Evaluation of definitions *)
Lemma closed_part e ys e' : closed e -> In (ys, e') (parts e) -> (forall x, In x ys -> global_id x = true) -> closed e'.
Proof.
  intros C I G x F. destruct (in_dec id_dec x ys) as [J|J]; [now apply G|]. apply C. eapply free_part; eauto.
Qed.
Lemma closed_nil e e' : closed e -> In ([], e') (parts e) -> closed e'.
Proof. intros C I. apply (closed_part e [] e' C I). intros x []. Qed.
(** a procedure that hands back its argument *)
Lemma var_body x : global_id x = false -> forall n b, (esize b <= n)%nat -> tr b (EVar x) -> ag_simple b = true ->
  forall r k w v, lookup r x = Some v -> (forall l, v <> VRef l) -> qstar (Ev b r k w) (Ret v k w).
Proof.
  intros G. induction n as [|n IH]; intros b L T S r k w v Lk NR; [destruct b; cbn in L; lia|].
  inversion T as [y NG|y e L1| | |b1 b1' T1|y e1 e1' Gy T1| | | | | | |]; subst.
  - apply qstar_one; [|apply quiet_ev]. constructor. unfold read_var. rewrite G, Lk. destruct v; try reflexivity. now contradiction (NR l).
  - destruct (inl_ok _ _ L1) as (_ & V & _). inversion V.
  - cbn in L, S. rewrite andb_true_r in S. eapply qs_step; [constructor; reflexivity | apply quiet_ev|]. cbn [map].
    eapply qs_step; [apply (st_pick P MDirect OApp [] (ELam [] b1) []) | apply quiet_op; discriminate|].
    eapply qs_step; [apply st_lam | apply quiet_ev|]. eapply qs_step; [constructor | apply quiet_ret|]. cbn [app].
    eapply qs_step; [apply (st_fire P MDirect OApp [VClo [] b1 r]); constructor; reflexivity | apply quiet_op; discriminate|].
    replace (set_hp w (hp w)) with w by now destruct w. apply IH; auto. lia.
  - cbn in L, S. rewrite andb_true_r in S. eapply qs_step; [constructor; reflexivity | apply quiet_ev|]. cbn [map].
    eapply qs_step; [apply (st_pick P MDirect OApp [] (ELam [y] (EVar y)) [STodo e1]) | apply quiet_op; discriminate|].
    eapply qs_step; [apply st_lam | apply quiet_ev|]. eapply qs_step; [constructor | apply quiet_ret|]. cbn [app].
    eapply qs_step; [apply (st_pick P MDirect OApp [SDone (VClo [y] (EVar y) r)] e1 []) | apply quiet_op; discriminate|].
    eapply qstar_trans; [apply (IH e1); [lia|assumption|assumption|exact Lk|exact NR]|].
    eapply qs_step; [constructor | apply quiet_ret|]. cbn [app].
    eapply qs_step; [apply (st_fire P MDirect OApp [VClo [y] (EVar y) r; v]); constructor; reflexivity | apply quiet_op; discriminate|].
    replace (set_hp w (hp w)) with w by now destruct w. apply qstar_one; [|apply quiet_ev]. constructor. unfold read_var, lookup. rewrite Gy. cbn [assq]. rewrite id_eqb_refl.
    destruct v; try reflexivity. now contradiction (NR l).
Qed.
Lemma honours_const s : honours ENo s -> forall w v w', run s [] w = Some (v, w') -> exists c, v = VC c /\ forall u, run s [] u = Some (VC c, u).
Proof.
  assert (A : forall a (v : val), atom_val a [] = Some v -> exists c, a = AConst c /\ v = VC c) by (intros [[|i]|c] v E; cbn in E; try discriminate; injection E as <-; eauto).
  induction s as [a| |a f IH|a b f IH|l s IH|a i s IH|a i b s IH|a s IH|s IH]; cbn [honours may_alloc may_look may_act]; intros H w v w' E; try (now destruct H); try discriminate; cbn [run] in E |- *.
  - destruct (atom_val a []) as [u|] eqn:X; [|discriminate]. injection E as <- <-. destruct (A _ _ X) as (c & -> & ->). eauto.
  - destruct (atom_val a []) as [u|] eqn:X; [|discriminate]. destruct (A _ _ X) as (c & -> & ->). cbn [atom_val]. eapply IH; eauto.
  - destruct (atom_val a []) as [u|] eqn:X; [|discriminate]. destruct (atom_val b []) as [u1|] eqn:Y; [|discriminate]. destruct (A _ _ X) as (c & -> & ->). destruct (A _ _ Y) as (c1 & -> & ->). cbn [atom_val].
    cbn [same] in *. eapply IH; eauto.
Qed.

Lemma means_not_ref e v : means e v -> forall l, v <> VRef l.
Proof. induction 1; intros l E; try discriminate. - now apply (IHmeans l). - now apply (IHmeans l). Qed.
Lemma step_null f b r k w : star (Ev (EApp f []) r k w) (Ev f r (Fr OApp [] [] r :: k) w) /\
  forall r0, qstar (Ret (VClo [] b r0) (Fr OApp [] [] r :: k) w) (Ev b r0 k w).
Proof.
  split.
  - eapply star_step; [constructor; reflexivity|]. apply star_one. apply (st_pick P MDirect OApp [] f []).
  - intros r0. eapply qs_step; [constructor | apply quiet_ret|]. cbn [app].
    eapply qs_step; [apply (st_fire P MDirect OApp [VClo [] b r0]); constructor; reflexivity | apply quiet_op; discriminate|].
    replace (set_hp w (hp w)) with w by now destruct w. constructor.
Qed.
Lemma enter_null f r k w : qstar (Ev (EApp f []) r k w) (Ev f r (Fr OApp [] [] r :: k) w).
Proof.
  eapply qs_step; [constructor; reflexivity | apply quiet_ev|]. apply qstar_one; [apply (st_pick P MDirect OApp [] f []) | apply quiet_op; discriminate].
Qed.
Lemma null_let b r k w : qstar (Ev (EApp (ELam [] b) []) r k w) (Ev b r k w).
Proof.
  eapply qstar_trans; [apply enter_null|]. eapply qs_step; [apply st_lam | apply quiet_ev|]. apply (proj2 (step_null (ELam [] b) b r k w)).
Qed.
Lemma enter_two f e r k w : qstar (Ev (EApp f [e]) r k w) (Ev f r (Fr OApp [] [STodo e] r :: k) w).
Proof.
  eapply qs_step; [constructor; reflexivity | apply quiet_ev|]. apply qstar_one; [apply (st_pick P MDirect OApp [] f [STodo e]) | apply quiet_op; discriminate].
Qed.
Lemma second f e r k w : qstar (Ret f (Fr OApp [] [STodo e] r :: k) w) (Ev e r (Fr OApp [SDone f] [] r :: k) w).
Proof.
  eapply qs_step; [constructor | apply quiet_ret|]. cbn [app]. apply qstar_one; [apply (st_pick P MDirect OApp [SDone f] e []) | apply quiet_op; discriminate].
Qed.
Lemma call_one x b r0 v r k w : qstar (Ret v (Fr OApp [SDone (VClo [x] b r0)] [] r :: k) w) (Ev b ((x, v) :: r0) k w).
Proof.
  eapply qs_step; [constructor | apply quiet_ret|]. cbn [app].
  eapply qs_step; [apply (st_fire P MDirect OApp [VClo [x] b r0; v]); constructor; reflexivity | apply quiet_op; discriminate|].
  replace (set_hp w (hp w)) with w by now destruct w. constructor.
Qed.
Lemma ident_let x e r k w : qstar (Ev (EApp (ELam [x] (EVar x)) [e]) r k w) (Ev e r (Fr OApp [SDone (VClo [x] (EVar x) r)] [] r :: k) w).
Proof.
  eapply qstar_trans; [apply enter_two|]. eapply qs_step; [apply st_lam | apply quiet_ev|]. apply second.
Qed.
Lemma ident_ret x r0 v r k w : global_id x = false -> (forall l, v <> VRef l) ->
  qstar (Ret v (Fr OApp [SDone (VClo [x] (EVar x) r0)] [] r :: k) w) (Ret v k w).
Proof.
  intros G NR. eapply qstar_trans; [apply call_one|]. apply qstar_one; [|apply quiet_ev]. constructor. unfold read_var, lookup. rewrite G. cbn [assq]. rewrite id_eqb_refl.
  destruct v; try reflexivity. now contradiction (NR l).
Qed.
Lemma wrong_q s s' : qstar s s' -> wrong s' -> wrong s.
Proof. intros Q W. eapply wrong_star; [apply qstar_star; exact Q | exact W]. Qed.

Lemma eval_def : forall N M e d, (esize e <= N)%nat -> (esize d <= M)%nat -> tr d e -> inlv e -> ag_simple d = true -> closed d ->
  forall r k w, inv (Ev d r k w) ->
  wrong (Ev d r k w) \/ exists v, qstar (Ev d r k w) (Ret v k w) /\ forall e', tr d e' -> inlv e' -> means e' v.
Proof.
  induction N as [|N IHN]; [intros M e d L; destruct e; cbn in L; lia|].
  induction M as [|M IHM]; [intros e d _ L; destruct d; cbn in L; lia|].
  intros e d LE LD T V S C r k w I.
  inversion T as [y NG|y e1 L1|y d1 e1 Gy NG Hy T1|y Gy|b1 b1' T1|y d1 e1 Gy T1| |ef p l l' F|f f' l l' ND T1 F|xs b b' T1| | |]; subst; try (now inversion V); try discriminate S.
  - (* another inlined variable *)
    destruct (inl_ok _ _ L1) as (G & _). right. exists (gl w y). split.
    + apply qstar_one; [|apply quiet_ev]. constructor. unfold read_var. now rewrite G.
    + intros e' T' V'. destruct (I y e L1) as [Mn|A]; [|exfalso; exact (timely y e _ L1 A r k w eq_refl)].
      inversion T' as [z NG|z e2 L2| | | | | | | | | | |]; subst; [inversion V'|]. assert (e' = e) by congruence. now subst.
  - (* (let () d) *)
    cbn in LD, S. rewrite andb_true_r in S.
    destruct (IHM e b1 LE ltac:(lia) T1 V S (closed_nil _ _ (closed_nil _ _ C (or_introl eq_refl)) (or_introl eq_refl)) r k w) as [W|(v & Q & H)].
    { eapply inv_qstar; [apply null_let | exact I]. }
    { left. eapply wrong_q; [apply null_let | exact W]. }
    right. exists v. split; [eapply qstar_trans; [apply null_let | exact Q]|]. intros e' T' V'.
    inversion T' as [| | | |b2 b2' T2| | | |f f' l l' ND T2 F| | | |]; subst; [auto | discriminate ND].
  - (* (let ((x d)) x) *)
    cbn in LD, S. rewrite andb_true_r in S.
    destruct (IHM e d1 LE ltac:(lia) T1 V S (closed_nil _ _ C (or_intror (or_introl eq_refl))) r (Fr OApp [SDone (VClo [y] (EVar y) r)] [] r :: k) w) as [W|(v & Q & H)].
    { eapply inv_qstar; [apply ident_let | exact I]. }
    { left. eapply wrong_q; [apply ident_let | exact W]. }
    right. exists v. assert (Mv : means e v) by auto. split.
    + eapply qstar_trans; [apply ident_let|]. eapply qstar_trans; [exact Q|]. apply ident_ret; [assumption | eapply means_not_ref; eauto].
    + intros e' T' V'. inversion T' as [| | | | |y2 d2 e2 Gy2 T2| | |f f' l l' ND T2 F| | | |]; subst; [auto | cbn in ND; rewrite id_eqb_refl in ND; discriminate ND].
  - (* a constant *)
    inversion V as [p0 NH HO| | |]; subst. inversion F; subst. destruct (run (P p) [] w) as [(v & w')|] eqn:E.
    + destruct (honours_const _ HO _ _ _ E) as (c & -> & U). right. exists (VC c). split.
      * eapply qs_step; [constructor; reflexivity | apply quiet_ev|]. apply qstar_one; [|apply quiet_op; discriminate].
        apply (st_fire P MDirect (OPrim ENo p) []). constructor; [assumption | apply U].
      * intros e' T' V'. inversion T' as [| | | | | | |ef2 p2 l2 l2' F2| | | | |]; subst. inversion F2; subst. now constructor.
    + left. apply wrong_star with (Args (OPrim ENo p) (map SDone []) r k w); [apply star_one; apply (st_args P MDirect (EPrim ENo p []) (OPrim ENo p) []); reflexivity|].
      apply stuck_fire. intros s X. apply fire_firef in X. cbn [firef] in X. destruct (zlist_dec p the_halt_prim) as [H|H]; [now apply NH in H|]. rewrite E in X. congruence.
  - (* a call *)
    inversion V as [| |e1 V1|y e1 Gy V1]; subst.
    + inversion F; subst. cbn in LE, S. rewrite andb_true_r in S.
      destruct (IHN (esize f) (ELam [] e1) f ltac:(cbn; lia) (le_n _) T1 (iv_lam _ _) S (closed_nil _ _ C (or_introl eq_refl)) r (Fr OApp [] [] r :: k) w) as [W|(v & Q & H)].
      { eapply inv_qstar; [apply enter_null | exact I]. }
      { left. eapply wrong_q; [apply enter_null | exact W]. }
      assert (Mv := H _ T1 (iv_lam _ _)). inversion Mv as [|xs b b' r0 Tb Cb Sb| |]; subst.
      assert (Q2 : qstar (Ev (EApp f []) r k w) (Ev b r0 k w)). { eapply qstar_trans; [apply enter_null|]. eapply qstar_trans; [exact Q|]. apply (proj2 (step_null f b r k w)). }
      destruct (IHN (esize b) e1 b ltac:(lia) (le_n _) Tb V1 Sb (closed_nil _ _ Cb (or_introl eq_refl)) r0 k w) as [W|(v & Q3 & H3)].
      { eapply inv_qstar; [exact Q2 | exact I]. }
      { left. eapply wrong_q; [exact Q2 | exact W]. }
      right. exists v. split; [eapply qstar_trans; [exact Q2 | exact Q3]|]. intros e' T' V'.
      inversion T' as [| | | |b2 b2' T2|y2 d2 e2 Gy2 T2| | |f2 f2' l2 l2' ND2 T2 F2| | | |]; subst; [discriminate ND|]. inversion F2; subst.
      inversion V' as [| |e2 V2|]; subst. constructor. apply H3; [|assumption]. assert (M2 := H _ T2 (iv_lam _ _)). inversion M2; subst. assumption.
    + inversion F as [|d1 e1' l1 l1' Td F1]; subst. inversion F1; subst. cbn in LE, S. rewrite andb_true_r in S. apply andb_true_iff in S. destruct S as (Sf & Sd).
      destruct (IHN (esize f) (ELam [y] (EVar y)) f ltac:(destruct e1; cbn in *; lia) (le_n _) T1 (iv_lam _ _) Sf (closed_nil _ _ C (or_introl eq_refl)) r (Fr OApp [] [STodo d1] r :: k) w) as [W|(v & Q & H)].
      { eapply inv_qstar; [apply enter_two | exact I]. }
      { left. eapply wrong_q; [apply enter_two | exact W]. }
      assert (Q1 : qstar (Ev (EApp f [d1]) r k w) (Ev d1 r (Fr OApp [SDone v] [] r :: k) w)). { eapply qstar_trans; [apply enter_two|]. eapply qstar_trans; [exact Q|]. apply second. }
      destruct (IHN (esize d1) e1 d1 ltac:(lia) (le_n _) Td V1 Sd (closed_nil _ _ C (or_intror (or_introl eq_refl))) r (Fr OApp [SDone v] [] r :: k) w) as [W|(u & Q3 & H3)].
      { eapply inv_qstar; [exact Q1 | exact I]. }
      { left. eapply wrong_q; [exact Q1 | exact W]. }
      assert (Mv := H _ T1 (iv_lam _ _)). inversion Mv as [|xs b b' r0 Tb Cb Sb| |]; subst. assert (Mu : means e1 u) by auto.
      right. exists u. split.
      * eapply qstar_trans; [exact Q1|]. eapply qstar_trans; [exact Q3|]. eapply qstar_trans; [apply call_one|].
        apply (var_body y Gy (esize b) b (le_n _) Tb Sb); [unfold lookup; cbn [assq]; now rewrite id_eqb_refl | eapply means_not_ref; eauto].
      * intros e' T' V'. inversion T' as [| | | |b2 b2' T2|y2 d2 e2 Gy2 T2| | |f2 f2' l2 l2' ND2 T2 F2| | | |]; subst.
        -- cbn in ND. rewrite id_eqb_refl in ND. discriminate ND.
        -- inversion F2 as [|d2 e2 l2 l2'' Td2 F3]; subst. inversion F3; subst. inversion V' as [| | |y2 e3 Gy2 V2]; subst. constructor. auto.
  - (* a procedure *)
    right. exists (VClo xs b r). split; [apply qstar_one; [apply st_lam | apply quiet_ev]|]. intros e' T' V'.
    inversion T' as [| | | | | | | | |xs2 b2 b2' T2| | |]; subst. now constructor.
Qed.
End Sem.
