(** Converted programs do what the original programs do. *)
From Coq Require Import ZArith List Bool Lia.
From Verif Require Import Model_Lit Model_Core Model_Cps Spec_Sem Spec_Free Spec_Scope Proofs_Sim Proofs_Core Proofs_Free Proofs_Agree Proofs_Assign.
Import ListNotations.
Open Scope Z_scope.

(** ** Related code.  [S] stands for the variables that the continuation relies on. *)
Inductive kind := KOp (o : oper) | KLet (ids : list id) (b : exp).
Inductive item := IS (e e' : exp) | IV (x : id).              (** an operand: postponed, or in a variable *)
Definition ex (i : item) : exp := match i with IS _ e' => e' | IV x => EVar x end.
Definition kd_free (x : id) (kd : kind) : Prop := match kd with KOp o => op_free x o | KLet ids b => free_in x (ELam ids b) end.
Definition NF (kd : kind) (items : list item) (rest : list exp) (x : id) : Prop :=
  kd_free x kd \/ (exists e e', In (IS e e') items /\ free_in x e) \/ exists e, In e rest /\ free_in x e.
Inductive pspec := PV (y : id) | PT (t : id) (e' : exp).      (** an operand of a primitive: a variable, or bound to a new variable *)
Definition ptmps (ps : list pspec) : list id := flat_map (fun s => match s with PT t _ => [t] | _ => [] end) ps.
Definition pvals (ps : list pspec) : list exp := flat_map (fun s => match s with PT _ e => [e] | _ => [] end) ps.
Definition pvars (ps : list pspec) : list exp := map (fun s => match s with PT t _ => EVar t | PV y => EVar y end) ps.
Definition pexp (s : pspec) : exp := match s with PT _ e => e | PV y => EVar y end.

Section Code.
Variable P : prim -> script.
Implicit Types S : id -> Prop.
Definition const_prim (p : prim) (c : const) : Prop := P p = SRet (AConst c) /\ p <> the_halt_prim.

Inductive SC : exp -> exp -> Prop :=
| sc_var x : SC (EVar x) (EVar x)
| sc_set x e e' : global_id x = true -> SC e e' -> SC (ESet x e) (ESet x e')
| sc_if a b c a' b' c' : SC a a' -> SC b b' -> SC c c' -> SC (EIf a b c) (EIf a' b' c')
| sc_prim ef p l ps : Forall2 (fun e s => SC e (pexp s)) l ps -> NoDup (ptmps ps) ->
    (forall t, In t (ptmps ps) -> global_id t = false /\ (forall e, In e l -> ~ free_in t e) /\ ~ In (PV t) ps) ->
    SC (EPrim ef p l) (let_exp (rev (ptmps ps)) (rev (pvals ps)) (EPrim ef p (pvars ps)))
| sc_lam xs b ys b' : LAM xs b ys b' -> SC (ELam xs b) (ELam ys b')
| sc_fix ids lams lams' b b' : Forall2 (fun l l' => LAM (fst l) (snd l) (fst l') (snd l')) lams lams' -> SC b b' -> SC (EFix ids lams b) (EFix ids lams' b')
| sc_null b b' : SC b b' -> SC (EApp (ELam [] b) []) b'
| sc_ident x e e' : global_id x = false -> SC e e' -> SC (EApp (ELam [x] (EVar x)) [e]) e'
| sc_let ids ids' l l' b b' : Forall2 SC l l' -> SC b b' ->
    ids' = ids \/ (exists x y, ids = [x] /\ ids' = [y] /\ ~ free_in x b /\ ~ free_in y b) ->
    SC (EApp (ELam ids b) l) (EApp (ELam ids' b') l')
with LAM : list id -> exp -> list id -> exp -> Prop :=
| lam_k S xs b k b' : global_id k = false -> ~ In k xs -> ~ free_in k b -> S k -> CE S b (EVar k) b' -> LAM xs b (k :: xs) b'
with CE : (id -> Prop) -> exp -> exp -> exp -> Prop :=
| ce_simple S e e' kexp : SC e e' -> CE S e kexp (EApp kexp [noreturn_exp; e'])
| ce_list S e o l kexp code : decomp e = Some (o, l) -> LC S (KOp o) [] l kexp code -> CE S e kexp code
| ce_iflet S S' a b c k kexp code : global_id k = false -> ~ free_in k (EIf a b c) -> S' k -> LC S' (KOp (OIf b c)) [] [a] (EVar k) code ->
    CE S (EIf a b c) kexp (let_exp [k] [kexp] code)
| ce_let S ids b l kexp code : LC S (KLet ids b) [] l kexp code -> CE S (EApp (ELam ids b) l) kexp code
| ce_fix S ids lams lams' b b' kexp : (forall x, In x ids -> ~ S x) -> Forall2 (fun l l' => LAM (fst l) (snd l) (fst l') (snd l')) lams lams' ->
    CE S b kexp b' -> CE S (EFix ids lams b) kexp (EFix ids lams' b')
| ce_null S b kexp code : CE S b kexp code -> CE S (EApp (ELam [] b) []) kexp code
| ce_ident S x e kexp code : global_id x = false -> CE S e kexp code -> CE S (EApp (ELam [x] (EVar x)) [e]) kexp code
| ce_begin S S1 x e1 e2 kexp ek y code2 code : ~ free_in x e2 -> (forall z, S z \/ free_in z e2 -> S1 z /\ z <> ek /\ z <> y) ->
    CE S e2 kexp code2 -> CE S1 e1 (ELam [ek; y] code2) code -> CE S (EApp (ELam [x] e2) [e1]) kexp code
| ce_letcc S S' x b kexp code : global_id x = false -> S' x -> CE S' b (EVar x) code -> CE S (ELetcc x b) kexp (let_exp [x] [kexp] code)
with LC : (id -> Prop) -> kind -> list item -> list exp -> exp -> exp -> Prop :=
| lc_end S kd items kexp code : FIN S kd items kexp code -> LC S kd items [] kexp code
| lc_simple S kd items e e' rest kexp code : SC e e' -> LC S kd (items ++ [IS e e']) rest kexp code -> LC S kd items (e :: rest) kexp code
| lc_complex S S1 kd items e rest kexp rr ek code2 code : global_id rr = false ->
    (forall x, S x \/ NF kd items rest x \/ In (IV x) items -> S1 x /\ x <> ek /\ x <> rr) ->
    LC S kd (items ++ [IV rr]) rest kexp code2 -> CE S1 e (ELam [ek; rr] code2) code -> LC S kd items (e :: rest) kexp code
with FIN : (id -> Prop) -> kind -> list item -> exp -> exp -> Prop :=
| fin_if S b c b' c' it kexp : CE S b kexp b' -> CE S c kexp c' -> FIN S (KOp (OIf b c)) [it] kexp (EIf (ex it) b' c')
| fin_set S x it kexp : global_id x = true -> FIN S (KOp (OSet x)) [it] kexp (EApp kexp [noreturn_exp; ESet x (ex it)])
| fin_prim S ef p items kexp : FIN S (KOp (OPrim ef p)) items kexp (EApp kexp [noreturn_exp; EPrim ef p (map ex items)])
| fin_app S it items kexp : FIN S (KOp OApp) (it :: items) kexp (EApp (ex it) (kexp :: map ex items))
| fin_let S ids b b' items kexp : (forall x, In x ids -> ~ S x) -> CE S b kexp b' ->
    FIN S (KLet ids b) items kexp (EApp (ELam ids b') (map ex items))
| fin_with_v S S' e x kexp code : S' x -> CE S' e (EVar x) code -> FIN S (KOp (OWith e)) [IV x] kexp code
| fin_with_x S S' e x kexp code : global_id x = false -> S' x -> CE S' e (EVar x) code -> FIN S (KOp (OWith e)) [IS (EVar x) (EVar x)] kexp code
| fin_with_lam S S' e xs b ys b' kexp code : LAM xs b ys b' -> (forall x, free_in x (ELam xs b) -> S' x) -> CE S' e (ELam ys b') code ->
    FIN S (KOp (OWith e)) [IS (ELam xs b) (ELam ys b')] kexp code
| fin_with_c S S' e ef p c kexp code : const_prim p c -> CE S' e (let_exp [] [] (EPrim ef p [])) code ->
    FIN S (KOp (OWith e)) [IS (EPrim ef p []) (let_exp [] [] (EPrim ef p []))] kexp code.
Scheme CE_m := Minimality for CE Sort Prop with LC_m := Minimality for LC Sort Prop with FIN_m := Minimality for FIN Sort Prop.
Combined Scheme code_ind from CE_m, LC_m, FIN_m.
Scheme SC_m := Minimality for SC Sort Prop.

(** ** Related values and continuations *)
Definition opk (kd : kind) : oper := match kd with KOp o => o | KLet _ _ => OApp end.
Definition full (kd : kind) (r : env) (l : list slot) : list slot := match kd with KOp _ => l | KLet ids b => SDone (VClo ids b r) :: l end.
Definition ident (x : id) (r r0 : env) : frame := Fr OApp [SDone (VClo [x] (EVar x) r)] [] r0.
Definition plain (v : val) : Prop := match v with VRef _ => False | _ => True end.
Inductive VR : val -> val -> Prop :=
| vr_c c : VR (VC c) (VC c)
| vr_loc l : VR (VLoc l) (VLoc l)
| vr_clo xs b ys b' r r' : LAM xs b ys b' ->
    (forall x, free_in x (ELam xs b) -> global_id x = false -> exists v v', lookup r x = Some v /\ lookup r' x = Some v' /\ VR v v') ->
    VR (VClo xs b r) (VClo ys b' r')
| vr_fix ids lams lams' i r r' : Forall2 (fun l l' => LAM (fst l) (snd l) (fst l') (snd l')) lams lams' ->
    (forall x, free_in x (EFix ids lams void_exp) -> global_id x = false -> exists v v', lookup r x = Some v /\ lookup r' x = Some v' /\ VR v v') ->
    VR (VFix ids lams i r) (VFix ids lams' i r')
| vr_cont K t : KK K t -> capturable K = true -> VR (VCont K) t
with KK : kont -> val -> Prop :=
| kk_lam S K ek rr code r' : KL S K ek rr code r' -> KK K (VClo [ek; rr] code r')
| kk_trap e v r t : is_proc v = false -> plain t -> KK [Fr (OWith e) [SDone v] [] r] t
| kk_proc e p r t : VR p t -> KK [Fr (OWith e) [SDone p] [] r] t
| kk_ident x r r0 K t : global_id x = false -> KK K t -> KK (ident x r r0 :: K) t
with KL : (id -> Prop) -> kont -> id -> id -> exp -> env -> Prop :=
| kl_nil S ek rr r' : global_id rr = false -> KL S [] ek rr (halt_exp (EVar rr)) r'
| kl_frame (S S0 : id -> Prop) kd i1 rest kexp l1 r K ek rr code r' : LC S0 kd (i1 ++ [IV rr]) rest kexp code -> IT r' i1 l1 ->
    (forall x, NF kd i1 rest x -> global_id x = false -> exists v v', lookup r x = Some v /\ lookup r' x = Some v' /\ VR v v') ->
    KE S0 kexp r' K -> global_id rr = false -> (forall x, S0 x \/ NF kd i1 rest x \/ In (IV x) i1 -> S x /\ x <> ek /\ x <> rr) ->
    KL S (Fr (opk kd) (full kd r l1) (map STodo rest) r :: K) ek rr code r'
| kl_begin (S S0 : id -> Prop) x e2 kexp r r0 K ek y code r' : CE S0 e2 kexp code -> ~ free_in x e2 ->
    (forall x, free_in x e2 -> global_id x = false -> exists v v', lookup r x = Some v /\ lookup r' x = Some v' /\ VR v v') ->
    KE S0 kexp r' K -> (forall z, S0 z \/ free_in z e2 -> S z /\ z <> ek /\ z <> y) ->
    KL S (Fr OApp [SDone (VClo [x] e2 r)] [] r0 :: K) ek y code r'
with KE : (id -> Prop) -> exp -> env -> kont -> Prop :=
| ke_var (S : id -> Prop) k t r' K : S k -> global_id k = false -> lookup r' k = Some t -> KK K t -> KE S (EVar k) r' K
| ke_lam S ek rr code r' K : KL S K ek rr code r' -> KE S (ELam [ek; rr] code) r' K
| ke_proc (S : id -> Prop) xs b ys b' e r r0 r' : LAM xs b ys b' ->
    (forall x, free_in x (ELam xs b) -> global_id x = false -> exists v v', lookup r x = Some v /\ lookup r' x = Some v' /\ VR v v') ->
    (forall x, free_in x (ELam xs b) -> S x) -> KE S (ELam ys b') r' [Fr (OWith e) [SDone (VClo xs b r)] [] r0]
| ke_const S ef p c e r0 r' : const_prim p c -> KE S (let_exp [] [] (EPrim ef p [])) r' [Fr (OWith e) [SDone (VC c)] [] r0]
| ke_ident S kexp x r r0 r' K : global_id x = false -> KE S kexp r' K -> KE S kexp r' (ident x r r0 :: K)
with IT : env -> list item -> list slot -> Prop :=
| it_nil r' : IT r' [] []
| it_s r' e e' items l : SC e e' -> IT r' items l -> IT r' (IS e e' :: items) (STodo e :: l)
| it_v r' x v v' items l : lookup r' x = Some v' -> global_id x = false -> VR v v' -> IT r' items l -> IT r' (IV x :: items) (SDone v :: l).
Scheme VR_m := Minimality for VR Sort Prop with KK_m := Minimality for KK Sort Prop with KL_m := Minimality for KL Sort Prop
  with KE_m := Minimality for KE Sort Prop.
Combined Scheme val_ind2 from VR_m, KK_m, KL_m, KE_m.
Scheme KL_n := Minimality for KL Sort Prop with KE_n := Minimality for KE Sort Prop.
Combined Scheme kont_ind2 from KL_n, KE_n.
Definition ER (F : id -> Prop) (r r' : env) : Prop :=
  forall x, F x -> global_id x = false -> exists v v', lookup r x = Some v /\ lookup r' x = Some v' /\ VR v v'.
Definition sr (w w' : st) : Prop :=
  Forall2 (Forall2 VR) (hp w) (hp w') /\ (forall x, VR (gl w x) (gl w' x)) /\ out w = out w' /\ inp w = inp w'.

Lemma vr_facts : (forall v t, VR v t -> shape_of v = shape_of t /\ plain v /\ plain t) /\
  (forall K t, KK K t -> plain t /\ (capturable K = true -> shape_of t = ShProc)) /\
  (forall S K ek rr code r', KL S K ek rr code r' -> True) /\ (forall S k r K, KE S k r K -> True).
Proof.
  apply val_ind2; intros; try exact Logic.I; try (split; [reflexivity | split; exact Logic.I]).
  - destruct H0 as (A & B). specialize (B H1). repeat split; auto.
  - split; [assumption|]. cbn. rewrite H. discriminate.
  - destruct H0 as (A & B & C). split; [assumption|]. cbn. intros Q. rewrite <- A. destruct p; cbn in Q; try discriminate; reflexivity || easy.
  - destruct H1 as (A & B). split; [assumption|]. cbn. assumption.
Qed.
Lemma VR_shape v v' : VR v v' -> shape_of v = shape_of v'.
Proof. intros V. apply (proj1 vr_facts _ _ V). Qed.
Lemma VR_plain v v' : VR v v' -> plain v /\ plain v'.
Proof. intros V. apply (proj1 vr_facts _ _ V). Qed.
Lemma KK_plain K t : KK K t -> plain t.
Proof. intros V. apply (proj1 (proj2 vr_facts) _ _ V). Qed.
Lemma shape_true v v' : shape_of v = shape_of v' -> is_true v = is_true v'.
Proof. destruct v, v'; cbn; try congruence; try reflexivity; intros [= ->]; reflexivity. Qed.
Lemma VR_true v v' : VR v v' -> is_true v = is_true v'.
Proof. intros V. apply shape_true. now apply VR_shape. Qed.
Lemma same_rel v v' u u' b : VR v v' -> VR u u' -> same v u = Some b -> same v' u' = Some b.
Proof.
  intros V U. pose proof (VR_shape _ _ V) as A. pose proof (VR_shape _ _ U) as B.
  assert (D : forall x x', VR x x' -> (exists c, x = VC c /\ x' = VC c) \/ (exists l, x = VLoc l /\ x' = VLoc l) \/ (shape_of x = ShProc /\ shape_of x' = ShProc)).
  { intros x x' X. pose proof (VR_shape _ _ X) as E. destruct X; eauto 6; right; right; cbn in *; auto. }
  destruct (D _ _ V) as [(c & -> & ->)|[(l & -> & ->)|(S1 & S1')]]; destruct (D _ _ U) as [(d & -> & ->)|[(l2 & -> & ->)|(S2 & S2')]]; try (cbn; congruence).
  - destruct u, u'; cbn in *; congruence.
  - destruct u, u'; cbn in *; congruence.
  - destruct v, v'; cbn in *; congruence.
  - destruct v, v'; cbn in *; congruence.
  - destruct v, u; cbn in *; congruence.
Qed.
Lemma run_sr p rs rs' s t v s1 : sr s t -> Forall2 VR rs rs' -> run p rs s = Some (v, s1) ->
  exists v' t1, run p rs' t = Some (v', t1) /\ sr s1 t1 /\ VR v v'.
Proof.
  intros S F E.
  destruct (run_rel unit (fun _ _ => True) (fun _ => VR) (fun _ => sr)) with (p := p) (w := tt) (rs := rs) (rs' := rs') (s := s) (t := t) (v := v) (s1 := s1)
    as (_ & v' & t1 & A & _ & B & C); eauto.
  - intros. constructor.
  - intros. now apply VR_shape.
  - intros _ _ _ v0 v0' u u' b _ V U. now apply same_rel.
  - intros _ s0 t0 vs vs' (H & G & O & I) Fv. exists tt. split; [exact Logic.I|]. split.
    + split; [|split; [|split]]; cbn; auto. apply Forall2_app; auto.
    + rewrite (Forall2_len _ _ _ H). constructor.
  - intros _ s0 t0 l v0 b i u (H & G & O & I) V N1 N2. inversion V; subst.
    destruct (Forall2_nth _ _ _ _ _ H N1) as (b' & N1' & Fb). destruct (Forall2_nth _ _ _ _ _ Fb N2) as (u' & N2' & U).
    exists l, b', u'. auto.
  - intros _ s0 t0 l v0 b i u u' b1 h (H & G & O & I) V U N1 S1 S2. inversion V; subst.
    destruct (Forall2_nth _ _ _ _ _ H N1) as (b' & N1' & Fb). destruct (Forall2_set _ _ _ _ _ _ _ Fb U S1) as (b1' & S1' & Fb1).
    destruct (Forall2_set _ _ _ _ _ _ _ H Fb1 S2) as (h' & S2' & Fh). exists l, b', b1', h'.
    split; [reflexivity|split; [assumption|split; [assumption|split; [assumption|]]]]. split; cbn; auto.
  - intros _ s0 t0 (H & G & O & I). auto.
  - intros _ s0 t0 o i (H & G & O & I). split; cbn; auto.
Qed.
(** what holds of an environment holds of one that agrees where it matters *)
Lemma IT_ext r' i l : IT r' i l -> forall r2, (forall x, In (IV x) i -> lookup r2 x = lookup r' x) -> IT r2 i l.
Proof.
  induction 1; intros r2 A; [constructor | constructor; [assumption|]; apply IHIT; intros; apply A; now right|].
  apply it_v with v'; auto.
  - rewrite A by now left. assumption.
  - apply IHIT; intros; apply A; now right.
Qed.
Lemma ER_ext (F : id -> Prop) r r' r2 : (forall x, F x -> lookup r2 x = lookup r' x) -> ER F r r' -> ER F r r2.
Proof. intros A E x Fx G. destruct (E x Fx G) as (v & v' & X & Y & V). exists v, v'. rewrite A; auto. Qed.
Lemma kont_ext : (forall S K ek rr code r', KL S K ek rr code r' -> forall S2 r2, (forall x, S x -> S2 x /\ lookup r2 x = lookup r' x) -> KL S2 K ek rr code r2) /\
  (forall S k r' K, KE S k r' K -> forall S2 r2, (forall x, S x -> S2 x /\ lookup r2 x = lookup r' x) -> KE S2 k r2 K).
Proof.
  apply kont_ind2.
  - intros. now constructor.
  - intros S S0 kd i1 rest kexp l1 r K ek rr code r' C I E KE0 IH G D S2 r2 A.
    assert (Q : forall x, S0 x \/ NF kd i1 rest x \/ In (IV x) i1 -> lookup r2 x = lookup r' x) by (intros x X; apply A, (D x X)).
    apply kl_frame with S0 i1 kexp; auto.
    + eapply IT_ext; eauto.
    + eapply ER_ext; [|exact E]. auto.
    + intros x X. destruct (D x X) as (X1 & X2). split; [now apply A | assumption].
  - intros S S0 x e2 kexp r r0 K ek y code r' C N E KE0 IH D S2 r2 A.
    assert (Q : forall z, S0 z \/ free_in z e2 -> lookup r2 z = lookup r' z) by (intros z X; apply A, (D z X)).
    apply kl_begin with S0 kexp; auto.
    + eapply ER_ext; [|exact E]. auto.
    + intros z X. destruct (D z X) as (X1 & X2). split; [now apply A | assumption].
  - intros S k t r' K X G L KK0 S2 r2 A. destruct (A k X) as (A1 & A2). apply ke_var with t; auto. congruence.
  - intros S ek rr code r' K KL0 IH S2 r2 A. constructor. auto.
  - intros S xs b ys b' e r r0 r' L E D S2 r2 A. apply ke_proc; auto.
    + eapply ER_ext; [|exact E]. intros x X. apply A. now apply D.
    + intros x X. apply A. now apply D.
  - intros. econstructor; eauto.
  - intros S kexp x r r0 r' K G KE0 IH S2 r2 A. constructor; auto.
Qed.
Lemma KE_ext S k r' K r2 : KE S k r' K -> (forall x, S x -> lookup r2 x = lookup r' x) -> KE S k r2 K.
Proof. intros H A. eapply (proj2 kont_ext); [exact H|]. auto. Qed.
Lemma KK_of v v' : VR v v' -> KK (kont_of v) v'.
Proof.
  intros V. destruct v; try (apply kk_proc; assumption). inversion V; subst. assumption.
Qed.

(** ** Expressions that give a value at once *)
Notation inev := (inev P MDirect).
Definition quick (r' : env) (c : exp) (v : val) : Prop :=
  forall o0 (Q : state -> Prop) k w, out w = o0 -> inev o0 Q (Ret v k w) -> inev o0 Q (Ev c r' k w).
Lemma set_hp_same w : set_hp w (hp w) = w.
Proof. now destruct w. Qed.
Lemma quick_var r' x v : global_id x = false -> lookup r' x = Some v -> plain v -> quick r' (EVar x) v.
Proof. intros G L Pl o0 Q k w O I. eapply inev_ev; [assumption| |exact I]. cbn [evf]. unfold read_var. rewrite G, L. now destruct v. Qed.
Lemma quick_lam r' xs b : quick r' (ELam xs b) (VClo xs b r').
Proof. intros o0 Q k w O I. eapply inev_ev; [assumption | reflexivity | exact I]. Qed.
Lemma quick_prim r' ef p c : const_prim p c -> quick r' (EPrim ef p []) (VC c).
Proof.
  intros (E & N) o0 Q k w O I. eapply inev_ev; [assumption | reflexivity|].
  eapply (inev_fire P MDirect o0 Q (OPrim ef p) []); [assumption | | exact I]. cbn [firef]. destruct (zlist_dec p the_halt_prim); [easy|]. rewrite E. reflexivity.
Qed.
Lemma inev_pick1 o0 (Q : state -> Prop) o e r k w : out w = o0 -> inev o0 Q (Ev e r (Fr o [] [] r :: k) w) -> inev o0 Q (Args o [STodo e] r k w).
Proof.
  intros O I. eapply inev_det; [assumption | apply (st_pick P MDirect o [] e [])| |exact I].
  intros t' S. apply step_args in S. destruct S as [(a & e1 & b & E & ->)|(vs & E & _)].
  - destruct a as [|s a]; [|destruct a; discriminate]. injection E as <- <-. reflexivity.
  - destruct vs; discriminate.
Qed.
Lemma quick_let0 r' b v : quick r' b v -> quick r' (let_exp [] [] b) v.
Proof.
  intros H o0 Q k w O I. eapply inev_ev; [assumption | reflexivity|]. cbn [map]. apply inev_pick1; [assumption|]. apply quick_lam; [assumption|].
  apply inev_ret; [assumption|]. eapply (inev_fire P MDirect o0 Q OApp [VClo [] b r']); [assumption | reflexivity|]. cbn. rewrite set_hp_same. now apply H.
Qed.
Lemma KE_quick S kexp r' K : KE S kexp r' K -> exists kv, quick r' kexp kv /\ KK K kv.
Proof.
  induction 1.
  - exists t. split; [|assumption]. apply quick_var; auto. eapply KK_plain; eauto.
  - eexists. split; [apply quick_lam|]. econstructor; eauto.
  - eexists. split; [apply quick_lam|]. apply kk_proc. now apply vr_clo.
  - exists (VC c). split; [apply quick_let0; now apply quick_prim|]. apply kk_trap; [reflexivity | exact Logic.I].
  - destruct IHKE as (kv & A & B). exists kv. split; [assumption | now constructor].
Qed.
End Code.
