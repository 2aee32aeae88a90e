(** The simulation for unboxing: names are replaced by typed names, which are bound through conversions. *)
From Coq Require Import ZArith String List Bool Lia.
From Verif Require Import Base Model_Lit Model_Core Spec_Sem Spec_Free Spec_Fold Spec_Unbox Proofs_Sim Proofs_Core Proofs_Free Proofs_Assign Proofs_BetaFree Proofs_FoldText Proofs_FoldSem.
Import ListNotations.
Open Scope Z_scope.
Implicit Types sg : id -> id.
Implicit Types Q Qt : shape -> Prop.

Section Sem.
Variable P : prim -> script.
Variables of fits : list Z -> shape -> bool.
Hypothesis U : unboxing P of fits.
Notation TJ := (TJ P).
Definition is (t : list Z) (s : shape) : Prop := of t s = true.
Definition cv (t : list Z) (e : exp) : exp := EPrim ENo (conv t) [e].
Definition put sg (x y : id) : id -> id := fun z => if id_dec z x then y else sg z.

(** ** Expressions that correspond; [sg] gives the new names of variables *)
Inductive UV : (id -> id) -> exp -> exp -> Prop :=
| uv_var sg x : global_id (sg x) = global_id x -> (global_id x = true -> sg x = x) -> UV sg (EVar x) (EVar (sg x))
| uv_set sg x e e' : global_id x = true -> UV sg e e' -> UV sg (ESet x e) (ESet x e')
| uv_if sg a b c a' b' c' : UV sg a a' -> UV sg b b' -> UV sg c c' -> UV sg (EIf a b c) (EIf a' b' c')
| uv_test sg sg1 ef p x t y b c b' c' : global_id x = false -> check_text t p -> telling t -> sg x = x -> global_id y = false ->
    (forall z, sg1 z = put sg x y z) -> UV sg1 b b' -> UV sg c c' -> (forall z, free_in z b -> z <> x -> sg z <> y) ->
    UV sg (EIf (EPrim ef p [EVar x]) b c) (EIf (EPrim ef p [EVar x]) (let_exp [y] [cv t (EVar x)] b') c')
| uv_null sg b b' : UV sg b b' -> UV sg (let_exp [] [] b) b'
| uv_ident sg x e e' : global_id x = false -> UV sg e e' -> UV sg (let_exp [x] [e] (EVar x)) e'
| uv_let sg sg1 ids ids' l l' b b' : length ids = length l -> length ids = length ids' -> NoDup ids -> NoDup ids' ->
    Forall2 (fun e e' => UV sg e e' \/ exists t e1, e' = cv t e1 /\ name t /\ telling t /\ UV sg e e1 /\ forall r, TJ r e1 (is t)) l l' ->
    (forall i x, nth_error ids i = Some x -> nth_error ids' i = Some (sg1 x)) ->
    (forall x, free_in x b -> ~ In x ids -> sg1 x = sg x /\ ~ In (sg x) ids') ->
    UV sg1 b b' -> UV sg (let_exp ids l b) (let_exp (rev ids') (rev l') b')
| uv_prim sg ef p l l' : Forall2 (UV sg) l l' -> UV sg (EPrim ef p l) (EPrim ef p l')
| uv_app sg f l f' l' : UV sg f f' -> Forall2 (UV sg) l l' -> is_lam f' = false \/ (exists ids b, f = ELam ids b /\ length ids <> length l) -> UV sg (EApp f l) (EApp f' l')
| uv_lam sg xs b b' : UB sg xs b b' -> UV sg (ELam xs b) (ELam xs b')
| uv_fix sg ids lams lams' b b' : Forall2 (fun l l' => fst l' = fst l /\ UB sg (fst l) (snd l) (snd l')) lams lams' -> UV sg b b' ->
    (forall x, In x ids -> sg x = x) -> (forall x, free_in x (EFix ids lams b) -> ~ In (sg x) ids) -> UV sg (EFix ids lams b) (EFix ids lams' b')
(** the body of a procedure *)
with UB : (id -> id) -> list id -> exp -> exp -> Prop :=
| ub_plain sg xs b b' : UV sg b b' -> (forall x, In x xs -> sg x = x) -> (forall x, free_in x (ELam xs b) -> ~ In (sg x) xs) -> UB sg xs b b'
| ub_hoist sg sg1 xs b b' ys zs ts : length ys = length zs -> length ys = length ts -> NoDup ys -> incl zs xs -> Forall name ts ->
    (forall i z, nth_error zs i = Some z -> nth_error ys i = Some (sg1 z) /\ global_id z = false) ->
    (forall x, In x xs -> ~ In x zs -> sg1 x = x) -> (forall x, ~ In x xs -> sg1 x = sg x) ->
    (forall x, free_in x b -> ~ In x zs -> ~ In (sg1 x) ys) -> (forall x, free_in x (ELam xs b) -> ~ In (sg x) xs) ->
    Forall2 (fun z t => sure z t b /\ unboxed t) zs ts -> UV sg1 b b' ->
    UB sg xs b (let_exp ys (map (fun zt => cv (snd zt) (EVar (fst zt))) (combine zs ts)) b').
(** ** States that correspond *)
Inductive elem :=
| Both (s s' : slot) (Q : shape -> Prop)                                             (** an operand on both sides *)
| Op (d : bool) (xs : list id) (b : exp) (r : env) (xs' : list id) (b' : exp) (r' : env).   (** the operator of a let, evaluated or not *)
Definition src (x : elem) : slot :=
  match x with Both s _ _ => s | Op d xs b r _ _ _ => if d then SDone (VClo xs b r) else STodo (ELam xs b) end.
Definition tgt (x : elem) : slot :=
  match x with Both _ s _ => s | Op d _ _ _ xs b r => if d then SDone (VClo xs b r) else STodo (ELam xs b) end.
Inductive sk := KQ (Q : shape -> Prop) | KO (xs : list id) (b : exp) (r : env) (xs' : list id) (b' : exp) (r' : env).
Definition skel (x : elem) : sk := match x with Both _ _ Q => KQ Q | Op _ xs b r xs' b' r' => KO xs b r xs' b' r' end.
(** the operands of a let come in reverse order *)
Definition rv {A} (f : bool) (l : list A) : list A := if f then match l with [] => [] | h :: t => h :: rev t end else l.

Inductive VR : val -> val -> Prop :=
| vr_c c : VR (VC c) (VC c)
| vr_loc l : VR (VLoc l) (VLoc l)
| vr_clo sg xs b b' r r' : UB sg xs b b' ->
    (forall x, free_in x (ELam xs b) -> global_id x = false -> orel (lookup r x) (lookup r' (sg x))) -> VR (VClo xs b r) (VClo xs b' r')
| vr_fix sg ids lams lams' i r r' : Forall2 (fun l l' => fst l' = fst l /\ UB sg (fst l) (snd l) (snd l')) lams lams' ->
    (forall x, In x ids -> sg x = x) -> (forall x, free_in x (EFix ids lams void_exp) -> ~ In (sg x) ids) ->
    (forall x, free_in x (EFix ids lams void_exp) -> global_id x = false -> orel (lookup r x) (lookup r' (sg x))) ->
    VR (VFix ids lams i r) (VFix ids lams' i r')
with orel : option val -> option val -> Prop :=
| or_none : orel None None
| or_some v v' : VR v v' -> orel (Some v) (Some v').
Definition ER sg (F : id -> Prop) (r r' : env) : Prop := forall x, F x -> global_id x = false -> orel (lookup r x) (lookup r' (sg x)).
Inductive tok : env -> env -> elem -> Prop :=
| tk_done r r' v v' Q : VR v v' -> Q (shape_of v) -> tok r r' (Both (SDone v) (SDone v') Q)
| tk_todo sg r r' e e' Q : UV sg e e' -> TJ r' e' Q -> ER sg (fun x => free_in x e) r r' -> tok r r' (Both (STodo e) (STodo e') Q)
| tk_conv sg r r' e e' t Q : UV sg e e' -> name t -> telling t -> TJ r' e' (is t) -> TJ r' (cv t e') Q -> ER sg (fun x => free_in x e) r r' ->
    tok r r' (Both (STodo e) (STodo (cv t e')) Q)
| tk_op r r' d xs b xs' b' : tok r r' (Op d xs b r xs' b' r').
(** [KIND r r' Q f ks o o']: with operands as in [ks] the operation gives a value with [Q] *)
Inductive KIND : env -> env -> (shape -> Prop) -> bool -> list sk -> oper -> oper -> Prop :=
| kd_if sg r r' Q Qt b c b' c' : UV sg b b' -> UV sg c c' -> TJ r' b' Q -> TJ r' c' Q -> ER sg (fun x => free_in x b \/ free_in x c) r r' ->
    KIND r r' Q false [KQ Qt] (OIf b c) (OIf b' c')
| kd_set r r' Q Qs x : (forall s, Q s) -> global_id x = true -> KIND r r' Q false (map KQ Qs) (OSet x) (OSet x)
| kd_prim r r' Q Qs ef p : (forall vs w v w', sats Qs vs -> run (P p) vs w = Some (v, w') -> Q (shape_of v)) ->
    KIND r r' Q false (map KQ Qs) (OPrim ef p) (OPrim ef p)
| kd_app r r' Q Qs : (forall s, Q s) -> KIND r r' Q false (map KQ Qs) OApp OApp
| kd_let sg r r' Q Qs ids ids' b b' : UV sg b b' -> length ids = length ids' -> NoDup ids -> NoDup ids' ->
    (forall i x, nth_error ids i = Some x -> nth_error ids' i = Some (sg x)) ->
    (forall x, free_in x b -> ~ In x ids -> ~ In (sg x) ids') ->
    ER sg (fun x => free_in x (ELam ids b)) r r' ->
    (forall vs r1 h h', sats (rev Qs) vs -> bind MDirect (rev ids') vs r' h = Some (r1, h') -> TJ r1 b' Q) ->
    KIND r r' Q true (KO ids b r (rev ids') b' r' :: map KQ Qs) OApp OApp
| kd_bad r r' Q Qs ids b ids' b' : length ids <> length Qs -> KIND r r' Q false (KO ids b r ids' b' r' :: map KQ Qs) OApp OApp.
(** [KR Q K K']: for values with [Q] *)
Inductive KR : (shape -> Prop) -> kont -> kont -> Prop :=
| kr_nil Q : KR Q [] []
| kr_frame Q Q0 f T1 T2 A B o r K o' r' K' : Forall (tok r r') T1 -> Forall (tok r r') T2 -> (forall y, rv f (T1 ++ y :: T2) = A ++ y :: B) ->
    KIND r r' Q f (map skel T1 ++ KQ Q0 :: map skel T2) o o' ->
    KR Q K K' -> KR Q0 (Fr o (map src T1) (map src T2) r :: K) (Fr o' (map tgt A) (map tgt B) r' :: K')
| kr_conv t Q0 Q1 r0 F F' K K' : name t -> telling t -> (forall s, Q1 s -> is t s /\ Q0 s) -> KR Q0 (F :: K) (F' :: K') -> KR Q1 (F :: K) (Fr (OPrim ENo (conv t)) [] [] r0 :: F' :: K')
| kr_ident Q x r r0 K K' : global_id x = false -> KR Q K K' -> KR Q (Fr OApp [SDone (VClo [x] (EVar x) r)] [] r0 :: K) K'.
Definition sr (w w' : st) : Prop :=
  Forall2 (Forall2 VR) (hp w) (hp w') /\ (forall x, VR (gl w x) (gl w' x)) /\ out w = out w' /\ inp w = inp w'.
Inductive R : nat -> state -> state -> Prop :=
| r_ev sg Q e e' r r' K K' w w' : UV sg e e' -> TJ r' e' Q -> ER sg (fun x => free_in x e) r r' -> KR Q K K' -> sr w w' ->
    R 0 (Ev e r K w) (Ev e' r' K' w')
| r_args Q f T o o' r r' K K' w w' : Forall (tok r r') T -> KIND r r' Q f (map skel T) o o' -> KR Q K K' -> sr w w' ->
    R 0 (Args o (map src T) r K w) (Args o' (map tgt (rv f T)) r' K' w')
| r_ret Q v v' K K' w w' : VR v v' -> Q (shape_of v) -> KR Q K K' -> sr w w' -> R 0 (Ret v K w) (Ret v' K' w')
| r_halt v v' w w' : VR v v' -> sr w w' -> R 0 (Halted v w) (Halted v' w').
Notation good := (good P MDirect MDirect R).
Notation next := (next P MDirect R).
Notation inev := (inev P MDirect).
Notation star := (star P MDirect).
Notation wrong := (wrong P MDirect).

(** ** Values *)
Lemma VR_shape v v' : VR v v' -> shape_of v = shape_of v'.
Proof. destruct 1; reflexivity. Qed.
Lemma VR_not_ref v v' : VR v v' -> (forall l, v <> VRef l) /\ (forall l, v' <> VRef l).
Proof. destruct 1; split; discriminate. Qed.
Lemma VR_true v v' : VR v v' -> is_true v = is_true v'.
Proof. intros V. rewrite !truth_is. now rewrite (VR_shape _ _ V). Qed.
Lemma run_sr p rs rs' s t v s1 : sr s t -> Forall2 VR rs rs' -> run p rs s = Some (v, s1) ->
  exists v' t1, run p rs' t = Some (v', t1) /\ sr s1 t1 /\ VR v v'.
Proof.
  intros S F E.
  destruct (run_rel unit (fun _ _ => True) (fun _ => VR) (fun _ => sr)) with (p := p) (w := tt) (rs := rs) (rs' := rs') (s := s) (t := t) (v := v) (s1 := s1)
    as (_ & v' & t1 & A & _ & B & C); eauto.
  - intros. constructor.
  - intros. now apply VR_shape.
  - intros _ _ _ v0 v0' u u' b _ V W. destruct V, W; cbn; intros X; auto.
  - intros _ s0 t0 vs vs' (H & G & O & I) Fv. exists tt. split; [exact Logic.I|]. split.
    + split; [|split; [|split]]; cbn; auto. apply Forall2_app; auto.
    + rewrite (Forall2_len _ _ _ H). constructor.
  - intros _ s0 t0 l v0 b i u (H & G & O & I) V N1 N2. inversion V; subst.
    destruct (Forall2_nth _ _ _ _ _ H N1) as (b' & N1' & Fb). destruct (Forall2_nth _ _ _ _ _ Fb N2) as (u' & N2' & W).
    exists l, b', u'. auto.
  - intros _ s0 t0 l v0 b i u u' b1 h (H & G & O & I) V W N1 S1 S2. inversion V; subst.
    destruct (Forall2_nth _ _ _ _ _ H N1) as (b' & N1' & Fb). destruct (Forall2_set _ _ _ _ _ _ _ Fb W S1) as (b1' & S1' & Fb1).
    destruct (Forall2_set _ _ _ _ _ _ _ H Fb1 S2) as (h' & S2' & Fh). exists l, b', b1', h'.
    split; [reflexivity|split; [assumption|split; [assumption|split; [assumption|]]]]. split; cbn; auto.
  - intros _ s0 t0 (H & G & O & I). auto.
  - intros _ s0 t0 o i (H & G & O & I). split; cbn; auto.
Qed.
Lemma set_hp_same w : set_hp w (hp w) = w.
Proof. now destruct w. Qed.
Lemma sr_out w w' : sr w w' -> out w = out w'.
Proof. intros (_ & _ & O & _). exact O. Qed.
Lemma sr_set w w' x v v' : sr w w' -> VR v v' -> sr (set_gl w x v) (set_gl w' x v').
Proof. intros (H & G & O & I) V. split; [|split; [|split]]; cbn; auto. intros y. destruct (id_eqb y x); auto. Qed.
Lemma er_impl sg (F G : id -> Prop) r r' : (forall x, G x -> F x) -> ER sg F r r' -> ER sg G r r'.
Proof. intros H A x X. apply A. auto. Qed.
Lemma bind_both xs : forall vs vs' r r' h r1 h1, Forall2 VR vs vs' -> bind MDirect xs vs r h = Some (r1, h1) -> h1 = h /\ exists r1',
  (forall h', bind MDirect xs vs' r' h' = Some (r1', h')) /\
  (forall x, In x xs -> orel (lookup r1 x) (lookup r1' x) /\ lookup r1 x <> None) /\
  (forall x, ~ In x xs -> lookup r1 x = lookup r x /\ lookup r1' x = lookup r' x).
Proof.
  induction xs as [|x xs IH]; intros vs vs' r r' h r1 h1 F B.
  - destruct F; [|discriminate]. injection B as <- <-. split; [reflexivity|]. exists r'. split; [reflexivity|split; [easy | auto]].
  - destruct F as [|v v' vs vs' V F]; [discriminate|]. cbn [bind] in B. destruct (IH _ _ _ ((x, v') :: r') _ _ _ F B) as (-> & r1' & B' & C & D).
    split; [reflexivity|]. exists r1'. split; [exact B'|split].
    + intros y I. destruct (in_dec id_dec y xs) as [J|J]; [auto|]. destruct I as [->|I]; [|easy]. destruct (D y J) as (-> & ->). rewrite !lookup_cons, id_eqb_refl. split; [now constructor | discriminate].
    + intros y I. destruct (D y) as (-> & ->); [firstorder|]. assert (N : y <> x) by firstorder congruence. rewrite !lookup_cons, (proj2 (id_eqb_neq _ _) N). auto.
Qed.
Lemma fix_from_both ys : forall i ids lams lams' r r' x, (forall j, VR (VFix ids lams j r) (VFix ids lams' j r')) ->
  (In x ys -> orel (lookup (bind_fix_from i ys ids lams r) x) (lookup (bind_fix_from i ys ids lams' r') x)) /\
  (~ In x ys -> lookup (bind_fix_from i ys ids lams r) x = lookup r x) /\ (forall y, ~ In y ys -> lookup (bind_fix_from i ys ids lams' r') y = lookup r' y).
Proof.
  induction ys as [|y ys IH]; intros i ids lams lams' r r' x H; cbn [bind_fix_from]; [split; [easy | auto]|].
  destruct (IH (Datatypes.S i) ids lams lams' r r' x H) as (A & B & C). split; [|split].
  - rewrite !lookup_cons. destruct (id_eqb x y) eqn:E; [intros _; now constructor|]. apply id_eqb_neq in E. intros [->|I]; [easy | auto].
  - intros N. rewrite lookup_cons. assert (N1 : x <> y) by firstorder congruence. rewrite (proj2 (id_eqb_neq _ _) N1). apply B. firstorder.
  - intros z N. rewrite lookup_cons. assert (N1 : z <> y) by firstorder congruence. rewrite (proj2 (id_eqb_neq _ _) N1). apply C. firstorder.
Qed.
Lemma fix_er sg ids lams lams' r r' (F : id -> Prop) :
  (forall j, VR (VFix ids lams j r) (VFix ids lams' j r')) -> (forall x, In x ids -> sg x = x) -> (forall x, F x -> ~ In x ids -> ~ In (sg x) ids) ->
  ER sg (fun x => F x /\ ~ In x ids) r r' -> ER sg F (bind_fix ids lams r) (bind_fix ids lams' r').
Proof.
  intros V A B E x Fx G. unfold bind_fix. destruct (fix_from_both ids 0 ids lams lams' r r' x V) as (C & D & D').
  destruct (in_dec id_dec x ids) as [I|I]; [rewrite (A x I); now apply C|]. rewrite (D I), (D' _ (B x Fx I)). now apply E.
Qed.

(** ** Straight expressions and sure uses *)
Definition local_value (r : env) (e : exp) (v : val) : Prop :=
  forall x u, e = EVar x -> global_id x = false -> lookup r x = Some u -> (forall l, u <> VRef l) -> v = u.
Lemma ops_done o r k (D : forall e, straight e -> forall r k w, wrong (Ev e r k w) \/ exists v w', star (Ev e r k w) (Ret v k w') /\ local_value r e v) l :
  (forall e, In e l -> straight e) -> forall vs w, wrong (Args o (map SDone vs ++ map STodo l) r k w) \/
  exists vs' w', star (Args o (map SDone vs ++ map STodo l) r k w) (Args o (map SDone (vs ++ vs')) r k w') /\ Forall2 (local_value r) l vs'.
Proof.
  induction l as [|e l IH]; intros S vs w.
  - right. exists [], w. cbn. rewrite !app_nil_r. split; constructor.
  - cbn [map]. pose proof (st_pick P MDirect o (map SDone vs) e (map STodo l) r k w) as SP.
    destruct (D e (S _ (or_introl eq_refl)) r (Fr o (map SDone vs) (map STodo l) r :: k) w) as [W|(v & w1 & St & LV)].
    + left. eapply wrong_star; [apply star_one, SP | exact W].
    + assert (St1 : star (Args o (map SDone vs ++ STodo e :: map STodo l) r k w) (Args o (map SDone (vs ++ [v]) ++ map STodo l) r k w1)).
      { eapply star_step; [exact SP|]. eapply star_trans; [exact St|]. eapply star_step; [apply st_ret|]. rewrite map_app, <- app_assoc. constructor. }
      destruct (IH (fun e I => S e (or_intror I)) (vs ++ [v]) w1) as [W|(vs' & w2 & St2 & LV2)].
      * left. eapply wrong_star; eauto.
      * right. exists (v :: vs'), w2. split; [|now constructor]. rewrite <- app_assoc in St2. eapply star_trans; [exact St1 | exact St2].
Qed.
Lemma fr_straight l : fold_right (fun e q => straight e /\ q) True l -> forall e, In e l -> straight e.
Proof. induction l as [|e l IH]; cbn; [easy|]. intros (A & B) e' [->|I]; auto. Qed.
Lemma fires o vs r k w s : firef P MDirect o vs r k w = Some s -> star (Args o (map SDone vs) r k w) s.
Proof. intros F. apply star_one. constructor. now apply fire_firef. Qed.
Lemma no_fire o vs r k w : firef P MDirect o vs r k w = None -> wrong (Args o (map SDone vs) r k w).
Proof. intros F. apply stuck_fire. intros s X. apply fire_firef in X. congruence. Qed.
Lemma evs e r k w s : evf MDirect e r k w = Some s -> star (Ev e r k w) s.
Proof. intros F. apply star_one. now apply step_evf. Qed.
Lemma list_sum_in (l : list exp) e : In e l -> (esize e <= list_sum (map esize l))%nat.
Proof. induction l as [|x l IH]; [easy|]. intros [->|I]; cbn [map list_sum fold_right]; [unfold list_sum in *; lia | specialize (IH I); unfold list_sum in *; lia]. Qed.
Lemma straight_done m : forall e, (esize e <= m)%nat -> straight e -> forall r k w, wrong (Ev e r k w) \/ exists v w', star (Ev e r k w) (Ret v k w') /\ local_value r e v.
Proof.
  induction m as [|m IH]; intros e L S r k w; [destruct e; cbn in L; lia|].
  assert (OPS : forall l o r k vs w, (forall e, In e l -> (esize e <= m)%nat /\ straight e) -> wrong (Args o (map SDone vs ++ map STodo l) r k w) \/
    exists vs' w', star (Args o (map SDone vs ++ map STodo l) r k w) (Args o (map SDone (vs ++ vs')) r k w') /\ length vs' = length l).
  { clear -IH. induction l as [|e l IHl]; intros o r k vs w H.
    - right. exists [], w. cbn. rewrite !app_nil_r. split; [constructor | reflexivity].
    - cbn [map]. pose proof (st_pick P MDirect o (map SDone vs) e (map STodo l) r k w) as SP. destruct (H e (or_introl eq_refl)) as (He & Hs).
      destruct (IH e He Hs r (Fr o (map SDone vs) (map STodo l) r :: k) w) as [W|(v & w1 & St & _)].
      + left. eapply wrong_star; [apply star_one, SP | exact W].
      + assert (St1 : star (Args o (map SDone vs ++ STodo e :: map STodo l) r k w) (Args o (map SDone (vs ++ [v]) ++ map STodo l) r k w1)).
        { eapply star_step; [exact SP|]. eapply star_trans; [exact St|]. eapply star_step; [apply st_ret|]. rewrite map_app, <- app_assoc. constructor. }
        destruct (IHl o r k (vs ++ [v]) w1 (fun e I => H e (or_intror I))) as [W|(vs' & w2 & St2 & LV2)].
        * left. eapply wrong_star; eauto.
        * right. exists (v :: vs'), w2. split; [|cbn; now f_equal]. rewrite <- app_assoc in St2. eapply star_trans; [exact St1 | exact St2]. }
  assert (LVn : forall v, (forall x, e <> EVar x) -> local_value r e v) by (intros v N x u E; now apply N in E).
  destruct e as [x|x e|a b c|ef p l|f l|xs b|xs lams b|x b|k0 e]; cbn [straight] in S; cbn [esize] in L.
  - destruct (read_var MDirect r x w) as [v|] eqn:Rv.
    + right. exists v, w. split; [apply evs; cbn; now rewrite Rv|]. intros y u [= <-] G Lk N. unfold read_var in Rv. rewrite G, Lk in Rv. destruct u; congruence.
    + left. apply stuck_ev. cbn. now rewrite Rv.
  - destruct (OPS [e] (OSet x) r k [] w) as [W|(vs & w1 & St & Lv)]; [intros ? [<-|[]]; split; [lia | assumption] | | ].
    + left. eapply wrong_star; [apply evs; reflexivity | exact W].
    + assert (St1 : star (Ev (ESet x e) r k w) (Args (OSet x) (map SDone vs) r k w1)) by (eapply star_trans; [apply evs; reflexivity | exact St]).
      destruct vs as [|v [|]]; try discriminate. destruct (firef P MDirect (OSet x) [v] r k w1) as [s|] eqn:F.
      * right. pose proof F as F0. cbn [firef] in F. destruct (global_id x).
        -- injection F as <-. eexists _, _. split; [eapply star_trans; [exact St1 | exact (fires _ _ _ _ _ _ F0)]|]. apply LVn. discriminate.
        -- destruct (lookup r x) as [[]|]; try discriminate. destruct (nth_error (hp w1) l) as [[|? []]|]; try discriminate. destruct (list_set (hp w1) l [v]); try discriminate. injection F as <-.
           eexists _, _. split; [eapply star_trans; [exact St1 | exact (fires _ _ _ _ _ _ F0)]|]. apply LVn. discriminate.
      * left. eapply wrong_star; [exact St1 | exact (no_fire _ _ _ _ _ F)].
  - destruct S as (Sa & Sb & Sc). destruct (OPS [a] (OIf b c) r k [] w) as [W|(vs & w1 & St & Lv)]; [intros ? [<-|[]]; split; [lia | assumption] | | ].
    + left. eapply wrong_star; [apply evs; reflexivity | exact W].
    + destruct vs as [|v [|]]; try discriminate.
      assert (St1 : star (Ev (EIf a b c) r k w) (Ev (if is_true v then b else c) r k w1)).
      { eapply star_trans; [apply evs; reflexivity|]. eapply star_trans; [exact St|]. exact (fires (OIf b c) [v] r k w1 _ eq_refl). }
      destruct (IH (if is_true v then b else c)) with (r := r) (k := k) (w := w1) as [W|(v2 & w2 & St2 & _)]; [destruct (is_true v); lia | now destruct (is_true v) | |].
      * left. eapply wrong_star; eauto.
      * right. exists v2, w2. split; [eapply star_trans; eauto|]. apply LVn. discriminate.
  - destruct S as (Np & Sl). destruct (OPS l (OPrim ef p) r k [] w) as [W|(vs & w1 & St & Lv)].
    { intros e I. split; [pose proof (list_sum_in l e I); lia | exact (fr_straight _ Sl e I)]. }
    + left. eapply wrong_star; [apply evs; reflexivity | exact W].
    + assert (St1 : star (Ev (EPrim ef p l) r k w) (Args (OPrim ef p) (map SDone vs) r k w1)) by (eapply star_trans; [apply evs; reflexivity | exact St]).
      destruct (firef P MDirect (OPrim ef p) vs r k w1) as [s|] eqn:F; [|left; eapply wrong_star; [exact St1 | exact (no_fire _ _ _ _ _ F)]].
      right. pose proof (fires _ _ _ _ _ _ F) as F0. cbn [firef] in F. destruct (zlist_dec p the_halt_prim); [easy|]. destruct (run (P p) vs w1) as [(v & w2)|]; [|discriminate]. injection F as <-.
      exists v, w2. split; [eapply star_trans; eauto|]. apply LVn. discriminate.
  - destruct f as [| | | | |ids b| | |]; try easy. destruct S as (Ll & Sb & Sl). cbn [esize] in L.
    assert (St0 : star (Ev (EApp (ELam ids b) l) r k w) (Args OApp (map SDone [VClo ids b r] ++ map STodo l) r k w)).
    { eapply star_trans; [apply evs; reflexivity|]. cbn [map app]. eapply star_step; [apply (st_pick P MDirect OApp [] (ELam ids b) (map STodo l))|].
      eapply star_step; [apply st_lam|]. eapply star_step; [apply st_ret|]. constructor. }
    destruct (OPS l OApp r k [VClo ids b r] w) as [W|(vs & w1 & St & Lv)].
    { intros e I. split; [pose proof (list_sum_in l e I); lia | exact (fr_straight _ Sl e I)]. }
    + left. eapply wrong_star; eauto.
    + destruct (bind_direct ids vs r (hp w1)) as (r1 & B & _); [congruence|].
      assert (F : firef P MDirect OApp (VClo ids b r :: vs) r k w1 = Some (Ev b r1 k w1)) by (cbn [firef]; rewrite B, set_hp_same; reflexivity).
      assert (St1 : star (Ev (EApp (ELam ids b) l) r k w) (Ev b r1 k w1)).
      { eapply star_trans; [exact St0|]. eapply star_trans; [exact St|]. exact (fires _ _ _ _ _ _ F). }
      destruct (IH b) with (r := r1) (k := k) (w := w1) as [W|(v2 & w2 & St2 & _)]; [lia | assumption | |].
      * left. eapply wrong_star; eauto.
      * right. exists v2, w2. split; [eapply star_trans; eauto|]. apply LVn. discriminate.
  - right. eexists _, w. split; [apply evs; reflexivity|]. apply LVn. discriminate.
  - destruct (IH b) with (r := bind_fix xs lams r) (k := k) (w := w) as [W|(v2 & w2 & St2 & _)]; [lia | assumption | |].
    + left. eapply wrong_star; [apply evs; reflexivity | exact W].
    + right. exists v2, w2. split; [eapply star_trans; [apply evs; reflexivity | exact St2]|]. apply LVn. discriminate.
  - easy.
  - easy.
Qed.
Definition straight_ends e (S : straight e) := straight_done (esize e) e (le_n _) S.
Lemma fix_from_other ys : forall i ids lams r x, ~ In x ys -> lookup (bind_fix_from i ys ids lams r) x = lookup r x.
Proof.
  induction ys as [|y ys IH]; intros i ids lams r x N; [reflexivity|]. cbn [bind_fix_from]. rewrite lookup_cons.
  assert (E : x <> y) by (intros ->; apply N; now left). rewrite (proj2 (id_eqb_neq _ _) E). apply IH. intros I. apply N. now right.
Qed.
Lemma fix_other ids lams r x : ~ In x ids -> lookup (bind_fix ids lams r) x = lookup r x.
Proof. apply fix_from_other. Qed.
(** a sure use of a variable that does not fit goes wrong *)
Lemma sure_wrong x t e : sure x t e -> unboxed t -> global_id x = false -> forall r k w v, lookup r x = Some v -> (forall l, v <> VRef l) -> fits t (shape_of v) = false ->
  wrong (Ev e r k w).
Proof.
  intros S Ut G. induction S as [ef p l i Np Ni At Sl|e o l e' D I S IH|a b c Sa Sb IHb Sc IHc|ids b l Ll Sl NI Sb IH|ids lams b NI Sb IH]; intros r k w v Lk NR NF.
  - eapply wrong_star; [apply evs; reflexivity|]. destruct (ops_done (OPrim ef p) r k straight_ends l Sl [] w) as [W|(vs & w1 & St & LV)]; [exact W|].
    eapply wrong_star; [exact St|]. cbn [app]. apply no_fire. cbn [firef]. destruct (zlist_dec p the_halt_prim); [easy|].
    destruct (run (P p) vs w1) as [(u & w2)|] eqn:Rn; [|reflexivity]. exfalso. destruct (Forall2_nth _ _ _ _ _ LV Ni) as (u1 & Nu & LVu).
    rewrite (LVu x v eq_refl G Lk NR) in Nu. pose proof (ub_use _ _ _ U _ _ _ _ _ _ _ _ At Ut Rn Nu). congruence.
  - apply in_split in I. destruct I as (a & b & ->). eapply wrong_star; [|apply (IH r (Fr o (map STodo a) (map STodo b) r :: k) w v Lk NR NF)].
    eapply star_step; [apply st_args; exact D|]. rewrite map_app. cbn [map]. apply star_one, st_pick.
  - eapply wrong_star; [apply evs; reflexivity|]. destruct (ops_done (OIf b c) r k straight_ends [a]) with (vs := @nil val) (w := w) as [W|(vs & w1 & St & LV)]; [intros ? [<-|[]]; assumption | exact W|].
    inversion LV as [|? v1 ? ? _ LV2]; subst. inversion LV2; subst. eapply wrong_star; [exact St|]. eapply wrong_star; [exact (fires (OIf b c) [v1] r k w1 _ eq_refl)|].
    destruct (is_true v1); eauto.
  - assert (St0 : star (Ev (EApp (ELam ids b) l) r k w) (Args OApp (map SDone [VClo ids b r] ++ map STodo l) r k w)).
    { eapply star_trans; [apply evs; reflexivity|]. cbn [map app]. eapply star_step; [apply (st_pick P MDirect OApp [] (ELam ids b) (map STodo l))|].
      eapply star_step; [apply st_lam|]. eapply star_step; [apply st_ret|]. constructor. }
    eapply wrong_star; [exact St0|]. destruct (ops_done OApp r k straight_ends l Sl [VClo ids b r] w) as [W|(vs & w1 & St & LV)]; [exact W|].
    eapply wrong_star; [exact St|]. destruct (bind_direct ids vs r (hp w1)) as (r1 & B & _ & D); [rewrite Ll; exact (Forall2_len _ _ _ LV)|].
    assert (F : firef P MDirect OApp (VClo ids b r :: vs) r k w1 = Some (Ev b r1 k w1)) by (cbn [firef]; rewrite B, set_hp_same; reflexivity).
    eapply wrong_star; [exact (fires _ _ _ _ _ _ F)|]. apply IH with v; auto. now rewrite (D x NI).
  - eapply wrong_star; [apply evs; reflexivity|]. apply IH with v; auto. rewrite fix_other; assumption.
Qed.

(** ** Lists of operands *)
Lemma rv_split (T : list elem) f A x B : rv f T = A ++ x :: B -> exists T1 T2, T = T1 ++ x :: T2 /\ forall y, rv f (T1 ++ y :: T2) = A ++ y :: B.
Proof.
  destruct f; cbn [rv]; intros E; [|exists A, B; now rewrite E]. destruct T as [|h T]; [now destruct A|].
  destruct A as [|a A]; cbn [app] in E.
  - injection E as -> <-. exists [], T. auto.
  - injection E as -> E. apply (f_equal (@rev elem)) in E. rewrite rev_involutive, rev_app_distr in E. cbn [rev] in E. rewrite <- app_assoc in E. cbn [app] in E.
    exists (a :: rev B), (rev A). rewrite E. split; [reflexivity|]. intros y. cbn [app]. f_equal. rewrite rev_app_distr. cbn [rev]. rewrite !rev_involutive, <- app_assoc. reflexivity.
Qed.
Lemma rv_in (T : list elem) f x : In x T -> In x (rv f T).
Proof. destruct f; [|auto]. destruct T as [|h T]; [easy|]. cbn. rewrite <- in_rev. auto. Qed.
Lemma tgt_split l a e b : map tgt l = a ++ STodo e :: b -> exists A x B, l = A ++ x :: B /\ tgt x = STodo e /\ a = map tgt A /\ b = map tgt B.
Proof.
  revert a. induction l as [|x l IH]; intros a E; [now destruct a|]. destruct a as [|s a]; cbn [map app] in E.
  - injection E as E1 E2. exists [], x, l. auto.
  - injection E as E1 E2. destruct (IH _ E2) as (A & y & B & -> & Y & -> & ->). exists (x :: A), y, B. cbn. split; [reflexivity|]. split; [assumption|]. split; [congruence | reflexivity].
Qed.
Lemma done_elems r r' Qs : forall T vs, Forall (tok r r') T -> map skel T = map KQ Qs -> map src T = map SDone vs ->
  exists vs', map tgt T = map SDone vs' /\ Forall2 VR vs vs' /\ sats Qs vs.
Proof.
  induction Qs as [|Q Qs IH]; intros [|x T] vs F E A; try discriminate.
  - destruct vs; [|discriminate]. exists []. repeat split; constructor.
  - inversion F as [|? ? X F2]; subst. destruct vs as [|v vs]; [discriminate|]. cbn [map] in *.
    assert (E1 : skel x = KQ Q) by congruence. assert (E2 : map skel T = map KQ Qs) by congruence. assert (A1 : src x = SDone v) by congruence. assert (A2 : map src T = map SDone vs) by congruence.
    destruct (IH T vs F2 E2 A2) as (vs' & B & V & Sa). destruct X as [r0 r0' v0 v0' Q0 V0 QV|sg r0 r0' e e' Q0 C J ER0|sg r0 r0' e e' t Q0 C N Te J J2 ER0|r0 r0' d xs b xs' b']; cbn in E1, A1; try discriminate.
    injection E1 as ->. injection A1 as ->. exists (v0' :: vs'). cbn. rewrite B. split; [reflexivity|]. split; now constructor.
Qed.
Lemma todo_elems sg r r' l : forall l' Qs,
  Forall2 (fun e e' => UV sg e e' \/ exists t e1, e' = cv t e1 /\ name t /\ telling t /\ UV sg e e1 /\ forall r, TJ r e1 (is t)) l l' ->
  Forall2 (TJ r') l' Qs -> (forall e, In e l -> ER sg (fun x => free_in x e) r r') ->
  exists T, Forall (tok r r') T /\ map skel T = map KQ Qs /\ map src T = map STodo l /\ map tgt T = map STodo l'.
Proof.
  induction l as [|e l IH]; intros l' Qs C J E; inversion C as [|? e' ? l2 C1 C2]; subst; inversion J as [|? Q ? Qs2 J1 J2]; subst.
  - exists []. repeat split; constructor.
  - destruct (IH _ _ C2 J2) as (T & F & SK & A & B); [intros; apply E; now right|]. exists (Both (STodo e) (STodo e') Q :: T). repeat split.
    + constructor; [|assumption]. specialize (E e (or_introl eq_refl)). destruct C1 as [C1|(t & e1 & -> & Nt & Te & C1 & Je)]; [now apply tk_todo with sg | apply tk_conv with sg; auto].
    + cbn. now rewrite SK.
    + cbn. now rewrite A.
    + cbn. now rewrite B.
Qed.
Lemma plain_rel sg l l' : Forall2 (UV sg) l l' ->
  Forall2 (fun e e' => UV sg e e' \/ exists t e1, e' = cv t e1 /\ name t /\ telling t /\ UV sg e e1 /\ forall r, TJ r e1 (is t)) l l'.
Proof. induction 1; constructor; auto. Qed.
Lemma Forall2_rev' {A B} (Q : A -> B -> Prop) l l' : Forall2 Q l l' -> Forall2 Q (rev l) (rev l').
Proof. induction 1; cbn; [constructor|]. apply Forall2_app; auto. Qed.

(** ** Conversions *)
Lemma conv_not_halt t : conv t <> the_halt_prim.
Proof. discriminate. Qed.
Lemma inev_pick1 o0 (Q : state -> Prop) o e r k w : out w = o0 -> inev o0 Q (Ev e r (Fr o [] [] r :: k) w) -> inev o0 Q (Args o [STodo e] r k w).
Proof.
  intros O I. eapply inev_det; [assumption | exact (st_pick P MDirect o [] e [] r k w) | | exact I].
  intros t' S. apply step_args in S. destruct S as [(a & e1 & b & E & ->)|(vs & E & _)].
  - destruct a as [|? [|]]; try discriminate. injection E as <- <-. reflexivity.
  - destruct vs as [|? [|]]; discriminate.
Qed.
Lemma inev_conv_fire o0 (Q : state -> Prop) t r k w v : name t -> out w = o0 -> fits t (shape_of v) = true -> inev o0 Q (Ret v k w) -> inev o0 Q (Args (OPrim ENo (conv t)) [SDone v] r k w).
Proof.
  intros N O F I. apply (inev_fire P MDirect o0 Q (OPrim ENo (conv t)) [v] r k w (Ret v k w)); [assumption | | assumption].
  cbn [firef]. destruct (zlist_dec (conv t) the_halt_prim) as [E|_]; [now apply conv_not_halt in E|]. rewrite (ub_conv _ _ _ U t v w N), F. reflexivity.
Qed.
Lemma read_local r x w v k : global_id x = false -> lookup r x = Some v -> (forall l, v <> VRef l) -> evf MDirect (EVar x) r k w = Some (Ret v k w).
Proof. intros G L N. cbn [evf]. unfold read_var. rewrite G, L. destruct v; try reflexivity. now contradiction (N l). Qed.
Lemma inev_conv_var o0 (Q : state -> Prop) t r k w x v : name t -> out w = o0 -> global_id x = false -> lookup r x = Some v -> (forall l, v <> VRef l) -> fits t (shape_of v) = true ->
  inev o0 Q (Ret v k w) -> inev o0 Q (Ev (cv t (EVar x)) r k w).
Proof.
  intros N O G L NR F I. eapply inev_ev; [assumption | reflexivity|]. cbn [map]. apply inev_pick1; [assumption|]. eapply inev_ev; [assumption | apply (read_local r x w v); assumption|].
  apply inev_ret; [assumption|]. cbn [app]. now apply inev_conv_fire.
Qed.
Lemma inev_known o0 (Q : state -> Prop) op r k w es vs : out w = o0 -> Forall2 (fun e v => forall k1 (Q1 : state -> Prop), inev o0 Q1 (Ret v k1 w) -> inev o0 Q1 (Ev e r k1 w)) es vs ->
  inev o0 Q (Args op (map SDone vs) r k w) -> inev o0 Q (Args op (map STodo es) r k w).
Proof.
  intros O F I.
  set (J := fun (l : list slot) (w1 : st) => w1 = w /\ Forall2 (fun s ev => s = STodo (fst ev) \/ s = SDone (snd ev)) l (combine es vs)).
  assert (Fx : Forall (fun ev => forall k1 (Q1 : state -> Prop), inev o0 Q1 (Ret (snd ev) k1 w) -> inev o0 Q1 (Ev (fst ev) r k1 w)) (combine es vs)).
  { clear -F. induction F; cbn; constructor; auto. }
  eapply inev_trans; [|apply (inev_operands P MDirect o0 op r k J)].
  - cbn beta. intros t (vs1 & w1 & -> & -> & F1). assert (vs1 = vs); [|now subst].
    clear -F F1. revert vs1 F1. induction F as [|e v es vs X F IH]; cbn; intros vs1 F1.
    + destruct vs1; [reflexivity | inversion F1].
    + destruct vs1 as [|v1 vs1]; cbn in F1; inversion F1; subst. destruct H2 as [|E]; [discriminate|]. cbn in E. injection E as ->. f_equal. auto.
  - intros a e b w1 k1 (-> & F1). apply Forall2_app_inv_l in F1. destruct F1 as (c1 & c2 & A1 & A2 & E). inversion A2 as [|s ev l1 l2 X A3]; subst.
    destruct X as [X|X]; [|discriminate]. injection X as X. assert (G : forall k1 (Q1 : state -> Prop), inev (out w) Q1 (Ret (snd ev) k1 w) -> inev (out w) Q1 (Ev (fst ev) r k1 w)).
    { rewrite Forall_forall in Fx. apply Fx. rewrite E. apply in_elt. }
    rewrite X. apply G. apply inev_now. exists (snd ev), w. split; [reflexivity|]. split; [reflexivity|].
    rewrite E. apply Forall2_app; [assumption|]. constructor; [now right | assumption].
  - intros l w1 (-> & _). assumption.
  - split; [reflexivity|]. clear -F. induction F; cbn; constructor; auto.
Qed.
Lemma eval_let o0 (Q : state -> Prop) ids cs b r k w vs r1 : out w = o0 ->
  Forall2 (fun e v => forall k1 (Q1 : state -> Prop), inev o0 Q1 (Ret v k1 w) -> inev o0 Q1 (Ev e r k1 w)) cs vs ->
  bind MDirect ids vs r (hp w) = Some (r1, hp w) -> inev o0 Q (Ev b r1 k w) ->
  inev o0 Q (Ev (let_exp ids cs b) r k w).
Proof.
  intros O F B I. unfold let_exp. eapply inev_ev; [assumption | reflexivity|].
  eapply (inev_known o0 Q OApp r k w (ELam ids b :: cs) (VClo ids b r :: vs)); [assumption | constructor; [|assumption]|].
  { intros k1 Q1 I1. eapply inev_ev; [assumption | reflexivity | exact I1]. }
  eapply inev_fire; [assumption | cbn [firef]; rewrite B; reflexivity|]. now rewrite set_hp_same.
Qed.
Definition some_of (s : shape) : val := match s with ShC c => VC c | ShBlock => VLoc 0 | ShProc => VClo [] void_exp [] end.
Lemma some_shape s : shape_of (some_of s) = s.
Proof. now destruct s. Qed.
Lemma tj_conv_inv r t e Q : name t -> telling t -> TJ r (cv t e) Q -> exists Q1, TJ r e Q1 /\ forall s, Q1 s -> fits t s = true -> Q s.
Proof.
  intros N Te J. destruct (tj_prim_inv _ _ _ _ J _ _ _ eq_refl) as (Qs & F & H). inversion F as [|? Q1 ? ? J1 F2]; subst. inversion F2; subst.
  exists Q1. split; [assumption|]. intros s Hs Hf. set (w := mkst [] (fun _ => VC CVoid) [] []). rewrite <- (some_shape s).
  apply (H [some_of s] w (some_of s) w).
  - constructor; [|constructor]. unfold sat. now rewrite some_shape.
  - rewrite (ub_conv _ _ _ U t _ w N), some_shape, Hf. reflexivity.
Qed.

(** ** Calls *)
Lemma Forall2_pick {A B} (R0 : A -> B -> Prop) l : (forall x, In x l -> exists y, R0 x y) -> exists l', Forall2 R0 l l'.
Proof.
  induction l as [|x l IH]; intros H; [exists []; constructor|]. destruct (H x (or_introl eq_refl)) as (y & Y). destruct IH as (l' & F); [intros; apply H; now right|].
  exists (y :: l'). now constructor.
Qed.
Lemma fits_all (zs : list id) : forall (ts : list (list Z)) (us : list val), length zs = length ts -> length zs = length us ->
  Forall2 (fun t u => fits t (shape_of u) = true) ts us \/ exists i z t u, nth_error zs i = Some z /\ nth_error ts i = Some t /\ nth_error us i = Some u /\ fits t (shape_of u) = false.
Proof.
  induction zs as [|z zs IH]; intros [|t ts] [|u us] L1 L2; cbn in L1, L2; try discriminate; [left; constructor|].
  destruct (fits t (shape_of u)) eqn:E; [|right; exists O, (z : id), t, u; auto].
  destruct (IH ts us) as [F|(i & z1 & t1 & u1 & A & B & C & D)]; [congruence | congruence | left; now constructor | right; exists (S i), z1, t1, u1; auto].
Qed.
Lemma enter sg xs b b' r0 r0' vs vs' w w' K K' Q n s0 r1 h1 : UB sg xs b b' -> ER sg (fun x => free_in x (ELam xs b)) r0 r0' -> Forall2 VR vs vs' ->
  bind MDirect xs vs r0 (hp w) = Some (r1, h1) -> KR Q K K' -> (forall s, Q s) -> sr w w' -> step P MDirect s0 (Ev b r1 K (set_hp w h1)) ->
  exists r1', bind MDirect xs vs' r0' (hp w') = Some (r1', hp w') /\ inev (out w') (next n s0) (Ev b' r1' K' w').
Proof.
  intros X A F B KK HQ S ST. destruct (bind_both xs vs vs' r0 r0' (hp w) r1 h1 F B) as (-> & r1' & B' & C & D). rewrite set_hp_same in ST.
  exists r1'. split; [apply B'|]. destruct X as [sg xs b b' Cb Hid Hcap|sg sg1 xs b b' ys zs ts L1 L2 ND IC NM Hz Hx Ho Hy Hcap SU Cb].
  - apply inev_now. eapply next_one; [exact ST|]. apply r_ev with sg Q; [assumption | now apply tj_top | | assumption | assumption].
    intros x Fx G. destruct (in_dec id_dec x xs) as [I|I]; [rewrite (Hid x I); now apply C|].
    assert (Fl : free_in x (ELam xs b)) by (apply free_lam; auto). destruct (D x I) as (-> & _). destruct (D _ (Hcap x Fl)) as (_ & ->). now apply A.
  - assert (H : forall z, In z zs -> exists uu, lookup r1 z = Some (fst uu) /\ lookup r1' z = Some (snd uu) /\ VR (fst uu) (snd uu) /\ global_id z = false).
    { intros z Iz. destruct (C z (IC z Iz)) as (O & N). apply In_nth_error in Iz. destruct Iz as (i & Ei). destruct (Hz i z Ei) as (_ & G). inversion O as [E1 E2|v v' V E1 E2]; [congruence|].
      exists (v, v'). auto. }
    apply Forall2_pick in H. destruct H as (uus & FU).
    assert (Lu : length zs = length (map snd uus)) by (rewrite map_length; exact (Forall2_len _ _ _ FU)).
    destruct (fits_all zs ts (map snd uus)) as [FF|(i & z & t & u & Ez & Et & Eu & NF)]; [congruence | assumption | |].
    + destruct (bind_direct ys (map snd uus) r1' (hp w')) as (r2 & B2 & C2 & D2); [congruence|]. specialize (C2 ND).
      apply (eval_let (out w') _ ys _ b' r1' K' w' (map snd uus) r2); [reflexivity | | exact B2|].
      * assert (Lt : length zs = length ts) by congruence. clear -U FU FF NM Lt. revert ts FF NM Lt. induction FU as [|z uu zs uus (H1 & H2 & H3 & H4) FU IH]; intros ts FF NM Lt; [destruct ts; [constructor | discriminate]|].
        cbn [map] in FF. inversion FF as [|t ? ts2 ? F1 F2]; subst. inversion NM; subst. cbn [combine map fst snd]. constructor; [|apply IH; auto].
        intros k1 Q1 I1. eapply inev_conv_var; [assumption | reflexivity | assumption | exact H2 | exact (proj2 (VR_not_ref _ _ H3)) | assumption | exact I1].
      * apply inev_now. eapply next_one; [exact ST|]. apply r_ev with sg1 Q; [assumption | now apply tj_top | | assumption | assumption].
        intros x Fx G. destruct (in_dec id_dec x zs) as [Iz|Iz].
        -- apply In_nth_error in Iz. destruct Iz as (i & Ei). destruct (Hz i x Ei) as (Ey & _). rewrite (C2 _ _ Ey), nth_error_map. destruct (Forall2_nth _ _ _ _ _ FU Ei) as (uu & -> & H1 & H2 & H3 & _).
           rewrite H1. cbn. now constructor.
        -- rewrite (D2 _ (Hy x Fx Iz)). destruct (in_dec id_dec x xs) as [I|I]; [rewrite (Hx x I Iz); now apply C|]. rewrite (Ho x I).
           assert (Fl : free_in x (ELam xs b)) by (apply free_lam; auto). destruct (D x I) as (-> & _). destruct (D _ (Hcap x Fl)) as (_ & ->). now apply A.
    + apply inev_now. left. eapply wrong_star; [apply star_one, ST|]. rewrite nth_error_map in Eu. destruct (Forall2_nth _ _ _ _ _ FU Ez) as (uu & E1 & H1 & H2 & H3 & H4).
      rewrite E1 in Eu. cbn in Eu. injection Eu as <-. destruct (Forall2_nth _ _ _ _ _ SU Ez) as (t1 & E2 & Su & Ut). assert (t1 = t) by congruence. subst t1.
      apply (sure_wrong z t b Su Ut H4 r1 K w (fst uu)); [assumption | exact (proj1 (VR_not_ref _ _ H3))|]. now rewrite (VR_shape _ _ H3).
Qed.
End Sem.
