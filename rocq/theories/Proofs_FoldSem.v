(** The simulation for constant folding: expressions that are alike but for tests whose outcome is known and for lets
    that do nothing.  What is known is stated of the environments in which an expression can be evaluated. *)
From Coq Require Import ZArith List Bool Lia.
From Verif Require Import Model_Lit Model_Core Spec_Sem Spec_Free Proofs_Sim Proofs_Core Proofs_Free Proofs_Agree.
Import ListNotations.
Open Scope Z_scope.
Implicit Types S : env -> Prop.
Implicit Types Q Qt : shape -> Prop.

Definition truth (s : shape) : bool := match s with ShC (CBool false) => false | _ => true end.
Lemma truth_is v : is_true v = truth (shape_of v).
Proof. destruct v as [[]| | | | |]; reflexivity. Qed.
Definition sat (Q : shape -> Prop) (v : val) : Prop := Q (shape_of v).
Definition sats (Qs : list (shape -> Prop)) (vs : list val) : Prop := Forall2 sat Qs vs.
Definition top (s : shape) : Prop := True.
Definition is_lam (e : exp) : bool := match e with ELam _ _ => true | _ => false end.

Section Sem.
Variable P : prim -> script.

(** [TJ r e Q]: what [e] returns in [r] satisfies [Q] *)
Inductive TJ : env -> exp -> (shape -> Prop) -> Prop :=
| tj_top r e Q : (forall s, Q s) -> TJ r e Q
| tj_var r x Q : global_id x = false -> (forall v, lookup r x = Some v -> Q (shape_of v)) -> TJ r (EVar x) Q
| tj_if r a b c Q : TJ r b Q -> TJ r c Q -> TJ r (EIf a b c) Q
| tj_let r ids b l Qs Q : Forall2 (TJ r) l Qs ->
    (forall vs r1 h h', sats Qs vs -> bind MDirect ids vs r h = Some (r1, h') -> TJ r1 b Q) -> TJ r (EApp (ELam ids b) l) Q
| tj_prim r ef p l Qs Q : Forall2 (TJ r) l Qs -> (forall vs w v w', sats Qs vs -> run (P p) vs w = Some (v, w') -> Q (shape_of v)) ->
    TJ r (EPrim ef p l) Q
| tj_and r e Q1 Q2 Q : TJ r e Q1 -> TJ r e Q2 -> (forall s, Q1 s -> Q2 s -> Q s) -> TJ r e Q.

(** the environments after binding *)
Definition after (ids : list id) (Qs : env -> list (shape -> Prop)) (S : env -> Prop) : env -> Prop :=
  fun r1 => exists r vs h h', S r /\ sats (Qs r) vs /\ bind MDirect ids vs r h = Some (r1, h').
Definition ext (ids : list id) (S : env -> Prop) : env -> Prop :=
  fun r1 => exists r vs h h', S r /\ bind MDirect ids vs r h = Some (r1, h').
Definition fixed (ids : list id) (lams : list (list id * exp)) (S : env -> Prop) : env -> Prop :=
  fun r1 => exists r, S r /\ r1 = bind_fix ids lams r.

Inductive CF : (env -> Prop) -> exp -> exp -> Prop :=
| cf_var S x : CF S (EVar x) (EVar x)
| cf_set S x e e' : CF S e e' -> CF S (ESet x e) (ESet x e')
| cf_if S a b c a' b' c' : CF S a a' -> CF S b b' -> CF S c c' -> CF S (EIf a b c) (EIf a' b' c')
| cf_fold S k a b c a' u y : CF S a a' -> CF S (if k : bool then b else c) u -> (forall r, S r -> TJ r a (fun s => truth s = k)) ->
    ~ free_in y (if k then b else c) -> CF S (EIf a b c) (EApp (ELam [y] u) [a'])
| cf_prim S ef p l l' : Forall2 (CF S) l l' -> CF S (EPrim ef p l) (EPrim ef p l')
| cf_app S f l f' l' : is_lam f = false -> CF S f f' -> Forall2 (CF S) l l' -> CF S (EApp f l) (EApp f' l')
| cf_let S ids ids' b l b' l' Qs : Forall2 (CF S) l l' -> CF (after ids Qs S) b b' -> (forall r, S r -> Forall2 (TJ r) l (Qs r)) ->
    ids' = ids \/ (exists x y, ids = [x] /\ ids' = [y] /\ ~ free_in x b /\ ~ free_in y b) ->
    CF S (EApp (ELam ids b) l) (EApp (ELam ids' b') l')
| cf_null S b b' : CF S b b' -> CF S (EApp (ELam [] b) []) b'
| cf_ident S x e e' : global_id x = false -> CF S e e' -> CF S (EApp (ELam [x] (EVar x)) [e]) e'
| cf_lam S ids b b' : CF (ext ids S) b b' -> CF S (ELam ids b) (ELam ids b')
| cf_fix S ids lams lams' b b' :
    Forall2 (fun l l' => fst l' = fst l /\ CF (ext (fst l) (fixed ids lams S)) (snd l) (snd l')) lams lams' ->
    CF (fixed ids lams S) b b' -> CF S (EFix ids lams b) (EFix ids lams' b')
| cf_letcc S x b b' : CF (ext [x] S) b b' -> CF S (ELetcc x b) (ELetcc x b')
| cf_with S k e k' e' : CF S k k' -> CF S e e' -> CF S (EWithcc k e) (EWithcc k' e').

(** ** States that correspond *)
Inductive elem :=
| Both (s s' : slot) (Q : shape -> Prop)                            (** an operand on both sides *)
| Op (v : option val) (op : slot) (ids : list id) (b : exp).        (** the operator of a let; [None]: the source has a conditional *)
Definition srcs (x : elem) : list slot := match x with Both s _ _ => [s] | Op (Some v) _ _ _ => [SDone v] | Op None _ _ _ => [] end.
Definition tgts (x : elem) : list slot := match x with Both _ s _ => [s] | Op _ s _ _ => [s] end.
Inductive sk := KQ (Q : shape -> Prop) | KO (v : option val) (ids : list id) (b : exp).
Definition skel (x : elem) : sk := match x with Both _ _ Q => KQ Q | Op v _ ids b => KO v ids b end.
Definition hm (x : elem) : nat := match x with Op _ (STodo _) _ _ => 1 | _ => 0 end.
Definition msr (T : list elem) : nat := list_sum (map hm T).
Definition fs := flat_map srcs.
Definition ft := flat_map tgts.

Inductive VR : val -> val -> Prop :=
| vr_c c : VR (VC c) (VC c)
| vr_loc l : VR (VLoc l) (VLoc l)
| vr_clo S ids b b' r r' : CF (ext ids S) b b' -> S r ->
    (forall x, free_in x (ELam ids b) -> global_id x = false -> orel (lookup r x) (lookup r' x)) -> VR (VClo ids b r) (VClo ids b' r')
| vr_fix S ids lams lams' i r r' :
    Forall2 (fun l l' => fst l' = fst l /\ CF (ext (fst l) (fixed ids lams S)) (snd l) (snd l')) lams lams' -> S r ->
    (forall x, free_in x (EFix ids lams void_exp) -> global_id x = false -> orel (lookup r x) (lookup r' x)) ->
    VR (VFix ids lams i r) (VFix ids lams' i r')
| vr_cont Q K K' : (forall s, Q s) -> KR Q K K' -> VR (VCont K) (VCont K')
with orel : option val -> option val -> Prop :=
| or_none : orel None None
| or_some v v' : VR v v' -> orel (Some v) (Some v')
with tok : env -> env -> elem -> Prop :=
| tk_done r r' v v' Q : VR v v' -> Q (shape_of v) -> tok r r' (Both (SDone v) (SDone v') Q)
| tk_todo S r r' e e' Q : CF S e e' -> S r -> TJ r e Q -> (forall x, free_in x e -> global_id x = false -> orel (lookup r x) (lookup r' x)) ->
    tok r r' (Both (STodo e) (STodo e') Q)
| tk_op_todo r r' v ids b : tok r r' (Op v (STodo (ELam ids b)) ids b)
| tk_op_done r r' v ids b : tok r r' (Op v (SDone (VClo ids b r')) ids b)
(** [KIND r r' Q ks o o']: with operands as in [ks] the operation gives a value with [Q] *)
with KIND : env -> env -> (shape -> Prop) -> list sk -> oper -> oper -> Prop :=
| kd_if S r r' Q Qt b c b' c' : CF S b b' -> CF S c c' -> S r -> TJ r b Q -> TJ r c Q ->
    (forall x, op_free x (OIf b c) -> global_id x = false -> orel (lookup r x) (lookup r' x)) -> KIND r r' Q [KQ Qt] (OIf b c) (OIf b' c')
| kd_fold S k r r' Q Qt b c u y : CF S (if k : bool then b else c) u -> S r -> TJ r (if k then b else c) Q -> (forall s, Qt s -> truth s = k) ->
    ~ free_in y (if k then b else c) ->
    (forall x, free_in x (if k then b else c) -> global_id x = false -> orel (lookup r x) (lookup r' x)) ->
    KIND r r' Q [KO None [y] u; KQ Qt] (OIf b c) OApp
| kd_set r r' Q Qs x : (forall s, Q s) -> (global_id x = false -> orel (lookup r x) (lookup r' x)) -> KIND r r' Q (map KQ Qs) (OSet x) (OSet x)
| kd_prim r r' Q Qs ef p : (forall vs w v w', sats Qs vs -> run (P p) vs w = Some (v, w') -> Q (shape_of v)) ->
    KIND r r' Q (map KQ Qs) (OPrim ef p) (OPrim ef p)
| kd_app r r' Q Qs : (forall s, Q s) -> KIND r r' Q (map KQ Qs) OApp OApp
| kd_let S r r' Q Qs ids ids' b b' : CF S b b' ->
    (forall vs r1 h h', sats Qs vs -> bind MDirect ids vs r h = Some (r1, h') -> S r1 /\ TJ r1 b Q) ->
    (forall x, free_in x (ELam ids b) -> global_id x = false -> orel (lookup r x) (lookup r' x)) ->
    ids' = ids \/ (exists x y, ids = [x] /\ ids' = [y] /\ ~ free_in x b /\ ~ free_in y b) ->
    KIND r r' Q (KO (Some (VClo ids b r)) ids' b' :: map KQ Qs) OApp OApp
| kd_with S r r' Q Qs e e' : CF S e e' -> S r -> (forall x, free_in x e -> global_id x = false -> orel (lookup r x) (lookup r' x)) ->
    KIND r r' Q (map KQ Qs) (OWith e) (OWith e')
(** [KR Q K K']: for values with [Q] *)
with KR : (shape -> Prop) -> kont -> kont -> Prop :=
| kr_nil Q : KR Q [] []
| kr_frame Q Q0 T1 T2 o r K o' r' K' : Forall (tok r r') T1 -> Forall (tok r r') T2 -> KIND r r' Q (map skel T1 ++ KQ Q0 :: map skel T2) o o' ->
    KR Q K K' -> KR Q0 (Fr o (fs T1) (fs T2) r :: K) (Fr o' (ft T1) (ft T2) r' :: K')
| kr_ident Q x r r0 K K' : global_id x = false -> KR Q K K' -> KR Q (Fr OApp [SDone (VClo [x] (EVar x) r)] [] r0 :: K) K'.
Definition ER (F : id -> Prop) (r r' : env) : Prop := forall x, F x -> global_id x = false -> orel (lookup r x) (lookup r' x).
Definition sr (w w' : st) : Prop :=
  Forall2 (Forall2 VR) (hp w) (hp w') /\ (forall x, VR (gl w x) (gl w' x)) /\ out w = out w' /\ inp w = inp w'.

Inductive R : nat -> state -> state -> Prop :=
| r_ev S Q e e' r r' K K' w w' : CF S e e' -> S r -> TJ r e Q -> ER (fun x => free_in x e) r r' -> KR Q K K' -> sr w w' ->
    R 0 (Ev e r K w) (Ev e' r' K' w')
| r_args Q T o o' r r' K K' w w' : Forall (tok r r') T -> KIND r r' Q (map skel T) o o' -> KR Q K K' -> sr w w' ->
    R (msr T) (Args o (fs T) r K w) (Args o' (ft T) r' K' w')
| r_ret Q v v' K K' w w' : VR v v' -> Q (shape_of v) -> KR Q K K' -> sr w w' -> R 0 (Ret v K w) (Ret v' K' w')
| r_halt v v' w w' : VR v v' -> sr w w' -> R 0 (Halted v w) (Halted v' w').
Notation good := (good P MDirect MDirect R).
Notation next := (next P MDirect R).
Notation inev := (inev P MDirect).
Notation star := (star P MDirect).

(** ** Values *)
Lemma VR_shape v v' : VR v v' -> shape_of v = shape_of v'.
Proof. destruct 1; reflexivity. Qed.
Lemma VR_not_ref v v' : VR v v' -> (forall l, v <> VRef l) /\ (forall l, v' <> VRef l).
Proof. destruct 1; split; discriminate. Qed.
Lemma VR_true v v' : VR v v' -> is_true v = is_true v'.
Proof. intros V. rewrite !truth_is. now rewrite (VR_shape _ _ V). Qed.
Lemma VR_proc v v' : VR v v' -> is_proc v = is_proc v'.
Proof. destruct 1; reflexivity. Qed.
Lemma same_rel v v' u u' b : VR v v' -> VR u u' -> same v u = Some b -> same v' u' = Some b.
Proof. intros V U. destruct V, U; cbn; intros X; auto. Qed.
Lemma run_sr p rs rs' s t v s1 : sr s t -> Forall2 VR rs rs' -> run p rs s = Some (v, s1) ->
  exists v' t1, run p rs' t = Some (v', t1) /\ sr s1 t1 /\ VR v v'.
Proof.
  intros S F E.
  destruct (run_rel unit (fun _ _ => True) (fun _ => VR) (fun _ => sr)) with (p := p) (w := tt) (rs := rs) (rs' := rs') (s := s) (t := t) (v := v) (s1 := s1)
    as (_ & v' & t1 & A & _ & B & C); eauto.
  - intros. constructor.
  - intros. now apply VR_shape.
  - intros _ _ _ v0 v0' u u' b _ V U. now apply same_rel.
  - intros _ s0 t0 vs vs' (H & G & O & I) Fv. exists tt. split; [exact Logic.I|]. split.
    + split; [|split; [|split]]; cbn; auto. apply Forall2_app; auto.
    + rewrite (Forall2_len _ _ _ H). constructor.
  - intros _ s0 t0 l v0 b i u (H & G & O & I) V N1 N2. inversion V; subst.
    destruct (Forall2_nth _ _ _ _ _ H N1) as (b' & N1' & Fb). destruct (Forall2_nth _ _ _ _ _ Fb N2) as (u' & N2' & U).
    exists l, b', u'. auto.
  - intros _ s0 t0 l v0 b i u u' b1 h (H & G & O & I) V U N1 S1 S2. inversion V; subst.
    destruct (Forall2_nth _ _ _ _ _ H N1) as (b' & N1' & Fb). destruct (Forall2_set _ _ _ _ _ _ _ Fb U S1) as (b1' & S1' & Fb1).
    destruct (Forall2_set _ _ _ _ _ _ _ H Fb1 S2) as (h' & S2' & Fh). exists l, b', b1', h'.
    split; [reflexivity|split; [assumption|split; [assumption|split; [assumption|]]]]. split; cbn; auto.
  - intros _ s0 t0 (H & G & O & I). auto.
  - intros _ s0 t0 o i (H & G & O & I). split; cbn; auto.
Qed.
Lemma set_hp_same w : set_hp w (hp w) = w.
Proof. now destruct w. Qed.
Lemma sr_out w w' : sr w w' -> out w = out w'.
Proof. intros (_ & _ & O & _). exact O. Qed.
Lemma sr_set w w' x v v' : sr w w' -> VR v v' -> sr (set_gl w x v) (set_gl w' x v').
Proof. intros (H & G & O & I) V. split; [|split; [|split]]; cbn; auto. intros y. destruct (id_eqb y x); auto. Qed.
Lemma er_impl (F G : id -> Prop) r r' : (forall x, G x -> F x) -> ER F r r' -> ER G r r'.
Proof. intros H A x X. apply A. auto. Qed.
Lemma bind_both xs : forall vs vs' r r' h r1 h1, Forall2 VR vs vs' -> bind MDirect xs vs r h = Some (r1, h1) -> h1 = h /\ exists r1',
  (forall h', bind MDirect xs vs' r' h' = Some (r1', h')) /\
  (forall x, In x xs -> orel (lookup r1 x) (lookup r1' x)) /\
  (forall x, ~ In x xs -> lookup r1 x = lookup r x /\ lookup r1' x = lookup r' x).
Proof.
  induction xs as [|x xs IH]; intros vs vs' r r' h r1 h1 F B.
  - destruct F; [|discriminate]. injection B as <- <-. split; [reflexivity|]. exists r'. split; [reflexivity|split; [easy | auto]].
  - destruct F as [|v v' vs vs' V F]; [discriminate|]. cbn [bind] in B. destruct (IH _ _ _ ((x, v') :: r') _ _ _ F B) as (-> & r1' & B' & C & D).
    split; [reflexivity|]. exists r1'. split; [exact B'|split].
    + intros y I. destruct (in_dec id_dec y xs) as [J|J]; [auto|]. destruct I as [->|I]; [|easy]. destruct (D y J) as (-> & ->). rewrite !lookup_cons, id_eqb_refl. now constructor.
    + intros y I. destruct (D y) as (-> & ->); [firstorder|]. assert (N : y <> x) by firstorder congruence. rewrite !lookup_cons, (proj2 (id_eqb_neq _ _) N). auto.
Qed.
Lemma fix_from_both ys : forall i ids lams lams' r r' x, (forall j, VR (VFix ids lams j r) (VFix ids lams' j r')) ->
  (In x ys -> orel (lookup (bind_fix_from i ys ids lams r) x) (lookup (bind_fix_from i ys ids lams' r') x)) /\
  (~ In x ys -> lookup (bind_fix_from i ys ids lams r) x = lookup r x /\ lookup (bind_fix_from i ys ids lams' r') x = lookup r' x).
Proof.
  induction ys as [|y ys IH]; intros i ids lams lams' r r' x H; cbn [bind_fix_from]; [split; [easy | auto]|]. rewrite !lookup_cons.
  destruct (IH (Datatypes.S i) ids lams lams' r r' x H) as (A & B). destruct (id_eqb x y) eqn:E.
  - split; [intros _; now constructor|]. intros N. apply id_eqb_eq in E. subst. exfalso. apply N. now left.
  - apply id_eqb_neq in E. split; [intros [->|I]; [easy | auto] | intros N; apply B; firstorder].
Qed.
Lemma fix_er S ids lams lams' r r' (F : id -> Prop) :
  Forall2 (fun l l' => fst l' = fst l /\ CF (ext (fst l) (fixed ids lams S)) (snd l) (snd l')) lams lams' -> S r ->
  ER (fun x => free_in x (EFix ids lams void_exp)) r r' -> ER (fun x => F x /\ ~ In x ids) r r' ->
  ER F (bind_fix ids lams r) (bind_fix ids lams' r').
Proof.
  intros L Sr A B x Fx G. destruct (fix_from_both ids 0 ids lams lams' r r' x) as (C & D); [intros j; now apply vr_fix with S|].
  destruct (in_dec id_dec x ids) as [I|I]; [now apply C|]. unfold bind_fix. destruct (D I) as (-> & ->). now apply B.
Qed.
Lemma fix_void ids lams b x : free_in x (EFix ids lams void_exp) -> free_in x (EFix ids lams b).
Proof.
  intros F. inversion F as [N|ys e' I NI Fe]; subst; [inversion N|]. destruct I as [[= <- <-]|I]; [|apply free_part with ys e'; [now right | assumption..]].
  inversion Fe as [N|? ? I2]; subst; [inversion N | destruct I2].
Qed.

(** ** What is known of the parts of an expression *)
Lemma tj_if_inv r e Q : TJ r e Q -> forall a b c, e = EIf a b c -> TJ r b Q /\ TJ r c Q.
Proof.
  induction 1; intros a0 b0 c0 E; try discriminate.
  - split; now apply tj_top.
  - injection E as <- <- <-. auto.
  - destruct (IHTJ1 _ _ _ E) as (A1 & A2), (IHTJ2 _ _ _ E) as (B1 & B2). split; [exact (tj_and _ _ _ _ _ A1 B1 H1) | exact (tj_and _ _ _ _ _ A2 B2 H1)].
Qed.
Lemma tj_var_inv r e Q : TJ r e Q -> forall x, e = EVar x -> (forall s, Q s) \/ global_id x = false /\ forall v, lookup r x = Some v -> Q (shape_of v).
Proof.
  induction 1; intros y E; try discriminate.
  - now left.
  - injection E as <-. now right.
  - destruct (IHTJ1 _ E) as [A|(G & A)], (IHTJ2 _ E) as [B|(G2 & B)]; auto.
Qed.
Definition opaque (e : exp) : Prop :=
  match e with EVar x => global_id x = true | EIf _ _ _ | EPrim _ _ _ => False | EApp f _ => is_lam f = false | _ => True end.
Lemma tj_opaque r e Q : TJ r e Q -> opaque e -> forall s, Q s.
Proof.
  induction 1; cbn; intros O s; auto; try easy.
  - congruence.
Qed.
Definition qand (Q1 Q2 : shape -> Prop) (s : shape) : Prop := Q1 s /\ Q2 s.
Lemma sats_and Qs : forall Qs' vs, sats (map (fun p => qand (fst p) (snd p)) (combine Qs Qs')) vs -> length Qs = length Qs' -> sats Qs vs /\ sats Qs' vs.
Proof.
  induction Qs as [|Q Qs IH]; intros [|Q' Qs'] vs F L; cbn in *; try discriminate.
  - inversion F. split; constructor.
  - inversion F as [|? ? ? ? AB F2]; subst. unfold sat, qand in AB. destruct AB as (A & B). destruct (IH _ _ F2) as (C & D); [congruence|]. split; constructor; assumption.
Qed.
Lemma tj_list_and r l : forall Qs Qs', Forall2 (TJ r) l Qs -> Forall2 (TJ r) l Qs' -> Forall2 (TJ r) l (map (fun p => qand (fst p) (snd p)) (combine Qs Qs')).
Proof.
  induction l as [|e l IH]; intros Qs Qs' A B; [inversion A; inversion B; constructor|].
  inversion A as [|? Q1 ? Qs1 A1 A2]; inversion B as [|? Q2 ? Qs2 B1 B2]; subst. cbn [combine map fst snd]. constructor; [|now apply IH].
  apply (tj_and _ _ _ _ _ A1 B1). intros s X Y. now split.
Qed.
Lemma tj_tops r l : Forall2 (TJ r) l (map (fun _ => top) l).
Proof. induction l; cbn; constructor; auto. apply tj_top. intros s. exact I. Qed.
Lemma tj_let_inv r e Q : TJ r e Q -> forall ids b l, e = EApp (ELam ids b) l -> exists Qs, Forall2 (TJ r) l Qs /\
  forall vs r1 h h', sats Qs vs -> bind MDirect ids vs r h = Some (r1, h') -> TJ r1 b Q.
Proof.
  induction 1; intros ids0 b0 l0 E; try discriminate.
  - exists (map (fun _ => top) l0). split; [apply tj_tops|]. intros. now apply tj_top.
  - injection E as <- <- <-. eauto.
  - destruct (IHTJ1 _ _ _ E) as (A & FA & HA), (IHTJ2 _ _ _ E) as (B & FB & HB). eexists. split; [exact (tj_list_and _ _ _ _ FA FB)|].
    intros vs r1 h h' F Bi. apply (sats_and A B) in F; [|now rewrite <- (Forall2_len _ _ _ FA), <- (Forall2_len _ _ _ FB)]. destruct F as (F1 & F2). exact (tj_and _ _ _ _ _ (HA _ _ _ _ F1 Bi) (HB _ _ _ _ F2 Bi) H1).
Qed.
Lemma tj_prim_inv r e Q : TJ r e Q -> forall ef p l, e = EPrim ef p l -> exists Qs, Forall2 (TJ r) l Qs /\
  forall vs w v w', sats Qs vs -> run (P p) vs w = Some (v, w') -> Q (shape_of v).
Proof.
  induction 1; intros ef0 p0 l0 E; try discriminate.
  - exists (map (fun _ => top) l0). split; [apply tj_tops | auto].
  - injection E as <- <- <-. eauto.
  - destruct (IHTJ1 _ _ _ E) as (A & FA & HA), (IHTJ2 _ _ _ E) as (B & FB & HB). eexists. split; [exact (tj_list_and _ _ _ _ FA FB)|].
    intros vs w v w' F X. apply (sats_and A B) in F; [|now rewrite <- (Forall2_len _ _ _ FA), <- (Forall2_len _ _ _ FB)]. destruct F. eauto.
Qed.

(** ** Lists of operands *)
Lemma fs_app a b : fs (a ++ b) = fs a ++ fs b.
Proof. apply flat_map_app. Qed.
Lemma ft_app a b : ft (a ++ b) = ft a ++ ft b.
Proof. apply flat_map_app. Qed.
Lemma msr_app a b : msr (a ++ b) = (msr a + msr b)%nat.
Proof. unfold msr. rewrite map_app, list_sum_app. reflexivity. Qed.
Lemma fs_cons x T : fs (x :: T) = srcs x ++ fs T.
Proof. reflexivity. Qed.
Lemma ft_cons x T : ft (x :: T) = tgts x ++ ft T.
Proof. reflexivity. Qed.
Lemma msr_cons x T : msr (x :: T) = (hm x + msr T)%nat.
Proof. reflexivity. Qed.
Lemma ft_split T : forall a s b, ft T = a ++ s :: b -> exists T1 x T2, T = T1 ++ x :: T2 /\ tgts x = [s] /\ a = ft T1 /\ b = ft T2.
Proof.
  induction T as [|x T IH]; intros a s b E.
  - now destruct a.
  - assert (G : exists s0, tgts x = [s0]) by (destruct x; cbn; eauto). destruct G as (s0 & G).
    change (ft (x :: T)) with (tgts x ++ ft T) in E. rewrite G in E. cbn [app] in E. destruct a as [|s1 a]; cbn [app] in E.
    + assert (s0 = s) by congruence. subst s0. assert (b = ft T) by congruence. subst b. exists [], x, T. auto.
    + assert (s1 = s0) by congruence. subst s1. assert (E2 : ft T = a ++ s :: b) by congruence. destruct (IH _ _ _ E2) as (T1 & y & T2 & -> & Y & -> & ->). exists (x :: T1), y, T2.
      split; [reflexivity|split; [assumption|split; [|reflexivity]]]. unfold ft. cbn. now rewrite G.
Qed.
Lemma ft_one s T : ft T = [s] -> exists x, T = [x] /\ tgts x = [s].
Proof.
  intros E. destruct (ft_split T [] s [] E) as (T1 & x & T2 & -> & X & A & B). exists x. split; [|assumption].
  destruct T1 as [|y T1]; [|destruct y; discriminate]. destruct T2 as [|y T2]; [reflexivity | destruct y; discriminate].
Qed.
Lemma ft_nil T : ft T = [] -> T = [].
Proof. destruct T as [|[] T]; [reflexivity | discriminate ..]. Qed.
Lemma ft_done r r' T : forall vs', Forall (tok r r') T -> ft T = map SDone vs' -> msr T = O /\ exists vs, fs T = map SDone vs.
Proof.
  induction T as [|x T IH]; intros vs' F E; inversion F as [|? ? X F2]; subst; [split; [reflexivity | now exists []]|].
  destruct vs' as [|v' vs']; [destruct x; discriminate|].
  destruct X as [r0 r0' v v0 Q V QV|S r0 r0' e e' Q C Sr J E1|r0 r0' v ids b|r0 r0' v ids b]; rewrite ft_cons in E; cbn [tgts app map] in E; try discriminate.
  - destruct (IH vs') as (M & vs & G); [assumption | congruence|]. split; [exact M|]. exists (v :: vs). rewrite fs_cons, G. reflexivity.
  - destruct (IH vs') as (M & vs & G); [assumption | congruence|]. split; [exact M|]. destruct v as [v|]; [exists (v :: vs) | exists vs]; rewrite fs_cons, G; reflexivity.
Qed.
Lemma plain_done r r' Qs : forall T vs vs', Forall (tok r r') T -> map skel T = map KQ Qs -> fs T = map SDone vs -> ft T = map SDone vs' -> Forall2 VR vs vs' /\ sats Qs vs.
Proof.
  induction Qs as [|Q Qs IH]; intros [|x T] vs vs' F E A B; try discriminate.
  - destruct vs; [|discriminate]. destruct vs'; [|discriminate]. split; constructor.
  - inversion F as [|? ? X F2]; subst. destruct X as [r0 r0' v v0 Q0 V QV|S r0 r0' e e' Q0 C Sr J E1|r0 r0' v ids b|r0 r0' v ids b]; cbn in E; try discriminate.
    + destruct vs as [|v1 vs]; [discriminate|]. destruct vs' as [|v1' vs']; [discriminate|]. rewrite fs_cons in A. rewrite ft_cons in B. cbn [srcs tgts app map] in A, B.
      assert (Q0 = Q) by congruence. assert (v1 = v) by congruence. assert (v1' = v0) by congruence. subst.
      destruct (IH T vs vs') as (G & H); [assumption | congruence | congruence | congruence|]. split; constructor; assumption.
    + destruct vs; discriminate.
Qed.
Lemma todo_elems r r' S l : forall l' Qs, Forall2 (CF S) l l' -> S r -> Forall2 (TJ r) l Qs -> (forall e, In e l -> ER (fun x => free_in x e) r r') ->
  exists T, Forall (tok r r') T /\ map skel T = map KQ Qs /\ fs T = map STodo l /\ ft T = map STodo l' /\ msr T = O.
Proof.
  induction l as [|e l IH]; intros l' Qs C Sr J E; inversion C as [|? e' ? l2 C1 C2]; inversion J as [|? Q ? Qs2 J1 J2]; subst.
  - exists []. repeat split; constructor.
  - destruct (IH _ _ C2 Sr J2) as (T & F & SK & A & B & M); [intros; apply E; now right|]. exists (Both (STodo e) (STodo e') Q :: T). repeat split.
    + constructor; [|assumption]. apply tk_todo with S; auto. apply E. now left.
    + cbn. now rewrite SK.
    + rewrite fs_cons, A. reflexivity.
    + rewrite ft_cons, B. reflexivity.
    + rewrite msr_cons, M. reflexivity.
Qed.
Lemma done_elems r r' vs vs' Qs : Forall2 VR vs vs' -> sats Qs vs -> exists T, Forall (tok r r') T /\ map skel T = map KQ Qs /\ fs T = map SDone vs /\ ft T = map SDone vs' /\ msr T = O.
Proof.
  intros V. revert Qs. induction V as [|v v' vs vs' V F IH]; intros Qs H; inversion H as [|Q ? Qs2 ? H1 H2]; subst.
  - exists []. repeat split; constructor.
  - destruct (IH _ H2) as (T & FT & SK & A & B & M). exists (Both (SDone v) (SDone v') Q :: T). repeat split.
    + constructor; [|assumption]. now constructor.
    + cbn. now rewrite SK.
    + rewrite fs_cons, A. reflexivity.
    + rewrite ft_cons, B. reflexivity.
    + rewrite msr_cons, M. reflexivity.
Qed.
Lemma sats_top vs : sats (map (fun _ => top) vs) vs.
Proof. induction vs; cbn; constructor; auto. exact I. Qed.

(** ** Continuations *)
Lemma recv_KR Q v v' : VR v v' -> KR Q (recv v) (recv v').
Proof.
  intros V. unfold recv.
  apply (kr_frame top Q [Both (SDone v) (SDone v') top] [] (OWith void_exp) [] [] (OWith void_exp) [] []); [| |apply (kd_with (fun _ => True) [] [] top [top; Q])|constructor].
  - constructor; [|constructor]. constructor; [assumption | exact I].
  - constructor.
  - apply cf_prim. constructor.
  - exact I.
  - intros x F. inversion F as [N|? ? J]; [inversion N | destruct J].
Qed.
Lemma kont_of_KR v v' : VR v v' -> exists Q, (forall s, Q s) /\ KR Q (kont_of v) (kont_of v').
Proof.
  intros V. assert (G : KR top (recv v) (recv v')) by now apply recv_KR.
  inversion V; subst; cbn [kont_of]; try (exists top; split; [intros s; exact I | exact G]). eauto.
Qed.
Lemma trap_KR Q : KR Q trap trap.
Proof. apply recv_KR. constructor. Qed.
Lemma all_both T Qs : map skel T = map KQ Qs -> Forall (fun x => exists s s' Q, x = Both s s' Q) T.
Proof.
  revert Qs. induction T as [|x T IH]; intros [|Q Qs] E; try discriminate; constructor.
  - destruct x; [eauto | discriminate].
  - injection E as _ E. eapply IH; eauto.
Qed.
Lemma split_both T1 Q T2 Qs : map skel T1 ++ KQ Q :: map skel T2 = map KQ Qs ->
  Forall (fun x => exists s s' Q, x = Both s s' Q) T1 /\ Forall (fun x => exists s s' Q, x = Both s s' Q) T2.
Proof.
  revert Qs. induction T1 as [|x T1 IH]; intros [|Q1 Qs] E; try discriminate.
  - injection E as _ E. split; [constructor | eapply all_both; eauto].
  - injection E as E1 E. destruct (IH _ E) as (A & B). split; [|assumption]. constructor; [|assumption]. destruct x; [eauto | discriminate].
Qed.
Lemma both_nil T : Forall (fun x => exists s s' Q, x = Both s s' Q) T -> fs T = [] -> T = [].
Proof. destruct 1 as [|x T (s & s' & Q & ->) F]; [reflexivity | discriminate]. Qed.
Lemma recv_inv Q e p r0 K' : KR Q [Fr (OWith e) [SDone p] [] r0] K' -> exists e' p' r0', K' = [Fr (OWith e') [SDone p'] [] r0'] /\ VR p p'.
Proof.
  intros K. inversion K as [|Q1 Q0 T1 T2 o r K1 o' r' K1' F1 F2 KD KK E1 E2|]; subst.
  inversion KK; subst. inversion KD as [| | | | | |S r1 r1' Q2 Qs e0 e' C Sr ER0]; subst.
  match goal with H : map KQ _ = _ |- _ => rename H into SK end.
  destruct (split_both _ _ _ _ (eq_sym SK)) as (B1 & B2). assert (fs T2 = []) as N2 by congruence. apply (both_nil _ B2) in N2. subst T2.
  destruct B1 as [|x T1 (s & s' & Q3 & ->) B1]; [discriminate|]. rewrite fs_cons in *. cbn [srcs app] in *.
  assert (s = SDone p) by congruence. assert (N1 : fs T1 = []) by congruence. apply (both_nil _ B1) in N1. subst T1 s.
  apply Forall_inv in F1. inversion F1; subst. exists e', v', r'. auto.
Qed.
Lemma KR_capturable K : forall Q K', KR Q K K' -> capturable K = true -> capturable K' = true.
Proof.
  induction K as [|f K IH]; intros Q K' KK C; inversion KK as [|Q1 Q0 T1 T2 o r K1 o' r' K1' F1 F2 KD KK1 E1 E2|Q1 x r r0 K1 K1' G KK1]; subst; try reflexivity; [|cbn [capturable] in C; eauto].
  remember (map skel T1 ++ KQ Q :: map skel T2) as ks eqn:SK.
  destruct KD as [S r1 r1' Q2 Qt b c b' c' Cb Cc Sr Jb Jc ER0|S k r1 r1' Q2 Qt b c u y Cu Sr J HT NF ER0|r1 r1' Q2 Qs x HQ ER0|r1 r1' Q2 Qs ef p HQ|r1 r1' Q2 Qs HQ|S r1 r1' Q2 Qs ids ids' b b' Cb HB ER0 HI|S r1 r1' Q2 Qs e e' Ce Sr ER0]; try (cbn [capturable] in C |- *; eauto; fail).
  destruct (split_both _ _ _ _ (eq_sym SK)) as (B1 & _). destruct B1 as [|x T1 (s & s' & Q3 & ->) B1]; [cbn in C |- *; eauto|]. apply Forall_inv in F1. inversion F1 as [? ? v v' ? V QV| | |]; subst; [|cbn in C |- *; eauto].
  destruct B1 as [|y T1 (s & s' & Q4 & ->) B1]; [|cbn in C |- *; eauto]. cbn in C |- *. now rewrite <- (VR_proc _ _ V).
Qed.
End Sem.
