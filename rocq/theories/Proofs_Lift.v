(** Lifted programs do what the original programs do. *)
From Coq Require Import ZArith List Bool Lia.
From Verif Require Import Model_Core Model_Lift Spec_Sem Spec_Free Spec_Scope Spec_Lift Proofs_Sim Proofs_Core Proofs_Free Proofs_Agree Proofs_Assign Proofs_Box Proofs_Extra.
Import ListNotations.
Open Scope Z_scope.

(** ** Related code *)
Section Code.
Variable N0 : Z.                (** names of the original program have numbers up to [N0] *)
Variable T : tops.              (** the lifted procedures *)
Notation tids := (map fst T).
Notation tlams := (map snd T).
Definition not_label (x : id) : Prop := ts x <= N0 \/ xt x <> XTrue.
Definition is_curry (ps : list id) (t : id) (xv : list id) (c : exp) : Prop :=
  exists ys, c = curry_exp t ys (map EVar xv) /\ length ys = length ps /\ NoDup ys /\ (forall y, In y ys -> not_label y /\ global_id y = false /\ ~ In y xv).
Definition curries (lams : list lam) (xss : list (list id)) (ts : list id) (cs : list exp) : Prop :=
  length cs = length lams /\
  forall i ps b, nth_error lams i = Some (ps, b) -> exists xv t c, nth_error xss i = Some xv /\ nth_error ts i = Some t /\ nth_error cs i = Some c /\ is_curry ps t xv c.
Definition group (Q : exp -> exp -> Prop) (ids : list id) (lams : list lam) (xss : list (list id)) (ts : list id) : Prop :=
  NoDup ids /\ (length ids = length lams /\ length xss = length lams /\ length ts = length lams) /\ (forall y, In y ids -> not_label y /\ global_id y = false) /\
  (forall i xv, nth_error xss i = Some xv -> NoDup xv /\ forall x, In x xv -> not_label x /\ global_id x = false /\ ~ In x ids) /\
  forall i ps b, nth_error lams i = Some (ps, b) -> exists xv t cs b',
    nth_error xss i = Some xv /\ nth_error ts i = Some t /\ In (t, (ps ++ xv, let_exp ids cs b')) T /\ curries lams xss ts cs /\ Q b b' /\
    NoDup ps /\ (forall x, In x ps -> not_label x /\ ~ In x xv /\ ~ In x ids) /\
    (forall x, free_in x (ELam ps b) -> global_id x = false -> ~ In x ids -> In x xv) /\
    (forall j y xv', free_in y (ELam ps b) -> nth_error ids j = Some y -> nth_error xss j = Some xv' -> incl xv' xv).
Inductive LC : exp -> exp -> Prop :=
| lc_var x : not_label x -> LC (EVar x) (EVar x)
| lc_gset x e e' : global_id x = true -> LC e e' -> LC (ESet x e) (ESet x e')
| lc_if a b c a' b' c' : LC a a' -> LC b b' -> LC c c' -> LC (EIf a b c) (EIf a' b' c')
| lc_prim ef p l l' : Forall2 LC l l' -> LC (EPrim ef p l) (EPrim ef p l')
| lc_app f f' l l' : LC f f' -> Forall2 LC l l' -> LC (EApp f l) (EApp f' l')
| lc_lam xs b b' : (forall x, In x xs -> not_label x) -> NoDup xs -> LC b b' -> LC (ELam xs b) (ELam xs b')
| lc_lift l ps b xv t cs : group LC [l] [(ps, b)] [xv] [t] -> curries [(ps, b)] [xv] [t] cs -> ~ free_in l (ELam ps b) -> (forall x, In x xv -> free_in x (ELam ps b)) -> LC (ELam ps b) (let_exp [l] cs (EVar l))
| lc_fix ids lams xss ts cs b b' : group LC ids lams xss ts -> curries lams xss ts cs ->
    (forall j y xv, free_in y b -> nth_error ids j = Some y -> nth_error xss j = Some xv -> forall x, In x xv -> free_in x (EFix ids lams b)) ->
    LC b b' -> LC (EFix ids lams b) (let_exp ids cs b').

(** ** Related states *)
Definition rT : env := bind_fix tids tlams [].
Definition labels (r : env) : Prop := forall t, In t tids -> lookup r t = lookup rT t.
Inductive VR : val -> val -> Prop :=
| vr_c c : VR (VC c) (VC c)
| vr_loc l : VR (VLoc l) (VLoc l)
| vr_clo xs b b' r r' : LC b b' -> (forall x, In x xs -> not_label x) -> NoDup xs -> labels r' ->
    (forall x, free_in x (ELam xs b) -> global_id x = false -> exists v v', lookup r x = Some v /\ lookup r' x = Some v' /\ VR v v') ->
    VR (VClo xs b r) (VClo xs b' r')
| vr_lift l ps b xv t ys r r' : group LC [l] [(ps, b)] [xv] [t] -> is_curry ps t xv (curry_exp t ys (map EVar xv)) -> ~ free_in l (ELam ps b) ->
    labels r' -> (forall x, In x xv -> exists v v', lookup r x = Some v /\ lookup r' x = Some v' /\ VR v v') ->
    VR (VClo ps b r) (VClo ys (EApp (EVar t) (map EVar ys ++ map EVar xv)) r')
| vr_fix ids lams xss ts i ps b xv t ys r r' : group LC ids lams xss ts -> nth_error lams i = Some (ps, b) -> nth_error xss i = Some xv ->
    nth_error ts i = Some t -> is_curry ps t xv (curry_exp t ys (map EVar xv)) ->
    labels r' -> (forall x, In x xv -> exists v v', lookup r x = Some v /\ lookup r' x = Some v' /\ VR v v') ->
    VR (VFix ids lams i r) (VClo ys (EApp (EVar t) (map EVar ys ++ map EVar xv)) r').
Definition er (F : id -> Prop) (r r' : env) : Prop :=
  labels r' /\ forall x, F x -> global_id x = false -> exists v v', lookup r x = Some v /\ lookup r' x = Some v' /\ VR v v'.
Inductive opr : oper -> oper -> Prop :=
| op_if b c b' c' : LC b b' -> LC c c' -> opr (OIf b c) (OIf b' c')
| op_set x : global_id x = true -> opr (OSet x) (OSet x)
| op_prim ef p : opr (OPrim ef p) (OPrim ef p)
| op_app : opr OApp OApp.
Inductive slr : list slot -> list slot -> Prop :=
| sl_nil : slr [] []
| sl_done v v' l l' : VR v v' -> slr l l' -> slr (SDone v :: l) (SDone v' :: l')
| sl_todo e e' l l' : LC e e' -> slr l l' -> slr (STodo e :: l) (STodo e' :: l').
Inductive kr : kont -> kont -> Prop :=
| kr_nil : kr [] []
| kr_cons o o' a b a' b' r r' k k' : opr o o' -> slr a a' -> slr b b' -> er (need o (a ++ b)) r r' -> kr k k' ->
    kr (Fr o a b r :: k) (Fr o' a' b' r' :: k').
Definition sr (w w' : st) : Prop :=
  Forall2 (Forall2 VR) (hp w) (hp w') /\ (forall x, VR (gl w x) (gl w' x)) /\ out w = out w' /\ inp w = inp w'.
Inductive RL : nat -> state -> state -> Prop :=
| rl_ev e e' r r' k k' w w' : LC e e' -> er (fun x => free_in x e) r r' -> kr k k' -> sr w w' -> RL 0 (Ev e r k w) (Ev e' r' k' w')
| rl_args o o' l l' r r' k k' w w' : opr o o' -> er (need o l) r r' -> slr l l' -> kr k k' -> sr w w' -> RL 0 (Args o l r k w) (Args o' l' r' k' w')
| rl_ret v v' k k' w w' : VR v v' -> kr k k' -> sr w w' -> RL 0 (Ret v k w) (Ret v' k' w')
| rl_halt v v' w w' : VR v v' -> sr w w' -> RL 0 (Halted v w) (Halted v' w').

Lemma VR_shape v v' : VR v v' -> shape_of v = shape_of v'.
Proof. destruct 1; reflexivity. Qed.
Lemma VR_true v v' : VR v v' -> is_true v = is_true v'.
Proof. destruct 1; reflexivity. Qed.
Lemma run_sr p rs rs' s t v s1 : sr s t -> Forall2 VR rs rs' -> run p rs s = Some (v, s1) ->
  exists v' t1, run p rs' t = Some (v', t1) /\ sr s1 t1 /\ VR v v'.
Proof.
  intros S F E.
  destruct (run_rel unit (fun _ _ => True) (fun _ => VR) (fun _ => sr)) with (p := p) (w := tt) (rs := rs) (rs' := rs') (s := s) (t := t) (v := v) (s1 := s1)
    as (_ & v' & t1 & A & _ & B & C); eauto.
  - intros. constructor.
  - intros. now apply VR_shape.
  - intros _ _ _ v0 v0' u u' b _ V U. destruct V, U; cbn; intros X; auto.
  - intros _ s0 t0 vs vs' (H & G & O & I) Fv. exists tt. split; [exact Logic.I|]. split.
    + split; [|split; [|split]]; cbn; auto. apply Forall2_app; auto.
    + rewrite (Forall2_len _ _ _ H). constructor.
  - intros _ s0 t0 l v0 b i u (H & G & O & I) V N1 N2. inversion V; subst.
    destruct (Forall2_nth _ _ _ _ _ H N1) as (b' & N1' & Fb). destruct (Forall2_nth _ _ _ _ _ Fb N2) as (u' & N2' & U).
    exists l, b', u'. auto.
  - intros _ s0 t0 l v0 b i u u' b1 h (H & G & O & I) V U N1 S1 S2. inversion V; subst.
    destruct (Forall2_nth _ _ _ _ _ H N1) as (b' & N1' & Fb). destruct (Forall2_set _ _ _ _ _ _ _ Fb U S1) as (b1' & S1' & Fb1).
    destruct (Forall2_set _ _ _ _ _ _ _ H Fb1 S2) as (h' & S2' & Fh). exists l, b', b1', h'.
    split; [reflexivity|split; [assumption|split; [assumption|split; [assumption|]]]]. split; cbn; auto.
  - intros _ s0 t0 (H & G & O & I). auto.
  - intros _ s0 t0 o i (H & G & O & I). split; cbn; auto.
Qed.
Lemma slr_split l l' : slr l l' -> forall a e' b, l' = a ++ STodo e' :: b -> exists a0 e b0, l = a0 ++ STodo e :: b0 /\ slr a0 a /\ slr b0 b /\ LC e e'.
Proof.
  induction 1 as [|v v' l l' V S IH|e0 e0' l l' X S IH]; intros a e b E.
  - now destruct a.
  - destruct a as [|x a]; [discriminate|]. injection E as <- E. destruct (IH _ _ _ E) as (a0 & e1 & b0 & -> & A & B & C).
    exists (SDone v :: a0), e1, b0. split; [reflexivity | split; [now constructor | auto]].
  - destruct a as [|x a].
    + injection E as -> <-. exists [], e0, l. split; [reflexivity | split; [constructor | auto]].
    + injection E as <- E. destruct (IH _ _ _ E) as (a0 & e1 & b0 & -> & A & B & C).
      exists (STodo e0 :: a0), e1, b0. split; [reflexivity | split; [now constructor | auto]].
Qed.
Lemma slr_done vs : forall l', slr (map SDone vs) l' -> exists vs', l' = map SDone vs' /\ Forall2 VR vs vs'.
Proof.
  induction vs as [|v vs IH]; intros l' S; inversion S; subst.
  - exists []. split; [reflexivity | constructor].
  - destruct (IH _ H3) as (vs' & -> & F). exists (v' :: vs'). split; [reflexivity | now constructor].
Qed.
Lemma slr_app a a' b b' : slr a a' -> slr b b' -> slr (a ++ b) (a' ++ b').
Proof. induction 1; cbn; intros; [assumption | constructor; auto ..]. Qed.
Lemma slr_todo l l' : Forall2 LC l l' -> slr (map STodo l) (map STodo l').
Proof. induction 1; cbn; constructor; assumption. Qed.
Lemma slr_todo_l l l' : slr l l' -> forall a e b, l = a ++ STodo e :: b -> exists a0 e' b0, l' = a0 ++ STodo e' :: b0.
Proof.
  induction 1 as [|v v' l l' V S IH|e0 e0' l l' X S IH]; intros a e b E.
  - now destruct a.
  - destruct a as [|x a]; [discriminate|]. injection E as <- E. destruct (IH _ _ _ E) as (a0 & e1 & b0 & ->). now exists (SDone v' :: a0), e1, b0.
  - destruct a as [|x a].
    + injection E as -> <-. now exists [], e0', l'.
    + injection E as <- E. destruct (IH _ _ _ E) as (a0 & e1 & b0 & ->). now exists (STodo e0' :: a0), e1, b0.
Qed.

(** ** Target code that runs by itself *)
Hypothesis T_labels : forall t, In t tids -> N0 < ts t /\ xt t = XTrue.
Hypothesis T_nodup : NoDup tids.
Hypothesis N0_pos : 0 <= N0.
Variable P : prim -> script.

Lemma label_no t x : In t tids -> not_label x -> t <> x.
Proof. intros I N ->. apply T_labels in I. destruct N, I; [lia | easy]. Qed.
Lemma label_local t : In t tids -> global_id t = false.
Proof. intros I. apply T_labels in I. unfold global_id. apply Z.ltb_ge. lia. Qed.
Lemma set_hp_same w : set_hp w (hp w) = w.
Proof. now destruct w. Qed.
Lemma fix_from_get ys : forall i xs ls r x, NoDup ys -> 
  (forall j, nth_error ys j = Some x -> lookup (bind_fix_from i ys xs ls r) x = Some (VFix xs ls (i + j) r)) /\
  (~ In x ys -> lookup (bind_fix_from i ys xs ls r) x = lookup r x).
Proof.
  induction ys as [|y ys IH]; intros i xs ls r x ND; cbn [bind_fix_from].
  - split; [intros [|]; discriminate | reflexivity].
  - inversion ND; subst. rewrite lookup_cons. destruct (IH (S i) xs ls r x H2) as (A & B). split.
    + intros [|j] E; cbn in E.
      * injection E as ->. rewrite id_eqb_refl. f_equal. f_equal. lia.
      * assert (N : x <> y) by (intros ->; apply H1; eapply nth_error_In; eauto). rewrite (proj2 (id_eqb_neq _ _) N), (A _ E). f_equal. f_equal. lia.
    + intros NI. assert (N : x <> y) by (intros ->; apply NI; now left). rewrite (proj2 (id_eqb_neq _ _) N). apply B. intros I. apply NI. now right.
Qed.
Lemma rT_get t ps b : In (t, (ps, b)) T -> exists i, lookup rT t = Some (VFix tids tlams i []) /\ nth_error tlams i = Some (ps, b).
Proof.
  intros I. apply In_nth_error in I. destruct I as (i & E). exists i. split.
  - apply (proj1 (fix_from_get tids 0 tids tlams [] t T_nodup)). rewrite nth_error_map, E. reflexivity.
  - rewrite nth_error_map, E. reflexivity.
Qed.
(** operands whose values are known *)
Lemma inev_known o0 (Q : state -> Prop) op r k w es vs : out w = o0 -> Forall2 (fun e v => forall k1, evf MDirect e r k1 w = Some (Ret v k1 w)) es vs ->
  inev P MDirect o0 Q (Args op (map SDone vs) r k w) -> inev P MDirect o0 Q (Args op (map STodo es) r k w).
Proof.
  intros O F I.
  set (J := fun (l : list slot) (w1 : st) => w1 = w /\ Forall2 (fun s ev => s = STodo (fst ev) \/ s = SDone (snd ev)) l (combine es vs)).
  assert (Fx : Forall (fun ev => forall k1, evf MDirect (fst ev) r k1 w = Some (Ret (snd ev) k1 w)) (combine es vs)).
  { clear -F. induction F; cbn; constructor; auto. }
  eapply inev_trans; [|apply (inev_operands P MDirect o0 op r k J)].
  - cbn beta. intros t (vs1 & w1 & -> & -> & F1). assert (vs1 = vs); [|now subst].
    clear -F F1. revert vs1 F1. induction F as [|e v es vs X F IH]; cbn; intros vs1 F1.
    + destruct vs1; [reflexivity | inversion F1].
    + destruct vs1 as [|v1 vs1]; cbn in F1; inversion F1; subst. destruct H2 as [|E]; [discriminate|]. cbn in E. injection E as ->. f_equal. auto.
  - intros a e b w1 k1 (-> & F1). apply Forall2_app_inv_l in F1. destruct F1 as (c1 & c2 & A1 & A2 & E). inversion A2 as [|s ev l1 l2 X A3]; subst.
    destruct X as [X|X]; [|discriminate]. injection X as X. assert (G : forall k1, evf MDirect (fst ev) r k1 w = Some (Ret (snd ev) k1 w)).
    { rewrite Forall_forall in Fx. apply Fx. rewrite E. apply in_elt. }
    rewrite X. eapply inev_ev; [reflexivity | apply G|]. apply inev_now. exists (snd ev), w. split; [reflexivity|]. split; [reflexivity|].
    rewrite E. apply Forall2_app; [assumption|]. constructor; [now right | assumption].
  - intros l w1 (-> & _). assumption.
  - split; [reflexivity|]. clear -F. induction F; cbn; constructor; auto.
Qed.
Lemma eval_let o0 (Q : state -> Prop) ids cs b r k w vs : out w = o0 -> length ids = length vs ->
  Forall2 (fun e v => forall k1, evf MDirect e r k1 w = Some (Ret v k1 w)) cs vs ->
  (forall r1, bind MDirect ids vs r (hp w) = Some (r1, hp w) -> inev P MDirect o0 Q (Ev b r1 k w)) ->
  inev P MDirect o0 Q (Ev (let_exp ids cs b) r k w).
Proof.
  intros O L F I. unfold let_exp. eapply inev_ev; [assumption | reflexivity|].
  eapply (inev_known o0 Q OApp r k w (ELam ids b :: cs) (VClo ids b r :: vs)); [assumption | constructor; [reflexivity | assumption]|].
  destruct (bind_direct ids vs r (hp w) L) as (r1 & B & _). eapply inev_fire; [assumption | cbn [firef]; rewrite B; reflexivity|].
  rewrite set_hp_same. now apply I.
Qed.
Lemma labels_bind xs vs r r1 h : (forall x, In x xs -> not_label x) -> length xs = length vs -> bind MDirect xs vs r h = Some (r1, h) -> labels r -> labels r1.
Proof.
  intros NL L B LB t I. destruct (bind_direct xs vs r h L) as (r2 & B2 & _ & D). assert (r2 = r1) by congruence. subst.
  rewrite D; [now apply LB|]. intros J. now apply (label_no t t I (NL _ J)).
Qed.
Lemma curry_vals lams xss ts cs r w : curries lams xss ts cs ->
  exists vs, Forall2 (fun e v => forall k1, evf MDirect e r k1 w = Some (Ret v k1 w)) cs vs /\ length vs = length lams /\
    forall i ps b, nth_error lams i = Some (ps, b) -> exists xv t ys, nth_error xss i = Some xv /\ nth_error ts i = Some t /\
      nth_error vs i = Some (VClo ys (EApp (EVar t) (map EVar ys ++ map EVar xv)) r) /\ is_curry ps t xv (curry_exp t ys (map EVar xv)).
Proof.
  intros (L & C). exists (map (fun c => match c with ELam ys b => VClo ys b r | _ => VC CVoid end) cs). split; [|split].
  - assert (A : forall c, In c cs -> exists ys b, c = ELam ys b).
    { intros c I. apply In_nth_error in I. destruct I as (i & E). destruct (nth_error lams i) as [(ps & b)|] eqn:El.
      - destruct (C _ _ _ El) as (xv & t & c' & _ & _ & E' & ys & -> & _). assert (c = curry_exp t ys (map EVar xv)) by congruence. subst. eexists _, _. reflexivity.
      - apply nth_error_None in El. assert (i < length cs)%nat by (apply nth_error_Some; congruence). lia. }
    clear C L. induction cs as [|c cs IH]; cbn; constructor; [|apply IH; intros; apply A; now right].
    destruct (A c (or_introl eq_refl)) as (ys & b & ->). reflexivity.
  - now rewrite map_length.
  - intros i ps b E. destruct (C _ _ _ E) as (xv & t & c' & X1 & X2 & X3 & Y). pose proof Y as (ys & -> & _). exists xv, t, ys. rewrite nth_error_map, X3. auto.
Qed.

(** a call of a curried procedure reaches the body *)
Definition plain (v : val) : Prop := match v with VRef _ => False | _ => True end.
Lemma VR_plain v v' : VR v v' -> plain v'.
Proof. destruct 1; exact I. Qed.
Lemma read_plain r x w v k : global_id x = false -> lookup r x = Some v -> plain v -> evf MDirect (EVar x) r k w = Some (Ret v k w).
Proof. intros G E Pl. cbn [evf]. unfold read_var. rewrite G, E. now destruct v. Qed.
Lemma reads r w xs : forall vs, length xs = length vs -> (forall i x v, nth_error xs i = Some x -> nth_error vs i = Some v -> lookup r x = Some v /\ global_id x = false /\ plain v) ->
  Forall2 (fun e v => forall k1, evf MDirect e r k1 w = Some (Ret v k1 w)) (map EVar xs) vs.
Proof.
  induction xs as [|x xs IH]; intros [|v vs] L H; cbn in *; try discriminate; constructor.
  - intros k1. destruct (H 0%nat x v eq_refl eq_refl) as (A & B & C). now apply read_plain.
  - apply IH; [lia|]. intros i y u Ey Eu. exact (H (S i) y u Ey Eu).
Qed.
Lemma enter o0 (Q : state -> Prop) ids lams xss ts i ps b xv t ys r' vs' k w :
  group LC ids lams xss ts -> nth_error lams i = Some (ps, b) -> nth_error xss i = Some xv -> nth_error ts i = Some t ->
  is_curry ps t xv (curry_exp t ys (map EVar xv)) -> labels r' -> (forall x, In x xv -> exists v', lookup r' x = Some v' /\ plain v') ->
  length vs' = length ps -> Forall plain vs' -> out w = o0 ->
  (forall b' r1 r2, LC b b' -> labels r1 -> labels r2 ->
     (forall j p, nth_error ps j = Some p -> lookup r1 p = nth_error vs' j) ->
     (forall x, In x xv -> lookup r1 x = lookup r' x /\ lookup r2 x = lookup r' x) ->
     (forall j y ps' b0, nth_error ids j = Some y -> nth_error lams j = Some (ps', b0) -> exists xv' t' ys', nth_error xss j = Some xv' /\ nth_error ts j = Some t' /\
        lookup r1 y = Some (VClo ys' (EApp (EVar t') (map EVar ys' ++ map EVar xv')) r2) /\ is_curry ps' t' xv' (curry_exp t' ys' (map EVar xv'))) ->
     inev P MDirect o0 Q (Ev b' r1 k w)) ->
  exists ry, bind MDirect ys vs' r' (hp w) = Some (ry, hp w) /\
  inev P MDirect o0 Q (Ev (EApp (EVar t) (map EVar ys ++ map EVar xv)) ry k w).
Proof.
  intros (ND & (LI & LX & LT) & GI & GX & GB) El Ex Et (ys0 & Ec & Ly & NDy & Hy) LB XV Lv PV O KK.
  assert (ys0 = ys) by (unfold curry_exp in Ec; congruence). subst ys0. clear Ec.
  destruct (GB _ _ _ El) as (xv0 & t0 & cs & b' & Ex0 & Et0 & IT & CU & CB & NDp & Hp & Own & Call).
  assert (xv0 = xv) by congruence. assert (t0 = t) by congruence. subst xv0 t0.
  destruct (GX _ _ Ex) as (NDx & Hx).
  destruct (bind_direct ys vs' r' (hp w)) as (ry & By & Ly1 & Ly2); [congruence|]. specialize (Ly1 NDy). exists ry. split; [assumption|].
  assert (LBy : labels ry). { eapply labels_bind; [| |exact By|assumption]; [intros x I; apply (Hy x I) | congruence]. }
  assert (Itid : In t tids). { apply in_map_iff. now exists (t, (ps ++ xv, let_exp ids cs b')). }
  destruct (rT_get _ _ _ IT) as (q & Lq & Nq).
  (* the extra values *)
  assert (EV : exists us, Forall2 (fun x u => lookup r' x = Some u /\ plain u) xv us).
  { clear -XV. induction xv as [|x xv IH]; [exists []; constructor|]. destruct (XV x (or_introl eq_refl)) as (u & E).
    destruct IH as (us & F); [intros; apply XV; now right|]. exists (u :: us). now constructor. }
  destruct EV as (us & FU). assert (Lu : length us = length xv) by (clear -FU; induction FU; cbn; congruence).
  eapply inev_ev; [assumption | reflexivity|].
  eapply (inev_known o0 Q OApp ry k w (EVar t :: map EVar ys ++ map EVar xv) (VFix tids tlams q [] :: vs' ++ us)); [assumption| |].
  { constructor.
    - intros k1. apply read_plain; [now apply label_local | now rewrite (LBy t Itid), Lq | exact Logic.I].
    - apply Forall2_app; apply reads; try congruence.
      + intros j y v Ey Ev. split; [now rewrite (Ly1 _ _ Ey)|]. split; [apply nth_error_In in Ey; apply (Hy _ Ey)|].
        rewrite Forall_forall in PV. apply PV. eapply nth_error_In; eauto.
      + intros j x u Exj Eu. destruct (Forall2_nth _ _ _ _ _ FU Exj) as (u' & Eu' & E & Pu). assert (u' = u) by congruence. subst u'.
        apply nth_error_In in Exj. split; [|split; [apply (Hx _ Exj) | assumption]]. rewrite Ly2; [assumption|]. intros I. apply (Hy _ I). assumption. }
  (* the lifted procedure *)
  destruct (bind_direct (ps ++ xv) (vs' ++ us) (bind_fix tids tlams []) (hp w)) as (rp & Bp & Lp1 & Lp2); [rewrite !app_length; lia|].
  assert (NDa : NoDup (ps ++ xv)). { apply NoDup_join; auto. intros x I. apply (Hp x I). }
  specialize (Lp1 NDa).
  eapply inev_fire; [assumption | cbn [firef]; rewrite Nq, Bp; reflexivity|]. rewrite set_hp_same.
  assert (LBp : labels rp). { eapply labels_bind; [| |exact Bp|intros t1 _; reflexivity]; [|rewrite !app_length; lia].
    intros x I. apply in_app_iff in I. destruct I as [I|I]; [apply (Hp x I) | apply (Hx x I)]. }
  destruct (curry_vals lams xss ts cs rp w CU) as (cv & Fc & Lc & Hc).
  eapply (eval_let o0 Q ids cs b' rp k w cv); [assumption | congruence | assumption|]. intros r1 B1.
  destruct (bind_direct ids cv rp (hp w)) as (r1' & B1' & L1 & L2); [congruence|]. assert (r1' = r1) by congruence. subst r1'. specialize (L1 ND).
  apply (KK b' r1 rp); try assumption.
  - eapply labels_bind; [| |exact B1|assumption]; [intros x I; apply (GI x I) | congruence].
  - intros j p Ep. rewrite L2; [|intros I; apply nth_error_In in Ep; now apply (Hp p Ep)].
    rewrite (Lp1 j p); [|rewrite nth_error_app1; [assumption | apply nth_error_Some; congruence]].
    assert (j < length ps)%nat by (apply nth_error_Some; congruence). now rewrite nth_error_app1 by lia.
  - intros x I. assert (E : lookup rp x = lookup r' x).
    { apply In_nth_error in I. destruct I as (j & Ej). rewrite (Lp1 (length ps + j)%nat x); [|rewrite nth_error_app2 by lia; now replace (length ps + j - length ps)%nat with j by lia].
      rewrite nth_error_app2 by lia. replace (length ps + j - length vs')%nat with j by lia. destruct (Forall2_nth _ _ _ _ _ FU Ej) as (u & -> & -> & _). reflexivity. }
    split; [|assumption]. rewrite L2; [assumption|]. apply (Hx x I).
  - intros j y ps' b0 Ey Ej. destruct (Hc _ _ _ Ej) as (xv' & t' & ys' & A1 & A2 & A3 & A4). exists xv', t', ys'. rewrite (L1 _ _ Ey). auto.
Qed.

Lemma bind_len m xs : forall vs r h r1 h1, bind m xs vs r h = Some (r1, h1) -> length xs = length vs.
Proof.
  induction xs as [|x xs IH]; intros [|v vs] r h r1 h1 E; cbn in E; try discriminate; [reflexivity|]. cbn. f_equal. destruct m; eauto.
Qed.
Lemma bind_dir xs vs r h r1 h1 : NoDup xs -> bind MDirect xs vs r h = Some (r1, h1) -> h1 = h /\ length xs = length vs /\
  (forall i x, nth_error xs i = Some x -> lookup r1 x = nth_error vs i) /\ (forall y, ~ In y xs -> lookup r1 y = lookup r y).
Proof.
  intros N B. pose proof (bind_len _ _ _ _ _ _ _ B) as L. destruct (bind_direct xs vs r h L) as (r2 & B2 & C & D).
  rewrite B2 in B. injection B as <- <-. auto.
Qed.
Lemma bind_er xs vs vs' r r' h h' r1 h1 (F : id -> Prop) : NoDup xs -> (forall x, In x xs -> not_label x) -> Forall2 VR vs vs' ->
  bind MDirect xs vs r h = Some (r1, h1) -> labels r' ->
  (forall x, F x -> ~ In x xs -> global_id x = false -> exists v v', lookup r x = Some v /\ lookup r' x = Some v' /\ VR v v') ->
  h1 = h /\ exists r1', bind MDirect xs vs' r' h' = Some (r1', h') /\ er F r1 r1'.
Proof.
  intros N NL FV B LB H. destruct (bind_dir _ _ _ _ _ _ N B) as (-> & L & B1 & B2). split; [reflexivity|].
  pose proof (Forall2_len _ _ _ FV) as LV. destruct (bind_direct xs vs' r' h') as (r1' & B' & C & D); [congruence|]. specialize (C N).
  exists r1'. split; [assumption|]. split; [eapply labels_bind; [exact NL| |exact B'|assumption]; congruence|].
  intros x Fx G. destruct (in_dec id_dec x xs) as [I|I].
  - apply In_nth_error in I. destruct I as (i & E). rewrite (B1 _ _ E), (C _ _ E).
    assert (i < length vs)%nat by (rewrite <- L; apply nth_error_Some; congruence). destruct (nth_error vs i) as [v|] eqn:Ev; [|apply nth_error_None in Ev; lia].
    destruct (Forall2_nth _ _ _ _ _ FV Ev) as (v' & -> & V). eauto.
  - rewrite (B2 _ I), (D _ I). auto.
Qed.
Lemma sr_hp w w' : sr w w' -> sr (set_hp w (hp w)) w'.
Proof. now rewrite set_hp_same. Qed.
Lemma plain_vs vs vs' : Forall2 VR vs vs' -> Forall plain vs'.
Proof. induction 1; constructor; auto. eapply VR_plain; eauto. Qed.
Lemma fix_get ids lams r j y : NoDup ids -> nth_error ids j = Some y -> lookup (bind_fix ids lams r) y = Some (VFix ids lams j r).
Proof. intros N E. exact (proj1 (fix_from_get ids 0 ids lams r y N) j E). Qed.
Lemma fix_miss ids lams r y : NoDup ids -> ~ In y ids -> lookup (bind_fix ids lams r) y = lookup r y.
Proof. intros N E. exact (proj2 (fix_from_get ids 0 ids lams r y N) E). Qed.
(** the procedures of a group, seen from inside *)
Lemma group_fix ids lams xss ts j y ps b xv t ys r r' : group LC ids lams xss ts -> nth_error ids j = Some y -> nth_error lams j = Some (ps, b) ->
  nth_error xss j = Some xv -> nth_error ts j = Some t -> is_curry ps t xv (curry_exp t ys (map EVar xv)) -> labels r' ->
  (forall x, In x xv -> exists v v', lookup r x = Some v /\ lookup r' x = Some v' /\ VR v v') ->
  VR (VFix ids lams j r) (VClo ys (EApp (EVar t) (map EVar ys ++ map EVar xv)) r').
Proof. intros. eapply vr_fix; eauto. Qed.

Lemma fire_lift o o' vs vs' r r' k k' w w' s n s0 : opr o o' -> er (need o (map SDone vs)) r r' -> Forall2 VR vs vs' -> kr k k' -> sr w w' ->
  firef P MDirect o vs r k w = Some s -> step P MDirect s0 s ->
  exists t, firef P MDirect o' vs' r' k' w' = Some t /\ inev P MDirect (out w') (next P MDirect RL n s0) t.
Proof.
  intros OP A F K S E ST.
  assert (NX : forall t, RL 0 s t -> inev P MDirect (out w') (next P MDirect RL n s0) t) by (intros t X; apply inev_now; eapply next_one; eauto).
  destruct OP as [b c b' c' Lb Lc|x G|ef p|]; cbn [firef] in *.
  - destruct F as [|v v' vs vs' V [|]]; try discriminate. injection E as <-. rewrite <- (VR_true _ _ V). eexists. split; [reflexivity|].
    apply NX. constructor; auto; [now destruct (is_true v)|]. split; [apply A|]. intros x Fx. apply A. left. cbn. destruct (is_true v); auto.
  - destruct F as [|v v' vs vs' V [|]]; try discriminate. rewrite G in *.
    injection E as <-. eexists. split; [reflexivity|]. apply NX. constructor; [constructor | assumption|].
    destruct S as (H & Gl & O & I). split; [|split; [|split]]; cbn; auto. intros y. destruct (id_eqb y x); auto.
  - destruct (zlist_dec p the_halt_prim) as [->|N].
    + destruct F as [|v v' vs vs' V [|]]; try discriminate. injection E as <-. eexists. split; [reflexivity|]. apply NX. now constructor.
    + destruct (run (P p) vs w) as [(v & w1)|] eqn:R; [|discriminate]. injection E as <-.
      destruct (run_sr _ _ _ _ _ _ _ S F R) as (v' & t1 & -> & S1 & V). eexists. split; [reflexivity|]. apply NX. now constructor.
  - destruct F as [|v v' vs vs' V F]; [discriminate|].
    destruct V as [c|l|xs b b' r0 r0' LB NL ND LA A0|l ps b xv t ys r0 r0' GR CU NF LA A0|ids lams xss ts i ps b xv t ys r0 r0' GR El Ex Et CU LA A0]; try discriminate.
    + destruct (bind MDirect xs vs r0 (hp w)) as [(r1 & h1)|] eqn:B; [|discriminate]. assert (s = Ev b r1 k (set_hp w h1)) by congruence. subst s. clear E.
      destruct (bind_er xs vs vs' r0 r0' (hp w) (hp w') r1 h1 (fun x => free_in x b) ND NL F B LA) as (-> & r1' & -> & ER).
      { intros x Fx I. apply A0. eapply free_part; [now left | assumption..]. }
      eexists. split; [reflexivity|]. rewrite !set_hp_same in *. apply NX. now constructor.
    + destruct (bind MDirect ps vs r0 (hp w)) as [(r1 & h1)|] eqn:B; [|discriminate]. assert (s = Ev b r1 k (set_hp w h1)) by congruence. subst s. clear E.
      pose proof GR as (_ & _ & _ & _ & GB). destruct (GB 0%nat ps b eq_refl) as (xv0 & t0 & cs & b0 & Ex0 & Et0 & IT & CUs & CB & NDp & Hp & Own & Call).
      cbn in Ex0, Et0. assert (xv0 = xv) by congruence. assert (t0 = t) by congruence. subst xv0 t0. clear Ex0 Et0.
      destruct (bind_dir _ _ _ _ _ _ NDp B) as (-> & L & B1 & B2). pose proof (Forall2_len _ _ _ F) as LV.
      destruct (enter (out w') (next P MDirect RL n s0) [l] [(ps, b)] [xv] [t] 0 ps b xv t ys r0' vs' k' w' GR eq_refl eq_refl eq_refl CU LA) as (ry & -> & IN); try congruence.
      * intros x I. destruct (A0 x I) as (v & v' & _ & E' & V). exists v'. split; [assumption | eapply VR_plain; eauto].
      * eapply plain_vs; eauto.
      * intros b' r1' r2 LBb LA1 LA2 E1 E2 E3. apply inev_now. eapply next_one; [exact ST|]. rewrite set_hp_same. constructor; [assumption| |assumption|assumption].
        split; [assumption|]. intros x Fx G. destruct (in_dec id_dec x ps) as [I|I].
        -- apply In_nth_error in I. destruct I as (j & E). rewrite (B1 _ _ E), (E1 _ _ E). assert (j < length vs)%nat by (rewrite <- L; apply nth_error_Some; congruence).
           destruct (nth_error vs j) as [v|] eqn:Ev; [|apply nth_error_None in Ev; lia]. destruct (Forall2_nth _ _ _ _ _ F Ev) as (v' & -> & V). eauto.
        -- assert (Fl : free_in x (ELam ps b)) by (eapply free_part; [now left | assumption..]).
           assert (Ix : In x xv). { apply Own; [assumption | assumption|]. intros [->|[]]. now apply NF. }
           destruct (A0 x Ix) as (v & v' & X1 & X2 & V). exists v, v'. rewrite (B2 _ I), (proj1 (E2 _ Ix)). auto.
      * eexists. split; [reflexivity|]. now rewrite set_hp_same.
    + rewrite El in E. destruct (bind MDirect ps vs (bind_fix ids lams r0) (hp w)) as [(r1 & h1)|] eqn:B; [|discriminate]. assert (s = Ev b r1 k (set_hp w h1)) by congruence. subst s. clear E.
      pose proof GR as (NDi & (LI & LX & LT) & GI & GX & GB). destruct (GB i ps b El) as (xv0 & t0 & cs & b0 & Ex0 & Et0 & IT & CUs & CB & NDp & Hp & Own & Call).
      assert (xv0 = xv) by congruence. assert (t0 = t) by congruence. subst xv0 t0. clear Ex0 Et0.
      destruct (bind_dir _ _ _ _ _ _ NDp B) as (-> & L & B1 & B2). pose proof (Forall2_len _ _ _ F) as LV.
      destruct (enter (out w') (next P MDirect RL n s0) ids lams xss ts i ps b xv t ys r0' vs' k' w' GR El Ex Et CU LA) as (ry & -> & IN); try congruence.
      * intros x I. destruct (A0 x I) as (v & v' & _ & E' & V). exists v'. split; [assumption | eapply VR_plain; eauto].
      * eapply plain_vs; eauto.
      * intros b' r1' r2 LBb LA1 LA2 E1 E2 E3. apply inev_now. eapply next_one; [exact ST|]. rewrite set_hp_same. constructor; [assumption| |assumption|assumption].
        split; [assumption|]. intros x Fx G. destruct (in_dec id_dec x ps) as [I|I].
        -- apply In_nth_error in I. destruct I as (j & E). rewrite (B1 _ _ E), (E1 _ _ E). assert (j < length vs)%nat by (rewrite <- L; apply nth_error_Some; congruence).
           destruct (nth_error vs j) as [v|] eqn:Ev; [|apply nth_error_None in Ev; lia]. destruct (Forall2_nth _ _ _ _ _ F Ev) as (v' & -> & V). eauto.
        -- assert (Fl : free_in x (ELam ps b)) by (eapply free_part; [now left | assumption..]). rewrite (B2 _ I).
           destruct (in_dec id_dec x ids) as [J|J].
           ++ apply In_nth_error in J. destruct J as (j & Ej). rewrite (fix_get _ _ _ _ _ NDi Ej).
              assert (j < length lams)%nat by (rewrite <- LI; apply nth_error_Some; congruence). destruct (nth_error lams j) as [(ps' & b1)|] eqn:Elj; [|apply nth_error_None in Elj; lia].
              destruct (E3 _ _ _ _ Ej Elj) as (xv' & t' & ys' & X1 & X2 & X3 & X4). rewrite X3. eexists _, _. split; [reflexivity|split; [reflexivity|]].
              eapply group_fix; eauto. intros z Iz. pose proof (Call _ _ _ Fl Ej X1 _ Iz) as Iz'. destruct (A0 z Iz') as (v & v' & Y1 & Y2 & V).
              exists v, v'. rewrite (proj2 (E2 _ Iz')). auto.
           ++ assert (Ix : In x xv) by now apply Own. destruct (A0 x Ix) as (v & v' & X1 & X2 & V). exists v, v'. rewrite (fix_miss _ _ _ _ NDi J), (proj1 (E2 _ Ix)). auto.
      * eexists. split; [reflexivity|]. now rewrite set_hp_same.
Qed.

(** the operands of an expression need what the expression needs *)
Lemma need_decomp e o l x : decomp e = Some (o, l) -> need o (map STodo l) x -> free_in x e.
Proof.
  intros D N. assert (NF : forall e', In e' l -> free_in x e' -> free_in x e).
  { intros e' I Fe. destruct e; cbn in D; try discriminate; injection D as <- <-; (apply free_part with [] e'; [|easy|assumption]).
    - destruct I as [->|[]]. now left.
    - destruct I as [->|[]]. now left.
    - cbn. apply in_map, I.
    - cbn. destruct I as [->|I]; [now left | right; apply in_map, I].
    - destruct I as [->|[]]. now left. }
  destruct N as [N|(e' & I & Fe)].
  - destruct e; cbn in D; try discriminate; injection D as <- <-; cbn in N; try easy.
    + subst. apply free_here. constructor.
    + destruct N; [apply free_part with [] e2 | apply free_part with [] e3]; cbn; auto.
    + apply free_part with [] e2; cbn; auto.
  - apply in_map_iff in I. destruct I as (e2 & [= ->] & I). eauto.
Qed.
Lemma need_pick o a e b x : need o (a ++ b) x -> need o (a ++ STodo e :: b) x.
Proof.
  intros [N|(e' & I & Fx)]; [now left | right]. exists e'. split; [|assumption]. apply in_app_iff in I. apply in_app_iff. cbn. tauto.
Qed.
Lemma need_back o a v b x : need o (a ++ SDone v :: b) x -> need o (a ++ b) x.
Proof.
  intros [N|(e' & I & Fx)]; [now left | right]. exists e'. split; [|assumption]. apply in_app_iff in I. apply in_app_iff.
  cbn in I. destruct I as [I|[I|I]]; [auto | discriminate | auto].
Qed.
Lemma er_impl (F G : id -> Prop) r r' : (forall x, G x -> F x) -> er F r r' -> er G r r'.
Proof. intros H (A & B). split; auto. Qed.

Lemma RL_good n s t : RL n s t -> good P MDirect MDirect RL n s t.
Proof.
  intros X. destruct X as [e e' r r' k k' w w' C A K S|o o' l l' r r' k k' w w' OP A L K S|v v' k k' w w' V K S|v v' w w' V S].
  - apply good_ev. intros s1 E. pose proof (proj2 (step_evf P MDirect _ _ _ _ _) E) as ST.
    assert (NX : forall t, RL 0 s1 t -> inev P MDirect (out w') (next P MDirect RL 0 (Ev e r k w)) t) by (intros t X; apply inev_now; eapply next_one; eauto).
    assert (Sub : forall o l, decomp e = Some (o, l) -> er (need o (map STodo l)) r r').
    { intros o l D. eapply er_impl; [|exact A]. cbn. intros x. now apply need_decomp. }
    destruct C as [x NL|x e e' G C|a b c a' b' c' Ca Cb Cc|ef p l l' C|f f' l l' Cf C|xs b b' NL ND C|l ps b xv t cs GR CU NF XF|ids lams xss ts cs b b' GR CU NE C].
    + cbn [evf] in *. destruct (read_var MDirect r x w) as [v|] eqn:Rv; [|discriminate]. assert (s1 = Ret v k w) by congruence. subst s1.
      assert (RV : exists v', read_var MDirect r' x w' = Some v' /\ VR v v').
      { unfold read_var in *. destruct S as (H & Gl & _). destruct (global_id x) eqn:G; [injection Rv as <-; eauto|].
        destruct (proj2 A x) as (v0 & v0' & E1 & E2 & V); [apply free_here; constructor | assumption|]. rewrite E1 in Rv. rewrite E2.
        destruct V; injection Rv as <-; (eexists; split; [reflexivity|]); econstructor; eauto. }
      destruct RV as (v' & -> & V). eexists. split; [reflexivity|]. apply NX. now constructor.
    + eexists. split; [reflexivity|]. injection E as <-. apply NX. apply rl_args; [now constructor | exact (Sub _ _ eq_refl) | repeat constructor; assumption | assumption | assumption].
    + eexists. split; [reflexivity|]. injection E as <-. apply NX. apply rl_args; [now constructor | exact (Sub _ _ eq_refl) | repeat constructor; assumption | assumption | assumption].
    + eexists. split; [reflexivity|]. injection E as <-. apply NX. apply rl_args; [now constructor | exact (Sub _ _ eq_refl) | now apply slr_todo | assumption | assumption].
    + eexists. split; [reflexivity|]. injection E as <-. apply NX. apply rl_args; [constructor | exact (Sub _ _ eq_refl) | constructor; [assumption | now apply slr_todo] | assumption | assumption].
    + cbn [evf] in *. eexists. split; [reflexivity|]. injection E as <-. apply NX. constructor; auto. destruct A as (A1 & A2). now constructor.
    + (* a procedure *)
      eexists. split; [reflexivity|]. cbn [evf] in E. assert (s1 = Ret (VClo ps b r) k w) by congruence. subst s1. clear E.
      pose proof GR as (NDi & (LI & LX & LT) & GI & GX & GB).
      destruct (curry_vals _ _ _ _ r' w' CU) as (cv & Fc & Lc & Hc). destruct (Hc 0%nat ps b eq_refl) as (xv0 & t0 & ys & [= <-] & [= <-] & N0' & CU0).
      eapply (inev_known _ _ OApp r' k' w' (ELam [l] (EVar l) :: cs) (VClo [l] (EVar l) r' :: cv)); [reflexivity | constructor; [reflexivity | assumption]|].
      destruct (bind_direct [l] cv r' (hp w')) as (r1 & B & C1 & C2); [now rewrite Lc|]. eapply inev_fire; [reflexivity | cbn [firef]; rewrite B; reflexivity|].
      rewrite set_hp_same. specialize (C1 NDi 0%nat l eq_refl). rewrite N0' in C1.
      eapply inev_ev; [reflexivity | apply read_plain; [apply (GI l); now left | exact C1 | exact Logic.I]|]. apply NX. constructor; auto.
      apply (vr_lift l ps b xv t ys r r' GR CU0 NF); [apply A|]. intros x Ix. apply A.
      * now apply XF.
      * apply (GX 0%nat xv eq_refl). assumption.
    + eexists. split; [reflexivity|]. cbn [evf] in E. assert (s1 = Ev b (bind_fix ids lams r) k w) by congruence. subst s1. clear E.
      pose proof GR as (NDi & (LI & LX & LT) & GI & GX & GB).
      destruct (curry_vals _ _ _ _ r' w' CU) as (cv & Fc & Lc & Hc).
      eapply (inev_known _ _ OApp r' k' w' (ELam ids b' :: cs) (VClo ids b' r' :: cv)); [reflexivity | constructor; [reflexivity | assumption]|].
      destruct (bind_direct ids cv r' (hp w')) as (r1 & B & C1 & C2); [congruence|]. specialize (C1 NDi). eapply inev_fire; [reflexivity | cbn [firef]; rewrite B; reflexivity|].
      rewrite set_hp_same. apply NX. constructor; auto. split.
      * eapply labels_bind; [| |exact B|apply A]; [intros x I; apply (GI x I) | congruence].
      * intros x Fx G. destruct (in_dec id_dec x ids) as [J|J].
        -- apply In_nth_error in J. destruct J as (j & Ej). rewrite (fix_get _ _ _ _ _ NDi Ej), (C1 _ _ Ej).
           assert (j < length lams)%nat by (rewrite <- LI; apply nth_error_Some; congruence). destruct (nth_error lams j) as [(ps' & b1)|] eqn:Elj; [|apply nth_error_None in Elj; lia].
           destruct (Hc _ _ _ Elj) as (xv' & t' & ys' & X1 & X2 & X3 & X4). rewrite X3. eexists _, _. split; [reflexivity|split; [reflexivity|]].
           eapply group_fix; eauto; [apply A|]. intros z Iz. apply A; [|apply (GX _ _ X1); assumption]. eapply NE; eauto.
        -- rewrite (fix_miss _ _ _ _ NDi J), (C2 _ J). apply A; [|assumption]. apply free_part with ids b; [now left | assumption | assumption].
  - apply good_args.
    + intros a e' b El. destruct (slr_split _ _ L _ _ _ El) as (a0 & e & b0 & -> & La & Lb & C). apply inev_now. eapply next_one; [constructor|].
      constructor; [assumption| |constructor; auto|assumption].
      * eapply er_impl; [|exact A]. intros x Fx. right. exists e. split; [apply in_elt | assumption].
      * eapply er_impl; [|exact A]. cbn. intros x. apply need_pick.
    + intros vs ->. destruct (slr_done _ _ L) as (vs' & -> & F). exists vs'. split; [reflexivity|]. intros s1 E.
      eapply fire_lift; eauto. constructor. now apply fire_firef.
    + intros a e b ->. exact (slr_todo_l _ _ L _ _ _ eq_refl).
  - destruct K as [|o o' a b a' b' r r' k k' OP La Lb A K].
    + right; left. eexists _, v, v'. split; [constructor|split; [constructor|split; [constructor|split; [now apply VR_shape|split; [apply S|]]]]].
      intros x. apply VR_shape, S.
    + apply good_ret, inev_now. eapply next_one; [constructor|]. constructor; auto.
      * eapply er_impl; [|exact A]. cbn. intros x. apply need_back.
      * apply slr_app; [assumption | now constructor].
  - right; left. eexists _, v, v'. split; [constructor|split; [constructor|split; [constructor|split; [now apply VR_shape|split; [apply S|]]]]].
    intros x. apply VR_shape, S.
Qed.
Lemma RL_out n s t : RL n s t -> out (mem s) = out (mem t).
Proof. destruct 1; cbn; match goal with S : sr _ _ |- _ => apply S end. Qed.
End Code.
