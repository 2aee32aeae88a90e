(** Assignment conversion preserves what programs do. *)
From Coq Require Import ZArith String List Bool Lia.
From Verif Require Import Model_Lit Model_Core Model_Assign Spec_Sem Spec_Free Proofs_Sim Proofs_Core Proofs_Free.
Import ListNotations.
Open Scope Z_scope.

Inductive rep := RBox (b : id) | RDir | RFix.
Notation ctx := (list (id * rep)).
Definition tgt (x : id) (p : rep) : id := match p with RBox b => b | _ => x end.
Definition rep_of (bs : substs) (x : id) : rep := match assq x bs with Some b => RBox b | None => RDir end.
Definition params (bs : substs) (xs : list id) : ctx := map (fun x => (x, rep_of bs x)) xs.
Definition fixes (xs : list id) : ctx := map (fun x => (x, RFix)) xs.
(** binding [ids] hides none of the names that stand for the variables of [G] other than [xs] *)
Definition keeps (G : ctx) (xs ids : list id) : Prop :=
  forall y p, assq y G = Some p -> ~ In y xs -> ~ In (tgt y p) ids.
Definition boxes_ok (G : ctx) (xs : list id) (bs : substs) : Prop :=
  NoDup xs /\ NoDup (map fst bs) /\ NoDup (map snd bs) /\ incl (map fst bs) xs /\
  (forall b, In b (map snd bs) -> ~ In b xs /\ global_id b = false) /\ (forall x, In x xs -> global_id x = false) /\
  keeps G xs (xs ++ map snd bs).

(** the conversion as a relation *)
Inductive AC (G : ctx) : exp -> exp -> Prop :=
| ac_gvar x : global_id x = true -> AC G (EVar x) (EVar x)
| ac_var x : global_id x = false -> (forall b, assq x G <> Some (RBox b)) -> AC G (EVar x) (EVar x)
| ac_boxed x b : global_id x = false -> global_id b = false -> assq x G = Some (RBox b) -> AC G (EVar x) (boxref_exp (EVar b))
| ac_gset x e e' : global_id x = true -> AC G e e' -> AC G (ESet x e) (ESet x e')
| ac_set x b e e' : global_id x = false -> global_id b = false -> assq x G = Some (RBox b) -> AC G e e' ->
    AC G (ESet x e) (boxset_exp (EVar b) e')
| ac_if a b c a' b' c' : AC G a a' -> AC G b b' -> AC G c c' -> AC G (EIf a b c) (EIf a' b' c')
| ac_prim ef p l l' : Forall2 (AC G) l l' -> AC G (EPrim ef p l) (EPrim ef p l')
| ac_app f l f' l' : AC G f f' -> Forall2 (AC G) l l' -> AC G (EApp f l) (EApp f' l')
| ac_null b b' : AC G b b' -> AC G (EApp (ELam [] b) []) b'
| ac_ident x e e' : global_id x = false -> AC G e e' -> AC G (EApp (ELam [x] (EVar x)) [e]) e'
| ac_lam xs b b' : AL G xs b b' -> AC G (ELam xs b) (ELam xs b')
| ac_fix xs lams b lams' b' : keeps G xs xs -> (forall x, In x xs -> global_id x = false) -> Forall2 (AF (fixes xs ++ G)) lams lams' ->
    AC (fixes xs ++ G) b b' -> AC G (EFix xs lams b) (EFix xs lams' b')
| ac_letcc x b b' : boxes_ok G [x] [] -> AC ((x, RDir) :: G) b b' -> AC G (ELetcc x b) (ELetcc x b')
| ac_letcc_box x b b' : AL G [x] b b' -> AC G (ELetcc x b) (ELetcc x b')
| ac_with k e k' e' : AC G k k' -> AC G e e' -> AC G (EWithcc k e) (EWithcc k' e')
with AL (G : ctx) : list id -> exp -> exp -> Prop :=
| al xs b bs b' : boxes_ok G xs bs -> AC (params bs xs ++ G) b b' -> AL G xs b (let_boxes bs b')
with AF (G : ctx) : list id * exp -> list id * exp -> Prop :=
| af xs b b' : AL G xs b b' -> AF G (xs, b) (xs, b').
Inductive OC (G : ctx) : oper -> oper -> Prop :=
| oc_if b c b' c' : AC G b b' -> AC G c c' -> OC G (OIf b c) (OIf b' c')
| oc_gset x : global_id x = true -> OC G (OSet x) (OSet x)
| oc_prim ef p : OC G (OPrim ef p) (OPrim ef p)
| oc_app : OC G OApp OApp
| oc_with e e' : AC G e e' -> OC G (OWith e) (OWith e').

(** ** Worlds: related blocks and cells, and cells that never change *)
Record world := mkw { pairs : nat -> nat -> Prop; frozen : nat -> val -> Prop }.
Definition wext (w w' : world) : Prop := (forall l l', pairs w l l' -> pairs w' l l') /\ (forall l v, frozen w l v -> frozen w' l v).

Inductive VR (W : world) : val -> val -> Prop :=
| VR_c c : VR W (VC c) (VC c)
| VR_loc l l' : pairs W l l' -> VR W (VLoc l) (VLoc l')
| VR_clo G xs b b' r r' : AL G xs b b' -> (forall x, RR W (assq x G) x (lookup r x) r') -> VR W (VClo xs b r) (VClo xs b' r')
| VR_fix G xs ls ls' i r r' : keeps G xs xs -> (forall x, In x xs -> global_id x = false) -> Forall2 (AF (fixes xs ++ G)) ls ls' ->
    (forall x, RR W (assq x G) x (lookup r x) r') -> VR W (VFix xs ls i r) (VFix xs ls' i r')
| VR_cont k k' : KR W k k' -> VR W (VCont k) (VCont k')
with RR (W : world) : option rep -> id -> option val -> env -> Prop :=
| RR_none x r' : RR W None x None r'
| RR_box b x l l' r' : pairs W l l' -> lookup r' b = Some (VLoc l') -> RR W (Some (RBox b)) x (Some (VRef l)) r'
| RR_dir x l v v' r' : frozen W l v -> lookup r' x = Some v' -> VR W v v' -> RR W (Some RDir) x (Some (VRef l)) r'
| RR_fix x v v' r' : lookup r' x = Some v' -> VR W v v' -> RR W (Some RFix) x (Some v) r'
with SL (W : world) : ctx -> list slot -> list slot -> Prop :=
| SL_nil G : SL W G [] []
| SL_done G v v' l l' : VR W v v' -> SL W G l l' -> SL W G (SDone v :: l) (SDone v' :: l')
| SL_todo G e e' l l' : AC G e e' -> SL W G l l' -> SL W G (STodo e :: l) (STodo e' :: l')
with KR (W : world) : kont -> kont -> Prop :=
| KR_nil : KR W [] []
| KR_cons G o o' a a' b b' r r' k k' : OC G o o' -> SL W G a a' -> SL W G b b' -> (forall x, RR W (assq x G) x (lookup r x) r') ->
    KR W k k' -> KR W (Fr o a b r :: k) (Fr o' a' b' r' :: k')
| KR_set x b l l' r r' k k' ef s : global_id x = false -> lookup r x = Some (VRef l) -> pairs W l l' -> lookup r' b = Some (VLoc l') ->
    global_id b = false -> s = STodo (EVar b) \/ s = SDone (VLoc l') -> KR W k k' ->
    KR W (Fr (OSet x) [] [] r :: k) (Fr (OPrim ef the_boxset_prim) [s] [] r' :: k')
| KR_ident x r0 r k k' : global_id x = false -> KR W k k' -> KR W (Fr OApp [SDone (VClo [x] (EVar x) r0)] [] r :: k) k'.
Scheme VR_m := Minimality for VR Sort Prop
  with RR_m := Minimality for RR Sort Prop
  with SL_m := Minimality for SL Sort Prop
  with KR_m := Minimality for KR Sort Prop.
Combined Scheme rel_m from VR_m, RR_m, SL_m, KR_m.
Definition ER (W : world) (G : ctx) (r r' : env) : Prop := forall x, RR W (assq x G) x (lookup r x) r'.

Lemma rel_ext W W' : wext W W' ->
  (forall v v', VR W v v' -> VR W' v v') /\ (forall o x v r', RR W o x v r' -> RR W' o x v r') /\
  (forall G l l', SL W G l l' -> SL W' G l l') /\ (forall k k', KR W k k' -> KR W' k k').
Proof.
  intros (X & Y). apply rel_m; intros; try (econstructor; eauto; fail).
Qed.
Lemma VR_ext W W' v v' : VR W v v' -> wext W W' -> VR W' v v'.
Proof. intros H X. now apply (rel_ext W W' X). Qed.
Lemma ER_ext W W' G r r' : ER W G r r' -> wext W W' -> ER W' G r r'.
Proof. intros H X x. now apply (rel_ext W W' X). Qed.
Lemma KR_ext W W' k k' : KR W k k' -> wext W W' -> KR W' k k'.
Proof. intros H X. now apply (rel_ext W W' X). Qed.
Lemma SL_ext W W' G l l' : SL W G l l' -> wext W W' -> SL W' G l l'.
Proof. intros H X. now apply (rel_ext W W' X). Qed.
Lemma wext_refl W : wext W W.
Proof. split; auto. Qed.
Lemma wext_trans a b c : wext a b -> wext b c -> wext a c.
Proof. intros (A & B) (C & D). split; auto. Qed.

Record SR (W : world) (s t : st) : Prop := {
  sr_pairs : forall l l', pairs W l l' -> exists b b', nth_error (hp s) l = Some b /\ nth_error (hp t) l' = Some b' /\ Forall2 (VR W) b b';
  sr_inj : forall l1 l1' l2 l2', pairs W l1 l1' -> pairs W l2 l2' -> (l1 = l2 <-> l1' = l2');
  sr_frozen : forall l v, frozen W l v -> nth_error (hp s) l = Some [v] /\ forall l', ~ pairs W l l';
  sr_gl : forall x, VR W (gl s x) (gl t x);
  sr_out : out s = out t;
  sr_inp : inp s = inp t }.

Definition knows_boxes (P : prim -> script) : Prop :=
  P the_box_prim = SAlloc [AReg 0] (SRet (AReg 1)) /\
  P the_boxref_prim = SGet (AReg 0) 0 (SRet (AReg 1)) /\
  P the_boxset_prim = SPut (AReg 0) 0 (AReg 1) (SRet (AReg 1)).

Lemma VR_shape W v v' : VR W v v' -> shape_of v = shape_of v'.
Proof. destruct 1; reflexivity. Qed.
Lemma VR_true W v v' : VR W v v' -> is_true v = is_true v'.
Proof. destruct 1; reflexivity. Qed.
Lemma Forall2_nth {A B} (R : A -> B -> Prop) l l' i x : Forall2 R l l' -> nth_error l i = Some x -> exists y, nth_error l' i = Some y /\ R x y.
Proof. intros F. revert i. induction F; intros [|i] E; cbn in *; try discriminate; [injection E as <-; eauto | auto]. Qed.
Lemma Forall2_len {A B} (R : A -> B -> Prop) l l' : Forall2 R l l' -> length l = length l'.
Proof. induction 1; cbn; congruence. Qed.
Lemma Forall2_set {A B} (R : A -> B -> Prop) l l' i x y l1 : Forall2 R l l' -> R x y -> list_set l i x = Some l1 ->
  exists l1', list_set l' i y = Some l1' /\ Forall2 R l1 l1'.
Proof.
  intros F X. revert i l1. induction F as [|a b l l' Y F IH]; intros [|i] l1 E; cbn in *; try discriminate.
  - injection E as <-. eauto.
  - destruct (list_set l i x) eqn:S; [|discriminate]. cbn in E. injection E as <-.
    destruct (IH _ _ S) as (l2 & -> & F2). cbn. eauto.
Qed.
Lemma list_set_nth {A} (l : list A) i x l1 : list_set l i x = Some l1 ->
  nth_error l1 i = Some x /\ (forall j, j <> i -> nth_error l1 j = nth_error l j) /\ length l1 = length l.
Proof.
  revert i l1. induction l as [|y l IH]; intros [|i] l1 E; cbn in *; try discriminate.
  - injection E as <-. split; [reflexivity|split; [|reflexivity]]. intros [|j] N; [easy | reflexivity].
  - destruct (list_set l i x) eqn:S; [|discriminate]. cbn in E. injection E as <-.
    destruct (IH _ _ S) as (A1 & A2 & A3). split; [assumption|split; [|cbn; congruence]]. intros [|j] N; [reflexivity | cbn; apply A2; lia].
Qed.
Lemma list_set_ok {A} (l : list A) i x y : nth_error l i = Some y -> exists l1, list_set l i x = Some l1.
Proof. revert i. induction l as [|z l IH]; intros [|i] E; cbn in *; try discriminate; [eauto|]. destruct (IH _ E) as (l1 & ->). cbn. eauto. Qed.
Lemma nth_lt {A} (l : list A) i x : nth_error l i = Some x -> (i < length l)%nat.
Proof. intros E. apply nth_error_Some. congruence. Qed.
Lemma nth_app {A} (l h : list A) i x : nth_error l i = Some x -> nth_error (l ++ h) i = Some x.
Proof. intros E. rewrite nth_error_app1; [assumption | now apply nth_lt in E]. Qed.

Lemma SR_io W s t o i : SR W s t -> SR W (mkst (hp s) (gl s) o i) (mkst (hp t) (gl t) o i).
Proof. intros [A B C D E F]. constructor; cbn; auto. Qed.
Lemma SR_src_alloc W s t b : SR W s t -> SR W (set_hp s (hp s ++ b)) t.
Proof.
  intros [A B C D E F]. constructor; cbn; auto.
  - intros l l' X. destruct (A _ _ X) as (x & y & N & M & Z). exists x, y. split; [now apply nth_app | auto].
  - intros l v X. destruct (C _ _ X) as (N & M). split; [now apply nth_app | assumption].
Qed.
Lemma SR_put W s t l l' b b' h h' : SR W s t -> pairs W l l' -> Forall2 (VR W) b b' -> list_set (hp s) l b = Some h ->
  list_set (hp t) l' b' = Some h' -> SR W (set_hp s h) (set_hp t h').
Proof.
  intros [A B C D E F] X Fb S1 S2. apply list_set_nth in S1, S2. destruct S1 as (U1 & U2 & _), S2 as (V1 & V2 & _).
  constructor; cbn; auto.
  - intros k k' Y. destruct (Nat.eq_dec k l) as [->|N].
    + assert (k' = l') as -> by (apply (B _ _ _ _ Y X); reflexivity). eauto.
    + destruct (A _ _ Y) as (x & y & N1 & N2 & Z). exists x, y. rewrite U2 by assumption. split; [assumption|].
      rewrite V2; [auto|]. intros ->. apply N, (B _ _ _ _ Y X). reflexivity.
  - intros k v Y. destruct (C _ _ Y) as (N & M). split; [|assumption]. rewrite U2; [assumption|]. intros ->. now apply (M l').
Qed.

Definition add_pair (W : world) (l l' : nat) : world := mkw (fun a b => pairs W a b \/ a = l /\ b = l') (frozen W).
Lemma SR_alloc W s t vs vs' : SR W s t -> Forall2 (VR W) vs vs' ->
  wext W (add_pair W (length (hp s)) (length (hp t))) /\
  SR (add_pair W (length (hp s)) (length (hp t))) (set_hp s (hp s ++ [vs])) (set_hp t (hp t ++ [vs'])).
Proof.
  intros [A B C D E F] Fv. set (W' := add_pair W (length (hp s)) (length (hp t))).
  assert (X : wext W W') by (split; cbn; auto). split; [exact X|].
  assert (Fx : forall l l', Forall2 (VR W) l l' -> Forall2 (VR W') l l') by (induction 1; constructor; eauto using VR_ext).
  constructor; cbn; auto.
  - intros l l' [Y|(-> & ->)].
    + destruct (A _ _ Y) as (x & y & N1 & N2 & Z). exists x, y. split; [now apply nth_app|split; [now apply nth_app | auto]].
    + exists vs, vs'. rewrite !nth_error_app2, !Nat.sub_diag by lia. split; [reflexivity|split; [reflexivity | auto]].
  - intros l1 l1' l2 l2' [Y|(-> & ->)] [Z|(-> & ->)].
    + eauto.
    + destruct (A _ _ Y) as (x & y & N1 & N2 & _). apply nth_lt in N1, N2. lia.
    + destruct (A _ _ Z) as (x & y & N1 & N2 & _). apply nth_lt in N1, N2. lia.
    + tauto.
  - intros l v Y. destruct (C _ _ Y) as (N & M). split; [now apply nth_app|]. intros l' [Z|(-> & _)]; [now apply (M l')|].
    apply nth_lt in N. lia.
  - intros x. eapply VR_ext; eauto.
Qed.

Lemma run_SR W p rs rs' s t v s1 : SR W s t -> Forall2 (VR W) rs rs' -> run p rs s = Some (v, s1) ->
  exists W' v' t1, run p rs' t = Some (v', t1) /\ wext W W' /\ SR W' s1 t1 /\ VR W' v v'.
Proof.
  intros S F E. eapply (run_rel world wext VR SR) with (rs := rs) (s := s) (w := W); eauto.
  - apply wext_refl.
  - apply wext_trans.
  - intros. eapply VR_ext; eauto.
  - intros. constructor.
  - apply VR_shape.
  - intros w s0 t0 v0 v0' u u' b S0 V U. destruct V, U; cbn; intros X; auto. injection X as <-. f_equal.
    destruct (Nat.eqb_spec l l0) as [->|N].
    + destruct (sr_inj _ _ _ S0 _ _ _ _ H H0) as (I & _). rewrite (I eq_refl). apply Nat.eqb_refl.
    + apply Nat.eqb_neq. intros ->. apply N. now apply (sr_inj _ _ _ S0 _ _ _ _ H H0).
  - intros w s0 t0 vs vs' S0 Fv. destruct (SR_alloc _ _ _ _ _ S0 Fv) as (X & Y). eexists. split; [exact X|split; [exact Y|]].
    constructor. cbn. auto.
  - intros w s0 t0 l v0 b i u S0 V N1 N2. inversion V; subst. destruct (sr_pairs _ _ _ S0 _ _ H0) as (x & y & M1 & M2 & Z).
    assert (x = b) by congruence. subst x. destruct (Forall2_nth _ _ _ _ _ Z N2) as (u' & M3 & U). exists l', y, u'. auto.
  - intros w s0 t0 l v0 b i u u' b1 h S0 V U N1 S1 S2. inversion V; subst. destruct (sr_pairs _ _ _ S0 _ _ H0) as (x & y & M1 & M2 & Z).
    assert (x = b) by congruence. subst x. destruct (Forall2_set _ _ _ _ _ _ _ Z U S1) as (b1' & S1' & Fb).
    destruct (list_set_ok _ _ b1' _ M2) as (h' & S2'). exists l', y, b1', h'.
    split; [reflexivity|split; [assumption|split; [assumption|split; [assumption|]]]]. eapply SR_put; eauto.
  - intros w s0 t0 S0. split; apply S0.
  - intros. now apply SR_io.
Qed.

(** ** Binding *)
Lemma lookup_cons y v (r : env) x : lookup ((y, v) :: r) x = if id_eqb x y then Some v else lookup r x.
Proof. reflexivity. Qed.
Lemma assq_app {A} x (a b : list (id * A)) : assq x (a ++ b) = match assq x a with Some v => Some v | None => assq x b end.
Proof. induction a as [|(y & v) a IH]; [reflexivity|]. cbn. destruct (id_eqb x y); auto. Qed.
Lemma assq_None {A} x (a : list (id * A)) : assq x a = None <-> ~ In x (map fst a).
Proof.
  induction a as [|(y & v) a IH]; cbn; [tauto|]. destruct (id_eqb x y) eqn:E.
  - apply id_eqb_eq in E. subst. split; [discriminate | tauto].
  - apply id_eqb_neq in E. rewrite IH. split; [intros N [Z|Z]; congruence | tauto].
Qed.
Lemma assq_In {A} x (a : list (id * A)) v : assq x a = Some v -> In (x, v) a.
Proof.
  induction a as [|(y & u) a IH]; cbn; [discriminate|]. destruct (id_eqb x y) eqn:E.
  - apply id_eqb_eq in E. intros [= ->]. left. congruence.
  - auto.
Qed.
Lemma In_assq {A} x (a : list (id * A)) v : NoDup (map fst a) -> In (x, v) a -> assq x a = Some v.
Proof.
  induction a as [|(y & u) a IH]; cbn; [easy|]. intros N [[= -> ->]|I]; [now rewrite id_eqb_refl|]. inversion N; subst.
  destruct (id_eqb x y) eqn:E; [|auto]. apply id_eqb_eq in E. subst. exfalso. apply H1. apply in_map_iff. now exists (y, v).
Qed.
Lemma bind_cells xs : forall vs r h r1 h1, bind MCells xs vs r h = Some (r1, h1) ->
  length xs = length vs /\ h1 = h ++ map (fun v => [v]) vs /\
  (NoDup xs -> forall i x, nth_error xs i = Some x -> lookup r1 x = Some (VRef (length h + i))) /\
  (forall y, ~ In y xs -> lookup r1 y = lookup r y).
Proof.
  induction xs as [|x xs IH]; intros [|v vs] r h r1 h1 E; cbn in E; try discriminate.
  - injection E as <- <-. cbn. rewrite app_nil_r. split; [reflexivity|split; [reflexivity|split; [|reflexivity]]].
    intros _ [|]; discriminate.
  - destruct (IH _ _ _ _ _ E) as (A & B & C & D). split; [cbn; congruence|split; [|split]].
    + rewrite B, <- app_assoc. reflexivity.
    + intros N i y I. inversion N; subst. destruct i as [|i].
      * injection I as ->. rewrite D by assumption. rewrite lookup_cons, id_eqb_refl. do 2 f_equal. lia.
      * cbn in I. rewrite (C H2 i y I), app_length. cbn. do 2 f_equal. lia.
    + intros y N. rewrite D, lookup_cons; [|firstorder]. destruct (id_eqb y x) eqn:Q; [|reflexivity]. apply id_eqb_eq in Q. subst. firstorder.
Qed.
Lemma bind_direct xs : forall vs r h, length xs = length vs -> exists r1, bind MDirect xs vs r h = Some (r1, h) /\
  (NoDup xs -> forall i x, nth_error xs i = Some x -> lookup r1 x = nth_error vs i) /\
  (forall y, ~ In y xs -> lookup r1 y = lookup r y).
Proof.
  induction xs as [|x xs IH]; intros [|v vs] r h L; cbn in L; try discriminate.
  - exists r. split; [reflexivity|split; [|reflexivity]]. intros _ [|]; discriminate.
  - injection L as L. destruct (IH vs ((x, v) :: r) h L) as (r1 & B & C & D). exists r1. split; [exact B|split].
    + intros N i y I. inversion N; subst. destruct i as [|i].
      * injection I as ->. rewrite D by assumption. rewrite lookup_cons, id_eqb_refl. reflexivity.
      * cbn in I |- *. apply C; assumption.
    + intros y N. rewrite D, lookup_cons; [|firstorder]. destruct (id_eqb y x) eqn:Q; [|reflexivity]. apply id_eqb_eq in Q. subst. firstorder.
Qed.

(** ** Making the boxes of a procedure's parameters *)
Section Run.
Variable P : prim -> script.
Hypothesis PB : knows_boxes P.
Lemma box_ne : the_box_prim <> the_halt_prim. Proof. vm_compute. discriminate. Qed.
Lemma boxref_ne : the_boxref_prim <> the_halt_prim. Proof. vm_compute. discriminate. Qed.
Lemma boxset_ne : the_boxset_prim <> the_halt_prim. Proof. vm_compute. discriminate. Qed.
Lemma fire_prim m ef p vs r k w : p <> the_halt_prim ->
  firef P m (OPrim ef p) vs r k w = match run (P p) vs w with Some (v, w') => Some (Ret v k w') | None => None end.
Proof. intros N. cbn [firef]. destruct (zlist_dec p the_halt_prim); [easy | reflexivity]. Qed.

Lemma inev_var m o0 Q x v r k w : out w = o0 -> read_var m r x w = Some v -> inev P m o0 Q (Ret v k w) -> inev P m o0 Q (Ev (EVar x) r k w).
Proof. intros O R. apply inev_ev; [assumption|]. cbn. now rewrite R. Qed.
(** one operand *)
Lemma inev_pick1 m o0 Q o e r k w : out w = o0 -> inev P m o0 Q (Ev e r (Fr o [] [] r :: k) w) -> inev P m o0 Q (Args o [STodo e] r k w).
Proof.
  intros O. apply inev_det; [assumption | apply (st_pick P m o [] e [])|].
  intros t' S. apply step_args in S. destruct S as [(a & e' & b & E & ->)|(vs & E & _)].
  - destruct a as [|s a]; [now injection E as <- <-|]. injection E as _ E. now apply app_cons_not_nil in E.
  - destruct vs as [|v [|]]; discriminate.
Qed.
Lemma read_direct r x w v : global_id x = false -> lookup r x = Some v -> (forall l, v <> VRef l) -> read_var MDirect r x w = Some v.
Proof. intros G L N. unfold read_var. rewrite G, L. destruct v; congruence. Qed.

Definition grown (w0 w : st) : Prop := out w = out w0 /\ inp w = inp w0 /\ gl w = gl w0 /\ exists h, hp w = hp w0 ++ h.
Lemma grown_refl w : grown w w.
Proof. repeat split. exists []. now rewrite app_nil_r. Qed.
(** the slot of one box: still to be made, or made *)
Definition bslot (w0 : st) (r : env) (h : list (list val)) (s : slot) (xb : id * id) : Prop :=
  exists v, lookup r (fst xb) = Some v /\ global_id (fst xb) = false /\ (forall l, v <> VRef l) /\
  (s = STodo (box_exp (EVar (fst xb))) \/ exists l, s = SDone (VLoc l) /\ nth_error h l = Some [v] /\ (length (hp w0) <= l)%nat).
Definition locs (l : list slot) : list nat := flat_map (fun s => match s with SDone (VLoc l) => [l] | _ => [] end) l.
Lemma locs_app a b : locs (a ++ b) = locs a ++ locs b.
Proof. apply flat_map_app. Qed.
Definition BJ (w0 : st) (r : env) (bs : substs) (b' : exp) (l : list slot) (w : st) : Prop :=
  exists s0 sl, l = s0 :: sl /\ grown w0 w /\
    (s0 = STodo (ELam (map snd bs) b') \/ s0 = SDone (VClo (map snd bs) b' r)) /\
    Forall2 (bslot w0 r (hp w)) sl bs /\ NoDup (locs sl).
Lemma bslot_grow w0 r h h' sl bs : Forall2 (bslot w0 r h) sl bs -> Forall2 (bslot w0 r (h ++ h')) sl bs.
Proof.
  induction 1 as [|s xb sl bs (v & L & G & N & D) F IH]; constructor; [|assumption]. exists v. split; [assumption|split; [assumption|split; [assumption|]]].
  destruct D as [D|(l & D1 & D2 & D3)]; [now left | right]. exists l. split; [assumption|split; [now apply nth_app | assumption]].
Qed.
Lemma locs_bound w0 r h sl bs : Forall2 (bslot w0 r h) sl bs -> forall l, In l (locs sl) -> (l < length h)%nat.
Proof.
  induction 1 as [|s xb sl bs (v & L & G & N & D) F IH]; cbn; [easy|]. intros l I. apply in_app_iff in I. destruct I as [I|I]; [|auto].
  destruct D as [->|(l1 & -> & D2 & D3)]; [easy|]. destruct I as [->|[]]. now apply nth_lt in D2.
Qed.
Lemma run_box v w : run (P the_box_prim) [v] w = Some (VLoc (length (hp w)), set_hp w (hp w ++ [[v]])).
Proof. destruct PB as (E & _). rewrite E. reflexivity. Qed.
Lemma BJ_step w0 r bs b' k1 a e b w : BJ w0 r bs b' (a ++ STodo e :: b) w ->
  inev P MDirect (out w0) (fun t => exists v w', t = Ret v k1 w' /\ BJ w0 r bs b' (a ++ SDone v :: b) w') (Ev e r k1 w).
Proof.
  intros (s0 & sl & E & Gr & S0 & F & ND). assert (O : out w = out w0) by apply Gr. destruct a as [|s1 a].
  - injection E as <- <-. destruct S0 as [S0|S0]; [|discriminate]. injection S0 as ->.
    eapply inev_ev; [assumption | reflexivity|]. apply inev_now. eexists _, w. split; [reflexivity|].
    exists (SDone (VClo (map snd bs) b' r)), b. auto.
  - injection E as <- E.
    assert (X : exists bs1 xb bs2, bs = bs1 ++ xb :: bs2 /\ Forall2 (bslot w0 r (hp w)) a bs1 /\ bslot w0 r (hp w) (STodo e) xb /\ Forall2 (bslot w0 r (hp w)) b bs2).
    { rewrite <- E in F. apply Forall2_app_inv_l in F. destruct F as (bs1 & l2 & Fa & Fb & ->). inversion Fb; subst. eauto 8. }
    destruct X as (bs1 & xb & bs2 & EB & Fa & (v & L & G & N & D) & Fb).
    destruct D as [D|(l & D & _)]; [injection D as -> | discriminate].
    eapply inev_ev; [assumption | reflexivity|]. apply inev_pick1; [assumption|].
    apply inev_var with v; [assumption | now apply read_direct|]. apply inev_ret; [assumption|].
    apply (inev_fire P MDirect _ _ _ [v]) with (t1 := Ret (VLoc (length (hp w))) k1 (set_hp w (hp w ++ [[v]]))); [assumption | |].
    { rewrite fire_prim by apply box_ne. now rewrite run_box. }
    apply inev_now. eexists _, _. split; [reflexivity|]. exists s1, (a ++ SDone (VLoc (length (hp w))) :: b). split; [reflexivity|split; [|split; [assumption|split]]].
    + destruct Gr as (A1 & A2 & A3 & h & A4). split; [assumption|split; [assumption|split; [assumption|]]].
      exists (h ++ [[v]]). cbn. rewrite A4. now rewrite app_assoc.
    + cbn [hp set_hp]. rewrite EB. apply Forall2_app; [now apply bslot_grow|]. constructor; [|now apply bslot_grow].
      exists v. split; [assumption|split; [assumption|split; [assumption|]]]. right. exists (length (hp w)). split; [reflexivity|].
      rewrite nth_error_app2, Nat.sub_diag by lia. split; [reflexivity|]. destruct Gr as (_ & _ & _ & h & ->). rewrite app_length. lia.
    + rewrite <- E in ND. rewrite locs_app in *. cbn in ND |- *. apply NoDup_Add with (a := length (hp w)) (l := locs a ++ locs b); [apply Add_app|].
      split; [exact ND|]. intros I. assert (length (hp w) < length (hp w))%nat; [|lia]. apply in_app_iff in I. destruct I as [I|I]; [exact (locs_bound _ _ _ _ _ Fa _ I) | exact (locs_bound _ _ _ _ _ Fb _ I)].
Qed.

(** all boxes made, and the body about to run *)
Definition boxed (w0 : st) (r : env) (bs : substs) (b' : exp) (k : kont) (t : state) : Prop :=
  exists ls w r2, t = Ev b' r2 k w /\ grown w0 w /\ NoDup ls /\ length ls = length bs /\
    (forall i xb l, nth_error bs i = Some xb -> nth_error ls i = Some l ->
        (length (hp w0) <= l)%nat /\ exists v, lookup r (fst xb) = Some v /\ nth_error (hp w) l = Some [v]) /\
    (NoDup (map snd bs) -> forall i xb l, nth_error bs i = Some xb -> nth_error ls i = Some l -> lookup r2 (snd xb) = Some (VLoc l)) /\
    (forall y, ~ In y (map snd bs) -> lookup r2 y = lookup r y).
Lemma inev_boxes w0 r bs b' k : (forall xb, In xb bs -> exists v, lookup r (fst xb) = Some v /\ global_id (fst xb) = false /\ forall l, v <> VRef l) ->
  inev P MDirect (out w0) (boxed w0 r bs b' k) (Ev (let_boxes bs b') r k w0).
Proof.
  intros H. eapply inev_ev; [reflexivity | reflexivity|]. cbn [map].
  eapply inev_trans; [|apply inev_operands with (J := BJ w0 r bs b')].
  - cbn beta. intros t (vs & w & -> & s0 & sl & E & Gr & S0 & F & ND).
    destruct vs as [|v0 vs]; [discriminate|]. injection E as <- <-. destruct S0 as [S0|S0]; [discriminate|]. injection S0 as ->.
    assert (X : exists ls, vs = map VLoc ls /\ locs (map SDone vs) = ls /\ Forall2 (fun l xb => (length (hp w0) <= l)%nat /\ exists v, lookup r (fst xb) = Some v /\ nth_error (hp w) l = Some [v]) ls bs).
    { clear ND H. revert bs F. induction vs as [|v vs IH]; intros bs F; inversion F as [|s xb sl bs1 X1 F1]; subst.
      - exists []. split; [reflexivity|split; [reflexivity | constructor]].
      - destruct (IH _ F1) as (ls & -> & E2 & F2). destruct X1 as (u & L & G & N & [D|(l & D & D2 & D3)]); [discriminate|]. injection D as ->.
        exists (l :: ls). split; [reflexivity|split; [change (l :: locs (map SDone (map VLoc ls)) = l :: ls); now rewrite E2|]]. constructor; [|assumption]. split; [assumption | eauto]. }
    destruct X as (ls & -> & E & F2). rewrite E in ND.
    destruct (bind_direct (map snd bs) (map VLoc ls) r (hp w)) as (r2 & B & C & D).
    { rewrite !map_length. symmetry. apply (Forall2_len _ _ _ F2). }
    eapply (inev_fire P MDirect _ _ _ (VClo (map snd bs) b' r :: map VLoc ls)); [apply Gr | cbn [firef]; rewrite B; reflexivity|].
    apply inev_now. exists ls, (set_hp w (hp w)), r2. split; [reflexivity|split; [exact Gr|split; [assumption|split; [apply (Forall2_len _ _ _ F2)|split; [|split]]]]].
    + intros i xb l Bi Li. destruct (Forall2_nth _ _ _ _ _ F2 Li) as (xb' & Bi' & Y). assert (xb' = xb) by congruence. subst. exact Y.
    + intros N i xb l Bi Li. rewrite (C N i (snd xb)).
      * rewrite nth_error_map, Li. reflexivity.
      * rewrite nth_error_map, Bi. reflexivity.
    + exact D.
  - intros. now apply BJ_step.
  - intros l w (? & ? & _ & Gr & _). apply Gr.
  - exists (STodo (ELam (map snd bs) b')), (map STodo (map (fun xb => box_exp (EVar (fst xb))) bs)).
    split; [reflexivity|split; [apply grown_refl|split; [now left|split]]].
    + clear -H. induction bs as [|xb bs IH]; cbn; constructor.
      * destruct (H xb (or_introl eq_refl)) as (v & L & G & N). exists v. auto.
      * apply IH. intros. apply H. now right.
    + clear. assert (E : locs (map STodo (map (fun xb => box_exp (EVar (fst xb))) bs)) = []) by (induction bs; auto). rewrite E. constructor.
Qed.

Lemma VR_not_ref W v v' : VR W v v' -> forall l, v' <> VRef l.
Proof. destruct 1; discriminate. Qed.
Lemma RR_env W p x v r' r2 : RR W p x v r' -> (forall q, p = Some q -> lookup r2 (tgt x q) = lookup r' (tgt x q)) -> RR W p x v r2.
Proof.
  intros R H. destruct R.
  - constructor.
  - econstructor; [eassumption|]. pose proof (H _ eq_refl) as Q; cbn in Q; congruence.
  - econstructor; [eassumption | | eassumption]. pose proof (H _ eq_refl) as Q; cbn in Q; congruence.
  - econstructor; [|eassumption]. pose proof (H _ eq_refl) as Q; cbn in Q; congruence.
Qed.
Lemma assq_params bs xs x : assq x (params bs xs) = if memq x xs then Some (rep_of bs x) else None.
Proof.
  induction xs as [|y xs IH]; [reflexivity|]. unfold params in *. cbn. destruct (id_eqb x y) eqn:E; cbn.
  - apply id_eqb_eq in E. now subst.
  - exact IH.
Qed.
Lemma assq_fixes xs x : assq x (fixes xs) = if memq x xs then Some RFix else None.
Proof. induction xs as [|y xs IH]; [reflexivity|]. unfold fixes in *. cbn. destruct (id_eqb x y) eqn:E; cbn; auto. Qed.
Lemma In_nth {A} (x : A) l : In x l -> exists i, nth_error l i = Some x.
Proof. apply In_nth_error. Qed.

Lemma enter_core W G xs bs r0 r0' r1' w w' vs vs' r1 h1 ls w2 r2 :
  boxes_ok G xs bs -> ER W G r0 r0' -> SR W w w' -> Forall2 (VR W) vs vs' -> bind MCells xs vs r0 (hp w) = Some (r1, h1) ->
  (forall i x, nth_error xs i = Some x -> lookup r1' x = nth_error vs' i) -> (forall y, ~ In y xs -> lookup r1' y = lookup r0' y) ->
  grown w' w2 -> NoDup ls -> length ls = length bs ->
  (forall i xb l, nth_error bs i = Some xb -> nth_error ls i = Some l ->
        (length (hp w') <= l)%nat /\ exists v, lookup r1' (fst xb) = Some v /\ nth_error (hp w2) l = Some [v]) ->
  (forall i xb l, nth_error bs i = Some xb -> nth_error ls i = Some l -> lookup r2 (snd xb) = Some (VLoc l)) ->
  (forall y, ~ In y (map snd bs) -> lookup r2 y = lookup r1' y) ->
  exists W2, wext W W2 /\ ER W2 (params bs xs ++ G) r1 r2 /\ SR W2 (set_hp w h1) w2.
Proof.
  intros (NX & NF & NB & IN & BX & GX & KP) E S FV B D1 D2 Gr NL LL H1 H2 H3.
  destruct (bind_cells _ _ _ _ _ _ B) as (LX & Eh & C1 & C2). specialize (C1 NX).
  set (W2 := mkw (fun l l' => pairs W l l' \/ exists i j x b, nth_error xs i = Some x /\ l = (length (hp w) + i)%nat /\ nth_error bs j = Some (x, b) /\ nth_error ls j = Some l')
                 (fun l v => frozen W l v \/ exists i x, nth_error xs i = Some x /\ l = (length (hp w) + i)%nat /\ nth_error vs i = Some v /\ ~ In x (map fst bs))).
  assert (X : wext W W2) by (split; cbn; auto). exists W2. split; [exact X|].
  assert (VS : forall i x, nth_error xs i = Some x -> exists v v', nth_error vs i = Some v /\ nth_error vs' i = Some v' /\ VR W v v').
  { intros i x N. assert (L : (i < length vs)%nat) by (apply nth_lt in N; lia). destruct (nth_error vs i) as [v|] eqn:Nv; [|apply nth_error_None in Nv; lia].
    destruct (Forall2_nth _ _ _ _ _ FV Nv) as (v' & N' & V). eauto. }
  split.
  - intros x. rewrite assq_app, assq_params. destruct (memq x xs) eqn:M.
    + apply memq_In, In_nth in M. destruct M as (i & Ni). rewrite (C1 _ _ Ni). unfold rep_of. destruct (assq x bs) as [b|] eqn:Q.
      * apply assq_In, In_nth in Q. destruct Q as (j & Nj). destruct (nth_error ls j) as [l'|] eqn:Nl.
        -- apply RR_box with l'; [cbn; right; eauto 9 | exact (H2 _ _ _ Nj Nl)].
        -- apply nth_error_None in Nl. apply nth_lt in Nj. lia.
      * destruct (VS _ _ Ni) as (v & v' & Nv & Nv' & V). apply RR_dir with v v'.
        -- cbn. right. exists i, x. split; [assumption|split; [reflexivity|split; [assumption | now apply assq_None]]].
        -- rewrite H3; [now rewrite (D1 _ _ Ni)|]. intros I. apply BX in I. destruct I as (I & _). apply I. eapply nth_error_In; eauto.
        -- eapply VR_ext; eauto.
    + apply memq_not_In in M. rewrite (C2 _ M). eapply RR_env; [apply (ER_ext _ _ _ _ _ E X)|].
      intros q Q. specialize (KP _ _ Q M). rewrite in_app_iff in KP. rewrite H3 by tauto. apply D2. tauto.
  - destruct Gr as (G1 & G2 & G3 & h & G4). destruct S as [A I C D O IP].
    assert (Fx : forall l l', Forall2 (VR W) l l' -> Forall2 (VR W2) l l') by (induction 1; constructor; eauto using VR_ext).
    assert (old : forall l l', pairs W l l' -> (l < length (hp w))%nat /\ (l' < length (hp w'))%nat).
    { intros l l' Y. destruct (A _ _ Y) as (x & y & N1 & N2 & _). apply nth_lt in N1, N2. auto. }
    assert (newh : forall i v, nth_error vs i = Some v -> nth_error h1 (length (hp w) + i) = Some [v]).
    { intros i v N. rewrite Eh, nth_error_app2 by lia. replace (length (hp w) + i - length (hp w))%nat with i by lia. now rewrite nth_error_map, N. }
    constructor; cbn.
    + intros l l' [Y|(i & j & x & b & N1 & -> & N2 & N3)].
      * destruct (A _ _ Y) as (u & u' & M1 & M2 & Z). exists u, u'. rewrite Eh, G4. split; [now apply nth_app|split; [now apply nth_app | auto]].
      * destruct (H1 _ _ _ N2 N3) as (_ & v' & L & N4). cbn in L. destruct (VS _ _ N1) as (v & v2 & Nv & Nv' & V).
        rewrite (D1 _ _ N1), Nv' in L. injection L as <-. exists [v], [v2]. split; [auto|split; [assumption|]]. constructor; [eapply VR_ext; eauto | constructor].
    + intros l1 l1' l2 l2' [Y|(i & j & x & b & N1 & -> & N2 & N3)] [Z|(i2 & j2 & x2 & b2 & M1 & -> & M2 & M3)].
      * eauto.
      * apply old in Y. destruct (H1 _ _ _ M2 M3) as (L & _). lia.
      * apply old in Z. destruct (H1 _ _ _ N2 N3) as (L & _). lia.
      * split; intros Q.
        -- assert (i = i2) by lia. subst i2. assert (x = x2) by congruence. subst x2.
           assert (j = j2); [|congruence]. eapply NoDup_nth_error; [exact NF | rewrite map_length; apply nth_lt in N2; assumption|].
           rewrite !nth_error_map, N2, M2. reflexivity.
        -- subst l2'. assert (j = j2). { eapply NoDup_nth_error; [exact NL | apply nth_lt in N3; assumption | congruence]. }
           subst j2. assert (x = x2) by congruence. subst x2. f_equal. eapply NoDup_nth_error; [exact NX | apply nth_lt in N1; assumption | congruence].
    + intros l v [Y|(i & x & N1 & -> & N2 & N3)].
      * destruct (C _ _ Y) as (N & M). split; [rewrite Eh; now apply nth_app|]. intros l' [Z|(i & j & x & b & N1 & -> & _)]; [now apply (M l')|].
        apply nth_lt in N. lia.
      * split; [auto|]. intros l' [Z|(i2 & j2 & x2 & b2 & M1 & Q & M2 & M3)]; [apply old in Z; lia|].
        assert (i = i2) by lia. subst i2. assert (x = x2) by congruence. subst x2. apply N3. apply in_map_iff. exists (x, b2). split; [reflexivity | eapply nth_error_In; eauto].
    + intros x. rewrite G3. eapply VR_ext; eauto.
    + congruence.
    + congruence.
Qed.
Lemma enter W G xs b b1 r0 r0' w w' vs vs' r1 h1 k' :
  AL G xs b b1 -> ER W G r0 r0' -> SR W w w' -> Forall2 (VR W) vs vs' -> bind MCells xs vs r0 (hp w) = Some (r1, h1) ->
  exists r1', bind MDirect xs vs' r0' (hp w') = Some (r1', hp w') /\
    inev P MDirect (out w') (fun t => exists W2 G2 b' r2' w2', wext W W2 /\ t = Ev b' r2' k' w2' /\ AC G2 b b' /\ ER W2 G2 r1 r2' /\ SR W2 (set_hp w h1) w2')
      (Ev b1 r1' k' (set_hp w' (hp w'))).
Proof.
  intros A E S FV B. destruct A as [xs b bs b' OK A]. destruct (bind_cells _ _ _ _ _ _ B) as (LX & _ & _ & _).
  destruct (bind_direct xs vs' r0' (hp w')) as (r1' & B' & D1 & D2). { rewrite LX. apply (Forall2_len _ _ _ FV). }
  exists r1'. split; [exact B'|]. pose proof OK as (NX & NF & NB & IN & BX & GX & KP). specialize (D1 NX).
  eapply inev_impl; [|apply (inev_boxes (set_hp w' (hp w')) r1' bs b' k')].
  - intros t (ls & w2 & r2 & -> & Gr & NL & LL & H1 & H2 & H3). specialize (H2 NB).
    destruct (enter_core W G xs bs r0 r0' r1' w w' vs vs' r1 h1 ls w2 r2) as (W2 & X & E2 & S2); auto.
    exists W2, (params bs xs ++ G), b', r2, w2. auto.
  - intros (x & bx) I. assert (Ix : In x xs) by (apply IN; apply in_map_iff; now exists (x, bx)). cbn.
    pose proof Ix as Ix2. apply In_nth in Ix2. destruct Ix2 as (i & Ni). rewrite (D1 _ _ Ni).
    destruct (nth_error vs' i) as [v'|] eqn:Nv; [|apply nth_error_None in Nv; apply nth_lt in Ni; rewrite LX, (Forall2_len _ _ _ FV) in Ni; lia].
    exists v'. split; [reflexivity|split; [auto|]].
    destruct (nth_error vs i) as [v|] eqn:Nv0; [|apply nth_error_None in Nv0; apply nth_lt in Nv; rewrite (Forall2_len _ _ _ FV) in Nv0; lia].
    destruct (Forall2_nth _ _ _ _ _ FV Nv0) as (v2 & Nv2 & V). assert (v2 = v') by congruence. subst. eapply VR_not_ref; eauto.
Qed.
(** a continuation bound without a box *)
Lemma enter_plain W G xs r0 r0' w w' vs vs' r1 h1 :
  boxes_ok G xs [] -> ER W G r0 r0' -> SR W w w' -> Forall2 (VR W) vs vs' -> bind MCells xs vs r0 (hp w) = Some (r1, h1) ->
  exists r1' W2, bind MDirect xs vs' r0' (hp w') = Some (r1', hp w') /\ wext W W2 /\ ER W2 (params [] xs ++ G) r1 r1' /\ SR W2 (set_hp w h1) (set_hp w' (hp w')).
Proof.
  intros OK E S FV B. destruct (bind_cells _ _ _ _ _ _ B) as (LX & _ & _ & _).
  destruct (bind_direct xs vs' r0' (hp w')) as (r1' & B' & D1 & D2). { rewrite LX. apply (Forall2_len _ _ _ FV). }
  destruct (enter_core W G xs [] r0 r0' r1' w w' vs vs' r1 h1 [] (set_hp w' (hp w')) r1') as (W2 & X & E2 & S2); auto.
  - apply D1, OK.
  - repeat split. exists []. cbn. now rewrite app_nil_r.
  - constructor.
  - intros [|]; discriminate.
  - intros [|]; discriminate.
  - exists r1', W2. auto.
Qed.
Lemma enter_fix W G xs ls ls' r r' : keeps G xs xs -> (forall x, In x xs -> global_id x = false) -> Forall2 (AF (fixes xs ++ G)) ls ls' -> ER W G r r' ->
  ER W (fixes xs ++ G) (bind_fix xs ls r) (bind_fix xs ls' r').
Proof.
  intros K GX F E x. rewrite assq_app, assq_fixes. unfold bind_fix.
  assert (Gen : forall ys i, 
     (In x ys -> exists j, lookup (bind_fix_from i ys xs ls r) x = Some (VFix xs ls j r) /\ lookup (bind_fix_from i ys xs ls' r') x = Some (VFix xs ls' j r')) /\
     (forall y, ~ In y ys -> lookup (bind_fix_from i ys xs ls r) y = lookup r y /\ lookup (bind_fix_from i ys xs ls' r') y = lookup r' y)).
  { induction ys as [|y ys IH]; intros i; cbn [bind_fix_from In]; [split; [easy | auto]|]. destruct (IH (S i)) as (A & B). split.
    - rewrite !lookup_cons. destruct (id_eqb x y) eqn:Q; [eauto|]. apply id_eqb_neq in Q. intros [->|I]; [easy | auto].
    - intros z N. rewrite !lookup_cons. destruct (id_eqb z y) eqn:Q; [apply id_eqb_eq in Q; subst; tauto|]. apply B. tauto. }
  destruct (Gen xs O) as (A & B). destruct (memq x xs) eqn:M.
  - apply memq_In in M. destruct (A M) as (j & -> & L). eapply RR_fix; [exact L|]. econstructor; eauto.
  - apply memq_not_In in M. destruct (B x M) as (-> & L). eapply RR_env; [apply E|]. intros q Q. apply B. now apply K.
Qed.

(** ** Related states *)
Inductive RS : nat -> state -> state -> Prop :=
| rs_ev W G e e' r r' k k' w w' : AC G e e' -> ER W G r r' -> KR W k k' -> SR W w w' -> RS 0 (Ev e r k w) (Ev e' r' k' w')
| rs_args W G o o' l l' r r' k k' w w' : OC G o o' -> SL W G l l' -> ER W G r r' -> KR W k k' -> SR W w w' -> RS 0 (Args o l r k w) (Args o' l' r' k' w')
| rs_set W G x b l l' r r' k k' w w' ef s s1 s1' : global_id x = false -> lookup r x = Some (VRef l) -> pairs W l l' -> lookup r' b = Some (VLoc l') ->
    global_id b = false -> s = STodo (EVar b) \/ s = SDone (VLoc l') -> SL W G [s1] [s1'] -> (forall e, s1 = STodo e -> ER W G r r') -> KR W k k' -> SR W w w' ->
    RS (todos [s]) (Args (OSet x) [s1] r k w) (Args (OPrim ef the_boxset_prim) [s; s1'] r' k' w')
| rs_ret W v v' k k' w w' : VR W v v' -> KR W k k' -> SR W w w' -> RS 0 (Ret v k w) (Ret v' k' w')
| rs_halt W v v' w w' : VR W v v' -> SR W w w' -> RS 0 (Halted v w) (Halted v' w').
Lemma RS_out n s t : RS n s t -> out (mem s) = out (mem t).
Proof. destruct 1; cbn; match goal with S : SR _ _ _ |- _ => apply S end. Qed.

Lemma SL_split W G l l' : SL W G l l' -> forall a e' b, l' = a ++ STodo e' :: b ->
  exists a0 e b0, l = a0 ++ STodo e :: b0 /\ SL W G a0 a /\ SL W G b0 b /\ AC G e e'.
Proof.
  induction 1 as [G|G v v' l l' V S IH|G e0 e0' l l' A S IH]; intros a e' b E.
  - now destruct a.
  - destruct a as [|x a]; [discriminate|]. injection E as <- E. destruct (IH _ _ _ E) as (a0 & e & b0 & -> & A0 & B0 & C0).
    exists (SDone v :: a0), e, b0. split; [reflexivity | split; [now constructor | auto]].
  - destruct a as [|x a].
    + injection E as -> <-. exists [], e0, l. split; [reflexivity | split; [constructor | auto]].
    + injection E as <- E. destruct (IH _ _ _ E) as (a0 & e & b0 & -> & A0 & B0 & C0).
      exists (STodo e0 :: a0), e, b0. split; [reflexivity | split; [now constructor | auto]].
Qed.
Lemma SL_done_l W G vs : forall l', SL W G (map SDone vs) l' -> exists vs', l' = map SDone vs' /\ Forall2 (VR W) vs vs'.
Proof.
  induction vs as [|v vs IH]; intros l' S; inversion S; subst.
  - exists []. split; [reflexivity | constructor].
  - destruct (IH _ H4) as (vs' & -> & F). exists (v' :: vs'). split; [reflexivity | now constructor].
Qed.
Lemma SL_todo_l W G l l' : SL W G l l' -> forall a e b, l = a ++ STodo e :: b -> exists a0 e' b0, l' = a0 ++ STodo e' :: b0.
Proof.
  induction 1 as [G|G v v' l l' V S IH|G e0 e0' l l' A S IH]; intros a e b E.
  - now destruct a.
  - destruct a as [|x a]; [discriminate|]. injection E as <- E. destruct (IH _ _ _ E) as (a0 & e1 & b0 & ->). now exists (SDone v' :: a0), e1, b0.
  - destruct a as [|x a].
    + injection E as -> <-. now exists [], e0', l'.
    + injection E as <- E. destruct (IH _ _ _ E) as (a0 & e1 & b0 & ->). now exists (STodo e0' :: a0), e1, b0.
Qed.
Lemma SL_app W G a a' b b' : SL W G a a' -> SL W G b b' -> SL W G (a ++ b) (a' ++ b').
Proof. induction 1; cbn; intros; [assumption | constructor; auto ..]. Qed.
Lemma SL_todos W G l l' : Forall2 (AC G) l l' -> SL W G (map STodo l) (map STodo l').
Proof. induction 1; cbn; constructor; assumption. Qed.

Lemma SL_dones W G vs vs' : Forall2 (VR W) vs vs' -> SL W G (map SDone vs) (map SDone vs').
Proof. induction 1; cbn; constructor; auto. Qed.
Lemma KR_recv W v v' : VR W v v' -> KR W (recv v) (recv v').
Proof. intros V. unfold recv. apply KR_cons with []; [repeat constructor | repeat constructor; assumption | constructor | intros x; constructor | constructor]. Qed.
Lemma KR_kont_of W v v' : VR W v v' -> KR W (kont_of v) (kont_of v').
Proof. intros V. destruct V; try (apply KR_recv; econstructor; eassumption). assumption. Qed.
Lemma KR_recv_inv W e p r0 k' : KR W [Fr (OWith e) [SDone p] [] r0] k' -> exists e' p' r0', k' = [Fr (OWith e') [SDone p'] [] r0'] /\ VR W p p'.
Proof.
  intros K. inversion K as [|G o o' a a' b b' r r' k1 k1' O A B E K0| |]; subst. inversion O; subst. inversion K0; subst. inversion B; subst.
  inversion A as [|? ? ? ? ? Vp A0|]; subst. inversion A0; subst. eauto.
Qed.
Lemma KR_capturable W k k' : KR W k k' -> capturable k = true -> capturable k' = true.
Proof.
  induction 1 as [|G o o' a a' b b' r r' k k' O A B E K IH|x b l l' r r' k k' ef s GX Lx Pr Lb GB D K IH|x r0 r k k' GX K IH]; intros C.
  - reflexivity.
  - destruct O as [| | | |e e' X]; try (cbn [capturable] in *; auto; fail).
    inversion A as [|? v v' l l' V A0|]; subst; cbn [capturable] in *; auto.
    inversion A0; subst; auto. destruct V; auto.
  - cbn [capturable] in *. auto.
  - cbn [capturable] in C. auto.
Qed.
Lemma fire_SR W G o o' vs vs' r r' k k' w w' s1 : OC G o o' -> Forall2 (VR W) vs vs' -> ER W G r r' -> KR W k k' -> SR W w w' ->
  firef P MCells o vs r k w = Some s1 -> exists t1, firef P MDirect o' vs' r' k' w' = Some t1 /\ inev P MDirect (out w') (fun t => exists n, RS n s1 t) t1.
Proof.
  intros O F E K S Fi. destruct O as [b c b' c' Ab Ac|x G1|ef p| |e e' A]; cbn [firef] in Fi |- *.
  - destruct F as [|v v' vs vs' V [|]]; try discriminate. injection Fi as <-. eexists. split; [reflexivity|]. apply inev_now. exists 0%nat.
    rewrite <- (VR_true _ _ _ V). apply rs_ev with W G; auto. destruct (is_true v); assumption.
  - rewrite G1 in Fi |- *. destruct F as [|v v' vs vs' V [|]]; try discriminate. injection Fi as <-. eexists. split; [reflexivity|]. apply inev_now. exists 0%nat.
    apply rs_ret with W; [constructor | assumption|]. destruct S as [S1 S2 S3 S4 S5 S6]. constructor; cbn; auto. intros y. destruct (id_eqb y x); auto.
  - destruct (zlist_dec p the_halt_prim) as [->|N].
    + destruct F as [|v v' vs vs' V [|]]; try discriminate. injection Fi as <-. eexists. split; [reflexivity|]. apply inev_now. exists 0%nat. now apply rs_halt with W.
    + destruct (run (P p) vs w) as [(v & w1)|] eqn:R; [|discriminate]. injection Fi as <-.
      destruct (run_SR _ _ _ _ _ _ _ _ S F R) as (W' & v' & t1 & -> & X & S1 & V). eexists. split; [reflexivity|]. apply inev_now. exists 0%nat.
      apply rs_ret with W'; auto. eapply KR_ext; eauto.
  - destruct F as [|v v' vs vs' V F]; [discriminate|]. destruct V as [c|l l' Q|G0 xs b b' r0 r0' A0 E0|G0 xs ls ls' i r0 r0' K0 GX AF0 E0|k1 k1' K1]; try discriminate.
    + destruct (bind MCells xs vs r0 (hp w)) as [(r1 & h1)|] eqn:B; [|discriminate]. injection Fi as <-.
      destruct (enter W G0 xs b b' r0 r0' w w' vs vs' r1 h1 k' A0 E0 S F B) as (r1' & -> & I).
      eexists. split; [reflexivity|]. eapply inev_impl; [|exact I]. intros t (W2 & G2 & b2 & r2' & w2' & X & -> & A2 & E2 & S2).
      exists 0%nat. apply rs_ev with W2 G2; auto. eapply KR_ext; eauto.
    + destruct (nth_error ls i) as [(xs' & b)|] eqn:N; [|discriminate].
      destruct (bind MCells xs' vs (bind_fix xs ls r0) (hp w)) as [(r1 & h1)|] eqn:B; [|discriminate]. injection Fi as <-.
      destruct (Forall2_nth _ _ _ _ _ AF0 N) as (lam' & N' & A1). inversion A1 as [xs2 b2 b1 A2]; subst. rewrite N'.
      pose proof (enter_fix W G0 xs ls ls' r0 r0' K0 GX AF0 E0) as E1.
      destruct (enter W _ xs' b b1 _ _ w w' vs vs' r1 h1 k' A2 E1 S F B) as (r1' & -> & I).
      eexists. split; [reflexivity|]. eapply inev_impl; [|exact I]. intros t (W2 & G2 & b2 & r2' & w2' & X & -> & A3 & E2 & S2).
      exists 0%nat. apply rs_ev with W2 G2; auto. eapply KR_ext; eauto.
    + apply throwf_inv in Fi. destruct Fi as [(u & -> & ->)|(e & p & r0 & N & -> & ->)].
      * inversion F as [|? u' ? ? U F0]; subst. inversion F0; subst. eexists. split; [reflexivity|]. apply inev_now. exists 0%nat. now apply rs_ret with W.
      * destruct (KR_recv_inv _ _ _ _ _ K1) as (e' & p' & r0' & -> & Vp).
        exists (Args OApp (map SDone (p' :: vs')) [] trap w'). split.
        -- apply Forall2_len in F. destruct vs' as [|? [|]]; cbn in F; [reflexivity | congruence | reflexivity].
        -- apply inev_now. exists 0%nat. apply rs_args with W []; [constructor | apply SL_dones; now constructor | intros x; constructor | apply KR_recv; constructor | assumption].
  - destruct F as [|v v' vs vs' V F]; try discriminate. destruct F as [|u u' vs vs' U [|]]; try discriminate.
    + injection Fi as <-. eexists. split; [reflexivity|]. apply inev_now. exists 0%nat. apply rs_ev with W G; [assumption | assumption | now apply KR_kont_of | assumption].
    + injection Fi as <-. eexists. split; [reflexivity|]. apply inev_now. exists 0%nat.
      apply rs_args with W []; [constructor | apply (SL_dones W [] [v; u] [v'; u']); auto | intros x; constructor | apply KR_recv; constructor | assumption].
Qed.
Notation good := (good P MCells MDirect RS).
Lemma next_of n s s1 t1 o0 : step P MCells s s1 -> inev P MDirect o0 (fun t => exists n, RS n s1 t) t1 -> inev P MDirect o0 (next P MCells RS n s) t1.
Proof. intros S. apply inev_impl. intros t (n' & X). eapply next_one; eauto. Qed.
Lemma run_boxref l' v w : nth_error (hp w) l' = Some [v] -> run (P the_boxref_prim) [VLoc l'] w = Some (v, w).
Proof. intros N. destruct PB as (_ & E & _). rewrite E. cbn. now rewrite N. Qed.
Lemma run_boxset l' v u w h : nth_error (hp w) l' = Some [u] -> list_set (hp w) l' [v] = Some h -> run (P the_boxset_prim) [VLoc l'; v] w = Some (v, set_hp w h).
Proof. intros N L. destruct PB as (_ & _ & E). rewrite E. cbn. rewrite N. cbn. now rewrite L. Qed.
Lemma set_hp_same w : set_hp w (hp w) = w.
Proof. now destruct w. Qed.

Lemma RR_box_inv W b x ov r' : RR W (Some (RBox b)) x ov r' -> exists l l', ov = Some (VRef l) /\ pairs W l l' /\ lookup r' b = Some (VLoc l').
Proof. inversion 1; eauto. Qed.
Lemma RR_dir_inv W x ov r' : RR W (Some RDir) x ov r' -> exists l v v', ov = Some (VRef l) /\ frozen W l v /\ lookup r' x = Some v' /\ VR W v v'.
Proof. inversion 1; eauto 8. Qed.
Lemma RR_fix_inv W x ov r' : RR W (Some RFix) x ov r' -> exists v v', ov = Some v /\ lookup r' x = Some v' /\ VR W v v'.
Proof. inversion 1; eauto 8. Qed.
Lemma RR_none_inv W x ov r' : RR W None x ov r' -> ov = None.
Proof. inversion 1; eauto 8. Qed.
Lemma ev_good G e e' (A : AC G e e') : forall W r r' k k' w w', ER W G r r' -> KR W k k' -> SR W w w' -> good 0 (Ev e r k w) (Ev e' r' k' w').
Proof.
  induction A as [G x GX|G x GX NB|G x b GX GB Q|G x e e' GX A IH|G x b e e' GX GB Q A IH|G a b c a' b' c' Aa _ Ab _ Ac _|G ef p l l' Al|
                  G f l f' l' Af _ Al|G b b' A IH|G x e e' GX A IH|G xs b b' A|G xs lams b lams' b' KP GX AF0 Ab _|G x b b' OK A _|G x b b' A|
                  G k0 e k0' e' Ak _ Ae _];
    intros W r r' k k' w w' E K S.
  - apply good_ev. intros s1 F. cbn in F |- *. unfold read_var in *. rewrite GX in *. injection F as <-. eexists. split; [reflexivity|].
    apply inev_now. eapply next_one; [apply step_evf; cbn; unfold read_var; now rewrite GX|]. apply rs_ret with W; auto. apply S.
  - apply good_ev. intros s1 F. cbn in F |- *. unfold read_var in *. rewrite GX in *. specialize (E x). destruct (assq x G) as [[b| |]|] eqn:Q.
    + now apply NB in Q || (exfalso; eapply NB; reflexivity).
    + destruct (RR_dir_inv _ _ _ _ E) as (l & v & v' & H2 & Fr & L & V). rewrite H2 in F. destruct (sr_frozen _ _ _ S _ _ Fr) as (N & _). rewrite N in F.
      injection F as <-. rewrite L. exists (Ret v' k' w'). split; [destruct V; reflexivity|].
      apply inev_now. eapply next_one; [apply step_evf; cbn; unfold read_var; rewrite GX, H2, N; reflexivity|]. now apply rs_ret with W.
    + destruct (RR_fix_inv _ _ _ _ E) as (v & v' & H2 & L & V). rewrite H2 in F.
      assert (F' : s1 = Ret v k w) by (destruct V; cbn in F; congruence). subst s1.
      rewrite L. exists (Ret v' k' w'). split; [destruct V; reflexivity|].
      apply inev_now. eapply next_one; [apply step_evf; cbn; unfold read_var; rewrite GX, H2; destruct V; reflexivity|]. now apply rs_ret with W.
    + rewrite (RR_none_inv _ _ _ _ E) in F. discriminate.
  - right; right. split; [eexists; apply step_evf; reflexivity|]. intros t' St. apply step_evf in St. cbn [evf decomp boxref_exp] in St. injection St as <-.
    specialize (E x). rewrite Q in E. destruct (RR_box_inv _ _ _ _ _ E) as (l & l' & H2 & Pr & L).
    destruct (sr_pairs _ _ _ S _ _ Pr) as (u & u' & N1 & N2 & FU). pose proof (sr_out _ _ _ S) as O.
    assert (D : (exists v v', u = [v] /\ u' = [v'] /\ VR W v v') \/ wrong P MCells (Ev (EVar x) r k w)).
    { destruct FU as [|v v' u u' V [|v2 v2' u2 u2' V2 FU]]; [right | left; eauto 8 | right]; apply stuck_ev; cbn; unfold read_var; rewrite GX, H2, N1; reflexivity. }
    destruct D as [(v & v' & -> & -> & V)|D]; [|apply inev_now; now left].
    cbn [map]. apply inev_pick1; [reflexivity|]. apply inev_var with (VLoc l'); [reflexivity | apply read_direct; [assumption | assumption | discriminate]|].
    apply inev_ret; [reflexivity|]. eapply (inev_fire P MDirect _ _ _ [VLoc l']); [reflexivity | rewrite fire_prim by apply boxref_ne; rewrite (run_boxref _ _ _ N2); reflexivity|].
    apply inev_now. eapply next_one; [apply step_evf; cbn; unfold read_var; rewrite GX, H2, N1; reflexivity|]. now apply rs_ret with W.
  - apply good_ev. intros s1 F. cbn [evf decomp] in F |- *. injection F as <-. eexists. split; [reflexivity|]. apply inev_now. eapply next_one; [apply step_evf; reflexivity|].
    apply rs_args with W G; auto; [now constructor | apply (SL_todos W G [e] [e']); auto].
  - apply good_ev. intros s1 F. cbn [evf decomp boxset_exp] in F |- *. injection F as <-. eexists. split; [reflexivity|]. apply inev_now. eapply next_one; [apply step_evf; reflexivity|].
    pose proof (E x) as Ex. rewrite Q in Ex. destruct (RR_box_inv _ _ _ _ _ Ex) as (l & l' & H2 & Pr & L). eapply (rs_set W G x b l l'); eauto. apply (SL_todos W G [e] [e']); auto.
  - apply good_ev. intros s1 F. cbn [evf decomp] in F |- *. injection F as <-. eexists. split; [reflexivity|]. apply inev_now. eapply next_one; [apply step_evf; reflexivity|].
    apply rs_args with W G; auto; [now constructor | apply (SL_todos W G [a] [a']); auto].
  - apply good_ev. intros s1 F. cbn [evf decomp] in F |- *. injection F as <-. eexists. split; [reflexivity|]. apply inev_now. eapply next_one; [apply step_evf; reflexivity|].
    apply rs_args with W G; auto; [now constructor | now apply SL_todos].
  - apply good_ev. intros s1 F. cbn [evf decomp] in F |- *. injection F as <-. eexists. split; [reflexivity|]. apply inev_now. eapply next_one; [apply step_evf; reflexivity|].
    apply rs_args with W G; auto; [now constructor | apply (SL_todos W G (f :: l) (f' :: l')); auto].
  - (* null let *)
    eapply good_star with (s0 := Ev b r k (set_hp w (hp w))); [|rewrite set_hp_same; eapply IH; eauto].
    eapply star_step; [apply step_evf; reflexivity|]. eapply star_step; [apply (st_pick P MCells OApp [] (ELam [] b) [])|].
    eapply star_step; [apply step_evf; reflexivity|]. eapply star_step; [apply st_ret|]. apply star_one.
    apply (st_fire P MCells OApp [VClo [] b r]). apply fire_firef. reflexivity.
  - (* identity let *)
    eapply good_star with (s0 := Ev e r (Fr OApp [SDone (VClo [x] (EVar x) r)] [] r :: k) w); [|eapply IH; eauto; now constructor].
    eapply star_step; [apply step_evf; reflexivity|]. eapply star_step; [apply (st_pick P MCells OApp [] (ELam [x] (EVar x)) [STodo e])|].
    eapply star_step; [apply step_evf; reflexivity|]. eapply star_step; [apply st_ret|]. apply star_one.
    apply (st_pick P MCells OApp [SDone (VClo [x] (EVar x) r)] e []).
  - apply good_ev. intros s1 F. cbn [evf] in F |- *. injection F as <-. eexists. split; [reflexivity|]. apply inev_now. eapply next_one; [apply step_evf; reflexivity|].
    apply rs_ret with W; auto. now apply VR_clo with G.
  - apply good_ev. intros s1 F. cbn [evf] in F |- *. injection F as <-. eexists. split; [reflexivity|]. apply inev_now. eapply next_one; [apply step_evf; reflexivity|].
    apply rs_ev with W (fixes xs ++ G); auto. now apply enter_fix.
  - apply good_ev. intros s1 F. cbn [evf] in F |- *. destruct (capturable k) eqn:Cp; [|discriminate]. rewrite (KR_capturable _ _ _ K Cp). destruct (bind MCells [x] [VCont k] r (hp w)) as [(r1 & h1)|] eqn:B; [|discriminate]. injection F as <-.
    assert (FV : Forall2 (VR W) [VCont k] [VCont k']) by (constructor; [now constructor | constructor]).
    destruct (enter_plain W G [x] r r' w w' _ _ r1 h1 OK E S FV B) as (r1' & W2 & -> & X & E2 & S2).
    eexists. split; [reflexivity|]. apply inev_now. eapply next_one; [apply step_evf; cbn [evf]; rewrite Cp, B; reflexivity|].
    apply rs_ev with W2 (params [] [x] ++ G); auto. eapply KR_ext; eauto.
  - apply good_ev. intros s1 F. cbn [evf] in F |- *. destruct (capturable k) eqn:Cp; [|discriminate]. rewrite (KR_capturable _ _ _ K Cp). destruct (bind MCells [x] [VCont k] r (hp w)) as [(r1 & h1)|] eqn:B; [|discriminate]. injection F as <-.
    assert (FV : Forall2 (VR W) [VCont k] [VCont k']) by (constructor; [now constructor | constructor]).
    destruct (enter W G [x] b b' r r' w w' _ _ r1 h1 k' A E S FV B) as (r1' & -> & I).
    eexists. split; [reflexivity|]. eapply next_of; [apply step_evf; cbn [evf]; rewrite Cp, B; reflexivity|].
    eapply inev_impl; [|exact I]. intros t (W2 & G2 & b2 & r2' & w2' & X & -> & A3 & E2 & S2). exists 0%nat. apply rs_ev with W2 G2; auto. eapply KR_ext; eauto.
  - apply good_ev. intros s1 F. cbn [evf decomp] in F |- *. injection F as <-. eexists. split; [reflexivity|]. apply inev_now. eapply next_one; [apply step_evf; reflexivity|].
    apply rs_args with W G; auto; [now constructor | apply (SL_todos W G [k0] [k0']); auto].
Qed.
Lemma ret_good W k k' : KR W k k' -> forall v v' w w', VR W v v' -> SR W w w' -> good 0 (Ret v k w) (Ret v' k' w').
Proof.
  induction 1 as [|G o o' a a' b b' r r' k k' O A B E K IH|x b l l' r r' k k' ef s GX Lx Pr Lb GB D K IH|x r0 r k k' GX K IH]; intros v v' w w' V S.
  - right; left. eexists _, v, v'. split; [constructor|split; [constructor|split; [constructor|split; [eapply VR_shape; eauto|split; [apply S|]]]]].
    intros x. eapply VR_shape. apply S.
  - apply good_ret, inev_now. eapply next_one; [constructor|]. apply rs_args with W G; auto. apply SL_app; [assumption | now constructor].
  - apply good_ret, inev_now. eapply next_one; [constructor|]. cbn [app].
    eapply (rs_set W []) with (l := l) (l' := l') (b := b); eauto.
    + constructor; [assumption | constructor].
    + discriminate.
  - eapply good_star with (s0 := Ret v k (set_hp w (hp w ++ [[v]]))); [|apply IH; [assumption | now apply SR_src_alloc]].
    eapply star_step; [constructor|]. cbn [app].
    eapply star_step; [apply (st_fire P MCells OApp [VClo [x] (EVar x) r0; v]); apply fire_firef; reflexivity|].
    apply star_one. apply step_evf. cbn. unfold read_var. rewrite GX, lookup_cons, id_eqb_refl. cbn [hp set_hp].
    rewrite nth_error_app2, Nat.sub_diag by lia. reflexivity.
Qed.

Lemma args_good W G o o' l l' r r' k k' w w' : OC G o o' -> SL W G l l' -> ER W G r r' -> KR W k k' -> SR W w w' ->
  good 0 (Args o l r k w) (Args o' l' r' k' w').
Proof.
  intros O L E K S. apply good_args.
  - intros a e' b Q. destruct (SL_split _ _ _ _ L _ _ _ Q) as (a0 & e & b0 & -> & A0 & B0 & A). apply inev_now. eapply next_one; [constructor|].
    apply rs_ev with W G; auto. apply KR_cons with G; assumption.
  - intros vs ->. destruct (SL_done_l _ _ _ _ L) as (vs' & -> & F). exists vs'. split; [reflexivity|]. intros s1 Fi.
    destruct (fire_SR _ _ _ _ _ _ _ _ _ _ _ _ _ O F E K S Fi) as (t1 & -> & I). exists t1. split; [reflexivity|].
    eapply next_of; [|exact I]. constructor. now apply fire_firef.
  - apply (SL_todo_l _ _ _ _ L).
Qed.
Lemma set_good W G x b l l' r r' k k' w w' ef s s1 s1' : global_id x = false -> lookup r x = Some (VRef l) -> pairs W l l' -> lookup r' b = Some (VLoc l') ->
  global_id b = false -> s = STodo (EVar b) \/ s = SDone (VLoc l') -> SL W G [s1] [s1'] -> (forall e, s1 = STodo e -> ER W G r r') -> KR W k k' -> SR W w w' ->
  good (todos [s]) (Args (OSet x) [s1] r k w) (Args (OPrim ef the_boxset_prim) [s; s1'] r' k' w').
Proof.
  intros GX Lx Pr Lb GB D L E K S.
  assert (Step : exists t1, step P MDirect (Args (OPrim ef the_boxset_prim) [s; s1'] r' k' w') t1 \/ wrong P MCells (Args (OSet x) [s1] r k w)).
  { destruct D as [->| ->]; [eexists; left; apply (st_pick P MDirect _ [] (EVar b) [s1'])|].
    inversion L as [|G0 v v' l0 l0' V L0|G0 e e' l0 l0' A L0]; subst.
    - destruct (firef P MCells (OSet x) [v] r k w) eqn:Fi; [|exists (Ret v k w); right; apply (stuck_fire P MCells (OSet x) [v]); intros s X; apply fire_firef in X; congruence].
      cbn [firef] in Fi. rewrite GX, Lx in Fi. destruct (sr_pairs _ _ _ S _ _ Pr) as (u & u' & N1 & N2 & FU). rewrite N1 in Fi.
      destruct FU as [|a a' u u' U [|]]; try discriminate. destruct (list_set (hp w) l [v]) eqn:LS; [|discriminate].
      destruct (list_set (hp w') l' [v']) eqn:LS'; [|exfalso; revert N2 LS'; clear; revert l'; generalize (hp w'); intros h; induction h; intros [|l']; cbn; try discriminate; intros N; specialize (IHh _ N); destruct (list_set h l' [v']); [discriminate | now apply IHh]].
      eexists. left. apply (st_fire P MDirect _ [VLoc l'; v']). apply fire_firef. rewrite fire_prim by apply boxset_ne.
      erewrite run_boxset by eassumption. reflexivity.
    - eexists. left. apply (st_pick P MDirect _ [SDone (VLoc l')] e' []). }
  destruct Step as (t1 & [St|Wr]); [|now left]. right; right. split; [eauto|].
  intros t' T. apply step_args in T. destruct T as [(a & e' & b0 & Q & ->)|(vs & Q & Fi)].
  - destruct a as [|x0 [|x1 [|]]]; cbn in Q; try discriminate.
    + (* the box *)
      injection Q as -> <-. assert (e' = EVar b) as -> by (destruct D; congruence).
      apply inev_var with (VLoc l'); [reflexivity | apply read_direct; [assumption | assumption | discriminate]|].
      apply inev_ret; [reflexivity|]. apply inev_now. right. exists 0%nat. eexists. split; [|right; split; [constructor | cbn; lia]].
      cbn [app]. refine (rs_set W G x b l l' _ _ _ _ _ _ _ (SDone (VLoc l')) _ _ GX Lx Pr Lb GB (or_intror eq_refl) L E K S).
    + (* the new value *)
      injection Q as -> -> <-. inversion L as [| |G0 e e1 l0 l0' A L0]; subst. apply inev_now. eapply next_one; [apply (st_pick P MCells _ [] e [])|].
      apply rs_ev with W G; eauto. eapply KR_set; eauto.
  - destruct vs as [|v1 [|v2 [|]]]; cbn in Q; try discriminate. injection Q as -> ->.
    assert (v1 = VLoc l') as -> by (destruct D; congruence). inversion L as [|G0 v v' l0 l0' V L0|]; subst.
    apply fire_firef in Fi. rewrite fire_prim in Fi by apply boxset_ne.
    destruct (firef P MCells (OSet x) [v] r k w) eqn:Fs; [|apply inev_now; left; apply (stuck_fire P MCells (OSet x) [v]); intros s X; apply fire_firef in X; congruence].
    pose proof Fs as Fs0. cbn [firef] in Fs. rewrite GX, Lx in Fs. destruct (sr_pairs _ _ _ S _ _ Pr) as (u & u' & N1 & N2 & FU). rewrite N1 in Fs.
    destruct FU as [|a a' u u' U [|]]; try discriminate. destruct (list_set (hp w) l [v]) eqn:LS; [|discriminate]. injection Fs as <-.
    destruct (list_set (hp w') l' [v2]) eqn:LS'.
    + erewrite run_boxset in Fi by eassumption. injection Fi as <-. apply inev_now. eapply next_one; [apply (st_fire P MCells (OSet x) [v]); apply fire_firef; exact Fs0|].
      apply rs_ret with W; [assumption | assumption|]. apply (SR_put W w w' l l' [v] [v2]); auto.
    + exfalso. destruct PB as (_ & _ & PB3). rewrite PB3 in Fi. cbn in Fi. rewrite N2 in Fi. cbn in Fi. rewrite LS' in Fi. discriminate.
Qed.
Lemma RS_good n s t : RS n s t -> good n s t.
Proof.
  destruct 1.
  - eapply ev_good; eauto.
  - eapply args_good; eauto.
  - eapply set_good; eauto.
  - eapply ret_good; eauto.
  - right; left. eexists _, v, v'. split; [constructor|split; [constructor|split; [constructor|split; [eapply VR_shape; eauto|]]]].
    match goal with S : SR _ _ _ |- _ => split; [apply S | intros x; eapply VR_shape; apply S] end.
Qed.
Theorem AC_refines e e' : AC [] e e' -> refines P MCells MDirect e e'.
Proof.
  intros A g i. apply (simulation P MCells MDirect RS RS_out RS_good 0).
  apply rs_ev with (mkw (fun _ _ => False) (fun _ _ => False)) []; [assumption | intros x; constructor | constructor|].
  constructor; cbn; try easy. intros x. constructor.
Qed.
End Run.
