(** Substituted programs do what the programs do: the relation between the two, and between their states. *)
From Coq Require Import ZArith List Bool Lia Permutation.
From Verif Require Import Model_Lit Model_Core Model_Beta Spec_Sem Spec_Free Spec_Fold Spec_Beta Proofs_Sim Proofs_Core Proofs_Free Proofs_Agree Proofs_BetaPure.
Import ListNotations.
Open Scope Z_scope.

(** the operands of a let: kept, kept and known while the body is rewritten, deleted *)
Inductive opd := OB (x : id) (e e' : exp) | OK (x : id) (t : exp) | OG (x : id) (e : exp).
Definition oid (d : opd) : id := match d with OB x _ _ | OK x _ | OG x _ => x end.
Definition osrc (d : opd) : exp := match d with OB _ e _ | OK _ e | OG _ e => e end.
Definition otid (d : opd) : list id := match d with OB x _ _ | OK x _ => [x] | OG _ _ => [] end.
Definition otgt (d : opd) : list exp := match d with OB _ _ e' => [e'] | OK _ t => [t] | OG _ _ => [] end.
Inductive sk := SB (x : id) | SK (x : id) (t : exp) | SG (x : id).
Definition sid (k : sk) : id := match k with SB x | SK x _ | SG x => x end.
Definition osk (d : opd) : sk := match d with OB x _ _ => SB x | OK x t => SK x t | OG x _ => SG x end.
Notation gamma := (id -> exp -> Prop).
Definition apart (t : exp) (xs : list id) : Prop := forall z, free_in z t -> ~ In z xs.
Definition under (xs : list id) (G : gamma) : gamma := fun y t => In y xs /\ t = EVar y \/ ~ In y xs /\ G y t /\ apart t xs.
Definition knows (G : gamma) (ks : list sk) : gamma := fun y t =>
  In (SB y) ks /\ t = EVar y \/ (exists t0, In (SK y t0) ks) /\ t = EVar y \/ In (SK y t) ks /\ apart t (map sid ks) \/
  ~ In y (map sid ks) /\ G y t /\ apart t (map sid ks).
Definition scoped (G : gamma) (e : exp) : Prop := forall y, free_in y e -> global_id y = false -> G y (EVar y).

Section Rel.
Variable P : prim -> script.
Variable g : id -> const.
Notation fine := (fine P).
Notation peval := (peval P g).
Notation constok := (constok g).

Definition known (G : gamma) (t : exp) : Prop := bs_ref_transparent t = true /\ fine t /\ scoped G t.

(** the operation an operand is moved into *)
Definition moves (o : oper) : Prop := match o with OApp | OPrim _ _ => True | _ => False end.
Inductive B : gamma -> exp -> exp -> Prop :=
| b_known (G : gamma) x t : global_id x = false -> G x t -> bs_ref_transparent t = true -> fine t -> B G (EVar x) t
| b_gvar G x : global_id x = true -> B G (EVar x) (EVar x)
| b_set G x e e' : global_id x = true -> global_id_constant x = false -> B G e e' -> B G (ESet x e) (ESet x e')
| b_if G a b c a' b' c' : B G a a' -> B G b b' -> B G c c' -> B G (EIf a b c) (EIf a' b' c')
| b_prim G ef p l l' : Forall2 (B G) l l' -> B G (EPrim ef p l) (EPrim ef p l')
| b_app G f f' l l' : B G f f' -> Forall2 (B G) l l' -> B G (EApp f l) (EApp f' l')
| b_let G Ds Us b b' : NoDup (map oid Ds) -> Permutation Ds Us -> (forall x e e', In (OB x e e') Ds -> B G e e') ->
    (forall x t, In (OK x t) Ds -> known G t) -> (forall x e, In (OG x e) Ds -> quiet e = true /\ fine e) ->
    B (knows G (map osk Ds)) b b' ->
    B G (EApp (ELam (map oid Ds) b) (map osrc Ds)) (EApp (ELam (flat_map otid Us) b') (flat_map otgt Us))
| b_null G b b' : B G b b' -> B G (EApp (ELam [] b) []) b'
| b_ident G x e e' : global_id x = false -> B G e e' -> B G (EApp (ELam [x] (EVar x)) [e]) e'
| b_move G x e e' c c' o l1 l2 : global_id x = false -> moves o -> decomp c = Some (o, l1 ++ EVar x :: l2) -> decomp c' = Some (o, l1 ++ e' :: l2) -> B G e e' ->
    (forall a, In a (l1 ++ l2) -> steady P a /\ known G a /\ ~ free_in x a) -> B G (EApp (ELam [x] c) [e]) c'
| b_lam G xs b b' : B (under xs G) b b' -> B G (ELam xs b) (ELam xs b')
| b_fix G xs lams lams' b b' : Forall2 (fun l l' => fst l' = fst l /\ B (under (fst l) (under xs G)) (snd l) (snd l')) lams lams' ->
    B (under xs G) b b' -> B G (EFix xs lams b) (EFix xs lams' b')
| b_letcc G x b b' : B (under [x] G) b b' -> B G (ELetcc x b) (ELetcc x b')
| b_with G k e k' e' : B G k k' -> B G e e' -> B G (EWithcc k e) (EWithcc k' e').

(** ** Values, continuations *)
Notation world := (nat -> nat -> Prop).
Definition agree (t : exp) (r r2 : env) : Prop := forall y, free_in y t -> lookup r2 y = lookup r y.
Inductive elem := LB (x : id) (s s' : slot) | LK (x : id) (t : exp) (s s' : slot) | LG (x : id) (e : exp).
Definition lid (d : elem) : id := match d with LB x _ _ | LK x _ _ _ | LG x _ => x end.
Definition lsrc (d : elem) : slot := match d with LB _ s _ | LK _ _ s _ => s | LG _ e => STodo e end.
Definition ltid (d : elem) : list id := match d with LB x _ _ | LK x _ _ _ => [x] | LG _ _ => [] end.
Definition ltgt (d : elem) : list slot := match d with LB _ _ s' | LK _ _ _ s' => [s'] | LG _ _ => [] end.
Definition lsk (d : elem) : sk := match d with LB x _ _ => SB x | LK x t _ _ => SK x t | LG x _ => SG x end.
Inductive OC (G : gamma) : oper -> oper -> Prop :=
| oc_if b c b' c' : B G b b' -> B G c c' -> OC G (OIf b c) (OIf b' c')
| oc_set x : global_id x = true -> global_id_constant x = false -> OC G (OSet x) (OSet x)
| oc_prim ef p : OC G (OPrim ef p) (OPrim ef p)
| oc_app : OC G OApp OApp
| oc_with e e' : B G e e' -> OC G (OWith e) (OWith e').
Inductive VR (W : world) : val -> val -> Prop :=
| vr_c c : VR W (VC c) (VC c)
| vr_loc l l' : W l l' -> VR W (VLoc l) (VLoc l')
| vr_clo (G : gamma) xs b b' r r' : B (under xs G) b b' -> (forall x t r2, G x t -> global_id x = false -> agree t r' r2 -> OR W (lookup r x) (peval r2 t)) ->
    VR W (VClo xs b r) (VClo xs b' r')
| vr_fix (G : gamma) xs lams lams' i r r' : Forall2 (fun l l' => fst l' = fst l /\ B (under (fst l) (under xs G)) (snd l) (snd l')) lams lams' ->
    (forall x t r2, G x t -> global_id x = false -> agree t r' r2 -> OR W (lookup r x) (peval r2 t)) ->
    VR W (VFix xs lams i r) (VFix xs lams' i r')
| vr_cont K K' : KR W K K' -> VR W (VCont K) (VCont K')
with OR (W : world) : option val -> option val -> Prop :=
| or_some v u : VR W v u -> OR W (Some v) (Some u)
with SL (W : world) : gamma -> list slot -> list slot -> Prop :=
| sl_nil G : SL W G [] []
| sl_done G v v' l l' : VR W v v' -> SL W G l l' -> SL W G (SDone v :: l) (SDone v' :: l')
| sl_todo (G : gamma) e e' l l' : B G e e' -> SL W G l l' -> SL W G (STodo e :: l) (STodo e' :: l')
with EL (W : world) : gamma -> env -> list elem -> Prop :=
| el_nil G r' : EL W G r' []
| el_done G r' x v v' T : VR W v v' -> EL W G r' T -> EL W G r' (LB x (SDone v) (SDone v') :: T)
| el_todo (G : gamma) r' x e e' T : B G e e' -> EL W G r' T -> EL W G r' (LB x (STodo e) (STodo e') :: T)
| el_kdone G r' x t v v' T : VR W v v' -> (forall r2, agree t r' r2 -> OR W (Some v) (peval r2 t)) -> EL W G r' T -> EL W G r' (LK x t (SDone v) (SDone v') :: T)
| el_ktodo (G : gamma) r' x t T : known G t -> EL W G r' T -> EL W G r' (LK x t (STodo t) (STodo t) :: T)
| el_gone G r' x e T : quiet e = true -> fine e -> EL W G r' T -> EL W G r' (LG x e :: T)
with MS (W : world) : gamma -> env -> id -> list exp -> list slot -> Prop :=
| ms_nil G r x : MS W G r x [] []
| ms_todo (G : gamma) r x a l s : steady P a -> known G a -> ~ free_in x a -> MS W G r x l s -> MS W G r x (a :: l) (STodo a :: s)
| ms_done (G : gamma) r x a l u s : known G a -> (forall v, OR W (peval ((x, v) :: r) a) (Some u)) -> MS W G r x l s -> MS W G r x (a :: l) (SDone u :: s)
with KR (W : world) : kont -> kont -> Prop :=
| kr_nil : KR W [] []
| kr_cons (G : gamma) o o' a a' b b' r r' K K' : OC G o o' -> SL W G a a' -> SL W G b b' ->
    (forall x t r2, G x t -> global_id x = false -> agree t r' r2 -> OR W (lookup r x) (peval r2 t)) -> KR W K K' ->
    KR W (Fr o a b r :: K) (Fr o' a' b' r' :: K')
| kr_let (G : gamma) T1 T2 U1 U2 x b b' op ids ids' ks r r' K K' : EL W G r' (T1 ++ T2) -> Permutation (T1 ++ T2) (U1 ++ U2) ->
    ids = map lid T1 ++ x :: map lid T2 -> ids' = flat_map ltid U1 ++ x :: flat_map ltid U2 -> ks = map lsk T1 ++ SB x :: map lsk T2 ->
    NoDup ids -> B (knows G ks) b b' -> op = STodo (ELam ids' b') \/ op = SDone (VClo ids' b' r') ->
    (forall x t r2, G x t -> global_id x = false -> agree t r' r2 -> OR W (lookup r x) (peval r2 t)) -> KR W K K' ->
    KR W (Fr OApp (SDone (VClo ids b r) :: map lsrc T1) (map lsrc T2) r :: K) (Fr OApp (op :: flat_map ltgt U1) (flat_map ltgt U2) r' :: K')
| kr_move (G : gamma) x c o l1 l2 s1 s2 r r' K K' : global_id x = false -> moves o -> decomp c = Some (o, l1 ++ EVar x :: l2) ->
    MS W G r x l1 s1 -> MS W G r x l2 s2 ->
    (forall x t r2, G x t -> global_id x = false -> agree t r' r2 -> OR W (lookup r x) (peval r2 t)) -> KR W K K' ->
    KR W (Fr OApp [SDone (VClo [x] c r)] [] r :: K) (Fr o s1 s2 r' :: K')
| kr_ident x r0 r K K' : global_id x = false -> KR W K K' -> KR W (Fr OApp [SDone (VClo [x] (EVar x) r0)] [] r :: K) K'.
Scheme VR_m := Minimality for VR Sort Prop
  with OR_m := Minimality for OR Sort Prop
  with SL_m := Minimality for SL Sort Prop
  with EL_m := Minimality for EL Sort Prop
  with MS_m := Minimality for MS Sort Prop
  with KR_m := Minimality for KR Sort Prop.
Combined Scheme rel_m from VR_m, OR_m, SL_m, EL_m, MS_m, KR_m.
Definition ER (W : world) (G : gamma) (r r' : env) : Prop := forall x t r2, G x t -> global_id x = false -> agree t r' r2 -> OR W (lookup r x) (peval r2 t).
Definition wext (W W' : world) : Prop := forall l l', W l l' -> W' l l'.

Lemma rel_ext W W' : wext W W' ->
  (forall v v', VR W v v' -> VR W' v v') /\ (forall o o', OR W o o' -> OR W' o o') /\
  (forall G l l', SL W G l l' -> SL W' G l l') /\ (forall G r T, EL W G r T -> EL W' G r T) /\ (forall G r x l s, MS W G r x l s -> MS W' G r x l s) /\ (forall k k', KR W k k' -> KR W' k k').
Proof. intros X. apply rel_m; intros; try (econstructor; eauto; fail). Qed.
Lemma VR_ext W W' v v' : VR W v v' -> wext W W' -> VR W' v v'.
Proof. intros H X. now apply (rel_ext W W' X). Qed.
Lemma ER_ext W W' G r r' : ER W G r r' -> wext W W' -> ER W' G r r'.
Proof. intros H X x t r2 A D E. apply (rel_ext W W' X). eauto. Qed.
Lemma KR_ext W W' k k' : KR W k k' -> wext W W' -> KR W' k k'.
Proof. intros H X. now apply (rel_ext W W' X). Qed.
Lemma SL_ext W W' G l l' : SL W G l l' -> wext W W' -> SL W' G l l'.
Proof. intros H X. now apply (rel_ext W W' X). Qed.
Lemma wext_refl W : wext W W.
Proof. intros l l'. auto. Qed.
Lemma wext_trans a b c : wext a b -> wext b c -> wext a c.
Proof. intros X Y l l'. auto. Qed.

Definition winj (W : world) : Prop := forall l1 l1' l2 l2', W l1 l1' -> W l2 l2' -> (l1 = l2 <-> l1' = l2').
Record SR (W : world) (s t : st) : Prop := {
  sr_pairs : forall l l', W l l' -> exists b b', nth_error (hp s) l = Some b /\ nth_error (hp t) l' = Some b' /\ Forall2 (VR W) b b';
  sr_inj : winj W;
  sr_gl : forall x, VR W (gl s x) (gl t x);
  sr_const : constok s;
  sr_out : out s = out t;
  sr_inp : inp s = inp t }.
Lemma VR_shape W v v' : VR W v v' -> shape_of v = shape_of v'.
Proof. destruct 1; reflexivity. Qed.
Lemma VR_true W v v' : VR W v v' -> is_true v = is_true v'.
Proof. destruct 1; reflexivity. Qed.
Lemma VR_proc W v v' : VR W v v' -> is_proc v = is_proc v'.
Proof. destruct 1; reflexivity. Qed.
Lemma VR_plain W v v' : VR W v v' -> (forall l, v <> VRef l) /\ (forall l, v' <> VRef l).
Proof. destruct 1; split; discriminate. Qed.
Lemma SR_const_r W s t : SR W s t -> constok t.
Proof. intros S x X. assert (V := sr_gl _ _ _ S x). rewrite (sr_const _ _ _ S x X) in V. now inversion V. Qed.

Lemma list_set_nth {A} (l : list A) i x l1 : list_set l i x = Some l1 ->
  nth_error l1 i = Some x /\ (forall j, j <> i -> nth_error l1 j = nth_error l j) /\ length l1 = length l.
Proof.
  revert i l1. induction l as [|y l IH]; intros [|i] l1 E; cbn in *; try discriminate.
  - injection E as <-. split; [reflexivity|split; [|reflexivity]]. intros [|j] N; [easy | reflexivity].
  - destruct (list_set l i x) eqn:S; [|discriminate]. cbn in E. injection E as <-.
    destruct (IH _ _ S) as (A1 & A2 & A3). split; [assumption|split; [|cbn; congruence]]. intros [|j] N; [reflexivity | cbn; apply A2; lia].
Qed.
Lemma list_set_ok {A} (l : list A) i x y : nth_error l i = Some y -> exists l1, list_set l i x = Some l1.
Proof. revert i. induction l as [|z l IH]; intros [|i] E; cbn in *; try discriminate; [eauto|]. destruct (IH _ E) as (l1 & ->). cbn. eauto. Qed.
Lemma nth_lt {A} (l : list A) i x : nth_error l i = Some x -> (i < length l)%nat.
Proof. intros E. apply nth_error_Some. congruence. Qed.
Lemma nth_app {A} (l h : list A) i x : nth_error l i = Some x -> nth_error (l ++ h) i = Some x.
Proof. intros E. rewrite nth_error_app1; [assumption | now apply nth_lt in E]. Qed.
Lemma SR_io W s t o i : SR W s t -> SR W (mkst (hp s) (gl s) o i) (mkst (hp t) (gl t) o i).
Proof. intros [A C D D2 E F]. constructor; cbn; auto. Qed.
Lemma SR_src_alloc W s t b : SR W s t -> SR W (set_hp s (hp s ++ b)) t.
Proof.
  intros [A C D D2 E F]. constructor; cbn; auto. intros l l' X. destruct (A _ _ X) as (x & y & N & M & Z). exists x, y. split; [now apply nth_app | auto].
Qed.
Lemma SR_put W s t l l' b b' h h' : SR W s t -> W l l' -> Forall2 (VR W) b b' -> list_set (hp s) l b = Some h ->
  list_set (hp t) l' b' = Some h' -> SR W (set_hp s h) (set_hp t h').
Proof.
  intros [A C D D2 E F] X Fb S1 S2. apply list_set_nth in S1, S2. destruct S1 as (U1 & U2 & _), S2 as (V1 & V2 & _). constructor; cbn; auto.
  intros k k' Y. destruct (Nat.eq_dec k l) as [->|N].
  + assert (k' = l') as -> by (apply (C _ _ _ _ Y X); reflexivity). eauto.
  + destruct (A _ _ Y) as (x & y & N1 & N2 & Z). exists x, y. rewrite U2 by assumption. split; [assumption|].
    rewrite V2; [auto|]. intros ->. apply N, (C _ _ _ _ Y X). reflexivity.
Qed.
Definition add_pair (W : world) (l l' : nat) : world := fun a b => W a b \/ a = l /\ b = l'.
Lemma SR_alloc W s t vs vs' : SR W s t -> Forall2 (VR W) vs vs' ->
  wext W (add_pair W (length (hp s)) (length (hp t))) /\
  SR (add_pair W (length (hp s)) (length (hp t))) (set_hp s (hp s ++ [vs])) (set_hp t (hp t ++ [vs'])).
Proof.
  intros [A C D D2 E F] Fv. set (W' := add_pair W (length (hp s)) (length (hp t))).
  assert (X : wext W W') by (intros l l'; cbv; auto). split; [exact X|].
  assert (Fx : forall l l', Forall2 (VR W) l l' -> Forall2 (VR W') l l') by (induction 1; constructor; eauto using VR_ext).
  constructor; cbn; auto.
  - intros l l' [Y|(-> & ->)].
    + destruct (A _ _ Y) as (x & y & N1 & N2 & Z). exists x, y. split; [now apply nth_app|split; [now apply nth_app | auto]].
    + exists vs, vs'. rewrite !nth_error_app2, !Nat.sub_diag by lia. split; [reflexivity|split; [reflexivity | auto]].
  - intros l1 l1' l2 l2' [Y|(-> & ->)] [Z|(-> & ->)].
    + eauto.
    + destruct (A _ _ Y) as (x & y & N1 & N2 & _). apply nth_lt in N1, N2. lia.
    + destruct (A _ _ Z) as (x & y & N1 & N2 & _). apply nth_lt in N1, N2. lia.
    + tauto.
  - intros x. eapply VR_ext; eauto.
Qed.
Lemma same_rel W v v' u u' b : winj W -> VR W v v' -> VR W u u' -> same v u = Some b -> same v' u' = Some b.
Proof.
  intros J V U. destruct V as [c|l l' HL| | |], U as [c0|l0 l0' HL0| | |]; cbn; intros X; auto. injection X as <-. f_equal.
  destruct (Nat.eqb_spec l l0) as [->|N].
  - destruct (J _ _ _ _ HL HL0) as (I & _). rewrite (I eq_refl). apply Nat.eqb_refl.
  - apply Nat.eqb_neq. intros ->. apply N. now apply (J _ _ _ _ HL HL0).
Qed.
Lemma run_SR W p rs rs' s t v s1 : SR W s t -> Forall2 (VR W) rs rs' -> run p rs s = Some (v, s1) ->
  exists W' v' t1, run p rs' t = Some (v', t1) /\ wext W W' /\ SR W' s1 t1 /\ VR W' v v'.
Proof.
  intros S F E. eapply (run_rel world wext VR SR) with (rs := rs) (s := s) (w := W); eauto.
  - apply wext_refl.
  - apply wext_trans.
  - intros. eapply VR_ext; eauto.
  - intros. constructor.
  - apply VR_shape.
  - intros w s0 t0 v0 v0' u u' b S0 V U. apply (same_rel w); [apply S0 | assumption..].
  - intros w s0 t0 vs vs' S0 Fv. destruct (SR_alloc _ _ _ _ _ S0 Fv) as (X & Y). eexists. split; [exact X|split; [exact Y|]].
    constructor. cbv. auto.
  - intros w s0 t0 l v0 b i u S0 V N1 N2. inversion V as [|? l' HW| | |]; subst. destruct (sr_pairs _ _ _ S0 _ _ HW) as (x & y & M1 & M2 & Z).
    assert (x = b) by congruence. subst x. destruct (Forall2_nth _ _ _ _ _ Z N2) as (u' & M3 & U). exists l', y, u'. auto.
  - intros w s0 t0 l v0 b i u u' b1 h S0 V U N1 S1 S2. inversion V as [|? l' HW| | |]; subst. destruct (sr_pairs _ _ _ S0 _ _ HW) as (x & y & M1 & M2 & Z).
    assert (x = b) by congruence. subst x. destruct (Forall2_set _ _ _ _ _ _ _ Z U S1) as (b1' & S1' & Fb).
    destruct (list_set_ok _ _ b1' _ M2) as (h' & S2'). exists l', y, b1', h'.
    split; [reflexivity|split; [assumption|split; [assumption|split; [assumption|]]]]. eapply SR_put; eauto.
  - intros w s0 t0 S0. split; apply S0.
  - intros. now apply SR_io.
Qed.

(** ** Copies of an expression *)
Lemma atom_VR W a rs rs' : Forall2 (VR W) rs rs' -> match atom_val a rs with Some v => exists v', atom_val a rs' = Some v' /\ VR W v v' | None => True end.
Proof.
  intros F. destruct (atom_val a rs) as [v|] eqn:E; [|exact I]. apply (atom_rel world VR) with rs; auto. intros. constructor.
Qed.
Lemma run_pure W s : honours ENo s -> winj W -> forall vs us w w2 v w1, Forall2 (VR W) vs us -> run s vs w = Some (v, w1) -> exists u w3, run s us w2 = Some (u, w3) /\ VR W v u.
Proof.
  intros H J. induction s as [a| |a f IH|a b f IH|l p IH|a i p IH|a i b p IH|a p IH|p IH]; cbn [run honours may_alloc may_look may_act] in *; intros vs us w w2 v w1 F E; try tauto; try discriminate.
  - assert (A := atom_VR W a _ _ F). destruct (atom_val a vs); [|discriminate]. destruct A as (u & -> & V). injection E as <- <-. eauto.
  - assert (A := atom_VR W a _ _ F). destruct (atom_val a vs); [|discriminate]. destruct A as (u & -> & V). rewrite <- (VR_shape _ _ _ V). eapply IH; eauto.
  - assert (A := atom_VR W a _ _ F). destruct (atom_val a vs); [|discriminate]. destruct A as (u & -> & V).
    assert (A := atom_VR W b _ _ F). destruct (atom_val b vs); [|discriminate]. destruct A as (u2 & -> & V2).
    destruct (same v0 v1) as [q|] eqn:S; [|discriminate]. rewrite (same_rel _ _ _ _ _ _ J V V2 S). eapply IH; eauto.
Qed.
Lemma bind_both W xs : forall vs vs' r r', Forall2 (VR W) vs vs' -> length xs = length vs -> exists r1 r1',
  (forall h, bind MDirect xs vs r h = Some (r1, h)) /\ (forall h', bind MDirect xs vs' r' h' = Some (r1', h')) /\
  (forall x, In x xs -> OR W (lookup r1 x) (lookup r1' x)) /\
  (forall x, ~ In x xs -> lookup r1 x = lookup r x /\ lookup r1' x = lookup r' x).
Proof.
  induction xs as [|x xs IH]; intros vs vs' r r' F L.
  - destruct F; [|discriminate]. exists r, r'. split; [reflexivity|]. split; [reflexivity|]. split; [easy | auto].
  - destruct F as [|v v' vs vs' V F]; [discriminate|]. injection L as L. destruct (IH _ _ ((x, v) :: r) ((x, v') :: r') F L) as (r1 & r1' & B1 & B2 & C & D).
    exists r1, r1'. split; [exact B1|split; [exact B2|split]].
    + intros y I. destruct (in_dec id_dec y xs) as [J|J]; [auto|]. destruct I as [->|I]; [|easy]. destruct (D y J) as (-> & ->). rewrite !lookup_cons, id_eqb_refl. now constructor.
    + intros y I. destruct (D y) as (-> & ->); [firstorder|]. assert (N : y <> x) by firstorder congruence. rewrite !lookup_cons, (proj2 (id_eqb_neq _ _) N). auto.
Qed.
Lemma bind_len xs : forall vs r h r1 h1, bind MDirect xs vs r h = Some (r1, h1) -> length xs = length vs.
Proof. induction xs as [|x xs IH]; intros [|v vs] r h r1 h1 E; cbn in *; try discriminate; [reflexivity|]. f_equal. eauto. Qed.
Notation wrong := (wrong P MDirect).
Notation star := (star P MDirect).
Notation pevals := (pevals P g).
Lemma pevals_len r l : forall vs, pevals r l = Some vs -> length vs = length l.
Proof.
  induction l as [|e l IH]; cbn; intros vs E; [injection E as <-; reflexivity|]. destruct (peval r e); [|discriminate]. destruct (pevals r l); [|discriminate]. injection E as <-. cbn. f_equal. auto.
Qed.
Definition unbound_ok (W : world) (t : exp) (r r' : env) : Prop := forall y, free_in y t -> global_id y = false -> OR W (lookup r y) (lookup r' y).
(** ** Unchanged code *)
Lemma free_sub e ys e' y : In (ys, e') (parts e) -> free_in y e' -> ~ In y ys -> free_in y e.
Proof. intros. eapply free_part; eauto. Qed.
Lemma apart_var y xs : ~ In y xs -> apart (EVar y) xs.
Proof. intros N z F. inversion F as [NM|ys e' I]; subst; [inversion NM; now subst | destruct I]. Qed.
Lemma scoped_part G e ys e' : In (ys, e') (parts e) -> scoped G e -> scoped (under ys G) e'.
Proof.
  intros I S y F Gy. destruct (in_dec id_dec y ys) as [J|J]; [now left | right]. split; [assumption|]. split; [apply S; [eapply free_sub; eauto | assumption] | now apply apart_var].
Qed.
Lemma scoped_part0 G e e' : In ([], e') (parts e) -> scoped G e -> scoped G e'.
Proof. intros I S y F Gy. apply S; [|assumption]. eapply free_sub; eauto. Qed.
Lemma B_list_refl G l : (forall e, In e l -> B G e e) -> Forall2 (B G) l l.
Proof. induction l as [|e l IH]; intros H; constructor; [apply H; now left | apply IH; intros; apply H; now right]. Qed.
Lemma B_refl e : forall G, fine e -> scoped G e -> B G e e.
Proof.
  induction e as [e IH] using parts_ind. intros G F S.
  assert (IH0 : forall e', In ([], e') (parts e) -> B G e' e').
  { intros e' I. apply (IH _ _ I); [exact (fine_part P _ _ _ F I) | exact (scoped_part0 _ _ _ I S)]. }
  assert (N := fine_node P _ F). destruct e as [x|x e|a b c|ef p l|f l|xs b|xs lams b|x b|k e]; cbn [parts] in *.
  - destruct (global_id x) eqn:Gx; [now apply b_gvar|]. apply b_known; auto; [apply S; [apply free_here; constructor | assumption]|]. cbn. now rewrite Gx.
  - destruct N. apply b_set; auto. apply IH0. now left.
  - apply b_if; apply IH0; cbn; auto.
  - apply b_prim. apply B_list_refl. intros e I. apply IH0. now apply in_map.
  - apply b_app; [apply IH0; now left|]. apply B_list_refl. intros e I. apply IH0. right. now apply in_map.
  - apply b_lam. apply (IH xs b); [now left | apply (fine_part P _ xs b F); now left | apply (scoped_part G (ELam xs b)); [now left | assumption]].
  - apply b_fix.
    + assert (H : forall l, In l lams -> B (under (fst l) (under xs G)) (snd l) (snd l)).
      { intros l I. assert (J : In (xs ++ fst l, snd l) (parts (EFix xs lams b))) by (cbn [parts]; right; apply in_map_iff; exists l; auto).
        apply (IH _ _ J); [exact (fine_part P _ _ _ F J)|]. intros y Fy Gy. destruct (in_dec id_dec y (fst l)) as [A|A]; [now left | right]. split; [assumption|]. split; [|now apply apart_var].
        destruct (in_dec id_dec y xs) as [A2|A2]; [now left | right]. split; [assumption|]. split; [|now apply apart_var]. apply S; [|assumption]. eapply free_sub; [exact J | exact Fy|]. rewrite in_app_iff. tauto. }
      clear - H. induction lams as [|l lams IH]; constructor; [split; [reflexivity|]; apply H; now left | apply IH; intros; apply H; now right].
    + apply (IH xs b); [now left | apply (fine_part P _ xs b F); now left | apply (scoped_part G (EFix xs lams b)); [now left | assumption]].
  - apply b_letcc. apply (IH [x] b); [now left | apply (fine_part P _ [x] b F); now left | apply (scoped_part G (ELetcc x b)); [now left | assumption]].
  - apply b_with; apply IH0; cbn; auto.
Qed.

(** a copy evaluated in a related environment gives a related value, or it fails in the old program *)
Lemma or_inv W o o' : OR W o o' -> exists v u, o = Some v /\ o' = Some u /\ VR W v u.
Proof. intros [v u V]. eauto. Qed.
Lemma peval_var r x v : global_id x = false -> lookup r x = Some v -> (forall l, v <> VRef l) -> peval r (EVar x) = Some v.
Proof. intros G L N. cbn [Proofs_BetaPure.peval]. rewrite G, L. destruct v; try reflexivity. now contradiction (N l). Qed.
Lemma unbound_er W t r r' : unbound_ok W t r r' -> ER W (fun y t' => free_in y t /\ t' = EVar y) r r'.
Proof.
  intros U y t' r2 (F & ->) G A. destruct (or_inv _ _ _ (U y F G)) as (v & u & -> & E & V). rewrite (peval_var r2 y u); [now constructor | assumption | | apply (VR_plain _ _ _ V)].
  rewrite A; [assumption|]. apply free_here. constructor.
Qed.
Lemma unbound_part W e ys e' r r' : In (ys, e') (parts e) -> ys = [] -> unbound_ok W e r r' -> unbound_ok W e' r r'.
Proof. intros I -> U y F. apply U. eapply free_sub; eauto. Qed.
Lemma pe_list W r r' l : (forall e, In e l -> bs_ref_transparent e = true /\ fine e /\ ((exists v u, peval r e = Some v /\ peval r' e = Some u /\ VR W v u) \/ (peval r e = None /\ forall K w, constok w -> wrong (Ev e r K w)))) ->
  (exists vs us, pevals r l = Some vs /\ pevals r' l = Some us /\ Forall2 (VR W) vs us) \/
  (pevals r l = None /\ forall o pre K w, constok w -> wrong (Args o (map SDone pre ++ map STodo l) r K w)).
Proof.
  induction l as [|e l IH]; intros H; [left; exists [], []; repeat split; constructor|]. cbn [Proofs_BetaPure.pevals map].
  destruct (H e (or_introl eq_refl)) as (RT & Fi & [(v & u & E1 & E2 & V)|(E1 & Wr)]); rewrite E1.
  - rewrite E2. destruct IH as [(vs & us & -> & -> & F)|(-> & Wr)]; [intros; apply H; now right | left; exists (v :: vs), (u :: us); repeat split; now constructor|]. right. split; [reflexivity|].
    intros o pre K w C. eapply wrong_star; [eapply star_step; [apply st_pick|]; eapply star_trans; [apply (pe_star P g); eassumption|]; apply star_one; apply Spec_Sem.st_ret|].
    replace (map SDone pre ++ SDone v :: map STodo l) with (map SDone (pre ++ [v]) ++ map STodo l) by (rewrite map_app, <- app_assoc; reflexivity). now apply Wr.
  - right. split; [reflexivity|]. intros o pre K w C. eapply wrong_star; [apply star_one; apply st_pick|]. now apply Wr.
Qed.
Lemma pe_rel W m : winj W -> forall t r r', (esize t <= m)%nat -> bs_ref_transparent t = true -> fine t -> unbound_ok W t r r' ->
  (exists v u, peval r t = Some v /\ peval r' t = Some u /\ VR W v u) \/ (peval r t = None /\ forall K w, constok w -> wrong (Ev t r K w)).
Proof.
  intros J. induction m as [|m IH]; intros t r r' Sz RT Fi U; [destruct t; cbn in Sz; lia|].
  destruct t as [x|x e|a b c|ef p l|f l|xs b|xs lams b|x b|k e]; cbn [bs_ref_transparent] in RT; try discriminate; cbn [esize] in Sz.
  - left. destruct (global_id x) eqn:G.
    + cbn [negb orb] in RT. exists (VC (g x)), (VC (g x)). cbn [Proofs_BetaPure.peval]. rewrite G, RT. repeat split. constructor.
    + destruct (or_inv _ _ _ (U x (free_here _ _ (nm_ref x)) G)) as (v & u & E1 & E2 & V). exists v, u. destruct (VR_plain _ _ _ V) as (N1 & N2).
      rewrite (peval_var r x v), (peval_var r' x u) by assumption. auto.
  - apply andb_prop in RT. destruct RT as (RT & Rc). apply andb_prop in RT. destruct RT as (Ra & Rb).
    assert (Fa : fine a) by (apply (fine_part P _ [] a Fi); cbn; auto). assert (Fb : fine b) by (apply (fine_part P _ [] b Fi); cbn; auto). assert (Fc : fine c) by (apply (fine_part P _ [] c Fi); cbn; auto).
    assert (Ua : unbound_ok W a r r') by (apply (unbound_part W (EIf a b c) []); cbn; auto). assert (Ub : unbound_ok W b r r') by (apply (unbound_part W (EIf a b c) []); cbn; auto). assert (Uc : unbound_ok W c r r') by (apply (unbound_part W (EIf a b c) []); cbn; auto).
    cbn [Proofs_BetaPure.peval]. destruct (IH a r r') as [(v & u & E1 & E2 & V)|(E1 & Wr)]; [lia | assumption..| |].
    + rewrite E1, E2, <- (VR_true _ _ _ V).
      assert (S : forall K w, constok w -> star (Ev (EIf a b c) r K w) (Ev (if is_true v then b else c) r K w)).
      { intros K w C. eapply star_step; [now apply st_args|]. eapply star_step; [apply (st_pick P MDirect (OIf b c) [] a [])|]. eapply star_trans; [apply (pe_star P g); eassumption|].
        eapply star_step; [apply Spec_Sem.st_ret|]. apply star_one. apply (st_fire P MDirect _ [v]). constructor. }
      destruct (is_true v).
      * destruct (IH b r r') as [?|(E3 & Wr)]; [lia | assumption..|left; assumption|]. right. split; [assumption|]. intros K w C. eapply wrong_star; [now apply S | now apply Wr].
      * destruct (IH c r r') as [?|(E3 & Wr)]; [lia | assumption..|left; assumption|]. right. split; [assumption|]. intros K w C. eapply wrong_star; [now apply S | now apply Wr].
    + rewrite E1. right. split; [reflexivity|]. intros K w C. eapply wrong_star; [eapply star_step; [now apply st_args|]; apply star_one; apply (st_pick P MDirect (OIf b c) [] a [])|]. now apply Wr.
  - apply andb_prop in RT. destruct RT as (Re & Rl). assert (ef = ENo) as -> by (destruct ef; try discriminate; reflexivity). rewrite forallb_forall in Rl.
    destruct (no_halt P _ _ _ Fi) as (NH & Ho); [easy|]. rewrite !peval_prim.
    assert (Hl : forall e, In e l -> bs_ref_transparent e = true /\ fine e) by (intros e I; split; [auto | exact (fine_ops P _ _ _ _ Fi I)]).
    destruct (pe_list W r r' l) as [(vs & us & E1 & E2 & F)|(E1 & Wr)].
    { intros e I. destruct (Hl e I). split; [assumption|]. split; [assumption|]. apply IH; auto; [assert (Y := size_in e l I); lia|].
      apply (unbound_part W (EPrim ENo p l) []); auto. cbn. now apply in_map. }
    + rewrite E1, E2. destruct (run (P p) vs st0) as [(v & w1)|] eqn:Rn.
      * destruct (run_pure W _ Ho J vs us st0 st0 v w1 F Rn) as (u & w3 & -> & V). left. eauto.
      * right. split; [reflexivity|]. intros K w C. eapply wrong_star; [eapply star_step; [now apply st_args|]; apply (pes_star P g l r vs (OPrim ENo p) []); auto|].
        apply stuck_fire. intros s Fs. apply fire_firef in Fs. cbn [firef app] in Fs. destruct (zlist_dec p the_halt_prim); [contradiction|]. rewrite (run_any (P p) Ho vs st0 w), Rn in Fs. discriminate.
    + rewrite E1. right. split; [reflexivity|]. intros K w C. eapply wrong_star; [apply star_one; now apply st_args|]. apply (Wr (OPrim ENo p) []); assumption.
  - destruct f as [| | | | |xs b| | |]; try discriminate. cbn [esize] in Sz. apply andb_prop in RT. destruct RT as (L0 & RT). apply Nat.eqb_eq in L0. apply andb_prop in RT. destruct RT as (Rl & Rb). rewrite forallb_forall in Rl.
    rewrite !peval_let. assert (Hl : forall e, In e l -> bs_ref_transparent e = true /\ fine e) by (intros e I; split; [auto | exact (fine_rands P _ _ _ Fi I)]).
    assert (SO : forall K w, star (Ev (EApp (ELam xs b) l) r K w) (Args OApp (SDone (VClo xs b r) :: map STodo l) r K w)).
    { intros K w. eapply star_step; [now apply st_args|]. cbn [map]. eapply star_step; [apply (st_pick P MDirect OApp [])|]. eapply star_step; [apply st_lam|]. apply star_one. apply (Spec_Sem.st_ret P MDirect _ OApp []). }
    destruct (pe_list W r r' l) as [(vs & us & E1 & E2 & F)|(E1 & Wr)].
    { intros e I. destruct (Hl e I). split; [assumption|]. split; [assumption|]. apply IH; auto; [assert (Y := size_in e l I); lia|].
      apply (unbound_part W (EApp (ELam xs b) l) []); auto. cbn. right. now apply in_map. }
    + rewrite E1, E2. assert (L1 := pevals_len _ _ _ E1). destruct (bind_both W xs vs us r r' F) as (r1 & r1' & B1 & B2 & X1 & X2); [congruence|]. rewrite B1, B2.
      destruct (IH b r1 r1') as [?|(E3 & Wr)]; [lia | assumption | exact (fine_body P _ _ _ Fi) | | left; assumption|].
      * intros y Fy Gy. destruct (in_dec id_dec y xs) as [I|I]; [auto|]. destruct (X2 y I) as (-> & ->). apply U; [|assumption].
        eapply free_sub; [now left| |easy]. eapply free_sub; [now left | eassumption | assumption].
      * right. split; [assumption|]. intros K w C. eapply wrong_star; [eapply star_trans; [apply SO|]; eapply star_trans; [apply (pes_star P g l r vs OApp [VClo xs b r]); auto|]|apply (Wr K w C)].
        apply star_one. apply (st_fire P MDirect OApp (VClo xs b r :: vs)). apply fire_firef. cbn [firef]. rewrite B1. now destruct w.
    + rewrite E1. right. split; [reflexivity|]. intros K w C. eapply wrong_star; [apply SO|]. now apply (Wr OApp [VClo xs b r]).
  - left. exists (VClo xs b r), (VClo xs b r'). repeat split. apply vr_clo with (fun y t' => free_in y (ELam xs b) /\ t' = EVar y); [|now apply unbound_er].
    apply B_refl; [apply (fine_part P _ xs b Fi); now left|]. apply (scoped_part _ (ELam xs b)); [now left|]. intros y Fy Gy. auto.
Qed.
End Rel.
