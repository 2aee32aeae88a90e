(** Fixing letrecs preserves what programs do: the relation between the programs, and the simulation. *)
From Coq Require Import ZArith String List Bool Lia Permutation.
From Verif Require Import Model_Lit Model_Core Model_Letrec Spec_Sem Spec_Free Spec_Fold Proofs_Sim Proofs_Core Proofs_Free.
From Verif Require Import Proofs_Assign.
Import ListNotations.
Open Scope Z_scope.

(** How a variable of the old program is kept by the new one: as a cell; as a value that is there early; not at all *)
Inductive rep := RCell | RLate | RDead.
Notation ctx := (list (id * rep)).
Notation plan := (list (id * exp)).
Notation inits := (list (id * (exp * exp))).
Definition src (s : id * (exp * exp)) : exp := fst (snd s).
Definition tgt (s : id * (exp * exp)) : exp := snd (snd s).
Definition due (s : id * (exp * exp)) : id * exp := (fst s, src s).
Fixpoint pctx (xs : list id) (ps : list rep) (G : ctx) : ctx :=
  match xs, ps with x :: xs', p :: ps' => pctx xs' ps' ((x, p) :: G) | _, _ => G end.
Fixpoint adds (p : rep) (xs : list id) (G : ctx) : ctx := match xs with [] => G | x :: xs' => adds p xs' ((x, p) :: G) end.
Fixpoint plans (ss : inits) (pl : plan) : plan := match ss with [] => pl | s :: ss' => plans ss' (due s :: pl) end.
Definition voids {A} (l : list A) : list exp := map (fun _ => void_exp) l.
Definition lams_of (l : list (list id * exp)) : list exp := map (fun p => ELam (fst p) (snd p)) l.
(** the assignments of a letrec *)
Inductive sets (D : id -> Prop) : list id -> list id -> exp -> Prop :=
| sets_nil : sets D [] [] void_exp
| sets_cons x xs t ts d e : D d -> ~ In d ts -> sets D xs ts e -> sets D (x :: xs) (t :: ts) (EApp (ELam [d] e) [ESet x (EVar t)]).

Section Rel.
Variable P : prim -> script.
Definition fixed (p : prim) (c : const) : Prop := p <> the_halt_prim /\ forall w, run (P p) [] w = Some (VC c, w).

Inductive FX : ctx -> plan -> exp -> exp -> Prop :=
| fx_gvar G pl x : global_id x = true -> FX G pl (EVar x) (EVar x)
| fx_var G pl x p : global_id x = false -> assq x G = Some p -> p <> RDead -> FX G pl (EVar x) (EVar x)
| fx_gset G pl x e e' : global_id x = true -> FX G pl e e' -> FX G pl (ESet x e) (ESet x e')
| fx_set G pl x e e' : global_id x = false -> assq x G = Some RCell -> FX G pl e e' -> FX G pl (ESet x e) (ESet x e')
| fx_dead G pl x e e' : global_id x = false -> assq x G = Some RDead -> FX G pl e e' -> FX G pl (ESet x e) e'
| fx_if G pl a b c a' b' c' : FX G pl a a' -> FX G pl b b' -> FX G pl c c' -> FX G pl (EIf a b c) (EIf a' b' c')
| fx_prim G pl ef p l l' : FXL G pl l l' -> FX G pl (EPrim ef p l) (EPrim ef p l')
| fx_app G pl f l f' l' : FX G pl f f' -> FXL G pl l l' -> FX G pl (EApp f l) (EApp f' l')
| fx_null G pl b b' : FX G pl b b' -> FX G pl (EApp (ELam [] b) []) b'
| fx_ident G pl x e e' : global_id x = false -> FX G pl e e' -> FX G pl (EApp (ELam [x] (EVar x)) [e]) e'
| fx_lam G pl xs ps b b' : length ps = length xs -> (forall p, In p ps -> p <> RDead) -> FX (pctx xs ps G) [] b b' -> FX G pl (ELam xs b) (ELam xs b')
| fx_dummy G pl d d' b b' : assq d G = None -> assq d' G = None -> FX G pl b b' -> FX G pl (ELam [d] b) (ELam [d'] b')
| fx_letcc G pl x p b b' : p <> RDead -> FX ((x, p) :: G) [] b b' -> FX G pl (ELetcc x b) (ELetcc x b')
| fx_with G pl k e k' e' : FX G pl k k' -> FX G pl e e' -> FX G pl (EWithcc k e) (EWithcc k' e')
(** the variable has its value already *)
| fx_late G pl x e d b b' : In (x, e) pl -> assq d G = None -> FX G pl b b' -> FX G pl (EApp (ELam [d] b) [ESet x e]) b'
| fx_inits G pl xs d tmps l rands b b' vs : Forall2 (fun x e => In (x, e) pl \/ global_id x = false /\ assq x G = Some RDead /\ exists e', In (x, (e, e')) vs) xs rands -> SIL G vs -> sets (fun d => assq d G = None) xs tmps l -> NoDup tmps ->
    (forall t, In t tmps -> assq t G = None /\ global_id t = false) -> assq d G = None -> FX G pl b b' ->
    FX G pl (EApp (ELam [d] b) [EApp (ELam tmps l) rands]) b'
(** the value of an unreferenced variable of a letrec *)
| fx_skip G pl e b' x u u' d' : SIL G [(x, (u, u'))] -> assq d' G = None -> FX G pl e b' -> FX G pl e (EApp (ELam [d'] b') [u'])
(** the variables of a letrec or letrec*: unreferenced, simple, complex, procedures *)
| fx_group G pl ids us ss cs lams b T b' G1 : NoDup ids -> NoDup (us ++ map fst ss ++ cs ++ map fst lams) ->
    (forall x, In x (us ++ map fst ss ++ cs ++ map fst lams) -> In x ids) -> (forall x, In x ids -> assq x G = None /\ global_id x = false) ->
    SIL (adds RDead us G) ss -> FW (adds RCell cs (adds RLate (map fst ss) (adds RDead us G))) lams T b' G1 ->
    FX G1 (map due ss ++ map due lams) b b' ->
    FX G pl (EApp (ELam ids b) (voids ids)) (EApp (ELam (map fst ss ++ cs) T) (map tgt ss ++ voids cs))
with FXL : ctx -> plan -> list exp -> list exp -> Prop :=
| fxl_nil G pl : FXL G pl [] []
| fxl_cons G pl e e' l l' : FX G pl e e' -> FXL G pl l l' -> FXL G pl (e :: l) (e' :: l')
(** initial values that can be made at any time *)
with SIL : ctx -> inits -> Prop :=
| sil_nil G : SIL G []
| sil_lam G x xs b xs' b' l : FX G [] (ELam xs b) (ELam xs' b') -> SIL G l -> SIL G ((x, (ELam xs b, ELam xs' b')) :: l)
| sil_var G x y l : global_id y = false -> assq y G = Some RLate -> SIL G l -> SIL G ((x, (EVar y, EVar y)) :: l)
| sil_const G x ef p c l : fixed p c -> SIL G l -> SIL G ((x, (EPrim ef p [], EPrim ef p [])) :: l)
with FW : ctx -> inits -> exp -> exp -> ctx -> Prop :=
| fw_nil G b : FW G [] b b G
| fw_let G ss ls T b G1 : SIL G ss -> FW (adds RLate (map fst ss) G) ls T b G1 ->
    FW G (ss ++ ls) (EApp (ELam (map fst ss) T) (map tgt ss)) b G1
| fw_fix G ss ls b : SIL (map (fun s => (fst s, RLate)) ss ++ G) ss -> map tgt ss = lams_of ls -> Forall (fun s => is_lam (src s) = true) ss ->
    FW G ss (EFix (map fst ss) ls b) b (map (fun s => (fst s, RLate)) ss ++ G).
Inductive OC (G : ctx) (pl : plan) : oper -> oper -> Prop :=
| oc_if b c b' c' : FX G pl b b' -> FX G pl c c' -> OC G pl (OIf b c) (OIf b' c')
| oc_gset x : global_id x = true -> OC G pl (OSet x) (OSet x)
| oc_set x : global_id x = false -> assq x G = Some RCell -> OC G pl (OSet x) (OSet x)
| oc_prim ef p : OC G pl (OPrim ef p) (OPrim ef p)
| oc_app : OC G pl OApp OApp
| oc_with e e' : FX G pl e e' -> OC G pl (OWith e) (OWith e').

(** ** Worlds: related blocks and cells; old cells whose final value is known; new cells that keep their value; old cells
    nobody reads *)
Record world := mkw { pairs : nat -> nat -> Prop; late : nat -> val -> Prop; froz : nat -> val -> Prop; dead : nat -> Prop }.
Definition wext (w w' : world) : Prop :=
  (forall l l', pairs w l l' -> pairs w' l l') /\ (forall l v, late w l v -> late w' l v) /\
  (forall l v, froz w l v -> froz w' l v) /\ (forall l, dead w l -> dead w' l).

(** the value of a variable in the new program *)
Definition tval (W : world) (r' : env) (x : id) (v : val) : Prop :=
  (exists l', lookup r' x = Some (VRef l') /\ froz W l' v) \/ (lookup r' x = Some v /\ exists ys ls i r0, v = VFix ys ls i r0).
Definition RR (W : world) (p : rep) (x : id) (r r' : env) : Prop :=
  match p with
  | RCell => exists l l', lookup r x = Some (VRef l) /\ lookup r' x = Some (VRef l') /\ pairs W l l'
  | RLate => exists l v, lookup r x = Some (VRef l) /\ late W l v /\ tval W r' x v
  | RDead => exists l, lookup r x = Some (VRef l) /\ dead W l
  end.
Definition agree (G0 G : ctx) (r0 r : env) : Prop := forall z p, assq z G0 = Some p -> assq z G = Some p /\ lookup r0 z = lookup r z.
(** an initial value, made in the new program *)
Inductive early (W : world) (G : ctx) (r' : env) : exp -> val -> Prop :=
| ea_const ef p c : fixed p c -> early W G r' (EPrim ef p []) (VC c)
| ea_var y v : global_id y = false -> assq y G = Some RLate -> tval W r' y v -> early W G r' (EVar y) v
| ea_clo xs b xs' b' r0 G0 : FX G0 [] (ELam xs b) (ELam xs' b') -> agree G0 G r0 r' -> early W G r' (ELam xs b) (VClo xs' b' r0)
| ea_fix xs b xs' b' ys ls i r0 G0 : nth_error ls i = Some (xs', b') -> FX G0 [] (ELam xs b) (ELam xs' b') ->
    agree G0 G (bind_fix ys ls r0) r' -> early W G r' (ELam xs b) (VFix ys ls i r0).
Definition ER (W : world) (G : ctx) (pl : plan) (r r' : env) : Prop :=
  (forall x p, assq x G = Some p -> RR W p x r r') /\
  (forall x e, In (x, e) pl -> global_id x = false /\ assq x G = Some RLate /\ exists v, tval W r' x v /\ early W G r' e v).

Inductive VR (W : world) : val -> val -> Prop :=
| VR_c c : VR W (VC c) (VC c)
| VR_loc l l' : pairs W l l' -> VR W (VLoc l) (VLoc l')
| VR_clo G pl xs b xs' b' r r' : FX G pl (ELam xs b) (ELam xs' b') -> ER W G pl r r' -> VR W (VClo xs b r) (VClo xs' b' r')
| VR_fix G xs b xs' b' r ys ls i r0 : nth_error ls i = Some (xs', b') -> FX G [] (ELam xs b) (ELam xs' b') -> ER W G [] r (bind_fix ys ls r0) ->
    VR W (VClo xs b r) (VFix ys ls i r0)
| VR_cont k k' : KR W k k' -> VR W (VCont k) (VCont k')
with SL (W : world) : ctx -> plan -> list slot -> list slot -> Prop :=
| SL_nil G pl : SL W G pl [] []
| SL_done G pl v v' l l' : VR W v v' -> SL W G pl l l' -> SL W G pl (SDone v :: l) (SDone v' :: l')
| SL_todo G pl e e' l l' : FX G pl e e' -> SL W G pl l l' -> SL W G pl (STodo e :: l) (STodo e' :: l')
with KR (W : world) : kont -> kont -> Prop :=
| KR_nil : KR W [] []
| KR_cons G pl o o' a a' b b' r r' k k' : OC G pl o o' -> SL W G pl a a' -> SL W G pl b b' -> ER W G pl r r' ->
    KR W k k' -> KR W (Fr o a b r :: k) (Fr o' a' b' r' :: k')
| KR_dead x l r k k' : global_id x = false -> lookup r x = Some (VRef l) -> dead W l -> KR W k k' -> KR W (Fr (OSet x) [] [] r :: k) k'
| KR_ident x r0 r k k' : global_id x = false -> KR W k k' -> KR W (Fr OApp [SDone (VClo [x] (EVar x) r0)] [] r :: k) k'.
Scheme VR_m := Minimality for VR Sort Prop
  with SL_m := Minimality for SL Sort Prop
  with KR_m := Minimality for KR Sort Prop.
Combined Scheme rel_m from VR_m, SL_m, KR_m.

Lemma tval_ext W W' r' x v : wext W W' -> tval W r' x v -> tval W' r' x v.
Proof. intros (_ & _ & F & _) [(l' & A & B)|B]; [left; eauto | now right]. Qed.
Lemma RR_ext W W' p x r r' : wext W W' -> RR W p x r r' -> RR W' p x r r'.
Proof.
  intros X. pose proof X as (A & B & C & D). destruct p; cbn.
  - intros (l & l' & L & L' & Q). eauto 8.
  - intros (l & v & L & Q & T). exists l, v. split; [assumption|split; [auto | eapply tval_ext; eauto]].
  - intros (l & L & Q). eauto.
Qed.
Lemma early_ext W W' G r' e v : wext W W' -> early W G r' e v -> early W' G r' e v.
Proof. intros X. destruct 1; [eapply ea_const; eauto | apply ea_var; eauto using tval_ext | eapply ea_clo; eauto | eapply ea_fix; eauto]. Qed.
Lemma ER_ext W W' G pl r r' : wext W W' -> ER W G pl r r' -> ER W' G pl r r'.
Proof.
  intros X (A & B). split; [intros; eapply RR_ext; eauto|]. intros x e I. destruct (B _ _ I) as (GX & Q & v & T & Ea).
  split; [assumption|split; [assumption|]]. exists v. split; [eapply tval_ext; eauto | eapply early_ext; eauto].
Qed.
Lemma rel_ext W W' : wext W W' ->
  (forall v v', VR W v v' -> VR W' v v') /\ (forall G pl l l', SL W G pl l l' -> SL W' G pl l l') /\ (forall k k', KR W k k' -> KR W' k k').
Proof.
  intros X. pose proof X as (A & B & C & D). apply rel_m; intros; try (econstructor; eauto using ER_ext; fail).
Qed.
Lemma VR_ext W W' v v' : VR W v v' -> wext W W' -> VR W' v v'.
Proof. intros H X. now apply (rel_ext W W' X). Qed.
Lemma KR_ext W W' k k' : KR W k k' -> wext W W' -> KR W' k k'.
Proof. intros H X. now apply (rel_ext W W' X). Qed.
Lemma SL_ext W W' G pl l l' : SL W G pl l l' -> wext W W' -> SL W' G pl l l'.
Proof. intros H X. now apply (rel_ext W W' X). Qed.
Lemma VRs_ext W W' l l' : Forall2 (VR W) l l' -> wext W W' -> Forall2 (VR W') l l'.
Proof. induction 1; constructor; eauto using VR_ext. Qed.
Lemma wext_refl W : wext W W.
Proof. unfold wext. auto. Qed.
Lemma wext_trans a b c : wext a b -> wext b c -> wext a c.
Proof. unfold wext. intuition. Qed.
Lemma ER_incl W G pl pl' r r' : incl pl' pl -> ER W G pl r r' -> ER W G pl' r r'.
Proof. intros I (A & B). split; [assumption|]. intros x e J. apply B, I, J. Qed.
Lemma ER_nil W G pl r r' : ER W G pl r r' -> ER W G [] r r'.
Proof. apply ER_incl. intros x []. Qed.

Definition pending (u : val) (W : world) (v : val) : Prop := u = VC CVoid \/ VR W u v.
Record SR (W : world) (s t : st) : Prop := {
  sr_pairs : forall l l', pairs W l l' -> exists b b', nth_error (hp s) l = Some b /\ nth_error (hp t) l' = Some b' /\ Forall2 (VR W) b b';
  sr_inj : forall l1 l1' l2 l2', pairs W l1 l1' -> pairs W l2 l2' -> (l1 = l2 <-> l1' = l2');
  sr_late : forall l v, late W l v -> (exists u, nth_error (hp s) l = Some [u] /\ pending u W v) /\ forall l', ~ pairs W l l';
  sr_one : forall l v v', late W l v -> late W l v' -> v = v';
  sr_froz : forall l v, froz W l v -> nth_error (hp t) l = Some [v] /\ forall l0, ~ pairs W l0 l;
  sr_dead : forall l, dead W l -> (exists u, nth_error (hp s) l = Some [u]) /\ (forall l', ~ pairs W l l') /\ forall v, ~ late W l v;
  sr_gl : forall x, VR W (gl s x) (gl t x);
  sr_out : out s = out t;
  sr_inp : inp s = inp t }.
Definition sfree (W : world) (l : nat) : Prop := (forall l', ~ pairs W l l') /\ (forall v, ~ late W l v) /\ ~ dead W l.
Definition tfree (W : world) (l : nat) : Prop := (forall l0, ~ pairs W l0 l) /\ forall v, ~ froz W l v.

Lemma VR_shape W v v' : VR W v v' -> shape_of v = shape_of v'.
Proof. destruct 1; reflexivity. Qed.
Lemma VR_true W v v' : VR W v v' -> is_true v = is_true v'.
Proof. destruct 1; reflexivity. Qed.
Lemma sfree_new W s t l : SR W s t -> (length (hp s) <= l)%nat -> sfree W l.
Proof.
  intros S L. split; [|split].
  - intros l' Q. destruct (sr_pairs _ _ _ S _ _ Q) as (b & b' & N & _). apply nth_lt in N. lia.
  - intros v Q. destruct (sr_late _ _ _ S _ _ Q) as ((u & N & _) & _). apply nth_lt in N. lia.
  - intros Q. destruct (sr_dead _ _ _ S _ Q) as ((u & N) & _). apply nth_lt in N. lia.
Qed.
Lemma tfree_new W s t l : SR W s t -> (length (hp t) <= l)%nat -> tfree W l.
Proof.
  intros S L. split.
  - intros l' Q. destruct (sr_pairs _ _ _ S _ _ Q) as (b & b' & _ & N & _). apply nth_lt in N. lia.
  - intros v Q. destruct (sr_froz _ _ _ S _ _ Q) as (N & _). apply nth_lt in N. lia.
Qed.
Lemma SR_io W s t o i : SR W s t -> SR W (mkst (hp s) (gl s) o i) (mkst (hp t) (gl t) o i).
Proof. intros []. constructor; cbn; auto. Qed.
Lemma SR_src W s t b : SR W s t -> SR W (set_hp s (hp s ++ b)) t.
Proof.
  intros []. constructor; cbn; auto.
  - intros l l' X. destruct (sr_pairs0 _ _ X) as (x & y & N & M & Z). exists x, y. split; [now apply nth_app | auto].
  - intros l v X. destruct (sr_late0 _ _ X) as ((u & N & Z) & M). split; [|assumption]. exists u. split; [now apply nth_app | assumption].
  - intros l X. destruct (sr_dead0 _ X) as ((u & N) & M). split; [|assumption]. exists u. now apply nth_app.
Qed.
Lemma SR_tgt W s t b : SR W s t -> SR W s (set_hp t (hp t ++ b)).
Proof.
  intros []. constructor; cbn; auto.
  - intros l l' X. destruct (sr_pairs0 _ _ X) as (x & y & N & M & Z). exists x, y. split; [assumption|split; [now apply nth_app | auto]].
  - intros l v X. destruct (sr_froz0 _ _ X) as (N & M). split; [now apply nth_app | assumption].
Qed.
Lemma SR_put W s t l l' b b' h h' : SR W s t -> pairs W l l' -> Forall2 (VR W) b b' -> list_set (hp s) l b = Some h ->
  list_set (hp t) l' b' = Some h' -> SR W (set_hp s h) (set_hp t h').
Proof.
  intros [A B C C1 D D1 E E1 F] X Fb S1 S2. apply list_set_nth in S1, S2. destruct S1 as (U1 & U2 & _), S2 as (V1 & V2 & _).
  constructor; cbn; auto.
  - intros k k' Y. destruct (Nat.eq_dec k l) as [->|N].
    + assert (k' = l') as -> by (apply (B _ _ _ _ Y X); reflexivity). eauto.
    + destruct (A _ _ Y) as (x & y & N1 & N2 & Z). exists x, y. rewrite U2 by assumption. split; [assumption|].
      rewrite V2; [auto|]. intros ->. apply N, (B _ _ _ _ Y X). reflexivity.
  - intros k v Y. destruct (C _ _ Y) as ((u & N & Z) & M). split; [|assumption]. exists u. split; [|assumption]. rewrite U2; [assumption|]. intros ->. now apply (M l').
  - intros k v Y. destruct (D _ _ Y) as (N & M). split; [|assumption]. rewrite V2; [assumption|]. intros ->. now apply (M l).
  - intros k Y. destruct (D1 _ Y) as ((u & N) & M & M2). split; [|auto]. exists u. rewrite U2; [assumption|]. intros ->. now apply (M l').
Qed.
(** a cell of the old program that holds nothing yet gets its value, or a cell nobody reads changes *)
Lemma SR_set W s t l u h : SR W s t -> (forall l', ~ pairs W l l') -> (forall v, late W l v -> VR W u v) -> list_set (hp s) l [u] = Some h -> SR W (set_hp s h) t.
Proof.
  intros [A B C C1 D D1 E E1 F] NP NL S1. apply list_set_nth in S1. destruct S1 as (U1 & U2 & _).
  constructor; cbn; auto.
  - intros k k' Y. destruct (A _ _ Y) as (x & y & N1 & N2 & Z). exists x, y. rewrite U2; [auto|]. intros ->. now apply (NP k').
  - intros k v Y. destruct (C _ _ Y) as ((u0 & N & Z) & M). split; [|assumption]. destruct (Nat.eq_dec k l) as [->|Q].
    + exists u. split; [assumption | right; auto].
    + exists u0. rewrite U2 by assumption. auto.
  - intros k Y. destruct (D1 _ Y) as ((u0 & N) & M). split; [|assumption]. destruct (Nat.eq_dec k l) as [->|Q]; [eauto|]. exists u0. now rewrite U2.
Qed.

(** ** Larger worlds *)
Definition w_pair (W : world) (l l' : nat) : world := mkw (fun a b => pairs W a b \/ a = l /\ b = l') (late W) (froz W) (dead W).
Definition w_late (W : world) (l : nat) (v : val) : world := mkw (pairs W) (fun a b => late W a b \/ a = l /\ b = v) (froz W) (dead W).
Definition w_froz (W : world) (l : nat) (v : val) : world := mkw (pairs W) (late W) (fun a b => froz W a b \/ a = l /\ b = v) (dead W).
Definition w_dead (W : world) (l : nat) : world := mkw (pairs W) (late W) (froz W) (fun a => dead W a \/ a = l).
Lemma pending_ext W W' u v : wext W W' -> pending u W v -> pending u W' v.
Proof. intros X [H|H]; [now left | right; eapply VR_ext; eauto]. Qed.
Lemma SR_pair W s t l l' b b' : SR W s t -> sfree W l -> tfree W l' -> nth_error (hp s) l = Some b -> nth_error (hp t) l' = Some b' ->
  Forall2 (VR W) b b' -> wext W (w_pair W l l') /\ SR (w_pair W l l') s t.
Proof.
  intros [A B C C1 D D1 E E1 F] (S1 & S2 & S3) (T1 & T2) N N' Fb. assert (X : wext W (w_pair W l l')) by (unfold wext; cbn; auto). split; [exact X|].
  constructor; cbn; auto.
  - intros k k' [Y|(-> & ->)].
    + destruct (A _ _ Y) as (x & y & N1 & N2 & Z). exists x, y. split; [assumption|split; [assumption | eapply VRs_ext; eauto]].
    + exists b, b'. split; [assumption|split; [assumption | eapply VRs_ext; eauto]].
  - intros a a' c c' [Y|(-> & ->)] [Z|(-> & ->)].
    + eauto.
    + split; intros ->; [now apply S1 in Y | now apply T1 in Y].
    + split; intros <-; [now apply S1 in Z | now apply T1 in Z].
    + tauto.
  - intros k v Y. destruct (C _ _ Y) as ((u & N1 & Z) & M). split; [exists u; split; [assumption | eapply pending_ext; eauto]|].
    intros k' [Q|(-> & ->)]; [now apply (M k') | now apply S2 in Y].
  - intros k v Y. destruct (D _ _ Y) as (N1 & M). split; [assumption|]. intros k0 [Q|(-> & ->)]; [now apply (M k0) | now apply T2 in Y].
  - intros k Y. destruct (D1 _ Y) as (N1 & M & M2). split; [assumption|split; [|assumption]]. intros k' [Q|(-> & ->)]; [now apply (M k') | auto].
  - intros x. eapply VR_ext; eauto.
Qed.
Lemma SR_late W s t l u v : SR W s t -> sfree W l -> nth_error (hp s) l = Some [u] -> pending u W v -> wext W (w_late W l v) /\ SR (w_late W l v) s t.
Proof.
  intros [A B C C1 D D1 E E1 F] (S1 & S2 & S3) N Pe. assert (X : wext W (w_late W l v)) by (unfold wext; cbn; auto). split; [exact X|].
  constructor; cbn; auto.
  - intros k k' Y. destruct (A _ _ Y) as (x & y & N1 & N2 & Z). exists x, y. split; [assumption|split; [assumption | eapply VRs_ext; eauto]].
  - intros k v0 [Y|(-> & ->)].
    + destruct (C _ _ Y) as ((u0 & N1 & Z) & M). split; [|assumption]. exists u0. split; [assumption | eapply pending_ext; eauto].
    + split; [|assumption]. exists u. split; [assumption | eapply pending_ext; eauto].
  - intros k v1 v2 [Y|(-> & ->)] [Z|(Q & ->)]; eauto; exfalso; subst; eapply S2; eauto.
  - intros k Y. destruct (D1 _ Y) as (N1 & M & M2). split; [assumption|split; [assumption|]]. intros v0 [Q|(-> & ->)]; [now apply (M2 v0) | auto].
  - intros x. eapply VR_ext; eauto.
Qed.
Lemma SR_froz W s t l v : SR W s t -> tfree W l -> nth_error (hp t) l = Some [v] -> wext W (w_froz W l v) /\ SR (w_froz W l v) s t.
Proof.
  intros [A B C C1 D D1 E E1 F] (T1 & T2) N. assert (X : wext W (w_froz W l v)) by (unfold wext; cbn; auto). split; [exact X|].
  constructor; cbn; auto.
  - intros k k' Y. destruct (A _ _ Y) as (x & y & N1 & N2 & Z). exists x, y. split; [assumption|split; [assumption | eapply VRs_ext; eauto]].
  - intros k v0 Y. destruct (C _ _ Y) as ((u0 & N1 & Z) & M). split; [|assumption]. exists u0. split; [assumption | eapply pending_ext; eauto].
  - intros k v0 [Y|(-> & ->)]; auto.
  - intros x. eapply VR_ext; eauto.
Qed.
Lemma SR_dead W s t l u : SR W s t -> sfree W l -> nth_error (hp s) l = Some [u] -> wext W (w_dead W l) /\ SR (w_dead W l) s t.
Proof.
  intros [A B C C1 D D1 E E1 F] (S1 & S2 & S3) N. assert (X : wext W (w_dead W l)) by (unfold wext; cbn; auto). split; [exact X|].
  constructor; cbn; auto.
  - intros k k' Y. destruct (A _ _ Y) as (x & y & N1 & N2 & Z). exists x, y. split; [assumption|split; [assumption | eapply VRs_ext; eauto]].
  - intros k v0 Y. destruct (C _ _ Y) as ((u0 & N1 & Z) & M). split; [|assumption]. exists u0. split; [assumption | eapply pending_ext; eauto].
  - intros k [Y | ->]; eauto.
  - intros x. eapply VR_ext; eauto.
Qed.
Lemma nth_new {A} (l : list A) x : nth_error (l ++ [x]) (length l) = Some x.
Proof. rewrite nth_error_app2, Nat.sub_diag by lia. reflexivity. Qed.
Lemma SR_alloc W s t vs vs' : SR W s t -> Forall2 (VR W) vs vs' ->
  wext W (w_pair W (length (hp s)) (length (hp t))) /\
  SR (w_pair W (length (hp s)) (length (hp t))) (set_hp s (hp s ++ [vs])) (set_hp t (hp t ++ [vs'])).
Proof.
  intros S F. eapply SR_pair; [apply SR_src, SR_tgt, S | | | apply nth_new | apply nth_new | exact F].
  - eapply sfree_new; eauto.
  - eapply tfree_new; eauto.
Qed.
Lemma run_SR W p rs rs' s t v s1 : SR W s t -> Forall2 (VR W) rs rs' -> run p rs s = Some (v, s1) ->
  exists W' v' t1, run p rs' t = Some (v', t1) /\ wext W W' /\ SR W' s1 t1 /\ VR W' v v'.
Proof.
  intros S F E. eapply (run_rel world wext VR SR) with (rs := rs) (s := s) (w := W); eauto.
  - apply wext_refl.
  - apply wext_trans.
  - intros. eapply VR_ext; eauto.
  - intros. constructor.
  - apply VR_shape.
  - intros w s0 t0 v0 v0' u u' b S0 V U. destruct V, U; cbn; intros X; auto. injection X as <-. f_equal.
    destruct (Nat.eqb_spec l l0) as [->|N].
    + destruct (sr_inj _ _ _ S0 _ _ _ _ H H0) as (I & _). rewrite (I eq_refl). apply Nat.eqb_refl.
    + apply Nat.eqb_neq. intros ->. apply N. now apply (sr_inj _ _ _ S0 _ _ _ _ H H0).
  - intros w s0 t0 vs vs' S0 Fv. destruct (SR_alloc _ _ _ _ _ S0 Fv) as (X & Y). eexists. split; [exact X|split; [exact Y|]].
    constructor. cbn. auto.
  - intros w s0 t0 l v0 b i u S0 V N1 N2. inversion V; subst. destruct (sr_pairs _ _ _ S0 _ _ H0) as (x & y & M1 & M2 & Z).
    assert (x = b) by congruence. subst x. destruct (Forall2_nth _ _ _ _ _ Z N2) as (u' & M3 & U). exists l', y, u'. auto.
  - intros w s0 t0 l v0 b i u u' b1 h S0 V U N1 S1 S2. inversion V; subst. destruct (sr_pairs _ _ _ S0 _ _ H0) as (x & y & M1 & M2 & Z).
    assert (x = b) by congruence. subst x. destruct (Forall2_set _ _ _ _ _ _ _ Z U S1) as (b1' & S1' & Fb).
    destruct (list_set_ok _ _ b1' _ M2) as (h' & S2'). exists l', y, b1', h'.
    split; [reflexivity|split; [assumption|split; [assumption|split; [assumption|]]]]. eapply SR_put; eauto.
  - intros w s0 t0 S0. split; apply S0.
  - intros. now apply SR_io.
Qed.
End Rel.
