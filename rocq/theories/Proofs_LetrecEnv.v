(** Fixing letrecs: binding variables on both sides. *)
From Coq Require Import ZArith String List Bool Lia Permutation.
From Verif Require Import Model_Lit Model_Core Model_Letrec Spec_Sem Spec_Free Spec_Fold Proofs_Sim Proofs_Core Proofs_Free.
From Verif Require Import Proofs_Assign Proofs_Letrec.
Import ListNotations.
Open Scope Z_scope.

Lemma bind_strict xs : forall vs r h, bind MStrict xs vs r h = bind MCells xs vs r h.
Proof. induction xs as [|x xs IH]; intros [|v vs] r h; cbn; auto. Qed.
Lemma bind_app m xs ys : forall vs us r h r1 h1, bind m xs vs r h = Some (r1, h1) -> bind m (xs ++ ys) (vs ++ us) r h = bind m ys us r1 h1.
Proof.
  induction xs as [|x xs IH]; intros [|v vs] us r h r1 h1 E; cbn in E |- *; try discriminate.
  - now injection E as -> ->.
  - destruct m; apply IH, E.
Qed.
Lemma lookup_skip (r : env) d u x : x <> d -> lookup ((d, u) :: r) x = lookup r x.
Proof. intros N. rewrite lookup_cons. apply id_eqb_neq in N. now rewrite N. Qed.
Lemma lookup_here (r : env) d u : lookup ((d, u) :: r) d = Some u.
Proof. now rewrite lookup_cons, id_eqb_refl. Qed.
Lemma assq_ne {A} x d (G : list (id * A)) p : assq x G = Some p -> assq d G = None -> x <> d.
Proof. congruence. Qed.
Lemma assq_cons {A} x y (a : A) G : assq x ((y, a) :: G) = if id_eqb x y then Some a else assq x G.
Proof. reflexivity. Qed.
Lemma tval_look W r r2 x v : lookup r x = lookup r2 x -> tval W r x v -> tval W r2 x v.
Proof. unfold tval. intros <-. auto. Qed.
Lemma RR_look W p x r r' r2 r2' : lookup r x = lookup r2 x -> lookup r' x = lookup r2' x -> RR W p x r r' -> RR W p x r2 r2'.
Proof. intros A B. destruct p; cbn; unfold tval; rewrite ?A, ?B; auto. Qed.

Section Env.
Variable P : prim -> script.
Notation FX := (FX P). Notation SIL := (SIL P). Notation FW := (FW P). Notation early := (early P). Notation ER := (ER P).
Notation VR := (VR P). Notation SR := (SR P).

Lemma agree_skip G0 G r0 r d u : agree G0 G r0 r -> assq d G = None -> agree G0 G r0 ((d, u) :: r).
Proof. intros A N z p Q. destruct (A z p Q) as (B & C). split; [assumption|]. rewrite lookup_skip; [assumption | eapply assq_ne; eauto]. Qed.
Lemma agree_add G0 G r0 r d q : agree G0 G r0 r -> assq d G = None -> agree G0 ((d, q) :: G) r0 r.
Proof.
  intros A N z p Q. destruct (A z p Q) as (B & C). split; [|assumption]. rewrite assq_cons.
  destruct (id_eqb z d) eqn:Z; [apply id_eqb_eq in Z; congruence | assumption].
Qed.
Lemma early_skip W G r' d u e v : early W G r' e v -> assq d G = None -> early W G ((d, u) :: r') e v.
Proof.
  intros E N. destruct E as [ef p c F|y v GY A T|xs b xs' b' r0 G0 F A|xs b xs' b' ys ls i r0 G0 Ni F A].
  - now apply ea_const.
  - apply ea_var; [assumption | assumption|]. eapply tval_look; [|exact T]. symmetry. apply lookup_skip. eapply assq_ne; eauto.
  - eapply ea_clo; [exact F | now apply agree_skip].
  - eapply ea_fix; [exact Ni | exact F | now apply agree_skip].
Qed.
Lemma early_add W G r' d q e v : early W G r' e v -> assq d G = None -> early W ((d, q) :: G) r' e v.
Proof.
  intros E N. destruct E as [ef p c F|y v GY A T|xs b xs' b' r0 G0 F A|xs b xs' b' ys ls i r0 G0 Ni F A].
  - now apply ea_const.
  - apply ea_var; [assumption | | assumption]. rewrite assq_cons. destruct (id_eqb y d) eqn:Z; [apply id_eqb_eq in Z; congruence | assumption].
  - eapply ea_clo; [exact F | now apply agree_add].
  - eapply ea_fix; [exact Ni | exact F | now apply agree_add].
Qed.
(** variables the context does not know *)
Lemma ER_skip W G pl r r' d u : ER W G pl r r' -> assq d G = None -> ER W G pl ((d, u) :: r) r'.
Proof.
  intros (A & B) N. split; [|assumption]. intros x p Q. eapply RR_look; [| |apply A, Q]; [|reflexivity].
  symmetry. apply lookup_skip. eapply assq_ne; eauto.
Qed.
Lemma ER_skip' W G pl r r' d u : ER W G pl r r' -> assq d G = None -> ER W G pl r ((d, u) :: r').
Proof.
  intros (A & B) N. split.
  - intros x p Q. eapply RR_look; [| |apply A, Q]; [reflexivity|]. symmetry. apply lookup_skip. eapply assq_ne; eauto.
  - intros x e I. destruct (B _ _ I) as (GX & Q & v & T & Ea). split; [assumption|split; [assumption|]]. exists v. split.
    + eapply tval_look; [|exact T]. symmetry. apply lookup_skip. eapply assq_ne; eauto.
    + now apply early_skip.
Qed.
(** one more variable in the context *)
Lemma ER_add W G pl r r' x p : ER W G pl r r' -> assq x G = None -> RR W p x r r' -> ER W ((x, p) :: G) pl r r'.
Proof.
  intros (A & B) N R. split.
  - intros y q Q. rewrite assq_cons in Q. destruct (id_eqb y x) eqn:Z; [apply id_eqb_eq in Z; congruence | auto].
  - intros y e I. destruct (B _ _ I) as (GX & Q & v & T & Ea). split; [assumption|split].
    + rewrite assq_cons. destruct (id_eqb y x) eqn:Z; [apply id_eqb_eq in Z; congruence | auto].
    + exists v. split; [assumption | now apply early_add].
Qed.
Lemma ER_push W G r r' x p u u' : ER W G [] r r' -> RR W p x ((x, u) :: r) ((x, u') :: r') -> ER W ((x, p) :: G) [] ((x, u) :: r) ((x, u') :: r').
Proof.
  intros (A & _) R. split; [|intros ? ? []]. intros y q Q. rewrite assq_cons in Q. destruct (id_eqb y x) eqn:Z.
  - apply id_eqb_eq in Z. congruence.
  - apply id_eqb_neq in Z. eapply RR_look; [| |apply A, Q]; symmetry; now apply lookup_skip.
Qed.
Lemma tval_fun W s t r' x v v2 : SR W s t -> tval W r' x v -> tval W r' x v2 -> v = v2.
Proof.
  intros S [(l & L & F)|(L & ys & ls & i & r0 & ->)] [(l2 & L2 & F2)|(L2 & ys2 & ls2 & i2 & r2 & ->)]; try congruence.
  assert (l2 = l) by congruence. subst. destruct (sr_froz _ _ _ _ S _ _ F) as (N & _), (sr_froz _ _ _ _ S _ _ F2) as (N2 & _). congruence.
Qed.
Lemma tval_read W s t r' x v : SR W s t -> global_id x = false -> tval W r' x v -> read_var MCells r' x t = Some v.
Proof.
  intros S GX [(l & L & F)|(L & ys & ls & i & r0 & ->)]; unfold read_var; rewrite GX, L; [|reflexivity].
  destruct (sr_froz _ _ _ _ S _ _ F) as (-> & _). reflexivity.
Qed.

(** ** Calls *)
Lemma enter xs : forall ps vs vs' W G r r' w w' r1 h1, length ps = length xs -> (forall p, In p ps -> p <> RDead) ->
  ER W G [] r r' -> SR W w w' -> Forall2 (VR W) vs vs' -> bind MStrict xs vs r (hp w) = Some (r1, h1) ->
  exists r1' h1' W1, bind MCells xs vs' r' (hp w') = Some (r1', h1') /\ wext W W1 /\ ER W1 (pctx xs ps G) [] r1 r1' /\ SR W1 (set_hp w h1) (set_hp w' h1').
Proof.
  induction xs as [|x xs IH]; intros [|p ps] vs vs' W G r r' w w' r1 h1 L D E S F B; try discriminate.
  - destruct F; [|discriminate]. injection B as <- <-. exists r', (hp w'), W. split; [reflexivity|split; [apply wext_refl|split; [assumption|]]]. now rewrite !set_hp_same.
  - destruct F as [|v v' vs vs' V F]; [discriminate|]. cbn [bind] in B |- *. cbn in L. injection L as L.
    assert (Z : exists W1, wext W W1 /\ RR W1 p x ((x, VRef (length (hp w))) :: r) ((x, VRef (length (hp w'))) :: r') /\
                SR W1 (set_hp w (hp w ++ [[v]])) (set_hp w' (hp w' ++ [[v']]))).
    { assert (S1 : SR W (set_hp w (hp w ++ [[v]])) (set_hp w' (hp w' ++ [[v']]))) by apply SR_src, SR_tgt, S.
      pose proof (sfree_new _ _ _ _ _ S (Nat.le_refl _)) as Sf. pose proof (tfree_new _ _ _ _ _ S (Nat.le_refl _)) as Tf.
      destruct p; [| |now destruct (D RDead (or_introl eq_refl))].
      - destruct (SR_pair P W _ _ (length (hp w)) (length (hp w')) [v] [v'] S1 Sf Tf) as (X & S2); [apply nth_new | apply nth_new | auto |].
        eexists. split; [exact X|split; [|exact S2]]. exists (length (hp w)), (length (hp w')). rewrite !lookup_here. cbn. auto.
      - destruct (SR_late P W _ _ (length (hp w)) v v' S1 Sf) as (X & S2); [apply nth_new | now right|].
        destruct (SR_froz P (w_late W (length (hp w)) v') _ _ (length (hp w')) v' S2) as (X2 & S3); [exact Tf | apply nth_new|].
        eexists. split; [eapply wext_trans; [exact X | exact X2]|split; [|exact S3]].
        exists (length (hp w)), v'. rewrite lookup_here. split; [reflexivity|split; [cbn; auto|]]. left. exists (length (hp w')). rewrite lookup_here. split; [reflexivity | cbn; auto]. }
    destruct Z as (W1 & X & R & S1).
    destruct (IH ps vs vs' W1 ((x, p) :: G) ((x, VRef (length (hp w))) :: r) ((x, VRef (length (hp w'))) :: r') _ _ r1 h1 L (fun q I => D q (or_intror I))
                (ER_push _ _ _ _ _ _ _ _ (ER_ext _ _ _ _ _ _ _ X E) R) S1 (VRs_ext _ _ _ _ _ F X) B) as (r1' & h1' & W2 & B' & X2 & E2 & S2).
    exists r1', h1', W2. split; [exact B'|split; [eapply wext_trans; eauto|split; [assumption | exact S2]]].
Qed.
Lemma FX_lam_inv G pl xs b e' : FX G pl (ELam xs b) e' ->
  (exists ps b', e' = ELam xs b' /\ length ps = length xs /\ (forall p, In p ps -> p <> RDead) /\ FX (pctx xs ps G) [] b b') \/
  (exists d d' b', xs = [d] /\ e' = ELam [d'] b' /\ assq d G = None /\ assq d' G = None /\ FX G pl b b') \/
  (exists d' b' u', e' = EApp (ELam [d'] b') [u']).
Proof. intros F. inversion F; subst; eauto 12. Qed.
Lemma call W G pl xs b xs' b' vs vs' r r' w w' r1 h1 : FX G pl (ELam xs b) (ELam xs' b') -> ER W G pl r r' -> SR W w w' -> Forall2 (VR W) vs vs' ->
  bind MStrict xs vs r (hp w) = Some (r1, h1) ->
  exists r1' h1' W1 G1 pl1, bind MCells xs' vs' r' (hp w') = Some (r1', h1') /\ wext W W1 /\ FX G1 pl1 b b' /\ ER W1 G1 pl1 r1 r1' /\
    SR W1 (set_hp w h1) (set_hp w' h1').
Proof.
  intros F E S V B. destruct (FX_lam_inv _ _ _ _ _ F) as [(ps & b1 & Q & L & D & Fb)|[(d & d' & b1 & -> & Q & N & N' & Fb)|(d' & b1 & u' & Q)]]; [| |discriminate].
  - injection Q as -> ->. destruct (enter xs ps vs vs' W G r r' w w' r1 h1 L D (ER_nil _ _ _ _ _ _ E) S V B) as (r1' & h1' & W1 & B' & X & E1 & S1).
    exists r1', h1', W1, (pctx xs ps G), []. auto.
  - injection Q as -> ->. destruct V as [|v v' vs vs' V [|]]; try discriminate. injection B as <- <-. eexists _, _, W, G, pl.
    split; [reflexivity|split; [apply wext_refl|split; [assumption|split; [apply ER_skip, N; now apply ER_skip'|apply SR_src, SR_tgt, S]]]].
Qed.

(** ** Making a value early *)
Notation star := (star P MStrict). Notation wrong := (wrong P MStrict).
Lemma RR_late_read W G pl r r' w w' x v : ER W G pl r r' -> SR W w w' -> global_id x = false -> assq x G = Some RLate -> tval W r' x v ->
  read_var MStrict r x w = None \/ exists u, read_var MStrict r x w = Some u /\ VR W u v.
Proof.
  intros (A & _) S GX Q T. destruct (A _ _ Q) as (l & v2 & L & La & T2). rewrite (tval_fun _ _ _ _ _ _ _ S T T2) in *.
  destruct (sr_late _ _ _ _ S _ _ La) as ((u & N & [->|V]) & _); unfold read_var; rewrite GX, L, N; [now left|].
  destruct u as [[]| | | | |]; try (now left); right; eauto.
Qed.
Lemma ER_agree W G0 G pl r r0 r' : ER W G pl r r' -> agree G0 G r0 r' -> ER W G0 [] r r0.
Proof.
  intros (A & _) Ag. split; [|intros ? ? []]. intros x p Q. destruct (Ag x p Q) as (Q2 & L). eapply RR_look; [| |apply A, Q2]; [reflexivity | congruence].
Qed.
Lemma fire_const m ef p c r k w : fixed P p c -> firef P m (OPrim ef p) [] r k w = Some (Ret (VC c) k w).
Proof. intros (N & R). rewrite fire_prim by assumption. now rewrite R. Qed.
Lemma early_run W G pl r r' w w' e v k : early W G r' e v -> ER W G pl r r' -> SR W w w' ->
  wrong (Ev e r k w) \/ exists u, star (Ev e r k w) (Ret u k w) /\ VR W u v.
Proof.
  intros Ea E S. destruct Ea as [ef p c F|y v GY A T|xs b xs' b' r0 G0 F A|xs b xs' b' ys ls i r0 G0 Ni F A].
  - right. exists (VC c). split; [|constructor]. eapply star_step; [apply step_evf; reflexivity|]. apply star_one.
    apply (st_fire P MStrict _ []). apply fire_firef. now apply fire_const.
  - destruct (RR_late_read _ _ _ _ _ _ _ _ _ E S GY A T) as [R|(u & R & V)].
    + left. apply stuck_ev. cbn. now rewrite R.
    + right. exists u. split; [|assumption]. apply star_one. now constructor.
  - right. eexists. split; [apply star_one; constructor|]. eapply VR_clo; [exact F|]. eapply ER_agree; eauto.
  - right. eexists. split; [apply star_one; constructor|]. eapply VR_fix; [exact Ni | exact F|]. eapply ER_agree; eauto.
Qed.
(** in the new program, such an operand does no harm *)
Definition calm (r' : env) (w' : st) (e : exp) (v : val) : Prop :=
  forall k1, inev P MCells (out w') (fun t => t = Ret v k1 w') (Ev e r' k1 w').
Lemma SIL_vals G ss : SIL G ss -> forall W pl r r' w w', ER W G pl r r' -> SR W w w' ->
  exists vs, Forall2 (calm r' w') (map tgt ss) vs /\ Forall2 (early W G r') (map src ss) vs.
Proof.
  induction 1 as [G|G x xs b xs' b' l F S0 IH|G x y l GY A S0 IH|G x ef p c l F S0 IH]; intros W pl r r' w w' E S.
  - exists []. split; constructor.
  - destruct (IH _ _ _ _ _ _ E S) as (vs & A1 & A2). exists (VClo xs' b' r' :: vs). split; constructor; auto.
    + intros k1. eapply inev_ev; [reflexivity | reflexivity | now apply inev_now].
    + eapply ea_clo; [exact F|]. intros z p Q. auto.
  - destruct (IH _ _ _ _ _ _ E S) as (vs & A1 & A2). destruct E as (E1 & E2). destruct (E1 _ _ A) as (l0 & v & L & La & T).
    assert (Rd : read_var MCells r' y w' = Some v) by (eapply tval_read; eauto).
    exists (v :: vs). split; constructor; auto.
    + intros k1. eapply inev_ev; [reflexivity | cbn [evf tgt snd]; rewrite Rd; reflexivity | now apply inev_now].
    + now apply ea_var.
  - destruct (IH _ _ _ _ _ _ E S) as (vs & A1 & A2). exists (VC c :: vs). split; constructor; auto.
    + intros k1. eapply inev_ev; [reflexivity | reflexivity|]. eapply (inev_fire P MCells _ _ _ []); [reflexivity | eapply fire_const; exact F | now apply inev_now].
    + now apply ea_const.
Qed.
Definition cslot (r' : env) (w' : st) (s : slot) (ev : exp * val) : Prop := s = SDone (snd ev) \/ s = STodo (fst ev) /\ calm r' w' (fst ev) (snd ev).
Lemma cslot_done r' w' vs : forall evs, Forall2 (cslot r' w') (map SDone vs) evs -> vs = map snd evs.
Proof.
  induction vs as [|v vs IH]; intros evs F; inversion F; subst; [reflexivity|]. cbn. f_equal; [|auto].
  match goal with C : cslot _ _ _ _ |- _ => destruct C as [C|(C & _)]; congruence end.
Qed.
Lemma inev_calm o es vs r' k' w' (Q : state -> Prop) : Forall2 (calm r' w') es vs ->
  inev P MCells (out w') Q (Args o (map SDone vs) r' k' w') -> inev P MCells (out w') Q (Args o (map STodo es) r' k' w').
Proof.
  intros F I. assert (X : exists evs, Forall2 (cslot r' w') (map STodo es) evs /\ map snd evs = vs).
  { clear I. induction F as [|e v es vs C F (evs & A & B)]; [exists []; split; [constructor | reflexivity]|]. exists ((e, v) :: evs). split; [|cbn; congruence].
    constructor; [right; auto | assumption]. }
  destruct X as (evs & Fe & <-).
  eapply inev_trans; [|eapply (inev_operands P MCells (out w') o r' k' (fun l w => w = w' /\ Forall2 (cslot r' w') l evs)) with (l := map STodo es) (w := w')].
  - intros t (vs & w1 & -> & -> & F1). rewrite (cslot_done _ _ _ _ F1). exact I.
  - intros a e b w k1 (-> & F1). apply Forall2_app_inv_l in F1. destruct F1 as (e1 & e2 & Fa & Fb & ->). inversion Fb as [|? ev ? e3 C Fb2]; subst.
    destruct C as [C|(C & Ca)]; [discriminate|]. injection C as ->. eapply inev_impl; [|apply Ca]. cbn beta. intros t ->. eexists _, w'. split; [reflexivity|split; [reflexivity|]].
    apply Forall2_app; [assumption|]. constructor; [now left | assumption].
  - now intros l w (-> & _).
  - auto.
Qed.
Lemma inev_let xs b es vs r' k' w' r1 h1 (Q : state -> Prop) : Forall2 (calm r' w') es vs -> bind MCells xs vs r' (hp w') = Some (r1, h1) ->
  inev P MCells (out w') Q (Ev b r1 k' (set_hp w' h1)) -> inev P MCells (out w') Q (Ev (EApp (ELam xs b) es) r' k' w').
Proof.
  intros F B I. eapply inev_ev; [reflexivity | reflexivity|]. apply (inev_calm OApp (ELam xs b :: es) (VClo xs b r' :: vs)).
  - constructor; [|assumption]. intros k1. eapply inev_ev; [reflexivity | reflexivity | now apply inev_now].
  - eapply inev_fire; [reflexivity | cbn [firef]; rewrite B; reflexivity | assumption].
Qed.

(** ** The variables of a letrec *)
(** [X]: variables the old program has made and the new program has not *)
Record EN (W : world) (G : ctx) (pl : plan) (r : env) (w : st) (r' : env) (w' : st) (X : list id) : Prop := {
  en_er : ER W G pl r r';
  en_sr : SR W w w';
  en_nd : NoDup X;
  en_new : forall x, In x X -> global_id x = false /\ assq x G = None /\ exists l, lookup r x = Some (VRef l) /\ nth_error (hp w) l = Some [VC CVoid] /\ sfree W l;
  en_inj : forall x y l, In x X -> In y X -> lookup r x = Some (VRef l) -> lookup r y = Some (VRef l) -> x = y }.
Lemma EN_perm W G pl r w r' w' X Y : Permutation X Y -> EN W G pl r w r' w' X -> EN W G pl r w r' w' Y.
Proof.
  intros Pm [A B C D E]. constructor; auto.
  - now apply (Permutation_NoDup Pm).
  - intros x I. apply D. now apply (Permutation_in _ (Permutation_sym Pm)).
  - intros x y l I J. apply E; now apply (Permutation_in _ (Permutation_sym Pm)).
Qed.
(** taking one variable into the context *)
Lemma EN_take W W1 G pl r w r' w' r1' w1' x p X l : EN W G pl r w r' w' (x :: X) -> lookup r x = Some (VRef l) -> wext W W1 ->
  (forall l2, l2 <> l -> sfree W l2 -> sfree W1 l2) -> SR W1 w w1' -> ER W1 G pl r r1' -> RR W1 p x r r1' ->
  EN W1 ((x, p) :: G) pl r w r1' w1' X.
Proof.
  intros [A B C D E] L Xt Sf S1 E1 R. inversion C; subst. constructor; auto.
  - apply ER_add; auto. apply D. now left.
  - intros y I. destruct (D y (or_intror I)) as (GY & N & l2 & L2 & N2 & F2). split; [assumption|split].
    + rewrite assq_cons. destruct (id_eqb y x) eqn:Z; [apply id_eqb_eq in Z; congruence | assumption].
    + exists l2. split; [assumption|split; [assumption|]]. apply Sf; [|assumption]. intros ->. assert (x = y) by (eapply E; [now left | now right | eassumption | eassumption]). congruence.
  - intros y z l2 I J. apply E; now right.
Qed.
Lemma EN_dead W G pl r w r' w' x X : EN W G pl r w r' w' (x :: X) -> exists W1, wext W W1 /\ EN W1 ((x, RDead) :: G) pl r w r' w' X.
Proof.
  intros En. destruct (en_new _ _ _ _ _ _ _ _ En x (or_introl eq_refl)) as (GX & N & l & L & Nl & Sf).
  destruct (SR_dead P W w w' l _ (en_sr _ _ _ _ _ _ _ _ En) Sf Nl) as (Xt & S1). exists (w_dead W l). split; [exact Xt|].
  eapply EN_take; eauto.
  - intros l2 Ne (F1 & F2 & F3). split; [exact F1|split; [exact F2|]]. cbn. intros [Q|Q]; auto.
  - eapply ER_ext; [exact Xt | apply En].
  - exists l. split; [assumption|]. cbn. auto.
Qed.
Lemma EN_cell W G pl r w r' w' x X : EN W G pl r w r' w' (x :: X) ->
  exists W1, wext W W1 /\ EN W1 ((x, RCell) :: G) pl r w ((x, VRef (length (hp w'))) :: r') (set_hp w' (hp w' ++ [[VC CVoid]])) X.
Proof.
  intros En. destruct (en_new _ _ _ _ _ _ _ _ En x (or_introl eq_refl)) as (GX & N & l & L & Nl & Sf). pose proof (en_sr _ _ _ _ _ _ _ _ En) as S.
  destruct (SR_pair P W w (set_hp w' (hp w' ++ [[VC CVoid]])) l (length (hp w')) [VC CVoid] [VC CVoid]) as (Xt & S1);
    [apply SR_tgt, S | assumption | eapply tfree_new; eauto | assumption | apply nth_new | constructor; [constructor | constructor]|].
  exists (w_pair W l (length (hp w'))). split; [exact Xt|]. eapply EN_take; eauto.
  - intros l2 Ne (F1 & F2 & F3). split; [|split; [exact F2 | exact F3]]. cbn. intros l' [Q|(Q & _)]; [now apply (F1 l') | auto].
  - eapply ER_ext; [exact Xt|]. apply ER_skip'; [apply En | assumption].
  - exists l, (length (hp w')). rewrite lookup_here. cbn. auto.
Qed.
Lemma early_in W G r' x u e v : early W G r' e v -> assq x G = None -> early W ((x, RLate) :: G) ((x, u) :: r') e v.
Proof. intros E N. apply early_add; [now apply early_skip | assumption]. Qed.
Lemma ER_plan W G pl r r' x e v : ER W G pl r r' -> global_id x = false -> assq x G = Some RLate -> tval W r' x v -> early W G r' e v -> ER W G ((x, e) :: pl) r r'.
Proof. intros (A & B) GX Q T E. split; [assumption|]. intros y f [[= <- <-]|I]; [|auto]. eauto 8. Qed.
Lemma EN_plan W G pl r w r' w' X x e v : EN W G pl r w r' w' X -> global_id x = false -> assq x G = Some RLate -> tval W r' x v -> early W G r' e v ->
  EN W G ((x, e) :: pl) r w r' w' X.
Proof. intros [A B C D E] GX Q T Ea. constructor; auto. eapply ER_plan; eauto. Qed.
Lemma EN_late W G pl r w r' w' x X v : EN W G pl r w r' w' (x :: X) ->
  exists W1, wext W W1 /\ EN W1 ((x, RLate) :: G) pl r w ((x, VRef (length (hp w'))) :: r') (set_hp w' (hp w' ++ [[v]])) X /\
    tval W1 ((x, VRef (length (hp w'))) :: r') x v.
Proof.
  intros En. destruct (en_new _ _ _ _ _ _ _ _ En x (or_introl eq_refl)) as (GX & N & l & L & Nl & Sf). pose proof (en_sr _ _ _ _ _ _ _ _ En) as S.
  destruct (SR_late P W w (set_hp w' (hp w' ++ [[v]])) l _ v (SR_tgt _ _ _ _ _ S) Sf Nl (or_introl eq_refl)) as (Xt & S1).
  destruct (SR_froz P (w_late W l v) w (set_hp w' (hp w' ++ [[v]])) (length (hp w')) v S1) as (Xt2 & S2);
    [exact (tfree_new _ _ _ _ _ S (Nat.le_refl _)) | apply nth_new|].
  exists (w_froz (w_late W l v) (length (hp w')) v). assert (Xw := wext_trans _ _ _ Xt Xt2). split; [exact Xw|].
  assert (T : tval (w_froz (w_late W l v) (length (hp w')) v) ((x, VRef (length (hp w'))) :: r') x v).
  { left. exists (length (hp w')). rewrite lookup_here. split; [reflexivity | cbn; auto]. }
  split; [|exact T]. eapply EN_take; eauto.
  - intros l2 Ne (F1 & F2 & F3). split; [exact F1|split; [|exact F3]]. cbn. intros v2 [Q|(Q & _)]; [now apply (F2 v2) | auto].
  - eapply ER_ext; [exact Xw|]. apply ER_skip'; [apply En | assumption].
  - exists l, v. split; [assumption|split; [cbn; auto | exact T]].
Qed.
Lemma EN_fixv W G pl r w r' w' x X ys ls i r0 : EN W G pl r w r' w' (x :: X) ->
  exists W1, wext W W1 /\ EN W1 ((x, RLate) :: G) pl r w ((x, VFix ys ls i r0) :: r') w' X /\ tval W1 ((x, VFix ys ls i r0) :: r') x (VFix ys ls i r0).
Proof.
  intros En. destruct (en_new _ _ _ _ _ _ _ _ En x (or_introl eq_refl)) as (GX & N & l & L & Nl & Sf). pose proof (en_sr _ _ _ _ _ _ _ _ En) as S.
  destruct (SR_late P W w w' l _ (VFix ys ls i r0) S Sf Nl (or_introl eq_refl)) as (Xt & S1).
  exists (w_late W l (VFix ys ls i r0)). split; [exact Xt|].
  assert (T : tval (w_late W l (VFix ys ls i r0)) ((x, VFix ys ls i r0) :: r') x (VFix ys ls i r0)).
  { right. rewrite lookup_here. eauto 8. }
  split; [|exact T]. eapply EN_take; eauto.
  - intros l2 Ne (F1 & F2 & F3). split; [exact F1|split; [|exact F3]]. cbn. intros v2 [Q|(Q & _)]; [now apply (F2 v2) | auto].
  - eapply ER_ext; [exact Xt|]. apply ER_skip'; [apply En | assumption].
  - exists l, (VFix ys ls i r0). split; [assumption|split; [cbn; auto | exact T]].
Qed.
Lemma EN_deads us : forall W G pl r w r' w' X, EN W G pl r w r' w' (us ++ X) -> exists W1, wext W W1 /\ EN W1 (adds RDead us G) pl r w r' w' X.
Proof.
  induction us as [|x us IH]; intros W G pl r w r' w' X En; [exists W; split; [apply wext_refl | exact En]|].
  destruct (EN_dead _ _ _ _ _ _ _ _ _ En) as (W1 & X1 & En1). destruct (IH _ _ _ _ _ _ _ _ En1) as (W2 & X2 & En2). exists W2. split; [eapply wext_trans; eauto | exact En2].
Qed.
Lemma EN_cells cs : forall W G pl r w r' w' X, EN W G pl r w r' w' (cs ++ X) ->
  exists W1 r1' h1', wext W W1 /\ bind MCells cs (map (fun _ => VC CVoid) cs) r' (hp w') = Some (r1', h1') /\ EN W1 (adds RCell cs G) pl r w r1' (set_hp w' h1') X.
Proof.
  induction cs as [|x cs IH]; intros W G pl r w r' w' X En.
  - exists W, r', (hp w'). split; [apply wext_refl|split; [reflexivity|]]. rewrite set_hp_same. exact En.
  - destruct (EN_cell _ _ _ _ _ _ _ _ _ En) as (W1 & X1 & En1). destruct (IH _ _ _ _ _ _ _ _ En1) as (W2 & r2 & h2 & X2 & B2 & En2).
    exists W2, r2, h2. split; [eapply wext_trans; eauto|split; [exact B2 | exact En2]].
Qed.
Lemma EN_lates ss : forall vs W G pl r w r' w' X, EN W G pl r w r' w' (map fst ss ++ X) -> Forall2 (early W G r') (map src ss) vs ->
  exists W1 r1' h1', wext W W1 /\ bind MCells (map fst ss) vs r' (hp w') = Some (r1', h1') /\ EN W1 (adds RLate (map fst ss) G) (plans ss pl) r w r1' (set_hp w' h1') X.
Proof.
  induction ss as [|(x & ee) ss IH]; intros vs W G pl r w r' w' X En F; inversion F as [|e v es vs0 Ea F0]; subst.
  - exists W, r', (hp w'). split; [apply wext_refl|split; [reflexivity|]]. rewrite set_hp_same. exact En.
  - destruct (en_new _ _ _ _ _ _ _ _ En x (or_introl eq_refl)) as (GX & N & _).
    destruct (EN_late _ _ _ _ _ _ _ _ _ v En) as (W1 & X1 & En1 & T).
    assert (En2 := EN_plan _ _ _ _ _ _ _ _ x (src (x, ee)) v En1 GX (eq_trans (assq_cons _ _ _ _) (ltac:(rewrite id_eqb_refl; reflexivity))) T (early_ext _ _ _ _ _ _ _ X1 (early_in _ _ _ _ _ _ _ Ea N))).
    destruct (IH vs0 _ _ _ _ _ _ _ _ En2) as (W2 & r2 & h2 & X2 & B2 & En3).
    { clear - F0 X1 N. induction F0; constructor; auto. eapply early_ext; [exact X1|]. now apply early_in. }
    exists W2, r2, h2. split; [eapply wext_trans; eauto|split; [exact B2 | exact En3]].
Qed.
Lemma EN_fixes xs ls r0 ys : forall i W G pl r w w' X, EN W G pl r w r0 w' (ys ++ X) ->
  exists W1, wext W W1 /\ EN W1 (map (fun y => (y, RLate)) ys ++ G) pl r w (bind_fix_from i ys xs ls r0) w' X /\
    forall j y, nth_error ys j = Some y -> tval W1 (bind_fix_from i ys xs ls r0) y (VFix xs ls (i + j) r0).
Proof.
  induction ys as [|y ys IH]; intros i W G pl r w w' X En.
  - exists W. split; [apply wext_refl|split; [exact En|]]. intros [|j]; discriminate.
  - pose proof (en_nd _ _ _ _ _ _ _ _ En) as ND. cbn in ND. inversion ND as [|? ? NI ND2]; subst.
    apply (EN_perm _ _ _ _ _ _ _ _ (ys ++ y :: X)) in En; [|apply Permutation_middle]. destruct (IH (S i) _ _ _ _ _ _ _ En) as (W1 & X1 & En1 & T1).
    destruct (EN_fixv _ _ _ _ _ _ _ _ _ xs ls i r0 En1) as (W2 & X2 & En2 & T2). exists W2. split; [eapply wext_trans; eauto|split; [exact En2|]].
    intros [|j] z Nz.
    + injection Nz as <-. rewrite Nat.add_0_r. exact T2.
    + cbn [bind_fix_from]. replace (i + S j)%nat with (S i + j)%nat by lia. eapply tval_look; [|eapply tval_ext; [exact X2 | apply T1, Nz]].
      symmetry. apply lookup_skip. intros ->. apply NI. apply in_or_app. left. eapply nth_error_In; eauto.
Qed.
Lemma plans_incl ss : forall pl, incl (map due ss ++ pl) (plans ss pl).
Proof.
  induction ss as [|s ss IH]; intros pl x I; [exact I|]. cbn. apply IH. apply in_app_iff. cbn in I. destruct I as [<-|I]; [right; now left|].
  apply in_app_iff in I. destruct I; [now left | right; now right].
Qed.
Lemma SIL_early_fix W G ss ls r0 : SIL (map (fun s => (fst s, RLate)) ss ++ G) ss -> map tgt ss = lams_of ls -> forall s j, nth_error ss j = Some s -> is_lam (src s) = true ->
  early W (map (fun s => (fst s, RLate)) ss ++ G) (bind_fix (map fst ss) ls r0) (src s) (VFix (map fst ss) ls j r0).
Proof.
  intros Si E s j Ns Il. assert (Gen : forall G2 l, SIL G2 l -> forall i x, nth_error l i = Some x -> is_lam (src x) = true -> exists xs b xs' b', src x = ELam xs b /\ tgt x = ELam xs' b' /\ FX G2 [] (ELam xs b) (ELam xs' b')).
  { clear. induction 1; intros [|i] s E L; try discriminate E; cbn [nth_error] in E; eauto; injection E as <-; cbn in L |- *; try discriminate. eauto 8. }
  destruct (Gen _ _ Si _ _ Ns Il) as (xs & b & xs' & b' & Q1 & Q2 & F). rewrite Q1. eapply ea_fix; [|exact F | intros z p Q; auto].
  assert (M : nth_error (map tgt ss) j = Some (tgt s)) by (rewrite nth_error_map, Ns; reflexivity). rewrite E, Q2 in M. unfold lams_of in M. rewrite nth_error_map in M.
  destruct (nth_error ls j) as [(a & c)|]; [|discriminate]. injection M as -> ->. reflexivity.
Qed.
Lemma FW_run G lams T b' G1 : FW G lams T b' G1 -> forall W pl r w r' w' X k' (Q : state -> Prop), EN W G pl r w r' w' (map fst lams ++ X) ->
  (forall W1 pl1 r1' w1', wext W W1 -> EN W1 G1 pl1 r w r1' w1' X -> incl (map due lams ++ pl) pl1 -> Q (Ev b' r1' k' w1')) ->
  inev P MCells (out w') Q (Ev T r' k' w').
Proof.
  induction 1 as [G b|G ss ls T b G1 Si Fw IH|G ss ls b Si El Fl]; intros W pl r w r' w' X k' Q En HQ.
  - apply inev_now. eapply HQ; [apply wext_refl | exact En | intros x I; exact I].
  - rewrite map_app, <- app_assoc in En. destruct (SIL_vals _ _ Si _ _ _ _ _ _ (en_er _ _ _ _ _ _ _ _ En) (en_sr _ _ _ _ _ _ _ _ En)) as (vs & Ca & Ea).
    destruct (EN_lates _ _ _ _ _ _ _ _ _ _ En Ea) as (W1 & r1' & h1' & X1 & B1 & En1).
    eapply inev_let; [exact Ca | exact B1|]. change (out w') with (out (set_hp w' h1')). eapply IH; [exact En1|].
    intros W2 pl2 r2' w2' X2 En2 I2. eapply HQ; [eapply wext_trans; eauto | exact En2|]. intros x I. apply I2. rewrite map_app, <- app_assoc in I.
    apply in_app_iff in I. destruct I as [I|I].
    + apply in_app_iff. right. apply plans_incl, in_app_iff. now left.
    + apply in_app_iff in I. apply in_app_iff. destruct I as [I|I]; [now left | right]. apply plans_incl, in_app_iff. now right.
  - eapply inev_ev; [reflexivity | reflexivity|]. apply inev_now.
    destruct (EN_fixes (map fst ss) ls r' (map fst ss) 0 _ _ _ _ _ _ _ En) as (W1 & X1 & En1 & T1). fold (bind_fix (map fst ss) ls r') in En1, T1.
    rewrite map_map in En1.
    apply (HQ W1 (map due ss ++ pl)); [exact X1 | | intros x I; exact I].
    assert (Gen : forall l, incl l ss -> EN W1 (map (fun s => (fst s, RLate)) ss ++ G) (map due l ++ pl) r w (bind_fix (map fst ss) ls r') w' X); [|apply Gen, incl_refl].
    induction l as [|s l IH]; intros I; [exact En1|]. assert (Is : In s ss) by (apply I; now left). apply In_nth_error in Is. destruct Is as (j & Nj).
    cbn [map app]. unfold due at 1. destruct (en_new _ _ _ _ _ _ _ _ En (fst s)) as (GX & _).
    { apply in_app_iff. left. apply in_map. eapply nth_error_In; eauto. }
    eapply EN_plan with (v := VFix (map fst ss) ls j r').
    + apply IH. intros x Ix. apply I. now right.
    + exact GX.
    + rewrite assq_app. assert (Z : assq (fst s) (map (fun s => (fst s, RLate)) ss) = Some RLate); [|now rewrite Z].
      apply nth_error_In in Nj. clear - Nj. induction ss as [|a ss IH]; [easy|]. cbn. destruct (id_eqb (fst s) (fst a)) eqn:Z; [reflexivity|]. destruct Nj as [->|Nj]; [now rewrite id_eqb_refl in Z | auto].
    + apply (T1 j). rewrite nth_error_map, Nj. reflexivity.
    + eapply SIL_early_fix; eauto. rewrite Forall_forall in Fl. apply Fl. eapply nth_error_In; eauto.
Qed.
End Env.
