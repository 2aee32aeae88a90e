(** Inlined globals: the simulation. *)
From Coq Require Import ZArith List Bool Lia.
From Verif Require Import Model_Lit Model_Core Model_Globals Spec_Sem Spec_Free Spec_Lift Spec_Fold Spec_Letrec Spec_Globals Proofs_Sim Proofs_Core Proofs_Free Proofs_SimOn Proofs_Agree Proofs_GlobalsSem.
Import ListNotations.
Open Scope Z_scope.

Section Run.
Variable P : prim -> script.
Variable inl : id -> option exp.
Variable gone : id -> Prop.
Variable def : id -> exp.
Notation tr := (tr P inl gone def).
Notation inlv := (inlv P).
Notation means := (means P inl gone def).

Inductive VR : val -> val -> Prop :=
| VR_c c : VR (VC c) (VC c)
| VR_loc l : VR (VLoc l) (VLoc l)
| VR_clo xs b b' r r' : tr b b' -> (forall x, free_in x (ELam xs b) -> global_id x = false -> OR (lookup r x) (lookup r' x)) ->
    VR (VClo xs b r) (VClo xs b' r')
| VR_fix xs ls ls' i r r' : Forall2 (fun l l' => fst l' = fst l /\ tr (snd l) (snd l')) ls ls' ->
    (forall x, free_in x (EFix xs ls void_exp) -> global_id x = false -> OR (lookup r x) (lookup r' x)) -> VR (VFix xs ls i r) (VFix xs ls' i r')
| VR_cont k k' : KR k k' -> VR (VCont k) (VCont k')
with OR : option val -> option val -> Prop :=
| OR_none : OR None None
| OR_some v v' : VR v v' -> OR (Some v) (Some v')
with SL : list slot -> list slot -> Prop :=
| SL_nil : SL [] []
| SL_done v v' l l' : VR v v' -> SL l l' -> SL (SDone v :: l) (SDone v' :: l')
| SL_todo e e' l l' : tr e e' -> SL l l' -> SL (STodo e :: l) (STodo e' :: l')
with KR : kont -> kont -> Prop :=
| KR_nil : KR [] []
| KR_cons o o' a b a' b' r r' k k' : OP o o' -> SL a a' -> SL b b' ->
    (forall x, need o (a ++ b) x -> global_id x = false -> OR (lookup r x) (lookup r' x)) -> KR k k' ->
    KR (Fr o a b r :: k) (Fr o' a' b' r' :: k')
| KR_ident x r r0 k k' : global_id x = false -> KR k k' -> KR (Fr OApp [SDone (VClo [x] (EVar x) r)] [] r0 :: k) k'
with OP : oper -> oper -> Prop :=
| OP_if b b' c c' : tr b b' -> tr c c' -> OP (OIf b c) (OIf b' c')
| OP_set x : global_id x = true -> inl x = None -> OP (OSet x) (OSet x)
| OP_prim ef p : OP (OPrim ef p) (OPrim ef p)
| OP_app : OP OApp OApp
| OP_with e e' : tr e e' -> OP (OWith e) (OWith e').
Definition agr (F : id -> Prop) (r r' : env) : Prop := forall x, F x -> global_id x = false -> OR (lookup r x) (lookup r' x).
Definition SR (w w' : st) : Prop :=
  Forall2 (Forall2 VR) (hp w) (hp w') /\ (forall x, ~ gone x -> VR (gl w x) (gl w' x)) /\ out w = out w' /\ inp w = inp w'.
Inductive RR : state -> state -> Prop :=
| RR_ev e e' r r' k k' w w' : tr e e' -> agr (fun x => free_in x e) r r' -> KR k k' -> SR w w' -> RR (Ev e r k w) (Ev e' r' k' w')
| RR_args o o' l l' r r' k k' w w' : OP o o' -> agr (need o l) r r' -> SL l l' -> KR k k' -> SR w w' -> RR (Args o l r k w) (Args o' l' r' k' w')
| RR_ret v v' k k' w w' : VR v v' -> KR k k' -> SR w w' -> RR (Ret v k w) (Ret v' k' w')
| RR_halt v v' w w' : VR v v' -> SR w w' -> RR (Halted v w) (Halted v' w').

Lemma VR_shape v v' : VR v v' -> shape_of v = shape_of v'.
Proof. destruct 1; reflexivity. Qed.
Lemma VR_true v v' : VR v v' -> is_true v = is_true v'.
Proof. destruct 1; reflexivity. Qed.
Lemma VR_plain v v' : VR v v' -> (forall l, v <> VRef l) /\ forall l, v' <> VRef l.
Proof. destruct 1; split; discriminate. Qed.
Lemma run_SR p rs rs' s t v s1 : SR s t -> Forall2 VR rs rs' -> run p rs s = Some (v, s1) ->
  exists v' t1, run p rs' t = Some (v', t1) /\ SR s1 t1 /\ VR v v'.
Proof.
  intros S F E.
  destruct (run_rel unit (fun _ _ => True) (fun _ => VR) (fun _ => SR)) with (p := p) (w := tt) (rs := rs) (rs' := rs') (s := s) (t := t) (v := v) (s1 := s1)
    as (_ & v' & t1 & A & _ & B & C); eauto.
  - intros. constructor.
  - intros. now apply VR_shape.
  - intros _ _ _ v0 v0' u u' b _ V U. destruct V, U; cbn; intros X; auto.
  - intros _ s0 t0 vs vs' (H & G & O & I) Fv. exists tt. split; [exact Logic.I|]. split.
    + split; [|split; [|split]]; cbn; auto. apply Forall2_app; auto.
    + rewrite (Forall2_len _ _ _ H). constructor.
  - intros _ s0 t0 l v0 b i u (H & G & O & I) V N1 N2. inversion V; subst.
    destruct (Forall2_nth _ _ _ _ _ H N1) as (b' & N1' & Fb). destruct (Forall2_nth _ _ _ _ _ Fb N2) as (u' & N2' & U).
    exists l, b', u'. auto.
  - intros _ s0 t0 l v0 b i u u' b1 h (H & G & O & I) V U N1 S1 S2. inversion V; subst.
    destruct (Forall2_nth _ _ _ _ _ H N1) as (b' & N1' & Fb). destruct (Forall2_set _ _ _ _ _ _ _ Fb U S1) as (b1' & S1' & Fb1).
    destruct (Forall2_set _ _ _ _ _ _ _ H Fb1 S2) as (h' & S2' & Fh). exists l, b', b1', h'.
    split; [reflexivity|split; [assumption|split; [assumption|split; [assumption|]]]]. split; cbn; auto.
  - intros _ s0 t0 (H & G & O & I). auto.
  - intros _ s0 t0 o i (H & G & O & I). split; cbn; auto.
Qed.
Lemma bind_VR xs : forall vs vs' r r' h r1 h1, Forall2 VR vs vs' -> bind MDirect xs vs r h = Some (r1, h1) ->
  h1 = h /\ exists r1', (forall h', bind MDirect xs vs' r' h' = Some (r1', h')) /\
    forall x, In x xs \/ OR (lookup r x) (lookup r' x) -> OR (lookup r1 x) (lookup r1' x).
Proof.
  induction xs as [|x xs IH]; intros vs vs' r r' h r1 h1 F E; destruct F as [|v v' vs vs' V F]; cbn in E; try discriminate.
  - injection E as <- <-. split; [reflexivity|]. exists r'. split; [reflexivity|]. intros y [[]|]; assumption.
  - destruct (IH vs vs' _ ((x, v') :: r') _ _ _ F E) as (-> & r1' & B & L). split; [reflexivity|]. exists r1'. cbn. split; [assumption|].
    intros y Y. apply L. rewrite !lookup_cons. destruct (id_eqb y x) eqn:Q; [right; now constructor|].
    destruct Y as [[->|Y]|Y]; [now rewrite id_eqb_refl in Q | auto ..].
Qed.
Lemma bind_agr F xs vs vs' r r' h r1 h1 : Forall2 VR vs vs' -> bind MDirect xs vs r h = Some (r1, h1) -> agr (fun x => F x /\ ~ In x xs) r r' ->
  h1 = h /\ exists r1', (forall h', bind MDirect xs vs' r' h' = Some (r1', h')) /\ agr F r1 r1'.
Proof.
  intros V B A. destruct (bind_VR _ _ _ _ r' _ _ _ V B) as (-> & r1' & B' & L). split; [reflexivity|]. exists r1'. split; [assumption|].
  intros x Fx G. apply L. destruct (in_dec id_dec x xs); auto.
Qed.
Lemma fix_VR ys : forall i xs ls ls' r r' x, (forall j, VR (VFix xs ls j r) (VFix xs ls' j r')) ->
  (In x ys /\ exists v v', lookup (bind_fix_from i ys xs ls r) x = Some v /\ lookup (bind_fix_from i ys xs ls' r') x = Some v' /\ VR v v') \/
  (~ In x ys /\ lookup (bind_fix_from i ys xs ls r) x = lookup r x /\ lookup (bind_fix_from i ys xs ls' r') x = lookup r' x).
Proof.
  induction ys as [|y ys IH]; intros i xs ls ls' r r' x HR; cbn [bind_fix_from]; [right; cbn; auto|].
  rewrite !lookup_cons. destruct (id_eqb x y) eqn:E.
  - apply id_eqb_eq in E. subst y. left. split; [now left | eauto].
  - apply id_eqb_neq in E. destruct (IH (S i) xs ls ls' r r' x HR) as [(I & X)|(N & X)]; [left | right].
    + split; [now right | exact X].
    + split; [intros [Z|Z]; [now symmetry in Z | easy] | exact X].
Qed.
Lemma fix_agr xs ls ls' r r' (F : id -> Prop) : Forall2 (fun l l' => fst l' = fst l /\ tr (snd l) (snd l')) ls ls' ->
  agr (fun x => free_in x (EFix xs ls void_exp)) r r' ->
  (forall x, F x -> ~ In x xs -> global_id x = false -> OR (lookup r x) (lookup r' x)) -> agr F (bind_fix xs ls r) (bind_fix xs ls' r').
Proof.
  intros L A B x Fx G. unfold bind_fix.
  destruct (fix_VR xs 0 xs ls ls' r r' x) as [(I & v & v' & -> & -> & V)|(N & -> & ->)].
  - intros j. now constructor.
  - now constructor.
  - auto.
Qed.
Lemma SL_split l l' : SL l l' -> forall a e b, l' = a ++ STodo e :: b -> exists a0 e0 b0, l = a0 ++ STodo e0 :: b0 /\ tr e0 e /\ SL a0 a /\ SL b0 b.
Proof.
  induction 1 as [|v v' l l' V S IH|e0 e0' l l' T S IH]; intros a e b E.
  - now destruct a.
  - destruct a as [|x a]; [discriminate|]. injection E as <- E. destruct (IH _ _ _ E) as (a0 & e1 & b0 & -> & T & A & B).
    exists (SDone v :: a0), e1, b0. split; [reflexivity | split; [assumption | split; [now constructor | assumption]]].
  - destruct a as [|x a].
    + injection E as -> <-. exists [], e0, l. split; [reflexivity | split; [assumption | split; [constructor | assumption]]].
    + injection E as <- E. destruct (IH _ _ _ E) as (a0 & e1 & b0 & -> & T1 & A & B).
      exists (STodo e0 :: a0), e1, b0. split; [reflexivity | split; [assumption | split; [now constructor | assumption]]].
Qed.
Lemma SL_done_inv vs : forall l', SL (map SDone vs) l' -> exists vs', l' = map SDone vs' /\ Forall2 VR vs vs'.
Proof.
  induction vs as [|v vs IH]; intros l' S; inversion S; subst.
  - exists []. split; [reflexivity | constructor].
  - match goal with H : SL (map SDone _) _ |- _ => destruct (IH _ H) as (vs' & -> & F) end. exists (v' :: vs'). split; [reflexivity | now constructor].
Qed.
Lemma SL_app a a' b b' : SL a a' -> SL b b' -> SL (a ++ b) (a' ++ b').
Proof. induction 1; cbn; intros; [assumption | constructor; auto ..]. Qed.
Lemma SL_todos l l' : Forall2 tr l l' -> SL (map STodo l) (map STodo l').
Proof. induction 1; cbn; constructor; assumption. Qed.
Lemma SL_dones vs vs' : Forall2 VR vs vs' -> SL (map SDone vs) (map SDone vs').
Proof. induction 1; cbn; constructor; auto. Qed.
Lemma SL_todo_l l l' : SL l l' -> forall a e b, l = a ++ STodo e :: b -> exists a0 e0 b0, l' = a0 ++ STodo e0 :: b0.
Proof.
  induction 1 as [|v v' l l' V S IH|e0 e0' l l' T S IH]; intros a e b E.
  - now destruct a.
  - destruct a as [|x a]; [discriminate|]. injection E as <- E. destruct (IH _ _ _ E) as (a0 & e1 & b0 & ->). now exists (SDone v' :: a0), e1, b0.
  - destruct a as [|x a].
    + injection E as -> <-. now exists [], e0', l'.
    + injection E as <- E. destruct (IH _ _ _ E) as (a0 & e1 & b0 & ->). now exists (STodo e0' :: a0), e1, b0.
Qed.
Lemma tr_void : tr void_exp void_exp.
Proof. apply tr_prim. constructor. Qed.
Lemma no_need o vs x : need o (map SDone vs) x -> op_free x o.
Proof. intros [N|(e & I & _)]; [assumption|]. apply in_map_iff in I. destruct I as (? & ? & _). discriminate. Qed.
Lemma recv_KR v v' : VR v v' -> KR (recv v) (recv v').
Proof.
  intros V. unfold recv. apply KR_cons; [constructor; apply tr_void | repeat constructor; assumption | constructor | | constructor].
  intros x N. apply (no_need _ [v]) in N. destruct N as [N|? ? [] _ _]. inversion N.
Qed.
Lemma trap_KR : KR trap trap.
Proof. apply recv_KR. constructor. Qed.
Lemma kont_of_KR v v' : VR v v' -> KR (kont_of v) (kont_of v').
Proof. intros V. destruct V; try (apply recv_KR; now constructor). assumption. Qed.
Lemma SR_hp w w' h h' : SR w w' -> Forall2 (Forall2 VR) h h' -> SR (set_hp w h) (set_hp w' h').
Proof. intros (H & G & O & I) F. split; cbn; auto. Qed.
Lemma SR_gl w w' x v v' : SR w w' -> VR v v' -> SR (set_gl w x v) (set_gl w' x v').
Proof. intros (H & G & O & I) V. split; [|split; [|split]]; cbn; auto. intros y Y. destruct (id_eqb y x); auto. Qed.
Lemma set_hp_same w : set_hp w (hp w) = w.
Proof. now destruct w. Qed.
Lemma capturable_KR k k' : KR k k' -> capturable k = true -> capturable k' = true.
Proof.
  revert k'. induction k as [|[o a b r] k IH]; intros k' K; inversion K as [|? o' ? ? a' b' ? r' ? k1 OO La Lb _ K0|x r1 r0 k1 k1' G K0]; subst; [reflexivity| |exact (IH _ K0)].
  pose proof (IH _ K0) as K1. destruct OO; try exact K1. inversion La as [|v v' l l' V La0|e1 e1' l l' V La0]; subst; cbn [capturable]; [exact K1 | | exact K1].
  inversion La0; subst; [|destruct V; exact K1 ..]. destruct V; (exact K1 || auto).
Qed.
Lemma fire_RR o o' vs vs' r r' k k' w w' s : OP o o' -> agr (need o (map SDone vs)) r r' -> Forall2 VR vs vs' -> KR k k' -> SR w w' ->
  firef P MDirect o vs r k w = Some s -> exists t, firef P MDirect o' vs' r' k' w' = Some t /\ RR s t.
Proof.
  intros OO A F K S E.
  destruct OO as [b b' c c' Tb Tc|x G NI|ef p| |e e' T]; cbn [firef] in *.
  - destruct F as [|v v' vs vs' V [|]]; try discriminate. injection E as <-. rewrite <- (VR_true _ _ V). eexists. split; [reflexivity|].
    apply RR_ev; auto; [destruct (is_true v); assumption|]. intros x Fx. apply A. left. cbn. destruct (is_true v); auto.
  - destruct F as [|v v' vs vs' V [|]]; try discriminate. rewrite G in *.
    injection E as <-. eexists. split; [reflexivity|]. apply RR_ret; [constructor | assumption | now apply SR_gl].
  - destruct (zlist_dec p the_halt_prim) as [->|N].
    + destruct F as [|v v' vs vs' V [|]]; try discriminate. injection E as <-. eexists. split; [reflexivity|]. now apply RR_halt.
    + destruct (run (P p) vs w) as [(v & w1)|] eqn:R; [|discriminate]. injection E as <-.
      destruct (run_SR _ _ _ _ _ _ _ S F R) as (v' & t1 & -> & S1 & V). eexists. split; [reflexivity|]. now apply RR_ret.
  - destruct F as [|v v' vs vs' V F]; [discriminate|]. destruct V as [c|l|xs b b' r0 r0' T A0|xs ls ls' i r0 r0' L A0|k1 k1' K1]; try discriminate.
    + destruct (bind MDirect xs vs r0 (hp w)) as [(r1 & h1)|] eqn:B; [|discriminate]. assert (s = Ev b r1 k (set_hp w h1)) by congruence. subst s. clear E.
      destruct (bind_agr (fun x => free_in x b) xs _ _ r0 r0' _ _ _ F B) as (-> & r1' & B' & L).
      { intros x (Fx & NI) G. apply A0; [|assumption]. eapply free_part; [now left | exact NI | exact Fx]. }
      rewrite B'. eexists. split; [reflexivity|]. rewrite !set_hp_same. now apply RR_ev.
    + destruct (nth_error ls i) as [(xs' & b)|] eqn:N; [|discriminate]. destruct (Forall2_nth _ _ _ _ _ L N) as ((xs2 & b') & N' & X & T). cbn [fst snd] in X, T. subst xs2. rewrite N'.
      destruct (bind MDirect xs' vs (bind_fix xs ls r0) (hp w)) as [(r1 & h1)|] eqn:B; [|discriminate]. assert (s = Ev b r1 k (set_hp w h1)) by congruence. subst s. clear E.
      destruct (bind_agr (fun x => free_in x b) xs' _ _ _ (bind_fix xs ls' r0') _ _ _ F B) as (-> & r1' & B' & L1).
      { apply (fix_agr xs ls ls' r0 r0' (fun x => free_in x b /\ ~ In x xs')); [assumption | exact A0|].
        intros y (Fy & Iy) Ny Gy. apply A0; [|assumption]. apply free_part with (xs ++ xs') b.
        * right. apply nth_error_In in N. apply in_map_iff. now exists (xs', b).
        * rewrite in_app_iff. tauto.
        * assumption. }
      rewrite B'. eexists. split; [reflexivity|]. rewrite !set_hp_same. now apply RR_ev.
    + apply throwf_inv in E. destruct E as [(u & -> & ->)|(e & p & r0 & N & -> & ->)].
      * inversion F as [|? u' ? ? U F0]; subst. inversion F0; subst. eexists. split; [reflexivity|]. now apply RR_ret.
      * inversion K1 as [|? o' ? ? a' b' ? r'1 ? ? OO La Lb _ K0|]; subst. inversion OO as [| | | |? e' T]; subst. inversion K0; subst. inversion Lb; subst. inversion La as [|? p' ? ? Vp La0|]; subst. inversion La0; subst.
        exists (Args OApp (map SDone (p' :: vs')) [] trap w'). split.
        -- apply Forall2_len in F. destruct vs' as [|? [|]]; cbn in F; [reflexivity | congruence | reflexivity].
        -- apply RR_args; [constructor | | apply SL_dones; now constructor | apply trap_KR | assumption].
           intros x N0. apply no_need in N0. destruct N0.
  - destruct F as [|v v' vs vs' V F]; try discriminate. destruct F as [|u u' vs vs' U [|]]; try discriminate.
    + injection E as <-. eexists. split; [reflexivity|]. apply RR_ev; [assumption | intros x Fx; apply A; now left | now apply kont_of_KR | assumption].
    + injection E as <-. eexists. split; [reflexivity|]. apply RR_args; [constructor | | apply (SL_dones [v; u] [v'; u']); auto | apply trap_KR | assumption].
      intros x N0. apply (no_need _ [v; u]) in N0. destruct N0.
Qed.

(** ** The value of an inlined expression in the new program *)
Hypothesis void_ok : makes P the_void_prim CVoid.
Notation inev := (inev P MDirect).
Lemma inl_run e v r' : means e v -> inlv e -> exists v', VR v v' /\ forall k w, inev (out w) (fun t => t = Ret v' k w) (Ev e r' k w).
Proof.
  induction 1 as [p c H|xs b b' r T C S|e v M IH|x e v M IH]; intros V.
  - inversion V; subst. exists (VC c). split; [constructor|]. intros k w. eapply inev_ev; [reflexivity | reflexivity|].
    apply (inev_fire P MDirect (out w) _ (OPrim ENo p) [] r' k w (Ret (VC c) k w)); [reflexivity | | now apply inev_now].
    cbn [firef]. destruct (zlist_dec p the_halt_prim); [easy|]. now rewrite H.
  - exists (VClo xs b' r'). split.
    + constructor; [assumption|]. intros x Fx G. rewrite (C x Fx) in G. discriminate.
    + intros k w. eapply inev_ev; [reflexivity | reflexivity | now apply inev_now].
  - inversion V; subst. destruct IH as (v' & Vr & H); [assumption|]. exists v'. split; [assumption|]. intros k w. eapply inev_ev; [reflexivity | reflexivity|]. cbn [map].
    apply inev_det with (Ev (ELam [] e) r' (Fr OApp [] [] r' :: k) w); [reflexivity | apply (st_pick P MDirect OApp [] (ELam [] e) []) | |].
    { intros t' S. apply step_args in S. destruct S as [(a & e1 & b & E & ->)|(vs & E & _)]; [|destruct vs; discriminate]. destruct a as [|? []]; [|discriminate..]. now injection E as <- <-. }
    eapply inev_ev; [reflexivity | reflexivity|]. apply inev_ret; [reflexivity|]. cbn [app].
    apply (inev_fire P MDirect (out w) _ OApp [VClo [] e r'] r' k w (Ev e r' k w)); [reflexivity | cbn; now rewrite set_hp_same | apply H].
  - inversion V; subst. destruct IH as (v' & Vr & H); [assumption|]. exists v'. split; [assumption|]. intros k w. eapply inev_ev; [reflexivity | reflexivity|]. cbn [map].
    eapply inev_trans; [|apply (inev_operands P MDirect (out w) OApp r' k
      (fun l w1 => w1 = w /\ exists a b, l = [a; b] /\ (a = STodo (ELam [x] (EVar x)) \/ a = SDone (VClo [x] (EVar x) r')) /\ (b = STodo e \/ b = SDone v')))].
    + cbn beta. intros t (vs & w' & -> & -> & a & b & E & [A|A] & [B|B]); subst; try (destruct vs as [|? [|? []]]; discriminate).
      destruct vs as [|p [|u []]]; try discriminate. injection E as -> ->.
      apply (inev_fire P MDirect (out w) _ OApp [VClo [x] (EVar x) r'; v'] r' k w (Ev (EVar x) ((x, v') :: r') k w)); [reflexivity | cbn; now rewrite set_hp_same|].
      apply inev_ev with (Ret v' k w); [reflexivity | | now apply inev_now]. cbn [evf]. unfold read_var. rewrite lookup_cons, id_eqb_refl.
      match goal with G : global_id x = false |- _ => rewrite G end. destruct (VR_plain _ _ Vr) as (_ & NR). destruct v'; try reflexivity. now contradiction (NR l).
    + intros a e1 b w1 k1 (-> & a1 & b1 & E & A & B). destruct a as [|s [|]].
      * injection E as <- ->. destruct A as [A|A]; [|discriminate]. injection A as ->. eapply inev_ev; [reflexivity | reflexivity|]. apply inev_now. exists (VClo [x] (EVar x) r'), w.
        split; [reflexivity|]. split; [reflexivity|]. eexists _, _. split; [reflexivity|]. auto.
      * injection E as -> <- ->. destruct B as [B|B]; [|discriminate]. injection B as ->. eapply inev_impl; [|apply H]. cbn beta. intros t ->. exists v', w.
        split; [reflexivity|]. split; [reflexivity|]. eexists _, _. split; [reflexivity|]. auto.
      * destruct l; discriminate.
    + now intros l w1 (-> & _).
    + split; [reflexivity|]. eexists _, _. split; [reflexivity|]. auto.
Qed.

(** ** The simulation *)
Hypothesis inl_ok : forall x e, inl x = Some e -> global_id x = true /\ inlv e /\ tr (def x) e /\ ag_simple (def x) = true /\ closed (def x).
Hypothesis gone_inl : forall x, gone x -> exists e, inl x = Some e.
Variable s0 : state.
Hypothesis timely : forall x e s, inl x = Some e -> early P x s0 s -> forall r k w, s <> Ev (EVar x) r k w.
Variable vis : id -> Prop.
Hypothesis vis_ok : forall x, vis x -> ~ gone x.
Notation inv := (inv P inl gone def s0).
Notation quiet := (quiet inl).
Notation qstar := (qstar P inl).
Notation step := (step P MDirect).
Notation star := (star P MDirect).
Notation wrong := (wrong P MDirect).
Definition RG (n : nat) (s t : state) : Prop := RR s t /\ inv s.
Notation good_on := (good_on P vis RG).
Notation next := (next P MDirect RG).

Lemma nx n s s1 t1 : inv s -> step s s1 -> quiet s -> RR s1 t1 -> next n s t1.
Proof. intros I S Q X. eapply next_one with (n' := O); [exact S|]. split; [assumption|]. eapply inv_step; eauto. Qed.
Lemma nx_star n s s1 s2 t1 : inv s -> step s s1 -> quiet s -> qstar s1 s2 -> RR s2 t1 -> next n s t1.
Proof.
  intros I S Q Q1 X. right. exists O, s2. split.
  - split; [assumption|]. eapply inv_qstar; [exact Q1|]. eapply inv_step; eauto.
  - left. econstructor; [exact S | eapply qstar_star; exact Q1].
Qed.
Lemma same_end_ret v v' w w' : VR v v' -> SR w w' -> same_end_on P vis (Ret v [] w) (Ret v' [] w').
Proof.
  intros V (H & G & O & I). exists (Ret v [] w), v, v'. split; [constructor|]. split; [constructor|]. split; [constructor|]. split; [now apply VR_shape|].
  split; [exact O|]. intros x X. apply VR_shape, G. auto.
Qed.
Lemma same_end_halt v v' w w' : VR v v' -> SR w w' -> same_end_on P vis (Halted v w) (Halted v' w').
Proof.
  intros V (H & G & O & I). exists (Halted v w), v, v'. split; [constructor|]. split; [constructor|]. split; [constructor|]. split; [now apply VR_shape|].
  split; [exact O|]. intros x X. apply VR_shape, G. auto.
Qed.
Lemma op_quiet o o' vs r k w : OP o o' -> quiet (Args o (map SDone vs) r k w).
Proof. destruct 1; try (apply quiet_op; discriminate). now apply quiet_set. Qed.
Lemma args_good n o o' l l' r r' k k' w w' : OP o o' -> agr (need o l) r r' -> SL l l' -> KR k k' -> SR w w' -> inv (Args o l r k w) ->
  good_on n (Args o l r k w) (Args o' l' r' k' w').
Proof.
  intros OO A L K S I. apply good_good_on. apply good_args.
  - intros a e b El. destruct (SL_split _ _ L _ _ _ El) as (a0 & e0 & b0 & -> & T & La & Lb). apply inev_now.
    eapply nx; [exact I | constructor | eapply quiet_todo; apply in_elt|]. apply RR_ev; [assumption | | | assumption].
    + intros x Fx. apply A. right. exists e0. split; [apply in_elt | assumption].
    + apply KR_cons; auto. intros x [N|(e' & J & Fx)] G; apply A; auto; [now left | right]. exists e'. split; [|assumption].
      apply in_app_iff in J. apply in_app_iff. cbn. tauto.
  - intros vs ->. destruct (SL_done_inv _ _ L) as (vs' & -> & F). exists vs'. split; [reflexivity|]. intros s1 E.
    destruct (fire_RR _ _ _ _ _ _ _ _ _ _ _ OO A F K S E) as (t1 & E1 & R1). exists t1. split; [assumption|].
    apply inev_now. eapply nx; [exact I | apply st_fire; apply fire_firef; exact E | eapply op_quiet; exact OO | exact R1].
  - intros a e b ->. destruct (SL_todo_l _ _ L _ _ _ eq_refl) as (a0 & e0 & b0 & ->). eauto.
Qed.
Lemma ret_good n k : forall v v' k' w w', VR v v' -> KR k k' -> SR w w' -> inv (Ret v k w) -> good_on n (Ret v k w) (Ret v' k' w').
Proof.
  induction k as [|f k IH]; intros v v' k' w w' V K S I; inversion K as [|o o' a b a' b' r r' k1 k1' OO La Lb A K1|x r r0 k1 k1' G K1]; subst.
  - right; left. now apply same_end_ret.
  - apply good_good_on, good_ret, inev_now. eapply nx; [exact I | constructor | apply quiet_ret|]. apply RR_args; auto.
    + intros x [N|(e' & J & Fx)] G; apply A; auto; [now left | right]. exists e'. split; [|assumption].
      apply in_app_iff in J. apply in_app_iff. cbn in J. destruct J as [J|[J|J]]; [auto | discriminate | auto].
    + apply SL_app; [assumption | now constructor].
  - assert (Q : qstar (Ret v (Fr OApp [SDone (VClo [x] (EVar x) r)] [] r0 :: k) w) (Ret v k w)) by (apply ident_ret; [assumption | apply (VR_plain _ _ V)]).
    eapply good_on_star; [eapply qstar_star; exact Q|]. apply IH; auto. eapply inv_qstar; [exact Q | exact I].
Qed.
Lemma part0 e e' r r' : In ([], e') (parts e) -> agr (fun x => free_in x e) r r' -> agr (fun x => free_in x e') r r'.
Proof. intros I A x Fx. apply A. eapply free_part; eauto. Qed.
Lemma ops_good n e o l e' o' l' r r' k k' w w' : decomp e = Some (o, l) -> decomp e' = Some (o', l') -> OP o o' -> Forall2 tr l l' ->
  agr (fun x => free_in x e) r r' -> KR k k' -> SR w w' -> inv (Ev e r k w) -> good_on n (Ev e r k w) (Ev e' r' k' w').
Proof.
  intros D D' OO F A K S I. right; right. split; [eexists; apply st_args; exact D'|]. intros t' St.
  assert (t' = Args o' (map STodo l') r' k' w') as ->. { inversion St; subst; cbn in D'; try discriminate. congruence. }
  apply inev_now. eapply nx; [exact I | apply st_args; exact D | apply quiet_ev|]. apply RR_args; auto; [|now apply SL_todos].
  intros x N G. apply A; [|assumption].
  assert (NF : forall e1, In e1 l -> free_in x e1 -> free_in x e).
  { intros e1 J Fe. destruct e; cbn in D; try discriminate; injection D as <- <-; (apply free_part with [] e1; [|easy|assumption]).
    - destruct J as [->|[]]. now left.
    - destruct J as [->|[]]. now left.
    - cbn. apply in_map, J.
    - cbn. destruct J as [->|J]; [now left | right; apply in_map, J].
    - destruct J as [->|[]]. now left. }
  destruct N as [N|(e2 & J & Fe)].
  - destruct e; cbn in D; try discriminate; injection D as <- <-; cbn in N; try easy.
    + subst. apply free_here. constructor.
    + destruct N; [apply free_part with [] e2 | apply free_part with [] e3]; cbn; auto.
    + apply free_part with [] e2; cbn; auto.
  - apply in_map_iff in J. destruct J as (e3 & [= ->] & J). eauto.
Qed.
Lemma set_inl x e v r k w : inl x = Some e -> means e v -> inv (Args (OSet x) [SDone v] r k w) -> inv (Ret (VC CVoid) k (set_gl w x v)).
Proof.
  intros L M I y d Ly. cbn [mem]. destruct (id_eqb y x) eqn:E.
  - apply id_eqb_eq in E. subst y. assert (d = e) by congruence. subst d. left. cbn [gl set_gl]. now rewrite id_eqb_refl.
  - destruct (I y d Ly) as [My|Ey]; [left; cbn [gl set_gl]; now rewrite E | right]. destruct (inl_ok _ _ L) as (G & _).
    eapply ea_step; [exact Ey | apply (st_fire P MDirect (OSet x) [v]); now constructor|]. intros vs r1 k1 w1 X. injection X as -> _ _ _ _. now rewrite id_eqb_refl in E.
Qed.
(** the assignment of an inlined variable in the old program *)
Lemma set_def x e d e1 r k w : inl x = Some e -> d = def x -> tr d e1 -> inlv e1 -> inv (Ev (ESet x d) r k w) ->
  wrong (Ev (ESet x d) r k w) \/ exists v, plus P MDirect (Ev (ESet x d) r k w) (Ret (VC CVoid) k (set_gl w x v)) /\
    inv (Ret (VC CVoid) k (set_gl w x v)) /\ means e1 v.
Proof.
  intros L -> T1 V1 I. destruct (inl_ok _ _ L) as (G & Ve & T & Si & C).
  assert (Q0 : qstar (Ev (ESet x (def x)) r k w) (Ev (def x) r (Fr (OSet x) [] [] r :: k) w)).
  { eapply qs_step; [apply st_args; reflexivity | apply quiet_ev|]. apply qstar_one; [apply (st_pick P MDirect (OSet x) [] (def x) []) | apply quiet_todo with (e := def x); now left]. }
  destruct (eval_def P inl gone def inl_ok gone_inl s0 timely _ _ e (def x) (le_n _) (le_n _) T Ve Si C r (Fr (OSet x) [] [] r :: k) w) as [W|(v & Q & H)].
  { eapply inv_qstar; [exact Q0 | exact I]. }
  { left. eapply wrong_star; [eapply qstar_star; exact Q0 | exact W]. }
  right. exists v.
  assert (Q2 : qstar (Ev (ESet x (def x)) r k w) (Args (OSet x) [SDone v] r k w)).
  { eapply qstar_trans; [exact Q0|]. eapply qstar_trans; [exact Q|]. apply qstar_one; [apply (st_ret P MDirect v (OSet x) [] [] r k w) | apply quiet_ret]. }
  split; [|split; [|auto]].
  - eapply star_plus_trans; [eapply qstar_star; exact Q2|]. apply plus_one. apply (st_fire P MDirect (OSet x) [v]). now constructor.
  - eapply set_inl; [exact L | apply H; assumption|]. eapply inv_qstar; [exact Q2 | exact I].
Qed.
Lemma SR_gone w w' x v : gone x -> SR w w' -> SR (set_gl w x v) w'.
Proof.
  intros Gx (H & G & O & I). split; [|split; [|split]]; cbn; auto. intros y Y. destruct (id_eqb y x) eqn:E; auto. apply id_eqb_eq in E. now subst.
Qed.
Lemma inev_first o (Q : state -> Prop) t : inev o Q t -> ~ Q t -> (exists t1, step t t1) /\ forall t', step t t' -> inev o Q t'.
Proof. intros [t1 X|t1 t2 _ S H] N; [now apply N in X|]. eauto. Qed.
Lemma ev_good m : forall e e' r r' k k' w w' n, (esize e <= m)%nat -> tr e e' -> agr (fun x => free_in x e) r r' -> KR k k' -> SR w w' ->
  inv (Ev e r k w) -> good_on n (Ev e r k w) (Ev e' r' k' w').
Proof.
  induction m as [|m IH]; intros e e' r r' k k' w w' n L T A K S I; [destruct e; cbn in L; lia|].
  destruct T as [x NG|x e L1|x d e' Gx NG HI T|x Gx|b b' T|x d e' Gx T|a a' b b' c c' Ta Tb Tc|ef p l l' F|f f' l l' ND T F|xs b b' T|xs ls ls' b b' F T|x b b' T|k0 k0' e e' Tk T].
  - apply good_good_on, good_ev. intros s1 E. cbn [evf] in E |- *.
    assert (RV : exists v v', read_var MDirect r x w = Some v /\ read_var MDirect r' x w' = Some v' /\ VR v v').
    { destruct (read_var MDirect r x w) as [v|] eqn:Rv; [|discriminate]. exists v. unfold read_var in *. destruct S as (H & Gl & _).
      destruct (global_id x) eqn:G; [injection Rv as <-; eauto|].
      assert (OO : OR (lookup r x) (lookup r' x)) by (apply A; [apply free_here; constructor | assumption]).
      destruct OO as [|u u' U]; [discriminate|]. destruct U; injection Rv as <-; (eexists; split; [reflexivity|split; [reflexivity|now constructor]]). }
    destruct RV as (v & v' & R1 & -> & V). rewrite R1 in E. injection E as <-. eexists. split; [reflexivity|].
    apply inev_now. eapply nx; [exact I | constructor; exact R1 | apply quiet_ev|]. now apply RR_ret.
  - destruct (inl_ok _ _ L1) as (G & Ve & _). destruct (I x e L1) as [Mn|E]; [|exfalso; exact (timely x e _ L1 E r k w eq_refl)]. cbn [mem] in Mn.
    destruct (inl_run e _ r' Mn Ve) as (v' & V & H).
    right; right. destruct (inev_first _ _ _ (H k' w')) as (X & H1); [discriminate|]. split; [assumption|]. intros t' St. specialize (H1 t' St).
    eapply inev_impl; [|exact H1]. cbn beta. intros t ->. apply nx with (s1 := Ret (gl w x) k w); [exact I | constructor; unfold read_var; now rewrite G | apply quiet_ev|]. now apply RR_ret.
  - destruct (inl x) as [d0|] eqn:Lx.
    + destruct (HI d0 eq_refl) as (E & V1). destruct (set_def x d0 d e' r k w Lx E T V1 I) as [W|(v & Pl & I' & Mn)]; [now left|].
      destruct (inl_run e' _ r' Mn V1) as (v' & V & H). right; right. split; [eexists; apply st_args; reflexivity|]. intros t' St. apply step_evf in St. cbn in St. injection St as <-.
      apply inev_det with (Ev e' r' (Fr (OSet x) [] [] r' :: k') w'); [reflexivity | apply (st_pick P MDirect (OSet x) [] e' []) | |].
      { intros t' St. apply step_args in St. destruct St as [(a & e1 & b & X & ->)|(vs & X & _)]; [|destruct vs; discriminate]. destruct a as [|? []]; [|discriminate..]. now injection X as <- <-. }
      eapply inev_trans; [|apply H]. cbn beta. intros t ->. apply inev_ret; [reflexivity|]. cbn [app].
      apply (inev_fire P MDirect (out w') _ (OSet x) [v'] r' k' w' (Ret (VC CVoid) k' (set_gl w' x v'))); [reflexivity | cbn [firef]; now rewrite Gx|].
      apply inev_now. right. exists O, (Ret (VC CVoid) k (set_gl w x v)). split; [|now left]. split; [|assumption]. apply RR_ret; [constructor | assumption | now apply SR_gl].
    + eapply (ops_good n _ (OSet x) [d] _ (OSet x) [e']); eauto; try reflexivity. now constructor.
  - destruct (gone_inl x Gx) as (e & Lx). destruct (inl_ok _ _ Lx) as (G & Ve & T & _). destruct (set_def x e (def x) e r k w Lx eq_refl T Ve I) as [W|(v & Pl & I' & Mn)]; [now left|].
    right; right. split; [eexists; apply st_args; reflexivity|]. intros t' St. apply step_evf in St. cbn in St. injection St as <-. destruct void_ok as (N & V).
    apply (inev_fire P MDirect (out w') _ (OPrim ENo the_void_prim) [] r' k' w' (Ret (VC CVoid) k' w')); [reflexivity| |].
    { cbn [firef]. destruct (zlist_dec the_void_prim the_halt_prim) as [X|_]; [now apply N in X|]. now rewrite V. }
    apply inev_now. right. exists O, (Ret (VC CVoid) k (set_gl w x v)). split; [|now left]. split; [|assumption]. apply RR_ret; [constructor | assumption | now apply SR_gone].
  - assert (Q := null_let P inl b r k w). eapply good_on_star; [eapply qstar_star; exact Q|]. apply IH; auto.
    + cbn in L. lia.
    + apply (part0 (ELam [] b)); [now left|]. apply (part0 (EApp (ELam [] b) [])); [now left | assumption].
    + eapply inv_qstar; [exact Q | exact I].
  - assert (Q := ident_let P inl x d r k w). eapply good_on_star; [eapply qstar_star; exact Q|]. apply IH; auto.
    + cbn in L. lia.
    + apply (part0 (EApp (ELam [x] (EVar x)) [d])); [cbn; auto | assumption].
    + now apply KR_ident.
    + eapply inv_qstar; [exact Q | exact I].
  - eapply (ops_good n _ (OIf b c) [a] _ (OIf b' c') [a']); eauto; try reflexivity. now constructor.
  - eapply (ops_good n _ (OPrim ef p) l _ (OPrim ef p) l'); eauto; try reflexivity. constructor.
  - eapply (ops_good n _ OApp (f :: l) _ OApp (f' :: l')); eauto; try reflexivity. constructor.
  - apply good_good_on, good_ev. intros s1 E. cbn [evf] in E |- *. injection E as <-. eexists. split; [reflexivity|]. apply inev_now. eapply nx; [exact I | apply st_lam | apply quiet_ev|].
    apply RR_ret; auto. now constructor.
  - apply good_good_on, good_ev. intros s1 E. cbn [evf] in E |- *. injection E as <-. eexists. split; [reflexivity|]. apply inev_now. eapply nx; [exact I | apply st_fix | apply quiet_ev|].
    apply RR_ev; auto. apply fix_agr; auto.
    + intros x Fx. apply A. destruct Fx as [N|ys e1 J N Fx]; [inversion N|]. destruct J as [[= <- <-]|J].
      * exfalso. destruct Fx as [N'|? ? [] _ _]. inversion N'.
      * apply free_part with ys e1; [now right | assumption | assumption].
    + intros x Fx J. apply A. apply free_part with xs b; [now left | assumption | assumption].
  - apply good_good_on, good_ev. intros s1 E. cbn [evf bind] in E |- *. destruct (capturable k) eqn:Cp; [|discriminate]. rewrite (capturable_KR _ _ K Cp). injection E as <-. eexists. split; [reflexivity|].
    apply inev_now. eapply nx; [exact I | apply st_letcc; [exact Cp | reflexivity] | apply quiet_ev|]. rewrite !set_hp_same. apply RR_ev; auto.
    intros y Fy G. rewrite !lookup_cons. destruct (id_eqb y x) eqn:X; [constructor; now constructor|]. apply A; [|assumption]. apply id_eqb_neq in X. eapply free_part; [now left| |exact Fy]. intros [->|[]]; auto.
  - eapply (ops_good n _ (OWith e) [k0] _ (OWith e') [k0']); eauto; try reflexivity. now constructor.
Qed.
Lemma RG_out n s t : RG n s t -> out (mem s) = out (mem t).
Proof. intros (X & _). destruct X; cbn [mem]; match goal with S : SR _ _ |- _ => apply S end. Qed.
Lemma RG_good n s t : RG n s t -> good_on n s t.
Proof.
  intros (X & I). destruct X.
  - eapply ev_good; eauto.
  - now apply args_good.
  - now apply ret_good.
  - right; left. now apply same_end_halt.
Qed.
End Run.

Theorem tr_refines P inl gone def (vis : id -> Prop) e e' :
  makes P the_void_prim CVoid ->
  (forall x d, inl x = Some d -> global_id x = true /\ inlv P d /\ tr P inl gone def (def x) d /\ ag_simple (def x) = true /\ closed (def x)) ->
  (forall x, gone x -> exists d, inl x = Some d) -> (forall x, vis x -> ~ gone x) ->
  (forall g i x d s, inl x = Some d -> early P x (start e g i) s -> forall r k w, s <> Ev (EVar x) r k w) ->
  tr P inl gone def e e' -> refines_on vis P e e'.
Proof.
  intros V IO GI VO TI T g i. apply (simulation_on P vis (RG P inl gone def (start e g i))) with (n := O).
  - apply RG_out.
  - intros. eapply RG_good; eauto.
  - split.
    + apply RR_ev; [assumption | | constructor |].
      * intros x _ _. constructor.
      * split; [constructor|]. split; [intros x _; constructor|]. split; reflexivity.
    + intros x d L. right. constructor.
Qed.
