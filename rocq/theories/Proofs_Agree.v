(** Environments that agree on the free variables give the same runs. *)
From Coq Require Import ZArith List Bool Lia.
From Verif Require Import Model_Core Spec_Sem Spec_Free Proofs_Sim Proofs_Core Proofs_Free.
Import ListNotations.

Definition op_free (x : id) (o : oper) : Prop :=
  match o with OIf b c => free_in x b \/ free_in x c | OSet y => x = y | OWith e => free_in x e | _ => False end.
Definition need (o : oper) (l : list slot) (x : id) : Prop := op_free x o \/ exists e, In (STodo e) l /\ free_in x e.

Inductive vr : val -> val -> Prop :=
| vr_c c : vr (VC c) (VC c)
| vr_loc l : vr (VLoc l) (VLoc l)
| vr_ref l : vr (VRef l) (VRef l)
| vr_clo xs b r r' : (forall x, free_in x (ELam xs b) -> global_id x = false -> orel (lookup r x) (lookup r' x)) ->
    vr (VClo xs b r) (VClo xs b r')
| vr_fix xs ls i r r' : (forall x, free_in x (EFix xs ls void_exp) -> global_id x = false -> orel (lookup r x) (lookup r' x)) ->
    vr (VFix xs ls i r) (VFix xs ls i r')
| vr_cont k k' : kr k k' -> vr (VCont k) (VCont k')
with orel : option val -> option val -> Prop :=
| or_none : orel None None
| or_some v v' : vr v v' -> orel (Some v) (Some v')
with slr : list slot -> list slot -> Prop :=
| sl_nil : slr [] []
| sl_done v v' l l' : vr v v' -> slr l l' -> slr (SDone v :: l) (SDone v' :: l')
| sl_todo e l l' : slr l l' -> slr (STodo e :: l) (STodo e :: l')
with kr : kont -> kont -> Prop :=
| kr_nil : kr [] []
| kr_cons o a b a' b' r r' k k' : slr a a' -> slr b b' ->
    (forall x, need o (a ++ b) x -> global_id x = false -> orel (lookup r x) (lookup r' x)) -> kr k k' ->
    kr (Fr o a b r :: k) (Fr o a' b' r' :: k').
Definition agree (F : id -> Prop) (r r' : env) : Prop := forall x, F x -> global_id x = false -> orel (lookup r x) (lookup r' x).
Definition sr (w w' : st) : Prop :=
  Forall2 (Forall2 vr) (hp w) (hp w') /\ (forall x, vr (gl w x) (gl w' x)) /\ out w = out w' /\ inp w = inp w'.
Inductive RA : nat -> state -> state -> Prop :=
| ra_ev e r r' k k' w w' : agree (fun x => free_in x e) r r' -> kr k k' -> sr w w' -> RA 0 (Ev e r k w) (Ev e r' k' w')
| ra_args o l l' r r' k k' w w' : agree (need o l) r r' -> slr l l' -> kr k k' -> sr w w' -> RA 0 (Args o l r k w) (Args o l' r' k' w')
| ra_ret v v' k k' w w' : vr v v' -> kr k k' -> sr w w' -> RA 0 (Ret v k w) (Ret v' k' w')
| ra_halt v v' w w' : vr v v' -> sr w w' -> RA 0 (Halted v w) (Halted v' w').

Lemma vr_shape v v' : vr v v' -> shape_of v = shape_of v'.
Proof. destruct 1; reflexivity. Qed.
Lemma Forall2_nth {A B} (R : A -> B -> Prop) l l' i x : Forall2 R l l' -> nth_error l i = Some x -> exists y, nth_error l' i = Some y /\ R x y.
Proof. intros F. revert i. induction F; intros [|i] E; cbn in *; try discriminate; [injection E as <-; eauto | auto]. Qed.
Lemma Forall2_len {A B} (R : A -> B -> Prop) l l' : Forall2 R l l' -> length l = length l'.
Proof. induction 1; cbn; congruence. Qed.
Lemma Forall2_set {A B} (R : A -> B -> Prop) l l' i x y l1 : Forall2 R l l' -> R x y -> list_set l i x = Some l1 ->
  exists l1', list_set l' i y = Some l1' /\ Forall2 R l1 l1'.
Proof.
  intros F X. revert i l1. induction F as [|a b l l' Y F IH]; intros [|i] l1 E; cbn in *; try discriminate.
  - injection E as <-. eauto.
  - destruct (list_set l i x) eqn:S; [|discriminate]. cbn in E. injection E as <-.
    destruct (IH _ _ S) as (l2 & -> & F2). cbn. eauto.
Qed.
Lemma run_sr p rs rs' s t v s1 : sr s t -> Forall2 vr rs rs' -> run p rs s = Some (v, s1) ->
  exists v' t1, run p rs' t = Some (v', t1) /\ sr s1 t1 /\ vr v v'.
Proof.
  intros S F E.
  destruct (run_rel unit (fun _ _ => True) (fun _ => vr) (fun _ => sr)) with (p := p) (w := tt) (rs := rs) (rs' := rs') (s := s) (t := t) (v := v) (s1 := s1)
    as (_ & v' & t1 & A & _ & B & C); eauto.
  - intros. constructor.
  - intros. now apply vr_shape.
  - intros _ _ _ v0 v0' u u' b _ V U. destruct V, U; cbn; intros X; auto.
  - intros _ s0 t0 vs vs' (H & G & O & I) Fv. exists tt. split; [exact Logic.I|]. split.
    + split; [|split; [|split]]; cbn; auto. apply Forall2_app; auto.
    + rewrite (Forall2_len _ _ _ H). constructor.
  - intros _ s0 t0 l v0 b i u (H & G & O & I) V N1 N2. inversion V; subst.
    destruct (Forall2_nth _ _ _ _ _ H N1) as (b' & N1' & Fb). destruct (Forall2_nth _ _ _ _ _ Fb N2) as (u' & N2' & U).
    exists l, b', u'. auto.
  - intros _ s0 t0 l v0 b i u u' b1 h (H & G & O & I) V U N1 S1 S2. inversion V; subst.
    destruct (Forall2_nth _ _ _ _ _ H N1) as (b' & N1' & Fb). destruct (Forall2_set _ _ _ _ _ _ _ Fb U S1) as (b1' & S1' & Fb1).
    destruct (Forall2_set _ _ _ _ _ _ _ H Fb1 S2) as (h' & S2' & Fh). exists l, b', b1', h'.
    split; [reflexivity|split; [assumption|split; [assumption|split; [assumption|]]]]. split; cbn; auto.
  - intros _ s0 t0 (H & G & O & I). auto.
  - intros _ s0 t0 o i (H & G & O & I). split; cbn; auto.
Qed.

Lemma lookup_cons y v (r : env) x : lookup ((y, v) :: r) x = if id_eqb x y then Some v else lookup r x.
Proof. reflexivity. Qed.
Lemma bind_rel m xs : forall vs vs' r r' h h' r1 h1, Forall2 vr vs vs' -> Forall2 (Forall2 vr) h h' ->
  bind m xs vs r h = Some (r1, h1) -> exists r1' h1', bind m xs vs' r' h' = Some (r1', h1') /\ Forall2 (Forall2 vr) h1 h1' /\
    forall x, In x xs \/ orel (lookup r x) (lookup r' x) -> orel (lookup r1 x) (lookup r1' x).
Proof.
  induction xs as [|x xs IH]; intros vs vs' r r' h h' r1 h1 F H E; destruct F as [|v v' vs vs' V F]; cbn in E; try discriminate.
  - injection E as <- <-. exists r', h'. split; [reflexivity|split; [assumption|]]. intros y [[]|]; assumption.
  - destruct m.
    + assert (H2 : Forall2 (Forall2 vr) (h ++ [[v]]) (h' ++ [[v']])) by (apply Forall2_app; auto).
      destruct (IH vs vs' _ ((x, VRef (length h')) :: r') _ _ _ _ F H2 E) as (r1' & h1' & B & H1 & L).
      exists r1', h1'. cbn. split; [assumption|split; [assumption|]]. intros y Y. apply L. rewrite !lookup_cons.
      destruct (id_eqb y x) eqn:Q; [right; rewrite (Forall2_len _ _ _ H); repeat constructor|].
      destruct Y as [[->|Y]|Y]; [now rewrite id_eqb_refl in Q | auto ..].
    + assert (H2 : Forall2 (Forall2 vr) (h ++ [[v]]) (h' ++ [[v']])) by (apply Forall2_app; auto).
      destruct (IH vs vs' _ ((x, VRef (length h')) :: r') _ _ _ _ F H2 E) as (r1' & h1' & B & H1 & L).
      exists r1', h1'. cbn. split; [assumption|split; [assumption|]]. intros y Y. apply L. rewrite !lookup_cons.
      destruct (id_eqb y x) eqn:Q; [right; rewrite (Forall2_len _ _ _ H); repeat constructor|].
      destruct Y as [[->|Y]|Y]; [now rewrite id_eqb_refl in Q | auto ..].
    + destruct (IH vs vs' _ ((x, v') :: r') h h' _ _ F H E) as (r1' & h1' & B & H1 & L).
      exists r1', h1'. cbn. split; [assumption|split; [assumption|]]. intros y Y. apply L. rewrite !lookup_cons.
      destruct (id_eqb y x) eqn:Q; [right; now constructor|].
      destruct Y as [[->|Y]|Y]; [now rewrite id_eqb_refl in Q | auto ..].
Qed.
Lemma bind_fix_lookup (R : val -> val -> Prop) ys : forall i xs ls r r' x, (forall j, R (VFix xs ls j r) (VFix xs ls j r')) ->
  (In x ys /\ exists v v', lookup (bind_fix_from i ys xs ls r) x = Some v /\ lookup (bind_fix_from i ys xs ls r') x = Some v' /\ R v v') \/
  (~ In x ys /\ lookup (bind_fix_from i ys xs ls r) x = lookup r x /\ lookup (bind_fix_from i ys xs ls r') x = lookup r' x).
Proof.
  induction ys as [|y ys IH]; intros i xs ls r r' x HR; cbn [bind_fix_from]; [right; cbn; auto|].
  rewrite !lookup_cons. destruct (id_eqb x y) eqn:E.
  - apply id_eqb_eq in E. subst y. left. split; [now left | eauto].
  - apply id_eqb_neq in E. destruct (IH (S i) xs ls r r' x HR) as [(I & X)|(N & X)]; [left | right].
    + split; [now right | exact X].
    + split; [intros [Z|Z]; [now symmetry in Z | easy] | exact X].
Qed.
Lemma fix_agree xs ls r r' (F : id -> Prop) : agree (fun x => free_in x (EFix xs ls void_exp)) r r' ->
  (forall x, F x -> ~ In x xs -> global_id x = false -> orel (lookup r x) (lookup r' x)) -> agree F (bind_fix xs ls r) (bind_fix xs ls r').
Proof.
  intros A B x Fx G. unfold bind_fix.
  destruct (bind_fix_lookup vr xs 0 xs ls r r' x) as [(I & v & v' & -> & -> & V)|(N & -> & ->)].
  - intros j. now constructor.
  - now constructor.
  - auto.
Qed.

Lemma slr_split l l' : slr l l' -> forall a e b, l' = a ++ STodo e :: b -> exists a0 b0, l = a0 ++ STodo e :: b0 /\ slr a0 a /\ slr b0 b.
Proof.
  induction 1 as [|v v' l l' V S IH|e0 l l' S IH]; intros a e b E.
  - now destruct a.
  - destruct a as [|x a]; [discriminate|]. injection E as <- E. destruct (IH _ _ _ E) as (a0 & b0 & -> & A & B).
    exists (SDone v :: a0), b0. split; [reflexivity | split; [now constructor | assumption]].
  - destruct a as [|x a].
    + injection E as -> <-. exists [], l. split; [reflexivity | split; [constructor | assumption]].
    + injection E as <- E. destruct (IH _ _ _ E) as (a0 & b0 & -> & A & B).
      exists (STodo e0 :: a0), b0. split; [reflexivity | split; [now constructor | assumption]].
Qed.
Lemma slr_done vs : forall l', slr (map SDone vs) l' -> exists vs', l' = map SDone vs' /\ Forall2 vr vs vs'.
Proof.
  induction vs as [|v vs IH]; intros l' S; inversion S; subst.
  - exists []. split; [reflexivity | constructor].
  - destruct (IH _ H3) as (vs' & -> & F). exists (v' :: vs'). split; [reflexivity | now constructor].
Qed.
Lemma slr_app a a' b b' : slr a a' -> slr b b' -> slr (a ++ b) (a' ++ b').
Proof. induction 1; cbn; intros; [assumption | constructor; auto ..]. Qed.
Lemma slr_todo l : slr (map STodo l) (map STodo l).
Proof. induction l; cbn; constructor; assumption. Qed.
Lemma slr_todo_l l l' : slr l l' -> forall a e b, l = a ++ STodo e :: b -> exists a0 b0, l' = a0 ++ STodo e :: b0.
Proof.
  induction 1 as [|v v' l l' V S IH|e0 l l' S IH]; intros a e b E.
  - now destruct a.
  - destruct a as [|x a]; [discriminate|]. injection E as <- E. destruct (IH _ _ _ E) as (a0 & b0 & ->). now exists (SDone v' :: a0), b0.
  - destruct a as [|x a].
    + injection E as -> <-. now exists [], l'.
    + injection E as <- E. destruct (IH _ _ _ E) as (a0 & b0 & ->). now exists (STodo e0 :: a0), b0.
Qed.

Section Agree.
Variable P : prim -> script.
Variable m : mode.

Lemma vr_true v v' : vr v v' -> is_true v = is_true v'.
Proof. destruct 1; reflexivity. Qed.
Lemma sr_hp w w' h h' : sr w w' -> Forall2 (Forall2 vr) h h' -> sr (set_hp w h) (set_hp w' h').
Proof. intros (H & G & O & I) F. split; cbn; auto. Qed.
Lemma slr_dones vs vs' : Forall2 vr vs vs' -> slr (map SDone vs) (map SDone vs').
Proof. induction 1; cbn; constructor; auto. Qed.
Lemma recv_kr v v' : vr v v' -> kr (recv v) (recv v').
Proof.
  intros V. unfold recv. constructor; [repeat constructor; assumption | constructor | | constructor].
  intros x [N|(e & I & _)]; [|cbn in I; destruct I as [|[]]; discriminate]. destruct N as [N|? ? [] _ _]. inversion N.
Qed.
Lemma trap_kr : kr trap trap.
Proof. apply recv_kr. constructor. Qed.
Lemma kont_of_kr v v' : vr v v' -> kr (kont_of v) (kont_of v').
Proof. intros V. destruct V; try (apply recv_kr; now constructor). assumption. Qed.
Lemma fire_agree o vs vs' r r' k k' w w' s : agree (need o (map SDone vs)) r r' -> Forall2 vr vs vs' -> kr k k' -> sr w w' ->
  firef P m o vs r k w = Some s -> exists t, firef P m o vs' r' k' w' = Some t /\ RA 0 s t.
Proof.
  intros A F K S E.
  destruct o as [b c|x|ef p| |e]; cbn [firef] in *.
  - destruct F as [|v v' vs vs' V [|]]; try discriminate. injection E as <-. rewrite <- (vr_true _ _ V). eexists. split; [reflexivity|].
    constructor; auto. intros x Fx. apply A. left. cbn. destruct (is_true v); auto.
  - destruct F as [|v v' vs vs' V [|]]; try discriminate. destruct (global_id x) eqn:G.
    + injection E as <-. eexists. split; [reflexivity|]. constructor; [constructor | assumption|].
      destruct S as (H & Gl & O & I). split; [|split; [|split]]; cbn; auto. intros y. destruct (id_eqb y x); auto.
    + assert (L : orel (lookup r x) (lookup r' x)). { apply A; [now left | assumption]. }
      destruct L as [|u u' U]; [discriminate|]. destruct U; try discriminate.
      destruct (nth_error (hp w) l) as [[|u [|]]|] eqn:N; try discriminate.
      destruct (list_set (hp w) l [v]) eqn:LS; [|discriminate]. injection E as <-.
      destruct S as (H & S). destruct (Forall2_nth _ _ _ _ _ H N) as (b' & N' & FB). inversion FB as [|u1 u1' z z' U1 FB1]; subst. inversion FB1; subst. rewrite N'.
      destruct (Forall2_set _ _ _ _ _ [v'] _ H (Forall2_cons _ _ V (Forall2_nil _)) LS) as (h' & -> & H').
      eexists. split; [reflexivity|]. constructor; [assumption | assumption | split; cbn; auto].
  - destruct (zlist_dec p the_halt_prim) as [->|N].
    + destruct F as [|v v' vs vs' V [|]]; try discriminate. injection E as <-. eexists. split; [reflexivity|]. now constructor.
    + destruct (run (P p) vs w) as [(v & w1)|] eqn:R; [|discriminate]. injection E as <-.
      destruct (run_sr _ _ _ _ _ _ _ S F R) as (v' & t1 & -> & S1 & V). eexists. split; [reflexivity|]. now constructor.
  - destruct F as [|v v' vs vs' V F]; [discriminate|]. destruct V as [c|l|l|xs b r0 r0' A0|xs ls i r0 r0' A0|k1 k1' K1]; try discriminate.
    + destruct (bind m xs vs r0 (hp w)) as [(r1 & h1)|] eqn:B; [|discriminate]. injection E as <-.
      destruct (bind_rel m xs _ _ r0 r0' _ (hp w') _ _ F (proj1 S) B) as (r1' & h1' & -> & H & L).
      eexists. split; [reflexivity|]. constructor; [|assumption | now apply sr_hp]. intros x Fx G. apply L.
      destruct (in_dec id_dec x xs) as [I|I]; [now left | right]. apply A0; [|assumption]. eapply free_part; [now left | assumption..].
    + destruct (nth_error ls i) as [(xs' & b)|] eqn:N; [|discriminate].
      destruct (bind m xs' vs (bind_fix xs ls r0) (hp w)) as [(r1 & h1)|] eqn:B; [|discriminate]. injection E as <-.
      destruct (bind_rel m xs' _ _ _ (bind_fix xs ls r0') _ (hp w') _ _ F (proj1 S) B) as (r1' & h1' & -> & H & L).
      eexists. split; [reflexivity|]. constructor; [|assumption | now apply sr_hp]. intros x Fx G. apply L.
      destruct (in_dec id_dec x xs') as [I|I]; [now left | right].
      apply (fix_agree xs ls r0 r0' (fun x => free_in x b /\ ~ In x xs')); [exact A0 | | auto | assumption].
      intros y (Fy & Iy) Ny Gy. apply A0; [|assumption]. apply free_part with (xs ++ xs') b.
      * right. apply nth_error_In in N. apply in_map_iff. now exists (xs', b).
      * rewrite in_app_iff. tauto.
      * assumption.
    + apply throwf_inv in E. destruct E as [(u & -> & ->)|(e & p & r0 & N & -> & ->)].
      * inversion F as [|? u' ? ? U F0]; subst. inversion F0; subst. eexists. split; [reflexivity|]. now constructor.
      * inversion K1 as [|? ? ? a' b' ? r'1 ? ? La Lb _ K0]; subst. inversion K0; subst. inversion Lb; subst. inversion La as [|? p' ? ? Vp La0|]; subst. inversion La0; subst.
        exists (Args OApp (map SDone (p' :: vs')) [] trap w'). split.
        -- apply Forall2_len in F. destruct vs' as [|? [|]]; cbn in F; [reflexivity | congruence | reflexivity].
        -- constructor; [|apply slr_dones; now constructor | apply trap_kr | assumption].
           intros x [N0|(e0 & I & _)]; [destruct N0|]. apply in_map_iff in I. destruct I as (? & ? & _). discriminate.
  - destruct F as [|v v' vs vs' V F]; try discriminate. destruct F as [|u u' vs vs' U [|]]; try discriminate.
    + injection E as <-. eexists. split; [reflexivity|]. constructor; [intros x Fx; apply A; now left | now apply kont_of_kr | assumption].
    + injection E as <-. eexists. split; [reflexivity|]. constructor; [|apply (slr_dones [v; u] [v'; u']); auto | apply trap_kr | assumption].
      intros x [N0|(e0 & I & _)]; [destruct N0|]. cbn in I. destruct I as [|[|[]]]; discriminate.
Qed.

Lemma capturable_kr k k' : kr k k' -> capturable k = capturable k'.
Proof.
  revert k'. induction k as [|[o a b r] k IH]; intros k' K; inversion K as [|? ? ? a' b' ? r' ? k1 La Lb _ K0]; subst; [reflexivity|].
  apply IH in K0 as K1. destruct o as [| | | |e]; try exact K1. inversion La as [|v v' l l' V La0|]; subst; cbn [capturable]; auto.
  inversion La0; subst; auto. destruct V; reflexivity.
Qed.
Lemma RA_good n s t : RA n s t -> good P m m RA n s t.
Proof.
  intros X. destruct X as [e r r' k k' w w' A K S|o l l' r r' k k' w w' A L K S|v v' k k' w w' V K S|v v' w w' V S].
  - apply good_ev. intros s1 E.
    assert (T : exists t1, evf m e r' k' w' = Some t1 /\ RA 0 s1 t1).
    { destruct (decomp e) as [(o & l)|] eqn:D.
      - assert (E1 : s1 = Args o (map STodo l) r k w) by (destruct e; cbn in D, E; try discriminate; injection D as <- <-; now injection E as <-).
        exists (Args o (map STodo l) r' k' w'). split; [destruct e; cbn in D |- *; try discriminate; now injection D as <- <-|].
        subst s1. constructor; [|apply slr_todo | assumption | assumption]. intros x N G. apply A; [|assumption].
        assert (NF : forall e', In e' l -> free_in x e' -> free_in x e).
        { intros e' I Fe. destruct e; cbn in D; try discriminate; injection D as <- <-; (apply free_part with [] e'; [|easy|assumption]).
          - destruct I as [->|[]]. now left.
          - destruct I as [->|[]]. now left.
          - cbn. apply in_map, I.
          - cbn. destruct I as [->|I]; [now left | right; apply in_map, I].
          - destruct I as [->|[]]. now left. }
        destruct N as [N|(e' & I & Fe)].
        + destruct e; cbn in D; try discriminate; injection D as <- <-; cbn in N; try easy.
          * subst. apply free_here. constructor.
          * destruct N; [apply free_part with [] e2 | apply free_part with [] e3]; cbn; auto.
          * apply free_part with [] e2; cbn; auto.
        + apply in_map_iff in I. destruct I as (e2 & [= ->] & I). eauto.
      - destruct e; cbn in D; try discriminate; cbn [evf decomp] in E |- *.
        + assert (RV : exists v v', read_var m r x w = Some v /\ read_var m r' x w' = Some v' /\ vr v v').
          { destruct (read_var m r x w) as [v|] eqn:Rv; [|discriminate]. exists v. unfold read_var in *. destruct S as (H & Gl & _).
            destruct (global_id x) eqn:G; [injection Rv as <-; eauto|].
            assert (L : orel (lookup r x) (lookup r' x)) by (apply A; [apply free_here; constructor | assumption]).
            destruct L as [|u u' U]; [discriminate|]. destruct U; try (injection Rv as <-; eexists; split; [reflexivity|split; [reflexivity|now constructor]]).
            destruct (nth_error (hp w) l) as [b|] eqn:N; [|discriminate]. destruct (Forall2_nth _ _ _ _ _ H N) as (b' & -> & Fb).
            destruct Fb as [|u u' b b' U [|]]; try discriminate. exists u'. split; [reflexivity|].
            destruct m; destruct U as [[]| | | | |]; try discriminate; injection Rv as <-; (split; [reflexivity | now constructor]). }
          destruct RV as (v & v' & R1 & -> & V). rewrite R1 in E. injection E as <-. eexists. split; [reflexivity|]. now constructor.
        + injection E as <-. eexists. split; [reflexivity|]. constructor; [|assumption..]. constructor. exact A.
        + injection E as <-. eexists. split; [reflexivity|]. constructor; [|assumption..]. apply fix_agree.
          * intros x Fx. apply A. destruct Fx as [N|ys e' I N Fx]; [inversion N|]. destruct I as [[= <- <-]|I].
            -- exfalso. destruct Fx as [N'|? ? [] _ _]. inversion N'.
            -- apply free_part with ys e'; [now right | assumption | assumption].
          * intros x Fx I. apply A. apply free_part with xs e; [now left | assumption | assumption].
        + rewrite <- (capturable_kr _ _ K). destruct (capturable k); [|discriminate]. destruct (bind m [x] [VCont k] r (hp w)) as [(r1 & h1)|] eqn:B; [|discriminate]. injection E as <-.
          destruct (bind_rel m [x] _ [VCont k'] r r' _ (hp w') _ _ (Forall2_cons _ _ (vr_cont _ _ K) (Forall2_nil _)) (proj1 S) B) as (r1' & h1' & -> & H & L).
          eexists. split; [reflexivity|]. constructor; [|assumption | now apply sr_hp]. intros y Fy G. apply L.
          destruct (in_dec id_dec y [x]) as [I|I]; [now left | right]. apply A; [|assumption]. apply free_part with [x] e; [now left | assumption..]. }
    destruct T as (t1 & Et & R1). exists t1. split; [assumption|]. apply inev_now. eapply next_one; [|eassumption]. now apply step_evf.
  - apply good_args.
    + intros a e b El. destruct (slr_split _ _ L _ _ _ El) as (a0 & b0 & -> & La & Lb). apply inev_now. eapply next_one; [constructor|].
      constructor; [|constructor|]; auto.
      * intros x Fx. apply A. right. exists e. split; [apply in_elt | assumption].
      * intros x [N|(e' & I & Fx)] G; apply A; auto; [now left | right]. exists e'. split; [|assumption].
        apply in_app_iff in I. apply in_app_iff. cbn. tauto.
    + intros vs ->. destruct (slr_done _ _ L) as (vs' & -> & F). exists vs'. split; [reflexivity|]. intros s1 E.
      destruct (fire_agree _ _ _ _ _ _ _ _ _ _ A F K S E) as (t1 & E1 & R1). exists t1. split; [assumption|].
      apply inev_now. eapply next_one; [|eassumption]. constructor. now apply fire_firef.
    + intros a e b ->. destruct (slr_todo_l _ _ L _ _ _ eq_refl) as (a0 & b0 & ->). eauto.
  - destruct K as [|o a b a' b' r r' k k' La Lb A K].
    + right; left. eexists _, v, v'. split; [constructor|split; [constructor|split; [constructor|split; [now apply vr_shape|split; [apply S|]]]]].
      intros x. apply vr_shape, S.
    + apply good_ret, inev_now. eapply next_one; [constructor|].
      constructor; auto.
      * intros x [N|(e' & I & Fx)] G; apply A; auto; [now left | right]. exists e'. split; [|assumption].
        apply in_app_iff in I. apply in_app_iff. cbn in I. destruct I as [I|[I|I]]; [auto | discriminate | auto].
      * apply slr_app; [assumption | now constructor].
  - right; left. eexists _, v, v'. split; [constructor|split; [constructor|split; [constructor|split; [now apply vr_shape|split; [apply S|]]]]].
    intros x. apply vr_shape, S.
Qed.
Lemma RA_out n s t : RA n s t -> out (mem s) = out (mem t).
Proof. destruct 1; cbn; match goal with S : sr _ _ |- _ => apply S end. Qed.
End Agree.

Fixpoint vr_refl (v : val) : vr v v
with slot_refl (s : slot) : forall l, slr l l -> slr (s :: l) (s :: l)
with frame_refl (f : frame) : forall k, kr k k -> kr (f :: k) (f :: k).
Proof.
  - destruct v.
    + constructor.
    + constructor.
    + constructor.
    + constructor. intros x _ _. induction r as [|(y & v) r IH]; [constructor|].
      rewrite lookup_cons. destruct (id_eqb x y); [constructor; apply vr_refl | apply IH].
    + constructor. intros x _ _. induction r as [|(y & v) r IH]; [constructor|].
      rewrite lookup_cons. destruct (id_eqb x y); [constructor; apply vr_refl | apply IH].
    + constructor. induction k as [|f k IH]; [constructor | apply frame_refl, IH].
  - destruct s as [v|e]; intros l L; constructor; (apply vr_refl || apply L).
  - destruct f as [o a b r]. intros k K. constructor; [| | |exact K].
    + induction a as [|s a IH]; [constructor | apply slot_refl, IH].
    + induction b as [|s b IH]; [constructor | apply slot_refl, IH].
    + intros x _ _. induction r as [|(y & v) r IH]; [constructor|].
      rewrite lookup_cons. destruct (id_eqb x y); [constructor; apply vr_refl | apply IH].
Qed.
Lemma kr_refl k : kr k k.
Proof. induction k as [|f k IH]; [constructor | apply frame_refl, IH]. Qed.
Lemma env_refl (r : env) x : orel (lookup r x) (lookup r x).
Proof. destruct (lookup r x); constructor. apply vr_refl. Qed.
Lemma sr_refl w : sr w w.
Proof.
  split; [|split; [|split]]; auto.
  - induction (hp w) as [|b h IH]; constructor; [|assumption]. induction b; constructor; [apply vr_refl | assumption].
  - intros. apply vr_refl.
Qed.
Theorem agree_runs P m e r r' k w : (forall x, free_in x e -> global_id x = false -> lookup r x = lookup r' x) ->
  simulates P m m (Ev e r k w) (Ev e r' k w).
Proof.
  intros A. eapply simulation with (R := RA) (n := 0%nat).
  - intros. eapply RA_out; eauto.
  - apply RA_good.
  - constructor; [|apply kr_refl | apply sr_refl]. intros x F G. rewrite (A x F G). apply env_refl.
Qed.

