(** Unboxed programs do what the programs do: the steps of the simulation. *)
From Coq Require Import ZArith List Bool Lia.
From Verif Require Import Model_Lit Model_Core Spec_Sem Spec_Free Spec_Fold Spec_Unbox Proofs_Sim Proofs_Core Proofs_Free Proofs_Assign Proofs_BetaFree Proofs_FoldText Proofs_FoldSem Proofs_UnboxSem.
Import ListNotations.
Open Scope Z_scope.
Implicit Types sg : id -> id.
Implicit Types Q Qt : shape -> Prop.

Section Run.
Variable P : prim -> script.
Variables of fits : list Z -> shape -> bool.
Hypothesis U : unboxing P of fits.
Notation TJ := (TJ P).
Notation UV := (UV P of).
Notation UB := (UB P of).
Notation VR := (VR P of).
Notation orel := (orel P of).
Notation tok := (tok P of).
Notation KIND := (KIND P of).
Notation KR := (KR P of).
Notation ER := (ER P of).
Notation sr := (sr P of).
Notation R := (R P of).
Notation elem := Proofs_UnboxSem.elem.
Notation Both := Proofs_UnboxSem.Both.
Notation Op := Proofs_UnboxSem.Op.
Notation skel := Proofs_UnboxSem.skel.
Notation KQ := Proofs_UnboxSem.KQ.
Notation good := (good P MDirect MDirect R).
Notation next := (next P MDirect R).
Notation inev := (inev P MDirect).
Notation star := (star P MDirect).
Notation step := (step P MDirect).
Notation wrong := (wrong P MDirect).

Lemma call_rel p p' vs vs' r r' K K' w w' Q s1 s0 n : VR p p' -> Forall2 VR vs vs' -> (forall s, Q s) -> KR Q K K' -> sr w w' ->
  firef P MDirect OApp (p :: vs) r K w = Some s1 -> step s0 s1 ->
  exists t1, firef P MDirect OApp (p' :: vs') r' K' w' = Some t1 /\ inev (out w') (next n s0) t1.
Proof.
  intros V F HQ KK W E ST. destruct V as [c|l|sg xs b b' r0 r0' X A|sg ids lams lams' i r0 r0' L Hid Hcap A]; try discriminate; cbn [firef] in E |- *.
  - destruct (bind MDirect xs vs r0 (hp w)) as [(r1 & h1)|] eqn:B; [|discriminate]. assert (s1 = Ev b r1 K (set_hp w h1)) by congruence. subst s1. clear E.
    destruct (enter P of fits U sg xs b b' r0 r0' vs vs' w w' K K' Q n s0 r1 h1 X A F B KK HQ W ST) as (r1' & B' & I).
    rewrite B'. eexists. split; [reflexivity|]. now rewrite set_hp_same.
  - destruct (nth_error lams i) as [(xs & b)|] eqn:N; [|discriminate]. destruct (Forall2_nth _ _ _ _ _ L N) as ((xs' & b') & N' & X & C). cbn [fst snd] in X, C. subst xs'. rewrite N'.
    destruct (bind MDirect xs vs (bind_fix ids lams r0) (hp w)) as [(r1 & h1)|] eqn:B; [|discriminate]. assert (s1 = Ev b r1 K (set_hp w h1)) by congruence. subst s1. clear E.
    assert (FL : forall x, free_in x (ELam xs b) -> ~ In x ids -> free_in x (EFix ids lams void_exp)).
    { intros x Fx NI. apply free_lam in Fx. destruct Fx as (NX & Fx). apply free_part with (ids ++ xs) b; [|rewrite in_app_iff; tauto | assumption]. right. apply in_map_iff. exists (xs, b). split; [reflexivity|]. eapply nth_error_In; eauto. }
    assert (A2 : ER sg (fun x => free_in x (ELam xs b)) (bind_fix ids lams r0) (bind_fix ids lams' r0')).
    { apply (fix_er P of fits U).
      - intros j. now apply vr_fix with sg.
      - assumption.
      - intros x Fx NI. auto.
      - intros x (Fx & NI) G. apply A; auto. }
    destruct (enter P of fits U sg xs b b' _ _ vs vs' w w' K K' Q n s0 r1 h1 C A2 F B KK HQ W ST) as (r1' & B' & I).
    rewrite B'. eexists. split; [reflexivity|]. now rewrite set_hp_same.
Qed.

Lemma map_rev_done (T : list elem) vs : map tgt T = map SDone vs -> map tgt (rev T) = map SDone (rev vs).
Proof. intros E. now rewrite !map_rev, E. Qed.
Lemma nth_rev_bind ids vs r h r1 h1 : NoDup ids -> bind MDirect (rev ids) (rev vs) r h = Some (r1, h1) -> forall i x, nth_error ids i = Some x -> lookup r1 x = nth_error vs i.
Proof.
  intros ND B i x Ei. assert (Lv : length ids = length vs).
  { destruct (Nat.eq_dec (length (rev ids)) (length (rev vs))) as [L|L]; [now rewrite !rev_length in L|]. exfalso. revert B L. generalize (rev vs) r h. generalize (rev ids).
    induction l as [|y l IH]; intros [|v l'] r2 h2 B L; cbn in *; try discriminate; try lia. eapply IH; [exact B | lia]. }
  destruct (bind_direct (rev ids) (rev vs) r h) as (r2 & B2 & C & _); [now rewrite !rev_length|]. assert (r2 = r1) by congruence. subst r2.
  assert (Li : (i < length ids)%nat) by (apply nth_error_Some; congruence).
  assert (NR : forall A (l : list A) j, (j < length l)%nat -> nth_error (rev l) (length l - S j) = nth_error l j).
  { clear. intros A l j Lj. destruct l as [|d l0]; [cbn in Lj; lia|]. rewrite (nth_error_nth' (rev (d :: l0)) d); [|rewrite rev_length; lia]. rewrite (nth_error_nth' (d :: l0) d Lj).
    rewrite rev_nth; [|lia]. f_equal. f_equal. lia. }
  rewrite (C (NoDup_rev ND) (length ids - S i)%nat x).
  - rewrite Lv. rewrite NR; [reflexivity | lia].
  - rewrite NR; [assumption | lia].
Qed.
Lemma bind_length ids : forall vs r h r1 h1, bind MDirect ids vs r h = Some (r1, h1) -> length ids = length vs.
Proof. induction ids as [|x ids IH]; intros [|v vs] r h r1 h1 B; cbn in *; try discriminate; [reflexivity|]. f_equal. eauto. Qed.

(** ** Operands *)
Lemma fire_rel f T Q o o' r r' vs K K' w w' n : Forall (tok r r') T -> KIND r r' Q f (map skel T) o o' -> map src T = map SDone vs ->
  KR Q K K' -> sr w w' -> exists vs', map tgt (rv f T) = map SDone vs' /\
  forall s1 s0, firef P MDirect o vs r K w = Some s1 -> step s0 s1 -> exists t1, firef P MDirect o' vs' r' K' w' = Some t1 /\ inev (out w') (next n s0) t1.
Proof.
  intros F KD A KK W. remember (map skel T) as ks eqn:SK.
  destruct KD as [sg r r' Q Qt b c b' c' Cb Cc Jb Jc ER0|r r' Q Qs x HQ Gx|r r' Q Qs ef p HQ|r r' Q Qs HQ|sg r r' Q Qs ids ids' b b' Cb Li ND ND' Hn Hc ER0 HB|r r' Q Qs ids b ids' b' Lb]; cbn [rv].
  - destruct (done_elems P of r r' [Qt] T vs F (eq_sym SK) A) as (vs' & B & FV & HS). exists vs'. split; [assumption|]. intros s1 s0 E ST.
    inversion FV as [|v v' ? ? V FV']; subst; [inversion HS|]. inversion FV'; subst; [|inversion HS as [|? ? ? ? ? HS2]; inversion HS2].
    cbn [firef] in *. injection E as <-. exists (Ev (if is_true v' then b' else c') r' K' w'). split; [reflexivity|]. rewrite <- (VR_true P of _ _ V).
    apply inev_now. eapply next_one; [exact ST|].
    apply r_ev with sg Q; auto; destruct (is_true v); auto; eapply er_impl; try exact ER0; cbn; auto.
  - destruct (done_elems P of r r' Qs T vs F (eq_sym SK) A) as (vs' & B & FV & HS). exists vs'. split; [assumption|]. intros s1 s0 E ST.
    cbn [firef] in E |- *. inversion FV as [|v v' ? ? V FV']; subst; [discriminate|]. inversion FV'; subst; [|discriminate]. rewrite Gx in *.
    injection E as <-. exists (Ret (VC CVoid) K' (set_gl w' x v')). split; [reflexivity|]. apply inev_now. eapply next_one; [exact ST|]. apply r_ret with Q; auto; [constructor|]. now apply sr_set.
  - destruct (done_elems P of r r' Qs T vs F (eq_sym SK) A) as (vs' & B & FV & HS). exists vs'. split; [assumption|]. intros s1 s0 E ST.
    cbn [firef] in E |- *. destruct (zlist_dec p the_halt_prim) as [->|N].
    + inversion FV as [|v v' ? ? V FV']; subst; [discriminate|]. inversion FV'; subst; [|discriminate]. injection E as <-. exists (Halted v' w'). split; [reflexivity|]. apply inev_now. eapply next_one; [exact ST|]. now constructor.
    + destruct (run (P p) vs w) as [(v & w1)|] eqn:X; [|discriminate]. injection E as <-. destruct (run_sr P of _ _ _ _ _ _ _ W FV X) as (v' & w1' & -> & W1 & V).
      exists (Ret v' K' w1'). split; [reflexivity|]. apply inev_now. eapply next_one; [exact ST|]. apply r_ret with Q; auto. eapply HQ; eauto.
  - destruct (done_elems P of r r' Qs T vs F (eq_sym SK) A) as (vs' & B & FV & HS). exists vs'. split; [assumption|]. intros s1 s0 E ST.
    destruct FV as [|p p' vs vs' V FV]; [discriminate|]. eapply call_rel; eauto.
  - destruct T as [|x T]; [discriminate|]. cbn [map] in SK. injection SK as SK1 SK2. destruct x as [|d xs b0 r0 xs' b0' r0']; [discriminate|]. cbn in SK1. injection SK1 as <- <- <- <- <- <-.
    destruct vs as [|p vs]; [discriminate|]. cbn [map] in A. assert (A1 : src (Op d ids b r (rev ids') b' r') = SDone p) by congruence. assert (A2 : map src T = map SDone vs) by congruence.
    destruct d; cbn in A1; [|discriminate]. injection A1 as <-. inversion F as [|? ? X1 F']; subst.
    destruct (done_elems P of r r' Qs T vs F' (eq_sym SK2) A2) as (vs' & B & FV & HS).
    exists (VClo (rev ids') b' r' :: rev vs'). split; [cbn [map tgt]; f_equal; now apply map_rev_done|]. intros s1 s0 E ST. cbn [firef] in E |- *.
    destruct (bind MDirect ids vs r (hp w)) as [(r1 & h1)|] eqn:Bi; [|discriminate]. assert (s1 = Ev b r1 K (set_hp w h1)) by congruence. subst s1. clear E.
    pose proof (bind_length _ _ _ _ _ _ Bi) as Lv. pose proof (Forall2_len _ _ _ FV) as Lv'.
    destruct (bind_direct ids vs r (hp w) Lv) as (r2 & Bi2 & C & D). rewrite Bi2 in Bi. injection Bi as -> <-.
    destruct (bind_direct (rev ids') (rev vs') r' (hp w')) as (r1' & B' & _ & D'); [rewrite !rev_length; congruence|]. rewrite B'.
    eexists. split; [reflexivity|]. rewrite !set_hp_same in *. apply inev_now. eapply next_one; [exact ST|]. apply r_ev with sg Q; auto.
    + apply (HB (rev vs') r1' (hp w') (hp w')); [|exact B']. apply Forall2_rev'. clear -HS FV. revert vs' FV. induction HS as [|Q v Qs vs H HS IH]; intros vs' FV; inversion FV as [|? v' ? vs2 V FV2]; subst; [constructor|].
      constructor; [|now apply IH]. unfold sat in *. now rewrite <- (VR_shape P of _ _ V).
    + intros z Fz G. destruct (in_dec id_dec z ids) as [Iz|Iz].
      * apply In_nth_error in Iz. destruct Iz as (i & Ei). rewrite (C ND i z Ei). rewrite (nth_rev_bind ids' vs' r' (hp w') r1' (hp w') ND' B' i (sg z) (Hn i z Ei)).
        assert (Liv : (i < length vs)%nat) by (rewrite <- Lv; apply nth_error_Some; congruence). apply nth_error_Some in Liv. destruct (nth_error vs i) as [v|] eqn:Ev1; [|easy].
        destruct (Forall2_nth _ _ _ _ _ FV Ev1) as (v' & -> & V). now constructor.
      * rewrite (D z Iz), D'; [|rewrite <- in_rev; auto]. apply ER0; [|assumption]. apply free_lam. auto.
  - destruct T as [|x T]; [discriminate|]. cbn [map] in SK. injection SK as SK1 SK2. destruct x as [|d xs b0 r0 xs' b0' r0']; [discriminate|]. cbn in SK1. injection SK1 as <- <- <- <- <- <-.
    destruct vs as [|p vs]; [discriminate|]. cbn [map] in A. assert (A1 : src (Op d ids b r ids' b' r') = SDone p) by congruence. assert (A2 : map src T = map SDone vs) by congruence.
    destruct d; cbn in A1; [|discriminate]. injection A1 as <-. inversion F as [|? ? X1 F']; subst.
    destruct (done_elems P of r r' Qs T vs F' (eq_sym SK2) A2) as (vs' & B & FV & HS).
    exists (VClo ids' b' r' :: vs'). split; [cbn [map tgt]; now f_equal|]. intros s1 s0 E ST. exfalso. cbn [firef] in E.
    destruct (bind MDirect ids vs r (hp w)) as [(r1 & h1)|] eqn:Bi; [|discriminate]. apply bind_length in Bi. pose proof (Forall2_len _ _ _ HS). congruence.
Qed.
Lemma args_good n f T Q o o' r r' K K' w w' : Forall (tok r r') T -> KIND r r' Q f (map skel T) o o' -> KR Q K K' -> sr w w' ->
  good n (Args o (map src T) r K w) (Args o' (map tgt (rv f T)) r' K' w').
Proof.
  intros F KD KK W. apply good_args.
  - intros a e b E. destruct (tgt_split _ _ _ _ E) as (A & x & B & E1 & X & -> & ->). destruct (rv_split _ _ _ _ _ E1) as (T1 & T2 & -> & Hy).
    apply Forall_app in F as F0. destruct F0 as (F1 & F2). inversion F2 as [|? ? Fx F2']; subst. rewrite map_app in KD. cbn [map] in KD. clear F F2.
    destruct Fx as [r r' v v' Q0 V QV|sg r r' e1 e' Q0 C J E2|sg r r' e1 e' t Q0 C N Te J J2 E2|r r' d xs b xs' b']; cbn in X; try discriminate.
    + injection X as <-. apply inev_now. eapply next_one; [rewrite map_app; apply st_pick|]. apply r_ev with sg Q0; auto. apply kr_frame with Q f; auto.
    + injection X as <-. eapply inev_ev; [reflexivity | reflexivity|]. cbn [map]. apply inev_pick1; [reflexivity|].
      destruct (tj_conv_inv P of fits U _ _ _ _ N Te J2) as (Q1 & J1 & H1).
      apply inev_now. eapply next_one; [rewrite map_app; apply st_pick|]. apply r_ev with sg (qand (is of t) Q1); auto.
      * apply (tj_and P _ _ _ _ _ J J1). intros s X Y. now split.
      * apply kr_conv with Q0; auto.
        -- intros s (X & Y). split; [assumption|]. apply H1; [assumption|]. exact (ub_fits _ _ _ U t s Te X).
        -- apply kr_frame with Q f; auto.
    + destruct d; [discriminate|]. injection X as <-. eapply inev_ev; [reflexivity | reflexivity|]. apply inev_ret; [reflexivity|]. apply inev_now. right. exists O, (Args o (map src (T1 ++ Op true xs b r xs' b' r' :: T2)) r K w). split.
      * replace (map tgt A ++ SDone (VClo xs' b' r') :: map tgt B) with (map tgt (rv f (T1 ++ Op true xs b r xs' b' r' :: T2))) by (rewrite (Hy (Op true xs b r xs' b' r')), map_app; reflexivity).
        apply r_args with Q; auto.
        -- apply Forall_app. split; [assumption|]. constructor; [constructor | assumption].
        -- rewrite map_app. exact KD.
      * left. rewrite !map_app. cbn [map src]. eapply plus_star_trans; [apply plus_one, st_pick|]. eapply star_step; [apply st_lam|]. apply star_one, st_ret.
  - intros vs E. destruct (fire_rel f T Q o o' r r' vs K K' w w' n F KD E KK W) as (vs' & E' & H). exists vs'. split; [assumption|]. intros s1 F1. apply H with (1 := F1). rewrite E. constructor. now apply fire_firef.
  - intros a e b E. assert (I : exists x, In x T /\ src x = STodo e).
    { assert (I : In (STodo e) (map src T)) by (rewrite E; apply in_elt). apply in_map_iff in I. destruct I as (x & X & I). eauto. }
    destruct I as (x & I & X). rewrite Forall_forall in F. specialize (F x I). assert (exists e', tgt x = STodo e') as (e' & Y).
    { destruct F as [| | |r r' d xs b0 xs' b0']; cbn in X |- *; try discriminate; eauto. destruct d; [discriminate | eauto]. }
    apply (rv_in _ f), (in_map tgt) in I. rewrite Y in I. apply in_split in I. destruct I as (a' & b' & ->). eauto.
Qed.

(** ** Values *)
Lemma run_ident x r r0 K v w : global_id x = false -> (forall l, v <> VRef l) -> star (Ret v (Fr OApp [SDone (VClo [x] (EVar x) r)] [] r0 :: K) w) (Ret v K w).
Proof.
  intros G Pl. eapply star_step; [constructor|]. cbn [app].
  eapply star_trans; [exact (fires P OApp [VClo [x] (EVar x) r; v] r0 K w _ eq_refl)|]. rewrite set_hp_same. apply evs. apply read_local; auto. rewrite lookup_cons, id_eqb_refl. reflexivity.
Qed.
Lemma ret_good n v v' Q K K' w w' : VR v v' -> Q (shape_of v) -> KR Q K K' -> sr w w' -> good n (Ret v K w) (Ret v' K' w').
Proof.
  intros V HQ KK W. revert HQ. induction KK as [Q|Q Q0 f T1 T2 A B o r K o' r' K' F1 F2 Hy KD KK _|t Q0 Q1 r0 F F' K K' N Te H1 KK IH|Q x r r0 K K' G KK IH]; intros HQ.
  - right; left. exists (Ret v [] w), v, v'. split; [constructor|]. split; [constructor|]. split; [constructor|]. split; [now apply (VR_shape P of)|]. destruct W as (H & Gl & O & I).
    split; [exact O|]. intros x. cbn. apply (VR_shape P of). apply Gl.
  - apply good_ret. apply inev_now. eapply next_one; [apply st_ret|].
    replace (map src T1 ++ SDone v :: map src T2) with (map src (T1 ++ Both (SDone v) (SDone v') Q0 :: T2)) by (rewrite map_app; reflexivity).
    replace (map tgt A ++ SDone v' :: map tgt B) with (map tgt (rv f (T1 ++ Both (SDone v) (SDone v') Q0 :: T2))) by (rewrite Hy, map_app; reflexivity).
    apply r_args with Q; auto.
    + apply Forall_app. split; [assumption|]. constructor; [now constructor | assumption].
    + rewrite map_app. exact KD.
  - destruct (H1 _ HQ) as (Ht & HQ0). specialize (IH HQ0). destruct IH as [Wr|[(s0 & u & u' & _ & _ & En & _)|((t1 & S1) & I)]].
    + now left.
    + inversion En.
    + right; right. split; [eexists; constructor|]. intros t' S. destruct F' as [o1 a1 b1 r1]. apply step_ret in S. subst t'. cbn [app].
      apply (inev_conv_fire P of fits U); [assumption | reflexivity | |].
      * rewrite <- (VR_shape P of _ _ V). exact (ub_fits _ _ _ U t _ Te Ht).
      * eapply inev_step; [reflexivity | exact S1 | exact I].
  - eapply good_star; [apply run_ident; [assumption | exact (proj1 (VR_not_ref P of _ _ V))] | auto].
Qed.

(** ** Expressions *)
Lemma check_not_halt t p : check_text t p -> p <> the_halt_prim.
Proof. intros C ->. apply check_ok in C. vm_compute in C. discriminate. Qed.
Lemma put_er sg x y (b : exp) r r' v v' : (forall z, free_in z b -> z <> x -> sg z <> y) -> lookup r x = Some v -> VR v v' ->
  ER sg (fun z => free_in z b /\ z <> x) r r' -> ER (put sg x y) (fun z => free_in z b) r ((y, v') :: r').
Proof.
  intros H L V E z Fz G. unfold put. destruct (id_dec z x) as [->|N].
  - rewrite L, lookup_cons, id_eqb_refl. now constructor.
  - rewrite lookup_cons, (proj2 (id_eqb_neq _ _) (H z Fz N)). apply E; auto.
Qed.
Lemma ev_good n m : forall sg e e' Q r r' K K' w w', (esize e <= m)%nat -> UV sg e e' -> TJ r' e' Q -> ER sg (fun x => free_in x e) r r' -> KR Q K K' -> sr w w' ->
  good n (Ev e r K w) (Ev e' r' K' w').
Proof.
  induction m as [|m IH]; intros sg e e' Q r r' K K' w w' L C J E KK W; [destruct e; cbn in L; lia|].
  destruct C as [sg x Gx Hx|sg x e e' Gx C|sg a b c a' b' c' Ca Cb Cc|sg sg1 ef p x t y b c b' c' Gx Ct Te Sx Gy Hp Cb Cc Cap|sg b b' C|sg x e e' Gx C
    |sg sg1 ids ids' l l' b b' Ll Li ND ND' Cl Hn Hc Cb|sg ef p l l' Cl|sg f l f' l' Cf Cl HA|sg xs b b' X|sg ids lams lams' b b' X Cb Hid Hcap].
  - apply good_ev. intros s1 Ev1. cbn [evf] in Ev1 |- *. destruct (read_var MDirect r x w) as [v|] eqn:Rv; [|discriminate]. injection Ev1 as <-. unfold read_var in *. rewrite Gx.
    destruct (global_id x) eqn:G.
    + rewrite (Hx eq_refl) in *. injection Rv as <-. eexists. split; [reflexivity|]. apply inev_now. eapply next_one; [apply st_var; unfold read_var; now rewrite G|].
      destruct W as (H & Gl & O & I). apply r_ret with Q; [apply Gl | | assumption | split; auto]. apply (tj_opaque P _ _ _ J). exact G.
    + assert (O : orel (lookup r x) (lookup r' (sg x))) by (apply E; [now apply free_var | assumption]). inversion O as [E1 E2|v0 v0' V E1 E2]; rewrite <- E1 in Rv; [discriminate|].
      destruct (VR_not_ref P of _ _ V) as (N1 & N2). assert (v = v0) by (destruct v0; solve [congruence | exfalso; eapply N1; reflexivity]). subst v0.
      exists (Ret v0' K' w'). split; [destruct v0'; try reflexivity; exfalso; eapply N2; reflexivity|]. apply inev_now.
      eapply next_one; [apply st_var; unfold read_var; rewrite G, <- E1; exact Rv|]. apply r_ret with Q; auto.
      destruct (tj_var_inv P _ _ _ J _ eq_refl) as [A|(_ & A)]; [apply A|]. rewrite (VR_shape P of _ _ V). apply A. now rewrite E2.
  - apply good_ev. intros s1 Ev1. cbn in Ev1. injection Ev1 as <-. eexists. split; [reflexivity|]. apply inev_now. eapply next_one; [apply st_args; reflexivity|].
    destruct (todo_elems P of sg r r' [e] [e'] [top]) as (T & F & SK & A & B).
    { constructor; [now left | constructor]. }
    { constructor; [apply tj_top; easy | constructor]. }
    { intros e1 [<-|[]]. eapply er_impl; [|exact E]. intros z Fz. apply free_set. now right. }
    rewrite <- A, <- B. apply (r_args P of Q false); auto. rewrite SK. apply kd_set; [|assumption]. apply (tj_opaque P _ _ _ J). exact I.
  - apply good_ev. intros s1 Ev1. cbn in Ev1. injection Ev1 as <-. eexists. split; [reflexivity|]. apply inev_now. eapply next_one; [apply st_args; reflexivity|].
    destruct (todo_elems P of sg r r' [a] [a'] [top]) as (T & F & SK & A & B).
    { constructor; [now left | constructor]. }
    { constructor; [apply tj_top; easy | constructor]. }
    { intros e1 [<-|[]]. eapply er_impl; [|exact E]. intros z Fz. apply free_if. now left. }
    destruct (tj_if_inv P _ _ _ J _ _ _ eq_refl) as (Jb & Jc).
    rewrite <- A, <- B. apply (r_args P of Q false); auto. rewrite SK. apply kd_if with sg; auto. eapply er_impl; [|exact E]. intros z Fz. apply free_if. tauto.
  - destruct (tj_if_inv P _ _ _ J _ _ _ eq_refl) as (Jb & Jc). pose proof (check_not_halt _ _ Ct) as NH.
    set (s0 := Ev (EIf (EPrim ef p [EVar x]) b c) r K w).
    assert (S0 : star s0 (Ev (EVar x) r (Fr (OPrim ef p) [] [] r :: Fr (OIf b c) [] [] r :: K) w)).
    { eapply star_step; [apply st_args; reflexivity|]. eapply star_step; [apply (st_pick P MDirect _ [] _ [])|]. eapply star_step; [apply st_args; reflexivity|]. apply star_one, (st_pick P MDirect _ [] _ []). }
    assert (O : orel (lookup r x) (lookup r' (sg x))) by (apply E; [apply free_if; left; apply free_prim; exists (EVar x); split; [now left | now apply free_var] | assumption]).
    rewrite Sx in O. inversion O as [E1 E2|v v' V E1 E2].
    { left. eapply wrong_star; [exact S0|]. apply stuck_ev. cbn. unfold read_var. now rewrite Gx, <- E1. }
    destruct (VR_not_ref P of _ _ V) as (N1 & N2).
    assert (S1 : star s0 (Args (OPrim ef p) (map SDone [v]) r (Fr (OIf b c) [] [] r :: K) w)).
    { eapply star_trans; [exact S0|]. eapply star_trans; [apply evs, (read_local r x w v); auto|]. apply star_one, st_ret. }
    destruct (run (P p) [v] w) as [(bv & w1)|] eqn:Rn.
    2: { left. eapply wrong_star; [exact S1|]. apply no_fire. cbn [firef]. destruct (zlist_dec p the_halt_prim); [easy|]. now rewrite Rn. }
    assert (w1 = w) by exact (ub_check _ _ _ U _ _ _ _ _ _ Ct Rn). subst w1.
    destruct (run_sr P of _ [v] [v'] _ w' _ _ W (Forall2_cons _ _ V (Forall2_nil _)) Rn) as (bv' & w1' & Rn' & W1 & BV).
    assert (w1' = w') by exact (ub_check _ _ _ U _ _ _ _ _ _ Ct Rn'). subst w1'.
    assert (HF : forall u k r1 w1 a, run (P p) [u] w1 = Some (a, w1) -> firef P MDirect (OPrim ef p) [u] r1 k w1 = Some (Ret a k w1)).
    { intros u k r1 w1 a Ru. cbn [firef]. destruct (zlist_dec p the_halt_prim); [easy|]. now rewrite Ru. }
    assert (S2 : Spec_Sem.plus P MDirect s0 (Ev (if is_true bv then b else c) r K w)).
    { eapply star_plus_trans; [exact S1|]. eapply plus_star_trans; [apply plus_one; constructor; apply fire_firef; exact (HF _ _ _ _ _ Rn)|].
      eapply star_step; [apply st_ret|]. exact (fires P (OIf b c) [bv] r K w _ eq_refl). }
    right; right. split; [eexists; apply step_evf; reflexivity|]. intros t' St. apply step_evf in St. cbn in St. injection St as <-. cbn [mem].
    apply inev_pick1; [reflexivity|]. eapply inev_ev; [reflexivity | reflexivity|]. cbn [map]. apply inev_pick1; [reflexivity|]. eapply inev_ev; [reflexivity | apply (read_local r' x w' v'); auto|].
    apply inev_ret; [reflexivity|]. cbn [app]. eapply (inev_fire P MDirect (out w') _ (OPrim ef p) [v']); [reflexivity | exact (HF _ _ _ _ _ Rn')|].
    apply inev_ret; [reflexivity|]. cbn [app]. eapply (inev_fire P MDirect (out w') _ (OIf _ _) [bv']); [reflexivity | reflexivity|].
    pose proof (ct_check _ _ (ub_types _ _ _ U)) as CC. rewrite <- (VR_true P of _ _ BV). destruct (is_true bv) eqn:IT.
    + assert (Ht : of t (shape_of v') = true).
      { rewrite <- (VR_shape P of _ _ V). specialize (CC p t v w bv w Ct). rewrite <- CC; [exact IT | exact Rn]. }
      assert (Nt : name t) by exact (proj1 Ct).
      assert (Ft : fits t (shape_of v') = true) by exact (ub_fits _ _ _ U t _ Te Ht).
      eapply (eval_let P (out w') _ [y] [cv t (EVar x)] b' r' K' w' [v'] ((y, v') :: r')); [reflexivity | constructor; [|constructor] | reflexivity|].
      * intros k1 Q1 I1. eapply (inev_conv_var P of fits U); eauto.
      * apply inev_now. right. exists 0%nat, (Ev b r K w). split; [|left; exact S2].
        destruct (tj_let_inv P _ _ _ Jb _ _ _ eq_refl) as (Qs & FQ & HB). inversion FQ as [|? Q1 ? ? JQ FQ2]; subst. inversion FQ2; subst.
        destruct (tj_conv_inv P of fits U _ _ _ _ Nt Te JQ) as (Q2 & J2 & H2).
        apply r_ev with sg1 Q; auto.
        -- apply (HB [v'] _ (hp w') (hp w')); [|reflexivity]. constructor; [|constructor]. unfold sat. apply H2; [|assumption].
           destruct (tj_var_inv P _ _ _ J2 _ eq_refl) as [A|(_ & A)]; [apply A | now apply A].
        -- intros z Fz Gz. rewrite Hp. revert z Fz Gz. apply put_er with v; auto. eapply er_impl; [|exact E]. intros z (Fz & _). apply free_if. tauto.
    + apply inev_now. right. exists 0%nat, (Ev c r K w). split; [|left; exact S2]. apply r_ev with sg Q; auto. eapply er_impl; [|exact E]. intros z Fz. apply free_if. tauto.
  - assert (St : star (Ev (let_exp [] [] b) r K w) (Ev b r K w)).
    { eapply star_step; [apply st_args; reflexivity|]. eapply star_step; [apply (st_pick P MDirect _ [] _ [])|]. eapply star_step; [apply st_lam|]. eapply star_step; [apply st_ret|].
      cbn [app]. rewrite <- (set_hp_same w) at 2. exact (fires P OApp [VClo [] b r] r K w _ eq_refl). }
    eapply good_star; [exact St|]. apply IH with sg Q; auto.
    + cbn [let_exp esize] in L. unfold let_exp in L. cbn [esize map] in L. lia.
    + eapply er_impl; [|exact E]. intros z Fz. apply free_app. left. apply free_lam. auto.
  - assert (St : star (Ev (let_exp [x] [e] (EVar x)) r K w) (Ev e r (Fr OApp [SDone (VClo [x] (EVar x) r)] [] r :: K) w)).
    { eapply star_step; [apply st_args; reflexivity|]. eapply star_step; [apply (st_pick P MDirect _ [] _ [STodo e])|]. eapply star_step; [apply st_lam|]. eapply star_step; [apply st_ret|].
      cbn [app]. apply star_one. apply (st_pick P MDirect OApp [SDone (VClo [x] (EVar x) r)] e []). }
    eapply good_star; [exact St|]. apply IH with sg Q; auto.
    + unfold let_exp in L. cbn [esize map] in L. unfold list_sum in L; cbn [fold_right] in L; lia.
    + eapply er_impl; [|exact E]. intros z Fz. apply free_app. right. exists e. split; [now left | assumption].
    + now apply kr_ident.
  - apply good_ev. intros s1 Ev1. cbn in Ev1. injection Ev1 as <-. eexists. split; [reflexivity|]. apply inev_now. eapply next_one; [apply st_args; reflexivity|].
    destruct (tj_let_inv P _ _ _ J _ _ _ eq_refl) as (Qs & FQ & HB).
    assert (FQ' : Forall2 (TJ r') l' (rev Qs)) by (rewrite <- (rev_involutive l'); now apply Forall2_rev').
    destruct (todo_elems P of sg r r' l l' (rev Qs) Cl FQ') as (T & F & SK & A & B).
    { intros e1 I. eapply er_impl; [|exact E]. intros z Fz. apply free_app. right. eauto. }
    replace (map STodo (ELam ids b :: l)) with (map src (Op false ids b r (rev ids') b' r' :: T)) by (cbn [map src]; now rewrite A).
    replace (map STodo (ELam (rev ids') b' :: rev l')) with (map tgt (rv true (Op false ids b r (rev ids') b' r' :: T))) by (cbn [rv map tgt]; now rewrite map_rev, B, map_rev).
    apply r_args with Q; auto.
    + constructor; [constructor | assumption].
    + cbn [map skel]. rewrite SK. apply kd_let with sg1; auto.
      * intros z Fz Nz. destruct (Hc z Fz Nz) as (-> & N). exact N.
      * intros z Fz G. pose proof Fz as Fz0. apply free_lam in Fz. destruct Fz as (Nz & Fz). destruct (Hc z Fz Nz) as (-> & _). apply E; [|assumption]. apply free_app. now left.
      * rewrite rev_involutive. exact HB.
  - apply good_ev. intros s1 Ev1. cbn in Ev1. injection Ev1 as <-. eexists. split; [reflexivity|]. apply inev_now. eapply next_one; [apply st_args; reflexivity|].
    destruct (tj_prim_inv P _ _ _ J _ _ _ eq_refl) as (Qs & FQ & HP).
    destruct (todo_elems P of sg r r' l l' Qs (plain_rel P of _ _ _ Cl) FQ) as (T & F & SK & A & B).
    { intros e1 I. eapply er_impl; [|exact E]. intros z Fz. apply free_prim. eauto. }
    rewrite <- A, <- B. apply (r_args P of Q false); auto. rewrite SK. now apply kd_prim.
  - apply good_ev. intros s1 Ev1. cbn in Ev1. injection Ev1 as <-. eexists. split; [reflexivity|]. apply inev_now. eapply next_one; [apply st_args; reflexivity|].
    destruct HA as [NL|(ids & b & -> & Lb)].
    + destruct (todo_elems P of sg r r' (f :: l) (f' :: l') (map (fun _ => top) (f' :: l'))) as (T & F & SK & A & B).
      { apply plain_rel. now constructor. }
      { apply tj_tops. }
      { intros e1 I. eapply er_impl; [|exact E]. intros z Fz. apply free_app. destruct I as [<-|I]; [now left | right; eauto]. }

      rewrite <- A, <- B. apply (r_args P of Q false); auto. rewrite SK. apply kd_app. apply (tj_opaque P _ _ _ J). exact NL.
    + destruct (todo_elems P of sg r r' l l' (map (fun _ => top) l')) as (T & F & SK & A & B).
      { now apply plain_rel. }
      { apply tj_tops. }
      { intros e1 I. eapply er_impl; [|exact E]. intros z Fz. apply free_app. right; eauto. }
      inversion Cf as [| | | | | | | | |? ? ? b' X|]; subst.
      replace (map STodo (ELam ids b :: l)) with (map src (Op false ids b r ids b' r' :: T)) by (cbn [map src]; now rewrite A).
      replace (map STodo (ELam ids b' :: l')) with (map tgt (rv false (Op false ids b r ids b' r' :: T))) by (cbn [rv map tgt]; now rewrite B).
      apply r_args with Q; auto.
      * constructor; [constructor | assumption].
      * cbn [map skel]. rewrite SK. apply kd_bad. rewrite map_length. rewrite <- (Forall2_len _ _ _ Cl). assumption.
  - apply good_ev. intros s1 Ev1. cbn in Ev1. injection Ev1 as <-. eexists. split; [reflexivity|]. apply inev_now. eapply next_one; [apply st_lam|]. apply r_ret with Q; auto.
    + apply vr_clo with sg; auto.
    + apply (tj_opaque P _ _ _ J). exact I.
  - apply good_ev. intros s1 Ev1. cbn in Ev1. injection Ev1 as <-. eexists. split; [reflexivity|]. apply inev_now. eapply next_one; [apply st_fix|]. apply r_ev with sg Q; auto.
    + apply tj_top. apply (tj_opaque P _ _ _ J). exact I.
    + apply (fix_er P of fits U).
      * intros j. apply vr_fix with sg; auto; intros z Fz; [apply Hcap | apply E]; now apply fix_void.
      * assumption.
      * intros z Fz NI. apply Hcap. apply free_fix. tauto.
      * intros z (Fz & NI) G. apply E; [|assumption]. apply free_fix. tauto.
Qed.
Lemma R_good n s t : R n s t -> good n s t.
Proof.
  destruct 1 as [sg Q e e' r r' K K' w w' C J E KK W|Q f T o o' r r' K K' w w' F KD KK W|Q v v' K K' w w' V HQ KK W|v v' w w' V W].
  - eapply ev_good; eauto.
  - eapply args_good; eauto.
  - eapply ret_good; eauto.
  - right; left. exists (Halted v w), v, v'. split; [constructor|]. split; [constructor|]. split; [constructor|]. split; [now apply (VR_shape P of)|]. destruct W as (H & Gl & O & I).
    split; [exact O|]. intros x. cbn. apply (VR_shape P of). apply Gl.
Qed.
Lemma R_out n s t : R n s t -> out (mem s) = out (mem t).
Proof. destruct 1; cbn; eapply sr_out; eauto. Qed.
Definition unbox_sim n s t : R n s t -> simulates P MDirect MDirect s t := simulation P MDirect MDirect R R_out R_good n s t.
Theorem unbox_sound e e' : UV (fun x => x) e e' -> refines P MDirect MDirect e e'.
Proof.
  intros C g i. apply (unbox_sim O). apply r_ev with (fun x => x) top; auto.
  - apply tj_top. intros s. exact I.
  - intros x _ _. constructor.
  - constructor.
  - split; [constructor|]. split; [intros x; constructor|]. split; reflexivity.
Qed.
End Run.
