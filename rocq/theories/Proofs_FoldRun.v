(** Folded programs do what the programs do: the steps of the simulation. *)
From Coq Require Import ZArith List Bool Lia.
From Verif Require Import Model_Lit Model_Core Spec_Sem Spec_Free Spec_Fold Proofs_Sim Proofs_Core Proofs_Free Proofs_Agree Proofs_FoldSem.
Import ListNotations.
Open Scope Z_scope.
Implicit Types S : env -> Prop.
Implicit Types Q Qt : shape -> Prop.

Section Run.
Variable P : prim -> script.
Notation TJ := (TJ P).
Notation CF := (CF P).
Notation VR := (VR P).
Notation orel := (orel P).
Notation tok := (tok P).
Notation KIND := (KIND P).
Notation KR := (KR P).
Notation ER := (ER P).
Notation sr := (sr P).
Notation R := (R P).
Notation good := (good P MDirect MDirect R).
Notation next := (next P MDirect R).
Notation inev := (inev P MDirect).
Notation star := (star P MDirect).
Notation step := (step P MDirect).

Lemma bind_er (F : id -> Prop) xs vs vs' r r' h r1 h1 : Forall2 VR vs vs' -> bind MDirect xs vs r h = Some (r1, h1) -> ER (fun x => F x /\ ~ In x xs) r r' ->
  h1 = h /\ exists r1', (forall h', bind MDirect xs vs' r' h' = Some (r1', h')) /\ ER F r1 r1'.
Proof.
  intros V B E. destruct (bind_both P xs vs vs' r r' h r1 h1 V B) as (-> & r1' & B' & I1 & I2). split; [reflexivity|]. exists r1'. split; [assumption|].
  intros x Fx G. destruct (in_dec id_dec x xs) as [I|I]; [auto|]. destruct (I2 x I) as (-> & ->). apply E; auto.
Qed.
Lemma lam_er ids b r r' : ER (fun x => free_in x (ELam ids b)) r r' -> ER (fun x => free_in x b /\ ~ In x ids) r r'.
Proof. apply er_impl. intros x (A & B). eapply free_part; [now left | exact B | exact A]. Qed.
Lemma call_rel p p' vs vs' r r' K K' w w' Q s1 : VR p p' -> Forall2 VR vs vs' -> (forall s, Q s) -> KR Q K K' -> sr w w' ->
  firef P MDirect OApp (p :: vs) r K w = Some s1 -> exists t1 n, firef P MDirect OApp (p' :: vs') r' K' w' = Some t1 /\ R n s1 t1.
Proof.
  intros V F HQ KK W E. destruct V as [c|l|S ids b b' r0 r0' C Sr A|S ids lams lams' i r0 r0' L Sr A|Q0 K0 K0' HQ0 KK0]; try discriminate; cbn [firef] in E |- *.
  - destruct (bind MDirect ids vs r0 (hp w)) as [(r1 & h1)|] eqn:B; [|discriminate]. assert (s1 = Ev b r1 K (set_hp w h1)) by congruence. subst s1. clear E.
    destruct (bind_er (fun x => free_in x b) ids vs vs' r0 r0' (hp w) r1 h1 F B (lam_er _ _ _ _ A)) as (-> & r1' & B' & E1).
    exists (Ev b' r1' K' (set_hp w' (hp w'))), O. split; [now rewrite B'|]. rewrite !set_hp_same. apply r_ev with (ext ids S) Q; auto.
    + exists r0, vs, (hp w), (hp w). auto.
    + now apply tj_top.
  - destruct (nth_error lams i) as [(xs & b)|] eqn:N; [|discriminate]. destruct (Forall2_nth _ _ _ _ _ L N) as ((xs' & b') & N' & X & C). cbn [fst snd] in X, C. subst xs'. rewrite N'.
    destruct (bind MDirect xs vs (bind_fix ids lams r0) (hp w)) as [(r1 & h1)|] eqn:B; [|discriminate]. assert (s1 = Ev b r1 K (set_hp w h1)) by congruence. subst s1. clear E.
    destruct (bind_er (fun x => free_in x b) xs vs vs' (bind_fix ids lams r0) (bind_fix ids lams' r0') (hp w) r1 h1 F B) as (-> & r1' & B' & E1).
    { apply fix_er with S; [assumption..|]. intros x ((Fx & NI) & NJ) G. apply A; [|assumption].
      apply free_part with (ids ++ xs) b; [|rewrite in_app_iff; tauto | assumption]. right. apply in_map_iff. exists (xs, b). split; [reflexivity|]. eapply nth_error_In; eauto. }
    exists (Ev b' r1' K' (set_hp w' (hp w'))), O. split; [now rewrite B'|]. rewrite !set_hp_same. apply r_ev with (ext xs (fixed ids lams S)) Q; auto.
    + exists (bind_fix ids lams r0), vs, (hp w), (hp w). split; [|assumption]. exists r0. auto.
    + now apply tj_top.
  - apply throwf_inv in E. destruct E as [(v & -> & ->)|(e & p & r1 & N & -> & ->)].
    + inversion F as [|? v' ? ? V F']; subst. inversion F'; subst. exists (Ret v' K0' w'), O. split; [reflexivity|]. apply r_ret with Q0; auto.
    + destruct (recv_inv _ _ _ _ _ _ KK0) as (e' & p' & r1' & -> & V). exists (Args OApp (map SDone (p' :: vs')) [] trap w'). 
      destruct (done_elems P [] [] (p :: vs) (p' :: vs') (map (fun _ => top) (p :: vs))) as (T & FT & SK & A & B & M); [now constructor | apply sats_top|].
      exists (msr T). split; [apply Forall2_len in F; destruct vs' as [|? [|]]; cbn in F; [reflexivity | congruence | reflexivity]|].
      rewrite <- A, <- B. apply r_args with top; auto.
      * rewrite SK. apply kd_app. intros s. exact I.
      * apply trap_KR.
Qed.

Lemma dones_args o o' p p' v v' K K' w w' Q : VR p p' -> VR v v' -> sr w w' -> KR Q K K' -> KIND [] [] Q [KQ top; KQ top] o o' ->
  exists n, R n (Args o (map SDone [p; v]) [] K w) (Args o' (map SDone [p'; v']) [] K' w').
Proof.
  intros V U W KK KD. exists O. change O with (msr [Both (SDone p) (SDone p') top; Both (SDone v) (SDone v') top]).
  apply (r_args P Q [Both (SDone p) (SDone p') top; Both (SDone v) (SDone v') top] o o' [] []); auto.
  repeat constructor; auto.
Qed.
Lemma fire_rel T Q o o' r r' vs vs' K K' w w' s1 : Forall (tok r r') T -> KIND r r' Q (map skel T) o o' -> fs T = map SDone vs -> ft T = map SDone vs' ->
  KR Q K K' -> sr w w' -> firef P MDirect o vs r K w = Some s1 -> exists t1 n, firef P MDirect o' vs' r' K' w' = Some t1 /\ R n s1 t1.
Proof.
  intros F KD A B KK W E. remember (map skel T) as ks eqn:SK.
  destruct KD as [S r r' Q Qt b c b' c' Cb Cc Sr Jb Jc ER0|S k r r' Q Qt b c u y Cu Sr J HT NF ER0|r r' Q Qs x HQ ER0|r r' Q Qs ef p HQ|r r' Q Qs HQ|S r r' Q Qs ids ids' b b' Cb HB ER0 HI|S r r' Q Qs e e' Ce Sr ER0].
  - destruct (plain_done P r r' [Qt] T vs vs' F (eq_sym SK) A B) as (FV & HS). inversion FV as [|v v' ? ? V FV']; subst; [inversion HS|]. inversion FV'; subst; [|inversion HS as [|? ? ? ? ? HS2]; inversion HS2].
    cbn [firef] in *. injection E as <-. exists (Ev (if is_true v' then b' else c') r' K' w'), O. split; [reflexivity|]. rewrite <- (VR_true _ _ _ V).
    apply r_ev with S Q; auto; destruct (is_true v); auto; eapply er_impl; try exact ER0; cbn; auto.
  - destruct T as [|x [|x2 [|]]]; try discriminate. cbn in SK. injection SK as SK1 SK2. destruct x as [|v0 op ids0 b0]; [discriminate|]. cbn in SK1. injection SK1 as <- <- <-.
    destruct x2 as [s s' Q0|]; [|discriminate]. cbn in SK2. injection SK2 as <-. inversion F as [|? ? X1 F']; subst. apply Forall_inv in F'.
    cbn in A, B. destruct vs as [|v [|]]; try discriminate. destruct vs' as [|p' [|v' [|]]]; try discriminate. injection A as ->. injection B as -> ->.
    inversion X1; subst. inversion F'; subst. cbn [firef] in E. injection E as <-. cbn [firef bind].
    exists (Ev u ((y, v') :: r') K' (set_hp w' (hp w'))), O. split; [reflexivity|]. rewrite set_hp_same.
    assert (IT : is_true v = k) by (rewrite truth_is; auto). rewrite IT. apply r_ev with S Q; auto.
    intros z Fz G. rewrite lookup_cons. assert (N : z <> y) by (intros ->; auto). rewrite (proj2 (id_eqb_neq _ _) N). auto.
  - destruct (plain_done P r r' Qs T vs vs' F (eq_sym SK) A B) as (FV & HS). cbn [firef] in E |- *. inversion FV as [|v v' ? ? V FV']; subst; [discriminate|]. inversion FV'; subst; [|discriminate].
    destruct (global_id x) eqn:G.
    + injection E as <-. exists (Ret (VC CVoid) K' (set_gl w' x v')), O. split; [reflexivity|]. apply r_ret with Q; auto; [constructor|]. now apply sr_set.
    + destruct (lookup r x) as [[]|] eqn:L; try discriminate. exfalso. specialize (ER0 eq_refl). inversion ER0 as [|u u' U]; subst. inversion U.
  - destruct (plain_done P r r' Qs T vs vs' F (eq_sym SK) A B) as (FV & HS). cbn [firef] in E |- *. destruct (zlist_dec p the_halt_prim) as [->|N].
    + inversion FV as [|v v' ? ? V FV']; subst; [discriminate|]. inversion FV'; subst; [|discriminate]. injection E as <-. exists (Halted v' w'), O. split; [reflexivity|]. now constructor.
    + destruct (run (P p) vs w) as [(v & w1)|] eqn:X; [|discriminate]. injection E as <-. destruct (run_sr P _ _ _ _ _ _ _ W FV X) as (v' & w1' & -> & W1 & V).
      exists (Ret v' K' w1'), O. split; [reflexivity|]. apply r_ret with Q; auto. eapply HQ; eauto.
  - destruct (plain_done P r r' Qs T vs vs' F (eq_sym SK) A B) as (FV & HS). destruct FV as [|p p' vs vs' V FV]; [discriminate|]. eapply call_rel; eauto.
  - destruct T as [|x T]; [discriminate|]. cbn [map] in SK. injection SK as SK1 SK2. destruct x as [|v0 op ids0 b0]; [discriminate|]. cbn in SK1. injection SK1 as <- <- <-.
    rewrite fs_cons in A. rewrite ft_cons in B. cbn [srcs tgts app] in A, B. destruct vs as [|p vs]; [discriminate|]. destruct vs' as [|p' vs']; [discriminate|]. cbn [map] in A, B.
    inversion F as [|? ? X1 F']; subst. assert (A2 : fs T = map SDone vs) by congruence. assert (B2 : ft T = map SDone vs') by congruence. assert (p = VClo ids b r) by congruence. subst p. assert (op = SDone p') by congruence. subst op.
    inversion X1; subst. destruct (plain_done P r r' Qs T vs vs' F' (eq_sym SK2) A2 B2) as (FV & HS). cbn [firef] in E |- *.
    destruct (bind MDirect ids vs r (hp w)) as [(r1 & h1)|] eqn:Bi; [|discriminate]. assert (s1 = Ev b r1 K (set_hp w h1)) by congruence. subst s1. clear E.
    destruct (HB _ _ _ _ HS Bi) as (S1 & J1).
    destruct HI as [->|(x & y & -> & -> & N1 & N2)].
    + destruct (bind_er (fun x => free_in x b) ids vs vs' r r' (hp w) r1 h1 FV Bi (lam_er _ _ _ _ ER0)) as (-> & r1' & B' & E1).
      exists (Ev b' r1' K' (set_hp w' (hp w'))), O. split; [now rewrite B'|]. rewrite !set_hp_same. apply r_ev with S Q; auto.
    + destruct FV as [|v v' vs vs' V FV]; [discriminate|]. destruct FV; [|discriminate]. cbn [bind] in *. injection Bi as <- <-. eexists _, O. split; [reflexivity|]. rewrite !set_hp_same. apply r_ev with S Q; auto.
      intros z Fz G. rewrite !lookup_cons. assert (M1 : z <> x) by (intros ->; auto). assert (M2 : z <> y) by (intros ->; auto). rewrite (proj2 (id_eqb_neq _ _) M1), (proj2 (id_eqb_neq _ _) M2).
      apply ER0; [|assumption]. eapply free_part; [now left| |exact Fz]. intros [->|[]]. auto.
  - destruct (plain_done P r r' Qs T vs vs' F (eq_sym SK) A B) as (FV & HS). cbn [firef] in E |- *. destruct FV as [|v v' vs vs' V FV]; [discriminate|]. destruct FV as [|u u' vs vs' U FV].
    + injection E as <-. destruct (kont_of_KR P _ _ V) as (Q1 & HQ1 & KK1). exists (Ev e' r' (kont_of v') w'), O. split; [reflexivity|]. apply r_ev with S Q1; auto. now apply tj_top.
    + destruct FV; [|discriminate]. injection E as <-. destruct (dones_args OApp OApp v v' u u' trap trap w w' top V U W (trap_KR P top)) as (n & X).
      * apply (kd_app P [] [] top [top; top]). intros s. exact I.
      * eexists _, n. split; [reflexivity | exact X].
Qed.

(** ** Operands *)
Lemma args_good n T Q o o' r r' K K' w w' : Forall (tok r r') T -> KIND r r' Q (map skel T) o o' -> KR Q K K' -> sr w w' -> (msr T <= n)%nat ->
  good n (Args o (fs T) r K w) (Args o' (ft T) r' K' w').
Proof.
  intros F KD KK W Ln. destruct (slots_cases (ft T)) as [(vs' & B)|(a & e & b & B)].
  - destruct (ft_done P r r' T vs' F B) as (_ & vs & A). destruct (firef P MDirect o vs r K w) as [s1|] eqn:E.
    + destruct (fire_rel _ _ _ _ _ _ _ _ _ _ _ _ _ F KD A B KK W E) as (t1 & n1 & E' & X). rewrite A, B. right; right. split; [exists t1; constructor; now apply fire_firef|].
      intros t' S. apply step_done, fire_firef in S. assert (t' = t1) by congruence. subst. apply inev_now. eapply next_one; [|exact X]. constructor. now apply fire_firef.
    + rewrite A. left. apply stuck_fire. intros s S. apply fire_firef in S. congruence.
  - right; right. split; [rewrite B; eexists; constructor|]. intros t' S. apply step_args in S. destruct S as [(a1 & e1 & b1 & B1 & ->)|(vs & B1 & _)]; [|rewrite B1 in B; now apply done_todo in B].
    clear a e b B. destruct (ft_split _ _ _ _ B1) as (T1 & x & T2 & -> & X & -> & ->). apply Forall_app in F as F0. destruct F0 as (F1 & F2). inversion F2 as [|? ? Fx F2']; subst.
    rewrite map_app in KD. cbn [map] in KD.
    destruct Fx as [r r' v v' Q0 V QV|S r r' e e' Q0 C Sr J E1|r r' v ids b|r r' v ids b]; cbn in X; try discriminate.
    + injection X as <-. apply inev_now. apply next_one with O (Ev e r (Fr o (fs T1) (fs T2) r :: K) w).
      * rewrite fs_app, fs_cons. cbn [srcs app]. constructor.
      * apply r_ev with S Q0; auto. apply kr_frame with Q; auto.
    + injection X as <-. apply inev_det with (t1 := Ret (VClo ids b r') (Fr o' (ft T1) (ft T2) r' :: K') w'); [reflexivity | constructor | intros t' St; apply step_evf in St; cbn in St; congruence|].
      apply inev_ret; [reflexivity|]. apply inev_now. right. exists (msr (T1 ++ Op v (SDone (VClo ids b r')) ids b :: T2)), (Args o (fs (T1 ++ Op v (STodo (ELam ids b)) ids b :: T2)) r K w). split.
      * replace (ft T1 ++ SDone (VClo ids b r') :: ft T2) with (ft (T1 ++ Op v (SDone (VClo ids b r')) ids b :: T2)) by now rewrite ft_app, ft_cons.
        replace (fs (T1 ++ Op v (STodo (ELam ids b)) ids b :: T2)) with (fs (T1 ++ Op v (SDone (VClo ids b r')) ids b :: T2)) by now rewrite !fs_app, !fs_cons.
        apply r_args with Q; auto.
        -- apply Forall_app. split; [assumption|]. constructor; [constructor | assumption].
        -- rewrite map_app. exact KD.
      * right. split; [constructor|]. rewrite msr_app, msr_cons in *. cbn [hm] in *. lia.
Qed.
(** ** Values *)
Lemma run_ident x r r0 K v w : global_id x = false -> (forall l, v <> VRef l) -> star (Ret v (Fr OApp [SDone (VClo [x] (EVar x) r)] [] r0 :: K) w) (Ret v K w).
Proof.
  intros G Pl. eapply star_step; [constructor|]. cbn [app].
  eapply star_step; [apply (st_fire P MDirect OApp [VClo [x] (EVar x) r; v]); constructor; reflexivity|]. rewrite set_hp_same.
  apply star_one. constructor. unfold read_var. rewrite G, lookup_cons, id_eqb_refl. destruct v; try reflexivity. now contradiction (Pl l).
Qed.
Lemma ret_good n K : forall Q v v' K' w w', VR v v' -> Q (shape_of v) -> KR Q K K' -> sr w w' -> good n (Ret v K w) (Ret v' K' w').
Proof.
  induction K as [|f K IH]; intros Q v v' K' w w' V QV KK W; inversion KK as [|Q1 Q0 T1 T2 o r K1 o' r' K1' F1 F2 KD KK1 E1 E2|Q1 x r r0 K1 K1' G KK1]; subst.
  - right; left. exists (Ret v [] w), v, v'. split; [constructor|]. split; [constructor|]. split; [constructor|]. split; [now apply (VR_shape P)|].
    split; [now apply (sr_out P)|]. intros x. apply (VR_shape P). apply W.
  - apply good_ret. apply inev_now. eapply next_one; [constructor|].
    replace (fs T1 ++ SDone v :: fs T2) with (fs (T1 ++ Both (SDone v) (SDone v') Q :: T2)) by now rewrite fs_app, fs_cons.
    replace (ft T1 ++ SDone v' :: ft T2) with (ft (T1 ++ Both (SDone v) (SDone v') Q :: T2)) by now rewrite ft_app, ft_cons.
    apply r_args with Q1; auto.
    + apply Forall_app. split; [assumption|]. constructor; [now constructor | assumption].
    + rewrite map_app. exact KD.
  - eapply good_star; [apply run_ident; [assumption | apply (VR_not_ref P _ _ V)]|]. eapply IH; eauto.
Qed.

(** ** Expressions *)
Lemma eval_op1 ids b l r K w : star (Ev (EApp (ELam ids b) l) r K w) (Args OApp (SDone (VClo ids b r) :: map STodo l) r K w).
Proof.
  eapply star_step; [now apply st_args|]. cbn [map]. eapply star_step; [apply (st_pick P MDirect OApp [])|]. eapply star_step; [apply st_lam|].
  apply star_one. apply (st_ret P MDirect _ OApp []).
Qed.
Lemma let_op ids b l r K w : plus P MDirect (Ev (EApp (ELam ids b) l) r K w) (Args OApp (SDone (VClo ids b r) :: map STodo l) r K w).
Proof.
  econstructor; [now apply st_args|]. cbn [map]. eapply star_step; [apply (st_pick P MDirect OApp [])|]. eapply star_step; [apply st_lam|].
  apply star_one. apply (st_ret P MDirect _ OApp []).
Qed.
Lemma shape_onto s : exists v, shape_of v = s /\ forall l, v <> VRef l.
Proof. destruct s as [c| |]; [exists (VC c) | exists (VLoc 0) | exists (VCont [])]; split; (reflexivity || discriminate). Qed.
Lemma tj_ident x e r Q : global_id x = false -> TJ r (EApp (ELam [x] (EVar x)) [e]) Q -> TJ r e Q.
Proof.
  intros G J. destruct (tj_let_inv P _ _ _ J _ _ _ eq_refl) as (Qs & J1 & J2). inversion J1 as [|? Q1 ? Qs1 J3 J4]; subst. inversion J4; subst.
  apply (tj_and P _ _ _ _ _ J3 J3). intros s X _. destruct (shape_onto s) as (v & <- & NR).
  specialize (J2 [v] ((x, v) :: r) [] []). destruct (tj_var_inv P _ _ _ (J2 (Forall2_cons _ _ X (Forall2_nil _)) eq_refl) _ eq_refl) as [H|(_ & H)]; [auto|].
  apply H. now rewrite lookup_cons, id_eqb_refl.
Qed.
Lemma er_part e ys e' r r' : In (ys, e') (parts e) -> ER (fun x => free_in x e) r r' -> ER (fun x => free_in x e' /\ ~ In x ys) r r'.
Proof. intros I. apply er_impl. intros x (A & B). eapply free_part; eauto. Qed.
Lemma er_part0 e e' r r' : In ([], e') (parts e) -> ER (fun x => free_in x e) r r' -> ER (fun x => free_in x e') r r'.
Proof. intros I. apply er_impl. intros x A. eapply free_part; eauto. Qed.
(** one step on both sides leads to operands *)
Lemma ops_good n e o l e' o' l' S Q Qs r r' K K' w w' : decomp e = Some (o, l) -> decomp e' = Some (o', l') -> Forall2 (CF S) l l' -> S r -> Forall2 (TJ r) l Qs ->
  (forall e1, In e1 l -> In ([], e1) (parts e)) -> ER (fun x => free_in x e) r r' -> KIND r r' Q (map KQ Qs) o o' -> KR Q K K' -> sr w w' ->
  good n (Ev e r K w) (Ev e' r' K' w').
Proof.
  intros D D' C Sr J IP E KD KK W. destruct (todo_elems P r r' S l l' Qs C Sr J) as (T & F & SK & A & B & M).
  { intros e1 I. apply (er_part0 e); auto. }
  right; right. split; [eexists; apply st_args; exact D'|]. intros t' St. 
  assert (t' = Args o' (map STodo l') r' K' w') as ->.
  { inversion St; subst; cbn in D'; try discriminate. congruence. }
  apply inev_now. apply next_one with (msr T) (Args o (map STodo l) r K w); [apply st_args; exact D|]. rewrite <- A, <- B. apply r_args with Q; auto. now rewrite SK.
Qed.
Lemma ev_good m : forall e S Q e' r r' K K' w w' n, (esize e <= m)%nat -> CF S e e' -> S r -> TJ r e Q -> ER (fun x => free_in x e) r r' -> KR Q K K' -> sr w w' ->
  good n (Ev e r K w) (Ev e' r' K' w').
Proof.
  induction m as [|m IH]; intros e S Q e' r r' K K' w w' n L C Sr J E KK W; [destruct e; cbn in L; lia|].
  destruct C as [S x|S x e e' C|S a b c a' b' c' Ca Cb Cc|S k a b c a' u y Ca Cu HT NF|S ef p l l' Cl|S f l f' l' NL Cf Cl|S ids ids' b l b' l' Qs Cl Cb HJ HI|S b b' C|S x e e' G C|S ids b b' C|S ids lams lams' b b' CL C|S x b b' C|S k0 e k0' e' Ck C].
  - apply good_ev. intros s1 F. cbn [evf] in F |- *. destruct (read_var MDirect r x w) as [v|] eqn:RV; [|discriminate]. injection F as <-. unfold read_var in *.
    destruct (global_id x) eqn:G.
    + injection RV as <-. eexists. split; [reflexivity|]. apply inev_now. eapply next_one; [constructor; unfold read_var; rewrite G; reflexivity|]. apply r_ret with Q; auto; [apply W|].
      apply (tj_opaque P _ _ _ J). exact G.
    + assert (OR := E x (free_here _ _ (nm_ref x)) G). inversion OR as [A B|v0 v0' V A B]; rewrite <- A in RV; [discriminate|].
      assert (v0 = v) as -> by (destruct v0; try congruence; inversion V). assert (RV' : match v0' with VRef l => match nth_error (hp w') l with Some [v1] => Some v1 | _ => None end | _ => Some v0' end = Some v0') by (destruct v0'; try reflexivity; inversion V).
      exists (Ret v0' K' w'). split; [rewrite <- ?B; destruct v0'; try reflexivity; inversion V|]. apply inev_now. apply next_one with 0%nat (Ret v K w); [constructor; unfold read_var; rewrite G, <- A; destruct v; try reflexivity; inversion V|].
      apply r_ret with Q; auto. destruct (tj_var_inv P _ _ _ J _ eq_refl) as [H|(_ & H)]; auto.
  - eapply (ops_good n _ (OSet x) [e] _ (OSet x) [e'] S Q [top]); eauto; try reflexivity.
    + constructor; [apply tj_top; intros s; exact I | constructor].
    + cbn. intros e1 [->|[]]. now left.
    + apply (kd_set P r r' Q [top] x); [apply (tj_opaque P _ _ _ J); exact I|]. intros G. apply E; [|assumption]. apply free_here. constructor.
  - destruct (tj_if_inv P _ _ _ J _ _ _ eq_refl) as (J1 & J2). eapply (ops_good n _ (OIf b c) [a] _ (OIf b' c') [a'] S Q [top]); eauto; try reflexivity.
    + constructor; [apply tj_top; intros s; exact I | constructor].
    + cbn. intros e1 [->|[]]. now left.
    + apply (kd_if P S r r' Q top); auto. apply (er_impl P (fun x => free_in x (EIf a b c))); [|assumption]. intros x X. destruct X as [X|X]; [apply free_part with [] b | apply free_part with [] c]; auto; cbn; auto.
  - destruct (tj_if_inv P _ _ _ J _ _ _ eq_refl) as (J1 & J2). right; right. split; [eexists; apply st_args; reflexivity|]. intros t' St. apply step_evf in St. cbn in St. injection St as <-.
    apply inev_now. apply next_one with 1%nat (Args (OIf b c) (map STodo [a]) r K w); [apply st_args; reflexivity|].
    apply (r_args P Q [Op None (STodo (ELam [y] u)) [y] u; Both (STodo a) (STodo a') (fun s => truth s = k)]); auto.
    + constructor; [constructor|]. constructor; [|constructor]. apply tk_todo with S; auto. apply (er_part0 (EIf a b c)); [now left | assumption].
    + cbn [map skel]. apply kd_fold with S k; auto; [destruct k; assumption|]. apply (er_part0 (EIf a b c) (if k then b else c)); [|assumption]. destruct k; cbn; auto.
  - destruct (tj_prim_inv P _ _ _ J _ _ _ eq_refl) as (Qs & J1 & J2). eapply (ops_good n _ (OPrim ef p) l _ (OPrim ef p) l' S Q Qs); eauto; try reflexivity.
    + cbn. intros e1 I. now apply in_map.
    + now apply kd_prim.
  - eapply (ops_good n _ OApp (f :: l) _ OApp (f' :: l') S Q (map (fun _ => top) (f :: l))); eauto; try reflexivity.
    + apply tj_tops.
    + cbn. intros e1 [->|I]; [now left|]. right. now apply in_map.
    + apply kd_app. apply (tj_opaque P _ _ _ J). exact NL.
  - destruct (tj_let_inv P _ _ _ J _ _ _ eq_refl) as (Qs' & J1 & J2). specialize (HJ r Sr).
    destruct (todo_elems P r r' S l l' _ Cl Sr (tj_list_and P r l _ _ HJ J1)) as (T & F & SK & A & B & M).
    { intros e1 I. apply (er_part0 (EApp (ELam ids b) l)); [cbn; right; now apply in_map | assumption]. }
    right; right. split; [eexists; apply st_args; reflexivity|]. intros t' St. apply step_evf in St. cbn in St. injection St as <-.
    apply inev_now. right. exists (msr (Op (Some (VClo ids b r)) (STodo (ELam ids' b')) ids' b' :: T)), (Args OApp (SDone (VClo ids b r) :: map STodo l) r K w). split; [|left; apply let_op].
    rewrite <- A, <- B.
    replace (SDone (VClo ids b r) :: fs T) with (fs (Op (Some (VClo ids b r)) (STodo (ELam ids' b')) ids' b' :: T)) by now rewrite fs_cons.
    replace (STodo (ELam ids' b') :: ft T) with (ft (Op (Some (VClo ids b r)) (STodo (ELam ids' b')) ids' b' :: T)) by now rewrite ft_cons.
    apply r_args with Q; auto.
    + constructor; [constructor | assumption].
    + cbn [map skel]. rewrite SK. apply kd_let with (after ids Qs S); auto.
      * intros vs r1 h h' H Bi. apply (sats_and (Qs r) Qs') in H; [|now rewrite <- (Forall2_len _ _ _ HJ), <- (Forall2_len _ _ _ J1)]. destruct H as (H1 & H2). split; [exists r, vs, h, h'; auto | eauto].
      * apply (er_part0 (EApp (ELam ids b) l)); [now left | assumption].
  - eapply good_star; [eapply star_trans; [apply eval_op1|]; cbn [map]; apply star_one; apply (st_fire P MDirect OApp [VClo [] b r]); constructor; reflexivity|]. rewrite set_hp_same.
    destruct (tj_let_inv P _ _ _ J _ _ _ eq_refl) as (Qs' & J1 & J2). eapply (IH b S); eauto.
    + cbn in L. lia.
    + apply (J2 [] r (hp w) (hp w)); [inversion J1; constructor | reflexivity].
    + intros x Fx. apply E. eapply free_part; [now left | easy|]. eapply free_part; [now left | easy | exact Fx].
  - eapply good_star; [eapply star_trans; [apply eval_op1|]; cbn [map]; apply star_one; apply (st_pick P MDirect OApp [SDone (VClo [x] (EVar x) r)] e [])|].
    apply (IH e S Q); auto.
    + cbn in L. lia.
    + now apply tj_ident with x.
    + apply (er_part0 (EApp (ELam [x] (EVar x)) [e])); [cbn; auto | assumption].
    + now apply kr_ident.
  - apply good_ev. intros s1 F. cbn [evf] in F |- *. injection F as <-. eexists. split; [reflexivity|]. apply inev_now. eapply next_one; [apply st_lam|]. apply r_ret with Q; auto.
    + apply vr_clo with S; auto.
    + apply (tj_opaque P _ _ _ J). exact I.
  - apply good_ev. intros s1 F. cbn [evf] in F |- *. injection F as <-. eexists. split; [reflexivity|]. apply inev_now. eapply next_one; [apply st_fix|]. apply r_ev with (fixed ids lams S) Q; auto.
    + exists r. auto.
    + apply tj_top. apply (tj_opaque P _ _ _ J). exact I.
    + apply fix_er with S; auto.
      * apply (er_impl P (fun x => free_in x (EFix ids lams b))); [|assumption]. intros x. apply fix_void.
      * apply (er_part (EFix ids lams b)); [now left | assumption].
  - apply good_ev. intros s1 F. cbn [evf bind] in F |- *. destruct (capturable K) eqn:Cp; [|discriminate]. rewrite (KR_capturable P _ _ _ KK Cp). injection F as <-. eexists. split; [reflexivity|].
    apply inev_now. eapply next_one; [apply st_letcc; [exact Cp | reflexivity]|]. rewrite !set_hp_same. assert (HQ := tj_opaque P _ _ _ J I). apply r_ev with (ext [x] S) Q; auto.
    + exists r, [VCont K], (hp w), (hp w). auto.
    + now apply tj_top.
    + intros y Fy G. rewrite !lookup_cons. destruct (id_eqb y x) eqn:X; [constructor; now apply vr_cont with Q|]. apply E; [|assumption]. apply id_eqb_neq in X. eapply free_part; [now left| |exact Fy]. intros [->|[]]; auto.
  - eapply (ops_good n _ (OWith e) [k0] _ (OWith e') [k0'] S Q [top]); eauto; try reflexivity.
    + constructor; [apply tj_top; intros s; exact I | constructor].
    + cbn. intros e1 [->|[]]. now left.
    + apply (kd_with P S r r' Q [top]); auto. apply (er_part0 (EWithcc k0 e)); [cbn; auto | assumption].
Qed.

Lemma R_out n s t : R n s t -> out (mem s) = out (mem t).
Proof. destruct 1; cbn [mem]; now apply (sr_out P). Qed.
Lemma R_good n s t : R n s t -> good n s t.
Proof.
  destruct 1 as [S Q e e' r r' K K' w w' C Sr J E KK W|Q T o o' r r' K K' w w' F KD KK W|Q v v' K K' w w' V QV KK W|v v' w w' V W].
  - eapply (ev_good (esize e)); eauto.
  - eapply args_good; eauto.
  - eapply ret_good; eauto.
  - right; left. exists (Halted v w), v, v'. split; [constructor|]. split; [constructor|]. split; [constructor|]. split; [now apply (VR_shape P)|].
    split; [now apply (sr_out P)|]. intros x. apply (VR_shape P). apply W.
Qed.
Theorem CF_refines S e e' : CF S e e' -> S [] -> refines P MDirect MDirect e e'.
Proof.
  intros C Sr g i. apply (simulation P MDirect MDirect R R_out R_good 0). apply r_ev with S top; auto.
  - apply tj_top. intros s. exact I.
  - intros x _ _. constructor.
  - constructor.
  - split; [constructor|]. split; [intros x; constructor|]. split; reflexivity.
Qed.
End Run.
