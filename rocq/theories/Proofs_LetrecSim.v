(** Fixing letrecs: related programs do the same. *)
From Coq Require Import ZArith String List Bool Lia Permutation.
From Verif Require Import Model_Lit Model_Core Model_Letrec Spec_Sem Spec_Free Spec_Fold Proofs_Sim Proofs_Core Proofs_Free.
From Verif Require Import Proofs_Assign Proofs_Letrec Proofs_LetrecEnv.
Import ListNotations.
Open Scope Z_scope.

Section Sim.
Variable P : prim -> script.
Hypothesis PV : fixed P the_void_prim CVoid.
Notation FX := (FX P). Notation FXL := (FXL P). Notation SIL := (SIL P). Notation FW := (FW P). Notation OC := (OC P).
Notation early := (early P). Notation ER := (ER P). Notation VR := (VR P). Notation SR := (SR P). Notation SL := (SL P). Notation KR := (KR P).
Notation star := (star P MStrict). Notation wrong := (wrong P MStrict).

(** ** Steps of the old program *)
Lemma star_begin d b e r k w : star (Ev (EApp (ELam [d] b) [e]) r k w) (Ev e r (Fr OApp [SDone (VClo [d] b r)] [] r :: k) w).
Proof.
  eapply star_step; [apply step_evf; reflexivity|]. eapply star_step; [apply (st_pick P MStrict OApp [] (ELam [d] b) [STodo e])|].
  eapply star_step; [apply step_evf; reflexivity|]. eapply star_step; [apply st_ret|]. apply star_one.
  apply (st_pick P MStrict OApp [SDone (VClo [d] b r)] e []).
Qed.
Lemma star_begun v d b r0 r k w : star (Ret v (Fr OApp [SDone (VClo [d] b r0)] [] r :: k) w) (Ev b ((d, VRef (length (hp w))) :: r0) k (set_hp w (hp w ++ [[v]]))).
Proof.
  eapply star_step; [apply st_ret|]. apply star_one. apply (st_fire P MStrict OApp [VClo [d] b r0; v]). apply fire_firef. reflexivity.
Qed.
Lemma star_assign x e r k w : star (Ev (ESet x e) r k w) (Ev e r (Fr (OSet x) [] [] r :: k) w).
Proof. eapply star_step; [apply step_evf; reflexivity|]. apply star_one. apply (st_pick P MStrict (OSet x) [] e []). Qed.
Lemma star_assigned x l u0 v h r k w : global_id x = false -> lookup r x = Some (VRef l) -> nth_error (hp w) l = Some [u0] -> list_set (hp w) l [v] = Some h ->
  star (Ret v (Fr (OSet x) [] [] r :: k) w) (Ret v k (set_hp w h)).
Proof.
  intros GX L N S. eapply star_step; [apply st_ret|]. apply star_one. apply (st_fire P MStrict (OSet x) [v]). eapply fi_set; eauto.
Qed.
Lemma star_ops o es vs r k w : Forall2 (fun e v => forall k1, star (Ev e r k1 w) (Ret v k1 w)) es vs -> forall ds,
  star (Args o (map SDone ds ++ map STodo es) r k w) (Args o (map SDone (ds ++ vs)) r k w).
Proof.
  induction 1 as [|e v es vs A F IH]; intros ds.
  - cbn. rewrite !app_nil_r. constructor.
  - cbn [map]. eapply star_step; [apply st_pick|]. eapply star_trans; [apply A|]. eapply star_step; [apply st_ret|].
    replace (map SDone ds ++ SDone v :: map STodo es) with (map SDone (ds ++ [v]) ++ map STodo es) by (rewrite map_app, <- app_assoc; reflexivity).
    replace (ds ++ v :: vs) with ((ds ++ [v]) ++ vs) by (rewrite <- app_assoc; reflexivity). apply IH.
Qed.
Lemma star_void r k w : star (Ev void_exp r k w) (Ret (VC CVoid) k w).
Proof.
  eapply star_step; [apply step_evf; reflexivity|]. apply star_one. apply (st_fire P MStrict _ []). apply fire_firef. now apply fire_const.
Qed.
Lemma star_let ids b r k w r1 h1 : bind MStrict ids (map (fun _ => VC CVoid) ids) r (hp w) = Some (r1, h1) ->
  plus P MStrict (Ev (EApp (ELam ids b) (voids ids)) r k w) (Ev b r1 k (set_hp w h1)).
Proof.
  intros B. econstructor; [apply step_evf; reflexivity|].
  eapply star_trans; [apply (star_ops OApp (ELam ids b :: voids ids) (VClo ids b r :: map (fun _ => VC CVoid) ids) r k w) with (ds := [])|].
  - constructor; [intros k1; apply star_one; constructor|]. unfold voids. clear B. induction ids; cbn; constructor; auto. intros k1. apply star_void.
  - apply star_one. apply (st_fire P MStrict OApp (VClo ids b r :: map (fun _ => VC CVoid) ids)). now constructor.
Qed.
(** the initial values of a letrec *)
Definition goes (W : world) (G : ctx) (r' : env) (x : id) (u : val) : Prop :=
  global_id x = false /\ (assq x G = Some RLate /\ (exists v, tval W r' x v /\ VR W u v) \/ assq x G = Some RDead).
Lemma SIL_early G vs x e e' : SIL G vs -> In (x, (e, e')) vs -> forall W pl r r' w w', ER W G pl r r' -> SR W w w' -> exists v, early W G r' e v.
Proof.
  intros Si I W pl r r' w w' E S. destruct (SIL_vals P _ _ Si _ _ _ _ _ _ E S) as (us & _ & F). apply (in_map src) in I.
  apply In_nth_error in I. destruct I as (i & N). destruct (Forall2_nth _ _ _ _ _ F N) as (v & _ & V). now exists v.
Qed.
Lemma star_plan W G pl r r' w w' o k vs : ER W G pl r r' -> SR W w w' -> SIL G vs -> forall xs rands,
  Forall2 (fun x e => In (x, e) pl \/ global_id x = false /\ assq x G = Some RDead /\ exists e', In (x, (e, e')) vs) xs rands -> forall ds,
  wrong (Args o (map SDone ds ++ map STodo rands) r k w) \/
  exists us, star (Args o (map SDone ds ++ map STodo rands) r k w) (Args o (map SDone (ds ++ us)) r k w) /\ Forall2 (goes W G r') xs us.
Proof.
  intros E S Si. induction 1 as [|x e xs rands I F IH]; intros ds.
  - right. exists []. cbn. rewrite !app_nil_r. split; [constructor | constructor].
  - assert (Z : exists v, early W G r' e v /\ forall u, VR W u v -> goes W G r' x u).
    { destruct I as [I|(GX & Q & e' & I)].
      - pose proof E as (E1 & E2). destruct (E2 _ _ I) as (GX & Q & v & T & Ea). exists v. split; [assumption|]. intros u V. split; [assumption|]. left. eauto.
      - destruct (SIL_early _ _ _ _ _ Si I _ _ _ _ _ _ E S) as (v & Ea). exists v. split; [assumption|]. intros u V. split; [assumption|]. now right. }
    destruct Z as (v & Ea & Go).
    destruct (early_run P W G pl r r' w w' e v (Fr o (map SDone ds) (map STodo rands) r :: k) Ea E S) as [Wr|(u & St & V)].
    + left. eapply wrong_star; [|exact Wr]. apply star_one. apply st_pick.
    + assert (St2 : star (Args o (map SDone ds ++ map STodo (e :: rands)) r k w) (Args o (map SDone (ds ++ [u]) ++ map STodo rands) r k w)).
      { cbn [map]. eapply star_step; [apply st_pick|]. eapply star_trans; [exact St|]. rewrite map_app, <- app_assoc. apply star_one. apply st_ret. }
      destruct (IH (ds ++ [u])) as [Wr|(us & St3 & Fu)]; [left; eapply wrong_star; eauto|].
      right. exists (u :: us). split; [|constructor; auto]. eapply star_trans; [exact St2|]. rewrite <- app_assoc in St3. exact St3.
Qed.
Lemma set_goes W G pl r r' w w' x u k : ER W G pl r r' -> SR W w w' -> goes W G r' x u ->
  exists l h u0, star (Ret u (Fr (OSet x) [] [] r :: k) w) (Ret u k (set_hp w h)) /\ SR W (set_hp w h) w' /\
    nth_error (hp w) l = Some [u0] /\ list_set (hp w) l [u] = Some h /\ ~ sfree W l.
Proof.
  intros (E1 & _) S (GX & [(Q & v & T & V)|Q]).
  - destruct (E1 _ _ Q) as (l & v2 & L & La & T2). rewrite <- (tval_fun _ _ _ _ _ _ _ _ S T T2) in *.
    destruct (sr_late _ _ _ _ S _ _ La) as ((u0 & N & _) & NP). destruct (list_set_ok _ _ [u] _ N) as (h & Sh). exists l, h, u0.
    split; [eapply star_assigned; eauto|split; [|split; [auto|split; [auto|]]]]. 
    + eapply SR_set; eauto. intros v3 La3. now rewrite (sr_one _ _ _ _ S _ _ _ La3 La).
    + intros (_ & Sf & _). now apply Sf in La.
  - destruct (E1 _ _ Q) as (l & L & D). destruct (sr_dead _ _ _ _ S _ D) as ((u0 & N) & NP & NL). destruct (list_set_ok _ _ [u] _ N) as (h & Sh). exists l, h, u0.
    split; [eapply star_assigned; eauto|split; [|split; [auto|split; [auto|]]]].
    + eapply SR_set; eauto. intros v2 La. now apply NL in La.
    + intros (_ & _ & Sf). now apply Sf.
Qed.
Definition holds (W : world) (r : env) (w : st) (t : id) (u : val) : Prop :=
  global_id t = false /\ exists l, lookup r t = Some (VRef l) /\ nth_error (hp w) l = Some [u] /\ sfree W l.
Lemma sets_run G xs tmps e : sets (fun d => assq d G = None) xs tmps e -> forall W pl r r' w w' us k, ER W G pl r r' -> SR W w w' ->
  Forall2 (goes W G r') xs us ->
  Forall2 (holds W r w) tmps us ->
  wrong (Ev e r k w) \/ exists v w1, star (Ev e r k w) (Ret v k w1) /\ SR W w1 w'.
Proof.
  induction 1 as [|x xs t ts d e Nd Nt _ IH]; intros W pl r r' w w' us k E S Fx Ft.
  - right. exists (VC CVoid), w. split; [apply star_void | assumption].
  - inversion Fx as [|? u ? us1 Go Fx1]; subst. inversion Ft as [|? ? ? ? (GT & lt & Lt & Nl & Sf) Ft1]; subst.
    set (k1 := Fr OApp [SDone (VClo [d] e r)] [] r :: k).
    assert (St : star (Ev (EApp (ELam [d] e) [ESet x (EVar t)]) r k w) (Ev (EVar t) r (Fr (OSet x) [] [] r :: k1) w)).
    { eapply star_trans; [apply star_begin | apply star_assign]. }
    destruct (read_var MStrict r t w) as [u'|] eqn:R.
    2: { left. eapply wrong_star; [exact St|]. apply stuck_ev. cbn [evf]. now rewrite R. }
    assert (u' = u). { unfold read_var in R. rewrite GT, Lt, Nl in R. destruct u as [[]| | | | |]; congruence. } subst u'.
    destruct (set_goes W G pl r r' w w' x u k1 E S Go) as (l & h & u0 & St2 & S2 & N0 & Sh & La).
    assert (St3 : star (Ev (EApp (ELam [d] e) [ESet x (EVar t)]) r k w) (Ev e ((d, VRef (length h)) :: r) k (set_hp w (h ++ [[u]])))).
    { eapply star_trans; [exact St|]. eapply star_step; [constructor; exact R|]. eapply star_trans; [exact St2|]. apply star_begun. }
    destruct (IH W pl ((d, VRef (length h)) :: r) r' (set_hp w (h ++ [[u]])) w' us1 k) as [Wr|(v1 & w1 & St4 & S4)].
    + now apply ER_skip.
    + change (set_hp w (h ++ [[u]])) with (set_hp (set_hp w h) (hp (set_hp w h) ++ [[u]])). now apply SR_src.
    + exact Fx1.
    + apply list_set_nth in Sh. destruct Sh as (_ & Sh & _).
      assert (Gen : forall l1, (forall t0, In t0 ts -> t0 <> d) -> Forall2 (holds W r w) ts l1 -> Forall2 (holds W ((d, VRef (length h)) :: r) (set_hp w (h ++ [[u]]))) ts l1); [|apply Gen; [intros t0 I ->; contradiction | exact Ft1]].
      clear - Sh La. induction ts as [|t0 ts IH]; intros l1 ND F; inversion F as [|? y ? l2 (GT & lt & Lt & Nl & Sf) F2]; subst; constructor.
      * split; [assumption|]. exists lt. split; [rewrite lookup_skip; [assumption | apply ND; now left]|split; [|assumption]]. cbn. apply nth_app. rewrite Sh; [assumption|].
        intros ->. contradiction.
      * apply IH; [intros t1 I; apply ND; now right | assumption].
    + left. eapply wrong_star; eauto.
    + right. exists v1, w1. split; [eapply star_trans; eauto | assumption].
Qed.

(** ** Related states *)
Inductive RS : nat -> state -> state -> Prop :=
| rs_ev W G pl e e' r r' k k' w w' : FX G pl e e' -> ER W G pl r r' -> KR W k k' -> SR W w w' -> RS (esize e') (Ev e r k w) (Ev e' r' k' w')
| rs_args W G pl o o' l l' r r' k k' w w' : OC G pl o o' -> SL W G pl l l' -> ER W G pl r r' -> KR W k k' -> SR W w w' -> RS 0 (Args o l r k w) (Args o' l' r' k' w')
| rs_ret W v v' k k' w w' : VR W v v' -> KR W k k' -> SR W w w' -> RS 0 (Ret v k w) (Ret v' k' w')
| rs_halt W v v' w w' : VR W v v' -> SR W w w' -> RS 0 (Halted v w) (Halted v' w').
Lemma RS_out n s t : RS n s t -> out (mem s) = out (mem t).
Proof. destruct 1; cbn; match goal with S : SR _ _ _ |- _ => apply S end. Qed.
Lemma SL_split W G pl l l' : SL W G pl l l' -> forall a e' b, l' = a ++ STodo e' :: b ->
  exists a0 e b0, l = a0 ++ STodo e :: b0 /\ SL W G pl a0 a /\ SL W G pl b0 b /\ FX G pl e e'.
Proof.
  induction 1 as [G pl|G pl v v' l l' V S IH|G pl e0 e0' l l' A S IH]; intros a e' b E.
  - now destruct a.
  - destruct a as [|x a]; [discriminate|]. injection E as <- E. destruct (IH _ _ _ E) as (a0 & e & b0 & -> & A0 & B0 & C0).
    exists (SDone v :: a0), e, b0. split; [reflexivity | split; [now constructor | auto]].
  - destruct a as [|x a].
    + injection E as -> <-. exists [], e0, l. split; [reflexivity | split; [constructor | auto]].
    + injection E as <- E. destruct (IH _ _ _ E) as (a0 & e & b0 & -> & A0 & B0 & C0).
      exists (STodo e0 :: a0), e, b0. split; [reflexivity | split; [now constructor | auto]].
Qed.
Lemma SL_done_l W G pl vs : forall l', SL W G pl (map SDone vs) l' -> exists vs', l' = map SDone vs' /\ Forall2 (VR W) vs vs'.
Proof.
  induction vs as [|v vs IH]; intros l' S; inversion S; subst.
  - exists []. split; [reflexivity | constructor].
  - match goal with X : SL _ _ _ (map _ _) _ |- _ => destruct (IH _ X) as (vs' & -> & F) end. exists (v' :: vs'). split; [reflexivity | now constructor].
Qed.
Lemma SL_todo_l W G pl l l' : SL W G pl l l' -> forall a e b, l = a ++ STodo e :: b -> exists a0 e' b0, l' = a0 ++ STodo e' :: b0.
Proof.
  induction 1 as [G pl|G pl v v' l l' V S IH|G pl e0 e0' l l' A S IH]; intros a e b E.
  - now destruct a.
  - destruct a as [|x a]; [discriminate|]. injection E as <- E. destruct (IH _ _ _ E) as (a0 & e1 & b0 & ->). now exists (SDone v' :: a0), e1, b0.
  - destruct a as [|x a].
    + injection E as -> <-. now exists [], e0', l'.
    + injection E as <- E. destruct (IH _ _ _ E) as (a0 & e1 & b0 & ->). now exists (STodo e0' :: a0), e1, b0.
Qed.
Lemma SL_app W G pl a a' b b' : SL W G pl a a' -> SL W G pl b b' -> SL W G pl (a ++ b) (a' ++ b').
Proof. induction 1; cbn; intros; [assumption | constructor; auto ..]. Qed.
Lemma SL_todos W G pl l l' : FXL G pl l l' -> SL W G pl (map STodo l) (map STodo l').
Proof. induction 1; cbn; constructor; assumption. Qed.
Lemma SL_dones W G pl vs vs' : Forall2 (VR W) vs vs' -> SL W G pl (map SDone vs) (map SDone vs').
Proof. induction 1; cbn; constructor; auto. Qed.
Lemma ER_none W r r' : ER W [] [] r r'.
Proof. split; [discriminate | intros ? ? []]. Qed.
Lemma KR_recv W v v' : VR W v v' -> KR W (recv v) (recv v').
Proof.
  intros V. unfold recv. apply KR_cons with [] []; [constructor; apply fx_prim; constructor | constructor; [assumption | constructor] | constructor | apply ER_none | constructor].
Qed.
Lemma KR_kont_of W v v' : VR W v v' -> KR W (kont_of v) (kont_of v').
Proof. intros V. destruct V; try (apply KR_recv; econstructor; eassumption). assumption. Qed.
Lemma KR_recv_inv W e p r0 k' : KR W [Fr (OWith e) [SDone p] [] r0] k' -> exists e' p' r0', k' = [Fr (OWith e') [SDone p'] [] r0'] /\ VR W p p'.
Proof.
  intros K. inversion K as [|G pl o o' a a' b b' r r' k1 k1' O A B E K0| |]; subst. inversion O; subst. inversion K0; subst. inversion B; subst.
  inversion A as [|? ? ? ? ? ? Vp A0|]; subst. inversion A0; subst. eauto.
Qed.
Lemma KR_capturable W k k' : KR W k k' -> capturable k = true -> capturable k' = true.
Proof.
  induction 1 as [|G pl o o' a a' b b' r r' k k' O A B E K IH|x l r k k' GX Lx Dl K IH|x r0 r k k' GX K IH]; intros C.
  - reflexivity.
  - destruct O as [| | | | |e e' X]; try (cbn [capturable] in *; auto; fail).
    inversion A as [|? ? v v' l l' V A0|]; subst; cbn [capturable] in *; auto.
    inversion A0; subst; auto. destruct V; auto.
  - cbn [capturable] in C. auto.
  - cbn [capturable] in C. auto.
Qed.
Lemma fire_SR W G pl o o' vs vs' r r' k k' w w' s1 : OC G pl o o' -> Forall2 (VR W) vs vs' -> ER W G pl r r' -> KR W k k' -> SR W w w' ->
  firef P MStrict o vs r k w = Some s1 -> exists t1 n, firef P MCells o' vs' r' k' w' = Some t1 /\ RS n s1 t1.
Proof.
  intros O F E K S Fi. destruct O as [b c b' c' Ab Ac|x G1|x G1 Q|ef p| |e e' A]; cbn [firef] in Fi |- *.
  - destruct F as [|v v' vs vs' V [|]]; try discriminate. injection Fi as <-. eexists _, _. split; [reflexivity|].
    rewrite <- (VR_true _ _ _ _ V). apply rs_ev with W G pl; auto. destruct (is_true v); assumption.
  - rewrite G1 in Fi |- *. destruct F as [|v v' vs vs' V [|]]; try discriminate. injection Fi as <-. eexists _, 0%nat. split; [reflexivity|].
    apply rs_ret with W; [constructor | assumption|]. destruct S. constructor; cbn; auto. intros y. destruct (id_eqb y x); auto.
  - rewrite G1 in Fi |- *. destruct F as [|v v' vs vs' V [|]]; try discriminate. destruct E as (E1 & E2). destruct (E1 _ _ Q) as (l & l' & L & L' & Pr).
    rewrite L in Fi. rewrite L'. destruct (sr_pairs _ _ _ _ S _ _ Pr) as (b & b' & N & N' & Fb). rewrite N in Fi. rewrite N'.
    destruct Fb as [|u u' b b' U Fb]; [discriminate|]. destruct Fb; [|discriminate].
    destruct (list_set (hp w) l [v]) as [h|] eqn:Sh; [|discriminate]. injection Fi as <-.
    destruct (list_set_ok (hp w') l' [v'] _ N') as (h' & Sh'). rewrite Sh'. eexists _, 0%nat. split; [reflexivity|].
    apply rs_ret with W; auto. apply (SR_put P W w w' l l' [v] [v'] h h'); auto.
  - destruct (zlist_dec p the_halt_prim) as [->|N].
    + destruct F as [|v v' vs vs' V [|]]; try discriminate. injection Fi as <-. eexists _, 0%nat. split; [reflexivity|]. now apply rs_halt with W.
    + destruct (run (P p) vs w) as [(v & w1)|] eqn:R; [|discriminate]. injection Fi as <-.
      destruct (run_SR _ _ _ _ _ _ _ _ _ S F R) as (W' & v' & t1 & -> & X & S1 & V). eexists _, 0%nat. split; [reflexivity|].
      apply rs_ret with W'; auto. eapply KR_ext; eauto.
  - destruct F as [|v v' vs vs' V F]; [discriminate|]. destruct V as [c|l l' Q|G0 pl0 xs b xs' b' r0 r0' A0 E0|G0 xs b xs' b' r0 ys ls i r0' N0 A0 E0|k1 k1' K1]; try discriminate.
    + destruct (bind MStrict xs vs r0 (hp w)) as [(r1 & h1)|] eqn:B; [|discriminate]. injection Fi as <-.
      destruct (call P W G0 pl0 xs b xs' b' vs vs' r0 r0' w w' r1 h1 A0 E0 S F B) as (r1' & h1' & W1 & G1 & pl1 & -> & X & F1 & E1 & S1).
      eexists _, _. split; [reflexivity|]. eapply rs_ev; eauto. eapply KR_ext; eauto.
    + destruct (bind MStrict xs vs r0 (hp w)) as [(r1 & h1)|] eqn:B; [|discriminate]. injection Fi as <-. rewrite N0.
      destruct (call P W G0 [] xs b xs' b' vs vs' r0 _ w w' r1 h1 A0 E0 S F B) as (r1' & h1' & W1 & G1 & pl1 & -> & X & F1 & E1 & S1).
      eexists _, _. split; [reflexivity|]. eapply rs_ev; eauto. eapply KR_ext; eauto.
    + apply throwf_inv in Fi. destruct Fi as [(u & -> & ->)|(e & p & r0 & N & -> & ->)].
      * inversion F as [|? u' ? ? U F0]; subst. inversion F0; subst. eexists _, 0%nat. split; [reflexivity|]. now apply rs_ret with W.
      * destruct (KR_recv_inv _ _ _ _ _ K1) as (e' & p' & r0' & -> & Vp).
        exists (Args OApp (map SDone (p' :: vs')) [] trap w'), 0%nat. split.
        -- apply Forall2_len in F. destruct vs' as [|? [|]]; cbn in F; [reflexivity | congruence | reflexivity].
        -- apply rs_args with W [] []; [constructor | apply SL_dones; now constructor | apply ER_none | apply KR_recv; constructor | assumption].
  - destruct F as [|v v' vs vs' V F]; try discriminate. destruct F as [|u u' vs vs' U [|]]; try discriminate.
    + injection Fi as <-. eexists _, _. split; [reflexivity|]. eapply rs_ev; [eassumption | eassumption | now apply KR_kont_of | assumption].
    + injection Fi as <-. eexists _, 0%nat. split; [reflexivity|].
      apply rs_args with W [] []; [constructor | apply (SL_dones W [] [] [v; u] [v'; u']); auto | apply ER_none | apply KR_recv; constructor | assumption].
Qed.
Notation good := (good P MStrict MCells RS).
Lemma inev_let' xs b es vs r' k' w' r1 h1 (Q : state -> Prop) : Forall2 (calm P r' w') es vs -> bind MCells xs vs r' (hp w') = Some (r1, h1) ->
  inev P MCells (out w') Q (Ev b r1 k' (set_hp w' h1)) -> inev P MCells (out w') Q (Args OApp (map STodo (ELam xs b :: es)) r' k' w').
Proof.
  intros F B I. apply (inev_calm P OApp (ELam xs b :: es) (VClo xs b r' :: vs)).
  - constructor; [|assumption]. intros k1. eapply inev_ev; [reflexivity | reflexivity | now apply inev_now].
  - eapply inev_fire; [reflexivity | cbn [firef]; rewrite B; reflexivity | assumption].
Qed.
Lemma void_calm {A} r' w' (l : list A) : Forall2 (calm P r' w') (voids l) (map (fun _ => VC CVoid) l).
Proof.
  unfold voids. induction l; cbn; constructor; auto. intros k1. eapply inev_ev; [reflexivity | reflexivity|].
  eapply (inev_fire P MCells _ _ _ []); [reflexivity | eapply fire_const; exact PV | now apply inev_now].
Qed.
Lemma bind_some m xs : forall vs r h, length xs = length vs -> exists r1 h1, bind m xs vs r h = Some (r1, h1).
Proof. induction xs as [|x xs IH]; intros [|v vs] r h L; try discriminate; cbn; [eauto|]. injection L as L. destruct m; apply IH, L. Qed.
(** the old program has made its variables *)
Lemma EN_start W G pl r r' w w' ids r1 h1 Y : ER W G pl r r' -> SR W w w' -> NoDup ids -> (forall x, In x ids -> assq x G = None /\ global_id x = false) ->
  bind MStrict ids (map (fun _ => VC CVoid) ids) r (hp w) = Some (r1, h1) -> NoDup Y -> incl Y ids -> EN P W G [] r1 (set_hp w h1) r' w' Y.
Proof.
  intros E S ND New B NY IY. rewrite bind_strict in B. destruct (bind_cells _ _ _ _ _ _ B) as (_ & Eh & L1 & L2). specialize (L1 ND).
  assert (At : forall x, In x ids -> exists i, nth_error ids i = Some x /\ lookup r1 x = Some (VRef (length (hp w) + i)) /\ nth_error h1 (length (hp w) + i) = Some [VC CVoid]).
  { intros x I. apply In_nth_error in I. destruct I as (i & N). exists i. split; [assumption|split; [auto|]]. rewrite Eh, nth_error_app2 by lia.
    replace (length (hp w) + i - length (hp w))%nat with i by lia. rewrite !nth_error_map, N. reflexivity. }
  constructor.
  - apply ER_nil in E. destruct E as (E1 & _). split; [|intros ? ? []]. intros x p Q. eapply RR_look; [| |apply E1, Q]; [|reflexivity].
    symmetry. apply L2. intros I. destruct (New x I). congruence.
  - rewrite Eh. now apply SR_src.
  - assumption.
  - intros x I. destruct (New x (IY _ I)) as (N & GX). split; [assumption|split; [assumption|]]. destruct (At x (IY _ I)) as (i & Ni & L & Nh).
    eexists. split; [exact L|split; [exact Nh|]]. eapply sfree_new; [exact S | lia].
  - intros x y l I J Lx Ly. destruct (At x (IY _ I)) as (i & Ni & L & _), (At y (IY _ J)) as (j & Nj & L' & _). assert (i = j) by (rewrite L in Lx; rewrite L' in Ly; injection Lx as <-; injection Ly as Q; lia). congruence.
Qed.
Ltac onestep := apply good_ev; intros s1 F; cbn [evf decomp] in F |- *; injection F as <-; eexists; (split; [reflexivity|]); apply inev_now; eapply next_one; [apply step_evf; reflexivity|].
Lemma ev_good G pl e e' (A : FX G pl e e') : forall W r r' k k' w w', ER W G pl r r' -> KR W k k' -> SR W w w' -> good (esize e') (Ev e r k w) (Ev e' r' k' w').
Proof.
  induction A as [G pl x GX|G pl x p GX Q Np|G pl x e e' GX A IH|G pl x e e' GX Q A IH|G pl x e e' GX Q A IH|G pl a b c a' b' c' Aa _ Ab _ Ac _|G pl ef p l l' Al|
                  G pl f l f' l' Af _ Al|G pl b b' A IH|G pl x e e' GX A IH|G pl xs ps b b' Lp Dp A _|G pl d d' b b' Nd Nd' A _|G pl x p b b' Np A _|
                  G pl k0 e k0' e' Ak _ Ae _|G pl x e d b b' In0 Nd A IH|G pl xs d tmps l rands b b' vs0 Fr0 Si0 Se ND New Nd A IH|G pl e b' x u u' d' Si Nd A IH|
                  G pl ids us ss cs lams b T b' G1 ND NY IY New Si Fw A _];
    intros W r r' k k' w w' E K S.
  - apply good_ev. intros s1 F. cbn in F |- *. unfold read_var in *. rewrite GX in *. injection F as <-. eexists. split; [reflexivity|].
    apply inev_now. eapply next_one; [apply step_evf; cbn; unfold read_var; now rewrite GX|]. apply rs_ret with W; auto. apply S.
  - apply good_ev. intros s1 F. cbn [evf] in F |- *. destruct (read_var MStrict r x w) as [u|] eqn:R; [|discriminate]. injection F as <-.
    assert (Z : exists u', read_var MCells r' x w' = Some u' /\ VR W u u').
    { pose proof E as (E1 & _). specialize (E1 _ _ Q). destruct p; [| |easy].
      - destruct E1 as (l & l' & L & L' & Pr). destruct (sr_pairs _ _ _ _ S _ _ Pr) as (b & b' & N & N' & Fb). unfold read_var in *. rewrite GX, L, N in R. rewrite GX, L', N'.
        destruct Fb as [|v v' b b' V Fb]; [discriminate|]. destruct Fb; [|destruct v as [[]| | | | |]; discriminate].
        assert (v = u) by (destruct v as [[]| | | | |]; congruence). subst v. eauto.
      - pose proof E1 as (l & v & L & La & T). destruct (RR_late_read P _ _ _ _ _ _ _ _ _ E S GX Q T) as [R2|(u2 & R2 & V)]; [congruence|].
        assert (u2 = u) by congruence. subst u2. exists v. split; [eapply tval_read; eauto | assumption]. }
    destruct Z as (u' & R' & V). rewrite R'. eexists. split; [reflexivity|]. apply inev_now. eapply next_one; [apply step_evf; cbn [evf]; rewrite R; reflexivity|]. now apply rs_ret with W.
  - onestep. apply rs_args with W G pl; auto; [now constructor | apply (SL_todos W G pl [e] [e']); repeat constructor; auto].
  - onestep. apply rs_args with W G pl; auto; [now constructor | apply (SL_todos W G pl [e] [e']); repeat constructor; auto].
  - (* an assignment nobody sees *)
    eapply good_star; [apply star_assign|]. eapply IH; eauto. pose proof E as (E1 & _). destruct (E1 _ _ Q) as (l & L & D). eapply KR_dead; eauto.
  - onestep. apply rs_args with W G pl; auto; [now constructor | apply (SL_todos W G pl [a] [a']); repeat constructor; auto].
  - onestep. apply rs_args with W G pl; auto; [now constructor | now apply SL_todos].
  - onestep. apply rs_args with W G pl; auto; [now constructor | apply (SL_todos W G pl (f :: l) (f' :: l')); constructor; auto].
  - eapply good_star with (s0 := Ev b r k (set_hp w (hp w))); [|rewrite set_hp_same; eapply IH; eauto].
    eapply star_step; [apply step_evf; reflexivity|]. eapply star_step; [apply (st_pick P MStrict OApp [] (ELam [] b) [])|].
    eapply star_step; [apply step_evf; reflexivity|]. eapply star_step; [apply st_ret|]. apply star_one.
    apply (st_fire P MStrict OApp [VClo [] b r]). apply fire_firef. reflexivity.
  - eapply good_star; [apply star_begin|]. eapply IH; eauto. now constructor.
  - onestep. apply rs_ret with W; auto. eapply VR_clo; [eapply fx_lam; eauto | exact E].
  - onestep. apply rs_ret with W; auto. eapply VR_clo; [eapply fx_dummy; eauto | exact E].
  - apply good_ev. intros s1 F. cbn [evf] in F |- *. destruct (capturable k) eqn:Cp; [|discriminate]. rewrite (KR_capturable _ _ _ K Cp). destruct (bind MStrict [x] [VCont k] r (hp w)) as [(r1 & h1)|] eqn:B; [|discriminate]. injection F as <-.
    assert (FV : Forall2 (VR W) [VCont k] [VCont k']) by (constructor; [now constructor | constructor]).
    assert (Dp : forall q, In q [p] -> q <> RDead) by (intros q [<-|[]]; assumption).
    destruct (enter P [x] [p] [VCont k] [VCont k'] W G r r' w w' r1 h1 eq_refl Dp (ER_nil _ _ _ _ _ _ E) S FV B) as (r1' & h1' & W2 & B' & X & E2 & S2).
    rewrite B'. eexists. split; [reflexivity|]. apply inev_now. eapply next_one; [apply step_evf; cbn [evf]; rewrite Cp, B; reflexivity|].
    eapply rs_ev; [exact A | exact E2 | eapply KR_ext; eauto | exact S2].
  - onestep. apply rs_args with W G pl; auto; [now constructor | apply (SL_todos W G pl [k0] [k0']); repeat constructor; auto].
  - (* a value that is there already *)
    pose proof E as (_ & E2). destruct (E2 _ _ In0) as (GX & Q & v & T & Ea).
    set (k1 := Fr OApp [SDone (VClo [d] b r)] [] r :: k).
    assert (St : star (Ev (EApp (ELam [d] b) [ESet x e]) r k w) (Ev e r (Fr (OSet x) [] [] r :: k1) w)).
    { eapply star_trans; [apply star_begin | apply star_assign]. }
    destruct (early_run P W G pl r r' w w' e v (Fr (OSet x) [] [] r :: k1) Ea E S) as [Wr|(u & St2 & V)].
    { left. eapply wrong_star; eauto. }
    assert (Go : goes W G r' x u) by (split; [assumption|]; left; eauto).
    destruct (set_goes W G pl r r' w w' x u k1 E S Go) as (l & h & u0 & St3 & S3 & _).
    eapply good_star; [eapply star_trans; [exact St|]; eapply star_trans; [exact St2|]; eapply star_trans; [exact St3 | apply star_begun]|].
    eapply IH; [apply ER_skip; eauto | exact K | now apply SR_src].
  - (* the values of a letrec *)
    set (k1 := Fr OApp [SDone (VClo [d] b r)] [] r :: k).
    assert (St : star (Ev (EApp (ELam [d] b) [EApp (ELam tmps l) rands]) r k w) (Args OApp (map SDone [VClo tmps l r] ++ map STodo rands) r k1 w)).
    { eapply star_trans; [apply star_begin|]. eapply star_step; [apply step_evf; reflexivity|].
      eapply star_step; [apply (st_pick P MStrict OApp [] (ELam tmps l) (map STodo rands))|]. eapply star_step; [apply step_evf; reflexivity|]. apply star_one. apply (st_ret P MStrict _ OApp []). }
    destruct (star_plan W G pl r r' w w' OApp k1 vs0 E S Si0 xs rands Fr0 [VClo tmps l r]) as [Wr|(us & St2 & Fu)]; [left; eapply wrong_star; eauto|].
    assert (Lt : length tmps = length us). { rewrite <- (Forall2_len _ _ _ Fu). clear - Se. induction Se; cbn; congruence. }
    destruct (bind_some MStrict tmps us r (hp w) Lt) as (r1 & h1 & B). pose proof B as B2. rewrite bind_strict in B2. destruct (bind_cells _ _ _ _ _ _ B2) as (_ & Eh & L1 & L2). specialize (L1 ND).
    assert (St3 : star (Args OApp (map SDone ([VClo tmps l r] ++ us)) r k1 w) (Ev l r1 k1 (set_hp w h1))). { apply star_one. constructor. now constructor. }
    assert (E1 : ER W G pl r1 r').
    { destruct E as (E1 & E2). split; [|exact E2]. intros x p Q. eapply RR_look; [| |apply E1, Q]; [|reflexivity]. symmetry. apply L2. intros I. destruct (New x I). congruence. }
    assert (S1 : SR W (set_hp w h1) w') by (rewrite Eh; now apply SR_src).
    assert (Hd : Forall2 (holds W r1 (set_hp w h1)) tmps us).
    { assert (Gen : forall ts vs i, (forall j t, nth_error ts j = Some t -> nth_error tmps (i + j) = Some t) -> (forall j v, nth_error vs j = Some v -> nth_error us (i + j) = Some v) -> length ts = length vs -> Forall2 (holds W r1 (set_hp w h1)) ts vs); [|apply (Gen tmps us O); auto].
      induction ts as [|t ts IHt]; intros [|v vs] i HT HV Ln; try discriminate; constructor.
      - specialize (HT O t eq_refl). specialize (HV O v eq_refl). rewrite Nat.add_0_r in HT, HV. split; [apply New; eapply nth_error_In; eauto|].
        exists (length (hp w) + i)%nat. split; [auto|split]. + cbn. rewrite Eh, nth_error_app2 by lia. replace (length (hp w) + i - length (hp w))%nat with i by lia. now rewrite nth_error_map, HV.
        + eapply sfree_new; [exact S | lia].
      - apply (IHt vs (Datatypes.S i)); [intros j t0 Nj; rewrite <- (HT (Datatypes.S j) t0 Nj); f_equal; lia | intros j t0 Nj; rewrite <- (HV (Datatypes.S j) t0 Nj); f_equal; lia | now injection Ln]. }
    destruct (sets_run G xs tmps l Se W pl r1 r' (set_hp w h1) w' us k1 E1 S1 Fu Hd) as [Wr|(v1 & w1 & St4 & S4)].
    { left. eapply wrong_star; [|exact Wr]. eapply star_trans; [exact St|]. eapply star_trans; [exact St2 | exact St3]. }
    eapply good_star; [eapply star_trans; [exact St|]; eapply star_trans; [exact St2|]; eapply star_trans; [exact St3|]; eapply star_trans; [exact St4 | apply star_begun]|].
    eapply IH; [apply ER_skip; eauto | exact K | now apply SR_src].
  - (* a value nobody uses *)
    right; right. split; [eexists; apply step_evf; reflexivity|]. intros t' St. apply step_evf in St. cbn [evf decomp] in St. injection St as <-.
    destruct (SIL_vals P _ _ Si _ _ _ _ _ _ E S) as (vs & Ca & _). cbn [map tgt snd] in Ca. inversion Ca as [|? v ? vs0 Cv C0]; subst. inversion C0; subst.
    eapply (inev_let' [d'] b' [u'] [v]); [assumption | reflexivity|]. apply inev_now. right. exists (esize b'), (Ev e r k w). split.
    + eapply rs_ev; [exact A | apply ER_skip'; eauto | exact K | now apply SR_tgt].
    + right. split; [constructor | cbn; lia].
  - (* the variables of a letrec *)
    right; right. split; [eexists; apply step_evf; reflexivity|]. intros t' St. apply step_evf in St. cbn [evf decomp] in St. injection St as <-.
    destruct (bind_some MStrict ids (map (fun _ => VC CVoid) ids) r (hp w)) as (r1 & h1 & B); [now rewrite map_length|].
    pose proof (EN_start W G pl r r' w w' ids r1 h1 _ E S ND New B NY IY) as En.
    destruct (EN_deads P us _ _ _ _ _ _ _ _ En) as (W1 & X1 & En1).
    destruct (SIL_vals P _ _ Si _ _ _ _ _ _ (en_er _ _ _ _ _ _ _ _ _ En1) (en_sr _ _ _ _ _ _ _ _ _ En1)) as (vs & Ca & Ea).
    destruct (EN_lates P ss _ _ _ _ _ _ _ _ _ En1 Ea) as (W2 & r2' & h2' & X2 & B2 & En2).
    destruct (EN_cells P cs _ _ _ _ _ _ _ _ En2) as (W3 & r3' & h3' & X3 & B3 & En3).
    eapply (inev_let' (map fst ss ++ cs) T (map tgt ss ++ voids cs) (vs ++ map (fun _ => VC CVoid) cs)).
    + apply Forall2_app; [exact Ca | apply void_calm].
    + erewrite bind_app; [|exact B2]. exact B3.
    + cbn [set_hp hp] in En3 |- *. change (out w') with (out (set_hp w' h3')). rewrite <- (app_nil_r (map fst lams)) in En3.
      eapply (FW_run P _ _ _ _ _ Fw); [exact En3|]. intros W4 pl4 r4' w4' X4 En4 I4.
      right. exists (esize b'), (Ev b r1 k (set_hp w h1)). split; [|left; now apply star_let].
      assert (Xt : wext W W4) by (eapply wext_trans; [exact X1|]; eapply wext_trans; [exact X2|]; eapply wext_trans; eauto).
      eapply rs_ev; [exact A | | eapply KR_ext; eauto | apply En4].
      eapply ER_incl; [|apply En4]. intros y I. apply I4. apply in_app_iff in I. apply in_app_iff. destruct I as [I|I]; [right | now left]. apply plans_incl, in_app_iff. now left.
Qed.
Lemma ret_good W k k' : KR W k k' -> forall v v' w w', VR W v v' -> SR W w w' -> good 0 (Ret v k w) (Ret v' k' w').
Proof.
  induction 1 as [|G pl o o' a a' b b' r r' k k' O A B E K IH|x l r k k' GX Lx Dl K IH|x r0 r k k' GX K IH]; intros v v' w w' V S.
  - right; left. eexists _, v, v'. split; [constructor|split; [constructor|split; [constructor|split; [eapply VR_shape; eauto|split; [apply S|]]]]].
    intros x. eapply VR_shape. apply S.
  - apply good_ret, inev_now. eapply next_one; [constructor|]. apply rs_args with W G pl; auto. apply SL_app; [assumption | now constructor].
  - destruct (sr_dead _ _ _ _ S _ Dl) as ((u & N) & NP & NL). destruct (list_set_ok _ _ [v] _ N) as (h & Sh).
    eapply good_star; [eapply star_assigned; eauto|]. apply IH; [assumption|]. eapply SR_set; eauto. intros v2 La. now apply NL in La.
  - destruct (read_var MStrict ((x, VRef (length (hp w))) :: r0) x (set_hp w (hp w ++ [[v]]))) as [u|] eqn:R.
    + assert (u = v). { unfold read_var in R. rewrite GX, lookup_here in R. cbn [hp set_hp] in R. rewrite nth_new in R. destruct v as [[]| | | | |]; congruence. } subst u.
      eapply good_star; [eapply star_trans; [apply star_begun | apply star_one; constructor; exact R]|]. apply IH; [assumption | now apply SR_src].
    + left. eapply wrong_star; [apply star_begun|]. apply stuck_ev. cbn [evf]. now rewrite R.
Qed.
Lemma args_good W G pl o o' l l' r r' k k' w w' : OC G pl o o' -> SL W G pl l l' -> ER W G pl r r' -> KR W k k' -> SR W w w' -> good 0 (Args o l r k w) (Args o' l' r' k' w').
Proof.
  intros O L E K S. apply good_args.
  - intros a e' b Eq. destruct (SL_split _ _ _ _ _ L _ _ _ Eq) as (a0 & e & b0 & -> & A0 & B0 & C0). apply inev_now. eapply next_one; [constructor|].
    apply rs_ev with W G pl; auto. apply KR_cons with G pl; auto.
  - intros vs ->. destruct (SL_done_l _ _ _ _ _ L) as (vs' & -> & F). exists vs'. split; [reflexivity|]. intros s1 Fi.
    destruct (fire_SR _ _ _ _ _ _ _ _ _ _ _ _ _ _ O F E K S Fi) as (t1 & n & Ft & X). exists t1. split; [assumption|]. apply inev_now.
    eapply next_one; [|exact X]. constructor. now apply fire_firef.
  - intros a e b ->. eapply SL_todo_l; eauto.
Qed.
Lemma RS_good n s t : RS n s t -> good n s t.
Proof.
  destruct 1.
  - eapply ev_good; eauto.
  - eapply args_good; eauto.
  - eapply ret_good; eauto.
  - right; left. eexists _, v, v'. split; [constructor|split; [constructor|split; [constructor|split; [eapply VR_shape; eauto|split]]]].
    + match goal with S : SR _ _ _ |- _ => apply S end.
    + intros x. eapply VR_shape. match goal with S : SR _ _ _ |- _ => apply S end.
Qed.
Theorem FX_refines e e' : FX [] [] e e' -> refines P MStrict MCells e e'.
Proof.
  intros A g i. eapply simulation; [apply RS_out | apply RS_good|]. eapply rs_ev with (W := mkw (fun _ _ => False) (fun _ _ => False) (fun _ _ => False) (fun _ => False)); [exact A | apply ER_none | constructor|].
  constructor; cbn; try easy. intros x. constructor.
Qed.
End Sim.
