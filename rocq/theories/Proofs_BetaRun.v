(** Substituted programs do what the programs do: the steps of the simulation. *)
From Coq Require Import ZArith List Bool Lia Permutation.
From Verif Require Import Model_Lit Model_Core Model_Beta Spec_Sem Spec_Free Spec_Fold Spec_Beta Proofs_Sim Proofs_Core Proofs_Free Proofs_Agree Proofs_BetaPure Proofs_BetaSem.
Import ListNotations.
Open Scope Z_scope.

Section Run.
Variable P : prim -> script.
Variable g : id -> const.
Notation fine := (fine P).
Notation peval := (peval P g).
Notation constok := (constok g).
Notation known := (known P).
Notation B := (B P).
Notation OC := (OC P).
Notation VR := (VR P g).
Notation OR := (OR P g).
Notation SL := (SL P g).
Notation EL := (EL P g).
Notation MS := (MS P g).
Notation KR := (KR P g).
Notation ER := (ER P g).
Notation SR := (SR P g).
Notation inev := (inev P MDirect).
Notation star := (star P MDirect).
Notation plus := (plus P MDirect).
Notation step := (step P MDirect).
Notation wrong := (wrong P MDirect).

Inductive R : nat -> state -> state -> Prop :=
| r_ev W G e e' r r' K K' w w' : B G e e' -> ER W G r r' -> KR W K K' -> SR W w w' -> R 0 (Ev e r K w) (Ev e' r' K' w')
| r_args W G o o' l l' r r' K K' w w' : OC G o o' -> SL W G l l' -> ER W G r r' -> KR W K K' -> SR W w w' -> R 0 (Args o l r K w) (Args o' l' r' K' w')
| r_ret W v v' K K' w w' : VR W v v' -> KR W K K' -> SR W w w' -> R 0 (Ret v K w) (Ret v' K' w')
| r_halt W v v' w w' : VR W v v' -> SR W w w' -> R 0 (Halted v w) (Halted v' w')
| r_let n W G T U b b' op r r' K K' w w' : EL W G r' T -> Permutation T U -> NoDup (map lid T) -> B (knows G (map lsk T)) b b' ->
    op = STodo (ELam (flat_map ltid U) b') /\ n = 1%nat \/ op = SDone (VClo (flat_map ltid U) b' r') /\ n = 0%nat ->
    ER W G r r' -> KR W K K' -> SR W w w' ->
    R n (Args OApp (SDone (VClo (map lid T) b r) :: map lsrc T) r K w) (Args OApp (op :: flat_map ltgt U) r' K' w')
| r_move W G x e e' c o l1 l2 s1 s2 r r' K K' w w' : global_id x = false -> moves o -> decomp c = Some (o, l1 ++ EVar x :: l2) -> B G e e' ->
    MS W G r x l1 s1 -> MS W G r x l2 s2 -> ER W G r r' -> KR W K K' -> SR W w w' ->
    R (todos (s1 ++ s2)) (Args OApp [SDone (VClo [x] c r); STodo e] r K w) (Args o (s1 ++ STodo e' :: s2) r' K' w').
Notation good := (good P MDirect MDirect R).
Notation next := (next P MDirect R).

Lemma set_hp_same w : set_hp w (hp w) = w.
Proof. now destruct w. Qed.

(** ** Environments *)
Lemma or_var W y v o r2 : global_id y = false -> OR W (Some v) o -> lookup r2 y = o -> OR W (Some v) (peval r2 (EVar y)).
Proof. intros G O L. inversion O as [? u V]; subst. rewrite (peval_var P g r2 y u); [now constructor | assumption | now symmetry | apply (VR_plain P g _ _ _ V)]. Qed.
Lemma agree_var y r r2 : agree (EVar y) r r2 -> lookup r2 y = lookup r y.
Proof. intros A. apply A. apply free_here. constructor. Qed.
Lemma er_under W G xs r r' r1 r1' : ER W G r r' -> (forall y, In y xs -> OR W (lookup r1 y) (lookup r1' y)) ->
  (forall y, ~ In y xs -> lookup r1 y = lookup r y /\ lookup r1' y = lookup r' y) -> ER W (under xs G) r1 r1'.
Proof.
  intros E X1 X2 y t r2 [(I & ->)|(N & Gy & A)] Gl Ag.
  - destruct (or_inv P g _ _ _ (X1 y I)) as (v & u & E1 & E2 & V). rewrite E1. apply or_var with (Some u); [assumption | now constructor|]. rewrite (agree_var _ _ _ Ag). assumption.
  - destruct (X2 y N) as (-> & _). apply (E y t r2 Gy Gl). intros z F. rewrite (Ag z F). apply X2. now apply A.
Qed.
Lemma bind_er W G xs vs vs' r r' h r1 h1 : Forall2 (VR W) vs vs' -> bind MDirect xs vs r h = Some (r1, h1) -> ER W G r r' ->
  h1 = h /\ exists r1', (forall h', bind MDirect xs vs' r' h' = Some (r1', h')) /\ ER W (under xs G) r1 r1'.
Proof.
  intros V Bi E. destruct (bind_both P g W xs vs vs' r r' V (bind_len _ _ _ _ _ _ Bi)) as (q & r1' & B1 & B2 & X1 & X2). rewrite B1 in Bi. injection Bi as <- <-.
  split; [reflexivity|]. exists r1'. split; [assumption|]. eapply er_under; eauto.
Qed.
Lemma fix_from_both W ys : forall i ids lams lams' r r' x, (forall j, VR W (VFix ids lams j r) (VFix ids lams' j r')) ->
  (In x ys -> OR W (lookup (bind_fix_from i ys ids lams r) x) (lookup (bind_fix_from i ys ids lams' r') x)) /\
  (~ In x ys -> lookup (bind_fix_from i ys ids lams r) x = lookup r x /\ lookup (bind_fix_from i ys ids lams' r') x = lookup r' x).
Proof.
  induction ys as [|y ys IH]; intros i ids lams lams' r r' x H; cbn [bind_fix_from]; [split; [easy | auto]|]. rewrite !lookup_cons.
  destruct (IH (Datatypes.S i) ids lams lams' r r' x H) as (A & D). destruct (id_eqb x y) eqn:E.
  - split; [intros _; now constructor|]. intros N. apply id_eqb_eq in E. subst. exfalso. apply N. now left.
  - apply id_eqb_neq in E. split; [intros [->|I]; [easy | auto] | intros N; apply D; firstorder].
Qed.
Lemma fix_er W G ids lams lams' r r' : Forall2 (fun l l' => fst l' = fst l /\ B (under (fst l) (under ids G)) (snd l) (snd l')) lams lams' ->
  ER W G r r' -> ER W (under ids G) (bind_fix ids lams r) (bind_fix ids lams' r').
Proof.
  intros L E. assert (H : forall j, VR W (VFix ids lams j r) (VFix ids lams' j r')) by (intros j; now apply vr_fix with G).
  apply er_under with r r'; [assumption | intros y I; now apply fix_from_both | intros y I; now apply (fix_from_both W ids 0 ids lams lams' r r' y H)].
Qed.
Lemma er_unbound W G t r r' : ER W G r r' -> scoped G t -> unbound_ok P g W t r r'.
Proof.
  intros E S y F Gy. assert (O := E y (EVar y) r' (S y F Gy) Gy). destruct (or_inv P g _ _ _ (O (fun z _ => eq_refl))) as (v & u & -> & E2 & V).
  cbn [Proofs_BetaPure.peval] in E2. rewrite Gy in E2. destruct (lookup r' y) as [[]|]; try discriminate; injection E2 as <-; now constructor.
Qed.
Lemma agree_unbound W t r r' r2 : unbound_ok P g W t r r' -> agree t r' r2 -> unbound_ok P g W t r r2.
Proof. intros U A y F Gy. rewrite (A y F). auto. Qed.

(** ** Slots *)
Lemma SL_app W G a : forall a' b b', SL W G a a' -> SL W G b b' -> SL W G (a ++ b) (a' ++ b').
Proof. induction a as [|s a IH]; intros a' b b' A H; inversion A; subst; [assumption | constructor; eauto | constructor; eauto]. Qed.
Lemma SL_todo W G l : forall l', Forall2 (B G) l l' -> SL W G (map STodo l) (map STodo l').
Proof. induction l; intros l' F; inversion F; subst; constructor; auto. Qed.
Lemma SL_split W G l l' : SL W G l l' -> forall a e' b, l' = a ++ STodo e' :: b -> exists a0 e b0, l = a0 ++ STodo e :: b0 /\ B G e e' /\ SL W G a0 a /\ SL W G b0 b.
Proof.
  induction 1 as [G|G v v' l l' V S IH|G e e0 l l' C S IH]; intros a e' b E.
  - now destruct a.
  - destruct a as [|s a]; [discriminate|]. injection E as <- E. destruct (IH _ _ _ E) as (a0 & e & b0 & -> & H1 & H2 & H3). exists (SDone v :: a0), e, b0. split; [reflexivity|]. split; [assumption|]. split; [now constructor | assumption].
  - destruct a as [|s a].
    + injection E as <- <-. exists [], e, l. split; [reflexivity|]. split; [assumption|]. split; [constructor | assumption].
    + injection E as <- E. destruct (IH _ _ _ E) as (a0 & e1 & b0 & -> & H1 & H2 & H3). exists (STodo e :: a0), e1, b0. split; [reflexivity|]. split; [assumption|]. split; [now constructor | assumption].
Qed.
Lemma SL_done W G l vs' : SL W G l (map SDone vs') -> exists vs, l = map SDone vs /\ Forall2 (VR W) vs vs'.
Proof.
  revert l. induction vs' as [|v' vs' IH]; intros l S; inversion S as [|? v ? l0 ? V S0|]; subst; [exists []; split; [reflexivity | constructor]|].
  destruct (IH _ S0) as (vs & -> & F). exists (v :: vs). split; [reflexivity | now constructor].
Qed.
Lemma SL_dones W G vs vs' : Forall2 (VR W) vs vs' -> SL W G (map SDone vs) (map SDone vs').
Proof. induction 1; constructor; auto. Qed.
Lemma no_er W : ER W (fun _ _ => False) [] [].
Proof. intros x t r2 []. Qed.

(** ** Continuations *)
Lemma recv_KR W v v' : VR W v v' -> KR W (recv v) (recv v').
Proof.
  intros V. unfold recv. apply kr_cons with (fun _ _ => False); [| |constructor|apply no_er|constructor].
  - constructor. apply b_prim. constructor.
  - constructor; [assumption | constructor].
Qed.
Lemma kont_of_KR W v v' : VR W v v' -> KR W (kont_of v) (kont_of v').
Proof. intros V. assert (X := recv_KR _ _ _ V). inversion V; subst; cbn [kont_of]; try exact X. assumption. Qed.
Lemma trap_KR W : KR W trap trap.
Proof. apply recv_KR. constructor. Qed.
Lemma recv_inv W e p r0 K' : KR W [Fr (OWith e) [SDone p] [] r0] K' -> exists e' p' r0', K' = [Fr (OWith e') [SDone p'] [] r0'] /\ VR W p p'.
Proof.
  intros K. inversion K as [|G o o' a a' b b' r r' K1 K1' C SA SB0 E KK| | |]; subst. inversion KK; subst. inversion C; subst. inversion SB0; subst. inversion SA as [|? ? v' ? l' V SN|]; subst. inversion SN; subst. eauto 6.
Qed.
Lemma KR_capturable W K : forall K', KR W K K' -> capturable K = true -> capturable K' = true.
Proof.
  induction K as [|f K IH]; intros K' KK C; [now inversion KK|].
  inversion KK as [|G o o' a a' b b' r r' K1 K1' CO SA SB0 E KK1|G T1 T2 U1 U2 x b b' op ids ids' ks r r' K1 K1' EE PM E1 E2 E3 ND BB OP ER0 KK1|G x c o l1 l2 s1 s2 r r' K1 K1' Gx Mo D M1 M2 ER0 KK1|x r0 r K1 K1' Gx KK1]; subst; cbn [capturable] in C |- *.
  - destruct CO; eauto. destruct SA as [|? v v' l l' V S|]; cbn in C |- *; eauto. destruct S; cbn in C |- *; eauto. now rewrite <- (VR_proc P g _ _ _ V).
  - eauto.
  - destruct o; try contradiction; eauto.
  - eauto.
Qed.

(** ** Calls *)
Lemma call_rel W p p' vs vs' r r' K K' w w' s1 : VR W p p' -> Forall2 (VR W) vs vs' -> KR W K K' -> SR W w w' ->
  firef P MDirect OApp (p :: vs) r K w = Some s1 -> exists t1, firef P MDirect OApp (p' :: vs') r' K' w' = Some t1 /\ R 0 s1 t1.
Proof.
  intros V F KK S E. destruct V as [c|l l' HL|G ids b b' r0 r0' C A|G ids lams lams' i r0 r0' L A|K0 K0' KK0]; try discriminate; cbn [firef] in E |- *.
  - destruct (bind MDirect ids vs r0 (hp w)) as [(r1 & h1)|] eqn:Bi; [|discriminate]. assert (s1 = Ev b r1 K (set_hp w h1)) by congruence. subst s1. clear E.
    destruct (bind_er W G ids vs vs' r0 r0' (hp w) r1 h1 F Bi A) as (-> & r1' & B' & E1). exists (Ev b' r1' K' (set_hp w' (hp w'))). split; [now rewrite B'|]. rewrite !set_hp_same. now apply r_ev with W (under ids G).
  - destruct (nth_error lams i) as [(xs & b)|] eqn:N; [|discriminate]. destruct (Forall2_nth _ _ _ _ _ L N) as ((xs' & b') & N' & X & C). cbn [fst snd] in X, C. subst xs'. rewrite N'.
    destruct (bind MDirect xs vs (bind_fix ids lams r0) (hp w)) as [(r1 & h1)|] eqn:Bi; [|discriminate]. assert (s1 = Ev b r1 K (set_hp w h1)) by congruence. subst s1. clear E.
    destruct (bind_er W (under ids G) xs vs vs' (bind_fix ids lams r0) (bind_fix ids lams' r0') (hp w) r1 h1 F Bi) as (-> & r1' & B' & E1); [now apply fix_er|].
    exists (Ev b' r1' K' (set_hp w' (hp w'))). split; [now rewrite B'|]. rewrite !set_hp_same. now apply r_ev with W (under xs (under ids G)).
  - apply throwf_inv in E. destruct E as [(v & -> & ->)|(e & p & r1 & N & -> & ->)].
    + inversion F as [|? v' ? ? V F']; subst. inversion F'; subst. exists (Ret v' K0' w'). split; [reflexivity|]. now apply r_ret with W.
    + destruct (recv_inv _ _ _ _ _ KK0) as (e' & p' & r1' & -> & V). exists (Args OApp (map SDone (p' :: vs')) [] trap w'). 
      split; [apply Forall2_len in F; destruct vs' as [|? [|]]; cbn in F; [reflexivity | congruence | reflexivity]|].
      apply r_args with W (fun _ _ => False); [constructor | apply SL_dones; now constructor | apply no_er | apply trap_KR | assumption].
Qed.
Lemma SR_set W w w' x v v' : SR W w w' -> VR W v v' -> global_id_constant x = false -> SR W (set_gl w x v) (set_gl w' x v').
Proof.
  intros [A C D D2 E F] V NC. constructor; cbn; auto.
  - intros y. destruct (id_eqb y x); auto.
  - intros y Gy. cbn. destruct (id_eqb y x) eqn:X; [apply id_eqb_eq in X; congruence | auto].
Qed.
Lemma fire_rel W G o o' r r' vs vs' K K' w w' s1 : OC G o o' -> Forall2 (VR W) vs vs' -> ER W G r r' -> KR W K K' -> SR W w w' ->
  firef P MDirect o vs r K w = Some s1 -> exists t1, firef P MDirect o' vs' r' K' w' = Some t1 /\ R 0 s1 t1.
Proof.
  intros C F E KK S X. destruct C as [b c b' c' Cb Cc|x Gx NC|ef p| |e e' Ce].
  - inversion F as [|v v' ? ? V F']; subst; [discriminate|]. inversion F'; subst; [|discriminate]. cbn [firef] in *. injection X as <-. eexists. split; [reflexivity|]. rewrite <- (VR_true P g _ _ _ V).
    apply r_ev with W G; auto. now destruct (is_true v).
  - inversion F as [|v v' ? ? V F']; subst; [discriminate|]. inversion F'; subst; [|discriminate]. cbn [firef] in *. rewrite Gx in *. injection X as <-. eexists. split; [reflexivity|].
    apply r_ret with W; auto; [constructor | now apply SR_set].
  - cbn [firef] in *. destruct (zlist_dec p the_halt_prim) as [->|N].
    + inversion F as [|v v' ? ? V F']; subst; [discriminate|]. inversion F'; subst; [|discriminate]. injection X as <-. exists (Halted v' w'). split; [reflexivity|]. now apply r_halt with W.
    + destruct (run (P p) vs w) as [(v & w1)|] eqn:Rn; [|discriminate]. injection X as <-. destruct (run_SR P g _ _ _ _ _ _ _ _ S F Rn) as (W' & v' & w1' & -> & Ex & S1 & V).
      exists (Ret v' K' w1'). split; [reflexivity|]. apply r_ret with W'; auto. eapply KR_ext; eauto.
  - destruct F as [|p p' vs vs' V F]; [discriminate|]. eapply call_rel; eauto.
  - cbn [firef] in X |- *. destruct F as [|v v' vs vs' V F]; [discriminate|]. destruct F as [|u u' vs vs' U F].
    + injection X as <-. exists (Ev e' r' (kont_of v') w'). split; [reflexivity|]. apply r_ev with W G; auto. now apply kont_of_KR.
    + destruct F; [|discriminate]. injection X as <-. eexists. split; [reflexivity|].
      apply r_args with W (fun _ _ => False); [constructor | apply (SL_dones W _ [v; u] [v'; u']); auto | apply no_er | apply trap_KR | assumption].
Qed.

(** ** Operands *)
Lemma args_good n W G o o' l l' r r' K K' w w' : OC G o o' -> SL W G l l' -> ER W G r r' -> KR W K K' -> SR W w w' -> good n (Args o l r K w) (Args o' l' r' K' w').
Proof.
  intros C S E KK SW. apply good_args.
  - intros a e' b ->. destruct (SL_split _ _ _ _ S _ _ _ eq_refl) as (a0 & e & b0 & -> & Ce & Sa & Sb). apply inev_now. apply next_one with 0%nat (Ev e r (Fr o a0 b0 r :: K) w); [apply st_pick|].
    apply r_ev with W G; auto. now apply kr_cons with G.
  - intros vs ->. destruct (slots_cases l') as [(vs' & ->)|(a & e & b & ->)].
    + destruct (SL_done _ _ _ _ S) as (us & X & F). apply map_SDone_inj in X. subst us. exists vs'. split; [reflexivity|]. intros s1 X.
      destruct (fire_rel _ _ _ _ _ _ _ _ _ _ _ _ _ C F E KK SW X) as (t1 & Y & Z). exists t1. split; [assumption|]. apply inev_now. eapply next_one; [|exact Z]. constructor. now apply fire_firef.
    + destruct (SL_split _ _ _ _ S _ _ _ eq_refl) as (a0 & e0 & b0 & X & _). now apply done_todo in X.
  - intros a e b ->. destruct (slots_cases l') as [(vs' & ->)|(a0 & e0 & b0 & ->)]; [|eauto]. destruct (SL_done _ _ _ _ S) as (us & X & _). symmetry in X. now apply done_todo in X.
Qed.

(** ** Lets *)
Lemma EL_app W G r' T1 : forall T2, EL W G r' (T1 ++ T2) <-> EL W G r' T1 /\ EL W G r' T2.
Proof.
  induction T1 as [|d T1 IH]; intros T2; cbn [app].
  - split; [intros H; split; [constructor | assumption] | now intros (_ & H)].
  - split; [intros H | intros (H & H2)].
    + inversion H; subst; (match goal with X : EL _ _ _ (T1 ++ T2) |- _ => apply IH in X; destruct X as (X1 & X2) end); split; try assumption; now constructor.
    + inversion H; subst; constructor; auto; now apply IH.
Qed.
Lemma el_in_LB W G r' T x s s' : EL W G r' T -> In (LB x s s') T -> (exists v v', s = SDone v /\ s' = SDone v' /\ VR W v v') \/ (exists e e', s = STodo e /\ s' = STodo e' /\ B G e e').
Proof. induction 1; intros I; [contradiction|..]; destruct I as [X|I]; auto; try discriminate; injection X as <- <- <-; [left | right]; eauto. Qed.
Lemma el_in_LK W G r' T x t s s' : EL W G r' T -> In (LK x t s s') T ->
  (exists v v', s = SDone v /\ s' = SDone v' /\ VR W v v' /\ forall r2, agree t r' r2 -> OR W (Some v) (peval r2 t)) \/ (s = STodo t /\ s' = STodo t /\ known G t).
Proof. induction 1; intros I; [contradiction|..]; destruct I as [X|I]; auto; try discriminate; injection X as <- <- <- <-; [left | right]; eauto 6. Qed.
Lemma ltgt_split U : forall a s b, flat_map ltgt U = a ++ s :: b -> exists U1 d U2, U = U1 ++ d :: U2 /\ ltgt d = [s] /\ a = flat_map ltgt U1 /\ b = flat_map ltgt U2.
Proof.
  induction U as [|d U IH]; intros a s b E; [now destruct a|]. cbn [flat_map] in E.
  assert (G : (exists s0, ltgt d = [s0]) \/ ltgt d = []) by (destruct d; cbn; eauto). destruct G as [(s0 & G)|G]; rewrite G in E; cbn [app] in E.
  - destruct a as [|s1 a]; cbn [app] in E.
    + assert (s0 = s) by congruence. assert (b = flat_map ltgt U) by congruence. subst. exists [], d, U. auto.
    + assert (s0 = s1) by congruence. assert (E2 : flat_map ltgt U = a ++ s :: b) by congruence. subst s0. destruct (IH _ _ _ E2) as (U1 & d1 & U2 & -> & H & -> & ->). exists (d :: U1), d1, U2. cbn [flat_map]. rewrite G. auto.
  - destruct (IH _ _ _ E) as (U1 & d1 & U2 & -> & H & -> & ->). exists (d :: U1), d1, U2. cbn [flat_map]. rewrite G. auto.
Qed.
Lemma ltgt_done U us : flat_map ltgt U = map SDone us -> forall d s, In d U -> In s (ltgt d) -> exists u, s = SDone u.
Proof.
  intros E d s I J. assert (X : In s (flat_map ltgt U)) by (apply in_flat_map; eauto). rewrite E in X. apply in_map_iff in X. destruct X as (u & <- & _). eauto.
Qed.
Lemma comb_tgt U : forall us, flat_map ltgt U = map SDone us -> length (flat_map ltid U) = length us /\ forall d x u, In d U -> ltid d = [x] -> ltgt d = [SDone u] -> In (x, u) (combine (flat_map ltid U) us).
Proof.
  induction U as [|d U IH]; intros us E; cbn [flat_map] in *.
  - destruct us; [|discriminate]. split; [reflexivity | easy].
  - assert (G : (exists s0 x0, ltgt d = [s0] /\ ltid d = [x0]) \/ ltgt d = [] /\ ltid d = []) by (destruct d; cbn; eauto 6). destruct G as [(s0 & x0 & G1 & G2)|(G1 & G2)]; rewrite G1 in E; rewrite G2; cbn [app] in *.
    + destruct us as [|u us]; [discriminate|]. assert (s0 = SDone u) by (cbn in E; congruence). assert (E2 : flat_map ltgt U = map SDone us) by (cbn in E; congruence). subst s0. destruct (IH _ E2) as (L & H). split; [cbn; congruence|].
      intros d1 x1 u1 [->|I] X1 X2; [left; congruence | right; eauto].
    + destruct (IH _ E) as (L & H). split; [assumption|]. intros d1 x1 u1 [->|I] X1 X2; [congruence | eauto].
Qed.
Lemma ltid_sub U x : In x (flat_map ltid U) -> In x (map lid U).
Proof. intros I. apply in_flat_map in I. destruct I as (d & I & J). apply in_map_iff. exists d. split; [|assumption]. destruct d; cbn in J |- *; tauto. Qed.
Lemma ltid_nodup U : NoDup (map lid U) -> NoDup (flat_map ltid U).
Proof.
  induction U as [|d U IH]; cbn [map flat_map]; intros N; [constructor|]. inversion N as [|? ? NI N2]; subst. destruct d; cbn [ltid app lid] in *; auto; constructor; auto; intros J; now apply NI, ltid_sub.
Qed.
Lemma lid_sid T : map sid (map lsk T) = map lid T.
Proof. rewrite map_map. apply map_ext. intros []; reflexivity. Qed.
Lemma bind_in xs : forall vs r, length xs = length vs -> exists r1, (forall h, bind MDirect xs vs r h = Some (r1, h)) /\
  (NoDup xs -> forall x v, In (x, v) (combine xs vs) -> lookup r1 x = Some v) /\ (forall y, ~ In y xs -> lookup r1 y = lookup r y).
Proof.
  induction xs as [|x xs IH]; intros [|v vs] r L; cbn in L; try discriminate.
  - exists r. split; [reflexivity|split; [easy | reflexivity]].
  - injection L as L. destruct (IH vs ((x, v) :: r) L) as (r1 & Bi & C & D). exists r1. split; [exact Bi|split].
    + intros N y u I. inversion N; subst. cbn [combine] in I. destruct I as [[= <- <-]|I]; [|auto]. rewrite D by assumption. now rewrite lookup_cons, id_eqb_refl.
    + intros y N. rewrite D, lookup_cons; [|firstorder]. destruct (id_eqb y x) eqn:Q; [|reflexivity]. apply id_eqb_eq in Q. subst. firstorder.
Qed.
Definition got (d : elem) (v : val) : Prop := match d with LB _ s _ | LK _ _ s _ => s = SDone v | LG _ _ => True end.
Lemma comb_src T : forall vs, Forall2 got T vs -> length (map lid T) = length vs /\ forall d, In d T -> exists v, got d v /\ In (lid d, v) (combine (map lid T) vs).
Proof.
  induction 1 as [|d v T vs Gd F (L & H)]; [split; [reflexivity | easy]|]. split; [cbn; congruence|]. intros d1 [->|I]; [exists v; split; [assumption | now left]|].
  destruct (H _ I) as (u & A & D). exists u. split; [assumption | now right].
Qed.
(** the deleted operands are evaluated in the old program *)
Lemma run_gones W G r' T : EL W G r' T -> (forall d s, In d T -> In s (ltgt d) -> exists u, s = SDone u) -> forall pre r K w,
  wrong (Args OApp (map SDone pre ++ map lsrc T) r K w) \/
  exists vs h, Forall2 got T vs /\ star (Args OApp (map SDone pre ++ map lsrc T) r K w) (Args OApp (map SDone (pre ++ vs)) r K (set_hp w (hp w ++ h))).
Proof.
  induction T as [|d T IH]; intros E H pre r K w.
  - right. exists [], []. split; [constructor|]. cbn [map]. rewrite !app_nil_r, set_hp_same. constructor.
  - assert (E2 : EL W G r' T) by (inversion E; assumption). assert (H2 : forall d s, In d T -> In s (ltgt d) -> exists u, s = SDone u) by (intros d0 s0 I0; apply H; now right).
    assert (Done : forall v, lsrc d = SDone v -> got d v -> wrong (Args OApp (map SDone pre ++ map lsrc (d :: T)) r K w) \/
      exists vs h, Forall2 got (d :: T) vs /\ star (Args OApp (map SDone pre ++ map lsrc (d :: T)) r K w) (Args OApp (map SDone (pre ++ vs)) r K (set_hp w (hp w ++ h)))).
    { intros v Ls Gd. cbn [map]. rewrite Ls. replace (map SDone pre ++ SDone v :: map lsrc T) with (map SDone (pre ++ [v]) ++ map lsrc T) by (rewrite map_app, <- app_assoc; reflexivity).
      destruct (IH E2 H2 (pre ++ [v]) r K w) as [Wr|(vs & h & F & S)]; [now left | right]. exists (v :: vs), h. split; [now constructor|]. rewrite <- app_assoc in S. exact S. }
    inversion E as [|? ? x v v' T0 V ET|? ? x e e' T0 C ET|? ? x t v v' T0 V V2 ET|? ? x t T0 Kn ET|? ? x e T0 Q Fi ET]; subst.
    + now apply (Done v).
    + destruct (H _ _ (or_introl eq_refl) (or_introl eq_refl)). discriminate.
    + now apply (Done v).
    + destruct (H _ _ (or_introl eq_refl) (or_introl eq_refl)). discriminate.
    + cbn [map lsrc]. destruct (rem_run P g (esize e) e r (Fr OApp (map SDone pre) (map lsrc T) r :: K) w (le_n _) Q Fi) as [Wr|(v & h & S)].
      * left. eapply wrong_star; [apply star_one, st_pick | exact Wr].
      * assert (S2 : star (Args OApp (map SDone pre ++ STodo e :: map lsrc T) r K w) (Args OApp (map SDone (pre ++ [v]) ++ map lsrc T) r K (set_hp w (hp w ++ h)))).
        { eapply star_step; [apply st_pick|]. eapply star_trans; [exact S|]. eapply star_step; [apply Spec_Sem.st_ret|]. rewrite map_app, <- app_assoc. constructor. }
        destruct (IH E2 H2 (pre ++ [v]) r K (set_hp w (hp w ++ h))) as [Wr|(vs & h2 & F & S3)]; [left; eapply wrong_star; eassumption | right].
        exists (v :: vs), (h ++ h2). split; [constructor; [exact Logic.I | assumption]|]. eapply star_trans; [exact S2|]. rewrite <- app_assoc in S3. cbn [set_hp hp app] in S3. rewrite app_assoc. exact S3.
Qed.
Lemma let_er W G T U vs us r r' r1 r1' : EL W G r' T -> Permutation T U -> NoDup (map lid T) -> ER W G r r' -> Forall2 got T vs -> flat_map ltgt U = map SDone us ->
  (forall x v, In (x, v) (combine (map lid T) vs) -> lookup r1 x = Some v) -> (forall y, ~ In y (map lid T) -> lookup r1 y = lookup r y) ->
  (forall x v, In (x, v) (combine (flat_map ltid U) us) -> lookup r1' x = Some v) -> (forall y, ~ In y (flat_map ltid U) -> lookup r1' y = lookup r' y) ->
  ER W (knows G (map lsk T)) r1 r1'.
Proof.
  intros EE PM ND E F Us X1 X2 Y1 Y2 y t r2 KN Gy Ag.
  destruct (comb_src _ _ F) as (_ & CS). destruct (comb_tgt _ _ Us) as (_ & CT).
  assert (NU : forall z, ~ In z (map lid T) -> lookup r1' z = lookup r' z).
  { intros z N. apply Y2. intros I. apply N. apply ltid_sub in I. eapply Permutation_in; [apply Permutation_sym, Permutation_map, PM | exact I]. }
  assert (OLD : apart t (map sid (map lsk T)) -> agree t r' r2).
  { intros A z Fz. rewrite (Ag z Fz). apply NU. rewrite <- lid_sid. now apply A. }
  destruct KN as [(I & ->)|[((t0 & I) & ->)|[(I & A)|(N & Gt & A)]]].
  - apply in_map_iff in I. destruct I as (d & Ed & I). destruct d as [x s s'|x t s s'|x e]; try discriminate. injection Ed as ->.
    destruct (CS _ I) as (v & Gd & Cv). cbn in Gd, Cv. destruct (el_in_LB _ _ _ _ _ _ _ EE I) as [(v0 & v' & -> & -> & V)|(e & e' & -> & _)]; [|discriminate]. injection Gd as ->.
    rewrite (X1 _ _ Cv). apply or_var with (Some v'); [assumption | now constructor|]. rewrite (agree_var _ _ _ Ag). apply Y1. eapply CT; [eapply Permutation_in; eassumption | reflexivity | reflexivity].
  - apply in_map_iff in I. destruct I as (d & Ed & I). destruct d as [x s s'|x t s s'|x e]; try discriminate. injection Ed as -> ->.
    destruct (CS _ I) as (v & Gd & Cv). cbn in Gd, Cv. destruct (el_in_LK _ _ _ _ _ _ _ _ EE I) as [(v0 & v' & -> & -> & V & _)|(-> & _)]; [|discriminate]. injection Gd as ->.
    rewrite (X1 _ _ Cv). apply or_var with (Some v'); [assumption | now constructor|]. rewrite (agree_var _ _ _ Ag). apply Y1. eapply CT; [eapply Permutation_in; eassumption | reflexivity | reflexivity].
  - apply in_map_iff in I. destruct I as (d & Ed & I). destruct d as [x s s'|x t1 s s'|x e]; try discriminate. injection Ed as -> ->.
    destruct (CS _ I) as (v & Gd & Cv). cbn in Gd, Cv. destruct (el_in_LK _ _ _ _ _ _ _ _ EE I) as [(v0 & v' & -> & -> & _ & V)|(-> & _)]; [|discriminate]. injection Gd as ->.
    rewrite (X1 _ _ Cv). apply V. auto.
  - rewrite lid_sid in N. rewrite (X2 _ N). apply E; auto.
Qed.
Lemma let_good n W G T U b b' op r r' K K' w w' : EL W G r' T -> Permutation T U -> NoDup (map lid T) -> B (knows G (map lsk T)) b b' ->
    op = STodo (ELam (flat_map ltid U) b') /\ n = 1%nat \/ op = SDone (VClo (flat_map ltid U) b' r') /\ n = 0%nat ->
    ER W G r r' -> KR W K K' -> SR W w w' ->
    good n (Args OApp (SDone (VClo (map lid T) b r) :: map lsrc T) r K w) (Args OApp (op :: flat_map ltgt U) r' K' w').
Proof.
  intros EE PM ND BB OP E KK SW. destruct (slots_cases (op :: flat_map ltgt U)) as [(us & D)|(a & e & c & D)].
  - destruct us as [|u us]; [discriminate|]. assert (op = SDone u) by (cbn in D; congruence). assert (Du : flat_map ltgt U = map SDone us) by (cbn in D; congruence). subst op. destruct OP as [(OP & _)|(OP & ->)]; [discriminate|]. injection OP as ->.
    assert (HD : forall d s, In d T -> In s (ltgt d) -> exists u, s = SDone u).
    { intros d s I. apply (ltgt_done _ _ Du). eapply Permutation_in; eauto. }
    destruct (run_gones W G r' T EE HD [VClo (map lid T) b r] r K w) as [Wr|(vs & h & F & S)]; [left; exact Wr|]. cbn [map app] in S.
    destruct (comb_src _ _ F) as (L1 & _). destruct (comb_tgt _ _ Du) as (L2 & _). destruct (bind_in _ vs r L1) as (r1 & Bi & X1 & X2). destruct (bind_in _ us r' L2) as (r1' & Bi' & Y1 & Y2).
    rewrite Du. assert (ST : step (Args OApp (map SDone (VClo (flat_map ltid U) b' r' :: us)) r' K' w') (Ev b' r1' K' w')).
    { constructor. apply fire_firef. cbn [firef]. rewrite Bi'. now rewrite set_hp_same. }
    right; right. split; [eexists; exact ST|]. intros t' St. assert (t' = Ev b' r1' K' w') as ->.
    { apply (step_done P MDirect OApp (VClo (flat_map ltid U) b' r' :: us)) in St. apply fire_firef in St. cbn [firef] in St. rewrite Bi', set_hp_same in St. congruence. }
    apply inev_now. right. exists 0%nat, (Ev b r1 K (set_hp w (hp w ++ h))). split.
    + apply r_ev with W (knows G (map lsk T)); auto; [|now apply SR_src_alloc]. eapply let_er; eauto. apply Y1. apply ltid_nodup. eapply Permutation_NoDup; [apply Permutation_map, PM | assumption].
    + left. eapply star_plus_trans; [exact S|]. apply plus_one. apply (st_fire P MDirect OApp (VClo (map lid T) b r :: vs)). apply fire_firef. cbn [firef]. rewrite Bi. reflexivity.
  - right; right. split; [rewrite D; eexists; constructor|]. intros t' S. apply step_args in S. destruct S as [(a1 & e1 & b1 & B1 & ->)|(vs & B1 & _)]; [|rewrite B1 in D; now apply done_todo in D].
    clear a e c D. destruct a1 as [|s1 a1].
    + assert (op = STodo e1) by (cbn in B1; congruence). assert (b1 = flat_map ltgt U) by (cbn in B1; congruence). subst. destruct OP as [(OP & ->)|(OP & _)]; [injection OP as -> | discriminate].
      eapply inev_ev; [reflexivity | reflexivity|]. apply inev_ret; [reflexivity|]. apply inev_now. right. eexists 0%nat, _. split; [|right; split; [constructor | lia]].
      cbn [app]. apply r_let with W G b'; auto.
    + assert (s1 = op) by (cbn in B1; congruence). assert (B2 : flat_map ltgt U = a1 ++ STodo e1 :: b1) by (cbn in B1; congruence). subst s1.
      destruct (ltgt_split _ _ _ _ B2) as (U1 & d & U2 & -> & Td & -> & ->). assert (I : In d T) by (eapply Permutation_in; [apply Permutation_sym, PM | apply in_elt]).
      apply in_split in I. destruct I as (T1 & T2 & ->). apply Permutation_app_inv in PM as PM2. rewrite map_app in ND. rewrite map_app in BB. rewrite (map_app lid), (map_app lsrc). cbn [map] in ND, BB |- *.
      rewrite flat_map_app in OP. cbn [flat_map] in OP. apply EL_app in EE as EE2. destruct EE2 as (EE1 & EE2). assert (EE3 : EL W G r' T2) by (inversion EE2; assumption).
      destruct d as [x s s'|x t s s'|x e]; cbn [ltgt] in Td; [| |discriminate]; injection Td as ->; cbn [lid lsk ltid app] in *.
      * destruct (el_in_LB _ _ _ _ x s (STodo e1) EE (in_elt _ _ _)) as [(v & v' & _ & ? & _)|(e & e' & -> & Ee & C)]; [discriminate|]. injection Ee as <-.
        apply inev_now. apply next_one with 0%nat (Ev e r (Fr OApp (SDone (VClo (map lid T1 ++ x :: map lid T2) b r) :: map lsrc T1) (map lsrc T2) r :: K) w).
        -- apply (st_pick P MDirect OApp (SDone (VClo (map lid T1 ++ x :: map lid T2) b r) :: map lsrc T1) e (map lsrc T2)).
        -- apply r_ev with W G; auto. eapply kr_let; eauto; [now apply EL_app | destruct OP as [(-> & _)|(-> & _)]; [left | right]; reflexivity].
      * destruct (el_in_LK _ _ _ _ x t s (STodo e1) EE (in_elt _ _ _)) as [(v & v' & _ & ? & _)|(-> & Ee & Kn)]; [discriminate|]. injection Ee as ->. destruct Kn as (RT & Fi & Sc).
        assert (Ub := er_unbound _ _ _ _ _ E Sc).
        destruct (pe_rel P g W (esize t) (sr_inj _ _ _ _ _ SW) t r r' (le_n _) RT Fi Ub) as [(v & u & P1 & P2 & V)|(P1 & Wr)].
        -- eapply inev_trans; [|apply (pe_run P g (esize t) t r' u); auto; apply (SR_const_r P g _ _ _ SW)]. intros ? ->. apply inev_ret; [reflexivity|]. apply inev_now.
           right. exists n, (Args OApp (SDone (VClo (map lid T1 ++ x :: map lid T2) b r) :: map lsrc T1 ++ SDone v :: map lsrc T2) r K w). split.
           ++ replace (map lid T1 ++ x :: map lid T2) with (map lid (T1 ++ LK x t (SDone v) (SDone u) :: T2)) by now rewrite map_app.
              replace (map lsrc T1 ++ SDone v :: map lsrc T2) with (map lsrc (T1 ++ LK x t (SDone v) (SDone u) :: T2)) by now rewrite map_app.
              cbn [app]. replace (flat_map ltgt U1 ++ SDone u :: flat_map ltgt U2) with (flat_map ltgt (U1 ++ LK x t (SDone v) (SDone u) :: U2)) by now rewrite flat_map_app.
              apply r_let with W G b'; auto.
              ** apply EL_app. split; [assumption|]. constructor; auto. intros r2 Ag.
                 destruct (pe_rel P g W (esize t) (sr_inj _ _ _ _ _ SW) t r r2 (le_n _) RT Fi (agree_unbound _ _ _ _ _ Ub Ag)) as [(v2 & u2 & Q1 & Q2 & V2)|(Q1 & _)]; [|congruence].
                 assert (v2 = v) by congruence. subst. rewrite Q2. now constructor.
              ** now apply Permutation_elt.
              ** now rewrite map_app.
              ** now rewrite map_app.
              ** rewrite flat_map_app. exact OP.
           ++ left. eapply plus_star_trans; [apply plus_one; apply (st_pick P MDirect OApp (SDone (VClo (map lid T1 ++ x :: map lid T2) b r) :: map lsrc T1) t (map lsrc T2))|].
              eapply star_trans; [apply (pe_star P g); eauto; apply SW|]. apply star_one. apply (Spec_Sem.st_ret P MDirect v OApp (SDone (VClo (map lid T1 ++ x :: map lid T2) b r) :: map lsrc T1)).
        -- apply inev_now. left. eapply wrong_star; [apply star_one; apply (st_pick P MDirect OApp (SDone (VClo (map lid T1 ++ x :: map lid T2) b r) :: map lsrc T1) t (map lsrc T2))|]. apply Wr. apply SW.
Qed.

(** ** Moved operands *)
Lemma steady_rel W G a x r r' : winj W -> steady P a -> known G a -> ~ free_in x a -> ER W G r r' -> exists u, peval r' a = Some u /\ forall v, OR W (peval ((x, v) :: r) a) (Some u).
Proof.
  intros J St (RT & Fi & Sc) NF E. assert (Ub := er_unbound _ _ _ _ _ E Sc).
  assert (H : forall v, exists v0 u, peval ((x, v) :: r) a = Some v0 /\ peval r' a = Some u /\ VR W v0 u).
  { intros v. assert (Ub2 : unbound_ok P g W a ((x, v) :: r) r').
    { intros y Fy Gy. rewrite lookup_cons. destruct (id_eqb y x) eqn:X; [apply id_eqb_eq in X; now subst | auto]. }
    destruct (pe_rel P g W (esize a) J a ((x, v) :: r) r' (le_n _) RT Fi Ub2) as [H|(H & _)]; [assumption|]. exfalso.
    destruct a as [y| | |ef p l|f l|xs b| | |]; cbn [steady] in St; try contradiction.
    - cbn [Proofs_BetaPure.peval] in H. destruct (global_id y) eqn:Gy.
      + destruct St as [St|St]; [congruence|]. rewrite St in H. discriminate.
      + destruct (or_inv P g _ _ _ (Ub2 y (free_here _ _ (nm_ref y)) Gy)) as (q & q' & E1 & _ & V). rewrite E1 in H. destruct (VR_plain P g _ _ _ V) as (N & _). destruct q; try discriminate. now apply (N l).
    - destruct ef; try contradiction. destruct l; [|contradiction]. rewrite peval_prim in H. cbn [Proofs_BetaPure.pevals] in H. specialize (St st0). destruct (run (P p) [] st0) as [(? & ?)|]; congruence.
    - discriminate. }
  destruct (H (VC CVoid)) as (v0 & u & _ & Hu & _). exists u. split; [assumption|]. intros v. destruct (H v) as (v1 & u1 & -> & Hu1 & V). assert (u1 = u) by congruence. subst. now constructor.
Qed.
Lemma split_mid {A} (s1 : list A) : forall m s2 a e b, s1 ++ m :: s2 = a ++ e :: b ->
  (exists z, s1 = a ++ e :: z /\ b = z ++ m :: s2) \/ (a = s1 /\ e = m /\ b = s2) \/ (exists z, a = s1 ++ m :: z /\ s2 = z ++ e :: b).
Proof.
  induction s1 as [|s s1 IH]; intros m s2 a e b E.
  - destruct a as [|s a]; [injection E as <- <-; auto|]. injection E as <- E. right; right. exists a. auto.
  - destruct a as [|s0 a]; [injection E as <- <-; left; exists s1; auto|]. injection E as <- E. destruct (IH _ _ _ _ _ E) as [(z & -> & ->)|[(-> & -> & ->)|(z & -> & ->)]]; [left; exists z; auto | auto | right; right; exists z; auto].
Qed.
Lemma MS_split W G r x l s : MS W G r x l s -> forall a e b, s = a ++ STodo e :: b -> steady P e /\ known G e /\ ~ free_in x e /\
  forall u, (forall v, OR W (peval ((x, v) :: r) e) (Some u)) -> MS W G r x l (a ++ SDone u :: b).
Proof.
  induction 1 as [G r x|G r x a0 l s St Kn NF M IH|G r x a0 l u0 s Kn O M IH]; intros a e b E.
  - now destruct a.
  - destruct a as [|s0 a].
    + injection E as <- <-. split; [assumption|]. split; [assumption|]. split; [assumption|]. intros u H. now apply ms_done.
    + injection E as <- E. destruct (IH _ _ _ E) as (A1 & A2 & A3 & A4). split; [assumption|]. split; [assumption|]. split; [assumption|]. intros u H. cbn [app]. apply ms_todo; auto.
  - destruct a as [|s0 a]; [discriminate|]. injection E as <- E. destruct (IH _ _ _ E) as (A1 & A2 & A3 & A4). split; [assumption|]. split; [assumption|]. split; [assumption|]. intros u H. cbn [app]. apply ms_done; auto.
Qed.
Lemma MS_todos W G r x l : (forall a, In a l -> steady P a /\ known G a /\ ~ free_in x a) -> MS W G r x l (map STodo l).
Proof. induction l as [|a l IH]; intros H; cbn [map]; [constructor|]. destruct (H a (or_introl eq_refl)) as (A & C & D). apply ms_todo; auto. apply IH. intros. apply H. now right. Qed.
Lemma todos_split a e b : todos (a ++ STodo e :: b) = Datatypes.S (todos (a ++ b)).
Proof. rewrite !todos_app. change (todos (STodo e :: b)) with (Datatypes.S (todos b)). lia. Qed.
Lemma todos_done a u b : todos (a ++ SDone u :: b) = todos (a ++ b).
Proof. rewrite !todos_app. reflexivity. Qed.
Lemma move_good W G x e e' c o l1 l2 s1 s2 r r' K K' w w' : global_id x = false -> moves o -> decomp c = Some (o, l1 ++ EVar x :: l2) -> B G e e' ->
    MS W G r x l1 s1 -> MS W G r x l2 s2 -> ER W G r r' -> KR W K K' -> SR W w w' ->
    good (todos (s1 ++ s2)) (Args OApp [SDone (VClo [x] c r); STodo e] r K w) (Args o (s1 ++ STodo e' :: s2) r' K' w').
Proof.
  intros Gx Mo Dc C M1 M2 E KK SW. right; right. split; [eexists; constructor|]. intros t' S. apply step_args in S. destruct S as [(a & e1 & b & D & ->)|(vs & D & _)]; [|symmetry in D; now apply done_todo in D].
  assert (PURE : forall a b e1 k1, steady P e1 -> known G e1 -> ~ free_in x e1 -> exists u, (forall v, OR W (peval ((x, v) :: r) e1) (Some u)) /\ forall Q, inev (out w') Q (Args o (a ++ SDone u :: b) r' k1 w') -> inev (out w') Q (Ev e1 r' (Fr o a b r' :: k1) w')).
  { intros a0 b0 e0 k1 A1 A2 A3. destruct (steady_rel W G e0 x r r' (sr_inj _ _ _ _ _ SW) A1 A2 A3 E) as (u & P1 & P2). exists u. split; [assumption|]. intros Q HQ.
    destruct A2 as (RT & Fi & _). eapply inev_trans; [|apply (pe_run P g (esize e0) e0 r' u); auto; apply (SR_const_r P g _ _ _ SW)]. intros ? ->. apply inev_ret; [reflexivity | assumption]. }
  destruct (split_mid _ _ _ _ _ _ D) as [(z & -> & ->)|[(-> & Em & ->)|(z & -> & ->)]].
  - destruct (MS_split _ _ _ _ _ _ M1 _ _ _ eq_refl) as (A1 & A2 & A3 & A4). destruct (PURE a (z ++ STodo e' :: s2) e1 K' A1 A2 A3) as (u & HO & HI). apply HI. apply inev_now.
    right. exists (todos ((a ++ SDone u :: z) ++ s2)), (Args OApp [SDone (VClo [x] c r); STodo e] r K w). split.
    + replace (a ++ SDone u :: z ++ STodo e' :: s2) with ((a ++ SDone u :: z) ++ STodo e' :: s2) by (now rewrite <- app_assoc). apply r_move with W G l1 l2; auto.
    + right. split; [constructor|]. rewrite <- !app_assoc. cbn [app]. rewrite todos_split, todos_done. lia.
  - injection Em as <-. apply inev_now. apply next_one with 0%nat (Ev e r (Fr OApp [SDone (VClo [x] c r)] [] r :: K) w); [apply (st_pick P MDirect OApp [SDone (VClo [x] c r)] e [])|].
    apply r_ev with W G; auto. eapply kr_move; eauto.
  - destruct (MS_split _ _ _ _ _ _ M2 _ _ _ eq_refl) as (A1 & A2 & A3 & A4). destruct (PURE (s1 ++ STodo e' :: z) b e1 K' A1 A2 A3) as (u & HO & HI). apply HI. apply inev_now.
    right. exists (todos (s1 ++ z ++ SDone u :: b)), (Args OApp [SDone (VClo [x] c r); STodo e] r K w). split.
    + replace ((s1 ++ STodo e' :: z) ++ SDone u :: b) with (s1 ++ STodo e' :: z ++ SDone u :: b) by (now rewrite <- app_assoc). apply r_move with W G l1 l2; auto.
    + right. split; [constructor|]. rewrite !(app_assoc s1). rewrite todos_split, todos_done. lia.
Qed.
Lemma move_back W G x o l s r v K w : MS W G r x l s -> constok w -> forall pre post, exists sl,
  star (Args o (pre ++ map STodo l ++ post) ((x, v) :: r) K w) (Args o (pre ++ sl ++ post) ((x, v) :: r) K w) /\ SL W (fun y t => G y t /\ y <> x) sl s.
Proof.
  intros M C. induction M as [G r x|G r x a0 l s St Kn NF M IH|G r x a0 l u0 s Kn O M IH]; intros pre post.
  - exists []. split; constructor.
  - destruct (IH (pre ++ [STodo a0]) post) as (sl & S & L). exists (STodo a0 :: sl). rewrite <- !app_assoc in S. split; [exact S|]. constructor; [|assumption]. destruct Kn as (RT & Fi & Sc).
    apply (B_refl P g); [assumption|]. intros y Fy Gy. split; [auto|]. intros ->. contradiction.
  - destruct Kn as (RT & Fi & Sc). destruct (or_inv P g _ _ _ (O v)) as (v0 & u & P1 & P2 & V). injection P2 as <-.
    destruct (IH (pre ++ [SDone v0]) post) as (sl & S & L). exists (SDone v0 :: sl). rewrite <- !app_assoc in S. split; [|now constructor]. cbn [map app].
    eapply star_step; [apply st_pick|]. eapply star_trans; [apply (pe_star P g); eassumption|]. eapply star_step; [apply Spec_Sem.st_ret|]. exact S.
Qed.

(** ** Values *)
Lemma run_ident x r r0 K v w : global_id x = false -> (forall l, v <> VRef l) -> star (Ret v (Fr OApp [SDone (VClo [x] (EVar x) r)] [] r0 :: K) w) (Ret v K w).
Proof.
  intros G Pl. eapply star_step; [constructor|]. cbn [app].
  eapply star_step; [apply (st_fire P MDirect OApp [VClo [x] (EVar x) r; v]); constructor; reflexivity|]. rewrite set_hp_same.
  apply star_one. constructor. unfold read_var. rewrite G, lookup_cons, id_eqb_refl. destruct v; try reflexivity. now contradiction (Pl l).
Qed.
Lemma ret_good n W K : forall v v' K' w w', VR W v v' -> KR W K K' -> SR W w w' -> good n (Ret v K w) (Ret v' K' w').
Proof.
  induction K as [|f K IH]; intros v v' K' w w' V KK SW;
  inversion KK as [|G o o' a a' b b' r r' K1 K1' CO SA SB0 E KK1|G T1 T2 U1 U2 x b b' op ids ids' ks r r' K1 K1' EE PM E1 E2 E3 ND BB OP ER0 KK1|G x c o l1 l2 s1 s2 r r' K1 K1' Gx Mo D M1 M2 ER0 KK1|x r0 r K1 K1' Gx KK1]; subst.
  - right; left. exists (Ret v [] w), v, v'. split; [constructor|]. split; [constructor|]. split; [constructor|]. split; [now apply (VR_shape P g W)|].
    split; [apply SW|]. intros x. apply (VR_shape P g W). apply SW.
  - apply good_ret. apply inev_now. eapply next_one; [constructor|]. apply r_args with W G; auto. apply SL_app; [assumption | now constructor].
  - apply good_ret. apply inev_now. eapply next_one; [constructor|]. cbn [app].
    replace (map lid T1 ++ x :: map lid T2) with (map lid (T1 ++ LB x (SDone v) (SDone v') :: T2)) in * by now rewrite map_app.
    replace (map lsk T1 ++ SB x :: map lsk T2) with (map lsk (T1 ++ LB x (SDone v) (SDone v') :: T2)) in * by now rewrite map_app.
    replace (flat_map ltid U1 ++ x :: flat_map ltid U2) with (flat_map ltid (U1 ++ LB x (SDone v) (SDone v') :: U2)) in * by now rewrite flat_map_app.
    replace (map lsrc T1 ++ SDone v :: map lsrc T2) with (map lsrc (T1 ++ LB x (SDone v) (SDone v') :: T2)) by now rewrite map_app.
    replace (flat_map ltgt U1 ++ SDone v' :: flat_map ltgt U2) with (flat_map ltgt (U1 ++ LB x (SDone v) (SDone v') :: U2)) by now rewrite flat_map_app.
    apply r_let with (n := match op with STodo _ => 1%nat | _ => 0%nat end) (W := W) (G := G) (b' := b'); auto.
    + apply EL_app in EE. destruct EE as (EE1 & EE2). apply EL_app. split; [assumption | now constructor].
    + now apply Permutation_elt.
    + destruct OP as [->| ->]; [left | right]; auto.
  - apply good_ret. apply inev_now. cbn [app].
    destruct (move_back W G x o l1 s1 r v K w M1 (sr_const _ _ _ _ _ SW) [] (STodo (EVar x) :: map STodo l2)) as (sl1 & S1 & L1).
    destruct (move_back W G x o l2 s2 r v K w M2 (sr_const _ _ _ _ _ SW) (sl1 ++ [SDone v]) []) as (sl2 & S2 & L2). rewrite !app_nil_r in S2. cbn [app] in S1.
    destruct (VR_plain P g _ _ _ V) as (NV & _).
    right. exists 0%nat, (Args o (sl1 ++ SDone v :: sl2) ((x, v) :: r) K w). split.
    + apply r_args with W (fun y t => G y t /\ y <> x); auto.
      * destruct o; try contradiction; constructor.
      * apply SL_app; [assumption | now constructor].
      * intros y t r2 (Gy & N) Ly Ag. rewrite lookup_cons, (proj2 (id_eqb_neq _ _) N). eauto.
    + left. econstructor; [constructor|]. cbn [app]. eapply star_step; [apply (st_fire P MDirect OApp [VClo [x] c r; v]); constructor; reflexivity|]. rewrite set_hp_same.
      eapply star_step; [apply st_args; exact D|]. rewrite map_app. cbn [map]. eapply star_trans; [exact S1|].
      eapply star_step; [apply st_pick|]. eapply star_step; [constructor; unfold read_var; rewrite Gx, lookup_cons, id_eqb_refl; destruct v; try reflexivity; now contradiction (NV l)|].
      eapply star_step; [apply Spec_Sem.st_ret|]. rewrite <- !app_assoc in S2. exact S2.
  - eapply good_star; [apply run_ident; [assumption | apply (VR_plain P g _ _ _ V)]|]. eapply IH; eauto.
Qed.

(** ** Expressions *)
Lemma eval_op1 ids b l r K w : star (Ev (EApp (ELam ids b) l) r K w) (Args OApp (SDone (VClo ids b r) :: map STodo l) r K w).
Proof.
  eapply star_step; [now apply st_args|]. cbn [map]. eapply star_step; [apply (st_pick P MDirect OApp [])|]. eapply star_step; [apply st_lam|].
  apply star_one. apply (Spec_Sem.st_ret P MDirect _ OApp []).
Qed.
Lemma let_op ids b l r K w : plus (Ev (EApp (ELam ids b) l) r K w) (Args OApp (SDone (VClo ids b r) :: map STodo l) r K w).
Proof.
  econstructor; [now apply st_args|]. cbn [map]. eapply star_step; [apply (st_pick P MDirect OApp [])|]. eapply star_step; [apply st_lam|].
  apply star_one. apply (Spec_Sem.st_ret P MDirect _ OApp []).
Qed.
Lemma ops_good n e o l e' o' l' W G r r' K K' w w' : decomp e = Some (o, l) -> decomp e' = Some (o', l') -> Forall2 (B G) l l' -> OC G o o' -> ER W G r r' -> KR W K K' -> SR W w w' ->
  good n (Ev e r K w) (Ev e' r' K' w').
Proof.
  intros D D' C OO E KK SW. right; right. split; [eexists; apply st_args; exact D'|]. intros t' St. 
  assert (t' = Args o' (map STodo l') r' K' w') as -> by (inversion St; subst; cbn in D'; try discriminate; congruence).
  apply inev_now. apply next_one with 0%nat (Args o (map STodo l) r K w); [apply st_args; exact D|]. apply r_args with W G; auto. now apply SL_todo.
Qed.
Definition ofelem (d : opd) : elem := match d with OB x e e' => LB x (STodo e) (STodo e') | OK x t => LK x t (STodo t) (STodo t) | OG x e => LG x e end.
Lemma ofelem_maps Ds : map lid (map ofelem Ds) = map oid Ds /\ map lsrc (map ofelem Ds) = map STodo (map osrc Ds) /\ map lsk (map ofelem Ds) = map osk Ds /\
  flat_map ltid (map ofelem Ds) = flat_map otid Ds /\ flat_map ltgt (map ofelem Ds) = map STodo (flat_map otgt Ds).
Proof. induction Ds as [|d Ds (A1 & A2 & A3 & A4 & A5)]; [repeat split|]. cbn [map flat_map]. rewrite A1, A2, A3, A4, A5, map_app. destruct d; repeat split. Qed.
Lemma ofelem_EL W G r' Ds : (forall x e e', In (OB x e e') Ds -> B G e e') -> (forall x t, In (OK x t) Ds -> known G t) -> (forall x e, In (OG x e) Ds -> quiet e = true /\ fine e) -> EL W G r' (map ofelem Ds).
Proof.
  induction Ds as [|d Ds IH]; intros H1 H2 H3; [constructor|]. assert (H : EL W G r' (map ofelem Ds)) by (apply IH; intros; [eapply H1 | eapply H2 | eapply H3]; right; eauto).
  destruct d as [x e e'|x t|x e]; cbn [map ofelem]; constructor; auto; [eapply H1 | eapply H2 | eapply H3 | eapply H3]; now left.
Qed.
Lemma ev_good m : forall e G e' W r r' K K' w w' n, (esize e <= m)%nat -> B G e e' -> ER W G r r' -> KR W K K' -> SR W w w' -> good n (Ev e r K w) (Ev e' r' K' w').
Proof.
  induction m as [|m IH]; intros e G e' W r r' K K' w w' n L C E KK SW; [destruct e; cbn in L; lia|].
  destruct C as [G x t Gx Gt RT Fi|G x Gx|G x e e' Gx NC C|G a b c a' b' c' Ca Cb Cc|G ef p l l' Cl|G f f' l l' Cf Cl|G Ds Us b b' ND PM H1 H2 H3 C|G b b' C|G x e e' Gx C|G x e e' c c' o l1 l2 Gx Mo D1 D2 C HA|G ids b b' C|G ids lams lams' b b' CL C|G x b b' C|G k0 e k0' e' Ck C].
  - destruct (or_inv P g _ _ _ (E x t r' Gt Gx (fun z _ => eq_refl))) as (v & u & E1 & E2 & V). destruct (VR_plain P g _ _ _ V) as (NV & _).
    assert (I := pe_run P g (esize t) t r' u K' w' (le_n _) RT Fi (SR_const_r P g _ _ _ SW) E2). inversion I as [? X|? t1 Ot St HI]; subst; [discriminate|].
    right; right. split; [eauto|]. intros t' S. eapply inev_impl; [|exact (HI t' S)]. intros ? ->. apply next_one with 0%nat (Ret v K w); [|now apply r_ret with W].
    constructor. unfold read_var. rewrite Gx, E1. destruct v; try reflexivity. now contradiction (NV l).
  - apply good_ev. intros s1 F. cbn [evf] in F |- *. unfold read_var in *. rewrite Gx in *. injection F as <-. eexists. split; [reflexivity|]. apply inev_now.
    eapply next_one; [constructor; unfold read_var; rewrite Gx; reflexivity|]. apply r_ret with W; auto. apply SW.
  - eapply (ops_good n _ (OSet x) [e] _ (OSet x) [e'] W G); eauto; try reflexivity. now constructor.
  - eapply (ops_good n _ (OIf b c) [a] _ (OIf b' c') [a'] W G); eauto; try reflexivity. now constructor.
  - eapply (ops_good n _ (OPrim ef p) l _ (OPrim ef p) l' W G); eauto; try reflexivity. constructor.
  - eapply (ops_good n _ OApp (f :: l) _ OApp (f' :: l') W G); eauto; try reflexivity. constructor.
  - right; right. split; [eexists; apply st_args; reflexivity|]. intros t' St. apply step_evf in St. cbn in St. injection St as <-.
    apply inev_now. right. exists 1%nat, (Args OApp (SDone (VClo (map oid Ds) b r) :: map STodo (map osrc Ds)) r K w). split; [|left; apply let_op].
    destruct (ofelem_maps Ds) as (A1 & A2 & A3 & _). destruct (ofelem_maps Us) as (_ & _ & _ & A4 & A5). rewrite <- A1, <- A2, <- A4, <- A5.
    apply r_let with W G b'; auto.
    + now apply ofelem_EL.
    + now apply Permutation_map.
    + now rewrite A1.
    + now rewrite A3.
  - eapply good_star; [eapply star_trans; [apply eval_op1|]; cbn [map]; apply star_one; apply (st_fire P MDirect OApp [VClo [] b r]); constructor; reflexivity|]. rewrite set_hp_same.
    eapply (IH b G); eauto. cbn in L. lia.
  - eapply good_star; [eapply star_trans; [apply eval_op1|]; cbn [map]; apply star_one; apply (st_pick P MDirect OApp [SDone (VClo [x] (EVar x) r)] e [])|].
    apply (IH e G e' W); auto; [cbn in L; lia|]. now apply kr_ident.
  - right; right. split; [eexists; apply st_args; exact D2|]. intros t' St. 
    assert (t' = Args o (map STodo (l1 ++ e' :: l2)) r' K' w') as -> by (inversion St; subst; cbn in D2; try discriminate; congruence).
    apply inev_now. right. exists (todos (map STodo l1 ++ map STodo l2)), (Args OApp [SDone (VClo [x] c r); STodo e] r K w). split; [|left; apply let_op].
    rewrite map_app. cbn [map]. apply r_move with W G l1 l2; auto; apply MS_todos; intros a I; apply HA, in_app_iff; auto.
  - apply good_ev. intros s1 F. cbn [evf] in F |- *. injection F as <-. eexists. split; [reflexivity|]. apply inev_now. eapply next_one; [apply st_lam|]. apply r_ret with W; auto. now apply vr_clo with G.
  - apply good_ev. intros s1 F. cbn [evf] in F |- *. injection F as <-. eexists. split; [reflexivity|]. apply inev_now. eapply next_one; [apply st_fix|]. apply r_ev with W (under ids G); auto. now apply fix_er.
  - apply good_ev. intros s1 F. cbn [evf bind] in F |- *. destruct (capturable K) eqn:Cp; [|discriminate]. rewrite (KR_capturable _ _ _ KK Cp). injection F as <-. eexists. split; [reflexivity|].
    apply inev_now. eapply next_one; [apply st_letcc; [exact Cp | reflexivity]|]. rewrite !set_hp_same. apply r_ev with W (under [x] G); auto.
    apply er_under with r r'; [assumption| |].
    + intros y [<-|[]]. rewrite !lookup_cons, id_eqb_refl. constructor. now constructor.
    + intros y N. rewrite !lookup_cons. assert (X : id_eqb y x = false) by (apply id_eqb_neq; intros ->; apply N; now left). rewrite X. auto.
  - eapply (ops_good n _ (OWith e) [k0] _ (OWith e') [k0'] W G); eauto; try reflexivity. now constructor.
Qed.

Lemma R_out n s t : R n s t -> out (mem s) = out (mem t).
Proof. destruct 1; cbn [mem]; eapply sr_out; eassumption. Qed.
Lemma R_good n s t : R n s t -> good n s t.
Proof.
  destruct 1 as [W G e e' r r' K K' w w' C E KK SW|W G o o' l l' r r' K K' w w' C S E KK SW|W v v' K K' w w' V KK SW|W v v' w w' V SW|n W G T U b b' op r r' K K' w w' EE PM ND BB OP E KK SW|W G x e e' c o l1 l2 s1 s2 r r' K K' w w' Gx Mo D C M1 M2 E KK SW].
  - eapply (ev_good (esize e)); eauto.
  - eapply args_good; eauto.
  - eapply ret_good; eauto.
  - right; left. exists (Halted v w), v, v'. split; [constructor|]. split; [constructor|]. split; [constructor|]. split; [now apply (VR_shape P g W)|].
    split; [apply SW|]. intros x. apply (VR_shape P g W). apply SW.
  - eapply let_good; eauto.
  - eapply move_good; eauto.
Qed.
Lemma B_simulates e e' i : B (fun _ _ => False) e e' -> simulates P MDirect MDirect (start e g i) (start e' g i).
Proof.
  intros C. apply (simulation P MDirect MDirect R R_out R_good 0). apply r_ev with (fun _ _ => False) (fun _ _ => False); auto.
  - apply no_er.
  - constructor.
  - constructor; cbn; auto; try easy. intros x. constructor.
Qed.
End Run.
Theorem B_refines P e e' : B P (fun _ _ => False) e e' -> refines P MDirect MDirect e e'.
Proof. intros C g i. now apply B_simulates. Qed.
