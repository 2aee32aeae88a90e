(** Proving that one program simulates another, step by step. *)
From Coq Require Import ZArith String List Bool Lia Wellfounded.
From Verif Require Import Model_Lit Model_Core Spec_Sem.
Import ListNotations.
Open Scope Z_scope.

Lemma id_eqb_eq a b : id_eqb a b = true <-> a = b.
Proof. unfold id_eqb. destruct (id_dec a b); split; congruence. Qed.
Lemma id_eqb_refl a : id_eqb a a = true.
Proof. now apply id_eqb_eq. Qed.
Lemma id_eqb_neq a b : id_eqb a b = false <-> a <> b.
Proof. unfold id_eqb. destruct (id_dec a b); split; congruence. Qed.
Lemma memq_In x s : memq x s = true <-> In x s.
Proof.
  unfold memq. rewrite existsb_exists. split.
  - intros (y & I & E). apply id_eqb_eq in E. now subst.
  - intros I. exists x. split; [assumption | apply id_eqb_refl].
Qed.
Lemma memq_not_In x s : memq x s = false <-> ~ In x s.
Proof. rewrite <- memq_In. destruct (memq x s); split; congruence. Qed.

Section Basic.
Variable P : prim -> script.
Variable m : mode.
Notation step := (step P m).
Notation star := (star P m).
Notation plus := (plus P m).
Notation wrong := (wrong P m).

Lemma star_trans a b c : star a b -> star b c -> star a c.
Proof. induction 1; intros; [assumption | econstructor; eauto]. Qed.
Lemma star_one a b : step a b -> star a b.
Proof. intros. econstructor; [eassumption | constructor]. Qed.
Lemma plus_star a b : plus a b -> star a b.
Proof. destruct 1. econstructor; eauto. Qed.
Lemma plus_one a b : step a b -> plus a b.
Proof. intros. econstructor; [eassumption | constructor]. Qed.
Lemma plus_star_trans a b c : plus a b -> star b c -> plus a c.
Proof. destruct 1; intros. econstructor; [eassumption | eapply star_trans; eauto]. Qed.
Lemma star_plus_trans a b c : star a b -> plus b c -> plus a c.
Proof.
  destruct 1; intros; [assumption|].
  econstructor; [eassumption|]. eapply star_trans; [eassumption | now apply plus_star].
Qed.
Lemma wrong_star a b : star a b -> wrong b -> wrong a.
Proof. intros S (c & Sc & H). exists c. split; [eapply star_trans; eauto | assumption]. Qed.
Lemma wrong_plus a b : plus a b -> wrong b -> wrong a.
Proof. intros S. apply wrong_star, plus_star, S. Qed.
Lemma stuck_wrong s : (forall s', ~ step s s') -> (forall v, ~ ends s v) -> wrong s.
Proof. intros. exists s. split; [constructor | auto]. Qed.
End Basic.

Lemma simulates_wrong P m m' s t : simulates P m m' s t -> wrong P m' t -> wrong P m s.
Proof.
  intros (_ & _ & H & _) (t' & St & N & E). destruct (H t' St) as [(t'' & X)|[(v & X)|X]].
  - now apply N in X.
  - now apply E in X.
  - assumption.
Qed.
Lemma simulates_trans P m1 m2 m3 s t u : simulates P m1 m2 s t -> simulates P m2 m3 t u -> simulates P m1 m3 s u.
Proof.
  intros A B. pose proof (simulates_wrong _ _ _ _ _ A) as WA.
  destruct A as (A1 & A2 & A3 & A4), B as (B1 & B2 & B3 & B4). split; [|split; [|split]].
  - intros u' Su. destruct (B1 u' Su) as [W|(t' & St & E)]; [left; auto|].
    destruct (A1 t' St) as [W|(s' & Ss & E')]; [left; auto | right].
    exists s'. split; [assumption | congruence].
  - intros u' v' Su En. destruct (B2 u' v' Su En) as [W|(t' & v1 & St & Et & X1 & X2 & X3)]; [left; auto|].
    destruct (A2 t' v1 St Et) as [W|(s' & v2 & Ss & Es & Y1 & Y2 & Y3)]; [left; auto | right].
    exists s', v2. split; [assumption|split; [assumption|split; [congruence|split; [congruence|]]]].
    intros x. now rewrite Y3.
  - intros u' Su. destruct (B3 u' Su) as [X|[X|X]]; auto.
  - auto.
Qed.
Lemma refines_trans P m1 m2 m3 a b c : refines P m1 m2 a b -> refines P m2 m3 b c -> refines P m1 m3 a c.
Proof. intros A B g i. eapply simulates_trans; [apply A | apply B]. Qed.

Section Sim.
Variable P : prim -> script.
Variables m m' : mode.
Notation sstep := (step P m).
Notation tstep := (step P m').

(** all runs from [t] come to a state where [Q] holds, without output before *)
Inductive inev (o : list shape) (Q : state -> Prop) : state -> Prop :=
| inev_now t : Q t -> inev o Q t
| inev_step t t1 : out (mem t) = o -> tstep t t1 -> (forall t', tstep t t' -> inev o Q t') -> inev o Q t.

Lemma inev_impl o (Q Q' : state -> Prop) t : (forall t, Q t -> Q' t) -> inev o Q t -> inev o Q' t.
Proof. intros HQ. induction 1; [apply inev_now; auto | eapply inev_step; eauto]. Qed.
Lemma inev_trans o (Q Q' : state -> Prop) t : (forall t, Q t -> inev o Q' t) -> inev o Q t -> inev o Q' t.
Proof. intros HQ. induction 1; [auto | eapply inev_step; eauto]. Qed.

Variable R : nat -> state -> state -> Prop.
Definition next (n : nat) (s t : state) : Prop :=
  wrong P m s \/ exists n' s', R n' s' t /\ (plus P m s s' \/ star P m s s' /\ (n' < n)%nat).
Definition same_end (s t : state) : Prop :=
  exists s0 v v', star P m s s0 /\ ends s0 v /\ ends t v' /\ shape_of v = shape_of v' /\ out (mem s0) = out (mem t) /\
                  forall x, shape_of (gl (mem s0) x) = shape_of (gl (mem t) x).
Definition good (n : nat) (s t : state) : Prop :=
  wrong P m s \/ same_end s t \/
  (exists t1, tstep t t1) /\ forall t', tstep t t' -> inev (out (mem t)) (next n s) t'.
Hypothesis R_out : forall n s t, R n s t -> out (mem s) = out (mem t).
Hypothesis R_good : forall n s t, R n s t -> good n s t.

Lemma good_star n s s0 t : star P m s s0 -> good n s0 t -> good n s t.
Proof.
  intros S [W|[(s1 & v & v' & S1 & H)|(E & H)]].
  - left. eapply wrong_star; eauto.
  - right; left. exists s1, v, v'. split; [eapply star_trans; eauto | assumption].
  - right; right. split; [assumption|]. intros t' St. eapply inev_impl; [|apply H, St].
    intros t1 [W|(n' & s' & X & D)]; [left; eapply wrong_star; eauto | right]. exists n', s'. split; [assumption|].
    destruct D as [D|(D & L)]; [left; eapply star_plus_trans; eauto | right; split; [eapply star_trans; eauto | assumption]].
Qed.
Lemma ends_no_step m0 s v : ends s v -> forall s', ~ step P m0 s s'.
Proof.
  destruct 1 as [v w|v w]; intros s' X; inversion X; subst.
Qed.

(** every state reached is on the way from one related state to the next *)
Definition between (s t : state) : Prop :=
  wrong P m s \/ exists s' n, star P m s s' /\ (R n s' t \/ inev (out (mem s')) (next n s') t).
Lemma between_now s t : between s t -> wrong P m s \/ (exists s', star P m s s' /\ out (mem s') = out (mem t)) /\
  ((exists s' n, star P m s s' /\ R n s' t) \/
   (exists s' n t1, star P m s s' /\ tstep t t1 /\ forall t', tstep t t' -> inev (out (mem s')) (next n s') t')).
Proof.
  intros [W|(s' & n & St & [X|X])].
  - now left.
  - right. split; [|left; eauto]. exists s'. split; [assumption | eapply R_out; eauto].
  - destruct X as [t X|t t1 E S1 X].
    + destruct X as [W|(n' & s2 & X & D)].
      * left. eapply wrong_star; eauto.
      * assert (star P m s s2).
        { eapply star_trans; [eassumption|]. destruct D as [D|(D & _)]; [now apply plus_star | assumption]. }
        right. split; [|left; eauto]. exists s2. split; [assumption | eapply R_out; eauto].
    + right. split; [|right; exists s', n, t1; auto]. exists s'. split; [assumption | congruence].
Qed.
Lemma between_step s t t' : between s t -> tstep t t' -> between s t'.
Proof.
  intros B S. destruct (between_now _ _ B) as [W|(_ & [(s' & n & St & X)|(s' & n & t1 & St & S1 & X)])].
  - now left.
  - destruct (R_good _ _ _ X) as [W|[(s0 & v & v' & _ & _ & E & _)|((t1 & S1) & H)]].
    + left. eapply wrong_star; eauto.
    + exfalso. eapply ends_no_step; eauto.
    + right. exists s', n. split; [assumption|]. right. rewrite (R_out _ _ _ X). auto.
  - right. exists s', n. split; [assumption|]. right. auto.
Qed.
Lemma between_star s t t' : star P m' t t' -> between s t -> between s t'.
Proof. induction 1; intros; [assumption | eauto using between_step]. Qed.

Lemma wrong_back s t : between s t -> wrong P m' t -> wrong P m s.
Proof.
  intros B (t' & St & N & E). pose proof (between_star _ _ _ St B) as B'.
  destruct (between_now _ _ B') as [W|(_ & [(s' & n' & Ss & X')|(s' & n' & t1 & Ss & S1 & _)])].
  - assumption.
  - destruct (R_good _ _ _ X') as [W|[(s0 & v & v' & _ & _ & E' & _)|((t1 & S1) & _)]].
    + eapply wrong_star; eauto.
    + now apply E in E'.
    + now apply N in S1.
  - now apply N in S1.
Qed.
(** going on for ever *)
Lemma go_on n : forall s t, R n s t -> runs_on P m' t ->
  wrong P m s \/ exists n' s' t', plus P m s s' /\ R n' s' t' /\ runs_on P m' t'.
Proof.
  induction n as [n IH] using lt_wf_ind. intros s t X RO.
  destruct RO as [t W|t t2 S2 RO].
  { left. eapply wrong_back; [|eassumption]. right. exists s, n. split; [constructor | now left]. }
  destruct (R_good _ _ _ X) as [W|[(s0 & v & v' & _ & _ & E & _)|(_ & H)]].
  - now left.
  - exfalso. eapply ends_no_step; eauto.
  - specialize (H _ S2). rewrite <- (R_out _ _ _ X) in H. clear X S2. induction H as [t2 Q|t2 t1 E S1 HN IH2].
    + destruct Q as [W|(n' & s' & X & [D|(D & L)])].
      * now left.
      * right. exists n', s', t2. auto.
      * destruct (IH n' L s' t2 X RO) as [W|(n2 & s2 & t3 & D2 & X2 & RO2)].
        -- left. eapply wrong_star; eauto.
        -- right. exists n2, s2, t3. split; [eapply star_plus_trans; eauto | auto].
    + destruct RO as [t2 W|t2 t3 S3 RO3]; [|exact (IH2 t3 S3 RO3)].
      left. eapply wrong_back; [|eassumption]. right. exists s, n. split; [constructor|]. right. eapply inev_step; eauto.
Qed.
Lemma forever : forall n s s0 t, star P m s0 s -> R n s t -> runs_on P m' t -> runs_on P m s0.
Proof.
  cofix CH. intros n s s0 t St X RO. destruct St as [s|s s1 s2 S1 St].
  - destruct (go_on n s t X RO) as [W|(n' & s' & t' & D & X' & RO')]; [now apply ro_wrong|].
    destruct D as [s s1 s' S1 St]. eapply ro_step; [exact S1|]. exact (CH n' s' s1 t' St X' RO').
  - eapply ro_step; [exact S1|]. exact (CH n s2 s1 t St X RO).
Qed.

Theorem simulation n s t : R n s t -> simulates P m m' s t.
Proof.
  intros X.
  assert (B : between s t). { right. exists s, n. split; [constructor | now left]. }
  split; [|split; [|split]].
  - intros t' St. destruct (between_now _ _ (between_star _ _ _ St B)) as [W|(O & _)]; auto.
  - intros t' v' St E. destruct (between_now _ _ (between_star _ _ _ St B)) as [W|(_ & [(s' & n' & Ss & X')|(s' & n' & t1 & Ss & S1 & _)])].
    + now left.
    + destruct (R_good _ _ _ X') as [W|[(s0 & v & v2 & S0 & E1 & E2 & Sh & O & G)|((t1 & S1) & _)]].
      * left. eapply wrong_star; eauto.
      * right. exists s0, v. assert (v2 = v') as -> by (inversion E; subst; inversion E2; congruence).
        split; [eapply star_trans; eauto|split; [assumption|split; [assumption|split; assumption]]].
      * exfalso. eapply ends_no_step; eauto.
    + exfalso. eapply ends_no_step; eauto.
  - intros t' St. destruct (between_now _ _ (between_star _ _ _ St B)) as [W|(_ & [(s' & n' & Ss & X')|(s' & n' & t1 & Ss & S1 & _)])].
    + auto.
    + destruct (R_good _ _ _ X') as [W|[(s0 & v & v2 & _ & E1 & E2 & _)|((t1 & S1) & _)]]; eauto.
      right; right. eapply wrong_star; eauto.
    + eauto.
  - intros RO. eapply forever; [constructor | eassumption | assumption].
Qed.
End Sim.

(** Scripts do the same with related operands *)
Section Script.
Variable W : Type.
Variable ext : W -> W -> Prop.
Variable VR : W -> val -> val -> Prop.
Variable HR : W -> st -> st -> Prop.
Hypothesis ext_refl : forall w, ext w w.
Hypothesis ext_trans : forall a b c, ext a b -> ext b c -> ext a c.
Hypothesis VR_ext : forall w w' v v', VR w v v' -> ext w w' -> VR w' v v'.
Hypothesis VR_const : forall w c, VR w (VC c) (VC c).
Hypothesis VR_shape : forall w v v', VR w v v' -> shape_of v = shape_of v'.
Hypothesis VR_same : forall w s t v v' u u' b, HR w s t -> VR w v v' -> VR w u u' -> same v u = Some b -> same v' u' = Some b.
Hypothesis HR_alloc : forall w s t vs vs', HR w s t -> Forall2 (VR w) vs vs' ->
  exists w', ext w w' /\ HR w' (set_hp s (hp s ++ [vs])) (set_hp t (hp t ++ [vs'])) /\
             VR w' (VLoc (length (hp s))) (VLoc (length (hp t))).
Hypothesis HR_get : forall w s t l v' b i v, HR w s t -> VR w (VLoc l) v' -> nth_error (hp s) l = Some b ->
  nth_error b i = Some v -> exists l' b' u', v' = VLoc l' /\ nth_error (hp t) l' = Some b' /\ nth_error b' i = Some u' /\ VR w v u'.
Hypothesis HR_put : forall w s t l v' b i v u' b1 h, HR w s t -> VR w (VLoc l) v' -> VR w v u' -> nth_error (hp s) l = Some b ->
  list_set b i v = Some b1 -> list_set (hp s) l b1 = Some h ->
  exists l' b' b1' h', v' = VLoc l' /\ nth_error (hp t) l' = Some b' /\ list_set b' i u' = Some b1' /\
                       list_set (hp t) l' b1' = Some h' /\ HR w (set_hp s h) (set_hp t h').
Hypothesis HR_out : forall w s t, HR w s t -> out s = out t /\ inp s = inp t.
Hypothesis HR_io : forall w s t o i, HR w s t -> HR w (mkst (hp s) (gl s) o i) (mkst (hp t) (gl t) o i).

Lemma atom_rel w a rs rs' v : Forall2 (VR w) rs rs' -> atom_val a rs = Some v -> exists v', atom_val a rs' = Some v' /\ VR w v v'.
Proof.
  destruct a as [i|c]; cbn.
  - intros F. revert i. induction F as [|x y l l' X F IH]; intros [|i] E; try discriminate.
    + injection E as <-. exists y. auto.
    + apply IH, E.
  - intros _ E. injection E as <-. eauto.
Qed.
Lemma atoms_rel w l rs rs' : Forall2 (VR w) rs rs' -> forall vs, atom_vals l rs = Some vs ->
  exists vs', atom_vals l rs' = Some vs' /\ Forall2 (VR w) vs vs'.
Proof.
  intros F. induction l as [|a l IH]; cbn; intros vs E.
  - injection E as <-. eauto.
  - destruct (atom_val a rs) eqn:A; [|discriminate]. destruct (atom_vals l rs) eqn:B; [|discriminate].
    injection E as <-. destruct (atom_rel _ _ _ _ _ F A) as (v' & -> & V). destruct (IH _ eq_refl) as (vs' & -> & Vs).
    eauto.
Qed.
Lemma VRs_ext w w' l l' : Forall2 (VR w) l l' -> ext w w' -> Forall2 (VR w') l l'.
Proof. induction 1; constructor; eauto. Qed.

Theorem run_rel p : forall w rs rs' s t v s1, HR w s t -> Forall2 (VR w) rs rs' -> run p rs s = Some (v, s1) ->
  exists w' v' t1, run p rs' t = Some (v', t1) /\ ext w w' /\ HR w' s1 t1 /\ VR w' v v'.
Proof.
  induction p as [a| |a f IH|a b f IH|l p IH|a i p IH|a i b p IH|a p IH|p IH]; cbn [run]; intros w rs rs' s t v s1 H F E.
  - destruct (atom_val a rs) eqn:A; [|discriminate]. injection E as <- <-.
    destruct (atom_rel _ _ _ _ _ F A) as (v' & -> & V). eauto 8.
  - discriminate.
  - destruct (atom_val a rs) eqn:A; [|discriminate]. destruct (atom_rel _ _ _ _ _ F A) as (v' & -> & V).
    rewrite <- (VR_shape _ _ _ V). eauto.
  - destruct (atom_val a rs) eqn:A; [|discriminate]. destruct (atom_val b rs) eqn:B; [|discriminate].
    destruct (same v0 v1) eqn:S; [|discriminate].
    destruct (atom_rel _ _ _ _ _ F A) as (v' & -> & V). destruct (atom_rel _ _ _ _ _ F B) as (u' & -> & U).
    rewrite (VR_same _ _ _ _ _ _ _ _ H V U S). eauto.
  - destruct (atom_vals l rs) eqn:A; [|discriminate]. destruct (atoms_rel _ _ _ _ F _ A) as (vs' & -> & Vs).
    destruct (HR_alloc _ _ _ _ _ H Vs) as (w1 & X1 & H1 & L1).
    destruct (IH w1 (rs ++ [VLoc (length (hp s))]) (rs' ++ [VLoc (length (hp t))]) _ _ v s1 H1) as (w2 & v' & t1 & Y1 & Y2 & Y3 & Y4).
    + apply Forall2_app; [eapply VRs_ext; eauto | auto].
    + exact E.
    + exists w2, v', t1. split; [assumption|split; [eapply ext_trans; eauto | auto]].
  - destruct (atom_val a rs) as [v0|] eqn:A; [|discriminate]. destruct (atom_rel _ _ _ _ _ F A) as (v' & -> & V).
    destruct v0 as [c|l|l|xs b r|xs lams j r|k]; try discriminate.
    destruct (nth_error (hp s) l) eqn:B; [|discriminate]. destruct (nth_error l0 i) eqn:C; [|discriminate].
    destruct (HR_get _ _ _ _ _ _ _ _ H V B C) as (l' & b' & u' & -> & -> & -> & U).
    eapply IH; [exact H | | exact E]. apply Forall2_app; [exact F | constructor; [assumption || apply VR_const | constructor] ].
  - destruct (atom_val a rs) as [v0|] eqn:A; [|discriminate]. destruct (atom_rel _ _ _ _ _ F A) as (v' & -> & V).
    destruct v0 as [c|l|l|xs b0 r|xs lams j r|k]; try discriminate.
    destruct (atom_val b rs) as [v1|] eqn:B; [|discriminate]. destruct (atom_rel _ _ _ _ _ F B) as (u' & -> & U).
    destruct (nth_error (hp s) l) eqn:C; [|discriminate]. destruct (list_set l0 i v1) eqn:D; [|discriminate].
    destruct (list_set (hp s) l l1) eqn:G; [|discriminate].
    destruct (HR_put _ _ _ _ _ _ _ _ _ _ _ H V U C D G) as (l' & b' & b1 & h' & -> & -> & -> & -> & H1).
    eapply IH; eauto.
  - destruct (atom_val a rs) as [v0|] eqn:A; [|discriminate]. destruct (atom_rel _ _ _ _ _ F A) as (v' & -> & V).
    destruct (HR_out _ _ _ H) as (O & I). rewrite <- (VR_shape _ _ _ V), <- O, <- I.
    eapply IH; [apply HR_io; exact H | exact F | exact E].
  - destruct (HR_out _ _ _ H) as (O & I). rewrite <- I, <- O. destruct (inp s) as [|c i]; [discriminate|].
    eapply IH; [apply HR_io; exact H | | exact E]. apply Forall2_app; [exact F | constructor; [assumption || apply VR_const | constructor] ].
Qed.
End Script.
