(** Proving that one program simulates another, seen through some of the globals. *)
From Coq Require Import ZArith String List Bool Lia Wellfounded.
From Verif Require Import Model_Lit Model_Core Spec_Sem Spec_Globals Proofs_Sim Proofs_Core.
Import ListNotations.
Open Scope Z_scope.

Section Sim.
Variable P : prim -> script.
Variable vis : id -> Prop.
Notation m := MDirect.
Notation m' := MDirect.
Notation sstep := (step P MDirect).
Notation tstep := (step P MDirect).
Notation inev := (inev P MDirect).
Variable R : nat -> state -> state -> Prop.
Notation next := (next P MDirect R).
Definition same_end_on (s t : state) : Prop :=
  exists s0 v v', star P m s s0 /\ ends s0 v /\ ends t v' /\ shape_of v = shape_of v' /\ out (mem s0) = out (mem t) /\
                  forall x, vis x -> shape_of (gl (mem s0) x) = shape_of (gl (mem t) x).
Definition good_on (n : nat) (s t : state) : Prop :=
  wrong P m s \/ same_end_on s t \/
  (exists t1, tstep t t1) /\ forall t', tstep t t' -> inev (out (mem t)) (next n s) t'.
Lemma good_on_star n s s0 t : star P m s s0 -> good_on n s0 t -> good_on n s t.
Proof.
  intros S [W|[(s1 & v & v' & S1 & H)|(E & H)]].
  - left. eapply wrong_star; eauto.
  - right; left. exists s1, v, v'. split; [eapply star_trans; eauto | assumption].
  - right; right. split; [assumption|]. intros t' St. eapply inev_impl; [|apply H, St].
    intros t1 [W|(n' & s' & X & D)]; [left; eapply wrong_star; eauto | right]. exists n', s'. split; [assumption|].
    destruct D as [D|(D & L)]; [left; eapply star_plus_trans; eauto | right; split; [eapply star_trans; eauto | assumption]].
Qed.
Lemma good_good_on n s t : good P MDirect MDirect R n s t -> good_on n s t.
Proof.
  intros [W|[(s0 & v & v' & A & B & C & D & E & F)|G]]; [now left | right; left; exists s0, v, v'; auto 8 | now right; right].
Qed.

Hypothesis R_out : forall n s t, R n s t -> out (mem s) = out (mem t).
Hypothesis R_good : forall n s t, R n s t -> good_on n s t.
Notation between := (between P m m' R).
Lemma between_step_on s t t' : between s t -> tstep t t' -> between s t'.
Proof.
  intros B S. destruct (between_now _ _ _ _ R_out _ _ B) as [W|(_ & [(s' & n & St & X)|(s' & n & t1 & St & S1 & X)])].
  - now left.
  - destruct (R_good _ _ _ X) as [W|[(s0 & v & v' & _ & _ & E & _)|((t1 & S1) & H)]].
    + left. eapply wrong_star; eauto.
    + exfalso. eapply ends_no_step; eauto.
    + right. exists s', n. split; [assumption|]. right. rewrite (R_out _ _ _ X). auto.
  - right. exists s', n. split; [assumption|]. right. auto.
Qed.
Lemma between_star_on s t t' : star P m' t t' -> between s t -> between s t'.
Proof. induction 1; intros; [assumption | eauto using between_step_on]. Qed.
Lemma wrong_back_on s t : between s t -> wrong P m' t -> wrong P m s.
Proof.
  intros B (t' & St & N & E). pose proof (between_star_on _ _ _ St B) as B'.
  destruct (between_now _ _ _ _ R_out _ _ B') as [W|(_ & [(s' & n' & Ss & X')|(s' & n' & t1 & Ss & S1 & _)])].
  - assumption.
  - destruct (R_good _ _ _ X') as [W|[(s0 & v & v' & _ & _ & E' & _)|((t1 & S1) & _)]].
    + eapply wrong_star; eauto.
    + now apply E in E'.
    + now apply N in S1.
  - now apply N in S1.
Qed.
Lemma go_on_on n : forall s t, R n s t -> runs_on P m' t ->
  wrong P m s \/ exists n' s' t', plus P m s s' /\ R n' s' t' /\ runs_on P m' t'.
Proof.
  induction n as [n IH] using lt_wf_ind. intros s t X RO.
  destruct RO as [t W|t t2 S2 RO].
  { left. eapply wrong_back_on; [|eassumption]. right. exists s, n. split; [constructor | now left]. }
  destruct (R_good _ _ _ X) as [W|[(s0 & v & v' & _ & _ & E & _)|(_ & H)]].
  - now left.
  - exfalso. eapply ends_no_step; eauto.
  - specialize (H _ S2). rewrite <- (R_out _ _ _ X) in H. clear X S2. induction H as [t2 Q|t2 t1 E S1 HN IH2].
    + destruct Q as [W|(n' & s' & X & [D|(D & L)])].
      * now left.
      * right. exists n', s', t2. auto.
      * destruct (IH n' L s' t2 X RO) as [W|(n2 & s2 & t3 & D2 & X2 & RO2)].
        -- left. eapply wrong_star; eauto.
        -- right. exists n2, s2, t3. split; [eapply star_plus_trans; eauto | auto].
    + destruct RO as [t2 W|t2 t3 S3 RO3]; [|exact (IH2 t3 S3 RO3)].
      left. eapply wrong_back_on; [|eassumption]. right. exists s, n. split; [constructor|]. right. eapply inev_step; eauto.
Qed.
Lemma forever_on : forall n s s0 t, star P m s0 s -> R n s t -> runs_on P m' t -> runs_on P m s0.
Proof.
  cofix CH. intros n s s0 t St X RO. destruct St as [s|s s1 s2 S1 St].
  - destruct (go_on_on n s t X RO) as [W|(n' & s' & t' & D & X' & RO')]; [now apply ro_wrong|].
    destruct D as [s s1 s' S1 St]. eapply ro_step; [exact S1|]. exact (CH n' s' s1 t' St X' RO').
  - eapply ro_step; [exact S1|]. exact (CH n s2 s1 t St X RO).
Qed.
Theorem simulation_on n s t : R n s t -> simulates_on vis P s t.
Proof.
  intros X.
  assert (B : between s t). { right. exists s, n. split; [constructor | now left]. }
  split; [|split; [|split]].
  - intros t' St. destruct (between_now _ _ _ _ R_out _ _ (between_star_on _ _ _ St B)) as [W|(O & _)]; auto.
  - intros t' v' St E. destruct (between_now _ _ _ _ R_out _ _ (between_star_on _ _ _ St B)) as [W|(_ & [(s' & n' & Ss & X')|(s' & n' & t1 & Ss & S1 & _)])].
    + now left.
    + destruct (R_good _ _ _ X') as [W|[(s0 & v & v2 & S0 & E1 & E2 & Sh & O & G)|((t1 & S1) & _)]].
      * left. eapply wrong_star; eauto.
      * right. exists s0, v. assert (v2 = v') as -> by (inversion E; subst; inversion E2; congruence).
        split; [eapply star_trans; eauto|split; [assumption|split; [assumption|split; assumption]]].
      * exfalso. eapply ends_no_step; eauto.
    + exfalso. eapply ends_no_step; eauto.
  - intros t' St. destruct (between_now _ _ _ _ R_out _ _ (between_star_on _ _ _ St B)) as [W|(_ & [(s' & n' & Ss & X')|(s' & n' & t1 & Ss & S1 & _)])].
    + auto.
    + destruct (R_good _ _ _ X') as [W|[(s0 & v & v2 & _ & E1 & E2 & _)|((t1 & S1) & _)]]; eauto.
      right; right. eapply wrong_star; eauto.
    + eauto.
  - intros RO. eapply forever_on; [constructor | eassumption | assumption].
Qed.
End Sim.
