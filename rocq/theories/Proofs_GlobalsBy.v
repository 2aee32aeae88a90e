(** Checks for single programs: no variable is read before it is assigned; programs that are not refined. *)
From Coq Require Import ZArith List Bool Lia.
From Verif Require Import Model_Core Spec_Sem Spec_Free Spec_Scope Spec_Lift Spec_Globals Proofs_Sim Proofs_Core Proofs_Free Proofs_Run Proofs_Globals.
Import ListNotations.
Open Scope Z_scope.

Section Early.
Variables (P : prim -> script) (x : id).
Definition assigns (s : state) : bool :=
  match s with Args (OSet y) l _ _ _ => id_eqb x y && forallb (fun a => match a with SDone _ => true | _ => false end) l | _ => false end.
Definition reads (s : state) : bool := match s with Ev (EVar y) _ _ _ => id_eqb x y | _ => false end.
Fixpoint early_ok (n : nat) (l : list state) : bool :=
  match l with
  | [] => true
  | _ => match n with O => false | S n' => forallb (fun s => negb (reads s)) l && early_ok n' (flat_map (fun s => if assigns s then [] else succs P MDirect s) l) end
  end.
Lemma assigns_yes s : assigns s = true -> exists vs r k w, s = Args (OSet x) (map SDone vs) r k w.
Proof.
  destruct s as [|o l r k w| |]; try discriminate. destruct o; try discriminate. cbn. intros H. apply andb_true_iff in H. destruct H as (A & B). apply id_eqb_eq in A. subst.
  assert (V : exists vs, l = map SDone vs). { clear - B. induction l as [|a l IH]; [now exists []|]. cbn in B. apply andb_true_iff in B. destruct B as (A & B). destruct (IH B) as (vs & ->). destruct a; try discriminate. eexists (_ :: vs). reflexivity. }
  destruct V as (vs & ->). exists vs, r, k, w. reflexivity.
Qed.
Lemma early_from s0 s : early P x s0 s -> s = s0 \/ exists s1, step P MDirect s0 s1 /\ (forall vs r k w, s0 <> Args (OSet x) (map SDone vs) r k w) /\ early P x s1 s.
Proof.
  induction 1 as [|s s' E IH S N]; [now left|]. right. destruct IH as [->|(s1 & S1 & N1 & E1)].
  - exists s'. split; [assumption|]. split; [assumption | constructor].
  - exists s1. split; [assumption|]. split; [assumption|]. eapply ea_step; eauto.
Qed.
Inductive early_n : nat -> state -> state -> Prop :=
| en_here s : early_n O s s
| en_next n s s1 s' : step P MDirect s s1 -> (forall vs r k w, s <> Args (OSet x) (map SDone vs) r k w) -> early_n n s1 s' -> early_n (S n) s s'.
Lemma early_count s0 s : early P x s0 s -> exists n, early_n n s0 s.
Proof.
  induction 1 as [|s s' E (n & IH) S N]; [exists O; constructor|]. exists (Datatypes.S n). clear E. induction IH as [s|n s s1 s2 S1 N1 E1 IH].
  - econstructor; [exact S | exact N | constructor].
  - econstructor; eauto.
Qed.
Lemma early_ok_all n : forall l, early_ok n l = true -> forall s t m, In s l -> early_n m s t -> reads t = false.
Proof.
  induction n as [|n IH]; intros l H s t m I E; [destruct l; easy|].
  destruct l as [|s0 l0]; [easy|]. change (forallb (fun s => negb (reads s)) (s0 :: l0) && early_ok n (flat_map (fun s => if assigns s then [] else succs P MDirect s) (s0 :: l0)) = true) in H.
  generalize dependent (s0 :: l0). clear s0 l0. intros l H I. apply andb_true_iff in H. destruct H as (A & B). rewrite forallb_forall in A. destruct E as [s|m s s1 t S N E].
  - apply negb_true_iff. now apply A.
  - apply (IH _ B s1 t m); [|assumption]. apply in_flat_map. exists s. split; [assumption|]. destruct (assigns s) eqn:Z; [|now apply succs_step].
    destruct (assigns_yes s Z) as (vs & r & k & w & ->). now destruct (N vs r k w).
Qed.
End Early.
Lemma assigned_sets x e : assigned_in x e -> In x (map fst (sets e)).
Proof.
  induction e as [e IH] using parts_ind. intros [d -> |ys e' I N A]; [now left|]. apply (IH _ _ I) in A. apply in_map_iff in A. destruct A as (q & <- & A). apply in_map. now apply (sets_part _ _ _ I).
Qed.
Lemma careful_by n P e : (forall g i, forallb (fun x => early_ok P x n [start e g i]) (map fst (sets e)) = true) -> careful P e.
Proof.
  intros H g i x s A E r k w ->. apply assigned_sets in A. specialize (H g i). rewrite forallb_forall in H. apply early_count in E. destruct E as (m & E).
  assert (R := early_ok_all P x n _ (H x A) _ _ m (or_introl eq_refl) E). cbn in R. now rewrite id_eqb_refl in R.
Qed.
Lemma defines_sets x d e : defines x d e -> In (x, d) (sets e).
Proof.
  induction 1; try (now left); try (now right); cbn; repeat (rewrite in_app_iff || rewrite in_flat_map); eauto.
Qed.

Lemma not_refines_on P vis n n' e e' g i os s o : outcomes P MDirect n e g i = Some os -> forallb (fun p => match fst p with Some _ => true | None => false end) os = true ->
  left_outcome P MDirect n' e' g i = Some (Some s, o) -> ~ In (Some s, o) os -> ~ refines_on vis P e e'.
Proof.
  unfold outcomes, left_outcome. intros E A L N R. destruct (explore P MDirect n [start e g i]) as [r|] eqn:X; [|discriminate]. cbn [option_map] in E.
  assert (EI : forall t, In t r -> In (ending t, out (mem t)) os).
  { assert (os = nodup outcome_dec (map (fun s => (ending s, out (mem s))) r)) as -> by congruence. intros t I. apply nodup_In, in_map_iff. exists t. auto. }
  assert (NW : ~ wrong P MDirect (start e g i)).
  { apply (explore_not_wrong P MDirect n _ r X). intros t I. apply EI, (proj1 (forallb_forall _ _) A) in I. cbn in I. destruct t as [| |v [|f k] w|v w]; try discriminate; eexists; constructor. }
  destruct (leftmost P MDirect n' (start e' g i)) as [t|] eqn:Y; [|discriminate]. injection L as L1 L2. destruct (leftmost_star _ _ _ _ _ Y) as (St & _).
  assert (V : exists v, ends t v /\ shape_of v = s) by (destruct t as [| |v [|f k] w|v w]; try discriminate; injection L1 as <-; eexists; split; constructor).
  destruct V as (v' & EN & Sv). destruct (proj1 (proj2 (R g i)) t v' St EN) as [W|(s1 & v & S1 & E1 & Sh & O & _)]; [easy|].
  destruct (explore_all P MDirect n _ r X _ _ (or_introl eq_refl) S1) as [(t' & S')|I].
  - destruct E1; inversion S'.
  - apply EI in I. apply N. rewrite <- L2, <- O, <- Sv, <- Sh. destruct E1; exact I.
Qed.
Lemma not_refines_on_wrong P vis n n' e e' g i os o : outcomes P MDirect n e g i = Some os -> forallb (fun p => match fst p with Some _ => true | None => false end) os = true ->
  left_outcome P MDirect n' e' g i = Some (None, o) -> ~ refines_on vis P e e'.
Proof.
  unfold outcomes, left_outcome. intros E A L R. destruct (explore P MDirect n [start e g i]) as [r|] eqn:X; [|discriminate]. cbn [option_map] in E.
  assert (EI : forall t, In t r -> In (ending t, out (mem t)) os).
  { assert (os = nodup outcome_dec (map (fun s => (ending s, out (mem s))) r)) as -> by congruence. intros t I. apply nodup_In, in_map_iff. exists t. auto. }
  assert (NW : ~ wrong P MDirect (start e g i)).
  { apply (explore_not_wrong P MDirect n _ r X). intros t I. apply EI, (proj1 (forallb_forall _ _) A) in I. cbn in I. destruct t as [| |v [|f k] w|v w]; try discriminate; eexists; constructor. }
  destruct (leftmost P MDirect n' (start e' g i)) as [t|] eqn:Y; [|discriminate]. injection L as L1 _. destruct (leftmost_star _ _ _ _ _ Y) as (St & N).
  destruct (proj1 (proj2 (proj2 (R g i))) t St) as [(t' & S)|[(v & EN)|W]]; [now apply N in S| |easy]. destruct EN; discriminate L1.
Qed.
