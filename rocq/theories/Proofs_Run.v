(** All runs of small programs, computed. *)
From Coq Require Import ZArith List Bool Lia.
From Verif Require Import Model_Core Spec_Sem Proofs_Sim Proofs_Core.
Import ListNotations.

Section Run.
Variable P : prim -> script.
Variable m : mode.
Fixpoint picks (a b : list slot) : list (list slot * exp * list slot) :=
  match b with
  | [] => []
  | SDone v :: b' => picks (a ++ [SDone v]) b'
  | STodo e :: b' => (a, e, b') :: picks (a ++ [STodo e]) b'
  end.
Fixpoint dones (l : list slot) : option (list val) :=
  match l with
  | [] => Some []
  | SDone v :: l' => option_map (cons v) (dones l')
  | STodo _ :: _ => None
  end.
Definition opt {A} (o : option A) : list A := match o with Some a => [a] | None => [] end.
Definition succs (s : state) : list state :=
  match s with
  | Ev e r k w => opt (evf m e r k w)
  | Args o l r k w =>
    match dones l with
    | Some vs => opt (firef P m o vs r k w)
    | None => map (fun p => match p with (a, e, b) => Ev e r (Fr o a b r :: k) w end) (picks [] l)
    end
  | Ret v (Fr o a b r :: k) w => [Args o (a ++ SDone v :: b) r k w]
  | Ret _ [] _ | Halted _ _ => []
  end.
Lemma dones_map l vs : dones l = Some vs <-> l = map SDone vs.
Proof.
  split; revert vs; induction l as [|[v|e] l IH]; intros vs H; cbn in *.
  - now injection H as <-.
  - destruct (dones l); [|discriminate]. injection H as <-. cbn. f_equal. now apply IH.
  - discriminate.
  - destruct vs; [reflexivity | discriminate].
  - destruct vs; [discriminate|]. injection H as -> ->. now rewrite (IH _ eq_refl).
  - destruct vs; discriminate.
Qed.
Lemma picks_In l : forall a x, In x (picks a l) <-> exists a' e b, x = (a ++ a', e, b) /\ l = a' ++ STodo e :: b.
Proof.
  induction l as [|[v|e] l IH]; intros a x; cbn.
  - split; [easy|]. intros (a' & e & b & _ & E). now destruct a'.
  - rewrite IH. split; intros (a' & e & b & E1 & E2).
    + exists (SDone v :: a'), e, b. rewrite <- app_assoc in E1. now rewrite E2.
    + destruct a' as [|s a']; [discriminate|]. injection E2 as <- ->. exists a', e, b. rewrite <- app_assoc. auto.
  - rewrite IH. split.
    + intros [<-|(a' & e1 & b & E1 & E2)]; [exists [], e, l; now rewrite app_nil_r|].
      exists (STodo e :: a'), e1, b. rewrite <- app_assoc in E1. now rewrite E2.
    + intros (a' & e1 & b & E1 & E2). destruct a' as [|s a'].
      * injection E2 as <- <-. left. now rewrite app_nil_r in E1.
      * injection E2 as <- ->. right. exists a', e1, b. rewrite <- app_assoc. auto.
Qed.
Lemma succs_step s t : step P m s t <-> In t (succs s).
Proof.
  destruct s as [e r k w|o l r k w|v [|[o a b r] k] w|v w]; cbn.
  - rewrite step_evf. destruct (evf m e r k w); cbn; [|easy]. split; [intros [= ->]; auto | intros [->|[]]; reflexivity].
  - destruct (dones l) as [vs|] eqn:D.
    + apply dones_map in D as ->. destruct (firef P m o vs r k w) eqn:F; cbn.
      * split; [intros S; apply step_done, fire_firef in S; left; congruence | intros [<-|[]]; constructor; now apply fire_firef].
      * split; [intros S; apply step_done, fire_firef in S; congruence | easy].
    + rewrite in_map_iff. split.
      * intros S. apply step_args in S. destruct S as [(a & e & b & E & ->)|(vs & E & _)].
        -- exists (a, e, b). split; [reflexivity|]. apply picks_In. exists a, e, b. auto.
        -- apply dones_map in E. congruence.
      * intros (((a & e) & b) & <- & I). apply picks_In in I. destruct I as (a' & e' & b' & [= -> -> ->] & ->). cbn. constructor.
  - split; [intros S; inversion S | easy].
  - split; [intros S; apply step_ret in S; left; congruence | intros [<-|[]]; constructor].
  - split; [intros S; inversion S | easy].
Qed.
Definition final (s : state) : bool := match succs s with [] => true | _ => false end.
(** the last states of all runs from the given states, if none takes more than [n] rounds *)
Fixpoint explore (n : nat) (l : list state) : option (list state) :=
  match l with
  | [] => Some []
  | _ =>
    match n with
    | O => None
    | S n' =>
      match explore n' (flat_map succs l) with Some r => Some (filter final l ++ r) | None => None end
    end
  end.
Lemma explore_all n : forall l r, explore n l = Some r -> forall s t, In s l -> star P m s t -> (exists t', step P m t t') \/ In t r.
Proof.
  induction n as [|n IH]; intros l r E s t I St; destruct l as [|s0 l]; try easy.
  change (match explore n (flat_map succs (s0 :: l)) with Some r => Some (filter final (s0 :: l) ++ r) | None => None end = Some r) in E.
  generalize dependent (s0 :: l). intros l0 E I. destruct (explore n (flat_map succs l0)) as [r0|] eqn:E0; [|discriminate]. injection E as <-.
  destruct St as [s|s s1 s2 S St].
  - destruct (succs s) as [|t ts] eqn:Q.
    + right. apply in_or_app. left. apply filter_In. unfold final. now rewrite Q.
    + left. exists t. apply succs_step. rewrite Q. now left.
  - destruct (IH _ _ E0 s1 s2) as [H|H]; [|assumption|now left | right; apply in_or_app; now right].
    apply in_flat_map. exists s. split; [assumption | now apply succs_step].
Qed.
Lemma explore_reach n : forall l r, explore n l = Some r -> forall t, In t r -> exists s, In s l /\ star P m s t.
Proof.
  induction n as [|n IH]; intros l r E t I; destruct l as [|s0 l]; try discriminate; try (injection E as <-; easy).
  change (match explore n (flat_map succs (s0 :: l)) with Some r => Some (filter final (s0 :: l) ++ r) | None => None end = Some r) in E.
  generalize dependent (s0 :: l). intros l0 E. destruct (explore n (flat_map succs l0)) as [r0|] eqn:E0; [|discriminate]. injection E as <-.
  apply in_app_or in I. destruct I as [I|I].
  - apply filter_In in I. exists t. split; [apply I | constructor].
  - destruct (IH _ _ E0 t I) as (s & J & St). apply in_flat_map in J. destruct J as (s1 & J & K). exists s1. split; [assumption|].
    eapply star_step; [apply succs_step; eassumption | assumption].
Qed.
(** a program whose runs all end well does not go wrong *)
Lemma explore_not_wrong n s r : explore n [s] = Some r -> (forall t, In t r -> exists v, ends t v) -> ~ wrong P m s.
Proof.
  intros E H (t & St & N & NE). destruct (explore_all _ _ _ E s t (or_introl eq_refl) St) as [(t' & S)|I]; [now apply N in S|].
  destruct (H t I) as (v & EN). now apply NE in EN.
Qed.
End Run.
Definition shape_dec (a b : shape) : {a = b} + {a <> b}.
Proof. decide equality. apply const_dec. Defined.
(** what all runs write, and what they return *)
Definition ending (s : state) : option shape := match s with Ret v [] _ | Halted v _ => Some (shape_of v) | _ => None end.
Definition outcome_dec (a b : option shape * list shape) : {a = b} + {a <> b}.
Proof. decide equality; [apply list_eq_dec, shape_dec | decide equality; apply shape_dec]. Defined.
Definition outcomes (P : prim -> script) (m : mode) (n : nat) (e : exp) (g : id -> const) (i : list const) : option (list (option shape * list shape)) :=
  option_map (fun l => nodup outcome_dec (map (fun s => (ending s, out (mem s))) l)) (explore P m n [start e g i]).
(** the run that always evaluates the leftmost operand *)
Fixpoint leftmost (P : prim -> script) (m : mode) (n : nat) (s : state) : option state :=
  match succs P m s with
  | [] => Some s
  | t :: _ => match n with O => None | S n' => leftmost P m n' t end
  end.
Lemma leftmost_star P m n : forall s t, leftmost P m n s = Some t -> star P m s t /\ forall t', ~ step P m t t'.
Proof.
  induction n as [|n IH]; intros s t E; cbn [leftmost] in E; destruct (succs P m s) as [|s1 l] eqn:Q; try discriminate.
  1, 2: injection E as <-; split; [constructor | intros t' S; apply succs_step in S; now rewrite Q in S].
  apply IH in E. destruct E as (St & N). split; [|assumption]. eapply star_step; [apply succs_step; rewrite Q; now left | assumption].
Qed.
Definition left_outcome (P : prim -> script) (m : mode) (n : nat) (e : exp) (g : id -> const) (i : list const) : option (option shape * list shape) :=
  option_map (fun s => (ending s, out (mem s))) (leftmost P m n (start e g i)).
(** a program with an outcome that the other program does not have, although the other program never goes wrong *)
Lemma not_refines P m m' n n' e e' g i os s o : outcomes P m n e g i = Some os -> forallb (fun p => match fst p with Some _ => true | None => false end) os = true ->
  left_outcome P m' n' e' g i = Some (Some s, o) -> ~ In (Some s, o) os -> ~ refines P m m' e e'.
Proof.
  unfold outcomes, left_outcome. intros E A L N R. destruct (explore P m n [start e g i]) as [r|] eqn:X; [|discriminate]. cbn [option_map] in E.
  assert (EI : forall t, In t r -> In (ending t, out (mem t)) os).
  { assert (os = nodup outcome_dec (map (fun s => (ending s, out (mem s))) r)) as -> by congruence. intros t I. apply nodup_In, in_map_iff. exists t. auto. }
  assert (NW : ~ wrong P m (start e g i)).
  { apply (explore_not_wrong P m n _ r X). intros t I. apply EI, (proj1 (forallb_forall _ _) A) in I. cbn in I. destruct t as [| |v [|f k] w|v w]; try discriminate; eexists; constructor. }
  destruct (leftmost P m' n' (start e' g i)) as [t|] eqn:Y; [|discriminate]. injection L as L1 L2. destruct (leftmost_star _ _ _ _ _ Y) as (St & _).
  assert (V : exists v, ends t v /\ shape_of v = s) by (destruct t as [| |v [|f k] w|v w]; try discriminate; injection L1 as <-; eexists; split; constructor).
  destruct V as (v' & EN & Sv). destruct (proj1 (proj2 (R g i)) t v' St EN) as [W|(s1 & v & S1 & E1 & Sh & O & _)]; [easy|].
  destruct (explore_all P m n _ r X _ _ (or_introl eq_refl) S1) as [(t' & S')|I].
  - destruct E1; inversion S'.
  - apply EI in I. apply N. rewrite <- L2, <- O, <- Sv, <- Sh. destruct E1; exact I.
Qed.
(** a program that goes wrong, although the other program never does *)
Lemma not_refines_wrong P m m' n n' e e' g i os o : outcomes P m n e g i = Some os -> forallb (fun p => match fst p with Some _ => true | None => false end) os = true ->
  left_outcome P m' n' e' g i = Some (None, o) -> ~ refines P m m' e e'.
Proof.
  unfold outcomes, left_outcome. intros E A L R. destruct (explore P m n [start e g i]) as [r|] eqn:X; [|discriminate]. cbn [option_map] in E.
  assert (EI : forall t, In t r -> In (ending t, out (mem t)) os).
  { assert (os = nodup outcome_dec (map (fun s => (ending s, out (mem s))) r)) as -> by congruence. intros t I. apply nodup_In, in_map_iff. exists t. auto. }
  assert (NW : ~ wrong P m (start e g i)).
  { apply (explore_not_wrong P m n _ r X). intros t I. apply EI, (proj1 (forallb_forall _ _) A) in I. cbn in I. destruct t as [| |v [|f k] w|v w]; try discriminate; eexists; constructor. }
  destruct (leftmost P m' n' (start e' g i)) as [t|] eqn:Y; [|discriminate]. injection L as L1 _. destruct (leftmost_star _ _ _ _ _ Y) as (St & N).
  destruct (proj1 (proj2 (proj2 (R g i))) t St) as [(t' & S)|[(v & EN)|W]]; [now apply N in S| |easy]. destruct EN; discriminate L1.
Qed.
