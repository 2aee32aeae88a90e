(** Checking concrete programs; careful runs do not change what a program does. *)
From Coq Require Import ZArith List Bool Lia.
From Verif Require Import Model_Core Model_Beta Spec_Sem Spec_Free Spec_Lift Spec_Beta Proofs_Sim Proofs_Core Proofs_Free Proofs_BetaPure Proofs_BetaSem Proofs_BetaRun Proofs_BetaFree Proofs_Beta.
Import ListNotations.
Open Scope Z_scope.

Fixpoint all_nodes (q : exp -> bool) (n : nat) (e : exp) : bool :=
  match n with O => false | S n' => q e && forallb (fun d => all_nodes q n' (snd d)) (parts e) end.
Lemma all_nodes_ok q (Q : exp -> Prop) n : (forall e, q e = true -> Q e) -> forall e, all_nodes q n e = true -> every Q e.
Proof.
  intros H. induction n as [|n IH]; intros e E; [discriminate|]. cbn in E. apply andb_true_iff in E. destruct E as (E1 & E2). rewrite forallb_forall in E2.
  constructor; [auto|]. intros ys e' I. apply IH. apply (E2 _ I).
Qed.
Definition eff_dec (a b : effect) : {a = b} + {a <> b}.
Proof. decide equality. Defined.
Definition allowed (tab : list (effect * prim)) (e : exp) : bool :=
  match e with
  | ESet x _ => global_id x && negb (global_id_constant x)
  | EPrim ef p _ => if zlist_dec p the_halt_prim then if eff_dec ef EAny then true else false
                    else existsb (fun d => (if eff_dec (fst d) ef then true else false) && if zlist_dec (snd d) p then true else false) tab
  | _ => true
  end.
Lemma fine_by P tab n e : Forall (fun d => honours (fst d) (P (snd d))) tab -> all_nodes (allowed tab) n e = true -> fine P e.
Proof.
  intros F. apply all_nodes_ok. intros q. destruct q; cbn [allowed node_ok]; trivial.
  - intros E. apply andb_true_iff in E. destruct E as (E1 & E2). split; [assumption|]. now destruct (global_id_constant x).
  - destruct (zlist_dec p the_halt_prim); [destruct (eff_dec ef EAny) as [->|]; [intros _; exact Logic.I | discriminate]|]. intros E. apply existsb_exists in E. destruct E as ((ef0 & p0) & I & E). cbn [fst snd] in E.
    apply andb_true_iff in E. destruct E as (E1 & E2). destruct (eff_dec ef0 ef) as [->|]; [|discriminate]. destruct (zlist_dec p0 p) as [->|]; [|discriminate]. rewrite Forall_forall in F. apply (F _ I).
Qed.
Definition bindsb (e : exp) : bool := match e with ELam xs _ => proper xs | _ => true end.
Lemma well_bound_by n e : all_nodes bindsb n e = true -> well_bound e.
Proof. apply all_nodes_ok. intros q. destruct q; cbn; trivial. apply proper_spec. Qed.

Lemma beta_meaning P tot hc hl fuel e e' : (forall p, tot p = true -> forall w, run (P p) [] w <> None) -> fine P e -> closed e ->
  careful tot hc hl fuel e [] = true -> beta_substitute hc hl fuel e = Some e' -> refines P MDirect MDirect e e'.
Proof.
  intros T F C Ca E. assert (Sc : scoped (fun _ _ => False) e) by (intros y Fy Gy; apply C in Fy; congruence).
  apply chain_refines; auto. apply (main P tot T hc hl fuel fuel e [] e'); auto. - split; assumption. - intros x t oh [].
Qed.
Lemma beta_fine P tot hc hl fuel e e' : (forall p, tot p = true -> forall w, run (P p) [] w <> None) -> fine P e -> closed e ->
  careful tot hc hl fuel e [] = true -> beta_substitute hc hl fuel e = Some e' -> fine P e'.
Proof.
  intros T F C Ca E. assert (Sc : scoped (fun _ _ => False) e) by (intros y Fy Gy; apply C in Fy; congruence).
  apply (chain_ok P (fun _ _ => False) e e'); [|split; assumption]. apply (main P tot T hc hl fuel fuel e [] e'); auto. - split; assumption. - intros x t oh [].
Qed.
Lemma beta_scope hc hl fuel e e' : well_bound e -> beta_substitute hc hl fuel e = Some e' -> well_bound e' /\ forall x, free_in x e' -> free_in x e.
Proof.
  intros W E. destruct (SC_ok hc hl fuel e [] e' E W) as (H1 & H2); [intros x t oh []|]. split; [assumption|]. intros x F. destruct (H2 x F) as [(H & _)|(y & t & oh & [] & _)]. assumption.
Qed.
