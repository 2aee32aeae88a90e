(** The analysis of globals makes a translation of the program. *)
From Coq Require Import ZArith List Bool Lia.
From Verif Require Import Model_Lit Model_Core Model_Globals Spec_Sem Spec_Free Spec_Scope Spec_Lift Spec_Fold Spec_Letrec Spec_Globals Proofs_Sim Proofs_Core Proofs_Free Proofs_Agree Proofs_GlobalsSem Proofs_GlobalsRun.
From Verif Require Proofs_FoldMore.
Import ListNotations.
Open Scope Z_scope.

(** ** Assignments and references *)
Fixpoint sets (e : exp) : list (id * exp) :=
  match e with
  | EVar _ => []
  | ESet x e => (x, e) :: sets e
  | EIf a b c => sets a ++ sets b ++ sets c
  | EPrim _ _ l => flat_map sets l
  | EApp f l => sets f ++ flat_map sets l
  | ELam _ b => sets b
  | EFix _ ls b => sets b ++ flat_map (fun l => sets (snd l)) ls
  | ELetcc _ b => sets b
  | EWithcc k e => sets k ++ sets e
  end.
Fixpoint refs (e : exp) : list id :=
  match e with
  | EVar x => [x]
  | ESet _ e => refs e
  | EIf a b c => refs a ++ refs b ++ refs c
  | EPrim _ _ l => flat_map refs l
  | EApp f l => refs f ++ flat_map refs l
  | ELam _ b => refs b
  | EFix _ ls b => refs b ++ flat_map (fun l => refs (snd l)) ls
  | ELetcc _ b => refs b
  | EWithcc k e => refs k ++ refs e
  end.
Ltac in_split H := repeat (rewrite ?in_app_iff, ?in_flat_map in H).
Lemma sets_part ys e' e : In (ys, e') (parts e) -> incl (sets e') (sets e).
Proof.
  intros I a A. destruct e; cbn in *; repeat (rewrite in_app_iff || rewrite in_flat_map).
  - easy.
  - destruct I as [[= <- <-]|[]]. auto.
  - destruct I as [[= <- <-]|[[= <- <-]|[[= <- <-]|[]]]]; auto.
  - apply in_map_iff in I. destruct I as (e1 & [= <- <-] & I). eauto.
  - destruct I as [[= <- <-]|I]; [auto|]. apply in_map_iff in I. destruct I as (e1 & [= <- <-] & I). eauto.
  - destruct I as [[= <- <-]|[]]. auto.
  - destruct I as [[= <- <-]|I]; [auto|]. apply in_map_iff in I. destruct I as (e1 & [= <- <-] & I). eauto.
  - destruct I as [[= <- <-]|[]]. auto.
  - destruct I as [[= <- <-]|[[= <- <-]|[]]]; auto.
Qed.
Lemma refs_part ys e' e : In (ys, e') (parts e) -> incl (refs e') (refs e).
Proof.
  intros I a A. destruct e; cbn in *; repeat (rewrite in_app_iff || rewrite in_flat_map).
  - easy.
  - destruct I as [[= <- <-]|[]]. auto.
  - destruct I as [[= <- <-]|[[= <- <-]|[[= <- <-]|[]]]]; auto.
  - apply in_map_iff in I. destruct I as (e1 & [= <- <-] & I). eauto.
  - destruct I as [[= <- <-]|I]; [auto|]. apply in_map_iff in I. destruct I as (e1 & [= <- <-] & I). eauto.
  - destruct I as [[= <- <-]|[]]. auto.
  - destruct I as [[= <- <-]|I]; [auto|]. apply in_map_iff in I. destruct I as (e1 & [= <- <-] & I). eauto.
  - destruct I as [[= <- <-]|[]]. auto.
  - destruct I as [[= <- <-]|[[= <- <-]|[]]]; auto.
Qed.
Lemma sets_inv x d e : In (x, d) (sets e) -> e = ESet x d \/ exists ys e', In (ys, e') (parts e) /\ In (x, d) (sets e').
Proof.
  intros I. destruct e; cbn in *; in_split I.
  - easy.
  - destruct I as [[= -> ->]|I]; [now left | right]. eexists _, _. split; [now left | assumption].
  - right. destruct I as [I|[I|I]]; (eexists _, _; split; [|exact I]); cbn; auto.
  - right. destruct I as (e & J & I). exists [], e. split; [now apply in_map | assumption].
  - right. destruct I as [I|(e1 & J & I)]; [exists [], e; auto|]. exists [], e1. split; [right; now apply in_map | assumption].
  - right. eexists _, _. split; [now left | assumption].
  - right. destruct I as [I|(l & J & I)]; [exists xs, e; auto|]. exists (xs ++ fst l), (snd l). split; [right; apply in_map_iff; eauto | assumption].
  - right. eexists _, _. split; [now left | assumption].
  - right. destruct I as [I|I]; (eexists _, _; split; [|exact I]); cbn; auto.
Qed.
Lemma refs_inv x e : In x (refs e) -> e = EVar x \/ exists ys e', In (ys, e') (parts e) /\ In x (refs e').
Proof.
  intros I. destruct e; cbn in *; in_split I.
  - left. destruct I as [->|[]]. reflexivity.
  - right. eexists _, _. split; [now left | assumption].
  - right. destruct I as [I|[I|I]]; (eexists _, _; split; [|exact I]); cbn; auto.
  - right. destruct I as (e & J & I). exists [], e. split; [now apply in_map | assumption].
  - right. destruct I as [I|(e1 & J & I)]; [exists [], e; auto|]. exists [], e1. split; [right; now apply in_map | assumption].
  - right. eexists _, _. split; [now left | assumption].
  - right. destruct I as [I|(l & J & I)]; [exists xs, e; auto|]. exists (xs ++ fst l), (snd l). split; [right; apply in_map_iff; eauto | assumption].
  - right. eexists _, _. split; [now left | assumption].
  - right. destruct I as [I|I]; (eexists _, _; split; [|exact I]); cbn; auto.
Qed.

(** ** Operations keep to their effects, bound variables are local *)
Section Fine.
Variable P : prim -> script.
Inductive fine : exp -> Prop :=
| fine_i e : (forall ef p l, e = EPrim ef p l -> if zlist_dec p the_halt_prim then may_act ef else honours ef (P p)) ->
    (forall ys e', In (ys, e') (parts e) -> (forall y, In y ys -> global_id y = false) /\ fine e') -> fine e.
Lemma fine_part ys e' e : fine e -> In (ys, e') (parts e) -> fine e'.
Proof. intros [e0 _ H] I. now apply (H _ _ I). Qed.
Lemma fine_bound ys e' e : fine e -> In (ys, e') (parts e) -> forall y, In y ys -> global_id y = false.
Proof. intros [e0 _ H] I. now apply (H _ _ I). Qed.
Lemma honest_eq e : honest P e <-> (forall ef p l, e = EPrim ef p l -> if zlist_dec p the_halt_prim then may_act ef else honours ef (P p)) /\
  forall ys e', In (ys, e') (parts e) -> honest P e'.
Proof.
  destruct e as [y|y e1|a b c|ef p l|f l|ids b|ids lams b|y b|k e1]; cbn [honest parts]; rewrite ?Proofs_FoldMore.fold_and, ?Forall_forall.
  - split; [intros _; split; [discriminate | intros ? ? []] | trivial].
  - split; [intros H; split; [discriminate | intros ? ? [[= <- <-]|[]]; assumption] | intros (_ & H); apply (H [] e1); now left].
  - split; [intros (A & B & C); split; [discriminate | intros ? ? [[= <- <-]|[[= <- <-]|[[= <- <-]|[]]]]; assumption] | intros (_ & H); repeat split; [apply (H [] a) | apply (H [] b) | apply (H [] c)]; cbn; auto].
  - split.
    + intros (A & B). split; [intros ef0 p0 l0 [= <- <- <-]; assumption|]. intros ys e' I. apply in_map_iff in I. destruct I as (e1 & [= <- <-] & I). auto.
    + intros (A & B). split; [apply (A ef p l eq_refl)|]. intros e I. apply (B [] e). now apply in_map.
  - split.
    + intros (A & B). split; [discriminate|]. intros ys e' [[= <- <-]|I]; [assumption|]. apply in_map_iff in I. destruct I as (e1 & [= <- <-] & I). auto.
    + intros (_ & B). split; [apply (B [] f); now left|]. intros e I. apply (B [] e). right. now apply in_map.
  - split; [intros H; split; [discriminate | intros ? ? [[= <- <-]|[]]; assumption] | intros (_ & H); apply (H ids b); now left].
  - split.
    + intros (A & B). split; [discriminate|]. intros ys e' [[= <- <-]|I]; [assumption|]. apply in_map_iff in I. destruct I as (e1 & [= <- <-] & I). auto.
    + intros (_ & B). split; [|apply (B ids b); now left]. intros e I. apply (B (ids ++ fst e) (snd e)). right. apply in_map_iff. eauto.
  - split; [intros H; split; [discriminate | intros ? ? [[= <- <-]|[]]; assumption] | intros (_ & H); apply (H [y] b); now left].
  - split; [intros (A & B); split; [discriminate | intros ? ? [[= <- <-]|[[= <- <-]|[]]]; assumption] | intros (_ & H); split; [apply (H [] k) | apply (H [] e1)]; cbn; auto].
Qed.
Lemma binders_in ys e' e : In (ys, e') (parts e) -> incl ys (binders e) /\ incl (binders e') (binders e).
Proof.
  intros I. destruct e; cbn in *.
  - easy.
  - destruct I as [[= <- <-]|[]]. split; [easy | apply incl_refl].
  - destruct I as [[= <- <-]|[[= <- <-]|[[= <- <-]|[]]]]; (split; [easy|]); intros x X; rewrite !in_app_iff; auto.
  - apply in_map_iff in I. destruct I as (e1 & [= <- <-] & I). split; [easy|]. intros x X. apply in_flat_map. eauto.
  - destruct I as [[= <- <-]|I]; [split; [easy|]; intros x X; rewrite in_app_iff; auto|]. apply in_map_iff in I. destruct I as (e1 & [= <- <-] & I). split; [easy|]. intros x X. rewrite in_app_iff, in_flat_map. eauto.
  - destruct I as [[= <- <-]|[]]. split; intros x X; rewrite in_app_iff; auto.
  - destruct I as [[= <- <-]|I]; [split; intros x X; rewrite !in_app_iff; auto|]. apply in_map_iff in I. destruct I as (e1 & [= <- <-] & I).
    split; intros x X; rewrite ?in_app_iff in *; rewrite in_flat_map.
    + destruct X as [X|X]; [auto|]. right; left. exists e1. rewrite in_app_iff. auto.
    + right; left. exists e1. rewrite in_app_iff. auto.
  - destruct I as [[= <- <-]|[]]. split; intros z X; [destruct X as [->|[]]; now left | now right].
  - destruct I as [[= <- <-]|[[= <- <-]|[]]]; (split; [easy|]); intros x X; rewrite !in_app_iff; auto.
Qed.
Lemma fine_honest e : honest P e -> (forall x, In x (binders e) -> global_id x = false) -> fine e.
Proof.
  induction e as [e IH] using parts_ind. intros H B. apply honest_eq in H. constructor; [apply H|]. intros ys e' I. destruct (binders_in _ _ _ I) as (A & C).
  split; [auto|]. apply (IH ys e' I); [now apply (proj2 H ys) | auto].
Qed.
Lemma fine_sets x d e : fine e -> In (x, d) (sets e) -> fine d.
Proof.
  induction e as [e IH] using parts_ind. intros H I. apply sets_inv in I. destruct I as [->|(ys & e' & J & I)].
  - apply (fine_part [] d _ H). now left.
  - apply (IH ys e' J); [eapply fine_part; eauto | assumption].
Qed.
Lemma refs_free x e : fine e -> global_id x = true -> In x (refs e) -> free_in x e.
Proof.
  induction e as [e IH] using parts_ind. intros H G I. apply refs_inv in I. destruct I as [->|(ys & e' & J & I)].
  - apply free_here. constructor.
  - apply free_part with ys e'; [assumption | | apply (IH ys e' J); auto; eapply fine_part; eauto].
    intros K. rewrite (fine_bound _ _ _ H J x K) in G. discriminate.
Qed.
Lemma sets_assigned x d e : fine e -> global_id x = true -> In (x, d) (sets e) -> assigned_in x e.
Proof.
  induction e as [e IH] using parts_ind. intros H G I. apply sets_inv in I. destruct I as [->|(ys & e' & J & I)].
  - eapply asg_here. reflexivity.
  - apply asg_part with ys e'; [assumption | | apply (IH ys e' J); auto; eapply fine_part; eauto].
    intros K. rewrite (fine_bound _ _ _ H J x K) in G. discriminate.
Qed.
Lemma assigned_free x e : assigned_in x e -> free_in x e.
Proof. induction 1 as [e e' ->|e ys e' I N A IH]; [apply free_here; constructor | eapply free_part; eauto]. Qed.
End Fine.

(** ** How often a variable is assigned *)
Definition times (x : id) (l : list (id * exp)) : nat := length (filter (fun p => id_eqb x (fst p)) l).
Lemma times_app x a b : times x (a ++ b) = (times x a + times x b)%nat.
Proof. unfold times. now rewrite filter_app, app_length. Qed.
Lemma times_flat {A} x (f : A -> list (id * exp)) l : times x (flat_map f l) = list_sum (map (fun a => times x (f a)) l).
Proof. induction l as [|a l IH]; [reflexivity|]. cbn [flat_map map]. rewrite times_app, IH. reflexivity. Qed.
Lemma times_sets P x e : fine P e -> global_id x = true -> var_assignment_count x e = times x (sets e).
Proof.
  intros F G. rewrite assignment_count_cnt. revert F.
  assert (NM : forall ys, (forall y, In y ys -> global_id y = false) -> memq x ys = false).
  { intros ys H. destruct (memq x ys) eqn:M; [|reflexivity]. apply memq_In in M. rewrite (H x M) in G. discriminate. }
  induction e as [y|y e IH|a b c IHa IHb IHc|ef p l IH|f l IHf IHl|xs b IH|xs ls b IHl IHb|y b IH|k e IHk IHe] using exp_ind2; intros F.
  - cbn [exp_vinfo]. rewrite cnt_one. cbn [assignment_to]. now rewrite andb_false_r.
  - cbn [exp_vinfo sets]. rewrite cnt_cons, cnt_one, IH by (eapply fine_part; [exact F | now left]). cbn [assignment_to]. rewrite andb_true_r. unfold times. cbn [filter fst]. destruct (id_eqb x y); reflexivity.
  - cbn [exp_vinfo sets]. rewrite !cnt_app, !times_app, IHa, IHb, IHc; [reflexivity | eapply fine_part; [exact F|]; cbn; auto ..].
  - rewrite vinfo_prim. cbn [sets]. rewrite times_flat. unfold sum_cnt. f_equal. apply map_ext_in. intros e I. rewrite Forall_forall in IH. apply (IH e I). eapply fine_part; [exact F|]. now apply in_map.
  - rewrite vinfo_app. cbn [sets]. rewrite times_app, times_flat. unfold sum_cnt. rewrite IHf by (eapply fine_part; [exact F | now left]). f_equal. f_equal. apply map_ext_in. intros e I. rewrite Forall_forall in IHl. apply (IHl e I). eapply fine_part; [exact F|]. right. now apply in_map.
  - cbn [exp_vinfo sets]. rewrite cnt_keep, NM by (eapply fine_bound; [exact F | now left]). apply IH. eapply fine_part; [exact F | now left].
  - rewrite vinfo_fix, NM by (eapply fine_bound; [exact F | now left]). cbn [sets]. rewrite times_app, times_flat, IHb by (eapply fine_part; [exact F | now left]). f_equal. f_equal. apply map_ext_in. intros l I.
    assert (J : In (xs ++ fst l, snd l) (parts (EFix xs ls b))) by (right; apply in_map_iff; eauto).
    unfold lam_cnt. rewrite NM; [|intros y Y; apply (fine_bound _ _ _ _ F J); apply in_or_app; auto]. rewrite Forall_forall in IHl. apply (IHl l I). eapply fine_part; eauto.
  - cbn [exp_vinfo sets]. rewrite cnt_keep, NM by (eapply fine_bound; [exact F | now left]). apply IH. eapply fine_part; [exact F | now left].
  - cbn [exp_vinfo sets]. rewrite cnt_app, times_app, IHk, IHe; [reflexivity | eapply fine_part; [exact F|]; cbn; auto ..].
Qed.
Lemma times_In x d l : In (x, d) l -> (1 <= times x l)%nat.
Proof.
  intros I. unfold times. assert (J : In (x, d) (filter (fun p => id_eqb x (fst p)) l)) by (apply filter_In; split; [assumption | apply id_eqb_refl]).
  destruct (filter _ l); [easy | cbn; lia].
Qed.
Lemma times_one x l d d' : (times x l <= 1)%nat -> In (x, d) l -> In (x, d') l -> d = d'.
Proof.
  induction l as [|(y & e) l IH]; intros T I J; [easy|]. unfold times in T. cbn [filter fst] in T. destruct (id_eqb x y) eqn:E.
  - cbn [length] in T. destruct I as [[= -> ->]|I]; [destruct J as [[= -> ]|J]; [reflexivity|] |]; exfalso; (apply times_In in I || apply times_In in J); unfold times in *; lia.
  - apply id_eqb_neq in E. destruct I as [[= -> ->]|I]; [easy|]. destruct J as [[= -> ->]|J]; [easy|]. auto.
Qed.
