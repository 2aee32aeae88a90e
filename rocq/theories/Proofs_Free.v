From Coq Require Import ZArith List Bool Lia.
From Verif Require Import Model_Core Spec_Sem Spec_Free Proofs_Sim Proofs_Core.
Import ListNotations.

(** ** What exp-vinfo collects *)
Section Count.
Variable q : bool -> bool.
Definition qhead (x : id) (e : exp) : bool :=
  match e with EVar y => id_eqb x y && q false | ESet y _ => id_eqb x y && q true | _ => false end.
Definition cnt (x : id) (l : vinfo) : nat := length (filter (fun iv => id_eqb x (fst iv) && q (assignment_to (snd iv))) l).
Lemma cnt_app x a b : cnt x (a ++ b) = (cnt x a + cnt x b)%nat.
Proof. unfold cnt. now rewrite filter_app, app_length. Qed.
Lemma cnt_nil x : cnt x [] = O.
Proof. reflexivity. Qed.
Lemma cnt_one x y u : cnt x [(y, u)] = if id_eqb x y && q (assignment_to u) then 1%nat else O.
Proof. unfold cnt. cbn. destruct (id_eqb x y && q (assignment_to u)); reflexivity. Qed.
Lemma cnt_cons x p a : cnt x (p :: a) = (cnt x [p] + cnt x a)%nat.
Proof. change (p :: a) with ([p] ++ a). apply cnt_app. Qed.
Lemma cnt_keep x ids l : cnt x (filter (fun iv => negb (memq (fst iv) ids)) l) = if memq x ids then O else cnt x l.
Proof.
  induction l as [|(y & u) l IH]; [now destruct (memq x ids)|]. cbn [filter fst].
  destruct (memq y ids) eqn:M; cbn [negb].
  - rewrite IH. destruct (memq x ids) eqn:M2; [reflexivity|].
    rewrite (cnt_cons x (y, u)), cnt_one. destruct (id_eqb x y) eqn:E; [|reflexivity]. apply id_eqb_eq in E. congruence.
  - rewrite cnt_cons, IH, (cnt_cons x (y, u) l), cnt_one. destruct (memq x ids) eqn:M2; [|reflexivity].
    destruct (id_eqb x y) eqn:E; [|reflexivity]. apply id_eqb_eq in E. congruence.
Qed.
Definition exps_vinfo (l : list exp) : vinfo := flat_map exp_vinfo l.
Definition sum_cnt x (l : list exp) : nat := list_sum (map (fun e => cnt x (exp_vinfo e)) l).

Lemma vinfo_prim x ef p l : cnt x (exp_vinfo (EPrim ef p l)) = sum_cnt x l.
Proof.
  cbn [exp_vinfo].
  match goal with |- cnt x (?f l O []) = _ => set (loop := f) end.
  assert (G : forall l n vi, cnt x (loop l n vi) = (sum_cnt x l + cnt x vi)%nat).
  { clear l. induction l as [|e l IH]; intros n vi; [reflexivity|].
    assert (D : (exists y, e = EVar y) \/ loop (e :: l) n vi = loop l (S n) (exp_vinfo e ++ vi)).
    { destruct e; [left; eauto | right; reflexivity ..]. }
    destruct D as [(y & ->)|D].
    - change (loop (EVar y :: l) n vi) with (loop l (S n) ((y, mkuse false false (c_argref_ctype p n)) :: vi)).
      rewrite IH, cnt_cons, cnt_one. unfold sum_cnt. cbn [map list_sum fold_right exp_vinfo]. rewrite cnt_one.
      cbn [assignment_to]. change (fold_right Nat.add 0%nat ?l) with (list_sum l). lia.
    - rewrite D, IH, cnt_app. unfold sum_cnt. cbn [map list_sum fold_right].
      change (fold_right Nat.add 0%nat ?l) with (list_sum l). lia. }
  rewrite G, cnt_nil. lia.
Qed.
Lemma vinfo_app x f l : cnt x (exp_vinfo (EApp f l)) = (cnt x (exp_vinfo f) + sum_cnt x l)%nat.
Proof.
  cbn [exp_vinfo].
  match goal with |- cnt x (?f l) = _ => set (loop := f) end.
  induction l as [|e l IH].
  - unfold loop, sum_cnt. cbn [map list_sum fold_right]. destruct f; try lia.
    cbn [exp_vinfo]. rewrite !cnt_one. cbn [assignment_to]. lia.
  - change (loop (e :: l)) with (exp_vinfo e ++ loop l). rewrite cnt_app, IH. unfold sum_cnt. cbn [map list_sum fold_right].
    change (fold_right Nat.add 0%nat ?l) with (list_sum l). lia.
Qed.
Definition lam_cnt x (l : list id * exp) : nat := if memq x (fst l) then O else cnt x (exp_vinfo (snd l)).
Lemma vinfo_fix x xs ls b : cnt x (exp_vinfo (EFix xs ls b)) =
  if memq x xs then O else (cnt x (exp_vinfo b) + list_sum (map (lam_cnt x) ls))%nat.
Proof.
  cbn [exp_vinfo]. rewrite cnt_keep. destruct (memq x xs); [reflexivity|].
  match goal with |- cnt x (?f ls) = _ => set (loop := f) end.
  induction ls as [|(ys & e) ls IH].
  - unfold loop. cbn [map list_sum fold_right]. lia.
  - change (loop ((ys, e) :: ls)) with (filter (fun iv => negb (memq (fst iv) ys)) (exp_vinfo e) ++ loop ls).
    rewrite cnt_app, IH, cnt_keep.
    change (list_sum (map (lam_cnt x) ((ys, e) :: ls))) with ((if memq x ys then O else cnt x (exp_vinfo e)) + list_sum (map (lam_cnt x) ls))%nat.
    lia.
Qed.

Variable h : id -> exp -> bool.
Hypothesis hq : forall x e, h x e = qhead x e.
Lemma occurs_eq x e ns n : Forall2 (fun p n => In x (fst p) /\ n = O \/ ~ In x (fst p) /\ occurs h x (snd p) n) (parts e) ns ->
  n = ((if qhead x e then 1 else 0) + list_sum ns)%nat -> occurs h x e n.
Proof. intros F ->. rewrite <- hq. now constructor. Qed.
Lemma parts_nil x l : Forall (fun e => occurs h x e (cnt x (exp_vinfo e))) l ->
  Forall2 (fun p n => In x (fst p) /\ n = O \/ ~ In x (fst p) /\ occurs h x (snd p) n)
    (map (pair []) l) (map (fun e => cnt x (exp_vinfo e)) l).
Proof. induction 1; constructor; [right; cbn; auto | assumption]. Qed.
Lemma part_bound x (ys : list id) e n : occurs h x e n ->
  In x (fst (ys, e)) /\ (if memq x ys then O else n) = O \/ ~ In x (fst (ys, e)) /\ occurs h x (snd (ys, e)) (if memq x ys then O else n).
Proof.
  intros O. cbn. destruct (memq x ys) eqn:M; [left | right].
  - split; [now apply memq_In | reflexivity].
  - split; [now apply memq_not_In | assumption].
Qed.
Lemma part_free x (e : exp) n : occurs h x e n -> In x (fst (@nil id, e)) /\ n = O \/ ~ In x (fst (@nil id, e)) /\ occurs h x (snd (@nil id, e)) n.
Proof. intros O. right. cbn. auto. Qed.
Lemma vinfo_occurs x e : occurs h x e (cnt x (exp_vinfo e)).
Proof.
  induction e as [y|y e IH|a b c IHa IHb IHc|ef p l IH|f l IHf IHl|xs b IH|xs ls b IHl IHb|y b IH|k e IHk IHe] using exp_ind2.
  - apply occurs_eq with []; [constructor|]. cbn [exp_vinfo]. rewrite cnt_one. cbn. lia.
  - apply occurs_eq with [cnt x (exp_vinfo e)]; [constructor; [now apply part_free | constructor]|].
    cbn [exp_vinfo]. rewrite cnt_cons, cnt_one. cbn. lia.
  - apply occurs_eq with [cnt x (exp_vinfo a); cnt x (exp_vinfo b); cnt x (exp_vinfo c)].
    { repeat (constructor; [now apply part_free|]). constructor. }
    cbn [exp_vinfo]. rewrite !cnt_app. cbn. lia.
  - eapply occurs_eq; [apply parts_nil, IH|]. rewrite vinfo_prim. cbn. reflexivity.
  - eapply occurs_eq; [constructor; [apply part_free, IHf | apply parts_nil, IHl]|]. rewrite vinfo_app. reflexivity.
  - eapply occurs_eq; [constructor; [apply part_bound, IH | constructor]|].
    cbn [exp_vinfo]. rewrite cnt_keep. cbn. lia.
  - apply occurs_eq with ((if memq x xs then O else cnt x (exp_vinfo b)) ::
        map (fun l => if memq x (xs ++ fst l) then O else cnt x (exp_vinfo (snd l))) ls).
    { constructor; [apply part_bound, IHb|]. clear IHb. induction IHl; constructor; [now apply part_bound | assumption]. }
    rewrite vinfo_fix. cbn. destruct (memq x xs) eqn:M.
    + assert (Z : list_sum (map (fun l => if memq x (xs ++ fst l) then O else cnt x (exp_vinfo (snd l))) ls) = O).
      { clear IHl. induction ls as [|(ys & e) ls IH]; [reflexivity|]. cbn. unfold memq at 1. rewrite existsb_app.
        fold (memq x xs). now rewrite M. }
      change (fold_right Nat.add 0%nat ?l) with (list_sum l). lia.
    + change (fold_right Nat.add 0%nat ?l) with (list_sum l). f_equal. f_equal. apply map_ext. intros (ys & e).
      unfold lam_cnt, memq. cbn [fst snd]. rewrite existsb_app. fold (memq x xs). now rewrite M.
  - eapply occurs_eq; [constructor; [apply part_bound, IH | constructor]|].
    cbn [exp_vinfo]. rewrite cnt_keep. cbn. lia.
  - apply occurs_eq with [cnt x (exp_vinfo k); cnt x (exp_vinfo e)].
    { repeat (constructor; [now apply part_free|]). constructor. }
    cbn [exp_vinfo]. rewrite !cnt_app. cbn. lia.
Qed.
End Count.


Lemma parts_ind (Q : exp -> Prop) : (forall e, (forall ys e', In (ys, e') (parts e) -> Q e') -> Q e) -> forall e, Q e.
Proof.
  intros H. induction e as [y|y e IH|a b c IHa IHb IHc|ef p l IH|f l IHf IHl|xs b IH|xs ls b IHl IHb|y b IH|k e IHk IHe] using exp_ind2;
    apply H; cbn; intros ys e' I.
  - easy.
  - destruct I as [[= <- <-]|[]]; assumption.
  - destruct I as [[= <- <-]|[[= <- <-]|[[= <- <-]|[]]]]; assumption.
  - apply in_map_iff in I. destruct I as (e & [= <- <-] & I). rewrite Forall_forall in IH. auto.
  - destruct I as [[= <- <-]|I]; [assumption|]. apply in_map_iff in I. destruct I as (e & [= <- <-] & I).
    rewrite Forall_forall in IHl. auto.
  - destruct I as [[= <- <-]|[]]; assumption.
  - destruct I as [[= <- <-]|I]; [assumption|]. apply in_map_iff in I. destruct I as (e & [= <- <-] & I).
    rewrite Forall_forall in IHl. auto.
  - destruct I as [[= <- <-]|[]]; assumption.
  - destruct I as [[= <- <-]|[[= <- <-]|[]]]; assumption.
Qed.
Lemma sum_pos ns : (0 < list_sum ns)%nat <-> exists n, In n ns /\ (0 < n)%nat.
Proof.
  induction ns as [|n ns IH]; cbn; [split; [lia | firstorder]|].
  change (fold_right Nat.add 0%nat ns) with (list_sum ns). split.
  - intros L. destruct n as [|n]; [|exists (S n); split; [auto | lia]]. destruct IH as [IH _]. destruct IH as (n & I & L'); [lia | eauto].
  - intros (k & [->|I] & L); [lia|]. assert (0 < list_sum ns)%nat by (apply IH; eauto). lia.
Qed.
Lemma occurs_free h (F : id -> exp -> Prop) x :
  (forall e, F x e <-> h x e = true \/ exists ys e', In (ys, e') (parts e) /\ ~ In x ys /\ F x e') ->
  forall e n, occurs h x e n -> ((0 < n)%nat <-> F x e).
Proof.
  intros HF e. induction e as [e IH] using parts_ind. intros n O. destruct O as [ns FF]. rewrite HF. split.
  - intros L. destruct (h x e); [now left | right]. cbn in L. apply sum_pos in L. destruct L as (n & I & L).
    clear HF. revert IH I. induction FF as [|(ys & e') k ps ns' H FF IHF]; cbn; [easy|]. intros IH [->|I].
    + cbn in H. destruct H as [(_ & ->)|(N & O)]; [lia|]. exists ys, e'. split; [now left|split; [assumption|]].
      apply (IH ys e' (or_introl eq_refl) n); assumption.
    + destruct IHF as (zs & e2 & I2 & R); [intros; eapply IH; eauto | assumption|]. exists zs, e2. auto.
  - intros [->|(ys & e' & I & N & X)]; [lia|].
    assert (P : exists n, In n ns /\ (0 < n)%nat).
    { clear HF. revert IH I. induction FF as [|(zs & e2) k ps ns' H FF IHF]; cbn; [easy|]. intros IH [[= -> ->]|I].
      - cbn in H. destruct H as [(Y & ->)|(_ & O)]; [easy|]. exists k. split; [now left|]. eapply IH; eauto.
      - destruct IHF as (n & In1 & L); [intros; eapply IH; eauto | assumption|]. exists n. auto. }
    apply sum_pos in P. lia.
Qed.

Lemma uses_length x e : length (var_uses_in_exp x e) = cnt (fun _ => true) x (exp_vinfo e).
Proof.
  unfold var_uses_in_exp, cnt. rewrite rev_length, map_length. f_equal. apply filter_ext. intros. now rewrite andb_true_r.
Qed.
Lemma reference_count x e : occurs any_use x e (var_reference_count x e).
Proof.
  unfold var_reference_count. rewrite uses_length. apply vinfo_occurs. intros y e'. destruct e'; cbn; now rewrite ?andb_true_r.
Qed.
Lemma filter_rev {A} (f : A -> bool) l : filter f (rev l) = rev (filter f l).
Proof. induction l as [|a l IH]; [reflexivity|]. cbn. rewrite filter_app, IH. cbn. destruct (f a); cbn; now rewrite ?app_nil_r. Qed.
Lemma assignment_count_cnt x e : var_assignment_count x e = cnt (fun b => b) x (exp_vinfo e).
Proof.
  unfold var_assignment_count, var_uses_in_exp, cnt. rewrite filter_rev, rev_length.
  induction (exp_vinfo e) as [|(y & u) l IH]; [reflexivity|]. cbn. destruct (id_eqb x y); cbn; [|assumption].
  destruct (assignment_to u); cbn; now rewrite IH.
Qed.
Lemma assignment_count x e : occurs assignment x e (var_assignment_count x e).
Proof.
  rewrite assignment_count_cnt. apply vinfo_occurs. intros y e'. destruct e'; cbn; rewrite ?andb_true_r, ?andb_false_r; reflexivity.
Qed.
Lemma free_in_eq x e : free_in x e <-> any_use x e = true \/ exists ys e', In (ys, e') (parts e) /\ ~ In x ys /\ free_in x e'.
Proof.
  split.
  - intros [N|ys e' I N F]; [left | right; eauto]. destruct N; cbn; apply id_eqb_refl.
  - intros [E|(ys & e' & I & N & F)]; [|eapply free_part; eauto]. apply free_here.
    destruct e; cbn in E; try discriminate; apply id_eqb_eq in E; subst; constructor.
Qed.
Lemma assigned_in_eq x e : assigned_in x e <-> assignment x e = true \/ exists ys e', In (ys, e') (parts e) /\ ~ In x ys /\ assigned_in x e'.
Proof.
  split.
  - intros [e' ->|ys e' I N F]; [left | right; eauto]. cbn. apply id_eqb_refl.
  - intros [E|(ys & e' & I & N & F)]; [|eapply asg_part; eauto].
    destruct e; cbn in E; try discriminate; apply id_eqb_eq in E; subst. now apply asg_here with e.
Qed.
Lemma referenced_free x e : var_referenced_in_exp x e = true <-> free_in x e.
Proof.
  rewrite <- (occurs_free any_use free_in x (free_in_eq x) e _ (reference_count x e)).
  unfold var_referenced_in_exp, var_reference_count. destruct (var_uses_in_exp x e); cbn; split; (discriminate || lia || auto).
Qed.
Lemma assigned_assigned x e : var_assigned_in_exp x e = true <-> assigned_in x e.
Proof.
  rewrite <- (occurs_free assignment assigned_in x (assigned_in_eq x) e _ (assignment_count x e)).
  unfold var_assigned_in_exp, var_assignment_count. induction (var_uses_in_exp x e) as [|u l IH]; cbn; [split; [discriminate | lia]|].
  destruct (assignment_to u); cbn; [split; [lia | reflexivity] | assumption].
Qed.
Lemma adjoin_In x y s : In x (adjoinq y s) <-> x = y \/ In x s.
Proof.
  unfold adjoinq. destruct (memq y s) eqn:M; cbn.
  - apply memq_In in M. split; [now right | intros [->|]; assumption].
  - split; intros [E|]; auto.
Qed.
Lemma adjoin_NoDup y s : NoDup s -> NoDup (adjoinq y s).
Proof. unfold adjoinq. destruct (memq y s) eqn:M; [auto|]. intros. constructor; [now apply memq_not_In | assumption]. Qed.
Lemma free_lex_gen (l : vinfo) : forall s x, (In x (fold_left (fun res iv => if global_id (fst iv) then res else adjoinq (fst iv) res) l s) <->
   In x s \/ global_id x = false /\ In x (map fst l)) /\
   (NoDup s -> NoDup (fold_left (fun res iv => if global_id (fst iv) then res else adjoinq (fst iv) res) l s)).
Proof.
  induction l as [|(y & u) l IH]; cbn; intros s x; [split; [|auto]; intuition|].
  destruct (IH (if global_id y then s else adjoinq y s) x) as (A & B). split.
  - rewrite A. destruct (global_id y) eqn:G.
    + split; [intuition|]. intros [I|(N & [->|I])]; auto. congruence.
    + rewrite adjoin_In. split; [intros [[->|I]|I]; intuition|]. intros [I|(N & [->|I])]; auto.
  - intros N. apply B. destruct (global_id y); [assumption | now apply adjoin_NoDup].
Qed.
Lemma free_gen (l : vinfo) : forall s x, (In x (fold_left (fun res iv => adjoinq (fst iv) res) l s) <-> In x s \/ In x (map fst l)) /\
   (NoDup s -> NoDup (fold_left (fun res iv => adjoinq (fst iv) res) l s)).
Proof.
  induction l as [|(y & u) l IH]; cbn; intros s x; [split; [|auto]; intuition|].
  destruct (IH (adjoinq y s) x) as (A & B). split.
  - rewrite A, adjoin_In. split; [intros [[->|I]|I]; intuition|]. intros [I|[->|I]]; auto.
  - intros N. now apply B, adjoin_NoDup.
Qed.
Lemma vinfo_free x e : In x (map fst (exp_vinfo e)) <-> free_in x e.
Proof.
  rewrite <- referenced_free. unfold var_referenced_in_exp, var_uses_in_exp. induction (exp_vinfo e) as [|(y & u) l IH]; cbn; [easy|].
  destruct (id_eqb x y) eqn:E.
  - apply id_eqb_eq in E. subst y. cbn. destruct (rev (map snd (filter _ l)) ++ [u]) eqn:R; [now apply app_eq_nil in R | split; auto].
  - rewrite <- IH. apply id_eqb_neq in E. split; [intros [->|]; easy | auto].
Qed.
Theorem free_vars_free x e : In x (exp_free_vars e) <-> free_in x e.
Proof. unfold exp_free_vars. rewrite (proj1 (free_gen _ _ _)), vinfo_free. cbn. tauto. Qed.
Theorem free_lexvars_free x e : In x (exp_free_lexvars e) <-> global_id x = false /\ free_in x e.
Proof. unfold exp_free_lexvars. rewrite (proj1 (free_lex_gen _ _ _)), vinfo_free. cbn. tauto. Qed.
Theorem free_vars_NoDup e : NoDup (exp_free_vars e).
Proof. apply (proj2 (free_gen _ _ (mkid 0 XNone))). constructor. Qed.
Theorem free_lexvars_NoDup e : NoDup (exp_free_lexvars e).
Proof. apply (proj2 (free_lex_gen _ _ (mkid 0 XNone))). constructor. Qed.
