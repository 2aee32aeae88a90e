(** Fixing letrecs: what the pass makes is related to the program it started from. *)
From Coq Require Import ZArith String List Bool Lia Permutation.
From Verif Require Import Base Model_Lit Model_Core Model_Letrec Spec_Sem Spec_Free Spec_Fold Spec_Scope Spec_Letrec Proofs_Sim Proofs_Core Proofs_Free.
From Verif Require Import Proofs_BetaPure Proofs_BetaFree Proofs_Assign Proofs_Letrec Proofs_LetrecEnv Proofs_LetrecSim.
Import ListNotations.
Open Scope Z_scope.

(** ** Lists *)
Lemma nodup_l {A} (a b : list A) : NoDup (a ++ b) -> NoDup a.
Proof. induction a as [|x a IH]; cbn; intros N; [constructor|]. inversion N; subst. constructor; [|auto]. intros I. apply H1. apply in_app_iff. now left. Qed.
Lemma nodup_r {A} (a b : list A) : NoDup (a ++ b) -> NoDup b.
Proof. induction a as [|x a IH]; cbn; intros N; [assumption|]. inversion N; auto. Qed.
Lemma nodup_no {A} (a b : list A) x : NoDup (a ++ b) -> In x a -> ~ In x b.
Proof. induction a as [|y a IH]; cbn; intros N []; inversion N; subst; [|auto]. intros I. apply H2. apply in_app_iff. now right. Qed.
Lemma nodup_flat {A B} (f : A -> list B) l x : NoDup (flat_map f l) -> In x l -> NoDup (f x).
Proof. induction l as [|a l IH]; cbn; intros N []; [subst; now apply nodup_l in N | apply nodup_r in N; auto]. Qed.
Lemma assq_adds p xs : forall (G : ctx) x, assq x (adds p xs G) = if memq x xs then Some p else assq x G.
Proof.
  induction xs as [|y xs IH]; intros G x; [reflexivity|]. cbn [adds]. rewrite IH, assq_cons. cbn [memq existsb].
  fold (memq x xs). destruct (id_eqb x y), (memq x xs); reflexivity.
Qed.
Lemma assq_pctx xs : forall ps (G : ctx) x, length ps = length xs -> ~ In x xs -> assq x (pctx xs ps G) = assq x G.
Proof.
  induction xs as [|y xs IH]; intros [|p ps] G x L N; try discriminate; [reflexivity|]. cbn [pctx]. rewrite IH; [|now injection L | intros I; apply N; now right].
  rewrite assq_cons. destruct (id_eqb x y) eqn:E; [|reflexivity]. apply id_eqb_eq in E. subst. destruct N. now left.
Qed.
Lemma assq_pctx_in (f : id -> rep) xs : forall (G : ctx) x, In x xs -> assq x (pctx xs (map f xs) G) = Some (f x).
Proof.
  induction xs as [|y xs IH]; intros G x I; [destruct I|]. cbn [pctx map]. destruct (in_dec id_dec x xs) as [J|J]; [now apply IH|].
  destruct I as [->|I]; [|contradiction]. rewrite assq_pctx; [|now rewrite map_length | assumption]. rewrite assq_cons, id_eqb_refl. reflexivity.
Qed.
Lemma assigned_free x e : assigned_in x e -> free_in x e.
Proof. induction 1 as [e e' ->|e ys e' I N _ IH]; [apply free_here; constructor | eapply free_part; eauto]. Qed.

(** ** Parts *)
Lemma binders_part ys e' e : In (ys, e') (parts e) -> incl (binders e') (binders e) /\ (NoDup (binders e) -> NoDup (binders e')).
Proof.
  destruct e as [x|x e|a b c|ef p l|g l|xs b|xs ls b|x b|k e]; cbn [parts binders]; intros I.
  - destruct I.
  - destruct I as [[= <- <-]|[]]. split; [apply incl_refl | auto].
  - destruct I as [[= <- <-]|[[= <- <-]|[[= <- <-]|[]]]]; (split; [intros z J; rewrite !in_app_iff; auto|]); intros N.
    + now apply nodup_l in N.
    + apply nodup_r in N. now apply nodup_l in N.
    + apply nodup_r in N. now apply nodup_r in N.
  - apply in_map_iff in I. destruct I as (a & [= <- <-] & I). split; [intros z J; apply in_flat_map; eauto | intros N; eapply nodup_flat; eauto].
  - destruct I as [[= <- <-]|I]; [split; [intros z J; apply in_app_iff; auto | apply nodup_l]|].
    apply in_map_iff in I. destruct I as (a & [= <- <-] & I). split; [intros z J; apply in_app_iff; right; apply in_flat_map; eauto | intros N; apply nodup_r in N; eapply nodup_flat; eauto].
  - destruct I as [[= <- <-]|[]]. split; [intros z J; apply in_app_iff; auto | apply nodup_r].
  - destruct I as [[= <- <-]|I].
    + split; [intros z J; rewrite !in_app_iff; auto | intros N; apply nodup_r in N; now apply nodup_r in N].
    + apply in_map_iff in I. destruct I as ((zs & a) & [= <- <-] & I). split.
      * intros z J. rewrite !in_app_iff. right; left. apply in_flat_map. exists (zs, a). split; [assumption | apply in_app_iff; auto].
      * intros N. apply nodup_r in N. apply nodup_l in N. pose proof (nodup_flat _ _ _ N I) as N2. cbn in N2. now apply nodup_r in N2.
  - destruct I as [[= <- <-]|[]]. split; [intros z J; now right | intros N; now inversion N].
  - destruct I as [[= <- <-]|[[= <- <-]|[]]]; (split; [intros z J; rewrite in_app_iff; auto|]); [apply nodup_l | apply nodup_r].
Qed.
Lemma distinct_part n ys e' e : In (ys, e') (parts e) -> distinct n e -> distinct n e'.
Proof. intros I (N & D). destruct (binders_part _ _ _ I) as (A & B). split; auto. Qed.
Lemma distinct_le n m e : n <= m -> distinct n e -> distinct m e.
Proof. intros L (N & D). split; [assumption|]. intros x I. specialize (D x I). lia. Qed.

(** ** Chains of assignments *)
Lemma chain_len ids es b c : chain ids es b c -> length ids = length es.
Proof. induction 1; cbn; congruence. Qed.
Lemma chain_free ids es b c : chain ids es b c -> forall a x, In a (es ++ [b]) -> free_in x a -> free_in x c.
Proof.
  induction 1 as [b|y xs e es b d c C IH Nd]; intros a x I F.
  - destruct I as [->|[]]. assumption.
  - apply free_app. destruct I as [->|I].
    + right. exists (ESet y a). split; [now left|]. apply free_set. auto.
    + left. apply free_lam. specialize (IH a x I F). split; [|assumption]. intros [->|[]]. contradiction.
Qed.
Lemma asg_app x f l : assigned_in x (EApp f l) <-> assigned_in x f \/ exists a, In a l /\ assigned_in x a.
Proof.
  rewrite assigned_in_eq. cbn. split.
  - intros [[=]|(ys & e' & [[= <- <-]|I] & N & A)]; [auto|]. apply in_map_iff in I. destruct I as (a & [= <- <-] & I). eauto.
  - intros [A|(a & I & A)]; right; [exists [], f | exists [], a]; (split; [|split; [intros []|assumption]]); [now left | right; now apply in_map].
Qed.
Lemma asg_lam x xs b : assigned_in x (ELam xs b) <-> ~ In x xs /\ assigned_in x b.
Proof.
  rewrite assigned_in_eq. cbn. split; [intros [[=]|(ys & e' & [[= <- <-]|[]] & N & A)]; auto|]. intros (N & A). right. exists xs, b. split; [now left | auto].
Qed.
Lemma asg_set x y e : assigned_in x (ESet y e) <-> x = y \/ assigned_in x e.
Proof.
  rewrite assigned_in_eq. cbn. split.
  - intros [E|(ys & e' & [[= <- <-]|[]] & N & A)]; [left; now apply id_eqb_eq | auto].
  - intros [->|A]; [left; apply id_eqb_refl|]. right. exists [], e. split; [now left | auto].
Qed.
Lemma chain_asg ids es b c : chain ids es b c -> forall a x, In a (es ++ [b]) -> assigned_in x a -> assigned_in x c.
Proof.
  induction 1 as [b|y xs e es b d c C IH Nd]; intros a x I F.
  - destruct I as [->|[]]. assumption.
  - apply asg_app. destruct I as [->|I].
    + right. exists (ESet y a). split; [now left|]. apply asg_set. auto.
    + left. apply asg_lam. specialize (IH a x I F). split; [|assumption]. intros [->|[]]. apply assigned_free in IH. contradiction.
Qed.
Lemma chain_from ids es b c : chain ids es b c -> forall x, free_in x c -> In x ids \/ exists a, In a (es ++ [b]) /\ free_in x a.
Proof.
  induction 1 as [b|y xs e es b d c C IH Nd]; intros x F.
  - right. exists b. split; [now left | assumption].
  - apply free_app in F. destruct F as [F|(a & [<-|[]] & F)].
    + apply free_lam in F. destruct F as (_ & F). destruct (IH x F) as [I|(a & I & A)]; [left; now right|]. right. exists a. split; [now right | assumption].
    + apply free_set in F. destruct F as [->|F]; [left; now left|]. right. exists e. split; [now left | assumption].
Qed.
Lemma chain_binders ids es b c : chain ids es b c -> forall a, In a (es ++ [b]) -> incl (binders a) (binders c) /\ (NoDup (binders c) -> NoDup (binders a)).
Proof.
  induction 1 as [b|y xs e es b d c C IH Nd]; intros a I.
  - destruct I as [->|[]]. split; [apply incl_refl | auto].
  - destruct I as [->|I].
    + cbn [binders flat_map]. split; [intros z J; rewrite !in_app_iff; auto|]. intros N. apply nodup_r in N. now apply nodup_l in N.
    + destruct (IH a I) as (A & B). cbn [binders flat_map]. split; [intros z J; rewrite !in_app_iff; auto|]. intros N. apply nodup_l in N. apply nodup_r in N. auto.
Qed.
(** how letrec stores its values *)
Lemma stores_free z ids ts l : stores z ids ts l -> forall x, free_in x l -> In x ids \/ In x ts \/ free_in x z.
Proof.
  induction 1 as [|y xs t ts d c C IH Nd]; intros x F; [auto|]. apply free_app in F. destruct F as [F|(a & [<-|[]] & F)].
  - apply free_lam in F. destruct F as (_ & F). destruct (IH x F) as [I|[I|I]]; [left; now right | right; left; now right | auto].
  - apply free_set in F. destruct F as [->|F]; [left; now left|]. apply free_var in F. subst. right; left; now left.
Qed.
Lemma stored_from ids es b c : stored void_exp ids es b c -> forall x, free_in x c -> In x ids \/ exists a, In a (es ++ [b]) /\ free_in x a.
Proof.
  intros [tmps l d S Nd] x F. apply free_app in F. destruct F as [F|(a & [<-|[]] & F)].
  - apply free_lam in F. destruct F as (_ & F). right. exists b. split; [apply in_app_iff; right; now left | assumption].
  - apply free_app in F. destruct F as [F|(a & I & F)]; [|right; exists a; split; [apply in_app_iff; now left | assumption]].
    apply free_lam in F. destruct F as (N & F). destruct (stores_free _ _ _ _ S x F) as [I|[I|I]]; [auto | contradiction|]. apply free_prim in I. destruct I as (? & [] & _).
Qed.
Lemma stored_free z ids es b c : stored z ids es b c -> forall a x, In a (es ++ [b]) -> free_in x a -> free_in x c.
Proof.
  intros [tmps l d S Nd] a x I F. apply free_app. apply in_app_iff in I. destruct I as [I|[->|[]]].
  - right. exists (EApp (ELam tmps l) es). split; [now left|]. apply free_app. eauto.
  - left. apply free_lam. split; [|assumption]. intros [->|[]]. contradiction.
Qed.
Lemma stored_asg z ids es b c : stored z ids es b c -> forall a x, In a (es ++ [b]) -> assigned_in x a -> assigned_in x c.
Proof.
  intros [tmps l d S Nd] a x I F. apply asg_app. apply in_app_iff in I. destruct I as [I|[->|[]]].
  - right. exists (EApp (ELam tmps l) es). split; [now left|]. apply asg_app. eauto.
  - left. apply asg_lam. split; [|assumption]. intros [->|[]]. apply assigned_free in F. contradiction.
Qed.
Lemma stored_binders z ids es b c : stored z ids es b c -> forall a, In a (es ++ [b]) -> incl (binders a) (binders c) /\ (NoDup (binders c) -> NoDup (binders a)).
Proof.
  intros [tmps l d S Nd] a I. cbn [binders flat_map]. apply in_app_iff in I. destruct I as [I|[->|[]]].
  - split; [intros z0 J; rewrite !in_app_iff; right; left; right; apply in_flat_map; eauto|]. intros N. apply nodup_r in N. apply nodup_l in N. apply nodup_r in N. eapply nodup_flat; eauto.
  - split; [intros z0 J; rewrite !in_app_iff; auto|]. intros N. apply nodup_l in N. now apply nodup_r in N.
Qed.

(** ** What the pass takes for letrec and letrec* *)
Lemma void_place e : void_expp e = true <-> placeholder e.
Proof.
  unfold placeholder. split.
  - destruct e; try discriminate. unfold void_expp. destruct (zlist_dec p the_void_prim) as [->|]; [eauto | discriminate].
  - intros (ef & l & ->). unfold void_expp. destruct (zlist_dec the_void_prim the_void_prim); congruence.
Qed.
Lemma begin_view_iff e e1 e2 : begin_view e = Some (e1, e2) <-> exists d, e = EApp (ELam [d] e2) [e1] /\ ~ free_in d e2.
Proof.
  unfold begin_view. split.
  - unfold let_view. destruct e as [| | | |g l| | | |]; try discriminate. destruct g as [| | | | |xs b| | |]; try discriminate.
    destruct (Nat.eqb (length xs) (length l)); [|discriminate]. destruct xs as [|d [|]]; try discriminate. destruct l as [|a [|]]; try discriminate.
    destruct (var_referenced_in_exp d b) eqn:R; [discriminate|]. intros [= <- <-]. exists d. split; [reflexivity|]. intros F. apply referenced_free in F. congruence.
  - intros (d & -> & N). cbn [let_view length Nat.eqb]. destruct (var_referenced_in_exp d e2) eqn:R; [|reflexivity]. apply referenced_free in R. contradiction.
Qed.
Lemma inits_iff ids : forall c l b, Model_Letrec.inits ids c = Some (l, b) <-> chain ids l b c.
Proof.
  induction ids as [|x ids IH]; intros c l b; cbn [Model_Letrec.inits].
  - split; [intros [= <- <-]; constructor | inversion 1; reflexivity].
  - split.
    + destruct (begin_view c) as [(e1 & e2)|] eqn:B; [|discriminate]. apply begin_view_iff in B. destruct B as (d & -> & N). destruct e1; try discriminate.
      destruct (id_eqb x0 x) eqn:Q; [|discriminate]. apply id_eqb_eq in Q. subst x0. destruct (Model_Letrec.inits ids e2) as [(l0 & b0)|] eqn:I; [|discriminate].
      intros [= <- <-]. constructor; [now apply IH | assumption].
    + inversion 1; subst. match goal with C : chain ids _ _ _, N : ~ free_in _ _ |- _ => apply IH in C;
        rewrite (proj2 (begin_view_iff _ _ _) (ex_intro _ d (conj eq_refl N))), id_eqb_refl, C end. reflexivity.
Qed.
Lemma assignees_sound f : forall all ts c l, assignees f all ts c = Val (Some l) -> exists z, placeholder z /\ stores z l ts c.
Proof.
  induction f as [|f IH]; intros all ts c l; cbn [assignees]; [discriminate|]. destruct ts as [|t ts].
  - destruct (void_expp c) eqn:V.
    + intros [= <-]. exists c. split; [now apply void_place | constructor].
    + destruct (begin_view c) as [(e1 & e2)|]; [|discriminate]. destruct e1; try discriminate. destruct e1; discriminate.
  - destruct (begin_view c) as [(e1 & e2)|] eqn:B; [|discriminate]. apply begin_view_iff in B. destruct B as (d & -> & N). destruct e1 as [|x e1| | | | | | |]; try discriminate. destruct e1 as [y| | | | | | | |]; try discriminate.
    destruct (id_eqb y t && negb (memq x all)) eqn:Q; [|discriminate]. apply andb_true_iff in Q. destruct Q as (Q & _). apply id_eqb_eq in Q. subst y.
    destruct (assignees f all ts e2) as [[l0|]|] eqn:A; try discriminate. intros [= <-]. destruct (IH _ _ _ _ A) as (z & Z & S). exists z. split; [assumption | now constructor].
Qed.
Lemma assignees_complete z l ts c : stores z l ts c -> placeholder z -> forall f all, (length ts < f)%nat -> (forall x, In x l -> ~ In x all) -> assignees f all ts c = Val (Some l).
Proof.
  intros S Z. apply void_place in Z. induction S as [|x xs t ts d c S IH N]; intros [|f] all Lf D; try (cbn in Lf; lia); cbn [assignees].
  - now rewrite Z.
  - rewrite (proj2 (begin_view_iff _ _ _) (ex_intro _ d (conj eq_refl N))), id_eqb_refl. assert (M : memq x all = false) by (apply memq_not_In; apply D; now left).
    rewrite M. cbn [andb negb]. rewrite IH; [reflexivity | cbn in Lf; lia | intros y I; apply D; now right].
Qed.
Lemma ids_eqb_eq a b : ids_eqb a b = true <-> a = b.
Proof. unfold ids_eqb. destruct (list_eq_dec id_dec a b); split; congruence. Qed.
Lemma let_view_eq e ids rands b : let_view e = Some (ids, rands, b) <-> e = EApp (ELam ids b) rands /\ length ids = length rands.
Proof.
  split.
  - destruct e as [| | | |g l| | | |]; try discriminate. destruct g as [| | | | |xs b0| | |]; try discriminate. cbn [let_view].
    destruct (Nat.eqb (length xs) (length l)) eqn:Q; [|discriminate]. apply Nat.eqb_eq in Q. intros [= <- <- <-]. auto.
  - intros (-> & L). cbn [let_view]. now rewrite (proj2 (Nat.eqb_eq _ _) L).
Qed.
Lemma let_view_let ids b rands : length ids = length rands -> let_view (EApp (ELam ids b) rands) = Some (ids, rands, b).
Proof. intros L. apply let_view_eq. auto. Qed.
Lemma letrec_view_sound e ids es b : letrec_view e = Val (Some (ids, es, b)) ->
  exists c rands z, e = EApp (ELam ids c) rands /\ ids <> [] /\ length ids = length rands /\ (forall a, In a rands -> placeholder a) /\ placeholder z /\ stored z ids es b c.
Proof.
  unfold letrec_view. destruct (let_view e) as [((ids0 & rands) & c)|] eqn:V; [|discriminate]. apply let_view_eq in V. destruct V as (-> & L).
  destruct ids0 as [|x ids0]; [discriminate|]. destruct (forallb void_expp rands) eqn:F; [|discriminate].
  destruct (begin_view c) as [(e1 & e2)|] eqn:B; [|discriminate]. apply begin_view_iff in B. destruct B as (d & -> & N).
  unfold varassigns_view. destruct (let_view e1) as [((tmps & es0) & l)|] eqn:V; [|discriminate]. apply let_view_eq in V. destruct V as (-> & L2).
  destruct (assignees (S (length tmps)) tmps tmps l) as [[l0|]|] eqn:A; try discriminate. destruct (ids_eqb (x :: ids0) l0) eqn:Q; [|discriminate]. intros [= <- <- <-].
  apply ids_eqb_eq in Q. subst l0. destruct (assignees_sound _ _ _ _ _ A) as (z & Z & S).
  exists (EApp (ELam [d] e2) [EApp (ELam tmps l) es0]), rands, z. split; [reflexivity|split; [discriminate|split; [assumption|split; [|split; [assumption | now constructor]]]]].
  intros a I. rewrite forallb_forall in F. apply void_place. auto.
Qed.
Lemma voids_void {A} (l : list A) : forallb void_expp (map (fun _ => void_exp) l) = true.
Proof. induction l; cbn [map forallb]; [reflexivity|]. rewrite IHl. reflexivity. Qed.
Lemma stores_len z ids ts l : stores z ids ts l -> length ids = length ts.
Proof. induction 1; cbn; congruence. Qed.
Lemma letrec_view_complete x ids es b c : stored void_exp (x :: ids) es b c -> length es = length (x :: ids) ->
  NoDup (binders (EApp (ELam (x :: ids) c) (map (fun _ => void_exp) (x :: ids)))) ->
  letrec_view (EApp (ELam (x :: ids) c) (map (fun _ => void_exp) (x :: ids))) = Val (Some (x :: ids, es, b)).
Proof.
  intros [tmps l d S N] L ND. unfold letrec_view. rewrite let_view_let by (now rewrite map_length); rewrite voids_void.
  rewrite (proj2 (begin_view_iff _ _ _) (ex_intro _ d (conj eq_refl N))). unfold varassigns_view. pose proof (stores_len _ _ _ _ S) as Ls.
  rewrite let_view_let by congruence. rewrite (assignees_complete _ _ _ _ S).
  - rewrite (proj2 (ids_eqb_eq _ _) eq_refl). reflexivity.
  - exists ENo, []. reflexivity.
  - lia.
  - intros y I J. cbn [binders flat_map] in ND. apply nodup_l in ND. apply (nodup_no _ _ y) in ND; [|assumption]. apply ND. rewrite !in_app_iff. auto.
Qed.
Lemma letrec_view_chain ids es b c rands : chain ids es b c -> ids <> [] -> letrec_view (EApp (ELam ids c) rands) = Val None.
Proof.
  intros C N. unfold letrec_view. destruct (let_view (EApp (ELam ids c) rands)) as [((ids0 & rands0) & c0)|] eqn:V; [|reflexivity]. apply let_view_eq in V. destruct V as ([= <- <- <-] & L).
  destruct C as [|x xs e es b d c C Nd]; [congruence|]. destruct (forallb void_expp rands); [|reflexivity].
  rewrite (proj2 (begin_view_iff _ _ _) (ex_intro _ d (conj eq_refl Nd))). reflexivity.
Qed.
Lemma letrecs_view_sound e ids es b : letrecs_view e = Some (ids, es, b) ->
  exists c rands, e = EApp (ELam ids c) rands /\ ids <> [] /\ length ids = length rands /\ (forall a, In a rands -> placeholder a) /\ chain ids es b c.
Proof.
  unfold letrecs_view. destruct (let_view e) as [((ids0 & rands) & c)|] eqn:V; [|discriminate]. apply let_view_eq in V. destruct V as (-> & L).
  destruct ids0 as [|x ids0]; [discriminate|]. destruct (forallb void_expp rands) eqn:F; [|discriminate].
  destruct (Model_Letrec.inits (x :: ids0) c) as [(l & b0)|] eqn:I; [|discriminate]. intros [= <- <- <-]. apply inits_iff in I.
  exists c, rands. split; [reflexivity|split; [discriminate|split; [assumption|split; [|assumption]]]]. intros a J. rewrite forallb_forall in F. apply void_place. auto.
Qed.
Lemma letrecs_view_complete x ids es b c : chain (x :: ids) es b c -> letrecs_view (EApp (ELam (x :: ids) c) (map (fun _ => void_exp) (x :: ids))) = Some (x :: ids, es, b).
Proof.
  intros C. unfold letrecs_view. rewrite let_view_let by (now rewrite map_length); rewrite voids_void. apply inits_iff in C. now rewrite C.
Qed.

(** ** Kinds of bindings *)
Lemma vinfo_assigned x e : (exists u, In (x, u) (exp_vinfo e) /\ assignment_to u = true) <-> assigned_in x e.
Proof.
  rewrite <- assigned_assigned. unfold var_assigned_in_exp, var_uses_in_exp. rewrite existsb_exists. split.
  - intros (u & I & A). exists u. split; [|assumption]. apply in_rev. rewrite rev_involutive. apply in_map_iff. exists (x, u). split; [reflexivity|]. apply filter_In. split; [assumption | apply id_eqb_refl].
  - intros (u & I & A). exists u. split; [|assumption]. apply in_rev, in_map_iff in I. destruct I as ((y & u') & E & I). cbn in E. subst u'. apply filter_In in I. destruct I as (I & Q). cbn in Q. apply id_eqb_eq in Q. now subst.
Qed.
Lemma vinfo_use x e : (exists u, In (x, u) (exp_vinfo e)) <-> free_in x e.
Proof.
  rewrite <- vinfo_free, in_map_iff. split; [intros (u & I); exists (x, u); auto | intros ((y & u) & E & I); cbn in E; subst; eauto].
Qed.
Lemma in_vinfo_free x e : in_vinfo (exp_vinfo e) x = true <-> free_in x e.
Proof.
  rewrite <- vinfo_use. unfold in_vinfo. rewrite existsb_exists. split.
  - intros ((y & u) & I & Q). cbn in Q. apply id_eqb_eq in Q. subst. eauto.
  - intros (u & I). exists (x, u). split; [assumption | apply id_eqb_refl].
Qed.
Lemma free_of_spec ids e : free_of ids e = true <-> forall y, In y ids -> ~ free_in y e.
Proof.
  unfold free_of. rewrite forallb_forall. split.
  - intros A y I F. specialize (A y I). apply in_vinfo_free in F. rewrite F in A. discriminate.
  - intros A y I. apply negb_true_iff. destruct (in_vinfo (exp_vinfo e) y) eqn:Q; [|reflexivity]. apply in_vinfo_free in Q. destruct (A y I Q).
Qed.
Lemma simple_simple m : forall e, (esize e <= m)%nat -> fl_simple e = true -> simple e.
Proof.
  induction m as [|m IH]; intros e; [destruct e; cbn [esize]; lia|]. destruct e as [x|x e|a b c|ef p l|g l|xs b|xs ls b|x b|k e]; cbn [fl_simple esize]; intros S Q; try discriminate.
  - constructor.
  - rewrite !andb_true_iff in Q. destruct Q as [[A B] C]. constructor; apply IH; (assumption || lia).
  - apply andb_true_iff in Q. destruct Q as [A B]. constructor; [assumption|]. intros e I. rewrite forallb_forall in B. pose proof (size_in _ _ I). apply IH; [lia | auto].
  - destruct g as [| | | | |xs b| | |]; try discriminate. destruct (Nat.eqb (length xs) (length l)); [|discriminate]. apply andb_true_iff in Q. destruct Q as [A B]. cbn [esize] in S. constructor; [apply IH; [lia | assumption]|].
    intros e I. rewrite forallb_forall in A. pose proof (size_in _ _ I). apply IH; [lia | auto].
  - constructor.
  - apply andb_true_iff in Q. destruct Q. constructor; apply IH; (assumption || lia).
Qed.
Section Kinds.
Variables (ids : list id) (es : list exp) (body : exp).
Notation all := (es ++ [body]).
Let vi := flat_map exp_vinfo es ++ exp_vinfo body.
Lemma vi_in x u : In (x, u) vi <-> exists a, In a all /\ In (x, u) (exp_vinfo a).
Proof.
  unfold vi. rewrite in_app_iff, in_flat_map. split.
  - intros [(a & I & J)|J]; [exists a | exists body]; rewrite in_app_iff; cbn; auto.
  - intros (a & I & J). apply in_app_iff in I. destruct I as [I|[->|[]]]; eauto.
Qed.
Inductive class (b : bnd) : Prop :=
| cl_u : b_kind b = KU -> (forall a, In a all -> ~ free_in (b_id b) a) -> class b
| cl_s : b_kind b = KS -> (exists a, In a all /\ free_in (b_id b) a) -> (forall a, In a all -> ~ assigned_in (b_id b) a) -> fl_simple (b_exp b) = true ->
    (forall y, In y ids -> ~ free_in y (b_exp b)) -> class b
| cl_l : b_kind b = KL -> (forall a, In a all -> ~ assigned_in (b_id b) a) -> is_lam (b_exp b) = true -> class b
| cl_ca : b_kind b = KC -> (exists a, In a all /\ assigned_in (b_id b) a) -> class b
| cl_c : b_kind b = KC -> (exists a, In a all /\ free_in (b_id b) a) -> (forall a, In a all -> ~ assigned_in (b_id b) a) -> is_lam (b_exp b) = false ->
    (fl_simple (b_exp b) = false \/ exists y, In y ids /\ free_in y (b_exp b)) -> class b.
Lemma classify_class x e : class (classify ids vi x e).
Proof.
  unfold classify. set (uses := map snd (filter (fun iv => id_eqb (fst iv) x) vi)).
  assert (U : forall u, In u uses <-> In (x, u) vi).
  { intros u. unfold uses. rewrite in_map_iff. split.
    - intros ((y & u') & E & I). cbn in E. subst u'. apply filter_In in I. destruct I as (I & Q). cbn in Q. apply id_eqb_eq in Q. now subst.
    - intros I. exists (x, u). split; [reflexivity|]. apply filter_In. split; [assumption | apply id_eqb_refl]. }
  destruct uses as [|u0 us] eqn:E0.
  { apply cl_u; cbn; [reflexivity|]. intros a I F. apply vinfo_use in F. destruct F as (u & F). apply (U u). apply vi_in. eauto. }
  assert (Us : exists a, In a all /\ free_in x a).
  { destruct (proj1 (vi_in x u0) (proj1 (U u0) (or_introl eq_refl))) as (a & I & J). exists a. split; [assumption|]. apply vinfo_use. eauto. }
  destruct (existsb assignment_to (u0 :: us)) eqn:A.
  { apply cl_ca; cbn; [reflexivity|]. apply existsb_exists in A. destruct A as (u & I & A). apply U, vi_in in I. destruct I as (a & I & J). exists a. split; [assumption|]. apply vinfo_assigned. eauto. }
  assert (NA : forall a, In a all -> ~ assigned_in x a).
  { intros a I F. apply vinfo_assigned in F. destruct F as (u & F & Q). assert (existsb assignment_to (u0 :: us) = true); [|congruence].
    apply existsb_exists. exists u. split; [|assumption]. apply U, vi_in. eauto. }
  destruct (fl_simple e) eqn:Fs, (forallb (fun y => negb (in_vinfo (exp_vinfo e) y)) ids) eqn:Fo; cbn [andb].
  { apply cl_s; cbn; auto. now apply free_of_spec. }
  all: assert (O : fl_simple e = false \/ exists y, In y ids /\ free_in y e); [first [now left | right; rewrite <- not_true_iff_false in Fo;
    destruct (existsb (in_vinfo (exp_vinfo e)) ids) eqn:Q; [apply existsb_exists in Q; destruct Q as (y & I & Q); exists y; split; [assumption | now apply in_vinfo_free] |
    exfalso; apply Fo, forallb_forall; intros y I; apply negb_true_iff; destruct (in_vinfo (exp_vinfo e) y) eqn:Q2; [|reflexivity]; assert (existsb (in_vinfo (exp_vinfo e)) ids = true) by (apply existsb_exists; eauto); congruence]]|].
  all: destruct (is_lam e) eqn:Il; [apply cl_l; cbn; auto | apply cl_c; cbn; auto].
Qed.
Lemma map2_ids {B} (f : id -> exp -> B) (g : B -> id) (h : B -> exp) : (forall x e, g (f x e) = x) -> (forall x e, h (f x e) = e) -> forall xs l, length xs = length l ->
  map g (map2 f xs l) = xs /\ map h (map2 f xs l) = l.
Proof.
  intros Hg Hh. induction xs as [|x xs IH]; intros [|e l] L; try discriminate; cbn [map2 map]; [auto|]. injection L as L. destruct (IH l L) as (A & B0). now rewrite Hg, Hh, A, B0.
Qed.
Lemma map2_In {A B C} (f : A -> B -> C) xs : forall l c, In c (map2 f xs l) -> exists x y i, c = f x y /\ nth_error xs i = Some x /\ nth_error l i = Some y.
Proof.
  induction xs as [|x xs IH]; intros [|y l] c I; try destruct I as [<-|I]; try destruct I.
  - exists x, y, O. auto.
  - destruct (IH _ _ I) as (x0 & y0 & i & E & A0 & B0). exists x0, y0, (S i). auto.
Qed.
Lemma classify_all : length ids = length es -> let bs := classify_bindings ids es body in
  map b_id bs = ids /\ map b_exp bs = es /\ forall b, In b bs -> class b /\ exists i, nth_error ids i = Some (b_id b) /\ nth_error es i = Some (b_exp b).
Proof.
  intros L bs. unfold bs, classify_bindings. fold vi. destruct (map2_ids (classify ids vi) b_id b_exp) with (xs := ids) (l := es) as (A & B); auto.
  split; [assumption|split; [assumption|]]. intros b I. apply map2_In in I. destruct I as (x & e & i & -> & Nx & Ne). split; [apply classify_class | exists i; auto].
Qed.
End Kinds.
Lemma kinds_perm bs : Permutation bs (of_kind KU bs ++ of_kind KS bs ++ of_kind KC bs ++ of_kind KL bs).
Proof.
  unfold of_kind. induction bs as [|b bs IH]; [constructor|]. cbn [filter]. destruct (b_kind b); cbn [kind_eqb].
  - cbn [app]. now constructor.
  - apply Permutation_cons_app. exact IH.
  - rewrite !app_assoc in IH |- *. apply Permutation_cons_app. exact IH.
  - cbn [app]. rewrite app_assoc. apply Permutation_cons_app. rewrite <- app_assoc. exact IH.
Qed.
Lemma kind_In k bs b : In b (of_kind k bs) <-> In b bs /\ b_kind b = k.
Proof. unfold of_kind. rewrite filter_In. destruct (b_kind b), k; cbn; intuition congruence. Qed.
