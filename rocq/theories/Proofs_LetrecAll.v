(** Fixing letrecs: the pass as a whole. *)
From Coq Require Import ZArith String List Bool Lia Permutation.
From Verif Require Import Base Model_Lit Model_Core Model_Letrec Spec_Sem Spec_Free Spec_Fold Spec_Scope Spec_Letrec Proofs_Sim Proofs_Core Proofs_Free.
From Verif Require Import Proofs_BetaPure Proofs_BetaFree Proofs_Assign Proofs_Letrec Proofs_LetrecEnv Proofs_LetrecSim Proofs_LetrecFix.
Import ListNotations.
Open Scope Z_scope.

Section All.
Variable P : prim -> script.
Variable asg : id -> bool.
Notation FX := (FX P). Notation FXL := (FXL P). Notation SIL := (SIL P). Notation FW := (FW P).
Notation settled := (settled P asg).

(** the variables are kept as the expression needs it *)
Definition cov (look : id -> option rep) (e : exp) : Prop := forall x, free_in x e -> global_id x = false ->
  exists p, look x = Some p /\ p <> RDead /\ (assigned_in x e -> p = RCell) /\ (asg x = false -> p = RLate).
Definition apart (G : ctx) (m : Z) (e : exp) : Prop := (forall x, In x (binders e) -> assq x G = None) /\ forall x, m < ts x -> assq x G = None.
Definition shape (e e' : exp) : Prop :=
  match e with ELam xs _ => exists b', e' = ELam xs b' | EVar y => e' = EVar y | EPrim ef p [] => e' = EPrim ef p [] | _ => True end.
Definition good (m : Z) (e e' : exp) : Prop :=
  (forall x, ts x <= m -> free_in x e -> free_in x e') /\ shape e e' /\ forall G pl, cov (fun x => assq x G) e -> apart G m e -> FX G pl e e'.
Definition gets (f : nat) (m : Z) (e : exp) : Prop := forall m1 e' m2, m <= m1 -> fixl f e m1 = Some (e', m2) -> m1 <= m2 /\ good m1 e e'.

Lemma apart_le G m m1 e : m <= m1 -> apart G m e -> apart G m1 e.
Proof. intros L (A & B). split; [assumption|]. intros x I. apply B. lia. Qed.
Lemma good_le m m1 e e' : m <= m1 -> good m1 e e' -> good m e e'.
Proof. intros L (A & S & B). split; [intros x I; apply A; lia|]. split; [assumption|]. intros G pl C D. apply B; [assumption | eapply apart_le; eauto]. Qed.
Lemma cov_part look e a : In ([], a) (parts e) -> cov look e -> cov look a.
Proof.
  intros I C x F GX. destruct (C x (free_part _ _ _ _ I (fun H => H) F) GX) as (p & A & B & D & E). exists p. split; [assumption|split; [assumption|split; [|assumption]]].
  intros As. apply D. eapply asg_part; eauto.
Qed.
Lemma apart_part G m ys e a : In (ys, a) (parts e) -> apart G m e -> apart G m a.
Proof. intros I (A & B). split; [|assumption]. intros x J. apply A. eapply binders_part; eauto. Qed.
Lemma each_gets f m l : (forall e, In e l -> gets f m e) -> forall m1 l' m2, m <= m1 -> each (fixl f) l m1 = Some (l', m2) -> m1 <= m2 /\ Forall2 (good m1) l l'.
Proof.
  induction l as [|e l IH]; intros H m1 l' m2 L E; cbn [each] in E.
  - injection E as <- <-. split; [lia | constructor].
  - destruct (fixl f e m1) as [(e' & m3)|] eqn:X; [|discriminate]. destruct (each (fixl f) l m3) as [(r & m4)|] eqn:Y; [|discriminate]. injection E as <- <-.
    destruct (H e (or_introl eq_refl) _ _ _ L X) as (L1 & G1). destruct (IH (fun a I => H a (or_intror I)) m3 r m4 ltac:(lia) Y) as (L2 & G2). split; [lia|].
    constructor; [assumption|]. clear - G2 L1. induction G2; constructor; auto. eapply good_le; eauto.
Qed.
Lemma good_FXL m G pl l l' : Forall2 (good m) l l' -> (forall e, In e l -> cov (fun x => assq x G) e /\ apart G m e) -> FXL G pl l l'.
Proof.
  induction 1 as [|e e' l l' A F IH]; intros H; constructor.
  - destruct (H e (or_introl eq_refl)). now apply A.
  - apply IH. intros a I. apply H. now right.
Qed.
Lemma good_frees m l l' : Forall2 (good m) l l' -> forall x, ts x <= m -> (exists a, In a l /\ free_in x a) -> exists a, In a l' /\ free_in x a.
Proof.
  induction 1 as [|e e' l l' A F IH]; intros x L (a & I & Fa); [destruct I|]. destruct I as [->|I].
  - exists e'. split; [now left | now apply A].
  - destruct (IH x L) as (b & J & Fb); [eauto|]. exists b. split; [now right | assumption].
Qed.

(** ** Procedures *)
Lemma SIL_lams G zs : (forall z, In z zs -> is_lam (src z) = true /\ is_lam (tgt z) = true /\ FX G [] (src z) (tgt z)) -> SIL G zs.
Proof.
  induction zs as [|(x & (e & e')) zs IH]; intros H; [constructor|]. destruct (H _ (or_introl eq_refl)) as (A & B & C). unfold src, tgt in *. cbn [fst snd] in *.
  destruct e; try discriminate. destruct e'; try discriminate. constructor; [assumption|]. apply IH. intros z I. apply H. now right.
Qed.
Lemma all_lams_eq l : forall ls, all_lams l = Some ls -> l = lams_of ls.
Proof.
  induction l as [|e l IH]; intros ls E; cbn [all_lams] in E; [now injection E as <-|]. destruct e; cbn [lam_parts] in E; try discriminate.
  destruct (all_lams l) as [ps|]; [|discriminate]. injection E as <-. cbn. now rewrite (IH ps eq_refl).
Qed.
Lemma filter_none {A} (f : A -> bool) l : filter f l = [] -> forall x, In x l -> f x = false.
Proof. intros E x I. destruct (f x) eqn:Q; [|reflexivity]. assert (In x (filter f l)) by (now apply filter_In). rewrite E in H. destruct H. Qed.
Lemma filter_split {A} (f g : A -> bool) l : (forall x, g x = negb (f x)) -> Permutation (filter f l ++ filter g l) l.
Proof.
  intros N. induction l as [|a l IH]; [constructor|]. cbn. rewrite N. destruct (f a); cbn; [now constructor|]. apply Permutation_sym, Permutation_cons_app, Permutation_sym, IH.
Qed.
Lemma refix_free body : forall fuel zs T x, refix fuel (map fst zs) (map tgt zs) body = Some T -> ~ In x (map fst zs) ->
  (exists z, In z zs /\ free_in x (tgt z)) \/ free_in x body -> free_in x T.
Proof.
  induction fuel as [|fuel IH]; intros zs T x E N F; [discriminate|]. cbn [refix] in E.
  set (kz := fun z : id * (exp * exp) => if free_of (map fst zs) (tgt z) then KS else KL) in *.
  assert (M : map2 (fun x e => mkbnd (if free_of (map fst zs) e then KS else KL) x e) (map fst zs) (map tgt zs) = map (fun z => mkbnd (kz z) (fst z) (tgt z)) zs).
  { unfold kz. generalize (map fst zs) at 1 3. intros l0. induction zs as [|z l IHl]; [reflexivity|]. clear - l. induction (z :: l); cbn; congruence. }
  rewrite M in E. clear M.
  assert (K : forall k, of_kind k (map (fun z => mkbnd (kz z) (fst z) (tgt z)) zs) = map (fun z => mkbnd (kz z) (fst z) (tgt z)) (filter (fun z => kind_eqb (kz z) k) zs)).
  { intros k. unfold of_kind. induction zs as [|z l IHl]; [reflexivity|]. clear - l. generalize (z :: l). intros l0. induction l0 as [|a l0 IHl]; [reflexivity|]. cbn. destruct (kind_eqb (kz a) k); cbn; now rewrite IHl. }
  rewrite !K in E. clear K. set (sz := filter (fun z => kind_eqb (kz z) KS) zs) in *. set (lz := filter (fun z => kind_eqb (kz z) KL) zs) in *.
  assert (Pm : Permutation (sz ++ lz) zs). { apply filter_split. intros z. unfold kz. destruct (free_of (map fst zs) (tgt z)); reflexivity. }
  destruct sz as [|s0 sz0] eqn:Es.
  - cbn [map] in E. cbn [app] in Pm. destruct lz as [|l0 lz0] eqn:El.
    + cbn [map] in E. injection E as <-. apply Permutation_nil in Pm. subst zs. destruct F as [(z & [] & _)|F]. assumption.
    + cbn [map] in E. destruct (all_lams (map tgt zs)) as [ls|] eqn:Al; [|discriminate]. injection E as <-. apply all_lams_eq in Al.
      apply free_fix. split; [assumption|]. destruct F as [(z & I & F)|F]; [right | now left].
        assert (J : In (tgt z) (lams_of ls)) by (rewrite <- Al; now apply in_map). unfold lams_of in J. apply in_map_iff in J. destruct J as ((xs & b) & Q & J). exists (xs, b). split; [assumption|].
        rewrite <- Q in F. apply free_lam in F. exact F.
  - rewrite <- Es in *. assert (E' : match refix fuel (map b_id (map (fun z => mkbnd (kz z) (fst z) (tgt z)) lz)) (map b_exp (map (fun z => mkbnd (kz z) (fst z) (tgt z)) lz)) body with
      | Some b => Some (let_exp (map b_id (map (fun z => mkbnd (kz z) (fst z) (tgt z)) sz)) (map b_exp (map (fun z => mkbnd (kz z) (fst z) (tgt z)) sz)) b) | None => None end = Some T).
    { rewrite Es. rewrite Es in E. cbn [map] in E |- *. exact E. }
    clear E. rewrite !map_map in E'. cbn [b_id b_exp] in E'. change (map (fun x => tgt x) lz) with (map tgt lz) in E'. change (map (fun x => tgt x) sz) with (map tgt sz) in E'.
    change (map (fun x => fst x) lz) with (map fst lz) in E'. change (map (fun x => fst x) sz) with (map fst sz) in E'.
    destruct (refix fuel (map fst lz) (map tgt lz) body) as [T0|] eqn:R; [|discriminate]. injection E' as <-.
    assert (Is : forall z, In z sz -> In z zs /\ free_of (map fst zs) (tgt z) = true).
    { intros z I. unfold sz in I. apply filter_In in I. destruct I as (I & Q). split; [assumption|]. unfold kz in Q. destruct (free_of (map fst zs) (tgt z)); [reflexivity | discriminate]. }
    assert (Il : forall z, In z lz -> In z zs) by (intros z I; apply filter_In in I; apply I).
    assert (Mem : forall x, memq x (map fst zs) = memq x (map fst sz) || memq x (map fst lz)).
    { intros y. apply eq_true_iff_eq. rewrite orb_true_iff, !memq_In, <- in_app_iff, <- map_app. split; apply Permutation_in, Permutation_map; [now apply Permutation_sym | assumption]. }
    apply memq_not_In in N. rewrite Mem in N. apply orb_false_iff in N. destruct N as (N1 & N2). apply memq_not_In in N1, N2. apply free_app.
        assert (C : (exists z, In z sz /\ free_in x (tgt z)) \/ (exists z, In z lz /\ free_in x (tgt z)) \/ free_in x body).
        { destruct F as [(z & I & F)|F]; [|auto]. apply (Permutation_in _ (Permutation_sym Pm)), in_app_iff in I. destruct I as [I|I]; [left | right; left]; eauto. }
        destruct C as [(z & I & C)|C]; [right; exists (tgt z); split; [now apply in_map | assumption]|]. left. apply free_lam. split; [assumption|]. eapply IH; eauto.
Qed.
Lemma refix_ok (look : id -> option rep) body : forall fuel zs Gc T, refix fuel (map fst zs) (map tgt zs) body = Some T ->
  NoDup (map fst zs) -> (forall z, In z zs -> is_lam (src z) = true /\ is_lam (tgt z) = true) ->
  (forall z y, In z zs -> In y (map fst zs) -> free_in y (src z) -> free_in y (tgt z)) ->
  (forall z G', In z zs -> (forall x p, assq x G' = Some p -> look x = Some p) -> (forall y, free_in y (src z) -> global_id y = false -> assq y G' = look y) -> FX G' [] (src z) (tgt z)) ->
  (forall x, look x = if memq x (map fst zs) then Some RLate else assq x Gc) -> (forall x, In x (map fst zs) -> assq x Gc = None) ->
  exists zs' G1, Permutation zs' zs /\ FW Gc zs' T body G1 /\ forall x, assq x G1 = look x.
Proof.
  induction fuel as [|fuel IH]; intros zs Gc T E ND La Fr Fx Lk New; [discriminate|]. cbn [refix] in E.
  set (kz := fun z : id * (exp * exp) => if free_of (map fst zs) (tgt z) then KS else KL) in *.
  assert (M : map2 (fun x e => mkbnd (if free_of (map fst zs) e then KS else KL) x e) (map fst zs) (map tgt zs) = map (fun z => mkbnd (kz z) (fst z) (tgt z)) zs).
  { unfold kz. generalize (map fst zs) at 1 3. intros l0. induction zs as [|z l IHl]; [reflexivity|]. clear - l. induction (z :: l); cbn; congruence. }
  rewrite M in E. clear M.
  assert (K : forall k, of_kind k (map (fun z => mkbnd (kz z) (fst z) (tgt z)) zs) = map (fun z => mkbnd (kz z) (fst z) (tgt z)) (filter (fun z => kind_eqb (kz z) k) zs)).
  { intros k. unfold of_kind. induction zs as [|z l IHl]; [reflexivity|]. clear - l. generalize (z :: l). intros l0. induction l0 as [|a l0 IHl]; [reflexivity|]. cbn. destruct (kind_eqb (kz a) k); cbn; now rewrite IHl. }
  rewrite !K in E. clear K. set (sz := filter (fun z => kind_eqb (kz z) KS) zs) in *. set (lz := filter (fun z => kind_eqb (kz z) KL) zs) in *.
  assert (Pm : Permutation (sz ++ lz) zs). { apply filter_split. intros z. unfold kz. destruct (free_of (map fst zs) (tgt z)); reflexivity. }
  destruct sz as [|s0 sz0] eqn:Es.
  - cbn [map] in E. cbn [app] in Pm. destruct lz as [|l0 lz0] eqn:El.
    + cbn [map] in E. injection E as <-. apply Permutation_nil in Pm. subst zs.
      exists [], Gc. split; [constructor|split; [constructor|]]. intros x. now rewrite Lk.
    + cbn [map] in E. destruct (all_lams (map tgt zs)) as [ls|] eqn:Al; [|discriminate]. injection E as <-. apply all_lams_eq in Al.
      assert (Lk2 : forall x, assq x (map (fun s => (fst s, RLate)) zs ++ Gc) = look x).
      { intros x. rewrite Lk, assq_app. clear. induction zs as [|z zs IH]; [reflexivity|]. cbn [map memq existsb]. fold (memq x (map fst zs)). rewrite assq_cons. destruct (id_eqb x (fst z)); [reflexivity|]. exact IH. }
      exists zs, (map (fun s => (fst s, RLate)) zs ++ Gc). split; [reflexivity|split; [|exact Lk2]]. apply fw_fix.
      * apply SIL_lams. intros z I. destruct (La z I). split; [assumption|split; [assumption|]]. apply Fx; [assumption | |]; intros; [now rewrite <- Lk2 | now rewrite Lk2].
      * assumption.
      * apply Forall_forall. intros z I. now apply La.
  - rewrite <- Es in *. assert (E' : match refix fuel (map b_id (map (fun z => mkbnd (kz z) (fst z) (tgt z)) lz)) (map b_exp (map (fun z => mkbnd (kz z) (fst z) (tgt z)) lz)) body with
      | Some b => Some (let_exp (map b_id (map (fun z => mkbnd (kz z) (fst z) (tgt z)) sz)) (map b_exp (map (fun z => mkbnd (kz z) (fst z) (tgt z)) sz)) b) | None => None end = Some T).
    { rewrite Es. rewrite Es in E. cbn [map] in E |- *. exact E. }
    clear E. rewrite !map_map in E'. cbn [b_id b_exp] in E'. change (map (fun x => tgt x) lz) with (map tgt lz) in E'. change (map (fun x => tgt x) sz) with (map tgt sz) in E'.
    change (map (fun x => fst x) lz) with (map fst lz) in E'. change (map (fun x => fst x) sz) with (map fst sz) in E'.
    destruct (refix fuel (map fst lz) (map tgt lz) body) as [T0|] eqn:R; [|discriminate]. injection E' as <-.
    assert (Is : forall z, In z sz -> In z zs /\ free_of (map fst zs) (tgt z) = true).
    { intros z I. unfold sz in I. apply filter_In in I. destruct I as (I & Q). split; [assumption|]. unfold kz in Q. destruct (free_of (map fst zs) (tgt z)); [reflexivity | discriminate]. }
    assert (Il : forall z, In z lz -> In z zs) by (intros z I; apply filter_In in I; apply I).
    assert (NDp : NoDup (map fst sz ++ map fst lz)). { rewrite <- map_app. eapply Permutation_NoDup; [|exact ND]. apply Permutation_map, Permutation_sym, Pm. }
    assert (Mem : forall x, memq x (map fst zs) = memq x (map fst sz) || memq x (map fst lz)).
    { intros x. apply eq_true_iff_eq. rewrite orb_true_iff, !memq_In, <- in_app_iff, <- map_app. split; apply Permutation_in, Permutation_map; [now apply Permutation_sym | assumption]. }
    destruct (IH lz (adds RLate (map fst sz) Gc) T0 R) as (zs' & G1 & Pm2 & F2 & A2).
    + now apply nodup_r in NDp.
    + intros z I. apply La. auto.
    + intros z y I J. apply Fr; [auto|]. apply memq_In. rewrite Mem. apply orb_true_iff. right. now apply memq_In.
    + intros z G' I. apply Fx. auto.
    + intros x. rewrite Lk, Mem, assq_adds. destruct (memq x (map fst sz)), (memq x (map fst lz)); reflexivity.
    + intros x I. rewrite assq_adds. assert (~ In x (map fst sz)). { intros J. eapply nodup_no; eauto. }
      apply memq_not_In in H. rewrite H. apply New. apply memq_In. rewrite Mem. apply orb_true_iff. right. now apply memq_In.
    + exists (sz ++ zs'), G1. split; [|split; [|assumption]].
        -- eapply perm_trans; [apply Permutation_app_head, Pm2 | exact Pm].
        -- apply fw_let; [|assumption]. apply SIL_lams. intros z I. destruct (Is z I) as (Iz & Fo). destruct (La z Iz). split; [assumption|split; [assumption|]]. apply Fx; [assumption | |].
           ++ intros x p Q. rewrite Lk. destruct (memq x (map fst zs)) eqn:Q2; [|assumption]. apply memq_In in Q2. rewrite (New x Q2) in Q. discriminate.
           ++ intros y F _. rewrite Lk. destruct (memq y (map fst zs)) eqn:Q2; [|reflexivity]. apply memq_In in Q2. apply free_of_spec with (y := y) in Fo; [|assumption]. destruct Fo. now apply Fr.
Qed.
(** ** letrec and letrec* *)
Definition rep_of (k : kind) : rep := match k with KU => RDead | KC => RCell | _ => RLate end.
Lemma same_bnd bs : NoDup (map b_id bs) -> forall b c, In b bs -> In c bs -> b_id b = b_id c -> b = c.
Proof.
  induction bs as [|a bs IH]; intros N b c I J E; [destruct I|]. cbn in N. inversion N as [|? ? Na Nb]; subst. destruct I as [<-|I], J as [<-|J]; auto.
  - destruct Na. rewrite E. now apply in_map.
  - destruct Na. rewrite <- E. now apply in_map.
Qed.
Lemma kind_mem bs b k : NoDup (map b_id bs) -> In b bs -> memq (b_id b) (map b_id (of_kind k bs)) = kind_eqb (b_kind b) k.
Proof.
  intros N I. apply eq_true_iff_eq. rewrite memq_In, in_map_iff. split.
  - intros (c & E & J). apply kind_In in J. destruct J as (J & K). rewrite (same_bnd _ N b c I J (eq_sym E)), K. destruct k; reflexivity.
  - intros K. exists b. split; [reflexivity|]. apply kind_In. split; [assumption|]. destruct (b_kind b), k; (discriminate || reflexivity).
Qed.
Lemma kind_out bs x k : ~ In x (map b_id bs) -> memq x (map b_id (of_kind k bs)) = false.
Proof. intros N. apply memq_not_In. intros I. apply N. apply in_map_iff in I. destruct I as (b & <- & I). apply kind_In in I. now apply in_map. Qed.
Definition zip (l : list bnd) (l' : list exp) : inits := map2 (fun b e' => (b_id b, (b_exp b, e'))) l l'.
Lemma zip_ok l : forall l', length l = length l' -> map fst (zip l l') = map b_id l /\ map tgt (zip l l') = l' /\ map due (zip l l') = map (fun b => (b_id b, b_exp b)) l.
Proof.
  unfold zip. induction l as [|b l IH]; intros [|e' l'] L; try discriminate; cbn [map2 map]; [auto|]. injection L as L. destruct (IH l' L) as (A & B & C). rewrite A, B, C. auto.
Qed.
Lemma zip_In l l' z (R : exp -> exp -> Prop) : Forall2 R (map b_exp l) l' -> In z (zip l l') -> exists b, In b l /\ fst z = b_id b /\ src z = b_exp b /\ R (b_exp b) (tgt z).
Proof.
  unfold zip. revert l'. induction l as [|b l IH]; intros l' F I; cbn [map2 map] in *; [destruct I|]. inversion F as [|? e' ? l2 A F2]; subst.
  destruct I as [<-|I]; [exists b; cbn; auto 6|]. destruct (IH _ F2 I) as (b0 & J & X). exists b0. split; [now right | assumption].
Qed.
Section Group.
Variables (f : nat) (m : Z) (ids : list id) (es : list exp) (b c : exp).
Notation all := (es ++ [b]).
Notation e := (EApp (ELam ids c) (voids ids)).
Notation bs := (classify_bindings ids es b).
Hypothesis Len : length ids = length es.
Hypothesis c_free : forall a x, In a all -> free_in x a -> free_in x c.
Hypothesis c_asg : forall a x, In a all -> assigned_in x a -> assigned_in x c.
Hypothesis c_from : forall x, free_in x c -> In x ids \/ exists a, In a all /\ free_in x a.
Hypothesis c_bind : forall a, In a all -> incl (binders a) (binders c).
Hypothesis Dist : distinct m e.
Hypothesis kc : forall d, In d bs -> b_kind d = KC -> asg (b_id d) = true.
Hypothesis ks : forall d, In d bs -> b_kind d = KS -> steady P asg ids (b_exp d).
Hypothesis Gets : forall a, In a all -> gets f m a.
(** the variables are there *)
Record there (m1 : Z) (G1 : ctx) (pl : plan) : Prop := mkthere {
  th_rep : forall d, In d bs -> assq (b_id d) G1 = Some (rep_of (b_kind d)) /\ global_id (b_id d) = false;
  th_plan : forall d, In d bs -> b_kind d = KS \/ b_kind d = KL -> In (b_id d, b_exp d) pl;
  th_all : forall a, In a all -> cov (fun x => assq x G1) a /\ apart G1 m1 a;
  th_new : (forall x, In x (binders c) -> assq x G1 = None) /\ forall x, m1 < ts x -> assq x G1 = None;
  th_ids : forall x, In x ids -> exists d, In d bs /\ b_id d = x }.
Lemma nodup_ids : NoDup ids.
Proof. destruct Dist as (N & _). cbn [binders] in N. apply nodup_l in N. now apply nodup_l in N. Qed.
Lemma ids_c x : In x ids -> ~ In x (binders c).
Proof. destruct Dist as (N & _). cbn [binders] in N. apply nodup_l in N. now apply nodup_no. Qed.
Lemma group_ok rest m1 e' m2 : m <= m1 -> bind_first (fixl f) bs rest m1 = Some (e', m2) ->
  (forall n2 r n3, m1 <= n2 -> rest n2 = Some (r, n3) -> n2 <= n3 /\
     (forall x, ts x <= m1 -> ~ In x ids -> (exists d, In d bs /\ (b_kind d = KC \/ b_kind d = KU) /\ free_in x (b_exp d)) \/ free_in x b -> free_in x r) /\
     forall G1 pl, there m1 G1 pl -> FX G1 pl c r) ->
  m1 <= m2 /\ good m1 e e'.
Proof.
  intros Lm E Rest. destruct (classify_all ids es b Len) as (Ei & Ee & Cl). pose proof nodup_ids as ND. pose proof Dist as (NDe & Rng).
  unfold bind_first in E. set (sb := of_kind KS bs) in *. set (cb := of_kind KC bs) in *. set (lb := of_kind KL bs) in *. set (ub := of_kind KU bs).
  assert (Ib : forall k d, In d (of_kind k bs) -> In d bs) by (intros k d I; apply kind_In in I; apply I).
  assert (Ia : forall d, In d bs -> In (b_exp d) all) by (intros d I; apply in_app_iff; left; rewrite <- Ee; now apply in_map).
  assert (Idn : forall d, In d bs -> In (b_id d) ids) by (intros d I; rewrite <- Ei; now apply in_map).
  destruct (each (fixl f) (map b_exp sb) m1) as [(ss & n1)|] eqn:Es; [|discriminate].
  destruct (each (fixl f) (map b_exp lb) n1) as [(ls & n2)|] eqn:El; [|discriminate]. destruct (rest n2) as [(r & n3)|] eqn:Er; [|discriminate].
  destruct (refix (S (length lb)) (map b_id lb) ls r) as [T|] eqn:Et; [|discriminate]. injection E as <- <-.
  assert (Gk : forall k a, In a (map b_exp (of_kind k bs)) -> gets f m a). { intros k a I. apply in_map_iff in I. destruct I as (d & <- & I). apply Gets, Ia. eapply Ib; eauto. }
  destruct (each_gets f m _ (Gk KS) m1 _ _ Lm Es) as (L1 & Gs). destruct (each_gets f m _ (Gk KL) n1 _ _ ltac:(lia) El) as (L2 & Gl).
  destruct (Rest n2 r n3 ltac:(lia) Er) as (L3 & Fr & Fx). split; [lia|]. clear Rest.
  destruct (zip_ok sb ss) as (S1 & S2 & S3); [rewrite <- (Forall2_len _ _ _ Gs); now rewrite map_length|].
  destruct (zip_ok lb ls) as (Z1 & Z2 & Z3); [rewrite <- (Forall2_len _ _ _ Gl); now rewrite map_length|].
  set (zs := zip lb ls) in *. set (sz := zip sb ss) in *.
  assert (Zs : forall z, In z zs -> exists d, In d bs /\ b_kind d = KL /\ fst z = b_id d /\ src z = b_exp d /\ good m1 (b_exp d) (tgt z)).
  { intros z I. destruct (zip_In _ _ _ _ Gl I) as (d & J & A & B & C). apply kind_In in J. destruct J as (J & K). exists d. split; [assumption|split; [assumption|split; [assumption|split; [assumption|]]]]. eapply good_le; [|exact C]. lia. }
  assert (Ss : forall z, In z sz -> exists d, In d bs /\ b_kind d = KS /\ fst z = b_id d /\ src z = b_exp d /\ good m1 (b_exp d) (tgt z)).
  { intros z I. destruct (zip_In _ _ _ _ Gs I) as (d & J & A & B & C). apply kind_In in J. destruct J as (J & K). eauto 7. }
  assert (NDi : NoDup (map b_id bs)) by now rewrite Ei.
  assert (GL : forall x, In x ids -> global_id x = false).
  { intros x I. assert (J : In x (binders e)) by (cbn [binders]; rewrite !in_app_iff; auto). apply Rng in J. unfold global_id. apply Z.ltb_ge. lia. }
  rewrite <- Z1, <- Z2 in Et.
  (* in a context for the whole *)
  assert (Main : forall G, cov (fun x => assq x G) e -> apart G m1 e ->
    let look := fun x => if memq x (map fst zs) then Some RLate else assq x (adds RCell (map b_id cb) (adds RLate (map b_id sb) (adds RDead (map b_id ub) G))) in
    (forall d, In d bs -> look (b_id d) = Some (rep_of (b_kind d))) /\ (forall x, ~ In x ids -> look x = assq x G) /\
    (forall a, In a all -> cov look a) /\ (forall x p, look x = Some p -> ~ In x (binders c) /\ ts x <= m1)).
  { intros G Cv (Ap1 & Ap2) look.
    assert (R1 : forall d, In d bs -> look (b_id d) = Some (rep_of (b_kind d))).
    { intros d I. unfold look. rewrite Z1, !assq_adds. unfold lb, cb, sb, ub. rewrite !kind_mem by assumption. destruct (b_kind d); reflexivity. }
    assert (R2 : forall x, ~ In x ids -> look x = assq x G).
    { intros x N. unfold look. rewrite Z1, !assq_adds. rewrite <- Ei in N. unfold lb, cb, sb, ub. now rewrite !kind_out by assumption. }
    split; [exact R1|split; [exact R2|split]].
    - intros a I x F GX. destruct (in_dec id_dec x ids) as [J|J].
      + rewrite <- Ei in J. apply in_map_iff in J. destruct J as (d & <- & J). rewrite (R1 d J). exists (rep_of (b_kind d)). split; [reflexivity|].
        destruct (Cl d J) as (K & _). destruct K as [K U|K U A Sm N|K A Il|K A|K U A Nl O]; rewrite K; cbn [rep_of].
        * destruct (U a I F).
        * split; [discriminate|split; [|reflexivity]]. intros As. destruct (A a I As).
        * split; [discriminate|split; [|reflexivity]]. intros As. destruct (A a I As).
        * split; [discriminate|split; [reflexivity|]]. rewrite (kc d J K). discriminate.
        * split; [discriminate|split; [reflexivity|]]. rewrite (kc d J K). discriminate.
      + rewrite (R2 x J). destruct (Cv x) as (p & A & B & C & D); [|assumption|].
        { apply free_app. left. apply free_lam. split; [assumption|]. eapply c_free; eauto. }
        exists p. split; [assumption|split; [assumption|split; [|assumption]]]. intros As. apply C. apply asg_app. left. apply asg_lam. split; [assumption|]. eapply c_asg; eauto.
    - intros x p Q. destruct (in_dec id_dec x ids) as [J|J].
      + split; [now apply ids_c|]. assert (K : In x (binders e)) by (cbn [binders]; rewrite !in_app_iff; auto). apply Rng in K. lia.
      + rewrite (R2 x J) in Q. split.
        * intros I. rewrite Ap1 in Q; [discriminate|]. cbn [binders]. rewrite !in_app_iff. auto.
        * destruct (Z_le_gt_dec (ts x) m1) as [X|X]; [assumption|]. rewrite Ap2 in Q; [discriminate | lia]. }
  (* procedures *)
  assert (Rf : forall G, cov (fun x => assq x G) e -> apart G m1 e -> let Gc := adds RCell (map b_id cb) (adds RLate (map b_id sb) (adds RDead (map b_id ub) G)) in
    let look := fun x => if memq x (map fst zs) then Some RLate else assq x Gc in
    exists zs' G1, Permutation zs' zs /\ FW Gc zs' T r G1 /\ forall x, assq x G1 = look x).
  { intros G Cv Ap Gc look. destruct (Main G Cv Ap) as (R1 & R2 & R3 & R4). fold Gc in R1, R2, R3, R4. fold look in R1, R2, R3, R4. eapply (refix_ok look).
    - exact Et.
    - rewrite Z1. unfold lb. eapply nodup_r. eapply nodup_r. eapply nodup_r. rewrite <- !map_app. eapply Permutation_NoDup; [apply Permutation_map, kinds_perm | exact NDi].
    - intros z I. destruct (Zs z I) as (d & J & K & _ & A2 & (_ & Sh & _)). destruct (Cl d J) as (Q & _).
      assert (Lm0 : is_lam (b_exp d) = true) by (destruct Q; congruence). rewrite A2. split; [assumption|]. destruct (b_exp d); try discriminate. destruct Sh as (b' & ->). reflexivity.
    - intros z y I J F. destruct (Zs z I) as (d & Jd & K & A1 & A2 & (A3 & _)). rewrite A2 in F. apply A3; [|assumption].
      rewrite Z1 in J. apply in_map_iff in J. destruct J as (d2 & <- & J). apply Ib, Idn in J. assert (Q : In (b_id d2) (binders e)) by (cbn [binders]; rewrite !in_app_iff; auto). apply Rng in Q. lia.
    - intros z G' I Sub Ag. destruct (Zs z I) as (d & Jd & K & A1 & A2 & (_ & _ & A3)). rewrite A2 in Ag |- *. apply A3.
      + intros x F GX. destruct (R3 _ (Ia d Jd) x F GX) as (p & X & Y). exists p. rewrite (Ag x F GX). auto.
      + split.
        * intros x J. destruct (assq x G') as [p|] eqn:Q; [|reflexivity]. apply Sub, R4 in Q. destruct Q as (Q & _). destruct Q. eapply c_bind; eauto.
        * intros x J. destruct (assq x G') as [p|] eqn:Q; [|reflexivity]. apply Sub, R4 in Q. lia.
    - intros x. reflexivity.
    - intros x I. rewrite Z1 in I. apply in_map_iff in I. destruct I as (d & <- & I). apply kind_In in I. destruct I as (I & K). unfold Gc. rewrite !assq_adds. unfold cb, sb, ub. rewrite !kind_mem, K by assumption. cbn [kind_eqb].
      destruct Ap as (Ap & _). apply Ap. cbn [binders]. rewrite !in_app_iff. auto. }
  assert (Fs : shape e (let_exp (map b_id sb ++ map b_id cb) (ss ++ map (fun _ => void_exp) cb) T)) by exact I.
  split; [|split; [exact Fs|]].
  - intros x Lx F. apply free_app in F. destruct F as [F|(a & I & F)].
    2: { unfold voids in I. apply in_map_iff in I. destruct I as (y & <- & _). apply free_prim in F. destruct F as (? & [] & _). }
    apply free_lam in F. destruct F as (N & F). destruct (c_from x F) as [J|(a & I & Fa)]; [contradiction|].
    assert (Nk : forall k, ~ In x (map b_id (of_kind k bs))). { intros k J. apply in_map_iff in J. destruct J as (d & <- & J). apply Ib, Idn in J. contradiction. }
    unfold let_exp. apply free_app.
    assert (C : (exists d, In d bs /\ a = b_exp d) \/ a = b). { apply in_app_iff in I. destruct I as [I|[<- | []]]; [left | now right]. rewrite <- Ee in I. apply in_map_iff in I. destruct I as (d & <- & I). eauto. }
    (* some context *)
    assert (Ft : (exists z, In z zs /\ free_in x (tgt z)) \/ free_in x r -> free_in x T).
    { intros H. eapply refix_free; [exact Et | rewrite Z1; apply Nk | exact H]. }
    destruct C as [(d & J & ->) | ->].
    + destruct (b_kind d) eqn:K.
      * left. apply free_lam. split; [rewrite in_app_iff; intros [Q|Q]; eapply Nk; eauto|]. apply Ft. right. apply Fr; auto. left. exists d. auto.
      * right. assert (Q : exists a, In a ss /\ free_in x a). { eapply good_frees; [exact Gs | assumption|]. exists (b_exp d). split; [apply in_map, kind_In; auto | assumption]. }
        destruct Q as (a & Q & Qa). exists a. split; [apply in_app_iff; now left | assumption].
      * left. apply free_lam. split; [rewrite in_app_iff; intros [Q|Q]; eapply Nk; eauto|]. apply Ft. left.
        assert (Q : exists a, In a ls /\ free_in x a). { eapply good_frees; [exact Gl | lia|]. exists (b_exp d). split; [apply in_map, kind_In; auto | assumption]. }
        destruct Q as (a & Q & Qa). rewrite <- Z2 in Q. apply in_map_iff in Q. destruct Q as (z & <- & Q). eauto.
      * left. apply free_lam. split; [rewrite in_app_iff; intros [Q|Q]; eapply Nk; eauto|]. apply Ft. right. apply Fr; auto. left. exists d. auto.
    + left. apply free_lam. split; [rewrite in_app_iff; intros [Q|Q]; eapply Nk; eauto|]. apply Ft. right. apply Fr; auto.
  - intros G pl Cv Ap. destruct (Main G Cv Ap) as (R1 & R2 & R3 & R4). destruct (Rf G Cv Ap) as (zs' & G1 & Pm & Fw & Lk).
    set (Gc := adds RCell (map b_id cb) (adds RLate (map b_id sb) (adds RDead (map b_id ub) G))) in *. set (look := fun x => if memq x (map fst zs) then Some RLate else assq x Gc) in *.
    change (forall d, In d bs -> look (b_id d) = Some (rep_of (b_kind d))) in R1. change (forall x, ~ In x ids -> look x = assq x G) in R2.
    change (forall x p, look x = Some p -> ~ In x (binders c) /\ ts x <= m1) in R4. change (forall x, assq x G1 = look x) in Lk.
    unfold let_exp. rewrite <- S1, <- S2. change (map (fun _ : bnd => void_exp) cb) with (voids cb). replace (voids cb) with (voids (map b_id cb)) by (unfold voids; now rewrite map_map).
    assert (Pids : Permutation (map b_id ub ++ map fst sz ++ map b_id cb ++ map fst zs') ids).
    { rewrite S1. rewrite <- Ei. eapply perm_trans; [|apply Permutation_map, Permutation_sym, kinds_perm]. rewrite !map_app. do 3 apply Permutation_app_head. fold lb. rewrite <- Z1. now apply Permutation_map. }
    eapply fx_group with (us := map b_id ub) (cs := map b_id cb) (lams := zs') (G1 := G1).
    + assumption.
    + eapply Permutation_NoDup; [apply Permutation_sym, Pids | assumption].
    + intros x. apply Permutation_in. exact Pids.
    + intros x I. split; [|auto]. destruct Ap as (Ap & _). apply Ap. cbn [binders]. rewrite !in_app_iff. auto.
    + (* simple values *)
      assert (Gen : forall l, incl l sz -> SIL (adds RDead (map b_id ub) G) l); [|apply Gen, incl_refl].
      assert (Gd : forall x, ~ In x ids -> assq x (adds RDead (map b_id ub) G) = assq x G). { intros x N. rewrite assq_adds. rewrite <- Ei in N. unfold ub. now rewrite kind_out. }
      induction l as [|(x & (e0 & e0')) l IHl]; intros In0; [constructor|]. assert (IHl' : SIL (adds RDead (map b_id ub) G) l) by (apply IHl; intros z Iz; apply In0; now right).
      destruct (Ss _ (In0 _ (or_introl eq_refl))) as (d & J & K & A1 & A2 & (_ & Sh & A3)). unfold src, tgt in *. cbn [fst snd] in *. subst e0.
      destruct (Cl d J) as (Q & _). destruct Q as [K'|K' U A Sm N|K'|K'|K']; try congruence. pose proof (ks d J K) as Sy.
      destruct (b_exp d) as [y| | |ef p l0| |xs0 b0| | |] eqn:Ed; inversion Sy; try subst l0.
      * cbn in Sh. subst e0'. apply sil_var; [assumption | | assumption]. rewrite Gd by assumption.
        destruct (R3 _ (Ia d J) y) as (p & X & _ & _ & Y); [rewrite Ed; apply free_var; reflexivity | assumption|]. assert (X' : assq y G = Some p) by (rewrite <- R2 by assumption; exact X). rewrite X'. f_equal. auto.
      * cbn in Sh. subst e0'. eapply sil_const; eauto.
      * destruct Sh as (b' & ->). apply sil_lam; [|assumption]. apply A3.
        -- intros y F GY. assert (Ny : ~ In y ids) by (intros Iy; exact (N y Iy F)). rewrite Gd by assumption. destruct (R3 _ (Ia d J) y) as (p & X & Y); [now rewrite Ed | assumption|].
           assert (X' : assq y G = Some p) by (rewrite <- R2 by assumption; exact X). rewrite Ed in Y. eauto.
        -- destruct Ap as (Ap1 & Ap2). split.
           ++ intros y I. assert (Iy : In y (binders c)) by (apply (c_bind _ (Ia d J)); rewrite Ed; exact I). rewrite Gd; [|intros Iy2; eapply ids_c; eauto]. apply Ap1. cbn [binders]. rewrite !in_app_iff. auto.
           ++ intros y I. destruct (in_dec id_dec y ids) as [Iy|Iy]; [|rewrite Gd by assumption; auto]. assert (Q : In y (binders e)) by (cbn [binders]; rewrite !in_app_iff; auto). apply Rng in Q. lia.
    + rewrite S1. exact Fw.
    + apply Fx. constructor.
      * intros d I. rewrite Lk. auto.
      * intros d I K. apply in_app_iff. rewrite S3. destruct K as [K|K].
        -- left. apply in_map_iff. exists d. split; [reflexivity|]. apply kind_In. auto.
        -- right. eapply Permutation_in; [apply Permutation_map, Permutation_sym, Pm|]. rewrite Z3. apply in_map_iff. exists d. split; [reflexivity|]. apply kind_In. auto.
      * intros a I. split; [intros x F GX; destruct (R3 a I x F GX) as (p & X & Y); exists p; rewrite Lk; auto|]. split.
        -- intros x J. rewrite Lk. destruct (look x) as [p|] eqn:Q; [|reflexivity]. apply R4 in Q. destruct Q as (Q & _). destruct Q. eapply c_bind; eauto.
        -- intros x J. rewrite Lk. destruct (look x) as [p|] eqn:Q; [|reflexivity]. apply R4 in Q. lia.
      * split; intros x J; rewrite Lk; (destruct (look x) as [p|] eqn:Q; [|reflexivity]); apply R4 in Q; [tauto | lia].
      * intros x I. rewrite <- Ei in I. apply in_map_iff in I. destruct I as (d & <- & I). eauto.
Qed.
Definition kcu (d : bnd) : bool := kind_eqb (b_kind d) KC || kind_eqb (b_kind d) KU.
Lemma in_order_ok m1 : m <= m1 -> forall l cl, incl l bs -> chain (map b_id l) (map b_exp l) b cl -> incl (binders cl) (binders c) ->
  forall n r n', m1 <= n -> in_order (fixl f) (filter kcu l) b n = Some (r, n') -> n <= n' /\
    (forall x, ts x <= m1 -> (exists d, In d l /\ (b_kind d = KC \/ b_kind d = KU) /\ free_in x (b_exp d)) \/ free_in x b -> free_in x r) /\
    forall G1 pl, there m1 G1 pl -> FX G1 pl cl r.
Proof.
  intros Lm. destruct (classify_all ids es b Len) as (Ei & Ee & Cl).
  assert (Ib : In b all) by (apply in_app_iff; right; now left).
  assert (Ia : forall d, In d bs -> In (b_exp d) all) by (intros d I; apply in_app_iff; left; rewrite <- Ee; now apply in_map).
  induction l as [|d l IH]; intros cl Il Ch Ibc n r n' Ln E; cbn [map] in Ch.
  - inversion Ch; subst. cbn [filter in_order] in E. destruct (Gets b Ib n r n' ltac:(lia) E) as (L & Fr & Sh & Fx). split; [assumption|split].
    + intros x Lx [(d & [] & _)|F]. apply Fr; [lia | assumption].
    + intros G1 pl Th. destruct (th_all _ _ _ Th b Ib) as (A & B). apply Fx; [assumption | eapply apart_le; eauto].
  - inversion Ch as [|x0 xs0 e0 es0 b0 dm cl0 Ch0 Nd]; subst. assert (Il0 : incl l bs) by (intros z Iz; apply Il; now right). assert (Id : In d bs) by (apply Il; now left).
    assert (Ibc0 : incl (binders cl0) (binders c)). { intros z Iz. apply Ibc. cbn [binders]. rewrite !in_app_iff. left. now right. }
    assert (Dm : In dm (binders c)). { apply Ibc. cbn [binders]. rewrite !in_app_iff. left. left. now left. }
    cbn [filter] in E. destruct (kcu d) eqn:K.
    + cbn [in_order] in E. destruct (fixl f (b_exp d) n) as [(e' & n1)|] eqn:X; [|discriminate]. destruct (in_order (fixl f) (filter kcu l) b n1) as [(r0 & n2)|] eqn:Y; [|discriminate].
      destruct (Gets _ (Ia d Id) n e' n1 ltac:(lia) X) as (L1 & Fr1 & Sh1 & Fx1). destruct (IH _ Il0 Ch0 Ibc0 n1 r0 n2 ltac:(lia) Y) as (L2 & Fr2 & Fx2). clear IH.
      unfold begin_exp in E. cbn [fresh] in E. injection E as <- <-. split; [lia|split].
      * intros x Lx F. apply free_app.
        assert (C : free_in x (b_exp d) \/ ((exists d, In d l /\ (b_kind d = KC \/ b_kind d = KU) /\ free_in x (b_exp d)) \/ free_in x b)).
        { destruct F as [(d0 & [<-|I] & Q & F)|F]; [now left | right; left; eauto | auto]. }
        destruct C as [C|C].
        -- right. eexists. split; [now left|]. assert (Fe : free_in x e') by (apply Fr1; [lia | assumption]). destruct (kind_eqb (b_kind d) KC); [apply free_set; now right | assumption].
        -- left. apply free_lam. split; [|now apply Fr2]. intros [<-|[]]. cbn in Lx. lia.
      * intros G1 pl Th. destruct (th_rep _ _ _ Th d Id) as (Rp & Gl). destruct (th_all _ _ _ Th _ (Ia d Id)) as (A & B). destruct (th_new _ _ _ Th) as (N1 & N2).
        assert (Fe : FX G1 pl (b_exp d) e') by (apply Fx1; [assumption | eapply apart_le; eauto]).
        apply fx_app.
        -- apply fx_dummy; [apply N1; assumption | apply N2; cbn; lia | now apply Fx2].
        -- apply fxl_cons; [|apply fxl_nil]. unfold kcu in K. destruct (b_kind d); try discriminate; cbn [kind_eqb rep_of] in *; [apply fx_dead | apply fx_set]; assumption.
    + destruct (IH _ Il0 Ch0 Ibc0 n r n' Ln E) as (L2 & Fr2 & Fx2). split; [assumption|split].
      * intros x Lx F. apply Fr2; [assumption|]. destruct F as [(d0 & [<-|I] & Q & F)|F]; [|left; eauto | auto]. unfold kcu in K. destruct Q as [Q|Q]; rewrite Q in K; discriminate.
      * intros G1 pl Th. destruct (th_new _ _ _ Th) as (N1 & N2). apply fx_late; [|exact (N1 dm Dm) | now apply Fx2]. apply (th_plan _ _ _ Th d Id). unfold kcu in K. destruct (b_kind d); try discriminate; auto.
Qed.
Lemma steady_SIL m1 G1 pl d e' l : m <= m1 -> there m1 G1 pl -> In d bs -> steady P asg ids (b_exp d) -> good m1 (b_exp d) e' -> SIL G1 l -> SIL G1 ((b_id d, (b_exp d, e')) :: l).
Proof.
  intros Lm Th I Sy (_ & Sh & Fx) Sl. destruct (classify_all ids es b Len) as (Ei & Ee & Cl).
  assert (Ia : In (b_exp d) all) by (apply in_app_iff; left; rewrite <- Ee; now apply in_map). destruct (th_all _ _ _ Th _ Ia) as (A & B).
  destruct (b_exp d) as [y| | |ef p l0| |xs0 b0| | |]; inversion Sy; try subst l0.
  - cbn in Sh. subst e'. apply sil_var; [assumption | | assumption]. destruct (A y) as (p & X & _ & _ & Y); [apply free_var; reflexivity | assumption|]. rewrite X. f_equal. auto.
  - cbn in Sh. subst e'. eapply sil_const; eauto.
  - destruct Sh as (b' & ->). apply sil_lam; [|assumption]. apply Fx; assumption.
Qed.
Lemma stores_sets (G1 : ctx) xs tmps l : stores void_exp xs tmps l -> NoDup (tmps ++ binders l) -> (forall x, In x (binders l) -> assq x G1 = None) -> sets (fun d => assq d G1 = None) xs tmps l.
Proof.
  induction 1 as [|x xs t ts d l0 S0 IH Nd]; intros N H; [constructor|]. cbn [binders flat_map] in *. rewrite app_nil_r in *.
  cbn [app] in *. inversion N as [|? ? N1 N2]; subst. constructor.
  - apply H. now left.
  - intros I. eapply nodup_no; [exact N2 | exact I | now left].
  - apply IH; [|intros z I; apply H; now right]. apply NoDup_remove_1 in N2. assumption.
Qed.
Lemma begins_ok m1 : forall us s n r n', m1 <= n -> begins us s n = (r, n') -> n <= n' /\
  (forall x, ts x <= m1 -> (exists a, In a us /\ free_in x a) \/ free_in x s -> free_in x r) /\
  forall G1 pl e0, (forall u', In u' us -> exists x u, SIL G1 [(x, (u, u'))]) -> (forall x, m1 < ts x -> assq x G1 = None) -> FX G1 pl e0 s -> FX G1 pl e0 r.
Proof.
  induction us as [|u us IH]; intros s n r n' L E; cbn [begins] in E.
  - injection E as <- <-. split; [lia|split]; [|auto]. intros x _ [(a & [] & _)|F]. assumption.
  - destruct (begins us s n) as (r0 & n1) eqn:Eb. destruct (IH s n r0 n1 L Eb) as (L1 & Fr & Fx). unfold begin_exp in E. cbn [fresh] in E. injection E as <- <-. split; [lia|split].
    + intros x Lx F. apply free_app. assert (C : free_in x u \/ ((exists a, In a us /\ free_in x a) \/ free_in x s)). { destruct F as [(a & [<-|I] & F)|F]; eauto 6. }
      destruct C as [C|C]; [right; exists u; split; [now left | assumption]|]. left. apply free_lam. split; [|auto]. intros [<-|[]]. cbn in Lx. lia.
    + intros G1 pl e0 Hs N H. destruct (Hs u (or_introl eq_refl)) as (x & u0 & Q). eapply fx_skip; [exact Q | apply N; cbn; lia|]. apply Fx; auto. intros u' I. apply Hs. now right.
Qed.
Lemma letrec_rest_ok m1 : m <= m1 -> stored void_exp ids es b c -> (forall d, In d bs -> b_kind d <> KC) -> (forall d, In d bs -> steady P asg ids (b_exp d)) ->
  forall n r n', m1 <= n -> letrec_rest (fixl f) (of_kind KC bs) (of_kind KU bs) b n = Some (r, n') -> n <= n' /\
    (forall x, ts x <= m1 -> (exists d, In d bs /\ (b_kind d = KC \/ b_kind d = KU) /\ free_in x (b_exp d)) \/ free_in x b -> free_in x r) /\
    forall G1 pl, there m1 G1 pl -> FX G1 pl c r.
Proof.
  intros Lm St NC Sy n r n' Ln E. destruct (classify_all ids es b Len) as (Ei & Ee & Cl).
  assert (Ib : In b all) by (apply in_app_iff; right; now left).
  assert (Ia : forall d, In d bs -> In (b_exp d) all) by (intros d I; apply in_app_iff; left; rewrite <- Ee; now apply in_map).
  assert (Ec : of_kind KC bs = []). { destruct (of_kind KC bs) as [|d l] eqn:Q; [reflexivity|]. assert (I : In d (of_kind KC bs)) by (rewrite Q; now left). apply kind_In in I. destruct I as (I & K). destruct (NC d I K). }
  unfold letrec_rest in E. rewrite Ec in E. destruct (fixl f b n) as [(s & n1)|] eqn:X; [|discriminate].
  destruct (each (fixl f) (map b_exp (of_kind KU bs)) n1) as [(us & n2)|] eqn:Y; [|discriminate]. injection E as E.
  destruct (Gets b Ib n s n1 ltac:(lia) X) as (L1 & Fr1 & _ & Fx1).
  assert (Gk : forall a, In a (map b_exp (of_kind KU bs)) -> gets f m a). { intros a I. apply in_map_iff in I. destruct I as (d & <- & I). apply Gets, Ia. apply kind_In in I. apply I. }
  destruct (each_gets f m _ Gk n1 _ _ ltac:(lia) Y) as (L2 & Gu).
  assert (Gu1 : Forall2 (good m1) (map b_exp (of_kind KU bs)) us). { clear - Gu Ln L1. induction Gu; constructor; auto. eapply good_le; [|eassumption]. lia. }
  destruct (begins_ok m1 us s n2 r n' ltac:(lia) E) as (L3 & Fr3 & Fx3). split; [lia|split].
  - intros x Lx F. apply Fr3; [assumption|]. destruct F as [(d & I & K & F)|F]; [|right; apply Fr1; [lia | assumption]]. left. eapply good_frees; [exact Gu1 | assumption|].
    exists (b_exp d). split; [apply in_map, kind_In; split; [assumption|] | assumption]. destruct K as [K|K]; [destruct (NC d I K) | assumption].
  - intros G1 pl Th. destruct (th_new _ _ _ Th) as (N1 & N2).
    set (vs := zip (of_kind KU bs) us).
    assert (Lz : length (of_kind KU bs) = length us) by (rewrite <- (Forall2_len _ _ _ Gu1); now rewrite map_length). destruct (zip_ok _ _ Lz) as (Z1 & Z2 & Z3).
    assert (Sv : forall l l', Forall2 (good m1) (map b_exp l) l' -> (forall d, In d l -> In d bs) -> SIL G1 (zip l l') /\ forall u', In u' l' -> exists x u, SIL G1 [(x, (u, u'))]).
    { induction l as [|d l IHl]; intros l' F H; inversion F as [|? u' ? l2 A F2]; subst; [split; [apply sil_nil | intros ? []]|]. destruct (IHl l2 F2 (fun z Iz => H z (or_intror Iz))) as (B1 & B2). assert (Id : In d bs) by (apply H; now left). split.
      - unfold zip. cbn [map2]. eapply steady_SIL; eauto.
      - intros u [<-|I]; [|auto]. exists (b_id d), (b_exp d). eapply steady_SIL; eauto. apply sil_nil. }
    destruct (Sv _ _ Gu1 (fun d I => proj1 (proj1 (kind_In _ _ _) I))) as (Sv1 & Sv2). apply Fx3; [exact Sv2 | exact N2|].
    destruct (th_all _ _ _ Th b Ib) as (A & B). assert (Fb : FX G1 pl b s) by (apply Fx1; [assumption | eapply apart_le; [|exact B]; lia]).
    destruct Dist as (ND & Rng). inversion St as [tmps l d Sto Nd Ec0]. rewrite <- Ec0 in ND, N1, Rng. cbn [binders flat_map] in ND, N1, Rng. rewrite !app_nil_r in ND, N1, Rng.
    eapply fx_inits with (vs := vs); [|exact Sv1 | apply stores_sets | | | |]; [| exact Sto | | | | | | exact Fb].
    + assert (Gen : forall l, incl l bs -> Forall2 (fun x e => In (x, e) pl \/ global_id x = false /\ assq x G1 = Some RDead /\ exists e', In (x, (e, e')) vs) (map b_id l) (map b_exp l));
      [|specialize (Gen bs (incl_refl _)); rewrite Ei, Ee in Gen; exact Gen].
      clear - Th Lz NC. induction l as [|d l IHl]; intros H; cbn [map]; constructor; [|apply IHl; intros z Iz; apply H; now right].
      assert (Id : In d bs) by (apply H; now left). destruct (b_kind d) eqn:K.
      * right. destruct (th_rep _ _ _ Th d Id) as (R & Gl). rewrite K in R. split; [assumption|split; [exact R|]].
        assert (Iz : In d (of_kind KU bs)) by (apply kind_In; auto). unfold vs. clear - Iz Lz. revert us Lz. induction (of_kind KU bs) as [|d0 l0 IH]; [destruct Iz|]. intros [|u us] Lz; [discriminate|]. unfold zip. cbn [map2].
        destruct Iz as [->|Iz]; [exists u; now left|]. injection Lz as Lz. destruct (IH Iz us Lz) as (e' & Q). exists e'. now right.
      * left. apply (th_plan _ _ _ Th d Id). auto.
      * left. apply (th_plan _ _ _ Th d Id). auto.
      * destruct (NC d Id K).
    + apply nodup_l in ND. apply nodup_r in ND. cbn [app] in ND. inversion ND as [|? ? _ ND1]; subst. apply nodup_r in ND1. now apply nodup_l in ND1.
    + intros x I. apply N1. rewrite !in_app_iff. auto 8.
    + apply nodup_l in ND. apply nodup_r in ND. cbn [app] in ND. inversion ND as [|? ? _ ND1]; subst. apply nodup_r in ND1. apply nodup_l in ND1. now apply nodup_l in ND1.
    + intros t I. split; [apply N1; rewrite !in_app_iff; auto 8|]. assert (J := Rng t). rewrite !in_app_iff in J. assert (Q : 0 <= ts t <= m) by (apply J; auto 12). unfold global_id. apply Z.ltb_ge. lia.
    + apply N1. rewrite !in_app_iff. left. left. now left.
Qed.
End Group.

(** ** What is asked of the bindings *)
Section Kinds.
Variables (ids : list id) (es : list exp) (b : exp).
Notation bs := (classify_bindings ids es b).
Hypothesis Len : length ids = length es.
Lemma steady_simple e : steady P asg ids e -> is_lam e = false -> fl_simple e = true /\ forall y, In y ids -> ~ free_in y e.
Proof.
  intros [xs e0|y G A N|ef p c R M] L; [discriminate| |]; cbn [fl_simple forallb].
  - split; [reflexivity|]. intros z I F. apply free_var in F. subst. contradiction.
  - rewrite R. split; [reflexivity|]. intros y I F. apply free_prim in F. destruct F as (? & [] & _).
Qed.
Lemma orderly_kinds : (forall i y e, nth_error ids i = Some y -> nth_error es i = Some e -> orderly P asg ids es b y e) ->
  (forall d, In d bs -> b_kind d = KC -> asg (b_id d) = true) /\ (forall d, In d bs -> b_kind d = KS -> steady P asg ids (b_exp d)).
Proof.
  intros O. destruct (classify_all ids es b Len) as (Ei & Ee & Cl). split; intros d I K; destruct (Cl d I) as (C & i & Ni & Ne); destruct (O _ _ _ Ni Ne) as (O1 & O2).
  - destruct C as [K'|K'|K'|K' (a & Ia & A)|K' (a & Ia & U) NA NL D]; try congruence; [eauto|].
    destruct O2 as [O2|[O2|[(a0 & Ia0 & A)|(O2 & _)]]]; [|destruct (O2 a Ia U) | destruct (NA a0 Ia0 A) | assumption].
    destruct (steady_simple _ O2 NL) as (S1 & S2). destruct D as [D|(y & Iy & F)]; [congruence | destruct (S2 y Iy F)].
  - destruct C as [K'|K' (a & Ia & U) NA S N|K'|K'|K']; try congruence.
    destruct O2 as [O2|[O2|[(a0 & Ia0 & A)|(_ & _ & [O2|(y & Iy & F)])]]]; [assumption | destruct (O2 a Ia U) | destruct (NA a0 Ia0 A) | | destruct (N y Iy F)].
    destruct O2. eapply simple_simple; [reflexivity | assumption].
Qed.
Lemma quiet_kinds : (forall i y e, nth_error ids i = Some y -> nth_error es i = Some e -> quiet P asg ids es b y e) ->
  (forall d, In d bs -> b_kind d <> KC) /\ (forall d, In d bs -> steady P asg ids (b_exp d)).
Proof.
  intros Q. destruct (classify_all ids es b Len) as (Ei & Ee & Cl). split; intros d I; destruct (Cl d I) as (C & i & Ni & Ne); destruct (Q _ _ _ Ni Ne) as (Q1 & Q2); [|assumption].
  intros K. destruct C as [K'|K'|K'|K' (a & Ia & A)|K' U NA NL D]; try congruence; [exact (Q2 a Ia A)|].
  destruct (steady_simple _ Q1 NL) as (S1 & S2). destruct D as [D|(y & Iy & F)]; [congruence | exact (S2 y Iy F)].
Qed.
End Kinds.

(** ** Every expression *)
Lemma cov_under look look' ys e a : In (ys, a) (parts e) -> (forall x, ~ In x ys -> look' x = look x) -> 
  (forall x, In x ys -> exists p, look' x = Some p /\ p <> RDead /\ (assigned_in x a -> p = RCell) /\ (asg x = false -> p = RLate)) -> cov look e -> cov look' a.
Proof.
  intros I A B C x F GX. destruct (in_dec id_dec x ys) as [J|J]; [auto|]. rewrite (A x J). destruct (C x (free_part _ _ _ _ I J F) GX) as (p & X & Y & Z & W).
  exists p. split; [assumption|split; [assumption|split; [|assumption]]]. intros As. apply Z. eapply asg_part; eauto.
Qed.
Definition mode (x : id) : rep := if asg x then RCell else RLate.
Lemma each3 f a b c n r : each f [a; b; c] n = r -> forall l n', r = Some (l, n') -> exists a' b' c', l = [a'; b'; c'].
Proof.
  intros <- l n' E. cbn [each] in E. destruct (f a n) as [(a' & n1)|]; [|discriminate]. destruct (f b n1) as [(b' & n2)|]; [|discriminate]. destruct (f c n2) as [(c' & n3)|]; [|discriminate].
  injection E as <- <-. eauto.
Qed.
Lemma gets_set f m x e : gets f m e -> gets (S f) m (ESet x e).
Proof.
  intros H m1 e' m2 L E. cbn [fixl] in E. destruct (fixl f e m1) as [(e1 & m3)|] eqn:X; [|discriminate]. injection E as <- <-. destruct (H _ _ _ L X) as (L1 & Fr & _ & Fx). split; [assumption|].
  split; [|split; [exact I|]].
  - intros y Ly F. apply free_set in F. apply free_set. destruct F as [->|F]; auto.
  - intros G pl C A. assert (Fe : FX G pl e e1). { apply Fx; [eapply cov_part; [|exact C]; now left | eapply apart_part; [|exact A]; now left]. }
    destruct (global_id x) eqn:GX; [now apply fx_gset|]. destruct (C x) as (p & X1 & _ & X2 & _); [apply free_set; now left | assumption|].
    apply fx_set; [assumption | | assumption]. rewrite X1. f_equal. apply X2. apply asg_set. now left.
Qed.
Lemma gets_lam f m xs b : (forall x, In x xs -> assigned_in x b -> asg x = true) -> distinct m (ELam xs b) -> gets f m b ->
  forall m1 b' m2, m <= m1 -> fixl f b m1 = Some (b', m2) -> m1 <= m2 /\ good m1 (ELam xs b) (ELam xs b').
Proof.
  intros Ha (ND & Rng) H m1 b' m2 L E. destruct (H _ _ _ L E) as (L1 & Fr & _ & Fx). split; [assumption|]. split; [|split; [exists b'; reflexivity|]].
  - intros y Ly F. apply free_lam in F. destruct F as (N & F). apply free_lam. auto.
  - intros G pl C (A1 & A2). cbn [binders] in ND, Rng, A1. apply fx_lam with (ps := map mode xs).
    + apply map_length.
    + intros p I. apply in_map_iff in I. destruct I as (x & <- & _). unfold mode. destruct (asg x); discriminate.
    + apply Fx.
      * eapply cov_under with (ys := xs) (e := ELam xs b); [now left | | |exact C].
        -- intros x N. apply assq_pctx; [apply map_length | assumption].
        -- intros x I. exists (mode x). rewrite assq_pctx_in by assumption. split; [reflexivity|]. unfold mode. specialize (Ha x I). destruct (asg x); (split; [discriminate|]); split; auto; try discriminate.
           intros As. discriminate (Ha As).
      * split; intros x I.
        -- rewrite assq_pctx; [|apply map_length | intros J; eapply nodup_no; eauto]. apply A1. apply in_app_iff. now right.
        -- destruct (in_dec id_dec x xs) as [J|J]; [assert (Q : In x (xs ++ binders b)) by (apply in_app_iff; now left); apply Rng in Q; lia|]. rewrite assq_pctx; [auto | apply map_length | assumption].
Qed.
Lemma gets_letcc f m x b : (assigned_in x b -> asg x = true) -> distinct m (ELetcc x b) -> gets f m b -> 
  forall m1 b' m2, m <= m1 -> fixl f b m1 = Some (b', m2) -> m1 <= m2 /\ good m1 (ELetcc x b) (ELetcc x b').
Proof.
  intros Ha (ND & Rng) H m1 b' m2 L E. destruct (H _ _ _ L E) as (L1 & Fr & _ & Fx). split; [assumption|]. split; [|split; [exact I|]].
  - intros y Ly F. apply free_letcc in F. destruct F as (N & F). apply free_letcc. auto.
  - intros G pl C (A1 & A2). cbn [binders] in ND, Rng, A1. inversion ND as [|? ? N1 N2]; subst. apply fx_letcc with (p := mode x).
    + unfold mode. destruct (asg x); discriminate.
    + apply Fx.
      * eapply cov_under with (ys := [x]) (e := ELetcc x b); [now left | | |exact C].
        -- intros y N. rewrite assq_cons. destruct (id_eqb y x) eqn:E2; [|reflexivity]. apply id_eqb_eq in E2. subst. destruct N. now left.
        -- intros y [<-|[]]. exists (mode x). rewrite assq_cons, id_eqb_refl. split; [reflexivity|]. unfold mode. destruct (asg x); (split; [discriminate|]); split; auto; try discriminate.
           intros As. discriminate (Ha As).
      * split; intros y I; rewrite assq_cons; destruct (id_eqb y x) eqn:E2.
        -- apply id_eqb_eq in E2. subst. contradiction.
        -- apply A1. now right.
        -- apply id_eqb_eq in E2. subst. specialize (Rng x (or_introl eq_refl)). lia.
        -- auto.
Qed.
Lemma rands_good f m e l : (forall a, In a l -> In ([], a) (parts e)) -> (forall a, In a l -> gets f m a) -> forall m1 l' m2, m <= m1 -> each (fixl f) l m1 = Some (l', m2) ->
  m1 <= m2 /\ (forall x, ts x <= m1 -> (exists a, In a l /\ free_in x a) -> exists a, In a l' /\ free_in x a) /\ forall G pl, cov (fun x => assq x G) e -> apart G m1 e -> FXL G pl l l'.
Proof.
  intros Hp Hg m1 l' m2 L E. destruct (each_gets f m l Hg m1 l' m2 L E) as (L1 & F). split; [assumption|split; [intros x Lx; now apply (good_frees m1)|]].
  intros G pl C A. eapply good_FXL; [exact F|]. intros a I. split; [eapply cov_part; eauto | eapply apart_part; eauto].
Qed.
Lemma gets_app f m g l : (forall a, In a (g :: l) -> gets f m a) -> forall m1 e' m2, m <= m1 ->
  match each (fixl f) (g :: l) m1 with Some (g' :: l', n1) => Some (EApp g' l', n1) | _ => None end = Some (e', m2) -> m1 <= m2 /\ good m1 (EApp g l) e'.
Proof.
  intros H m1 e' m2 L E. destruct (each (fixl f) (g :: l) m1) as [([|g' l'] & n1)|] eqn:X; try discriminate. injection E as <- <-.
  destruct (rands_good f m (EApp g l) (g :: l)) with (4 := X) as (L1 & Fr & Fx); [intros a [<-|I]; [now left | right; now apply in_map] | assumption | assumption|]. split; [assumption|].
  destruct (each_gets f m _ H _ _ _ L X) as (_ & F2). inversion F2 as [|? ? ? ? (Fg & _) Fl]; subst. split; [|split; [exact I|]].
  - intros x Lx F. apply free_app in F. apply free_app. destruct F as [F|F]; [left; auto|]. right. eapply good_frees; eauto.
  - intros G pl C A. specialize (Fx G pl C A). inversion Fx; subst. now apply fx_app.
Qed.
Theorem fixl_ok : forall f e m, settled e -> distinct m e -> gets f m e.
Proof.
  induction f as [|f IH]; intros e m S D; [intros m1 e' m2 _ E; discriminate|].
  assert (IHp : forall ys a, In (ys, a) (parts e) -> settled a -> gets f m a) by (intros ys a I Sa; apply IH; [assumption | eapply distinct_part; eauto]).
  destruct e as [x|x e|a b c|ef p l|g l|xs b|xs ls b|x b|k e].
  - intros m1 e' m2 L E. cbn [fixl] in E. injection E as <- <-. split; [lia|]. split; [auto|split; [reflexivity|]]. intros G pl C A. destruct (global_id x) eqn:GX; [now apply fx_gvar|].
    destruct (C x) as (p & X1 & X2 & _); [now apply free_var | assumption|]. eapply fx_var; eauto.
  - inversion S; subst. apply gets_set. apply (IHp []); [now left | assumption].
  - inversion S; subst. intros m1 e' m2 L E. cbn [fixl] in E. destruct (each (fixl f) [a; b; c] m1) as [(l & n1)|] eqn:X; [|discriminate]. destruct (each3 _ _ _ _ _ _ X _ _ eq_refl) as (a' & b' & c' & ->).
    injection E as <- <-. destruct (rands_good f m (EIf a b c) [a; b; c]) with (4 := X) as (L1 & Fr & Fx); [cbn; intros z [<-|[<-|[<-|[]]]]; auto | intros z [<-|[<-|[<-|[]]]]; apply (IHp []); cbn; auto | assumption|].
    split; [assumption|]. split; [|split; [exact I|]].
    + intros x Lx F. destruct (Fr x Lx) as (z & J & Fz); [apply free_if in F; cbn; destruct F as [F|[F|F]]; eauto 8|]. apply free_if. destruct J as [<-|[<-|[<-|[]]]]; auto.
    + intros G pl C A. specialize (Fx G pl C A). inversion Fx as [|? ? ? ? ? ? F1 F2]; subst. inversion F2 as [|? ? ? ? ? ? F3 F4]; subst. inversion F4; subst. now apply fx_if.
  - inversion S; subst. intros m1 e' m2 L E. cbn [fixl degenerate_let letrec_view letrecs_view let_view] in E. destruct (each (fixl f) l m1) as [(l' & n1)|] eqn:X; [|discriminate]. injection E as <- <-.
    destruct (rands_good f m (EPrim ef p l) l) with (4 := X) as (L1 & Fr & Fx); [intros a I; now apply in_map | intros a I; apply (IHp []); [now apply in_map | auto] | assumption|].
    split; [assumption|]. split; [|split].
    + intros x Lx F. apply free_prim in F. apply free_prim. auto.
    + destruct l as [|a l]; [|exact I]. cbn [each] in X. injection X as <- <-. reflexivity.
    + intros G pl C A. apply fx_prim. auto.
  - (* applications *)
    assert (App : settled g -> (forall a, In a l -> settled a) -> forall a, In a (g :: l) -> gets f m a).
    { intros Sg Sl a [<-|I]; [apply (IHp []); [now left | assumption] | apply (IHp []); [right; now apply in_map | auto]]. }
    intros m1 e' m2 L E. cbn [fixl] in E. destruct (degenerate_let (EApp g l)) as [b0|] eqn:Dg.
    + assert (Sd : settled g /\ forall a, In a l -> settled a).
      { inversion S as [| | | | | | |g0 l0 _ Sg Sl|x ids es b1 c Ch|x ids es b1 c Ch]; subst; [auto| |]; exfalso; cbn [map] in Dg.
        - destruct ids as [|y ids]; [|discriminate]. inversion Ch; subst. discriminate.
        - destruct ids as [|y ids]; [|discriminate]. inversion Ch; subst. discriminate. }
      destruct Sd as (Sg & Sl). destruct g as [| | | | |xs b| | |]; try discriminate. cbn [degenerate_let] in Dg. destruct xs as [|x [|x2 xs]].
      * destruct l as [|? ?]; [|destruct b; discriminate]. injection Dg as <-. inversion Sg; subst.
        assert (Hb : gets f m b). { apply IH; [assumption|]. eapply distinct_part with (e := ELam [] b); [now left|]. eapply distinct_part; [|exact D]. now left. }
        destruct (Hb _ _ _ L E) as (L1 & Fr & _ & Fx). split; [assumption|]. split; [|split; [exact I|]].
        -- intros x Lx F. apply Fr; [assumption|]. apply free_app in F. destruct F as [F|(? & [] & _)]. apply free_lam in F. apply F.
        -- intros G pl C A. apply fx_null. apply Fx.
           ++ eapply cov_part with (e := ELam [] b); [now left|]. eapply cov_part; [|exact C]. now left.
           ++ eapply apart_part with (e := ELam [] b); [now left|]. eapply apart_part; [|exact A]. now left.
      * destruct b as [y| | | | | | | |]; try (destruct l; discriminate). destruct l as [|a [|? ?]]; try discriminate. destruct (id_eqb x y) eqn:Q; [|discriminate]. apply id_eqb_eq in Q. subst y. injection Dg as <-.
        destruct (App Sg Sl a (or_intror (or_introl eq_refl)) _ _ _ L E) as (L1 & Fr & _ & Fx). split; [assumption|]. split; [|split; [exact I|]].
        -- intros y Ly F. apply Fr; [assumption|]. apply free_app in F. destruct F as [F|(? & [<-|[]] & F)]; [|assumption]. apply free_lam in F. destruct F as (N & F). apply free_var in F. subst. destruct N. now left.
        -- intros G pl C A. apply fx_ident.
           ++ destruct D as (_ & Rng). specialize (Rng x ltac:(cbn; now left)). unfold global_id. apply Z.ltb_ge. lia.
           ++ apply Fx; [eapply cov_part; [|exact C]; right; now left | eapply apart_part; [|exact A]; right; now left].
      * destruct b; discriminate.
    + destruct (letrec_view (EApp g l)) as [[((ids & es) & b)|]|] eqn:Lv; [| |discriminate].
      * destruct (letrec_view_sound _ _ _ _ Lv) as (c & rands & z & [= -> ->] & Ni & Lr & Pr & Pz & St).
        inversion S as [| | | | | | |g0 l0 Nr Sg Sl|x ids0 es0 b1 c0 Ch|x ids0 es0 b1 c0 Ch Q Ln Se Sb]; subst.
        -- exfalso. apply (Nr ids c eq_refl); [destruct rands; [destruct ids; [congruence | discriminate] | discriminate] | assumption|]. exists es, b. right. eauto.
        -- discriminate (eq_trans (eq_sym (letrec_view_chain _ _ _ _ _ Ch ltac:(discriminate))) Lv).
        -- assert (Lv2 := eq_trans (eq_sym (letrec_view_complete _ _ _ _ _ Ch Ln (proj1 D))) Lv). injection Lv2 as <- <-.
           assert (Len : length (x :: ids0) = length es0) by auto. destruct (quiet_kinds _ _ _ Len Q) as (NC & Sy).
           assert (Hg : forall a, In a (es0 ++ [b1]) -> gets f m a).
           { intros a I. apply IH; [apply in_app_iff in I; destruct I as [I|[<-|[]]]; auto|]. destruct (stored_binders _ _ _ _ _ Ch a I) as (B1 & B2). 
             assert (Dc : distinct m c). { eapply distinct_part with (e := ELam (x :: ids0) c); [now left|]. eapply distinct_part; [|exact D]. now left. } destruct Dc as (Dc1 & Dc2). split; auto. }
           eapply (group_ok f m (x :: ids0) es0 b1 c Len); [eapply stored_free; eauto | eapply stored_asg; eauto | eapply stored_from; eauto | intros a I; apply (stored_binders _ _ _ _ _ Ch a I) | exact D | intros d I K; destruct (NC d I K) | intros d I _; auto | exact Hg | exact L | exact E|].
           intros n2 r n3 Ln2 Er. edestruct letrec_rest_ok as (R1 & R2 & R3); [exact Len | eapply stored_free; eauto | eapply stored_asg; eauto | eapply stored_from; eauto | intros a I; apply (stored_binders _ _ _ _ _ Ch a I) | exact D | exact Hg | exact L | exact Ch | exact NC | exact Sy | exact Ln2 | exact Er|]. split; [assumption|split; [|exact R3]]. intros y Ly _. now apply R2.
      * destruct (letrecs_view (EApp g l)) as [((ids & es) & b)|] eqn:Ls.
        -- destruct (letrecs_view_sound _ _ _ _ Ls) as (c & rands & [= -> ->] & Ni & Lr & Pr & St).
           inversion S as [| | | | | | |g0 l0 Nr Sg Sl|x ids0 es0 b1 c0 Ch O Se Sb|x ids0 es0 b1 c0 Ch Q Ln Se Sb]; subst.
           ++ exfalso. apply (Nr ids c eq_refl); [destruct rands; [destruct ids; [congruence | discriminate] | discriminate] | assumption|]. exists es, b. now left.
           ++ assert (Ls2 := eq_trans (eq_sym (letrecs_view_complete _ _ _ _ _ Ch)) Ls). injection Ls2 as <- <-. assert (Len : length (x :: ids0) = length es0) by (eapply chain_len; eauto).
              destruct (orderly_kinds _ _ _ Len O) as (KC1 & KS1).
              assert (Hg : forall a, In a (es0 ++ [b1]) -> gets f m a).
              { intros a I. apply IH; [apply in_app_iff in I; destruct I as [I|[<-|[]]]; auto|]. destruct (chain_binders _ _ _ _ Ch a I) as (B1 & B2). 
                assert (Dc : distinct m c). { eapply distinct_part with (e := ELam (x :: ids0) c); [now left|]. eapply distinct_part; [|exact D]. now left. } destruct Dc as (Dc1 & Dc2). split; auto. }
              eapply (group_ok f m (x :: ids0) es0 b1 c Len); [eapply chain_free; eauto | eapply chain_asg; eauto | eapply chain_from; eauto | intros a I; apply (chain_binders _ _ _ _ Ch a I) | exact D | exact KC1 | exact KS1 | exact Hg | exact L | exact E|].
              destruct (classify_all _ _ b1 Len) as (Ei & Ee & _).
              intros n2 r n3 Ln2 Er. edestruct in_order_ok as (R1 & R2 & R3); [exact Len | eapply chain_free; eauto | eapply chain_asg; eauto | eapply chain_from; eauto | intros a I; apply (chain_binders _ _ _ _ Ch a I) | exact KC1 | exact KS1 | exact Hg | exact L | apply incl_refl | rewrite Ei, Ee; exact Ch | apply incl_refl | exact Ln2 | exact Er|].
              split; [assumption|split; [|exact R3]]. intros y Ly _. now apply R2.
           ++ discriminate (eq_trans (eq_sym (letrec_view_complete _ _ _ _ _ Ch Ln (proj1 D))) Lv).
        -- inversion S as [| | | | | | |g0 l0 Nr Sg Sl|x ids0 es0 b1 c0 Ch O Se Sb|x ids0 es0 b1 c0 Ch Q Ln Se Sb]; subst.
           ++ eapply gets_app; eauto.
           ++ discriminate (eq_trans (eq_sym (letrecs_view_complete _ _ _ _ _ Ch)) Ls).
           ++ discriminate (eq_trans (eq_sym (letrec_view_complete _ _ _ _ _ Ch Ln (proj1 D))) Lv).
  - inversion S; subst. intros m1 e' m2 L E. cbn [fixl degenerate_let letrec_view letrecs_view let_view] in E. destruct (fixl f b m1) as [(b' & n1)|] eqn:X; [|discriminate]. injection E as <- <-.
    eapply gets_lam; eauto. eapply IHp; [now left | assumption].
  - intros m1 e' m2 L E. discriminate.
  - inversion S; subst. intros m1 e' m2 L E. cbn [fixl degenerate_let letrec_view letrecs_view let_view] in E. destruct (fixl f b m1) as [(b' & n1)|] eqn:X; [|discriminate]. injection E as <- <-.
    eapply gets_letcc; eauto. eapply IHp; [now left | assumption].
  - inversion S; subst. intros m1 e' m2 L E. cbn [fixl degenerate_let letrec_view letrecs_view let_view] in E. destruct (each (fixl f) [k; e] m1) as [(l & n1)|] eqn:X; [|discriminate].
    destruct (rands_good f m (EWithcc k e) [k; e]) with (4 := X) as (L1 & Fr & Fx); [cbn; intros z [<-|[<-|[]]]; auto | intros z [<-|[<-|[]]]; apply (IHp []); cbn; auto | assumption|].
    cbn [each] in X. destruct (fixl f k m1) as [(k' & n2)|]; [|discriminate]. destruct (fixl f e n2) as [(e1 & n3)|]; [|discriminate]. injection X as <- <-. injection E as <- <-.
    split; [assumption|]. split; [|split; [exact I|]].
    + intros x Lx F. destruct (Fr x Lx) as (z & J & Fz); [apply free_with in F; cbn; destruct F as [F|F]; eauto 8|]. apply free_with. destruct J as [<-|[<-|[]]]; auto.
    + intros G pl C A. specialize (Fx G pl C A). inversion Fx as [|? ? ? ? ? ? F1 F2]; subst. inversion F2; subst. now apply fx_with.
Qed.
End All.
