(** Unboxing: the uses of variables and the binding occurrences of the result. *)
From Coq Require Import ZArith String List Bool Lia.
From Verif Require Import Base Model_Lit Model_CStr Model_Core Model_Fold Model_Letrec Model_Unbox Spec_Sem Spec_Free Spec_Scope Spec_Fold Spec_Unbox.
From Verif Require Import Proofs_CStr Proofs_Sim Proofs_Free Proofs_BetaFree Proofs_CpsMore Proofs_FoldText Proofs_FoldWf.
Import ListNotations.
Open Scope Z_scope.

(** ** Uses of variables *)
Definition ploop (p : prim) := (fix loop (rands : list exp) (n : nat) (vi : vinfo) : vinfo :=
       match rands with
       | [] => vi
       | e :: rands' =>
         match e with
         | EVar x => loop rands' (S n) ((x, mkuse false false (c_argref_ctype p n)) :: vi)
         | _ => loop rands' (S n) (exp_vinfo e ++ vi)
         end
       end).
Definition from_operand (p : prim) (n : nat) (e : exp) : vinfo := match e with EVar x => [(x, mkuse false false (c_argref_ctype p n))] | _ => exp_vinfo e end.
Lemma ploop_in p iv : forall l n vi, In iv (ploop p l n vi) <-> In iv vi \/ exists i e, nth_error l i = Some e /\ In iv (from_operand p (n + i) e).
Proof.
  induction l as [|e l IH]; intros n vi.
  - cbn. split; [now left | intros [H|(i & e & H & _)]; [assumption | destruct i; discriminate]].
  - assert (E : ploop p (e :: l) n vi = ploop p l (S n) (from_operand p n e ++ vi)) by (destruct e; reflexivity). rewrite E, IH, in_app_iff. split.
    + intros [[H|H]|(i & a & N & H)]; [right; exists O, e; rewrite Nat.add_0_r; auto | now left | right; exists (S i), a; split; [assumption|]; now rewrite <- Nat.add_succ_comm].
    + intros [H|(i & a & N & H)]; [tauto|]. destruct i as [|i]; cbn in N; [injection N as ->; rewrite Nat.add_0_r in H; tauto|]. right. exists i, a. split; [assumption|]. now rewrite Nat.add_succ_comm.
Qed.
Definition aloop (rator : exp) := (fix app (l : list exp) : vinfo :=
       match l with
       | [] => match rator with EVar x => [(x, mkuse false true None)] | _ => exp_vinfo rator end
       | e :: l' => exp_vinfo e ++ app l'
       end).
Lemma aloop_in rator iv l : In iv (aloop rator l) <-> In iv match rator with EVar x => [(x, mkuse false true None)] | _ => exp_vinfo rator end \/ exists e, In e l /\ In iv (exp_vinfo e).
Proof.
  induction l as [|e l IH]; [cbn; split; [now left | intros [H|(e & [] & _)]; assumption]|]. cbn [aloop]. rewrite in_app_iff. fold (aloop rator). rewrite IH. split.
  - intros [H|[H|(a & I & H)]]; [right; exists e; split; [now left | assumption] | now left | right; exists a; split; [now right | assumption]].
  - intros [H|(a & [->|I] & H)]; [tauto | tauto | right; right; eauto].
Qed.
Lemma uses_found x e u : use_in x e u -> exists vu, In (x, vu) (exp_vinfo e) /\ ref_ctype vu = u.
Proof.
  assert (K : forall ids l (vu : var_use), ~ In x ids -> In (x, vu) l -> In (x, vu) (filter (fun iv => negb (memq (fst iv) ids)) l)).
  { intros ids l vu N I. apply filter_In. split; [assumption|]. cbn. now rewrite (proj2 (memq_not_In _ _) N). }
  induction 1 as [|e|ef p l i N|e ys e' t I NI NB U (vu & H & E)].
  - eexists. split; [now left | reflexivity].
  - eexists. split; [now left | reflexivity].
  - exists (mkuse false false (c_argref_ctype p i)). split; [|reflexivity]. change (exp_vinfo (EPrim ef p l)) with (ploop p l 0 []). apply ploop_in. right. exists i, (EVar x). split; [assumption | now left].
  - destruct e as [y|y e|a b c|ef p l|f l|xs b|xs ls b|y b|k e]; cbn [parts] in I.
    + easy.
    + destruct I as [[= <- <-]|[]]. exists vu. split; [now right | assumption].
    + exists vu. split; [|assumption]. cbn [exp_vinfo]. rewrite !in_app_iff. destruct I as [[= <- <-]|[[= <- <-]|[[= <- <-]|[]]]]; tauto.
    + apply in_map_iff in I. destruct I as (a & [= <- <-] & I). apply In_nth_error in I. destruct I as (i & N). exists vu. split; [|assumption].
      change (exp_vinfo (EPrim ef p l)) with (ploop p l 0 []). apply ploop_in. right. exists i, a. split; [assumption|]. destruct a; try exact H. now contradiction NB.
    + change (exp_vinfo (EApp f l)) with (aloop f l). destruct I as [[= <- <-]|I].
      * destruct f as [y| | | | | | | |]; try (exists vu; split; [apply aloop_in; now left | assumption]). destruct H as [[= <- <-]|[]]. cbn in E. subst t.
        exists (mkuse false true None). split; [apply aloop_in; left; now left | reflexivity].
      * apply in_map_iff in I. destruct I as (a & [= <- <-] & I). exists vu. split; [apply aloop_in; right; eauto | assumption].
    + destruct I as [[= <- <-]|[]]. exists vu. split; [now apply K | assumption].
    + exists vu. split; [|assumption]. cbn [exp_vinfo]. destruct I as [[= <- <-]|I].
      * apply K; [assumption|]. clear NB NI U. induction ls as [|(zs & e1) ls IH]; [assumption|]. apply in_app_iff. now right.
      * apply in_map_iff in I. destruct I as ((zs & e1) & [= <- <-] & I). rewrite in_app_iff in NI. apply K; [tauto|]. clear NB U.
        induction ls as [|(zs2 & e2) ls IH]; [easy|]. apply in_app_iff. destruct I as [[= -> ->]|I]; [left; apply K; tauto | right; auto].
    + destruct I as [[= <- <-]|[]]. exists vu. split; [now apply K | assumption].
    + exists vu. split; [|assumption]. cbn [exp_vinfo]. rewrite in_app_iff. destruct I as [[= <- <-]|[[= <- <-]|[]]]; tauto.
Qed.
Lemma argref_name fmt n t : c_argref_ctype fmt n = Some t -> name t.
Proof.
  unfold c_argref_ctype. generalize (S (length fmt)). intros f. revert fmt n. induction f as [|f IH]; intros s n E; [discriminate|]. cbn [argref_loop] in E.
  destruct (substring_before s (codes "$")) as [[bd|]|]; try discriminate. destruct (substring_after s (codes "$")) as [[ad|]|]; try discriminate. cbn zeta in E.
  destruct (val_or false (string_starts_with ad (codes "}"))); [discriminate|]. destruct (val_or false (string_starts_with ad (codes "{"))); [eauto|].
  destruct (val_or false (string_starts_with ad (codes "argc"))); [eauto|]. destruct (val_or false (string_starts_with ad (codes "arg#"))); [eauto|].
  destruct (negb (val_or false (string_starts_with ad (codes "arg")))); [eauto|]. destruct n as [|n]; [|eauto].
  destruct (negb (val_or false (string_ends_with bd (codes "_from_")))); [discriminate|].
  set (q := rev (firstn (length bd - 6) bd)) in *. assert (F : name (firstn (word_span q) q)).
  { unfold word_span. destruct (span_ok q word_chars) as (a & b & Eq & F & _ & -> & _). cbn [val_or]. rewrite Eq, firstn_app, Nat.sub_diag, firstn_all, app_nil_r.
    unfold name. eapply Forall_impl; [|exact F]. intros c. apply word_same. }
  injection E as <-. unfold name in *. rewrite Forall_forall in *. intros c I. apply F. now apply in_rev.
Qed.
Lemma loop_found t : forall us acc, unboxed_loop us acc = Some t -> (acc = Some t \/ acc = None) /\ forall u, In u us -> var_use_unboxed_ctype u = Some t.
Proof.
  induction us as [|u us IH]; intros acc E; cbn in E; [split; [now left | easy]|]. destruct (var_use_unboxed_ctype u) as [t1|] eqn:V; [|discriminate].
  assert (A : unboxed_loop us (Some t1) = Some t /\ (acc = None \/ acc = Some t1)).
  { destruct acc as [t0|]; [|auto]. destruct (zlist_dec t1 t0) as [->|]; [auto | discriminate]. }
  destruct A as (A & B). destruct (IH _ A) as ([[= ->]|] & H); [|discriminate]. split; [tauto|]. intros v [->|I]; auto.
Qed.
Lemma found_nonempty us t : unboxed_loop us None = Some t -> us <> [].
Proof. intros E ->. discriminate. Qed.
Lemma unboxed_use vu t : var_use_unboxed_ctype vu = Some t -> ref_ctype vu = Some t /\ unboxed t.
Proof.
  unfold var_use_unboxed_ctype. destruct (ref_ctype vu) as [u|]; [|discriminate]. destruct (dull u) eqn:D; [discriminate|]. destruct (zlist_dec u (codes "objptr")) as [|N]; [discriminate|]. intros [= ->].
  split; [reflexivity|]. split; [now apply dull_ok | assumption].
Qed.
(** the uses behind the entries *)
Lemma entry_use e : forall x vu, In (x, vu) (exp_vinfo e) -> use_in x e (ref_ctype vu).
Proof.
  assert (K : forall x ids l (vu : var_use), In (x, vu) (filter (fun iv => negb (memq (fst iv) ids)) l) -> ~ In x ids /\ In (x, vu) l).
  { intros x ids l vu I. apply filter_In in I. destruct I as (I & N). cbn in N. split; [|assumption]. apply memq_not_In. now destruct (memq x ids). }
  induction e as [e IH] using parts_ind. intros x vu I. assert (SUB : forall ys e', In (ys, e') (parts e) -> ~ In x ys -> ~ bare e e' -> In (x, vu) (exp_vinfo e') -> use_in x e (ref_ctype vu)).
  { intros ys e' J N B J2. exact (us_part x e ys e' _ J N B (IH ys e' J x vu J2)). }
  destruct e as [y|y e|a b c|ef p l|f l|xs b|xs ls b|y b|k e]; cbn [parts bare] in SUB.
  - destruct I as [[= -> <-]|[]]. constructor.
  - destruct I as [[= -> <-]|I]; [constructor|]. eapply SUB; [now left | intros [] | intros [] | assumption].
  - cbn [exp_vinfo] in I. rewrite !in_app_iff in I. destruct I as [I|[I|I]]; [apply (SUB [] a) | apply (SUB [] b) | apply (SUB [] c)]; cbn [In]; tauto.
  - change (exp_vinfo (EPrim ef p l)) with (ploop p l 0 []) in I. apply ploop_in in I. destruct I as [[]|(i & a & N & I)]. cbn [Nat.add] in I.
    destruct a as [z|z a|a1 a2 a3|ef1 p1 l1|f1 l1|xs1 b1|xs1 ls1 b1|z b1|k1 a]; cbn [from_operand] in I;
      try (eapply SUB; [apply in_map; eapply nth_error_In; exact N | intros [] | intros [] | exact I]).
    destruct I as [[= -> <-]|[]]. cbn. now constructor.
  - change (exp_vinfo (EApp f l)) with (aloop f l) in I. apply aloop_in in I. destruct I as [I|(a & J & I)].
    + assert (exists vu', In (x, vu') (exp_vinfo f) /\ ref_ctype vu' = ref_ctype vu) as (vu' & I1 & Er).
      { destruct f; try (exists vu; split; [exact I | reflexivity]). destruct I as [[= -> <-]|[]]. exists (mkuse false false None). split; [now left | reflexivity]. }
      rewrite <- Er. apply us_part with [] f; [now left | intros [] | intros [] | exact (IH [] f (or_introl eq_refl) x vu' I1)].
    + eapply SUB; [right; apply in_map; exact J | intros [] | intros [] | exact I].
  - apply K in I. destruct I as (N & I). eapply SUB; [now left | exact N | intros [] | exact I].
  - cbn [exp_vinfo] in I. apply K in I. destruct I as (N & I).
    assert (H : In (x, vu) (exp_vinfo b) \/ exists l, In l ls /\ ~ In x (fst l) /\ In (x, vu) (exp_vinfo (snd l))).
    { clear -I K. induction ls as [|(zs & e1) ls IHl]; [now left|]. apply in_app_iff in I. destruct I as [I|I].
      - apply K in I. right. exists (zs, e1). split; [now left | exact I].
      - destruct (IHl I) as [H|(l & A & B)]; [now left | right; exists l; split; [now right | exact B]]. }
    destruct H as [H|(l & J & NJ & H)].
    + eapply SUB; [now left | exact N | intros [] | exact H].
    + eapply SUB; [right; apply (in_map (fun l => (xs ++ fst l, snd l)) ls l J) | rewrite in_app_iff; tauto | intros [] | exact H].
  - apply K in I. destruct I as (N & I). eapply SUB; [now left | exact N | intros [] | exact I].
  - cbn [exp_vinfo] in I. rewrite !in_app_iff in I. destruct I as [I|I]; [apply (SUB [] k) | apply (SUB [] e)]; cbn [In]; tauto.
Qed.
Lemma uses_of x e vu : In vu (var_uses_in_exp x e) <-> In (x, vu) (exp_vinfo e).
Proof.
  unfold var_uses_in_exp. rewrite <- in_rev, in_map_iff. split.
  - intros ((y & v) & E & I). apply filter_In in I. destruct I as (I & M). cbn in *. apply id_eqb_eq in M. now subst.
  - intros I. exists (x, vu). split; [reflexivity|]. apply filter_In. split; [assumption|]. cbn. apply id_eqb_refl.
Qed.
Lemma in_exp_ok x e t : var_unboxed_ctype_in_exp x e = Some t -> only_at t x e /\ name t /\ free_in x e.
Proof.
  unfold var_unboxed_ctype_in_exp. intros E. destruct (loop_found _ _ _ E) as (_ & H). pose proof (found_nonempty _ _ E) as NE.
  destruct (var_uses_in_exp x e) as [|vu us] eqn:V; [easy|]. clear NE. pose proof (H vu (or_introl eq_refl)) as H1. apply unboxed_use in H1. destruct H1 as (H1 & Ub).
  assert (I : In (x, vu) (exp_vinfo e)) by (apply uses_of; rewrite V; now left).
  split; [|split].
  - split; [assumption|]. intros u Us. destruct (uses_found _ _ _ Us) as (vu' & I' & <-). apply uses_of in I'. rewrite V in I'. exact (proj1 (unboxed_use _ _ (H _ I'))).
  - apply entry_use in I. rewrite H1 in I. clear -I. remember (Some t) as o eqn:Eo. induction I as [| |ef p l i N|]; try discriminate; auto. eapply argref_name; eauto.
  - apply vinfo_free. exact (in_map fst _ _ I).
Qed.

(** ** Loops over variables *)
Definition typed (y : id) : Prop := exists t, xt y = XC t /\ name t /\ unboxed t.
Inductive lets (body : exp) : list id -> list exp -> Z -> list id -> substs -> Z -> Prop :=
| lt_nil n : lets body [] [] n [] [] n
| lt_typed x ids rand rands n t ids' ps n' : var_unboxed_ctype x body rand = Some t -> lets body ids rands (n + 1) ids' ps n' ->
    lets body (x :: ids) (rand :: rands) n (mkid (n + 1) (XC t) :: ids') ((x, mkid (n + 1) (XC t)) :: ps) n'
| lt_same x ids rand rands n ids' ps n' : var_unboxed_ctype x body rand = None -> lets body ids rands n ids' ps n' ->
    lets body (x :: ids) (rand :: rands) n (x :: ids') ps n'.
Lemma let_loop_ok body ids : forall rands oi or sb n, length ids = length rands ->
  exists ids' ps n', lets body ids rands n ids' ps n' /\ let_loop body ids rands oi or sb n = (rev ids' ++ oi, rev rands ++ or, rev ps ++ sb, n').
Proof.
  induction ids as [|x ids IH]; intros [|rand rands] oi or sb n L; try discriminate; cbn [let_loop].
  - exists [], [], n. split; [constructor | reflexivity].
  - destruct (var_unboxed_ctype x body rand) as [t|] eqn:V.
    + cbn [fresh]. destruct (IH rands (mkid (n + 1) (XC t) :: oi) (rand :: or) ((x, mkid (n + 1) (XC t)) :: sb) (n + 1)) as (ids' & ps & n' & H & E); [now injection L|].
      eexists _, _, n'. split; [eapply lt_typed; eauto|]. unfold fresh. rewrite E. cbn [rev]. rewrite <- !app_assoc. reflexivity.
    + destruct (IH rands (x :: oi) (rand :: or) sb n) as (ids' & ps & n' & H & E); [now injection L|]. eexists _, ps, n'. split; [eapply lt_same; eauto|]. rewrite E. cbn [rev]. rewrite <- !app_assoc. reflexivity.
Qed.
Inductive hoists (body : exp) : list id -> Z -> list id -> list (list Z) -> list id -> Z -> Prop :=
| hs_nil n : hoists body [] n [] [] [] n
| hs_typed x ids n t zs ts ys n' : (1 < var_reference_count x body)%nat -> var_unboxed_ctype_in_exp x body = Some t -> hoists body ids (n + 1) zs ts ys n' ->
    hoists body (x :: ids) n (x :: zs) (t :: ts) (mkid (n + 1) (XC t) :: ys) n'
| hs_same x ids n zs ts ys n' : hoists body ids n zs ts ys n' -> hoists body (x :: ids) n zs ts ys n'.
Lemma lam_loop_ok body ids : forall oi or sb n,
  exists zs ts ys n', hoists body ids n zs ts ys n' /\ lam_loop body ids oi or sb n = (rev ys ++ oi, rev (map EVar zs) ++ or, rev (combine zs ys) ++ sb, n').
Proof.
  induction ids as [|x ids IH]; intros oi or sb n; cbn [lam_loop].
  - exists [], [], [], n. split; [constructor | reflexivity].
  - destruct (if (1 <? var_reference_count x body)%nat then var_unboxed_ctype_in_exp x body else None) as [t|] eqn:V.
    + destruct (Nat.ltb_spec 1 (var_reference_count x body)) as [L|]; [|discriminate].
      destruct (IH (mkid (n + 1) (XC t) :: oi) (EVar x :: or) ((x, mkid (n + 1) (XC t)) :: sb) (n + 1)) as (zs & ts & ys & n' & H & E).
      exists (x :: zs), (t :: ts), (mkid (n + 1) (XC t) :: ys), n'. split; [now constructor|]. unfold fresh. rewrite E. cbn [rev map combine]. rewrite <- !app_assoc. reflexivity.
    + destruct (IH oi or sb n) as (zs & ts & ys & n' & H & E). exists zs, ts, ys, n'. split; [now constructor | assumption].
Qed.
Lemma rand_ok x body rand t : var_unboxed_ctype x body rand = Some t -> var_unboxed_ctype_in_exp x body = Some t /\ exp_ctype rand [] = Some t.
Proof.
  unfold var_unboxed_ctype. destruct (var_unboxed_ctype_in_exp x body) as [t1|]; [|discriminate]. destruct (exp_ctype rand []) as [u|]; [|discriminate].
  destruct (dull t1), (dull u); try discriminate. destruct (zlist_dec t1 u) as [->|]; [|discriminate]. cbn. intros [= ->]. auto.
Qed.
Lemma lets_facts body ids rands n ids' ps n' : lets body ids rands n ids' ps n' -> n <= n' /\ length ids = length ids' /\ length ids = length rands /\
  (forall y, (cnt y ids' <= cnt y ids + nw n n' y)%nat) /\ (forall y, In y ids' -> In y ids \/ typed y /\ n < ts y <= n') /\
  (forall x c, In (x, c) ps -> In x ids /\ n < ts c <= n' /\ exists t, xt c = XC t /\ var_unboxed_ctype_in_exp x body = Some t).
Proof.
  induction 1 as [n|x ids rand rands n t ids' ps n' V H IH|x ids rand rands n ids' ps n' V H IH].
  - repeat split; auto; try lia; intros; try easy. 
  - destruct IH as (L & L1 & L2 & C & I & Q). apply rand_ok in V. destruct V as (V & _). destruct (in_exp_ok _ _ _ V) as ((Ub & _) & Nm & _).
    repeat split; try lia; cbn [length]; try congruence.
    + intros y. rewrite (cnt_cons y _ ids'), (cnt_cons y x ids). specialize (C y). pose proof (nw_add n (n + 1) n' y). pose proof (nw_one n (XC t) y). lia.
    + intros y [<-|J]; [right; split; [exists t; auto | cbn; lia]|]. destruct (I y J) as [A|(A & B)]; [left; now right | right; split; [assumption | lia]].
    + destruct H0 as [[= <- <-]|J]; [now left|]. right. now apply (Q _ _ J).
    + destruct H0 as [[= <- <-]|J]; [cbn; lia|]. destruct (Q _ _ J) as (_ & A & _). lia.
    + destruct H0 as [[= <- <-]|J]; [cbn; lia|]. destruct (Q _ _ J) as (_ & A & _). lia.
    + destruct H0 as [[= <- <-]|J]; [exists t; auto|]. now apply (Q _ _ J).
  - destruct IH as (L & L1 & L2 & C & I & Q). repeat split; try lia; cbn [length]; try congruence.
    + intros y. rewrite (cnt_cons y x ids'), (cnt_cons y x ids). specialize (C y). lia.
    + intros y [<-|J]; [left; now left|]. destruct (I y J) as [A|(A & B)]; [left; now right | right; split; assumption].
    + right. now apply (Q _ _ H0).
    + now apply (Q _ _ H0).
    + now apply (Q _ _ H0).
    + now apply (Q _ _ H0).
Qed.
Lemma hoists_facts body ids n zs ts0 ys n' : hoists body ids n zs ts0 ys n' -> n <= n' /\ length zs = length ys /\ length ts0 = length ys /\
  (forall y, (cnt y ys <= nw n n' y)%nat) /\ (forall y, In y ys -> typed y /\ n < ts y <= n') /\ incl zs ids /\ Forall name ts0 /\
  (forall y, (cnt y zs <= cnt y ids)%nat) /\
  Forall2 (fun z t => worth t z body) zs ts0 /\ Forall2 (fun y t => xt y = XC t) ys ts0 /\
  (forall x c, In (x, c) (combine zs ys) -> In x ids /\ n < ts c <= n' /\ exists t, xt c = XC t /\ var_unboxed_ctype_in_exp x body = Some t).
Proof.
  induction 1 as [n|x ids n t zs ts0 ys n' C V H IH|x ids n zs ts0 ys n' H IH].
  - split; [lia|]. do 2 (split; [reflexivity|]). split; [intros; cbn; lia|]. split; [easy|]. split; [easy|]. split; [constructor|]. split; [intros; lia|]. split; [constructor|]. split; [constructor | easy].
  - destruct IH as (L & L1 & L2 & Cn & I & Sub & Nm & Cz & W & X & Q). destruct (in_exp_ok _ _ _ V) as ((Ub & O) & Nt & _).
    split; [lia|]. split; [cbn; congruence|]. split; [cbn; congruence|]. split; [|split; [|split; [|split; [|split; [|split; [|split]]]]]].
    + intros y. rewrite (cnt_cons y _ ys). specialize (Cn y). pose proof (nw_add n (n + 1) n' y). pose proof (nw_one n (XC t) y). lia.
    + intros y [<-|J]; [split; [exists t; auto | cbn; lia]|]. destruct (I y J) as (A & B). split; [assumption | lia].
    + intros y [<-|J]; [now left | right; now apply Sub].
    + now constructor.
    + intros y. rewrite (cnt_cons y _ zs), (cnt_cons y _ ids). specialize (Cz y). lia.
    + constructor; [|assumption]. split; [split; assumption|]. exists (var_reference_count x body). split; [apply reference_count | assumption].
    + now constructor.
    + intros x1 c [[= <- <-]|J]; [split; [now left|]; split; [cbn; lia | exists t; auto]|]. destruct (Q _ _ J) as (A & B & D). split; [now right|]. split; [lia | assumption].
  - destruct IH as (L & L1 & L2 & Cn & I & Sub & Nm & Cz & W & X & Q). do 5 (split; [assumption|]). split; [intros y J; right; now apply Sub|]. split; [assumption|]. split; [intros y; rewrite (cnt_cons y _ ids); specialize (Cz y); lia|].
    do 2 (split; [assumption|]). intros x1 c J. destruct (Q _ _ J) as (A & B). split; [now right | assumption].
Qed.
Lemma test_ok a b x t : unbox_ctype_test a b = Some (x, t) -> exists ef p, a = EPrim ef p [EVar x] /\ check_text t p /\ worth t x b /\ name t /\ free_in x b.
Proof.
  unfold unbox_ctype_test. destruct a as [| | |ef p l| | | | |]; try discriminate. destruct l as [|[y| | | | | | | |] [|]]; try discriminate. destruct (var_unboxed_ctype_in_exp y b) as [t1|] eqn:V; [|discriminate].
  destruct (typecheck_prim_ctype p) as [u|] eqn:T; [|discriminate]. destruct (dull t1); [discriminate|]. destruct (Nat.ltb_spec 1 (var_reference_count y b)); [|discriminate]. destruct (zlist_dec t1 u) as [<-|]; [|discriminate]. intros [= <- <-].
  destruct (in_exp_ok _ _ _ V) as (O & N & F). exists ef, p. split; [reflexivity|]. split; [now apply check_ok|]. split; [|auto]. split; [assumption|]. exists (var_reference_count y b). split; [apply reference_count | assumption].
Qed.

(** ** Binding occurrences of the result *)
Definition bd (n n' : Z) (B B' : list id) : Prop :=
  n <= n' /\ (forall y, (cnt y B' <= cnt y B + nw n n' y)%nat) /\ (forall y, In y B' -> In y B \/ typed y /\ n < ts y <= n').
Lemma bd_refl n B : bd n n B B.
Proof. split; [lia|]. split; [intros; lia | auto]. Qed.
Lemma bd_app n n1 n2 A A' B B' : bd n n1 A A' -> bd n1 n2 B B' -> bd n n2 (A ++ B) (A' ++ B').
Proof.
  intros (L1 & C1 & I1) (L2 & C2 & I2). split; [lia|]. split.
  - intros y. rewrite !cnt_app. specialize (C1 y). specialize (C2 y). pose proof (nw_add n n1 n2 y L1 L2). lia.
  - intros y I. apply in_app_or in I. destruct I as [I|I]; [destruct (I1 y I) as [|(T & ?)] | destruct (I2 y I) as [|(T & ?)]]; try (left; apply in_app_iff; tauto); right; (split; [assumption | lia]).
Qed.
Lemma cnt_In y l : In y l <-> (0 < cnt y l)%nat.
Proof. unfold cnt. rewrite (count_occ_In id_dec). lia. Qed.
Lemma bd_le n n' B B' C C' : bd n n' B B' -> (forall y, (cnt y C' <= cnt y B')%nat) -> (forall y, (cnt y B <= cnt y C)%nat) -> bd n n' C C'.
Proof.
  intros (L & Cn & I) H1 H2. split; [assumption|]. split.
  - intros y. specialize (Cn y). specialize (H1 y). specialize (H2 y). lia.
  - intros y J. rewrite cnt_In in J. destruct (I y) as [K|K]; [apply cnt_In; specialize (H1 y); lia | left; rewrite cnt_In in *; specialize (H2 y); lia | now right].
Qed.
Lemma cnt_rev y l : cnt y (rev l) = cnt y l.
Proof. induction l as [|x l IH]; [reflexivity|]. cbn [rev]. rewrite cnt_app, IH, (cnt_cons y x l). lia. Qed.
Definition lbind (l : list id * exp) : list id := fst l ++ binders (snd l).
Definition sized (f : nat) : Prop := forall e sb n e' n', unbox_vals f e sb n = Some (e', n') -> bd n n' (binders e) (binders e').
Lemma each_sized f sb : sized f -> forall l n l' n', each (fun e n => unbox_vals f e sb n) l n = Some (l', n') -> bd n n' (flat_map binders l) (flat_map binders l').
Proof.
  intros S. induction l as [|e l IH]; intros n l' n' E; cbn [each] in E; [injection E as <- <-; apply bd_refl|].
  destruct (unbox_vals f e sb n) as [(e1 & n1)|] eqn:E1; [|discriminate]. destruct (each _ l n1) as [(l1 & n2)|] eqn:E2; [|discriminate]. injection E as <- <-. cbn [flat_map]. eapply bd_app; eauto.
Qed.
Lemma nocnt y l : flat_map binders (map EVar l) = [] /\ cbs y (rev (map EVar l)) = 0%nat.
Proof. assert (H : flat_map binders (map EVar l) = []) by (induction l; auto). split; [assumption|]. rewrite cbs_rev. unfold cbs. now rewrite H. Qed.
Lemma unbox_lam_inv f xs b sb n xs' b' n' : unbox_lam (unbox_vals f) xs b sb n = Some (xs', b', n') ->
  xs' = xs /\ exists zs ts0 ys n1 b1, hoists b xs n zs ts0 ys n1 /\ unbox_vals f b (rev (combine zs ys) ++ sb) n1 = Some (b1, n') /\
    (ys = [] /\ b' = b1 \/ ys <> [] /\ b' = let_exp (rev ys) (rev (map EVar zs)) b1).
Proof.
  unfold unbox_lam. destruct (lam_loop_ok b xs [] [] sb n) as (zs & ts0 & ys & n1 & H & ->). rewrite !app_nil_r. destruct (unbox_vals f b _ n1) as [(b1 & n2)|] eqn:E; [|discriminate]. intros [= <- <- <-].
  split; [reflexivity|]. exists zs, ts0, ys, n1, b1. split; [assumption|]. split; [assumption|]. destruct ys as [|y ys]; [now left|]. right. split; [discriminate|].
  cbn [rev]. destruct (rev ys ++ [y]) as [|] eqn:R; [|reflexivity]. now apply app_eq_nil in R as (_ & R).
Qed.
Lemma lam_sized f xs b sb n xs' b' n' : sized f -> unbox_lam (unbox_vals f) xs b sb n = Some (xs', b', n') -> bd n n' (xs ++ binders b) (xs' ++ binders b').
Proof.
  intros S E. apply unbox_lam_inv in E. destruct E as (-> & zs & ts0 & ys & n1 & b1 & H & E & D). destruct (hoists_facts _ _ _ _ _ _ _ H) as (L & _ & _ & C & I & _).
  assert (B : bd n n' ([] ++ binders b) (ys ++ binders b1)). { apply bd_app with n1; [split; [assumption|]; split; [intros y; cbn; apply C | auto] | exact (S _ _ _ _ _ E)]. }
  assert (B2 := bd_app n n n' xs xs _ _ (bd_refl n xs) B). destruct D as [(-> & ->)|(_ & ->)]; [exact B2|].
  apply bd_le with (1 := B2); intros y; rewrite !cnt_app; cbn [app]; [|change (cnt y []) with 0%nat; lia]. change (binders (let_exp (rev ys) (rev (map EVar zs)) b1)) with ((rev ys ++ binders b1) ++ flat_map binders (rev (map EVar zs))).
  rewrite !cnt_app, cnt_rev. pose proof (proj2 (nocnt y zs)) as Z. unfold cbs in Z. lia.
Qed.
Lemma lams_sized f sb : sized f -> forall l n l' n', each_lam (fun xs b n => unbox_lam (unbox_vals f) xs b sb n) l n = Some (l', n') -> bd n n' (flat_map lbind l) (flat_map lbind l').
Proof.
  intros S. induction l as [|(xs & b) l IH]; intros n l' n' E; cbn [each_lam] in E; [injection E as <- <-; apply bd_refl|].
  destruct (unbox_lam (unbox_vals f) xs b sb n) as [((xs1 & b1) & n1)|] eqn:E1; [|discriminate]. destruct (each_lam _ l n1) as [(l1 & n2)|] eqn:E2; [|discriminate]. injection E as <- <-. cbn [flat_map].
  eapply bd_app; [|eauto]. unfold lbind. cbn [fst snd]. eapply lam_sized; eauto.
Qed.
Lemma unbox_sized f : sized f.
Proof.
  induction f as [|f IH]; intros e sb n e' n' E; [discriminate|]. cbn [unbox_vals] in E. destruct e as [x|x e1|a b c|ef p l|g l|xs b|ids lams b|x b|k e1]; try discriminate.
  - injection E as <- <-. apply bd_refl.
  - destruct (global_id x); [|discriminate]. destruct (unbox_vals f e1 sb n) as [(e2 & n1)|] eqn:E1; [|discriminate]. injection E as <- <-. exact (IH _ _ _ _ _ E1).
  - destruct (unbox_ctype_test a b) as [(x & t)|] eqn:T.
    + destruct (unbox_vals f a sb n) as [(a' & n1)|] eqn:E1; [|discriminate]. unfold fresh in E. destruct (unbox_vals f b _ (n1 + 1)) as [(b' & n3)|] eqn:E2; [|discriminate]. destruct (unbox_vals f c sb n3) as [(c' & n4)|] eqn:E3; [|discriminate]. injection E as <- <-.
      apply IH in E1, E2, E3. destruct (test_ok _ _ _ _ T) as (_ & _ & _ & _ & ((Ub & _) & _) & Nm & _).
      assert (B1 : bd n1 (n1 + 1) [] [mkid (n1 + 1) (XC t)]). { split; [lia|]. split; [intros y; cbn [cnt count_occ Nat.add]; apply nw_one|]. intros y [<-|[]]. right. split; [exists t; auto | cbn; lia]. }
      assert (B := bd_app _ _ _ _ _ _ _ E1 (bd_app _ _ _ _ _ _ _ B1 (bd_app _ _ _ _ _ _ _ E2 E3))). apply bd_le with (1 := B); intros y; cbn [binders let_exp]; rewrite !cnt_app; cbn [flat_map binders app cnt count_occ]; try lia.
    + destruct (each _ [a; b; c] n) as [(l' & n1)|] eqn:E1; [|discriminate]. apply (each_sized f sb IH) in E1. destruct l' as [|a' [|b' [|c' [|]]]]; try discriminate. injection E as <- <-. cbn [flat_map] in E1. rewrite !app_nil_r in E1. exact E1.
  - destruct (each _ l n) as [(l' & n1)|] eqn:E1; [|discriminate]. injection E as <- <-. exact (each_sized f sb IH _ _ _ _ E1).
  - destruct (degenerate_let (EApp g l)) as [b|] eqn:D.
    + apply IH in E. apply degenerate_inv in D. destruct D as [[= -> ->]|(x & [= -> ->])]; apply bd_le with (1 := E); intros y; cbn [binders flat_map app]; rewrite ?cnt_app; try lia. rewrite cnt_cons, cnt_app. lia.
    + destruct (let_view (EApp g l)) as [((ids & rands) & body)|] eqn:V.
      * apply let_view_inv in V. destruct V as ([= -> ->] & L). destruct (each _ rands n) as [(rands' & n1)|] eqn:E1; [|discriminate].
        assert (Lr : length rands' = length rands). { clear -E1. revert n rands' n1 E1. induction rands as [|e l IH]; intros n l' n' E; cbn [each] in E; [now injection E as <- <-|]. destruct (unbox_vals f e sb n) as [(e1 & n1)|]; [|discriminate]. destruct (each _ l n1) as [(l1 & n2)|] eqn:E2; [|discriminate]. injection E as <- <-. cbn. f_equal. eauto. }
        destruct (let_loop_ok body ids rands' [] [] sb n1) as (ids' & ps & n2 & H & Eq); [congruence|]. rewrite Eq, !app_nil_r in E. destruct (unbox_vals f body _ n2) as [(b' & n3)|] eqn:E2; [|discriminate]. injection E as <- <-.
        apply (each_sized f sb IH) in E1. apply IH in E2. destruct (lets_facts _ _ _ _ _ _ _ H) as (L1 & _ & _ & C & I & _).
        assert (B := bd_app _ _ _ _ _ _ _ E1 (bd_app _ _ _ _ _ _ _ (conj L1 (conj C I)) E2)). apply bd_le with (1 := B); intros y; cbn [binders let_exp]; rewrite !cnt_app, ?cnt_rev; [|lia].
        pose proof (cbs_rev y rands') as R. unfold cbs in R. lia.
      * destruct (each _ (g :: l) n) as [(l' & n1)|] eqn:E1; [|discriminate]. apply (each_sized f sb IH) in E1. destruct l' as [|g' l']; [discriminate|]. injection E as <- <-. exact E1.
  - destruct (unbox_lam (unbox_vals f) xs b sb n) as [((xs1 & b1) & n1)|] eqn:E1; [|discriminate]. injection E as <- <-. exact (lam_sized _ _ _ _ _ _ _ _ IH E1).
  - destruct (each_lam _ lams n) as [(l' & n1)|] eqn:E1; [|discriminate]. destruct (unbox_vals f b sb n1) as [(b' & n2)|] eqn:E2; [|discriminate]. injection E as <- <-. apply (lams_sized f sb IH) in E1. apply IH in E2.
    exact (bd_app _ _ _ _ _ _ _ (bd_refl n ids) (bd_app _ _ _ _ _ _ _ E1 E2)).
Qed.
