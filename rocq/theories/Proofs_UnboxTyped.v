(** Unboxing of values: uses of typed variables, free variables, and when the pass succeeds. *)
From Coq Require Import ZArith String List Bool Lia.
From Verif Require Import Base Model_Lit Model_Core Model_Fold Model_Letrec Model_Unbox Spec_Sem Spec_Free Spec_Scope Spec_Fold Spec_Lift.
From Verif Require Import Proofs_Sim Proofs_Free Proofs_BetaFree Proofs_CpsMore Proofs_FoldText Proofs_FoldWf Proofs_LetrecFix.
From Verif Require Import Spec_Unbox Proofs_UnboxUse Proofs_Unbox.
Import ListNotations.
Open Scope Z_scope.

Lemma use_free x e u : use_in x e u -> free_in x e.
Proof.
  induction 1 as [|e|ef p l i N|e ys e' t I NI NB Us IH].
  - now apply free_var.
  - apply free_set. now left.
  - apply free_prim. exists (EVar x). split; [eapply nth_error_In; eauto | now apply free_var].
  - apply free_in_eq. right. eauto.
Qed.
Lemma free_use x e : free_in x e -> exists u, use_in x e u.
Proof. intros F. apply vinfo_free, in_map_iff in F. destruct F as ((y & vu) & <- & I). exists (ref_ctype vu). now apply entry_use. Qed.
Definition seen (sb : substs) (e : exp) (y : id) (u : option (list Z)) : Prop := exists x u', y = sgof sb x /\ use_in x e u' /\ (u' = u \/ u' = None).
(** a use in a part *)
Lemma seen_part sb e ys e1 y u : In (ys, e1) (parts e) -> ~ bare e e1 -> (forall x, In x ys -> sgof sb x <> y) -> seen sb e1 y u -> seen sb e y u.
Proof.
  intros I B N (x & u' & -> & Us & D). exists x, u'. split; [reflexivity|]. split; [|assumption]. apply us_part with ys e1; auto. intros J. now apply (N x J).
Qed.
Lemma Forall2_pick2 {A B} (R : A -> B -> Prop) l l' : Forall2 R l l' -> forall i b, nth_error l' i = Some b -> exists a, nth_error l i = Some a /\ R a b.
Proof. induction 1 as [|a b l l' H F IH]; intros [|i] c N; try discriminate; cbn in *; [injection N as <-; eauto | auto]. Qed.
Section Uses.
Variable e0 : exp.
Hypothesis PT : plain_tests e0.
Definition uses_ok (f : nat) : Prop := forall e sb n e' n', unbox_vals f e sb n = Some (e', n') -> inv0 false sb n e -> part_of e e0 -> forall y u, use_in y e' u -> seen sb e y u.
Lemma vals_var f e sb n z n' : unbox_vals f e sb n = Some (z, n') -> (exists x, e = EVar x) -> exists y, z = EVar y.
Proof. intros E (x & ->). destruct f; [discriminate|]. cbn in E. injection E as <- <-. eauto. Qed.
Lemma list_uses f sb n n' l l' : uses_ok f -> Forall2 (fun e e' => exists m m', unbox_vals f e sb m = Some (e', m') /\ n <= m /\ m' <= n') l l' ->
  (forall e, In e l -> inv0 false sb n e /\ part_of e e0) -> Forall2 (fun e e' => (exists x, e = EVar x /\ e' = EVar (sgof sb x)) \/ (forall x, e <> EVar x) /\ forall y u, use_in y e' u -> seen sb e y u) l l'.
Proof.
  intros S F H. induction F as [|e e' l l' (m & m' & E & L1 & L2) F IH]; constructor; [|apply IH; intros; apply H; now right]. destruct (H e (or_introl eq_refl)) as (A & B).
  assert (D : (exists x, e = EVar x) \/ forall x, e <> EVar x) by (destruct e; [left; eauto | right; discriminate ..]). destruct D as [(x & ->)|D].
  - left. exists x. split; [reflexivity|]. destruct f; [discriminate|]. cbn in E. now injection E as <- <-.
  - right. split; [assumption|]. eapply S; eauto. now apply inv0_le with n.
Qed.
Lemma either f sb n n' l l' : uses_ok f -> Forall2 (fun e e' => exists m m', unbox_vals f e sb m = Some (e', m') /\ n <= m /\ m' <= n') l l' ->
  (forall e, In e l -> inv0 false sb n e /\ part_of e e0) -> forall e' y u, In e' l' -> use_in y e' u -> exists e, In e l /\ seen sb e y u.
Proof.
  intros S F H e' y u. revert H. induction F as [|e e1 l l' (m & m' & E & L1 & L2) F IH]; intros H J Us; [easy|]. destruct J as [->|J].
  - exists e. split; [now left|]. destruct (H e (or_introl eq_refl)). eapply S; eauto. now apply inv0_le with n.
  - destruct IH as (e2 & A & B); auto; [intros; apply H; now right|]. exists e2. split; [now right | assumption].
Qed.
Lemma let_use ys l b y u : use_in y (let_exp ys l b) u -> ~ In y ys /\ use_in y b u \/ exists e, In e l /\ use_in y e u.
Proof.
  intros Us. inversion Us as [|? |? ? ? ? ?|? zs e1 ? J NJ Bx Ux]; subst. destruct J as [[= <- <-]|J].
  - inversion Ux as [|? |? ? ? ? ?|? zs e1 ? J2 NJ2 Bx2 Ux2]; subst. destruct J2 as [[= <- <-]|[]]. now left.
  - right. apply in_map_iff in J. destruct J as (a & [= <- <-] & J). eauto.
Qed.
Lemma lam_use f sb n xs b xs' b' n' : uses_ok f -> unbox_lam (unbox_vals f) xs b sb n = Some (xs', b', n') -> inv0 false sb n (ELam xs b) -> part_of b e0 ->
  xs' = xs /\ forall y u, ~ In y xs -> use_in y b' u -> exists x u', y = sgof sb x /\ ~ In x xs /\ use_in x b u' /\ (u' = u \/ u' = None).
Proof.
  intros S E V Po. apply unbox_lam_inv in E. destruct E as (-> & zs & ts0 & ys & n1 & b1 & H & E & D). split; [reflexivity|].
  destruct (hoists_facts _ _ _ _ _ _ _ H) as (L & L1 & L2 & C & I & Sub & Nm & Cz & W & X & Q).
  assert (Vb := inv0_part _ _ _ _ xs b V (or_introl eq_refl)). assert (Nx := iv_nodup _ _ _ _ V). cbn [binders] in Nx. assert (Nxs := nodup_l _ _ Nx).
  assert (Bx : forall x, In x xs -> In x (binders (ELam xs b))) by (intros x J; cbn; apply in_app_iff; auto).
  assert (Nz : NoDup zs). { rewrite nodup_cnt in *. intros y. specialize (Cz y). specialize (Nxs y). lia. }
  assert (Nz2 : NoDup (map fst (combine zs ys))) by (now apply nodup_combine).
  assert (V1 : inv0 false (rev (combine zs ys) ++ sb) n1 b).
  { apply inv0_put; [now apply inv0_le with n|]. intros x c J. apply in_rev in J. destruct (Q x c J) as (J1 & J2 & J3). destruct (iv_bind _ _ _ _ V x (Bx x J1)) as (J4 & _). split; [intros; lia|].
    split; [exact (nodup_no _ _ _ Nx J1)|]. split; [lia | assumption]. }
  assert (R := S _ _ _ _ _ E V1 Po).
  assert (R2 : forall y u, ~ In y xs -> ~ In y ys -> use_in y b1 u -> exists x u', y = sgof sb x /\ ~ In x xs /\ use_in x b u' /\ (u' = u \/ u' = None)).
  { intros y u N1 N2 Us. destruct (R y u Us) as (x & u' & Ey & Ux & Du). assert (K : ~ In x zs).
    { intros J. apply In_nth_error in J. destruct J as (i & J). destruct (nth_pair zs ys i x L1 J) as (c & Nc & Jc). unfold sgof in Ey. rewrite (assq_front x c) in Ey by assumption. subst c. apply N2. eapply nth_error_In; eauto. }
    assert (Es : sgof (rev (combine zs ys) ++ sb) x = sgof sb x). { unfold sgof. rewrite assq_back; [reflexivity|]. intros J. apply K. eapply in_combine_fst; eauto. }
    rewrite Es in Ey. exists x, u'. split; [assumption|]. split; [|auto]. intros J. apply N1. rewrite Ey, (sgof_bound false sb n _ x V); auto. }
  intros y u N Us. destruct D as [(-> & ->)|(_ & ->)]; [apply R2; auto|].
  apply let_use in Us. destruct Us as [(Ny & Us)|(a & Ja & Us)]; [apply R2; auto; now rewrite in_rev|].
  apply in_rev, in_map_iff in Ja. destruct Ja as (z & <- & Jz). inversion Us; subst; [|easy]. now apply Sub in Jz.
Qed.
Lemma unbox_uses f : uses_ok f.
Proof.
  induction f as [|f IH]; intros e sb n e' n' E V Po y u Us; [discriminate|]. cbn [unbox_vals] in E.
  assert (PT1 : forall ys e1, In (ys, e1) (parts e) -> part_of e1 e0) by (intros ys e1 J; exact (part_below _ _ _ _ Po J)).
  assert (V1 : forall ys e1 m, In (ys, e1) (parts e) -> n <= m -> inv0 false sb m e1) by (intros ys e1 m J L; apply inv0_le with n; [exact (inv0_part _ _ _ _ _ _ V J) | exact L]).
  destruct e as [x|x e1|a b c|ef p l|g l|xs b|ids lams b|x b|k e1]; try discriminate; cbn [parts] in PT1, V1.
  - injection E as <- <-. fold (sgof sb x) in Us. inversion Us as [|? |? ? ? ? ?|? zs e1 ? J NJ Bx Ux]; subst; [|easy]. exists x, None. split; [reflexivity|]. split; [constructor | auto].
  - destruct (global_id x) eqn:Gx; [|discriminate]. destruct (unbox_vals f e1 sb n) as [(e2 & n1)|] eqn:E1; [|discriminate]. injection E as <- <-.
    inversion Us as [|? |? ? ? ? ?|? zs e3 ? J NJ Bx Ux]; subst.
    + exists x, None. split; [|split; [constructor | auto]]. unfold sgof. destruct (assq x sb) as [c|] eqn:A; [|reflexivity]. destruct (iv_sb _ _ _ _ V x c A) as (_ & _ & _ & t & _ & Q). destruct (Q None (us_set x e1)) as [(z & Z)|Z]; discriminate.
    + destruct J as [[= <- <-]|[]]. apply seen_part with [] e1; [now left | intros [] | easy|]. eapply IH; [exact E1 | eapply V1; [now left | lia] | eapply PT1; now left | exact Ux].
  - assert (Pa := PT1 [] a (or_introl eq_refl)). assert (Pb := PT1 [] b (or_intror (or_introl eq_refl))). assert (Pc := PT1 [] c (or_intror (or_intror (or_introl eq_refl)))).
    assert (up : forall e1, In e1 [a; b; c] -> forall y u, seen sb e1 y u -> seen sb (EIf a b c) y u).
    { intros e1 J y1 u1 Se. apply seen_part with [] e1; [|intros []|easy | exact Se]. cbn [parts]. destruct J as [<-|[<-|[<-|[]]]]; cbn [In]; auto. }
    destruct (unbox_ctype_test a b) as [(x & t)|] eqn:T.
    + destruct (test_ok _ _ _ _ T) as (ef & p & -> & Ck & W & Nt & Fb). destruct (unbox_vals f (EPrim ef p [EVar x]) sb n) as [(a' & n1)|] eqn:E1; [|discriminate].
      pose proof E1 as E1'. apply read_test in E1. destruct E1 as (-> & ->).
      unfold fresh in E. destruct (unbox_vals f b _ (n + 1)) as [(b' & n3)|] eqn:E2; [|discriminate]. destruct (unbox_vals f c sb n3) as [(c' & n4)|] eqn:E3; [|discriminate]. injection E as <- <-.
      assert (Us0 : use_in x (EIf (EPrim ef p [EVar x]) b c) None).
      { rewrite <- (PT ef p x t Pa Ck). apply us_part with [] (EPrim ef p [EVar x]); [now left | intros [] | intros [] |]. now apply us_operand. }
      assert (Sx : sgof sb x = x). { unfold sgof. destruct (assq x sb) as [c0|] eqn:A; [|reflexivity]. destruct (iv_sb _ _ _ _ V x c0 A) as (_ & _ & _ & u0 & _ & Q). destruct (Q _ Us0) as [(z & Z)|Z]; discriminate. }
      inversion Us as [|? |? ? ? ? ?|? zs e3 ? J NJ Bx Ux]; subst. destruct J as [[= <- <-]|[[= <- <-]|[[= <- <-]|[]]]].
      * apply (up (EPrim ef p [EVar x])); [now left|]. eapply IH; [exact E1' | eapply V1; [now left | lia] | exact Pa | exact Ux].
      * apply let_use in Ux. destruct Ux as [(Ny & Ux)|(a & [<-|[]] & Ux)].
        -- assert (Fx : free_in x (EIf (EPrim ef p [EVar x]) b c)) by (apply free_if; auto). destruct (iv_free _ _ _ _ V x Fx) as (Lx & Nx). cbn [binders flat_map app] in Nx. destruct W as ((Ub & O) & Cn).
           assert (Vb : inv0 false ([(x, mkid (n + 1) (XC t))] ++ sb) (n + 1) b).
           { destruct (V1 [] b (n + 1)) as [A0 A1 A2 A3 A4]; [right; now left | lia|]. split; auto. intros z c0 A. apply assq_cat in A. destruct A as [[[= <- <-]|[]]|A]; [|auto].
                split; [discriminate|]. split; [rewrite in_app_iff in Nx; tauto|]. split; [cbn; lia|]. exists t. split; [reflexivity|]. intros u1 J. right. auto. }
           destruct (IH _ _ _ _ _ E2 Vb Pb _ _ Ux) as (x1 & u' & Ey & Ux1 & Du). destruct (id_dec x1 x) as [->|Nx1].
           ++ contradiction Ny. left. rewrite Ey. unfold sgof. cbn [app assq]. now rewrite id_eqb_refl.
           ++ apply (up b); [right; now left|]. exists x1, u'. split; [|auto]. rewrite Ey. unfold sgof. cbn [app assq]. now rewrite (proj2 (id_eqb_neq _ _) Nx1).
        -- inversion Ux as [|? |? ? ? ? ?|? zs e3 ? J NJ2 Bx2 Ux2]; subst; [|easy]. exists x, None. auto.
      * apply (up c); [right; right; now left|]. eapply IH; [exact E3 | apply (V1 [] c n3); [right; right; now left|] | exact Pc | exact Ux]. destruct (unbox_sized _ _ _ _ _ _ E2). lia.
    + destruct (each _ [a; b; c] n) as [(l' & n1)|] eqn:E1; [|discriminate]. destruct (each_pairs _ _ _ _ _ _ E1) as (L1 & F).
      destruct l' as [|a' [|b' [|c' [|]]]]; try discriminate. injection E as <- <-.
      assert (K : exists e1, In e1 [a'; b'; c'] /\ use_in y e1 u) by (inversion Us as [|? |? ? ? ? ?|? zs e3 ? J NJ Bx Ux]; subst; destruct J as [[= <- <-]|[[= <- <-]|[[= <- <-]|[]]]]; eexists; (split; [|exact Ux]); cbn [In]; auto).
      destruct K as (e1 & J & Ux). destruct (either f sb n n1 _ _ IH F) with (e' := e1) (y := y) (u := u) as (e & J2 & Se); auto; [|exact (up e J2 y u Se)].
      intros e J2. destruct J2 as [<-|[<-|[<-|[]]]]; (split; [apply (V1 [] _ n); [cbn [In]; tauto | lia] | assumption]).
  - destruct (each _ l n) as [(l' & n1)|] eqn:E1; [|discriminate]. destruct (each_pairs _ _ _ _ _ _ E1) as (L1 & F). injection E as <- <-.
    assert (Vl : forall e, In e l -> inv0 false sb n e /\ part_of e e0).
    { intros e J. assert (K : In ([], e) (map (fun e => ([] : list id, e)) l)) by (now apply (in_map (fun e => ([] : list id, e)))). split; [apply (V1 [] e n); [exact K | lia]|]. exact (PT1 [] e K). }
    assert (R := list_uses f sb n n1 _ _ IH F Vl).
    assert (up : forall e1, In e1 l -> (forall x, e1 <> EVar x) -> forall u, seen sb e1 y u -> seen sb (EPrim ef p l) y u).
    { intros e1 J N1 u1 Se. apply seen_part with [] e1; [now apply in_map | destruct e1; cbn; auto; now contradiction (N1 x) | easy | exact Se]. }
    inversion Us as [|? |? ? ? i N|? zs e3 ? J NJ Bx Ux]; subst.
    + destruct (Forall2_pick2 _ _ _ R i _ N) as (a & Na & [(x & -> & Ea)|(Ne & H)]).
      * injection Ea as ->. exists x, (c_argref_ctype p i). split; [reflexivity|]. split; [now constructor | auto].
      * destruct (H y None (us_ref y)) as (x & u' & Ey & Ux & Du). assert (u' = None) by (destruct Du; auto). subst u'. destruct (up a (nth_error_In _ _ Na) Ne None) as (x1 & u1 & Ey1 & Ux1 & Du1); [exists x, None; auto|].
        exists x1, u1. split; [assumption|]. split; [assumption|]. right. destruct Du1; auto.
    + apply in_map_iff in J. destruct J as (a' & [= <- <-] & J). apply In_nth_error in J. destruct J as (i & Ni). destruct (Forall2_pick2 _ _ _ R i _ Ni) as (a & Na & [(x & -> & Ea)|(Ne & H)]).
      * subst a'. now contradiction Bx.
      * apply (up a); auto. eapply nth_error_In; eauto.
  - assert (Vl : forall e, In e l -> inv0 false sb n e /\ part_of e e0).
    { intros e J. assert (K : In ([], e) (([], g) :: map (fun e => ([] : list id, e)) l)) by (right; now apply (in_map (fun e => ([] : list id, e)))). split; [apply (V1 [] e n); [exact K | lia]|]. exact (PT1 [] e K). }
    assert (upl : forall e1, In e1 l -> seen sb e1 y u -> seen sb (EApp g l) y u).
    { intros e1 J Se. apply seen_part with [] e1; [right; now apply in_map | intros [] | easy | exact Se]. }
    assert (upg : seen sb g y u -> seen sb (EApp g l) y u) by (intros Se; apply seen_part with [] g; [now left | intros [] | easy | exact Se]).
    assert (Vg := V1 [] g n (or_introl eq_refl) ltac:(lia)). assert (Pg := PT1 [] g (or_introl eq_refl)).
    destruct (degenerate_let (EApp g l)) as [b|] eqn:D.
    + apply degenerate_inv in D. destruct D as [[= -> ->]|(x & [= -> ->])].
      * apply upg. apply seen_part with [] b; [now left | intros [] | easy|]. eapply IH; [exact E | | | exact Us].
        -- exact (inv0_part _ _ _ _ [] b Vg (or_introl eq_refl)).
        -- exact (part_below _ [] b _ Pg (or_introl eq_refl)).
      * apply (upl b); [now left|]. destruct (Vl b (or_introl eq_refl)) as (A1 & A2). eapply IH; eauto.
    + destruct (let_view (EApp g l)) as [((ids & rands) & body)|] eqn:Lv.
      * apply let_view_inv in Lv. destruct Lv as ([= -> ->] & L). destruct (each _ rands n) as [(rands' & n1)|] eqn:E1; [|discriminate]. destruct (each_pairs _ _ _ _ _ _ E1) as (L1 & F).
        assert (Lr : length rands = length rands') by (clear -F; induction F; cbn; auto).
        destruct (let_loop_ok body ids rands' [] [] sb n1) as (ids' & ps & n2 & H & Eq); [congruence|]. rewrite Eq, !app_nil_r in E. destruct (unbox_vals f body _ n2) as [(b' & n3)|] eqn:E2; [|discriminate]. injection E as <- <-.
        destruct (lets_facts _ _ _ _ _ _ _ H) as (L2 & L3 & _ & C & I & Q). assert (Nx := iv_nodup _ _ _ _ Vg). cbn [binders] in Nx. assert (Ni := nodup_l _ _ Nx). destruct (lets_nth _ _ _ _ _ _ _ H Ni) as (Np & Nt).
        assert (Bi : forall x, In x ids -> In x (binders (ELam ids body))) by (intros x J; cbn; apply in_app_iff; auto).
        apply let_use in Us. destruct Us as [(Ny & Ux)|(a & Ja & Ux)].
        -- assert (Vb : inv0 false (rev ps ++ sb) n2 body).
           { apply inv0_put; [apply inv0_le with n; [exact (inv0_part _ _ _ _ ids body Vg (or_introl eq_refl)) | lia]|].
             intros x c J. apply in_rev in J. destruct (Q x c J) as (J1 & J2 & J3). destruct (iv_bind _ _ _ _ Vg x (Bi x J1)) as (J4 & _). split; [discriminate|]. split; [exact (nodup_no _ _ _ Nx J1)|]. split; [lia | assumption]. }
           destruct (IH _ _ _ _ _ E2 Vb (part_below _ ids body _ Pg (or_introl eq_refl)) _ _ Ux) as (x & u' & Ey & Ux1 & Du).
           assert (K : ~ In x ids).
           { intros J. apply Ny. rewrite <- in_rev. apply In_nth_error in J. destruct J as (i & J). destruct (Nt i x J) as (y1 & Ny1 & D1). apply nth_error_In in Ny1. replace y with y1; [assumption|]. rewrite Ey. unfold sgof.
             destruct D1 as [D1|(-> & D1)]; [now rewrite (assq_front x y1)|]. rewrite assq_back by assumption. symmetry. apply (sgof_bound false sb n _ x Vg). apply Bi. eapply nth_error_In; eauto. }
           assert (K2 : ~ In x (map fst ps)). { intros J. apply in_map_iff in J. destruct J as ((x1 & c) & <- & J). exact (K (proj1 (Q _ _ J))). }
           unfold sgof in Ey. rewrite assq_back in Ey by assumption. apply upg. exists x, u'. split; [exact Ey|]. split; [|assumption]. apply us_part with ids body; [now left | assumption | intros [] | assumption].
        -- apply in_rev in Ja. destruct (either f sb n n1 _ _ IH F Vl a y u Ja Ux) as (e & J2 & Se). exact (upl e J2 Se).
      * destruct (each _ (g :: l) n) as [(l' & n1)|] eqn:E1; [|discriminate]. destruct (each_pairs _ _ _ _ _ _ E1) as (L1 & F). destruct l' as [|g' l']; [discriminate|]. injection E as <- <-.
        assert (K : exists e1, In e1 (g' :: l') /\ use_in y e1 u).
        { inversion Us as [|? |? ? ? ? ?|? zs e3 ? J NJ Bx Ux]; subst. destruct J as [[= <- <-]|J]; [exists g'; split; [now left | assumption]|]. apply in_map_iff in J. destruct J as (a & [= <- <-] & J). exists a. split; [now right | assumption]. }
        destruct K as (e1 & J & Ux). destruct (either f sb n n1 _ _ IH F) with (e' := e1) (y := y) (u := u) as (e & J2 & Se); auto.
        -- intros e [<-|J2]; [split; assumption | auto].
        -- destruct J2 as [<-|J2]; [auto | exact (upl e J2 Se)].
  - destruct (unbox_lam (unbox_vals f) xs b sb n) as [((xs1 & b1) & n1)|] eqn:E1; [|discriminate]. injection E as <- <-.
    destruct (lam_use f sb n xs b xs1 b1 n1 IH E1 V) as (-> & R); [eapply PT1; now left|].
    inversion Us as [|? |? ? ? ? ?|? zs e3 ? J NJ Bx Ux]; subst. destruct J as [[= <- <-]|[]]. destruct (R y u NJ Ux) as (x & u' & Ey & Nx & Ux1 & Du). exists x, u'. split; [assumption|]. split; [|assumption].
    apply us_part with xs b; [now left | assumption | intros [] | assumption].
  - destruct (each_lam _ lams n) as [(l' & n1)|] eqn:E1; [|discriminate]. destruct (unbox_vals f b sb n1) as [(b' & n2)|] eqn:E2; [|discriminate]. injection E as <- <-. destruct (lams_pairs _ _ _ _ _ _ E1) as (L1 & F).
    assert (Bi : forall x, In x ids -> sgof sb x = x) by (intros x J; apply (sgof_bound false sb n _ x V); cbn; apply in_app_iff; auto).
    inversion Us as [|? |? ? ? ? ?|? zs e3 ? J NJ Bx Ux]; subst. destruct J as [[= <- <-]|J].
    + apply seen_part with ids b; [now left | intros [] | intros x J Z; rewrite (Bi x J) in Z; subst; contradiction|]. eapply IH; [exact E2 | eapply V1; [now left | lia] | eapply PT1; now left | exact Ux].
    + apply in_map_iff in J. destruct J as (l2 & [= <- <-] & J). apply In_nth_error in J. destruct J as (i & Ni). destruct (Forall2_pick2 _ _ _ F i _ Ni) as (l1 & Nl & m & m' & A & Lm & Lm'). apply nth_error_In in Nl. rewrite in_app_iff in NJ.
      destruct (lam_use f sb m (fst l1) (snd l1) _ _ _ IH A) as (Ef & R); [apply inv0_le with n; [exact (inv0_fix false sb n ids lams b l1 V Nl) | assumption] | apply (PT1 (ids ++ fst l1)); right; now apply (in_map (fun l => (ids ++ fst l, snd l)))|].
      destruct (R y u) as (x & u' & Ey & Nx & Ux1 & Du); [rewrite <- Ef; tauto | assumption|]. exists x, u'. split; [assumption|]. split; [|assumption].
      apply us_part with (ids ++ fst l1) (snd l1); [right; now apply (in_map (fun l => (ids ++ fst l, snd l))) | | intros [] | assumption]. rewrite in_app_iff. intros [K|K]; [|auto]. rewrite (Bi x K) in Ey. subst. tauto.
Qed.
End Uses.

(** ** Typed variables are used at their type *)
Definition here (e : exp) : Prop := forall ys b x t u, In (ys, b) (parts e) -> In x ys -> xt x = XC t -> use_in x b u -> u = Some t.
Lemma typed_mk e : here e -> (forall ys b, In (ys, b) (parts e) -> typed_uses b) -> typed_uses e.
Proof.
  intros H Q ys b e1 x t u Po. revert ys b x t u. inversion Po as [|zs e2 ? I Po2]; subst.
  - exact H.
  - intros ys b x t u. exact (Q zs e2 I ys b e1 x t u Po2).
Qed.
Lemma here_none e : (forall ys b x t, In (ys, b) (parts e) -> In x ys -> xt x <> XC t) -> here e.
Proof. intros H ys b x t u I J X. now contradiction (H ys b x t I J). Qed.
Section Typed.
Variable e0 : exp.
Hypothesis PT : plain_tests e0.
Definition typed_ok (f : nat) : Prop := forall e sb n e' n', unbox_vals f e sb n = Some (e', n') -> inv0 false sb n e -> part_of e e0 -> typed_uses e'.
Lemma list_typed f sb n n' l l' : typed_ok f -> Forall2 (fun e e' => exists m m', unbox_vals f e sb m = Some (e', m') /\ n <= m /\ m' <= n') l l' ->
  (forall e, In e l -> inv0 false sb n e /\ part_of e e0) -> forall e', In e' l' -> typed_uses e'.
Proof.
  intros S F H e'. revert H. induction F as [|e e1 l l' (m & m' & E & L1 & L2) F IH]; intros H J; [easy|]. destruct J as [->|J]; [|apply IH; auto; intros; apply H; now right].
  destruct (H e (or_introl eq_refl)). eapply S; eauto. now apply inv0_le with n.
Qed.
(** the variables of a let *)
Lemma let_typed ys l b : (forall x t u, In x ys -> xt x = XC t -> use_in x b u -> u = Some t) -> typed_uses b -> (forall e, In e l -> typed_uses e) -> typed_uses (let_exp ys l b).
Proof.
  intros H Tb Tl. apply typed_mk.
  - intros zs c x t u I J. destruct I as [[= <- <-]|I]; [easy|]. apply in_map_iff in I. destruct I as (a & [= <- <-] & _). easy.
  - intros zs c I. destruct I as [[= <- <-]|I].
    + apply typed_mk; [|intros zs c [[= <- <-]|[]]; assumption]. intros zs c x t u [[= <- <-]|[]] J. eauto.
    + apply in_map_iff in I. destruct I as (a & [= <- <-] & I). auto.
Qed.
(** the uses of a new variable *)
Lemma new_uses f b ps sb n n1 b1 n2 : unbox_vals f b (rev ps ++ sb) n1 = Some (b1, n2) -> inv0 false (rev ps ++ sb) n1 b -> part_of b e0 -> n <= n1 ->
  (forall x, free_in x b -> ts x <= n) -> (forall x c, assq x sb = Some c -> ts c <= n) ->
  (forall x c, In (x, c) ps -> exists t, xt c = XC t /\ var_unboxed_ctype_in_exp x b = Some t) ->
  forall y t u, n < ts y -> xt y = XC t -> use_in y b1 u -> u = Some t.
Proof.
  intros E V Po L Fr Sb Ps y t u Ly X Us. destruct (unbox_uses e0 PT f _ _ _ _ _ E V Po y u Us) as (x & u' & Ey & Ux & Du). unfold sgof in Ey. destruct (assq x (rev ps ++ sb)) as [c|] eqn:A.
  - subst c. apply assq_cat in A. destruct A as [A|A]; [|specialize (Sb _ _ A); lia]. apply in_rev in A. destruct (Ps _ _ A) as (t1 & X1 & V1). assert (t1 = t) by congruence. subst t1.
    destruct (in_exp_ok _ _ _ V1) as ((_ & O) & _). assert (Z := O _ Ux). destruct Du; congruence.
  - subst y. apply use_free, Fr in Ux. lia.
Qed.
Lemma lam_typed f sb n xs b xs' b' n' : typed_ok f -> unbox_lam (unbox_vals f) xs b sb n = Some (xs', b', n') -> inv0 false sb n (ELam xs b) -> part_of b e0 -> xs' = xs /\ typed_uses b'.
Proof.
  intros S E V Po. apply unbox_lam_inv in E. destruct E as (-> & zs & ts0 & ys & n1 & b1 & H & E & D). split; [reflexivity|].
  destruct (hoists_facts _ _ _ _ _ _ _ H) as (L & L1 & L2 & C & I & Sub & Nm & Cz & W & X & Q).
  assert (Vb := inv0_part _ _ _ _ xs b V (or_introl eq_refl)). assert (Nx := iv_nodup _ _ _ _ V). cbn [binders] in Nx.
  assert (Bx : forall x, In x xs -> In x (binders (ELam xs b))) by (intros x J; cbn; apply in_app_iff; auto).
  assert (V1 : inv0 false (rev (combine zs ys) ++ sb) n1 b).
  { apply inv0_put; [now apply inv0_le with n|]. intros x c J. apply in_rev in J. destruct (Q x c J) as (J1 & J2 & J3). destruct (iv_bind _ _ _ _ V x (Bx x J1)) as (J4 & _). split; [discriminate|].
    split; [exact (nodup_no _ _ _ Nx J1)|]. split; [lia | assumption]. }
  assert (R := S _ _ _ _ _ E V1 Po). destruct D as [(-> & ->)|(_ & ->)]; [assumption|]. apply let_typed; [|assumption|].
  - intros x t u J Xt. apply in_rev in J. apply (new_uses f b (combine zs ys) sb n n1 b1 n'); auto.
    + intros x1 F. now apply (iv_free _ _ _ _ Vb).
    + intros x1 c A. destruct (iv_sb _ _ _ _ Vb x1 c A) as (_ & _ & A1 & _). lia.
    + intros x1 c J1. now apply Q in J1.
    + now apply I.
  - intros e J. apply in_rev, in_map_iff in J. destruct J as (z & <- & _). apply typed_mk; [intros zs1 c x t u [] | intros zs1 c []].
Qed.
Lemma unbox_typed f : typed_ok f.
Proof.
  induction f as [|f IH]; intros e sb n e' n' E V Po; [discriminate|]. cbn [unbox_vals] in E.
  assert (PT1 : forall ys e1, In (ys, e1) (parts e) -> part_of e1 e0) by (intros ys e1 J; exact (part_below _ _ _ _ Po J)).
  assert (V1 : forall ys e1 m, In (ys, e1) (parts e) -> n <= m -> inv0 false sb m e1) by (intros ys e1 m J L; apply inv0_le with n; [exact (inv0_part _ _ _ _ _ _ V J) | exact L]).
  destruct e as [x|x e1|a b c|ef p l|g l|xs b|ids lams b|x b|k e1]; try discriminate; cbn [parts] in PT1, V1.
  - injection E as <- <-. apply typed_mk; [intros zs1 c x1 t u [] | intros zs1 c []].
  - destruct (global_id x) eqn:Gx; [|discriminate]. destruct (unbox_vals f e1 sb n) as [(e2 & n1)|] eqn:E1; [|discriminate]. injection E as <- <-.
    apply typed_mk; [intros zs c x1 t u [[= <- <-]|[]]; easy|]. intros zs c [[= <- <-]|[]]. eapply IH; [exact E1 | eapply V1; [now left | lia] | eapply PT1; now left].
  - assert (Pa := PT1 [] a (or_introl eq_refl)). assert (Pb := PT1 [] b (or_intror (or_introl eq_refl))). assert (Pc := PT1 [] c (or_intror (or_intror (or_introl eq_refl)))).
    assert (mk : forall a b c, typed_uses a -> typed_uses b -> typed_uses c -> typed_uses (EIf a b c)).
    { intros a1 b1 c1 A1 A2 A3. apply typed_mk; [intros zs d x1 t u J; destruct J as [[= <- <-]|[[= <- <-]|[[= <- <-]|[]]]]; easy | intros zs d J; destruct J as [[= <- <-]|[[= <- <-]|[[= <- <-]|[]]]]; assumption]. }
    destruct (unbox_ctype_test a b) as [(x & t)|] eqn:T.
    + destruct (test_ok _ _ _ _ T) as (ef & p & -> & Ck & W & Nt & Fb). destruct (unbox_vals f (EPrim ef p [EVar x]) sb n) as [(a' & n1)|] eqn:E1; [|discriminate].
      pose proof E1 as E1'. apply read_test in E1. destruct E1 as (-> & ->).
      unfold fresh in E. destruct (unbox_vals f b _ (n + 1)) as [(b' & n3)|] eqn:E2; [|discriminate]. destruct (unbox_vals f c sb n3) as [(c' & n4)|] eqn:E3; [|discriminate]. injection E as <- <-.
      assert (Fx : free_in x (EIf (EPrim ef p [EVar x]) b c)) by (apply free_if; auto). destruct (iv_free _ _ _ _ V x Fx) as (Lx & Nx). cbn [binders flat_map app] in Nx.
      assert (Tv : var_unboxed_ctype_in_exp x b = Some t).
      { clear -T. unfold unbox_ctype_test in T. destruct (var_unboxed_ctype_in_exp x b) as [t1|]; [|discriminate]. destruct (typecheck_prim_ctype p); [|discriminate]. destruct (_ && _ && _); [|discriminate]. congruence. }
      assert (Vb : inv0 false ([(x, mkid (n + 1) (XC t))] ++ sb) (n + 1) b).
      { apply inv0_put; [apply (V1 [] b (n + 1)); [right; now left | lia]|]. intros z c0 [[= <- <-]|[]]. split; [discriminate|]. split; [rewrite in_app_iff in Nx; tauto|]. assert (N0 := iv_n _ _ _ _ V). split; [cbn; lia|]. exists t. auto. }
      assert (Vb0 := V1 [] b n (or_intror (or_introl eq_refl)) ltac:(lia)).
      apply mk.
      * eapply IH; [exact E1' | eapply V1; [now left | lia] | exact Pa].
      * apply let_typed; [|eapply IH; eauto|].
        -- intros y t1 u [<-|[]] X Us. apply (new_uses f b [(x, mkid (n + 1) (XC t))] sb n (n + 1) b' n3) with (y := mkid (n + 1) (XC t)); auto; try lia.
           ++ intros x1 F. now apply (iv_free _ _ _ _ Vb0).
           ++ intros x1 c0 A. destruct (iv_sb _ _ _ _ Vb0 x1 c0 A) as (_ & _ & A1 & _). lia.
           ++ intros x1 c0 [[= <- <-]|[]]. exists t. auto.
           ++ cbn. lia.
        -- intros e [<-|[]]. apply typed_mk; [intros zs1 d x1 t1 u [] | intros zs1 d []].
      * eapply IH; [exact E3 | apply (V1 [] c n3); [right; right; now left|] | exact Pc]. destruct (unbox_sized _ _ _ _ _ _ E2). lia.
    + destruct (each _ [a; b; c] n) as [(l' & n1)|] eqn:E1; [|discriminate]. destruct (each_pairs _ _ _ _ _ _ E1) as (L1 & F).
      destruct l' as [|a' [|b' [|c' [|]]]]; try discriminate. injection E as <- <-.
      assert (R := list_typed f sb n n1 _ _ IH F). apply mk; (apply R; [|cbn [In]; auto]; intros e J2; destruct J2 as [<-|[<-|[<-|[]]]]; (split; [apply (V1 [] _ n); [cbn [In]; tauto | lia] | assumption])).
  - destruct (each _ l n) as [(l' & n1)|] eqn:E1; [|discriminate]. destruct (each_pairs _ _ _ _ _ _ E1) as (L1 & F). injection E as <- <-.
    assert (Vl : forall e, In e l -> inv0 false sb n e /\ part_of e e0).
    { intros e J. assert (K : In ([], e) (map (fun e => ([] : list id, e)) l)) by (now apply (in_map (fun e => ([] : list id, e)))). split; [apply (V1 [] e n); [exact K | lia]|]. exact (PT1 [] e K). }
    apply typed_mk; [intros zs d x1 t u J; apply in_map_iff in J; destruct J as (a & [= <- <-] & _); easy|].
    intros zs d J. apply in_map_iff in J. destruct J as (a & [= <- <-] & J). exact (list_typed f sb n n1 _ _ IH F Vl a J).
  - assert (Vl : forall e, In e l -> inv0 false sb n e /\ part_of e e0).
    { intros e J. assert (K : In ([], e) (([], g) :: map (fun e => ([] : list id, e)) l)) by (right; now apply (in_map (fun e => ([] : list id, e)))). split; [apply (V1 [] e n); [exact K | lia]|]. exact (PT1 [] e K). }
    assert (Vg := V1 [] g n (or_introl eq_refl) ltac:(lia)). assert (Pg := PT1 [] g (or_introl eq_refl)).
    destruct (degenerate_let (EApp g l)) as [b|] eqn:D.
    + apply degenerate_inv in D. destruct D as [[= -> ->]|(x & [= -> ->])].
      * eapply IH; [exact E | |].
        -- exact (inv0_part _ _ _ _ [] b Vg (or_introl eq_refl)).
        -- exact (part_below _ [] b _ Pg (or_introl eq_refl)).
      * destruct (Vl b (or_introl eq_refl)) as (A1 & A2). eapply IH; eauto.
    + destruct (let_view (EApp g l)) as [((ids & rands) & body)|] eqn:Lv.
      * apply let_view_inv in Lv. destruct Lv as ([= -> ->] & L). destruct (each _ rands n) as [(rands' & n1)|] eqn:E1; [|discriminate]. destruct (each_pairs _ _ _ _ _ _ E1) as (L1 & F).
        assert (Lr : length rands = length rands') by (clear -F; induction F; cbn; auto).
        destruct (let_loop_ok body ids rands' [] [] sb n1) as (ids' & ps & n2 & H & Eq); [congruence|]. rewrite Eq, !app_nil_r in E. destruct (unbox_vals f body _ n2) as [(b' & n3)|] eqn:E2; [|discriminate]. injection E as <- <-.
        destruct (lets_facts _ _ _ _ _ _ _ H) as (L2 & L3 & _ & C & I & Q). assert (Nx := iv_nodup _ _ _ _ Vg). cbn [binders] in Nx.
        assert (Bi : forall x, In x ids -> In x (binders (ELam ids body))) by (intros x J; cbn; apply in_app_iff; auto).
        assert (Vb0 := inv0_part _ _ _ _ ids body Vg (or_introl eq_refl)).
        assert (Vb : inv0 false (rev ps ++ sb) n2 body).
        { apply inv0_put; [apply inv0_le with n; [exact Vb0 | lia]|].
          intros x c J. apply in_rev in J. destruct (Q x c J) as (J1 & J2 & J3). destruct (iv_bind _ _ _ _ Vg x (Bi x J1)) as (J4 & _). split; [discriminate|]. split; [exact (nodup_no _ _ _ Nx J1)|]. split; [lia | assumption]. }
        assert (Pb := part_below _ ids body _ Pg (or_introl eq_refl)).
        apply let_typed; [|eapply IH; eauto|].
        -- intros y t u J X. apply in_rev in J. destruct (I y J) as [J1|(_ & J1)]; [now contradiction (proj2 (iv_bind _ _ _ _ Vg y (Bi y J1)) t)|].
           apply (new_uses f body ps sb n1 n2 b' n3); auto; try lia.
           ++ intros x1 Fx. destruct (iv_free _ _ _ _ Vb0 x1 Fx). lia.
           ++ intros x1 c A. destruct (iv_sb _ _ _ _ Vb0 x1 c A) as (_ & _ & A1 & _). lia.
           ++ intros x1 c J2. now apply Q in J2.
        -- intros e J. apply in_rev in J. exact (list_typed f sb n n1 _ _ IH F Vl e J).
      * destruct (each _ (g :: l) n) as [(l' & n1)|] eqn:E1; [|discriminate]. destruct (each_pairs _ _ _ _ _ _ E1) as (L1 & F). destruct l' as [|g' l']; [discriminate|]. injection E as <- <-.
        assert (R := list_typed f sb n n1 _ _ IH F). assert (Va : forall e, In e (g :: l) -> inv0 false sb n e /\ part_of e e0) by (intros e [<-|J]; [split; assumption | auto]).
        apply typed_mk.
        -- intros zs d x1 t u [[= <- <-]|J]; [easy|]. apply in_map_iff in J. destruct J as (a & [= <- <-] & _). easy.
        -- intros zs d [[= <- <-]|J]; [apply (R Va); now left|]. apply in_map_iff in J. destruct J as (a & [= <- <-] & J). apply (R Va). now right.
  - destruct (unbox_lam (unbox_vals f) xs b sb n) as [((xs1 & b1) & n1)|] eqn:E1; [|discriminate]. injection E as <- <-.
    destruct (lam_typed f sb n xs b xs1 b1 n1 IH E1 V) as (-> & R); [eapply PT1; now left|]. apply typed_mk.
    + apply here_none. intros ys d x t [[= <- <-]|[]] J. apply (iv_bind _ _ _ _ V x). cbn. apply in_app_iff. now left.
    + intros ys d [[= <- <-]|[]]. assumption.
  - destruct (each_lam _ lams n) as [(l' & n1)|] eqn:E1; [|discriminate]. destruct (unbox_vals f b sb n1) as [(b' & n2)|] eqn:E2; [|discriminate]. injection E as <- <-. destruct (lams_pairs _ _ _ _ _ _ E1) as (L1 & F).
    assert (Fp : forall l2, In l2 l' -> exists l1, In l1 lams /\ fst l2 = fst l1 /\ typed_uses (snd l2)).
    { intros l2 J. apply In_nth_error in J. destruct J as (i & Ni). destruct (Forall2_pick2 _ _ _ F i _ Ni) as (l1 & Nl & m & m' & A & Lm & Lm'). apply nth_error_In in Nl.
      destruct (lam_typed f sb m (fst l1) (snd l1) _ _ _ IH A) as (Ef & R); [apply inv0_le with n; [exact (inv0_fix false sb n ids lams b l1 V Nl) | assumption] | apply (PT1 (ids ++ fst l1)); right; now apply (in_map (fun l => (ids ++ fst l, snd l)))|].
      exists l1. auto. }
    apply typed_mk.
    + apply here_none. intros ys d x t J Jx. assert (B : In x (binders (EFix ids lams b))); [|now apply (iv_bind _ _ _ _ V x)]. cbn [binders]. destruct J as [[= <- <-]|J]; [apply in_app_iff; now left|].
      apply in_map_iff in J. destruct J as (l2 & [= <- <-] & J). destruct (Fp l2 J) as (l1 & Jl & Ef & _). rewrite Ef in Jx. apply in_app_iff in Jx. apply in_app_iff. destruct Jx as [Jx|Jx]; [now left|]. right. apply in_app_iff. left. apply in_flat_map. exists l1. split; [assumption|]. apply in_app_iff. now left.
    + intros ys d [[= <- <-]|J]; [eapply IH; [exact E2 | eapply V1; [now left | lia] | eapply PT1; now left]|]. apply in_map_iff in J. destruct J as (l2 & [= <- <-] & J). destruct (Fp l2 J) as (l1 & _ & _ & T). exact T.
Qed.
End Typed.

(** ** When the pass succeeds *)
Lemma late_part e ys e1 : late e -> In (ys, e1) (parts e) -> late e1.
Proof. intros L I e2 Po. apply L. econstructor; eauto. Qed.
Lemma depth_part e ys e1 : In (ys, e1) (parts e) -> (exp_depth e1 < exp_depth e)%nat.
Proof.
  assert (K : forall (l : list exp) a, In a l -> (exp_depth a <= fold_right (fun e d => Nat.max (exp_depth e) d) O l)%nat) by (induction l as [|b l IH]; [easy|]; intros a [->|I]; cbn [fold_right]; [lia | specialize (IH a I); lia]).
  assert (K2 : forall (l : list (list id * exp)) a, In a l -> (exp_depth (snd a) <= fold_right (fun l d => Nat.max (exp_depth (snd l)) d) O l)%nat) by (induction l as [|b l IH]; [easy|]; intros a [->|I]; cbn [fold_right]; [lia | specialize (IH a I); lia]).
  intros I. destruct e as [x|x e|a b c|ef p l|f l|xs b|xs ls b|x b|k e]; cbn [parts exp_depth] in *.
  - easy.
  - destruct I as [[= <- <-]|[]]. lia.
  - destruct I as [[= <- <-]|[[= <- <-]|[[= <- <-]|[]]]]; lia.
  - apply in_map_iff in I. destruct I as (a & [= <- <-] & I). specialize (K l a I). lia.
  - destruct I as [[= <- <-]|I]; [lia|]. apply in_map_iff in I. destruct I as (a & [= <- <-] & I). specialize (K l a I). lia.
  - destruct I as [[= <- <-]|[]]. lia.
  - destruct I as [[= <- <-]|I]; [lia|]. apply in_map_iff in I. destruct I as (a & [= <- <-] & I). specialize (K2 ls a I). lia.
  - destruct I as [[= <- <-]|[]]. lia.
  - destruct I as [[= <- <-]|[[= <- <-]|[]]]; lia.
Qed.
Lemma each_total g l : (forall e n, In e l -> g e n <> None) -> forall n, exists l' n', each g l n = Some (l', n') /\ length l' = length l.
Proof.
  induction l as [|e l IH]; intros H n; cbn [each]; [eauto|]. destruct (g e n) as [(e1 & n1)|] eqn:E; [|exfalso; revert E; apply H; now left].
  destruct (IH (fun a m J => H a m (or_intror J)) n1) as (l' & n' & -> & L). eexists _, _. split; [reflexivity|]. cbn. congruence.
Qed.
Lemma unbox_lam_total f xs b sb n : (forall sb n, unbox_vals f b sb n <> None) -> unbox_lam (unbox_vals f) xs b sb n <> None.
Proof. intros H. unfold unbox_lam. destruct (lam_loop b xs [] [] sb n) as (((oi & or) & sb1) & n1). specialize (H sb1 n1). destruct (unbox_vals f b sb1 n1) as [(b' & n2)|]; [discriminate | contradiction]. Qed.
Lemma unbox_total f : forall e sb n, (exp_depth e <= f)%nat -> late e -> unbox_vals f e sb n <> None.
Proof.
  induction f as [|f IH]; intros e sb n L T; [destruct e; cbn in L; lia|].
  assert (H : forall ys e1, In (ys, e1) (parts e) -> forall sb n, unbox_vals f e1 sb n <> None). { intros ys e1 J sb1 m. apply IH; [assert (Y := depth_part _ _ _ J); lia | eapply late_part; eauto]. }
  assert (T0 := T e (po_here e)). cbn [unbox_vals]. destruct e as [x|x e1|a b c|ef p l|g l|xs b|ids lams b|x b|k e1]; cbn [parts] in H; try contradiction.
  - discriminate.
  - rewrite T0. specialize (H [] e1 (or_introl eq_refl) sb n). destruct (unbox_vals f e1 sb n) as [(e2 & n1)|]; [discriminate | contradiction].
  - assert (Ha := H [] a (or_introl eq_refl)). assert (Hb := H [] b (or_intror (or_introl eq_refl))). assert (Hc := H [] c (or_intror (or_intror (or_introl eq_refl)))). destruct (unbox_ctype_test a b) as [(x & t)|].
    + specialize (Ha sb n). destruct (unbox_vals f a sb n) as [(a' & n1)|]; [|contradiction]. unfold fresh. specialize (Hb ((x, mkid (n1 + 1) (XC t)) :: sb) (n1 + 1)). destruct (unbox_vals f b _ _) as [(b' & n3)|]; [|contradiction].
      specialize (Hc sb n3). destruct (unbox_vals f c sb n3) as [(c' & n4)|]; [discriminate | contradiction].
    + destruct (each_total (fun e n => unbox_vals f e sb n) [a; b; c]) with (n := n) as (l' & n' & -> & Ll); [intros e m [<-|[<-|[<-|[]]]]; auto|]. destruct l' as [|a' [|b' [|c' [|]]]]; try discriminate.
  - destruct (each_total (fun e n => unbox_vals f e sb n) l) with (n := n) as (l' & n' & -> & Ll); [|discriminate]. intros e m J. apply (H []). now apply (in_map (fun e => ([] : list id, e))).
  - assert (Hl : forall e m, In e l -> unbox_vals f e sb m <> None) by (intros e m J; apply (H []); right; now apply (in_map (fun e => ([] : list id, e)))).
    destruct (degenerate_let (EApp g l)) as [b|] eqn:D.
    + apply degenerate_inv in D. destruct D as [[= -> ->]|(x & [= -> ->])]; [|apply Hl; now left]. apply IH; [cbn [exp_depth] in L; lia|]. apply late_part with (ELam [] b) [] ; [|now left]. eapply late_part; [exact T | now left].
    + destruct (let_view (EApp g l)) as [((ids & rands) & body)|] eqn:Lv.
      * apply let_view_inv in Lv. destruct Lv as ([= -> ->] & Ln). destruct (each_total (fun e n => unbox_vals f e sb n) rands Hl n) as (l' & n' & -> & Ll). destruct (let_loop body ids l' [] [] sb n') as (((oi & or) & sb1) & n2).
        assert (Hb : unbox_vals f body sb1 n2 <> None). { apply IH; [unfold let_exp in L; cbn [exp_depth] in L; lia|]. apply late_part with (ELam ids body) ids; [|now left]. eapply late_part; [exact T | now left]. }
        destruct (unbox_vals f body sb1 n2) as [(b' & n3)|]; [discriminate | contradiction].
      * destruct (each_total (fun e n => unbox_vals f e sb n) (g :: l)) with (n := n) as (l' & n' & -> & Ll); [intros e m [<-|J]; [apply (H [] g); now left | auto]|]. destruct l'; discriminate.
  - assert (Hb := unbox_lam_total f xs b sb n (H xs b (or_introl eq_refl))). destruct (unbox_lam (unbox_vals f) xs b sb n) as [((xs1 & b1) & n1)|]; [discriminate | contradiction].
  - assert (Hl : forall ls m, incl ls lams -> each_lam (fun xs b n => unbox_lam (unbox_vals f) xs b sb n) ls m <> None).
    { induction ls as [|(xs & b1) ls IHl]; intros m Sub; cbn [each_lam]; [discriminate|].
      assert (Hb := unbox_lam_total f xs b1 sb m (H (ids ++ xs) b1 (or_intror (in_map (fun l => (ids ++ fst l, snd l)) lams (xs, b1) (Sub _ (or_introl eq_refl)))))).
      destruct (unbox_lam (unbox_vals f) xs b1 sb m) as [((xs1 & b2) & n1)|]; [|contradiction]. assert (Q := IHl n1 (fun z J => Sub z (or_intror J))). destruct (each_lam _ ls n1) as [(r & n2)|]; [discriminate | contradiction]. }
    assert (Q := Hl lams n (fun z J => J)). destruct (each_lam _ lams n) as [(r & n1)|]; [|contradiction]. assert (Hb := H ids b (or_introl eq_refl) sb n1). destruct (unbox_vals f b sb n1) as [(b' & n2)|]; [discriminate | contradiction].
Qed.
Lemma late_mk e : (forall ys e1, In (ys, e1) (parts e) -> late e1) -> match e with ELetcc _ _ | EWithcc _ _ => False | ESet x _ => global_id x = true | _ => True end -> late e.
Proof. intros H T e2 Po. inversion Po as [|zs e3 ? I Po2]; subst; [exact T | exact (H zs e3 I e2 Po2)]. Qed.
Lemma each_late f sb l l' n n' : (forall e sb n e' n', unbox_vals f e sb n = Some (e', n') -> late e) -> each (fun e n => unbox_vals f e sb n) l n = Some (l', n') -> forall e, In e l -> late e.
Proof.
  intros H. revert l' n n'. induction l as [|a l IH]; intros l' n n' E e J; [easy|]. cbn [each] in E. destruct (unbox_vals f a sb n) as [(e1 & n1)|] eqn:E1; [|discriminate]. destruct (each _ l n1) as [(l1 & n2)|] eqn:E2; [|discriminate].
  destruct J as [<-|J]; [eapply H; eauto | eapply IH; eauto].
Qed.
Lemma unbox_late f : forall e sb n e' n', unbox_vals f e sb n = Some (e', n') -> late e.
Proof.
  induction f as [|f IH]; intros e sb n e' n' E; [discriminate|]. cbn [unbox_vals] in E.
  destruct e as [x|x e1|a b c|ef p l|g l|xs b|ids lams b|x b|k e1]; try discriminate; (apply late_mk; [|try exact I]); cbn [parts].
  - easy.
  - destruct (global_id x); [|discriminate]. destruct (unbox_vals f e1 sb n) as [(e2 & n1)|] eqn:E1; [|discriminate]. intros ys e3 [[= <- <-]|[]]. eauto.
  - destruct (global_id x); [reflexivity | discriminate].
  - assert (K : forall e, In e [a; b; c] -> late e).
    { destruct (unbox_ctype_test a b) as [(x & t)|].
      - destruct (unbox_vals f a sb n) as [(a' & n1)|] eqn:E1; [|discriminate]. unfold fresh in E. destruct (unbox_vals f b _ _) as [(b' & n3)|] eqn:E2; [|discriminate]. destruct (unbox_vals f c sb n3) as [(c' & n4)|] eqn:E3; [|discriminate].
        intros e [<-|[<-|[<-|[]]]]; eauto.
      - destruct (each _ [a; b; c] n) as [(l' & n1)|] eqn:E1; [|discriminate]. exact (each_late _ _ _ _ _ _ IH E1). }
    intros ys e1 [[= <- <-]|[[= <- <-]|[[= <- <-]|[]]]]; apply K; cbn [In]; auto.
  - destruct (each _ l n) as [(l' & n1)|] eqn:E1; [|discriminate]. intros ys e1 J. apply in_map_iff in J. destruct J as (a & [= <- <-] & J). exact (each_late _ _ _ _ _ _ IH E1 a J).
  - assert (K : late g /\ forall e, In e l -> late e).
    { destruct (degenerate_let (EApp g l)) as [b|] eqn:D.
      - apply IH in E. apply degenerate_inv in D. destruct D as [[= -> ->]|(x & [= -> ->])].
        + split; [|easy]. apply late_mk; [|exact I]. intros ys e1 [[= <- <-]|[]]. assumption.
        + split; [|intros e [<-|[]]; assumption]. apply late_mk; [|exact I]. intros ys e1 [[= <- <-]|[]]. apply late_mk; [easy | exact I].
      - destruct (let_view (EApp g l)) as [((ids & rands) & body)|] eqn:Lv.
        + apply let_view_inv in Lv. destruct Lv as ([= -> ->] & Ln). destruct (each _ rands n) as [(rands' & n1)|] eqn:E1; [|discriminate]. destruct (let_loop body ids rands' [] [] sb n1) as (((oi & or) & sb1) & n2).
          destruct (unbox_vals f body sb1 n2) as [(b' & n3)|] eqn:E2; [|discriminate]. split; [|exact (each_late _ _ _ _ _ _ IH E1)]. apply late_mk; [|exact I]. intros ys e1 [[= <- <-]|[]]. eauto.
        + destruct (each _ (g :: l) n) as [(l' & n1)|] eqn:E1; [|discriminate]. assert (Q := each_late _ _ _ _ _ _ IH E1). split; [apply Q; now left | intros; apply Q; now right]. }
    intros ys e1 [[= <- <-]|J]; [exact (proj1 K)|]. apply in_map_iff in J. destruct J as (a & [= <- <-] & J). exact (proj2 K a J).
  - destruct (unbox_lam (unbox_vals f) xs b sb n) as [((xs1 & b1) & n1)|] eqn:E1; [|discriminate]. apply unbox_lam_inv in E1. destruct E1 as (_ & zs & ts0 & ys & m & b2 & _ & E1 & _). intros zs1 e1 [[= <- <-]|[]]. eauto.
  - destruct (each_lam _ lams n) as [(l' & n1)|] eqn:E1; [|discriminate]. destruct (unbox_vals f b sb n1) as [(b' & n2)|] eqn:E2; [|discriminate]. destruct (lams_pairs _ _ _ _ _ _ E1) as (_ & F).
    intros ys e1 [[= <- <-]|J]; [eauto|]. apply in_map_iff in J. destruct J as (l1 & [= <- <-] & J). clear -F J IH. induction F as [|a a' l l' (m & m' & A & _) F IHF]; [easy|]. destruct J as [->|J]; [|auto].
    apply unbox_lam_inv in A. destruct A as (_ & zs & ts0 & ys & m1 & b2 & _ & A & _). eauto.
Qed.

(** ** The pass *)
Lemma inv0_start lo n e : 0 <= n -> distinct n e -> untyped e -> closed e -> inv0 lo [] n e.
Proof.
  intros N (ND & B) Un Cl. constructor.
  - exact N.
  - exact ND.
  - intros y J. split; [exact (B y J) | exact (fun t => Un y t J)].
  - intros x F. apply Cl in F. unfold global_id in F. apply Z.ltb_lt in F. split; [lia|]. intros J. specialize (B x J). lia.
  - intros x c J. discriminate J.
Qed.
Theorem unbox_scope e n e' n' : 0 <= n -> distinct n e -> untyped e -> closed e -> plain_tests e -> unbox_values e n = Some (e', n') -> distinct n' e' /\ closed e'.
Proof.
  intros N D Un Cl Pl E. assert (V := inv0_start false n e N D Un Cl). assert (B := unbox_sized _ _ _ _ _ _ E). destruct D as (ND & Bo). split; [split|].
  - apply (bd_nodup _ _ _ _ B ND). intros y I. specialize (Bo y I). lia.
  - intros x I. destruct B as (L & _ & B). destruct (B x I) as [J|(_ & J)]; [specialize (Bo x J); lia | lia].
  - intros x F. apply free_use in F. destruct F as (u & Us). destruct (unbox_uses e Pl _ _ _ _ _ _ E V (po_here e) x u Us) as (y & u' & Ey & Uy & _). cbn in Ey. subst y. apply Cl. eapply use_free; eauto.
Qed.
Theorem unbox_uses_typed e n e' n' : 0 <= n -> distinct n e -> untyped e -> closed e -> plain_tests e -> unbox_values e n = Some (e', n') -> typed_uses e'.
Proof. intros N D Un Cl Pl E. exact (unbox_typed e Pl _ _ _ _ _ _ E (inv0_start false n e N D Un Cl) (po_here e)). Qed.
Theorem unbox_succeeds e n : (exists e' n', unbox_values e n = Some (e', n')) <-> late e.
Proof.
  split; [intros (e' & n' & E); exact (unbox_late _ _ _ _ _ _ E)|]. intros L. assert (T := unbox_total (exp_depth e) e [] n (le_n _) L). unfold unbox_values. destruct (unbox_vals _ _ _ _) as [(e' & n')|]; [eauto | contradiction].
Qed.
