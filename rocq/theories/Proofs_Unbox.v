(** Unboxing of values: the result corresponds to the program. *)
From Coq Require Import ZArith String List Bool Lia.
From Verif Require Import Base Model_Lit Model_Core Model_Fold Model_Letrec Model_Unbox Spec_Sem Spec_Free Spec_Scope Spec_Fold.
From Verif Require Import Proofs_Sim Proofs_Free Proofs_BetaFree Proofs_CpsMore Proofs_FoldText Proofs_FoldWf Proofs_FoldSem Proofs_Fold Proofs_LetrecFix.
From Verif Require Import Spec_Unbox Proofs_UnboxUse Proofs_UnboxSem.
Import ListNotations.
Open Scope Z_scope.

(** ** Operations made explicit *)
Lemma wraps_nil l : wraps [] l = l.
Proof. now destruct l. Qed.
Lemma wraps_untyped xs : forall l, (forall x t, In x xs -> xt x <> XC t) -> wraps xs l = l.
Proof.
  induction xs as [|x xs IH]; intros l H; [apply wraps_nil|]. destruct l as [|e l]; [reflexivity|]. cbn [wraps]. rewrite IH by (intros; apply H; now right).
  specialize (fun t => H x t (or_introl eq_refl)). destruct (xt x) as [| | |u]; try reflexivity. now contradiction (H u).
Qed.
Lemma wraps_len xs : forall l, length (wraps xs l) = length l.
Proof. induction xs as [|x xs IH]; intros l; [now rewrite wraps_nil|]. destruct l; [reflexivity|]. cbn [wraps length]. now rewrite IH. Qed.
Lemma wraps_app xs : forall l xs' l', length xs = length l -> wraps (xs ++ xs') (l ++ l') = wraps xs l ++ wraps xs' l'.
Proof. induction xs as [|x xs IH]; intros [|e l] xs' l' L; try discriminate; [reflexivity|]. cbn [app wraps]. f_equal. apply IH. now injection L. Qed.
Lemma wraps_rev xs : forall l, length xs = length l -> wraps (rev xs) (rev l) = rev (wraps xs l).
Proof.
  induction xs as [|x xs IH]; intros [|e l] L; try discriminate; [reflexivity|]. cbn [rev]. injection L as L. rewrite wraps_app by (now rewrite !rev_length). rewrite IH by assumption. reflexivity.
Qed.
Lemma explicit_lam e : is_lam (explicit e) = is_lam e.
Proof. now destruct e. Qed.
Lemma combine_rev {A B} (l : list A) : forall (l' : list B), length l = length l' -> combine (rev l) (rev l') = rev (combine l l').
Proof.
  assert (G : forall (a : list A) (b : list B) x y, length a = length b -> combine (a ++ [x]) (b ++ [y]) = combine a b ++ [(x, y)]).
  { induction a as [|u a IH]; intros [|v b] x y L; try discriminate; [reflexivity|]. cbn. f_equal. apply IH. now injection L. }
  induction l as [|x l IH]; intros [|y l'] L; try discriminate; [reflexivity|]. cbn [rev combine]. injection L as L. rewrite G by (now rewrite !rev_length). now rewrite IH.
Qed.
Lemma nth_pair {A B} (l : list A) : forall (l' : list B) i x, length l = length l' -> nth_error l i = Some x -> exists y, nth_error l' i = Some y /\ In (x, y) (combine l l').
Proof.
  induction l as [|a l IH]; intros [|b l'] i x L N; try discriminate; [destruct i; discriminate|]. injection L as L. destruct i as [|i]; cbn in N.
  - injection N as ->. exists b. split; [reflexivity | now left].
  - destruct (IH l' i x L N) as (y & E & I). exists y. split; [assumption | now right].
Qed.
Lemma assq_in {A} x (c : A) l : NoDup (map fst l) -> In (x, c) l -> assq x l = Some c.
Proof.
  induction l as [|(y & a) l IH]; cbn [map fst]; intros N I; [easy|]. inversion N as [|? ? N1 N2]; subst. cbn [assq]. destruct I as [[= -> ->]|I]; [now rewrite id_eqb_refl|].
  destruct (id_eqb x y) eqn:E; [|auto]. apply id_eqb_eq in E. subst y. contradiction N1. exact (in_map fst _ _ I).
Qed.
Lemma assq_cat {A} x (c : A) l sb : assq x (l ++ sb) = Some c -> In (x, c) l \/ assq x sb = Some c.
Proof. induction l as [|(y & a) l IH]; cbn [app assq]; intros E; [auto|]. destruct (id_eqb x y) eqn:X; [apply id_eqb_eq in X; injection E as ->; subst; left; now left|]. destruct (IH E); [left; now right | auto]. Qed.
Lemma assq_front {A} x (c : A) l sb : NoDup (map fst l) -> In (x, c) l -> assq x (rev l ++ sb) = Some c.
Proof.
  intros N I. assert (N' : NoDup (map fst (rev l))) by (rewrite map_rev; now apply NoDup_rev). assert (I' : In (x, c) (rev l)) by (now apply in_rev in I).
  revert N' I'. generalize (rev l). clear. intros l N I. induction l as [|(y & a) l IH]; [easy|]. cbn [map fst] in N. inversion N as [|? ? N1 N2]; subst. cbn [app assq]. destruct I as [[= -> ->]|I]; [now rewrite id_eqb_refl|].
  destruct (id_eqb x y) eqn:E; [|auto]. apply id_eqb_eq in E. subst y. contradiction N1. exact (in_map fst _ _ I).
Qed.
Lemma assq_past {A} x (l : list (id * A)) env : ~ In x (map fst l) -> assq x (l ++ env) = assq x env.
Proof. induction l as [|(y & a) l IH]; cbn [map fst assq app]; [reflexivity|]. intros N. rewrite IH by (intros J; apply N; now right). assert (E : x <> y) by (intros ->; apply N; now left). now rewrite (proj2 (id_eqb_neq _ _) E). Qed.
Lemma assq_back {A} x (l : list (id * A)) sb : ~ In x (map fst l) -> assq x (rev l ++ sb) = assq x sb.
Proof. intros N. apply assq_past. rewrite map_rev. now rewrite <- in_rev. Qed.

(** ** What holds on the way *)
Definition sgof (sb : substs) (x : id) : id := match assq x sb with Some c => c | None => x end.
Record inv0 (lo : bool) (sb : substs) (n : Z) (e : exp) : Prop := {
  iv_n : 0 <= n;
  iv_nodup : NoDup (binders e);
  iv_bind : forall y, In y (binders e) -> 0 <= ts y <= n /\ forall t, xt y <> XC t;
  iv_free : forall x, free_in x e -> ts x <= n /\ ~ In x (binders e);
  iv_sb : forall x c, assq x sb = Some c -> (lo = true -> 0 <= ts x) /\ ~ In x (binders e) /\ 0 <= ts c <= n /\
    exists t, xt c = XC t /\ forall u, use_in x e u -> (exists z, e = EVar z) \/ u = Some t }.
Lemma cnt_flat_in {A} (f : A -> list id) l a y : In a l -> (cnt y (f a) <= cnt y (flat_map f l))%nat.
Proof. induction l as [|b l IH]; [easy|]. intros [->|I]; cbn [flat_map]; rewrite cnt_app; [lia | specialize (IH I); lia]. Qed.
Lemma part_cnt e ys e1 : In (ys, e1) (parts e) -> forall y, (cnt y ys + cnt y (binders e1) <= cnt y (binders e))%nat.
Proof.
  intros I y. destruct e as [x|x e|a b c|ef p l|f l|xs b|xs ls b|x b|k e]; cbn [parts] in I; cbn [binders].
  - easy.
  - destruct I as [[= <- <-]|[]]. cbn. lia.
  - rewrite !cnt_app. destruct I as [[= <- <-]|[[= <- <-]|[[= <- <-]|[]]]]; change (cnt y []) with 0%nat; lia.
  - apply in_map_iff in I. destruct I as (a & [= <- <-] & I). change (cnt y []) with 0%nat. exact (cnt_flat_in binders l a y I).
  - rewrite cnt_app. destruct I as [[= <- <-]|I]; [change (cnt y []) with 0%nat; lia|]. apply in_map_iff in I. destruct I as (a & [= <- <-] & I). change (cnt y []) with 0%nat. pose proof (cnt_flat_in binders l a y I). lia.
  - destruct I as [[= <- <-]|[]]. rewrite cnt_app. lia.
  - rewrite !cnt_app. destruct I as [[= <- <-]|I]; [lia|]. apply in_map_iff in I. destruct I as (l & [= <- <-] & I). rewrite cnt_app. pose proof (cnt_flat_in (fun l => fst l ++ binders (snd l)) ls l y I) as H. cbn beta in H. rewrite cnt_app in H. lia.
  - destruct I as [[= <- <-]|[]]. rewrite (cnt_cons y x (binders b)). lia.
  - rewrite cnt_app. destruct I as [[= <- <-]|[[= <- <-]|[]]]; change (cnt y []) with 0%nat; lia.
Qed.
Lemma nodup_cnt l : NoDup l <-> forall y, (cnt y l <= 1)%nat.
Proof. apply (NoDup_count_occ id_dec). Qed.
Lemma inv0_le lo sb n n' e : inv0 lo sb n e -> n <= n' -> inv0 lo sb n' e.
Proof.
  intros [A0 A B C D] L. split; auto; [lia|..].
  - intros y I. destruct (B y I) as (? & ?). split; [lia | assumption].
  - intros x F. destruct (C x F). split; [lia | assumption].
  - intros x c E. destruct (D x c E) as (? & ? & ? & ?). repeat split; auto; lia.
Qed.
Lemma inv0_part lo sb n e ys e1 : inv0 lo sb n e -> In (ys, e1) (parts e) -> inv0 lo sb n e1.
Proof.
  intros [A0 A B C D] I. assert (Cn := part_cnt _ _ _ I). rewrite nodup_cnt in A.
  assert (Sub : forall y, In y (binders e1) -> In y (binders e)) by (intros y; rewrite !cnt_In; specialize (Cn y); lia).
  assert (Sub2 : forall y, In y ys -> In y (binders e)) by (intros y; rewrite !cnt_In; specialize (Cn y); lia).
  assert (Dis : forall y, In y ys -> ~ In y (binders e1)) by (intros y; rewrite !cnt_In; specialize (Cn y); specialize (A y); lia).
  split; [assumption|..].
  - apply nodup_cnt. intros y. specialize (Cn y). specialize (A y). lia.
  - intros y J. apply B. auto.
  - intros x F. destruct (in_dec id_dec x ys) as [J|J]; [split; [apply B; auto | auto]|].
    destruct (C x) as (L & N); [eapply free_in_eq; right; eauto|]. split; [assumption | auto].
  - intros x c E. destruct (D x c E) as (P1 & P2 & P3 & t & P4 & P5). split; [assumption|]. split; [auto|]. split; [assumption|]. exists t. split; [assumption|].
    intros u Us. assert (H : (exists z, e1 = EVar z) \/ ~ bare e e1) by (destruct e1; [left; eauto | right; now destruct e ..]). destruct H as [H|H]; [now left|]. right.
    destruct (P5 u) as [(z & ->)|Q]; [|easy | exact Q]. eapply us_part; eauto.
Qed.
Lemma inv0_put lo sb n e l : inv0 lo sb n e ->
  (forall x c, In (x, c) l -> (lo = true -> 0 <= ts x) /\ ~ In x (binders e) /\ 0 <= ts c <= n /\ exists t, xt c = XC t /\ var_unboxed_ctype_in_exp x e = Some t) -> inv0 lo (l ++ sb) n e.
Proof.
  intros [A0 A B C D] H. split; auto. intros x c E. apply assq_cat in E. destruct E as [E|E]; [|auto]. destruct (H x c E) as (P1 & P2 & P3 & t & P4 & P5). repeat split; auto; try lia. exists t. split; [assumption|].
  intros u Us. right. destruct (in_exp_ok _ _ _ P5) as ((_ & O) & _). auto.
Qed.
Lemma inv0_fix lo sb n ids lams b l : inv0 lo sb n (EFix ids lams b) -> In l lams -> inv0 lo sb n (ELam (fst l) (snd l)).
Proof.
  intros [A0 A B C D] I. assert (Cn : forall y, (cnt y ids + cnt y (binders (ELam (fst l) (snd l))) <= cnt y (binders (EFix ids lams b)))%nat).
  { intros y. cbn [binders]. rewrite !cnt_app. pose proof (cnt_flat_in (fun l => fst l ++ binders (snd l)) lams l y I) as H. cbn beta in H. rewrite cnt_app in H. lia. }
  rewrite nodup_cnt in A. assert (Sub : forall y, In y (binders (ELam (fst l) (snd l))) -> In y (binders (EFix ids lams b))) by (intros y; rewrite !cnt_In; specialize (Cn y); lia).
  assert (Sub2 : forall y, In y ids -> In y (binders (EFix ids lams b)) /\ ~ In y (binders (ELam (fst l) (snd l)))) by (intros y; rewrite !cnt_In; specialize (Cn y); specialize (A y); lia).
  split; [assumption|..].
  - apply nodup_cnt. intros y. specialize (Cn y). specialize (A y). lia.
  - intros y J. apply B. auto.
  - intros x F. destruct (in_dec id_dec x ids) as [J|J]; [split; [apply B|]; now apply Sub2|]. apply free_lam in F.
    destruct (C x) as (L & N); [apply free_fix; split; [assumption|]; right; exists l; tauto|]. split; [assumption | auto].
  - intros x c E. destruct (D x c E) as (P1 & P2 & P3 & t & P4 & P5). split; [assumption|]. split; [auto|]. split; [assumption|]. exists t. split; [assumption|].
    intros u Us. right. inversion Us as [|? |? ? ? ? ?|? ys e1 ? J NJ Bx Ux]; subst. destruct J as [[= <- <-]|[]]. destruct (P5 u) as [(z & Z)|Q]; [|discriminate | exact Q].
    apply us_part with (ids ++ fst l) (snd l); [right; apply (in_map (fun l => (ids ++ fst l, snd l)) lams l I) | | intros [] | assumption].
    rewrite in_app_iff. intros [K|K]; [apply P2, Sub2, K | auto].
Qed.
Lemma sgof_new lo sb n e x X : inv0 lo sb n e -> free_in x e \/ ~ In x X -> (forall y, In y X -> In y (binders e) \/ n < ts y) -> ~ In x X -> ~ In (sgof sb x) X.
Proof.
  intros V _ HX N. unfold sgof. destruct (assq x sb) as [c|] eqn:E; [|assumption]. destruct (iv_sb _ _ _ _ V x c E) as (_ & _ & P3 & t & P4 & _). intros I. destruct (HX c I) as [J|J]; [|lia].
  now apply (proj2 (iv_bind _ _ _ _ V c J) t).
Qed.
Lemma sgof_free lo sb n e x X : inv0 lo sb n e -> free_in x e -> (forall y, In y X -> In y (binders e) \/ n < ts y) -> ~ In (sgof sb x) X.
Proof.
  intros V F HX. apply (sgof_new lo sb n e x X V); auto. intros I. destruct (iv_free _ _ _ _ V x F) as (L & N). destruct (HX x I); [contradiction | lia].
Qed.
Lemma sgof_bound lo sb n e x : inv0 lo sb n e -> In x (binders e) -> sgof sb x = x.
Proof. intros V I. unfold sgof. destruct (assq x sb) as [c|] eqn:E; [|reflexivity]. destruct (iv_sb _ _ _ _ V x c E) as (_ & N & _). contradiction. Qed.
Lemma bd_nodup n n' B B' : bd n n' B B' -> NoDup B -> (forall y, In y B -> ts y <= n) -> NoDup B'.
Proof.
  intros (L & C & _) N H. rewrite nodup_cnt in *. intros y. specialize (C y). specialize (N y). destruct (in_dec id_dec y B) as [I|I].
  - specialize (H y I). unfold nw in C. destruct (Z.ltb_spec n (ts y)); [lia|]. cbn in C. lia.
  - rewrite cnt_In in I. unfold nw in C. destruct (_ && _) in C; lia.
Qed.
Lemma part_below e ys e1 e0 : part_of e e0 -> In (ys, e1) (parts e) -> part_of e1 e0.
Proof. induction 1 as [|zs e2 e0 I H IH]; intros J; [econstructor; [exact J | constructor] | econstructor; [exact I | auto]]. Qed.

Section Unbox.
Variable P : prim -> script.
Variables of fits : list Z -> shape -> bool.
Hypothesis U : unboxing P of fits.
Notation TJ := (TJ P).
Notation UV := (UV P of).
Notation UB := (UB P of).

(** ** Types of expressions *)
Lemma ctype_ok m : forall e X env r t, (esize e <= m)%nat -> NoDup (binders e) -> (forall y, In y (binders e) -> global_id y = false /\ forall u, xt y = XC u -> name u) ->
  (forall y, In y X -> global_id y = false /\ ~ In y (binders e)) -> inside X env -> known of env r -> exp_ctype e env = Some t -> TJ r (explicit e) (has of t).
Proof.
  induction m as [|m IH]; intros e X env r t Sz ND B HX I K E; [assert (Y := esize_pos e); lia|].
  destruct e as [x|x e1|a b c|ef p l|rator rands|ids b|ids lams b|x b|k e1]; cbn [exp_ctype] in E; try discriminate.
  - destruct (assq x env) as [ty|] eqn:A; [|discriminate]. subst ty. apply tj_var.
    + apply HX. eauto.
    + intros v L. eapply K; eauto.
  - destruct (exp_ctype b env) as [t1|] eqn:E1; [|discriminate]. destruct (exp_ctype c env) as [t2|] eqn:E2; [|discriminate]. destruct (zlist_dec t1 t2) as [<-|]; [|discriminate]. injection E as <-. cbn in Sz.
    cbn [binders] in *. apply tj_if; (eapply IH; [| | | |exact I|exact K|eassumption]); try lia.
    + now apply nodup_r, nodup_l in ND.
    + intros y J. apply B. rewrite !in_app_iff. auto.
    + intros y J. destruct (HX y J) as (G & N). split; [assumption|]. rewrite !in_app_iff in N. tauto.
    + now apply nodup_r, nodup_r in ND.
    + intros y J. apply B. rewrite !in_app_iff. auto.
    + intros y J. destruct (HX y J) as (G & N). split; [assumption|]. rewrite !in_app_iff in N. tauto.
  - cbn [explicit]. eapply tj_prim; [apply tj_tops|]. intros vs w v w' _ Rn D. apply (ct_result P of (ub_types _ _ _ U) p t vs w v w'); auto; [now apply result_ok | now apply dull_ok].
  - destruct rator as [| | | | |ids b| | |]; try discriminate. destruct (Nat.eqb_spec (length ids) (length rands)) as [L|]; [|discriminate]. cbn in Sz. cbn [binders] in *. cbn [explicit].
    apply tj_let with (map (has_opt of) (map (fun r => exp_ctype r env) rands)).
    + assert (G : forall l xs, (forall e, In e l -> In e rands) -> (forall y, In y xs -> In y ids) -> Forall2 (TJ r) (wraps xs (map explicit l)) (map (has_opt of) (map (fun r => exp_ctype r env) l))); [|apply G; auto].
      induction l as [|e l IHl]; intros xs Sub Sub2; [destruct xs; constructor|].
      assert (H : TJ r (explicit e) (has_opt of (exp_ctype e env))).
      { destruct (exp_ctype e env) as [t1|] eqn:E1; cbn [has_opt]; [|apply tj_top; intros s; exact Logic.I].
        assert (Ie := Sub e (or_introl eq_refl)). eapply IH; [| | | |exact I|exact K|eassumption].
        - assert (Y := sum_in esize e rands Ie). lia.
        - apply nodup_r in ND. exact (nodup_flat binders _ _ ND Ie).
        - intros y J. apply B. apply in_app_iff. right. apply in_flat_map. eauto.
        - intros y J. destruct (HX y J) as (G & N). split; [assumption|]. intros J2. apply N. apply in_app_iff. right. apply in_flat_map. eauto. }
      destruct xs as [|x xs]; cbn [map wraps].
      * constructor; [exact H|]. rewrite <- (wraps_nil (map explicit l)). apply IHl; [intros; apply Sub; now right | easy].
      * constructor; [|apply IHl; [intros; apply Sub; now right | intros; apply Sub2; now right]].
        destruct (xt x) as [| | |u] eqn:X1; try exact H. apply tj_prim with [has_opt of (exp_ctype e env)]; [constructor; [exact H | constructor]|].
        intros vs w v w' Hs Rn. inversion Hs as [|? v0 ? vs0 H1 H2]; subst. inversion H2; subst. rewrite (ub_conv _ _ _ U) in Rn; [|apply (B x); [apply in_app_iff; left; apply in_app_iff; left; apply Sub2; now left | assumption]].
        destruct (fits u (shape_of v0)); [|discriminate]. injection Rn as <- <-. exact H1.
    + intros vs r1 h h' H Bi. eapply (IH b (ids ++ X)); [lia | | | | apply (inside_let P of (ub_types _ _ _ U)); exact I | | exact E].
      * now apply nodup_l, nodup_r in ND.
      * intros y J. apply B. rewrite !in_app_iff. auto.
      * intros y J. apply in_app_or in J. destruct J as [J|J].
        -- split; [apply B; rewrite !in_app_iff; auto|]. apply nodup_l in ND. exact (nodup_no _ _ _ ND J).
        -- destruct (HX y J) as (G & N). split; [assumption|]. rewrite !in_app_iff in N. tauto.
      * eapply (known_let P of (ub_types _ _ _ U)); eauto; [apply nodup_l, nodup_l in ND; exact ND|]. intros y J J2. destruct (HX y J2) as (_ & N). apply N. rewrite !in_app_iff. auto.
Qed.

(** ** Lists *)
Lemma each_pairs f sb : forall l n l' n', each (fun e n => unbox_vals f e sb n) l n = Some (l', n') ->
  n <= n' /\ Forall2 (fun e e' => exists m m', unbox_vals f e sb m = Some (e', m') /\ n <= m /\ m' <= n') l l'.
Proof.
  induction l as [|e l IH]; intros n l' n' E; cbn [each] in E; [injection E as <- <-; split; [lia | constructor]|].
  destruct (unbox_vals f e sb n) as [(e1 & n1)|] eqn:E1; [|discriminate]. destruct (each _ l n1) as [(l1 & n2)|] eqn:E2; [|discriminate]. injection E as <- <-.
  destruct (IH _ _ _ E2) as (L2 & F). destruct (unbox_sized f _ _ _ _ _ E1) as (L1 & _). split; [lia|]. constructor; [exists n, n1; repeat split; auto; lia|].
  clear -F L1. induction F as [|a a' l l' (m & m' & A & B & C) F IH]; constructor; [|assumption]. exists m, m'. repeat split; auto; lia.
Qed.
Lemma lams_pairs f sb : forall l n l' n', each_lam (fun xs b n => unbox_lam (unbox_vals f) xs b sb n) l n = Some (l', n') ->
  n <= n' /\ Forall2 (fun l l' => exists m m', unbox_lam (unbox_vals f) (fst l) (snd l) sb m = Some (fst l', snd l', m') /\ n <= m /\ m' <= n') l l'.
Proof.
  induction l as [|(xs & b) l IH]; intros n l' n' E; cbn [each_lam] in E; [injection E as <- <-; split; [lia | constructor]|].
  destruct (unbox_lam (unbox_vals f) xs b sb n) as [((xs1 & b1) & n1)|] eqn:E1; [|discriminate]. destruct (each_lam _ l n1) as [(l1 & n2)|] eqn:E2; [|discriminate]. injection E as <- <-.
  destruct (IH _ _ _ E2) as (L2 & F). destruct (lam_sized _ _ _ _ _ _ _ _ (unbox_sized f) E1) as (L1 & _). split; [lia|]. constructor; [exists n, n1; repeat split; auto; lia|].
  clear -F L1. induction F as [|a a' l l' (m & m' & A & B & C) F IH]; constructor; [|assumption]. exists m, m'. repeat split; auto; lia.
Qed.

(** ** The whole program [e0] *)
Variable e0 : exp.
Hypothesis G : gentle e0.
Hypothesis LT : local_tests e0.
Hypothesis PT : plain_tests e0.
Hypothesis NT : neat e0.
Definition uvs (f : nat) : Prop := forall e sb n e' n', unbox_vals f e sb n = Some (e', n') -> inv0 true sb n e -> part_of e e0 -> incl (procs e) (procs e0) -> UV (sgof sb) e (explicit e').
Lemma list_uv f sb n n' l l' : uvs f -> Forall2 (fun e e' => exists m m', unbox_vals f e sb m = Some (e', m') /\ n <= m /\ m' <= n') l l' ->
  (forall e, In e l -> inv0 true sb n e /\ part_of e e0 /\ incl (procs e) (procs e0)) -> Forall2 (UV (sgof sb)) l (map explicit l').
Proof.
  intros S F H. induction F as [|e e' l l' (m & m' & E & L1 & L2) F IH]; cbn [map]; constructor; [|apply IH; intros; apply H; now right].
  destruct (H e (or_introl eq_refl)) as (A & B & C). eapply S; eauto. now apply inv0_le with n.
Qed.
Lemma wraps_params ys zs : forall ts0, Forall2 (fun y t => xt y = XC t) ys ts0 -> length zs = length ys ->
  wraps ys (map EVar zs) = map (fun zt => cv (snd zt) (EVar (fst zt))) (combine zs ts0).
Proof.
  revert zs. induction ys as [|y ys IH]; intros [|z zs] ts0 F L; try discriminate; inversion F as [|? t ? ts1 X F2]; subst; [reflexivity|]. cbn [map wraps combine fst snd]. rewrite X. f_equal. apply IH; [assumption | now injection L].
Qed.
Lemma in_combine_fst {A B} (l : list A) (l' : list B) x : In x (map fst (combine l l')) -> In x l.
Proof. revert l'. induction l as [|a l IH]; intros [|b l']; cbn; auto; try easy. intros [->|J]; eauto. Qed.
Lemma nodup_combine {A B} (l : list A) : forall (l' : list B), NoDup l -> NoDup (map fst (combine l l')).
Proof. induction l as [|a l IH]; intros [|b l'] N; cbn; try constructor; inversion N; subst; [|auto]. intros J. apply H1. eapply in_combine_fst; eauto. Qed.
Lemma lam_uv f sb n xs b xs' b' n' : uvs f -> unbox_lam (unbox_vals f) xs b sb n = Some (xs', b', n') -> inv0 true sb n (ELam xs b) -> part_of b e0 -> In (xs, b) (procs e0) -> incl (procs b) (procs e0) ->
  xs' = xs /\ UB (sgof sb) xs b (explicit b').
Proof.
  intros S E V Po Ip Ic. apply unbox_lam_inv in E. destruct E as (-> & zs & ts0 & ys & n1 & b1 & H & E & D). split; [reflexivity|].
  destruct (hoists_facts _ _ _ _ _ _ _ H) as (L & L1 & L2 & C & I & Sub & Nm & Cz & W & X & Q).
  assert (Vb := inv0_part _ _ _ _ xs b V (or_introl eq_refl)). assert (Nx := iv_nodup _ _ _ _ V). cbn [binders] in Nx. assert (Nxs := nodup_l _ _ Nx).
  assert (Bx : forall x, In x xs -> In x (binders (ELam xs b))) by (intros x J; cbn; apply in_app_iff; auto).
  assert (Nz : NoDup zs). { rewrite nodup_cnt in *. intros y. specialize (Cz y). specialize (Nxs y). lia. }
  assert (Nz2 : NoDup (map fst (combine zs ys))) by (now apply nodup_combine).
  assert (Fx : forall x, free_in x (ELam xs b) -> ~ In (sgof sb x) xs). { intros x F. apply (sgof_free true sb n _ x xs V F). auto. }
  assert (V1 : inv0 true (rev (combine zs ys) ++ sb) n1 b).
  { apply inv0_put; [now apply inv0_le with n|]. intros x c J. apply in_rev in J. destruct (Q x c J) as (J1 & J2 & J3). destruct (iv_bind _ _ _ _ V x (Bx x J1)) as (J4 & _). split; [intros; lia|].
    split; [exact (nodup_no _ _ _ Nx J1)|]. split; [lia | assumption]. }
  assert (UVb := S _ _ _ _ _ E V1 Po Ic).
  destruct D as [(-> & ->)|(_ & ->)].
  - destruct zs; [|discriminate]. cbn in UVb. apply ub_plain; auto. intros x J. apply (sgof_bound true sb n _ x V). auto.
  - change (explicit (let_exp (rev ys) (rev (map EVar zs)) b1)) with (let_exp (rev ys) (wraps (rev ys) (map explicit (rev (map EVar zs)))) (explicit b1)).
    assert (R : map explicit (rev (map EVar zs)) = map EVar (rev zs)). { rewrite <- map_rev, map_map. reflexivity. }
    assert (Xr : Forall2 (fun y t => xt y = XC t) (rev ys) (rev ts0)) by (now apply Forall2_rev').
    rewrite R, (wraps_params _ _ _ Xr) by (now rewrite !rev_length).
    assert (Sg : forall x, ~ In x zs -> sgof (rev (combine zs ys) ++ sb) x = sgof sb x). { intros x N. unfold sgof. rewrite assq_back; [reflexivity|]. intros J. apply N. eapply in_combine_fst; eauto. }
    apply ub_hoist with (sg1 := sgof (rev (combine zs ys) ++ sb)).
    + now rewrite !rev_length.
    + now rewrite !rev_length.
    + apply NoDup_rev. rewrite nodup_cnt. intros y. specialize (C y). unfold nw in C. destruct (_ && _) in C; lia.
    + intros z J. apply Sub. now apply in_rev.
    + apply Forall_rev. assumption.
    + intros i z N. assert (Lr : length (rev zs) = length (rev ys)) by (now rewrite !rev_length). destruct (nth_pair _ (rev ys) i z Lr N) as (y & Ny & J). rewrite combine_rev in J by assumption. apply in_rev in J.
      split; [|apply nth_error_In in N; apply in_rev in N; unfold global_id; apply Z.ltb_ge; apply (iv_bind _ _ _ _ V z); auto].
      rewrite Ny. f_equal. unfold sgof. now rewrite (assq_front z y).
    + intros x J N. rewrite <- in_rev in N. rewrite Sg by assumption. apply (sgof_bound true sb n _ x V). auto.
    + intros x N. apply Sg. auto.
    + intros x F N. rewrite <- in_rev in N. rewrite Sg by assumption. intros J. apply in_rev in J. destruct (I _ J) as (_ & J2). destruct (in_dec id_dec x xs) as [K|K].
      * rewrite (sgof_bound true sb n _ x V) in J2 by auto. destruct (iv_bind _ _ _ _ V x (Bx x K)). lia.
      * apply (sgof_free true sb n (ELam xs b) x ys V) in J; [easy | apply free_lam; auto |]. intros y Jy. right. now apply I.
    + exact Fx.
    + apply Forall2_rev'. clear -W G Ip Sub. revert Sub. induction W as [|z t zs ts0 Wz W IH]; intros Sub; constructor; [|apply IH; intros y J; apply Sub; now right].
      split; [apply (G xs b z t Ip); [apply Sub; now left | assumption] | apply Wz].
    + exact UVb.
Qed.
Lemma has_is r e t : telling t -> TJ r e (has of t) -> TJ r e (is of t).
Proof. intros T J. eapply (tj_and P); [exact J | exact J|]. intros s A _. apply A. now apply dull_ok. Qed.
Lemma wraps_uv body ids rs n ids' ps n' : lets body ids rs n ids' ps n' -> (forall x t, In x ids -> xt x <> XC t) ->
  (forall r, In r rs -> NoDup (binders r) /\ forall y, In y (binders r) -> global_id y = false /\ forall u, xt y = XC u -> name u) ->
  forall sg l, Forall2 (UV sg) l (map explicit rs) ->
  Forall2 (fun e e' => UV sg e e' \/ exists t e1, e' = cv t e1 /\ name t /\ telling t /\ UV sg e e1 /\ forall r, TJ r e1 (is of t)) l (wraps ids' (map explicit rs)).
Proof.
  induction 1 as [n|x ids rand rands n t ids' ps n' V H IH|x ids rand rands n ids' ps n' V H IH]; intros Hx Hr sg l F; cbn [map] in F; inversion F as [|e ? l1 ? F1 F2]; subst; cbn [map wraps]; constructor.
  - right. cbn [xt]. exists t, (explicit rand). apply rand_ok in V. destruct V as (V & Ty). destruct (in_exp_ok _ _ _ V) as ((Ub & _) & Nt & _). split; [reflexivity|]. split; [assumption|]. split; [apply Ub|]. split; [assumption|].
    intros r. apply has_is; [apply Ub|]. destruct (Hr rand (or_introl eq_refl)) as (ND & B). apply (ctype_ok (esize rand) rand [] [] r t); auto; easy.
  - apply IH; auto. intros; apply Hx; now right. intros; apply Hr; now right.
  - left. assert (Q := fun t => Hx x t (or_introl eq_refl)). destruct (xt x) as [| | |u]; try assumption. now contradiction (Q u).
  - apply IH; auto. intros; apply Hx; now right. intros; apply Hr; now right.
Qed.
Lemma lets_nth body ids rs n ids' ps n' : lets body ids rs n ids' ps n' -> NoDup ids ->
  NoDup (map fst ps) /\ forall i x, nth_error ids i = Some x -> exists y, nth_error ids' i = Some y /\ (In (x, y) ps \/ y = x /\ ~ In x (map fst ps)).
Proof.
  induction 1 as [n|x ids rand rands n t ids' ps n' V H IH|x ids rand rands n ids' ps n' V H IH]; intros ND; [split; [constructor | intros [|i]; discriminate]|..].
  - inversion ND as [|? ? N1 N2]; subst. destruct (IH N2) as (A & B). destruct (lets_facts _ _ _ _ _ _ _ H) as (_ & _ & _ & _ & _ & Q).
    assert (K : ~ In x (map fst ps)). { intros J. apply in_map_iff in J. destruct J as ((x1 & c) & <- & J). exact (N1 (proj1 (Q _ _ J))). }
    split; [now constructor|]. intros [|i] z N; cbn in N.
    + injection N as <-. eexists. split; [reflexivity|]. left. now left.
    + destruct (B i z N) as (y & E & D). exists y. split; [assumption|]. destruct D as [D|(-> & D)]; [left; now right|]. right. split; [reflexivity|]. intros [<-|J]; [|auto]. apply N1. eapply nth_error_In; eauto.
  - inversion ND as [|? ? N1 N2]; subst. destruct (IH N2) as (A & B). destruct (lets_facts _ _ _ _ _ _ _ H) as (_ & _ & _ & _ & _ & Q).
    split; [assumption|]. intros [|i] z N; cbn in N; [|exact (B i z N)]. injection N as <-. exists x. split; [reflexivity|]. right. split; [reflexivity|]. intros J. apply in_map_iff in J. destruct J as ((x1 & c) & <- & J). exact (N1 (proj1 (Q _ _ J))).
Qed.
Lemma not_lam f g sb n r n' : unbox_vals f g sb n = Some (r, n') -> is_lam r = true -> is_lam g = true \/ exists b, degenerate_let g = Some b.
Proof.
  destruct f as [|f]; [discriminate|]. cbn [unbox_vals]. intros E L. destruct g as [x|x e1|a b c|ef p l|g l|xs b|ids lams b|x b|k e1]; try discriminate; auto.
  - injection E as <- <-. discriminate.
  - destruct (global_id x); [|discriminate]. destruct (unbox_vals f e1 sb n) as [(e2 & n1)|]; [|discriminate]. injection E as <- <-. discriminate.
  - destruct (unbox_ctype_test a b) as [(x & t)|].
    + destruct (unbox_vals f a sb n) as [(a' & n1)|]; [|discriminate]. unfold fresh in E. destruct (unbox_vals f b _ _) as [(b' & n3)|]; [|discriminate]. destruct (unbox_vals f c sb n3) as [(c' & n4)|]; [|discriminate]. injection E as <- <-. discriminate.
    + destruct (each _ [a; b; c] n) as [(l' & n1)|]; [|discriminate]. destruct l' as [|a' [|b' [|c' [|]]]]; try discriminate. injection E as <- <-. discriminate.
  - destruct (each _ l n) as [(l' & n1)|]; [|discriminate]. injection E as <- <-. discriminate.
  - destruct (degenerate_let (EApp g l)) as [b|]; [right; eauto|]. exfalso. destruct (let_view (EApp g l)) as [((ids & rands) & body)|].
    + destruct (each _ rands n) as [(rands' & n1)|]; [|discriminate]. destruct (let_loop body ids rands' [] [] sb n1) as (((oi & or) & sb1) & n2). destruct (unbox_vals f body _ n2) as [(b' & n3)|]; [|discriminate]. injection E as <- <-. discriminate.
    + destruct (each _ (g :: l) n) as [(l' & n1)|]; [|discriminate]. destruct l' as [|g' l']; [discriminate|]. injection E as <- <-. discriminate.
  - destruct (each_lam _ lams n) as [(l' & n1)|]; [|discriminate]. destruct (unbox_vals f b sb n1) as [(b' & n2)|]; [|discriminate]. injection E as <- <-. discriminate.
Qed.
Lemma sub_flat (l : list exp) e : In e l -> incl (procs e) (flat_map procs l).
Proof. intros I x J. apply in_flat_map. eauto. Qed.
Lemma read_test f ef p x sb n a' n1 : unbox_vals f (EPrim ef p [EVar x]) sb n = Some (a', n1) -> a' = EPrim ef p [EVar (sgof sb x)] /\ n1 = n.
Proof. destruct f as [|f]; [discriminate|]. cbn [unbox_vals each]. destruct f as [|f]; [discriminate|]. cbn [unbox_vals]. intros [= <- <-]. auto. Qed.
Lemma unbox_uv f : uvs f.
Proof.
  induction f as [|f IH]; intros e sb n e' n' E V Po Ip; [discriminate|]. cbn [unbox_vals] in E.
  assert (PT1 : forall ys e1, In (ys, e1) (parts e) -> part_of e1 e0) by (intros ys e1 J; exact (part_below _ _ _ _ Po J)).
  assert (V1 : forall ys e1 m, In (ys, e1) (parts e) -> n <= m -> inv0 true sb m e1) by (intros ys e1 m J L; apply inv0_le with n; [exact (inv0_part _ _ _ _ _ _ V J) | exact L]).
  destruct e as [x|x e1|a b c|ef p l|g l|xs b|ids lams b|x b|k e1]; try discriminate; cbn [parts] in PT1, V1.
  - injection E as <- <-. cbn [explicit]. assert (W : global_id (sgof sb x) = global_id x /\ (global_id x = true -> sgof sb x = x)).
    { unfold sgof. destruct (assq x sb) as [c|] eqn:A; [|auto]. destruct (iv_sb _ _ _ _ V x c A) as (A1 & _ & A2 & _). unfold global_id. rewrite (proj2 (Z.ltb_ge (ts c) 0)), (proj2 (Z.ltb_ge (ts x) 0)) by (try apply A1; lia || reflexivity). split; [reflexivity | discriminate]. }
    apply uv_var; apply W.
  - destruct (global_id x) eqn:Gx; [|discriminate]. destruct (unbox_vals f e1 sb n) as [(e2 & n1)|] eqn:E1; [|discriminate]. injection E as <- <-. cbn [explicit]. apply uv_set; [assumption|].
    eapply IH; [exact E1 | eapply V1; [now left | lia] | eapply PT1; now left | exact Ip].
  - assert (Pa := PT1 [] a (or_introl eq_refl)). assert (Pb := PT1 [] b (or_intror (or_introl eq_refl))). assert (Pc := PT1 [] c (or_intror (or_intror (or_introl eq_refl)))). cbn [procs] in Ip.
    assert (Ia : incl (procs a) (procs e0)) by (intros z J; apply Ip; rewrite !in_app_iff; auto). assert (Ib : incl (procs b) (procs e0)) by (intros z J; apply Ip; rewrite !in_app_iff; auto). assert (Ic : incl (procs c) (procs e0)) by (intros z J; apply Ip; rewrite !in_app_iff; auto).
    destruct (unbox_ctype_test a b) as [(x & t)|] eqn:T.
    + destruct (test_ok _ _ _ _ T) as (ef & p & -> & Ck & W & Nt & Fb). destruct (unbox_vals f (EPrim ef p [EVar x]) sb n) as [(a' & n1)|] eqn:E1; [|discriminate]. apply read_test in E1. destruct E1 as (-> & ->).
      unfold fresh in E. destruct (unbox_vals f b _ (n + 1)) as [(b' & n3)|] eqn:E2; [|discriminate]. destruct (unbox_vals f c sb n3) as [(c' & n4)|] eqn:E3; [|discriminate]. injection E as <- <-.
      assert (Gx : global_id x = false) by (exact (LT ef p x b c t Po Ck W)).
      assert (Us : use_in x (EIf (EPrim ef p [EVar x]) b c) None).
      { rewrite <- (PT ef p x t Pa Ck). apply us_part with [] (EPrim ef p [EVar x]); [now left | intros [] | intros [] |]. now apply us_operand. }
      assert (Sx : sgof sb x = x). { unfold sgof. destruct (assq x sb) as [c0|] eqn:A; [|reflexivity]. destruct (iv_sb _ _ _ _ V x c0 A) as (_ & _ & _ & u & _ & Q). destruct (Q _ Us) as [(z & Z)|Z]; discriminate. }
      rewrite Sx. assert (Fx : free_in x (EIf (EPrim ef p [EVar x]) b c)) by (apply free_if; auto). destruct (iv_free _ _ _ _ V x Fx) as (Lx & Nx). cbn [binders flat_map app] in Nx.
      assert (Lz : 0 <= ts x) by (unfold global_id in Gx; apply Z.ltb_ge in Gx; exact Gx).
      cbn [explicit map wraps]. change (explicit (let_exp [mkid (n + 1) (XC t)] [EVar x] b')) with (let_exp [mkid (n + 1) (XC t)] [cv t (EVar x)] (explicit b')). destruct W as ((Ub & O) & Cn).
      apply uv_test with (t := t) (sg1 := sgof ([(x, mkid (n + 1) (XC t))] ++ sb)); auto; [apply Ub | unfold global_id; cbn [ts]; apply Z.ltb_ge; lia | | | |].
      * intros z. unfold sgof, put. cbn [app assq]. destruct (id_dec z x) as [->|Nz]; [now rewrite id_eqb_refl | now rewrite (proj2 (id_eqb_neq _ _) Nz)].
      * assert (Vb : inv0 true ([(x, mkid (n + 1) (XC t))] ++ sb) (n + 1) b).
        { destruct (V1 [] b (n + 1)) as [A0 A1 A2 A3 A4]; [right; now left | lia|]. split; auto. intros y c0 A. apply assq_cat in A. destruct A as [[[= <- <-]|[]]|A]; [|auto].
          split; [intros; assumption|]. split; [rewrite in_app_iff in Nx; tauto|]. split; [cbn; lia|]. exists t. split; [reflexivity|]. intros u J. right. auto. }
        exact (IH _ _ _ _ _ E2 Vb Pb Ib).
      * eapply IH; [exact E3 | | exact Pc | exact Ic]. apply (V1 [] c n3); [right; right; now left|]. destruct (unbox_sized _ _ _ _ _ _ E2). lia.
      * intros z Fz Nz Z. assert (K : free_in z (EIf (EPrim ef p [EVar x]) b c)) by (apply free_if; auto). apply (sgof_free true sb n _ z [mkid (n + 1) (XC t)] V K); [|left; now symmetry].
        intros y [<-|[]]. right. cbn. lia.
    + destruct (each _ [a; b; c] n) as [(l' & n1)|] eqn:E1; [|discriminate]. destruct (each_pairs _ _ _ _ _ _ E1) as (L1 & F). assert (R : Forall2 (UV (sgof sb)) [a; b; c] (map explicit l')).
      { apply (list_uv f sb n n1 _ _ IH F). intros e J. destruct J as [<-|[<-|[<-|[]]]]; (split; [apply (V1 [] _ n); [cbn [In]; tauto | lia] | split; assumption]). }
      destruct l' as [|a' [|b' [|c' [|]]]]; try discriminate. injection E as <- <-. cbn [map] in R. inversion R as [|? ? ? ? R1 R2]; subst. inversion R2 as [|? ? ? ? R3 R4]; subst. inversion R4 as [|? ? ? ? R5 R6]; subst. cbn [explicit]. now apply uv_if.
  - destruct (each _ l n) as [(l' & n1)|] eqn:E1; [|discriminate]. destruct (each_pairs _ _ _ _ _ _ E1) as (L1 & F). injection E as <- <-. cbn [explicit]. apply uv_prim. apply (list_uv f sb n n1 _ _ IH F).
    intros e J. assert (K : In ([], e) (map (fun e => ([] : list id, e)) l)) by (now apply (in_map (fun e => ([] : list id, e)))). split; [apply (V1 [] e n); [exact K | lia]|]. split; [exact (PT1 [] e K)|]. intros z Z. apply Ip. cbn [procs]. exact (sub_flat l e J z Z).
  - assert (Vl : forall e, In e l -> inv0 true sb n e /\ part_of e e0 /\ incl (procs e) (procs e0)).
    { intros e J. assert (K : In ([], e) (([], g) :: map (fun e => ([] : list id, e)) l)) by (right; now apply (in_map (fun e => ([] : list id, e)))). split; [apply (V1 [] e n); [exact K | lia]|]. split; [exact (PT1 [] e K)|].
      intros z Z. apply Ip. cbn [procs]. apply in_app_iff. right. exact (sub_flat l e J z Z). }
    assert (Vg := V1 [] g n (or_introl eq_refl) ltac:(lia)). assert (Pg := PT1 [] g (or_introl eq_refl)).
    destruct (degenerate_let (EApp g l)) as [b|] eqn:D.
    + apply degenerate_inv in D. destruct D as [[= -> ->]|(x & [= -> ->])].
      * apply uv_null. eapply IH; [exact E | | |].
        -- exact (inv0_part _ _ _ _ [] b Vg (or_introl eq_refl)).
        -- exact (part_below _ [] b _ Pg (or_introl eq_refl)).
        -- intros z J. apply Ip. cbn. now rewrite app_nil_r.
      * assert (Gx : global_id x = false). { unfold global_id. apply Z.ltb_ge. apply (iv_bind _ _ _ _ V x). cbn. now left. }
        destruct (Vl b (or_introl eq_refl)) as (A1 & A2 & A3). apply uv_ident; [assumption|]. eapply IH; eauto.
    + destruct (let_view (EApp g l)) as [((ids & rands) & body)|] eqn:Lv.
      * apply let_view_inv in Lv. destruct Lv as ([= -> ->] & L). destruct (each _ rands n) as [(rands' & n1)|] eqn:E1; [|discriminate]. destruct (each_pairs _ _ _ _ _ _ E1) as (L1 & F).
        assert (Lr : length rands = length rands') by (clear -F; induction F; cbn; auto).
        destruct (let_loop_ok body ids rands' [] [] sb n1) as (ids' & ps & n2 & H & Eq); [congruence|]. rewrite Eq, !app_nil_r in E. destruct (unbox_vals f body _ n2) as [(b' & n3)|] eqn:E2; [|discriminate]. injection E as <- <-.
        destruct (lets_facts _ _ _ _ _ _ _ H) as (L2 & L3 & _ & C & I & Q). assert (Nx := iv_nodup _ _ _ _ Vg). cbn [binders] in Nx. assert (Ni := nodup_l _ _ Nx). destruct (lets_nth _ _ _ _ _ _ _ H Ni) as (Np & Nt).
        assert (Bi : forall x, In x ids -> In x (binders (ELam ids body))) by (intros x J; cbn; apply in_app_iff; auto).
        assert (Bi2 : forall x, In x ids -> In x (binders (EApp (ELam ids body) rands))) by (intros x J; cbn; rewrite !in_app_iff; auto).
        assert (Ip2 : incl (procs body) (procs e0)). { intros z J. apply Ip. cbn [procs]. rewrite (proj2 (Nat.eqb_eq _ _) L). apply in_app_iff. now left. }
        change (explicit (let_exp (rev ids') (rev rands') b')) with (let_exp (rev ids') (wraps (rev ids') (map explicit (rev rands'))) (explicit b')).
        rewrite map_rev, wraps_rev by (rewrite map_length; congruence).
        apply uv_let with (sg1 := sgof (rev ps ++ sb)); auto.
        -- apply nodup_cnt. intros y. specialize (C y). rewrite nodup_cnt in Ni. specialize (Ni y). destruct (in_dec id_dec y ids) as [J|J].
           ++ destruct (iv_bind _ _ _ _ Vg y (Bi y J)). unfold nw in C. destruct (Z.ltb_spec n1 (ts y)); [lia|]. cbn in C. lia.
           ++ rewrite cnt_In in J. unfold nw in C. destruct (_ && _) in C; lia.
        -- apply (wraps_uv _ _ _ _ _ _ _ H).
           ++ intros x t J. apply (iv_bind _ _ _ _ Vg x (Bi x J)).
           ++ intros r J. assert (K : exists e m m', In e rands /\ unbox_vals f e sb m = Some (r, m') /\ n <= m).
              { clear -F J. induction F as [|e e' l l' (m & m' & A & B & C) F IH]; [easy|]. destruct J as [->|J]; [exists e, m, m'; split; [now left | auto]|]. destruct (IH J) as (e1 & m1 & m1' & X1 & X2). exists e1, m1, m1'. split; [now right | exact X2]. }
              destruct K as (e & m & m' & Ie & Er & Lm). destruct (Vl e Ie) as (Ve & _). assert (B := unbox_sized _ _ _ _ _ _ Er). split.
              ** apply (bd_nodup _ _ _ _ B (iv_nodup _ _ _ _ Ve)). intros y Jy. destruct (iv_bind _ _ _ _ Ve y Jy). lia.
              ** intros y Jy. destruct B as (_ & _ & B).
                 destruct (B y Jy) as [K|((u & X & Nu & _) & K)].
                 --- destruct (iv_bind _ _ _ _ Ve y K) as (K1 & K2). split; [unfold global_id; apply Z.ltb_ge; lia|]. intros u X. now contradiction (K2 u).
                 --- split; [|intros u1 X1; congruence]. unfold global_id. apply Z.ltb_ge. assert (N0 := iv_n _ _ _ _ Ve). lia.
           ++ exact (list_uv f sb n n1 _ _ IH F Vl).
        -- intros i x N. destruct (Nt i x N) as (y & Ny & D1). rewrite Ny. f_equal. unfold sgof. destruct D1 as [D1|(-> & D1)]; [now rewrite (assq_front x y)|]. rewrite assq_back by assumption.
           symmetry. apply (sgof_bound true sb n _ x Vg). apply Bi. eapply nth_error_In; eauto.
        -- intros x Fx N. assert (K : ~ In x (map fst ps)). { intros J. apply in_map_iff in J. destruct J as ((x1 & c) & <- & J). exact (N (proj1 (Q _ _ J))). }
           unfold sgof at 1. rewrite assq_back by assumption. split; [reflexivity|]. assert (Fl : free_in x (ELam ids body)) by (apply free_lam; auto).
           apply (sgof_free true sb n _ x ids' Vg Fl). intros y J. destruct (I y J) as [J1|(_ & J1)]; [left; auto | right; lia].
        -- eapply IH; [exact E2 | | exact (part_below _ ids body _ Pg (or_introl eq_refl)) | exact Ip2]. apply inv0_put.
           ++ apply inv0_le with n; [exact (inv0_part _ _ _ _ ids body Vg (or_introl eq_refl)) | lia].
           ++ intros x c J. apply in_rev in J. destruct (Q x c J) as (J1 & J2 & J3). destruct (iv_bind _ _ _ _ Vg x (Bi x J1)) as (J4 & _). split; [intros; lia|]. split; [exact (nodup_no _ _ _ Nx J1)|]. split; [lia | assumption].
      * destruct (each _ (g :: l) n) as [(l' & n1)|] eqn:E1; [|discriminate]. destruct (each_pairs _ _ _ _ _ _ E1) as (L1 & F). destruct l' as [|g' l']; [discriminate|]. injection E as <- <-.
        inversion F as [|? ? ? ? (m & m' & Eg & Lm & Lm') Fl]; subst. assert (R := list_uv f sb n n1 _ _ IH Fl Vl).
        assert (Hl : is_lam g = true -> exists ids b, g = ELam ids b /\ length ids <> length l).
        { destruct g as [| | | | |ids b| | |]; try discriminate. intros _. exists ids, b. split; [reflexivity|]. cbn [let_view] in Lv. intros Le. apply Nat.eqb_eq in Le. now rewrite Le in Lv. }
        assert (Ig : incl (procs g) (procs e0)). { intros z J. apply Ip. cbn [procs]. apply in_app_iff. left. destruct g as [| | | | |ids b| | |]; try exact J. destruct (Hl eq_refl) as (i2 & b2 & [= <- <-] & Ne). now rewrite (proj2 (Nat.eqb_neq _ _) Ne). }
        assert (Ug : UV (sgof sb) g (explicit g')) by (eapply IH; [exact Eg | apply inv0_le with n; assumption | exact Pg | exact Ig]).
        cbn [explicit]. destruct (is_lam g') eqn:Ig'.
        -- destruct (not_lam _ _ _ _ _ _ Eg Ig') as [Lg|(b & Dg)].
           ++ destruct (Hl Lg) as (ids & b & -> & Ne). destruct f as [|f]; [discriminate|]. cbn [unbox_vals] in Eg. destruct (unbox_lam (unbox_vals f) ids b sb m) as [((xs1 & b1) & n2)|] eqn:E2; [|discriminate]. injection Eg as <- <-.
              apply unbox_lam_inv in E2. destruct E2 as (-> & _). rewrite wraps_untyped by (intros x t J; apply (iv_bind _ _ _ _ Vg x); cbn; apply in_app_iff; now left). apply uv_app; eauto 6.
           ++ exfalso. destruct (NT g l Po) as (N1 & N2). apply degenerate_inv in Dg. destruct Dg as [->|(x & ->)]; [now apply (N1 b) | now apply (N2 x b)].
        -- replace (wraps match g' with ELam xs _ => xs | _ => [] end (map explicit l')) with (map explicit l') by (destruct g'; try discriminate; now rewrite wraps_nil).
           apply uv_app; auto. left. now rewrite explicit_lam.
  - destruct (unbox_lam (unbox_vals f) xs b sb n) as [((xs1 & b1) & n1)|] eqn:E1; [|discriminate]. injection E as <- <-. cbn [explicit].
    destruct (lam_uv f sb n xs b xs1 b1 n1 IH E1 V) as (-> & R); [eapply PT1; now left | apply Ip; now left | intros z J; apply Ip; now right|]. now apply uv_lam.
  - destruct (each_lam _ lams n) as [(l' & n1)|] eqn:E1; [|discriminate]. destruct (unbox_vals f b sb n1) as [(b' & n2)|] eqn:E2; [|discriminate]. injection E as <- <-. destruct (lams_pairs _ _ _ _ _ _ E1) as (L1 & F). cbn [explicit]. cbn [procs] in Ip.
    assert (Bi : forall x, In x ids -> In x (binders (EFix ids lams b))) by (intros x J; cbn; apply in_app_iff; auto).
    apply uv_fix.
    + assert (Vl := fun l J => inv0_fix true sb n ids lams b l V J).
      assert (Pl : forall l, In l lams -> part_of (snd l) e0 /\ In (fst l, snd l) (procs e0) /\ incl (procs (snd l)) (procs e0)).
      { intros l J. split; [apply (PT1 (ids ++ fst l)); right; now apply (in_map (fun l => (ids ++ fst l, snd l)))|]. split; [|intros z Z]; (apply Ip; apply in_app_iff; left; apply in_flat_map; exists l; split; [assumption|]); [now left | now right]. }
      clear -F Vl Pl IH G. induction F as [|l1 l2 ls ls' (m & m' & A & Lm & Lm') F IHl]; cbn [map]; constructor; [|apply IHl; intros; [apply Vl | apply Pl]; now right].
      destruct (Pl l1 (or_introl eq_refl)) as (X1 & X2 & X3). destruct (lam_uv f sb m (fst l1) (snd l1) _ _ _ IH A) as (Y1 & Y2); auto. apply inv0_le with n; [apply Vl; now left | assumption].
    + eapply IH; [exact E2 | eapply V1; [now left | lia] | eapply PT1; now left | intros z J; apply Ip; apply in_app_iff; now right].
    + intros x J. apply (sgof_bound true sb n _ x V). auto.
    + intros x Fx. apply (sgof_free true sb n _ x ids V Fx). auto.
Qed.
End Unbox.
