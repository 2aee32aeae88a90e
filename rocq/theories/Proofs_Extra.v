(** The iteration that finds the extra parameters ends with the least solution. *)
From Coq Require Import ZArith List Bool Lia.
From Verif Require Import Model_Core Model_Lift Spec_Sem Spec_Free Spec_Lift Proofs_Sim Proofs_Core Proofs_Free.
Import ListNotations.

(** ** Sets *)
Lemma union_In x a b : In x (unionq a b) <-> In x a \/ In x b.
Proof.
  induction a as [|y a IH]; cbn; [tauto|]. destruct (memq y b) eqn:M.
  - apply memq_In in M. rewrite IH. split; [tauto|]. intros [[->|]|]; tauto.
  - cbn. rewrite IH. tauto.
Qed.
Lemma union_NoDup a b : NoDup a -> NoDup b -> NoDup (unionq a b).
Proof.
  intros A B. induction A as [|y a N A IH]; cbn; [assumption|]. destruct (memq y b) eqn:M; [assumption|]. constructor; [|assumption].
  rewrite union_In. intros [I|I]; [easy|]. now apply memq_not_In in M.
Qed.
Lemma inter_In x a b : In x (intersectionq a b) <-> In x a /\ In x b.
Proof.
  induction a as [|y a IH]; cbn; [tauto|]. destruct (memq y b) eqn:M.
  - apply memq_In in M. cbn. rewrite IH. split; [intros [->|]; tauto | tauto].
  - apply memq_not_In in M. rewrite IH. split; [tauto|]. intros ([->|I] & J); [easy | tauto].
Qed.
Lemma setdiff_In x a b : In x (setdiffq a b) <-> In x a /\ ~ In x b.
Proof.
  induction a as [|y a IH]; cbn; [tauto|]. destruct (memq y b) eqn:M.
  - apply memq_In in M. rewrite IH. split; [tauto|]. intros ([->|I] & J); [easy | tauto].
  - apply memq_not_In in M. cbn. rewrite IH. split; [intros [->|]; tauto | tauto].
Qed.
Lemma setdiff_NoDup a b : NoDup a -> NoDup (setdiffq a b).
Proof.
  induction 1 as [|y a N A IH]; cbn; [constructor|]. destruct (memq y b); [assumption|]. constructor; [|assumption]. rewrite setdiff_In. tauto.
Qed.
Lemma subset_incl a b : subsetq a b = true <-> incl a b.
Proof.
  unfold subsetq. rewrite forallb_forall. split; intros H x I; [apply memq_In, H, I | apply memq_In; auto].
Qed.
Lemma seteq_incl a b : seteq a b = true <-> incl a b /\ incl b a.
Proof. unfold seteq. rewrite andb_true_iff, !subset_incl. tauto. Qed.
Lemma posq_nth x l i : posq x l = Some i -> nth_error l i = Some x.
Proof.
  revert i. induction l as [|y l IH]; cbn; intros i E; [discriminate|]. destruct (id_eqb y x) eqn:Q.
  - injection E as <-. apply id_eqb_eq in Q. now subst.
  - destruct (posq x l); [|discriminate]. injection E as <-. cbn. auto.
Qed.
Lemma posq_In x l : In x l -> exists i, posq x l = Some i.
Proof.
  induction l as [|y l IH]; cbn; [easy|]. intros I. destruct (id_eqb y x) eqn:Q; [eauto|].
  destruct I as [->|I]; [now rewrite id_eqb_refl in Q|]. destruct (IH I) as (i & ->). cbn. eauto.
Qed.
Lemma all_some_map {A B} (f : A -> option B) l : (forall x, In x l -> f x <> None) -> exists r, all_some (map f l) = Some r.
Proof.
  induction l as [|x l IH]; cbn; intros H; [eauto|]. destruct (f x) eqn:E; [|now apply H in E; auto].
  destruct IH as (r & ->); [auto|]. cbn. eauto.
Qed.
Lemma all_some_Forall2 {A B} (f : A -> option B) l r : all_some (map f l) = Some r -> Forall2 (fun x y => f x = Some y) l r.
Proof.
  revert r. induction l as [|x l IH]; cbn; intros r E; [injection E as <-; constructor|].
  destruct (f x) eqn:Q; [|discriminate]. destruct (all_some (map f l)); [|discriminate]. injection E as <-. constructor; auto.
Qed.

(** ** The loop *)
Section Loop.
Variable fv : list (list nat * list id).
Variable N : nat -> id -> Prop.          (** the least solution *)
Let n := length fv.
Let U := concat (map snd fv).
Hypothesis N_own : forall i c o x, nth_error fv i = Some (c, o) -> In x o -> N i x.
Hypothesis N_call : forall i c o j x, nth_error fv i = Some (c, o) -> In j c -> N j x -> N i x.
Hypothesis own_NoDup : forall i c o, nth_error fv i = Some (c, o) -> NoDup o.

Definition get (av : list (list id)) (i : nat) : list id := nth i av [].
Lemma step_In c o av x : In x (ev_step c o av) <-> In x o \/ exists j, In j c /\ In x (get av j).
Proof.
  unfold ev_step. revert o. induction c as [|j c IH]; cbn [fold_left]; intros o.
  - split; [auto | intros [|(j & [] & _)]; auto].
  - rewrite IH, union_In. split.
    + intros [[I|I]|(j' & J & I)]; [now left | right; exists j; split; [now left | assumption] | right; exists j'; split; [now right | assumption]].
    + intros [I|(j' & [->|J] & I)]; eauto.
Qed.
Record ok (av : list (list id)) : Prop := {
  ok_len : length av = n;
  ok_nodup : forall i, NoDup (get av i);
  ok_sound : forall i x, In x (get av i) -> N i x;
  ok_univ : forall i, incl (get av i) U;
  ok_grow : forall i c o, nth_error fv i = Some (c, o) -> incl (get av i) (ev_step c o av) }.
Lemma step_NoDup i c o av : nth_error fv i = Some (c, o) -> ok av -> NoDup (ev_step c o av).
Proof.
  intros E O. pose proof (own_NoDup _ _ _ E) as H. unfold ev_step. clear E. revert o H. induction c as [|j c IH]; cbn [fold_left]; intros o H; [assumption|].
  apply IH. apply union_NoDup; [assumption | apply (ok_nodup _ O)].
Qed.
Lemma put_len (av : list (list id)) i x : length (list_put av i x) = length av.
Proof. revert i. induction av as [|y av IH]; intros [|i]; cbn; auto. Qed.
Lemma put_get av i x j : (i < length av)%nat -> get (list_put av i x) j = if Nat.eqb j i then x else get av j.
Proof.
  unfold get. revert i j. induction av as [|y av IH]; intros [|i] j L; cbn in *; try lia; destruct j as [|j]; try reflexivity. cbn. apply IH. lia.
Qed.
Lemma step_univ i c o av : nth_error fv i = Some (c, o) -> ok av -> incl (ev_step c o av) U.
Proof.
  intros E O x I. apply step_In in I. destruct I as [I|(j & _ & I)]; [|now apply (ok_univ _ O) in I].
  unfold U. apply in_concat. exists o. split; [|assumption]. apply in_map_iff. exists (c, o). split; [reflexivity | eapply nth_error_In; eauto].
Qed.
Lemma put_ok i c o av : nth_error fv i = Some (c, o) -> ok av -> ok (list_put av i (ev_step c o av)).
Proof.
  intros E O. assert (L : (i < length av)%nat) by (rewrite (ok_len _ O); apply nth_error_Some; congruence).
  assert (Mono : forall j, incl (get av j) (get (list_put av i (ev_step c o av)) j)).
  { intros j. rewrite put_get by assumption. destruct (Nat.eqb_spec j i) as [->|]; [eapply ok_grow; eauto | apply incl_refl]. }
  constructor.
  - rewrite put_len. apply O.
  - intros j. rewrite put_get by assumption. destruct (Nat.eqb j i); [eapply step_NoDup; eauto | apply O].
  - intros j x. rewrite put_get by assumption. destruct (Nat.eqb_spec j i) as [->|]; [|apply O]. rewrite step_In.
    intros [I|(j' & J & I)]; [eapply N_own; eauto | eapply N_call; eauto; now apply (ok_sound _ O)].
  - intros j. rewrite put_get by assumption. destruct (Nat.eqb j i); [eapply step_univ; eauto | apply O].
  - intros j c' o' E' x I. rewrite put_get in I by assumption.
    assert (I' : In x (ev_step c' o' av)).
    { destruct (Nat.eqb_spec j i) as [->|]; [|eapply ok_grow; eauto]. rewrite E in E'. now injection E' as <- <-. }
    apply step_In in I'. apply step_In. destruct I' as [I'|(j' & J & I')]; [now left | right; exists j'; split; [assumption | now apply Mono]].
Qed.
Definition total (av : list (list id)) : nat := list_sum (map (@length id) av).
Lemma total_put av i x : (i < length av)%nat -> (total (list_put av i x) + length (get av i) = total av + length x)%nat.
Proof.
  unfold total, get. revert i. induction av as [|y av IH]; intros [|i] L; cbn in *; try lia. 
  change (fold_right Nat.add 0%nat (map (length (A:=id)) (list_put av i x))) with (list_sum (map (@length id) (list_put av i x))).
  specialize (IH i ltac:(lia)). unfold list_sum in *. lia.
Qed.
Lemma total_bound av : ok av -> (total av <= n * length U)%nat.
Proof.
  intros O. assert (H : forall l, In l av -> (length l <= length U)%nat).
  { intros l I. apply (In_nth _ _ []) in I. destruct I as (i & L & <-). apply NoDup_incl_length; [apply (ok_nodup _ O) | apply (ok_univ _ O)]. }
  rewrite <- (ok_len _ O). unfold total. clear O. induction av as [|l av IH]; cbn; [lia|].
  pose proof (H l (or_introl eq_refl)). specialize (IH (fun x I => H x (or_intror I))). unfold list_sum in *. lia.
Qed.
Lemma grow_len i c o av : nth_error fv i = Some (c, o) -> ok av -> seteq (ev_step c o av) (get av i) = false ->
  (length (get av i) < length (ev_step c o av))%nat.
Proof.
  intros E O S. pose proof (ok_grow _ O i c o E) as I. pose proof (NoDup_incl_length (ok_nodup _ O i) I) as L.
  apply Nat.lt_eq_cases in L. destruct L as [L|L]; [assumption|]. exfalso.
  assert (X : seteq (ev_step c o av) (get av i) = true); [|congruence]. apply seteq_incl. split; [|assumption].
  apply (NoDup_length_incl (ok_nodup _ O i)); [lia | assumption].
Qed.
Definition fuel_need (i : nat) (wrap : bool) (av : list (list id)) : nat :=
  let m := (n * length U - total av)%nat in ((n - i + 1) + (if wrap then (m + 1) * (n + 1) else m * (n + 1)))%nat.
Lemma loop_ends f : forall i wrap av, ok av -> (i <= n)%nat -> (fuel_need i wrap av <= f)%nat ->
  (wrap = false -> forall j c o, (j < i)%nat -> nth_error fv j = Some (c, o) -> incl (ev_step c o av) (get av j)) ->
  exists av', ev_loop f fv i wrap av = Some av' /\ ok av' /\ forall j c o, nth_error fv j = Some (c, o) -> incl (ev_step c o av') (get av' j).
Proof.
  induction f as [|f IH]; intros i wrap av O L F W; [unfold fuel_need in F; lia|]. cbn [ev_loop].
  pose proof (total_bound av O) as TB. destruct (nth_error fv i) as [(c, o)|] eqn:E.
  - assert (Li : (i < n)%nat) by (unfold n; apply nth_error_Some; congruence). change (nth i av []) with (get av i).
    destruct (seteq (ev_step c o av) (get av i)) eqn:S.
    + apply IH; [assumption | lia | unfold fuel_need in *; destruct wrap; lia|]. intros ->. intros j c' o' J Ej.
      destruct (Nat.eq_dec j i) as [->|]; [|apply (W eq_refl); [lia | assumption]]. rewrite E in Ej. injection Ej as <- <-. now apply seteq_incl in S.
    + pose proof (put_ok _ _ _ _ E O) as O'. pose proof (grow_len _ _ _ _ E O S) as G.
      assert (La : (i < length av)%nat) by (rewrite (ok_len _ O); exact Li). pose proof (total_put av i (ev_step c o av) La) as T. pose proof (total_bound _ O') as TB'.
      apply IH; [assumption | lia | | discriminate]. unfold fuel_need in *.
      assert (M : (n * length U - total (list_put av i (ev_step c o av)) + 1 <= n * length U - total av)%nat) by lia.
      assert (X : ((n * length U - total (list_put av i (ev_step c o av)) + 1) * (n + 1) <= (n * length U - total av) * (n + 1))%nat) by now apply Nat.mul_le_mono_r.
      destruct wrap; [rewrite Nat.mul_add_distr_r with (m := 1%nat) (n := (n * length U - total av)%nat) in F|]; lia.
  - assert (Ln : i = n) by (apply nth_error_None in E; unfold n in *; lia). subst i. destruct wrap.
    + apply IH; [assumption | lia | | lia]. unfold fuel_need in *. rewrite Nat.mul_add_distr_r in F. lia.
    + exists av. split; [reflexivity|split; [assumption|]]. intros j c o Ej. apply (W eq_refl); [|assumption]. unfold n. apply nth_error_Some. congruence.
Qed.
Hypothesis N_min : forall (Q : nat -> id -> Prop), (forall i c o x, nth_error fv i = Some (c, o) -> In x o -> Q i x) ->
  (forall i c o j x, nth_error fv i = Some (c, o) -> In j c -> Q j x -> Q i x) -> forall i x, N i x -> Q i x.
Lemma loop_spec f : ((n * length U + 1) * (n + 1) <= f)%nat -> exists av, ev_loop f fv 0 false (map (fun _ => []) fv) = Some av /\ length av = n /\
  (forall i, NoDup (get av i)) /\ forall i x, In x (get av i) <-> N i x.
Proof.
  intros F. assert (Z : forall j, get (map (fun _ : list nat * list id => @nil id) fv) j = []).
  { intros j. unfold get. clear. revert j. induction fv as [|p l IH]; intros [|j]; cbn; auto. }
  assert (O : ok (map (fun _ => []) fv)).
  { constructor; intros; rewrite ?Z in *; try easy; [apply map_length | constructor]. }
  destruct (loop_ends f 0 false _ O) as (av & E & O' & Fx).
  - lia.
  - unfold fuel_need. rewrite Nat.mul_add_distr_r in F. pose proof (Nat.le_sub_l (n * length U) (total (map (fun _ => []) fv))) as X.
    apply (Nat.mul_le_mono_r _ _ (n + 1)) in X. lia.
  - intros _ j c o J. lia.
  - exists av. split; [assumption|split; [apply O'|split; [apply O'|]]]. intros i x. split; [apply O'|].
    revert i x. apply N_min.
    + intros i c o x Ei I. apply (Fx _ _ _ Ei). apply step_In. now left.
    + intros i c o j x Ei J I. apply (Fx _ _ _ Ei). apply step_In. right. eauto.
Qed.
End Loop.

Lemma Forall2_nth_l {A B} (R : A -> B -> Prop) l l' i x : Forall2 R l l' -> nth_error l i = Some x -> exists y, nth_error l' i = Some y /\ R x y.
Proof. intros F. revert i. induction F; intros [|i] E; cbn in *; try discriminate; [injection E as <-; eauto | auto]. Qed.
Lemma combine_nth {A B} (a : list A) (b : list B) i x y : nth_error (combine a b) i = Some (x, y) <-> nth_error a i = Some x /\ nth_error b i = Some y.
Proof.
  revert b i. induction a as [|u a IH]; intros [|v b] [|i]; cbn; try (split; [discriminate | intros (? & ?); discriminate]).
  - split; [intros [= -> ->]; auto | intros ([= ->] & [= ->]); reflexivity].
  - apply IH.
Qed.
Theorem extra_vars_spec ids lams : NoDup ids -> (forall x, In x ids -> global_id x = false) -> length lams = length ids ->
  exists xss, extra_vars ids lams = Some xss /\ length xss = length ids /\ (forall i, NoDup (nth i xss [])) /\
    forall i x, In x (nth i xss []) <-> needs ids lams i x.
Proof.
  intros ND GX LL. unfold extra_vars. set (fvs := map (fun l => exp_free_lexvars (lam_exp l)) lams).
  destruct (all_some_map (called_lam_indices ids) fvs) as (calls & EC).
  { intros f _. unfold called_lam_indices. destruct (all_some_map (fun x => posq x ids) (intersectionq f ids)) as (r & ->); [|discriminate].
    intros x I. apply inter_In in I. destruct (posq_In x ids) as (i & ->); [apply I | discriminate]. }
  rewrite EC. apply all_some_Forall2 in EC. set (fovs := map (fun f => setdiffq f ids) fvs).
  assert (Lc : length calls = length fvs) by (clear -EC; induction EC; cbn; congruence).
  assert (Lf : length fovs = length fvs) by apply map_length. assert (Lv : length fvs = length lams) by apply map_length.
  assert (Lfv : length (combine calls fovs) = length ids) by (rewrite combine_length; lia).
  assert (Efv : map (fun _ : id => @nil id) ids = map (fun _ => []) (combine calls fovs)).
  { clear -Lfv. revert Lfv. generalize (combine calls fovs). clear. intros l. revert ids. induction l; intros [|x ids] E; cbn in *; try discriminate; auto. f_equal. auto. }
  rewrite Efv. set (fv := combine calls fovs) in *.
  assert (FV : forall i c o, nth_error fv i = Some (c, o) -> exists ps b, nth_error lams i = Some (ps, b) /\
    (forall x, In x o <-> free_in x (ELam ps b) /\ global_id x = false /\ ~ In x ids) /\ NoDup o /\
    (forall j, In j c <-> exists y, nth_error ids j = Some y /\ free_in y (ELam ps b))).
  { intros i c o E. apply combine_nth in E. destruct E as (Ec & Eo). unfold fovs, fvs in Eo. rewrite nth_error_map in Eo.
    destruct (nth_error (map _ lams) i) as [f|] eqn:Ef; [|discriminate]. cbn in Eo. injection Eo as <-.
    destruct (Forall2_nth_l _ _ _ _ _ EC Ef) as (c' & Ec' & Cc). assert (c' = c) by congruence. subst c'.
    rewrite nth_error_map in Ef. destruct (nth_error lams i) as [(ps & b)|] eqn:El; [|discriminate].
    change (Some (exp_free_lexvars (ELam ps b)) = Some f) in Ef. assert (f = exp_free_lexvars (ELam ps b)) by congruence. subst f. clear Ef.
    exists ps, b. split; [reflexivity|]. unfold lam_exp in *. cbn [fst snd] in *. split; [|split].
    - intros x. rewrite setdiff_In. pose proof (free_lexvars_free x (ELam ps b)). tauto.
    - apply setdiff_NoDup, free_lexvars_NoDup.
    - intros j. unfold called_lam_indices in Cc. apply all_some_Forall2 in Cc. split.
      + intros J. apply In_nth_error in J. destruct J as (q & J).
        assert (X : exists y, nth_error (intersectionq (exp_free_lexvars (ELam ps b)) ids) q = Some y /\ posq y ids = Some j).
        { clear -Cc J. revert q J. induction Cc; intros [|q] J; cbn in *; try discriminate; [injection J as <-; eauto | auto]. }
        destruct X as (y & Y & Pq). apply nth_error_In, inter_In in Y. exists y. split; [now apply posq_nth|]. apply free_lexvars_free, Y.
      + intros (y & Ny & Fy). assert (Iy : In y (intersectionq (exp_free_lexvars (ELam ps b)) ids)).
        { apply inter_In. apply nth_error_In in Ny. split; [apply free_lexvars_free; auto | assumption]. }
        apply In_nth_error in Iy. destruct Iy as (q & Iy). destruct (Forall2_nth_l _ _ _ _ _ Cc Iy) as (j' & J & Pq).
        apply posq_nth in Pq. assert (j' = j). { apply (proj1 (NoDup_nth_error ids) ND); [apply nth_error_Some; congruence | congruence]. }
        subst. eapply nth_error_In; eauto. }
  destruct (loop_spec fv (needs ids lams)) with (f := ev_fuel fovs) as (xss & E & Lx & NDx & SP).
  - intros i c o x Ei I. destruct (FV _ _ _ Ei) as (ps & b & El & Ho & _). apply Ho in I. eapply nd_own; eauto; tauto.
  - intros i c o j x Ei J Nj. destruct (FV _ _ _ Ei) as (ps & b & El & _ & _ & Hc). apply Hc in J. destruct J as (y & Ny & Fy). eapply nd_call; eauto.
  - intros i c o Ei. destruct (FV _ _ _ Ei) as (? & ? & _ & _ & H & _). exact H.
  - intros Q Q1 Q2. assert (Fx : forall i ps b, nth_error lams i = Some (ps, b) -> exists c o, nth_error fv i = Some (c, o)).
    { intros i ps b El. assert (i < length fv)%nat by (rewrite Lfv, <- LL; apply nth_error_Some; congruence).
      destruct (nth_error fv i) as [(c, o)|] eqn:Ei; [eauto | apply nth_error_None in Ei; lia]. }
    induction 1 as [i ps b x El F G NI|i ps b j y x El F Ny Nj IH]; destruct (Fx _ _ _ El) as (c & o & Ei); destruct (FV _ _ _ Ei) as (ps' & b' & El' & Ho & _ & Hc);
      (assert (E2 : (ps', b') = (ps, b)) by congruence); injection E2 as -> ->.
    + apply (Q1 _ _ _ _ Ei). apply Ho. auto.
    + apply (Q2 i c o j x Ei); [|assumption]. apply Hc. eauto.
  - unfold ev_fuel. rewrite Lfv. assert (Es : map snd fv = fovs).
    { unfold fv. assert (LE : length calls = length fovs) by lia. revert LE. generalize fovs. clear. induction calls as [|c l IH]; intros [|f fs] E; cbn in *; try discriminate; [reflexivity|]. f_equal. apply IH. lia. }
    rewrite Es. replace (length fovs) with (length ids) by lia. apply Nat.mul_le_mono_r. lia.
  - exists xss. split; [exact E|split; [lia|split; [exact NDx | exact SP]]].
Qed.
(** the iteration ends, whatever the names are *)
Lemma extra_vars_some ids lams : length lams = length ids -> exists xss, extra_vars ids lams = Some xss /\ length xss = length ids.
Proof.
  intros LL. unfold extra_vars. set (fvs := map (fun l => exp_free_lexvars (lam_exp l)) lams).
  destruct (all_some_map (called_lam_indices ids) fvs) as (calls & EC).
  { intros f _. unfold called_lam_indices. destruct (all_some_map (fun x => posq x ids) (intersectionq f ids)) as (r & ->); [|discriminate].
    intros x I. apply inter_In in I. destruct (posq_In x ids) as (i & ->); [apply I | discriminate]. }
  rewrite EC. apply all_some_Forall2 in EC. set (fovs := map (fun f => setdiffq f ids) fvs).
  assert (Lc : length calls = length fvs) by (clear -EC; induction EC; cbn; congruence).
  assert (Lf : length fovs = length fvs) by apply map_length. assert (Lv : length fvs = length lams) by apply map_length.
  assert (Lfv : length (combine calls fovs) = length ids) by (rewrite combine_length; lia).
  set (fv := combine calls fovs) in *. set (av := map (fun _ : id => @nil id) ids).
  assert (Zr : forall j, get av j = []). { intros j. unfold get, av. clear. revert j. induction ids as [|x l IH]; intros [|j]; cbn; auto. }
  assert (O : ok fv (fun _ _ => True) av).
  { constructor; intros; rewrite ?Zr in *; try easy; [unfold av; rewrite map_length; congruence | constructor]. }
  destruct (loop_ends fv (fun _ _ => True)) with (f := ev_fuel fovs) (i := 0%nat) (wrap := false) (av := av) as (av' & E & O' & _); try (intros; exact I); auto.
  - intros i c o Ei. apply combine_nth in Ei. destruct Ei as (_ & Eo). unfold fovs, fvs in Eo. rewrite nth_error_map in Eo.
    destruct (nth_error (map _ lams) i) as [f|] eqn:Ef; [|discriminate]. cbn in Eo. assert (o = setdiffq f ids) by congruence. subst o. apply setdiff_NoDup.
    rewrite nth_error_map in Ef. destruct (nth_error lams i) as [(ps & b)|]; [|discriminate]. change (Some (exp_free_lexvars (ELam ps b)) = Some f) in Ef.
    assert (f = exp_free_lexvars (ELam ps b)) by congruence. subst f. apply free_lexvars_NoDup.
  - lia.
  - unfold fuel_need, ev_fuel. assert (Es : map snd fv = fovs).
    { unfold fv. assert (LE : length calls = length fovs) by lia. revert LE. generalize fovs. clear. induction calls as [|c l IH]; intros [|f fs] E; cbn in *; try discriminate; [reflexivity|]. f_equal. apply IH. lia. }
    rewrite Es, Lfv. replace (length fovs) with (length ids) by lia. pose proof (Nat.le_sub_l (length ids * length (concat fovs)) (Proofs_Extra.total av)) as X.
    apply (Nat.mul_le_mono_r _ _ (length ids + 1)) in X. rewrite (Nat.mul_add_distr_r (length ids * length (concat fovs))). lia.
  - intros _ j c o J. lia.
  - exists av'. split; [exact E|]. rewrite (ok_len _ _ _ O'). exact Lfv.
Qed.
