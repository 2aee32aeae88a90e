(** Global variables of modules. *)
From Coq Require Import ZArith String List Bool Lia Arith.
From Verif Require Import Base Model_Lit Model_Core Model_Beta Spec_Sem Spec_Free Spec_Scope Spec_Fold Spec_Cps Spec_Lift Spec_Unbox
  Proofs_Sim Proofs_Core Proofs_Free Proofs_FoldWf Model_CodeGen Spec_CodeGen Spec_Collect Proofs_CodeGen Proofs_CodeGenRun Proofs_CodeGenSome
  Proofs_Globals Proofs_GlobalsSem Model_Roots Spec_Roots.
From Verif Require Proofs_Collect.
Import ListNotations.

(** ** How often a global is assigned *)
Definition locals (e : exp) : Prop := forall x, In x (binders e) -> global_id x = false.
Lemma locals_part ys e' e : locals e -> In (ys, e') (parts e) -> (forall y, In y ys -> global_id y = false) /\ locals e'.
Proof. intros L I. destruct (binders_in _ _ _ I) as (A & C). split; intros y Y; apply L; auto. Qed.
Notation hits x e := (times x (sets e)).
Lemma hits_count x e : locals e -> global_id x = true -> var_assignment_count x e = hits x e.
Proof.
  intros F G. rewrite assignment_count_cnt. revert F.
  assert (NM : forall ys, (forall y, In y ys -> global_id y = false) -> memq x ys = false).
  { intros ys H. destruct (memq x ys) eqn:M; [|reflexivity]. apply memq_In in M. rewrite (H x M) in G. discriminate. }
  induction e as [y|y e IH|a b c IHa IHb IHc|ef p l IH|f l IHf IHl|xs b IH|xs ls b IHl IHb|y b IH|k e IHk IHe] using exp_ind2; intros F.
  - cbn [exp_vinfo]. rewrite cnt_one. cbn [assignment_to]. now rewrite andb_false_r.
  - cbn [exp_vinfo sets]. rewrite cnt_cons, cnt_one, IH by (eapply locals_part; [exact F | now left]). cbn [assignment_to]. rewrite andb_true_r. unfold times. cbn [filter fst]. destruct (id_eqb x y); reflexivity.
  - cbn [exp_vinfo sets]. rewrite !cnt_app, !times_app, IHa, IHb, IHc; [reflexivity | eapply locals_part; [exact F|]; cbn; auto ..].
  - rewrite vinfo_prim. cbn [sets]. rewrite times_flat. unfold sum_cnt. f_equal. apply map_ext_in. intros e I. rewrite Forall_forall in IH. apply (IH e I). eapply locals_part; [exact F|]. now apply in_map_pair.
  - rewrite vinfo_app. cbn [sets]. rewrite times_app, times_flat. unfold sum_cnt. rewrite IHf by (eapply locals_part; [exact F | now left]). f_equal. f_equal. apply map_ext_in. intros e I. rewrite Forall_forall in IHl. apply (IHl e I). eapply locals_part; [exact F|]. right. now apply in_map_pair.
  - cbn [exp_vinfo sets]. rewrite cnt_keep, NM by (eapply locals_part; [exact F | now left]). apply IH. eapply locals_part; [exact F | now left].
  - rewrite vinfo_fix, NM by (eapply locals_part; [exact F | now left]). cbn [sets]. rewrite times_app, times_flat, IHb by (eapply locals_part; [exact F | now left]). f_equal. f_equal. apply map_ext_in. intros l I.
    assert (J : In (xs ++ fst l, snd l) (parts (EFix xs ls b))) by (right; apply in_map_iff; eauto).
    unfold lam_cnt. rewrite NM; [|intros y Y; apply (proj1 (locals_part _ _ _ F J)); apply in_or_app; auto]. rewrite Forall_forall in IHl. apply (IHl l I). eapply locals_part; eauto.
  - cbn [exp_vinfo sets]. rewrite cnt_keep, NM by (eapply locals_part; [exact F | now left]). apply IH. eapply locals_part; [exact F | now left].
  - cbn [exp_vinfo sets]. rewrite cnt_app, times_app, IHk, IHe; [reflexivity | eapply locals_part; [exact F|]; cbn; auto ..].
Qed.

(** ** Assignments of procedures at once are some of them *)
Section X.
Variable x : id.
Fixpoint sct (l : list found) : nat :=
  match l with [] => O | FStatic y _ :: l' => if id_eqb x y then S (sct l') else sct l' | _ :: l' => sct l' end.
Lemma sct_app a b : sct (a ++ b) = (sct a + sct b)%nat.
Proof. induction a as [|[] a IH]; cbn [app sct]; rewrite ?IH; [reflexivity ..| |reflexivity]. now destruct (id_eqb x x0). Qed.
Notation sc e := (sct (collect e)).
Lemma sct_flat {A} (f : A -> list found) l : sct (flat_map f l) = list_sum (map (fun a => sct (f a)) l).
Proof. induction l as [|a l IH]; [reflexivity|]. cbn [flat_map map]. rewrite sct_app, IH. reflexivity. Qed.
Lemma sum_le {A} (f g : A -> nat) l : Forall (fun a => f a <= g a)%nat l -> (list_sum (map f l) <= list_sum (map g l))%nat.
Proof. induction 1; cbn [map list_sum fold_right]; [lia|]. unfold list_sum in *. lia. Qed.
Lemma sum_lt {A} (f g : A -> nat) l : Forall (fun a => f a <= g a)%nat l -> Exists (fun a => S (f a) <= g a)%nat l -> (S (list_sum (map f l)) <= list_sum (map g l))%nat.
Proof.
  intros F E. induction E as [a l H|a l E IH]; inversion F as [|? ? H0 F0]; subst; apply sum_le in F0 as F1; cbn [map list_sum fold_right]; unfold list_sum in *; [lia|]. specialize (IH F0). lia.
Qed.
Notation low e := (sc e <= hits x e)%nat.
Notation lower e := (S (sc e) <= hits x e)%nat.
Lemma hits_set y e : hits x (ESet y e) = ((if id_eqb x y then 1 else 0) + hits x e)%nat.
Proof. unfold times. cbn [sets filter fst]. now destruct (id_eqb x y). Qed.
Lemma hits_app f l : hits x (EApp f l) = (hits x f + list_sum (map (fun e => hits x e) l))%nat.
Proof. cbn [sets]. now rewrite times_app, times_flat. Qed.
Lemma hits_prim ef p l : hits x (EPrim ef p l) = list_sum (map (fun e => hits x e) l).
Proof. cbn [sets]. now rewrite times_flat. Qed.
Lemma sum_skipn {A} (f : A -> nat) n l : (list_sum (map f (skipn n l)) <= list_sum (map f l))%nat.
Proof. revert l. induction n as [|n IH]; intros [|a l]; cbn [skipn map list_sum fold_right]; try lia. specialize (IH l). unfold list_sum in *. lia. Qed.
Lemma sct_lam ys y zs lb ys' rands : curry_view (ELam ys (EApp (EVar y) zs)) = Some (lb, ys', rands) ->
  sc (ELam ys (EApp (EVar y) zs)) = list_sum (map (fun e => sc e) (skipn (length ys) zs)).
Proof.
  intros C. change (collect (ELam ys (EApp (EVar y) zs))) with (match curry_view (ELam ys (EApp (EVar y) zs)) with Some (lb, ys, rands) => FCurry lb ys (length rands) :: concat (skipn (length ys) (map collect zs)) | None => [] end).
  rewrite C. destruct (curry_inv _ _ _ _ C) as (zs' & [= <- <- <-] & _). cbn [sct]. rewrite skipn_map, <- flat_map_concat_map. apply sct_flat.
Qed.
(** what collect finds in a let *)
Inductive let_case (xs : list id) (b : exp) (l : list exp) : Prop :=
| lc_static y c lb ys d : l = [d] -> begin_view (EApp (ELam xs b) l) = Some (d, b) -> d = ESet y c -> curry_view c = Some (lb, ys, []) -> global_id y = true ->
    sc (EApp (ELam xs b) l) = ((if id_eqb x y then 1 else 0) + sc b)%nat -> let_case xs b l
| lc_other : (forall y c lb ys e2, begin_view (EApp (ELam xs b) l) = Some (ESet y c, e2) -> curry_view c = Some (lb, ys, []) -> global_id y = false) ->
    sc (EApp (ELam xs b) l) = (list_sum (map (fun e => sc e) l) + sc b)%nat -> let_case xs b l.
Lemma let_cases xs b l : length xs = length l -> let_case xs b l.
Proof.
  intros L. assert (Q : collect (EApp (ELam xs b) l) =
    match begin_view (EApp (ELam xs b) l) with
    | Some (ESet x c, _) =>
      match curry_view c with
      | Some (lb, ys, []) => if global_id x then FCurry lb ys O :: FStatic x lb :: collect b else flat_map collect l ++ collect b
      | _ => flat_map collect l ++ collect b
      end
    | _ => flat_map collect l ++ collect b
    end).
  { change (collect (EApp (ELam xs b) l)) with (if Nat.eqb (length xs) (length l) then match begin_view (EApp (ELam xs b) l) with
    | Some (ESet x c, _) =>
      match curry_view c with
      | Some (lb, ys, []) => if global_id x then FCurry lb ys O :: FStatic x lb :: collect b else flat_map collect l ++ collect b
      | _ => flat_map collect l ++ collect b
      end
    | _ => flat_map collect l ++ collect b
    end else collect (ELam xs b) ++ flat_map collect l). now rewrite L, Nat.eqb_refl. }
  assert (O : collect (EApp (ELam xs b) l) = flat_map collect l ++ collect b -> sc (EApp (ELam xs b) l) = (list_sum (map (fun e => sc e) l) + sc b)%nat) by (intros ->; now rewrite sct_app, sct_flat).
  destruct (begin_view (EApp (ELam xs b) l)) as [(e1 & e2)|] eqn:B; [|apply lc_other; [congruence | auto]].
  destruct e1 as [|y c| | | | | | |]; try (apply lc_other; [congruence | auto]).
  destruct (curry_view c) as [((lb & ys) & [|? ?])|] eqn:C; try (apply lc_other; [intros; congruence | auto]).
  destruct (global_id y) eqn:G; [|apply lc_other; [intros; congruence | auto]].
  destruct (begin_view_inv _ _ _ B) as (z & [= -> -> ->] & _). eapply lc_static; try eassumption; try reflexivity. rewrite Q. cbn [sct]. now destruct (id_eqb x y).
Qed.
Lemma sc_low e : low e.
Proof.
  assert (Q : low e /\ (forall xs bd, e = ELam xs bd -> low bd) /\ forall f l, e = EApp f l -> Forall (fun e => low e) l); [|apply Q].
  induction e as [y|y e IH|a b c IHa IHb IHc|ef p l IH|f l IHf IH|xs b IH|xs lams0 b _ IH|y b IH|k e IHk IHe] using exp_ind2;
    (split; [|split; [intros xs0 bd0 E0; try discriminate | intros f0 l0 E0; try discriminate]]); try (cbn [collect sct]; lia).
  - destruct IH as (IH & _). rewrite hits_set. cbn [collect]. lia.
  - destruct IHa as (IHa & _), IHb as (IHb & _), IHc as (IHc & _). cbn [collect sets]. rewrite !sct_app, !times_app. lia.
  - rewrite hits_prim. cbn [collect]. rewrite sct_flat. apply sum_le. eapply Forall_impl; [|exact IH]; cbn; tauto.
  - assert (D : Forall (fun e => low e) l) by (eapply Forall_impl; [|exact IH]; cbn; tauto). destruct IHf as (IHf & IHb & _). rewrite hits_app. apply sum_le in D as Dl.
    assert (Rest : collect (EApp f l) = collect f ++ flat_map collect l -> (sc (EApp f l) <= hits x f + list_sum (map (fun e => hits x e) l))%nat) by (intros ->; rewrite sct_app, sct_flat; lia).
    destruct f as [z| | | | |xs bd| | |]; try (apply Rest; reflexivity).
    + cbn [collect]. destruct (label_id z); cbn [sct]; rewrite sct_flat; lia.
    + specialize (IHb xs bd eq_refl). cbn beta in IHb. change (hits x (ELam xs bd)) with (hits x bd). destruct (Nat.eq_dec (length xs) (length l)) as [L|L].
      * destruct (let_cases xs bd l L) as [y c lb ys d -> B -> C G S|N S]; rewrite S; [|lia]. cbn [map list_sum fold_right]. rewrite hits_set. unfold list_sum. lia.
      * apply Rest. apply Nat.eqb_neq in L. change (collect (EApp (ELam xs bd) l)) with (if Nat.eqb (length xs) (length l) then match begin_view (EApp (ELam xs bd) l) with
          | Some (ESet x c, _) =>
            match curry_view c with
            | Some (lb, ys, []) => if global_id x then FCurry lb ys O :: FStatic x lb :: collect bd else flat_map collect l ++ collect bd
            | _ => flat_map collect l ++ collect bd
            end
          | _ => flat_map collect l ++ collect bd
          end else collect (ELam xs bd) ++ flat_map collect l). now rewrite L.
  - injection E0 as <- <-. eapply Forall_impl; [|exact IH]; cbn; tauto.
  - change (hits x (ELam xs b)) with (hits x b). destruct b as [| | | |[y| | | | | | | |] zs| | | |]; try (cbn [collect sct]; lia).
    destruct (curry_view (ELam xs (EApp (EVar y) zs))) as [((lb & ys) & rands)|] eqn:C.
    + rewrite (sct_lam _ _ _ _ _ _ C), hits_app. assert (Z := sum_skipn (fun e => sc e) (length xs) zs). assert (D := sum_le _ _ _ (proj2 (proj2 IH) _ _ eq_refl)). cbn beta in D. unfold times at 1. cbn [sets filter length]. lia.
    + change (collect (ELam xs (EApp (EVar y) zs))) with (match curry_view (ELam xs (EApp (EVar y) zs)) with Some (lb, ys, rands) => FCurry lb ys (length rands) :: concat (skipn (length ys) (map collect zs)) | None => [] end). rewrite C. cbn [sct]. lia.
  - injection E0 as <- <-. apply IH.
Qed.
End X.

Section Y.
Variable x : id.
Notation low e := (sct x (collect e) <= hits x e)%nat.
Notation lower e := (S (sct x (collect e)) <= hits x e)%nat.

(** ** Code *)
Definition good (e : exp) (t : tgt) (s : code) : Prop :=
  (stores x s -> t = TGlob x \/ lower e) /\ (stores_static x s -> 1 <= hits x e)%nat /\ (uses x s -> In x (refs e)).
Definition goodl (l : list exp) (t : tgt) (s : code) : Prop :=
  (stores x s -> t = TGlob x \/ Exists (fun e => lower e) l) /\ (stores_static x s -> Exists (fun e => 1 <= hits x e)%nat l) /\ (uses x s -> Exists (fun e => In x (refs e)) l).
Lemma reads_refs e : forall r c, cg_cexp e r = Some c -> reads x c -> In x (refs e).
Proof.
  induction e as [y|y e IH|a b c0 IHa IHb IHc|ef p l IH|f l IHf IH|xs b IH|xs lams0 b _ IH|y b IH|k e IHk IHe] using exp_ind2; intros r c E R; try discriminate.
  - cbn [cg_cexp] in E. unfold cg_var in E. destruct (label_id y); [discriminate|]. destruct (global_id y); [injection E as <-; inversion R; now left|].
    destruct (cvar_type y); [injection E as <-; inversion R|]. destruct (rposq y r); [injection E as <-; inversion R | discriminate].
  - destruct (Proofs_Collect.if_cexp _ _ _ _ _ E) as (a' & b' & c' & Ea & Eb & Ec & ->). cbn [refs]. rewrite !in_app_iff. inversion R; subst; eauto.
  - destruct (Proofs_Collect.prim_cexp_inv _ _ _ _ _ E) as (cs & F & ->). inversion R as [| | | |p' l' c I R']; subst. destruct (Proofs_Collect.forall2_in _ _ _ _ F I) as (d & J & Ed).
    rewrite Forall_forall in IH. cbn [refs]. apply in_flat_map. eauto.
Qed.
Lemma args_refs : forall l r cs r', cg_args l r = Some (cs, r') -> Exists (reads x) cs -> Exists (fun e => In x (refs e)) l.
Proof.
  induction l as [|e l IH]; intros r cs r' E H; cbn [cg_args] in E; [injection E as <- <-; inversion H|]. destruct (cg_gcsafe_cexpp e).
  - destruct (cg_cexp e r) as [c|] eqn:Ec; [|discriminate]. destruct (cg_args l r) as [(cs' & r2)|] eqn:Ea; [|discriminate]. injection E as <- <-. inversion H; subst; [left; eapply reads_refs; eauto | right; eauto].
  - destruct (cg_args l (None :: r)) as [(cs' & r2)|] eqn:Ea; [|discriminate]. injection E as <- <-. inversion H as [? ? R|]; subst; [inversion R | right; eauto].
Qed.
Variable ls : list id.
Variable gcl : list (id * id).
Definition made (e : exp) : Prop := forall t r c, cg ls gcl e t r = Some c -> forall s, within s c -> good e t s.
Lemma goodl_seq l t a b : (forall s, within s a -> goodl l t s) -> (forall s, within s b -> goodl l t s) -> forall s, within s (KSeq a b) -> goodl l t s.
Proof. intros A B s W. inversion W; subst; auto. repeat split; cbn; tauto. Qed.
Lemma goodl_in e l t t' s : In e l -> t' = t \/ (forall y, t' <> TGlob y) -> good e t' s -> goodl l t s.
Proof.
  intros I T (A & B & C). split; [|split]; intros H.
  - destruct (A H) as [->|L]; [destruct T as [->|T]; [now left | now destruct (T x)] | right; apply Exists_exists; eauto].
  - apply Exists_exists. eauto.
  - apply Exists_exists. eauto.
Qed.
Lemma temps_good l0 t : forall l r k c, incl l l0 -> Forall made l -> (forall c', k = Some c' -> forall s, within s c' -> goodl l0 t s) -> cg_temps (pairs ls gcl l) r k = Some c -> forall s, within s c -> goodl l0 t s.
Proof.
  induction l as [|e l IH]; intros r k c I M K E; [exact (K c E)|]. inversion M as [|? ? Me Ml]; subst. assert (Il : incl l l0) by (intros z Z; apply I; now right).
  unfold pairs in E. cbn [map cg_temps] in E. fold (pairs ls gcl l) in E. destruct (cg_gcsafe_cexpp e); [eauto|].
  destruct (cg ls gcl e (TReg (length r)) r) as [c1|] eqn:E1; [|discriminate]. destruct (cg_temps (pairs ls gcl l) (None :: r) k) as [c2|] eqn:E2; [|discriminate]. injection E as <-.
  apply goodl_seq; [|eapply IH; eauto]. intros s W. eapply goodl_in; [apply I; now left | | eapply Me; eauto]; right; discriminate.
Qed.
(** the last statement *)
Definition leaf (t : tgt) (k : list cexp -> nat -> code) : Prop :=
  forall cs n s, within s (k cs n) -> (stores x s -> t = TGlob x) /\ ~ stores_static x s /\ (uses x s -> Exists (reads x) cs).
Lemma primapp_good l t r k c : Forall made l -> leaf t k -> cg_primapp (pairs ls gcl l) r k = Some c -> forall s, within s c -> goodl l t s.
Proof.
  intros M K. unfold cg_primapp. rewrite pairs_fst. destruct (cg_args l r) as [(cs & r')|] eqn:A; [|discriminate]. intros E. eapply temps_good; [apply incl_refl | exact M | | exact E].
  intros c' [= <-] s W. destruct (K _ _ _ W) as (K1 & K2 & K3). split; [auto | split; [tauto|]]. intros U. eapply args_refs; eauto.
Qed.
Lemma leaf_prim t p : leaf t (fun cs _ => KPrim t p cs). Proof. intros cs n s W. inversion W; subst; cbn; auto. Qed.
Lemma leaf_clo t lb : leaf t (fun cs _ => KClo t lb cs). Proof. intros cs n s W. inversion W; subst; cbn; auto. Qed.
Lemma leaf_goto t f lb : leaf t (fun cs n => KGoto (f n) lb cs). Proof. intros cs n s W. inversion W; subst; cbn; repeat split; auto; tauto. Qed.
Lemma leaf_jump t f : leaf t (fun cs n => KJump (f n) cs). Proof. intros cs n s W. inversion W; subst; cbn; repeat split; auto; tauto. Qed.
Lemma lets_good bd t l0 : forall ids l r c, incl l l0 -> In bd l0 -> Forall made l -> made bd -> cg_lets ids (map (cg ls gcl) l) r (fun r' => cg ls gcl bd t r') = Some c -> forall s, within s c -> goodl l0 t s.
Proof.
  intros ids l r c I Ib M Mb. revert l r c I M. assert (B : forall r c, cg ls gcl bd t r = Some c -> forall s, within s c -> goodl l0 t s) by (intros r c E s W; eapply goodl_in; [exact Ib | now left | eapply Mb; eauto]).
  induction ids as [|y ids IH]; intros l r c I M E; [cbn in E; eauto|]. destruct l as [|e l]; [cbn in E; eauto|]. inversion M as [|? ? Me Ml]; subst. assert (Il : incl l l0) by (intros z Z; apply I; now right).
  cbn [map cg_lets] in E. destruct (cvar_type y) as [ty|].
  - destruct (kseq _ _) as [q|] eqn:K; [|discriminate]. injection E as <-. destruct (Proofs_Collect.kseq_inv _ _ _ K) as (a & b & Ea & Eb & ->). intros s W. inversion W as [| | |? ? W0| |]; subst; [repeat split; cbn; tauto|]. clear W.
    revert s W0. apply goodl_seq; [|eapply IH; eauto]. intros s W'. eapply goodl_in; [apply I; now left | | eapply Me; eauto]; right; discriminate.
  - destruct (Proofs_Collect.kseq_inv _ _ _ E) as (a & b & Ea & Eb & ->). apply goodl_seq; [|eapply IH; eauto]. intros s W'. eapply goodl_in; [apply I; now left | | eapply Me; eauto]; right; discriminate.
Qed.
Lemma goodl_good l e t s : (Exists (fun e => lower e) l -> lower e) -> (forall d, In d l -> (hits x d <= hits x e)%nat /\ incl (refs d) (refs e)) -> goodl l t s -> good e t s.
Proof.
  intros L H (A & B & C). split; [|split]; intros Q.
  - destruct (A Q); auto.
  - apply B in Q. apply Exists_exists in Q. destruct Q as (d & I & Q). destruct (H d I). lia.
  - apply C in Q. apply Exists_exists in Q. destruct Q as (d & I & Q). now apply (proj2 (H d I)).
Qed.
Lemma sum_in {A} (f : A -> nat) a l : In a l -> (f a <= list_sum (map f l))%nat.
Proof. induction l as [|b l IH]; [easy|]. cbn [map list_sum fold_right]. unfold list_sum in *. intros [->|I]; [lia|]. specialize (IH I). lia. Qed.
Lemma low_all (l : list exp) : Forall (fun e => low e) l.
Proof. apply Forall_forall. intros e _. apply sc_low. Qed.
Lemma cexp_good e t r c : option_map (KSet t) (cg_cexp e r) = Some c -> forall s, within s c -> good e t s.
Proof.
  intros E s W. destruct (cg_cexp e r) as [q|] eqn:Q; [|discriminate]. injection E as <-. inversion W; subst. split; [cbn; auto | split; [cbn; tauto|]]. cbn. eapply reads_refs; eauto.
Qed.
Lemma app_good f l : (forall xs b, f <> ELam xs b) -> made f -> Forall made l -> made (EApp f l).
Proof.
  intros N Mf Ml t r c E s W. rewrite cg_app_eq in E by assumption.
  assert (D : forall d, In d (f :: l) -> (hits x d <= hits x (EApp f l))%nat /\ incl (refs d) (refs (EApp f l))).
  { intros d I. rewrite hits_app. cbn [refs]. destruct I as [<-|I]; [split; [lia | apply incl_appl, incl_refl]|]. assert (X := sum_in (fun e => hits x e) d l I). cbn beta in X. split; [lia|]. apply incl_appr. intros z Z. apply in_flat_map. eauto. }
  assert (Sc : (sct x (collect (EApp f l)) <= sct x (collect f) + list_sum (map (fun e => sct x (collect e)) l))%nat).
  { destruct f as [z| | | | |xs bd| | |]; try (cbn [collect]; rewrite ?sct_app, ?sct_flat; cbn [sct]; lia); [|now destruct (N xs bd)]. cbn [collect]. destruct (label_id z); cbn [sct]; rewrite sct_flat; lia. }
  assert (Lw : Exists (fun e => lower e) (f :: l) -> lower (EApp f l)).
  { intros X. rewrite hits_app. assert (Y := sum_lt (fun e => sct x (collect e)) (fun e => hits x e) (f :: l) (low_all _) X). cbn [map list_sum fold_right] in Y. unfold list_sum in *. lia. }
  assert (Goto : forall lb, cg_goto ls gcl lb l r = Some c -> good (EApp f l) t s).
  { intros lb G. eapply goodl_good; [| |eapply (primapp_good l t); [assumption | apply leaf_goto | exact G | exact W]]; [intros X; apply Lw; now right | intros d I; apply D; now right]. }
  assert (Jump : cg_jump ls gcl f l r = Some c -> good (EApp f l) t s).
  { intros G. eapply goodl_good; [exact Lw | exact D |]. eapply (primapp_good (f :: l) t); [now constructor | apply leaf_jump | exact G | exact W]. }
  destruct f as [z| | | | | | | |]; auto. destruct (label_id z).
  - destruct (memq z ls); [eauto | discriminate].
  - destruct (gc_label gcl z) as [lb|]; [|auto]. destruct (gc_defined ls gcl z lb); [eauto | discriminate].
Qed.
Lemma lam_good xs bd : (forall y zs, bd = EApp (EVar y) zs -> Forall made zs) -> made (ELam xs bd).
Proof.
  intros Mz t r c E s W. destruct bd as [| | | |[y| | | | | | | |] zs| | | |]; try discriminate.
  assert (Q : cg ls gcl (ELam xs (EApp (EVar y) zs)) t r = match curry_view (ELam xs (EApp (EVar y) zs)) with Some _ => if memq y ls then cg_primapp (rev (skipn (length xs) (pairs ls gcl zs))) r (fun cs _ => KClo t y cs) else None | None => None end) by reflexivity.
  rewrite Q in E. destruct (curry_view _) as [((lb & ys) & rands)|] eqn:C; [|discriminate]. destruct (memq y ls); [|discriminate].
  assert (rev (skipn (length xs) (pairs ls gcl zs)) = pairs ls gcl (rev (skipn (length xs) zs))) as S. { unfold pairs. now rewrite skipn_map, map_rev. }
  rewrite S in E. assert (I : incl (rev (skipn (length xs) zs)) zs) by (intros z Z; apply in_rev in Z; rewrite <- (firstn_skipn (length xs) zs); apply in_or_app; now right).
  assert (Ml : Forall made (rev (skipn (length xs) zs))) by (specialize (Mz y zs eq_refl); rewrite Forall_forall in *; auto).
  eapply goodl_good; [| |exact (primapp_good _ t r _ c Ml (leaf_clo t y) E s W)].
  - intros X. rewrite (sct_lam x _ _ _ _ _ _ C). change (hits x (ELam xs (EApp (EVar y) zs))) with (hits x (EApp (EVar y) zs)). rewrite hits_app.
    assert (Y : Exists (fun e => lower e) (skipn (length xs) zs)) by (apply Exists_exists in X; destruct X as (d & J & X); apply Exists_exists; exists d; split; [now apply in_rev | assumption]).
    assert (Z := sum_lt (fun e => sct x (collect e)) (fun e => hits x e) _ (low_all _) Y). assert (V := sum_skipn (fun e => hits x e) (length xs) zs). cbn beta in *. lia.
  - intros d J. apply I in J. change (hits x (ELam xs (EApp (EVar y) zs))) with (hits x (EApp (EVar y) zs)). rewrite hits_app. assert (X := sum_in (fun e => hits x e) d zs J). cbn beta in X. split; [lia|]. cbn [refs].
    intros z Z. right. apply in_flat_map. eauto.
Qed.
Lemma let_good xs bd l : made (ELam xs bd) -> made bd -> Forall made l -> made (EApp (ELam xs bd) l).
Proof.
  intros Mlam Mb Ml t r c E s W.
  assert (Hb : hits x (EApp (ELam xs bd) l) = (hits x bd + list_sum (map (fun e => hits x e) l))%nat) by (rewrite hits_app; reflexivity).
  assert (D : forall d, In d (bd :: l) -> (hits x d <= hits x (EApp (ELam xs bd) l))%nat /\ incl (refs d) (refs (EApp (ELam xs bd) l))).
  { intros d I. rewrite Hb. cbn [refs]. destruct I as [<-|I]; [split; [lia | apply incl_appl, incl_refl]|]. assert (X := sum_in (fun e => hits x e) d l I). cbn beta in X. split; [lia|]. apply incl_appr. intros z Z. apply in_flat_map. eauto. }
  destruct (Nat.eq_dec (length xs) (length l)) as [Le|Le].
  2:{ assert (Q : cg ls gcl (EApp (ELam xs bd) l) t r = if Nat.eqb (length xs) (length l) then cg_let ls gcl xs bd l t r else cg_jump ls gcl (ELam xs bd) l r) by reflexivity.
      rewrite Q in E. apply Nat.eqb_neq in Le. rewrite Le in E. eapply (goodl_good (ELam xs bd :: l)); [| |eapply (primapp_good (ELam xs bd :: l) t); [now constructor | apply leaf_jump | exact E | exact W]].
      - intros X. assert (Y := sum_lt (fun e => sct x (collect e)) (fun e => hits x e) (ELam xs bd :: l) (low_all _) X). rewrite hits_app.
        assert (Cl : collect (EApp (ELam xs bd) l) = collect (ELam xs bd) ++ flat_map collect l).
        { change (collect (EApp (ELam xs bd) l)) with (if Nat.eqb (length xs) (length l) then match begin_view (EApp (ELam xs bd) l) with
          | Some (ESet x c, _) =>
            match curry_view c with
            | Some (lb, ys, []) => if global_id x then FCurry lb ys O :: FStatic x lb :: collect bd else flat_map collect l ++ collect bd
            | _ => flat_map collect l ++ collect bd
            end
          | _ => flat_map collect l ++ collect bd
          end else collect (ELam xs bd) ++ flat_map collect l). now rewrite Le. }
        rewrite Cl, sct_app, sct_flat. cbn [map list_sum fold_right] in Y. unfold list_sum in *. lia.
      - intros d [<-|I]; [apply (D bd); now left | apply D; now right]. }
  rewrite cg_let_eq in E by assumption. unfold cg_let in E. cbv zeta in E.
  assert (Lw : sct x (collect (EApp (ELam xs bd) l)) = (list_sum (map (fun e => sct x (collect e)) l) + sct x (collect bd))%nat -> Exists (fun e => lower e) (bd :: l) -> lower (EApp (ELam xs bd) l)).
  { intros S X. rewrite Hb, S. assert (Y := sum_lt (fun e => sct x (collect e)) (fun e => hits x e) (bd :: l) (low_all _) X). cbn [map list_sum fold_right] in Y. unfold list_sum in *. lia. }
  destruct (let_cases x xs bd l Le) as [y c0 lb ys d -> B -> C G Sc|Nb Sc].
  - destruct (degenerate_let (EApp (ELam xs bd) [ESet y c0])) eqn:Dg.
    { destruct (begin_view_inv _ _ _ B) as (z & [= ->] & Nf). cbn [degenerate_let] in Dg. destruct bd as [z0| | | | | | | |]; try discriminate. destruct (id_eqb z z0) eqn:Ez; [|discriminate]. apply id_eqb_eq in Ez. subst z0. destruct Nf. apply free_here. constructor. }
    rewrite B, C, G in E. destruct (memq lb ls); [|discriminate]. cbn [andb] in E. destruct (Proofs_Collect.kseq_inv _ _ _ E) as (a & b & [= <-] & Eb & ->).
    assert (H1 : hits x (EApp (ELam xs bd) [ESet y c0]) = (hits x bd + ((if id_eqb x y then 1 else 0) + hits x c0))%nat) by (rewrite Hb; cbn [map list_sum fold_right]; rewrite hits_set; unfold list_sum; lia).
    inversion W as [|? ? W1|? ? W2| | |]; subst; [repeat split; cbn; tauto | |].
    + inversion W1; subst. split; [cbn; tauto | split; [|cbn; tauto]]. intros Q. cbn in Q. subst y. rewrite H1, id_eqb_refl. lia.
    + destruct (Mb _ _ _ Eb _ W2) as (A1 & A2 & A3). split; [|split].
      * intros Q. destruct (A1 Q) as [T|T]; [now left | right]. rewrite H1, Sc. lia.
      * intros Q. apply A2 in Q. lia.
      * intros Q. apply (proj2 (D bd (or_introl eq_refl))). auto.
  - destruct (degenerate_let (EApp (ELam xs bd) l)) as [dd|] eqn:Dg.
    + eapply (goodl_good (bd :: l)); [now apply Lw | exact D |]. destruct xs as [|y xs]; [eapply goodl_in; [now left | now left | eapply Mb; eauto]|]. destruct l as [|e1 l]; [discriminate|]. inversion Ml as [|? ? M1 _]; subst.
      eapply goodl_in; [right; now left | now left | eapply M1; eauto].
    + eapply (goodl_good (bd :: l)); [now apply Lw | exact D |]. destruct (begin_view (EApp (ELam xs bd) l)) as [(e1 & e2)|] eqn:B.
      * destruct l as [|d l]; [discriminate|]. inversion Ml as [|? ? M1 _]; subst.
        assert (Gen : kseq (cg ls gcl d TVoid r) (cg ls gcl bd t r) = Some c -> goodl (bd :: d :: l) t s).
        { intros K. destruct (Proofs_Collect.kseq_inv _ _ _ K) as (a & b & Ea & Eb & ->). revert s W. apply goodl_seq; intros s W; [eapply goodl_in; [right; now left | | eapply M1; eauto]; right; discriminate | eapply goodl_in; [now left | now left | eapply Mb; eauto]]. }
        destruct e1 as [|x0 c0| | | | | | |]; auto. destruct (curry_view c0) as [((lb & ys) & [|? ?])|] eqn:C; auto. rewrite (Nb _ _ _ _ _ eq_refl C) in E. discriminate.
      * eapply lets_good; [| |exact Ml | exact Mb | exact E | exact W]; [intros z Z; now right | now left].
Qed.
Lemma cg_good e : made e.
Proof.
  assert (Q : made e /\ (forall xs bd, e = ELam xs bd -> made bd) /\ forall f l, e = EApp f l -> Forall made l); [|apply Q].
  induction e as [y|y e IH|a b c IHa IHb IHc|ef p l IH|f l IHf IH|xs b IH|xs lams0 b _ IH|y b IH|k e IHk IHe] using exp_ind2;
    (split; [|split; [intros xs0 bd0 E0; try discriminate | intros f0 l0 E0; try discriminate]]).
  - intros t r c E. now apply (cexp_good (EVar y) t r c).
  - destruct IH as (IH & _). intros t r c E s W.
    change (cg ls gcl (ESet y e) t r) with (if global_id y then kseq (cg ls gcl e (TGlob y) r) (option_map (KSet t) (cg_cexp void_exp r)) else None) in E.
    destruct (global_id y); [|discriminate]. destruct (Proofs_Collect.kseq_inv _ _ _ E) as (a & b & Ea & Eb & ->). cbn in Eb. injection Eb as <-.
    assert (Lo := sc_low x e). unfold good. rewrite hits_set. cbn [collect refs].
    inversion W as [|? ? W1|? ? W2| | |]; subst; [repeat split; cbn; tauto | |].
    + destruct (IH _ _ _ Ea _ W1) as (A1 & A2 & A3). split; [|split].
      * intros Q. right. destruct (A1 Q) as [[= ->]|T]; [rewrite id_eqb_refl|]; lia.
      * intros Q. apply A2 in Q. lia.
      * auto.
    + inversion W2; subst. split; [cbn; auto | split; [cbn; tauto|]]. cbn. intros R. inversion R as [| | | |p' l' c' I' R']. destruct I'.
  - destruct IHa as (IHa & _), IHb as (IHb & _), IHc as (IHc & _). intros t r q E.
    change (cg ls gcl (EIf a b c) t r) with (if cg_cexpp (EIf a b c) then option_map (KSet t) (cg_cexp (EIf a b c) r) else
        if cg_cexpp a then match cg_cexp a r, cg ls gcl b t r, cg ls gcl c t r with Some a', Some b', Some c' => Some (KIf a' b' c') | _, _, _ => None end
        else match cg ls gcl a (TReg (length r)) r, cg ls gcl b t r, cg ls gcl c t r with Some a', Some b', Some c' => Some (KSeq a' (KIf (XReg (length r)) b' c')) | _, _, _ => None end) in E.
    destruct (cg_cexpp (EIf a b c)) eqn:C; [now apply (cexp_good _ t r q)|].
    assert (Up : forall s, goodl [a; b; c] t s -> good (EIf a b c) t s).
    { intros s. assert (La := sc_low x a). assert (Lb := sc_low x b). assert (Lc := sc_low x c). apply goodl_good; cbn [collect sets refs]; rewrite ?sct_app, ?times_app.
      - intros X. apply Exists_exists in X. destruct X as (d & I & X). destruct I as [<-|[<-|[<-|[]]]]; lia.
      - intros d [<-|[<-|[<-|[]]]]; (split; [rewrite ?times_app; lia|]); intros z Z; rewrite !in_app_iff; auto. }
    assert (Hb : forall b', cg ls gcl b t r = Some b' -> forall s, within s b' -> goodl [a; b; c] t s) by (intros b' Eb s W; eapply goodl_in; [right; now left | now left | eapply IHb; eauto]).
    assert (Hc : forall c', cg ls gcl c t r = Some c' -> forall s, within s c' -> goodl [a; b; c] t s) by (intros c' Ec s W; eapply goodl_in; [right; right; now left | now left | eapply IHc; eauto]).
    destruct (cg_cexpp a) eqn:Ca.
    + destruct (cg_cexp a r) as [a'|] eqn:Ea; [|discriminate]. destruct (cg ls gcl b t r) as [b'|] eqn:Eb; [|discriminate]. destruct (cg ls gcl c t r) as [c'|] eqn:Ec; [|discriminate]. injection E as <-.
      intros s W. apply Up. inversion W; subst; [|eapply Hb; eauto | eapply Hc; eauto]. split; [cbn; tauto | split; [cbn; tauto|]]. cbn. intros R. left. eapply reads_refs; eauto.
    + destruct (cg ls gcl a (TReg (length r)) r) as [a'|] eqn:Ea; [|discriminate]. destruct (cg ls gcl b t r) as [b'|] eqn:Eb; [|discriminate]. destruct (cg ls gcl c t r) as [c'|] eqn:Ec; [|discriminate]. injection E as <-.
      intros s W. apply Up. revert s W. apply goodl_seq; intros s W; [eapply goodl_in; [now left | | eapply IHa; eauto]; right; discriminate|].
      inversion W; subst; [|eapply Hb; eauto | eapply Hc; eauto]. split; [cbn; tauto | split; [cbn; tauto|]]. cbn. intros R. inversion R.
  - assert (D : Forall made l) by (eapply Forall_impl; [|exact IH]; cbn; tauto). intros t r q E.
    change (cg ls gcl (EPrim ef p l) t r) with (if cg_cexpp (EPrim ef p l) then option_map (KSet t) (cg_cexp (EPrim ef p l) r) else cg_primapp (pairs ls gcl l) r (fun cs _ => KPrim t p cs)) in E.
    destruct (cg_cexpp (EPrim ef p l)) eqn:C; [now apply (cexp_good _ t r q)|]. intros s W. eapply goodl_good; [| |exact (primapp_good l t r _ q D (leaf_prim t p) E s W)].
    + intros X. rewrite hits_prim. cbn [collect]. rewrite sct_flat. apply (sum_lt (fun e => sct x (collect e)) (fun e => hits x e)); [apply low_all | assumption].
    + intros d I. rewrite hits_prim. split; [apply (sum_in (fun e => hits x e) d l I)|]. cbn [refs]. intros z Z. apply in_flat_map. eauto.
  - assert (D : Forall made l) by (eapply Forall_impl; [|exact IH]; cbn; tauto).
    destruct f as [| | | | |xs bd| | |]; try (apply app_good; [discriminate | apply IHf | assumption]). apply let_good; [apply IHf | | assumption]. now apply (proj1 (proj2 IHf) xs).
  - injection E0 as <- <-. eapply Forall_impl; [|exact IH]; cbn; tauto.
  - apply lam_good. intros y zs ->. now apply (proj2 (proj2 IH) (EVar y)).
  - injection E0 as <- <-. apply IH.
  - intros t r c E. discriminate.
  - intros t r c E. discriminate.
  - intros t r c E. discriminate.
Qed.
End Y.

(** ** Programs *)
Lemma refs_free x e : locals e -> global_id x = true -> In x (refs e) -> free_in x e.
Proof.
  induction e as [e IH] using parts_ind. intros H G I. apply refs_inv in I. destruct I as [->|(ys & e' & J & I)].
  - apply free_here. constructor.
  - destruct (locals_part _ _ _ H J) as (A & B). apply free_part with ys e'; [assumption | | now apply (IH ys e' J)].
    intros K. rewrite (A x K) in G. discriminate.
Qed.
Lemma hits_assigned x e : locals e -> global_id x = true -> (1 <= hits x e)%nat -> assigned_in x e.
Proof.
  intros L G H. assert (I : exists d, In (x, d) (sets e)).
  { unfold times in H. destruct (filter _ (sets e)) as [|(y & d) q] eqn:F; [cbn in H; lia|]. assert (I : In (y, d) (filter (fun p => id_eqb x (fst p)) (sets e))) by (rewrite F; now left).
    apply filter_In in I. destruct I as (I & E). apply id_eqb_eq in E. cbn in E. subst. eauto. }
  destruct I as (d & I). clear H. induction e as [e IH] using parts_ind. apply sets_inv in I. destruct I as [->|(ys & e' & J & I)].
  - eapply asg_here. reflexivity.
  - destruct (locals_part _ _ _ L J) as (A & B). apply asg_part with ys e'; [assumption | | now apply (IH ys e' J)]. intros K. rewrite (A x K) in G. discriminate.
Qed.
Section Prog.
Variables (ls : list id) (lams : list (list id * exp)) (b : exp) (prog : cprog).
Let e := EFix ls lams b.
Hypothesis gen : code_generate e = Some prog.
Lemma prog_good x s : statement_of s prog -> (stores x s -> S (sct x (collected e)) <= hits x e)%nat /\ (stores_static x s -> 1 <= hits x e)%nat /\ (uses x s -> In x (refs e)).
Proof.
  intros H. assert (G := gen). unfold e, code_generate in G. fold (collected (EFix ls lams b)) in G. cbv zeta in G. destruct (forallb _ (collected _)); [|discriminate].
  destruct (cg ls _ b (TReg 0) []) as [c|] eqn:Eb; [|discriminate]. destruct (all_some _) as [cs|] eqn:El; [|discriminate]. injection G as G.
  assert (Sm : hits x e = (hits x b + list_sum (map (fun l => hits x (snd l)) lams))%nat) by (unfold e; cbn [sets]; now rewrite times_app, times_flat).
  assert (Sc : sct x (collected e) = (list_sum (map (fun l => sct x (collect (snd l))) lams) + sct x (collect b))%nat) by (unfold e, collected; now rewrite sct_app, sct_flat).
  assert (Lo : Forall (fun l : list id * exp => sct x (collect (snd l)) <= hits x (snd l))%nat lams) by (apply Forall_forall; intros l _; apply sc_low).
  assert (Lb := sc_low x b). assert (Ll := sum_le _ _ _ Lo). cbn beta in Ll.
  destruct H as [W|(lab & q & I & W)].
  - rewrite <- G in W. cbn in W. destruct (cg_good x ls _ b _ _ _ Eb s W) as (A1 & A2 & A3). split; [|split].
    + intros Q. destruct (A1 Q) as [X|X]; [discriminate|]. lia.
    + intros Q. apply A2 in Q. lia.
    + intros Q. unfold e. cbn [refs]. apply in_or_app. auto.
  - rewrite <- G in I. cbn [labelled] in I. apply in_combine_r in I. apply in_map_iff in I. destruct I as ((lab' & c') & <- & I). cbn [text snd] in W. apply in_combine_r in I.
    apply all_some_in in El. destruct (Proofs_Collect.forall2_in _ _ _ _ El I) as ((ps & d) & J & Ed). cbn [fst snd] in Ed. destruct (cg_good x ls _ d _ _ _ Ed s W) as (A1 & A2 & A3). split; [|split].
    + intros Q. destruct (A1 Q) as [X|X]; [discriminate|]. assert (Y := sum_lt (fun l => sct x (collect (snd l))) (fun l => hits x (snd l)) lams Lo). rewrite Sm, Sc. cbn beta in Y.
      assert (Z : Exists (fun l : list id * exp => S (sct x (collect (snd l))) <= hits x (snd l))%nat lams) by (apply Exists_exists; exists (ps, d); auto). specialize (Y Z). lia.
    + intros Q. apply A2 in Q. assert (X := sum_in (fun l : list id * exp => hits x (snd l)) (ps, d) lams J). cbn beta in X. cbn [snd] in X. lia.
    + intros Q. unfold e. cbn [refs]. apply in_or_app. right. apply in_flat_map. exists (ps, d). auto.
Qed.
Lemma static_sct x : (exists lb, assq x (static_roots e) = Some lb) -> (1 <= sct x (collected e))%nat.
Proof.
  intros (lb & A). assert (I : In (x, lb) (static_roots e)). { clear - A. induction (static_roots e) as [|(y & z) l IH]; [discriminate|]. cbn in A. destruct (id_eqb x y) eqn:E; [apply id_eqb_eq in E; injection A as <-; subst; now left | right; auto]. }
  unfold static_roots in I. apply in_rev in I. apply in_flat_map in I. destruct I as (f & J & I). destruct f; try (now destruct I). destruct I as [[= -> ->]|[]].
  clear - J. induction (collected e) as [|f l IH]; [easy|]. destruct J as [->|J]; [cbn [sct]; rewrite id_eqb_refl; lia|]. specialize (IH J). destruct f; cbn [sct]; auto. destruct (id_eqb x x0); lia.
Qed.
Lemma stored_rooted x s : locals e -> global_id x = true -> statement_of s prog -> stores x s -> In x (live_roots e).
Proof.
  intros L G H St. destruct (prog_good x s H) as (A & _ & _). specialize (A St). unfold live_roots. apply filter_In. split.
  - apply free_vars_free. apply Proofs_Globals.assigned_free. apply hits_assigned; [assumption .. | lia].
  - rewrite hits_count by assumption. cbv zeta. destruct (Nat.eqb_spec (hits x e) 0); [lia|]. destruct (assq x (static_roots e)) as [lb|] eqn:E; [|reflexivity].
    assert (X : (1 <= sct x (collected e))%nat) by (apply static_sct; eauto). destruct (Nat.ltb_spec 1 (hits x e)); [reflexivity | lia].
Qed.
End Prog.

(** ** Runs *)
Section Run.
Variables (P : prim -> script) (order : list cexp -> list nat) (junk : id -> val) (dot : id -> bool).
Lemma in_order_gl : forall o fs acc w vs w', (forall f, In f fs -> forall w v w', f w = Some (v, w') -> gl w' = gl w) -> in_order o fs acc w = Some (vs, w') -> gl w' = gl w.
Proof.
  induction o as [|i o IH]; intros fs acc w vs w' H E; cbn [in_order] in E.
  - destruct (all_some acc); [|discriminate]. now injection E as <- <-.
  - destruct (nth_error fs i) as [f|] eqn:N; [|discriminate]. destruct (f w) as [(v & w1)|] eqn:F; [|discriminate]. destruct (list_set acc i (Some v)); [|discriminate].
    rewrite (IH _ _ _ _ _ H E). apply nth_error_In in N. eauto.
Qed.
Lemma xeval_gl r cv c : forall w v w', xeval P order r cv c w = Some (v, w') -> gl w' = gl w.
Proof.
  induction c as [i|x|x|a b c IHa IHb IHc|p l IH] using cexp_ind2; intros w v w' E; cbn [xeval] in E.
  - now injection E as <- <-.
  - now injection E as <- <-.
  - destruct (assq x cv); [|discriminate]. now injection E as <- <-.
  - destruct (xeval P order r cv a w) as [(v1 & w1)|] eqn:A; [|discriminate]. apply IHa in A. destruct (is_true v1); [apply IHb in E | apply IHc in E]; congruence.
  - destruct (in_order _ _ _ w) as [(vs & w1)|] eqn:O; [|discriminate]. apply run_gl in E. rewrite E. eapply in_order_gl; [|exact O]. intros f I. apply in_map_iff in I. destruct I as (d & <- & I). rewrite Forall_forall in IH. exact (IH d I).
Qed.
Lemma xevals_gl r cv l w vs w' : xevals P order r cv l w = Some (vs, w') -> gl w' = gl w.
Proof. apply in_order_gl. intros f I. apply in_map_iff in I. destruct I as (d & <- & I). intros. eapply xeval_gl; eauto. Qed.
Lemma xseq_gl r cv : forall l w vs w', xseq P order r cv l w = Some (vs, w') -> gl w' = gl w.
Proof.
  induction l as [|c l IH]; intros w vs w' E; cbn [xseq] in E; [now injection E as <- <-|]. destruct (xeval P order r cv c w) as [(v & w1)|] eqn:X; [|discriminate]. destruct (xseq P order r cv l w1) as [(vs1 & w2)|] eqn:Y; [|discriminate].
  injection E as <- <-. rewrite (IH _ _ _ Y). eapply xeval_gl; eauto.
Qed.
Lemma assign_gl cv : forall l i r w r' w', assign P order i l r cv w = Some (r', w') -> gl w' = gl w.
Proof.
  induction l as [|c l IH]; intros i r w r' w' E; cbn [assign] in E; [now injection E as <- <-|]. destruct (xeval P order r cv c w) as [(v & w1)|] eqn:X; [|discriminate]. rewrite (IH _ _ _ _ _ E). eapply xeval_gl; eauto.
Qed.
Lemma moves_gl s l m r w : moves P order s l m = Some (r, w) -> gl w = gl (world m).
Proof. unfold moves. destruct s as [n|]; [|apply assign_gl]. destruct (assign _ _ _ _ _ _ _) as [(r1 & w1)|] eqn:A; [|discriminate]. intros [= <- <-]. eapply assign_gl; eauto. Qed.
Definition held (x : id) (w w' : st) : Prop := gl w' x = gl w x \/ exists lb, gl w' x = clo lb [].
Lemma held_trans x a b c : held x a b -> held x b c -> held x a c.
Proof. intros [A|(lb & A)] [B|(lb' & B)]; unfold held; [left; congruence | right; eauto | right; exists lb; congruence | right; eauto]. Qed.
Lemma held_gl x w w' : gl w' = gl w -> held x w w'.
Proof. intros E. left. now rewrite E. Qed.
Definition res_held (x : id) (w : st) (o : result) : Prop :=
  match o with RGo m => held x w (world m) | RHalt _ w' | RGoto _ _ _ w' | RJump _ _ w' => held x w w' | RFail => True end.
Lemma store_held x t v m o : t <> TGlob x -> store P t v m = Some o -> held x (world m) (world o).
Proof.
  intros N E. destruct t as [|i|y|y ty]; cbn [store] in E; [injection E as <-; now left | injection E as <-; now left | |].
  - injection E as <-. left. cbn. unfold set_gl. cbn. destruct (id_eqb x y) eqn:Q; [apply id_eqb_eq in Q; congruence | reflexivity].
  - destruct (run _ _ _) as [(v' & w')|] eqn:R; [|discriminate]. destruct (set_cv _ _ _); [|discriminate]. injection E as <-. apply held_gl. cbn. now apply run_gl in R.
Qed.
Lemma go_held x t v m w : t <> TGlob x -> held x w (world m) -> res_held x w (go (store P t v m)).
Proof. intros N H. destruct (store P t v m) as [o|] eqn:S; [|exact I]. cbn. eapply held_trans; [exact H|]. eapply store_held; eauto. Qed.
Lemma exec_held x c : (forall s, within s c -> ~ stores x s) -> forall m, res_held x (world m) (exec P order junk c m).
Proof.
  induction c as [t c|t p l|t lab l|y lab|a IHa b IHb|y a IHa|c a IHa b IHb|sh lab l|sh l]; intros N m; cbn [exec].
  - destruct (xeval _ _ _ _ _ _) as [(v & w)|] eqn:X; [|exact I]. apply go_held; [intros ->; now apply (N _ (wi_here _))|]. apply held_gl. cbn. eapply xeval_gl; eauto.
  - destruct (xevals _ _ _ _ _ _) as [(vs & w)|] eqn:X; [|exact I]. apply xevals_gl in X. destruct (is_halt p); [destruct vs as [|v [|]]; try exact I; now apply held_gl|].
    destruct (run _ _ _) as [(v & w')|] eqn:R; [|exact I]. apply go_held; [intros ->; now apply (N _ (wi_here _))|]. apply held_gl. cbn. apply run_gl in R. congruence.
  - destruct (xseq _ _ _ _ _ _) as [(vs & w)|] eqn:X; [|exact I]. apply xseq_gl in X. apply go_held; [intros ->; now apply (N _ (wi_here _))|]. now apply held_gl.
  - cbn. unfold held, set_gl. cbn. destruct (id_eqb x y); eauto.
  - assert (A := IHa (fun s W => N s (wi_first _ _ _ W)) m). destruct (exec _ _ _ a m) as [m'| | | |]; try exact A. cbn in A.
    assert (B := IHb (fun s W => N s (wi_second _ _ _ W)) m'). destruct (exec _ _ _ b m'); cbn in *; try exact I; eapply held_trans; eauto.
  - assert (A := IHa (fun s W => N s (wi_block _ _ _ W)) (mkmach (regs m) ((y, junk y) :: cvs m) (world m))). destruct (exec _ _ _ a _); exact A.
  - destruct (xeval _ _ _ _ _ _) as [(v & w)|] eqn:X; [|exact I]. apply xeval_gl in X.
    assert (A : res_held x w (exec P order junk (if is_true v then a else b) (set_world m w))) by (destruct (is_true v); [apply (IHa (fun s W => N s (wi_then _ _ _ _ W)) (set_world m w)) | apply (IHb (fun s W => N s (wi_else _ _ _ _ W)) (set_world m w))]).
    destruct (exec _ _ _ _ _); cbn in *; try exact I; (eapply held_trans; [apply held_gl; exact X | assumption]).
  - destruct (moves _ _ _ _ _) as [(r & w)|] eqn:M; [|exact I]. apply held_gl. eapply moves_gl; eauto.
  - destruct (moves _ _ _ _ _) as [(r & w)|] eqn:M; [|exact I]. apply held_gl. eapply moves_gl; eauto.
Qed.
Lemma code_statement p lab c s : code_at p lab = Some c -> within s c -> statement_of s p.
Proof.
  destruct lab as [t|]; cbn; [|intros [= <-]; now left]. destruct (assq t (Model_CodeGen.labelled p)) as [q|] eqn:A; [|discriminate]. intros [= <-] W. right. exists t, q. split; [|assumption].
  clear - A. induction (Model_CodeGen.labelled p) as [|(y & z) l IH]; [discriminate|]. cbn in A. destruct (id_eqb t y) eqn:E; [apply id_eqb_eq in E; injection A as <-; subst; now left | right; auto].
Qed.
Lemma step_held p x s s' : (forall k, statement_of k p -> ~ stores x k) -> mstep P order junk dot p s s' -> held x (mmem s) (mmem s').
Proof.
  intros N [lab c r w v w' C X|lab c r w t n r' w' C X|lab c r w n r' w' t r'' C X _]; assert (H := exec_held x c (fun k W => N k (code_statement p lab c k C W)) (mkmach r [] w)); rewrite X in H; exact H.
Qed.
Lemma run_held p x s s' : (forall k, statement_of k p -> ~ stores x k) -> mstar P order junk dot p s s' -> held x (mmem s) (mmem s').
Proof. intros N. induction 1 as [s|s s1 s2 S _ IH]; [now left | eapply held_trans; [eapply step_held; eauto | exact IH]]. Qed.
End Run.
