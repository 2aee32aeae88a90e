(** Templates: what [expand] gives is the instance of the template. *)
From Coq Require Import ZArith List Bool Lia.
From Verif Require Import Model_Lit Model_Core Model_Beta Model_Syntax Spec_Syntax Proofs_Syntax.
Import ListNotations.
Open Scope Z_scope.
Set Default Proof Using "Type".

Inductive has_depth : nat -> bval -> Prop :=
| hd_0 s : has_depth 0 (BLeaf s)
| hd_S n l : (forall b, In b l -> has_depth n b) -> has_depth (S n) (BList l).

Lemma nodup_disj {A} (l m : list A) v : NoDup (l ++ m) -> In v l -> In v m -> False.
Proof. induction l as [|a l IH]; intros N I J; [destruct I|]. inversion N; subst. destruct I as [-> | I]; [rewrite in_app_iff in *; tauto | auto]. Qed.

Section Rule.
Variable ell : sexp -> bool.
Variable is_lit : ident -> bool.
Notation took := (took ell is_lit).
Notation occurs := (occurs ell).
Notation list_ids := (list_ids ell).
Notation plain_cdr := (plain_cdr ell).
Notation check := (check ell).
Notation make_pat_env := (make_pat_env ell is_lit).
Notation nl := (fun i => negb (is_lit i)).
Notation vs := (vs ell is_lit).

Lemma mpe_pair a q k l : plain_cdr q -> make_pat_env (SCons a q) k l = match make_pat_env q k l with Some l' => make_pat_env a k l' | None => None end.
Proof. intros E. cbn [Model_Syntax.make_pat_env]. destruct q; try reflexivity. now rewrite (E _ _ eq_refl). Qed.
Lemma mpe_rep a e d k l : ell e = true -> make_pat_env (SCons a (SCons e d)) k l = match make_pat_env d k l with Some l' => make_pat_env a (S k) l' | None => None end.
Proof. intros E. cbn [Model_Syntax.make_pat_env]. now rewrite E. Qed.
Definition pe_ok (p : sexp) (k : nat) (pe : list (ident * nat)) : Prop :=
  map fst pe = vs p /\
  (forall v d, In (v, d) pe -> (k <= d)%nat /\ forall s t, took p s v t -> has_depth (d - k) t) /\
  (forall v, In v (list_ids nl p false []) <-> exists d, In (v, d) pe /\ (k < d)%nat).
Lemma pat_env_sid x k l l' : sidp x = true -> make_pat_env x k l = Some l' ->
  (is_lit (sid_id x) = true /\ l' = l) \/ (is_lit (sid_id x) = false /\ assv (sid_id x) l = None /\ l' = (sid_id x, k) :: l).
Proof.
  intros S H. destruct x; try discriminate; cbn [Model_Syntax.make_pat_env] in H.
  - destruct (is_lit _); [left; split; congruence|]. right. destruct (assv _ l) eqn:E; [discriminate|]. split; [reflexivity|]. split; congruence.
  - destruct (is_lit _); [left; split; congruence|]. right. destruct (assv _ l) eqn:E; [discriminate|]. split; [reflexivity|]. split; congruence.
Qed.
Lemma vs_sid x : sidp x = true -> vs x = if is_lit (sid_id x) then [] else [sid_id x].
Proof. intros S. destruct x; try discriminate; unfold Proofs_Syntax.vs; cbn; now destruct (is_lit _). Qed.
Lemma took_vs p s v t : took p s v t -> In v (vs p).
Proof.
  intros T. apply (proj2 (vs_in ell is_lit p v)). induction T; try (destruct IHT; split; [|assumption]).
  - split; [now apply oc_here | assumption].
  - now apply oc_vec.
  - apply oc_box. apply oc_car; [intros ? ? [=] | assumption].
  - now apply oc_car.
  - now apply oc_cdr.
  - split; [now apply oc_rep | assumption].
  - now apply oc_tail.
Qed.
Hypothesis ell_sid : forall x, ell x = true -> sidp x = true.
Lemma pat_env_ok p : check false p = true -> forall k l l', make_pat_env p k l = Some l' -> NoDup (map fst l) ->
  exists pe, l' = pe ++ l /\ NoDup (map fst l') /\ pe_ok p k pe.
Proof using ell_sid.
  induction p as [p IH] using size_ind. intros C k l l' M N.
  assert (SID : sidp p = true -> exists pe, l' = pe ++ l /\ NoDup (map fst l') /\ pe_ok p k pe).
  { intros S. destruct (pat_env_sid _ _ _ _ S M) as [[L ->] | (L & A & ->)].
    - exists []. split; [reflexivity|]. split; [assumption|]. split; [rewrite vs_sid, L by assumption; reflexivity|]. split; [intros ? ? []|].
      intros v. destruct p; try discriminate; cbn; split; intros H; try contradiction; destruct H as (? & [] & _).
    - exists [(sid_id p, k)]. split; [reflexivity|]. split; [cbn; constructor; [now apply assv_none | assumption]|].
      split; [rewrite vs_sid, L by assumption; reflexivity|]. split.
      + intros v d [[= <- <-] | []]. split; [lia|]. intros s t T. rewrite Nat.sub_diag. inversion T; subst; try discriminate. constructor.
      + intros v. split; [destruct p; try discriminate; intros [] |]. intros (d & [X|[]] & Y). injection X as _ <-. lia. }
  assert (ATOM : atomic p -> exists pe, l' = pe ++ l /\ NoDup (map fst l') /\ pe_ok p k pe).
  { intros A. assert (l' = l) as -> by (destruct p; try contradiction; cbn in M; congruence). exists []. split; [reflexivity|]. split; [assumption|].
    split; [destruct p; try contradiction; reflexivity|]. split; [intros ? ? []|]. intros v. destruct p; try contradiction; cbn; split; intros H; try contradiction; destruct H as (? & [] & _). }
  destruct p; cbn [ssize] in IH; try (now apply SID); try (now apply ATOM).
  - destruct (plain_dec ell p2) as [P | (e & d & -> & E)].
    + rewrite mpe_pair in M by assumption. apply (check_pair _ _ _ _ P) in C. destruct C as (C1 & C2 & _).
      destruct (make_pat_env p2 k l) as [l1|] eqn:M2; [|discriminate].
      destruct (IH p2 ltac:(lia) C2 _ _ _ M2 N) as (pe2 & -> & N2 & K2 & D2 & E2).
      destruct (IH p1 ltac:(lia) C1 _ _ _ M N2) as (pe1 & -> & N1 & K1 & D1 & E1).
      exists (pe1 ++ pe2). split; [now rewrite app_assoc|]. split; [assumption|].
      rewrite !map_app, K1, K2, app_assoc in N1. apply nodup_l in N1. split; [|split].
      * rewrite map_app, K1, K2, vs_pair by assumption. reflexivity.
      * intros v d I. split; [apply in_app_or in I; destruct I as [I|I]; [now apply D1 in I | now apply D2 in I]|].
        intros s t T. inversion T; subst; try discriminate; try (specialize (P _ _ eq_refl); congruence).
        -- apply in_app_or in I. destruct I as [I|I]; [now apply (proj2 (D1 _ _ I)) with a|]. exfalso.
           apply (nodup_disj _ _ v N1); [match goal with T : took p1 a v t |- _ => now apply took_vs in T end | rewrite <- K2; now apply (in_map fst) in I].
        -- apply in_app_or in I. destruct I as [I|I]; [|now apply (proj2 (D2 _ _ I)) with b]. exfalso.
           apply (nodup_disj _ _ v N1); [rewrite <- K1; now apply (in_map fst) in I | match goal with T : took p2 b v t |- _ => now apply took_vs in T end].
      * intros v. rewrite list_ids_pair by assumption. rewrite list_ids_app, in_app_iff, E1, E2. setoid_rewrite in_app_iff. split.
        -- intros [(d & I & L) | (d & I & L)]; exists d; tauto.
        -- intros (d & [I|I] & L); [left | right]; exists d; tauto.
    + rewrite mpe_rep in M by assumption. apply (check_rep _ _ _ _ E) in C. destruct C as (C1 & C2 & C3). assert (C4 := no_ell_check _ ell_sid _ C2 C3).
      cbn [ssize] in IH. destruct (make_pat_env d k l) as [l1|] eqn:M2; [|discriminate].
      destruct (IH d ltac:(lia) C4 _ _ _ M2 N) as (pe2 & -> & N2 & K2 & D2 & E2).
      destruct (IH p1 ltac:(lia) C1 _ _ _ M N2) as (pe1 & -> & N1 & K1 & D1 & E1).
      exists (pe1 ++ pe2). split; [now rewrite app_assoc|]. split; [assumption|].
      rewrite !map_app, K1, K2, app_assoc in N1. apply nodup_l in N1. split; [|split].
      * rewrite map_app, K1, K2, vs_rep by assumption. reflexivity.
      * intros v d0 I. split; [apply in_app_or in I; destruct I as [I|I]; [apply D1 in I; lia | now apply D2 in I]|].
        intros s t T. inversion T; subst; try discriminate; try (match goal with P : plain_cdr (SCons _ _) |- _ => specialize (P _ _ eq_refl); congruence end).
        -- apply in_app_or in I. destruct I as [I|I].
           ++ destruct (D1 _ _ I) as [L X]. replace (d0 - k)%nat with (S (d0 - S k)) by lia. constructor.
              match goal with F : Forall2 _ fs ts |- _ => clear - F X; induction F as [|f t fs ts H F IHF]; intros b [] end; [subst; now apply X with f | now apply IHF].
           ++ exfalso. apply (nodup_disj _ _ v N1); [apply vs_in; now split | rewrite <- K2; now apply (in_map fst) in I].
        -- apply in_app_or in I. destruct I as [I|I].
           ++ exfalso. apply (nodup_disj _ _ v N1); [rewrite <- K1; now apply (in_map fst) in I | match goal with T : took d _ v t |- _ => now apply took_vs in T end].
           ++ now apply (proj2 (D2 _ _ I)) with s0.
      * intros v. rewrite list_ids_rep by assumption. rewrite list_ids_app, in_app_iff, E2. setoid_rewrite in_app_iff. fold (vs p1).
        rewrite <- K1. split.
        -- intros [I | (d0 & I & L)]; [|exists d0; tauto]. apply in_map_iff in I. destruct I as ([v' d0] & <- & I). exists d0. split; [now left|]. apply D1 in I. lia.
        -- intros (d0 & [I|I] & L); [left; now apply (in_map fst) in I | right; exists d0; tauto].
  - assert (C' : check false p = true) by (revert C; cbn [Model_Syntax.check]; rewrite andb_true_iff; tauto).
    destruct (IH p ltac:(lia) C' _ _ _ M N) as (pe & -> & N' & K & D & E). exists pe. split; [reflexivity|]. split; [assumption|].
    split; [exact K|]. split; [|exact E]. intros v d I. split; [now apply D in I|]. intros s t T. inversion T; subst; [discriminate|]. now apply (proj2 (D _ _ I)) with s0.
  - apply check_box in C. destruct C as (kk & q & -> & _ & C). cbn [Model_Syntax.make_pat_env] in M.
    destruct (IH q ltac:(cbn [ssize]; lia) C _ _ _ M N) as (pe & -> & N' & K & D & E). exists pe. split; [reflexivity|]. split; [assumption|].
    split; [exact K|]. split; [|exact E]. intros v d I. split; [now apply D in I|]. intros s t T. inversion T; subst; [discriminate|]. now apply (proj2 (D _ _ I)) with s.
Qed.
End Rule.

(** ** Rows *)
Lemma same_lengths_spec ls : same_lengths ls = true <-> forall a b, In a ls -> In b ls -> length a = length b.
Proof.
  induction ls as [|a ls IH]; [cbn; split; [intros _ ? ? [] | reflexivity]|]. destruct ls as [|b ls].
  - cbn. split; [|reflexivity]. intros _ x y [<-|[]] [<-|[]]. reflexivity.
  - change (same_lengths (a :: b :: ls)) with (Nat.eqb (length a) (length b) && same_lengths (b :: ls)).
    rewrite andb_true_iff, Nat.eqb_eq, IH. split.
    + intros [E H] x y Ix Iy. assert (A : forall z, In z (a :: b :: ls) -> length z = length b) by (intros z [<-|Iz]; [assumption | apply H; [assumption | now left]]).
      rewrite (A x Ix), (A y Iy). reflexivity.
    + intros H. split; [apply H; [now left | right; now left]|]. intros x y Ix Iy. apply H; now right.
Qed.
Lemma apply_map_list_spec n : forall ls, (forall l, In l ls -> length l = n) ->
  length (apply_map_list n ls) = n /\
  forall i row, nth_error (apply_map_list n ls) i = Some row -> Forall2 (fun l b => nth_error l i = Some b) ls row.
Proof.
  induction n as [|n IH]; intros ls H; cbn [apply_map_list]; [split; [reflexivity | intros [|i] row E; discriminate]|].
  assert (M : mapo (fun r : list bval => match r with a :: r' => Some (a, r') | [] => None end) ls
              = Some (map (fun l => (hd (BLeaf SNil) l, tl l)) ls)).
  { clear IH. induction ls as [|l ls IHl]; [reflexivity|]. cbn [mapo map]. destruct l as [|a l]; [specialize (H [] (or_introl eq_refl)); discriminate|].
    rewrite IHl by (intros; apply H; now right). reflexivity. }
  rewrite M. rewrite !map_map. cbn [fst snd].
  destruct (IH (map (@tl _) ls)) as [L N].
  { intros l I. apply in_map_iff in I. destruct I as (l' & <- & I). apply H in I. destruct l'; cbn in *; lia. }
  split; [cbn [length]; f_equal; exact L|]. intros [|i] row E; cbn in E.
  - injection E as <-. clear -H. induction ls as [|l ls IHl]; cbn; constructor; [|apply IHl; intros; apply H; now right].
    destruct l as [|a l]; [specialize (H [] (or_introl eq_refl)); discriminate | reflexivity].
  - apply N in E. clear -E H. revert row E. induction ls as [|l ls IHl]; intros row E; inversion E; subst; constructor; [|apply IHl; [intros; apply H; now right | assumption]].
    destruct l as [|a l]; [specialize (H [] (or_introl eq_refl)); discriminate | assumption].
Qed.
Lemma assv_combine (f : ident -> option bval) i vars : forall ls row, Forall2 (fun v l => f v = Some (BList l)) vars ls ->
  Forall2 (fun l b => nth_error l i = Some b) ls row ->
  (forall v, ~ In v vars -> assv v (combine vars row) = None) /\
  (forall v l, In v vars -> f v = Some (BList l) -> exists b, assv v (combine vars row) = Some b /\ nth_error l i = Some b).
Proof.
  induction vars as [|x vars IH]; intros ls row F G; inversion F; subst; inversion G; subst; cbn [combine assv].
  - split; [reflexivity | intros ? ? []].
  - match goal with A : Forall2 _ vars _, B : Forall2 _ _ l'0 |- _ => destruct (IH _ _ A B) as [P Q] end. split.
    + intros v N. rewrite ident_eqb_ne; [apply P; firstorder|]. intros ->. apply N. now left.
    + intros v l I E. destruct (ident_eqb v x) eqn:X.
      * apply ident_eqb_eq in X. subst v. rewrite E in H1. injection H1 as ->. eauto.
      * destruct I as [-> | I]; [rewrite ident_eqb_refl in X; discriminate | eauto].
Qed.

Unset Default Proof Using.
Section Depth.
Variable ell : sexp -> bool.
Variable pe : list (ident * nat).
Notation occurs := (occurs ell).
Notation plain_cdr := (plain_cdr ell).
Notation cvd := (check_var_depths ell pe).
Lemma cvd_pair a q k : plain_cdr q -> cvd (SCons a q) k = match cvd a k, cvd q k with Some c, Some d => Some (c || d) | _, _ => None end.
Proof. intros E. cbn [Model_Syntax.check_var_depths]. destruct q; try reflexivity. now rewrite (E _ _ eq_refl). Qed.
Lemma cvd_rep a e d k : ell e = true -> cvd (SCons a (SCons e d)) k = match cvd a (S k), cvd d k with Some c, Some d => if c then Some true else None | _, _ => None end.
Proof. intros E. cbn [Model_Syntax.check_var_depths]. now rewrite E. Qed.
Lemma cvd_deep x : forall k c v d, cvd x k = Some c -> occurs x v -> assv v pe = Some d -> (0 < d)%nat -> (k <= d)%nat.
Proof.
  induction x as [x IH] using size_ind. intros k c v d H O A L. destruct O.
  - destruct x; try discriminate; cbn [Model_Syntax.check_var_depths] in H; cbn [sid_id] in A; cbn [sid_id] in H; rewrite A in H;
      destruct (Nat.eqb k d) eqn:E; try (apply Nat.eqb_eq in E; lia); destruct (Nat.ltb_spec 0 d); try lia; discriminate.
  - apply (IH x) with (c := c) (v := v); [cbn; lia|exact H|exact O|exact A|exact L].
  - apply (IH d0) with (c := c) (v := v); [cbn; lia|exact H|exact O|exact A|exact L].
  - rewrite cvd_pair in H by assumption. destruct (cvd a k) eqn:H1; [|discriminate]. eapply (IH a); [cbn; lia|exact H1|exact O|exact A|exact L].
  - rewrite cvd_pair in H by assumption. destruct (cvd a k) eqn:H1; [|discriminate]. destruct (cvd q k) eqn:H2; [|discriminate]. eapply (IH q); [cbn; lia|exact H2|exact O|exact A|exact L].
  - rewrite cvd_rep in H by assumption. destruct (cvd a (S k)) eqn:H1; [|discriminate]. enough (S k <= d)%nat by lia. eapply (IH a); [cbn; lia|exact H1|exact O|exact A|exact L].
  - rewrite cvd_rep in H by assumption. destruct (cvd a (S k)) eqn:H1; [|discriminate]. destruct (cvd d0 k) eqn:H2; [|discriminate]. eapply (IH d0); [cbn; lia|exact H2|exact O|exact A|exact L].
Qed.
Lemma cvd_closed x : forall k, cvd x k = Some true -> exists v d, occurs x v /\ assv v pe = Some d /\ (k <= d)%nat.
Proof.
  induction x as [x IH] using size_ind. intros k H. destruct x; cbn [ssize] in IH; try discriminate.
  - destruct (plain_dec ell x2) as [P | (e & d & -> & E)].
    + rewrite cvd_pair in H by assumption. destruct (cvd x1 k) as [[]|] eqn:H1; [| |discriminate].
      * destruct (IH x1 ltac:(lia) _ H1) as (v & d & O & R). exists v, d. split; [now apply oc_car | assumption].
      * destruct (cvd x2 k) as [[]|] eqn:H2; try discriminate. destruct (IH x2 ltac:(lia) _ H2) as (v & d & O & R). exists v, d. split; [now apply oc_cdr | assumption].
    + rewrite cvd_rep in H by assumption. destruct (cvd x1 (S k)) as [[]|] eqn:H1; [| |discriminate].
      * destruct (IH x1 ltac:(lia) _ H1) as (v & d0 & O & R & L). exists v, d0. split; [now apply oc_rep | split; [assumption | lia]].
      * destruct (cvd d k); discriminate.
  - cbn in H. destruct (assv _ pe) as [d|] eqn:A; [|discriminate]. match type of H with (if ?b then _ else _) = _ => destruct b; [discriminate|] end. injection H as H. apply Nat.eqb_eq in H.
    exists (IdSym s), d. split; [now apply (oc_here _ (SSym s)) | split; [assumption | lia]].
  - cbn in H. destruct (assv _ pe) as [d|] eqn:A; [|discriminate]. match type of H with (if ?b then _ else _) = _ => destruct b; [discriminate|] end. injection H as H. apply Nat.eqb_eq in H.
    exists i, d. split; [now apply (oc_here _ (SRen name i l)) | split; [assumption | lia]].
  - cbn in H. destruct (IH x ltac:(lia) _ H) as (v & d & O & R). exists v, d. split; [now apply oc_vec | assumption].
  - cbn in H. destruct x; try discriminate. destruct (IH x2 ltac:(cbn; lia) _ H) as (v & d & O & R). exists v, d. split; [now apply oc_box | assumption].
Qed.

End Depth.

Section Tmpl.
Variable numstr : Z -> list Z.
Variable strnum : list Z -> sexp.
Variable ell : sexp -> bool.
Variable env mac_env : senv.
Variable id_n : Z.
Variable top : list (ident * bval).
Variable tl ev : list ident.
Variable pe : list (ident * nat).
Hypothesis ev_ok : forall v, In v ev <-> exists d, assv v pe = Some (S d).
Notation occurs := (occurs ell).
Notation plain_cdr := (plain_cdr ell).
Notation check := (check ell).
Notation cvd := (check_var_depths ell pe).
Notation expand := (expand numstr strnum ell env mac_env id_n top tl ev).
Notation instance := (instance ell (fun k args => sbox_conv numstr strnum k args env) (rename mac_env id_n tl)).
Lemma ex_pair a q bs : plain_cdr q -> expand (SCons a q) bs = match expand a bs, expand q bs with Some x, Some y => Some (SCons x y) | _, _ => None end.
Proof. intros E. cbn [Model_Syntax.expand]. destruct q; try reflexivity. now rewrite (E _ _ eq_refl). Qed.
Lemma ex_rep a e d bs : ell e = true -> expand (SCons a (SCons e d)) bs =
        let vars := list_ids ell (fun i => memv i ev) a true [] in
        match mapo (fun x => assv x bs) vars with
        | Some vals =>
          match all_lists vals with
          | Some ((_ :: _) as ls) =>
            if same_lengths ls then
              match mapo (fun row => expand a (combine vars row)) (rows_of ls), expand d bs with
              | Some xs, Some y => Some (sapp xs y)
              | _, _ => None
              end
            else None
          | _ => None
          end
        | None => None
        end.
Proof. intros E. cbn [Model_Syntax.expand]. now rewrite E. Qed.
Definition inv (k : nat) (bs : list (ident * bval)) (look : ident -> option bval) (v : ident) : Prop :=
  match assv v pe with
  | None => assv v bs = None /\ assv v top = None /\ look v = None
  | Some O => look v = assv v top /\ (assv v bs = None \/ assv v bs = assv v top) /\ exists s, assv v top = Some (BLeaf s)
  | Some (S d) => look v = assv v bs /\ exists t, assv v bs = Some t /\ has_depth (S d - k) t
  end.
Lemma ex_sid t bs : sidp t = true -> expand t bs = match assv (sid_id t) bs with
    | Some v => Some (bval_sexp v)
    | None => match assv (sid_id t) top with Some v => Some (bval_sexp v) | None => Some (rename mac_env id_n tl t) end
    end.
Proof. now destruct t. Qed.
Lemma template_sbox_shape y : template_sboxp (SBox y) = true -> exists k d, y = SCons (SSym k) d.
Proof. destruct y as [|[] ?| | | | | | | | |]; try discriminate. eauto. Qed.
Ltac atom_sid := match goal with A : atomic ?t, S : sidp ?t = true |- _ => exfalso; revert A S; clear; destruct t; cbn; congruence || contradiction end.
Lemma expand_instance t : check true t = true -> forall k c bs look, cvd t k = Some c -> (forall v, occurs t v -> inv k bs look v) ->
  forall out, expand t bs = Some out <-> instance look t out.
Proof.
  induction t as [t IH] using size_ind. intros C k c bs look D I out.
  assert (ATOM : atomic t -> expand t bs = Some out <-> instance look t out).
  { intros A. assert (expand t bs = Some t) as -> by (destruct t; try contradiction; reflexivity). split; [intros [= <-]; now apply in_atom|].
    intros H. inversion H; subst; try contradiction; try reflexivity; atom_sid. }
  assert (SID : sidp t = true -> expand t bs = Some out <-> instance look t out).
  { intros S. rewrite ex_sid by assumption. assert (V := I _ (oc_here _ _ S)). unfold inv in V.
    assert (X : forall s, look (sid_id t) = Some (BLeaf s) -> (instance look t out <-> out = s)).
    { intros s E. split; [|intros ->; now apply in_var]. intros H. inversion H; subst; try discriminate; try congruence. atom_sid. }
    assert (D' : match assv (sid_id t) pe with Some d => (0 < d)%nat -> k = d | None => True end).
    { destruct t; try discriminate; cbn [Model_Syntax.check_var_depths sid_id] in D |- *; destruct (assv _ pe) as [d|]; try exact Logic.I; intros L; destruct (Nat.eqb k d) eqn:E;
        try (now apply Nat.eqb_eq in E); (destruct d as [|d]; [lia|]); cbn [Nat.ltb Nat.leb negb andb] in D; discriminate. }
    destruct (assv (sid_id t) pe) as [[|d]|].
    - destruct V as (E & B & s & T). rewrite (X s) by congruence. destruct B as [-> | ->]; rewrite ?T; cbn; split; congruence.
    - destruct V as (E & b & B & H). rewrite D' in H by lia. rewrite Nat.sub_diag in H. inversion H; subst. rewrite (X s) by congruence. rewrite B. cbn. split; congruence.
    - destruct V as (B & T & L). rewrite B, T. split; [intros [= <-]; now apply in_new|]. intros H. inversion H; subst; try discriminate; try congruence. atom_sid. }
  destruct t; cbn [ssize] in IH; try (now apply ATOM); try (now apply SID).
  - destruct (plain_dec ell t2) as [P | (e & d & -> & E)].
    + rewrite ex_pair by assumption. rewrite cvd_pair in D by assumption. apply (check_pair _ _ _ _ P) in C. destruct C as (C1 & C2 & _).
      destruct (cvd t1 k) eqn:D1; [|discriminate]. destruct (cvd t2 k) eqn:D2; [|discriminate].
      assert (J1 := IH t1 ltac:(lia) C1 _ _ bs look D1 (fun v O => I v (oc_car _ _ _ _ P O))).
      assert (J2 := IH t2 ltac:(lia) C2 _ _ bs look D2 (fun v O => I v (oc_cdr _ _ _ _ P O))). split.
      * destruct (expand t1 bs); [|discriminate]. destruct (expand t2 bs); [|discriminate]. intros [= <-]. apply in_pair; [assumption | now apply J1 | now apply J2].
      * inversion 1; subst; try discriminate; try contradiction.
        -- match goal with X : instance look t1 _, Y : instance look t2 _ |- _ => apply J1 in X; apply J2 in Y; now rewrite X, Y end.
        -- specialize (P _ _ eq_refl). congruence.
    + rewrite ex_rep by assumption. rewrite cvd_rep in D by assumption. apply (check_rep_t _ _ _ _ E) in C. destruct C as (C1 & C2).
      destruct (cvd t1 (S k)) as [b|] eqn:D1; [|discriminate]. destruct (cvd d k) eqn:D2; [|discriminate]. destruct b; [|discriminate]. cbn [ssize] in IH.
      assert (J2 := IH d ltac:(lia) C2 _ _ bs look D2 (fun v O => I v (oc_tail _ _ _ _ _ E O))).
      cbn zeta. set (vars := list_ids ell (fun i => memv i ev) t1 true []).
      assert (VARS : forall v, In v vars <-> occurs t1 v /\ exists d0, assv v pe = Some (S d0)).
      { intros v. unfold vars. rewrite list_ids_in, memv_in, ev_ok. reflexivity. }
      assert (LK : forall v d0, occurs t1 v -> assv v pe = Some (S d0) -> exists l, look v = Some (BList l) /\ assv v bs = Some (BList l) /\ forall b, In b l -> has_depth (S d0 - S k) b).
      { intros v d0 O A. assert (L : (S k <= S d0)%nat) by (apply (cvd_deep _ _ _ _ _ _ _ D1 O A); lia). assert (V := I v (oc_rep _ _ _ _ _ E O)).
        unfold inv in V. rewrite A in V. destruct V as (Lk & b & B & H). replace (S d0 - k)%nat with (S (S d0 - S k)) in H by lia. inversion H; subst. exists l. split; [congruence|]. split; assumption. }
      assert (LS : exists ls, mapo (fun x => assv x bs) vars = Some (map BList ls) /\ Forall2 (fun v l => look v = Some (BList l)) vars ls).
      { assert (G : forall vv, (forall v, In v vv -> In v vars) -> exists ls, mapo (fun x => assv x bs) vv = Some (map BList ls) /\ Forall2 (fun v l => look v = Some (BList l)) vv ls).
        { induction vv as [|x vv IHv]; intros S; [exists []; split; [reflexivity | constructor]|]. destruct IHv as (ls & M & F); [intros; apply S; now right|].
          destruct (proj1 (VARS x) (S x (or_introl eq_refl))) as (O & d0 & A). destruct (LK _ _ O A) as (l & L1 & L2 & _). exists (l :: ls). split; [cbn [mapo map]; now rewrite L2, M | now constructor]. }
        apply G. auto. }
      destruct LS as (ls & M & F). rewrite M.
      assert (AL : all_lists (map BList ls) = Some ls) by (unfold all_lists; clear; induction ls as [|l ls IHl]; [reflexivity|]; cbn [map mapo]; now rewrite IHl).
      rewrite AL. destruct (cvd_closed _ _ _ _ D1) as (v0 & d0 & O0 & A0 & L0). destruct d0 as [|d0]; [lia|].
      assert (NE : In v0 vars) by (apply VARS; eauto). destruct ls as [|l0 ls0]; [apply F2_len in F; clearbody vars; destruct vars; [destruct NE | discriminate]|]. set (ls := l0 :: ls0) in *.
      assert (INL : forall l, In l ls -> exists v, occurs t1 v /\ look v = Some (BList l)).
      { intros l Il. assert (VV : forall v, In v vars -> occurs t1 v) by (intros v V; now apply VARS in V). clearbody vars ls. clear -F Il VV. induction F as [|v l' vv ls H F IHF]; [destruct Il|].
        destruct Il as [-> | Il]; [exists v; split; [apply VV; now left | assumption] | apply IHF; [assumption | intros; apply VV; now right]]. }
      assert (LIN : forall v l, occurs t1 v -> look v = Some (BList l) -> In l ls).
      { intros v l O L. assert (V : In v vars).
        { apply VARS. split; [assumption|]. assert (V := I v (oc_rep _ _ _ _ _ E O)). unfold inv in V. destruct (assv v pe) as [[|d1]|]; [|eauto|]; exfalso.
          - destruct V as (X & _ & s & Y). congruence.
          - destruct V as (_ & _ & X). congruence. }
        clearbody vars ls. clear -F V L. induction F as [|v' l' vv ls H F IHF]; [destruct V|]. destruct V as [-> | V]; [left; congruence | right; auto]. }
      (* the instance of each row *)
      assert (ROW : forall i row, Forall2 (fun l b => nth_error l i = Some b) ls row -> forall x, expand t1 (combine vars row) = Some x <-> instance (shift look i) t1 x).
      { intros i row R x. apply (IH t1 ltac:(lia) C1 (S k) true (combine vars row) (shift look i) D1). intros v O. assert (V := I v (oc_rep _ _ _ _ _ E O)).
        destruct (assv_combine look i vars ls row F R) as [NI IN]. unfold inv in V |- *. destruct (assv v pe) as [[|d1]|] eqn:A.
        - destruct V as (X & _ & s & Y). split; [unfold shift; rewrite X, Y; reflexivity|]. split; [|eauto]. left. apply NI. rewrite VARS. intros (_ & d2 & Z). congruence.
        - destruct (LK _ _ O A) as (l & L1 & _ & L3). destruct (IN v l) as (b & B1 & B2); [apply VARS; eauto | assumption|].
          split; [unfold shift; rewrite L1; congruence|]. exists b. split; [assumption|]. apply L3. now apply nth_error_In in B2.
        - destruct V as (X & Y & Z). split; [apply NI; rewrite VARS; intros (_ & d2 & Z'); congruence|]. split; [assumption|]. unfold shift. now rewrite Z. }
      change (rows_of ls) with (apply_map_list (length l0) ls). split.
      * destruct (same_lengths ls) eqn:SL; [|discriminate]. assert (SL' := proj1 (same_lengths_spec ls) SL).
        destruct (apply_map_list_spec (length l0) ls) as [Len Nth]; [intros l Il; apply SL'; [assumption | now left]|].
        destruct (mapo _ (apply_map_list _ _)) as [xs|] eqn:MX; [|discriminate]. destruct (expand d bs) as [y|] eqn:Y; [|discriminate]. intros [= <-].
        apply mapo_F2 in MX. assert (LX : length xs = length l0) by (apply F2_len in MX; congruence). apply in_rep; [assumption| | | |now apply J2].
        -- destruct (LK _ _ O0 A0) as (l & L1 & _). eauto.
        -- intros v l O L. rewrite LX. apply SL'; [eapply LIN; eassumption | now left].
        -- intros i x N. assert (exists row, nth_error (apply_map_list (length l0) ls) i = Some row /\ expand t1 (combine vars row) = Some x) as (row & R1 & R2).
           { clear -MX N. revert i N. induction MX as [|r x' rs xs H MX IHM]; intros [|i] N; cbn in N; try discriminate; [injection N as ->; exists r; now split | now apply IHM]. }
           apply (ROW i row); [now apply Nth | assumption].
      * inversion 1; subst; try discriminate; try contradiction.
        { match goal with P : plain_cdr (SCons _ _) |- _ => specialize (P _ _ eq_refl); congruence end. }
        assert (LEN : forall l, In l ls -> length l = length outs) by (intros l Il; destruct (INL l Il) as (v & O & L); eauto).
        assert (SL : same_lengths ls = true) by (apply same_lengths_spec; intros a b A B; rewrite (LEN a A), (LEN b B); reflexivity). rewrite SL.
        assert (L1 : length l0 = length outs) by (apply LEN; now left).
        destruct (apply_map_list_spec (length l0) ls) as [Len Nth]; [intros l Il; rewrite L1; now apply LEN|].
        assert (mapo (fun row => expand t1 (combine vars row)) (apply_map_list (length l0) ls) = Some outs) as ->.
        { apply mapo_F2. set (rows := apply_map_list (length l0) ls) in *. assert (LR : length rows = length outs) by congruence.
          match goal with X : forall i x, nth_error outs i = Some x -> _ |- _ => rename X into HI end.
          assert (G : forall i row x, nth_error rows i = Some row -> nth_error outs i = Some x -> expand t1 (combine vars row) = Some x).
          { intros i row x R X. apply (ROW i row); [now apply Nth | now apply HI]. }
          clearbody rows. clear -G LR. revert outs LR G. induction rows as [|r rows IHr]; intros [|o outs] LR G; try discriminate; [constructor|]. constructor; [now apply (G 0%nat)|].
          apply IHr; [now injection LR|]. intros i. apply (G (S i)). }
        match goal with X : instance look d _ |- _ => apply J2 in X; now rewrite X end.
  - assert (C' : check true t = true) by (revert C; cbn [Model_Syntax.check]; rewrite andb_true_iff; tauto).
    assert (J := IH t ltac:(lia) C' k c bs look D (fun v O => I v (oc_vec _ _ _ O))). cbn [Model_Syntax.expand]. split.
    + destruct (expand t bs) as [x|]; [|discriminate]. intros [= <-]. apply in_vec. now apply J.
    + inversion 1; subst; try discriminate; try contradiction. match goal with X : instance look t _ |- _ => apply J in X; now rewrite X end.
  - cbn [Model_Syntax.check] in C. rewrite andb_true_iff in C. destruct C as [C0 C1]. apply template_sbox_shape in C0. destruct C0 as (kk & d & ->).
    rewrite andb_true_iff in C1. destruct C1 as [_ C1]. cbn [ssize] in IH.
    assert (J := fun args => IH d ltac:(lia) C1 k c bs look D (fun v O => I v (oc_box _ _ _ _ O)) args). cbn [Model_Syntax.expand]. split.
    + destruct (expand d bs) as [x|]; [|discriminate]. intros H. eapply in_box; [now apply J | exact H].
    + inversion 1; subst; try discriminate; try contradiction. match goal with X : instance look d _ |- _ => apply J in X; now rewrite X end.
Qed.
End Tmpl.
