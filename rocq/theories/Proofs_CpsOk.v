(** The conversion makes related code. *)
From Coq Require Import ZArith List Bool Lia.
From Verif Require Import Model_Lit Model_Core Model_Cps Spec_Sem Spec_Free Spec_Scope Spec_Lift Spec_Cps Proofs_Sim Proofs_Core Proofs_Free Proofs_Agree Proofs_Lift Proofs_LiftOk Proofs_Cps.
Import ListNotations.
Open Scope Z_scope.

(** ** The cases of calls *)
Lemma conv_app f l :
  (exists b, f = ELam [] b /\ l = [] /\ conv (EApp f l) = conv b) \/
  (exists x e1, f = ELam [x] (EVar x) /\ l = [e1] /\ conv (EApp f l) = conv e1) \/
  (exists x b e1, f = ELam [x] b /\ l = [e1] /\ ~ free_in x b /\ conv (EApp f l) = begin_part (conv e1) (conv b)) \/
  (exists ids b, f = ELam ids b /\ length ids = length l /\ conv (EApp f l) = let_part ids (map conv l) (conv b)) \/
  (conv (EApp f l) = app_part (conv f) (map conv l) /\ forall ids b, f = ELam ids b -> length ids <> length l).
Proof.
  destruct f as [x|x e|a b c|ef p l0|f l0|ids b|xs lams b|x b|k e]; try (right; right; right; right; split; [reflexivity | discriminate]).
  destruct ids as [|x [|y ids]], l as [|e1 [|e2 l]]; try (right; right; right; right; split; [reflexivity | intros ids0 b0 [= <- <-]; cbn; discriminate]).
  - left. exists b. auto.
  - cbn [conv]. destruct b as [y|y e|a b c|ef p l0|f l0|ids b|xs lams b|y b|k e];
      try (destruct (var_referenced_in_exp x _) eqn:V; [right; right; right; left; eexists _, _; repeat split; reflexivity
        | right; right; left; eexists _, _, _; repeat split; auto; rewrite <- referenced_free; congruence]).
    destruct (id_eqb x y) eqn:Q.
    + apply id_eqb_eq in Q. subst y. right; left. exists x, e1. auto.
    + destruct (var_referenced_in_exp x _) eqn:V; [right; right; right; left; eexists _, _; repeat split; reflexivity
        | right; right; left; eexists _, _, _; repeat split; auto; rewrite <- referenced_free; congruence].
  - cbn [conv]. destruct (Nat.eqb _ _) eqn:L.
    + right; right; right; left. exists (x :: y :: ids), b. apply Nat.eqb_eq in L. auto.
    + right; right; right; right. split; [reflexivity|]. intros ids0 b0 [= <- <-]. now apply Nat.eqb_neq in L.
Qed.
Lemma cps_one_list p inner n : cps_one p inner n = cps_list [p] (fun l n => match l with [x] => inner x n | _ => None end) n.
Proof. unfold cps_one. cbn. destruct (p_simple p); reflexivity. Qed.

(** ** The conversion always succeeds *)
Definition total (e : exp) : Prop := (p_simple (conv e) = true -> forall n, exists x, p_direct (conv e) n = Some x) /\ forall k n, exists x, p_cps (conv e) k n = Some x.
Lemma mk_total s d c : (s = true -> forall n, exists x, d n = Some x) -> (s = false -> forall k n, exists x, c k n = Some x) ->
  (p_simple (mk_part s d c) = true -> forall n, exists x, p_direct (mk_part s d c) n = Some x) /\ forall k n, exists x, p_cps (mk_part s d c) k n = Some x.
Proof.
  intros A B. split; [exact A|]. intros k n. cbn. destruct s; [|auto]. destruct (A eq_refl n) as ((e' & n1) & ->). eauto.
Qed.
Lemma list_total l : Forall total l -> forall inner n, (forall l' n0, length l' = length l -> exists x, inner l' n0 = Some x) -> exists x, cps_list (map conv l) inner n = Some x.
Proof.
  induction 1 as [|e l (A & B) F IH]; intros inner n H.
  - now apply H.
  - cbn [map cps_list]. destruct (p_simple (conv e)) eqn:S.
    + apply IH. intros l' n0 L. destruct (A eq_refl n0) as ((e' & n1) & ->). apply H. cbn. congruence.
    + cbn [fresh]. destruct (IH (fun new n0 => inner (EVar (mkid (n + 1) XNone) :: new) n0) (n + 1 + 1)) as ((code & n3) & ->).
      { intros l' n0 L. apply H. cbn. congruence. }
      apply B.
Qed.
Lemma direct_list_total l : Forall total l -> forallb p_simple (map conv l) = true -> forall n, exists l' n', direct_list (map conv l) n = Some (l', n') /\ length l' = length l.
Proof.
  induction 1 as [|e l (A & B) F IH]; cbn [map forallb direct_list]; intros S n; [exists [], n; auto|]. apply andb_prop in S. destruct S as (S1 & S2).
  destruct (A S1 n) as ((e' & n1) & ->). destruct (IH S2 n1) as (l' & n2 & -> & L). eexists _, _. split; [reflexivity | cbn; congruence].
Qed.
Lemma prim_loop_total l : Forall total l -> forallb p_simple (map conv l) = true -> forall ids vals exps n, exists x, prim_loop (map conv l) ids vals exps n = Some x.
Proof.
  induction 1 as [|e l (A & B) F IH]; cbn [map forallb prim_loop]; intros S ids vals exps n; [eauto|]. apply andb_prop in S. destruct S as (S1 & S2).
  destruct (A S1 n) as ((e' & n1) & ->). destruct e'; cbn [fresh]; now apply IH.
Qed.
Lemma lams_total lams : Forall (fun l => total (snd l)) lams -> forall n, exists x, cps_lams (map (fun l => (fst l, conv (snd l))) lams) n = Some x.
Proof.
  induction 1 as [|(ids & b) l (A & B) F IH]; cbn [map cps_lams fst snd]; intros n; [eauto|]. unfold cps_lam. cbn [fresh]. cbn [snd] in B.
  destruct (B (EVar (mkid (n + 1) XNone)) (n + 1)) as ((b' & n2) & ->). destruct (IH n2) as ((l' & n3) & ->). eauto.
Qed.
Lemma fold_Forall {A} (Q : A -> Prop) l : fold_right (fun e p => Q e /\ p) True l <-> Forall Q l.
Proof. induction l as [|x l IH]; cbn; [split; constructor|]. rewrite Forall_cons_iff. tauto. Qed.
Lemma Forall_mp {A} (Q R : A -> Prop) l : Forall (fun x => Q x -> R x) l -> Forall Q l -> Forall R l.
Proof. induction 1; intros F; inversion F; subst; constructor; auto. Qed.
Lemma conv_total e : no_local_set e -> total e.
Proof.
  enough (H : (no_local_set e -> total e) /\ forall ids b, e = ELam ids b -> no_local_set b -> total b) by apply H.
  induction e as [x|x e IH|a b c IHa IHb IHc|ef p l IH|f l IHf IH|xs b IH|xs lams b IHl IHb|x b IH|k e IHk IHe] using exp_ind2;
    (split; [intros N | try (intros; discriminate)]); cbn [no_local_set] in *.
  - apply mk_total; [eauto | discriminate].
  - destruct N as (G & N). destruct (proj1 IH N) as (A & B). unfold total. cbn [conv]. unfold set_part. rewrite G. apply mk_total.
    + intros S n. destruct (A S n) as ((e' & n1) & ->). eauto.
    + intros _ k n. rewrite cps_one_list. apply (list_total [e]); [now constructor|]. intros [|x1 [|]] n0 L; try discriminate. eauto.
  - destruct N as (N1 & N2 & N3). destruct (proj1 IHa N1) as (A1 & B1). destruct (proj1 IHb N2) as (A2 & B2). destruct (proj1 IHc N3) as (A3 & B3).
    unfold total. cbn [conv]. unfold if_part. apply mk_total.
    + intros S n. destruct (direct_list_total [a; b; c]) with (n := n) as (l' & n' & E & L).
      * repeat constructor; auto.
      * cbn. apply andb_prop in S. destruct S as (S1 & S3). apply andb_prop in S1. destruct S1 as (S1 & S2). now rewrite S1, S2, S3.
      * cbn [map] in E. rewrite E. destruct l' as [|a' [|b' [|c' [|]]]]; try discriminate. eauto.
    + intros _ k n.
      assert (X : forall k n, exists x, cps_one (conv a) (fun t n0 => match p_cps (conv b) k n0 with Some (b', n1) => match p_cps (conv c) k n1 with Some (c', n2) => Some (EIf t b' c', n2) | None => None end | None => None end) n = Some x).
      { intros k0 n0. rewrite cps_one_list. apply (list_total [a]); [repeat constructor; auto|]. intros [|x1 [|]] n1 L; try discriminate.
        destruct (B2 k0 n1) as ((b' & n2) & ->). destruct (B3 k0 n2) as ((c' & n3) & ->). eauto. }
      destruct k; try apply X; cbn [fresh]; (match goal with |- context[cps_one _ _ ?m] => destruct (X (EVar (mkid (n + 1) XNone)) m) as ((code & n2) & ->) end); eauto.
  - apply fold_Forall in N. assert (F : Forall total l). { apply Forall_mp with no_local_set; [|assumption]. eapply Forall_impl; [|exact IH]. now intros e0 (H & _). }
    unfold total. cbn [conv]. unfold prim_part. apply mk_total.
    + intros S n. destruct (prim_loop_total l F S [] [] [] n) as ((((ids & vals) & exps) & n1) & ->). eauto.
    + intros _ k n. apply list_total; [assumption|]. eauto.
  - destruct N as (Nf & N). apply fold_Forall in N. assert (F : Forall total l). { apply Forall_mp with no_local_set; [|assumption]. eapply Forall_impl; [|exact IH]. now intros e0 (H & _). }
    destruct (conv_app f l) as [(b & -> & -> & E)|[(x & e1 & -> & -> & E)|[(x & b & e1 & -> & -> & NF & E)|[(ids & b & -> & L & E)|(E & NL)]]]]; unfold total; rewrite E.
    + now apply (proj2 IHf [] b).
    + now inversion F.
    + inversion F as [|? ? (A1 & B1) _]; subst. destruct (proj2 IHf [x] b eq_refl Nf) as (A2 & B2). unfold begin_part. apply mk_total.
      * intros S n. apply andb_prop in S. destruct S as (S1 & S2). cbn [direct_list]. destruct (A1 S1 n) as ((a' & n1) & ->). destruct (A2 S2 n1) as ((b' & n2) & ->).
        cbn [begin_exp fresh]. eauto.
      * intros _ k n. cbn [fresh]. match goal with |- context[p_cps (conv b) k ?m] => destruct (B2 k m) as ((code & n3) & ->) end. apply B1.
    + destruct (proj2 IHf ids b eq_refl Nf) as (A2 & B2). unfold let_part. apply mk_total.
      * intros S n. apply andb_prop in S. destruct S as (S1 & S2). destruct (direct_list_total l F S1 n) as (l' & n1 & -> & _). destruct (A2 S2 n1) as ((b' & n2) & ->). eauto.
      * intros _ k n. apply list_total; [assumption|]. intros l' n0 _. destruct (B2 k n0) as ((b' & n2) & ->). eauto.
    + unfold app_part. apply mk_total; [discriminate|]. intros _ k n. apply (list_total (f :: l)); [constructor; [now apply (proj1 IHf) | assumption]|].
      intros [|f' l'] n0 L0; [discriminate | eauto].
  - destruct (proj1 IH N) as (A & B). unfold total. cbn [conv]. unfold lam_part. apply mk_total; [|discriminate]. intros _ n. unfold cps_lam. cbn [fresh].
    destruct (B (EVar (mkid (n + 1) XNone)) (n + 1)) as ((b' & n2) & ->). eauto.
  - intros ids b0 [= <- <-]. apply (proj1 IH).
  - destruct N as (Nl & N). apply fold_Forall in Nl. destruct (proj1 IHb N) as (A & B).
    assert (F : Forall (fun l => total (snd l)) lams).
    { apply Forall_mp with (fun l => no_local_set (snd l)); [|assumption]. eapply Forall_impl; [|exact IHl]. now intros l0 (H & _). }
    unfold total. cbn [conv]. unfold fix_part. apply mk_total.
    + intros S n. destruct (lams_total lams F n) as ((ls & n1) & ->). destruct (A S n1) as ((b' & n2) & ->). eauto.
    + intros _ k n. destruct (lams_total lams F n) as ((ls & n1) & ->). destruct (B k n1) as ((b' & n2) & ->). eauto.
  - destruct (proj1 IH N) as (A & B). unfold total. cbn [conv]. unfold letcc_part. apply mk_total; [discriminate|]. intros _ k n. destruct (B (EVar x) n) as ((b' & n1) & ->). eauto.
  - destruct N as (Nk & N). destruct (proj1 IHe N) as (A & B). unfold total. cbn [conv]. unfold withcc_part. apply mk_total; [discriminate|]. intros _ k0 n. rewrite cps_one_list.
    apply (list_total [k]); [constructor; [now apply (proj1 IHk) | constructor]|]. intros [|x1 [|]] n0 L; try discriminate. apply B.
Qed.

(** ** Only tail calls are left *)
Definition tl_ok (e : exp) : Prop := (forall n e' n', p_direct (conv e) n = Some (e', n') -> tails false e') /\
  forall k n c n', tails false k -> p_cps (conv e) k n = Some (c, n') -> tails true c.
Lemma tails_call f l : tails false f -> Forall (tails false) l -> tails true (EApp f l).
Proof.
  intros F L. apply fold_Forall in L. destruct f; cbn [tails] in *; auto; try (destruct F as (_ & F); split; [destruct (Nat.eqb _ _); auto | assumption]).
Qed.
Lemma tails_let t ids l b : length ids = length l -> Forall (tails false) l -> tails t b -> tails t (let_exp ids l b).
Proof. intros E L B. apply fold_Forall in L. cbn. rewrite E, Nat.eqb_refl. auto. Qed.
Lemma tails_noreturn : tails false noreturn_exp.
Proof. cbn. split; [discriminate | exact Logic.I]. Qed.
Lemma mk_tails s d c : (forall n e' n', d n = Some (e', n') -> tails false e') -> (forall k n c' n', tails false k -> c k n = Some (c', n') -> tails true c') ->
  (forall n e' n', p_direct (mk_part s d c) n = Some (e', n') -> tails false e') /\ forall k n c' n', tails false k -> p_cps (mk_part s d c) k n = Some (c', n') -> tails true c'.
Proof.
  intros A B. split; [exact A|]. intros k n c' n' K E. cbn in E. destruct s; [|eauto]. destruct (d n) as [(e' & n1)|] eqn:D; [|discriminate].
  injection E as <- <-. apply tails_call; [assumption|]. constructor; [apply tails_noreturn|]. constructor; [eauto | constructor].
Qed.
Lemma list_tails l : Forall tl_ok l -> forall inner n c n', (forall l' n0 c' n1, length l' = length l -> Forall (tails false) l' -> inner l' n0 = Some (c', n1) -> tails true c') ->
  cps_list (map conv l) inner n = Some (c, n') -> tails true c.
Proof.
  induction 1 as [|e l (A & B) F IH]; intros inner n c n' H E.
  - eapply (H [] n); eauto.
  - cbn [map cps_list] in E. destruct (p_simple (conv e)) eqn:S.
    + eapply IH; [|exact E]. cbn. intros l' n0 c' n1 L Fl E1. destruct (p_direct (conv e) n0) as [(e' & n2)|] eqn:D; [|discriminate]. eapply H; [| |exact E1]; [cbn; congruence|]. constructor; eauto.
    + cbn [fresh] in E. match type of E with match ?m with _ => _ end = _ => destruct m as [(code & n3)|] eqn:D; [|discriminate] end.
      eapply B; [|exact E]. cbn. split; [reflexivity|]. eapply IH; [|exact D]. cbn. intros l' n0 c' n1 L Fl E1. eapply H; [| |exact E1]; [cbn; congruence|]. constructor; [reflexivity | assumption].
Qed.
Lemma direct_tails l : Forall tl_ok l -> forall n l' n', direct_list (map conv l) n = Some (l', n') -> Forall (tails false) l' /\ length l' = length l.
Proof.
  induction 1 as [|e l (A & B) F IH]; cbn [map direct_list]; intros n l' n' E; [injection E as <- <-; auto|].
  destruct (p_direct (conv e) n) as [(e' & n1)|] eqn:D; [|discriminate]. destruct (direct_list (map conv l) n1) as [(l1 & n2)|] eqn:D2; [|discriminate]. injection E as <- <-.
  destruct (IH _ _ _ D2) as (I1 & I2). split; [constructor; eauto | cbn; congruence].
Qed.
Lemma prim_tails l : Forall tl_ok l -> forall ids vals exps n ids' vals' exps' n', length ids = length vals -> Forall (tails false) vals -> Forall (tails false) exps ->
  prim_loop (map conv l) ids vals exps n = Some (ids', vals', exps', n') -> length ids' = length vals' /\ Forall (tails false) vals' /\ Forall (tails false) exps'.
Proof.
  induction 1 as [|e l (A & B) F IH]; cbn [map prim_loop]; intros ids vals exps n ids' vals' exps' n' L V X E.
  - injection E as <- <- <- <-. split; [assumption|split; [assumption | now apply Forall_rev]].
  - destruct (p_direct (conv e) n) as [(e' & n1)|] eqn:D; [|discriminate]. specialize (A _ _ _ D).
    destruct e'; cbn [fresh] in E; (eapply IH; [..|exact E]; auto; try (cbn; congruence); try (constructor; auto; reflexivity)).
Qed.
Lemma lams_tails lams : Forall (fun l => tl_ok (snd l)) lams -> forall n ls n', cps_lams (map (fun l => (fst l, conv (snd l))) lams) n = Some (ls, n') -> Forall (fun l => tails true (snd l)) ls.
Proof.
  induction 1 as [|(ids & b) l (A & B) F IH]; cbn [map cps_lams fst snd]; intros n ls n' E; [injection E as <- <-; constructor|]. unfold cps_lam in E. cbn [fresh] in E. cbn [snd] in B.
  match type of E with match match ?m with _ => _ end with _ => _ end = _ => destruct m as [(b' & n2)|] eqn:D; [|discriminate] end.
  match type of E with match ?m with _ => _ end = _ => destruct m as [(l' & n3)|] eqn:D2; [|discriminate] end. injection E as <- <-. constructor; [|eauto]. cbn. eapply B; [|exact D]. reflexivity.
Qed.
Lemma conv_tails e : tl_ok e.
Proof.
  enough (H : tl_ok e /\ forall ids b, e = ELam ids b -> tl_ok b) by apply H.
  induction e as [x|x e IH|a b c IHa IHb IHc|ef p l IH|f l IHf IH|xs b IH|xs lams b IHl IHb|x b IH|k e IHk IHe] using exp_ind2; (split; [|try (intros; discriminate)]).
  - apply mk_tails; [|discriminate]. intros n e' n' [= <- <-]. reflexivity.
  - destruct IH as ((A & B) & _). unfold tl_ok. cbn [conv]. unfold set_part. destruct (global_id x); apply mk_tails; try discriminate.
    + intros n e' n' E. destruct (p_direct (conv e) n) as [(e1 & n1)|] eqn:D; [|discriminate]. injection E as <- <-. cbn. eauto.
    + intros k n c n' K E. rewrite cps_one_list in E. eapply (list_tails [e]); [now repeat constructor| |exact E].
      intros [|y [|]] n0 c' n1 L F Ei; try discriminate. injection Ei as <- <-. inversion F; subst. apply tails_call; [assumption|]. constructor; [apply tails_noreturn|]. constructor; [now cbn | constructor].
  - destruct IHa as ((A1 & B1) & _), IHb as ((A2 & B2) & _), IHc as ((A3 & B3) & _). unfold tl_ok. cbn [conv]. unfold if_part. apply mk_tails.
    + intros n e' n' E. destruct (direct_list _ n) as [(l' & n1)|] eqn:D; [|discriminate]. destruct (direct_tails [a; b; c]) with (2 := D) as (F & L); [repeat constructor; auto|].
      destruct l' as [|a' [|b' [|c' [|]]]]; try discriminate. injection E as <- <-. inversion F as [|? ? F1 F']; subst. inversion F' as [|? ? F2 F'']; subst. inversion F'' as [|? ? F3 _]; subst. cbn. auto.
    + assert (X : forall k n c' n', tails false k -> cps_one (conv a) (fun t n0 => match p_cps (conv b) k n0 with Some (b', n1) => match p_cps (conv c) k n1 with Some (c', n2) => Some (EIf t b' c', n2) | None => None end | None => None end) n = Some (c', n') -> tails true c').
      { intros k n c' n' K E. rewrite cps_one_list in E. eapply (list_tails [a]); [now repeat constructor| |exact E].
        intros [|y [|]] n0 c0 n1 L F Ei; try discriminate. destruct (p_cps (conv b) k n0) as [(b1 & n2)|] eqn:D1; [|discriminate]. destruct (p_cps (conv c) k n2) as [(c1 & n3)|] eqn:D2; [|discriminate].
        injection Ei as <- <-. inversion F; subst. cbn. split; [assumption|split; [exact (B2 _ _ _ _ K D1) | exact (B3 _ _ _ _ K D2)]]. }
      intros k n c' n' K E. destruct k; try (eapply X; eauto; fail); cbn [fresh] in E;
      (match type of E with match ?m with _ => _ end = _ => destruct m as [(code & n2)|] eqn:D; [|discriminate] end; injection E as <- <-;
       apply tails_let; [reflexivity | constructor; [exact K | constructor] | eapply X; [|exact D]; reflexivity]).
  - assert (F : Forall tl_ok l) by (eapply Forall_impl; [|exact IH]; now intros e0 (H & _)). unfold tl_ok. cbn [conv]. unfold prim_part. apply mk_tails.
    + intros n e' n' E. destruct (prim_loop _ _ _ _ n) as [(((ids & vals) & exps) & n1)|] eqn:D; [|discriminate]. injection E as <- <-.
      destruct (prim_tails l F) with (4 := D) as (L & V & X); auto. apply tails_let; auto. cbn. split; [discriminate | now apply fold_Forall].
    + intros k n c n' K E. eapply list_tails; [exact F| |exact E]. intros l' n0 c' n1 L Fl [= <- <-]. apply tails_call; [assumption|]. constructor; [apply tails_noreturn|]. constructor; [|constructor].
      cbn. split; [discriminate | now apply fold_Forall].
  - assert (F : Forall tl_ok l) by (eapply Forall_impl; [|exact IH]; now intros e0 (H & _)).
    destruct (conv_app f l) as [(b & -> & -> & E)|[(x & e1 & -> & -> & E)|[(x & b & e1 & -> & -> & NF & E)|[(ids & b & -> & L & E)|(E & NL)]]]]; unfold tl_ok; rewrite E.
    + now apply (proj2 IHf [] b).
    + now inversion F.
    + inversion F as [|? ? (A1 & B1) _]; subst. destruct (proj2 IHf [x] b eq_refl) as (A2 & B2). unfold begin_part. apply mk_tails.
      * intros n e' n' En. cbn [direct_list] in En. destruct (p_direct (conv e1) n) as [(a' & n1)|] eqn:D1; [|discriminate]. destruct (p_direct (conv b) n1) as [(b' & n2)|] eqn:D2; [|discriminate].
        cbn [begin_exp fresh] in En. injection En as <- <-. apply (tails_let false [mkid (n2 + 1) XNone] [a'] b'); [reflexivity | |eauto]. constructor; [eauto | constructor].
      * intros k n c n' K En. cbn [fresh] in En. match type of En with match ?m with _ => _ end = _ => destruct m as [(code & n2)|] eqn:D; [|discriminate] end.
        eapply B1; [|exact En]. cbn. split; [reflexivity | exact (B2 _ _ _ _ K D)].
    + destruct (proj2 IHf ids b eq_refl) as (A2 & B2). unfold let_part. apply mk_tails.
      * intros n e' n' En. destruct (direct_list _ n) as [(l' & n1)|] eqn:D1; [|discriminate]. destruct (p_direct (conv b) n1) as [(b' & n2)|] eqn:D2; [|discriminate]. injection En as <- <-.
        destruct (direct_tails l F _ _ _ D1) as (Fl & Ll). apply tails_let; [congruence | assumption | eauto].
      * intros k n c n' K En. eapply list_tails; [exact F| |exact En]. intros l' n0 c' n1 Ll Fl Ei. cbn beta in Ei. destruct (p_cps (conv b) k n0) as [(b' & n2)|] eqn:D; [|discriminate]. injection Ei as <- <-.
        apply tails_let; [congruence | assumption | eauto].
    + unfold app_part. apply mk_tails; [discriminate|]. intros k n c n' K En. eapply (list_tails (f :: l)); [constructor; [apply IHf | exact F]| |exact En].
      intros [|f' l'] n0 c' n1 Ll Fl Ei; [discriminate|]. injection Ei as <- <-. inversion Fl; subst. apply tails_call; [assumption|]. now constructor.
  - destruct IH as ((A & B) & _). unfold tl_ok. cbn [conv]. unfold lam_part. apply mk_tails; [|discriminate]. intros n e' n' E. unfold cps_lam in E. cbn [fresh] in E.
    match type of E with match match ?m with _ => _ end with _ => _ end = _ => destruct m as [(b' & n2)|] eqn:D; [|discriminate] end. injection E as <- <-. cbn. split; [reflexivity|]. eapply B; [|exact D]. reflexivity.
  - intros ids b0 [= <- <-]. apply IH.
  - destruct IHb as ((A & B) & _). assert (F : Forall (fun l => tl_ok (snd l)) lams) by (eapply Forall_impl; [|exact IHl]; now intros l0 (H & _)).
    unfold tl_ok. cbn [conv]. unfold fix_part. apply mk_tails.
    + intros n e' n' E. destruct (cps_lams _ n) as [(ls & n1)|] eqn:D1; [|discriminate]. destruct (p_direct (conv b) n1) as [(b' & n2)|] eqn:D2; [|discriminate]. injection E as <- <-.
      cbn. split; [|eauto]. apply (fold_Forall (fun l => tails true (snd l))). eapply lams_tails; eauto.
    + intros k n c n' K E. destruct (cps_lams _ n) as [(ls & n1)|] eqn:D1; [|discriminate]. destruct (p_cps (conv b) k n1) as [(b' & n2)|] eqn:D2; [|discriminate]. injection E as <- <-.
      cbn. split; [|eauto]. apply (fold_Forall (fun l => tails true (snd l))). eapply lams_tails; eauto.
  - destruct IH as ((A & B) & _). unfold tl_ok. cbn [conv]. unfold letcc_part. apply mk_tails; [discriminate|]. intros k n c n' K E.
    destruct (p_cps (conv b) (EVar x) n) as [(b' & n1)|] eqn:D; [|discriminate]. injection E as <- <-. apply tails_let; [reflexivity | constructor; [exact K | constructor] | eapply B; [|exact D]; reflexivity].
  - destruct IHe as ((A & B) & _). unfold tl_ok. cbn [conv]. unfold withcc_part. apply mk_tails; [discriminate|]. intros k0 n c n' K E. rewrite cps_one_list in E.
    eapply (list_tails [k]); [constructor; [apply IHk | constructor]| |exact E]. intros [|y [|]] n0 c' n1 L F Ei; try discriminate. inversion F; subst. eapply B; [|exact Ei]. assumption.
Qed.
Theorem convert_tails e n e' n' : cps_convert e n = Some (e', n') -> tails true e'.
Proof.
  unfold cps_convert. cbn [fresh]. intros E. eapply (proj2 (conv_tails e)); [|exact E]. cbn. split; [reflexivity|]. split; [reflexivity|]. split; [reflexivity | exact Logic.I].
Qed.

(** ** Quiet expressions are the simple ones *)
Lemma simple_quiet e : no_local_set e -> p_simple (conv e) = quiet e.
Proof.
  enough (H : (no_local_set e -> p_simple (conv e) = quiet e) /\ forall ids b, e = ELam ids b -> no_local_set b -> p_simple (conv b) = quiet b) by apply H.
  assert (FB : forall l, Forall (fun e => (no_local_set e -> p_simple (conv e) = quiet e) /\ forall ids b, e = ELam ids b -> no_local_set b -> p_simple (conv b) = quiet b) l ->
    Forall no_local_set l -> forallb p_simple (map conv l) = forallb quiet l).
  { induction 1 as [|e1 l (H & _) F IH]; intros N; inversion N; subst; [reflexivity|]. cbn. now rewrite H, IH. }
  induction e as [x|x e IH|a b c IHa IHb IHc|ef p l IH|f l IHf IH|xs b IH|xs lams b IHl IHb|x b IH|k e IHk IHe] using exp_ind2;
    (split; [intros N | try (intros; discriminate)]); cbn [no_local_set] in *.
  - reflexivity.
  - destruct N as (G & N). cbn [conv quiet]. unfold set_part. rewrite G. now apply IH.
  - destruct N as (N1 & N2 & N3). cbn. rewrite (proj1 IHa N1), (proj1 IHb N2), (proj1 IHc N3). reflexivity.
  - apply fold_Forall in N. cbn. now apply FB.
  - destruct N as (Nf & N). apply fold_Forall in N.
    destruct (conv_app f l) as [(b & -> & -> & E)|[(x & e1 & -> & -> & E)|[(x & b & e1 & -> & -> & NF & E)|[(ids & b & -> & L & E)|(E & NL)]]]]; rewrite E.
    + cbn. now apply (proj2 IHf [] b).
    + cbn. inversion IH as [|? ? (H & _) _]; subst. inversion N; subst. rewrite H by assumption. now destruct (quiet e1).
    + cbn. inversion IH as [|? ? (H & _) _]; subst. inversion N; subst. rewrite H, (proj2 IHf [x] b) by auto. now destruct (quiet e1).
    + cbn. rewrite (FB l IH N), (proj2 IHf ids b), L, Nat.eqb_refl by auto. reflexivity.
    + cbn [app_part mk_part p_simple]. destruct f as [| | | | |ids b| | |]; try reflexivity. cbn. rewrite (proj2 (Nat.eqb_neq _ _)); [reflexivity | now apply NL with b].
  - reflexivity.
  - intros ids b0 [= <- <-]. apply IH.
  - cbn. now apply IHb.
  - reflexivity.
  - reflexivity.
Qed.

Section Rel.
Variable P : prim -> script.
Variable N0 : Z.
Hypothesis N0_pos : 0 <= N0.
Notation SC := (SC P).
Notation LAM := (LAM P).
Notation CE := (CE P).
Notation LC := (LC P).
Notation FIN := (FIN P).
Notation wf := (wf N0).
Implicit Types S : id -> Prop.

Lemma wf_free e x : wf e -> free_in x e -> ts x <= N0 /\ ~ In x (binders e).
Proof.
  intros (A & B & C) F. destruct (global_id x) eqn:G.
  - apply Z.ltb_lt in G. split; [lia|]. intros I. apply B in I. lia.
  - destruct (C x F G). split; [lia | assumption].
Qed.
Lemma wf_bound e x : wf e -> In x (binders e) -> global_id x = false /\ ts x <= N0.
Proof. intros (A & B & C) I. apply B in I. split; [apply Z.ltb_ge|]; lia. Qed.
Definition fresh_for S n e : Prop := forall x, S x -> ts x <= n /\ ~ In x (binders e).
Definition main (e : exp) : Prop :=
  (forall n e' n', N0 <= n -> p_direct (conv e) n = Some (e', n') -> n <= n' /\ SC e e') /\
  (forall S kexp n c n', N0 <= n -> fresh_for S n e -> p_cps (conv e) kexp n = Some (c, n') -> n <= n' /\ CE S e kexp c).
Lemma mk_main e s d c :
  (forall n e' n', N0 <= n -> d n = Some (e', n') -> n <= n' /\ SC e e') ->
  (forall S kexp n c' n', N0 <= n -> fresh_for S n e -> c kexp n = Some (c', n') -> n <= n' /\ CE S e kexp c') ->
  conv e = mk_part s d c -> main e.
Proof.
  intros A B E. unfold main. rewrite E. split; [exact A|]. intros S kexp n c' n' L F X. cbn in X. destruct s; [|eauto].
  destruct (d n) as [(e1 & n1)|] eqn:D; [|discriminate]. injection X as <- <-. destruct (A _ _ _ L D). split; [assumption|]. now apply ce_simple.
Qed.
Definition fits (n : Z) (e : exp) (it : item) : Prop :=
  match it with IS e0 e' => e0 = e /\ SC e e' /\ p_simple (conv e) = true | IV x => N0 < ts x <= n /\ p_simple (conv e) = false end.
Lemma list_ok S kd kexp L : (forall x, kd_free x kd \/ (exists e0, In e0 L /\ free_in x e0) -> ts x <= N0 /\ forall e1, In e1 L -> ~ In x (binders e1)) ->
  Forall main L -> Forall wf L ->
  forall l, incl l L -> forall (Pre : list item -> Prop) inner n code n', N0 <= n -> (forall x, S x -> ts x <= n /\ forall e1, In e1 L -> ~ In x (binders e1)) ->
  (forall pre, Pre pre -> (forall e0 e', In (IS e0 e') pre -> In e0 L) /\ forall x, In (IV x) pre -> N0 < ts x <= n) ->
  (forall its n0 c0 n1, n <= n0 -> Forall2 (fits n0) l its -> inner (map ex its) n0 = Some (c0, n1) -> n0 <= n1 /\ exists pre, Pre pre /\ FIN S kd (pre ++ its) kexp c0) ->
  cps_list (map conv l) inner n = Some (code, n') -> n <= n' /\ exists pre, Pre pre /\ LC S kd pre l kexp code.
Proof.
  intros Bd Mn Wf. induction l as [|e l IH]; intros IL Pre inner n code n' Ln HS PO HI E.
  - cbn in E. destruct (HI [] n code n') as (A & pre & B & C); auto; [lia|]. split; [assumption|]. exists pre. split; [assumption|]. rewrite app_nil_r in C. now constructor.
  - assert (Ie : In e L) by (apply IL; now left). assert (ILl : incl l L) by (intros y J; apply IL; now right).
    destruct (proj1 (Forall_forall _ _) Mn e Ie) as (A & B). cbn [map cps_list] in E. destruct (p_simple (conv e)) eqn:Sm.
    + match type of E with cps_list _ ?f _ = _ => set (inner' := f) in E end.
      destruct (IH ILl (fun pre' => exists pre e', pre' = pre ++ [IS e e'] /\ Pre pre /\ SC e e') inner' n code n' Ln HS) as (Le & pre' & (pre & e' & -> & Pp & He) & C).
      * intros pre' (pre & e' & -> & Pp & He). destruct (PO _ Pp) as (P1 & P2). split.
        -- intros e0 e1 I. apply in_app_iff in I. destruct I as [I|[[= <- <-]|[]]]; eauto.
        -- intros x I. apply in_app_iff in I. destruct I as [I|[I|[]]]; [eauto | discriminate].
      * unfold inner'. intros its n0 c0 n1 L0 F Ei. destruct (p_direct (conv e) n0) as [(e' & n2)|] eqn:D; [|discriminate].
        destruct (A _ _ _ (Z.le_trans _ _ _ Ln L0) D) as (L2 & He). destruct (HI (IS e e' :: its) n2 c0 n1) as (L3 & pre & Pp & C); [lia| |exact Ei|].
        { constructor; [now cbn|]. clear - F L2. induction F as [|e1 it l its H F IHf]; constructor; [|assumption]. destruct it; cbn in *; [assumption | intuition lia]. }
        split; [lia|]. exists (pre ++ [IS e e']). split; [eauto|]. now rewrite <- app_assoc.
      * exact E.
      * split; [assumption|]. exists pre. split; [assumption|]. eapply lc_simple; eauto.
    + cbn [fresh] in E. set (rr := mkid (n + 1) XNone) in *. set (ek := mkid (n + 1 + 1) XNone) in *.
      match type of E with match ?m with _ => _ end = _ => destruct m as [(code2 & n3)|] eqn:D; [|discriminate] end.
      assert (Ln2 : N0 <= n + 1 + 1) by lia.
      match type of D with cps_list _ ?f _ = _ => set (inner' := f) in D end.
      destruct (IH ILl (fun pre' => exists pre, pre' = pre ++ [IV rr] /\ Pre pre) inner' (n + 1 + 1) code2 n3 Ln2) as (Le & pre' & (pre & -> & Pp) & C).
      * intros x Sx. destruct (HS x Sx). split; [lia | assumption].
      * intros pre' (pre & -> & Pp). destruct (PO _ Pp) as (P1 & P2). split.
        -- intros e0 e1 I. apply in_app_iff in I. destruct I as [I|[I|[]]]; [eauto | discriminate].
        -- intros x I. apply in_app_iff in I. destruct I as [I|[[= <-]|[]]]; [specialize (P2 _ I); lia | cbn; lia].
      * unfold inner'. intros its n0 c0 n1 L0 F Ei. destruct (HI (IV rr :: its) n0 c0 n1) as (L3 & pre & Pp & C); [lia| |exact Ei|].
        { constructor; [cbn; split; [lia | assumption] | assumption]. }
        split; [lia|]. exists (pre ++ [IV rr]). split; [eauto|]. now rewrite <- app_assoc.
      * exact D.
      * destruct (PO _ Pp) as (P1 & P2).
        assert (HB : forall x, S x \/ NF kd pre l x \/ In (IV x) pre -> ts x <= n /\ ~ In x (binders e)).
        { intros x [Sx|[[K|[(e0 & e1 & I & F)|(e0 & I & F)]]|I]].
          - destruct (HS x Sx) as (X1 & X2). split; [assumption | now apply X2].
          - destruct (Bd x (or_introl K)) as (X1 & X2). split; [lia | now apply X2].
          - destruct (Bd x) as (X1 & X2); [right; exists e0; split; [eapply P1; eauto | assumption]|]. split; [lia | now apply X2].
          - destruct (Bd x) as (X1 & X2); [right; exists e0; split; [now apply ILl | assumption]|]. split; [lia | now apply X2].
          - specialize (P2 _ I). split; [lia|]. intros J. destruct (wf_bound e x (proj1 (Forall_forall _ _) Wf e Ie) J). lia. }
        destruct (B (fun x => S x \/ NF kd pre l x \/ In (IV x) pre) (ELam [ek; rr] code2) n3 code n') as (L4 & C4); [lia | | exact E|].
        { intros x X. destruct (HB x X). split; [lia | assumption]. }
        split; [lia|]. exists pre. split; [assumption|]. eapply lc_complex with (ek := ek); [|intros x X; split; [exact X|]|exact C|exact C4].
        -- unfold rr, global_id. cbn. apply Z.ltb_ge. lia.
        -- destruct (HB x X) as (X1 & _). split; intros ->; cbn in X1; lia.
Qed.
Lemma list_ok0 S kd kexp L inner n code n' : (forall x, kd_free x kd \/ (exists e0, In e0 L /\ free_in x e0) -> ts x <= N0 /\ forall e1, In e1 L -> ~ In x (binders e1)) ->
  Forall main L -> Forall wf L -> N0 <= n -> (forall x, S x -> ts x <= n /\ forall e1, In e1 L -> ~ In x (binders e1)) ->
  (forall its n0 c0 n1, n <= n0 -> Forall2 (fits n0) L its -> inner (map ex its) n0 = Some (c0, n1) -> n0 <= n1 /\ FIN S kd its kexp c0) ->
  cps_list (map conv L) inner n = Some (code, n') -> n <= n' /\ LC S kd [] L kexp code.
Proof.
  intros Bd Mn Wf Ln HS HI E. destruct (list_ok S kd kexp L Bd Mn Wf L (incl_refl L) (fun pre => pre = []) inner n code n' Ln HS) as (A & pre & -> & C); auto.
  - intros pre ->. split; intros; easy.
  - intros its n0 c0 n1 L0 F Ei. destruct (HI its n0 c0 n1 L0 F Ei). split; [assumption|]. exists []. auto.
Qed.

Lemma decomp_parts e o l e1 : decomp e = Some (o, l) -> In e1 l -> In ([], e1) (parts e).
Proof.
  intros D I. destruct e; try discriminate; cbn in D; injection D as <- <-; cbn [parts]; try (destruct I as [->|[]]; cbn; auto; fail).
  - now apply in_map.
  - destruct I as [->|I]; [now left | right; now apply in_map].
Qed.
Lemma decomp_bound e o l : wf e -> decomp e = Some (o, l) ->
  (forall x, kd_free x (KOp o) \/ (exists e0, In e0 l /\ free_in x e0) -> ts x <= N0 /\ forall e1, In e1 l -> ~ In x (binders e1)) /\ Forall wf l /\
  forall S n, fresh_for S n e -> forall x, S x -> ts x <= n /\ forall e1, In e1 l -> ~ In x (binders e1).
Proof.
  intros W D.
  assert (IB : forall e1, In e1 l -> incl (binders e1) (binders e)) by (intros e1 I; now apply (parts_binders e [] e1), decomp_parts with o l).
  split; [|split].
  - intros x H. assert (F : free_in x e).
    { eapply need_decomp; [exact D|]. destruct H as [H|(e1 & I & F)]; [now left|]. right. exists e1. split; [now apply in_map | assumption]. }
    destruct (wf_free _ _ W F) as (A & B). split; [assumption|]. intros e1 I J. apply B. now apply (IB e1).
  - apply Forall_forall. intros e1 I. eapply wf_part; [exact W|]. eapply decomp_parts; eauto.
  - intros S n F x Sx. destruct (F x Sx) as (A & B). split; [assumption|]. intros e1 I J. apply B. now apply (IB e1).
Qed.
Lemma direct_ok l : Forall main l -> forall n l' n', N0 <= n -> direct_list (map conv l) n = Some (l', n') -> n <= n' /\ Forall2 SC l l'.
Proof.
  induction 1 as [|e l (A & B) F IH]; cbn [map direct_list]; intros n l' n' Ln E; [injection E as <- <-; split; [lia | constructor]|].
  destruct (p_direct (conv e) n) as [(e' & n1)|] eqn:D; [|discriminate]. destruct (direct_list (map conv l) n1) as [(l1 & n2)|] eqn:D2; [|discriminate]. injection E as <- <-.
  destruct (A _ _ _ Ln D) as (L1 & H). destruct (IH n1 l1 n2) as (L2 & H2); [lia | assumption|]. split; [lia | now constructor].
Qed.
Lemma sc_var_free e y : SC e (EVar y) -> free_in y e.
Proof.
  intros H. remember (EVar y) as e' eqn:Q. revert Q. pattern e, e'. revert e e' H. apply SC_m; try (intros; discriminate).
  - intros x [= ->]. repeat constructor.
  - intros b b' _ IH Q. eapply free_part; [now left|easy|]. eapply free_part; [now left|easy|auto].
  - intros x e e' _ _ IH Q. eapply free_part; [right; now left|easy|auto].
Qed.
Lemma prim_ok l : Forall main l -> Forall wf l -> forall ids vals exps n ids' vals' exps' n', N0 <= n -> prim_loop (map conv l) ids vals exps n = Some (ids', vals', exps', n') ->
  n <= n' /\ exists ps, Forall2 (fun e s => SC e (pexp s)) l ps /\ ids' = rev (ptmps ps) ++ ids /\ vals' = rev (pvals ps) ++ vals /\ exps' = rev exps ++ pvars ps /\
    NoDup (ptmps ps) /\ (forall t, In t (ptmps ps) -> n < ts t <= n') /\ forall y, In (PV y) ps -> ts y <= N0.
Proof.
  induction 1 as [|e l (A & B) F IH]; cbn [map prim_loop]; intros Wl ids vals exps n ids' vals' exps' n' Ln E.
  - injection E as <- <- <- <-. split; [lia|]. exists []. cbn. rewrite app_nil_r. repeat split; try constructor; easy.
  - inversion Wl as [|? ? We Wl']; subst. destruct (p_direct (conv e) n) as [(e' & n1)|] eqn:D; [|discriminate]. destruct (A _ _ _ Ln D) as (L1 & H).
    assert (V : (exists y, e' = EVar y) \/ let tmp := mkid (n1 + 1) XNone in prim_loop (map conv l) (tmp :: ids) (e' :: vals) (EVar tmp :: exps) (n1 + 1) = Some (ids', vals', exps', n')).
    { destruct e'; [left; eauto | right; exact E ..]. }
    destruct V as [(y & ->)|V].
    + destruct (IH Wl' _ _ _ _ _ _ _ _ (Z.le_trans _ _ _ Ln L1) E) as (L2 & ps & P1 & -> & -> & -> & P5 & P6 & P7). split; [lia|].
      exists (PV y :: ps). cbn. split; [now constructor|]. split; [reflexivity|]. split; [reflexivity|]. split; [rewrite <- app_assoc; reflexivity|]. split; [assumption|]. split.
      * intros t I. specialize (P6 t I). lia.
      * intros z [[= <-]|I]; [|auto]. apply (wf_free e y We). now apply sc_var_free.
    + cbn zeta in V. destruct (IH Wl' _ _ _ (n1 + 1) _ _ _ _ ltac:(lia) V) as (L2 & ps & P1 & -> & -> & -> & P5 & P6 & P7). split; [lia|].
      exists (PT (mkid (n1 + 1) XNone) e' :: ps). cbn. split; [now constructor|]. split; [rewrite <- app_assoc; reflexivity|]. split; [rewrite <- app_assoc; reflexivity|].
      split; [rewrite <- app_assoc; reflexivity|]. split; [|split].
      * constructor; [|assumption]. intros I. specialize (P6 _ I). cbn in P6. lia.
      * intros t [<-|I]; [cbn; lia|]. specialize (P6 t I). lia.
      * intros z [I|I]; [discriminate | auto].
Qed.
Lemma lam_ok ids b n ids' b' n' : main b -> wf (ELam ids b) -> N0 <= n -> cps_lam ids (conv b) n = Some (ids', b', n') -> n <= n' /\ LAM ids b ids' b'.
Proof.
  intros (A & B) W Ln E. unfold cps_lam in E. cbn [fresh] in E. destruct (p_cps (conv b) _ _) as [(b1 & n2)|] eqn:D; [|discriminate]. injection E as <- <- <-.
  assert (Wb : wf b) by (eapply wf_part; [exact W | now left]). set (k := mkid (n + 1) XNone) in *.
  assert (NB : ~ In k (binders (ELam ids b))) by (intros I; destruct (wf_bound _ _ W I) as (_ & X); cbn in X; lia).
  destruct (B (fun x => x = k) (EVar k) (n + 1) b1 n2) as (L2 & C); [lia| |exact D|].
  { intros x ->. split; [cbn; lia|]. intros I. apply NB. cbn. apply in_or_app. now right. }
  split; [lia|]. apply lam_k with (fun x => x = k); auto.
  - unfold global_id, k. cbn. apply Z.ltb_ge. lia.
  - intros I. apply NB. cbn. apply in_or_app. now left.
  - intros Fk. destruct (wf_free _ _ Wb Fk) as (X & _). cbn in X. lia.
Qed.
Lemma lams_ok lams : Forall (fun l => main (snd l) /\ wf (ELam (fst l) (snd l))) lams -> forall n ls n', N0 <= n -> cps_lams (map (fun l => (fst l, conv (snd l))) lams) n = Some (ls, n') ->
  n <= n' /\ Forall2 (fun l l' => LAM (fst l) (snd l) (fst l') (snd l')) lams ls.
Proof.
  induction 1 as [|(ids & b) l (M & W) F IH]; cbn [map cps_lams fst snd]; intros n ls n' Ln E; [injection E as <- <-; split; [lia | constructor]|].
  destruct (cps_lam ids (conv b) n) as [((ids' & b') & n1)|] eqn:D; [|discriminate]. destruct (cps_lams _ n1) as [(l' & n2)|] eqn:D2; [|discriminate]. injection E as <- <-.
  destruct (lam_ok ids b n ids' b' n1 M W Ln D) as (L1 & H). destruct (IH n1 l' n2) as (L2 & H2); [lia | assumption|]. split; [lia | now constructor].
Qed.
Lemma wf_lam_in xs lams b l : wf (EFix xs lams b) -> In l lams -> wf (ELam (fst l) (snd l)).
Proof.
  intros W I. assert (Ip : In (xs ++ fst l, snd l) (parts (EFix xs lams b))) by (right; apply in_map_iff; exists l; auto).
  pose proof (wf_part N0 _ _ _ W Ip) as Wb. destruct W as (A & B & C). destruct (parts_binders _ _ _ Ip) as (I1 & I2 & I3). cbn [binders] in A, B.
  assert (IN : incl (fst l ++ binders (snd l)) (flat_map (fun l => fst l ++ binders (snd l)) lams)) by (apply (incl_flat (fun l => fst l ++ binders (snd l)) lams l I)).
  split; [|split].
  - cbn [binders]. apply Proofs_Box.NoDup_app_r, Proofs_Box.NoDup_app_l in A. apply (NoDup_flat _ _ _ A I).
  - intros x J. apply B. apply in_or_app. right. apply in_or_app. left. now apply IN.
  - intros x F G. inversion F as [Nm|ys e' J NJ Fe]; subst; [inversion Nm|]. destruct J as [[= <- <-]|[]].
    destruct (in_dec id_dec x xs) as [X|X].
    + split; [|apply B; apply in_or_app; now left]. intros J. eapply Proofs_Box.NoDup_app_no; [exact A | exact X|]. apply in_or_app. left. now apply IN.
    + destruct (C x) as (C1 & C2); [eapply free_part; [exact Ip| |exact Fe]; rewrite in_app_iff; tauto | assumption|]. split; [|assumption].
      intros J. apply C1. cbn [binders]. apply in_or_app. right. apply in_or_app. left. now apply IN.
Qed.

Definition fine (e : exp) : Prop := wf e /\ no_local_set e /\ tame P e.
Lemma fold_In {A} (Q : A -> Prop) l x : fold_right (fun e p => Q e /\ p) True l -> In x l -> Q x.
Proof. intros F I. apply fold_Forall in F. now apply (proj1 (Forall_forall _ _) F). Qed.
Lemma fine_part e ys e' : fine e -> In (ys, e') (parts e) -> fine e'.
Proof.
  intros (W & N & T) I. split; [eapply wf_part; eauto|].
  destruct e as [x|x e|a b c|ef p l|f l|xs b|xs lams b|x b|k e]; cbn in *.
  - destruct I.
  - destruct I as [[= <- <-]|[]]. tauto.
  - destruct I as [[= <- <-]|[[= <- <-]|[[= <- <-]|[]]]]; tauto.
  - apply in_map_iff in I. destruct I as (e & [= <- <-] & I). split; [eapply (fold_In no_local_set); eauto | eapply (fold_In (tame P)); eauto].
  - destruct I as [[= <- <-]|I]; [tauto|]. apply in_map_iff in I. destruct I as (e & [= <- <-] & I). destruct N as (_ & N), T as (_ & T).
    split; [eapply (fold_In no_local_set); eauto | eapply (fold_In (tame P)); eauto].
  - destruct I as [[= <- <-]|[]]. tauto.
  - destruct I as [[= <- <-]|I]; [tauto|]. apply in_map_iff in I. destruct I as (l & [= <- <-] & I). destruct N as (N & _), T as (T & _).
    split; [eapply (fold_In (fun l => no_local_set (snd l))); eauto | eapply (fold_In (fun l => tame P (snd l))); eauto].
  - destruct I as [[= <- <-]|[]]. tauto.
  - destruct I as [[= <- <-]|[[= <- <-]|[]]]; tauto.
Qed.
Lemma fresh_part S n e ys e' : fresh_for S n e -> In (ys, e') (parts e) -> fresh_for S n e'.
Proof. intros F I x Sx. destruct (F x Sx) as (A & B). split; [assumption|]. intros J. apply B. apply (proj1 (parts_binders e ys e' I)). exact J. Qed.
Lemma fresh_le S n n1 e : fresh_for S n e -> n <= n1 -> fresh_for S n1 e.
Proof. intros F L x Sx. destruct (F x Sx). split; [lia | assumption]. Qed.
Lemma op_ok e o l S kexp inner n code n' : wf e -> decomp e = Some (o, l) -> Forall main l -> N0 <= n -> fresh_for S n e ->
  cps_list (map conv l) inner n = Some (code, n') ->
  (forall its n0 c0 n1, n <= n0 -> Forall2 (fits n0) l its -> inner (map ex its) n0 = Some (c0, n1) -> n0 <= n1 /\ FIN S (KOp o) its kexp c0) ->
  n <= n' /\ LC S (KOp o) [] l kexp code.
Proof. intros W D M Ln F E HI. destruct (decomp_bound e o l W D) as (A & B & C). eapply list_ok0; eauto. Qed.
Lemma main_list l e : fine e -> (forall e1, In e1 l -> In ([], e1) (parts e)) -> Forall (fun e => (fine e -> main e) /\ forall ids b, e = ELam ids b -> fine b -> main b) l -> Forall main l.
Proof. intros Fe I F. apply Forall_forall. intros e1 J. apply (proj1 (Forall_forall _ _) F e1 J). eapply fine_part; eauto. Qed.
Ltac mk E := unfold set_part, if_part, prim_part, lam_part, fix_part, begin_part, let_part, app_part, letcc_part, withcc_part in E; cbv zeta in E; refine (mk_main _ _ _ _ _ _ E); clear E.
Ltac mm := match goal with |- main ?e => let p := eval cbn [conv] in (conv e) in assert (Ec : conv e = p) by reflexivity; unfold set_part in Ec end.
Lemma conv_main e : fine e -> main e.
Proof.
  enough (H : (fine e -> main e) /\ forall ids b, e = ELam ids b -> fine b -> main b) by apply H.
  induction e as [x|x e IH|a b c IHa IHb IHc|ef p l IH|f l IHf IH|xs b IH|xs lams b IHl IHb|x b IH|k e IHk IHe] using exp_ind2;
    (split; [intros Fi; assert (W := proj1 Fi) | try (intros; discriminate)]).
  - mm; mk Ec; [|discriminate]. intros n e' n' Ln [= <- <-]. split; [lia | constructor].
  - assert (M : main e) by (apply IH; eapply fine_part; [exact Fi | now left]). destruct M as (A & B).
    assert (G : global_id x = true) by apply Fi. mm; rewrite G in Ec; mk Ec.
    + intros n e' n' Ln E. destruct (p_direct (conv e) n) as [(e1 & n1)|] eqn:D; [|discriminate]. injection E as <- <-. destruct (A _ _ _ Ln D). split; [assumption | now constructor].
    + intros S kexp n c' n' Ln F E. rewrite cps_one_list in E. destruct (op_ok (ESet x e) (OSet x) [e] S kexp _ n c' n' W eq_refl (Forall_cons _ (conj A B) (Forall_nil _)) Ln F E) as (L1 & C).
      * intros its n0 c0 n1 L0 Ft Ei. inversion Ft as [|? it ? ? _ Ft']; subst. inversion Ft'; subst. cbn [map] in Ei. injection Ei as <- <-. split; [lia | now constructor].
      * split; [assumption|]. eapply ce_list; [reflexivity | exact C].
  - assert (Ma : main a) by (apply IHa; eapply fine_part; [exact Fi | now left]).
    assert (Mb : main b) by (apply IHb; eapply fine_part; [exact Fi | right; now left]).
    assert (Mc : main c) by (apply IHc; eapply fine_part; [exact Fi | right; right; now left]).
    assert (X : forall S kexp n c' n', N0 <= n -> fresh_for S n (EIf a b c) ->
      cps_one (conv a) (fun t n0 => match p_cps (conv b) kexp n0 with Some (b', n1) => match p_cps (conv c) kexp n1 with Some (c', n2) => Some (EIf t b' c', n2) | None => None end | None => None end) n = Some (c', n') ->
      n <= n' /\ LC S (KOp (OIf b c)) [] [a] kexp c').
    { intros S kexp n c' n' Ln F E. rewrite cps_one_list in E.
      destruct (op_ok (EIf a b c) (OIf b c) [a] S kexp _ n c' n' W eq_refl (Forall_cons _ Ma (Forall_nil _)) Ln F E) as (L1 & C); [|auto].
      intros its n0 c0 n1 L0 Ft Ei. inversion Ft as [|? it ? ? _ Ft']; subst. inversion Ft'; subst. cbn [map] in Ei.
      destruct (p_cps (conv b) kexp n0) as [(b1 & n2)|] eqn:D1; [|discriminate]. destruct (p_cps (conv c) kexp n2) as [(c1 & n3)|] eqn:D2; [|discriminate]. injection Ei as <- <-.
      destruct (proj2 Mb S kexp n0 b1 n2) as (L2 & C2); [lia | | exact D1|]. { apply fresh_le with n; [|lia]. eapply fresh_part; [exact F | right; now left]. }
      destruct (proj2 Mc S kexp n2 c1 n3) as (L3 & C3); [lia | | exact D2|]. { apply fresh_le with n; [|lia]. eapply fresh_part; [exact F | right; right; now left]. }
      split; [lia | now constructor]. }
    mm; mk Ec.
    + intros n e' n' Ln E. destruct (direct_list _ n) as [(l' & n1)|] eqn:D; [|discriminate]. destruct (direct_ok [a; b; c] (Forall_cons _ Ma (Forall_cons _ Mb (Forall_cons _ Mc (Forall_nil _)))) _ _ _ Ln D) as (L1 & F2).
      inversion F2 as [|? a' ? ? Ha F2']; subst. inversion F2' as [|? b' ? ? Hb F3]; subst. inversion F3 as [|? c' ? ? Hc F4]; subst. inversion F4; subst. injection E as <- <-. split; [assumption | now constructor].
    + intros S kexp n c' n' Ln F E.
      assert (Y : forall k1, k1 = mkid (n + 1) XNone -> match cps_one (conv a) (fun t n0 => match p_cps (conv b) (EVar k1) n0 with Some (b', n1) => match p_cps (conv c) (EVar k1) n1 with Some (c', n2) => Some (EIf t b' c', n2) | None => None end | None => None end) (n + 1) with
        Some (code, n2) => Some (let_exp [k1] [kexp] code, n2) | None => None end = Some (c', n') -> n <= n' /\ CE S (EIf a b c) kexp c').
      { intros k1 Ek Y. destruct (cps_one _ _ (n + 1)) as [(code & n2)|] eqn:D; [|discriminate]. injection Y as <- <-.
        assert (K1 : ts k1 = n + 1) by now rewrite Ek. clear Ek.
        destruct (X (fun x => x = k1) (EVar k1) (n + 1) code n2) as (L1 & C); [lia| |exact D|].
        { intros x ->. split; [lia|]. intros I. destruct (wf_bound _ _ W I). lia. }
        split; [lia|]. apply ce_iflet with (fun x => x = k1); auto.
        - unfold global_id. rewrite K1. apply Z.ltb_ge. lia.
        - intros Fk. destruct (wf_free _ _ W Fk). lia. }
      destruct kexp; try (apply (Y _ eq_refl); exact E). destruct (X S (EVar x) n c' n' Ln F E) as (L1 & C). split; [assumption|]. eapply ce_list; [reflexivity | exact C].
  - assert (M : Forall main l) by (eapply main_list; [exact Fi| |exact IH]; intros e1 I; cbn; now apply in_map).
    assert (Wl : Forall wf l). { apply (decomp_bound (EPrim ef p l) (OPrim ef p) l W eq_refl). }
    mm; mk Ec.
    + intros n e' n' Ln E. destruct (prim_loop _ _ _ _ n) as [(((ids & vals) & exps) & n1)|] eqn:D; [|discriminate]. injection E as <- <-.
      destruct (prim_ok l M Wl _ _ _ _ _ _ _ _ Ln D) as (L1 & ps & P1 & -> & -> & -> & P5 & P6 & P7). split; [assumption|]. rewrite !app_nil_r. cbn [rev app].
      apply sc_prim; auto. intros t I. specialize (P6 t I). split; [unfold global_id; apply Z.ltb_ge; lia|]. split.
      * intros e1 J Ft. destruct (wf_free e1 t (proj1 (Forall_forall _ _) Wl e1 J) Ft). lia.
      * intros J. specialize (P7 t J). lia.
    + intros S kexp n c' n' Ln F E. destruct (op_ok (EPrim ef p l) (OPrim ef p) l S kexp _ n c' n' W eq_refl M Ln F E) as (L1 & C).
      * intros its n0 c0 n1 L0 Ft [= <- <-]. split; [lia | constructor].
      * split; [assumption|]. eapply ce_list; [reflexivity | exact C].
  - assert (M : Forall main l) by (eapply main_list; [exact Fi| |exact IH]; intros e1 I; right; now apply in_map).
    assert (Ff : fine f) by (eapply fine_part; [exact Fi | now left]).
    destruct (conv_app f l) as [(b & -> & -> & E)|[(x & e1 & -> & -> & E)|[(x & b & e1 & -> & -> & NF & E)|[(ids & b & -> & L & E)|(E & NL)]]]].
    + assert (Mb : main b) by (apply (proj2 IHf [] b eq_refl); eapply fine_part; [exact Ff | now left]). destruct Mb as (A & B). unfold main. rewrite E. split.
      * intros n e' n' Ln D. destruct (A _ _ _ Ln D). split; [assumption | now constructor].
      * intros S kexp n c n' Ln F D. destruct (B S kexp n c n' Ln) as (L1 & C); auto. { eapply fresh_part; [eapply fresh_part; [exact F | now left] | now left]. }
        split; [assumption | now constructor].
    + inversion M as [|? ? (A & B) _]; subst. assert (G : global_id x = false) by (apply (wf_bound (EApp (ELam [x] (EVar x)) [e1]) x W); now left). unfold main. rewrite E. split.
      * intros n e' n' Ln D. destruct (A _ _ _ Ln D). split; [assumption | now constructor].
      * intros S kexp n c n' Ln F D. destruct (B S kexp n c n' Ln) as (L1 & C); auto. { eapply fresh_part; [exact F | right; now left]. }
        split; [assumption | now constructor].
    + inversion M as [|? ? (A1 & B1) _]; subst. assert (Fb : fine b) by (eapply fine_part; [exact Ff | now left]).
      destruct (proj2 IHf [x] b eq_refl Fb) as (A2 & B2). mk E.
      * intros n e' n' Ln En. cbn [direct_list] in En. destruct (p_direct (conv e1) n) as [(a' & n1)|] eqn:D1; [|discriminate]. destruct (p_direct (conv b) n1) as [(b' & n2)|] eqn:D2; [|discriminate].
        cbn [begin_exp fresh] in En. injection En as <- <-. destruct (A1 _ _ _ Ln D1) as (L1 & H1). destruct (A2 n1 b' n2) as (L2 & H2); [lia | assumption|]. split; [lia|].
        apply sc_let; [repeat constructor; assumption | assumption|]. right. exists x, (mkid (n2 + 1) XNone). repeat split; auto.
        intros Fx. destruct (wf_free _ _ (proj1 Fb) Fx) as (X & _). cbn in X. lia.
      * intros S kexp n c n' Ln F En. cbn [fresh] in En. set (ek := mkid (n + 1) XNone) in *. set (y := mkid (n + 1 + 1) XNone) in *.
        destruct (p_cps (conv b) kexp (n + 1 + 1)) as [(code & n2)|] eqn:D; [|discriminate].
        destruct (B2 S kexp (n + 1 + 1) code n2) as (L2 & C2); [lia | |exact D|]. { apply fresh_le with n; [|lia]. eapply fresh_part; [eapply fresh_part; [exact F | now left] | now left]. }
        assert (FB : forall z, S z \/ free_in z b -> ts z <= n /\ ~ In z (binders e1)).
        { intros z [Sz|Fz].
          - apply (fresh_part S n _ [] e1 F (or_intror (or_introl eq_refl)) z Sz).
          - destruct (wf_free (EApp (ELam [x] b) [e1]) z W) as (X & Y).
            + eapply free_part; [now left|easy|]. eapply free_part; [now left| |exact Fz]. intros [->|[]]. auto.
            + split; [lia|]. intros I. apply Y. cbn. right. apply in_or_app. right. rewrite app_nil_r. exact I. }
        destruct (B1 (fun z => S z \/ free_in z b) (ELam [ek; y] code) n2 c n') as (L3 & C3); [lia| |exact En|].
        { intros z Z. destruct (FB z Z). split; [lia | assumption]. }
        split; [lia|]. apply ce_begin with (fun z => S z \/ free_in z b) ek y code; auto.
        intros z Z. destruct (FB z Z) as (X & _). split; [assumption|]. split; intros ->; cbn in X; lia.
    + assert (Fb : fine b) by (eapply fine_part; [exact Ff | now left]). destruct (proj2 IHf ids b eq_refl Fb) as (A2 & B2). mk E.
      * intros n e' n' Ln En. destruct (direct_list _ n) as [(l' & n1)|] eqn:D1; [|discriminate]. destruct (p_direct (conv b) n1) as [(b' & n2)|] eqn:D2; [|discriminate]. injection En as <- <-.
        destruct (direct_ok l M _ _ _ Ln D1) as (L1 & H1). destruct (A2 n1 b' n2) as (L2 & H2); [lia | assumption|]. split; [lia|]. apply sc_let; auto.
      * intros S kexp n c n' Ln F En. destruct (decomp_bound (EApp (ELam ids b) l) OApp (ELam ids b :: l) W eq_refl) as (BA & BB & BC). inversion BB as [|? ? _ BB']; subst.
        assert (HH : n <= n' /\ LC S (KLet ids b) [] l kexp c).
        { eapply (list_ok0 S (KLet ids b) kexp l); [| exact M | exact BB' | exact Ln | | |exact En].
          - intros x H. destruct (BA x) as (X & Y).
            + right. destruct H as [H|(e0 & I & H)]; [exists (ELam ids b); split; [now left | exact H] | exists e0; split; [now right | assumption]].
            + split; [assumption|]. intros e1 I. apply Y. now right.
          - intros x Sx. destruct (BC S n F x Sx) as (X & Y). split; [assumption|]. intros e1 I. apply Y. now right.
          - intros its n0 c0 n1 L0 Ft Ei. cbn beta in Ei. destruct (p_cps (conv b) kexp n0) as [(b' & n2)|] eqn:D; [|discriminate]. injection Ei as <- <-.
            destruct (B2 S kexp n0 b' n2) as (L2 & C2); [lia | |exact D|]. { apply fresh_le with n; [|lia]. eapply fresh_part; [eapply fresh_part; [exact F | now left] | now left]. }
            split; [assumption|]. apply fin_let; [|assumption]. intros x I Sx. destruct (F x Sx) as (_ & Y). apply Y. cbn. apply in_or_app. left. apply in_or_app. now left. }
        destruct HH as (L1 & C). split; [assumption | now apply ce_let].
    + mk E; [discriminate|]. intros S kexp n c n' Ln F En.
      destruct (op_ok (EApp f l) OApp (f :: l) S kexp _ n c n' W eq_refl (Forall_cons _ (proj1 IHf Ff) M) Ln F En) as (L1 & C).
      * intros its n0 c0 n1 L0 Ft Ei. inversion Ft as [|? it ? its' _ Ft']; subst. cbn [map] in Ei. injection Ei as <- <-. split; [lia | constructor].
      * split; [assumption|]. eapply ce_list; [reflexivity | exact C].
  - assert (Mb : main b) by (apply IH; eapply fine_part; [exact Fi | now left]). mm; mk Ec; [|discriminate].
    intros n e' n' Ln E. destruct (cps_lam xs (conv b) n) as [((ids' & b') & n1)|] eqn:D; [|discriminate]. injection E as <- <-. destruct (lam_ok _ _ _ _ _ _ Mb W Ln D). split; [assumption | now constructor].
  - intros ids b0 [= <- <-]. apply IH.
  - assert (Mb : main b) by (apply IHb; eapply fine_part; [exact Fi | now left]). destruct Mb as (A & B).
    assert (Ml : Forall (fun l => main (snd l) /\ wf (ELam (fst l) (snd l))) lams).
    { apply Forall_forall. intros l I. split; [|eapply wf_lam_in; eauto]. apply (proj1 (Forall_forall _ _) IHl l I). eapply fine_part; [exact Fi|]. right. apply in_map_iff. exists l. split; [reflexivity | assumption]. }
    mm; mk Ec.
    + intros n e' n' Ln E. destruct (cps_lams _ n) as [(ls & n1)|] eqn:D1; [|discriminate]. destruct (p_direct (conv b) n1) as [(b' & n2)|] eqn:D2; [|discriminate]. injection E as <- <-.
      destruct (lams_ok lams Ml _ _ _ Ln D1) as (L1 & H1). destruct (A n1 b' n2) as (L2 & H2); [lia | assumption|]. split; [lia | now constructor].
    + intros S kexp n c n' Ln F E. destruct (cps_lams _ n) as [(ls & n1)|] eqn:D1; [|discriminate]. destruct (p_cps (conv b) kexp n1) as [(b' & n2)|] eqn:D2; [|discriminate]. injection E as <- <-.
      destruct (lams_ok lams Ml _ _ _ Ln D1) as (L1 & H1). destruct (B S kexp n1 b' n2) as (L2 & H2); [lia | |assumption|]. { apply fresh_le with n; [|lia]. eapply fresh_part; [exact F | now left]. }
      split; [lia|]. apply ce_fix; auto. intros x I Sx. destruct (F x Sx) as (_ & Y). apply Y. cbn. apply in_or_app. now left.
  - assert (Fb : fine b) by (eapply fine_part; [exact Fi | now left]). assert (Mb : main b) by now apply IH. mm; mk Ec; [discriminate|].
    intros S kexp n c n' Ln F E. destruct (p_cps (conv b) (EVar x) n) as [(b' & n1)|] eqn:D; [|discriminate]. injection E as <- <-.
    destruct (wf_bound _ x W (or_introl eq_refl)) as (G & Lx).
    destruct (proj2 Mb (fun y => y = x) (EVar x) n b' n1 Ln) as (L1 & C); [|exact D|].
    { intros y ->. split; [lia|]. destruct W as (ND & _). cbn in ND. now inversion ND. }
    split; [assumption|]. apply ce_letcc with (fun y => y = x); auto.
  - assert (Fk : fine k) by (eapply fine_part; [exact Fi | now left]). assert (Fe : fine e) by (eapply fine_part; [exact Fi | right; now left]).
    assert (Mk : main k) by now apply IHk. assert (Me : main e) by now apply IHe. mm; mk Ec; [discriminate|].
    intros S kexp n c n' Ln F E. rewrite cps_one_list in E.
    destruct (op_ok (EWithcc k e) (OWith e) [k] S kexp _ n c n' W eq_refl (Forall_cons _ Mk (Forall_nil _)) Ln F E) as (L1 & C).
    2:{ split; [assumption|]. eapply ce_list; [reflexivity | exact C]. }
    intros its n0 c0 n1 L0 Ft Ei. inversion Ft as [|? it ? its' Fit Ft']; subst. inversion Ft'; subst. cbn [map] in Ei. destruct it as [k0 k'|x]; cbn [ex] in Ei.
    + destruct Fit as (-> & Hk & Sk). rewrite simple_quiet in Sk by apply Fk. assert (PC : plain_cont P k) by apply Fi.
      assert (FW : forall x, free_in x k -> ts x <= N0 /\ ~ In x (binders e)).
      { intros x X. destruct (wf_free (EWithcc k e) x W) as (Y1 & Y2); [eapply free_part; [now left|easy|assumption]|]. split; [assumption|]. intros I. apply Y2. cbn. apply in_or_app. now right. }
      destruct k as [x|x k1|a b c1|ef p l|f l|xs b|xs lams b|x b|k1 k2]; cbn [plain_cont] in PC; try congruence.
      * assert (k' = EVar x) by (inversion Hk; reflexivity). subst k'.
        destruct (proj2 Me (fun y => y = x) (EVar x) n0 c0 n1) as (L2 & C2); [lia | |exact Ei|]. { intros y ->. destruct (FW x) as (Y1 & Y2); [repeat constructor|]. split; [lia | assumption]. }
        split; [assumption|]. apply fin_with_x with (fun y => y = x); auto.
      * destruct l; [|congruence]. destruct PC as (Np & c1 & Pc). assert (k' = let_exp [] [] (EPrim ef p [])). { inversion Hk as [| | |? ? ? ps H1 H2 H3| | | | |]; subst. inversion H1; subst. reflexivity. }
        subst k'. destruct (proj2 Me (fun _ => False) (let_exp [] [] (EPrim ef p [])) n0 c0 n1) as (L2 & C2); [lia | |exact Ei|]. { intros y []. }
        split; [assumption|]. apply fin_with_c with (fun _ => False) c1; auto. split; assumption.
      * assert (HL : exists ys b', k' = ELam ys b' /\ LAM xs b ys b') by (inversion Hk; subst; eauto). destruct HL as (ys & b' & -> & HL).
        destruct (proj2 Me (fun x => free_in x (ELam xs b)) (ELam ys b') n0 c0 n1) as (L2 & C2); [lia | |exact Ei|]. { intros y Y. destruct (FW y Y) as (Y1 & Y2). split; [lia | assumption]. }
        split; [assumption|]. apply fin_with_lam with (fun x => free_in x (ELam xs b)); auto.
    + destruct Fit as (Lx & _). destruct (proj2 Me (fun y => y = x) (EVar x) n0 c0 n1) as (L2 & C2); [lia | |exact Ei|].
      { intros y ->. split; [lia|]. intros I. destruct (wf_bound _ _ (proj1 Fe) I). lia. }
      split; [assumption|]. apply fin_with_v with (fun y => y = x); auto.
Qed.
End Rel.
