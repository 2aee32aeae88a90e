(** Beta substitution: what the loop over the variables of a let does, and the free variables of results. *)
From Coq Require Import ZArith List Bool Lia Permutation.
From Verif Require Import Model_Lit Model_Core Model_Beta Spec_Sem Spec_Free Spec_Fold Spec_Beta Proofs_Sim Proofs_Core Proofs_Free Proofs_FoldWf.
Import ListNotations.
Open Scope Z_scope.

(** ** Checks *)
Lemma memq_in x l : memq x l = true <-> In x l.
Proof. unfold memq. rewrite existsb_exists. split; [intros (y & I & E); apply id_eqb_eq in E; now subst | intros I; exists x; split; [assumption | apply id_eqb_refl]]. Qed.
Lemma clear_spec xs t : clear xs t = true -> forall z, free_in z t -> ~ In z xs.
Proof.
  unfold clear. rewrite negb_true_iff. intros C z F I. assert (existsb (fun x => var_referenced_in_exp x t) xs = true) by (apply existsb_exists; exists z; split; [assumption | now apply referenced_free]). congruence.
Qed.
Definition inran (y : id) (s : bsubsts) : Prop := exists x t oh, In (x, (t, oh)) s /\ (free_in y t \/ exists h, oh = Some h /\ free_in y h).
Lemma clear_all_spec xs s : clear_all xs s = true -> (forall x d, In (x, d) s -> ~ In x xs) /\ (forall z, inran z s -> ~ In z xs).
Proof.
  unfold clear_all. rewrite forallb_forall. intros H. split.
  - intros x d I J. specialize (H _ I). cbn [fst] in H. rewrite !andb_true_iff, negb_true_iff in H. destruct H as ((H & _) & _). apply memq_in in J. congruence.
  - intros z (x & t & oh & I & F). specialize (H _ I). cbn [fst snd] in H. rewrite !andb_true_iff in H. destruct H as ((_ & H1) & H2).
    destruct F as [F|(h & -> & F)]; [apply (clear_spec _ _ H1 z F) | apply (clear_spec _ _ H2 z F)].
Qed.
Lemma proper_spec xs : proper xs = true -> NoDup xs /\ forall x, In x xs -> global_id x = false.
Proof.
  induction xs as [|x xs IH]; cbn [proper]; [split; [constructor | easy]|]. rewrite !andb_true_iff, !negb_true_iff. intros ((A & D) & C). destruct (IH C) as (E & F).
  split; [constructor; [rewrite <- memq_in; congruence | assumption] | intros y [<-|I]; auto].
Qed.
Lemma id_one_of_eq x a : id_one_of x a = true -> a = EVar x.
Proof. destruct a; try discriminate. cbn. intros E. apply id_eqb_eq in E. now subst. Qed.
Lemma cut_spec x l : forall l1 l2, cut x l = Some (l1, l2) -> l = l1 ++ EVar x :: l2.
Proof.
  induction l as [|a l IH]; intros l1 l2; cbn [cut]; [discriminate|]. destruct (id_one_of x a) eqn:E.
  - apply id_one_of_eq in E. subst. intros [= <- <-]. reflexivity.
  - destruct (cut x l) as [(m1 & m2)|]; [|discriminate]. intros [= <- <-]. cbn. f_equal. now apply IH.
Qed.
Lemma assq_in {A} x (l : list (id * A)) a : assq x l = Some a -> In (x, a) l.
Proof. induction l as [|(y & b) l IH]; cbn [assq]; [discriminate|]. destruct (id_eqb x y) eqn:E; [apply id_eqb_eq in E; subst; intros [= ->]; now left | right; auto]. Qed.
Lemma assq_key {A} x (l : list (id * A)) : (forall a, ~ In (x, a) l) -> assq x l = None.
Proof. intros N. destruct (assq x l) eqn:E; [|reflexivity]. apply assq_in in E. now apply N in E. Qed.
Lemma mapo_spec {A B} (f : A -> option B) l : forall l', mapo f l = Some l' -> Forall2 (fun a b => f a = Some b) l l'.
Proof.
  induction l as [|a l IH]; intros l' E; cbn [mapo] in E; [injection E as <-; constructor|]. destruct (f a) eqn:Fa; [|discriminate]. destruct (mapo f l) eqn:Fl; [|discriminate]. injection E as <-. constructor; auto.
Qed.
Lemma Forall2_in_r {A B} (Q : A -> B -> Prop) l l' : Forall2 Q l l' -> forall b, In b l' -> exists a, In a l /\ Q a b.
Proof. induction 1 as [|a b l l' H F IH]; intros c []; [subst; exists a; split; [now left | assumption]|]. destruct (IH _ H0) as (d & I & J). exists d. split; [now right | assumption]. Qed.
Lemma Forall2_in_l {A B} (Q : A -> B -> Prop) l l' : Forall2 Q l l' -> forall a, In a l -> exists b, In b l' /\ Q a b.
Proof. induction 1 as [|a b l l' H F IH]; intros c []; [subst; exists b; split; [now left | assumption]|]. destruct (IH _ H0) as (d & I & J). exists d. split; [now right | assumption]. Qed.

Lemma Forall2_length' {A B} (Q : A -> B -> Prop) l l' : Forall2 Q l l' -> length l = length l'.
Proof. induction 1; cbn; congruence. Qed.

(** ** The loop *)
Section Loop.
Variables hc hl : bool.
Variable body : exp.
Notation choice d := (bs_choose hc hl (fst d) (snd d) body).
Definition keptb (d : id * exp) : bool := match choice d with CPass | CPartial => true | _ => false end.
Definition entry (d : id * exp) : bsubsts :=
  match choice d with CSubst => [(fst d, (snd d, None))] | CPartial => [(fst d, (EVar (fst d), Some (snd d)))] | _ => [] end.
Lemma bs_loop_spec ids : forall rands oids orands s, bs_loop hc hl body ids rands oids orands s =
  (map fst (rev (filter keptb (combine ids rands))) ++ oids, map snd (rev (filter keptb (combine ids rands))) ++ orands, rev (flat_map entry (combine ids rands)) ++ s).
Proof.
  induction ids as [|x ids IH]; intros [|e rands] oids orands s; try reflexivity. cbn [combine filter flat_map bs_loop].
  assert (Ek : keptb (x, e) = match bs_choose hc hl x e body with CPass | CPartial => true | _ => false end) by reflexivity.
  assert (Ee : entry (x, e) = match bs_choose hc hl x e body with CSubst => [(x, (e, None))] | CPartial => [(x, (EVar x, Some e))] | _ => [] end) by reflexivity.
  rewrite Ek, Ee. destruct (bs_choose hc hl x e body); rewrite IH; cbn [app rev map]; rewrite ?map_app, <- ?app_assoc; reflexivity.
Qed.
Lemma entry_in l y d : In (y, d) (flat_map entry l) -> exists e, In (y, e) l /\ (bs_choose hc hl y e body = CSubst /\ d = (e, None) \/ bs_choose hc hl y e body = CPartial /\ d = (EVar y, Some e)).
Proof.
  intros I. apply in_flat_map in I. destruct I as ((x & e) & I & J). unfold entry in J. cbn [fst snd] in J. destruct (bs_choose hc hl x e body) eqn:C; cbn in J; try contradiction; destruct J as [[= <- <-]|[]]; eauto 7.
Qed.
Lemma in_entry l y e : In (y, e) l -> bs_choose hc hl y e body = CSubst -> In (y, (e, None)) (flat_map entry l).
Proof. intros I C. apply in_flat_map. exists (y, e). split; [assumption|]. unfold entry. cbn [fst snd]. rewrite C. now left. Qed.
Lemma in_entry2 l y e : In (y, e) l -> bs_choose hc hl y e body = CPartial -> In (y, (EVar y, Some e)) (flat_map entry l).
Proof. intros I C. apply in_flat_map. exists (y, e). split; [assumption|]. unfold entry. cbn [fst snd]. rewrite C. now left. Qed.
End Loop.
Lemma assq_front {A} x (a : A) l s : (forall d, In (x, d) l -> d = a) -> In (x, a) l -> assq x (l ++ s) = Some a.
Proof.
  induction l as [|(y & b) l IH]; intros H I; [easy|]. cbn [app assq]. destruct (id_eqb x y) eqn:E.
  - apply id_eqb_eq in E. subst. f_equal. apply H. now left.
  - apply IH; [intros d J; apply H; now right|]. destruct I as [[= -> ->]|I]; [|assumption]. now rewrite id_eqb_refl in E.
Qed.
Lemma assq_back {A} x (l s : list (id * A)) : (forall d, ~ In (x, d) l) -> assq x (l ++ s) = assq x s.
Proof.
  induction l as [|(y & b) l IH]; intros H; [reflexivity|]. cbn [app assq]. destruct (id_eqb x y) eqn:E; [|apply IH; firstorder].
  apply id_eqb_eq in E. subst. exfalso. apply (H b). now left.
Qed.
Lemma combine_uniq {A} (ids : list id) : forall (l : list A) x a b, NoDup ids -> In (x, a) (combine ids l) -> In (x, b) (combine ids l) -> a = b.
Proof.
  induction ids as [|y ids IH]; intros [|c l] x a b N I J; try easy. inversion N; subst. cbn [combine] in *.
  destruct I as [[= <- <-]|I]; destruct J as [[= <-]|J]; eauto; [apply in_combine_l in J; contradiction | subst; apply in_combine_l in I; contradiction].
Qed.
Lemma combine_has {A} (ids : list id) : forall (l : list A) x, length ids = length l -> In x ids -> exists a, In (x, a) (combine ids l).
Proof. induction ids as [|y ids IH]; intros [|c l] x L I; try easy. cbn [combine]. destruct I as [->|I]; [exists c; now left|]. destruct (IH l x) as (a & J); [now injection L | assumption|]. exists a. now right. Qed.

(** ** Free variables *)
Lemma free_var y x : free_in y (EVar x) <-> y = x.
Proof. rewrite free_in_eq. cbn. split; [intros [E|(? & ? & [] & _)]; now apply id_eqb_eq | intros ->; left; apply id_eqb_refl]. Qed.
Lemma free_parts e y : (forall z, any_use z e = false) -> free_in y e <-> exists ys e', In (ys, e') (parts e) /\ ~ In y ys /\ free_in y e'.
Proof. intros H. rewrite free_in_eq, H. split; [intros [|]; [discriminate | assumption] | now right]. Qed.
Lemma free_if y a b c : free_in y (EIf a b c) <-> free_in y a \/ free_in y b \/ free_in y c.
Proof.
  rewrite free_parts by reflexivity. cbn. split.
  - intros (ys & e & [[= <- <-]|[[= <- <-]|[[= <- <-]|[]]]] & _ & F); auto.
  - intros [F|[F|F]]; eexists [], _; (split; [|split; [|exact F]]); auto.
Qed.
Lemma free_prim y ef p l : free_in y (EPrim ef p l) <-> exists a, In a l /\ free_in y a.
Proof.
  rewrite free_parts by reflexivity. cbn. split.
  - intros (ys & e & I & _ & F). apply in_map_iff in I. destruct I as (a & [= <- <-] & I). eauto.
  - intros (a & I & F). exists [], a. split; [now apply in_map|]. auto.
Qed.
Lemma free_app y f l : free_in y (EApp f l) <-> free_in y f \/ exists a, In a l /\ free_in y a.
Proof.
  rewrite free_parts by reflexivity. cbn. split.
  - intros (ys & e & [[= <- <-]|I] & _ & F); [auto|]. apply in_map_iff in I. destruct I as (a & [= <- <-] & I). eauto.
  - intros [F|(a & I & F)]; [exists [], f; auto|]. exists [], a. split; [right; now apply in_map|]. auto.
Qed.
Lemma free_lam y xs b : free_in y (ELam xs b) <-> ~ In y xs /\ free_in y b.
Proof. rewrite free_parts by reflexivity. cbn. split; [intros (ys & e & [[= <- <-]|[]] & F); auto | intros F; exists xs, b; auto]. Qed.
Lemma free_letcc y x b : free_in y (ELetcc x b) <-> y <> x /\ free_in y b.
Proof. rewrite free_parts by reflexivity. cbn. split; [intros (ys & e & [[= <- <-]|[]] & N & F); split; [intros ->; apply N; now left | assumption] | intros (N & F); exists [x], b; split; [auto|]; split; [intros [->|[]]; now apply N | assumption]]. Qed.
Lemma free_with y k e : free_in y (EWithcc k e) <-> free_in y k \/ free_in y e.
Proof.
  rewrite free_parts by reflexivity. cbn. split.
  - intros (ys & a & [[= <- <-]|[[= <- <-]|[]]] & _ & F); auto.
  - intros [F|F]; eexists [], _; (split; [|split; [|exact F]]); auto.
Qed.
Lemma free_fix y xs lams b : free_in y (EFix xs lams b) <-> ~ In y xs /\ (free_in y b \/ exists l, In l lams /\ ~ In y (fst l) /\ free_in y (snd l)).
Proof.
  rewrite free_parts by reflexivity. cbn. split.
  - intros (ys & a & [[= <- <-]|I] & N & F); [auto|]. apply in_map_iff in I. destruct I as (l & [= <- <-] & I). rewrite in_app_iff in N. split; [tauto|]. right. exists l. tauto.
  - intros (N & [F|(l & I & N2 & F)]); [exists xs, b; auto|]. exists (xs ++ fst l), (snd l). split; [right; apply in_map_iff; eauto|]. rewrite in_app_iff. tauto.
Qed.
Lemma free_set y x e : free_in y (ESet x e) <-> y = x \/ free_in y e.
Proof.
  rewrite free_in_eq. cbn. split.
  - intros [E|(ys & a & [[= <- <-]|[]] & _ & F)]; [left; now apply id_eqb_eq | auto].
  - intros [->|F]; [left; apply id_eqb_refl | right; exists [], e; auto].
Qed.

Section Free.
Variable tot : prim -> bool.
Variables hc hl : bool.
Notation careful := (careful tot hc hl).
Notation bsub := (beta_subst hc hl).
Definition stays (y : id) (e : exp) (s : bsubsts) : Prop := free_in y e /\ (forall t, assq y s <> Some (t, None)) \/ inran y s.
Lemma stays_sub y e e' s : (free_in y e -> free_in y e') -> stays y e s -> stays y e' s.
Proof. intros H [(F & N)|I]; [left; auto | now right]. Qed.
Lemma head_free y f s (bs : exp -> option exp) h : (forall h, bs f = Some h -> free_in y h -> stays y f s) -> bs_head bs s f = Some h -> free_in y h -> stays y f s.
Proof.
  intros IH E F. destruct f; cbn [bs_head] in E; eauto. destruct (assq x s) as [(t & [h0|])|] eqn:A; injection E as <-.
  - right. exists x, t, (Some h0). split; [now apply assq_in | eauto].
  - right. exists x, t, None. split; [now apply assq_in | auto].
  - left. split; [assumption|]. apply free_var in F. subst. rewrite A. discriminate.
Qed.
Definition FR n := forall f e s e' y, (f <= n)%nat -> careful f e s = true -> bsub f e s = Some e' -> global_id y = false -> free_in y e' -> stays y e s.
Lemma list_free n : FR n -> forall f l s l' y a, (f <= n)%nat -> (forall a, In a l -> careful f a s = true) -> mapo (fun a => bsub f a s) l = Some l' -> global_id y = false -> In a l' -> free_in y a -> exists b, In b l /\ stays y b s.
Proof.
  intros IH f l s l' y a L C E G I F. destruct (Forall2_in_r _ _ _ (mapo_spec _ _ _ E) _ I) as (b & J & Eb). exists b. split; [assumption|]. eapply IH; eauto.
Qed.
(** what becomes of the body of a let *)
Definition body_ok (f : nat) (ids : list id) (body : exp) (rands' : list exp) (s' : bsubsts) (oids : list id) : bool :=
  match filter (fun d => negb (safe_op hc hl ids body d)) (combine ids rands') with
  | [] => careful f body s'
  | [(x, rand)] =>
    match bs_choose hc hl x rand body, oids, f with
    | CSubst, [], S f' =>
      let same a := negb (var_referenced_in_exp x a) && careful f' a s' in
      let still a := match bsub f' a s' with Some a' => steadyb tot a' | None => false end in
      let all l := match cut x l with Some (l1, l2) => forallb (fun a => same a && still a) (l1 ++ l2) | None => false end in
      clear ids rand && negb (bs_ref_transparent rand) &&
      match body with
      | EPrim _ _ l => all l
      | EApp f0 l =>
        negb (is_lam f0) &&
        (if id_one_of x f0 then forallb (fun a => same a && still a) l
         else same f0 && match bs_head (fun a => bsub f' a s') s' f0 with Some h => steadyb tot h && negb (is_lam h) | None => false end && all l)
      | _ => false
      end
    | _, _, _ => false
    end
  | _ => false
  end.
(** the operand that is moved *)
Definition moved1 (f : nat) (x : id) (s' : bsubsts) (a a' : exp) : Prop :=
  ~ free_in x a /\ careful f a s' = true /\ (bsub f a s' = Some a' \/ bs_head (fun a => bsub f a s') s' a = Some a') /\ steadyb tot a' = true.
Inductive moved (f : nat) (x : id) (rand : exp) (s' : bsubsts) (c c' : exp) : Prop :=
| mv_arg o l1 l2 l1' l2' : decomp c = Some (o, l1 ++ EVar x :: l2) -> decomp c' = Some (o, l1' ++ rand :: l2') -> Forall2 (moved1 f x s') l1 l1' -> Forall2 (moved1 f x s') l2 l2' ->
    (match o with OApp => True | OPrim _ _ => True | _ => False end) -> moved f x rand s' c c'.
Lemma still_all f x s' l l' : forallb (fun a => negb (var_referenced_in_exp x a) && careful f a s' && match bsub f a s' with Some a' => steadyb tot a' | None => false end) l = true ->
  Forall2 (fun a b => bsub f a s' = Some b) l l' -> Forall2 (moved1 f x s') l l'.
Proof.
  intros H F. induction F as [|a b l l' E F IH]; [constructor|]. cbn [forallb] in H. rewrite !andb_true_iff, negb_true_iff in H. destruct H as (((H1 & H2) & H3) & H4). constructor; [|auto].
  rewrite E in H3. split; [intros X; apply referenced_free in X; congruence|]. auto.
Qed.
Lemma split_all f x s' rand l l1 l2 l' : cut x l = Some (l1, l2) -> assq x s' = Some (rand, None) ->
  forallb (fun a => negb (var_referenced_in_exp x a) && careful f a s' && match bsub f a s' with Some a' => steadyb tot a' | None => false end) (l1 ++ l2) = true ->
  mapo (fun a => bsub f a s') l = Some l' -> exists l1' l2', l' = l1' ++ rand :: l2' /\ Forall2 (moved1 f x s') l1 l1' /\ Forall2 (moved1 f x s') l2 l2'.
Proof.
  intros C A H E. apply cut_spec in C. subst l. apply mapo_spec in E. apply Forall2_app_inv_l in E. destruct E as (l1' & m & E1 & E2 & ->). inversion E2 as [|? b ? l2' Eb E3]; subst.
  assert (b = rand). { destruct f; [discriminate|]. cbn [beta_subst] in Eb. rewrite A in Eb. congruence. } subst b.
  rewrite forallb_app, andb_true_iff in H. destruct H as (H1 & H2). exists l1', l2'. split; [reflexivity|]. split; now apply still_all.
Qed.
Lemma body_cases f ids body rands' s' oids c' : body_ok f ids body rands' s' oids = true -> bsub f body s' = Some c' ->
  (forall x rand, In (x, rand) (combine ids rands') -> bs_choose hc hl x rand body = CSubst -> assq x s' = Some (rand, None)) ->
  filter (fun d => negb (safe_op hc hl ids body d)) (combine ids rands') = [] /\ careful f body s' = true \/
  exists x rand f', filter (fun d => negb (safe_op hc hl ids body d)) (combine ids rands') = [(x, rand)] /\ f = Datatypes.S f' /\ bs_choose hc hl x rand body = CSubst /\ oids = [] /\
    clear ids rand = true /\ bs_ref_transparent rand = false /\ moved f' x rand s' body c'.
Proof.
  intros Ok E A. unfold body_ok in Ok. destruct (filter _ _) as [|(x & rand) [|]] eqn:Fl; [left; auto | right | discriminate].
  assert (In (x, rand) (combine ids rands')) as I by (apply (filter_In (fun d => negb (safe_op hc hl ids body d))); rewrite Fl; now left).
  destruct (bs_choose hc hl x rand body) eqn:Ch; try discriminate. destruct oids; [|discriminate]. destruct f as [|f]; [discriminate|]. specialize (A _ _ I Ch).
  rewrite !andb_true_iff, negb_true_iff in Ok. destruct Ok as ((Ok1 & Ok2) & Ok3). exists x, rand, f. repeat (split; [auto; fail|]).
  destruct body as [| | |ef p l|f0 l| | | |]; try discriminate.
  - destruct (cut x l) as [(l1 & l2)|] eqn:Cu; [|discriminate]. cbn [beta_subst] in E. destruct (mapo (fun e => bsub f e s') l) as [l'|] eqn:M; [|discriminate]. injection E as <-.
    destruct (split_all _ _ _ _ _ _ _ _ Cu A Ok3 M) as (l1' & l2' & -> & F1 & F2). apply cut_spec in Cu. subst l. now apply mv_arg with (OPrim ef p) l1 l2 l1' l2'.
  - rewrite andb_true_iff, negb_true_iff in Ok3. destruct Ok3 as (NL & Ok3).
    assert (D : degenerate_let (EApp f0 l) = None) by (destruct f0; try reflexivity; discriminate). assert (V : forall h m, is_lam h = false -> let_view (EApp h m) = None) by (intros h m H; destruct h; try reflexivity; discriminate).
    cbn [beta_subst] in E. rewrite D, (V _ _ NL) in E. destruct (bs_head (fun e => bsub f e s') s' f0) as [h|] eqn:H; [|discriminate]. destruct (mapo (fun e => bsub f e s') l) as [l'|] eqn:M; [|discriminate].
    destruct (id_one_of x f0) eqn:X.
    + apply id_one_of_eq in X. subst f0. cbn [bs_head] in H. rewrite A in H. injection H as <-. rewrite V in E by (destruct rand; try reflexivity; discriminate). injection E as <-.
      apply mv_arg with OApp [] l [] l'; auto. apply still_all; [assumption | now apply mapo_spec].
    + rewrite !andb_true_iff, !negb_true_iff in Ok3. destruct Ok3 as (((S1 & S2) & S3 & S4) & Ok3). destruct (cut x l) as [(l1 & l2)|] eqn:Cu; [|discriminate]. rewrite V in E by assumption. injection E as <-.
      destruct (split_all _ _ _ _ _ _ _ _ Cu A Ok3 M) as (l1' & l2' & -> & F1 & F2). apply cut_spec in Cu. subst l. apply mv_arg with OApp (f0 :: l1) l2 (h :: l1') l2'; auto.
      constructor; [|assumption]. split; [intros Z; apply referenced_free in Z; congruence|]. auto.
Qed.
Lemma decomp_free c o l y : decomp c = Some (o, l) -> (match o with OApp => True | OPrim _ _ => True | _ => False end) -> free_in y c <-> exists a, In a l /\ free_in y a.
Proof.
  intros D M. destruct c; try discriminate; cbn in D; injection D as <- <-; try contradiction; [apply free_prim|]. rewrite free_app. split.
  - intros [F|(a & I & F)]; [exists c; split; [now left | assumption] | exists a; split; [now right | assumption]].
  - intros (a & [<-|I] & F); eauto.
Qed.
Lemma moved_free n : FR n -> forall f x rand s' c c' y t, (f <= n)%nat -> moved f x rand s' c c' -> In (x, (rand, t)) s' -> global_id y = false -> free_in y c' -> stays y c s'.
Proof.
  intros IH f x rand s' c c' y t L [o l1 l2 l1' l2' D1 D2 F1 F2 M] I G F. apply (decomp_free _ _ _ y D2 M) in F. destruct F as (a & J & F). apply in_app_iff in J.
  assert (H : forall m m', Forall2 (moved1 f x s') m m' -> In a m' -> exists b, In b m /\ stays y b s').
  { intros m m' FF Jm. destruct (Forall2_in_r _ _ _ FF _ Jm) as (b & Jb & _ & Ca & E & _). exists b. split; [assumption|]. destruct E as [E|E]; [eapply IH; eauto|].
    eapply head_free; [|exact E | exact F]. intros h Eh Fh. eapply IH; eauto. }
  assert (H2 : forall b, In b (l1 ++ EVar x :: l2) -> stays y b s' -> stays y c s').
  { intros b Ib. apply stays_sub. intros Fb. apply (decomp_free _ _ _ y D1 M). eauto. }
  destruct J as [J|[->|J]].
  - destruct (H _ _ F1 J) as (b & Ib & S). apply (H2 b); [apply in_app_iff; auto | assumption].
  - right. exists x, a, t. auto.
  - destruct (H _ _ F2 J) as (b & Ib & S). apply (H2 b); [apply in_app_iff; right; now right | assumption].
Qed.
(** variables of the body of a let, after substitution *)
Lemma let_left ids rands rands' body s b' y : NoDup ids -> length ids = length rands' ->
  (forall r0, In r0 rands' -> free_in y r0 -> exists b, In b rands /\ stays y b s) ->
  stays y body (rev (flat_map (entry hc hl body) (combine ids rands')) ++ s) -> free_in y b' ->
  (In y (map fst (filter (keptb hc hl body) (combine ids rands')))) \/ stays y (EApp (ELam ids body) rands) s.
Proof.
  intros ND LL HR S F.
  assert (Kept : forall x e, In (x, e) (combine ids rands') -> keptb hc hl body (x, e) = true -> In x (map fst (filter (keptb hc hl body) (combine ids rands')))).
  { intros x e I K. apply in_map_iff. exists (x, e). split; [reflexivity|]. now apply filter_In. }
  destruct S as [(Fy & N)|(x & t & oh & I & Ft)].
  - destruct (in_dec id_dec y ids) as [Iy|Iy].
    + left. destruct (combine_has _ _ _ LL Iy) as (e & J). apply (Kept y e J). unfold keptb. cbn [fst snd]. destruct (bs_choose hc hl y e body) eqn:C; try reflexivity; exfalso.
      * unfold bs_choose in C. destruct (Nat.eqb_spec (var_reference_count y body) 0) as [Z|Z].
        -- apply referenced_free in Fy. unfold var_referenced_in_exp, var_reference_count in *. destruct (var_uses_in_exp y body); [discriminate | cbn in Z; lia].
        -- destruct (Nat.eqb _ 1); [destruct (_ || _); discriminate|]. destruct (_ && _); [discriminate|]. destruct (if hl then _ else _); [destruct (var_only_applied_in_exp _ _); discriminate|]. destruct (bs_zero_cost _); discriminate.
      * apply (N e). apply assq_front; [|apply in_rev; rewrite rev_involutive; now apply in_entry].
        intros d K. apply in_rev in K. apply entry_in in K. destruct K as (e2 & K & Q). assert (e2 = e) by (eapply combine_uniq; eauto). subst. destruct Q as [(_ & ->)|(Q & _)]; [reflexivity | congruence].
    + right. left. split; [apply free_app; left; now apply free_lam|]. intros t. rewrite <- (assq_back y (rev (flat_map (entry hc hl body) (combine ids rands'))) s); [apply N|].
      intros d K. apply in_rev in K. apply entry_in in K. destruct K as (e2 & K & _). apply in_combine_l in K. contradiction.
  - apply in_app_iff in I. destruct I as [I|I]; [|right; right; exists x, t, oh; auto]. apply in_rev in I. apply entry_in in I. destruct I as (e & I & Q).
    assert (R : free_in y e -> stays y (EApp (ELam ids body) rands) s).
    { intros Fe. apply in_combine_r in I. destruct (HR e I Fe) as (b & Ib & Sb). eapply stays_sub; [|exact Sb]. intros Fb. apply free_app. eauto. }
    destruct Q as [(Q & [= -> ->])|(Q & [= -> ->])].
    + right. apply R. destruct Ft as [Ft|(h & ? & _)]; [assumption | discriminate].
    + destruct Ft as [Ft|(h & [= <-] & Ft)]; [|right; now apply R]. apply free_var in Ft. subst x. left. apply (Kept y e I). unfold keptb. cbn [fst snd]. now rewrite Q.
Qed.
Lemma bs_free n : FR n.
Proof.
  induction n as [|n IH]; intros f e s e' y L C E G F; (destruct f as [|f]; [discriminate|]); [lia|]. assert (Lf : (f <= n)%nat) by lia.
  cbn [Spec_Beta.careful] in C. cbn [beta_subst] in E.
  assert (Sub : forall a a' e, careful f a s = true -> bsub f a s = Some a' -> free_in y a' -> (free_in y a -> free_in y e) -> stays y e s).
  { intros a a' e0 Ca Ea Fa H. eapply stays_sub; [exact H|]. eapply IH; eauto. }
  destruct e as [x|x e|a b c|ef p l|rator rands|xs b|xs lams b|x b|k e].
  - destruct (assq x s) as [(t & oh)|] eqn:A; injection E as <-.
    + right. exists x, t, oh. split; [now apply assq_in | auto].
    + left. split; [assumption|]. apply free_var in F. subst. rewrite A. discriminate.
  - destruct (global_id x) eqn:Gx; [|discriminate]. destruct (bsub f e s) as [e1|] eqn:E1; [|discriminate]. injection E as <-. apply free_set in F. destruct F as [->|F]; [congruence|].
    eapply Sub; eauto. intros. apply free_set. auto.
  - rewrite !andb_true_iff in C. destruct C as ((Ca & Cb) & Cc). destruct (bsub f a s) as [a'|] eqn:Ea; [|discriminate]. destruct (bsub f b s) as [b'|] eqn:Eb; [|discriminate]. destruct (bsub f c s) as [c'|] eqn:Ec; [|discriminate]. injection E as <-.
    apply free_if in F. destruct F as [F|[F|F]]; [apply (Sub a a') | apply (Sub b b') | apply (Sub c c')]; auto; intros; apply free_if; auto.
  - rewrite forallb_forall in C. destruct (mapo (fun e => bsub f e s) l) as [l'|] eqn:M; [|discriminate]. injection E as <-. apply free_prim in F. destruct F as (a & I & F).
    destruct (list_free n IH f l s l' y a Lf C M G I F) as (b & J & S). eapply stays_sub; [|exact S]. intros. apply free_prim. eauto.
  - destruct (degenerate_let (EApp rator rands)) as [b|] eqn:D.
    + apply andb_true_iff in C. destruct C as (_ & C). eapply Sub; eauto. intros Fb. destruct (degenerate_inv _ _ D) as [X|(x & X)]; injection X as -> ->; apply free_app; [left; apply free_lam; auto | right; exists b; split; [now left | assumption]].
    + destruct (let_view (EApp rator rands)) as [((ids & rands1) & body)|] eqn:V.
      * destruct (let_view_inv _ _ _ _ V) as (X & LL). injection X as -> ->. rewrite !andb_true_iff, forallb_forall in C. destruct C as (((C1 & C2) & C3) & C4).
        destruct (mapo (fun e => bsub f e s) rands1) as [rands'|] eqn:M; [|discriminate]. rewrite bs_loop_spec in C4, E. rewrite !app_nil_r in C4, E.
        set (l := combine ids rands') in *. set (s' := rev (flat_map (entry hc hl body) l) ++ s) in *.
        assert (LL2 : length ids = length rands') by (rewrite LL; eapply Forall2_length'; apply mapo_spec; exact M).
        assert (P2 := proper_spec _ C2). destruct P2 as (ND & Lo).
        assert (AS : forall x rand, In (x, rand) l -> bs_choose hc hl x rand body = CSubst -> assq x s' = Some (rand, None)).
        { intros x rand I Ch. apply assq_front; [|apply in_rev; rewrite rev_involutive; now apply in_entry]. intros d K. apply in_rev in K. apply entry_in in K. destruct K as (e2 & K & Q).
          assert (e2 = rand) by (eapply combine_uniq; eauto). subst. destruct Q as [(_ & ->)|(Q & _)]; [reflexivity | congruence]. }
        assert (BD : forall b', bsub f body s' = Some b' -> free_in y b' -> In y (map fst (filter (keptb hc hl body) l)) \/ stays y (EApp (ELam ids body) rands1) s).
        { intros b' Eb Fb. eapply (let_left ids rands1); eauto; [intros r0 I F0; eapply (list_free n IH f); eauto|]. destruct (body_cases f ids body rands' s' _ b' C4 Eb AS) as [(_ & Cb)|(x & rand & f' & Fl & -> & Ch & _ & _ & _ & Mv)].
          - eapply IH; eauto.
          - apply (moved_free n IH f' x rand s' body b' y None); auto; [lia|]. apply assq_in. apply AS; [|assumption]. apply (filter_In (fun d => negb (safe_op hc hl ids body d))). unfold l. rewrite Fl. now left. }
        destruct (map fst (rev (filter (keptb hc hl body) l))) as [|o os] eqn:O.
        -- destruct (BD _ E F) as [I|S]; [|assumption]. exfalso. rewrite map_rev in O. apply (f_equal (@rev id)) in O. rewrite rev_involutive in O. rewrite O in I. destruct I.
        -- destruct (bsub f body s') as [b'|] eqn:Eb; [|discriminate]. injection E as <-. apply free_app in F. destruct F as [F|(a & I & F)].
           ++ apply free_lam in F. destruct F as (N & F). destruct (BD _ eq_refl F) as [I|S]; [|assumption]. exfalso. apply N. rewrite <- O, map_rev. now apply in_rev in I.
           ++ rewrite ?app_nil_r in I. apply in_map_iff in I. destruct I as ((x & a1) & X & I). cbn in X. subst a1. apply in_rev in I. apply filter_In in I. destruct I as (I & _). apply in_combine_r in I.
              destruct (list_free n IH f rands1 s rands' y a Lf C1 M G I F) as (b & J & S). eapply stays_sub; [|exact S]. intros. apply free_app. eauto.
      * rewrite !andb_true_iff, forallb_forall in C. destruct C as ((C1 & C2) & C3). destruct (bs_head (fun e => bsub f e s) s rator) as [h|] eqn:H; [|discriminate]. destruct (mapo (fun e => bsub f e s) rands) as [l'|] eqn:M; [|discriminate].
        assert (Fr : free_in y (EApp h l') -> stays y (EApp rator rands) s).
        { intros Fh. apply free_app in Fh. destruct Fh as [Fh|(a & I & Fa)].
          - eapply stays_sub; [|eapply head_free; [|exact H | exact Fh]]; [intros; apply free_app; auto|]. intros h0 E0 F0. destruct rator; try (eapply IH; eauto; fail).
            destruct f; [discriminate|]. apply (IH (Datatypes.S f) (EVar x) s h0 y); auto.
          - destruct (list_free n IH f rands s l' y a Lf C2 M G I Fa) as (b & J & S). eapply stays_sub; [|exact S]. intros. apply free_app. eauto. }
        destruct (let_view (EApp h l')) as [v|]; [|injection E as <-; auto].
        assert (S := IH f (EApp h l') s e' y Lf C3 E G F). destruct S as [(S & N)|S]; [|now right]. auto.
  - rewrite andb_true_iff in C. destruct C as (_ & C). destruct (bsub f b s) as [b'|] eqn:Eb; [|discriminate]. injection E as <-. apply free_lam in F. destruct F as (N & F). eapply Sub; eauto. intros. now apply free_lam.
  - rewrite !andb_true_iff, forallb_forall in C. destruct C as ((_ & Cb) & Cl). destruct (mapo _ lams) as [lams'|] eqn:M; [|discriminate]. destruct (bsub f b s) as [b'|] eqn:Eb; [|discriminate]. injection E as <-.
    apply free_fix in F. destruct F as (N & [F|(l' & I & N2 & F)]); [apply (Sub b b'); auto; intros; apply free_fix; auto|].
    destruct (Forall2_in_r _ _ _ (mapo_spec _ _ _ M) _ I) as (l & J & El). destruct (bsub f (snd l) s) as [a'|] eqn:Ea; [|discriminate]. injection El as <-. cbn [fst snd] in *.
    specialize (Cl _ J). apply andb_true_iff in Cl. eapply Sub; [apply Cl | exact Ea | exact F|]. intros. apply free_fix. split; [assumption|]. eauto.
  - rewrite andb_true_iff in C. destruct C as (_ & C). destruct (bsub f b s) as [b'|] eqn:Eb; [|discriminate]. injection E as <-. apply free_letcc in F. destruct F as (N & F). eapply Sub; eauto. intros. now apply free_letcc.
  - rewrite !andb_true_iff in C. destruct C as (Ca & Cb). destruct (bsub f k s) as [a'|] eqn:Ea; [|discriminate]. destruct (bsub f e s) as [b'|] eqn:Eb; [|discriminate]. injection E as <-.
    apply free_with in F. destruct F as [F|F]; [apply (Sub k a') | apply (Sub e b')]; auto; intros; apply free_with; auto.
Qed.

(** ** Runs that need not be careful *)
Notation nice := well_bound.
Definition nice_sub (s : bsubsts) : Prop := forall x t oh, In (x, (t, oh)) s -> global_id x = false /\ nice t /\ forall h, oh = Some h -> nice h.
Lemma nice_part e ys e' : nice e -> In (ys, e') (parts e) -> nice e'.
Proof. intros [_ H]. apply H. Qed.
Lemma nice_app f0 l : nice f0 -> (forall a, In a l -> nice a) -> nice (EApp f0 l).
Proof. intros A H. constructor; [exact Logic.I|]. intros ys e' [[= <- <-]|I]; [assumption|]. apply in_map_iff in I. destruct I as (a & [= <- <-] & I). auto. Qed.
Definition SC f := forall e s e', bsub f e s = Some e' -> nice e -> nice_sub s -> nice e' /\ forall y, free_in y e' -> stays y e s.
Lemma SC_list f l s l' : SC f -> mapo (fun a => bsub f a s) l = Some l' -> (forall a, In a l -> nice a) -> nice_sub s -> (forall a, In a l' -> nice a) /\ forall y a, In a l' -> free_in y a -> exists b, In b l /\ stays y b s.
Proof.
  intros IH E N S. apply mapo_spec in E. split.
  - intros a I. destruct (Forall2_in_r _ _ _ E _ I) as (b & J & Eb). apply (IH _ _ _ Eb (N _ J) S).
  - intros y a I F. destruct (Forall2_in_r _ _ _ E _ I) as (b & J & Eb). exists b. split; [assumption|]. now apply (IH _ _ _ Eb (N _ J) S).
Qed.
Lemma SC_ok f : SC f.
Proof.
  induction f as [|f IH]; intros e s e' E N S; [discriminate|]. cbn [beta_subst] in E.
  assert (Sub : forall a a', bsub f a s = Some a' -> nice a -> nice a' /\ forall y e, (free_in y a -> free_in y e) -> free_in y a' -> stays y e s).
  { intros a a' Ea Na. destruct (IH _ _ _ Ea Na S) as (H1 & H2). split; [assumption|]. intros y e0 H F. eapply stays_sub; eauto. }
  destruct e as [x|x e|a b c|ef p l|rator rands|xs b|xs lams b|x b|k e].
  - destruct (assq x s) as [(t & oh)|] eqn:A; injection E as <-.
    + apply assq_in in A. destruct (S _ _ _ A) as (_ & S1 & _). split; [exact S1|]. intros y F. right. exists x, t, oh. auto.
    + split; [assumption|]. intros y F. left. split; [assumption|]. apply free_var in F. subst. rewrite A. discriminate.
  - destruct (global_id x) eqn:Gx; [|discriminate]. destruct (bsub f e s) as [e1|] eqn:E1; [|discriminate]. injection E as <-. destruct (Sub _ _ E1 (nice_part _ [] e N (or_introl eq_refl))) as (H1 & H2). split.
    + constructor; [exact Logic.I|]. intros ys a [[= <- <-]|[]]. assumption.
    + intros y F. apply free_set in F. destruct F as [->|F]; [|apply H2; auto; intros; apply free_set; auto]. left. split; [apply free_set; auto|]. intros t A. apply assq_in in A. destruct (S _ _ _ A) as (G & _). congruence.
  - destruct (bsub f a s) as [a'|] eqn:Ea; [|discriminate]. destruct (bsub f b s) as [b'|] eqn:Eb; [|discriminate]. destruct (bsub f c s) as [c'|] eqn:Ec; [|discriminate]. injection E as <-.
    destruct (Sub _ _ Ea (nice_part _ [] a N (or_introl eq_refl))) as (A1 & A2). destruct (Sub _ _ Eb (nice_part _ [] b N (or_intror (or_introl eq_refl)))) as (B1 & B2).
    destruct (Sub _ _ Ec (nice_part _ [] c N (or_intror (or_intror (or_introl eq_refl))))) as (C1 & C2). split.
    + constructor; [exact Logic.I|]. intros ys q [[= <- <-]|[[= <- <-]|[[= <- <-]|[]]]]; assumption.
    + intros y F. apply free_if in F. destruct F as [F|[F|F]]; [apply A2 | apply B2 | apply C2]; auto; intros; apply free_if; auto.
  - destruct (mapo (fun e => bsub f e s) l) as [l'|] eqn:M; [|discriminate]. injection E as <-. destruct (SC_list f l s l' IH M) as (H1 & H2); auto; [intros a I; apply (nice_part _ [] a N); cbn; now apply in_map|]. split.
    + constructor; [exact Logic.I|]. intros ys q I. apply in_map_iff in I. destruct I as (a & [= <- <-] & I). auto.
    + intros y F. apply free_prim in F. destruct F as (a & I & F). destruct (H2 _ _ I F) as (b & J & St). eapply stays_sub; [|exact St]. intros. apply free_prim. eauto.
  - assert (Nf : nice rator) by (apply (nice_part _ [] _ N); now left). assert (Nl : forall a, In a rands -> nice a) by (intros a I; apply (nice_part _ [] a N); right; now apply in_map).
    destruct (degenerate_let (EApp rator rands)) as [b|] eqn:D.
    + destruct (degenerate_inv _ _ D) as [X|(x & X)]; injection X as -> ->.
      * destruct (Sub _ _ E (nice_part _ [] b Nf (or_introl eq_refl))) as (H1 & H2). split; [assumption|]. intros y F. apply H2; auto. intros. apply free_app. left. apply free_lam. auto.
      * destruct (Sub _ _ E (Nl b (or_introl eq_refl))) as (H1 & H2). split; [assumption|]. intros y F. apply H2; auto. intros. apply free_app. right. exists b. split; [now left | assumption].
    + destruct (let_view (EApp rator rands)) as [((ids & rands1) & body)|] eqn:V.
      * destruct (let_view_inv _ _ _ _ V) as (X & LL). injection X as -> ->. destruct (mapo (fun e => bsub f e s) rands1) as [rands'|] eqn:M; [|discriminate]. rewrite bs_loop_spec in E. rewrite ?app_nil_r in E.
        set (l := combine ids rands') in *. set (s' := rev (flat_map (entry hc hl body) l) ++ s) in *.
        assert (LL2 : length ids = length rands') by (rewrite LL; eapply Forall2_length'; apply mapo_spec; exact M).
        destruct (SC_list f rands1 s rands' IH M Nl S) as (H1 & H2). destruct Nf as [(ND & Lo) Nb]. specialize (Nb ids body (or_introl eq_refl)).
        assert (S' : nice_sub s').
        { intros x t oh I. apply in_app_iff in I. destruct I as [I|I]; [|now apply (S _ _ _ I)]. apply in_rev in I. apply entry_in in I. destruct I as (r0 & I & Q). assert (Nr := H1 _ (in_combine_r _ _ _ _ I)). split; [apply Lo; apply (in_combine_l _ _ _ _ I)|].
          destruct Q as [(_ & [= -> ->])|(_ & [= -> ->])]; [split; [assumption | discriminate]|]. split; [constructor; [exact Logic.I | intros ? ? []] | intros h [= <-]; assumption]. }
        assert (BD : forall b', bsub f body s' = Some b' -> nice b' /\ forall y, free_in y b' -> In y (map fst (filter (keptb hc hl body) l)) \/ stays y (EApp (ELam ids body) rands1) s).
        { intros b' Eb. destruct (IH _ _ _ Eb Nb S') as (B1 & B2). split; [assumption|]. intros y Fb. apply (let_left ids rands1 rands' body s b'); auto. intros r0 I F. eapply H2; eauto. }
        destruct (map fst (rev (filter (keptb hc hl body) l))) as [|o os] eqn:Os.
        -- destruct (BD _ E) as (B1 & B2). split; [assumption|]. intros y F. destruct (B2 y F) as [I|St]; [|assumption]. exfalso. rewrite map_rev in Os. apply (f_equal (@rev id)) in Os. rewrite rev_involutive in Os. rewrite Os in I. destruct I.
        -- destruct (bsub f body s') as [b'|] eqn:Eb; [|discriminate]. injection E as <-. destruct (BD _ eq_refl) as (B1 & B2).
           assert (Ran : forall a, In a (map snd (rev (filter (keptb hc hl body) l))) -> In a rands').
           { intros a I. apply in_map_iff in I. destruct I as ((x & a1) & X & I). cbn in X. subst a1. apply in_rev in I. apply filter_In in I. destruct I as (I & _). now apply in_combine_r in I. }
           assert (Ids : forall a, In a (o :: os) -> In a ids).
           { intros a I. rewrite <- Os in I. apply in_map_iff in I. destruct I as ((x & a1) & X & I). cbn in X. subst x. apply in_rev in I. apply filter_In in I. destruct I as (I & _). now apply in_combine_l in I. }
           split.
           ++ apply nice_app; [|intros a I; auto]. constructor; [|intros ys q [[= <- <-]|[]]; assumption]. split; [|intros x I; apply Lo; auto].
              rewrite <- Os, map_rev. apply NoDup_rev. clear -ND. revert rands' l ND. induction ids as [|x ids IHi]; intros rands' l ND; [constructor|]. destruct rands' as [|r rands']; [constructor|]. inversion ND as [|? ? NI ND2]; subst.
              unfold l. cbn [combine filter]. destruct (keptb hc hl body (x, r)); [|now apply IHi]. cbn [map fst]. constructor; [|now apply IHi]. intros I. apply NI. apply in_map_iff in I. destruct I as ((y & a) & X & I). cbn in X. subst y.
              apply filter_In in I. destruct I as (I & _). now apply in_combine_l in I.
           ++ intros y F. apply free_app in F. destruct F as [F|(a & I & F)].
              ** apply free_lam in F. destruct F as (NI & F). destruct (B2 y F) as [I|St]; [|assumption]. exfalso. apply NI. rewrite <- Os, map_rev. now apply in_rev in I.
              ** destruct (H2 y a (Ran a I) F) as (b & J & St). eapply stays_sub; [|exact St]. intros. apply free_app. eauto.
      * destruct (bs_head (fun e => bsub f e s) s rator) as [h|] eqn:H; [|discriminate]. destruct (mapo (fun e => bsub f e s) rands) as [l'|] eqn:M; [|discriminate].
        destruct (SC_list f rands s l' IH M Nl S) as (H1 & H2).
        assert (Hh : nice h /\ forall y, free_in y h -> stays y rator s).
        { split; [|intros y F; eapply head_free; [|exact H | exact F]; intros h0 E0; now apply (IH _ _ _ E0 Nf S)].
          destruct rator; cbn [bs_head] in H; try (now apply (IH _ _ _ H Nf S)). destruct (assq x s) as [(t & [h0|])|] eqn:A; injection H as <-; [| |assumption]; apply assq_in in A; destruct (S _ _ _ A) as (_ & S1 & S2); auto. }
        destruct Hh as (Nh & Fh).
        assert (Fr : forall y, free_in y (EApp h l') -> stays y (EApp rator rands) s).
        { intros y F. apply free_app in F. destruct F as [F|(a & I & F)]; [eapply stays_sub; [|apply Fh; exact F]; intros; apply free_app; auto|]. destruct (H2 y a I F) as (b & J & St). eapply stays_sub; [|exact St]. intros. apply free_app. eauto. }
        assert (Nh2 : nice (EApp h l')) by now apply nice_app.
        destruct (let_view (EApp h l')) as [u|]; [|injection E as <-; auto].
        destruct (IH _ _ _ E Nh2 S) as (R1 & R2). split; [assumption|]. intros y F. destruct (R2 y F) as [(St & _)|St]; [auto | now right].
  - destruct (bsub f b s) as [b'|] eqn:Eb; [|discriminate]. injection E as <-. destruct (Sub _ _ Eb (nice_part _ xs b N (or_introl eq_refl))) as (H1 & H2). split.
    + destruct N as [N _]. constructor; [exact N|]. intros ys q [[= <- <-]|[]]. assumption.
    + intros y F. apply free_lam in F. destruct F as (NI & F). apply H2; auto. intros. now apply free_lam.
  - destruct (mapo _ lams) as [lams'|] eqn:M; [|discriminate]. destruct (bsub f b s) as [b'|] eqn:Eb; [|discriminate]. injection E as <-. destruct (Sub _ _ Eb (nice_part _ xs b N (or_introl eq_refl))) as (H1 & H2).
    assert (HL : forall l', In l' lams' -> exists l, In l lams /\ fst l' = fst l /\ nice (snd l') /\ forall y e, (free_in y (snd l) -> free_in y e) -> free_in y (snd l') -> stays y e s).
    { intros l' I. destruct (Forall2_in_r _ _ _ (mapo_spec _ _ _ M) _ I) as (l & J & El). destruct (bsub f (snd l) s) as [a'|] eqn:Ea; [|discriminate]. injection El as <-. exists l. split; [assumption|]. split; [reflexivity|].
      cbn [snd]. apply (Sub _ _ Ea). apply (nice_part _ (xs ++ fst l) _ N). right. apply in_map_iff. eauto. }
    split.
    + constructor; [exact Logic.I|]. intros ys q [[= <- <-]|I]; [assumption|]. apply in_map_iff in I. destruct I as (l' & [= <- <-] & I). destruct (HL _ I) as (l & _ & _ & Q & _). assumption.
    + intros y F. apply free_fix in F. destruct F as (NI & [F|(l' & I & N2 & F)]); [apply H2; auto; intros; apply free_fix; auto|]. destruct (HL _ I) as (l & J & Ef & _ & Q). rewrite Ef in N2. apply Q; [|assumption]. intros. apply free_fix. split; [assumption|]. right. eauto.
  - destruct (bsub f b s) as [b'|] eqn:Eb; [|discriminate]. injection E as <-. destruct (Sub _ _ Eb (nice_part _ [x] b N (or_introl eq_refl))) as (H1 & H2). split.
    + constructor; [exact Logic.I|]. intros ys q [[= <- <-]|[]]. assumption.
    + intros y F. apply free_letcc in F. destruct F as (NI & F). apply H2; auto. intros. now apply free_letcc.
  - destruct (bsub f k s) as [a'|] eqn:Ea; [|discriminate]. destruct (bsub f e s) as [b'|] eqn:Eb; [|discriminate]. injection E as <-.
    destruct (Sub _ _ Ea (nice_part _ [] k N (or_introl eq_refl))) as (A1 & A2). destruct (Sub _ _ Eb (nice_part _ [] e N (or_intror (or_introl eq_refl)))) as (B1 & B2). split.
    + constructor; [exact Logic.I|]. intros ys q [[= <- <-]|[[= <- <-]|[]]]; assumption.
    + intros y F. apply free_with in F. destruct F as [F|F]; [apply A2 | apply B2]; auto; intros; apply free_with; auto.
Qed.
End Free.
