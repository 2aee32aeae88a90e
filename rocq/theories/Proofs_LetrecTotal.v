(** Fixing letrecs: when the pass succeeds. *)
From Coq Require Import ZArith String List Bool Lia Permutation.
From Verif Require Import Base Model_Lit Model_Core Model_Letrec Spec_Sem Spec_Free Spec_Scope Spec_Beta Spec_Letrec Proofs_Sim Proofs_Core Proofs_Free.
From Verif Require Import Proofs_BetaFree Proofs_Letrec Proofs_LetrecFix Proofs_LetrecAll Proofs_LetrecScope.
Import ListNotations.
Open Scope Z_scope.

(** ** The test *)
Lemma assignees_UB all : forall f ts c, (length ts < f)%nat -> (assignees f all ts c = UB <-> excess all ts c).
Proof.
  induction f as [|f IH]; intros ts c Lf; [lia|]. cbn [assignees]. destruct ts as [|t ts].
  - destruct (void_expp c) eqn:V.
    + split; [discriminate|]. inversion 1; subst. discriminate.
    + destruct (begin_view c) as [(e1 & e2)|] eqn:B.
      * pose proof B as B'. apply begin_view_iff in B'. destruct B' as (d & -> & N). destruct e1 as [|x e| | | | | | |]; try (split; [discriminate | inversion 1]).
        destruct e; try (split; [discriminate | inversion 1]). split; [intros _; now constructor | reflexivity].
      * split; [discriminate|]. inversion 1 as [y v d c0 N|]; subst. rewrite (proj2 (begin_view_iff _ _ _) (ex_intro _ d (conj eq_refl N))) in B. discriminate.
  - cbn [length] in Lf. destruct (begin_view c) as [(e1 & e2)|] eqn:B.
    + pose proof B as B'. apply begin_view_iff in B'. destruct B' as (d & -> & N). destruct e1 as [|x e| | | | | | |]; try (split; [discriminate | inversion 1]).
      destruct e as [y| | | | | | | |]; try (split; [discriminate | inversion 1]). destruct (id_eqb y t) eqn:Q; cbn [andb]; [apply id_eqb_eq in Q; subst y|].
      * destruct (memq x all) eqn:M; cbn [negb].
        -- split; [discriminate|]. inversion 1; subst. assert (memq x all = false) by (now apply memq_not_In). congruence.
        -- apply memq_not_In in M. specialize (IH ts e2 ltac:(lia)). destruct (assignees f all ts e2) as [[r|]|] eqn:A.
           ++ split; [discriminate|]. inversion 1; subst. assert (Val (Some r) = UB) by tauto. discriminate.
           ++ split; [discriminate|]. inversion 1; subst. assert (@Val (option (list id)) None = UB) by tauto. discriminate.
           ++ split; [|reflexivity]. intros _. constructor; [assumption | assumption | now apply IH].
      * split; [discriminate|]. inversion 1; subst. rewrite id_eqb_refl in Q. discriminate.
    + split; [discriminate|]. inversion 1 as [|x t0 ts0 d c0 M N X]; subst. rewrite (proj2 (begin_view_iff _ _ _) (ex_intro _ d (conj eq_refl N))) in B. discriminate.
Qed.
Lemma letrec_view_UB e : letrec_view e = UB <-> overrun e.
Proof.
  unfold letrec_view. split.
  - destruct (let_view e) as [((ids & rands) & c)|] eqn:V; [|discriminate]. apply let_view_eq in V. destruct V as (-> & L). destruct ids as [|x ids]; [discriminate|].
    destruct (forallb void_expp rands) eqn:F; [|discriminate]. destruct (begin_view c) as [(e1 & e2)|] eqn:B; [|discriminate]. apply begin_view_iff in B. destruct B as (d & -> & N).
    unfold varassigns_view. destruct (let_view e1) as [((tmps & es) & l)|] eqn:V; [|discriminate]. apply let_view_eq in V. destruct V as (-> & L2).
    destruct (assignees (S (length tmps)) tmps tmps l) as [[r|]|] eqn:A; try discriminate. intros _. constructor; auto.
    + intros a I. rewrite forallb_forall in F. apply void_place. auto.
    + apply (assignees_UB tmps (S (length tmps))); [lia | assumption].
  - intros [x ids rands tmps l es d b L Pl L2 N X]. rewrite let_view_let by assumption. assert (F : forallb void_expp rands = true) by (apply forallb_forall; intros a I; apply void_place; auto). rewrite F.
    rewrite (proj2 (begin_view_iff _ _ _) (ex_intro _ d (conj eq_refl N))). unfold varassigns_view. rewrite let_view_let by assumption. rewrite (proj2 (assignees_UB tmps (S (length tmps)) tmps l ltac:(lia)) X). reflexivity.
Qed.
Lemma overrun_fails e : overrun e -> forall f n, fixl f e n = None.
Proof.
  intros O [|f] n; [reflexivity|]. pose proof (proj2 (letrec_view_UB e) O) as U. inversion O as [x ids rands tmps l es d b L Pl L2 N X]; subst. cbn [fixl].
  assert (D : degenerate_let (EApp (ELam (x :: ids) (EApp (ELam [d] b) [EApp (ELam tmps l) es])) rands) = None) by (cbn; destruct ids; reflexivity). rewrite D, U. reflexivity.
Qed.

(** ** Procedures *)
Lemma all_lams_some l : (forall e, In e l -> is_lam e = true) -> exists ls, all_lams l = Some ls.
Proof.
  induction l as [|e l IH]; intros H; [eexists; reflexivity|]. cbn [all_lams]. destruct IH as (ls & E); [intros a I; apply H; now right|]. rewrite E.
  specialize (H e (or_introl eq_refl)). destruct e; try discriminate. eexists. reflexivity.
Qed.
Lemma map2_exps (g : id -> exp -> kind) xs : forall l, incl (map b_exp (map2 (fun x e => mkbnd (g x e) x e) xs l)) l.
Proof. induction xs as [|x xs IH]; intros [|e l]; cbn [map2 map]; try (intros z J; destruct J; fail). intros z [<-|J]; [now left | right; apply (IH l); assumption]. Qed.
Lemma map2_len {A B C} (g : A -> B -> C) l : forall l', (length (map2 g l l') <= length l)%nat.
Proof. induction l as [|a l IH]; intros [|b l']; cbn; try lia. specialize (IH l'). lia. Qed.
Lemma refix_some body : forall f ids lams, (length ids < f)%nat -> (forall e, In e lams -> is_lam e = true) -> exists T, refix f ids lams body = Some T.
Proof.
  induction f as [|f IH]; intros ids lams Lf H; [lia|]. cbn [refix]. set (bs := map2 _ ids lams).
  assert (Lb : (length bs <= length ids)%nat) by apply map2_len.
  assert (Ls : (length (of_kind KS bs) + length (of_kind KL bs) <= length bs)%nat). { clear. unfold of_kind. induction bs as [|b l IHl]; [cbn; lia|]. cbn [filter]. destruct (b_kind b); cbn [kind_eqb length] in *; lia. }
  destruct (of_kind KS bs) as [|s sb] eqn:Es.
  - destruct (of_kind KL bs) as [|? ?]; [eexists; reflexivity|]. destruct (all_lams_some lams H) as (ls & ->). eexists. reflexivity.
  - destruct (IH (map b_id (of_kind KL bs)) (map b_exp (of_kind KL bs))) as (T & E).
    + rewrite map_length. cbn [length] in Ls. lia.
    + intros e I. apply H. apply (map2_exps (fun x e => if free_of ids e then KS else KL) ids lams). apply in_map_iff in I. destruct I as (b & <- & I). apply kind_In in I. apply in_map. apply I.
    + destruct (of_kind KL bs); rewrite E; eexists; reflexivity.
Qed.

(** ** All expressions *)
Definition fine_here (e : exp) : Prop := (forall xs ls b, e <> EFix xs ls b) /\ ~ overrun e.
Definition works (f : nat) (e : exp) : Prop := forall n, exists r, fixl f e n = Some r.
Lemma each_works f l : (forall e, In e l -> works f e) -> forall n, exists l' n', each (fixl f) l n = Some (l', n') /\ Forall2 (fun e e' => is_lam e = true -> is_lam e' = true) l l'.
Proof.
  induction l as [|e l IH]; intros H n; [exists [], n; split; [reflexivity | constructor]|]. cbn [each]. destruct (H e (or_introl eq_refl) n) as ((e' & n1) & E). rewrite E.
  destruct (IH (fun a I => H a (or_intror I)) n1) as (l' & n2 & E2 & F). rewrite E2. exists (e' :: l'), n2. split; [reflexivity|]. constructor; [|assumption].
  destruct e as [| | | | |xs b| | |]; try discriminate. intros _. destruct f; [discriminate|]. cbn [fixl degenerate_let letrec_view letrecs_view let_view] in E. destruct (fixl f b n) as [(b' & m)|]; [|discriminate]. injection E as <- <-. reflexivity.
Qed.
Lemma depth_part ys a e : In (ys, a) (parts e) -> (exp_depth a < exp_depth e)%nat.
Proof.
  assert (M : forall l, In a l -> (exp_depth a <= fold_right (fun e d => Nat.max (exp_depth e) d) O l)%nat). { induction l as [|z l IH]; [intros []|]. cbn [fold_right]. intros [->|I]; [lia|]. specialize (IH I). lia. }
  destruct e as [x|x e|p b c|ef p l|g l|xs b|xs ls b|x b|k e]; cbn [parts exp_depth].
  - intros [].
  - intros [[= <- <-]|[]]. lia.
  - intros [[= <- <-]|[[= <- <-]|[[= <- <-]|[]]]]; lia.
  - intros I. apply in_map_iff in I. destruct I as (z & [= <- <-] & I). specialize (M l I). lia.
  - intros [[= <- <-]|I]; [lia|]. apply in_map_iff in I. destruct I as (z & [= <- <-] & I). specialize (M l I). lia.
  - intros [[= <- <-]|[]]. lia.
  - intros I. assert (Q : (exp_depth a <= Nat.max (exp_depth b) (fold_right (fun l d => Nat.max (exp_depth (snd l)) d) O ls))%nat); [|lia].
    cbn in I. destruct I as [[= <- <-]|I]; [lia|]. apply in_map_iff in I. destruct I as (z & [= <- <-] & I). clear M. induction ls as [|y ls IH]; [destruct I|]. cbn [fold_right]. destruct I as [->|I]; [lia|]. specialize (IH I). lia.
  - intros [[= <- <-]|[]]. lia.
  - intros [[= <- <-]|[[= <- <-]|[]]]; lia.
Qed.
(** [a] lies inside [c] *)
Lemma chain_inside Q ids es b c : chain ids es b c -> every Q c -> forall a, In a (es ++ [b]) -> every Q a /\ (exp_depth a <= exp_depth c)%nat.
Proof.
  induction 1 as [b|y xs e es b d c C IH Nd]; intros E a I.
  - destruct I as [->|[]]. auto.
  - inversion E as [_ E1]; subst. pose proof (E1 [] (ELam [d] c) (or_introl eq_refl)) as E2. inversion E2 as [_ E3]; subst. pose proof (E3 [d] c (or_introl eq_refl)) as E4.
    pose proof (E1 [] (ESet y e) (or_intror (or_introl eq_refl))) as E5. inversion E5 as [_ E6]; subst. destruct I as [<-|I].
    + split; [apply (E6 []); now left|]. cbn [exp_depth fold_right]. lia.
    + destruct (IH E4 a I) as (A & B). split; [assumption|]. cbn [exp_depth fold_right]. lia.
Qed.
Lemma stored_inside Q z ids es b c : stored z ids es b c -> every Q c -> forall a, In a (es ++ [b]) -> every Q a /\ (exp_depth a <= exp_depth c)%nat.
Proof.
  intros [tmps l d S N] E a I. inversion E as [_ E1]; subst. pose proof (E1 [] (ELam [d] b) (or_introl eq_refl)) as E2. inversion E2 as [_ E3]; subst. pose proof (E3 [d] b (or_introl eq_refl)) as E4.
  pose proof (E1 [] (EApp (ELam tmps l) es) (or_intror (or_introl eq_refl))) as E5. inversion E5 as [_ E6]; subst. apply in_app_iff in I. destruct I as [I|[<-|[]]].
  - assert (J : In ([], a) (parts (EApp (ELam tmps l) es))) by (right; now apply (in_map (fun e => ([], e)))). split; [now apply (E6 [])|]. apply depth_part in J.
    assert (J2 : In ([], EApp (ELam tmps l) es) (parts (EApp (ELam [d] b) [EApp (ELam tmps l) es]))) by (right; now left). apply depth_part in J2. lia.
  - split; [assumption|]. cbn [exp_depth]. lia.
Qed.
Lemma group_works f ids es b rest n : length ids = length es -> (forall a, In a es -> works f a) ->
  let bs := classify_bindings ids es b in (forall m, exists r, rest m = Some r) -> exists r, bind_first (fixl f) bs rest n = Some r.
Proof.
  intros Len W bs R. destruct (classify_all ids es b Len) as (Ei & Ee & Cl). fold bs in Ei, Ee, Cl. unfold bind_first.
  assert (Wk : forall k e, In e (map b_exp (of_kind k bs)) -> works f e). { intros k e I. apply W. rewrite <- Ee. apply in_map_iff in I. destruct I as (d & <- & I). apply kind_In in I. apply in_map. apply I. }
  destruct (each_works f (map b_exp (of_kind KS bs)) (Wk KS) n) as (ss & n1 & E1 & _). rewrite E1.
  destruct (each_works f (map b_exp (of_kind KL bs)) (Wk KL) n1) as (ls & n2 & E2 & F2). rewrite E2.
  destruct (R n2) as ((r & n3) & E3). rewrite E3. destruct (refix_some r (S (length (of_kind KL bs))) (map b_id (of_kind KL bs)) ls) as (T & E4); [rewrite map_length; lia | |rewrite E4; eexists; reflexivity].
  intros e I. assert (Lm : forall a, In a (map b_exp (of_kind KL bs)) -> is_lam a = true).
  { intros a J. apply in_map_iff in J. destruct J as (d & <- & J). apply kind_In in J. destruct J as (J & K). destruct (Cl d J) as (Q & _). destruct Q as [Q|Q|Q NA Q2|Q|Q]; try congruence; assumption. }
  clear - F2 I Lm. induction F2 as [|a a' l l' Fa Fl IH]; [destruct I|]. destruct I as [<-|I]; [apply Fa, Lm; now left | apply IH; [assumption | intros z J; apply Lm; now right]].
Qed.
Lemma in_order_works f b : works f b -> forall l, (forall d, In d l -> works f (b_exp d)) -> forall n, exists r, in_order (fixl f) l b n = Some r.
Proof.
  intros Wb. induction l as [|d l IH]; intros W n; cbn [in_order]; [apply Wb|]. destruct (W d (or_introl eq_refl) n) as ((e' & n1) & E). rewrite E.
  destruct (IH (fun a I => W a (or_intror I)) n1) as ((r & n2) & E2). rewrite E2. eexists. reflexivity.
Qed.
Lemma letrec_rest_works f cs us b : works f b -> (forall d, In d cs \/ In d us -> works f (b_exp d)) -> forall n, exists r, letrec_rest (fixl f) cs us b n = Some r.
Proof.
  intros Wb W n. unfold letrec_rest. assert (Wm : forall l, (forall d, In d l -> In d cs \/ In d us) -> forall e, In e (map b_exp l) -> works f e) by (intros l H e I; apply in_map_iff in I; destruct I as (d & <- & I); auto).
  match goal with |- context [match ?q with Some _ => _ | None => None end] => assert (Q : exists r, q = Some r) end.
  { destruct cs as [|c0 cs0]; [apply Wb|]. destruct (each_works f (map b_exp (c0 :: cs0)) (Wm (c0 :: cs0) (fun d I => or_introl I)) n) as (rs & n1 & E & _). rewrite E. destruct (varassigns_exp _ _ _) as (e1 & n2). destruct (Wb n2) as ((b' & n3) & E2). rewrite E2. eexists. reflexivity. }
  destruct Q as ((s & n1) & ->). destruct (each_works f (map b_exp us) (Wm us (fun d I => or_intror I)) n1) as (us' & n2 & E & _). rewrite E. eexists. reflexivity.
Qed.
Theorem fixl_works : forall f e, (exp_depth e <= f)%nat -> every fine_here e -> works f e.
Proof.
  induction f as [|f IH]; intros e Lf E n; [destruct e; cbn in Lf; lia|].
  assert (Pt : forall ys a, In (ys, a) (parts e) -> works f a). { intros ys a I. apply IH; [apply depth_part in I; lia | inversion E as [_ E1]; eauto]. }
  assert (H0 : fine_here e) by (inversion E; assumption). destruct H0 as (NF & NO).
  destruct e as [x|x e|a b c|ef p l|g l|xs b|xs ls b|x b|k e].
  - eexists. reflexivity.
  - cbn [fixl]. destruct (Pt [] e (or_introl eq_refl) n) as ((r & m) & ->). eexists. reflexivity.
  - cbn [fixl]. destruct (each_works f [a; b; c]) with (n := n) as (l & m & Q & F2); [intros z [<-|[<-|[<-|[]]]]; apply (Pt []); cbn; auto|]. rewrite Q.
    inversion F2 as [|? ? ? ? _ F3]; subst. inversion F3 as [|? ? ? ? _ F4]; subst. inversion F4 as [|? ? ? ? _ F5]; subst. inversion F5; subst. eexists. reflexivity.
  - cbn [fixl degenerate_let letrec_view letrecs_view let_view]. destruct (each_works f l) with (n := n) as (l' & m & Q & F2); [intros z I; apply (Pt []); now apply (in_map (fun e => ([], e)))|]. rewrite Q. eexists. reflexivity.
  - cbn [fixl]. destruct (degenerate_let (EApp g l)) as [b0|] eqn:Dg.
    + destruct (degenerate_inv _ _ Dg) as [[= -> ->]|(x & [= -> ->])].
      * apply IH; [cbn [exp_depth fold_right] in Lf; lia|]. inversion E as [_ E1]; subst. specialize (E1 [] (ELam [] b0) (or_introl eq_refl)). inversion E1 as [_ E2]; subst. apply (E2 []). now left.
      * apply (Pt []). right. now left.
    + destruct (letrec_view (EApp g l)) as [[((ids & es) & b)|]|] eqn:Lv.
      * pose proof (letrec_view_len _ _ _ _ Lv) as Len. destruct (letrec_view_sound _ _ _ _ Lv) as (c & rands & z & [= -> ->] & _ & _ & _ & _ & St).
        assert (Ec : every fine_here c). { inversion E as [_ E1]; subst. specialize (E1 [] (ELam ids c) (or_introl eq_refl)). inversion E1 as [_ E2]; subst. apply (E2 ids). now left. }
        assert (W : forall a, In a (es ++ [b]) -> works f a). { intros a I. destruct (stored_inside _ _ _ _ _ _ St Ec a I) as (A & B). apply IH; [cbn [exp_depth] in Lf; lia | assumption]. }
        apply group_works; [assumption | intros a I; apply W, in_app_iff; now left|]. apply letrec_rest_works; [apply W, in_app_iff; right; now left|].
        destruct (classify_all ids es b Len) as (Ei & Ee & Cl). intros d I. apply W, in_app_iff. left. rewrite <- Ee. apply in_map. destruct I as [I|I]; apply kind_In in I; apply I.
      * destruct (letrecs_view (EApp g l)) as [((ids & es) & b)|] eqn:Ls.
        -- destruct (letrecs_view_sound _ _ _ _ Ls) as (c & rands & [= -> ->] & _ & _ & _ & St). pose proof (chain_len _ _ _ _ St) as Len.
           assert (Ec : every fine_here c). { inversion E as [_ E1]; subst. specialize (E1 [] (ELam ids c) (or_introl eq_refl)). inversion E1 as [_ E2]; subst. apply (E2 ids). now left. }
           assert (W : forall a, In a (es ++ [b]) -> works f a). { intros a I. destruct (chain_inside _ _ _ _ _ St Ec a I) as (A & B). apply IH; [cbn [exp_depth] in Lf; lia | assumption]. }
           apply group_works; [assumption | intros a I; apply W, in_app_iff; now left|]. apply in_order_works; [apply W, in_app_iff; right; now left|].
           destruct (classify_all ids es b Len) as (Ei & Ee & Cl). intros d I. apply filter_In in I. apply W, in_app_iff. left. rewrite <- Ee. apply in_map. apply I.
        -- destruct (each_works f (g :: l)) with (n := n) as (l' & m & Q & F2); [intros z [<-|I]; apply (Pt []); [now left | right; now apply (in_map (fun e => ([], e)))]|]. rewrite Q.
           inversion F2; subst. eexists. reflexivity.
      * destruct NO. now apply letrec_view_UB.
  - cbn [fixl degenerate_let letrec_view letrecs_view let_view]. destruct (Pt xs b (or_introl eq_refl) n) as ((r & m) & ->). eexists. reflexivity.
  - destruct (NF xs ls b eq_refl).
  - cbn [fixl degenerate_let letrec_view letrecs_view let_view]. destruct (Pt [x] b (or_introl eq_refl) n) as ((r & m) & ->). eexists. reflexivity.
  - cbn [fixl degenerate_let letrec_view letrecs_view let_view]. destruct (each_works f [k; e]) with (n := n) as (l & m & Q & F2); [intros z [<-|[<-|[]]]; apply (Pt []); cbn; auto|]. rewrite Q.
    inversion F2 as [|? ? ? ? _ F3]; subst. inversion F3 as [|? ? ? ? _ F4]; subst. inversion F4; subst. eexists. reflexivity.
Qed.
