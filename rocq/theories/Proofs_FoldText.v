(** The types that are found in the texts of primitives. *)
From Coq Require Import ZArith String List Bool Lia.
From Verif Require Import Base Model_Lit Model_CStr Model_Core Model_Fold Spec_Sem Spec_Fold Proofs_CStr.
Import ListNotations.
Open Scope Z_scope.

Lemma word_same c : In c word_chars <-> In c (codes "abcdefghijklmnopqrstuvwxyzABCDEFGHIJKLMNOPQRSTUVWXYZ0123456789_").
Proof.
  split; intros I.
  - assert (F : Forall (fun c => In c (codes "abcdefghijklmnopqrstuvwxyzABCDEFGHIJKLMNOPQRSTUVWXYZ0123456789_")) word_chars)
      by (apply Forall_forall; intros x J; vm_compute in J |- *; tauto).
    rewrite Forall_forall in F. auto.
  - assert (F : Forall (fun c => In c word_chars) (codes "abcdefghijklmnopqrstuvwxyzABCDEFGHIJKLMNOPQRSTUVWXYZ0123456789_"))
      by (apply Forall_forall; intros x J; vm_compute in J |- *; tauto).
    rewrite Forall_forall in F. auto.
Qed.
Lemma name_only_ok s t : name_only s = Some t <-> s = t /\ name t.
Proof.
  unfold name_only, word_span, name. destruct (span_ok s word_chars) as (p & q & E & F & H & -> & _). cbn [val_or].
  destruct (Nat.eqb_spec (length s) (length p)) as [L|L].
  - assert (q = []) as -> by (destruct q; [reflexivity|]; rewrite E, app_length in L; cbn in L; lia). rewrite app_nil_r in E. subst p.
    split; [intros [= ->]; split; [reflexivity|]|intros (-> & _); reflexivity]. eapply Forall_impl; [|exact F]. intros c. apply word_same.
  - split; [discriminate|]. intros (-> & N). exfalso. apply L. subst t. rewrite app_length. destruct q as [|c q]; [cbn; lia|]. exfalso. apply H.
    apply Forall_app in N. destruct N as (_ & N). inversion N; subst. now apply word_same.
Qed.
Lemma app_same (a : list Z) : forall a' x y, a ++ x = a' ++ y -> length a = length a' -> a = a' /\ x = y.
Proof.
  induction a as [|c a IH]; intros [|c' a'] x y E L; try discriminate; [auto|]. injection E as -> E. injection L as L. destruct (IH _ _ _ E L) as (-> & ->). auto.
Qed.
Lemma split_unique p s a b a' b' : split_at p s a b -> split_at p s a' b' -> a = a' /\ b = b'.
Proof.
  intros (E & M) (E' & M'). assert (L : length a = length a') by (specialize (M _ _ E'); specialize (M' _ _ E); lia).
  rewrite E in E'. destruct (app_same _ _ _ _ E' L) as (-> & F). split; [reflexivity|]. now apply app_inv_head in F.
Qed.
Lemma after_ok s p r : val_or None (substring_after s p) = Some r <-> exists a, split_at p s a r.
Proof.
  destruct (search_ok s p) as [(a & b & F & _ & _ & ->)|(N & _ & _ & ->)]; cbn [val_or].
  - split; [intros [= <-]; exists a; exact F | intros (a' & F')]. now destruct (split_unique _ _ _ _ _ _ F F') as (_ & ->).
  - split; [discriminate|]. intros (a & E & _). now apply N in E.
Qed.
Lemma before_ok s p r : val_or None (substring_before s p) = Some r <-> exists b, split_at p s r b.
Proof.
  destruct (search_ok s p) as [(a & b & F & _ & -> & _)|(N & _ & -> & _)]; cbn [val_or].
  - split; [intros [= <-]; exists b; exact F | intros (b' & F')]. now destruct (split_unique _ _ _ _ _ _ F F') as (-> & _).
  - split; [discriminate|]. intros (b & E & _). now apply N in E.
Qed.
Lemma suffix_is s p q : val_or None (substring_before_suffix s p) = Some q <-> s = q ++ p.
Proof.
  destruct (suffix_ok s p) as [(q' & -> & ->)|(N & ->)]; cbn [val_or].
  - split; [now intros [= ->] | intros E; apply app_inv_tail in E; now subst].
  - split; [discriminate | intros E; now apply N in E].
Qed.
Lemma between_ok a z p t : ctype_between a z p = Some t <-> name t /\ exists b, split_at a p b (t ++ z).
Proof.
  unfold ctype_between. split.
  - destruct (val_or None (substring_after p a)) as [s|] eqn:A; [|discriminate]. apply after_ok in A. destruct A as (b & A).
    destruct (val_or None (substring_before_suffix s z)) as [q|] eqn:B; [|discriminate]. apply suffix_is in B. intros C. apply name_only_ok in C. destruct C as (<- & N). subst s. eauto.
  - intros (N & b & F). assert (A : val_or None (substring_after p a) = Some (t ++ z)) by (apply after_ok; eauto). rewrite A.
    assert (B : val_or None (substring_before_suffix (t ++ z) z) = Some t) by now apply suffix_is. rewrite B. now apply name_only_ok.
Qed.
Lemma check_ok p t : typecheck_prim_ctype p = Some t <-> check_text t p.
Proof. apply between_ok. Qed.
Lemma assert_ok p t : typeassert_prim_ctype p = Some t <-> assert_text t p.
Proof. apply between_ok. Qed.
Lemma primexp_ok p t : primexp_ctype p = Some t <-> typed_text t p.
Proof.
  unfold primexp_ctype, typed_text. split.
  - destruct (val_or None (substring_before p (codes "("))) as [s|] eqn:A; [|discriminate]. apply before_ok in A. intros N. apply name_only_ok in N. destruct N as (<- & N). auto.
  - intros (N & F). apply before_ok in F. rewrite F. now apply name_only_ok.
Qed.
Lemma spaces_ok s q : val_or [] (substring_after_span s (codes " ")) = q <-> exists b, s = b ++ q /\ Forall (fun c => c = 32) b /\ match q with c :: _ => c <> 32 | [] => True end.
Proof.
  assert (U : forall b q b' q', Forall (fun c => c = 32) b -> Forall (fun c => c = 32) b' -> match q with c :: _ => c <> 32 | [] => True end -> match q' with c :: _ => c <> 32 | [] => True end ->
    b ++ q = b' ++ q' -> q = q').
  { induction b as [|c b IH]; intros q0 b' q' F F' H H' E.
    - destruct F' as [|c' b' X F']; [assumption|]. cbn in E. subst q0 c'. now contradiction H.
    - destruct F' as [|c' b' X F']; inversion F; subst; cbn in E; [subst q'; now contradiction H'|]. injection E as E. apply (IH q0 b' q'); assumption. }
  destruct (span_ok s (codes " ")) as (p & q0 & E & F & H & _ & ->). cbn [val_or].
  assert (F' : Forall (fun c => c = 32) p) by (eapply Forall_impl; [|exact F]; intros c [<-|[]]; reflexivity).
  assert (H' : match q0 with c :: _ => c <> 32 | [] => True end) by (destruct q0; [auto | intros ->; apply H; now left]).
  split; [intros <-; eauto|]. intros (b & E2 & Fb & Hb). subst s. eapply U; [exact F' | exact Fb | assumption..].
Qed.
Lemma returned_ok p q : (exists s, val_or None (substring_after p (codes "$return")) = Some s /\ val_or [] (substring_after_span s (codes " ")) = q) <-> returned p q.
Proof.
  unfold returned. split.
  - intros (s & A & B). apply after_ok in A. destruct A as (a & A). apply spaces_ok in B. destruct B as (b & -> & F & H). eauto.
  - intros (a & b & A & F & H). exists (b ++ q). split; [apply after_ok; eauto | apply spaces_ok; eauto].
Qed.
Lemma result_ok p t : prim_ctype p = Some t <-> result_text t p.
Proof.
  unfold prim_ctype, result_text. split.
  - destruct (val_or None (substring_after p (codes "$return"))) as [s|] eqn:A.
    + assert (Rt : returned p (val_or [] (substring_after_span s (codes " ")))) by (apply returned_ok; eauto).
      destruct (primexp_ctype (val_or [] (substring_after_span s (codes " ")))) as [u|] eqn:B.
      * intros [= <-]. left. apply primexp_ok in B. eauto.
      * intros C. right. split; [|now apply primexp_ok]. intros s' u R' T. apply returned_ok in R'. destruct R' as (s2 & A2 & B2). rewrite A in A2. injection A2 as <-. rewrite B2 in B. apply primexp_ok in T. congruence.
    + intros C. right. split; [|now apply primexp_ok]. intros s' u R' T. apply returned_ok in R'. destruct R' as (s2 & A2 & B2). congruence.
  - intros [(s & R & T)|(N & T)].
    + apply returned_ok in R. destruct R as (s2 & -> & ->). apply primexp_ok in T. now rewrite T.
    + apply primexp_ok in T. destruct (val_or None (substring_after p (codes "$return"))) as [s|] eqn:A; [|exact T].
      destruct (primexp_ctype (val_or [] (substring_after_span s (codes " ")))) as [u|] eqn:B; [|exact T]. apply primexp_ok in B. exfalso. eapply N; [|exact B]. apply returned_ok. eauto.
Qed.
Lemma dull_ok t : dull t = false <-> telling t.
Proof. unfold dull, telling. destruct (zlist_dec t (codes "obj")), (zlist_dec t (codes "void")); cbn; split; try discriminate; try tauto; auto. Qed.
