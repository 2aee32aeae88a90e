From Coq Require Import ZArith List Bool Lia.
From Verif Require Import Base Model_CStr.
Import ListNotations.
Open Scope Z_scope.

Lemma string_ref_app a c b : string_ref (a ++ c :: b) (length a) = Val c.
Proof. unfold string_ref. rewrite nth_error_app2 by lia. rewrite Nat.sub_diag. reflexivity. Qed.

Lemma cmp_loop_ok s p pos : (length p + pos <= length s)%nat -> forall n i, (i + n = length p)%nat ->
  cmp_loop s p pos i n = Val true /\ skipn i p = firstn n (skipn (pos + i) s) \/
  cmp_loop s p pos i n = Val false /\ skipn i p <> firstn n (skipn (pos + i) s).
Proof.
  intros H. induction n as [|n IH]; intros i Hi.
  - left. split; [reflexivity|]. cbn [firstn]. apply skipn_all2. lia.
  - cbn [cmp_loop]. unfold string_ref.
    destruct (nth_error s (pos + i)) as [a|] eqn:Ea; [|apply nth_error_None in Ea; lia].
    destruct (nth_error p i) as [b|] eqn:Eb; [|apply nth_error_None in Eb; lia]. cbn [rbind].
    assert (Sa : skipn (pos + i) s = a :: skipn (pos + S i) s).
    { clear - Ea. replace (pos + S i)%nat with (S (pos + i)) by lia. revert s Ea. generalize (pos + i)%nat. 
      induction n as [|n IH]; intros [|x s] E; try discriminate; cbn [skipn nth_error] in *; [injection E as <-; reflexivity|].
      rewrite (IH _ E). reflexivity. }
    assert (Sb : skipn i p = b :: skipn (S i) p).
    { clear - Eb. revert p Eb. induction i as [|n IH]; intros [|x s] E; try discriminate; cbn [skipn nth_error] in *; [injection E as <-; reflexivity|].
      rewrite (IH _ E). reflexivity. }
    rewrite Sa, Sb. cbn [firstn]. destruct (Z.eqb_spec a b) as [<-|N].
    + destruct (IH (S i) ltac:(lia)) as [[E1 E2]|[E1 E2]]; [left|right]; (split; [exact E1|]); congruence.
    + right. split; [reflexivity|congruence].
Qed.

Lemma at_ok s pos p : exists b, string_contains_at s pos p = Val b /\
  (b = true <-> exists a c, s = a ++ p ++ c /\ length a = pos).
Proof.
  unfold string_contains_at. destruct (Nat.leb_spec (length p + pos) (length s)) as [H|H].
  - destruct (cmp_loop_ok s p pos H (length p) 0 ltac:(lia)) as [[E1 E2]|[E1 E2]]; rewrite Nat.add_0_r in E2; cbn [skipn] in E2; rewrite E1.
    + exists true. split; [reflexivity|]. split; [intros _|reflexivity].
      exists (firstn pos s), (skipn (length p) (skipn pos s)). split; [|apply firstn_length_le; lia].
      rewrite E2 at 1. rewrite (firstn_skipn (length p)), firstn_skipn. reflexivity.
    + exists false. split; [reflexivity|]. split; [discriminate|]. intros (a & c & -> & <-). exfalso. apply E2.
      rewrite skipn_app, skipn_all, Nat.sub_diag. cbn [skipn app]. rewrite firstn_app, firstn_all, Nat.sub_diag. cbn [firstn]. now rewrite app_nil_r.
  - exists false. split; [reflexivity|]. split; [discriminate|]. intros (a & c & -> & <-). rewrite !app_length in H. lia.
Qed.

Lemma starts_ok s p : exists b, string_starts_with s p = Val b /\ (b = true <-> exists q, s = p ++ q).
Proof.
  unfold string_starts_with. destruct (at_ok s 0 p) as (b & E & H). unfold string_contains_at in E. rewrite Nat.add_0_r in E.
  exists b. split; [exact E|]. rewrite H. split.
  - intros (a & c & -> & L). destruct a; [|discriminate]. now exists c.
  - intros (q & ->). now exists [], q.
Qed.

Lemma nth_error_rev_at (s : list Z) i : (i < length s)%nat -> nth_error s (length s - i - 1) = nth_error (rev s) i.
Proof.
  intros H. destruct (nth_error (rev s) i) as [c|] eqn:E.
  2:{ apply nth_error_None in E. rewrite rev_length in E. lia. }
  pose proof (nth_error_nth _ _ 0 E) as X. rewrite rev_nth in X by lia.
  rewrite <- X. replace (length s - i - 1)%nat with (length s - S i)%nat by lia. apply nth_error_nth'. lia.
Qed.
Lemma end_loop_rev s p : (length p <= length s)%nat -> forall n i, (i + n = length p)%nat ->
  end_loop s p i n = cmp_loop (rev s) (rev p) 0 i n.
Proof.
  intros H. induction n as [|n IH]; intros i Hi; [reflexivity|]. cbn [end_loop cmp_loop].
  unfold string_ref. rewrite !nth_error_rev_at by lia. cbn [Nat.add].
  destruct (nth_error (rev s) i); [|reflexivity]. cbn [rbind]. destruct (nth_error (rev p) i); [|reflexivity]. cbn [rbind].
  destruct (_ =? _); [|reflexivity]. apply IH. lia.
Qed.
Lemma ends_ok s p : exists b, string_ends_with s p = Val b /\ (b = true <-> exists q, s = q ++ p).
Proof.
  destruct (starts_ok (rev s) (rev p)) as (b & E & H). exists b. split.
  - rewrite <- E. unfold string_ends_with, string_starts_with. rewrite !rev_length.
    destruct (Nat.leb_spec (length p) (length s)) as [L|L]; [|reflexivity]. apply end_loop_rev; lia.
  - rewrite H. split.
    + intros (q & Eq). exists (rev q). rewrite <- (rev_involutive s), Eq, rev_app_distr, rev_involutive. reflexivity.
    + intros (q & ->). exists (rev q). apply rev_app_distr.
Qed.

Definition occurs (s p a b : list Z) : Prop := s = a ++ p ++ b.
Lemma find_loop_ok s p : forall n pos, (length s < pos + n)%nat -> 
  (forall a b, occurs s p a b -> (pos <= length a)%nat) ->
  (exists a b, find_loop s p pos n = Val (Some (length a)) /\ occurs s p a b /\ forall a' b', occurs s p a' b' -> (length a <= length a')%nat) \/
  (find_loop s p pos n = Val None /\ forall a b, ~ occurs s p a b).
Proof.
  induction n as [|n IH]; intros pos Hn Hp.
  - right. cbn [find_loop]. destruct (Nat.leb_spec (length p + pos) (length s)); [lia|]. split; [reflexivity|].
    intros a b O. specialize (Hp a b O). unfold occurs in O. rewrite O, !app_length in *. lia.
  - cbn [find_loop]. destruct (Nat.leb_spec (length p + pos) (length s)) as [L|L].
    + destruct (at_ok s pos p) as (b & E & Hb). rewrite E. cbn [rbind]. destruct b.
      * left. destruct (proj1 Hb eq_refl) as (a & c & O & La). exists a, c. rewrite La. split; [reflexivity|]. split; [exact O|].
        exact Hp.
      * apply IH; [lia|]. intros a b O. specialize (Hp a b O). destruct (Nat.eq_dec pos (length a)) as [X|X]; [|lia].
        exfalso. assert (false = true) by (apply Hb; exists a, b; auto). discriminate.
    + right. split; [reflexivity|]. intros a b O. specialize (Hp a b O). unfold occurs in O. rewrite O, !app_length in *. lia.
Qed.
Lemma find_ok s p :
  (exists a b, find_first s p = Val (Some (length a)) /\ occurs s p a b /\ forall a' b', occurs s p a' b' -> (length a <= length a')%nat) \/
  (find_first s p = Val None /\ forall a b, ~ occurs s p a b).
Proof.
  unfold find_first. destruct (Nat.leb_spec (length p) (length s)) as [L|L].
  - apply find_loop_ok; [lia|]. intros. lia.
  - right. split; [reflexivity|]. intros a b O. unfold occurs in O. rewrite O, !app_length in L. lia.
Qed.

Lemma substring_mid a b c : substring (a ++ b ++ c) (length a) (length a + length b) = Val b.
Proof.
  unfold substring. rewrite !app_length.
  replace ((length a <=? length a + length b)%nat && (length a + length b <=? length a + (length b + length c))%nat) with true
    by (symmetry; apply andb_true_iff; split; apply Nat.leb_le; lia).
  rewrite skipn_app, skipn_all, Nat.sub_diag. cbn [skipn app].
  replace (length a + length b - length a)%nat with (length b) by lia.
  rewrite firstn_app, firstn_all, Nat.sub_diag. cbn [firstn]. now rewrite app_nil_r.
Qed.
Lemma substring_front a c : substring (a ++ c) 0 (length a) = Val a.
Proof. exact (substring_mid [] a c). Qed.
Lemma substring_back a c : substring (a ++ c) (length a) (length (a ++ c)) = Val c.
Proof. pose proof (substring_mid a c []) as H. rewrite app_nil_r in H. now rewrite app_length. Qed.

(** the first occurrence of [p] in [s] leaves [a] before and [b] after it *)
Definition first_occ (s p a b : list Z) : Prop :=
  s = a ++ p ++ b /\ forall a' b', s = a' ++ p ++ b' -> (length a <= length a')%nat.
Lemma search_ok s p :
  (exists a b, first_occ s p a b /\ string_contains s p = Val true /\
     substring_before s p = Val (Some a) /\ substring_after s p = Val (Some b)) \/
  ((forall a b, s <> a ++ p ++ b) /\ string_contains s p = Val false /\
     substring_before s p = Val None /\ substring_after s p = Val None).
Proof.
  unfold string_contains, substring_before, substring_after.
  destruct (find_ok s p) as [(a & b & E & O & M)|[E N]]; rewrite E; cbn [rbind].
  - left. exists a, b. split; [split; [exact O|exact M]|]. split; [reflexivity|]. unfold occurs in O. subst s.
    rewrite substring_front. split; [reflexivity|]. rewrite app_assoc. rewrite <- app_length, substring_back. reflexivity.
  - right. repeat split; auto.
Qed.

Lemma suffix_ok s p :
  (exists q, s = q ++ p /\ substring_before_suffix s p = Val (Some q)) \/
  ((forall q, s <> q ++ p) /\ substring_before_suffix s p = Val None).
Proof.
  unfold substring_before_suffix. destruct (ends_ok s p) as ([|] & E & H); rewrite E; cbn [rbind].
  - left. destruct (proj1 H eq_refl) as (q & ->). exists q. split; [reflexivity|].
    rewrite app_length. replace (length q + length p - length p)%nat with (length q) by lia. now rewrite substring_front.
  - right. split; [|reflexivity]. intros q X. assert (false = true) by (apply H; now exists q). discriminate.
Qed.
Lemma prefix_ok s p :
  (exists q, s = p ++ q /\ substring_after_prefix s p = Val (Some q)) \/
  ((forall q, s <> p ++ q) /\ substring_after_prefix s p = Val None).
Proof.
  unfold substring_after_prefix. destruct (starts_ok s p) as ([|] & E & H); rewrite E; cbn [rbind].
  - left. destruct (proj1 H eq_refl) as (q & ->). exists q. split; [reflexivity|]. now rewrite substring_back.
  - right. split; [|reflexivity]. intros q X. assert (false = true) by (apply H; now exists q). discriminate.
Qed.

Lemma member_loop_ok c s : forall n pos, (pos + n = length s)%nat ->
  exists b, member_loop c s pos n = Val b /\ (b = true <-> In c (skipn pos s)).
Proof.
  induction n as [|n IH]; intros pos H.
  - exists false. split; [reflexivity|]. rewrite skipn_all2 by lia. split; [discriminate|intros []].
  - cbn [member_loop]. unfold string_ref. destruct (nth_error s pos) as [d|] eqn:E; [|apply nth_error_None in E; lia]. cbn [rbind].
    assert (S1 : skipn pos s = d :: skipn (S pos) s).
    { clear - E. revert s E. induction pos as [|n IH]; intros [|x s] E; try discriminate; cbn [skipn nth_error] in *; [injection E as <-; reflexivity|].
      rewrite (IH _ E). reflexivity. }
    rewrite S1. destruct (Z.eqb_spec c d) as [->|N].
    + exists true. split; [reflexivity|]. split; [intros _; now left|reflexivity].
    + destruct (IH (S pos) ltac:(lia)) as (b & Eb & Hb). exists b. split; [exact Eb|]. rewrite Hb. cbn [In]. intuition congruence.
Qed.
Lemma member_ok c s : exists b, string_member c s = Val b /\ (b = true <-> In c s).
Proof. exact (member_loop_ok c s (length s) 0 eq_refl). Qed.

Lemma span_loop_ok cs : forall n a s, length s = n -> exists p q, s = p ++ q /\ Forall (fun c => In c cs) p /\
  match q with c :: _ => ~ In c cs | [] => True end /\ span_loop (a ++ s) cs (length a) n = Val (length a + length p)%nat.
Proof.
  induction n as [|n IH]; intros a s H.
  - destruct s; [|discriminate]. exists [], []. repeat split; [constructor|]. cbn [span_loop length]. f_equal. lia.
  - destruct s as [|c s]; [discriminate|]. cbn [length] in H. cbn [span_loop]. rewrite string_ref_app. cbn [rbind].
    destruct (member_ok c cs) as ([|] & E & Hb); rewrite E; cbn [rbind].
    + destruct (IH (a ++ [c]) s ltac:(lia)) as (p & q & -> & F & Q & E2). exists (c :: p), q. split; [reflexivity|].
      split; [constructor; [now apply Hb|exact F]|]. split; [exact Q|]. rewrite <- app_assoc in E2. cbn [app] in E2.
      rewrite app_length in E2. cbn [length] in E2. replace (length a + 1)%nat with (S (length a)) in E2 by lia. rewrite E2.
      cbn [length]. f_equal. lia.
    + exists [], (c :: s). split; [reflexivity|]. split; [constructor|]. split; [intros X; apply Hb in X; discriminate|].
      cbn [length]. f_equal. lia.
Qed.
Lemma span_ok s cs : exists p q, s = p ++ q /\ Forall (fun c => In c cs) p /\
  match q with c :: _ => ~ In c cs | [] => True end /\ string_span s cs = Val (length p) /\ substring_after_span s cs = Val q.
Proof.
  destruct (span_loop_ok cs (length s) [] s eq_refl) as (p & q & E & F & Q & E2). exists p, q.
  cbn [app length Nat.add] in E2. unfold substring_after_span, string_span. rewrite E2. cbn [rbind].
  repeat split; auto. destruct (Nat.eqb_spec (length p) 0) as [L|L].
  - destruct p; [|discriminate]. now rewrite E.
  - rewrite E. apply substring_back.
Qed.
