From Coq Require Import ZArith List Bool Lia.
From Verif Require Import Base Model_Str Spec_Str.
Import ListNotations.
Open Scope Z_scope.

(** ** memory *)
Lemma put_app : forall p x q c, put (p ++ x :: q) (length p) c = SVal (p ++ c :: q).
Proof. induction p as [|a p IH]; intros x q c; cbn [app length put]; [reflexivity|]. now rewrite IH. Qed.
Lemma setb_app : forall p x q c, setb (p ++ x :: q) (Z.of_nat (length p)) c = SVal (p ++ Some (byte c) :: q).
Proof.
  intros p x q c. unfold setb. destruct (Z.ltb_spec (Z.of_nat (length p)) 0); [lia|].
  rewrite Nat2Z.id. apply put_app.
Qed.
Lemma setb_at : forall p x q c i, i = Z.of_nat (length p) -> setb (p ++ x :: q) i c = SVal (p ++ Some (byte c) :: q).
Proof. intros p x q c i ->. apply setb_app. Qed.
Lemma memset_app : forall q p r c, memset (p ++ q ++ r) (Z.of_nat (length p)) c (length q)
  = SVal (p ++ repeat (Some (byte c)) (length q) ++ r).
Proof.
  induction q as [|x q IH]; intros p r c; cbn [length memset repeat app]; [reflexivity|].
  rewrite setb_app. cbn [sbind].
  replace (p ++ Some (byte c) :: q ++ r) with ((p ++ [Some (byte c)]) ++ q ++ r) by (rewrite <- app_assoc; reflexivity).
  replace (Z.of_nat (length p) + 1) with (Z.of_nat (length (p ++ [Some (byte c)]))) by (rewrite app_length; cbn; lia).
  rewrite IH, <- app_assoc. reflexivity.
Qed.
Lemma memcpy_app : forall m q p r a z, length q = length m ->
  memcpy (p ++ q ++ r) (Z.of_nat (length p)) (a ++ m ++ z) (Z.of_nat (length a)) (length m) = SVal (p ++ m ++ r).
Proof.
  induction m as [|x m IH]; intros q p r a z L; destruct q as [|y q]; try discriminate L; cbn [length memcpy app]; [reflexivity|].
  cbn [length] in L.
  destruct (Z.ltb_spec (Z.of_nat (length a)) 0); [lia|]. destruct (Z.ltb_spec (Z.of_nat (length p)) 0); [lia|].
  cbn [orb]. rewrite !Nat2Z.id. rewrite nth_error_app2, Nat.sub_diag by lia. cbn [nth_error].
  rewrite put_app. cbn [sbind].
  replace (p ++ x :: q ++ r) with ((p ++ [x]) ++ q ++ r) by (rewrite <- app_assoc; reflexivity).
  replace (a ++ x :: m ++ z) with ((a ++ [x]) ++ m ++ z) by (rewrite <- app_assoc; reflexivity).
  replace (Z.of_nat (length p) + 1) with (Z.of_nat (length (p ++ [x]))) by (rewrite app_length; cbn; lia).
  replace (Z.of_nat (length a) + 1) with (Z.of_nat (length (a ++ [x]))) by (rewrite app_length; cbn; lia).
  rewrite IH by lia. rewrite <- app_assoc. reflexivity.
Qed.
Lemma malloc_ok : forall n, 0 <= n -> exists q x, malloc n = SVal (q ++ [x]) /\ length q = Z.to_nat n.
Proof.
  intros n L. exists (repeat None (Z.to_nat n)), None. unfold malloc. destruct (Z.ltb_spec n (-1)); [lia|].
  rewrite repeat_length. split; [|reflexivity]. f_equal.
  replace (Z.to_nat (n + 1)) with (S (Z.to_nat n)) by lia. rewrite <- repeat_cons. reflexivity.
Qed.
Lemma char_byte : forall c, char (byte c).
Proof. intros c. unfold char, byte. pose proof (Z.mod_pos_bound c 256). lia. Qed.
Lemma byte_char : forall c, char c -> byte c = c.
Proof. intros c H. unfold char in H. unfold byte. apply Z.mod_small. lia. Qed.
Lemma map_repeat : forall (A B : Type) (f : A -> B) a n, map f (repeat a n) = repeat (f a) n.
Proof. induction n; cbn; congruence. Qed.
Lemma Forall_repeat : forall (A : Type) (P : A -> Prop) a n, P a -> Forall P (repeat a n).
Proof. induction n; cbn; constructor; auto. Qed.
Lemma ckint_ok : forall z, INT_MIN <= z <= INT_MAX -> ckint z = SVal z.
Proof.
  intros z H. unfold ckint. destruct (Z.leb_spec INT_MIN z); [|lia]. destruct (Z.leb_spec z INT_MAX); [|lia]. reflexivity.
Qed.

(** ** constructors *)
Lemma strlen_nul : forall s r, strlen (map Some s ++ Some 0 :: r) = SVal (Z.of_nat (length (upto_nul s))).
Proof.
  induction s as [|c s IH]; intros r; cbn [map app strlen upto_nul length]; [reflexivity|].
  destruct (Z.eqb_spec c 0); [reflexivity|]. rewrite IH. cbn [sbind length]. f_equal. lia.
Qed.
Lemma upto_nul_split : forall s, exists r, map Some s ++ [Some 0] = (map Some (upto_nul s) ++ [Some 0]) ++ r.
Proof.
  induction s as [|c s IH]; cbn [map app upto_nul]; [now exists []|].
  destruct (Z.eqb_spec c 0) as [->|N]; [exists (map Some s ++ [Some 0]); reflexivity|].
  destruct IH as [r IH]. exists r. cbn [map app]. rewrite IH. reflexivity.
Qed.
Lemma upto_nul_char : forall s, Forall char s -> Forall char (upto_nul s).
Proof. induction 1; cbn [upto_nul]; [constructor|]. destruct (x =? 0); constructor; auto. Qed.
Lemma newstring_ok : forall s, Forall char s -> exists b, newstring (map Some s ++ [Some 0]) = SVal b /\ holds b (upto_nul s).
Proof.
  intros s F. unfold newstring. rewrite strlen_nul. cbn [sbind].
  set (l := Z.of_nat (length (upto_nul s))).
  destruct (malloc_ok l ltac:(unfold l; lia)) as [q [x [M L]]]. rewrite M. cbn [sbind].
  destruct (upto_nul_split s) as [r E]. rewrite E.
  pose proof (memcpy_app (map Some (upto_nul s) ++ [Some 0]) (q ++ [x]) [] [] [] r) as MC.
  cbn [app length] in MC. rewrite app_nil_r in MC.
  replace (Z.to_nat (l + 1)) with (length (map Some (upto_nul s) ++ [Some 0])) by (rewrite app_length, map_length; cbn [length]; unfold l; lia).
  change 0 with (Z.of_nat 0) in MC. change (memcpy (q ++ [x]) 0) with (memcpy (q ++ [x]) (Z.of_nat 0)).
  cbn [Z.of_nat] in *. rewrite MC by (rewrite !app_length, map_length, L; cbn [length]; unfold l; lia).
  cbn [sbind]. eexists. split; [reflexivity|]. split; [apply upto_nul_char, F|]. split; [reflexivity|].
  cbn [b_bytes]. now rewrite app_nil_r.
Qed.
Lemma alloc_core : forall q x n c, length q = Z.to_nat n -> 0 <= n ->
  sbind (memset (q ++ [x]) 0 c (Z.to_nat n)) (fun d1 => sbind (setb d1 n 0) (fun d2 => SVal (mkblk n d2)))
  = SVal (mkblk n (map Some (repeat (byte c) (Z.to_nat n)) ++ [Some 0])).
Proof.
  intros q x n c L Ln. pose proof (memset_app q [] [x] c) as MS. cbn [app length] in MS. change (Z.of_nat 0) with 0 in MS.
  rewrite <- L. rewrite MS. cbn [sbind].
  rewrite setb_at by (rewrite repeat_length; lia). cbn [sbind]. rewrite map_repeat. reflexivity.
Qed.
Lemma allocstring_ok : forall n c, 0 <= n < INT_MAX -> exists b, allocstring n c = SVal b /\ holds b (repeat (byte c) (Z.to_nat n)).
Proof.
  intros n c H. unfold allocstring. rewrite ckint_ok by (unfold INT_MIN, INT_MAX in *; lia). cbn [sbind]. unfold assert_.
  destruct (Z.ltb_spec 0 (n + 1)); [|lia].
  destruct (malloc_ok n ltac:(lia)) as [q [x [M L]]]. rewrite M. cbn [sbind].
  rewrite alloc_core by (assumption || lia). eexists. split; [reflexivity|]. split; [|split; [|reflexivity]].
  - apply Forall_repeat, char_byte.
  - cbn [b_len]. rewrite repeat_length. lia.
Qed.
Lemma allocstring_neg : forall n c, INT_MIN <= n < 0 -> allocstring n c = SStop.
Proof.
  intros n c H. unfold allocstring. rewrite ckint_ok by (unfold INT_MIN, INT_MAX in *; lia). cbn [sbind]. unfold assert_.
  destruct (Z.ltb_spec 0 (n + 1)); [lia|reflexivity].
Qed.

Lemma substring_ok : forall b s from to, holds b s -> 0 <= from <= to -> to <= Z.of_nat (length s) -> Z.of_nat (length s) <= INT_MAX ->
  exists b', substring b from to = SVal b' /\ holds b' (firstn (Z.to_nat (to - from)) (skipn (Z.to_nat from) s)).
Proof.
  intros b s from to [F [HL HB]] H1 H2 H3. unfold substring. rewrite ckint_ok by (unfold INT_MIN, INT_MAX in *; lia).
  cbn [sbind]. unfold assert_. rewrite HL.
  destruct (Z.leb_spec 0 from); [|lia]. destruct (Z.leb_spec from to); [|lia].
  destruct (Z.leb_spec to (Z.of_nat (length s))); [|lia]. cbn [andb].
  destruct (malloc_ok (to - from) ltac:(lia)) as [q [x [M L]]]. rewrite M. cbn [sbind].
  set (n := Z.to_nat (to - from)) in *. set (k := Z.to_nat from).
  set (m := firstn n (skipn k s)).
  assert (Lm : length m = n) by (unfold m; rewrite firstn_length, skipn_length; unfold n, k; lia).
  assert (Lk : length (firstn k s) = k) by (rewrite firstn_length; unfold k; lia).
  assert (E : map Some s ++ [Some 0] = map Some (firstn k s) ++ map Some m ++ (map Some (skipn n (skipn k s)) ++ [Some 0])).
  { rewrite !app_assoc, <- !map_app. f_equal. unfold m. rewrite <- app_assoc, firstn_skipn, firstn_skipn. reflexivity. }
  rewrite HB, E.
  pose proof (memcpy_app (map Some m) q [] [x] (map Some (firstn k s)) (map Some (skipn n (skipn k s)) ++ [Some 0])) as MC.
  rewrite !map_length, Lm, Lk in MC. cbn [app length] in MC. change (Z.of_nat 0) with 0 in MC.
  replace (Z.of_nat k) with from in MC by (unfold k; lia). rewrite MC by exact L. cbn [sbind].
  rewrite setb_at by (rewrite map_length, Lm; unfold n; lia). cbn [sbind]. eexists. split; [reflexivity|]. split; [|split; [|reflexivity]].
  - unfold m. apply Forall_forall. intros y I. rewrite Forall_forall in F. apply F.
    rewrite <- (firstn_skipn k s). apply in_or_app. right. rewrite <- (firstn_skipn n (skipn k s)). apply in_or_app. now left.
  - cbn [b_len]. fold m. rewrite Lm. unfold n. lia.
Qed.
Lemma substring_bad : forall b s from to, holds b s -> INT_MIN <= to - from <= INT_MAX ->
  ~ (0 <= from <= to /\ to <= Z.of_nat (length s)) -> substring b from to = SStop.
Proof.
  intros b s from to [F [HL HB]] H0 H. unfold substring. rewrite ckint_ok by assumption. cbn [sbind]. unfold assert_. rewrite HL.
  destruct (Z.leb_spec 0 from); destruct (Z.leb_spec from to); destruct (Z.leb_spec to (Z.of_nat (length s))); cbn [andb];
    try reflexivity. exfalso. apply H. lia.
Qed.

Lemma stringcat_ok : forall b0 b1 s0 s1, holds b0 s0 -> holds b1 s1 -> Z.of_nat (length s0) + Z.of_nat (length s1) <= INT_MAX ->
  exists b, stringcat b0 b1 = SVal b /\ holds b (s0 ++ s1).
Proof.
  intros b0 b1 s0 s1 [F0 [L0 B0]] [F1 [L1 B1]] H. unfold stringcat. rewrite L0, L1.
  rewrite ckint_ok by (unfold INT_MIN, INT_MAX in *; lia). cbn [sbind].
  set (n := Z.of_nat (length s0) + Z.of_nat (length s1)).
  destruct (malloc_ok n ltac:(unfold n; lia)) as [q [x [M L]]]. rewrite M. cbn [sbind].
  rewrite !Nat2Z.id. rewrite B0, B1.
  assert (Q : q = firstn (length s0) q ++ skipn (length s0) q) by (symmetry; apply firstn_skipn).
  set (q0 := firstn (length s0) q) in *. set (q1 := skipn (length s0) q) in *.
  assert (LQ0 : length q0 = length s0) by (unfold q0; rewrite firstn_length, L; unfold n; lia).
  assert (LQ1 : length q1 = length s1) by (unfold q1; rewrite skipn_length, L; unfold n; lia).
  clearbody q0 q1. subst q.
  pose proof (memcpy_app (map Some s0) q0 [] (q1 ++ [x]) [] [Some 0]) as MC. rewrite !map_length in MC.
  cbn [app length] in MC. change (Z.of_nat 0) with 0 in MC. rewrite <- app_assoc. rewrite MC by exact LQ0. cbn [sbind].
  pose proof (memcpy_app (map Some s1) q1 (map Some s0) [x] [] [Some 0]) as MC1. rewrite !map_length in MC1.
  cbn [app length] in MC1. change (Z.of_nat 0) with 0 in MC1. rewrite MC1 by exact LQ1. cbn [sbind].
  rewrite app_assoc, <- map_app.
  rewrite setb_at by (rewrite map_length, app_length; unfold n; lia). cbn [sbind]. eexists. split; [reflexivity|]. split; [|split; [|reflexivity]].
  - apply Forall_app; now split.
  - cbn [b_len]. rewrite app_length. unfold n. lia.
Qed.
Lemma dupstring_ok : forall b s, holds b s -> exists b', dupstring b = SVal b' /\ holds b' s.
Proof.
  intros b s H. pose proof H as [F [HL HB]]. unfold dupstring. rewrite HL.
  destruct (malloc_ok (Z.of_nat (length s)) ltac:(lia)) as [q [x [M L]]]. rewrite M. cbn [sbind]. rewrite HB.
  pose proof (memcpy_app (map Some s ++ [Some 0]) (q ++ [x]) [] [] [] []) as MC. cbn [app length] in MC.
  rewrite !app_nil_r in MC. change (Z.of_nat 0) with 0 in MC.
  replace (Z.to_nat (Z.of_nat (length s) + 1)) with (length (map Some s ++ [Some 0])) by (rewrite app_length, map_length; cbn [length]; lia).
  rewrite MC by (rewrite !app_length, map_length, L; cbn [length]; lia). cbn [sbind].
  eexists. split; [reflexivity|]. split; [exact F|]. split; reflexivity.
Qed.
Lemma stringfill_ok : forall b s c, holds b s -> exists b', stringfill b c = SVal b' /\ holds b' (map (fun _ => byte c) s).
Proof.
  intros b s c [F [HL HB]]. unfold stringfill. rewrite HL, HB, Nat2Z.id.
  pose proof (memset_app (map Some s) [] [Some 0] c) as MS. rewrite map_length in MS. cbn [app length] in MS.
  change (Z.of_nat 0) with 0 in MS. rewrite MS. cbn [sbind]. eexists. split; [reflexivity|]. split; [|split].
  - apply Forall_map, Forall_forall. intros. apply char_byte.
  - cbn [b_len]. now rewrite map_length.
  - cbn [b_bytes]. f_equal. rewrite map_map. clear. induction s; cbn [length repeat map]; [reflexivity|]. now rewrite IHs.
Qed.
Lemma nth_error_holds : forall b s i, holds b s -> nth_error s i <> None -> nth_error (b_bytes b) i = option_map Some (nth_error s i).
Proof.
  intros b s i [F [HL HB]] N. rewrite HB. rewrite nth_error_app1.
  - apply nth_error_map.
  - rewrite map_length. now apply nth_error_Some.
Qed.
Lemma string_ref_ok : forall b s i c, holds b s -> nth_error s i = Some c -> string_ref b (Z.of_nat i) = SVal c.
Proof.
  intros b s i c H N. pose proof H as [F [HL HB]].
  assert (LT : (i < length s)%nat) by (apply nth_error_Some; rewrite N; discriminate).
  unfold string_ref, assert_. rewrite HL. destruct (Z.leb_spec 0 (Z.of_nat i)); [|lia].
  destruct (Z.ltb_spec (Z.of_nat i) (Z.of_nat (length s))); [|lia]. cbn [andb].
  unfold getb. destruct (Z.ltb_spec (Z.of_nat i) 0); [lia|]. rewrite Nat2Z.id.
  rewrite (nth_error_holds b s i H) by (rewrite N; discriminate). rewrite N. reflexivity.
Qed.
Lemma string_ref_bad : forall b s i, holds b s -> ~ 0 <= i < Z.of_nat (length s) -> string_ref b i = SStop.
Proof.
  intros b s i [F [HL HB]] H. unfold string_ref, assert_. rewrite HL.
  destruct (Z.leb_spec 0 i); destruct (Z.ltb_spec i (Z.of_nat (length s))); cbn [andb]; try reflexivity. lia.
Qed.
Lemma split_nth : forall (A : Type) (s : list A) i, (i < length s)%nat -> exists p x q, s = p ++ x :: q /\ length p = i.
Proof.
  intros A s i L. destruct (nth_error s i) as [x|] eqn:E; [|apply nth_error_None in E; lia].
  destruct (nth_error_split s i E) as [p [q [H1 H2]]]. eauto.
Qed.
Lemma string_set_ok : forall b p x q c, holds b (p ++ x :: q) ->
  exists b', string_set b (Z.of_nat (length p)) c = SVal b' /\ holds b' (p ++ byte c :: q).
Proof.
  intros b p x q c [F [HL HB]]. unfold string_set, assert_. rewrite HL.
  destruct (Z.leb_spec 0 (Z.of_nat (length p))); [|lia].
  destruct (Z.ltb_spec (Z.of_nat (length p)) (Z.of_nat (length (p ++ x :: q)))); [|rewrite app_length in *; cbn [length] in *; lia].
  cbn [andb]. rewrite HB, map_app. cbn [map]. rewrite <- app_assoc. cbn [app].
  replace (Z.of_nat (length p)) with (Z.of_nat (length (map Some p))) by now rewrite map_length.
  rewrite setb_app. cbn [sbind]. eexists. split; [reflexivity|]. split; [|split].
  - apply Forall_app in F. destruct F as [F1 F2]. apply Forall_app. split; [exact F1|]. inversion_clear F2. constructor; [apply char_byte|assumption].
  - cbn [b_len]. rewrite !app_length. reflexivity.
  - cbn [b_bytes]. rewrite map_app. cbn [map]. rewrite <- app_assoc. reflexivity.
Qed.
Lemma string_set_bad : forall b s i c, holds b s -> ~ 0 <= i < Z.of_nat (length s) -> string_set b i c = SStop.
Proof.
  intros b s i c [F [HL HB]] H. unfold string_set, assert_. rewrite HL.
  destruct (Z.leb_spec 0 i); destruct (Z.ltb_spec i (Z.of_nat (length s))); cbn [andb]; try reflexivity. lia.
Qed.
Lemma fill_list_app : forall l q p r, length q = length l ->
  fill_list (p ++ q ++ r) (Z.of_nat (length p)) l = SVal (p ++ map Some (map byte l) ++ r).
Proof.
  induction l as [|c l IH]; intros q p r L; destruct q as [|y q]; try discriminate L; cbn [fill_list map app]; [reflexivity|].
  rewrite setb_app. cbn [sbind].
  replace (p ++ Some (byte c) :: q ++ r) with ((p ++ [Some (byte c)]) ++ q ++ r) by (rewrite <- app_assoc; reflexivity).
  replace (Z.of_nat (length p) + 1) with (Z.of_nat (length (p ++ [Some (byte c)]))) by (rewrite app_length; cbn; lia).
  rewrite IH by (cbn [length] in L; lia). rewrite <- app_assoc. reflexivity.
Qed.
Lemma string_ok : forall l, Z.of_nat (length l) < INT_MAX -> exists b, string_ l = SVal b /\ holds b (map byte l).
Proof.
  intros l H. unfold string_. destruct (allocstring_ok (Z.of_nat (length l)) 32 ltac:(lia)) as [b [E [F [HL HB]]]].
  rewrite E. cbn [sbind]. rewrite HB, HL, Nat2Z.id.
  pose proof (fill_list_app l (map Some (repeat (byte 32) (length l))) [] [Some 0]) as FL. cbn [app length] in FL.
  change (Z.of_nat 0) with 0 in FL. rewrite FL by (rewrite map_length, repeat_length; reflexivity). cbn [sbind].
  eexists. split; [reflexivity|]. split; [|split; [|reflexivity]].
  - apply Forall_map, Forall_forall. intros. apply char_byte.
  - cbn [b_len]. now rewrite repeat_length, map_length.
Qed.
Lemma to_list_ok : forall s l r, to_list (map Some s ++ r) (length s) l = SVal (s ++ l).
Proof.
  induction s as [|x s IH] using rev_ind; intros l r; [reflexivity|].
  rewrite app_length, Nat.add_1_r. cbn [length to_list]. unfold getb.
  destruct (Z.ltb_spec (Z.of_nat (length s)) 0); [lia|]. rewrite Nat2Z.id.
  rewrite map_app, <- app_assoc. rewrite nth_error_app2 by (rewrite map_length; lia). rewrite map_length, Nat.sub_diag.
  cbn [map app nth_error sbind]. rewrite IH, <- app_assoc. reflexivity.
Qed.
Lemma string_to_list_ok : forall b s, holds b s -> string_to_list b = SVal s.
Proof. intros b s [F [HL HB]]. unfold string_to_list. rewrite HL, HB, Nat2Z.id, to_list_ok. now rewrite app_nil_r. Qed.

(** ** n-ary append *)
Lemma nth_error_app_old : forall (A : Type) (m n : list A) o b, nth_error m o = Some b -> nth_error (m ++ n) o = Some b.
Proof. intros A m n o b H. rewrite nth_error_app1; [exact H|]. apply nth_error_Some. rewrite H. discriminate. Qed.
Lemma length_concat_cons : forall (s : list Z) ss, length (concat (s :: ss)) = (length s + length (concat ss))%nat.
Proof. intros. cbn [concat]. apply app_length. Qed.
Lemma string_append_ok : forall os ss m, Forall2 (obj_holds m) os ss -> Z.of_nat (length (concat ss)) <= INT_MAX ->
  exists n o, string_append m os = SVal (m ++ n, o) /\ obj_holds (m ++ n) o (concat ss) /\
    (length os <> 1%nat -> (length m <= o)%nat).
Proof.
  intros os ss m H. induction H as [|o s os ss Ho H IH]; intros B.
  - cbn [string_append concat]. unfold newobj. destruct (newstring_ok [] ltac:(constructor)) as [b [E R]].
    change [Some 0] with (map Some (@nil Z) ++ [Some 0]). rewrite E. cbn [sbind].
    exists [b], (length m). split; [reflexivity|]. split; [|lia]. exists b. split; [|exact R].
    rewrite nth_error_app2, Nat.sub_diag by lia. reflexivity.
  - destruct os as [|o2 os].
    + inversion H; subst ss. cbn [string_append concat]. exists [], o. rewrite !app_nil_r. split; [reflexivity|]. split; [exact Ho|].
      cbn [length]. lia.
    + rewrite length_concat_cons in B. destruct IH as [n [r [E [R _]]]]; [lia|].
      remember (o2 :: os) as rest. cbn [string_append].
      assert (EQ : string_append m (o :: rest) = sbind (string_append m rest) (fun x => string_append2 (fst x) o (snd x))) by (subst rest; reflexivity).
      cbn [string_append] in EQ. rewrite EQ, E. cbn [sbind fst snd]. unfold string_append2, getobj.
      destruct Ho as [b1 [N1 H1]]. destruct R as [b2 [N2 H2]]. rewrite (nth_error_app_old _ _ _ _ _ N1), N2. cbn [sbind].
      destruct (stringcat_ok b1 b2 s (concat ss) H1 H2 ltac:(lia)) as [b [C HC]]. rewrite C. cbn [newobj sbind].
      exists (n ++ [b]), (length (m ++ n)). rewrite <- app_assoc. split; [reflexivity|]. split.
      * exists b. split; [|exact HC]. rewrite app_assoc, nth_error_app2, Nat.sub_diag by lia. reflexivity.
      * intros _. rewrite app_length. lia.
Qed.

(** ** comparison *)
Lemma strcmp_sign : forall s t r r', Forall char s -> Forall char t ->
  exists d, strcmp (map Some s ++ Some 0 :: r) (map Some t ++ Some 0 :: r') = SVal d /\ (d ?= 0) = lex (upto_nul s) (upto_nul t).
Proof.
  induction s as [|a s IH]; intros t r r' Fs Ft.
  - destruct t as [|b t]; cbn [map app strcmp upto_nul].
    + rewrite !Z.eqb_refl. exists 0. now split.
    + inversion_clear Ft. unfold char in *. destruct (Z.eqb_spec 0 b) as [<-|N].
      * exists 0. now split.
      * destruct (Z.eqb_spec b 0); [lia|]. exists (0 - b). split; [reflexivity|]. cbn [lex]. apply Z.compare_lt_iff. lia.
  - inversion_clear Fs as [|? ? Ca Fs']. unfold char in Ca. destruct t as [|b t]; cbn [map app strcmp upto_nul].
    + destruct (Z.eqb_spec a 0) as [->|N].
      * exists 0. now split.
      * exists (a - 0). split; [reflexivity|]. cbn [lex]. apply Z.compare_gt_iff. lia.
    + inversion_clear Ft as [|? ? Cb Ft']. unfold char in Cb. destruct (Z.eqb_spec a b) as [<-|N].
      * destruct (Z.eqb_spec a 0) as [->|N0]; [exists 0; now split|].
        destruct (IH t r r' Fs' Ft') as [d [E C]]. exists d. split; [exact E|]. cbn [lex]. now rewrite Z.compare_refl.
      * exists (a - b). split; [reflexivity|]. destruct (Z.eqb_spec a 0); destruct (Z.eqb_spec b 0); cbn [lex]; try lia.
        -- apply Z.compare_lt_iff. lia.
        -- apply Z.compare_gt_iff. lia.
        -- destruct (Z.compare_spec a b); try lia; [apply Z.compare_lt_iff; lia|apply Z.compare_gt_iff; lia].
Qed.
Lemma schar_ascii : forall c, 0 <= c <= 127 -> schar c = c.
Proof. intros c H. unfold schar. destruct (Z.ltb_spec c 128); lia. Qed.
Lemma tolower_ascii : forall c, 0 <= c <= 127 -> tolower c = SVal (low c).
Proof. intros c H. unfold tolower, low. destruct (Z.ltb_spec c (-1)); [lia|reflexivity]. Qed.
Lemma low_range : forall c, 0 <= c <= 127 -> 0 <= low c <= 127 /\ (low c = 0 <-> c = 0).
Proof. intros c H. unfold low. destruct (Z.leb_spec 65 c); destruct (Z.leb_spec c 90); cbn [andb]; lia. Qed.

Lemma unsigned_diff : forall x y, 0 <= x <= 127 -> 0 <= y <= 127 -> int_of_unsigned (x mod 2 ^ 32 - y mod 2 ^ 32) = x - y.
Proof.
  intros x y Hx Hy. change (2 ^ 32) with 4294967296. rewrite !Z.mod_small by lia. unfold int_of_unsigned, wrap32.
  rewrite Z.mod_small by lia. lia.
Qed.
Lemma strcmp_ci_sign : forall s t r r', Forall ascii s -> Forall ascii t ->
  exists d, strcmp_ci (map Some s ++ Some 0 :: r) (map Some t ++ Some 0 :: r') = SVal d /\ (d ?= 0) = lex (map low s) (map low t).
Proof.
  induction s as [|a s IH]; intros t r r' Fs Ft.
  - destruct t as [|b t]; cbn [map app strcmp_ci].
    + exists 0. split; reflexivity.
    + inversion_clear Ft as [|? ? Cb Ft']. unfold ascii in Cb. rewrite !schar_ascii, !tolower_ascii by lia. cbn [sbind].
      destruct (low_range b ltac:(lia)) as [Lb Zb]. change (low 0) with 0. rewrite unsigned_diff by lia.
      destruct (Z.eqb_spec (0 - low b) 0); [lia|]. cbn [andb]. exists (0 - low b). split; [reflexivity|].
      cbn [lex]. apply Z.compare_lt_iff. lia.
  - inversion_clear Fs as [|? ? Ca Fs']. unfold ascii in Ca. destruct (low_range a ltac:(lia)) as [La Za].
    destruct t as [|b t]; cbn [map app strcmp_ci]; rewrite !schar_ascii, !tolower_ascii.
    all: try (inversion_clear Ft as [|? ? Cb Ft']; unfold ascii in Cb); try lia; cbn [sbind].
    + change (low 0) with 0. rewrite unsigned_diff by lia. destruct (Z.eqb_spec (low a - 0) 0); [lia|]. cbn [andb].
      exists (low a - 0). split; [reflexivity|]. cbn [lex]. apply Z.compare_gt_iff. lia.
    + destruct (low_range b ltac:(lia)) as [Lb Zb]. rewrite unsigned_diff by lia.
      destruct (Z.eqb_spec (low a - low b) 0) as [E|E].
      * destruct (Z.eqb_spec a 0); [lia|]. destruct (Z.eqb_spec b 0); [lia|]. cbn [andb negb].
        destruct (IH t r r' Fs' Ft') as [d [E1 C]]. exists d. split; [exact E1|]. cbn [lex].
        replace (low b) with (low a) by lia. now rewrite Z.compare_refl.
      * cbn [andb]. exists (low a - low b). split; [reflexivity|]. cbn [lex].
        destruct (Z.compare_spec (low a) (low b)); try lia; [apply Z.compare_lt_iff; lia|apply Z.compare_gt_iff; lia].
Qed.
Lemma sign_tests : forall d, (d =? 0) = (match d ?= 0 with Eq => true | _ => false end)
  /\ (d <? 0) = (match d ?= 0 with Lt => true | _ => false end) /\ (0 <? d) = (match d ?= 0 with Gt => true | _ => false end)
  /\ (d <=? 0) = (match d ?= 0 with Gt => false | _ => true end) /\ (0 <=? d) = (match d ?= 0 with Lt => false | _ => true end).
Proof.
  intros d. destruct (Z.compare_spec d 0); subst; repeat split; destruct (Z.eqb_spec d 0), (Z.ltb_spec d 0), (Z.ltb_spec 0 d), (Z.leb_spec d 0), (Z.leb_spec 0 d); try reflexivity; lia.
Qed.
Lemma upto_nul_id : forall s, Forall (fun c => c <> 0) s -> upto_nul s = s.
Proof. induction 1; cbn [upto_nul]; [reflexivity|]. destruct (Z.eqb_spec x 0); [contradiction|]. now f_equal. Qed.
Lemma lex_eq : forall s t, lex s t = Eq <-> s = t.
Proof.
  induction s as [|a s IH]; destruct t as [|b t]; cbn [lex]; split; intros H; try discriminate H; try reflexivity.
  - destruct (Z.compare_spec a b); try discriminate H. subst. f_equal. now apply IH.
  - injection H as -> ->. rewrite Z.compare_refl. now apply IH.
Qed.
Lemma comparisons : forall x y s t, holds x s -> holds y t ->
  let c := lex (upto_nul s) (upto_nul t) in
  string_eq x y = SVal (is_Eq c) /\ string_lt x y = SVal (is_Lt c) /\ string_gt x y = SVal (is_Gt c) /\
  string_le x y = SVal (negb (is_Gt c)) /\ string_ge x y = SVal (negb (is_Lt c)).
Proof.
  intros x y s t [F1 [L1 B1]] [F2 [L2 B2]] c. destruct (strcmp_sign s t [] [] F1 F2) as [d [E C]].
  unfold string_eq, string_lt, string_gt, string_le, string_ge, cmp. rewrite B1, B2, E. cbn [sbind].
  destruct (sign_tests d) as [T1 [T2 [T3 [T4 T5]]]]. rewrite T1, T2, T3, T4, T5, C. fold c. destruct c; repeat split.
Qed.
Lemma comparisons_ci : forall x y s t, holds x s -> holds y t -> Forall ascii s -> Forall ascii t ->
  let c := lex (map low s) (map low t) in
  string_ci_eq x y = SVal (is_Eq c) /\ string_ci_lt x y = SVal (is_Lt c) /\ string_ci_gt x y = SVal (is_Gt c) /\
  string_ci_le x y = SVal (negb (is_Gt c)) /\ string_ci_ge x y = SVal (negb (is_Lt c)).
Proof.
  intros x y s t [F1 [L1 B1]] [F2 [L2 B2]] A1 A2 c. destruct (strcmp_ci_sign s t [] [] A1 A2) as [d [E C]].
  unfold string_ci_eq, string_ci_lt, string_ci_gt, string_ci_le, string_ci_ge, cmp. rewrite B1, B2, E. cbn [sbind].
  destruct (sign_tests d) as [T1 [T2 [T3 [T4 T5]]]]. rewrite T1, T2, T3, T4, T5, C. fold c. destruct c; repeat split.
Qed.
