(** Formats. *)
From Coq Require Import ZArith String List Bool Lia.
From Verif Require Import Base Model_Lit Model_CStr Model_Mangle Model_Num Model_Core Model_Fold Model_Format
  Spec_Num Spec_Fold Proofs_CStr Proofs_FoldText Proofs_Mangle Spec_Format.
Import ListNotations.
Open Scope Z_scope.

Lemma alnum_ok c : al_num c = true <-> letter_or_digit c.
Proof. unfold al_num, char_alphabetic, char_numeric, letter_or_digit. lia. Qed.
Lemma alnum_no c : al_num c = false <-> ~ letter_or_digit c.
Proof. rewrite <- alnum_ok. destruct (al_num c); intuition congruence. Qed.
Lemma space_ok c : isspace c = true <-> white c.
Proof. unfold isspace, white. lia. Qed.

(** ** Names of directives *)
Lemma mn_app p r : ~ starts letter_or_digit r -> match_name Some (p ++ r) p = Some r.
Proof.
  intros S. induction p as [|c p IH].
  - destruct r as [|c r]; [reflexivity|]. cbn in *. apply alnum_no in S. now rewrite S.
  - cbn. now rewrite Z.eqb_refl.
Qed.
Lemma mn_fail p c d r q : c <> d -> match_name Some (p ++ c :: r) (p ++ d :: q) = None.
Proof. intros N. induction p as [|x p IH]; cbn; [|now rewrite Z.eqb_refl]. now rewrite (proj2 (Z.eqb_neq c d) N). Qed.
Lemma mn_end p d q : match_name Some p (p ++ d :: q) = None.
Proof. induction p as [|x p IH]; cbn; [reflexivity | now rewrite Z.eqb_refl]. Qed.
Lemma mn_not p d q r : ~ starts (fun c => c = d) r -> match_name Some (p ++ r) (p ++ d :: q) = None.
Proof. intros S. destruct r as [|c r]; [rewrite app_nil_r; apply mn_end | apply mn_fail; exact S]. Qed.
Lemma mn_long p c r : letter_or_digit c -> match_name Some (p ++ c :: r) p = None.
Proof. intros S. induction p as [|x p IH]; cbn; [|now rewrite Z.eqb_refl]. apply alnum_ok in S. now rewrite S. Qed.
Lemma starts_imp (P Q : Z -> Prop) r : (forall c, P c -> Q c) -> ~ starts Q r -> ~ starts P r.
Proof. intros I. destruct r; cbn; auto. Qed.

Section Run.
Variables ltext rtext : text.
Variable total : nat.
Notation scan := (scan ltext rtext total).
Ltac go := cbn [Model_Format.scan app]; change (negb (36 =? 36)) with false; cbv iota.
Lemma step_char f c r args buf : c <> 36 -> scan (S f) (c :: r) args buf = scan f r args (TC c :: buf).
Proof. intros N. cbn [Model_Format.scan]. now rewrite (proj2 (Z.eqb_neq c 36) N). Qed.
Lemma step_dollar f r args buf : scan (S f) (codes "$$" ++ r) args buf = scan f r args (TS (codes "$") :: buf).
Proof. change (codes "$$" ++ r) with (36 :: 36 :: r). go. reflexivity. Qed.
Lemma step_argc f r args buf : ~ starts letter_or_digit r -> scan (S f) (codes "$argc" ++ r) args buf = scan f r args (TN (Z.of_nat total) :: buf).
Proof.
  intros S. change (codes "$argc" ++ r) with (36 :: 97 :: 114 :: 103 :: 99 :: r). go.
  now rewrite (mn_app (codes "argc") r S : match_name Some (97 :: 114 :: 103 :: 99 :: r) (codes "argc") = Some r).
Qed.
Lemma step_prev f r args buf : ~ starts letter_or_digit r -> scan (S f) (codes "$arg#-1" ++ r) args buf = scan f r args (index total args (-1) :: buf).
Proof.
  intros S. change (codes "$arg#-1" ++ r) with (36 :: 97 :: 114 :: 103 :: 35 :: 45 :: 49 :: r). go.
  rewrite (eq_refl : match_name Some (97 :: 114 :: 103 :: 35 :: 45 :: 49 :: r) (codes "argc") = None).
  now rewrite (mn_app (codes "arg#-1") r S : match_name Some (97 :: 114 :: 103 :: 35 :: 45 :: 49 :: r) (codes "arg#-1") = Some r).
Qed.
Lemma step_next f r args buf : ~ starts letter_or_digit r -> scan (S f) (codes "$arg#+1" ++ r) args buf = scan f r args (index total args 1 :: buf).
Proof.
  intros S. change (codes "$arg#+1" ++ r) with (36 :: 97 :: 114 :: 103 :: 35 :: 43 :: 49 :: r). go.
  rewrite (eq_refl : match_name Some (97 :: 114 :: 103 :: 35 :: 43 :: 49 :: r) (codes "argc") = None).
  rewrite (eq_refl : match_name Some (97 :: 114 :: 103 :: 35 :: 43 :: 49 :: r) (codes "arg#-1") = None).
  now rewrite (mn_app (codes "arg#+1") r S : match_name Some (97 :: 114 :: 103 :: 35 :: 43 :: 49 :: r) (codes "arg#+1") = Some r).
Qed.
Lemma step_this f r args buf : ~ starts (fun c => letter_or_digit c \/ c = 43 \/ c = 45) r -> scan (S f) (codes "$arg#" ++ r) args buf = scan f r args (index total args 0 :: buf).
Proof.
  intros S. change (codes "$arg#" ++ r) with (36 :: 97 :: 114 :: 103 :: 35 :: r). go.
  rewrite (eq_refl : match_name Some (97 :: 114 :: 103 :: 35 :: r) (codes "argc") = None).
  assert (S1 : ~ starts (fun c => c = 45) r) by (eapply starts_imp; [|exact S]; cbn; tauto). assert (S2 : ~ starts (fun c => c = 43) r) by (eapply starts_imp; [|exact S]; cbn; tauto). assert (S3 : ~ starts letter_or_digit r) by (eapply starts_imp; [|exact S]; cbn; tauto).
  rewrite (mn_not (codes "arg#") 45 [49] r S1 : match_name Some (97 :: 114 :: 103 :: 35 :: r) (codes "arg#-1") = None).
  rewrite (mn_not (codes "arg#") 43 [49] r S2 : match_name Some (97 :: 114 :: 103 :: 35 :: r) (codes "arg#+1") = None).
  now rewrite (mn_app (codes "arg#") r S3 : match_name Some (97 :: 114 :: 103 :: 35 :: r) (codes "arg#") = Some r).
Qed.
Lemma lod99 : letter_or_digit 99. Proof. unfold letter_or_digit. lia. Qed.
Lemma lod114 : letter_or_digit 114. Proof. unfold letter_or_digit. lia. Qed.
Lemma step_arg f r a args buf : ~ starts (fun c => letter_or_digit c \/ c = 35) r -> scan (S f) (codes "$arg" ++ r) (a :: args) buf = scan f r args (put_arg a buf).
Proof.
  intros S. change (codes "$arg" ++ r) with (36 :: 97 :: 114 :: 103 :: r). go.
  assert (S1 : ~ starts (fun c => c = 99) r) by (eapply starts_imp; [|exact S]; intros ? ->; left; exact lod99). assert (S3 : ~ starts letter_or_digit r) by (eapply starts_imp; [|exact S]; cbn; tauto).
  rewrite (mn_not (codes "arg") 99 [] r S1 : match_name Some (97 :: 114 :: 103 :: r) (codes "argc") = None).
  assert (S' : ~ starts (fun c => c = 35) r) by (eapply starts_imp; [|exact S]; cbn; tauto).
  rewrite (mn_not (codes "arg") 35 [45; 49] r S' : match_name Some (97 :: 114 :: 103 :: r) (codes "arg#-1") = None).
  rewrite (mn_not (codes "arg") 35 [43; 49] r S' : match_name Some (97 :: 114 :: 103 :: r) (codes "arg#+1") = None).
  rewrite (mn_not (codes "arg") 35 [] r S' : match_name Some (97 :: 114 :: 103 :: r) (codes "arg#") = None).
  now rewrite (mn_app (codes "arg") r S3 : match_name Some (97 :: 114 :: 103 :: r) (codes "arg") = Some r).
Qed.
Lemma step_plain f r a args buf : ~ starts letter_or_digit r -> scan (S f) (codes "$a" ++ r) (a :: args) buf = scan f r args (a :: buf).
Proof.
  intros S. change (codes "$a" ++ r) with (36 :: 97 :: r). go.
  assert (S' : ~ starts (fun c => c = 114) r) by (eapply starts_imp; [|exact S]; intros ? ->; exact lod114).
  rewrite (mn_not (codes "a") 114 [103; 99] r S' : match_name Some (97 :: r) (codes "argc") = None).
  rewrite (mn_not (codes "a") 114 [103; 35; 45; 49] r S' : match_name Some (97 :: r) (codes "arg#-1") = None).
  rewrite (mn_not (codes "a") 114 [103; 35; 43; 49] r S' : match_name Some (97 :: r) (codes "arg#+1") = None).
  rewrite (mn_not (codes "a") 114 [103; 35] r S' : match_name Some (97 :: r) (codes "arg#") = None).
  rewrite (mn_not (codes "a") 114 [103] r S' : match_name Some (97 :: r) (codes "arg") = None).
  now rewrite (mn_app (codes "a") r S : match_name Some (97 :: r) (codes "a") = Some r).
Qed.
Lemma step_live f r args buf : ~ starts letter_or_digit r -> scan (S f) (codes "$live" ++ r) args buf = scan f r args (ltext :: buf).
Proof.
  intros S. change (codes "$live" ++ r) with (36 :: 108 :: 105 :: 118 :: 101 :: r). go.
  now rewrite (mn_app (codes "live") r S : match_name Some (108 :: 105 :: 118 :: 101 :: r) (codes "live") = Some r).
Qed.
Lemma skip_all ws r : Forall white ws -> ~ starts white r -> skip_ws (ws ++ r) = r.
Proof.
  intros F S. induction F as [|c ws W _ IH]; cbn.
  - destruct r as [|c r]; [reflexivity|]. cbn. destruct (isspace c) eqn:E; [|reflexivity]. apply space_ok in E. now destruct S.
  - apply space_ok in W. now rewrite W.
Qed.
Lemma step_return f ws r args buf : Forall white ws -> ~ starts white r -> (ws = [] -> ~ starts letter_or_digit r) ->
  scan (S f) ((codes "$return" ++ ws) ++ r) args buf = let (r', buf') := put_return rtext r buf in scan f r' args buf'.
Proof.
  intros F S L. rewrite <- app_assoc. change (codes "$return" ++ ws ++ r) with (36 :: codes "return" ++ ws ++ r).
  assert (S' : ~ starts letter_or_digit (ws ++ r)). { destruct F as [|c ws W F]; [now apply L|]. unfold starts, white, letter_or_digit in *. cbn. lia. }
  change (codes "return" ++ ws ++ r) with (114 :: 101 :: 116 :: 117 :: 114 :: 110 :: ws ++ r). go.
  rewrite (mn_app (codes "return") (ws ++ r) S' : match_name Some (114 :: 101 :: 116 :: 117 :: 114 :: 110 :: ws ++ r) (codes "return") = Some (ws ++ r)).
  rewrite (eq_refl : match_name Some (114 :: 101 :: 116 :: 117 :: 114 :: 110 :: ws ++ r) (codes "argc") = None).
  rewrite (eq_refl : match_name Some (114 :: 101 :: 116 :: 117 :: 114 :: 110 :: ws ++ r) (codes "a") = None).
  now rewrite (skip_all ws r F S).
Qed.
Lemma step_end f r args buf : scan (S f) (codes "$}" ++ r) args buf = Ok (r, args, rev buf).
Proof. change (codes "$}" ++ r) with (36 :: 125 :: r). go. reflexivity. Qed.
Lemma step_loop_done f r buf : scan (S f) (codes "${" ++ r) [] buf =
  match scan f r (repeat (TY (codes "?")) 10) [] with Ok (fl3, _, _) => scan f fl3 [] buf | e => e end.
Proof. change (codes "${" ++ r) with (36 :: 123 :: r). go. reflexivity. Qed.
Lemma step_loop f r args buf : args <> [] -> scan (S f) (codes "${" ++ r) args buf =
  match scan f r args [] with Ok (_, args2, t) => if Nat.eqb (length args2) (length args) then CErr else scan f (codes "${" ++ r) args2 (TL t :: buf) | e => e end.
Proof. intros N. change (codes "${" ++ r) with (36 :: 123 :: r). destruct args; [easy|]. go. reflexivity. Qed.
End Run.

(** ** Conversions *)
Lemma mn_some {A} (g : A -> option Z) : forall lst chars r, match_name g lst chars = Some r ->
  exists p, lst = p ++ r /\ map g p = map Some chars /\ (r = [] \/ exists a c r', r = a :: r' /\ g a = Some c /\ al_num c = false).
Proof.
  induction lst as [|a lst IH]; intros chars r H; cbn in H.
  - destruct chars; [|discriminate]. injection H as <-. exists []. auto.
  - destruct (g a) as [c|] eqn:G; [|discriminate]. destruct chars as [|d chars].
    + destruct (al_num c) eqn:E; [discriminate|]. injection H as <-. exists []. repeat split. right. eauto 6.
    + destruct (Z.eqb_spec c d) as [->|]; [|discriminate]. destruct (IH _ _ H) as (p & -> & M & B). exists (a :: p). cbn. rewrite G, M. auto.
Qed.
Lemma map_some (p q : list Z) : map (@Some Z) p = map Some q -> p = q.
Proof. revert q. induction p as [|a p IH]; intros [|b q] H; try discriminate; [reflexivity|]. injection H as -> H. f_equal. auto. Qed.
Lemma map_tc (p : list text) q : map text_char p = map Some q -> p = map TC q.
Proof. revert q. induction p as [|a p IH]; intros [|b q] H; try discriminate; [reflexivity|]. injection H as E H. destruct a; try discriminate. injection E as ->. cbn. f_equal. auto. Qed.
(** the shape of a text that is shortened *)
Lemma shorter_ok s t r : primexp_ctype s = Some t -> shorter s t = Some r -> name t /\ exists n, s = t ++ codes "(" ++ n ++ r /\ width n.
Proof.
  intros T H. apply primexp_ok in T. destruct T as (N & b & E & M). split; [exact N|]. unfold shorter in H.
  destruct (val_or None (substring_after s (t ++ codes "("))) as [q|] eqn:Q; [|discriminate]. apply after_ok in Q. destruct Q as (a & E' & M').
  assert (L : a = []). { specialize (M' [] b). cbn in M'. rewrite <- app_assoc in M'. specialize (M' E). destruct a; [reflexivity | cbn in M'; lia]. }
  subst a. cbn [app] in E'. rewrite <- app_assoc in E'. rewrite E' in E. apply app_inv_head, app_inv_head in E. subst b.
  destruct (span_ok q (codes "01234567890")) as (p & q' & Eq & Fp & _ & _ & S). rewrite S in H. cbn [val_or] in H.
  destruct (prefix_ok q' (codes ", ")) as [(z & Ez & P)|(_ & P)]; rewrite P in H; cbn [val_or] in H; assert (r = _) as -> by (injection H as H; symmetry; exact H).
  - exists (p ++ codes ", "). split; [rewrite E', Eq, Ez, <- !app_assoc; reflexivity|]. right. exists p. split; [|reflexivity]. eapply Forall_impl; [|exact Fp]. intros c I. vm_compute in I. lia.
  - exists []. split; [exact E' | now left].
Qed.
Definition flats (l : list text) : res (list Z) := flatten (TL l).
Lemma flats_cons t l : flats (t :: l) = rbind (flatten t) (fun a => rbind (flats l) (fun b => Val (a ++ b))).
Proof. reflexivity. Qed.
Lemma flats_app a b : flats (a ++ b) = rbind (flats a) (fun x => rbind (flats b) (fun y => Val (x ++ y))).
Proof.
  induction a as [|t a IH]; [cbn [app]; change (flats []) with (Val (@nil Z)); cbn [rbind]; now destruct (flats b)|].
  cbn [app]. rewrite !flats_cons, IH. destruct (flatten t); [|reflexivity]. cbn [rbind]. destruct (flats a); [|reflexivity]. cbn [rbind]. destruct (flats b); [|reflexivity]. cbn [rbind]. now rewrite app_assoc.
Qed.
Lemma flats_chars w : flats (map TC w) = Val w.
Proof. induction w as [|c w IH]; [reflexivity|]. cbn [map]. rewrite flats_cons, IH. reflexivity. Qed.
Lemma flats_snoc l t x y : flats (rev l) = Val x -> flatten t = Val y -> flats (rev (t :: l)) = Val (x ++ y).
Proof. intros X Y. cbn [rev]. rewrite flats_app, X. cbn [rbind]. rewrite flats_cons, Y. cbn. now rewrite app_nil_r. Qed.

Definition conversion (t w o : list Z) : Prop := w = t ++ codes "_from_" /\ o = codes "(" \/ w = codes "void_from_" /\ o = codes "(void)(".
Lemma name_word t c : name t -> In c t -> ~ letter_or_digit c -> c = 95.
Proof. intros N I L. unfold name in N. rewrite Forall_forall in N. apply N in I. vm_compute in I. unfold letter_or_digit in L. lia. Qed.
Lemma void_only {A} (g : A -> option Z) t b b2 : name t -> (forall x, t <> x ++ codes "_void") ->
  (b = [] \/ exists a c r', b = a :: r' /\ g a = Some c /\ al_num c = false) -> (b2 = [] \/ exists a c r', b2 = a :: r' /\ g a = Some c /\ al_num c = false) ->
  map Some (rev t) ++ map g b = map Some (rev (codes "void")) ++ map g b2 -> t = codes "void".
Proof.
  intros N C B B2 E. change (map Some (rev (codes "void"))) with [Some 100; Some 105; Some 111; Some 118] in E.
  assert (K : forall c z, map g b = Some c :: z -> al_num c = false).
  { intros c z H. destruct B as [->|(a & c' & r' & -> & G & F)]; [discriminate|]. cbn in H. rewrite G in H. injection H as <- _. exact F. }
  rewrite <- (rev_involutive t). rewrite <- (rev_involutive t) in N, C. destruct (rev t) as [|x1 [|x2 [|x3 [|x4 [|x5 u]]]]]; cbn [map app] in E.
  - apply K in E. discriminate.
  - injection E as _ E. apply K in E. discriminate.
  - injection E as _ _ E. apply K in E. discriminate.
  - injection E as _ _ _ E. apply K in E. discriminate.
  - injection E as -> -> -> -> _. reflexivity.
  - injection E as -> -> -> -> E. exfalso. destruct B2 as [->|(a & c & r' & -> & G & F)]; [discriminate|]. cbn in E. rewrite G in E. injection E as -> _.
    apply alnum_no in F. assert (c = 95) as -> by (apply (name_word _ c N); [rewrite <- in_rev; cbn; auto 6 | exact F]).
    apply (C (rev u)). cbn [rev]. rewrite <- !app_assoc. reflexivity.
Qed.
Lemma casts_ok {A} (g : A -> option Z) buf t b v : name t -> (forall x, t <> x ++ codes "_void") -> casts g buf t = Some (b, v) ->
  exists p w o, buf = p ++ b /\ map g p = map Some (rev w) /\ conversion t w o /\ flatten (opening v) = Val o.
Proof.
  intros N C H. unfold casts in H. destruct (match_name g buf (rev (t ++ codes "_from_"))) as [b1|] eqn:T; destruct (match_name g buf (rev (codes "void_from_"))) as [b2|] eqn:V; try discriminate; injection H as <- <-.
  - apply mn_some in T, V. destruct T as (p & E & M & B). destruct V as (p2 & E2 & M2 & B2).
    assert (t = codes "void") as ->.
    { apply (void_only g t b1 b2 N C B B2). rewrite E in E2. apply (f_equal (map g)) in E2. rewrite !map_app, M, M2, rev_app_distr, map_app, <- app_assoc in E2.
      change (rev (codes "void_from_")) with (rev (codes "_from_") ++ rev (codes "void")) in E2. rewrite map_app, <- app_assoc in E2. now apply app_inv_head in E2. }
    exists p, (codes "void_from_"), (codes "(void)("). repeat split; auto. now right.
  - apply mn_some in T. destruct T as (p & E & M & _). exists p, (t ++ codes "_from_"), (codes "("). repeat split; auto. now left.
  - apply mn_some in V. destruct V as (p & E & M & _). exists p, (codes "void_from_"), (codes "(void)("). repeat split; auto. now right.
Qed.
Lemma clean_name s t : clean s -> primexp_ctype s = Some t -> forall x, t <> x ++ codes "_void".
Proof. intros C T x ->. apply primexp_ok in T. destruct T as (_ & b & E & _). apply (C x b). rewrite E, <- app_assoc. reflexivity. Qed.
Lemma put_arg_ok a s buf y : flatten a = Val s -> (forall z, a = TS z -> clean z) -> flats (rev buf) = Val y ->
  exists y', flats (rev (put_arg a buf)) = Val y' /\ (y' = y ++ s \/ short (y ++ s) y').
Proof.
  intros Fa C Y. assert (P : exists y', flats (rev (a :: buf)) = Val y' /\ (y' = y ++ s \/ short (y ++ s) y')) by (exists (y ++ s); split; [now apply flats_snoc | now left]).
  unfold put_arg. destruct a as [c|z|n|z|l]; try exact P. injection Fa as ->. destruct (primexp_ctype s) as [t|] eqn:T; [|exact P].
  destruct (casts text_char buf t) as [[b v]|] eqn:K; [|exact P]. destruct (shorter s t) as [r|] eqn:R; [|exact P]. clear P.
  destruct (shorter_ok _ _ _ T R) as (N & n & Es & W). destruct (casts_ok _ _ _ _ _ N (clean_name _ _ (C s eq_refl) T) K) as (p & w & o & Eb & M & V & O).
  apply map_tc in M. subst p. rewrite Eb, rev_app_distr, <- map_rev, rev_involutive, flats_app in Y. destruct (flats (rev b)) as [yb|] eqn:Yb; [|discriminate]. cbn [rbind] in Y. rewrite flats_chars in Y. cbn [rbind] in Y. injection Y as <-.
  exists (yb ++ o ++ r). split.
  - change (TS r :: opening v :: b) with (TS r :: (opening v :: b)). rewrite app_assoc. apply flats_snoc; [|reflexivity]. now apply flats_snoc.
  - right. rewrite Es, <- app_assoc. now apply (sh_step yb t w o n r).
Qed.
Lemma put_return_ok rtext ret fl buf r' buf' y : flatten rtext = Val ret -> clean fl -> flats (rev buf) = Val y -> put_return rtext fl buf = (r', buf') ->
  (r' = fl /\ flats (rev buf') = Val (y ++ ret)) \/
  exists t n w o pre, fl = t ++ codes "(" ++ n ++ r' /\ name t /\ width n /\ conversion t w o /\ ret = pre ++ w /\ flats (rev buf') = Val (y ++ pre ++ o).
Proof.
  intros Fr C Y H. assert (P : (fl, rtext :: buf) = (r', buf') -> r' = fl /\ flats (rev buf') = Val (y ++ ret)) by (intros [= <- <-]; split; [reflexivity | now apply flats_snoc]).
  unfold put_return in H. destruct (primexp_ctype fl) as [t|] eqn:T; [|left; now apply P]. destruct rtext as [c|z|n|z|l]; try (left; now apply P). injection Fr as ->.
  destruct (casts Some (rev ret) t) as [[b v]|] eqn:K; [|left; now apply P]. destruct (shorter fl t) as [r|] eqn:R; [|left; now apply P]. clear P. injection H as <- <-. right.
  destruct (shorter_ok _ _ _ T R) as (N & n & Es & W). destruct (casts_ok _ _ _ _ _ N (clean_name _ _ C T) K) as (p & w & o & Eb & M & V & O).
  apply map_some in M. subst p. apply (f_equal (@rev Z)) in Eb. rewrite rev_involutive, rev_app_distr, rev_involutive in Eb.
  exists t, n, w, o, (rev b). repeat split; auto.
  change (opening v :: TL (map TC (rev b)) :: buf) with (opening v :: (TL (map TC (rev b)) :: buf)). rewrite app_assoc. apply flats_snoc; [|exact O]. apply flats_snoc; [exact Y|]. exact (flats_chars (rev b)).
Qed.
Lemma put_return_text rtext fl buf r' buf' : put_return rtext fl buf = (r', buf') -> exists p, fl = p ++ r' /\ ~ In 36 p.
Proof.
  assert (P : fl = r' -> exists p, fl = p ++ r' /\ ~ In 36 p) by (intros ->; exists []; auto).
  unfold put_return. intros H. destruct (primexp_ctype fl) as [t|] eqn:T; [|injection H as <- _; auto]. destruct rtext as [c|z|n|z|l]; try (injection H as <- _; auto).
  destruct (casts Some (rev z) t) as [[b v]|]; [|injection H as <- _; auto]. destruct (shorter fl t) as [r|] eqn:R; [|injection H as <- _; auto]. clear P. injection H as <- _.
  destruct (shorter_ok _ _ _ T R) as (N & n & Es & W). exists (t ++ codes "(" ++ n). split; [now rewrite Es, <- !app_assoc|]. rewrite !in_app_iff. intros [I|[I|I]].
  - unfold name in N. rewrite Forall_forall in N. apply N in I. vm_compute in I. lia.
  - vm_compute in I. lia.
  - destruct W as [->|(d & F & ->)]; [easy|]. apply in_app_or in I. destruct I as [I|I]; [rewrite Forall_forall in F; apply F in I; lia | vm_compute in I; lia].
Qed.

(** ** Items *)
Lemma short_app x y e : short x y -> short (x ++ e) (y ++ e).
Proof. intros [pre t w o n e' N W V]. rewrite <- !app_assoc. now apply (sh_step pre t w o n (e' ++ e)). Qed.
Lemma shortened_app x y e : shortened x y -> shortened (x ++ e) (y ++ e).
Proof. induction 1 as [|x y z S IH H]; [constructor|]. eapply sd_step; [exact IH | now apply short_app]. Qed.
Lemma short_left u x y : short x y -> short (u ++ x) (u ++ y).
Proof. intros [pre t w o n e N W V]. pose proof (sh_step (u ++ pre) t w o n e N W V) as H. rewrite <- !(app_assoc u) in H. exact H. Qed.
Lemma shortened_left u x y : shortened x y -> shortened (u ++ x) (u ++ y).
Proof. induction 1 as [|x y z S IH H]; [constructor|]. eapply sd_step; [exact IH | now apply short_left]. Qed.
Lemma shortened_trans x y z : shortened x y -> shortened y z -> shortened x z.
Proof. intros H G. revert H. induction G as [|a b c G IH S]; intros H; [assumption|]. eapply sd_step; [exact (IH H) | exact S]. Qed.
Lemma lead : forall p l next r, items_ok l next -> items_text l ++ next = p ++ r -> ~ In 36 p -> exists l', l = map IChar p ++ l' /\ items_ok l' next /\ r = items_text l' ++ next.
Proof.
  induction p as [|c p IH]; intros l next r K E N; [exists l; auto|]. destruct l as [|i l].
  - exfalso. cbn in E. subst next. cbn in K. destruct K as [|K]; [discriminate|]. apply N. now left.
  - destruct K as (Ki & K). assert (I : exists d, i = IChar d).
    { destruct i; eauto; exfalso; apply N; cbn in E; injection E as E _; now left. }
    destruct I as (d & ->). cbn in E. injection E as -> E. destruct (IH l next r K E) as (l' & -> & K' & R); [intros I; apply N; now right|]. exists l'. auto.
Qed.
Lemma count_chars p l : count (map IChar p ++ l) = count l.
Proof. induction p; cbn; auto. Qed.
Lemma prev_chars p l u : prev_ok (map IChar p ++ l) u -> prev_ok l u.
Proof. induction p as [|c p IH]; cbn; [auto|]. intros (_ & H). auto. Qed.
Lemma made_chars live ret total p l ss ss' t : made live ret total l ss ss' t -> made live ret total (map IChar p ++ l) ss ss' (p ++ t).
Proof. intros M. induction p as [|c p IH]; cbn; [assumption|]. now constructor. Qed.
Lemma clean_tail a s : clean (a ++ s) -> clean s.
Proof. intros C x y ->. apply (C (a ++ x) y). now rewrite <- app_assoc. Qed.

Lemma no_more (p x : list Z) : x = p ++ x -> p = [].
Proof. intros E. apply (f_equal (@length Z)) in E. rewrite app_length in E. destruct p; [reflexivity | cbn in E; lia]. Qed.
Definition tidy (a : text) : Prop := forall z, a = TS z -> clean z.
Section Items.
Variables ltext rtext : text.
Variables live ret : list Z.
Variable total : nat.
Hypothesis Live : flatten ltext = Val live.
Hypothesis Ret : flatten rtext = Val ret.
Hypothesis Few : Z.of_nat total < 8589934591.
Notation scan := (scan ltext rtext total).
Notation made := (made live ret total).
Definition follows (l : list item) (next : list Z) (args buf buf' : list text) : Prop :=
  forall ss used x0 y0, (used + length args = total)%nat -> Forall2 (fun a s => flatten a = Val s) args ss -> Forall tidy args -> clean (items_text l ++ next) -> prev_ok l used ->
    flats (rev buf) = Val y0 -> shortened x0 y0 ->
    exists y t, flats (rev buf') = Val y /\ made l ss (skipn (count l) ss) t /\ shortened (x0 ++ t) y.
(** an item that adds a text *)
Lemma follows_text i l next args buf buf' tx : takes i = false -> (forall used, prev_ok (i :: l) used -> (used + length args = total)%nat -> exists s, flatten tx = Val s /\
    forall ss ss' t, length ss = length args -> made l ss ss' t -> made (i :: l) ss ss' (s ++ t)) ->
  follows l next args (tx :: buf) buf' -> follows (i :: l) next args buf buf'.
Proof.
  intros T H F ss used x0 y0 U A D C P Y S. destruct (H used P U) as (s & Fs & M). cbn [prev_ok] in P. rewrite T in P. destruct P as (_ & P).
  destruct (F ss used (x0 ++ s) (y0 ++ s) U A D) as (y & t & Fy & Mt & St); auto.
  - cbn [items_text flat_map] in C. rewrite <- app_assoc in C. exact (clean_tail _ _ C).
  - now apply flats_snoc.
  - now apply shortened_app.
  - exists y, (s ++ t). split; [exact Fy|]. unfold count. cbn [filter]. rewrite T. fold (count l). split; [|now rewrite app_assoc]. apply M; [|exact Mt]. clear - A. induction A; cbn; congruence.
Qed.
Lemma number n : 0 <= n < 8589934592 -> exists s, flatten (TN n) = Val s /\ natural 10 s n.
Proof. exact (dec_ok n). Qed.
Lemma items_scan : forall k l next args buf, (length l <= k)%nat -> items_ok l next -> (count l <= length args)%nat ->
  exists F buf', (forall f, scan (F + f) (items_text l ++ next) args buf = scan f next (skipn (count l) args) buf') /\ follows l next args buf buf'.
Proof.
  induction k as [|k IH]; intros l next args buf L K A.
  { destruct l; [|cbn in L; lia]. exists O, buf. split; [reflexivity|]. intros ss used x0 y0 _ _ _ _ _ Y S. exists y0, []. rewrite app_nil_r. repeat split; auto. constructor. }
  destruct l as [|i l].
  { exists O, buf. split; [reflexivity|]. intros ss used x0 y0 _ _ _ _ _ Y S. exists y0, []. rewrite app_nil_r. repeat split; auto. constructor. }
  destruct K as (Ki & K). cbn in L.
  assert (Simple : forall tx, takes i = false -> (forall f, scan (S f) (item_text i ++ items_text l ++ next) args buf = scan f (items_text l ++ next) args (tx :: buf)) ->
    (forall used, prev_ok (i :: l) used -> (used + length args = total)%nat -> exists s, flatten tx = Val s /\ forall ss ss' t, length ss = length args -> made l ss ss' t -> made (i :: l) ss ss' (s ++ t)) ->
    exists F buf', (forall f, scan (F + f) (items_text (i :: l) ++ next) args buf = scan f next (skipn (count (i :: l)) args) buf') /\ follows (i :: l) next args buf buf').
  { intros tx T St H. assert (Cn : count (i :: l) = count l) by (unfold count; cbn [filter]; now rewrite T). rewrite Cn in A.
    destruct (IH l next args (tx :: buf) ltac:(lia) K A) as (F & buf' & E & Fo). exists (S F), buf'. split.
    - intros f. rewrite Cn. cbn [items_text flat_map]. rewrite <- app_assoc. cbn [Nat.add]. rewrite St. apply E.
    - now apply (follows_text i l next args buf buf' tx). }
  destruct i as [c| | | | | | | | |ws].
  - apply (Simple (TC c)); [reflexivity | intros f; now apply step_char | intros used _ _; exists [c]; split; [reflexivity | intros; now constructor]].
  - apply (Simple (TS (codes "$"))); [reflexivity | intros f; apply step_dollar | intros used _ _; exists [36]; split; [reflexivity | intros; now constructor]].
  - apply (Simple (TN (Z.of_nat total))); [reflexivity | intros f; now apply step_argc | intros used _ _]. destruct (number (Z.of_nat total)) as (s & E & N); [lia|]. exists s. split; [exact E | intros; now constructor].
  - apply (Simple (index total args (-1))); [reflexivity | intros f; now apply step_prev|]. intros used (P & _) U. specialize (P eq_refl). unfold index. destruct (number (Z.of_nat total - Z.of_nat (length args) + -1)) as (s & E & N); [lia|].
    exists s. split; [exact E|]. intros ss ss' t Ls M. constructor; [|exact M]. rewrite Ls. exact N.
  - apply (Simple (index total args 0)); [reflexivity | intros f; now apply step_this|]. intros used _ U. unfold index. destruct (number (Z.of_nat total - Z.of_nat (length args) + 0)) as (s & E & N); [lia|].
    exists s. split; [exact E|]. intros ss ss' t Ls M. constructor; [|exact M]. rewrite Ls. now rewrite Z.add_0_r in N.
  - apply (Simple (index total args 1)); [reflexivity | intros f; now apply step_next|]. intros used _ U. unfold index. destruct (number (Z.of_nat total - Z.of_nat (length args) + 1)) as (s & E & N); [lia|].
    exists s. split; [exact E|]. intros ss ss' t Ls M. constructor; [|exact M]. rewrite Ls. exact N.
  - clear Simple. change (count (IArg :: l)) with (S (count l)) in *. destruct args as [|a args]; [cbn in A; lia|]. cbn in A.
    destruct (IH l next args (put_arg a buf) ltac:(lia) K ltac:(lia)) as (F & buf' & E & Fo). exists (S F), buf'. split.
    + intros f. cbn [items_text flat_map skipn]. rewrite <- app_assoc. cbn [Nat.add item_text]. rewrite step_arg by exact Ki. apply E.
    + intros ss used x0 y0 U As D C P Y S. inversion As as [|? s ? ss' Fa As']; subst. inversion D as [|? ? Da D']; subst. destruct (put_arg_ok a s buf y0 Fa Da Y) as (y1 & Y1 & H1).
      destruct (Fo ss' (Datatypes.S used) (x0 ++ s) y1) as (y & t & Fy & M & Sy); auto.
      * cbn in U. lia.
      * cbn [items_text flat_map] in C. rewrite <- app_assoc in C. exact (clean_tail _ _ C).
      * exact (proj2 P).
      * destruct H1 as [->|H1]; [now apply shortened_app | eapply sd_step; [apply shortened_app; exact S | exact H1]].
      * exists y, (s ++ t). split; [exact Fy|]. split; [now constructor | now rewrite app_assoc].
  - clear Simple. change (count (IPlain :: l)) with (S (count l)) in *. destruct args as [|a args]; [cbn in A; lia|]. cbn in A.
    destruct (IH l next args (a :: buf) ltac:(lia) K ltac:(lia)) as (F & buf' & E & Fo). exists (S F), buf'. split.
    + intros f. cbn [items_text flat_map skipn]. rewrite <- app_assoc. cbn [Nat.add item_text]. rewrite step_plain by exact Ki. apply E.
    + intros ss used x0 y0 U As D C P Y S. inversion As as [|? s ? ss' Fa As']; subst. inversion D as [|? ? Da D']; subst.
      destruct (Fo ss' (Datatypes.S used) (x0 ++ s) (y0 ++ s)) as (y & t & Fy & M & Sy); auto.
      * cbn in U. lia.
      * cbn [items_text flat_map] in C. rewrite <- app_assoc in C. exact (clean_tail _ _ C).
      * exact (proj2 P).
      * now apply flats_snoc.
      * now apply shortened_app.
      * exists y, (s ++ t). split; [exact Fy|]. split; [now constructor | now rewrite app_assoc].
  - apply (Simple ltext); [reflexivity | intros f; now apply step_live | intros used _ _; exists live; split; [exact Live | intros; now constructor]].
  - clear Simple. destruct Ki as (Kw & Ks & Kl). change (count (IReturn ws :: l)) with (count l) in *.
    destruct (put_return rtext (items_text l ++ next) buf) as [r' buf1] eqn:R. destruct (put_return_text _ _ _ _ _ R) as (p & Ep & Np). destruct (lead p l next r' K Ep Np) as (l' & -> & K' & Er).
    rewrite count_chars in *. rewrite app_length, map_length in L. destruct (IH l' next args buf1 ltac:(lia) K' A) as (F & buf' & E & Fo). exists (S F), buf'. split.
    + intros f. cbn [items_text flat_map]. rewrite <- app_assoc. cbn [Nat.add item_text]. rewrite step_return by assumption. fold (items_text (map IChar p ++ l')). rewrite R, Er. apply E.
    + intros ss used x0 y0 U As D C P Y S.
      assert (C' : clean (items_text (map IChar p ++ l') ++ next)) by (cbn [items_text flat_map] in C; rewrite <- app_assoc in C; exact (clean_tail _ _ C)).
      assert (Cl : clean (items_text l' ++ next)) by (rewrite Ep, Er in C'; exact (clean_tail _ _ C')).
      assert (P' : prev_ok l' used) by (destruct P as (_ & P); now apply prev_chars in P).
      replace (count (IReturn ws :: map IChar p ++ l')) with (count l') by (symmetry; exact (count_chars p l')).
      destruct (put_return_ok rtext ret _ buf r' buf1 y0 Ret C' Y R) as [(E' & Y1)|(t & n & w & o & pre & Ef & N & W & V & Er' & Y1)].
      * assert (p = []) as -> by (rewrite E' in Ep; exact (no_more _ _ Ep)).
        destruct (Fo ss used (x0 ++ ret) (y0 ++ ret) U As D Cl P' Y1) as (y & t & Fy & M & Sy); [now apply shortened_app|].
        exists y, (ret ++ t). split; [exact Fy|]. split; [now constructor | now rewrite app_assoc].
      * assert (p = t ++ codes "(" ++ n) as ->. { rewrite Ep in Ef. replace (t ++ codes "(" ++ n ++ r') with ((t ++ codes "(" ++ n) ++ r') in Ef by (now rewrite <- !app_assoc). now apply app_inv_tail in Ef. }
        destruct (Fo ss used (x0 ++ ret ++ t ++ codes "(" ++ n) (y0 ++ pre ++ o) U As D Cl P' Y1) as (y & t' & Fy & M & Sy).
        -- eapply sd_step; [apply shortened_app; exact S|]. rewrite Er', <- !app_assoc, !(app_assoc y0). pose proof (sh_step (y0 ++ pre) t w o n [] N W V) as H. rewrite !app_nil_r in H. rewrite <- !app_assoc in *. exact H.
        -- exists y, (ret ++ (t ++ codes "(" ++ n) ++ t'). split; [exact Fy|]. split; [constructor; now apply made_chars|]. replace (x0 ++ ret ++ (t ++ codes "(" ++ n) ++ t') with ((x0 ++ ret ++ t ++ codes "(" ++ n) ++ t') by (now rewrite <- !app_assoc). exact Sy.
Qed.

(** ** Pieces *)
Definition results (ps : list piece) (args buf buf' : list text) : Prop :=
  forall ss used x0 y0, (used + length args = total)%nat -> Forall2 (fun a s => flatten a = Val s) args ss -> Forall tidy args -> clean (format_text ps) -> fits ps used (length args) ->
    flats (rev buf) = Val y0 -> shortened x0 y0 ->
    exists y t, flats (rev buf') = Val y /\ makes live ret total ps ss t /\ shortened (x0 ++ t) y.
Definition runs (ps : list piece) (args buf : list text) : Prop :=
  exists F buf', (forall f, (F <= f)%nat -> scan f (format_text ps) args buf = Ok ([], [], rev buf')) /\ results ps args buf buf'.
Lemma prev_later l : forall u u', prev_ok l u -> (u <= u')%nat -> prev_ok l u'.
Proof. induction l as [|i l IH]; intros u u' P L; [exact I|]. destruct P as (A & P). split; [intros E; specialize (A E); lia|]. eapply IH; [exact P|]. destruct (takes i); lia. Qed.
Lemma forall2_skip {A B} (R : A -> B -> Prop) n : forall l l', Forall2 R l l' -> Forall2 R (skipn n l) (skipn n l').
Proof. induction n as [|n IH]; intros l l' F; [exact F|]. destruct F; [constructor|]. cbn. auto. Qed.
Lemma forall_skip {A} (R : A -> Prop) n : forall l, Forall R l -> Forall R (skipn n l).
Proof. induction n as [|n IH]; intros l F; [exact F|]. destruct F; [constructor|]. cbn. auto. Qed.
Lemma forall2_len {A B} (R : A -> B -> Prop) l l' : Forall2 R l l' -> length l = length l'.
Proof. induction 1; cbn; congruence. Qed.
(** the passes of a loop, the rest is done *)
Lemma loop_runs l ps : items_ok l (codes "$}" ++ format_text ps) -> (forall buf, runs ps [] buf) -> (count l <= 10)%nat -> forall k args buf, length args = (k * count l)%nat -> (k <> O -> (0 < count l)%nat) -> runs (PLoop l :: ps) args buf.
Proof.
  intros K Rs Z. set (rest := items_text l ++ codes "$}" ++ format_text ps).
  assert (Et : format_text (PLoop l :: ps) = codes "${" ++ rest) by (unfold format_text, rest; cbn [flat_map piece_text]; now rewrite <- !app_assoc).
  induction k as [|k Rec]; intros args buf L P.
  - destruct args; [|discriminate]. destruct (Rs buf) as (F2 & buf2 & E2 & R2).
    destruct (items_scan (length l) l (codes "$}" ++ format_text ps) (repeat (TY (codes "?")) 10) [] (le_n _) K) as (F1 & b1 & E1 & _); [rewrite repeat_length; exact Z|].
    exists (S (F1 + S F2)), buf2. split.
    + intros f Lf. destruct f as [|f]; [lia|]. rewrite Et, step_loop_done. unfold rest. replace f with (F1 + S (f - F1 - 1))%nat at 1 by lia. rewrite E1, step_end. apply E2. lia.
    + intros ss used x0 y0 U As D C Fi Y S. inversion As; subst. destruct (R2 [] used x0 y0 U As D) as (y & t & Fy & M & Sy); auto.
      * rewrite Et in C. unfold rest in C. rewrite !app_assoc in C. exact (clean_tail _ _ C).
      * cbn [length fits] in Fi. destruct Fi as (_ & _ & Fi). now rewrite Nat.add_0_r in Fi.
      * exists y, t. split; [exact Fy|]. split; [now constructor | exact Sy].
  - specialize (P ltac:(discriminate)). cbn [Nat.mul] in L.
    destruct (items_scan (length l) l (codes "$}" ++ format_text ps) args [] (le_n _) K ltac:(lia)) as (F1 & b1 & E1 & Fo).
    assert (Ls : length (skipn (count l) args) = (k * count l)%nat) by (rewrite skipn_length; lia).
    destruct (Rec (skipn (count l) args) (TL (rev b1) :: buf) Ls (fun _ => P)) as (F2 & buf2 & E2 & R2).
    assert (Na : args <> []) by (intros ->; cbn in L; lia).
    exists (S (F1 + S F2)), buf2. split.
    + intros f Lf. destruct f as [|f]; [lia|]. rewrite Et, step_loop by exact Na. unfold rest at 1. replace f with (F1 + S (f - F1 - 1))%nat at 1 by lia. rewrite E1, step_end.
      replace (Nat.eqb (length (skipn (count l) args)) (length args)) with false by (symmetry; apply Nat.eqb_neq; lia). rewrite <- Et. apply E2. lia.
    + intros ss used x0 y0 U As D C Fi Y S. cbn [fits] in Fi. destruct Fi as (_ & Fl & Fi). destruct (Fl ltac:(lia)) as (Pv & _ & _).
      destruct (Fo ss used [] [] U As D) as (y1 & t1 & Y1 & M1 & S1); auto.
      * rewrite Et in C. exact (clean_tail _ _ C).
      * constructor.
      * destruct (R2 (skipn (count l) ss) (used + count l)%nat (x0 ++ t1) (y0 ++ y1)) as (y & t & Fy & M & Sy); auto.
        -- lia.
        -- now apply forall2_skip.
        -- now apply forall_skip.
        -- cbn [fits]. rewrite Ls. split; [exact Z | split].
           ++ intros _. split; [eapply prev_later; [exact Pv | lia]|]. split; [exact P | now exists k].
           ++ replace (used + count l + k * count l)%nat with (used + length args)%nat by lia. exact Fi.
        -- apply flats_snoc; [exact Y | exact Y1].
        -- eapply shortened_trans; [apply shortened_app; exact S | apply shortened_left; exact S1].
        -- exists y, (t1 ++ t). split; [exact Fy|]. split; [|now rewrite app_assoc].
           eapply mk_loop; [|exact M1 | exact M]. intros ->. apply forall2_len in As. destruct args; [easy | discriminate].
Qed.
Lemma format_runs : forall ps used args buf, format_ok ps -> fits ps used (length args) -> runs ps args buf.
Proof.
  induction ps as [|[l|l] ps IH]; intros used args buf K Fi.
  - cbn in Fi. destruct args; [|discriminate]. exists 1%nat, buf. split; [intros [|f] Lf; [lia | reflexivity]|]. intros ss u x0 y0 _ As _ _ _ Y S. inversion As; subst. exists y0, []. rewrite app_nil_r. repeat split; auto. constructor.
  - destruct K as (Ki & K). cbn [fits] in Fi. destruct Fi as (Cl & Pv & Fi). destruct (items_scan (length l) l (format_text ps) args buf (le_n _) Ki Cl) as (F1 & b1 & E1 & Fo).
    assert (Ls : length (skipn (count l) args) = (length args - count l)%nat) by apply skipn_length. rewrite <- Ls in Fi.
    destruct (IH _ _ b1 K Fi) as (F2 & buf2 & E2 & R2). exists (F1 + F2)%nat, buf2. split.
    + intros f Lf. replace f with (F1 + (f - F1))%nat by lia. change (format_text (PItems l :: ps)) with (items_text l ++ format_text ps). rewrite E1. apply E2. lia.
    + intros ss u x0 y0 U As D C Fi' Y S. cbn [fits] in Fi'. destruct Fi' as (_ & Pv' & Fi').
      destruct (Fo ss u x0 y0 U As D C Pv' Y S) as (y1 & t1 & Y1 & M1 & S1).
      destruct (R2 (skipn (count l) ss) (u + count l)%nat (x0 ++ t1) y1) as (y & t & Fy & M & Sy); auto.
      * lia.
      * now apply forall2_skip.
      * now apply forall_skip.
      * change (format_text (PItems l :: ps)) with (items_text l ++ format_text ps) in C. exact (clean_tail _ _ C).
      * now rewrite Ls.
      * exists y, (t1 ++ t). split; [exact Fy|]. split; [econstructor; eassumption | now rewrite app_assoc].
  - destruct K as (Ki & K). cbn [fits] in Fi. destruct Fi as (Ten & Fl & Fi). assert (Rs : forall buf, runs ps [] buf) by (intros b; exact (IH _ [] b K Fi)).
    destruct (Nat.eq_dec (length args) 0) as [E|E]; [apply (loop_runs l ps Ki Rs Ten 0); [exact E | easy]|].
    destruct (Fl ltac:(lia)) as (_ & P & k & L). exact (loop_runs l ps Ki Rs Ten k args buf L (fun _ => P)).
Qed.
End Items.
Lemma format_made ltext rtext live ret ps args ss : flatten ltext = Val live -> flatten rtext = Val ret -> Z.of_nat (length args) < 8589934591 ->
  format_ok ps -> fits ps 0 (length args) -> Forall2 (fun a s => flatten a = Val s) args ss -> Forall tidy args -> clean (format_text ps) ->
  exists F y t, (forall f, (F <= f)%nat -> c_format_prim f ltext rtext (format_text ps) args = Ok (Val y)) /\ makes live ret (length args) ps ss t /\ shortened t y.
Proof.
  intros L R N K Fi As D C. destruct (format_runs ltext rtext live ret (length args) L R N ps 0 args [] K Fi) as (F & b & E & Rs).
  destruct (Rs ss O [] [] eq_refl As D C Fi eq_refl (sd_refl _)) as (y & t & Y & M & S). exists F, y, t. split; [|split; assumption].
  intros f Lf. unfold c_format_prim. rewrite E by exact Lf. f_equal. exact Y.
Qed.
(** ** Too few or too many operands *)
Lemma step_arg_none lt rt total f i r buf : takes i = true -> item_ok i r -> scan lt rt total (S f) (item_text i ++ r) [] buf = CErr.
Proof.
  intros T Ki. destruct i; try discriminate; unfold item_ok in Ki.
  - change (item_text IArg ++ r) with (36 :: 97 :: 114 :: 103 :: r). cbn [Model_Format.scan app]. change (negb (36 =? 36)) with false. cbv iota.
    assert (S1 : ~ starts (fun c => c = 99) r) by (eapply starts_imp; [|exact Ki]; intros ? ->; left; exact lod99). assert (S3 : ~ starts letter_or_digit r) by (eapply starts_imp; [|exact Ki]; cbn; tauto).
    rewrite (mn_not (codes "arg") 99 [] r S1 : match_name Some (97 :: 114 :: 103 :: r) (codes "argc") = None).
    assert (S' : ~ starts (fun c => c = 35) r) by (eapply starts_imp; [|exact Ki]; cbn; tauto).
    rewrite (mn_not (codes "arg") 35 [45; 49] r S' : match_name Some (97 :: 114 :: 103 :: r) (codes "arg#-1") = None).
    rewrite (mn_not (codes "arg") 35 [43; 49] r S' : match_name Some (97 :: 114 :: 103 :: r) (codes "arg#+1") = None).
    rewrite (mn_not (codes "arg") 35 [] r S' : match_name Some (97 :: 114 :: 103 :: r) (codes "arg#") = None).
    now rewrite (mn_app (codes "arg") r S3 : match_name Some (97 :: 114 :: 103 :: r) (codes "arg") = Some r).
  - change (item_text IPlain ++ r) with (36 :: 97 :: r). cbn [Model_Format.scan app]. change (negb (36 =? 36)) with false. cbv iota.
    assert (S' : ~ starts (fun c => c = 114) r) by (eapply starts_imp; [|exact Ki]; intros ? ->; exact lod114).
    rewrite (mn_not (codes "a") 114 [103; 99] r S' : match_name Some (97 :: r) (codes "argc") = None).
    rewrite (mn_not (codes "a") 114 [103; 35; 45; 49] r S' : match_name Some (97 :: r) (codes "arg#-1") = None).
    rewrite (mn_not (codes "a") 114 [103; 35; 43; 49] r S' : match_name Some (97 :: r) (codes "arg#+1") = None).
    rewrite (mn_not (codes "a") 114 [103; 35] r S' : match_name Some (97 :: r) (codes "arg#") = None).
    rewrite (mn_not (codes "a") 114 [103] r S' : match_name Some (97 :: r) (codes "arg") = None).
    now rewrite (mn_app (codes "a") r Ki : match_name Some (97 :: r) (codes "a") = Some r).
Qed.
Lemma items_text_app a b : items_text (a ++ b) = items_text a ++ items_text b.
Proof. apply flat_map_app. Qed.
Lemma cut_items : forall l next n, items_ok l next -> (n < count l)%nat -> exists l1 i l2, l = l1 ++ i :: l2 /\ takes i = true /\ count l1 = n /\ items_ok l1 (item_text i ++ items_text l2 ++ next) /\ item_ok i (items_text l2 ++ next).
Proof.
  induction l as [|j l IH]; intros next n K L; [cbn in L; lia|]. destruct K as (Kj & K). destruct (takes j) eqn:T.
  - destruct n as [|n].
    + exists [], j, l. repeat split; auto. cbn. right. destruct j; try discriminate; reflexivity.
    + unfold count in L. cbn [filter] in L. rewrite T in L. cbn [length] in L. destruct (IH next n K) as (l1 & i & l2 & -> & Ti & C & K1 & Ki); [unfold count; lia|].
      exists (j :: l1), i, l2. repeat split; auto; [unfold count in *; cbn [filter]; rewrite T; cbn [length]; lia|]. rewrite items_text_app in Kj. cbn [items_text flat_map] in Kj. rewrite <- !app_assoc in Kj. exact Kj.
  - unfold count in L. cbn [filter] in L. rewrite T in L. destruct (IH next n K L) as (l1 & i & l2 & -> & Ti & C & K1 & Ki).
    exists (j :: l1), i, l2. repeat split; auto; [unfold count in *; cbn [filter]; now rewrite T|]. rewrite items_text_app in Kj. cbn [items_text flat_map] in Kj. rewrite <- !app_assoc in Kj. exact Kj.
Qed.
Lemma wrong_count ltext rtext live ret l args : flatten ltext = Val live -> flatten rtext = Val ret -> Z.of_nat (length args) < 8589934591 ->
  items_ok l [] -> count l <> length args -> exists F, forall f, (F <= f)%nat -> c_format_prim f ltext rtext (items_text l) args = CErr.
Proof.
  intros L R N K C. destruct (Nat.lt_ge_cases (length args) (count l)) as [Lt|Ge].
  - destruct (cut_items l [] (length args) K Lt) as (l1 & i & l2 & -> & T & C1 & K1 & Ki).
    destruct (items_scan ltext rtext live ret (length args) L R N (length l1) l1 _ args [] (le_n _) K1) as (F & b & E & _); [lia|].
    exists (S F). intros f Lf. unfold c_format_prim. rewrite items_text_app. cbn [items_text flat_map]. fold (items_text l2). rewrite !app_nil_r in *.
    replace f with (F + S (f - F - 1))%nat by lia. rewrite E, C1, skipn_all. now rewrite step_arg_none.
  - destruct (items_scan ltext rtext live ret (length args) L R N (length l) l [] args [] (le_n _) K Ge) as (F & b & E & _).
    exists (S F). intros f Lf. unfold c_format_prim. rewrite app_nil_r in E. replace f with (F + S (f - F - 1))%nat by lia. rewrite E. cbn [scan].
    assert (Ls : length (skipn (count l) args) = (length args - count l)%nat) by apply skipn_length. destruct (skipn (count l) args); [cbn in Ls; lia | reflexivity].
Qed.
(** ** Whole words only *)
Lemma scan_chars lt rt total p : ~ In 36 p -> forall f r args buf, scan lt rt total (length p + f) (p ++ r) args buf = scan lt rt total f r args (rev (map TC p) ++ buf).
Proof.
  induction p as [|c p IH]; intros N f r args buf; [reflexivity|]. cbn [length Nat.add app]. rewrite step_char by (intros ->; apply N; now left). rewrite IH by (intros I; apply N; now right).
  cbn [map rev]. now rewrite <- app_assoc.
Qed.
Lemma mn_text_long p c r : letter_or_digit c -> match_name text_char (map TC p ++ TC c :: r) p = None.
Proof. intros S. induction p as [|x p IH]; cbn; [|now rewrite Z.eqb_refl]. apply alnum_ok in S. now rewrite S. Qed.
Lemma tc_app_inv : forall (u : list Z) (v : list Z) r, map TC u = map TC v ++ r -> exists x, u = v ++ x.
Proof. intros u v. revert u. induction v as [|c v IH]; intros u r E; [now exists u|]. destruct u as [|d u]; [discriminate|]. injection E as -> E. destruct (IH _ _ E) as (x & ->). now exists x. Qed.
Lemma part_word pre c t s : ~ In 36 (pre ++ c :: t) -> letter_or_digit c -> primexp_ctype s = Some t -> (forall x, pre ++ c :: t <> x ++ codes "void") ->
  forall f, (length pre + length t + 9 <= f)%nat -> c_format f (pre ++ c :: t ++ codes "_from_$arg") [TS s] = Ok (Val (pre ++ c :: t ++ codes "_from_" ++ s)).
Proof.
  intros N L T V f Lf. unfold c_format, c_format_prim. set (p := pre ++ c :: t ++ codes "_from_").
  assert (Ep : p = (pre ++ c :: t) ++ codes "_from_") by (unfold p; rewrite <- app_assoc; reflexivity).
  replace (pre ++ c :: t ++ codes "_from_$arg") with (p ++ codes "$arg") by (unfold p; rewrite <- app_assoc; cbn [app]; rewrite <- app_assoc; reflexivity).
  assert (Lp : length p = (length pre + length t + 7)%nat) by (rewrite Ep, !app_length; cbn [length]; change (length (codes "_from_")) with 6%nat; lia).
  replace f with (length p + S (S (f - length p - 2)))%nat by lia. rewrite scan_chars; [|rewrite Ep; rewrite in_app_iff; intros [I|I]; [auto | vm_compute in I; lia]].
  change (codes "$arg") with (codes "$arg" ++ []). rewrite step_arg by easy. rewrite app_nil_r. cbn [Model_Format.scan].
  assert (P : put_arg (TS s) (rev (map TC p)) = TS s :: rev (map TC p)).
  { unfold put_arg. rewrite T. unfold casts. rewrite <- map_rev, Ep, rev_app_distr.
    assert (A : match_name text_char (map TC (rev (codes "_from_") ++ rev (pre ++ c :: t))) (rev (t ++ codes "_from_")) = None).
    { replace (rev (codes "_from_") ++ rev (pre ++ c :: t)) with (rev (t ++ codes "_from_") ++ c :: rev pre) by (rewrite !rev_app_distr; cbn [rev]; now rewrite <- !app_assoc).
      rewrite map_app. cbn [map]. now apply mn_text_long. }
    assert (B : match_name text_char (map TC (rev (codes "_from_") ++ rev (pre ++ c :: t))) (rev (codes "void_from_")) = None).
    { destruct (match_name _ _ (rev (codes "void_from_"))) as [r|] eqn:E; [|reflexivity]. exfalso. apply mn_some in E. destruct E as (q & E & M & _). apply map_tc in M. subst q.
      destruct (tc_app_inv _ _ _ E) as (x & Ex). change (rev (codes "void_from_")) with (rev (codes "_from_") ++ rev (codes "void")) in Ex. rewrite <- app_assoc in Ex. apply app_inv_head in Ex.
      apply (f_equal (@rev Z)) in Ex. rewrite rev_involutive, rev_app_distr, rev_involutive in Ex. now apply V in Ex. }
    rewrite A, B. reflexivity. }
  rewrite P. cbn [rev]. rewrite rev_involutive. do 2 f_equal. fold (flats (map TC p ++ [TS s])). rewrite flats_app, flats_chars. cbn. rewrite app_nil_r. unfold p. rewrite <- app_assoc. cbn [app]. now rewrite <- app_assoc.
Qed.
