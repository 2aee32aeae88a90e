From Coq Require Import ZArith List Bool Lia.
From Verif Require Import Base Model_CStr Model_Clean Spec_Clean.
Import ListNotations.
Open Scope Z_scope.

Lemma ref_app a r k : string_ref (a ++ r) (length a + k) = string_ref r k.
Proof. unfold string_ref. rewrite nth_error_app2 by lia. now replace (length a + k - length a)%nat with k by lia. Qed.
Lemma set_app a : forall r k c, set_nth (a ++ r) (length a + k) c = rbind (set_nth r k c) (fun x => Val (a ++ x)).
Proof.
  induction a as [|y a IH]; intros r k c; cbn [app length Nat.add]; [now destruct (set_nth r k c)|].
  cbn [set_nth]. rewrite IH. now destruct (set_nth r k c).
Qed.
Lemma tests_app a r l : tests (a ++ r) (length a) l = tests r 0 l.
Proof.
  induction l as [|x l IH]; [reflexivity|]. destruct x as [k c|k|k k']; cbn [tests]; rewrite ?ref_app; cbn [Nat.add].
  - destruct (string_ref r k); [|reflexivity]. cbn [rbind]. now rewrite IH.
  - destruct (string_ref r k); [|reflexivity]. cbn [rbind]. now rewrite IH.
  - destruct (string_ref r k); [|reflexivity]. cbn [rbind]. destruct (string_ref r k'); [|reflexivity]. cbn [rbind]. now rewrite IH.
Qed.
Lemma sets_app a l : forall r, sets (a ++ r) (length a) l = rbind (sets r 0 l) (fun x => Val (a ++ x)).
Proof.
  induction l as [|x l IH]; intros r; [reflexivity|]. destruct x as [k c|k k']; cbn [sets]; rewrite ?ref_app, ?set_app; cbn [Nat.add].
  - destruct (set_nth r k c) as [x|]; [|reflexivity]. cbn [rbind]. apply IH.
  - destruct (string_ref r k') as [y|]; [|reflexivity]. cbn [rbind]. rewrite set_app. cbn [Nat.add].
    destruct (set_nth r k y) as [x|]; [|reflexivity]. cbn [rbind]. apply IH.
Qed.

Ltac peel r n := match n with O => idtac | S ?m => destruct r as [|? r]; [cbn [length] in *; try lia|peel r m] end.
Ltac tst := cbn [tests tests1 tests2 string_ref nth_error rbind Nat.add]; unfold string_ref; cbn [nth_error rbind].
Ltac split1 := match goal with |- context [if ?b then _ else _] => destruct b eqn:? end.
Lemma t1_ok r : (8 < length r)%nat -> exists b, tests r 0 tests1 = Val b /\
  (b = true -> exists d u, digit d /\ r = par_before d ++ u) /\
  (b = false -> forall d u, digit d -> r <> par_before d ++ u).
Proof.
  intros H. peel r 9%nat. unfold tests1. tst. unfold char_numeric, par_before, digit.
  repeat (split1; [|exists false; split; [reflexivity|]; split; [discriminate|]; intros _ d u Hd E; cbn [app] in E; injection E; intros; subst; cbn in *; lia]).
  exists true. split; [reflexivity|]. split; [|discriminate]. intros _. eexists. exists r. split; [|cbn [app]; repeat f_equal; lia]. lia.
Qed.
Lemma t2_ok r : (13 < length r)%nat -> exists b, tests r 0 tests2 = Val b /\
  (b = true -> exists d u, digit d /\ r = self_before d ++ u) /\
  (b = false -> forall d u, digit d -> r <> self_before d ++ u).
Proof.
  intros H. peel r 14%nat. unfold tests2. tst. unfold char_numeric, self_before, digit.
  repeat (split1; [|exists false; split; [reflexivity|]; split; [discriminate|]; intros _ d u Hd E; cbn [app] in E; injection E; intros; subst; cbn in *; lia]).
  exists true. split; [reflexivity|]. split; [|discriminate]. intros _. eexists. exists r. split; [|cbn [app]; repeat f_equal; lia]. lia.
Qed.
Lemma s1_ok d u : sets (par_before d ++ u) 0 sets1 = Val (par_after d ++ u).
Proof. reflexivity. Qed.
Lemma s2_ok d u : sets (self_before d ++ u) 0 sets2 = Val (self_after d ++ u).
Proof. reflexivity. Qed.

Lemma loop_ok : forall fuel a r, (length r < fuel)%nat ->
  exists t, cleanup_loop fuel (a ++ r) (length a) = Val (a ++ t) /\ clean r t.
Proof.
  induction fuel as [|k IH]; intros a r Hf; [lia|]. cbn [cleanup_loop]. rewrite app_length.
  destruct r as [|c r].
  - exists []. cbn [length]. replace (length a + 0 <=? length a)%nat with true by (symmetry; apply Nat.leb_le; lia).
    split; [reflexivity|constructor].
  - set (L := length (c :: r)). assert (HL : L = S (length r)) by reflexivity.
    replace (length a + L <=? length a)%nat with false by (symmetry; apply Nat.leb_gt; lia).
    assert (R : string_ref (a ++ c :: r) (length a) = Val c).
    { replace (length a) with (length a + 0)%nat by lia. rewrite ref_app. reflexivity. }
    rewrite R. cbn [rbind].
    destruct (c =? 34) eqn:Ec; [exists (c :: r); split; [reflexivity|]; replace c with 34 by lia; constructor|].
    rewrite !tests_app.
    assert (B1 : exists b, (if (length a + 8 <? length a + L)%nat then tests (c :: r) 0 tests1 else Val false) = Val b /\
      (b = true -> exists d u, digit d /\ c :: r = par_before d ++ u) /\ (b = false -> forall d u, digit d -> c :: r <> par_before d ++ u)).
    { destruct (length a + 8 <? length a + L)%nat eqn:E.
      - apply Nat.ltb_lt in E. apply t1_ok. cbn [length]. lia.
      - apply Nat.ltb_ge in E. exists false. split; [reflexivity|]. split; [discriminate|]. intros _ d u _ X. apply (f_equal (@length Z)) in X.
        rewrite app_length in X. cbn [length par_before] in X. lia. }
    destruct B1 as (b1 & E1 & T1 & F1). rewrite E1. cbn [rbind]. destruct b1.
    { destruct (T1 eq_refl) as (d & u & Hd & Er). rewrite Er, sets_app, s1_ok. cbn [rbind].
      replace (length a + 9)%nat with (length (a ++ par_after d)) by (rewrite app_length; reflexivity).
      rewrite app_assoc. apply (f_equal (@length Z)) in Er. rewrite app_length in Er. cbn [length par_before] in Er.
      destruct (IH (a ++ par_after d) u) as (t & Et & Ht); [lia|]. exists (par_after d ++ t). rewrite Et, app_assoc. split; [reflexivity|now constructor]. }
    assert (B2 : exists b, (if (length a + 13 <? length a + L)%nat then tests (c :: r) 0 tests2 else Val false) = Val b /\
      (b = true -> exists d u, digit d /\ c :: r = self_before d ++ u) /\ (b = false -> forall d u, digit d -> c :: r <> self_before d ++ u)).
    { destruct (length a + 13 <? length a + L)%nat eqn:E.
      - apply Nat.ltb_lt in E. apply t2_ok. cbn [length]. lia.
      - apply Nat.ltb_ge in E. exists false. split; [reflexivity|]. split; [discriminate|]. intros _ d u _ X. apply (f_equal (@length Z)) in X.
        rewrite app_length in X. cbn [length self_before] in X. lia. }
    destruct B2 as (b2 & E2 & T2 & F2). rewrite E2. cbn [rbind]. destruct b2.
    { destruct (T2 eq_refl) as (d & u & Hd & Er). rewrite Er, sets_app, s2_ok. cbn [rbind].
      replace (length a + 14)%nat with (length (a ++ self_after d)) by (rewrite app_length; reflexivity).
      rewrite app_assoc. apply (f_equal (@length Z)) in Er. rewrite app_length in Er. cbn [length self_before] in Er.
      destruct (IH (a ++ self_after d) u) as (t & Et & Ht); [lia|]. exists (self_after d ++ t). rewrite Et, app_assoc. split; [reflexivity|now constructor]. }
    replace (length a + 1)%nat with (length (a ++ [c])) by (rewrite app_length; reflexivity).
    replace (a ++ c :: r) with ((a ++ [c]) ++ r) by (rewrite <- app_assoc; reflexivity).
    destruct (IH (a ++ [c]) r) as (t & Et & Ht); [lia|]. exists (c :: t). rewrite Et, <- app_assoc. split; [reflexivity|].
    constructor; auto. lia.
Qed.

Lemma cleanup_ok s : exists t, cleanup_c_code s = Val t /\ clean s t.
Proof. destruct (loop_ok (S (length s)) [] s) as (t & E & H); [lia|]. exists t. split; [exact E|exact H]. Qed.

Lemma par_self d u d' u' : par_before d ++ u <> self_before d' ++ u'.
Proof. discriminate. Qed.
Lemma clean_fun s t : clean s t -> forall t', clean s t' -> t = t'.
Proof.
  induction 1 as [|s|d s t Hd H IH|d s t Hd H IH|c s t Hc N1 N2 H IH]; intros t' H'.
  - remember [] as x eqn:Ex. destruct H'; try discriminate. reflexivity.
  - remember (34 :: s) as x eqn:Ex. destruct H' as [|s0|d0 s0 t0 Hd0 H0|d0 s0 t0 Hd0 H0|c0 s0 t0 Hc0 M1 M2 H0]; try discriminate; [reflexivity|]. injection Ex as -> _. congruence.
  - remember (par_before d ++ s) as x eqn:Ex. destruct H' as [|s0|d0 s0 t0 Hd0 H0|d0 s0 t0 Hd0 H0|c0 s0 t0 Hc0 M1 M2 H0]; try discriminate.
    + injection Ex; intros Es Ed. subst d0 s0. now rewrite (IH t0 H0).
    + exfalso. exact (M1 d s Hd Ex).
  - remember (self_before d ++ s) as x eqn:Ex. destruct H' as [|s0|d0 s0 t0 Hd0 H0|d0 s0 t0 Hd0 H0|c0 s0 t0 Hc0 M1 M2 H0]; try discriminate.
    + injection Ex; intros; subst d0 s0. now rewrite (IH t0 H0).
    + exfalso. exact (M2 d s Hd Ex).
  - remember (c :: s) as x eqn:Ex. destruct H' as [|s0|d0 s0 t0 Hd0 H0|d0 s0 t0 Hd0 H0|c0 s0 t0 Hc0 M1 M2 H0]; try discriminate.
    + injection Ex as E1 _. congruence.
    + exfalso. exact (N1 d0 s0 Hd0 eq_refl).
    + exfalso. exact (N2 d0 s0 Hd0 eq_refl).
    + injection Ex as -> ->. now rewrite (IH t0 H0).
Qed.
Lemma clean_iff s t : cleanup_c_code s = Val t <-> clean s t.
Proof.
  destruct (cleanup_ok s) as (u & E & H). split.
  - intros E'. rewrite E in E'. injection E' as <-. exact H.
  - intros H'. now rewrite E, (clean_fun s u H t H').
Qed.
Lemma clean_length s t : clean s t -> length t = length s.
Proof. induction 1; rewrite ?app_length; cbn [length par_before par_after self_before self_after]; rewrite ?IHclean; reflexivity. Qed.
Lemma clean_quote s t : clean s t -> forall a b, s = a ++ 34 :: b -> exists a', t = a' ++ 34 :: b /\ length a' = length a.
Proof.
  induction 1 as [|s|d s t Hd H IH|d s t Hd H IH|c s t Hc N1 N2 H IH]; intros a b E.
  - destruct a; discriminate.
  - destruct a as [|x a]; cbn [app] in E; [injection E as ->; now exists []|]. injection E as <- ->. exists (34 :: a). split; reflexivity.
  - do 9 (destruct a as [|? a]; [exfalso; injection E; unfold digit in Hd; intros; lia|]).
    assert (Es : s = a ++ 34 :: b) by (injection E; intros; assumption). destruct (IH a b Es) as (a' & -> & L).
    exists (par_after d ++ a'). split; [now rewrite <- app_assoc|]. cbn [par_after app length]. lia.
  - do 14 (destruct a as [|? a]; [exfalso; injection E; unfold digit in Hd; intros; lia|]).
    assert (Es : s = a ++ 34 :: b) by (injection E; intros; assumption). destruct (IH a b Es) as (a' & -> & L).
    exists (self_after d ++ a'). split; [now rewrite <- app_assoc|]. cbn [self_after app length]. lia.
  - destruct a as [|x a]; cbn [app] in E; [injection E; intros; congruence|]. injection E as <- E.
    destruct (IH a b E) as (a' & -> & L). exists (c :: a'). split; [reflexivity|cbn [length]; lia].
Qed.

(** register moves *)
Lemma other1 c s t : c <> 34 -> c <> 61 -> c <> 114 -> clean s t -> clean (c :: s) (c :: t).
Proof. intros H1 H2 H3 H. constructor; auto; intros d u _ E; injection E; intros; congruence. Qed.
Lemma skip_plain p : forall s t, Forall (fun c => c <> 34 /\ c <> 61 /\ c <> 114) p -> clean s t -> clean (p ++ s) (p ++ t).
Proof. induction p as [|c p IH]; intros s t F H; [exact H|]. cbn [app]. pose proof (Forall_inv F) as (A & B & C). apply other1; auto. apply IH; [exact (Forall_inv_tail F)|exact H]. Qed.
Lemma digits_plain n : Forall digit n -> Forall (fun c => c <> 34 /\ c <> 61 /\ c <> 114) n.
Proof. apply Forall_impl. unfold digit. intros. lia. Qed.
Lemma eol_clean s t : clean s t -> clean (eol ++ s) (eol ++ t).
Proof. apply skip_plain. repeat (constructor; [lia|]). constructor. Qed.
(** the second half: [= (r[j]);] *)
Lemma half_ok j s t : numeral10 j -> clean s t ->
  clean ([61; 32; 40; 114; 91] ++ j ++ [93; 41; 59] ++ s)
        (match j with [b] => par_after b ++ t | _ => [61; 32; 40; 114; 91] ++ j ++ [93; 41; 59] ++ t end).
Proof.
  intros [Hn F] H. destruct j as [|a [|b j]]; [congruence| |].
  - apply (cl_par a s t); [exact (Forall_inv F)|exact H].
  - assert (Da := Forall_inv F). assert (Db := Forall_inv (Forall_inv_tail F)). unfold digit in Da, Db.
    cbn [app]. apply cl_other; [lia|intros d u _ E; injection E; intros; lia|intros d u _ E; discriminate|].
    apply other1; [lia..|]. apply other1; [lia..|].
    apply cl_other; [lia|intros d u _ E; discriminate|intros d u _ E; injection E; intros; lia|].
    apply other1; [lia..|]. apply (skip_plain (a :: b :: j)); [now apply digits_plain|].
    apply (skip_plain [93; 41; 59]); [repeat (constructor; [lia|]); constructor|exact H].
Qed.
Lemma move_ok i j s t : numeral10 i -> numeral10 j -> clean s t -> clean (print_move (i, j) ++ s) (clean_move (i, j) ++ t).
Proof.
  intros [Ni Fi] Hj H. unfold print_move. cbn [fst snd]. rewrite <- !app_assoc.
  pose proof (half_ok j (eol ++ s) (eol ++ t) Hj (eol_clean s t H)) as Hh.
  assert (Gen : (forall d u, digit d -> [114; 91] ++ i ++ [93; 32] ++ [61; 32; 40; 114; 91] ++ j ++ [93; 41; 59] ++ eol ++ s <> self_before d ++ u) ->
    clean ([114; 91] ++ i ++ [93; 32] ++ [61; 32; 40; 114; 91] ++ j ++ [93; 41; 59] ++ eol ++ s)
          ([114; 91] ++ i ++ [93; 32] ++ match j with [b] => par_after b ++ eol ++ t | _ => [61; 32; 40; 114; 91] ++ j ++ [93; 41; 59] ++ eol ++ t end)).
  { intros N. cbn [app]. apply cl_other; [lia|intros d u _ E; discriminate|exact N|].
    apply other1; [lia..|]. apply skip_plain; [now apply digits_plain|]. apply (skip_plain [93; 32]); [repeat (constructor; [lia|]); constructor|exact Hh]. }
  change ([93; 32; 61; 32; 40; 114; 91] ++ j ++ [93; 41; 59] ++ eol ++ s)
    with ([93; 32] ++ [61; 32; 40; 114; 91] ++ j ++ [93; 41; 59] ++ eol ++ s).
  destruct i as [|a [|a2 i]]; [congruence| |].
  - assert (Di := Forall_inv Fi). destruct j as [|b [|b2 j]]; [destruct Hj; congruence| |].
    + unfold clean_move. destruct (a =? b) eqn:E.
      * replace b with a by lia. rewrite <- app_assoc. apply (cl_self a (eol ++ s)); [exact Di|now apply eol_clean].
      * apply Gen. intros d u _ X. injection X. intros. lia.
    + unfold clean_move, print_move; cbn [fst snd]; rewrite <- !app_assoc. apply Gen. destruct Hj as [_ Fj]. assert (Db := Forall_inv (Forall_inv_tail Fj)). unfold digit in Db. intros d u _ X. injection X. intros. lia.
  - assert (Da := Forall_inv (Forall_inv_tail Fi)). unfold digit in Da.
    assert (N : forall d u, digit d -> [114; 91] ++ (a :: a2 :: i) ++ [93; 32] ++ [61; 32; 40; 114; 91] ++ j ++ [93; 41; 59] ++ eol ++ s <> self_before d ++ u)
      by (intros d u _ X; injection X; intros; lia).
    specialize (Gen N). destruct j as [|b [|b2 j]]; [destruct Hj; congruence| |].
    + unfold clean_move. rewrite <- !app_assoc. exact Gen.
    + unfold clean_move, print_move. cbn [fst snd]. rewrite <- !app_assoc. exact Gen.
Qed.
Lemma moves_ok l : Forall (fun m => numeral10 (fst m) /\ numeral10 (snd m)) l ->
  cleanup_c_code (print_moves l) = Val (concat (map clean_move l)).
Proof.
  intros F. apply clean_iff. induction l as [|[i j] l IH]; [constructor|]. cbn [print_moves map concat].
  destruct (Forall_inv F). apply move_ok; auto. apply IH. exact (Forall_inv_tail F).
Qed.

(** meaning of moves *)
Fixpoint run_moves (l : list move) (r : regs) : regs :=
  match l with [] => r | (i, j) :: l' => run_moves l' (setr r (num i) (r (num j))) end.
Lemma exec_sp p s r r' : Forall (fun c => c = 32 \/ c = 10) p -> exec s r r' -> exec (p ++ s) r r'.
Proof. induction p as [|c p IH]; intros F H; [exact H|]. cbn [app]. constructor; [exact (Forall_inv F)|]. apply IH; [exact (Forall_inv_tail F)|exact H]. Qed.
Lemma eol_sp : Forall (fun c => c = 32 \/ c = 10) eol.
Proof. repeat (constructor; [lia|]). constructor. Qed.
Definition moves_wf (l : list move) := Forall (fun m => numeral10 (fst m) /\ numeral10 (snd m)) l.
Lemma exec_print l : moves_wf l -> forall r, exec (print_moves l) r (run_moves l r).
Proof.
  induction l as [|[i j] l IH]; intros W r; [constructor; reflexivity|]. cbn [run_moves]. change (print_moves ((i, j) :: l)) with (print_move (i, j) ++ print_moves l). unfold print_move. cbn [fst snd].
  destruct (Forall_inv W) as [Wi Wj]. rewrite <- !app_assoc. apply ex_par; [exact Wi|exact Wj|]. apply exec_sp; [exact eol_sp|]. apply IH. exact (Forall_inv_tail W).
Qed.
Lemma exec_ext s r r' : exec s r r' -> forall q, (forall x, q x = r x) -> exists q', exec s q q' /\ forall x, q' x = r' x.
Proof.
  induction 1 as [r r' E|c s r r' Hc H IH|t s r r' Ht H IH|i j s r r' Ni Nj H IH|i j s r r' Ni Nj H IH]; intros q Q.
  - exists q. split; [constructor; reflexivity|]. intros x. now rewrite Q, E.
  - destruct (IH q Q) as (q' & A & B). exists q'. split; [now constructor|exact B].
  - destruct (IH q Q) as (q' & A & B). exists q'. split; [now constructor|exact B].
  - destruct (IH (setr q (num i) (q (num j)))) as (q' & A & B); [intros x; unfold setr; destruct (x =? num i); auto|]. exists q'. split; [now constructor|exact B].
  - destruct (IH (setr q (num i) (q (num j)))) as (q' & A & B); [intros x; unfold setr; destruct (x =? num i); auto|]. exists q'. split; [now constructor|exact B].
Qed.
Lemma exec_clean l : moves_wf l -> forall r, exists r', exec (concat (map clean_move l)) r r' /\ forall x, r' x = run_moves l r x.
Proof.
  induction l as [|[i j] l IH]; intros W r; [exists r; split; [constructor|]; reflexivity|]. cbn [map concat run_moves].
  destruct (Forall_inv W) as [Wi Wj]. cbn [fst snd] in Wi, Wj.
  destruct (IH (Forall_inv_tail W) (setr r (num i) (r (num j)))) as (r' & E & H).
  assert (Self : num i = num j -> exists q, exec (concat (map clean_move l)) r q /\ forall x, q x = run_moves l (setr r (num i) (r (num j))) x).
  { intros N. destruct (exec_ext _ _ _ E r) as (q & A & B).
    - intros x. unfold setr. destruct (x =? num i) eqn:X; [|reflexivity]. f_equal. lia.
    - exists q. split; [exact A|]. intros x. now rewrite B, H. }
  assert (Plain : exec (print_move (i, j) ++ concat (map clean_move l)) r r').
  { unfold print_move. cbn [fst snd]. rewrite <- !app_assoc. apply ex_par; [exact Wi|exact Wj|]. apply exec_sp; [exact eol_sp|exact E]. }
  assert (Par : forall b, j = [b] -> exec (([114; 91] ++ i ++ [93; 32] ++ par_after b ++ eol) ++ concat (map clean_move l)) r r').
  { intros b ->. rewrite <- !app_assoc.
    change (par_after b ++ eol ++ concat (map clean_move l)) with ([61; 32; 114; 91] ++ [b] ++ [93; 59] ++ [32; 32] ++ eol ++ concat (map clean_move l)).
    apply (ex_move i [b]); [exact Wi|exact Wj|]. apply (exec_sp [32; 32]); [repeat (constructor; [lia|]); constructor|]. apply exec_sp; [exact eol_sp|exact E]. }
  destruct i as [|a [|a2 i]]; destruct j as [|b [|b2 j]]; try (exists r'; split; [exact Plain|exact H]); try (exists r'; split; [exact (Par b eq_refl)|exact H]).
  cbn [clean_move]. destruct (a =? b) eqn:Eab.
  - assert (a = b) by lia. subst b. destruct (Self eq_refl) as (q & A & B). exists q. split; [|exact B]. rewrite <- app_assoc.
    apply (ex_comment [32; 114; 91; a; 93; 32]); [|apply (exec_sp [32; 32; 32; 32]); [repeat (constructor; [lia|]); constructor|]; apply exec_sp; [exact eol_sp|exact A]].
    intros x y X. assert (I : In 42 [32; 114; 91; a; 93; 32] -> a = 42) by (cbn [In]; intuition lia).
    assert (I2 : In 42 [32; 114; 91; a; 93; 32]) by (rewrite X; apply in_or_app; right; now left).
    apply I in I2. subst a. do 6 (destruct x as [|? x]; [cbn [app] in X; injection X; intros; lia|]). destruct x; discriminate.
  - exists r'. split; [exact (Par b eq_refl)|exact H].
Qed.

(** the meaning is a function of the text *)
Lemma digits_split i : forall i' c c' u u', Forall digit i -> Forall digit i' -> ~ digit c -> ~ digit c' ->
  i ++ c :: u = i' ++ c' :: u' -> i = i' /\ c = c' /\ u = u'.
Proof.
  induction i as [|a i IH]; intros [|a' i'] c c' u u' F F' N N' E; cbn [app] in E; injection E as E1 E2; subst.
  - auto.
  - destruct (N (Forall_inv F')).
  - destruct (N' (Forall_inv F)).
  - destruct (IH i' c c' u u' (Forall_inv_tail F) (Forall_inv_tail F') N N' E2) as (-> & -> & ->). auto.
Qed.
Lemma comment_split t : forall t' s s', (forall a b, t <> a ++ 42 :: 47 :: b) -> (forall a b, t' <> a ++ 42 :: 47 :: b) ->
  t ++ 42 :: 47 :: s = t' ++ 42 :: 47 :: s' -> s = s'.
Proof.
  induction t as [|a t IH]; intros [|a' t'] s s' N N' E; cbn [app] in E.
  - congruence.
  - injection E as <- E. destruct t' as [|b t']; cbn [app] in E; [discriminate|]. injection E as <- _. exfalso. exact (N' [] t' eq_refl).
  - injection E as -> E. destruct t as [|b t]; cbn [app] in E; [discriminate|]. injection E as -> _. exfalso. exact (N [] t eq_refl).
  - injection E as -> E. apply (IH t' s s'); [|(intros x y ->; exact (N' (a' :: x) y eq_refl))|exact E]. intros x y ->. exact (N (a' :: x) y eq_refl).
Qed.
Lemma exec_fun s r r1 : exec s r r1 -> forall q q1, exec s q q1 -> (forall x, q x = r x) -> forall x, q1 x = r1 x.
Proof.
  assert (Nd : forall c, c < 48 \/ c > 57 -> ~ digit c) by (unfold digit; intros; lia).
  induction 1 as [r r' E|c s r r' Hc H IH|t s r r' Ht H IH|i j s r r' Ni Nj H IH|i j s r r' Ni Nj H IH]; intros q q1 X Q.
  - remember [] as y eqn:Ey. destruct X; try discriminate. intros x. now rewrite H, Q, E.
  - remember (c :: s) as y eqn:Ey. destruct X as [? ? X|c' s' ? ? Hc' X|t' s' ? ? Ht' X|i' j' s' ? ? Ni' Nj' X|i' j' s' ? ? Ni' Nj' X];
      [discriminate| |injection Ey; intros; lia..]. injection Ey as <- <-. eauto.
  - remember ([47; 42] ++ t ++ [42; 47] ++ s) as y eqn:Ey. destruct X as [? ? X|c' s' ? ? Hc' X|t' s' ? ? Ht' X|i' j' s' ? ? Ni' Nj' X|i' j' s' ? ? Ni' Nj' X];
      [discriminate|injection Ey; intros; lia| |discriminate..].
    cbn [app] in Ey. injection Ey as Ey. apply comment_split in Ey; auto. subst s'. eauto.
  - remember ([114; 91] ++ i ++ [93; 32] ++ [61; 32; 114; 91] ++ j ++ [93; 59] ++ s) as y eqn:Ey.
    destruct X as [? ? X|c' s' ? ? Hc' X|t' s' ? ? Ht' X|i' j' s' ? ? Ni' Nj' X|i' j' s' ? ? Ni' Nj' X];
      [discriminate|injection Ey; intros; lia|discriminate| |].
    + cbn [app] in Ey. injection Ey as Ey. apply digits_split in Ey; [|apply Ni'|apply Ni|apply Nd; lia..]. destruct Ey as (<- & _ & Ey). injection Ey as Ey.
      apply digits_split in Ey; [|apply Nj'|apply Nj|apply Nd; lia..]. destruct Ey as (<- & _ & Ey). injection Ey as <-.
      eapply IH; [exact X|]. intros x. unfold setr. destruct (x =? num i'); auto.
    + cbn [app] in Ey. injection Ey as Ey. apply digits_split in Ey; [|apply Ni'|apply Ni|apply Nd; lia..]. destruct Ey as (_ & _ & Ey). discriminate.
  - remember ([114; 91] ++ i ++ [93; 32; 61; 32; 40; 114; 91] ++ j ++ [93; 41; 59] ++ s) as y eqn:Ey.
    destruct X as [? ? X|c' s' ? ? Hc' X|t' s' ? ? Ht' X|i' j' s' ? ? Ni' Nj' X|i' j' s' ? ? Ni' Nj' X];
      [discriminate|injection Ey; intros; lia|discriminate| |].
    + cbn [app] in Ey. injection Ey as Ey. apply digits_split in Ey; [|apply Ni'|apply Ni|apply Nd; lia..]. destruct Ey as (_ & _ & Ey). discriminate.
    + cbn [app] in Ey. injection Ey as Ey. apply digits_split in Ey; [|apply Ni'|apply Ni|apply Nd; lia..]. destruct Ey as (<- & _ & Ey). injection Ey as Ey.
      apply digits_split in Ey; [|apply Nj'|apply Nj|apply Nd; lia..]. destruct Ey as (<- & _ & Ey). injection Ey as <-.
      eapply IH; [exact X|]. intros x. unfold setr. destruct (x =? num i'); auto.
Qed.
Lemma moves_same l r : Forall (fun m => numeral10 (fst m) /\ numeral10 (snd m)) l ->
  exists t, cleanup_c_code (print_moves l) = Val t /\
  (exists r1 r2, exec (print_moves l) r r1 /\ exec t r r2) /\
  forall r1 r2, exec (print_moves l) r r1 -> exec t r r2 -> forall x, r2 x = r1 x.
Proof.
  intros W. exists (concat (map clean_move l)). split; [now apply moves_ok|].
  destruct (exec_clean l W r) as (r' & E & H). pose proof (exec_print l W r) as P. split; [eauto|].
  intros r1 r2 H1 H2 x. rewrite (exec_fun _ _ _ E _ _ H2 (fun x => eq_refl) x), H.
  symmetry. exact (exec_fun _ _ _ P _ _ H1 (fun x => eq_refl) x).
Qed.
