(** Proofs for functions on the C stack, see Properties_Stack.v *)
From Coq Require Import ZArith List Bool Lia Permutation.
From Verif Require Import Base Model_Lit Model_Core Model_Globals Model_Beta Model_Stack Spec_Scope Spec_Free Spec_Globals Spec_Stack Proofs_Free.
Import ListNotations.
Open Scope Z_scope.

Lemma ideq x y : id_eqb x y = true <-> x = y.
Proof. unfold id_eqb. destruct (id_dec x y); intuition discriminate. Qed.
Lemma idneq x y : id_eqb x y = false <-> x <> y.
Proof. unfold id_eqb. destruct (id_dec x y); intuition discriminate. Qed.
Lemma idrefl x : id_eqb x x = true.
Proof. now apply ideq. Qed.

Section EInd.
Variable Q : exp -> Prop.
Hypothesis H : forall e, (forall e', (exists ys, In (ys, e') (parts e)) -> Q e') -> Q e.
Fixpoint parts_ind (e : exp) : Q e.
Proof.
  apply H. intros e' (ys & I). destruct e as [x|x e|a b c|ef p l|f l|xs b|xs lams b|x b|k e]; cbn [parts] in I.
  - destruct I.
  - destruct I as [E|[]]. injection E as _ <-. apply parts_ind.
  - destruct I as [E|[E|[E|[]]]]; injection E as _ <-; apply parts_ind.
  - revert I. induction l as [|a l IH]; intros I; [destruct I|]. destruct I as [E|I]; [injection E as _ <-; apply parts_ind|now apply IH].
  - destruct I as [E|I]; [injection E as _ <-; apply parts_ind|].
    revert I. induction l as [|a l IH]; intros I; [destruct I|]. destruct I as [E|I]; [injection E as _ <-; apply parts_ind|now apply IH].
  - destruct I as [E|[]]. injection E as _ <-. apply parts_ind.
  - destruct I as [E|I]; [injection E as _ <-; apply parts_ind|].
    revert I. induction lams as [|a l IH]; intros I; [destruct I|]. destruct I as [E|I]; [injection E as _ <-; apply parts_ind|now apply IH].
  - destruct I as [E|[]]. injection E as _ <-. apply parts_ind.
  - destruct I as [E|[E|[]]]; injection E as _ <-; apply parts_ind.
Qed.
End EInd.

Lemma nd_app A (l l' : list A) : NoDup (l ++ l') <-> NoDup l /\ NoDup l' /\ forall x, In x l -> ~ In x l'.
Proof.
  induction l as [|a l IH]; cbn [app].
  - split; [intros H; repeat split; [constructor|easy|easy]|easy].
  - split.
    + intros H. inversion H as [|? ? N1 N2]; subst. apply IH in N2. destruct N2 as (K1 & K2 & K3). rewrite in_app_iff in N1. split; [constructor; tauto|]. split; [easy|].
      intros x [<-|I]; [tauto|auto].
    + intros (K1 & K2 & K3). inversion K1; subst. constructor; [rewrite in_app_iff; intros [I|I]; [easy|now apply (K3 a); [left|]]|]. apply IH. split; [easy|]. split; [easy|].
      intros x I. apply K3. now right.
Qed.
Lemma nd_flat A B (f : A -> list B) l a : NoDup (flat_map f l) -> In a l -> NoDup (f a).
Proof.
  induction l as [|b l IH]; [easy|]. cbn [flat_map]. intros N I. apply nd_app in N. destruct I as [<-|I]; [easy|]. apply IH; easy.
Qed.

Section S.
Variables (self : id) (params : list id).
Notation body := (s_body self params).
Lemma body_any_labels xs ls ls' t e : body xs ls t e -> t = false -> body xs ls' t e.
Proof. intros B. revert ls'. induction B; intros ls' T; try discriminate T; subst; constructor; auto. Qed.
Lemma free_app x f l e : In e l -> free_in x e -> free_in x (EApp f l).
Proof. intros I F. apply (free_part _ _ [] e); [cbn [parts]; right; apply in_map_iff; eauto|easy|easy]. Qed.
Lemma free_prim x ef p l e : In e l -> free_in x e -> free_in x (EPrim ef p l).
Proof. intros I F. apply (free_part _ _ [] e); [cbn [parts]; apply in_map_iff; eauto|easy|easy]. Qed.
Definition spared (e : exp) (xs xs' : list id) : Prop := forall y, In y xs -> In y xs' \/ (~ free_in y e /\ ~ In y (binders e)).
Lemma spared_part e ys e' xs xs' zs : spared e xs xs' -> In (ys, e') (parts e) -> (forall y, In y ys -> In y (binders e)) ->
  (forall y, In y (binders e') -> In y (binders e)) -> (forall z, In z zs -> In z ys \/ In z (binders e)) -> spared e' (zs ++ xs) (zs ++ xs').
Proof.
  intros S P Y B Z y I. rewrite in_app_iff in *. destruct (in_dec id_dec y zs) as [J|J]; [now left; left|]. destruct I as [I|I]; [easy|].
  destruct (S y I) as [H|(H1 & H2)]; [now left; right|]. right. split; [|auto]. intros F. apply H1. apply (free_part _ _ ys e'); auto.
Qed.
Lemma binders_in e l : In e l -> forall y, In y (binders e) -> In y (flat_map binders l).
Proof. intros I y J. apply in_flat_map. eauto. Qed.
Lemma body_drop xs ls t e : body xs ls t e -> forall xs', spared e xs xs' -> body xs' ls t e.
Proof.
  intros B. induction B; intros xs' F.
  - constructor. destruct H as [H|H]; [|now right]. destruct (F x H) as [K|(K & _)]; [now left|]. exfalso. apply K. constructor. constructor.
  - constructor; [apply IHB1|apply IHB2|apply IHB3].
    all: eapply (spared_part _ [] _ xs xs' [] F); [cbn [parts In]; auto|easy| |easy]; intros y I; cbn [binders]; rewrite !in_app_iff; auto.
  - constructor. intros e I. apply H0; [easy|]. eapply (spared_part _ [] _ xs xs' [] F); [apply in_map_iff; eauto|easy| |easy].
    cbn [binders]. now apply binders_in.
  - constructor; [easy| |].
    + intros e I. apply H1; [easy|]. eapply (spared_part _ [] _ xs xs' [] F); [right; apply in_map_iff; eauto|easy| |easy].
      cbn [binders]. intros y J. apply in_app_iff. right. now apply (binders_in e).
    + apply IHB. assert (spared (ELam ys b) ([] ++ xs) ([] ++ xs')) as F'.
      { eapply (spared_part _ [] _ xs xs' [] F); [now left|easy| |easy]. cbn [binders]. intros y J. apply in_app_iff. now left. }
      eapply (spared_part _ ys _ xs xs' ys F'); [now left| | |auto]; cbn [binders]; intros y J; apply in_app_iff; auto.
  - constructor; [easy|]. intros e I. apply H1; [easy|]. eapply (spared_part _ [] _ xs xs' [] F); [right; apply in_map_iff; eauto|easy| |easy].
    cbn [binders app]. now apply binders_in.
  - econstructor; [easy|eassumption|easy|]. intros e I. apply H3; [easy|]. eapply (spared_part _ [] _ xs xs' [] F); [right; apply in_map_iff; eauto|easy| |easy].
    cbn [binders app]. now apply binders_in.
  - constructor; [easy|easy| |].
    + apply IHB. eapply (spared_part _ ys _ xs xs' [] F); [now left| | |easy]; cbn [binders]; intros y J; rewrite !in_app_iff; auto.
    + intros lam I. apply H2; [easy|].
      assert (forall y, In y (fst lam) \/ In y (binders (snd lam)) -> In y (binders (EFix ys lams b))) as K.
      { intros y J. cbn [binders]. rewrite !in_app_iff. right. left. apply in_flat_map. exists lam. rewrite in_app_iff. auto. }
      eapply (spared_part _ (ys ++ fst lam) _ xs xs' (fst lam) F); [right; apply in_map_iff; eauto| |auto|].
      * intros y J. apply in_app_iff in J. destruct J as [J|J]; [cbn [binders]; rewrite in_app_iff; auto|auto].
      * intros z J. left. apply in_app_iff. auto.
  - constructor; [easy|easy| |].
    + intros e I. apply H2; [easy|]. eapply (spared_part _ [] _ xs xs' [] F); [right; apply in_map_iff; eauto|easy| |easy].
      cbn [binders]. intros z J. apply in_app_iff. right. now apply (binders_in e).
    + apply IHB. assert (spared (EFix [y] [(ps, b)] (EVar y)) ([] ++ xs) ([] ++ xs')) as F'.
      { eapply (spared_part _ [] _ xs xs' [] F); [now left|easy| |easy]. cbn [binders]. intros z J. apply in_app_iff. now left. }
      eapply (spared_part _ (y :: ps) _ xs xs' ps F'); [right; now left| | |]; cbn [binders In flat_map app fst snd]; intros z J; rewrite ?in_app_iff; intuition auto.
Qed.

(** ** The counter, and the operands that become variables *)
Lemma gen_all_mono A B (f : A -> Z -> option (B * Z)) : (forall a n b n', f a n = Some (b, n') -> n <= n') ->
  forall l n bs n', gen_all f l n = Some (bs, n') -> n <= n'.
Proof.
  intros F. induction l as [|a l IH]; intros n bs n' E; cbn [gen_all] in E; [injection E as _ <-; lia|].
  destruct (f a n) as [(b & n1)|] eqn:E1; [|discriminate E]. destruct (gen_all f l n1) as [(bs2 & n2)|] eqn:E2; [|discriminate E].
  injection E as _ <-. apply F in E1. apply IH in E2. lia.
Qed.
Definition outs (q : list (exp * option id)) : list exp := map (fun eo => match snd eo with Some x => EVar x | None => fst eo end) q.
Definition names (q : list (exp * option id)) : list id := flat_map (fun eo => match snd eo with Some x => [x] | None => [] end) q.
Definition wrapped (q : list (exp * option id)) : list exp := flat_map (fun eo => match snd eo with Some _ => [fst eo] | None => [] end) q.
Lemma split_spec w rands : forall n out ids exps out' ids' exps' n', split_rands self w rands n out ids exps = (out', ids', exps', n') ->
  exists q, map fst q = rands /\ out' = rev out ++ outs q /\ ids' = rev (names q) ++ ids /\ exps' = rev (wrapped q) ++ exps /\ n <= n' /\
    NoDup (names q) /\ (forall x, In x (names q) -> n < ts x <= n') /\
    (forall e, In (e, None) q -> w = false /\ cexpp self e = true) /\ (forall e x, In (e, Some x) q -> w = true \/ cexpp self e = false).
Proof.
  induction rands as [|e rands IH]; intros n out ids exps out' ids' exps' n' E; cbn [split_rands] in E.
  - injection E as <- <- <- <-. exists []. cbn. rewrite app_nil_r. repeat split; try easy; try lia. constructor.
  - destruct (negb w && cexpp self e) eqn:C.
    + apply IH in E. destruct E as (q & E1 & -> & -> & -> & E5 & E6 & E7 & E8 & E9). exists ((e, None) :: q).
      cbn [map fst outs snd names wrapped flat_map app In rev]. repeat split; try easy.
      * now rewrite E1.
      * unfold outs. now rewrite <- app_assoc.
      * apply E7 in H. lia.
      * apply E7 in H. lia.
      * destruct H as [H|H]; [|now apply (E8 e0)]. destruct w; [discriminate C|easy].
      * destruct H as [H|H]; [injection H as ->|now apply E8]. now destruct (cexpp self e0), w.
      * intros e0 x [H|H]; [discriminate H|eauto].
    + cbn [fresh] in E. apply IH in E. destruct E as (q & E1 & -> & -> & -> & E5 & E6 & E7 & E8 & E9). exists ((e, Some (mkid (n + 1) XNone)) :: q).
      cbn [map fst outs snd names wrapped flat_map app In rev]. rewrite <- !app_assoc. repeat split; try easy.
      * now rewrite E1.
      * lia.
      * constructor; [|easy]. intros H. apply E7 in H. cbn in H. lia.
      * destruct H as [<-|H]; [cbn; lia|apply E7 in H; lia].
      * destruct H as [<-|H]; [cbn; lia|apply E7 in H; lia].
      * destruct H as [H|H]; [discriminate H|now apply (E8 e0)].
      * destruct H as [H|H]; [discriminate H|now apply E8].
      * intros e0 x [H|H]; [injection H as <- <-|eauto]. destruct w; [now left|right]. now destruct (cexpp self e).
Qed.
Lemma cg_mono fuel : forall L e t n s n', cg self fuel L e t n = Some (s, n') -> n <= n'.
Proof.
  induction fuel as [|fuel IH]; intros L e t n s n' E; [discriminate E|]. cbn [cg] in E.
  destruct (cexpp self e && negb (tail_call self e)). { destruct (cexp e); [|discriminate E]. cbn in E. injection E as _ <-. lia. }
  destruct (degenerate_let e) as [b|]; [now apply IH in E|].
  destruct (begin_view e) as [(e1 & e2)|].
  { destruct (cg self fuel L e1 TVoid n) as [(s1 & n1)|] eqn:E1; [|discriminate E]. destruct (cg self fuel L e2 t n1) as [(s2 & n2)|] eqn:E2; [|discriminate E].
    injection E as _ <-. apply IH in E1, E2. lia. }
  destruct (let_view e) as [((ids & rands) & b)|].
  { destruct (decls self (combine ids rands)) as [ds|]; [|discriminate E].
    destruct (gen_all _ _ n) as [(is & n1)|] eqn:E1; [|discriminate E]. destruct (cg self fuel L b t n1) as [(s2 & n2)|] eqn:E2; [|discriminate E].
    injection E as _ <-. apply gen_all_mono in E1; [|intros a m c m' X; now apply IH in X]. apply IH in E2. lia. }
  destruct e as [x|x e|a b c|ef p l|f l|xs b|xs lams b|x b|k e]; try discriminate E.
  - destruct (cexpp self a).
    + destruct (cexp a); [|discriminate E]. destruct (cg self fuel L b t n) as [(s1 & n1)|] eqn:E1; [|discriminate E].
      destruct (cg self fuel L c t n1) as [(s2 & n2)|] eqn:E2; [|discriminate E]. injection E as _ <-. apply IH in E1, E2. lia.
    + cbn [fresh] in E. apply IH in E. lia.
  - destruct (forallb (cexpp self) l). { destruct (mapx cexp l); [|discriminate E]. cbn in E. injection E as _ <-. lia. }
    destruct (split_rands self false l n [] [] []) as (((out & ids) & exps) & n1) eqn:S. apply split_spec in S. destruct S as (q & _ & _ & _ & _ & S & _).
    apply IH in E. lia.
  - destruct (rec_view f) as [(x & lam)|]; [now apply IH in E|]. destruct f; try discriminate E. destruct (assq x L) as [ps|]; [|discriminate E].
    destruct (forallb is_var l && _). { destruct (mapx cexp l); [|discriminate E]. injection E as _ <-. lia. }
    destruct (split_rands self true l n [] [] []) as (((out & ids) & exps) & n1) eqn:S. apply split_spec in S. destruct S as (q & _ & _ & _ & _ & S & _).
    apply IH in E. lia.
  - destruct (cg self fuel _ b t _) as [(s1 & n1)|] eqn:E1; [|discriminate E]. destruct (gen_all _ _ n1) as [(labs & n2)|] eqn:E2; [|discriminate E].
    injection E as _ <-. apply IH in E1. apply gen_all_mono in E2.
    + destruct (is_return t); lia.
    + intros (a1 & a2) m c m' X. cbn [fst snd] in X. destruct (tail_call a1 _); [|injection X as _ <-; lia].
      destruct (cg self fuel _ (snd a2) t m) as [(s' & m1)|] eqn:E3; [|discriminate X]. injection X as _ <-. now apply IH in E3.
Qed.

Definition pairs (q : list (exp * option id)) : list (id * exp) := flat_map (fun eo => match snd eo with Some x => [(x, fst eo)] | None => [] end) q.
Lemma pairs_combine q : combine (rev (names q)) (rev (wrapped q)) = rev (pairs q) /\ map fst (pairs q) = names q /\ length (names q) = length (wrapped q).
Proof.
  induction q as [|(e & o) q (IH1 & IH2 & IH3)]; [easy|]. destruct o as [x|]; cbn [names wrapped pairs flat_map snd fst app rev map length]; [|easy].
  fold (names q) (wrapped q) (pairs q). split; [|split; congruence].
  assert (forall (a : list id) (b : list exp) y z, length a = length b -> combine (a ++ [y]) (b ++ [z]) = combine a b ++ [(y, z)]) as K.
  { induction a as [|? a IHa]; intros [|? b] y z L; try discriminate L; [easy|]. cbn. rewrite IHa by (cbn in L; lia). easy. }
  rewrite K by (rewrite !rev_length; easy). now rewrite IH1.
Qed.
Lemma in_pairs x e q : In (x, e) (pairs q) <-> In (e, Some x) q.
Proof.
  unfold pairs. rewrite in_flat_map. split.
  - intros ((e' & o) & I & J). cbn [fst snd] in J. destruct o as [y|]; [|easy]. destruct J as [J|[]]. now injection J as -> ->.
  - intros I. exists (e, Some x). split; [easy|]. now left.
Qed.
Lemma in_names x q : In x (names q) <-> exists e, In (e, Some x) q.
Proof.
  unfold names. rewrite in_flat_map. split.
  - intros ((e' & o) & I & J). cbn [fst snd] in J. destruct o as [y|]; [|easy]. destruct J as [->|[]]. eauto.
  - intros (e & I). exists (e, Some x). split; [easy|]. now left.
Qed.

Lemma Forall2_imp A B (R R' : A -> B -> Prop) l m : (forall a b, R a b -> R' a b) -> Forall2 R l m -> Forall2 R' l m.
Proof. intros I. induction 1; constructor; auto. Qed.
Lemma gen_all_each A B (f : A -> Z -> option (B * Z)) : (forall a n b n', f a n = Some (b, n') -> n <= n') ->
  forall l n bs n', gen_all f l n = Some (bs, n') -> Forall2 (fun a b => exists m m', n <= m /\ f a m = Some (b, m')) l bs.
Proof.
  intros F. induction l as [|a l IH]; intros n bs n' E; cbn [gen_all] in E; [injection E as <- _; constructor|].
  destruct (f a n) as [(b & n1)|] eqn:E1; [|discriminate E]. destruct (gen_all f l n1) as [(bs2 & n2)|] eqn:E2; [|discriminate E]. injection E as <- <-.
  constructor; [exists n, n1; split; [lia|easy]|]. apply IH in E2. apply F in E1. revert E2. apply Forall2_imp. intros a' b' (m & m' & L & E). exists m, m'. split; [lia|easy].
Qed.

Lemma assq_app A x (l l' : list (id * A)) : assq x (l ++ l') = match assq x l with Some a => Some a | None => assq x l' end.
Proof. induction l as [|(y & a) l IH]; [easy|]. cbn [app assq]. destruct (id_eqb x y); easy. Qed.
Lemma assq_none A x (l : list (id * A)) : ~ In x (map fst l) -> assq x l = None.
Proof.
  induction l as [|(y & a) l IH]; [easy|]. cbn [map fst In assq]. intros N. destruct (id_eqb x y) eqn:E; [|tauto]. apply ideq in E. subst. tauto.
Qed.
Lemma assq_in A x (l : list (id * A)) a : assq x l = Some a -> In (x, a) l.
Proof. induction l as [|(y & b) l IH]; [easy|]. cbn [assq]. destruct (id_eqb x y) eqn:E; [apply ideq in E; intros [= <-]; subst; now left|right; auto]. Qed.

Section Sem.
Variables V W : Type.
Variable truth : V -> bool.
Variable prim_does : prim -> list V -> W -> V -> W -> Prop.
Variable globals : id -> V.
Variables (b0 : exp) (code : cfun) (fuel0 : nat) (nn0 nn1 : Z).
Notation env := (store V).
Notation eval := (eval V W truth prim_does globals self params b0).
Notation evals := (evals V W truth prim_does globals self params b0).
Notation run := (run V W truth prim_does globals self code).
Notation ceval := (ceval V W truth prim_does globals self code).
Notation cevals := (cevals V W truth prim_does globals self code).
Notation jump := (jump self code).
Notation bind := (bind V).
Notation upd := (upd V).
Notation put := (put V).

Definition D (xs : list id) (e : exp) (n : Z) : Prop := NoDup (binders e) /\ forall x, In x (binders e) -> ~ In x xs /\ 0 <= ts x <= n.
Definition X (xs : list id) (n : Z) : Prop := forall x, In x xs -> 0 <= ts x <= n.
Definition P (ls : list (id * list id)) (n : Z) : Prop := 0 <= n /\ X params n /\ forall y ps, In (y, ps) ls -> NoDup ps /\ X ps n.
Definition agree (xs : list id) (r s : env) : Prop :=
  (forall x, In x xs -> r x = s x) /\ forall x, global_id x = true -> r x = globals x /\ s x = globals x.
Hypothesis Cparams : cf_params code = params.
Hypothesis Cbody : cg self fuel0 [(self, params)] b0 TReturn nn0 = Some (cf_body code, nn1).
Hypothesis Bok : body params [] true b0.
Hypothesis Pok : NoDup params.
Hypothesis Xok : X params nn0.
Hypothesis Dok : D params b0 nn0.
Hypothesis Nok : 0 <= nn0.

Lemma X_local xs n x : X xs n -> In x xs -> global_id x = false.
Proof. intros H I. apply H in I. unfold global_id. apply Z.ltb_ge. lia. Qed.
Lemma X_le xs n n' : X xs n -> n <= n' -> X xs n'.
Proof. intros H L x I. apply H in I. lia. Qed.
Lemma P_le ls n n' : P ls n -> n <= n' -> P ls n'.
Proof. intros (N & H0 & H) L. split; [lia|]. split; [now apply (X_le _ n)|]. intros y ps I. destruct (H y ps I). split; [easy|]. now apply (X_le _ n). Qed.
Lemma D_le xs e n n' : D xs e n -> n <= n' -> D xs e n'.
Proof. intros (H1 & H2) L. split; [easy|]. intros x I. apply H2 in I. split; [easy|lia]. Qed.

Lemma P_nil : P [] nn0.
Proof. split; [exact Nok|]. split; [exact Xok|easy]. Qed.
Lemma upd_same s x v : upd s x v x = v.
Proof. unfold Spec_Stack.upd. now rewrite idrefl. Qed.
Lemma upd_other s x v y : y <> x -> upd s x v y = s y.
Proof. intros N. unfold Spec_Stack.upd. apply idneq in N. now rewrite N. Qed.
Lemma bind_other xs : forall vs s x, ~ In x xs -> bind xs vs s x = s x.
Proof.
  induction xs as [|y xs IH]; intros vs s x N; [easy|]. destruct vs as [|v vs]; [easy|]. cbn [Spec_Stack.bind]. rewrite upd_other.
  - apply IH. intros I. apply N. now right.
  - intros ->. apply N. now left.
Qed.
Lemma bind_in xs : forall vs s s' x, length vs = length xs -> In x xs -> bind xs vs s x = bind xs vs s' x.
Proof.
  induction xs as [|y xs IH]; intros vs s s' x E I; [destruct I|]. destruct vs as [|v vs]; [discriminate E|]. injection E as E. cbn [Spec_Stack.bind].
  destruct (id_dec x y) as [->|N]; [now rewrite !upd_same|]. rewrite !upd_other by easy. destruct I as [->|I]; [easy|]. now apply IH.
Qed.
Lemma bind_map xs s r x : In x xs -> bind xs (map s xs) r x = s x.
Proof.
  induction xs as [|y xs IH]; intros I; [destruct I|]. cbn [map Spec_Stack.bind]. destruct (id_dec x y) as [->|N]; [now rewrite upd_same|].
  rewrite upd_other by easy. destruct I as [->|I]; [easy|]. now apply IH.
Qed.
Lemma agree_bind xs ys r s vs n : agree xs r s -> X ys n -> length vs = length ys -> agree (ys ++ xs) (bind ys vs r) (bind ys vs s).
Proof.
  intros (A1 & A2) Y E. split.
  - intros x I. destruct (in_dec id_dec x ys) as [J|J]; [now apply bind_in|]. rewrite !bind_other by easy. apply A1. apply in_app_iff in I. now destruct I.
  - intros x G. rewrite !bind_other; [now apply A2| |]; intros I; rewrite (X_local _ _ _ Y I) in G; discriminate G.
Qed.

(** ** Operands in any order *)
Lemma evals_perm cs r l w w' : evals cs r l w w' -> forall l', Permutation l l' -> evals cs r l' w w'.
Proof.
  intros E. destruct E as [|cs r l e v l2 w w1 w2 Pm E1 E2]; intros l' Q.
  - apply Permutation_nil in Q. subst. constructor.
  - econstructor; [|exact E1|exact E2]. etransitivity; [symmetry; exact Q|exact Pm].
Qed.
Fixpoint evals_app_n (n : nat) : forall cs r l1 l2 w w1 w2, length l1 = n -> evals cs r l1 w w1 -> evals cs r l2 w1 w2 -> evals cs r (l1 ++ l2) w w2.
Proof.
  destruct n as [|n]; intros cs r l1 l2 w w1 w2 Ln E1 E2.
  - destruct E1 as [|? ? ? ? ? ? ? ? ? Pm]; [exact E2|]. apply Permutation_length in Pm. rewrite Ln in Pm. discriminate Pm.
  - destruct E1 as [|cs r l e v l' w w1 w3 Pm E1 E3]; [discriminate Ln|]. apply (es_pick _ _ _ _ _ _ _ _ _ _ _ e v (l' ++ l2) w w1 w2).
    + rewrite app_comm_cons. now apply Permutation_app_tail.
    + exact E1.
    + apply (evals_app_n n cs r l' l2 w1 w3 w2); [|exact E3|exact E2]. apply Permutation_length in Pm. cbn in Pm. lia.
Qed.
Lemma evals_app cs r l1 l2 w w1 w2 : evals cs r l1 w w1 -> evals cs r l2 w1 w2 -> evals cs r (l1 ++ l2) w w2.
Proof. now apply (evals_app_n (length l1)). Qed.
Lemma evals_one cs r e v w w' : eval cs r e w v w' -> evals cs r [(e, v)] w w'.
Proof. intros E. econstructor; [reflexivity|exact E|constructor]. Qed.

(** ** Labels: what the code jumps to is the code for what the source calls *)
Notation selfl := [(self, params)].
Inductive menv : frames -> list (clo V) -> list (id * list id) -> list id -> env -> Z -> Prop :=
| me_base xs r n : menv [] [] [] xs r n
| me_fix g cs ls xs0 r0 n0 ids lams labs k xs r n : menv g cs ls xs0 r0 n0 -> incl xs0 xs -> (forall x, In x xs0 -> r x = r0 x) -> n0 <= n ->
    (forall x, global_id x = true -> r0 x = globals x) ->
    length ids = length lams -> ~ In self ids -> X xs0 n0 -> P (combine ids (map fst lams) ++ ls) n0 ->
    (forall lam, In lam lams -> body (fst lam ++ xs0) (combine ids (map fst lams) ++ ls) true (snd lam) /\ D (fst lam ++ xs0) (snd lam) n0 /\ forall p, In p (fst lam) -> ~ In p xs0) ->
    Forall2 (fun xl lab => fst lab = fst xl /\ forall s, snd lab = Some s -> exists fuel m m', n0 <= m /\
      cg self fuel ((combine ids (map fst lams) ++ ls) ++ selfl) (snd (snd xl)) TReturn m = Some (s, m')) (combine ids lams) labs ->
    menv ((false, labs, k) :: g) (Clo V ids lams r0 cs :: cs) (combine ids (map fst lams) ++ ls) xs r n.
Lemma menv_weak g cs ls xs r n xs' r' n' : menv g cs ls xs r n -> incl xs xs' -> (forall x, In x xs -> r' x = r x) -> n <= n' -> menv g cs ls xs' r' n'.
Proof.
  intros H I E L. destruct H; [constructor|]. econstructor; eauto.
  - now intros x J; apply I, H0.
  - intros x J. rewrite E by now apply H0. now apply H1.
  - lia.
Qed.
Lemma assq_combine_map x (ids : list id) (lams : list (list id * exp)) : assq x (combine ids (map fst lams)) = option_map fst (assq x (combine ids lams)).
Proof.
  revert lams. induction ids as [|y ids IH]; intros lams; [easy|]. destruct lams as [|l lams]; [easy|]. cbn [map combine assq]. destruct (id_eqb x y); [easy|apply IH].
Qed.
Lemma combine_fst_in (x : id) ids (lams : list (list id * exp)) : In x (map fst (combine ids lams)) -> In x ids.
Proof. intros I. apply in_map_iff in I. destruct I as ((a & b) & <- & I). now apply in_combine_l in I. Qed.
Lemma from_label_spec (R : exp -> st -> Prop) (k : list st) y (ps : list (id * (list id * exp))) labs :
  Forall2 (fun xl lab => fst lab = fst xl /\ forall s, snd lab = Some s -> R (snd (snd xl)) s) ps labs ->
  match from_label false labs k y with
  | None => assq y ps = None
  | Some o => exists lam, assq y ps = Some lam /\ forall k', o = Some k' -> exists s k'', k' = s :: k'' /\ R (snd lam) s
  end.
Proof.
  induction 1 as [|(x & lam) (x' & o) ps labs (E1 & E2) F IH]; [easy|]. cbn [fst snd] in *. subst x'. cbn [from_label assq]. destruct (id_eqb y x); [|exact IH].
  exists lam. split; [easy|]. destruct o as [s|]; cbn [option_map]; [|discriminate]. intros k' [= <-]. eauto.
Qed.
Lemma jump_self g cs ls xs r n k' g' : menv g cs ls xs r n -> jump g self = Some (k', g') -> k' = [cf_body code] /\ g' = [].
Proof.
  induction 1 as [|g cs ls xs0 r0 n0 ids lams labs k xs r n H IH _ _ _ _ Ln Sf _ _ _ F]; cbn [Spec_Stack.jump].
  - destruct (id_eqb self self && cf_label code); [|discriminate]. now intros [= <- <-].
  - apply (from_label_spec (fun e s => exists fuel m m', n0 <= m /\ cg self fuel ((combine ids (map fst lams) ++ ls) ++ selfl) e TReturn m = Some (s, m')) k self) in F.
    destruct (from_label false labs k self) as [o|]; [|exact IH]. destruct F as (lam & F & _). rewrite assq_none in F; [discriminate F|]. intros I. now apply combine_fst_in in I.
Qed.
Lemma jump_label g cs ls xs r n y ps k' g' : menv g cs ls xs r n -> assq y ls = Some ps -> y <> self -> jump g y = Some (k', g') ->
  exists b r0 cs' xs0 ls' n1 fuel m m' s k'', find_clo V y cs = Some (ps, b, r0, cs') /\ k' = s :: k'' /\
    cg self fuel (ls' ++ selfl) b TReturn m = Some (s, m') /\ n1 <= m /\ body (ps ++ xs0) ls' true b /\ D (ps ++ xs0) b n1 /\ X (ps ++ xs0) n1 /\ P ls' n1 /\
    menv g' cs' ls' xs0 r0 n1 /\ incl xs0 xs /\ (forall x, In x xs0 -> r x = r0 x) /\ NoDup ps /\ (forall p, In p ps -> ~ In p xs0) /\ (forall x, global_id x = true -> r0 x = globals x).
Proof.
  intros H A N. induction H as [|g cs ls xs0 r0 n0 ids lams labs k xs r n H IH In0 Eq Le Gl Ln Sf Xs Ps Bs F]; cbn [Spec_Stack.jump find_clo].
  - discriminate A.
  - rewrite assq_app, assq_combine_map in A.
    pose proof (from_label_spec (fun e s => exists fuel m m', n0 <= m /\ cg self fuel ((combine ids (map fst lams) ++ ls) ++ selfl) e TReturn m = Some (s, m')) k y _ _ F) as F2.
    destruct (from_label false labs k y) as [[k2|]|]; [| discriminate|].
    + destruct F2 as ((ps' & b) & F1 & F2). specialize (F2 k2 eq_refl). destruct F2 as (s & k'' & -> & fuel & m & m' & Lm & E). rewrite F1 in A. injection A as <-.
      cbn [fst snd] in *. intros [= <- <-]. rewrite F1. exists b, r0, (Clo V ids lams r0 cs :: cs), xs0, (combine ids (map fst lams) ++ ls), n0, fuel, m, m', s, k''.
      assert (In (ps', b) lams) as I by (apply assq_in in F1; now apply in_combine_r in F1).
      assert (In (y, ps') (combine ids (map fst lams) ++ ls)) as J.
      { apply in_app_iff. left. apply assq_in. rewrite assq_combine_map, F1. easy. }
      destruct (Bs _ I) as (B1 & B2 & B3). destruct (proj2 (proj2 Ps) _ _ J) as (P1 & P2). cbn [fst snd] in *. repeat (split; [easy||lia|]). split; [|split; [|split; [|split; [|split; [|split; [|split]]]]]]; try easy.
      * intros x Ix. apply in_app_iff in Ix. destruct Ix; auto.
      * econstructor; eauto; easy.
    + rewrite F2 in A |- *. cbn [option_map] in A. intros E. specialize (IH A E). destruct IH as (b & r1 & cs' & xs1 & ls' & n1 & fuel & m & m' & s & k'' & C1 & C2 & C3 & C4 & C5 & C6 & C7 & C8 & C9 & C10 & C11 & C12 & C13 & C14).
      exists b, r1, cs', xs1, ls', n1, fuel, m, m', s, k''. repeat (split; [easy|]). split; [|split; [|split; [|split]]]; try easy.
      * intros x I. auto.
      * intros x I. rewrite Eq by auto. auto.
Qed.

Definition post (h : nat) (t : target) (Q : V -> W -> Prop) (kept : id -> Prop) (g : frames) (k : list st) (s : env) (v : V) (w' : W) : Prop :=
  match t with
  | TReturn => Q v w'
  | _ => exists m u w1 s1, (m < h)%nat /\ Q u w1 /\ (forall x, kept x -> s1 x = s x) /\ run m g k (put t u s1) w1 v w'
  end.
Lemma post_imp h h' t (Q Q' : V -> W -> Prop) (kept kept' : id -> Prop) g k (s s' : env) v w : post h t Q kept g k s v w -> (h <= h')%nat -> (forall u w1, Q u w1 -> Q' u w1) ->
  (forall x, kept' x -> kept x /\ s x = s' x) -> post h' t Q' kept' g k s' v w.
Proof.
  intros H L I K. unfold post in *.
  destruct t as [|x|]; [auto| |]; destruct H as (m & u & w1 & s1 & H1 & H2 & H3 & H4); exists m, u, w1, s1; (split; [lia|]); (split; [auto|]); (split; [|easy]);
    intros y Ky; destruct (K y Ky) as (K1 & <-); auto.
Qed.
Definition M (h : nat) : Prop := forall fuel ls xs e t n s n' r g k st w v w',
  cg self fuel (ls ++ selfl) e t n = Some (s, n') -> body xs ls (is_return t) e -> D xs e n -> X xs n -> P ls n -> agree xs r st ->
  run h g (s :: k) st w v w' ->
  post h t (fun u w1 => forall cs, (is_return t = true -> menv g cs ls xs r n) -> eval cs r e w u w1) (fun x => ts x <= n /\ ~ In x (binders e)) g k st v w'.

(** ** Expressions *)
Definition CE (m : nat) : Prop := forall e c xs ls t r s w u w1, cexp e = Some c -> cexpp self e = true -> body xs ls t e -> agree xs r s ->
  ceval m s w c u w1 -> forall cs, eval cs r e w u w1.
Definition item := ((exp * option id) * (cx * V))%type.
Definition plain (q : list item) : list (exp * V) := flat_map (fun i => match snd (fst i) with None => [(fst (fst i), snd (snd i))] | Some _ => [] end) q.
Definition item_ok (xs : list id) (i : item) : Prop :=
  match snd (fst i) with
  | Some x => fst (snd i) = XVar x
  | None => cexp (fst (fst i)) = Some (fst (snd i)) /\ cexpp self (fst (fst i)) = true /\ exists ls t, body xs ls t (fst (fst i))
  end.
Lemma ops h xs r s : (forall m, (m < h)%nat -> CE m) -> agree xs r s -> forall h', (h' <= h)%nat -> forall q w w', cevals h' s (map snd q) w w' ->
  (forall i, In i q -> item_ok xs i) ->
  (forall i x, In i q -> snd (fst i) = Some x -> snd (snd i) = s x) /\ forall cs, evals cs r (plain q) w w'.
Proof.
  intros C A. induction h' as [|h' IH]; intros Lh q w w' E OK.
  - inversion E; subst. destruct q; [|discriminate]. split; [easy|]. constructor.
  - inversion E as [|n0 s0 l c v l' w0 w1 w2 Pm E1 E2]; subst; [destruct q; [|discriminate]; split; [easy|constructor]|].
    symmetry in Pm. apply Permutation_map_inv in Pm. destruct Pm as (q2 & Eq & Pm). destruct q2 as [|((e & o) & (c' & v')) q2]; [discriminate Eq|].
    injection Eq as <- <- ->. assert (forall i, In i (((e, o), (c, v)) :: q2) -> item_ok xs i) as OK2.
    { intros i I. apply OK. now apply Permutation_in with (1 := Permutation_sym Pm). }
    destruct (IH ltac:(lia) q2 w1 w' E2 ltac:(intros i I; apply OK2; now right)) as (H1 & H2).
    pose proof (OK2 _ (or_introl eq_refl)) as O. unfold item_ok in O. cbn [fst snd] in O.
    assert (forall cs, Permutation (plain q) (plain (((e, o), (c, v)) :: q2)) /\ evals cs r (plain (((e, o), (c, v)) :: q2)) w w' /\ (forall x, o = Some x -> v = s x)) as K.
    { intros cs. split; [now apply Permutation_flat_map|]. unfold plain. cbn [flat_map fst snd]. fold (plain q2). destruct o as [x|].
      - subst c. inversion E1; subst. split; [apply H2|]. now intros y [= <-].
      - destruct O as (O1 & O2 & ls & t & O3). split; [|easy]. cbn [app]. econstructor; [reflexivity| |apply H2].
        apply (C h' ltac:(lia) e c xs ls t r s w v w1); easy. }
    split.
    + intros i x I Ex. apply Permutation_in with (1 := Pm) in I. destruct I as [<-|I]; [|now apply H1]. cbn [fst snd] in *. destruct (K []) as (_ & _ & K3). now apply K3.
    + intros cs. destruct (K cs) as (K1 & K2 & _). apply evals_perm with (1 := K2). now symmetry.
Qed.
Lemma mapx_length A B (f : A -> option B) l m : mapx f l = Some m -> length m = length l.
Proof.
  revert m. induction l as [|a l IH]; intros m E; cbn [mapx] in E; [now injection E as <-|].
  destruct (f a); [|discriminate E]. destruct (mapx f l) as [m'|]; [|discriminate E]. injection E as <-. cbn. f_equal. now apply IH.
Qed.
(** all operands are C expressions *)
Lemma plain_ops l cl vs : mapx cexp l = Some cl -> length vs = length cl -> forallb (cexpp self) l = true -> forall xs, (forall e, In e l -> exists ls t, body xs ls t e) ->
  exists q : list item, map snd q = combine cl vs /\ plain q = combine l vs /\ forall i, In i q -> item_ok xs i.
Proof.
  revert cl vs. induction l as [|e l IH]; intros cl vs E Lv F xs B; cbn [mapx] in E.
  - injection E as <-. exists []. repeat split; easy.
  - destruct (cexp e) as [c|] eqn:Ec; [|discriminate E]. destruct (mapx cexp l) as [m'|] eqn:El; [|discriminate E]. injection E as <-.
    destruct vs as [|v vs]; [discriminate Lv|]. injection Lv as Lv. cbn [forallb] in F. apply andb_prop in F. destruct F as (F1 & F2).
    destruct (IH m' vs eq_refl Lv F2 xs) as (q & Q1 & Q2 & Q3); [intros e' I; apply B; now right|].
    exists (((e, None), (c, v)) :: q). cbn [map snd combine plain flat_map fst app]. rewrite Q1. fold (plain q). rewrite Q2. repeat split; try easy.
    intros i [<-|I]; [|now apply Q3]. repeat split; try easy. apply B. now left.
Qed.
Lemma ce_ok h : (forall m, (m < h)%nat -> M m) -> forall m, (m <= h)%nat -> CE m.
Proof.
  intros IHM m. induction m as [m IHm] using lt_wf_ind. intros Lm.
  assert (forall e, (forall c xs ls t r s w u w1, cexp e = Some c -> cexpp self e = true -> body xs ls t e -> agree xs r s ->
            ceval m s w c u w1 -> forall cs, eval cs r e w u w1) /\ match e with ELam _ b => (forall c xs ls t r s w u w1, cexp b = Some c -> cexpp self b = true -> body xs ls t b -> agree xs r s ->
            ceval m s w c u w1 -> forall cs, eval cs r b w u w1) | _ => True end) as K; [|intros e; apply K].
  assert (forall k, (k < m)%nat -> CE k) as IHm' by (intros k Lk; apply IHm; lia). clear IHm.
  apply parts_ind. intros e IH. split; [|destruct e as [x|x e|a b c|ef p l|f l|xs b|xs lams b|x b|k e]; try easy; apply (IH b); exists xs; now left].
  intros c xs ls t r s w u w1 Ec Ep B A E cs.
  destruct e as [x|x e|a b c'|ef p l|f l|xs' b|xs' lams b|x b|k e]; try discriminate Ep.
  - cbn [cexp] in Ec. injection Ec as <-. inversion E; subst. assert (s x = r x) as ->; [|constructor]. inversion B as [? ? ? ? O| | | | | | |]; subst.
    destruct O as [I|G]; [symmetry; now apply A|]. destruct A as (_ & A). destruct (A x G) as (-> & ->). easy.
  - cbn [cexp] in Ec. destruct (cexp a) as [ca|] eqn:Ea; [|discriminate Ec]. destruct (cexp b) as [cb|] eqn:Eb; [|discriminate Ec]. destruct (cexp c') as [cc|] eqn:Ecc; [|discriminate Ec].
    injection Ec as <-. cbn [cexpp] in Ep. apply andb_prop in Ep. destruct Ep as (Ep & Ep3). apply andb_prop in Ep. destruct Ep as (Ep1 & Ep2).
    inversion E as [|n0 s0 w0 a0 b1 c0 va w2 v0 w3 E1 E2| |]; subst. inversion B; subst.
    econstructor.
    + eapply (IHm' n0); [lia|exact Ea|easy|eassumption|exact A|exact E1].
    + destruct (truth va); (eapply (IHm' n0); [lia| | | |exact A|exact E2]; [eassumption|assumption|eassumption]).
  - cbn [cexp] in Ec. destruct (mapx cexp l) as [cl|] eqn:El; [|discriminate Ec]. injection Ec as <-. cbn [cexpp] in Ep. apply andb_prop in Ep. destruct Ep as (Ep1 & Ep2).
    inversion E as [| |n0 s0 w0 p0 l0 vs w2 v0 w3 Lv E1 E2|]; subst. inversion B; subst.
    destruct (plain_ops l cl vs El Lv Ep2 xs) as (q & Q1 & Q2 & Q3); [eauto|]. rewrite <- Q1 in E1.
    destruct (ops n0 xs r s ltac:(intros k Lk; apply IHm'; lia) A n0 (le_n _) q w w2 E1 Q3) as (_ & H). specialize (H cs). rewrite Q2 in H.
    econstructor; [|exact H|exact E2]. rewrite Lv. now apply mapx_length in El.
  - destruct f as [x|x f|fa fb fc|fe fp fl|f' fl|ys b|ys lams b|x b|k f]; try discriminate Ep.
    + cbn [cexpp] in Ep. apply andb_prop in Ep. destruct Ep as (Ex & Ep). apply ideq in Ex. subst x.
      cbn [cexp] in Ec. destruct (mapx cexp l) as [cl|] eqn:El; [|discriminate Ec]. injection Ec as <-.
      inversion E as [| | |n0 s0 w0 l0 vs s1 w2 v0 w3 Lv Lp E1 Gl E2]; subst.
      assert (length l = length params /\ forall e, In e l -> body xs ls false e) as (Ll & Bl) by (inversion B; subst; easy).
      destruct (plain_ops l cl vs El Lv Ep xs) as (q & Q1 & Q2 & Q3); [eauto|]. rewrite <- Q1 in E1.
      destruct (ops n0 xs r s ltac:(intros k Lk; apply IHm'; lia) A n0 (le_n _) q w w2 E1 Q3) as (_ & H). specialize (H cs). rewrite Q2 in H.
      pose proof (mapx_length _ _ _ _ _ El) as Lc.
      econstructor; [|now symmetry|exact H|]; [now rewrite Lv|]. rewrite Cparams in E2.
      assert (agree params (bind params vs globals) (bind params vs s1)) as A1.
      { rewrite <- (app_nil_r params) at 1. apply (agree_bind [] params globals s1 vs nn0); [|exact Xok|lia]. split; [easy|]. intros x G. now rewrite Gl. }
      exact (IHM n0 ltac:(lia) fuel0 [] params b0 TReturn nn0 (cf_body code) nn1 (bind params vs globals) [] [] (bind params vs s1) w2 u w1 Cbody Bok Dok Xok
               P_nil A1 E2 [] (fun _ => me_base _ _ _)).
    + destruct ys as [|y ys].
      * destruct l as [|e l]; [|discriminate Ep]. cbn [cexpp cexp] in Ep, Ec. inversion B; subst.
        apply (ev_let _ _ _ _ _ _ _ _ _ _ [] b [] [] w w u w1); [easy|easy|constructor|]. cbn [Spec_Stack.bind].
        eapply (proj2 (IH (ELam [] b) ltac:(exists []; now left))); eauto.
      * destruct ys; [|destruct l as [|? [|? ?]]; discriminate Ep]. destruct b; try (destruct l as [|? [|? ?]]; discriminate Ep).
        destruct l as [|e [|? ?]]; try discriminate Ep. cbn [cexpp cexp] in Ep, Ec. destruct (id_eqb y x) eqn:Ey; [|discriminate Ep]. apply ideq in Ey. subst x.
        inversion B; subst. apply (ev_let _ _ _ _ _ _ _ _ _ _ [y] (EVar y) [e] [u] w w1 u w1); [easy|easy| |].
        -- apply evals_one. eapply (proj1 (IH e ltac:(exists []; right; now left))); eauto. apply H6. now left.
        -- cbn [Spec_Stack.bind]. replace u with (upd r y u y) at 2 by apply upd_same. constructor.
Qed.

(** ** Bindings *)
Definition good (xs : list id) (ls : list (id * list id)) (l : list (id * exp)) (n : Z) : Prop :=
  NoDup (map fst l) /\ X (map fst l) n /\ (forall x, In x (map fst l) -> ~ In x xs) /\
  (forall xe, In xe l -> body xs ls false (snd xe) /\ D xs (snd xe) n /\ forall y, In y (map fst l) -> ~ In y (binders (snd xe))).
Definition val_of (s : env) (xe : id * exp) : exp * V := (snd xe, s (fst xe)).
Definition finished (h : nat) g rest s w v w' (l : list (id * exp)) (n : Z) (xs : list id) (r : env) : Prop :=
  exists h' s' w1, (h' <= h)%nat /\ run h' g rest s' w1 v w' /\ agree xs r s' /\ (forall cs, evals cs r (map (val_of s') l) w w1) /\
    forall x, ts x <= n -> ~ In x (map fst l) -> ~ In x (flat_map (fun xe => binders (snd xe)) l) -> s' x = s x.
Lemma good_tail xs ls a l n : good xs ls (a :: l) n -> good xs ls l n.
Proof.
  intros (G1 & G2 & G3 & G4). cbn [map] in *. inversion G1; subst. split; [easy|]. split; [intros x I; apply G2; now right|]. split; [intros x I; apply G3; now right|].
  intros xe I. destruct (G4 xe (or_intror I)) as (K1 & K2 & K3). repeat split; try apply K1; try apply K2; try easy. intros y J. apply K3. now right.
Qed.
Lemma good_le xs ls l n n' : good xs ls l n -> n <= n' -> good xs ls l n'.
Proof.
  intros (G1 & G2 & G3 & G4) L. split; [easy|]. split; [now apply (X_le _ n)|]. split; [easy|].
  intros xe I. destruct (G4 xe I) as (K1 & K2 & K3). split; [easy|]. split; [now apply (D_le _ _ n)|easy].
Qed.
Lemma in_filter_fst (f : id * exp -> bool) l x : In x (map fst (filter f l)) -> In x (map fst l).
Proof. intros I. apply in_map_iff in I. destruct I as (xe & <- & I). apply filter_In in I. apply in_map. easy. Qed.
Lemma NoDup_filter_fst (f : id * exp -> bool) l : NoDup (map fst l) -> NoDup (map fst (filter f l)).
Proof.
  induction l as [|a l IH]; [easy|]. cbn [map filter]. intros N. inversion N; subst. destruct (f a); [|auto]. cbn [map]. constructor; [|auto].
  intros I. now apply in_filter_fst in I.
Qed.
Lemma good_filter xs ls (f : id * exp -> bool) l n : good xs ls l n -> good xs ls (filter f l) n.
Proof.
  intros (G1 & G2 & G3 & G4). split; [now apply NoDup_filter_fst|]. split; [intros x I; apply in_filter_fst in I; auto|]. split; [intros x I; apply in_filter_fst in I; auto|].
  intros xe I. apply filter_In in I. destruct (G4 xe (proj1 I)) as (K1 & K2 & K3). split; [easy|]. split; [easy|]. intros y J. apply in_filter_fst in J. auto.
Qed.
Lemma agree_keep xs r s s' n : agree xs r s -> X xs n -> 0 <= n -> (forall x, In x xs \/ global_id x = true -> s' x = s x) -> agree xs r s'.
Proof. intros (A1 & A2) Xs N K. split; [intros x I; rewrite K by auto; auto|]. intros x G. rewrite K by auto. auto. Qed.
Lemma global_neg x : global_id x = true -> ts x < 0.
Proof. unfold global_id. apply Z.ltb_lt. Qed.

Lemma inits_ok fuel ls xs r g rest v w' : forall l n is n' h s w, 0 <= n -> (forall m, (m <= h)%nat -> M m) ->
  gen_all (fun xe => cg self fuel (ls ++ selfl) (snd xe) (TVar (fst xe))) l n = Some (is, n') -> good xs ls l n -> X xs n -> P ls n -> agree xs r s ->
  run h g (is ++ rest) s w v w' -> finished h g rest s w v w' l n xs r.
Proof.
  induction l as [|(x & e) l IH]; intros n is n' h s w N HM E G Xs Ps A R; cbn [gen_all] in E.
  - injection E as <- <-. exists h, s, w. split; [lia|]. split; [exact R|]. split; [exact A|]. split; [constructor|easy].
  - cbn [fst snd] in E. destruct (cg self fuel (ls ++ selfl) e (TVar x) n) as [(s1 & n1)|] eqn:E1; [|discriminate E].
    destruct (gen_all _ l n1) as [(is2 & n2)|] eqn:E2; [|discriminate E]. injection E as <- <-. pose proof (cg_mono _ _ _ _ _ _ _ E1) as Ln.
    pose proof G as (G1 & G2 & G3 & G4). cbn [map fst] in G1, G2, G3. destruct (G4 (x, e) (or_introl eq_refl)) as (B & De & Y). cbn [snd] in B, De, Y.
    cbn [app] in R. pose proof (HM h (le_n _) fuel ls xs e (TVar x) n s1 n1 r g (is2 ++ rest) s w v w' E1 B De Xs Ps A R) as (m & u & w1 & s2 & Lm & Q & K & R2).
    cbn [Spec_Stack.put] in R2.
    assert (forall y, In y xs \/ global_id y = true -> upd s2 x u y = s y) as Kx.
    { intros y H. rewrite upd_other.
      - apply K. destruct H as [H|H].
        + split; [apply Xs in H; lia|]. intros I. now apply De in I.
        + apply global_neg in H. split; [lia|]. intros I. apply De in I. lia.
      - intros ->. destruct H as [H|H]; [apply (G3 x); [now left|easy]|]. apply global_neg in H. specialize (G2 x (or_introl eq_refl)). lia. }
    destruct (IH n1 is2 n2 m (upd s2 x u) w1 ltac:(lia) ltac:(intros m' L'; apply HM; lia) E2 (good_le _ _ _ n _ (good_tail _ _ _ _ _ G) Ln) (X_le _ _ _ Xs Ln) (P_le _ _ _ Ps Ln)
                (agree_keep _ _ _ _ n A Xs N Kx) R2) as (h' & s' & w2 & C1 & C2 & C3 & C4 & C5).
    exists h', s', w2. split; [lia|]. split; [exact C2|]. split; [exact C3|].
    assert (s' x = u) as Ex.
    { rewrite C5; [apply upd_same| | |].
      - specialize (G2 x (or_introl eq_refl)). lia.
      - now inversion G1.
      - intros I. apply in_flat_map in I. destruct I as (xe & I1 & I2). destruct (G4 xe (or_intror I1)) as (_ & _ & Y'). apply (Y' x); [now left|easy]. }
    split.
    + intros cs. cbn [map]. unfold val_of at 1. cbn [fst snd]. rewrite Ex. econstructor; [reflexivity| |apply C4]. apply Q. discriminate.
    + intros y T N1 N2. cbn [map fst flat_map snd] in N1, N2. rewrite in_app_iff in N2. rewrite C5; [|lia| |]; try tauto.
      * rewrite upd_other by (intros ->; apply N1; now left). apply K. tauto.
      * intros I. apply N1. now right.
Qed.
Lemma decls_ok ls xs r g rest v w' : forall l n ds h s w, 0 <= n -> (forall m, (m <= h)%nat -> CE m) ->
  mapx (fun xe => option_map (SSet (TVar (fst xe))) (cexp (snd xe))) l = Some ds -> (forall xe, In xe l -> cexpp self (snd xe) = true) ->
  good xs ls l n -> X xs n -> agree xs r s ->
  run h g (ds ++ rest) s w v w' -> finished h g rest s w v w' l n xs r.
Proof.
  induction l as [|(x & e) l IH]; intros n ds h s w N HM E F G Xs A R; cbn [mapx] in E.
  - injection E as <-. exists h, s, w. split; [lia|]. split; [exact R|]. split; [exact A|]. split; [constructor|easy].
  - cbn [fst snd] in E. destruct (cexp e) as [c|] eqn:E1; [|discriminate E]. cbn [option_map] in E.
    destruct (mapx _ l) as [ds2|] eqn:E2; [|discriminate E]. injection E as <-.
    pose proof G as (G1 & G2 & G3 & G4). cbn [map fst] in G1, G2, G3. destruct (G4 (x, e) (or_introl eq_refl)) as (B & De & Y). cbn [snd] in B, De, Y.
    cbn [app] in R. inversion R as [|n0 g0 k0 s0 w0 t0 c0 u w1 v0 w0' Nt Ec R2| | | | | | |]; subst. cbn [Spec_Stack.put] in R2.
    assert (forall y, In y xs \/ global_id y = true -> upd s x u y = s y) as Kx.
    { intros y H. apply upd_other. intros ->. destruct H as [H|H]; [apply (G3 x); [now left|easy]|]. apply global_neg in H. specialize (G2 x (or_introl eq_refl)). lia. }
    destruct (IH n ds2 n0 (upd s x u) w1 N ltac:(intros m' L'; apply HM; lia) eq_refl ltac:(intros xe I; apply F; now right) (good_tail _ _ _ _ _ G) Xs
                (agree_keep _ _ _ _ n A Xs N Kx) R2) as (h' & s' & w2 & C1 & C2 & C3 & C4 & C5).
    exists h', s', w2. split; [lia|]. split; [exact C2|]. split; [exact C3|].
    assert (s' x = u) as Ex.
    { rewrite C5; [apply upd_same| | |].
      - specialize (G2 x (or_introl eq_refl)). lia.
      - now inversion G1.
      - intros I. apply in_flat_map in I. destruct I as (xe & I1 & I2). destruct (G4 xe (or_intror I1)) as (_ & _ & Y'). apply (Y' x); [now left|easy]. }
    split.
    + intros cs. cbn [map]. unfold val_of at 1. cbn [fst snd]. rewrite Ex. econstructor; [reflexivity| |apply C4].
      apply (HM n0 ltac:(lia) e c xs ls false r s w u w1 E1 (F _ (or_introl eq_refl)) B A Ec).
    + intros y T N1 N2. cbn [map fst flat_map snd] in N1, N2. rewrite in_app_iff in N2. rewrite C5; [|lia| |]; try tauto.
      * apply upd_other. intros ->. apply N1. now left.
      * intros I. apply N1. now right.
Qed.
Lemma filter_perm A (f : A -> bool) l : Permutation (filter f l ++ filter (fun x => negb (f x)) l) l.
Proof.
  induction l as [|a l IH]; [easy|]. cbn [filter]. destruct (f a); cbn [negb app]; [now constructor|]. rewrite <- Permutation_middle. now constructor.
Qed.
Lemma in_not_both (f : id * exp -> bool) l x : NoDup (map fst l) -> In x (map fst (filter f l)) -> ~ In x (map fst (filter (fun y => negb (f y)) l)).
Proof.
  induction l as [|a l IH]; [easy|]. cbn [map filter]. intros N. inversion N as [|? ? N1 N2]; subst. destruct (f a) eqn:Fa; cbn [negb map In].
  - intros [<-|I]; [|auto]. intros I. apply in_filter_fst in I. easy.
  - intros I [<-|J]; [|now apply IH]. apply in_filter_fst in I. easy.
Qed.
Lemma let_ok fuel ls xs r g rest v w' l n ds is n' h s w : 0 <= n -> (forall m, (m <= h)%nat -> M m) ->
  decls self l = Some ds -> gen_all (fun xe => cg self fuel (ls ++ selfl) (snd xe) (TVar (fst xe))) (filter (fun xe => negb (cexpp self (snd xe))) l) n = Some (is, n') ->
  good xs ls l n -> X xs n -> P ls n -> agree xs r s -> run h g (ds ++ is ++ rest) s w v w' -> finished h g rest s w v w' l n xs r.
Proof.
  intros N HM E1 E2 G Xs Ps A R. set (f := fun xe : id * exp => cexpp self (snd xe)) in *.
  assert (forall m, (m <= h)%nat -> CE m) as HC by (apply ce_ok; intros m L; apply HM; lia).
  unfold decls in E1. fold f in E1.
  destruct (decls_ok ls xs r g (is ++ rest) v w' (filter f l) n ds h s w N HC E1 ltac:(intros xe I; now apply filter_In in I) (good_filter _ _ f _ _ G) Xs A R)
    as (h1 & s1 & w1 & C1 & C2 & C3 & C4 & C5).
  destruct (inits_ok fuel ls xs r g rest v w' _ n is n' h1 s1 w1 N ltac:(intros m L; apply HM; lia) E2 (good_filter _ _ (fun xe => negb (f xe)) _ _ G) Xs Ps C3 C2)
    as (h2 & s2 & w2 & D1 & D2 & D3 & D4 & D5).
  exists h2, s2, w2. split; [lia|]. split; [exact D2|]. split; [exact D3|]. pose proof G as (G1 & G2 & G3 & G4). split.
  - intros cs. apply evals_perm with (l := map (val_of s2) (filter f l ++ filter (fun xe => negb (f xe)) l)); [|apply Permutation_map, filter_perm].
    rewrite map_app. apply evals_app with (w1 := w1); [|apply D4]. replace (map (val_of s2) (filter f l)) with (map (val_of s1) (filter f l)); [apply C4|].
    apply map_ext_in. intros (x & e) I. unfold val_of. cbn [fst snd]. f_equal. symmetry. assert (In x (map fst (filter f l))) as J by (apply in_map_iff; exists (x, e); easy).
    apply D5.
    + apply in_filter_fst in J. apply G2 in J. lia.
    + now apply in_not_both.
    + intros K. apply in_flat_map in K. destruct K as (xe & K1 & K2). apply filter_In in K1. destruct (G4 xe (proj1 K1)) as (_ & _ & Y). apply (Y x); [|easy]. now apply in_filter_fst in J.
  - intros x T N1 N2. assert (forall f', ~ In x (flat_map (fun xe : id * exp => binders (snd xe)) (filter f' l))) as N3.
    { intros f' I. apply N2. apply in_flat_map in I. destruct I as (xe & I1 & I2). apply filter_In in I1. apply in_flat_map. exists xe. easy. }
    rewrite D5; [|easy| |auto]; [|intros I; now apply in_filter_fst in I]. apply C5; [easy| |auto]. intros I. now apply in_filter_fst in I.
Qed.

(** ** Statements *)
Lemma set_post h g t c k s w v w' : run h g (SSet t c :: k) s w v w' ->
  post h t (fun u w1 => exists m, (m < h)%nat /\ ceval m s w c u w1) (fun _ => True) g k s v w'.
Proof.
  intros R. inversion R as [n0 ? ? ? ? ? ? ? Ec|n0 ? ? ? ? ? ? u w1 ? ? Nt Ec R2| | | | | | |]; subst; [exists n0; split; [lia|easy]|].
  unfold post. destruct t as [|x|]; [easy| |]; exists n0, u, w1, s; (split; [lia|]); (split; [exists n0; split; [lia|easy]|]); (split; [easy|exact R2]).
Qed.
Definition prim_st (t : target) (p : prim) (cl : list cx) : st := if prim_cexp p then SSet t (XPrim p cl) else SPrim t p cl.
Lemma prim_post h g t p cl k s w v w' : run h g (prim_st t p cl :: k) s w v w' ->
  post h t (fun u w2 => exists m vs w1, (m < h)%nat /\ length vs = length cl /\ cevals m s (combine cl vs) w w1 /\ prim_does p vs w1 u w2) (fun _ => True) g k s v w'.
Proof.
  unfold prim_st. destruct (prim_cexp p); intros R.
  - apply set_post in R. eapply post_imp; [exact R|easy| |easy]. intros u w1 (m & Lm & Ec). cbv beta.
    inversion Ec as [| |n0 ? ? ? ? vs w2 ? ? Lv E1 E2|]; subst. exists n0, vs, w2. repeat split; try easy. lia.
  - inversion R as [| |n0 ? ? ? ? ? ? vs w1 ? ? Lv Ec Pd|n0 ? ? ? ? ? ? ? vs w1 u w2 ? ? Nt Lv Ec Pd R2| | | | |]; subst.
    + exists n0, vs, w1. repeat split; try easy. lia.
    + unfold post. destruct t as [|x|]; [easy| |]; exists n0, u, w2, s; (split; [lia|]); (split; [exists n0, vs, w1; repeat split; try easy; lia|]); (split; [easy|exact R2]).
Qed.

Lemma D_sub xs e e' n : D xs e n -> NoDup (binders e') -> (forall x, In x (binders e') -> In x (binders e)) -> D xs e' n.
Proof. intros (D1 & D2) N I. split; [easy|]. intros x J. apply D2. auto. Qed.
Lemma D_if xs a b c n : D xs (EIf a b c) n -> D xs a n /\ D xs b n /\ D xs c n.
Proof.
  intros H. pose proof (proj1 H) as N. cbn [binders] in N. rewrite !nd_app in N. destruct N as (N1 & (N2 & N3 & _) & _).
  repeat split; try easy; try (now apply H; cbn [binders]; rewrite !in_app_iff; auto).
Qed.
Lemma D_list xs e l n a : D xs e n -> (exists pre, binders e = pre ++ flat_map binders l) -> In a l -> D xs a n.
Proof.
  intros H (pre & E) I. pose proof (proj1 H) as N. rewrite E in N. apply nd_app in N. destruct N as (_ & N & _). apply (D_sub xs e); [easy|now apply nd_flat with (1 := N)|].
  intros x J. rewrite E. apply in_app_iff. right. now apply (binders_in a).
Qed.
Lemma D_let xs ys b l n : D xs (EApp (ELam ys b) l) n -> NoDup ys /\ (forall y, In y ys -> ~ In y xs) /\ X ys n /\ D (ys ++ xs) b n /\
  forall e, In e l -> D xs e n /\ forall y, In y ys -> ~ In y (binders e).
Proof.
  intros H. pose proof H as (N & K). cbn [binders] in N, K. apply nd_app in N. destruct N as (N1 & N2 & N3). apply nd_app in N1. destruct N1 as (N4 & N5 & N6).
  split; [easy|]. split; [intros y I; apply K; rewrite !in_app_iff; auto|]. split; [intros y I; apply K; rewrite !in_app_iff; auto|]. split.
  - split; [easy|]. intros x I. rewrite in_app_iff. specialize (K x). rewrite !in_app_iff in K. destruct K as (K1 & K2); [auto|]. split; [|easy]. intros [J|J]; [now apply (N6 x)|easy].
  - intros e I. split; [apply (D_list xs _ l n e H); [eexists; reflexivity|easy]|]. intros y J J2. apply (N3 y); [apply in_app_iff; now left|]. now apply (binders_in e).
Qed.
Lemma D_fix xs ys lams b n : D xs (EFix ys lams b) n -> D xs b n /\ forall lam, In lam lams -> NoDup (fst lam) /\ X (fst lam) n /\ (forall p, In p (fst lam) -> ~ In p xs) /\ D (fst lam ++ xs) (snd lam) n.
Proof.
  intros H. pose proof H as (N & K). cbn [binders] in N, K. apply nd_app in N. destruct N as (N1 & N2 & N3). apply nd_app in N2. destruct N2 as (N4 & N5 & N6).
  split; [apply (D_sub xs _ _ n H); [easy|]; intros x I; cbn [binders]; rewrite !in_app_iff; auto|].
  intros lam I. pose proof (nd_flat _ _ _ _ _ N4 I) as N7. cbv beta in N7. apply nd_app in N7. destruct N7 as (N7 & N8 & N9).
  assert (forall x, In x (fst lam ++ binders (snd lam)) -> ~ In x xs /\ 0 <= ts x <= n) as K2.
  { intros x J. apply K. rewrite !in_app_iff. right. left. apply in_flat_map. exists lam. easy. }
  split; [easy|]. split; [intros x J; apply K2; apply in_app_iff; now left|]. split; [intros x J; apply K2; apply in_app_iff; now left|]. split; [easy|]. intros x J. rewrite in_app_iff.
  destruct (K2 x) as (K3 & K4); [apply in_app_iff; now right|]. split; [|easy]. intros [L|L]; [now apply (N9 x)|easy].
Qed.

(** ** Operands that become variables *)
Lemma pairs_good xs ls q n n' : 0 <= n -> n <= n' -> X xs n -> NoDup (names q) -> (forall x, In x (names q) -> n < ts x <= n') ->
  (forall e, In e (map fst q) -> body xs ls false e /\ D xs e n) -> good xs ls (rev (pairs q)) n'.
Proof.
  intros N L Xs Nd F B. assert (map fst (rev (pairs q)) = rev (names q)) as E by (rewrite map_rev; f_equal; apply pairs_combine).
  unfold good. rewrite E. split; [now apply NoDup_rev|]. split; [intros x I; apply in_rev in I; apply F in I; lia|].
  split; [intros x I J; apply in_rev in I; apply F in I; apply Xs in J; lia|]. intros (x & e) I. apply in_rev in I. apply in_pairs in I. cbn [snd].
  destruct (B e) as (B1 & B2); [apply in_map_iff; exists (e, Some x); easy|]. split; [easy|]. split; [now apply (D_le _ _ n)|].
  intros y J K. apply in_rev in J. apply F in J. apply B2 in K. lia.
Qed.
Definition all_of (qi : list item) : list (exp * V) := map (fun i => (fst (fst i), snd (snd i))) qi.
Lemma reshaped cs r s qi w w1 w2 : (forall i x, In i qi -> snd (fst i) = Some x -> snd (snd i) = s x) ->
  evals cs r (map (val_of s) (rev (pairs (map fst qi)))) w w1 -> evals cs r (plain qi) w1 w2 -> evals cs r (all_of qi) w w2.
Proof.
  intros Hv E1 E2. apply evals_perm with (l := map (val_of s) (pairs (map fst qi)) ++ plain qi).
  - apply evals_app with (w1 := w1); [|exact E2]. apply evals_perm with (1 := E1). apply Permutation_map. symmetry. apply Permutation_rev.
  - clear E1 E2. induction qi as [|((e & o) & (c & v)) qi IH]; [easy|].
    unfold all_of, plain. cbn [map fst snd]. fold (all_of qi). cbn [flat_map fst snd pairs]. fold (plain qi). fold (pairs (map fst qi)).
    assert (forall i x, In i qi -> snd (fst i) = Some x -> snd (snd i) = s x) as Hv' by (intros i x I; apply Hv; now right).
    destruct o as [x|]; cbn [app map].
    + unfold val_of at 1. cbn [fst snd]. rewrite <- (Hv ((e, Some x), (c, v)) x (or_introl eq_refl) eq_refl). cbn [fst snd]. constructor. now apply IH.
    + rewrite <- Permutation_middle. constructor. now apply IH.
Qed.
Lemma wrap_items xs q cl vs : mapx cexp (outs q) = Some cl -> length vs = length cl -> (forall e, In (e, None) q -> cexpp self e = true /\ exists ls t, body xs ls t e) ->
  exists qi : list item, map fst qi = q /\ map snd qi = combine cl vs /\ all_of qi = combine (map fst q) vs /\ forall i, In i qi -> item_ok xs i.
Proof.
  revert cl vs. induction q as [|(e & o) q IH]; intros cl vs E Lv F; cbn [outs map mapx fst snd] in E.
  - injection E as <-. exists []. easy.
  - destruct (cexp _) as [c|] eqn:Ec in E; [|discriminate E]. fold (outs q) in E. destruct (mapx cexp (outs q)) as [cl'|] eqn:El; [|discriminate E]. injection E as <-.
    destruct vs as [|v vs]; [discriminate Lv|]. injection Lv as Lv. destruct (IH cl' vs eq_refl Lv) as (qi & Q1 & Q2 & Q3 & Q4); [intros e' I; apply F; now right|].
    exists (((e, o), (c, v)) :: qi). cbn [map fst snd combine all_of]. rewrite Q1, Q2. fold (all_of qi). rewrite Q3. repeat split; try easy.
    intros i [<-|I]; [|auto]. unfold item_ok. cbn [fst snd]. destruct o as [x|]; [cbn in Ec; now injection Ec as <-|]. split; [easy|]. apply F. now left.
Qed.

(** ** Jumps *)
Lemma goto_run f ps : forall zs h g k s w v w', length zs = length ps -> NoDup ps -> (forall z, In z zs -> ~ In z ps) ->
  run h g (SGoto f (combine ps (map XVar zs)) :: k) s w v w' ->
  exists m k' g' s', (m < h)%nat /\ jump g f = Some (k', g') /\ (forall x, s' x = bind ps (map s zs) s x) /\ run m g' k' s' w v w'.
Proof.
  induction ps as [|p ps IH]; intros zs h g k s w v w' L Nd Dj R.
  - cbn [combine] in R. inversion R as [| | | | | | |n0 ? ? ? ? ? k' g' ? ? J R2|]; subst. exists n0, k', g', s. split; [lia|]. easy.
  - destruct zs as [|z zs]; [discriminate L|]. injection L as L. cbn [map combine] in R. inversion Nd as [|? ? N1 N2]; subst.
    inversion R as [| | | | | |n0 ? ? ? ? ? ? ? ? u w1 ? ? Ec R2| |]; subst. inversion Ec; subst.
    destruct (IH zs _ g k _ w1 v w' L N2 ltac:(intros y I J; apply (Dj y); [now right|now right]) R2) as (m & k' & g' & s' & C1 & C2 & C3 & C4).
    exists m, k', g', s'. split; [lia|]. split; [easy|]. split; [|easy]. intros x. rewrite C3. cbn [map Spec_Stack.bind].
    assert (map (upd s p (s z)) zs = map s zs) as ->. { apply map_ext_in. intros y I. apply upd_other. intros ->. apply (Dj p); [now right|now left]. }
    destruct (id_dec x p) as [->|Nx]; [rewrite upd_same, bind_other by easy; apply upd_same|]. rewrite upd_other by easy.
    destruct (in_dec id_dec x ps) as [I|I]; [apply bind_in; [rewrite map_length; easy|easy]|]. rewrite !bind_other by easy. now apply upd_other.
Qed.
Lemma call_run h vs s0 w u w1 : M h -> length vs = length params -> (forall x, global_id x = true -> s0 x = globals x) ->
  (exists s1, (forall x, s1 x = bind params vs s0 x) /\ run h [] [cf_body code] s1 w u w1) -> eval [] (bind params vs globals) b0 w u w1.
Proof.
  intros HM Lv Gl (s1 & Es & R).
  assert (agree params (bind params vs globals) s1) as A1.
  { split; [intros x I; rewrite Es; now apply bind_in|]. intros x G. rewrite Es. rewrite !bind_other by (intros I; rewrite (X_local _ _ _ Xok I) in G; discriminate G). auto. }
  exact (HM fuel0 [] params b0 TReturn nn0 (cf_body code) nn1 (bind params vs globals) [] [] s1 w u w1 Cbody Bok Dok Xok
           P_nil A1 R [] (fun _ => me_base _ _ _)).
Qed.
Lemma menv_self g cs ls xs r n : menv g cs ls xs r n -> assq self ls = None.
Proof.
  induction 1; [easy|]. rewrite assq_app, assq_combine_map, assq_none; [easy|]. intros I. apply combine_fst_in in I. easy.
Qed.
Lemma goto_eval h g f ps zs k s w1 v w' cs r xs ls n rands w : (forall m, (m < h)%nat -> M m) ->
  run h g (SGoto f (combine ps (map XVar zs)) :: k) s w1 v w' -> menv g cs ls xs r n -> agree xs r s -> assq f (ls ++ selfl) = Some ps ->
  P ls n -> length zs = length ps -> (forall z, In z zs -> ~ In z ps) -> length rands = length ps ->
  evals cs r (combine rands (map s zs)) w w1 -> eval cs r (EApp (EVar f) rands) w v w'.
Proof.
  intros HM R ME A As Ps L Dj Lr Ev. rewrite assq_app in As. cbn [assq] in As.
  destruct (id_dec f self) as [->|Nf].
  - rewrite (menv_self _ _ _ _ _ _ ME), idrefl in As. injection As as <-.
    destruct (goto_run self params zs h g k s w1 v w' L Pok Dj R) as (m & k' & g' & s' & C1 & C2 & C3 & C4). destruct (jump_self _ _ _ _ _ _ _ _ ME C2) as (-> & ->).
    econstructor; [|now symmetry|exact Ev|]; [rewrite map_length; congruence|]. apply (call_run m (map s zs) s w1 v w'); [auto|now rewrite map_length|intros x G; now apply A|]. eauto.
  - assert (assq f ls = Some ps) as As'. { destruct (assq f ls); [easy|]. apply idneq in Nf. rewrite Nf in As. discriminate As. }
    assert (NoDup ps) as Nd by (apply assq_in in As'; now apply (proj2 (proj2 Ps)) in As').
    destruct (goto_run f ps zs h g k s w1 v w' L Nd Dj R) as (m & k' & g' & s' & C1 & C2 & C3 & C4).
    destruct (jump_label _ _ _ _ _ _ _ _ _ _ ME As' Nf C2) as (b & r0 & cs' & xs0 & ls' & n1 & fuel & m0 & m' & s1 & k'' & E1 & -> & E3 & E4 & E5 & E6 & E7 & E8 & E9 & E10 & E11 & E12 & E13 & E14).
    econstructor; [easy|exact E1| |now symmetry|exact Ev|]; [rewrite map_length; congruence|].
    assert (agree (ps ++ xs0) (bind ps (map s zs) r0) s') as A1.
    { split.
      - intros x I. rewrite C3. destruct (in_dec id_dec x ps) as [J|J]; [apply bind_in; [now rewrite map_length|easy]|]. rewrite !bind_other by easy.
        apply in_app_iff in I. destruct I as [I|I]; [easy|]. rewrite <- E11 by easy. apply A. auto.
      - intros x G. rewrite C3. rewrite !bind_other; [split; [auto|now apply A]| |];
          intros I; assert (In x (ps ++ xs0)) as I' by (apply in_app_iff; now left); rewrite (X_local _ _ _ E7 I') in G; discriminate G. }
    apply (HM m C1 fuel ls' (ps ++ xs0) b TReturn m0 s1 m' (bind ps (map s zs) r0) g' k'' s' w1 v w' E3 E5 (D_le _ _ _ _ E6 E4) (X_le _ _ _ E7 E4) (P_le _ _ _ E8 E4) A1 C4).
    intros _. apply (menv_weak g' cs' ls' xs0 r0 n1); [easy|intros x I; apply in_app_iff; now right| |easy]. intros x I. apply bind_other. intros J. now apply (E13 x).
Qed.

(** ** The main proof *)
Lemma body_tail xs ls t0 e : body xs ls t0 e -> t0 = false -> forall t, body xs ls t e.
Proof. induction 1; intros T t'; try discriminate T; subst; constructor; auto. Qed.
Lemma evals_one_inv cs r e v w w' : evals cs r [(e, v)] w w' -> eval cs r e w v w'.
Proof.
  intros E. inversion E as [|? ? ? e' v' l' ? w1 ? Pm E1 E2]; subst. apply Permutation_length_1_inv in Pm. injection Pm as -> -> ->. inversion E2 as [|? ? ? ? ? ? ? ? ? Pm]; subst; [easy|].
  apply Permutation_nil in Pm. discriminate Pm.
Qed.
Lemma evals_cs cs cs' r l : (forall e v, In (e, v) l -> forall w w', eval cs r e w v w' -> eval cs' r e w v w') -> forall w w', evals cs r l w w' -> evals cs' r l w w'.
Proof.
  remember (length l) as k eqn:Ek. revert l Ek. induction k as [|k IH]; intros l Ek H w w' E.
  - destruct l; [|discriminate Ek]. inversion E as [|? ? ? ? ? ? ? ? ? Pm]; subst; [constructor|]. apply Permutation_nil in Pm. discriminate Pm.
  - inversion E as [|? ? ? e' v' l' ? w1 ? Pm E1 E2]; subst; [discriminate Ek|]. econstructor; [exact Pm| |].
    + apply H; [|exact E1]. apply Permutation_in with (1 := Permutation_sym Pm). now left.
    + apply (IH l'); [apply Permutation_length in Pm; cbn in Pm; lia| |exact E2]. intros e v I. apply H. apply Permutation_in with (1 := Permutation_sym Pm). now right.
Qed.
Definition no_labels (e : exp) : Prop := forall xs ls cs cs' r w v w', body xs ls false e -> eval cs r e w v w' -> eval cs' r e w v w'.
Lemma eval_cs e : no_labels e.
Proof.
  assert (no_labels e /\ match e with ELam _ b => no_labels b | _ => True end) as K; [|apply K]. revert e.
  apply parts_ind. intros e IH. split; [|destruct e as [x|x e|a b c|ef p l|f l|xs b|xs lams b|x b|k e]; try easy; apply (IH b); exists xs; now left].
  intros xs ls cs cs' r w v w' B E.
  assert (forall l vs w w', (forall e', In e' l -> body xs ls false e' /\ exists ys, In (ys, e') (parts e)) -> evals cs r (combine l vs) w w' -> evals cs' r (combine l vs) w w') as Es.
  { intros l vs w2 w3 F. apply evals_cs. intros e' v' I. apply in_combine_l in I. destruct (F e' I) as (F1 & F2). intros w4 w5. apply (proj1 (IH e' F2) xs ls); easy. }
  inversion E; subst; inversion B; subst; try easy.
  - constructor.
  - econstructor; [eapply (proj1 (IH a ltac:(exists []; now left))); eassumption|].
    destruct (truth va); [eapply (proj1 (IH b ltac:(exists []; right; now left))); eassumption|eapply (proj1 (IH c ltac:(exists []; right; right; now left))); eassumption].
  - econstructor; [eassumption| |eassumption]. apply Es; [|eassumption]. intros e' I. split; [auto|]. exists []. apply in_map_iff. eauto.
  - econstructor; [eassumption|easy| |]; [apply Es; [|eassumption]; intros e' I; split; [auto|]; exists []; right; apply in_map_iff; eauto|].
    eapply (proj2 (IH (ELam ys b) ltac:(exists []; now left))); eassumption.
  - econstructor; [eassumption|easy| |eassumption]. apply Es; [|eassumption]. intros e' I. split; [auto|]. exists []. right. apply in_map_iff. eauto.
Qed.
Lemma vars_of l : forallb is_var l = true -> l = map EVar (var_ids l).
Proof.
  induction l as [|e l IH]; [easy|]. cbn [forallb]. intros H. apply andb_prop in H. destruct H as (H1 & H2). destruct e; try discriminate H1. cbn [var_ids flat_map app map]. f_equal. now apply IH.
Qed.
Lemma mapx_vars zs : mapx cexp (map EVar zs) = Some (map XVar zs).
Proof. induction zs as [|z zs IH]; [easy|]. cbn [map mapx cexp]. now rewrite IH. Qed.
Lemma inter_nil a b : intersectionq a b = [] -> forall z, In z a -> ~ In z b.
Proof.
  induction a as [|x a IH]; [easy|]. cbn [intersectionq]. destruct (memq x b) eqn:Mx; [discriminate|]. intros E z [<-|I]; [|auto]. intros J.
  unfold memq in Mx. assert (existsb (id_eqb x) b = true) as K; [|rewrite K in Mx; discriminate Mx]. apply existsb_exists. exists x. split; [easy|apply idrefl].
Qed.
Lemma combine_vals s ys : forall rands, length ys = length rands -> map (val_of s) (combine ys rands) = combine rands (map s ys).
Proof. induction ys as [|y ys IH]; intros [|e rands] L; try discriminate L; [easy|]. cbn [combine map]. unfold val_of at 1. cbn [fst snd]. f_equal. apply IH. now injection L. Qed.
Lemma combine_fst (ys : list id) (l : list exp) : length ys = length l -> map fst (combine ys l) = ys.
Proof. revert l. induction ys as [|y ys IH]; intros [|e l] L; try discriminate L; [easy|]. cbn. f_equal. apply IH. now injection L. Qed.
Lemma cg_let_form fuel L ids exps b t n s n' : ids <> [] -> length ids = length exps -> (forall y, b <> EVar y) -> (forall x, In x ids -> free_in x b) ->
  cg self fuel L (let_exp ids exps b) t n = Some (s, n') ->
  exists fuel' ds is n1 sb, decls self (combine ids exps) = Some ds /\
    gen_all (fun xe => cg self fuel' L (snd xe) (TVar (fst xe))) (filter (fun xe => negb (cexpp self (snd xe))) (combine ids exps)) n = Some (is, n1) /\
    cg self fuel' L b t n1 = Some (sb, n') /\ s = SSeq (ds ++ is ++ [sb]).
Proof.
  intros Ni Ln Nv Fr E. destruct fuel as [|fuel]; [discriminate E|]. cbn [cg] in E. unfold let_exp in E.
  assert (cexpp self (EApp (ELam ids b) exps) = false) as E1.
  { destruct ids as [|x ids]; [easy|]. cbn [cexpp]. destruct ids; [|easy]. destruct b; try easy. now destruct (Nv x0). }
  rewrite E1 in E. cbn [andb] in E.
  assert (degenerate_let (EApp (ELam ids b) exps) = None) as E2.
  { destruct ids as [|x ids]; [easy|]. cbn [degenerate_let]. destruct ids; [|easy]. destruct b; try easy. now destruct (Nv x0). }
  rewrite E2 in E.
  assert (let_view (EApp (ELam ids b) exps) = Some (ids, exps, b)) as E3 by (cbn [let_view]; rewrite Ln, Nat.eqb_refl; easy).
  assert (begin_view (EApp (ELam ids b) exps) = None) as E4.
  { unfold begin_view. rewrite E3. destruct ids as [|x [|y ids]]; [easy| |easy]. destruct exps as [|e [|? ?]]; try easy.
    assert (var_referenced_in_exp x b = true) as ->; [|easy]. apply referenced_free. apply Fr. now left. }
  rewrite E4, E3 in E. destruct (decls self (combine ids exps)) as [ds|]; [|discriminate E].
  destruct (gen_all _ _ n) as [(is & n1)|] eqn:E5 in E; [|discriminate E]. destruct (cg self fuel L b t n1) as [(sb & n2)|] eqn:E6; [|discriminate E].
  injection E as <- <-. exists fuel, ds, is, n1, sb. easy.
Qed.

Lemma in_outs x q : In x (names q) -> In (EVar x) (outs q).
Proof. intros I. apply in_names in I. destruct I as (e & I). apply in_map_iff. exists (e, Some x). easy. Qed.
Lemma wrap_run fuel ls xs r g k v w' wrap l n out ids exps n1 b t s n' h st w : (forall m, (m < h)%nat -> M m) ->
  split_rands self wrap l n [] [] [] = (out, ids, exps, n1) -> (exists e, In e l /\ (wrap = true \/ cexpp self e = false)) -> (forall y, b <> EVar y) ->
  (forall x, In (EVar x) out -> free_in x b) -> (forall e, In e l -> body xs ls false e /\ D xs e n) -> X xs n -> P ls n -> agree xs r st ->
  cg self fuel (ls ++ selfl) (let_exp ids exps b) t n1 = Some (s, n') -> run h g (s :: k) st w v w' ->
  exists q fuel' n2 sb h1 st1 w1, map fst q = l /\ out = outs q /\ n <= n2 /\ cg self fuel' (ls ++ selfl) b t n2 = Some (sb, n') /\ (h1 < h)%nat /\
    run h1 g (sb :: k) st1 w1 v w' /\ agree xs r st1 /\ (forall cs, evals cs r (map (val_of st1) (rev (pairs q))) w w1) /\
    (forall x, ts x <= n -> ~ In x (flat_map binders l) -> st1 x = st x) /\ (forall x, In x (names q) -> n < ts x) /\ (forall e, In (e, None) q -> wrap = false /\ cexpp self e = true).
Proof.
  intros HM Sp (e0 & I0 & W0) Nv Fr Bl Xs Ps A E R. apply split_spec in Sp. destruct Sp as (q & Q1 & Q2 & Q3 & Q4 & Q5 & Q6 & Q7 & Q8 & Q9).
  cbn [rev app] in Q2. rewrite app_nil_r in Q3, Q4. destruct (pairs_combine q) as (P1 & P2 & P3).
  assert (names q <> []) as Nq.
  { intros En. rewrite <- Q1 in I0. apply in_map_iff in I0. destruct I0 as ((e1 & o) & <- & I0). cbn [fst] in W0. destruct o as [x|].
    - assert (In x (names q)) as Ix by (apply in_names; eauto). rewrite En in Ix. destruct Ix.
    - apply Q8 in I0. destruct I0 as (I1 & I2), W0; congruence. }
  subst out ids exps. destruct (cg_let_form fuel (ls ++ selfl) (rev (names q)) (rev (wrapped q)) b t n1 s n') as (fuel' & ds & is & n2 & sb & E1 & E2 & E3 & ->).
  { intros En. apply Nq. rewrite <- (rev_involutive (names q)), En. easy. }
  { now rewrite !rev_length. }
  { exact Nv. }
  { intros x I. apply Fr. apply in_outs. now apply in_rev. }
  { exact E. }
  rewrite P1 in E1, E2. inversion R as [| | | | |h0 ? ? ? ? ? ? ? R2| | |]; subst. rewrite <- !app_assoc in R2. cbn [app] in R2. pose proof (proj1 Ps) as N0.
  assert (good xs ls (rev (pairs q)) n1) as G by (apply (pairs_good xs ls q n n1); easy).
  destruct (let_ok fuel' ls xs r g (sb :: k) v w' (rev (pairs q)) n1 ds is n2 h0 st w ltac:(lia) ltac:(intros m Lm; apply HM; lia) E1 E2 G (X_le _ _ n1 Xs ltac:(lia)) (P_le _ _ n1 Ps ltac:(lia)) A R2)
    as (h1 & st1 & w1 & C1 & C2 & C3 & C4 & C5).
  assert (n1 <= n2) as Ln1 by (apply gen_all_mono in E2; [easy|]; intros a' m c' m' Y; now apply cg_mono in Y).
  exists q, fuel', n2, sb, h1, st1, w1. split; [easy|]. split; [easy|]. split; [lia|]. split; [easy|]. split; [lia|]. split; [easy|]. split; [easy|]. split; [easy|]. split; [|split; [intros x I; apply Q7 in I; lia|easy]].
  intros x K1 K2. apply C5; [lia| |].
  - rewrite map_rev, P2. intros I. apply in_rev in I. apply Q7 in I. lia.
  - intros I. apply in_flat_map in I. destruct I as ((y & e) & I1 & I2). apply in_rev in I1. apply in_pairs in I1. apply K2. apply in_flat_map. exists e. split; [|easy].
    apply in_map_iff. exists (e, Some y). easy.
Qed.
Lemma evals_vars cs xs r s zs w : agree xs r s -> (forall z, In z zs -> In z xs \/ global_id z = true) -> evals cs r (combine (map EVar zs) (map s zs)) w w.
Proof.
  intros A. induction zs as [|z zs IH]; intros F; [constructor|]. cbn [map combine]. econstructor; [reflexivity| |apply IH; intros y I; apply F; now right].
  assert (s z = r z) as ->; [|constructor]. destruct (F z (or_introl eq_refl)) as [I|G]; [symmetry; now apply A|]. destruct (proj2 A z G) as (-> & ->). easy.
Qed.
Lemma outs_cexp q : (forall e, In (e, None) q -> cexpp self e = true) -> forallb (cexpp self) (outs q) = true.
Proof.
  intros H. apply forallb_forall. intros e I. apply in_map_iff in I. destruct I as ((e1 & o) & <- & I). cbn [fst snd]. destruct o; [easy|]. now apply H.
Qed.
Lemma outs_all q : (forall e, ~ In (e, None) q) -> outs q = map EVar (names q) /\ length (names q) = length q.
Proof.
  induction q as [|(e & o) q IH]; intros H; [easy|]. destruct o as [x|]; [|exfalso; apply (H e); now left]. cbn [outs names map flat_map snd fst app length].
  fold (outs q) (names q). destruct IH as (-> & ->); [intros e' I; apply (H e'); now right|easy].
Qed.
Lemma app_case h fuel ls xs f l t n s n' r g k st w v w' : (forall m, (m < h)%nat -> M m) ->
  match assq f (ls ++ selfl) with
  | None => None
  | Some ps =>
    if forallb is_var l && match intersectionq (var_ids l) ps with [] => true | _ => false end then
      match mapx cexp l with
      | None => None
      | Some cs => Some ((if is_return t then SGoto f (combine ps cs) else SSet t (XCall f cs)), n)
      end
    else match split_rands self true l n [] [] [] with (out, ids, exps, n') => cg self fuel (ls ++ selfl) (let_exp ids exps (EApp (EVar f) out)) t n' end
  end = Some (s, n') ->
  (forall e, In e l -> body xs ls false e) -> (f = self /\ length l = length params \/ f <> self /\ t = TReturn /\ exists ps, assq f ls = Some ps /\ length l = length ps) ->
  D xs (EApp (EVar f) l) n -> X xs n -> P ls n -> agree xs r st -> run h g (s :: k) st w v w' ->
  post h t (fun u w1 => forall cs, (is_return t = true -> menv g cs ls xs r n) -> eval cs r (EApp (EVar f) l) w u w1) (fun x => ts x <= n /\ ~ In x (binders (EApp (EVar f) l))) g k st v w'.
Proof.
  intros HM E Bl Cs De Xs Ps A R. pose proof (ce_ok h HM) as HC.
  assert (forall a, In a l -> D xs a n) as Dl by (intros a I; apply (D_list xs _ l n a De); [exists []; reflexivity|easy]).
  destruct (assq f (ls ++ selfl)) as [ps|] eqn:As; [|discriminate E].
  assert (forall cs, menv g cs ls xs r n -> length l = length ps) as Lp.
  { intros cs ME. destruct Cs as [(-> & Ll)|(Nf & _ & ps' & As' & Ll)]; rewrite assq_app in As.
    - rewrite (menv_self _ _ _ _ _ _ ME) in As. cbn [assq] in As. rewrite idrefl in As. now injection As as <-.
    - rewrite As' in As. now injection As as <-. }
  assert (X ps n) as Xp.
  { rewrite assq_app in As. destruct (assq f ls) as [ps'|] eqn:As'; [injection As as ->; apply assq_in in As'; now apply Ps in As'|].
    cbn [assq] in As. destruct (id_eqb f self); [|discriminate As]. injection As as <-. apply Ps. }
  destruct (forallb is_var l && _) eqn:Fv.
  - apply andb_prop in Fv. destruct Fv as (Fv & Iv). pose proof (vars_of l Fv) as El. remember (var_ids l) as zs eqn:Ez. clear Ez. subst l. rewrite mapx_vars in E.
    assert (forall z, In z zs -> In z xs \/ global_id z = true) as Fz.
    { intros z I. specialize (Bl (EVar z) ltac:(apply in_map; easy)). now inversion Bl. }
    destruct (intersectionq zs ps) eqn:In0; [|discriminate Iv]. pose proof (inter_nil _ _ In0) as Dj. injection E as <- <-.
    destruct (is_return t) eqn:It.
    + destruct t; try discriminate It. intros cs ME. specialize (ME eq_refl). pose proof (Lp cs ME) as Lz. rewrite map_length in Lz.
      apply (goto_eval h g f ps zs k st w v w' cs r xs ls n (map EVar zs) w HM R ME A As Ps Lz Dj); [now rewrite map_length|now apply (evals_vars cs xs)].
    + apply set_post in R. eapply post_imp; [exact R|easy| |easy]. intros u w1 (m & Lm & Ec) cs _. destruct Cs as [(-> & Ll)|(_ & -> & _)]; [|discriminate It].
      apply (HC m ltac:(lia) (EApp (EVar self) (map EVar zs)) (XCall self (map XVar zs)) xs ls false r st w u w1); [|..|exact Ec].
      * cbn [cexp]. rewrite mapx_vars. easy.
      * cbn [cexpp]. rewrite idrefl. cbn [andb]. apply forallb_forall. intros e I. apply in_map_iff in I. destruct I as (z & <- & _). easy.
      * constructor; easy.
      * exact A.
  - destruct (split_rands self true l n [] [] []) as (((out & ids) & exps) & n1) eqn:Sp.
    destruct (wrap_run fuel ls xs r g k v w' true l n out ids exps n1 (EApp (EVar f) out) t s n' h st w HM Sp) as (q & fuel' & n2 & sb & h1 & st1 & w1 & Q1 & Q2 & Q3 & Q4 & Q5 & Q6 & Q7 & Q8 & Q9 & Q10 & Q11).
    { destruct l as [|e l]; [discriminate Fv|]. exists e. split; [now left|now left]. }
    { discriminate. }
    { intros x I. apply (free_app x (EVar f) out (EVar x)); [easy|constructor; constructor]. }
    { intros e I. auto. }
    { exact Xs. } { exact Ps. } { exact A. } { exact E. } { exact R. }
    subst out. destruct (outs_all q) as (Eo & Lq); [intros e I; apply Q11 in I; now destruct I|].
    assert (sb = if is_return t then SGoto f (combine ps (map XVar (names q))) else SSet t (XCall f (map XVar (names q)))) as ->.
    { destruct fuel' as [|fuel']; [discriminate Q4|]. rewrite Eo in Q4. cbn [cg cexpp tail_call degenerate_let] in Q4. unfold begin_view in Q4. cbn [let_view rec_view] in Q4.
      assert (id_eqb f self && forallb (cexpp self) (map EVar (names q)) && negb (id_eqb f self) = false) as X1 by (destruct (id_eqb f self); [apply andb_false_r|easy]).
      rewrite X1, As in Q4.
      assert (forallb is_var (map EVar (names q)) = true) as X2 by (apply forallb_forall; intros e I; apply in_map_iff in I; now destruct I as (z & <- & _)).
      assert (var_ids (map EVar (names q)) = names q) as X3 by (clear; induction (names q) as [|z zs IH]; [easy|]; cbn; f_equal; exact IH).
      assert (intersectionq (names q) ps = []) as X4.
      { clear - Q10 Xp. induction (names q) as [|z zs IH]; [easy|]. cbn [intersectionq]. destruct (memq z ps) eqn:Mz; [|apply IH; intros y I; apply Q10; now right].
        unfold memq in Mz. apply existsb_exists in Mz. destruct Mz as (y & I & Ey). apply ideq in Ey. subst y. apply Xp in I. specialize (Q10 z (or_introl eq_refl)). lia. }
      rewrite X2, X3, X4, mapx_vars in Q4. cbn [andb] in Q4. now injection Q4 as <- _. }
    assert (mapx cexp (outs q) = Some (map XVar (names q))) as El by (rewrite Eo; apply mapx_vars).
    assert (length (names q) = length l) as Lnq by (rewrite Lq, <- Q1, map_length; easy).
    destruct (is_return t) eqn:It.
    + destruct t; try discriminate It. intros cs ME. specialize (ME eq_refl). pose proof (Lp cs ME) as Lz.
      destruct (wrap_items xs q (map XVar (names q)) (map st1 (names q)) El) as (qi & I1 & I2 & I3 & I4); [now rewrite !map_length|intros e I; apply Q11 in I; now destruct I|].
      assert (evals cs r (combine l (map st1 (names q))) w w1) as Evs.
      { rewrite <- Q1 at 1. rewrite <- I3. apply (reshaped cs r st1 qi w w1 w1).
        - intros ((e & o) & (c & v2)) x Ii Eq. cbn [fst snd] in *. subst o. specialize (I4 _ Ii). unfold item_ok in I4. cbn [fst snd] in I4. subst c.
          assert (In (XVar x, v2) (combine (map XVar (names q)) (map st1 (names q)))) as J by (rewrite <- I2; apply in_map_iff; exists ((e, Some x), (XVar x, v2)); easy).
          clear - J. induction (names q) as [|z zs IH]; [destruct J|]. destruct J as [J|J]; [now injection J as -> ->|auto].
        - rewrite I1. apply Q8.
        - assert (plain qi = []) as ->; [|constructor]. clear - Q11 I1. assert (forall e, ~ In (e, None) q) as H by (intros e I; apply Q11 in I; now destruct I). clear Q11. revert q I1 H.
          induction qi as [|((e & o) & cv) qi IH]; intros q I1 H; [easy|]. destruct q as [|a q]; [discriminate I1|]. injection I1 as <- I1. cbn [plain flat_map fst snd].
          destruct o; [|exfalso; apply (H e); now left]. apply (IH q); [easy|]. intros e' I. apply (H e'). now right. }
      assert (forall z, In z (names q) -> ~ In z ps) as Dj by (intros z I J; apply Q10 in I; apply Xp in J; lia).
      apply (goto_eval h1 g f ps (names q) k st1 w1 v w' cs r xs ls n l w ltac:(intros m Lm; apply HM; lia) Q6 ME Q7 As Ps ltac:(congruence) Dj Lz Evs).
    + apply set_post in Q6. eapply post_imp; [exact Q6|lia| |].
      * intros u w3 (m & Lm & Ec) cs _. destruct Cs as [(-> & Ll)|(_ & -> & _)]; [|discriminate It].
        inversion Ec as [| | |m0 ? ? ? vs s0 w2 ? ? Lv' Lq' Ev Gl R3]; subst.
        destruct (wrap_items xs q (map XVar (names q)) vs El Lv') as (qi & I1 & I2 & I3 & I4); [intros e I; apply Q11 in I; now destruct I|].
        rewrite <- I2 in Ev. destruct (ops h xs r st1 ltac:(intros k' Lk; apply HC; lia) Q7 m0 ltac:(lia) qi w1 w2 Ev I4) as (H1 & H2).
        rewrite <- I1 in Q8. pose proof (reshaped cs r st1 qi w w1 w2 H1 (Q8 cs) (H2 cs)) as Evs. rewrite I3 in Evs. rewrite map_length in Lv'.
        econstructor; [|now symmetry|exact Evs|]; [congruence|]. rewrite Cparams in R3. apply (call_run m0 vs s0 w2 u w3); [apply HM; lia|congruence|exact Gl|].
        exists (bind params vs s0). easy.
      * intros x (K1 & K2). split; [easy|]. apply Q9; easy.
Qed.
Theorem main : forall h, M h.
Proof.
  intros h. induction h as [h HM] using lt_wf_ind. pose proof (ce_ok h HM) as HC. intros fuel. induction fuel as [|fuel IHf]; [discriminate|].
  intros ls xs e t n s n' r g k st w v w' E B De Xs Ps A R. pose proof (proj1 Ps) as N0. cbn [cg] in E.
  destruct (cexpp self e && negb (tail_call self e)) eqn:Ce.
  { apply andb_prop in Ce. destruct Ce as (Ce & _). destruct (cexp e) as [c|] eqn:Ec; [|discriminate E]. cbn in E. injection E as <- <-.
    apply set_post in R. eapply post_imp; [exact R|easy| |easy]. intros u w1 (m & Lm & Ev) cs _. now apply (HC m ltac:(lia) e c xs ls (is_return t) r st w u w1). }
  clear Ce. destruct (degenerate_let e) as [b|] eqn:Dg.
  { destruct e as [| | | |f l| | | |]; try discriminate Dg. destruct f as [| | | | |ys b1| | |]; try discriminate Dg. destruct ys as [|y [|? ?]]; [| |destruct l; discriminate Dg].
    - destruct l; [|discriminate Dg]. injection Dg as ->. inversion B as [| | |? ? ? ? ? ? L1 L2 B2| | | |]; subst. apply D_let in De. destruct De as (_ & _ & _ & De & _).
      pose proof (IHf ls xs b t n s n' r g k st w v w' E B2 De Xs Ps A R) as Po. eapply post_imp; [exact Po|easy| |].
      + intros u w1 H cs ME. apply (ev_let _ _ _ _ _ _ _ _ _ _ [] b [] [] w w u w1); [easy|easy|constructor|]. now apply H.
      + intros x (K1 & K2). cbn [binders app flat_map] in K2. rewrite app_nil_r in K2. easy.
    - destruct b1; try discriminate Dg. destruct l as [|e [|? ?]]; try discriminate Dg. cbn [degenerate_let] in Dg. destruct (id_eqb y x) eqn:Ey; [|discriminate Dg]. apply ideq in Ey. subst x.
      injection Dg as ->. inversion B as [| | |? ? ? ? ? ? L1 L2 B2| | | |]; subst. apply D_let in De. destruct De as (_ & _ & _ & _ & De). destruct (De b (or_introl eq_refl)) as (De1 & _).
      pose proof (IHf ls xs b t n s n' r g k st w v w' E (body_tail _ _ _ _ (L2 b (or_introl eq_refl)) eq_refl _) De1 Xs Ps A R) as Po. eapply post_imp; [exact Po|easy| |].
      + intros u w1 H cs ME. apply (ev_let _ _ _ _ _ _ _ _ _ _ [y] (EVar y) [b] [u] w w1 u w1); [easy|easy|apply evals_one; now apply H|].
        cbn [Spec_Stack.bind]. replace u with (upd r y u y) at 2 by apply upd_same. constructor.
      + intros x (K1 & K2). cbn [binders app flat_map In] in K2. rewrite app_nil_r in K2. split; [|easy]. split; [easy|tauto]. }
  clear Dg. destruct (begin_view e) as [(e1 & e2)|] eqn:Bg.
  { destruct e as [| | | |f l| | | |]; try discriminate Bg. destruct f as [| | | | |ys b1| | |]; try discriminate Bg. unfold begin_view in Bg. cbn [let_view] in Bg.
    destruct (Nat.eqb (length ys) (length l)) eqn:Ln; [|discriminate Bg]. destruct ys as [|y [|? ?]]; try discriminate Bg. destruct l as [|a [|? ?]]; try discriminate Bg.
    destruct (var_referenced_in_exp y b1) eqn:Rf; [discriminate Bg|]. injection Bg as <- <-. inversion B as [| | |? ? ? ? ? ? L1 L2 B2| | | |]; subst.
    pose proof De as De0. apply D_let in De. destruct De as (D1 & D2 & D3 & D4 & D5). destruct (D5 a (or_introl eq_refl)) as (D6 & D7).
    destruct (cg self fuel (ls ++ selfl) a TVoid n) as [(s1 & n1)|] eqn:E1; [|discriminate E]. destruct (cg self fuel (ls ++ selfl) b1 t n1) as [(s2 & n2)|] eqn:E2; [|discriminate E].
    injection E as <- <-. inversion R as [| | | | |h0 ? ? ? ? ? ? ? R2| | |]; subst. cbn [app] in R2. pose proof (cg_mono _ _ _ _ _ _ _ E1) as Ln1.
    destruct (HM h0 ltac:(lia) fuel ls xs a TVoid n s1 n1 r g (s2 :: k) st w v w' E1 (L2 a (or_introl eq_refl)) D6 Xs Ps A R2) as (m & u & w1 & st1 & Lm & Q & K & R3).
    cbn [Spec_Stack.put] in R3. assert (~ In y xs) as Ny by (apply D2; now left). assert (0 <= ts y <= n) as Ty by (apply D3; now left).
    assert (body xs ls (is_return t) b1) as B3.
    { apply (body_drop _ _ _ _ B2). intros z I. destruct (in_dec id_dec z xs) as [J|J]; [now left|right]. apply in_app_iff in I. destruct I as [[<-|[]]|I]; [|easy]. split.
      - intros F. apply referenced_free in F. rewrite F in Rf. discriminate Rf.
      - intros I. apply (proj2 D4) in I. apply (proj1 I). now left. }
    assert (D xs b1 n1) as D8.
    { apply (D_le _ _ n); [|easy]. split; [apply D4|]. intros x I. apply (proj2 D4) in I. destruct I as (I1 & I2). split; [|easy]. intros J. apply I1. now right. }
    assert (agree xs (bind [y] [u] r) st1) as A1.
    { cbn [Spec_Stack.bind]. split.
      - intros x I. rewrite upd_other by congruence. rewrite K; [now apply A|]. split; [apply Xs in I; lia|]. intros J. now apply (proj2 D6) in J.
      - intros x G. pose proof (global_neg _ G). rewrite upd_other by (intros ->; lia). rewrite K; [now apply A|]. split; [lia|]. intros J. apply (proj2 D6) in J. lia. }
    pose proof (HM m ltac:(lia) fuel ls xs b1 t n1 s2 n2 (bind [y] [u] r) g k st1 w1 v w' E2 B3 D8 (X_le _ _ _ Xs Ln1) (P_le _ _ _ Ps Ln1) A1 R3) as Po.
    eapply post_imp; [exact Po|lia| |].
    - intros u2 w2 H cs ME. apply (ev_let _ _ _ _ _ _ _ _ _ _ [y] b1 [a] [u] w w1 u2 w2); [easy|easy|apply evals_one; apply Q; discriminate|].
      apply H. intros T. apply (menv_weak g cs ls xs r n); [now apply ME|easy| |easy]. intros x I. cbn [Spec_Stack.bind]. apply upd_other. congruence.
    - intros x (K1 & K2). cbn [binders flat_map] in K2. rewrite app_nil_r, !in_app_iff in K2. split; [split; [lia|tauto]|]. apply K. tauto. }
  clear Bg. destruct (let_view e) as [((ids & rands) & b)|] eqn:Lv.
  { destruct e as [| | | |f l| | | |]; try discriminate Lv. destruct f as [| | | | |ys b1| | |]; try discriminate Lv. cbn [let_view] in Lv.
    destruct (Nat.eqb (length ys) (length l)) eqn:Ln; [|discriminate Lv]. injection Lv as <- <- <-. apply Nat.eqb_eq in Ln. inversion B as [| | |? ? ? ? ? ? L1 L2 B2| | | |]; subst.
    pose proof De as De0. apply D_let in De. destruct De as (D1 & D2 & D3 & D4 & D5).
    destruct (decls self (combine ys l)) as [ds|] eqn:Ed; [|discriminate E]. destruct (gen_all _ _ n) as [(is & n1)|] eqn:Eg in E; [|discriminate E].
    destruct (cg self fuel (ls ++ selfl) b1 t n1) as [(s2 & n2)|] eqn:E2; [|discriminate E]. injection E as <- <-.
    inversion R as [| | | | |h0 ? ? ? ? ? ? ? R2| | |]; subst. rewrite <- !app_assoc in R2. cbn [app] in R2.
    assert (good xs ls (combine ys l) n) as G.
    { unfold good. rewrite combine_fst by easy. split; [easy|]. split; [easy|]. split; [easy|]. intros (x & e) I. cbn [snd]. apply in_combine_r in I. split; [auto|]. now apply D5. }
    destruct (let_ok fuel ls xs r g (s2 :: k) v w' (combine ys l) n ds is n1 h0 st w N0 ltac:(intros m Lm; apply HM; lia) Ed Eg G Xs Ps A R2) as (h1 & st1 & w1 & C1 & C2 & C3 & C4 & C5).
    assert (n <= n1) as Ln1 by (apply gen_all_mono in Eg; [easy|]; intros a m c m' Y; now apply cg_mono in Y).
    rewrite combine_fst in C5 by easy.
    assert (agree (ys ++ xs) (bind ys (map st1 ys) r) st1) as A1.
    { split.
      - intros x I. destruct (in_dec id_dec x ys) as [J|J]; [now apply bind_map|]. rewrite bind_other by easy. apply C3. apply in_app_iff in I. now destruct I.
      - intros x Gx. rewrite bind_other; [now apply C3|]. intros I. rewrite (X_local _ _ _ D3 I) in Gx. discriminate Gx. }
    assert (X (ys ++ xs) n1) as X1 by (intros x I; apply in_app_iff in I; destruct I as [I|I]; [apply D3 in I|apply Xs in I]; lia).
    pose proof (HM h1 ltac:(lia) fuel ls (ys ++ xs) b1 t n1 s2 n2 (bind ys (map st1 ys) r) g k st1 w1 v w' E2 B2 (D_le _ _ _ _ D4 Ln1) X1 (P_le _ _ _ Ps Ln1) A1 C2) as Po.
    eapply post_imp; [exact Po|lia| |].
    - intros u w2 H cs ME. apply (ev_let _ _ _ _ _ _ _ _ _ _ ys b1 l (map st1 ys) w w1 u w2); [rewrite map_length; easy|easy|rewrite <- combine_vals by easy; apply C4|].
      apply H. intros T. apply (menv_weak g cs ls xs r n); [now apply ME|intros x I; apply in_app_iff; now right| |easy]. intros x I. apply bind_other. intros J. now apply (D2 x).
    - intros x (K1 & K2). cbn [binders] in K2. rewrite !in_app_iff in K2. split; [split; [lia|tauto]|]. apply C5; [easy|tauto|]. intros I. apply in_flat_map in I.
      destruct I as ((y & e) & I1 & I2). apply in_combine_r in I1. cbn [snd] in I2. apply K2. right. now apply (binders_in e). }
  destruct e as [x|x e|a b c|ef p l|f l|ys b|ys lams b|x b|k0 e]; try discriminate E; try (now inversion B).
  - inversion B as [|? ? ? ? ? ? Ba Bb Bc| | | | | |]; subst. pose proof De as De0. apply D_if in De. destruct De as (Da & Db & Dc). destruct (cexpp self a) eqn:Ca.
    + destruct (cexp a) as [ca|] eqn:Ea; [|discriminate E]. destruct (cg self fuel (ls ++ selfl) b t n) as [(s1 & n1)|] eqn:E1; [|discriminate E].
      destruct (cg self fuel (ls ++ selfl) c t n1) as [(s2 & n2)|] eqn:E2; [|discriminate E]. injection E as <- <-. pose proof (cg_mono _ _ _ _ _ _ _ E1) as Ln1.
      inversion R as [| | | |h0 ? ? ? ? ? ? ? u w1 ? ? Ev R2| | | |]; subst. pose proof (HC h0 ltac:(lia) a ca xs ls false r st w u w1 Ea Ca Ba A Ev) as Eva.
      destruct (truth u) eqn:Tu.
      * pose proof (HM h0 ltac:(lia) fuel ls xs b t n s1 n1 r g k st w1 v w' E1 Bb Db Xs Ps A R2) as Po. eapply post_imp; [exact Po|lia| |].
        -- intros u2 w2 H cs ME. econstructor; [apply Eva|]. rewrite Tu. now apply H.
        -- intros x (K1 & K2). cbn [binders] in K2. rewrite !in_app_iff in K2. tauto.
      * pose proof (HM h0 ltac:(lia) fuel ls xs c t n1 s2 n2 r g k st w1 v w' E2 Bc (D_le _ _ _ _ Dc Ln1) (X_le _ _ _ Xs Ln1) (P_le _ _ _ Ps Ln1) A R2) as Po. eapply post_imp; [exact Po|lia| |].
        -- intros u2 w2 H cs ME. econstructor; [apply Eva|]. rewrite Tu. apply H. intros T. apply (menv_weak g cs ls xs r n); [now apply ME|easy|easy|easy].
        -- intros x (K1 & K2). cbn [binders] in K2. rewrite !in_app_iff in K2. split; [split; [lia|tauto]|easy].
    + cbn [fresh] in E. set (x := mkid (n + 1) XNone) in *. assert (ts x = n + 1) as Tx by easy. clearbody x.
      assert (free_in x (EIf (EVar x) b c)) as Fx by (apply (free_part _ _ [] (EVar x)); [now left|easy|constructor; constructor]).
      destruct (cg_let_form fuel _ [x] [a] (EIf (EVar x) b c) t (n + 1) s n' ltac:(discriminate) eq_refl ltac:(discriminate) ltac:(intros y [<-|[]]; exact Fx) E)
        as (fuel' & ds & is & n1 & sb & E1 & E2 & E3 & ->).
      inversion R as [| | | | |h0 ? ? ? ? ? ? ? R2| | |]; subst. rewrite <- !app_assoc in R2. cbn [app] in R2.
      assert (good xs ls (combine [x] [a]) (n + 1)) as G.
      { cbn [combine]. split; [repeat constructor; easy|]. split; [intros y [<-|[]]; cbn [fst]; lia|]. split; [intros y [<-|[]] J; cbn [fst] in J; apply Xs in J; lia|].
        intros xe [<-|[]]. cbn [snd map fst]. split; [easy|]. split; [apply (D_le _ _ n); [easy|lia]|]. intros y [<-|[]] J. apply (proj2 Da) in J. lia. }
      destruct (let_ok fuel' ls xs r g (sb :: k) v w' (combine [x] [a]) (n + 1) ds is n1 h0 st w ltac:(lia) ltac:(intros m Lm; apply HM; lia) E1 E2 G (X_le _ _ (n + 1) Xs ltac:(lia)) (P_le _ _ (n + 1) Ps ltac:(lia)) A R2)
        as (h1 & st1 & w1 & C1 & C2 & C3 & C4 & C5). cbn [combine map] in C4. unfold val_of in C4. cbn [fst snd] in C4.
      assert (forall cs, eval cs r a w (st1 x) w1) as Eva by (intros cs; apply evals_one_inv; apply C4).
      assert (n + 1 <= n1) as Ln1 by (apply gen_all_mono in E2; [easy|]; intros a' m c' m' Y; now apply cg_mono in Y).
      assert (forall y, ts y <= n /\ ~ In y (binders (EIf a b c)) -> st1 y = st y) as Kp.
      { intros y (K1 & K2). cbn [binders] in K2. rewrite !in_app_iff in K2. apply C5; [lia|intros [<-|[]]; cbn [fst] in K1; lia|]. cbn [combine flat_map snd]. rewrite app_nil_r. tauto. }
      destruct fuel' as [|fuel']; [discriminate E3|]. cbn [cg] in E3. destruct (cexpp self (EIf (EVar x) b c) && negb (tail_call self (EIf (EVar x) b c))) eqn:Ce.
      * apply andb_prop in Ce. destruct Ce as (Ce & _). cbn [cexpp] in Ce. apply andb_prop in Ce. destruct Ce as (Cb & Cc). cbn [andb] in Cb. cbn [cexp] in E3.
        destruct (cexp b) as [cb|] eqn:Eb; [|discriminate E3]. destruct (cexp c) as [cc|] eqn:Ec; [|discriminate E3]. cbn [option_map] in E3. injection E3 as <- <-.
        apply set_post in C2. eapply post_imp; [exact C2|lia| |].
        -- intros u w2 (m & Lm & Ev) cs ME. inversion Ev as [|m0 ? ? ? ? ? va w3 ? ? Ex Ey| |]; subst. assert (m0 <= S h0)%nat as Hm by lia. inversion Ex; subst. econstructor; [apply Eva|]. revert Ey.
           destruct (truth (st1 x)); intros Ey; [apply (HC _ Hm b cb xs ls (is_return t) r st1 _ u w2 Eb Cb Bb C3 Ey)|apply (HC _ Hm c cc xs ls (is_return t) r st1 _ u w2 Ec Cc Bc C3 Ey)].
        -- intros y Ky. split; [easy|]. now apply Kp.
      * cbn [degenerate_let begin_view let_view cexpp cexp] in E3. unfold begin_view in E3. cbn [let_view] in E3.
        destruct (cg self fuel' (ls ++ selfl) b t n1) as [(s1 & n2)|] eqn:Eb; [|discriminate E3].
        destruct (cg self fuel' (ls ++ selfl) c t n2) as [(s2 & n3)|] eqn:Ec; [|discriminate E3]. injection E3 as <- <-. pose proof (cg_mono _ _ _ _ _ _ _ Eb) as Ln2.
        inversion C2 as [| | | |h2 ? ? ? ? ? ? ? u w2 ? ? Ev R3| | | |]; subst. assert (h2 < S h0)%nat as Hm by lia. inversion Ev; subst.
        destruct (truth (st1 x)) eqn:Tu.
        -- pose proof (HM _ Hm fuel' ls xs b t n1 s1 n2 r g k st1 _ v w' Eb Bb (D_le _ _ _ n1 Db ltac:(lia)) (X_le _ _ n1 Xs ltac:(lia)) (P_le _ _ n1 Ps ltac:(lia)) C3 R3) as Po.
           eapply post_imp; [exact Po|lia| |].
           ++ intros u2 w3 H cs ME. econstructor; [apply Eva|]. rewrite Tu. apply H. intros T. apply (menv_weak g cs ls xs r n); [now apply ME|easy|easy|lia].
           ++ intros y Ky. split; [|now apply Kp]. destruct Ky as (K1 & K2). cbn [binders] in K2. rewrite !in_app_iff in K2. split; [lia|tauto].
        -- pose proof (HM _ Hm fuel' ls xs c t n2 s2 n3 r g k st1 _ v w' Ec Bc (D_le _ _ _ n2 Dc ltac:(lia)) (X_le _ _ n2 Xs ltac:(lia)) (P_le _ _ n2 Ps ltac:(lia)) C3 R3) as Po.
           eapply post_imp; [exact Po|lia| |].
           ++ intros u2 w3 H cs ME. econstructor; [apply Eva|]. rewrite Tu. apply H. intros T. apply (menv_weak g cs ls xs r n); [now apply ME|easy|easy|lia].
           ++ intros y Ky. split; [|now apply Kp]. destruct Ky as (K1 & K2). cbn [binders] in K2. rewrite !in_app_iff in K2. split; [lia|tauto].
  - inversion B as [| |? ? ? ? ? ? Bl| | | | |]; subst. assert (forall a, In a l -> D xs a n) as Dl by (intros a I; apply (D_list xs _ l n a De); [exists []; reflexivity|easy]).
    destruct (forallb (cexpp self) l) eqn:Fl.
    + destruct (mapx cexp l) as [cl|] eqn:El; [|discriminate E]. cbn [option_map] in E. injection E as <- <-. apply prim_post in R. eapply post_imp; [exact R|easy| |easy].
      intros u w2 (m & vs & w1 & Lm & Lv' & Ev & Pd) cs _. destruct (plain_ops l cl vs El Lv' Fl xs) as (q & Q1 & Q2 & Q3); [eauto|]. rewrite <- Q1 in Ev.
      destruct (ops h xs r st ltac:(intros k' Lk; apply HC; lia) A m ltac:(lia) q w w1 Ev Q3) as (_ & H). specialize (H cs). rewrite Q2 in H.
      econstructor; [|exact H|exact Pd]. rewrite Lv'. now apply mapx_length in El.
    + destruct (split_rands self false l n [] [] []) as (((out & ids) & exps) & n1) eqn:Sp.
      destruct (wrap_run fuel ls xs r g k v w' false l n out ids exps n1 (EPrim ef p out) t s n' h st w HM Sp) as (q & fuel' & n2 & sb & h1 & st1 & w1 & Q1 & Q2 & Q3 & Q4 & Q5 & Q6 & Q7 & Q8 & Q9 & Q10 & Q11).
      { assert (exists e, In e l /\ cexpp self e = false) as (e & I & Ce); [|exists e; auto]. clear - Fl. induction l as [|a l IH]; [discriminate Fl|]. cbn [forallb] in Fl.
        destruct (cexpp self a) eqn:Ca; [destruct (IH Fl) as (e & I & Ce); exists e; split; [now right|easy]|exists a; split; [now left|easy]]. }
      { discriminate. }
      { intros x I. apply (free_prim x ef p out (EVar x)); [easy|constructor; constructor]. }
      { intros e I. auto. }
      { exact Xs. } { exact Ps. } { exact A. } { exact E. } { exact R. }
      subst out. assert (forallb (cexpp self) (outs q) = true) as Fo by (apply outs_cexp; intros e I; now apply Q11 in I).
      assert (exists cl, mapx cexp (outs q) = Some cl /\ sb = prim_st t p cl) as (cl & El & ->).
      { destruct fuel' as [|fuel']; [discriminate Q4|]. cbn [cg cexpp tail_call degenerate_let] in Q4. unfold begin_view in Q4. cbn [let_view] in Q4. rewrite Fo, !andb_true_r in Q4. unfold prim_st.
        cbn [negb cexp] in Q4. rewrite ?andb_true_r in Q4.
        destruct (mapx cexp (outs q)) as [cl|]; [|destruct (prim_cexp p); discriminate Q4]. exists cl. split; [easy|]. destruct (prim_cexp p); cbn [option_map] in Q4; injection Q4 as <- _; easy. }
      apply prim_post in Q6. eapply post_imp; [exact Q6|lia| |].
      * intros u w3 (m & vs & w2 & Lm & Lv' & Ev & Pd) cs _.
        destruct (wrap_items xs q cl vs El Lv') as (qi & I1 & I2 & I3 & I4).
        { intros e I. split; [now apply Q11|]. exists ls, false. apply Bl. rewrite <- Q1. apply in_map_iff. exists (e, None). easy. }
        rewrite <- I2 in Ev. destruct (ops h xs r st1 ltac:(intros k' Lk; apply HC; lia) Q7 m ltac:(lia) qi w1 w2 Ev I4) as (H1 & H2).
        rewrite <- I1 in Q8. pose proof (reshaped cs r st1 qi w w1 w2 H1 (Q8 cs) (H2 cs)) as Evs. rewrite I3, Q1 in Evs. econstructor; [|exact Evs|exact Pd].
        apply mapx_length in El. unfold outs in El. rewrite map_length in El. rewrite <- Q1, map_length. congruence.
      * intros x (K1 & K2). split; [easy|]. apply Q9; easy.
  - inversion B as [| | |? ? ? ? ? ? L1 L2 B2|? ? ? ? Ll Bl|? ? y ps ? Ny As Ll Bl| |? ? y ps b ? Ny Ll Bl Bb Et]; subst; try discriminate Lv.
    + cbn [let_view] in Lv. rewrite L1, Nat.eqb_refl in Lv. discriminate Lv.
    + cbn [rec_view] in E. apply (app_case h fuel ls xs self l t n s n' r g k st w v w' HM E Bl); try easy. left. easy.
    + cbn [rec_view] in E. destruct t; try discriminate. apply (app_case h fuel ls xs y l TReturn n s n' r g k st w v w' HM E Bl); try easy. right. split; [easy|]. split; [easy|]. eauto.
    + destruct t; try discriminate. cbn [rec_view] in E. rewrite idrefl in E.
      assert (body xs ls true (EFix [y] [(ps, b)] (EApp (EVar y) l))) as B1.
      { apply sb_fix; [easy|intros [Es|[]]; congruence| |].
        - cbn [map fst combine app]. apply (sb_goto _ _ _ _ y ps l); [easy|cbn [assq]; now rewrite idrefl|easy|]. intros e I. apply (body_any_labels xs ls); auto.
        - intros lam [<-|[]]. exact Bb. }
      assert (binders (EFix [y] [(ps, b)] (EApp (EVar y) l)) = binders (EApp (EFix [y] [(ps, b)] (EVar y)) l)) as Eb.
      { cbn [binders flat_map fst snd app]. rewrite ?app_nil_r, ?app_assoc. reflexivity. }
      assert (D xs (EFix [y] [(ps, b)] (EApp (EVar y) l)) n) as D1 by (unfold D; rewrite Eb; exact De).
      pose proof (IHf ls xs _ TReturn n s n' r g k st w v w' E B1 D1 Xs Ps A R) as Po. intros cs ME. specialize (Po cs ME).
      inversion Po as [| | | | | |? ? ? ? ? ? ? ? Ev|]; subst. inversion Ev as [| | | |? ? ? vs ? w1 ? ? Lv1 Lv2 Evs Evb|? ? ? ? ps' b' r' cs' vs ? w1 ? ? Ns Fc Lv1 Lv2 Evs Evb| |]; subst; [easy|].
      cbn [find_clo combine assq] in Fc. rewrite idrefl in Fc. injection Fc as <- <- <- <-.
      econstructor; [exact Lv1|exact Lv2| |exact Evb]. revert Evs. apply evals_cs. intros e v1 I w2 w3. apply in_combine_l in I. apply (eval_cs e xs ls). auto.
  - inversion B as [| | | | | |? ? ? ? ? Ln Ns Bb Bl Et|]; subst. destruct t; try discriminate. cbn [is_return negb] in E.
    destruct (cg self fuel _ b TReturn n) as [(s1 & n1)|] eqn:E1; [|discriminate E]. destruct (gen_all _ _ n1) as [(labs & n2)|] eqn:E2 in E; [|discriminate E]. injection E as <- <-.
    pose proof (cg_mono _ _ _ _ _ _ _ E1) as Ln1.
    inversion R as [| | | | | | | |h0 ? ? ? ? ? ? ? ? ? R2]; subst. cbn [negb] in R2. apply D_fix in De. destruct De as (Db & Dl).
    assert (P (combine ys (map fst lams) ++ ls) n) as P1.
    { split; [apply Ps|]. split; [apply Ps|]. intros y ps I. apply in_app_iff in I. destruct I as [I|I]; [|now apply Ps in I]. apply in_combine_r in I. apply in_map_iff in I.
      destruct I as (lam & <- & I). destruct (Dl lam I) as (K1 & K2 & _). easy. }
    rewrite app_assoc in E1, E2. intros cs ME. constructor.
    apply (HM h0 ltac:(lia) fuel (combine ys (map fst lams) ++ ls) xs b TReturn n s1 n1 r ((false, labs, k) :: g) (live labs ++ k) st w v w' E1 Bb Db Xs P1 A R2).
    intros _. apply (me_fix g cs ls xs r n ys lams labs k xs r n); try easy.
    + now apply ME.
    + intros x G. now apply A.
    + intros lam I. destruct (Dl lam I) as (K1 & K2 & K3 & K4). auto.
    + apply gen_all_each in E2.
      * revert E2. apply Forall2_imp. intros (y & (ps & b1)) (y' & o) (m & m' & Lm & Em). cbn [fst snd] in *. destruct (tail_call y _).
        -- destruct (cg self fuel _ b1 TReturn m) as [(s' & m2)|] eqn:E3 in Em; [|discriminate Em]. injection Em as <- <- <-. split; [easy|]. intros s0 [= <-]. exists fuel, m, m2. split; [lia|easy].
        -- injection Em as <- <- <-. split; [easy|discriminate].
      * intros (a1 & a2) m c m' Y. cbn [fst snd] in Y. destruct (tail_call a1 _); [|injection Y as _ <-; lia].
        destruct (cg self fuel _ (snd a2) TReturn m) as [(s' & m1)|] eqn:E3 in Y; [|discriminate Y]. injection Y as _ <-. now apply cg_mono in E3.
Qed.
End Sem.
End S.

