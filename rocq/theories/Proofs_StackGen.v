(** Proofs for functions on the C stack: the generator gives code.  See Properties_Stack.v *)
From Coq Require Import ZArith List Bool Lia.
From Verif Require Import Base Model_Lit Model_Core Model_Globals Model_Beta Model_Stack Spec_Scope Spec_Free Spec_Globals Spec_Stack Proofs_Free Proofs_Stack Proofs_StackFun.
Import ListNotations.
Open Scope Z_scope.

Lemma mapx_all A B (f : A -> option B) l : (forall a, In a l -> exists b, f a = Some b) -> exists m, mapx f l = Some m.
Proof.
  induction l as [|a l IH]; intros H; [now exists []|]. cbn [mapx]. destruct (H a (or_introl eq_refl)) as (b & ->). destruct IH as (m & ->); [intros c I; apply H; now right|]. eauto.
Qed.
Lemma gen_all_all A B (f : A -> Z -> option (B * Z)) N : (forall a n b n', f a n = Some (b, n') -> n <= n') -> forall l n, N <= n ->
  (forall a m, In a l -> N <= m -> exists r, f a m = Some r) -> exists bs n', gen_all f l n = Some (bs, n') /\ N <= n'.
Proof.
  intros Mo. induction l as [|a l IH]; intros n Hn H; [now exists [], n|]. cbn [gen_all]. destruct (H a n (or_introl eq_refl) Hn) as ((b & n1) & E). rewrite E. apply Mo in E.
  destruct (IH n1) as (bs & n2 & E2 & L2); [lia|intros c m I; apply H; now right|]. rewrite E2. eauto.
Qed.
Section Gen.
Variable self : id.
Lemma cexp_all2 e : (cexpp self e = true -> exists c, cexp e = Some c) /\ forall xs b, e = ELam xs b -> cexpp self b = true -> exists c, cexp b = Some c.
Proof.
  induction e as [e IH] using parts_ind. split; [|intros xs b -> H; apply (IH b); [exists xs; now left|easy]].
  intros H. destruct e as [x|x e|a b c|ef p l|f l|xs b|xs lams b|x b|k e]; try discriminate H.
  - now exists (XVar x).
  - cbn [cexpp] in H. apply andb_prop in H. destruct H as (H & Hc). apply andb_prop in H. destruct H as (Ha & Hb). cbn [cexp].
    destruct (proj1 (IH a (ex_intro _ [] (or_introl eq_refl))) Ha) as (a' & ->). destruct (proj1 (IH b (ex_intro _ [] (or_intror (or_introl eq_refl)))) Hb) as (b' & ->).
    destruct (proj1 (IH c (ex_intro _ [] (or_intror (or_intror (or_introl eq_refl))))) Hc) as (c' & ->). eauto.
  - cbn [cexpp] in H. apply andb_prop in H. destruct H as (_ & H). rewrite forallb_forall in H. cbn [cexp].
    destruct (mapx_all _ _ cexp l) as (m & ->); [|now exists (XPrim p m)]. intros a I. apply IH; [|now apply H]. exists []. cbn [parts]. apply in_map_iff. now exists a.
  - destruct f as [x|x f|a b c|ef p fl|f fl|ys b|ys lams b|x b|k f]; try discriminate H.
    + cbn [cexpp] in H. apply andb_prop in H. destruct H as (_ & H). rewrite forallb_forall in H. cbn [cexp].
      destruct (mapx_all _ _ cexp l) as (m & ->); [|now exists (XCall x m)]. intros a I. apply IH; [|now apply H]. exists []. cbn [parts]. right. apply in_map_iff. now exists a.
    + destruct ys as [|y [|? ?]]; [| |destruct l; discriminate H].
      * destruct l as [|? ?]; [|discriminate H]. cbn [cexpp] in H. cbn [cexp]. apply (IH (ELam [] b)) with (xs := []); [exists []; now left|easy|easy].
      * destruct b; try discriminate H. destruct l as [|e [|? ?]]; try discriminate H. cbn [cexpp] in H. cbn [cexp]. destruct (id_eqb y x); [|discriminate H].
        apply (IH e); [exists []; right; now left|easy].
Qed.
Lemma cexp_all e : cexpp self e = true -> exists c, cexp e = Some c.
Proof. apply cexp_all2. Qed.

(** code for [e] is generated with the fuel [F], the labels [L] and time stamps from [N] on *)
Definition good (F : nat) (L : labels) (N : Z) (e : exp) : Prop := forall fuel t n, (F <= fuel)%nat -> N <= n -> exists r, cg self fuel L e t n = Some r.
Lemma good_le F F' L N N' e : good F L N e -> (F <= F')%nat -> N <= N' -> good F' L N' e.
Proof. intros G HF HN fuel t n H1 H2. apply G; lia. Qed.
Lemma decls_all l : exists ds, decls self l = Some ds.
Proof. apply mapx_all. intros (x & e) I. apply filter_In in I. cbn [fst snd] in *. destruct (cexp_all e) as (c & ->); [easy|]. cbn. eauto. Qed.
Lemma let_ok F L N ids l b : length ids = length l -> (forall e, In e l -> good F L N e) -> good F L N b -> good (S F) L N (EApp (ELam ids b) l).
Proof.
  intros Le Gl Gb fuel t n HF HN. destruct fuel as [|fuel]; [lia|]. set (e := EApp (ELam ids b) l). cbn [cg].
  destruct (cexpp self e && negb (tail_call self e)) eqn:Ce. { apply andb_prop in Ce. destruct (cexp_all e) as (c & ->); [easy|]. cbn. eauto. }
  destruct (degenerate_let e) as [e1|] eqn:Dg.
  { unfold e in Dg. cbn [degenerate_let] in Dg. destruct ids as [|y [|? ?]]; [| |destruct l; discriminate Dg].
    - destruct l; [|discriminate Dg]. injection Dg as <-. apply Gb; lia.
    - destruct b; try discriminate Dg. destruct l as [|a [|? ?]]; try discriminate Dg. destruct (id_eqb y x); [|discriminate Dg]. injection Dg as <-. apply (Gl a); [now left|lia|lia]. }
  assert (let_view e = Some (ids, l, b)) as Lv. { unfold e. cbn [let_view]. now rewrite Le, Nat.eqb_refl. }
  destruct (begin_view e) as [(e1 & e2)|] eqn:Bg.
  { unfold begin_view in Bg. rewrite Lv in Bg. destruct ids as [|x [|? ?]]; try discriminate Bg. destruct l as [|a [|? ?]]; try discriminate Bg. destruct (var_referenced_in_exp x b); [discriminate Bg|]. injection Bg as <- <-.
    destruct (Gl a (or_introl eq_refl) fuel TVoid n) as ((s1 & n1) & E1); [lia|lia|]. rewrite E1. apply cg_mono in E1.
    destruct (Gb fuel t n1) as ((s2 & n2) & E2); [lia|lia|]. rewrite E2. eauto. }
  rewrite Lv. destruct (decls_all (combine ids l)) as (ds & ->).
  destruct (gen_all_all _ _ (fun xe : id * exp => cg self fuel L (snd xe) (TVar (fst xe))) N) with (l := filter (fun xe : id * exp => negb (cexpp self (snd xe))) (combine ids l)) (n := n) as (is & n1 & E1 & L1).
  - intros a m c m' Y. now apply cg_mono in Y.
  - easy.
  - intros (x & a) m I Hm. apply filter_In in I. destruct I as (I & _). apply in_combine_r in I. cbn [fst snd]. apply (Gl a I); lia.
  - rewrite E1. destruct (Gb fuel t n1) as ((s2 & n2) & E2); [lia|lia|]. rewrite E2. eauto.
Qed.
Lemma if_var_ok F L N x b c : good F L N b -> good F L N c -> good (S F) L N (EIf (EVar x) b c).
Proof.
  intros Gb Gc fuel t n HF HN. destruct fuel as [|fuel]; [lia|]. cbn [cg degenerate_let begin_view let_view].
  destruct (cexpp self (EIf (EVar x) b c) && negb (tail_call self (EIf (EVar x) b c))) eqn:Ce. { apply andb_prop in Ce. destruct (cexp_all (EIf (EVar x) b c)) as (k & ->); [easy|]. cbn. eauto. }
  cbn [cexpp cexp]. destruct (Gb fuel t n) as ((s1 & n1) & E1); [lia|lia|]. rewrite E1. apply cg_mono in E1. destruct (Gc fuel t n1) as ((s2 & n2) & E2); [lia|lia|]. rewrite E2. eauto.
Qed.
Lemma if_ok F L N a b c : good F L N a -> good F L N b -> good F L N c -> good (S (S (S F))) L N (EIf a b c).
Proof.
  intros Ga Gb Gc fuel t n HF HN. destruct fuel as [|fuel]; [lia|]. cbn [cg degenerate_let begin_view let_view].
  destruct (cexpp self (EIf a b c) && negb (tail_call self (EIf a b c))) eqn:Ce. { apply andb_prop in Ce. destruct (cexp_all (EIf a b c)) as (k & ->); [easy|]. cbn. eauto. }
  destruct (cexpp self a) eqn:Ca.
  - destruct (cexp_all a Ca) as (a' & ->). destruct (Gb fuel t n) as ((s1 & n1) & E1); [lia|lia|]. rewrite E1. apply cg_mono in E1. destruct (Gc fuel t n1) as ((s2 & n2) & E2); [lia|lia|]. rewrite E2. eauto.
  - cbn [fresh]. unfold let_exp. apply (let_ok (S F) L N); [easy| | |lia|lia].
    + intros e [<-|[]]. eapply good_le; [exact Ga|lia|lia].
    + now apply if_var_ok.
Qed.
Lemma split_ok w l n out ids exps n' : split_rands self w l n [] [] [] = (out, ids, exps, n') ->
  length ids = length exps /\ n <= n' /\ (forall e, In e exps -> In e l) /\
  (forall e, In e out -> (exists x, e = EVar x /\ n < ts x) \/ (w = false /\ cexpp self e = true)).
Proof.
  intros Sp. apply split_spec in Sp. destruct Sp as (q & Q1 & Q2 & Q3 & Q4 & Q5 & _ & Q6 & Q7 & _). cbn [rev app] in Q2. rewrite app_nil_r in Q3, Q4. subst.
  destruct (pairs_combine q) as (_ & _ & P3). split; [now rewrite !rev_length|]. split; [easy|]. split.
  - intros e I. apply in_rev in I. unfold wrapped in I. apply in_flat_map in I. destruct I as ((e1 & o) & I & J). cbn [fst snd] in J. destruct o; [|easy]. destruct J as [<-|[]].
    apply in_map_iff. exists (e1, Some i). easy.
  - intros e I. apply in_map_iff in I. destruct I as ((e1 & o) & <- & I). cbn [fst snd]. destruct o as [x|]; [|right; now apply Q7]. left. exists x. split; [easy|]. apply Q6. apply in_names. eauto.
Qed.
Lemma prim_now L N ef p l : (forall e, In e l -> cexpp self e = true) -> good 1 L N (EPrim ef p l).
Proof.
  intros Hl fuel t n HF HN. destruct fuel as [|fuel]; [lia|]. cbn [cg degenerate_let begin_view let_view].
  destruct (cexpp self (EPrim ef p l) && negb (tail_call self (EPrim ef p l))) eqn:Ce. { apply andb_prop in Ce. destruct (cexp_all (EPrim ef p l)) as (k & ->); [easy|]. cbn. eauto. }
  rewrite (proj2 (forallb_forall (cexpp self) l) Hl). destruct (mapx_all _ _ cexp l) as (m & ->); [intros a I; now apply cexp_all, Hl|]. cbn. eauto.
Qed.
Lemma prim_ok F L N ef p l : (forall e, In e l -> good F L N e) -> good (S (S (S F))) L N (EPrim ef p l).
Proof.
  intros Gl fuel t n HF HN. destruct fuel as [|fuel]; [lia|]. destruct (forallb (cexpp self) l) eqn:Fl; [apply (prim_now L N); [now apply forallb_forall|lia|lia]|]. cbn [cg degenerate_let begin_view let_view].
  destruct (cexpp self (EPrim ef p l) && negb (tail_call self (EPrim ef p l))) eqn:Ce. { apply andb_prop in Ce. destruct (cexp_all (EPrim ef p l)) as (k & ->); [easy|]. cbn. eauto. }
  rewrite Fl. destruct (split_rands self false l n [] [] []) as (((out & ids) & exps) & n1) eqn:Sp. destruct (split_ok _ _ _ _ _ _ _ Sp) as (S1 & S2 & S3 & S4).
  unfold let_exp. apply (let_ok (S F) L N); [easy| | |lia|lia].
  - intros e I. eapply good_le; [apply (Gl e); auto|lia|lia].
  - apply (good_le 1 _ _ N); [|lia|lia]. apply prim_now. intros e I. destruct (S4 e I) as [(x & -> & _)|(_ & H)]; easy.
Qed.
Lemma disjoint_inter l ps : (forall x, In x l -> ~ In x ps) -> intersectionq l ps = [].
Proof.
  induction l as [|x l IH]; intros H; [easy|]. cbn [intersectionq]. destruct (memq x ps) eqn:E.
  - exfalso. apply (H x); [now left|]. unfold memq in E. apply existsb_exists in E. destruct E as (y & I & E). apply ideq in E. now subst.
  - apply IH. intros y I. apply H. now right.
Qed.
Lemma call_now L N x ps l : assq x L = Some ps -> (forall e, In e l -> exists y, e = EVar y /\ ~ In y ps) -> good 1 L N (EApp (EVar x) l).
Proof.
  intros As Hl fuel t n HF HN. destruct fuel as [|fuel]; [lia|]. cbn [cg degenerate_let begin_view let_view rec_view].
  destruct (cexpp self (EApp (EVar x) l) && negb (tail_call self (EApp (EVar x) l))) eqn:Ce. { apply andb_prop in Ce. destruct (cexp_all (EApp (EVar x) l)) as (k & ->); [easy|]. cbn. eauto. }
  rewrite As. assert (forallb is_var l = true) as ->. { apply forallb_forall. intros e I. destruct (Hl e I) as (y & -> & _). easy. }
  rewrite disjoint_inter. 2: { intros y I. unfold var_ids in I. apply in_flat_map in I. destruct I as (e & I & J). destruct (Hl e I) as (z & -> & Nz). destruct J as [<-|[]]. easy. }
  cbn [andb]. destruct (mapx_all _ _ cexp l) as (m & ->); [|eauto]. intros e I. destruct (Hl e I) as (y & -> & _). now exists (XVar y).
Qed.
Lemma call_ok F L N x ps l : assq x L = Some ps -> (forall y, In y ps -> ts y <= N) -> (forall e, In e l -> good F L N e) -> good (S (S (S F))) L N (EApp (EVar x) l).
Proof.
  intros As Hp Gl fuel t n HF HN. destruct fuel as [|fuel]; [lia|]. cbn [cg degenerate_let begin_view let_view rec_view].
  destruct (cexpp self (EApp (EVar x) l) && negb (tail_call self (EApp (EVar x) l))) eqn:Ce. { apply andb_prop in Ce. destruct (cexp_all (EApp (EVar x) l)) as (k & ->); [easy|]. cbn. eauto. }
  rewrite As. destruct (forallb is_var l && _) eqn:Fl.
  { apply andb_prop in Fl. destruct Fl as (Fl & _). rewrite forallb_forall in Fl. destruct (mapx_all _ _ cexp l) as (m & ->); [|eauto]. intros e I. specialize (Fl e I). destruct e; try discriminate Fl. now exists (XVar x0). }
  destruct (split_rands self true l n [] [] []) as (((out & ids) & exps) & n1) eqn:Sp. destruct (split_ok _ _ _ _ _ _ _ Sp) as (S1 & S2 & S3 & S4).
  unfold let_exp. apply (let_ok (S F) L N); [easy| | |lia|lia].
  - intros e I. eapply good_le; [apply (Gl e); auto|lia|lia].
  - apply (good_le 1 _ _ N); [|lia|lia]. apply (call_now _ _ _ ps); [easy|]. intros e I. destruct (S4 e I) as [(y & -> & Hy)|(H & _)]; [|discriminate H]. exists y. split; [easy|]. intros J. apply Hp in J. lia.
Qed.
Lemma fix_ok F L N ids lams b : good F (combine ids (map fst lams) ++ L) N b -> (forall lam, In lam lams -> good F (combine ids (map fst lams) ++ L) N (snd lam)) ->
  good (S F) L N (EFix ids lams b).
Proof.
  intros Gb Gl fuel t n HF HN. destruct fuel as [|fuel]; [lia|]. cbn [cg degenerate_let begin_view let_view cexpp andb].
  destruct (Gb fuel t (if is_return t then n else n + 1)) as ((s1 & n1) & E1); [lia|destruct (is_return t); lia|]. rewrite E1. apply cg_mono in E1.
  match goal with |- context [gen_all ?f ?l0 ?m0] => destruct (fun Y => gen_all_all _ _ f N Y l0 m0) as (labs & n2 & E2 & _) end.
  - intros (x & lam) m c m' Y. cbn [fst snd] in Y. destruct (tail_call x _); [|injection Y as _ <-; lia]. destruct (cg self fuel _ (snd lam) t m) as [(s2 & n2)|] eqn:E2; [|discriminate Y]. injection Y as _ <-. now apply cg_mono in E2.
  - destruct (is_return t); lia.
  - intros (x & lam) m I Hm. apply in_combine_r in I. cbn [fst snd]. destruct (tail_call x _); [|eauto]. destruct (Gl lam I fuel t m) as ((s2 & n2) & ->); [lia|lia|eauto].
  - rewrite E2. eauto.
Qed.
Lemma all_bound (A : Type) (Q : nat -> A -> Prop) (l : list A) : (forall a F F', Q F a -> (F <= F')%nat -> Q F' a) -> (forall a, In a l -> exists F, Q F a) -> exists F, forall a, In a l -> Q F a.
Proof.
  intros Mo. induction l as [|a l IH]; intros H; [now exists O|]. destruct (H a (or_introl eq_refl)) as (F1 & Q1). destruct IH as (F2 & Q2); [intros b I; apply H; now right|].
  exists (Nat.max F1 F2). intros b [<-|I]; [apply (Mo _ F1); [easy|lia]|apply (Mo _ F2); [auto|lia]].
Qed.
Variable params : list id.
Definition fits (t : bool) (ls L : list (id * list id)) (N : Z) : Prop := assq self L = Some params /\ (t = true -> forall y ps, y <> self -> assq y ls = Some ps -> assq y L = Some ps) /\
  forall y ps, assq y L = Some ps -> forall x, In x ps -> ts x <= N.
Definition gen_ok (t : bool) (ls : list (id * list id)) (e : exp) (F : nat) : Prop := forall L N, fits t ls L N -> (forall x, In x (binders e) -> ts x <= N) -> good F L N e.
Lemma gen_ok_le t ls e F F' : gen_ok t ls e F -> (F <= F')%nat -> gen_ok t ls e F'.
Proof. intros G H L N Fi B. apply (good_le F _ _ N); [apply G; assumption|exact H|lia]. Qed.
Lemma fits_false t ls L N ls' : fits t ls L N -> fits false ls' L N.
Proof. intros (F1 & _ & F3). split; [easy|]. split; [discriminate|easy]. Qed.
Lemma fits_fix t ls L N ys (lams : list (list id * exp)) : ~ In self ys -> fits t ls L N -> (forall lam x, In lam lams -> In x (fst lam) -> ts x <= N) ->
  fits t (combine ys (map fst lams) ++ ls) (combine ys (map fst lams) ++ L) N.
Proof.
  intros Ns (F1 & F2 & F3) B. split; [|split].
  - rewrite assq_app, assq_none; [easy|]. intros I. apply in_map_iff in I. destruct I as ((x & a) & E & I). cbn in E. subst. apply in_combine_l in I. easy.
  - intros T y ps Ny. rewrite !assq_app. destruct (assq y _); [easy|]. now apply F2.
  - intros y ps. rewrite assq_app. destruct (assq y (combine _ _)) as [qs|] eqn:E; [|apply F3]. intros [= ->]. apply assq_in in E. apply in_combine_r in E. apply in_map_iff in E. destruct E as (lam & <- & I). intros x. now apply B.
Qed.
Lemma gen_main xs ls t e : s_body self params xs ls t e -> exists F, gen_ok t ls e F.
Proof.
  induction 1 as [xs ls t x|xs ls t a b c _ (Fa & IHa) _ (Fb & IHb) _ (Fc & IHc)|xs ls t ef p l _ IH|xs ls t ys l b Le _ IH _ (Fb & IHb)|xs ls t l Le _ IH
    |xs ls y ps l Ny As Le _ IH|xs ls ys lams b Le Ns _ (Fb & IHb) _ IH|xs ls y ps b l Ny Le _ IH _ (Fb & IHb)].
  - exists 1%nat. intros L N _ _ fuel tt n HF HN. destruct fuel; [lia|]. cbn. eauto.
  - exists (S (S (S (Fa + Fb + Fc)))). intros L N Fi B. cbn [binders] in B. apply if_ok; (eapply good_le; [|shelve|reflexivity]).
    + apply IHa; [now apply (fits_false _ _ _ _ ls) in Fi|]. intros x I. apply B. apply in_app_iff. now left.
    + apply IHb; [easy|]. intros x I. apply B. rewrite !in_app_iff. tauto.
    + apply IHc; [easy|]. intros x I. apply B. rewrite !in_app_iff. tauto.
    Unshelve. all: lia.
  - apply (all_bound _ (fun F e => gen_ok false ls e F)) in IH; [|intros; now eapply gen_ok_le; eauto]. destruct IH as (F & IH). exists (S (S (S F))). intros L N Fi B. apply prim_ok. intros e I. apply IH; [easy|now apply (fits_false _ _ _ _ ls) in Fi|].
    intros x J. apply B. cbn [binders]. apply in_flat_map. eauto.
  - apply (all_bound _ (fun F e => gen_ok false ls e F)) in IH; [|intros; now eapply gen_ok_le; eauto]. destruct IH as (F & IH). exists (S (F + Fb)). intros L N Fi B. cbn [binders] in B. apply let_ok; [easy| |].
    + intros e I. apply (good_le F _ _ N); [|lia|lia]. apply IH; [easy|now apply (fits_false _ _ _ _ ls) in Fi|]. intros x J. apply B. apply in_app_iff. right. apply in_flat_map. eauto.
    + apply (good_le Fb _ _ N); [|lia|lia]. apply IHb; [easy|]. intros x J. apply B. rewrite !in_app_iff. tauto.
  - apply (all_bound _ (fun F e => gen_ok false ls e F)) in IH; [|intros; now eapply gen_ok_le; eauto]. destruct IH as (F & IH). exists (S (S (S F))). intros L N Fi B. pose proof Fi as (F1 & _ & F3). apply (call_ok _ _ _ _ params); [easy|now apply (F3 self)|].
    intros e I. apply IH; [easy|now apply (fits_false _ _ _ _ ls) in Fi|]. intros x J. apply B. cbn [binders app]. apply in_flat_map. eauto.
  - apply (all_bound _ (fun F e => gen_ok false ls e F)) in IH; [|intros; now eapply gen_ok_le; eauto]. destruct IH as (F & IH). exists (S (S (S F))). intros L N Fi B. pose proof Fi as (_ & F2 & F3). specialize (F2 eq_refl _ _ Ny As). apply (call_ok _ _ _ _ ps); [easy|now apply (F3 y)|].
    intros e I. apply IH; [easy|now apply (fits_false _ _ _ _ ls) in Fi|]. intros x J. apply B. cbn [binders app]. apply in_flat_map. eauto.
  - apply (all_bound _ (fun F lam => gen_ok true (combine ys (map fst lams) ++ ls) (snd lam) F)) in IH; [|intros; now eapply gen_ok_le; eauto]. destruct IH as (F & IH). exists (S (F + Fb)). intros L N Fi B. cbn [binders] in B.
    assert (fits true (combine ys (map fst lams) ++ ls) (combine ys (map fst lams) ++ L) N) as Fi2.
    { apply fits_fix; [easy|easy|]. intros lam x I J. apply B. rewrite !in_app_iff. right. left. apply in_flat_map. exists lam. split; [easy|]. apply in_app_iff. now left. }
    apply fix_ok.
    + apply (good_le Fb _ _ N); [|lia|lia]. apply IHb; [easy|]. intros x J. apply B. rewrite !in_app_iff. tauto.
    + intros lam I. apply (good_le F _ _ N); [|lia|lia]. apply IH; [easy|easy|]. intros x J. apply B. rewrite !in_app_iff. right. left. apply in_flat_map. exists lam. split; [easy|]. apply in_app_iff. now right.
  - apply (all_bound _ (fun F e => gen_ok false ls e F)) in IH; [|intros; now eapply gen_ok_le; eauto]. destruct IH as (F & IH). exists (S (S (S (S (S (F + Fb)))))). intros L N Fi B.
    cbn [binders flat_map fst snd app] in B. rewrite !app_nil_r in B.
    assert (fits true ((y, ps) :: ls) ((y, ps) :: L) N) as Fi2.
    { apply (fits_fix true ls L N [y] [(ps, b)]); [intros [->|[]]; now apply Ny|easy|]. intros lam x [<-|[]] J. apply B. right. rewrite !in_app_iff. left. left. exact J. }
    intros fuel tt n HF HN. destruct fuel as [|fuel]; [lia|]. cbn [cg degenerate_let begin_view let_view rec_view cexpp andb]. rewrite idrefl.
    apply (fix_ok (S (S (S (F + Fb)))) L N); [| |lia|lia]; cbn [map fst combine app].
    + apply (call_ok _ _ _ _ ps); [cbn [assq]; now rewrite idrefl|intros x J; apply B; right; rewrite !in_app_iff; left; left; exact J|].
      intros e I. apply (good_le F _ _ N); [|lia|lia].
      apply IH; [easy|now apply (fits_false _ _ _ _ ls) in Fi2|intros x J; apply B; right; rewrite !in_app_iff; right; apply in_flat_map; eauto].
    + intros lam [<-|[]]. cbn [snd]. apply (good_le Fb _ _ N); [|lia|lia]. apply IHb; [easy|]. intros x J. apply B. right. rewrite !in_app_iff. left. right. exact J.
Qed.
End Gen.
Theorem stack_succeeds self e n ps b : s_function self e ps b -> distinct n e -> exists fuel code, gen_function self fuel e n = Some code.
Proof.
  induction 1 as [ps b B|e ps b F IH|x e ps b F IH]; intros (D1 & D2).
  - destruct (gen_main self ps _ _ _ _ B) as (F & G). exists F. cbn [gen_function]. unfold gen_lam. cbn [binders] in D2. destruct (G [(self, ps)] n) with (fuel := F) (t := TReturn) (n := n) as (r & ->); [| |lia|lia|cbn; eauto].
    + split; [cbn [assq]; now rewrite idrefl|]. split; [easy|]. intros y qs. cbn [assq]. destruct (id_eqb y self); [|easy]. intros [= <-] x I. apply D2. apply in_app_iff. now left.
    + intros x I. apply D2. apply in_app_iff. now right.
  - apply IH. cbn [binders flat_map app] in D1, D2. rewrite app_nil_r in D1, D2. easy.
  - cbn [binders flat_map app] in D1, D2. rewrite app_nil_r in D1, D2. cbn [gen_function]. rewrite idrefl. apply IH. split; [now inversion D1|]. intros y I. apply D2. now right.
Qed.
