(** Conversion to continuation-passing style: the whole pass. *)
From Coq Require Import ZArith List Bool Lia.
From Verif Require Import Model_Lit Model_Core Model_Cps Spec_Sem Spec_Free Spec_Scope Spec_Lift Spec_Cps Proofs_Sim Proofs_Core Proofs_Free Proofs_Agree
  Proofs_LiftOk Proofs_Cps Proofs_CpsRun Proofs_CpsOk.
Import ListNotations.
Open Scope Z_scope.

Theorem convert_ok P kc e n e' n' : P the_ktrap_prim = SRet (AConst kc) -> 0 <= n -> distinct n e -> closed e -> no_local_set e -> tame P e ->
  cps_convert e n = Some (e', n') -> refines P MDirect MDirect e e'.
Proof.
  intros HK Ln (D1 & D2) Cl NL T E. unfold cps_convert in E. cbn [fresh] in E.
  assert (W : wf n e). { split; [assumption|]. split; [assumption|]. intros x F G. rewrite (Cl x F) in G. discriminate. }
  destruct (conv_main P n Ln e) as (_ & M); [exact (conj W (conj NL T))|].
  destruct (M (fun _ => False) _ (n + 1 + 1) e' n' ltac:(lia) ltac:(intros x []) E) as (_ & C).
  eapply (cps_simulates P kc); [split; [exact HK | intros X; vm_compute in X; discriminate] | exact C | | exact Cl].
  unfold global_id. cbn. apply Z.ltb_ge. lia.
Qed.

(** ** Binding occurrences of the result *)
Definition cnt (x : id) (l : list id) : nat := count_occ id_dec l x.
Definition nw (n n' : Z) (x : id) : nat := if (n <? ts x) && (ts x <=? n') then 1%nat else 0%nat.
Lemma nw_add n n1 n2 x : n <= n1 -> n1 <= n2 -> (nw n n1 x + nw n1 n2 x = nw n n2 x)%nat.
Proof.
  intros A B. unfold nw. destruct (Z.ltb_spec n (ts x)), (Z.leb_spec (ts x) n1), (Z.ltb_spec n1 (ts x)), (Z.leb_spec (ts x) n2); cbn; lia.
Qed.
Lemma nw_one n t x : (cnt x [mkid (n + 1) t] <= nw n (n + 1) x)%nat.
Proof.
  unfold cnt, nw. cbn [count_occ]. destruct (id_dec (mkid (n + 1) t) x) as [<-|]; [|apply Nat.le_0_l]. cbn [ts]. destruct (Z.ltb_spec n (n + 1)), (Z.leb_spec (n + 1) (n + 1)); cbn; lia.
Qed.
Lemma cnt_app x a b : cnt x (a ++ b) = (cnt x a + cnt x b)%nat.
Proof. apply count_occ_app. Qed.
Lemma cnt_cons x y l : cnt x (y :: l) = (cnt x [y] + cnt x l)%nat.
Proof. exact (cnt_app x [y] l). Qed.
Definition cb (x : id) (e : exp) : nat := cnt x (binders e).
Definition cbs (x : id) (l : list exp) : nat := cnt x (flat_map binders l).
Lemma cbs_cons x e l : cbs x (e :: l) = (cb x e + cbs x l)%nat.
Proof. apply cnt_app. Qed.
Lemma cbs_app x a b : cbs x (a ++ b) = (cbs x a + cbs x b)%nat.
Proof. unfold cbs. now rewrite flat_map_app, cnt_app. Qed.
Lemma cbs_rev x l : cbs x (rev l) = cbs x l.
Proof. induction l as [|e l IH]; [reflexivity|]. cbn [rev]. rewrite cbs_app, !cbs_cons, IH. cbn. lia. Qed.
(** the parts of one expression *)
Definition few (e : exp) : Prop := forall x,
  (forall n e' n', p_direct (conv e) n = Some (e', n') -> n <= n' /\ (cb x e' <= cb x e + nw n n' x)%nat) /\
  (forall kexp n c n', p_cps (conv e) kexp n = Some (c, n') -> n <= n' /\ (cb x c <= cb x e + cb x kexp + nw n n' x)%nat).
Lemma mk_few e s d c :
  (forall x n e' n', d n = Some (e', n') -> n <= n' /\ (cb x e' <= cb x e + nw n n' x)%nat) ->
  (forall x kexp n c' n', c kexp n = Some (c', n') -> n <= n' /\ (cb x c' <= cb x e + cb x kexp + nw n n' x)%nat) ->
  conv e = mk_part s d c -> few e.
Proof.
  intros A B E. unfold few. rewrite E. intros x. split; [apply A|]. intros kexp n c' n' X. cbn in X. destruct s; [|eauto].
  destruct (d n) as [(e1 & n1)|] eqn:D; [|discriminate]. injection X as <- <-. destruct (A x _ _ _ D). split; [assumption|].
  change (cb x (EApp kexp [noreturn_exp; e1])) with (cnt x (binders kexp ++ binders e1 ++ [])). rewrite app_nil_r, cnt_app. unfold cb in *. lia.
Qed.
Lemma list_few x l : Forall few l -> forall B inner n code n',
  cps_list (map conv l) inner n = Some (code, n') ->
  (forall args n0 c0 n1, inner args n0 = Some (c0, n1) -> n0 <= n1 /\ (cb x c0 <= B + cbs x args + nw n0 n1 x)%nat) ->
  n <= n' /\ (cb x code <= B + cbs x l + nw n n' x)%nat.
Proof.
  induction 1 as [|e l F Fl IH]; intros B inner n code n' E HI.
  - cbn in E. destruct (HI [] n code n' E). split; assumption.
  - cbn [map cps_list] in E. destruct (F x) as (A & C). rewrite cbs_cons. destruct (p_simple (conv e)).
    + destruct (IH (B + cb x e)%nat _ n code n' E) as (L & Q); [|split; [assumption | lia]].
      intros args n0 c0 n1 X. destruct (p_direct (conv e) n0) as [(e1 & n2)|] eqn:D; [|discriminate]. destruct (A _ _ _ D) as (L1 & Q1). destruct (HI _ _ _ _ X) as (L2 & Q2).
      rewrite cbs_cons in Q2. pose proof (nw_add n0 n2 n1 x L1 L2). split; lia.
    + cbn [fresh] in E. destruct (cps_list (map conv l) _ _) as [(code1 & n3)|] eqn:D; [|discriminate].
      destruct (IH B _ (n + 1 + 1) code1 n3 D) as (L & Q).
      { intros args n0 c0 n1 X. destruct (HI _ _ _ _ X) as (L2 & Q2). rewrite cbs_cons in Q2. split; [assumption|]. exact Q2. }
      destruct (C _ _ _ _ E) as (L1 & Q1). split; [lia|].
      change (cb x (ELam [mkid (n + 1 + 1) XNone; mkid (n + 1) XNone] code1)) with (cnt x (mkid (n + 1 + 1) XNone :: mkid (n + 1) XNone :: binders code1)) in Q1.
      rewrite cnt_cons, (cnt_cons x (mkid (n + 1) XNone)) in Q1. pose proof (nw_one n XNone x). pose proof (nw_one (n + 1) XNone x).
      pose proof (nw_add n (n + 1) (n + 1 + 1) x ltac:(lia) ltac:(lia)). pose proof (nw_add n (n + 1 + 1) n3 x ltac:(lia) ltac:(lia)). pose proof (nw_add n n3 n' x ltac:(lia) ltac:(lia)).
      unfold cb in *. lia.
Qed.
Lemma direct_few x l : Forall few l -> forall n l' n', direct_list (map conv l) n = Some (l', n') -> n <= n' /\ (cbs x l' <= cbs x l + nw n n' x)%nat.
Proof.
  induction 1 as [|e l F Fl IH]; cbn [map direct_list]; intros n l' n' E.
  - injection E as <- <-. split; [lia|]. cbn. lia.
  - destruct (p_direct (conv e) n) as [(e1 & n1)|] eqn:D; [|discriminate]. destruct (direct_list _ n1) as [(l1 & n2)|] eqn:D2; [|discriminate]. injection E as <- <-.
    destruct (proj1 (F x) _ _ _ D) as (L1 & Q1). destruct (IH _ _ _ D2) as (L2 & Q2). rewrite !cbs_cons. pose proof (nw_add n n1 n2 x L1 L2). split; lia.
Qed.
Lemma prim_few x l : Forall few l -> forall ids vals exps n ids' vals' exps' n', (forall e, In e exps -> cb x e = 0%nat) -> prim_loop (map conv l) ids vals exps n = Some (ids', vals', exps', n') ->
  n <= n' /\ (cnt x ids' + cbs x vals' <= cnt x ids + cbs x vals + cbs x l + nw n n' x)%nat /\ cbs x exps' = 0%nat.
Proof.
  induction 1 as [|e l F Fl IH]; cbn [map prim_loop]; intros ids vals exps n ids' vals' exps' n' Z E.
  - injection E as <- <- <- <-. split; [lia|]. split; [lia|]. rewrite cbs_rev. induction exps as [|e exps IH]; [reflexivity|]. rewrite cbs_cons, IH, Z; [lia | now left | intros; apply Z; now right].
  - destruct (p_direct (conv e) n) as [(e' & n1)|] eqn:D; [|discriminate]. destruct (proj1 (F x) _ _ _ D) as (L1 & Q1). rewrite cbs_cons.
    assert (V : (exists y, e' = EVar y) \/ let tmp := mkid (n1 + 1) XNone in prim_loop (map conv l) (tmp :: ids) (e' :: vals) (EVar tmp :: exps) (n1 + 1) = Some (ids', vals', exps', n')).
    { destruct e'; [left; eauto | right; exact E ..]. }
    destruct V as [(y & ->)|V].
    + apply IH in E; [|intros e1 [<-|I]; [reflexivity | auto]]. destruct E as (L2 & Q2 & Q3). pose proof (nw_add n n1 n' x L1 L2). split; [lia|]. split; [lia | assumption].
    + apply IH in V; [|intros e1 [<-|I]; [reflexivity | auto]]. destruct V as (L2 & Q2 & Q3). rewrite cnt_cons, cbs_cons in Q2. pose proof (nw_one n1 XNone x).
      pose proof (nw_add n n1 (n1 + 1) x L1 ltac:(lia)). pose proof (nw_add n (n1 + 1) n' x ltac:(lia) L2). split; [lia|]. split; [lia | assumption].
Qed.
Lemma lam_few x ids b : few b -> forall n ids' b' n', cps_lam ids (conv b) n = Some (ids', b', n') ->
  n <= n' /\ (cnt x ids' + cb x b' <= cnt x ids + cb x b + nw n n' x)%nat.
Proof.
  intros F n ids' b' n' E. unfold cps_lam in E. cbn [fresh] in E. destruct (p_cps (conv b) _ (n + 1)) as [(b1 & n1)|] eqn:D; [|discriminate]. injection E as <- <- <-.
  destruct (proj2 (F x) _ _ _ _ D) as (L & Q). rewrite cnt_cons. pose proof (nw_one n XNone x). pose proof (nw_add n (n + 1) n1 x ltac:(lia) ltac:(lia)). cbn [cb binders] in Q. change (cb x (EVar (mkid (n + 1) XNone))) with 0%nat in Q. split; lia.
Qed.
Definition cbl (x : id) (lams : list (list id * exp)) : nat := cnt x (flat_map (fun l => fst l ++ binders (snd l)) lams).
Lemma cbl_cons x l ls : cbl x (l :: ls) = (cnt x (fst l) + cb x (snd l) + cbl x ls)%nat.
Proof. unfold cbl. cbn [flat_map]. now rewrite !cnt_app. Qed.
Lemma lams_few x lams : Forall (fun l => few (snd l)) lams -> forall n ls n', cps_lams (map (fun l => (fst l, conv (snd l))) lams) n = Some (ls, n') ->
  n <= n' /\ (cbl x ls <= cbl x lams + nw n n' x)%nat.
Proof.
  induction 1 as [|(ids & b) l F Fl IH]; cbn [map cps_lams fst snd]; intros n ls n' E.
  - injection E as <- <-. split; [lia | cbn; lia].
  - destruct (cps_lam ids (conv b) n) as [((ids1 & b1) & n1)|] eqn:D; [|discriminate]. destruct (cps_lams _ n1) as [(l1 & n2)|] eqn:D2; [|discriminate]. injection E as <- <-.
    destruct (lam_few x ids b F _ _ _ _ D) as (L1 & Q1). destruct (IH _ _ _ D2) as (L2 & Q2). rewrite !cbl_cons. cbn [fst snd]. pose proof (nw_add n n1 n2 x L1 L2). split; lia.
Qed.
Lemma one_few x e : few e -> forall B inner n code n',
  cps_one (conv e) inner n = Some (code, n') ->
  (forall a n0 c0 n1, inner a n0 = Some (c0, n1) -> n0 <= n1 /\ (cb x c0 <= B + cb x a + nw n0 n1 x)%nat) ->
  n <= n' /\ (cb x code <= B + cb x e + nw n n' x)%nat.
Proof.
  intros F B inner n code n' E HI. rewrite cps_one_list in E.
  destruct (list_few x [e] (Forall_cons _ F (Forall_nil _)) B _ n code n' E) as (L & Q).
  - intros [|a [|a1 args]] n0 c0 n1 X; try discriminate. rewrite cbs_cons. cbn. rewrite Nat.add_0_r. now apply HI.
  - rewrite cbs_cons in Q. cbn in Q. rewrite Nat.add_0_r in Q. auto.
Qed.
Ltac mkf E := unfold set_part, if_part, prim_part, lam_part, fix_part, begin_part, let_part, app_part, letcc_part, withcc_part in E; cbv zeta in E; refine (mk_few _ _ _ _ _ _ E); clear E; intros x0.
Ltac mmf := match goal with |- few ?e => let p := eval cbn [conv] in (conv e) in assert (Ec : conv e = p) by reflexivity; unfold set_part in Ec end.
Lemma cb_set x y e : cb x (ESet y e) = cb x e. Proof. reflexivity. Qed.
Lemma cb_if x a b c : cb x (EIf a b c) = (cb x a + cb x b + cb x c)%nat.
Proof. unfold cb. cbn [binders]. rewrite !cnt_app. lia. Qed.
Lemma cb_prim x ef p l : cb x (EPrim ef p l) = cbs x l. Proof. reflexivity. Qed.
Lemma cb_app x f l : cb x (EApp f l) = (cb x f + cbs x l)%nat. Proof. apply cnt_app. Qed.
Lemma cb_lam x ids b : cb x (ELam ids b) = (cnt x ids + cb x b)%nat. Proof. apply cnt_app. Qed.
Lemma cb_fix x ids lams b : cb x (EFix ids lams b) = (cnt x ids + cbl x lams + cb x b)%nat.
Proof. unfold cb, cbl. cbn [binders]. rewrite !cnt_app. lia. Qed.
Lemma cb_letcc x y b : cb x (ELetcc y b) = (cnt x [y] + cb x b)%nat. Proof. apply cnt_cons. Qed.
Lemma cb_withcc x k e : cb x (EWithcc k e) = (cb x k + cb x e)%nat. Proof. apply cnt_app. Qed.
Lemma cb_var x y : cb x (EVar y) = 0%nat. Proof. reflexivity. Qed.
Lemma cbs_nil x : cbs x [] = 0%nat. Proof. reflexivity. Qed.
Lemma cb_nor x : cb x noreturn_exp = 0%nat. Proof. reflexivity. Qed.
Ltac sums := unfold let_exp in *; do 3 rewrite ?cb_set, ?cb_if, ?cb_prim, ?cb_app, ?cb_lam, ?cb_fix, ?cb_letcc, ?cb_withcc, ?cb_var, ?cbs_cons, ?cbs_nil, ?cb_nor, ?cnt_app in *.
Lemma conv_few e : few e.
Proof.
  enough (H : few e /\ forall ids b, e = ELam ids b -> few b) by apply H.
  induction e as [x|x e IH|a b c IHa IHb IHc|ef p l IH|f l IHf IH|xs b IH|xs lams b IHl IHb|x b IH|k e IHk IHe] using exp_ind2;
    (split; [|try (intros; discriminate)]).
  - mmf. mkf Ec; [|discriminate]. intros n e' n' [= <- <-]. split; [lia | sums; lia].
  - destruct IH as (M & _). mmf. destruct (global_id x); mkf Ec; try discriminate.
    + intros n e' n' E. destruct (p_direct (conv e) n) as [(e1 & n1)|] eqn:D; [|discriminate]. injection E as <- <-. destruct (proj1 (M x0) _ _ _ D). split; [assumption | sums; lia].
    + intros kexp n c' n' E. destruct (one_few x0 e M (cb x0 kexp) _ n c' n' E) as (L & Q); [|split; [assumption | sums; lia]].
      intros a n0 c0 n1 [= <- <-]. split; [lia | sums; lia].
  - destruct IHa as (Ma & _), IHb as (Mb & _), IHc as (Mc & _).
    assert (X : forall x0 kexp n c' n', cps_one (conv a) (fun t n0 => match p_cps (conv b) kexp n0 with Some (b', n1) => match p_cps (conv c) kexp n1 with Some (c', n2) => Some (EIf t b' c', n2) | None => None end | None => None end) n = Some (c', n') ->
      n <= n' /\ (cb x0 c' <= cb x0 (EIf a b c) + 2 * cb x0 kexp + nw n n' x0)%nat).
    { intros x0 kexp n c' n' E. destruct (one_few x0 a Ma (cb x0 b + cb x0 c + 2 * cb x0 kexp)%nat _ n c' n' E) as (L & Q); [|split; [assumption | sums; lia]].
      intros t n0 c0 n1 Ei. destruct (p_cps (conv b) kexp n0) as [(b1 & n2)|] eqn:D1; [|discriminate]. destruct (p_cps (conv c) kexp n2) as [(c1 & n3)|] eqn:D2; [|discriminate]. injection Ei as <- <-.
      destruct (proj2 (Mb x0) _ _ _ _ D1) as (L1 & Q1). destruct (proj2 (Mc x0) _ _ _ _ D2) as (L2 & Q2). pose proof (nw_add n0 n2 n3 x0 L1 L2). split; [lia | sums; lia]. }
    mmf. mkf Ec.
    + intros n e' n' E. destruct (direct_list _ n) as [(l' & n1)|] eqn:D; [|discriminate].
      destruct (direct_few x0 [a; b; c] (Forall_cons _ Ma (Forall_cons _ Mb (Forall_cons _ Mc (Forall_nil _)))) _ _ _ D) as (L1 & Q).
      destruct l' as [|a' [|b' [|c' [|d' l']]]]; try discriminate. injection E as <- <-. split; [assumption | sums; lia].
    + intros kexp n c' n' E.
      assert (Y : forall k1, k1 = mkid (n + 1) XNone -> match cps_one (conv a) (fun t n0 => match p_cps (conv b) (EVar k1) n0 with Some (b', n1) => match p_cps (conv c) (EVar k1) n1 with Some (c', n2) => Some (EIf t b' c', n2) | None => None end | None => None end) (n + 1) with
        Some (code, n2) => Some (let_exp [k1] [kexp] code, n2) | None => None end = Some (c', n') -> n <= n' /\ (cb x0 c' <= cb x0 (EIf a b c) + cb x0 kexp + nw n n' x0)%nat).
      { intros k1 Ek Y. destruct (cps_one _ _ (n + 1)) as [(code & n2)|] eqn:D; [|discriminate]. injection Y as <- <-. destruct (X x0 _ _ _ _ D) as (L & Q).
        pose proof (nw_one n XNone x0) as O. rewrite <- Ek in O. pose proof (nw_add n (n + 1) n2 x0 ltac:(lia) ltac:(lia)). split; [lia | sums; lia]. }
      destruct kexp; try (apply (Y _ eq_refl); exact E). apply X with (x0 := x0) in E. sums. split; [apply E | destruct E; lia].
  - assert (M : Forall few l) by (eapply Forall_impl; [|exact IH]; now intros e1 (H & _)). mmf. mkf Ec.
    + intros n e' n' E. destruct (prim_loop _ _ _ _ n) as [(((ids & vals) & exps) & n1)|] eqn:D; [|discriminate]. injection E as <- <-.
      destruct (prim_few x0 l M [] [] [] _ _ _ _ _ (fun e I => match I with end) D) as (L & Q & Z). split; [assumption|]. sums. cbn in Q. change (cnt x0 []) with 0%nat in Q. lia.
    + intros kexp n c' n' E. destruct (list_few x0 l M (cb x0 kexp) _ n c' n' E) as (L & Q); [|split; [assumption | sums; lia]].
      intros args n0 c0 n1 [= <- <-]. split; [lia | sums; lia].
  - assert (M : Forall few l) by (eapply Forall_impl; [|exact IH]; now intros e1 (H & _)). destruct IHf as (Mf & Mfb).
    destruct (conv_app f l) as [(b & -> & -> & E)|[(x & e1 & -> & -> & E)|[(x & b & e1 & -> & -> & NF & E)|[(ids & b & -> & L & E)|(E & NL)]]]].
    + assert (Mb := Mfb _ _ eq_refl). unfold few. rewrite E. intros x0. destruct (Mb x0) as (A & B). split.
      * intros n e' n' D. destruct (A _ _ _ D). split; [assumption | sums; lia].
      * intros kexp n c n' D. destruct (B _ _ _ _ D). split; [assumption | sums; lia].
    + inversion M as [|? ? M1 _]; subst. unfold few. rewrite E. intros x0. destruct (M1 x0) as (A & B). split.
      * intros n e' n' D. destruct (A _ _ _ D). split; [assumption | sums; lia].
      * intros kexp n c n' D. destruct (B _ _ _ _ D). split; [assumption | sums; lia].
    + inversion M as [|? ? M1 _]; subst. assert (Mb := Mfb _ _ eq_refl). mkf E.
      * intros n e' n' E. destruct (direct_list _ n) as [(l' & n1)|] eqn:D; [|discriminate].
        destruct (direct_few x0 [e1; b] (Forall_cons _ M1 (Forall_cons _ Mb (Forall_nil _))) _ _ _ D) as (L1 & Q).
        destruct l' as [|a' [|b' [|c' l']]]; try discriminate. cbn [begin_exp fresh] in E. injection E as <- <-. pose proof (nw_one n1 XNone x0). pose proof (nw_add n n1 (n1 + 1) x0 L1 ltac:(lia)). split; [lia|]. sums. lia.
      * intros kexp n c n' E. cbn [fresh] in E. destruct (p_cps (conv b) kexp (n + 1 + 1)) as [(code & n2)|] eqn:D; [|discriminate].
        destruct (proj2 (Mb x0) _ _ _ _ D) as (L1 & Q1). destruct (proj2 (M1 x0) _ _ _ _ E) as (L2 & Q2). sums. rewrite (cnt_cons _ (mkid (n + 1) XNone)) in Q2.
        pose proof (nw_one n XNone x0). pose proof (nw_one (n + 1) XNone x0).
        pose proof (nw_add n (n + 1) (n + 1 + 1) x0 ltac:(lia) ltac:(lia)). pose proof (nw_add n (n + 1 + 1) n2 x0 ltac:(lia) ltac:(lia)). pose proof (nw_add n n2 n' x0 ltac:(lia) ltac:(lia)). split; lia.
    + assert (Mb := Mfb _ _ eq_refl). mkf E.
      * intros n e' n' E. destruct (direct_list _ n) as [(l' & n1)|] eqn:D1; [|discriminate]. destruct (p_direct (conv b) n1) as [(b' & n2)|] eqn:D2; [|discriminate]. injection E as <- <-.
        destruct (direct_few x0 l M _ _ _ D1) as (L1 & Q1). destruct (proj1 (Mb x0) _ _ _ D2) as (L2 & Q2). pose proof (nw_add n n1 n2 x0 L1 L2). split; [lia | sums; lia].
      * intros kexp n c n' E. destruct (list_few x0 l M (cb x0 kexp + cnt x0 ids + cb x0 b)%nat _ n c n' E) as (L1 & Q); [|split; [assumption | sums; lia]].
        intros args n0 c0 n1 Ei. destruct (p_cps (conv b) kexp n0) as [(b' & n2)|] eqn:D2; [|discriminate]. injection Ei as <- <-. destruct (proj2 (Mb x0) _ _ _ _ D2) as (L2 & Q2). split; [lia | sums; lia].
    + mkf E; [discriminate|]. intros kexp n c n' E. destruct (list_few x0 (f :: l) (Forall_cons _ Mf M) (cb x0 kexp) _ n c n' E) as (L1 & Q); [|split; [assumption | sums; lia]].
      intros [|a args] n0 c0 n1 Ei; [discriminate|]. injection Ei as <- <-. split; [lia | sums; lia].
  - destruct IH as (Mb & _). mmf. mkf Ec; [|discriminate]. intros n e' n' E. destruct (cps_lam xs (conv b) n) as [((ids' & b') & n1)|] eqn:D; [|discriminate]. injection E as <- <-.
    destruct (lam_few x0 _ _ Mb _ _ _ _ D). split; [assumption | sums; lia].
  - intros ids b0 [= <- <-]. apply IH.
  - destruct IHb as (Mb & _). assert (M : Forall (fun l => few (snd l)) lams) by (eapply Forall_impl; [|exact IHl]; now intros e1 (H & _)). mmf. mkf Ec.
    + intros n e' n' E. destruct (cps_lams _ n) as [(ls & n1)|] eqn:D1; [|discriminate]. destruct (p_direct (conv b) n1) as [(b' & n2)|] eqn:D2; [|discriminate]. injection E as <- <-.
      destruct (lams_few x0 lams M _ _ _ D1) as (L1 & Q1). destruct (proj1 (Mb x0) _ _ _ D2) as (L2 & Q2). pose proof (nw_add n n1 n2 x0 L1 L2). split; [lia | sums; lia].
    + intros kexp n c n' E. destruct (cps_lams _ n) as [(ls & n1)|] eqn:D1; [|discriminate]. destruct (p_cps (conv b) kexp n1) as [(b' & n2)|] eqn:D2; [|discriminate]. injection E as <- <-.
      destruct (lams_few x0 lams M _ _ _ D1) as (L1 & Q1). destruct (proj2 (Mb x0) _ _ _ _ D2) as (L2 & Q2). pose proof (nw_add n n1 n2 x0 L1 L2). split; [lia | sums; lia].
  - destruct IH as (Mb & _). mmf. mkf Ec; [discriminate|]. intros kexp n c n' E. destruct (p_cps (conv b) (EVar x) n) as [(b' & n1)|] eqn:D; [|discriminate]. injection E as <- <-.
    destruct (proj2 (Mb x0) _ _ _ _ D). split; [assumption | sums; lia].
  - destruct IHk as (Mk & _), IHe as (Me & _). mmf. mkf Ec; [discriminate|]. intros kexp n c n' E.
    destruct (one_few x0 k Mk (cb x0 e) _ n c n' E) as (L1 & Q); [|split; [assumption | sums; lia]].
    intros a n0 c0 n1 D. destruct (proj2 (Me x0) _ _ _ _ D). split; [assumption | lia].
Qed.
Theorem convert_distinct e n e' n' : 0 <= n -> distinct n e -> cps_convert e n = Some (e', n') -> distinct n' e' /\ n <= n'.
Proof.
  intros Ln (D1 & D2) E. unfold cps_convert in E. cbn [fresh] in E.
  assert (Q : n + 1 + 1 <= n' /\ forall x, (cb x e' <= cb x e + nw n n' x)%nat).
  { split; [apply (proj2 (conv_few e (mkid 0 XNone)) _ _ _ _ E)|]. intros x. destruct (proj2 (conv_few e x) _ _ _ _ E) as (L & Q). unfold halt_exp in Q. sums. rewrite (cnt_cons _ (mkid (n + 1 + 1) XNone)) in Q.
    pose proof (nw_one n XNone x). pose proof (nw_one (n + 1) XNone x).
    pose proof (nw_add n (n + 1) (n + 1 + 1) x ltac:(lia) ltac:(lia)). pose proof (nw_add n (n + 1 + 1) n' x ltac:(lia) ltac:(lia)). lia. }
  destruct Q as (L & Q). split; [|lia].
  assert (B : forall x, nw n n' x = 1%nat -> cb x e = 0%nat).
  { intros x W. destruct (Nat.eq_dec (cb x e) 0) as [|Z]; [assumption|]. exfalso. assert (I : In x (binders e)) by (apply (count_occ_In id_dec); unfold cb, cnt in Z; lia).
    specialize (D2 x I). unfold nw in W. destruct (Z.ltb_spec n (ts x)); [lia | discriminate]. }
  assert (W01 : forall x, nw n n' x = 0%nat \/ nw n n' x = 1%nat) by (intros x; unfold nw; destruct (_ && _); auto).
  split.
  - apply (NoDup_count_occ id_dec). intros x. pose proof (proj1 (NoDup_count_occ id_dec (binders e)) D1 x) as C1. specialize (Q x). unfold cb, cnt in *. destruct (W01 x) as [W|W]; [lia|].
    specialize (B x W). lia.
  - intros x I. apply (count_occ_In id_dec) in I. specialize (Q x). unfold cb, cnt in *. destruct (W01 x) as [W|W].
    + assert (J : In x (binders e)) by (apply (count_occ_In id_dec); lia). specialize (D2 x J). lia.
    + unfold nw in W. destruct (Z.ltb_spec n (ts x)), (Z.leb_spec (ts x) n'); cbn in W; lia.
Qed.

(** ** Free variables of the result *)
Definition frs (x : id) (l : list exp) : Prop := exists e, In e l /\ free_in x e.
Lemma fr_var x y : free_in x (EVar y) <-> x = y.
Proof. split; [intros [N|ys e' []]; now inversion N | intros ->; apply free_here; constructor]. Qed.
Lemma fr_set x y e : free_in x (ESet y e) <-> x = y \/ free_in x e.
Proof.
  split; [intros [N|ys e' [[= <- <-]|[]] _ F]; [inversion N; auto | auto] | intros [->|F]; [apply free_here; constructor | eapply free_part; [now left | easy | exact F]]].
Qed.
Lemma fr_if x a b c : free_in x (EIf a b c) <-> free_in x a \/ free_in x b \/ free_in x c.
Proof.
  split; [intros [N|ys e' [[= <- <-]|[[= <- <-]|[[= <- <-]|[]]]] _ F]; [inversion N | auto ..]|].
  intros [F|[F|F]]; (apply (free_part x _ []) with (3 := F); [cbn; auto | easy]).
Qed.
Lemma fr_prim x ef p l : free_in x (EPrim ef p l) <-> frs x l.
Proof.
  split.
  - intros [N|ys e' I _ F]; [inversion N|]. apply in_map_iff in I. destruct I as (e & [= <- <-] & I). unfold frs. eauto.
  - intros (e & I & F). eapply free_part; [| |exact F]; [now apply in_map | easy].
Qed.
Lemma fr_app x f l : free_in x (EApp f l) <-> free_in x f \/ frs x l.
Proof.
  split.
  - intros [N|ys e' [[= <- <-]|I] _ F]; [inversion N | auto|]. apply in_map_iff in I. destruct I as (e & [= <- <-] & I). unfold frs. eauto.
  - intros [F|(e & I & F)]; (apply (free_part x _ []) with (3 := F); [|easy]); [now left | right; now apply in_map].
Qed.
Lemma fr_lam x xs b : free_in x (ELam xs b) <-> ~ In x xs /\ free_in x b.
Proof. split; [intros [N|ys e' [[= <- <-]|[]] I F]; [inversion N | auto] | intros (I & F); eapply free_part; [now left | exact I | exact F]]. Qed.
Lemma fr_fix x xs lams b : free_in x (EFix xs lams b) <-> ~ In x xs /\ (free_in x b \/ exists l, In l lams /\ ~ In x (fst l) /\ free_in x (snd l)).
Proof.
  split.
  - intros [N|ys e' [[= <- <-]|I] J F]; [inversion N | auto|]. apply in_map_iff in I. destruct I as (l & [= <- <-] & I). rewrite in_app_iff in J. split; [tauto|]. right. exists l. tauto.
  - intros (I & [F|(l & J & K & F)]); [eapply free_part; [now left | exact I | exact F]|]. eapply free_part; [right; apply in_map_iff; exists l; split; [reflexivity | exact J]| |exact F]. rewrite in_app_iff. tauto.
Qed.
Lemma fr_letcc x y b : free_in x (ELetcc y b) <-> x <> y /\ free_in x b.
Proof.
  split; [intros [N|ys e' [[= <- <-]|[]] I F]; [inversion N | split; [intros ->; apply I; now left | assumption]]|].
  intros (I & F). eapply free_part; [now left | intros [->|[]]; auto | exact F].
Qed.
Lemma fr_with x k e : free_in x (EWithcc k e) <-> free_in x k \/ free_in x e.
Proof.
  split; [intros [N|ys e' [[= <- <-]|[[= <- <-]|[]]] _ F]; [inversion N | auto ..]|].
  intros [F|F]; (apply (free_part x _ []) with (3 := F); [cbn; auto | easy]).
Qed.
Lemma frs_cons x e l : frs x (e :: l) <-> free_in x e \/ frs x l.
Proof. split; [intros (e1 & [->|I] & F); [auto | right; exists e1; auto] | intros [F|(e1 & I & F)]; [exists e; split; [now left | assumption] | exists e1; split; [now right | assumption]]]. Qed.
Lemma frs_nil x : frs x [] <-> False.
Proof. split; [intros (e & [] & _) | easy]. Qed.
Lemma frs_app x a b : frs x (a ++ b) <-> frs x a \/ frs x b.
Proof. induction a as [|e a IH]; cbn [app]; rewrite ?frs_cons, ?frs_nil, ?IH; tauto. Qed.
Lemma frs_rev x l : frs x (rev l) <-> frs x l.
Proof. split; intros (e & I & F); exists e; [rewrite <- in_rev in I | rewrite <- in_rev]; auto. Qed.
Definition frl (x : id) (ls : list (list id * exp)) : Prop := exists l, In l ls /\ ~ In x (fst l) /\ free_in x (snd l).
Lemma fr_nor x : free_in x noreturn_exp <-> False.
Proof. unfold noreturn_exp. rewrite fr_prim. split; [intros (e & [] & _) | easy]. Qed.
Ltac frees := unfold let_exp in *; repeat (rewrite fr_var in * || rewrite fr_set in * || rewrite fr_if in * || rewrite fr_prim in * || rewrite fr_app in * || rewrite fr_lam in * || rewrite fr_fix in *
   || rewrite fr_letcc in * || rewrite fr_with in * || rewrite frs_cons in * || rewrite frs_nil in * || rewrite fr_nor in * ).
Definition sub (e : exp) : Prop := forall x,
  (forall n e' n', p_direct (conv e) n = Some (e', n') -> free_in x e' -> free_in x e) /\
  (forall kexp n c n', p_cps (conv e) kexp n = Some (c, n') -> free_in x c -> free_in x e \/ free_in x kexp).
Lemma mk_sub e s d c :
  (forall x n e' n', d n = Some (e', n') -> free_in x e' -> free_in x e) ->
  (forall x kexp n c' n', c kexp n = Some (c', n') -> free_in x c' -> free_in x e \/ free_in x kexp) ->
  conv e = mk_part s d c -> sub e.
Proof.
  intros A B E. unfold sub. rewrite E. intros x. split; [apply A|]. intros kexp n c' n' X. cbn in X. destruct s; [|eauto].
  destruct (d n) as [(e1 & n1)|] eqn:D; [|discriminate]. injection X as <- <-. intros F. apply fr_app in F. change (free_in x kexp \/ frs x [noreturn_exp; e1]) in F. rewrite !frs_cons, frs_nil, fr_nor in F.
  destruct F as [F|[[]|[F|[]]]]; [auto|]. left. eapply A; eauto.
Qed.
Lemma list_sub x l : Forall sub l -> forall (B : Prop) inner n code n', cps_list (map conv l) inner n = Some (code, n') ->
  (forall args n0 c0 n1, inner args n0 = Some (c0, n1) -> free_in x c0 -> B \/ frs x args) ->
  free_in x code -> B \/ frs x l.
Proof.
  induction 1 as [|e l F Fl IH]; intros B inner n code n' E HI Fx.
  - cbn in E. destruct (HI [] n code n' E Fx); auto.
  - cbn [map cps_list] in E. destruct (F x) as (A & C). rewrite frs_cons. destruct (p_simple (conv e)).
    + destruct (IH (B \/ free_in x e) _ n code n' E) as [Q|Q]; [|assumption|tauto|tauto].
      intros args n0 c0 n1 X Y. destruct (p_direct (conv e) n0) as [(e1 & n2)|] eqn:D; [|discriminate]. destruct (HI _ _ _ _ X Y) as [Q|Q]; [tauto|]. rewrite frs_cons in Q. destruct Q as [Q|Q]; [|tauto].
      left; right. eapply A; eauto.
    + cbn [fresh] in E. destruct (cps_list (map conv l) _ _) as [(code1 & n3)|] eqn:D; [|discriminate]. destruct (C _ _ _ _ E Fx) as [Q|Q]; [tauto|]. apply fr_lam in Q. destruct Q as (N & Q).
      destruct (IH B _ (n + 1 + 1) code1 n3 D) as [Q'|Q']; [|assumption|tauto|tauto]. intros args n0 c0 n1 X Y. destruct (HI _ _ _ _ X Y) as [Z|Z]; [tauto|]. rewrite frs_cons, fr_var in Z. destruct Z as [->|Z]; [|tauto]. exfalso. apply N. right. now left.
Qed.
Lemma direct_sub x l : Forall sub l -> forall n l' n', direct_list (map conv l) n = Some (l', n') -> frs x l' -> frs x l.
Proof.
  induction 1 as [|e l F Fl IH]; cbn [map direct_list]; intros n l' n' E Q.
  - injection E as <- <-. assumption.
  - destruct (p_direct (conv e) n) as [(e1 & n1)|] eqn:D; [|discriminate]. destruct (direct_list _ n1) as [(l1 & n2)|] eqn:D2; [|discriminate]. injection E as <- <-.
    rewrite frs_cons in *. destruct Q as [Q|Q]; [left; eapply (proj1 (F x)); eauto | right; eauto].
Qed.
Lemma prim_sub x l : Forall sub l -> forall ids vals exps n ids' vals' exps' n', prim_loop (map conv l) ids vals exps n = Some (ids', vals', exps', n') ->
  (frs x vals' -> frs x vals \/ frs x l) /\ (frs x exps' -> frs x exps \/ In x ids' \/ frs x l) /\ (In x ids -> In x ids').
Proof.
  induction 1 as [|e l F Fl IH]; cbn [map prim_loop]; intros ids vals exps n ids' vals' exps' n' E.
  - injection E as <- <- <- <-. rewrite frs_rev. tauto.
  - destruct (p_direct (conv e) n) as [(e' & n1)|] eqn:D; [|discriminate]. pose proof (proj1 (F x) _ _ _ D) as A. rewrite frs_cons.
    assert (V : (exists y, e' = EVar y) \/ let tmp := mkid (n1 + 1) XNone in prim_loop (map conv l) (tmp :: ids) (e' :: vals) (EVar tmp :: exps) (n1 + 1) = Some (ids', vals', exps', n')).
    { destruct e'; [left; eauto | right; exact E ..]. }
    destruct V as [(y & ->)|V].
    + apply IH in E. destruct E as (E1 & E2 & E3). rewrite frs_cons in E2. tauto.
    + cbv zeta in V. apply IH in V. destruct V as (E1 & E2 & E3). rewrite frs_cons in E1, E2. rewrite fr_var in E2. cbn [In] in E3. split; [tauto|]. split; [|tauto]. intros Q. destruct (E2 Q) as [[->|Q']|Q']; tauto.
Qed.
Lemma lam_sub x ids b : sub b -> forall n ids' b' n', cps_lam ids (conv b) n = Some (ids', b', n') -> ~ In x ids' -> free_in x b' -> ~ In x ids /\ free_in x b.
Proof.
  intros F n ids' b' n' E N Q. unfold cps_lam in E. cbn [fresh] in E. destruct (p_cps (conv b) _ (n + 1)) as [(b1 & n1)|] eqn:D; [|discriminate]. injection E as <- <- <-.
  cbn [In] in N. destruct (proj2 (F x) _ _ _ _ D Q) as [R|R]; [tauto|]. apply fr_var in R. subst. tauto.
Qed.
Lemma lams_sub x lams : Forall (fun l => sub (snd l)) lams -> forall n ls n', cps_lams (map (fun l => (fst l, conv (snd l))) lams) n = Some (ls, n') -> frl x ls -> frl x lams.
Proof.
  induction 1 as [|(ids & b) l F Fl IH]; cbn [map cps_lams fst snd]; intros n ls n' E (l0 & I & N & Q).
  - injection E as <- <-. destruct I.
  - destruct (cps_lam ids (conv b) n) as [((ids1 & b1) & n1)|] eqn:D; [|discriminate]. destruct (cps_lams _ n1) as [(l1 & n2)|] eqn:D2; [|discriminate]. injection E as <- <-.
    destruct I as [<-|I].
    + destruct (lam_sub x ids b F _ _ _ _ D N Q). exists (ids, b). split; [now left | auto].
    + destruct (IH _ _ _ D2) as (l2 & I2 & N2 & Q2); [exists l0; auto|]. exists l2. split; [now right | auto].
Qed.
Lemma one_sub x e : sub e -> forall (B : Prop) inner n code n', cps_one (conv e) inner n = Some (code, n') ->
  (forall a n0 c0 n1, inner a n0 = Some (c0, n1) -> free_in x c0 -> B \/ free_in x a) -> free_in x code -> B \/ free_in x e.
Proof.
  intros F B inner n code n' E HI Fx. rewrite cps_one_list in E.
  destruct (list_sub x [e] (Forall_cons _ F (Forall_nil _)) B _ n code n' E) as [Q|Q]; auto.
  - intros [|a [|a1 args]] n0 c0 n1 X Y; try discriminate. rewrite frs_cons, frs_nil. destruct (HI _ _ _ _ X Y); auto.
  - rewrite frs_cons, frs_nil in Q. tauto.
Qed.
Ltac mks E := unfold set_part, if_part, prim_part, lam_part, fix_part, begin_part, let_part, app_part, letcc_part, withcc_part in E; cbv zeta in E; refine (mk_sub _ _ _ _ _ _ E); clear E; intros x0.
Ltac mms := match goal with |- sub ?e => let p := eval cbn [conv] in (conv e) in assert (Ec : conv e = p) by reflexivity; unfold set_part in Ec end.
Lemma conv_sub e : sub e.
Proof.
  enough (H : sub e /\ forall ids b, e = ELam ids b -> sub b) by apply H.
  induction e as [x|x e IH|a b c IHa IHb IHc|ef p l IH|f l IHf IH|xs b IH|xs lams b IHl IHb|x b IH|k e IHk IHe] using exp_ind2;
    (split; [|try (intros; discriminate)]).
  - mms. mks Ec; [|discriminate]. intros n e' n' [= <- <-]. auto.
  - destruct IH as (M & _). mms. destruct (global_id x); mks Ec; try discriminate.
    + intros n e' n' E Q. destruct (p_direct (conv e) n) as [(e1 & n1)|] eqn:D; [|discriminate]. injection E as <- <-. pose proof (proj1 (M x0) _ _ _ D). frees. tauto.
    + intros kexp n c' n' E Q. destruct (one_sub x0 e M (free_in x0 kexp \/ x0 = x) _ n c' n' E) as [R|R]; [|assumption|frees; tauto|frees; tauto].
      intros a n0 c0 n1 [= <- <-] R. frees. tauto.
  - destruct IHa as (Ma & _), IHb as (Mb & _), IHc as (Mc & _).
    assert (X : forall x0 kexp n c' n', cps_one (conv a) (fun t n0 => match p_cps (conv b) kexp n0 with Some (b', n1) => match p_cps (conv c) kexp n1 with Some (c', n2) => Some (EIf t b' c', n2) | None => None end | None => None end) n = Some (c', n') ->
      free_in x0 c' -> free_in x0 (EIf a b c) \/ free_in x0 kexp).
    { intros x0 kexp n c' n' E Q. destruct (one_sub x0 a Ma (free_in x0 b \/ free_in x0 c \/ free_in x0 kexp) _ n c' n' E) as [R|R]; [|assumption|frees; tauto|frees; tauto].
      intros t n0 c0 n1 Ei R. destruct (p_cps (conv b) kexp n0) as [(b1 & n2)|] eqn:D1; [|discriminate]. destruct (p_cps (conv c) kexp n2) as [(c1 & n3)|] eqn:D2; [|discriminate]. injection Ei as <- <-.
      pose proof (proj2 (Mb x0) _ _ _ _ D1). pose proof (proj2 (Mc x0) _ _ _ _ D2). frees. tauto. }
    mms. mks Ec.
    + intros n e' n' E Q. destruct (direct_list _ n) as [(l' & n1)|] eqn:D; [|discriminate].
      pose proof (direct_sub x0 [a; b; c] (Forall_cons _ Ma (Forall_cons _ Mb (Forall_cons _ Mc (Forall_nil _)))) _ _ _ D) as S.
      destruct l' as [|a' [|b' [|c' [|d' l']]]]; try discriminate. injection E as <- <-. frees. tauto.
    + intros kexp n c' n' E Q.
      assert (Y : forall k1, k1 = mkid (n + 1) XNone -> match cps_one (conv a) (fun t n0 => match p_cps (conv b) (EVar k1) n0 with Some (b', n1) => match p_cps (conv c) (EVar k1) n1 with Some (c', n2) => Some (EIf t b' c', n2) | None => None end | None => None end) (n + 1) with
        Some (code, n2) => Some (let_exp [k1] [kexp] code, n2) | None => None end = Some (c', n') -> free_in x0 (EIf a b c) \/ free_in x0 kexp).
      { intros k1 Ek Y. destruct (cps_one _ _ (n + 1)) as [(code & n2)|] eqn:D; [|discriminate]. injection Y as <- <-. unfold let_exp in Q. rewrite fr_app, fr_lam in Q. change (~ In x0 [k1] /\ free_in x0 code \/ frs x0 [kexp]) in Q.
        rewrite frs_cons, frs_nil in Q. destruct Q as [(N & Q)|[Q|[]]]; [|auto]. destruct (X x0 _ _ _ _ D Q) as [R|R]; [auto|]. apply fr_var in R. subst. exfalso. apply N. now left. }
      destruct kexp; try (apply (Y _ eq_refl); exact E). eapply X; eauto.
  - assert (M : Forall sub l) by (eapply Forall_impl; [|exact IH]; now intros e1 (H & _)). mms. mks Ec.
    + intros n e' n' E Q. destruct (prim_loop _ _ _ _ n) as [(((ids & vals) & exps) & n1)|] eqn:D; [|discriminate]. injection E as <- <-.
      destruct (prim_sub x0 l M _ _ _ _ _ _ _ _ D) as (E1 & E2 & E3). frees. tauto.
    + intros kexp n c' n' E Q. destruct (list_sub x0 l M (free_in x0 kexp) _ n c' n' E) as [R|R]; [|assumption|frees; tauto|frees; tauto].
      intros args n0 c0 n1 [= <- <-] R. frees. tauto.
  - assert (M : Forall sub l) by (eapply Forall_impl; [|exact IH]; now intros e1 (H & _)). destruct IHf as (Mf & Mfb).
    destruct (conv_app f l) as [(b & -> & -> & E)|[(x & e1 & -> & -> & E)|[(x & b & e1 & -> & -> & NF & E)|[(ids & b & -> & L & E)|(E & NL)]]]].
    + assert (Mb := Mfb _ _ eq_refl). unfold sub. rewrite E. intros x0. destruct (Mb x0) as (A & B). split.
      * intros n e' n' D Q. specialize (A _ _ _ D Q). frees. cbn [In]. tauto.
      * intros kexp n c n' D Q. specialize (B _ _ _ _ D Q). frees. cbn [In]. tauto.
    + inversion M as [|? ? M1 _]; subst. unfold sub. rewrite E. intros x0. destruct (M1 x0) as (A & B). split.
      * intros n e' n' D Q. specialize (A _ _ _ D Q). frees. tauto.
      * intros kexp n c n' D Q. specialize (B _ _ _ _ D Q). frees. tauto.
    + inversion M as [|? ? M1 _]; subst. assert (Mb := Mfb _ _ eq_refl). mks E.
      * intros n e' n' E Q. destruct (direct_list _ n) as [(l' & n1)|] eqn:D; [|discriminate].
        pose proof (direct_sub x0 [e1; b] (Forall_cons _ M1 (Forall_cons _ Mb (Forall_nil _))) _ _ _ D) as S.
        destruct l' as [|a' [|b' [|c' l']]]; try discriminate. cbn [begin_exp fresh] in E. injection E as <- <-. frees.
        assert (x0 = x -> ~ free_in x0 b) by (now intros ->). cbn [In]. destruct (id_dec x0 x); [subst; tauto|]. assert (~ (x = x0 \/ False)) by (intros [?|[]]; congruence). tauto.
      * intros kexp n c n' E Q. cbn [fresh] in E. destruct (p_cps (conv b) kexp (n + 1 + 1)) as [(code & n2)|] eqn:D; [|discriminate].
        pose proof (proj2 (Mb x0) _ _ _ _ D) as Q1. pose proof (proj2 (M1 x0) _ _ _ _ E Q) as Q2. frees. destruct Q2 as [Q2|(N & Q2)]; [tauto|]. destruct (Q1 Q2) as [Q3|Q3]; [|tauto].
        left; left. split; [|assumption]. intros [->|[]]. auto.
    + assert (Mb := Mfb _ _ eq_refl). mks E.
      * intros n e' n' E Q. destruct (direct_list _ n) as [(l' & n1)|] eqn:D1; [|discriminate]. destruct (p_direct (conv b) n1) as [(b' & n2)|] eqn:D2; [|discriminate]. injection E as <- <-.
        pose proof (direct_sub x0 l M _ _ _ D1). pose proof (proj1 (Mb x0) _ _ _ D2). frees. tauto.
      * intros kexp n c n' E Q. destruct (list_sub x0 l M (free_in x0 (ELam ids b) \/ free_in x0 kexp) _ n c n' E) as [R|R]; [|assumption|rewrite fr_app; tauto|rewrite fr_app; tauto].
        intros args n0 c0 n1 Ei R. destruct (p_cps (conv b) kexp n0) as [(b' & n2)|] eqn:D2; [|discriminate]. injection Ei as <- <-. pose proof (proj2 (Mb x0) _ _ _ _ D2). frees. tauto.
    + mks E; [discriminate|]. intros kexp n c n' E Q. destruct (list_sub x0 (f :: l) (Forall_cons _ Mf M) (free_in x0 kexp) _ n c n' E) as [R|R]; [|assumption|tauto|frees; tauto].
      intros [|a args] n0 c0 n1 Ei R; [discriminate|]. injection Ei as <- <-. frees. tauto.
  - destruct IH as (Mb & _). mms. mks Ec; [|discriminate]. intros n e' n' E Q. destruct (cps_lam xs (conv b) n) as [((ids' & b') & n1)|] eqn:D; [|discriminate]. injection E as <- <-.
    apply fr_lam in Q. apply fr_lam. destruct Q. eapply lam_sub; eauto.
  - intros ids b0 [= <- <-]. apply IH.
  - destruct IHb as (Mb & _). assert (M : Forall (fun l => sub (snd l)) lams) by (eapply Forall_impl; [|exact IHl]; now intros e1 (H & _)). mms. mks Ec.
    + intros n e' n' E Q. destruct (cps_lams _ n) as [(ls & n1)|] eqn:D1; [|discriminate]. destruct (p_direct (conv b) n1) as [(b' & n2)|] eqn:D2; [|discriminate]. injection E as <- <-.
      apply fr_fix in Q. apply fr_fix. destruct Q as (N & [Q|Q]); (split; [assumption|]); [left; eapply (proj1 (Mb x0)); eauto | right; eapply lams_sub; eauto].
    + intros kexp n c n' E Q. destruct (cps_lams _ n) as [(ls & n1)|] eqn:D1; [|discriminate]. destruct (p_cps (conv b) kexp n1) as [(b' & n2)|] eqn:D2; [|discriminate]. injection E as <- <-.
      rewrite fr_fix in *. destruct Q as (N & [Q|Q]); [destruct (proj2 (Mb x0) _ _ _ _ D2 Q); tauto | left; split; [assumption | right; eapply lams_sub; eauto]].
  - destruct IH as (Mb & _). mms. mks Ec; [discriminate|]. intros kexp n c n' E Q. destruct (p_cps (conv b) (EVar x) n) as [(b' & n1)|] eqn:D; [|discriminate]. injection E as <- <-.
    pose proof (proj2 (Mb x0) _ _ _ _ D). unfold let_exp in Q. rewrite fr_app, fr_lam in Q. change (~ In x0 [x] /\ free_in x0 b' \/ frs x0 [kexp]) in Q. rewrite frs_cons, frs_nil in Q. rewrite fr_var in H. rewrite fr_letcc.
    destruct Q as [(N & Q)|Q]; [|tauto]. assert (x0 <> x) by (intros ->; apply N; now left). tauto.
  - destruct IHk as (Mk & _), IHe as (Me & _). mms. mks Ec; [discriminate|]. intros kexp n c n' E Q.
    destruct (one_sub x0 k Mk (free_in x0 e) _ n c n' E) as [R|R]; [|assumption|frees; tauto|frees; tauto].
    intros a n0 c0 n1 D R. exact (proj2 (Me x0) _ _ _ _ D R).
Qed.
Theorem convert_free e n e' n' x : cps_convert e n = Some (e', n') -> free_in x e' -> free_in x e.
Proof.
  intros E F. unfold cps_convert in E. cbn [fresh] in E. destruct (proj2 (conv_sub e x) _ _ _ _ E F) as [Q|Q]; [assumption|]. exfalso. unfold halt_exp in Q. frees.
  destruct Q as (N & [Q|[]]). subst. apply N. right. now left.
Qed.
