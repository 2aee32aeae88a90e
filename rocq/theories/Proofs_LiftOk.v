(** What the lifting pass makes. *)
From Coq Require Import ZArith List Bool Lia.
From Verif Require Import Model_Core Model_Lift Spec_Sem Spec_Free Spec_Scope Spec_Lift Proofs_Sim Proofs_Core Proofs_Free Proofs_Agree Proofs_Assign Proofs_Box Proofs_Extra Proofs_Lift.
Import ListNotations.
Open Scope Z_scope.

(** ** Equations *)
Fixpoint lift_list (l : list exp) (top : tops) (n : Z) : option (list exp * tops * Z) :=
  match l with
  | [] => Some ([], top, n)
  | e :: l' =>
    match lift e top n with
    | Some (e', top1, n1) => match lift_list l' top1 n1 with Some (l1, top2, n2) => Some (e' :: l1, top2, n2) | None => None end
    | None => None
    end
  end.
Section Float.
Variables (ids : list id) (lams : list lam) (xss : list (list id)) (tids : list id).
Fixpoint float_go (ls : list lam) (xs : list (list id)) (ts : list id) (top : tops) (n : Z) : option (tops * Z) :=
  match ls, xs, ts with
  | (ps, e) :: ls', xv :: xs', t :: ts' =>
    match float_lam ids lams xss tids (lift e) ps xv t top n with
    | Some (top1, n1) => float_go ls' xs' ts' top1 n1
    | None => None
    end
  | [], [], [] => Some (top, n)
  | _, _, _ => None
  end.
End Float.
Lemma lift_prim ef p l top n : lift (EPrim ef p l) top n = match lift_list l top n with Some (l', top1, n1) => Some (EPrim ef p l', top1, n1) | None => None end.
Proof. reflexivity. Qed.
Lemma lift_app f l top n : lift (EApp f l) top n =
  let general :=
      match lift f top n with
      | Some (f', top1, n1) => match lift_list l top1 n1 with Some (l', top2, n2) => Some (EApp f' l', top2, n2) | None => None end
      | None => None
      end in
    match f with
    | ELam ids b =>
      if Nat.eqb (length ids) (length l) then
        match lift_list l top n with
        | Some (l', top1, n1) => match lift b top1 n1 with Some (b', top2, n2) => Some (let_exp ids l' b', top2, n2) | None => None end
        | None => None
        end
      else general
    | _ => general
    end.
Proof. destruct f; reflexivity. Qed.
Lemma lift_fix ids lams b top n : lift (EFix ids lams b) top n =
  lift_lams ids lams (fun xss tids => float_go ids lams xss tids lams xss tids) (lift b) top n.
Proof. reflexivity. Qed.
Lemma lift_lam ps b top n : lift (ELam ps b) top n =
  let (l, n0) := fresh XNone n in
  lift_lams [l] [(ps, b)] (fun xss tids => float_go [l] [(ps, b)] xss tids [(ps, b)] xss tids) (fun top n => Some (EVar l, top, n)) top n0.
Proof.
  cbn [lift fresh]. unfold lift_lams. destruct (new_ids XTrue _ _) as (tids & n1). destruct (extra_vars _ _) as [xss|]; [|reflexivity].
  destruct xss as [|xv [|]]; destruct tids as [|t [|]]; cbn [float_go]; try reflexivity.
  - now destruct (float_lam _ _ _ _ _ _ _ _ _ _) as [(? & ?)|].
  - now destruct (float_lam _ _ _ _ _ _ _ _ _ _) as [(? & ?)|].
  - now destruct (float_lam _ _ _ _ _ _ _ _ _ _) as [(? & ?)|].
  - now destruct (float_lam _ _ _ _ _ _ _ _ _ _) as [(? & ?)|].
Qed.

(** ** Names *)
Lemma new_ids_spec t k : forall n l n', new_ids t k n = (l, n') -> n' = n + Z.of_nat k /\ length l = k /\ NoDup l /\ forall x, In x l -> n < ts x <= n' /\ xt x = t.
Proof.
  induction k as [|k IH]; cbn [new_ids fresh]; intros n l n' E.
  - injection E as <- <-. split; [lia|split; [reflexivity|split; [constructor | easy]]].
  - destruct (new_ids t k (n + 1)) as (l1 & n1) eqn:E1. injection E as <- <-. destruct (IH _ _ _ E1) as (-> & L & ND & H).
    split; [lia|split; [cbn; congruence|split]].
    + constructor; [|assumption]. intros I. apply H in I. cbn in I. lia.
    + intros x [<-|I]; [cbn; split; [lia | reflexivity] | apply H in I; split; [lia | apply I]].
Qed.
Section Ok.
Variable N0 : Z.
Hypothesis N0_pos : 0 <= N0.
Lemma curry_lams_spec lams : forall xss ts n cs n', curry_lams lams xss ts n = (cs, n') -> length xss = length lams -> length ts = length lams ->
  N0 <= n -> (forall xv x, In xv xss -> In x xv -> Model_Core.ts x <= N0) -> curries N0 lams xss ts cs /\ n <= n'.
Proof.
  induction lams as [|(ps & b) lams IH]; intros [|xv xss] [|t ts] n cs n' E L1 L2 Ln H; cbn in L1, L2; try discriminate; cbn [curry_lams] in E.
  - injection E as <- <-. split; [|lia]. split; [reflexivity|]. intros [|]; discriminate.
  - cbn [fst] in E. destruct (new_ids XNone (length ps) n) as (ys & n1) eqn:Ey. destruct (curry_lams lams xss ts n1) as (cs1 & n2) eqn:Ec. injection E as <- <-.
    destruct (new_ids_spec _ _ _ _ _ Ey) as (-> & Ly & NDy & Hy). destruct (IH _ _ _ _ _ Ec) as ((Lc & C) & Ln2); [lia | lia | lia | intros; eapply H; [right|]; eauto|].
    split; [|lia]. split; [cbn; congruence|]. intros [|i] ps0 b0 Ei; cbn in Ei.
    + injection Ei as <- <-. exists xv, t, (curry_exp t ys (map EVar xv)). split; [reflexivity|split; [reflexivity|split; [reflexivity|]]].
      exists ys. split; [reflexivity|split; [assumption|split; [assumption|]]]. intros y I. destruct (Hy y I) as (R & X).
      split; [right; rewrite X; discriminate|]. split; [unfold global_id; apply Z.ltb_ge; lia|]. intros J. pose proof (H xv y (or_introl eq_refl) J). lia.
    + destruct (C _ _ _ Ei) as (xv' & t' & c' & A1 & A2 & A3 & A4). exists xv', t', c'. auto.
Qed.

(** ** Scopes *)
Definition wf (e : exp) : Prop :=
  NoDup (binders e) /\ (forall x, In x (binders e) -> 0 <= ts x <= N0) /\
  forall x, free_in x e -> global_id x = false -> ~ In x (binders e) /\ 0 <= ts x <= N0.
Lemma NoDup_flat {A B} (f : A -> list B) l x : NoDup (flat_map f l) -> In x l -> NoDup (f x).
Proof.
  induction l as [|y l IH]; cbn; [easy|]. intros N [->|I]; [now apply NoDup_app_l in N | apply NoDup_app_r in N; auto].
Qed.
Lemma incl_flat {A B} (f : A -> list B) l x : In x l -> incl (f x) (flat_map f l).
Proof. intros I y J. apply in_flat_map. eauto. Qed.
Lemma parts_binders e ys e' : In (ys, e') (parts e) -> incl (binders e') (binders e) /\ incl ys (binders e) /\
  (NoDup (binders e) -> NoDup (binders e') /\ forall y, In y ys -> ~ In y (binders e')).
Proof.
  assert (TR : forall a b : list id, incl [] a) by (intros a b x []).
  destruct e as [x|x e|a b c|ef p l|f l|xs b|xs lams b|x b|k e]; cbn [parts binders]; intros I.
  - destruct I.
  - destruct I as [[= <- <-]|[]]. split; [apply incl_refl|split; [easy|]]. intros N. split; [assumption | easy].
  - split; [|split].
    + destruct I as [[= <- <-]|[[= <- <-]|[[= <- <-]|[]]]]; intros x J; rewrite !in_app_iff; tauto.
    + destruct I as [[= <- <-]|[[= <- <-]|[[= <- <-]|[]]]]; easy.
    + intros N. split; [|destruct I as [[= <- <-]|[[= <- <-]|[[= <- <-]|[]]]]; easy].
      destruct I as [[= <- <-]|[[= <- <-]|[[= <- <-]|[]]]]; [now apply NoDup_app_l in N | apply NoDup_app_r in N; now apply NoDup_app_l in N | apply NoDup_app_r in N; now apply NoDup_app_r in N].
  - apply in_map_iff in I. destruct I as (e & [= <- <-] & I). split; [now apply incl_flat|split; [easy|]]. intros N. split; [eapply NoDup_flat; eauto | easy].
  - destruct I as [[= <- <-]|I].
    + split; [apply incl_appl, incl_refl|split; [easy|]]. intros N. split; [now apply NoDup_app_l in N | easy].
    + apply in_map_iff in I. destruct I as (e & [= <- <-] & I). split; [now apply incl_appr, incl_flat|split; [easy|]]. intros N. apply NoDup_app_r in N. split; [eapply NoDup_flat; eauto | easy].
  - destruct I as [[= <- <-]|[]]. split; [apply incl_appr, incl_refl|split; [apply incl_appl, incl_refl|]].
    intros N. split; [now apply NoDup_app_r in N|]. intros y J. eapply NoDup_app_no; eauto.
  - destruct I as [[= <- <-]|I].
    + split; [apply incl_appr, incl_appr, incl_refl|split; [apply incl_appl, incl_refl|]]. intros N. split.
      * apply NoDup_app_r in N. now apply NoDup_app_r in N.
      * intros y J K. eapply NoDup_app_no in J; [|eassumption]. apply J, in_or_app. now right.
    + apply in_map_iff in I. destruct I as ((ps & e) & [= <- <-] & I). cbn [fst snd].
      assert (J : incl (ps ++ binders e) (flat_map (fun l => fst l ++ binders (snd l)) lams)) by (apply (incl_flat (fun l => fst l ++ binders (snd l)) lams (ps, e) I)).
      split; [|split].
      * intros x K. apply in_or_app. right. apply in_or_app. left. apply J, in_or_app. now right.
      * intros x K. apply in_app_iff in K. apply in_or_app. destruct K as [K|K]; [now left | right]. apply in_or_app. left. apply J, in_or_app. now left.
      * intros N. pose proof (NoDup_app_r _ _ N) as N1. apply NoDup_app_l in N1. apply (NoDup_flat _ _ _ N1) in I. cbn in I. split; [now apply NoDup_app_r in I|].
        intros y K. apply in_app_iff in K. destruct K as [K|K]; [|eapply NoDup_app_no; eauto]. intros K2.
        eapply NoDup_app_no in K; [|exact N]. apply K, in_or_app. left. apply J, in_or_app. now right.
  - destruct I as [[= <- <-]|[]]. split; [apply incl_tl, incl_refl|split; [intros y [->|[]]; now left|]]. intros N. inversion N; subst. split; [assumption|]. now intros y [->|[]].
  - destruct I as [[= <- <-]|[[= <- <-]|[]]].
    + split; [apply incl_appl, incl_refl|split; [easy|]]. intros N. split; [now apply NoDup_app_l in N | easy].
    + split; [apply incl_appr, incl_refl|split; [easy|]]. intros N. split; [now apply NoDup_app_r in N | easy].
Qed.
Lemma wf_part e ys e' : wf e -> In (ys, e') (parts e) -> wf e'.
Proof.
  intros (A & B & C) I. destruct (parts_binders _ _ _ I) as (I1 & I2 & I3). destruct (I3 A) as (A' & D). split; [assumption|split; [auto|]].
  intros x F G. destruct (in_dec id_dec x ys) as [J|J].
  - split; [now apply D | auto].
  - destruct (C x) as (C1 & C2); [eapply free_part; eauto | assumption|]. split; [|assumption]. auto.
Qed.

(** ** Groups *)
Lemma needs_from ids lams i x : needs ids lams i x -> global_id x = false /\ ~ In x ids /\ exists j ps b, nth_error lams j = Some (ps, b) /\ free_in x (ELam ps b).
Proof. induction 1; [eauto 8 | assumption]. Qed.
Lemma nth_nth {A} (l : list A) i x d : nth_error l i = Some x -> nth i l d = x.
Proof. revert i. induction l; intros [|i] E; cbn in *; try discriminate; [congruence | auto]. Qed.
Record names_ok (ids : list id) (lams : list lam) : Prop := {
  no_nodup : NoDup ids;
  no_len : length ids = length lams;
  no_ids : forall y, In y ids -> not_label N0 y /\ global_id y = false;
  no_params : forall i ps b, nth_error lams i = Some (ps, b) -> NoDup ps /\ forall p, In p ps -> not_label N0 p /\ ~ In p ids;
  no_free : forall j ps b x, nth_error lams j = Some (ps, b) -> free_in x (ELam ps b) -> global_id x = false -> ~ In x ids ->
    ts x <= N0 /\ forall i ps' b', nth_error lams i = Some (ps', b') -> ~ In x ps' }.
Lemma group_ok T (Q : exp -> exp -> Prop) ids lams xss tids : names_ok ids lams -> extra_vars ids lams = Some xss -> length tids = length ids ->
  (forall i ps b, nth_error lams i = Some (ps, b) -> exists xv t cs b', nth_error xss i = Some xv /\ nth_error tids i = Some t /\
     In (t, (ps ++ xv, let_exp ids cs b')) T /\ curries N0 lams xss tids cs /\ Q b b') ->
  group N0 T Q ids lams xss tids.
Proof.
  intros OK EX LT H. destruct (extra_vars_spec ids lams) as (xss0 & E & LX & NDX & SP); [apply OK | intros x I; now apply (no_ids _ _ OK) in I | symmetry; apply OK|].
  assert (xss0 = xss) by congruence. subst xss0.
  split; [apply OK|split; [pose proof (no_len _ _ OK); lia|split; [apply OK|split]]].
  - intros i xv Ei. rewrite <- (nth_nth _ _ _ [] Ei). split; [apply NDX|]. intros x I. apply SP, needs_from in I. destruct I as (G & NI & j & ps & b & Ej & F).
    split; [left; eapply no_free; eauto | auto].
  - intros i ps b Ei. destruct (H _ _ _ Ei) as (xv & t & cs & b' & Ex & Et & IT & CU & Qb). exists xv, t, cs, b'.
    split; [assumption|split; [assumption|split; [assumption|split; [assumption|split; [assumption|]]]]].
    assert (SPi : forall x, In x xv <-> needs ids lams i x) by (intros x; rewrite <- SP, (nth_nth _ _ _ [] Ex); reflexivity).
    split; [eapply no_params; eauto|split; [|split]].
    + intros p I. split; [eapply no_params; eauto|]. split; [|eapply no_params; eauto]. intros J. apply SPi, needs_from in J. destruct J as (G & NI & j & ps' & b0 & Ej & F).
      destruct (no_free _ _ OK j ps' b0 p Ej F G NI) as (_ & X). now apply (X i ps b).
    + intros x F G NI. apply SPi. eapply nd_own; eauto.
    + intros j y xv' F Ey Ex' x I. apply SPi. eapply nd_call; eauto. apply SP. now rewrite (nth_nth _ _ _ [] Ex').
Qed.

(** ** Used variables *)
Lemma used_var x y : used_in x (EVar y) -> x = y.
Proof. intros U. inversion U; subst; [now inversion H | destruct H0]. Qed.
Lemma used_lam x ps b : used_in x (ELam ps b) -> ~ In x ps /\ used_in x b.
Proof. intros U. inversion U; subst; [inversion H|]. destruct H0 as [[= <- <-]|[]]. auto. Qed.
Lemma lam_used x ps b : ~ In x ps -> used_in x b -> used_in x (ELam ps b).
Proof. intros N U. apply us_part with ps b; auto; [|now left]. intros (ids & c & l & E & _). discriminate. Qed.
Lemma used_app x f l : used_in x (EApp f l) -> used_in x f \/ exists e, In e l /\ used_in x e.
Proof.
  intros U. inversion U; subst.
  - inversion H.
  - destruct H0 as [[= <- <-]|I]; [now left|]. apply in_map_iff in I. destruct I as (e & [= <- <-] & I). eauto.
  - left. now apply lam_used.
  - right. exists e. split; [eapply nth_error_In; eauto | assumption].
  - right. eauto.
Qed.
Lemma used_parts x e : (forall ids b l, e <> let_exp ids l b) -> used_in x e -> named x e \/ exists ys e', In (ys, e') (parts e) /\ ~ In x ys /\ used_in x e'.
Proof. intros N U. destruct U as [x e H|x e ys e' H1 H2 H3 H4|x ids b l ? ? ?|x ids b l i y e ? ? ? ? ?|x ids b l e ? ? ? ?]; [auto | right; eauto | now contradiction (N ids b l) ..]. Qed.
Lemma used_curry x t ys xv : used_in x (curry_exp t ys (map EVar xv)) -> x = t \/ In x xv.
Proof.
  intros U. apply used_lam in U. destruct U as (N & U). apply used_app in U. destruct U as [U|(e & I & U)]; [left; now apply used_var|].
  apply in_app_iff in I. destruct I as [I|I]; apply in_map_iff in I; destruct I as (y & <- & I); apply used_var in U; subst; [easy | now right].
Qed.
Lemma used_let_curries x lams xss tids cs ids b' : curries N0 lams xss tids cs -> length ids = length lams -> used_in x (let_exp ids cs b') ->
  used_in x b' /\ ~ In x ids \/ exists j y xv t, nth_error ids j = Some y /\ used_in y b' /\ nth_error xss j = Some xv /\ nth_error tids j = Some t /\ (x = t \/ In x xv).
Proof.
  intros (L & C) LI U.
  assert (CC : forall j c, nth_error cs j = Some c -> exists xv t ys, nth_error xss j = Some xv /\ nth_error tids j = Some t /\ c = curry_exp t ys (map EVar xv)).
  { intros j c E. destruct (nth_error lams j) as [(ps & b)|] eqn:El.
    - destruct (C _ _ _ El) as (xv & t & c' & A1 & A2 & A3 & ys & -> & _). exists xv, t, ys. split; [assumption|split; [assumption | congruence]].
    - apply nth_error_None in El. assert (j < length cs)%nat by (apply nth_error_Some; congruence). lia. }
  unfold let_exp in U. inversion U; subst.
  - inversion H.
  - exfalso. apply H. exists ids, b', cs. split; [reflexivity | congruence].
  - now left.
  - right. destruct (CC _ _ H5) as (xv & t & ys & A1 & A2 & ->). apply used_curry in H7. eauto 10.
  - exfalso. apply In_nth_error in H4. destruct H4 as (j & E). destruct (CC _ _ E) as (xv & t & ys & _ & _ & ->). now apply (H5 ys (EApp (EVar t) (map EVar ys ++ map EVar xv))).
Qed.

(** ** The pass *)
Definition fresh_tops (lo hi : Z) (new : tops) : Prop := NoDup (map fst new) /\ forall t, In t (map fst new) -> lo < ts t <= hi /\ xt t = XTrue.
Definition closed_tops (new : tops) : Prop :=
  forall t ps b x, In (t, (ps, b)) new -> used_in x (ELam ps b) -> global_id x = true \/ In x (map fst new).
Definition lifted (e : exp) (top : tops) (n : Z) (e' : exp) (top' : tops) (n' : Z) : Prop :=
  n <= n' /\ exists new, top' = new ++ top /\ fresh_tops n n' new /\ closed_tops new /\
    (forall x, used_in x e' -> free_in x e \/ In x (map fst new)) /\ forall T, incl new T -> LC N0 T e e'.
Definition lift_ok (e : exp) : Prop := forall top n e' top' n', lift e top n = Some (e', top', n') -> wf e -> N0 <= n -> lifted e top n e' top' n'.
Definition lifted_list (l : list exp) (top : tops) (n : Z) (l' : list exp) (top' : tops) (n' : Z) : Prop :=
  n <= n' /\ exists new, top' = new ++ top /\ fresh_tops n n' new /\ closed_tops new /\
    (forall x e', In e' l' -> used_in x e' -> (exists e, In e l /\ free_in x e) \/ In x (map fst new)) /\ forall T, incl new T -> Forall2 (LC N0 T) l l'.
Lemma fresh_app lo mid hi a b : fresh_tops lo mid a -> fresh_tops mid hi b -> lo <= mid -> mid <= hi -> fresh_tops lo hi (b ++ a).
Proof.
  intros (A1 & A2) (B1 & B2) L1 L2. split.
  - rewrite map_app. apply NoDup_join; auto. intros x I J. apply B2 in I. apply A2 in J. lia.
  - intros t I. rewrite map_app in I. apply in_app_iff in I. destruct I as [I|I]; [apply B2 in I | apply A2 in I]; split; try lia; apply I.
Qed.
Lemma closed_app a b : closed_tops a -> closed_tops b -> closed_tops (a ++ b).
Proof.
  intros A B t ps c x I U. rewrite map_app, in_app_iff. apply in_app_iff in I. destruct I as [I|I]; [apply (A _ _ _ x) in I | apply (B _ _ _ x) in I]; tauto.
Qed.
Lemma fresh_nil n : fresh_tops n n [].
Proof. split; [constructor | easy]. Qed.
Lemma closed_nil : closed_tops [].
Proof. intros t ps b x []. Qed.
Lemma incl_app_l {A} (a b c : list A) : incl (a ++ b) c -> incl a c.
Proof. intros I x J. apply I, in_or_app. now left. Qed.
Lemma incl_app_r {A} (a b c : list A) : incl (a ++ b) c -> incl b c.
Proof. intros I x J. apply I, in_or_app. now right. Qed.
Lemma lift_list_ok l : Forall lift_ok l -> forall top n l' top' n', lift_list l top n = Some (l', top', n') -> Forall wf l -> N0 <= n -> lifted_list l top n l' top' n'.
Proof.
  induction 1 as [|e l He Hl IH]; intros top n l' top' n' E W Ln; cbn [lift_list] in E.
  - injection E as <- <- <-. split; [lia|]. exists []. split; [reflexivity|split; [apply fresh_nil|split; [apply closed_nil|split; [easy | constructor]]]].
  - inversion W as [|? ? W1 W2]; subst. destruct (lift e top n) as [((e' & top1) & n1)|] eqn:E1; [|discriminate].
    destruct (lift_list l top1 n1) as [((l1 & top2) & n2)|] eqn:E2; [|discriminate]. injection E as <- <- <-.
    destruct (He _ _ _ _ _ E1 W1 Ln) as (L1 & new1 & -> & F1 & C1 & U1 & LC1). destruct (IH _ _ _ _ _ E2 W2 ltac:(lia)) as (L2 & new2 & -> & F2 & C2 & U2 & LC2).
    split; [lia|]. exists (new2 ++ new1). split; [apply app_assoc|split; [eapply fresh_app; eauto|split; [now apply closed_app|split]]].
    + intros x e0 [<-|I] U; rewrite map_app, in_app_iff.
      * apply U1 in U. destruct U; [left; exists e; split; [now left | assumption] | tauto].
      * apply (U2 x _ I) in U. destruct U as [(e1 & I1 & F)|]; [left; exists e1; split; [now right | assumption] | tauto].
    + intros T I. constructor; [apply LC1; now apply incl_app_r in I | apply LC2; now apply incl_app_l in I].
Qed.
(** the labels of a group are given out before its procedures are lifted *)
Definition group_tops (ts : list id) (lo hi : Z) (new : tops) : Prop :=
  NoDup (map fst new) /\ forall t, In t (map fst new) -> In t ts \/ lo < Model_Core.ts t <= hi /\ xt t = XTrue.
Lemma float_ok ids lams xss tids : length xss = length lams -> length tids = length lams ->
  (forall xv x, In xv xss -> In x xv -> ts x <= N0) ->
  forall ls xs ts, Forall (fun l => lift_ok (snd l)) ls -> forall top n top' n', float_go ids lams xss tids ls xs ts top n = Some (top', n') ->
  Forall (fun l => wf (snd l)) ls -> N0 <= n -> NoDup ts -> (forall t, In t ts -> Model_Core.ts t <= n) ->
  length xs = length ls /\ length ts = length ls /\ n <= n' /\ exists new, top' = new ++ top /\ group_tops ts n n' new /\ incl ts (map fst new) /\
    (forall t ps b x, In (t, (ps, b)) new -> used_in x (ELam ps b) -> global_id x = true \/ In x (map fst new) \/
       exists i ps0 b0 xv cs b', nth_error ls i = Some (ps0, b0) /\ nth_error xs i = Some xv /\ ps = ps0 ++ xv /\ b = let_exp ids cs b' /\ curries N0 lams xss tids cs /\
         forall y, used_in y b' -> free_in y b0 \/ In y (map fst new)) /\
    (forall T, incl new T -> forall i ps b, nth_error ls i = Some (ps, b) -> exists xv t cs b', nth_error xs i = Some xv /\ nth_error ts i = Some t /\
     In (t, (ps ++ xv, let_exp ids cs b')) T /\ curries N0 lams xss tids cs /\ LC N0 T b b').
Proof.
  intros LX LT HX. induction ls as [|(ps & e) ls IH]; intros xs ts H top n top' n' E W Ln ND TS.
  - destruct xs, ts; try discriminate. cbn in E. injection E as <- <-. split; [reflexivity|split; [reflexivity|split; [lia|]]]. exists [].
    split; [reflexivity|split; [split; [constructor | easy]|split; [easy|split; [easy|]]]]. intros T _ [|]; discriminate.
  - destruct xs as [|xv xs], ts as [|t ts]; try discriminate. cbn [float_go] in E.
    destruct (float_lam ids lams xss tids (lift e) ps xv t top n) as [(top1 & n1)|] eqn:E1; [|discriminate].
    unfold float_lam in E1. destruct (curry_lams lams xss tids n) as (cs & n0) eqn:Ec. destruct (lift e top n0) as [((b' & top2) & n2)|] eqn:E2; [|discriminate]. injection E1 as <- <-.
    inversion H as [|? ? He Hl]; subst. inversion W as [|? ? We Wl]; subst. cbn [snd] in He, We. inversion ND as [|? ? NT ND']; subst.
    destruct (curry_lams_spec lams xss tids n cs n0 Ec LX LT Ln HX) as (CU & Lc). destruct (He _ _ _ _ _ E2 We ltac:(lia)) as (L2 & new2 & -> & F2 & C2 & U2 & LC2).
    destruct (IH xs ts Hl _ _ _ _ E Wl ltac:(lia) ND') as (Lx & Lt & L3 & new3 & -> & G3 & I3 & C3 & LC3).
    { intros t0 I. specialize (TS t0 (or_intror I)). lia. }
    split; [cbn; congruence|split; [cbn; congruence|split; [lia|]]]. exists (new3 ++ (t, (ps ++ xv, let_exp ids cs b')) :: new2).
    assert (Mt : In t (map fst (new3 ++ (t, (ps ++ xv, let_exp ids cs b')) :: new2))) by (rewrite map_app; apply in_elt).
    split; [now rewrite <- app_assoc|split; [|split; [|split]]].
    + destruct G3 as (G3a & G3b), F2 as (F2a & F2b). split.
      * rewrite map_app. cbn [map fst]. apply NoDup_join; auto.
        -- constructor; [|assumption]. intros I. apply F2b in I. specialize (TS t (or_introl eq_refl)). lia.
        -- intros x I J. apply G3b in I. destruct J as [<-|J].
           ++ destruct I as [I|I]; [easy|]. specialize (TS t (or_introl eq_refl)). lia.
           ++ apply F2b in J. destruct I as [I|I]; [|lia]. specialize (TS x (or_intror I)). lia.
      * intros x I. rewrite map_app in I. apply in_app_iff in I. cbn [map fst] in I. destruct I as [I|[<-|I]].
        -- apply G3b in I. destruct I as [I|I]; [left; now right | right; split; [lia | apply I]].
        -- left. now left.
        -- apply F2b in I. right. split; [lia | apply I].
    + intros x [<-|I]; [assumption|]. rewrite map_app. apply in_or_app. left. now apply I3.
    + intros t0 ps0 b0 x I U. apply in_app_iff in I. destruct I as [I|[I|I]].
      * destruct (C3 _ _ _ x I U) as [G|[G|(i & ps1 & b1 & xv1 & cs1 & b1' & A1 & A2 & A3 & A4 & A5 & A6)]]; [now left | right; left; rewrite map_app; apply in_or_app; now left|].
        right. right. exists (S i), ps1, b1, xv1, cs1, b1'. repeat (split; [assumption|]). intros y Uy. apply A6 in Uy. rewrite map_app, in_app_iff. tauto.
      * injection I as <- <- <-. right. right. exists 0%nat, ps, e, xv, cs, b'. repeat (split; [reflexivity || assumption|]). intros y Uy. apply U2 in Uy.
        destruct Uy as [|Uy]; [now left | right]. rewrite map_app. apply in_or_app. right. now right.
      * destruct (C2 _ _ _ x I U) as [G|G]; [now left | right; left]. rewrite map_app. apply in_or_app. right. now right.
    + intros T I i ps0 b0 Ei. destruct i as [|i]; cbn in Ei.
      * injection Ei as <- <-. exists xv, t, cs, b'. split; [reflexivity|split; [reflexivity|split; [|split; [assumption|]]]].
        -- apply I. apply in_elt.
        -- apply LC2. intros z J. apply I. apply in_or_app. right. now right.
      * cbn [nth_error]. apply LC3 with (T := T) in Ei; [exact Ei | now apply incl_app_l in I].
Qed.

Lemma float_len ids lams xss tids ls : forall xs ts top n r, float_go ids lams xss tids ls xs ts top n = Some r -> length xs = length ls /\ length ts = length ls.
Proof.
  induction ls as [|(ps & e) ls IH]; intros [|xv xs] [|t ts] top n r E; try discriminate; [auto|]. cbn [float_go] in E.
  destruct (float_lam _ _ _ _ _ _ _ _ _ _) as [(top1 & n1)|]; [|discriminate]. apply IH in E. cbn. lia.
Qed.
Lemma lams_ok ids lams lb top n e' top' n' :
  lift_lams ids lams (fun xss tids => float_go ids lams xss tids lams xss tids) lb top n = Some (e', top', n') ->
  (length ids = length lams -> names_ok ids lams) -> Forall (fun l => lift_ok (snd l)) lams -> Forall (fun l => wf (snd l)) lams -> N0 <= n ->
  exists xss tids cs b' n3 new, extra_vars ids lams = Some xss /\ lb (new ++ top) n3 = Some (b', top', n') /\ e' = let_exp ids cs b' /\
    names_ok ids lams /\ n <= n3 /\ fresh_tops n n3 new /\ closed_tops new /\ incl tids (map fst new) /\ curries N0 lams xss tids cs /\
    forall T, incl new T -> group N0 T (LC N0 T) ids lams xss tids.
Proof.
  intros E OK H W Ln. unfold lift_lams in E. destruct (new_ids XTrue (length ids) n) as (tids & n1) eqn:Et. destruct (extra_vars ids lams) as [xss|] eqn:Ex; [|discriminate].
  destruct (float_go ids lams xss tids lams xss tids top n1) as [(top1 & n2)|] eqn:Ef; [|discriminate].
  destruct (curry_lams lams xss tids n2) as (cs & n3) eqn:Ec. destruct (lb top1 n3) as [((b' & top2) & n4)|] eqn:Eb; [|discriminate]. injection E as <- <- <-.
  destruct (new_ids_spec _ _ _ _ _ Et) as (-> & Lt & NDt & Ht). destruct (float_len _ _ _ _ _ _ _ _ _ _ Ef) as (Lx & Lt2).
  assert (LL : length ids = length lams) by congruence. specialize (OK LL).
  destruct (extra_vars_spec ids lams) as (xss0 & Ex0 & LX & NDX & SP); [apply OK | intros x I; now apply (no_ids _ _ OK) in I | symmetry; apply OK|].
  assert (xss0 = xss) by congruence. subst xss0.
  assert (HX : forall xv x, In xv xss -> In x xv -> ts x <= N0).
  { intros xv x I J. apply In_nth_error in I. destruct I as (i & Ei). rewrite <- (nth_nth _ _ _ [] Ei) in J. apply SP, needs_from in J.
    destruct J as (G & NI & j & ps & b & Ej & F). eapply no_free; eauto. }
  destruct (float_ok ids lams xss tids Lx Lt2 HX lams xss tids H top _ _ _ Ef W ltac:(lia) NDt) as (_ & _ & L3 & new & -> & (Ga & Gb) & It & CL & LCs).
  { intros t I. apply Ht in I. lia. }
  destruct (curry_lams_spec lams xss tids n2 cs n3 Ec Lx Lt2 ltac:(lia) HX) as (CU & L4).
  assert (GR : forall T, incl new T -> group N0 T (LC N0 T) ids lams xss tids).
  { intros T I. apply group_ok; [assumption | assumption | congruence|]. now apply LCs. }
  assert (FT : fresh_tops n n3 new).
  { split; [assumption|]. intros t I. apply Gb in I. destruct I as [I|I]; [apply Ht in I|]; split; try lia; apply I. }
  assert (LB : forall y, In y ids -> ~ In y (map fst new)).
  { intros y I J. apply FT in J. destruct (no_ids _ _ OK y I) as ([X|X] & _); [lia | now apply X]. }
  exists xss, tids, cs, b', n3, new. split; [reflexivity|split; [assumption|split; [reflexivity|split; [assumption|split; [lia|split; [assumption|split; [|auto]]]]]]].
  intros t ps b x I U. destruct (CL _ _ _ x I U) as [G|[G|(i & ps0 & b0 & xv & cs1 & b1 & A1 & A2 & -> & -> & A5 & A6)]]; [now left | now right|].
  apply used_lam in U. destruct U as (NI & U). rewrite in_app_iff in NI. destruct (global_id x) eqn:Gx; [now left | right].
  destruct (GR new (incl_refl _)) as (_ & _ & _ & _ & GB). destruct (GB _ _ _ A1) as (xv0 & t0 & cs0 & b2 & Ex1 & Et1 & _ & _ & _ & _ & Hp & Own & Call).
  assert (xv0 = xv) by congruence. subst xv0.
  apply (used_let_curries _ _ _ _ _ _ _ A5 LL) in U. destruct U as [(U & Nx)|(j & y & xvj & tj & Ey & Uy & Exj & Etj & X)].
  - apply A6 in U. destruct U as [F|F]; [|assumption]. exfalso. apply NI. right. apply Own; [|assumption..]. apply free_part with ps0 b0; [now left | tauto | assumption].
  - destruct X as [->|X]; [apply It; eapply nth_error_In; eauto|]. exfalso. apply NI. right. pose proof (nth_error_In _ _ Ey) as Iy.
    apply A6 in Uy. destruct Uy as [F|F]; [|now apply LB in F]. refine (Call j y xvj _ Ey Exj x X). apply free_part with ps0 b0; [now left | | assumption].
    intros J. now apply (Hp y J).
Qed.
Lemma needs_free ids lams b i x : needs ids lams i x -> free_in x (EFix ids lams b).
Proof.
  intros N. apply needs_from in N. destruct N as (G & NI & j & ps & b0 & Ej & F). inversion F as [M|ys e' I NX F']; subst; [inversion M|].
  destruct I as [[= <- <-]|[]]. apply free_part with (ids ++ ps) b0; [|rewrite in_app_iff; tauto | assumption].
  right. apply in_map_iff. exists (ps, b0). split; [reflexivity | eapply nth_error_In; eauto].
Qed.
Lemma old_not x : ts x <= N0 -> not_label N0 x.
Proof. now left. Qed.
Lemma global_old x : global_id x = true -> not_label N0 x.
Proof. intros G. left. unfold global_id in G. apply Z.ltb_lt in G. lia. Qed.
Lemma local_old x : 0 <= ts x <= N0 -> not_label N0 x /\ global_id x = false.
Proof. intros R. split; [left; lia | unfold global_id; apply Z.ltb_ge; lia]. Qed.

Definition lift_ok2 (e : exp) : Prop := lift_ok e /\ forall ids b, e = ELam ids b -> lift_ok b.
Lemma lift_sound2 e : lift_ok2 e.
Proof.
  induction e as [x|x e (IH & _)|a b c (IHa & _) (IHb & _) (IHc & _)|ef p l IH|f l (IHf & IHf2) IH|xs b (IH & _)|xs lams b IHl (IH & _)|x b IH|k e IHk IH] using exp_ind2;
    (split; [|try discriminate; intros ? ? [= <- <-]; assumption]);
    intros top n e' top' n' E W Ln; pose proof (fun ys e' => wf_part _ ys e' W) as WP; cbn [parts] in WP.
  - cbn in E. injection E as <- <- <-. split; [lia|]. exists []. split; [reflexivity|split; [apply fresh_nil|split; [apply closed_nil|split]]].
    + intros y U. apply used_var in U. subst. left. apply free_here. constructor.
    + intros T _. constructor. destruct (global_id x) eqn:G; [now apply global_old|]. apply old_not. apply W; [apply free_here; constructor | assumption].
  - cbn [lift] in E. destruct (global_id x) eqn:G; [|discriminate]. destruct (lift e top n) as [((e1 & top1) & n1)|] eqn:E1; [|discriminate]. injection E as <- <- <-.
    destruct (IH _ _ _ _ _ E1) as (L1 & new & -> & F1 & C1 & U1 & LC1); [apply (WP [] e); now left | assumption|].
    split; [assumption|]. exists new. split; [reflexivity|split; [assumption|split; [assumption|split]]].
    + intros y U. apply used_parts in U; [|discriminate]. destruct U as [M|(ys & e2 & [[= <- <-]|[]] & _ & U)].
      * inversion M; subst. left. apply free_here. constructor.
      * apply U1 in U. destruct U as [U|U]; [left; apply free_part with [] e; [now left | easy | assumption] | now right].
    + intros T I. constructor; auto.
  - cbn [lift] in E. destruct (lift a top n) as [((a1 & top1) & n1)|] eqn:E1; [|discriminate].
    destruct (lift b top1 n1) as [((b1 & top2) & n2)|] eqn:E2; [|discriminate]. destruct (lift c top2 n2) as [((c1 & top3) & n3)|] eqn:E3; [|discriminate]. injection E as <- <- <-.
    destruct (IHa _ _ _ _ _ E1) as (L1 & new1 & -> & F1 & C1 & U1 & LC1); [apply (WP [] a); now left | assumption|].
    destruct (IHb _ _ _ _ _ E2) as (L2 & new2 & -> & F2 & C2 & U2 & LC2); [apply (WP [] b); right; now left | lia|].
    destruct (IHc _ _ _ _ _ E3) as (L3 & new3 & -> & F3 & C3 & U3 & LC3); [apply (WP [] c); right; right; now left | lia|].
    split; [lia|]. exists (new3 ++ new2 ++ new1). split; [now rewrite !app_assoc|split; [|split; [|split]]].
    + eapply (fresh_app n n2 n3); [eapply fresh_app; eauto | assumption | lia | lia].
    + apply closed_app; [assumption | now apply closed_app].
    + intros y U. rewrite !map_app, !in_app_iff. apply used_parts in U; [|discriminate]. destruct U as [M|(ys & e2 & I & _ & U)]; [inversion M|].
      destruct I as [[= <- <-]|[[= <- <-]|[[= <- <-]|[]]]]; [apply U1 in U; destruct U as [U|U]; [left; apply free_part with [] a|tauto] | apply U2 in U; destruct U as [U|U]; [left; apply free_part with [] b|tauto] | apply U3 in U; destruct U as [U|U]; [left; apply free_part with [] c|tauto]]; cbn; tauto.
    + intros T I. constructor; [apply LC1; apply incl_app_r, incl_app_r in I | apply LC2; apply incl_app_r, incl_app_l in I | apply LC3; apply incl_app_l in I]; assumption.
  - rewrite lift_prim in E. destruct (lift_list l top n) as [((l1 & top1) & n1)|] eqn:E1; [|discriminate]. injection E as <- <- <-.
    destruct (lift_list_ok l (Forall_impl _ (fun e H => proj1 H) IH) _ _ _ _ _ E1) as (L1 & new & -> & F1 & C1 & U1 & LC1); [|assumption|].
    { apply Forall_forall. intros e I. apply (WP [] e). now apply in_map. }
    split; [assumption|]. exists new. split; [reflexivity|split; [assumption|split; [assumption|split]]].
    + intros y U. apply used_parts in U; [|discriminate]. destruct U as [M|(ys & e2 & I & _ & U)]; [inversion M|]. apply in_map_iff in I. destruct I as (e3 & [= <- <-] & I).
      apply (U1 y _ I) in U. destruct U as [(e4 & I4 & F4)|U]; [|now right]. left. apply free_part with [] e4; [now apply in_map | easy | assumption].
    + intros T I. constructor. auto.
  - rewrite lift_app in E. cbn zeta in E.
    assert (WL : Forall wf l) by (apply Forall_forall; intros e I; apply (WP [] e); right; now apply in_map).
    assert (FA : forall y e4, In e4 l -> free_in y e4 -> free_in y (EApp f l)) by (intros y e4 I F; apply free_part with [] e4; [right; now apply in_map | easy | assumption]).
    assert (Gen : match lift f top n with
      | Some (f', top1, n1) => match lift_list l top1 n1 with Some (l', top2, n2) => Some (EApp f' l', top2, n2) | None => None end
      | None => None
      end = Some (e', top', n') -> lifted (EApp f l) top n e' top' n').
    { clear E. intros E. destruct (lift f top n) as [((f1 & top1) & n1)|] eqn:E1; [|discriminate]. destruct (lift_list l top1 n1) as [((l1 & top2) & n2)|] eqn:E2; [|discriminate]. injection E as <- <- <-.
      destruct (IHf _ _ _ _ _ E1) as (L1 & new1 & -> & F1 & C1 & U1 & LC1); [apply (WP [] f); now left | assumption|].
      destruct (lift_list_ok l (Forall_impl _ (fun e H => proj1 H) IH) _ _ _ _ _ E2 WL) as (L2 & new2 & -> & F2 & C2 & U2 & LC2); [lia|].
      split; [lia|]. exists (new2 ++ new1). split; [apply app_assoc|split; [eapply fresh_app; eauto|split; [now apply closed_app|split]]].
      + intros y U. rewrite map_app, in_app_iff. apply used_app in U. destruct U as [U|(e3 & I & U)].
        * apply U1 in U. destruct U as [U|U]; [left; apply free_part with [] f; [now left | easy | assumption] | tauto].
        * apply (U2 y _ I) in U. destruct U as [(e4 & I4 & F4)|U]; [left; eauto | tauto].
      + intros T I. constructor; [apply LC1; now apply incl_app_r in I | apply LC2; now apply incl_app_l in I]. }
    destruct f as [ | | | | |ids b| | | ]; try (apply Gen, E). destruct (Nat.eqb (length ids) (length l)) eqn:Q; [|apply Gen, E]. clear Gen.
    destruct (lift_list l top n) as [((l1 & top1) & n1)|] eqn:E1; [|discriminate]. destruct (lift b top1 n1) as [((b1 & top2) & n2)|] eqn:E2; [|discriminate]. injection E as <- <- <-.
    destruct (lift_list_ok l (Forall_impl _ (fun e H => proj1 H) IH) _ _ _ _ _ E1 WL Ln) as (L1 & new1 & -> & F1 & C1 & U1 & LC1).
    assert (WF : wf (ELam ids b)) by (apply (WP [] _); now left). pose proof (wf_part _ ids b WF (or_introl eq_refl)) as WB.
    (* the body is lifted by itself, as part of the procedure *)
    assert (IHb : lift_ok b -> lifted (EApp (ELam ids b) l) top n (let_exp ids l1 b1) top2 n2).
    { intros IHb. destruct (IHb _ _ _ _ _ E2 WB ltac:(lia)) as (L2 & new2 & -> & F2 & C2 & U2 & LC2).
      split; [lia|]. exists (new2 ++ new1). split; [apply app_assoc|split; [eapply fresh_app; eauto|split; [now apply closed_app|split]]].
      + intros y U. rewrite map_app, in_app_iff. apply used_app in U. destruct U as [U|(e3 & I & U)].
        * apply used_lam in U. destruct U as (NI & U). apply U2 in U. destruct U as [U|U]; [|tauto]. left. apply free_part with [] (ELam ids b); [now left | easy|]. apply free_part with ids b; [now left | assumption | assumption].
        * apply (U1 y _ I) in U. destruct U as [(e4 & I4 & F4)|U]; [left; eauto | tauto].
      + intros T I. constructor; [|apply LC1; now apply incl_app_r in I]. destruct WF as (WN & WR & _). constructor.
        * intros x J. apply local_old. apply WR. cbn. apply in_or_app. now left.
        * cbn in WN. now apply NoDup_app_l in WN.
        * apply LC2. now apply incl_app_l in I. }
    apply IHb. now apply (IHf2 ids).
  - rewrite lift_lam in E. cbn [fresh] in E. set (l := mkid (n + 1) XNone) in *. pose proof W as (WN & WR & WF). cbn [binders] in WN, WR, WF.
    assert (Gl : not_label N0 l /\ global_id l = false). { split; [right; discriminate | unfold global_id; apply Z.ltb_ge; cbn; lia]. }
    assert (FO : forall x, free_in x (ELam xs b) -> global_id x = false -> ts x <= N0 /\ ~ In x xs).
    { intros x F G. destruct (WF x F G) as (A & B). split; [lia|]. intros I. apply A, in_or_app. now left. }
    assert (NFl : ~ free_in l (ELam xs b)). { intros F. apply FO in F; [|apply Gl]. cbn in F. lia. }
    destruct (lams_ok [l] [(xs, b)] _ _ _ _ _ _ E) as (xss & tids & cs & b' & n3 & new & Ex & Eb & -> & OK & L3 & FT & CT & It & CU & GR).
    + intros _. constructor; [repeat constructor; easy | reflexivity | now intros y [<-|[]] | |].
      * intros [|[|]] ps b0 Ei; try discriminate. injection Ei as <- <-. split; [now apply NoDup_app_l in WN|]. intros p I.
        assert (R : 0 <= ts p <= N0) by (apply WR, in_or_app; now left). split; [now apply local_old|]. intros [<-|[]]. cbn in R. lia.
      * intros [|[|]] ps b0 x Ei F G NI; try discriminate. injection Ei as <- <-. destruct (FO x F G) as (A & B). split; [assumption|].
        intros [|[|]] ps' b' Ei; try discriminate. injection Ei as <- <-. assumption.
    + constructor; [exact IH | constructor].
    + constructor; [apply (WP xs b); now left | constructor].
    + lia.
    + injection Eb as <- <- <-. 
      destruct (GR new (incl_refl _)) as (_ & (_ & LX & LT) & _ & GX & _). cbn in LX, LT. destruct xss as [|xv [|]]; try discriminate. destruct tids as [|t [|]]; try discriminate.
      assert (XF : forall x, In x xv -> free_in x (ELam xs b)).
      { intros x I. destruct (extra_vars_spec [l] [(xs, b)]) as (xss0 & Ex0 & _ & _ & SP); [apply OK | intros y J; now apply (no_ids _ _ OK) in J | reflexivity|].
        assert (xss0 = [xv]) by congruence. subst xss0. apply (SP 0%nat x), needs_from in I. destruct I as (_ & _ & [|[|]] & ps & b0 & Ej & F); try discriminate. injection Ej as <- <-. assumption. }
      split; [lia|]. exists new. split; [reflexivity|split; [|split; [assumption|split]]].
      * destruct FT as (FA & FB). split; [assumption|]. intros t0 I. apply FB in I. split; [lia | apply I].
      * intros x U. apply (used_let_curries _ _ _ _ _ [l] _ CU eq_refl) in U. destruct U as [(U & NI)|(j & y & xvj & tj & Ey & Uy & Exj & Etj & X)].
        -- apply used_var in U. subst. exfalso. apply NI. now left.
        -- destruct X as [->|X]; [right; apply It; eapply nth_error_In; eauto | left]. destruct j as [|[|]]; try discriminate. injection Exj as <-. auto.
      * intros T I. apply lc_lift with xv t; auto. 
  - rewrite lift_fix in E. pose proof W as (WN & WR & WF). cbn [binders] in WN, WR.
    assert (LB : forall i ps b0, nth_error lams i = Some (ps, b0) -> incl (ps ++ binders b0) (flat_map (fun l => fst l ++ binders (snd l)) lams)).
    { intros i ps b0 Ei. apply nth_error_In in Ei. exact (incl_flat (fun l => fst l ++ binders (snd l)) lams (ps, b0) Ei). }
    destruct (lams_ok xs lams _ _ _ _ _ _ E) as (xss & tids & cs & b' & n3 & new & Ex & Eb & -> & OK & L3 & FT & CT & It & CU & GR).
    + intros LL. constructor.
      * now apply NoDup_app_l in WN.
      * assumption.
      * intros y I. apply local_old, WR, in_or_app. now left.
      * intros i ps b0 Ei. pose proof (LB _ _ _ Ei) as I. split.
        -- apply NoDup_app_r, NoDup_app_l in WN. apply nth_error_In in Ei. apply (NoDup_flat _ _ _ WN) in Ei. cbn in Ei. now apply NoDup_app_l in Ei.
        -- intros p J. assert (J2 : In p (flat_map (fun l => fst l ++ binders (snd l)) lams ++ binders b)) by (apply in_or_app; left; apply I, in_or_app; now left).
           split; [apply local_old, WR, in_or_app; now right|]. intros K. eapply NoDup_app_no in K; [|exact WN]. auto.
      * intros j ps b0 x Ej F G NI. assert (FX : free_in x (EFix xs lams b)) by (apply needs_free with j; eapply nd_own; eauto).
        destruct (WF x FX G) as (A & B). split; [lia|]. intros i ps' b1 Ei J. apply A. cbn [binders]. apply in_or_app. right. apply in_or_app. left.
        apply (LB _ _ _ Ei). apply in_or_app. now left.
    + eapply Forall_impl; [|exact IHl]. intros l X. apply X.
    + apply Forall_forall. intros (ps & b0) I. apply (WP (xs ++ ps) b0). right. apply in_map_iff. now exists (ps, b0).
    + assumption.
    + destruct (IH _ _ _ _ _ Eb) as (L4 & new2 & -> & F2 & C2 & U2 & LC2); [apply (WP xs b); now left | lia|].
      destruct (extra_vars_spec xs lams) as (xss0 & Ex0 & _ & _ & SP); [apply OK | intros y J; now apply (no_ids _ _ OK) in J | symmetry; apply OK|].
      assert (xss0 = xss) by congruence. subst xss0.
      assert (LBl : forall y, In y xs -> ~ In y (map fst new2)).
      { intros y I J. apply F2 in J. destruct (no_ids _ _ OK y I) as ([X|X] & _); [lia | now apply X]. }
      split; [lia|]. exists (new2 ++ new). split; [apply app_assoc|split; [eapply fresh_app; eauto|split; [now apply closed_app|split]]].
      * intros x U. rewrite map_app, in_app_iff. apply (used_let_curries _ _ _ _ _ _ _ CU (no_len _ _ OK)) in U. destruct U as [(U & NI)|(j & y & xvj & tj & Ey & Uy & Exj & Etj & X)].
        -- apply U2 in U. destruct U as [U|U]; [left; apply free_part with xs b; [now left | assumption | assumption] | tauto].
        -- destruct X as [->|X]; [right; right; apply It; eapply nth_error_In; eauto | left]. apply needs_free with j. apply SP. now rewrite (nth_nth _ _ _ [] Exj).
      * intros T I. apply lc_fix with xss tids; auto.
        -- apply GR. now apply incl_app_r in I.
        -- intros j y xv F Ey Exj x X. apply needs_free with j. apply SP. now rewrite (nth_nth _ _ _ [] Exj).
        -- apply LC2. now apply incl_app_l in I.
  - discriminate.
  - discriminate.
Qed.
Lemma lift_sound e : lift_ok e.
Proof. apply lift_sound2. Qed.
End Ok.

(** ** The lifted program is flat *)
Definition flat_tops (L : list id) (top : tops) : Prop := forall t ps b, In (t, (ps, b)) top -> flat L b.
Lemma curry_flat L lams : forall xss tids n cs n', curry_lams lams xss tids n = (cs, n') -> incl tids L -> Forall (flat L) cs.
Proof.
  induction lams as [|l lams IH]; intros [|xv xss] [|t tids] n cs n' E I; cbn [curry_lams] in E; try (injection E as <- <-; constructor).
  destruct (new_ids XNone _ n) as (ys & n1). destruct (curry_lams lams xss tids n1) as (cs1 & n2) eqn:Ec. injection E as <- <-. constructor.
  - unfold curry_exp. rewrite <- map_app. constructor. apply I. now left.
  - eapply IH; eauto. intros x J. apply I. now right.
Qed.
Lemma curry_len lams : forall xss tids n cs n', curry_lams lams xss tids n = (cs, n') -> length xss = length lams -> length tids = length lams -> length cs = length lams.
Proof.
  induction lams as [|l lams IH]; intros [|xv xss] [|t tids] n cs n' E L1 L2; cbn [curry_lams] in E; cbn in L1, L2; try discriminate; try (injection E as <- <-; reflexivity).
  destruct (new_ids XNone _ n) as (ys & n1). destruct (curry_lams lams xss tids n1) as (cs1 & n2) eqn:Ec. injection E as <- <-. cbn. f_equal. eapply IH; eauto.
Qed.
Definition flat_ok (e : exp) : Prop := forall top n e' top' n', lift e top n = Some (e', top', n') ->
  incl (map fst top) (map fst top') /\ forall L, incl (map fst top') L -> flat L e' /\ (flat_tops L top -> flat_tops L top').
Lemma flat_list l : Forall flat_ok l -> forall top n l' top' n', lift_list l top n = Some (l', top', n') ->
  length l' = length l /\ incl (map fst top) (map fst top') /\ forall L, incl (map fst top') L -> Forall (flat L) l' /\ (flat_tops L top -> flat_tops L top').
Proof.
  induction 1 as [|e l He Hl IH]; intros top n l' top' n' E; cbn [lift_list] in E.
  - injection E as <- <- <-. split; [reflexivity|split; [apply incl_refl|]]. intros L _. split; [constructor | auto].
  - destruct (lift e top n) as [((e' & top1) & n1)|] eqn:E1; [|discriminate].
    destruct (lift_list l top1 n1) as [((l1 & top2) & n2)|] eqn:E2; [|discriminate]. injection E as <- <- <-.
    destruct (He _ _ _ _ _ E1) as (I1 & H1). destruct (IH _ _ _ _ _ E2) as (LL & I2 & H2).
    split; [cbn; congruence|split; [eapply incl_tran; eauto|]]. intros L I. destruct (H1 L) as (A1 & B1); [eapply incl_tran; eauto|]. destruct (H2 L I) as (A2 & B2). split; auto.
Qed.
Lemma flat_float ids lams xss tids : length xss = length lams -> length tids = length lams -> length ids = length lams ->
  forall ls, Forall (fun l => flat_ok (snd l)) ls -> forall xs ts top n top' n', float_go ids lams xss tids ls xs ts top n = Some (top', n') ->
  incl (map fst top) (map fst top') /\ incl ts (map fst top') /\ forall L, incl (map fst top') L -> incl tids L -> flat_tops L top -> flat_tops L top'.
Proof.
  intros LX LT LI. induction 1 as [|(ps & e) ls He Hl IH]; intros [|xv xs] [|t ts] top n top' n' E; try discriminate; cbn [float_go] in E.
  - injection E as <- <-. split; [apply incl_refl|split; [easy | auto]].
  - destruct (float_lam ids lams xss tids (lift e) ps xv t top n) as [(top1 & n1)|] eqn:E1; [|discriminate].
    unfold float_lam in E1. destruct (curry_lams lams xss tids n) as (cs & n0) eqn:Ec. destruct (lift e top n0) as [((b' & top2) & n2)|] eqn:E2; [|discriminate]. injection E1 as <- <-.
    destruct (He _ _ _ _ _ E2) as (I2 & H2). destruct (IH _ _ _ _ _ _ E) as (I3 & J3 & H3). cbn [map fst] in I3.
    assert (I4 : incl (map fst top2) (map fst top')) by (intros x J; apply I3; now right).
    split; [eapply incl_tran; eauto|split].
    + intros x [<-|J]; [apply I3; now left | auto].
    + intros L I IT FT. apply H3; [assumption | assumption|]. destruct (H2 L) as (A & B); [eapply incl_tran; eauto|]. intros t0 ps0 b0 [[= <- <- <-]|J]; [|now apply (B FT t0 ps0)].
      constructor; [rewrite (curry_len _ _ _ _ _ _ Ec LX LT); assumption | eapply curry_flat; eauto | assumption].
Qed.
Lemma flat_lams ids lams lb top n e' top' n' :
  lift_lams ids lams (fun xss tids => float_go ids lams xss tids lams xss tids) lb top n = Some (e', top', n') ->
  Forall (fun l => flat_ok (snd l)) lams ->
  (forall top n e' top' n', lb top n = Some (e', top', n') ->
     incl (map fst top) (map fst top') /\ forall L, incl (map fst top') L -> flat L e' /\ (flat_tops L top -> flat_tops L top')) ->
  incl (map fst top) (map fst top') /\ forall L, incl (map fst top') L -> flat L e' /\ (flat_tops L top -> flat_tops L top').
Proof.
  intros E H HB. unfold lift_lams in E. destruct (new_ids XTrue (length ids) n) as (tids & n1) eqn:Et. destruct (extra_vars ids lams) as [xss|] eqn:Ex; [|discriminate].
  destruct (float_go ids lams xss tids lams xss tids top n1) as [(top1 & n2)|] eqn:Ef; [|discriminate].
  destruct (curry_lams lams xss tids n2) as (cs & n3) eqn:Ec. destruct (lb top1 n3) as [((b' & top2) & n4)|] eqn:Eb; [|discriminate]. injection E as <- <- <-.
  destruct (new_ids_spec _ _ _ _ _ Et) as (_ & Lt & _). destruct (float_len _ _ _ _ _ _ _ _ _ _ Ef) as (Lx & Lt2).
  assert (LL : length ids = length lams) by congruence.
  destruct (flat_float ids lams xss tids Lx Lt2 LL lams H _ _ _ _ _ _ Ef) as (I1 & J1 & H1). destruct (HB _ _ _ _ _ Eb) as (I2 & H2).
  split; [eapply incl_tran; eauto|]. intros L I. destruct (H2 L I) as (A & B). assert (IT : incl tids L) by (eapply incl_tran; [exact J1 | eapply incl_tran; eauto]). split.
  - constructor; [rewrite (curry_len _ _ _ _ _ _ Ec Lx Lt2); assumption | eapply curry_flat; eauto | assumption].
  - intros F. apply B. apply H1; auto. eapply incl_tran; eauto.
Qed.
Definition flat_ok2 (e : exp) : Prop := flat_ok e /\ forall ids b, e = ELam ids b -> flat_ok b.
Lemma lift_flat e : flat_ok2 e.
Proof.
  induction e as [x|x e (IH & _)|a b c (IHa & _) (IHb & _) (IHc & _)|ef p l IH|f l (IHf & IHf2) IH|xs b (IH & _)|xs lams b IHl (IH & _)|x b IH|k e IHk IH] using exp_ind2;
    (split; [|try discriminate; intros ? ? [= <- <-]; assumption]); intros top n e' top' n' E.
  - cbn in E. injection E as <- <- <-. split; [apply incl_refl|]. intros L _. split; [constructor | auto].
  - cbn [lift] in E. destruct (global_id x) eqn:G; [|discriminate]. destruct (lift e top n) as [((e1 & top1) & n1)|] eqn:E1; [|discriminate]. injection E as <- <- <-.
    destruct (IH _ _ _ _ _ E1) as (I1 & H1). split; [assumption|]. intros L I. destruct (H1 L I). split; [now constructor | assumption].
  - cbn [lift] in E. destruct (lift a top n) as [((a1 & top1) & n1)|] eqn:E1; [|discriminate].
    destruct (lift b top1 n1) as [((b1 & top2) & n2)|] eqn:E2; [|discriminate]. destruct (lift c top2 n2) as [((c1 & top3) & n3)|] eqn:E3; [|discriminate]. injection E as <- <- <-.
    destruct (IHa _ _ _ _ _ E1) as (I1 & H1). destruct (IHb _ _ _ _ _ E2) as (I2 & H2). destruct (IHc _ _ _ _ _ E3) as (I3 & H3).
    assert (I12 : incl (map fst top1) (map fst top3)) by (eapply incl_tran; eauto).
    split; [eapply incl_tran; eauto|]. intros L I. destruct (H1 L) as (A1 & B1); [eapply incl_tran; eauto|]. destruct (H2 L) as (A2 & B2); [eapply incl_tran; eauto|]. destruct (H3 L I) as (A3 & B3).
    split; [now constructor | auto].
  - rewrite lift_prim in E. destruct (lift_list l top n) as [((l1 & top1) & n1)|] eqn:E1; [|discriminate]. injection E as <- <- <-.
    destruct (flat_list l (Forall_impl _ (fun e H => proj1 H) IH) _ _ _ _ _ E1) as (_ & I1 & H1). split; [assumption|]. intros L I. destruct (H1 L I). split; [now constructor | assumption].
  - rewrite lift_app in E. cbn zeta in E. pose proof (flat_list l (Forall_impl _ (fun e H => proj1 H) IH)) as HL.
    assert (Gen : match lift f top n with
      | Some (f', top1, n1) => match lift_list l top1 n1 with Some (l', top2, n2) => Some (EApp f' l', top2, n2) | None => None end
      | None => None
      end = Some (e', top', n') -> incl (map fst top) (map fst top') /\ forall L, incl (map fst top') L -> flat L e' /\ (flat_tops L top -> flat_tops L top')).
    { clear E. intros E. destruct (lift f top n) as [((f1 & top1) & n1)|] eqn:E1; [|discriminate]. destruct (lift_list l top1 n1) as [((l1 & top2) & n2)|] eqn:E2; [|discriminate]. injection E as <- <- <-.
      destruct (IHf _ _ _ _ _ E1) as (I1 & H1). destruct (HL _ _ _ _ _ E2) as (_ & I2 & H2).
      split; [eapply incl_tran; eauto|]. intros L I. destruct (H1 L) as (A1 & B1); [eapply incl_tran; eauto|]. destruct (H2 L I) as (A2 & B2). split; [now constructor | auto]. }
    destruct f as [ | | | | |ids b| | | ]; try (apply Gen, E). destruct (Nat.eqb (length ids) (length l)) eqn:Q; [|apply Gen, E]. clear Gen.
    destruct (lift_list l top n) as [((l1 & top1) & n1)|] eqn:E1; [|discriminate]. destruct (lift b top1 n1) as [((b1 & top2) & n2)|] eqn:E2; [|discriminate]. injection E as <- <- <-.
    destruct (HL _ _ _ _ _ E1) as (LL & I1 & H1). destruct (IHf2 ids b eq_refl _ _ _ _ _ E2) as (I2 & H2). apply Nat.eqb_eq in Q.
    split; [eapply incl_tran; eauto|]. intros L I. destruct (H1 L) as (A1 & B1); [eapply incl_tran; eauto|]. destruct (H2 L I) as (A2 & B2). split; [apply fl_let; congruence || assumption | auto].
  - rewrite lift_lam in E. cbn [fresh] in E. eapply flat_lams; [exact E | constructor; [exact IH | constructor]|].
    intros top0 n0 e0 top1 n1 E0. injection E0 as <- <- <-. split; [apply incl_refl|]. intros L _. split; [constructor | auto].
  - rewrite lift_fix in E. eapply flat_lams; [exact E | eapply Forall_impl; [|exact IHl]; intros l X; apply X | exact IH].
  - discriminate.
  - discriminate.
Qed.

(** ** The pass succeeds *)
Lemma lift_list_total l : Forall (fun e => forall top n, exists r, lift e top n = Some r) l -> forall top n, exists r, lift_list l top n = Some r.
Proof.
  induction 1 as [|e l He Hl IH]; intros top n; cbn [lift_list]; [eauto|]. destruct (He top n) as (((e' & top1) & n1) & ->). destruct (IH top1 n1) as (((l' & top2) & n2) & ->). eauto.
Qed.
Lemma float_total ids lams xss tids ls : Forall (fun l => forall top n, exists r, lift (snd l) top n = Some r) ls -> forall xs ts top n,
  length xs = length ls -> length ts = length ls -> exists r, float_go ids lams xss tids ls xs ts top n = Some r.
Proof.
  induction 1 as [|(ps & e) ls He Hl IH]; intros [|xv xs] [|t ts] top n L1 L2; cbn in L1, L2; try discriminate; cbn [float_go]; [eauto|].
  unfold float_lam. destruct (curry_lams lams xss tids n) as (cs & n0). destruct (He top n0) as (((e' & top1) & n1) & E). cbn [snd] in E. rewrite E. apply IH; lia.
Qed.
Lemma lams_total ids lams lb top n : length ids = length lams ->
  Forall (fun l => forall top n, exists r, lift (snd l) top n = Some r) lams -> (forall top n, exists r, lb top n = Some r) ->
  exists r, lift_lams ids lams (fun xss tids => float_go ids lams xss tids lams xss tids) lb top n = Some r.
Proof.
  intros LL H HB. unfold lift_lams. destruct (new_ids XTrue (length ids) n) as (tids & n1) eqn:Et. destruct (new_ids_spec _ _ _ _ _ Et) as (_ & Lt & _).
  destruct (extra_vars_some ids lams (eq_sym LL)) as (xss & -> & LX).
  destruct (float_total ids lams xss tids lams H xss tids top n1) as ((top1 & n2) & ->); [congruence | congruence|].
  destruct (curry_lams lams xss tids n2) as (cs & n3). destruct (HB top1 n3) as (((b' & top2) & n4) & ->). eauto.
Qed.
Lemma fold_In {A} (Q : A -> Prop) l : fold_right (fun e p => Q e /\ p) True l -> forall e, In e l -> Q e.
Proof. induction l; cbn; [easy|]. intros (X & Y) e [->|I]; auto. Qed.
Definition total (e : exp) : Prop := direct e -> no_local_set e -> forall top n, exists r, lift e top n = Some r.
Lemma lift_total e : total e /\ forall ids b, e = ELam ids b -> total b.
Proof.
  induction e as [x|x e (IH & _)|a b c (IHa & _) (IHb & _) (IHc & _)|ef p l IH|f l (IHf & IHf2) IH|xs b (IH & _)|xs lams b IHl (IH & _)|x b IH|k e IHk IH] using exp_ind2;
    (split; [|try discriminate; intros ? ? [= <- <-]; assumption]); intros D S top n.
  - cbn. eauto.
  - cbn [lift]. destruct S as (-> & S). destruct (IH D S top n) as (((e' & top1) & n1) & ->). eauto.
  - cbn [lift]. destruct D as (D1 & D2 & D3), S as (S1 & S2 & S3).
    destruct (IHa D1 S1 top n) as (((a' & top1) & n1) & ->).
    destruct (IHb D2 S2 top1 n1) as (((b' & top2) & n2) & ->).
    destruct (IHc D3 S3 top2 n2) as (((c' & top3) & n3) & ->). eauto.
  - rewrite lift_prim. cbn in D, S. destruct (lift_list_total l) with (top := top) (n := n) as (((l' & top1) & n1) & ->); [|eauto].
    rewrite Forall_forall in *. intros e I. apply (proj1 (IH e I)); [eapply (fold_In direct) | eapply (fold_In no_local_set)]; eauto.
  - rewrite lift_app. cbn zeta. cbn in D, S. destruct D as (D1 & D2), S as (S1 & S2).
    assert (HL : forall top n, exists r, lift_list l top n = Some r).
    { apply lift_list_total. rewrite Forall_forall in *. intros e I. apply (proj1 (IH e I)); [eapply (fold_In direct) | eapply (fold_In no_local_set)]; eauto. }
    assert (Gen : exists r, match lift f top n with
      | Some (f', top1, n1) => match lift_list l top1 n1 with Some (l', top2, n2) => Some (EApp f' l', top2, n2) | None => None end
      | None => None
      end = Some r).
    { destruct (IHf D1 S1 top n) as (((f' & top1) & n1) & ->). destruct (HL top1 n1) as (((l' & top2) & n2) & ->). eauto. }
    destruct f as [ | | | | |ids b| | | ]; try exact Gen. destruct (Nat.eqb (length ids) (length l)); [|exact Gen].
    destruct (HL top n) as (((l' & top1) & n1) & ->). destruct (IHf2 ids b eq_refl D1 S1 top1 n1) as (((b' & top2) & n2) & ->). eauto.
  - rewrite lift_lam. destruct (fresh XNone n) as (l & n0) eqn:Ef. apply lams_total.
    + reflexivity.
    + constructor; [|constructor]. exact (IH D S).
    + eauto.
  - rewrite lift_fix. destruct D as (LL & D1 & D2), S as (S1 & S2). apply lams_total.
    + assumption.
    + rewrite Forall_forall in *. intros (ps & b0) I. apply (proj1 (IHl _ I)); [eapply (fold_In (fun l => direct (snd l))) in I; [exact I | assumption] | eapply (fold_In (fun l => no_local_set (snd l))) in I; [exact I | assumption]].
    + now apply IH.
  - destruct D.
  - destruct D.
Qed.

(** ** The whole pass *)
Section Whole.
Variables (P : prim -> script) (e b : exp) (top : tops) (n n' : Z).
Hypothesis n_pos : 0 <= n.
Hypothesis D : distinct n e.
Hypothesis CL : closed e.
Hypothesis E : lift e [] n = Some (b, top, n').
Lemma whole_wf : wf n e.
Proof. destruct D as (A & B). split; [assumption|split; [assumption|]]. intros x F G. rewrite (CL x F) in G. discriminate. Qed.
Lemma whole_lifted : lifted n e [] n b top n'.
Proof. apply (lift_sound n n_pos e [] n b top n' E whole_wf). lia. Qed.
Inductive RW : nat -> state -> state -> Prop :=
| rw_start g i : RW 1 (start e g i) (start (EFix (map fst top) (map snd top) b) g i)
| rw_on k s t : RL n top k s t -> RW k s t.
Lemma next_RW k s t : next P MDirect (RL n top) k s t -> next P MDirect RW k s t.
Proof. intros [W|(k' & s' & X & Y)]; [now left | right]. exists k', s'. split; [now constructor | assumption]. Qed.
Lemma RW_good k s t : RW k s t -> good P MDirect MDirect RW k s t.
Proof.
  destruct whole_lifted as (Ln & new & Et & (F1 & F2) & C & U & L). rewrite app_nil_r in Et. subst new.
  intros [g i|k0 s0 t0 X].
  - right; right. split; [eexists; apply step_evf; reflexivity|]. intros t' S. apply step_evf in S. cbn in S. injection S as <-. apply inev_now. right. exists 0%nat, (start e g i).
    split; [|right; split; [constructor | lia]]. constructor. constructor; [apply L, incl_refl| |constructor|].
    + split; [intros t0 _; reflexivity|]. intros x F G. rewrite (CL x F) in G. discriminate.
    + split; [constructor|split; [intros x; constructor|split; reflexivity]].
  - apply RL_good with (P := P) in X; [|intros tt0 I; apply F2 in I; split; [lia | apply I] | assumption | assumption].
    destruct X as [W|[X|(Y & X)]]; [now left | right; now left | right; right]. split; [assumption|]. intros t' S. eapply inev_impl; [|apply (X t' S)]. intros u. apply next_RW.
Qed.
Lemma RW_out k s t : RW k s t -> out (mem s) = out (mem t).
Proof. intros [g i|k0 s0 t0 X]; [reflexivity | eapply RL_out; eauto]. Qed.
Lemma lift_refines : refines P MDirect MDirect e (EFix (map fst top) (map snd top) b).
Proof. intros g i. eapply simulation with (R := RW) (n := 1%nat); [apply RW_out | apply RW_good | constructor]. Qed.
End Whole.
Theorem lambda_lift_refines P e n e' n' : 0 <= n -> distinct n e -> closed e -> lambda_lift e n = Some (e', n') -> refines P MDirect MDirect e e'.
Proof.
  intros L D C E. unfold lambda_lift in E. destruct (lift e [] n) as [((b & top) & n1)|] eqn:El; [|discriminate]. injection E as <- <-.
  eapply lift_refines; eauto.
Qed.
Theorem lambda_lift_closed e n ls lams b n' : 0 <= n -> distinct n e -> closed e -> lambda_lift e n = Some (EFix ls lams b, n') ->
  NoDup ls /\ length ls = length lams /\ (forall t, In t ls -> label_id t = true) /\
  (forall ps c x, In (ps, c) lams -> used_in x (ELam ps c) -> global_id x = true \/ In x ls) /\
  (forall x, used_in x b -> global_id x = true \/ In x ls).
Proof.
  intros L D C E. unfold lambda_lift in E. destruct (lift e [] n) as [((b' & top) & n1)|] eqn:El; [|discriminate]. injection E as <- <- <- <-.
  destruct (whole_lifted e b' top n n1 L D C El) as (Ln & new & Et & (F1 & F2) & CT & U & _). rewrite app_nil_r in Et. subst new.
  split; [assumption|split; [now rewrite !map_length|split; [|split]]].
  - intros t I. apply F2 in I. unfold label_id. destruct t as [z x]. cbn in I. destruct I as (I & ->). unfold global_id. cbn [ts xt]. rewrite (proj2 (Z.ltb_ge z 0)); [reflexivity | lia].
  - intros ps c x I. apply in_map_iff in I. destruct I as ((t & l) & Q & I). cbn in Q. subst l. now apply CT with t.
  - intros x Ux. apply U in Ux. destruct Ux as [F|I]; [left; now apply C | now right].
Qed.
Theorem lambda_lift_flat e n ls lams b n' : lambda_lift e n = Some (EFix ls lams b, n') -> flat ls b /\ forall ps c, In (ps, c) lams -> flat ls c.
Proof.
  intros E. unfold lambda_lift in E. destruct (lift e [] n) as [((b' & top) & n1)|] eqn:El; [|discriminate]. injection E as <- <- <- <-.
  destruct (proj1 (lift_flat e) _ _ _ _ _ El) as (_ & H). destruct (H _ (incl_refl _)) as (A & B). split; [assumption|].
  intros ps c I. apply in_map_iff in I. destruct I as ((t & l) & Q & I). cbn in Q. subst l. eapply B; [|exact I]. intros t0 ps0 b0 [].
Qed.
Theorem lambda_lift_total e n : direct e -> no_local_set e -> exists ls lams b n', lambda_lift e n = Some (EFix ls lams b, n').
Proof.
  intros D S. unfold lambda_lift. destruct (proj1 (lift_total e) D S [] n) as (((b & top) & n') & ->). eauto.
Qed.
