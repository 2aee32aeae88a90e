From Coq Require Import ZArith List Bool Lia.
From Verif Require Import Model_Promise Spec_Promise.
Import ListNotations.
Open Scope Z_scope.

Lemma first_app p l l' : first_return p (l ++ l') = match first_return p l with Some v => Some v | None => first_return p l' end.
Proof. induction l as [|[q|q x] l IH]; cbn [app first_return]; auto. destruct (q =? p); auto. Qed.
Definition agrees (s : cells) (past : list event) : Prop :=
  forall p, ready (s p) = (match first_return p past with Some _ => true | None => false end) /\
    forall v, first_return p past = Some v -> result (s p) = v.
Lemma step_ok s past e : agrees s past -> snd (step s e) = expected past e /\ agrees (fst (step s e)) (past ++ [e]).
Proof.
  intros A. destruct e as [p|p x]; cbn [step expected].
  - destruct (A p) as [R V]. rewrite R. destruct (first_return p past) as [v|] eqn:E; cbn [fst snd]; (split; [try rewrite (V v eq_refl); reflexivity|]);
      intros q; rewrite first_app; cbn [first_return]; destruct (A q) as [Rq Vq]; destruct (first_return q past); auto.
  - destruct (A p) as [R V]. rewrite R. destruct (first_return p past) as [v|] eqn:E; cbn [fst snd].
    + split; [now rewrite (V v eq_refl)|]. intros q. rewrite first_app. cbn [first_return]. destruct (A q) as [Rq Vq].
      destruct (first_return q past) eqn:Eq; [auto|]. destruct (Z.eqb_spec p q) as [->|]; [congruence|auto].
    + split; [unfold set_cell; rewrite !Z.eqb_refl; reflexivity|]. intros q. rewrite first_app. cbn [first_return]. unfold set_cell.
      destruct (Z.eqb_spec q p) as [->|D].
      * rewrite Z.eqb_refl, E. cbn [ready result]. split; [reflexivity|]. intros v H. now injection H.
      * destruct (A q) as [Rq Vq]. destruct (first_return q past); [auto|]. destruct (Z.eqb_spec p q); [congruence|auto].
Qed.
Lemma run_ok l : forall s past, agrees s past -> forall i e, nth_error l i = Some e ->
  nth_error (snd (run s l)) i = Some (expected (past ++ firstn i l) e).
Proof.
  induction l as [|a l IH]; intros s past A [|i] e E; cbn [nth_error] in E; try discriminate; cbn [run firstn].
  - injection E as ->. destruct (step_ok s past e A) as [H _]. destruct (step s e) as [s1 o]. destruct (run s1 l). cbn [snd nth_error] in *. now rewrite app_nil_r, H.
  - destruct (step_ok s past a A) as [_ H]. destruct (step s a) as [s1 o]. cbn [fst] in H. specialize (IH s1 (past ++ [a]) H i e E).
    destruct (run s1 l). cbn [snd nth_error] in *. rewrite IH, <- app_assoc. reflexivity.
Qed.
Lemma promise_ok l i e : nth_error l i = Some e -> nth_error (snd (run fresh l)) i = Some (expected (firstn i l) e).
Proof. intros E. apply (run_ok l fresh []); [|exact E]. intros p. split; [reflexivity|discriminate]. Qed.

(** r7rs promises *)
Definition hok (h : heap) : Prop := 0 <= nboxes h /\ 0 <= npairs h /\ forall b, 0 <= b < nboxes h -> 0 <= unbox h b < npairs h.
Definition value_of (h : heap) (p : Z) : option Z :=
  if is_box h p then let c := pair h (unbox h p) in if fst c then Some (snd c) else None else None.
Lemma is_box_iff h p : is_box h p = true <-> 0 <= p < nboxes h.
Proof. unfold is_box. lia. Qed.
Lemma lstep_ok h e : hok h -> hok (fst (lstep h e)) /\ (forall p v, value_of h p = Some v -> value_of (fst (lstep h e)) p = Some v) /\
  (forall p v, snd (lstep h e) = LValue p v -> value_of (fst (lstep h e)) p = Some v) /\
  (forall p t, snd (lstep h e) = LRun p t -> value_of (fst (lstep h e)) p = None) /\
  (forall b, is_box h b = true -> is_box (fst (lstep h e)) b = true).
Proof.
  intros (N & M & B).
  assert (Al : forall d o, hok (fst (alloc h d o)) /\ (forall p v, value_of h p = Some v -> value_of (fst (alloc h d o)) p = Some v) /\
     (forall b, is_box h b = true -> is_box (fst (alloc h d o)) b = true)).
  { intros d o. unfold alloc, hok. cbn [fst nboxes npairs unbox]. split; [split; [lia|]; split; [lia|]; intros b Hb; unfold upd; destruct (Z.eqb_spec b (nboxes h)); [lia|specialize (B b); lia]|].
    split; [|intros b Hb; apply is_box_iff in Hb; apply is_box_iff; cbn [nboxes]; lia].
    intros p v. unfold value_of. destruct (is_box h p) eqn:E; [|discriminate]. apply is_box_iff in E.
    replace (is_box _ p) with true by (symmetry; apply is_box_iff; cbn [nboxes]; lia). cbn [unbox pair]. unfold upd.
    destruct (Z.eqb_spec p (nboxes h)); [lia|]. specialize (B p E). destruct (Z.eqb_spec (unbox h p) (npairs h)); [lia|]. auto. }
  assert (Lf : forall h p, is_box h p = true -> (forall q v, lforce h p = LValue q v -> value_of h q = Some v) /\ (forall q t, lforce h p = LRun q t -> value_of h q = None)).
  { intros h' p Hp. unfold lforce, value_of. destruct (fst (pair h' (unbox h' p))) eqn:E; split; intros q v H; try discriminate; injection H as <- <-; rewrite Hp, E; reflexivity. }
  destruct e as [v|t|p|p q]; cbn [lstep].
  - destruct (Al true v) as (A1 & A2 & A3). split; [exact A1|]. split; [exact A2|]. split; [discriminate|]. split; [discriminate|exact A3].
  - destruct (Al false t) as (A1 & A2 & A3). split; [exact A1|]. split; [exact A2|]. split; [discriminate|]. split; [discriminate|exact A3].
  - destruct (is_box h p) eqn:E; cbn [fst snd].
    + split; [exact (conj N (conj M B))|]. destruct (Lf h p E) as [L1 L2]. auto.
    + split; [exact (conj N (conj M B))|]. split; [auto|]. split; [discriminate|]. split; [discriminate|auto].
  - destruct (is_box h p) eqn:Ep; destruct (is_box h q) eqn:Eq; cbn [andb fst snd];
      try (split; [exact (conj N (conj M B))|]; split; [auto|]; split; [discriminate|]; split; [discriminate|auto]).
    unfold lreturn. cbn [fst snd]. set (h1 := if fst (pair h (unbox h p)) then h else _).
    assert (B1 : nboxes h1 = nboxes h /\ npairs h1 = npairs h) by (unfold h1; destruct (fst _); split; reflexivity). destruct B1 as [B1 B2].
    assert (Ib : forall b, is_box h1 b = is_box h b) by (intros b; unfold is_box; now rewrite B1).
    assert (K : hok h1).
    { unfold hok. rewrite B1, B2. split; [lia|]. split; [lia|]. intros b Hb. unfold h1. destruct (fst (pair h (unbox h p))); [now apply B|].
      cbn [set_box set_cdr set_car unbox]. unfold upd. apply is_box_iff in Ep. destruct (b =? q); [now apply B|now apply B]. }
    assert (Keep : forall b v, value_of h b = Some v -> value_of h1 b = Some v).
    { intros b v. unfold value_of. rewrite Ib. destruct (is_box h b); [|discriminate]. unfold h1. destruct (pair h (unbox h p)) as [d pay] eqn:Epc. cbn [fst].
      destruct d; [auto|]. destruct (pair h (unbox h b)) as [d2 pay2] eqn:Ebc. cbn [fst snd]. destruct d2; [|discriminate]. intros H. injection H as <-.
      unfold set_box, set_cdr, set_car. cbn [unbox pair nboxes npairs]. rewrite Epc. cbn [snd]. unfold upd. rewrite Z.eqb_refl. cbn [fst].
      destruct (Z.eqb_spec b q) as [->|Db].
      - rewrite Z.eqb_refl. cbn [fst snd]. rewrite Ebc. destruct (Z.eqb_spec (unbox h q) (unbox h p)) as [E|E].
        + rewrite E in Ebc. rewrite Ebc in Epc. discriminate.
        + try rewrite Ebc; reflexivity.
      - destruct (Z.eqb_spec (unbox h b) (unbox h p)) as [E|E]; [rewrite E in Ebc; rewrite Ebc in Epc; discriminate|]. rewrite Ebc. reflexivity. }
    split; [exact K|]. split; [exact Keep|]. rewrite <- Ib in Ep. destruct (Lf h1 p Ep) as [L1 L2]. split; [exact L1|]. split; [exact L2|]. intros b. now rewrite Ib.
Qed.
Lemma lrun_keep l : forall h, hok h -> hok (fst (lrun h l)) /\
  (forall p v, value_of h p = Some v -> value_of (fst (lrun h l)) p = Some v /\
     forall i o, nth_error (snd (lrun h l)) i = Some o -> concerns o p -> o = LValue p v) /\
  (forall i p v, nth_error (snd (lrun h l)) i = Some (LValue p v) -> value_of (fst (lrun h l)) p = Some v).
Proof.
  induction l as [|e l IH]; intros h H; cbn [lrun].
  - cbn [fst snd]. split; [exact H|]. split; [|intros [|i]; discriminate]. intros p v V. split; [exact V|]. intros [|i]; discriminate.
  - destruct (lstep_ok h e H) as (H1 & K & V1 & R1 & _). destruct (lstep h e) as [h1 o]. cbn [fst snd] in *. destruct (IH h1 H1) as (H2 & K2 & L2).
    destruct (lrun h1 l) as [h2 os]. cbn [fst snd] in *. split; [exact H2|]. split.
    + intros p v V. destruct (K2 p v (K p v V)) as [V2 O2]. split; [exact V2|]. intros [|i] o' Eo C; cbn [nth_error] in Eo; [|now apply (O2 i)].
      injection Eo as <-. destruct C as (t & [->| ->]).
      * specialize (R1 p t eq_refl). rewrite (K p v V) in R1. discriminate.
      * specialize (V1 p t eq_refl). rewrite (K p v V) in V1. congruence.
    + intros [|i] p v Eo; cbn [nth_error] in Eo; [|now apply (L2 i)]. injection Eo as ->. exact (proj1 (K2 p v (V1 p v eq_refl))).
Qed.
Lemma lpromise_once l i j p v o : nth_error (snd (lrun empty l)) i = Some (LValue p v) -> nth_error (snd (lrun empty l)) j = Some o ->
  (i < j)%nat -> concerns o p -> o = LValue p v.
Proof.
  assert (G : forall l h, hok h -> forall i j p v o, nth_error (snd (lrun h l)) i = Some (LValue p v) -> nth_error (snd (lrun h l)) j = Some o ->
    (i < j)%nat -> concerns o p -> o = LValue p v).
  { clear. induction l as [|e l IH]; intros h H i j p v o Ei Ej L C; cbn [lrun] in *; [destruct i; discriminate|].
    destruct (lstep_ok h e H) as (H1 & _ & V1 & _ & _). destruct (lstep h e) as [h1 o1]. cbn [fst snd] in *.
    destruct (lrun_keep l h1 H1) as (_ & K & _). specialize (IH h1 H1). destruct (lrun h1 l) as [h2 os]. cbn [fst snd] in *.
    destruct j as [|j]; [lia|]. cbn [nth_error] in Ej. destruct i as [|i]; cbn [nth_error] in Ei.
    - injection Ei as ->. destruct (K p v (V1 p v eq_refl)) as [_ O]. now apply (O j).
    - eapply IH; eauto. lia. }
  intros. eapply (G l empty); eauto. split; [cbn; lia|]. split; [cbn; lia|]. cbn. intros; lia.
Qed.
