(** Which dotted lists are accepted, and what they read as. *)
From Coq Require Import ZArith String List Bool Lia.
From Verif Require Import Base Model_Sym Model_Lit Model_Read Spec_Read Proofs_Sym Proofs_ReadTerm Proofs_ReadLex Proofs_ReadGap.
Import ListNotations.
Open Scope Z_scope.

Lemma token_fun a d d' : token a d -> token a d' -> d = d'.
Proof. intros (_ & H & _) (_ & H' & _). unfold reads_as in *. congruence. Qed.
Lemma means_fun : forall t d, means t d -> forall d', means t d' -> d = d'.
Proof.
  fix F 3. intros t d M d' M'. destruct M as [a d T|t d M|t d M|t d M| |t l d e M1 M2|t u d e M1 M2|t l u d e M1 M2|l ds V]; inversion M'; subst.
  - eauto using token_fun.
  - f_equal. f_equal. f_equal. eauto.
  - f_equal. f_equal. f_equal. eauto.
  - f_equal. f_equal. eauto.
  - reflexivity.
  - f_equal. f_equal; [eauto|]. f_equal. eauto.
  - f_equal. f_equal; [eauto|]. f_equal. eauto.
  - match goal with H : means (TDot [] _) _ |- _ => inversion H end.
  - inversion M2.
  - f_equal. f_equal; [eauto|]. f_equal. eauto.
  - f_equal. match goal with |- ds = ?x => rename x into es end. assert (W : Forall2 means l es) by assumption. clear - F V W. revert l ds V es W. fix G 3. intros l ds V es W.
    destruct V as [|t d l ds Vt Vl]; inversion W as [|t' e l' es' H1 H2 E1 E2]; subst; [reflexivity|]. f_equal; [exact (F t d Vt e H1)|exact (G l ds Vl es' H2)].
Qed.

Lemma outcome_shape c k tc dotted : forall os limit, outcome c k tc dotted false os limit = RErr \/ exists v, outcome c k tc dotted false os limit = ROk (v, k).
Proof.
  induction os as [|[d|] os IH]; intros limit; cbn [outcome].
  - destruct (c =? tc); [|auto]. destruct limit as [l|]; [destruct (l =? 0)|]; eauto.
  - unfold joined. destruct (IH (dec limit)) as [->|[v ->]]; cbn [Model_Read.rbind fst snd]; eauto.
  - destruct dotted; [apply IH|auto].
Qed.
Lemma outcome_mismatch c k tc dotted vec : c <> tc -> forall os limit, outcome c k tc dotted vec os limit = RErr.
Proof.
  intros N. induction os as [|[d|] os IH]; intros limit; cbn [outcome].
  - destruct (Z.eqb_spec c tc); [contradiction|reflexivity].
  - unfold joined. now rewrite IH.
  - destruct dotted; [apply IH|reflexivity].
Qed.
Lemma outcome_nodot c k tc vec : forall os limit, In None os -> outcome c k tc false vec os limit = RErr.
Proof.
  induction os as [|[d|] os IH]; intros limit I; cbn [outcome]; [contradiction| |reflexivity].
  unfold joined. rewrite IH; [reflexivity|]. destruct I as [I|I]; [discriminate I|exact I].
Qed.
Lemma outcome_accept c k : forall os limit, (exists v, outcome c k c true false os limit = ROk v) <->
  (exists pre e, os = pre ++ [None; Some e]) \/ (~ In None os /\ (limit = None \/ limit = Some (Z.of_nat (List.length os)))).
Proof.
  induction os as [|[d|] os IH]; intros limit; cbn [outcome].
  - rewrite Z.eqb_refl. cbn [List.length In]. split.
    + intros [v E]. right. split; [tauto|]. destruct limit as [l|]; [|auto]. destruct (Z.eqb_spec l 0) as [->|]; [auto|discriminate E].
    + intros [(pre & e & E)|[_ [->|E]]]; [destruct pre; discriminate E|eauto|]. rewrite E. cbn. eauto.
  - assert (J : (exists v, joined false limit d (outcome c k c true false os (dec limit)) = ROk v) <-> (exists v, outcome c k c true false os (dec limit) = ROk v)).
    { unfold joined. split; [intros [v E]|intros [v E]].
      - destruct (outcome c k c true false os (dec limit)); try discriminate E. eauto.
      - rewrite E. cbn [Model_Read.rbind]. eauto. }
    rewrite J, IH. cbn [List.length In]. split.
    + intros [(pre & e & ->)|[N L]]; [left; exists (Some d :: pre), e; reflexivity|]. right. split; [intros [X|X]; [discriminate X|auto]|].
      destruct limit as [l|]; [|auto]. right. destruct L as [L|L]; [discriminate L|]. cbn [dec option_map] in L. injection L as L. f_equal. lia.
    + intros [(pre & e & E)|[N L]].
      * left. destruct pre as [|x pre]; [discriminate E|]. injection E as _ E. eauto.
      * right. split; [auto|]. destruct L as [->|L]; [auto|]. rewrite L. right. cbn [dec option_map]. f_equal. lia.
  - rewrite IH. cbn [List.length In]. split.
    + intros [(pre & e & ->)|[N [L|L]]]; [left; exists (None :: pre), e; reflexivity|discriminate L|].
      left. injection L as L. destruct os as [|o [|? ?]]; cbn [List.length] in L; try lia. destruct o as [e|]; [|exfalso; apply N; now left]. exists [], e. reflexivity.
    + intros [(pre & e & E)|[N _]]; [|exfalso; apply N; now left]. destruct pre as [|x pre].
      * injection E as ->. right. split; [intros [X|[]]; discriminate X|]. right. reflexivity.
      * injection E as -> ->. left. eauto.
Qed.
Lemma outcome_dots_value c k e more : forall m, (exists v, outcome c k c true false (repeat None m ++ Some e :: more) (Some 1) = ROk v) ->
  outcome c k c true false (repeat None m ++ Some e :: more) (Some 1) = ROk (e, k).
Proof.
  induction m as [|m IH]; cbn [repeat app outcome]; [|exact IH]. cbn [dec option_map]. intros [v E]. unfold joined in *.
  destruct (outcome_shape c k c true more (Some (1 - 1))) as [X|[w X]]; rewrite X in *; [discriminate E|]. cbn [Model_Read.rbind fst snd] in *. reflexivity.
Qed.
Lemma outcome_value c k e m more : forall ds, (exists v, outcome c k c true false (map Some ds ++ None :: repeat None m ++ Some e :: more) None = ROk v) ->
  outcome c k c true false (map Some ds ++ None :: repeat None m ++ Some e :: more) None = ROk (pairs ds e, k).
Proof.
  induction ds as [|d ds IH]; cbn [map app outcome pairs]; [apply outcome_dots_value|]. cbn [dec option_map]. intros [v E].
  assert (X : exists v, outcome c k c true false (map Some ds ++ None :: repeat None m ++ Some e :: more) None = ROk v).
  { unfold joined in E. destruct (outcome c k c true false (map Some ds ++ None :: repeat None m ++ Some e :: more) None) eqn:Q; try discriminate E. eauto. }
  rewrite (IH X). reflexivity.
Qed.

Lemma fits_dots : forall l os, Forall2 fits_item l os -> (one_after_last_dot l <-> (exists pre e, os = pre ++ [None; Some e]) \/ ~ In None os).
Proof.
  intros l os F.
  assert (A : In IDot l <-> In None os).
  { induction F as [|it o l os H _ IH]; [tauto|]. cbn [In]. rewrite IH. destruct it, o; cbn in H; try contradiction; split; intros [X|X]; auto; discriminate X. }
  assert (B : (exists pre t, l = pre ++ [IDot; IDat t]) <-> (exists pre e, os = pre ++ [None; Some e])).
  { split.
    - intros (pre & t & ->). apply Forall2_app_inv_l in F. destruct F as (o1 & o2 & _ & F2 & ->). inversion F2 as [|a b c d X1 X2 X3 X4]; subst.
      inversion X2 as [|a' b' c1 d1 Y1 Y2 Y3 Y4]; subst. inversion Y2; subst. destruct b; [contradiction X1|]. destruct b' as [e|]; [|contradiction Y1]. eauto.
    - intros (pre & e & ->). apply Forall2_app_inv_r in F. destruct F as (o1 & o2 & _ & F2 & ->). inversion F2 as [|a b c d X1 X2 X3 X4]; subst.
      inversion X2 as [|a' b' c1 d1 Y1 Y2 Y3 Y4]; subst. inversion Y2; subst. destruct a; [contradiction X1|]. destruct a' as [t|]; [|contradiction Y1]. eauto. }
  unfold one_after_last_dot. rewrite A, B. tauto.
Qed.

Section Main.
Variable r : list ext.
Hypothesis R : Forall aside r.
Lemma top_err i : rdR r i RErr -> returns r i RErr.
Proof. intros [N [n E]]. apply top_returns. split; [discriminate|]. exists (S n). cbn [subread_top]. now rewrite E. Qed.
Lemma seq_accept op c l i k : brackets op c -> seq l c i k ->
  (one_after_last_dot l -> exists d, returns r (op :: i) (ROk (d, k, r))) /\ (~ one_after_last_dot l -> returns r (op :: i) RErr).
Proof.
  intros B S. destruct (proj2 (proj2 (spaced r R)) l c i k S) as (I & os & F & T). pose proof (rd_open r R op c i os c k B T) as Q.
  pose proof (fits_dots l os F) as X. pose proof (outcome_accept c k os None) as Y.
  assert (Ord : forall v, outcome c k c true false os None = ROk v -> ordinary (fst v)).
  { assert (G : forall limit v, outcome c k c true false os limit = ROk v -> ordinary (fst v)).
    { clear - F. induction F as [|it o l os H F IH]; intros limit v; cbn [outcome].
      - rewrite Z.eqb_refl. destruct limit as [z|]; [destruct (z =? 0)|]; try discriminate; intros E; injection E as <-; cbn [fst knil]; ordi.
      - destruct it as [t|], o as [d|]; cbn in H; try contradiction; [|apply IH]. unfold joined.
        destruct (outcome c k c true false os (dec limit)); cbn [Model_Read.rbind]; try discriminate. intros E. injection E as <-. cbn [fst snd].
        destruct limit as [z|]; [destruct (z =? 1); [apply H|]|]; unfold kons; ordi. }
    apply G. }
  destruct (outcome_shape c k c true os None) as [E|[v E]]; rewrite E in Q.
  - split.
    + intros O. exfalso. apply X in O. assert (Z : exists v, outcome c k c true false os None = ROk v) by (apply Y; tauto). destruct Z as [v Z]. congruence.
    + intros _. exact (top_err _ Q).
  - split.
    + intros _. destruct (rd_gives r (op :: i) v k Q (Ord _ E)) as (_ & H & _). exists v. now apply top_returns.
    + intros N. exfalso. apply N, X. assert (Z : exists v, outcome c k c true false os None = ROk v) by eauto. apply Y in Z. tauto.
Qed.
Lemma seq_mismatch op c c' l i k : brackets op c' -> c <> c' -> seq l c i k -> returns r (op :: i) RErr.
Proof.
  intros B N S. destruct (proj2 (proj2 (spaced r R)) l c i k S) as (I & os & F & T). pose proof (rd_open r R op c' i os c k B T) as Q.
  rewrite outcome_mismatch in Q by exact N. exact (top_err _ Q).
Qed.
Lemma seq_vector_dot l c i k : In IDot l -> seq l c i k -> returns r (35 :: 40 :: i) RErr.
Proof.
  intros D S. destruct (proj2 (proj2 (spaced r R)) l c i k S) as (I & os & F & T).
  assert (A : In None os).
  { clear - F D. induction F as [|it o l os H F IH]; [contradiction|]. destruct D as [->|D]; [|right; auto]. destruct o; [contradiction H|now left]. }
  destruct (T 41 false true None ltac:(cbn [In]; lia)) as [_ [n E]]. rewrite outcome_nodot in E by exact A.
  apply top_returns. split; [discriminate|]. exists (Datatypes.S (Datatypes.S n)). cbn [subread_top]. cbn [rd]. rewrite aside_none; [|exact R|cbn [away hd]; lia]. replace (lex (35 :: 40 :: i)) with (LVector i) by (now destruct i).
  rewrite E. reflexivity.
Qed.
Lemma seq_value op c ts m t more i k d : brackets op c ->
  seq (map IDat ts ++ IDot :: repeat IDot m ++ IDat t :: more) c i k -> returns r (op :: i) (ROk (d, k, r)) ->
  exists ds e, Forall2 means ts ds /\ means t e /\ d = pairs ds e.
Proof.
  intros B S E0. destruct (proj2 (proj2 (spaced r R)) _ c i k S) as (I & os & F & T). pose proof (rd_open r R op c i os c k B T) as Q.
  apply Forall2_app_inv_l in F. destruct F as (o1 & o2 & F1 & F2 & ->). destruct (items_data ts o1 F1) as (ds & -> & G).
  inversion F2 as [|a b c0 d0 X1 X2 X3 X4]; subst. destruct b; [contradiction X1|]. apply Forall2_app_inv_l in X2. destruct X2 as (o3 & o4 & F3 & F4 & ->).
  assert (E3 : o3 = repeat None m).
  { clear - F3. revert o3 F3. induction m as [|m IH]; intros o3 F3; cbn [repeat] in *; inversion F3; subst; [reflexivity|]. destruct y; [contradiction|]. f_equal. now apply IH. }
  subst o3. inversion F4 as [|a' b' c1 d1 Y1 Y2 Y3 Y4]; subst. destruct b' as [e|]; [|contradiction Y1]. destruct Y1 as [Y1 O1].
  exists ds, e. split; [clear - G; induction G as [|x y l l' [H _] _ IH]; constructor; auto|]. split; [exact Y1|].
  remember (outcome c k c true false (map Some ds ++ None :: repeat None m ++ Some e :: d1) None) as v eqn:Ev.
  destruct (outcome_shape c k c true (map Some ds ++ None :: repeat None m ++ Some e :: d1) None) as [X|[w X]].
  - exfalso. rewrite Ev, X in Q. pose proof (returns_fun r _ _ _ E0 (top_err _ Q)) as Z. discriminate Z.
  - rewrite Ev, (outcome_value c k e m d1 ds ltac:(eauto)) in Q. destruct (rd_gives r (op :: i) _ k Q (pairs_ord' ds e O1)) as (_ & H & _).
    pose proof (returns_fun r _ _ _ E0 (top_returns r _ _ H)) as Z. now injection Z.
Qed.
End Main.
