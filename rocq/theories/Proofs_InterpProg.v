(** Programs in the interpreter: which forms are compiled, and what running them does. *)
From Coq Require Import ZArith NArith String List Bool Lia.
From Verif Require Import Model_Interp Spec_Interp Proofs_Interp Proofs_InterpRun.
Import ListNotations.

(** ** Forms that are compiled *)
Fixpoint dsize (d : datum) : nat := match d with DPair a b => S (dsize a + dsize b) | _ => 1%nat end.
Lemma cbind_ok {A B} (r : cres A) (f : A -> cres B) b : cbind r f = COk b -> exists a, r = COk a /\ f a = COk b.
Proof. destruct r; cbn; [eauto | discriminate | discriminate]. Qed.
Lemma shape_2 k rest : shape (DPair k rest) 2 = true -> exists a, rest = DPair a DNil.
Proof. destruct rest as [| | |a [| | |b d]]; try discriminate. eauto. Qed.
Lemma shape_3 k rest : shape (DPair k rest) 3 = true -> exists a b, rest = DPair a (DPair b DNil).
Proof. destruct rest as [| | |a [| | |b [| | |c d]]]; try discriminate. eauto. Qed.
Lemma frame_formals f l : parms_frame f = COk l -> exists r, formals f l r.
Proof.
  revert l. induction f as [x|k| |a _ d IH]; intros l H; cbn in H; try discriminate.
  - injection H as <-. exists true. constructor.
  - injection H as <-. exists false. constructor.
  - destruct a; try discriminate. apply cbind_ok in H. destruct H as (l' & E & H). injection H as <-. destruct (IH l' E) as (r & F). exists r. now constructor.
Qed.

Definition readable (d : datum) : Prop := forall cte vs c vs', comp cte d vs = COk (c, vs') -> exists e, reads true d e.
Lemma map_reads l : (forall d, (dsize d < dsize l)%nat -> readable d) -> forall cte vs cs vs', map_comp cte l vs = COk (cs, vs') -> exists es, reads_list true l es.
Proof.
  induction l as [x|k| |a _ d IH]; intros Hd cte vs cs vs' E; cbn in E; try discriminate; [exists []; constructor|].
  apply cbind_ok in E. destruct E as ((c, vs1) & E1 & E). apply cbind_ok in E. destruct E as ((cs1, vs2) & E2 & E).
  destruct (Hd a ltac:(cbn; lia) _ _ _ _ E1) as (e & R). destruct (IH ltac:(intros x Hx; apply Hd; cbn; lia) _ _ _ _ E2) as (es & Rs). exists (e :: es). now constructor.
Qed.
Lemma loop_reads l : (forall d, (dsize d < dsize l)%nat -> readable d) -> forall cte vs c vs', loop_comp cte l vs = COk (c, vs') -> exists e, reads_seq true l e.
Proof.
  induction l as [x|k| |a _ d IH]; intros Hd cte vs c vs' E; cbn in E; try discriminate.
  apply cbind_ok in E. destruct E as ((c1, vs1) & E1 & E). destruct (Hd a ltac:(cbn; lia) _ _ _ _ E1) as (e & R).
  assert (D : d = DNil \/ exists cs, loop_comp cte d vs1 = COk cs) by (destruct d; auto; right; apply cbind_ok in E; destruct E as (x & E & _); eauto).
  destruct D as [->|((c2, vs2) & E2)]; [exists e; now constructor|].
  destruct (IH ltac:(intros x Hx; apply Hd; cbn; lia) _ _ _ _ E2) as (e2 & R2). exists (ASeq e e2). now constructor.
Qed.
Lemma vals_reads b : (forall d, (dsize d < dsize b)%nat -> readable d) -> forall xs cte vs cs vs', bindings_vars b = COk xs -> vals_comp cte b vs = COk (cs, vs') -> exists es, reads_bindings true b xs es.
Proof.
  induction b as [x|k| |a _ d IH]; intros Hd xs cte vs cs vs' Bv E;
    try (cbn in Bv; injection Bv as <-; exists []; constructor; [exact Logic.I | auto]).
  cbn [bindings_vars] in Bv. destruct (shape a 2) eqn:Sh; [|discriminate]. destruct a as [| | |x a]; try discriminate. apply shape_2 in Sh. destruct Sh as (v & ->).
  destruct x as [x| | |]; try discriminate. apply cbind_ok in Bv. destruct Bv as (xs1 & Bv & Ex). injection Ex as <-.
  cbn in E. apply cbind_ok in E. destruct E as ((c, vs1) & E1 & E). apply cbind_ok in E. destruct E as ((cs1, vs2) & E2 & E).
  destruct (Hd v ltac:(cbn; lia) _ _ _ _ E1) as (e & R). destruct (IH ltac:(intros y Hy; apply Hd; cbn; lia) _ _ _ _ _ Bv E2) as (es & Rs).
  exists (e :: es). change (DPair (DPair (DSym x) (DPair v DNil)) d) with (DPair (dlist [DSym x; v] DNil) d). now constructor.
Qed.
Lemma app_reads lax f l ef es : not_keyword f -> reads lax f ef -> reads_list lax l es -> exists e, reads lax (DPair f l) e.
Proof.
  intros K R Rl. assert (D : (exists x, ef = AVar x /\ f <> DSym x) \/ forall x, ef = AVar x -> f = DSym x).
  { destruct ef; try (right; discriminate). destruct f as [y|y| |a b]; [right; inversion R; congruence | left; eexists; split; [reflexivity | discriminate] ..]. }
  destruct D as [(x & -> & Ne)|D]; [exists (AApp (AOnly x) es); now constructor | exists (AApp ef es); now constructor].
Qed.
Lemma comp_reads n : forall d, (dsize d < n)%nat -> readable d.
Proof.
  induction n as [|n IH]; [lia|]. intros d Hn cte vs c vs' E.
  destruct d as [x|k| |hd rest]; [eexists; constructor | eexists; now constructor.. |].
  assert (Sub : forall t, (dsize t <= dsize rest)%nat -> forall d, (dsize d < dsize t)%nat -> readable d) by (intros t Ht d Hd; apply IH; cbn in Hn; lia).
  assert (Ihd : readable hd) by (apply IH; cbn in Hn; lia).
  destruct hd as [k|k| |a b].
  - destruct (String.eqb_spec k "quote") as [->|N1]; [|destruct (String.eqb_spec k "set!") as [->|N2]; [|destruct (String.eqb_spec k "lambda") as [->|N3]; [|destruct (String.eqb_spec k "if") as [->|N4];
      [|destruct (String.eqb_spec k "letrec") as [->|N5]; [|destruct (String.eqb_spec k "begin") as [->|N6]; [|destruct (String.eqb_spec k "define") as [->|N7]]]]]]].
    + cbn -[shape] in E. destruct (shape _ 2) eqn:Sh; [|discriminate]. apply shape_2 in Sh. destruct Sh as (a & ->). exists (AConst a). apply (r_quote true a).
    + cbn -[shape] in E. destruct (shape _ 3) eqn:Sh; [|discriminate]. apply shape_3 in Sh. destruct Sh as (a & b & ->). destruct a as [x| | |]; try discriminate.
      apply cbind_ok in E. destruct E as ((c1, vs1) & E1 & _). destruct (IH b ltac:(cbn in Hn; lia) _ _ _ _ E1) as (e & R). exists (ASet x e). now apply (r_set true x b e).
    + cbn -[shape] in E. destruct (shape _ 3) eqn:Sh; [|discriminate]. apply shape_3 in Sh. destruct Sh as (a & b & ->).
      apply cbind_ok in E. destruct E as (f & Ef & E). apply cbind_ok in E. destruct E as ((c1, vs1) & E1 & _). destruct (IH b ltac:(cbn in Hn; lia) _ _ _ _ E1) as (e & R).
      destruct (frame_formals a f Ef) as (r & F). exists (ALam f r e). now apply (r_lam true a f r b e).
    + cbn -[shape_plus] in E. destruct (shape_plus _ 3) eqn:Sh; [|discriminate]. destruct rest as [| | |a [| | |b t]]; try discriminate.
      apply cbind_ok in E. destruct E as ((c1, vs1) & E1 & E). apply cbind_ok in E. destruct E as ((c2, vs2) & E2 & E).
      destruct (IH a ltac:(cbn in Hn; lia) _ _ _ _ E1) as (ea & Ra). destruct (IH b ltac:(cbn in Hn; lia) _ _ _ _ E2) as (eb & Rb).
      destruct t as [x|x| |d t].
      * exists (AWhen ea eb). apply (r_when true a b (DSym x)); cbn; auto.
      * exists (AWhen ea eb). apply (r_when true a b (DLit x)); cbn; auto.
      * exists (AWhen ea eb). apply (r_when true a b DNil); cbn; auto.
      * apply cbind_ok in E. destruct E as ((c3, vs3) & E3 & _). destruct (IH d ltac:(cbn in Hn; lia) _ _ _ _ E3) as (ed & Rd). exists (AIf ea eb ed). apply (r_if true a b d t); auto.
    + destruct (shape (DPair (DSym "letrec") rest) 3) eqn:Sh; [|cbn -[shape] in E; now rewrite Sh in E]. apply shape_3 in Sh. destruct Sh as (bs & d & ->).
      change (comp cte (dlist [DSym "letrec"; bs; d] DNil) vs = COk (c, vs')) in E. rewrite comp_letrec in E. apply cbind_ok in E. destruct E as (xs & Bv & E).
      apply cbind_ok in E. destruct E as ((cs, vs1) & E1 & E). apply cbind_ok in E. destruct E as ((c2, vs2) & E2 & _).
      destruct (vals_reads bs (Sub bs ltac:(cbn; lia)) xs _ _ _ _ Bv E1) as (es & Rs). destruct (IH d ltac:(cbn in Hn; lia) _ _ _ _ E2) as (e & R).
      exists (ALetrec xs es e). now apply (r_letrec true bs xs es d e).
    + destruct rest as [| | |a t]; try discriminate. rewrite comp_begin in E by eauto. destruct (loop_reads (DPair a t) (Sub (DPair a t) (le_n _)) _ _ _ _ E) as (e & R). exists e. now constructor.
    + cbn -[shape] in E. destruct (shape _ 3) eqn:Sh; [|discriminate]. apply shape_3 in Sh. destruct Sh as (a & b & ->). destruct a as [x| | |]; try discriminate.
      apply cbind_ok in E. destruct E as ((c1, vs1) & E1 & _). destruct (IH b ltac:(cbn in Hn; lia) _ _ _ _ E1) as (e & R). eexists. apply (r_define true x b e R).
    + assert (K : ~ keyword k) by (unfold keyword; cbn; intuition congruence).
      assert (M : exists cs vs1 vs2, map_comp cte rest vs1 = COk (cs, vs2)).
      { destruct (lookup cte k) eqn:L.
        - rewrite comp_app_other in E; [|exact K | intros x [= <-]; congruence]. apply cbind_ok in E. destruct E as ((f, vs1) & _ & E). apply cbind_ok in E. destruct E as ((cs, vs2) & E & _). eauto.
        - rewrite comp_app_glo in E by auto. apply cbind_ok in E. destruct E as ((cs, vs2) & E & _). eauto. }
      destruct M as (cs & vs1 & vs2 & M). destruct (map_reads rest (Sub rest ltac:(lia)) _ _ _ _ M) as (es & Rs). apply (app_reads true (DSym k) rest (AVar k) es K); [constructor | exact Rs].
  - rewrite comp_app_other in E; [|exact Logic.I | discriminate]. apply cbind_ok in E. destruct E as ((f, vs1) & E1 & E). apply cbind_ok in E. destruct E as ((cs, vs2) & E2 & _).
    destruct (Ihd _ _ _ _ E1) as (e & R). destruct (map_reads rest (Sub rest ltac:(lia)) _ _ _ _ E2) as (es & Rs). now apply (app_reads true (DLit k) rest e es Logic.I).
  - rewrite comp_app_other in E; [|exact Logic.I | discriminate]. apply cbind_ok in E. destruct E as ((f, vs1) & E1 & E). apply cbind_ok in E. destruct E as ((cs, vs2) & E2 & _).
    destruct (Ihd _ _ _ _ E1) as (e & R). destruct (map_reads rest (Sub rest ltac:(lia)) _ _ _ _ E2) as (es & Rs). now apply (app_reads true DNil rest e es Logic.I).
  - rewrite comp_app_other in E; [|exact Logic.I | discriminate]. apply cbind_ok in E. destruct E as ((f, vs1) & E1 & E). apply cbind_ok in E. destruct E as ((cs, vs2) & E2 & _).
    destruct (Ihd _ _ _ _ E1) as (e & R). destruct (map_reads rest (Sub rest ltac:(lia)) _ _ _ _ E2) as (es & Rs). now apply (app_reads true (DPair a b) rest e es Logic.I).
Qed.
Lemma compiled_forms cte d vs : (exists c vs', comp cte d vs = COk (c, vs')) <-> exists e, reads true d e.
Proof.
  split.
  - intros (c & vs' & E). exact (comp_reads (S (dsize d)) d ltac:(lia) cte vs c vs' E).
  - intros (e & R). destruct (proj1 (reads_compile true) d e R cte vs) as (c & vs' & E & _). eauto.
Qed.
Lemma strict_lax lax :
  (forall d e, reads lax d e -> reads true d e) /\ (forall d es, reads_list lax d es -> reads_list true d es) /\
  (forall d e, reads_seq lax d e -> reads_seq true d e) /\ (forall d xs es, reads_bindings lax d xs es -> reads_bindings true d xs es).
Proof. apply reads_all; intros; try solve [constructor; auto]. Qed.

(** ** Running programs *)
Section Prog.
Context {Wd : Type}.
Variable prim : forall C : Type, N -> list (val C) -> Wd -> pres C * Wd.
Hypothesis quiet : discreet prim.
Variable hole : nat -> option lit.
Hypothesis Hhole : forall n h, hole n = Some h -> h = if Nat.leb n 3 then LBool false else LVoid.
Notation mrel := (mrel hole).
Notation rr := (rr hole).

Lemma glo_ref_grow vs l i : (i < List.length vs)%nat -> glo_ref (l ++ vs) i = glo_ref vs i.
Proof. intros H. unfold glo_ref. rewrite rev_app_distr, nth_error_app1; [reflexivity | now rewrite rev_length]. Qed.
Lemma grow_sim W m (s : @state Wd) vs' : mrel W m s -> grown (store s) vs' -> exists W', wext W W' /\ gn W' = gnames vs' /\ mrel W' m (mkst (heap s) vs' (world s)).
Proof.
  intros R G. assert (Gn := m_gn _ _ _ _ R). exists (mkwd (locs W) (parents W) (gnames vs')).
  assert (X : wext W (mkwd (locs W) (parents W) (gnames vs'))) by (repeat split; cbn; try apply prefix_refl; rewrite <- Gn; now apply grown_names).
  split; [exact X|]. split; [reflexivity|]. destruct G as ((l & -> & Hl) & Nd). rewrite Gn in Nd. specialize (Nd (m_gnd _ _ _ _ R)).
  assert (Ga : gnames (l ++ store s) = gn W ++ gnames l) by (unfold gnames in *; now rewrite rev_app_distr, map_app, Gn).
  assert (Ln : List.length (gn W) = List.length (store s)) by (rewrite <- Gn; unfold gnames; now rewrite map_length, rev_length).
  constructor; cbn [heap store world cells globals outside locs parents gn]; try apply R.
  - intros k p Hk. destruct (m_cell _ _ _ _ R k p Hk) as (v' & A & B & C). exists v'. split; [exact A|]. split; [exact B|]. intros v Hv. apply (vrel_ext W); auto.
  - reflexivity.
  - exact Nd.
  - intros i x Hi. rewrite Ga in Hi, Nd. destruct (Nat.ltb_spec i (List.length (gn W))) as [L|L].
    + rewrite nth_error_app1 in Hi by auto. destruct (m_glo _ _ _ _ R i x Hi) as (v' & A & B). exists v'. rewrite glo_ref_grow by lia. split; [exact A | now apply (vrel_ext W)].
    + rewrite nth_error_app2 in Hi by auto. unfold gnames in Hi. rewrite nth_error_map in Hi. destruct (nth_error (rev l) (i - List.length (gn W))) as [(y, v)|] eqn:El; [|discriminate]. cbn in Hi. injection Hi as ->.
      assert (Iv : In (x, v) l) by (apply in_rev; eapply nth_error_In; eauto). rewrite Forall_forall in Hl. assert (Ev := Hl _ Iv). cbn in Ev. subst v.
      exists (VSym x). split.
      * unfold glo_ref. rewrite rev_app_distr, nth_error_app2; rewrite rev_length; [|lia]. rewrite Ln in El. now rewrite El.
      * rewrite (m_own _ _ _ _ R x); [constructor|]. intros I1. assert (I2 : In x (gnames l)) by (unfold gnames; rewrite map_rev; apply in_rev; rewrite rev_involutive; apply in_map_iff; exists (x, VSym x); auto).
        clear -Nd I1 I2. induction (gn W) as [|y g IH]; [destruct I1|]. cbn in Nd. inversion Nd as [|? ? Na Nb]; subst. destruct I1 as [->|I1]; [apply Na, in_app_iff; auto | auto].
  - intros x Nx. apply (m_own _ _ _ _ R). intros I. apply Nx. rewrite Ga, in_app_iff. auto.
Qed.
Lemma global_face W m (s : @state Wd) x : mrel W m s -> face (globals m x) = face (get_global x (store s)).
Proof.
  intros R. unfold get_global. assert (H := lookup_store x (store s)). destruct (value_store_lookup x (store s)) as (i, vs'). destruct H as (G & Hi).
  destruct (grow_sim W m s vs' R G) as (W' & _ & Eg & R'). rewrite <- Eg in Hi. destruct (m_glo _ _ _ _ R' i x Hi) as (v' & A & B). cbn [store] in A. rewrite A. exact (alike_face _ _ _ B).
Qed.
Lemma same_globals_of W m (s : @state Wd) : mrel W m s -> same_globals m s.
Proof. intros R. split; [apply (m_wld _ _ _ _ R)|]. intros x. now apply (global_face W). Qed.
Lemma rr_agrees W (a : @sres Wd sval) (b : @res Wd value) : rr W vrel a b -> agrees a b.
Proof.
  destruct a as [v m|e m| |], b as [v' s|e' s| |]; cbn; auto.
  - intros (W' & _ & R & V). split; [exact (alike_face _ _ _ V) | now apply (same_globals_of W')].
  - intros (-> & W' & _ & R). split; [reflexivity | now apply (same_globals_of W')].
Qed.
Lemma rr_total W (P : wd -> sval -> value -> Prop) (a : @sres Wd sval) (b : @res Wd value) : (forall n, hole n <> None) -> rr W P a b -> b <> UB.
Proof. intros T. destruct a, b; cbn; try discriminate; try contradiction. intros (k & H). now apply T in H. Qed.

Lemma compile_run_sim lax n d e W m s : reads lax d e -> handy e -> mrel W m s -> rr W vrel (ev prim late_op hole n e [] m) (compile_run prim n d s).
Proof.
  intros Rd H R. unfold compile_run. destruct (proj1 (reads_compile lax) d e Rd [] (store s)) as (c & vs' & -> & G & K).
  destruct (grow_sim W m s vs' R G) as (W' & X & Eg & R'). apply (rr_ext hole W W' _ _ _ X).
  apply (exec_sim prim quiet hole Hhole n (gnames vs') [] e c W' [] None); auto; [rewrite Eg; apply prefix_refl | apply K, prefix_refl | constructor].
Qed.
Lemma forms_sim lax n ds es : Forall2 (reads lax) ds es -> Forall handy es -> forall W m s, mrel W m s -> rr W vrel (ev_forms prim late_op hole n es m) (run_forms prim n ds s).
Proof.
  induction 1 as [|d e ds es Rd F IH]; intros H W m s R; [apply rr_ok; [exact R | constructor]|]. inversion H as [|? ? H1 H2]; subst.
  assert (Z := compile_run_sim lax n d e W m s Rd H1 R). destruct F as [|d2 e2 ds es Rd2 F]; [exact Z|].
  eapply (rr_bind hole W vrel vrel); [exact Z|]. intros W' v v' m' s' _ R' _. apply IH; auto.
Qed.

Lemma set_global_sim W m (s : @state Wd) x p : mrel W m s -> exists W', mrel W' (mkmem (cells m) (fun y => if String.eqb x y then VPrim p else globals m y) (outside m)) (mkst (heap s) (set_global x (VPrim p) (store s)) (world s)).
Proof.
  intros R. unfold set_global. assert (H := lookup_store x (store s)). destruct (value_store_lookup x (store s)) as (i, vs'). destruct H as (G & Hi).
  destruct (grow_sim W m s vs' R G) as (W' & _ & Eg & R'). rewrite <- Eg in Hi. exists W'.
  destruct (glo_set_ok hole W' m _ i x (VPrim p) (VPrim p) [] R' Hi eq_refl) as (vs2 & E2 & R2); [constructor|]. cbn [store] in E2. rewrite E2. exact R2.
Qed.
Lemma start_sim ps (w : Wd) : exists W, mrel W (mem_with ps w) (start_with ps w).
Proof.
  unfold mem_with, start_with. induction ps as [|(x, p) ps (W & IH)]; cbn [fold_right].
  - exists (mkwd [] [] []). constructor; cbn; auto; try constructor; try (intros [|i]; discriminate).
  - destruct (set_global_sim W _ _ x p IH) as (W' & R). exists W'. exact R.
Qed.
Lemma program_agrees lax n ds es ps w : Forall2 (reads lax) ds es -> Forall handy es ->
  agrees (ev_forms prim late_op hole n es (mem_with ps w)) (run_forms prim n ds (start_with ps w)).
Proof. intros F H. destruct (start_sim ps w) as (W & R). apply (rr_agrees W). now apply (forms_sim lax). Qed.
End Prog.
Lemma program_safe {Wd} (prim : forall C : Type, N -> list (val C) -> Wd -> pres C * Wd) lax n ds es ps w : discreet prim -> Forall2 (reads lax) ds es -> Forall handy es ->
  run_forms prim n ds (start_with ps w) <> UB.
Proof.
  intros Q F H. pose (hole := fun n => Some (if Nat.leb n 3 then LBool false else LVoid)).
  assert (Hh : forall n h, hole n = Some h -> h = if Nat.leb n 3 then LBool false else LVoid) by (intros k h [= <-]; reflexivity).
  destruct (start_sim hole ps w) as (W & R). assert (Z := forms_sim prim Q hole Hh lax n ds es F H W _ _ R). apply (rr_total hole W _ _ _) in Z; [exact Z|]. discriminate.
Qed.
