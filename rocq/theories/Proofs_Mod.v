From Coq Require Import ZArith List Bool Lia.
From Verif Require Import Base Model_Sym Proofs_Sym Model_CStr Model_Mangle Spec_Mangle Proofs_Mangle Model_Mod Spec_Mod.
Import ListNotations.

Lemma mem_in n l : mem n l = true <-> In n l.
Proof. apply existsb_cstr. Qed.
Lemma mem_not n l : mem n l = false <-> ~ In n l.
Proof. rewrite <- mem_in. destruct (mem n l); split; congruence. Qed.

(** counting the names not yet in a list *)
Definition left_over (U l : list str) : nat := length (filter (fun u => negb (mem u l)) U).
Lemma left_mono U l l' : incl l l' -> (left_over U l' <= left_over U l)%nat.
Proof.
  intros H. unfold left_over. induction U as [|u U IH]; [auto|]. cbn [filter].
  destruct (mem u l) eqn:E1; destruct (mem u l') eqn:E2; cbn [negb length]; try lia.
  exfalso. apply mem_in in E1. apply H in E1. apply mem_in in E1. congruence.
Qed.
Lemma left_dec U l n : In n U -> ~ In n l -> (left_over U (n :: l) < left_over U l)%nat.
Proof.
  intros Hn Hl. unfold left_over. induction U as [|u U IH]; [destruct Hn|]. cbn [filter].
  assert (M : (length (filter (fun u => negb (mem u (n :: l))) U) <= length (filter (fun u => negb (mem u l)) U))%nat)
    by (apply (left_mono U l (n :: l)); intros x Hx; now right).
  destruct (mem u l) eqn:E1.
  - assert (E2 : mem u (n :: l) = true) by (apply mem_in; right; now apply mem_in). rewrite E2. cbn [negb].
    apply IH. destruct Hn as [->|Hn]; [|exact Hn]. apply mem_in in E1. contradiction.
  - destruct (mem u (n :: l)) eqn:E2; cbn [negb length]; [lia|].
    destruct Hn as [->|Hn]; [exfalso; apply mem_not in E2; apply E2; now left|]. specialize (IH Hn). lia.
Qed.
Lemma left_le U l : (left_over U l <= length U)%nat.
Proof. unfold left_over. induction U as [|u U IH]; [auto|]. cbn [filter]. destruct (negb _); cbn [length]; lia. Qed.

(** ** run time: post-order of a depth-first walk *)
Section Run.
Variable p : program.
Definition succ (n m : str) : Prop := exists l, load_list p n = Some l /\ In m l.
Inductive reach : str -> str -> Prop :=
| r_refl n : reach n n
| r_step n m k : succ n m -> reach m k -> reach n k.
Lemma reach_trans a b c : reach a b -> reach b c -> reach a c.
Proof. induction 1; auto. intros. eapply r_step; eauto. Qed.
Hypothesis closed : forall n m, succ n m -> exists l, load_list p m = Some l.
Let U := map fst p.
Lemma ll_in n l : load_list p n = Some l -> In n U.
Proof.
  unfold U. clear closed. induction p as [|[m x] q IH]; cbn [load_list map fst]; [discriminate|].
  destruct (cstr_eqb n m) eqn:E; [apply cstr_eqb_eq in E; subst; now left|]. intros H. right. now apply IH.
Qed.

(** every body run from [m] on: the modules it loads ran before, or lead back to it *)
Definition ordered (N T I : list str) : Prop :=
  forall x, In x N -> forall y, succ x y -> In y I /\ (before y x T \/ reach y x).
Lemma before_app (x y : str) l l' : before x y l -> before x y (l ++ l').
Proof. intros (a & b & c & ->). exists a, b, (c ++ l'). rewrite <- app_assoc. cbn [app]. rewrite <- app_assoc. reflexivity. Qed.
Lemma before_last (x y : str) l : In x l -> before x y (l ++ [y]).
Proof. intros H. apply in_split in H. destruct H as (a & b & ->). exists a, b, []. rewrite <- app_assoc. reflexivity. Qed.

Definition step_ok (m : str) (st st' : rstate) : Prop :=
  incl (rs_init st) (rs_init st') /\
  (forall s, In s (rs_init st') /\ ~ In s (rs_trace st') <-> In s (rs_init st) /\ ~ In s (rs_trace st)) /\
  NoDup (rs_trace st') /\ incl (rs_trace st') (rs_init st') /\
  exists N, rs_trace st' = rs_trace st ++ N /\ ordered N (rs_trace st') (rs_init st') /\ (forall x, In x N -> reach m x).

Lemma run_ok : forall fuel m st, (exists l, load_list p m = Some l) -> (left_over U (rs_init st) < fuel)%nat ->
  NoDup (rs_trace st) -> incl (rs_trace st) (rs_init st) ->
  (forall s, In s (rs_init st) -> ~ In s (rs_trace st) -> reach s m) ->
  exists st', run_module p fuel m st = Some st' /\ In m (rs_init st') /\ step_ok m st st'.
Proof.
  induction fuel as [|k IH]; intros m st [l El] Hf Nd Inc Stk; [lia|]. cbn [run_module].
  destruct (mem m (rs_init st)) eqn:Em.
  - exists st. split; [reflexivity|]. apply mem_in in Em. split; [exact Em|]. split; [apply incl_refl|]. split; [tauto|].
    split; [exact Nd|]. split; [exact Inc|]. exists []. rewrite app_nil_r. split; [reflexivity|]. split; [intros x []|intros x []].
  - apply mem_not in Em. rewrite El.
    assert (Loop : forall l1 l0 st1, l = l0 ++ l1 ->
      incl (m :: rs_init st) (rs_init st1) ->
      (forall s, In s (rs_init st1) /\ ~ In s (rs_trace st1) <-> s = m \/ (In s (rs_init st) /\ ~ In s (rs_trace st))) ->
      NoDup (rs_trace st1) -> incl (rs_trace st1) (rs_init st1) ->
      (exists N, rs_trace st1 = rs_trace st ++ N /\ ordered N (rs_trace st1) (rs_init st1) /\ (forall x, In x N -> reach m x)) ->
      (forall y, In y l0 -> In y (rs_init st1)) ->
      exists st2, (fix load (l : list str) (st : rstate) {struct l} : option rstate :=
                 match l with
                 | [] => Some st
                 | m :: l' => match run_module p k m st with Some st' => load l' st' | None => None end
                 end) l1 st1 = Some st2 /\
        incl (m :: rs_init st) (rs_init st2) /\
        (forall s, In s (rs_init st2) /\ ~ In s (rs_trace st2) <-> s = m \/ (In s (rs_init st) /\ ~ In s (rs_trace st))) /\
        NoDup (rs_trace st2) /\ incl (rs_trace st2) (rs_init st2) /\
        (exists N, rs_trace st2 = rs_trace st ++ N /\ ordered N (rs_trace st2) (rs_init st2) /\ (forall x, In x N -> reach m x)) /\
        (forall y, In y l -> In y (rs_init st2))).
    { induction l1 as [|y l1 IHl]; intros l0 st1 El0 G Sk N1 I1 Tr Hl0.
      - exists st1. rewrite app_nil_r in El0. subst l0. exact (conj eq_refl (conj G (conj Sk (conj N1 (conj I1 (conj Tr Hl0)))))).
      - assert (Sy : succ m y) by (exists l; split; [exact El|]; rewrite El0; apply in_or_app; right; now left).
        destruct (IH y st1 (closed m y Sy)) as (st2 & E2 & Iy & G2 & Sk2 & N2 & I2 & N & T2 & O2 & R2).
        + pose proof (left_mono U _ _ G) as L1. pose proof (left_dec U (rs_init st) m (ll_in m l El) Em). lia.
        + exact N1. + exact I1.
        + intros s H1 H2. destruct (proj1 (Sk s) (conj H1 H2)) as [->|[H3 H4]].
          * eapply r_step; [exact Sy|constructor].
          * eapply reach_trans; [exact (Stk s H3 H4)|]. eapply r_step; [exact Sy|constructor].
        + rewrite E2. destruct Tr as (N0 & T0 & O0 & R0).
          apply (IHl (l0 ++ [y])).
          * rewrite El0, <- app_assoc. reflexivity.
          * eapply incl_tran; eauto.
          * intros s. rewrite Sk2. apply Sk.
          * exact N2. * exact I2.
          * exists (N0 ++ N). split; [rewrite T2, T0, app_assoc; reflexivity|]. split.
            { intros x Hx z Hz. apply in_app_or in Hx. destruct Hx as [Hx|Hx]; [|now apply O2].
              destruct (O0 x Hx z Hz) as [Iz [B|B]]; (split; [now apply G2|]); [left; rewrite T2; now apply before_app|now right]. }
            { intros x Hx. apply in_app_or in Hx. destruct Hx as [Hx|Hx]; [now apply R0|]. eapply r_step; [exact Sy|now apply R2]. }
          * intros z Hz. apply in_app_or in Hz. destruct Hz as [Hz|[<-|[]]]; [apply G2; now apply Hl0|exact Iy]. }
    destruct (Loop l [] (mkrs (m :: rs_init st) (rs_trace st)) eq_refl) as (st2 & E2 & G2 & Sk2 & N2 & I2 & (N & T2 & O2 & R2) & Hl2).
    + apply incl_refl.
    + cbn [rs_init rs_trace]. intros s. cbn [In]. split.
      * intros [[<-|H1] H2]; auto.
      * intros [->|[H1 H2]]; [|auto]. split; [now left|]. intros X. apply Em. now apply Inc.
    + exact Nd.
    + cbn [rs_init rs_trace]. intros x Hx. right. now apply Inc.
    + exists []. cbn [rs_trace]. rewrite app_nil_r. split; [reflexivity|]. split; [intros x []|intros x []].
    + intros y [].
    + rewrite E2. eexists. split; [reflexivity|]. cbn [rs_init rs_trace].
      assert (Im : In m (rs_init st2)) by (apply G2; now left).
      assert (Nm : ~ In m (rs_trace st2)) by (apply (proj2 (Sk2 m)); now left).
      split; [exact Im|]. split; [intros x Hx; apply G2; now right|]. cbn [rs_init rs_trace]. split.
      { intros s. split.
        - intros [H1 H2]. assert (H3 : ~ In s (rs_trace st2)) by (intros X; apply H2, in_or_app; now left).
          destruct (proj1 (Sk2 s) (conj H1 H3)) as [->|H]; [|exact H]. exfalso. apply H2, in_or_app. right. now left.
        - intros [H1 H2]. destruct (proj2 (Sk2 s) (or_intror (conj H1 H2))) as [H3 H4]. split; [exact H3|].
          intros X. apply in_app_or in X. destruct X as [X|[<-|[]]]; [contradiction|]. exact (Em H1). }
      split.
      { rewrite <- (rev_involutive (rs_trace st2 ++ [m])). apply NoDup_rev. rewrite rev_app_distr. cbn [rev app].
        constructor; [rewrite <- in_rev; exact Nm|now apply NoDup_rev]. }
      split; [intros x Hx; apply in_app_or in Hx; destruct Hx as [Hx|[<-|[]]]; [now apply I2|exact Im]|].
      exists (N ++ [m]). split; [rewrite T2, app_assoc; reflexivity|]. split.
      { intros x Hx z Hz. apply in_app_or in Hx. destruct Hx as [Hx|[<-|[]]].
        - destruct (O2 x Hx z Hz) as [Iz [B|B]]; (split; [exact Iz|]); [left; now apply before_app|now right].
        - destruct Hz as (l' & El' & Hz). rewrite El in El'. injection El' as <-.
          pose proof (Hl2 z Hz) as Iz. split; [exact Iz|]. destruct (in_dec cstr_dec z (rs_trace st2)) as [D|D].
          + left. now apply before_last.
          + right. destruct (proj1 (Sk2 z) (conj Iz D)) as [->|[H1 H2]]; [constructor|]. exact (Stk z H1 H2). }
      { intros x Hx. apply in_app_or in Hx. destruct Hx as [Hx|[<-|[]]]; [now apply R2|constructor]. }
Qed.

Lemma run_main_ok m : (exists l, load_list p m = Some l) -> exists T, run_main p m = Some T /\ NoDup T /\
  (forall x, In x T <-> reach m x) /\ (forall x y, In x T -> succ x y -> before y x T \/ reach y x).
Proof.
  intros Hm. destruct (run_ok (S (length p)) m (mkrs [] []) Hm) as (st & E & Im & G & Sk & Nd & Inc & N & T & O & R).
  - cbn [rs_init]. pose proof (left_le U []). unfold U in *. rewrite map_length in H. lia.
  - constructor.
  - intros x [].
  - intros s [].
  - cbn [rs_init rs_trace app] in *. exists (rs_trace st). unfold run_main. rewrite E. split; [reflexivity|]. split; [exact Nd|].
    assert (All : forall s, In s (rs_init st) -> In s (rs_trace st)).
    { intros s Hs. destruct (in_dec cstr_dec s (rs_trace st)) as [D|D]; [exact D|]. destruct (proj1 (Sk s) (conj Hs D)) as [[] _]. }
    split.
    + intros x. split; [rewrite T; apply R|]. intros Hr. 
      assert (Cl : forall a b, reach a b -> In a (rs_trace st) -> In b (rs_trace st)).
      { induction 1 as [|a b c Sab _ IHr]; auto. intros Ha. apply IHr. clear IHr c x Hr.
        rewrite T in Ha. apply All. exact (proj1 (O a Ha b Sab)). }
      apply (Cl m x Hr). now apply All.
    + intros x y Hx S. rewrite T in Hx. exact (proj2 (O x Hx y S)).
Qed.
End Run.

(** ** compile time *)
Lemma strip_dir_sub l : forall r x, In x (strip_dir_loop l r) -> In x l \/ In x r.
Proof.
  induction l as [|c l IH]; intros r x; cbn [strip_dir_loop]; [auto|].
  destruct (existsb _ _); [auto|]. intros H. apply IH in H. cbn [In] in *. tauto.
Qed.
Lemma memv_dot_sub l : forall r, memv_dot l = Some r -> incl r l.
Proof.
  induction l as [|c l IH]; intros r; cbn [memv_dot]; [discriminate|].
  destruct (Z.eqb c 46); [intros E; injection E as <-; intros x Hx; now right|]. intros E x Hx. right. now apply (IH r E).
Qed.
Lemma path_chars f : Forall chr f -> Forall chr (path_strip_extension (path_strip_directory f)).
Proof.
  intros H. rewrite Forall_forall in *. intros x Hx. apply H.
  assert (D : forall y, In y (path_strip_directory f) -> In y f).
  { intros y Hy. unfold path_strip_directory in Hy. apply strip_dir_sub in Hy. destruct Hy as [Hy|[]]. now apply in_rev. }
  apply D. unfold path_strip_extension in Hx. destruct (memv_dot _) as [r|] eqn:E; [|exact Hx].
  apply in_rev. apply (memv_dot_sub _ _ E). now apply in_rev.
Qed.
Lemma module_name_ok f : Forall chr f -> exists n, module_name f = Val n.
Proof. intros H. destruct (mangle_ok _ p_module (path_chars f H)) as (t & _ & E). exists (p_module ++ t). exact E. Qed.

Section Compile.
Variable fs : files.
Let F := map fst fs.
Hypothesis Hnd : NoDup F.
Hypothesis Htgt : forall f g, loads fs f g -> In g F.
Hypothesis Hchr : forall f, In f F -> Forall chr f.
Hypothesis Hinj : forall f g, In f F -> In g F -> module_name f = module_name g -> f = g.
Definition nm (f : str) : str := match module_name f with Val n => n | UB => [] end.
Lemma nm_val f : In f F -> module_name f = Val (nm f).
Proof. intros H. destruct (module_name_ok f (Hchr f H)) as (n & E). unfold nm. now rewrite E. Qed.
Lemma nm_inj f g : In f F -> In g F -> nm f = nm g -> f = g.
Proof. intros Hf Hg E. apply Hinj; auto. rewrite (nm_val f Hf), (nm_val g Hg). congruence. Qed.

Lemma ff_in f forms : In (f, forms) fs -> file_forms fs f = Some forms.
Proof.
  revert Hnd. unfold F. clear. induction fs as [|[g x] l IH]; intros N H; [destruct H|]. cbn [file_forms]. cbn [map fst] in N.
  apply NoDup_cons_iff in N. destruct N as [N1 N2]. destruct H as [E|H].
  - injection E as -> ->. now rewrite (proj2 (cstr_eqb_eq f f) eq_refl).
  - destruct (cstr_eqb f g) eqn:E; [|now apply IH]. apply cstr_eqb_eq in E. subst g. exfalso. apply N1. apply (in_map fst) in H. exact H.
Qed.
Lemma ff_ex f : In f F -> exists forms, file_forms fs f = Some forms /\ In (f, forms) fs.
Proof.
  intros H. unfold F in H. apply in_map_iff in H. destruct H as ((g & x) & E & H). cbn [fst] in E. subst g. exists x. split; [now apply ff_in|exact H].
Qed.
Lemma forms_fun f x y : In (f, x) fs -> In (f, y) fs -> x = y.
Proof. intros H1 H2. apply ff_in in H1, H2. congruence. Qed.

Definition newv (st st' : mstate) (g : str) : Prop := In g F /\ In (nm g) (ms_visits st') /\ ~ In (nm g) (ms_visits st).
Definition load_spec (st st' : mstate) : Prop :=
  forall n, In n (ms_loads st') <-> In n (ms_loads st) \/ exists g, newv st st' g /\ has_defs fs g /\ n = nm g.
Definition add_ok (f : str) (st st' : mstate) : Prop :=
  incl (ms_visits st) (ms_visits st') /\ In (nm f) (ms_visits st') /\
  (forall g, newv st st' g -> g = f \/ loads_plus fs f g) /\
  (forall g h, newv st st' g -> loads fs g h -> In (nm h) (ms_visits st')) /\
  load_spec st st'.

Lemma lp_trans f g h : loads_plus fs f g -> loads_plus fs g h -> loads_plus fs f h.
Proof. induction 1; intros; eapply lp_more; eauto. Qed.

Lemma left_map l n : In n (map nm F) -> ~ In n l -> (left_over (map nm F) (n :: l) < left_over (map nm F) l)%nat.
Proof. apply left_dec. Qed.

Lemma add_load_ok : forall fuel f st, In f F -> (left_over (map nm F) (ms_visits st) < fuel)%nat ->
  exists st', module_add_load fs fuel f st = Some st' /\ add_ok f st st'.
Proof.
  induction fuel as [|k IH]; intros f st Hf Hl; [lia|]. cbn [module_add_load]. rewrite (nm_val f Hf).
  destruct (mem (nm f) (ms_visits st)) eqn:Em.
  - apply mem_in in Em. exists st. split; [reflexivity|]. split; [apply incl_refl|]. split; [exact Em|].
    assert (No : forall g, ~ newv st st g) by (intros g (_ & A & B); contradiction).
    split; [intros g Hg; destruct (No g Hg)|]. split; [intros g h Hg; destruct (No g Hg)|].
    intros n. split; [auto|]. intros [H|(g & Hg & _)]; [exact H|destruct (No g Hg)].
  - apply mem_not in Em. destruct (ff_ex f Hf) as (forms & Ef & Hin). rewrite Ef.
    set (st0 := mkms (nm f :: ms_visits st) (ms_loads st)).
    assert (L0 : (left_over (map nm F) (ms_visits st0) < k)%nat).
    { pose proof (left_dec (map nm F) (ms_visits st) (nm f) (in_map nm F f Hf) Em). cbn [ms_visits]. unfold st0. cbn [ms_visits]. lia. }
    assert (Loop : forall fr2 fr1 sd st1, forms = fr1 ++ fr2 -> (sd = true <-> In FDefine fr1) ->
      incl (ms_visits st0) (ms_visits st1) ->
      (forall g, newv st0 st1 g -> loads_plus fs f g) ->
      (forall g h, newv st0 st1 g -> loads fs g h -> In (nm h) (ms_visits st1)) ->
      (forall g, In (FLoad g) fr1 -> In (nm g) (ms_visits st1)) -> load_spec st0 st1 ->
      exists st2, (fix loop (forms : list form) (sdefs : bool) (st : mstate) {struct forms} : option mstate :=
             match forms with
             | [] => Some (if sdefs then mkms (ms_visits st) (nm f :: ms_loads st) else st)
             | FLoad g :: forms' =>
               match module_add_load fs k g st with Some st' => loop forms' sdefs st' | None => None end
             | FDefine :: forms' => loop forms' true st
             | FOther :: forms' => loop forms' sdefs st
             end) fr2 sd st1 = Some st2 /\ add_ok f st st2).
    { induction fr2 as [|x fr2 IHf]; intros fr1 sd st1 Efr Hsd G N1 C1 L1 S1.
      - rewrite app_nil_r in Efr. subst fr1. eexists. split; [reflexivity|].
        assert (V : ms_visits (if sd then mkms (ms_visits st1) (nm f :: ms_loads st1) else st1) = ms_visits st1) by (destruct sd; reflexivity).
        assert (Nw : forall g, newv st (if sd then mkms (ms_visits st1) (nm f :: ms_loads st1) else st1) g -> g = f \/ newv st0 st1 g).
        { intros g (A & B & C). rewrite V in B. destruct (cstr_dec (nm g) (nm f)) as [E|E]; [left; now apply nm_inj|].
          right. split; [exact A|]. split; [exact B|]. unfold st0. cbn [ms_visits]. intros [X|X]; [congruence|contradiction]. }
        unfold add_ok. rewrite V. split; [intros y Hy; apply G; unfold st0; cbn [ms_visits]; now right|].
        split; [apply G; unfold st0; cbn [ms_visits]; now left|]. split.
        { intros g Hg. destruct (Nw g Hg) as [->|H]; [now left|right; now apply N1]. }
        split.
        { intros g h Hg Hh. destruct (Nw g Hg) as [->|H]; [|exact (C1 g h H Hh)].
          destruct Hh as (fr & Hfr & Hld). rewrite (forms_fun f fr forms Hfr Hin) in Hld. now apply L1. }
        { assert (Nf : newv st (if sd then mkms (ms_visits st1) (nm f :: ms_loads st1) else st1) f).
          { split; [exact Hf|]. rewrite V. split; [apply G; unfold st0; cbn [ms_visits]; now left|exact Em]. }
          assert (Back : forall g, newv st0 st1 g -> newv st (if sd then mkms (ms_visits st1) (nm f :: ms_loads st1) else st1) g).
          { intros g (A & B & C). split; [exact A|]. rewrite V. split; [exact B|]. intros X. apply C. unfold st0. cbn [ms_visits]. now right. }
          assert (Hd : has_defs fs f <-> sd = true).
          { rewrite Hsd. split; [intros (fr & H1 & H2); now rewrite <- (forms_fun f fr forms H1 Hin)|]. intros H. now exists forms. }
          intros n. assert (S1n := S1 n). unfold st0 in S1n. cbn [ms_loads] in S1n. split.
          - intros Hn. destruct sd; cbn [ms_loads] in Hn.
            + destruct Hn as [<-|Hn].
              * right. exists f. split; [exact Nf|]. split; [now apply Hd|reflexivity].
              * apply S1n in Hn. destruct Hn as [Hn|(g & A & B & C)]; [now left|]. right. exists g. auto.
            + apply S1n in Hn. destruct Hn as [Hn|(g & A & B & C)]; [now left|]. right. exists g. auto.
          - intros Hn. assert (Hn' : In n (ms_loads st1) \/ (sd = true /\ n = nm f)).
            { destruct Hn as [Hn|(g & A & B & C)]; [left; apply S1n; now left|].
              destruct (Nw g A) as [->|H]; [right; split; [now apply Hd|exact C]|]. left. apply S1n. right. exists g. auto. }
            destruct sd; cbn [ms_loads]; [|destruct Hn' as [H|[H _]]; [exact H|discriminate]].
            destruct Hn' as [H|[_ ->]]; [now right|now left]. }
      - assert (Efr' : forms = (fr1 ++ [x]) ++ fr2) by (rewrite Efr, <- app_assoc; reflexivity).
        destruct x as [g| |].
        + assert (Lg : loads fs f g) by (exists forms; split; [exact Hin|]; rewrite Efr; apply in_or_app; right; now left).
          destruct (IH g st1 (Htgt f g Lg)) as (st2 & E2 & G2 & I2 & N2 & C2 & S2).
          { pose proof (left_mono (map nm F) _ _ G). lia. }
          rewrite E2. apply (IHf (fr1 ++ [FLoad g]) sd st2 Efr').
          * rewrite Hsd, in_app_iff. cbn [In]. split; [auto|]. intros [H|[H|[]]]; [exact H|discriminate].
          * eapply incl_tran; eauto.
          * intros y (A & B & C). destruct (in_dec cstr_dec (nm y) (ms_visits st1)) as [D|D].
            { apply N1. repeat split; auto. }
            destruct (N2 y (conj A (conj B D))) as [->|H]; [now apply lp_one|]. eapply lp_more; eauto.
          * intros y h (A & B & C) Hh. destruct (in_dec cstr_dec (nm y) (ms_visits st1)) as [D|D].
            { apply G2. apply (C1 y h); [repeat split; auto|exact Hh]. }
            exact (C2 y h (conj A (conj B D)) Hh).
          * intros y Hy. apply in_app_or in Hy. destruct Hy as [Hy|[E|[]]]; [apply G2; now apply L1|]. injection E as <-. exact I2.
          * intros n. rewrite (S2 n), (S1 n). split.
            { intros [[H|(y & (A & B & C) & H2)]|(y & (A & B & C) & H2)]; [now left| |]; right; exists y; (split; [|exact H2]).
              - repeat split; auto.
              - split; [exact A|]. split; [exact B|]. intros X. apply C. now apply G. }
            { intros [H|(y & (A & B & C) & H2)]; [now left; left|]. destruct (in_dec cstr_dec (nm y) (ms_visits st1)) as [D|D].
              - left. right. exists y. split; [repeat split; auto|exact H2].
              - right. exists y. split; [repeat split; auto|exact H2]. }
        + apply (IHf (fr1 ++ [FDefine]) true st1 Efr'); auto.
          * split; [intros _; apply in_or_app; right; now left|reflexivity].
          * intros y Hy. apply in_app_or in Hy. destruct Hy as [Hy|[E|[]]]; [now apply L1|discriminate].
        + apply (IHf (fr1 ++ [FOther]) sd st1 Efr'); auto.
          * rewrite Hsd, in_app_iff. cbn [In]. split; [auto|]. intros [H|[H|[]]]; [exact H|discriminate].
          * intros y Hy. apply in_app_or in Hy. destruct Hy as [Hy|[E|[]]]; [now apply L1|discriminate]. }
    apply (Loop forms [] false st0 eq_refl).
    + split; [discriminate|intros []].
    + apply incl_refl.
    + intros g (_ & A & B). contradiction.
    + intros g h (_ & A & B). contradiction.
    + intros g [].
    + intros n. split; [auto|]. intros [H|(g & (_ & A & B) & _)]; [exact H|contradiction].
Qed.

Lemma parse_ok f : In f F -> exists l, parse_file fs f = Some l /\
  forall n, In n l <-> exists g, loads_plus fs f g /\ has_defs fs g /\ n = nm g.
Proof.
  intros Hf. unfold parse_file. destruct (ff_ex f Hf) as (forms & Ef & Hin). rewrite Ef.
  set (e := mkms [] []).
  assert (Loop : forall fr2 fr1 st1, forms = fr1 ++ fr2 ->
      (forall g, newv e st1 g -> loads_plus fs f g) ->
      (forall g h, newv e st1 g -> loads fs g h -> In (nm h) (ms_visits st1)) ->
      (forall g, In (FLoad g) fr1 -> In (nm g) (ms_visits st1)) -> load_spec e st1 ->
      exists st2, parse_loop fs (S (length fs)) fr2 st1 = Some st2 /\
      (forall g, newv e st2 g -> loads_plus fs f g) /\
      (forall g h, newv e st2 g -> loads fs g h -> In (nm h) (ms_visits st2)) /\
      (forall g, In (FLoad g) forms -> In (nm g) (ms_visits st2)) /\ load_spec e st2).
  { induction fr2 as [|x fr2 IHf]; intros fr1 st1 Efr N1 C1 L1 S1.
    - rewrite app_nil_r in Efr. subst fr1. exists st1. auto.
    - assert (Efr' : forms = (fr1 ++ [x]) ++ fr2) by (rewrite Efr, <- app_assoc; reflexivity).
      destruct x as [g| |]; cbn [parse_loop].
      + assert (Lg : loads fs f g) by (exists forms; split; [exact Hin|]; rewrite Efr; apply in_or_app; right; now left).
        destruct (add_load_ok (S (length fs)) g st1 (Htgt f g Lg)) as (st2 & E2 & G2 & I2 & N2 & C2 & S2).
        { pose proof (left_le (map nm F) (ms_visits st1)) as X. rewrite map_length in X. unfold F in *. rewrite map_length in X. lia. }
        rewrite E2. apply (IHf (fr1 ++ [FLoad g]) st2 Efr').
        * intros y (A & B & C). destruct (in_dec cstr_dec (nm y) (ms_visits st1)) as [D|D]; [apply N1; repeat split; auto|].
          destruct (N2 y (conj A (conj B D))) as [->|H]; [now apply lp_one|]. eapply lp_more; eauto.
        * intros y h (A & B & C) Hh. destruct (in_dec cstr_dec (nm y) (ms_visits st1)) as [D|D].
          { apply G2. apply (C1 y h); [repeat split; auto|exact Hh]. }
          exact (C2 y h (conj A (conj B D)) Hh).
        * intros y Hy. apply in_app_or in Hy. destruct Hy as [Hy|[E|[]]]; [apply G2; now apply L1|]. injection E as <-. exact I2.
        * intros n. rewrite (S2 n), (S1 n). split.
          { intros [[H|(y & (A & B & C) & H2)]|(y & (A & B & C) & H2)]; [now left| |]; right; exists y; (split; [|exact H2]); repeat split; auto. }
          { intros [H|(y & (A & B & C) & H2)]; [now left; left|]. destruct (in_dec cstr_dec (nm y) (ms_visits st1)) as [D|D].
            - left. right. exists y. split; [repeat split; auto|exact H2].
            - right. exists y. split; [repeat split; auto|exact H2]. }
      + apply (IHf (fr1 ++ [FDefine]) st1 Efr'); auto.
        intros y Hy. apply in_app_or in Hy. destruct Hy as [Hy|[E|[]]]; [now apply L1|discriminate].
      + apply (IHf (fr1 ++ [FOther]) st1 Efr'); auto.
        intros y Hy. apply in_app_or in Hy. destruct Hy as [Hy|[E|[]]]; [now apply L1|discriminate]. }
  destruct (Loop forms [] e eq_refl) as (st2 & E2 & N2 & C2 & L2 & S2).
  { intros g (_ & [] & _). } { intros g h (_ & [] & _). } { intros g []. }
  { intros n. split; [auto|]. intros [H|(g & (_ & [] & _) & _)]; exact H. }
  rewrite E2. exists (ms_loads st2). split; [reflexivity|]. intros n. rewrite (S2 n). split.
  - intros [[]|(g & Hg & Hd & ->)]. exists g. auto.
  - intros (g & Hg & Hd & ->). right. exists g. split; [|auto].
    assert (Cl : forall a b, loads_plus fs a b -> (forall h, loads fs a h -> In (nm h) (ms_visits st2)) -> newv e st2 b).
    { induction 1 as [a b Lab|a b c Lab _ IHl]; intros Ha.
      - split; [eapply Htgt; eauto|]. split; [now apply Ha|intros []].
      - apply IHl. intros h Hh. apply (C2 b h); [|exact Hh]. split; [eapply Htgt; eauto|]. split; [now apply Ha|intros []]. }
    apply (Cl f g Hg). intros h (fr & Hfr & Hld). rewrite (forms_fun f fr forms Hfr Hin) in Hld. now apply L2.
Qed.

Lemma compile_ok : forall todo, incl todo fs -> NoDup (map fst todo) -> exists p, compile_all fs todo = Some p /\ map fst p = map nm (map fst todo) /\
  forall f, In f (map fst todo) -> exists l, load_list p (nm f) = Some l /\ parse_file fs f = Some l.
Proof.
  induction todo as [|[f x] todo IH]; intros Hi Nd.
  - exists []. split; [reflexivity|]. split; [reflexivity|]. intros f [].
  - cbn [map fst] in Nd. apply NoDup_cons_iff in Nd. destruct Nd as [Nf Nd]. destruct (IH (fun y Hy => Hi y (or_intror Hy)) Nd) as (p & Ep & Mp & Lp).
    assert (Hf : In f F) by (unfold F; apply in_map_iff; exists (f, x); split; [reflexivity|apply Hi; now left]).
    destruct (parse_ok f Hf) as (l & El & _). cbn [compile_all]. rewrite (nm_val f Hf), El, Ep.
    exists ((nm f, l) :: p). split; [reflexivity|]. split; [cbn [map fst]; now rewrite Mp|].
    intros g [E|Hg]; cbn [fst] in *.
    + subst g. exists l. cbn [load_list]. now rewrite (proj2 (cstr_eqb_eq (nm f) (nm f)) eq_refl).
    + destruct (Lp g Hg) as (l' & E1 & E2). exists l'. split; [|exact E2]. cbn [load_list].
      destruct (cstr_eqb (nm g) (nm f)) eqn:E; [|exact E1]. exfalso. apply cstr_eqb_eq in E. apply Nf.
      assert (Hg' : In g F). { unfold F. apply in_map_iff in Hg. destruct Hg as ((g' & y) & Eg & Hy). cbn [fst] in Eg. subst g'. apply in_map_iff. exists (g, y). split; [reflexivity|]. apply Hi. now right. }
      now rewrite <- (nm_inj g f Hg' Hf E).
Qed.

Lemma modules_ok main : In main F -> exists p T, compile_all fs fs = Some p /\ run_main p (nm main) = Some T /\ NoDup T /\
  (forall n, In n T <-> exists f, (f = main \/ loads_plus fs main f /\ has_defs fs f) /\ n = nm f) /\
  (forall f g, In (nm f) T -> In f F -> loads_plus fs f g -> has_defs fs g -> ~ (g = f \/ loads_plus fs g f) -> before (nm g) (nm f) T).
Proof.
  intros Hm. destruct (compile_ok fs (incl_refl _) Hnd) as (p & Ep & Mp & Lp).
  assert (Ll : forall f, In f F -> exists l, load_list p (nm f) = Some l /\
            forall n, In n l <-> exists g, loads_plus fs f g /\ has_defs fs g /\ n = nm g).
  { intros f Hf. destruct (Lp f Hf) as (l & E1 & E2). exists l. split; [exact E1|]. destruct (parse_ok f Hf) as (l' & E3 & H). rewrite E2 in E3. injection E3 as <-. exact H. }
  assert (LpF : forall f g, loads_plus fs f g -> In g F) by (induction 1; eauto).
  assert (Dom : forall n l, load_list p n = Some l -> exists f, In f F /\ n = nm f).
  { intros n l H. apply ll_in in H. rewrite Mp in H. apply in_map_iff in H. destruct H as (f & E & Hf). exists f. auto. }
  assert (Suc : forall f n, In f F -> (succ p (nm f) n <-> exists g, loads_plus fs f g /\ has_defs fs g /\ n = nm g)).
  { intros f n Hf. destruct (Ll f Hf) as (l & E & H). unfold succ. split.
    - intros (l' & E' & Hn). rewrite E in E'. injection E' as <-. now apply H.
    - intros X. exists l. split; [exact E|now apply H]. }
  assert (Cl : forall n m, succ p n m -> exists l, load_list p m = Some l).
  { intros n m Hs. pose proof Hs as (l & E & _). destruct (Dom n l E) as (f & Hf & ->). apply (Suc f m Hf) in Hs. destruct Hs as (g & Lg & _ & ->).
    destruct (Ll g (LpF f g Lg)) as (l' & E' & _). eauto. }
  assert (Rc : forall n m, reach p n m -> forall f, In f F -> n = nm f -> m = n \/ exists g, loads_plus fs f g /\ has_defs fs g /\ m = nm g).
  { induction 1 as [|n m k S _ IHr]; [auto|]. intros f Hf ->. right. apply (Suc f m Hf) in S. destruct S as (g & Lg & Dg & ->).
    destruct (IHr g (LpF f g Lg) eq_refl) as [->|(h & Lh & Dh & ->)]; [exists g; auto|]. exists h. split; [|auto]. eapply lp_trans; eauto. }
  destruct (run_main_ok p Cl (nm main)) as (T & ET & Nd & In_T & Or).
  { destruct (Ll main Hm) as (l & E & _). eauto. }
  exists p, T. split; [exact Ep|]. split; [exact ET|]. split; [exact Nd|]. split.
  - intros n. rewrite In_T. split.
    + intros R. destruct (Rc _ _ R main Hm eq_refl) as [->|(g & Lg & Dg & ->)]; [exists main; auto|exists g; auto].
    + intros (f & [->|[Lf Df]] & ->); [constructor|]. eapply r_step; [|constructor]. apply (Suc main (nm f) Hm). exists f. auto.
  - intros f g Hf HfF Lg Dg Nc. assert (S : succ p (nm f) (nm g)) by (apply (Suc f _ HfF); exists g; auto).
    destruct (Or (nm f) (nm g) Hf S) as [B|R]; [exact B|]. exfalso. apply Nc.
    pose proof (LpF f g Lg) as Hg. destruct (Rc _ _ R g Hg eq_refl) as [E|(h & Lh & _ & E)].
    + left. symmetry. now apply nm_inj.
    + right. now rewrite (nm_inj f h HfF (LpF g h Lh) E).
Qed.
End Compile.

Lemma modules_run fs main : well_formed fs -> In main (map fst fs) ->
  exists p n T, compile_all fs fs = Some p /\ module_name main = Val n /\ run_main p n = Some T /\ NoDup T /\
  (forall m, In m T <-> exists f, needed fs main f /\ module_name f = Val m) /\
  (forall f g mf mg, needed fs main f -> module_name f = Val mf -> loads_plus fs f g -> has_defs fs g ->
     module_name g = Val mg -> ~ (g = f \/ loads_plus fs g f) -> before mg mf T).
Proof.
  intros (H1 & H2 & H3 & H4) Hm. destruct (modules_ok fs H1 H2 H3 H4 main Hm) as (p & T & Ep & ET & Nd & It & Or).
  assert (LpF : forall f g, loads_plus fs f g -> In g (map fst fs)) by (induction 1; eauto).
  assert (NF : forall f, needed fs main f -> In f (map fst fs)) by (intros f [->|[L _]]; [exact Hm|eapply LpF; eauto]).
  exists p, (nm main), T. split; [exact Ep|]. split; [now apply (nm_val fs H3)|]. split; [exact ET|]. split; [exact Nd|]. split.
  - intros m. rewrite It. split.
    + intros (f & Hf & ->). exists f. split; [exact Hf|]. apply (nm_val fs H3). now apply NF.
    + intros (f & Hf & E). exists f. split; [exact Hf|]. rewrite (nm_val fs H3 f (NF f Hf)) in E. congruence.
  - intros f g mf mg Nf Ef Lg Dg Eg Nc. pose proof (NF f Nf) as Hf. pose proof (LpF f g Lg) as Hg.
    rewrite (nm_val fs H3 f Hf) in Ef. rewrite (nm_val fs H3 g Hg) in Eg. injection Ef as <-. injection Eg as <-.
    apply Or; auto. apply It. exists f. split; auto.
Qed.

Lemma extern_sub fs fuel forms : forall st n, In n (extern_loop fs fuel forms st) -> exists g, In (FLoad g) forms /\ module_name g = Val n.
Proof.
  induction forms as [|x forms IH]; intros st n; cbn [extern_loop]; [intros []|].
  destruct x as [g| |]; [|intros H; destruct (IH _ _ H) as (h & A & B); exists h; split; [now right|exact B]..].
  intros H. apply in_app_or in H. destruct H as [H|H].
  - unfold returned_name in H. destruct (module_name g) as [m|] eqn:E; [|destruct H]. destruct (file_forms fs g); [|destruct H].
    destruct (mem m _); [destruct H|]. destruct (existsb _ l); [|destruct H]. destruct H as [<-|[]]. exists g. split; [now left|exact E].
  - destruct (module_add_load fs fuel g st) as [st'|]; [|destruct H]. destruct (IH _ _ H) as (h & A & B). exists h. split; [now right|exact B].
Qed.
