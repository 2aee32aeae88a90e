(** Rules and transformers. *)
From Coq Require Import ZArith String List Bool Lia.
From Verif Require Import Model_Lit Model_Core Model_Beta Model_Syntax Spec_Syntax Proofs_Syntax Proofs_SynTmpl.
Import ListNotations.
Notation length := List.length.
Open Scope Z_scope.

(** ** The environment kept with a transformer *)
Lemma reduce_spec i env : forall ids red, assv i (reduce_env ids env red) = match assv i red with Some l => Some l | None => if memv i ids then assv i env else None end.
Proof.
  induction ids as [|j ids IH]; intros red; cbn [reduce_env]; [now destruct (assv i red)|]. rewrite IH. cbn [memv existsb]. fold (memv i ids).
  destruct (assv j red) as [l|] eqn:R.
  - destruct (assv i red) eqn:R'; [reflexivity|]. rewrite ident_eqb_ne by (intros ->; congruence). reflexivity.
  - destruct (assv j env) as [l|] eqn:E.
    + cbn [assv]. destruct (ident_eqb i j) eqn:X.
      * apply ident_eqb_eq in X. subst j. rewrite R, E. reflexivity.
      * reflexivity.
    + destruct (assv i red) eqn:R'; [reflexivity|]. destruct (ident_eqb i j) eqn:X; [|reflexivity]. apply ident_eqb_eq in X. subst j. cbn. rewrite E. now destruct (memv i ids).
Qed.
Lemma dots_app x : forall ids, list_dots_ids x ids = list_dots_ids x [] ++ ids.
Proof.
  induction x as [x IH] using size_ind. intros ids. destruct x; try reflexivity; cbn [ssize] in IH; cbn [list_dots_ids].
  - rewrite IH by lia. rewrite (IH x2) by lia. rewrite (IH x1 ltac:(lia) (list_dots_ids x2 [])). now rewrite app_assoc.
  - now destruct (loc_eqb _ _).
  - now destruct (loc_eqb _ _).
  - apply IH. lia.
  - destruct x; try reflexivity. apply IH. cbn. lia.
Qed.
Lemma dots_inside t x : inside t x -> sidp t = true -> sid_location t = the_dots -> In (sid_id t) (list_dots_ids x []).
Proof.
  intros I S L. induction I.
  - destruct t; try discriminate; cbn [list_dots_ids]; rewrite L; now left.
  - cbn [list_dots_ids]. rewrite dots_app, in_app_iff. now left.
  - cbn [list_dots_ids]. rewrite dots_app, in_app_iff. now right.
  - assumption.
  - assumption.
Qed.
Lemma inside_slist t x l : In x l -> inside t x -> inside t (slist l).
Proof. induction l as [|y l IH]; intros I J; [destruct I|]. cbn. destruct I as [-> | I]; [now apply ins_car | apply ins_cdr; auto]. Qed.

Section Agree.
Variable ell ell' : sexp -> bool.
Definition agree (x : sexp) : Prop := forall t, inside t x -> ell t = ell' t.
Lemma agree_car a d : agree (SCons a d) -> agree a.
Proof. intros A t I. apply A. now apply ins_car. Qed.
Lemma agree_cdr a d : agree (SCons a d) -> agree d.
Proof. intros A t I. apply A. now apply ins_cdr. Qed.
Lemma agree_vec x : agree (SVec x) -> agree x.
Proof. intros A t I. apply A. now apply ins_vec. Qed.
Lemma agree_box k x : agree (SBox (SCons k x)) -> agree x.
Proof. intros A t I. apply A. now apply ins_box. Qed.
Lemma agree_here x : agree x -> ell x = ell' x.
Proof. intros A. apply A. constructor. Qed.
Lemma agree_pair x : agree x -> ell_pair ell x = ell_pair ell' x.
Proof. intros A. destruct x; try reflexivity. cbn. apply agree_here. now apply agree_car in A. Qed.
Lemma check_agree b x : agree x -> check ell b x = check ell' b x.
Proof.
  induction x as [x IH] using size_ind. intros A. destruct x; try reflexivity; cbn [ssize] in IH.
  - assert (A1 := agree_car _ _ A). assert (A2 := agree_cdr _ _ A). cbn [check]. rewrite (agree_here _ A1), (agree_here _ A2), (IH x1) by (try assumption; lia). f_equal.
    destruct x2; try (apply IH; [lia | assumption]). assert (B1 := agree_car _ _ A2). assert (B2 := agree_cdr _ _ A2). rewrite (agree_here _ B1).
    destruct (ell' x2_1); [|apply IH; [lia | assumption]]. rewrite (agree_here _ B2), (agree_pair _ B2). f_equal. destruct b; [apply IH; [cbn [ssize]; lia | assumption]|]. f_equal.
    assert (G : forall d, (ssize d <= ssize x2_2)%nat -> agree d ->
      (fix each (d : sexp) : bool := match d with SCons y d' => negb (ell y) && check ell false y && each d' | _ => true end) d =
      (fix each (d : sexp) : bool := match d with SCons y d' => negb (ell' y) && check ell' false y && each d' | _ => true end) d).
    { induction d; intros L D; try reflexivity. cbn [ssize] in L. rewrite (agree_here _ (agree_car _ _ D)). rewrite (IH d1) by (cbn [ssize]; lia || now apply agree_car in D).
      f_equal. apply IHd2; [lia | now apply agree_cdr in D]. }
    apply G; [lia | assumption].
  - cbn [check]. apply agree_vec in A. rewrite (agree_pair _ A), IH by (lia || assumption). reflexivity.
  - cbn [check]. f_equal. destruct x; try reflexivity. apply agree_box in A. rewrite (agree_pair _ A), IH by (try assumption; cbn; lia). reflexivity.
Qed.
Variable is_lit : ident -> bool.
Lemma mpe_agree x : agree x -> forall k l, make_pat_env ell is_lit x k l = make_pat_env ell' is_lit x k l.
Proof.
  induction x as [x IH] using size_ind. intros A k l. destruct x; try reflexivity; cbn [ssize] in IH.
  - assert (A1 := agree_car _ _ A). assert (A2 := agree_cdr _ _ A). cbn [make_pat_env]. rewrite (IH x2) by (try assumption; lia).
    assert (P : match make_pat_env ell' is_lit x2 k l with Some l' => make_pat_env ell is_lit x1 k l' | None => None end =
                match make_pat_env ell' is_lit x2 k l with Some l' => make_pat_env ell' is_lit x1 k l' | None => None end)
      by (destruct (make_pat_env ell' is_lit x2 k l); [apply IH; [lia | assumption] | reflexivity]).
    destruct x2; try exact P. assert (B1 := agree_car _ _ A2). assert (B2 := agree_cdr _ _ A2). rewrite (agree_here _ B1).
    destruct (ell' x2_1); [|exact P]. rewrite (IH x2_2) by (try assumption; cbn; lia). destruct (make_pat_env ell' is_lit x2_2 k l); [apply IH; [lia | assumption] | reflexivity].
  - cbn [make_pat_env]. apply IH; [lia | now apply agree_vec in A].
  - cbn [make_pat_env]. destruct x; try reflexivity. apply agree_box in A. destruct x2; try reflexivity. apply IH; [cbn; lia | now apply agree_car in A].
Qed.
Lemma cvd_agree pe x : agree x -> forall k, check_var_depths ell pe x k = check_var_depths ell' pe x k.
Proof.
  induction x as [x IH] using size_ind. intros A k. destruct x; try reflexivity; cbn [ssize] in IH.
  - assert (A1 := agree_car _ _ A). assert (A2 := agree_cdr _ _ A). cbn [check_var_depths].
    rewrite (IH x2), (IH x1), (IH x1) by (try assumption; lia). destruct x2; try reflexivity. assert (B1 := agree_car _ _ A2). assert (B2 := agree_cdr _ _ A2). rewrite (agree_here _ B1).
    rewrite (IH x2_2) by (try assumption; cbn; lia). reflexivity.
  - cbn [check_var_depths]. apply IH; [lia | now apply agree_vec in A].
  - cbn [check_var_depths]. destruct x; try reflexivity. apply agree_box in A. apply IH; [cbn; lia | assumption].
Qed.
End Agree.

Lemma ell_sid r env x : ellipsisp r env x = true -> sidp x = true.
Proof. unfold ellipsisp. rewrite andb_true_iff. tauto. Qed.
Lemma assv_locals {A} i (a : A) l : assv i l = Some a -> In (i, a) l.
Proof. apply assv_in. Qed.

(** what is known of a transformer that was compiled *)
Record compiled (r : synrules) (denv mac : senv) : Prop := {
  c_ell : forall pat tmpl, In (pat, tmpl) (rules r) -> forall t, inside t pat \/ inside t tmpl -> ellipsisp r mac t = ellipsisp r denv t;
  c_lit : forall p, In (sid_id p) (literal_ids r) -> lookup_sid p mac = lookup_sid p denv;
  c_rule : forall pat tmpl, In (pat, tmpl) (rules r) -> exists pe c,
    check_ellipses (ellipsisp r mac) false (tail_of pat) = true /\ check_ellipses (ellipsisp r mac) true tmpl = true /\
    make_pat_env (ellipsisp r mac) (fun i => memv i (literal_ids r)) (tail_of pat) 0 [] = Some pe /\
    check_var_depths (ellipsisp r mac) pe tmpl 0 = Some c /\
    (forall t, inside t tmpl -> sidp t = true -> ellipsisp r mac t = false -> assv (sid_id t) pe = None -> lookup_sid t mac = lookup_sid t denv) }.
Lemma inserted_mono ell pe x : forall l v, In v l -> In v (inserted ell pe x l).
Proof.
  induction x as [x IH] using size_ind. intros l v I. destruct x; try assumption; cbn [ssize] in IH; cbn [inserted].
  - apply IH; [lia|]. apply IH; [lia | assumption].
  - destruct (ell _); [assumption|]. destruct (assv _ pe); [assumption | now right].
  - destruct (ell _); [assumption|]. destruct (assv _ pe); [assumption | now right].
  - apply IH; [lia | assumption].
  - destruct x; try assumption. apply IH; [cbn; lia | assumption].
Qed.
Lemma inserted_in ell pe t x : inside t x -> sidp t = true -> ell t = false -> assv (sid_id t) pe = None -> forall l, In (sid_id t) (inserted ell pe x l).
Proof.
  intros I S E A. induction I; intros l.
  - destruct t; try discriminate; cbn [inserted]; rewrite E; cbn [sid_id] in *; rewrite A; now left.
  - cbn [inserted]. auto.
  - cbn [inserted]. apply inserted_mono. auto.
  - cbn [inserted]. auto.
  - cbn [inserted]. auto.
Qed.
Lemma compile_compiled r denv mac : locals denv -> compile_syntax_rules r denv = Some mac -> compiled r denv mac.
Proof.
  intros L. unfold compile_syntax_rules. destruct (forallb _ (lits r)) eqn:FL; [|discriminate].
  destruct (mapo _ (rules r)) as [ls|] eqn:M; [|discriminate]. intros [= Hm]. set (ids := map sid_id (lits r) ++ concat ls) in Hm. apply mapo_F2 in M.
  assert (AV : forall i, In i ids -> assv i mac = assv i denv).
  { intros i I. rewrite <- Hm. rewrite reduce_spec. cbn [assv]. assert (memv i (match ell_id r with Some _ => ids | None => list_dots_ids (rules_sexp (rules r)) ids end) = true) as ->; [|reflexivity].
    apply memv_in. destruct (ell_id r); [assumption|]. rewrite dots_app, in_app_iff. now right. }
  assert (SUB : forall i l, assv i mac = Some l -> assv i denv = Some l).
  { intros i l. rewrite <- Hm. rewrite reduce_spec. cbn [assv]. now destruct (memv i _). }
  assert (EA : forall pat tmpl, In (pat, tmpl) (rules r) -> forall t, inside t pat \/ inside t tmpl -> ellipsisp r mac t = ellipsisp r denv t).
  { intros pat tmpl I t J. unfold ellipsisp. destruct (sidp t) eqn:S; [|reflexivity]. cbn [andb]. destruct (ell_id r) eqn:EI; [reflexivity|].
    destruct (loc_dec (sid_location t) the_dots) as [D|D].
    - unfold lookup_sid. assert (assv (sid_id t) mac = assv (sid_id t) denv) as ->; [|reflexivity]. rewrite <- Hm, reduce_spec. cbn [assv].
      assert (memv (sid_id t) (list_dots_ids (rules_sexp (rules r)) ids) = true) as ->; [|reflexivity]. apply memv_in. rewrite dots_app, in_app_iff. left.
      apply dots_inside; [|assumption|assumption]. unfold rules_sexp. apply inside_slist with (slist [pat; tmpl]).
      + apply in_map_iff. exists (pat, tmpl). now split.
      + cbn. destruct J; [now apply ins_car | apply ins_cdr; now apply ins_car].
    - assert (X : forall e, (forall i l, assv i e = Some l -> assv i denv = Some l) -> loc_eqb the_dots (lookup_sid t e) = false).
      { intros e He. unfold lookup_sid. destruct (assv (sid_id t) e) as [l|] eqn:E.
        - apply He in E. apply assv_in, L in E. unfold loc_eqb. destruct (loc_dec the_dots l); congruence.
        - unfold loc_eqb. destruct (loc_dec the_dots (sid_location t)); congruence. }
      rewrite (X mac SUB), (X denv (fun _ _ H => H)). reflexivity. }
  split.
  - exact EA.
  - intros p I. unfold lookup_sid. rewrite AV; [reflexivity|]. apply in_or_app. now left.
  - intros pat tmpl I. assert (CR : exists ids', check_rule (ellipsisp r denv) (fun i => memv i (literal_ids r)) (pat, tmpl) = Some ids' /\ In ids' ls).
    { clear -M I. unfold literal_ids. induction M as [|rl l' rls ls' H M IHM]; [destruct I|]. destruct I as [-> | I].
      - exists l'. split; [assumption | now left].
      - destruct (IHM I) as (i & A & B). exists i. split; [assumption | now right]. }
    destruct CR as (ids' & CR & I'). unfold check_rule in CR.
    assert (TL : match pat with SCons k p => if sidp k then Some p else None | _ => if sidp pat then Some SNil else None end = Some (tail_of pat) \/
                 match pat with SCons k p => if sidp k then Some p else None | _ => if sidp pat then Some SNil else None end = None).
    { destruct pat; cbn; try (now right); try (now left). destruct (sidp pat1); [now left | now right]. }
    destruct TL as [TL | TL]; rewrite TL in CR; [|discriminate].
    assert (SUBP : forall t, inside t (tail_of pat) -> inside t pat \/ t = SNil).
    { intros t J. destruct pat; cbn in J; try (inversion J; subst; now right). left. now apply ins_cdr. }
    assert (AP : agree (ellipsisp r mac) (ellipsisp r denv) (tail_of pat)).
    { intros t J. apply SUBP in J. destruct J as [J | ->]; [apply (EA _ _ I); now left | reflexivity]. }
    assert (AT : agree (ellipsisp r mac) (ellipsisp r denv) tmpl) by (intros t J; apply (EA _ _ I); now right).
    unfold check_ellipses in *. rewrite <- (agree_here _ _ _ AP), <- (agree_pair _ _ _ AP), <- (check_agree _ _ _ _ AP), <- (agree_here _ _ _ AT), <- (agree_pair _ _ _ AT), <- (check_agree _ _ _ _ AT) in CR.
    rewrite <- (mpe_agree _ _ _ _ AP) in CR. destruct (_ && _) eqn:CE in CR; [|discriminate]. apply andb_true_iff in CE. destruct CE as [CE1 CE2].
    destruct (make_pat_env _ _ (tail_of pat) 0 []) as [pe|] eqn:PE; [|discriminate]. rewrite <- (cvd_agree _ _ _ _ AT) in CR.
    destruct (check_var_depths _ pe tmpl 0) as [c|] eqn:CV; [|discriminate]. injection CR as CR. exists pe, c. split; [assumption|]. split; [assumption|]. split; [reflexivity|]. split; [exact CV|].
    intros t J S E A. unfold lookup_sid. rewrite AV; [reflexivity|]. apply in_or_app. right. apply in_concat. exists ids'. split; [assumption|]. rewrite <- CR.
    apply inserted_in; try assumption. rewrite <- (AT t J). assumption.
Qed.

(** ** Renamings *)
Lemma remove_dups_in v l : forall res, In v (remove_dups l res) <-> In v l \/ In v res.
Proof.
  induction l as [|x l IH]; intros res; cbn [remove_dups]; [cbn; tauto|]. rewrite IH. destruct (memv x res) eqn:M.
  - apply memv_in in M. cbn. split; [tauto|]. intros [[<- | I] | I]; tauto.
  - cbn. tauto.
Qed.
Lemma memv_tail_split v l : In v l -> exists pre suf, l = pre ++ v :: suf /\ memv_tail v l = v :: suf.
Proof.
  induction l as [|x l IH]; intros I; [destruct I|]. cbn [memv_tail]. destruct (ident_eqb v x) eqn:E.
  - apply ident_eqb_eq in E. subst x. exists [], l. now split.
  - destruct I as [-> | I]; [rewrite ident_eqb_refl in E; discriminate|]. destruct (IH I) as (pre & suf & -> & T). exists (x :: pre), suf. now split.
Qed.
Definition number (id_n : Z) (tl : list ident) (v : ident) : Z := id_n + (Z.of_nat (length (memv_tail v tl)) - 1).
Lemma app_suffix {A} (p s p' s' : list A) : p ++ s = p' ++ s' -> length s = length s' -> s = s'.
Proof.
  revert p'. induction p as [|a p IH]; intros [|b p'] E L; cbn in E; try congruence.
  - exfalso. subst s. cbn in L. rewrite app_length in L. lia.
  - exfalso. subst s'. cbn in L. rewrite app_length in L. lia.
  - injection E as _ E. eapply IH; eassumption.
Qed.
Lemma number_ok id_n tl : renaming id_n (id_n + Z.of_nat (length tl)) (fun v => In v tl) (number id_n tl).
Proof.
  split; [lia|]. split.
  - intros v I. unfold number. destruct (memv_tail_split _ _ I) as (pre & suf & E & ->). rewrite E, app_length. cbn [length]. lia.
  - intros v w I J. unfold number. destruct (memv_tail_split _ _ I) as (pre & suf & E & ->). destruct (memv_tail_split _ _ J) as (pre' & suf' & E' & ->).
    intros L. assert (v :: suf = w :: suf') by (apply (app_suffix pre _ pre'); [congruence | cbn [length] in *; lia]). congruence.
Qed.

Section Apply.
Variable numstr : Z -> list Z.
Variable strnum : list Z -> sexp.
Variable r : synrules.
Variable denv mac env : senv.
Hypothesis CO : compiled r denv mac.
Notation ell := (ellipsisp r mac).
Notation is_lit := (fun i => memv i (literal_ids r)).
Notation fits := (fits ell is_lit (same_meaning denv env)).
Notation took := (took ell is_lit).
Notation same_ref := (fun p s => loc_eqb (lookup_sid p mac) (lookup_sid s env)).
Notation conv := (fun k args => sbox_conv numstr strnum k args env).
Lemma fits_same p s : Spec_Syntax.fits ell is_lit (fun p s => same_ref p s = true) p s <-> fits p s.
Proof.
  split; intros F.
  - induction F; try (now constructor). apply fit_lit; try assumption. apply loc_eqb_eq in H2. unfold same_meaning. rewrite <- H2. symmetry. apply (c_lit _ _ _ CO). now apply memv_in.
  - induction F; try (now constructor). apply fit_lit; try assumption. apply loc_eqb_eq. rewrite <- H2. apply (c_lit _ _ _ CO). now apply memv_in.
Qed.

Lemma applies_fits pat x : applies fits pat x -> fits (tail_of pat) (tail_of x).
Proof.
  intros [(k & p & k' & s & -> & -> & F) | (S & S')]; [exact F|]. destruct pat; try discriminate; destruct x; try discriminate; cbn; now apply fit_atom.
Qed.
Definition try_rule (id_n : Z) (pat tmpl x : sexp) : option (sexp * Z) :=
  match make_bindings ell is_lit (tail_of pat) (tail_of x) [] with
  | Some top => expand_template numstr strnum r mac env id_n (tail_of pat) tmpl top
  | None => None
  end.
Lemma apply_rules_picks id_n x rl : (forall rule, In rule rl -> In rule (rules r)) -> forall pat tmpl, picks fits rl x pat tmpl ->
  apply_rules numstr strnum r mac env id_n rl x = try_rule id_n pat tmpl x.
Proof.
  induction rl as [|[pat0 tmpl0] rl IH]; intros SUB pat tmpl (before & after & E & A & B); [destruct before; discriminate|].
  assert (M : forall k p k' s, pat0 = SCons k p -> (matches ell is_lit same_ref p s = true <-> applies fits (SCons k p) (SCons k' s))).
  { intros k p k' s ->. destruct (c_rule _ _ _ CO _ _ (SUB _ (or_introl eq_refl))) as (pe & c & CP & _). cbn [tail_of] in CP. unfold check_ellipses in CP. rewrite !andb_true_iff in CP.
    rewrite (matches_fits ell is_lit (ell_sid r mac) same_ref) by apply CP. rewrite fits_same. unfold applies. split.
    - intros F. left. exists k, p, k', s. now repeat split.
    - intros [(k1 & p1 & k2 & s1 & [= <- <-] & [= <- <-] & F) | (? & ?)]; [assumption | discriminate]. }
  destruct before as [|r0 before].
  - injection E as -> -> ->. cbn [apply_rules]. destruct A as [(k & p & k' & s & -> & -> & F) | (S & S')].
    + assert (matches ell is_lit same_ref p s = true) as -> by (apply (M k p k' s eq_refl); left; exists k, p, k', s; now repeat split). reflexivity.
    + unfold try_rule. destruct pat; try discriminate; destruct x; try discriminate; reflexivity.
  - injection E as <- ->. assert (NA := B _ (or_introl eq_refl)). cbn [fst] in NA.
    assert (IH' : apply_rules numstr strnum r mac env id_n (before ++ (pat, tmpl) :: after) x = try_rule id_n pat tmpl x).
    { apply IH; [intros; apply SUB; now right|]. exists before, after. split; [reflexivity|]. split; [assumption|]. intros r' I. apply B. now right. }
    cbn [apply_rules]. destruct pat0; try (destruct (sidp _ && sidp x) eqn:S; [exfalso; apply NA; right; now apply andb_true_iff in S | exact IH']).
    destruct x; try exact IH'. destruct (matches ell is_lit same_ref pat0_2 x2) eqn:X; [|exact IH']. exfalso. apply NA. now apply (M _ _ _ _ eq_refl).
Qed.
Lemma apply_rules_none id_n x rl : (forall rule, In rule rl -> In rule (rules r)) -> (forall rule, In rule rl -> ~ applies fits (fst rule) x) ->
  apply_rules numstr strnum r mac env id_n rl x = None.
Proof.
  induction rl as [|[pat0 tmpl0] rl IH]; intros SUB N; [reflexivity|]. assert (NA := N _ (or_introl eq_refl)). cbn [fst] in NA.
  assert (IH' := IH (fun rule I => SUB rule (or_intror I)) (fun rule I => N rule (or_intror I))). cbn [apply_rules].
  destruct pat0; try (destruct (sidp _ && sidp x) eqn:S; [exfalso; apply NA; right; now apply andb_true_iff in S | exact IH']).
  destruct x; try exact IH'. destruct (matches ell is_lit same_ref pat0_2 x2) eqn:X; [|exact IH']. exfalso. apply NA. left.
  destruct (c_rule _ _ _ CO _ _ (SUB _ (or_introl eq_refl))) as (pe & c & CP & _). cbn [tail_of] in CP. unfold check_ellipses in CP. rewrite !andb_true_iff in CP.
  apply (matches_fits ell is_lit (ell_sid r mac) same_ref) in X; [|apply CP]. apply fits_same in X. do 4 eexists. split; [reflexivity|]. split; [reflexivity | exact X].
Qed.
Lemma rule_bindings pat tmpl x : In (pat, tmpl) (rules r) -> fits (tail_of pat) (tail_of x) -> exists B,
  make_bindings ell is_lit (tail_of pat) (tail_of x) [] = Some B /\ map fst B = vs ell is_lit (tail_of pat) /\ NoDup (map fst B) /\
  forall v t, assv v B = Some t <-> took (tail_of pat) (tail_of x) v t.
Proof.
  intros I F. destruct (c_rule _ _ _ CO _ _ I) as (pe & c & CP & _ & PE & _). unfold check_ellipses in CP. rewrite !andb_true_iff in CP. destruct CP as [_ CP].
  destruct (pat_env_ok _ is_lit (ell_sid r mac) _ CP _ _ _ PE (NoDup_nil _)) as (pe' & E & N & K & _). rewrite app_nil_r in E. subst pe'.
  rewrite K in N. apply fits_same in F. destruct (bindings_ok ell is_lit (ell_sid r mac) same_ref _ CP N _ F) as (B & M & KB & T).
  exists B. split; [rewrite M; now rewrite app_nil_r|]. split; [assumption|]. split; [now rewrite KB|]. intros v t. rewrite assv_nodup by (now rewrite KB). apply T.
Qed.
Lemma rule_expansion id_n pat tmpl x : In (pat, tmpl) (rules r) -> applies fits pat x -> exists look ren num n',
  (forall v t, look v = Some t <-> took (tail_of pat) (tail_of x) v t) /\
  renaming id_n n' (fun v => occurs ell tmpl v /\ look v = None) num /\
  (forall t, inside t tmpl -> sidp t = true -> ell t = false -> look (sid_id t) = None -> ren t = SRen (sid_name t) (IdNum (num (sid_id t))) (lookup_sid t denv)) /\
  (forall out m, try_rule id_n pat tmpl x = Some (out, m) <-> m = n' /\ instance ell conv ren look tmpl out) /\
  (forall t, exists i l, ren t = SRen (sid_name t) (IdNum i) l /\ (occurs ell tmpl (sid_id t) -> look (sid_id t) = None -> i = num (sid_id t))).
Proof.
  intros I A. apply applies_fits in A. destruct (c_rule _ _ _ CO _ _ I) as (pe & c & CP & CT & PE & CV & LK).
  destruct (rule_bindings _ _ _ I A) as (B & MB & KB & NB & T).
  unfold check_ellipses in CP, CT. rewrite !andb_true_iff in CP, CT. destruct CP as [_ CP]. destruct CT as [_ CT].
  destruct (pat_env_ok _ is_lit (ell_sid r mac) _ CP _ _ _ PE (NoDup_nil _)) as (pe' & E & N & K & D & V). rewrite app_nil_r in E. subst pe'.
  set (tl := remove_dups (list_ids ell (fun i => match assv i B with Some _ => false | None => true end) tmpl true []) []).
  set (ev := list_ids ell (fun i => negb (memv i (literal_ids r))) (tail_of pat) false []).
  assert (TL : forall v, In v tl <-> occurs ell tmpl v /\ assv v B = None).
  { intros v. unfold tl. rewrite remove_dups_in, list_ids_in. cbn [In]. destruct (assv v B); split; intuition congruence. }
  assert (KK : forall v, assv v pe = None <-> assv v B = None) by (intros v; rewrite !assv_none, K, KB; reflexivity).
  assert (EV : forall v, In v ev <-> exists d, assv v pe = Some (S d)).
  { intros v. unfold ev. rewrite V. split.
    - intros (d & X & L). destruct d as [|d]; [lia|]. exists d. now apply assv_nodup.
    - intros (d & X). exists (S d). split; [now apply assv_in | lia]. }
  exists (fun v => assv v B), (rename mac id_n tl), (number id_n tl), (id_n + Z.of_nat (length tl)).
  split; [assumption|]. split; [|split; [|split]].
  - destruct (number_ok id_n tl) as (P & Q & R). split; [assumption|]. split; [intros v Hv; apply Q; now apply TL | intros v w Hv Hw; apply R; now apply TL].
  - intros t J S NE L. unfold rename, make_sid, number. f_equal. apply LK; try assumption. now apply KK.
  - intros out m. unfold try_rule. rewrite MB. unfold expand_template. fold tl ev.
    assert (X := expand_instance numstr strnum ell env mac id_n B tl ev pe EV tmpl CT 0 c B (fun v => assv v B) CV).
    rewrite <- X.
    + destruct (expand _ _ _ _ _ _ _ _ _ _ _); cbn; [|split; [discriminate | intros [_ H]; discriminate]]. split; [intros [= <- <-]; now split | intros [-> [= <-]]; reflexivity].
    + intros v O. unfold inv. destruct (assv v pe) as [[|d]|] eqn:Z.
      * split; [reflexivity|]. split; [now right|]. destruct (assv v B) as [t|] eqn:Y; [|apply KK in Y; congruence]. apply assv_in in Z. apply T in Y. apply D in Z. destruct Z as [_ Z]. apply Z in Y. inversion Y; subst. eauto.
      * split; [reflexivity|]. destruct (assv v B) as [t|] eqn:Y; [|apply KK in Y; congruence]. exists t. split; [reflexivity|]. apply assv_in in Z. apply T in Y. apply D in Z. destruct Z as [_ Z]. apply Z in Y. exact Y.
      * apply KK in Z. now repeat split.
  - intros t. unfold rename, make_sid. do 2 eexists. split; [reflexivity|]. intros _ _. reflexivity.
Qed.

(** ** A pattern used as its own template *)
Lemma pattern_instance ren look pe p : check ell false p = true -> check ell true p = true -> NoDup (vs ell is_lit p) -> (forall v, occurs ell p v -> is_lit v = false) ->
  (exists k c, check_var_depths ell pe p k = Some c) ->
  forall s, fits p s -> (forall v t, occurs ell p v -> (look v = Some t <-> took p s v t)) -> instance ell conv ren look p s.
Proof.
  revert look. induction p as [p IH] using size_ind. intros look C C' N NL CL s F L.
  inversion F; subst.
  - apply in_var; [assumption|]. apply L; now constructor.
  - exfalso. rewrite NL in H0 by now constructor. discriminate.
  - apply in_vec. apply IH; try assumption.
    + cbn; lia.
    + revert C. cbn. rewrite andb_true_iff. tauto.
    + revert C'. cbn. rewrite andb_true_iff. tauto.
    + intros v O. apply NL. now constructor.
    + intros v t O. rewrite L by now constructor. split; [inversion 1; subst; [discriminate | assumption] | now constructor].
  - exfalso. apply check_box in C. destruct C as (k' & p' & [= <- <-] & PS & _). cbn [check] in C'. rewrite andb_true_iff in C'. destruct C' as [C' _].
    revert C' PS. unfold template_sboxp, pattern_sbox. clear. intros TS PS.
    destruct (zlist_dec k (codes "number?"%string)) as [-> |]; [vm_compute in TS; discriminate|]. destruct (zlist_dec k (codes "string?"%string)) as [-> |]; [vm_compute in TS; discriminate|].
    destruct (zlist_dec k (codes "id?"%string)) as [-> |]; [vm_compute in TS; discriminate | discriminate].
  - now apply in_atom.
  - rename H into P. destruct (check_pair _ _ _ _ P C) as (C1 & C2 & _). destruct (check_pair _ _ _ _ P C') as (C1' & C2' & _). destruct CL as (kk & cc & CL). rewrite cvd_pair in CL by assumption.
    destruct (check_var_depths ell pe p0 kk) as [c1|] eqn:CL1; [|discriminate]. destruct (check_var_depths ell pe q kk) as [c2|] eqn:CL2; [|discriminate]. rewrite vs_pair in N by assumption.
    assert (DJ : forall v, occurs ell p0 v -> occurs ell q v -> False).
    { intros v O1 O2. apply (nodup_disj _ _ v N); apply vs_in; (split; [assumption|]); [apply NL; now apply oc_car | apply NL; now apply oc_cdr]. }
    apply in_pair; [assumption | |].
    + apply (IH p0); try assumption; [cbn; lia | now apply nodup_l in N | intros v O; apply NL; now apply oc_car | eauto|].
      intros v t O. rewrite L by now apply oc_car. split; [|intros T; now apply tk_car]. inversion 1; subst; try discriminate; try assumption; try (specialize (P _ _ eq_refl); congruence).
      exfalso. match goal with T : took q b v t |- _ => apply took_vs, vs_in in T; now apply (DJ v) end.
    + apply (IH q); try assumption; [cbn; lia | now apply nodup_r in N | intros v O; apply NL; now apply oc_cdr | eauto|].
      intros v t O. rewrite L by now apply oc_cdr. split; [|intros T; now apply tk_cdr]. inversion 1; subst; try discriminate; try assumption; try (specialize (P _ _ eq_refl); congruence).
      exfalso. match goal with T : took p0 a v t |- _ => apply took_vs, vs_in in T; now apply (DJ v) end.
  - rename H into E. rename H0 into FS. rename H1 into Fd. rename t into s. destruct (check_rep _ _ _ _ E C) as (C1 & C2 & C3). assert (C4 := no_ell_check _ (ell_sid r mac) _ C2 C3).
    destruct (check_rep_t _ _ _ _ E C') as (C1' & C2'). rewrite vs_rep in N by assumption.
    assert (PQ : pairs d = pairs s) by (apply fits_same in Fd; destruct (fits_list ell is_lit same_ref _ C2 C3 _ Fd); assumption).
    assert (DJ : forall v, occurs ell p0 v -> occurs ell d v -> False).
    { intros v O1 O2. apply (nodup_disj _ _ v N); apply vs_in; (split; [assumption|]); [apply NL; now apply oc_rep | apply NL; now apply oc_tail]. }
    assert (TS : forall v, occurs ell p0 v -> exists ts, look v = Some (BList ts) /\ Forall2 (fun f t => took p0 f v t) fs ts).
    { intros v O. assert (LI : is_lit v = false) by (apply NL; now apply oc_rep).
      assert (G : exists ts, Forall2 (fun f t => took p0 f v t) fs ts).
      { clear -FS O LI C1 N CO. induction fs as [|f fs IHf]; [exists []; constructor|]. destruct IHf as (ts & T); [firstorder|].
        assert (Ff : fits p0 f) by (apply FS; now left). apply fits_same in Ff. destruct (bindings_ok ell is_lit (ell_sid r mac) same_ref p0 C1 (nodup_l _ _ N) _ Ff) as (B & _ & K & TB).
        assert (I : In v (map fst B)) by (rewrite K; now apply vs_in). apply in_map_iff in I. destruct I as ([v' t] & <- & I). exists (t :: ts). constructor; [now apply TB | assumption]. }
      destruct G as (ts & T). exists ts. split; [|assumption]. apply L; [now apply oc_rep|]. now apply tk_rep. }
    destruct CL as (kk & cc & CL). rewrite cvd_rep in CL by assumption.
    destruct (check_var_depths ell pe p0 (S kk)) as [c1|] eqn:CL1; [|discriminate]. destruct (check_var_depths ell pe d kk) as [c2|] eqn:CL2; [|discriminate].
    destruct c1; [|discriminate]. destruct (cvd_closed _ _ _ _ CL1) as (v0 & ? & O0 & _). destruct (TS v0 O0) as (ts0 & L0 & T0).
    apply in_rep; [assumption| | | |].
    + eauto.
    + intros v l O Lv. destruct (TS v O) as (ts & L1 & T1). assert (l = ts) as -> by congruence. symmetry. now apply F2_len in T1.
    + intros i f Hf. apply (IH p0); try assumption; [cbn; lia | now apply nodup_l in N | intros v O; apply NL; now apply oc_rep | eauto | apply FS; now apply nth_error_In in Hf|].
      intros v t O. destruct (TS v O) as (ts & L1 & T1). unfold shift. rewrite L1.
      assert (G : exists t0, nth_error ts i = Some t0 /\ took p0 f v t0).
      { clear -T1 Hf. revert i Hf. induction T1 as [|f' t' fs ts H T1 IHT]; intros [|i] Hf; cbn in Hf; try discriminate; [injection Hf as ->; exists t'; now split | now apply IHT]. }
      destruct G as (t0 & Nt & Tt). rewrite Nt. split; [intros [= <-]; assumption|]. intros Tt'. f_equal.
      assert (Ff : fits p0 f) by (apply FS; now apply nth_error_In in Hf). apply fits_same in Ff. destruct (bindings_ok ell is_lit (ell_sid r mac) same_ref p0 C1 (nodup_l _ _ N) _ Ff) as (B & _ & K & TB).
      apply TB in Tt, Tt'. apply assv_nodup in Tt; [|rewrite K; now apply nodup_l in N]. apply assv_nodup in Tt'; [|rewrite K; now apply nodup_l in N]. congruence.
    + apply (IH d); try assumption; [cbn; lia | now apply nodup_r in N | intros v O; apply NL; now apply oc_tail | eauto|].
      intros v t O. rewrite L by now apply oc_tail. split; [|intros T; now apply tk_tail]. inversion 1; subst; try discriminate.
      * match goal with P : plain_cdr _ (SCons _ _) |- _ => specialize (P _ _ eq_refl); congruence end.
      * match goal with P : plain_cdr _ (SCons _ _) |- _ => specialize (P _ _ eq_refl); congruence end.
      * exfalso. now apply (DJ v).
      * match goal with X : sapp _ _ = sapp _ _ |- _ => apply sapp_unique in X; [destruct X; subst | congruence] end. assumption.
Qed.
End Apply.

(** ** Numbers of identifiers *)
Inductive bb (n : Z -> Prop) : bval -> Prop :=
| bb_leaf s : ids_in n s -> bb n (BLeaf s)
| bb_list l : (forall b, In b l -> bb n b) -> bb n (BList l).
Lemma below_sapp n l x : ids_in n (sapp l x) <-> (forall y, In y l -> ids_in n y) /\ ids_in n x.
Proof.
  induction l as [|a l IH]; cbn [sapp ids_in]; [cbn; tauto|]. rewrite IH. split.
  - intros (A & B & C). split; [intros y [<-|I]; auto | assumption].
  - intros (A & B). split; [apply A; now left|]. split; [intros; apply A; now right | assumption].
Qed.
Lemma below_mono (n m : Z -> Prop) x : (forall i, n i -> m i) -> ids_in n x -> ids_in m x.
Proof. intros L. induction x; cbn; try tauto. destruct i; [trivial | apply L]. Qed.
Lemma took_below ell is_lit n p : forall s v t, ids_in n s -> took ell is_lit p s v t -> bb n t.
Proof.
  induction p as [p IH] using size_ind. intros s v t B T. inversion T; subst.
  - now constructor.
  - eapply (IH p0); [cbn; lia | | eassumption]; exact B.
  - eapply (IH p0); [cbn; lia | | eassumption]; exact B.
  - eapply (IH p0); [cbn; lia | | eassumption]; exact (proj1 B).
  - eapply (IH q); [cbn; lia | | eassumption]; exact (proj2 B).
  - apply below_sapp in B. destruct B as [B _]. constructor. intros b I. match goal with F : Forall2 _ fs ts |- _ => rename F into F2 end. clear -IH B I F2.
    induction F2 as [|f t fs ts H F2 IHF]; [destruct I|]. destruct I as [-> | I]; [|apply IHF; first [assumption | intros; apply B; now right]].
    eapply (IH p0); [cbn; lia | apply B; now left | exact H].
  - apply below_sapp in B. destruct B as [_ B]. eapply (IH d); [cbn; lia | | eassumption]; exact B.
Qed.
Lemma below_slist n l : (forall y, In y l -> ids_in n y) -> ids_in n (slist l).
Proof. intros H. rewrite slist_sapp. apply below_sapp. split; [assumption | exact Logic.I]. Qed.
Lemma conv_below numstr strnum n k args env x : (forall s, ids_in n (strnum s)) -> sbox_conv numstr strnum k args env = Some x -> ids_in n x.
Proof.
  intros S. unfold sbox_conv.
  destruct (zlist_dec k _); [destruct args as [|[] ?| | | | | | | | |]; try discriminate; now intros [= <-]|].
  destruct (zlist_dec k _); [destruct args as [|[] ?| | | | | | | | |]; try discriminate; intros [= <-]; apply S|].
  destruct (zlist_dec k _); [destruct args; try discriminate; destruct (chars _); try discriminate; now intros [= <-]|].
  destruct (zlist_dec k _); [destruct args as [|[] ?| | | | | | | | |]; try discriminate; intros [= <-]; apply below_slist; intros y I; apply in_map_iff in I; destruct I as (c & <- & _); exact Logic.I|].
  destruct (zlist_dec k _); [destruct args; try discriminate; destruct (elements _); try discriminate; now intros [= <-]|].
  destruct (zlist_dec k _); [destruct (strings _); try discriminate; now intros [= <-]|].
  destruct (zlist_dec k _); [destruct (numbers _ _ _); try discriminate; now intros [= <-]|].
  destruct (zlist_dec k _); [destruct (numbers _ _ _); try discriminate; now intros [= <-]|].
  destruct (zlist_dec k _); [destruct args; try discriminate; destruct (sidp _); try discriminate; now intros [= <-]|].
  destruct (zlist_dec k _); [destruct args as [|[] ?| | | | | | | | |]; try discriminate; now intros [= <-]|]. discriminate.
Qed.
Lemma instance_below ell conv ren n look t out : (forall k args x, conv k args = Some x -> ids_in n x) -> instance ell conv ren look t out ->
  (forall v b, look v = Some b -> bb n b) -> (forall u, occurs ell t (sid_id u) -> look (sid_id u) = None -> ids_in n (ren u)) -> ids_in n out.
Proof.
  intros C I. induction I; intros LK RN.
  - apply LK in H0. now inversion H0.
  - apply RN; [now apply oc_here | assumption].
  - destruct t; try contradiction; exact Logic.I.
  - cbn. apply IHI; [assumption|]. intros u O. apply RN. now apply oc_vec.
  - eapply C. eassumption.
  - cbn. split; [apply IHI1 | apply IHI2]; try assumption; intros u O; apply RN; [now apply oc_car | now apply oc_cdr].
  - apply below_sapp. split.
    + intros y0 Iy. apply In_nth_error in Iy. destruct Iy as (i & N). apply (H3 i y0 N).
      * intros v b. unfold shift. destruct (look v) as [[s|l]|] eqn:L; try discriminate.
        -- intros [= <-]. now apply LK in L.
        -- intros X. apply nth_error_In in X. apply LK in L. inversion L; subst. auto.
      * intros u O S. apply RN; [now apply oc_rep|]. unfold shift in S. destruct (look (sid_id u)) as [[s|l]|] eqn:L; [discriminate | | reflexivity].
        exfalso. assert (length l = length outs) by (eapply H1; eassumption). apply nth_error_None in S. assert (i < length outs)%nat by (apply nth_error_Some; congruence). lia.
    + apply IHI; [assumption|]. intros u O. apply RN. now apply oc_tail.
Qed.
Lemma applies_dec r denv mac env pat tmpl x : compiled r denv mac -> In (pat, tmpl) (rules r) ->
  let F := fits (ellipsisp r mac) (fun i => memv i (literal_ids r)) (same_meaning denv env) in applies F pat x \/ ~ applies F pat x.
Proof.
  intros CO I F. destruct (sidp pat && sidp x) eqn:S; [left; right; now apply andb_true_iff in S|].
  assert (NS : ~ (sidp pat = true /\ sidp x = true)) by (rewrite andb_false_iff in S; intros []; destruct S; congruence).
  destruct pat; try (right; intros [(k & p & k' & s0 & [=] & _) | X]; contradiction).
  destruct x; try (right; intros [(k & p & k' & s0 & _ & [=] & _) | X]; contradiction).
  destruct (c_rule _ _ _ CO _ _ I) as (pe & c & CP & _). cbn [tail_of] in CP. unfold check_ellipses in CP. rewrite !andb_true_iff in CP.
  assert (M := matches_fits (ellipsisp r mac) (fun i => memv i (literal_ids r)) (ell_sid r mac) (fun p s => loc_eqb (lookup_sid p mac) (lookup_sid s env)) pat2 (proj2 CP) x2).
  rewrite (fits_same r denv mac env CO) in M. destruct (matches _ _ _ pat2 x2) eqn:X.
  - left. left. do 4 eexists. split; [reflexivity|]. split; [reflexivity|]. now apply M.
  - right. intros [(k & p & k' & s & [= <- <-] & [= <- <-] & Y) | Y]; [apply M in Y; discriminate | contradiction].
Qed.
Lemma apply_cases numstr strnum r denv mac env id_n x : compiled r denv mac ->
  let F := fits (ellipsisp r mac) (fun i => memv i (literal_ids r)) (same_meaning denv env) in
  (exists pat tmpl, picks F (rules r) x pat tmpl) \/ ((forall rule, In rule (rules r) -> ~ applies F (fst rule) x) /\ apply_synrules numstr strnum r mac env id_n x = None).
Proof.
  intros CO F. assert (DEC := fun pat tmpl => applies_dec r denv mac env pat tmpl x CO). cbn zeta in DEC. fold F in DEC.
  assert (P : (exists pat tmpl, picks F (rules r) x pat tmpl) \/ forall rule, In rule (rules r) -> ~ applies F (fst rule) x).
  { clear -DEC. induction (rules r) as [|[p t] rl IH]; [right; intros ? []|]. destruct (DEC p t (or_introl eq_refl)) as [Y | N].
    - left. exists p, t, [], rl. split; [reflexivity|]. split; [assumption | intros ? []].
    - destruct IH as [(p' & t' & before & after & E & Y & Z) | Z]; [intros; apply (DEC pat tmpl); now right | left | right].
      + exists p', t', ((p, t) :: before), after. split; [now rewrite E|]. split; [assumption|]. intros r0 [<-|I]; [assumption | auto].
      + intros rule [<-|I]; [assumption | auto]. }
  destruct P as [P | P]; [now left | right]. split; [assumption|]. apply (apply_rules_none numstr strnum r denv mac env CO id_n x (rules r) (fun _ H => H) P).
Qed.
Lemma apply_below numstr strnum r denv mac env id_n x out n' (P : Z -> Prop) : (forall s, ids_in P (strnum s)) -> compiled r denv mac -> ids_in P x ->
  apply_synrules numstr strnum r mac env id_n x = Some (out, n') -> (forall i, id_n <= i < n' -> P i) -> id_n <= n' /\ ids_in P out.
Proof.
  intros SN CO B A H. destruct (apply_cases numstr strnum r denv mac env id_n x CO) as [(pat & tmpl & PK) | [_ X]]; [|congruence].
  unfold apply_synrules in A. rewrite (apply_rules_picks numstr strnum r denv mac env CO id_n x (rules r) (fun _ H => H) pat tmpl PK) in A. destruct PK as (before & after & E & Y & _).
  assert (I : In (pat, tmpl) (rules r)) by (rewrite E; apply in_or_app; right; now left).
  destruct (rule_expansion numstr strnum r denv mac env CO id_n pat tmpl x I Y) as (look & ren & num & n1 & T & (L & RG & _) & _ & EX & RN). apply EX in A. destruct A as [-> A]. split; [assumption|].
  eapply instance_below; [|exact A| |].
  - intros k args y. apply conv_below. apply SN.
  - intros v b J. apply T in J. eapply took_below; [|exact J]. destruct x; cbn in B |- *; tauto.
  - intros u O N. destruct (RN u) as (i & l & -> & Hi). cbn. rewrite Hi by assumption. apply H, RG. now split.
Qed.
Lemma rebuild numstr strnum r denv mac env id_n x k p : compiled r denv mac ->
  picks (fits (ellipsisp r mac) (fun i => memv i (literal_ids r)) (same_meaning denv env)) (rules r) x (SCons k p) p ->
  (forall v, occurs (ellipsisp r mac) p v -> ~ In v (literal_ids r)) ->
  apply_synrules numstr strnum r mac env id_n x = Some (tail_of x, id_n).
Proof.
  intros CO P NL. unfold apply_synrules. rewrite (apply_rules_picks numstr strnum r denv mac env CO id_n x (rules r) (fun _ H => H) _ _ P).
  destruct P as (before & after & E & Y & _). assert (I : In (SCons k p, p) (rules r)) by (rewrite E; apply in_or_app; right; now left).
  assert (F := applies_fits _ _ _ _ _ _ Y). cbn [tail_of] in F.
  destruct (c_rule _ _ _ CO _ _ I) as (pe & c & CP & CT & PE & CV & _). cbn [tail_of] in CP, PE.
  destruct (rule_bindings r denv mac env CO (SCons k p) p x I F) as (B & MB & KB & NB & TB). cbn [tail_of] in KB, TB, MB.
  unfold check_ellipses in CP, CT. rewrite !andb_true_iff in CP, CT. destruct CP as [_ CP]. destruct CT as [_ CT].
  destruct (rule_expansion numstr strnum r denv mac env CO id_n (SCons k p) p x I Y) as (look & ren & num & n1 & T & RG & _ & EX & RN). cbn [tail_of] in T.
  assert (NB' : NoDup (vs (ellipsisp r mac) (fun i => memv i (literal_ids r)) p)) by (rewrite <- KB; assumption).
  assert (NL' : forall v, occurs (ellipsisp r mac) p v -> memv v (literal_ids r) = false).
  { intros v O. destruct (memv v (literal_ids r)) eqn:M; [|reflexivity]. apply memv_in in M. now apply NL in O. }
  assert (INS : instance (ellipsisp r mac) (fun k args => sbox_conv numstr strnum k args env) ren look p (tail_of x)).
  { eapply (pattern_instance numstr strnum r denv mac env CO ren look pe p CP CT NB' NL'); [eauto | exact F | intros v t _; apply T]. }
  apply EX. split; [|exact INS].
  (* no identifier is new *)
  assert (NEW : forall v, occurs (ellipsisp r mac) p v -> exists t, look v = Some t).
  { intros v O. assert (Iv : In v (map fst B)) by (rewrite KB; apply vs_in; split; [assumption | now apply NL']). apply in_map_iff in Iv. destruct Iv as ([v' t] & <- & Iv). exists t. apply T. apply TB. now apply assv_nodup. }
  assert (X : try_rule numstr strnum r mac env id_n (SCons k p) p x = Some (tail_of x, n1)) by (apply EX; now split).
  unfold try_rule in X. cbn [tail_of] in X. rewrite MB in X. unfold expand_template in X.
  assert (TL : remove_dups (list_ids (ellipsisp r mac) (fun i => match assv i B with Some _ => false | None => true end) p true []) [] = []).
  { destruct (remove_dups _ []) as [|v l] eqn:R; [reflexivity|]. exfalso. assert (Iv : In v (v :: l)) by now left. rewrite <- R in Iv. apply remove_dups_in in Iv.
    destruct Iv as [Iv | []]. apply list_ids_in in Iv. destruct Iv as [O Iv]. destruct (NEW v O) as (t & Lt). apply T, TB in Lt. rewrite Lt in Iv. discriminate. }
  rewrite TL in X. destruct (expand _ _ _ _ _ _ _ _ _ _ _); [|discriminate]. cbn in X. injection X as _ X. lia.
Qed.
