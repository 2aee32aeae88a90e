(** The analysis of globals: functions moved to the C stack. *)
From Coq Require Import ZArith List Bool Lia.
From Verif Require Import Model_Lit Model_Core Model_Globals Spec_Sem Spec_Free Spec_Scope Spec_Lift Spec_Fold Spec_Letrec Spec_Globals Proofs_Sim Proofs_Core Proofs_Free Proofs_Agree Proofs_Globals Proofs_GlobalsDefs Proofs_GlobalsOk Proofs_GlobalsMain.
Import ListNotations.
Open Scope Z_scope.

Lemma body_mono self xs ls t e : c_body self xs ls t e -> t = false -> c_body self xs ls true e.
Proof. induction 1; intros E; try discriminate; try (econstructor; eauto; fail). Qed.
Lemma body_any self xs ls t e : c_body self xs ls false e -> c_body self xs ls t e.
Proof. destruct t; [|auto]. intros H. now apply (body_mono _ _ _ false). Qed.
Lemma and_then_true a b : and_then a b = Some true -> a = Some true /\ b = Some true.
Proof. destruct a as [[]|]; cbn; intros H; try discriminate. auto. Qed.
Lemma andmap_true f l : andmap f l = Some true -> forall e, In e l -> f e = Some true.
Proof. induction l as [|a l IH]; [easy|]. cbn. destruct (f a) as [[]|] eqn:E; try discriminate. intros H e [<-|I]; auto. Qed.
Lemma safe_alloc ef : gc_safe_effect ef = true -> ~ may_alloc ef.
Proof. destruct ef; cbn; easy. Qed.
Lemma let_view_app f l ys rs b : let_view (EApp f l) = Some (ys, rs, b) -> f = ELam ys b /\ length ys = length l.
Proof. cbn. destruct f; try discriminate. destruct (Nat.eqb (length xs) (length l)) eqn:E; [|discriminate]. intros [= -> <- ->]. apply Nat.eqb_eq in E. auto. Qed.
Lemma rec_view_inv e x l : rec_view e = Some (x, l) -> exists ls, e = EFix [x] (l :: ls) (EVar x).
Proof.
  unfold rec_view. destruct e; try discriminate. destruct xs as [|y []]; try discriminate. destruct lams as [|l0 ls]; try discriminate. destruct e; try discriminate. destruct (id_eqb y x0) eqn:E; [|discriminate].
  apply id_eqb_eq in E. subst. intros [= -> ->]. eauto.
Qed.
Lemma assq_locals x ys (k : known) : assq x (subst_locals ys k) = if memq x ys then Some None else assq x k.
Proof.
  unfold subst_locals. destruct (memq x ys) eqn:M.
  - apply memq_In in M. rewrite (in_rev ys) in M. rewrite <- map_rev. induction (rev ys) as [|y zs IH]; [easy|]. cbn. destruct (id_eqb x y) eqn:E; [reflexivity|]. apply IH. destruct M as [->|M]; [now rewrite id_eqb_refl in E | assumption].
  - assert (N : ~ In x (rev ys)) by (intros I; apply in_rev in I; apply memq_In in I; congruence). rewrite <- map_rev. induction (rev ys) as [|y zs IH]; [reflexivity|]. cbn. destruct (id_eqb x y) eqn:E; [apply id_eqb_eq in E; subst; destruct N; now left|]. apply IH. intros I. apply N. now right.
Qed.
Lemma assq_know x s : assq x (know s) = option_map (fun t => Some (e_exp t)) (find_entry x s).
Proof. induction s as [|t s IH]; [reflexivity|]. cbn. destruct (id_eqb x (e_id t)); [reflexivity | exact IH]. Qed.

Section Stack.
Variable P : prim -> script.
Variable self : id.
Variable s : list entry.
(** what is known of variables: [xs] are the local ones *)
Record knows (k : known) (xs : list id) : Prop := {
  kn_local : forall z, assq z k = Some None -> In z xs;
  kn_global : forall z, global_id z = true -> assq z k = assq z (know s);
  kn_key : forall z e, assq z k = Some (Some e) -> global_id z = true }.
Definition resolved (z : id) : Prop := find_entry z s = None \/ exists t, find_entry z s = Some t /\ e_exp t = EVar z /\ private z = true.
Lemma knows_more k xs ys : (forall y, In y ys -> global_id y = false) -> knows k xs -> knows (subst_locals ys k) (ys ++ xs).
Proof.
  intros L K. split.
  - intros z E. rewrite assq_locals in E. apply in_or_app. destruct (memq z ys) eqn:M; [left; now apply memq_In | right; now apply (kn_local _ _ K)].
  - intros z G. rewrite assq_locals. destruct (memq z ys) eqn:M; [apply memq_In, L in M; congruence | now apply (kn_global _ _ K)].
  - intros z e E. rewrite assq_locals in E. destruct (memq z ys); [discriminate | eapply kn_key; eauto].
Qed.
Definition clean (e : exp) : Prop := forall z, In z (refs e) -> global_id z = true -> resolved z.
Lemma clean_part ys e' e : In (ys, e') (parts e) -> clean e -> clean e'.
Proof. intros I C z Z. apply C. now apply (refs_part _ _ _ I). Qed.
Lemma resolved_known k xs z e : knows k xs -> resolved z -> assq z k = Some (Some e) -> e = EVar z /\ private z = true.
Proof.
  intros K R E. assert (G := kn_key _ _ K _ _ E). rewrite (kn_global _ _ K _ G), assq_know in E. destruct R as [R|(t & R & V & Pz)]; rewrite R in E; [discriminate|]. cbn in E. injection E as <-. auto.
Qed.
Lemma clean_body : forall fuel e k xs ls t, knows k xs -> fine P e -> clean e -> stack_fn fuel self e k ls t = Some true -> c_body self xs ls t e.
Proof.
  induction fuel as [|fuel IH]; [discriminate|]. intros e k xs ls t K F C H.
  assert (ALL : forall l, (forall e', In e' l -> exists ys, In (ys, e') (parts e) ) -> andmap (fun e' => stack_fn fuel self e' k ls false) l = Some true -> forall e', In e' l -> c_body self xs ls false e').
  { intros l L A e' I. destruct (L e' I) as (ys & J). apply (IH e' k); [assumption | eapply fine_part; eauto | eapply clean_part; eauto | eapply andmap_true in A; eauto]. }
  destruct e as [x|x e|a b c|ef p l|f l|zs b|ys lams b|y b|k0 e]; cbn [stack_fn] in H; try discriminate.
  - destruct (assq x k) as [[e'|]|] eqn:A; [| |discriminate].
    + assert (G := kn_key _ _ K _ _ A). destruct (resolved_known _ _ _ _ K (C x (or_introl eq_refl) G) A) as (-> & Px). constructor. now right.
    + constructor. left. now apply (kn_local _ _ K).
  - apply and_then_true in H. destruct H as (Ha & H). apply and_then_true in H. destruct H as (Hb & Hc).
    constructor; [apply (IH a k) | apply (IH b k) | apply (IH c k)]; try assumption; try (eapply fine_part; [exact F | cbn; eauto]; fail); eapply clean_part; [|exact C| |exact C| |exact C]; cbn; eauto.
  - destruct (gc_safe_effect ef) eqn:S; [|discriminate]. constructor; [now apply safe_alloc|]. apply ALL; [|assumption]. intros e' I. exists []. now apply in_map.
  - assert (LP : forall e', In e' l -> exists ys, In (ys, e') (parts (EApp f l))) by (intros e' I; exists []; right; now apply in_map).
    destruct (let_view (EApp f l)) as [((ys & rs) & b)|] eqn:LV.
    + apply let_view_app in LV. destruct LV as (-> & LE). apply and_then_true in H. destruct H as (Hl & Hb). assert (Fl : fine P (ELam ys b)) by (eapply fine_part; [exact F | now left]).
      assert (Cl : clean (ELam ys b)) by (apply (clean_part [] _ (EApp (ELam ys b) l)); [now left | assumption]).
      constructor; [assumption | now apply ALL|]. apply (IH b (subst_locals ys k)); [apply knows_more; [|assumption] | | | assumption].
      * intros y Y. eapply fine_bound; [exact Fl | now left | assumption].
      * eapply fine_part; [exact Fl | now left].
      * apply (clean_part ys b (ELam ys b)); [now left | exact Cl].
    + destruct (rec_view f) as [(x & lam)|] eqn:RV.
      * apply rec_view_inv in RV. destruct RV as (lams & ->). apply cb_loop. apply (IH _ k); try assumption.
        { constructor; [discriminate|]. assert (Ff : fine P (EFix [x] (lam :: lams) (EVar x))) by (eapply fine_part; [exact F | now left]). intros zs e' I. cbn in I. destruct I as [[= <- <-]|[[= <- <-]|[]]].
          - split; [intros y Y; apply (fine_bound P [x] (EVar x) _ Ff); [now left | exact Y]|]. constructor; [discriminate|]. intros ws e2 [[= <- <-]|I]; (split; [intros y Y; try (apply in_map_iff in I; destruct I as (e1 & [= <- <-] & I)); destruct Y|]).
            + constructor; [discriminate | easy].
            + apply in_map_iff in I. destruct I as (e1 & [= <- <-] & I). eapply fine_part; [exact F|]. right. now apply in_map.
          - split; [eapply fine_bound; [exact Ff | right; now left] | eapply fine_part; [exact Ff | right; now left]]. }
        { intros z Z. apply C. cbn in Z |- *. repeat (rewrite in_app_iff in * || cbn in * ). tauto. }
      * destruct f as [x| | | | | | | |]; try discriminate. destruct (id_eqb x self) eqn:X; [apply id_eqb_eq in X; subst; constructor; now apply ALL|].
        destruct (t && memq x ls) eqn:T.
        { apply andb_true_iff in T. destruct T as (-> & T). apply memq_In in T. constructor; [assumption | now apply ALL]. }
        destruct (assq x k) as [[e'|]|] eqn:A; try discriminate. assert (G := kn_key _ _ K _ _ A). destruct (resolved_known _ _ _ _ K (C x (or_introl eq_refl) G) A) as (-> & Px). now rewrite id_eqb_refl in H.
  - apply and_then_true in H. destruct H as (Hb & Hl). constructor.
    + apply (IH b k); [assumption | eapply fine_part; [exact F | now left] | apply (clean_part ys b (EFix ys lams b)); [now left | exact C] | assumption].
    + intros lam I. assert (J : In (ys ++ fst lam, snd lam) (parts (EFix ys lams b))) by (right; apply in_map_iff; exists lam; auto).
      apply (IH (snd lam) (subst_locals (fst lam) k)); [apply knows_more; [|assumption] | eapply fine_part; eauto | eapply clean_part; eauto |].
      * intros y Y. eapply fine_bound; [exact F | exact J | apply in_or_app; now right].
      * eapply andmap_true in Hl; [|apply in_map; exact I]. exact Hl.
Qed.
Hypothesis keys_global : forall t, In t s -> global_id (e_id t) = true.
Hypothesis entry_clean : forall z t, find_entry z s = Some t -> clean (e_exp t) /\ fine P (e_exp t).
Hypothesis entry_shape : forall z t, find_entry z s = Some t ->
  (exists c, e_exp t = EVar c /\ global_id c = true /\ (c = z /\ private z = true \/ c <> self /\ find_entry c s = None /\ c <> z)) \/
  match e_exp t with EPrim _ _ _ | EApp _ _ | ELam _ _ => True | _ => False end.
Hypothesis self_new : find_entry self s = None.
Lemma local_new z : global_id z = false -> find_entry z s = None.
Proof. intros G. destruct (find_entry z s) as [t|] eqn:E; [|reflexivity]. apply find_in in E. destruct E as (I & <-). apply keys_global in I. congruence. Qed.
Lemma known_local k xs z : knows k xs -> assq z k = Some None -> global_id z = false /\ In z xs.
Proof.
  intros K A. split; [|now apply (kn_local _ _ K)]. destruct (global_id z) eqn:G; [|reflexivity]. rewrite (kn_global _ _ K _ G), assq_know in A. destruct (find_entry z s); discriminate.
Qed.
Lemma known_entry k xs z e : knows k xs -> assq z k = Some (Some e) -> exists t, find_entry z s = Some t /\ e = e_exp t.
Proof. intros K A. rewrite (kn_global _ _ K _ (kn_key _ _ K _ _ A)), assq_know in A. destruct (find_entry z s) as [t|]; [|discriminate]. cbn in A. injection A as <-. eauto. Qed.
Lemma subst_body : forall N fuel e k xs ls t, (fuel <= N)%nat -> knows k xs -> (forall y, In y ls -> global_id y = false) -> fine P e -> stack_fn fuel self e k ls t = Some true -> c_body self xs ls t (ag_subst s e).
Proof.
  induction N as [|N IHN]; intros fuel e k xs ls t LN K LL F H; (destruct fuel as [|fuel]; [discriminate|]); [lia|].
  assert (IH : forall e k xs ls t, knows k xs -> (forall y, In y ls -> global_id y = false) -> fine P e -> stack_fn fuel self e k ls t = Some true -> c_body self xs ls t (ag_subst s e)) by (intros; eapply (IHN fuel); eauto; lia).
  assert (ALL : forall l, (forall e', In e' l -> exists ys, In (ys, e') (parts e) ) -> andmap (fun e' => stack_fn fuel self e' k ls false) l = Some true -> forall e', In e' (map (ag_subst s) l) -> c_body self xs ls false e').
  { intros l L A e' I. apply in_map_iff in I. destruct I as (e1 & <- & I). destruct (L e1 I) as (ys & J). apply (IH e1 k); [assumption | assumption | eapply fine_part; eauto | eapply andmap_true in A; eauto]. }
  destruct e as [x|x e|a b c|ef p l|f l|zs b|ys lams b|y b|k0 e]; cbn [stack_fn] in H; try discriminate.
  - cbn [ag_subst]. destruct (assq x k) as [[e'|]|] eqn:A; [| |discriminate].
    + destruct (known_entry _ _ _ _ K A) as (t0 & E & ->). rewrite E. destruct (entry_clean _ _ E) as (Ce & Fe).
      assert (B : stack_fn fuel self (e_exp t0) k ls t = Some true -> c_body self xs ls t (e_exp t0)) by (apply clean_body; assumption).
      destruct (e_exp t0) as [y| | | | | | | |] eqn:V; try (apply B; exact H). destruct (id_eqb x y) eqn:X; [|apply B; exact H]. apply id_eqb_eq in X. subst y. constructor. right.
      destruct (entry_shape _ _ E) as [(c & V' & G & [(_ & Pz)|(_ & _ & NN)])|NN]; rewrite V in *; [assumption | congruence | easy].
    + destruct (known_local _ _ _ K A) as (G & I). rewrite (local_new _ G). constructor. now left.
  - apply and_then_true in H. destruct H as (Ha & H). apply and_then_true in H. destruct H as (Hb & Hc). cbn [ag_subst].
    constructor; [apply (IH a k) | apply (IH b k) | apply (IH c k)]; try assumption; (eapply fine_part; [exact F | cbn; eauto]; fail).
  - destruct (gc_safe_effect ef) eqn:S; [|discriminate]. cbn [ag_subst]. constructor; [now apply safe_alloc|]. apply ALL; [|assumption]. intros e' I. exists []. now apply in_map.
  - assert (LP : forall e', In e' l -> exists ys, In (ys, e') (parts (EApp f l))) by (intros e' I; exists []; right; now apply in_map).
    destruct (let_view (EApp f l)) as [((ys & rs) & b)|] eqn:LV.
    + apply let_view_app in LV. destruct LV as (-> & LE). apply and_then_true in H. destruct H as (Hl & Hb). assert (Fl : fine P (ELam ys b)) by (eapply fine_part; [exact F | now left]).
      assert (Bb : c_body self (ys ++ xs) ls t (ag_subst s b)).
      { apply (IH b (subst_locals ys k)); [apply knows_more; [|assumption] | assumption | eapply fine_part; [exact Fl | now left] | assumption]. intros y Y. eapply fine_bound; [exact Fl | now left | assumption]. }
      destruct (degenerate_let (EApp (ELam ys b) l)) as [b0|] eqn:D.
      * rewrite (degenerate_subst s _ _ D). destruct (degenerate_inv _ _ _ D) as [([= -> ->] & ->)|(x & [= -> ->] & ->)]; [exact Bb|]. apply body_any. apply (ALL [b0]); [assumption | assumption | now left].
      * rewrite app_subst, D. cbn [ag_subst]. constructor; [now rewrite map_length | now apply ALL | assumption].
    + assert (ND : ag_subst s (EApp f l) = EApp (ag_subst s f) (map (ag_subst s) l)).
      { rewrite app_subst. destruct (degenerate_let (EApp f l)) as [b0|] eqn:D; [|reflexivity]. destruct (degenerate_inv _ _ _ D) as [(-> & ->)|(x & -> & ->)]; discriminate LV. }
      rewrite ND. destruct (rec_view f) as [(x & lam)|] eqn:RV.
      * apply rec_view_inv in RV. destruct RV as (lams & ->). assert (Ff : fine P (EFix [x] (lam :: lams) (EVar x))) by (eapply fine_part; [exact F | now left]).
        assert (G : global_id x = false) by (apply (fine_bound P [x] (EVar x) _ Ff); now left).
        assert (B : c_body self xs ls t (ag_subst s (EFix [x] [lam] (EApp (EVar x) l)))).
        { apply (IH _ k); try assumption.
          constructor; [discriminate|]. intros zs e' I. cbn in I. destruct I as [[= <- <-]|[[= <- <-]|[]]].
          - split; [intros y Y; apply (fine_bound P [x] (EVar x) _ Ff); [now left | exact Y]|]. constructor; [discriminate|]. intros ws e2 [[= <- <-]|I]; (split; [intros y Y; try (apply in_map_iff in I; destruct I as (e1 & [= <- <-] & I)); destruct Y|]).
            + constructor; [discriminate | easy].
            + apply in_map_iff in I. destruct I as (e1 & [= <- <-] & I). eapply fine_part; [exact F|]. right. now apply in_map.
          - split; [eapply fine_bound; [exact Ff | right; now left] | eapply fine_part; [exact Ff | right; now left]]. }
        cbn [ag_subst map] in B |- *. rewrite (local_new _ G) in *. apply cb_loop. exact B.
      * destruct f as [x| | | | | | | |]; try discriminate. destruct (id_eqb x self) eqn:X.
        { apply id_eqb_eq in X. subst x. cbn [ag_subst]. rewrite self_new. constructor. now apply ALL. }
        destruct (t && memq x ls) eqn:T.
        { apply andb_true_iff in T. destruct T as (-> & T). apply memq_In in T. cbn [ag_subst]. rewrite (local_new _ (LL x T)). constructor; [assumption | now apply ALL]. }
        destruct (assq x k) as [[e'|]|] eqn:A; try discriminate. destruct (known_entry _ _ _ _ K A) as (t0 & E & ->). cbn [ag_subst]. rewrite E. destruct (entry_clean _ _ E) as (Ce & Fe). destruct fuel as [|fuel]; [destruct (e_exp t0); try discriminate; destruct (id_eqb x x0); discriminate|].
        destruct (entry_shape _ _ E) as [(c & V & G & CC)|SH].
        { rewrite V in *. destruct CC as [(-> & Pz)|(NS & NF & NX)]; [now rewrite id_eqb_refl in H|]. destruct (id_eqb x c) eqn:XC; [apply id_eqb_eq in XC; congruence|].
          cbn [stack_fn let_view rec_view] in H. destruct (id_eqb c self) eqn:CS; [apply id_eqb_eq in CS; congruence|].
          assert (ML : memq c ls = false). { destruct (memq c ls) eqn:M; [|reflexivity]. apply memq_In, LL in M. congruence. }
          rewrite ML, andb_false_r, (kn_global _ _ K _ G), assq_know, NF in H. discriminate. }
        destruct (e_exp t0) as [y| | |ef p r|f r|zs b| | |] eqn:V; try (exfalso; exact SH); try discriminate. cbn [stack_fn] in H.
        destruct (let_view (EApp (ELam zs b) l)) as [((zs' & rs) & b')|] eqn:LV'; [|discriminate]. apply let_view_app in LV'. destruct LV' as ([= <- <-] & LE).
        apply and_then_true in H. destruct H as (Hl & Hb). constructor; [now rewrite map_length | |].
        { intros e' I. apply in_map_iff in I. destruct I as (e1 & <- & I). apply (IHN fuel e1 k); [lia | assumption | assumption | destruct (LP e1 I) as (ys & J); exact (fine_part P ys e1 _ F J)|]. exact (andmap_true _ _ Hl e1 I). }
        { apply (clean_body fuel b (subst_locals zs k)); [apply knows_more; [|assumption] | | | assumption].
          - intros y Y. eapply fine_bound; [exact Fe | now left | assumption].
          - eapply fine_part; [exact Fe | now left].
          - apply (clean_part zs b (ELam zs b)); [now left | exact Ce]. }
  - apply and_then_true in H. destruct H as (Hb & Hl). cbn [ag_subst]. constructor.
    + apply (IH b k); [assumption | | eapply fine_part; [exact F | now left] | assumption]. intros y Y. apply in_app_or in Y. destruct Y as [Y|Y]; [eapply fine_bound; [exact F | now left | assumption] | auto].
    + intros lam I. apply in_map_iff in I. destruct I as (lam0 & <- & I). cbn [fst snd]. assert (J : In (ys ++ fst lam0, snd lam0) (parts (EFix ys lams b))) by (right; apply in_map_iff; exists lam0; auto).
      apply (IH (snd lam0) (subst_locals (fst lam0) k)); [apply knows_more; [|assumption] | | eapply fine_part; eauto |].
      * intros y Y. eapply fine_bound; [exact F | exact J | apply in_or_app; now right].
      * intros y Y. apply in_app_or in Y. destruct Y as [Y|Y]; [eapply fine_bound; [exact F | now left | assumption] | auto].
      * eapply andmap_true in Hl; [|apply in_map; exact I]. exact Hl.
Qed.
End Stack.

(** ** The functions that are found *)
Lemma stack_ok P self s : (forall t, In t s -> global_id (e_id t) = true) ->
  (forall z t, find_entry z s = Some t -> clean s (e_exp t) /\ fine P (e_exp t)) ->
  (forall z t, find_entry z s = Some t ->
    (exists c, e_exp t = EVar c /\ global_id c = true /\ (c = z /\ private z = true \/ c <> self /\ find_entry c s = None /\ c <> z)) \/
    match e_exp t with EPrim _ _ _ | EApp _ _ | ELam _ _ => True | _ => False end) ->
  find_entry self s = None ->
  forall d fuel, fine P d -> ag_stack_function fuel d self (know s) = Some true -> exists xs b, ag_subst s d = ELam xs b /\ c_body self xs [] true b /\ forall x, In x xs -> global_id x = false.
Proof.
  intros KG EC ES SN. induction d as [d IH] using size_ind. intros fuel F H. destruct d as [y|y e|a b c|ef p l|f l|xs b|xs ls b|y b|k e]; try discriminate.
  - assert (D : exists b, degenerate_let (EApp f l) = Some b /\ ag_stack_function fuel b self (know s) = Some true).
    { clear - H. cbn in *. destruct f; try discriminate. destruct xs as [|x [|]]; try discriminate.
      - destruct l; [|discriminate]. eauto.
      - destruct f; try discriminate. destruct l as [|r []]; try discriminate. destruct (id_eqb x x0); [eauto | discriminate]. }
    destruct D as (b & D & Hb). rewrite (degenerate_subst s _ _ D). destruct (degenerate_sub _ _ D) as (L & _ & _ & FD & _). eapply IH; eauto.
  - cbn [ag_stack_function] in H. cbn [ag_subst]. exists xs, (ag_subst s b). split; [reflexivity|]. split.
    + assert (X := subst_body P self s KG EC ES SN fuel fuel b (subst_locals xs (know s)) (xs ++ []) [] true (le_n _)). rewrite app_nil_r in X. apply X; [|easy | eapply fine_part; [exact F | now left] | exact H]. rewrite <- (app_nil_r xs) at 2.
      apply knows_more; [intros y Y; eapply fine_bound; [exact F | now left | assumption]|]. split.
      * intros z A. rewrite assq_know in A. destruct (find_entry z s); discriminate.
      * reflexivity.
      * intros z e A. rewrite assq_know in A. destruct (find_entry z s) as [t|] eqn:E; [|discriminate]. apply find_in in E. destruct E as (I & <-). now apply KG.
    + intros x X. eapply fine_bound; [exact F | now left | assumption].
Qed.
Lemma fine_rename P y c e : fine P e -> fine P (ag_subst [mkent y c (EVar c) None] e).
Proof.
  induction e as [e IH] using size_ind. intros F. destruct (exp_cases e) as [(x & ->)|[(x & d & ->)|[(b & D)|C]]].
  - cbn. destruct (id_eqb x y); constructor; try discriminate; easy.
  - cbn [ag_subst]. assert (Fd : fine P (ag_subst [mkent y c (EVar c) None] d)) by (apply IH; [cbn; lia | eapply fine_part; [exact F | now left]]).
    assert (FS : forall z, fine P (ESet z (ag_subst [mkent y c (EVar c) None] d))) by (intros z; constructor; [discriminate|]; intros ys e' [[= <- <-]|[]]; split; [easy | assumption]).
    destruct (global_id x); [|assumption]. cbn [find_entry find e_id]. unfold find_entry. cbn. destruct (id_eqb x y); apply FS.
  - rewrite (degenerate_subst _ _ _ D). destruct (degenerate_sub _ _ D) as (L & _ & _ & FD & _). apply IH; auto.
  - constructor.
    + intros ef p l E. destruct e as [z|z e|a b d|ef0 p0 l0|f l0|xs b|xs ls b|z b|k e]; try discriminate; try easy.
      * cbn [ag_subst] in E. injection E as <- <- _. inversion F as [? A _]; subst. exact (A _ _ _ eq_refl).
      * rewrite app_subst in E. cbn [compound] in C. rewrite C in E. discriminate.
    + rewrite (subst_parts _ e C). intros ys e' I. apply in_map_iff in I. destruct I as ((ys0 & e0) & [= <- <-] & I). split; [eapply fine_bound; eauto|]. apply IH; [eapply part_size; eauto | eapply fine_part; eauto].
Qed.
Lemma refs_subst s z : forall e, ag_simple e = true -> In z (refs (ag_subst s e)) -> (In z (refs e) /\ find_entry z s = None) \/ exists y t, find_entry y s = Some t /\ In z (refs (e_exp t)).
Proof.
  induction e as [e IH] using size_ind. intros S I. destruct (exp_cases e) as [(x & ->)|[(x & d & ->)|[(b & D)|C]]].
  - cbn [ag_subst] in I. destruct (find_entry x s) as [t|] eqn:E; [right; eauto|]. destruct I as [->|[]]. left. split; [now left | assumption].
  - discriminate.
  - rewrite (degenerate_subst _ _ _ D) in I. destruct (degenerate_sub _ _ D) as (L & RI & _ & _ & SE). destruct (IH b L ltac:(congruence) I) as [(R & N)|X]; [left; split; auto | now right].
  - apply refs_inv in I. destruct I as [E|(ys & e' & J & I)].
    + destruct e as [| | | |f l| | | |]; try discriminate; try easy. rewrite app_subst in E. cbn [compound] in C. rewrite C in E. discriminate.
    + rewrite (subst_parts _ e C) in J. apply in_map_iff in J. destruct J as ((ys0 & e0) & [= <- <-] & J). destruct (IH e0 (part_size _ _ _ J) (simple_part _ _ _ S J) I) as [(R & N)|X]; [left | now right].
      split; [now apply (refs_part _ _ _ J) | assumption].
Qed.
Definition later (L : defs) : Prop := forall l1 x c d l2, L = l1 ++ (x, c, d) :: l2 -> straight d -> forall z, In z (refs d) -> global_id z = true -> z <> x /\ ~ In z (ids l2).
Lemma forward_later P top e : forward e -> fine P e -> (forall x d, In (x, d) (sets e) -> global_id x = true) -> forall n L n', (forall s, gls top e n s = (L ++ s, n')) -> later L.
Proof.
  induction 1 as [e N|y x d b ND SD FB IH]; intros F NS n L n' E.
  - destruct (gls_found top e n) as (L1 & n1 & E1 & G). assert (X : (L ++ [], n') = (L1 ++ [], n1)) by now rewrite <- E, <- E1. rewrite !app_nil_r in X. injection X as -> ->.
    destruct L1 as [|((x & c) & d) L1]; [intros l1 x c d l2 Z; now destruct l1|]. exfalso. destruct (gs_in _ _ _ _ _ _ G x c d (or_introl eq_refl)) as (_ & _ & D & _). now apply N in D.
  - destruct (gls_found top b n) as (Lb & n1 & Eb & Gb).
    assert (ED : forall m, exists m', forall s, gls top d m s = (s, m')).
    { intros m. destruct (gls_found top d m) as (Ld & m' & Ed & G). exists m'. assert (Ld = []). { destruct Ld as [|((x0 & c0) & d0) Ld]; [reflexivity|]. exfalso. destruct (gs_in _ _ _ _ _ _ G x0 c0 d0 (or_introl eq_refl)) as (_ & _ & D & _). now apply ND in D. }
      subst Ld. exact Ed. }
    assert (F1 : fine P (ELam [y] b)) by (eapply fine_part; [exact F | now left]). assert (F2 : fine P (ESet x d)) by (eapply fine_part; [exact F | right; now left]).
    assert (F3 : fine P d) by (eapply fine_part; [exact F2 | now left]). assert (F4 : fine P b) by (eapply fine_part; [exact F1 | now left]).
    assert (Gx : global_id x = true) by (apply (NS x d); cbn; rewrite in_app_iff; right; now left).
    assert (NSb : forall x0 d0, In (x0, d0) (sets b) -> global_id x0 = true) by (intros x0 d0 I; apply (NS x0 d0); cbn; rewrite in_app_iff; now left).
    assert (X : L = Lb \/ exists c, L = (x, c, d) :: Lb).
    { specialize (E []). rewrite gls_let in E. cbn [length Nat.eqb gls_list] in E. rewrite Eb in E. cbn [gls] in E. rewrite Gx in E. rewrite !app_nil_r in E. destruct (global_id_private_constant x); [|destruct (Nat.eqb (var_assignment_count x top) 1)].
      - destruct (ED n1) as (m' & Em). rewrite Em in E. right. exists x. congruence.
      - destruct (ED (n1 + 1)) as (m' & Em). rewrite Em in E. right. eexists. injection E as <- _. reflexivity.
      - destruct (ED n1) as (m' & Em). rewrite Em in E. left. congruence. }
    specialize (IH F4 NSb n Lb n1 Eb). destruct X as [->|(c & ->)]; [exact IH|]. intros l1 x0 c0 d0 l2 Z SD0 z R G. destruct l1 as [|k l1]; cbn in Z.
    + injection Z as <- <- <- <-. destruct (SD SD0 z (refs_free P z d F3 G R)) as (N1 & N2). split; [assumption|]. intros I. apply N2. apply in_map_iff in I. destruct I as (((z' & c') & d') & <- & I).
      destruct (gs_in _ _ _ _ _ _ Gb _ _ _ I) as (_ & SI & _). cbn in *. eapply sets_assigned; eauto.
    + injection Z as _ Z. eapply IH; eauto.
Qed.

(** ** The whole pass *)
Definition quick (_ : prim) : script := SRet (AConst CVoid).
Section Whole.
Notation P := quick.
Variables (p : exp) (n n' : Z) (l : defs).
Hypothesis fine_p : fine P p.
Hypothesis ln : 0 <= n.
Hypothesis low : forall x, free_in x p -> - n <= ts x.
Hypothesis lift_p : lifted [] p.
Hypothesis spec_l : gspec p (sets p) (fun x d => defines x d p) n l n'.
Hypothesis glob_p : forall x d, In (x, d) (sets p) -> global_id x = true.
Hypothesis clos_p : forall x d, defines x d p -> closed d.
Hypothesis later_l : later l.
Hypothesis tame_l : forall d, In d l -> tame d.
Definition settled (s : list entry) (z : id) : Prop := ~ In z (ids l) \/ private z = true /\ exists t, find_entry z s = Some t /\ e_exp t = EVar z.
Record inv (done : defs) (s : list entry) : Prop := {
  i_ids : map e_id s = rev (ids done);
  i_clean : forall t, In t s -> forall z, In z (refs (e_exp t)) -> global_id z = true -> settled s z;
  i_fine : forall t, In t s -> fine P (e_exp t);
  i_shape : forall t, In t s -> (exists c d, In (e_id t, c, d) l /\ e_exp t = EVar c) \/ match e_exp t with EPrim _ _ _ | EApp _ _ | ELam _ _ => True | _ => False end }.
Lemma id_low x c d : In (x, c, d) l -> - n <= ts x /\ global_id x = true.
Proof. intros I. destruct (gs_in _ _ _ _ _ _ spec_l _ _ _ I) as (G & S & _). split; [|assumption]. apply low, assigned_free. eapply sets_assigned; eauto. Qed.
Lemma cid_case x c d : In (x, c, d) l -> global_id c = true /\ (c = x /\ private x = true \/ ~ In c (ids l)).
Proof.
  intros I. destruct (gs_in _ _ _ _ _ _ spec_l _ _ _ I) as (G & _ & _ & [(Px & ->)|(_ & _ & m & -> & M)]); [auto|]. split; [unfold global_id; cbn; apply Z.ltb_lt; lia|]. right. intros J.
  apply in_map_iff in J. destruct J as (((y & c') & d') & E & J). cbn in E. subst y. apply id_low in J. cbn in J. lia.
Qed.
Lemma inv_step done todo x c d s sf t sf' nm fuel : l = done ++ (x, c, d) :: todo -> inv done s -> finalize nm fuel x c d s sf = Some (t, sf') ->
  inv (done ++ [(x, c, d)]) (t :: s) /\ (sf' = sf \/ exists f, sf' = (x, f) :: sf /\ c_function x f).
Proof.
  intros E I H. assert (J : In (x, c, d) l) by (rewrite E; apply in_elt). destruct (cid_case _ _ _ J) as (Gc & CC). destruct (id_low _ _ _ J) as (Lx & Gx).
  assert (ND := nodup_l P p n n' l fine_p low lift_p glob_p clos_p spec_l). assert (FI : forall z u, find_entry z s = Some u -> In z (ids done)) by (intros z u U; apply find_in_ids in U; rewrite (i_ids _ _ I) in U; now apply in_rev in U).
  assert (ND' : NoDup (ids done ++ x :: ids todo)) by (rewrite E in ND; unfold ids in *; rewrite map_app in ND; exact ND).
  assert (NX : ~ In x (ids done)) by (apply NoDup_remove_2 in ND'; intros X; apply ND'; apply in_or_app; now left).
  assert (NF : find_entry x s = None) by (destruct (find_entry x s) as [u|] eqn:U; [now apply FI in U | reflexivity]).
  assert (SE : forall u z, e_id u = x -> settled s z -> settled (u :: s) z).
  { intros u z U [N|(Pz & t0 & T & V)]; [now left|]. right. split; [assumption|]. exists t0. split; [|assumption]. cbn. rewrite U. destruct (id_eqb z x) eqn:X; [apply id_eqb_eq in X; congruence | exact T]. }
  assert (KEEP : forall t, e_id t = x -> (forall z, In z (refs (e_exp t)) -> global_id z = true -> settled (t :: s) z) -> fine P (e_exp t) ->
    ((exists c d, In (e_id t, c, d) l /\ e_exp t = EVar c) \/ match e_exp t with EPrim _ _ _ | EApp _ _ | ELam _ _ => True | _ => False end) -> inv (done ++ [(x, c, d)]) (t :: s)).
  { clear H t. intros t X A B D. split.
    - cbn. rewrite (i_ids _ _ I), X. unfold ids. rewrite map_app, rev_app_distr. reflexivity.
    - intros u [<-|U]; [exact A|]. intros z Z G. apply SE; [assumption|]. eapply i_clean; eauto.
    - intros u [<-|U]; [exact B | eapply i_fine; eauto].
    - intros u [<-|U]; [exact D | eapply i_shape; eauto]. }
  assert (VAR : forall t, t = mkent x c (EVar c) None -> inv (done ++ [(x, c, d)]) (t :: s)).
  { clear H t. intros t ->. apply KEEP; [reflexivity | | constructor; [discriminate | easy] | left; exists c, d; auto]. intros z [<-|[]] _. destruct CC as [(-> & Px)|N]; [right | now left]. split; [assumption|]. eexists. cbn. rewrite id_eqb_refl. auto. }
  assert (KG : forall u, In u s -> global_id (e_id u) = true).
  { intros u U. apply (in_map e_id) in U. rewrite (i_ids _ _ I) in U. apply in_rev in U. apply in_map_iff in U. destruct U as (((y & c') & d') & EU & U). cbn in EU. rewrite <- EU. eapply id_low. rewrite E. apply in_or_app. left. exact U. }
  assert (EC : forall z u, find_entry z s = Some u -> clean s (e_exp u) /\ fine P (e_exp u)).
  { intros z u U. assert (US := proj1 (find_in _ _ _ U)). split; [|eapply i_fine; eauto]. intros w W G. destruct (i_clean _ _ I u US w W G) as [N|(Pw & t0 & T & V)]; [left | right; exists t0; auto].
    destruct (find_entry w s) as [u0|] eqn:U0; [|reflexivity]. apply FI in U0. exfalso. apply N. rewrite E. unfold ids in *. rewrite map_app. apply in_or_app. now left. }
  assert (IL : forall z u, find_entry z s = Some u -> In z (ids l)) by (intros z u U; apply FI in U; rewrite E; unfold ids in *; rewrite map_app; apply in_or_app; now left).
  assert (ES : forall z u, find_entry z s = Some u -> (exists c, e_exp u = EVar c /\ global_id c = true /\ (c = z /\ private z = true \/ c <> x /\ find_entry c s = None /\ c <> z)) \/
    match e_exp u with EPrim _ _ _ | EApp _ _ | ELam _ _ => True | _ => False end).
  { intros z u U. assert (US := find_in _ _ _ U). destruct US as (US & UZ). destruct (i_shape _ _ I u US) as [(c0 & d0 & K & V)|K]; [left | now right]. rewrite UZ in K. destruct (cid_case _ _ _ K) as (Gc0 & C0). exists c0. split; [assumption|]. split; [assumption|].
    destruct C0 as [C0|N]; [now left | right]. split; [intros ->; apply N; apply in_map_iff; now exists (x, c, d)|]. split; [|intros ->; apply N; apply in_map_iff; now exists (z, z, d0)].
    destruct (find_entry c0 s) as [u0|] eqn:U0; [|reflexivity]. apply IL in U0. easy. }
  assert (PL : forall d' t sf', fine P d' -> finalize_plain nm fuel x c d' s sf = Some (t, sf') ->
     (t = mkent x c (ag_subst s d') (if private c then Some void_exp else None) /\ sf' = sf /\ ag_simple d' = true /\ ag_inlineable (ag_subst s d') = true) \/
     (inv (done ++ [(x, c, d)]) (t :: s) /\ e_set t <> None /\ exists f, sf' = (x, f) :: sf /\ c_function x f) \/ (t = mkent x c (EVar c) None /\ sf' = sf)).
  { clear H t sf'. intros d' t sf' F' H'. unfold finalize_plain in H'. destruct (ag_simple d' && ag_inlineable (ag_subst s d')) eqn:B.
    - injection H' as <- <-. apply andb_true_iff in B. left. split; [reflexivity|]. split; [reflexivity | exact B].
    - destruct (ag_stack_function fuel d' x (know s)) as [[]|] eqn:SF; [| |discriminate].
      + right. left. destruct (stack_ok P x s KG EC ES NF d' fuel F' SF) as (xs & b & SX & CB & LX). rewrite SX in H'. injection H' as <- <-. split.
        * apply KEEP; [reflexivity | | | now right]; cbn [e_exp].
          -- intros z Z G. exfalso. cbn in Z. apply in_flat_map in Z. destruct Z as (e1 & Z1 & Z2). apply in_map_iff in Z1. destruct Z1 as (w & <- & W). destruct Z2 as [<-|[]]. apply LX in W. congruence.
          -- constructor; [discriminate|]. intros ys e1 [[= <- <-]|[]]. split; [assumption|]. constructor.
             ++ intros ef q0 l0 [= <- <- <-]. destruct (zlist_dec _ the_halt_prim); exact Logic.I.
             ++ intros ys e1 K. apply in_map_iff in K. destruct K as (e2 & [= <- <-] & K). split; [easy|]. apply in_map_iff in K. destruct K as (w & <- & _). constructor; [discriminate | easy].
        * split; [discriminate|]. eexists. split; [reflexivity|]. now constructor.
      + injection H' as <- <-. right. right. auto. }
  assert (Fd : fine P d) by (eapply (fine_sets P x d p fine_p); apply (gs_in _ _ _ _ _ _ spec_l _ _ _ J)).
  unfold finalize in H. destruct (rec_view d) as [(y & (xs & b))|] eqn:RV.
  - destruct (finalize_plain nm fuel x c (ag_subst [mkent y c (EVar c) None] (ELam (fst (xs, b)) (snd (xs, b)))) s sf) as [(t0 & sf0)|] eqn:FP; [|discriminate]. injection H as TT <-.
    apply rec_view_inv in RV as RV'. destruct RV' as (ls & ->). assert (FL : fine P (ELam xs b)).
    { assert (FB : fine P b) by (eapply fine_part; [exact Fd | right; now left]). constructor; [discriminate|]. intros ys e1 [[= <- <-]|[]]. split; [|assumption]. intros w W. eapply fine_bound; [exact Fd | right; now left | apply in_or_app; now right]. }
    destruct (PL _ _ _ (fine_rename P y c _ FL) FP) as [(-> & -> & SI & IN)|[(A & SN & B)|(-> & ->)]].
    + split; [|now left]. cbn [e_set] in TT. destruct (private c) eqn:Pc; [|subst t; now apply VAR]. exfalso. apply (tame_l _ J Pc y xs b RV). apply simple_subst in SI; [|intros u [<-|[]]; cbn; eauto]. apply simple_straight in SI. cbn [fst snd] in SI. now inversion SI.
    + destruct (e_set t0) eqn:ST; [|easy]. subst t. split; [exact A | right; exact B].
    + cbn [e_set] in TT. subst t. split; [now apply VAR | now left].
  - destruct (PL d _ _ Fd H) as [(-> & -> & SI & IN)|[(A & _ & B)|(-> & ->)]]; [|split; [assumption | now right] | split; [now apply VAR | now left]].
    split; [|now left]. assert (FE : fine_entries P s) by (intros u U; eapply i_fine; eauto). apply KEEP; [reflexivity | | now apply fine_subst |].
    + cbn [e_exp]. intros z Z G. apply refs_subst in Z; [|assumption]. destruct Z as [(R & N)|(y & u & U & R)].
      * left. destruct (later_l _ _ _ _ _ E (simple_straight _ SI) z R G) as (N1 & N2). rewrite E. unfold ids in *. rewrite map_app. cbn. intros K. apply in_app_or in K. destruct K as [K|[K|K]]; [| now apply N1 | easy].
        apply find_none_ids in N. apply N. rewrite (i_ids _ _ I). now apply -> in_rev.
      * apply SE; [reflexivity|]. eapply i_clean; eauto. now apply (find_in _ _ _ U).
    + right. cbn [e_exp]. destruct (ag_subst s d); try discriminate; exact Logic.I.
Qed.
End Whole.

Section All.
Notation P := quick.
Variables (p : exp) (n n' : Z) (l : defs).
Hypothesis fine_p : fine P p.
Hypothesis ln : 0 <= n.
Hypothesis low : forall x, free_in x p -> - n <= ts x.
Hypothesis lift_p : lifted [] p.
Hypothesis spec_l : gspec p (sets p) (fun x d => defines x d p) n l n'.
Hypothesis glob_p : forall x d, In (x, d) (sets p) -> global_id x = true.
Hypothesis clos_p : forall x d, defines x d p -> closed d.
Hypothesis later_l : later l.
Hypothesis tame_l : forall d, In d l -> tame d.
Lemma all_ok nm fuel : forall todo done s sf s' sf', l = done ++ todo -> inv l done s -> (forall x f, In (x, f) sf -> c_function x f) ->
  finalize_all nm fuel todo s sf = Some (s', sf') -> forall x f, In (x, f) sf' -> c_function x f.
Proof.
  induction todo as [|((x & c) & d) todo IH]; intros done s sf s' sf' E I F H; cbn [finalize_all] in H; [injection H as <- <-; exact F|].
  destruct (finalize nm fuel x c d s sf) as [(t & sf1)|] eqn:FZ; [|discriminate]. edestruct inv_step as (I' & C); eauto.
  eapply IH; [| exact I' | | exact H]; [rewrite <- app_assoc; exact E|]. destruct C as [->|(f & -> & C)]; [exact F|]. intros x0 f0 [[= <- <-]|J]; auto.
Qed.
End All.
Lemma inv_nil l : inv l [] [].
Proof. split; easy. Qed.
Lemma fine_quick P e : fine P e -> fine quick e.
Proof.
  induction e as [e IH] using parts_ind. intros F. inversion F as [? A B]; subst. constructor.
  - intros ef p l E. specialize (A ef p l E). destruct (zlist_dec p the_halt_prim); [assumption|]. destruct ef; cbn; exact Logic.I.
  - intros ys e' I. destruct (B ys e' I) as (L & X). split; [assumption | eapply IH; eauto].
Qed.
Theorem globals_stack P nm fuel p n e' sf n' :
  honest P p -> no_local_set p -> (forall x, In x (binders p) -> global_id x = false) ->
  0 <= n -> (forall x, free_in x p -> - n <= ts x) -> lifted [] p -> no_private_rec p -> (forall x d, defines x d p -> closed d) -> forward p ->
  analyze_globals nm fuel p n = Some (e', sf, n') -> forall x f, In (x, f) sf -> c_function x f.
Proof.
  intros H NL B N LO LI NR CD FW E. assert (F : fine quick p) by now apply (fine_quick P), fine_honest.
  destruct (gls_found p p n) as (l & n1 & EL & G). unfold analyze_globals in *. rewrite EL, app_nil_r in *.
  destruct (finalize_all nm fuel l [] []) as [(s & sf0)|] eqn:FA; [|discriminate]. injection E as _ SF _.
  assert (NS : forall x d, In (x, d) (sets p) -> global_id x = true).
  { clear - NL. intros x d I. revert NL I. induction p as [e IH] using parts_ind. intros NL I. apply Proofs_FoldMore.no_local_set_eq in NL. apply sets_inv in I.
    destruct I as [->|(ys & e1 & J & I)]; [now apply (proj1 NL)|]. exact (IH ys e1 J (proj2 NL ys e1 J) I). }
  assert (T : forall d, In d l -> tame d).
  { intros ((x & c) & d) I Pc y xs b R. cbn in *. destruct (gs_in _ _ _ _ _ _ G _ _ _ I) as (_ & _ & DF & K).
    assert (Px : private x = true). { destruct K as [(Px & _)|(_ & _ & m & -> & _)]; [assumption|]. unfold private, global_id_private_constant in Pc. cbn in Pc. now rewrite andb_false_r in Pc. }
    apply rec_view_inv in R. destruct R as (ls & ->). apply (NR x y xs b ls Px DF). }
  intros x f I. subst sf. apply in_rev in I. revert x f I. eapply (all_ok p n n1 l) with (done := []); eauto using inv_nil; try easy.
  eapply forward_later; eauto.
Qed.
