(** Proofs for functions on the C stack: whole functions, and labels.  See Properties_Stack.v *)
From Coq Require Import ZArith List Bool Lia Permutation.
From Verif Require Import Base Model_Lit Model_Core Model_Globals Model_Beta Model_Stack Spec_Scope Spec_Free Spec_Globals Spec_Stack Proofs_Free Proofs_Stack.
Import ListNotations.
Open Scope Z_scope.

Section Fun.
Variables V W : Type.
Variable truth : V -> bool.
Variable prim_does : prim -> list V -> W -> V -> W -> Prop.
Variable globals : id -> V.
Lemma function_lam self fuel e n ps b code : s_function self e ps b -> gen_function self fuel e n = Some code -> distinct n e ->
  s_body self ps ps [] true b /\ gen_lam self fuel ps b n = Some code /\ distinct n (ELam ps b).
Proof.
  induction 1 as [ps b B|e ps b F IH|x e ps b F IH]; intros E Di; cbn [gen_function] in E.
  - easy.
  - apply IH; [easy|]. destruct Di as (D1 & D2). cbn [binders flat_map app] in D1, D2. rewrite app_nil_r in D1, D2. easy.
  - rewrite idrefl in E. apply IH; [easy|]. destruct Di as (D1 & D2). cbn [binders flat_map app] in D1, D2. rewrite app_nil_r in D1, D2. split; [now inversion D1|]. intros y I. apply D2. now right.
Qed.
Theorem stack_sound self fuel e n ps b code : 0 <= n -> s_function self e ps b -> distinct n e -> gen_function self fuel e n = Some code ->
  forall vs w v w', c_returns V W truth prim_does globals self code vs w v w' -> length vs = length ps ->
    eval V W truth prim_does globals self ps b [] (bind V ps vs globals) b w v w'.
Proof.
  intros N F Di E vs w v w' (h & s & Gl & R) Lv. destruct (function_lam _ _ _ _ _ _ _ F E Di) as (B & E' & (D1 & D2)). cbn [binders] in D1, D2. apply nd_app in D1. destruct D1 as (D3 & D4 & D5).
  unfold gen_lam in E'. destruct (cg self fuel [(self, ps)] b TReturn n) as [(s0 & n1)|] eqn:Ec; [|discriminate E']. cbn [option_map fst] in E'. injection E' as <-. cbn [cf_params cf_body] in R.
  assert (X ps n) as Xp by (intros x I; apply D2; apply in_app_iff; now left).
  assert (D ps b n) as Dp. { split; [easy|]. intros x I. split; [intros J; now apply (D5 x)|]. apply D2. apply in_app_iff. now right. }
  set (c := mkcfun ps (tail_call self b) s0) in *.
  apply (call_run self ps V W truth prim_does globals b c fuel n n1 Ec B Xp Dp N h vs s w v w'); [|easy|easy|].
  - now apply (main self ps V W truth prim_does globals b c fuel n n1).
  - exists (bind V ps vs s). easy.
Qed.
End Fun.

(** ** Labels *)
Section Labels.
Variable self : id.
Lemma tail_let f ids b l : length ids = length l -> (forall y, b <> EVar y) -> tail_call f (EApp (ELam ids b) l) = tail_call f b.
Proof.
  intros L N. destruct ids as [|x [|y ids]], l as [|e [|e2 l]]; try discriminate L; try easy.
  - cbn [tail_call]. destruct b; try easy. now destruct (N x0).
  - cbn [tail_call length]. cbn [length] in L. rewrite L, Nat.eqb_refl. easy.
Qed.
Lemma tail_let_view f e ids rands b : let_view e = Some (ids, rands, b) -> degenerate_let e = None -> tail_call f e = tail_call f b.
Proof.
  destruct e as [| | | |g l| | | |]; try discriminate. destruct g as [| | | | |ys b1| | |]; try discriminate. cbn [let_view]. destruct (Nat.eqb (length ys) (length l)) eqn:L; [|discriminate].
  intros [= <- <- <-]. apply Nat.eqb_eq in L. intros Dg. destruct b1; try (apply tail_let; [easy|discriminate]).
  destruct ys as [|z [|z2 ys]], l as [|e [|e2 l]]; try discriminate L; try easy.
  - cbn [tail_call]. cbn [degenerate_let] in Dg. destruct (id_eqb z x); [discriminate Dg|easy].
  - cbn [tail_call length]. destruct (Nat.eqb _ _); easy.
Qed.
Lemma no_loop_let ids b l : no_loop (EApp (ELam ids b) l) = true <-> no_loop b = true /\ forall e, In e l -> no_loop e = true.
Proof. cbn [no_loop]. rewrite andb_true_iff, forallb_forall. easy. Qed.
Definition jumps_ok (L : labels) (e : exp) (t : target) (s : st) : Prop :=
  forall f, In f (jumps_out s) -> is_return t = true /\ tail_call f e = true /\ In f (map fst L).
Lemma no_jumps_decls l ds : decls self l = Some ds -> flat_map jumps_out ds = [].
Proof.
  unfold decls. generalize (filter (fun xe : id * exp => cexpp self (snd xe)) l). intros m. revert ds. induction m as [|(x & e) m IH]; intros ds E; cbn [mapx] in E; [now injection E as <-|].
  cbn [fst snd] in E. destruct (cexp e); [|discriminate E]. cbn [option_map] in E. destruct (mapx _ m) as [ds2|]; [|discriminate E]. injection E as <-. cbn. now apply IH.
Qed.
Lemma split_no_loop w l n out ids exps n' : split_rands self w l n [] [] [] = (out, ids, exps, n') -> (forall e, In e l -> no_loop e = true) ->
  length ids = length exps /\ (forall e, In e exps -> no_loop e = true) /\ forall e, In e out -> no_loop e = true.
Proof.
  intros Sp H. apply split_spec in Sp. destruct Sp as (q & Q1 & Q2 & Q3 & Q4 & _). cbn [rev app] in Q2. rewrite app_nil_r in Q3, Q4. subst.
  destruct (pairs_combine q) as (_ & _ & P3). split; [now rewrite !rev_length|]. split.
  - intros e I. apply in_rev in I. unfold wrapped in I. apply in_flat_map in I. destruct I as ((e1 & o) & I & J). cbn [fst snd] in J. destruct o; [|easy]. destruct J as [<-|[]].
    apply H. apply in_map_iff. exists (e1, Some i). easy.
  - intros e I. apply in_map_iff in I. destruct I as ((e1 & o) & <- & I). cbn [fst snd]. destruct o; [easy|]. apply H. apply in_map_iff. exists (e1, None). easy.
Qed.
Lemma each_in A B (R : A -> B -> Prop) l m : Forall2 R l m -> (forall b, In b m -> exists a, In a l /\ R a b) /\ (forall a, In a l -> exists b, In b m /\ R a b).
Proof.
  induction 1 as [|a b l m H F (IH1 & IH2)]; [split; easy|]. split.
  - intros c [<-|I]; [exists a; split; [now left|easy]|]. destruct (IH1 c I) as (d & I2 & Rd). exists d. split; [now right|easy].
  - intros c [<-|I]; [exists b; split; [now left|easy]|]. destruct (IH2 c I) as (d & I2 & Rd). exists d. split; [now right|easy].
Qed.
Lemma jumps_cg fuel : forall L e t n s n', cg self fuel L e t n = Some (s, n') -> no_loop e = true -> jumps_ok L e t s.
Proof.
  induction fuel as [|fuel IH]; intros L e t n s n' E Nl; [discriminate E|]. cbn [cg] in E.
  destruct (cexpp self e && negb (tail_call self e)). { destruct (cexp e); [|discriminate E]. cbn in E. injection E as <- _. easy. }
  destruct (degenerate_let e) as [b|] eqn:Dg.
  { assert (no_loop b = true /\ forall f, tail_call f e = tail_call f b) as (Nb & Tb).
    { destruct e as [| | | |g l| | | |]; try discriminate Dg. destruct g as [| | | | |ys b1| | |]; try discriminate Dg. destruct ys as [|y [|? ?]]; [| |destruct l; discriminate Dg].
      - destruct l; [|discriminate Dg]. injection Dg as ->. split; [now apply no_loop_let in Nl|easy].
      - destruct b1; try discriminate Dg. destruct l as [|e [|? ?]]; try discriminate Dg. cbn [degenerate_let] in Dg. destruct (id_eqb y x) eqn:Ey; [|discriminate Dg]. injection Dg as ->.
        apply no_loop_let in Nl. split; [apply Nl; now left|]. intros f. cbn [tail_call]. now rewrite Ey. }
    intros f I. rewrite Tb. now apply (IH _ _ _ _ _ _ E Nb). }
  destruct (begin_view e) as [(e1 & e2)|] eqn:Bg.
  { destruct (cg self fuel L e1 TVoid n) as [(s1 & n1)|] eqn:E1; [|discriminate E]. destruct (cg self fuel L e2 t n1) as [(s2 & n2)|] eqn:E2; [|discriminate E]. injection E as <- _.
    unfold begin_view in Bg. destruct (let_view e) as [((ids & rands) & b)|] eqn:Lv; [|discriminate Bg]. destruct ids as [|x [|? ?]]; try discriminate Bg. destruct rands as [|a [|? ?]]; try discriminate Bg.
    destruct (var_referenced_in_exp x b); [discriminate Bg|]. injection Bg as -> ->. pose proof (fun f => tail_let_view f _ _ _ _ Lv Dg) as Tl.
    assert (e = EApp (ELam [x] e2) [e1]) as ->. { destruct e as [| | | |g l| | | |]; try discriminate Lv. destruct g; try discriminate Lv. cbn [let_view] in Lv. destruct (Nat.eqb _ _); [|discriminate Lv]. now injection Lv as -> -> ->. }
    apply no_loop_let in Nl. destruct Nl as (N1 & N2). intros f I. cbn [jumps_out flat_map] in I. rewrite app_nil_r, in_app_iff in I. destruct I as [I|I].
    - apply (IH _ _ _ _ _ _ E1 (N2 e1 (or_introl eq_refl))) in I. now destruct I.
    - rewrite Tl. now apply (IH _ _ _ _ _ _ E2 N1). }
  destruct (let_view e) as [((ids & rands) & b)|] eqn:Lv.
  { destruct (decls self (combine ids rands)) as [ds|] eqn:Ed; [|discriminate E]. destruct (gen_all _ _ n) as [(is & n1)|] eqn:E1 in E; [|discriminate E].
    destruct (cg self fuel L b t n1) as [(s2 & n2)|] eqn:E2; [|discriminate E]. injection E as <- _. pose proof (fun f => tail_let_view f _ _ _ _ Lv Dg) as Tl.
    assert (e = EApp (ELam ids b) rands) as ->. { destruct e as [| | | |g l| | | |]; try discriminate Lv. destruct g; try discriminate Lv. cbn [let_view] in Lv. destruct (Nat.eqb _ _); [|discriminate Lv]. now injection Lv as -> -> ->. }
    apply no_loop_let in Nl. destruct Nl as (N1 & N2). intros f I. cbn [jumps_out] in I. rewrite !flat_map_app, !in_app_iff in I. rewrite (no_jumps_decls _ _ Ed) in I.
    destruct I as [[]|[I|I]].
    - apply in_flat_map in I. destruct I as (s & I1 & I2). apply gen_all_each in E1; [|intros a m c m' Y; now apply cg_mono in Y]. apply each_in in E1. destruct E1 as (E1 & _).
      destruct (E1 s I1) as ((x & a) & Ia & m & m' & _ & Em). apply filter_In in Ia. destruct Ia as (Ia & _). apply in_combine_r in Ia. apply (IH _ _ _ _ _ _ Em (N2 _ Ia)) in I2. now destruct I2.
    - cbn [flat_map] in I. rewrite app_nil_r in I. rewrite Tl. now apply (IH _ _ _ _ _ _ E2 N1). }
  destruct e as [x|x e|a b c|ef p l|g l|ys b|ys lams b|x b|k0 e]; try discriminate E.
  - cbn [no_loop] in Nl. apply andb_prop in Nl. destruct Nl as (Nl & Nc). apply andb_prop in Nl. destruct Nl as (Na & Nb). destruct (cexpp self a).
    + destruct (cexp a); [|discriminate E]. destruct (cg self fuel L b t n) as [(s1 & n1)|] eqn:E1; [|discriminate E]. destruct (cg self fuel L c t n1) as [(s2 & n2)|] eqn:E2; [|discriminate E].
      injection E as <- _. intros f I. cbn [jumps_out] in I. apply in_app_iff in I. cbn [tail_call]. destruct I as [I|I].
      * destruct (IH _ _ _ _ _ _ E1 Nb f I) as (H1 & H2 & H3). rewrite H2. easy.
      * destruct (IH _ _ _ _ _ _ E2 Nc f I) as (H1 & H2 & H3). rewrite H2, orb_true_r. easy.
    + cbn [fresh] in E. intros f I. apply (IH _ _ _ _ _ _ E) in I.
      * unfold let_exp in I. rewrite tail_let in I by easy. exact I.
      * unfold let_exp. apply no_loop_let. split; [cbn [no_loop]; now rewrite Nb, Nc|]. now intros e [<-|[]].
  - cbn [no_loop] in Nl. rewrite forallb_forall in Nl. destruct (forallb (cexpp self) l). { destruct (mapx cexp l); [|discriminate E]. cbn in E. injection E as <- _. destruct (prim_cexp p); easy. }
    destruct (split_rands self false l n [] [] []) as (((out & ids) & exps) & n1) eqn:S. apply split_no_loop in S; [|exact Nl]. destruct S as (S1 & S2 & S3).
    intros f I. apply (IH _ _ _ _ _ _ E) in I.
    + unfold let_exp in I. rewrite tail_let in I by easy. exact I.
    + unfold let_exp. apply no_loop_let. split; [cbn [no_loop]; now apply forallb_forall|easy].
  - destruct g as [x|x g|g1 g2 g3|gf gp gl|g gl|gs gb|gs glams gb|x g|k0 g]; try discriminate Nl; cbn [rec_view] in E; try discriminate E.
    cbn [no_loop] in Nl. cbn [andb] in Nl. rewrite forallb_forall in Nl. destruct (assq x L) as [ps|] eqn:As; [|discriminate E].
    destruct (forallb is_var l && _).
    + destruct (mapx cexp l); [|discriminate E]. injection E as <- _. intros f I. destruct (is_return t); [|destruct I]. destruct I as [<-|[]].
      split; [easy|]. split; [cbn [tail_call]; apply idrefl|]. apply assq_in in As. apply in_map_iff. exists (x, ps). easy.
    + destruct (split_rands self true l n [] [] []) as (((out & ids) & exps) & n1) eqn:S. apply split_no_loop in S; [|exact Nl]. destruct S as (S1 & S2 & S3).
      intros f I. apply (IH _ _ _ _ _ _ E) in I.
      * unfold let_exp in I. rewrite tail_let in I by easy. exact I.
      * unfold let_exp. apply no_loop_let. split; [cbn [no_loop andb]; now apply forallb_forall|easy].
  - cbn [no_loop] in Nl. apply andb_prop in Nl. destruct Nl as (Nl & Nb). rewrite forallb_forall in Nl.
    destruct (cg self fuel _ b t _) as [(s1 & n1)|] eqn:E1; [|discriminate E]. destruct (gen_all _ _ n1) as [(labs & n2)|] eqn:E2 in E; [|discriminate E]. injection E as <- _.
    apply gen_all_each in E2.
    2:{ intros (a1 & a2) m c m' Y. cbn [fst snd] in Y. destruct (tail_call a1 _); [|injection Y as _ <-; lia].
        destruct (cg self fuel _ (snd a2) t m) as [(s' & m1)|] eqn:E3 in Y; [|discriminate Y]. injection Y as _ <-. now apply cg_mono in E3. }
    apply each_in in E2. destruct E2 as (F1 & F2). intros f I. cbn [jumps_out] in I. apply filter_In in I. destruct I as (I & Nf).
    assert (is_return t = true /\ tail_call f (EFix ys lams b) = true /\ In f (map fst (combine ys (map fst lams) ++ L))) as (H1 & H2 & H3).
    { apply in_app_iff in I. cbn [tail_call]. destruct I as [I|I].
      - destruct (IH _ _ _ _ _ _ E1 Nb f I) as (H1 & H2 & H3). rewrite H2. easy.
      - apply in_flat_map in I. destruct I as ((y & o) & I1 & I2). cbn [snd] in I2. destruct o as [s'|]; [|destruct I2].
        destruct (F1 _ I1) as ((z & (ps & b1)) & J & m & m' & _ & Em). cbn [fst snd] in Em. destruct (tail_call z _); [|discriminate Em].
        destruct (cg self fuel _ b1 t m) as [(s2 & m2)|] eqn:E3 in Em; [|discriminate Em]. injection Em as <- <- <-. apply in_combine_r in J.
        destruct (IH _ _ _ _ _ _ E3 (Nl _ J) f I2) as (H1 & H2 & H3). split; [easy|]. split; [|easy]. apply orb_true_iff. right. apply existsb_exists. exists (ps, b1). easy. }
    split; [easy|]. split; [easy|]. rewrite map_app, in_app_iff in H3. destruct H3 as [H3|H3]; [|easy]. exfalso.
    assert (exists lam, In (f, lam) (combine ys lams)) as (lam & J).
    { clear - H3. revert lams H3. induction ys as [|y ys IHy]; intros [|lam lams] H3; try (now destruct H3). cbn [map combine fst In] in H3. destruct H3 as [<-|H3].
      - exists lam. now left.
      - destruct (IHy lams H3) as (lam' & J). exists lam'. now right. }
    destruct (F2 _ J) as ((y & o) & J1 & m & m' & _ & Em). cbn [fst snd] in Em. rewrite H2 in Em.
    destruct (cg self fuel _ (snd lam) t m) as [(s2 & m2)|] eqn:E3 in Em; [|discriminate Em]. injection Em as <- <- <-.
    assert (memq f (labels_of labs) = true) as K; [|rewrite K in Nf; discriminate Nf]. apply existsb_exists. exists f. split; [|apply idrefl]. apply in_flat_map. exists (f, Some s2). split; [easy|]. now left.
Qed.
Theorem stack_labels fuel e n ps b code : s_function self e ps b -> distinct n e -> no_loop b = true -> gen_function self fuel e n = Some code -> complete self code.
Proof.
  intros F Di Nl E. destruct (function_lam _ _ _ _ _ _ _ F E Di) as (_ & E' & _). unfold gen_lam in E'. destruct (cg self fuel [(self, ps)] b TReturn n) as [(s0 & n1)|] eqn:Ec; [|discriminate E'].
  cbn [option_map fst] in E'. injection E' as <-. intros f I. cbn [cf_body cf_label] in *. destruct (jumps_cg _ _ _ _ _ _ _ Ec Nl f I) as (_ & H2 & H3). destruct H3 as [<-|[]]. easy.
Qed.
End Labels.
