(** Proofs for functions on the C stack: labels of functions with loops.  See Properties_Stack.v *)
From Coq Require Import ZArith List Bool Lia.
From Verif Require Import Base Model_Lit Model_Core Model_Globals Model_Beta Model_Stack Spec_Scope Spec_Free Spec_Globals Spec_Stack Spec_StackTail Proofs_Free Proofs_Stack Proofs_StackFun.
Import ListNotations.
Open Scope Z_scope.
Section Labels.
Variable self : id.
Lemma tail_seen2 f e : (tail_call f e = true -> In f (tail_targets e)) /\ forall xs b, e = ELam xs b -> tail_call f b = true -> In f (tail_targets b).
Proof.
  induction e as [e IH] using parts_ind. split; [|intros xs b ->; apply (IH b); exists xs; now left].
  intros H. destruct e as [x|x e|a b c|ef p l|g l|xs b|xs lams b|x b|k0 e]; try discriminate H.
  - cbn [tail_call tail_targets] in *. apply in_app_iff. apply orb_prop in H. destruct H as [H|H]; [left; apply (IH b); [exists []; right; now left|easy]|right; apply (IH c); [exists []; right; right; now left|easy]].
  - destruct g as [x|x g|a b c|ef p fl|g gl|ys b|ys lams b|x b|k0 g]; try discriminate H.
    + cbn [tail_call] in H. apply ideq in H. now left.
    + cbn [tail_targets]. apply in_app_iff.
      assert (tail_call f b = true \/ exists e, In e l /\ tail_call f e = true) as [K|(e & I & K)].
      { destruct ys as [|y [|? ?]].
        - destruct l; [now left|]. cbn [tail_call length Nat.eqb] in H. discriminate H.
        - destruct l as [|e [|? ?]]; cbn [tail_call length Nat.eqb] in H; destruct b; try discriminate H; try (now left). destruct (id_eqb y x); [|discriminate H]. right. exists e. split; [now left|easy].
        - cbn [tail_call] in H. destruct (Nat.eqb _ _); [now left|discriminate H]. }
      * left. apply (proj2 (IH (ELam ys b) (ex_intro _ [] (or_introl eq_refl))) ys b eq_refl K).
      * right. apply in_flat_map. exists e. split; [easy|]. apply (IH e); [|easy]. exists []. right. exact (in_map (fun e => ([], e)) _ _ I).
  - cbn [tail_call tail_targets] in *. apply in_app_iff. apply orb_prop in H. destruct H as [H|H].
    + left. apply (IH b); [|easy]. exists xs. cbn [parts]. now left.
    + right. apply existsb_exists in H. destruct H as (lam & I & H). apply in_flat_map. exists lam. split; [easy|]. apply (IH (snd lam)); [|easy]. eexists. cbn [parts]. right. apply in_map_iff. exists lam. split; [reflexivity|easy].
Qed.
Lemma tail_seen f e : tail_call f e = true -> In f (tail_targets e).
Proof. apply tail_seen2. Qed.
Lemma own_labels fuel L ys lams b t n s n' f : cg self fuel L (EFix ys lams b) t n = Some (s, n') -> In f (jumps_out s) -> tail_call f (EFix ys lams b) = true ->
  ~ In f (map fst (combine ys (map fst lams))).
Proof.
  intros E I H2 H3. destruct fuel as [|fuel]; [discriminate E|]. cbn [cg cexpp andb degenerate_let begin_view let_view] in E.
  destruct (cg self fuel _ b t _) as [(s1 & n1)|] eqn:E1 in E; [|discriminate E]. destruct (gen_all _ _ n1) as [(labs & n2)|] eqn:E2 in E; [|discriminate E]. injection E as <- _.
  apply gen_all_each in E2.
  2:{ intros (a1 & a2) m c m' Y. cbn [fst snd] in Y. destruct (tail_call a1 _); [|injection Y as _ <-; lia].
      destruct (cg self fuel _ (snd a2) t m) as [(s' & m1)|] eqn:E3 in Y; [|discriminate Y]. injection Y as _ <-. now apply cg_mono in E3. }
  apply each_in in E2. destruct E2 as (F1 & F2). cbn [jumps_out] in I. apply filter_In in I. destruct I as (I & Nf).
  assert (exists lam, In (f, lam) (combine ys lams)) as (lam & J).
  { clear - H3. revert lams H3. induction ys as [|y ys IHy]; intros [|lam lams] H3; try (now destruct H3). cbn [map combine fst In] in H3. destruct H3 as [<-|H3].
    - exists lam. now left.
    - destruct (IHy lams H3) as (lam' & J). exists lam'. now right. }
  destruct (F2 _ J) as ((y & o) & J1 & m & m' & _ & Em). cbn [fst snd] in Em. rewrite H2 in Em.
  destruct (cg self fuel _ (snd lam) t m) as [(s2 & m2)|] eqn:E3 in Em; [|discriminate Em]. injection Em as <- <- <-.
  assert (memq f (labels_of labs) = true) as K; [|rewrite K in Nf; discriminate Nf]. apply existsb_exists. exists f. split; [|apply idrefl]. apply in_flat_map. exists (f, Some s2). split; [easy|]. now left.
Qed.
Lemma closed_loops_let ids b l : closed_loops (EApp (ELam ids b) l) = true <-> closed_loops b = true /\ forall e, In e l -> closed_loops e = true.
Proof. cbn [closed_loops]. rewrite andb_true_iff, forallb_forall. easy. Qed.
Lemma split_closed_loops w l n out ids exps n' : split_rands self w l n [] [] [] = (out, ids, exps, n') -> (forall e, In e l -> closed_loops e = true) ->
  length ids = length exps /\ (forall e, In e exps -> closed_loops e = true) /\ forall e, In e out -> closed_loops e = true.
Proof.
  intros Sp H. apply split_spec in Sp. destruct Sp as (q & Q1 & Q2 & Q3 & Q4 & _). cbn [rev app] in Q2. rewrite app_nil_r in Q3, Q4. subst.
  destruct (pairs_combine q) as (_ & _ & P3). split; [now rewrite !rev_length|]. split.
  - intros e I. apply in_rev in I. unfold wrapped in I. apply in_flat_map in I. destruct I as ((e1 & o) & I & J). cbn [fst snd] in J. destruct o; [|easy]. destruct J as [<-|[]].
    apply H. apply in_map_iff. exists (e1, Some i). easy.
  - intros e I. apply in_map_iff in I. destruct I as ((e1 & o) & <- & I). cbn [fst snd]. destruct o; [easy|]. apply H. apply in_map_iff. exists (e1, None). easy.
Qed.
Lemma jumps_closed fuel : forall L e t n s n', cg self fuel L e t n = Some (s, n') -> closed_loops e = true -> jumps_ok L e t s.
Proof.
  induction fuel as [|fuel IH]; intros L e t n s n' E Nl; [discriminate E|]. cbn [cg] in E.
  destruct (cexpp self e && negb (tail_call self e)). { destruct (cexp e); [|discriminate E]. cbn in E. injection E as <- _. easy. }
  destruct (degenerate_let e) as [b|] eqn:Dg.
  { assert (closed_loops b = true /\ forall f, tail_call f e = tail_call f b) as (Nb & Tb).
    { destruct e as [| | | |g l| | | |]; try discriminate Dg. destruct g as [| | | | |ys b1| | |]; try discriminate Dg. destruct ys as [|y [|? ?]]; [| |destruct l; discriminate Dg].
      - destruct l; [|discriminate Dg]. injection Dg as ->. split; [now apply closed_loops_let in Nl|easy].
      - destruct b1; try discriminate Dg. destruct l as [|e [|? ?]]; try discriminate Dg. cbn [degenerate_let] in Dg. destruct (id_eqb y x) eqn:Ey; [|discriminate Dg]. injection Dg as ->.
        apply closed_loops_let in Nl. split; [apply Nl; now left|]. intros f. cbn [tail_call]. now rewrite Ey. }
    intros f I. rewrite Tb. now apply (IH _ _ _ _ _ _ E Nb). }
  destruct (begin_view e) as [(e1 & e2)|] eqn:Bg.
  { destruct (cg self fuel L e1 TVoid n) as [(s1 & n1)|] eqn:E1; [|discriminate E]. destruct (cg self fuel L e2 t n1) as [(s2 & n2)|] eqn:E2; [|discriminate E]. injection E as <- _.
    unfold begin_view in Bg. destruct (let_view e) as [((ids & rands) & b)|] eqn:Lv; [|discriminate Bg]. destruct ids as [|x [|? ?]]; try discriminate Bg. destruct rands as [|a [|? ?]]; try discriminate Bg.
    destruct (var_referenced_in_exp x b); [discriminate Bg|]. injection Bg as -> ->. pose proof (fun f => tail_let_view f _ _ _ _ Lv Dg) as Tl.
    assert (e = EApp (ELam [x] e2) [e1]) as ->. { destruct e as [| | | |g l| | | |]; try discriminate Lv. destruct g; try discriminate Lv. cbn [let_view] in Lv. destruct (Nat.eqb _ _); [|discriminate Lv]. now injection Lv as -> -> ->. }
    apply closed_loops_let in Nl. destruct Nl as (N1 & N2). intros f I. cbn [jumps_out flat_map] in I. rewrite app_nil_r, in_app_iff in I. destruct I as [I|I].
    - apply (IH _ _ _ _ _ _ E1 (N2 e1 (or_introl eq_refl))) in I. now destruct I.
    - rewrite Tl. now apply (IH _ _ _ _ _ _ E2 N1). }
  destruct (let_view e) as [((ids & rands) & b)|] eqn:Lv.
  { destruct (decls self (combine ids rands)) as [ds|] eqn:Ed; [|discriminate E]. destruct (gen_all _ _ n) as [(is & n1)|] eqn:E1 in E; [|discriminate E].
    destruct (cg self fuel L b t n1) as [(s2 & n2)|] eqn:E2; [|discriminate E]. injection E as <- _. pose proof (fun f => tail_let_view f _ _ _ _ Lv Dg) as Tl.
    assert (e = EApp (ELam ids b) rands) as ->. { destruct e as [| | | |g l| | | |]; try discriminate Lv. destruct g; try discriminate Lv. cbn [let_view] in Lv. destruct (Nat.eqb _ _); [|discriminate Lv]. now injection Lv as -> -> ->. }
    apply closed_loops_let in Nl. destruct Nl as (N1 & N2). intros f I. cbn [jumps_out] in I. rewrite !flat_map_app, !in_app_iff in I. rewrite (no_jumps_decls self _ _ Ed) in I.
    destruct I as [[]|[I|I]].
    - apply in_flat_map in I. destruct I as (s & I1 & I2). apply gen_all_each in E1; [|intros a m c m' Y; now apply cg_mono in Y]. apply each_in in E1. destruct E1 as (E1 & _).
      destruct (E1 s I1) as ((x & a) & Ia & m & m' & _ & Em). apply filter_In in Ia. destruct Ia as (Ia & _). apply in_combine_r in Ia. apply (IH _ _ _ _ _ _ Em (N2 _ Ia)) in I2. now destruct I2.
    - cbn [flat_map] in I. rewrite app_nil_r in I. rewrite Tl. now apply (IH _ _ _ _ _ _ E2 N1). }
  destruct e as [x|x e|a b c|ef p l|g l|ys b|ys lams b|x b|k0 e]; try discriminate E.
  - cbn [closed_loops] in Nl. apply andb_prop in Nl. destruct Nl as (Nl & Nc). apply andb_prop in Nl. destruct Nl as (Na & Nb). destruct (cexpp self a).
    + destruct (cexp a); [|discriminate E]. destruct (cg self fuel L b t n) as [(s1 & n1)|] eqn:E1; [|discriminate E]. destruct (cg self fuel L c t n1) as [(s2 & n2)|] eqn:E2; [|discriminate E].
      injection E as <- _. intros f I. cbn [jumps_out] in I. apply in_app_iff in I. cbn [tail_call]. destruct I as [I|I].
      * destruct (IH _ _ _ _ _ _ E1 Nb f I) as (H1 & H2 & H3). rewrite H2. easy.
      * destruct (IH _ _ _ _ _ _ E2 Nc f I) as (H1 & H2 & H3). rewrite H2, orb_true_r. easy.
    + cbn [fresh] in E. intros f I. apply (IH _ _ _ _ _ _ E) in I.
      * unfold let_exp in I. rewrite tail_let in I by easy. exact I.
      * unfold let_exp. apply closed_loops_let. split; [cbn [closed_loops]; now rewrite Nb, Nc|]. now intros e [<-|[]].
  - cbn [closed_loops] in Nl. rewrite forallb_forall in Nl. destruct (forallb (cexpp self) l). { destruct (mapx cexp l); [|discriminate E]. cbn in E. injection E as <- _. destruct (prim_cexp p); easy. }
    destruct (split_rands self false l n [] [] []) as (((out & ids) & exps) & n1) eqn:S. apply split_closed_loops in S; [|exact Nl]. destruct S as (S1 & S2 & S3).
    intros f I. apply (IH _ _ _ _ _ _ E) in I.
    + unfold let_exp in I. rewrite tail_let in I by easy. exact I.
    + unfold let_exp. apply closed_loops_let. split; [cbn [closed_loops]; now apply forallb_forall|easy].
  - destruct g as [x|x g|g1 g2 g3|gf gp gl|g gl|gs gb|gs glams gb|x g|k0 g]; try (cbn [rec_view] in E; discriminate E).
    2:{ destruct (rec_view (EFix gs glams gb)) as [(x & lam)|] eqn:Rv; [|discriminate E].
        cbn [rec_view] in Rv. destruct gs as [|y [|? ?]]; try discriminate Rv. destruct glams as [|lam1 lams]; [discriminate Rv|]. destruct gb as [z| | | | | | | |]; try discriminate Rv. destruct (id_eqb y z); [|discriminate Rv]. injection Rv as -> ->.
        cbn [closed_loops forallb] in Nl. apply andb_prop in Nl. destruct Nl as (Nl & N3). apply andb_prop in Nl. destruct Nl as (N1 & N2). apply andb_prop in N1. destruct N1 as (N1 & _). apply andb_prop in N2. destruct N2 as (N2 & _). apply andb_prop in N2. destruct N2 as (N2 & _).
        intros f I. exfalso. destruct (IH _ _ _ _ _ _ E) with (f := f) as (_ & H2 & _); [|easy|].
        - cbn [closed_loops forallb andb]. now rewrite N2, N3.
        - apply (own_labels _ _ _ _ _ _ _ _ _ _ E I H2). cbn [map combine fst In]. left. cbn [tail_call existsb] in H2. rewrite orb_false_r in H2. apply orb_prop in H2. destruct H2 as [H2|H2]; [now apply ideq|].
          apply tail_seen in H2. rewrite forallb_forall in N1. apply N1 in H2. cbn [memq existsb] in H2. unfold memq in H2. cbn [existsb] in H2. rewrite orb_false_r in H2. apply ideq in H2. easy. }
    cbn [rec_view] in E.
    cbn [closed_loops andb] in Nl. rewrite forallb_forall in Nl. destruct (assq x L) as [ps|] eqn:As; [|discriminate E].
    destruct (forallb is_var l && _).
    + destruct (mapx cexp l); [|discriminate E]. injection E as <- _. intros f I. destruct (is_return t); [|destruct I]. destruct I as [<-|[]].
      split; [easy|]. split; [cbn [tail_call]; apply idrefl|]. apply assq_in in As. apply in_map_iff. exists (x, ps). easy.
    + destruct (split_rands self true l n [] [] []) as (((out & ids) & exps) & n1) eqn:S. apply split_closed_loops in S; [|exact Nl]. destruct S as (S1 & S2 & S3).
      intros f I. apply (IH _ _ _ _ _ _ E) in I.
      * unfold let_exp in I. rewrite tail_let in I by easy. exact I.
      * unfold let_exp. apply closed_loops_let. split; [cbn [closed_loops andb]; now apply forallb_forall|easy].
  - cbn [closed_loops] in Nl. apply andb_prop in Nl. destruct Nl as (Nl & Nb). rewrite forallb_forall in Nl.
    destruct (cg self fuel _ b t _) as [(s1 & n1)|] eqn:E1; [|discriminate E]. destruct (gen_all _ _ n1) as [(labs & n2)|] eqn:E2 in E; [|discriminate E]. injection E as <- _.
    apply gen_all_each in E2.
    2:{ intros (a1 & a2) m c m' Y. cbn [fst snd] in Y. destruct (tail_call a1 _); [|injection Y as _ <-; lia].
        destruct (cg self fuel _ (snd a2) t m) as [(s' & m1)|] eqn:E3 in Y; [|discriminate Y]. injection Y as _ <-. now apply cg_mono in E3. }
    apply each_in in E2. destruct E2 as (F1 & F2). intros f I. cbn [jumps_out] in I. apply filter_In in I. destruct I as (I & Nf).
    assert (is_return t = true /\ tail_call f (EFix ys lams b) = true /\ In f (map fst (combine ys (map fst lams) ++ L))) as (H1 & H2 & H3).
    { apply in_app_iff in I. cbn [tail_call]. destruct I as [I|I].
      - destruct (IH _ _ _ _ _ _ E1 Nb f I) as (H1 & H2 & H3). rewrite H2. easy.
      - apply in_flat_map in I. destruct I as ((y & o) & I1 & I2). cbn [snd] in I2. destruct o as [s'|]; [|destruct I2].
        destruct (F1 _ I1) as ((z & (ps & b1)) & J & m & m' & _ & Em). cbn [fst snd] in Em. destruct (tail_call z _); [|discriminate Em].
        destruct (cg self fuel _ b1 t m) as [(s2 & m2)|] eqn:E3 in Em; [|discriminate Em]. injection Em as <- <- <-. apply in_combine_r in J.
        destruct (IH _ _ _ _ _ _ E3 (Nl _ J) f I2) as (H1 & H2 & H3). split; [easy|]. split; [|easy]. apply orb_true_iff. right. apply existsb_exists. exists (ps, b1). easy. }
    split; [easy|]. split; [easy|]. rewrite map_app, in_app_iff in H3. destruct H3 as [H3|H3]; [|easy]. exfalso.
    assert (exists lam, In (f, lam) (combine ys lams)) as (lam & J).
    { clear - H3. revert lams H3. induction ys as [|y ys IHy]; intros [|lam lams] H3; try (now destruct H3). cbn [map combine fst In] in H3. destruct H3 as [<-|H3].
      - exists lam. now left.
      - destruct (IHy lams H3) as (lam' & J). exists lam'. now right. }
    destruct (F2 _ J) as ((y & o) & J1 & m & m' & _ & Em). cbn [fst snd] in Em. rewrite H2 in Em.
    destruct (cg self fuel _ (snd lam) t m) as [(s2 & m2)|] eqn:E3 in Em; [|discriminate Em]. injection Em as <- <- <-.
    assert (memq f (labels_of labs) = true) as K; [|rewrite K in Nf; discriminate Nf]. apply existsb_exists. exists f. split; [|apply idrefl]. apply in_flat_map. exists (f, Some s2). split; [easy|]. now left.
Qed.
Theorem stack_closed fuel e n ps b code : s_function self e ps b -> distinct n e -> closed_loops b = true -> gen_function self fuel e n = Some code -> complete self code.
Proof.
  intros F Di Nl E. destruct (function_lam _ _ _ _ _ _ _ F E Di) as (_ & E' & _). unfold gen_lam in E'. destruct (cg self fuel [(self, ps)] b TReturn n) as [(s0 & n1)|] eqn:Ec; [|discriminate E'].
  cbn [option_map fst] in E'. injection E' as <-. intros f I. cbn [cf_body cf_label] in *. destruct (jumps_closed _ _ _ _ _ _ _ Ec Nl f I) as (_ & H2 & H3). destruct H3 as [<-|[]]. easy.
Qed.
End Labels.
