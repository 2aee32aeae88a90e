(** Proofs for functions on the C stack: which C functions are called.  See Properties_Stack.v *)
From Coq Require Import ZArith List Bool Lia.
From Verif Require Import Base Model_Lit Model_Core Model_Globals Model_Beta Model_Stack Spec_Scope Spec_Free Spec_Globals Spec_Stack Spec_StackTail Proofs_Free Proofs_Stack Proofs_StackFun.
Import ListNotations.
Open Scope Z_scope.
Lemma mapx_in A B (f : A -> option B) l : forall m, mapx f l = Some m -> forall b, In b m -> exists a, In a l /\ f a = Some b.
Proof.
  induction l as [|a l IH]; intros m E b I; cbn [mapx] in E; [injection E as <-; destruct I|]. destruct (f a) as [b1|] eqn:Ea; [|discriminate E]. destruct (mapx f l) as [m1|]; [|discriminate E]. injection E as <-.
  destruct I as [<-|I]; [exists a; split; [now left|easy]|]. destruct (IH m1 eq_refl b I) as (a1 & I1 & E1). exists a1. split; [now right|easy].
Qed.
Section Calls.
Variables (self : id) (params : list id).
Lemma calls_cexp2 e : (forall c, cexpp self e = true -> cexp e = Some c -> forall f, In f (x_calls c) -> f = self) /\
  forall xs b c, e = ELam xs b -> cexpp self b = true -> cexp b = Some c -> forall f, In f (x_calls c) -> f = self.
Proof.
  induction e as [e IH] using parts_ind. split; [|intros xs b k -> H; apply (IH b); [exists xs; now left|easy]].
  intros k H E. destruct e as [x|x e|a b c|ef p l|f l|xs b|xs lams b|x b|k0 e]; try discriminate H.
  - now injection E as <-.
  - cbn [cexpp] in H. apply andb_prop in H. destruct H as (H & Hc). apply andb_prop in H. destruct H as (Ha & Hb). cbn [cexp] in E.
    destruct (cexp a) as [a'|] eqn:Ea; [|discriminate E]. destruct (cexp b) as [b'|] eqn:Eb; [|discriminate E]. destruct (cexp c) as [c'|] eqn:Ec; [|discriminate E]. injection E as <-. cbn [x_calls].
    intros f I. rewrite !in_app_iff in I. destruct I as [I|[I|I]].
    + exact (proj1 (IH a (ex_intro _ [] (or_introl eq_refl))) a' Ha Ea f I).
    + exact (proj1 (IH b (ex_intro _ [] (or_intror (or_introl eq_refl)))) b' Hb Eb f I).
    + exact (proj1 (IH c (ex_intro _ [] (or_intror (or_intror (or_introl eq_refl))))) c' Hc Ec f I).
  - cbn [cexpp] in H. apply andb_prop in H. destruct H as (_ & H). rewrite forallb_forall in H. cbn [cexp] in E. destruct (mapx cexp l) as [m|] eqn:Em; [|discriminate E]. injection E as <-. cbn [x_calls].
    intros f I. apply in_flat_map in I. destruct I as (c & I & J). destruct (mapx_in _ _ _ _ _ Em c I) as (a & Ia & Ea). apply (proj1 (IH a (ex_intro _ [] (in_map (fun e => ([], e)) _ _ Ia))) c (H a Ia) Ea f J).
  - destruct f as [x|x f|a b c|ef p fl|f fl|ys b|ys lams b|x b|k0 f]; try discriminate H.
    + cbn [cexpp] in H. apply andb_prop in H. destruct H as (Hx & H). apply ideq in Hx. subst x. rewrite forallb_forall in H. cbn [cexp] in E. destruct (mapx cexp l) as [m|] eqn:Em; [|discriminate E]. injection E as <-. cbn [x_calls].
      intros f [<-|I]; [easy|]. apply in_flat_map in I. destruct I as (c & I & J). destruct (mapx_in _ _ _ _ _ Em c I) as (a & Ia & Ea). apply (proj1 (IH a (ex_intro _ [] (or_intror (in_map (fun e => ([], e)) _ _ Ia)))) c (H a Ia) Ea f J).
    + destruct ys as [|y [|? ?]]; [| |destruct l; discriminate H].
      * destruct l as [|? ?]; [|discriminate H]. cbn [cexpp] in H. cbn [cexp] in E. apply (proj2 (IH (ELam [] b) (ex_intro _ [] (or_introl eq_refl))) [] b k); easy.
      * destruct b; try discriminate H. destruct l as [|e [|? ?]]; try discriminate H. cbn [cexpp] in H. cbn [cexp] in E. destruct (id_eqb y x); [|discriminate H].
        apply (proj1 (IH e (ex_intro _ [] (or_intror (or_introl eq_refl))))); easy.
Qed.
Definition calls_ok (l : list id) : Prop := forall f, In f l -> f = self.
Lemma calls_cexp e c : cexpp self e = true -> cexp e = Some c -> calls_ok (x_calls c).
Proof. intros H E. exact (proj1 (calls_cexp2 e) c H E). Qed.
Lemma calls_mapx l m : (forall e, In e l -> cexpp self e = true) -> mapx cexp l = Some m -> calls_ok (flat_map x_calls m).
Proof. intros H E f I. apply in_flat_map in I. destruct I as (c & I & J). destruct (mapx_in _ _ _ _ _ E c I) as (a & Ia & Ea). now apply (calls_cexp a c (H a Ia) Ea). Qed.
Lemma calls_decls l ds : decls self l = Some ds -> calls_ok (flat_map s_calls ds).
Proof.
  intros E f I. apply in_flat_map in I. destruct I as (s & I & J). destruct (mapx_in _ _ _ _ _ E s I) as ((x & e) & Ia & Ea). cbn [fst snd] in *. apply filter_In in Ia. destruct Ia as (_ & Ia). cbn [snd] in Ia.
  destruct (cexp e) as [c|] eqn:Ec; [|discriminate Ea]. injection Ea as <-. now apply (calls_cexp e c Ia Ec).
Qed.
Lemma weaken xs ls t e xs' : s_body self params xs ls t e -> incl xs xs' -> s_body self params xs' ls t e.
Proof. intros B I. apply (body_drop _ _ _ _ _ _ B). intros y J. left. now apply I. Qed.
Lemma split_calls w l n out ids exps n' : split_rands self w l n [] [] [] = (out, ids, exps, n') ->
  length ids = length exps /\ length out = length l /\ (forall e, In e exps -> In e l) /\ (forall e, In e out -> (exists x, e = EVar x /\ In x ids) \/ In e l).
Proof.
  intros Sp. apply split_spec in Sp. destruct Sp as (q & Q1 & Q2 & Q3 & Q4 & _). cbn [rev app] in Q2. rewrite app_nil_r in Q3, Q4. subst.
  destruct (pairs_combine q) as (_ & _ & P3). split; [now rewrite !rev_length|]. split; [unfold outs; now rewrite !map_length|]. split.
  - intros e I. apply in_rev in I. unfold wrapped in I. apply in_flat_map in I. destruct I as ((e1 & o) & I & J). cbn [fst snd] in J. destruct o; [|easy]. destruct J as [<-|[]].
    apply in_map_iff. exists (e1, Some i). easy.
  - intros e I. apply in_map_iff in I. destruct I as ((e1 & o) & <- & I). cbn [fst snd]. destruct o as [x|].
    + left. exists x. split; [easy|]. apply -> in_rev. apply in_names. eauto.
    + right. apply in_map_iff. exists (e1, None). easy.
Qed.
Lemma calls_cg fuel : forall L e t n s n' xs ls tt, cg self fuel L e t n = Some (s, n') -> s_body self params xs ls tt e -> (tt = true -> t = TReturn) -> calls_ok (s_calls s).
Proof.
  induction fuel as [|fuel IH]; intros L e t n s n' xs ls tt E B T; [discriminate E|]. cbn [cg] in E.
  destruct (cexpp self e && negb (tail_call self e)) eqn:Ce.
  { apply andb_prop in Ce. destruct Ce as (C1 & _). destruct (cexp e) as [c|] eqn:Ec; [|discriminate E]. cbn in E. injection E as <- _. now apply (calls_cexp e c). }
  destruct (degenerate_let e) as [b|] eqn:Dg.
  { destruct e as [| | | |g l| | | |]; try discriminate Dg. destruct g as [| | | | |ys b1| | |]; try discriminate Dg. inversion B as [| | |? ? ? ? ? ? Le Bl Bb| | | |]; subst. destruct ys as [|y [|? ?]]; [| |destruct l; discriminate Dg].
    - destruct l; [|discriminate Dg]. injection Dg as ->. now apply (IH _ _ _ _ _ _ _ _ _ E Bb).
    - destruct b1; try discriminate Dg. destruct l as [|e [|? ?]]; try discriminate Dg. cbn [degenerate_let] in Dg. destruct (id_eqb y x); [|discriminate Dg]. injection Dg as ->.
      apply (IH _ _ _ _ _ _ _ _ _ E (Bl b (or_introl eq_refl))). discriminate. }
  destruct (begin_view e) as [(e1 & e2)|] eqn:Bg.
  { destruct (cg self fuel L e1 TVoid n) as [(s1 & n1)|] eqn:E1; [|discriminate E]. destruct (cg self fuel L e2 t n1) as [(s2 & n2)|] eqn:E2; [|discriminate E]. injection E as <- _.
    unfold begin_view in Bg. destruct e as [| | | |g l| | | |]; try discriminate Bg. destruct g as [| | | | |ys b1| | |]; try discriminate Bg. inversion B as [| | |? ? ? ? ? ? Le Bl Bb| | | |]; subst.
    cbn [let_view] in Bg. destruct (Nat.eqb _ _); [|discriminate Bg]. destruct ys as [|x [|? ?]]; try discriminate Bg. destruct l as [|a [|? ?]]; try discriminate Bg. destruct (var_referenced_in_exp x b1); [discriminate Bg|]. injection Bg as -> ->.
    intros f I. cbn [s_calls flat_map] in I. rewrite app_nil_r, in_app_iff in I. destruct I as [I|I].
    - apply (IH _ _ _ _ _ _ _ _ _ E1 (Bl e1 (or_introl eq_refl))); [discriminate|easy].
    - now apply (IH _ _ _ _ _ _ _ _ _ E2 Bb). }
  destruct (let_view e) as [((ids & rands) & b)|] eqn:Lv.
  { destruct (decls self (combine ids rands)) as [ds|] eqn:Ed; [|discriminate E]. destruct (gen_all _ _ n) as [(is & n1)|] eqn:E1 in E; [|discriminate E].
    destruct (cg self fuel L b t n1) as [(s2 & n2)|] eqn:E2; [|discriminate E]. injection E as <- _.
    destruct e as [| | | |g l| | | |]; try discriminate Lv. destruct g as [| | | | |ys b1| | |]; try discriminate Lv. inversion B as [| | |? ? ? ? ? ? Le Bl Bb| | | |]; subst. cbn [let_view] in Lv. destruct (Nat.eqb _ _); [|discriminate Lv]. injection Lv as -> -> ->.
    intros f I. cbn [s_calls] in I. rewrite !flat_map_app, !in_app_iff in I. destruct I as [I|[I|I]].
    - now apply (calls_decls _ _ Ed).
    - apply in_flat_map in I. destruct I as (s & I1 & I2). apply gen_all_each in E1; [|intros a m c m' Y; now apply cg_mono in Y]. apply each_in in E1. destruct E1 as (E1 & _).
      destruct (E1 s I1) as ((x & a) & Ia & m & m' & _ & Em). apply filter_In in Ia. destruct Ia as (Ia & _). apply in_combine_r in Ia. apply (IH _ _ _ _ _ _ _ _ _ Em (Bl _ Ia)); [discriminate|easy].
    - cbn [flat_map] in I. rewrite app_nil_r in I. now apply (IH _ _ _ _ _ _ _ _ _ E2 Bb). }
  destruct e as [x|x e|a b c|ef p l|g l|ys b|ys lams b|x b|k0 e]; try discriminate E.
  - inversion B as [|? ? ? ? ? ? Ba Bb Bc| | | | | |]; subst. destruct (cexpp self a) eqn:Ca.
    + destruct (cexp a) as [a'|] eqn:Ea; [|discriminate E]. destruct (cg self fuel L b t n) as [(s1 & n1)|] eqn:E1; [|discriminate E]. destruct (cg self fuel L c t n1) as [(s2 & n2)|] eqn:E2; [|discriminate E].
      injection E as <- _. intros f I. cbn [s_calls] in I. rewrite !in_app_iff in I. destruct I as [I|[I|I]]; [now apply (calls_cexp a a')|now apply (IH _ _ _ _ _ _ _ _ _ E1 Bb)|now apply (IH _ _ _ _ _ _ _ _ _ E2 Bc)].
    + cbn [fresh] in E. apply (IH _ _ _ _ _ _ xs ls tt E); [|easy]. unfold let_exp. apply sb_let; [easy|now intros e [<-|[]]|].
      apply sb_if; [constructor; left; now left|eapply weaken; [exact Bb|]|eapply weaken; [exact Bc|]]; intros y I; apply in_app_iff; now right.
  - inversion B as [| |? ? ? ? ? ? Bl| | | | |]; subst. destruct (forallb (cexpp self) l) eqn:Fl.
    + rewrite forallb_forall in Fl. destruct (mapx cexp l) as [m|] eqn:Em; [|discriminate E]. cbn in E. injection E as <- _. pose proof (calls_mapx _ _ Fl Em). destruct (prim_cexp p); easy.
    + destruct (split_rands self false l n [] [] []) as (((out & ids) & exps) & n1) eqn:Sp. destruct (split_calls _ _ _ _ _ _ _ Sp) as (S1 & S2 & S3 & S4).
      apply (IH _ _ _ _ _ _ xs ls tt E); [|easy]. unfold let_exp. apply sb_let; [easy|auto|]. apply sb_prim. intros e I. destruct (S4 e I) as [(x & -> & J)|J].
      * constructor. left. apply in_app_iff. now left.
      * eapply weaken; [now apply Bl|]. intros y K. apply in_app_iff. now right.
  - destruct (rec_view g) as [(x & lam)|] eqn:Rv.
    + destruct g; try discriminate Rv. inversion B as [| | | | | | |? ? y ps b0 ? Ny Le Bl Bb]; subst. cbn [rec_view] in Rv. rewrite idrefl in Rv. injection Rv as <- <-.
      apply (IH _ _ _ _ _ _ xs ls true E); [|easy]. apply sb_fix; [easy|intros [->|[]]; now apply Ny| |].
      * apply (sb_goto _ _ _ _ y ps); [easy|cbn [map fst combine app assq]; now rewrite idrefl|easy|]. intros e I. apply (body_any_labels _ _ _ ls); [now apply Bl|easy].
      * intros lam [<-|[]]. exact Bb.
    + destruct g; try discriminate E. destruct (assq x L) as [ps|]; [|discriminate E]. destruct (forallb is_var l && _) eqn:Fl.
      * apply andb_prop in Fl. destruct Fl as (Fl & _). rewrite forallb_forall in Fl. destruct (mapx cexp l) as [cs|] eqn:Em; [|discriminate E]. injection E as <- _.
        assert (calls_ok (flat_map x_calls cs)) as C. { apply (calls_mapx l); [|easy]. intros e I. specialize (Fl e I). now destruct e. }
        destruct tt.
        -- rewrite (T eq_refl). cbn [is_return s_calls]. intros f I. apply C. apply in_flat_map in I. destruct I as ((y & c) & I & J). apply in_combine_r in I. apply in_flat_map. now exists c.
        -- assert (x = self) as -> by (now inversion B). destruct t; cbn [is_return s_calls x_calls].
           ++ intros f I. apply C. apply in_flat_map in I. destruct I as ((y & c) & I & J). apply in_combine_r in I. apply in_flat_map. now exists c.
           ++ intros f [<-|I]; [easy|now apply C].
           ++ intros f [<-|I]; [easy|now apply C].
      * destruct (split_rands self true l n [] [] []) as (((out & ids) & exps) & n1) eqn:Sp. destruct (split_calls _ _ _ _ _ _ _ Sp) as (S1 & S2 & S3 & S4).
        assert ((forall e, In e l -> s_body self params xs ls false e) -> forall e, In e out -> s_body self params (ids ++ xs) ls false e) as K.
        { intros Bl e I. destruct (S4 e I) as [(y & -> & J)|J]; [constructor; left; apply in_app_iff; now left|]. eapply weaken; [now apply Bl|]. intros y K. apply in_app_iff. now right. }
        apply (IH _ _ _ _ _ _ xs ls tt E); [|easy]. unfold let_exp. inversion B as [| | | |? ? ? ? Le Bl|? ? ? ps0 ? Ny As Le Bl| |]; subst; (apply sb_let; [easy|auto|]).
        -- apply sb_self; [congruence|auto].
        -- apply (sb_goto _ _ _ _ x ps0); [easy|easy|congruence|auto].
  - inversion B as [| | | | | |? ? ? ? ? Le Ns Bb Bl|]; subst. rewrite (T eq_refl) in *. destruct (cg self fuel _ b TReturn _) as [(s1 & n1)|] eqn:E1 in E; [|discriminate E]. destruct (gen_all _ _ n1) as [(labs & n2)|] eqn:E2 in E; [|discriminate E]. injection E as <- _.
    intros f I. cbn [s_calls] in I. apply in_app_iff in I. destruct I as [I|I]; [now apply (IH _ _ _ _ _ _ _ _ _ E1 Bb)|]. apply in_flat_map in I. destruct I as ((x & o) & I & J). cbn [snd] in J. destruct o as [s|]; [|destruct J].
    apply gen_all_each in E2.
    + apply each_in in E2. destruct E2 as (E2 & _). destruct (E2 _ I) as ((y & lam) & Il & m & m' & _ & Em). cbn [fst snd] in Em. apply in_combine_r in Il. destruct (tail_call y _); [|discriminate Em].
      destruct (cg self fuel _ (snd lam) TReturn m) as [(s3 & n3)|] eqn:E3; [|discriminate Em]. injection Em as _ <- _. now apply (IH _ _ _ _ _ _ _ _ _ E3 (Bl lam Il)).
    + intros (y & lam) m k m' Y. cbn [fst snd] in Y. destruct (tail_call y _); [|injection Y as _ <-; lia]. destruct (cg self fuel _ (snd lam) TReturn m) as [(s3 & n3)|] eqn:E3; [|discriminate Y]. injection Y as _ <-. now apply cg_mono in E3.
Qed.
End Calls.
Theorem stack_calls self fuel e n ps b code : s_function self e ps b -> gen_function self fuel e n = Some code -> forall f, In f (s_calls (cf_body code)) -> f = self.
Proof.
  induction 1 as [ps b B|e ps b F IH|x e ps b F IH]; intros E; cbn [gen_function] in E.
  - unfold gen_lam in E. destruct (cg self fuel _ b TReturn n) as [(s & n1)|] eqn:Ec; [|discriminate E]. injection E as <-. now apply (calls_cg self ps _ _ _ _ _ _ _ _ _ _ Ec B).
  - now apply IH.
  - rewrite idrefl in E. now apply IH.
Qed.
