(** Proofs for functions on the C stack: tail calls.  See Properties_Stack.v *)
From Coq Require Import ZArith List Bool Lia.
From Verif Require Import Base Model_Lit Model_Core Model_Globals Model_Beta Model_Stack Spec_Scope Spec_Free Spec_Globals Spec_Stack Spec_StackTail Proofs_Free Proofs_Stack Proofs_StackFun.
Import ListNotations.
Open Scope Z_scope.
Section Tail.
Variable self : id.
Lemma ends_cexp2 e : (forall c, cexpp self e = true -> tail_call self e = false -> cexp e = Some c -> ends_in_call c = false) /\
  forall xs b c, e = ELam xs b -> cexpp self b = true -> tail_call self b = false -> cexp b = Some c -> ends_in_call c = false.
Proof.
  induction e as [e IH] using parts_ind. split; [|intros xs b k -> H; apply (IH b); [exists xs; now left|easy]].
  intros k H T E. destruct e as [x|x e|a b c|ef p l|f l|xs b|xs lams b|x b|k0 e]; try discriminate H.
  - now injection E as <-.
  - cbn [cexpp] in H. apply andb_prop in H. destruct H as (H & Hc). apply andb_prop in H. destruct H as (Ha & Hb). cbn [tail_call] in T. apply orb_false_elim in T. destruct T as (Tb & Tc). cbn [cexp] in E.
    destruct (cexp a) as [a'|]; [|discriminate E]. destruct (cexp b) as [b'|] eqn:Eb; [|discriminate E]. destruct (cexp c) as [c'|] eqn:Ec; [|discriminate E]. injection E as <-. cbn [ends_in_call].
    rewrite (proj1 (IH b (ex_intro _ [] (or_intror (or_introl eq_refl)))) b' Hb Tb Eb). exact (proj1 (IH c (ex_intro _ [] (or_intror (or_intror (or_introl eq_refl))))) c' Hc Tc Ec).
  - cbn [cexp] in E. destruct (mapx cexp l); [|discriminate E]. now injection E as <-.
  - destruct f as [x|x f|a b c|ef p fl|f fl|ys b|ys lams b|x b|k0 f]; try discriminate H.
    + cbn [cexpp] in H. apply andb_prop in H. destruct H as (H & _). cbn [tail_call] in T. rewrite T in H. discriminate H.
    + destruct ys as [|y [|? ?]]; [| |destruct l; discriminate H].
      * destruct l as [|? ?]; [|discriminate H]. cbn [cexpp] in H. cbn [cexp] in E. cbn [tail_call] in T. apply (proj2 (IH (ELam [] b) (ex_intro _ [] (or_introl eq_refl))) [] b k); easy.
      * destruct b; try discriminate H. destruct l as [|e [|? ?]]; try discriminate H. cbn [cexpp] in H. cbn [cexp] in E. cbn [tail_call] in T. destruct (id_eqb y x); [|discriminate H].
        apply (proj1 (IH e (ex_intro _ [] (or_intror (or_introl eq_refl))))); easy.
Qed.
Lemma keeps_set t c : (t = TReturn -> ends_in_call c = false) -> keeps_stack (SSet t c).
Proof. intros H. destruct t; [apply ks_return; auto|apply ks_set; discriminate|apply ks_set; discriminate]. Qed.
Lemma keeps_decls l ds : decls self l = Some ds -> forall s, In s ds -> keeps_stack s.
Proof.
  unfold decls. generalize (filter (fun xe : id * exp => cexpp self (snd xe)) l). intros m. revert ds. induction m as [|(x & e) m IH]; intros ds E; cbn [mapx] in E; [now injection E as <-|].
  cbn [fst snd] in E. destruct (cexp e); [|discriminate E]. cbn [option_map] in E. destruct (mapx _ m) as [ds2|]; [|discriminate E]. injection E as <-. intros s [<-|I]; [apply ks_set; discriminate|now apply (IH ds2)].
Qed.
Lemma keeps_cg fuel : forall L e t n s n', cg self fuel L e t n = Some (s, n') -> keeps_stack s.
Proof.
  induction fuel as [|fuel IH]; intros L e t n s n' E; [discriminate E|]. cbn [cg] in E.
  destruct (cexpp self e && negb (tail_call self e)) eqn:Ce.
  { apply andb_prop in Ce. destruct Ce as (C1 & C2). apply negb_true_iff in C2. destruct (cexp e) as [c|] eqn:Ec; [|discriminate E]. cbn in E. injection E as <- _. apply keeps_set. intros _. now apply (proj1 (ends_cexp2 e)). }
  destruct (degenerate_let e) as [b|]; [now apply IH in E|].
  destruct (begin_view e) as [(e1 & e2)|].
  { destruct (cg self fuel L e1 TVoid n) as [(s1 & n1)|] eqn:E1; [|discriminate E]. destruct (cg self fuel L e2 t n1) as [(s2 & n2)|] eqn:E2; [|discriminate E]. injection E as <- _.
    apply ks_seq. intros s [<-|[<-|[]]]; [now apply IH in E1|now apply IH in E2]. }
  destruct (let_view e) as [((ids & rands) & b)|].
  { destruct (decls self (combine ids rands)) as [ds|] eqn:Ed; [|discriminate E]. destruct (gen_all _ _ n) as [(is & n1)|] eqn:E1 in E; [|discriminate E].
    destruct (cg self fuel L b t n1) as [(s2 & n2)|] eqn:E2; [|discriminate E]. injection E as <- _. apply ks_seq. intros s I. rewrite !in_app_iff in I. destruct I as [I|[I|[<-|[]]]].
    - now apply (keeps_decls _ _ Ed).
    - apply gen_all_each in E1; [|intros a m c m' Y; now apply cg_mono in Y]. apply each_in in E1. destruct E1 as (E1 & _). destruct (E1 s I) as (a & _ & m & m' & _ & Em). now apply IH in Em.
    - now apply IH in E2. }
  destruct e as [x|x e|a b c|ef p l|g l|ys b|ys lams b|x b|k0 e]; try discriminate E.
  - destruct (cexpp self a).
    + destruct (cexp a); [|discriminate E]. destruct (cg self fuel L b t n) as [(s1 & n1)|] eqn:E1; [|discriminate E]. destruct (cg self fuel L c t n1) as [(s2 & n2)|] eqn:E2; [|discriminate E].
      injection E as <- _. apply ks_if; [now apply IH in E1|now apply IH in E2].
    + cbn [fresh] in E. now apply IH in E.
  - destruct (forallb (cexpp self) l).
    + destruct (mapx cexp l); [|discriminate E]. cbn in E. injection E as <- _. destruct (prim_cexp p); [now apply keeps_set|apply ks_prim].
    + destruct (split_rands self false l n [] [] []) as (((out & ids) & exps) & n1). now apply IH in E.
  - destruct (rec_view g) as [(x & lam)|]; [now apply IH in E|]. destruct g; try discriminate E. destruct (assq x L) as [ps|]; [|discriminate E]. destruct (forallb is_var l && _).
    + destruct (mapx cexp l); [|discriminate E]. injection E as <- _. destruct t; [apply ks_goto|apply ks_set; discriminate|apply ks_set; discriminate].
    + destruct (split_rands self true l n [] [] []) as (((out & ids) & exps) & n1). now apply IH in E.
  - destruct (cg self fuel _ b t _) as [(s1 & n1)|] eqn:E1 in E; [|discriminate E]. destruct (gen_all _ _ n1) as [(labs & n2)|] eqn:E2 in E; [|discriminate E]. injection E as <- _.
    apply ks_letrec; [now apply IH in E1|]. intros x s I. apply gen_all_each in E2.
    + apply each_in in E2. destruct E2 as (E2 & _). destruct (E2 _ I) as ((y & lam) & _ & m & m' & _ & Em). cbn [fst snd] in Em. destruct (tail_call y _); [|discriminate Em].
      destruct (cg self fuel _ (snd lam) t m) as [(s3 & n3)|] eqn:E3; [|discriminate Em]. injection Em as _ <- _. now apply IH in E3.
    + intros (y & lam) m k m' Y. cbn [fst snd] in Y. destruct (tail_call y _); [|injection Y as _ <-; lia]. destruct (cg self fuel _ (snd lam) t m) as [(s3 & n3)|] eqn:E3; [|discriminate Y]. injection Y as _ <-. now apply cg_mono in E3.
Qed.
Lemma keeps_function fuel n code e : (gen_function self fuel e n = Some code -> keeps_stack (cf_body code)) /\
  forall xs b, e = ELam xs b -> gen_function self fuel b n = Some code -> keeps_stack (cf_body code).
Proof.
  induction e as [e IH] using parts_ind. split; [|intros xs b ->; apply (IH b); exists xs; now left].
  intros E. destruct e as [| | | |f l|ys b| | |]; try discriminate E.
  - destruct f as [| | | | |ys b| | |]; try discriminate E. destruct ys as [|y [|? ?]]; [| |destruct l; discriminate E].
    + destruct l; [|discriminate E]. cbn [gen_function] in E. exact (proj2 (IH (ELam [] b) (ex_intro _ [] (or_introl eq_refl))) [] b eq_refl E).
    + destruct b; try discriminate E. destruct l as [|e [|? ?]]; try discriminate E. cbn [gen_function] in E. destruct (id_eqb y x); [|discriminate E].
      exact (proj1 (IH e (ex_intro _ [] (or_intror (or_introl eq_refl)))) E).
  - cbn [gen_function] in E. unfold gen_lam in E. destruct (cg self fuel _ b TReturn n) as [(s & n1)|] eqn:Ec; [|discriminate E]. injection E as <-. cbn [cf_body fst]. now apply keeps_cg in Ec.
Qed.
End Tail.
Theorem stack_tail self fuel e n code : gen_function self fuel e n = Some code -> keeps_stack (cf_body code).
Proof. apply keeps_function. Qed.
