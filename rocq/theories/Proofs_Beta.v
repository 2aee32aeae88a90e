(** Careful runs of beta substitution give programs that do what the programs do. *)
From Coq Require Import ZArith List Bool Lia Permutation.
From Verif Require Import Model_Lit Model_Core Model_Beta Spec_Sem Spec_Free Spec_Fold Spec_Beta Proofs_Sim Proofs_Core Proofs_Free Proofs_FoldWf Proofs_BetaPure Proofs_BetaSem Proofs_BetaRun Proofs_BetaFree.
Import ListNotations.
Open Scope Z_scope.

Section Chain.
Variable P : prim -> script.
Notation fine := (fine P).
Notation B := (B P).
Definition ok (G : gamma) (e : exp) : Prop := fine e /\ scoped G e.
Lemma refl_B G e : ok G e -> B G e e.
Proof. intros (F & S). now apply (B_refl P (fun _ => CVoid)). Qed.
Lemma refl_Bs G l : Forall (ok G) l -> Forall2 (B G) l l.
Proof. induction 1; constructor; auto. now apply refl_B. Qed.

Inductive chain (G : gamma) : exp -> exp -> Prop :=
| ch_nil e : chain G e e
| ch_cons e e1 e2 : B G e e1 -> ok G e1 -> chain G e1 e2 -> chain G e e2.
Lemma chain_trans G a b c : chain G a b -> chain G b c -> chain G a c.
Proof. induction 1; intros; auto. econstructor; eauto. Qed.
Lemma chain_one G a b : B G a b -> ok G b -> chain G a b.
Proof. intros. econstructor; eauto. constructor. Qed.
Lemma chain_ok G a b : chain G a b -> ok G a -> ok G b.
Proof. induction 1; auto. Qed.
Lemma chain_ctx G G1 (C : exp -> exp) a b : (forall x y, B G1 x y -> ok G1 x -> ok G1 y -> B G (C x) (C y)) -> (forall y, ok G1 y -> ok G (C y)) -> ok G1 a -> chain G1 a b -> chain G (C a) (C b).
Proof. intros H1 H2 A Ch. induction Ch; [constructor|]. econstructor; eauto. Qed.
Lemma chain_list G (C : list exp -> exp) l l' : Forall2 (chain G) l l' -> (forall x y, Forall2 (B G) x y -> B G (C x) (C y)) -> (forall y, Forall (ok G) y -> ok G (C y)) -> Forall (ok G) l -> chain G (C l) (C l').
Proof.
  intros F. revert C. induction F as [|x y l l' X F IH]; intros C H1 H2 O; [constructor|]. inversion O; subst. assert (Oy : ok G y) by (eapply chain_ok; eauto). apply chain_trans with (C (y :: l)).
  - apply (chain_ctx G G (fun z => C (z :: l))); auto. intros a b A _ _. apply H1. constructor; [assumption | now apply refl_Bs].
  - apply (IH (fun z => C (y :: z))); auto. intros a b A. apply H1. constructor; [now apply refl_B | assumption].
Qed.
Lemma chain_refines e e' : fine e -> chain (fun _ _ => False) e e' -> scoped (fun _ _ => False) e -> refines P MDirect MDirect e e'.
Proof.
  intros F C S. assert (O : ok (fun _ _ => False) e) by now split. clear F S. induction C as [e|e e1 e2 C O1 CC IH]; [apply B_refines; now apply refl_B|].
  eapply refines_trans; [apply B_refines; exact C | auto].
Qed.

(** ** Well-formed expressions *)
Lemma ok_part0 G e e' : In ([], e') (parts e) -> ok G e -> ok G e'.
Proof. intros I (F & S). split; [eapply fine_part; eauto | eapply scoped_part0; eauto]. Qed.
Lemma ok_part G e ys e' : In (ys, e') (parts e) -> ok G e -> ok (under ys G) e'.
Proof. intros I (F & S). split; [eapply fine_part; eauto | eapply scoped_part; eauto]. Qed.
Lemma ok_mk G e : node_ok P e -> (forall y, named y e -> global_id y = true) -> (forall ys e', In (ys, e') (parts e) -> ok (under ys G) e') -> ok G e.
Proof.
  intros N M H. split; [constructor; [assumption|]; intros ys e' I; apply (H _ _ I)|]. intros y [Nm|ys e' I NI F] Gy; [rewrite (M _ Nm) in Gy; discriminate|].
  destruct (H _ _ I) as (_ & S). destruct (S y F Gy) as [(J & _)|(_ & X & _)]; [contradiction | assumption].
Qed.
Lemma ok_nil G e : ok G e -> ok (under [] G) e.
Proof. intros (F & S). split; [assumption|]. intros y Fy Gy. right. split; [easy|]. split; [auto|]. intros z _ []. Qed.
Lemma unnamed e : (forall y, any_use y e = false) -> forall y, named y e -> global_id y = true.
Proof. intros H y N. specialize (H y). destruct N; cbn in H; now rewrite id_eqb_refl in H. Qed.
Lemma ok_app G f l : ok G f -> Forall (ok G) l -> ok G (EApp f l).
Proof.
  intros Of Ol. apply ok_mk; [exact Logic.I | now apply unnamed|]. intros ys e' [[= <- <-]|I]; [now apply ok_nil|]. apply in_map_iff in I. destruct I as (a & [= <- <-] & I).
  rewrite Forall_forall in Ol. apply ok_nil. auto.
Qed.
Lemma ok_app_inv G f l : ok G (EApp f l) -> ok G f /\ Forall (ok G) l.
Proof. intros O. split; [eapply ok_part0; [|exact O]; now left|]. apply Forall_forall. intros a I. eapply ok_part0; [|exact O]. right. now apply in_map. Qed.
Lemma ok_prim G ef p l : node_ok P (EPrim ef p []) -> Forall (ok G) l -> ok G (EPrim ef p l).
Proof.
  intros N Ol. apply ok_mk; [exact N | now apply unnamed|]. intros ys e' I. apply in_map_iff in I. destruct I as (a & [= <- <-] & I). rewrite Forall_forall in Ol. apply ok_nil. auto.
Qed.
Lemma ok_prim_inv G ef p l : ok G (EPrim ef p l) -> node_ok P (EPrim ef p []) /\ Forall (ok G) l.
Proof. intros O. split; [exact (fine_node P _ (proj1 O))|]. apply Forall_forall. intros a I. eapply ok_part0; [|exact O]. cbn. now apply in_map. Qed.
Lemma ok_lam G xs b : ok (under xs G) b -> ok G (ELam xs b).
Proof. intros O. apply ok_mk; [exact Logic.I | now apply unnamed|]. intros ys e' [[= <- <-]|[]]. assumption. Qed.
Lemma ok_lam_inv G xs b : ok G (ELam xs b) -> ok (under xs G) b.
Proof. apply ok_part. now left. Qed.
Lemma ok_letcc G x b : ok (under [x] G) b -> ok G (ELetcc x b).
Proof. intros O. apply ok_mk; [exact Logic.I | now apply unnamed|]. intros ys e' [[= <- <-]|[]]. assumption. Qed.
Lemma ok_if G a b c : ok G a -> ok G b -> ok G c -> ok G (EIf a b c).
Proof. intros. apply ok_mk; [exact Logic.I | now apply unnamed|]. intros ys e' [[= <- <-]|[[= <- <-]|[[= <- <-]|[]]]]; now apply ok_nil. Qed.
Lemma ok_with G a b : ok G a -> ok G b -> ok G (EWithcc a b).
Proof. intros. apply ok_mk; [exact Logic.I | now apply unnamed|]. intros ys e' [[= <- <-]|[[= <- <-]|[]]]; now apply ok_nil. Qed.
Lemma ok_set G x e : global_id x = true -> global_id_constant x = false -> ok G e -> ok G (ESet x e).
Proof. intros X1 X2 O. apply ok_mk; [now split | intros y N; inversion N; now subst|]. intros ys e' [[= <- <-]|[]]. now apply ok_nil. Qed.
Lemma ok_var (G : gamma) x : (global_id x = false -> G x (EVar x)) -> ok G (EVar x).
Proof. intros H. split; [constructor; [exact Logic.I | intros ys e' []]|]. intros y F. apply free_var in F. now subst. Qed.
Lemma under_app xs ys G y : under (xs ++ ys) G y (EVar y) <-> under ys (under xs G) y (EVar y).
Proof.
  unfold under. rewrite in_app_iff. assert (A : forall zs, apart (EVar y) zs <-> ~ In y zs) by (intros zs; split; [intros H; apply H; now apply free_var | apply apart_var]). rewrite !A, in_app_iff. assert (Q : EVar y = EVar y) by reflexivity. destruct (in_dec id_dec y xs), (in_dec id_dec y ys); tauto.
Qed.
Lemma ok_under_app xs ys G e : ok (under (xs ++ ys) G) e <-> ok (under ys (under xs G)) e.
Proof. unfold ok, scoped. split; intros (F & S); (split; [assumption|]); intros y Fy Gy; specialize (S y Fy Gy); now apply under_app. Qed.
Lemma ok_fix G xs lams b : ok (under xs G) b -> Forall (fun l => ok (under (fst l) (under xs G)) (snd l)) lams -> ok G (EFix xs lams b).
Proof.
  intros O L. apply ok_mk; [exact Logic.I | now apply unnamed|]. intros ys e' [[= <- <-]|I]; [assumption|]. apply in_map_iff in I. destruct I as (l & [= <- <-] & I). rewrite Forall_forall in L. apply ok_under_app. auto.
Qed.
Lemma ok_fix_inv G xs lams b : ok G (EFix xs lams b) -> ok (under xs G) b /\ Forall (fun l => ok (under (fst l) (under xs G)) (snd l)) lams.
Proof.
  intros O. split; [eapply ok_part; [|exact O]; now left|]. apply Forall_forall. intros l I. apply ok_under_app. eapply ok_part; [|exact O]. right. apply in_map_iff. eauto.
Qed.
Lemma chain_fix G xs b lams : forall lams' pre, Forall2 (fun l l' => fst l' = fst l /\ chain (under (fst l) (under xs G)) (snd l) (snd l')) lams lams' -> ok (under xs G) b ->
  Forall (fun l => ok (under (fst l) (under xs G)) (snd l)) pre -> Forall (fun l => ok (under (fst l) (under xs G)) (snd l)) lams -> chain G (EFix xs (pre ++ lams) b) (EFix xs (pre ++ lams') b).
Proof.
  induction lams as [|(ys & e) lams IH]; intros lams' pre F Ob Op Ol; inversion F as [|? (ys' & e') ? l' (E1 & E2) F2]; subst; [constructor|]. cbn [fst snd] in *. subst ys'. inversion Ol as [|? ? O1 O2]; subst. cbn [fst snd] in *.
  assert (Oe : ok (under ys (under xs G)) e') by (eapply chain_ok; eauto).
  assert (RF : forall l, Forall (fun l => ok (under (fst l) (under xs G)) (snd l)) l -> Forall2 (fun l l' => fst l' = fst l /\ B (under (fst l) (under xs G)) (snd l) (snd l')) l l).
  { intros l Fl. induction Fl; constructor; auto. split; [reflexivity | now apply refl_B]. }
  apply chain_trans with (EFix xs (pre ++ (ys, e') :: lams) b).
  - apply (chain_ctx G (under ys (under xs G)) (fun z => EFix xs (pre ++ (ys, z) :: lams) b)); auto.
    + intros x y H _ _. apply b_fix; [|now apply refl_B]. apply Forall2_app; [now apply RF|]. constructor; [now split | now apply RF].
    + intros y Oy. apply ok_fix; [assumption|]. apply Forall_app. split; [assumption|]. now constructor.
  - specialize (IH l' (pre ++ [(ys, e')]) F2 Ob). rewrite <- !app_assoc in IH. apply IH; [|assumption]. apply Forall_app. split; [assumption|]. constructor; [assumption | constructor].
Qed.

(** ** Substitutions *)
Definition sub_ok (G : gamma) (s : bsubsts) (e : exp) : Prop := forall x t oh, In (x, (t, oh)) s -> global_id x = false /\
  (bs_ref_transparent t = true /\ ok G t /\ G x t \/ ~ free_in x e /\ ~ inran x s) /\ (forall h, oh = Some h -> bs_ref_transparent h = true /\ ok G h /\ G x h).
Lemma sub_part G s e e' : (forall x, free_in x e' -> free_in x e) -> sub_ok G s e -> sub_ok G s e'.
Proof. intros H S x t oh I. destruct (S _ _ _ I) as (A & C & D). split; [assumption|]. split; [|assumption]. destruct C as [C|(C & C2)]; [now left | right; auto]. Qed.
Lemma ok_apart G ys t : apart t ys -> ok G t -> ok (under ys G) t.
Proof. intros A (F & S). split; [assumption|]. intros y Fy Gy. right. split; [now apply A|]. split; [auto | apply apart_var; now apply A]. Qed.
Lemma sub_under G ys s e e' : clear_all ys s = true -> (forall x, ~ In x ys -> free_in x e' -> free_in x e) -> sub_ok G s e -> sub_ok (under ys G) s e'.
Proof.
  intros Cl H S x t oh I. destruct (clear_all_spec _ _ Cl) as (C1 & C2). assert (N := C1 _ _ I). destruct (S _ _ _ I) as (A & C & D). split; [assumption|].
  assert (Ap : forall u, u = t \/ oh = Some u -> apart u ys).
  { intros u Hu z Fz. apply C2. exists x, t, oh. split; [assumption|]. destruct Hu as [->| ->]; eauto. }
  split.
  - destruct C as [(C & O & X)|(C & X)]; [left | right; auto]. split; [assumption|]. split; [apply ok_apart; auto|]. right. auto.
  - intros h ->. destruct (D _ eq_refl) as (D1 & D2 & D3). split; [assumption|]. split; [apply ok_apart; auto|]. right. auto.
Qed.
Lemma rt_quiet m : forall e, (esize e <= m)%nat -> bs_ref_transparent e = true -> quiet e = true.
Proof.
  induction m as [|m IH]; intros e L H; [destruct e; cbn in L; lia|]. 
  assert (IHl : forall l, (list_sum (map esize l) <= m)%nat -> forallb bs_ref_transparent l = true -> forallb quiet l = true).
  { intros l Ll. rewrite !forallb_forall. intros Hl a I. apply IH; [|auto]. assert (X := size_in a l I). lia. }
  destruct e as [x|x e|a b c|ef p l|f l|xs b|xs lams b|x b|k e]; cbn [bs_ref_transparent quiet] in *; try discriminate; auto.
  - cbn [esize] in L. rewrite !andb_true_iff in *. destruct H as ((H1 & H2) & H3). repeat split; apply IH; auto; lia.
  - cbn [esize] in L. rewrite andb_true_iff in *. destruct H as (H1 & H2). split; [destruct ef; try discriminate; reflexivity|]. apply IHl; [lia | assumption].
  - destruct f; try discriminate. cbn [esize] in L. rewrite !andb_true_iff in *. destruct H as (H1 & H2 & H3). split; [assumption|]. split; [apply IHl; [lia | assumption] | apply IH; [lia | assumption]].
Qed.

(** ** Lets *)
Lemma knows_out (G : gamma) ks y : knows G ks y (EVar y) -> ~ In y (map sid ks) -> G y (EVar y).
Proof.
  intros [(I & _)|[((t & I) & _)|[(I & _)|(_ & H & _)]]] N; try assumption; exfalso; apply N; apply in_map_iff; eexists; (split; [|exact I]); reflexivity.
Qed.
Lemma knows_old (G : gamma) ks y t : ~ In y (map sid ks) -> G y t -> apart t (map sid ks) -> knows G ks y t.
Proof. intros. right; right; right. auto. Qed.
Section Let.
Variables hc hl : bool.
Variable body : exp.
Notation choice d := (bs_choose hc hl (fst d) (snd d) body).
Definition mid (d : id * exp) : opd :=
  match choice d with
  | CSubst | CPartial => if bs_ref_transparent (snd d) then OK (fst d) (snd d) else OB (fst d) (snd d) (snd d)
  | _ => OB (fst d) (snd d) (snd d)
  end.
Lemma mid_cases d : mid d = OB (fst d) (snd d) (snd d) \/ mid d = OK (fst d) (snd d) /\ bs_ref_transparent (snd d) = true.
Proof. unfold mid. destruct (choice d); auto; destruct (bs_ref_transparent (snd d)); auto. Qed.
Lemma mid_maps l : map oid (map mid l) = map fst l /\ map osrc (map mid l) = map snd l /\ flat_map otid (map mid l) = map fst l /\ flat_map otgt (map mid l) = map snd l.
Proof.
  induction l as [|d l (A1 & A2 & A3 & A4)]; [repeat split|]. cbn [map flat_map]. rewrite A1, A2, A3, A4. destruct (mid_cases d) as [->|(-> & _)]; repeat split.
Qed.
Definition after (G : gamma) (l : list (id * exp)) : gamma := knows G (map osk (map mid l)).
Lemma sid_mid l : map sid (map osk (map mid l)) = map fst l.
Proof. rewrite !map_map. apply map_ext. intros d. destruct (mid_cases d) as [->|(-> & _)]; reflexivity. Qed.
Lemma after_out (G : gamma) l y : after G l y (EVar y) -> ~ In y (map fst l) -> G y (EVar y).
Proof. intros A N. eapply knows_out; [exact A|]. now rewrite sid_mid. Qed.
Lemma after_old (G : gamma) l y t : ~ In y (map fst l) -> G y t -> apart t (map fst l) -> after G l y t.
Proof. intros. apply knows_old; rewrite ?sid_mid; auto. Qed.
Lemma after_own (G : gamma) l y : In y (map fst l) -> after G l y (EVar y).
Proof.
  intros I. apply in_map_iff in I. destruct I as (d & <- & I). unfold after, knows. rewrite map_map. destruct (mid_cases d) as [E|(E & _)].
  - left. split; [|reflexivity]. apply in_map_iff. exists d. now rewrite E.
  - right; left. split; [|reflexivity]. exists (snd d). apply in_map_iff. exists d. now rewrite E.
Qed.
Lemma after_new (G : gamma) l d : In d l -> (choice d = CSubst \/ choice d = CPartial) -> bs_ref_transparent (snd d) = true -> apart (snd d) (map fst l) -> after G l (fst d) (snd d).
Proof.
  intros I C R A. right; right; left. rewrite sid_mid. split; [|assumption]. rewrite map_map. apply in_map_iff. exists d. split; [|assumption]. unfold mid. rewrite R. destruct C as [-> | ->]; reflexivity.
Qed.
Lemma ok_after G l t : apart t (map fst l) -> ok G t -> ok (after G l) t.
Proof. intros A (F & S). split; [assumption|]. intros y Fy Gy. apply after_old; auto. apply apart_var. now apply A. Qed.
Lemma ok_body G l b : ok G (EApp (ELam (map fst l) b) (map snd l)) -> ok (after G l) b.
Proof.
  intros O. apply ok_app_inv in O. destruct O as (O & _). apply ok_lam_inv in O. destruct O as (F & S). split; [assumption|]. intros y Fy Gy.
  destruct (S y Fy Gy) as [(I & _)|(N & H & _)]; [now apply after_own | apply after_old; auto; now apply apart_var].
Qed.
Lemma ok_let G l b : (forall d, In d l -> ok G (snd d)) -> ok (after G l) b -> ok G (EApp (ELam (map fst l) b) (map snd l)).
Proof.
  intros O (F & S). apply ok_app.
  - apply ok_lam. split; [assumption|]. intros y Fy Gy. destruct (in_dec id_dec y (map fst l)) as [I|I]; [now left | right]. split; [assumption|]. split; [eapply after_out; eauto | now apply apart_var].
  - apply Forall_forall. intros a I. apply in_map_iff in I. destruct I as (d & <- & I). auto.
Qed.
Lemma let_ctx G l b b' : NoDup (map fst l) -> (forall d, In d l -> ok G (snd d)) -> ok (after G l) b -> chain (after G l) b b' ->
  chain G (EApp (ELam (map fst l) b) (map snd l)) (EApp (ELam (map fst l) b') (map snd l)).
Proof.
  intros ND O Ob Ch. apply (chain_ctx G (after G l) (fun z => EApp (ELam (map fst l) z) (map snd l))); auto; [|intros; now apply ok_let].
  intros x y H _ _. destruct (mid_maps l) as (A1 & A2 & A3 & A4). assert (X := b_let P G (map mid l) (map mid l) x y). rewrite A1, A2, A3, A4 in X. apply X; auto; try apply Permutation_refl.
  - intros z e e' I. apply in_map_iff in I. destruct I as (d & E & I). destruct (mid_cases d) as [Q|(Q & _)]; rewrite Q in E; [|discriminate]. injection E as <- <- <-. apply refl_B. auto.
  - intros z t I. apply in_map_iff in I. destruct I as (d & E & I). destruct (mid_cases d) as [Q|(Q & R)]; rewrite Q in E; [discriminate|]. injection E as <- <-. split; [assumption|]. apply O. assumption.
  - intros z e I. apply in_map_iff in I. destruct I as (d & E & I). destruct (mid_cases d) as [Q|(Q & _)]; rewrite Q in E; discriminate.
Qed.
(** dead bindings are dropped, and the others turned round *)
Definition fin (q : id * exp -> bool) (d : id * exp) : opd := if q d then OB (fst d) (snd d) (snd d) else OG (fst d) (snd d).
Lemma fin_maps q l : map oid (map (fin q) l) = map fst l /\ map osrc (map (fin q) l) = map snd l /\ flat_map otid (map (fin q) l) = map fst (filter q l) /\ flat_map otgt (map (fin q) l) = map snd (filter q l) /\
  map sid (map osk (map (fin q) l)) = map fst l.
Proof.
  induction l as [|d l (A1 & A2 & A3 & A4 & A5)]; [repeat split|]. cbn [map flat_map filter]. rewrite A1, A2, A3, A4, A5. unfold fin. destruct (q d); repeat split.
Qed.
Lemma drop_step q G l b : NoDup (map fst l) -> (forall d, In d l -> ok G (snd d)) -> ok (after G l) b -> (forall d, In d l -> q d = false -> quiet (snd d) = true) ->
  (forall y, free_in y b -> global_id y = false -> In y (map fst l) -> In y (map fst (filter q l))) ->
  chain G (EApp (ELam (map fst l) b) (map snd l)) (EApp (ELam (map fst (filter q (rev l))) b) (map snd (filter q (rev l)))).
Proof.
  intros ND O (F & S) Q H. destruct (fin_maps q l) as (A1 & A2 & _ & _ & A5). destruct (fin_maps q (rev l)) as (_ & _ & A3 & A4 & _).
  assert (HS : forall y, free_in y b -> global_id y = false -> ~ In y (map fst (filter q l)) -> G y (EVar y)).
  { intros y Fy Gy N. eapply after_out; [apply S; assumption|]. intros I. apply N. auto. }
  assert (FR : forall y, In y (map fst (filter q l)) <-> In y (map fst (filter q (rev l)))).
  { intros y. rewrite !in_map_iff. split; intros (d & E & I); exists d; (split; [assumption|]); apply filter_In in I; apply filter_In; rewrite <- in_rev in *; auto. }
  apply chain_one.
  - assert (X := b_let P G (map (fin q) l) (map (fin q) (rev l)) b b). rewrite A1, A2, A3, A4 in X. apply X; auto.
    + apply Permutation_map, Permutation_rev.
    + intros z e e' I. apply in_map_iff in I. destruct I as (d & E & I). unfold fin in E. destruct (q d); [|discriminate]. injection E as <- <- <-. apply refl_B. auto.
    + intros z t I. apply in_map_iff in I. destruct I as (d & E & I). unfold fin in E. destruct (q d); discriminate.
    + intros z e I. apply in_map_iff in I. destruct I as (d & E & I). unfold fin in E. destruct (q d) eqn:Qd; [discriminate|]. injection E as <- <-. split; [now apply Q | now apply O].
    + apply refl_B. split; [assumption|]. intros y Fy Gy. destruct (in_dec id_dec y (map fst (filter q l))) as [I|I].
      * left. split; [|reflexivity]. apply in_map_iff in I. destruct I as (d & <- & I). apply filter_In in I. destruct I as (I & Qd). rewrite map_map. apply in_map_iff. exists d. split; [|assumption]. unfold fin. now rewrite Qd.
      * apply knows_old; rewrite ?A5; auto. apply apart_var. auto.
  - apply ok_app.
    + apply ok_lam. split; [assumption|]. intros y Fy Gy. rewrite FR in HS || idtac. destruct (in_dec id_dec y (map fst (filter q (rev l)))) as [I|I]; [now left | right]. split; [assumption|]. split; [apply HS; auto; now rewrite FR | now apply apart_var].
    + apply Forall_forall. intros a I. apply in_map_iff in I. destruct I as (d & <- & I). apply filter_In in I. destruct I as (I & _). apply in_rev in I. auto.
Qed.
End Let.

(** ** Runs *)
Variable tot : prim -> bool.
Hypothesis TOT : forall p, tot p = true -> forall w, run (P p) [] w <> None.
Variables hc hl : bool.
Notation careful := (careful tot hc hl).
Notation bsub := (beta_subst hc hl).
Definition MAIN n := forall f e s e' G, (f <= n)%nat -> careful f e s = true -> bsub f e s = Some e' -> ok G e -> sub_ok G s e -> chain G e e'.
Lemma steadyb_ok e : steadyb tot e = true -> steady P e /\ bs_ref_transparent e = true.
Proof.
  destruct e as [x| | |ef p l| |xs b| | |]; try discriminate; cbn [steadyb steady bs_ref_transparent]; auto.
  - intros H. split; [|assumption]. apply orb_true_iff in H. rewrite negb_true_iff in H. tauto.
  - destruct ef; try discriminate. destruct l; [|discriminate]. intros H. split; [now apply TOT | reflexivity].
Qed.
Lemma var_chain G s x t oh u e : In (x, (t, oh)) s -> (u = t \/ oh = Some u) -> free_in x e -> sub_ok G s e -> chain G (EVar x) u.
Proof.
  intros I U F S. destruct (S _ _ _ I) as (Gx & A & D). destruct U as [->| ->].
  - destruct A as [(A1 & A2 & A3)|(A1 & _)]; [|contradiction]. apply chain_one; [|assumption]. apply b_known; auto. apply A2.
  - destruct (D _ eq_refl) as (D1 & D2 & D3). apply chain_one; [|assumption]. apply b_known; auto. apply D2.
Qed.
Lemma head_chain n f s G e h : MAIN n -> (f <= n)%nat -> careful f e s = true \/ (exists x, e = EVar x) -> bs_head (fun a => bsub f a s) s e = Some h -> ok G e -> sub_ok G s e -> chain G e h.
Proof.
  intros IH L C E O S. destruct e; cbn [bs_head] in E; try (destruct C as [C|(? & ?)]; [eapply IH; eauto | discriminate]).
  destruct (assq x s) as [(t & [h0|])|] eqn:A; injection E as <-; try (apply assq_in in A; eapply var_chain; eauto; now apply free_var). constructor.
Qed.
Lemma list_chain n f s G l l' : MAIN n -> (f <= n)%nat -> (forall a, In a l -> careful f a s = true) -> mapo (fun a => bsub f a s) l = Some l' -> Forall (ok G) l -> (forall a, In a l -> sub_ok G s a) -> Forall2 (chain G) l l'.
Proof.
  intros IH L C E O S. apply mapo_spec in E. induction E as [|a b l l' Ea E IHl]; [constructor|]. inversion O; subst. constructor; [|apply IHl; auto; intros; [apply C | apply S]; now right].
  eapply IH; eauto; [apply C | apply S]; now left.
Qed.
Definition recomp (o : oper) (l : list exp) : exp := match o, l with OPrim ef p, _ => EPrim ef p l | OApp, f :: l => EApp f l | _, _ => EVar (mkid (-1) XNone) end.
Lemma recomp_decomp c o l : decomp c = Some (o, l) -> moves o -> c = recomp o l.
Proof. destruct c; try discriminate; cbn; intros [= <- <-] M; try contradiction; reflexivity. Qed.
Lemma decomp_recomp o l a b : moves o -> decomp (recomp o (l ++ a :: b)) = Some (o, l ++ a :: b).
Proof. destruct o; try contradiction; intros _; [reflexivity|]. destruct l; reflexivity. Qed.
Lemma ok_recomp G o l c l0 : decomp c = Some (o, l0) -> ok G c -> Forall (ok G) l -> ok G (recomp o l).
Proof.
  intros D O Ol. destruct c; try discriminate; cbn in D; injection D as <- <-; cbn [recomp]; try (apply ok_var; discriminate).
  - apply ok_prim; [|assumption]. eapply ok_prim_inv; eauto.
  - destruct l as [|a l2]; [apply ok_var; discriminate|]. inversion Ol; subst. now apply ok_app.
Qed.
Lemma B_recomp G o x y : Forall2 (B G) x y -> B G (recomp o x) (recomp o y).
Proof. intros F. assert (D : B G (EVar (mkid (-1) XNone)) (EVar (mkid (-1) XNone))) by now apply b_gvar. destruct o; cbn [recomp]; auto; [now apply b_prim|]. destruct F; [assumption | now apply b_app]. Qed.
Lemma decomp_ok G c o l : decomp c = Some (o, l) -> moves o -> ok G c -> Forall (ok G) l.
Proof. intros D M O. destruct c; try discriminate; cbn in D; injection D as <- <-; try contradiction; [eapply ok_prim_inv; eauto|]. apply ok_app_inv in O. constructor; apply O. Qed.
Lemma moved_chain n f x s G l : MAIN n -> (f <= n)%nat -> forall l', Forall2 (moved1 tot hc hl f x s) l l' -> Forall (ok G) l -> (forall a, In a l -> ~ free_in x a -> sub_ok G s a) ->
  Forall2 (chain G) l l'.
Proof.
  intros IH L l' F O S. induction F as [|a b l l' (N & C & E & _) F IHl]; [constructor|]. inversion O; subst. constructor; [|apply IHl; auto; intros; apply S; auto; now right].
  assert (Sa : sub_ok G s a) by (apply S; [now left | assumption]). destruct E as [E|E]; [eapply IH; eauto | eapply head_chain; eauto].
Qed.
Lemma main n : MAIN n.
Proof.
  induction n as [|n IH]; intros f e s e' G L C E O S; (destruct f as [|f]; [discriminate|]); [lia|]. assert (Lf : (f <= n)%nat) by lia.
  cbn [Spec_Beta.careful] in C. cbn [beta_subst] in E. assert (FR := bs_free tot hc hl n).
  assert (Sub : forall a a', careful f a s = true -> bsub f a s = Some a' -> In ([], a) (parts e) -> chain G a a').
  { intros a a' Ca Ea I. apply (IH f a s); auto; [eapply ok_part0; eauto|]. apply sub_part with e; [|assumption]. intros x F. eapply free_part; eauto. }
  assert (SubU : forall ys a a', clear_all ys s = true -> careful f a s = true -> bsub f a s = Some a' -> In (ys, a) (parts e) -> chain (under ys G) a a').
  { intros ys a a' Cy Ca Ea I. apply (IH f a s); auto; [eapply ok_part; eauto|]. apply sub_under with e; auto. intros x N F. eapply free_part; eauto. }
  destruct e as [x|x e|a b c|ef p l|rator rands|xs b|xs lams b|x b|k e].
  - destruct (assq x s) as [(t & oh)|] eqn:A; injection E as <-; [|constructor]. apply assq_in in A. eapply var_chain; eauto. now apply free_var.
  - destruct (global_id x) eqn:Gx; [|discriminate]. destruct (bsub f e s) as [e1|] eqn:E1; [|discriminate]. injection E as <-. destruct (fine_node P _ (proj1 O)) as (_ & NC).
    apply (chain_ctx G G (ESet x)); [intros; now apply b_set | intros; now apply ok_set | eapply ok_part0; [|exact O]; now left | apply Sub; auto; now left].
  - rewrite !andb_true_iff in C. destruct C as ((Ca & Cb) & Cc). destruct (bsub f a s) as [a'|] eqn:Ea; [|discriminate]. destruct (bsub f b s) as [b'|] eqn:Eb; [|discriminate]. destruct (bsub f c s) as [c'|] eqn:Ec; [|discriminate]. injection E as <-.
    assert (Oa : ok G a) by (eapply ok_part0; [|exact O]; cbn; auto). assert (Ob : ok G b) by (eapply ok_part0; [|exact O]; cbn; auto). assert (Oc : ok G c) by (eapply ok_part0; [|exact O]; cbn; auto).
    assert (Ha := Sub _ _ Ca Ea (or_introl eq_refl)). assert (Hb := Sub _ _ Cb Eb (or_intror (or_introl eq_refl))). assert (Hc := Sub _ _ Cc Ec (or_intror (or_intror (or_introl eq_refl)))).
    assert (Oa' := chain_ok _ _ _ Ha Oa). assert (Ob' := chain_ok _ _ _ Hb Ob).
    apply chain_trans with (EIf a' b c); [apply (chain_ctx G G (fun z => EIf z b c)); auto; [intros; apply b_if; auto; now apply refl_B | intros; now apply ok_if]|].
    apply chain_trans with (EIf a' b' c); [apply (chain_ctx G G (fun z => EIf a' z c)); auto; [intros; apply b_if; auto; now apply refl_B | intros; now apply ok_if]|].
    apply (chain_ctx G G (fun z => EIf a' b' z)); auto; [intros; apply b_if; auto; now apply refl_B | intros; now apply ok_if].
  - rewrite forallb_forall in C. destruct (mapo (fun e => bsub f e s) l) as [l'|] eqn:M; [|discriminate]. injection E as <-. destruct (ok_prim_inv _ _ _ _ O) as (N & Ol).
    apply (chain_list G (EPrim ef p)); [|intros; now apply b_prim | intros; now apply ok_prim | assumption]. apply (list_chain n f s); auto.
    intros a I. apply sub_part with (EPrim ef p l); [|assumption]. intros x F. apply free_prim. eauto.
  - destruct (ok_app_inv _ _ _ O) as (Of & Ol). assert (Sl : forall a, In a rands -> sub_ok G s a) by (intros a I; apply sub_part with (EApp rator rands); [|assumption]; intros x F; apply free_app; eauto).
    assert (Sf : sub_ok G s rator) by (apply sub_part with (EApp rator rands); [|assumption]; intros x F; apply free_app; auto).
    destruct (degenerate_let (EApp rator rands)) as [b|] eqn:D.
    + apply andb_true_iff in C. destruct C as (Pr & C). destruct (degenerate_inv _ _ D) as [X|(x & X)]; injection X as -> ->.
      * apply ok_lam_inv in Of. assert (Ob : ok G b) by (destruct Of as (F1 & S1); split; [assumption|]; intros y Fy Gy; destruct (S1 y Fy Gy) as [([] & _)|(_ & H & _)]; assumption).
        apply chain_trans with b; [apply chain_one; [apply b_null; now apply refl_B | assumption]|]. apply (IH f b s); auto. apply sub_part with (ELam [] b); [|assumption]. intros x F. apply free_lam. auto.
      * inversion Ol; subst. apply chain_trans with b; [apply chain_one; [apply b_ident; [apply (proper_spec _ Pr); now left | now apply refl_B] | assumption]|]. apply (IH f b s); auto. apply Sl. now left.
    + destruct (let_view (EApp rator rands)) as [((ids & rands1) & body)|] eqn:V.
      * destruct (let_view_inv _ _ _ _ V) as (X & LL). injection X as -> ->. rewrite !andb_true_iff, forallb_forall in C. destruct C as (((C1 & C2) & C3) & C4).
        destruct (mapo (fun e => bsub f e s) rands1) as [rands'|] eqn:M; [|discriminate]. rewrite bs_loop_spec in C4, E. rewrite ?app_nil_r in C4, E.
        set (l := combine ids rands') in *. set (s' := rev (flat_map (entry hc hl body) l) ++ s) in *.
        assert (LL2 : length ids = length rands') by (rewrite LL; eapply Forall2_length'; apply mapo_spec; exact M).
        destruct (proper_spec _ C2) as (ND & Lo). destruct (clear_all_spec _ _ C3) as (Cl1 & Cl2).
        assert (AS : forall x rand, In (x, rand) l -> bs_choose hc hl x rand body = CSubst -> assq x s' = Some (rand, None)).
        { intros x rand I Ch. apply assq_front; [|apply in_rev; rewrite rev_involutive; now apply in_entry]. intros d K. apply in_rev in K. apply entry_in in K. destruct K as (e2 & K & Q).
          assert (e2 = rand) by (eapply combine_uniq; eauto). subst. destruct Q as [(_ & ->)|(Q & _)]; [reflexivity | congruence]. }
        assert (Fst : map fst l = ids) by (unfold l; clear -LL2; revert rands' LL2; induction ids; intros [|]; cbn; intros; try easy; f_equal; auto).
        assert (Snd : map snd l = rands') by (unfold l; clear -LL2; revert rands' LL2; induction ids; intros [|]; cbn; intros; try easy; f_equal; auto).
        assert (CH1 : Forall2 (chain G) rands1 rands') by (apply (list_chain n f s); auto).
        assert (Ol' : Forall (ok G) rands') by (clear -CH1 Ol; induction CH1; constructor; inversion Ol; subst; auto; eapply chain_ok; eauto).
        assert (Od : forall d, In d l -> ok G (snd d)) by (intros d I; rewrite Forall_forall in Ol'; apply Ol'; rewrite <- Snd; now apply in_map).
        apply chain_trans with (EApp (ELam (map fst l) body) (map snd l)).
        { rewrite Fst, Snd. apply (chain_list G (EApp (ELam ids body))); auto; [intros; apply b_app; auto; now apply refl_B | intros; now apply ok_app]. }
        assert (OL : ok G (EApp (ELam (map fst l) body) (map snd l))) by (rewrite Fst, Snd; now apply ok_app).
        assert (OB0 := ok_body hc hl body G l body OL). rewrite <- Fst in ND. fold (body_ok tot hc hl f ids body rands' s' (map fst (rev (filter (keptb hc hl body) l)))) in C4.
        (* what is put in the place of the variables *)
        assert (NR : forall x, ~ free_in x (EApp (ELam ids body) rands1) -> ~ inran x s -> global_id x = false -> ~ In x ids -> ~ inran x s').
        { intros x N1 N2 Gx Nx (z & t & oh & I & F). apply in_app_iff in I. destruct I as [I|I]; [|apply N2; exists z, t, oh; auto]. apply in_rev in I. apply entry_in in I. destruct I as (r0 & I & Q).
          assert (R : ~ free_in x r0). { intros Fr. assert (J := in_combine_r _ _ _ _ I). destruct (list_free tot hc hl n FR f rands1 s rands' x r0 Lf C1 M Gx J Fr) as (b & Ib & [(Fb & _)|St]); [|contradiction]. apply N1. apply free_app. eauto. }
          destruct Q as [(_ & [= -> ->])|(_ & [= -> ->])].
          - destruct F as [F|(h & ? & _)]; [contradiction | discriminate].
          - destruct F as [F|(h & [= <-] & F)]; [|contradiction]. apply free_var in F. subst z. apply in_combine_l in I. contradiction. }
        assert (Safe : forall d, In d l -> safe_op hc hl ids body d = true -> bs_choose hc hl (fst d) (snd d) body = CSubst \/ bs_choose hc hl (fst d) (snd d) body = CPartial -> bs_ref_transparent (snd d) = true /\ clear ids (snd d) = true).
        { intros d I Sd Q. unfold safe_op in Sd. destruct Q as [Q|Q]; rewrite Q in Sd; now apply andb_true_iff in Sd. }
        assert (NRI : (forall d, In d l -> bs_choose hc hl (fst d) (snd d) body = CSubst \/ bs_choose hc hl (fst d) (snd d) body = CPartial -> clear ids (snd d) = true) -> forall x, In x ids -> inran x s' -> In x (map fst (filter (keptb hc hl body) l))).
        { intros HC x Ix (z & t & oh & I & F). apply in_app_iff in I. destruct I as [I|I]; [|exfalso; apply (Cl2 x); [exists z, t, oh; auto | assumption]]. apply in_rev in I. apply entry_in in I. destruct I as (r0 & I & Q).
          assert (Hr : free_in x r0 -> bs_choose hc hl z r0 body = CSubst \/ bs_choose hc hl z r0 body = CPartial -> False) by (intros Fr Q0; apply (clear_spec _ _ (HC (z, r0) I Q0) x Fr Ix)).
          destruct Q as [(Q & [= -> ->])|(Q & [= -> ->])].
          - destruct F as [F|(h & ? & _)]; [|discriminate]. exfalso. apply Hr; auto.
          - destruct F as [F|(h & [= <-] & F)]; [|exfalso; apply Hr; auto]. apply free_var in F. subst z. apply in_map_iff. exists (x, r0). split; [reflexivity|]. apply filter_In. split; [assumption|]. unfold keptb. cbn [fst snd]. now rewrite Q. }
        assert (Kept : (forall d, In d l -> bs_choose hc hl (fst d) (snd d) body = CSubst \/ bs_choose hc hl (fst d) (snd d) body = CPartial -> clear ids (snd d) = true) -> forall x, In x ids -> stays x body s' -> In x (map fst (filter (keptb hc hl body) l))).
        { intros HC x Ix [(Fx & N)|Rx]; [|auto]. destruct (combine_has _ _ _ LL2 Ix) as (r0 & J). apply in_map_iff. exists (x, r0). split; [reflexivity|]. apply filter_In. split; [assumption|]. unfold keptb. cbn [fst snd].
          destruct (bs_choose hc hl x r0 body) eqn:Q; try reflexivity; exfalso.
          - unfold bs_choose in Q. destruct (Nat.eqb_spec (var_reference_count x body) 0) as [Z|Z].
            + apply referenced_free in Fx. unfold var_referenced_in_exp, var_reference_count in *. destruct (var_uses_in_exp x body); [discriminate | cbn in Z; lia].
            + destruct (Nat.eqb _ 1); [destruct (_ || _); discriminate|]. destruct (_ && _); [discriminate|]. destruct (if hl then _ else _); [destruct (var_only_applied_in_exp _ _); discriminate|]. destruct (bs_zero_cost _); discriminate.
          - apply (N r0). now apply AS. }
        (* the substitutions are right in the body *)
        assert (SB0 : forall a bad, (forall x, free_in x a -> free_in x body) ->
                  (forall x r0, In (x, r0) l -> ~ In x bad -> safe_op hc hl ids body (x, r0) = true) ->
                  (forall x r0, In (x, r0) l -> In x bad -> bs_choose hc hl x r0 body = CSubst /\ ~ free_in x a /\ ~ inran x s') -> sub_ok (after hc hl body G l) s' a).
        { intros a bad Fa Hs Hb x t oh I. apply in_app_iff in I. destruct I as [I|I].
          - apply in_rev in I. apply entry_in in I. destruct I as (r0 & I & Q). assert (Ix := in_combine_l _ _ _ _ I). assert (Gx := Lo _ Ix). split; [assumption|].
            assert (Own : after hc hl body G l x (EVar x)) by (apply after_own; now rewrite Fst).
            destruct (in_dec id_dec x bad) as [Jb|Jb].
            + destruct (Hb _ _ I Jb) as (Q2 & N1 & N2). destruct Q as [(_ & [= -> ->])|(Q & _)]; [|congruence]. split; [right; auto | discriminate].
            + destruct (Safe _ I (Hs _ _ I Jb)) as (R & Cr); [cbn [fst snd]; tauto|]. cbn [snd] in R, Cr. assert (Ap : apart r0 (map fst l)) by (rewrite Fst; exact (clear_spec _ _ Cr)).
              assert (Or : ok (after hc hl body G l) r0) by (apply ok_after; [assumption | apply (Od _ I)]).
              assert (New : after hc hl body G l x r0) by (apply (after_new hc hl body G l (x, r0)); auto; cbn [fst snd]; tauto).
              destruct Q as [(Q & [= -> ->])|(Q & [= -> ->])].
              * split; [left; auto | discriminate].
              * split; [left; split; [cbn [bs_ref_transparent]; now rewrite Gx|]; split; [apply ok_var; auto | assumption] | intros h [= <-]; auto].
          - destruct (S _ _ _ I) as (Gx & A & D0). split; [assumption|]. assert (Nx := Cl1 _ _ I).
            assert (Ap : forall u, u = t \/ oh = Some u -> apart u (map fst l)) by (intros u Hu z Fz; rewrite Fst; apply Cl2; exists x, t, oh; split; [assumption|]; destruct Hu as [->| ->]; eauto).
            split.
            + destruct A as [(A1 & A2 & A3)|(A1 & A2)]; [left | right].
              * split; [assumption|]. split; [apply ok_after; auto | apply after_old; auto; now rewrite Fst].
              * split; [intros Fx; apply A1; apply free_app; left; apply free_lam; auto | apply NR; auto].
            + intros h ->. destruct (D0 _ eq_refl) as (D1 & D2 & D3). split; [assumption|]. split; [apply ok_after; auto | apply after_old; auto; now rewrite Fst]. }
        (* dead bindings *)
        assert (QU : forall d, In d l -> safe_op hc hl ids body d = true -> keptb hc hl body d = false -> quiet (snd d) = true).
        { intros d I Sd K. unfold safe_op in Sd. unfold keptb in K. destruct (bs_choose hc hl (fst d) (snd d) body); try discriminate; [assumption|]. apply andb_true_iff in Sd. apply (rt_quiet (esize (snd d))); [lia | apply Sd]. }
        assert (BODY : exists b', bsub f body s' = Some b').
        { destruct (map fst (rev (filter (keptb hc hl body) l))); [eauto|]. destruct (bsub f body s'); [eauto | discriminate]. }
        destruct BODY as (b' & Eb).
        destruct (body_cases tot hc hl f ids body rands' s' _ b' C4 Eb AS) as [(Fl & Cb)|(x & rand & f' & Fl & -> & Ch & ON & Cr & NT & Mv)].
        -- assert (AllS : forall d, In d l -> safe_op hc hl ids body d = true).
           { intros d I. destruct (safe_op hc hl ids body d) eqn:Sd; [reflexivity|]. assert (J : In d (filter (fun d => negb (safe_op hc hl ids body d)) l)) by (apply filter_In; rewrite Sd; auto). unfold l in J. rewrite Fl in J. destruct J. }
           assert (HC : forall d, In d l -> bs_choose hc hl (fst d) (snd d) body = CSubst \/ bs_choose hc hl (fst d) (snd d) body = CPartial -> clear ids (snd d) = true) by (intros d I Q; apply (Safe d I (AllS d I) Q)).
           assert (CHB : chain (after hc hl body G l) body b').
           { apply (IH f body s'); auto. apply (SB0 body []); auto. intros ? ? ? []. }
           assert (OB' := chain_ok _ _ _ CHB OB0). apply chain_trans with (EApp (ELam (map fst l) b') (map snd l)); [now apply (let_ctx hc hl body)|].
           eapply chain_trans; [apply (drop_step hc hl body (keptb hc hl body)); auto|].
           { intros y Fy Gy Iy. apply Kept; auto; [now rewrite <- Fst|]. apply (FR f body s' b' y); auto. }
           assert (RV : filter (keptb hc hl body) (rev l) = rev (filter (keptb hc hl body) l)) by apply filter_rev. rewrite RV.
           destruct (map fst (rev (filter (keptb hc hl body) l))) as [|o os] eqn:Os.
           ++ assert (Z : filter (keptb hc hl body) l = []) by (rewrite map_rev in Os; apply (f_equal (@rev id)) in Os; rewrite rev_involutive in Os; now apply map_eq_nil in Os).
              rewrite Z. cbn [rev map]. assert (b' = e') by congruence. subst e'.
              assert (Ob' : ok G b'). { split; [apply OB'|]. intros y Fy Gy. eapply after_out; [apply OB'; assumption|]. intros I. rewrite Fst in I. apply (Kept HC) in I; [rewrite Z in I; destruct I|]. apply (FR f body s' b' y); auto. }
              apply chain_one; [apply b_null; now apply refl_B | assumption].
           ++ rewrite Eb in E. injection E as <-. unfold let_exp. rewrite ?app_nil_r. apply ch_nil.
        -- destruct (map fst (rev (filter (keptb hc hl body) l))) as [|o os] eqn:Os; [|discriminate].
           assert (Z : filter (keptb hc hl body) l = []) by (rewrite map_rev in Os; apply (f_equal (@rev id)) in Os; rewrite rev_involutive in Os; now apply map_eq_nil in Os).
           assert (b' = e') by congruence. subst e'. clear E. fold l in Fl.
           assert (Ix : In (x, rand) l) by (apply (filter_In (fun d => negb (safe_op hc hl ids body d))); rewrite Fl; now left). assert (Ixi := in_combine_l _ _ _ _ Ix). assert (Gx := Lo _ Ixi).
           assert (AllS : forall d, In d l -> d = (x, rand) \/ safe_op hc hl ids body d = true).
           { intros d I. destruct (safe_op hc hl ids body d) eqn:Sd; [now right|]. left. assert (J : In d (filter (fun d => negb (safe_op hc hl ids body d)) l)) by (apply filter_In; rewrite Sd; auto). rewrite Fl in J. destruct J as [J|[]]. now symmetry. }
           assert (HC : forall d, In d l -> bs_choose hc hl (fst d) (snd d) body = CSubst \/ bs_choose hc hl (fst d) (snd d) body = CPartial -> clear ids (snd d) = true).
           { intros d I Q. destruct (AllS d I) as [->|Sd]; [assumption | apply (Safe d I Sd Q)]. }
           assert (NK : forall y, In y ids -> stays y body s' -> False) by (intros y Iy St; apply (Kept HC y Iy) in St; rewrite Z in St; destruct St).
           assert (NRx : ~ inran x s') by (intros Rx; apply (NK x Ixi); now right).
           destruct Mv as [o l1 l2 l1' l2' D1 D2 F1 F2 Mo]. assert (Mo' : moves o) by (destruct o; try contradiction; exact Logic.I).
           assert (Obs := decomp_ok _ _ _ _ D1 Mo' OB0). apply Forall_app in Obs. destruct Obs as (O1 & O2). assert (Ovx := Forall_inv O2). assert (O2' := Forall_inv_tail O2).
           assert (Fops : forall a y, In a (l1 ++ l2) -> free_in y a -> free_in y body).
           { intros a y I F. apply (decomp_free _ _ _ y D1 Mo). exists a. split; [|assumption]. apply in_app_iff in I. apply in_app_iff. destruct I; [now left | right; now right]. }
           assert (SBa : forall a, In a (l1 ++ l2) -> ~ free_in x a -> sub_ok (after hc hl body G l) s' a).
           { intros a I N. apply (SB0 a [x]); auto; [intros y F; eapply Fops; eauto| |].
             - intros y r0 J NJ. destruct (AllS _ J) as [[= -> _]|]; [|assumption]. exfalso. apply NJ. now left.
             - intros y r0 J [<-|[]]. assert (r0 = rand) by (eapply combine_uniq; [|exact J | exact Ix]; now rewrite Fst in ND). subst r0. auto. }
           assert (Lf' : (f' <= n)%nat) by lia.
           assert (CH2 : Forall2 (chain (after hc hl body G l)) l1 l1') by (apply (moved_chain n f' x s' _ l1 IH Lf' l1' F1 O1); intros a I; apply SBa; apply in_app_iff; auto).
           assert (CH3 : Forall2 (chain (after hc hl body G l)) l2 l2') by (apply (moved_chain n f' x s' _ l2 IH Lf' l2' F2 O2'); intros a I; apply SBa; apply in_app_iff; auto).
           set (c1 := recomp o (l1' ++ EVar x :: l2')).
           assert (CHB : chain (after hc hl body G l) body c1).
           { rewrite (recomp_decomp _ _ _ D1 Mo') at 2. apply chain_list; [apply Forall2_app; [assumption|]; constructor; [constructor | assumption] | intros; now apply B_recomp | intros y Hy; apply (ok_recomp _ o y body _ D1 OB0 Hy) |].
             apply Forall_app. split; [assumption|]. now constructor. }
           assert (Dc1 : decomp c1 = Some (o, l1' ++ EVar x :: l2')) by now apply decomp_recomp.
           assert (OB' := chain_ok _ _ _ CHB OB0). assert (Obs' := decomp_ok _ _ _ _ Dc1 Mo' OB'). 
           assert (St : forall a, In a (l1' ++ l2') -> exists a0, In a0 (l1 ++ l2) /\ moved1 tot hc hl f' x s' a0 a).
           { intros a I. apply in_app_iff in I. destruct I as [I|I]; [destruct (Forall2_in_r _ _ _ F1 _ I) as (a0 & J & K) | destruct (Forall2_in_r _ _ _ F2 _ I) as (a0 & J & K)]; exists a0; (split; [apply in_app_iff; auto | assumption]). }
           assert (FrA : forall a y, In a (l1' ++ l2') -> free_in y a -> global_id y = false -> exists a0, In a0 (l1 ++ l2) /\ ~ free_in x a0 /\ stays y a0 s').
           { intros a y I F Gy. destruct (St a I) as (a0 & J & N & Ca & Ea & _). exists a0. split; [assumption|]. split; [assumption|]. destruct Ea as [Ea|Ea]; [apply (FR f' a0 s' a y); auto|].
             eapply head_free; [|exact Ea | exact F]. intros h Eh Fh. apply (FR f' a0 s' h y); auto. }
           assert (FrA2 : forall a y, In a (l1' ++ l2') -> free_in y a -> global_id y = false -> ~ In y ids).
           { intros a y I F Gy Iy. destruct (FrA a y I F Gy) as (a0 & J & N & St0). apply (NK y Iy). eapply stays_sub; [|exact St0]. intros. eapply Fops; eauto. }
           apply chain_trans with (EApp (ELam (map fst l) c1) (map snd l)); [now apply (let_ctx hc hl body)|].
           eapply chain_trans; [apply (drop_step hc hl body (fun d => negb (safe_op hc hl ids body d))); auto|].
           { intros d I Q. apply negb_false_iff in Q. apply QU; auto. destruct (keptb hc hl body d) eqn:K; [|reflexivity]. assert (J : In d (filter (keptb hc hl body) l)) by (apply filter_In; auto). rewrite Z in J. destruct J. }
           { intros y Fy Gy Iy. rewrite Fl. apply (decomp_free _ _ _ y Dc1 Mo) in Fy. destruct Fy as (a & I & Fa). apply in_app_iff in I. rewrite Fst in Iy. destruct I as [I|[<-|I]].
             - exfalso. apply (FrA2 a y); auto. apply in_app_iff. auto.
             - apply free_var in Fa. subst y. now left.
             - exfalso. apply (FrA2 a y); auto. apply in_app_iff. auto. }
           rewrite filter_rev, Fl. cbn [rev app map fst snd].
           assert (Orand : ok G rand) by (apply (Od _ Ix)).
           assert (Oa : forall a, In a (l1' ++ l2') -> ok G a).
           { intros a I. rewrite Forall_forall in Obs'. assert (Oa : ok (after hc hl body G l) a) by (apply Obs'; apply in_app_iff in I; apply in_app_iff; destruct I; [now left | right; now right]).
             split; [apply Oa|]. intros y Fy Gy. eapply after_out; [apply Oa; assumption|]. rewrite Fst. eapply FrA2; eauto. }
           assert (Dc := recomp_decomp _ _ _ D2 Mo').
           assert (Ob' : ok G b').
           { rewrite Dc. assert (OR : ok (fun _ _ => True) (recomp o [])). { apply (ok_recomp _ o [] body _ D1); [|constructor]. split; [apply OB0 | intros y _ _; exact Logic.I]. }
             assert (Oall : Forall (ok G) (l1' ++ rand :: l2')) by (apply Forall_app; split; [|constructor; [assumption|]]; apply Forall_forall; intros a I; apply Oa; apply in_app_iff; auto).
             destruct o; try contradiction; cbn [recomp] in *; [apply ok_prim; [exact (fine_node P _ (proj1 OR)) | assumption]|]. destruct l1'; cbn [app] in *; assert (X1 := Forall_inv Oall); assert (X2 := Forall_inv_tail Oall); now apply ok_app. }
           apply chain_one; [|assumption]. apply b_move with rand o l1' l2'; auto; [now apply refl_B|].
           intros a I. destruct (St a I) as (a0 & J & N & _ & _ & Sd). destruct (steadyb_ok _ Sd) as (Sd1 & Sd2). split; [assumption|]. split; [split; [assumption | apply Oa; assumption]|].
           intros Fx. apply (FrA2 a x I Fx Gx Ixi).
      * rewrite !andb_true_iff, forallb_forall in C. destruct C as ((C1 & C2) & C3). destruct (bs_head (fun e => bsub f e s) s rator) as [h|] eqn:H; [|discriminate]. destruct (mapo (fun e => bsub f e s) rands) as [l'|] eqn:M; [|discriminate].
        assert (CHl : Forall2 (chain G) rands l') by (apply (list_chain n f s); auto).
        assert (CHh : chain G rator h) by (apply (head_chain n f s G rator h); auto; destruct rator; eauto).
        assert (Oh := chain_ok _ _ _ CHh Of).
        assert (CH1 : chain G (EApp rator rands) (EApp h l')).
        { apply chain_trans with (EApp h rands).
          - apply (chain_ctx G G (fun z => EApp z rands)); auto; [intros; apply b_app; auto; now apply refl_Bs | intros; now apply ok_app].
          - apply (chain_list G (EApp h)); auto; [intros; apply b_app; auto; now apply refl_B | intros; now apply ok_app]. }
        destruct (let_view (EApp h l')) as [v|]; [|injection E as <-; assumption].
        apply chain_trans with (EApp h l'); [assumption|]. apply (IH f (EApp h l') s); auto; [eapply chain_ok; eauto|].
        assert (Fr : forall y, global_id y = false -> free_in y (EApp h l') -> stays y (EApp rator rands) s).
        { intros y Gy Fh. apply free_app in Fh. destruct Fh as [Fh|(a & I & Fa)].
          - eapply stays_sub; [|eapply head_free; [|exact H | exact Fh]]; [intros; apply free_app; auto|]. intros h0 E0 F0. destruct rator; try (eapply (FR f); eauto; fail).
            destruct f; [discriminate|]. apply (FR (Datatypes.S f) (EVar x) s h0 y); auto.
          - destruct (list_free tot hc hl n FR f rands s l' y a Lf C2 M Gy I Fa) as (b & J & S0). eapply stays_sub; [|exact S0]. intros. apply free_app. eauto. }
        intros x t oh I. destruct (S _ _ _ I) as (Gx & A & D0). split; [assumption|]. split; [|assumption]. destruct A as [A|(A1 & A2)]; [now left | right]. split; [|assumption]. intros Fx. destruct (Fr x Gx Fx) as [(F0 & _)|]; contradiction.
  - rewrite andb_true_iff in C. destruct C as (Cl & C). destruct (bsub f b s) as [b'|] eqn:Eb; [|discriminate]. injection E as <-.
    apply (chain_ctx G (under xs G) (ELam xs)); [intros; now apply b_lam | intros; now apply ok_lam | now apply ok_lam_inv | apply SubU; auto; now left].
  - rewrite !andb_true_iff, forallb_forall in C. destruct C as ((Cl & Cb) & Cls). destruct (mapo _ lams) as [lams'|] eqn:M; [|discriminate]. destruct (bsub f b s) as [b'|] eqn:Eb; [|discriminate]. injection E as <-.
    destruct (ok_fix_inv _ _ _ _ O) as (Ob & Ols).
    assert (CHb : chain (under xs G) b b') by (apply SubU; auto; now left).
    assert (CHl : Forall2 (fun l l' => fst l' = fst l /\ chain (under (fst l) (under xs G)) (snd l) (snd l')) lams lams').
    { apply mapo_spec in M. assert (H : forall l, In l lams -> forall l', option_map (pair (fst l)) (bsub f (snd l) s) = Some l' -> fst l' = fst l /\ chain (under (fst l) (under xs G)) (snd l) (snd l')).
      { intros l I l' El. destruct (bsub f (snd l) s) as [a'|] eqn:Ea; [|discriminate]. injection El as <-. cbn [fst snd]. split; [reflexivity|]. specialize (Cls _ I). apply andb_true_iff in Cls.
        apply (IH f (snd l) s); auto; try apply Cls; [rewrite Forall_forall in Ols; now apply Ols|]. apply sub_under with (ELam (fst l) (snd l)); [apply Cls | intros x N F; now apply free_lam|].
        apply sub_under with (EFix xs lams b); auto. intros x N F. apply free_lam in F. apply free_fix. split; [assumption|]. right. eauto. }
      clear -M H. induction M; constructor; [apply H; auto; now left | apply IHM; intros; apply H; auto; now right]. }
    apply chain_trans with (EFix xs lams' b); [apply (chain_fix G xs b lams lams' []); auto|].
    assert (Ols' : Forall (fun l => ok (under (fst l) (under xs G)) (snd l)) lams').
    { clear -CHl Ols. induction CHl as [|l l' ls ls' (E & Ch) F IHF]; constructor; inversion Ols; subst; auto. rewrite E. eapply chain_ok; eauto. }
    apply (chain_ctx G (under xs G) (EFix xs lams')); auto; [|intros; now apply ok_fix]. intros u v H _ _. apply b_fix; [|assumption]. clear -Ols'. induction Ols'; constructor; auto. split; [reflexivity | now apply refl_B].
  - rewrite andb_true_iff in C. destruct C as (Cl & C). destruct (bsub f b s) as [b'|] eqn:Eb; [|discriminate]. injection E as <-.
    apply (chain_ctx G (under [x] G) (ELetcc x)); [intros; now apply b_letcc | intros; now apply ok_letcc | eapply ok_part; [|exact O]; now left | apply SubU; auto; now left].
  - rewrite !andb_true_iff in C. destruct C as (Ca & Cb). destruct (bsub f k s) as [a'|] eqn:Ea; [|discriminate]. destruct (bsub f e s) as [b'|] eqn:Eb; [|discriminate]. injection E as <-.
    assert (Oa : ok G k) by (eapply ok_part0; [|exact O]; cbn; auto). assert (Ob : ok G e) by (eapply ok_part0; [|exact O]; cbn; auto).
    assert (Ha := Sub _ _ Ca Ea (or_introl eq_refl)). assert (Hb := Sub _ _ Cb Eb (or_intror (or_introl eq_refl))). assert (Oa' := chain_ok _ _ _ Ha Oa).
    apply chain_trans with (EWithcc a' e); [apply (chain_ctx G G (fun z => EWithcc z e)); auto; [intros; apply b_with; auto; now apply refl_B | intros; now apply ok_with]|].
    apply (chain_ctx G G (fun z => EWithcc a' z)); auto; [intros; apply b_with; auto; now apply refl_B | intros; now apply ok_with].
Qed.
End Chain.
