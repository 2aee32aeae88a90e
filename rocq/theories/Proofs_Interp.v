(** Correctness of the interpreter's compiler: compiled code and the meaning of expressions in step. *)
From Coq Require Import ZArith NArith String List Bool Lia.
From Verif Require Import Model_Interp Spec_Interp.
Import ListNotations.

Definition prefix {A} (l l' : list A) : Prop := exists t, l' = l ++ t.
Lemma prefix_refl {A} (l : list A) : prefix l l. Proof. exists []. now rewrite app_nil_r. Qed.
Lemma prefix_trans {A} (a b c : list A) : prefix a b -> prefix b c -> prefix a c.
Proof. intros (t & ->) (u & ->). exists (t ++ u). now rewrite app_assoc. Qed.
Lemma prefix_nth {A} (l l' : list A) i x : prefix l l' -> nth_error l i = Some x -> nth_error l' i = Some x.
Proof. intros (t & ->) H. rewrite nth_error_app1; [exact H|]. apply nth_error_Some. congruence. Qed.
Lemma prefix_app {A} (l t : list A) : prefix l (l ++ t). Proof. now exists t. Qed.

(** ** Code of expressions *)
Definition code_glo (i : nat) (args : list code) : code :=
  match args with
  | [] => CGloComb0 i | [a] => CGloComb1 i a | [a; b] => CGloComb2 i a b | [a; b; c] => CGloComb3 i a b c
  | [a; b; c; d] => CGloComb4 i a b c d | _ => CGloCombN (List.length args) i args end.
Inductive comps (G : list sym) : list (list sym) -> aexp -> code -> Prop :=
| cp_loc cte x up over : lookup cte x = Some (up, over) -> comps G cte (AVar x) (CRef (gen_rte_ref up over))
| cp_glo cte x i : lookup cte x = None -> nth_error G i = Some x -> comps G cte (AVar x) (CGlo i)
| cp_only cte x c : comps G cte (AVar x) c -> comps G cte (AOnly x) c
| cp_const cte d : comps G cte (AConst d) (CCst d)
| cp_set cte x e c up over : lookup cte x = Some (up, over) -> comps G cte e c -> comps G cte (ASet x e) (gen_rte_set up over c)
| cp_gset cte x e c i : lookup cte x = None -> nth_error G i = Some x -> comps G cte e c -> comps G cte (ASet x e) (CGloSet i c)
| cp_lam cte ps (r : bool) b c : (r = true -> ps <> []) -> comps G (cons_cte ps cte) b c ->
  comps G cte (ALam ps r b) ((if r then gen_lambda_rest else gen_lambda) (List.length ps) c)
| cp_if cte a b c ca cb cc : comps G cte a ca -> comps G cte b cb -> comps G cte c cc -> comps G cte (AIf a b c) (CIf ca cb cc)
| cp_when cte a b ca cb : comps G cte a ca -> comps G cte b cb -> comps G cte (AWhen a b) (CWhen ca cb)
| cp_seq cte a b ca cb : comps G cte a ca -> comps G cte b cb -> comps G cte (ASeq a b) (CSeq ca cb)
| cp_letrec cte xs es b cs c : List.length xs = List.length es -> Forall2 (comps G (cons_cte xs cte)) es cs -> comps G (cons_cte xs cte) b c ->
  comps G cte (ALetrec xs es b) (gen_letrec cs c)
| cp_gapp cte x args i cs : lookup cte x = None -> nth_error G i = Some x -> Forall2 (comps G cte) args cs -> comps G cte (AApp (AVar x) args) (code_glo i cs)
| cp_app cte f args c cs : (forall x, f = AVar x -> lookup cte x <> None) -> comps G cte f c -> Forall2 (comps G cte) args cs ->
  comps G cte (AApp f args) (gen_combination c cs).

(** *** The loops of the compiler *)
Definition map_comp (cte : list (list sym)) := fix map_comp (l : datum) (vs : vstore) {struct l} : cres (list code * vstore) :=
  match l with
  | DNil => COk ([], vs)
  | DPair a l' => cbind (comp cte a vs) (fun '(c, vs) => cbind (map_comp l' vs) (fun '(cs, vs) => COk (c :: cs, vs)))
  | _ => CUndef
  end.
Definition vals_comp (cte' : list (list sym)) := fix vals (b : datum) (vs : vstore) {struct b} : cres (list code * vstore) :=
  match b with
  | DPair (DPair _ (DPair e _)) b' => cbind (comp cte' e vs) (fun '(c, vs) => cbind (vals b' vs) (fun '(cs, vs) => COk (c :: cs, vs)))
  | DPair _ _ => CUndef
  | _ => COk ([], vs)
  end.
Definition loop_comp (cte : list (list sym)) := fix loop (l : datum) (vs : vstore) {struct l} : cres (code * vstore) :=
  match l with
  | DPair e l' =>
    cbind (comp cte e vs) (fun '(c, vs) =>
    match l' with DNil => COk (c, vs) | _ => cbind (loop l' vs) (fun '(c', vs) => COk (CSeq c c', vs)) end)
  | _ => CUndef
  end.

Definition gnames (vs : vstore) : list sym := map fst (rev vs).
(** the store only gets new entries that hold their own names *)
Definition grown (vs vs' : vstore) : Prop := (exists l, vs' = l ++ vs /\ Forall (fun e => snd e = VSym (fst e)) l) /\ (NoDup (gnames vs) -> NoDup (gnames vs')).
Lemma grown_refl vs : grown vs vs. Proof. split; [now exists [] | auto]. Qed.
Lemma grown_trans a b c : grown a b -> grown b c -> grown a c.
Proof. intros ((l & -> & H) & K) ((l' & -> & H') & K'). split; [|auto]. exists (l' ++ l). rewrite app_assoc. split; [auto|]. apply Forall_app; auto. Qed.
Lemma grown_names a b : grown a b -> prefix (gnames a) (gnames b).
Proof. intros ((l & -> & _) & _). unfold gnames. rewrite rev_app_distr, map_app. apply prefix_app. Qed.

Lemma assq_from_spec x vs : match assq_from x vs with Some i => nth_error (gnames vs) i = Some x | None => ~ In x (gnames vs) end.
Proof.
  unfold gnames. induction vs as [|(y, v) vs IH]; cbn [assq_from rev]; [intros []|]. rewrite map_app. cbn [map fst].
  destruct (String.eqb_spec y x) as [->|Ne].
  - rewrite nth_error_app2; rewrite map_length, rev_length; [|lia]. now rewrite Nat.sub_diag.
  - destruct (assq_from x vs) as [i|].
    + rewrite nth_error_app1; [exact IH|]. apply nth_error_Some. congruence.
    + intros I. apply in_app_iff in I. destruct I as [I|[I|[]]]; auto.
Qed.
Lemma lookup_store x vs : let (i, vs') := value_store_lookup x vs in grown vs vs' /\ nth_error (gnames vs') i = Some x.
Proof.
  unfold value_store_lookup. assert (H := assq_from_spec x vs). destruct (assq_from x vs) as [i|].
  - split; [apply grown_refl | exact H].
  - assert (E : gnames ((x, VSym x) :: vs) = gnames vs ++ [x]) by (unfold gnames; cbn [rev]; now rewrite map_app).
    split; [split|].
    + exists [(x, VSym x)]. split; [reflexivity|]. now repeat constructor.
    + intros N. rewrite E. apply NoDup_Add with (a := x) (l := gnames vs); [|auto]. assert (Z := Add_app x (gnames vs) []). now rewrite app_nil_r in Z.
    + rewrite E. rewrite nth_error_app2; unfold gnames; rewrite map_length, rev_length; [|lia]. now rewrite Nat.sub_diag.
Qed.

Definition compiles (cte : list (list sym)) (d : datum) (e : aexp) : Prop :=
  forall vs, exists c vs', comp cte d vs = COk (c, vs') /\ grown vs vs' /\ forall G, prefix (gnames vs') G -> comps G cte e c.
Definition list_compiles (cte : list (list sym)) (d : datum) (es : list aexp) : Prop :=
  forall vs, exists cs vs', map_comp cte d vs = COk (cs, vs') /\ grown vs vs' /\ forall G, prefix (gnames vs') G -> Forall2 (comps G cte) es cs.
Definition seq_compiles (cte : list (list sym)) (d : datum) (e : aexp) : Prop :=
  forall vs, exists c vs', loop_comp cte d vs = COk (c, vs') /\ grown vs vs' /\ forall G, prefix (gnames vs') G -> comps G cte e c.
Definition vals_compile (cte : list (list sym)) (d : datum) (es : list aexp) : Prop :=
  forall vs, exists cs vs', vals_comp cte d vs = COk (cs, vs') /\ grown vs vs' /\ forall G, prefix (gnames vs') G -> Forall2 (comps G cte) es cs.

Lemma formals_frame f ps r : formals f ps r -> parms_frame f = COk ps /\ is_list f = negb r /\ (r = true -> ps <> []).
Proof.
  induction 1 as [|x|x d l r H (A & B & C)]; cbn; [repeat split; discriminate | repeat split; discriminate |].
  rewrite A. repeat split; [exact B | discriminate].
Qed.
Scheme reads_m := Minimality for reads Sort Prop with reads_list_m := Minimality for reads_list Sort Prop
  with reads_seq_m := Minimality for reads_seq Sort Prop with reads_bindings_m := Minimality for reads_bindings Sort Prop.
Combined Scheme reads_all from reads_m, reads_list_m, reads_seq_m, reads_bindings_m.


Lemma gen_var_ref_ok cte x vs : let (c, vs') := gen_var_ref cte x vs in grown vs vs' /\ forall G, prefix (gnames vs') G -> comps G cte (AVar x) c.
Proof.
  unfold gen_var_ref. destruct (lookup cte x) as [(up, over)|] eqn:L; [split; [apply grown_refl|]; intros; now constructor|].
  assert (H := lookup_store x vs). destruct (value_store_lookup x vs) as (i, vs'). destruct H as (A & B). split; [exact A|].
  intros G P. constructor; [exact L|]. now apply (prefix_nth (gnames vs')).
Qed.
Lemma gen_var_set_ok cte x e c vs : (forall G, prefix (gnames vs) G -> comps G cte e c) ->
  let (c', vs') := gen_var_set cte x c vs in grown vs vs' /\ forall G, prefix (gnames vs') G -> comps G cte (ASet x e) c'.
Proof.
  intros Hc. unfold gen_var_set. destruct (lookup cte x) as [(up, over)|] eqn:L; [split; [apply grown_refl|]; intros G P; apply cp_set; auto|].
  assert (H := lookup_store x vs). destruct (value_store_lookup x vs) as (i, vs'). destruct H as (A & B). split; [exact A|].
  intros G P. apply cp_gset; [exact L | now apply (prefix_nth (gnames vs')) |]. apply Hc. apply prefix_trans with (gnames vs'); [now apply grown_names | exact P].
Qed.
Lemma below vs vs' G : grown vs vs' -> prefix (gnames vs') G -> prefix (gnames vs) G.
Proof. intros A B. apply prefix_trans with (gnames vs'); [now apply grown_names | exact B]. Qed.

Lemma comp_app_glo cte k l vs : ~ keyword k -> lookup cte k = None ->
  comp cte (DPair (DSym k) l) vs = cbind (map_comp cte l vs) (fun '(cs, vs) => COk (gen_glo_combination k cs vs)).
Proof.
  intros K L. cbn -[String.eqb lookup]. fold (map_comp cte).
  repeat match goal with |- context [String.eqb k ?s] => destruct (String.eqb_spec k s) as [->|?]; [exfalso; apply K; unfold keyword; cbn; tauto|] end.
  now rewrite L.
Qed.
Lemma comp_app_other cte f l vs : not_keyword f -> (forall x, f = DSym x -> lookup cte x <> None) ->
  comp cte (DPair f l) vs = cbind (comp cte f vs) (fun '(f, vs) => cbind (map_comp cte l vs) (fun '(cs, vs) => COk (gen_combination f cs, vs))).
Proof.
  intros K L. destruct f as [k|k| |a b]; try reflexivity. cbn [not_keyword] in K. specialize (L k eq_refl). cbn -[String.eqb lookup]. fold (map_comp cte).
  repeat match goal with |- context [String.eqb k ?s] => destruct (String.eqb_spec k s) as [->|?]; [exfalso; apply K; unfold keyword; cbn; tauto|] end.
  destruct (lookup cte k); [reflexivity | congruence].
Qed.
Lemma comp_letrec cte bs d vs : comp cte (dlist [DSym "letrec"; bs; d] DNil) vs =
  cbind (bindings_vars bs) (fun vars => cbind (vals_comp (cons_cte vars cte) bs vs) (fun '(cs, vs) => cbind (comp (cons_cte vars cte) d vs) (fun '(c, vs) => COk (gen_letrec cs c, vs)))).
Proof. reflexivity. Qed.
Lemma comp_begin cte l vs : (exists a b, l = DPair a b) -> comp cte (DPair (DSym "begin") l) vs = loop_comp cte l vs.
Proof. intros (a & b & ->). reflexivity. Qed.

Lemma gen_glo_ok cte x cs es vs : lookup cte x = None -> (forall G, prefix (gnames vs) G -> Forall2 (comps G cte) es cs) ->
  let (c, vs') := gen_glo_combination x cs vs in grown vs vs' /\ forall G, prefix (gnames vs') G -> comps G cte (AApp (AVar x) es) c.
Proof.
  intros L H. unfold gen_glo_combination. assert (Z := lookup_store x vs). destruct (value_store_lookup x vs) as (i, vs'). destruct Z as (A & B). split; [exact A|].
  intros G P. apply (cp_gapp G cte x es i cs); [exact L | now apply (prefix_nth (gnames vs')) |]. apply H. now apply (below vs vs').
Qed.

Lemma reads_compile lax :
  (forall d e, reads lax d e -> forall cte, compiles cte d e) /\
  (forall d es, reads_list lax d es -> forall cte, list_compiles cte d es) /\
  (forall d e, reads_seq lax d e -> (exists a b, d = DPair a b) /\ forall cte, seq_compiles cte d e) /\
  (forall d xs es, reads_bindings lax d xs es -> bindings_vars d = COk xs /\ List.length xs = List.length es /\ forall cte, vals_compile cte d es).
Proof.
  apply reads_all.
  - intros x cte vs. cbn [comp]. assert (H := gen_var_ref_ok cte x vs). destruct (gen_var_ref cte x vs) as (c, vs'). now exists c, vs'.
  - intros d A cte vs. exists (CCst d), vs. split; [destruct d; try destruct A; reflexivity|]. split; [apply grown_refl|]. intros. constructor.
  - intros d cte vs. exists (CCst d), vs. split; [reflexivity|]. split; [apply grown_refl|]. intros. constructor.
  - intros x d e _ H cte vs. destruct (H cte vs) as (c & vs1 & E & R & K).
    assert (Z := gen_var_set_ok cte x e c vs1 K). destruct (gen_var_set cte x c vs1) as (c2, vs2) eqn:E2. destruct Z as (R2 & K2).
    exists c2, vs2. split; [|split; [now apply grown_trans with vs1 | exact K2]]. change (cbind (comp cte d vs) (fun '(c, vs) => COk (gen_var_set cte x c vs)) = COk (c2, vs2)). rewrite E. cbn [cbind]. now rewrite E2.
  - intros f ps r d e F _ H cte vs. destruct (formals_frame f ps r F) as (P & Li & Ne). destruct (H (cons_cte ps cte) vs) as (c & vs1 & E & R & K).
    exists ((if r then gen_lambda_rest else gen_lambda) (List.length ps) c), vs1. split; [|split; [exact R|]; intros G Pg; constructor; auto].
    change (cbind (parms_frame f) (fun frame => cbind (comp (cons_cte frame cte) d vs) (fun '(c, vs) => COk ((if is_list f then gen_lambda else gen_lambda_rest) (List.length frame) c, vs))) =
      COk ((if r then gen_lambda_rest else gen_lambda) (List.length ps) c, vs1)).
    rewrite P. cbn [cbind]. rewrite E. cbn [cbind]. rewrite Li. now destruct r.
  - intros a b c t ea eb ec _ Ha _ Hb _ Hc _ cte vs. destruct (Ha cte vs) as (ca & vs1 & E1 & R1 & K1). destruct (Hb cte vs1) as (cb & vs2 & E2 & R2 & K2).
    destruct (Hc cte vs2) as (cc & vs3 & E3 & R3 & K3). exists (CIf ca cb cc), vs3. split; [|split].
    + change (cbind (comp cte a vs) (fun '(ca, vs) => cbind (comp cte b vs) (fun '(cb, vs) => cbind (comp cte c vs) (fun '(cc, vs) => COk (CIf ca cb cc, vs)))) = COk (CIf ca cb cc, vs3)).
      rewrite E1. cbn [cbind]. rewrite E2. cbn [cbind]. now rewrite E3.
    + apply grown_trans with vs1; [auto|]. now apply grown_trans with vs2.
    + intros G P. assert (P2 := below _ _ _ R3 P). assert (P1 := below _ _ _ R2 P2). constructor; auto.
  - intros a b t ea eb _ Ha _ Hb Np _ cte vs. destruct (Ha cte vs) as (ca & vs1 & E1 & R1 & K1). destruct (Hb cte vs1) as (cb & vs2 & E2 & R2 & K2).
    exists (CWhen ca cb), vs2. split; [|split].
    + change (cbind (comp cte a vs) (fun '(ca, vs) => cbind (comp cte b vs) (fun '(cb, vs) => match t with DPair c _ => cbind (comp cte c vs) (fun '(cc, vs) => COk (CIf ca cb cc, vs)) | _ => COk (CWhen ca cb, vs) end)) = COk (CWhen ca cb, vs2)).
      rewrite E1. cbn [cbind]. rewrite E2. cbn [cbind]. destruct t; auto; destruct Np.
    + now apply grown_trans with vs1.
    + intros G P. assert (P1 := below _ _ _ R2 P). constructor; auto.
  - intros bs xs es d e _ (Bv & Le & Hb) _ H cte vs. rewrite comp_letrec, Bv. cbn [cbind].
    destruct (Hb (cons_cte xs cte) vs) as (cs & vs1 & E1 & R1 & K1). destruct (H (cons_cte xs cte) vs1) as (c & vs2 & E2 & R2 & K2).
    exists (gen_letrec cs c), vs2. rewrite E1. cbn [cbind]. rewrite E2. cbn [cbind]. split; [reflexivity|]. split; [now apply grown_trans with vs1|].
    intros G P. assert (P1 := below _ _ _ R2 P). constructor; auto.
  - intros l e _ (Pa & H) cte vs. rewrite comp_begin by exact Pa. apply H.
  - intros x d e _ H cte vs. destruct (H cte vs) as (c & vs1 & E & R & K).
    assert (Z := gen_var_set_ok cte x e c vs1 K). destruct (gen_var_set cte x c vs1) as (c2, vs2) eqn:E2. destruct Z as (R2 & K2).
    exists (CSeq c2 (CCst (DSym x))), vs2. split; [|split; [now apply grown_trans with vs1|]; intros G P; constructor; [now apply K2 | constructor]].
    change (cbind (comp cte d vs) (fun '(c, vs) => let (s, vs) := gen_var_set cte x c vs in COk (CSeq s (CCst (DSym x)), vs)) = COk (CSeq c2 (CCst (DSym x)), vs2)). rewrite E. cbn [cbind]. now rewrite E2.
  - intros f l ef es Nk Ev Rf Hf _ Hl cte vs.
    assert (D : (exists x, f = DSym x /\ lookup cte x = None) \/ forall x, f = DSym x -> lookup cte x <> None).
    { destruct f as [k|k| |a b]; [|right; discriminate..]. destruct (lookup cte k) eqn:L; [right; intros x [= <-]; congruence | left; eauto]. }
    destruct D as [(x & -> & L)|D].
    + assert (ef = AVar x) as -> by (inversion Rf as [| ? A | | | | | | | | | |]; [reflexivity | destruct A]).
      rewrite comp_app_glo by auto. destruct (Hl cte vs) as (cs & vs1 & E & R & K). rewrite E. cbn [cbind].
      assert (Z := gen_glo_ok cte x cs es vs1 L K). destruct (gen_glo_combination x cs vs1) as (c, vs2). destruct Z as (R2 & K2). exists c, vs2.
      split; [reflexivity|]. split; [now apply grown_trans with vs1 | exact K2].
    + rewrite comp_app_other by auto. destruct (Hf cte vs) as (c & vs1 & E1 & R1 & K1). rewrite E1. cbn [cbind].
      destruct (Hl cte vs1) as (cs & vs2 & E2 & R2 & K2). rewrite E2. cbn [cbind]. exists (gen_combination c cs), vs2. split; [reflexivity|].
      split; [now apply grown_trans with vs1|]. intros G P. assert (P1 := below _ _ _ R2 P). constructor; auto.
  - intros f l x es Ne Rf Hf _ Hl cte vs. assert (Ns : forall y, f <> DSym y) by (intros y ->; inversion Rf; congruence).
    rewrite comp_app_other; [|destruct f; cbn; auto; now destruct (Ns s) | intros y E; now destruct (Ns y)].
    destruct (Hf cte vs) as (c & vs1 & E1 & R1 & K1). rewrite E1. cbn [cbind].
    destruct (Hl cte vs1) as (cs & vs2 & E2 & R2 & K2). rewrite E2. cbn [cbind]. exists (gen_combination c cs), vs2. split; [reflexivity|].
    split; [now apply grown_trans with vs1|]. intros G P. assert (P1 := below _ _ _ R2 P). constructor; auto; [discriminate|]. constructor. auto.
  - intros cte vs. exists [], vs. split; [reflexivity|]. split; [apply grown_refl | constructor].
  - intros d l e es _ H _ Hl cte vs. destruct (H cte vs) as (c & vs1 & E1 & R1 & K1). destruct (Hl cte vs1) as (cs & vs2 & E2 & R2 & K2).
    exists (c :: cs), vs2. cbn [map_comp]. split; [|split; [now apply grown_trans with vs1|]; intros G P; assert (P1 := below _ _ _ R2 P); constructor; auto].
    unfold map_comp in *. rewrite E1. cbn [cbind]. now rewrite E2.
  - intros d e _ H. split; [eauto|]. intros cte vs. destruct (H cte vs) as (c & vs1 & E1 & R1 & K1). exists c, vs1. unfold loop_comp. rewrite E1. now cbn [cbind].
  - intros d l e e' _ H _ (Pa & Hl). split; [eauto|]. intros cte vs. destruct (H cte vs) as (c & vs1 & E1 & R1 & K1). destruct (Hl cte vs1) as (c2 & vs2 & E2 & R2 & K2).
    exists (CSeq c c2), vs2. split; [|split; [now apply grown_trans with vs1|]; intros G P; assert (P1 := below _ _ _ R2 P); constructor; auto].
    unfold loop_comp in *. rewrite E1. cbn [cbind]. destruct Pa as (a & b & ->). now rewrite E2.
  - intros t Np _. split; [destruct t; auto; destruct Np|]. split; [reflexivity|]. intros cte vs. exists [], vs. split; [destruct t; auto; destruct Np|]. split; [apply grown_refl | constructor].
  - intros x d l e xs es _ H _ (Bv & Le & Hl). split; [cbn; now rewrite Bv|]. split; [cbn; congruence|]. intros cte vs.
    destruct (H cte vs) as (c & vs1 & E1 & R1 & K1). destruct (Hl cte vs1) as (cs & vs2 & E2 & R2 & K2).
    exists (c :: cs), vs2. split; [|split; [now apply grown_trans with vs1|]; intros G P; assert (P1 := below _ _ _ R2 P); constructor; auto].
    unfold vals_comp in *. cbn [dlist]. rewrite E1. cbn [cbind]. now rewrite E2.
Qed.
