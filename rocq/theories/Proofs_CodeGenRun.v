(** The code generator keeps the meaning: labels, closures, and the runs of programs. *)
From Coq Require Import ZArith String List Bool Lia Permutation.
From Verif Require Import Base Model_Lit Model_Core Model_Beta Spec_Sem Spec_Free Spec_Scope Spec_Fold Spec_Cps Spec_Lift Spec_Unbox
  Proofs_Sim Proofs_Core Proofs_Free Proofs_Assign Proofs_BetaFree Proofs_GlobalsSem Proofs_UnboxSem Proofs_UnboxUse Proofs_Unbox Proofs_Lift Proofs_CpsMore Model_CodeGen Spec_CodeGen Proofs_CodeGen.
Import ListNotations.
Open Scope Z_scope.

(** ** What is found in a program *)
Lemma curry_loop ys : forall zs, (fix loop (ids : list id) (rands : list exp) : bool :=
  match ids with
  | [] => true
  | y :: ids' => match rands with EVar z :: rands' => id_eqb z y && loop ids' rands' | _ => false end
  end) ys zs = true -> skipn (length ys) zs = [] -> zs = map EVar ys.
Proof.
  induction ys as [|y ys IH]; intros zs E S; cbn in S; [exact S|]. destruct zs as [|[z| | | | | | | |] zs]; try discriminate. apply andb_prop in E. destruct E as (Q & E). apply id_eqb_eq in Q. subst z.
  cbn [map]. f_equal. auto.
Qed.
Lemma curry_all lb ys ys' zs : curry_view (ELam ys (EApp (EVar lb) zs)) = Some (lb, ys', []) -> ys' = ys /\ zs = map EVar ys.
Proof.
  unfold curry_view. destruct (label_id lb && _) eqn:E; [|discriminate]. apply andb_prop in E. destruct E as (_ & E). intros [= <- S]. split; [reflexivity|]. now apply curry_loop.
Qed.
Definition stands (f : found) (e : exp) : Prop :=
  match f with
  | FCurry lb ys _ => exists zs, part_of (ELam ys (EApp (EVar lb) zs)) e
  | FStatic x lb => global_id x = true /\ exists ys, part_of (ESet x (ELam ys (EApp (EVar lb) (map EVar ys)))) e
  | FGoto _ _ => True
  end.
Lemma stands_part f e ys e' : stands f e' -> In (ys, e') (parts e) -> stands f e.
Proof.
  destruct f as [lb zs n|x lb|]; cbn; auto.
  - intros (us & H) I. exists us. eapply po_in; eauto.
  - intros (G & us & H) I. split; [assumption|]. exists us. eapply po_in; eauto.
Qed.
Lemma collect_stands e : forall f, In f (collect e) -> stands f e.
Proof.
  assert (Q : (forall f, In f (collect e) -> stands f e) /\ forall xs bd, e = ELam xs bd -> forall f, In f (collect bd) -> stands f bd); [|apply Q].
  induction e as [x|x e IH|a b c IHa IHb IHc|ef p l IH|f l IHf IH|xs b IH|xs lams0 b _ IH|x b IH|k e IHk IHe] using exp_ind2; (split; [intros g I|intros xs0 bd0 E; try discriminate]).
  - easy.
  - apply (stands_part g _ [] e); [now apply IH | now left].
  - cbn [collect] in I. apply in_app_or in I. destruct I as [I|I]; [|apply in_app_or in I; destruct I as [I|I]].
    + apply (stands_part g _ [] a); [now apply IHa | cbn; auto].
    + apply (stands_part g _ [] b); [now apply IHb | cbn; auto].
    + apply (stands_part g _ [] c); [now apply IHc | cbn; auto].
  - cbn [collect] in I. apply in_flat_map in I. destruct I as (d & J & I). rewrite Forall_forall in IH. apply (stands_part g _ [] d); [now apply (IH d J) | now apply in_map_pair].
  - assert (Hl : In g (flat_map collect l) -> stands g (EApp f l)).
    { intros J. apply in_flat_map in J. destruct J as (d & J & K). rewrite Forall_forall in IH. apply (stands_part g _ [] d); [now apply (IH d J) | right; now apply in_map_pair]. }
    assert (Hf : In g (collect f) -> stands g (EApp f l)) by (intros J; apply (stands_part g _ [] f); [now apply IHf | now left]).
    assert (Gen : In g (collect f ++ flat_map collect l) -> stands g (EApp f l)) by (intros J; apply in_app_or in J; tauto).
    destruct f as [x| | | | |xs bd| | |]; auto.
    + cbn [collect] in I. destruct (label_id x); [destruct I as [<-|I]; [exact Logic.I|]|]; auto.
    + assert (Hb : In g (collect bd) -> stands g (EApp (ELam xs bd) l)).
      { intros J. apply (stands_part g _ [] (ELam xs bd)); [|now left]. apply (stands_part g _ xs bd); [now apply (proj2 IHf xs bd) | now left]. }
      assert (Ge2 : In g (flat_map collect l ++ collect bd) -> stands g (EApp (ELam xs bd) l)) by (intros J; apply in_app_or in J; tauto).
      cbn [collect] in I. destruct (Nat.eqb (length xs) (length l)); [|auto]. destruct (begin_view (EApp (ELam xs bd) l)) as [(e1 & e2)|] eqn:B; [|auto].
      destruct e1 as [|x0 c| | | | | | |]; auto. destruct (curry_view c) as [((lb & ys) & [|? ?])|] eqn:V; auto. destruct (global_id x0) eqn:G; [|auto].
      destruct (Proofs_FoldWf.begin_view_inv _ _ _ B) as (x & [= -> -> ->] & _). destruct (curry_inv _ _ _ _ V) as (zs & -> & _). destruct (curry_all _ _ _ _ V) as (_ & ->).
      destruct I as [<-|[<-|I]]; [| |auto].
      * exists (map EVar ys). eapply po_in; [right; left; reflexivity|]. eapply po_in; [now left | apply po_here].
      * split; [assumption|]. exists ys. eapply po_in; [right; left; reflexivity | apply po_here].
  - destruct b as [| | | |[y| | | | | | | |] zs| | | |]; try easy. cbn [collect] in I. destruct (curry_view (ELam xs (EApp (EVar y) zs))) as [((lb & ys) & rands)|] eqn:V; [|easy].
    destruct (curry_inv _ _ _ _ V) as (zs' & [= -> -> ->] & _). destruct I as [<-|I]; [exists zs'; apply po_here|].
    apply (stands_part g _ ys (EApp (EVar lb) zs')); [|now left]. apply IH. cbn [collect].
    assert (J : In g (flat_map collect zs')).
    { rewrite skipn_map in I. apply in_concat in I. destruct I as (m & I & J). apply in_map_iff in I. destruct I as (d & <- & I). apply in_flat_map. exists d. split; [|assumption]. rewrite <- (firstn_skipn (length ys) zs'). apply in_or_app. now right. }
    destruct (label_id lb); [now right | assumption].
  - injection E as <- <-. apply IH.
  - easy.
  - easy.
  - easy.
Qed.
Lemma find_curry_in lb all ids n : find_curry lb all = Some (ids, n) -> In (FCurry lb ids n) all.
Proof.
  induction all as [|[y zs k|? ?|? ?] all IH]; cbn; try discriminate; auto. destruct (id_eqb lb y) eqn:E; [|auto]. apply id_eqb_eq in E. subst y. intros [= -> ->]. now left.
Qed.
Lemma constant_in lb x all : In (lb, x) (constant_labels all) -> global_id_constant x = true /\ In (FStatic x lb) all.
Proof.
  unfold constant_labels. rewrite <- in_rev, in_flat_map. intros (f & I & J). destruct f as [| y z|]; try easy. destruct (global_id_constant y) eqn:E; [|easy]. destruct J as [[= -> ->]|[]]. auto.
Qed.
Lemma all_some_nth {A} (l : list (option A)) : forall cs i, all_some l = Some cs -> nth_error l i = option_map Some (nth_error cs i).
Proof.
  induction l as [|o l IH]; intros cs i E; cbn in E; [injection E as <-; now destruct i|]. destruct o as [a|]; [|discriminate]. destruct (all_some l) as [r|]; [|discriminate]. injection E as <-.
  destruct i; cbn; [reflexivity | now apply IH].
Qed.
Lemma assq_combine {A} ks : forall (vs : list A) i k v, NoDup ks -> nth_error ks i = Some k -> nth_error vs i = Some v -> assq k (combine ks vs) = Some v.
Proof.
  induction ks as [|k0 ks IH]; intros [|v0 vs] [|i] k v N Ek Ev; try discriminate; cbn in *.
  - injection Ek as ->. injection Ev as ->. now rewrite id_eqb_refl.
  - inversion N as [|? ? N1 N2]; subst. destruct (id_eqb k k0) eqn:Q; [apply id_eqb_eq in Q; subst; apply nth_error_In in Ek; contradiction|]. eauto.
Qed.
Lemma nth_combine {A B} (l : list A) : forall (l' : list B) i a b, nth_error l i = Some a -> nth_error l' i = Some b -> nth_error (combine l l') i = Some (a, b).
Proof. induction l as [|x l IH]; intros [|y l'] [|i] a b E F; try discriminate; cbn in *; [congruence | auto]. Qed.
Lemma rposq_app_none y l l' : ~ In (Some y) l -> rposq y (l ++ l') = option_map (Nat.add (length l)) (rposq y l').
Proof.
  induction l as [|[z|] l IH]; intros N; cbn [app rposq length]; [now destruct (rposq y l')| |].
  - destruct (id_eqb z y) eqn:Q; [apply id_eqb_eq in Q; subst; destruct N; now left|]. rewrite IH by (intros I; apply N; now right). now destruct (rposq y l').
  - rewrite IH by (intros I; apply N; now right). now destruct (rposq y l').
Qed.
Lemma rposq_app_some y l l' p : rposq y l = Some p -> rposq y (l ++ l') = Some p.
Proof.
  revert p. induction l as [|[z|] l IH]; intros p E; cbn in *; [discriminate| |].
  - destruct (id_eqb z y); [assumption|]. destruct (rposq y l) as [q|]; [|discriminate]. injection E as <-. now rewrite (IH q eq_refl).
  - destruct (rposq y l) as [q|]; [|discriminate]. injection E as <-. now rewrite (IH q eq_refl).
Qed.
Lemma rposq_params ps : forall i y, NoDup ps -> nth_error ps i = Some y -> exists p, rposq y (rev (map Some ps)) = Some p /\ (length (rev (map Some ps)) - p - 1 = i)%nat.
Proof.
  induction ps as [|x ps IH]; intros [|i] y N E; try discriminate; inversion N as [|? ? N1 N2]; subst; cbn [map rev nth_error] in *; rewrite app_length; cbn [length]; rewrite rev_length, map_length.
  - injection E as ->. exists (length ps). rewrite rposq_app_none.
    + cbn. rewrite id_eqb_refl. cbn. rewrite rev_length, map_length. split; [f_equal; lia | lia].
    + rewrite <- in_rev, in_map_iff. intros (z & [= ->] & I). contradiction.
  - destruct (IH i y N2 E) as (p & Ep & L). exists p. split; [now apply rposq_app_some|]. rewrite rev_length, map_length in L. assert (Lt := rposq_lt _ _ _ Ep). rewrite rev_length, map_length in Lt. lia.
Qed.

Section Run.
Variable P : prim -> script.
Variable order : list cexp -> list nat.
Variable junk : id -> val.
Variable dot : id -> bool.
Hypothesis any : any_order order.
Hypothesis conv_id : conversions P.
Hypothesis void_ok : makes_void P.
Variable ls : list id.
Variable lams : list (list id * exp).
Variable b : exp.
Variable n : Z.
Variable prog : cprog.
Notation whole := (EFix ls lams b).
Hypothesis Ds : distinct n whole.
Hypothesis Cl : closed whole.
Hypothesis Rd : ready dot ls lams b.
Hypothesis Cg : code_generate whole = Some prog.
Definition all := flat_map (fun l => collect (snd l)) lams ++ collect b.
Definition gcl := constant_labels all.
Definition tab (lb : id) := find_curry lb all.
Definition a_body (ps : list id) (c : exp) : Prop := (ps = [] /\ c = b) \/ exists i, nth_error lams i = Some (ps, c).
Notation step := (step P MDirect).
Notation star := (star P MDirect).
Notation wrong := (wrong P MDirect).
Notation exec := (exec P order junk).
Notation R := (R ls lams gcl tab).
Notation vrel := (vrel ls lams tab).
Notation envrel := (envrel ls lams tab).
Notation gok := (gok ls gcl tab).
Notation lamsE := (lamsE lams).
Notation rT := (rT ls lams).

Lemma nd_ls : NoDup ls.
Proof. destruct Ds as (N & _). cbn [binders] in N. eapply Proofs_LetrecFix.nodup_l. exact N. Qed.
Lemma lb_ok : Forall (fun x => label_id x = true) ls.
Proof. exact (rd_labels _ _ _ _ Rd). Qed.
Lemma gcl_glob lb x : In (lb, x) gcl -> global_id x = true.
Proof. intros I. apply constant_in in I. destruct I as (G & _). unfold global_id_constant in G. now apply andb_prop in G. Qed.
(** the binders of the program: each body, and what is around it *)
Lemma body_part ps c : a_body ps c -> exists ys, In (ys, c) (parts whole) /\ ys = ls ++ ps.
Proof.
  intros [(-> & ->)|(i & E)]; [exists ls; split; [now left | now rewrite app_nil_r]|]. exists (ls ++ ps). split; [|reflexivity]. right. apply nth_error_In in E. apply in_map_iff. now exists (ps, c).
Qed.
Lemma body_nodup ps c : a_body ps c -> NoDup ((ls ++ ps) ++ binders c).
Proof.
  intros B. destruct (body_part ps c B) as (ys & I & ->). destruct Ds as (N & _). rewrite nodup_cnt in *. intros x. assert (C := part_cnt _ _ _ I x). specialize (N x).
  rewrite Proofs_CpsMore.cnt_app. lia.
Qed.

Lemma body_tidy ps c : a_body ps c -> tidy ls c.
Proof.
  intros B. assert (N := body_nodup ps c B). split; [|split].
  - eapply Proofs_LetrecFix.nodup_r. exact N.
  - intros x F I. destruct (in_dec id_dec x (ls ++ ps)) as [J|J]; [now apply (Proofs_LetrecFix.nodup_no _ _ x N J)|].
    destruct (body_part ps c B) as (ys & Ip & ->). assert (G : global_id x = true) by (apply Cl; eapply free_part; eauto).
    destruct Ds as (_ & T). unfold global_id in G. apply Z.ltb_lt in G. assert (In x (binders whole)); [|specialize (T x H); lia].
    assert (C := part_cnt _ _ _ Ip x). rewrite cnt_In in *. lia.
  - intros x I J. apply (Proofs_LetrecFix.nodup_no _ _ x N); [apply in_or_app; now left | assumption].
Qed.
Lemma stands_whole f : In f all -> stands f whole.
Proof.
  intros I. apply in_app_or in I. destruct I as [I|I].
  - apply in_flat_map in I. destruct I as ((ps & c) & J & I). apply (stands_part f _ (ls ++ ps) c); [now apply collect_stands | right]. apply in_map_iff. now exists (ps, c).
  - apply (stands_part f _ ls b); [now apply collect_stands | now left].
Qed.
Lemma body_collect ps c : a_body ps c -> incl (collect c) all.
Proof.
  intros [(-> & ->)|(i & E)] f I; apply in_or_app; [now right|]. left. apply in_flat_map. exists (ps, c). split; [eapply nth_error_In; eauto | assumption].
Qed.
Lemma generated : forallb (agrees ls all) all = true /\ exists c cs, cg ls gcl b (TReg O) [] = Some c /\
  all_some (map (fun l => cg ls gcl (snd l) (TReg (length (fst l))) (rev (map Some (fst l)))) lams) = Some cs /\
  prog = mkcprog c (combine ls (map (fun p => mkproc (find_curry (fst p) all) (snd p)) (combine ls cs))).
Proof.
  assert (C := Cg). unfold code_generate in C. fold all in C. fold gcl in C. destruct (forallb (agrees ls all) all); [|discriminate]. split; [reflexivity|].
  destruct (cg ls gcl b (TReg 0) []) as [c|] eqn:E; [|discriminate]. destruct (all_some _) as [cs|] eqn:A; [|discriminate]. exists c, cs. split; [reflexivity|]. split; [reflexivity|]. now injection C as <-.
Qed.
Lemma body_gok ps c : a_body ps c -> gok c.
Proof.
  intros B. split.
  - destruct (rd_lifted _ _ _ _ Rd) as (A & A'). destruct B as [(_ & ->)|(i & E)]; [assumption|]. rewrite Forall_forall in A. apply nth_error_In in E. exact (A _ E).
  - eapply body_tidy; eauto.
  - intros lb ys k I. apply (body_collect ps c B) in I. destruct generated as (A & _). rewrite forallb_forall in A. specialize (A _ I). cbn in A. apply andb_prop in A. destruct A as (_ & A).
    unfold tab. destruct (find_curry lb all) as [(ids & n')|]; [|discriminate]. apply andb_prop in A. destruct A as (A1 & A2). apply Nat.eqb_eq in A1, A2. exists ids. subst. auto.
  - intros x d lb S I. apply constant_in in I. destruct I as (G & I). apply stands_whole in I. destruct I as (_ & ys & I). exists ys. apply (rd_once _ _ _ _ Rd x); auto.
    destruct (body_part ps c B) as (zs & Ip & _). eapply po_in; eauto.
Qed.
(** ** Labels *)
Lemma label_code i lab ps c : nth_error ls i = Some lab -> nth_error lams i = Some (ps, c) -> exists code,
  cg ls gcl c (TReg (length ps)) (rev (map Some ps)) = Some code /\ assq lab (labelled prog) = Some (mkproc (tab lab) code).
Proof.
  intros El Ec. destruct generated as (_ & c0 & cs & _ & A & ->). cbn [labelled].
  assert (X := all_some_nth _ _ i A). rewrite nth_error_map, Ec in X. cbn [option_map fst snd] in X. destruct (nth_error cs i) as [code|] eqn:Q; [|discriminate]. cbn in X. injection X as X.
  exists code. split; [assumption|]. apply assq_combine with i; [apply nd_ls | assumption|]. rewrite nth_error_map, (nth_combine ls cs i lab code El Q). reflexivity.
Qed.
Lemma label_lam i lab : nth_error ls i = Some lab -> exists ps c, nth_error lams i = Some (ps, c).
Proof.
  intros E. destruct (nth_error lams i) as [(ps & c)|] eqn:Q; [eauto|]. apply nth_error_None in Q. rewrite <- (rd_len _ _ _ _ Rd) in Q. assert (nth_error ls i <> None) by congruence. apply nth_error_Some in H. lia.
Qed.
Inductive sim : mstate -> state -> Prop :=
| sim_at lab ps c t rv code rs r w ws : a_body ps c -> code_at prog lab = Some code -> cg ls gcl c t rv = Some code -> tails true c -> tok t c -> envrel c rs rv (mkmach r [] w) -> R ws w ->
    sim (MAt lab r w) (Ev (explicit c) rs [] ws)
| sim_halt v u w ws : vrel v u -> R ws w -> sim (MHalt u w) (Halted v ws).
Lemma bind_short xs : forall vs r h, length xs <> length vs -> bind MDirect xs vs r h = None.
Proof. induction xs as [|x xs IH]; intros [|v vs] r h N; cbn in *; try easy. apply IH. lia. Qed.
Lemma enter_label i lab ps c vs r rs ws w : nth_error ls i = Some lab -> nth_error lams i = Some (ps, c) ->
  (forall j v, nth_error vs j = Some v -> vrel v (r j) \/ forall p, nth_error ps j = Some p -> ~ free_in p c) -> R ws w ->
  let s := Args OApp (map SDone (VFix ls lamsE i [] :: vs)) rs [] ws in
  wrong s \/ exists s', step s s' /\ sim (MAt (Some lab) r w) s'.
Proof.
  intros El Ec V W s. destruct (label_code i lab ps c El Ec) as (code & Cc & Ac). assert (Nf : nth_error lamsE i = Some (ps, explicit c)) by (unfold Proofs_CodeGen.lamsE; rewrite nth_error_map, Ec; reflexivity).
  destruct (Nat.eq_dec (length ps) (length vs)) as [L|L].
  - destruct (bind_direct ps vs rT (hp ws) L) as (r1 & B & Bi & Bo). right. exists (Ev (explicit c) r1 [] ws). split.
    + unfold s. apply st_fire. rewrite <- (set_hp_same ws) at 2. eapply fi_callfix; [exact Nf | exact B].
    + assert (Bd : a_body ps c) by (right; eauto). assert (N := body_nodup ps c Bd).
      assert (Nps : NoDup ps) by (eapply Proofs_LetrecFix.nodup_r, Proofs_LetrecFix.nodup_l; exact N).
      eapply sim_at; [exact Bd | cbn; rewrite Ac; reflexivity | exact Cc | | exact Logic.I | | exact W].
      * destruct (rd_tails _ _ _ _ Rd) as (T & _). rewrite Forall_forall in T. apply nth_error_In in Ec. exact (T _ Ec).
      * intros y Fy Gy. unfold var_rel. destruct (in_dec id_dec y ls) as [I|I].
        -- apply Bo. intros J. apply (Proofs_LetrecFix.nodup_no _ _ y (Proofs_LetrecFix.nodup_l _ _ N)); assumption.
        -- destruct (in_dec id_dec y ps) as [J|J].
           ++ assert (Pl : plain y). { assert (Pp := rd_params _ _ _ _ Rd). rewrite Forall_forall in Pp. apply nth_error_In in Ec. specialize (Pp _ Ec). rewrite Forall_forall in Pp. now apply Pp. }
              apply In_nth_error in J. destruct J as (j & Ej). rewrite (Bi Nps j y Ej). destruct (nth_error vs j) as [v|] eqn:Ev.
              2:{ exfalso. apply nth_error_None in Ev. assert (nth_error ps j <> None) by congruence. apply nth_error_Some in H. lia. }
              exists v. split; [reflexivity|]. destruct (V j v Ev) as [Vj|Np]; [|now destruct (Np y Ej)].
              assert (Ct : cvar_type y = None). { unfold cvar_type. rewrite Gy. destruct Pl as (_ & Pl). destruct (xt y) as [| | |ty]; try reflexivity. now destruct (Pl ty). }
              rewrite Ct. destruct (rposq_params ps j y Nps Ej) as (q & Eq & Lq). exists q. split; [assumption|]. cbn [regs]. now rewrite Lq.
           ++ exfalso. assert (global_id y = true); [|congruence]. apply Cl. destruct (body_part ps c Bd) as (ys & Ip & ->). eapply free_part; [exact Ip | | exact Fy]. intros K. apply in_app_or in K. tauto.
  - left. unfold s. apply stuck_fire. intros s' Fi. inversion Fi; subst. match goal with Bn : bind _ ?xs _ _ _ = Some _ |- _ => assert (xs = ps) by congruence; subst; rewrite bind_short in Bn by assumption; discriminate end.
Qed.
(** ** Closures *)
Lemma eval_vars r ws k l : forall vals pre, Forall2 (fun x v => global_id x = false /\ lookup r x = Some v /\ forall l, v <> VRef l) l vals ->
  star (Args OApp (pre ++ map STodo (map EVar l)) r k ws) (Args OApp (pre ++ map SDone vals) r k ws).
Proof.
  induction l as [|x l IH]; intros vals pre F; inversion F as [|? v ? vs (G & L & N) F2]; subst; cbn [map]; [constructor|].
  eapply pick_ret; [apply star_one, st_var, read_local; eassumption|]. replace (pre ++ SDone v :: map STodo (map EVar l)) with ((pre ++ [SDone v]) ++ map STodo (map EVar l)) by (now rewrite <- app_assoc).
  replace (pre ++ SDone v :: map SDone vs) with ((pre ++ [SDone v]) ++ map SDone vs) by (now rewrite <- app_assoc). now apply IH.
Qed.
Lemma clo_inj t us t' us' : clo t us = clo t' us' -> t = t' /\ us = us'.
Proof.
  unfold clo. intros [= -> E]. split; [reflexivity|]. revert us' E. induction us as [|u us IH]; intros [|u' us'] E; try discriminate; [reflexivity|]. injection E as -> E. f_equal. auto.
Qed.
Lemma vrel_clo_inv f t us : vrel f (clo t us) -> exists ys cs r ids, f = VClo ys (EApp (EVar t) (map EVar (ys ++ cs))) r /\ In t ls /\ lookup r t = lookup rT t /\ Forall local ys /\ ~ In t ys /\ NoDup ys /\
  (forall c, In c cs -> local c /\ ~ In c ys) /\ tab t = Some (ids, length cs) /\ length ids = length ys /\ Forall2 (fun c u => exists v, lookup r c = Some v /\ vrel v u) cs us.
Proof.
  intros V. remember (clo t us) as u eqn:E. destruct V as [c|l|ys t' cs r us' ids H1 H2 H3 H4 H5 H6 H7 H8 H9]; try discriminate. apply clo_inj in E. destruct E as (-> & ->). exists ys, cs, r, ids. auto 12.
Qed.
Lemma enter_clo f t us vs rs ws : vrel f (clo t us) -> (forall v, In v vs -> exists u, vrel v u) -> 
  let s := Args OApp (map SDone (f :: vs)) rs [] ws in
  exists ids, In t ls /\ tab t = Some (ids, length us) /\ (wrong s \/ length ids = length vs /\
  exists i r1 vcs, nth_error ls i = Some t /\ plus P MDirect s (Args OApp (map SDone (VFix ls lamsE i [] :: vs ++ vcs)) r1 [] ws) /\ Forall2 vrel vcs us).
Proof.
  intros V Hv s. destruct (vrel_clo_inv _ _ _ V) as (ys & cs & r & ids & -> & H1 & H2 & H3 & H4 & H5 & H6 & H7 & H8 & H9). exists ids. split; [assumption|]. split; [now rewrite <- (Forall2_len _ _ _ H9)|].
  rewrite Forall_forall in H3.
  destruct (Nat.eq_dec (length ys) (length vs)) as [L|L].
  - right. split; [congruence|]. destruct (bind_direct ys vs r (hp ws) L) as (r1 & B & Bi & Bo). specialize (Bi H5).
    destruct (label_value ls lams nd_ls t H1) as (i & Ei & Et).
    assert (exists vcs, Forall2 (fun c v => lookup r c = Some v) cs vcs /\ Forall2 vrel vcs us) as (vcs & F1 & F2).
    { clear - H9. induction H9 as [|c u cs us (v & A & B) H9 (vcs & F1 & F2)]; [exists []; auto | exists (v :: vcs); auto]. }
    exists i, r1, vcs. split; [assumption|]. split; [|assumption].
    econstructor; [apply (st_fire P MDirect OApp (VClo ys (EApp (EVar t) (map EVar (ys ++ cs))) r :: vs)); eapply fi_call; exact B|]. rewrite set_hp_same.
    eapply to_args; [reflexivity|]. cbn [map]. assert (Fall := rd_labels _ _ _ _ Rd). rewrite Forall_forall in Fall.
    eapply (pick_ret P OApp [] (EVar t) (map STodo (map EVar (ys ++ cs))) r1 [] ws (VFix ls lamsE i []) ws).
    + apply star_one, st_var, read_local; [now apply label_local, Fall | rewrite (Bo t H4), H2; exact Et | discriminate].
    + cbn [app]. apply (eval_vars r1 ws [] (ys ++ cs) (vs ++ vcs) [SDone (VFix ls lamsE i [])]). apply Forall2_app.
      * assert (F : Forall2 (fun y v => lookup r1 y = Some v) ys vs).
        { clear - Bi L. revert vs Bi L. induction ys as [|y ys IH]; intros [|v vs] Bi L; try discriminate; constructor; [exact (Bi O y eq_refl) | apply IH; [intros j; exact (Bi (S j)) | now injection L]]. }
        clear - F Hv H3. induction F as [|y v ys vs A F IH]; [constructor|]. constructor; [|apply IH; intros; [apply Hv | apply H3]; now right]. split; [apply H3; now left|]. split; [assumption|].
        destruct (Hv v (or_introl eq_refl)) as (u & V). eapply vrel_not_ref; eauto.
      * clear - F1 F2 Bo H6. revert us F2. induction F1 as [|c v cs vcs A F IH]; intros us F2; inversion F2 as [|? u ? us2 V F3]; subst; [constructor|]; constructor; [|eapply IH; [intros; apply H6; now right | exact F3]].
        destruct (H6 c (or_introl eq_refl)) as (Lc & Nc). split; [exact Lc|]. split; [rewrite (Bo c Nc); exact A | eapply vrel_not_ref; eauto].
  - left. unfold s. apply stuck_fire. intros s' Fi. inversion Fi; subst. match goal with Bn : bind _ _ _ _ _ = Some _ |- _ => rewrite bind_short in Bn by assumption; discriminate end.
Qed.
(** ** Runs *)
Lemma copy_before us : forall i r k, (k < i)%nat -> copy i us r k = r k.
Proof. induction us as [|u us IH]; intros i r k L; cbn; [reflexivity|]. rewrite IH by lia. unfold upd. destruct (Nat.eqb_spec k i); [lia | reflexivity]. Qed.
Lemma copy_at us : forall i r j u, nth_error us j = Some u -> copy i us r (i + j)%nat = u.
Proof.
  induction us as [|v us IH]; intros i r [|j] u E; try discriminate; cbn in *.
  - injection E as ->. rewrite copy_before by lia. unfold upd. now rewrite Nat.add_0_r, Nat.eqb_refl.
  - replace (i + S j)%nat with (S i + j)%nat by lia. now apply IH.
Qed.
Notation mstep := (mstep P order junk dot prog).
Definition on (t : mstate) (s : state) : Prop := (exists t', mstep t t') /\ forall t', mstep t t' -> exists s', plus P MDirect s s' /\ sim t' s'.
Lemma enters_one rc r t us ids code t' r'' : r O = clo t us -> assq t (labelled prog) = Some (mkproc (Some (ids, length us)) code) -> enters dot prog rc r t' r'' ->
  t' = t /\ r'' = (if ignores dot ids then shifted (copy 3 us (upd r 2 (VC CVoid))) 1 else shifted (copy rc us r) 1).
Proof.
  intros E A [t1 us1 q ids1 E1 A1 N1 G1 L1|t1 us1 q ids1 E1 A1 N1 G1 L1]; rewrite E in E1; apply clo_inj in E1; destruct E1 as (<- & <-); rewrite A in A1; injection A1 as <-; cbn in N1; injection N1 as <-; now rewrite G1.
Qed.
Lemma sim_step lab r w s : sim (MAt lab r w) s -> wrong s \/ on (MAt lab r w) s.
Proof.
  intros X. remember (MAt lab r w) as t0 eqn:E0. destruct X as [lab0 ps c t rv code rs r0 w0 ws B Ca Cc T To He W|]; [|discriminate]. injection E0 as -> -> ->.
  assert (Cr := cg_ok P order junk any conv_id void_ok ls lams gcl tab lb_ok nd_ls gcl_glob c true t rv code Cc (body_gok ps c B) T To rs (mkmach r [] w) ws [] He W).
  set (s := Ev (explicit c) rs [] ws) in *.
  inversion Cr as [res Wx|v u ws1 m1 Bq|v u ws1 w1 S V W1 Er|lab' f vs rr ws1 w1 rs1 _ S Cf V W1 Er|f vs rr ws1 w1 rs1 _ S V W1 Er]; try discriminate.
  - now left.
  - right. split; [exists (MHalt u w1); eapply ms_halt; eauto|]. intros t' M.
    assert (t' = MHalt u w1) as -> by (inversion M; subst; congruence). exists (Halted v ws1). split; [|now constructor].
    inversion S; subst. econstructor; eassumption.
  - assert (Hv : forall v, In v vs -> exists u, vrel v u) by (intros v I; apply In_nth_error in I; destruct I as (j & E); eauto).
    assert (Z : wrong s \/ exists s', plus P MDirect s s' /\ sim (MAt (Some lab') rr w1) s').
    { destruct Cf as [i lab' El|f lab' Vf].
      - destruct (label_lam i lab' El) as (ps' & c' & Ec). destruct (enter_label i lab' ps' c' vs rr rs1 ws1 w1 El Ec (fun j v E => or_introl (V j v E)) W1) as [X|(s' & X & Y)].
        + left. eapply wrong_star; eauto.
        + right. exists s'. split; [eapply star_plus_trans; [exact S | now apply plus_one] | assumption].
      - destruct (enter_clo f lab' [] vs rs1 ws1 Vf Hv) as (ids & _ & _ & [X|(_ & i & r1 & vcs & El & Pl & F)]); [left; eapply wrong_star; eauto|]. inversion F; subst. rewrite app_nil_r in Pl.
        destruct (label_lam i lab' El) as (ps' & c' & Ec). destruct (enter_label i lab' ps' c' vs rr r1 ws1 w1 El Ec (fun j v E => or_introl (V j v E)) W1) as [X|(s' & X & Y)].
        + left. eapply wrong_star; [exact S|]. eapply wrong_plus; eauto.
        + right. exists s'. split; [eapply star_plus_trans; [exact S|]; eapply plus_star_trans; [exact Pl | now apply star_one] | assumption]. }
    destruct Z as [Z|(s' & Z1 & Z2)]; [now left|]. right. split; [exists (MAt (Some lab') rr w1); eapply ms_goto; eauto|]. intros t' M.
    assert (t' = MAt (Some lab') rr w1) as -> by (inversion M; subst; congruence). eauto.
  - assert (Vf := V O f eq_refl). assert (Hv : forall v, In v vs -> exists u, vrel v u) by (intros v I; apply In_nth_error in I; destruct I as (j & E); exists (rr (Datatypes.S j)); now apply V).
    assert (Nc : forall c0, f <> VC c0 \/ wrong s). { intros c0. destruct f as [c1| | | | |]; try (left; discriminate). right. eapply wrong_star; [exact S|]. apply stuck_fire. intros s' Fi. inversion Fi. }
    assert (Nl : forall l, f <> VLoc l \/ wrong s). { intros l. destruct f as [| | | | |]; try (left; discriminate). right. eapply wrong_star; [exact S|]. apply stuck_fire. intros s' Fi. inversion Fi. }
    assert (Z : wrong s \/ exists t us, rr O = clo t us).
    { inversion Vf as [c0 E1 E2|l E1 E2|ys tt cs r0 us ids H1 H2 H3 H4 H5 H6 H7 H8 H9 E1 E2]; [destruct (Nc c0); [congruence | now left] | destruct (Nl l); [congruence | now left] | right; eauto]. }
    destruct Z as [Z|(tl & us & E0)]; [now left|]. rewrite E0 in Vf.
    destruct (enter_clo f tl us vs rs1 ws1 Vf Hv) as (ids & It & Tb & [X|(Li & i & r1 & vcs & El & Pl & F)]); [left; eapply wrong_star; eauto|].
    destruct (label_lam i tl El) as (ps' & c' & Ec). destruct (label_code i tl ps' c' El Ec) as (code' & Cc' & Ac). rewrite Tb in Ac.
    set (r'' := if ignores dot ids then shifted (copy 3 us (upd rr 2 (VC CVoid))) 1 else shifted (copy (Datatypes.S (length vs)) us rr) 1).
    assert (En : enters dot prog (Datatypes.S (length vs)) rr tl r'').
    { unfold r''. destruct (ignores dot ids) eqn:Ig.
      - eapply en_dot; [exact E0 | exact Ac | reflexivity | exact Ig|]. destruct ids as [|? [|? [|? ?]]]; try discriminate. cbn in Li. lia.
      - eapply en_clo; [exact E0 | exact Ac | reflexivity | exact Ig|]. now rewrite Li. }
    assert (Vr : forall j v, nth_error (vs ++ vcs) j = Some v -> vrel v (r'' j) \/ forall p, nth_error ps' j = Some p -> ~ free_in p c').
    { intros j v E. unfold r''. destruct (ignores dot ids) eqn:Ig.
      - destruct ids as [|i0 [|i1 [|? ?]]]; try discriminate. cbn in Ig. destruct vs as [|v0 [|v1 [|? ?]]]; try discriminate.
        destruct j as [|[|j]]; cbn in E.
        + injection E as <-. left. unfold shifted. cbn [Nat.add]. rewrite copy_before by lia. unfold upd. cbn [Nat.eqb]. now apply (V 1%nat).
        + right. intros p Ep. assert (I := find_curry_in _ _ _ _ Tb). apply stands_whole in I. destruct I as (zs & I). eapply (rd_dot _ _ _ _ Rd); eauto.
        + left. destruct (Forall2_nth _ _ _ _ _ F E) as (u & Nu & Vu). unfold shifted. replace (1 + Datatypes.S (Datatypes.S j))%nat with (3 + j)%nat by lia. rewrite (copy_at us 3 _ j u Nu). exact Vu.
      - left. unfold shifted. destruct (Nat.ltb_spec j (length vs)) as [Lt|Ge].
        + rewrite nth_error_app1 in E by assumption. rewrite copy_before by lia. apply (V (Datatypes.S j)). exact E.
        + rewrite nth_error_app2 in E by assumption. destruct (Forall2_nth _ _ _ _ _ F E) as (u & Nu & Vu). replace (1 + j)%nat with (Datatypes.S (length vs) + (j - length vs))%nat by lia. rewrite (copy_at us _ _ _ u Nu). exact Vu. }
    destruct (enter_label i tl ps' c' (vs ++ vcs) r'' r1 ws1 w1 El Ec Vr W1) as [X|(s' & X & Y)].
    + left. eapply wrong_star; [exact S|]. eapply wrong_plus; eauto.
    + right. split; [exists (MAt (Some tl) r'' w1); eapply ms_jump; eauto|]. intros t' M.
      assert (t' = MAt (Some tl) r'' w1) as ->.
      { inversion M as [? ? ? ? ? ? C1 Q|? ? ? ? ? ? ? ? C1 Q|? ? ? ? n1 r1' w1' t1 r1'' C1 Q En1]; subst; assert (Ec1 : c0 = code) by congruence; subst c0; rewrite <- Er in Q; try discriminate. injection Q as <- <- <-.
        destruct (enters_one _ _ _ _ _ _ _ _ E0 Ac En1) as (-> & ->). reflexivity. }
      exists s'. split; [eapply star_plus_trans; [exact S|]; eapply plus_star_trans; [exact Pl | now apply star_one] | assumption].
Qed.
Notation mstar := (mstar P order junk dot prog).
Lemma sim_star t t' : mstar t t' -> forall s, sim t s -> wrong s \/ exists s', star s s' /\ sim t' s'.
Proof.
  induction 1 as [t|t t1 t' M S IH]; intros s X; [right; exists s; split; [constructor | assumption]|].
  destruct t as [lab r w|v w]; [|inversion M]. destruct (sim_step lab r w s X) as [Z|(_ & Z)]; [now left|]. destruct (Z t1 M) as (s1 & P1 & X1). destruct (IH s1 X1) as [Y|(s' & S1 & Y)].
  - left. eapply wrong_plus; eauto.
  - right. exists s'. split; [eapply star_trans; [apply plus_star, P1 | exact S1] | assumption].
Qed.
Lemma sim_forever : forall t s s0, star s0 s -> sim t s -> mruns P order junk dot prog t -> runs_on P MDirect s0.
Proof.
  cofix CH. intros t s s0 St X Ru. destruct St as [s|s s1 s2 S1 St]; [|eapply ro_step; [exact S1 | exact (CH t s2 s1 St X Ru)]].
  destruct Ru as [t t1 M Ru]. destruct t as [lab r w|v w]; [|inversion M]. destruct (sim_step lab r w s X) as [Z|(_ & Z)]; [now apply ro_wrong|].
  destruct (Z t1 M) as (s' & P1 & X1). destruct P1 as [s s1 s' S1 St]. eapply ro_step; [exact S1|]. exact (CH t1 s' s1 St X1 Ru).
Qed.
Lemma sim_start g i r : exists s, step (start (explicit whole) g i) s /\ sim (MAt None r (mkst [] (fun x => VC (g x)) [] i)) s.
Proof.
  exists (Ev (explicit b) rT [] (mkst [] (fun x => VC (g x)) [] i)). split; [apply st_fix|]. destruct generated as (_ & c & cs & Cc & _ & Ep). 
  assert (B : a_body [] b) by (left; auto). apply (sim_at None [] b (TReg O) [] c rT r _ _ B); [cbn; rewrite Ep; reflexivity | exact Cc | apply (rd_tails _ _ _ _ Rd) | exact Logic.I| |].
  - intros y Fy Gy. unfold var_rel. destruct (in_dec id_dec y ls) as [I|I]; [reflexivity|]. exfalso. assert (global_id y = true); [|congruence]. apply Cl. eapply free_part; [now left | exact I | exact Fy].
  - split; [split; [constructor|split; [intros x; constructor|split; reflexivity]]|]. intros lb x _. left. now exists (g x).
Qed.
Lemma R_out ws w : R ws w -> out ws = out w.
Proof. intros ((_ & _ & O & _) & _). exact O. Qed.
Lemma sim_out t s : sim t s -> out (mem s) = out (mmem t).
Proof. intros X. destruct X; cbn; now apply R_out. Qed.
Theorem code_ok : implements P order junk dot (explicit whole) prog.
Proof.
  intros g i r s0 t0. destruct (sim_start g i r) as (s & S1 & X). fold s0 in S1. fold t0 in X.
  assert (Rch : forall t, mstar t0 t -> wrong s0 \/ exists s', star s0 s' /\ sim t s').
  { intros t M. destruct (sim_star _ _ M s X) as [Z|(s' & Z & Y)]; [left; eapply wrong_star; [apply star_one, S1 | exact Z]|]. right. exists s'. split; [econstructor; eassumption | assumption]. }
  split; [|split; [|split]].
  - intros t M. destruct (Rch t M) as [Z|(s' & Z & Y)]; [now left|]. right. exists s'. split; [assumption | now apply sim_out].
  - intros v' w M. destruct (Rch _ M) as [Z|(s' & Z & Y)]; [now left|]. right. inversion Y as [|v u w1 ws V W E1 E2]; subst. exists (Halted v ws), v. split; [assumption|]. split; [constructor|]. split; [eapply vrel_shape; eauto|].
    split; [now apply (sim_out (MHalt v' w) (Halted v ws))|]. intros x. destruct W as ((_ & G & _) & _). eapply vrel_shape. apply G.
  - intros t M. destruct (Rch t M) as [Z|(s' & Z & Y)]; [now right; right|]. destruct t as [lab r1 w|v w]; [|right; left; eauto].
    destruct (sim_step lab r1 w s' Y) as [Q|(Q & _)]; [right; right; eapply wrong_star; eauto | now left].
  - intros Ru. eapply sim_forever; [apply star_one, S1 | exact X | exact Ru].
Qed.
End Run.
