(** The simulation between programs and their converted forms. *)
From Coq Require Import ZArith List Bool Lia.
From Verif Require Import Model_Lit Model_Core Model_Cps Spec_Sem Spec_Free Spec_Scope Proofs_Sim Proofs_Core Proofs_Free Proofs_Agree Proofs_Assign Proofs_Lift Proofs_Cps.
Import ListNotations.
Open Scope Z_scope.

Section Run.
Variable P : prim -> script.
Notation SC := (SC P).
Notation LAM := (LAM P).
Notation CE := (CE P).
Notation LC := (LC P).
Notation FIN := (FIN P).
Notation VR := (VR P).
Notation KK := (KK P).
Notation KL := (KL P).
Notation KE := (KE P).
Notation IT := (IT P).
Notation ER := (ER P).
Notation sr := (sr P).
Notation quick := (quick P).
Notation inev := (inev P MDirect).
Notation star := (star P MDirect).
Variable kc : const.
Hypothesis KT : const_prim P the_ktrap_prim kc.

(** ** Operands on both sides *)
Inductive telem :=
| TT (e e' : exp)                            (** to be evaluated on both sides *)
| TD (v : val) (s' : slot) (v' : val)        (** there in the source; the target has it or gets it at once *)
| TX (s' : slot) (v' : val)                  (** only in the target *)
| TSD (v : val)                              (** only in the source, there *)
| TST (e : exp) (y : id).                    (** a variable that the target reads later *)
Definition srcs (x : telem) : list slot := match x with TT e _ => [STodo e] | TD v _ _ => [SDone v] | TX _ _ => [] | TSD v => [SDone v] | TST e _ => [STodo e] end.
Definition tgts (x : telem) : list slot := match x with TT _ e' => [STodo e'] | TD _ s _ => [s] | TX s _ => [s] | _ => [] end.
Definition harm (r' : env) (s : slot) (v : val) : Prop := s = SDone v \/ exists c, s = STodo c /\ quick r' c v.
Definition tok (r r' : env) (x : telem) : Prop :=
  match x with
  | TT e e' => SC e e' /\ ER (fun x => free_in x e) r r'
  | TD v s' v' => harm r' s' v' /\ VR v v'
  | TX s' v' => harm r' s' v'
  | TSD v => True
  | TST e y => SC e (EVar y) /\ ER (fun x => free_in x e) r r'
  end.
Inductive sk := KP | KX (v' : val) | KD (v : val) | KS (e : exp) (y : id).
Definition skel (x : telem) : sk := match x with TT _ _ | TD _ _ _ => KP | TX _ v' => KX v' | TSD v => KD v | TST e y => KS e y end.
Definition hs (s : slot) : nat := match s with STodo _ => 1 | _ => 0 end.
Definition hm (x : telem) : nat := match x with TD _ s _ | TX s _ => hs s | _ => 0 end.
Definition msr (T : list telem) : nat := list_sum (map hm T).
Definition fs := flat_map srcs.
Definition ft := flat_map tgts.
Definition arr {A} (rv : bool) (l : list A) := if rv then rev l else l.
Definition idx (rv : bool) (T : list telem) : nat := S ((if rv then length T else 0) + msr T).
Lemma fs_app a b : fs (a ++ b) = fs a ++ fs b.
Proof. apply flat_map_app. Qed.
Lemma ft_app a b : ft (a ++ b) = ft a ++ ft b.
Proof. apply flat_map_app. Qed.
Lemma msr_app a b : msr (a ++ b) = (msr a + msr b)%nat.
Proof. unfold msr. rewrite map_app, list_sum_app. reflexivity. Qed.
Lemma ft_split T : forall a s b, ft T = a ++ s :: b -> exists T1 x T2, T = T1 ++ x :: T2 /\ tgts x = [s] /\ a = ft T1 /\ b = ft T2.
Proof.
  induction T as [|x T IH]; intros a s b E.
  - now destruct a.
  - unfold ft in E. cbn [flat_map] in E. fold ft in E. destruct (tgts x) as [|s0 [|]] eqn:G; [| |destruct x; discriminate].
    + destruct (IH _ _ _ E) as (T1 & y & T2 & -> & Y & -> & ->). exists (x :: T1), y, T2. split; [reflexivity|split; [assumption|split; [|reflexivity]]].
      unfold ft. cbn. now rewrite G.
    + destruct a as [|s1 a]; cbn in E.
      * assert (s0 = s) by congruence. subst s0. assert (b = ft T) by congruence. subst b. exists [], x, T. auto.
      * assert (s1 = s0) by congruence. subst s1. assert (E2 : ft T = a ++ s :: b) by congruence. destruct (IH _ _ _ E2) as (T1 & y & T2 & -> & Y & -> & ->). exists (x :: T1), y, T2.
        split; [reflexivity|split; [assumption|split; [|reflexivity]]]. unfold ft. cbn. now rewrite G.
Qed.
Definition la (rv : bool) (T1 T2 : list telem) := if rv then rev (ft T2) else ft T1.
Definition lb (rv : bool) (T1 T2 : list telem) := if rv then rev (ft T1) else ft T2.
Lemma arr_split rv T a s b : arr rv (ft T) = a ++ s :: b -> exists T1 x T2, T = T1 ++ x :: T2 /\ tgts x = [s] /\ a = la rv T1 T2 /\ b = lb rv T1 T2.
Proof.
  destruct rv; cbn [arr la lb]; intros E.
  - assert (E2 : ft T = rev b ++ s :: rev a). { rewrite <- (rev_involutive (ft T)), E, rev_app_distr. cbn. now rewrite <- app_assoc. }
    destruct (ft_split _ _ _ _ E2) as (T1 & x & T2 & -> & X & A & B). exists T1, x, T2. split; [reflexivity|split; [assumption|]].
    rewrite <- A, <- B, !rev_involutive. auto.
  - now apply ft_split.
Qed.
Lemma arr_fill rv T1 x T2 s : tgts x = [s] -> la rv T1 T2 ++ s :: lb rv T1 T2 = arr rv (ft (T1 ++ x :: T2)).
Proof.
  intros X. rewrite ft_app. unfold ft at 2. cbn [flat_map]. rewrite X. destruct rv; cbn [arr la lb]; [|reflexivity].
  rewrite rev_app_distr. cbn [app rev]. rewrite <- app_assoc. reflexivity.
Qed.

(** ** Frames on both sides *)
Inductive oprS : oper -> oper -> Prop :=
| os_if b c b' c' : SC b b' -> SC c c' -> oprS (OIf b c) (OIf b' c')
| os_set x : global_id x = true -> oprS (OSet x) (OSet x)
| os_prim ef p : oprS (OPrim ef p) (OPrim ef p).
Inductive TMP : list sk -> list id -> list exp -> Prop :=
| tm_nil : TMP [] [] []
| tm_p t sks ts es : TMP sks ts es -> TMP (KP :: sks) (t :: ts) (EVar t :: es)
| tm_s e y sks ts es : TMP sks ts es -> TMP (KS e y :: sks) ts (EVar y :: es).
Inductive KIND : list sk -> bool -> oper -> env -> kont -> oper -> env -> kont -> Prop :=
| kd_plain n o o' r K r' TK : oprS o o' -> ER (fun x => op_free x o) r r' -> kb K TK -> KIND (repeat KP n) false o r K o' r' TK
| kd_slet ids ids' b b' r r' K TK n : SC b b' -> ER (fun x => free_in x (ELam ids b)) r r' ->
    ids' = ids \/ (exists x y, ids = [x] /\ ids' = [y] /\ ~ free_in x b /\ ~ free_in y b) -> kb K TK ->
    KIND (KD (VClo ids b r) :: KX (VClo ids' b' r') :: repeat KP n) false OApp r K OApp r' TK
| kd_call kv n r K r' : KK K kv -> KIND (KP :: KX kv :: repeat KP n) false OApp r K OApp r' []
| kd_clet (S : id -> Prop) ids b kexp b' r r' K n : CE S b kexp b' -> (forall x, In x ids -> ~ S x) -> KE S kexp r' K -> ER (fun x => free_in x (ELam ids b)) r r' ->
    KIND (KD (VClo ids b r) :: KX (VClo ids b' r') :: repeat KP n) false OApp r K OApp r' []
| kd_cif (S : id -> Prop) b c kexp b' c' r r' K : CE S b kexp b' -> CE S c kexp c' -> KE S kexp r' K -> ER (fun x => op_free x (OIf b c)) r r' ->
    KIND [KP] false (OIf b c) r K (OIf b' c') r' []
| kd_tmp ef p sks tmps exps r r' K TK : TMP sks tmps exps -> NoDup tmps ->
    (forall t, In t tmps -> global_id t = false /\ forall e y, In (KS e y) sks -> ~ free_in t e /\ t <> y) -> kb K TK ->
    KIND (sks ++ [KX (VClo (rev tmps) (EPrim ef p exps) r')]) true (OPrim ef p) r K OApp r' TK
with kb : kont -> kont -> Prop :=
| kb_base K s1 s2 kv nv r' : harm r' s1 kv -> KK K kv -> harm r' s2 nv -> plain nv -> kb K [Fr OApp [s1; s2] [] r']
| kb_frame T1 T2 rv o r K o' r' TK : Forall (tok r r') T1 -> Forall (tok r r') T2 -> KIND (map skel T1 ++ KP :: map skel T2) rv o r K o' r' TK ->
    kb (Fr o (fs T1) (fs T2) r :: K) (Fr o' (la rv T1 T2) (lb rv T1 T2) r' :: TK)
| kb_ident x r r0 K TK : global_id x = false -> kb K TK -> kb (ident x r r0 :: K) TK.

Definition wid (code : exp) : nat :=
  match code with
  | EApp _ l => length l + list_sum (map (fun e => match e with EPrim _ _ es => length es | _ => 1%nat end) l)
  | _ => 1
  end.
Inductive R : nat -> state -> state -> Prop :=
| r_ce (S : id -> Prop) e kexp code r r' K w w' : CE S e kexp code -> ER (fun x => free_in x e) r r' -> KE S kexp r' K -> sr w w' ->
    R (20 + wid code) (Ev e r K w) (Ev code r' [] w')
| r_lc (S : id -> Prop) kd items rest kexp code l r r' K w w' : LC S kd items rest kexp code -> IT r' items l -> ER (NF kd items rest) r r' -> KE S kexp r' K -> sr w w' ->
    R (20 + wid code) (Args (opk kd) (full kd r (l ++ map STodo rest)) r K w) (Ev code r' [] w')
| r_bev e e' s1 s2 kv nv r r' K w w' : SC e e' -> ER (fun x => free_in x e) r r' -> harm r' s1 kv -> KK K kv -> harm r' s2 nv -> plain nv -> sr w w' ->
    R (2 + hs s1 + hs s2) (Ev e r K w) (Args OApp [s1; s2; STodo e'] r' [] w')
| r_bop T o X es s1 s2 kv nv r r' K w w' : oprS o o -> decomp X = Some (o, es) -> ft T = map STodo es -> map skel T = repeat KP (length T) -> Forall (tok r r') T ->
    ER (fun x => op_free x o) r r' -> harm r' s1 kv -> KK K kv -> harm r' s2 nv -> plain nv -> sr w w' ->
    R (2 + hs s1 + hs s2 + msr T) (Args o (fs T) r K w) (Args OApp [s1; s2; STodo X] r' [] w')
| r_bret v v' s1 s2 kv nv r' K w w' : VR v v' -> harm r' s1 kv -> KK K kv -> harm r' s2 nv -> plain nv -> sr w w' ->
    R (1 + hs s1 + hs s2) (Ret v K w) (Args OApp [s1; s2; SDone v'] r' [] w')
| r_sev e e' r r' K TK w w' : SC e e' -> ER (fun x => free_in x e) r r' -> kb K TK -> sr w w' -> R 0 (Ev e r K w) (Ev e' r' TK w')
| r_args T rv o r K o' r' TK w w' : Forall (tok r r') T -> KIND (map skel T) rv o r K o' r' TK -> sr w w' ->
    R (idx rv T) (Args o (fs T) r K w) (Args o' (arr rv (ft T)) r' TK w')
| r_ret v v' K TK w w' : VR v v' -> kb K TK -> sr w w' -> R 9 (Ret v K w) (Ret v' TK w')
| r_halt v v' w w' : VR v v' -> sr w w' -> R 0 (Halted v w) (Halted v' w')
| r_end v v' w w' : VR v v' -> sr w w' -> R 0 (Ret v [] w) (Halted v' w').
Notation good := (good P MDirect MDirect R).
Notation next := (next P MDirect R).

(** ** Environments *)
Lemma er_impl (F G : id -> Prop) r r' : (forall x, G x -> F x) -> ER F r r' -> ER G r r'.
Proof. intros H A x X. apply A. auto. Qed.
Lemma bind_both xs : forall vs vs' r r' h r1 h1, Forall2 VR vs vs' -> bind MDirect xs vs r h = Some (r1, h1) -> h1 = h /\ exists r1',
  (forall h', bind MDirect xs vs' r' h' = Some (r1', h')) /\
  (forall x, In x xs -> exists v v', lookup r1 x = Some v /\ lookup r1' x = Some v' /\ VR v v') /\
  (forall x, ~ In x xs -> lookup r1 x = lookup r x /\ lookup r1' x = lookup r' x).
Proof.
  induction xs as [|x xs IH]; intros vs vs' r r' h r1 h1 F B.
  - destruct F; [|discriminate]. injection B as <- <-. split; [reflexivity|]. exists r'. split; [reflexivity|split; [easy | auto]].
  - destruct F as [|v v' vs vs' V F]; [discriminate|]. cbn [bind] in B. destruct (IH _ _ _ ((x, v') :: r') _ _ _ F B) as (-> & r1' & B' & C & D).
    split; [reflexivity|]. exists r1'. split; [exact B'|split].
    + intros y I. destruct (in_dec id_dec y xs) as [J|J]; [auto|]. destruct I as [->|I]; [|easy]. destruct (D y J) as (-> & ->). rewrite !lookup_cons, id_eqb_refl. eauto.
    + intros y I. destruct (D y) as (-> & ->); [firstorder|]. assert (N : y <> x) by firstorder congruence. rewrite !lookup_cons, (proj2 (id_eqb_neq _ _) N). auto.
Qed.
Lemma fix_from_both ys : forall i ids lams lams' r r' x, (forall j, VR (VFix ids lams j r) (VFix ids lams' j r')) ->
  (In x ys -> exists v v', lookup (bind_fix_from i ys ids lams r) x = Some v /\ lookup (bind_fix_from i ys ids lams' r') x = Some v' /\ VR v v') /\
  (~ In x ys -> lookup (bind_fix_from i ys ids lams r) x = lookup r x /\ lookup (bind_fix_from i ys ids lams' r') x = lookup r' x).
Proof.
  induction ys as [|y ys IH]; intros i ids lams lams' r r' x H; cbn [bind_fix_from]; [split; [easy | auto]|]. rewrite !lookup_cons.
  destruct (IH (S i) ids lams lams' r r' x H) as (A & B). destruct (id_eqb x y) eqn:Q.
  - split; [eauto|]. intros N. apply id_eqb_eq in Q. subst. exfalso. apply N. now left.
  - apply id_eqb_neq in Q. split; [intros [->|I]; [easy | auto] | intros N; apply B; firstorder].
Qed.
Lemma fix_er ids lams lams' r r' (F : id -> Prop) : Forall2 (fun l l' => LAM (fst l) (snd l) (fst l') (snd l')) lams lams' ->
  ER (fun x => free_in x (EFix ids lams void_exp)) r r' -> ER (fun x => F x /\ ~ In x ids) r r' ->
  ER F (bind_fix ids lams r) (bind_fix ids lams' r').
Proof.
  intros L A B x Fx G. destruct (fix_from_both ids 0 ids lams lams' r r' x) as (C & D); [intros j; now constructor|].
  destruct (in_dec id_dec x ids) as [I|I]; [now apply C|]. unfold bind_fix. destruct (D I) as (-> & ->). now apply B.
Qed.
Lemma fix_void ids lams b x : free_in x (EFix ids lams void_exp) -> free_in x (EFix ids lams b).
Proof.
  intros F. inversion F as [N|ys e' I NI Fe]; subst; [inversion N|]. destruct I as [[= <- <-]|I]; [|apply free_part with ys e'; [now right | assumption..]].
  inversion Fe as [N|? ? I2]; subst; [inversion N | destruct I2].
Qed.
Lemma good_fire n o vs r K w o' vs' r' K' w' :
  (forall s1, firef P MDirect o vs r K w = Some s1 -> exists t1, firef P MDirect o' vs' r' K' w' = Some t1 /\
     inev (out w') (next n (Args o (map SDone vs) r K w)) t1) ->
  good n (Args o (map SDone vs) r K w) (Args o' (map SDone vs') r' K' w').
Proof.
  intros H. destruct (firef P MDirect o vs r K w) as [s1|] eqn:E.
  - destruct (H s1 eq_refl) as (t1 & E' & I). right; right. split; [exists t1; constructor; now apply fire_firef|].
    intros t' S. apply step_done, fire_firef in S. assert (t' = t1) by congruence. now subst.
  - left. apply stuck_fire. intros s S. apply fire_firef in S. congruence.
Qed.
Lemma next_plus n n' s s1 t : step P MDirect s s1 -> R n' s1 t -> next n s t.
Proof. apply next_one. Qed.
Lemma next_here n n' s t : R n' s t -> (n' < n)%nat -> next n s t.
Proof. intros X L. right. exists n', s. split; [assumption|]. right. split; [constructor | assumption]. Qed.
Lemma next_star n n' s s1 t : star s s1 -> R n' s1 t -> (n' < n)%nat -> next n s t.
Proof. intros S X L. right. exists n', s1. split; [assumption|]. right. auto. Qed.
Lemma full_app kd r a b : full kd r (a ++ b) = full kd r a ++ b.
Proof. destruct kd; reflexivity. Qed.
Lemma IT_app r' i1 l1 i2 l2 : IT r' i1 l1 -> IT r' i2 l2 -> IT r' (i1 ++ i2) (l1 ++ l2).
Proof. induction 1; cbn; intros; [assumption | constructor; auto | econstructor; eauto]. Qed.
Lemma sr_out w w' : sr w w' -> out w = out w'.
Proof. intros S. apply S. Qed.
Lemma NF_snoc kd i rest rr x : NF kd (i ++ [IV rr]) rest x -> NF kd i rest x.
Proof.
  intros [A|[(e & e' & I & F)|A]]; [now left| |now right; right]. right; left. apply in_app_iff in I. destruct I as [I|[I|[]]]; [eauto | discriminate].
Qed.

(** ** Calls, and values given to continuations *)
Definition calls (p t : val) : Prop := forall n vs vs' r r' K kv w w', (1 <= n)%nat -> KK K kv -> Forall2 VR vs vs' -> sr w w' ->
  good n (Args OApp (map SDone (p :: vs)) r K w) (Args OApp (map SDone (t :: kv :: vs')) r' [] w').
Definition takes (K : kont) (t : val) : Prop := forall n v v' nv r' w w', (1 <= n)%nat -> VR v v' -> plain nv -> sr w w' ->
  good n (Ret v K w) (Args OApp (map SDone [t; nv; v']) r' [] w').
Definition no_recv (K : kont) : Prop := forall e p r, K <> [Fr (OWith e) [SDone p] [] r].
Lemma run_ident x r r0 K v w : global_id x = false -> plain v -> star (Ret v (ident x r r0 :: K) w) (Ret v K w).
Proof.
  intros G Pl. unfold ident. eapply star_step; [constructor|]. cbn [app].
  eapply star_step; [apply (st_fire P MDirect OApp [VClo [x] (EVar x) r; v]); constructor; reflexivity|]. rewrite set_hp_same.
  apply star_one. constructor. unfold read_var. rewrite G, lookup_cons, id_eqb_refl. now destruct v.
Qed.
Lemma calls_stuck n p vs r K w t : is_proc p = false -> good n (Args OApp (map SDone (p :: vs)) r K w) t.
Proof. intros Q. left. apply stuck_fire. intros s F. apply fire_firef in F. destruct p; discriminate. Qed.
Lemma recv_run e p r v w : star (Ret v [Fr (OWith e) [SDone p] [] r] w) (Args OApp (map SDone [p; v]) [] trap w).
Proof.
  eapply star_step; [constructor|]. cbn [app]. apply star_one. apply (st_fire P MDirect (OWith e) [p; v]). constructor.
Qed.
Lemma enter_lam xs b ys b' r r' vs vs' K kv w w' (F : id -> Prop) n s0 : LAM xs b ys b' -> (forall x, free_in x b -> ~ In x xs -> F x) -> ER F r r' -> KK K kv -> Forall2 VR vs vs' -> sr w w' ->
  forall s1, match bind MDirect xs vs r (hp w) with Some (r1, h1) => Some (Ev b r1 K (set_hp w h1)) | None => None end = Some s1 -> step P MDirect s0 s1 ->
  exists t1, match bind MDirect ys (kv :: vs') r' (hp w') with Some (r1, h1) => Some (Ev b' r1 [] (set_hp w' h1)) | None => None end = Some t1 /\ inev (out w') (next n s0) t1.
Proof.
  intros L FF E KV FV S s1 B ST. destruct L as [S0 xs b k b' G NI NF0 Sk C].
  destruct (bind MDirect xs vs r (hp w)) as [(r1 & h1)|] eqn:Eb; [|discriminate]. assert (s1 = Ev b r1 K (set_hp w h1)) by congruence. subst s1. clear B.
  destruct (bind_both xs vs vs' r ((k, kv) :: r') (hp w) r1 h1 FV Eb) as (-> & r1' & B' & I1 & I2).
  cbn [bind]. rewrite B'. eexists. split; [reflexivity|]. rewrite !set_hp_same in *. apply inev_now. eapply next_one; [exact ST|]. apply r_ce with S0 (EVar k); auto.
  - intros x Fx Gx. destruct (in_dec id_dec x xs) as [I|I]; [auto|]. destruct (I2 x I) as (-> & ->). rewrite lookup_cons.
    assert (N : x <> k) by (intros ->; auto). rewrite (proj2 (id_eqb_neq _ _) N). apply E; auto.
  - apply ke_var with kv; auto. destruct (I2 k NI) as (_ & ->). rewrite lookup_cons, id_eqb_refl. reflexivity.
Qed.
Lemma nth_lams lams lams' i xs b : Forall2 (fun l l' => LAM (fst l) (snd l) (fst l') (snd l')) lams lams' -> nth_error lams i = Some (xs, b) ->
  exists ys b', nth_error lams' i = Some (ys, b') /\ LAM xs b ys b'.
Proof. intros F E. destruct (Forall2_nth _ _ _ _ _ F E) as ((ys & b') & E' & L). eauto. Qed.
Lemma call_take : (forall p t, VR p t -> calls p t) /\
  (forall K t, KK K t -> takes K t /\ forall e p r, K = [Fr (OWith e) [SDone p] [] r] -> is_proc p = false \/ calls p t) /\
  (forall (S : id -> Prop) K ek rr code r', KL S K ek rr code r' -> takes K (VClo [ek; rr] code r') /\ no_recv K) /\
  (forall (S : id -> Prop) k r K, KE S k r K -> True).
Proof.
  apply val_ind2; try (intros; exact Logic.I).
  - intros c n vs vs' r r' K kv w w' Ln KV FV S. apply calls_stuck. reflexivity.
  - intros l n vs vs' r r' K kv w w' Ln KV FV S. apply calls_stuck. reflexivity.
  - intros xs b ys b' r0 r0' L E n vs vs' r r' K kv w w' Ln KV FV S. apply good_fire. intros s1 Fs.
    eapply (enter_lam xs b ys b' r0 r0' vs vs' K kv w w' (fun x => free_in x (ELam xs b))); try eassumption.
    + intros x Fx NI. cbn. eapply free_part; [now left | exact NI | exact Fx].
    + constructor. now apply fire_firef.
  - intros ids lams lams' i r0 r0' L E n vs vs' r r' K kv w w' Ln KV FV S. apply good_fire. intros s1 Fs.
    cbn [firef] in *. destruct (nth_error lams i) as [(xs & b)|] eqn:El; [|discriminate].
    destruct (nth_lams _ _ _ _ _ L El) as (ys & b' & -> & LM).
    eapply (enter_lam xs b ys b' (bind_fix ids lams r0) (bind_fix ids lams' r0') vs vs' K kv w w' (fun x => free_in x b /\ ~ In x xs)); try eassumption.
    + intros x Fx NI. auto.
    + apply fix_er; [assumption | assumption|]. intros x ((Fx & NI) & NJ) G. apply E; [|assumption].
      apply free_part with (ids ++ xs) b; [|rewrite in_app_iff; tauto | assumption]. right. apply in_map_iff. exists (xs, b). split; [reflexivity|]. eapply nth_error_In; eauto.
    + constructor. apply fire_firef. cbn [firef]. now rewrite El.
  - intros K0 t KK0 (TK & RV) CP n vs vs' r r' K kv w w' Ln KV FV S.
    destruct (firef P MDirect OApp (VCont K0 :: vs) r K w) as [s1|] eqn:Fs; [|left; apply stuck_fire; intros s2 S2; apply fire_firef in S2; congruence].
    pose proof Fs as Fs2. cbn [firef] in Fs. apply throwf_inv in Fs. destruct Fs as [(v & -> & ->)|(e & p & r1 & NL & -> & ->)].
    + inversion FV as [|? v' ? ? V FV']; subst. inversion FV'; subst. eapply good_star; [apply star_one; constructor; apply fire_firef; exact Fs2|].
      apply TK; auto. eapply KK_plain; eauto.
    + eapply good_star; [apply star_one; constructor; apply fire_firef; exact Fs2|]. destruct (RV _ _ _ eq_refl) as [Q|C].
      * now apply calls_stuck.
      * apply C; auto. apply kk_trap; [reflexivity | eapply KK_plain; eauto].
  - intros S0 K ek rr code r' _ (A & B). split; [assumption|]. intros e p r ->. now contradiction (B e p r).
  - intros e v r t Q Pl. split.
    + intros n u u' nv r' w w' Ln U Pn S. eapply good_star; [apply recv_run|]. now apply (calls_stuck _ v [u]).
    + intros e0 p r1 [= <- <- <-]. now left.
  - intros e p r t V C. split.
    + intros n u u' nv r' w w' Ln U Pn S. eapply good_star; [apply recv_run|]. apply (C n [u] [u'] [] r' trap nv w w' Ln); auto.
      apply kk_trap; [reflexivity | assumption].
    + intros e0 p0 r1 [= <- <- <-]. now right.
  - intros x r r0 K t G KK0 (A & _). split; [|discriminate].
    intros n u u' nv r' w w' Ln U Pn S. eapply good_star; [apply run_ident; [assumption | apply (VR_plain _ _ _ U)]|]. now apply A.
  - intros S0 ek rr r' G. split; [|discriminate]. intros n u u' nv r1 w w' Ln U Pn S. right; right.
    assert (Fi : firef P MDirect OApp [VClo [ek; rr] (halt_exp (EVar rr)) r'; nv; u'] r1 [] w' = Some (Ev (halt_exp (EVar rr)) ((rr, u') :: (ek, nv) :: r') [] w')) by (cbn; now rewrite set_hp_same).
    split; [eexists; constructor; apply fire_firef; exact Fi|]. intros t' St. apply step_done, fire_firef in St. rewrite Fi in St. injection St as <-.
    eapply inev_ev; [reflexivity | reflexivity|]. cbn [map]. apply inev_pick1; [reflexivity|].
    apply quick_var with (v := u'); [assumption | now rewrite lookup_cons, id_eqb_refl | apply (VR_plain _ _ _ U) | reflexivity|].
    apply inev_ret; [reflexivity|]. cbn [app]. eapply (inev_fire P MDirect _ _ (OPrim EAny the_halt_prim) [u']); [reflexivity| |].
    { cbn [firef]. destruct (zlist_dec the_halt_prim the_halt_prim) as [_|Q]; [reflexivity | now contradiction Q]. }
    apply inev_now. apply next_here with 0%nat; [now constructor | lia].
  - intros S0 S1 kd i1 rest kexp l1 r K ek rr code r' C I E KE0 _ G D. split.
    2:{ intros e p r1 [= Eo Ef Er _ EK]. destruct kd as [o|ids b]; cbn in *; [|discriminate]. subst o l1. destruct rest; [|discriminate].
        inversion C as [? ? ? ? ? FI| |]; subst. inversion I as [|? ? ? ? ? ? I2|? ? ? ? ? ? ? ? ? I2]; subst. inversion I2; subst. cbn in FI. inversion FI. }
    intros n u u' nv r1 w w' Ln U Pn S. right; right.
    assert (Fi : firef P MDirect OApp [VClo [ek; rr] code r'; nv; u'] r1 [] w' = Some (Ev code ((rr, u') :: (ek, nv) :: r') [] w')) by (cbn; now rewrite set_hp_same).
    split; [eexists; constructor; apply fire_firef; exact Fi|]. intros t' St. apply step_done, fire_firef in St. rewrite Fi in St. injection St as <-.
    apply inev_now. eapply next_one; [constructor|]. rewrite <- full_app.
    assert (LK : forall x, x <> ek -> x <> rr -> lookup ((rr, u') :: (ek, nv) :: r') x = lookup r' x).
    { intros x N1 N2. rewrite !lookup_cons, (proj2 (id_eqb_neq _ _) N1), (proj2 (id_eqb_neq _ _) N2). reflexivity. }
    replace (l1 ++ SDone u :: map STodo rest) with ((l1 ++ [SDone u]) ++ map STodo rest) by now rewrite <- app_assoc.
    apply r_lc with S1 (i1 ++ [IV rr]) kexp; auto.
    + apply IT_app; [|apply it_v with u'; [now rewrite lookup_cons, id_eqb_refl | assumption | assumption | constructor] ].
      eapply IT_ext; [exact I|]. intros x Ix. apply LK; apply (D x); auto.
    + eapply ER_ext; [|eapply er_impl; [|exact E]]; cbn.
      * intros x Nx. apply NF_snoc in Nx. apply LK; apply (D x); auto.
      * intros x. apply NF_snoc.
    + eapply KE_ext; [exact KE0|]. intros x Sx. apply LK; apply (D x); auto.
  - intros S0 S1 x e2 kexp r r0 K ek y code r' C N E KE0 _ D. split; [|discriminate].
    intros n u u' nv r1 w w' Ln U Pn S. right; right.
    assert (Fi : firef P MDirect OApp [VClo [ek; y] code r'; nv; u'] r1 [] w' = Some (Ev code ((y, u') :: (ek, nv) :: r') [] w')) by (cbn; now rewrite set_hp_same).
    split; [eexists; constructor; apply fire_firef; exact Fi|]. intros t' St. apply step_done, fire_firef in St. rewrite Fi in St. injection St as <-.
    assert (LK : forall z, z <> ek -> z <> y -> lookup ((y, u') :: (ek, nv) :: r') z = lookup r' z).
    { intros z N1 N2. rewrite !lookup_cons, (proj2 (id_eqb_neq _ _) N1), (proj2 (id_eqb_neq _ _) N2). reflexivity. }
    apply inev_now. right. exists (20 + wid code)%nat, (Ev e2 ((x, u) :: r) K w). split.
    + apply r_ce with S1 kexp; auto.
      * intros z Fz Gz. rewrite LK; [|apply (D z); auto ..]. rewrite lookup_cons. assert (Nz : z <> x) by (intros ->; auto). rewrite (proj2 (id_eqb_neq _ _) Nz). now apply E.
      * eapply KE_ext; [exact KE0|]. intros z Sz. apply LK; apply (D z); auto.
    + left. econstructor; [constructor|]. cbn [app]. apply star_one. apply (st_fire P MDirect OApp [VClo [x] e2 r; u]). rewrite <- (set_hp_same w) at 2. constructor. reflexivity.
Qed.

(** ** Converted code *)
Lemma free_decomp e o l x : decomp e = Some (o, l) -> op_free x o \/ (exists e1, In e1 l /\ free_in x e1) -> free_in x e.
Proof. intros D H. eapply need_decomp; [exact D|]. destruct H as [H|(e1 & I & F)]; [now left|]. right. exists e1. split; [now apply in_map | assumption]. Qed.
Lemma NF_nil o l x : NF (KOp o) [] l x -> op_free x o \/ exists e1, In e1 l /\ free_in x e1.
Proof. intros [A|[(e1 & e2 & [] & _)|A]]; auto. Qed.
Lemma eval_op1 ids b l r K w : star (Ev (EApp (ELam ids b) l) r K w) (Args OApp (SDone (VClo ids b r) :: map STodo l) r K w).
Proof.
  eapply star_step; [now apply st_args|]. cbn [map]. eapply star_step; [apply (st_pick P MDirect OApp [])|]. eapply star_step; [apply st_lam|].
  apply star_one. apply (st_ret P MDirect _ OApp []).
Qed.
Lemma let1 o0 (Q : state -> Prop) r' k kexp kv code K w : out w = o0 -> quick r' kexp kv -> inev o0 Q (Ev code ((k, kv) :: r') K w) ->
  inev o0 Q (Args OApp [STodo (ELam [k] code); STodo kexp] r' K w).
Proof.
  intros O H I.
  assert (F : inev o0 Q (Args OApp (map SDone [VClo [k] code r'; kv]) r' K w)).
  { eapply inev_fire; [assumption | reflexivity|]. cbn. now rewrite set_hp_same. }
  eapply inev_step; [assumption | apply (st_pick P MDirect OApp [])|]. intros t' S. apply step_args in S.
  destruct S as [(a & e & b & E & ->)|(vs & E & _)]; [|destruct vs; discriminate].
  destruct a as [|s a]; [|destruct a as [|s2 a]; [|destruct a; discriminate]]; injection E as <- <-; [|subst b].
  - apply quick_lam; [assumption|]. apply inev_ret; [assumption|]. cbn [app].
    eapply inev_det; [assumption | apply (st_pick P MDirect OApp [SDone (VClo [k] code r')] kexp [])| |].
    + intros t' S. apply step_args in S. destruct S as [(a & e & b & E & ->)|(vs & E & _)].
      * destruct a as [|s a]; [discriminate|]. injection E as <- E. destruct a as [|s2 a]; [|destruct a; discriminate]. injection E as <- <-. reflexivity.
      * destruct vs as [|? [|]]; discriminate.
    + apply H; [assumption|]. apply inev_ret; [assumption|]. exact F.
  - apply H; [assumption|]. apply inev_ret; [assumption|]. cbn [app].
    eapply inev_det; [assumption | apply (st_pick P MDirect OApp [] (ELam [k] code) [SDone kv])| |].
    + intros t' S. apply step_args in S. destruct S as [(a & e & b & E & ->)|(vs & E & _)].
      * destruct a as [|s a]; [injection E as <- <-; reflexivity|]. injection E as <- E. destruct a as [|s2 a]; [discriminate|destruct a; discriminate].
      * destruct vs as [|? [|]]; discriminate.
    + apply quick_lam; [assumption|]. apply inev_ret; [assumption|]. exact F.
Qed.
Lemma items_T r r' items l : IT r' items l -> ER (fun x => exists e e', In (IS e e') items /\ free_in x e) r r' ->
  exists T, fs T = l /\ ft T = map STodo (map ex items) /\ map skel T = repeat KP (length T) /\ length T = length items /\ Forall (tok r r') T /\ (msr T <= length items)%nat.
Proof.
  induction 1 as [r'|r' e e' items l H I IH|r' x v v' items l L G V I IH]; intros E.
  - exists []. cbn. split; [reflexivity|split; [reflexivity|split; [reflexivity|split; [reflexivity|split; [constructor | auto]]]]].
  - destruct IH as (T & A & B & C & D & F & M); [eapply er_impl; [|exact E]; cbn; intros x (a & b & I1 & I2); eauto|].
    exists (TT e e' :: T). unfold fs, ft, msr in *. cbn. rewrite A, B, C, D. split; [reflexivity|split; [reflexivity|split; [reflexivity|split; [reflexivity|split; [|unfold list_sum in M; lia]]]]].
    constructor; [|assumption]. split; [assumption|]. eapply er_impl; [|exact E]. cbn. eauto.
  - destruct IH as (T & A & B & C & D & F & M); [eapply er_impl; [|exact E]; cbn; intros y (a & b & I1 & I2); eauto|].
    exists (TD v (STodo (EVar x)) v' :: T). unfold fs, ft, msr in *. cbn. rewrite A, B, C, D. split; [reflexivity|split; [reflexivity|split; [reflexivity|split; [reflexivity|split; [|unfold list_sum in M; lia]]]]].
    constructor; [|assumption]. split; [|assumption]. right. exists (EVar x). split; [reflexivity|]. apply quick_var; auto. apply (VR_plain _ _ _ V).
Qed.
Lemma quick_noreturn r' : quick r' noreturn_exp (VC kc).
Proof. now apply quick_prim. Qed.
Definition okCE (S : id -> Prop) e kexp code := forall r r' K w w', ER (fun x => free_in x e) r r' -> KE S kexp r' K -> sr w w' ->
  good (20 + wid code) (Ev e r K w) (Ev code r' [] w').
Definition okLC (S : id -> Prop) kd items rest kexp code := forall l r r' K w w', IT r' items l -> ER (NF kd items rest) r r' -> KE S kexp r' K -> sr w w' ->
  good (20 + wid code) (Args (opk kd) (full kd r (l ++ map STodo rest)) r K w) (Ev code r' [] w').
Definition okFIN (S : id -> Prop) kd items kexp code := forall l r r' K w w', IT r' items l -> ER (NF kd items []) r r' -> KE S kexp r' K -> sr w w' ->
  good (20 + wid code) (Args (opk kd) (full kd r l) r K w) (Ev code r' [] w').
Lemma good_enter n s code t1 r' w' : step P MDirect (Ev code r' [] w') t1 -> inev (out w') (next n s) t1 -> good n s (Ev code r' [] w').
Proof. intros S I. right; right. split; [now exists t1|]. intros t' S'. apply step_evf in S, S'. assert (t' = t1) by congruence. now subst. Qed.
Lemma code_good : (forall (S : id -> Prop) e kexp code, CE S e kexp code -> okCE S e kexp code) /\
  (forall (S : id -> Prop) kd items rest kexp code, LC S kd items rest kexp code -> okLC S kd items rest kexp code) /\
  (forall (S : id -> Prop) kd items kexp code, FIN S kd items kexp code -> okFIN S kd items kexp code).
Proof.
  apply code_ind.
  - intros S e e' kexp H r r' K w w' E KE0 W. destruct (KE_quick _ _ _ _ _ KE0) as (kv & A & B).
    eapply good_enter; [now apply st_args|]. apply inev_now. apply next_here with (2 + 1 + 1)%nat; [|cbn; lia].
    apply (r_bev e e' (STodo kexp) (STodo noreturn_exp) kv (VC kc)); auto; try exact Logic.I.
    + right. eauto.
    + right. exists noreturn_exp. split; [reflexivity | apply quick_noreturn].
  - intros S e o l kexp code D L IH r r' K w w' E KE0 W. eapply good_star; [apply star_one; apply st_args; exact D|].
    apply (IH [] r r' K w w'); auto; [constructor|]. eapply er_impl; [|exact E]. cbn. intros x X. eapply free_decomp; [exact D | now apply NF_nil].
  - intros S S' a b c k kexp code G N Sk L IH r r' K w w' E KE0 W. destruct (KE_quick _ _ _ _ _ KE0) as (kv & A & B).
    eapply good_enter; [now apply st_args|]. cbn [map]. apply let1 with kv; auto. apply inev_now. eapply next_one; [now apply st_args|].
    apply (r_lc S' (KOp (OIf b c)) [] [a] (EVar k) code []); auto; [constructor| |].
    + intros x X Gx. assert (F : free_in x (EIf a b c)) by (eapply free_decomp; [reflexivity | now apply NF_nil]).
      rewrite lookup_cons. assert (Nx : x <> k) by (intros ->; auto). rewrite (proj2 (id_eqb_neq _ _) Nx). now apply E.
    + apply ke_var with kv; auto. now rewrite lookup_cons, id_eqb_refl.
  - intros S ids b l kexp code L IH r r' K w w' E KE0 W. eapply good_star; [apply eval_op1|].
    apply (IH [] r r' K w w'); auto; [constructor|]. eapply er_impl; [|exact E]. cbn. intros x [X|[(e1 & e2 & [] & _)|(e1 & I & X)]].
    + eapply free_decomp; [reflexivity|]. right. exists (ELam ids b). split; [now left | exact X].
    + eapply free_decomp; [reflexivity|]. right. exists e1. split; [now right | exact X].
  - intros S ids lams lams' b b' kexp D L C IH r r' K w w' E KE0 W. eapply good_enter; [apply st_fix|]. apply inev_now.
    eapply next_one; [apply st_fix|]. apply r_ce with S kexp; auto.
    + apply fix_er; [assumption|eapply er_impl; [|exact E]; intros x; apply fix_void|]. eapply er_impl; [|exact E]. cbn. intros x (X & Y). eapply free_part; [now left|assumption..].
    + eapply KE_ext; [exact KE0|]. intros x X. unfold bind_fix.
      assert (NI : ~ In x ids) by (intros I; now apply (D x I)). clear - NI.
      assert (G : forall ys i, ~ In x ys -> lookup (bind_fix_from i ys ids lams' r') x = lookup r' x).
      { induction ys as [|y ys IH]; intros i N; [reflexivity|]. cbn [bind_fix_from]. rewrite lookup_cons.
        assert (Nx : x <> y) by (intros ->; apply N; now left). rewrite (proj2 (id_eqb_neq _ _) Nx). apply IH. firstorder. }
      now apply G.
  - intros S b kexp code C IH r r' K w w' E KE0 W. eapply good_star.
    { eapply star_trans; [apply eval_op1|]. cbn [map]. apply star_one. apply (st_fire P MDirect OApp [VClo [] b r]). constructor. reflexivity. }
    rewrite set_hp_same. apply IH; auto. eapply er_impl; [|exact E]. cbn. intros x X.
    eapply free_part; [now left|easy|]. eapply free_part; [now left|easy|assumption].
  - intros S x e kexp code G C IH r r' K w w' E KE0 W. eapply good_star.
    { eapply star_trans; [apply eval_op1|]. cbn [map]. apply star_one. apply (st_pick P MDirect OApp [SDone (VClo [x] (EVar x) r)] e []). }
    apply IH; auto.
    + eapply er_impl; [|exact E]. cbn. intros y X. eapply free_part; [right; now left|easy|assumption].
    + now apply (ke_ident P S kexp x r r).
  - intros S S1 x e1 e2 kexp ek y code2 code N D C2 IH2 C1 IH1 r r' K w w' E KE0 W. eapply good_star.
    { eapply star_trans; [apply eval_op1|]. cbn [map]. apply star_one. apply (st_pick P MDirect OApp [SDone (VClo [x] e2 r)] e1 []). }
    apply IH1; auto.
    + eapply er_impl; [|exact E]. cbn. intros z X. eapply free_part; [right; now left|easy|assumption].
    + apply ke_lam. apply kl_begin with S kexp; auto. apply (er_impl _ _ _ _ (fun z X => X)). eapply er_impl; [|exact E]. cbn. intros z X.
      eapply free_part; [now left|easy|]. eapply free_part; [now left| |exact X]. intros [->|[]]. auto.
  - intros S S' x b kexp code G Sx C IH r r' K w w' E KE0 W. destruct (KE_quick _ _ _ _ _ KE0) as (kv & A & B).
    destruct (capturable K) eqn:Cp.
    2:{ left. apply stuck_ev. cbn [evf]. now rewrite Cp. }
    eapply good_enter; [now apply st_args|]. cbn [map]. apply let1 with kv; auto. apply inev_now. eapply next_one; [now apply st_letcc|].
    rewrite set_hp_same. apply r_ce with S' (EVar x); auto.
    + intros y F Gy. rewrite !lookup_cons. destruct (id_eqb y x) eqn:Q.
      * exists (VCont K), kv. repeat split. now apply vr_cont.
      * apply E; [|assumption]. eapply free_part; [now left| |exact F]. apply id_eqb_neq in Q. firstorder congruence.
    + apply ke_var with kv; auto. now rewrite lookup_cons, id_eqb_refl.
  - intros S kd items kexp code F IH l r r' K w w' I E KE0 W. cbn [map]. rewrite app_nil_r. now apply IH.
  - intros S kd items e e' rest kexp code H L IH l r r' K w w' I E KE0 W. cbn [map].
    replace (l ++ STodo e :: map STodo rest) with ((l ++ [STodo e]) ++ map STodo rest) by now rewrite <- app_assoc.
    apply IH; auto.
    + apply IT_app; [assumption|]. constructor; [assumption | constructor].
    + eapply er_impl; [|exact E]. cbn. intros x [X|[(e1 & e2 & J & X)|(e1 & J & X)]].
      * now left.
      * apply in_app_iff in J. destruct J as [J|[[= <- <-]|[]]]; [right; left; eauto|]. right; right. exists e. split; [now left | assumption].
      * right; right. exists e1. split; [now right | assumption].
  - intros S S1 kd items e rest kexp rr ek code2 code G D L IHL C IHC l r r' K w w' I E KE0 W. cbn [map]. rewrite full_app.
    eapply good_star; [apply star_one; constructor|]. apply IHC; auto.
    + eapply er_impl; [|exact E]. cbn. intros x X. right; right. exists e. split; [now left | assumption].
    + apply ke_lam. apply kl_frame with S items kexp; auto. apply (er_impl _ _ _ _ (fun z X => X)). eapply er_impl; [|exact E]. cbn.
      intros x [X|[X|(e1 & J & X)]]; [now left | now right; left |]. right; right. exists e1. split; [now right | assumption].
  - intros S b c b' c' it kexp Cb _ Cc _ l r r' K w w' I E KE0 W.
    destruct (items_T r r' [it] l I) as (T & A & B & C & D & F & M); [eapply er_impl; [|exact E]; intros x X; right; now left|].
    eapply good_enter; [now apply st_args|]. apply inev_now. apply next_here with (idx false T); [|unfold idx; cbn in *; lia].
    change (full (KOp (OIf b c)) r l) with l. rewrite <- A. cbn [map] in *. rewrite <- B. apply (r_args T false); auto. rewrite C, D. cbn.
    apply kd_cif with S kexp; auto. eapply er_impl; [|exact E]. intros x X. now left.
  - intros S x it kexp G l r r' K w w' I E KE0 W. destruct (KE_quick _ _ _ _ _ KE0) as (kv & Qk & KV).
    destruct (items_T r r' [it] l I) as (T & A & B & C & D & F & M); [eapply er_impl; [|exact E]; intros y X; right; now left|].
    eapply good_enter; [now apply st_args|]. apply inev_now. change (full (KOp (OSet x)) r l) with l. rewrite <- A.
    apply next_here with (2 + 1 + 1 + msr T)%nat; [|cbn in *; lia]. cbn [map opk].
    apply (r_bop T (OSet x) (ESet x (ex it)) [ex it] (STodo kexp) (STodo noreturn_exp) kv (VC kc)); auto; try exact Logic.I; try reflexivity.
    + now constructor.
    + eapply er_impl; [|exact E]. intros y X. now left.
    + right. eauto.
    + right. exists noreturn_exp. split; [reflexivity | apply quick_noreturn].
  - intros S ef p items kexp l r r' K w w' I E KE0 W. destruct (KE_quick _ _ _ _ _ KE0) as (kv & Qk & KV).
    destruct (items_T r r' items l I) as (T & A & B & C & D & F & M); [eapply er_impl; [|exact E]; intros y X; right; now left|].
    eapply good_enter; [now apply st_args|]. apply inev_now. change (full (KOp (OPrim ef p)) r l) with l. rewrite <- A.
    apply next_here with (2 + 1 + 1 + msr T)%nat; [|cbn; rewrite map_length; lia]. cbn [map opk].
    apply (r_bop T (OPrim ef p) (EPrim ef p (map ex items)) (map ex items) (STodo kexp) (STodo noreturn_exp) kv (VC kc)); auto; try exact Logic.I; try reflexivity.
    + now constructor.
    + easy.
    + right. eauto.
    + right. exists noreturn_exp. split; [reflexivity | apply quick_noreturn].
  - intros S it items kexp l r r' K w w' I E KE0 W. destruct (KE_quick _ _ _ _ _ KE0) as (kv & Qk & KV).
    destruct (items_T r r' (it :: items) l I) as (T & A & B & C & D & F & M); [eapply er_impl; [|exact E]; intros y X; right; now left|].
    eapply good_enter; [now apply st_args|]. apply inev_now. change (full (KOp OApp) r l) with l. cbn [opk]. destruct T as [|x T]; [discriminate|].
    assert (FS : fs (x :: TX (STodo kexp) kv :: T) = l) by (rewrite <- A; unfold fs; cbn; reflexivity).
    assert (X : tgts x = [STodo (ex it)] /\ ft T = map STodo (map ex items)).
    { inversion F as [|? ? Tx ?]; subst. unfold ft in *. cbn in B, C. destruct x; cbn in C; try discriminate; cbn in B; cbn; split; congruence. }
    destruct X as (X & FT).
    assert (FT2 : ft (x :: TX (STodo kexp) kv :: T) = map STodo (ex it :: kexp :: map ex items)).
    { unfold ft in *. cbn. rewrite X, FT. reflexivity. }
    rewrite <- FS, <- FT2. apply next_here with (idx false (x :: TX (STodo kexp) kv :: T)).
    + apply (r_args (x :: TX (STodo kexp) kv :: T) false); auto.
      * inversion F; subst. constructor; [assumption|constructor; [|assumption]]. right. eauto.
      * cbn in C. injection C as C1 C2. cbn [map]. rewrite C1, C2. now apply kd_call.
    + unfold idx, msr in *. cbn in *. rewrite map_length. lia.
  - intros S ids b b' items kexp D0 Cb _ l r r' K w w' I E KE0 W.
    destruct (items_T r r' items l I) as (T & A & B & C & D & F & M); [eapply er_impl; [|exact E]; intros y X; right; now left|].
    eapply good_enter; [now apply st_args|]. apply inev_now. cbn [opk full].
    set (T2 := TSD (VClo ids b r) :: TX (STodo (ELam ids b')) (VClo ids b' r') :: T).
    assert (FS : fs T2 = SDone (VClo ids b r) :: l) by (rewrite <- A; reflexivity).
    assert (FT : ft T2 = map STodo (ELam ids b' :: map ex items)) by (cbn [map]; rewrite <- B; reflexivity).
    rewrite <- FS, <- FT. apply next_here with (idx false T2).
    + apply (r_args T2 false); auto.
      * constructor; [exact Logic.I|constructor; [|assumption]]. right. exists (ELam ids b'). split; [reflexivity | apply quick_lam].
      * unfold T2. cbn [map skel]. rewrite C. apply kd_clet with S kexp; auto. eapply er_impl; [|exact E]. intros x X. now left.
    + unfold T2, idx, msr, list_sum in *. cbn [wid map hm hs fold_right]. unfold list_sum. rewrite map_length. lia.
  - intros S S' e x kexp code Sx C IH l r r' K w w' I E KE0 W.
    inversion I as [|? ? ? ? ? ? I2|? ? v v' ? ? L G V I2]; subst. inversion I2; subst. cbn [opk full].
    eapply good_star; [apply star_one; apply (st_fire P MDirect (OWith e) [v]); constructor|].
    apply IH; auto.
    + eapply er_impl; [|exact E]. intros y Y. now left.
    + apply ke_var with v'; auto. now apply KK_of.
  - intros S S' e x kexp code G Sx C IH l r r' K w w' I E KE0 W.
    inversion I as [|? ? ? ? ? SV I2|]; subst. inversion I2; subst. cbn [opk full].
    destruct (E x) as (v & v' & L & L' & V); [right; left; exists (EVar x), (EVar x); split; [now left | repeat constructor] | assumption|].
    eapply good_star.
    { eapply star_step; [apply (st_pick P MDirect (OWith e) [] (EVar x) [])|]. eapply star_step.
      - apply (st_var P MDirect x v). unfold read_var. rewrite G, L. pose proof (VR_plain _ _ _ V) as (Pl & _). now destruct v.
      - eapply star_step; [constructor|]. cbn [app]. apply star_one; apply (st_fire P MDirect (OWith e) [v]); constructor. }
    apply IH; auto.
    + eapply er_impl; [|exact E]. intros y Y. now left.
    + apply ke_var with v'; auto. now apply KK_of.
  - intros S S' e xs b ys b' kexp code L FS C IH l r r' K w w' I E KE0 W.
    inversion I as [|? ? ? ? ? SV I2|]; subst. inversion I2; subst. cbn [opk full].
    eapply good_star.
    { eapply star_step; [apply (st_pick P MDirect (OWith e) [] (ELam xs b) [])|]. eapply star_step; [apply st_lam|].
      eapply star_step; [constructor|]. cbn [app]. apply star_one; apply (st_fire P MDirect (OWith e) [VClo xs b r]); constructor. }
    apply IH; auto.
    + eapply er_impl; [|exact E]. intros y Y. now left.
    + apply ke_proc; auto. apply (er_impl _ _ _ _ (fun z X => X)). eapply er_impl; [|exact E]. intros y Y. right; left. exists (ELam xs b), (ELam ys b'). split; [now left | exact Y].
  - intros S S' e ef p c kexp code CP C IH l r r' K w w' I E KE0 W.
    inversion I as [|? ? ? ? ? SV I2|]; subst. inversion I2; subst. cbn [opk full].
    eapply good_star.
    { eapply star_step; [apply (st_pick P MDirect (OWith e) [] (EPrim ef p []) [])|]. eapply star_step; [now apply st_args|]. cbn [map].
      eapply star_step; [apply (st_fire P MDirect (OPrim ef p) []); apply fi_prim; [apply CP | rewrite (proj1 CP); reflexivity]|].
      eapply star_step; [constructor|]. cbn [app]. apply star_one; apply (st_fire P MDirect (OWith e) [VC c]); constructor. }
    apply IH; auto.
    + eapply er_impl; [|exact E]. intros y Y. now left.
    + now apply ke_const.
Qed.

(** ** Simple expressions *)
Lemma good_picks n s o' l' r' k' w' : (exists e, In (STodo e) l') ->
  (forall a e b, l' = a ++ STodo e :: b -> inev (out w') (next n s) (Ev e r' (Fr o' a b r' :: k') w')) -> good n s (Args o' l' r' k' w').
Proof.
  intros (e & I) H. right; right. apply in_split in I. destruct I as (a & b & ->). split; [eexists; constructor|].
  intros t' S. apply step_args in S. destruct S as [(a1 & e1 & b1 & E & ->)|(vs & E & _)]; [now apply H|]. symmetry in E. now apply done_todo in E.
Qed.
Lemma pick3 a e b s1 s2 s3 : [s1; s2; s3] = a ++ STodo e :: b ->
  s1 = STodo e /\ a = [] /\ b = [s2; s3] \/ s2 = STodo e /\ a = [s1] /\ b = [s3] \/ s3 = STodo e /\ a = [s1; s2] /\ b = [].
Proof.
  intros E. destruct a as [|x1 [|x2 [|x3 a]]]; injection E; intros; subst; auto.
  destruct a; discriminate.
Qed.
Lemma harm_todo r' e v : harm r' (STodo e) v -> quick r' e v.
Proof. intros [E|(c & [= <-] & Q)]; [discriminate | assumption]. Qed.
Lemma harm_done r' v u : harm r' (SDone v) u -> v = u.
Proof. intros [[= ->]|(c & E & _)]; [reflexivity | discriminate]. Qed.
Lemma evf_decomp X o es r k w : decomp X = Some (o, es) -> evf MDirect X r k w = Some (Args o (map STodo es) r k w).
Proof. intros D. destruct X; try discriminate; cbn [evf]; rewrite D; reflexivity. Qed.
Lemma base_good n s x s1 s2 kv nv r' w' : harm r' s1 kv -> harm r' s2 nv -> 
  (forall e s1', s1 = STodo e -> s1' = SDone kv -> inev (out w') (next n s) (Args OApp [s1'; s2; x] r' [] w')) ->
  (forall e s2', s2 = STodo e -> s2' = SDone nv -> inev (out w') (next n s) (Args OApp [s1; s2'; x] r' [] w')) ->
  (forall e, x = STodo e -> inev (out w') (next n s) (Ev e r' [Fr OApp [s1; s2] [] r'] w')) ->
  (exists e, In (STodo e) [s1; s2; x]) -> good n s (Args OApp [s1; s2; x] r' [] w').
Proof.
  intros H1 H2 A B C I. apply good_picks; [assumption|]. intros a e b E. apply pick3 in E. destruct E as [(-> & -> & ->)|[(-> & -> & ->)|(-> & -> & ->)]].
  - apply (harm_todo _ _ _ H1); [reflexivity|]. apply inev_ret; [reflexivity|]. now apply (A e).
  - apply (harm_todo _ _ _ H2); [reflexivity|]. apply inev_ret; [reflexivity|]. now apply (B e).
  - now apply C.
Qed.
Lemma bev_good e e' s1 s2 kv nv r r' K w w' : SC e e' -> ER (fun x => free_in x e) r r' -> harm r' s1 kv -> KK K kv -> harm r' s2 nv -> plain nv -> sr w w' ->
  good (2 + hs s1 + hs s2) (Ev e r K w) (Args OApp [s1; s2; STodo e'] r' [] w').
Proof.
  intros C E H1 KV H2 Pn W. eapply base_good; [exact H1 | exact H2 |..].
  - intros e1 s1' -> ->. apply inev_now. eapply next_here; [apply (r_bev e e' (SDone kv) s2 kv nv); auto; now left | cbn; lia].
  - intros e1 s2' -> ->. apply inev_now. eapply next_here; [apply (r_bev e e' s1 (SDone nv) kv nv); auto; now left | cbn; lia].
  - intros e1 [= <-]. apply inev_now. eapply next_here; [apply r_sev; auto; apply kb_base with kv nv; auto | cbn; lia].
  - exists e'. cbn. auto.
Qed.
Lemma bop_good T o X es s1 s2 kv nv r r' K w w' : oprS o o -> decomp X = Some (o, es) -> ft T = map STodo es -> map skel T = repeat KP (length T) -> Forall (tok r r') T ->
    ER (fun x => op_free x o) r r' -> harm r' s1 kv -> KK K kv -> harm r' s2 nv -> plain nv -> sr w w' ->
    good (2 + hs s1 + hs s2 + msr T) (Args o (fs T) r K w) (Args OApp [s1; s2; STodo X] r' [] w').
Proof.
  intros OS D FT SK F E H1 KV H2 Pn W. eapply base_good; [exact H1 | exact H2 |..].
  - intros e1 s1' -> ->. apply inev_now. eapply next_here; [apply (r_bop T o X es (SDone kv) s2 kv nv); auto; now left | cbn; lia].
  - intros e1 s2' -> ->. apply inev_now. eapply next_here; [apply (r_bop T o X es s1 (SDone nv) kv nv); auto; now left | cbn; lia].
  - intros e1 [= <-]. eapply inev_ev; [reflexivity | apply evf_decomp; exact D|]. rewrite <- FT. apply inev_now.
    eapply next_here; [apply (r_args T false); auto | unfold idx; lia]. rewrite SK. apply kd_plain; auto. apply kb_base with kv nv; auto.
  - exists X. cbn. auto.
Qed.
Lemma bret_good v v' s1 s2 kv nv r' K w w' : VR v v' -> harm r' s1 kv -> KK K kv -> harm r' s2 nv -> plain nv -> sr w w' ->
  good (1 + hs s1 + hs s2) (Ret v K w) (Args OApp [s1; s2; SDone v'] r' [] w').
Proof.
  intros V H1 KV H2 Pn W.
  assert (D : (exists e, In (STodo e) [s1; s2; SDone v']) \/ s1 = SDone kv /\ s2 = SDone nv).
  { destruct s1 as [u1|e1]; [|left; exists e1; cbn; auto]. destruct s2 as [u2|e2]; [|left; exists e2; cbn; auto].
    apply harm_done in H1, H2. subst. auto. }
  destruct D as [D|(-> & ->)].
  - eapply base_good; [exact H1 | exact H2 |..]; [| |discriminate|assumption].
    + intros e1 s1' -> ->. apply inev_now. eapply next_here; [apply (r_bret v v' (SDone kv) s2 kv nv); auto; now left | cbn; lia].
    + intros e1 s2' -> ->. apply inev_now. eapply next_here; [apply (r_bret v v' s1 (SDone nv) kv nv); auto; now left | cbn; lia].
  - destruct (proj1 (proj2 call_take) _ _ KV) as (TK & _). apply (TK _ v v' nv); auto.
Qed.
Lemma ret_good v v' K TK w w' : VR v v' -> kb K TK -> sr w w' -> good 9 (Ret v K w) (Ret v' TK w').
Proof.
  intros V B W. induction B as [K s1 s2 kv nv r' H1 KV H2 Pn|T1 T2 rv o r K o' r' TK F1 F2 KD|x r r0 K TK G B IH].
  - right; right. split; [eexists; constructor|]. intros t' S. apply step_ret in S. subst t'. apply inev_now. cbn [app].
    eapply next_here; [apply (r_bret v v' s1 s2 kv nv); auto|]. destruct s1, s2; cbn; lia.
  - apply good_ret. apply inev_now. eapply next_one; [constructor|].
    replace (fs T1 ++ SDone v :: fs T2) with (fs (T1 ++ TD v (SDone v') v' :: T2)) by now rewrite fs_app.
    rewrite (arr_fill rv T1 (TD v (SDone v') v') T2) by reflexivity. apply r_args; auto.
    + apply Forall_app. split; [assumption|]. constructor; [|assumption]. split; [now left | assumption].
    + now rewrite map_app.
  - eapply good_star; [apply run_ident; [assumption | apply (VR_plain _ _ _ V)]|]. assumption.
Qed.
Lemma specs_T r r' l ps : Forall2 (fun e s => SC e (pexp s)) l ps -> (forall e, In e l -> ER (fun x => free_in x e) r r') ->
  exists T, fs T = map STodo l /\ ft T = map STodo (pvals ps) /\ Forall (tok r r') T /\ TMP (map skel T) (ptmps ps) (pvars ps) /\ 
    forall e y, In (KS e y) (map skel T) -> In e l /\ In (PV y) ps.
Proof.
  induction 1 as [|e s l ps H F IH]; intros E.
  - exists []. split; [reflexivity|split; [reflexivity|split; [constructor|split; [constructor|easy]]]].
  - destruct IH as (T & A & B & C & D & G); [intros; apply E; now right|]. destruct s as [y|t e'].
    + exists (TST e y :: T). unfold fs, ft in *. cbn. rewrite A, B. split; [reflexivity|split; [reflexivity|split; [|split]]].
      * constructor; [|assumption]. split; [assumption|]. apply E. now left.
      * now constructor.
      * intros e1 y1 [[= <- <-]|I]; [auto|]. destruct (G _ _ I). auto.
    + exists (TT e e' :: T). unfold fs, ft in *. cbn. rewrite A, B. split; [reflexivity|split; [reflexivity|split; [|split]]].
      * constructor; [|assumption]. split; [assumption|]. apply E. now left.
      * now constructor.
      * intros e1 y1 [I|I]; [discriminate|]. destruct (G _ _ I). auto.
Qed.
Lemma pairs_T r r' l l' : Forall2 SC l l' -> (forall e, In e l -> ER (fun x => free_in x e) r r') ->
  exists T, fs T = map STodo l /\ ft T = map STodo l' /\ Forall (tok r r') T /\ map skel T = repeat KP (length T).
Proof.
  induction 1 as [|e e' l l' H F IH]; intros E.
  - exists []. split; [reflexivity|split; [reflexivity|split; [constructor | reflexivity]]].
  - destruct IH as (T & A & B & C & D); [intros; apply E; now right|]. exists (TT e e' :: T). unfold fs, ft in *. cbn. rewrite A, B, D.
    split; [reflexivity|split; [reflexivity|split; [|reflexivity]]]. constructor; [|assumption]. split; [assumption|]. apply E. now left.
Qed.
Lemma sev_good e e' : SC e e' -> forall r r' K TK w w', ER (fun x => free_in x e) r r' -> kb K TK -> sr w w' -> good 0 (Ev e r K w) (Ev e' r' TK w').
Proof.
  intros H. pose proof H as H0. revert H0. pattern e, e'. revert e e' H. apply SC_m.
  - intros x _ r r' K TK w w' E B W. apply good_ev. intros s1 Es. cbn [evf] in *. unfold read_var in *. destruct (global_id x) eqn:G.
    + injection Es as <-. eexists. split; [reflexivity|]. apply inev_now. eapply next_one; [apply st_var; unfold read_var; rewrite G; reflexivity|].
      apply r_ret; auto. apply W.
    + destruct (E x) as (v & v' & L & L' & V); [repeat constructor | assumption|]. rewrite L in Es. rewrite L'. pose proof (VR_plain _ _ _ V) as (Pv & Pv').
      assert (Es2 : Some (Ret v K w) = Some s1) by (destruct v; auto; easy). injection Es2 as <-.
      exists (Ret v' TK w'). split; [destruct v'; auto; easy|]. apply inev_now. eapply next_one.
      * apply st_var. unfold read_var. rewrite G, L. destruct v; easy.
      * now apply r_ret.
  - intros x a a' G Ha _ _ r r' K TK w w' E B W. apply good_ev. intros s1 [= <-]. eexists. split; [reflexivity|]. apply inev_now.
    eapply next_one; [now apply st_args|]. cbn [map]. apply (r_args [TT a a'] false); auto.
    + constructor; [|constructor]. split; [assumption|]. eapply er_impl; [|exact E]. cbn. intros y Y. eapply free_part; [now left|easy|assumption].
    + apply (kd_plain 1); auto; [now constructor|]. eapply er_impl; [|exact E]. cbn. intros y ->. apply free_here. constructor.
  - intros a b c a' b' c' Ha _ Hb _ Hc _ _ r r' K TK w w' E B W. apply good_ev. intros s1 [= <-]. eexists. split; [reflexivity|]. apply inev_now.
    eapply next_one; [now apply st_args|]. cbn [map]. apply (r_args [TT a a'] false); auto.
    + constructor; [|constructor]. split; [assumption|]. eapply er_impl; [|exact E]. cbn. intros y Y. eapply free_part; [now left|easy|assumption].
    + apply (kd_plain 1); auto; [now constructor|]. eapply er_impl; [|exact E]. cbn. intros y [Y|Y]; eapply free_part; try exact Y; cbn; auto.
  - intros ef p l ps F ND D _ r r' K TK w w' E B W. apply good_ev. intros s1 [= <-]. eexists. split; [reflexivity|]. apply inev_now.
    destruct (specs_T r r' l ps F) as (T & A & C & G & TM & KS0).
    { intros e1 I. eapply er_impl; [|exact E]. cbn. intros x X. apply free_part with [] e1; [now apply in_map|easy|assumption]. }
    set (clo := VClo (rev (ptmps ps)) (EPrim ef p (pvars ps)) r'). set (lam := ELam (rev (ptmps ps)) (EPrim ef p (pvars ps))).
    eapply next_one; [now apply st_args|].
    replace (map STodo l) with (fs (T ++ [TX (STodo lam) clo])) by (rewrite fs_app, A; cbn; now rewrite app_nil_r).
    replace (map STodo (lam :: rev (pvals ps))) with (arr true (ft (T ++ [TX (STodo lam) clo]))) by (cbn [arr]; rewrite ft_app, C, rev_app_distr; cbn; now rewrite map_rev).
    apply r_args; auto.
    + apply Forall_app. split; [assumption|]. constructor; [|constructor]. right. exists lam. split; [reflexivity | apply quick_lam].
    + rewrite map_app. cbn [map skel]. apply kd_tmp; auto. intros t It. destruct (D t It) as (D1 & D2 & D3). split; [assumption|].
      intros e1 y J. destruct (KS0 _ _ J) as (J1 & J2). split; [now apply D2 | intros ->; auto].
  - intros xs b ys b' L _ r r' K TK w w' E B W. apply good_ev. intros s1 [= <-]. eexists. split; [reflexivity|]. apply inev_now.
    eapply next_one; [apply st_lam|]. apply r_ret; auto. now apply vr_clo.
  - intros ids lams lams' b b' L Hb _ _ r r' K TK w w' E B W. apply good_ev. intros s1 [= <-]. eexists. split; [reflexivity|]. apply inev_now.
    eapply next_one; [apply st_fix|]. apply r_sev; auto. apply fix_er; [assumption|eapply er_impl; [|exact E]; intros x; apply fix_void|].
    eapply er_impl; [|exact E]. cbn. intros x (X & Y). eapply free_part; [now left|assumption..].
  - intros b b' Hb IH _ r r' K TK w w' E B W. eapply good_star.
    { eapply star_trans; [apply eval_op1|]. cbn [map]. apply star_one. apply (st_fire P MDirect OApp [VClo [] b r]). constructor. reflexivity. }
    rewrite set_hp_same. apply IH; auto. eapply er_impl; [|exact E]. cbn. intros x X.
    eapply free_part; [now left|easy|]. eapply free_part; [now left|easy|assumption].
  - intros x e e' G He IH _ r r' K TK w w' E B W. eapply good_star.
    { eapply star_trans; [apply eval_op1|]. cbn [map]. apply star_one. apply (st_pick P MDirect OApp [SDone (VClo [x] (EVar x) r)] e []). }
    apply IH; auto.
    + eapply er_impl; [|exact E]. cbn. intros y X. eapply free_part; [right; now left|easy|assumption].
    + now apply (kb_ident x r r).
  - intros ids ids' l l' b b' F Hb _ D _ r r' K TK w w' E B W. 
    right; right. split; [eexists; now apply st_args|]. intros t' ST. apply step_evf in ST. injection ST as <-. apply inev_now.
    destruct (pairs_T r r' l l' F) as (T & A & C & G & SK).
    { intros e1 I. eapply er_impl; [|exact E]. cbn. intros x X. apply free_part with [] e1; [right; now apply in_map|easy|assumption]. }
    right. exists (idx false (TSD (VClo ids b r) :: TX (STodo (ELam ids' b')) (VClo ids' b' r') :: T)), (Args OApp (SDone (VClo ids b r) :: map STodo l) r K w). split.
    + rewrite <- A. cbn [map]. rewrite <- C. apply (r_args (TSD (VClo ids b r) :: TX (STodo (ELam ids' b')) (VClo ids' b' r') :: T) false); auto.
      * constructor; [exact Logic.I|]. constructor; [|assumption]. right. eexists. split; [reflexivity | apply quick_lam].
      * cbn [map skel]. rewrite SK. apply kd_slet; auto. eapply er_impl; [|exact E]. cbn. intros x X. eapply free_part; [now left|easy|assumption].
    + left. econstructor; [now apply st_args|]. cbn [map]. eapply star_step; [apply (st_pick P MDirect OApp [])|]. eapply star_step; [apply st_lam|].
      apply star_one. apply (st_ret P MDirect _ OApp []).
Qed.

(** ** All operands are there *)
Lemma skel_KP x : skel x = KP -> (exists e e', x = TT e e') \/ exists v s v', x = TD v s v'.
Proof. destruct x; try discriminate; eauto 6. Qed.
Lemma done_KP r r' T : forall n vs', map skel T = repeat KP n -> ft T = map SDone vs' -> Forall (tok r r') T -> exists vs, fs T = map SDone vs /\ Forall2 VR vs vs'.
Proof.
  induction T as [|x T IH]; intros n vs' SK FT F.
  - destruct vs'; [|discriminate]. exists []. split; [reflexivity | constructor].
  - destruct n as [|n]; [discriminate|]. cbn in SK. injection SK as SK1 SK2. inversion F as [|? ? Fx F']; subst. unfold ft in FT. cbn [flat_map] in FT.
    destruct (skel_KP _ SK1) as [(e & e' & ->)|(v & s & v' & ->)]; [destruct vs'; discriminate|].
    destruct vs' as [|u vs']; [discriminate|]. cbn in FT. injection FT as -> FT. destruct Fx as (H & V). apply harm_done in H. subst u.
    destruct (IH n vs' SK2 FT F') as (vs & A & B). exists (v :: vs). split; [unfold fs in *; cbn; now rewrite A | now constructor].
Qed.
Lemma done_KX r r' x v' T vs : skel x = KX v' -> tok r r' x -> ft (x :: T) = map SDone vs -> exists vs1, vs = v' :: vs1 /\ ft T = map SDone vs1 /\ fs (x :: T) = fs T.
Proof.
  intros SK Tx FT. destruct x; try discriminate. cbn in SK. injection SK as ->. cbn in Tx. unfold ft in *. cbn in FT. destruct vs as [|u vs]; [discriminate|].
  cbn in FT. injection FT as -> FT. apply harm_done in Tx. subst u. exists vs. auto.
Qed.
Lemma sr_set w w' x v v' : sr w w' -> VR v v' -> sr (set_gl w x v) (set_gl w' x v').
Proof.
  intros (H & G & O & I) V. split; [|split; [|split]]; cbn; auto. intros y. unfold set_gl. cbn. destruct (id_eqb _ _); auto.
Qed.
Lemma bind_list xs : forall vs r h, length xs = length vs -> NoDup xs ->
  exists r1, bind MDirect xs vs r h = Some (r1, h) /\ Forall2 (fun x v => lookup r1 x = Some v) xs vs /\ forall x, ~ In x xs -> lookup r1 x = lookup r x.
Proof.
  induction xs as [|x xs IH]; intros [|v vs] r h L ND; try discriminate.
  - exists r. split; [reflexivity|split; [constructor | auto]].
  - inversion ND as [|? ? NI ND']; subst. destruct (IH vs ((x, v) :: r) h) as (r1 & A & B & C); auto. exists r1. split; [exact A|split].
    + constructor; [|assumption]. rewrite C by assumption. now rewrite lookup_cons, id_eqb_refl.
    + intros y N. rewrite C by firstorder. rewrite lookup_cons. rewrite (proj2 (id_eqb_neq _ _)); [reflexivity | firstorder congruence].
Qed.
Lemma Forall2_rev {A B} (Q : A -> B -> Prop) l l' : Forall2 Q l l' -> Forall2 Q (rev l) (rev l').
Proof. induction 1; cbn; [constructor|]. apply Forall2_app; auto. Qed.
Lemma tmp_len r r' sks tmps exps : TMP sks tmps exps -> forall T vs, map skel T = sks -> Forall (tok r r') T -> ft T = map SDone vs -> length tmps = length vs.
Proof.
  induction 1 as [|t sks ts es H IH|e y sks ts es H IH]; intros T vs SK F FT; destruct T as [|x T]; try discriminate.
  - destruct vs; [reflexivity | discriminate].
  - cbn in SK. injection SK as SK1 SK2. inversion F; subst. unfold ft in FT. cbn [flat_map] in FT.
    destruct (skel_KP _ SK1) as [(e & e' & ->)|(v & s & v' & ->)]; [destruct vs; discriminate|].
    destruct vs as [|u vs]; [discriminate|]. cbn in FT. injection FT as -> FT. cbn. f_equal. now apply (IH T).
  - cbn in SK. injection SK as SK1 SK2. inversion F; subst. destruct x; try discriminate. unfold ft in FT. cbn [flat_map tgts app] in FT. now apply (IH T).
Qed.
Lemma tmp_T2 r r' r1 sks tmps exps : TMP sks tmps exps -> forall T vs, map skel T = sks -> Forall (tok r r') T -> ft T = map SDone vs ->
  Forall2 (fun t v => lookup r1 t = Some v) tmps vs -> (forall t, In t tmps -> global_id t = false) -> (forall e y, In (KS e y) sks -> ER (fun x => free_in x e) r r' -> ER (fun x => free_in x e) r r1) ->
  exists T2, fs T2 = fs T /\ ft T2 = map STodo exps /\ map skel T2 = repeat KP (length T2) /\ Forall (tok r r1) T2 /\ (msr T2 <= length T)%nat.
Proof.
  induction 1 as [|t sks ts es H IH|e y sks ts es H IH]; intros T vs SK F FT L G E; destruct T as [|x T]; try discriminate.
  - exists []. split; [reflexivity|split; [reflexivity|split; [reflexivity|split; [constructor | auto]]]].
  - cbn in SK. injection SK as SK1 SK2. inversion F as [|? ? Fx F']; subst. unfold ft in FT. cbn [flat_map] in FT.
    destruct (skel_KP _ SK1) as [(e & e' & ->)|(v & s & v' & ->)]; [destruct vs; discriminate|].
    destruct vs as [|u vs]; [discriminate|]. cbn in FT. injection FT as -> FT. destruct Fx as (Hv & V). apply harm_done in Hv. subst u.
    inversion L as [|? ? ? ? L1 L2]; subst.
    destruct (IH T vs eq_refl F' FT L2) as (T2 & A & B & C & D & M); [intros; apply G; now right | intros; apply (E _ y); [now right | assumption]|].
    exists (TD v (STodo (EVar t)) v' :: T2). unfold fs, ft, msr, list_sum in *. cbn. rewrite A, B, C. split; [reflexivity|split; [reflexivity|split; [reflexivity|split; [|lia]]]].
    constructor; [|assumption]. split; [|assumption]. right. exists (EVar t). split; [reflexivity|]. apply quick_var; [apply G; now left | assumption | apply (VR_plain _ _ _ V)].
  - cbn in SK. injection SK as SK1 SK2. inversion F as [|? ? Fx F']; subst. destruct x; try discriminate. cbn in SK1. injection SK1 as -> ->. unfold ft in FT. cbn [flat_map tgts app] in FT.
    destruct (IH T vs eq_refl F' FT L) as (T2 & A & B & C & D & M); [assumption | intros e1 y1 I; apply (E _ y1); now right|].
    exists (TT e (EVar y) :: T2). unfold fs, ft, msr, list_sum in *. cbn. rewrite A, B, C. split; [reflexivity|split; [reflexivity|split; [reflexivity|split; [|lia]]]].
    constructor; [|assumption]. destruct Fx as (F1 & F2). split; [assumption|]. apply (E e y); [now left | assumption].
Qed.
Lemma ft_done_app T1 x vs : ft (T1 ++ [x]) = map SDone vs -> exists vs1 vs2, vs = vs1 ++ vs2 /\ ft T1 = map SDone vs1 /\ ft [x] = map SDone vs2.
Proof. rewrite ft_app. intros E. symmetry in E. apply map_eq_app in E. destruct E as (a & b & -> & A & B). eauto. Qed.
Lemma kind_fire T rv o r K o' r' TK w w' vs : Forall (tok r r') T -> KIND (map skel T) rv o r K o' r' TK -> sr w w' -> ft T = map SDone vs ->
  good (idx rv T) (Args o (fs T) r K w) (Args o' (map SDone (arr rv vs)) r' TK w').
Proof.
  intros F KD W FT. remember (map skel T) as sks eqn:SK. 
  destruct KD as [n o o' r K r' TK OS E B|ids ids' b b' r r' K TK n Cb E D B|kv n r K r' KV|S ids b kexp b' r r' K n C D KE0 E|S b c kexp b' c' r r' K Cb Cc KE0 E|ef p sks tmps exps r r' K TK TM ND D B].
  - destruct (done_KP r r' T n vs (eq_sym SK) FT F) as (us & -> & F2). cbn [arr]. apply good_fire. intros s1 Es.
    assert (ST : step P MDirect (Args o (map SDone us) r K w) s1) by (constructor; now apply fire_firef).
    destruct OS as [b c b' c' Cb Cc|x G|ef p].
    + destruct F2 as [|v v' ? ? V F2]; [discriminate|]. destruct F2; [|discriminate]. cbn [firef] in *. injection Es as <-. eexists. split; [reflexivity|].
      apply inev_now. eapply next_one; [exact ST|]. rewrite <- (VR_true _ _ _ V). destruct (is_true v); apply r_sev; auto; (eapply er_impl; [|exact E]; cbn; auto).
    + destruct F2 as [|v v' ? ? V F2]; [discriminate|]. destruct F2; [|discriminate]. cbn [firef] in *. rewrite G in *. injection Es as <-. eexists. split; [reflexivity|].
      apply inev_now. eapply next_one; [exact ST|]. apply r_ret; auto; [constructor | now apply sr_set].
    + cbn [firef] in *. destruct (zlist_dec p the_halt_prim).
      * destruct F2 as [|v v' ? ? V F2]; [discriminate|]. destruct F2; [|discriminate]. injection Es as <-. eexists. split; [reflexivity|].
        apply inev_now. eapply next_one; [exact ST|]. now apply r_halt.
      * destruct (run (P p) us w) as [(v & w1)|] eqn:Er; [|discriminate]. destruct (run_sr _ _ _ _ _ _ _ _ W F2 Er) as (v' & w1' & -> & W1 & V).
        assert (s1 = Ret v K w1) by congruence. subst s1. eexists. split; [reflexivity|]. apply inev_now. eapply next_one; [exact ST|]. now apply r_ret.
  - destruct T as [|x [|y T]]; try discriminate. cbn in SK. injection SK as S1 S2 S3. destruct x; try discriminate. cbn in S1. injection S1 as <-.
    inversion F as [|? ? _ F1]; subst. inversion F1 as [|? ? Ty F']; subst.
    destruct (done_KX r r' y _ T vs (eq_sym S2) Ty FT) as (vs1 & -> & FT1 & FS). destruct (done_KP r r' T n vs1 (eq_sym S3) FT1 F') as (us & A & F2).
    assert (FS2 : fs (TSD (VClo ids b r) :: y :: T) = map SDone (VClo ids b r :: us)).
    { change (SDone (VClo ids b r) :: fs (y :: T) = map SDone (VClo ids b r :: us)). cbn [map]. now rewrite FS, A. }
    rewrite FS2. cbn [arr]. apply good_fire. intros s1 Es.
    assert (ST : step P MDirect (Args OApp (map SDone (VClo ids b r :: us)) r K w) s1) by (constructor; now apply fire_firef).
    cbn [firef] in *. destruct (bind MDirect ids us r (hp w)) as [(r1 & h1)|] eqn:Eb; [|discriminate]. assert (s1 = Ev b r1 K (set_hp w h1)) by congruence. subst s1.
    destruct D as [->|(x & z & -> & -> & NX & NZ)].
    + destruct (bind_both ids us vs1 r r' (hp w) r1 h1 F2 Eb) as (-> & r1' & B' & I1 & I2). rewrite B'. rewrite !set_hp_same in *.
      eexists. split; [reflexivity|]. apply inev_now. eapply next_one; [exact ST|]. apply r_sev; auto. intros x Fx Gx.
      destruct (in_dec id_dec x ids) as [I|I]; [auto|]. destruct (I2 x I) as (-> & ->). apply E; [|assumption]. eapply free_part; [now left | exact I | exact Fx].
    + destruct F2 as [|v v' ? ? V F2]; [discriminate|]. destruct F2; [|discriminate]. cbn [bind] in Eb. injection Eb as <- <-. cbn [bind]. rewrite !set_hp_same in *.
      eexists. split; [reflexivity|]. apply inev_now. eapply next_one; [exact ST|]. apply r_sev; auto. intros u Fu Gu. rewrite !lookup_cons.
      assert (U1 : u <> x) by (intros ->; auto). assert (U2 : u <> z) by (intros ->; auto).
      rewrite (proj2 (id_eqb_neq _ _) U1), (proj2 (id_eqb_neq _ _) U2). apply E; [|assumption]. eapply free_part; [now left | |exact Fu]. firstorder congruence.
  - destruct T as [|x [|y T]]; try discriminate. cbn in SK. injection SK as S1 S2 S3.
    inversion F as [|? ? Tx F1]; subst. inversion F1 as [|? ? Ty F']; subst.
    destruct (skel_KP _ (eq_sym S1)) as [(e & e' & ->)|(v & s & v' & ->)]; [destruct vs; discriminate|].
    destruct vs as [|u vs]; [discriminate|]. change (s :: ft (y :: T) = SDone u :: map SDone vs) in FT. injection FT as -> FT. destruct Tx as (Hv & V). apply harm_done in Hv. subst u.
    destruct (done_KX r r' y _ T vs (eq_sym S2) Ty FT) as (vs1 & -> & FT1 & FS). destruct (done_KP r r' T n vs1 (eq_sym S3) FT1 F') as (us & A & F2).
    assert (FS2 : fs (TD v (SDone v') v' :: y :: T) = map SDone (v :: us)).
    { change (SDone v :: fs (y :: T) = map SDone (v :: us)). cbn [map]. now rewrite FS, A. }
    rewrite FS2. cbn [arr]. apply (proj1 call_take v v' V); auto. unfold idx. lia.
  - destruct T as [|x [|y T]]; try discriminate. cbn in SK. injection SK as S1 S2 S3. destruct x; try discriminate. cbn in S1. injection S1 as <-.
    inversion F as [|? ? _ F1]; subst. inversion F1 as [|? ? Ty F']; subst.
    destruct (done_KX r r' y _ T vs (eq_sym S2) Ty FT) as (vs1 & -> & FT1 & FS). destruct (done_KP r r' T n vs1 (eq_sym S3) FT1 F') as (us & A & F2).
    assert (FS2 : fs (TSD (VClo ids b r) :: y :: T) = map SDone (VClo ids b r :: us)).
    { change (SDone (VClo ids b r) :: fs (y :: T) = map SDone (VClo ids b r :: us)). cbn [map]. now rewrite FS, A. }
    rewrite FS2. cbn [arr]. apply good_fire. intros s1 Es.
    assert (ST : step P MDirect (Args OApp (map SDone (VClo ids b r :: us)) r K w) s1) by (constructor; now apply fire_firef).
    cbn [firef] in *. destruct (bind MDirect ids us r (hp w)) as [(r1 & h1)|] eqn:Eb; [|discriminate]. assert (s1 = Ev b r1 K (set_hp w h1)) by congruence. subst s1.
    destruct (bind_both ids us vs1 r r' (hp w) r1 h1 F2 Eb) as (-> & r1' & B' & I1 & I2). rewrite B'. rewrite !set_hp_same in *.
    eexists. split; [reflexivity|]. apply inev_now. eapply next_one; [exact ST|]. apply r_ce with S kexp; auto.
    + intros x Fx Gx. destruct (in_dec id_dec x ids) as [I|I]; [auto|]. destruct (I2 x I) as (-> & ->). apply E; [|assumption]. eapply free_part; [now left | exact I | exact Fx].
    + eapply KE_ext; [exact KE0|]. intros x Sx. apply I2. intros I. now apply (D x).
  - destruct (done_KP r r' T 1 vs (eq_sym SK) FT F) as (us & -> & F2). cbn [arr]. apply good_fire. intros s1 Es.
    assert (ST : step P MDirect (Args (OIf b c) (map SDone us) r K w) s1) by (constructor; now apply fire_firef).
    destruct F2 as [|v v' ? ? V F2]; [discriminate|]. destruct F2; [|discriminate]. cbn [firef] in *. injection Es as <-. eexists. split; [reflexivity|].
    apply inev_now. rewrite <- (VR_true _ _ _ V). destruct (is_true v); (eapply next_one; [exact ST|]; apply r_ce with S kexp; auto; (eapply er_impl; [|exact E]; cbn; auto)).
  - symmetry in SK. apply map_eq_app in SK. destruct SK as (T1 & T3 & -> & SK1 & SK2). destruct T3 as [|x [|]]; try discriminate. cbn in SK2. injection SK2 as SK2.
    apply Forall_app in F. destruct F as (F1 & F3). inversion F3 as [|? ? Tx _]; subst.
    destruct (ft_done_app _ _ _ FT) as (vs1 & vs2 & -> & FT1 & FT2). destruct (done_KX r r' x _ [] vs2 SK2 Tx FT2) as (vs3 & -> & FT3 & FS).
    destruct vs3; [|discriminate]. cbn [arr]. rewrite rev_app_distr. cbn [rev app map].
    pose proof (tmp_len _ _ _ _ _ TM T1 vs1 eq_refl F1 FT1) as LN.
    destruct (bind_list (rev tmps) (rev vs1) r' (hp w')) as (r1 & B1 & L1 & L2); [rewrite !rev_length; exact LN | now apply NoDup_rev|].
    assert (L3 : Forall2 (fun t v => lookup r1 t = Some v) tmps vs1) by (apply Forall2_rev in L1; now rewrite !rev_involutive in L1).
    destruct (tmp_T2 r r' r1 _ _ _ TM T1 vs1 eq_refl F1 FT1 L3) as (T2 & A2 & B2 & C2 & D2 & M2).
    { intros t I. now apply D. }
    { intros e y I E. eapply ER_ext; [|exact E]. cbn. intros z Fz. apply L2. rewrite <- in_rev. intros J. destruct (D z J) as (_ & D3). destruct (D3 e y I) as (D4 & _). exact (D4 Fz). }
    assert (Fi : firef P MDirect OApp (VClo (rev tmps) (EPrim ef p exps) r' :: rev vs1) r' TK w' = Some (Ev (EPrim ef p exps) r1 TK w')) by (cbn [firef]; now rewrite B1, set_hp_same).
    right; right. split; [eexists; apply (st_fire P MDirect OApp (_ :: rev vs1)); apply fire_firef; exact Fi|].
    intros t' St. apply (step_done P MDirect OApp (_ :: rev vs1)), fire_firef in St. assert (t' = Ev (EPrim ef p exps) r1 TK w') by congruence. subst t'.
    eapply inev_ev; [reflexivity | reflexivity|]. apply inev_now. rewrite <- B2.
    assert (FS2 : fs (T1 ++ [x]) = fs T2) by (rewrite fs_app, FS, A2; apply app_nil_r). rewrite FS2.
    eapply next_here; [apply (r_args T2 false); auto|].
    + rewrite C2. apply kd_plain; auto; [constructor | easy].
    + unfold idx. rewrite app_length. cbn [length]. lia.
Qed.
Lemma args_good T rv o r K o' r' TK w w' : Forall (tok r r') T -> KIND (map skel T) rv o r K o' r' TK -> sr w w' ->
  good (idx rv T) (Args o (fs T) r K w) (Args o' (arr rv (ft T)) r' TK w').
Proof.
  intros F KD W. destruct (slots_cases (ft T)) as [(vs & E)|(a & e & b & E)].
  - replace (arr rv (ft T)) with (map SDone (arr rv vs)); [now apply kind_fire|]. rewrite E. destruct rv; cbn [arr]; [apply map_rev | reflexivity].
  - apply good_picks.
    { exists e. destruct rv; cbn [arr]; [rewrite <- in_rev|]; rewrite E; apply in_elt. }
    clear a e b E. intros a e b E. destruct (arr_split _ _ _ _ _ E) as (T1 & x & T2 & -> & X & -> & ->). apply Forall_app in F. destruct F as (F1 & F2).
    inversion F2 as [|? ? Tx F2']; subst. rewrite map_app in KD. cbn [map] in KD. destruct x; cbn in X; try discriminate.
    + injection X as ->. destruct Tx as (C & Ex). apply inev_now. eapply next_one; [rewrite fs_app; constructor|]. apply r_sev; auto. now apply kb_frame.
    + injection X as ->. destruct Tx as (H & V). apply (harm_todo _ _ _ H); [reflexivity|]. apply inev_ret; [reflexivity|].
      rewrite (arr_fill rv T1 (TD v (SDone v') v') T2) by reflexivity. apply inev_now.
      replace (fs (T1 ++ TD v (STodo e) v' :: T2)) with (fs (T1 ++ TD v (SDone v') v' :: T2)) by now rewrite !fs_app.
      eapply next_here; [apply r_args; auto|].
      * apply Forall_app. split; [assumption|]. constructor; [|assumption]. split; [now left | assumption].
      * now rewrite map_app.
      * unfold idx. rewrite !app_length, !msr_app. unfold msr. cbn. lia.
    + injection X as ->. apply (harm_todo _ _ _ Tx); [reflexivity|]. apply inev_ret; [reflexivity|].
      rewrite (arr_fill rv T1 (TX (SDone v') v') T2) by reflexivity. apply inev_now.
      replace (fs (T1 ++ TX (STodo e) v' :: T2)) with (fs (T1 ++ TX (SDone v') v' :: T2)) by now rewrite !fs_app.
      eapply next_here; [apply r_args; auto|].
      * apply Forall_app. split; [assumption|]. constructor; [|assumption]. now left.
      * now rewrite map_app.
      * unfold idx. rewrite !app_length, !msr_app. unfold msr. cbn. lia.
Qed.
Lemma R_out n s t : R n s t -> out (mem s) = out (mem t).
Proof. destruct 1; cbn; now apply sr_out. Qed.
Lemma R_good n s t : R n s t -> good n s t.
Proof.
  destruct 1.
  - now apply (proj1 code_good S e kexp code).
  - now apply (proj1 (proj2 code_good) S kd items rest kexp code).
  - now apply bev_good with kv nv.
  - now apply bop_good with es kv nv.
  - now apply bret_good with kv nv.
  - now apply sev_good.
  - now apply args_good.
  - now apply ret_good.
  - right; left. exists (Halted v w), v, v'. split; [constructor|]. split; [constructor|]. split; [constructor|]. split; [now apply (VR_shape P)|].
    split; [now apply sr_out|]. intros x. apply (VR_shape P). apply H0.
  - right; left. exists (Ret v [] w), v, v'. split; [constructor|]. split; [constructor|]. split; [constructor|]. split; [now apply (VR_shape P)|].
    split; [now apply sr_out|]. intros x. apply (VR_shape P). apply H0.
Qed.
Theorem cps_simulates e code (S : id -> Prop) ek rr : CE S e (ELam [ek; rr] (halt_exp (EVar rr))) code -> global_id rr = false ->
  (forall x, free_in x e -> global_id x = true) -> refines P MDirect MDirect e code.
Proof.
  intros C G FG g i. eapply simulation; [exact R_out | exact R_good|]. apply r_ce with S (ELam [ek; rr] (halt_exp (EVar rr))); auto.
  - intros x Fx Gx. rewrite FG in Gx; easy.
  - apply ke_lam. now apply kl_nil.
  - split; [constructor|split; [|auto]]. intros x. constructor.
Qed.
End Run.
