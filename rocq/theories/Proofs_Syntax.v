(** Matching and its bindings. *)
From Coq Require Import ZArith List Bool Lia.
From Verif Require Import Model_Lit Model_Core Model_Beta Model_Syntax Spec_Syntax.
Import ListNotations.
Open Scope Z_scope.
Set Default Proof Using "Type".

Fixpoint ssize (x : sexp) : nat :=
  match x with SCons a d => S (ssize a + ssize d) | SVec y => S (ssize y) | SBox y => S (ssize y) | _ => 1%nat end.
Lemma size_ind (P : sexp -> Prop) : (forall x, (forall y, (ssize y < ssize x)%nat -> P y) -> P x) -> forall x, P x.
Proof.
  intros H x. assert (A : forall n y, (ssize y < n)%nat -> P y).
  { induction n as [|n IH]; intros y L; [lia|]. apply H. intros z Lz. apply IH. lia. }
  apply (A (S (ssize x))). lia.
Qed.
Lemma ident_eqb_eq a b : ident_eqb a b = true <-> a = b.
Proof. unfold ident_eqb. destruct (ident_dec a b); split; congruence. Qed.
Lemma ident_eqb_refl a : ident_eqb a a = true.
Proof. now apply ident_eqb_eq. Qed.
Lemma ident_eqb_ne a b : a <> b -> ident_eqb a b = false.
Proof. unfold ident_eqb. now destruct (ident_dec a b). Qed.
Lemma loc_eqb_eq a b : loc_eqb a b = true <-> a = b.
Proof. unfold loc_eqb. destruct (loc_dec a b); split; congruence. Qed.
Lemma sexp_eqb_eq a b : sexp_eqb a b = true <-> a = b.
Proof. unfold sexp_eqb. destruct (sexp_dec a b); split; congruence. Qed.
Lemma memv_in i l : memv i l = true <-> In i l.
Proof.
  unfold memv. rewrite existsb_exists. split.
  - intros (x & I & E). apply ident_eqb_eq in E. now subst.
  - intros I. exists i. split; [assumption | apply ident_eqb_refl].
Qed.
Lemma mapo_F2 {A B} (f : A -> option B) l : forall l', mapo f l = Some l' <-> Forall2 (fun a b => f a = Some b) l l'.
Proof.
  induction l as [|a l IH]; intros l'; cbn [mapo].
  - split; [intros [= <-]; constructor | inversion 1; reflexivity].
  - split.
    + destruct (f a) eqn:E; [|discriminate]. destruct (mapo f l) eqn:E2; [|discriminate]. intros [= <-].
      constructor; [assumption | now apply IH].
    + inversion 1; subst. apply IH in H4. now rewrite H2, H4.
Qed.
Lemma assv_in {A} i (a : A) l : assv i l = Some a -> In (i, a) l.
Proof.
  induction l as [|[j b] l IH]; cbn; [discriminate|]. destruct (ident_eqb i j) eqn:E.
  - apply ident_eqb_eq in E. subst. intros [= ->]. now left.
  - intros H. right. now apply IH.
Qed.
Lemma assv_none {A} i (l : list (ident * A)) : assv i l = None <-> ~ In i (map fst l).
Proof.
  induction l as [|[j b] l IH]; cbn; [intuition|]. destruct (ident_eqb i j) eqn:E.
  - apply ident_eqb_eq in E. subst. split; [discriminate | intros H; exfalso; apply H; now left].
  - rewrite IH. split; [|tauto]. intros H [-> | I]; [now rewrite ident_eqb_refl in E | tauto].
Qed.
Lemma assv_nodup {A} i (a : A) l : NoDup (map fst l) -> (assv i l = Some a <-> In (i, a) l).
Proof.
  intros N. split; [apply assv_in|]. induction l as [|[j b] l IH]; cbn; [tauto|]. inversion N as [|? ? NI N']; subst.
  intros [[= -> ->] | I]; [now rewrite ident_eqb_refl|].
  rewrite ident_eqb_ne; [now apply IH|]. intros ->. apply NI. now apply (in_map fst) in I.
Qed.
Lemma assv_app {A} i (l m : list (ident * A)) : assv i (l ++ m) = match assv i l with Some a => Some a | None => assv i m end.
Proof. induction l as [|[j b] l IH]; cbn; [reflexivity|]. now destruct (ident_eqb i j). Qed.

(** ** Lists *)
Fixpoint items (x : sexp) : list sexp := match x with SCons a d => a :: items d | _ => [] end.
Fixpoint ending (x : sexp) : sexp := match x with SCons _ d => ending d | _ => x end.
Lemma items_ending x : sapp (items x) (ending x) = x.
Proof. induction x; cbn; try reflexivity. now rewrite IHx2. Qed.
Lemma items_length x : length (items x) = pairs x.
Proof. induction x; cbn; try reflexivity. now rewrite IHx2. Qed.
Lemma items_sapp l x : items (sapp l x) = l ++ items x.
Proof. induction l; cbn; [reflexivity | now rewrite IHl]. Qed.
Lemma ending_sapp l x : ending (sapp l x) = ending x.
Proof. now induction l. Qed.
Lemma pairs_sapp l x : pairs (sapp l x) = (length l + pairs x)%nat.
Proof. induction l; cbn; [reflexivity | now rewrite IHl]. Qed.
Lemma slist_inj l : forall m, slist l = slist m -> l = m.
Proof. induction l as [|a l IH]; intros [|b m] H; cbn in H; try discriminate; [reflexivity|]. injection H as -> H. f_equal. now apply IH. Qed.
Lemma elements_slist l : elements (slist l) = Some l.
Proof. induction l as [|a l IH]; cbn; [reflexivity | now rewrite IH]. Qed.
Lemma elements_some x : forall l, elements x = Some l -> x = slist l.
Proof.
  induction x; intros k H; cbn in H; try discriminate; [now injection H as <-|].
  destruct (elements x2) as [m|] eqn:E; [|discriminate]. injection H as <-. cbn. now rewrite (IHx2 m eq_refl).
Qed.
Lemma elements_eq x l : elements x = Some l <-> x = slist l.
Proof. split; [apply elements_some | intros ->; apply elements_slist]. Qed.
Lemma slist_sapp l : slist l = sapp l SNil.
Proof. induction l; cbn; congruence. Qed.
Lemma sapp_app l m x : sapp (l ++ m) x = sapp l (sapp m x).
Proof. induction l; cbn; congruence. Qed.
Lemma skip_spec p s : skip p s = (if Nat.leb (pairs p) (pairs s) then Some (sapp (skipn (pairs p) (items s)) (ending s)) else None).
Proof.
  revert s. induction p; intros r; cbn [skip pairs Nat.leb skipn]; try now rewrite items_ending.
  destruct r; cbn; try reflexivity. apply IHp2.
Qed.

Lemma F2_len {A B} (R : A -> B -> Prop) l m : Forall2 R l m -> length l = length m.
Proof. induction 1; cbn; congruence. Qed.
Lemma sapp_unique fs t fs' t' : sapp fs t = sapp fs' t' -> pairs t = pairs t' -> fs = fs' /\ t = t'.
Proof.
  revert fs'. induction fs as [|a fs IH]; intros [|b fs'] H P; cbn in H.
  - now split.
  - exfalso. subst t. cbn in P. rewrite pairs_sapp in P. lia.
  - exfalso. subst t'. cbn in P. rewrite pairs_sapp in P. lia.
  - injection H as -> H. destruct (IH _ H P) as [-> ->]. now split.
Qed.
Lemma transpose_keys xs rows : Forall (fun r : list bval => length r = length xs) rows -> map fst (transpose xs rows) = xs.
Proof.
  revert rows. induction xs as [|x xs IH]; intros rows F; [reflexivity|]. cbn [transpose].
  destruct (mapo _ rows) as [l|] eqn:E.
  - cbn. f_equal. apply IH. clear IH. apply mapo_F2 in E. induction E as [|r [a r'] rows l H E IHE]; [constructor|].
    inversion F; subst. constructor; [|now apply IHE]. destruct r as [|b r]; [discriminate|]. injection H as -> ->. cbn in *. lia.
  - exfalso. clear IH. induction F as [|r rows H F IHF]; [discriminate|]. cbn in E. destruct r as [|a r]; [discriminate|].
    destruct (mapo _ rows) eqn:E2; [discriminate | now apply IHF].
Qed.
Lemma transpose_in xs : NoDup xs -> forall Bs v b, Forall (fun B : list (ident * bval) => map fst B = xs) Bs ->
  (In (v, b) (transpose xs (map (map snd) Bs)) <-> In v xs /\ exists ts, b = BList ts /\ Forall2 (fun B t => In (v, t) B) Bs ts).
Proof.
  induction xs as [|x xs IH]; intros N Bs v b F; cbn [transpose]; [cbn; tauto|]. inversion N as [|? ? NI N']; subst.
  assert (M : mapo (fun r : list bval => match r with a :: r' => Some (a, r') | [] => None end) (map (map snd) Bs)
              = Some (map (fun B => (snd (hd (x, BLeaf SNil) B), map snd (tl B))) Bs)).
  { clear -F. induction F as [|B Bs H F IHF]; [reflexivity|]. cbn [map mapo]. destruct B as [|[y c] B]; [discriminate|]. cbn [map]. rewrite IHF. reflexivity. }
  rewrite M. cbn [In]. rewrite !map_map. cbn [fst snd].
  assert (F' : Forall (fun B => map fst B = xs) (map (@tl _) Bs)).
  { clear -F. induction F as [|B Bs H F IHF]; [constructor|]. constructor; [|exact IHF]. destruct B; [discriminate|]. now injection H. }
  specialize (IH N' (map (@tl _) Bs) v b F'). rewrite map_map in IH. rewrite IH. split.
  - intros [[= <- <-] | (I & ts & -> & T)].
    + split; [now left|]. eexists. split; [reflexivity|]. clear -F. induction F as [|B Bs H F IHF]; [constructor|]. cbn [map]. constructor; [|exact IHF].
      destruct B as [|[y c] B]; [discriminate|]. injection H as -> _. now left.
    + split; [now right|]. exists ts. split; [reflexivity|]. clear -T. revert ts T. induction Bs as [|B Bs IHB]; intros ts T; inversion T; subst; constructor.
      * destruct B; [contradiction | now right].
      * now apply IHB.
  - intros (I & ts & -> & T). destruct I as [-> | I].
    + left. f_equal. f_equal. clear -F T NI. revert ts T. induction F as [|B Bs H F IHF]; intros ts T; inversion T; subst; [reflexivity|]. cbn [map].
      f_equal; [|now apply IHF]. destruct B as [|[z c] B]; [discriminate|]. injection H as -> H. cbn. destruct H2 as [H2 | J]; [congruence|].
      exfalso. apply NI. rewrite <- H. now apply (in_map fst) in J.
    + right. split; [assumption|]. exists ts. split; [reflexivity|]. clear -F T NI I. revert ts T. induction F as [|B Bs H F IHF]; intros ts T; inversion T; subst; constructor.
      * destruct B as [|[z c] B]; [discriminate|]. injection H as -> H. destruct H2 as [H2 | J]; [injection H2; intros; subst; contradiction | exact J].
      * now apply IHF.
Qed.
Lemma nodup_l {A} (l m : list A) : NoDup (l ++ m) -> NoDup l.
Proof. induction l as [|a l IH]; intros N; [constructor|]. inversion N; subst. constructor; [rewrite in_app_iff in *; tauto | auto]. Qed.
Lemma nodup_r {A} (l m : list A) : NoDup (l ++ m) -> NoDup m.
Proof. induction l as [|a l IH]; intros N; [assumption|]. inversion N; subst. auto. Qed.

Section Rule.
Variable ell : sexp -> bool.
Notation occurs := (occurs ell).
Notation list_ids := (list_ids ell).
Notation plain_cdr := (plain_cdr ell).
Notation check := (check ell).

Lemma plain_dec q : {plain_cdr q} + {exists e d, q = SCons e d /\ ell e = true}.
Proof.
  destruct q; try (left; intros e0 d0 H0; congruence).
  destruct (ell q1) eqn:E; [right; eauto | left; intros e d [= -> ->]; assumption].
Qed.
(** *** The identifiers listed *)
Lemma list_ids_rep pred a e d inc l : ell e = true -> list_ids pred (SCons a (SCons e d)) inc l = list_ids pred a true (list_ids pred d inc l).
Proof. intros E. cbn [Model_Syntax.list_ids]. now rewrite E. Qed.
Lemma list_ids_pair pred a q inc l : plain_cdr q -> list_ids pred (SCons a q) inc l = list_ids pred a inc (list_ids pred q inc l).
Proof. intros E. cbn [Model_Syntax.list_ids]. destruct q; try reflexivity. now rewrite (E _ _ eq_refl). Qed.
Lemma list_ids_app pred x : forall inc l, list_ids pred x inc l = list_ids pred x inc [] ++ l.
Proof.
  induction x as [x IH] using size_ind. intros inc l. destruct x; try reflexivity; cbn [ssize] in IH.
  - destruct (plain_dec x2) as [P | (e & d & -> & E)].
    + rewrite !list_ids_pair by assumption. rewrite IH by lia. rewrite (IH x2) by lia. rewrite (IH x1 ltac:(lia) _ (list_ids _ x2 _ [])).
      now rewrite app_assoc.
    + rewrite !list_ids_rep by assumption. cbn [ssize] in IH. rewrite IH by lia. rewrite (IH d) by lia.
      rewrite (IH x1 ltac:(lia) _ (list_ids _ d _ [])). now rewrite app_assoc.
  - cbn [Model_Syntax.list_ids]. now destruct (inc && _).
  - cbn [Model_Syntax.list_ids]. now destruct (inc && _).
  - cbn [Model_Syntax.list_ids]. apply IH. lia.
  - cbn [Model_Syntax.list_ids]. destruct x; try reflexivity. apply IH. cbn [ssize]. lia.
Qed.
Lemma list_ids_in pred x v : In v (list_ids pred x true []) <-> occurs x v /\ pred v = true.
Proof.
  revert v. induction x as [x IH] using size_ind. intros v. destruct x; cbn [ssize] in IH;
    try (cbn; split; [tauto | intros [C _]; inversion C; discriminate]).
  - destruct (plain_dec x2) as [P | (e & d & -> & E)].
    + rewrite list_ids_pair by assumption. rewrite list_ids_app, in_app_iff, (IH x1), (IH x2) by lia. split.
      * intros [[A B] | [A B]]; (split; [|assumption]); [now apply oc_car | now apply oc_cdr].
      * intros [C B]. inversion C; subst; try discriminate; try (now left); try (now right); exfalso; specialize (P _ _ eq_refl); congruence.
    + rewrite list_ids_rep by assumption. cbn [ssize] in IH. rewrite list_ids_app, in_app_iff, (IH x1), (IH d) by lia. split.
      * intros [[A B] | [A B]]; (split; [|assumption]); [now apply oc_rep | now apply oc_tail].
      * intros [C B]. inversion C; subst; try discriminate; try (now left); try (now right);
          match goal with H : plain_cdr _ |- _ => specialize (H _ _ eq_refl); congruence end.
  - cbn. destruct (pred (IdSym s)) eqn:E; cbn; split.
    + intros [<- | []]. split; [now apply (oc_here _ (SSym s)) | assumption].
    + intros [C _]. inversion C. now left.
    + intros [].
    + intros [C F]. inversion C; subst; cbn in *; congruence.
  - cbn. destruct (pred i) eqn:E; cbn; split.
    + intros [<- | []]. split; [now apply (oc_here _ (SRen name i l)) | assumption].
    + intros [C _]. inversion C. now left.
    + intros [].
    + intros [C F]. inversion C; subst; cbn in *; congruence.
  - cbn [Model_Syntax.list_ids]. rewrite IH by lia. split; intros [A B]; (split; [|assumption]); [now constructor|].
    inversion A; subst; [discriminate | assumption].
  - cbn [Model_Syntax.list_ids]. destruct x; try (split; [intros [] | intros [C _]; inversion C; discriminate]).
    rewrite IH by (cbn; lia). split; intros [A B]; (split; [|assumption]); [now constructor|].
    inversion A; subst; [discriminate | assumption].
Qed.
Variable is_lit : ident -> bool.
Notation took := (took ell is_lit).
Notation nl := (fun i => negb (is_lit i)).
Definition vs (p : sexp) : list ident := list_ids nl p true [].
Lemma vs_in p v : In v (vs p) <-> occurs p v /\ is_lit v = false.
Proof. unfold vs. rewrite list_ids_in. now rewrite negb_true_iff. Qed.
Lemma vs_pair p q : plain_cdr q -> vs (SCons p q) = vs p ++ vs q.
Proof. intros P. unfold vs. rewrite list_ids_pair by assumption. apply list_ids_app. Qed.
Lemma vs_rep p e d : ell e = true -> vs (SCons p (SCons e d)) = vs p ++ vs d.
Proof. intros P. unfold vs. rewrite list_ids_rep by assumption. apply list_ids_app. Qed.

(** *** What the checks say *)
Fixpoint no_ell_in (d : sexp) : bool := match d with SCons y d' => negb (ell y) && check false y && no_ell_in d' | _ => true end.
Lemma check_pair t a q : plain_cdr q -> check t (SCons a q) = true -> check t a = true /\ check t q = true /\ ell a = false /\ ell q = false.
Proof.
  intros P. cbn [Model_Syntax.check]. rewrite !andb_true_iff. intros [[[A B] C] D]. rewrite negb_true_iff in A, C.
  split; [assumption|]. split; [|auto]. destruct q; try assumption. now rewrite (P _ _ eq_refl) in D.
Qed.
Lemma check_rep a e d : ell e = true -> check false (SCons a (SCons e d)) = true ->
  check false a = true /\ listp d = true /\ no_ell_in d = true.
Proof.
  intros E. cbn [Model_Syntax.check]. rewrite E. rewrite !andb_true_iff. intros [[[A B] C] [_ [D F]]].
  split; [assumption|]. split; [|exact F]. revert D. unfold listp. cbn. now destruct (elements d).
Qed.
Lemma check_rep_t a e d : ell e = true -> check true (SCons a (SCons e d)) = true -> check true a = true /\ check true d = true.
Proof. intros E. cbn [Model_Syntax.check]. rewrite E. rewrite !andb_true_iff. tauto. Qed.
Lemma listp_slist d : listp d = true -> exists l, d = slist l.
Proof. unfold listp. destruct (elements d) as [l|] eqn:E; [|discriminate]. apply elements_eq in E. eauto. Qed.
Lemma no_ell_tail y d : no_ell_in (SCons y d) = true -> ell y = false /\ check false y = true /\ no_ell_in d = true.
Proof. cbn. rewrite !andb_true_iff, negb_true_iff. tauto. Qed.
Lemma no_ell_plain d : no_ell_in d = true -> plain_cdr d.
Proof. intros H e d' ->. apply no_ell_tail in H. apply H. Qed.
Lemma check_box y : check false (SBox y) = true -> exists k p, y = SCons (SSym k) (SCons p SNil) /\ pattern_sbox (SBox y) = Some (k, p) /\ check false p = true.
Proof.
  cbn [Model_Syntax.check]. rewrite andb_true_iff. intros [A B]. destruct (pattern_sbox (SBox y)) as [[k p]|] eqn:E; [|discriminate].
  assert (y = SCons (SSym k) (SCons p SNil)) as ->.
  { unfold pattern_sbox in E. destruct y as [|[] [|z []| | | | | | | | |]| | | | | | | | |]; try discriminate.
    destruct (zlist_dec _ _); [now injection E as -> ->|]. destruct (zlist_dec _ _); [now injection E as -> ->|].
    destruct (zlist_dec _ _); [now injection E as -> ->|]. discriminate. }
  exists k, p. split; [reflexivity|]. split; [reflexivity|]. revert B. cbn [Model_Syntax.check]. rewrite !andb_true_iff. tauto.
Qed.
Hypothesis ell_sid : forall x, ell x = true -> sidp x = true.
Lemma no_ell_check d : listp d = true -> no_ell_in d = true -> check false d = true.
Proof using ell_sid.
  intros L. apply listp_slist in L. destruct L as (l & ->). induction l as [|y l IH]; [reflexivity|]. intros H.
  apply no_ell_tail in H. destruct H as (A & B & C). specialize (IH C). cbn [slist]. cbn [Model_Syntax.check]. rewrite A, B. cbn.
  assert (ell (slist l) = false) as -> by (destruct (ell (slist l)) eqn:E; [apply ell_sid in E; destruct l; discriminate | reflexivity]). cbn.
  destruct l as [|z l]; [assumption|]. cbn [slist] in C |- *. apply no_ell_tail in C. destruct C as (-> & _). exact IH.
Qed.

Variable same_ref : sexp -> sexp -> bool.
Notation same := (fun p s => same_ref p s = true).
Notation matches := (matches ell is_lit same_ref).
Notation fits := (fits ell is_lit same).
Definition cars_loop (p d : sexp) := fix cars (s sexp : sexp) {struct s} : bool :=
  match s with
  | SCons _ s' => match sexp with SCons a b => matches p a && cars s' b | _ => false end
  | _ => matches d sexp
  end.
Lemma matches_rep p e d s : ell e = true ->
  matches (SCons p (SCons e d)) s = match skip d s with None => false | Some r => cars_loop p d r s end.
Proof. intros E. cbn [Model_Syntax.matches]. now rewrite E. Qed.
Lemma matches_pair p q s : plain_cdr q ->
  matches (SCons p q) s = match s with SCons a b => matches p a && matches q b | _ => false end.
Proof. intros E. cbn [Model_Syntax.matches]. destruct q; try reflexivity. now rewrite (E _ _ eq_refl). Qed.
Lemma cars_spec p d s : forall l x, (pairs s <= length l)%nat ->
  cars_loop p d s (sapp l x) = forallb (matches p) (firstn (pairs s) l) && matches d (sapp (skipn (pairs s) l) x).
Proof using ell_sid.
  induction s; intros m x L; try reflexivity. cbn [cars_loop pairs] in L |- *. destruct m as [|a m]; [cbn in L; lia|].
  cbn [sapp firstn skipn forallb]. rewrite IHs2 by (cbn in L; lia). now rewrite andb_assoc.
Qed.

Lemma fits_list d : listp d = true -> no_ell_in d = true -> forall t, fits d t -> pairs d = pairs t /\ listp t = true.
Proof.
  intros L. apply listp_slist in L. destruct L as (l & ->). induction l as [|y l IH]; intros N t F.
  - inversion F; subst; try discriminate. now split.
  - apply no_ell_tail in N. destruct N as (A & B & C). cbn [slist] in F. inversion F; subst; try discriminate.
    + contradiction.
    + match goal with F : fits (slist l) b |- _ => destruct (IH C _ F) as [P Q] end. split; [cbn; now rewrite P|]. revert Q. unfold listp. cbn. now destruct (elements b).
    + exfalso. apply no_ell_plain in C. change (plain_cdr (slist l)) in C. match goal with H : _ = slist l |- _ => rewrite <- H in C end. specialize (C _ _ eq_refl). congruence.
Qed.
Lemma matches_atom p s : atomic p -> matches p s = sexp_eqb p s.
Proof. destruct p; cbn; tauto. Qed.
Lemma matches_fits p : check false p = true -> forall s, matches p s = true <-> fits p s.
Proof using ell_sid.
  induction p as [p IH] using size_ind. intros C s. destruct p; cbn [ssize] in IH;
    try (rewrite matches_atom by exact Logic.I; rewrite sexp_eqb_eq; split; [intros <-; now apply fit_atom | now inversion 1]).
  - destruct (plain_dec p2) as [P | (e & d & -> & E)].
    + rewrite matches_pair by assumption. apply (check_pair _ _ _ P) in C. destruct C as (C1 & C2 & _). destruct s;
        try (split; [discriminate | inversion 1; subst; try discriminate; try contradiction; specialize (P _ _ eq_refl); congruence]).
      rewrite andb_true_iff, (IH p1), (IH p2) by (try assumption; lia). split.
      * intros [A B]. now apply fit_pair.
      * inversion 1; subst; try discriminate; try contradiction; [tauto|]. specialize (P _ _ eq_refl). congruence.
    + cbn [ssize] in IH. rewrite matches_rep by assumption. apply (check_rep _ _ _ E) in C. destruct C as (C1 & C2 & C3).
      assert (C4 := no_ell_check _ C2 C3). rewrite skip_spec. destruct (Nat.leb (pairs d) (pairs s)) eqn:L.
      * apply Nat.leb_le in L. set (r := sapp _ _).
        assert (R : pairs r = (pairs s - pairs d)%nat).
        { unfold r. rewrite pairs_sapp, skipn_length, items_length. assert (pairs (ending s) = 0)%nat as -> by (clear; induction s; auto). lia. }
        assert (S : s = sapp (items s) (ending s)) by now rewrite items_ending.
        replace (cars_loop p1 d r s) with (cars_loop p1 d r (sapp (items s) (ending s))) by now rewrite items_ending. rewrite cars_spec by (rewrite items_length; lia). rewrite andb_true_iff, forallb_forall, (IH d) by (try assumption; lia).
        rewrite R. set (n := (pairs s - pairs d)%nat) in *. split.
        -- intros [A B]. rewrite S. rewrite <- (firstn_skipn n (items s)). rewrite sapp_app. apply fit_rep; [assumption| |assumption].
           intros f I. apply (IH p1); [lia | assumption | now apply A].
        -- inversion 1; subst; try discriminate; try contradiction.
           { match goal with P : plain_cdr _ |- _ => specialize (P _ _ eq_refl); congruence end. }
           match goal with F : fits d _ |- _ => destruct (fits_list _ C2 C3 _ F) as [Q _] end.
           assert (N : n = length fs) by (unfold n; rewrite pairs_sapp, Q; lia). rewrite items_sapp, ending_sapp, N.
           rewrite firstn_app, Nat.sub_diag, firstn_all, firstn_O, app_nil_r. rewrite skipn_app, Nat.sub_diag, skipn_all, skipn_O. cbn [app].
           rewrite items_ending. split; [|assumption]. intros f I. apply (IH p1); [lia | assumption | auto].
      * apply Nat.leb_gt in L. split; [discriminate|]. inversion 1; subst; try discriminate; try contradiction.
        { match goal with P : plain_cdr _ |- _ => specialize (P _ _ eq_refl); congruence end. }
        match goal with F : fits d _ |- _ => destruct (fits_list _ C2 C3 _ F) as [Q _] end. rewrite pairs_sapp in L. lia.
  - cbn [Model_Syntax.matches]. rewrite orb_true_iff, negb_true_iff, andb_true_iff. split.
    + intros [A | [A B]]; [now apply fit_var|]. destruct (is_lit (sid_id (SSym s0))) eqn:E; [now apply fit_lit | now apply fit_var].
    + inversion 1; subst; try tauto. contradiction.
  - cbn [Model_Syntax.matches]. rewrite orb_true_iff, negb_true_iff, andb_true_iff. split.
    + intros [A | [A B]]; [now apply fit_var|]. destruct (is_lit (sid_id (SRen name i l))) eqn:E; [now apply fit_lit | now apply fit_var].
    + inversion 1; subst; try tauto. contradiction.
  - assert (C' : check false p = true) by (revert C; cbn [Model_Syntax.check]; rewrite andb_true_iff; tauto).
    destruct s; try (cbn; split; [discriminate | inversion 1; subst; try discriminate; contradiction]).
    cbn [Model_Syntax.matches]. rewrite IH by (try assumption; lia). split; [now constructor | inversion 1; subst; try discriminate; try assumption; contradiction].
  - apply check_box in C. destruct C as (k & q & -> & K & C). cbn [Model_Syntax.matches]. rewrite K. rewrite andb_true_iff.
    rewrite IH by (try assumption; cbn [ssize]; lia). split; [intros []; now constructor|].
    inversion 1; subst; try discriminate; try contradiction. tauto.
Qed.

(** *** The bindings *)
Notation make_bindings := (make_bindings ell is_lit).
Lemma mb_pair p q s bs : plain_cdr q -> make_bindings (SCons p q) s bs =
  match s with SCons a b => match make_bindings q b bs with Some bs' => make_bindings p a bs' | None => None end | _ => None end.
Proof. intros E. cbn [Model_Syntax.make_bindings]. destruct q; try reflexivity. now rewrite (E _ _ eq_refl). Qed.
Lemma mb_rep p e d s bs : ell e = true -> make_bindings (SCons p (SCons e d)) s bs =
  match elements d, elements s with
  | Some ds, Some l =>
    if Nat.ltb (List.length l) (List.length ds) then None
    else
      let n := (List.length l - List.length ds)%nat in
      match mapo (fun m => option_map (map snd) (make_bindings p m [])) (firstn n l), make_bindings d (slist (skipn n l)) bs with
      | Some rows, Some bs' => Some (transpose (vs p) rows ++ bs')
      | _, _ => None
      end
  | _, _ => None
  end.
Proof. intros E. cbn [Model_Syntax.make_bindings]. now rewrite E. Qed.
Lemma bindings_ok p : check false p = true -> NoDup (vs p) -> forall s, fits p s -> exists B,
  (forall bs, make_bindings p s bs = Some (B ++ bs)) /\ map fst B = vs p /\ forall v t, In (v, t) B <-> took p s v t.
Proof using ell_sid.
  induction p as [p IH] using size_ind. intros C N s F.
  assert (LIT : is_lit (sid_id p) = true -> sidp p = true -> exists B, (forall bs, make_bindings p s bs = Some (B ++ bs)) /\ map fst B = vs p /\ forall v t, In (v, t) B <-> took p s v t).
  { intros L S. exists []. split; [|split].
    - intros bs. destruct p; try discriminate; cbn; cbn in L; now rewrite L.
    - destruct p; try discriminate; unfold vs; cbn; cbn in L; now rewrite L.
    - intros v t. split; [intros []|]. intros T. inversion T; subst; try discriminate. congruence. }
  assert (VAR : is_lit (sid_id p) = false -> sidp p = true -> exists B, (forall bs, make_bindings p s bs = Some (B ++ bs)) /\ map fst B = vs p /\ forall v t, In (v, t) B <-> took p s v t).
  { intros L S. exists [(sid_id p, BLeaf s)]. split; [|split].
    - intros bs. destruct p; try discriminate; cbn; cbn in L; now rewrite L.
    - destruct p; try discriminate; unfold vs; cbn; cbn in L; now rewrite L.
    - intros v t. split; [intros [[= <- <-]|[]]; now constructor|]. intros T. inversion T; subst; try discriminate. now left. }
  assert (ATOM : atomic p -> exists B, (forall bs, make_bindings p s bs = Some (B ++ bs)) /\ map fst B = vs p /\ forall v t, In (v, t) B <-> took p s v t).
  { intros A. exists []. split; [|split].
    - destruct p; try contradiction; reflexivity.
    - destruct p; try contradiction; reflexivity.
    - intros v t. split; [intros []|]. intros T. inversion T; subst; try contradiction. destruct p; try contradiction; discriminate. }
  inversion F; subst; auto.
  - destruct (IH p0) with (s := s0) as (B & M & K & T); [cbn; lia | revert C; cbn; rewrite andb_true_iff; tauto | exact N | assumption |].
    exists B. split; [exact M|]. split; [exact K|]. intros v t. rewrite T. split; [now constructor | inversion 1; subst; [discriminate | assumption]].
  - apply check_box in C. destruct C as (k' & p' & [= <- <-] & _ & C).
    destruct (IH p0) with (s := s) as (B & M & K & T); [cbn; lia | assumption | | assumption |].
    { exact N. }
    exists B. split; [exact M|]. split.
    { exact K. }
    intros v t. rewrite T. split; [now constructor | inversion 1; subst; [discriminate | assumption]].
  - rename p0 into p. match goal with ZZ : plain_cdr q |- _ => rename ZZ into P end.
    apply (check_pair _ _ _ P) in C. destruct C as (C1 & C2 & _). rewrite vs_pair in N by assumption.
    destruct (IH p) with (s := a) as (B1 & M1 & K1 & T1); [cbn; lia | assumption | now apply nodup_l in N | assumption |].
    destruct (IH q) with (s := b) as (B2 & M2 & K2 & T2); [cbn; lia | assumption | now apply nodup_r in N | assumption |].
    exists (B1 ++ B2). split; [|split].
    + intros bs. rewrite mb_pair by assumption. rewrite M2, M1. now rewrite app_assoc.
    + rewrite map_app, K1, K2, vs_pair by assumption. reflexivity.
    + intros v t. rewrite in_app_iff, T1, T2. split; [intros []; [now apply tk_car | now apply tk_cdr]|].
      inversion 1; subst; try discriminate; try tauto; specialize (P _ _ eq_refl); congruence.
  - rename p0 into p. match goal with ZZ : ell e = true |- _ => rename ZZ into E end.
    match goal with ZZ : forall f, In f fs -> fits p f |- _ => rename ZZ into A end. match goal with ZZ : fits d t |- _ => rename ZZ into Fd end.
    assert (C0 := C). apply (check_rep _ _ _ E) in C. destruct C as (C1 & C2 & C3). assert (C4 := no_ell_check _ C2 C3).
    rewrite vs_rep in N by assumption. assert (N1 := nodup_l _ _ N). assert (N2 := nodup_r _ _ N).
    destruct (fits_list _ C2 C3 _ Fd) as [Q Lt]. apply listp_slist in Lt. destruct Lt as (tl & ->).
    apply listp_slist in C2. destruct C2 as (ds & ->).
    destruct (IH (slist ds)) with (s := slist tl) as (B2 & M2 & K2 & T2); [cbn; lia | assumption | assumption | assumption |].
    assert (ROWS : exists Bs, Forall2 (fun f B => (forall bs, make_bindings p f bs = Some (B ++ bs)) /\ map fst B = vs p /\ forall v t, In (v, t) B <-> took p f v t) fs Bs).
    { clear -IH A C1 N1. induction fs as [|f fs IHf]; [exists []; constructor|]. destruct IHf as (Bs & F); [firstorder|].
      destruct (IH p) with (s := f) as (B & M & K & T); [cbn; lia | assumption | assumption | apply A; now left |]. exists (B :: Bs). constructor; [|assumption]. now split. }
    destruct ROWS as (Bs & R).
    assert (Len : length ds = length tl) by (rewrite !slist_sapp, !pairs_sapp in Q; cbn in Q; lia).
    assert (FK : Forall (fun B : list (ident * bval) => map fst B = vs p) Bs) by (clear -R; induction R as [|? ? ? ? (_ & K & _)]; now constructor).
    exists (transpose (vs p) (map (map snd) Bs) ++ B2). split; [|split].
    + intros bs. rewrite mb_rep by assumption. rewrite elements_slist. rewrite (slist_sapp tl), <- sapp_app, <- slist_sapp, elements_slist.
      rewrite app_length, Len. destruct (Nat.ltb _ _) eqn:X; [apply Nat.ltb_lt in X; lia|]. cbn zeta.
      replace (length fs + length tl - length tl)%nat with (length fs) by lia.
      rewrite firstn_app, Nat.sub_diag, firstn_all, firstn_O, app_nil_r. rewrite skipn_app, Nat.sub_diag, skipn_all, skipn_O. cbn [app].
      assert (mapo (fun m => option_map (map snd) (make_bindings p m [])) fs = Some (map (map snd) Bs)) as ->.
      { apply mapo_F2. clear -R. induction R as [|f B fs Bs (M & _)]; [constructor|]. cbn. constructor; [|assumption]. rewrite M, app_nil_r. reflexivity. }
      rewrite M2. now rewrite app_assoc.
    + rewrite map_app, transpose_keys, K2, vs_rep by (assumption || (clear -FK; induction FK as [|B Bs H]; constructor; [rewrite <- H; now rewrite !map_length | assumption])). reflexivity.
    + intros v b. rewrite in_app_iff, T2, (transpose_in _ N1) by assumption. split.
      * intros [(I & ts & -> & T) | T].
        -- apply vs_in in I. destruct I. apply tk_rep; try assumption. clear -R T. revert ts T.
           induction R as [|f B fs Bs (_ & _ & X)]; intros ts T; inversion T; subst; constructor; [now apply X | auto].
        -- now apply tk_tail.
      * inversion 1; subst; try discriminate.
        -- match goal with P : plain_cdr (SCons _ _) |- _ => specialize (P _ _ eq_refl); congruence end.
        -- match goal with P : plain_cdr (SCons _ _) |- _ => specialize (P _ _ eq_refl); congruence end.
        -- left. match goal with H : sapp _ _ = sapp _ _ |- _ => apply sapp_unique in H; [destruct H; subst | congruence] end.
           split; [now apply vs_in|]. eexists. split; [reflexivity|].
           match goal with H : Forall2 _ fs _ |- _ => revert H end. clear -R. revert ts.
           induction R as [|f B fs Bs (_ & _ & X)]; intros ts T; inversion T; subst; constructor; [now apply X | auto].
        -- right. match goal with H : sapp _ _ = sapp _ _ |- _ => apply sapp_unique in H; [destruct H; subst | congruence] end. assumption.
Qed.
End Rule.
