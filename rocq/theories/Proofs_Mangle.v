From Coq Require Import ZArith List Bool Lia.
From Verif Require Import Base Model_Sym Proofs_Sym Model_Num Spec_Num Proofs_Num Model_CStr Proofs_CStr Model_Mangle Spec_Mangle Proofs_Lit.
Import ListNotations.
Open Scope Z_scope.

Definition alnum (c : Z) : Prop := 65 <= c <= 90 \/ 97 <= c <= 122 \/ 48 <= c <= 57.
Definition uphex (c : Z) : Prop := 65 <= c <= 70 \/ 48 <= c <= 57.
Definition unhex (c : Z) : Z := if c <=? 57 then c - 48 else c - 55.

(** all 256 characters, by computation *)
Definition esc_check (c : Z) : bool :=
  match mangle_escape c with
  | Val [u; a; b] => (u =? 95) && (((65 <=? a) && (a <=? 70)) || ((48 <=? a) && (a <=? 57))) &&
      (((65 <=? b) && (b <=? 70)) || ((48 <=? b) && (b <=? 57))) && (unhex a * 16 + unhex b =? c)
  | _ => false
  end.
Lemma esc_all : forallb esc_check (map Z.of_nat (seq 0 256)) = true.
Proof. vm_compute. reflexivity. Qed.
Lemma escape_ok c : chr c -> exists a b, mangle_escape c = Val [95; a; b] /\ uphex a /\ uphex b /\ unhex a * 16 + unhex b = c.
Proof.
  intros H. pose proof esc_all as A. rewrite forallb_forall in A. specialize (A c).
  assert (I : In c (map Z.of_nat (seq 0 256))).
  { apply in_map_iff. exists (Z.to_nat c). unfold chr in H. split; [lia|]. apply in_seq. lia. }
  specialize (A I). unfold esc_check in A. destruct (mangle_escape c) as [[|u [|a [|b [|? ?]]]]|]; try discriminate.
  exists a, b. unfold uphex. repeat rewrite andb_true_iff in A. destruct A as [[[A1 A2] A3] A4].
  apply Z.eqb_eq in A1, A4. subst u. split; [reflexivity|]. lia.
Qed.

(** one character's text *)
Inductive piece : Z -> list Z -> Prop :=
| pc_plain c : alnum c -> piece c [c]
| pc_esc c a b : ~ alnum c -> uphex a -> uphex b -> unhex a * 16 + unhex b = c -> piece c [95; a; b].
Inductive pieces : list Z -> list Z -> Prop :=
| ps_nil : pieces [] []
| ps_cons c s p t : piece c p -> pieces s t -> pieces (c :: s) (p ++ t).

Lemma alnum_test c : char_alphabetic c || char_numeric c = true <-> alnum c.
Proof. unfold char_alphabetic, char_numeric, alnum. lia. Qed.
Lemma mangle_loop_ok s : Forall chr s -> forall text, exists t, pieces s t /\ mangle_loop s text = Val (concat (rev text) ++ t).
Proof.
  induction s as [|c s IH]; intros H text.
  - exists []. split; [constructor|]. now rewrite app_nil_r.
  - cbn [mangle_loop]. destruct (char_alphabetic c || char_numeric c) eqn:E.
    + destruct (IH (Forall_inv_tail H) ([c] :: text)) as (t & P & E2). exists ([c] ++ t).
      split; [constructor; [constructor; now apply alnum_test|exact P]|]. rewrite E2. cbn [rev]. rewrite concat_app. cbn [concat].
      rewrite app_nil_r, <- app_assoc. reflexivity.
    + destruct (escape_ok c (Forall_inv H)) as (a & b & E1 & Ha & Hb & Hc). rewrite E1. cbn [rbind].
      destruct (IH (Forall_inv_tail H) ([95; a; b] :: text)) as (t & P & E2). exists ([95; a; b] ++ t).
      split; [constructor; [constructor; auto; intros X; apply alnum_test in X; congruence|exact P]|].
      rewrite E2. cbn [rev]. rewrite concat_app. cbn [concat]. rewrite app_nil_r, <- app_assoc. reflexivity.
Qed.
Lemma mangle_ok s pfx : Forall chr s -> exists t, pieces s t /\ c_mangle s pfx = Val (pfx ++ t).
Proof.
  intros H. destruct (mangle_loop_ok s H []) as (t & P & E). exists t. split; [exact P|]. unfold c_mangle. rewrite E. reflexivity.
Qed.

(** decoding: what follows does not matter as long as it does not look like an escape *)
Definition stop (r : list Z) : Prop := match r with [] => True | c :: r' => c = 95 /\ match r' with [] => True | d :: _ => ~ uphex d end end.
Lemma alnum_not_us c : alnum c -> c <> 95.
Proof. unfold alnum. lia. Qed.
Lemma pieces_inj s t : pieces s t -> forall s' t' r r', pieces s' t' -> stop r -> stop r' -> t ++ r = t' ++ r' -> s = s' /\ t = t' /\ r = r'.
Proof.
  induction 1 as [|c s p t Hp Ht IH]; intros s' t' r r' H' Hr Hr' E.
  - destruct H' as [|c' s' p' t' Hp' Ht']; [auto|]. exfalso. cbn [app] in E. subst r. destruct Hp' as [c' A|c' a b N Ua Ub _]; cbn [app stop] in Hr.
    + destruct Hr as [X _]. exact (alnum_not_us _ A X).
    + now destruct Hr.
  - destruct H' as [|c' s' p' t' Hp' Ht'].
    + exfalso. cbn [app] in E. subst r'. destruct Hp as [c A|c a b N Ua Ub _]; cbn [app stop] in Hr'.
      * destruct Hr' as [X _]. exact (alnum_not_us _ A X).
      * now destruct Hr'.
    + destruct Hp as [c A|c a b N Ua Ub Ec], Hp' as [c' A'|c' a' b' N' Ua' Ub' Ec']; cbn [app] in E.
      * injection E as -> E. destruct (IH s' t' r r' Ht' Hr Hr' E) as (-> & -> & ->). auto.
      * injection E as -> _. exfalso. exact (alnum_not_us _ A eq_refl).
      * injection E as <- _. exfalso. exact (alnum_not_us _ A' eq_refl).
      * injection E as -> -> E. destruct (IH s' t' r r' Ht' Hr Hr' E) as (-> & -> & ->). subst c'. rewrite Ec. auto.
Qed.

Lemma pieces_chars s t : pieces s t -> Forall (fun x => c_letter x \/ c_digit x) t.
Proof.
  induction 1 as [|c s p t Hp Ht IH]; [constructor|]. apply Forall_app. split; [|exact IH].
  unfold c_letter, c_digit. destruct Hp as [c A|c a b N Ua Ub _].
  - constructor; [unfold alnum in A; lia|constructor].
  - unfold uphex in *. do 3 (constructor; [lia|]). constructor.
Qed.
Lemma ident_app p t : c_identifier p -> Forall (fun x => c_letter x \/ c_digit x) t -> c_identifier (p ++ t).
Proof.
  destruct p as [|c p]; [intros []|]. cbn [c_identifier app]. intros [H1 H2] H. split; [exact H1|]. apply Forall_app. auto.
Qed.

Lemma mangle_identifier s pfx : Forall chr s -> c_identifier pfx -> exists t, c_mangle s pfx = Val t /\ c_identifier t.
Proof.
  intros H Hp. destruct (mangle_ok s pfx H) as (t & P & E). exists (pfx ++ t). split; [exact E|].
  apply ident_app; [exact Hp|]. eapply pieces_chars; eauto.
Qed.
Lemma mangle_injective s s' pfx t : Forall chr s -> Forall chr s' -> c_mangle s pfx = Val t -> c_mangle s' pfx = Val t -> s = s'.
Proof.
  intros H H' E E'. destruct (mangle_ok s pfx H) as (t1 & P1 & E1). destruct (mangle_ok s' pfx H') as (t2 & P2 & E2).
  rewrite E1 in E. rewrite E2 in E'. injection E as <-. injection E' as E'. apply app_inv_head in E'. subst t2.
  exact (proj1 (pieces_inj s t1 P1 s' t1 [] [] P2 I I eq_refl)).
Qed.

(** decimal texts of timestamps *)
Lemma dec_ok n : 0 <= n < 8589934592 -> exists s, number_to_string n 10 = Val s /\ natural 10 s n.
Proof.
  intros H. destruct (print_ok n 10 ltac:(lia) ltac:(lia)) as (s & E & _ & ds & Hd & Es).
  exists s. unfold number_to_string. rewrite E. split; [reflexivity|]. replace (n <? 0) with false in Es by (symmetry; lia). subst s.
  now replace (Z.abs n) with n in Hd by lia.
Qed.
Lemma natural10_digits s n : natural 10 s n -> s <> [] /\ Forall c_digit s.
Proof.
  intros H. apply natural_val in H; [|lia]. destruct H as (N & A & _). split; [exact N|].
  eapply Forall_impl; [|exact A]. cbv beta. intros c Hc. apply isdigit_ex in Hc; [|lia]. revert Hc. generalize (dv c). intros d Hd.
  unfold c_digit. inversion Hd; lia.
Qed.
Lemma natural_fun r s n m : 2 <= r <= 36 -> natural r s n -> natural r s m -> n = m.
Proof. intros Hr A B. apply natural_val in A, B; try exact Hr. destruct A as (_ & _ & ->), B as (_ & _ & ->). reflexivity. Qed.
Lemma digits_chars s : Forall c_digit s -> Forall (fun x => c_letter x \/ c_digit x) s.
Proof. apply Forall_impl. auto. Qed.
Lemma digits_split a b t u : Forall c_digit a -> Forall c_digit b -> a ++ 95 :: t = b ++ 95 :: u -> a = b /\ t = u.
Proof.
  revert b. induction a as [|x a IH]; intros [|y b] Ha Hb E; cbn [app] in E.
  - injection E as <-. auto.
  - injection E as <- _. pose proof (Forall_inv Hb) as X. unfold c_digit in X. lia.
  - injection E as -> _. pose proof (Forall_inv Ha) as X. unfold c_digit in X. lia.
  - injection E as -> E. destruct (IH b (Forall_inv_tail Ha) (Forall_inv_tail Hb) E) as [-> ->]. auto.
Qed.

(** undecorated names *)
Lemma chr_app a b : Forall chr (a ++ b) -> Forall chr a /\ Forall chr b.
Proof. apply Forall_app. Qed.
Lemma undecorate_ok s : Forall chr s -> exists u, c_undecorate_alvar s = Val u /\ Forall chr u.
Proof.
  intros H. unfold c_undecorate_alvar. destruct (starts_ok s [95]) as ([|] & E & Hb); rewrite E; cbn [rbind]; [|eauto].
  destruct (search_ok s [95]) as [(a & b & [O _] & _ & _ & E2)|(N & _)].
  2:{ exfalso. destruct (proj1 Hb eq_refl) as (q & ->). exact (N [] q eq_refl). }
  rewrite E2. cbn [rbind]. subst s. apply chr_app in H. destruct H as [_ H]. apply chr_app in H. destruct H as [_ H].
  destruct (search_ok b [95]) as [(a2 & b2 & [O2 _] & _ & E3 & _)|(_ & _ & E3 & _)]; rewrite E3; cbn [rbind].
  - exists a2. split; [reflexivity|]. subst b. now apply chr_app in H.
  - exists b. auto.
Qed.
(** "_name_suffix" undecorates to "name" *)
Lemma undecorate_decorated a b : ~ In 95 a -> c_undecorate_alvar (95 :: a ++ 95 :: b) = Val a.
Proof.
  intros H. unfold c_undecorate_alvar. destruct (starts_ok (95 :: a ++ 95 :: b) [95]) as ([|] & E & Hb); rewrite E; cbn [rbind].
  2:{ assert (false = true) by (apply Hb; now exists (a ++ 95 :: b)). discriminate. }
  destruct (search_ok (95 :: a ++ 95 :: b) [95]) as [(x & y & [O M] & _ & _ & E2)|(N & _)].
  2:{ exfalso. exact (N [] (a ++ 95 :: b) eq_refl). }
  specialize (M [] (a ++ 95 :: b) eq_refl). destruct x; [|cbn [length] in M; lia]. cbn [app] in O. injection O as <-.
  rewrite E2. cbn [rbind].
  destruct (search_ok (a ++ 95 :: b) [95]) as [(x & y & [O M2] & _ & E3 & _)|(N & _)].
  2:{ exfalso. exact (N a b eq_refl). }
  rewrite E3. cbn [rbind]. f_equal. specialize (M2 a b eq_refl).
  clear - O H M2. cbn [app] in O. revert x O M2. induction a as [|c a IH]; intros [|d x] O M; cbn [app length] in *; auto; try lia.
  - injection O as -> _. exfalso. apply H. now left.
  - injection O as <- O. f_equal. apply IH; auto; [|lia]. intros X. apply H. now right.
Qed.

(** labels *)
Definition tsok (id : ident) : Prop := 0 <= id_ts id < 8589934592.
(** a label: a mangled name, possibly with the suffix of [ts] *)
Inductive labelform : list Z -> option Z -> Prop :=
| lf_plain u t : pieces u t -> labelform (p_s ++ t) None
| lf_suffix u t n ds : pieces u t -> natural 10 ds n -> labelform (p_s ++ t ++ [95; 118] ++ ds) (Some n).
Lemma stop_v ds : stop ([95; 118] ++ ds).
Proof. cbn [app stop]. split; [reflexivity|]. unfold uphex. lia. Qed.
Lemma labelform_fun l o o' : labelform l o -> labelform l o' -> o = o'.
Proof.
  intros H H'. inversion H as [u t P E1 E2|u t n ds P D E1 E2]; inversion H' as [u' t' P' E1' E2'|u' t' n' ds' P' D' E1' E2']; subst; auto;
    match goal with X : p_s ++ _ = p_s ++ _ |- _ => apply app_inv_head in X; rename X into E end.
  - exfalso. destruct (pieces_inj _ _ P' _ _ ([95; 118] ++ ds') [] P (stop_v _) I) as (_ & _ & X); [now rewrite app_nil_r|discriminate].
  - exfalso. destruct (pieces_inj _ _ P' _ _ [] ([95; 118] ++ ds) P I (stop_v _)) as (_ & _ & X); [now rewrite app_nil_r|discriminate].
  - destruct (pieces_inj _ _ P' _ _ ([95; 118] ++ ds') ([95; 118] ++ ds) P (stop_v _) (stop_v _) E) as (_ & _ & X).
    apply app_inv_head in X. subst ds'. f_equal. eapply natural_fun; eauto; lia.
Qed.
Lemma labelform_ident l o : labelform l o -> c_identifier l.
Proof.
  intros H. destruct H as [u t P|u t n ds P D].
  - apply ident_app; [|eapply pieces_chars; eauto]. cbn [c_identifier p_s]. unfold c_letter. split; [lia|]. constructor; [lia|constructor].
  - apply ident_app; [cbn [c_identifier p_s]; unfold c_letter; split; [lia|constructor; [lia|constructor]]|]. apply Forall_app. split; [eapply pieces_chars; eauto|].
    apply Forall_app. split; [unfold c_letter; constructor; [lia|constructor; [lia|constructor]]|]. apply digits_chars. now apply natural10_digits in D.
Qed.

Lemma existsb_cstr l ls : existsb (cstr_eqb l) ls = true <-> In l ls.
Proof.
  rewrite existsb_exists. split.
  - intros (x & Hx & E). apply cstr_eqb_eq in E. now subst.
  - intros H. exists l. split; [exact H|now apply cstr_eqb_eq].
Qed.
Lemma id_to_label_ok id ls : Forall chr (id_sym id) -> (ls <> [] -> tsok id) -> exists l,
  id_to_label id ls = Val l /\ ((~ In l ls /\ labelform l None) \/ labelform l (Some (id_ts id))).
Proof.
  intros Hc Ht. unfold id_to_label. destruct (undecorate_ok (id_sym id) Hc) as (u & E & Hu). rewrite E. cbn [rbind].
  destruct (mangle_ok u p_s Hu) as (t & P & E2). rewrite E2. cbn [rbind].
  destruct (existsb (cstr_eqb (p_s ++ t)) ls) eqn:Ex.
  - apply existsb_cstr in Ex. assert (T : tsok id) by (apply Ht; intros ->; destruct Ex).
    destruct (dec_ok (id_ts id) T) as (ds & Ed & Hd). rewrite Ed. cbn [rbind]. eexists. split; [reflexivity|]. right.
    rewrite <- app_assoc. now apply (lf_suffix u).
  - exists (p_s ++ t). split; [reflexivity|]. left. split; [|now apply (lf_plain u)].
    intros X. apply existsb_cstr in X. congruence.
Qed.

Lemma assign_loop_ok : forall ids ls, Forall (fun id => Forall chr (id_sym id)) ids ->
  match ls with [] => Forall tsok (tl ids) | _ => Forall tsok ids end ->
  NoDup (map id_ts ids) -> NoDup ls -> Forall (fun l => exists o, labelform l o /\ forall n, o = Some n -> ~ In n (map id_ts ids)) ls ->
  exists r, assign_loop ids ls = Val (rev ls ++ r) /\ length r = length ids /\ NoDup (rev ls ++ r) /\ Forall c_identifier (rev ls ++ r).
Proof.
  induction ids as [|id ids IH]; intros ls Hc Ht Nts Nls Hls.
  - exists []. rewrite app_nil_r. split; [reflexivity|]. split; [reflexivity|]. split; [now apply NoDup_rev|].
    apply Forall_rev. eapply Forall_impl; [|exact Hls]. cbv beta. intros l (o & H & _). exact (labelform_ident l o H).
  - cbn [assign_loop]. destruct (id_to_label_ok id ls (Forall_inv Hc)) as (l & E & Hl).
    { intros Hne. destruct ls; [contradiction|]. exact (Forall_inv Ht). }
    rewrite E. cbn [rbind]. cbn [map] in Nts. apply NoDup_cons_iff in Nts. destruct Nts as [Ni Nts].
    assert (Nl : ~ In l ls).
    { destruct Hl as [[H _]|H]; [exact H|]. intros X. rewrite Forall_forall in Hls. destruct (Hls l X) as (o & Ho & Hn).
      pose proof (labelform_fun _ _ _ Ho H) as ->. apply (Hn (id_ts id) eq_refl). now left. }
    destruct (IH (l :: ls)) as (r & E2 & L & N2 & I2).
    + exact (Forall_inv_tail Hc).
    + destruct ls; [exact Ht|exact (Forall_inv_tail Ht)].
    + exact Nts.
    + now constructor.
    + constructor.
      * destruct Hl as [[_ H]|H]; eexists; (split; [exact H|]); intros n En; [discriminate|]. injection En as <-. exact Ni.
      * eapply Forall_impl; [|exact Hls]. cbv beta. intros l' (o & H1 & H2). exists o. split; [exact H1|]. intros n En X. apply (H2 n En). now right.
    + exists (l :: r). cbn [rev] in *. rewrite <- app_assoc in E2, N2, I2. split; [exact E2|]. split; [cbn [length]; now rewrite L|]. auto.
Qed.
Lemma labels_ok ids : Forall (fun id => Forall chr (id_sym id)) ids -> Forall tsok (tl ids) -> NoDup (map id_ts ids) ->
  exists r, assign_labels ids = Val r /\ length r = length ids /\ NoDup r /\ Forall c_identifier r.
Proof. intros H1 H2 H3. exact (assign_loop_ok ids [] H1 H2 H3 (NoDup_nil _) (Forall_nil _)). Qed.

(** local variables *)
Lemma cvar_form id : Forall chr (id_sym id) -> tsok id -> exists ds u t,
  cvar_name id = Val (118 :: ds ++ 95 :: t) /\ natural 10 ds (id_ts id) /\ pieces u t.
Proof.
  intros Hc Ht. unfold cvar_name. destruct (undecorate_ok (id_sym id) Hc) as (u & E & Hu). rewrite E. cbn [rbind].
  destruct (dec_ok (id_ts id) Ht) as (ds & Ed & Hd). rewrite Ed. cbn [rbind].
  destruct (mangle_ok u (118 :: ds ++ [95]) Hu) as (t & P & E2). rewrite E2. exists ds, u, t. split; [|auto].
  cbn [app]. rewrite <- app_assoc. reflexivity.
Qed.
Lemma cvar_ident id : Forall chr (id_sym id) -> tsok id -> exists n, cvar_name id = Val n /\ c_identifier n.
Proof.
  intros Hc Ht. destruct (cvar_form id Hc Ht) as (ds & u & t & E & D & P). eexists. split; [exact E|].
  cbn [c_identifier]. split; [unfold c_letter; lia|]. apply Forall_app. split; [apply digits_chars; now apply natural10_digits in D|].
  constructor; [left; unfold c_letter; lia|]. eapply pieces_chars; eauto.
Qed.
Lemma cvar_inj id id' n : Forall chr (id_sym id) -> Forall chr (id_sym id') -> tsok id -> tsok id' ->
  cvar_name id = Val n -> cvar_name id' = Val n -> id_ts id = id_ts id'.
Proof.
  intros Hc Hc' Ht Ht' E E'. destruct (cvar_form id Hc Ht) as (ds & u & t & E1 & D & P). destruct (cvar_form id' Hc' Ht') as (ds' & u' & t' & E1' & D' & P').
  rewrite E1 in E. rewrite E1' in E'. injection E as <-. injection E' as E'.
  apply digits_split in E'; [|apply natural10_digits in D'; tauto|apply natural10_digits in D; tauto]. destruct E' as [-> _].
  eapply natural_fun; eauto; lia.
Qed.
Lemma gen_label_form ts : 0 <= ts < 8589934592 -> exists ds, gen_label_name ts = Val (108 :: ds) /\ natural 10 ds ts.
Proof. intros H. destruct (dec_ok ts H) as (ds & E & D). exists ds. unfold gen_label_name. rewrite E. auto. Qed.

(** the kinds of names, told apart by their first characters *)
Definition kind (s : list Z) : Z :=
  match s with
  | 99 :: 120 :: 95 :: _ => 1 | 99 :: 120 :: 115 :: _ => 2 | 103 :: _ => 3 | 115 :: _ => 4 | 118 :: _ => 5 | 108 :: _ => 6 | _ => 0 end.
Lemma label_kind id ls l : Forall chr (id_sym id) -> (ls <> [] -> tsok id) -> id_to_label id ls = Val l -> kind l = 4.
Proof.
  intros H1 H2 E. destruct (id_to_label_ok id ls H1 H2) as (l' & E' & H). rewrite E in E'. injection E' as <-.
  destruct H as [[_ H]|H]; destruct H; reflexivity.
Qed.
Lemma mangled_kind id p n : Forall chr (id_sym id) -> c_mangle (id_sym id) p = Val n -> exists t, n = p ++ t.
Proof. intros H E. destruct (mangle_ok (id_sym id) p H) as (t & _ & E2). rewrite E2 in E. injection E as <-. now exists t. Qed.
Lemma kinds_differ a b c d e ts ls n1 n2 n3 n4 n5 n6 :
  Forall (fun id => Forall chr (id_sym id)) [a; b; c; d; e] -> tsok d -> tsok e -> 0 <= ts < 8589934592 ->
  gvar_name a = Val n1 -> gfun_name b = Val n2 -> gclabel_name c = Val n3 -> id_to_label d ls = Val n4 ->
  cvar_name e = Val n5 -> gen_label_name ts = Val n6 -> NoDup [n1; n2; n3; n4; n5; n6].
Proof.
  intros H Hd He Hts E1 E2 E3 E4 E5 E6.
  pose proof (Forall_inv H) as Ha. apply Forall_inv_tail in H. pose proof (Forall_inv H) as Hb. apply Forall_inv_tail in H.
  pose proof (Forall_inv H) as Hc. apply Forall_inv_tail in H. pose proof (Forall_inv H) as Hd'. apply Forall_inv_tail in H.
  pose proof (Forall_inv H) as He'. clear H.
  destruct (mangled_kind a _ _ Ha E1) as (t1 & X1). destruct (mangled_kind b _ _ Hb E2) as (t2 & X2). destruct (mangled_kind c _ _ Hc E3) as (t3 & X3).
  pose proof (label_kind d ls n4 Hd' (fun _ => Hd) E4) as K4.
  destruct (cvar_form e He' He) as (ds & u & t & E5' & _). rewrite E5 in E5'. injection E5' as X5.
  destruct (gen_label_form ts Hts) as (ds6 & E6' & _). rewrite E6 in E6'. injection E6' as X6.
  assert (K1 : kind n1 = 1) by (subst; reflexivity). assert (K2 : kind n2 = 2) by (subst; reflexivity). assert (K3 : kind n3 = 3) by (subst; reflexivity).
  assert (K5 : kind n5 = 5) by (subst; reflexivity). assert (K6 : kind n6 = 6) by (subst; reflexivity).
  apply (NoDup_map_inv kind). cbn [map]. rewrite K1, K2, K3, K4, K5, K6.
  repeat (constructor; [cbn [In]; lia|]). constructor.
Qed.
