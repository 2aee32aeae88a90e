From Coq Require Import ZArith List Bool Lia.
From Verif Require Import Base Model_Sym Model_Num Spec_Num.
Import ListNotations.
Open Scope Z_scope.

Lemma digit_val_iff r c d : 2 <= r <= 36 -> (is_digit r c d <-> digit_val c = Some d /\ d < r).
Proof.
  intros Hr. split.
  - intros H. inversion H; subst; unfold digit_val.
    + replace ((48 <=? 48 + d) && (48 + d <=? 57)) with true by (symmetry; lia). split; [f_equal|]; lia.
    + replace ((48 <=? 97 + (d - 10)) && (97 + (d - 10) <=? 57)) with false by (symmetry; lia).
      replace ((97 <=? 97 + (d - 10)) && (97 + (d - 10) <=? 122)) with true by (symmetry; lia). split; [f_equal|]; lia.
    + replace ((48 <=? 65 + (d - 10)) && (65 + (d - 10) <=? 57)) with false by (symmetry; lia).
      replace ((97 <=? 65 + (d - 10)) && (65 + (d - 10) <=? 122)) with false by (symmetry; lia).
      replace ((65 <=? 65 + (d - 10)) && (65 + (d - 10) <=? 90)) with true by (symmetry; lia). split; [f_equal|]; lia.
  - unfold digit_val. intros [E Hd].
    destruct ((48 <=? c) && (c <=? 57)) eqn:E1.
    { injection E as <-. replace c with (48 + (c - 48)) at 1 by lia. apply dig_dec; lia. }
    destruct ((97 <=? c) && (c <=? 122)) eqn:E2.
    { injection E as <-. replace c with (97 + (c - 87 - 10)) at 1 by lia. apply dig_low; lia. }
    destruct ((65 <=? c) && (c <=? 90)) eqn:E3; [|discriminate].
    injection E as <-. replace c with (65 + (c - 55 - 10)) at 1 by lia. apply dig_up; lia.
Qed.

Lemma digit_char_ok r d : 2 <= r <= 36 -> 0 <= d < r -> is_digit r (digit_char d) d.
Proof.
  intros Hr Hd. unfold digit_char. destruct (Z.ltb_spec d 10).
  - rewrite Z.add_comm. apply dig_dec; lia.
  - rewrite Z.add_comm. apply dig_low; lia.
Qed.

(** scanning *)
Definition alldig (r : Z) (s : cstr) : Prop := Forall (fun c => isdigit_in r c = true) s.
Definition valfrom (r : Z) (s : cstr) (acc : Z) : Z := fold_left (fun a c => a * r + dv c) s acc.

Lemma isdigit_is r c d : 2 <= r <= 36 -> is_digit r c d -> isdigit_in r c = true /\ dv c = d.
Proof.
  intros Hr H. apply digit_val_iff in H; [|exact Hr]. destruct H as [E Hd]. unfold isdigit_in, dv. rewrite E.
  split; [apply Z.ltb_lt; lia|reflexivity].
Qed.
Lemma isdigit_ex r c : 2 <= r <= 36 -> isdigit_in r c = true -> is_digit r c (dv c).
Proof.
  intros Hr H. apply digit_val_iff; [exact Hr|]. unfold isdigit_in in H. unfold dv.
  destruct (digit_val c) as [d|]; [|discriminate]. split; [reflexivity|]. now apply Z.ltb_lt.
Qed.
Lemma dv_range r c : 2 <= r <= 36 -> isdigit_in r c = true -> 0 <= dv c < r.
Proof.
  intros Hr H. apply isdigit_ex in H; [|exact Hr]. revert H. generalize (dv c). intros d H. inversion H; assumption.
Qed.

Lemma scan_app r s : forall acc e, alldig r s -> match e with c :: _ => isdigit_in r c = false | [] => True end ->
  scan r (s ++ e) acc = (valfrom r s acc, e).
Proof.
  induction s as [|c s IH]; intros acc e Ha He; cbn [app].
  - destruct e as [|c e]; cbn [scan]; [reflexivity|]. now rewrite He.
  - cbn [scan]. pose proof (Forall_inv Ha) as Hc. rewrite Hc. apply IH; [now apply Forall_inv_tail in Ha|exact He].
Qed.
Lemma scan_split r : forall s acc, exists ds e, s = ds ++ e /\ alldig r ds /\
  match e with c :: _ => isdigit_in r c = false | [] => True end /\ scan r s acc = (valfrom r ds acc, e).
Proof.
  induction s as [|c s IH]; intros acc.
  - exists [], []. repeat split. constructor.
  - destruct (isdigit_in r c) eqn:E.
    + destruct (IH (acc * r + dv c)) as (ds & e & -> & Hd & He & Hs). exists (c :: ds), e. cbn [scan].
      rewrite E, Hs. split; [reflexivity|]. split; [now constructor|]. split; [exact He|reflexivity].
    + exists [], (c :: s). cbn [scan]. rewrite E. split; [reflexivity|]. split; [constructor|]. split; reflexivity.
Qed.

Lemma natural_val r s n : 2 <= r <= 36 -> (natural r s n <-> s <> [] /\ alldig r s /\ n = valfrom r s 0).
Proof.
  intros Hr. split.
  - induction 1 as [c d Hd|s c n d Hn IH Hd].
    + apply isdigit_is in Hd; [|exact Hr]. destruct Hd as [A B]. split; [discriminate|]. split; [repeat constructor; exact A|].
      cbn. rewrite B. lia.
    + destruct IH as (N & A & ->). apply isdigit_is in Hd; [|exact Hr]. destruct Hd as [D B].
      split; [intros C; apply app_eq_nil in C; destruct C; discriminate|]. split.
      * apply Forall_app. split; [exact A|repeat constructor; exact D].
      * unfold valfrom. rewrite fold_left_app. cbn [fold_left]. now rewrite B.
  - intros (N & A & ->). induction s as [|c s IH] using rev_ind; [contradiction|].
    apply Forall_app in A. destruct A as [A1 A2]. pose proof (Forall_inv A2) as D. cbv beta in D.
    unfold valfrom. rewrite fold_left_app. cbn [fold_left]. fold (valfrom r s 0).
    destruct s as [|c0 s0].
    + cbn. apply nat_one. now apply isdigit_ex.
    + apply nat_snoc; [apply IH; [discriminate|exact A1]|now apply isdigit_ex].
Qed.

Lemma valfrom_nonneg r s : 2 <= r <= 36 -> alldig r s -> forall acc, 0 <= acc -> 0 <= valfrom r s acc.
Proof.
  intros Hr. induction s as [|c s IH]; intros A acc Ha; [exact Ha|]. cbn [valfrom fold_left]. apply IH; [now apply Forall_inv_tail in A|].
  pose proof (Forall_inv A) as D. apply dv_range in D; [|exact Hr]. nia.
Qed.

(** printing *)
Lemma put_digits_ok r : 2 <= r <= 36 -> forall k fuel num room acc,
  0 <= num < r ^ Z.of_nat k -> (1 <= k)%nat -> (k <= fuel)%nat -> Z.of_nat k <= room ->
  exists ds, put_digits fuel r num room acc = Some (Val (ds ++ acc, room - Z.of_nat (length ds))) /\
    natural r ds num /\ (length ds <= k)%nat.
Proof.
  intros Hr. induction k as [|k IH]; intros fuel num room acc Hn Hk Hf Hroom; [lia|].
  destruct fuel as [|fuel]; [lia|]. cbn [put_digits].
  destruct (Z.eqb_spec r 0); [lia|]. destruct (Z.leb_spec room 0); [lia|].
  rewrite Z.rem_mod_nonneg, Z.quot_div_nonneg by lia.
  pose proof (Z.mod_pos_bound num r ltac:(lia)) as Hm. pose proof (Z.div_mod num r ltac:(lia)) as Hdm.
  pose proof (digit_char_ok r (num mod r) Hr Hm) as Hd.
  destruct (Z.eqb_spec (num / r) 0) as [E|E].
  - exists [digit_char (num mod r)]. split; [reflexivity|]. split; [|cbn; lia].
    replace num with (num mod r) at 2 by lia. now apply nat_one.
  - assert (H0 : 0 <= num / r) by (apply Z.div_pos; lia).
    assert (Hlt : num / r < r ^ Z.of_nat k).
    { apply Z.div_lt_upper_bound; [lia|]. rewrite Nat2Z.inj_succ, Z.pow_succ_r in Hn by lia. lia. }
    assert (Hk1 : (1 <= k)%nat).
    { destruct k; [|lia]. cbn in Hlt. lia. }
    destruct (IH fuel (num / r) (room - 1) (digit_char (num mod r) :: acc) ltac:(lia) Hk1 ltac:(lia) ltac:(lia))
      as (ds & -> & Hnat & Hl).
    exists (ds ++ [digit_char (num mod r)]). rewrite <- app_assoc. cbn [app]. rewrite app_length. cbn [length].
    split; [do 3 f_equal; lia|]. split; [|lia].
    replace num with (num / r * r + num mod r) at 2 by lia. now apply nat_snoc.
Qed.

Lemma pow_big r k : 2 <= r -> 0 <= k -> 2 ^ k <= r ^ k.
Proof. intros. apply Z.pow_le_mono_l. lia. Qed.

Lemma print_ok num radix : 2 <= radix <= 36 -> -8589934592 < num < 8589934592 ->
  exists s, fixnum_to_string 33 num radix = Some (Val s) /\ (length s <= 34)%nat /\
    exists ds, natural radix ds (Z.abs num) /\ s = (if num <? 0 then 45 :: ds else ds).
Proof.
  intros Hr Hn.
  assert (B : 0 <= Z.abs num < radix ^ Z.of_nat 33).
  { assert (B : 8589934592 <= radix ^ 33) by exact (pow_big radix 33 ltac:(lia) ltac:(lia)).
    change (Z.of_nat 33) with 33. revert B. generalize (radix ^ 33). intros; lia. }
  destruct (put_digits_ok radix Hr 33 33 (Z.abs num) 34 [] B ltac:(lia) ltac:(lia) ltac:(lia)) as (ds & E & Hnat & Hl).
  unfold fixnum_to_string. rewrite E, app_nil_r. destruct (Z.ltb_spec num 0).
  - destruct (Z.leb_spec (34 - Z.of_nat (length ds)) 0); [lia|]. eexists. split; [reflexivity|].
    split; [cbn; lia|]. exists ds. auto.
  - eexists. split; [reflexivity|]. split; [lia|]. exists ds. auto.
Qed.

(** parsing *)
Lemma digit_not_special r c : 2 <= r <= 36 -> isdigit_in r c = true ->
  isspace c = false /\ (c =? 45) = false /\ (c =? 43) = false /\ (c =? 35) = false.
Proof.
  intros Hr H. apply isdigit_ex in H; [|exact Hr]. unfold isspace.
  inversion H as [d H1 H2 E|d H1 H2 E|d H1 H2 E]; rewrite <- E in *; repeat split; lia.
Qed.

Definition no_hex (r : Z) (s : cstr) : Prop :=
  match s with z :: x :: c :: _ => ~ (r = 16 /\ z = 48 /\ (x = 120 \/ x = 88) /\ isdigit_in 16 c = true) | _ => True end.

Lemma x_not_digit16 x : x = 120 \/ x = 88 -> isdigit_in 16 x = false.
Proof. intros [-> | ->]; reflexivity. Qed.

Lemma natural_no_hex r s n : 2 <= r <= 36 -> natural r s n -> no_hex r s.
Proof.
  intros Hr H. apply natural_val in H; [|exact Hr]. destruct H as (_ & A & _).
  destruct s as [|z [|x [|c s]]]; cbn; auto. intros (-> & -> & Hx & _).
  pose proof (Forall_inv (Forall_inv_tail A)) as D. cbv beta in D. rewrite (x_not_digit16 x Hx) in D. discriminate.
Qed.

Definition hexskip (r : Z) (s2 : cstr) : cstr :=
  match s2 with
  | z :: x :: c :: s' => if (r =? 16) && (z =? 48) && ((x =? 120) || (x =? 88)) && isdigit_in 16 c then c :: s' else s2
  | _ => s2 end.
Lemma hexskip_no r s2 : no_hex r s2 -> hexskip r s2 = s2.
Proof.
  intros H. destruct s2 as [|z [|x [|c s]]]; auto. cbn in H. unfold hexskip.
  destruct ((r =? 16) && (z =? 48) && ((x =? 120) || (x =? 88)) && isdigit_in 16 c) eqn:E; [|reflexivity].
  exfalso. apply H. apply andb_prop in E. destruct E as [E E3]. apply andb_prop in E. destruct E as [E E2].
  apply andb_prop in E. destruct E as [E0 E1]. apply Z.eqb_eq in E0, E1. apply orb_prop in E2.
  repeat split; auto. destruct E2 as [E2|E2]; apply Z.eqb_eq in E2; auto.
Qed.
Lemma hexskip_cases r s : hexskip r s = s \/ exists x t, s = 48 :: x :: t /\ r = 16 /\ (x = 120 \/ x = 88) /\ hexskip r s = t.
Proof.
  destruct s as [|z [|x [|c s]]]; auto. unfold hexskip.
  destruct ((r =? 16) && (z =? 48) && ((x =? 120) || (x =? 88)) && isdigit_in 16 c) eqn:E; [|now left].
  right. apply andb_prop in E. destruct E as [E E3]. apply andb_prop in E. destruct E as [E E2].
  apply andb_prop in E. destruct E as [E0 E1]. apply Z.eqb_eq in E0, E1. apply orb_prop in E2. subst z r.
  exists x, (c :: s). repeat split. destruct E2 as [E2|E2]; apply Z.eqb_eq in E2; auto.
Qed.

(** the digits part of strtol *)
Definition digits_part (r : Z) (neg : bool) (s3 : cstr) : option (Z * cstr) :=
  match s3 with
  | c :: _ =>
    if isdigit_in r c then
      let '(n, e) := scan r s3 0 in
      let v := if neg then - n else n in
      if (- LONG_MAX - 1 <=? v) && (v <=? LONG_MAX) then Some (v, e) else None
    else None
  | [] => None
  end.
Definition signpart (s1 : cstr) : bool * cstr :=
  match s1 with
  | c :: s' => if c =? 45 then (true, s') else if c =? 43 then (false, s') else (false, s1)
  | [] => (false, []) end.
Lemma strtol_eq s r : strtol s r = let '(neg, s2) := signpart (skip_spaces s) in digits_part r neg (hexskip r s2).
Proof. reflexivity. Qed.

Definition inlong (n : Z) : Prop := - LONG_MAX - 1 <= n <= LONG_MAX.

Lemma digits_part_iff r neg s n : 2 <= r <= 36 ->
  (digits_part r neg s = Some (n, []) <-> exists m, natural r s m /\ n = (if neg then - m else m) /\ inlong n).
Proof.
  intros Hr. unfold digits_part. split.
  - destruct s as [|c s]; [discriminate|]. destruct (isdigit_in r c) eqn:E; [|discriminate].
    destruct (scan_split r (c :: s) 0) as (ds & e & Hs & Hd & He & ->).
    destruct ((- LONG_MAX - 1 <=? _) && _) eqn:B; [|discriminate]. intros X. injection X as <- ->.
    rewrite app_nil_r in Hs. rewrite Hs. exists (valfrom r ds 0). split; [|split; [reflexivity|unfold inlong; lia]].
    apply natural_val; [exact Hr|]. split; [intros ->; discriminate|auto].
  - intros (m & Hm & -> & Hl). apply natural_val in Hm; [|exact Hr]. destruct Hm as (N & A & ->).
    destruct s as [|c s]; [contradiction|]. rewrite (Forall_inv A).
    pose proof (scan_app r (c :: s) 0 [] A I) as Sc. rewrite app_nil_r in Sc. rewrite Sc.
    unfold inlong in Hl.
    replace ((- LONG_MAX - 1 <=? _) && _) with true by (symmetry; apply andb_true_iff; split; apply Z.leb_le; lia).
    reflexivity.
Qed.

Lemma body_iff r neg s n : 2 <= r <= 36 ->
  (digits_part r neg (hexskip r s) = Some (n, []) <-> exists m, c_body r s m /\ n = (if neg then - m else m) /\ inlong n).
Proof.
  intros Hr. rewrite digits_part_iff by exact Hr. split; intros (m & Hm & En & Hl).
  - exists m. split; [|auto]. destruct (hexskip_cases r s) as [E|(x & t & -> & -> & Hx & E)]; rewrite E in Hm.
    + now apply cb_plain.
    + now apply cb_hex.
  - exists m. split; [|auto]. inversion Hm as [s' n' Hn|s' n' x Hr16 Hx Hn]; subst.
    + rewrite hexskip_no; [exact Hn|]. eapply natural_no_hex; eauto.
    + pose proof Hn as Hn'. apply natural_val in Hn'; [|lia]. destruct Hn' as (N & A & _).
      destruct s' as [|c s']; [contradiction|]. pose proof (Forall_inv A) as D. cbv beta in D.
      unfold hexskip. change (16 =? 16) with true. change (48 =? 48) with true. rewrite D.
      destruct Hx as [-> | ->]; exact Hn.
Qed.

Lemma skip_spaces_split s : exists sp, s = sp ++ skip_spaces s /\ Forall (fun c => isspace c = true) sp /\ match skip_spaces s with c :: _ => isspace c = false | [] => True end.
Proof.
  induction s as [|c s IH]; [exists []; repeat split; constructor|]. cbn [skip_spaces]. destruct (isspace c) eqn:E.
  - destruct IH as (sp & Hs & Hf & Hh). exists (c :: sp). cbn. rewrite <- Hs. repeat split; auto.
  - exists []. repeat split; [constructor|exact E].
Qed.
Lemma skip_spaces_app sp t : Forall (fun c => isspace c = true) sp ->
  match t with c :: _ => isspace c = false | [] => True end -> skip_spaces (sp ++ t) = t.
Proof.
  intros H. induction H as [|c sp Hc Hs IH]; intros Ht; cbn [app skip_spaces].
  - destruct t as [|c t]; cbn [skip_spaces]; [reflexivity|]. now rewrite Ht.
  - rewrite Hc. now apply IH.
Qed.
Lemma space_iff c : isspace c = true <-> In c [9; 10; 11; 12; 13; 32].
Proof. unfold isspace. cbn [In]. lia. Qed.

Lemma body_head r s n : 2 <= r <= 36 -> c_body r s n -> exists c s', s = c :: s' /\ isdigit_in r c = true.
Proof.
  intros Hr H. inversion H as [s' n' Hn|s' n' x Hr16 Hx Hn]; subst.
  - apply natural_val in Hn; [|exact Hr]. destruct Hn as (N & A & _). destruct s as [|c s]; [contradiction|].
    exists c, s. split; [reflexivity|exact (Forall_inv A)].
  - exists 48, (x :: s'). split; reflexivity.
Qed.

Lemma c_numeral_iff r t n : 2 <= r <= 36 ->
  (digits_part r (fst (signpart t)) (hexskip r (snd (signpart t))) = Some (n, []) <-> c_numeral r t n /\ inlong n).
Proof.
  intros Hr. rewrite body_iff by exact Hr. split.
  - intros (m & Hb & -> & Hl). split; [|exact Hl]. destruct t as [|c t]; cbn [signpart fst snd] in *.
    + now apply cn_pos.
    + destruct (Z.eqb_spec c 45) as [->|]; cbn [fst snd] in *; [now apply cn_minus|].
      destruct (Z.eqb_spec c 43) as [->|]; cbn [fst snd] in *; [now apply cn_plus|now apply cn_pos].
  - intros [Hc Hl]. inversion Hc as [s' m Hb|s' m Hb|s' m Hb]; subst.
    + exists n. destruct (body_head r t n Hr Hb) as (c & s' & -> & Hd).
      destruct (digit_not_special r c Hr Hd) as (_ & A & B & _). unfold signpart. rewrite A, B. auto.
    + exists n. auto.
    + exists m. auto.
Qed.

Lemma strtol_iff r s n : 2 <= r <= 36 -> (strtol s r = Some (n, []) <-> c_integer r s n /\ inlong n).
Proof.
  intros Hr. rewrite strtol_eq.
  replace (let '(neg, s2) := signpart (skip_spaces s) in digits_part r neg (hexskip r s2))
    with (digits_part r (fst (signpart (skip_spaces s))) (hexskip r (snd (signpart (skip_spaces s)))))
    by (destruct (signpart (skip_spaces s)); reflexivity).
  rewrite c_numeral_iff by exact Hr. split.
  - intros [Hc Hl]. split; [|exact Hl]. destruct (skip_spaces_split s) as (sp & Hs & Hf & _).
    exists sp, (skip_spaces s). split; [exact Hs|]. split; [|exact Hc]. eapply Forall_impl; [|exact Hf].
    intros c. apply space_iff.
  - intros [(sp & t & -> & Hf & Hc) Hl]. split; [|exact Hl].
    rewrite skip_spaces_app; [exact Hc| |].
    + eapply Forall_impl; [|exact Hf]. intros c. apply space_iff.
    + inversion Hc as [s' m Hb|s' m Hb|s' m Hb]; subst; [|reflexivity|reflexivity].
      destruct (body_head r t n Hr Hb) as (c & s' & -> & Hd). now destruct (digit_not_special r c Hr Hd).
Qed.

Lemma numeral_c r s n : numeral r s n -> c_integer r s n.
Proof.
  intros H. exists [], s. split; [reflexivity|]. split; [constructor|].
  inversion H; subst; [apply cn_pos|apply cn_plus|apply cn_minus]; now apply cb_plain.
Qed.

Lemma numeral_head r s n : 2 <= r <= 36 -> numeral r s n ->
  exists c s', s = c :: s' /\ isspace c = false /\ c <> 35.
Proof.
  intros Hr H. inversion H as [s' n' Hm|s' n' Hm|s' n' Hm]; subst s n.
  - apply natural_val in Hm; [|exact Hr]. destruct Hm as (N & A & _). destruct s' as [|c ds]; [contradiction|].
    exists c, ds. pose proof (Forall_inv A) as D. destruct (digit_not_special r c Hr D) as (S & _ & _ & E).
    split; [reflexivity|]. split; [exact S|]. now apply Z.eqb_neq.
  - exists 43, s'. repeat split; discriminate.
  - exists 45, s'. repeat split; discriminate.
Qed.

Section Width.
Variable h : Z.
Hypothesis Hh : 0 < h <= 4611686018427387904.

Definition infx (n : Z) : Prop := - h <= n <= h - 1.
Lemma fx_in_long n : infx n -> inlong n.
Proof. unfold infx, inlong, LONG_MAX. lia. Qed.

(** without a radix prefix, the texts accepted are exactly the C integers in range *)
Lemma string_to_fixnum_iff r s n : 2 <= r <= 36 -> radix_prefix s = None ->
  (string_to_fixnum h s r = Some n <-> c_integer r s n /\ infx n).
Proof.
  intros Hr P. unfold string_to_fixnum. rewrite P. split.
  - destruct (strtol s r) as [[v [|e0 e]]|] eqn:E; try discriminate.
    destruct ((- h <=? v) && (v <=? h - 1)) eqn:B; [|discriminate]. intros X. injection X as <-.
    apply strtol_iff in E; [|exact Hr]. split; [tauto|unfold infx; lia].
  - intros [Hc Hn]. pose proof (proj2 (strtol_iff r s n Hr) (conj Hc (fx_in_long n Hn))) as E. rewrite E.
    unfold infx in Hn. replace ((- h <=? n) && (n <=? h - 1)) with true by (symmetry; lia). reflexivity.
Qed.
Lemma string_to_fixnum_prefixed r s t n : 2 <= r <= 36 -> radix_prefix s = Some r -> t = skipn 2 s -> forall r0,
  (string_to_fixnum h s r0 = Some n <-> c_integer r t n /\ infx n).
Proof.
  intros Hr P -> r0. unfold string_to_fixnum. rewrite P. split.
  - destruct (strtol (skipn 2 s) r) as [[v [|e0 e]]|] eqn:E; try discriminate.
    destruct ((- h <=? v) && (v <=? h - 1)) eqn:B; [|discriminate]. intros X. injection X as <-.
    apply strtol_iff in E; [|exact Hr]. split; [tauto|unfold infx; lia].
  - intros [Hc Hn]. pose proof (proj2 (strtol_iff r (skipn 2 s) n Hr) (conj Hc (fx_in_long n Hn))) as E. rewrite E.
    unfold infx in Hn. replace ((- h <=? n) && (n <=? h - 1)) with true by (symmetry; lia). reflexivity.
Qed.

Lemma numeral_no_prefix r s n : 2 <= r <= 36 -> numeral r s n -> radix_prefix s = None.
Proof.
  intros Hr Hs. destruct (numeral_head r s n Hr Hs) as (c & s' & E & _ & Hc).
  subst s. unfold radix_prefix. destruct s' as [|x s']; [reflexivity|]. destruct (Z.eqb_spec c 35); [contradiction|reflexivity].
Qed.

Lemma roundtrip num radix : 2 <= radix <= 36 -> h <= 536870912 -> infx num ->
  exists s, fixnum_to_string 33 num radix = Some (Val s) /\ string_to_fixnum h s radix = Some num /\   strtofxfl h s radix = Some (SxFix num).
Proof.
  intros Hr Hh2 Hn. unfold infx in Hn.
  destruct (print_ok num radix Hr ltac:(lia)) as (s & E & _ & ds & Hd & Hs).
  assert (Hnum : numeral radix s num).
  { subst s. destruct (Z.ltb_spec num 0).
    - replace num with (- Z.abs num) by lia. apply num_minus. now replace (Z.abs (- Z.abs num)) with (Z.abs num) by lia.
    - replace num with (Z.abs num) by lia. apply num_pos. now replace (Z.abs (Z.abs num)) with (Z.abs num) by lia. }
  exists s. split; [exact E|].
  assert (Hi : c_integer radix s num /\ infx num) by (split; [now apply numeral_c|exact Hn]).
  split.
  { apply string_to_fixnum_iff; [exact Hr|now apply (numeral_no_prefix radix s num)|exact Hi]. }
  unfold strtofxfl. destruct (numeral_head radix s num Hr Hnum) as (c & s' & Es & Hsp & Hc).
  assert (P : prefixes (S (length s)) s radix 0 = Some (Some (s, radix, 0))).
  { rewrite Es. cbn [prefixes]. destruct (Z.eqb_spec c 35); [contradiction|reflexivity]. }
  rewrite P. rewrite Es at 1. rewrite Hsp.
  assert (M : negb (existsb inexact_mark s) || negb (radix =? 10) = true).
  { destruct (Z.eqb_spec radix 10) as [E10|]; [|apply orb_true_r]. rewrite orb_false_r. apply negb_true_iff.
    destruct (existsb inexact_mark s) eqn:Ex; [|reflexivity]. exfalso. apply existsb_exists in Ex. destruct Ex as (x & Hx & Hm).
    assert (Hx' : x = 45 \/ isdigit_in 10 x = true).
    { apply natural_val in Hd; [|exact Hr]. destruct Hd as (_ & A & _). rewrite E10 in A. unfold alldig in A. rewrite Forall_forall in A.
      subst s. destruct (num <? 0); [destruct Hx as [->|Hx]; [now left|right; now apply A]|right; now apply A]. }
    destruct Hx' as [->|Hx']; [discriminate|]. 
    apply isdigit_ex in Hx'; [|lia]. revert Hx'. generalize (dv x). intros d Hd'.
    unfold inexact_mark in Hm. cbn [existsb] in Hm. inversion Hd'; lia. }
  rewrite M. rewrite (proj2 (strtol_iff radix s num Hr) (conj (proj1 Hi) (fx_in_long num Hn))).
  change (0 =? 2) with false. cbv iota.
  replace ((- h <=? num) && (num <=? h - 1)) with true by (symmetry; lia). reflexivity.
Qed.

Lemma strtofxfl_range s radix l : strtofxfl h s radix = Some (SxFix l) -> infx l.
Proof.
  unfold strtofxfl. destruct (prefixes (S (length s)) s radix 0) as [[[[s1 r] conv]|]|]; try discriminate.
  destruct (match s1 with c :: _ => isspace c | [] => false end); [discriminate|].
  destruct (negb (existsb inexact_mark s1) || negb (r =? 10)); [|discriminate].
  destruct (strtol s1 r) as [[v [|c e]]|]; destruct (conv =? 2); try discriminate.
  destruct ((- h <=? v) && (v <=? h - 1)) eqn:B; [|discriminate]. intros E. injection E as <-. unfold infx. lia.
Qed.
Lemma prefixes_total : forall fuel s radix conv, (length s < fuel)%nat -> prefixes fuel s radix conv <> None.
Proof.
  induction fuel as [|f IH]; intros s radix conv H; [lia|]. cbn [prefixes].
  destruct s as [|c s]; [discriminate|]. destruct (c =? 35); [|discriminate]. destruct s as [|x s]; [discriminate|].
  cbn [length] in H.
  repeat match goal with |- context [if ?b then _ else _] => destruct b end; try discriminate; apply IH; lia.
Qed.
Lemma strtofxfl_total s radix : strtofxfl h s radix <> None.
Proof.
  unfold strtofxfl. pose proof (prefixes_total (S (length s)) s radix 0 ltac:(lia)).
  destruct (prefixes (S (length s)) s radix 0) as [[[[s1 r] conv]|]|]; try congruence; try discriminate.
  destruct (match s1 with c :: _ => isspace c | [] => false end); [discriminate|].
  destruct (negb (existsb inexact_mark s1) || negb (r =? 10)); [|discriminate].
  destruct (strtol s1 r) as [[v [|c e]]|]; destruct (conv =? 2); try discriminate.
  destruct (_ && _); discriminate.
Qed.

Lemma numeral_not_inexact s n x : numeral 10 s n -> In x s -> inexact_mark x = false.
Proof.
  intros H Hx. assert (Hx' : x = 43 \/ x = 45 \/ isdigit_in 10 x = true).
  { inversion H as [s' n' Hm|s' n' Hm|s' n' Hm]; subst s n; apply natural_val in Hm; try lia;
      destruct Hm as (_ & A & _); unfold alldig in A; rewrite Forall_forall in A.
    - right; right; now apply A.
    - destruct Hx as [->|Hx]; [now left|right; right; now apply A].
    - destruct Hx as [->|Hx]; [now right; left|right; right; now apply A]. }
  destruct Hx' as [->|[->|Hx']]; [reflexivity|reflexivity|].
  apply isdigit_ex in Hx'; [|lia]. revert Hx'. generalize (dv x). intros d Hd'.
  destruct (inexact_mark x) eqn:Hm; [|reflexivity]. unfold inexact_mark in Hm. cbn [existsb] in Hm. inversion Hd'; lia.
Qed.

Lemma prefixes_marks r0 p r : marks r0 p r -> forall fuel t conv, conv = 0 \/ conv = 1 -> exists conv',
  (conv' = 0 \/ conv' = 1) /\ prefixes (length p + fuel) (p ++ t) r0 conv = prefixes (length p - Nat.div2 (length p) + fuel) t r conv'.
Proof.
  induction 1 as [|p r x r' Hp IH Hx|p r x Hp IH Hx]; intros fuel t conv Hc.
  - exists conv. split; [exact Hc|reflexivity].
  - rewrite app_length. cbn [length]. rewrite <- app_assoc.
    replace (length p + 2 + fuel)%nat with (length p + (2 + fuel))%nat by lia.
    destruct (IH (2 + fuel)%nat ([35; x] ++ t) conv Hc) as (cv & Hcv & E). exists cv. split; [exact Hcv|]. rewrite E.
    replace (length p + 2)%nat with (S (S (length p))) by lia. cbn [Nat.div2].
    replace (length p - Nat.div2 (length p) + (2 + fuel))%nat with (S (S (S (length p)) - S (Nat.div2 (length p)) + fuel)).
    2:{ pose proof (Nat.div2_decr (length p) (length p) ltac:(lia)). lia. }
    cbn [app prefixes]. inversion Hx; reflexivity.
  - rewrite app_length. cbn [length]. rewrite <- app_assoc.
    replace (length p + 2 + fuel)%nat with (length p + (2 + fuel))%nat by lia.
    destruct (IH (2 + fuel)%nat ([35; x] ++ t) conv Hc) as (cv & Hcv & E). exists 1. split; [now right|]. rewrite E.
    replace (length p + 2)%nat with (S (S (length p))) by lia. cbn [Nat.div2].
    replace (length p - Nat.div2 (length p) + (2 + fuel))%nat with (S (S (S (length p)) - S (Nat.div2 (length p)) + fuel)).
    2:{ pose proof (Nat.div2_decr (length p) (length p) ltac:(lia)). lia. }
    cbn [app prefixes]. destruct Hx; subst x; reflexivity.
Qed.

Lemma marks_radix r0 p r : 2 <= r0 <= 36 -> marks r0 p r -> 2 <= r <= 36.
Proof. intros H0. induction 1 as [|p r x r' Hp IH Hx|]; auto. inversion Hx; lia. Qed.

Lemma strtofxfl_marked r0 p r t n : 2 <= r0 <= 36 -> marks r0 p r -> numeral r t n -> infx n ->
  strtofxfl h (p ++ t) r0 = Some (SxFix n).
Proof.
  intros Hr0 Hp Ht Hn. pose proof (marks_radix _ _ _ Hr0 Hp) as Hr.
  unfold strtofxfl. rewrite app_length.
  destruct (prefixes_marks r0 p r Hp (S (length t)) t 0 (or_introl eq_refl)) as (cv & Hcv & E).
  replace (S (length p + length t)) with (length p + S (length t))%nat by lia. rewrite E. clear E.
  destruct (numeral_head r t n Hr Ht) as (c & s' & Es & Hsp & Hc).
  assert (P : forall f, prefixes (f + S (length t)) t r cv = Some (Some (t, r, cv))).
  { intros f. replace (f + S (length t))%nat with (S (f + length t)) by lia. rewrite Es. cbn [prefixes].
    destruct (Z.eqb_spec c 35); [contradiction|reflexivity]. }
  rewrite P. rewrite Es at 1. rewrite Hsp.
  assert (M : negb (existsb inexact_mark t) || negb (r =? 10) = true).
  { destruct (Z.eqb_spec r 10) as [E10|]; [|apply orb_true_r]. rewrite orb_false_r. apply negb_true_iff.
    destruct (existsb inexact_mark t) eqn:Ex; [|reflexivity]. exfalso. apply existsb_exists in Ex. destruct Ex as (x & Hx & Hm).
    subst r. rewrite (numeral_not_inexact t n x Ht Hx) in Hm. discriminate. }
  rewrite M. replace (cv =? 2) with false by (symmetry; lia).
  rewrite (proj2 (strtol_iff r t n Hr) (conj (numeral_c r t n Ht) (fx_in_long n Hn))).
  unfold infx in Hn. replace ((- h <=? n) && (n <=? h - 1)) with true by (symmetry; lia). reflexivity.
Qed.
Lemma string_to_fixnum_marked r0 x r t n : radix_mark x r -> numeral r t n -> infx n ->
  string_to_fixnum h (35 :: x :: t) r0 = Some n.
Proof.
  intros Hx Ht Hn. assert (Hr : 2 <= r <= 36) by (inversion Hx; lia).
  apply (string_to_fixnum_prefixed r (35 :: x :: t) t n Hr); [inversion Hx; reflexivity|reflexivity|].
  split; [now apply numeral_c|exact Hn].
Qed.
End Width.
