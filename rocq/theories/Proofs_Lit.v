From Coq Require Import ZArith List Bool Lia.
From Verif Require Import Base Model_Sym Model_Num Spec_Num Proofs_Num Model_Lit Spec_Lit.
Import ListNotations.
Open Scope Z_scope.

Definition rok (r : Z) : Prop := 2 <= r <= 36.

Lemma valfrom_acc r s : forall acc, valfrom r s acc = acc * r ^ Z.of_nat (length s) + valfrom r s 0.
Proof.
  induction s as [|c s IH]; intros acc.
  - cbn [valfrom fold_left length]. unfold valfrom; cbn [fold_left]. rewrite Z.pow_0_r. lia.
  - unfold valfrom in *. cbn [fold_left length]. rewrite (IH (acc * r + dv c)), (IH (0 * r + dv c)).
    rewrite Nat2Z.inj_succ, Z.pow_succ_r by lia. ring.
Qed.
Lemma valfrom_cons r c s : valfrom r (c :: s) 0 = dv c * r ^ Z.of_nat (length s) + valfrom r s 0.
Proof. change (valfrom r (c :: s) 0) with (valfrom r s (0 * r + dv c)). rewrite valfrom_acc. ring. Qed.
Lemma valfrom_bound r s : rok r -> alldig r s -> 0 <= valfrom r s 0 < r ^ Z.of_nat (length s).
Proof.
  intros Hr. induction s as [|c s IH]; intros H.
  - unfold valfrom. cbn [fold_left length]. rewrite Z.pow_0_r. lia.
  - rewrite valfrom_cons. cbn [length]. rewrite Nat2Z.inj_succ, Z.pow_succ_r by lia.
    pose proof (dv_range r c Hr (Forall_inv H)). specialize (IH (Forall_inv_tail H)).
    assert (0 < r ^ Z.of_nat (length s)) by (apply Z.pow_pos_nonneg; unfold rok in Hr; lia). nia.
Qed.

(** lower-case digit characters are ordered like their values *)
Lemma lower_dv r c : rok r -> isdigit_in r c = true -> lower_digit c -> 
  dv c = if c <=? 57 then c - 48 else c - 87.
Proof.
  intros Hr H Hl. unfold dv, digit_val. unfold lower_digit in Hl.
  destruct (Z_le_dec c 57).
  - replace ((48 <=? c) && (c <=? 57)) with true by (symmetry; lia). now replace (c <=? 57) with true by (symmetry; lia).
  - replace ((48 <=? c) && (c <=? 57)) with false by (symmetry; lia).
    replace ((97 <=? c) && (c <=? 122)) with true by (symmetry; lia). now replace (c <=? 57) with false by (symmetry; lia).
Qed.
Lemma lower_lt r c d : rok r -> isdigit_in r c = true -> isdigit_in r d = true -> lower_digit c -> lower_digit d ->
  (c < d <-> dv c < dv d) /\ (c = d <-> dv c = dv d).
Proof.
  intros Hr H1 H2 L1 L2. rewrite (lower_dv r c), (lower_dv r d) by assumption.
  unfold lower_digit in *. destruct (Z.leb_spec c 57), (Z.leb_spec d 57); lia.
Qed.

Lemma string_le_val r s : forall t, rok r -> alldig r s -> alldig r t -> Forall lower_digit s -> Forall lower_digit t ->
  length s = length t -> (string_le s t = true <-> valfrom r s 0 <= valfrom r t 0).
Proof.
  induction s as [|x s IH]; intros [|y t] Hr A B LA LB L; try discriminate.
  - cbn [string_le]. split; [intros _; apply Z.le_refl|reflexivity].
  - cbn [string_le]. rewrite !valfrom_cons. cbn [length] in L.
    specialize (IH t Hr (Forall_inv_tail A) (Forall_inv_tail B) (Forall_inv_tail LA) (Forall_inv_tail LB) ltac:(lia)).
    pose proof (valfrom_bound r s Hr (Forall_inv_tail A)) as Bs. pose proof (valfrom_bound r t Hr (Forall_inv_tail B)) as Bt.
    injection L as L. rewrite L in *.
    destruct (lower_lt r x y Hr (Forall_inv A) (Forall_inv B) (Forall_inv LA) (Forall_inv LB)) as [Hlt Heq].
    set (P := r ^ Z.of_nat (length t)) in *. rewrite orb_true_iff, andb_true_iff, IH, Z.ltb_lt, Z.eqb_eq.
    split.
    + intros [H|[H1 H2]]; [apply Hlt in H|apply Heq in H1]; nia.
    + intros H. destruct (Z.lt_trichotomy x y) as [C|[C|C]]; [now left| |].
      * right. split; [exact C|]. apply Heq in C. nia.
      * exfalso. assert (dv y < dv x).
        { destruct (lower_lt r y x Hr (Forall_inv B) (Forall_inv A) (Forall_inv LB) (Forall_inv LA)) as [H2 _]. now apply H2. }
        nia.
Qed.

Lemma normal_low r s : rok r -> alldig r s -> normal s -> (2 <= length s)%nat ->
  r ^ Z.of_nat (length s - 1) <= valfrom r s 0.
Proof.
  intros Hr A [L N] H. destruct s as [|c [|d s]]; cbn [length] in H; try lia.
  rewrite valfrom_cons. pose proof (valfrom_bound r (d :: s) Hr (Forall_inv_tail A)) as B.
  cbn [length] in *. replace (S (S (length s)) - 1)%nat with (S (length s)) by lia.
  pose proof (dv_range r c Hr (Forall_inv A)) as D.
  assert (dv c <> 0).
  { intros E. pose proof (lower_dv r c Hr (Forall_inv A) (Forall_inv L)) as V. pose proof (Forall_inv L) as Lc.
    unfold lower_digit in Lc. destruct (Z.leb_spec c 57); [|lia]. assert (c = 48) by lia. contradiction. }
  nia.
Qed.

Lemma s_le_val r s t : rok r -> s <> [] -> t <> [] -> alldig r s -> alldig r t -> normal s -> normal t ->
  (s_le s t = true <-> valfrom r s 0 <= valfrom r t 0).
Proof.
  intros Hr Ns Nt A B Hs Ht. unfold s_le.
  pose proof (valfrom_bound r s Hr A) as Bs. pose proof (valfrom_bound r t Hr B) as Bt.
  assert (Mono : forall a b, (a < b)%nat -> r ^ Z.of_nat a <= r ^ Z.of_nat (b - 1)).
  { intros a b H. apply Z.pow_le_mono_r; unfold rok in Hr; lia. }
  assert (Ls : (1 <= length s)%nat) by (destruct s; [contradiction|cbn [length]; lia]).
  assert (Lt : (1 <= length t)%nat) by (destruct t; [contradiction|cbn [length]; lia]).
  destruct (Nat.ltb_spec (length s) (length t)) as [L|L].
  - split; [intros _|reflexivity]. pose proof (normal_low r t Hr B Ht ltac:(lia)). specialize (Mono _ _ L). lia.
  - destruct (Nat.ltb_spec (length t) (length s)) as [L2|L2].
    + split; [discriminate|]. intros H. exfalso. pose proof (normal_low r s Hr A Hs ltac:(lia)). specialize (Mono _ _ L2). lia.
    + apply string_le_val; auto; [apply Hs|apply Ht|lia].
Qed.

(** the table, checked by computation *)
Definition radix_ok (r : Z) : Prop := In r [2; 8; 10; 16].
Lemma radix_rok r : radix_ok r -> rok r.
Proof. unfold radix_ok, rok. cbn [In]. lia. Qed.
Definition lowerb (c : Z) : bool := ((48 <=? c) && (c <=? 57)) || ((97 <=? c) && (c <=? 122)).
Definition nonempty (s : list Z) : bool := match s with [] => false | _ => true end.
Definition normalb (r : Z) (s : list Z) : bool :=
  nonempty s && forallb (isdigit_in r) s && forallb lowerb s && match s with c :: _ :: _ => negb (c =? 48) | _ => true end.
Definition row_ok (r : Z) (e : Z * (list Z * list Z)) : bool :=
  let '(w, (lo, hi)) := e in
  normalb r lo && normalb r hi && (valfrom r lo 0 =? 2 ^ (w - 1)) && (valfrom r hi 0 =? 2 ^ (w - 1) - 1).
Lemma table_ok r : radix_ok r ->
  map fst (assq_row r integer_representation_table) = widths /\
  forallb (row_ok r) (assq_row r integer_representation_table) = true.
Proof. unfold radix_ok. cbn [In]. intros [<-|[<-|[<-|[<-|[]]]]]; vm_compute; auto. Qed.
Lemma normalb_ok r s : normalb r s = true -> s <> [] /\ alldig r s /\ normal s.
Proof.
  unfold normalb. rewrite !andb_true_iff. intros [[[H1 H2] H3] H4]. split; [intros ->; discriminate|].
  split; [now apply Forall_forall, forallb_forall|]. split.
  - apply Forall_forall. intros c Hc. rewrite forallb_forall in H3. specialize (H3 c Hc). unfold lowerb in H3. unfold lower_digit. lia.
  - destruct s as [|c [|d s]]; auto. lia.
Qed.

Lemma pow_half w w' : In w widths -> In w' widths -> w <= w' -> 2 ^ (w - 1) <= 2 ^ (w' - 1).
Proof. intros. apply Z.pow_le_mono_r; lia. Qed.

Definition fitsr (neg : bool) (n w : Z) : Prop := if neg then n <= 2 ^ (w - 1) else n <= 2 ^ (w - 1) - 1.
Lemma width_loop_spec r neg s : rok r -> s <> [] -> alldig r s -> normal s ->
  forall st, forallb (row_ok r) st = true ->
  match width_loop neg s st with
  | Some w => exists pre post, map fst st = pre ++ w :: post /\ fitsr neg (valfrom r s 0) w /\
                Forall (fun w' => ~ fitsr neg (valfrom r s 0) w') pre
  | None => Forall (fun w' => ~ fitsr neg (valfrom r s 0) w') (map fst st)
  end.
Proof.
  intros Hr Ns A N. induction st as [|[w [lo hi]] st IH]; intros H; cbn [width_loop map fst]; [constructor|].
  cbn [forallb] in H. apply andb_prop in H. destruct H as [H1 H2]. specialize (IH H2).
  unfold row_ok in H1. rewrite !andb_true_iff, !Z.eqb_eq in H1. destruct H1 as [[[Hlo Hhi] Vlo] Vhi].
  apply normalb_ok in Hlo, Hhi. destruct Hlo as (Nlo & Alo & Llo), Hhi as (Nhi & Ahi & Lhi).
  pose proof (s_le_val r s lo Hr Ns Nlo A Alo N Llo) as Clo. pose proof (s_le_val r s hi Hr Ns Nhi A Ahi N Lhi) as Chi.
  rewrite Vlo in Clo. rewrite Vhi in Chi.
  assert (Step : forall b, (b = true <-> fitsr neg (valfrom r s 0) w) ->
    match (if b then Some w else width_loop neg s st) with
    | Some w0 => exists pre post, w :: map fst st = pre ++ w0 :: post /\ fitsr neg (valfrom r s 0) w0 /\
                   Forall (fun w' => ~ fitsr neg (valfrom r s 0) w') pre
    | None => Forall (fun w' => ~ fitsr neg (valfrom r s 0) w') (w :: map fst st) end).
  { intros [|] Hb.
    - exists [], (map fst st). split; [reflexivity|]. split; [now apply Hb|constructor].
    - assert (Nf : ~ fitsr neg (valfrom r s 0) w) by (intros X; apply Hb in X; discriminate).
      destruct (width_loop neg s st) as [w0|].
      + destruct IH as (pre & post & E & F & G). exists (w :: pre), post. rewrite E. split; [reflexivity|]. split; [exact F|now constructor].
      + now constructor. }
  destruct neg; cbn [andb negb]; unfold fitsr in Step |- *.
  - specialize (Step (s_le s lo) Clo). destruct (s_le s lo); exact Step.
  - exact (Step (s_le s hi) Chi).
Qed.

Lemma widths_sorted pre w post w' : widths = pre ++ w :: post -> In w' (w :: post) -> w <= w'.
Proof.
  unfold widths. intros E H.
  repeat (destruct pre as [|? pre]; [injection E as E1 E2; subst w post; cbn [In] in H; lia|
    cbn [app] in E; injection E as _ E]).
  destruct pre; discriminate E.
Qed.

Lemma width_ok r (neg : bool) s : radix_ok r -> s <> [] -> alldig r s -> normal s ->
  least_width (if neg then - valfrom r s 0 else valfrom r s 0) (integer_representation_width neg s r).
Proof.
  intros Hr Ns A N. unfold integer_representation_width. destruct (table_ok r Hr) as [Hw Hrow].
  pose proof (width_loop_spec r neg s (radix_rok r Hr) Ns A N _ Hrow) as H. rewrite Hw in H.
  pose proof (valfrom_bound r s (radix_rok r Hr) A) as [V0 _].
  assert (Hf : forall w, In w widths -> (fitsr neg (valfrom r s 0) w <-> fits w (if neg then - valfrom r s 0 else valfrom r s 0))).
  { intros w Hin. assert (0 < 2 ^ (w - 1)) by (apply Z.pow_pos_nonneg; [lia|]; unfold widths in Hin; cbn [In] in Hin; lia).
    unfold fitsr, fits. destruct neg; lia. }
  unfold least_width. destruct (width_loop neg s _) as [w|].
  - destruct H as (pre & post & E & F & G).
    assert (Hin : In w widths) by (rewrite E; apply in_or_app; right; now left).
    split; [exact Hin|]. split; [now apply Hf|]. intros w' Hin' Fw'. apply Hf in Fw'; [|exact Hin'].
    rewrite E in Hin'. apply in_app_or in Hin'. destruct Hin' as [Hp|Hp].
    + rewrite Forall_forall in G. now apply G in Hp.
    + exact (widths_sorted pre w post w' E Hp).
  - intros w' Hin' Fw'. apply Hf in Fw'; [|exact Hin']. rewrite Forall_forall in H. now apply H in Hin'.
Qed.

(** reading the digits *)
Lemma downcase_dv c r : rok r -> isdigit_in r c = true ->
  isdigit_in r (char_downcase c) = true /\ dv (char_downcase c) = dv c /\ lower_digit (char_downcase c).
Proof.
  intros Hr H. pose proof (isdigit_ex r c Hr H) as D. revert D. generalize (dv c). intros d D.
  assert (E : isdigit_in r (char_downcase c) = true /\ dv (char_downcase c) = d).
  { apply isdigit_is; [exact Hr|]. unfold char_downcase. inversion D; subst.
    - replace ((65 <=? 48 + d) && (48 + d <=? 90)) with false by (symmetry; lia). now apply dig_dec.
    - replace ((65 <=? 97 + (d - 10)) && (97 + (d - 10) <=? 90)) with false by (symmetry; lia). now apply dig_low.
    - replace ((65 <=? 65 + (d - 10)) && (65 + (d - 10) <=? 90)) with true by (symmetry; lia).
      replace (65 + (d - 10) + 32) with (97 + (d - 10)) by lia. now apply dig_low. }
  split; [tauto|]. split; [tauto|]. unfold lower_digit, char_downcase. inversion D; subst; destruct (_ && _) eqn:B; lia.
Qed.
Lemma cdv_digit r c : rok r -> (exists d, char_digit_value c r = Some d) <-> isdigit_in r c = true.
Proof.
  intros Hr. unfold char_digit_value, isdigit_in, digit_val, char_downcase. unfold rok in Hr.
  destruct ((65 <=? c) && (c <=? 90)) eqn:U.
  - replace ((48 <=? c + 32) && (c + 32 <=? 57)) with false by (symmetry; lia).
    replace ((97 <=? c + 32) && (c + 32 <=? 122)) with true by (symmetry; lia).
    replace ((48 <=? c) && (c <=? 57)) with false by (symmetry; lia).
    replace ((97 <=? c) && (c <=? 122)) with false by (symmetry; lia).
    destruct (Z.leb_spec r (c + 32 - 87)); split.
    + intros [d E]; discriminate. + intros E; lia. + intros _. lia. + intros _. eauto.
  - destruct ((48 <=? c) && (c <=? 57)) eqn:B1; [|destruct ((97 <=? c) && (c <=? 122)) eqn:B2].
    + destruct (Z.leb_spec r (c - 48)); split; try (intros [d E]; discriminate); intros; eauto; lia.
    + destruct (Z.leb_spec r (c - 87)); split; try (intros [d E]; discriminate); intros; eauto; lia.
    + split; [intros [d E]|intros E]; discriminate.
Qed.
Lemma cdv_none r c : rok r -> isdigit_in r c = false -> char_digit_value c r = None.
Proof.
  intros Hr H. destruct (char_digit_value c r) eqn:E; [|reflexivity].
  rewrite (proj1 (cdv_digit r c Hr) (ex_intro _ z E)) in H. discriminate.
Qed.

Lemma uinteger_split r neg : rok r -> forall i digits, exists ds e,
  i = ds ++ e /\ alldig r ds /\ match e with c :: _ => isdigit_in r c = false | [] => True end /\
  uinteger_loop r neg i digits = (integer_datum neg (rev (map char_downcase ds) ++ digits) r, e).
Proof.
  intros Hr. induction i as [|c i IH]; intros digits.
  - exists [], []. repeat split. constructor.
  - cbn [uinteger_loop]. destruct (isdigit_in r c) eqn:D.
    + destruct (proj2 (cdv_digit r c Hr) D) as [d Ed]. rewrite Ed.
      destruct (IH (char_downcase c :: digits)) as (ds & e & -> & A & He & E).
      exists (c :: ds), e. split; [reflexivity|]. split; [now constructor|]. split; [exact He|].
      rewrite E. cbn [map rev]. rewrite <- app_assoc. reflexivity.
    + rewrite (cdv_none r c Hr D). exists [], (c :: i). repeat split; [constructor|exact D].
Qed.

Lemma strip_ok r s : rok r -> alldig r s -> Forall lower_digit s -> s <> [] ->
  strip_zeros s <> [] /\ alldig r (strip_zeros s) /\ normal (strip_zeros s) /\ valfrom r (strip_zeros s) 0 = valfrom r s 0.
Proof.
  intros Hr. induction s as [|c s IH]; intros A L N; [contradiction|]. destruct s as [|d s].
  - cbn [strip_zeros]. split; [discriminate|]. split; [exact A|]. split; [split; auto|reflexivity].
  - change (strip_zeros (c :: d :: s)) with (if c =? 48 then strip_zeros (d :: s) else c :: d :: s).
    destruct (Z.eqb_spec c 48) as [->|Hc].
    + destruct (IH (Forall_inv_tail A) (Forall_inv_tail L) ltac:(discriminate)) as (H1 & H2 & H3 & H4).
      split; [exact H1|]. split; [exact H2|]. split; [exact H3|]. rewrite H4, (valfrom_cons r 48 (d :: s)). change (dv 48) with 0. lia.
    + split; [discriminate|]. split; [exact A|]. split; [|reflexivity]. split; [exact L|exact Hc].
Qed.

Lemma downcase_list r s : rok r -> alldig r s ->
  alldig r (map char_downcase s) /\ Forall lower_digit (map char_downcase s) /\ forall acc, valfrom r (map char_downcase s) acc = valfrom r s acc.
Proof.
  intros Hr. induction s as [|c s IH]; intros A; [repeat split; constructor|].
  destruct (IH (Forall_inv_tail A)) as (H1 & H2 & H3). destruct (downcase_dv c r Hr (Forall_inv A)) as (D1 & D2 & D3).
  cbn [map]. split; [now constructor|]. split; [now constructor|]. intros acc.
  change (valfrom r (char_downcase c :: map char_downcase s) acc) with (valfrom r (map char_downcase s) (acc * r + dv (char_downcase c))).
  rewrite H3, D2. reflexivity.
Qed.

Definition datum_ok (r : Z) (v : Z) (d : int_datum) : Prop :=
  exists n, natural r (id_digits d) n /\ normal (id_digits d) /\ v = (if id_neg d then - n else n) /\
    id_radix d = r /\ least_width v (id_width d).

Lemma datum_of r (neg : bool) ds : radix_ok r -> alldig r ds -> ds <> [] -> exists d,
  integer_datum neg (rev (map char_downcase ds)) r = Some d /\ id_neg d = neg /\
  datum_ok r (if neg then - valfrom r ds 0 else valfrom r ds 0) d.
Proof.
  intros Hr A N. pose proof (radix_rok r Hr) as Hr'. destruct (downcase_list r ds Hr' A) as (A' & L' & V').
  assert (Nr : map char_downcase ds <> []) by (destruct ds; [contradiction|discriminate]).
  destruct (strip_ok r _ Hr' A' L' Nr) as (S1 & S2 & S3 & S4). rewrite V' in S4.
  unfold integer_datum. destruct (rev (map char_downcase ds)) as [|c0 rs] eqn:Er.
  { exfalso. apply Nr. rewrite <- (rev_involutive (map char_downcase ds)), Er. reflexivity. }
  rewrite <- Er, rev_involutive. eexists. split; [reflexivity|]. split; [reflexivity|]. exists (valfrom r ds 0).
  cbn [id_digits id_neg id_radix id_width]. split; [apply natural_val; auto|]. split; [exact S3|]. split; [reflexivity|]. split; [reflexivity|].
  rewrite <- S4. now apply width_ok.
Qed.

(** every signed numeral followed by something that is no digit *)
Lemma read_ok r s v rest : radix_ok r -> numeral r s v ->
  match rest with c :: _ => isdigit_in r c = false | [] => True end ->
  exists d, subread_integer r (s ++ rest) = (Some d, rest) /\ datum_ok r v d.
Proof.
  intros Hr Hs He. pose proof (radix_rok r Hr) as Hr'.
  assert (Main : forall (neg : bool) t, natural r t (Z.abs v) -> v = (if neg then - Z.abs v else Z.abs v) -> 
            exists d, uinteger_loop r neg (t ++ rest) [] = (Some d, rest) /\ datum_ok r v d).
  { intros neg t Ht Ev. apply natural_val in Ht; [|exact Hr']. destruct Ht as (N & A & En).
    destruct (uinteger_split r neg Hr' (t ++ rest) []) as (ds & e & Ei & Ad & Hed & E).
    assert (X : t = ds /\ rest = e).
    { pose proof (scan_app r t 0 rest A) as Q1. pose proof (scan_app r ds 0 e Ad) as Q2.
      clear - Ei A Ad He Hed. revert ds Ei Ad. induction t as [|c t IH]; intros ds Ei Ad.
      - destruct ds as [|d ds]; [auto|]. cbn [app] in Ei. subst rest. rewrite (Forall_inv Ad) in He. discriminate.
      - destruct ds as [|d ds].
        + cbn [app] in Ei. subst e. rewrite (Forall_inv A) in Hed. discriminate.
        + cbn [app] in Ei. injection Ei as <- Ei. destruct (IH (Forall_inv_tail A) ds Ei (Forall_inv_tail Ad)) as [-> ->]. auto. }
    destruct X as [<- <-]. rewrite E, app_nil_r. destruct (datum_of r neg t Hr A N) as (d & Ed & _ & Hd). rewrite Ed.
    exists d. split; [reflexivity|]. rewrite <- En, <- Ev in Hd. exact Hd. }
  inversion Hs as [t n Hn|t n Hn|t n Hn]; subst s v; cbn [app].
  - pose proof Hn as Hn'. apply natural_val in Hn'; [|exact Hr']. destruct Hn' as (N & A & En).
    destruct t as [|c t]; [contradiction|]. destruct (digit_not_special r c Hr' (Forall_inv A)) as (_ & S1 & S2 & _).
    pose proof (valfrom_bound r (c :: t) Hr' A) as B.
    cbn [app subread_integer]. 
    replace (c =? 43) with false by (symmetry; lia). replace (c =? 45) with false by (symmetry; lia).
    apply (Main false (c :: t)); [replace (Z.abs n) with n by lia; exact Hn|lia].
  - pose proof Hn as Hn'. apply natural_val in Hn'; [|exact Hr']. destruct Hn' as (N & A & En).
    pose proof (valfrom_bound r t Hr' A) as B.
    cbn [subread_integer]. change (43 =? 43) with true. cbv iota.
    apply (Main false t); [replace (Z.abs n) with n by lia; exact Hn|lia].
  - pose proof Hn as Hn'. apply natural_val in Hn'; [|exact Hr']. destruct Hn' as (N & A & En).
    pose proof (valfrom_bound r t Hr' A) as B.
    cbn [subread_integer]. change (45 =? 43) with false. change (45 =? 45) with true. cbv iota.
    apply (Main true t); [replace (Z.abs (- n)) with n by lia; exact Hn|lia].
Qed.

(** what is accepted is a numeral *)
Lemma read_only r i d rest : radix_ok r -> subread_integer r i = (Some d, rest) ->
  exists s v, i = s ++ rest /\ numeral r s v /\ match rest with c :: _ => isdigit_in r c = false | [] => True end /\ datum_ok r v d.
Proof.
  intros Hr. pose proof (radix_rok r Hr) as Hr'.
  assert (Main : forall (neg : bool) t, uinteger_loop r neg t [] = (Some d, rest) -> exists s n, t = s ++ rest /\ natural r s n /\
     match rest with c :: _ => isdigit_in r c = false | [] => True end /\ datum_ok r (if neg then - n else n) d).
  { intros neg t E. destruct (uinteger_split r neg Hr' t []) as (ds & e & -> & A & He & E'). rewrite E' in E. rewrite app_nil_r in E.
    injection E as E <-. exists ds, (valfrom r ds 0). split; [reflexivity|].
    assert (N : ds <> []) by (intros ->; discriminate E). split; [apply natural_val; auto|]. split; [exact He|].
    destruct (datum_of r neg ds Hr A N) as (d' & Ed & _ & Hd). congruence. }
  unfold subread_integer. destruct i as [|c i]; [discriminate|].
  destruct (Z.eqb_spec c 43) as [->|H1]; [|destruct (Z.eqb_spec c 45) as [->|H2]]; intros E; apply Main in E;
    destruct E as (s & n & Ei & Hn & He & Hd).
  - exists (43 :: s), n. rewrite Ei. split; [reflexivity|]. split; [now apply num_plus|auto].
  - exists (45 :: s), (- n). rewrite Ei. split; [reflexivity|]. split; [now apply num_minus|auto].
  - exists s, n. split; [exact Ei|]. split; [now apply num_pos|auto].
Qed.
Lemma read_none r i rest : radix_ok r -> subread_integer r i = (None, rest) ->
  exists sg, (sg = [] \/ sg = [43] \/ sg = [45]) /\ i = sg ++ rest /\ match rest with c :: _ => isdigit_in r c = false | [] => True end.
Proof.
  intros Hr. pose proof (radix_rok r Hr) as Hr'.
  assert (Main : forall (neg : bool) t, uinteger_loop r neg t [] = (None, rest) -> t = rest /\ match rest with c :: _ => isdigit_in r c = false | [] => True end).
  { intros neg t E. destruct (uinteger_split r neg Hr' t []) as (ds & e & -> & A & He & E'). rewrite E' in E. rewrite app_nil_r in E.
    injection E as E <-. destruct ds as [|c ds]; [auto|]. exfalso.
    destruct (datum_of r neg (c :: ds) Hr A ltac:(discriminate)) as (d' & Ed & _). congruence. }
  unfold subread_integer. destruct i as [|c i].
  - intros E. exists []. apply (Main false []) in E. destruct E as [<- H]. auto.
  - destruct (Z.eqb_spec c 43) as [->|H1]; [|destruct (Z.eqb_spec c 45) as [->|H2]]; intros E; apply Main in E; destruct E as [-> H].
    + exists [43]. auto. + exists [45]. auto. + exists []. auto.
Qed.

(** binary digits to octal digits *)
Lemma oct3_ok a b c : isdigit_in 2 a = true -> isdigit_in 2 b = true -> isdigit_in 2 c = true ->
  exists o, oct3 a b c = Some o /\ isdigit_in 8 o = true /\ dv o = dv a * 4 + dv b * 2 + dv c.
Proof.
  assert (B : forall x, isdigit_in 2 x = true -> x = 48 \/ x = 49).
  { intros x H. apply isdigit_ex in H; [|lia]. revert H. generalize (dv x). intros d H. inversion H; lia. }
  intros H1 H2 H3. destruct (B _ H1) as [-> | ->], (B _ H2) as [-> | ->], (B _ H3) as [-> | ->]; eexists; split; try reflexivity; split; reflexivity.
Qed.
Lemma valfrom_snoc r s c : valfrom r (s ++ [c]) 0 = valfrom r s 0 * r + dv c.
Proof. unfold valfrom. rewrite fold_left_app. reflexivity. Qed.
Lemma rev_ind3 (P : list Z -> Prop) : P [] -> (forall c, P [c]) -> (forall b c, P [c; b]) ->
  (forall a b c r, P r -> P (c :: b :: a :: r)) -> forall l, P l.
Proof.
  intros H0 H1 H2 H3. assert (X : forall n l, (length l <= n)%nat -> P l).
  { induction n as [|n IH]; intros l L.
    - destruct l; [exact H0|cbn [length] in L; lia].
    - destruct l as [|c [|b [|a r]]]; auto. apply H3, IH. cbn [length] in L. lia. }
  intros l. exact (X (length l) l (Nat.le_refl _)).
Qed.
Lemma bin_oct_ok : forall rd l, alldig 2 (rev rd) -> alldig 8 l -> exists o,
  bin_oct rd l = Some (o ++ l) /\ alldig 8 o /\ valfrom 8 o 0 = valfrom 2 (rev rd) 0 /\ (rd <> [] -> o <> []).
Proof.
  induction rd as [|c|b c|a b c r IH] using rev_ind3; intros l A L.
  - exists []. repeat split; auto; constructor.
  - cbn [rev app] in A. destruct (oct3_ok 48 48 c eq_refl eq_refl (Forall_inv A)) as (o & E & D & V).
    exists [o]. cbn [bin_oct app]. rewrite E. split; [reflexivity|]. split; [repeat constructor; exact D|]. split; [|discriminate].
    cbn [rev app]. unfold valfrom. cbn [fold_left]. rewrite V. change (dv 48) with 0. lia.
  - cbn [rev app] in A. destruct (oct3_ok 48 b c eq_refl (Forall_inv A) (Forall_inv (Forall_inv_tail A))) as (o & E & D & V).
    exists [o]. cbn [bin_oct app]. rewrite E. split; [reflexivity|]. split; [repeat constructor; exact D|]. split; [|discriminate].
    cbn [rev app]. unfold valfrom. cbn [fold_left]. rewrite V. change (dv 48) with 0. lia.
  - cbn [rev] in A. unfold alldig in A. rewrite !Forall_app in A. destruct A as [[[Ar Aa] Ab] Ac].
    destruct (oct3_ok a b c (Forall_inv Aa) (Forall_inv Ab) (Forall_inv Ac)) as (o & E & D & V).
    destruct (IH (o :: l) Ar ltac:(now constructor)) as (p & Ep & Ap & Vp & _).
    exists (p ++ [o]). cbn [bin_oct]. rewrite E, Ep. split; [now rewrite <- app_assoc|].
    split; [apply Forall_app; split; [exact Ap|repeat constructor; exact D]|].
    split; [|intros _ X; now apply app_eq_nil in X].
    cbn [rev]. rewrite !valfrom_snoc, Vp, V. ring.
Qed.

Lemma const_ok r v d : radix_ok r -> datum_ok r v d -> fits 24 v -> exists t, const_text d = Some t /\ c_signed t v.
Proof.
  intros Hr (n & Hn & Nn & Ev & Er & Hw) Hf. pose proof (radix_rok r Hr) as Hr'.
  unfold const_text. destruct (id_width d) as [w|].
  2:{ exfalso. apply (Hw 24); [unfold widths; cbn [In]; auto|exact Hf]. }
  destruct Hw as (Hin & _ & Hmin). specialize (Hmin 24 ltac:(unfold widths; cbn [In]; auto) Hf).
  replace (negb ((w =? 8) || (w =? 16) || (w =? 24))) with false.
  2:{ symmetry. apply negb_false_iff. unfold widths in Hin. cbn [In] in Hin. lia. }
  assert (Sg : forall t, c_constant t n -> c_signed ((if id_neg d then 45 else 43) :: t) v).
  { intros t Ht. subst v. destruct (id_neg d); [now apply cs_minus|now apply cs_plus]. }
  rewrite Er. pose proof Hn as Hn'. apply natural_val in Hn'; [|exact Hr']. destruct Hn' as (N & A & En).
  unfold radix_ok in Hr. cbn [In] in Hr. destruct Hr as [<-|[<-|[<-|[<-|[]]]]]; cbn [Z.eqb Pos.eqb].
  - destruct (bin_oct_ok (rev (id_digits d)) [] ltac:(rewrite rev_involutive; exact A) ltac:(constructor)) as (o & E & Ao & Vo & No).
    rewrite E, app_nil_r. eexists. split; [reflexivity|]. apply Sg, cc_oct, natural_val; [lia|].
    split; [discriminate|]. split; [constructor; [reflexivity|exact Ao]|].
    rewrite valfrom_cons. change (dv 48) with 0. rewrite rev_involutive in Vo. lia.
  - eexists. split; [reflexivity|]. apply Sg, cc_oct, natural_val; [lia|]. split; [discriminate|].
    split; [constructor; [reflexivity|exact A]|]. rewrite valfrom_cons. change (dv 48) with 0. lia.
  - eexists. split; [reflexivity|]. apply Sg. destruct (id_digits d) as [|c s] eqn:Es; [contradiction|].
    destruct (Z.eq_dec c 48) as [->|Hc].
    + destruct s as [|c2 s]; [|destruct Nn as [_ Nn]; contradiction]. apply cc_oct, natural_val; [lia|].
      split; [discriminate|]. split; [repeat constructor|]. exact En.
    + now apply cc_dec.
  - eexists. split; [reflexivity|]. apply Sg, cc_hex; [now left|exact Hn].
Qed.

Definition no_digit_first (r : Z) (rest : list Z) : Prop := forall c rest' d, rest = c :: rest' -> ~ is_digit r c d.
Lemma ndf_iff r rest : rok r -> no_digit_first r rest <-> match rest with c :: _ => isdigit_in r c = false | [] => True end.
Proof.
  intros Hr. unfold no_digit_first. destruct rest as [|c rest].
  - split; [auto|discriminate].
  - split.
    + intros H. destruct (isdigit_in r c) eqn:E; [|reflexivity]. exfalso. exact (H c rest (dv c) eq_refl (isdigit_ex r c Hr E)).
    + intros H c' rest' d E Hd. injection E as <- <-. apply isdigit_is in Hd; [|exact Hr]. destruct Hd; congruence.
Qed.
