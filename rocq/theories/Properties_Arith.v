(** C38, C39, C46: integer arithmetic of the compatibility libraries. *)
From Coq Require Import ZArith List Bool Lia.
From Verif Require Import Base Model_Arith Proofs_Arith.
Open Scope Z_scope.

(** [fx h z] : -h <= z < h (Proofs_Arith); [h] is 2^23, 2^27 or 2^29 in libs, libm,
    libl.  The theorems hold for everything between. *)
Definition width (h : Z) : Prop := 8388608 <= h <= 536870912.
Example width_libs : width (2 ^ 23). Proof. unfold width. cbn. lia. Qed.
Example width_libm : width (2 ^ 27). Proof. unfold width. cbn. lia. Qed.
Example width_libl : width (2 ^ 29). Proof. unfold width. cbn. lia. Qed.

(** ** C38 *)
Theorem C38_truncated_division :
  forall h, width h -> forall dbg x y, fx h x -> fx h y -> y <> 0 -> ~ (x = - h /\ y = -1) ->
  exists q r, fxquo h dbg x y = AVal q /\ fxrem dbg x y = AVal r /\
    x = q * y + r /\ Z.abs r < Z.abs y /\ (0 <= x -> 0 <= r) /\ (x <= 0 -> r <= 0) /\ fx h q /\ fx h r.
Proof.
  intros h W dbg x y Hx Hy Hn Hm. destruct (fxquo_ok h W dbg x y Hx Hy Hn Hm) as [E1 F1].
  destruct (fxrem_ok h W dbg x y Hx Hy Hn) as [E2 F2]. exists (Z.quot x y), (Z.rem x y).
  assert (Eq : x = Z.quot x y * y + Z.rem x y) by (rewrite Z.mul_comm; exact (Z.quot_rem x y Hn)).
  pose proof (Z.rem_bound_abs x y Hn) as Hb.
  destruct (rem_sgn x y Hn) as [S1 S2].
  exact (conj E1 (conj E2 (conj Eq (conj Hb (conj S1 (conj S2 (conj F1 F2))))))).
Qed.
Print Assumptions C38_truncated_division.

(** modulo: the remainder with the sign of the divisor *)
Theorem C38_floor_remainder :
  forall h, width h -> forall dbg x y, fx h x -> fx h y -> y <> 0 ->
  exists r, fxmlo dbg x y = AVal r /\ (exists q, x = q * y + r) /\
    (0 < y -> 0 <= r < y) /\ (y < 0 -> y < r <= 0).
Proof.
  intros h W dbg x y Hx Hy Hn. destruct (fxmlo_ok h W dbg x y Hx Hy Hn) as (r & E & -> & _).
  exists (x mod y). split; [exact E|]. split.
  - exists (x / y). pose proof (Z.div_mod x y Hn). lia.
  - split; intros H; [now apply Z.mod_pos_bound|now apply Z.mod_neg_bound].
Qed.
Print Assumptions C38_floor_remainder.

Theorem C38_euclidean_division :
  forall h, width h -> forall dbg x y, fx h x -> fx h y -> y <> 0 -> ~ (x = - h /\ y = -1) ->
  exists q r, fxdiv h dbg x y = AVal q /\ fxmod dbg x y = AVal r /\
    x = q * y + r /\ 0 <= r < Z.abs y /\ fx h q /\ fx h r.
Proof. exact fxdivmod_ok. Qed.
Print Assumptions C38_euclidean_division.

Theorem C38_exact_division :
  forall h, width h -> forall dbg x y, fx h x -> fx h y -> y <> 0 -> ~ (x = - h /\ y = -1) ->
  (y | x) -> exists q, fxidv h dbg x y = AVal q /\ x = q * y /\ fx h q.
Proof. exact fxidv_ok. Qed.
Print Assumptions C38_exact_division.

(** floor-quotient: the full statement is
    [fxmqu dbg x y = AVal (x / y)] for all fixnums with non-zero divisor.  It is false: *)
Theorem C38_floor_quotient_refuted :
  forall h, width h -> exists x y, fx h x /\ fx h y /\ y <> 0 /\ ~ (x = - h /\ y = -1) /\
    forall dbg, fxmqu h dbg x y <> AVal (x / y).
Proof.
  intros h W. exists (-4), 2. unfold fx, width in *. repeat split; try lia.
  intros dbg. rewrite fxmqu_char; unfold fx; try lia. vm_compute. discriminate.
Qed.
Print Assumptions C38_floor_quotient_refuted.

(** ... and what it computes instead: one less than the floor quotient exactly when
    the division is exact and the signs differ *)
Theorem C38_floor_quotient_exactly :
  forall h, width h -> forall dbg x y, fx h x -> fx h y -> y <> 0 -> ~ (x = - h /\ y = -1) ->
  fxmqu h dbg x y = AVal (x / y - (if (x mod y =? 0) && (x * y <? 0) then 1 else 0)).
Proof. exact fxmqu_char. Qed.
Print Assumptions C38_floor_quotient_exactly.

(** hence floor-quotient and floor-remainder do not satisfy x = q*y + r *)
Theorem C38_floor_pair_refuted :
  forall h, width h -> exists x y q r, fx h x /\ fx h y /\ y <> 0 /\
    fxmqu h true x y = AVal q /\ fxmlo true x y = AVal r /\ x <> q * y + r.
Proof.
  intros h W. exists 6, (-3), (-3), 0. unfold width in W.
  assert (F6 : fx h 6) by (unfold fx; lia). assert (F3 : fx h (-3)) by (unfold fx; lia).
  repeat split; try (unfold fx; lia).
  rewrite fxmqu_char by (assumption || lia). reflexivity.
Qed.
Print Assumptions C38_floor_pair_refuted.

Example C38_example :
  fxquo 536870912 true (-7) 2 = AVal (-3) /\ fxrem true (-7) 2 = AVal (-1) /\ fxmlo true (-7) 2 = AVal 1 /\
  fxdiv 536870912 true (-7) (-2) = AVal 4 /\ fxmod true (-7) (-2) = AVal 1 /\ fxmqu 536870912 true (-7) 2 = AVal (-4) /\
  fxidv 536870912 true (-8) 2 = AVal (-4) /\ fxquo 536870912 true (-536870912) (-1) = AFail.
Proof. vm_compute. repeat split. Qed.

(** ** C39 *)
Theorem C39_gcd :
  forall h, width h -> forall dbg x y, fx h x -> fx h y ->
  ~ ((x = - h \/ x = 0) /\ (y = - h \/ y = 0)) \/ (x = 0 /\ y = 0) ->
  forall fuel, (62 <= fuel)%nat ->
  exists g, fxgcd h fuel dbg x y = AVal g /\ 0 <= g /\ (g | x) /\ (g | y) /\
    (forall d, (d | x) -> (d | y) -> (d | g)).
Proof.
  intros h W dbg x y Hx Hy Hn fuel Hf. exists (Z.gcd x y).
  exact (conj (fxgcd_ok h W dbg x y Hx Hy (gcd_fits h W x y Hx Hy Hn) fuel Hf)
        (conj (Z.gcd_nonneg x y) (conj (Z.gcd_divide_l x y) (conj (Z.gcd_divide_r x y)
        (fun d => Z.gcd_greatest x y d))))).
Qed.
Print Assumptions C39_gcd.

(** x^y, whenever it fits; [y < 2^30] for every fixnum *)
Theorem C39_expt :
  forall h, width h -> forall dbg x y, fx h x -> fx h y -> 0 <= y -> fx h (x ^ y) ->
  forall fuel, (61 <= fuel)%nat -> fxpow_entry h fuel dbg x y = AVal (x ^ y).
Proof.
  intros h W dbg x y Hx Hy H0 Hp fuel Hf. unfold fxpow_entry. rewrite assert_true by lia.
  assert (Hb : 0 <= y < 2 ^ Z.of_nat 30) by (change (2 ^ Z.of_nat 30) with 1073741824; unfold fx, width in *; lia).
  exact (fxpow_ok h W 30 fuel dbg x y Hx Hb Hp ltac:(lia)).
Qed.
Print Assumptions C39_expt.

(** a checked build never returns a wrong power *)
Theorem C39_expt_checked :
  forall h, width h -> forall fuel x y r, fx h x -> fxpow_entry h fuel true x y = AVal r -> 0 <= y /\ r = x ^ y /\ fx h r.
Proof.
  intros h W fuel x y r Hx. unfold fxpow_entry. destruct (Z.leb_spec 0 y) as [H|H]; cbn; [|discriminate].
  intros E. exact (conj H (fxpow_checked h W fuel x y r Hx H E)).
Qed.
Print Assumptions C39_expt_checked.

Theorem C39_small_library_expt :
  forall h, width h -> forall x y, fx h x -> fx h y -> 0 <= y -> fx h (x ^ y) ->
  forall fuel, (61 <= fuel)%nat -> xs_fxexpt h fuel x y = AVal (x ^ y).
Proof.
  intros h W x y Hx Hy H0 Hp fuel Hf.
  assert (Hb : 0 <= y < 2 ^ Z.of_nat 30) by (change (2 ^ Z.of_nat 30) with 1073741824; unfold fx, width in *; lia).
  exact (xs_fxexpt_ok h W 30 fuel x y Hx Hb Hp ltac:(lia)).
Qed.
Print Assumptions C39_small_library_expt.

Theorem C39_sqrt :
  forall h, width h -> forall dbg x, 0 <= x -> fx h x -> forall fuel, (16 <= fuel)%nat ->
  exists r d, exact_integer_sqrt h fuel dbg x = Some (r, d) /\ x = r * r + d /\ 0 <= d <= 2 * r /\ 0 <= r.
Proof. exact (fun h W dbg x H0 Hx fuel Hf => exact_integer_sqrt_ok h W fuel dbg x H0 Hx Hf). Qed.
Print Assumptions C39_sqrt.

Example C39_example :
  fxgcd 536870912 62 true (-12) 18 = AVal 6 /\ fxgcd 536870912 62 true 0 0 = AVal 0 /\ fxgcd 536870912 62 true 433494437 267914296 = AVal 1 /\
  fxpow_entry 536870912 61 true (-3) 5 = AVal (-243) /\ fxpow_entry 536870912 61 true (-2) 29 = AVal (-536870912) /\
  fxpow_entry 536870912 61 true 2 29 = AFail /\ xs_fxexpt 536870912 61 7 8 = AVal 5764801 /\
  exact_integer_sqrt 536870912 16 true 536870911 = Some (23170, 22011).
Proof. vm_compute. repeat split. Qed.

(** ** C46 *)
(** in a checked build negation, absolute value, addition, subtraction and
    multiplication return the exact result when it is a fixnum and stop otherwise *)
Theorem C46_checked_arithmetic :
  forall h, width h -> forall x y, fx h x -> fx h y ->
  ((fx h (- x) -> fxneg h true x = AVal (- x)) /\ (~ fx h (- x) -> fxneg h true x = AFail)) /\
  ((fx h (Z.abs x) -> fxabs h true x = AVal (Z.abs x)) /\ (~ fx h (Z.abs x) -> fxabs h true x = AFail)) /\
  ((fx h (x + y) -> fxadd h true x y = AVal (x + y)) /\ (~ fx h (x + y) -> fxadd h true x y = AFail)) /\
  ((fx h (x - y) -> fxsub h true x y = AVal (x - y)) /\ (~ fx h (x - y) -> fxsub h true x y = AFail)) /\
  ((fx h (x * y) -> fxmul h true x y = AVal (x * y)) /\ (~ fx h (x * y) -> fxmul h true x y = AFail)).
Proof. exact checked_ops. Qed.
Print Assumptions C46_checked_arithmetic.

(** an unchecked build computes the exact result in [long]: no undefined behaviour *)
Theorem C46_unchecked_arithmetic_defined :
  forall h, width h -> forall x y, fx h x -> fx h y ->
  fxneg h false x = AVal (- x) /\ fxabs h false x = AVal (Z.abs x) /\
  fxadd h false x y = AVal (x + y) /\ fxsub h false x y = AVal (x - y) /\ fxmul h false x y = AVal (x * y).
Proof. exact unchecked_ops. Qed.
Print Assumptions C46_unchecked_arithmetic_defined.

Theorem C46_checked_exact_division :
  forall h, width h -> forall x y q, fx h x -> fx h y -> fxidv h true x y = AVal q -> x = q * y /\ fx h q.
Proof. exact fxidv_checked. Qed.
Print Assumptions C46_checked_exact_division.

Example C46_example :
  fxadd 536870912 true 536870911 1 = AFail /\ fxmul 536870912 true 23170 23170 = AVal 536848900 /\
  fxmul 536870912 true 23171 23171 = AFail /\ fxneg 536870912 true (-536870912) = AFail /\ fxidv 536870912 true 7 2 = AFail.
Proof. vm_compute. repeat split. Qed.

(** in a checked build every division operation stops on a zero divisor, and every
    quotient stops on the one quotient that is no fixnum *)
Theorem C46_checked_division :
  forall h, width h -> forall x, fx h x ->
  (fxquo h true x 0 = AFail /\ fxrem true x 0 = AFail /\ fxmqu h true x 0 = AFail /\ fxmlo true x 0 = AFail /\
   fxdiv h true x 0 = AFail /\ fxmod true x 0 = AFail /\ fxidv h true x 0 = AFail) /\
  (fxquo h true (- h) (-1) = AFail /\ fxmqu h true (- h) (-1) = AFail /\
   fxdiv h true (- h) (-1) = AFail /\ fxidv h true (- h) (-1) = AFail) /\
  (forall y q, fxidv h true x y = AVal q -> fx h y -> x = q * y).
Proof.
  intros h W x Hx. split; [repeat split|]. split.
  - unfold fxquo, fxmqu, fxdiv, fxidv, assert_, nz, not_minneg, FXMIN. rewrite Z.eqb_refl. repeat split.
  - intros y q E Hy. exact (proj1 (fxidv_checked h W x y q Hx Hy E)).
Qed.
Print Assumptions C46_checked_division.
Example C46_checked_division_ex : fxquo 8388608 true (-8388608) (-1) = AFail /\ fxquo 8388608 true (-8388608) 1 = AVal (-8388608).
Proof. vm_compute. auto. Qed.
