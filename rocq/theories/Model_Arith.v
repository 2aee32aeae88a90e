(** Integer arithmetic of the compatibility libraries, /repo/lib/libl.sf:463-610
    (the same text is in lib/libm.sf:402-549 and, without [fxmqu], lib/libs.sf:353-478).
    The three libraries differ in FIXNUM_BIT only (libl.sf:459 30, libm.sf:398 28,
    libs.sf:345 24); [h] is 2^(FIXNUM_BIT-1), so FIXNUM_MIN = -h and FIXNUM_MAX = h-1.
    [dbg] says whether assertions are compiled in (NDEBUG undefined): libl.sf:512-593
    has the checked versions, 463-492 the unchecked ones.  Arguments are fixnums held
    in C [long] (64 bits); the double product in [fxmul] is compared with the fixnum
    range only, where it agrees with the exact product. *)
From Coq Require Import ZArith List Bool.
From Verif Require Import Base.
Open Scope Z_scope.

(** a value, a failed assertion, undefined behaviour, or fuel exhausted *)
Inductive ares := AVal (z : Z) | AFail | AUB | AFuel.

Definition abind (r : ares) (k : Z -> ares) : ares :=
  match r with AVal z => k z | AFail => AFail | AUB => AUB | AFuel => AFuel end.

Section Width.
Variable h : Z.
Definition FXMIN : Z := - h.
Definition FXMAX : Z := h - 1.
Definition in_fx (z : Z) : bool := (FXMIN <=? z) && (z <=? FXMAX).

(** [assert(c); k] *)
Definition assert_ (dbg c : bool) (k : ares) : ares := if dbg && negb c then AFail else k.

(** result of a C [long] operation *)
Definition lng (z : Z) : ares :=
  if (LONG_MIN <=? z) && (z <=? LONG_MAX) then AVal z else AUB.

(** C [x / y] and [x % y] on long *)
Definition cdiv (x y : Z) : ares := if y =? 0 then AUB else lng (Z.quot x y).
Definition crem (x y : Z) : ares := if y =? 0 then AUB else lng (Z.rem x y).
Definition labs (x : Z) : ares := lng (Z.abs x).

(** libl.sf:464, 514-517 *)
Definition fxneg (dbg : bool) (x : Z) : ares := assert_ dbg (negb (x =? FXMIN)) (lng (- x)).
(** libl.sf:465, 518-521 *)
Definition fxabs (dbg : bool) (x : Z) : ares := assert_ dbg (negb (x =? FXMIN)) (labs x).
(** libl.sf:466, 522-526 *)
Definition fxadd (dbg : bool) (x y : Z) : ares :=
  abind (lng (x + y)) (fun z => assert_ dbg (in_fx z) (AVal z)).
(** libl.sf:467, 527-531 *)
Definition fxsub (dbg : bool) (x y : Z) : ares :=
  abind (lng (x - y)) (fun z => assert_ dbg (in_fx z) (AVal z)).
(** libl.sf:468, 532-536 *)
Definition fxmul (dbg : bool) (x y : Z) : ares :=
  assert_ dbg (in_fx (x * y)) (lng (x * y)).
Definition nz (y : Z) : bool := negb (y =? 0).
Definition not_minneg (x y : Z) : bool := negb (x =? FXMIN) || negb (y =? -1).
(** libl.sf:470, 538-543 *)
Definition fxidv (dbg : bool) (x y : Z) : ares :=
  assert_ dbg (nz y) (assert_ dbg (not_minneg x y)
    (if dbg then abind (crem x y) (fun r => assert_ dbg (r =? 0) (cdiv x y)) else cdiv x y)).
(** libl.sf:472, 545-548 *)
Definition fxquo (dbg : bool) (x y : Z) : ares :=
  assert_ dbg (nz y) (assert_ dbg (not_minneg x y) (cdiv x y)).
(** libl.sf:473, 549-552 *)
Definition fxrem (dbg : bool) (x y : Z) : ares := assert_ dbg (nz y) (crem x y).
(** libl.sf:475-477, 554-558 *)
Definition fxmqu (dbg : bool) (x y : Z) : ares :=
  assert_ dbg (nz y) (assert_ dbg (not_minneg x y)
    (abind (cdiv x y) (fun q =>
       if ((x <? 0) && (y >? 0)) || ((x >? 0) && (y <? 0)) then lng (q - 1) else AVal q))).
(** libl.sf:478-480, 559-562 *)
Definition fxmlo (dbg : bool) (x y : Z) : ares :=
  assert_ dbg (nz y)
    (abind (crem x y) (fun r =>
       if ((r <? 0) && (y >? 0)) || ((r >? 0) && (y <? 0)) then lng (r + y) else AVal r)).
(** libl.sf:482-484, 564-568 *)
Definition fxdiv (dbg : bool) (x y : Z) : ares :=
  assert_ dbg (nz y) (assert_ dbg (not_minneg x y)
    (abind (cdiv x y) (fun q => abind (crem x y) (fun r =>
       if r <? 0 then (if y >? 0 then lng (q - 1) else lng (q + 1)) else AVal q)))).
(** libl.sf:485-487, 569-572 *)
Definition fxmod (dbg : bool) (x y : Z) : ares :=
  assert_ dbg (nz y)
    (abind (crem x y) (fun r =>
       if r <? 0 then (if y >? 0 then lng (r + y) else lng (r - y)) else AVal r)).

(** the loop of libl.sf:489, 575: [while (b) c = a%b, a = b, b = c] *)
Fixpoint gcd_loop (fuel : nat) (a b : Z) : ares :=
  match fuel with
  | O => AFuel
  | S f => if b =? 0 then AVal a else abind (crem a b) (fun c => gcd_loop f b c)
  end.
(** libl.sf:488-491, 573-578 *)
Definition fxgcd (fuel : nat) (dbg : bool) (x y : Z) : ares :=
  abind (labs x) (fun a => abind (labs y) (fun b =>
  abind (gcd_loop fuel a b) (fun g => assert_ dbg (g <=? FXMAX) (AVal g)))).

(** libl.sf:597-604; [goto retry] is the second recursive call *)
Fixpoint fxpow (fuel : nat) (dbg : bool) (x y : Z) : ares :=
  match fuel with
  | O => AFuel
  | S f =>
    if y =? 0 then AVal 1
    else if y =? 1 then AVal x
    else if Z.rem y 2 =? 1 then
      abind (fxpow f dbg x (y - 1)) (fun p =>
      abind (lng (x * p)) (fun x' => assert_ dbg (in_fx x') (AVal x')))
    else
      abind (lng (x * x)) (fun x' =>
      assert_ dbg (in_fx x') (fxpow f dbg x' (Z.quot y 2)))
  end.
(** libl.sf:598: the assertion on entry (it also holds at each recursive call) *)
Definition fxpow_entry (fuel : nat) (dbg : bool) (x y : Z) : ares :=
  assert_ dbg (0 <=? y) (fxpow fuel dbg x y).

(** libl.sf:607-610 *)
Fixpoint fxsqrt (fuel : nat) (dbg : bool) (x : Z) : ares :=
  match fuel with
  | O => AFuel
  | S f =>
    assert_ dbg (0 <=? x)
      (if x <? 2 then AVal x
       else abind (fxsqrt f dbg (Z.shiftr x 2)) (fun r =>
            abind (lng (Z.shiftl r 1)) (fun s =>
            abind (lng (s + 1)) (fun l =>
            abind (lng (l * l)) (fun ll => AVal (if ll >? x then s else l))))))
  end.

(** lib/libl.sf:4470-4472; the second value is computed in fixnum arithmetic *)
Definition exact_integer_sqrt (fuel : nat) (dbg : bool) (x : Z) : option (Z * Z) :=
  match fxsqrt fuel dbg x with
  | AVal r => match abind (fxmul dbg r r) (fun rr => fxsub dbg x rr) with
              | AVal d => Some (r, d)
              | _ => None
              end
  | _ => None
  end.

(** lib/libxs.sf:444-451, with [int] arithmetic as in libxs.sf:393-399; a product is
    returned as an object and so cut to FIXNUM_BIT bits (see Model_Imm); libxs.sf has 24-bit fixnums *)
Definition box (z : Z) : Z := (z + h) mod (2 * h) - h.
Definition int32 (z : Z) : ares := if (INT_MIN <=? z) && (z <=? INT_MAX) then AVal z else AUB.
Fixpoint xs_fxexpt (fuel : nat) (x y : Z) : ares :=
  match fuel with
  | O => AFuel
  | S f =>
    if y =? 0 then AVal 1
    else if x =? 0 then AVal 0
    else if y <? 0 then AVal 0
    else if y =? 1 then AVal x
    else if negb (Z.rem y 2 =? 0) then
      abind (xs_fxexpt f x (y - 1)) (fun p =>
      abind (int32 (x * p)) (fun z => AVal (box z)))
    else abind (xs_fxexpt f x (Z.quot y 2)) (fun p =>
      abind (int32 (p * p)) (fun z => AVal (box z)))
  end.
End Width.
