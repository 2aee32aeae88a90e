(** Printing and parsing of exact numbers: /repo/0.sf:1515-1527 (fixnum->string),
    1541-1553 (string->fixnum); lib/libl.sf:2378-2389, 2405-2415 (the same functions with
    [long] variables, also in libs.sf and libm.sf); lib/libl.sf:653-675 (strtofxfl, the
    part that reads exact numbers).

    [strtol] is the C library function; [strtol] below follows the C standard for
    bases 2..36 in the "C" locale with a 64-bit [long].  Characters are codes. *)
From Coq Require Import ZArith List Bool.
From Verif Require Import Base Model_Sym.
Import ListNotations.
Open Scope Z_scope.

(** [d < 10 ? d + '0' : d - 10 + 'a'] *)
Definition digit_char (d : Z) : Z := if d <? 10 then d + 48 else d - 10 + 97.

(** [do { int d = num % radix; *--s = ...; } while (num /= radix);]
    [room] is [s - buf]; storing below [buf] is undefined.  [None] = out of fuel *)
Fixpoint put_digits (fuel : nat) (radix num room : Z) (acc : list Z) : option (res (list Z * Z)) :=
  match fuel with
  | O => None
  | S f =>
    if radix =? 0 then Some UB else
    if room <=? 0 then Some UB else
    let acc' := digit_char (Z.rem num radix) :: acc in
    let num' := Z.quot num radix in
    if num' =? 0 then Some (Val (acc', room - 1)) else put_digits f radix num' (room - 1) acc'
  end.

(** 0.sf:1515-1527: [char buf[35], *s = buf + sizeof(buf) - 1] *)
Definition fixnum_to_string (fuel : nat) (num radix : Z) : option (res (list Z)) :=
  match put_digits fuel radix (Z.abs num) 34 [] with
  | None => None
  | Some UB => Some UB
  | Some (Val (s, room)) =>
    if num <? 0 then if room <=? 0 then Some UB else Some (Val (45 :: s)) else Some (Val s)
  end.

(** ** strtol *)
Definition isspace (c : Z) : bool := (c =? 32) || ((9 <=? c) && (c <=? 13)).
Definition digit_val (c : Z) : option Z :=
  if (48 <=? c) && (c <=? 57) then Some (c - 48)
  else if (97 <=? c) && (c <=? 122) then Some (c - 87)
  else if (65 <=? c) && (c <=? 90) then Some (c - 55)
  else None.
Definition isdigit_in (base c : Z) : bool :=
  match digit_val c with Some d => d <? base | None => false end.
Definition dv (c : Z) : Z := match digit_val c with Some d => d | None => 0 end.
Fixpoint skip_spaces (s : cstr) : cstr :=
  match s with c :: s' => if isspace c then skip_spaces s' else s | [] => [] end.
Fixpoint scan (base : Z) (s : cstr) (acc : Z) : Z * cstr :=
  match s with
  | c :: s' => if isdigit_in base c then scan base s' (acc * base + dv c) else (acc, s)
  | [] => (acc, [])
  end.
Definition LONG_MAX : Z := 9223372036854775807.
(** value and the rest [e]; [None] when no conversion ([e == s]) or [errno] is set *)
Definition strtol (s : cstr) (base : Z) : option (Z * cstr) :=
  let s1 := skip_spaces s in
  let '(neg, s2) := match s1 with
                    | c :: s' => if c =? 45 then (true, s') else if c =? 43 then (false, s') else (false, s1)
                    | [] => (false, []) end in
  let s3 := match s2 with
            | z :: x :: c :: s' => if (base =? 16) && (z =? 48) && ((x =? 120) || (x =? 88)) && isdigit_in 16 c
                                   then c :: s' else s2
            | _ => s2 end in
  match s3 with
  | c :: _ =>
    if isdigit_in base c then
      let '(n, e) := scan base s3 0 in
      let v := if neg then - n else n in
      if (- LONG_MAX - 1 <=? v) && (v <=? LONG_MAX) then Some (v, e) else None
    else None
  | [] => None
  end.

(** ** string->fixnum, 0.sf:1541-1553; [h] is 2^(FIXNUM_BIT-1).  [None] = #f *)
Definition radix_prefix (s : cstr) : option Z :=
  match s with
  | c :: x :: _ =>
    if c =? 35 then
      if (x =? 98) || (x =? 66) then Some 2
      else if (x =? 111) || (x =? 79) then Some 8
      else if (x =? 100) || (x =? 68) then Some 10
      else if (x =? 120) || (x =? 88) then Some 16
      else None
    else None
  | _ => None
  end.
Definition string_to_fixnum (h : Z) (s : cstr) (radix : Z) : option Z :=
  let '(s1, r) := match radix_prefix s with Some r => (skipn 2 s, r) | None => (s, radix) end in
  match strtol s1 r with
  | Some (l, []) => if (- h <=? l) && (l <=? h - 1) then Some l else None
  | _ => None
  end.

(** ** libl.sf:653-675 strtofxfl.  [SxNone]: 0 is returned; [SxFix l]: 'e' with
    [*pl = l]; [SxFlo]: the code continues with the inexact syntax or returns 'i'
    (not modelled further: floating point).  [conv]: 0 none, 1 'e', 2 'i' *)
Inductive sxres := SxNone | SxFix (l : Z) | SxFlo.
Fixpoint prefixes (fuel : nat) (s : cstr) (radix conv : Z) : option (option (cstr * Z * Z)) :=
  match fuel with
  | O => None
  | S f =>
    match s with
    | c :: s' =>
      if c =? 35 then
        match s' with
        | x :: s'' =>
          if (x =? 98) || (x =? 66) then prefixes f s'' 2 conv
          else if (x =? 111) || (x =? 79) then prefixes f s'' 8 conv
          else if (x =? 100) || (x =? 68) then prefixes f s'' 10 conv
          else if (x =? 120) || (x =? 88) then prefixes f s'' 16 conv
          else if (x =? 101) || (x =? 69) then prefixes f s'' radix 1
          else if (x =? 105) || (x =? 73) then prefixes f s'' radix 2
          else Some None
        | [] => Some None
        end
      else Some (Some (s, radix, conv))
    | [] => Some (Some (s, radix, conv))
    end
  end.
Definition inexact_mark (c : Z) : bool := existsb (Z.eqb c) [46; 101; 69; 105; 73; 110; 78].   (* ".eEiInN" *)
Definition strtofxfl (h : Z) (s : cstr) (radix : Z) : option sxres :=
  match prefixes (S (length s)) s radix 0 with
  | None => None
  | Some None => Some SxNone
  | Some (Some (s1, r, conv)) =>
    if match s1 with c :: _ => isspace c | [] => false end then Some SxNone
    else if negb (existsb inexact_mark s1) || negb (r =? 10) then
      match strtol s1 r with
      | Some (l, []) =>
        if conv =? 2 then Some SxFlo
        else if (- h <=? l) && (l <=? h - 1) then Some (SxFix l) else Some SxNone
      | _ => if conv =? 2 then Some SxFlo else Some SxNone
      end
    else Some SxFlo
  end.
