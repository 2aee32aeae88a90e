(** Integer literals: /repo/1.sf:229-231 (char-digit-value), 389-425 (the table), 427-435
    (integer-representation-width), 437-447 (integer-datum), 455-460 (subread-uinteger),
    467-470 (subread-integer); and the C text compiled for them, lib/libl.sf:707-741
    (bin->oct and the integer rules of %const; the decimal, octal and hexadecimal rules are also
    in 0.sf:396-407).  Strings are lists of character codes. *)
From Coq Require Import ZArith List Bool String Ascii.
Import ListNotations.
Open Scope Z_scope.

(** notation only: a string literal as character codes *)
Fixpoint codes (s : string) : list Z :=
  match s with EmptyString => [] | String a s' => Z.of_N (N_of_ascii a) :: codes s' end.


(** 1.sf:389-425: radix, then (width, negative bound, positive bound) *)
Definition integer_representation_table : list (Z * list (Z * (list Z * list Z))) :=
  [(16, [(8, (codes "80"%string, codes "7f"%string));
     (16, (codes "8000"%string, codes "7fff"%string));
     (24, (codes "800000"%string, codes "7fffff"%string));
     (32, (codes "80000000"%string, codes "7fffffff"%string));
     (40, (codes "8000000000"%string, codes "7fffffffff"%string));
     (48, (codes "800000000000"%string, codes "7fffffffffff"%string));
     (56, (codes "80000000000000"%string, codes "7fffffffffffff"%string));
     (64, (codes "8000000000000000"%string, codes "7fffffffffffffff"%string))]);
   (10, [(8, (codes "128"%string, codes "127"%string));
     (16, (codes "32768"%string, codes "32767"%string));
     (24, (codes "8388608"%string, codes "8388607"%string));
     (32, (codes "2147483648"%string, codes "2147483647"%string));
     (40, (codes "549755813888"%string, codes "549755813887"%string));
     (48, (codes "140737488355328"%string, codes "140737488355327"%string));
     (56, (codes "36028797018963968"%string, codes "36028797018963967"%string));
     (64, (codes "9223372036854775808"%string, codes "9223372036854775807"%string))]);
   (8, [(8, (codes "200"%string, codes "177"%string));
     (16, (codes "100000"%string, codes "77777"%string));
     (24, (codes "40000000"%string, codes "37777777"%string));
     (32, (codes "20000000000"%string, codes "17777777777"%string));
     (40, (codes "10000000000000"%string, codes "7777777777777"%string));
     (48, (codes "4000000000000000"%string, codes "3777777777777777"%string));
     (56, (codes "2000000000000000000"%string, codes "1777777777777777777"%string));
     (64, (codes "1000000000000000000000"%string, codes "777777777777777777777"%string))]);
   (2, [(8, (codes "10000000"%string, codes "1111111"%string));
     (16, (codes "1000000000000000"%string, codes "111111111111111"%string));
     (24, (codes "100000000000000000000000"%string, codes "11111111111111111111111"%string));
     (32, (codes "10000000000000000000000000000000"%string, codes "1111111111111111111111111111111"%string));
     (40, (codes "1000000000000000000000000000000000000000"%string, codes "111111111111111111111111111111111111111"%string));
     (48, (codes "100000000000000000000000000000000000000000000000"%string, codes "11111111111111111111111111111111111111111111111"%string));
     (56, (codes "10000000000000000000000000000000000000000000000000000000"%string, codes "1111111111111111111111111111111111111111111111111111111"%string));
     (64, (codes "1000000000000000000000000000000000000000000000000000000000000000"%string, codes "111111111111111111111111111111111111111111111111111111111111111"%string))])].

(** 1.sf:428-430: lengths first, then [string<=?] (0.sf:1017, strcmp on the characters) *)
Fixpoint string_le (s t : list Z) : bool :=
  match s, t with
  | [], _ => true
  | _ :: _, [] => false
  | x :: s', y :: t' => (x <? y) || ((x =? y) && string_le s' t')
  end.
Definition s_le (s t : list Z) : bool :=
  if (List.length s <? List.length t)%nat then true
  else if (List.length t <? List.length s)%nat then false
  else string_le s t.

(** 1.sf:431-435; [None] is 'big *)
Fixpoint width_loop (neg : bool) (s : list Z) (st : list (Z * (list Z * list Z))) : option Z :=
  match st with
  | [] => None
  | (w, (lo, hi)) :: st' =>
    if neg && s_le s lo then Some w
    else if negb neg && s_le s hi then Some w
    else width_loop neg s st'
  end.
(** assq on the small integer keys (0.sf:1340, fixnums are immediate) *)
Fixpoint assq_row (k : Z) (l : list (Z * list (Z * (list Z * list Z)))) : list (Z * (list Z * list Z)) :=
  match l with [] => [] | (x, v) :: l' => if x =? k then v else assq_row k l' end.
(** 1.sf:427 *)
Definition integer_representation_width (neg : bool) (s : list Z) (radix : Z) : option Z :=
  width_loop neg s (assq_row radix integer_representation_table).

(** 0.sf:885 [tolower] in the C locale *)
Definition char_downcase (c : Z) : Z := if (65 <=? c) && (c <=? 90) then c + 32 else c.
(** 1.sf:229-231, by the position in "0123456789abc...z" *)
Definition char_digit_value (c radix : Z) : option Z :=
  let d := char_downcase c in
  let pos := if (48 <=? d) && (d <=? 57) then Some (d - 48)
             else if (97 <=? d) && (d <=? 122) then Some (d - 87) else None in
  match pos with Some p => if radix <=? p then None else Some p | None => None end.

(** 1.sf:438-447: the datum (integer width sign digits radix) *)
Record int_datum := mkint { id_width : option Z; id_neg : bool; id_digits : list Z; id_radix : Z }.
(** 1.sf:441-443: strip leading zeros but one *)
Fixpoint strip_zeros (dd : list Z) : list Z :=
  match dd with
  | c :: ((_ :: _) as dd') => if c =? 48 then strip_zeros dd' else dd
  | _ => dd
  end.
(** 1.sf:438-447; [digits] is the reversed digit list; [None]: r-error "no digits" *)
Definition integer_datum (neg : bool) (digits : list Z) (radix : Z) : option int_datum :=
  match digits with
  | [] => None
  | _ => let s := strip_zeros (rev digits) in
         Some (mkint (integer_representation_width neg s radix) neg s radix)
  end.
(** 1.sf:455-460: result datum and the rest of the input *)
Fixpoint uinteger_loop (radix : Z) (neg : bool) (i : list Z) (digits : list Z) : option int_datum * list Z :=
  match i with
  | [] => (integer_datum neg digits radix, [])
  | c :: i' => match char_digit_value c radix with
               | Some _ => uinteger_loop radix neg i' (char_downcase c :: digits)
               | None => (integer_datum neg digits radix, i)
               end
  end.
(** 1.sf:467-470 *)
Definition subread_integer (radix : Z) (i : list Z) : option int_datum * list Z :=
  match i with
  | c :: i' => if c =? 43 then uinteger_loop radix false i' []
               else if c =? 45 then uinteger_loop radix true i' []
               else uinteger_loop radix false i []
  | [] => uinteger_loop radix false [] []
  end.

(** lib/libl.sf:714-727: the right-hand octal digit of the rule matching the three bits
    (missing leading bits count as 0, as in the one- and two-digit rules) *)
Definition oct3 (a b c : Z) : option Z :=
  if a =? 48 then
    if b =? 48 then if c =? 48 then Some 48 else if c =? 49 then Some 49 else None
    else if b =? 49 then if c =? 48 then Some 50 else if c =? 49 then Some 51 else None
    else None
  else if a =? 49 then
    if b =? 48 then if c =? 48 then Some 52 else if c =? 49 then Some 53 else None
    else if b =? 49 then if c =? 48 then Some 54 else if c =? 49 then Some 55 else None
    else None
  else None.
(** lib/libl.sf:711-727 bin->oct: rules in order; [rdigs] is the digit list reversed (the
    patterns end in the last three digits); [None] = no rule matches *)
Fixpoint bin_oct (rdigs : list Z) (l : list Z) : option (list Z) :=
  match rdigs with
  | [] => Some l
  | [c] => match oct3 48 48 c with Some o => Some (o :: l) | None => None end
  | [c; b] => match oct3 48 b c with Some o => Some (o :: l) | None => None end
  | c :: b :: a :: r => match oct3 a b c with Some o => bin_oct r (o :: l) | None => None end
  end.
(** lib/libl.sf:728-741: the C expression between "fixnum(" and ")" for the widths 8, 16, 24 *)
Definition const_text (d : int_datum) : option (list Z) :=
  let sign := if id_neg d then 45 else 43 in
  match id_width d with
  | None => None
  | Some w =>
    if negb ((w =? 8) || (w =? 16) || (w =? 24)) then None
    else if id_radix d =? 2 then
      match bin_oct (rev (id_digits d)) [] with Some o => Some (sign :: 48 :: o) | None => None end
    else if id_radix d =? 8 then Some (sign :: 48 :: id_digits d)
    else if id_radix d =? 10 then Some (sign :: id_digits d)
    else if id_radix d =? 16 then Some (sign :: 48 :: 120 :: id_digits d)
    else None
  end.
