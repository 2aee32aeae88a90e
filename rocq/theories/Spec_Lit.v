(** What an integer literal means, independent of the reader's tables. *)
From Coq Require Import ZArith List.
From Verif Require Import Spec_Num.
Import ListNotations.
Open Scope Z_scope.

(** two's complement representable in [w] bits *)
Definition fits (w v : Z) : Prop := - 2 ^ (w - 1) <= v <= 2 ^ (w - 1) - 1.
Definition widths : list Z := [8; 16; 24; 32; 40; 48; 56; 64].
(** the least width class; [None] when 64 bits are not enough *)
Definition least_width (v : Z) (o : option Z) : Prop :=
  match o with
  | Some w => In w widths /\ fits w v /\ forall w', In w' widths -> fits w' v -> w <= w'
  | None => forall w', In w' widths -> ~ fits w' v
  end.

(** normal digits: lower case, no superfluous zero in front *)
Definition lower_digit (c : Z) : Prop := 48 <= c <= 57 \/ 97 <= c <= 122.
Definition normal (s : list Z) : Prop :=
  Forall lower_digit s /\ match s with c :: _ :: _ => c <> 48 | _ => True end.

(** C integer constants (C11 6.4.4.1) without suffix, with an optional sign in front *)
Inductive c_constant : list Z -> Z -> Prop :=
| cc_dec c s n : c <> 48 -> natural 10 (c :: s) n -> c_constant (c :: s) n
| cc_oct s n : natural 8 (48 :: s) n -> c_constant (48 :: s) n
| cc_hex s n x : x = 120 \/ x = 88 -> natural 16 s n -> c_constant (48 :: x :: s) n.
Inductive c_signed : list Z -> Z -> Prop :=
| cs_plus s n : c_constant s n -> c_signed (43 :: s) n
| cs_minus s n : c_constant s n -> c_signed (45 :: s) (- n).
