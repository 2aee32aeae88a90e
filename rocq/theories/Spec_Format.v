(** What formats mean. *)
From Coq Require Import ZArith String List Bool.
From Verif Require Import Model_Lit Spec_Num Spec_Fold.
Import ListNotations.
Open Scope Z_scope.

(** characters, "$$", "$argc", "$arg#-1", "$arg#", "$arg#+1", "$arg", "$a", "$live", "$return" with spaces *)
Inductive item := IChar (c : Z) | IDollar | IArgc | IPrev | IThis | INext | IArg | IPlain | ILive | IReturn (ws : list Z).
(** items, or items between "${" and "$}" *)
Inductive piece := PItems (l : list item) | PLoop (l : list item).
Definition item_text (i : item) : list Z :=
  match i with
  | IChar c => [c]
  | IDollar => codes "$$"
  | IArgc => codes "$argc"
  | IPrev => codes "$arg#-1"
  | IThis => codes "$arg#"
  | INext => codes "$arg#+1"
  | IArg => codes "$arg"
  | IPlain => codes "$a"
  | ILive => codes "$live"
  | IReturn ws => codes "$return" ++ ws
  end.
Definition items_text (l : list item) : list Z := flat_map item_text l.
Definition piece_text (p : piece) : list Z := match p with PItems l => items_text l | PLoop l => codes "${" ++ items_text l ++ codes "$}" end.
Definition format_text (ps : list piece) : list Z := flat_map piece_text ps.
(** ** Texts that can be read in one way only *)
Definition letter_or_digit (c : Z) : Prop := 65 <= c <= 90 \/ 97 <= c <= 122 \/ 48 <= c <= 57.
Definition white (c : Z) : Prop := c = 32 \/ 9 <= c <= 13.
Definition starts (P : Z -> Prop) (s : list Z) : Prop := match s with c :: _ => P c | [] => False end.
Definition item_ok (i : item) (next : list Z) : Prop :=
  match i with
  | IChar c => c <> 36
  | IDollar => True
  | IThis => ~ starts (fun c => letter_or_digit c \/ c = 43 \/ c = 45) next
  | IArg => ~ starts (fun c => letter_or_digit c \/ c = 35) next
  | IReturn ws => Forall white ws /\ ~ starts white next /\ (ws = [] -> ~ starts letter_or_digit next)
  | _ => ~ starts letter_or_digit next
  end.
Fixpoint items_ok (l : list item) (next : list Z) : Prop :=
  match l with [] => next = [] \/ starts (fun c => c = 36) next | i :: l' => item_ok i (items_text l' ++ next) /\ items_ok l' next end.
Fixpoint format_ok (ps : list piece) : Prop :=
  match ps with
  | [] => True
  | PItems l :: ps' => items_ok l (format_text ps') /\ format_ok ps'
  | PLoop l :: ps' => items_ok l (codes "$}" ++ format_text ps') /\ format_ok ps'
  end.
(** ** Numbers of operands *)
Definition takes (i : item) : bool := match i with IArg | IPlain => true | _ => false end.
Definition count (l : list item) : nat := length (filter takes l).
(** "$arg#-1" is not used before the first operand *)
Fixpoint prev_ok (l : list item) (used : nat) : Prop :=
  match l with
  | [] => True
  | i :: l' => (i = IPrev -> (0 < used)%nat) /\ prev_ok l' (if takes i then S used else used)
  end.
(** at most ten operands in a loop: see 6.sf:231-234 *)
Fixpoint fits (ps : list piece) (used left : nat) : Prop :=
  match ps with
  | [] => left = O
  | PItems l :: ps' => (count l <= left)%nat /\ prev_ok l used /\ fits ps' (used + count l) (left - count l)
  | PLoop l :: ps' => (count l <= 10)%nat /\ ((0 < left)%nat -> prev_ok l used /\ (0 < count l)%nat /\ exists k, left = (k * count l)%nat) /\ fits ps' (used + left) 0
  end.
(** ** The text that is made *)
Section Made.
Variables live ret : list Z.
Variable total : nat.
(** items with operands [ss] make a text and leave operands *)
Inductive made : list item -> list (list Z) -> list (list Z) -> list Z -> Prop :=
| md_nil ss : made [] ss ss []
| md_char c l ss ss' t : made l ss ss' t -> made (IChar c :: l) ss ss' (c :: t)
| md_dollar l ss ss' t : made l ss ss' t -> made (IDollar :: l) ss ss' (36 :: t)
| md_argc s l ss ss' t : natural 10 s (Z.of_nat total) -> made l ss ss' t -> made (IArgc :: l) ss ss' (s ++ t)
| md_prev s l ss ss' t : natural 10 s (Z.of_nat total - Z.of_nat (length ss) - 1) -> made l ss ss' t -> made (IPrev :: l) ss ss' (s ++ t)
| md_this s l ss ss' t : natural 10 s (Z.of_nat total - Z.of_nat (length ss)) -> made l ss ss' t -> made (IThis :: l) ss ss' (s ++ t)
| md_next s l ss ss' t : natural 10 s (Z.of_nat total - Z.of_nat (length ss) + 1) -> made l ss ss' t -> made (INext :: l) ss ss' (s ++ t)
| md_arg a l ss ss' t : made l ss ss' t -> made (IArg :: l) (a :: ss) ss' (a ++ t)
| md_plain a l ss ss' t : made l ss ss' t -> made (IPlain :: l) (a :: ss) ss' (a ++ t)
| md_live l ss ss' t : made l ss ss' t -> made (ILive :: l) ss ss' (live ++ t)
| md_return ws l ss ss' t : made l ss ss' t -> made (IReturn ws :: l) ss ss' (ret ++ t).
(** all operands are used up; loops are gone through until there are none *)
Inductive makes : list piece -> list (list Z) -> list Z -> Prop :=
| mk_nil : makes [] [] []
| mk_items l ps ss ss' t t' : made l ss ss' t -> makes ps ss' t' -> makes (PItems l :: ps) ss (t ++ t')
| mk_done l ps t : makes ps [] t -> makes (PLoop l :: ps) [] t
| mk_loop l ps ss ss' t t' : ss <> [] -> made l ss ss' t -> makes (PLoop l :: ps) ss' t' -> makes (PLoop l :: ps) ss (t ++ t').
End Made.
(** ** Conversions that are left out: T_from_T(n, e becomes (e, and void_from_T(n, e becomes (void)(e *)
Definition width (n : list Z) : Prop := n = [] \/ exists d, Forall (fun c => 48 <= c <= 57) d /\ n = d ++ codes ", ".
Inductive short : list Z -> list Z -> Prop :=
| sh_step pre t w o n e : name t -> width n ->
    (w = t ++ codes "_from_" /\ o = codes "(" \/ w = codes "void_from_" /\ o = codes "(void)(") ->
    short (pre ++ w ++ t ++ codes "(" ++ n ++ e) (pre ++ o ++ e).
Inductive shortened : list Z -> list Z -> Prop :=
| sd_refl x : shortened x x
| sd_step x y z : shortened x y -> short y z -> shortened x z.
(** no type with a name that ends in "_void" is written *)
Definition clean (s : list Z) : Prop := forall a b, s <> a ++ codes "_void(" ++ b.
