(** Strings as lists of characters 0..255. *)
From Coq Require Import ZArith List Bool.
From Verif Require Import Base Model_Str.
Import ListNotations.
Open Scope Z_scope.

Definition char (c : Z) : Prop := 0 <= c <= 255.
(** the block holds exactly [s], followed by NUL, and the length *)
Definition holds (b : block) (s : list Z) : Prop :=
  Forall char s /\ b_len b = Z.of_nat (length s) /\ b_bytes b = map Some s ++ [Some 0].
(** order of strings: lexicographic, a proper prefix comes first *)
Fixpoint lex (s t : list Z) : comparison :=
  match s, t with
  | [], [] => Eq
  | [], _ :: _ => Lt
  | _ :: _, [] => Gt
  | a :: s', b :: t' => match a ?= b with Eq => lex s' t' | c => c end
  end.
Definition ascii (c : Z) : Prop := 1 <= c <= 127.
Definition low (c : Z) : Z := if (65 <=? c) && (c <=? 90) then c + 32 else c.
(** the characters before the first NUL *)
Fixpoint upto_nul (s : list Z) : list Z :=
  match s with [] => [] | c :: s' => if c =? 0 then [] else c :: upto_nul s' end.
Definition is_Eq c := match c with Eq => true | _ => false end.
Definition is_Lt c := match c with Lt => true | _ => false end.
Definition is_Gt c := match c with Gt => true | _ => false end.
(** string object [o] of the memory holds [s] *)
Definition obj_holds (m : strings) (o : nat) (s : list Z) : Prop := exists b, nth_error m o = Some b /\ holds b s.
