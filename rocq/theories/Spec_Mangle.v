(** C identifiers and the requirements on names. *)
From Coq Require Import ZArith List.
Import ListNotations.
Open Scope Z_scope.

Definition chr (c : Z) : Prop := 0 <= c <= 255.
Definition c_letter (c : Z) : Prop := 65 <= c <= 90 \/ 97 <= c <= 122 \/ c = 95.
Definition c_digit (c : Z) : Prop := 48 <= c <= 57.
(** C11 6.4.2.1 without universal character names *)
Definition c_identifier (s : list Z) : Prop :=
  match s with
  | [] => False
  | c :: s' => c_letter c /\ Forall (fun x => c_letter x \/ c_digit x) s'
  end.
