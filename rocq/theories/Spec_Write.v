(** Objects with an external representation. *)
From Coq Require Import ZArith List Bool String.
From Verif Require Import Model_Lit Model_Read Model_Write.
Import ListNotations.
Open Scope Z_scope.

(** identifiers of the report (R5RS 2.1) *)
Definition letter (c : Z) : Prop := 65 <= c <= 90 \/ 97 <= c <= 122.
Definition initial (c : Z) : Prop := letter c \/ In c (codes "!$%&*/:<=>?^_~").
Definition subsequent (c : Z) : Prop := initial c \/ 48 <= c <= 57 \/ In c (codes "+-.@").
Definition identifier (s : list Z) : Prop :=
  (exists c t, s = c :: t /\ initial c /\ Forall subsequent t) \/
  (exists t, s = 45 :: 62 :: t /\ Forall subsequent t) \/
  s = codes "+" \/ s = codes "-" \/ s = codes "...".
(** fixnums but the least one, identifiers, characters and strings of 8-bit characters, and everything built
    from them *)
Inductive readable : value -> Prop :=
| rd_fix z : - 8388608 < z < 8388608 -> readable (VFix z)
| rd_bool b : readable (VBool b)
| rd_sym s : identifier s -> readable (VSym s)
| rd_chr c : 0 <= c <= 255 -> readable (VChr c)
| rd_str s : Forall (fun c => 0 <= c <= 255) s -> readable (VStr s)
| rd_nil : readable VNil
| rd_pair a d : readable a -> readable d -> readable (VPair a d)
| rd_vec l : Forall readable l -> readable (VVec l)
| rd_box v : readable v -> readable (VBox v).

(** reading all objects of a text, for every depth that is enough *)
Inductive reads_all (r : list ext) : list Z -> list value -> Prop :=
| ra_end i N : (forall n, (N <= n)%nat -> subread_top n r i = ROk (eof, [], r)) -> reads_all r i []
| ra_next i d k l N : (forall n, (N <= n)%nat -> subread_top n r i = ROk (d, k, r)) -> sexp d <> VEof -> reads_all r k l -> reads_all r i (sexp d :: l).
