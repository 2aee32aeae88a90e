(** The tests and operations in boxes of patterns and templates (2.sf:653-753), an extension of syntax rules. *)
From Coq Require Import ZArith String List Bool.
From Verif Require Import Model_Lit Model_Core Model_Syntax.
Import ListNotations.
Open Scope Z_scope.

Inductive ident_form : sexp -> Prop := idf_sym s : ident_form (SSym s) | idf_ren s i l : ident_form (SRen s i l).
Inductive tests : string -> sexp -> Prop :=
| te_number z : tests "number?" (SNum z)
| te_string s : tests "string?" (SStr s)
| te_id x : ident_form x -> tests "id?" x.
Fixpoint list_form (l : list sexp) : sexp := match l with [] => SNil | x :: l' => SCons x (list_form l') end.
Section Ops.
Variable numstr : Z -> list Z.
Variable strnum : list Z -> sexp.
(** where the location of a name is found: [where_ s] *)
Variable where_ : list Z -> loc.
Inductive performs : string -> list sexp -> sexp -> Prop :=
| pf_ns z : performs "number->string" [SNum z] (SStr (numstr z))
| pf_sn s : performs "string->number" [SStr s] (strnum s)
| pf_ls s : performs "list->string" [list_form (map SChr s)] (SStr s)
| pf_sl s : performs "string->list" [SStr s] (list_form (map SChr s))
| pf_len l : performs "length" [list_form l] (SNum (Z.of_nat (List.length l)))
| pf_app ss : performs "string-append" (map SStr ss) (SStr (concat ss))
| pf_sum zs : performs "+" (map SNum zs) (SNum (fold_right Z.add 0 zs))
| pf_product zs : performs "*" (map SNum zs) (SNum (fold_right Z.mul 1 zs))
| pf_is s : performs "id->string" [SSym s] (SStr s)
| pf_isr s i l : performs "id->string" [SRen s i l] (SStr s)
| pf_si s : performs "string->id" [SStr s] (SRen s (IdSym s) (where_ s)).
End Ops.
