(** Texts of the generated C program that have names of the Scheme program in comments.  Source: /repo/7.sf:704-713
    (compile-globals), 650-657 (compile-curry-case), 685-690 (compile-label), 6.sf:855.  c-format puts in its operands, and
    lists of texts are written one after the other (6.sf:250-279, 316-325). *)
From Coq Require Import ZArith String List Bool.
From Verif Require Import Base Model_Lit Model_Sym Model_Mangle Model_Roots.
Import ListNotations.
Open Scope Z_scope.

(** 7.sf:705-711; [m]: the C name, [s]: the symbol *)
Definition decl_text (d : decl) (m s : list Z) : list Z :=
  match d with
  | DStatic => codes "static obj " ++ m ++ codes "; /* constant " ++ s ++ codes " */" ++ [10]
  | DHere => codes "obj " ++ m ++ codes "; /* " ++ s ++ codes " */" ++ [10]
  | DExtern => codes "extern obj " ++ m ++ codes "; /* " ++ s ++ codes " */" ++ [10]
  end.
(** 7.sf:656-657, 687-688; [ns]: the symbols without decoration *)
Definition names_text (ns : list (list Z)) : list Z := concat (map (fun n => n ++ [32]) ns).
(** 7.sf:686-689 *)
Definition label_text (ns : list (list Z)) : list Z := codes "/* " ++ names_text ns ++ codes "*/".
(** 7.sf:650-657; [g]: the symbol of a global that holds the procedure *)
Definition case_text (g : option (list Z)) (ns : list (list Z)) : list Z :=
  codes " /* " ++ match g with Some s => s | None => codes "clo" end ++ [32] ++ names_text ns ++ codes "*/" ++ [10].
(** 6.sf:855 *)
Definition function_text (s : list Z) : list Z := codes "/* " ++ s ++ codes " */" ++ [10].
