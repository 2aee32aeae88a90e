(** Load graphs. *)
From Coq Require Import ZArith List.
From Verif Require Import Model_CStr Spec_Mangle Model_Mod.
Import ListNotations.

(** [f] loads [g] directly *)
Definition loads (fs : files) (f g : str) : Prop := exists forms, In (f, forms) fs /\ In (FLoad g) forms.
(** in one or more steps *)
Inductive loads_plus (fs : files) : str -> str -> Prop :=
| lp_one f g : loads fs f g -> loads_plus fs f g
| lp_more f g h : loads fs f g -> loads_plus fs g h -> loads_plus fs f h.
(** the file has something to run *)
Definition has_defs (fs : files) (f : str) : Prop := exists forms, In (f, forms) fs /\ In FDefine forms.
(** [x] occurs before [y] *)
Definition before {A} (x y : A) (l : list A) : Prop := exists a b c, l = a ++ x :: b ++ y :: c.

(** A set of files that can be compiled and linked: one entry for each name, nothing loaded that is
    not there, characters in range, and no two files with the same module name. *)
Definition well_formed (fs : files) : Prop :=
  NoDup (map fst fs) /\ (forall f g, loads fs f g -> In g (map fst fs)) /\
  (forall f, In f (map fst fs) -> Forall chr f) /\
  (forall f g, In f (map fst fs) -> In g (map fst fs) -> module_name f = module_name g -> f = g).
(** what has to run: the main file, and every file it needs that has definitions *)
Definition needed (fs : files) (main f : str) : Prop := f = main \/ loads_plus fs main f /\ has_defs fs f.
