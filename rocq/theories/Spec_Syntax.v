(** What it means that a form fits a pattern, what each variable of the pattern took, and which forms are instances of a template
    (R7RS 4.3.2).  Stated without the functions of the expander: only the s-expressions, the notion of an ellipsis and the
    predicates on boxes come from [Model_Syntax]. *)
From Coq Require Import ZArith List Bool.
From Verif Require Import Model_Core Model_Syntax.
Import ListNotations.
Open Scope Z_scope.

Section Spec.
Variable ell : sexp -> bool.
Variable is_lit : ident -> bool.
Variable same : sexp -> sexp -> Prop.

Definition plain_cdr (q : sexp) : Prop := forall e d, q = SCons e d -> ell e = false.
(** the identifier [v] occurs in [x], not as an ellipsis *)
Inductive occurs : sexp -> ident -> Prop :=
| oc_here x : sidp x = true -> occurs x (sid_id x)
| oc_vec x v : occurs x v -> occurs (SVec x) v
| oc_box k d v : occurs d v -> occurs (SBox (SCons k d)) v
| oc_car a q v : plain_cdr q -> occurs a v -> occurs (SCons a q) v
| oc_cdr a q v : plain_cdr q -> occurs q v -> occurs (SCons a q) v
| oc_rep a e d v : ell e = true -> occurs a v -> occurs (SCons a (SCons e d)) v
| oc_tail a e d v : ell e = true -> occurs d v -> occurs (SCons a (SCons e d)) v.

Definition atomic (x : sexp) : Prop :=
  match x with SSym _ | SRen _ _ _ | SVec _ | SBox _ | SCons _ _ => False | _ => True end.

(** [p] fits [s] *)
Inductive fits : sexp -> sexp -> Prop :=
| fit_var p s : sidp p = true -> is_lit (sid_id p) = false -> fits p s
| fit_lit p s : sidp p = true -> is_lit (sid_id p) = true -> sidp s = true -> same p s -> fits p s
| fit_vec p s : fits p s -> fits (SVec p) (SVec s)
| fit_box k p s : sbox_test k s = true -> fits p s -> fits (SBox (SCons (SSym k) (SCons p SNil))) s
| fit_atom p : atomic p -> fits p p
| fit_pair p q a b : plain_cdr q -> fits p a -> fits q b -> fits (SCons p q) (SCons a b)
| fit_rep p e d fs t : ell e = true -> (forall f, In f fs -> fits p f) -> fits d t -> fits (SCons p (SCons e d)) (sapp fs t).

Fixpoint pairs (x : sexp) : nat := match x with SCons _ d => S (pairs d) | _ => O end.
(** when [p] fits [s], the variable [v] of [p] took [t]: a part of [s], or the list of what it took in each repetition *)
Inductive took : sexp -> sexp -> ident -> bval -> Prop :=
| tk_var p s : sidp p = true -> is_lit (sid_id p) = false -> took p s (sid_id p) (BLeaf s)
| tk_vec p s v t : took p s v t -> took (SVec p) (SVec s) v t
| tk_box k p s v t : took p s v t -> took (SBox (SCons k (SCons p SNil))) s v t
| tk_car p q a b v t : plain_cdr q -> took p a v t -> took (SCons p q) (SCons a b) v t
| tk_cdr p q a b v t : plain_cdr q -> took q b v t -> took (SCons p q) (SCons a b) v t
| tk_rep p e d fs s v ts : ell e = true -> pairs d = pairs s -> occurs p v -> is_lit v = false ->
    Forall2 (fun f t => took p f v t) fs ts -> took (SCons p (SCons e d)) (sapp fs s) v (BList ts)
| tk_tail p e d fs s v t : ell e = true -> pairs d = pairs s -> took d s v t -> took (SCons p (SCons e d)) (sapp fs s) v t.

(** [out] is the instance of the template where the variables stand for what [look] says, other identifiers for their renamings,
    and the operations in boxes are done by [conv] *)
Variable conv : list Z -> sexp -> option sexp.
Variable renamed : sexp -> sexp.
Definition shift (look : ident -> option bval) (i : nat) (v : ident) : option bval :=
  match look v with Some (BList l) => nth_error l i | o => o end.
Inductive instance : (ident -> option bval) -> sexp -> sexp -> Prop :=
| in_var look t s : sidp t = true -> look (sid_id t) = Some (BLeaf s) -> instance look t s
| in_new look t : sidp t = true -> look (sid_id t) = None -> instance look t (renamed t)
| in_atom look t : atomic t -> instance look t t
| in_vec look t x : instance look t x -> instance look (SVec t) (SVec x)
| in_box look k d args x : instance look d args -> conv k args = Some x -> instance look (SBox (SCons (SSym k) d)) x
| in_pair look a q x y : plain_cdr q -> instance look a x -> instance look q y -> instance look (SCons a q) (SCons x y)
| in_rep look a e d outs y : ell e = true ->
    (exists v l, occurs a v /\ look v = Some (BList l)) ->
    (forall v l, occurs a v -> look v = Some (BList l) -> length l = length outs) ->
    (forall i x, nth_error outs i = Some x -> instance (shift look i) a x) ->
    instance look d y -> instance look (SCons a (SCons e d)) (sapp outs y).
End Spec.

(** ** Rules, renamings *)
Definition tail_of (x : sexp) : sexp := match x with SCons _ d => d | _ => SNil end.
(** the rule is for forms like [x] *)
Definition applies (fits : sexp -> sexp -> Prop) (pat x : sexp) : Prop :=
  (exists k p k' s, pat = SCons k p /\ x = SCons k' s /\ fits p s) \/ (sidp pat = true /\ sidp x = true).
(** the first rule that is for [x] *)
Definition picks (fits : sexp -> sexp -> Prop) (rl : list (sexp * sexp)) (x pat tmpl : sexp) : Prop :=
  exists before after, rl = before ++ (pat, tmpl) :: after /\ applies fits pat x /\ forall r, In r before -> ~ applies fits (fst r) x.
(** [t] is a part of [x] *)
Inductive inside (t : sexp) : sexp -> Prop :=
| ins_here : inside t t
| ins_car a d : inside t a -> inside t (SCons a d)
| ins_cdr a d : inside t d -> inside t (SCons a d)
| ins_vec y : inside t y -> inside t (SVec y)
| ins_box k d : inside t d -> inside t (SBox (SCons k d)).
(** the numbers of all renamed identifiers in [x] satisfy [P] *)
Fixpoint ids_in (P : Z -> Prop) (x : sexp) : Prop :=
  match x with
  | SRen _ (IdNum m) _ => P m
  | SCons a d => ids_in P a /\ ids_in P d
  | SVec y => ids_in P y
  | SBox y => ids_in P y
  | _ => True
  end.
Definition ids_below (n : Z) (x : sexp) : Prop := ids_in (fun m => m < n) x.
Definition env_below (n : Z) (env : senv) : Prop := forall m l, In (IdNum m, l) env -> m < n.
(** no local is called like the ellipsis: locals have numbers for locations *)
Definition locals (env : senv) : Prop := forall i l, In (i, l) env -> l <> the_dots.
(** the numbers given to the identifiers [v] of the template that are not variables of the pattern *)
Definition renaming (from to : Z) (new : ident -> Prop) (num : ident -> Z) : Prop :=
  from <= to /\ (forall v, new v -> from <= num v < to) /\ (forall v w, new v -> new w -> num v = num w -> v = w).
(** the identifier [p] where the transformer was defined means what [s] means where it is used *)
Definition same_meaning (denv env : senv) (p s : sexp) : Prop := lookup_sid p denv = lookup_sid s env.
