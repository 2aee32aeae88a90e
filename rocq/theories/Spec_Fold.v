(** What constant folding may rely on. *)
From Coq Require Import ZArith String List Bool.
From Verif Require Import Model_Lit Model_Core Spec_Sem Spec_Free Spec_Scope.
Import ListNotations.
Open Scope Z_scope.

(** ** Types in the texts of primitives *)
(** the first occurrence of [p] in [s] leaves [a] before and [b] after it *)
Definition split_at (p s a b : list Z) : Prop := s = a ++ p ++ b /\ forall a' b', s = a' ++ p ++ b' -> (length a <= length a')%nat.
Definition name (t : list Z) : Prop :=
  Forall (fun c => In c (codes "abcdefghijklmnopqrstuvwxyzABCDEFGHIJKLMNOPQRSTUVWXYZ0123456789_")) t.
(** the text is a test of type [t]; an assertion of type [t] *)
Definition check_text (t p : list Z) : Prop := name t /\ exists a, split_at (codes "bool(is_") p a (t ++ codes "_$arg)").
Definition assert_text (t p : list Z) : Prop := name t /\ exists a, split_at (codes "void(assert(is_") p a (t ++ codes "_$arg))").
(** the text is an expression of type [t]: a name before its first parenthesis, in what follows $return and spaces if
    that is such an expression, else in the whole text *)
Definition typed_text (t p : list Z) : Prop := name t /\ exists b, split_at (codes "(") p t b.
Definition returned (p s : list Z) : Prop :=
  exists a b, split_at (codes "$return") p a (b ++ s) /\ Forall (fun c => c = 32) b /\ match s with c :: _ => c <> 32 | [] => True end.
Definition result_text (t p : list Z) : Prop :=
  (exists s, returned p s /\ typed_text t s) \/ (forall s u, returned p s -> ~ typed_text u s) /\ typed_text t p.

(** ** What the texts promise.  [of t s]: values of shape [s] have the C type [t]; obj and void say nothing. *)
Definition telling (t : list Z) : Prop := t <> codes "obj" /\ t <> codes "void".
Record c_types (P : prim -> script) (of : list Z -> shape -> bool) : Prop := {
  ct_result : forall p t vs w v w', result_text t p -> telling t -> run (P p) vs w = Some (v, w') -> of t (shape_of v) = true;
  ct_check : forall p t u w v w', check_text t p -> run (P p) [u] w = Some (v, w') -> is_true v = of t (shape_of u);
  ct_assert : forall p t u w v w', assert_text t p -> run (P p) [u] w = Some (v, w') -> of t (shape_of u) = true;
  ct_one : forall t u s, telling t -> telling u -> of t s = true -> of u s = true -> t = u }.

(** ** Programs *)
Fixpoint esize (e : exp) : nat :=
  match e with
  | EVar _ => 1
  | ESet _ e | ELam _ e | ELetcc _ e => 1 + esize e
  | EIf a b c => 1 + esize a + esize b + esize c
  | EPrim _ _ l => 1 + list_sum (map esize l)
  | EApp f l => 1 + esize f + list_sum (map esize l)
  | EFix _ ls b => 1 + esize b + list_sum (map (fun l => esize (snd l)) ls)
  | EWithcc k e => 1 + esize k + esize e
  end.
(** no variable is bound where it is in scope already; [n] is the last number given out *)
Inductive no_shadow (n : Z) : list id -> exp -> Prop :=
| ns X e : (forall ys e', In (ys, e') (parts e) -> NoDup ys /\ forall y, In y ys -> ~ In y X /\ 0 <= ts y <= n) ->
    (forall ys e', In (ys, e') (parts e) -> no_shadow n (ys ++ X) e') -> no_shadow n X e.
Inductive part_of (e : exp) : exp -> Prop :=
| po_here : part_of e e
| po_in ys e1 e0 : In (ys, e1) (parts e0) -> part_of e e1 -> part_of e e0.
(** assertions of types are not made of global variables: the operand of an assertion is a primitive operation or a call
    of a variable, or it has no free global variables *)
Definition not_global (a : exp) : Prop :=
  match a with EPrim _ _ _ | EApp (EVar _) _ => True | _ => forall x, free_in x a -> global_id x = false end.
Definition local_asserts (e : exp) : Prop := forall ef p t a, part_of (EPrim ef p [a]) e -> assert_text t p -> not_global a.
(** what the pass is given: no shadowing, no free local variables, no assignments to local variables *)
Definition foldable (n : Z) (e : exp) : Prop := no_shadow n [] e /\ (forall x, free_in x e -> global_id x = true) /\ no_local_set e /\ local_asserts e.
