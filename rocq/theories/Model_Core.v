(** Core expressions of the compiler: identifiers, effects, abstract syntax, virtual expressions and variable
    information.  Source: /repo/3.sf.

    Identifiers: the symbol is left out (it serves only to make names readable); the timestamp is what makes an
    identifier different from all others, so that [eq?] of identifiers is equality of these records.
    The memo tables of exp-vinfo and var-uses-in-exp (3.sf:532-565) are left out here: C38 treats them. *)
From Coq Require Import ZArith String List Bool.
From Verif Require Import Base Model_Lit Model_CStr.
Import ListNotations.
Open Scope Z_scope.

(** ** Identifiers, 3.sf:173-240 *)
Inductive xtype := XNone | XTrue | XPrivate | XC (ctype : list Z).
Record id := mkid { ts : Z; xt : xtype }.
Definition zlist_dec : forall a b : list Z, {a = b} + {a <> b} := list_eq_dec Z.eq_dec.
Definition xtype_dec (a b : xtype) : {a = b} + {a <> b}.
Proof. decide equality. apply zlist_dec. Defined.
Definition id_dec (a b : id) : {a = b} + {a <> b}.
Proof. decide equality. apply xtype_dec. apply Z.eq_dec. Defined.
Definition id_eqb (a b : id) : bool := if id_dec a b then true else false.
(** 3.sf:202-203 *)
Definition global_id (x : id) : bool := ts x <? 0.
(** 3.sf:208-209 *)
Definition global_id_constant (x : id) : bool := global_id x && match xt x with XNone => false | _ => true end.
(** 3.sf:214-215 *)
Definition global_id_private_constant (x : id) : bool := global_id x && match xt x with XPrivate => true | _ => false end.
(** 3.sf:232-233 *)
Definition label_id (x : id) : bool := negb (global_id x) && match xt x with XTrue => true | _ => false end.

(** the counter of timestamps, 3.sf:189-197: [n] is the last timestamp given out *)
Definition fresh (t : xtype) (n : Z) : id * Z := (mkid (n + 1) t, n + 1).

(** ** Sets of identifiers, 3.sf:49-71 and 108-112 *)
Definition memq (x : id) (s : list id) : bool := existsb (id_eqb x) s.
Definition adjoinq (x : id) (s : list id) : list id := if memq x s then s else x :: s.
Definition subsetq (s1 s2 : list id) : bool := forallb (fun x => memq x s2) s1.
Definition seteq (s1 s2 : list id) : bool := subsetq s1 s2 && subsetq s2 s1.
Fixpoint unionq (s1 s2 : list id) : list id :=
  match s1 with [] => s2 | x :: s => if memq x s2 then unionq s s2 else x :: unionq s s2 end.
Fixpoint intersectionq (s1 s2 : list id) : list id :=
  match s1 with [] => [] | x :: s => if memq x s2 then x :: intersectionq s s2 else intersectionq s s2 end.
Fixpoint setdiffq (s1 s2 : list id) : list id :=
  match s1 with [] => [] | x :: s => if memq x s2 then setdiffq s s2 else x :: setdiffq s s2 end.
Fixpoint posq (x : id) (l : list id) : option nat :=
  match l with [] => None | y :: l' => if id_eqb y x then Some O else option_map S (posq x l') end.
(** 0.sf:1334-1345 *)
Fixpoint assq {A} (x : id) (l : list (id * A)) : option A :=
  match l with [] => None | (y, a) :: l' => if id_eqb x y then Some a else assq x l' end.

(** ** Effects, 3.sf:148-166 *)
Inductive effect := ENo | EAl | EOb | EAct | EObAct | EAlOb | EAlAct | EAny.
Definition ref_transparent_effect (e : effect) : bool := match e with ENo => true | _ => false end.
Definition removable_if_dead_effect (e : effect) : bool := match e with ENo | EAl | EOb | EAlOb => true | _ => false end.
Definition gc_safe_effect (e : effect) : bool := match e with ENo | EOb | EAct | EObAct => true | _ => false end.

(** ** Expressions, 3.sf:255-266.  The elements of [lams] are lambda-expressions: parameters and body. *)
Notation prim := (list Z).
Inductive exp :=
| EVar (x : id)
| ESet (x : id) (e : exp)
| EIf (a b c : exp)
| EPrim (ef : effect) (p : prim) (l : list exp)
| EApp (f : exp) (l : list exp)
| ELam (xs : list id) (b : exp)
| EFix (xs : list id) (lams : list (list id * exp)) (b : exp)
| ELetcc (x : id) (b : exp)
| EWithcc (k e : exp).

(** 3.sf:273-277 *)
Definition the_void_prim : prim := codes "void(0)".
Definition void_exp : exp := EPrim ENo the_void_prim [].
Definition void_expp (e : exp) : bool :=
  match e with EPrim _ p _ => if zlist_dec p the_void_prim then true else false | _ => false end.
(** 3.sf:295-316 *)
Definition let_exp (ids : list id) (rands : list exp) (body : exp) : exp := EApp (ELam ids body) rands.
Definition let_view (e : exp) : option (list id * list exp * exp) :=
  match e with
  | EApp (ELam ids b) rands => if Nat.eqb (length ids) (length rands) then Some (ids, rands, b) else None
  | _ => None
  end.
(** 3.sf:323-377 *)
Definition degenerate_let (e : exp) : option exp :=
  match e with
  | EApp (ELam [] b) [] => Some b
  | EApp (ELam [x] (EVar y)) [e'] => if id_eqb x y then Some e' else None
  | _ => None
  end.

(** ** Variable information, 3.sf:770-856 *)
(** 6.sf:294-307 c-argref-ctype.  [n] and the text shrink; the fuel is the length of the text. *)
Definition val_or {A} (d : A) (r : res A) : A := match r with Val x => x | UB => d end.
Definition word_chars : list Z := codes "abcdefghijklmnopqrstuvwxyz0123456789_ABCDEFGHIJKLMNOPQRSTUVWXYZ".
(** 6.sf:100-105 with the character set of names: case-insensitive membership in a..z, 0..9, _ *)
Definition word_span (s : list Z) : nat := val_or O (string_span s word_chars).
Fixpoint argref_loop (f : nat) (s : list Z) (n : nat) : option (list Z) :=
  match f with
  | O => None
  | S f' =>
    match substring_before s (codes "$"), substring_after s (codes "$") with
    | Val (Some bd), Val (Some ad) =>
      let starts p := val_or false (string_starts_with ad (codes p)) in
      if starts "}"%string then None
      else if starts "{"%string then argref_loop f' ad O
      else if starts "argc"%string then argref_loop f' ad n
      else if starts "arg#"%string then argref_loop f' ad n
      else if negb (starts "arg"%string) then argref_loop f' ad n
      else match n with
           | S n' => argref_loop f' ad n'
           | O => if negb (val_or false (string_ends_with bd (codes "_from_"))) then None
                  else let s := rev (firstn (length bd - 6) bd) in Some (rev (firstn (word_span s) s))
           end
    | _, _ => None
    end
  end.
Definition c_argref_ctype (fmt : list Z) (n : nat) : option (list Z) := argref_loop (S (length fmt)) fmt n.

(** 3.sf:773 *)
Record var_use := mkuse { assignment_to : bool; application_of : bool; ref_ctype : option (list Z) }.
Notation vinfo := (list (id * var_use)).
(** 3.sf:775-806 *)
Fixpoint exp_vinfo (e : exp) : vinfo :=
  let keep ids (l : vinfo) := filter (fun iv => negb (memq (fst iv) ids)) l in
  match e with
  | EVar x => [(x, mkuse false false None)]
  | ESet x e => (x, mkuse true false None) :: exp_vinfo e
  | EIf a b c => exp_vinfo a ++ exp_vinfo b ++ exp_vinfo c
  | EPrim _ p rands =>
    (fix loop (rands : list exp) (n : nat) (vi : vinfo) : vinfo :=
       match rands with
       | [] => vi
       | e :: rands' =>
         match e with
         | EVar x => loop rands' (S n) ((x, mkuse false false (c_argref_ctype p n)) :: vi)
         | _ => loop rands' (S n) (exp_vinfo e ++ vi)
         end
       end) rands O []
  | EApp rator rands =>
    (fix app (l : list exp) : vinfo :=
       match l with
       | [] => match rator with EVar x => [(x, mkuse false true None)] | _ => exp_vinfo rator end
       | e :: l' => exp_vinfo e ++ app l'
       end) rands
  | ELam ids b => keep ids (exp_vinfo b)
  | EFix ids lams b =>
    keep ids ((fix app (l : list (list id * exp)) : vinfo :=
                 match l with
                 | [] => exp_vinfo b
                 | (xs, e) :: l' => keep xs (exp_vinfo e) ++ app l'
                 end) lams)
  | ELetcc x b => keep [x] (exp_vinfo b)
  | EWithcc k e => exp_vinfo k ++ exp_vinfo e
  end.
(** 3.sf:808-815; the uses come out in reverse order *)
Definition var_uses_in_exp (x : id) (e : exp) : list var_use :=
  rev (map snd (filter (fun iv => id_eqb x (fst iv)) (exp_vinfo e))).
(** 3.sf:817-831 *)
Definition var_referenced_in_exp (x : id) (e : exp) : bool := match var_uses_in_exp x e with [] => false | _ => true end.
Definition var_assigned_in_exp (x : id) (e : exp) : bool := existsb assignment_to (var_uses_in_exp x e).
Definition var_reference_count (x : id) (e : exp) : nat := length (var_uses_in_exp x e).
Definition var_assignment_count (x : id) (e : exp) : nat := length (filter assignment_to (var_uses_in_exp x e)).
Definition var_only_applied_in_exp (x : id) (e : exp) : bool := forallb application_of (var_uses_in_exp x e).
(** 3.sf:849-863 *)
Definition exp_free_vars (e : exp) : list id := fold_left (fun res iv => adjoinq (fst iv) res) (exp_vinfo e) [].
Definition exp_free_lexvars (e : exp) : list id :=
  fold_left (fun res iv => if global_id (fst iv) then res else adjoinq (fst iv) res) (exp_vinfo e) [].

(** 3.sf:384-398: [begin-exp] is a let whose variable is not referenced *)
Definition begin_view (e : exp) : option (exp * exp) :=
  match let_view e with
  | Some ([x], [e1], e2) => if var_referenced_in_exp x e2 then None else Some (e1, e2)
  | _ => None
  end.
Definition begin_exp (e1 e2 : exp) (n : Z) : exp * Z := let (x, n') := fresh XNone n in (EApp (ELam [x] e2) [e1], n').
(** 3.sf:501-519 *)
Definition the_halt_prim : prim := codes
"r[$live+0] = r[0];
    pc = 0; /* exit from module init */
    r[$live+1] = obj_from_$arg;
    r += $live; /* shift reg wnd */
    rc = 2;
    goto jump;".
Definition halt_exp (e : exp) : exp := EPrim EAny the_halt_prim [e].
