(** What beta substitution may do with a variable of a let. *)
From Coq Require Import ZArith List Bool.
From Verif Require Import Model_Lit Model_CStr Model_Core Model_Beta Spec_Sem Spec_Free.
Import ListNotations.
Open Scope Z_scope.

(** the expression gives the same value wherever and how often it is evaluated: it reads only variables that do not change,
    and its primitive operations neither allocate nor look nor act *)
Inductive same_value : exp -> Prop :=
| sv_local x : global_id x = false -> same_value (EVar x)
| sv_const x : global_id_constant x = true -> same_value (EVar x)
| sv_if a b c : same_value a -> same_value b -> same_value c -> same_value (EIf a b c)
| sv_prim ef p l : ~ may_alloc ef -> ~ may_look ef -> ~ may_act ef -> Forall same_value l -> same_value (EPrim ef p l)
| sv_lam xs b : same_value (ELam xs b)
| sv_let xs b l : length xs = length l -> Forall same_value l -> same_value b -> same_value (EApp (ELam xs b) l).
(** the expression calls no procedure but those of its lets, and its primitive operations do not act; it may transfer control *)
Inductive idle : exp -> Prop :=
| id_var x : idle (EVar x)
| id_if a b c : idle a -> idle b -> idle c -> idle (EIf a b c)
| id_prim ef p l : ~ may_act ef -> Forall idle l -> idle (EPrim ef p l)
| id_lam xs b : idle (ELam xs b)
| id_let xs b l : length xs = length l -> Forall idle l -> idle b -> idle (EApp (ELam xs b) l)
| id_letcc x b : idle b -> idle (ELetcc x b)
| id_withcc k e : idle k -> idle e -> idle (EWithcc k e).
(** variables and constants *)
Inductive atom : exp -> Prop :=
| at_var x : same_value (EVar x) -> atom (EVar x)
| at_prim ef p : same_value (EPrim ef p []) -> prim_cexp p = true -> atom (EPrim ef p []).
(** one operation on variables and constants *)
Inductive small : exp -> Prop :=
| sm_prim ef p l : Forall atom l -> small (EPrim ef p l)
| sm_app f l : atom f -> Forall atom l -> small (EApp f l).
(** what may be copied to several places *)
Inductive copied (hold_cps hold_lifting : bool) (n : nat) : exp -> Prop :=
| cp_atom e : atom e -> copied hold_cps hold_lifting n e
| cp_prim ef p l : hold_cps = false -> n = 2%nat -> (length l <= 2)%nat -> same_value (EPrim ef p l) -> small (EPrim ef p l) -> copied hold_cps hold_lifting n (EPrim ef p l)
| cp_lam xs b : hold_lifting = false -> small b -> copied hold_cps hold_lifting n (ELam xs b)
| cp_curry xs f l : hold_lifting = true -> label_id f = true -> copied hold_cps hold_lifting n (ELam xs (EApp (EVar f) (map EVar xs ++ l))).
(** the variable is one of the things that the expression operates on, and all of them are the same wherever they are evaluated *)
Inductive operand (x : id) : exp -> Prop :=
| op_prim ef p l : In (EVar x) l -> Forall same_value l -> operand x (EPrim ef p l)
| op_app f l : In (EVar x) (f :: l) -> Forall same_value (f :: l) -> operand x (EApp f l).
(** the operand [e] of the variable [x] may be treated like this if the body of the let has [n] uses of [x] *)
Inductive allowed (hold_cps hold_lifting : bool) (x : id) (e body : exp) : nat -> bs_choice -> Prop :=
| al_pass n : allowed hold_cps hold_lifting x e body n CPass
| al_drop : idle e -> allowed hold_cps hold_lifting x e body 0 CDrop
| al_once : same_value e -> allowed hold_cps hold_lifting x e body 1 CSubst
| al_move : hold_cps = false -> operand x body -> allowed hold_cps hold_lifting x e body 1 CSubst
| al_copy n : (1 < n)%nat -> same_value e -> copied hold_cps hold_lifting n e -> allowed hold_cps hold_lifting x e body n CSubst
| al_heads n xs b : (1 < n)%nat -> e = ELam xs b -> copied hold_cps hold_lifting n e -> allowed hold_cps hold_lifting x e body n CPartial.
