(** Tail calls of functions on the C stack: what the C code must not do. *)
From Coq Require Import List Bool.
From Verif Require Import Model_Core Model_Stack.
Import ListNotations.

(** the value of the C expression may be the value of a call, unchanged: [return c;] then calls while the caller still has its frame *)
Fixpoint ends_in_call (c : cx) : bool :=
  match c with XCall _ _ => true | XIf _ b c => ends_in_call b || ends_in_call c | XVar _ | XPrim _ _ => false end.
(** no statement returns the value of a call *)
Inductive keeps_stack : st -> Prop :=
| ks_return c : ends_in_call c = false -> keeps_stack (SSet TReturn c)
| ks_set t c : t <> TReturn -> keeps_stack (SSet t c)
| ks_prim t p l : keeps_stack (SPrim t p l)
| ks_if c a b : keeps_stack a -> keeps_stack b -> keeps_stack (SIf c a b)
| ks_seq l : (forall s, In s l -> keeps_stack s) -> keeps_stack (SSeq l)
| ks_goto f l : keeps_stack (SGoto f l)
| ks_letrec b d labs : keeps_stack b -> (forall x s, In (x, Some s) labs -> keeps_stack s) -> keeps_stack (SLetrec b d labs).

(** the C functions that C code calls *)
Fixpoint x_calls (c : cx) : list id :=
  match c with
  | XVar _ => []
  | XIf a b c => x_calls a ++ x_calls b ++ x_calls c
  | XCall f l => f :: flat_map x_calls l
  | XPrim _ l => flat_map x_calls l
  end.
Fixpoint s_calls (s : st) : list id :=
  match s with
  | SSet _ c => x_calls c
  | SPrim _ _ l => flat_map x_calls l
  | SIf c a b => x_calls c ++ s_calls a ++ s_calls b
  | SSeq l => flat_map s_calls l
  | SGoto _ l => flat_map (fun xc => x_calls (snd xc)) l
  | SLetrec b _ labs => s_calls b ++ flat_map (fun l => match snd l with Some s' => s_calls s' | None => [] end) labs
  end.

(** the labels that are called for the value of an expression, also from the functions of letrecs and loops in it *)
Fixpoint tail_targets (e : exp) : list id :=
  match e with
  | EIf _ b c => tail_targets b ++ tail_targets c
  | EFix _ lams b => tail_targets b ++ flat_map (fun l => tail_targets (snd l)) lams
  | EApp (EVar g) _ => [g]
  | EApp f l => tail_targets f ++ flat_map tail_targets l
  | ELam _ b => tail_targets b
  | _ => []
  end.
(** loops jump only to themselves *)
Fixpoint closed_loops (e : exp) : bool :=
  match e with
  | EVar _ => true
  | ESet _ e | ELetcc _ e | ELam _ e => closed_loops e
  | EIf a b c => closed_loops a && closed_loops b && closed_loops c
  | EPrim _ _ l => forallb closed_loops l
  | EApp (EFix ys lams b as f) l =>
    forallb (fun lam => forallb (fun g => memq g ys) (tail_targets (snd lam))) lams && closed_loops f && forallb closed_loops l
  | EApp f l => closed_loops f && forallb closed_loops l
  | EFix _ lams b => forallb (fun l => closed_loops (snd l)) lams && closed_loops b
  | EWithcc k e => closed_loops k && closed_loops e
  end.
