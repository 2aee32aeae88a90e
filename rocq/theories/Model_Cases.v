(** The numbers of closure entries.  Source: /repo/7.sf:22-43 (sort-by!), 562-571 (add-curry!), 583-626 (collect-curries!,
    sort-curries-by-fix-order!, lookup-curry-case-no), 634-668 (compile-curry-case), 670-702 (compile-labels), 747-757
    (compile-cases).  Lists are not changed in place here: sort-by! is called on lists that nobody else holds.  The texts between
    the cases are left out. *)
From Coq Require Import ZArith String List Bool Arith.
From Verif Require Import Base Model_Lit Model_Core Model_CodeGen Model_Roots.
Import ListNotations.

Section Sort.
Context {A : Type}.
Variable less : A -> A -> bool.
(** 7.sf:22-26 *)
Fixpoint merge_by (l1 l2 : list A) {struct l1} : list A :=
  match l1 with
  | [] => l2
  | a :: l1' =>
    (fix inner (l2 : list A) : list A :=
       match l2 with
       | [] => a :: l1'
       | b :: l2' => if less b a then b :: inner l2' else a :: merge_by l1' l2
       end) l2
  end.
(** 7.sf:28-33, [hd] and [tl]: the list is cut after the first of [hd] when [tl] is at its end *)
Fixpoint split_loop (hd tl : list A) : list A * list A :=
  match hd with
  | [] => ([], [])
  | a :: hd' =>
    match tl with
    | _ :: _ :: tl' => let (x, y) := split_loop hd' tl' in (a :: x, y)
    | _ => ([a], hd')
    end
  end.
Definition split_by (l : list A) : list A * list A := match l with [] => ([], []) | _ :: tl => split_loop l tl end.
(** 7.sf:35-39 *)
Fixpoint sort_by (fuel : nat) (l : list A) : option (list A) :=
  match fuel with
  | O => None
  | S fuel' =>
    match l with
    | [] => Some []
    | [a] => Some [a]
    | _ =>
      let (l1, l2) := split_by l in
      match sort_by fuel' l1, sort_by fuel' l2 with Some r1, Some r2 => Some (merge_by r1 r2) | _, _ => None end
    end
  end.
End Sort.

(** 7.sf:562-571, without the tests (agrees in Model_CodeGen): labels, latest first *)
Fixpoint add_curries (l : list found) (alist : list id) : list id :=
  match l with
  | [] => alist
  | FCurry lb _ _ :: l' => add_curries l' (if memq lb alist then alist else lb :: alist)
  | _ :: l' => add_curries l' alist
  end.
(** 3.sf:101-104 posq *)
Fixpoint pos (x : id) (l : list id) : option nat :=
  match l with [] => None | y :: l' => if id_eqb x y then Some O else option_map S (pos x l') end.
(** 7.sf:614-618; [false] if a label is not in the list: there the comparison fails *)
Definition c_before (ids : list id) (a b : id) : bool :=
  match pos a ids, pos b ids with Some i, Some j => Nat.ltb i j | _, _ => false end.
Definition curry_alist (e : exp) : option (list id) :=
  match e with
  | EFix ids _ _ => let l := add_curries (collected e) [] in sort_by (c_before ids) (S (length l)) l
  | _ => None
  end.
(** 7.sf:622-626 and 665-668 *)
Fixpoint case_no (lb : id) (alist : list id) (i : nat) : option nat :=
  match alist with [] => None | y :: l => if id_eqb y lb then Some i else case_no lb l (S i) end.
Definition case_start : nat := 1.
(** 7.sf:628-632, 680-702: the case labels in the order in which they are written *)
Definition cases_written (ids alist : list id) : list nat :=
  O :: flat_map (fun lb => match case_no lb alist case_start with Some i => [i] | None => [] end) ids.
(** 7.sf:747-749 *)
Definition ncases (alist : list id) : nat := case_start + length alist.
