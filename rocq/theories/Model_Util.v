(** Compiler utilities of /repo/3.sf: identifier sets, text forests, memoization.
    Identifiers are compared by [eq?]; they are modelled as integers. *)
From Coq Require Import ZArith List Bool.
Import ListNotations.
Open Scope Z_scope.

(** [memq] used as a test; also 0.sf:1327 *)
Fixpoint memq (x : Z) (s : list Z) : bool :=
  match s with [] => false | y :: s' => if x =? y then true else memq x s' end.

(** 3.sf:49-50 *)
Definition adjoinq (x : Z) (s : list Z) : list Z := if memq x s then s else x :: s.

(** 3.sf:52-53 *)
Fixpoint subsetq (s1 s2 : list Z) : bool :=
  match s1 with [] => true | x :: s => if memq x s2 then subsetq s s2 else false end.

(** 3.sf:55-56 *)
Definition seteq (s1 s2 : list Z) : bool := if subsetq s1 s2 then subsetq s2 s1 else false.

(** 3.sf:58-61 *)
Fixpoint unionq (s1 s2 : list Z) : list Z :=
  match s1 with
  | [] => s2
  | x :: s => if memq x s2 then unionq s s2 else x :: unionq s s2
  end.

(** 3.sf:63-66 *)
Fixpoint intersectionq (s1 s2 : list Z) : list Z :=
  match s1 with
  | [] => []
  | x :: s => if memq x s2 then x :: intersectionq s s2 else intersectionq s s2
  end.

(** 3.sf:68-71 *)
Fixpoint setdiffq (s1 s2 : list Z) : list Z :=
  match s1 with
  | [] => []
  | x :: s => if memq x s2 then setdiffq s s2 else x :: setdiffq s s2
  end.

(** 3.sf:73-76, used as [(reduce-right unionq '() l)] *)
Definition union_all (l : list (list Z)) : list Z := fold_right unionq [] l.

(** ** text forests, 3.sf:578-620.  A string is a list of character codes. *)
Inductive forest :=
| FStr (s : list Z)
| FNull
| FPair (a d : forest)
| FVec (v : list forest).

(** 3.sf:583-597 *)
Fixpoint forest_length (x : forest) : nat :=
  match x with
  | FStr s => length s
  | FNull => 0
  | FPair a d => forest_length a + forest_length d
  | FVec v => (fix loop v sum := match v with
                                 | [] => sum
                                 | y :: v' => loop v' (sum + forest_length y)
                                 end) v 0
  end%nat.

(** [string-set!] on a string of fixed length; [None] when the index is out of range *)
Fixpoint string_set (str : list Z) (i : nat) (c : Z) : option (list Z) :=
  match str, i with
  | [], _ => None
  | _ :: s, O => Some (c :: s)
  | x :: s, S i' => match string_set s i' c with None => None | Some s' => Some (x :: s') end
  end.

(** the loop of 3.sf:604-611 *)
Fixpoint copy_chars (s : list Z) (str : list Z) (pos : nat) : option (list Z * nat) :=
  match s with
  | [] => Some (str, pos)
  | c :: s' => match string_set str pos c with
               | None => None
               | Some str' => copy_chars s' str' (S pos)
               end
  end.

(** 3.sf:602-618 *)
Fixpoint forest_copy (x : forest) (str : list Z) (pos : nat) : option (list Z * nat) :=
  match x with
  | FStr s => copy_chars s str pos
  | FNull => Some (str, pos)
  | FPair a d => match forest_copy a str pos with
                 | None => None
                 | Some (str', pos') => forest_copy d str' pos'
                 end
  | FVec v => (fix loop v str pos :=
                 match v with
                 | [] => Some (str, pos)
                 | y :: v' => match forest_copy y str pos with
                              | None => None
                              | Some (str', pos') => loop v' str' pos'
                              end
                 end) v str pos
  end.

(** 3.sf:599-620; [fill n] is what [make-string] leaves in a new string of
    length [n] *)
Definition forest_to_string (fill : nat -> list Z) (x : forest) : option (list Z) :=
  match forest_copy x (fill (forest_length x)) 0%nat with
  | None => None
  | Some (str, _) => Some str
  end.

(** ** memoization, 3.sf:531-567.
    The memoized function [fn] is itself written with memoized queries (e.g.
    [exp-vinfo] at 3.sf:772), so it is a strategy that asks for the attributes of
    other expressions before it answers. *)
Section Memo.
Variable B : Type.

Inductive strategy :=
| Answer (b : B)
| Ask (e : Z) (k : B -> strategy).

Record memo := mkmemo { m_al : list (Z * B); m_len : nat }.

Fixpoint assq (e : Z) (al : list (Z * B)) : option B :=
  match al with [] => None | (x, b) :: al' => if e =? x then Some b else assq e al' end.

(** 3.sf:534-547; 528-529 for the two constants.  [None] = fuel exhausted. *)
Definition memo_optsz : nat := 500.
Definition memo_limit : nat := 1000.

(** keep the first [memo_optsz + 1] entries: [(set-cdr! (list-tail memo optsz) '())] *)
Definition memo_add (e : Z) (b : B) (m : memo) : memo :=
  let al := (e, b) :: m_al m in
  let n := S (m_len m) in
  if (memo_limit <? n)%nat then
    let al' := firstn (S memo_optsz) al in mkmemo al' (length al')
  else mkmemo al n.

Fixpoint query (fuel : nat) (fn : Z -> strategy) (m : memo) (e : Z) : option (memo * B) :=
  match fuel with
  | O => None
  | S f =>
    match assq e (m_al m) with
    | Some b => Some (m, b)
    | None =>
      let fix run (s : strategy) (m : memo) : option (memo * B) :=
        match s with
        | Answer b => Some (m, b)
        | Ask e' k => match query f fn m e' with
                      | None => None
                      | Some (m', b') => run (k b') m'
                      end
        end in
      match run (fn e) m with
      | None => None
      | Some (m', b) => Some (memo_add e b m', b)
      end
    end
  end.

(** a client: a sequence of queries and clearings [(query #f)] *)
Inductive creq := CQuery (e : Z) | CClear.

Fixpoint session (fuel : nat) (fn : Z -> strategy) (m : memo) (l : list creq)
    : option (memo * list B) :=
  match l with
  | [] => Some (m, [])
  | CClear :: l' => session fuel fn (mkmemo [] 0) l'
  | CQuery e :: l' =>
    match query fuel fn m e with
    | None => None
    | Some (m', b) =>
      match session fuel fn m' l' with
      | None => None
      | Some (m'', bs) => Some (m'', b :: bs)
      end
    end
  end.
End Memo.
Arguments Answer {B}. Arguments Ask {B}. Arguments mkmemo {B}.
Arguments m_al {B}. Arguments m_len {B}. Arguments query {B}. Arguments session {B}.
Arguments memo_add {B}. Arguments assq {B}.

(** ** the two-key variant, 3.sf:549-567.  The entry for an expression is a
    mutable association list of its own; [al2] maps an expression to it.  The entry
    found before the computation may have been evicted by nested queries when the
    result is recorded; then the record goes to a list nobody sees any more. *)
Section Memo2.
Variable B : Type.

Inductive strategy2 :=
| Answer2 (b : B)
| Ask2 (id e : Z) (k : B -> strategy2).

(** entries carry a unique number (the identity of the pair [exp&idmemo]) *)
Record entry := mkentry { e_no : nat; e_exp : Z; e_ids : list (Z * B) }.
Record memo2 := mkmemo2 { m2_al : list entry; m2_len : nat; m2_next : nat }.

Fixpoint find_entry (e : Z) (l : list entry) : option entry :=
  match l with [] => None | x :: l' => if e =? e_exp x then Some x else find_entry e l' end.

Definition record2 (no : nat) (id : Z) (b : B) (m : memo2) : memo2 :=
  mkmemo2 (map (fun x => if Nat.eqb (e_no x) no
                         then mkentry (e_no x) (e_exp x) ((id, b) :: e_ids x) else x) (m2_al m))
          (m2_len m) (m2_next m).

Definition memo_add2 (e id : Z) (b : B) (m : memo2) : memo2 :=
  let al := mkentry (m2_next m) e [(id, b)] :: m2_al m in
  let n := S (m2_len m) in
  if (memo_limit <? n)%nat then
    let al' := firstn (S memo_optsz) al in mkmemo2 al' (length al') (S (m2_next m))
  else mkmemo2 al n (S (m2_next m)).

Fixpoint query2 (fuel : nat) (fn : Z -> Z -> strategy2) (m : memo2) (id e : Z) : option (memo2 * B) :=
  match fuel with
  | O => None
  | S f =>
    let fix run (s : strategy2) (m : memo2) : option (memo2 * B) :=
      match s with
      | Answer2 b => Some (m, b)
      | Ask2 id' e' k => match query2 f fn m id' e' with
                         | None => None
                         | Some (m', b') => run (k b') m'
                         end
      end in
    match find_entry e (m2_al m) with
    | Some x =>
      match assq id (e_ids x) with
      | Some b => Some (m, b)
      | None =>
        match run (fn id e) m with
        | None => None
        | Some (m', b) =>
          (* set-cdr! uses (cdr exp&idmemo) read after the computation: [e_ids] of
             the entry as it is then *)
          Some (record2 (e_no x) id b m', b)
        end
      end
    | None =>
      match run (fn id e) m with
      | None => None
      | Some (m', b) => Some (memo_add2 e id b m', b)
      end
    end
  end.
(** [(query #f exp)] clears, 3.sf:553; entry numbers are not reused (they stand for
    the identity of heap objects) *)
Inductive creq2 := CQuery2 (id e : Z) | CClear2.

Fixpoint session2 (fuel : nat) (fn : Z -> Z -> strategy2) (m : memo2) (l : list creq2)
    : option (memo2 * list B) :=
  match l with
  | [] => Some (m, [])
  | CClear2 :: l' => session2 fuel fn (mkmemo2 [] 0 (m2_next m)) l'
  | CQuery2 id e :: l' =>
    match query2 fuel fn m id e with
    | None => None
    | Some (m', b) =>
      match session2 fuel fn m' l' with
      | None => None
      | Some (m'', bs) => Some (m'', b :: bs)
      end
    end
  end.
End Memo2.
Arguments Answer2 {B}. Arguments Ask2 {B}. Arguments mkmemo2 {B}. Arguments mkentry {B}.
Arguments m2_al {B}. Arguments m2_len {B}. Arguments m2_next {B}. Arguments query2 {B}.
Arguments e_no {B}. Arguments e_exp {B}. Arguments e_ids {B}. Arguments find_entry {B}.
Arguments record2 {B}. Arguments session2 {B}. Arguments memo_add2 {B}.
