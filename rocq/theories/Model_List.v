(** Pairs, lists, vectors and equivalence predicates of the runtime (/repo/0.sf), on
    the word memory of Model_GC.  A debugging build is modelled: failed assertions
    are [LUB].  Allocating primitives are modelled after their [hreserve] (which may
    collect, see Model_GC); the heap occupies the [8 * hs] bytes from [heap]. *)
From Coq Require Import ZArith List Bool.
From Verif Require Import Base Model_Imm Model_GC.
Import ListNotations.
Open Scope Z_scope.

Inductive lres (A : Type) := LVal (a : A) | LUB | LFuel.
Arguments LVal {A}. Arguments LUB {A}. Arguments LFuel {A}.
Definition lbind {A B} (r : lres A) (k : A -> lres B) : lres B :=
  match r with LVal a => k a | LUB => LUB | LFuel => LFuel end.

Definition VECTOR_BTAG : Z := 1.   (* 0.sf:1066 *)
Definition BOX_BTAG : Z := 2.      (* 0.sf:1122 *)
Definition PAIR_BTAG : Z := 3.     (* 0.sf:1173 *)

Section Heap.
Variables heap hmask : Z.

(** 0.sf:303-308 *)
Definition istagged (m : mem) (o t : Z) : bool :=
  if notobjptr o heap hmask then false
  else let h := m (o - 8) in
       notaptr h && (1 <=? size_from_obj h) && (m o =? obj_from_size t).

(** 0.sf:315-318 *)
Definition taggedlen (m : mem) (o t : Z) : lres Z :=
  if istagged m o t then LVal (size_from_obj (m (o - 8)) - 1) else LUB.

(** 0.sf:320-325: the address of field [i] *)
Definition taggedref (m : mem) (o t i : Z) : lres Z :=
  if istagged m o t then
    let len := size_from_obj (m (o - 8)) in
    if (0 <=? i) && (i <? len - 1) then LVal (o + 8 * (i + 1)) else LUB
  else LUB.

(** 0.sf:1174-1176 *)
Definition ispair (m : mem) (o : Z) : bool := istagged m o PAIR_BTAG.
Definition car (m : mem) (o : Z) : lres Z := lbind (taggedref m o PAIR_BTAG 0) (fun a => LVal (m a)).
Definition cdr (m : mem) (o : Z) : lres Z := lbind (taggedref m o PAIR_BTAG 1) (fun a => LVal (m a)).
(** 0.sf:1158 *)
Definition isnull (o : Z) : bool := o =? mknull.

(** 0.sf:1184-1196; one call is one round of the [for(;;)] loop *)
Fixpoint islist_loop (fuel : nat) (m : mem) (s l : Z) : lres bool :=
  match fuel with
  | O => LFuel
  | S f =>
    if isnull l then LVal true
    else if negb (ispair m l) then LVal false
    else lbind (cdr m l) (fun l1 =>
      if l1 =? s then LVal false
      else if isnull l1 then LVal true
      else if negb (ispair m l1) then LVal false
      else lbind (cdr m l1) (fun l2 =>
        if l2 =? s then LVal false
        else lbind (cdr m s) (fun s' => islist_loop f m s' l2)))
  end.
Definition islist (fuel : nat) (m : mem) (l : Z) : lres bool := islist_loop fuel m l l.

(** 0.sf:1277-1281 *)
Fixpoint length_loop (fuel : nat) (m : mem) (l n : Z) : lres Z :=
  match fuel with
  | O => LFuel
  | S f => if l =? mknull then LVal n else lbind (cdr m l) (fun l' => length_loop f m l' (n + 1))
  end.
Definition length_ (fuel : nat) (m : mem) (l : Z) : lres Z := length_loop fuel m l 0.

(** a pair built by pushing cdr, car, tag and the size word: 0.sf:1201-1207 *)
Definition new_pair (m : mem) (hp a d : Z) : mem * Z * Z :=
  alloc_block m hp [d; a; obj_from_size PAIR_BTAG].

(** 0.sf:1292-1299; the car is read before the stores of the new pair rather than between them *)
Fixpoint reverse_loop (fuel : nat) (m : mem) (hp l o : Z) : lres (mem * Z * Z) :=
  match fuel with
  | O => LFuel
  | S f =>
    if l =? mknull then LVal (m, hp, o)
    else lbind (car m l) (fun a =>
         let '(m', hp', o') := new_pair m hp a o in
         lbind (cdr m' l) (fun l' => reverse_loop f m' hp' l' o'))
  end.
Definition reverse (fuel : nat) (m : mem) (hp l : Z) : lres (mem * Z * Z) :=
  reverse_loop fuel m hp l mknull.

(** 0.sf:1301-1305 *)
Fixpoint reverse_bang_loop (fuel : nat) (m : mem) (l v : Z) : lres (mem * Z) :=
  match fuel with
  | O => LFuel
  | S f =>
    if l =? mknull then LVal (m, v)
    else lbind (taggedref m l PAIR_BTAG 1) (fun a =>
         let t := m a in reverse_bang_loop f (upd m a v) t l)
  end.
Definition reverse_bang (fuel : nat) (m : mem) (l : Z) : lres (mem * Z) :=
  reverse_bang_loop fuel m l mknull.

(** 0.sf:1307-1317.  [p] is where the next pair is linked in: [None] for the local
    variable [o], [Some a] for a cdr field *)
Fixpoint append_loop (fuel : nat) (m : mem) (hp l t o : Z) (p : option Z) : lres (mem * Z * Z) :=
  match fuel with
  | O => LFuel
  | S f =>
    if l =? mknull then LVal (m, hp, o)
    else lbind (car m l) (fun a =>
         let '(m', hp', x) := new_pair m hp a t in
         let d := hp - 8 in
         let '(m'', o') := match p with None => (m', x) | Some q => (upd m' q x, o) end in
         lbind (cdr m'' l) (fun l' => append_loop f m'' hp' l' t o' (Some d)))
  end.
Definition append2 (fuel : nat) (m : mem) (hp l t : Z) : lres (mem * Z * Z) :=
  append_loop fuel m hp l t t None.

(** 0.sf:1328-1338; the count is a C int, negative counts do no steps *)
Fixpoint list_tail (c : nat) (m : mem) (l : Z) : lres Z :=
  match c with O => LVal l | S c' => lbind (cdr m l) (fun l' => list_tail c' m l') end.
Definition list_ref (c : nat) (m : mem) (l : Z) : lres Z :=
  lbind (list_tail c m l) (fun l' => car m l').

(** 0.sf:1340-1344 *)
Fixpoint last_pair_loop (fuel : nat) (m : mem) (l p : Z) : lres Z :=
  match fuel with
  | O => LFuel
  | S f => if ispair m p then lbind (cdr m p) (fun p' => last_pair_loop f m p p') else LVal l
  end.
Definition last_pair (fuel : nat) (m : mem) (l : Z) : lres Z :=
  lbind (cdr m l) (fun p => last_pair_loop fuel m l p).

(** 0.sf:1074-1081 (make-vector) *)
Definition make_vector (c : nat) (m : mem) (hp o : Z) : mem * Z * Z :=
  alloc_block m hp (repeat o c ++ [obj_from_size VECTOR_BTAG]).

(** 0.sf:1283-1290 and again 1566-1573; [c] counts down *)
Fixpoint vector_to_list_loop (c : nat) (m : mem) (hp v l : Z) : mem * Z * Z :=
  match c with
  | O => (m, hp, l)
  | S c' => let '(m', hp', l') := new_pair m hp (m (v + 8 * (1 + Z.of_nat c'))) l in
            vector_to_list_loop c' m' hp' v l'
  end.
Definition vector_to_list (m : mem) (hp v : Z) : lres (mem * Z * Z) :=
  lbind (taggedlen m v VECTOR_BTAG) (fun c => LVal (vector_to_list_loop (Z.to_nat c) m hp v mknull)).

(** 0.sf:1575-1582: the stores [hp[i-c] = car(l)], then tag and size words *)
Fixpoint list_to_vector_loop (k : nat) (m : mem) (a l : Z) : lres mem :=
  match k with
  | O => LVal m
  | S k' => lbind (car m l) (fun x =>
            let m' := upd m a x in
            lbind (cdr m' l) (fun l' => list_to_vector_loop k' m' (a + 8) l'))
  end.
Definition list_to_vector (fuel : nat) (m : mem) (hp l : Z) : lres (mem * Z * Z) :=
  lbind (length_ fuel m l) (fun c =>
  lbind (list_to_vector_loop (Z.to_nat c) m (hp - 8 * c) l) (fun m' =>
  let hp' := hp - 8 * c in
  LVal (hendblk (upd m' (hp' - 8) (obj_from_size VECTOR_BTAG)) (hp' - 8) (c + 1)))).

(** ** equivalence, 0.sf:1923-2060.
    [flo p] and [str p] are the number and the characters up to the first NUL that
    the native pointer [p] refers to; [feq] is the C comparison of doubles.  The
    type descriptors FLONUM_NTAG and STRING_NTAG are two addresses. *)
Variable F : Type.
Variable feq : F -> F -> bool.
Variable flo : Z -> F.
Variable str : Z -> list Z.
Variables flonum_ntag string_ntag : Z.

Definition word_only (x : Z) : bool := (x =? 0) || notaptr x || notobjptr x heap hmask.

(** strcmp(...) == 0 *)
Definition str_eq (s t : list Z) : bool := if list_eq_dec Z.eq_dec s t then true else false.

(** 0.sf:1923-1929 *)
Definition iseqv (m : mem) (x y : Z) : bool :=
  if x =? y then true
  else if word_only x || word_only y then false
  else let h := m (x - 8) in
       if negb (h =? m (y - 8)) then false
       else if h =? flonum_ntag then feq (flo (m x)) (flo (m y))
       else false.

(** 0.sf:1962-1972; [k] counts the rounds of the [for] loop *)
Fixpoint isequal (fuel : nat) (m : mem) (x y : Z) : lres bool :=
  match fuel with
  | O => LFuel
  | S f =>
    if x =? y then LVal true
    else if word_only x || word_only y then LVal false
    else
      let h := m (x - 8) in
      if negb (h =? m (y - 8)) then LVal false
      else if h =? flonum_ntag then LVal (feq (flo (m x)) (flo (m y)))
      else if h =? string_ntag then LVal (str_eq (str (m x)) (str (m y)))
      else if isaptr h || (size_from_obj h =? 0) || negb (m x =? m y) then LVal false
      else
        let n := size_from_obj h in
        let fix fields (k : nat) (i : Z) : lres bool :=
          match k with
          | O => if i =? n - 1 then isequal f m (m (x + 8 * i)) (m (y + 8 * i)) else LVal true
          | S k' => lbind (isequal f m (m (x + 8 * i)) (m (y + 8 * i))) (fun b =>
                    if b then fields k' (i + 1) else LVal false)
          end in
        fields (Z.to_nat (n - 2)) 1
  end.

Definition isnative (m : mem) (o nt : Z) : bool :=
  isobjptr o heap hmask && (m (o - 8) =? nt).

(** the shape of all the searches: [for (; l != mknull(); l = cdr(l)) if (test) return l] *)
Fixpoint mem_loop (fuel : nat) (m : mem) (test : Z -> lres bool) (l : Z) : lres Z :=
  match fuel with
  | O => LFuel
  | S f =>
    if l =? mknull then LVal 0
    else lbind (car m l) (fun y => lbind (test y) (fun b =>
         if b then LVal l else lbind (cdr m l) (fun l' => mem_loop f m test l')))
  end.
Fixpoint ass_loop (fuel : nat) (m : mem) (test : Z -> lres bool) (l : Z) : lres Z :=
  match fuel with
  | O => LFuel
  | S f =>
    if l =? mknull then LVal 0
    else lbind (car m l) (fun p => lbind (car m p) (fun y => lbind (test y) (fun b =>
         if b then LVal p else lbind (cdr m l) (fun l' => ass_loop f m test l'))))
  end.

Definition eq_test (x y : Z) : lres bool := LVal (y =? x).
Definition flo_test (m : mem) (x y : Z) : lres bool :=
  LVal (isnative m y flonum_ntag && feq (flo (m x)) (flo (m y))).
Definition str_test (m : mem) (x y : Z) : lres bool :=
  LVal (isnative m y string_ntag && str_eq (str (m x)) (str (m y))).

(** 0.sf:2043-2047, 2055-2059: 0 is #f *)
Definition memq_ (fuel : nat) (m : mem) (x l : Z) : lres Z := mem_loop fuel m (eq_test x) l.
Definition assq_ (fuel : nat) (m : mem) (x l : Z) : lres Z := ass_loop fuel m (eq_test x) l.

(** 0.sf:1932-1944, 1947-1959 *)
Definition memv_test (m : mem) (x : Z) : Z -> lres bool :=
  if word_only x then eq_test x
  else if isnative m x flonum_ntag then flo_test m x else eq_test x.
Definition ismemv (fuel : nat) (m : mem) (x l : Z) : lres Z := mem_loop fuel m (memv_test m x) l.
Definition isassv (fuel : nat) (m : mem) (x l : Z) : lres Z := ass_loop fuel m (memv_test m x) l.

(** 0.sf:1974-1990, 1993-2009 *)
Definition member_test (fuel : nat) (m : mem) (x : Z) : Z -> lres bool :=
  if word_only x then eq_test x
  else if isnative m x flonum_ntag then flo_test m x
  else if isnative m x string_ntag then str_test m x
  else fun y => isequal fuel m y x.
Definition ismember (fuel : nat) (m : mem) (x l : Z) : lres Z := mem_loop fuel m (member_test fuel m x) l.
Definition isassoc (fuel : nat) (m : mem) (x l : Z) : lres Z := ass_loop fuel m (member_test fuel m x) l.
End Heap.
