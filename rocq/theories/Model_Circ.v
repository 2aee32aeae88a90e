(** equal? of the large library on possibly circular data.
    Source: /repo lib/libl.sf 3316-3433 (stabnew, stabshared, stabufind, stabequal, boundequal) and 3502-3510 (isequal).

    Objects are words.  [heap_obj o] is the C test that [o] is nonzero, even and inside the heap; [at_ o] is the object
    found there: its header and contents.  Field lists include word 0 (the tag, or the code pointer of a procedure).
    Flonums are numbers up to the comparison ==, so the two zeros are one number; [None] is a NaN.  calloc always
    succeeds and the C stack is unlimited. *)
From Coq Require Import ZArith List Bool.
Import ListNotations.
Open Scope Z_scope.

Inductive node :=
| NFlo (x : option Z)          (** header FLONUM_NTAG *)
| NStr (s : list Z)            (** header STRING_NTAG: the bytes of the buffer, ending in 0 *)
| NBytes (s : list Z)          (** header BYTEVECTOR_NTAG *)
| NNative (tag : Z)            (** another native type: even header *)
| NBlk (fields : list Z).      (** a block of [length fields] words: odd header *)
Record world := mkworld { heap_obj : Z -> bool; at_ : Z -> node }.

(** == on doubles *)
Definition feq (x y : option Z) : bool := match x, y with Some a, Some b => a =? b | _, _ => false end.
(** strcmp(a, b) == 0 *)
Fixpoint same_chars (a b : list Z) : bool :=
  match a, b with
  | x :: a', y :: b' => (x =? y) && ((x =? 0) || same_chars a' b')
  | _, _ => true
  end.
(** memcmp of equally long buffers, bytevectoreq lib/libl.sf 1880-1883 *)
Fixpoint same_bytes (a b : list Z) : bool :=
  match a, b with
  | [], [] => true
  | x :: a', y :: b' => (x =? y) && same_bytes a' b'
  | _, _ => false
  end.

(** the comparisons before the parts are compared: lib/libl.sf 3405-3411 and 3418-3424 *)
Inductive verdict := VYes | VNo | VParts (xs ys : list Z).
Definition compare (w : world) (x y : Z) : verdict :=
  if x =? y then VYes
  else if negb (heap_obj w x) || negb (heap_obj w y) then VNo
  else match at_ w x, at_ w y with
       | NFlo a, NFlo b => if feq a b then VYes else VNo
       | NStr a, NStr b => if same_chars a b then VYes else VNo
       | NBytes a, NBytes b => if same_bytes a b then VYes else VNo
       | NBlk (a0 :: a), NBlk (b0 :: b) =>
         if Nat.eqb (length a) (length b) then if a0 =? b0 then VParts a b else VNo else VNo
       | _, _ => VNo
       end.

(** ** boundequal: lib/libl.sf 3417-3430.  [fuel] is the C variable; the first argument bounds the recursion; [None]:
    the assertion fails or the recursion bound is reached. *)
Fixpoint boundequal (w : world) (d : nat) (x y : Z) (fuel : Z) : option Z :=
  match d with
  | O => None
  | S d' =>
    if negb (fuel >? 0) then None
    else match compare w x y with
         | VYes => Some (fuel - 1)
         | VNo => Some (-1)
         | VParts a b =>
           let fuel := fuel - 1 in
           if fuel =? 0 then Some 0
           else (fix parts (a b : list Z) (fuel : Z) : option Z :=
                   match a, b with
                   | [x], [y] => boundequal w d' x y fuel            (* goto loop *)
                   | x :: a', y :: b' =>
                     match boundequal w d' x y fuel with
                     | None => None
                     | Some f => if f <=? 0 then Some f else parts a' b' f
                     end
                   | _, _ => Some fuel
                   end) a b fuel
         end
  end.

(** ** The hash table: lib/libl.sf 3319-3351.  [v] has [sz] slots; [u] are used. *)
Record stab := mkstab { tv : Z -> Z; tsz : Z; tu : Z; tmaxu : Z }.
Definition put (v : Z -> Z) (i x : Z) : Z -> Z := fun j => if j =? i then x else v j.
(** staballoc, lib/libl.sf 3319-3323 *)
Definition staballoc : stab := mkstab (fun _ => 0) 64 0 32.
(** the probing loop: for (i = h & (sz-1); v[i]; i = (i-1) & (sz-1)) if ((v[i] & ~1) == o) found *)
Inductive probed := PFound (i : Z) | PEmpty (i : Z) | PLoop.
Fixpoint probe (n : nat) (v : Z -> Z) (sz o i : Z) : probed :=
  match n with
  | O => PLoop
  | S n' =>
    if v i =? 0 then PEmpty i
    else if Z.land (v i) (-2) =? o then PFound i
    else probe n' v sz o (Z.land (i - 1) (sz - 1))
  end.
Definition probes (sz : Z) : nat := S (Z.to_nat sz).
(** the loop that looks for an empty slot only: for (j = h & (nsz-1); nv[j]; j = (j-1) & (nsz-1)) *)
Fixpoint vacant (n : nat) (v : Z -> Z) (sz i : Z) : option Z :=
  match n with
  | O => None
  | S n' => if v i =? 0 then Some i else vacant n' v sz (Z.land (i - 1) (sz - 1))
  end.
(** lib/libl.sf 3336-3339: copying the old slots from [i] on *)
Fixpoint rehash (n : nat) (i : Z) (v : Z -> Z) (nv : Z -> Z) (nsz : Z) : option (Z -> Z) :=
  match n with
  | O => Some nv
  | S n' =>
    if Z.land (v i) (-2) =? 0 then rehash n' (i + 1) v nv nsz
    else match vacant (probes nsz) nv nsz (Z.land (Z.land (v i) (-2)) (nsz - 1)) with
         | None => None
         | Some j => rehash n' (i + 1) v (put nv j (v i)) nsz
         end
  end.
(** stabnew with circ = 0, lib/libl.sf 3328-3345; [None]: a probing loop does not end *)
Definition stabnew (w : world) (o : Z) (p : stab) : option (bool * stab) :=
  if negb (heap_obj w o) then Some (false, p)
  else
    let sz := tsz p in
    match probe (probes sz) (tv p) sz o (Z.land o (sz - 1)) with
    | PLoop => None
    | PFound i => Some (false, mkstab (put (tv p) i (Z.lor (tv p i) 1)) sz (tu p) (tmaxu p))
    | PEmpty i =>
      if tu p =? tmaxu p then
        let nsz := sz * 2 in
        match rehash (Z.to_nat sz) 0 (tv p) (fun _ => 0) nsz with
        | None => None
        | Some nv =>
          match vacant (probes nsz) nv nsz (Z.land o (nsz - 1)) with
          | None => None
          | Some i' => Some (true, mkstab (put nv i' o) nsz (tu p + 1) (nsz / 2))
          end
        end
      else Some (true, mkstab (put (tv p) i o) sz (tu p + 1) (tmaxu p))
    end.

(** the words of an object that are looked at: lib/libl.sf 3380-3386 *)
Definition words (n : node) : list Z := match n with NBlk l => l | _ => [] end.
(** stabshared, lib/libl.sf 3378-3387; the last field is handled by a jump, here by the same loop.  [None]: recursion
    bound reached. *)
Fixpoint stabshared (w : world) (d : nat) (o : Z) (p : stab) : option stab :=
  match d with
  | O => None
  | S d' =>
    match stabnew w o p with
    | None => None
    | Some (false, p') => Some p'
    | Some (true, p') =>
      (fix each (l : list Z) (p : stab) : option stab :=
         match l with
         | [] => Some p
         | f :: l' => match stabshared w d' f p with None => None | Some p' => each l' p' end
         end) (words (at_ w o)) p'
    end
  end.

(** ** Classes of objects assumed equal: lib/libl.sf 3397-3404.  [r[i] < 0]: slot [i] stands for a class of [-r[i]]
    objects; otherwise [r[i]] is another slot of the class. *)
Fixpoint root (n : nat) (r : Z -> Z) (i : Z) : option Z :=
  match n with
  | O => None
  | S n' => if r i <? 0 then Some i else root n' r (r i)
  end.
(** the slot of an object; 0 if it has none *)
Definition slot_of (p : stab) (x : Z) : option Z :=
  match probe (probes (tsz p)) (tv p) (tsz p) x (Z.land x (tsz p - 1)) with
  | PFound i => Some i
  | PEmpty _ => Some 0
  | PLoop => None
  end.
(** find the class of slot [ix], shortening the way there *)
Definition find_class (sz : Z) (r : Z -> Z) (ix : Z) : option (Z * (Z -> Z)) :=
  match root (probes sz) r ix with
  | None => None
  | Some i => if i =? ix then Some (ix, r) else Some (i, put r ix i)
  end.
Definition stabufind (p : stab) (x y : Z) (r : Z -> Z) : option (bool * (Z -> Z)) :=
  match slot_of p x with
  | None => None
  | Some ix =>
    match find_class (tsz p) r ix with
    | None => None
    | Some (ix, r) =>
      match slot_of p y with
      | None => None
      | Some iy =>
        match find_class (tsz p) r iy with
        | None => None
        | Some (iy, r) =>
          if ix =? iy then Some (true, r)
          else if r ix <? r iy then Some (false, put (put r ix (r ix + r iy)) iy ix)
          else Some (false, put (put r iy (r iy + r ix)) ix iy)
        end
      end
    end
  end.

(** stabequal, lib/libl.sf 3405-3416 *)
Fixpoint stabequal (w : world) (p : stab) (d : nat) (x y : Z) (r : Z -> Z) : option (bool * (Z -> Z)) :=
  match d with
  | O => None
  | S d' =>
    match compare w x y with
    | VYes => Some (true, r)
    | VNo => Some (false, r)
    | VParts a b =>
      match stabufind p x y r with
      | None => None
      | Some (true, r) => Some (true, r)
      | Some (false, r) =>
        (fix parts (a b : list Z) (r : Z -> Z) : option (bool * (Z -> Z)) :=
           match a, b with
           | x :: a', y :: b' =>
             match stabequal w p d' x y r with
             | None => None
             | Some (false, r) => Some (false, r)
             | Some (true, r) => parts a' b' r
             end
           | _, _ => Some (true, r)
           end) a b r
      end
    end
  end.

(** isequal, lib/libl.sf 3503-3510.  [d] bounds the recursion of the two traversals. *)
Definition isequal (w : world) (d : nat) (x y : Z) : option bool :=
  match boundequal w 501 x y 500 with
  | None => None
  | Some res =>
    if negb (res =? 0) then Some (res >? 0)
    else
      match stabshared w d x staballoc with
      | None => None
      | Some p =>
        match stabshared w d y p with
        | None => None
        | Some p =>
          let r := fun i => if Z.land (tv p i) (-2) =? 0 then 0 else -1 in
          match stabequal w p d x y r with
          | None => None
          | Some (res, _) => Some res
          end
        end
      end
  end.
