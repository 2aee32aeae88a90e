(** Strings, /repo/0.sf:896-1060 and the list conversions 0.sf:1584-1600, checked build (assert
    enabled).  A string's native block is an [int] length followed by the bytes obtained from malloc;
    a byte that was never written is [None].  malloc is assumed to succeed (cxm_cknull stops the
    program otherwise). *)
From Coq Require Import ZArith List Bool.
From Verif Require Import Base.
Import ListNotations.
Open Scope Z_scope.

(** [SStop]: an assertion fails; [SUB]: undefined behaviour (access outside the block, reading an
    unwritten byte, int overflow, tolower of a negative number other than EOF) *)
Inductive sres (A : Type) := SVal (a : A) | SStop | SUB.
Arguments SVal {A} a. Arguments SStop {A}. Arguments SUB {A}.
Definition sbind {A B} (x : sres A) (f : A -> sres B) : sres B :=
  match x with SVal a => f a | SStop => SStop | SUB => SUB end.
Definition assert_ (b : bool) {A} (k : sres A) : sres A := if b then k else SStop.
(** int arithmetic *)
Definition ckint (z : Z) : sres Z := if (INT_MIN <=? z) && (z <=? INT_MAX) then SVal z else SUB.

Definition bytes := list (option Z).
Record block := mkblk { b_len : Z; b_bytes : bytes }.
(** malloc(sizeof(int)+n+1): [n+1] bytes after the length; a negative size is a huge request *)
Definition malloc (n : Z) : sres bytes := if n <? -1 then SUB else SVal (repeat None (Z.to_nat (n + 1))).
Definition getb (s : bytes) (i : Z) : sres Z :=
  if i <? 0 then SUB else match nth_error s (Z.to_nat i) with Some (Some c) => SVal c | _ => SUB end.
Fixpoint put (s : bytes) (i : nat) (c : option Z) : sres bytes :=
  match s, i with
  | [], _ => SUB
  | _ :: s', O => SVal (c :: s')
  | a :: s', S i' => sbind (put s' i' c) (fun r => SVal (a :: r))
  end.
(** storing an int into a char *)
Definition byte (c : Z) : Z := c mod 256.
Definition setb (s : bytes) (i c : Z) : sres bytes := if i <? 0 then SUB else put s (Z.to_nat i) (Some (byte c)).

(** memset, memcpy from [src + from] to [dst + to]; strlen; strcpy of a literal *)
Fixpoint memset (s : bytes) (i : Z) (c : Z) (n : nat) : sres bytes :=
  match n with O => SVal s | S n' => sbind (setb s i c) (fun s' => memset s' (i + 1) c n') end.
Fixpoint memcpy (dst : bytes) (to : Z) (src : bytes) (from : Z) (n : nat) : sres bytes :=
  match n with
  | O => SVal dst
  | S n' =>
    if (from <? 0) || (to <? 0) then SUB
    else match nth_error src (Z.to_nat from) with
         | None => SUB
         | Some c => sbind (put dst (Z.to_nat to) c) (fun d => memcpy d (to + 1) src (from + 1) n')
         end
  end.
Fixpoint strlen (s : bytes) : sres Z :=
  match s with
  | Some c :: s' => if c =? 0 then SVal 0 else sbind (strlen s') (fun n => SVal (n + 1))
  | _ => SUB
  end.

(** 0.sf:917-922 newstring; strcpy copies up to and including the NUL *)
Definition newstring (s : bytes) : sres block :=
  sbind (strlen s) (fun l =>
  sbind (malloc l) (fun d =>
  sbind (memcpy d 0 s 0 (Z.to_nat (l + 1))) (fun d' => SVal (mkblk l d')))).
(** 0.sf:925-930 *)
Definition allocstring (n c : Z) : sres block :=
  sbind (ckint (n + 1)) (fun n1 => assert_ (0 <? n1) (
  sbind (malloc n) (fun d =>
  sbind (memset d 0 c (Z.to_nat n)) (fun d1 =>
  sbind (setb d1 n 0) (fun d2 => SVal (mkblk n d2)))))).
(** 0.sf:933-940 *)
Definition substring (b : block) (from to : Z) : sres block :=
  sbind (ckint (to - from)) (fun n =>
  assert_ ((0 <=? from) && (from <=? to) && (to <=? b_len b)) (
  sbind (malloc n) (fun d =>
  sbind (memcpy d 0 (b_bytes b) from (Z.to_nat n)) (fun d1 =>
  sbind (setb d1 n 0) (fun d2 => SVal (mkblk n d2)))))).
(** 0.sf:943-949 *)
Definition stringcat (b0 b1 : block) : sres block :=
  let l0 := b_len b0 in let l1 := b_len b1 in
  sbind (ckint (l0 + l1)) (fun n =>
  sbind (malloc n) (fun d =>
  sbind (memcpy d 0 (b_bytes b0) 0 (Z.to_nat l0)) (fun d1 =>
  sbind (memcpy d1 l0 (b_bytes b1) 0 (Z.to_nat l1)) (fun d2 =>
  sbind (setb d2 n 0) (fun d3 => SVal (mkblk n d3)))))).
(** 0.sf:952-956: the length and the bytes are copied together *)
Definition dupstring (b : block) : sres block :=
  let n := b_len b in
  sbind (malloc n) (fun d => sbind (memcpy d 0 (b_bytes b) 0 (Z.to_nat (n + 1))) (fun d1 => SVal (mkblk n d1))).
(** 0.sf:959-962 *)
Definition stringfill (b : block) (c : Z) : sres block :=
  sbind (memset (b_bytes b) 0 c (Z.to_nat (b_len b))) (fun d => SVal (mkblk (b_len b) d)).
(** 0.sf:905-909 stringref, and string-ref (1002) and string-set! (1005) on it *)
Definition string_ref (b : block) (i : Z) : sres Z := assert_ ((0 <=? i) && (i <? b_len b)) (getb (b_bytes b) i).
Definition string_set (b : block) (i c : Z) : sres block :=
  assert_ ((0 <=? i) && (i <? b_len b)) (sbind (setb (b_bytes b) i c) (fun d => SVal (mkblk (b_len b) d))).
(** 0.sf:991-996: [*s++ = c] for each argument *)
Fixpoint fill_list (d : bytes) (i : Z) (l : list Z) : sres bytes :=
  match l with [] => SVal d | c :: l' => sbind (setb d i c) (fun d' => fill_list d' (i + 1) l') end.
Definition string_ (l : list Z) : sres block :=
  sbind (allocstring (Z.of_nat (length l)) 32) (fun b => sbind (fill_list (b_bytes b) 0 l) (fun d => SVal (mkblk (b_len b) d))).
(** 0.sf:1584-1591: [c] is the length of the list *)
Definition list_to_string (l : list Z) : sres block := string_ l.
(** 0.sf:1593-1600: from the last character to the first *)
Fixpoint to_list (d : bytes) (c : nat) (l : list Z) : sres (list Z) :=
  match c with O => SVal l | S c' => sbind (getb d (Z.of_nat c')) (fun x => to_list d c' (x :: l)) end.
Definition string_to_list (b : block) : sres (list Z) := to_list (b_bytes b) (Z.to_nat (b_len b)) [].

(** ** string objects: numbered blocks; 0.sf:1042-1060 *)
Definition strings := list block.
Definition getobj (m : strings) (o : nat) : sres block := match nth_error m o with Some b => SVal b | None => SUB end.
Definition newobj (m : strings) (b : sres block) : sres (strings * nat) := sbind b (fun b => SVal (m ++ [b], length m)).
(** 0.sf:1048-1051 string-append/2, and the n-ary macro 1053-1058: of one string it is that string *)
Definition string_append2 (m : strings) (o1 o2 : nat) : sres (strings * nat) :=
  sbind (getobj m o1) (fun b1 => sbind (getobj m o2) (fun b2 => newobj m (stringcat b1 b2))).
Fixpoint string_append (m : strings) (os : list nat) : sres (strings * nat) :=
  match os with
  | [] => newobj m (newstring [Some 0])
  | [x] => SVal (m, x)
  | x :: os' => sbind (string_append m os') (fun r => string_append2 (fst r) x (snd r))
  end.

(** ** comparison *)
(** strcmp by the C standard: as unsigned characters, up to the first difference or NUL *)
Fixpoint strcmp (s t : bytes) : sres Z :=
  match s, t with
  | Some a :: s', Some b :: t' => if a =? b then if a =? 0 then SVal 0 else strcmp s' t' else SVal (a - b)
  | _, _ => SUB
  end.
(** plain char is signed *)
Definition schar (c : Z) : Z := if c <? 128 then c else c - 256.
(** tolower in the C locale; EOF (-1) is kept; other negative arguments are undefined *)
Definition tolower (c : Z) : sres Z :=
  if c <? -1 then SUB else SVal (if (65 <=? c) && (c <=? 90) then c + 32 else c).
(** int from unsigned: modulo 2^32 *)
Definition int_of_unsigned (z : Z) : Z := wrap32 z.
(** 0.sf:965-970 *)
Fixpoint strcmp_ci (s t : bytes) : sres Z :=
  match s, t with
  | Some a :: s', Some b :: t' =>
    let c1 := schar a in let c2 := schar b in
    sbind (tolower c1) (fun l1 => sbind (tolower c2) (fun l2 =>
      let d := int_of_unsigned (l1 mod 2 ^ 32 - l2 mod 2 ^ 32) in
      if (d =? 0) && negb (c1 =? 0) && negb (c2 =? 0) then strcmp_ci s' t' else SVal d))
  | _, _ => SUB
  end.
(** 0.sf:1008-1036 *)
Definition cmp (f : bytes -> bytes -> sres Z) (test : Z -> bool) (x y : block) : sres bool :=
  sbind (f (b_bytes x) (b_bytes y)) (fun d => SVal (test d)).
Definition string_eq := cmp strcmp (fun d => d =? 0).
Definition string_lt := cmp strcmp (fun d => d <? 0).
Definition string_gt := cmp strcmp (fun d => 0 <? d).
Definition string_le := cmp strcmp (fun d => d <=? 0).
Definition string_ge := cmp strcmp (fun d => 0 <=? d).
Definition string_ci_eq := cmp strcmp_ci (fun d => d =? 0).
Definition string_ci_lt := cmp strcmp_ci (fun d => d <? 0).
Definition string_ci_gt := cmp strcmp_ci (fun d => 0 <? d).
Definition string_ci_le := cmp strcmp_ci (fun d => d <=? 0).
Definition string_ci_ge := cmp strcmp_ci (fun d => 0 <=? d).
