(** String functions of the C generator, /repo/6.sf:18-113.  Strings are lists of character
    codes; [UB] is a [string-ref] or [substring] outside the string. *)
From Coq Require Import ZArith List Bool.
From Verif Require Import Base.
Import ListNotations.
Open Scope Z_scope.

Notation str := (list Z).
(** 0.sf:925 string-ref with its index check *)
Definition string_ref (s : str) (i : nat) : res Z :=
  match nth_error s i with Some c => Val c | None => UB end.
(** 0.sf:948 substring *)
Definition substring (s : str) (b e : nat) : res str :=
  if (b <=? e)%nat && (e <=? length s)%nat then Val (firstn (e - b) (skipn b s)) else UB.

(** 6.sf:22-25, 38-41: [loop i]; [n] = ssl - i; stops with #t when [i >= ssl] *)
Fixpoint cmp_loop (s p : str) (pos i n : nat) : res bool :=
  match n with
  | O => Val true
  | S n' => rbind (string_ref s (pos + i)) (fun a => rbind (string_ref p i) (fun b =>
              if a =? b then cmp_loop s p pos (S i) n' else Val false))
  end.
(** 6.sf:18-25 *)
Definition string_starts_with (s p : str) : res bool :=
  if (length p <=? length s)%nat then cmp_loop s p 0 0 (length p) else Val false.
(** 6.sf:27-34 *)
Fixpoint end_loop (s p : str) (i n : nat) : res bool :=
  match n with
  | O => Val true
  | S n' => rbind (string_ref s (length s - i - 1)) (fun a => rbind (string_ref p (length p - i - 1)) (fun b =>
              if a =? b then end_loop s p (S i) n' else Val false))
  end.
Definition string_ends_with (s p : str) : res bool :=
  if (length p <=? length s)%nat then end_loop s p 0 (length p) else Val false.
(** 6.sf:36-42; [(<= ssl (- sl pos))] over the integers *)
Definition string_contains_at (s : str) (pos : nat) (p : str) : res bool :=
  if (length p + pos <=? length s)%nat then cmp_loop s p pos 0 (length p) else Val false.

(** 6.sf:44-51, 53-60, 62-69: the search loops; [n] counts the positions left, so that at 0
    [pos] is past the end and the test [(<= ssl (- sl pos))] fails *)
Fixpoint find_loop (s p : str) (pos n : nat) : res (option nat) :=
  if (length p + pos <=? length s)%nat then
    match n with
    | O => Val None
    | S n' => rbind (string_contains_at s pos p) (fun b => if b then Val (Some pos) else find_loop s p (S pos) n')
    end
  else Val None.
Definition find_first (s p : str) : res (option nat) :=
  if (length p <=? length s)%nat then find_loop s p 0 (S (length s)) else Val None.
Definition string_contains (s p : str) : res bool :=
  rbind (find_first s p) (fun o => Val (match o with Some _ => true | None => false end)).
Definition substring_before (s p : str) : res (option str) :=
  rbind (find_first s p) (fun o => match o with
    | Some pos => rbind (substring s 0 pos) (fun r => Val (Some r)) | None => Val None end).
Definition substring_after (s p : str) : res (option str) :=
  rbind (find_first s p) (fun o => match o with
    | Some pos => rbind (substring s (pos + length p) (length s)) (fun r => Val (Some r)) | None => Val None end).
(** 6.sf:71-79 *)
Definition substring_before_suffix (s p : str) : res (option str) :=
  rbind (string_ends_with s p) (fun b =>
    if b then rbind (substring s 0 (length s - length p)) (fun r => Val (Some r)) else Val None).
Definition substring_after_prefix (s p : str) : res (option str) :=
  rbind (string_starts_with s p) (fun b =>
    if b then rbind (substring s (length p) (length s)) (fun r => Val (Some r)) else Val None).

(** 6.sf:81-85 *)
Fixpoint member_loop (c : Z) (s : str) (pos n : nat) : res bool :=
  match n with
  | O => Val false
  | S n' => rbind (string_ref s pos) (fun d => if c =? d then Val true else member_loop c s (S pos) n')
  end.
Definition string_member (c : Z) (s : str) : res bool := member_loop c s 0 (length s).
(** 6.sf:93-98 *)
Fixpoint span_loop (s cs : str) (pos n : nat) : res nat :=
  match n with
  | O => Val pos
  | S n' => rbind (string_ref s pos) (fun c => rbind (string_member c cs) (fun b =>
              if b then span_loop s cs (S pos) n' else Val pos))
  end.
Definition string_span (s cs : str) : res nat := span_loop s cs 0 (length s).
(** 6.sf:107-111 *)
Definition substring_after_span (s cs : str) : res str :=
  rbind (string_span s cs) (fun n => if (n =? 0)%nat then Val s else substring s n (length s)).
