(** /repo/6.sf:333-392 cleanup-c-code!, the peephole pass over generated C text.  The string is a
    list of character codes; [string-set!] yields the new list. *)
From Coq Require Import ZArith List Bool.
From Verif Require Import Base Model_CStr.
Import ListNotations.
Open Scope Z_scope.

(** 0.sf:930 string-set! with its index check *)
Fixpoint set_nth (s : str) (i : nat) (c : Z) : res str :=
  match s, i with
  | [], _ => UB
  | _ :: s', O => Val (c :: s')
  | a :: s', S i' => rbind (set_nth s' i' c) (fun r => Val (a :: r))
  end.
(** 0.sf:869 char-numeric? (C locale) *)
Definition char_numeric (c : Z) : bool := (48 <=? c) && (c <=? 57).

(** [(and (char=? (string-ref str (+ i k1)) c1) ...)]: the tests in turn, stopping at the first that
    fails *)
Inductive ctest := CIs (k : nat) (c : Z) | CNum (k : nat) | CSame (k k' : nat).
Fixpoint tests (s : str) (i : nat) (l : list ctest) : res bool :=
  match l with
  | [] => Val true
  | CIs k c :: l' => rbind (string_ref s (i + k)) (fun a => if a =? c then tests s i l' else Val false)
  | CNum k :: l' => rbind (string_ref s (i + k)) (fun a => if char_numeric a then tests s i l' else Val false)
  | CSame k k' :: l' => rbind (string_ref s (i + k)) (fun a => rbind (string_ref s (i + k')) (fun b =>
      if a =? b then tests s i l' else Val false))
  end.
(** the [string-set!] calls in turn; the value is a character or the present character at [i + k'] *)
Inductive cset := CPut (k : nat) (c : Z) | CCopy (k k' : nat).
Fixpoint sets (s : str) (i : nat) (l : list cset) : res str :=
  match l with
  | [] => Val s
  | CPut k c :: l' => rbind (set_nth s (i + k) c) (fun s' => sets s' i l')
  | CCopy k k' :: l' => rbind (string_ref s (i + k')) (fun a => rbind (set_nth s (i + k) a) (fun s' => sets s' i l'))
  end.

(** 6.sf:341-349, 350-356 *)
Definition tests1 : list ctest :=
  [CIs 0 61; CIs 1 32; CIs 2 40; CIs 3 114; CIs 4 91; CNum 5; CIs 6 93; CIs 7 41; CIs 8 59].
Definition sets1 : list cset :=
  [CPut 2 114; CPut 3 91; CCopy 4 5; CPut 5 93; CPut 6 59; CPut 7 32; CPut 8 32].
(** 6.sf:358-372, 373-386 *)
Definition tests2 : list ctest :=
  [CIs 0 114; CIs 1 91; CNum 2; CIs 3 93; CIs 4 32; CIs 5 61; CIs 6 32; CIs 7 40; CIs 8 114; CIs 9 91;
   CSame 10 2; CIs 11 93; CIs 12 41; CIs 13 59].
Definition sets2 : list cset :=
  [CPut 0 47; CPut 1 42; CPut 2 32; CPut 3 114; CPut 4 91; CCopy 5 10; CPut 6 93; CPut 7 32; CPut 8 42;
   CPut 9 47; CPut 10 32; CPut 11 32; CPut 12 32; CPut 13 32].

(** 6.sf:336-391 the loop; fuel is never exhausted when it is at least [len - i + 1] *)
Fixpoint cleanup_loop (fuel : nat) (s : str) (i : nat) : res str :=
  match fuel with
  | O => UB
  | S k =>
    let len := length s in
    if (len <=? i)%nat then Val s
    else
      rbind (string_ref s i) (fun c =>
        if c =? 34 then Val s
        else
          rbind (if (i + 8 <? len)%nat then tests s i tests1 else Val false) (fun b1 =>
            if b1 then rbind (sets s i sets1) (fun s' => cleanup_loop k s' (i + 9))
            else
              rbind (if (i + 13 <? len)%nat then tests s i tests2 else Val false) (fun b2 =>
                if b2 then rbind (sets s i sets2) (fun s' => cleanup_loop k s' (i + 14))
                else cleanup_loop k s (i + 1))))
  end.
Definition cleanup_c_code (s : str) : res str := cleanup_loop (S (length s)) s 0.
