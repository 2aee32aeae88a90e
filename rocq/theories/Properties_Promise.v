(** C36: promises. *)
From Coq Require Import ZArith List Bool.
From Verif Require Import Model_Promise Spec_Promise Proofs_Promise.
Import ListNotations.
Open Scope Z_scope.

(** Every history of forcing and returning, in any order and nesting: each [force] of a promise
    whose procedure has returned before yields the value it returned first, and does not call the
    procedure again; a procedure that returns later, having been started earlier, has its value
    dropped. *)
Theorem C36_first_value : forall l i e, nth_error l i = Some e ->
  nth_error (snd (run fresh l)) i = Some (expected (firstn i l) e).
Proof. exact promise_ok. Qed.
Print Assumptions C36_first_value.
(** the procedure of 1 forces 1 again twice; the inner calls return 7 and 8, the outer one 9 *)
Example C36_first_value_ex :
  snd (run fresh [Force 1; Force 1; Force 2; Return 1 7; Force 1; Return 1 8; Return 2 5; Return 1 9; Force 1; Force 2]) =
  [Run 1; Run 1; Run 2; Value 1 7; Value 1 7; Value 1 7; Value 2 5; Value 1 7; Value 1 7; Value 2 5].
Proof. vm_compute. reflexivity. Qed.

(** The r7rs promises of libl (chains by delay-force, shared pairs): once [force] of a promise has
    returned a value, it always returns this value and calls no procedure. *)
Theorem C36_r7rs_once : forall l i j p v o,
  nth_error (snd (lrun empty l)) i = Some (LValue p v) -> nth_error (snd (lrun empty l)) j = Some o ->
  (i < j)%nat -> concerns o p -> o = LValue p v.
Proof. exact lpromise_once. Qed.
Print Assumptions C36_r7rs_once.
(** promise 0 = (delay-force s), s = 1; procedure 11 of s makes promises 2 and 3; it is entered
    twice *)
Example C36_r7rs_once_ex :
  snd (lrun empty [LDelay 10; LDelay 11; LForce 0; LReturn 0 1; LForce 1; LMake 7; LReturn 1 2; LMake 8; LReturn 0 3; LForce 0; LForce 1; LForce 3]) =
  [LNew 0; LNew 1; LRun 0 10; LRun 0 11; LRun 1 11; LNew 2; LValue 1 7; LNew 3; LValue 0 7; LValue 0 7; LValue 1 7; LValue 3 8].
Proof. vm_compute. reflexivity. Qed.

(** Two promises chained to the same third one are not kept equal to it: 0 and 1 are both
    (delay-force s) with s = 2; the procedure of s, run for 0, forces 1 before it returns.  Then 0 ends
    with another value than s. *)
Theorem C36_chained_refuted : exists l v w,
  nth_error l 4 = Some (LReturn 0 2) /\ nth_error l 6 = Some (LReturn 1 2) /\
  let os := snd (lrun empty (l ++ [LForce 0; LForce 1; LForce 2])) in
  skipn (length l) os = [LValue 0 v; LValue 1 w; LValue 2 w] /\ v <> w.
Proof.
  exists [LDelay 10; LDelay 10; LDelay 11; LForce 0; LReturn 0 2; LForce 1; LReturn 1 2; LMake 7; LReturn 1 3; LMake 8; LReturn 0 4], 8, 7.
  split; [reflexivity|]. split; [reflexivity|]. split; [vm_compute; reflexivity|discriminate].
Qed.
Print Assumptions C36_chained_refuted.
