(** C42: calls with variable numbers of arguments. *)
From Coq Require Import ZArith List Bool Lia.
From Verif Require Import Model_Apply Spec_Apply Proofs_Apply.
Import ListNotations.
Open Scope Z_scope.
Local Open Scope nat_scope.

(** a procedure made by lambda gets its arguments in order, those beyond the required ones as a list *)
Theorem C42_lambda : forall f p k args r rc h q h1 z n, wf_heap h -> plain h p z -> lambda_ f p h = (q, h1) ->
  accepts f (length args) -> holds r rc (q :: k :: args) -> outcome f p k args h1 (apphost (S (S n)) r rc h1) z.
Proof. exact lambda_call. Qed.
Print Assumptions C42_lambda.

(** with too few arguments the program is stopped *)
Theorem C42_too_few_arguments : forall r rc k args f p q h h1 n, wf_heap h -> lambda_ f p h = (q, h1) -> rest f = true ->
  length args < req f -> holds r rc (q :: k :: args) -> apphost (S n) r rc h1 = AAbort.
Proof. exact too_few. Qed.
Print Assumptions C42_too_few_arguments.

(** case-lambda calls the first clause that accepts the number of arguments, with its parameters bound *)
Theorem C42_case_lambda : forall cs fail h q h1 k args r rc f p z n, wf_heap h -> case_lambda cs fail h = (q, h1) ->
  plain h p z -> (Z.of_nat (length args) <= FIXNUM_MAX)%Z -> chosen (length args) cs f p ->
  holds r rc (q :: k :: args) -> outcome f p k args h1 (apphost (S (S (S n))) r rc h1) z.
Proof. exact case_lambda_call. Qed.
Print Assumptions C42_case_lambda.

(** and the failure procedure, with all arguments, if no clause does *)
Theorem C42_case_lambda_fails : forall cs fail h q h1 k args r rc n, wf_heap h -> case_lambda cs fail h = (q, h1) ->
  (Z.of_nat (length args) <= FIXNUM_MAX)%Z -> (forall f p, ~ chosen (length args) cs f p) ->
  holds r rc (q :: k :: args) ->
  exists r', holds r' rc (fail :: k :: args) /\ apphost (S n) r rc h1 = apphost n r' rc h1.
Proof. exact case_lambda_fails. Qed.
Print Assumptions C42_case_lambda_fails.

(** (apply f x ... l) calls f with the x ... followed by the items of l *)
Theorem C42_apply : forall r rc p k f mid l es h n, is_apply h p -> holds r rc (p :: k :: f :: mid ++ [l]) -> list_of h l es ->
  length mid + length es + 2 <= APPLY_MAX_REGS ->
  exists r' rc', holds r' rc' (f :: k :: mid ++ es) /\ apphost (S n) r rc h = apphost n r' rc' h.
Proof. exact apply_ok. Qed.
Print Assumptions C42_apply.

(** apply of a case-lambda, from call to clause *)
Theorem C42_apply_case_lambda : forall cs fail h ap q h1 k mid l es r rc f p z n, wf_heap h -> case_lambda cs fail h = (q, h1) ->
  is_apply h1 ap -> plain h p z -> chosen (length (mid ++ es)) cs f p -> list_of h1 l es ->
  length mid + length es + 2 <= APPLY_MAX_REGS -> holds r rc (ap :: k :: q :: mid ++ [l]) ->
  outcome f p k (mid ++ es) h1 (apphost (S (S (S (S n)))) r rc h1) z.
Proof. exact apply_then_case. Qed.
Print Assumptions C42_apply_case_lambda.

(** the argument-count dispatcher takes the slot of the argument count, or the last one *)
Theorem C42_argc_dispatch : forall h a pv b v k args r rc f n, blk h a = Some (make_argc_dispatch pv) -> pv = OPtr b ->
  blk h b = Some (BVec v) -> nth_error v (Nat.min (length args) (length v - 1)) = Some f ->
  holds r rc (OPtr a :: k :: args) ->
  exists r', holds r' rc (f :: k :: args) /\ apphost (S n) r rc h = apphost n r' rc h.
Proof. exact argc_call. Qed.
Print Assumptions C42_argc_dispatch.

(** a void continuation passes one value, whatever it is given *)
Theorem C42_void_continuation : forall h a c k args r rc n, blk h a = Some (make_void_continuation c) ->
  holds r rc (OPtr a :: k :: args) ->
  exists r', holds r' 3 [c; k; OVoid] /\ apphost (S n) r rc h = apphost n r' 3 h.
Proof. exact void_call. Qed.
Print Assumptions C42_void_continuation.

(** "for every argument count" fails: apply checks its limit only after it has stored the arguments, so a longer list
    overruns the register buffer unless the buffer happens to be larger *)
Theorem C42_apply_overruns : forall r rc p k f mid l es h n, is_apply h p -> holds r rc (p :: k :: f :: mid ++ [l]) ->
  list_of h l es -> Nat.max (length r) APPLY_MAX_REGS < length mid + length es + 2 -> apphost (S n) r rc h = AUndef.
Proof.
  intros r rc p k f mid l es h n (a & s & -> & B) H L M.
  rewrite (apphost_step _ _ _ _ _ _ _ _ H B), (apply_over _ _ _ _ _ _ _ _ h H L M). reflexivity.
Qed.
Print Assumptions C42_apply_overruns.

(** a list of n zeros at the addresses from 2 on *)
Definition zeros (n : nat) : heap :=
  mkheap (fun a => if Nat.eqb a 0 then Some (BProc (CApp 0) []) else if Nat.eqb a 1 then Some (BProc (CExt 7) [])
                   else if Nat.ltb a (2 + n) then Some (BPair (OFix 0) (if Nat.eqb a (1 + n) then ONull else OPtr (S a))) else None) (2 + n).
Theorem C42_apply_any_list_refuted : exists h r rc,
  is_apply h (OPtr 0) /\ plain h (OPtr 1) 7 /\ holds r rc [OPtr 0; OAtom 1; OPtr 1; OPtr 2] /\
  (exists es, list_of h (OPtr 2) es) /\ apphost 2 r rc h = AUndef.
Proof.
  exists (zeros 1100), ([OPtr 0; OAtom 1; OPtr 1; OPtr 2] ++ repeat (OAtom 0) 60), 4.
  split; [exists 0, []; split; reflexivity|]. split; [exists 1, []; split; reflexivity|].
  split; [now exists (repeat (OAtom 0) 60)|]. split; [|vm_compute; reflexivity].
  exists (repeat (OFix 0) 1100).
  assert (G : forall n m, n + m = 1102 -> 2 <= m -> list_of (zeros 1100) (if Nat.eqb n 0 then ONull else OPtr m) (repeat (OFix 0) n)).
  { induction n as [|n IH]; intros m E M; [apply lo_nil|]. cbn [Nat.eqb repeat].
    apply lo_cons with (y := if Nat.eqb n 0 then ONull else OPtr (S m)); [|apply IH; lia].
    cbn [zeros blk]. destruct (Nat.eqb_spec m 0); [lia|]. destruct (Nat.eqb_spec m 1); [lia|].
    destruct (Nat.ltb_spec m (2 + 1100)); [|lia]. destruct (Nat.eqb_spec m (1 + 1100)), (Nat.eqb_spec n 0); try lia; reflexivity. }
  exact (G 1100 2 eq_refl (le_n 2)).
Qed.
Print Assumptions C42_apply_any_list_refuted.

(** a case-lambda with a clause for one argument and one for two or more, called with four through apply *)
Definition start_heap : heap :=
  mkheap (fun a => nth a [Some (BProc (CApp 0) []); Some (BProc (CExt 7) []); Some (BProc (CExt 8) []); Some (BProc (CExt 9) []);
                          Some (BPair (OFix 13) (OPtr 5)); Some (BPair (OFix 14) ONull)] None) 6.
Definition clauses : list (formals * obj) := [(mkformals 1 false, OPtr 1); (mkformals 2 true, OPtr 2)].
Example C42_case :
  let '(q, h1) := case_lambda clauses (OPtr 3) start_heap in
  let r := [OPtr 0; OAtom 1; q; OFix 11; OFix 12; OPtr 4; OAtom 0; OAtom 0] in
  wf_heap start_heap /\ plain start_heap (OPtr 2) 8 /\ is_apply h1 (OPtr 0) /\ list_of h1 (OPtr 4) [OFix 13; OFix 14] /\
  chosen 4 clauses (mkformals 2 true) (OPtr 2) /\ holds r 6 [OPtr 0; OAtom 1; q; OFix 11; OFix 12; OPtr 4] /\
  exists r' h' a b, apphost 4 r 6 h1 = AOk (CExt 8, r', 5, h') /\
    firstn 5 r' = [OPtr 2; OAtom 1; OFix 11; OFix 12; OPtr a] /\
    blk h' a = Some (BPair (OFix 13) (OPtr b)) /\ blk h' b = Some (BPair (OFix 14) ONull).
Proof.
  cbn [case_lambda unroll_cases lambda_ clauses rest alloc].
  split. { intros a H. cbn in *. do 6 (destruct a as [|a]; [lia|]). now destruct a. }
  split. { exists 2, []. auto. }
  split. { exists 0, []. auto. }
  split. { apply lo_cons with (y := OPtr 5); [reflexivity|]. apply lo_cons with (y := ONull); [reflexivity|apply lo_nil]. }
  split. { apply ch_later; [intros H; discriminate H|]. apply ch_here. unfold accepts. cbn. lia. }
  split. { now exists [OAtom 0; OAtom 0]. }
  eexists _, _, 9, 8. split; [vm_compute; reflexivity|]. repeat split.
Qed.
