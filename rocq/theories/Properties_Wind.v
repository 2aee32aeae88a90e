(** C41: dynamic-wind. *)
From Coq Require Import ZArith List Bool Lia.
From Verif Require Import Model_Wind Spec_Wind Proofs_Wind.
Import ListNotations.
Open Scope Z_scope.

(** every sensible sequence of calls to dynamic-wind, returns, captures and throws runs to its end, and each step calls
    exactly the thunks that the tree of extents demands *)
Theorem C41_extents_are_respected : forall run os, balanced run -> sensible 0 [] os ->
  exists ls p' a', do_ops run start_prog os = Some (ls, p') /\ a_ops a_start os ls a'.
Proof. intros run os B. exact (run_ops run B os). Qed.
Print Assumptions C41_extents_are_respected.

(** the tree of extents leaves no choice *)
Theorem C41_calls_are_determined : forall os ls ls' q q', a_ops a_start os ls q -> a_ops a_start os ls' q' -> ls = ls' /\ q = q'.
Proof. intros os ls ls' q q' A B. exact (a_ops_functional _ _ _ _ A _ _ B). Qed.
Print Assumptions C41_calls_are_determined.

(** two nested extents are left and entered again through captured continuations; thunks that do nothing more *)
Definition quiet_run : thunk -> st -> st := fun _ s => s.
Example quiet_balanced : balanced quiet_run.
Proof. intros t s. auto. Qed.
Definition trip : list op :=
  [OCapture; OWind 1 2; OWind 3 4; OCapture; OThrow 0; OWind 5 6; OThrow 1; OReturn; OThrow 1; OExit].
Example trip_sensible : sensible 0 [] trip.
Proof. exact I. Qed.
Example trip_calls : option_map fst (do_ops quiet_run start_prog trip) =
  Some [[]; [1]; [3]; []; [4; 2]; [5]; [6; 1; 3]; [4]; [3]; [4; 2]].
Proof. vm_compute. reflexivity. Qed.
(** thunks that make a new extent and leave it *)
Definition busy_run : thunk -> st -> st := fun _ s => mkst (setcell (cells s) (next s) (Some (8, 9), cur s)) (S (next s)) (cur s).
Example busy_balanced : balanced busy_run.
Proof.
  intros t s. cbn. split; [auto|split; [lia|]]. intros n H. unfold setcell. destruct (Nat.eqb_spec n (next s)); [lia|auto].
Qed.
Example busy_calls : option_map fst (do_ops busy_run start_prog trip) =
  Some [[]; [1]; [3]; []; [4; 2]; [5]; [6; 1; 3]; [4]; [3]; [4; 2]].
Proof. vm_compute. reflexivity. Qed.
