From Coq Require Import ZArith List Bool Lia.
From Verif Require Import Base Model_Str Spec_Str Proofs_Str.
Import ListNotations.
Open Scope Z_scope.

(** C16.  [holds b s] fixes the length field, every byte and the final NUL; undefined behaviour (any access
    outside the allocated bytes) is a distinct outcome, so each equation below also says the buffers are
    respected. *)
Theorem C16_make_string : forall n c, n < INT_MAX -> INT_MIN <= n ->
  if n <? 0 then allocstring n c = SStop
  else exists b, allocstring n c = SVal b /\ holds b (repeat (byte c) (Z.to_nat n)).
Proof.
  intros n c H1 H2. destruct (Z.ltb_spec n 0); [apply allocstring_neg|apply allocstring_ok]; lia.
Qed.
Print Assumptions C16_make_string.
Example C16_make_string_ex : allocstring 3 65 = SVal (mkblk 3 [Some 65; Some 65; Some 65; Some 0]) /\ allocstring (-1) 65 = SStop.
Proof. vm_compute. now split. Qed.

Theorem C16_substring : forall b s from to, holds b s -> Z.of_nat (length s) <= INT_MAX -> INT_MIN <= to - from <= INT_MAX ->
  (0 <= from <= to /\ to <= Z.of_nat (length s) ->
    exists b', substring b from to = SVal b' /\ holds b' (firstn (Z.to_nat (to - from)) (skipn (Z.to_nat from) s))) /\
  (~ (0 <= from <= to /\ to <= Z.of_nat (length s)) -> substring b from to = SStop).
Proof.
  intros b s from to H L R. split; intros C; [apply (substring_ok b s from to H); lia|exact (substring_bad b s from to H R C)].
Qed.
Print Assumptions C16_substring.
Example C16_substring_ex : substring (mkblk 4 [Some 97; Some 98; Some 99; Some 100; Some 0]) 1 3 = SVal (mkblk 2 [Some 98; Some 99; Some 0])
  /\ substring (mkblk 1 [Some 97; Some 0]) 1 2 = SStop.
Proof. vm_compute. now split. Qed.

Theorem C16_copy : forall b s, holds b s -> exists b', dupstring b = SVal b' /\ holds b' s.
Proof. exact dupstring_ok. Qed.
Print Assumptions C16_copy.
Example C16_copy_ex : dupstring (mkblk 2 [Some 97; Some 0; Some 0]) = SVal (mkblk 2 [Some 97; Some 0; Some 0]).
Proof. reflexivity. Qed.

Theorem C16_fill : forall b s c, holds b s -> exists b', stringfill b c = SVal b' /\ holds b' (map (fun _ => byte c) s).
Proof. exact stringfill_ok. Qed.
Print Assumptions C16_fill.
Example C16_fill_ex : stringfill (mkblk 2 [Some 97; Some 98; Some 0]) 200 = SVal (mkblk 2 [Some 200; Some 200; Some 0]).
Proof. reflexivity. Qed.

(** reading and writing one character, with bad indices stopped by the assertion *)
Theorem C16_ref_set : forall b s, holds b s ->
  (forall i c, nth_error s i = Some c -> string_ref b (Z.of_nat i) = SVal c) /\
  (forall p x q c, s = p ++ x :: q -> exists b', string_set b (Z.of_nat (length p)) c = SVal b' /\ holds b' (p ++ byte c :: q)) /\
  (forall i c, ~ 0 <= i < Z.of_nat (length s) -> string_ref b i = SStop /\ string_set b i c = SStop).
Proof.
  intros b s H. split; [|split].
  - intros i c. now apply string_ref_ok.
  - intros p x q c ->. exact (string_set_ok b p x q c H).
  - intros i c N. split; [exact (string_ref_bad b s i H N)|exact (string_set_bad b s i c H N)].
Qed.
Print Assumptions C16_ref_set.
Example C16_ref_set_ex : string_ref (mkblk 2 [Some 97; Some 200; Some 0]) 1 = SVal 200 /\
  string_set (mkblk 2 [Some 97; Some 98; Some 0]) 0 66 = SVal (mkblk 2 [Some 66; Some 98; Some 0]) /\
  string_ref (mkblk 2 [Some 97; Some 200; Some 0]) 2 = SStop.
Proof. vm_compute. repeat split. Qed.

(** [string], [list->string]; reading the characters back gives the list *)
Theorem C16_lists : forall l, Forall char l -> Z.of_nat (length l) < INT_MAX ->
  exists b, list_to_string l = SVal b /\ string_ l = SVal b /\ holds b l /\ string_to_list b = SVal l.
Proof.
  intros l F L. destruct (string_ok l L) as [b [E H]]. exists b.
  replace (map byte l) with l in H.
  - repeat (split; [assumption|]). now apply string_to_list_ok.
  - clear - F. induction F; cbn [map]; [reflexivity|]. rewrite byte_char by assumption. now f_equal.
Qed.
Print Assumptions C16_lists.
Example C16_lists_ex : list_to_string [104; 105] = SVal (mkblk 2 [Some 104; Some 105; Some 0]) /\
  string_to_list (mkblk 2 [Some 104; Some 105; Some 0]) = SVal [104; 105].
Proof. vm_compute. now split. Qed.
Theorem C16_string_to_list : forall b s, holds b s -> string_to_list b = SVal s.
Proof. exact string_to_list_ok. Qed.
Print Assumptions C16_string_to_list.
Example C16_string_to_list_ex : string_to_list (mkblk 3 [Some 0; Some 105; Some 0; Some 0]) = SVal [0; 105; 0].
Proof. reflexivity. Qed.

(** string-append of any number of strings: existing objects are kept as they are, the result holds the
    concatenation and is a new object unless there was exactly one argument *)
Theorem C16_append : forall os ss m, Forall2 (obj_holds m) os ss -> Z.of_nat (length (concat ss)) <= INT_MAX ->
  exists n o, string_append m os = SVal (m ++ n, o) /\ obj_holds (m ++ n) o (concat ss) /\
    (length os <> 1%nat -> (length m <= o)%nat).
Proof. exact string_append_ok. Qed.
Print Assumptions C16_append.
Definition A := mkblk 1 [Some 97; Some 0].
Definition BC := mkblk 2 [Some 98; Some 99; Some 0].
Example C16_append_ex : string_append [A; BC] [0; 1; 0]%nat
  = SVal ([A; BC; mkblk 3 [Some 98; Some 99; Some 97; Some 0]; mkblk 4 [Some 97; Some 98; Some 99; Some 97; Some 0]], 3%nat)
  /\ Forall2 (obj_holds [A; BC]) [0; 1; 0]%nat [[97]; [98; 99]; [97]].
Proof.
  split; [reflexivity|]. repeat constructor; (eexists; split; [reflexivity|]); repeat split; repeat constructor; unfold char; lia.
Qed.

(** with one argument the result is not a new string (R5RS: string-append returns a newly allocated string) *)
Theorem C16_append_fresh_refuted : exists m o s, obj_holds m o s /\ string_append m [o] = SVal (m, o).
Proof.
  exists [A], 0%nat, [97]. split; [|reflexivity]. exists A. split; [reflexivity|]. repeat split; repeat constructor; unfold char; lia.
Qed.
Print Assumptions C16_append_fresh_refuted.

(** newstring serves string literals: the block holds the characters up to the first NUL *)
Theorem C16_literal : forall s, Forall char s ->
  exists b, newstring (map Some s ++ [Some 0]) = SVal b /\ holds b (upto_nul s).
Proof. exact newstring_ok. Qed.
Print Assumptions C16_literal.
Example C16_literal_ex : newstring [Some 104; Some 105; Some 0] = SVal (mkblk 2 [Some 104; Some 105; Some 0]).
Proof. reflexivity. Qed.
Theorem C16_literal_nul_refuted : exists s, Forall char s /\ exists b, newstring (map Some s ++ [Some 0]) = SVal b /\ ~ holds b s.
Proof.
  exists [97; 0; 98]. split; [repeat constructor; unfold char; lia|]. eexists. split; [vm_compute; reflexivity|].
  intros [_ [L _]]. discriminate L.
Qed.
Print Assumptions C16_literal_nul_refuted.

(** C17: the five predicates decide the lexicographic order of the contents up to the first NUL, *)
Theorem C17_up_to_nul : forall x y s t, holds x s -> holds y t ->
  let c := lex (upto_nul s) (upto_nul t) in
  string_eq x y = SVal (is_Eq c) /\ string_lt x y = SVal (is_Lt c) /\ string_gt x y = SVal (is_Gt c) /\
  string_le x y = SVal (negb (is_Gt c)) /\ string_ge x y = SVal (negb (is_Lt c)).
Proof. exact comparisons. Qed.
Print Assumptions C17_up_to_nul.
Example C17_up_to_nul_ex : string_lt A BC = SVal true /\ string_lt (mkblk 1 [Some 200; Some 0]) A = SVal false /\ string_ge A A = SVal true.
Proof. vm_compute. repeat split. Qed.
(** so of the full contents when there is none *)
Theorem C17_nul_free : forall x y s t, holds x s -> holds y t -> Forall (fun c => c <> 0) s -> Forall (fun c => c <> 0) t ->
  let c := lex s t in
  string_eq x y = SVal (is_Eq c) /\ string_lt x y = SVal (is_Lt c) /\ string_gt x y = SVal (is_Gt c) /\
  string_le x y = SVal (negb (is_Gt c)) /\ string_ge x y = SVal (negb (is_Lt c)) /\ (string_eq x y = SVal true <-> s = t).
Proof.
  intros x y s t Hx Hy Ns Nt c. pose proof (comparisons x y s t Hx Hy) as C. cbv zeta in C.
  rewrite !upto_nul_id in C by assumption. fold c in C. destruct C as [C1 C]. split; [exact C1|].
  destruct C as [C2 [C3 [C4 C5]]]. repeat (split; [assumption|]). rewrite C1. rewrite <- lex_eq. fold c.
  destruct c; split; intros H; try reflexivity; discriminate H.
Qed.
Print Assumptions C17_nul_free.
Example C17_nul_free_ex : string_eq BC (mkblk 2 [Some 98; Some 99; Some 0]) = SVal true /\ string_gt BC (mkblk 1 [Some 98; Some 0]) = SVal true.
Proof. vm_compute. now split. Qed.
(** the statement without the side condition is false: (string=? "a\0b" "a\0c") is true *)
Theorem C17_full_contents_refuted : exists x y s t, holds x s /\ holds y t /\ s <> t /\ string_eq x y = SVal true.
Proof.
  exists (mkblk 3 [Some 97; Some 0; Some 98; Some 0]), (mkblk 3 [Some 97; Some 0; Some 99; Some 0]), [97; 0; 98], [97; 0; 99].
  split; [repeat split; repeat constructor; unfold char; lia|]. split; [repeat split; repeat constructor; unfold char; lia|].
  split; [discriminate|reflexivity].
Qed.
Print Assumptions C17_full_contents_refuted.
(** case-insensitive predicates on ASCII strings *)
Theorem C17_ci_ascii : forall x y s t, holds x s -> holds y t -> Forall ascii s -> Forall ascii t ->
  let c := lex (map low s) (map low t) in
  string_ci_eq x y = SVal (is_Eq c) /\ string_ci_lt x y = SVal (is_Lt c) /\ string_ci_gt x y = SVal (is_Gt c) /\
  string_ci_le x y = SVal (negb (is_Gt c)) /\ string_ci_ge x y = SVal (negb (is_Lt c)).
Proof. exact comparisons_ci. Qed.
Print Assumptions C17_ci_ascii.
Example C17_ci_ascii_ex : string_ci_eq (mkblk 2 [Some 65; Some 98; Some 0]) (mkblk 2 [Some 97; Some 66; Some 0]) = SVal true
  /\ string_ci_lt A (mkblk 1 [Some 66; Some 0]) = SVal true.
Proof. vm_compute. now split. Qed.
(** any other character passes a negative number to tolower *)
Theorem C17_ci_high_refuted : exists x y s t, holds x s /\ holds y t /\ string_ci_eq x y = SUB.
Proof.
  exists (mkblk 1 [Some 233; Some 0]), A, [233], [97].
  split; [repeat split; repeat constructor; unfold char; lia|]. split; [repeat split; repeat constructor; unfold char; lia|]. reflexivity.
Qed.
Print Assumptions C17_ci_high_refuted.
