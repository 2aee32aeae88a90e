(** C19 (comments), C20 (the reader returns), C21 (dotted lists). *)
From Coq Require Import ZArith String List Bool Lia.
From Verif Require Import Base Model_Sym Model_Lit Model_Read Spec_Read Proofs_Sym Proofs_ReadTerm Proofs_ReadLex Proofs_ReadGap Proofs_ReadDots.
Import ListNotations.
Open Scope Z_scope.

(** C19: white space, line comments, nested block comments and datum comments between tokens, anywhere in the tree,
    do not change the datum read.  Here-strings are not tokens here (they end at a line end). *)
Theorem C19_spacing_does_not_matter : forall r t d i k, Forall aside r -> wrote t i k -> means t d -> returns r i (ROk (d, k, r)).
Proof.
  intros r t d i k R W M. destruct (proj1 (proj2 (spaced r R)) t i k W) as (e & M' & _ & _ & T & _).
  rewrite (means_fun t d M e M'). now apply top_returns.
Qed.
Print Assumptions C19_spacing_does_not_matter.
Theorem C19_two_spacings_same_datum : forall r t i k i' k', Forall aside r -> wrote t i k -> wrote t i' k' ->
  exists d, returns r i (ROk (d, k, r)) /\ returns r i' (ROk (d, k', r)).
Proof.
  intros r t i k i' k' R W W'. destruct (proj1 (proj2 (spaced r R)) t i k W) as (e & M & _ & _ & T & _). exists e.
  split; [now apply top_returns|]. now apply (C19_spacing_does_not_matter r t e i' k' R W').
Qed.
Print Assumptions C19_two_spacings_same_datum.
(** nothing but spacing: the end of the file *)
Theorem C19_only_spacing : forall r i, Forall aside r -> gap i [] -> returns r i (ROk (eof, [], r)).
Proof.
  intros r i R G. apply top_returns. apply (proj1 (spaced r R) i [] G). split; [discriminate|]. exists 2%nat. cbn [subread_top rd].
  rewrite (aside_none r [] R I). reflexivity.
Qed.
Print Assumptions C19_only_spacing.


(** helpers for the concrete cases *)
Fixpoint quietb (t : text) : bool :=
  match t with
  | x :: ((y :: _) as t') => negb ((x =? 35) && (y =? 124)) && negb ((x =? 124) && (y =? 35)) && quietb t'
  | _ => true
  end.
Lemma quietb_ok t : quietb t = true -> quiet t.
Proof.
  induction t as [|x t IH]; intros Q a b; [split; destruct a; discriminate|].
  destruct t as [|y t]; [split; destruct a as [|? [|? ?]]; discriminate|]. cbn [quietb] in Q. apply andb_prop in Q. destruct Q as [Q Q3]. apply andb_prop in Q. destruct Q as [Q1 Q2].
  destruct a as [|z a]; cbn [app]; [split; intros E; injection E as -> -> ->; discriminate|].
  specialize (IH Q3 a b). split; intros E; injection E as _ E; now destruct IH.
Qed.
Definition startb (a : text) : bool :=
  match a with
  | [] => false
  | c :: a' => negb (char_whitespace c) && negb (existsb (Z.eqb c) [59; 40; 91; 39]) &&
      (negb (c =? 35) || match a' with
                 | [] => false
                 | c' :: _ => negb (existsb (Z.eqb c') [40; 38; 59; 124; 60; 46]) && negb (cstr_eqb (firstn 4 a') (codes "read")) && negb (cstr_eqb (firstn 5 a') (codes "fload"))
                 end)
  end.
Lemma startb_ok a : startb a = true -> token_start a.
Proof.
  destruct a as [|c a]; cbn [startb token_start]; [discriminate|]. intros H. apply andb_prop in H. destruct H as [H H3]. apply andb_prop in H. destruct H as [H1 H2].
  assert (X : forall x l, negb (existsb (Z.eqb x) l) = true -> ~ In x l).
  { intros x l E I. apply negb_true_iff in E. assert (T : existsb (Z.eqb x) l = true) by (apply existsb_exists; exists x; split; [exact I|apply Z.eqb_refl]). congruence. }
  split; [intros W; apply white_iff in W; rewrite W in H1; discriminate H1|]. split; [now apply X|]. intros ->. cbn [Z.eqb negb orb Pos.eqb] in H3.
  destruct a as [|x a]; [discriminate H3|]. apply andb_prop in H3. destruct H3 as [H3 H5]. apply andb_prop in H3. destruct H3 as [H3 H4]. split; [now apply X|].
  split; intros E; [rewrite E in H4|rewrite E in H5]; discriminate.
Qed.
Lemma tokd a d : startb a = true -> read_text [] a = ROk (d, [], []) -> ordinary d -> token a d.
Proof. intros S T O. split; [now apply startb_ok|now split]. Qed.
Ltac tok := apply tokd; [reflexivity|vm_compute; reflexivity|ordi].
Ltac delimd := apply ends_delimited; reflexivity.

Definition ex_tree : tree := TDot [TTok (codes "abc"); TQuote (TTok (codes "-12"))] (TTok (codes "#\x")).
Lemma tok_abc : token (codes "abc") (datum "symbol" [XStr (codes "abc")]). Proof. tok. Qed.
Lemma tok_12 : token (codes "-12") (datum "integer" [XNum 8; sym "-"; XStr (codes "12"); XNum 10]). Proof. tok. Qed.
Lemma tok_1 : token (codes "1") (datum "integer" [XNum 8; sym "+"; XStr (codes "1"); XNum 10]). Proof. tok. Qed.
Lemma tok_x : token (codes "#\x") (datum "char" [XStr [120]]). Proof. tok. Qed.
Lemma seq_end k : seq [] 41 (41 :: k) k. Proof. constructor; [now left|constructor]. Qed.
(** both texts are writings of the tree: one closely packed, one with every kind of comment *)
Example C19_case_tight : wrote ex_tree (codes "(abc '-12 . #\x)") [].
Proof.
  apply (wr_dparen _ _ (codes "abc '-12 . #\x)")); [discriminate|]. cbn [map app].
  apply sq_datum with (j := codes " '-12 . #\x)"); [apply (wr_token (codes "abc") _ _ tok_abc); left; delimd|].
  apply sq_datum with (j := codes " . #\x)").
  { apply wr_gap with (j := codes "'-12 . #\x)"); [apply (gap_space 32); [now left|constructor]|]. apply (wr_quote _ (codes "-12 . #\x)")).
    apply (wr_token (codes "-12") _ _ tok_12). left; delimd. }
  apply sq_dot with (j := codes " #\x)"); [apply (gap_space 32); [now left|constructor]|delimd|].
  apply sq_datum with (j := codes ")"); [|apply seq_end].
  apply wr_gap with (j := codes "#\x)"); [apply (gap_space 32); [now left|constructor]|]. apply (wr_token (codes "#\x") _ _ tok_x). left; delimd.
Qed.
Example C19_case_spaced : wrote ex_tree (codes "#|a#|b|#c|#(abc;c" ++ 10 :: codes "'#;(1)-12 . #\x)") [].
Proof.
  apply wr_gap with (j := codes "(abc;c" ++ 10 :: codes "'#;(1)-12 . #\x)").
  { apply (gap_block (codes "a#|b|#c|#")); [|constructor]. apply (cb_nested (codes "a") (codes "b|#") (codes "c|#")); [apply quietb_ok; reflexivity| |].
    - apply (cb_end (codes "b")). apply quietb_ok; reflexivity.
    - apply (cb_end (codes "c")). apply quietb_ok; reflexivity. }
  apply (wr_dparen _ _ (codes "abc;c" ++ 10 :: codes "'#;(1)-12 . #\x)")); [discriminate|]. cbn [map app].
  apply sq_datum with (j := codes ";c" ++ 10 :: codes "'#;(1)-12 . #\x)"); [apply (wr_token (codes "abc") _ _ tok_abc); left; delimd|].
  apply sq_datum with (j := codes " . #\x)").
  { apply wr_gap with (j := codes "'#;(1)-12 . #\x)").
    { apply (gap_line (codes "c")); [intros [X|[]]; discriminate X|constructor]. }
    apply (wr_quote _ (codes "#;(1)-12 . #\x)")). apply wr_gap with (j := codes "-12 . #\x)").
    { apply (gap_datum (TList [TTok (codes "1")]) (codes "(1)-12 . #\x)") (codes "-12 . #\x)")); [|constructor].
      apply (wr_paren _ (codes "1)-12 . #\x)")). cbn [map]. apply sq_datum with (j := codes ")-12 . #\x)"); [apply (wr_token (codes "1") _ _ tok_1); left; delimd|apply seq_end]. }
    apply (wr_token (codes "-12") _ _ tok_12). left; delimd. }
  apply sq_dot with (j := codes " #\x)"); [apply (gap_space 32); [now left|constructor]|delimd|].
  apply sq_datum with (j := codes ")"); [|apply seq_end].
  apply wr_gap with (j := codes "#\x)"); [apply (gap_space 32); [now left|constructor]|]. apply (wr_token (codes "#\x") _ _ tok_x). left; delimd.
Qed.
Example C19_case_same : exists d, read_text [] (codes "(abc '-12 . #\x)") = ROk (d, [], []) /\
  read_text [] (codes "#|a#|b|#c|#(abc;c" ++ 10 :: codes "'#;(1)-12 . #\x)") = ROk (d, [], []) /\ d <> eof.
Proof. eexists. split; [vm_compute; reflexivity|]. split; [vm_compute; reflexivity|discriminate]. Qed.

(** C20: on plain texts (no #.( and no #read with an empty prefix) reading one datum returns: an error, the end of
    the file, or a datum proper after consuming at least one character; no primitive fails *)
Theorem C20_reading_returns : forall r i, Forall plain_ext r -> plain i -> exists x, returns r i x /\ x = read_text r i /\
  (x = RErr \/ exists d i' r', x = ROk (d, i', r') /\ Forall plain_ext r' /\ (d = eof /\ i' = [] \/ ordinary d /\ exists a, a <> [] /\ i = a ++ i')).
Proof. exact read_text_ok. Qed.
Print Assumptions C20_reading_returns.
(** so reading a file ends, with at most one datum for each character *)
Theorem C20_files_are_read : forall r i, Forall plain_ext r -> plain i -> exists l b, file_reads r i l b /\ (List.length l <= List.length i)%nat.
Proof. intros r i. exact (file_ok _ r i (le_n _)). Qed.
Print Assumptions C20_files_are_read.
(** a reader extension with an empty prefix makes the reader call itself without consuming anything *)
Theorem C20_reading_may_not_return_refuted : exists i, forall n, subread_top n [] i = RFuel.
Proof. exists (codes "#read <datum> as x y"). exact read_loops. Qed.
Print Assumptions C20_reading_may_not_return_refuted.
(** a terminator made by #.( without a character is taken apart *)
Theorem C20_reading_may_crash_refuted : exists i, returns [] i RCrash.
Proof.
  exists (codes "(#.(terminator) 1)"). exists (enough (codes "(#.(terminator) 1)")). intros n L. apply top_mono_le with (n := enough (codes "(#.(terminator) 1)")); [exact L|].
  vm_compute. discriminate.
Qed.
Print Assumptions C20_reading_may_crash_refuted.
Fixpoint no_sub (h i : text) : bool := match input_prefix i h with Some _ => false | None => match i with [] => true | _ :: i' => no_sub h i' end end.
Lemma no_sub_ok h : forall i a b, no_sub h i = true -> i <> a ++ h ++ b.
Proof.
  assert (P : forall b, input_prefix (h ++ b) h = Some b) by (induction h as [|c h' IH]; intros b; [now destruct b|cbn [app input_prefix]; rewrite Z.eqb_refl; apply IH]).
  intros i a b. revert i. induction a as [|c a IH]; intros i N E.
  - cbn [app] in E. subst i. destruct (h ++ b) eqn:Q; cbn [no_sub] in N; rewrite <- Q, P in N; discriminate N.
  - subst i. cbn [app no_sub] in N. destruct (input_prefix _ h); [discriminate N|]. now apply (IH (a ++ h ++ b) N).
Qed.
Example C20_case : plain (codes "#read `<datum> as (quasiquote <datum>)" ++ codes " `(a ; b" ++ 10 :: codes "]") /\
  read_text [] (codes "#read `<datum> as (quasiquote <datum>)" ++ codes " `(a ; b" ++ 10 :: codes "]") = RErr.
Proof.
  split; [|vm_compute; reflexivity]. split.
  - intros a b. apply (no_sub_ok (codes "#.(")). vm_compute. reflexivity.
  - intros a k b K E. assert (N : no_sub (codes "#read ") (tl (codes "#read `<datum> as (quasiquote <datum>)" ++ codes " `(a ; b" ++ 10 :: codes "]")) = true) by (vm_compute; reflexivity).
    destruct a as [|x a].
    + destruct k as [|y k]; [discriminate E|]. cbn in E. injection E as _ E. destruct k as [|z k]; [discriminate E|]. injection E as E _. inversion K as [|? ? _ K2]; subst. inversion K2 as [|? ? K3 _]; subst. lia.
    + assert (F : tl (codes "#read `<datum> as (quasiquote <datum>)" ++ codes " `(a ; b" ++ 10 :: codes "]") = a ++ codes "#read" ++ k ++ 60 :: b) by (rewrite E; reflexivity).
      clear E. revert F. apply no_sub_ok. vm_compute. reflexivity.
Qed.

(** C21: which item sequences between brackets are accepted; the full statement (legal lists only) is refuted below *)
Theorem C21_accepted_lists_exactly : forall r op c l i k, Forall aside r -> brackets op c -> seq l c i k ->
  (one_after_last_dot l -> exists d, returns r (op :: i) (ROk (d, k, r))) /\ (~ one_after_last_dot l -> returns r (op :: i) RErr).
Proof. intros r op c l i k R. exact (seq_accept r R op c l i k). Qed.
Print Assumptions C21_accepted_lists_exactly.
(** what an accepted sequence with dots reads as: the data before the first dot, then the first datum after it *)
Theorem C21_value_of_dotted_lists : forall r op c ts m t more i k d, Forall aside r -> brackets op c ->
  seq (map IDat ts ++ IDot :: repeat IDot m ++ IDat t :: more) c i k -> returns r (op :: i) (ROk (d, k, r)) ->
  exists ds e, Forall2 means ts ds /\ means t e /\ d = pairs ds e.
Proof. intros r op c ts m t more i k d R. exact (seq_value r R op c ts m t more i k d). Qed.
Print Assumptions C21_value_of_dotted_lists.
(** brackets must match, and vectors have no dots *)
Theorem C21_wrong_bracket_rejected : forall r op c c' l i k, Forall aside r -> brackets op c' -> c <> c' -> seq l c i k -> returns r (op :: i) RErr.
Proof. intros r op c c' l i k R. exact (seq_mismatch r R op c c' l i k). Qed.
Print Assumptions C21_wrong_bracket_rejected.
Theorem C21_dot_in_vector_rejected : forall r l c i k, Forall aside r -> In IDot l -> seq l c i k -> returns r (35 :: 40 :: i) RErr.
Proof. intros r l c i k R. exact (seq_vector_dot r R l c i k). Qed.
Print Assumptions C21_dot_in_vector_rejected.
Theorem C21_only_legal_lists_refuted : exists l i d, seq l 41 i [] /\ ~ legal l /\ returns [] (40 :: i) (ROk (d, [], [])).
Proof.
  exists [IDat (TTok (codes "abc")); IDot; IDat (TTok (codes "1")); IDot; IDat (TTok (codes "abc"))], (codes "abc . 1 . abc)").
  exists (datum "pair" [datum "symbol" [XStr (codes "abc")]; datum "integer" [XNum 8; sym "+"; XStr (codes "1"); XNum 10]]). split; [|split].
  - apply sq_datum with (j := codes " . 1 . abc)"); [apply (wr_token (codes "abc") _ _ tok_abc); left; delimd|].
    apply sq_dot with (j := codes " 1 . abc)"); [apply (gap_space 32); [now left|constructor]|delimd|].
    apply sq_datum with (j := codes " . abc)"); [apply wr_gap with (j := codes "1 . abc)"); [apply (gap_space 32); [now left|constructor]|]; apply (wr_token (codes "1") _ _ tok_1); left; delimd|].
    apply sq_dot with (j := codes " abc)"); [apply (gap_space 32); [now left|constructor]|delimd|].
    apply sq_datum with (j := codes ")"); [|apply seq_end].
    apply wr_gap with (j := codes "abc)"); [apply (gap_space 32); [now left|constructor]|]. apply (wr_token (codes "abc") _ _ tok_abc). left; delimd.
  - intros [[ts E]|(ts & t & _ & E)].
    + destruct ts as [|? [|? ?]]; discriminate E.
    + destruct ts as [|? [|? [|? ?]]]; try discriminate E. 
  - exists (enough (codes "(abc . 1 . abc)")). intros n L. rewrite (top_mono_le _ _ [] (40 :: codes "abc . 1 . abc)") L); vm_compute; [reflexivity|discriminate].
Qed.
Print Assumptions C21_only_legal_lists_refuted.
Theorem C21_dot_needs_a_datum_before_refuted : exists l i d, seq l 41 i [] /\ ~ legal l /\ returns [] (40 :: i) (ROk (d, [], [])).
Proof.
  exists [IDot; IDat (TTok (codes "abc"))], (codes " . abc)"). exists (datum "symbol" [XStr (codes "abc")]). split; [|split].
  - apply sq_dot with (j := codes " abc)"); [apply (gap_space 32); [now left|constructor]|delimd|].
    apply sq_datum with (j := codes ")"); [|apply seq_end].
    apply wr_gap with (j := codes "abc)"); [apply (gap_space 32); [now left|constructor]|]. apply (wr_token (codes "abc") _ _ tok_abc). left; delimd.
  - intros [[ts E]|(ts & t & N & E)].
    + destruct ts as [|? ?]; discriminate E.
    + destruct ts as [|? ?]; [contradiction|discriminate E].
  - exists (enough (codes "( . abc)")). intros n L. rewrite (top_mono_le _ _ [] (40 :: codes " . abc)") L); vm_compute; [reflexivity|discriminate].
Qed.
Print Assumptions C21_dot_needs_a_datum_before_refuted.
Example C21_case_rejected : exists l i, seq l 41 i [] /\ ~ one_after_last_dot l /\ read_text [] (40 :: i) = RErr.
Proof.
  exists [IDat (TTok (codes "abc")); IDot; IDat (TTok (codes "1")); IDat (TTok (codes "1"))], (codes "abc . 1 1)"). split; [|split; [|vm_compute; reflexivity]].
  - apply sq_datum with (j := codes " . 1 1)"); [apply (wr_token (codes "abc") _ _ tok_abc); left; delimd|].
    apply sq_dot with (j := codes " 1 1)"); [apply (gap_space 32); [now left|constructor]|delimd|].
    apply sq_datum with (j := codes " 1)"); [apply wr_gap with (j := codes "1 1)"); [apply (gap_space 32); [now left|constructor]|]; apply (wr_token (codes "1") _ _ tok_1); left; delimd|].
    apply sq_datum with (j := codes ")"); [|apply seq_end].
    apply wr_gap with (j := codes "1)"); [apply (gap_space 32); [now left|constructor]|]. apply (wr_token (codes "1") _ _ tok_1). left; delimd.
  - intros [N|(pre & t & E)]; [apply N; right; now left|]. destruct pre as [|? [|? [|? [|? [|? ?]]]]]; discriminate E.
Qed.
