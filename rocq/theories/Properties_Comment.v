(** * C56: names of the Scheme program in comments of the C program *)
From Coq Require Import ZArith String List Bool Lia.
From Verif Require Import Base Model_Lit Model_Sym Model_Mangle Model_Roots Model_Comment Spec_Mangle Spec_Comment Proofs_Mangle Proofs_Comment.
Import ListNotations.
Open Scope Z_scope.

(** the declaration that should be left when comments are gone *)
Definition declaration (d : decl) (m : list Z) : list Z :=
  (match d with DStatic => codes "static obj " | DHere => codes "obj " | DExtern => codes "extern obj " end) ++ m ++ codes ";".
(** The full statement: for every symbol, the declaration with its comment is read as the declaration, whatever text follows.
    It is false (C56_refuted).  What is missing here: symbols with the two characters that end a comment. *)
Theorem C56_declarations_partial s pfx : Forall chr s -> c_identifier pfx -> ~ ends_comment s ->
  exists m, c_mangle s pfx = Val m /\ c_identifier m /\
  forall d rest, as_read (decl_text d m s ++ rest) = option_map (fun t => declaration d m ++ [32; 32; 10] ++ t) (as_read rest).
Proof.
  intros C I Q. destruct (mangle_identifier s pfx C I) as (m & E & M). exists m. split; [exact E|]. split; [exact M|]. intros d rest.
  rewrite decl_read; [|destruct m as [|c m']; [constructor | destruct M; constructor; [now left | assumption]] | exact Q].
  destruct (as_read rest); [|reflexivity]. cbn [option_map]. f_equal. unfold declaration. destruct d; cbn [decl_head]; rewrite <- !app_assoc; reflexivity.
Qed.
(** the comments of labels, cases and functions leave white space only *)
Theorem C56_comments_partial s ns rest : ~ ends_comment s -> Forall (fun n => ~ ends_comment n) ns ->
  as_read (label_text ns ++ rest) = option_map (app [32]) (as_read rest) /\
  as_read (case_text (Some s) ns ++ rest) = option_map (app [32; 32; 10]) (as_read rest) /\
  as_read (case_text None ns ++ rest) = option_map (app [32; 32; 10]) (as_read rest) /\
  as_read (function_text s ++ rest) = option_map (app [32; 10]) (as_read rest).
Proof.
  intros Q F. repeat split.
  - now rewrite label_read.
  - rewrite case_read; [reflexivity | assumption | intros ? [= <-]; assumption].
  - rewrite case_read; [reflexivity | assumption | discriminate].
  - now rewrite function_read.
Qed.
(** |a*/b|: what follows the comment's early end is read as code *)
Theorem C56_refuted : exists s m, Forall chr s /\ c_mangle s (codes "cx_") = Val m /\ forall d, exists t,
  as_read (decl_text d m s) = Some (declaration d m ++ [32; 32] ++ t) /\ t = codes "b */" ++ [10].
Proof.
  exists (codes "a*/b"). eexists. split; [vm_compute; repeat constructor; discriminate|]. split; [vm_compute; reflexivity|]. intros d. eexists. split; [|reflexivity]. destruct d; vm_compute; reflexivity.
Qed.
(** the same in the comment of a label *)
Theorem C56_labels_refuted : exists n, Forall chr n /\ as_read (label_text [n]) = Some (32 :: codes "b */").
Proof. exists (codes "a*/b"). split; [vm_compute; repeat constructor; discriminate | vm_compute; reflexivity]. Qed.

(** a symbol with slashes, stars, quotes and a backslash before a line end; the text of two declarations *)
Local Definition s : list Z := codes "/*/x**'" ++ [34; 92; 10] ++ codes "*//".
Example C56_declarations_ex : Forall chr (codes "/*x**'/") /\ ~ ends_comment (codes "/*x**'/") /\ ends_comment (codes "/*/") /\ ends_comment ([42; 92; 10; 47]) /\ ends_comment s.
Proof.
  split; [vm_compute; repeat constructor; discriminate|]. split.
  - intros (a & b & E). vm_compute in E. do 8 (destruct a as [|? a]; [discriminate|]). discriminate.
  - repeat split; [exists [47], []; reflexivity | exists [], []; reflexivity | exists [47], (codes "x**'" ++ 34 :: codes "*//"); reflexivity].
Qed.
Example C56_texts_ex : exists m, c_mangle (codes "/*x**'/") (codes "cx_") = Val m /\
  as_read (decl_text DStatic m (codes "/*x**'/") ++ codes "obj a;") = Some (declaration DStatic m ++ [32; 32; 10] ++ codes "obj a;") /\
  as_read (case_text (Some (codes "f")) [codes "x"; codes "y*"] ++ codes "return;") = Some ([32; 32; 10] ++ codes "return;").
Proof. eexists. repeat split; vm_compute; reflexivity. Qed.
Print Assumptions C56_declarations_partial.
Print Assumptions C56_comments_partial.
Print Assumptions C56_refuted.
Print Assumptions C56_labels_refuted.
