(** * C57: formats, /repo/6.sf:154-279 *)
From Coq Require Import ZArith String List Bool Lia.
From Verif Require Import Base Model_Lit Model_CStr Model_Mangle Model_Roots Model_Comment Model_Fold Model_Format Spec_Num Spec_Fold Proofs_Format Spec_Format.
Import ListNotations.
Open Scope Z_scope.

(** If the operands fit the format, the text is the one the format means, but for conversions of a type to itself and to void.
    No type may have a name that ends in "_void" (see C57_void_refuted). *)
Theorem C57_format ltext rtext live ret ps args ss :
  flatten ltext = Val live -> flatten rtext = Val ret -> Z.of_nat (length args) < 8589934591 ->
  format_ok ps -> fits ps 0 (length args) -> Forall2 (fun a s => flatten a = Val s) args ss ->
  Forall (fun a => forall z, a = TS z -> clean z) args -> clean (format_text ps) ->
  exists F y t, (forall f, (F <= f)%nat -> c_format_prim f ltext rtext (format_text ps) args = Ok (Val y)) /\
  makes live ret (length args) ps ss t /\ shortened t y.
Proof. exact (format_made ltext rtext live ret ps args ss). Qed.
(** Formats without loops stop with an error if the number of operands is another one. *)
Theorem C57_counts ltext rtext live ret l args :
  flatten ltext = Val live -> flatten rtext = Val ret -> Z.of_nat (length args) < 8589934591 ->
  format_ok [PItems l] -> count l <> length args ->
  exists F, forall f, (F <= f)%nat -> c_format_prim f ltext rtext (format_text [PItems l]) args = CErr.
Proof. intros L R N (K & _) C. change (format_text [PItems l]) with (items_text l ++ []). rewrite app_nil_r. exact (wrong_count ltext rtext live ret l args L R N K C). Qed.
(** Conversions are whole words: after a letter or a digit nothing is left out. *)
Theorem C57_words pre c t s : ~ In 36 (pre ++ c :: t) -> letter_or_digit c -> typed_text t s -> (forall x, pre ++ c :: t <> x ++ codes "void") ->
  forall f, (length pre + length t + 9 <= f)%nat -> c_format f (pre ++ c :: t ++ codes "_from_$arg") [TS s] = Ok (Val (pre ++ c :: t ++ codes "_from_" ++ s)).
Proof. intros N L T. apply part_word; auto. now apply Proofs_FoldText.primexp_ok. Qed.
Example C57_words_ex : c_format 40 (codes "y = pobj_from_$arg") [TS (codes "obj(x)")] = Ok (Val (codes "y = pobj_from_obj(x)")) /\ typed_text (codes "obj") (codes "obj(x)") /\ c_format 40 (codes "y = obj_from_$arg") [TS (codes "obj(x)")] = Ok (Val (codes "y = (x)")).
Proof. split; [reflexivity|]. split; [now apply Proofs_FoldText.primexp_ok | reflexivity]. Qed.
(** The declarations of C56 are the formats of 7.sf:709-711 with their operands. *)
Theorem C57_declarations m s f : (60 <= f)%nat ->
  c_format f (codes "static obj $a; /* constant $a */" ++ [10]) [TS m; TY s] = Ok (Val (decl_text DStatic m s)) /\
  c_format f (codes "obj $a; /* $a */" ++ [10]) [TS m; TY s] = Ok (Val (decl_text DHere m s)) /\
  c_format f (codes "extern obj $a; /* $a */" ++ [10]) [TS m; TY s] = Ok (Val (decl_text DExtern m s)).
Proof.
  intros L. do 60 (destruct f as [|f]; [lia|]). clear L. cbn [decl_text].
  assert (C : forall a b c : list Z, Val (a ++ b ++ c) = Val (a ++ b ++ c)) by reflexivity.
  repeat split; unfold c_format, c_format_prim; cbn; rewrite ?app_nil_r; reflexivity.
Qed.
(** A type whose name ends in "_void": the value is thrown away. *)
Theorem C57_void_refuted : exists ps args ss y, format_ok ps /\ fits ps 0 (length args) /\ Forall2 (fun a s => flatten a = Val s) args ss /\
  c_format 100 (format_text ps) args = Ok (Val y) /\
  format_text ps = codes "x = my_void_from_$arg;" /\ ss = [codes "my_void(e)"] /\ y = codes "x = (void)(e);".
Proof.
  exists [PItems (map IChar (codes "x = my_void_from_") ++ [IArg; IChar 59])], [TS (codes "my_void(e)")], [codes "my_void(e)"]. eexists.
  split; [split; [|exact I]; vm_compute; intuition discriminate|]. split; [vm_compute; intuition (discriminate || lia)|]. repeat split; repeat constructor.
Qed.
(** A loop over eleven operands stops with an error although there are eleven. *)
Theorem C57_eleven_refuted : exists ps args, format_ok ps /\ (exists t, makes [] [] (length args) ps (repeat (codes "1") 11) t) /\
  Forall2 (fun a s => flatten a = Val s) args (repeat (codes "1") 11) /\ c_format 100 (format_text ps) args = CErr.
Proof.
  exists [PLoop (flat_map (fun _ => [IPlain; IChar 44]) (seq 0 11))], (repeat (TN 1) 11). split; [split; [|exact I]; cbn; unfold letter_or_digit; repeat split; try discriminate; try lia; right; reflexivity|]. split.
  - eexists. eapply mk_loop; [discriminate | repeat constructor | apply mk_done, mk_nil].
  - split; [repeat constructor | vm_compute; reflexivity].
Qed.

(** the call of an unknown procedure with two operands, 7.sf:403-411 without the lines that have no directives *)
Local Definition ps : list piece :=
  [PItems (map IChar (codes "r[") ++ ILive :: map IChar (codes "+0] = obj_from_") ++ [IArg; IChar 59]);
   PLoop (map IChar (codes "r[") ++ ILive :: IChar 43 :: IThis :: map IChar (codes "] = obj_from_") ++ [IArg; IChar 59; IChar 10]);
   PItems (map IChar (codes "rc = ") ++ [IThis; IChar 59])].
Local Definition ops : list text := [TS (codes "obj(r[4])"); TS (codes "fixnum(3)"); TS (codes "obj(2, hpushptr(x))")].
Example C57_format_ex : format_text ps = codes "r[$live+0] = obj_from_$arg;${r[$live+$arg#] = obj_from_$arg;" ++ 10 :: codes "$}rc = $arg#;" /\
  format_ok ps /\ fits ps 0 (length ops) /\ Forall (fun a => forall z, a = TS z -> clean z) ops /\
  c_format_prim 200 (TN 5) (TS []) (format_text ps) ops = Ok (Val (codes "r[5+0] = (r[4]);r[5+1] = obj_from_fixnum(3);" ++ 10 :: codes "r[5+2] = (hpushptr(x));" ++ 10 :: codes "rc = 3;")).
Proof.
  split; [reflexivity|]. split; [vm_compute; intuition (discriminate || lia)|]. split; [|split; [|vm_compute; reflexivity]].
  - split; [vm_compute; lia|]. split; [vm_compute; intuition discriminate|]. split; [vm_compute; lia|]. split; [|vm_compute; intuition (discriminate || lia)].
    intros _. split; [vm_compute; intuition discriminate|]. split; [vm_compute; lia | exists 2%nat; reflexivity].
  - repeat constructor; intros z [= <-] a b E; vm_compute in E; repeat (destruct a as [|? a]; [discriminate|]; injection E as _ E); destruct a; discriminate.
Qed.
(** "$return": the conversion at the end of the text before and the type in the format go *)
Example C57_return_ex : c_format_prim 200 (TN 5) (TS (codes "r[1] = obj_from_")) (codes "{ $arg; } $return obj(2, f($arg));") [TS (codes "int(1)"); TS (codes "n")] =
  Ok (Val (codes "{ int(1); } r[1] = (f(n));")).
Proof. vm_compute. reflexivity. Qed.
Example C57_counts_ex : format_ok [PItems [IPlain; IChar 40; IPlain; IChar 41]] /\ count [IPlain; IChar 40; IPlain; IChar 41] <> length [TN 1] /\ c_format 20 (codes "$a($a)") [TN 1] = CErr.
Proof. repeat split; vm_compute; intuition (discriminate || lia). Qed.
Print Assumptions C57_format.
Print Assumptions C57_counts.
Print Assumptions C57_words.
Print Assumptions C57_declarations.
Print Assumptions C57_void_refuted.
Print Assumptions C57_eleven_refuted.
