(** A token is read in the same way whatever follows it. *)
From Coq Require Import ZArith String List Bool Lia.
From Verif Require Import Base Model_Sym Model_Num Model_Lit Model_Read Spec_Read Proofs_Sym Proofs_ReadTerm.
Import ListNotations.
Open Scope Z_scope.

Lemma delim_in c : char_delimiter c = true <-> In c [32; 9; 10; 11; 12; 13; 40; 41; 91; 93; 123; 125; 34; 59; 35].
Proof.
  unfold char_delimiter, char_whitespace, isspace, string_position. cbn [existsb In]. lia.
Qed.
Ltac delims c H := apply delim_in in H; cbn [In] in H; repeat (destruct H as [<-|H]; [|]); [..|contradiction H].
Lemma delim_digit c r : char_delimiter c = true -> char_digit_value c r = None.
Proof. intros H. delims c H; reflexivity. Qed.
Lemma delim_exp c : char_delimiter c = true -> char_exponent_marker c = false.
Proof. intros H. delims c H; reflexivity. Qed.
Lemma delim_num c : char_delimiter c = true -> char_numeric c = false.
Proof. intros H. delims c H; reflexivity. Qed.
Lemma delim_subsequent c : char_delimiter c = true -> char_subsequent c = false.
Proof. intros H. delims c H; vm_compute; reflexivity. Qed.
Lemma delim_alpha c : char_delimiter c = true -> char_alphabetic c = false.
Proof. intros H. delims c H; vm_compute; reflexivity. Qed.
Lemma ends_delimited i : ends_token i <-> delimited i = true.
Proof.
  destruct i as [|c i]; cbn [ends_token delimited]; [tauto|]. rewrite delim_in. unfold delim, white.
  change (In c (codes "()[]{};#")) with (In c [40; 41; 91; 93; 123; 125; 59; 35]). cbn [In]. lia.
Qed.

Definition app_rest (rest : text) (x : option text) : option text := option_map (fun j => j ++ rest) x.
Definition no_delim (h : text) : bool := forallb (fun c => negb (char_delimiter c)) h.
Lemma prefix_some : forall h i j rest, input_prefix i h = Some j -> input_prefix (i ++ rest) h = Some (j ++ rest).
Proof.
  intros h i j rest H. apply prefix_eq in H. subst i. rewrite <- app_assoc. generalize (j ++ rest). intros x.
  induction h as [|c h IH]; [now destruct x|]. cbn [app input_prefix]. rewrite Z.eqb_refl. exact IH.
Qed.
Lemma prefix_app h : forall i rest, delimited rest = true -> no_delim h = true -> input_prefix (i ++ rest) h = app_rest rest (input_prefix i h).
Proof.
  induction h as [|c h IH]; intros i rest D N; [destruct i; [now destruct rest|reflexivity]|].
  cbn [no_delim forallb] in N. apply andb_prop in N. destruct N as [N1 N2]. destruct i as [|x i]; cbn [app].
  - destruct rest as [|x rest]; [reflexivity|]. cbn [input_prefix]. destruct (Z.eqb_spec x c) as [->|]; [|reflexivity].
    cbn [delimited] in D. rewrite D in N1. discriminate N1.
  - cbn [input_prefix]. destruct (x =? c); [apply IH; assumption|reflexivity].
Qed.
Lemma prefix_app_cons c i h rest : delimited rest = true -> no_delim (tl h) = true -> h <> [] ->
  input_prefix ((c :: i) ++ rest) h = app_rest rest (input_prefix (c :: i) h).
Proof.
  intros D N H. destruct h as [|x h]; [contradiction|]. cbn [app input_prefix tl] in *. destruct (c =? x); [|reflexivity]. now apply prefix_app.
Qed.
Definition no_delim_ci (h : text) : bool := forallb (fun c => negb (char_delimiter c) && negb (char_delimiter (char_downcase c))) h.
Lemma downcase_delim c : char_delimiter c = true -> char_downcase c = c.
Proof. intros H. delims c H; reflexivity. Qed.
Lemma prefix_ci_app h : forall i rest, delimited rest = true -> no_delim_ci h = true -> input_prefix_ci (i ++ rest) h = app_rest rest (input_prefix_ci i h).
Proof.
  induction h as [|c h IH]; intros i rest D N; [destruct i; [now destruct rest|reflexivity]|].
  cbn [no_delim_ci forallb] in N. apply andb_prop in N. destruct N as [N1 N2]. apply andb_prop in N1. destruct N1 as [N0 N1]. destruct i as [|x i]; cbn [app].
  - destruct rest as [|x rest]; [reflexivity|]. cbn [input_prefix_ci]. cbn [delimited] in D. rewrite (downcase_delim x D).
    destruct (Z.eqb_spec x (char_downcase c)) as [E|]; [|reflexivity]. rewrite <- E, D in N1. discriminate N1.
  - cbn [input_prefix_ci]. destruct (_ =? _); [apply IH; assumption|reflexivity].
Qed.
Lemma prefix_ci_app_cons c i h rest : delimited rest = true -> no_delim_ci (tl h) = true -> h <> [] ->
  input_prefix_ci ((c :: i) ++ rest) h = app_rest rest (input_prefix_ci (c :: i) h).
Proof.
  intros D N H. destruct h as [|x h]; [contradiction|]. cbn [app input_prefix_ci tl] in *. destruct (_ =? _); [|reflexivity]. now apply prefix_ci_app.
Qed.
Lemma delimited_app j rest : delimited rest = true -> delimited (j ++ rest) = delimited j.
Proof. intros D. destruct j; [exact D|reflexivity]. Qed.
Lemma dprefix_app_cons c i h rest : delimited rest = true -> no_delim (tl h) = true -> h <> [] ->
  delimited_prefix ((c :: i) ++ rest) h = app_rest rest (delimited_prefix (c :: i) h).
Proof.
  intros D N H. unfold delimited_prefix. rewrite (prefix_app_cons c i h rest D N H). destruct (input_prefix (c :: i) h) as [j|]; [|reflexivity].
  cbn [app_rest option_map]. rewrite (delimited_app j rest D). now destruct (delimited j).
Qed.
Lemma dprefix_app h i rest : delimited rest = true -> no_delim h = true -> delimited_prefix (i ++ rest) h = app_rest rest (delimited_prefix i h).
Proof.
  intros D N. unfold delimited_prefix. rewrite (prefix_app h i rest D N). destruct (input_prefix i h) as [j|]; [|reflexivity].
  cbn [app_rest option_map]. rewrite (delimited_app j rest D). now destruct (delimited j).
Qed.
Lemma dprefix_ci_app_cons c i h rest : delimited rest = true -> no_delim_ci (tl h) = true -> h <> [] ->
  delimited_prefix_ci ((c :: i) ++ rest) h = app_rest rest (delimited_prefix_ci (c :: i) h).
Proof.
  intros D N H. unfold delimited_prefix_ci. rewrite (prefix_ci_app_cons c i h rest D N H). destruct (input_prefix_ci (c :: i) h) as [j|]; [|reflexivity].
  cbn [app_rest option_map]. rewrite (delimited_app j rest D). now destruct (delimited j).
Qed.
Lemma span_rest p i rest : delimited rest = true -> (forall c, char_delimiter c = true -> p c = false) ->
  span p (i ++ rest) = let (a, b) := span p i in (a, b ++ rest).
Proof.
  intros D H. induction i as [|c i IH]; cbn [app span].
  - destruct rest as [|c rest]; [reflexivity|]. cbn [span]. cbn [delimited] in D. now rewrite (H c D).
  - destruct (p c); [|reflexivity]. rewrite IH. now destruct (span p i).
Qed.

(** ** numbers *)
Section Num.
Variables (radix : Z) (rest : text).
Hypothesis D : delimited rest = true.
Definition carries (f : text -> rres (sx * text)) : Prop := forall i d j, f i = ROk (d, j) -> f (i ++ rest) = ROk (d, j ++ rest).
Lemma uloop_app r neg : forall i digits, uinteger_loop r neg (i ++ rest) digits = (fst (uinteger_loop r neg i digits), snd (uinteger_loop r neg i digits) ++ rest).
Proof.
  induction i as [|c i IH]; intros digits; cbn [app uinteger_loop].
  - destruct rest as [|c rest']; [reflexivity|]. cbn [uinteger_loop]. cbn [delimited] in D. now rewrite (delim_digit c r D).
  - destruct (char_digit_value c r); [apply IH|reflexivity].
Qed.
Lemma uinteger_carries neg : carries (fun i => uinteger radix i neg).
Proof.
  intros i d j. unfold uinteger. rewrite uloop_app. destruct (uinteger_loop radix neg i []) as [[x|] k]; cbn [lift_int fst snd]; [|discriminate].
  intros E. now injection E as <- <-.
Qed.
Lemma integer_carries : carries (integer radix).
Proof.
  intros i d j. unfold integer, subread_integer. destruct i as [|c i]; [discriminate|]. cbn [app].
  destruct (c =? 43); [apply (uinteger_carries false)|]. destruct (c =? 45); [apply (uinteger_carries true)|]. apply (uinteger_carries false (c :: i)).
Qed.
Lemma fraction_carries : forall i digits d j, decimal_fraction i digits = ROk (d, j) -> decimal_fraction (i ++ rest) digits = ROk (d, j ++ rest).
Proof.
  induction i as [|c i IH]; intros digits d j; cbn [app decimal_fraction].
  - intros E. destruct rest as [|c rest'].
    { cbn [decimal_fraction]. rewrite app_nil_r. exact E. }
    cbn [decimal_fraction]. cbn [delimited] in D. rewrite (delim_digit c 10 D).
    destruct (fraction_datum digits); cbn [Model_Read.rbind] in *; try discriminate E. now injection E as <- <-.
  - destruct (char_digit_value c 10); [apply IH|]. destruct (fraction_datum digits); cbn [Model_Read.rbind]; try discriminate. intros E. now injection E as <- <-.
Qed.
Lemma suffix_carries d1 d2 : carries (decimal_suffix radix d1 d2).
Proof.
  intros i d j. unfold decimal_suffix. destruct i as [|c i]; cbn [app].
  - intros E. destruct (decimal_datum (sym "e") d1 d2 (xint0 false)) as [x| | |]; cbn [Model_Read.rbind] in *; try discriminate E. injection E as <- <-.
    destruct rest as [|c rest']; [reflexivity|]. cbn [delimited] in D. now rewrite (delim_exp c D).
  - destruct (char_exponent_marker c).
    + destruct (integer radix i) as [[x k]| | |] eqn:E; cbn [Model_Read.rbind]; try discriminate. rewrite (integer_carries _ _ _ E). cbn [Model_Read.rbind fst snd].
      destruct (decimal_datum _ d1 d2 x); cbn [Model_Read.rbind]; try discriminate. intros X. now injection X as <- <-.
    + destruct (decimal_datum _ d1 d2 _); cbn [Model_Read.rbind]; try discriminate. intros X. now injection X as <- <-.
Qed.
Lemma decimal_carries d1 : carries (decimal radix d1).
Proof.
  intros i d j. unfold decimal. rewrite (prefix_app (str ".") i rest D eq_refl). destruct (input_prefix i (str ".")) as [k|]; cbn [app_rest option_map].
  - destruct k as [|c k].
    + intros E. apply suffix_carries in E. cbn [app] in *. destruct rest as [|c rest']; [exact E|]. cbn [delimited] in D. now rewrite (delim_num c D).
    + cbn [app]. destruct (char_numeric c); [|apply (suffix_carries d1 _ (c :: k))].
      destruct (decimal_fraction (c :: k) []) as [[x m]| | |] eqn:E; cbn [Model_Read.rbind]; try discriminate.
      change (c :: k ++ rest) with ((c :: k) ++ rest). rewrite (fraction_carries _ _ _ _ E). cbn [Model_Read.rbind fst snd]. apply suffix_carries.
  - destruct i as [|c i]; [discriminate|]. cbn [app]. destruct (char_exponent_marker c); [|discriminate]. apply (suffix_carries d1 _ (c :: i)).
Qed.
Lemma some_app x : match app_rest rest x with Some _ => true | None => false end = match x with Some _ => true | None => false end.
Proof. now destruct x. Qed.
Lemma real_carries : carries (real radix).
Proof.
  intros i d j. unfold real. destruct (integer radix i) as [[d1 k]| | |] eqn:E; cbn [Model_Read.rbind]; try discriminate. rewrite (integer_carries _ _ _ E). cbn [Model_Read.rbind].
  rewrite (prefix_app (str "/") k rest D eq_refl). destruct (input_prefix k (str "/")) as [m|]; cbn [app_rest option_map].
  - destruct (uinteger radix m false) as [[d2 q]| | |] eqn:F; cbn [Model_Read.rbind]; try discriminate. rewrite (uinteger_carries false _ _ _ F).
    cbn [Model_Read.rbind fst snd]. intros X. now injection X as <- <-.
  - rewrite (prefix_app (str ".") k rest D eq_refl), some_app.
    replace (match k ++ rest with [] => false | c :: _ => char_exponent_marker c end) with (match k with [] => false | c :: _ => char_exponent_marker c end).
    2:{ destruct k as [|c k]; [|reflexivity]. cbn [app]. destruct rest as [|c rest']; [reflexivity|]. cbn [delimited] in D. now rewrite (delim_exp c D). }
    destruct (_ && _); [apply decimal_carries|]. destruct (_ && _); [apply decimal_carries|]. intros X. now injection X as <- <-.
Qed.
Lemma tl_app i : i <> [] -> tl (i ++ rest) = tl i ++ rest. Proof. destruct i; [contradiction|reflexivity]. Qed.
Lemma naninf_carries : carries (real_naninf radix).
Proof.
  intros i d j. unfold real_naninf.
  rewrite (dprefix_app (str "-nan.0") i rest D eq_refl). destruct (delimited_prefix i (str "-nan.0")) as [k|]; cbn [app_rest option_map]; [intros X; now injection X as <- <-|].
  rewrite (dprefix_app (str "+nan.0") i rest D eq_refl). destruct (delimited_prefix i (str "+nan.0")) as [k|]; cbn [app_rest option_map]; [intros X; now injection X as <- <-|].
  rewrite (dprefix_app (str "-inf.0") i rest D eq_refl). destruct (delimited_prefix i (str "-inf.0")) as [k|]; cbn [app_rest option_map]; [intros X; now injection X as <- <-|].
  rewrite (dprefix_app (str "+inf.0") i rest D eq_refl). destruct (delimited_prefix i (str "+inf.0")) as [k|]; cbn [app_rest option_map]; [intros X; now injection X as <- <-|].
  rewrite (prefix_app (str ".") i rest D eq_refl), (prefix_app (str "+.") i rest D eq_refl), (prefix_app (str "-.") i rest D eq_refl), !some_app.
  destruct (_ && match input_prefix i (str ".") with Some _ => true | None => false end); [apply decimal_carries|].
  destruct (_ && match input_prefix i (str "+.") with Some _ => true | None => false end) eqn:E1.
  { rewrite tl_app; [apply decimal_carries|]. intros ->. now rewrite andb_false_r in E1. }
  destruct (_ && match input_prefix i (str "-.") with Some _ => true | None => false end) eqn:E2.
  { rewrite tl_app; [apply decimal_carries|]. intros ->. now rewrite andb_false_r in E2. }
  apply real_carries.
Qed.
Lemma complex_carries : carries (complex radix).
Proof.
  intros i d j. unfold complex.
  rewrite (dprefix_app (str "+i") i rest D eq_refl). destruct (delimited_prefix i (str "+i")) as [k|]; cbn [app_rest option_map]; [intros X; now injection X as <- <-|].
  rewrite (dprefix_app (str "-i") i rest D eq_refl). destruct (delimited_prefix i (str "-i")) as [k|]; cbn [app_rest option_map]; [intros X; now injection X as <- <-|].
  destruct (real_naninf radix i) as [[d1 k]| | |] eqn:E; cbn [Model_Read.rbind]; try discriminate. rewrite (naninf_carries _ _ _ E). cbn [Model_Read.rbind].
  rewrite (prefix_app (str "@") k rest D eq_refl). destruct (input_prefix k (str "@")) as [m|]; cbn [app_rest option_map].
  { destruct (real_naninf radix m) as [[d2 q]| | |] eqn:F; cbn [Model_Read.rbind]; try discriminate. rewrite (naninf_carries _ _ _ F). cbn [Model_Read.rbind fst snd].
    intros X. now injection X as <- <-. }
  rewrite (prefix_app (str "i") k rest D eq_refl). destruct (input_prefix k (str "i")) as [m|]; cbn [app_rest option_map]; [intros X; now injection X as <- <-|].
  rewrite (prefix_app (str "+") k rest D eq_refl), (prefix_app (str "-") k rest D eq_refl).
  assert (Q : Model_Read.rbind (real_naninf radix k) (fun di => Model_Read.rbind (skip_expected (snd di) (str "i")) (fun i' => ROk (datum "rectangular" [d1; fst di], i'))) = ROk (d, j) ->
     Model_Read.rbind (real_naninf radix (k ++ rest)) (fun di => Model_Read.rbind (skip_expected (snd di) (str "i")) (fun i' => ROk (datum "rectangular" [d1; fst di], i'))) = ROk (d, j ++ rest)).
  { destruct (real_naninf radix k) as [[d2 q]| | |] eqn:F; cbn [Model_Read.rbind]; try discriminate. rewrite (naninf_carries _ _ _ F). cbn [Model_Read.rbind fst snd].
    unfold skip_expected. rewrite (prefix_app (str "i") q rest D eq_refl). destruct (input_prefix q (str "i")); cbn [app_rest option_map Model_Read.rbind]; try discriminate.
    intros X. now injection X as <- <-. }
  destruct (input_prefix k (str "+")); cbn [app_rest option_map]; [exact Q|]. destruct (input_prefix k (str "-")); cbn [app_rest option_map]; [exact Q|].
  intros X. now injection X as <- <-.
Qed.
Lemma number_carries e i d j : subread_number i e radix = ROk (d, j) -> subread_number (i ++ rest) e radix = ROk (d, j ++ rest).
Proof.
  unfold subread_number. destruct (complex radix i) as [[x k]| | |] eqn:E; cbn [Model_Read.rbind]; try discriminate. rewrite (complex_carries _ _ _ E). cbn [Model_Read.rbind fst snd].
  unfold check_delimited. rewrite (delimited_app k rest D). destruct (delimited k); cbn [Model_Read.rbind]; try discriminate. intros X. now injection X as <- <-.
Qed.

(** ** characters *)
Lemma hex_carries i n j : hex_scalar_value i = ROk (n, j) -> hex_scalar_value (i ++ rest) = ROk (n, j ++ rest).
Proof.
  unfold hex_scalar_value. rewrite !hex_value_eq, uloop_app. destruct (uinteger_loop 16 false i []) as [[x|] k]; cbn [fst snd Model_Read.rbind]; [|discriminate].
  destruct (id_width x) as [w|]; [|discriminate]. destruct (24 <? w); [discriminate|]. destruct (string_to_fixnum _ _ _); [|discriminate]. intros X. now injection X as <- <-.
Qed.
Lemma char_carries : carries subread_char.
Proof.
  intros i d j. unfold subread_char. destruct i as [|c i]; [discriminate|]. cbn [app]. rewrite (delimited_app i rest D). destruct (delimited i); [intros X; now injection X as <- <-|].
  destruct (c =? 120).
  - destruct (hex_scalar_value i) as [[n k]| | |] eqn:E; cbn [Model_Read.rbind]; try discriminate. rewrite (hex_carries _ _ _ E). cbn [Model_Read.rbind fst snd].
    rewrite (delimited_app k rest D). destruct (delimited k); [|discriminate]. intros X. now injection X as <- <-.
  - change (c :: i ++ rest) with ((c :: i) ++ rest). rewrite (span_rest _ (c :: i) rest D delim_alpha). destruct (span char_alphabetic (c :: i)) as [name k].
    rewrite (delimited_app k rest D). destruct (delimited k); [|discriminate]. destruct (lookup_name name char_names); [|discriminate]. intros X. now injection X as <- <-.
Qed.
End Num.

(** ** strings *)
Lemma escape_app i x j rest : string_escape i = ROk (x, j) -> string_escape (i ++ rest) = ROk (x, j ++ rest).
Proof.
  unfold string_escape. destruct i as [|c i]; [discriminate|]. cbn [app].
  repeat match goal with |- context[if ?c =? ?k then _ else _] => destruct (c =? k); [try (intros X; now injection X as <- <-)|] end; [|discriminate].
  destruct (hex_scalar_value i) as [[n k]| | |] eqn:E; cbn [Model_Read.rbind fst snd]; try discriminate. destruct k as [|y k]; [discriminate|].
  destruct (Z.eqb_spec y 59) as [->|]; [|discriminate]. intros X. injection X as <- <-.
  (* the text before the semicolon is read in the same way *)
  assert (A : exists a, i = a ++ 59 :: k).
  { pose proof (hex_scalar_ok i) as H. rewrite E in H. destruct H as [_ [a [_ H]]]. now exists a. }
  destruct A as [a ->].
  assert (E' : hex_scalar_value (a ++ 59 :: (k ++ rest)) = ROk (n, 59 :: k ++ rest)).
  { revert E. unfold hex_scalar_value. rewrite !hex_value_eq.
    assert (L : forall digits, uinteger_loop 16 false (a ++ 59 :: k) digits = (fst (uinteger_loop 16 false (a ++ [59]) digits), snd (uinteger_loop 16 false (a ++ [59]) digits) ++ k) /\
                uinteger_loop 16 false (a ++ 59 :: k ++ rest) digits = (fst (uinteger_loop 16 false (a ++ [59]) digits), snd (uinteger_loop 16 false (a ++ [59]) digits) ++ k ++ rest)).
    { clear. induction a as [|c a IH]; intros digits; cbn [app uinteger_loop]; [now split|]. destruct (char_digit_value c 16); [apply IH|].
      cbn [fst snd app]. rewrite <- !app_assoc. now split. }
    destruct (L []) as [-> ->]. destruct (uinteger_loop 16 false (a ++ [59]) []) as [[x|] m]; cbn [fst snd Model_Read.rbind]; [|discriminate].
    destruct (id_width x) as [w|]; [|discriminate]. destruct (24 <? w); [discriminate|]. destruct (string_to_fixnum _ _ _); [|discriminate].
    intros X. injection X as -> X. rewrite app_assoc, X. reflexivity. }
  rewrite <- app_assoc. cbn [app]. rewrite E'. cbn [Model_Read.rbind fst snd]. reflexivity.
Qed.
Lemma string_loop_app rest : forall n i lst d j, string_loop n i lst = ROk (d, j) -> forall m, (n <= m)%nat -> string_loop m (i ++ rest) lst = ROk (d, j ++ rest).
Proof.
  induction n as [|n IH]; intros i lst d j E m L; [discriminate E|]. destruct m as [|m]; [lia|]. cbn [string_loop] in *. destruct i as [|c i]; [discriminate E|]. cbn [app].
  destruct (c =? 34); [now injection E as <- <-|]. destruct (c =? 92).
  - destruct (string_escape i) as [[x k]| | |] eqn:X; cbn [Model_Read.rbind fst snd] in *; try discriminate E. rewrite (escape_app _ _ _ rest X). cbn [Model_Read.rbind fst snd].
    now apply IH with (m := m) in E; [|lia].
  - now apply IH with (m := m) in E; [|lia].
Qed.
Lemma string_app i d j rest : subread_string i = ROk (d, j) -> subread_string (i ++ rest) = ROk (d, j ++ rest).
Proof.
  unfold subread_string, skip_expected. destruct (input_prefix i [34]) as [k|] eqn:P; cbn [Model_Read.rbind]; [|discriminate]. rewrite (prefix_some _ _ _ rest P). cbn [Model_Read.rbind].
  intros E. apply (string_loop_app rest _ _ _ _ _ E). rewrite app_length. lia.
Qed.

(** ** the lexer *)
Lemma not_ord_eof : ~ ordinary eof. Proof. intros O. now destruct (ord_types _ O) as [H _]. Qed.
Lemma not_ord_atm : ~ ordinary atmosphere. Proof. intros O. now destruct (ord_types _ O) as [_ [H _]]. Qed.
Lemma not_ord_term c : ~ ordinary (terminator c). Proof. intros O. now destruct (ord_types _ O) as [_ [_ [_ H]]]. Qed.
Lemma lex_res_data x d j : lex_res x = LData d j -> x = ROk (d, j).
Proof. destruct x as [[d' j']| | |]; cbn [lex_res]; try discriminate. intros E. now injection E as <- <-. Qed.
Lemma number_nonempty i e radix d j : subread_number i e radix = ROk (d, j) -> exists c i', i = c :: i' /\ c <> 35.
Proof.
  intros E. destruct i as [|c i].
  { unfold subread_number, complex, real_naninf in E. cbn [input_prefix delimited_prefix str codes] in E.
    change (delimited_prefix [] (str "+i")) with (@None text) in E. destruct (radix =? 10); discriminate E. }
  exists c, i. split; [reflexivity|]. intros ->. unfold subread_number in E.
  assert (X : complex radix (35 :: i) = RErr).
  { unfold complex. change (delimited_prefix (35 :: i) (str "+i")) with (@None text). change (delimited_prefix (35 :: i) (str "-i")) with (@None text).
    unfold real_naninf. change (delimited_prefix (35 :: i) (str "-nan.0")) with (@None text). change (delimited_prefix (35 :: i) (str "+nan.0")) with (@None text).
    change (delimited_prefix (35 :: i) (str "-inf.0")) with (@None text). change (delimited_prefix (35 :: i) (str "+inf.0")) with (@None text).
    change (input_prefix (35 :: i) (str ".")) with (@None text). change (input_prefix (35 :: i) (str "+.")) with (@None text). change (input_prefix (35 :: i) (str "-.")) with (@None text).
    rewrite !andb_false_r. unfold real. change (integer radix (35 :: i)) with (@RErr (sx * text)). reflexivity. }
  rewrite X in E. discriminate E.
Qed.
(** number prefixes: those tried before the one that matches do not match the longer text either *)
Lemma prefix_ci_len : forall h i j, input_prefix_ci i h = Some j -> (List.length i = List.length h + List.length j)%nat.
Proof.
  induction h as [|c h IH]; intros i j E; destruct i as [|x i]; cbn [input_prefix_ci] in E; try (injection E as <-; reflexivity); try discriminate.
  destruct (_ =? _); [|discriminate]. apply IH in E. cbn [List.length]. lia.
Qed.
Lemma prefix_ci_some h : forall i j rest, input_prefix_ci i h = Some j -> input_prefix_ci (i ++ rest) h = Some (j ++ rest).
Proof.
  induction h as [|c h IH]; intros i j rest E; destruct i as [|x i]; cbn [input_prefix_ci app] in *; try discriminate; try (injection E as <-; now destruct rest).
  destruct (_ =? _); [|discriminate]. now apply IH.
Qed.
Lemma prefix_ci_none h : forall i rest, input_prefix_ci i h = None -> (List.length h <= List.length i)%nat -> input_prefix_ci (i ++ rest) h = None.
Proof.
  induction h as [|c h IH]; intros i rest E L; [destruct i; discriminate E|]. destruct i as [|x i]; cbn [List.length] in L; [lia|]. cbn [input_prefix_ci app] in *.
  destruct (_ =? _); [|reflexivity]. apply IH; [exact E|lia].
Qed.
Lemma find_number_app a rest i2 e radix d j : find_number_prefix a number_prefixes = Some (i2, (e, radix)) -> subread_number i2 e radix = ROk (d, j) ->
  find_number_prefix (a ++ rest) number_prefixes = Some (i2 ++ rest, (e, radix)).
Proof.
  intros F N. destruct (number_nonempty _ _ _ _ _ N) as (c & i' & -> & C).
  destruct (Nat.le_gt_cases 4 (List.length a)) as [L|L].
  - assert (B : forallb (fun x : text * (option string * Z) => (List.length (fst x) <=? 4)%nat) number_prefixes = true) by reflexivity.
    revert F B. generalize number_prefixes. induction l as [|[p er] l IH]; cbn [find_number_prefix forallb fst]; [discriminate|]. intros F B.
    apply andb_prop in B. destruct B as [B1 B2]. apply Nat.leb_le in B1. destruct (input_prefix_ci a p) as [k|] eqn:P.
    + injection F as -> ->. now rewrite (prefix_ci_some _ _ _ rest P).
    + rewrite (prefix_ci_none _ _ rest P) by lia. now apply IH.
  - (* a = # letter c *)
    assert (A : exists x y, a = [x; y; c] /\ i' = []).
    { assert (H : exists p, input_prefix_ci a p = Some (c :: i') /\ (2 <= List.length p)%nat).
      { assert (B : forallb (fun x : text * (option string * Z) => (2 <=? List.length (fst x))%nat) number_prefixes = true) by reflexivity.
        revert F B. generalize number_prefixes. induction l as [|[p er] l IH]; cbn [find_number_prefix forallb fst]; [discriminate|]. intros F B.
        apply andb_prop in B. destruct B as [B1 B2]. apply Nat.leb_le in B1. destruct (input_prefix_ci a p) as [k|] eqn:P; [injection F as -> ->; eauto|]. now apply IH. }
      destruct H as (p & P & Lp). pose proof (prefix_ci_len _ _ _ P) as PL. cbn [List.length] in PL.
      destruct a as [|x [|y [|z a]]]; cbn [List.length] in *; try lia. destruct a as [|? ?]; cbn [List.length] in *; [|lia].
      destruct i' as [|? ?]; cbn [List.length] in *; [|lia]. exists x, y. split; [|reflexivity]. f_equal. f_equal. f_equal.
      destruct p as [|u [|v [|w p]]]; cbn [List.length] in *; try lia. cbn [input_prefix_ci] in P. destruct (_ =? _); [|discriminate]. destruct (_ =? _); [|discriminate].
      now injection P as ->. }
    destruct A as (x & y & -> & ->). cbn [app].
    assert (Q : forall p, In p (map fst number_prefixes) -> input_prefix_ci (x :: y :: c :: rest) p = option_map (fun j => j ++ rest) (input_prefix_ci [x; y; c] p)).
    { intros p I. vm_compute in I. repeat (destruct I as [<-|I]; [cbn [input_prefix_ci]|]); try contradiction I.
      all: change (char_downcase 35) with 35.
      all: destruct (char_downcase x =? 35); try reflexivity; destruct (char_downcase y =? _); try reflexivity.
      all: destruct (Z.eqb_spec (char_downcase c) 35) as [Hc|]; try reflexivity; exfalso; apply C; unfold char_downcase in Hc; destruct ((65 <=? c) && (c <=? 90)) eqn:Hb; lia. }
    revert F Q. generalize number_prefixes. induction l as [|[p er] l IH]; cbn [find_number_prefix map fst]; [discriminate|]. intros F Q.
    rewrite (Q p ltac:(now left)). destruct (input_prefix_ci [x; y; c] p) as [k|]; cbn [option_map].
    + injection F as -> ->. reflexivity.
    + apply IH; [exact F|]. intros q I. apply Q. now right.
Qed.
Lemma find_number_none a rest : (forall c i, a = c :: i -> True) -> a <> [] -> delimited rest = true -> find_number_prefix a number_prefixes = None ->
  hd 0 a <> 35 -> find_number_prefix (a ++ rest) number_prefixes = None.
Proof.
  intros _ N D F H. destruct a as [|c a]; [contradiction|]. cbn [hd app] in *.
  assert (B : forallb (fun x : text * (option string * Z) => hd 0 (fst x) =? 35) number_prefixes = true) by reflexivity.
  clear F. revert B. generalize number_prefixes. induction l as [|[p er] l IH]; cbn [find_number_prefix forallb fst]; [reflexivity|]. intros B.
  apply andb_prop in B. destruct B as [B1 B2]. apply Z.eqb_eq in B1. destruct p as [|x p]; [discriminate B1|]. cbn [hd] in B1. subst x. cbn [input_prefix_ci].
  change (char_downcase 35) with 35. destruct (Z.eqb_spec (char_downcase c) 35) as [E|]; [|now apply IH].
  exfalso. apply H. unfold char_downcase in E. destruct ((65 <=? c) && (c <=? 90)) eqn:Hb; lia.
Qed.
Lemma lex_token a d rest : lex a = LData d [] -> ordinary d -> input_prefix a (str "#<<") = None -> delimited rest = true -> lex (a ++ rest) = LData d rest.
Proof.
  intros L O NH D. destruct a as [|c i].
  { exfalso. apply not_ord_eof. injection L as <-. exact O. }
  unfold lex in *. change ((c :: i) ++ rest) with (c :: (i ++ rest)). cbv iota beta in *.
  destruct (char_whitespace c).
  { exfalso. destruct (whitespace_loop i) as [d' j] eqn:E. injection L as <- ->. destruct (ws_good _ _ _ E) as [[-> _]|[_ ->]]; [exact (not_ord_eof O)|exact (not_ord_atm O)]. }
  destruct (c =? 59).
  { exfalso. destruct (line_loop i) as [d' j] eqn:E. injection L as <- ->. destruct (line_good _ _ _ E) as [[-> _]|[_ ->]]; [exact (not_ord_eof O)|exact (not_ord_atm O)]. }
  destruct (char_initial c).
  { rewrite (span_rest _ i rest D delim_subsequent). destruct (span char_subsequent i) as [s j]. injection L as <- ->. reflexivity. }
  change (c :: i ++ rest) with ((c :: i) ++ rest).
  rewrite (prefix_ci_app_cons c i (str "->") rest D eq_refl ltac:(discriminate)). destruct (input_prefix_ci (c :: i) (str "->")) as [j|]; cbn [app_rest option_map].
  { rewrite (span_rest _ j rest D delim_subsequent). destruct (span char_subsequent j) as [s k]. injection L as <- ->. reflexivity. }
  rewrite (dprefix_app_cons c i (str ".") rest D eq_refl ltac:(discriminate)). destruct (delimited_prefix (c :: i) (str ".")) as [j|]; cbn [app_rest option_map].
  { exfalso. injection L as <- ->. exact (not_ord_term _ O). }
  rewrite (dprefix_app_cons c i (str "+") rest D eq_refl ltac:(discriminate)). destruct (delimited_prefix (c :: i) (str "+")) as [j|]; cbn [app_rest option_map]; [injection L as <- ->; reflexivity|].
  rewrite (dprefix_app_cons c i (str "-") rest D eq_refl ltac:(discriminate)). destruct (delimited_prefix (c :: i) (str "-")) as [j|]; cbn [app_rest option_map]; [injection L as <- ->; reflexivity|].
  rewrite (dprefix_app_cons c i (str "...") rest D eq_refl ltac:(discriminate)). destruct (delimited_prefix (c :: i) (str "...")) as [j|]; cbn [app_rest option_map]; [injection L as <- ->; reflexivity|].
  rewrite (dprefix_ci_app_cons c i (str "#t") rest D eq_refl ltac:(discriminate)). destruct (delimited_prefix_ci (c :: i) (str "#t")) as [j|]; cbn [app_rest option_map]; [injection L as <- ->; reflexivity|].
  rewrite (dprefix_ci_app_cons c i (str "#f") rest D eq_refl ltac:(discriminate)). destruct (delimited_prefix_ci (c :: i) (str "#f")) as [j|]; cbn [app_rest option_map]; [injection L as <- ->; reflexivity|].
  destruct (find_number_prefix (c :: i) number_prefixes) as [[j [e r]]|] eqn:P8.
  { apply lex_res_data in L. rewrite (find_number_app (c :: i) rest j e r d [] P8 L). rewrite (number_carries r rest D e j d [] L). reflexivity. }
  destruct (char_number_initial c) eqn:NI.
  { rewrite (find_number_none (c :: i) rest ltac:(auto) ltac:(discriminate) D P8).
    2:{ cbn [hd]. intros ->. discriminate NI. }
    apply lex_res_data in L. rewrite (number_carries 10 rest D None (c :: i) d [] L). reflexivity. }
  destruct (input_prefix (c :: i) [35; 92]) as [j|] eqn:P9.
  { apply lex_res_data in L. pose proof (prefix_eq _ _ _ P9) as E. cbn [app] in E. injection E as -> ->.
    replace (find_number_prefix ((35 :: 92 :: j) ++ rest) number_prefixes) with (@None (text * (option string * Z))) by reflexivity.
    replace (input_prefix ((35 :: 92 :: j) ++ rest) [35; 92]) with (Some (j ++ rest)) by (cbn; now destruct (j ++ rest)).
    rewrite (char_carries rest D j d [] L). reflexivity. }
  destruct (Z.eqb_spec c 34) as [->|C34].
  { apply lex_res_data in L. replace (find_number_prefix ((34 :: i) ++ rest) number_prefixes) with (@None (text * (option string * Z))) by reflexivity.
    replace (input_prefix ((34 :: i) ++ rest) [35; 92]) with (@None text) by reflexivity. rewrite (string_app _ _ _ rest L). reflexivity. }
  rewrite NH in L. exfalso. revert L.
  repeat match goal with
  | |- context[match ?x with Some _ => _ | None => _ end] => destruct x
  | |- context[match ?x with ROk _ => _ | RErr => _ | RCrash => _ | RFuel => _ end] => destruct x as [[? ?]| | |]
  | |- context[if ?b then _ else _] => destruct b
  end; try discriminate.
  all: try (intros E; injection E as <- _; exact (not_ord_term _ O)).
  all: intros E; apply lex_res_data in E.
  all: match type of E with block_loop 0 ?t = _ => pose proof (block_good _ t 0 (le_n _)) as B; rewrite E in B; destruct B as [-> _]; exact (not_ord_atm O) end.
Qed.
(** strings need no delimiter *)
Lemma lex_string_token i d rest : lex (34 :: i) = LData d [] -> lex ((34 :: i) ++ rest) = LData d rest.
Proof.
  assert (L : forall j, lex (34 :: j) = lex_res (subread_string (34 :: j))) by reflexivity.
  cbn [app]. rewrite !L. intros E. apply lex_res_data in E. change (34 :: i ++ rest) with ((34 :: i) ++ rest). now rewrite (string_app _ _ _ rest E).
Qed.
