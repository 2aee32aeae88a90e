(** Written objects are texts of trees that mean them (C18). *)
From Coq Require Import ZArith String List Bool Lia.
From Verif Require Import Base Model_Sym Model_Num Spec_Num Proofs_Num Model_Lit Spec_Lit Proofs_Lit Model_Read Spec_Read Proofs_ReadTerm Proofs_ReadLex Proofs_ReadGap Proofs_ReadDots Model_Write Spec_Write.
Import ListNotations.
Open Scope Z_scope.

(** ** tokens from the lexer *)
Lemma lex_tok a d : token_start a -> lex a = LData d [] -> ordinary d -> token a d.
Proof.
  intros T L O. split; [exact T|]. split; [|exact O]. unfold reads_as, read_text, enough.
  replace (2 * List.length a + 4)%nat with (S (S (2 * List.length a + 2))) by lia. cbn [subread_top rd find_ext]. rewrite L. cbn [Model_Read.rbind].
  destruct (ord_types d O) as (E1 & E2 & E3 & E4). now rewrite E2, E3, E4.
Qed.
Lemma elems_xlist l : elems (xlist l) = Some l.
Proof. induction l as [|x l IH]; [reflexivity|]. cbn [xlist elems]. now rewrite IH. Qed.

(** ** conversion of each type *)
Lemma sexp_symbol l : l <> [] -> sexp (datum "symbol" l) = match sexp_chars l with Some t => VSym (c_chars t) | None => VProc (datum "symbol" l) end.
Proof. intros N. unfold datum. cbn [sexp]. rewrite elems_xlist. destruct l as [|x l]; [contradiction|]. reflexivity. Qed.
Lemma sexp_string l : l <> [] -> sexp (datum "string" l) = match sexp_chars l with Some t => VStr t | None => VProc (datum "string" l) end.
Proof. intros N. unfold datum. cbn [sexp]. rewrite elems_xlist. destruct l as [|x l]; [contradiction|]. reflexivity. Qed.
Lemma sexp_pair a b : sexp (datum "pair" [a; b]) = VPair (sexp a) (sexp b).
Proof. reflexivity. Qed.
Lemma sexp_box a : sexp (datum "box" [a]) = VBox (sexp a).
Proof. reflexivity. Qed.
Lemma sexp_vector l : sexp (datum "vector" l) = VVec (map sexp l).
Proof.
  transitivity (VVec ((fix all (r : sx) : list value := match r with XCons a r' => sexp a :: all r' | _ => [] end) (xlist l))).
  - unfold datum. cbn [sexp]. rewrite elems_xlist. reflexivity.
  - f_equal. induction l as [|x l IH]; [reflexivity|]. cbn [xlist map]. now rewrite <- IH.
Qed.

(** ** characters of strings and symbols *)
Definition chr8 (c : Z) : Prop := 0 <= c <= 255.
Lemma width8 s : Forall chr8 s -> fold_max 8 (map codepoint_byte_width s) = 8.
Proof.
  induction 1 as [|c s [L H] F IH]; [reflexivity|]. cbn [map fold_max]. unfold codepoint_byte_width at 1.
  destruct (Z.leb_spec c 255); [|lia]. exact IH.
Qed.
Lemma nums_ok s : Forall chr8 s -> forallb codepoint_8bit (map XNum s) = true.
Proof.
  induction 1 as [|c s [L H] F IH]; [reflexivity|]. cbn [map forallb codepoint_8bit]. rewrite IH. lia.
Qed.
Lemma nums_back s : map num_of (map XNum s) = s.
Proof. induction s as [|c s IH]; [reflexivity|]. cbn [map num_of]. now rewrite IH. Qed.
Lemma chars_back t s : Forall chr8 s -> exists l, chars_datum t s = datum t l /\ l <> [] /\ sexp_chars l = Some s.
Proof.
  intros F. unfold chars_datum. rewrite (width8 s F). cbn [Z.eqb Pos.eqb andb]. destruct (forallb string_safe_codepoint s).
  - exists [XStr s]. split; [reflexivity|]. split; [discriminate|reflexivity].
  - exists (XNum 8 :: map XNum s). split; [reflexivity|]. split; [discriminate|]. cbn [sexp_chars Z.eqb Pos.eqb andb]. now rewrite (nums_ok s F), nums_back.
Qed.
Lemma c_chars_id s : Forall (fun c => c <> 0) s -> c_chars s = s.
Proof. induction 1 as [|c s N F IH]; [reflexivity|]. cbn [c_chars]. rewrite IH. destruct (Z.eqb_spec c 0); [contradiction|reflexivity]. Qed.
Lemma chars_ordinary t l : In t ordinary_types -> ordinary (chars_datum t l).
Proof. intros I. unfold chars_datum. destruct (_ && _); eexists _, _; split; try exact I; reflexivity. Qed.

(** ** symbols *)
Definition ascii_range : list Z := map Z.of_nat (List.seq 0 128).
Lemma ascii_in c : 0 <= c < 128 -> In c ascii_range.
Proof. intros H. unfold ascii_range. apply in_map_iff. exists (Z.to_nat c). split; [lia|]. apply in_seq. lia. Qed.
Lemma same_class (p q : Z -> bool) l : (forall c, q c = string_position c l) -> (forall c, p c = true -> 0 <= c < 128) -> forallb (fun c => (0 <=? c) && (c <? 128)) l = true ->
  forallb (fun c => Bool.eqb (p c) (q c)) ascii_range = true -> forall c, p c = q c.
Proof.
  intros Q P L E c. rewrite forallb_forall in E, L. assert (R : q c = true -> 0 <= c < 128).
  { rewrite Q. unfold string_position. intros H. apply existsb_exists in H. destruct H as (x & I & X). apply Z.eqb_eq in X. subst x. specialize (L c I). lia. }
  destruct (p c) eqn:Pc.
  - specialize (E c (ascii_in c (P c Pc))). cbn in E. rewrite Pc in E. now apply Bool.eqb_prop in E.
  - destruct (q c) eqn:Qc; [|reflexivity]. specialize (E c (ascii_in c (R eq_refl))). cbn in E. rewrite Pc, Qc in E. discriminate E.
Qed.
Definition initialb (c : Z) : bool := ((65 <=? c) && (c <=? 90)) || ((97 <=? c) && (c <=? 122)) || existsb (Z.eqb c) [33; 36; 37; 38; 42; 47; 58; 60; 61; 62; 63; 94; 95; 126].
Definition subsequentb (c : Z) : bool := initialb c || ((48 <=? c) && (c <=? 57)) || existsb (Z.eqb c) [43; 45; 46; 64].
Lemma in_existsb c l : In c l <-> existsb (Z.eqb c) l = true.
Proof. rewrite existsb_exists. split; [intros I; exists c; split; [exact I|apply Z.eqb_refl]|intros (x & I & E); apply Z.eqb_eq in E; now subst x]. Qed.
Lemma initialb_is c : initial c <-> initialb c = true.
Proof.
  unfold initial, letter, initialb. change (codes "!$%&*/:<=>?^_~") with [33; 36; 37; 38; 42; 47; 58; 60; 61; 62; 63; 94; 95; 126]. rewrite in_existsb. generalize (existsb (Z.eqb c) [33; 36; 37; 38; 42; 47; 58; 60; 61; 62; 63; 94; 95; 126]).
  intros b. lia.
Qed.
Lemma subsequentb_is c : subsequent c <-> subsequentb c = true.
Proof.
  unfold subsequent, subsequentb. rewrite initialb_is. change (codes "+-.@") with [43; 45; 46; 64]. rewrite in_existsb. generalize (existsb (Z.eqb c) [43; 45; 46; 64]). intros b. lia.
Qed.
Lemma initialb_small c : initialb c = true -> 0 <= c < 128.
Proof. unfold initialb. rewrite !orb_true_iff, <- in_existsb. cbn [In]. lia. Qed.
Lemma subsequentb_small c : subsequentb c = true -> 0 <= c < 128.
Proof. unfold subsequentb. rewrite !orb_true_iff, <- in_existsb. cbn [In]. pose proof (initialb_small c). lia. Qed.
Lemma initial_is c : initial c <-> char_initial c = true.
Proof. rewrite initialb_is. now rewrite (same_class initialb char_initial _ (fun c => eq_refl) initialb_small eq_refl eq_refl c). Qed.
Lemma subsequent_is c : subsequent c <-> char_subsequent c = true.
Proof. rewrite subsequentb_is. now rewrite (same_class subsequentb char_subsequent _ (fun c => eq_refl) subsequentb_small eq_refl eq_refl c). Qed.
Lemma initial_range c : initial c -> 33 <= c <= 126 /\ c <> 35 /\ c <> 39 /\ c <> 40 /\ c <> 59 /\ c <> 91.
Proof. intros H. unfold initial, letter in H. change (codes "!$%&*/:<=>?^_~") with [33; 36; 37; 38; 42; 47; 58; 60; 61; 62; 63; 94; 95; 126] in H. cbn [In] in H. lia. Qed.
Lemma subsequent_range c : subsequent c -> 33 <= c <= 126.
Proof. intros [H|[H|H]]; [apply initial_range in H|..]; [lia|lia|]. change (codes "+-.@") with [43; 45; 46; 64] in H. cbn [In] in H. lia. Qed.
Lemma span_all p s : forallb p s = true -> span p s = (s, []).
Proof. induction s as [|c s IH]; [reflexivity|]. cbn [forallb span]. intros H. apply andb_prop in H. destruct H as [-> H]. now rewrite IH. Qed.
Lemma subs_all t : Forall subsequent t -> forallb char_subsequent t = true.
Proof. intros F. apply forallb_forall. rewrite Forall_forall in F. intros x I. apply subsequent_is. now apply F. Qed.
Lemma symbol_token s : identifier s -> exists d, token s d /\ sexp d = VSym s /\ c_chars s = s.
Proof.
  assert (K : forall s, s <> [] -> Forall (fun c => 33 <= c <= 126) s -> sexp (chars_datum "symbol" s) = VSym s /\ c_chars s = s).
  { intros u N F. assert (Z : c_chars u = u) by (apply c_chars_id; eapply Forall_impl; [|exact F]; cbn; intros; lia). split; [|exact Z].
    destruct (chars_back "symbol" u) as (l & E & Nl & S); [eapply Forall_impl; [|exact F]; unfold chr8; cbn; intros; lia|]. rewrite E, sexp_symbol, S by exact Nl. now rewrite Z. }
  intros [(c & t & -> & I & F)|[(t & -> & F)|[-> |[-> | ->]]]].
  - exists (chars_datum "symbol" (c :: t)). pose proof (initial_range c I) as R. split; [|apply K; [discriminate|constructor; [lia|eapply Forall_impl; [|exact F]; apply subsequent_range]]].
    apply lex_tok; [|..].
    + cbn [token_start]. split; [unfold white; lia|]. split; [cbn [In]; lia|lia].
    + unfold lex. assert (W : char_whitespace c = false) by (unfold char_whitespace, isspace; lia). rewrite W. destruct (Z.eqb_spec c 59); [lia|].
      apply initial_is in I. rewrite I, (span_all _ _ (subs_all t F)). reflexivity.
    + apply chars_ordinary. vm_compute. tauto.
  - exists (chars_datum "symbol" (45 :: 62 :: t)). split; [|apply K; [discriminate|constructor; [lia|constructor; [lia|eapply Forall_impl; [|exact F]; apply subsequent_range]]]].
    apply lex_tok; [|..].
    + cbn [token_start]. split; [unfold white; lia|]. split; [cbn [In]; lia|lia].
    + assert (L : lex (45 :: 62 :: t) = let (s, i3) := span char_subsequent t in LData (chars_datum "symbol" (45 :: 62 :: s)) i3) by (destruct t; reflexivity).
      rewrite L, (span_all _ _ (subs_all t F)). reflexivity.
    + apply chars_ordinary. vm_compute. tauto.
  - eexists. split; [apply lex_tok; [|reflexivity|ordi]|split; reflexivity]. change (codes "+") with [43]. cbn [token_start]. split; [unfold white; lia|]. split; [cbn [In]; lia|lia].
  - eexists. split; [apply lex_tok; [|reflexivity|ordi]|split; reflexivity]. change (codes "-") with [45]. cbn [token_start]. split; [unfold white; lia|]. split; [cbn [In]; lia|lia].
  - eexists. split; [apply lex_tok; [|reflexivity|ordi]|split; reflexivity]. change (codes "...") with [46; 46; 46]. cbn [token_start]. split; [unfold white; lia|]. split; [cbn [In]; lia|lia].
Qed.

(** ** characters *)
Lemma char_token c : 0 <= c <= 255 -> exists d, token (wrchar c) d /\ sexp d = VChr c.
Proof.
  intros H. unfold wrchar. destruct (Z.eqb_spec c 10) as [->|N1].
  { eexists. split; [apply lex_tok; [|reflexivity|ordi]|reflexivity]. split; [unfold white; lia|]. split; [cbn [In]; lia|]. intros _. cbn. split; [lia|]. split; discriminate. }
  destruct (Z.eqb_spec c 32) as [->|N2].
  { eexists. split; [apply lex_tok; [|reflexivity|ordi]|reflexivity]. split; [unfold white; lia|]. split; [cbn [In]; lia|]. intros _. cbn. split; [lia|]. split; discriminate. }
  exists (char_datum c). split; [apply lex_tok|].
  - cbn [token_start]. split; [unfold white; lia|]. split; [cbn [In]; lia|]. intros _. split; [cbn [In]; lia|]. split; discriminate.
  - reflexivity.
  - unfold char_datum. destruct (_ && _); ordi.
  - unfold char_datum, codepoint_byte_width. destruct (Z.leb_spec c 255); [|lia]. cbn [Z.eqb Pos.eqb andb]. destruct (string_safe_codepoint c); [reflexivity|].
    assert (E : codepoint_8bit (XNum c) = true) by (cbn [codepoint_8bit]; lia).
    transitivity (if codepoint_8bit (XNum c) then VChr c else VProc (datum "char" [XNum 8; XNum c])); [reflexivity|]. now rewrite E.
Qed.

(** ** strings *)
Lemma string_loop_wr s : forall n lst, (List.length (wrchars s ++ [34%Z]) <= n)%nat -> string_loop n (wrchars s ++ [34]) lst = ROk (chars_datum "string" (rev lst ++ s), []).
Proof.
  induction s as [|c s IH]; intros n lst L.
  - destruct n as [|n]; [cbn in L; lia|]. cbn [wrchars app string_loop Z.eqb Pos.eqb]. now rewrite app_nil_r.
  - cbn [wrchars] in *. destruct n as [|n]; [destruct (_ || _); cbn in L; lia|].
    destruct ((c =? 34) || (c =? 92)) eqn:E.
    + cbn [app string_loop Z.eqb Pos.eqb List.length] in *. assert (X : string_escape (c :: wrchars s ++ [34]) = ROk (c, wrchars s ++ [34])) by (apply orb_prop in E; destruct E as [E|E]; apply Z.eqb_eq in E; subst c; reflexivity).
      rewrite X. cbn [Model_Read.rbind fst snd]. rewrite IH by lia. cbn [rev]. now rewrite <- app_assoc.
    + apply orb_false_iff in E. destruct E as [E1 E2]. cbn [app string_loop List.length] in *. rewrite E1, E2, IH by lia. cbn [rev]. now rewrite <- app_assoc.
Qed.
Lemma string_token s : Forall chr8 s -> exists d, token (wrstring s) d /\ sexp d = VStr s.
Proof.
  intros F. exists (chars_datum "string" s). split.
  - apply lex_tok.
    + unfold wrstring. cbn [token_start]. split; [unfold white; lia|]. split; [cbn [In]; lia|lia].
    + unfold wrstring. transitivity (lex_res (subread_string (34 :: wrchars s ++ [34]))); [reflexivity|]. unfold subread_string.
      assert (X : skip_expected (34 :: wrchars s ++ [34]) [34] = ROk (wrchars s ++ [34])) by (unfold skip_expected; cbn [input_prefix Z.eqb Pos.eqb]; now destruct (wrchars s ++ [34])).
      rewrite X. cbn [Model_Read.rbind]. rewrite string_loop_wr by lia. reflexivity.
    + apply chars_ordinary. vm_compute. tauto.
  - destruct (chars_back "string" s F) as (l & E & Nl & S). now rewrite E, sexp_string, S by exact Nl.
Qed.

(** ** fixnums *)
Lemma digit_cases c : isdigit_in 10 c = true -> In c [48; 49; 50; 51; 52; 53; 54; 55; 56; 57].
Proof.
  intros H. unfold isdigit_in, digit_val in H. cbn [In].
  destruct ((48 <=? c) && (c <=? 57)) eqn:A; [lia|]. destruct ((97 <=? c) && (c <=? 122)) eqn:B; [lia|]. destruct ((65 <=? c) && (c <=? 90)) eqn:C; [lia|discriminate].
Qed.
Lemma fixnum_token z : -8388608 < z < 8388608 -> exists d, token (display_fixnum z) d /\ sexp d = VFix z.
Proof.
  intros H. destruct (print_ok z 10 ltac:(lia) ltac:(lia)) as (s & E & _ & ds & N & S). unfold display_fixnum. rewrite E. clear E.
  pose proof N as N'. apply natural_val in N'; [|lia]. destruct N' as (Nn & A & V). destruct ds as [|c ds]; [contradiction|].
  pose proof (digit_cases c (Forall_inv A)) as Dc.
  assert (Nu : numeral 10 s z).
  { subst s. destruct (Z.ltb_spec z 0); [replace z with (- Z.abs z) by lia; now apply num_minus|replace z with (Z.abs z) by lia; now apply num_pos]. }
  destruct (read_ok 10 s z [] ltac:(unfold radix_ok; cbn; lia) Nu I) as (d & R & D). rewrite app_nil_r in R.
  exists (xint d). split.
  - apply lex_tok.
    + subst s. destruct (z <? 0); cbn [token_start]; (split; [unfold white; cbn [In] in Dc; lia|]); (split; [cbn [In] in *; lia|cbn [In] in *; lia]).
    + assert (G : integer 10 s = ROk (xint d, [])) by (unfold integer; now rewrite R).
      assert (C : complex 10 s = ROk (xint d, [])).
      { assert (RN : real_naninf 10 s = ROk (xint d, [])).
        { transitivity (real 10 s); [|unfold real; rewrite G; reflexivity].
          subst s. destruct (z <? 0); repeat (destruct Dc as [<-|Dc]; [reflexivity|]); destruct Dc. }
        transitivity (Model_Read.rbind (real_naninf 10 s) (fun di => let (d1, i) := di in
            match input_prefix i (str "@") with
            | Some i' => Model_Read.rbind (real_naninf 10 i') (fun di => ROk (datum "polar" [d1; fst di], snd di))
            | None =>
            match input_prefix i (str "i") with
            | Some i' => ROk (datum "rectangular" [xint0 false; d1], i')
            | None =>
              match input_prefix i (str "+"), input_prefix i (str "-") with
              | None, None => ROk (d1, i)
              | _, _ => Model_Read.rbind (real_naninf 10 i) (fun di => Model_Read.rbind (skip_expected (snd di) (str "i")) (fun i' => ROk (datum "rectangular" [d1; fst di], i')))
              end
            end end)).
        - clear RN G R. subst s. destruct (z <? 0); repeat (destruct Dc as [<-|Dc]; [reflexivity|]); destruct Dc.
        - rewrite RN. reflexivity. }
      transitivity (lex_res (subread_number s None 10)).
      * clear C G R. subst s. destruct (z <? 0); repeat (destruct Dc as [<-|Dc]; [reflexivity|]); destruct Dc.
      * unfold subread_number. rewrite C. reflexivity.
    + unfold xint. ordi.
  - destruct D as (n & Nd & _ & Ev & Er & W). unfold least_width in W. destruct d as [w neg digs radix]. cbn [id_width id_neg id_digits id_radix] in *. subst radix.
    assert (Nn' : 0 <= n) by (apply natural_val in Nd; [|lia]; destruct Nd as (_ & A' & ->); apply valfrom_nonneg; [lia|exact A'|lia]).
    assert (Sn : string_to_fixnum 8388608 digs 10 = Some n).
    { assert (Nm : numeral 10 digs n) by now apply num_pos. apply (string_to_fixnum_iff 8388608 ltac:(lia) 10 digs n ltac:(lia) (numeral_no_prefix 10 digs n ltac:(lia) Nm)).
      split; [now apply numeral_c|]. unfold infx. destruct neg; lia. }
    assert (F24 : fits 24 z) by (unfold fits; lia). destruct w as [w|].
    + destruct W as (Iw & _ & M). specialize (M 24 ltac:(unfold widths; cbn; tauto) F24).
      assert (W3 : memv_num (XNum w) [8; 16; 24] = true) by (unfold widths in Iw; cbn [In memv_num existsb] in *; lia).
      transitivity (if memv_num (XNum w) [8; 16; 24] then match string_to_fixnum 8388608 digs 10 with Some n => VFix (n * (if is_sym (xsign neg) "-" then -1 else 1)) | None => VProc (xint (mkint (Some w) neg digs 10)) end else VProc (xint (mkint (Some w) neg digs 10))); [reflexivity|].
      rewrite W3, Sn. f_equal. destruct neg; cbn [xsign]; [change (is_sym (sym "-") "-") with true|change (is_sym (sym "+") "-") with false]; lia.
    + exfalso. apply (W 24); [unfold widths; cbn; tauto|exact F24].
Qed.

(** ** everything *)
Definition wtail (disp : bool) : value -> text := fix tail (d : value) : text :=
  match d with VPair a d' => 32 :: wr disp a ++ tail d' | VNil => [] | _ => str " . " ++ wr disp d end.
Definition witems (disp : bool) : list value -> text := fix loop (l : list value) : text :=
  match l with [] => [] | v :: l' => wr disp v ++ match l' with [] => [] | _ => 32 :: loop l' end end.
Lemma wr_pair b a d : wr b (VPair a d) = 40 :: wr b a ++ wtail b d ++ [41]. Proof. reflexivity. Qed.
Lemma wr_vec b l : wr b (VVec l) = 35 :: 40 :: witems b l ++ [41]. Proof. reflexivity. Qed.
Lemma wtail_pair b a d : wtail b (VPair a d) = 32 :: wr b a ++ wtail b d. Proof. reflexivity. Qed.

Definition shown (v : value) : Prop := exists t d, means t d /\ sexp d = v /\ forall k, ends_token k -> wrote t (wr false v ++ k) k.
Definition rest_shown (v : value) : Prop := exists ts ds, Forall2 means ts ds /\
  ((sexp (pairs ds (datum "null" [])) = v /\ forall k, Spec_Read.seq (map IDat ts) 41 (wtail false v ++ 41 :: k) k) \/
   (exists t e, means t e /\ sexp (pairs ds e) = v /\ forall k, Spec_Read.seq (map IDat ts ++ [IDot; IDat t]) 41 (wtail false v ++ 41 :: k) k)).

Lemma close_ends k : ends_token (41 :: k).
Proof. apply ends_delimited. reflexivity. Qed.
Lemma space_ends k : ends_token (32 :: k).
Proof. apply ends_delimited. reflexivity. Qed.
Lemma seq_nil k : Spec_Read.seq [] 41 (41 :: k) k.
Proof. constructor; [now left|constructor]. Qed.
Lemma wrote_space t i k : wrote t i k -> wrote t (32 :: i) k.
Proof. intros W. apply wr_gap with (j := i); [|exact W]. apply gap_space; [now left|constructor]. Qed.
Lemma tail_ends v k : ends_token (wtail false v ++ 41 :: k).
Proof. destruct v; first [apply close_ends|apply space_ends]. Qed.
Lemma dot_shown v : shown v -> match v with VPair _ _ | VNil => False | _ => True end -> rest_shown v.
Proof.
  intros (t & d & M & S & W) NP. exists [], []. split; [constructor|]. right. exists t, d. split; [exact M|]. split; [exact S|]. intros k. cbn [map app].
  assert (E : wtail false v = str " . " ++ wr false v) by (destruct v; try contradiction; reflexivity). rewrite E, <- app_assoc.
  change (str " . " ++ wr false v ++ 41 :: k) with (32 :: 46 :: 32 :: (wr false v ++ 41 :: k)). apply sq_dot with (j := 32 :: (wr false v ++ 41 :: k)).
  - apply gap_space; [now left|constructor].
  - apply space_ends.
  - apply sq_datum with (j := 41 :: k); [|apply seq_nil]. apply wrote_space, W, close_ends.
Qed.
Lemma nil_shown : shown VNil /\ rest_shown VNil.
Proof.
  split.
  - exists (TList []), (datum "null" []). split; [constructor|]. split; [reflexivity|]. intros k _. apply (wr_paren [] (41 :: k) k). apply seq_nil.
  - exists [], []. split; [constructor|]. left. split; [reflexivity|]. intros k. apply seq_nil.
Qed.
Lemma token_shown v d : token (wr false v) d -> sexp d = v -> shown v.
Proof. intros T S. exists (TTok (wr false v)), d. split; [now constructor|]. split; [exact S|]. intros k E. apply (wr_token _ d); [exact T|now left]. Qed.
Lemma means_list ts ds : Forall2 means ts ds -> means (TList ts) (pairs ds (datum "null" [])).
Proof. induction 1; cbn [pairs]; now constructor. Qed.
Lemma means_dots t e ts ds : means t e -> Forall2 means ts ds -> ts <> [] -> means (TDot ts t) (pairs ds e).
Proof.
  intros M F. induction F as [|x d ts ds Md F IH]; [contradiction|]. intros _. cbn [pairs]. destruct F as [|y d' ts ds Md' F]; [now constructor|].
  apply mn_dots; [exact Md|]. apply IH. discriminate.
Qed.
Lemma pair_shown a d : shown a -> rest_shown d -> shown (VPair a d) /\ rest_shown (VPair a d).
Proof.
  intros (t & x & M & S & W) (ts & ds & F & R).
  assert (A : forall k, wrote t (wr false a ++ wtail false d ++ 41 :: k) (wtail false d ++ 41 :: k)) by (intros k; apply W, tail_ends).
  destruct R as [[Sd Q]|(u & e & Mu & Sd & Q)].
  - split.
    + exists (TList (t :: ts)), (pairs (x :: ds) (datum "null" [])). split; [apply means_list; now constructor|]. split; [cbn [pairs]; rewrite sexp_pair, S, Sd; reflexivity|].
      intros k _. rewrite wr_pair. cbn [app]. rewrite <- !app_assoc. apply wr_paren. cbn [map app]. eapply sq_datum; [apply A|apply Q].
    + exists (t :: ts), (x :: ds). split; [now constructor|]. left. split; [cbn [pairs]; rewrite sexp_pair, S, Sd; reflexivity|].
      intros k. rewrite wtail_pair. cbn [app map]. rewrite <- !app_assoc. eapply sq_datum; [apply wrote_space, A|apply Q].
  - split.
    + exists (TDot (t :: ts) u), (pairs (x :: ds) e). split; [apply means_dots; [exact Mu|now constructor|discriminate]|]. split; [cbn [pairs]; rewrite sexp_pair, S, Sd; reflexivity|].
      intros k _. rewrite wr_pair. cbn [app]. rewrite <- !app_assoc. apply wr_dparen; [discriminate|]. cbn [map app]. eapply sq_datum; [apply A|apply Q].
    + exists (t :: ts), (x :: ds). split; [now constructor|]. right. exists u, e. split; [exact Mu|]. split; [cbn [pairs]; rewrite sexp_pair, S, Sd; reflexivity|].
      intros k. rewrite wtail_pair. cbn [app map]. rewrite <- !app_assoc. eapply sq_datum; [apply wrote_space, A|apply Q].
Qed.
Lemma vec_shown l : Forall shown l -> shown (VVec l).
Proof.
  intros F. assert (X : exists ts ds, Forall2 means ts ds /\ map sexp ds = l /\ forall k, Spec_Read.seq (map IDat ts) 41 (witems false l ++ 41 :: k) k /\ Spec_Read.seq (map IDat ts) 41 (match l with [] => [] | _ => 32 :: witems false l end ++ 41 :: k) k).
  { induction F as [|v l (t & x & M & S & W) F IH].
    - exists [], []. split; [constructor|]. split; [reflexivity|]. intros k. split; apply seq_nil.
    - destruct IH as (ts & ds & F2 & E & Q). exists (t :: ts), (x :: ds). split; [now constructor|]. split; [cbn [map]; now rewrite S, E|].
      assert (G : forall k, wrote t (wr false v ++ match l with [] => [] | _ => 32 :: witems false l end ++ 41 :: k) (match l with [] => [] | _ => 32 :: witems false l end ++ 41 :: k))
        by (intros k; apply W; destruct l; [apply close_ends|apply space_ends]).
      intros k. change (witems false (v :: l)) with (wr false v ++ match l with [] => [] | _ => 32 :: witems false l end). cbn [app]. rewrite <- !app_assoc.
      split; cbn [map]; [eapply sq_datum; [apply G|apply Q]|eapply sq_datum; [apply wrote_space, G|apply Q]]. }
  destruct X as (ts & ds & F2 & E & Q). exists (TVec ts), (datum "vector" ds). split; [now constructor|]. split; [now rewrite sexp_vector, E|].
  intros k _. rewrite wr_vec. cbn [app]. rewrite <- app_assoc. apply wr_vector. apply (Q k).
Qed.
Lemma all_shown : forall v, readable v -> shown v /\ rest_shown v.
Proof.
  fix IH 1. intros v R.
  assert (ND : match v with VPair _ _ | VNil => False | _ => True end -> shown v -> shown v /\ rest_shown v) by (intros ND S; split; [exact S|now apply dot_shown]).
  destruct v as [z|b|s|c|s| |a d|l|v| |d]; try (apply ND; [exact I|]); clear ND.
  - inversion R as [z' H| | | | | | | |]; subst. destruct (fixnum_token z H) as (d & T & S). exact (token_shown (VFix z) d T S).
  - assert (TS : forall c, c = 116 \/ c = 102 -> token_start [35; c]).
    { intros c Hc. cbn [token_start]. split; [unfold white; lia|]. split; [cbn [In]; lia|]. intros _. split; [cbn [In]; lia|]. split; intros E; discriminate E || (injection E; lia). }
    destruct b; (eapply token_shown; [apply lex_tok; [apply TS; auto|reflexivity|ordi]|reflexivity]).
  - inversion R as [| |s' H| | | | | |]; subst. destruct (symbol_token s H) as (d & T & S & C). apply (token_shown (VSym s) d); [|exact S]. cbn [wr]. now rewrite C.
  - inversion R as [| | |c' H| | | | |]; subst. destruct (char_token c H) as (d & T & S). exact (token_shown (VChr c) d T S).
  - inversion R as [| | | |s' H| | | |]; subst. destruct (string_token s H) as (d & T & S). exact (token_shown (VStr s) d T S).
  - apply nil_shown.
  - assert (Ra : readable a /\ readable d) by (inversion R; now split). destruct Ra as [Ra Rd]. apply pair_shown; [apply (IH a Ra)|apply (IH d Rd)].
  - apply vec_shown. assert (F : Forall readable l) by (inversion R; assumption). clear R. induction l as [|v l IHl]; [constructor|].
    constructor; [apply (IH v); now inversion F|apply IHl; now inversion F].
  - assert (Rv : readable v) by (inversion R; assumption). destruct (IH v Rv) as [(t & d & M & S & W) _]. exists (TBox t), (datum "box" [d]).
    split; [now constructor|]. split; [now rewrite sexp_box, S|]. intros k E. cbn [wr app]. apply wr_box. now apply W.
  - exfalso. inversion R.
  - exfalso. inversion R.
Qed.

Lemma written_reads r v k : Forall aside r -> readable v -> ends_token k -> exists d, returns r (wr false v ++ k) (ROk (d, k, r)) /\ sexp d = v.
Proof.
  intros A R E. destruct (all_shown v R) as [(t & d & M & S & W) _]. exists d. split; [|exact S].
  destruct (proj1 (proj2 (spaced r A)) t _ k (W k E)) as (e & M' & _ & _ & T & _). rewrite (means_fun t d M e M'). now apply top_returns.
Qed.
Lemma readable_not_eof v : readable v -> v <> VEof.
Proof. intros R ->. inversion R. Qed.
Lemma only_gap r i : Forall aside r -> gap i [] -> returns r i (ROk (eof, [], r)).
Proof.
  intros R G. apply top_returns. apply (proj1 (spaced r R) i [] G). split; [discriminate|]. exists 2%nat. cbn [subread_top rd].
  rewrite (aside_none r [] R I). reflexivity.
Qed.
Lemma lines_read r vs : Forall aside r -> Forall readable vs -> reads_all r (concat (map (fun v => wr false v ++ [10]) vs)) vs.
Proof.
  intros A F. assert (K : forall sp, gap sp [] -> Forall white sp -> reads_all r (sp ++ concat (map (fun v => wr false v ++ [10]) vs)) vs).
  { induction F as [|v vs R F IH]; intros sp G W.
    - cbn [map concat]. rewrite app_nil_r. destruct (only_gap r sp A G) as [N E]. now apply ra_end with (N := N).
    - cbn [map concat]. set (rest := concat _). destruct (all_shown v R) as [(t & d & M & S & Wr) _].
      assert (T : returns r (sp ++ (wr false v ++ [10]) ++ rest) (ROk (d, 10 :: rest, r))).
      { destruct (proj1 (proj2 (spaced r A)) t (sp ++ (wr false v ++ [10]) ++ rest) (10 :: rest)) as (e & M' & _ & _ & T & _).
        - rewrite <- app_assoc. cbn [app]. apply wr_gap with (j := wr false v ++ 10 :: rest); [|apply Wr, ends_delimited; reflexivity].
          clear G. induction W as [|c sp Wc W IHw]; cbn [app]; [constructor|now apply gap_space].
        - rewrite (means_fun t d M e M'). now apply top_returns. }
      destruct T as [N E]. subst v. apply ra_next with (N := N) (k := 10 :: rest); [exact E|now apply readable_not_eof|].
      apply (IH [10]); [apply gap_space; [right; lia|apply gap_none]|constructor; [right; lia|constructor]]. }
  apply (K []); [apply gap_none|constructor].
Qed.
Lemma wr_injective v w : readable v -> readable w -> wr false v = wr false w -> v = w.
Proof.
  intros Rv Rw E. destruct (written_reads [] v [] (Forall_nil _) Rv I) as (d & T & S). destruct (written_reads [] w [] (Forall_nil _) Rw I) as (d' & T' & S').
  rewrite E in T. pose proof (returns_fun _ _ _ _ T T') as X. injection X as ->. congruence.
Qed.
