(** C23: names in the generated C; C47: the string search functions they rest on. *)
From Coq Require Import ZArith List Bool Lia.
From Verif Require Import Base Model_CStr Proofs_CStr Model_Mangle Spec_Mangle Proofs_Mangle.
Import ListNotations.
Open Scope Z_scope.

(** Mangling any Scheme name after an identifier gives a C identifier ... *)
Theorem C23_mangled_is_identifier :
  forall s pfx, Forall chr s -> c_identifier pfx -> exists t, c_mangle s pfx = Val t /\ c_identifier t.
Proof. exact mangle_identifier. Qed.
Print Assumptions C23_mangled_is_identifier.
Example C23_mangled_is_identifier_ex :
  c_mangle [102; 111; 111; 45; 62; 98; 95; 10; 233] p_cx =
    Val [99; 120; 95; 102; 111; 111; 95; 50; 68; 95; 51; 69; 98; 95; 53; 70; 95; 48; 65; 95; 69; 57] /\ c_identifier p_cx.
Proof. split; [vm_compute; reflexivity|]. cbn [c_identifier p_cx]. unfold c_letter. split; [lia|]. do 2 (constructor; [lia|]). constructor. Qed.

(** ... and different Scheme names get different C names. *)
Theorem C23_mangling_injective :
  forall s s' pfx t, Forall chr s -> Forall chr s' -> c_mangle s pfx = Val t -> c_mangle s' pfx = Val t -> s = s'.
Proof. exact mangle_injective. Qed.
Print Assumptions C23_mangling_injective.
Example C23_mangling_injective_ex :
  c_mangle [97; 95; 50; 68] p_cx <> c_mangle [97; 45] p_cx /\ c_mangle [97; 95] p_cx <> c_mangle [97] p_cx.
Proof. split; vm_compute; discriminate. Qed.

(** Labels: for identifiers with different timestamps (the first may be a global, whose timestamp
    is negative) all labels are assigned, are C identifiers, and are pairwise different. *)
Theorem C23_labels_distinct :
  forall ids, Forall (fun id => Forall chr (id_sym id)) ids ->
  Forall (fun id => 0 <= id_ts id < 8589934592) (tl ids) -> NoDup (map id_ts ids) ->
  exists r, assign_labels ids = Val r /\ length r = length ids /\ NoDup r /\ Forall c_identifier r.
Proof. exact labels_ok. Qed.
Print Assumptions C23_labels_distinct.
Example C23_labels_distinct_ex :
  assign_labels [mkid [97] 3; mkid [95; 97; 95; 49] 12; mkid [97; 95; 118; 49; 50] 5; mkid [97] 7] =
    Val [[115; 95; 97]; [115; 95; 97; 95; 118; 49; 50]; [115; 95; 97; 95; 53; 70; 118; 49; 50]; [115; 95; 97; 95; 118; 55]].
Proof. vm_compute. reflexivity. Qed.

(** Local variables: always an identifier, the same name only for the same timestamp. *)
Theorem C23_local_variables :
  forall id, Forall chr (id_sym id) -> 0 <= id_ts id < 8589934592 ->
  (exists n, cvar_name id = Val n /\ c_identifier n) /\
  forall id' n, Forall chr (id_sym id') -> 0 <= id_ts id' < 8589934592 ->
    cvar_name id = Val n -> cvar_name id' = Val n -> id_ts id = id_ts id'.
Proof. exact (fun id Hc Ht => conj (cvar_ident id Hc Ht) (fun id' n Hc' Ht' => cvar_inj id id' n Hc Hc' Ht Ht')). Qed.
Print Assumptions C23_local_variables.
Example C23_local_variables_ex :
  cvar_name (mkid [95; 120; 63; 95; 49] 12) = Val [118; 49; 50; 95; 120; 95; 51; 70] /\
  cvar_name (mkid [49; 95; 120] 1) <> cvar_name (mkid [120] 11).
Proof. split; vm_compute; [reflexivity|discriminate]. Qed.

(** The six kinds of names (globals, stack functions, constant labels, labels, local variables,
    generated labels) never coincide. *)
Theorem C23_kinds_disjoint :
  forall a b c d e ts ls n1 n2 n3 n4 n5 n6,
  Forall (fun id => Forall chr (id_sym id)) [a; b; c; d; e] ->
  0 <= id_ts d < 8589934592 -> 0 <= id_ts e < 8589934592 -> 0 <= ts < 8589934592 ->
  gvar_name a = Val n1 -> gfun_name b = Val n2 -> gclabel_name c = Val n3 -> id_to_label d ls = Val n4 ->
  cvar_name e = Val n5 -> gen_label_name ts = Val n6 -> NoDup [n1; n2; n3; n4; n5; n6].
Proof. exact kinds_differ. Qed.
Print Assumptions C23_kinds_disjoint.
Example C23_kinds_disjoint_ex :
  gvar_name (mkid [115; 95] (-1)) = Val [99; 120; 95; 115; 95; 53; 70] /\ gfun_name (mkid [] (-2)) = Val [99; 120; 115; 95] /\
  gen_label_name 34 = Val [108; 51; 52].
Proof. vm_compute. auto. Qed.

(** The name of a lifted constant is not out of reach of source programs: a global of the user
    may have the same symbol, hence the same C name. *)
Theorem C23_private_names_refuted :
  exists name ts user p n, Forall chr (id_sym user) /\ global_id_private_constant name ts = Val p /\
    id_ts user <> id_ts p /\ gvar_name user = Val n /\ gvar_name p = Val n.
Proof.
  exists [97], 12, (mkid [97; 35; 49; 50] (-3)), (mkid [97; 35; 49; 50] (-12)), [99; 120; 95; 97; 95; 50; 51; 49; 50].
  split; [repeat constructor; discriminate|]. split; [vm_compute; reflexivity|]. split; [discriminate|]. vm_compute. auto.
Qed.
Print Assumptions C23_private_names_refuted.

(** C47.  The search functions never index outside the strings and agree with the meaning of
    prefix, suffix and first occurrence. *)
Theorem C47_prefix_and_suffix :
  forall s p,
  (exists b, string_starts_with s p = Val b /\ (b = true <-> exists q, s = p ++ q)) /\
  (exists b, string_ends_with s p = Val b /\ (b = true <-> exists q, s = q ++ p)) /\
  ((exists q, s = q ++ p /\ substring_before_suffix s p = Val (Some q)) \/
   ((forall q, s <> q ++ p) /\ substring_before_suffix s p = Val None)) /\
  ((exists q, s = p ++ q /\ substring_after_prefix s p = Val (Some q)) \/
   ((forall q, s <> p ++ q) /\ substring_after_prefix s p = Val None)).
Proof. exact (fun s p => conj (starts_ok s p) (conj (ends_ok s p) (conj (suffix_ok s p) (prefix_ok s p)))). Qed.
Print Assumptions C47_prefix_and_suffix.
Example C47_prefix_and_suffix_ex :
  string_ends_with [97; 46; 115; 102] [46; 115; 102] = Val true /\ substring_before_suffix [97; 46; 115; 102] [46; 115; 102] = Val (Some [97]) /\
  string_starts_with [97] [97; 98] = Val false /\ substring_after_prefix [97; 98] [] = Val (Some [97; 98]).
Proof. vm_compute. auto. Qed.
Theorem C47_first_occurrence :
  forall s p,
  (exists a b, s = a ++ p ++ b /\ (forall a' b', s = a' ++ p ++ b' -> (length a <= length a')%nat) /\
     string_contains s p = Val true /\ substring_before s p = Val (Some a) /\ substring_after s p = Val (Some b)) \/
  ((forall a b, s <> a ++ p ++ b) /\ string_contains s p = Val false /\
     substring_before s p = Val None /\ substring_after s p = Val None).
Proof.
  intros s p. destruct (search_ok s p) as [(a & b & [H1 H2] & H3)|H]; [left|right; exact H]. exists a, b. auto.
Qed.
Print Assumptions C47_first_occurrence.
Example C47_first_occurrence_ex :
  substring_before [97; 36; 97; 36; 98] [97; 36; 98] = Val (Some [97; 36]) /\ substring_after [97; 36; 97; 36; 98] [36] = Val (Some [97; 36; 98]) /\
  substring_after [97] [36] = Val None /\ substring_before [] [] = Val (Some []).
Proof. vm_compute. auto. Qed.
Theorem C47_spans :
  forall s cs, exists p q, s = p ++ q /\ Forall (fun c => In c cs) p /\ match q with c :: _ => ~ In c cs | [] => True end /\
  string_span s cs = Val (length p) /\ substring_after_span s cs = Val q.
Proof. exact span_ok. Qed.
Print Assumptions C47_spans.
Example C47_spans_ex : string_span [49; 50; 97; 49] [48; 49; 50] = Val 2%nat /\ substring_after_span [49; 50; 97; 49] [48; 49; 50] = Val [97; 49].
Proof. vm_compute. auto. Qed.
