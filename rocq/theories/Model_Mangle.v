(** C names: /repo/6.sf:281-292 (c-mangle), 311-316 (c-undecorate-alvar), 643-682 and
    7.sf:207-213, 520-534, 560-561 (names of variables and labels).  Strings are lists of
    character codes 0..255; isalpha/isdigit/toupper are those of the C locale. *)
From Coq Require Import ZArith List Bool.
From Verif Require Import Base Model_Sym Model_Num Model_CStr.
Import ListNotations.
Open Scope Z_scope.

(** 0.sf:863-867 *)
Definition char_alphabetic (c : Z) : bool := ((65 <=? c) && (c <=? 90)) || ((97 <=? c) && (c <=? 122)).
Definition char_numeric (c : Z) : bool := (48 <=? c) && (c <=? 57).
(** 0.sf:884; 6.sf:113 *)
Definition char_upcase (c : Z) : Z := if (97 <=? c) && (c <=? 122) then c - 32 else c.
Definition string_upcase (s : str) : str := map char_upcase s.
(** number->string on fixnums is fixnum->string, 0.sf:1515-1527 *)
Definition number_to_string (n radix : Z) : res str :=
  match fixnum_to_string 33 n radix with Some r => r | None => UB end.

(** 6.sf:290-292: "_" and the code of the character *)
Definition mangle_escape (c : Z) : res str :=
  rbind (number_to_string c 16) (fun s =>
    let s2 := if (length s <? 2)%nat then 48 :: s else s in
    Val (95 :: string_upcase s2)).
(** 6.sf:284-292; [text] in reverse, c-stringify-text (6.sf:250-260) concatenates it *)
Fixpoint mangle_loop (lst : str) (text : list str) : res str :=
  match lst with
  | [] => Val (concat (rev text))
  | c :: lst' =>
    if char_alphabetic c || char_numeric c then mangle_loop lst' ([c] :: text)
    else rbind (mangle_escape c) (fun e => mangle_loop lst' (e :: text))
  end.
Definition c_mangle (s pfx : str) : res str := rbind (mangle_loop s []) (fun t => Val (pfx ++ t)).

(** 6.sf:311-316 *)
Definition c_undecorate_alvar (sym : str) : res str :=
  rbind (string_starts_with sym [95]) (fun b =>
    if b then rbind (substring_after sym [95]) (fun o =>
      match o with
      | None => UB
      | Some sstr => rbind (substring_before sstr [95]) (fun o2 => Val (match o2 with Some t => t | None => sstr end))
      end)
    else Val sym).

(** an identifier: symbol and timestamp (3.sf:197-236) *)
Record ident := mkid { id_sym : str; id_ts : Z }.
(** 7.sf:211, 6.sf:645: "cx_"; 6.sf:642 "cxs_"; 7.sf:560 "gs_" *)
Definition p_cx : str := [99; 120; 95].
Definition p_cxs : str := [99; 120; 115; 95].
Definition p_gs : str := [103; 115; 95].
Definition p_s : str := [115; 95].
Definition gvar_name (id : ident) : res str := c_mangle (id_sym id) p_cx.
Definition gfun_name (id : ident) : res str := c_mangle (id_sym id) p_cxs.
Definition gclabel_name (id : ident) : res str := c_mangle (id_sym id) p_gs.
(** 7.sf:207-209, 6.sf:648-650 *)
Definition cvar_name (id : ident) : res str :=
  rbind (c_undecorate_alvar (id_sym id)) (fun u =>
  rbind (number_to_string (id_ts id) 10) (fun n => c_mangle u (118 :: n ++ [95]))).
(** 6.sf:658-659 *)
Definition gen_label_name (ts : Z) : res str := rbind (number_to_string ts 10) (fun n => Val (108 :: n)).

(** 7.sf:523-527, 6.sf:672-676: the label of [id], given the labels already assigned *)
Definition id_to_label (id : ident) (labels : list str) : res str :=
  rbind (c_undecorate_alvar (id_sym id)) (fun u =>
  rbind (c_mangle u p_s) (fun l =>
    if existsb (cstr_eqb l) labels
    then rbind (number_to_string (id_ts id) 10) (fun n => Val (l ++ [95; 118] ++ n))
    else Val l)).
(** 7.sf:528-534 (and the successive calls of register-label!, 6.sf:671-680): the labels in the
    order of assignment *)
Fixpoint assign_loop (ids : list ident) (labels : list str) : res (list str) :=
  match ids with
  | [] => Val (rev labels)
  | id :: ids' => rbind (id_to_label id labels) (fun l => assign_loop ids' (l :: labels))
  end.
Definition assign_labels (ids : list ident) : res (list str) := assign_loop ids [].
(** 3.sf:210-212: the symbol of a lifted constant is its name, "#" and the timestamp *)
Definition global_id_private_constant (name : str) (ts : Z) : res ident :=
  rbind (number_to_string ts 10) (fun n => Val (mkid (name ++ 35 :: n) (- ts))).
