(** Formats: c-format and its kin.  Source: /repo/6.sf:154-279.

    The continuation [k] of the loop (6.sf:168) is called once, at the end: here it is what is done with the result of [scan].
    [Fuel]: the run was not followed to its end; [CErr]: c-error.  Counts are not cut to the range of fixnums.  Vectors are not
    texts of c-stringify-text, so there are none in [text]. *)
From Coq Require Import ZArith String List Bool.
From Verif Require Import Base Model_Lit Model_CStr Model_Mangle Model_Num Model_Core Model_Fold.
Import ListNotations.
Open Scope Z_scope.

(** characters, strings, numbers, symbols and lists of these *)
Inductive text := TC (c : Z) | TS (s : list Z) | TN (n : Z) | TY (s : list Z) | TL (l : list text).
Inductive out (A : Type) := Ok (a : A) | CErr | Fuel.
Arguments Ok {A} a.
Arguments CErr {A}.
Arguments Fuel {A}.

(** 6.sf:157-167; the list is of characters (formats) or of texts (what was made so far, in reverse) *)
Definition al_num (c : Z) : bool := char_alphabetic c || char_numeric c.
Fixpoint match_name {A} (char_of : A -> option Z) (lst : list A) (chars : list Z) {struct lst} : option (list A) :=
  match lst with
  | [] => match chars with [] => Some [] | _ :: _ => None end
  | a :: l =>
    match char_of a with
    | None => None
    | Some c =>
      match chars with
      | [] => if al_num c then None else Some lst
      | d :: chars' => if c =? d then match_name char_of l chars' else None
      end
    end
  end.
Definition text_char (t : text) : option Z := match t with TC c => Some c | _ => None end.
(** 6.sf:194-195, 214-215: [(or ssarg sarg)] *)
Definition shorter (s t : list Z) : option (list Z) :=
  match val_or None (substring_after s (t ++ codes "(")) with
  | Some sarg =>
    Some (match val_or None (substring_after_prefix (val_or [] (substring_after_span sarg (codes "01234567890"))) (codes ", ")) with
          | Some ssarg => ssarg
          | None => sarg
          end)
  | None => None
  end.
(** 6.sf:188-193, 209-213: tbuf and vbuf, the latter only asked for if it is there *)
Definition casts {A} (char_of : A -> option Z) (buf : list A) (t : list Z) : option (list A * bool) :=
  let tbuf := match_name char_of buf (rev (t ++ codes "_from_")) in
  let vbuf := match_name char_of buf (rev (codes "void_from_")) in
  let v := match vbuf with Some _ => true | None => false end in
  match tbuf with Some b => Some (b, v) | None => match vbuf with Some b => Some (b, v) | None => None end end.
Definition opening (v : bool) : text := if v then TS (codes "(void)(") else TC 40.
(** 6.sf:187-199 *)
Definition put_arg (a : text) (buf : list text) : list text :=
  match a with
  | TS s =>
    match primexp_ctype s with
    | Some t =>
      match casts text_char buf t, shorter s t with
      | Some (b, v), Some r => TS r :: opening v :: b
      | _, _ => a :: buf
      end
    | None => a :: buf
    end
  | _ => a :: buf
  end.
(** 6.sf:206-223 *)
Fixpoint skip_ws (l : list Z) : list Z := match l with [] => [] | c :: l' => if isspace c then skip_ws l' else l end.
Definition put_return (rtext : text) (fl : list Z) (buf : list text) : list Z * list text :=
  match primexp_ctype fl, rtext with
  | Some t, TS r =>
    match casts Some (rev r) t, shorter fl t with
    | Some (b, v), Some s => (s, opening v :: TL (map TC (rev b)) :: buf)
    | _, _ => (fl, rtext :: buf)
    end
  | _, _ => (fl, rtext :: buf)
  end.

Section Format.
Variables ltext rtext : text.
Variable total : nat.
Definition index (args : list text) (d : Z) : text := TN (Z.of_nat total - Z.of_nat (length args) + d).
(** 6.sf:168-241; the test with eq? in the loop (6.sf:237) compares the lengths: the second list is a tail of the first *)
Fixpoint scan (fuel : nat) (fl : list Z) (args buf : list text) : out (list Z * list text * list text) :=
  match fuel with
  | O => Fuel
  | S f =>
    match fl with
    | [] => Ok ([], args, rev buf)
    | c :: fl1 =>
      if negb (c =? 36) then scan f fl1 args (TC c :: buf) else
      match fl1 with
      | [] => CErr
      | d :: fl2 =>
        match match_name Some fl1 (codes "argc") with Some r => scan f r args (TN (Z.of_nat total) :: buf) | None =>
        match match_name Some fl1 (codes "arg#-1") with Some r => scan f r args (index args (-1) :: buf) | None =>
        match match_name Some fl1 (codes "arg#+1") with Some r => scan f r args (index args 1 :: buf) | None =>
        match match_name Some fl1 (codes "arg#") with Some r => scan f r args (index args 0 :: buf) | None =>
        match match_name Some fl1 (codes "arg") with
        | Some r => match args with [] => CErr | a :: args' => scan f r args' (put_arg a buf) end
        | None =>
        match match_name Some fl1 (codes "a") with
        | Some r => match args with [] => CErr | a :: args' => scan f r args' (a :: buf) end
        | None =>
        match match_name Some fl1 (codes "live") with Some r => scan f r args (ltext :: buf) | None =>
        match match_name Some fl1 (codes "return") with
        | Some r => let (r', buf') := put_return rtext (skip_ws r) buf in scan f r' args buf'
        | None =>
        if d =? 36 then scan f fl2 args (TS (codes "$") :: buf)
        else if d =? 125 then Ok (fl2, args, rev buf)
        else if d =? 123 then
          match args with
          | [] =>
            match scan f fl2 (repeat (TY (codes "?")) 10) [] with
            | Ok (fl3, _, _) => scan f fl3 [] buf
            | e => e
            end
          | _ :: _ =>
            match scan f fl2 args [] with
            | Ok (_, args2, t) => if Nat.eqb (length args2) (length args) then CErr else scan f fl args2 (TL t :: buf)
            | e => e
            end
          end
        else CErr
        end end end end end end end end
      end
    end
  end.
End Format.
(** 6.sf:250-260 *)
Fixpoint flatten (t : text) : res (list Z) :=
  match t with
  | TC c => Val [c]
  | TS s => Val s
  | TN n => number_to_string n 10
  | TY s => Val s
  | TL l => (fix go l := match l with [] => Val [] | t :: l' => rbind (flatten t) (fun a => rbind (go l') (fun b => Val (a ++ b))) end) l
  end.
(** 6.sf:242-245, 262-264 *)
Definition c_format_prim (fuel : nat) (ltext rtext : text) (fmt : list Z) (args : list text) : out (res (list Z)) :=
  match scan ltext rtext (length args) fuel fmt args [] with
  | Ok (_, [], t) => Ok (flatten (TL t))
  | Ok (_, _ :: _, _) => CErr
  | CErr => CErr
  | Fuel => Fuel
  end.
(** 6.sf:275-276 *)
Definition c_format (fuel : nat) : list Z -> list text -> out (res (list Z)) :=
  c_format_prim fuel (TS (codes "### no live info ###")) (TS (codes "### no result info ###")).
