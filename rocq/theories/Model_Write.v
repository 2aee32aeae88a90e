(** The writer, /repo/0.sf:1767-1851, and the conversion of data to objects, /repo/1.sf:851-948.  Output is the
    list of characters written.  Flonums and ports are not modelled. *)
From Coq Require Import ZArith List Bool String.
From Verif Require Import Base Model_Sym Model_Num Model_Lit Model_Read.
Import ListNotations.
Open Scope Z_scope.

(** objects; [VProc d]: the procedure made by sexp-other, 1.sf:923 *)
Inductive value :=
| VFix (z : Z) | VBool (b : bool) | VSym (s : text) | VChr (c : Z) | VStr (s : text) | VNil
| VPair (a d : value) | VVec (l : list value) | VBox (v : value) | VEof | VProc (d : sx).

(** fputs and internsym stop at the first NUL *)
Fixpoint c_chars (s : text) : text := match s with c :: s' => if c =? 0 then [] else c :: c_chars s' | [] => [] end.
(** 0.sf:1767-1770: fprintf with %d, a C decimal; the digits are those of fixnum->string *)
Definition display_fixnum (z : Z) : text := match fixnum_to_string 33 z 10 with Some (Val s) => s | _ => [] end.
(** 0.sf:1805-1809 *)
Definition wrchar (c : Z) : text :=
  if c =? 10 then [35; 92] ++ str "newline" else if c =? 32 then [35; 92] ++ str "space" else [35; 92; c].
(** 0.sf:1811-1819 *)
Fixpoint wrchars (s : text) : text :=
  match s with [] => [] | c :: s' => if (c =? 34) || (c =? 92) then 92 :: c :: wrchars s' else c :: wrchars s' end.
Definition wrstring (s : text) : text := 34 :: wrchars s ++ [34].
(** 0.sf:1793-1851; [disp] is [d?]; [*current-writer*] is initial-writer itself *)
Fixpoint wr (disp : bool) (x : value) {struct x} : text :=
  match x with
  | VEof => str "#<eof>"
  | VSym s => c_chars s
  | VPair a d =>
    40 :: wr disp a ++
    (fix tail (d : value) : text :=
       match d with
       | VPair a d' => 32 :: wr disp a ++ tail d'
       | VNil => []
       | _ => str " . " ++ wr disp d
       end) d ++ [41]
  | VFix z => display_fixnum z
  | VNil => str "()"
  | VBool b => if b then str "#t" else str "#f"
  | VChr c => if disp then [c] else wrchar c
  | VStr s => if disp then c_chars s else wrstring s
  | VVec l => 35 :: 40 ::
    (fix loop (l : list value) : text :=
       match l with
       | [] => []
       | v :: l' => wr disp v ++ match l' with [] => [] | _ => 32 :: loop l' end
       end) l ++ [41]
  | VBox v => 35 :: 38 :: wr disp v
  | VProc _ => str "#<procedure>"
  end.

(** ** datum->rhe-sexp, 1.sf:855-925 *)
Definition codepoint_8bit (x : sx) : bool := match x with XNum z => (0 <=? z) && (z <=? 255) | _ => false end.
Definition num_of (x : sx) : Z := match x with XNum z => z | _ => 0 end.
Definition sexp_boolean (d : sx) (l : list sx) : value :=
  match l with
  | [XNum b] => if b =? 0 then VBool false else if b =? 1 then VBool true else VProc d
  | _ => VProc d
  end.
(** 1.sf:888-897; string->number with a radix is string->fixnum (0.sf:1561), * is on fixnums *)
Definition sexp_integer (d : sx) (l : list sx) : value :=
  match l with
  | [w; sign; XStr digs; XNum radix] =>
    if memv_num w [8; 16; 24] then
      match string_to_fixnum 8388608 digs radix with
      | Some n => VFix (n * (if is_sym sign "-" then -1 else 1))
      | None => VProc d
      end
    else VProc d
  | _ => VProc d
  end.
(** 1.sf:898-905, 914-921: the characters of strings and symbols *)
Definition sexp_chars (l : list sx) : option text :=
  match l with
  | [XStr s] => Some s
  | XNum b :: cs => if (b =? 8) && forallb codepoint_8bit cs then Some (map num_of cs) else None
  | _ => None
  end.
(** 1.sf:906-913 *)
Definition sexp_char (d : sx) (l : list sx) : value :=
  match l with
  | [XStr s] => match s with [c] => VChr c | _ => VProc d end
  | [XNum b; x] => if (b =? 8) && codepoint_8bit x then VChr (num_of x) else VProc d
  | _ => VProc d
  end.
Fixpoint vlist (l : list value) : value := match l with [] => VNil | v :: l' => VPair v (vlist l') end.
Fixpoint sexp (d : sx) : value :=
  match d with
  | XCons s r =>
    match elems r with
    | None => VProc d
    | Some l =>
      if is_sym s "eof" && match l with [] => true | _ => false end then VEof
      else if is_sym s "null" && match l with [] => true | _ => false end then VNil
      else match is_sym s "pair", r with
      | true, XCons a (XCons b XNil) => VPair (sexp a) (sexp b)
      | _, _ =>
      let all := (fix all (r : sx) : list value := match r with XCons a r' => sexp a :: all r' | _ => [] end) in
      if is_sym s "list" then vlist (all r)
      else if is_sym s "boolean" && match l with [_] => true | _ => false end then sexp_boolean d l
      else if is_sym s "integer" && match l with [_; _; _; _] => true | _ => false end then sexp_integer d l
      else if is_sym s "string" && match l with [] => false | _ => true end then
        match sexp_chars l with Some t => VStr t | None => VProc d end
      else if is_sym s "char" && match l with [_] | [_; _] => true | _ => false end then sexp_char d l
      else if is_sym s "symbol" && match l with [] => false | _ => true end then
        match sexp_chars l with Some t => VSym (c_chars t) | None => VProc d end
      else if is_sym s "vector" then VVec (all r)
      else match is_sym s "box", r with
      | true, XCons a XNil => VBox (sexp a)
      | _, _ => VProc d
      end end
    end
  | _ => VProc d
  end.

(** 1.sf:936-940: the object, the rest of the port, and the reader afterwards *)
Definition read1 (r : list ext) (i : text) : rres (value * text * list ext) :=
  match read_text r i with
  | ROk (d, i', r') => ROk (sexp d, i', r')
  | RErr => RErr | RCrash => RCrash | RFuel => RFuel
  end.
