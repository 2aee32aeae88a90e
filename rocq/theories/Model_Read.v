(** The reader, /repo/1.sf:46-850.  Input is the list of characters still to be read (the stream of
    1.sf:170-190 with its memoised lookahead).  The functions of 1.sf call a continuation with a datum and
    the remaining input, or stop with r-error; here they return both. *)
From Coq Require Import ZArith List Bool String.
From Verif Require Import Model_Sym Model_Num Model_Lit.
Import ListNotations.
Open Scope Z_scope.

(** Data are S-expressions of the host: (pair d1 d2) is a list whose first element is the symbol [pair].
    [XOther]: a flonum or #f, from string->number inside #.( *)
Inductive sx := XSym (s : list Z) | XStr (s : list Z) | XNum (z : Z) | XChr (c : Z) | XOther | XNil | XCons (a d : sx).
(** [RErr]: r-error; [RCrash]: a primitive is applied to an object of the wrong type; [RFuel]: recursion
    deeper than the given bound *)
Inductive rres (A : Type) := ROk (a : A) | RErr | RCrash | RFuel.
Arguments ROk {A} a. Arguments RErr {A}. Arguments RCrash {A}. Arguments RFuel {A}.
Definition rbind {A B} (x : rres A) (f : A -> rres B) : rres B :=
  match x with ROk a => f a | RErr => RErr | RCrash => RCrash | RFuel => RFuel end.

Notation text := (list Z).
Definition str (s : string) : text := codes s.
Definition sym (s : string) : sx := XSym (codes s).
Fixpoint xlist (l : list sx) : sx := match l with [] => XNil | a :: l' => XCons a (xlist l') end.
(** 1.sf:120-122 *)
Definition datum (t : string) (l : list sx) : sx := XCons (sym t) (xlist l).

Fixpoint sx_eqb (x y : sx) : bool :=
  match x, y with
  | XSym a, XSym b | XStr a, XStr b => cstr_eqb a b
  | XNum a, XNum b | XChr a, XChr b => a =? b
  | XNil, XNil => true
  | XCons a b, XCons c d => sx_eqb a c && sx_eqb b d
  | _, _ => false
  end.
Definition is_sym (x : sx) (s : string) : bool := match x with XSym a => cstr_eqb a (codes s) | _ => false end.
(** (eq? (datum-type d) 's) *)
Definition type_is (d : sx) (s : string) : bool := match d with XCons t _ => is_sym t s | _ => false end.
(** list?, giving the elements *)
Fixpoint elems (x : sx) : option (list sx) :=
  match x with XNil => Some [] | XCons a d => option_map (cons a) (elems d) | _ => None end.

(** ** characters, 1.sf:46-53, 60-76, 205-235; <ctype.h> in the C locale *)
Definition char_whitespace (c : Z) : bool := isspace c.
Definition char_alphabetic (c : Z) : bool := ((65 <=? c) && (c <=? 90)) || ((97 <=? c) && (c <=? 122)).
Definition char_numeric (c : Z) : bool := (48 <=? c) && (c <=? 57).
Definition string_position (c : Z) (s : text) : bool := existsb (Z.eqb c) s.
Definition char_delimiter (c : Z) : bool := char_whitespace c || string_position c [40; 41; 91; 93; 123; 125; 34; 59; 35].
Definition char_initial (c : Z) : bool :=
  string_position c (str "ABCDEFGHIJKLMNOPQRSTUVWXYZabcdefghijklmnopqrstuvwxyz!$%&*/:<=>?^_~").
Definition char_subsequent (c : Z) : bool :=
  string_position c (str "ABCDEFGHIJKLMNOPQRSTUVWXYZabcdefghijklmnopqrstuvwxyz!$%&*/:<=>?^_~0123456789+-.@").
Definition char_number_initial (c : Z) : bool := string_position c (str "0123456789+-.").
Definition char_exponent_marker (c : Z) : bool := string_position (char_downcase c) (str "esfdl").
Definition codepoint_byte_width (x : Z) : Z := if x <=? 255 then 8 else if x <=? 65535 then 16 else if x <=? 1114111 then 24 else 32.
Definition string_safe_codepoint (cp : Z) : bool :=
  (cp <=? 126) && (32 <=? cp) && negb (cp =? 92) && negb (cp =? 39) && negb (cp =? 34) && negb (cp =? 36).
(** 1.sf:78-84; widths of characters are never 'big *)
Fixpoint fold_max (base : Z) (l : list Z) : Z := match l with [] => base | x :: l' => fold_max (Z.max base x) l' end.

(** ** input, 1.sf:196-303 *)
Fixpoint input_prefix (i h : text) : option text :=
  match h with
  | [] => Some i
  | c :: h' => match i with [] => None | x :: i' => if x =? c then input_prefix i' h' else None end
  end.
Fixpoint input_prefix_ci (i h : text) : option text :=
  match h with
  | [] => Some i
  | c :: h' => match i with
               | [] => None
               | x :: i' => if char_downcase x =? char_downcase c then input_prefix_ci i' h' else None
               end
  end.
Definition skip_expected (i h : text) : rres text := match input_prefix i h with Some i' => ROk i' | None => RErr end.
Definition delimited (i : text) : bool := match i with [] => true | c :: _ => char_delimiter c end.
Definition check_delimited (i : text) : rres text := if delimited i then ROk i else RErr.
Definition delimited_prefix (i h : text) : option text :=
  match input_prefix i h with Some i' => if delimited i' then Some i' else None | None => None end.
Definition delimited_prefix_ci (i h : text) : option text :=
  match input_prefix_ci i h with Some i' => if delimited i' then Some i' else None | None => None end.
(** 1.sf:305-317 *)
Definition chars_datum (t : string) (l : list Z) : sx :=
  let bits := fold_max 8 (map codepoint_byte_width l) in
  if (bits =? 8) && forallb string_safe_codepoint l then datum t [XStr l] else datum t (XNum bits :: map XNum l).

(** ** numbers, 1.sf:437-551 *)
Definition xsign (neg : bool) : sx := if neg then sym "-" else sym "+".
Definition xint (d : int_datum) : sx :=
  datum "integer" [match id_width d with Some w => XNum w | None => sym "big" end; xsign (id_neg d); XStr (id_digits d); XNum (id_radix d)].
Definition xint0 (neg : bool) : sx := datum "integer" [XNum 8; xsign neg; XStr (str "0"); XNum 10].
Definition lift_int (x : option int_datum * text) : rres (sx * text) :=
  match x with (Some d, i) => ROk (xint d, i) | (None, _) => RErr end.
(** 1.sf:143-151; the components are those of the integer and fraction data *)
Definition component (d : sx) (k : nat) : rres sx :=
  match elems d with Some l => match nth_error l k with Some x => ROk x | None => RCrash end | None => RCrash end.
Definition decimal_datum (rept : sx) (iint ifrac iexp : sx) : rres sx :=
  rbind (component iint 2) (fun s => rbind (component iint 3) (fun n => rbind (component ifrac 3) (fun f =>
  rbind (component iexp 2) (fun es => rbind (component iexp 3) (fun e => ROk (datum "decimal" [rept; s; n; f; es; e])))))).

Section Number.
Variable radix : Z.
(** 1.sf:448-456; [digits] is reversed: trailing zeros but the first digit are dropped *)
Definition fraction_datum (digits : list Z) : rres sx :=
  match digits with
  | [] => RErr
  | _ => ROk (datum "integer" [sym "?"; sym "?"; XStr (rev (strip_zeros digits)); sym "?"])
  end.
Definition uinteger (i : text) (neg : bool) : rres (sx * text) := lift_int (uinteger_loop radix neg i []).
Fixpoint decimal_fraction (i : text) (digits : list Z) : rres (sx * text) :=
  match i with
  | [] => rbind (fraction_datum digits) (fun d => ROk (d, []))
  | c :: i' => match char_digit_value c 10 with
               | Some _ => decimal_fraction i' (c :: digits)
               | None => rbind (fraction_datum digits) (fun d => ROk (d, i))
               end
  end.
Definition integer (i : text) : rres (sx * text) := lift_int (subread_integer radix i).
(** 1.sf:471-477 *)
Definition decimal_suffix (d1 d2 : sx) (i : text) : rres (sx * text) :=
  match i with
  | c :: i' =>
    if char_exponent_marker c then
      rbind (integer i') (fun di => rbind (decimal_datum (XSym [char_downcase c]) d1 d2 (fst di)) (fun d => ROk (d, snd di)))
    else rbind (decimal_datum (sym "e") d1 d2 (xint0 false)) (fun d => ROk (d, i))
  | [] => rbind (decimal_datum (sym "e") d1 d2 (xint0 false)) (fun d => ROk (d, i))
  end.
(** 1.sf:478-486; it is only called where one of the clauses applies *)
Definition decimal (d1 : sx) (i : text) : rres (sx * text) :=
  match input_prefix i (str ".") with
  | Some i' =>
    match i' with
    | c :: _ => if char_numeric c then rbind (decimal_fraction i' []) (fun di => decimal_suffix d1 (fst di) (snd di))
                else decimal_suffix d1 (xint0 false) i'
    | [] => decimal_suffix d1 (xint0 false) i'
    end
  | None => match i with
            | c :: _ => if char_exponent_marker c then decimal_suffix d1 (xint0 false) i else RCrash
            | [] => RCrash
            end
  end.
(** 1.sf:487-497 *)
Definition real (i : text) : rres (sx * text) :=
  rbind (integer i) (fun di => let (d1, i) := di in
    match input_prefix i (str "/") with
    | Some i' => rbind (uinteger i' false) (fun di => ROk (datum "ratio" [d1; fst di], snd di))
    | None =>
      if (radix =? 10) && match i with c :: _ => char_exponent_marker c | [] => false end then decimal d1 i
      else if (radix =? 10) && match input_prefix i (str ".") with Some _ => true | None => false end then decimal d1 i
      else ROk (d1, i)
    end).
(** 1.sf:498-509 *)
Definition real_naninf (i : text) : rres (sx * text) :=
  match delimited_prefix i (str "-nan.0") with Some i' => ROk (datum "nan" [sym "-"], i') | None =>
  match delimited_prefix i (str "+nan.0") with Some i' => ROk (datum "nan" [sym "+"], i') | None =>
  match delimited_prefix i (str "-inf.0") with Some i' => ROk (datum "inf" [sym "-"], i') | None =>
  match delimited_prefix i (str "+inf.0") with Some i' => ROk (datum "inf" [sym "+"], i') | None =>
  if (radix =? 10) && match input_prefix i (str ".") with Some _ => true | None => false end then decimal (xint0 false) i
  else if (radix =? 10) && match input_prefix i (str "+.") with Some _ => true | None => false end then decimal (xint0 false) (tl i)
  else if (radix =? 10) && match input_prefix i (str "-.") with Some _ => true | None => false end then decimal (xint0 true) (tl i)
  else real i
  end end end end.
(** 1.sf:510-533 *)
Definition complex (i : text) : rres (sx * text) :=
  match delimited_prefix i (str "+i") with
  | Some i' => ROk (datum "rectangular" [datum "integer" [XNum 8; sym "-"; XStr (str "1"); XNum 10];
                                         datum "integer" [XNum 8; sym "+"; XStr (str "1"); XNum 10]], i')
  | None =>
  match delimited_prefix i (str "-i") with
  | Some i' => ROk (datum "rectangular" [datum "integer" [XNum 8; sym "+"; XStr (str "0"); XNum 10];
                                         datum "integer" [XNum 8; sym "-"; XStr (str "1"); XNum 10]], i')
  | None =>
  rbind (real_naninf i) (fun di => let (d1, i) := di in
    match input_prefix i (str "@") with
    | Some i' => rbind (real_naninf i') (fun di => ROk (datum "polar" [d1; fst di], snd di))
    | None =>
    match input_prefix i (str "i") with
    | Some i' => ROk (datum "rectangular" [xint0 false; d1], i')
    | None =>
      match input_prefix i (str "+"), input_prefix i (str "-") with
      | None, None => ROk (d1, i)
      | _, _ => rbind (real_naninf i) (fun di => rbind (skip_expected (snd di) (str "i")) (fun i' => ROk (datum "rectangular" [d1; fst di], i')))
      end
    end end)
  end end.
End Number.
(** 1.sf:437, 546-549 *)
Definition subread_number (i : text) (exactness : option string) (radix : Z) : rres (sx * text) :=
  rbind (complex radix i) (fun di => rbind (check_delimited (snd di)) (fun i' =>
    ROk (match exactness with Some e => datum e [fst di] | None => fst di end, i'))).

(** ** strings and characters, 1.sf:551-625 *)
(** 1.sf:551-563: width and digits without leading zeros *)
Fixpoint hex_value (i : text) (digits : list Z) : rres (option Z * text * text) :=
  let finish := match digits with
                | [] => RErr
                | _ => let s := strip_zeros (rev digits) in ROk (integer_representation_width false s 16, s, i)
                end in
  match i with
  | c :: i' => match char_digit_value c 16 with Some _ => hex_value i' (char_downcase c :: digits) | None => finish end
  | [] => finish
  end.
(** string->number on at most six hexadecimal digits (0.sf:1541) *)
Definition hex_scalar_value (i : text) : rres (Z * text) :=
  rbind (hex_value i []) (fun x => let '(w, s, i') := x in
    match w with
    | Some w => if 24 <? w then RErr
                else match string_to_fixnum 8388608 s 16 with Some n => ROk (n, i') | None => RCrash end
    | None => RErr
    end).
Definition string_escape (i : text) : rres (Z * text) :=
  match i with
  | [] => RErr
  | c :: i' =>
    if c =? 92 then ROk (92, i') else if c =? 34 then ROk (34, i') else if c =? 124 then ROk (124, i')
    else if c =? 97 then ROk (7, i') else if c =? 98 then ROk (8, i') else if c =? 116 then ROk (9, i')
    else if c =? 110 then ROk (10, i') else if c =? 118 then ROk (11, i') else if c =? 102 then ROk (12, i')
    else if c =? 114 then ROk (13, i')
    else if c =? 120 then rbind (hex_scalar_value i') (fun x => match snd x with
                                  | [] => RErr
                                  | c :: i'' => if c =? 59 then ROk (fst x, i'') else RErr
                                  end)
    else RErr
  end.
(** 1.sf:590-599 after the opening quote; every step consumes a character: [n] bounds the length of the input *)
Fixpoint string_loop (n : nat) (i : text) (lst : list Z) : rres (sx * text) :=
  match n with
  | O => RFuel
  | S n' =>
    match i with
    | [] => RErr
    | c :: i' =>
      if c =? 34 then ROk (chars_datum "string" (rev lst), i')
      else if c =? 92 then rbind (string_escape i') (fun x => string_loop n' (snd x) (fst x :: lst))
      else string_loop n' i' (c :: lst)
    end
  end.
Definition subread_string (i : text) : rres (sx * text) :=
  rbind (skip_expected i [34]) (fun i' => string_loop (S (List.length i')) i' []).
(** 1.sf:601-625 *)
Definition char_datum (cp : Z) : sx :=
  let bits := codepoint_byte_width cp in
  if (bits =? 8) && string_safe_codepoint cp then datum "char" [XStr [cp]] else datum "char" [XNum bits; XNum cp].
Definition char_names : list (text * sx) :=
  [(str "null", datum "char" [XNum 8; XNum 0]); (str "alarm", datum "char" [XNum 8; XNum 7]);
   (str "backspace", datum "char" [XNum 8; XNum 8]); (str "tab", datum "char" [XNum 8; XNum 9]);
   (str "newline", datum "char" [XNum 8; XNum 10]); (str "linefeed", datum "char" [XNum 8; XNum 10]);
   (str "vtab", datum "char" [XNum 8; XNum 11]); (str "page", datum "char" [XNum 8; XNum 12]);
   (str "return", datum "char" [XNum 8; XNum 13]); (str "escape", datum "char" [XNum 8; XNum 27]);
   (str "space", datum "char" [XStr [32]]); (str "delete", datum "char" [XNum 8; XNum 127])].
Fixpoint lookup_name (s : text) (l : list (text * sx)) : option sx :=
  match l with [] => None | (n, d) :: l' => if cstr_eqb s n then Some d else lookup_name s l' end.
(** the letters at the front of the input *)
Fixpoint span (p : Z -> bool) (i : text) : text * text :=
  match i with c :: i' => if p c then let (a, b) := span p i' in (c :: a, b) else ([], i) | [] => ([], []) end.
Definition subread_char (i : text) : rres (sx * text) :=
  match i with
  | [] => RErr
  | c :: i' =>
    if delimited i' then ROk (char_datum c, i')
    else if c =? 120 then
      rbind (hex_scalar_value i') (fun x => if delimited (snd x) then ROk (char_datum (fst x), snd x) else RErr)
    else let (name, rest) := span char_alphabetic i in
      if delimited rest then match lookup_name name char_names with Some d => ROk (d, rest) | None => RErr end
      else RErr
  end.

(** ** #.( ... ), 1.sf:124-163 *)
Definition memv_num (x : sx) (l : list Z) : bool := match x with XNum z => existsb (Z.eqb z) l | _ => false end.
(** the first three clauses of unwrap: (string s), (symbol s), (integer w + s 10) *)
Definition unwrap_atom (t rest : sx) : option sx :=
  match rest with
  | XCons (XStr s) XNil => if is_sym t "string" then Some (XStr s) else if is_sym t "symbol" then Some (XSym s) else None
  | XCons w (XCons sg (XCons (XStr digits) (XCons r XNil))) =>
    if is_sym t "integer" && memv_num w [8; 16; 24] && is_sym sg "+" && memv_num r [10] then
      Some (match string_to_fixnum 8388608 digits 10 with Some z => XNum z | None => XOther end)
    else None
  | _ => None
  end.
Fixpoint unwrap (d : sx) : rres sx :=
  match d with
  | XCons t rest =>
    match unwrap_atom t rest with
    | Some x => ROk x
    | None =>
      if is_sym t "null" && match rest with XNil => true | _ => false end then ROk XNil
      else if is_sym t "pair" then
        match rest with
        | XCons a (XCons b XNil) => rbind (unwrap a) (fun x => rbind (unwrap b) (fun y => ROk (XCons x y)))
        | _ => RErr
        end
      else if is_sym t "list" then
        (fix all (l : sx) : rres sx :=
           match l with
           | XNil => ROk XNil
           | XCons a l' => rbind (unwrap a) (fun x => rbind (all l') (fun r => ROk (XCons x r)))
           | _ => RErr
           end) rest
      else RErr
    end
  | _ => RErr
  end.
(** 1.sf:154-163 *)
Definition verbatim_datum (d : sx) : rres sx :=
  rbind (unwrap d) (fun l => match l with XCons (XSym t) cc => ROk (XCons (XSym t) cc) | _ => RErr end).

(** ** reader extensions (#read ... as ...), 1.sf:772-850 *)
Inductive param := PDatum | PList | PString.
(** prefix, parameter with its name, template *)
Record ext := mkext { e_pfx : text; e_param : option param; e_tmpl : sx }.
Definition param_name (p : param) : text := match p with PDatum => str "<datum>" | PList => str "<list>" | PString => str "<string>" end.
(** 1.sf:781-789 reader-template-replace *)
Fixpoint template_replace (p : param) (d td : sx) : rres sx :=
  if sx_eqb td (datum "symbol" [XStr (param_name p)]) then ROk d
  else match td with
       | XSym s => if cstr_eqb s (str "parsed-" ++ param_name p) then ROk d
                   else if cstr_eqb s (param_name p) then unwrap d else ROk td
       | XCons a b => rbind (template_replace p d a) (fun x => rbind (template_replace p d b) (fun y => ROk (XCons x y)))
       | _ => ROk td
       end.
(** the characters of c*: anything else makes memv or list->string fail *)
Fixpoint chars_of (l : list sx) : option text :=
  match l with [] => Some [] | XChr c :: l' => option_map (cons c) (chars_of l') | _ => None end.
(** 1.sf:822-850 up to the closure; the text before the first [<] is the prefix *)
Definition extend_reader (r : list ext) (d : sx) : rres (list ext) :=
  match elems d with
  | Some (_ :: cs :: tmpl :: _) =>
    match match elems cs with Some l => chars_of l | None => None end with
    | None => RCrash
    | Some c =>
      let (pfx, tail) := span (fun x => negb (x =? 60)) c in
      match tail with
      | [] => ROk (mkext pfx None tmpl :: r)
      | _ => if cstr_eqb tail (str "<datum>") then ROk (mkext pfx (Some PDatum) tmpl :: r)
             else if cstr_eqb tail (str "<list>") then ROk (mkext pfx (Some PList) tmpl :: r)
             else if cstr_eqb tail (str "<string>") then ROk (mkext pfx (Some PString) tmpl :: r)
             else RErr
      end
    end
  | _ => RCrash
  end.
(** 1.sf:806-819, 843-850: the test of one extension *)
Definition ext_match (e : ext) (i : text) : option text :=
  match e_param e with
  | None => delimited_prefix i (e_pfx e)
  | Some p => match input_prefix i (e_pfx e) with
              | None => None
              | Some i' => match p with
                           | PDatum => Some i'
                           | PList => match i' with c :: _ => if c =? 40 then Some i' else None | [] => None end
                           | PString => match i' with c :: _ => if c =? 34 then Some i' else None | [] => None end
                           end
              end
  end.
(** extensions are tried from the latest to the earliest, then initial-reader *)
Fixpoint find_ext (r : list ext) (i : text) : option (ext * text) :=
  match r with [] => None | e :: r' => match ext_match e i with Some i' => Some (e, i') | None => find_ext r' i end end.

(** ** initial-reader, 1.sf:626-770 *)
Definition number_prefixes : list (text * (option string * Z)) :=
  [(str "#i#b", (Some "inexact"%string, 2)); (str "#i#o", (Some "inexact"%string, 8));
   (str "#i#d", (Some "inexact"%string, 10)); (str "#i#x", (Some "inexact"%string, 16));
   (str "#e#b", (Some "exact"%string, 2)); (str "#e#o", (Some "exact"%string, 8));
   (str "#e#d", (Some "exact"%string, 10)); (str "#e#x", (Some "exact"%string, 16));
   (str "#b#i", (Some "inexact"%string, 2)); (str "#o#i", (Some "inexact"%string, 8));
   (str "#d#i", (Some "inexact"%string, 10)); (str "#x#i", (Some "inexact"%string, 16));
   (str "#b#e", (Some "exact"%string, 2)); (str "#o#e", (Some "exact"%string, 8));
   (str "#d#e", (Some "exact"%string, 10)); (str "#x#e", (Some "exact"%string, 16));
   (str "#i", (Some "inexact"%string, 10)); (str "#e", (Some "exact"%string, 10));
   (str "#b", (None, 2)); (str "#o", (None, 8)); (str "#d", (None, 10)); (str "#x", (None, 16))].
Fixpoint find_number_prefix (i : text) (l : list (text * (option string * Z))) : option (text * (option string * Z)) :=
  match l with
  | [] => None
  | (p, er) :: l' => match input_prefix_ci i p with Some i' => Some (i', er) | None => find_number_prefix i l' end
  end.
Definition atmosphere : sx := datum "atmosphere" [].
Definition eof : sx := datum "eof" [].
Definition terminator (c : Z) : sx := datum "terminator" [XChr c].
(** 1.sf:629-633 *)
Fixpoint whitespace_loop (i : text) : sx * text :=
  match i with [] => (eof, []) | c :: i' => if char_whitespace c then whitespace_loop i' else (atmosphere, i) end.
(** 1.sf:634-638 *)
Fixpoint line_loop (i : text) : sx * text :=
  match i with [] => (eof, []) | c :: i' => if c =? 10 then (atmosphere, i') else line_loop i' end.
(** 1.sf:738-746: [depth] is the number of enclosing comments on the return chain *)
Fixpoint block_loop (depth : nat) (i : text) : rres (sx * text) :=
  match i with
  | [] => RErr
  | c :: i1 =>
    match i1 with
    | x :: i2 =>
      if (c =? 124) && (x =? 35) then match depth with O => ROk (atmosphere, i2) | S k => block_loop k i2 end
      else if (c =? 35) && (x =? 124) then block_loop (S depth) i2
      else block_loop depth i1
    | [] => block_loop depth i1
    end
  end.
(** 1.sf:688-710: [#<<] *)
Fixpoint here_tag (i : text) (lst : text) : rres (text * text) :=
  match i with
  | [] => RErr
  | c :: i' => if c =? 10 then match lst with [] => RErr | _ => ROk (lst, i') end else here_tag i' (c :: lst)
  end.
Fixpoint here_body (rtag : text) (i lst res : text) : rres (sx * text) :=
  match i with
  | [] => if cstr_eqb lst rtag then ROk (chars_datum "string" (rev res), i) else RErr
  | c :: i' =>
    if c =? 10 then
      if cstr_eqb lst rtag then ROk (chars_datum "string" (rev res), i)
      else here_body rtag i' [] (match res with [] => lst | _ => lst ++ 10 :: res end)
    else here_body rtag i' (c :: lst) res
  end.
(** 1.sf:717-736 between #read and the template *)
Definition blank (c : Z) : bool := (c =? 32) || (c =? 9).
Definition read_as_head (i : text) : rres (text * text) :=
  let (_, i1) := span blank i in
  match i1 with
  | [] => RErr
  | _ => let (name, i2) := span (fun c => negb (char_whitespace c)) i1 in
    match i2 with
    | [] => RErr
    | _ => let (_, i3) := span blank i2 in
      match i3 with
      | [] => RErr
      | _ => rbind (skip_expected i3 (str "as")) (fun i4 => if delimited i4 then ROk (name, i4) else RErr)
      end
    end
  end.
(** what initial-reader does with the input, up to reading the data inside *)
Inductive lexed :=
| LData (d : sx) (i : text)           (* finished *)
| LFail (crash : bool)
| LSub (wrap : sx -> sx) (i : text)   (* read one datum and wrap it *)
| LList (tc : Z) (i : text)           (* ( or [ *)
| LVector (i : text)
| LVerbatim (i : text)
| LReadAs (name : text) (i : text).
Definition lex_res (x : rres (sx * text)) : lexed :=
  match x with ROk (d, i) => LData d i | RErr => LFail false | _ => LFail true end.
Definition lex (i : text) : lexed :=
  match i with
  | [] => LData eof []
  | c :: i' =>
    if char_whitespace c then let (d, i2) := whitespace_loop i' in LData d i2
    else if c =? 59 then let (d, i2) := line_loop i' in LData d i2
    else if char_initial c then let (s, i2) := span char_subsequent i' in LData (chars_datum "symbol" (c :: s)) i2
    else match input_prefix_ci i (str "->") with
    | Some i2 => let (s, i3) := span char_subsequent i2 in LData (chars_datum "symbol" (45 :: 62 :: s)) i3 | None =>
    match delimited_prefix i (str ".") with Some i2 => LData (terminator 46) i2 | None =>
    match delimited_prefix i (str "+") with Some i2 => LData (datum "symbol" [XStr (str "+")]) i2 | None =>
    match delimited_prefix i (str "-") with Some i2 => LData (datum "symbol" [XStr (str "-")]) i2 | None =>
    match delimited_prefix i (str "...") with Some i2 => LData (datum "symbol" [XStr (str "...")]) i2 | None =>
    match delimited_prefix_ci i (str "#t") with Some i2 => LData (datum "boolean" [XNum 1]) i2 | None =>
    match delimited_prefix_ci i (str "#f") with Some i2 => LData (datum "boolean" [XNum 0]) i2 | None =>
    match find_number_prefix i number_prefixes with Some (i2, (e, radix)) => lex_res (subread_number i2 e radix) | None =>
    if char_number_initial c then lex_res (subread_number i None 10) else
    match input_prefix i [35; 92] with Some i2 => lex_res (subread_char i2) | None =>
    if c =? 34 then lex_res (subread_string i) else
    match input_prefix i (str "#<<") with
    | Some i2 => lex_res (rbind (here_tag i2 []) (fun x => here_body (fst x) (snd x) [] [])) | None =>
    match input_prefix i [39] with Some i2 => LSub (fun d => datum "list" [datum "symbol" [XStr (str "quote")]; d]) i2 | None =>
    match delimited_prefix i (str "#fload") with
    | Some i2 => LSub (fun d => datum "list" [datum "symbol" [XStr (str "load")]; d]) i2 | None =>
    match delimited_prefix i (str "#read") with
    | Some i2 => match read_as_head i2 with ROk (n, i3) => LReadAs n i3 | RErr => LFail false | _ => LFail true end | None =>
    match input_prefix i (str "#;") with Some i2 => LSub (fun _ => atmosphere) i2 | None =>
    match input_prefix i (str "#|") with Some i2 => lex_res (block_loop 0 i2) | None =>
    if (c =? 41) || (c =? 93) || (c =? 125) then LData (terminator c) i'
    else if c =? 40 then LList 41 i'
    else if c =? 91 then LList 93 i'
    else match input_prefix i (str "#(") with Some i2 => LVector i2 | None =>
    match input_prefix i (str "#&") with Some i2 => LSub (fun d => datum "box" [d]) i2 | None =>
    match input_prefix i (str "#.(") with Some i2 => LVerbatim i2 | None => LFail false
    end end end end end end end end end end end end end end end end end end
  end.

(** ** the engine, 1.sf:321-367 *)
Definition kons (vec : bool) (d d1 : sx) : sx := if vec then XCons d d1 else datum "pair" [d; d1].
Definition knil (vec : bool) : sx := if vec then XNil else datum "null" [].
(** (car (datum-components d)) compared with a character *)
Definition term_char (d : sx) : rres Z := match d with XCons _ (XCons (XChr c) _) => ROk c | _ => RCrash end.
(** (and limit (- limit 1)) *)
Definition dec (limit : option Z) : option Z := option_map (fun l => l - 1) limit.

Fixpoint rd (n : nat) (r : list ext) (i : text) {struct n} : rres (sx * text) :=
  match n with
  | O => RFuel
  | S n' =>
    match find_ext r i with
    | Some (e, i1) =>
      match e_param e with
      | None => ROk (e_tmpl e, i1)
      | Some p =>
        rbind (match p with
               | PDatum => subread n' r i1
               | PList => toterm n' r (tl i1) 41 true true false None
               | PString => subread_string i1
               end) (fun di => rbind (template_replace p (fst di) (e_tmpl e)) (fun d => ROk (d, snd di)))
      end
    | None =>
      match lex i with
      | LData d i' => ROk (d, i')
      | LFail crash => if crash then RCrash else RErr
      | LSub wrap i' => rbind (subread n' r i') (fun di => ROk (wrap (fst di), snd di))
      | LList tc i' => toterm n' r i' tc true true false None
      | LVector i' => rbind (toterm n' r i' 41 false true true None) (fun di => ROk (XCons (sym "vector") (fst di), snd di))
      | LVerbatim i' => rbind (toterm n' r i' 41 true false false None) (fun di =>
          rbind (verbatim_datum (fst di)) (fun d => ROk (d, snd di)))
      | LReadAs name i' => rbind (subread n' r i') (fun di => ROk (datum "read-as" [xlist (map XChr name); fst di], snd di))
      end
    end
  end
(** 1.sf:321-333 *)
with subread (n : nat) (r : list ext) (i : text) {struct n} : rres (sx * text) :=
  match n with
  | O => RFuel
  | S n' =>
    rbind (rd n' r i) (fun di => let (d, i') := di in
      if type_is d "eof" then RErr
      else if type_is d "atmosphere" then subread n' r i'
      else if type_is d "read-as" then RErr
      else if type_is d "terminator" then match term_char d with ROk _ => RErr | _ => RCrash end
      else ROk (d, i'))
  end
(** 1.sf:335-359 *)
with toterm (n : nat) (r : list ext) (i : text) (tc : Z) (dotted rdefs vec : bool) (limit : option Z) {struct n} : rres (sx * text) :=
  match n with
  | O => RFuel
  | S n' =>
    rbind (rd n' r i) (fun di => let (d, i') := di in
      if type_is d "eof" then RErr
      else if type_is d "atmosphere" then toterm n' r i' tc dotted rdefs vec limit
      else if type_is d "read-as" then
        if negb rdefs then RErr
        else rbind (extend_reader r d) (fun r' => toterm n' r' i' tc dotted rdefs vec limit)
      else if type_is d "terminator" then
        rbind (term_char d) (fun c =>
          if dotted && (c =? 46) then toterm n' r i' tc dotted rdefs vec (Some 1)
          else if c =? tc then match limit with None => ROk (knil vec, i') | Some l => if l =? 0 then ROk (knil vec, i') else RErr end
          else RErr)
      else rbind (toterm n' r i' tc dotted rdefs vec (dec limit)) (fun di1 =>
             ROk (match limit with Some l => if l =? 1 then d else kons vec d (fst di1) | None => kons vec d (fst di1) end, snd di1)))
  end.
(** 1.sf:365-374: eof is returned as a datum *)
Fixpoint subread_top (n : nat) (r : list ext) (i : text) : rres (sx * text * list ext) :=
  match n with
  | O => RFuel
  | S n' =>
    rbind (rd n' r i) (fun di => let (d, i') := di in
      if type_is d "atmosphere" then subread_top n' r i'
      else if type_is d "read-as" then rbind (extend_reader r d) (fun r' => subread_top n' r' i')
      else if type_is d "terminator" then match term_char d with ROk _ => RErr | _ => RCrash end
      else ROk (d, i', r))
  end.
(** a recursion depth that is enough for every input of this length (Properties_Read.v) *)
Definition enough (i : text) : nat := 2 * List.length i + 4.
Definition read_text (r : list ext) (i : text) : rres (sx * text * list ext) := subread_top (enough i) r i.
