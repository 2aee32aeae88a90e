(** What a reader should do with texts. *)
From Coq Require Import ZArith List Bool String.
From Verif Require Import Model_Sym Model_Lit Model_Read.
Import ListNotations.
Open Scope Z_scope.

(** ** Texts on which reading always ends *)
(** Texts that do not use #.( and whose #read forms (if any) have a nonempty prefix, that is, the pattern
    after #read does not start with [<] *)
Definition plain (i : text) : Prop :=
  (forall a b, i <> a ++ codes "#.(" ++ b) /\
  (forall a k b, Forall (fun c => c = 32 \/ c = 9) k -> i <> a ++ codes "#read" ++ k ++ 60 :: b).
(** the types of data proper *)
Definition ordinary_types : list string :=
  ["null"; "pair"; "list"; "boolean"; "integer"; "decimal"; "ratio"; "nan"; "inf"; "rectangular"; "polar"; "inexact";
   "exact"; "char"; "string"; "symbol"; "vector"; "box"]%string.
Definition ordinary (d : sx) : Prop := exists t cc, In t ordinary_types /\ d = XCons (XSym (codes t)) cc.
(** extensions of the reader made by the #read forms of plain texts *)
Definition plain_ext (e : ext) : Prop := e_pfx e <> [] /\ ordinary (e_tmpl e).

(** ** Reading a whole file: data until the end or an error *)
Inductive file_reads : list ext -> text -> list sx -> bool -> Prop :=
| fr_end r i r' : read_text r i = ROk (eof, [], r') -> file_reads r i [] true
| fr_error r i : read_text r i = RErr -> file_reads r i [] false
| fr_next r i d i' r' l b : read_text r i = ROk (d, i', r') -> ordinary d -> file_reads r' i' l b -> file_reads r i (d :: l) b.

(** the result of reading one datum, for every depth that is enough *)
Definition returns (r : list ext) (i : text) (x : rres (sx * text * list ext)) : Prop :=
  exists N, forall n, (N <= n)%nat -> subread_top n r i = x.

(** ** Spaced-out texts *)
Definition white (c : Z) : Prop := c = 32 \/ 9 <= c <= 13.
Definition delim (c : Z) : Prop := white c \/ In c (codes "()[]{};#") \/ c = 34.
(** the end of the text or a delimiter *)
Definition ends_token (i : text) : Prop := match i with [] => True | c :: _ => delim c end.
(** what a text means on its own, in the initial reader *)
Definition reads_as (i : text) (d : sx) : Prop := read_text [] i = ROk (d, [], []).
(** tokens: texts that read as a datum and do not start like white space, a comment, a list, an abbreviation or a
    here-string *)
Definition token_start (a : text) : Prop :=
  match a with
  | [] => False
  | c :: a' => ~ white c /\ ~ In c [59; 40; 91; 39] /\
      (c = 35 -> match a' with
                 | [] => False
                 | c' :: _ => ~ In c' [40; 38; 59; 124; 60; 46] /\ firstn 4 a' <> codes "read" /\ firstn 5 a' <> codes "fload"
                 end)
  end.
Definition token (a : text) (d : sx) : Prop := token_start a /\ reads_as a d /\ ordinary d.

(** the text of a block comment after the opening #|, up to and with the matching |#; [quiet]: neither bracket
    occurs *)
Definition quiet (t : text) : Prop := forall a b, t <> a ++ [35; 124] ++ b /\ t <> a ++ [124; 35] ++ b.
Inductive comment_body : text -> Prop :=
| cb_end t : quiet (t ++ [124]) -> comment_body (t ++ [124; 35])
| cb_nested t n k : quiet (t ++ [35]) -> comment_body n -> comment_body k -> comment_body (t ++ [35; 124] ++ n ++ k).

Inductive tree :=
| TTok (a : text)
| TQuote (t : tree) | TLoad (t : tree) | TBox (t : tree)
| TList (l : list tree) | TDot (l : list tree) (t : tree)
| TVec (l : list tree).
Inductive item := IDat (t : tree) | IDot.

(** [gap i j]: [i] is white space and comments followed by [j]; [wrote t i j]: [i] is white space and comments,
    then [t], then [j]; [seq l c i j]: [i] is the items [l] and the closing bracket [c], then [j] *)
Inductive gap : text -> text -> Prop :=
| gap_none i : gap i i
| gap_space c i j : white c -> gap i j -> gap (c :: i) j
| gap_line l i j : ~ In 10 l -> gap i j -> gap (59 :: l ++ 10 :: i) j
| gap_block b i j : comment_body b -> gap i j -> gap (35 :: 124 :: b ++ i) j
| gap_datum t i k j : wrote t i k -> gap k j -> gap (35 :: 59 :: i) j
with wrote : tree -> text -> text -> Prop :=
| wr_gap t i j k : gap i j -> wrote t j k -> wrote t i k
| wr_token a d k : token a d -> (ends_token k \/ hd 0 a = 34) -> wrote (TTok a) (a ++ k) k
| wr_quote t i k : wrote t i k -> wrote (TQuote t) (39 :: i) k
| wr_load t i k : ends_token i -> wrote t i k -> wrote (TLoad t) (codes "#fload" ++ i) k
| wr_box t i k : wrote t i k -> wrote (TBox t) (35 :: 38 :: i) k
| wr_paren l i k : seq (map IDat l) 41 i k -> wrote (TList l) (40 :: i) k
| wr_bracket l i k : seq (map IDat l) 93 i k -> wrote (TList l) (91 :: i) k
| wr_dparen l t i k : l <> [] -> seq (map IDat l ++ [IDot; IDat t]) 41 i k -> wrote (TDot l t) (40 :: i) k
| wr_dbracket l t i k : l <> [] -> seq (map IDat l ++ [IDot; IDat t]) 93 i k -> wrote (TDot l t) (91 :: i) k
| wr_vector l i k : seq (map IDat l) 41 i k -> wrote (TVec l) (35 :: 40 :: i) k
with seq : list item -> Z -> text -> text -> Prop :=
| sq_close c i k : In c [41; 93] -> gap i (c :: k) -> seq [] c i k
| sq_datum t l c i j k : wrote t i j -> seq l c j k -> seq (IDat t :: l) c i k
| sq_dot l c i j k : gap i (46 :: j) -> ends_token j -> seq l c j k -> seq (IDot :: l) c i k.

(** the datum of a tree; tokens mean what they read as on their own *)
Inductive means : tree -> sx -> Prop :=
| mn_tok a d : token a d -> means (TTok a) d
| mn_quote t d : means t d -> means (TQuote t) (datum "list" [datum "symbol" [XStr (codes "quote")]; d])
| mn_load t d : means t d -> means (TLoad t) (datum "list" [datum "symbol" [XStr (codes "load")]; d])
| mn_box t d : means t d -> means (TBox t) (datum "box" [d])
| mn_nil : means (TList []) (datum "null" [])
| mn_cons t l d e : means t d -> means (TList l) e -> means (TList (t :: l)) (datum "pair" [d; e])
| mn_dot1 t u d e : means t d -> means u e -> means (TDot [t] u) (datum "pair" [d; e])
| mn_dots t l u d e : means t d -> means (TDot l u) e -> means (TDot (t :: l) u) (datum "pair" [d; e])
| mn_vec l ds : Forall2 means l ds -> means (TVec l) (datum "vector" ds).

(** extensions that are never tried on these texts: their prefixes start with a backquote, a comma or #u, as those
    of the libraries do *)
Definition aside (e : ext) : Prop := exists c p, e_pfx e = c :: p /\ (c = 96 \/ c = 44 \/ c = 35 /\ hd 0 p = 117).

Fixpoint pairs (l : list sx) (e : sx) : sx := match l with [] => e | d :: l' => datum "pair" [d; pairs l' e] end.

(** ** Dotted lists *)
Definition brackets (op c : Z) : Prop := op = 40 /\ c = 41 \/ op = 91 /\ c = 93.
(** no dot, or exactly one datum after the last dot: the texts this reader accepts *)
Definition one_after_last_dot (l : list item) : Prop := ~ In IDot l \/ exists pre t, l = pre ++ [IDot; IDat t].
(** lists as the report defines them *)
Definition legal (l : list item) : Prop :=
  (exists ts, l = map IDat ts) \/ (exists ts t, ts <> [] /\ l = map IDat ts ++ [IDot; IDat t]).
