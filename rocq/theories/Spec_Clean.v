(** What the peephole pass may do to a text. *)
From Coq Require Import ZArith List.
From Verif Require Import Model_CStr.
Import ListNotations.
Open Scope Z_scope.

Definition digit (d : Z) : Prop := 48 <= d <= 57.
(** [= (r[d]);] and [= r[d];] with two spaces *)
Definition par_before (d : Z) : str := [61; 32; 40; 114; 91; d; 93; 41; 59].
Definition par_after (d : Z) : str := [61; 32; 114; 91; d; 93; 59; 32; 32].
(** [r[d] = (r[d]);] and a comment of the same length *)
Definition self_before (d : Z) : str := [114; 91; d; 93; 32; 61; 32; 40; 114; 91; d; 93; 41; 59].
Definition self_after (d : Z) : str := [47; 42; 32; 114; 91; d; 93; 32; 42; 47; 32; 32; 32; 32].

(** [t] is [s] with every such piece, taken from the left, rewritten, up to the first double quote *)
Inductive clean : str -> str -> Prop :=
| cl_end : clean [] []
| cl_quote s : clean (34 :: s) (34 :: s)
| cl_par d s t : digit d -> clean s t -> clean (par_before d ++ s) (par_after d ++ t)
| cl_self d s t : digit d -> clean s t -> clean (self_before d ++ s) (self_after d ++ t)
| cl_other c s t : c <> 34 ->
    (forall d u, digit d -> c :: s <> par_before d ++ u) ->
    (forall d u, digit d -> c :: s <> self_before d ++ u) ->
    clean s t -> clean (c :: s) (c :: t).

(** Register moves as the code generator prints them: [r[i] = (r[j]);] with the numerals [i], [j],
    an end of line and indentation after each. *)
Definition move := (str * str)%type.
Definition numeral10 (n : str) : Prop := n <> [] /\ Forall digit n.
Definition eol : str := [10; 32; 32; 32; 32].
Definition print_move (m : move) : str :=
  [114; 91] ++ fst m ++ [93; 32; 61; 32; 40; 114; 91] ++ snd m ++ [93; 41; 59] ++ eol.
Definition print_moves (l : list move) : str := concat (map print_move l).
(** What the pass makes of one move: a comment, a move without parentheses, or the same text *)
Definition clean_move (m : move) : str :=
  match m with
  | ([a], [b]) => if a =? b then self_after a ++ eol else [114; 91; a; 93; 32] ++ par_after b ++ eol
  | (i, [b]) => [114; 91] ++ i ++ [93; 32] ++ par_after b ++ eol
  | _ => print_move m
  end.

(** Meaning of such a text on the registers: blanks, comments, and assignments with or without
    parentheses. *)
Definition regs := Z -> Z.
Definition setr (r : regs) (n v : Z) : regs := fun x => if x =? n then v else r x.
Definition num (n : str) : Z := fold_left (fun v c => 10 * v + (c - 48)) n 0.
Inductive exec : str -> regs -> regs -> Prop :=
| ex_end r r' : (forall x, r' x = r x) -> exec [] r r'
| ex_blank c s r r' : c = 32 \/ c = 10 -> exec s r r' -> exec (c :: s) r r'
| ex_comment t s r r' : (forall a b, t <> a ++ 42 :: 47 :: b) -> exec s r r' -> exec ([47; 42] ++ t ++ [42; 47] ++ s) r r'
| ex_move i j s r r' : numeral10 i -> numeral10 j -> exec s (setr r (num i) (r (num j))) r' ->
    exec ([114; 91] ++ i ++ [93; 32] ++ [61; 32; 114; 91] ++ j ++ [93; 59] ++ s) r r'
| ex_par i j s r r' : numeral10 i -> numeral10 j -> exec s (setr r (num i) (r (num j))) r' ->
    exec ([114; 91] ++ i ++ [93; 32; 61; 32; 40; 114; 91] ++ j ++ [93; 41; 59] ++ s) r r'.
