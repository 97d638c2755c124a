(** Printing of Sturm chains (stator/symbolic/polynomial.hpp:1891-1898, 1094-1097,
    1139-1141). *)
From Coq Require Import String Ascii List Reals.
From Verif Require Import Outcome Num PolyModel RootsModel PrintModel.
Import ListNotations.
Open Scope string_scope.

Section ChainText.
Variable show : R -> string.
Variable name : string.

(** the text between two entries: ",\n           p_" *)
Definition entry_gap : string := "," ++ String (Ascii.ascii_of_nat 10) "           p_".
(** output_helper.  [c] is the rest of the chain, from order [pred (length c)] down to 0
    (the order of the type is one less than the number of polynomials that are left);
    polynomial.hpp:1094-1097, and 1139-1141 for the last one.  A polynomial is written by
    operator<< (symbolic.hpp:96-99), that is, by repr (polynomial.hpp:1906-1926). *)
Fixpoint output_helper (max_order : nat) (c : list (list R)) : string :=
  match c with
  | [] => ""
  | [p] => entry_gap ++ put_size max_order ++ "=" ++ poly_repr show name p
  | p :: t => entry_gap ++ put_size (max_order - pred (length c)) ++ "=" ++ poly_repr show name p ++ output_helper max_order t
  end.
(** polynomial.hpp:1891-1898; there is no such operator for a chain of order 0 (it has no
    second polynomial: the use does not compile). *)
Definition chain_text (f : list R) : string :=
  match sturm_chain f with
  | [] => ""
  | p :: t => "SturmChain{p_0=" ++ poly_repr show name p ++ output_helper (porder f) t ++ "}"
  end.
End ChainText.
