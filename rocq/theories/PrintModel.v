(** Printing of polynomials (stator/symbolic/polynomial.hpp:1906-1926). *)
From Coq Require Import String NArith ZArith Decimal DecimalString.
From Verif Require Import Outcome Num PolyModel ParserModel.
Open Scope string_scope.

Section PolyRepr.
Context {K : Type} `{Num K}.
(** repr<Config>(coefficient): see repr.hpp:58-76. *)
Variable show : K -> string.
(** PolyVar::getName() *)
Variable name : string.

(** [oss << i] for a size_t: its decimal digits. *)
Definition put_size (i : nat) : string := NilZero.string_of_uint (N.to_uint (N.of_nat i)).

(** polynomial.hpp:1911-1919, the body of the loop over [i = N .. 1];
    the state is ([terms], the text written to [oss] so far). *)
Definition repr_step (f : list K) (i : nat) (st : nat * string) : nat * string :=
  let '(terms, oss) := st in
  if neqb (get f i) n0 then st
  else
    (S terms,
     oss ++ (if Nat.eqb terms 0 then "" else " + ")
         ++ show (get f i) ++ "*" ++ name
         ++ (if Nat.ltb 1 i then "^" ++ put_size i else "")).

(** polynomial.hpp:1907-1926 *)
Definition poly_repr (f : list K) : string :=
  let N := porder f in
  let '(terms, oss) := for_down N N (repr_step f) (0, "P(") in
  let oss :=
    if (negb (neqb (get f 0) n0) || Nat.eqb terms 0)%bool
    then oss ++ (if Nat.eqb terms 0 then "" else " + ") ++ show (get f 0)
    else oss in
  oss ++ ")".
End PolyRepr.
