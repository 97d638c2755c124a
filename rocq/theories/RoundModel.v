(** Rounded arithmetic.  The polynomial code is a template over the number type;
    here it runs on a binary floating-point type, each operation of which rounds
    its exact result (IEEE 754, 4.1 "correctly rounded").  [rnd] is the rounding;
    overflow, underflow and contraction of a*b+c into one operation are left out.
    Evaluation is [poly_eval] (stator/symbolic/polynomial.hpp:231-263) and the
    error estimate [poly_precision] (stator/symbolic/polynomial.hpp:615-645), both
    of PolyModel.v. *)
From Coq Require Import Reals.
From Verif Require Import Num.
Open Scope R_scope.

Definition Fl_num (rnd : R -> R) : Num R :=
  {| n0 := 0; n1 := 1; nadd := fun a b => rnd (a + b); nsub := fun a b => rnd (a - b);
     nmul := fun a b => rnd (a * b); ndiv := fun a b => rnd (a / b);
     nopp := Ropp; neqb := Reqb; nltb := Rltb |}.
(** polynomial.hpp:634-635: eps = 1.06 / std::pow(2, mantissa_digits) *)
Definition precision_eps (digits : nat) : R := 1.06 / 2 ^ digits.
