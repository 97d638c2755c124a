(** Complex numbers: std::complex<double> as a coefficient type
    (stator/symbolic/empty_sum.hpp:20-24, stator/symbolic/constants.hpp:165-172, 216) with the
    arithmetic of the C++ standard library in exact real numbers, and their text
    (constants.hpp:165-172) with doubles.

    Simplification: [nltb] has no counterpart (std::complex has no operator<); no function
    that uses it is applied to complex numbers. *)
From Coq Require Import Reals String Bool.
From Verif Require Import Num FloatModel FloatTextModel.

(** (real part, imaginary part) *)
Definition cplx : Type := (R * R)%type.
Section Ops.
Open Scope R_scope.
(** <complex>: T(), the arithmetic operators; the quotient is the mathematical one *)
Definition c_add (a b : cplx) : cplx := (fst a + fst b, snd a + snd b).
Definition c_sub (a b : cplx) : cplx := (fst a - fst b, snd a - snd b).
Definition c_mul (a b : cplx) : cplx :=
  (fst a * fst b - snd a * snd b, fst a * snd b + snd a * fst b).
Definition c_div (a b : cplx) : cplx :=
  let n := fst b * fst b + snd b * snd b in
  ((fst a * fst b + snd a * snd b) / n, (snd a * fst b - fst a * snd b) / n).
Definition c_opp (a : cplx) : cplx := (- fst a, - snd a).
Definition c_eqb (a b : cplx) : bool := (Reqb (fst a) (fst b) && Reqb (snd a) (snd b))%bool.
End Ops.
(** empty_sum.hpp:20-24: T(), that is 0 + 0i *)
Definition C_num : Num cplx :=
  {| n0 := (0, 0)%R; n1 := (1, 0)%R; nadd := c_add; nsub := c_sub; nmul := c_mul;
     ndiv := c_div; nopp := c_opp; neqb := c_eqb; nltb := fun _ _ => false |}.
(** std::complex(re) and std::conj *)
Definition c_of_real (x : R) : cplx := (x, 0)%R.
Definition c_conj (a : cplx) : cplx := (fst a, - snd a)%R.

(** constants.hpp:165-172 operator<<; a double goes to the stream with its default six
    significant digits, std::abs of a double clears the sign *)
Definition stream_double : d64 -> string := show_double 6.
Definition stream_complex (re im : d64) : string :=
  if d_eq im d_zero then stream_double re
  else if d_lt im d_zero then ("(" ++ stream_double re ++ " - " ++ stream_double (d_abs im) ++ "i)")%string
  else ("(" ++ stream_double re ++ " + " ++ stream_double im ++ "i)")%string.
