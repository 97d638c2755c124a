(** The constants of stator/constants.hpp:38-66 (constant<Scalar>) as double, and
    constant_ratio, 85-104, whose ratios are in ConstModel.v (c_pi, c_e).

    A literal with the suffix L is first rounded to long double, which has 53, 64 or 113
    bits of precision ([ldprec]) depending on the platform, then converted to double; a
    decimal literal is its value as a real number. *)
From Coq Require Import ZArith Reals.
From Flocq Require Import Core.
From Verif Require Import FloatModel FloatSpec FloatProofs ConstModel.
Open Scope R_scope.

Definition long_double (ldprec : Z) (x : R) : R := round radix2 (FLX_exp ldprec) ZnearestE x.
(** 3.1415926535897932384626433832795029L, constants.hpp:48-50 *)
Definition pi_literal : R := IZR 31415926535897932384626433832795029 / IZR (10 ^ 34).
(** 2.7182818284590452353602874713526624L, constants.hpp:63-65 *)
Definition e_literal : R := IZR 27182818284590452353602874713526624 / IZR (10 ^ 34).
Definition pi_double (ldprec : Z) : R := drnd (long_double ldprec pi_literal).
Definition e_double (ldprec : Z) : R := drnd (long_double ldprec e_literal).
(** constants.hpp:43-45, 53-55, 58-60: the literals are doubles, R() multiplies them *)
Definition boltzmann : R := drnd (IZR 13806488 / IZR (10 ^ 30)).
Definition avogadro : R := drnd (IZR 602214129 * IZR (10 ^ 15)).
Definition gas_constant : R := drnd (avogadro * boltzmann).
