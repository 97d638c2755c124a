(** Compile-time rational constants: stator/symbolic/constants.hpp.

    A constant type C<n,d> is the pair (n,d) of its template arguments.  A
    computation that does not compile (zero denominator, a number that does not
    fit in std::intmax_t) is [Throw].

    std::ratio (C++ standard [ratio.ratio], [ratio.arithmetic]) is part of the
    model: ratio<n,d>::num and ::den are n and d divided by their greatest common
    divisor, with the sign in num; the arithmetic aliases are computed without
    intermediate overflow (libstdc++ does so) and are ill-formed when the result
    does not fit. *)
From Coq Require Import ZArith Bool List.
From Verif Require Import Outcome.
Import ListNotations.
Open Scope Z_scope.

(** The range std::ratio accepts: -INTMAX_MAX .. INTMAX_MAX. *)
Definition intmax_max : Z := 9223372036854775807.
Definition fits (n : Z) : bool := (- intmax_max <=? n) && (n <=? intmax_max).

(** C<Num, Denom>; constants.hpp:30-35 *)
Definition constant := (Z * Z)%type.

(** std::ratio<n,d>, as its (num, den) *)
Definition ratio (n d : Z) : outcome constant :=
  if d =? 0 then Throw
  else let g := Z.gcd n d in
       let num := Z.sgn d * (n / g) in
       let den := Z.abs (d / g) in
       if fits num && fits den then Ret (num, den) else Throw.

(** Naming std::ratio<n,d> with given template arguments: they must fit. *)
Definition ratio_of (c : constant) : outcome constant :=
  if fits (fst c) && fits (snd c) then ratio (fst c) (snd c) else Throw.

Inductive cop := CAdd | CSub | CMul | CDiv.

(** std::ratio_add, ratio_subtract, ratio_multiply, ratio_divide *)
Definition ratio_op (o : cop) (a b : constant) : outcome constant :=
  let '(n1, d1) := a in
  let '(n2, d2) := b in
  match o with
  | CAdd => ratio (n1 * d2 + n2 * d1) (d1 * d2)
  | CSub => ratio (n1 * d2 - n2 * d1) (d1 * d2)
  | CMul => ratio (n1 * n2) (d1 * d2)
  | CDiv => ratio (n1 * d2) (d1 * n2)      (* n2 = 0: ill-formed *)
  end.

(** operator+ - * / between constants, constants.hpp:110-128 (C_wrap at 40-43) *)
Definition c_op (o : cop) (a b : constant) : outcome constant :=
  do x <- ratio_of a; do y <- ratio_of b; ratio_op o x y.

(** unary operator- and operator+, constants.hpp:104-108 *)
Definition c_neg (a : constant) : constant := (- fst a, snd a).
Definition c_pos (a : constant) : constant := a.
(** abs, constants.hpp:202-203 *)
Definition c_abs (a : constant) : constant :=
  ((1 - 2 * (if fst a <? 0 then 1 else 0)) * fst a, (1 - 2 * (if snd a <? 0 then 1 else 0)) * snd a).
(** operator==, constants.hpp:130-132; std::ratio_equal compares num and den *)
Definition c_eq (a b : constant) : outcome bool :=
  do x <- ratio_of a; do y <- ratio_of b;
  Ret ((fst x =? fst y) && (snd x =? snd y)).

(** The rational that stands for pi: stator/constants.hpp:93, and e: line 103. *)
Definition c_pi : constant := (47627751, 15160384).
Definition c_e : constant := (28245729, 10391023).

(** is_whole_factor<arg, factor, offset>, constants.hpp:170-173 *)
Definition is_whole_factor (arg factor offset : constant) : outcome bool :=
  do a <- ratio_of arg; do o <- ratio_of offset; do f <- ratio_of factor;
  do s <- ratio_op CSub a o; do q <- ratio_op CDiv s f;
  Ret (snd q =? 1).

(** Both overloads of sin_Cimpl (cos_Cimpl) are considered: their conditions are
    evaluated in turn.  The result is [None] when neither applies (then sin stays
    symbolic); when both would apply the call is ambiguous: [Throw]. *)
Definition c_trig (at_pi at_half_pi : constant) (a : constant) : outcome (option constant) :=
  do w <- is_whole_factor a c_pi (0, 1);
  do half <- c_op CDiv c_pi (2, 1);
  do h <- is_whole_factor a c_pi half;
  match w, h with
  | true, true => Throw
  | true, false => Ret (Some at_pi)
  | false, true => Ret (Some at_half_pi)
  | false, false => Ret None
  end.
(** constants.hpp:180-186, 196-197 *)
Definition c_sin : constant -> outcome (option constant) := c_trig (0, 1) (1, 1).
(** constants.hpp:188-194, 199-200 *)
Definition c_cos : constant -> outcome (option constant) := c_trig (1, 1) (0, 1).

(** Factorial<i>::value, constants.hpp:90-102.  The product size_t * intmax_t is
    computed modulo 2^64; as a template argument of type std::intmax_t it must
    not be narrowed. *)
Fixpoint factorial (i : nat) : outcome constant :=
  match i with
  | O => Ret (1, 1)
  | S O => Ret (1, 1)
  | S i' => do f <- factorial i';
            do r <- ratio_of f;
            let p := (Z.of_nat i * fst r) mod 2 ^ 64 in
            if p <? 2 ^ 63 then Ret (p, 1) else Throw
  end.
(** InvFactorial<i>::value, constants.hpp:157-159 *)
Definition inv_factorial (i : nat) : outcome constant :=
  do f <- factorial i; do r <- ratio_of f; Ret (snd r, fst r).
