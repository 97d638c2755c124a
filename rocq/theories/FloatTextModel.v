(** The text of a double: repr(Float), /repo/stator/repr.hpp:54-59, without Latex_output:
      string_format("%.*g", numeric_limits<Float>::max_digits10 - Rounding_digits, a)
    For double max_digits10 is 17.  string_format (string.hpp:31-54) returns what
    vsnprintf prints (C28); what %.Pg prints is taken from the C standard
    (7.21.6.1, paragraph 8: f and g conversions), with the exact decimal value
    rounded to nearest, ties to even, as the C library does in the default
    rounding mode.  The sign of a NaN is printed, as glibc does. *)
From Coq Require Import ZArith String Ascii List Bool.
From Flocq Require Import Core Binary Bits.
From Verif Require Import FloatModel.
Import ListNotations.
Open Scope string_scope.
Open Scope Z_scope.

(** m * 2^e as a fraction. *)
Definition frac (m : positive) (e : Z) : Z * Z :=
  if 0 <=? e then (Zpos m * 2 ^ e, 1) else (Zpos m, 2 ^ (- e)).

(** The exponent X with 10^X <= n/d < 10^(X+1). *)
Fixpoint exp_up (k : nat) (n d : Z) : Z :=
  match k with O => 0 | S k => if 10 * d <=? n then exp_up k n (10 * d) + 1 else 0 end.
Fixpoint exp_down (k : nat) (n d : Z) : Z :=
  match k with O => 0 | S k => if n <? d then exp_down k (10 * n) d - 1 else 0 end.
Definition dec_exp (n d : Z) : Z := if d <=? n then exp_up 400 n d else exp_down 400 n d.

(** a/b rounded to the nearest integer, ties to even. *)
Definition rne (a b : Z) : Z :=
  let q := a / b in
  match 2 * (a mod b) ?= b with
  | Lt => q
  | Gt => q + 1
  | Eq => if Z.even q then q else q + 1
  end.

(** The P significant digits, as a number, and the decimal exponent of the first. *)
Definition significant (P : nat) (n d : Z) : Z * Z :=
  let X := dec_exp n d in
  let s := Z.of_nat P - 1 - X in
  let q := if 0 <=? s then rne (n * 10 ^ s) d else rne n (d * 10 ^ (- s)) in
  if q =? 10 ^ Z.of_nat P then (10 ^ (Z.of_nat P - 1), X + 1) else (q, X).

Definition digit_char (z : Z) : ascii := ascii_of_N (Z.to_N (48 + z)).
(** The last [n] decimal digits of [z]. *)
Fixpoint digs (n : nat) (z : Z) : string :=
  match n with O => "" | S n => digs n (z / 10) ++ String (digit_char (z mod 10)) "" end.
Fixpoint zeros (n : nat) : string := match n with O => "" | S n => String "0" (zeros n) end.
(** Trailing zeros are removed. *)
Fixpoint strip (s : string) : string :=
  match s with
  | "" => ""
  | String c r =>
      match strip r with
      | "" => if Ascii.eqb c "0" then "" else String c ""
      | u => String c u
      end
  end.
Fixpoint stake (n : nat) (s : string) : string :=
  match n, s with S n, String c r => String c (stake n r) | _, _ => "" end.
Fixpoint sdrop (n : nat) (s : string) : string :=
  match n, s with S n, String _ r => sdrop n r | _, _ => s end.
(** The fractional portion, with the decimal point if there is one. *)
Definition point (fr : string) : string := match fr with "" => "" | _ => "." ++ fr end.
(** At least two digits in the exponent. *)
Definition exponent (X : Z) : string :=
  "e" ++ (if X <? 0 then "-" else "+") ++ (if Z.abs X <? 100 then digs 2 (Z.abs X) else digs 3 (Z.abs X)).

Definition format_g (P : nat) (q X : Z) : string :=
  let D := digs P q in
  if ((-4 <=? X) && (X <? Z.of_nat P))%bool then
    if 0 <=? X then stake (Z.to_nat (X + 1)) D ++ point (strip (sdrop (Z.to_nat (X + 1)) D))
    else "0" ++ point (strip (zeros (Z.to_nat (- X - 1)) ++ D))
  else stake 1 D ++ point (strip (sdrop 1 D)) ++ exponent X.

Definition sign_text (s : bool) : string := if s then "-" else "".
Definition show_double (P : nat) (a : d64) : string :=
  match a with
  | B754_zero _ _ s => sign_text s ++ "0"
  | B754_infinity _ _ s => sign_text s ++ "inf"
  | B754_nan _ _ s _ _ => sign_text s ++ "nan"
  | B754_finite _ _ s m e _ =>
      let nd := frac m e in
      let qX := significant P (fst nd) (snd nd) in
      sign_text s ++ format_g P (fst qX) (snd qX)
  end.
(** repr(double) with the default configuration (Rounding_digits is 0). *)
Definition repr_double : d64 -> string := show_double 17.

Example show_tenth : repr_double (b64_div BinarySingleNaN.mode_NE (d_lit 1 0) (d_lit 10 0)) = "0.10000000000000001".
Proof. vm_compute. reflexivity. Qed.
Example show_some : map repr_double [d_lit 3 0; d_lit (-25) (-1); d_lit 1 70; d_lit 1 (-1074); d_lit (2^53-1) 971; d_lit 1 (-20); d_lit 123456789 10]
  = ["3"; "-12.5"; "1.1805916207174113e+21"; "4.9406564584124654e-324"; "1.7976931348623157e+308"; "9.5367431640625e-07"; "126419751936"].
Proof. vm_compute. reflexivity. Qed.
