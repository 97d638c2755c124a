(** The value of a number in decimal notation, and what is asked of the conversion
    from text to double (stringstream >> double, /repo/stator/symbolic/parser.hpp:494-498). *)
From Coq Require Import ZArith Reals String Ascii Bool.
From Flocq Require Import Core Binary Bits.
From Verif Require Import ParserSpec FloatModel FloatSpec FloatProofs.
Open Scope string_scope.
Open Scope Z_scope.

Definition ten : radix := Build_radix 10 eq_refl.

(** The digits at the beginning of a text: their value appended to [n], how many
    there are on top of [k], and what follows. *)
Definition digit_val (c : ascii) : Z := Z.of_N (N_of_ascii c) - 48.
Fixpoint digits_at (s : string) (n k : Z) : Z * Z * string :=
  match s with
  | String c r =>
      if ((48 <=? N_of_ascii c)%N && (N_of_ascii c <=? 57)%N)%bool
      then digits_at r (10 * n + digit_val c) (k + 1) else (n, k, s)
  | "" => (n, k, "")
  end.
(** ddd.ddde+dd *)
Definition decimal_value (t : string) : R :=
  let '(i, _, r) := digits_at t 0 0 in
  let '(m, k, r2) :=
    match r with String c u => if Ascii.eqb c "." then digits_at u i 0 else (i, 0, r) | "" => (i, 0, r) end in
  let x :=
    match r2 with
    | String _ (String c u as w) =>
        if Ascii.eqb c "+" then fst (fst (digits_at u 0 0))
        else if Ascii.eqb c "-" then - fst (fst (digits_at u 0 0))
        else fst (fst (digits_at w 0 0))
    | _ => 0
    end in
  (IZR m * bpow ten (x - k))%R.

(** The conversion returns the double nearest to the value (ties to even), unless
    that is out of range. *)
Definition reads_nearest (read : string -> d64) : Prop :=
  forall t, is_number t -> (Rabs (drnd (decimal_value t)) < bpow radix2 1024)%R ->
  fin (read t) /\ dR (read t) = drnd (decimal_value t) /\ d_signbit (read t) = false.
