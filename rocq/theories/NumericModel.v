(** Model of stator/symbolic/numeric.hpp (safeguarded iterations) and of
    stator/symbolic/precision.hpp.

    Written over the number operations of Num.v.  Simplifications: there is one
    zero (no negative zero), no NaN; [std::isfinite(denominator)] is true for
    every model number.  References ([Real& x], [low_bound], ...) become the
    fields of a state record that is returned. *)
From Verif Require Export Num Outcome PolyModel.

Section NumericModel.
Context {K : Type} `{Num K}.
Local Open Scope num_scope.

Definition signbit (v : K) : bool := nltb v n0.
Definition n2 : K := n1 +! n1.

(** comparisons with a possibly infinite bound (HUGE_VAL) *)
Definition ge_bound (v : K) (b : xval K) : bool :=      (* v >= b *)
  match b with Fin h => negb (nltb v h) | PInf => false | NInf => true end.
Definition le_bound (v : K) (b : xval K) : bool :=      (* v <= b *)
  match b with Fin l => negb (nltb l v) | PInf => true | NInf => false end.

(** the returned int: 0 on error, 1 on success, 2 on convergence *)
Inductive status := Failed | Stepped | Converged.

Record nstate := { ns_x : K; ns_lo : xval K; ns_hi : xval K; ns_cur : list K }.

(** numeric.hpp:33-77 process_iterative_step *)
Definition process_step (f : K -> list K) (prec : K) (s : nstate) (new_x : K)
  : status * nstate :=
  if ge_bound new_x (ns_hi s) || le_bound new_x (ns_lo s) then (Failed, s)
  else
    let new_state := f new_x in
    let delta := new_x -! ns_x s in
    if nltb (nabs delta) (nabs (prec *! new_x)) || neqb (get new_state 0) n0 then
      (Converged, {| ns_x := new_x; ns_lo := ns_lo s; ns_hi := ns_hi s; ns_cur := new_state |})
    else if nltb (nabs (get (ns_cur s) 0)) (nabs (get new_state 0)) then (Failed, s)
    else
      (Stepped,
       {| ns_x := new_x;
          ns_lo := if negb (nltb delta n0) then Fin (ns_x s) else ns_lo s;
          ns_hi := if negb (nltb n0 delta) then Fin (ns_x s) else ns_hi s;
          ns_cur := new_state |}).

(** numeric.hpp:82-96 newton_raphson_step *)
Definition newton_raphson_step f prec (s : nstate) : status * nstate :=
  if neqb (get (ns_cur s) 1) n0 then (Failed, s)
  else process_step f prec s (ns_x s -! get (ns_cur s) 0 /! get (ns_cur s) 1).

(** numeric.hpp:100-130 halley_step.  When the first derivative is zero,
    deltaNR = -f/0 is infinite with the sign of -f, and delta is a zero whose
    sign bit is that of f'' (both for a +0 derivative). *)
Definition halley_step f prec (s : nstate) : status * nstate :=
  let c0 := get (ns_cur s) 0 in
  let c1 := get (ns_cur s) 1 in
  let c2 := get (ns_cur s) 2 in
  let numerator := n2 *! c0 *! c1 in
  let denominator := n2 *! c1 *! c1 -! c0 *! c2 in
  if neqb denominator n0 then (Failed, s)
  else
    let delta := nopp numerator /! denominator in
    let agree :=
      if neqb c1 n0 then Bool.eqb (signbit c2) (nltb n0 c0)
      else Bool.eqb (signbit delta) (signbit (nopp c0 /! c1)) in
    if agree then process_step f prec s (ns_x s +! delta) else (Failed, s).

(** numeric.hpp:134-143 schroeder_step *)
Definition schroeder_step f prec (s : nstate) : status * nstate :=
  let c0 := get (ns_cur s) 0 in
  let c1 := get (ns_cur s) 1 in
  let c2 := get (ns_cur s) 2 in
  if neqb c1 n0 then (Failed, s)
  else process_step f prec s
         (ns_x s -! n2 *! c0 *! c1 -! c2 *! c0 *! c0 /! (n2 *! c1 *! c1 *! c1)).

(** numeric.hpp:147-195 bisection_step *)
Definition bisection_step (f : K -> list K) prec (s : nstate) : status * nstate :=
  match ns_lo s, ns_hi s with
  | Fin lo, Fin hi =>
      if negb (nltb lo hi) then (Failed, s)
      else
        let f_low := f lo in
        let f_high := f hi in
        if Bool.eqb (signbit (get f_low 0)) (signbit (get f_high 0)) then (Failed, s)
        else
          let x_mid := (lo +! hi) /! n2 in
          let new_state := f x_mid in
          let delta := x_mid -! ns_x s in
          if nltb (nabs delta) (nabs (prec *! x_mid)) || neqb (get new_state 0) n0
             || neqb x_mid lo || neqb x_mid hi then
            (Converged, {| ns_x := x_mid; ns_lo := Fin lo; ns_hi := Fin hi; ns_cur := new_state |})
          else
            let up := Bool.eqb (signbit (get new_state 0)) (signbit (get f_high 0)) in
            (Stepped,
             {| ns_x := x_mid;
                ns_lo := if up then Fin lo else Fin x_mid;
                ns_hi := if up then Fin x_mid else Fin hi;
                ns_cur := new_state |})
  | _, _ => (Failed, s)
  end.

(** numeric.hpp:207-208, 239-240: iterations = 0 means SIZE_MAX *)
Definition eff_iterations (n : N) : N := if N.eqb n 0 then (2 ^ 64 - 1)%N else n.

(** the loop [while ((--iterations) && (status != 2))] with fallback order given
    by [step]; the loop body runs at most [iterations - 1] times. *)
Fixpoint iterate (n : nat) (step : nstate -> status * nstate) (s : nstate) : bool * nstate :=
  match n with
  | O => (false, s)
  | S n' =>
      match step s with
      | (Failed, s') => (false, s')
      | (Converged, s') => (true, s')
      | (Stepped, s') => iterate n' step s'
      end
  end.

Definition or_else (a b : nstate -> status * nstate) (s : nstate) : status * nstate :=
  match a s with
  | (Failed, s') => b s'
  | r => r
  end.

(** numeric.hpp:203-231 newton_raphson.  Returns the bool and the final state
    (the reference argument x is [ns_x]). *)
Definition newton_raphson (f : K -> list K) (prec x : K) (lo hi : xval K) (iterations : N)
  : bool * nstate :=
  let s := {| ns_x := x; ns_lo := lo; ns_hi := hi; ns_cur := f x |} in
  if neqb (get (ns_cur s) 0) n0 then (true, s)
  else iterate (N.to_nat (N.pred (eff_iterations iterations)))
         (or_else (newton_raphson_step f prec) (bisection_step f prec)) s.

(** numeric.hpp:238-271 halleys_method *)
Definition halleys_method (f : K -> list K) (prec x : K) (lo hi : xval K) (iterations : N)
  : bool * nstate :=
  let s := {| ns_x := x; ns_lo := lo; ns_hi := hi; ns_cur := f x |} in
  if neqb (get (ns_cur s) 0) n0 then (true, s)
  else iterate (N.to_nat (N.pred (eff_iterations iterations)))
         (or_else (halley_step f prec) (or_else (newton_raphson_step f prec) (bisection_step f prec))) s.

(** numeric.hpp:273-327 bisection.  [x] is assigned the better endpoint and then
    only on success, so [delta] is the distance to that endpoint in every
    iteration.  The second component is the final value of the reference x
    ([None]: not assigned).  [trace] collects the points where f is evaluated. *)
Fixpoint bisect_loop (n : nat) (f : K -> K) (prec x lo hi f_high : K) (trace : list K)
  : bool * K * list K :=
  match n with
  | O => (false, x, trace)
  | S n' =>
      let x_mid := (lo +! hi) /! n2 in
      let new_state := f x_mid in
      let trace := x_mid :: trace in
      let delta := x_mid -! x in
      if nltb (nabs delta) (nabs (prec *! x_mid)) || neqb new_state n0
         || neqb x_mid lo || neqb x_mid hi then (true, x_mid, trace)
      else if Bool.eqb (signbit new_state) (signbit f_high)
      then bisect_loop n' f prec x lo x_mid new_state trace
      else bisect_loop n' f prec x x_mid hi f_high trace
  end.

Definition bisection (f : K -> K) (prec : K) (low high : xval K) (iterations : N)
  : bool * option K * list K :=
  match low, high with
  | Fin lo, Fin hi =>
      if negb (nltb lo hi) then (false, None, [])
      else if Bool.eqb (signbit (f lo)) (signbit (f hi)) then (false, None, [hi; lo])
      else
        let x0 := if nltb (nabs (f lo)) (nabs (f hi)) then lo else hi in
        let '(ok, x, tr) :=
          bisect_loop (N.to_nat (N.pred (eff_iterations iterations))) f prec x0 lo hi (f hi) [hi; lo] in
        (ok, Some x, tr)
  | _, _ => (false, None, [])
  end.

End NumericModel.
Arguments nstate : clear implicits.

(** precision.hpp:40-66 on non-zero numbers m * 2^e: [std::frexp] writes the
    exponent E with 2^(E-1) <= |v| < 2^E; a zero argument gives exponent 0.
    Modelled on rationals-free data: a double is sign, positive mantissa m and
    exponent e (value m * 2^e), or zero.  frexp's exponent is e + bit length of m. *)
Inductive dbl := DZero | DNum (neg : bool) (m : positive) (e : Z).
Definition dneg (d : dbl) : dbl :=
  match d with DZero => DZero | DNum s m e => DNum (negb s) m e end.
Definition frexp_exp (d : dbl) : Z :=
  match d with DZero => 0%Z | DNum _ m e => (e + Z.pos (Pos.size m))%Z end.
Definition size_max : Z := (2 ^ 64 - 1)%Z.

(** precision.hpp:40-53 subtraction_precision *)
Definition subtraction_precision (f1 f2 : dbl) : Z :=
  match f1, f2 with
  | DNum s1 _ _, DNum s2 _ _ =>
      if negb (Bool.eqb s1 s2) then size_max
      else Z.abs (frexp_exp f1 - frexp_exp f2)
  | _, _ => size_max
  end.
(** precision.hpp:63-66 addition_precision *)
Definition addition_precision (f1 f2 : dbl) : Z := subtraction_precision f1 (dneg f2).
