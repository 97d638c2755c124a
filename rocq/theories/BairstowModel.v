(** Model of LinBairstowSolve, stator/symbolic/polynomial.hpp:1658-1719.

    Simplified: when the 2x2 matrix is singular (or the divisor is the zero
    polynomial) Eigen's inverse holds inf/nan, so do all later guesses; nan <= x
    is false, the remaining iterations run and the call throws: [Throw]. *)
From Verif Require Import Outcome Num PolyModel.

Section Bairstow.
Context {K : Type} {H : Num K}.
Open Scope num_scope.

(** One iteration, polynomial.hpp:1677-1695: the new guess and the step. *)
Definition bairstow_step (f guess : list K) : outcome (list K * K * K) :=
  match poly_gcd f guess with
  | DivInf _ => Throw
  | Div p1 rem1 =>
      match poly_gcd p1 guess with
      | DivInf _ => Throw
      | Div _ rem2 =>
          (* F << rem1[0], rem1[1] *)
          let F0 := get rem1 0 in let F1 := get rem1 1 in
          (* J << -rem2[0], guess[0]*rem2[1], -rem2[1], guess[1]*rem2[1] - rem2[0] *)
          let J00 := nopp (get rem2 0) in
          let J01 := get guess 0 *! get rem2 1 in
          let J10 := nopp (get rem2 1) in
          let J11 := get guess 1 *! get rem2 1 -! get rem2 0 in
          let det := J00 *! J11 -! J01 *! J10 in
          if neqb det n0 then Throw
          else
            (* dGuess = J.inverse() * (-F) *)
            let d0 := (J11 *! nopp F0 -! J01 *! nopp F1) /! det in
            let d1 := (J00 *! nopp F1 -! J10 *! nopp F0) /! det in
            Ret (upd (upd guess 0 (get guess 0 +! d0)) 1 (get guess 1 +! d1), d0, d1)
      end
  end.
(** The loop, at most 20 times; then it throws.  polynomial.hpp:1677-1703 *)
Fixpoint bairstow_loop (n : nat) (f : list K) (tol : K) (guess : list K) : outcome (list K) :=
  match n with
  | O => Throw
  | S m =>
      match bairstow_step f guess with
      | Ret (g, d0, d1) =>
          (* dGuess.squaredNorm() <= tolerance*tolerance *)
          if nltb (tol *! tol) (d0 *! d0 +! d1 *! d1) then bairstow_loop m f tol g else Ret g
      | Throw => Throw | UB => UB | Fuel => Fuel
      end
  end.
(** polynomial.hpp:1666-1674 and 1712-1719: recursion over a zero leading
    coefficient (the guess is not passed on), orders <= 2 returned as they are.
    [N] is the template order. *)
Definition default_guess : list K := [n0; n0; n1].
Fixpoint bairstow (N : nat) (f : list K) (tol : K) (guess : list K) : outcome (list K) :=
  if (N <=? 2)%nat then Ret (change_order 2 f)
  else match N with
       | O => UB
       | S N' => if neqb (get f N) n0 then bairstow N' (change_order N' f) tol default_guess
                 else bairstow_loop 20 f tol guess
       end.
End Bairstow.
