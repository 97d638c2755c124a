(** Specification side of C61: the remainder of f on division by x^2 + B x + C. *)
From Coq Require Import List Reals.
From Verif Require Import PolySpec.
Import ListNotations.
Open Scope R_scope.

(** R x + S is the remainder: f = q (x^2 + B x + C) + R x + S for some polynomial q. *)
Definition remainder_is (f : list R) (B C S R' : R) : Prop :=
  exists q : list R, forall x, pval f x = pval q x * (x ^ 2 + B * x + C) + R' * x + S.
(** x^2 + B x + C divides f *)
Definition quadratic_factor (f : list R) (B C : R) : Prop :=
  exists q : list R, forall x, pval f x = pval q x * (x ^ 2 + B * x + C).
(** (dC, dB) is a Newton step at (B, C) for the equation "remainder = 0": the
    remainder (S, R) is differentiable in each of C and B, the Jacobian is
    regular, and the step solves the linearised equations. *)
Definition newton_step (f : list R) (B C dC dB : R) : Prop :=
  exists S R' : R -> R -> R,
    (forall b c, remainder_is f b c (S b c) (R' b c)) /\
    exists SC SB RC RB,
      derivable_pt_lim (fun c => S B c) C SC /\ derivable_pt_lim (fun b => S b C) B SB /\
      derivable_pt_lim (fun c => R' B c) C RC /\ derivable_pt_lim (fun b => R' b C) B RB /\
      SC * RB - SB * RC <> 0 /\
      S B C + SC * dC + SB * dB = 0 /\ R' B C + RC * dC + RB * dB = 0.
