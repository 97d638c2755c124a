(** Shapes and their measures: stator/geometry/*.hpp.

    Exact real arithmetic; vectors (Eigen column vectors of fixed size D) are
    lists of length D.  The indicator functions build compile-time symbolic
    expressions; the model gives their values (deltarij has the value of a
    displacement vector, Null that of the zero vector). *)
From Coq Require Import Reals List Factorial.
From Verif Require Import Outcome Num.
Import ListNotations.
Open Scope R_scope.

Definition vec := list R.
Definition vzip (f : R -> R -> R) (u v : vec) : vec := map (fun p => f (fst p) (snd p)) (combine u v).
Definition vadd := vzip Rplus.
Definition vsub := vzip Rminus.
Definition vneg (u : vec) : vec := map Ropp u.
(** dot, and pow<2> of a vector (binary_ops.hpp: the square of an Eigen vector is its dot product with itself) *)
Definition vdot (u v : vec) : R := fold_right Rplus 0 (vzip Rmult u v).
Definition vsq (u : vec) : R := vdot u u.
Definition vnull (D : nat) : vec := repeat 0 D.

(** ** box.hpp *)
(** AABox, box.hpp:36-51: the corners *)
Record aabox := { box_max : vec; box_min : vec }.
Definition dimensions (b : aabox) : vec := vsub (box_max b) (box_min b).
(** box.hpp:54-61; [D] is the number of components *)
Definition box_volume (D : nat) (b : aabox) : R :=
  let extent := dimensions b in
  for_up 1 (D - 1) (fun i measure => measure * nth i extent 0) (nth 0 extent 0).
(** box.hpp:64-72 *)
Definition box_area (D : nat) (b : aabox) : R :=
  let extent := dimensions b in
  2 * for_up 0 D (fun i measure =>
        for_up (i + 1) (D - (i + 1)) (fun j measure => measure + nth i extent 0 * nth j extent 0) measure) 0.

(** ** sphere.hpp *)
(** std::tgamma(n+1) for a whole number n *)
Definition tgamma_succ (n : nat) : R := INR (fact n).
(** volume of the unit ball: sphere.hpp:96-115 *)
Definition unit_ball_volume (D : nat) : R :=
  match D with
  | O => 1
  | S O => 2
  | _ => if Nat.odd D
         then 2 * tgamma_succ ((D - 1) / 2) * (4 * PI) ^ ((D - 1) / 2) / tgamma_succ D
         else PI ^ (D / 2) / tgamma_succ (D / 2)
  end.
(** sphere.hpp:117-120 *)
Definition unit_ball_area (D : nat) : R := INR D * unit_ball_volume D.
(** sphere.hpp:124-127 *)
Definition ball_volume (D : nat) (radius : R) : R := unit_ball_volume D * radius ^ D.
(** sphere.hpp:130-133; D is at least 1 (for D = 0 the exponent size_t(0)-1 wraps) *)
Definition ball_area (D : nat) (radius : R) : R := unit_ball_area D * radius ^ (D - 1).

(** ** indicator.hpp *)
Inductive shape :=
| Ball (radius : R) (center : vec)        (* sphere.hpp:38-67 *)
| Point (center : vec)                    (* point.hpp:33-54 *)
| HalfSpace (center normal : vec).        (* plane.hpp:40-54 *)

(** indicator.hpp:35-37 *)
Definition ind_ball_point (r : R) (ci cj delta : vec) : R := vsq (vsub (vadd delta ci) cj) - r ^ 2.
(** indicator.hpp:46-48 *)
Definition ind_ball_ball (ri : R) (ci : vec) (rj : R) (cj delta : vec) : R := vsq (vsub (vadd delta ci) cj) - (ri + rj) ^ 2.
(** indicator.hpp:52-54 *)
Definition ind_ball_half (r : R) (ci cj normal delta : vec) : R := vdot normal (vsub (vadd delta ci) cj) - r.
(** The overloads, with indicator.hpp:40-42 and 57-59; [None]: no overload. *)
Definition indicator (si sj : shape) (delta : vec) : option R :=
  match si, sj with
  | Ball r ci, Point cj => Some (ind_ball_point r ci cj delta)
  | Point ci, Ball r cj => Some (ind_ball_point r cj ci (vneg delta))
  | Ball ri ci, Ball rj cj => Some (ind_ball_ball ri ci rj cj delta)
  | Ball r ci, HalfSpace cj n => Some (ind_ball_half r ci cj n delta)
  | HalfSpace ci n, Ball r cj => Some (ind_ball_half r cj ci n (vneg delta))
  | _, _ => None
  end.
(** intersects, indicator.hpp:64-66 *)
Definition intersects (D : nat) (s1 s2 : shape) : option bool :=
  option_map (fun v => Rltb v 0) (indicator s1 s2 (vnull D)).
