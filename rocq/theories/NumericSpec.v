(** Specification vocabulary for the iterative root finders (C22, C23). *)
From Coq Require Import Reals Relation_Operators ZArith List.
Open Scope R_scope.

(** a bnd: a number or one of the infinities *)
Inductive bnd := BFin (x : R) | BPInf | BNInf.
Definition above (lo : bnd) (v : R) : Prop :=
  match lo with BFin l => l <= v | BPInf => False | BNInf => True end.
Definition below (v : R) (hi : bnd) : Prop :=
  match hi with BFin h => v <= h | BPInf => True | BNInf => False end.
Definition within (lo hi : bnd) (v : R) : Prop := above lo v /\ below v hi.

(** the function value is negative at exactly one of the two points *)
Definition sign_change (F : R -> R) (a b : R) : Prop :=
  (F a < 0 /\ 0 <= F b) \/ (0 <= F a /\ F b < 0).

(** a step that does not end the iteration: either it stays in bounds and does
    not increase |F|, or it goes to the middle of a bracket lying in the bounds *)
Inductive accepted (F : R -> R) (lo hi : bnd) : R -> R -> Prop :=
| acc_descend u v : within lo hi v -> Rabs (F v) <= Rabs (F u) -> accepted F lo hi u v
| acc_bisect u a b : a < b -> within lo hi a -> within lo hi b -> sign_change F a b ->
    accepted F lo hi u ((a + b) / 2).

(** the convergence condition of the last step u -> v *)
Definition converged (F : R -> R) (lo hi : bnd) (prec u v : R) : Prop :=
  within lo hi v /\ (F v = 0 \/ Rabs (v - u) < Rabs (prec * v)).

Definition steps (F : R -> R) lo hi := clos_refl_trans R (accepted F lo hi).

(* ------------------------------------------------------------------------ *)
(** The path of a safeguarded iteration.  A configuration is the current point
    with the bounds still in force. *)
Record cfg := { at_ : R; low : bnd; high : bnd }.
Definition strictly_inside (c : cfg) (v : R) : Prop :=
  match low c with BFin l => l < v | BPInf => False | BNInf => True end /\
  match high c with BFin h => v < h | BPInf => True | BNInf => False end.

(** Newton's proposal: the root of the tangent at u *)
Definition tangent_root (F F1 : R -> R) (u v : R) : Prop :=
  F1 u <> 0 /\ F u + F1 u * (v - u) = 0.
(** Halley's proposal: the root of the osculating hyperbola, when it lies on the
    same side of u as Newton's *)
Definition halley_root (F F1 F2 : R -> R) (u v : R) : Prop :=
  0 < 2 * F1 u * F1 u - F u * F2 u /\
  2 * F u * F1 u + (2 * F1 u * F1 u - F u * F2 u) * (v - u) = 0.

Section Path.
Variable F : R -> R.
Variable prec : R.
Definition close_enough (u v : R) : Prop := F v = 0 \/ Rabs (v - u) < Rabs (prec * v).
(** a proposal is usable when it is strictly inside the bounds and either ends
    the iteration or does not increase |F| *)
Definition usable (m : R -> R -> Prop) (c : cfg) (v : R) : Prop :=
  m (at_ c) v /\ strictly_inside c v /\ (close_enough (at_ c) v \/ Rabs (F v) <= Rabs (F (at_ c))).
(** the point that was left becomes a bound on the side that was left *)
Definition moved (c : cfg) (v : R) : cfg :=
  {| at_ := v;
     low := if Rle_dec (at_ c) v then BFin (at_ c) else low c;
     high := if Rle_dec v (at_ c) then BFin (at_ c) else high c |}.
(** proposals are tried in order; if none is usable, and the bounds bracket a
    sign change, the middle is taken and the half with the sign change is kept *)
Inductive next : list (R -> R -> Prop) -> cfg -> cfg -> Prop :=
| next_move m ms c v : usable m c v -> next (m :: ms) c (moved c v)
| next_skip m ms c c' : (forall v, ~ usable m c v) -> next ms c c' -> next (m :: ms) c c'
| next_bisect u a b a' b' : a < b -> sign_change F a b ->
    let mid := (a + b) / 2 in
    (a' = a /\ b' = mid) \/ (a' = mid /\ b' = b) -> sign_change F a' b' ->
    next nil {| at_ := u; low := BFin a; high := BFin b |}
             {| at_ := mid; low := BFin a'; high := BFin b' |}.
(** n steps, none of which ended the iteration *)
Inductive path (ms : list (R -> R -> Prop)) : nat -> cfg -> cfg -> Prop :=
| path_0 c : path ms 0 c c
| path_S n c c1 c2 : path ms n c c1 -> next ms c1 c2 -> ~ close_enough (at_ c1) (at_ c2) ->
    path ms (S n) c c2.
(** the answers (flag, final point) a run that may make [n] steps can give *)
Definition path_result (ms : list (R -> R -> Prop)) (n : nat) (c0 : cfg) (r : bool * R) : Prop :=
  if fst r then
    exists k c1 c2, (k < n)%nat /\ path ms k c0 c1 /\ next ms c1 c2 /\
      close_enough (at_ c1) (at_ c2) /\ snd r = at_ c2
  else
    exists k c1, (k <= n)%nat /\ path ms k c0 c1 /\ snd r = at_ c1 /\
      (k = n \/ forall c2, ~ next ms c1 c2).
End Path.
