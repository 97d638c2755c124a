(** Specification vocabulary for root counting and solving (C12-C21). *)
From Coq Require Import List Reals Sorted.
From Verif Require Import PolySpec.
Import ListNotations.
Open Scope R_scope.

(** (x - r1)(x - r2)... *)
Fixpoint prod_roots (rs : list R) (x : R) : R :=
  match rs with [] => 1 | r :: t => (x - r) * prod_roots t x end.

(** [rs] lists the roots of [f] that satisfy [S], each with its multiplicity:
    they can be divided out and what is left has no root in [S]. *)
Definition roots_in (S : R -> Prop) (f : list R) (rs : list R) : Prop :=
  Forall S rs /\
  exists g, (forall x, pval f x = prod_roots rs x * pval g x) /\ (forall x, S x -> pval g x <> 0).

Definition positive (x : R) : Prop := 0 < x.
Definition between (a b x : R) : Prop := a < x < b.

(** root list of a solver: strictly increasing / increasing, exactly the real roots *)
Definition exactly_roots (f : list R) (l : list R) : Prop := forall x, In x l <-> is_root f x.
Definition increasing (l : list R) : Prop := StronglySorted Rlt l.
Definition nondecreasing (l : list R) : Prop := StronglySorted Rle l.

(** an open interval between two end points given in either order *)
Definition inside (p : R * R) (z : R) : Prop :=
  (fst p < z < snd p) \/ (snd p < z < fst p).

(** [L] isolates the points satisfying [Z]: every point is inside some interval,
    every interval contains exactly one point, intervals are pairwise disjoint. *)
Definition isolates (L : list (R * R)) (Z : R -> Prop) : Prop :=
  (forall z, Z z -> exists p, In p L /\ inside p z) /\
  (forall p, In p L -> exists z, (Z z /\ inside p z) /\ forall z', Z z' /\ inside p z' -> z' = z) /\
  ForallOrdPairs (fun p q => forall z, ~ (inside p z /\ inside q z)) L.

(** every real root is simple: the derivative does not vanish at it *)
Definition simple_roots (f : list R) : Prop :=
  forall x, is_root f x -> ~ derivable_pt_lim (pval f) x 0.

(** [x] is [r] up to the relative tolerance [tol] *)
Definition close_to (tol x r : R) : Prop := Rabs (x - r) <= tol * Rabs x.
