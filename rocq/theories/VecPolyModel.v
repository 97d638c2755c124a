(** Polynomials whose coefficients are Eigen vectors or matrices
    (stator/symbolic/polynomial.hpp, stator/symbolic/simplify.hpp:369-414).

    Sums, differences and signs are [poly_addsub] and [poly_neg] of PolyModel.v at the
    coefficient type (they only use its + - and zero, empty_sum.hpp:15-18).  Here are the
    operations that mix two types.  A coefficient type is given by a [Num] of which only
    zero, sum, difference and opposite are used, and by its product with a number. *)
From Coq Require Import List Arith Reals.
From Verif Require Import Num PolyModel.
Import ListNotations.

(** simplify.hpp:391-402, the product of polynomials with coefficients in A and B; [op] is
    the operator* of the two types, with values in C: retval[i] += l[j] * r[i-j] *)
Definition vpoly_product {A B C} {NA : Num A} {NB : Num B} {NC : Num C} (op : A -> B -> C) (f : list A) (g : list B) : list C :=
  let M := porder f in
  let N := porder g in
  for_up 0 (S (N + M)) (fun i r =>
    let j0 := if Nat.ltb N i then i - N else 0 in
    for_up j0 (S (Nat.min i M) - j0) (fun j r =>
      upd r i (nadd (get r i) (op (get f j) (get g (i - j))))) r) (poly_zero (M + N)).

Section Scaled.
Context {A : Type} {NA : Num A}.
Variable sc : R -> A -> A.      (* number * vector *)
(** polynomial.hpp:267-291 PolySubWorker, used for a number as well when the coefficients
    are Eigen objects (300-310): f[Order - Stage] + x * (the rest) *)
Fixpoint vpoly_worker (stage : nat) (f : list A) (x : R) : A :=
  match stage with
  | O => get f (porder f)
  | S s => nadd (get f (porder f - stage)) (sc x (vpoly_worker s f x))
  end.
Definition vpoly_value (f : list A) (x : R) : A := vpoly_worker (porder f) f x.
(** polynomial.hpp:423-433: retval[i] = f[i+1] * (i+1) *)
Definition vpoly_deriv (f : list A) : list A :=
  for_up 0 (porder f) (fun i r => upd r i (sc (INR (S i)) (get f (S i)))) (poly_zero (porder f - 1)).
(** polynomial.hpp:423-443 *)
Definition vpoly_derivative (same_var : bool) (f : list A) : list A :=
  if (same_var && negb (Nat.eqb (porder f) 0))%bool then vpoly_deriv f else [n0].
(** simplify.hpp:404-414, division by a number: retval[i] += l[i] / r[0] *)
Definition vpoly_div0 (f : list A) (c : R) : list A :=
  for_up 0 (S (porder f)) (fun i r => upd r i (nadd (get r i) (sc (/ c)%R (get f i)))) (poly_zero (porder f)).
End Scaled.

(** Eigen::Matrix<double, 3, 1>: three numbers; + - unary minus, and times a number. *)
Definition vec3 : Type := (R * R * R)%type.
Definition v3 (op : R -> R -> R) (a b : vec3) : vec3 :=
  let '(a1, a2, a3) := a in let '(b1, b2, b3) := b in (op a1 b1, op a2 b2, op a3 b3).
Definition v3_scale (x : R) (a : vec3) : vec3 := let '(a1, a2, a3) := a in (x * a1, x * a2, x * a3)%R.
Definition V3_num : Num vec3 :=
  {| n0 := (0, 0, 0)%R; n1 := (1, 1, 1)%R; nadd := v3 Rplus; nsub := v3 Rminus; nmul := v3 Rmult; ndiv := v3 Rdiv;
     nopp := v3_scale (-1)%R; neqb := fun _ _ => false; nltb := fun _ _ => false |}.
(** Eigen::Matrix<double, 3, 3>: the three rows *)
Definition mat3 : Type := (vec3 * vec3 * vec3)%type.
Definition m3 (op : R -> R -> R) (a b : mat3) : mat3 :=
  let '(a1, a2, a3) := a in let '(b1, b2, b3) := b in (v3 op a1 b1, v3 op a2 b2, v3 op a3 b3).
Definition m3_scale (x : R) (a : mat3) : mat3 := let '(a1, a2, a3) := a in (v3_scale x a1, v3_scale x a2, v3_scale x a3).
Definition dot3 (a b : vec3) : R := let '(a1, a2, a3) := a in let '(b1, b2, b3) := b in (a1 * b1 + a2 * b2 + a3 * b3)%R.
(** matrix * vector, and matrix * matrix *)
Definition mat_vec (m : mat3) (a : vec3) : vec3 := let '(r1, r2, r3) := m in (dot3 r1 a, dot3 r2 a, dot3 r3 a).
Definition m3_transpose (m : mat3) : mat3 :=
  let '((a, b, c), (d, e, f), (g, h, i)) := m in ((a, d, g), (b, e, h), (c, f, i)).
Definition mat_mat (m n : mat3) : mat3 :=
  let '(r1, r2, r3) := m in let t := m3_transpose n in (mat_vec t r1, mat_vec t r2, mat_vec t r3).
Definition M3_num : Num mat3 :=
  {| n0 := ((0, 0, 0), (0, 0, 0), (0, 0, 0))%R; n1 := ((1, 0, 0), (0, 1, 0), (0, 0, 1))%R; nadd := m3 Rplus; nsub := m3 Rminus;
     nmul := mat_mat; ndiv := fun a _ => a; nopp := m3_scale (-1)%R; neqb := fun _ _ => false; nltb := fun _ _ => false |}.
