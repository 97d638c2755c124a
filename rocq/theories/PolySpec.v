(** Specification of polynomial functions, independent of the model:
    the value of the coefficient list [c0; c1; ...; cN] at x is
    c0 x^0 + c1 x^1 + ... + cN x^N. *)
From Coq Require Import List Reals.
Import ListNotations.
Open Scope R_scope.

Fixpoint psum_from (k : nat) (f : list R) (x : R) : R :=
  match f with
  | [] => 0
  | c :: t => c * x ^ k + psum_from (S k) t x
  end.

Definition pval (f : list R) (x : R) : R := psum_from 0 f x.

(** [f] and [g] are the same function. *)
Definition same_fun (f g : list R) : Prop := forall x, pval f x = pval g x.

(** x is a real root *)
Definition is_root (f : list R) (x : R) : Prop := pval f x = 0.

(** some coefficient is not zero *)
Definition not_zero (f : list R) : Prop := exists c, In c f /\ c <> 0.

(** [G] is the k-th derivative of [F] on the whole real line. *)
Fixpoint nth_deriv_of (k : nat) (F G : R -> R) : Prop :=
  match k with
  | O => forall x, G x = F x
  | S k' => exists H, (forall x, derivable_pt_lim F x (H x)) /\ nth_deriv_of k' H G
  end.

(** Limits at the two infinities: F(x) -> +inf, -inf or a constant. *)
Inductive limit_is : Type := ToPInf | ToNInf | Const (c : R).
Definition limit_at_pinf (F : R -> R) (l : limit_is) : Prop :=
  match l with
  | ToPInf => forall M, exists X, forall x, x > X -> F x > M
  | ToNInf => forall M, exists X, forall x, x > X -> F x < M
  | Const c => forall x, F x = c
  end.
Definition limit_at_ninf (F : R -> R) (l : limit_is) : Prop :=
  limit_at_pinf (fun x => F (- x)) l.

(** Degree: n is the index of the highest non-zero coefficient. *)
Definition has_degree (f : list R) (n : nat) : Prop :=
  nth n f 0 <> 0 /\ forall i, (n < i)%nat -> nth i f 0 = 0.
