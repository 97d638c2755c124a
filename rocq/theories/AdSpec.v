(** Specification for automatic differentiation. *)
From Coq Require Import String.
From Verif Require Import Outcome Num ExprModel ExprSpec.
Open Scope R_scope.

(** [cs] are the first Taylor coefficients of [f] at [a]: [f] is defined near
    [a], has there derivatives of all the orders needed ([F k] is the k-th), and
    the k-th coefficient is F k (a) / k!. *)
Definition taylor_coefficients (f : R -> option value) (a : R) (cs : list R) : Prop :=
  exists (F : nat -> R -> R) (delta : R), 0 < delta /\
    (forall t, Rabs (t - a) < delta -> f t = Some (VN (F 0%nat t))) /\
    (forall k t, (S k < length cs)%nat -> Rabs (t - a) < delta -> derivable_pt_lim (F k) t (F (S k) t)) /\
    (forall k, (k < length cs)%nat -> nth k cs 0 = F k a / INR (fact k)).

(** The value of [e] when [x] is [t] (other variables have none). *)
Definition at_point (x : string) (e : expr R) (t : R) : option value :=
  value_of 1 (upd_env (fun _ => None) x (Some (VN t))) e.

(** Built from constants, [x], + - * / exp ln sin cos and powers, at a point
    where all of them are smooth: divisors are not 0, arguments of ln and bases
    of powers are positive; with a constant whole exponent the base need only be
    other than 0. *)
Fixpoint smooth_at (x : string) (a : R) (e : expr R) : Prop :=
  match e with
  | EConst _ => True
  | EVar y => y = x
  | EUn o b => smooth_at x a b /\
      (o = USin \/ o = UCos \/ o = UExp \/ (o = ULog /\ exists v, at_point x b a = Some (VN v) /\ 0 < v))
  | EBin o l r => smooth_at x a l /\ smooth_at x a r /\
      (o = BAdd \/ o = BSub \/ o = BMul \/ (o = BDiv /\ at_point x r a <> Some (VN 0)) \/
       (o = BPow /\ exists v, at_point x l a = Some (VN v) /\
          (0 < v \/ (v <> 0 /\ exists z, r = EConst (IZR z)))))
  | _ => False
  end.
