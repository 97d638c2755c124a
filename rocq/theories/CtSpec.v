(** Specification side for compile-time expressions: the values of an
    expression.  Independent of the functions of CtModel.v: only the trees are
    shared. *)
From Coq Require Import ZArith Reals String.
From Verif Require Import ExprModel ExprSpec CtModel.
Open Scope R_scope.

(** Arithmetic on numbers: no value for division by zero and outside the domain
    of std::pow. *)
Definition binary_value (o : aop) (u w : R) : option R :=
  match o with
  | OAdd => Some (u + w)
  | OSub => Some (u - w)
  | OMul => Some (u * w)
  | ODiv => if Req_EM_T w 0 then None else Some (u / w)
  | OPow => npow u w
  end.

(** [v] is a value of the function [o] at [u].  [ok] limits the arguments at which
    sin and cos are considered; "either sign" has two values. *)
Definition unary_value (ok : R -> Prop) (o : uop) (u v : R) : Prop :=
  match o with
  | USin => ok u /\ v = sin u
  | UCos => ok u /\ v = cos u
  | ULog => 0 < u /\ v = ln u
  | UExp => v = exp u
  | UAbs => v = Rabs u
  | UArb => v = u \/ v = - u
  | UNeg => v = - u
  end.

(** [v] is a value of [e] when the variables have the values [rho].  Every
    "either sign" in the expression is free to take either sign. *)
Fixpoint cval (ok : R -> Prop) (rho : string -> R) (e : cexpr) (v : R) : Prop :=
  match e with
  | TC n d => d <> 0%Z /\ v = IZR n / IZR d
  | TNum (RInt z) => v = IZR z
  | TNum (RDbl r) => v = r
  | TVar x => v = rho x
  | TUn o a => exists u, cval ok rho a u /\ unary_value ok o u v
  | TBin o l r => exists u w, cval ok rho l u /\ cval ok rho r w /\ binary_value o u w = Some v
  end.

(** sin and cos at any argument *)
Definition anywhere (u : R) : Prop := True.
(** sin and cos away from the non-zero multiples of half the rational number that
    stands for pi, where the table of constants.hpp is used (for those see C41). *)
Definition off_table (u : R) : Prop := u = 0 \/ forall k : Z, u <> IZR k * (47627751 / 15160384) / 2.

(** No "either sign". *)
Fixpoint sign_free (e : cexpr) : Prop :=
  match e with
  | TUn o a => o <> UArb /\ sign_free a
  | TBin _ l r => sign_free l /\ sign_free r
  | _ => True
  end.

(** No number of integer type ([ints] = false), or else no division
    ([ints] = true): C++ integer division would truncate. *)
Fixpoint no_truncation (ints : bool) (e : cexpr) : Prop :=
  match e with
  | TNum (RInt _) => ints = true
  | TUn _ a => no_truncation ints a
  | TBin o l r => (o = ODiv -> ints = false) /\ no_truncation ints l /\ no_truncation ints r
  | _ => True
  end.

(** As [no_truncation], also for all the derivatives, which divide where there is
    a logarithm, an absolute value or an exponent that is not a literal. *)
Fixpoint no_truncation_in_derivatives (ints : bool) (e : cexpr) : Prop :=
  match e with
  | TNum (RInt _) => ints = true
  | TUn o a => (o = ULog \/ o = UAbs -> ints = false) /\ no_truncation_in_derivatives ints a
  | TBin o l r =>
      (o = ODiv -> ints = false) /\
      (o = OPow -> match r with TC _ _ | TNum _ => True | _ => ints = false end) /\
      no_truncation_in_derivatives ints l /\ no_truncation_in_derivatives ints r
  | _ => True
  end.

Fixpoint occurs (x : string) (e : cexpr) : Prop :=
  match e with
  | TVar y => y = x
  | TUn _ a => occurs x a
  | TBin _ l r => occurs x l \/ occurs x r
  | _ => False
  end.

(** A constant or a number. *)
Definition literal (e : cexpr) : Prop := match e with TC _ _ | TNum _ => True | _ => False end.

(** The expression has values, and is differentiable to all orders, at [rho]:
    divisors are not zero, arguments of ln are positive, absolute values are not
    taken of 0; a power has a positive base, or a non-zero base and a whole number
    as exponent, or a non-negative whole constant C<n> as exponent. *)
Fixpoint regular (ok : R -> Prop) (rho : string -> R) (e : cexpr) : Prop :=
  match e with
  | TC n d => d <> 0%Z
  | TNum _ | TVar _ => True
  | TUn o a =>
      regular ok rho a /\
      (o = USin \/ o = UCos -> forall u, cval ok rho a u -> ok u) /\
      (o = ULog -> forall u, cval ok rho a u -> 0 < u) /\
      (o = UAbs -> forall u, cval ok rho a u -> u <> 0)
  | TBin o l r =>
      regular ok rho l /\ regular ok rho r /\
      (o = ODiv -> forall w, cval ok rho r w -> w <> 0) /\
      (o = OPow ->
         (forall u, cval ok rho l u -> 0 < u) \/
         ((forall u, cval ok rho l u -> u <> 0) /\ literal r /\ exists z, cval ok rho r (IZR z)) \/
         (exists n, r = TC n 1 /\ (0 <= n)%Z))
  end.

(** As a function of [x] through the point [rho]: [f] is defined near rho x, takes
    the value [v] there and has the derivative [d]. *)
Definition differentiates (rho : string -> R) (x : string) (f : cexpr) (v d : R) : Prop :=
  exists (F : R -> R) (delta : R), 0 < delta /\ F (rho x) = v /\
    (forall t, Rabs (t - rho x) < delta -> cval anywhere (upd_num rho x t) f (F t)) /\
    derivable_pt_lim F (rho x) d.

(** The same conditions as [regular] at one point, for a first derivative only: a
    number as whole exponent may also have the base 0. *)
Fixpoint differentiable_at (rho : string -> R) (e : cexpr) : Prop :=
  match e with
  | TC _ _ | TNum _ | TVar _ => True
  | TUn o a => differentiable_at rho a /\ (o = UAbs -> forall u, cval anywhere rho a u -> u <> 0)
  | TBin o l r =>
      differentiable_at rho l /\ differentiable_at rho r /\
      (o = OPow ->
         (forall u, cval anywhere rho l u -> 0 < u) \/
         (literal r /\ exists z, cval anywhere rho r (IZR z) /\
            (z <> 0%Z \/ r = TC 0 1 \/ forall u, cval anywhere rho l u -> u <> 0)))
  end.

(** Every summand of [f] is free of [x] or meets the conditions of
    [differentiable_at]. *)
Fixpoint each_summand (rho : string -> R) (x : string) (f : cexpr) : Prop :=
  match f with
  | TBin OAdd l r | TBin OSub l r => each_summand rho x l /\ each_summand rho x r
  | _ => ~ occurs x f \/ differentiable_at rho f
  end.

(** [c 0 ... c n] are the Taylor coefficients at [a], in the variable [x], of the
    function given by [f]: [F k] is the k-th derivative of [f] near [a]. *)
Definition taylor_of (rho : string -> R) (x : string) (f : cexpr) (a : R) (n : nat) (c : nat -> R) : Prop :=
  exists (F : nat -> R -> R) (delta : R), 0 < delta /\
    (forall t, Rabs (t - a) < delta -> cval anywhere (upd_num rho x t) f (F 0%nat t)) /\
    (forall k t, (k < n)%nat -> Rabs (t - a) < delta -> derivable_pt_lim (F k) t (F (S k) t)) /\
    (forall k, (k <= n)%nat -> c k = F k a / INR (fact k)).
