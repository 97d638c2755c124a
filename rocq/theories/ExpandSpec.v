(** Specification side for expand: values of expressions with polynomials and the
    conditions under which expand is claimed to keep them.  Only the trees are
    shared with ExpandModel.v. *)
From Coq Require Import ZArith Reals String List.
From Verif Require Import PolySpec ExprModel ExprSpec CtModel CtSpec ExpandModel.
Import ListNotations.
Open Scope R_scope.

Definition num_value (k : rnum) : R := match k with RInt z => IZR z | RDbl r => r end.

(** [v] is the value of [e] when the variables have the values [rho]; [ok] limits
    the arguments at which sin and cos are considered (see CtSpec.off_table). *)
Fixpoint xvalue (ok : R -> Prop) (rho : string -> R) (e : pexpr) (v : R) : Prop :=
  match e with
  | XC n d => d <> 0%Z /\ v = IZR n / IZR d
  | XNum k => v = num_value k
  | XVar x => v = rho x
  | XPoly x c => v = pval (map num_value c) (rho x)
  | XFun o a => exists u, xvalue ok rho a u /\
      match o with
      | FSin => ok u /\ v = sin u
      | FCos => ok u /\ v = cos u
      | FLog => 0 < u /\ v = ln u
      | FExp => v = exp u
      | FAbs => v = Rabs u
      | FNeg => v = - u
      end
  | XBin o l r => exists u w, xvalue ok rho l u /\ xvalue ok rho r w /\ binary_value o u w = Some v
  end.

(** The variables of an expression, those of its polynomials included. *)
Fixpoint xvars (e : pexpr) : list string :=
  match e with
  | XVar x | XPoly x _ => [x]
  | XFun _ a => xvars a
  | XBin _ l r => xvars l ++ xvars r
  | _ => []
  end.
Definition one_variable (e : pexpr) : Prop := forall x y, In x (xvars e) -> In y (xvars e) -> x = y.
(** No product of expressions in different variables (nor a power of an expression
    in several variables). *)
Fixpoint unmixed (e : pexpr) : Prop :=
  match e with
  | XFun _ a => unmixed a
  | XBin o l r => unmixed l /\ unmixed r /\ (o = OMul -> one_variable e) /\ (o = OPow -> one_variable l)
  | _ => True
  end.

Definition doubles (c : list rnum) : Prop := forall k, In k c -> exists r, k = RDbl r.
(** Integer division would truncate: [ints] = true, no division; [ints] = false, no
    number and no constant polynomial of integer type, and exponents that are
    positive constants or numbers (or a variable or polynomial, as in 2.0^x, where
    the base is a constant, number or polynomial).  The variable itself becomes a
    polynomial with integer coefficients, and x^0 an integer. *)
Fixpoint untruncated (ints : bool) (e : pexpr) : Prop :=
  match e with
  | XNum (RInt _) => ints = true
  | XPoly _ c => c <> [] /\ (ints = false -> doubles c \/ (2 <= length c)%nat)
  | XFun _ a => untruncated ints a
  | XBin o l r =>
      untruncated ints l /\ untruncated ints r /\ (o = ODiv -> ints = false) /\
      (o = OPow -> ints = false ->
         match r with
         | XC n d => (0 < n)%Z /\ (0 < d)%Z
         | XNum _ => True
         | XVar _ | XPoly _ _ => match l with XC _ _ | XNum _ | XPoly _ _ => True | _ => False end
         | _ => False
         end)
  | _ => True
  end.

(** A polynomial expression in [x] as the operators build it: variable,
    polynomials, numbers and constants combined by +, -, *, negation, whole powers
    from 2 and division by a constant that is not zero or by a double.  Operands of
    a node are not both constants or numbers, are not C<0>() and, in products, not
    C<1>(), and a polynomial is not negated (the operators compute these cases at
    once). *)
Definition plain (e : pexpr) : Prop := match e with XC _ _ | XNum _ => False | _ => True end.
Definition not_const (n : Z) (e : pexpr) : Prop := e <> XC n 1.
Inductive poly_expression (x : string) : pexpr -> Prop :=
| PE_var : poly_expression x (XVar x)
| PE_poly c : c <> [] -> poly_expression x (XPoly x c)
| PE_num k : poly_expression x (XNum k)
| PE_const n d : d <> 0%Z -> poly_expression x (XC n d)
| PE_neg a : plain a -> (forall c, a <> XPoly x c) -> poly_expression x a -> poly_expression x (XFun FNeg a)
| PE_op o l r : o = OAdd \/ o = OSub \/ o = OMul -> plain l \/ plain r ->
    not_const 0 l -> not_const 0 r -> (o = OMul -> not_const 1 l /\ not_const 1 r) ->
    poly_expression x l -> poly_expression x r -> poly_expression x (XBin o l r)
| PE_div l k : plain l -> (match k with XC n d => n <> 0%Z /\ d <> 0%Z | XNum (RDbl _) => True | _ => False end) ->
    poly_expression x l -> poly_expression x (XBin ODiv l k)
| PE_pow a p : plain a -> (2 <= p < 2 ^ 62)%Z -> poly_expression x a -> poly_expression x (XBin OPow a (XC p 1)).

(** The products of powers of the variable itself that expand leaves as a power. *)
Inductive power_product (x : string) : pexpr -> Prop :=
| PP_square : power_product x (XBin OMul (XVar x) (XVar x))
| PP_left p : power_product x (XBin OMul (XVar x) (XBin OPow (XVar x) (XC p 1)))
| PP_right p : power_product x (XBin OMul (XBin OPow (XVar x) (XC p 1)) (XVar x))
| PP_one e : power_product x e -> power_product x (XBin ODiv e (XC 1 1)).
