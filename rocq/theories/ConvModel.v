(** Compile-time expressions become run-time ones: the constructors of Expr,
    stator/symbolic/runtime.hpp:470-486, and what can be read back, 509-533. *)
From Coq Require Import ZArith Reals String.
From Verif Require Import Outcome Num FloatModel ExprModel ConstModel CtModel.
Import ExprModel.

(** binary_ops.hpp: the operators of both kinds are the same classes *)
Definition aop_bop (o : aop) : bop :=
  match o with OAdd => BAdd | OSub => BSub | OMul => BMul | ODiv => BDiv | OPow => BPow end.

Section Generic.
Context {K : Type}.
Variable cst : Z -> Z -> K.   (* double(Num) / Denom *)
Variable num : rnum -> K.     (* a number converted to double *)
(** runtime.hpp:472 (double; ints are converted to it), 474-475 (C), 477-478 (UnaryOp),
    480-481 (BinaryOp), 483-484 (Var, with variable_rt.hpp:34-47: the name is copied) *)
Fixpoint to_expr (e : cexpr) : expr K :=
  match e with
  | TC n d => EConst (cst n d)
  | TNum k => EConst (num k)
  | TVar x => EVar x
  | TUn o a => EUn o (to_expr a)
  | TBin o l r => EBin (aop_bop o) (to_expr l) (to_expr r)
  end.
(** runtime.hpp:525-533 Expr::as<double>() *)
Definition as_number (e : expr K) : outcome K :=
  match e with EConst c => Ret c | _ => Throw end.
(** runtime.hpp:509-517 Expr::as<T>() for the node class of a unary or binary operator:
    a dynamic_cast to that class *)
Definition as_unary (o : uop) (e : expr K) : outcome (expr K) :=
  match e with EUn p a => if uop_eqb o p then Ret a else Throw | _ => Throw end.
Definition as_binary (o : bop) (e : expr K) : outcome (expr K * expr K) :=
  match e with EBin p l r => if bop_eqb o p then Ret (l, r) else Throw | _ => Throw end.
Definition as_variable (e : expr K) : outcome string :=
  match e with EVar x => Ret x | _ => Throw end.
(** runtime.hpp:519-523 Expr::operator[] *)
Definition index_expr (e i : expr K) : expr K := EBin BAcc e i.
(** variable_rt.hpp:55-60 VarRT::operator= makes an equation *)
Definition var_equals (x : string) (e : expr K) : expr K := EBin BEq (EVar x) e.
(** variable_rt.hpp:67-74 sub of a run-time variable *)
Definition sub_var_rt (f x : string) (r : expr K) : expr K := if String.eqb f x then r else EVar f.
(** variable_rt.hpp:77-79 derivative of a run-time variable: Expr(bool) *)
Definition derivative_var_rt (zero one : K) (v x : string) : expr K := EConst (if String.eqb v x then one else zero).
End Generic.

(** exact numbers *)
Definition conv (e : cexpr) : expr R := to_expr c_real to_real e.
(** doubles: double(Num) and the conversion of Denom round, and so does the division
    (runtime.hpp:475, also constants.hpp:32-34) *)
Definition d_of_int (z : Z) : d64 := d_lit z 0.
Definition d_const (n d : Z) : d64 := d_div (d_of_int n) (d_of_int d).
