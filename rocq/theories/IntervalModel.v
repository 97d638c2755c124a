(** Substituting intervals into compile-time expressions.

    Models stator/symbolic/interval.hpp together with the substitution of sub.hpp,
    unary_ops.hpp and binary_ops.hpp when boost::numeric::interval<double> values
    stand at the leaves.  The expressions without intervals are those of CtModel.v.

    Simplifications: Boost is not part of the repository; its interval type is a
    parameter ([interval_lib]), an operation that throws is [Throw].  Doubles
    outside intervals are exact reals (see CtModel.v). *)
From Coq Require Import ZArith Reals String Bool List.
From Verif Require Import Outcome ExprModel CtModel.
Import ListNotations.
Open Scope Z_scope.

(** What the code uses of boost::numeric::interval<double> (interval.hpp:23-26):
    the operators + - * / between two intervals, between an interval and a double
    and between a double and an interval, unary -, and abs. *)
Record interval_lib := {
  ivl : Type;
  contains : ivl -> R -> Prop;
  i_op : aop -> ivl -> ivl -> outcome ivl;
  i_op_num : aop -> ivl -> R -> outcome ivl;
  num_op_i : aop -> R -> ivl -> outcome ivl;
  i_neg : ivl -> outcome ivl;
  i_abs : ivl -> outcome ivl
}.

Section Intervals.
Variable L : interval_lib.

(** The expression types of CtModel.v with one more leaf. *)
Inductive iexpr :=
| IC (n d : Z)
| INum (k : rnum)
| IIvl (v : ivl L)
| IVar (x : string)
| IUn (o : uop) (a : iexpr)
| IBin (o : aop) (l r : iexpr).

Fixpoint emb (e : cexpr) : iexpr :=
  match e with
  | TC n d => IC n d
  | TNum k => INum k
  | TVar x => IVar x
  | TUn o a => IUn o (emb a)
  | TBin o l r => IBin o (emb l) (emb r)
  end.
(** the expression, if there is no interval in it *)
Fixpoint pure (e : iexpr) : option cexpr :=
  match e with
  | IC n d => Some (TC n d)
  | INum k => Some (TNum k)
  | IIvl _ => None
  | IVar x => Some (TVar x)
  | IUn o a => match pure a with Some b => Some (TUn o b) | None => None end
  | IBin o l r => match pure l, pure r with Some a, Some b => Some (TBin o a b) | _, _ => None end
  end.

(** Op::apply(a), unary_ops.hpp:46-109: - and abs of an interval are Boost's; sin,
    cos, exp and log of interval<double> do not compile with its default rounding
    policy; arbsign and everything else make a node. *)
Definition iuapply (o : uop) (a : iexpr) : outcome iexpr :=
  match pure a with
  | Some c => do e <- uapply o c; Ret (emb e)
  | None =>
      match a with
      | IIvl v =>
          match o with
          | UNeg => do w <- i_neg L v; Ret (IIvl w)
          | UAbs => do w <- i_abs L v; Ret (IIvl w)
          | UArb => Ret (IUn UArb a)
          | _ => Throw
          end
      | _ => Ret (IUn o a)
      end
  end.

(** the types Null and Unity *)
Definition i_is_null (e : iexpr) : bool := match e with IC n d => (n =? 0) && (d =? 1) | _ => false end.
Definition i_is_unity (e : iexpr) : bool := match e with IC n d => (n =? 1) && (d =? 1) | _ => false end.
(** constants.hpp:138-154, for every type that is not a C<> *)
Definition i_null_rules (o : aop) (l r : iexpr) : option (outcome iexpr) :=
  match o with
  | OAdd => if i_is_null r then Some (Ret l) else if i_is_null l then Some (Ret r) else None
  | OSub => if i_is_null r then Some (Ret l) else if i_is_null l then Some (iuapply UNeg r) else None
  | OMul => if i_is_null r then Some (Ret (IC 0 1)) else if i_is_null l then Some (Ret (IC 0 1))
            else if i_is_unity r then Some (Ret l) else if i_is_unity l then Some (Ret r) else None
  | _ => None
  end.

(** Op::apply(l, r), binary_ops.hpp:75,95,115,135,159, when at least one operand
    holds an interval: the rules for Null and Unity; Boost's operators on intervals
    and doubles (there is none for an int and an interval<double>: it does not
    compile); a node if an operand is symbolic (binary_ops.hpp:242-279; C<> is).
    pow(l, C<1>) is l (308-309).  pow of two operands that are not symbolic is not
    modelled ([Throw]): there Boost's pow(interval, int) is found. *)
Definition iapply (o : aop) (l r : iexpr) : outcome iexpr :=
  match pure l, pure r with
  | Some a, Some b => do e <- capply o a b; Ret (emb e)
  | _, _ =>
      match o with
      | OPow =>
          match l, r with
          | _, IC n d => Ret (if (n =? 1) && (d =? 1) then l else IBin OPow l r)
          | IIvl _, IIvl _ | IIvl _, INum _ | INum _, IIvl _ => Throw
          | _, _ => Ret (IBin OPow l r)
          end
      | _ =>
          match i_null_rules o l r with
          | Some m => m
          | None =>
              match l, r with
              | IIvl v, IIvl w => do z <- i_op L o v w; Ret (IIvl z)
              | IIvl v, INum (RDbl q) => do z <- i_op_num L o v q; Ret (IIvl z)
              | INum (RDbl q), IIvl w => do z <- num_op_i L o q w; Ret (IIvl z)
              | IIvl _, INum (RInt _) | INum (RInt _), IIvl _ => Throw
              | _, _ => Ret (IBin o l r)
              end
          end
      end
  end.

(** sub(f, x = g): sub.hpp:35-57 (an interval is stored as it is),
    binary_ops.hpp:422-425, unary_ops.hpp:181-183. *)
Fixpoint isub (x : string) (g f : iexpr) : outcome iexpr :=
  match f with
  | IC _ _ | INum _ | IIvl _ => Ret f
  | IVar y => Ret (if String.eqb y x then g else f)
  | IUn o a => do a' <- isub x g a; iuapply o a'
  | IBin o l r => do l' <- isub x g l; do r' <- isub x g r; iapply o l' r'
  end.

(** repr of an interval, interval.hpp:28-32 *)
Definition i_repr {A : Type} (show : A -> string) (lower upper : A) : string := (show lower ++ "..." ++ show upper)%string.
End Intervals.
