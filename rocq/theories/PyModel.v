(** The Python binding: pysrc/stator/core.cpp.

    Simplifications: a Python object is one of the kinds below; integers are
    converted to floats by the constructor of Expr (core.cpp:99-100); pybind11's
    conversions are assumed to succeed.  Keys of dictionaries are variables, as
    in ExprModel.v. *)
From Coq Require Import List String.
From Verif Require Import Outcome Num ExprModel.
Import ListNotations.

Section Python.
Context {K : Type} {EN : ENum K}.

Inductive pyobj : Type :=
| PyFloat (c : K)
| PyExpr (e : expr K)
| PyList (l : list pyobj)
| PyDict (d : list (string * pyobj)).    (* the key is Expr('name') *)

(** to_python and ToPythonVisitor, core.cpp:12-43.  [depth] bounds the nesting of
    lists and dictionaries, [fuel] is that of simplify. *)
Fixpoint to_python (fuel depth : nat) (e : expr K) : outcome pyobj :=
  match depth with
  | O => Fuel
  | S n =>
      do b <- simplify fuel e;
      match b with
      | EConst c => Ret (PyFloat c)
      | EArr es => do l <- oseq (map (to_python fuel n) es); Ret (PyList l)
      | EDict d => do l <- oseq (map (fun kv => do v <- to_python fuel n (snd kv); Ret (fst kv, v)) d); Ret (PyDict l)
      | _ => Ret (PyExpr b)
      end
  end.

(** l.__add__(r), l.__sub__(r), l.__mul__(r), l.__truediv__(r): core.cpp:77-85.
    Both operands have the static type Expr, so the C++ operator makes the
    symbolic node. *)
Definition py_op (fuel depth : nat) (o : bop) (l r : expr K) : outcome pyobj := to_python fuel depth (EBin o l r).
(** self.__radd__(other) and so on, which Python calls for [other o self]:
    core.cpp:78-86; the arguments are used in the order (self, other). *)
Definition py_rop (fuel depth : nat) (o : bop) (self other : expr K) : outcome pyobj := to_python fuel depth (EBin o self other).
(** number o expression: Python first asks the number, which does not know Expr,
    and then calls the reflected method. *)
Definition py_number_op (fuel depth : nat) (o : bop) (number : K) (e : expr K) : outcome pyobj :=
  py_rop fuel depth o e (EConst number).

(** sub(l, r) with an Expr and with a dict: core.cpp:96-97 *)
Definition py_sub (fuel depth : nat) (l r : expr K) : outcome pyobj :=
  do e <- sub_expr l r; to_python fuel depth e.
(** derivative(l, r): core.cpp:94 *)
Definition py_derivative (fuel : nat) (l r : expr K) : outcome (expr K) :=
  do e <- derivative l r; simplify fuel e.
End Python.
Arguments pyobj K : clear implicits.
