(** Texts shown to Python users and printed matrices: pysrc/stator/core.cpp:73-74, 90,
    stator/symbolic/variable.hpp:72-77, stator/symbolic/runtime.hpp:1136-1163. *)
From Coq Require Import List String Ascii Bool Arith.
From Verif Require Import Outcome Num ExprModel ParserModel.
Import ListNotations.
Open Scope string_scope.
Open Scope nat_scope.

Definition quote : string := String (Ascii.ascii_of_nat 34) "".

Section Generic.
Context {K : Type} {EN : ENum K}.
Variable show : K -> string.

(** Expr.__str__, core.cpp:74 *)
Definition py_str (e : expr K) : outcome string := repr show false e.
(** Expr.__repr__, core.cpp:73 *)
Definition py_repr (e : expr K) : outcome string := do s <- py_str e; Ret ("Expr('" ++ s ++ "')").

(** repr with Debug_output: variable.hpp:72-77 writes Var<"x">(); constants reach
    the printer as plain doubles (runtime.hpp:277, so constants_rt's form of
    runtime.hpp:1128-1133 is not used); the rest as without Debug_output. *)
Definition var_debug (x : string) : string := "Var<" ++ quote ++ x ++ quote ++ ">()".
Fixpoint debug_repr (e : expr K) : outcome string :=
  match e with
  | EConst c => Ret (show c)
  | EVar x => Ret (var_debug x)
  | EUn o a =>
      do s <- debug_repr a;
      do b <- ebp a;
      Ret (un_l o ++ paren (paren_u false o b) s ++ un_r o)
  | EBin o l r =>
      do bl <- ebp l;
      do br <- ebp r;
      do sl <- debug_repr l;
      do sr <- debug_repr r;
      Ret (paren (paren_l false o bl) sl ++ op_repr o ++ paren (paren_r false o br) sr ++ op_close o)
  | EArr es => do ts <- oseq (map debug_repr es); Ret ("[" ++ join_comma ts ++ "]")
  | EDict d =>
      do ts <- oseq (map (fun p => do s <- debug_repr (snd p); Ret (var_debug (fst p) ++ ":" ++ s)) d);
      Ret ("{" ++ join_comma ts ++ "}")
  end.
(** Expr.debug_form, core.cpp:90 *)
Definition py_debug_form (e : expr K) : outcome string := do s <- debug_repr e; Ret ("Expr('" ++ s ++ "')").

(** repr of an Eigen matrix, runtime.hpp:1136-1163.  [v i j] are the coefficients;
    an access outside the matrix is undefined behaviour (an assertion of Eigen in
    debug builds). *)
Definition coeff (rows cols : nat) (v : nat -> nat -> K) (i j : nat) : outcome string :=
  if ((i <? rows) && (j <? cols))%bool then Ret (show (v i j)) else UB.
(** for (int i(a); i < a + n; ++i) out << f(i), with a trailing blank each *)
Fixpoint cells (f : nat -> outcome string) (a n : nat) : outcome string :=
  match n with
  | O => Ret ""
  | S n => do s <- f a; do t <- cells f (S a) n; Ret (s ++ " " ++ t)
  end.
Definition matrix_repr (rows cols : nat) (v : nat -> nat -> K) : outcome string :=
  let at_ := coeff rows cols v in
  if ((cols =? 1) && (rows =? 1))%bool then at_ 0 0
  else if cols =? 1 then do s <- cells (fun i => at_ i 0) 0 rows; Ret ("{ " ++ s ++ "}^T")
  else
    do s <- cells (fun i => do t <- cells (fun j => at_ i j) 0 rows; Ret ("{ " ++ t ++ "}")) 0 cols;
    Ret ("{ " ++ s ++ "}").
End Generic.
