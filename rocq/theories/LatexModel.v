(** The LaTeX form of run-time expressions: repr with the option Latex_output
    (Expr.latex() in Python, pysrc/stator/core.cpp:75).  Conventions as in
    ParserModel.v: [show] is snprintf("%.*g"), a dictionary has no BP ([UB]). *)
From Coq Require Import String Ascii NArith List.
From Verif Require Import Outcome Num ExprModel ParserModel StringModel.
Open Scope nat_scope.
Open Scope string_scope.

(** repr.hpp:62-73: the exponent of a number becomes a power of ten. *)
Definition latex_exponent : string := "\times10^{".
Definition replace_in (t from to : string) : outcome (string * nat) :=
  let l := list_ascii_of_string t in
  do p <- search_replace Ascii.eqb (S (length l)) l (list_ascii_of_string from) (list_ascii_of_string to);
  Ret (string_of_list_ascii (fst p), snd p).
Definition latex_number (t : string) : outcome string :=
  do p <- replace_in t "e+" latex_exponent;
  if negb (Nat.eqb (snd p) 0) then Ret (fst p ++ "}") else
  do q <- replace_in t "e" latex_exponent;
  if negb (Nat.eqb (snd q) 0) then Ret (fst q ++ "}") else
  Ret t.

(** Op::l_latex_repr, Op::r_latex_repr: unary_ops.hpp:49-50, 59-60, 69-70, 79-80,
    89-90, 99-100, 112-113.  The closing brace of ln has no opening one. *)
Definition un_latex_l (o : uop) : string :=
  match o with USin => "\sin " | UCos => "\cos " | UExp => "\mathrm{e}^{" | ULog => "\ln "
             | UAbs => "\left|" | UArb => "\pm\left|" | UNeg => "-" end.
Definition un_latex_r (o : uop) : string :=
  match o with USin | UCos => "" | UExp => "}" | ULog => "}" | UAbs | UArb => "\right|" | UNeg => "" end.

(** Op::l_latex_repr, latex_repr, r_latex_repr: binary_ops.hpp:71-73, 92-94,
    112-114, 132-134, 148-150, 176-178, 194-196; units.hpp:52-54;
    uncertainty.hpp:52-54. *)
Definition op_latex_l (o : bop) : string := match o with BDiv => "\frac{" | _ => "" end.
Definition op_latex (o : bop) : string :=
  match o with BEq => "=" | BAdd => "+" | BSub => "-" | BMul => "\times " | BDiv => "}{"
             | BPow => "^{" | BAcc => "\left[" | BUnits => "\left\{" | BUnc => "\pm" end.
Definition op_latex_r (o : bop) : string :=
  match o with BDiv | BPow => "}" | BAcc => "\right]" | BUnits => "\right\}" | _ => "" end.

(** binary_ops.hpp:430-433 paren_wrap *)
Definition latex_paren (b : bool) (s : string) : string := if b then "\left(" ++ s ++ "\right)" else s.

Section Latex.
Context {K : Type}.
Notation expr := (expr K).
Variable show : K -> string.
Variable fp : bool.

(** repr<Config> with Config::Latex_output: repr.hpp:58-76, variable.hpp:72-77,
    unary_ops.hpp:193-208, binary_ops.hpp:448-467, array.hpp:383-396,
    dict.hpp:92-105. *)
Fixpoint latex_repr (e : expr) : outcome string :=
  match e with
  | EConst c => latex_number (show c)
  | EVar x => Ret x
  | EUn o a =>
      do s <- latex_repr a;
      do b <- ebp a;
      Ret (un_latex_l o ++ latex_paren (paren_u fp o b) s ++ un_latex_r o)
  | EBin o l r =>
      do bl <- ebp l;
      do br <- ebp r;
      do sl <- latex_repr l;
      do sr <- latex_repr r;
      Ret (op_latex_l o ++ latex_paren (paren_l fp o bl) sl ++ op_latex o
                        ++ latex_paren (paren_r fp o br) sr ++ op_latex_r o)
  | EArr es =>
      do ts <- oseq (map latex_repr es);
      Ret ("\left[" ++ join_comma ts ++ "\right]")
  | EDict d =>
      do ts <- oseq (map (fun p => do s <- latex_repr (snd p); Ret (fst p ++ ":" ++ s)) d);
      Ret ("\left\{" ++ join_comma ts ++ "\right\}")
  end.
End Latex.
