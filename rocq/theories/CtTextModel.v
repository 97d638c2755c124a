(** The text of compile-time constants and expressions:
    stator/symbolic/constants.hpp:62-89 (operator<<), 223-230 (repr of C<Num,Denom>);
    the operators and variables print through the templates shared with the run-time
    nodes (unary_ops.hpp:193-207, binary_ops.hpp:448-466, variable.hpp:72-77). *)
From Coq Require Import ZArith Reals String Ascii List.
From Verif Require Import Outcome Num ExprModel ParserModel ParserSpec ConstModel CtModel ConvModel.
Import ExprModel.
Open Scope Z_scope.
Open Scope string_scope.

(** Numbers that occur in compile-time trees. *)
Inductive ctnum := CtC (n d : Z) | CtN (k : rnum).

(** std::to_string of an integer is its decimal text ([ParserSpec.decimal]);
    constants.hpp:228-229, the normal form: n or (n/d). *)
Definition c_repr (n d : Z) : string :=
  if Z.eqb d 1 then decimal n else "(" ++ decimal n ++ "/" ++ decimal d ++ ")".
(** constants.hpp:226-227, with Debug_output: C<n> or C<n, d>. *)
Definition c_debug (n d : Z) : string :=
  "C<" ++ decimal n ++ (if Z.eqb d 1 then ">" else ", " ++ decimal d ++ ">").
(** constants.hpp:62-89, operator<<: C<n>() or C<n,d>(), and the five constants with a
    sign of their own.  The bytes are the UTF-8 codes of the copyright sign (194 169),
    the fractions (194 188, 189, 190) and the letter pi (207 128). *)
Definition c_stream (n d : Z) : string :=
  if (Z.eqb n 1 && Z.eqb d 4)%bool then String (ch 194) (String (ch 169) (String (ch 194) (String (ch 188) "")))
  else if (Z.eqb n 1 && Z.eqb d 2)%bool then String (ch 194) (String (ch 169) (String (ch 194) (String (ch 189) "")))
  else if (Z.eqb n 3 && Z.eqb d 4)%bool then String (ch 194) (String (ch 169) (String (ch 194) (String (ch 190) "")))
  else if (Z.eqb n (fst c_pi) && Z.eqb d (snd c_pi))%bool then String (ch 207) (String (ch 128) "")
  else if (Z.eqb n (fst c_e) && Z.eqb d (snd c_e))%bool then "e"
  else "C<" ++ decimal n ++ (if Z.eqb d 1 then "" else "," ++ decimal d) ++ ">()".

Section Text.
(** repr of a double (repr.hpp:58-62); an int is written by std::to_string (repr.hpp:54). *)
Variable show : R -> string.
Definition num_text (k : rnum) : string := match k with RInt z => decimal z | RDbl r => show r end.
Definition ct_show (c : ctnum) : string := match c with CtC n d => c_repr n d | CtN k => num_text k end.
(** repr of a compile-time expression.  The binding powers of constants are those of
    numbers (constants.hpp:237-239). *)
Definition ct_repr (forced : bool) (e : cexpr) : outcome string := repr ct_show forced (to_expr CtC CtN e).
End Text.
