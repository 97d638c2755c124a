(** The expression parser and printer.

    Models stator/symbolic/parser.hpp (tokenizer and Pratt parser), the
    [Expr(const std::string&)] constructor, and the [repr]/[BP] functions for
    run-time expressions (binary_ops.hpp:436-466, unary_ops.hpp:185-208,
    array.hpp:383-396, dict.hpp:92-105, variable.hpp:72-86,
    constants.hpp:232-240, runtime.hpp:405-425 and 1128-1194).

    Simplifications, valid for the whole file:
    - a std::string is a Coq [string] (a list of bytes); [_start]/[_end] become
      the pair (current token, rest of the string);
    - std::isdigit/std::isalpha are those of the "C" locale, and false for bytes
      >= 128 (passing a negative char is formally undefined, glibc answers 0);
    - the conversion of a number token to a double ([stringstream >> double]) is
      the parameter [read]; the printing of a double ("%.17g") is [show];
    - the C++ call stack is unbounded, except that a recursion that can never
      end ([BP] of a dictionary) is reported as [UB] (stack exhaustion);
    - the text of error messages is dropped, but the one printing of an
      expression that happens while building a message is modelled;
    - recursion is on a fuel argument; running out is [Fuel]. *)
From Coq Require Import String Ascii NArith.
From Verif Require Import Outcome Num ExprModel.
Open Scope nat_scope.
Open Scope string_scope.

(** ** Bytes *)
Definition in_range (lo hi : N) (c : ascii) : bool :=
  let n := N_of_ascii c in (N.leb lo n && N.leb n hi)%bool.
(** std::isdigit, std::isalpha. *)
Definition isdigit (c : ascii) : bool := in_range 48 57 c.
Definition isalpha (c : ascii) : bool := in_range 65 90 c || in_range 97 122 c.
Definition ch (n : N) : ascii := ascii_of_N n.
(** "±" is the two bytes C2 B1 in UTF-8 (parser.hpp:108). *)
Definition pm : string := String (ch 194) (String (ch 177) EmptyString).

(** ** Operator tables *)
Definition INT_MAX : Z := 2147483647.

(** Op::leftBindingPower: binary_ops.hpp:59,79,99,119,140,164,187;
    units.hpp:39; uncertainty.hpp:39. *)
Definition lbp (o : bop) : Z :=
  match o with BEq => 10 | BAdd => 20 | BSub => 20 | BMul => 30 | BDiv => 30
             | BPow => 40 | BAcc => 50 | BUnits => 60 | BUnc => 70 end.
(** Op::associativity: only Power and Equality are RIGHT; none is NONE. *)
Definition right_assoc (o : bop) : bool :=
  match o with BPow | BEq => true | _ => false end.
(** binary_ops.hpp:48-56 : RBP and NBP. *)
Definition rbp (o : bop) : Z := if right_assoc o then lbp o else (lbp o + 1)%Z.
Definition nbp (o : bop) : Z := if right_assoc o then (lbp o - 1)%Z else lbp o.
(** Op::wrapped. *)
Definition wrapped (o : bop) : bool := match o with BAcc | BUnits => true | _ => false end.
(** Op::repr() and Op::r_repr(). *)
Definition op_repr (o : bop) : string :=
  match o with BEq => "=" | BAdd => "+" | BSub => "-" | BMul => "*" | BDiv => "/"
             | BPow => "^" | BAcc => "[" | BUnits => "{" | BUnc => pm end.
Definition op_close (o : bop) : string :=
  match o with BAcc => "]" | BUnits => "}" | _ => "" end.

(** _right_operators (parser.hpp:101-134): a binary operator or a halt token. *)
Inductive rop := RBin (o : bop) | RHalt.
Definition right_op (t : string) : option rop :=
  if String.eqb t "=" then Some (RBin BEq) else
  if String.eqb t "+" then Some (RBin BAdd) else
  if String.eqb t "-" then Some (RBin BSub) else
  if String.eqb t "*" then Some (RBin BMul) else
  if String.eqb t "/" then Some (RBin BDiv) else
  if String.eqb t "^" then Some (RBin BPow) else
  if String.eqb t "{" then Some (RBin BUnits) else
  if String.eqb t pm then Some (RBin BUnc) else
  if String.eqb t "[" then Some (RBin BAcc) else
  if String.eqb t ")" then Some RHalt else
  if String.eqb t "," then Some RHalt else
  if String.eqb t "]" then Some RHalt else
  if String.eqb t ":" then Some RHalt else
  if String.eqb t "}" then Some RHalt else None.
(** LBP of a right operator: parser.hpp:326 and 335. *)
Definition rop_lbp (r : rop) : Z := match r with RBin o => lbp o | RHalt => -1 end.

(** _left_operators (parser.hpp:111-140). *)
Inductive lop := LPos | LNeg | LPar | LArr | LDict | LUn (o : uop).
Definition left_op (t : string) : option lop :=
  if String.eqb t "+" then Some LPos else
  if String.eqb t "-" then Some LNeg else
  if String.eqb t "(" then Some LPar else
  if String.eqb t "[" then Some LArr else
  if String.eqb t "{" then Some LDict else
  if String.eqb t "sin" then Some (LUn USin) else
  if String.eqb t "cos" then Some (LUn UCos) else
  if String.eqb t "exp" then Some (LUn UExp) else
  if String.eqb t "ln" then Some (LUn ULog) else None.
(** detail::Add::leftBindingPower + 1 (parser.hpp:111-112), Negate::BP
    (unary_ops.hpp:107). *)
Definition sign_bp : Z := (lbp BAdd + 1)%Z.

(** ** Tokenizer *)
Fixpoint skip_spaces (s : string) : string :=
  match s with
  | String c t => if Ascii.eqb c " " then skip_spaces t else s
  | EmptyString => s
  end.

(** parser.hpp:194-195. *)
Fixpoint span_alpha (s : string) : string * string :=
  match s with
  | String c t => if isalpha c then let (a, r) := span_alpha t in (String c a, r) else ("", s)
  | EmptyString => ("", "")
  end.

Definition ocons (c : ascii) (m : outcome (string * string)) : outcome (string * string) :=
  do p <- m; Ret (String c (fst p), snd p).

(** consumeFloat, parser.hpp:219-280, from [_end] on: the bytes taken and the
    rest. *)
Fixpoint cfloat (decimal exponent : bool) (s : string) : outcome (string * string) :=
  match s with
  | EmptyString => Ret ("", "")
  | String c t =>
      if Ascii.eqb c "." then
        if (negb decimal && negb exponent)%bool then ocons c (cfloat true exponent t) else Throw
      else if (Ascii.eqb c "e" || Ascii.eqb c "E")%bool then
        if exponent then Throw else
        match t with
        | EmptyString => Throw
        | String d u =>
            if (Ascii.eqb d "+" || Ascii.eqb d "-")%bool then
              match u with
              | EmptyString => Throw
              | String g _ => if isdigit g then ocons c (ocons d (cfloat true true u)) else Throw
              end
            else if isdigit d then ocons c (cfloat true true t) else Throw
        end
      else if isdigit c then ocons c (cfloat decimal exponent t)
      else Ret ("", s)
  end.

(** consume, parser.hpp:165-217: from [_end] to the next (token, rest).  The
    token is empty exactly at the end of the string. *)
Definition consume (s : string) : outcome (string * string) :=
  match skip_spaces s with
  | EmptyString => Ret ("", "")
  | String c t =>
      if isdigit c then ocons c (cfloat false false t) else
      if isalpha c then let (a, r) := span_alpha t in Ret (String c a, r) else
      let (tok, r) :=
        if (Ascii.eqb c (ch 194) || Ascii.eqb c (ch 195))%bool then
          match t with
          | String d u => (String c (String d ""), u)
          | EmptyString => (String c "", "")
          end
        else (String c "", t) in
      match right_op tok, left_op tok with
      | None, None => Throw
      | _, _ => Ret (tok, r)
      end
  end.

(** The tokenizer state: current token (next(), parser.hpp:147-150) and rest. *)
Definition pstate : Type := string * string.
Definition cur (s : pstate) : string := fst s.
Definition adv (s : pstate) : outcome pstate := consume (snd s).

(** expect, parser.hpp:152-158. *)
Definition expect (t : string) (s : pstate) : outcome pstate :=
  if String.eqb (cur s) t then adv s else Throw.

Fixpoint all_alpha (t : string) : bool :=
  match t with EmptyString => true | String c u => (isalpha c && all_alpha u)%bool end.

Definition starts_digit (t : string) : bool :=
  match t with String c _ => isdigit c | EmptyString => false end.

Section Generic.
Context {K : Type} `{EN : ENum K}.
Notation expr := (expr K).
Variable read : string -> K.
Variable show : K -> string.

(** ** Printing *)

(** BP: binary_ops.hpp:439-444, unary_ops.hpp:189-191, variable.hpp:84-86,
    constants.hpp:237-239, array.hpp:573-577, dispatched by
    runtime.hpp:405-425.  There is no BP for dictionaries: the call resolves to
    BP(const Expr&) through the implicit Expr(const RTBase&), which visits the
    same dictionary again, without end ([UB]). *)
Definition unary_bp (o : uop) : Z :=
  match o with USin | UCos | UExp | ULog => INT_MAX | UAbs | UArb => 0 | UNeg => sign_bp end.
Definition ebp (e : expr) : outcome (Z * Z) :=
  match e with
  | EConst _ | EVar _ | EArr _ => Ret (INT_MAX, INT_MAX)
  | EUn o _ => Ret (0%Z, unary_bp o)
  | EBin o _ _ => Ret (lbp o, rbp o)
  | EDict _ => UB
  end.

(** Op::l_repr and Op::r_repr (unary_ops.hpp:44-115). *)
Definition un_l (o : uop) : string :=
  match o with USin => "sin " | UCos => "cos " | UExp => "exp " | ULog => "ln "
             | UAbs => "|" | UArb => pm ++ "|" | UNeg => "-" end.
Definition un_r (o : uop) : string := match o with UAbs | UArb => "|" | _ => "" end.

Definition paren (b : bool) (s : string) : string := if b then "(" ++ s ++ ")" else s.

(** binary_ops.hpp:448-466 : where the operands get parentheses.  [fp] is the
    configuration option Force_parenthesis. *)
Definition paren_l (fp : bool) (o : bop) (lbps : Z * Z) : bool := (Z.ltb (snd lbps) (lbp o) || fp)%bool.
Definition paren_r (fp : bool) (o : bop) (rbps : Z * Z) : bool :=
  ((Z.ltb (fst rbps) (rbp o) && negb (wrapped o)) || fp)%bool.
Definition paren_u (fp : bool) (o : uop) (abps : Z * Z) : bool := (Z.ltb (fst abps) (unary_bp o) || fp)%bool.

(** array.hpp:383-396, dict.hpp:92-105: the terms joined by ", " (the code
    appends ", " after every term and removes the last one). *)
Fixpoint join_comma (ts : list string) : string :=
  match ts with
  | [] => ""
  | [t] => t
  | t :: us => t ++ ", " ++ join_comma us
  end.

Section Repr.
Variable fp : bool.
(** repr without Latex_output and Debug_output. *)
Fixpoint repr (e : expr) : outcome string :=
  match e with
  | EConst c => Ret (show c)
  | EVar x => Ret x
  | EUn o a =>
      do s <- repr a;
      do b <- ebp a;
      Ret (un_l o ++ paren (paren_u fp o b) s ++ un_r o)
  | EBin o l r =>
      do bl <- ebp l;
      do br <- ebp r;
      do sl <- repr l;
      do sr <- repr r;
      Ret (paren (paren_l fp o bl) sl ++ op_repr o ++ paren (paren_r fp o br) sr ++ op_close o)
  | EArr es =>
      do ts <- oseq (map repr es);
      Ret ("[" ++ join_comma ts ++ "]")
  | EDict d =>
      do ts <- oseq (map (fun p => do s <- repr (snd p); Ret (fst p ++ ":" ++ s)) d);
      Ret ("{" ++ join_comma ts ++ "}")
  end.
End Repr.

(** ** Parsing *)

(** unordered_map operator[] assignment (parser.hpp:407). *)
Fixpoint dset (x : string) (v : expr) (d : list (string * expr)) : list (string * expr) :=
  match d with
  | [] => [(x, v)]
  | (y, w) :: t => if String.eqb x y then (x, v) :: t else (y, w) :: dset x v t
  end.

(** UnaryNegative's visitor, parser.hpp:455-468: a number is negated, anything
    else gets a Negate node (unary_ops.hpp:124-128). *)
Definition negated (e : expr) : expr :=
  match e with EConst c => EConst (nopp c) | _ => EUn UNeg e end.

(** parseExpression (parser.hpp:562-606), parseToken (482-517), the loop of
    parseExpression (575-603) with BinaryOpToken::apply (315-324), the loops of
    ArrayToken (367-376) and DictToken (400-413).

    A key that is not a variable makes [as<VarRT>] throw, after printing the key
    into the message (runtime.hpp:509-514). *)
Fixpoint pexpr (n : nat) (minLBP : Z) (s : pstate) {struct n} : outcome (expr * pstate) :=
  match n with
  | 0 => Fuel
  | S n =>
      do p <- ptoken n s;
      ploop n minLBP INT_MAX (fst p) (snd p)
  end
with ptoken (n : nat) (s : pstate) {struct n} : outcome (expr * pstate) :=
  match n with
  | 0 => Fuel
  | S n =>
      let tok := cur s in
      do s1 <- adv s;
      if String.eqb tok "" then Throw else
      if starts_digit tok then Ret (EConst (read tok), s1) else
      match left_op tok with
      | Some LPos => pexpr n sign_bp s1
      | Some LNeg => do p <- pexpr n sign_bp s1; Ret (negated (fst p), snd p)
      | Some LPar =>
          do p <- pexpr n 0 s1;
          do s2 <- expect ")" (snd p);
          Ret (fst p, s2)
      | Some LArr =>
          if String.eqb (cur s1) "]" then do s2 <- adv s1; Ret (EArr [], s2)
          else parr n [] s1
      | Some LDict =>
          if String.eqb (cur s1) "}" then do s2 <- adv s1; Ret (EDict [], s2)
          else pdict n [] s1
      | Some (LUn o) => do p <- pexpr n INT_MAX s1; Ret (EUn o (fst p), snd p)
      | None => if all_alpha tok then Ret (EVar tok, s1) else Throw
      end
  end
with ploop (n : nat) (minLBP maxLBP : Z) (t : expr) (s : pstate) {struct n} : outcome (expr * pstate) :=
  match n with
  | 0 => Fuel
  | S n =>
      if String.eqb (cur s) "" then Ret (t, s) else
      match right_op (cur s) with
      | None => Throw
      | Some r =>
          if (Z.ltb (rop_lbp r) minLBP || Z.ltb maxLBP (rop_lbp r))%bool then Ret (t, s) else
          do s1 <- adv s;
          match r with
          | RHalt => Throw
          | RBin o =>
              if wrapped o then
                do p <- pexpr n 0 s1;
                do s2 <- expect (op_close o) (snd p);
                ploop n minLBP (nbp o) (EBin o t (fst p)) s2
              else
                do p <- pexpr n (rbp o) s1;
                ploop n minLBP (nbp o) (EBin o t (fst p)) (snd p)
          end
      end
  end
with parr (n : nat) (acc : list expr) (s : pstate) {struct n} : outcome (expr * pstate) :=
  match n with
  | 0 => Fuel
  | S n =>
      do p <- pexpr n 0 s;
      if String.eqb (cur (snd p)) "]" then
        do s2 <- expect "]" (snd p); Ret (EArr (acc ++ [fst p])%list, s2)
      else
        do s2 <- expect "," (snd p); parr n (acc ++ [fst p])%list s2
  end
with pdict (n : nat) (acc : list (string * expr)) (s : pstate) {struct n} : outcome (expr * pstate) :=
  match n with
  | 0 => Fuel
  | S n =>
      do p <- pexpr n 0 s;
      match fst p with
      | EVar x =>
          do s2 <- expect ":" (snd p);
          do q <- pexpr n 0 s2;
          if String.eqb (cur (snd q)) "}" then
            do s3 <- expect "}" (snd q); Ret (EDict (dset x (fst q) acc), s3)
          else
            do s3 <- expect "," (snd q); pdict n (dset x (fst q) acc) s3
      | k => do _m <- repr false k; Throw
      end
  end.

(** The fuel given to the parser; theorem parser_terminates (PropParser.v)
    shows that it never runs out. *)
Definition parse_fuel (s : string) : nat := 3 * String.length s + 8.

(** Expr::Expr(const std::string&), parser.hpp:615-627, up to the call of
    simplify: the constructor of the tokenizer calls consume (144). *)
Definition parse_prefix (s : string) : outcome (expr * pstate) :=
  do st <- consume s;
  pexpr (parse_fuel s) 0 st.

(** The parse tree of a string that is accepted as a whole (the emptiness check
    of parser.hpp:624-626, which the code makes after simplifying). *)
Definition parse (s : string) : outcome expr :=
  do p <- parse_prefix s;
  if String.eqb (cur (snd p)) "" then Ret (fst p) else Throw.

(** The constructor itself: parse, simplify, then check that the whole string
    was read. *)
Definition expr_of_string (fuel : nat) (s : string) : outcome expr :=
  do p <- parse_prefix s;
  do e <- simplify fuel (fst p);
  if String.eqb (cur (snd p)) "" then Ret e else Throw.

End Generic.
