(** expand, simplify and N on compile-time expressions that contain polynomials.

    Models stator/symbolic/simplify.hpp:40-433 and the operators of
    polynomial.hpp:138, constants.hpp and binary_ops.hpp that these rules call.

    Simplifications, valid for the whole file: as in CtModel.v (a C++ type with
    the numbers stored in its object is one tree; overload resolution is a case
    distinction in the order of detail::choice<>; an expression that does not
    compile is [Throw], an overload removed by SFINAE is [None], template
    recursion that is still running is [Fuel]; doubles are exact reals and ints
    are unbounded).  Polynomial coefficients are ints or doubles.  The "either
    sign" function (arbsign), treated in CtModel.v, is not part of these trees. *)
From Coq Require Import ZArith Reals String Bool List.
From Verif Require Import Outcome Num PolyModel ExprModel ExprSpec ConstModel CtModel.
Import ListNotations.
Open Scope Z_scope.

Inductive pfun := FSin | FCos | FLog | FExp | FAbs | FNeg.
Definition uop_of (o : pfun) : uop :=
  match o with FSin => USin | FCos => UCos | FLog => ULog | FExp => UExp | FAbs => UAbs | FNeg => UNeg end.

(** The expression types.  constants.hpp:30 (C), variable.hpp:17 (Var),
    polynomial.hpp:75 (Polynomial<Order, Coeff_t, Var>: variable and coefficients,
    constant term first), unary_ops.hpp:26 (UnaryOp), binary_ops.hpp:26 (BinaryOp). *)
Inductive pexpr :=
| XC (n d : Z)
| XNum (k : rnum)
| XVar (x : string)
| XPoly (x : string) (c : list rnum)
| XFun (o : pfun) (a : pexpr)
| XBin (o : aop) (l r : pexpr).

(** Constants and numbers (detail::IsConstant, constants.hpp:213) and back. *)
Definition lit_of (e : pexpr) : option cexpr :=
  match e with XC n d => Some (TC n d) | XNum k => Some (TNum k) | _ => None end.
Definition of_lit (e : cexpr) : pexpr :=
  match e with TC n d => XC n d | TNum k => XNum k | _ => XC 0 1 (* not reached: see lit_results *) end.
Definition xnull (e : pexpr) : bool := match e with XC n d => (n =? 0) && (d =? 1) | _ => false end.
Definition xunity (e : pexpr) : bool := match e with XC n d => (n =? 1) && (d =? 1) | _ => false end.

(** ** Polynomial arithmetic.  Two polynomials with int coefficients give int
    coefficients, otherwise every coefficient is converted to double. *)
Fixpoint ints_of (c : list rnum) : option (list Z) :=
  match c with
  | [] => Some []
  | RInt z :: t => match ints_of t with Some l => Some (z :: l) | None => None end
  | RDbl _ :: _ => None
  end.
Definition reals_of (c : list rnum) : list R := map to_real c.
(** simplify.hpp:369-387 (sum and difference), 391-402 (product) *)
Definition xpoly_op (o : aop) (f g : list rnum) : list rnum :=
  match ints_of f, ints_of g with
  | Some a, Some b =>
      map RInt (match o with OAdd => poly_add (H := Z_num) a b | OSub => poly_sub_op (H := Z_num) a b
                | _ => poly_mul (H := Z_num) a b end)
  | _, _ =>
      map RDbl (match o with OAdd => poly_add (reals_of f) (reals_of g) | OSub => poly_sub_op (reals_of f) (reals_of g)
                | _ => poly_mul (reals_of f) (reals_of g) end)
  end.
(** simplify.hpp:406-414; an int division by zero is undefined *)
Definition xpoly_div (f : list rnum) (c : rnum) : outcome (list rnum) :=
  match ints_of f, c with
  | Some a, RInt z => if z =? 0 then UB else Ret (map RInt (poly_div0 (H := Z_num) a z))
  | _, _ => Ret (map RDbl (poly_div0 (reals_of f) (to_real c)))
  end.
(** polynomial.hpp:138-144 *)
Definition rneg (k : rnum) : rnum := match k with RInt z => RInt (- z) | RDbl r => RDbl (- r) end.
Definition xpoly_neg (f : list rnum) : list rnum := map rneg f.
(** simplify.hpp:310-312 {0,1} and 317-324 x^P *)
Definition xpoly_var : list rnum := map RInt (poly_var (H := Z_num)).
Definition xpoly_varpow (p : nat) : list rnum := map RInt (poly_varpow (H := Z_num) p).
(** simplify.hpp:299-308: a zero of the coefficient type before the coefficients *)
Definition xpoly_mulvar (f : list rnum) : list rnum :=
  match ints_of f with Some a => map RInt (poly_mulvar (H := Z_num) a) | None => map RDbl (poly_mulvar (reals_of f)) end.
(** toArithmetic, simplify.hpp:326-342 *)
Definition to_arithmetic (e : pexpr) : option rnum :=
  match e with
  | XNum k => Some k
  | XC n d => Some (if Z.rem n d =? 0 then RInt (Z.quot n d) else RDbl (c_real n d))
  | _ => None
  end.

(** ** Operators *)
(** Op::apply for the functions, unary_ops.hpp:46-110 and 124-163; the sign of a
    polynomial is changed by its own operator, polynomial.hpp:138-144. *)
Definition xfun (o : pfun) (a : pexpr) : outcome pexpr :=
  match lit_of a with
  | Some c => do r <- uapply (uop_of o) c; Ret (of_lit r)
  | None => Ret (match o, a with FNeg, XPoly x f => XPoly x (xpoly_neg f) | _, _ => XFun o a end)
  end.
(** The binary operators where an overload other than the symbolic one is chosen
    ([None]: the symbolic node is made): two constants or numbers as in CtModel.v,
    otherwise Null and Unity (constants.hpp:138-154) and pow(l, C<1>())
    (binary_ops.hpp:308-309). *)
Definition xreduce_null (o : aop) (l r : pexpr) : outcome (option pexpr) :=
  match o with
  | OAdd => Ret (if xnull r then Some l else if xnull l then Some r else None)
  | OSub => if xnull r then Ret (Some l) else if xnull l then (do n <- xfun FNeg r; Ret (Some n)) else Ret None
  | OMul => Ret (if xnull r then Some (XC 0 1) else if xnull l then Some (XC 0 1)
                 else if xunity r then Some l else if xunity l then Some r else None)
  | ODiv => Ret None
  | OPow => Ret (if xunity r then Some l else None)
  end.
Definition xreduce (o : aop) (l r : pexpr) : outcome (option pexpr) :=
  match lit_of l, lit_of r with
  | Some a, Some b => do c <- creduce o a b; Ret (match c with Some e => Some (of_lit e) | None => None end)
  | _, _ => xreduce_null o l r
  end.
(** Op::apply(l, r): binary_ops.hpp:75,95,115,135,159. *)
Definition xapply (o : aop) (l r : pexpr) : outcome pexpr :=
  do x <- xreduce o l r; Ret (match x with Some e => e | None => XBin o l r end).
(** PowerOpSub<Power>::eval, binary_ops.hpp:319-335. *)
Fixpoint xpower_sub (p : nat) (x : pexpr) : outcome pexpr :=
  match p with
  | O => Ret (XC 1 1)
  | S O => Ret x
  | S q => do y <- xpower_sub q x; xapply OMul y x
  end.

(** ** Simplification *)
Definition xsplit (o : aop) (e : pexpr) : option (pexpr * pexpr) :=
  match e with XBin p a b => if aop_eqb o p then Some (a, b) else None | _ => None end.
Definition xwhole (e : pexpr) : option Z := match e with XC p d => if d =? 1 then Some p else None | _ => None end.
Definition is_xvar (e : pexpr) : bool := match e with XVar _ => true | _ => false end.

(** The rules at choice<0> that apply to the symbolic node [l o r]. *)
Inductive xdirect :=
| XKeep (e : pexpr)              (* this is the result *)
| XTry (e : pexpr)               (* the result is try_simplify of this *)
| XPow (x : string) (n : pexpr)  (* the result is pow(x, n + C<1>()) *)
| XNone.
Definition xdirect_rule (o : aop) (l r : pexpr) : xdirect :=
  match o with
  | ODiv =>
      if xnull l then XKeep (XC 0 1)                                  (* 147-149 *)
      else if xunity r then XTry l                                    (* 152-155 *)
      else match l, r with
           | XVar x, XVar y => if String.eqb x y then XKeep (XC 1 1) else XNone       (* 164-167 *)
           | _, _ => XNone
           end
  | OPow => if xunity l then XKeep (XC 1 1) else XNone                (* 147-149 *)
  | OMul =>
      match l with
      | XVar x =>
          match r with
          | XVar y => if String.eqb x y then XKeep (XBin OPow l (XC 2 1)) else XNone   (* 174-177 *)
          | XBin OPow (XVar y) n => if String.eqb x y then XPow x n else XNone         (* 185-189 *)
          | _ => XNone
          end
      | XBin OPow (XVar x) n =>
          match r with
          | XVar y => if String.eqb x y then XPow x n else XNone                       (* 179-183 *)
          | _ => XNone
          end
      | _ => XNone
      end
  | _ => XNone
  end.

(** The overloads of simplify for a binary node that are more specialised than the
    general one. *)
Definition poly_rule (to_polys : bool) (o : aop) (l r : pexpr) : outcome (option pexpr) :=
  match l, r with
  | XPoly x f, XPoly y g =>
      match o with
      | OAdd | OSub => Ret (if String.eqb x y then Some (XPoly x (xpoly_op o f g)) else None)   (* 369-387 *)
      | OMul => Ret (Some (XPoly x (xpoly_op o f g)))                                           (* 391-402 *)
      | ODiv => match g with [c] => do q <- xpoly_div f c; Ret (Some (XPoly x q)) | _ => Ret None end  (* 406-414 *)
      | OPow => Ret None
      end
  | XPoly x f, XVar y =>                                                                        (* 299-308; 288-297 takes a *)
      Ret (match o with OMul => if to_polys && String.eqb x y                                   (* non-const reference *)
                                then Some (XPoly x (xpoly_mulvar f)) else None | _ => None end)
  | XVar x, XC p d =>                                                                           (* 317-324 *)
      Ret (match o with OPow => if to_polys && (d =? 1) && (0 <=? p)
                                then Some (XPoly x (xpoly_varpow (Z.to_nat p))) else None | _ => None end)
  | _, _ => Ret None
  end.

(** SimplifyConfig, simplify.hpp:51-60: simplify, N (112-126) and expand (94-110). *)
Inductive config := CDefault | CNumbers | CExpand.
Definition to_numbers (g : config) : bool := match g with CDefault => false | _ => true end.
Definition to_polys (g : config) : bool := match g with CExpand => true | _ => false end.

Definition xsome (m : outcome pexpr) : outcome (option pexpr) := do x <- m; Ret (Some x).

Section Simplify.
Variable cfg : config.

(** The rules are written with [self], simplify at smaller template depth;
    [xtry] is try_simplify (simplify.hpp:70-92). *)
Section Rules.
Variable self : pexpr -> outcome (option pexpr).
Definition xtry (e : pexpr) : outcome pexpr :=
  do r <- self e; Ret (match r with Some x => x | None => e end).

(** last_choice, simplify.hpp:348-360: a constant operand of a polynomial becomes
    a polynomial of order 0 *)
Definition constant_rule (o : aop) (l r : pexpr) : outcome (option pexpr) :=
  if to_polys cfg then
    match l, r with
    | XPoly x f, _ =>
        match to_arithmetic r with
        | Some k => xsome (do q <- xapply o l (XPoly x [k]); xtry q)
        | None => Ret None
        end
    | _, XPoly x f =>
        match to_arithmetic l with
        | Some k => xsome (do q <- xapply o (XPoly x [k]) r; xtry q)
        | None => Ret None
        end
    | _, _ => Ret None
    end
  else Ret None.
(** choice<7>, simplify.hpp:260-269; two viable overloads are ambiguous, so
    simplify is not available *)
Definition xreorder7 (o : aop) (l r : pexpr) : outcome (option pexpr) :=
  do a <- match xsplit o l with Some (l1, _) => self (XBin o l1 r) | None => Ret None end;
  do b <- match xsplit o r with Some (_, r2) => self (XBin o l r2) | None => Ret None end;
  match a, b with
  | Some s, None => match xsplit o l with Some (_, l2) => xsome (do q <- xapply o s l2; xtry q) | None => Ret None end
  | None, Some s => match xsplit o r with Some (r1, _) => xsome (do q <- xapply o s r1; xtry q) | None => Ret None end
  | Some _, Some _ => Ret None
  | None, None => constant_rule o l r
  end.
(** choice<6>, simplify.hpp:248-257 *)
Definition xreorder6 (o : aop) (l r : pexpr) : outcome (option pexpr) :=
  do a <- match xsplit o l with Some (_, l2) => self (XBin o l2 r) | None => Ret None end;
  do b <- match xsplit o r with Some (r1, _) => self (XBin o l r1) | None => Ret None end;
  match a, b with
  | Some _, Some _ => Ret None
  | Some s, None => match xsplit o l with Some (l1, _) => xsome (do q <- xapply o l1 s; xtry q) | None => Ret None end
  | None, Some s => match xsplit o r with Some (_, r2) => xsome (do q <- xapply o s r2; xtry q) | None => Ret None end
  | None, None => xreorder7 o l r
  end.
(** choice<2> and choice<3>, simplify.hpp:192-206 *)
Definition xargument_rules (o : aop) (l r : pexpr) : outcome (option pexpr) :=
  do ml <- self l;
  do mr <- self r;
  match ml, mr with
  | Some l', Some r' => xsome (do b <- xapply o l' r'; xtry b)
  | Some l', None => xsome (do b <- xapply o l' r; xtry b)
  | None, Some r' => xsome (do b <- xapply o l r'; xtry b)
  | None, None => if associative o then xreorder6 o l r else constant_rule o l r
  end.
(** simplify_BinaryOp, choice<0> first: simplify.hpp:135-189.  The first rule is
    an operator overload that is not the symbolic node (137-140); for C<0>() - r
    the overload 170-171 is chosen instead, which compiles only where -r has the
    type of r.  (Other overlaps of the first rule with 143-161 need operands that
    the operators never leave in a node.) *)
Definition xbinary_rules (o : aop) (l r : pexpr) : outcome (option pexpr) :=
  do red <- xreduce o l r;
  match red with
  | Some x =>
      if aop_eqb o OSub && xnull l && negb (xnull r)
      then match r with XNum _ | XPoly _ _ => Ret (Some x) | _ => Throw end
      else Ret (Some x)
  | None =>
      match xdirect_rule o l r with
      | XKeep e => Ret (Some e)
      | XTry e => xsome (xtry e)
      | XPow x n => xsome (do m <- xapply OAdd n (XC 1 1); xapply OPow (XVar x) m)
      | XNone => xargument_rules o l r
      end
  end.
(** simplify on PowerOp<Arg, C<Power,1>>, Arg not a variable: simplify.hpp:210-233.
    If no overload of simplify_powerop_impl is viable the body does not compile; a
    negative power is not a size_t. *)
Definition xpower_rules (l : pexpr) (p : Z) : outcome (option pexpr) :=
  if p <? 0 then Throw
  else
    do ml <- self l;
    match ml with
    | Some l' => xsome (do q <- xpower_sub (Z.to_nat p) l'; xtry q)
    | None =>
        do q <- xpower_sub (Z.to_nat p) l;
        do mq <- self q;
        match mq with Some q' => Ret (Some q') | None => Throw end
    end.
(** the choice between the overloads of simplify for a binary node *)
Definition xbinary_gate (o : aop) (l r : pexpr) : outcome (option pexpr) :=
  do p <- poly_rule (to_polys cfg) o l r;
  match p with
  | Some e => Ret (Some e)
  | None =>
      match (if aop_eqb o OPow then xwhole r else None) with
      | Some p => if is_xvar l then xbinary_rules o l r else xpower_rules l p
      | None => xbinary_rules o l r
      end
  end.
(** unary nodes: simplify.hpp:447-454 *)
Definition xunary_gate (o : pfun) (a : pexpr) : outcome (option pexpr) :=
  do ma <- self a;
  match ma with
  | Some a' => xsome (do b <- xfun o a'; xtry b)
  | None => Ret None
  end.
End Rules.

(** simplify<Config>(e), or [None] where no overload is available.  Constants:
    simplify.hpp:344-346; a variable: 310-312. *)
Fixpoint xsimp (fuel : nat) (e : pexpr) {struct fuel} : outcome (option pexpr) :=
  match fuel with
  | O => Fuel
  | S fuel' =>
      match e with
      | XC n d => Ret (if to_numbers cfg then Some (XNum (RDbl (c_real n d))) else None)
      | XVar x => Ret (if to_polys cfg then Some (XPoly x xpoly_var) else None)
      | XNum _ | XPoly _ _ => Ret None
      | XFun o a => xunary_gate (xsimp fuel') o a
      | XBin o l r => xbinary_gate (xsimp fuel') o l r
      end
  end.
End Simplify.

(** expand(e) and try_expand(e), simplify.hpp:94-110. *)
Definition expand (fuel : nat) (e : pexpr) : outcome (option pexpr) := xsimp CExpand fuel e.
Definition try_expand (fuel : nat) (e : pexpr) : outcome pexpr := xtry (xsimp CExpand fuel) e.
