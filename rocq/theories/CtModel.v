(** Compile-time expressions: the operators, substitution, differentiation,
    simplification, integration and Taylor series on the expression types
    C<n,d>, arithmetic numbers, Var<>, UnaryOp<> and BinaryOp<>.

    Models stator/symbolic/constants.hpp, variable.hpp, sub.hpp, binary_ops.hpp,
    unary_ops.hpp, simplify.hpp, integrate.hpp and taylor.hpp.

    Simplifications, valid for the whole file:
    - a C++ expression type together with the numbers stored in its object is
      one tree; overload resolution between templates is a case distinction on
      that tree, in the order given by detail::choice<> (config.hpp:66-80) and
      by partial ordering;
    - an expression that does not compile is [Throw]; an overload removed by
      SFINAE is [None] (simplify not available); template recursion that is
      still running is [Fuel];
    - doubles are exact reals, ints are unbounded integers (an int division by
      zero is [UB]); a result of std::pow or std::log outside its domain is an
      arbitrary number (no theorem speaks about it);
    - polynomials (treated in PolyModel.v), matrices, complex numbers, equations,
      array access and run-time [Expr]s are not part of these trees. *)
From Coq Require Import ZArith Reals String Bool List.
From Verif Require Import Outcome Num ExprModel ExprSpec ConstModel.
Import ListNotations.
Open Scope Z_scope.

(** Numbers known at run time only: int and double. *)
Inductive rnum := RInt (z : Z) | RDbl (r : R).

Inductive aop := OAdd | OSub | OMul | ODiv | OPow.

(** The expression types.  constants.hpp:30 (C), variable.hpp:17 (Var),
    unary_ops.hpp:26 (UnaryOp), binary_ops.hpp:26 (BinaryOp). *)
Inductive cexpr :=
| TC (n d : Z)
| TNum (k : rnum)
| TVar (x : string)
| TUn (o : uop) (a : cexpr)
| TBin (o : aop) (l r : cexpr).

(** constants.hpp:51-53 *)
Definition Null : cexpr := TC 0 1.
Definition Unity : cexpr := TC 1 1.
(** "is the type Null", "is the type Unity" *)
Definition is_null (e : cexpr) : bool := match e with TC n d => (n =? 0) && (d =? 1) | _ => false end.
Definition is_unity (e : cexpr) : bool := match e with TC n d => (n =? 1) && (d =? 1) | _ => false end.

(** Conversion to double; C::operator double is constants.hpp:31-33. *)
Definition to_real (k : rnum) : R := match k with RInt z => IZR z | RDbl r => r end.
Definition c_real (n d : Z) : R := (IZR n / IZR d)%R.
(** A constant or a number, as a double. *)
Definition as_double (e : cexpr) : option R :=
  match e with TC n d => Some (c_real n d) | TNum k => Some (to_real k) | _ => None end.

(** std::pow *)
Definition rpow (x y : R) : R := match npow x y with Some z => z | None => 0%R end.
(** std::cbrt *)
Definition rcbrt (x : R) : R :=
  if Rlt_dec 0 x then Rpower x (1/3) else if Req_EM_T x 0 then 0%R else (- Rpower (- x) (1/3))%R.

Definition real_op (o : aop) (a b : R) : R :=
  match o with OAdd => (a + b)%R | OSub => (a - b)%R | OMul => (a * b)%R | ODiv => (a / b)%R | OPow => rpow a b end.

(** Built-in arithmetic on two arithmetic operands: two ints stay ints (and
    divide with truncation), otherwise both are converted to double.  std::pow
    returns a double (binary_ops.hpp:288-290). *)
Definition num_op (o : aop) (a b : rnum) : outcome rnum :=
  match a, b with
  | RInt x, RInt y =>
      match o with
      | OAdd => Ret (RInt (x + y))
      | OSub => Ret (RInt (x - y))
      | OMul => Ret (RInt (x * y))
      | ODiv => if y =? 0 then UB else Ret (RInt (Z.quot x y))
      | OPow => Ret (RDbl (rpow (IZR x) (IZR y)))
      end
  | _, _ => Ret (RDbl (real_op o (to_real a) (to_real b)))
  end.

Definition cop_of (o : aop) : option cop :=
  match o with OAdd => Some CAdd | OSub => Some CSub | OMul => Some CMul | ODiv => Some CDiv | OPow => None end.

(** The unary operations as [Op::apply] computes them (unary_ops.hpp:46,56,66,
    76,86,96,109): sin and cos of a constant use its table (constants.hpp:196-200;
    when it has no entry the call does not compile), exp and log convert it to
    double, abs and - are exact (202-203, 108-109); numbers are computed; anything
    else, and every argument of arbsign, becomes a symbolic node (unary_ops.hpp:
    124-163). *)
Definition uapply (o : uop) (a : cexpr) : outcome cexpr :=
  match a with
  | TC n d =>
      match o with
      | USin => do r <- c_sin (n, d); match r with Some c => Ret (TC (fst c) (snd c)) | None => Throw end
      | UCos => do r <- c_cos (n, d); match r with Some c => Ret (TC (fst c) (snd c)) | None => Throw end
      | UExp => Ret (TNum (RDbl (exp (c_real n d))))
      | ULog => Ret (TNum (RDbl (ln (c_real n d))))
      | UAbs => let c := c_abs (n, d) in Ret (TC (fst c) (snd c))
      | UNeg => let c := c_neg (n, d) in Ret (TC (fst c) (snd c))
      | UArb => Ret (TUn UArb a)
      end
  | TNum k =>
      match o with
      | USin => Ret (TNum (RDbl (sin (to_real k))))
      | UCos => Ret (TNum (RDbl (cos (to_real k))))
      | UExp => Ret (TNum (RDbl (exp (to_real k))))
      | ULog => Ret (TNum (RDbl (ln (to_real k))))
      | UAbs => Ret (TNum match k with RInt z => RInt (Z.abs z) | RDbl r => RDbl (Rabs r) end)
      | UNeg => Ret (TNum match k with RInt z => RInt (- z) | RDbl r => RDbl (- r) end)
      | UArb => Ret (TUn UArb a)
      end
  | _ => Ret (TUn o a)
  end.

(** The binary operators where an overload other than the symbolic one is chosen.
    [None]: the symbolic node is made (binary_ops.hpp:242-279).
    - both constants: std::ratio arithmetic (constants.hpp:114-132);
    - Null and Unity: constants.hpp:138-154;
    - numbers and constants (converted to double): built-in arithmetic;
    - pow: of a constant by a whole constant uses binary_ops.hpp:338-341, whose
      body (sub of a constant by an int) does not compile; any other power of
      numbers and constants is std::pow, sqrt or cbrt (288-302); x^C<1> is x
      (308-309; with a constant x the call is ambiguous with 338). *)
Definition reduce_pow (l r : cexpr) : outcome (option cexpr) :=
  match r with
  | TC rn rd =>
      match l with
      | TC n d => if rd =? 1 then Throw else Ret (Some (TNum (RDbl (rpow (c_real n d) (c_real rn rd)))))
      | TNum k =>
          Ret (Some (if (rn =? 1) && (rd =? 1) then l
                     else if (rn =? 1) && (rd =? 2) then TNum (RDbl (sqrt (to_real k)))
                     else if (rn =? 1) && (rd =? 3) then TNum (RDbl (rcbrt (to_real k)))
                     else TNum (RDbl (rpow (to_real k) (c_real rn rd)))))
      | _ => Ret (if (rn =? 1) && (rd =? 1) then Some l else None)
      end
  | TNum k =>
      match as_double l with
      | Some a => Ret (Some (TNum (RDbl (rpow a (to_real k)))))
      | None => Ret None
      end
  | _ => Ret None
  end.

Definition reduce_null (o : aop) (l r : cexpr) : option (outcome cexpr) :=
  match o with
  | OAdd => if is_null r then Some (Ret l) else if is_null l then Some (Ret r) else None
  | OSub => if is_null r then Some (Ret l) else if is_null l then Some (uapply UNeg r) else None
  | OMul => if is_null r then Some (Ret Null) else if is_null l then Some (Ret Null)
            else if is_unity r then Some (Ret l) else if is_unity l then Some (Ret r) else None
  | _ => None
  end.

Definition reduce_num (o : aop) (l r : cexpr) : outcome (option cexpr) :=
  match l, r with
  | TNum a, TNum b => do k <- num_op o a b; Ret (Some (TNum k))
  | _, _ =>
      match as_double l, as_double r with
      | Some a, Some b => Ret (Some (TNum (RDbl (real_op o a b))))
      | _, _ => Ret None
      end
  end.

Definition creduce (o : aop) (l r : cexpr) : outcome (option cexpr) :=
  match cop_of o with
  | None => reduce_pow l r
  | Some co =>
      match l, r with
      | TC n1 d1, TC n2 d2 => do c <- c_op co (n1, d1) (n2, d2); Ret (Some (TC (fst c) (snd c)))
      | _, _ =>
          match reduce_null o l r with
          | Some m => do x <- m; Ret (Some x)
          | None => reduce_num o l r
          end
      end
  end.

(** Op::apply(l, r): binary_ops.hpp:75,95,115,135,159. *)
Definition capply (o : aop) (l r : cexpr) : outcome cexpr :=
  do x <- creduce o l r; Ret (match x with Some e => e | None => TBin o l r end).

(** ** Substitution sub(f, x = g): sub.hpp:35-57, binary_ops.hpp:422-425,
    unary_ops.hpp:181-183. *)
Fixpoint csub (x : string) (g f : cexpr) : outcome cexpr :=
  match f with
  | TC _ _ | TNum _ => Ret f
  | TVar y => Ret (if String.eqb y x then g else f)
  | TUn o a => do a' <- csub x g a; uapply o a'
  | TBin o l r => do l' <- csub x g l; do r' <- csub x g r; capply o l' r'
  end.

(** ** derivative(f, x): variable.hpp:57-71, binary_ops.hpp:362-402,
    unary_ops.hpp:165-179. *)
Fixpoint cderiv (x : string) (f : cexpr) : outcome cexpr :=
  match f with
  | TC _ _ | TNum _ => Ret Null
  | TVar y => Ret (if String.eqb y x then Unity else Null)
  | TUn o a =>
      do d <- cderiv x a;
      match o with
      | USin => do c <- uapply UCos a; capply OMul d c
      | UCos => do m <- uapply UNeg d; do s <- uapply USin a; capply OMul m s
      | UExp => capply OMul d f
      | ULog => capply ODiv d a
      | UAbs => do b <- uapply UAbs a; do p <- capply OMul d b; capply ODiv p a
      | UArb => do u <- uapply UArb Unity; capply OMul d u
      | UNeg => uapply UNeg d
      end
  | TBin o l r =>
      match o with
      | OAdd => do a <- cderiv x l; do b <- cderiv x r; capply OAdd a b
      | OSub => do a <- cderiv x l; do b <- cderiv x r; capply OSub a b
      | OMul =>
          do a <- cderiv x l; do b <- cderiv x r;
          do p <- capply OMul a r; do q <- capply OMul l b; capply OAdd p q
      | ODiv =>
          do a <- cderiv x l; do b <- cderiv x r;
          do p <- capply OMul a r; do q <- capply OMul l b;
          do n <- capply OSub p q; do m <- capply OPow r (TC 2 1); capply ODiv n m
      | OPow =>
          match r with
          | TC n d =>
              (* binary_ops.hpp:392-395 *)
              do a <- cderiv x l;
              do p <- capply OMul r a;
              do e <- capply OSub r Unity;
              do q <- capply OPow l e;
              capply OMul p q
          | _ =>
              (* 399-402 *)
              do a <- cderiv x l;
              do p <- capply OMul r a;
              do e <- capply OSub r Unity;
              do q <- capply OPow l e;
              do t1 <- capply OMul p q;
              do b <- cderiv x r;
              do lg <- uapply ULog l;
              do t2 <- capply OMul b lg;
              do t3 <- capply OMul t2 f;
              capply OAdd t1 t3
          end
      end
  end.

(** ** Simplification *)

(** PowerOpSub<Power>::eval, binary_ops.hpp:319-335. *)
Fixpoint power_sub (p : nat) (x : cexpr) : outcome cexpr :=
  match p with
  | O => Ret Unity
  | S O => Ret x
  | S q => do y <- power_sub q x; capply OMul y x
  end.

Definition associative (o : aop) : bool := match o with OAdd | OMul => true | _ => false end.
Definition mul_or_div (o : aop) : bool := match o with OMul | ODiv => true | _ => false end.

(** ±a *)
Definition arb_arg (e : cexpr) : option cexpr := match e with TUn UArb a => Some a | _ => None end.
(** C<p,1> *)
Definition whole (e : cexpr) : option Z := match e with TC p d => if d =? 1 then Some p else None | _ => None end.
Definition is_var_type (e : cexpr) : bool := match e with TVar _ => true | _ => false end.
Definition aop_eqb (o p : aop) : bool :=
  match o, p with OAdd, OAdd | OSub, OSub | OMul, OMul | ODiv, ODiv | OPow, OPow => true | _, _ => false end.
(** the operands of a node with the same operator *)
Definition split_op (o : aop) (e : cexpr) : option (cexpr * cexpr) :=
  match e with TBin p a b => if aop_eqb o p then Some (a, b) else None | _ => None end.

(** The rules at choice<0> that apply to the symbolic node [l o r]. *)
Inductive direct :=
| DKeep (e : cexpr)          (* this is the result *)
| DTry (e : cexpr)           (* the result is try_simplify of this *)
| DPow (x : string) (n : cexpr)  (* the result is pow(x, n + C<1>()) *)
| DNone.
Definition direct_rule (o : aop) (l r : cexpr) : direct :=
  match o with
  | ODiv =>
      if is_null l then DKeep Null                                    (* 147-149 *)
      else if is_unity r then DTry l                                  (* 152-155 *)
      else match l, r with
           | TVar x, TVar y => if String.eqb x y then DKeep Unity else DNone   (* 164-167 *)
           | _, _ => DNone
           end
  | OPow => if is_unity l then DKeep Unity else DNone                 (* 147-149 *)
  | OMul =>
      match l with
      | TVar x =>
          match r with
          | TVar y => if String.eqb x y then DKeep (TBin OPow l (TC 2 1)) else DNone   (* 174-177 *)
          | TBin OPow (TVar y) n => if String.eqb x y then DPow x n else DNone         (* 185-189 *)
          | _ => DNone
          end
      | TBin OPow (TVar x) n =>
          match r with
          | TVar y => if String.eqb x y then DPow x n else DNone                       (* 179-183 *)
          | _ => DNone
          end
      | _ => DNone
      end
  | _ => DNone
  end.

Definition some (m : outcome cexpr) : outcome (option cexpr) := do x <- m; Ret (Some x).

Section Simplify.
(** Config::expand_Constants (simplify.hpp:40-59): false for simplify, true for
    sym::N (112-126). *)
Variable to_numbers : bool.

(** The rules are written with [self], simplify at smaller template depth;
    [ctry] is try_simplify (simplify.hpp:70-92). *)
Section Rules.
Variable self : cexpr -> outcome (option cexpr).
Definition ctry (e : cexpr) : outcome cexpr :=
  do r <- self e; Ret (match r with Some x => x | None => e end).

(** choice<7>, simplify.hpp:260-269; two viable overloads are ambiguous, so
    simplify is not available *)
Definition reorder7 (o : aop) (l r : cexpr) : outcome (option cexpr) :=
  do a <- match split_op o l with Some (l1, _) => self (TBin o l1 r) | None => Ret None end;
  do b <- match split_op o r with Some (_, r2) => self (TBin o l r2) | None => Ret None end;
  match a, b with
  | Some s, None => match split_op o l with Some (_, l2) => some (do q <- capply o s l2; ctry q) | None => Ret None end
  | None, Some s => match split_op o r with Some (r1, _) => some (do q <- capply o s r1; ctry q) | None => Ret None end
  | _, _ => Ret None
  end.
(** choice<6>, simplify.hpp:248-257 *)
Definition reorder6 (o : aop) (l r : cexpr) : outcome (option cexpr) :=
  do a <- match split_op o l with Some (_, l2) => self (TBin o l2 r) | None => Ret None end;
  do b <- match split_op o r with Some (r1, _) => self (TBin o l r1) | None => Ret None end;
  match a, b with
  | Some _, Some _ => Ret None
  | Some s, None => match split_op o l with Some (l1, _) => some (do q <- capply o l1 s; ctry q) | None => Ret None end
  | None, Some s => match split_op o r with Some (_, r2) => some (do q <- capply o s r2; ctry q) | None => Ret None end
  | None, None => reorder7 o l r
  end.
(** choice<4> and choice<5>, simplify.hpp:457-473 *)
Definition sign_rules (o : aop) (l r : cexpr) : outcome (option cexpr) :=
  match (if mul_or_div o then arb_arg l else None), (if mul_or_div o then arb_arg r else None) with
  | Some a, Some b => some (do q <- capply o a b; ctry (TUn UArb q))
  | None, Some b => some (do q <- capply o l b; ctry (TUn UArb q))
  | Some a, None => some (do q <- capply o a r; ctry (TUn UArb q))
  | None, None => if associative o then reorder6 o l r else Ret None
  end.
(** choice<2> and choice<3>, simplify.hpp:192-206 *)
Definition argument_rules (o : aop) (l r : cexpr) : outcome (option cexpr) :=
  do ml <- self l;
  do mr <- self r;
  match ml, mr with
  | Some l', Some r' => some (do b <- capply o l' r'; ctry b)
  | Some l', None => some (do b <- capply o l' r; ctry b)
  | None, Some r' => some (do b <- capply o l r'; ctry b)
  | None, None => sign_rules o l r
  end.
(** simplify_BinaryOp, choice<0> first: simplify.hpp:135-189.  The first rule is
    an operator overload that is not the symbolic node (137-140); for C<0>() - r
    the overload 170-171 is chosen instead, which does not compile.  (Other
    overlaps of the first rule with 143-161 need operands that the operators
    never leave in a node.) *)
Definition binary_rules (o : aop) (l r : cexpr) : outcome (option cexpr) :=
  do red <- creduce o l r;
  match red with
  | Some x => if aop_eqb o OSub && is_null l && negb (is_null r) then Throw else Ret (Some x)
  | None =>
      match direct_rule o l r with
      | DKeep e => Ret (Some e)
      | DTry e => some (ctry e)
      | DPow x n => some (do m <- capply OAdd n Unity; capply OPow (TVar x) m)
      | DNone => argument_rules o l r
      end
  end.
(** simplify on PowerOp<Arg, C<Power,1>>, Arg neither a variable nor ±:
    simplify.hpp:210-233.  If no overload of simplify_powerop_impl is viable the
    body does not compile; a negative power is not a size_t. *)
Definition power_rules (l : cexpr) (p : Z) : outcome (option cexpr) :=
  if p <? 0 then Throw
  else
    do ml <- self l;
    match ml with
    | Some l' => some (do q <- power_sub (Z.to_nat p) l'; ctry q)
    | None =>
        do q <- power_sub (Z.to_nat p) l;
        do mq <- self q;
        match mq with Some q' => Ret (Some q') | None => Throw end
    end.
(** simplify on PowerOp<UnaryOp<Arg, Arbsign>, C<Power,1>>: simplify.hpp:476-485 *)
Definition sign_power (a : cexpr) (p : Z) : outcome (option cexpr) :=
  some (do q <- capply OPow a (TC p 1); ctry (if Z.even p then q else TUn UArb q)).
(** the choice between the overloads of simplify for a binary node *)
Definition binary_gate (o : aop) (l r : cexpr) : outcome (option cexpr) :=
  match (if aop_eqb o OPow then whole r else None) with
  | Some p =>
      match arb_arg l with
      | Some a => sign_power a p
      | None => if is_var_type l then binary_rules o l r else power_rules l p
      end
  | None => binary_rules o l r
  end.
(** unary nodes: simplify.hpp:442-454 *)
Definition unary_gate (o : uop) (a : cexpr) : outcome (option cexpr) :=
  match (match o with UArb => arb_arg a | _ => None end) with
  | Some b => some (ctry (TUn UArb b))
  | None =>
      do ma <- self a;
      match ma with
      | Some a' => some (do b <- uapply o a'; ctry b)
      | None => Ret None
      end
  end.
End Rules.

(** simplify(e), or [None] where no overload is available.  A constant is
    converted to a number by sym::N (simplify.hpp:344-346). *)
Fixpoint csimp (fuel : nat) (e : cexpr) {struct fuel} : outcome (option cexpr) :=
  match fuel with
  | O => Fuel
  | S fuel' =>
      match e with
      | TC n d => Ret (if to_numbers then Some (TNum (RDbl (c_real n d))) else None)
      | TNum _ | TVar _ => Ret None
      | TUn o a => unary_gate (csimp fuel') o a
      | TBin o l r => binary_gate (csimp fuel') o l r
      end
  end.

(** try_simplify, simplify.hpp:70-92 *)
Definition try_simplify (fuel : nat) (e : cexpr) : outcome cexpr :=
  do r <- csimp fuel e; Ret (match r with Some x => x | None => e end).
End Simplify.

(** ** integrate(f, x): integrate.hpp:38-75.  The overloads for sums,
    differences, the variable and its constant powers are more specialised than
    the one for constants. *)
Definition integrate_constant (x : string) (f : cexpr) : outcome cexpr :=
  (* IS_CONSTANT: the type of the derivative is Null; 31-41 *)
  do d <- cderiv x f; if is_null d then capply OMul f (TVar x) else Throw.
Fixpoint cintegrate (x : string) (f : cexpr) : outcome cexpr :=
  match f with
  | TVar y => if String.eqb y x
              then do p <- capply OPow f (TC 2 1); capply OMul (TC 1 2) p              (* 68-70 *)
              else integrate_constant x f
  | TBin o l r =>
      match o with
      | OAdd => do a <- cintegrate x l; do b <- cintegrate x r; capply OAdd a b         (* 44-46 *)
      | OSub => do a <- cintegrate x l; do b <- cintegrate x r; capply OSub a b         (* 49-51 *)
      | OPow =>
          match l, whole r with
          | TVar y, Some p =>
              if String.eqb y x
              then if p + 1 =? 0 then Throw     (* C<1,0> *)                           (* 73-76 *)
                   else do q <- capply OPow l (TC (p + 1) 1); capply OMul (TC 1 (p + 1)) q
              else integrate_constant x f
          | _, _ => integrate_constant x f
          end
      | _ => integrate_constant x f
      end
  | _ => integrate_constant x f
  end.

(** ** taylor_series<Order>(f, a, x): taylor.hpp:27-58.  [m] = max_Order - State. *)
Fixpoint taylor_worker (x : string) (a : cexpr) (m state : nat) (f : cexpr) : outcome cexpr :=
  if is_null f then Ret Null
  else
    do c <- inv_factorial state;
    do v <- csub x a f;
    do t <- capply OMul (TC (fst c) (snd c)) v;
    match m with
    | O => Ret t
    | S m' =>
        do d <- cderiv x f;
        do w <- taylor_worker x a m' (S state) d;
        do y <- capply OSub (TVar x) a;
        do p <- capply OMul y w;
        capply OAdd t p
    end.
Definition taylor_series (fuel order : nat) (x : string) (f a : cexpr) : outcome cexpr :=
  do w <- taylor_worker x a order 0 f; try_simplify false fuel w.
