(** Run-time expressions: the tree held by [Expr], structural comparison,
    hashing, simplification, substitution and differentiation.

    Models stator/symbolic/runtime.hpp, binary_ops.hpp, binary_ops_rt.hpp,
    unary_ops.hpp, unary_ops_rt.hpp, units.hpp, uncertainty.hpp, array.hpp
    (the operators used by [Expr] arrays), dict.hpp, variable_rt.hpp and
    constants_rt.hpp.

    Simplifications, valid for the whole file:
    - an [Expr] is a shared pointer to an immutable node; the model is the tree
      it denotes (sharing is not observable except through the pointer shortcut
      of operator==, which only matters for NaN constants);
    - the number type is a parameter [K]; the theorems use exact reals;
    - a dictionary is modelled with variables as keys (the only keys the parser
      and the substitution visitor use), as the list of its entries in iteration
      order;
    - an [Array<Expr>] has linear addressing, so it is a list. *)
From Coq Require Import String NArith.
From Verif Require Import Outcome Num.
Open Scope nat_scope.

(** Number operations used by constant folding (unary_ops.hpp:44-115 call
    std::sin, cos, log, exp, abs; binary_ops.hpp:288-290 calls std::pow). *)
Class ENum (K : Type) := {
  enum_num :> Num K;
  esin : K -> K; ecos : K -> K; elog : K -> K; eexp : K -> K; eabs : K -> K;
  epow : K -> K -> K
}.

(** unary_ops.hpp:44-115 : the seven unary operators. *)
Inductive uop := USin | UCos | ULog | UExp | UAbs | UArb | UNeg.

(** binary_ops.hpp:58-204, units.hpp:37-61, uncertainty.hpp:37-61. *)
Inductive bop := BAdd | BSub | BMul | BDiv | BPow | BEq | BAcc | BUnits | BUnc.

(** Node types: runtime.hpp:243-265 (VisitorInterface). *)
Inductive expr (K : Type) : Type :=
| EConst (c : K)                      (* ConstantRT<double>  constants_rt.hpp:23 *)
| EVar (x : string)                   (* VarRT  variable_rt.hpp:23 *)
| EUn (o : uop) (a : expr K)          (* UnaryOp<Expr,Op> unary_ops_rt.hpp:26 *)
| EBin (o : bop) (l r : expr K)       (* BinaryOp<Expr,Op,Expr> binary_ops_rt.hpp:25 *)
| EArr (es : list (expr K))           (* ArrayRT  array_rt.hpp:26 *)
| EDict (d : list (string * expr K)). (* DictRT  dict_rt.hpp:26 *)
Arguments EConst {K} c.
Arguments EVar {K} x.
Arguments EUn {K} o a.
Arguments EBin {K} o l r.
Arguments EArr {K} es.
Arguments EDict {K} d.

(** Op::type_index : unary_ops.hpp:51,61,71,81,91,101,114;
    binary_ops.hpp:76,96,116,136,160,182,203; units.hpp:60; uncertainty.hpp:60. *)
Definition uidx (o : uop) : N :=
  match o with USin => 2 | UCos => 3 | ULog => 4 | UExp => 5 | UAbs => 6 | UArb => 7 | UNeg => 17 end%N.
Definition bidx (o : bop) : N :=
  match o with BAdd => 8 | BSub => 9 | BMul => 10 | BDiv => 11 | BPow => 12 | BEq => 13
             | BAcc => 14 | BUnits => 18 | BUnc => 19 end%N.

Definition uop_eqb (a b : uop) : bool := N.eqb (uidx a) (uidx b).
Definition bop_eqb (a b : bop) : bool := N.eqb (bidx a) (bidx b).

(** A lookup in an unordered_map keyed by variables (DictBase::find,
    dict.hpp:43-44). *)
Fixpoint dfind {A} (x : string) (d : list (string * A)) : option A :=
  match d with
  | [] => None
  | (y, v) :: t => if String.eqb x y then Some v else dfind x t
  end.

Section Generic.
Context {K : Type} `{EN : ENum K}.
Notation expr := (expr K).

(** ** Comparison.  RTBase::operator== (runtime.hpp:113-117), ComparisonVisitor
    (362-385): the same node type compares components, different types are
    unequal.  Constants constants_rt.hpp:32-40, variables variable_rt.hpp:50-53,
    operators unary_ops_rt.hpp:38-41 and binary_ops_rt.hpp:37-40, arrays
    array_rt.hpp:53-56, dictionaries dict.hpp:53-57 (unordered_map operator==:
    equal sizes and every entry of the first found with an equal value in the
    second).  The pointer-equality shortcuts are dropped. *)
Fixpoint eeqb (a b : expr) {struct a} : bool :=
  match a with
  | EConst c => match b with EConst d => neqb c d | _ => false end
  | EVar x => match b with EVar y => String.eqb x y | _ => false end
  | EUn o s => match b with EUn p t => uop_eqb o p && eeqb s t | _ => false end
  | EBin o l r =>
      match b with EBin p l' r' => bop_eqb o p && (eeqb l l' && eeqb r r') | _ => false end
  | EArr xs =>
      match b with
      | EArr ys =>
          (fix leq (xs ys : list expr) : bool :=
             match xs, ys with
             | [], [] => true
             | x :: xs, y :: ys => eeqb x y && leq xs ys
             | _, _ => false
             end) xs ys
      | _ => false
      end
  | EDict d =>
      match b with
      | EDict e =>
          Nat.eqb (List.length d) (List.length e) &&
          (fix deq (d : list (string * expr)) : bool :=
             match d with
             | [] => true
             | (k, v) :: t =>
                 match dfind k e with
                 | Some w => eeqb v w && deq t
                 | None => false
                 end
             end) d
      | _ => false
      end
  end.

(** Comparison with a compile-time constant C<n,d> such as Null or Unity:
    constants_rt.hpp:37-40 through ComparisonVisitor. *)
Definition is_const (e : expr) (c : K) : bool :=
  match e with EConst x => neqb x c | _ => false end.

(** ** Hashing.  hash.hpp:25-27 on a 64-bit size_t; std::hash<size_t> is the
    identity.  The hashes of strings and numbers are parameters. *)
Definition w64 (n : N) : N := N.modulo n (2 ^ 64).
Definition hash_combine (seed v : N) : N :=
  w64 (N.lxor seed (w64 (v + 2654435769 + N.shiftl seed 6 + N.shiftr seed 2))).

Section Hash.
Variable hstr : string -> N.
Variable hnum : K -> N.

(** runtime.hpp:433-459 (std::hash<Expr>), unary_ops.hpp:213-221,
    binary_ops.hpp:472-481, variable.hpp:96-104, array.hpp:582-595,
    dict.hpp:110-121. *)
Fixpoint ehash (e : expr) : N :=
  match e with
  | EConst c => hnum c
  | EVar x => hash_combine 1 (hstr x)
  | EUn o a => hash_combine (uidx o) (ehash a)
  | EBin o l r => hash_combine (hash_combine (bidx o) (ehash l)) (ehash r)
  | EArr es => fold_left (fun s x => hash_combine s x) (map ehash es) 15%N
  | EDict d =>
      (fix go (d : list (string * expr)) (s : N) : N :=
         match d with
         | [] => s
         | (k, v) :: t => go t (hash_combine (hash_combine s (hash_combine 1 (hstr k))) (ehash v))
         end) d 16%N
  end.
End Hash.

(** ** Simplification (runtime.hpp:567-725). *)

(** The identity and zero elements of the operators: binary_ops.hpp:64-67,
    85-88, 105-108, 125-128, 151-154, 169-172, 197-200; units.hpp:45-48;
    uncertainty.hpp:45-48.  [None] is NoIdentity, which compares unequal to
    everything (binary_ops.hpp:41-44, runtime.hpp:194). *)
Definition left_zero (o : bop) : option K :=
  match o with BMul => Some n0 | BDiv => Some n0 | BPow => Some n1 | BUnits => Some n0 | _ => None end.
Definition right_zero (o : bop) : option K :=
  match o with BMul => Some n0 | _ => None end.
Definition left_identity (o : bop) : option K :=
  match o with BAdd => Some n0 | BMul => Some n1 | _ => None end.
Definition right_identity (o : bop) : option K :=
  match o with BAdd => Some n0 | BSub => Some n0 | BMul => Some n1 | BDiv => Some n1
             | BPow => Some n1 | BUnits => Some n1 | BUnc => Some n0 | _ => None end.

Definition is_elem (e : expr) (c : option K) : bool :=
  match c with Some c => is_const e c | None => false end.

(** [l + r], [l - r], [l / r] on the concrete node types
    (binary_ops.hpp:242-272): numbers fold, an array on the left is elementwise
    (array.hpp:480-489, 498-507, 537-546), two quantities with units divide
    separately (units.hpp:106-110); the overloads with an array on the right
    (array.hpp:491-496, 509-514, 548-553) are never viable because their last
    template parameter has type void; otherwise a symbolic node. *)
Definition nfold (o : bop) (a b : K) : K :=
  match o with
  | BAdd => nadd a b | BSub => nsub a b | BMul => nmul a b | BDiv => ndiv a b
  | _ => epow a b
  end.

(** multiply_impl(l, r) when one side has static type [Expr]: units and arrays
    hidden behind an [Expr] are not seen, an array on the other side is
    (array.hpp:523-535). *)
Definition mul_expr_any (l r : expr) : expr :=
  match r with
  | EArr ys => EArr (map (fun y => EBin BMul l y) ys)
  | _ => EBin BMul l r
  end.
Definition mul_any_expr (l r : expr) : expr :=
  match l with
  | EArr xs => EArr (map (fun x => EBin BMul x r) xs)
  | _ => EBin BMul l r
  end.

(** multiply_impl overloads, in their order of preference: units*units
    (units.hpp:88-92), units*x (94-98), x*units (100-104), array*x and x*array
    (array.hpp:523-535), and the symbolic node (binary_ops.hpp:248-251).
    Note units.hpp:103: the unit of [x*units] is taken from [r._l]. *)
Definition mul_apply (l r : expr) : expr :=
  match l, r with
  | EConst a, EConst b => EConst (nmul a b)
  | EBin BUnits m u, EBin BUnits m' u' => EBin BUnits (EBin BMul m m') (EBin BMul u u')
  | EBin BUnits m u, _ => EBin BUnits (mul_expr_any m r) u
  | _, EBin BUnits m u => EBin BUnits (mul_any_expr l m) m
  | EArr xs, _ => EArr (map (fun x => EBin BMul x r) xs)
  | _, EArr ys => EArr (map (fun y => EBin BMul l y) ys)
  | _, _ => EBin BMul l r
  end.

(** SimplifyRT::dd_visit, the overloads that do not recurse
    (runtime.hpp:630-692).  [None] is the empty Expr.  Array with array is
    handled in [simp] below. *)
Definition dd_visit (o : bop) (l r : expr) : outcome (option expr) :=
  match o with
  | BMul =>
      match l, r with
      (* 672-681 *)
      | EConst k, EBin BMul (EConst a) b => Ret (Some (EBin BMul (EConst (nmul k a)) b))
      | EConst k, EBin BMul a (EConst b) => Ret (Some (EBin BMul (EConst (nmul k b)) a))
      | EConst _, EBin BMul _ _ => Ret None
      (* 683-692 *)
      | EBin BMul (EConst a) b, EConst k => Ret (Some (EBin BMul (EConst (nmul k a)) b))
      | EBin BMul a (EConst b), EConst k => Ret (Some (EBin BMul (EConst (nmul k b)) a))
      | EBin BMul _ _, EConst _ => Ret None
      | _, _ => Ret (Some (mul_apply l r))
      end
  | BSub =>
      match l with
      | EConst a =>
          (* 661-670 *)
          if neqb a n0 then
            Ret (Some (match r with EConst b => EConst (nopp b) | _ => EUn UNeg r end))
          else
            match r with
            | EConst b => Ret (Some (EConst (nsub a b)))
            | _ => Ret None
            end
      | EArr xs => Ret (Some (EArr (map (fun x => EBin BSub x r) xs)))
      | _ => Ret (Some (EBin BSub l r))
      end
  | BAdd =>
      match l, r with
      | EConst a, EConst b => Ret (Some (EConst (nadd a b)))
      | EArr xs, _ => Ret (Some (EArr (map (fun x => EBin BAdd x r) xs)))
      | _, _ => Ret (Some (EBin BAdd l r))
      end
  | BDiv =>
      match l, r with
      | EConst a, EConst b => Ret (Some (EConst (ndiv a b)))
      | EArr xs, _ => Ret (Some (EArr (map (fun x => EBin BDiv x r) xs)))
      | EBin BUnits m u, EBin BUnits m' u' =>
          Ret (Some (EBin BUnits (EBin BDiv m m') (EBin BDiv u u')))
      | _, _ => Ret (Some (EBin BDiv l r))
      end
  | BPow =>
      match l, r with
      | EConst a, EConst b => Ret (Some (EConst (epow a b)))
      | _, _ => Ret (Some (EBin BPow l r))
      end
  | BAcc =>
      (* 648-659 *)
      match l, r with
      | EArr _, EConst _ => Ret None
      | _, _ => Throw
      end
  | BEq | BUnits | BUnc => Ret (Some (EBin o l r))
  end.

(** Op::apply on a number (unary_ops.hpp:46,56,66,76,86,96,109). *)
Definition ueval (o : uop) (c : K) : expr :=
  match o with
  | USin => EConst (esin c) | UCos => EConst (ecos c) | ULog => EConst (elog c)
  | UExp => EConst (eexp c) | UAbs => EConst (eabs c) | UNeg => EConst (nopp c)
  | UArb => EUn UArb (EConst c)
  end.

Fixpoint oseq {A} (l : list (outcome A)) : outcome (list A) :=
  match l with
  | [] => Ret []
  | x :: t => do a <- x; do r <- oseq t; Ret (a :: r)
  end.

(** simplify(f) : runtime.hpp:720-725, given the visitor. *)
Definition or_self (e : expr) (m : outcome (option expr)) : outcome expr :=
  do r <- m; Ret (match r with Some e' => e' | None => e end).

Fixpoint zipb (o : bop) (xs ys : list expr) : list expr :=
  match xs, ys with
  | x :: xs, y :: ys => EBin o x y :: zipb o xs ys
  | _, _ => []
  end.

(** SimplifyRT::apply on each node type.  [None] is the empty Expr ("nothing to
    do").  [fuel] bounds only the depth of re-simplification of elementwise
    array results (runtime.hpp:637-646 calls simplify on the result again). *)
Fixpoint simp (fuel : nat) : expr -> outcome (option expr) :=
  fix go (e : expr) : outcome (option expr) :=
  match e with
  | EConst _ | EVar _ => Ret None                                   (* 572-576 *)
  | EArr es =>                                  (* 578-581, array.hpp:555-571 *)
      do rs <- oseq (map (fun x => or_self x (go x)) es); Ret (Some (EArr rs))
  | EDict d =>                                   (* 583-586, dict.hpp:82-90 *)
      do rs <- oseq (map (fun kv => match kv with (k, v) =>
                        do v' <- or_self v (go v); Ret (k, v') end) d);
      Ret (Some (EDict rs))
  | EUn o a =>                                                     (* 695-716 *)
      do ma <- go a;
      let a' := match ma with Some x => x | None => a end in
      match a' with
      | EConst c => Ret (Some (ueval o c))
      | _ => Ret (match ma with Some x => Some (EUn o x) | None => None end)
      end
  | EBin o l r =>                                                  (* 592-628 *)
      do ml <- go l;
      do mr <- go r;
      let l' := match ml with Some x => x | None => l end in
      let r' := match mr with Some x => x | None => r end in
      if is_elem l' (left_zero o) then
        Ret (Some match left_zero o with Some c => EConst c | None => l' end)
      else if is_elem l' (left_identity o) then Ret (Some r')
      else if is_elem r' (right_zero o) then
        Ret (Some match right_zero o with Some c => EConst c | None => r' end)
      else if is_elem r' (right_identity o) then Ret (Some l')
      else
        do ret <-
          match l', r' with
          | EArr xs, EArr ys =>                                    (* 637-646 *)
              match o with
              | BAcc => Throw                                      (* 648-652 *)
              | BPow => UB   (* simplify calls itself on the same node for ever *)
              | BEq | BUnits | BUnc => Ret (Some (EBin o l' r'))
              | BAdd | BSub | BMul | BDiv =>
                  if Nat.eqb (List.length xs) (List.length ys) then
                    match fuel with
                    | O => Fuel
                    | S m =>
                        do rs <- oseq (map (fun x => or_self x (simp m x)) (zipb o xs ys));
                        Ret (Some (EArr rs))
                    end
                  else Throw                              (* array.hpp:419-420 *)
              end
          | _, _ => dd_visit o l' r'
          end;
        match ret with
        | Some x => Ret (Some x)
        | None =>
            match ml, mr with
            | None, None => Ret None
            | _, _ => Ret (Some (EBin o l' r'))
            end
        end
  end.

Definition simplify (fuel : nat) (e : expr) : outcome expr := or_self e (simp fuel e).

(** ** Substitution. *)

(** The copying loop of SubstituteRT / SubstituteDictRT on arrays
    (runtime.hpp:749-788, 841-880): the output is only started at the first
    element that changes. *)
Fixpoint sub_arr (rs : list (expr * option expr)) (done : list expr) (out : option (list expr))
  : option (list expr) :=
  match rs with
  | [] => out
  | (x, t) :: rest =>
      let out1 := match t, out with
                  | Some _, None => Some done      (* copy everything skipped *)
                  | _, _ => out
                  end in
      let out2 := match out1 with
                  | Some acc => Some (acc ++ [match t with Some t' => t' | None => x end])
                  | None => None
                  end in
      sub_arr rest (done ++ [x]) out2
  end.

(** SubstituteRT (runtime.hpp:729-811).  [None] is the empty Expr. *)
Fixpoint sub_visit (x : string) (rep : expr) (e : expr) : option expr :=
  match e with
  | EConst _ | EDict _ => None                                      (* 735-739 *)
  | EVar y => if String.eqb y x then Some rep else None             (* 741-746 *)
  | EArr es =>
      match sub_arr (map (fun a => (a, sub_visit x rep a)) es) [] None with
      | Some l => Some (EArr l)
      | None => None
      end
  | EUn o a =>                                                      (* 790-795 *)
      match sub_visit x rep a with
      | Some a' => Some (EUn o a')
      | None => Some (EUn o a)
      end
  | EBin o l r =>                                                   (* 797-807 *)
      match sub_visit x rep l, sub_visit x rep r with
      | None, None => None
      | Some l', None => Some (EBin o l' r)
      | None, Some r' => Some (EBin o l r')
      | Some l', Some r' => Some (EBin o l' r')
      end
  end.

(** SubstituteDictRT (runtime.hpp:816-905). *)
Fixpoint subd_visit (d : list (string * expr)) (e : expr) : option expr :=
  match e with
  | EConst _ | EDict _ => None
  | EVar y => dfind y d
  | EArr es =>
      match sub_arr (map (fun a => (a, subd_visit d a)) es) [] None with
      | Some l => Some (EArr l)
      | None => None
      end
  | EUn o a =>
      match subd_visit d a with
      | Some a' => Some (EUn o a')
      | None => None
      end
  | EBin o l r =>
      match subd_visit d l, subd_visit d r with
      | None, None => None
      | Some l', None => Some (EBin o l' r)
      | None, Some r' => Some (EBin o l r')
      | Some l', Some r' => Some (EBin o l' r')
      end
  end.

(** sub(f, Var == T) runtime.hpp:906-913; sub(f, DictRT) 915-920. *)
Definition sub_var (f : expr) (x : string) (rep : expr) : expr :=
  match sub_visit x rep f with Some e => e | None => f end.
Definition sub_dict (f : expr) (d : list (string * expr)) : expr :=
  match subd_visit d f with Some e => e | None => f end.

(** sub(f, Expr) : SubstituteExprRT, runtime.hpp:922-957. *)
Definition sub_expr (f rep : expr) : outcome expr :=
  match rep with
  | EDict d => Ret (sub_dict f d)
  | EBin BEq (EVar x) v => Ret (sub_var f x v)
  | EBin BEq _ _ => Throw           (* as<VarRT>() : runtime.hpp:509-517 *)
  | _ => Throw
  end.

(** ** Differentiation (runtime.hpp:959-997): DerivativeRT calls the derivative
    overload of the node type.  Constants variable.hpp:57-58, variables
    variable_rt.hpp:76-79, operators binary_ops.hpp:360-419, functions
    unary_ops.hpp:165-179, arrays array.hpp:396-412.  Units, Uncertainty and Dict
    nodes have no overload: the call converts them back to Expr and recurses for
    ever ([UB]: stack exhaustion). *)
Fixpoint deriv (x : string) (f : expr) : outcome expr :=
  match f with
  | EConst _ => Ret (EConst n0)
  | EVar y => Ret (EConst (if String.eqb y x then n1 else n0))
  | EUn o a =>
      do d <- deriv x a;
      Ret match o with
          | USin => EBin BMul d (EUn UCos a)
          | UCos => EBin BMul (EUn UNeg d) (EUn USin a)
          | UExp => EBin BMul d f
          | ULog => EBin BDiv d a
          | UAbs => EBin BDiv (EBin BMul d (EUn UAbs a)) a
          | UArb => EBin BMul d (EUn UArb (EConst n1))
          | UNeg => EUn UNeg d
          end
  | EBin BAcc _ _ => Ret f
  | EBin BUnits _ _ | EBin BUnc _ _ => UB
  | EBin o l r =>
      do dl <- deriv x l;
      do dr <- deriv x r;
      Ret match o with
          | BAdd => EBin BAdd dl dr
          | BSub => EBin BSub dl dr
          | BMul => EBin BAdd (EBin BMul dl r) (EBin BMul l dr)
          | BDiv => EBin BDiv (EBin BSub (EBin BMul dl r) (EBin BMul l dr))
                              (EBin BPow r (EConst (nadd n1 n1)))
          | BPow => EBin BAdd
                      (EBin BMul (EBin BMul r dl) (EBin BPow l (EBin BSub r (EConst n1))))
                      (EBin BMul (EBin BMul dr (EUn ULog l)) f)
          | _ => EBin BEq dl dr
          end
  | EArr es => do ds <- oseq (map (deriv x) es); Ret (EArr ds)
  | EDict _ => UB
  end.

(** derivative(Expr, Expr) runtime.hpp:994-997. *)
Definition derivative (f v : expr) : outcome expr :=
  match v with EVar x => deriv x f | _ => Throw end.

End Generic.
