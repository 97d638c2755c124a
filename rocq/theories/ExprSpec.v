(** Specification side for run-time expressions: what the value of an
    expression is.  Independent of the functions of ExprModel.v: only the syntax
    tree and the record of number operations are shared.

    Values are exact reals, arrays of values, equations (pairs) and
    dictionaries.  An expression has no value ([None]) where the mathematics
    has none: division by zero, logarithm of a non-positive number, a power
    outside the domain of std::pow, arrays of different lengths, ... *)
From Coq Require Import String R_Ifp.
From Verif Require Import Outcome Num ExprModel.
Open Scope R_scope.

(** The integer a real number is equal to, if any. *)
Definition int_of (y : R) : option Z :=
  if Req_EM_T (IZR (Int_part y)) y then Some (Int_part y) else None.

(** std::pow with exact arithmetic: positive base, integer exponent, or zero
    base with positive exponent. *)
Definition npow (x y : R) : option R :=
  if Rlt_dec 0 x then Some (Rpower x y)
  else match int_of y with
       | Some z => if Req_EM_T x 0 then (if Z_lt_dec z 0 then None else Some (powerRZ x z))
                   else Some (powerRZ x z)
       | None => if Req_EM_T x 0 then (if Rlt_dec 0 y then Some 0 else None) else None
       end.

(** Exact real arithmetic for constant folding. *)
Global Instance R_enum : ENum R :=
  {| enum_num := R_num; esin := sin; ecos := cos; elog := ln; eexp := exp; eabs := Rabs;
     epow := fun x y => match npow x y with Some z => z | None => 0 end |}.

Inductive value : Type :=
| VN (r : R)
| VA (l : list value)
| VE (a b : value)
| VD (d : list (string * value)).

(** Arithmetic on numbers.  A quantity [m{u}] has the value m*u: its magnitude
    in base units when the unit names are assigned their sizes. *)
Definition nbin (o : bop) (a b : R) : option R :=
  match o with
  | BAdd => Some (a + b)
  | BSub => Some (a - b)
  | BMul => Some (a * b)
  | BDiv => if Req_EM_T b 0 then None else Some (a / b)
  | BPow => npow a b
  | BUnits => Some (a * b)
  | _ => None
  end.

(** [s] is the sign chosen for the "either sign" operator. *)
Definition nun (s : R) (o : uop) (a : R) : option R :=
  match o with
  | USin => Some (sin a)
  | UCos => Some (cos a)
  | ULog => if Rlt_dec 0 a then Some (ln a) else None
  | UExp => Some (exp a)
  | UAbs => Some (Rabs a)
  | UArb => Some (s * a)
  | UNeg => Some (- a)
  end.

Fixpoint all_some {A} (l : list (option A)) : option (list A) :=
  match l with
  | [] => Some []
  | Some a :: t => match all_some t with Some r => Some (a :: r) | None => None end
  | None :: _ => None
  end.

(** A function on numbers acts on arrays elementwise. *)
Fixpoint vmap (f : R -> option R) (v : value) : option value :=
  match v with
  | VN a => option_map VN (f a)
  | VA l => option_map VA (all_some (map (vmap f) l))
  | _ => None
  end.

(** Which operators combine a number with an array elementwise.  Other
    combinations (number + array, number / array, functions of arrays) are never
    carried out by the library and get no value.  A product of an array with the
    number zero is deliberately given no value either: the library returns the
    number 0 for it, not an array of zeros (see PropExpr.v,
    C31_zero_times_array_refuted). *)
Definition bc_left (o : bop) (a : R) : bool :=
  match o with
  | BMul => if Req_EM_T a 0 then false else true
  | _ => false
  end.
Definition bc_right (o : bop) (b : R) : bool :=
  match o with
  | BAdd | BSub | BDiv => true
  | BMul => if Req_EM_T b 0 then false else true
  | _ => false
  end.
Definition elementwise (o : bop) : bool :=
  match o with BAdd | BSub | BMul | BDiv => true | _ => false end.

Fixpoint vbin (o : bop) (v w : value) {struct v} : option value :=
  match v with
  | VN a =>
      match w with
      | VN b => option_map VN (nbin o a b)
      | VA _ => if bc_left o a then vmap (fun b => nbin o a b) w else None
      | _ => None
      end
  | VA l =>
      match w with
      | VN b => if bc_right o b then vmap (fun a => nbin o a b) v else None
      | VA r =>
          if elementwise o then
            option_map VA
              ((fix zip (l r : list value) : option (list value) :=
                  match l, r with
                  | [], [] => Some []
                  | x :: l, y :: r =>
                      match vbin o x y with
                      | Some z => match zip l r with Some t => Some (z :: t) | None => None end
                      | None => None
                      end
                  | _, _ => None
                  end) l r)
          else None
      | _ => None
      end
  | _ => None
  end.

Definition vzero (v : option value) : bool :=
  match v with Some (VN a) => if Req_EM_T a 0 then true else false | _ => false end.

(** The value of an expression when variable [x] has the value [env x].
    [lz = false] is the ordinary meaning.  With [lz = true] a product whose left
    factor is the number 0 is 0 even where the right factor has no value (used
    only to state what a simplified derivative means). *)
Fixpoint eval (lz : bool) (s : R) (env : string -> option value) (e : expr R) : option value :=
  match e with
  | EConst c => Some (VN c)
  | EVar x => env x
  | EUn o a => match eval lz s env a with Some (VN v) => option_map VN (nun s o v) | _ => None end
  | EBin o l r =>
      match o with
      | BEq => match eval lz s env l, eval lz s env r with
               | Some v, Some w => Some (VE v w) | _, _ => None end
      | BAcc | BUnc => None
      | BMul =>
          if lz && vzero (eval lz s env l) then Some (VN 0)
          else match eval lz s env l, eval lz s env r with
               | Some v, Some w => vbin BMul v w | _, _ => None end
      | _ => match eval lz s env l, eval lz s env r with
             | Some v, Some w => vbin o v w | _, _ => None end
      end
  | EArr es => option_map VA (all_some (map (eval lz s env) es))
  | EDict d =>
      option_map VD
        ((fix go (d : list (string * expr R)) : option (list (string * value)) :=
            match d with
            | [] => Some []
            | (k, a) :: t =>
                match eval lz s env a, go t with
                | Some v, Some r => Some ((k, v) :: r)
                | _, _ => None
                end
            end) d)
  end.

(** The ordinary meaning. *)
Definition value_of (s : R) (env : string -> option value) (e : expr R) : option value :=
  eval false s env e.

(** Variables stand for numbers (or have no value). *)
Definition scalar_env (env : string -> option value) : Prop :=
  forall x v, env x = Some v -> exists r, v = VN r.

Definition upd_env (env : string -> option value) (x : string) (v : option value)
  : string -> option value :=
  fun y => if String.eqb y x then v else env y.

(** Syntactic conditions. *)
Section Syntax.
Context {K : Type}.
Fixpoint has_node (p : expr K -> bool) (e : expr K) : bool :=
  p e ||
  match e with
  | EConst _ | EVar _ => false
  | EUn _ a => has_node p a
  | EBin _ l r => has_node p l || has_node p r
  | EArr es => existsb (has_node p) es
  | EDict d => existsb (fun kv => has_node p (snd kv)) d
  end.
Definition is_units (e : expr K) : bool := match e with EBin BUnits _ _ => true | _ => false end.
Definition is_array (e : expr K) : bool := match e with EArr _ => true | _ => false end.
Definition is_dict (e : expr K) : bool := match e with EDict _ => true | _ => false end.
Definition is_var (x : string) (e : expr K) : bool := match e with EVar y => String.eqb y x | _ => false end.
(** a product with a quantity with units somewhere in its right factor *)
Definition units_in_right_factor (e : expr K) : bool :=
  match e with EBin BMul _ r => has_node is_units r | _ => false end.
(** the variable occurs outside dictionaries *)
Definition units_free (e : expr K) := has_node is_units e = false.
Definition array_free (e : expr K) := has_node is_array e = false.
Definition dict_free (e : expr K) := has_node is_dict e = false.
(** a dictionary in which the variable [x] occurs *)
Definition dict_mentions (x : string) (e : expr K) : bool := is_dict e && has_node (is_var x) e.
End Syntax.

(** An assignment of real numbers to variables. *)
Definition nums (rho : string -> R) : string -> option value := fun x => Some (VN (rho x)).
Definition upd_num (rho : string -> R) (x : string) (t : R) : string -> R :=
  fun y => if String.eqb y x then t else rho y.

(** ** Differentiation.
    [g] is defined near [a] and has there the derivative [d] (the limit of the
    difference quotient, Coq's [derivable_pt_lim]). *)
Definition has_derivative (g : R -> option value) (a d : R) : Prop :=
  exists F : R -> R,
    (exists delta, 0 < delta /\ forall t, Rabs (t - a) < delta -> g t = Some (VN (F t))) /\
    derivable_pt_lim F a d.

(** Where the rules apply: the expression is arithmetic and elementary
    functions, absolute values are not taken of 0, and a power has either a
    positive base or a whole exponent without the variable of
    differentiation. *)
Fixpoint differentiable (s : R) (rho : string -> R) (x : string) (f : expr R) : Prop :=
  match f with
  | EConst _ | EVar _ => True
  | EUn o a =>
      differentiable s rho x a /\
      (o = UAbs -> value_of s (nums rho) a <> Some (VN 0))
  | EBin o l r =>
      (o = BAdd \/ o = BSub \/ o = BMul \/ o = BDiv \/ o = BPow) /\
      differentiable s rho x l /\ differentiable s rho x r /\
      (o = BPow ->
        (exists v, value_of s (nums rho) l = Some (VN v) /\ 0 < v) \/
        (has_node (is_var x) r = false /\ exists z, value_of s (nums rho) r = Some (VN (IZR z))))
  | _ => False
  end.

(** ** Shapes used to state what simplification achieves. *)
Section Shapes.
Context {K : Type}.
Definition arith_op (o : bop) : Prop := o = BAdd \/ o = BSub \/ o = BMul \/ o = BDiv \/ o = BPow.

(** numbers, variables, functions, + - * / ^ and equations *)
Fixpoint scalar_expr (e : expr K) : Prop :=
  match e with
  | EConst _ | EVar _ => True
  | EUn _ a => scalar_expr a
  | EBin o l r => (arith_op o \/ o = BEq) /\ scalar_expr l /\ scalar_expr r
  | _ => False
  end.

(** numbers, functions and + - * / ^ without variables *)
Fixpoint closed_arith (e : expr K) : Prop :=
  match e with
  | EConst _ => True
  | EUn o a => o <> UArb /\ closed_arith a
  | EBin o l r => arith_op o /\ closed_arith l /\ closed_arith r
  | _ => False
  end.

(** the number of nodes *)
Fixpoint esize (e : expr K) : nat :=
  match e with
  | EConst _ | EVar _ => 1%nat
  | EUn _ a => S (esize a)
  | EBin _ l r => S (esize l + esize r)
  | EArr es => S (list_sum (map esize es))
  | EDict d => S (list_sum (map (fun kv => esize (snd kv)) d))
  end.

End Shapes.

(** a product whose left factor is the number 0 or 1 *)
Definition trivial_product {K} `{EN : ENum K} (e : expr K) : bool :=
  match e with EBin BMul (EConst c) _ => neqb c n0 || neqb c n1 | _ => false end.

(** Dictionaries are maps: no key occurs twice in the list of entries. *)
Fixpoint dicts_ok {K} (e : expr K) : Prop :=
  match e with
  | EConst _ | EVar _ => True
  | EUn _ a => dicts_ok a
  | EBin _ l r => dicts_ok l /\ dicts_ok r
  | EArr es => (fix go es := match es with [] => True | x :: t => dicts_ok x /\ go t end) es
  | EDict d => NoDup (map fst d) /\
      (fix go d := match d with [] => True | (_, x) :: t => dicts_ok x /\ go t end) d
  end.

(** a power with an array somewhere in the base and somewhere in the exponent *)
Definition array_power {K} (e : expr K) : bool :=
  match e with EBin BPow l r => has_node is_array l && has_node is_array r | _ => false end.
Definition is_power {K} (e : expr K) : bool := match e with EBin BPow _ _ => true | _ => false end.
