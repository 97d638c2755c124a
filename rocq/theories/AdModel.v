(** Automatic differentiation and Taylor series.

    Models stator/symbolic/ad.hpp.  The functions of ad.hpp are overloads for the
    node types, both of compile-time and of run-time expressions; they are one
    recursive function on the expression tree here ([Expr] dispatch,
    ad.hpp:232-250, included).

    Simplifications:
    - Eigen::Matrix<double,Nd+1,1> is a list of Nd+1 numbers; a loop that fills
      result[1..Nd] in increasing order, reading only entries that are already
      filled, is a loop that appends to the list;
    - the number type is abstract; [nan] is quiet_NaN();
    - there is no overload for negation, absolute value, arbitrary sign, arrays,
      dictionaries, equations, access, units and uncertainties.  At run time the
      visitor then finds only ad(const Expr&), through the implicit conversion
      of the node to Expr, and visits the same node again without end: [UB]
      (stack exhaustion). *)
From Coq Require Import String.
From Verif Require Import Outcome Num ExprModel.
Open Scope nat_scope.

(** result[0], result[1], ..., result[n-1]; [step r] computes result[length r]
    from the entries before it. *)
Fixpoint fill {A} (step : list A -> A) (n : nat) : list A :=
  match n with
  | 0 => []
  | S n => let r := fill step n in r ++ [step r]
  end.

Section Ad.
Context {K : Type} `{EN : ENum K}.
Variable nan : K.
Variable Nd : nat.
Notation expr := (expr K).
Notation vec := (list K).
Local Open Scope num_scope.

(** for (i = lo; i < lo + cnt; ++i) s += f i *)
Definition add_up (lo cnt : nat) (f : nat -> K) (s : K) : K :=
  for_up lo cnt (fun i s => s +! f i) s.
(** for (i = lo; i < lo + cnt; ++i) s -= f i *)
Definition sub_up (lo cnt : nat) (f : nat -> K) (s : K) : K :=
  for_up lo cnt (fun i s => s -! f i) s.

(** ad.hpp:28-34 *)
Definition ad_const (c : K) : vec :=
  fill (fun r => match length r with 0 => c | _ => n0 end) (S Nd).
(** ad.hpp:36-46, relation x = a *)
Definition ad_var (v x : string) (a : K) : vec :=
  fill (fun r => match length r with
                 | 0 => if String.eqb v x then a else nan
                 | 1 => if String.eqb v x then n1 else n0
                 | _ => n0 end) (S Nd).
(** ad.hpp:48-56 *)
Definition ad_add (l r : vec) : vec := fill (fun t => get l (length t) +! get r (length t)) (S Nd).
Definition ad_sub (l r : vec) : vec := fill (fun t => get l (length t) -! get r (length t)) (S Nd).
(** ad.hpp:58-70 *)
Definition ad_mul (l r : vec) : vec :=
  fill (fun t => match length t with
                 | 0 => get l 0 *! get r 0
                 | k => add_up 0 (S k) (fun i => get l i *! get r (k - i)) n0
                 end) (S Nd).
(** ad.hpp:72-87 *)
Definition ad_div (l r : vec) : vec :=
  fill (fun t => match length t with
                 | 0 => get l 0 /! get r 0
                 | k => sub_up 0 k (fun i => get t i *! get r (k - i)) (get l k) /! get r 0
                 end) (S Nd).
(** ad.hpp:89-102 *)
Definition ad_exp (g : vec) : vec :=
  fill (fun t => match length t with
                 | 0 => eexp (get g 0)
                 | k => add_up 1 k (fun i => nofnat i *! get g i *! get t (k - i)) n0 /! nofnat k
                 end) (S Nd).
(** ad.hpp:104-118 *)
Definition ad_log (g : vec) : vec :=
  fill (fun t => match length t with
                 | 0 => elog (get g 0)
                 | k => (get g k -! add_up 1 (k - 1) (fun i => nofnat i *! get t i *! get g (k - i)) n0 /! nofnat k)
                          /! get g 0
                 end) (S Nd).
(** The two loops of ad.hpp:120-160; entries are pairs (sin[k], cos[k]). *)
Definition ad_sincos (g : vec) : list (K * K) :=
  fill (fun t => match length t with
                 | 0 => (esin (get g 0), ecos (get g 0))
                 | k =>
                     (add_up 1 k (fun i => nofnat i *! get g i *! get (map snd t) (k - i)) n0 /! nofnat k,
                      add_up 1 k (fun i => nofnat i *! get g i *! get (map fst t) (k - i)) n0 /! nopp (nofnat k))
                 end) (S Nd).
(** ad.hpp:163-177, exponent a constant *)
Definition ad_pow_const (g : vec) (a : K) : vec :=
  fill (fun t => match length t with
                 | 0 => epow (get g 0) a
                 | k => add_up 1 k (fun i => ((a +! n1) *! nofnat i /! nofnat k -! n1) *! get g i *! get t (k - i)) n0
                          /! get g 0
                 end) (S Nd).
(** ad.hpp:179-205 *)
Definition ad_pow (f g lnf : vec) : vec :=
  fill (fun t => match length t with
                 | 0 => epow (get f 0) (get g 0)
                 | m =>
                     let s1 := for_up 1 m (fun j s =>
                       add_up 0 (S (m - j)) (fun i =>
                         let flnf := add_up 0 (S (m - i - j)) (fun k => get f k *! get lnf (m - i - j - k)) n0 in
                         nofnat j *! get t i *! (get f j *! get g (m - i - j) +! get g j *! flnf)) s) n0 in
                     sub_up 1 (m - 1) (fun j => nofnat j *! get f (m - j) *! get t j) s1
                       /! (nofnat m *! get f 0)
                 end) (S Nd).

(** ad(const Expr&, x = a) : ad.hpp:246-250 with all overloads. *)
Fixpoint ad (x : string) (a : K) (e : expr) : outcome vec :=
  match e with
  | EConst c => Ret (ad_const c)
  | EVar v => Ret (ad_var v x a)
  | EUn o b =>
      match o with
      | UExp => do g <- ad x a b; Ret (ad_exp g)
      | ULog => do g <- ad x a b; Ret (ad_log g)
      | USin => do g <- ad x a b; Ret (map fst (ad_sincos g))
      | UCos => do g <- ad x a b; Ret (map snd (ad_sincos g))
      | _ => UB
      end
  | EBin o l r =>
      match o with
      | BAdd => do u <- ad x a l; do v <- ad x a r; Ret (ad_add u v)
      | BSub => do u <- ad x a l; do v <- ad x a r; Ret (ad_sub u v)
      | BMul => do u <- ad x a l; do v <- ad x a r; Ret (ad_mul u v)
      | BDiv => do u <- ad x a l; do v <- ad x a r; Ret (ad_div u v)
      | BPow =>
          match r with
          | EConst c => do g <- ad x a l; Ret (ad_pow_const g c)    (* ad.hpp:208-213, 226-227 *)
          | _ => do f <- ad x a l; do g <- ad x a r;
                 Ret (ad_pow f g (ad_log f))       (* lnf: ad of log(lhs), line 183 *)
          end
      | _ => UB
      end
  | _ => UB
  end.
End Ad.
