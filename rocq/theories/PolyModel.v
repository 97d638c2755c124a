(** Model of stator/symbolic/polynomial.hpp (polynomial algebra, lines 75-745)
    and of the polynomial part of stator/symbolic/simplify.hpp.

    [Polynomial<N, Coeff_t, Var>] derives from [std::array<Coeff_t, N+1>]
    (polynomial.hpp:75): here a list of N+1 coefficients, constant term first.
    The template parameter [Order] is [length f - 1]. *)
From Verif Require Export Num Outcome.

Section PolyModel.
Context {K : Type} `{Num K}.
Local Open Scope num_scope.

Definition porder (f : list K) : nat := Nat.pred (length f).

(** polynomial.hpp:88 Polynomial() : all coefficients zero. *)
Definition poly_zero (N : nat) : list K := repeat n0 (S N).

(** polynomial.hpp:99-109 Polynomial(std::initializer_list): too long a list
    throws std::length_error, a short one is padded with zeros. *)
Definition poly_of_list (N : nat) (l : list K) : outcome (list K) :=
  if Nat.ltb (S N) (length l) then Throw
  else Ret (l ++ repeat n0 (S N - length l)).

(** polynomial.hpp:111-123 Polynomial(InputIt first, InputIt last): copy loop
    bounded by Order, then throw if the range is not exhausted, then pad. *)
Fixpoint copy_range (room : nat) (l : list K) : list K * list K :=
  match room, l with
  | S r, x :: t => let '(c, rest) := copy_range r t in (x :: c, rest)
  | _, _ => ([], l)
  end.
Definition poly_of_range (N : nat) (l : list K) : outcome (list K) :=
  let '(c, rest) := copy_range (S N) l in
  match rest with
  | [] => Ret (c ++ repeat n0 (S N - length c))
  | _ :: _ => Throw
  end.

(** polynomial.hpp:130-136 converting constructor from a lower porder (N<=Order). *)
Definition poly_raise (N : nat) (f : list K) : list K :=
  f ++ repeat n0 (S N - length f).

(** polynomial.hpp:139-144 unary minus. *)
Definition poly_neg (f : list K) : list K := map nopp f.

(** polynomial.hpp:152-159 change_order: copy min(Order,NewOrder)+1 coefficients
    over a zero polynomial. *)
Definition change_order (N : nat) (f : list K) : list K :=
  firstn (S N) f ++ repeat n0 (S N - length f).

(** A C++ floating point argument that the code tests for infinity. *)
Inductive xval : Type := Fin (x : K) | PInf | NInf.

(** polynomial.hpp:258-263: the Horner loop
    [sum = 0; for (i = Order; i > 0; --i) sum = sum*x + f[i]; sum = sum*x + f[0]]. *)
Definition poly_eval (f : list K) (x : K) : K :=
  let N := porder f in
  if Nat.eqb N 0 then get f 0
  else
    let sum := for_down N N (fun i s => s *! x +! get f i) n0 in
    sum *! x +! get f 0.

(** polynomial.hpp:240-251: the infinite branch.  The loop looks for the
    highest non-zero coefficient f[i] but tests the parity of the template
    parameter Order, not of i.  [f[i]*x] with x infinite is the infinity whose
    sign is the product of the signs. *)
Definition inf_mul (c : K) (positive_inf : bool) : xval :=
  if Bool.eqb (nltb n0 c) positive_inf then PInf else NInf.

Fixpoint inf_scan (N i : nat) (f : list K) (pos : bool) : xval :=
  match i with
  | O => Fin (get f 0)
  | S j =>
      if negb (neqb (get f i) n0) then
        if Nat.odd N then inf_mul (get f i) pos else inf_mul (get f i) true
      else inf_scan N j f pos
  end.

(** polynomial.hpp:220-265 sub(Polynomial, Var = number). *)
Definition poly_sub (f : list K) (x : xval) : xval :=
  match x with
  | Fin v => Fin (poly_eval f v)
  | PInf => if Nat.eqb (porder f) 0 then Fin (get f 0) else inf_scan (porder f) (porder f) f true
  | NInf => if Nat.eqb (porder f) 0 then Fin (get f 0) else inf_scan (porder f) (porder f) f false
  end.

(** polynomial.hpp:267-291 PolySubWorker<Stage>::eval, called with
    Stage = Order (line 309).  The substituted type is a type [X] closed under
    the symbolic operations; here it is the coefficient type. *)
Fixpoint poly_sub_worker (stage : nat) (f : list K) (x : K) : K :=
  match stage with
  | O => get f (porder f)
  | S s => get f (porder f - stage) +! x *! poly_sub_worker s f x
  end.
Definition poly_sub_symbolic (f : list K) (x : K) : K := poly_sub_worker (porder f) f x.

(** polynomial.hpp:319-338 eval_derivatives<D>. *)
Definition eval_derivatives (D : nat) (f : list K) (x : K) : list K :=
  let N := porder f in
  let r0 := upd (repeat n0 (S D)) 0 (get f N) in
  let r := for_down N N (fun i r =>
             let m := Nat.min D (N - (i - 1)) in
             let r := for_down m m (fun j r => upd r j (get r j *! x +! get r (j - 1))) r in
             upd r 0 (get r 0 *! x +! get f (i - 1))) r0 in
  snd (for_up 2 (D - 1) (fun i '(cnst, r) =>
         let cnst := cnst *! nofnat i in
         (cnst, upd r i (get r i *! cnst))) (n1, r)).

(** simplify.hpp:394-402 polynomial product: retval[i] += l[j]*r[i-j]. *)
Definition poly_mul (f g : list K) : list K :=
  let M := porder f in
  let N := porder g in
  for_up 0 (S (N + M)) (fun i r =>
    let j0 := if Nat.ltb N i then i - N else 0 in
    for_up j0 (S (Nat.min i M) - j0) (fun j r =>
      upd r i (get r i +! get f j *! get g (i - j))) r) (poly_zero (M + N)).

(** simplify.hpp:369-387 polynomial sum / difference ([op] is + or -). *)
Definition poly_addsub (op : K -> K -> K) (f g : list K) : list K :=
  let N := porder f in
  let M := porder g in
  let k := Nat.min N M in
  let r := poly_zero (Nat.max M N) in
  let r := for_up 0 (S k) (fun i r => upd r i (op (get f i) (get g i))) r in
  let r := for_up (S k) (N - k) (fun i r => upd r i (op (get f i) n0)) r in
  for_up (S k) (M - k) (fun i r => upd r i (op n0 (get g i))) r.
Definition poly_add := poly_addsub nadd.
Definition poly_sub_op := poly_addsub nsub.

(** A polynomial together with its variable (the template parameter PolyVar).
    simplify.hpp:391-402: the product overload takes PolyVar1 and PolyVar2
    without requiring them to be the same variable (the sum overload at
    simplify.hpp:371 does, via enable_if_var_eq) and returns a polynomial in
    PolyVar1.  [None]: no such overload, the expression stays symbolic. *)
Record vpoly := { vp_var : nat; vp_co : list K }.
Definition vpoly_mul (f g : vpoly) : option vpoly :=
  Some {| vp_var := vp_var f; vp_co := poly_mul (vp_co f) (vp_co g) |}.
Definition vpoly_addsub (op : K -> K -> K) (f g : vpoly) : option vpoly :=
  if Nat.eqb (vp_var f) (vp_var g)
  then Some {| vp_var := vp_var f; vp_co := poly_addsub op (vp_co f) (vp_co g) |}
  else None.

(** simplify.hpp:406-414 division by an order 0 polynomial: retval[i] += l[i]/r[0]. *)
Definition poly_div0 (f : list K) (c : K) : list K :=
  for_up 0 (S (porder f)) (fun i r => upd r i (get r i +! get f i /! c)) (poly_zero (porder f)).

(** simplify.hpp:288-308 variable times polynomial: shifted copy. *)
Definition poly_mulvar (f : list K) : list K := n0 :: f.

(** simplify.hpp:310-324: a variable is {0,1}; a power of a variable is x^P. *)
Definition poly_var : list K := [n0; n1].
Definition poly_varpow (P : nat) : list K := upd (poly_zero P) P n1.

(** simplify.hpp:348-360: a constant operand becomes an order 0 polynomial. *)
Definition poly_const (c : K) : list K := [c].

(** polynomial.hpp:360-411 Euclidean division.  [DivInf] stands for the
    quotient polynomial {inf} returned on division by the zero constant. *)
Inductive gcd_res : Type :=
| DivInf (r : list K)
| Div (q r : list K).

(** polynomial.hpp:378-391: the division loop for g[Order2] != 0. *)
Definition gcd_loop (f g : list K) : list K * list K :=
  let O1 := porder f in
  let O2 := porder g in
  for_down O1 (S O1 - O2) (fun k '(q, r) =>
    let c := get r k /! get g O2 in
    let q := upd q (k - O2) c in
    let r := for_up 0 (S O2) (fun j r =>
               upd r (k + j - O2) (get r (k + j - O2) -! c *! get g j)) r in
    (q, r)) (poly_zero O1, f).

(** recursion on Order2 (lines 371-374) *)
Fixpoint gcd_rec (O2 : nat) (f g : list K) : gcd_res :=
  match O2 with
  | O => (* polynomial.hpp:396-411, constant divisor *)
      if neqb (get g 0) n0 then DivInf [n0]
      else Div (poly_mul f [n1 /! get g 0]) [n0]
  | S O2' =>
      if neqb (get g O2) n0 then
        match gcd_rec O2' f (change_order O2' g) with
        | DivInf r => DivInf (poly_raise O2' r)
        | Div q r => Div q (poly_raise O2' r)
        end
      else
        let '(q, r) := gcd_loop f g in Div q (change_order O2' r)
  end.
Definition poly_gcd (f g : list K) : gcd_res := gcd_rec (porder g) f g.

(** polynomial.hpp:423-433 derivative in the polynomial's own variable (N>0). *)
Definition poly_deriv (f : list K) : list K :=
  for_up 0 (porder f) (fun i r => upd r i (get f (S i) *! nofnat (S i)))
         (poly_zero (porder f - 1)).

(** polynomial.hpp:435-443: order 0, or another variable: the zero constant. *)
Definition poly_derivative (same_var : bool) (f : list K) : list K :=
  if (same_var && negb (Nat.eqb (porder f) 0))%bool then poly_deriv f else [n0].

(** polynomial.hpp:494-507 shift_function(f, double t). *)
Definition shift_loop (f : list K) (t : K) : list K :=
  let N := porder f in
  for_down N N (fun i r =>
    let m := N - (i - 1) in
    let r := for_down m m (fun j r => upd r j (get r j *! t +! get r (j - 1))) r in
    upd r 0 (get r 0 *! t +! get f (i - 1)))
    (upd (poly_zero N) 0 (get f N)).
Definition shift_function (f : list K) (t : K) : list K :=
  if neqb t n0 then f else shift_loop f t.

(** polynomial.hpp:516-526 shift_function(f, Unity). *)
Definition shift_unity (f : list K) : list K :=
  let N := porder f in
  for_down N N (fun i r =>
    let m := N - (i - 1) in
    let r := for_down m m (fun j r => upd r j (get r j +! get r (j - 1))) r in
    upd r 0 (get r 0 +! get f (i - 1)))
    (upd (poly_zero N) 0 (get f N)).

(** polynomial.hpp:566-576 invert_taylor_shift. *)
Definition invert_taylor_shift (f : list K) : list K :=
  let N := porder f in
  for_down N N (fun i r =>
    let m := N - (i - 1) in
    let r := for_down m m (fun j r => upd r j (get r j +! get r (j - 1))) r in
    upd r 0 (get r 0 +! get f (N - (i - 1))))
    (upd (poly_zero N) 0 (get f 0)).

(** polynomial.hpp:580-586 reflect_poly: i = 1, 3, 5, ... <= Order. *)
Definition reflect_poly (f : list K) : list K :=
  for_up 0 ((porder f + 1) / 2) (fun k g => upd g (2 * k + 1) (nopp (get g (2 * k + 1)))) f.

(** polynomial.hpp:591-598 scale_poly. *)
Definition scale_poly (f : list K) (a : K) : list K :=
  snd (for_up 1 (porder f) (fun i '(factor, g) =>
         let factor := factor *! a in (factor, upd g i (get g i *! factor))) (n1, f)).

(** polynomial.hpp:622-645 precision(f,x) for finite x, with the rounding unit
    [eps] = 1.06/2^53 as a parameter.  Note that f[0] is not wrapped in abs. *)
Definition nabs (x : K) : K := if nltb x n0 then nopp x else x.
Definition poly_precision (eps : K) (f : list K) (x : K) : K :=
  if Nat.eqb (porder f) 0 then n0
  else fst (for_up 1 (porder f) (fun i '(sum, xn) =>
         (sum +! nofnat (2 * i + 1) *! nabs (get f i) *! xn, xn *! nabs x))
         (get f 0, nabs x)) *! eps.

(** polynomial.hpp:703-730 deflate_polynomial(a, root).  [i_t] and [i_b] are
    size_t: arithmetic wraps modulo 2^64, array accesses are checked and an
    out-of-range index is undefined behaviour.  [prefer_bwd] stands for the
    comparison [subtraction_precision(b[i_b],a[i_b]) > addition_precision(a[i_t+1],d)]
    whose value depends on binary exponents; the theorems hold for any choice. *)
Definition wrap64 (z : Z) : Z := (z mod 2 ^ 64)%Z.
Definition rd (l : list K) (i : Z) : outcome K :=
  if (Z.leb 0 i && Z.ltb i (Z.of_nat (length l)))%bool then Ret (get l (Z.to_nat i)) else UB.
Definition wr (l : list K) (i : Z) (v : K) : outcome (list K) :=
  if (Z.leb 0 i && Z.ltb i (Z.of_nat (length l)))%bool then Ret (upd l (Z.to_nat i) v) else UB.

Section Deflate.
Variable prefer_bwd : K -> K -> K -> K -> bool.

Fixpoint deflate_loop (fuel : nat) (a : list K) (root : K) (i_t i_b : Z) (b : list K)
  : outcome (list K) :=
  match fuel with
  | O => Fuel
  | S fu =>
      if (i_b <=? i_t)%Z then
        do bt <- rd b (wrap64 (i_t + 1));
        let d := root *! bt in
        do bb <- rd b i_b;
        do ab <- rd a i_b;
        do at1 <- rd a (wrap64 (i_t + 1));
        if prefer_bwd bb ab at1 d then
          do bp <- rd b (wrap64 (i_b - 1));
          do b' <- wr b i_b ((bp -! ab) /! root);
          deflate_loop fu a root i_t (wrap64 (i_b + 1)) b'
        else
          do b' <- wr b i_t (at1 +! d);
          deflate_loop fu a root (wrap64 (i_t - 1)) i_b b'
      else Ret b
  end.

(** polynomial.hpp:735-740 deflation of a root at zero: shifted copy. *)
Definition deflate_null (a : list K) : list K := tl a.

Definition deflate_polynomial (a : list K) (root : K) : outcome (list K) :=
  if neqb root n0 then Ret (deflate_null a)
  else
    let N := Z.of_nat (porder a) in
    let b := repeat n0 (porder a) in
    do aN <- rd a N;
    do b <- wr b (N - 1) aN;
    do a0 <- rd a 0;
    do b <- wr b 0 (nopp a0 /! root);
    deflate_loop (length a) a root (wrap64 (N - 2)) 1 b.
End Deflate.

End PolyModel.

Arguments xval : clear implicits.
Arguments gcd_res : clear implicits.
Arguments vpoly : clear implicits.
