(** IEEE 754 double arithmetic, and stator/symbolic/numeric.hpp and the radical
    root solvers of stator/symbolic/polynomial.hpp in it.

    [double] is Flocq's binary64, every operation rounds to nearest even and has
    its infinities and NaNs; comparisons with a NaN are false.  Unlike
    NumericModel.v and RootsModel.v (exact numbers), the comparisons here are
    written exactly as in the code, because [!(a < b)] and [a >= b] differ on
    NaNs.  Assumed: no extended precision and no contraction of a*b+c. *)
From Flocq Require Import Core Binary Bits.
From Verif Require Export Num Outcome PolyModel.
Open Scope bool_scope.

Definition d64 : Type := binary64.
Definition d_zero : d64 := B754_zero 53 1024 false.
Definition d_lit (m e : Z) : d64 :=        (* the literal m * 2^e *)
  binary_normalize 53 1024 eq_refl eq_refl BinarySingleNaN.mode_NE m e false.
Definition d_one : d64 := d_lit 1 0.
Definition d_two : d64 := d_lit 2 0.
Definition d_inf (s : bool) : d64 := B754_infinity 53 1024 s.
Definition d_max : d64 := d_lit (2 ^ 53 - 1) 971.   (* std::numeric_limits<double>::max() *)

Definition d_add : d64 -> d64 -> d64 := b64_plus BinarySingleNaN.mode_NE.
Definition d_sub : d64 -> d64 -> d64 := b64_minus BinarySingleNaN.mode_NE.
Definition d_mul : d64 -> d64 -> d64 := b64_mult BinarySingleNaN.mode_NE.
Definition d_div : d64 -> d64 -> d64 := b64_div BinarySingleNaN.mode_NE.
Definition d_opp : d64 -> d64 := b64_opp.
Definition d_abs : d64 -> d64 := b64_abs.
Definition d_sqrt : d64 -> d64 := b64_sqrt BinarySingleNaN.mode_NE.
(** the built-in comparisons: false when an operand is a NaN *)
Definition d_lt (a b : d64) : bool :=
  match b64_compare a b with Some Lt => true | _ => false end.
Definition d_eq (a b : d64) : bool :=
  match b64_compare a b with Some Eq => true | _ => false end.
Definition d_gt (a b : d64) : bool := d_lt b a.
Definition d_le (a b : d64) : bool := d_lt a b || d_eq a b.
Definition d_ge (a b : d64) : bool := d_le b a.
Definition d_neq (a b : d64) : bool := negb (d_eq a b).
Definition d_isinf (a : d64) : bool :=
  match a with B754_infinity _ _ _ => true | _ => false end.
Definition d_isfinite (a : d64) : bool := is_finite 53 1024 a.
Definition d_isnan (a : d64) : bool := is_nan 53 1024 a.
Definition d_signbit (a : d64) : bool := Bsign 53 1024 a.
(** std::min, std::max (<algorithm>) and std::copysign *)
Definition d_min (a b : d64) : d64 := if d_lt b a then b else a.
Definition d_maximum (a b : d64) : d64 := if d_lt a b then b else a.
Definition d_copysign (m s : d64) : d64 :=
  if Bool.eqb (d_signbit m) (d_signbit s) then m else d_opp m.

(** doubles as the coefficient type of PolyModel.v, whose functions used below
    (poly_eval, eval_derivatives, poly_div0, change_order, deflate_polynomial)
    contain no negated comparison *)
Definition D_num : Num d64 :=
  {| n0 := d_zero; n1 := d_one; nadd := d_add; nsub := d_sub; nmul := d_mul; ndiv := d_div;
     nopp := d_opp; neqb := d_eq; nltb := d_lt |}.
Definition dget (l : list d64) (i : nat) : d64 := nth i l d_zero.

(* ------------------------------------------------------------------ *)
(** ** numeric.hpp *)

(** the int result: 0 on error, 1 on success, 2 on convergence *)
Inductive dstatus := DFailed | DStepped | DConverged.
Record dstate := { ds_x : d64; ds_lo : d64; ds_hi : d64; ds_cur : list d64 }.

(** numeric.hpp:33-77 process_iterative_step *)
Definition d_process (f : d64 -> list d64) (prec : d64) (s : dstate) (new_x : d64)
  : dstatus * dstate :=
  if d_ge new_x (ds_hi s) || d_le new_x (ds_lo s) then (DFailed, s)
  else
    let new_state := f new_x in
    let delta := d_sub new_x (ds_x s) in
    if d_lt (d_abs delta) (d_abs (d_mul prec new_x)) || d_eq (dget new_state 0) d_zero then
      (DConverged, {| ds_x := new_x; ds_lo := ds_lo s; ds_hi := ds_hi s; ds_cur := new_state |})
    else if d_gt (d_abs (dget new_state 0)) (d_abs (dget (ds_cur s) 0)) then (DFailed, s)
    else
      (DStepped,
       {| ds_x := new_x;
          ds_lo := if d_ge delta d_zero then ds_x s else ds_lo s;
          ds_hi := if d_le delta d_zero then ds_x s else ds_hi s;
          ds_cur := new_state |}).

(** numeric.hpp:82-96 newton_raphson_step *)
Definition d_newton_step f prec (s : dstate) : dstatus * dstate :=
  if d_eq (dget (ds_cur s) 1) d_zero then (DFailed, s)
  else d_process f prec s (d_sub (ds_x s) (d_div (dget (ds_cur s) 0) (dget (ds_cur s) 1))).

(** numeric.hpp:100-130 halley_step *)
Definition d_halley_step f prec (s : dstate) : dstatus * dstate :=
  let c0 := dget (ds_cur s) 0 in
  let c1 := dget (ds_cur s) 1 in
  let c2 := dget (ds_cur s) 2 in
  let numerator := d_mul (d_mul d_two c0) c1 in
  let denominator := d_sub (d_mul (d_mul d_two c1) c1) (d_mul c0 c2) in
  if d_eq denominator d_zero || negb (d_isfinite denominator) then (DFailed, s)
  else
    let delta := d_div (d_opp numerator) denominator in
    let deltaNR := d_div (d_opp c0) c1 in
    if negb (Bool.eqb (d_signbit delta) (d_signbit deltaNR)) then (DFailed, s)
    else d_process f prec s (d_add (ds_x s) delta).

(** numeric.hpp:147-195 bisection_step *)
Definition d_bisection_step (f : d64 -> list d64) prec (s : dstate) : dstatus * dstate :=
  let lo := ds_lo s in
  let hi := ds_hi s in
  if d_ge lo hi || d_isinf lo || d_isinf hi then (DFailed, s)
  else
    let f_low := f lo in
    let f_high := f hi in
    if Bool.eqb (d_signbit (dget f_low 0)) (d_signbit (dget f_high 0)) then (DFailed, s)
    else
      let x_mid := d_div (d_add lo hi) d_two in
      let new_state := f x_mid in
      let delta := d_sub x_mid (ds_x s) in
      if d_lt (d_abs delta) (d_abs (d_mul prec x_mid)) || d_eq (dget new_state 0) d_zero
         || d_eq x_mid lo || d_eq x_mid hi then
        (DConverged, {| ds_x := x_mid; ds_lo := lo; ds_hi := hi; ds_cur := new_state |})
      else
        let up := Bool.eqb (d_signbit (dget new_state 0)) (d_signbit (dget f_high 0)) in
        (DStepped,
         {| ds_x := x_mid;
            ds_lo := if up then lo else x_mid;
            ds_hi := if up then x_mid else hi;
            ds_cur := new_state |}).

Definition d_or_else (a b : dstate -> dstatus * dstate) (s : dstate) : dstatus * dstate :=
  match a s with
  | (DFailed, s') => b s'
  | r => r
  end.

(** numeric.hpp:207-208: iterations = 0 means SIZE_MAX *)
Definition d_iterations (n : N) : N := if N.eqb n 0 then (2 ^ 64 - 1)%N else n.

(** the loop [while ((--iterations) && (status != 2))], which runs at most
    iterations - 1 times; [k] counts the passes through its body *)
Fixpoint d_iterate (n : nat) (step : dstate -> dstatus * dstate) (s : dstate) (k : N)
  : bool * dstate * N :=
  match n with
  | O => (false, s, k)
  | S n' =>
      match step s with
      | (DFailed, s') => (false, s', N.succ k)
      | (DConverged, s') => (true, s', N.succ k)
      | (DStepped, s') => d_iterate n' step s' (N.succ k)
      end
  end.

(** numeric.hpp:203-231 newton_raphson; the result is the returned bool, the
    final state (the reference argument x is [ds_x]) and the number of passes
    through the loop *)
Definition d_newton_raphson (f : d64 -> list d64) (prec x lo hi : d64) (iterations : N)
  : bool * dstate * N :=
  let s := {| ds_x := x; ds_lo := lo; ds_hi := hi; ds_cur := f x |} in
  if d_eq (dget (ds_cur s) 0) d_zero then (true, s, 0%N)
  else d_iterate (N.to_nat (N.pred (d_iterations iterations)))
         (d_or_else (d_newton_step f prec) (d_bisection_step f prec)) s 0.

(** numeric.hpp:238-271 halleys_method *)
Definition d_halleys_method (f : d64 -> list d64) (prec x lo hi : d64) (iterations : N)
  : bool * dstate * N :=
  let s := {| ds_x := x; ds_lo := lo; ds_hi := hi; ds_cur := f x |} in
  if d_eq (dget (ds_cur s) 0) d_zero then (true, s, 0%N)
  else d_iterate (N.to_nat (N.pred (d_iterations iterations)))
         (d_or_else (d_halley_step f prec)
            (d_or_else (d_newton_step f prec) (d_bisection_step f prec))) s 0.

(** numeric.hpp:273-327 bisection; [trace] collects the points where f is
    evaluated, most recent first *)
Fixpoint d_bisect_loop (n : nat) (f : d64 -> d64) (prec x lo hi f_high : d64) (trace : list d64)
  : bool * d64 * list d64 :=
  match n with
  | O => (false, x, trace)
  | S n' =>
      let x_mid := d_div (d_add lo hi) d_two in
      let new_state := f x_mid in
      let trace := x_mid :: trace in
      let delta := d_sub x_mid x in
      if d_lt (d_abs delta) (d_abs (d_mul prec x_mid)) || d_eq new_state d_zero
         || d_eq x_mid lo || d_eq x_mid hi then (true, x_mid, trace)
      else if Bool.eqb (d_signbit new_state) (d_signbit f_high)
      then d_bisect_loop n' f prec x lo x_mid new_state trace
      else d_bisect_loop n' f prec x x_mid hi f_high trace
  end.

Definition d_bisection (f : d64 -> d64) (prec lo hi : d64) (iterations : N)
  : bool * option d64 * list d64 :=
  if d_ge lo hi || d_isinf lo || d_isinf hi then (false, None, [])
  else if Bool.eqb (d_signbit (f lo)) (d_signbit (f hi)) then (false, None, [hi; lo])
  else
    let x := if d_lt (d_abs (f lo)) (d_abs (f hi)) then lo else hi in
    let '(ok, x, tr) :=
      d_bisect_loop (N.to_nat (N.pred (d_iterations iterations))) f prec x lo hi (f hi) [hi; lo] in
    (ok, Some x, tr).

(** numeric.hpp:206, 241, 275: digits = 53 / 2, x_precision = ldexp(1.0, 1 - digits) *)
Definition d_default_precision : d64 := d_lit 1 (-25).

(* ------------------------------------------------------------------ *)
(** ** Root solvers by radicals *)

(** polynomial.hpp:770-776 *)
Definition d_solve_linear (f : list d64) : list d64 :=
  if d_neq (dget f 1) d_zero then [d_div (d_opp (dget f 0)) (dget f 1)] else [].

(** polynomial.hpp:800, 874 maxSqrt *)
Definition d_maxsqrt : d64 := d_sqrt d_max.

(** polynomial.hpp:785-822 *)
Definition d_solve_quadratic (f : list d64) : list d64 :=
  if d_eq (dget f 2) d_zero then d_solve_linear (change_order (H := D_num) 1 f)
  else
    let f := poly_div0 (H := D_num) f (dget f 2) in
    let f0 := dget f 0 in
    let f1 := dget f 1 in
    if d_eq f0 d_zero then [d_min (d_opp f1) d_zero; d_maximum (d_opp f1) d_zero]
    else if d_gt (d_abs f1) d_maxsqrt then
      let a := d_opp f1 in
      let b := d_div (d_opp f0) f1 in
      if d_gt a b then [b; a] else [a; b]
    else
      let arg := d_sub (d_mul f1 f1) (d_mul (d_lit 4 0) f0) in
      if d_lt arg d_zero then []
      else if d_eq arg d_zero then [d_mul (d_opp f1) (d_lit 1 (-1))]
      else
        let root1 := d_mul (d_opp (d_add f1 (d_copysign (d_sqrt arg) f1))) (d_lit 1 (-1)) in
        let root2 := d_div f0 root1 in
        if d_gt root1 root2 then [root2; root1] else [root1; root2].

(** std::sort (insertion sort; with a NaN among the values the order std::sort
    leaves them in is unspecified) *)
Fixpoint d_insert (x : d64) (l : list d64) : list d64 :=
  match l with
  | [] => [x]
  | y :: t => if d_lt y x then y :: d_insert x t else x :: l
  end.
Definition d_sort (l : list d64) : list d64 := fold_right d_insert [] l.

Section Cubic.
(** the comparison subtraction_precision(b[i_b],a[i_b]) > addition_precision(a[i_t+1],d)
    of deflate_polynomial, and the C library's cbrt, cos and acos *)
Variable prefer_bwd : d64 -> d64 -> d64 -> d64 -> bool.
Variable cbrt cos acos : d64 -> d64.

(** halleys_method([&](double x){ return eval_derivatives<2>(f, x); }, root) with
    default bounds, iteration count and digits: the new root and the number of
    passes through the loop *)
Definition d_polish (f : list d64) (root : d64) : d64 * N :=
  let '(_, s, k) := d_halleys_method (fun x => eval_derivatives (H := D_num) 2 f x)
                      d_default_precision root (d_inf true) (d_inf false) 0 in
  (ds_x s, k).

(** polynomial.hpp:834-850; the second component is the largest number of
    passes any of the halleys_method calls makes *)
Definition d_deflate_and_solve (f : list d64) (root : d64) : outcome (list d64 * N) :=
  do d <- deflate_polynomial (H := D_num) prefer_bwd f root;
  let polished := map (d_polish f) (d_solve_quadratic d) in
  Ret (d_sort (map fst polished ++ [root]), fold_right N.max 0%N (map snd polished)).

(** polynomial.hpp:858-1004 *)
Definition d_solve_cubic (fo : list d64) : outcome (list d64 * N) :=
  let three := d_lit 3 0 in
  let nine := d_lit 9 0 in
  let half := d_lit 1 (-1) in
  if d_eq (dget fo 3) d_zero then Ret (d_solve_quadratic (change_order (H := D_num) 2 fo), 0%N)
  else if d_eq (dget fo 0) d_zero then d_deflate_and_solve fo d_zero
  else
    let f := poly_div0 (H := D_num) fo (dget fo 3) in
    let f0 := dget f 0 in
    let f1 := dget f 1 in
    let f2 := dget f 2 in
    if d_eq f2 d_zero && d_eq f1 d_zero then Ret ([cbrt (d_opp f0)], 0%N)
    else if d_gt f2 d_maxsqrt || d_lt f2 (d_opp d_maxsqrt) then d_deflate_and_solve f (d_opp f2)
    else if d_gt f1 d_maxsqrt then d_deflate_and_solve f (d_div (d_opp f0) f1)
    else if d_lt f1 (d_opp d_maxsqrt) then d_deflate_and_solve f (d_opp (d_sqrt (d_opp f1)))
    else if d_gt f0 d_maxsqrt || d_lt f0 (d_opp d_maxsqrt) then
      d_deflate_and_solve f (d_opp (cbrt f0))
    else
      let v := d_add f0 (d_mul (d_sub (d_div (d_mul (d_mul d_two f2) f2) nine) f1) (d_div f2 three)) in
      if d_gt v d_maxsqrt || d_lt v (d_opp d_maxsqrt) then d_deflate_and_solve f (d_opp f2)
      else
        let uo3 := d_sub (d_div f1 three) (d_div (d_mul f2 f2) nine) in
        let u2o3 := d_add uo3 uo3 in
        let fallback :=
          if d_eq f2 d_zero then
            if d_gt f1 d_zero then d_deflate_and_solve f (d_div (d_opp f0) f1)
            else if d_lt f1 d_zero then d_deflate_and_solve f (d_opp (d_sqrt (d_opp f1)))
            else d_deflate_and_solve f d_zero
          else d_deflate_and_solve f (d_div (d_opp f1) f2) in
        if d_gt u2o3 d_maxsqrt || d_lt u2o3 (d_opp d_maxsqrt) then fallback
        else
          let uo3sq4 := d_mul u2o3 u2o3 in
          if d_gt uo3sq4 d_maxsqrt then fallback
          else
            let j := d_add (d_mul uo3sq4 uo3) (d_mul v v) in
            if d_gt j d_zero then
              let w := d_sqrt j in
              let root :=
                if d_lt v d_zero then
                  d_sub (d_sub (cbrt (d_mul half (d_sub w v))) (d_mul uo3 (cbrt (d_div d_two (d_sub w v)))))
                        (d_div f2 three)
                else
                  d_sub (d_sub (d_mul uo3 (cbrt (d_div d_two (d_add w v)))) (cbrt (d_mul half (d_add w v))))
                        (d_div f2 three) in
              let '(root, k) := d_polish f root in
              do r <- d_deflate_and_solve f root;
              Ret (fst r, N.max k (snd r))
            else if d_ge uo3 d_zero then Ret ([d_sub (cbrt v) (d_div f2 three)], 0%N)
            else
              let muo3 := d_opp uo3 in
              let s := if d_gt muo3 d_zero
                       then (if d_gt f2 d_zero then d_opp (d_sqrt muo3) else d_sqrt muo3)
                       else d_zero in
              let scube := d_mul s muo3 in
              if d_eq scube d_zero then Ret ([d_div (d_opp f2) three], 0%N)
              else
                let t := d_min (d_maximum (d_div (d_opp v) (d_add scube scube)) (d_lit (-1) 0)) d_one in
                let k := d_div (acos t) three in
                let cosk := cos k in
                let r0 := d_sub (d_mul (d_add s s) cosk) (d_div f2 three) in
                let sinsqk := d_sub d_one (d_mul cosk cosk) in
                if d_lt sinsqk d_zero then Ret ([r0], 0%N)
                else
                  let rt3sink := d_mul (d_sqrt three) (d_sqrt sinsqk) in
                  let r1 := d_sub (d_mul s (d_add (d_opp cosk) rt3sink)) (d_div f2 three) in
                  let r2 := d_sub (d_mul s (d_sub (d_opp cosk) rt3sink)) (d_div f2 three) in
                  let polished := map (d_polish f) [r0; r1; r2] in
                  Ret (d_sort (map fst polished), fold_right N.max 0%N (map snd polished)).
End Cubic.
