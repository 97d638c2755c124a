(** Model of the root counting, bounding and solving part of
    stator/symbolic/polynomial.hpp (lines 745-1882), over exact real numbers:
    the C++ code calls sqrt, cbrt, pow, acos and rounds every operation to
    double; here every operation is exact.  [signbit] of a non-zero number is
    "negative"; there is one zero. *)
From Verif Require Export Num Outcome PolyModel NumericModel.
Open Scope R_scope.

(* ------------------------------------------------------------------ *)
(** ** Library functions *)

(** std::sort on doubles *)
Fixpoint rinsert (x : R) (l : list R) : list R :=
  match l with
  | [] => [x]
  | y :: t => if Rltb y x then y :: rinsert x t else x :: l
  end.
Definition rsort (l : list R) : list R := fold_right rinsert [] l.

(** std::cbrt *)
Definition cbrt (x : R) : R :=
  if Reqb x 0 then 0 else if Rltb x 0 then - Rpower (- x) (/ 3) else Rpower x (/ 3).

(** std::copysign(m, s) for m >= 0 *)
Definition copysign (m s : R) : R := if Rltb s 0 then - m else m.

(** StackVector::push_back in a release build: writing past the capacity is
    undefined behaviour (orphan/stack_vector.hpp:112-119) *)
Definition sv_push {A} (cap : nat) (l : list A) (x : A) : outcome (list A) :=
  if Nat.ltb (length l) cap then Ret (l ++ [x]) else UB.
Fixpoint sv_extend {A} (cap : nat) (l m : list A) : outcome (list A) :=
  match m with
  | [] => Ret l
  | x :: t => do l' <- sv_push cap l x; sv_extend cap l' t
  end.

(* ------------------------------------------------------------------ *)
(** ** Orders 0, 1, 2 *)

(** polynomial.hpp:760-763 *)
Definition solve_order0 (f : list R) : list R := [].

(** polynomial.hpp:770-776 *)
Definition solve_linear (f : list R) : list R :=
  if negb (Reqb (get f 1) 0) then [- get f 0 / get f 1] else [].

(** polynomial.hpp:785-822; [ms] is maxSqrt = sqrt(DBL_MAX) *)
Definition solve_quadratic (ms : R) (f : list R) : list R :=
  if Reqb (get f 2) 0 then solve_linear (change_order 1 f)
  else
    let f := poly_div0 f (get f 2) in
    let f0 := get f 0 in
    let f1 := get f 1 in
    if Reqb f0 0 then [Rmin (- f1) 0; Rmax (- f1) 0]
    else if Rltb ms (Rabs f1) then
      let a := - f1 in
      let b := - f0 / f1 in
      if Rltb b a then [b; a] else [a; b]
    else
      let arg := f1 * f1 - 4 * f0 in
      if Rltb arg 0 then []
      else if Reqb arg 0 then [- f1 * (/ 2)]
      else
        let root1 := - (f1 + copysign (sqrt arg) f1) * (/ 2) in
        let root2 := f0 / root1 in
        if Rltb root2 root1 then [root2; root1] else [root1; root2].

(* ------------------------------------------------------------------ *)
(** ** Order 3 *)
Section Cubic.
Variable ms : R.                                    (* sqrt(DBL_MAX) *)
Variable prefer_bwd : R -> R -> R -> R -> bool.     (* see deflate_polynomial *)
Variable prec : R.                                  (* halleys_method's default x_precision *)

(** halleys_method([&](double x){ return eval_derivatives<2>(f, x); }, root) with
    default bounds and iteration count: the root is updated in place *)
Definition polish (f : list R) (root : R) : R :=
  ns_x (snd (halleys_method (fun x => eval_derivatives 2 f x) prec root NInf PInf 0)).

(** polynomial.hpp:834-850 for Order = 3: the deflated quadratic is solved, its
    roots are polished against f, [root] itself is appended unpolished (inside
    the loop the name [root] is shadowed), and the result sorted. *)
Definition deflate_and_solve (f : list R) (root : R) : outcome (list R) :=
  do d <- deflate_polynomial prefer_bwd f root;
  let roots := map (polish f) (solve_quadratic ms d) in
  do roots <- sv_push 3 roots root;
  Ret (rsort roots).

(** polynomial.hpp:858-1004 *)
Definition solve_cubic (fo : list R) : outcome (list R) :=
  if Reqb (get fo 3) 0 then Ret (solve_quadratic ms (change_order 2 fo))
  else if Reqb (get fo 0) 0 then deflate_and_solve fo 0
  else
    let f := poly_div0 fo (get fo 3) in
    let f0 := get f 0 in
    let f1 := get f 1 in
    let f2 := get f 2 in
    if (Reqb f2 0 && Reqb f1 0)%bool then Ret [cbrt (- f0)]
    else if (Rltb ms f2 || Rltb f2 (- ms))%bool then deflate_and_solve f (- f2)
    else if Rltb ms f1 then deflate_and_solve f (- f0 / f1)
    else if Rltb f1 (- ms) then deflate_and_solve f (- sqrt (- f1))
    else if (Rltb ms f0 || Rltb f0 (- ms))%bool then deflate_and_solve f (- cbrt f0)
    else
      let v := f0 + (2 * f2 * f2 / 9 - f1) * (f2 / 3) in
      if (Rltb ms v || Rltb v (- ms))%bool then deflate_and_solve f (- f2)
      else
        let uo3 := f1 / 3 - f2 * f2 / 9 in
        let u2o3 := uo3 + uo3 in
        let fallback :=
          if Reqb f2 0 then
            if Rltb 0 f1 then deflate_and_solve f (- f0 / f1)
            else if Rltb f1 0 then deflate_and_solve f (- sqrt (- f1))
            else deflate_and_solve f 0
          else deflate_and_solve f (- f1 / f2) in
        if (Rltb ms u2o3 || Rltb u2o3 (- ms))%bool then fallback
        else
          let uo3sq4 := u2o3 * u2o3 in
          if Rltb ms uo3sq4 then fallback
          else
            let j := uo3sq4 * uo3 + v * v in
            if Rltb 0 j then
              let w := sqrt j in
              let root :=
                if Rltb v 0 then cbrt (/ 2 * (w - v)) - uo3 * cbrt (2 / (w - v)) - f2 / 3
                else uo3 * cbrt (2 / (w + v)) - cbrt (/ 2 * (w + v)) - f2 / 3 in
              deflate_and_solve f (polish f root)
            else if negb (Rltb uo3 0) then Ret [cbrt v - f2 / 3]
            else
              let muo3 := - uo3 in
              let s := if Rltb 0 muo3 then (if Rltb 0 f2 then - sqrt muo3 else sqrt muo3) else 0 in
              let scube := s * muo3 in
              if Reqb scube 0 then Ret [- f2 / 3]
              else
                let t := Rmin (Rmax (- v / (scube + scube)) (-1)) 1 in
                let k := acos t / 3 in
                let cosk := cos k in
                let r0 := (s + s) * cosk - f2 / 3 in
                let sinsqk := 1 - cosk * cosk in
                if Rltb sinsqk 0 then Ret [r0]
                else
                  let rt3sink := sqrt 3 * sqrt sinsqk in
                  let r1 := s * (- cosk + rt3sink) - f2 / 3 in
                  let r2 := s * (- cosk - rt3sink) - f2 / 3 in
                  Ret (rsort (map (polish f) [r0; r1; r2])).
End Cubic.

(* ------------------------------------------------------------------ *)
(** ** Sturm chains *)

(** the sign used by SturmChain and descartes_rule_of_signs:
    (v != 0) * (1 - 2*signbit(v)) *)
Definition rsign (v : R) : Z := if Reqb v 0 then 0%Z else if Rltb v 0 then (-1)%Z else 1%Z.

(** polynomial.hpp:1011-1018 mrem: minus the remainder of f / g; the remainder
    is stored in a Polynomial<Order-2>, so it has porder f - 1 coefficients *)
Definition mrem (f g : list R) : list R :=
  poly_neg (match poly_gcd f g with
            | DivInf r => poly_raise (porder f - 2) r
            | Div _ r => poly_raise (porder f - 2) r
            end).

(** polynomial.hpp:1023-1042: p_0 = f, p_1 = f', p_{i+1} = mrem(p_{i-1}, p_i),
    one polynomial per order down to order 0 *)
Fixpoint chain_tail (n : nat) (p q : list R) : list (list R) :=
  match n with
  | O => []
  | S n' => q :: chain_tail n' q (mrem p q)
  end.
Definition sturm_chain (f : list R) : list (list R) :=
  f :: chain_tail (porder f) f (poly_derivative true f).

(** polynomial.hpp:1048-1054, 1115-1119 get(i) *)
Definition chain_get (c : list (list R)) (i : nat) : list R := nth i c [0].

(** the value sub(_p_n, x) for the sign test; x may be infinite *)
Definition xsign (v : xval R) : Z :=
  match v with Fin y => rsign y | PInf => 1%Z | NInf => (-1)%Z end.

(** polynomial.hpp:1085-1094, 1128-1133 sign_change_helper *)
Fixpoint sign_change_helper (last : Z) (c : list (list R)) (x : xval R) : nat :=
  match c with
  | [] => O
  | p :: t =>
      let cur := xsign (poly_sub p x) in
      let change := (negb (Z.eqb cur 0) && negb (Z.eqb last 0) && negb (Z.eqb cur last))%bool in
      let next := if negb (Z.eqb cur 0) then cur else last in
      (sign_change_helper next t x + (if change then 1 else 0))%nat
  end.

(** polynomial.hpp:1062-1065; the order 0 chain returns 0 (1122-1124) *)
Definition sign_changes (c : list (list R)) (x : xval R) : nat :=
  match c with
  | [_] => O
  | _ => sign_change_helper 0 c x
  end.

(** polynomial.hpp:1067-1072 roots(a,b) = |sign_changes(a) - sign_changes(b)| *)
Definition sturm_roots (c : list (list R)) (a b : xval R) : nat :=
  Z.to_nat (Z.abs (Z.of_nat (sign_changes c a) - Z.of_nat (sign_changes c b))).

(* ------------------------------------------------------------------ *)
(** ** Descartes, Budan, Alesina-Galuzzi *)

(** polynomial.hpp:1212-1223 descartes_rule_of_signs *)
Definition descartes (f : list R) : nat :=
  fst (for_up 0 (length f) (fun i '(n, last) =>
         let cur := rsign (get f i) in
         let change := (negb (Z.eqb cur 0) && negb (Z.eqb last 0) && negb (Z.eqb cur last))%bool in
         ((n + if change then 1 else 0)%nat, if negb (Z.eqb cur 0) then cur else last))
       (O, 0%Z)).

(** polynomial.hpp:1250-1252 *)
Definition budan_01 (f : list R) : nat := descartes (invert_taylor_shift f).

(** polynomial.hpp:1264-1267 *)
Definition alesina_galuzzi (f : list R) (a b : R) : nat :=
  budan_01 (scale_poly (shift_function f a) (b - a)).

(* ------------------------------------------------------------------ *)
(** ** LMQ bounds *)

(** -(1 << t) in int arithmetic: undefined from t = 31 on *)
Definition neg_shl (t : nat) : outcome R := if Nat.ltb t 31 then Ret (- 2 ^ t) else UB.

(** polynomial.hpp:1285-1287 *)
Fixpoint highest (n : nat) (f : list R) : nat :=
  match n with
  | O => O
  | S m => if Reqb (get f n) 0 then highest m f else n
  end.

Definition opposite (a b : R) : bool := negb (Bool.eqb (signbit a) (signbit b)).
Definition nonzerob (a : R) : bool := negb (Reqb a 0).
Definition tget (l : list nat) (i : nat) : nat := nth i l O.

(** std::min(temp, tempub), std::max(tempub, ub) with tempub possibly infinite *)
Definition xmin (a : R) (b : xval R) : xval R :=
  match b with Fin b => Fin (if Rltb b a then b else a) | PInf => Fin a | NInf => NInf end.
Definition xmax (a b : xval R) : xval R :=
  match a, b with
  | Fin x, Fin y => Fin (if Rltb x y then y else x)
  | PInf, _ => PInf | _, PInf => PInf
  | NInf, y => y | x, NInf => x
  end.

(** polynomial.hpp:1292-1299: the inner loop over k = real_order, ..., m+1 *)
Definition lmq_inner (f : list R) (ro m : nat) (times : list nat) : outcome (list nat * xval R) :=
  for_down ro (ro - m) (fun k st =>
    do st <- st;
    let '(times, tempub) := st in
    if (nonzerob (get f k) && opposite (get f k) (get f m))%bool then
      do s <- neg_shl (tget times k);
      let temp := Rpower (s * get f m / get f k) (1 / INR (k - m)) in
      Ret (upd times k (S (tget times k)), xmin temp tempub)
    else Ret (times, tempub)) (Ret (times, PInf)).

(** polynomial.hpp:1279-1303 LMQ_upper_bound (order 0: 1333-1336 returns 0 too) *)
Definition LMQ_upper (f : list R) : outcome (xval R) :=
  let ro := highest (porder f) f in
  do st <- for_down (ro - 1) ro (fun m st =>
    do st <- st;
    let '(times, ub) := st in
    if (nonzerob (get f m) && opposite (get f m) (get f ro))%bool then
      do r <- lmq_inner f ro m times;
      let '(times, tempub) := r in
      Ret (times, xmax tempub ub)
    else Ret (times, ub)) (Ret (repeat 1%nat (length f), Fin 0));
  Ret (snd st).

(** polynomial.hpp:1322-1325 LMQ_lower_bound = 1 / upper bound of the reversed
    polynomial; 1/0 is +infinity (also the order 0 case, 1345-1348) *)
Definition xinv (x : xval R) : xval R :=
  match x with Fin v => if Reqb v 0 then PInf else Fin (1 / v) | _ => Fin 0 end.
Definition LMQ_lower (f : list R) : outcome (xval R) :=
  do u <- LMQ_upper (rev f); Ret (xinv u).

(* ------------------------------------------------------------------ *)
(** ** VCA *)

Definition interval : Type := (xval R * xval R)%type.

(** polynomial.hpp:1376-1378: p1[i] *= (1 << (Order-i)), int shift *)
Definition vca_double (f : list R) : outcome (list R) :=
  if Nat.ltb (porder f) 31 then
    Ret (for_up 0 (length f) (fun i p => upd p i (get p i * 2 ^ (porder f - i))) f)
  else UB.

(** polynomial.hpp:1356-1407 VCA_real_root_bounds_worker *)
Fixpoint vca_worker (fuel : nat) (f : list R) : outcome (list (R * R)) :=
  match fuel with
  | O => Fuel
  | S fu =>
      match budan_01 f with
      | O => Ret []
      | S O => Ret (firstn (porder f) [(0, 1)])
      | _ =>
          do p1 <- vca_double f;
          let p2 := shift_unity p1 in
          do r1 <- vca_worker fu p1;
          do r2 <- vca_worker fu p2;
          sv_extend (porder f) (map (fun '(a, b) => (a / 2, b / 2)) r1)
            (map (fun '(a, b) => (a / 2 + / 2, b / 2 + / 2)) r2)
      end
  end.

(** polynomial.hpp:1418-1437 VCA_real_root_bounds.  An infinite upper bound
    (never computed, see C18) is outside the model. *)
Definition VCA_bounds (fuel : nat) (f : list R) : outcome (list (R * R)) :=
  do ub <- LMQ_upper f;
  match ub with
  | Fin u =>
      if Reqb u 0 then Ret []
      else
        do b <- vca_worker fuel (scale_poly f u);
        Ret (map (fun '(a, b) => (a * u, b * u)) b)
  | _ => UB
  end.

(* ------------------------------------------------------------------ *)
(** ** Moebius transformations (polynomial.hpp:1454-1509) *)
Record mobius := { ma : R; mb : R; mc : R; md : R }.
Definition mob_id : mobius := {| ma := 1; mb := 0; mc := 0; md := 1 |}.

(** polynomial.hpp:1465-1484 eval; x is finite or +infinity *)
Definition mob_eval (M : mobius) (x : xval R) : xval R :=
  if (Reqb (ma M) 0 && Reqb (mc M) 0)%bool then Fin (mb M / md M)
  else
    match x with
    | Fin v =>
        let numerator := if negb (Reqb (ma M) 0) then mb M + v * ma M else mb M in
        let denominator := if negb (Reqb (mc M) 0) then md M + v * mc M else md M in
        Fin (numerator / denominator)
    | _ =>
        if (negb (Reqb (ma M) 0) && negb (Reqb (mc M) 0))%bool then Fin (ma M / mc M)
        else if negb (Reqb (ma M) 0) then
          (* (b + inf*a) / d : the infinity with the sign of a*d (d <> 0) *)
          if Bool.eqb (signbit (ma M)) (signbit (md M)) then PInf else NInf
        else Fin 0   (* b / (d + inf*c) *)
    end.
(** polynomial.hpp:1489-1492 *)
Definition mob_shift (M : mobius) (x : R) : mobius :=
  {| ma := ma M; mb := mb M + ma M * x; mc := mc M; md := md M + mc M * x |}.
(** polynomial.hpp:1497-1500 *)
Definition mob_scale (M : mobius) (x : R) : mobius :=
  {| ma := ma M * x; mb := mb M; mc := mc M * x; md := md M |}.
(** polynomial.hpp:1505-1507 *)
Definition mob_invert_taylor_shift (M : mobius) : mobius :=
  {| ma := mb M; mb := ma M + mb M; mc := md M; md := mc M + md M |}.

(* ------------------------------------------------------------------ *)
(** ** VAS *)

(** polynomial.hpp:1524-1600 VAS_real_root_bounds_worker; [eps] is the rounding
    unit used by precision().  An infinite lower bound is outside the model (it
    needs fewer than two sign changes, see C18_lower).  Order 0 (1602-1606)
    returns nothing, as does the general code. *)
Fixpoint vas_worker (fuel : nat) (eps : R) (f : list R) (M : mobius) : outcome (list interval) :=
  match fuel with
  | O => Fuel
  | S fu =>
      match descartes f with
      | O => Ret []
      | S O => Ret (firstn (porder f) [(mob_eval M (Fin 0), mob_eval M PInf)])
      | _ =>
          do lbx <- LMQ_lower f;
          match lbx with
          | Fin lb0 =>
              let '(f, M, lb) :=
                if negb (Rltb lb0 16) then (scale_poly f lb0, mob_scale M lb0, 1) else (f, M, lb0) in
              if negb (Rltb lb 1) then vas_worker fu eps (shift_function f lb) (mob_shift M lb)
              else if negb (Rltb (100 * poly_precision eps f 1) (Rabs (poly_eval f 1))) then
                vas_worker fu eps (scale_poly f 2) (mob_scale M 2)
              else
                let zero_root := Reqb (get f 0) 0 in
                let r0 := if zero_root then [(mob_eval M (Fin 0), mob_eval M (Fin 0))] else [] in
                let f := if zero_root then poly_raise (porder f) (deflate_null f) else f in
                do r1 <- vas_worker fu eps (invert_taylor_shift f) (mob_invert_taylor_shift M);
                do ra <- sv_extend (porder f) r0 r1;
                do r2 <- vas_worker fu eps (shift_unity f) (mob_shift M 1);
                sv_extend (porder f) ra r2
          | _ => UB
          end
      end
  end.

Definition xltb (a b : xval R) : bool :=
  match a, b with
  | Fin x, Fin y => Rltb x y
  | Fin _, PInf => true | NInf, Fin _ => true | NInf, PInf => true
  | _, _ => false
  end.

(** polynomial.hpp:1623-1643 VAS_real_root_bounds *)
Definition VAS_fix (ub : xval R) (b : interval) : interval :=
  let '(u, v) := if xltb (snd b) (fst b) then (snd b, fst b) else b in
  match v with Fin _ => (u, v) | _ => (u, ub) end.
Definition VAS_bounds (fuel : nat) (eps : R) (f : list R) : outcome (list interval) :=
  do ub <- LMQ_upper f;
  match ub with
  | Fin u =>
      if Reqb u 0 then Ret []
      else do b <- vas_worker fuel eps f mob_id; Ret (map (VAS_fix ub) b)
  | _ => UB
  end.
