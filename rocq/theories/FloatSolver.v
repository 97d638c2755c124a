(** The general real root solver of stator/symbolic/polynomial.hpp with its
    default bounder (Sturm chains) in IEEE double arithmetic.  The functions
    over exact numbers are in RootsModel.v and SolverModel.v; here every
    operation rounds, and comparisons are written as in the code. *)
From Flocq Require Import Core Binary Bits.
From Verif Require Export FloatModel.
Open Scope bool_scope.

(** polynomial.hpp:221-264 sub(f, PolyVar() = x) for doubles *)
Fixpoint d_inf_scan (N i : nat) (f : list d64) (x : d64) : d64 :=
  match i with
  | O => dget f 0
  | S j =>
      if d_neq (dget f i) d_zero then
        if Nat.odd N then d_mul (dget f i) x else d_mul (dget f i) (d_inf false)
      else d_inf_scan N j f x
  end.
Definition d_poly_sub (f : list d64) (x : d64) : d64 :=
  if Nat.eqb (porder f) 0 then dget f 0
  else if d_isinf x then d_inf_scan (porder f) (porder f) f x
  else poly_eval (H := D_num) f x.

(** polynomial.hpp:1010-1018 mrem *)
Definition d_mrem (f g : list d64) : list d64 :=
  poly_neg (H := D_num)
    (match poly_gcd (H := D_num) f g with
     | DivInf r => poly_raise (H := D_num) (porder f - 2) r
     | Div _ r => poly_raise (H := D_num) (porder f - 2) r
     end).

(** polynomial.hpp:1022-1040 SturmChain, its constructors *)
Fixpoint d_chain_tail (n : nat) (p q : list d64) : list (list d64) :=
  match n with
  | O => []
  | S n' => q :: d_chain_tail n' q (d_mrem p q)
  end.
Definition d_sturm_chain (f : list d64) : list (list d64) :=
  f :: d_chain_tail (porder f) f (poly_derivative (H := D_num) true f).

(** polynomial.hpp:1084-1092, 1126-1131 sign_change_helper: the sign of a
    computed value, (currentx != 0) * (1 - 2 * signbit(currentx)); the sign bit
    of a NaN is the one Flocq gives it *)
Definition d_sign (v : d64) : Z :=
  if d_neq v d_zero then (if d_signbit v then (-1)%Z else 1%Z) else 0%Z.
Fixpoint d_sign_change_helper (last : Z) (c : list (list d64)) (x : d64) : nat :=
  match c with
  | [] => O
  | p :: t =>
      let cur := d_sign (d_poly_sub p x) in
      let change := negb (Z.eqb cur 0) && negb (Z.eqb last 0) && negb (Z.eqb cur last) in
      let next := if negb (Z.eqb cur 0) then cur else last in
      d_sign_change_helper next t x + (if change then 1 else 0)
  end.

(** polynomial.hpp:1061-1064, 1121-1124 *)
Definition d_sign_changes (c : list (list d64)) (x : d64) : nat :=
  match c with
  | [_] => O
  | _ => d_sign_change_helper 0 c x
  end.

(** polynomial.hpp:1066-1071 roots(a, b) *)
Definition d_sturm_roots (c : list (list d64)) (a b : d64) : nat :=
  Z.to_nat (Z.abs (Z.of_nat (d_sign_changes c a) - Z.of_nat (d_sign_changes c b))).

Section Bounds.
(** the C library's pow *)
Variable pow : d64 -> d64 -> d64.

(** -(1 << t) as a double; shifting into or past the sign bit of int is undefined *)
Definition d_neg_shl (t : nat) : outcome d64 :=
  if Nat.ltb t 31 then Ret (d_lit (- 2 ^ Z.of_nat t) 0) else UB.

(** polynomial.hpp:1288-1290 *)
Fixpoint d_highest (n : nat) (f : list d64) : nat :=
  match n with
  | O => O
  | S m => if d_eq (dget f n) d_zero then d_highest m f else n
  end.
Definition d_opposite (a b : d64) : bool := negb (Bool.eqb (d_signbit a) (d_signbit b)).

(** polynomial.hpp:1294-1302: the loop over k = real_order, ..., m+1 *)
Definition d_lmq_inner (f : list d64) (ro m : nat) (times : list nat)
  : outcome (list nat * d64) :=
  for_down ro (ro - m) (fun k st =>
    do st <- st;
    let '(times, tempub) := st in
    if d_neq (dget f k) d_zero && d_opposite (dget f k) (dget f m) then
      do s <- d_neg_shl (nth k times O);
      let temp := pow (d_div (d_mul s (dget f m)) (dget f k))
                      (d_div d_one (d_lit (Z.of_nat (k - m)) 0)) in
      Ret (upd times k (S (nth k times O)), d_min temp tempub)
    else Ret (times, tempub)) (Ret (times, d_inf false)).

(** polynomial.hpp:1282-1306 LMQ_upper_bound *)
Definition d_LMQ_upper (f : list d64) : outcome d64 :=
  let ro := d_highest (porder f) f in
  do st <- for_down (ro - 1) ro (fun m st =>
    do st <- st;
    let '(times, ub) := st in
    if d_neq (dget f m) d_zero && d_opposite (dget f m) (dget f ro) then
      do r <- d_lmq_inner f ro m times;
      let '(times, tempub) := r in
      Ret (times, d_maximum tempub ub)
    else Ret (times, ub)) (Ret (repeat 1%nat (length f), d_zero));
  Ret (snd st).

(** polynomial.hpp:1324-1327 LMQ_lower_bound *)
Definition d_LMQ_lower (f : list d64) : outcome d64 :=
  do u <- d_LMQ_upper (rev f); Ret (d_div d_one u).

(** polynomial.hpp:1740 eps = max(ldexp(1, 1-56), 2 * epsilon) = 2^-51 *)
Definition d_eps : d64 := d_maximum (d_lit 1 (-55)) (d_lit 1 (-51)).

Definition dregion : Type := (d64 * d64 * nat)%type.
(** StackVector::push_back does not check its capacity: beyond it the write is
    out of bounds (stack_vector.hpp, C24) *)
Definition d_push {A} (cap : nat) (l : list A) (x : A) : outcome (list A) :=
  if Nat.ltb (length l) cap then Ret (l ++ [x]) else UB.
Fixpoint d_extend {A} (cap : nat) (l m : list A) : outcome (list A) :=
  match m with
  | [] => Ret l
  | x :: t => do l' <- d_push cap l x; d_extend cap l' t
  end.
(** the region stack, its top first *)
Definition d_push_region (cap : nat) (l : list dregion) (x : dregion) : outcome (list dregion) :=
  if Nat.ltb (length l) cap then Ret (x :: l) else UB.

(** polynomial.hpp:1784-1796 / 1797-1809, one half of a region; try_bisection is
    never set to false *)
Definition d_sturm_half (f : list d64) (a b : d64) (k : nat) (regions : list dregion)
  (retval : list d64) : outcome (list dregion * list d64) :=
  match k with
  | O => Ret (regions, retval)
  | S O =>
      match d_bisection (d_poly_sub f) d_default_precision a b 0 with
      | (true, Some root, _) => do retval <- d_push (porder f) retval root; Ret (regions, retval)
      | _ => do regions <- d_push_region (porder f) regions (a, b, k); Ret (regions, retval)
      end
  | _ => do regions <- d_push_region (porder f) regions (a, b, k); Ret (regions, retval)
  end.

(** polynomial.hpp:1746-1810, the loop over the stack of regions; [fuel] bounds
    its passes *)
Fixpoint d_sturm_loop (fuel : nat) (f : list d64) (chain : list (list d64))
  (regions : list dregion) (retval : list d64) : outcome (list d64) :=
  match fuel with
  | O => Fuel
  | S fu =>
      match regions with
      | [] => Ret retval
      | (xmin, xmax, roots) :: regions =>
          let xmid := d_div (d_add xmin xmax) d_two in
          if d_le (d_abs (d_sub xmin xmax)) (d_mul d_eps (d_min (d_abs xmin) (d_abs xmax))) then
            do retval <- d_extend (porder f) retval (repeat xmid roots);
            d_sturm_loop fu f chain regions retval
          else
            let ra := d_sturm_roots chain xmin xmid in
            let rb := d_sturm_roots chain xmid xmax in
            let shifted := negb (Nat.eqb (ra + rb) roots) in
            let xmid' := if shifted then d_div (d_add xmid xmax) d_two else xmid in
            let ra' := if shifted then d_sturm_roots chain xmin xmid' else ra in
            let rb' := if shifted then d_sturm_roots chain xmid' xmax else rb in
            if negb (Nat.eqb (ra' + rb') roots) then
              do retval <- d_push (porder f) retval (d_div (d_add xmin xmax) d_two);
              d_sturm_loop fu f chain regions retval
            else
              do s <- d_sturm_half f xmin xmid' ra' regions retval;
              let '(regions, retval) := s in
              do s <- d_sturm_half f xmid' xmax rb' regions retval;
              let '(regions, retval) := s in
              d_sturm_loop fu f chain regions retval
      end
  end.

(** polynomial.hpp:1725-1738 solve_real_positive_roots_poly_sturm *)
Definition d_solve_positive (fuel : nat) (f : list d64) : outcome (list d64) :=
  do max <- d_LMQ_upper f;
  do min <- d_LMQ_lower f;
  if d_gt min max then Ret []
  else
    let chain := d_sturm_chain f in
    do regions <- d_push_region (porder f) [] (min, max, d_sturm_roots chain min max);
    d_sturm_loop fuel f chain regions [].

(** polynomial.hpp:1867-1889 solve_real_roots, order 4 and above, once neither
    the constant nor the highest coefficient is zero *)
Definition d_solve_general (fuel : nat) (f : list d64) : outcome (list d64) :=
  do roots <- d_solve_positive fuel f;
  do neg <- d_solve_positive fuel (reflect_poly (H := D_num) f);
  do roots <- d_extend (porder f) roots (map d_opp neg);
  Ret (d_sort roots).

Variable prefer_bwd : d64 -> d64 -> d64 -> d64 -> bool.
Variable cbrt cos acos : d64 -> d64.

(** solve_real_roots, every order: polynomial.hpp:749-1004, 1867-1889.  [n] bounds
    the recursion on the order. *)
Fixpoint d_solve_real_roots (n fuel : nat) (f : list d64) : outcome (list d64) :=
  match n with
  | O => Ret []
  | S n' =>
      match porder f with
      | O => Ret []
      | 1 => Ret (d_solve_linear f)
      | 2 => Ret (d_solve_quadratic f)
      | 3 => do r <- d_solve_cubic prefer_bwd cbrt cos acos f; Ret (fst r)
      | _ =>
          if d_eq (dget f 0) d_zero then d_solve_real_roots n' fuel (deflate_null f)
          else if d_eq (dget f (porder f)) d_zero then
            d_solve_real_roots n' fuel (change_order (H := D_num) (porder f - 1) f)
          else d_solve_general fuel f
      end
  end.
End Bounds.
