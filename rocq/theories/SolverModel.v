(** Model of the general real root solver of polynomial.hpp:1721-1882 (orders
    four and above) and of the dispatch of solve_real_roots on the order.
    Numbers are exact reals; [eps] is the Sturm tolerance of line 1741, [prec]
    bisection's default x_precision, [veps] the rounding unit of precision(). *)
From Verif Require Export RootsModel.
Open Scope R_scope.

Inductive bounder := VCA | VAS | STURM.

(** a region (xmin, xmax, number of roots) *)
Definition region : Type := (R * R * nat)%type.

(** StackVector::push_back on the region stack; the back is the list's head *)
Definition push_region (cap : nat) (l : list region) (x : region) : outcome (list region) :=
  if Nat.ltb (length l) cap then Ret (x :: l) else UB.

Section Solver.
Variable eps prec : R.

(** polynomial.hpp:1745: the function handed to bisection *)
Definition f_bisection (f : list R) (x : R) : R := poly_eval f x.

(** polynomial.hpp:1779-1791 / 1792-1804: what happens to one half [a,b] of a
    region holding [k] roots.  The flag try_bisection of line 1743 is never set
    to false, so its else-branches are not modelled. *)
Definition sturm_half (f : list R) (a b : R) (k : nat) (regions : list region) (retval : list R)
  : outcome (list region * list R) :=
  match k with
  | O => Ret (regions, retval)
  | S O =>
      match bisection (f_bisection f) prec (Fin a) (Fin b) 0 with
      | (true, Some root, _) => do retval <- sv_push (porder f) retval root; Ret (regions, retval)
      | _ => do regions <- push_region (porder f) regions (a, b, k); Ret (regions, retval)
      end
  | _ => do regions <- push_region (porder f) regions (a, b, k); Ret (regions, retval)
  end.

(** polynomial.hpp:1747-1805: the loop over the region stack *)
Fixpoint sturm_loop (fuel : nat) (f : list R) (regions : list region) (retval : list R)
  : outcome (list R) :=
  match fuel with
  | O => Fuel
  | S fu =>
      match regions with
      | [] => Ret retval
      | (xmin, xmax, roots) :: regions =>
          let chain := sturm_chain f in
          let xmid := (xmin + xmax) / 2 in
          if negb (Rltb (eps * Rmin (Rabs xmin) (Rabs xmax)) (Rabs (xmin - xmax))) then
            do retval <- sv_extend (porder f) retval (repeat xmid roots);
            sturm_loop fu f regions retval
          else
            let ra := sturm_roots chain (Fin xmin) (Fin xmid) in
            let rb := sturm_roots chain (Fin xmid) (Fin xmax) in
            let shifted := negb (Nat.eqb (ra + rb) roots) in
            let xmid' := if shifted then (xmid + xmax) / 2 else xmid in
            let ra' := if shifted then sturm_roots chain (Fin xmin) (Fin xmid') else ra in
            let rb' := if shifted then sturm_roots chain (Fin xmid') (Fin xmax) else rb in
            if negb (Nat.eqb (ra' + rb') roots) then
              do retval <- sv_push (porder f) retval ((xmin + xmax) / 2);
              sturm_loop fu f regions retval
            else
              do s <- sturm_half f xmin xmid' ra' regions retval;
              let '(regions, retval) := s in
              do s <- sturm_half f xmid' xmax rb' regions retval;
              let '(regions, retval) := s in
              sturm_loop fu f regions retval
      end
  end.

(** polynomial.hpp:1721-1740 solve_real_positive_roots_poly_sturm.  An infinite
    upper bound or a zero/infinite lower bound other than "no roots" is outside
    the model. *)
Definition solve_positive_sturm (fuel : nat) (f : list R) : outcome (list R) :=
  do max <- LMQ_upper f;
  do min <- LMQ_lower f;
  if xltb max min then Ret []
  else
    match min, max with
    | Fin mn, Fin mx =>
        do regions <- push_region (porder f) [] (mn, mx, sturm_roots (sturm_chain f) min max);
        sturm_loop fuel f regions []
    | _, _ => UB
    end.

(** polynomial.hpp:1824-1842: bisection of every isolating interval *)
Fixpoint bisect_all (f : list R) (bounds : list interval) (retval : list R) : outcome (list R) :=
  match bounds with
  | [] => Ret (rsort retval)
  | (a, b) :: t =>
      match bisection (f_bisection f) prec a b 0 with
      | (true, Some root, _) => do retval <- sv_push (porder f) retval root; bisect_all f t retval
      | _ => Throw
      end
  end.

Variable veps : R.

(** polynomial.hpp:1813-1845 solve_real_positive_roots_poly *)
Definition solve_positive (fuel : nat) (mode : bounder) (f : list R) : outcome (list R) :=
  match mode with
  | STURM => solve_positive_sturm fuel f
  | VCA => do b <- VCA_bounds fuel f; bisect_all f (map (fun '(u, v) => (Fin u, Fin v)) b) []
  | VAS => do b <- VAS_bounds fuel veps f; bisect_all f b []
  end.

Variable ms : R.
Variable prefer_bwd : R -> R -> R -> R -> bool.

(** solve_real_roots: the overloads for orders 0 to 3 (polynomial.hpp:762-1004)
    and the general one (1856-1882), which recurses with the default bounder.
    [n] bounds the recursion; it is called with the order. *)
Fixpoint solve_real_roots (n : nat) (fuel : nat) (mode : bounder) (f : list R) : outcome (list R) :=
  match n with
  | O => Ret (solve_order0 f)
  | S n' =>
      match porder f with
      | O => Ret (solve_order0 f)
      | 1%nat => Ret (solve_linear f)
      | 2%nat => Ret (solve_quadratic ms f)
      | 3%nat => solve_cubic ms prefer_bwd prec f
      | _ =>
          if Reqb (get f 0) 0 then solve_real_roots n' fuel STURM (deflate_null f)
          else if Reqb (get f (porder f)) 0 then
            solve_real_roots n' fuel STURM (change_order (porder f - 1) f)
          else
            do roots <- solve_positive fuel mode f;
            do neg <- solve_positive fuel mode (reflect_poly f);
            do roots <- sv_extend (porder f) roots (map Ropp neg);
            Ret (rsort roots)
      end
  end.
End Solver.
