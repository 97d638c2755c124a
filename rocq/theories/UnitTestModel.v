(** Model of the test harness stator/unit_test.hpp (the variant without Google
    Test, lines 47-168).

    A test is what it does: a sequence of checks, each of which holds or not, and
    then it ends, normally or with an exception.  The texts written to the
    standard streams are not modelled. *)
From Coq Require Import List ZArith Reals Bool.
From Verif Require Import Outcome.
Import ListNotations.

(** how the callback of a test ends *)
Inductive ending := Returns | StdException | OtherException.
Record test := { checks : list bool; ending_of : ending }.

(** _error_counter is a size_t *)
Definition size_mod : N := 18446744073709551616.
Definition bump (n : N) : N := N.modulo (n + 1) size_mod.

(** check / check_equal / check_close / check_small / error (91-133): a check that
    does not hold increments the counter, and the test goes on. *)
Definition run_checks (cs : list bool) (n : N) : N :=
  fold_left (fun n c => if (c : bool) then n else bump n) cs n.

(** run_tests (63-88).  [inl n]: the loop ended with n errors; [inr n]: an
    exception that is not a std::exception left run_tests.  The second component
    counts the tests that were started. *)
Fixpoint run_loop (ts : list test) (n : N) (started : nat) : (N + N) * nat :=
  match ts with
  | [] => (inl n, started)
  | t :: rest =>
      let n := run_checks (checks t) n in
      match ending_of t with
      | Returns => run_loop rest n (S started)
      | StdException => (inl (bump n), S started)
      | OtherException => (inr n, S started)
      end
  end.

(** main (158-165): what the process does *)
Inductive exit_status := Exit (code : N) | Terminated.
Definition main_result (ts : list test) : exit_status :=
  match fst (run_loop ts 0 0) with
  | inl n => Exit (if N.ltb 0 n then 1 else 0)
  | inr _ => Terminated
  end.
Definition started (ts : list test) : nat := snd (run_loop ts 0 0).

(** ** Floating point values: reals, infinities and NaN, without rounding *)
Inductive dbl := NaN | PosInf | NegInf | Num (x : R).
Open Scope R_scope.
Definition d_sub (a b : dbl) : dbl :=
  match a, b with
  | NaN, _ | _, NaN => NaN
  | Num x, Num y => Num (x - y)
  | PosInf, PosInf | NegInf, NegInf => NaN
  | PosInf, _ | _, NegInf => PosInf
  | NegInf, _ | _, PosInf => NegInf
  end.
Definition d_abs (a : dbl) : dbl := match a with NaN => NaN | PosInf | NegInf => PosInf | Num x => Num (Rabs x) end.
(** division of non-negative values (the only ones that occur) *)
Definition d_div (a b : dbl) : dbl :=
  match a, b with
  | NaN, _ | _, NaN => NaN
  | Num x, Num y => if Req_EM_T y 0 then (if Req_EM_T x 0 then NaN else PosInf) else Num (x / y)
  | PosInf, Num _ => PosInf
  | Num _, _ => Num 0
  | _, _ => NaN
  end.
Definition d_lt (a b : dbl) : bool :=
  match a, b with
  | NaN, _ | _, NaN => false
  | Num x, Num y => if Rlt_dec x y then true else false
  | NegInf, NegInf => false
  | NegInf, _ => true
  | Num _, PosInf => true
  | _, _ => false
  end.
Definition d_le (a b : dbl) : bool :=
  match a, b with
  | NaN, _ | _, NaN => false
  | Num x, Num y => if Rle_dec x y then true else false
  | NegInf, _ => true
  | _, PosInf => true
  | _, _ => false
  end.
(** std::max(a, b) is (a < b) ? b : a *)
Definition d_max (a b : dbl) : dbl := if d_lt a b then b else a.
Definition d_is0 (a : dbl) : bool := match a with Num x => if Req_EM_T x 0 then true else false | _ => false end.

(** check_close (107-119), check_small (122-127), check_equal (91-96) on doubles:
    does the check hold? *)
Definition check_close (l r tol : dbl) : bool :=
  let difference := d_max (d_div (d_abs (d_sub l r)) (d_abs l)) (d_div (d_abs (d_sub l r)) (d_abs r)) in
  let difference := if d_is0 l then d_abs r else difference in
  d_le difference tol.
Definition check_small (l tol : dbl) : bool := d_le (d_abs l) (d_abs tol).
