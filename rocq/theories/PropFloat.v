(** C67 to C69: numeric.hpp and the solvers by radicals in double arithmetic. *)
From Coq Require Import Lia Lra NArith.
From Flocq Require Import Core Binary Bits Plus_error.
From Verif Require Import FloatModel FloatSpec FloatProofs.
Open Scope R_scope.

(* ------------------------------------------------------------------ *)
(** ** C67: bisection on doubles *)

(** what stops the search: a computed zero, two adjacent doubles with a sign
    change between them, or the requested precision (measured, as C22_precision_refuted
    explains, from an end point of the original interval) *)
Definition stops_well (f : d64 -> d64) (prec lo hi x : d64) : Prop :=
  d_eq (f x) d_zero = true \/
  (exists u v, within lo hi u /\ within lo hi v /\ dR u < dR v /\ adjacent u v /\
     d_signbit (f u) <> d_signbit (f v) /\ (dR x = dR u \/ dR x = dR v)) \/
  (exists e, (e = lo \/ e = hi) /\ d_lt (d_abs (d_sub x e)) (d_abs (d_mul prec x)) = true).

Lemma d_bisect_loop_spec : forall (f : d64 -> d64) (prec lo0 hi0 x0 : d64),
  Rabs (dR lo0) < bpow radix2 1023 -> Rabs (dR hi0) < bpow radix2 1023 ->
  x0 = lo0 \/ x0 = hi0 ->
  forall n (lo hi fh : d64) (trace : list d64) j,
  within lo0 hi0 lo -> within lo0 hi0 hi -> dR lo < dR hi ->
  d_signbit fh = d_signbit (f hi) -> d_signbit (f lo) <> d_signbit (f hi) ->
  Forall (within lo0 hi0) trace -> length trace = (2 + j)%nat ->
  dR hi - dR lo <= (3 / 4) ^ j * bpow radix2 1024 ->
  (exists x tr, d_bisect_loop n f prec x0 lo hi fh trace = (true, x, x :: tr) /\
    Forall (within lo0 hi0) (x :: tr) /\ stops_well f prec lo0 hi0 x /\
    (Z.of_nat (length (x :: tr)) <= 5057)%Z /\ (length (x :: tr) <= 2 + j + n)%nat) \/
  (exists tr, d_bisect_loop n f prec x0 lo hi fh trace = (false, x0, tr) /\
    Forall (within lo0 hi0) tr /\ length tr = (2 + j + n)%nat /\ (Z.of_nat (j + n) <= 5054)%Z).
Proof.
  intros f prec lo0 hi0 x0 B1 B2 Hx0.
  induction n as [|n IH]; intros lo hi fh trace j Wl Wh Hlt Hfh Hs Ht Hlen Hw.
  { right. exists trace. split; [reflexivity|]. split; [assumption|].
    split; [lia|]. replace (j + 0)%nat with j by lia.
    exact (pass_bound j (dR lo) (dR hi) (dR_fmt lo) (dR_fmt hi) Hlt Hw). }
  pose proof (pass_bound j (dR lo) (dR hi) (dR_fmt lo) (dR_fmt hi) Hlt Hw) as Hj.
  cbn [d_bisect_loop]. fold (d_mid lo hi).
  assert (Bl : Rabs (dR lo) < bpow radix2 1023).
  { destruct Wl as (_ & L1 & L2). apply Rabs_lt. apply Rabs_lt_inv in B1. apply Rabs_lt_inv in B2. lra. }
  assert (Bh : Rabs (dR hi) < bpow radix2 1023).
  { destruct Wh as (_ & L1 & L2). apply Rabs_lt. apply Rabs_lt_inv in B1. apply Rabs_lt_inv in B2. lra. }
  destruct (mid_fin lo hi (proj1 Wl) (proj1 Wh) Hlt Bl Bh) as (Fm & Em & Lm1 & Lm2).
  pose proof (mid_strict lo hi (proj1 Wl) (proj1 Wh) Hlt Bl Bh) as St.
  pose proof (mid_shrinks lo hi (proj1 Wl) (proj1 Wh) Hlt Bl Bh) as Sh.
  set (m := d_mid lo hi) in *.
  assert (Wm : within lo0 hi0 m).
  { destruct Wl as (_ & L1 & L2), Wh as (_ & L3 & L4). split; [exact Fm|lra]. }
  assert (Adj : dR m = dR lo \/ dR m = dR hi -> adjacent lo hi).
  { intros H y Fy Hy. destruct (St (ex_intro _ (dR y) (conj (dR_fmt y) Hy))). lra. }
  assert (Stop : stops_well f prec lo0 hi0 m ->
    (exists x tr, (true, m, m :: trace) = (true, x, x :: tr) /\
      Forall (within lo0 hi0) (x :: tr) /\ stops_well f prec lo0 hi0 x /\
      (Z.of_nat (length (x :: tr)) <= 5057)%Z /\ (length (x :: tr) <= 2 + j + S n)%nat)).
  { intros W. exists m, trace. split; [reflexivity|]. split; [constructor; assumption|]. split; [exact W|].
    cbn [length]. rewrite Hlen. split; lia. }
  destruct (d_lt (d_abs (d_sub m x0)) (d_abs (d_mul prec m))) eqn:E1; cbn [orb].
  { left. apply Stop. right. right. exists x0. split; assumption. }
  destruct (d_eq (f m) d_zero) eqn:E2; cbn [orb].
  { left. apply Stop. left. exact E2. }
  destruct (d_eq m lo) eqn:E3; cbn [orb].
  { apply d_eq_fin in E3; [|exact Fm|apply Wl].
    left. apply Stop. right. left. exists lo, hi. repeat (split; [assumption|]). split; [apply Adj; left; exact E3|].
    split; [exact Hs|left; exact E3]. }
  destruct (d_eq m hi) eqn:E4; cbn [orb].
  { apply d_eq_fin in E4; [|exact Fm|apply Wh].
    left. apply Stop. right. left. exists lo, hi. repeat (split; [assumption|]). split; [apply Adj; right; exact E4|].
    split; [exact Hs|right; exact E4]. }
  assert (N3 : dR m <> dR lo).
  { intros H. apply (d_eq_fin m lo Fm (proj1 Wl)) in H. congruence. }
  assert (N4 : dR m <> dR hi).
  { intros H. apply (d_eq_fin m hi Fm (proj1 Wh)) in H. congruence. }
  specialize (Sh ltac:(lra)). apply Rabs_le_inv in Sh.
  assert (Hp : 3 / 4 * (dR hi - dR lo) <= (3 / 4) ^ S j * bpow radix2 1024).
  { cbn [pow]. rewrite Rmult_assoc. apply Rmult_le_compat_l; lra. }
  replace (2 + j + S n)%nat with (2 + S j + n)%nat by lia.
  replace (j + S n)%nat with (S j + n)%nat by lia.
  destruct (Bool.eqb (d_signbit (f m)) (d_signbit fh)) eqn:E5.
  - apply Bool.eqb_prop in E5. apply IH; try assumption;
      [lra|reflexivity| |constructor; assumption|cbn [length]; lia|lra].
    rewrite E5, Hfh. exact Hs.
  - apply Bool.eqb_false_iff in E5. apply IH; try assumption;
      [lra| |constructor; assumption|cbn [length]; lia|lra].
    rewrite <- Hfh. exact E5.
Qed.

(** every iteration count: the answer, the points where f is evaluated, and how
    many of them there can be *)
Theorem C67_iterations : forall (f : d64 -> d64) (prec lo hi : d64) (iterations : N),
  fin lo -> fin hi -> dR lo < dR hi ->
  Rabs (dR lo) < bpow radix2 1023 -> Rabs (dR hi) < bpow radix2 1023 ->
  d_signbit (f lo) <> d_signbit (f hi) -> iterations <> 0%N ->
  exists ok x trace, d_bisection f prec lo hi iterations = (ok, Some x, trace) /\
    In x trace /\ Forall (within lo hi) trace /\
    (N.of_nat (length trace) <= N.min (iterations + 1) 5057)%N /\
    (ok = true -> stops_well f prec lo hi x) /\
    (ok = false -> N.of_nat (length trace) = (iterations + 1)%N /\ (iterations < 5056)%N).
Proof.
  intros f prec lo hi it Fl Fh Hlt B1 B2 Hs Hit. unfold d_bisection.
  assert (G : d_ge lo hi = false).
  { destruct (d_ge lo hi) eqn:G; [|reflexivity]. apply d_ge_fin in G; [lra|assumption..]. }
  rewrite G, !fin_not_inf by assumption. cbn [orb].
  apply Bool.eqb_false_iff in Hs. rewrite Hs. apply Bool.eqb_false_iff in Hs.
  assert (Wl : within lo hi lo) by (split; [assumption|lra]).
  assert (Wh : within lo hi hi) by (split; [assumption|lra]).
  assert (Eit : d_iterations it = it) by (destruct it; [congruence|reflexivity]).
  rewrite Eit.
  set (x0 := (if d_lt (d_abs (f lo)) (d_abs (f hi)) then lo else hi) : d64).
  assert (Hx0 : x0 = lo \/ x0 = hi) by (unfold x0; destruct (d_lt _ _); auto).
  assert (Hw : dR hi - dR lo <= (3 / 4) ^ 0 * bpow radix2 1024).
  { cbn [pow]. apply Rabs_lt_inv in B1. apply Rabs_lt_inv in B2.
    replace (bpow radix2 1024) with (2 * bpow radix2 1023)
      by (change 1024%Z with (1 + 1023)%Z; rewrite bpow_plus; reflexivity). lra. }
  cbv zeta.
  destruct (d_bisect_loop_spec f prec lo hi x0 B1 B2 Hx0
              (N.to_nat (N.pred it)) lo hi (f hi) [hi; lo] 0 Wl Wh Hlt eq_refl Hs)
    as [(x & tr & E & W & St & L1 & L2)|(tr & E & W & L1 & L2)]; try assumption; try reflexivity.
  { repeat constructor; assumption. }
  - rewrite E. exists true, x, (x :: tr). split; [reflexivity|]. split; [left; reflexivity|].
    split; [exact W|]. split; [lia|]. split; [intros _; exact St|discriminate].
  - rewrite E. exists false, x0, tr. split; [reflexivity|].
    assert (I : In hi tr /\ In lo tr).
    { clear - E.
      assert (T : forall n l h fh (trace : list d64), d_bisect_loop n f prec x0 l h fh trace = (false, x0, tr) ->
                 incl trace tr).
      { induction n as [|n IH]; intros l h fh trace E'.
        - cbn in E'. injection E' as <-. apply incl_refl.
        - cbn [d_bisect_loop] in E'. cbv zeta in E'.
          destruct (d_lt _ _ || _ || _ || _)%bool; [discriminate|].
          destruct (Bool.eqb _ _); apply IH in E'; apply incl_cons_inv in E'; apply E'. }
      apply T in E. split; apply E; cbn; auto. }
    split; [destruct Hx0 as [-> | ->]; apply I|].
    split; [exact W|]. split; [lia|]. split; [discriminate|]. intros _. lia.
Qed.

(** by default (iterations = 0) it always succeeds, after at most 5057
    evaluations of f *)
Theorem C67_bisection : forall (f : d64 -> d64) (prec lo hi : d64),
  fin lo -> fin hi -> dR lo < dR hi ->
  Rabs (dR lo) < bpow radix2 1023 -> Rabs (dR hi) < bpow radix2 1023 ->
  d_signbit (f lo) <> d_signbit (f hi) ->
  exists x trace, d_bisection f prec lo hi 0 = (true, Some x, trace) /\
    In x trace /\ Forall (within lo hi) trace /\ (N.of_nat (length trace) <= 5057)%N /\
    stops_well f prec lo hi x.
Proof.
  intros f prec lo hi Fl Fh Hlt B1 B2 Hs.
  assert (E : d_bisection f prec lo hi 0 = d_bisection f prec lo hi (2 ^ 64 - 1)) by reflexivity.
  rewrite E.
  destruct (C67_iterations f prec lo hi (2 ^ 64 - 1) Fl Fh Hlt B1 B2 Hs ltac:(discriminate))
    as (ok & x & tr & E' & I & W & L & T & Fa).
  destruct ok.
  - exists x, tr. split; [exact E'|]. split; [exact I|]. split; [exact W|]. split; [lia|apply T; reflexivity].
  - destruct (Fa eq_refl). lia.
Qed.

(** invalid intervals are refused: not increasing, infinite, or no sign change *)
Theorem C67_refuses : forall (f : d64 -> d64) (prec lo hi : d64) iterations,
  d_isnan lo = false -> d_isnan hi = false ->
  (~ (fin lo /\ fin hi /\ dR lo < dR hi) \/ d_signbit (f lo) = d_signbit (f hi)) ->
  exists trace, d_bisection f prec lo hi iterations = (false, None, trace).
Proof.
  intros f prec lo hi it Nl Nh H. unfold d_bisection.
  destruct (d_isinf lo) eqn:Il; [rewrite Bool.orb_true_r; exists []; reflexivity|].
  destruct (d_isinf hi) eqn:Ih; [rewrite !Bool.orb_true_r; exists []; reflexivity|].
  assert (Fl : fin lo) by (destruct lo; try discriminate; reflexivity).
  assert (Fh : fin hi) by (destruct hi; try discriminate; reflexivity).
  destruct (d_ge lo hi) eqn:G; cbn [orb]; [eauto|].
  assert (L : dR lo < dR hi).
  { apply Rnot_le_lt. intros L. apply (d_ge_fin lo hi Fl Fh) in L. congruence. }
  destruct H as [H|H]; [exfalso; apply H; repeat split; assumption|].
  rewrite H, Bool.eqb_reflx. eauto.
Qed.

(** Beyond 2^1023 the sum of the end points overflows: an interval of finite
    doubles containing the root 2^1023 of x - 2^1023, and bisection reports success with
    x = +infinity. *)
Theorem C67_overflow_refuted : exists (f : d64 -> d64) (lo hi x : d64) trace,
  fin lo /\ fin hi /\ dR lo < dR hi /\ d_signbit (f lo) <> d_signbit (f hi) /\
  (forall a, f a = d_sub a (d_lit 1 1023)) /\
  d_bisection f d_default_precision lo hi 0 = (true, Some x, trace) /\ ~ fin x.
Proof.
  set (f := fun a => d_sub a (d_lit 1 1023)).
  set (lo := d_lit 3 1021). set (hi := d_max).
  exists f, lo, hi, (d_inf false), [d_inf false; d_inf false; hi; lo].
  assert (L : forall n, d_bisect_loop (S (S n)) f d_default_precision
            (if d_lt (d_abs (f lo)) (d_abs (f hi)) then lo else hi) lo hi (f hi) [hi; lo]
            = (true, d_inf false, [d_inf false; d_inf false; hi; lo])).
  { intros n. cbn [d_bisect_loop].
    assert (M1 : d_div (d_add lo hi) d_two = d_inf false) by (vm_compute; reflexivity).
    assert (M2 : d_div (d_add lo (d_inf false)) d_two = d_inf false) by (vm_compute; reflexivity).
    rewrite !M1, !M2.
    match goal with |- (if ?c then _ else if ?d then (if ?e then _ else _) else _) = _ =>
      assert (C1 : c = false) by (vm_compute; reflexivity);
      assert (C2 : d = true) by (vm_compute; reflexivity);
      assert (C3 : e = true) by (vm_compute; reflexivity) end.
    rewrite C1, C2, C3. reflexivity. }
  split; [vm_compute; reflexivity|]. split; [vm_compute; reflexivity|]. split.
  { apply (d_lt_fin lo hi); vm_compute; reflexivity. }
  split; [vm_compute; discriminate|]. split; [reflexivity|]. split; [|discriminate].
  unfold d_bisection.
  replace (d_ge lo hi || d_isinf lo || d_isinf hi)%bool with false by (vm_compute; reflexivity).
  replace (Bool.eqb (d_signbit (f lo)) (d_signbit (f hi))) with false by (vm_compute; reflexivity).
  replace (N.to_nat (N.pred (d_iterations 0)))
    with (S (S (N.to_nat (N.pred (N.pred (N.pred (d_iterations 0))))))).
  - cbv beta iota zeta. rewrite L. reflexivity.
  - rewrite <- !N2Nat.inj_succ. f_equal.
Qed.

(** x*x - 2 on [1,2] *)
Example C67_ex : exists x trace,
  d_bisection (fun a => d_sub (d_mul a a) d_two) d_default_precision d_one d_two 0
    = (true, Some x, trace) /\ In x trace /\ Forall (within d_one d_two) trace /\
  (N.of_nat (length trace) <= 5057)%N /\
  stops_well (fun a => d_sub (d_mul a a) d_two) d_default_precision d_one d_two x.
Proof.
  assert (E1 : dR d_one = 1) by (unfold dR; vm_compute; lra).
  pose proof d_two_R as E2.
  assert (B : 2 < bpow radix2 1023) by (change 2 with (bpow radix2 1); apply bpow_lt; lia).
  apply C67_bisection; rewrite ?E1, ?E2, ?Rabs_pos_eq; try lra; vm_compute; try reflexivity; discriminate.
Qed.

(* ------------------------------------------------------------------ *)
(** ** C68: Newton and Halley on doubles *)

Lemma nan_add_l a b : d_isnan a = true -> d_isnan (d_add a b) = true.
Proof. destruct a; try discriminate; intros _; destruct b; reflexivity. Qed.
Lemma nan_add_r a b : d_isnan b = true -> d_isnan (d_add a b) = true.
Proof. destruct b; try discriminate; intros _; destruct a; reflexivity. Qed.
Lemma nan_sub_l a b : d_isnan a = true -> d_isnan (d_sub a b) = true.
Proof. destruct a; try discriminate; intros _; destruct b; reflexivity. Qed.
Lemma nan_sub_r a b : d_isnan b = true -> d_isnan (d_sub a b) = true.
Proof. destruct b; try discriminate; intros _; destruct a; reflexivity. Qed.
Lemma nan_mul_l a b : d_isnan a = true -> d_isnan (d_mul a b) = true.
Proof. destruct a; try discriminate; intros _; destruct b; reflexivity. Qed.
Lemma nan_mul_r a b : d_isnan b = true -> d_isnan (d_mul a b) = true.
Proof. destruct b; try discriminate; intros _; destruct a; reflexivity. Qed.
Lemma nan_div_l a b : d_isnan a = true -> d_isnan (d_div a b) = true.
Proof. destruct a; try discriminate; intros _; destruct b; reflexivity. Qed.
Lemma nan_abs a : d_isnan a = true -> d_isnan (d_abs a) = true.
Proof. destruct a; try discriminate; intros _; reflexivity. Qed.
Lemma nan_opp a : d_isnan a = true -> d_isnan (d_opp a) = true.
Proof. destruct a; try discriminate; intros _; reflexivity. Qed.
Lemma nan_cmp_l a b : d_isnan a = true -> b64_compare a b = None.
Proof. destruct a; try discriminate; intros _; destruct b; reflexivity. Qed.
Lemma nan_cmp_r a b : d_isnan b = true -> b64_compare a b = None.
Proof. destruct b; try discriminate; intros _; destruct a; try reflexivity; destruct s0; reflexivity. Qed.
Lemma nan_lt_l a b : d_isnan a = true -> d_lt a b = false.
Proof. intros H. unfold d_lt. rewrite nan_cmp_l by exact H. reflexivity. Qed.
Lemma nan_lt_r a b : d_isnan b = true -> d_lt a b = false.
Proof. intros H. unfold d_lt. rewrite nan_cmp_r by exact H. reflexivity. Qed.
Lemma nan_eq_l a b : d_isnan a = true -> d_eq a b = false.
Proof. intros H. unfold d_eq. rewrite nan_cmp_l by exact H. reflexivity. Qed.
Lemma nan_eq_r a b : d_isnan b = true -> d_eq a b = false.
Proof. intros H. unfold d_eq. rewrite nan_cmp_r by exact H. reflexivity. Qed.
Lemma nan_le_l a b : d_isnan a = true -> d_le a b = false.
Proof. intros H. unfold d_le. rewrite nan_lt_l, nan_eq_l by exact H. reflexivity. Qed.
Lemma nan_le_r a b : d_isnan b = true -> d_le a b = false.
Proof. intros H. unfold d_le. rewrite nan_lt_r, nan_eq_r by exact H. reflexivity. Qed.

(** once x and the values at x are NaNs, every pass is a "successful" Newton
    step to a NaN *)
Definition all_nan (f : d64 -> list d64) : Prop :=
  forall y i, d_isnan y = true -> (i < 3)%nat -> d_isnan (dget (f y) i) = true.

Lemma nan_newton_step f prec s : all_nan f -> d_isnan (ds_x s) = true ->
  ds_cur s = f (ds_x s) ->
  exists s', d_newton_step f prec s = (DStepped, s') /\ d_isnan (ds_x s') = true /\
    ds_cur s' = f (ds_x s').
Proof.
  intros Hf Hx Hc. unfold d_newton_step. rewrite Hc.
  rewrite nan_eq_l by (apply Hf; [exact Hx|lia]).
  set (y := d_sub (ds_x s) _). assert (Ny : d_isnan y = true) by (apply nan_sub_l; exact Hx).
  unfold d_process, d_ge. rewrite nan_le_r, nan_le_l by exact Ny. cbn [orb].
  rewrite nan_lt_l by (apply nan_abs, nan_sub_l, Ny).
  rewrite nan_eq_l by (apply Hf; [exact Ny|lia]). cbn [orb].
  unfold d_gt. rewrite nan_lt_r by (apply nan_abs, Hf; [exact Ny|lia]).
  eexists. split; [reflexivity|]. split; [exact Ny|reflexivity].
Qed.

Lemma nan_halley_fails f prec s : all_nan f -> d_isnan (ds_x s) = true ->
  ds_cur s = f (ds_x s) -> d_halley_step f prec s = (DFailed, s).
Proof.
  intros Hf Hx Hc. unfold d_halley_step. rewrite Hc.
  set (den := d_sub _ _).
  assert (Nd : d_isnan den = true).
  { apply nan_sub_l, nan_mul_r, Hf; [exact Hx|lia]. }
  replace (d_isfinite den) with false by (unfold d_isfinite; destruct den; try discriminate Nd; reflexivity).
  cbn [negb]. rewrite Bool.orb_true_r. reflexivity.
Qed.

Lemma nan_loop f prec (step : dstate -> dstatus * dstate) : all_nan f ->
  (forall s, d_isnan (ds_x s) = true -> ds_cur s = f (ds_x s) -> step s = d_newton_step f prec s) ->
  forall n s k, d_isnan (ds_x s) = true -> ds_cur s = f (ds_x s) ->
  exists s', d_iterate n step s k = (false, s', (k + N.of_nat n)%N) /\ d_isnan (ds_x s') = true.
Proof.
  intros Hf Hstep. induction n as [|n IH]; intros s k Hx Hc.
  { exists s. cbn. rewrite N.add_0_r. auto. }
  cbn [d_iterate]. rewrite Hstep by assumption.
  destruct (nan_newton_step f prec s Hf Hx Hc) as (s' & E & Nx & Ec). rewrite E.
  destruct (IH s' (N.succ k) Nx Ec) as (s'' & E2 & N2). exists s''. split; [|exact N2].
  rewrite E2. f_equal. lia.
Qed.

Lemma newton_nan_step f prec s : all_nan f -> d_isnan (ds_x s) = true -> ds_cur s = f (ds_x s) ->
  d_or_else (d_newton_step f prec) (d_bisection_step f prec) s = d_newton_step f prec s.
Proof.
  intros Hf Hx Hc. unfold d_or_else.
  destruct (nan_newton_step f prec s Hf Hx Hc) as (s' & E & _). rewrite E. reflexivity.
Qed.
Lemma halley_nan_step f prec s : all_nan f -> d_isnan (ds_x s) = true -> ds_cur s = f (ds_x s) ->
  d_or_else (d_halley_step f prec) (d_or_else (d_newton_step f prec) (d_bisection_step f prec)) s
  = d_newton_step f prec s.
Proof.
  intros Hf Hx Hc. unfold d_or_else at 1. rewrite nan_halley_fails by assumption.
  apply newton_nan_step; assumption.
Qed.

(** x^3 and its derivatives *)
Definition cube (x : d64) : list d64 :=
  [d_mul (d_mul x x) x; d_mul (d_mul (d_lit 3 0) x) x; d_mul (d_lit 6 0) x].

Lemma cube_nan : all_nan cube.
Proof.
  intros y i Hy Hi. destruct i as [|[|[|i]]]; [| | |lia]; cbn [dget nth cube];
    apply nan_mul_r; exact Hy.
Qed.

(** a Newton step that computes a NaN is accepted *)
Lemma newton_to_nan f prec s : all_nan f ->
  d_eq (dget (ds_cur s) 1) d_zero = false ->
  d_isnan (d_sub (ds_x s) (d_div (dget (ds_cur s) 0) (dget (ds_cur s) 1))) = true ->
  exists s', d_newton_step f prec s = (DStepped, s') /\ d_isnan (ds_x s') = true /\
    ds_cur s' = f (ds_x s').
Proof.
  intros Hf H1 Ny. unfold d_newton_step. rewrite H1.
  set (y := d_sub (ds_x s) _) in *.
  unfold d_process, d_ge. rewrite nan_le_r, nan_le_l by exact Ny. cbn [orb].
  rewrite nan_lt_l by (apply nan_abs, nan_sub_l, Ny).
  rewrite nan_eq_l by (apply Hf; [exact Ny|lia]). cbn [orb].
  unfold d_gt. rewrite nan_lt_r by (apply nan_abs, Hf; [exact Ny|lia]).
  eexists. split; [reflexivity|]. split; [exact Ny|reflexivity].
Qed.

Lemma passes_default : N.to_nat (N.pred (d_iterations 0)) = S (N.to_nat (2 ^ 64 - 3)).
Proof. rewrite <- N2Nat.inj_succ. f_equal. Qed.

Lemma newton_hangs f prec x lo hi : all_nan f ->
  d_eq (dget (f x) 0) d_zero = false -> d_eq (dget (f x) 1) d_zero = false ->
  d_isnan (d_sub x (d_div (dget (f x) 0) (dget (f x) 1))) = true ->
  exists s, d_newton_raphson f prec x lo hi 0 = (false, s, (2 ^ 64 - 2)%N) /\ d_isnan (ds_x s) = true.
Proof.
  intros Hf H0 H1 Hn. unfold d_newton_raphson. cbn [ds_cur]. rewrite H0, passes_default.
  set (s0 := {| ds_x := x; ds_lo := lo; ds_hi := hi; ds_cur := f x |}).
  cbn [d_iterate]. unfold d_or_else at 1.
  destruct (newton_to_nan f prec s0 Hf H1 Hn) as (s1 & E1 & Nx & Ec). rewrite E1.
  destruct (nan_loop f prec _ Hf (fun s => newton_nan_step f prec s Hf) (N.to_nat (2 ^ 64 - 3)) s1 (N.succ 0) Nx Ec)
    as (s2 & E2 & N2).
  exists s2. split; [|exact N2]. rewrite E2, N2Nat.id. reflexivity.
Qed.

(** Halley's method: the same as soon as its own step fails *)
Lemma halley_hangs f prec x lo hi : all_nan f ->
  (d_isnan x = true \/
   d_eq (dget (f x) 0) d_zero = false /\ d_eq (dget (f x) 1) d_zero = false /\
   d_isnan (d_sub (d_mul (d_mul d_two (dget (f x) 1)) (dget (f x) 1)) (d_mul (dget (f x) 0) (dget (f x) 2))) = true /\
   d_isnan (d_sub x (d_div (dget (f x) 0) (dget (f x) 1))) = true) ->
  exists s, d_halleys_method f prec x lo hi 0 = (false, s, (2 ^ 64 - 2)%N) /\ d_isnan (ds_x s) = true.
Proof.
  intros Hf H. unfold d_halleys_method. cbn [ds_cur].
  set (s0 := {| ds_x := x; ds_lo := lo; ds_hi := hi; ds_cur := f x |}).
  destruct H as [Hx|(H0 & H1 & Hd & Hn)].
  - rewrite nan_eq_l by (apply Hf; [exact Hx|lia]).
    destruct (nan_loop f prec _ Hf (fun s => halley_nan_step f prec s Hf)
                (N.to_nat (N.pred (d_iterations 0))) s0 0%N Hx eq_refl) as (s2 & E2 & N2).
    exists s2. split; [|exact N2]. rewrite E2, N2Nat.id. reflexivity.
  - rewrite H0, passes_default. cbn [d_iterate]. unfold d_or_else at 1.
    assert (Eh : d_halley_step f prec s0 = (DFailed, s0)).
    { unfold d_halley_step. cbn [ds_cur s0]. set (den := d_sub _ _) in *.
      replace (d_isfinite den) with false by (unfold d_isfinite; destruct den; try discriminate Hd; reflexivity).
      cbn [negb]. rewrite Bool.orb_true_r. reflexivity. }
    rewrite Eh. unfold d_or_else at 1.
    destruct (newton_to_nan f prec s0 Hf H1 Hn) as (s1 & E1 & Nx & Ec). rewrite E1.
    destruct (nan_loop f prec _ Hf (fun s => halley_nan_step f prec s Hf) (N.to_nat (2 ^ 64 - 3)) s1 (N.succ 0) Nx Ec)
      as (s2 & E2 & N2).
    exists s2. split; [|exact N2]. rewrite E2, N2Nat.id. reflexivity.
Qed.

Definition hangs_at (f : d64 -> list d64) (x : d64) : bool :=
  (d_isnan x ||
   (negb (d_eq (dget (f x) 0) d_zero) && negb (d_eq (dget (f x) 1) d_zero) &&
    d_isnan (d_sub (d_mul (d_mul d_two (dget (f x) 1)) (dget (f x) 1)) (d_mul (dget (f x) 0) (dget (f x) 2))) &&
    d_isnan (d_sub x (d_div (dget (f x) 0) (dget (f x) 1)))))%bool.
Lemma hangs_at_spec f x : hangs_at f x = true ->
  d_isnan x = true \/
  d_eq (dget (f x) 0) d_zero = false /\ d_eq (dget (f x) 1) d_zero = false /\
  d_isnan (d_sub (d_mul (d_mul d_two (dget (f x) 1)) (dget (f x) 1)) (d_mul (dget (f x) 0) (dget (f x) 2))) = true /\
  d_isnan (d_sub x (d_div (dget (f x) 0) (dget (f x) 1))) = true.
Proof.
  unfold hangs_at. intros H. apply Bool.orb_true_iff in H. destruct H as [H|H]; [left; exact H|right].
  apply Bool.andb_true_iff in H. destruct H as (H & H4).
  apply Bool.andb_true_iff in H. destruct H as (H & H3).
  apply Bool.andb_true_iff in H. destruct H as (H1 & H2).
  apply Bool.negb_true_iff in H1. apply Bool.negb_true_iff in H2. auto.
Qed.

(** Started at 2^700, where x^3 overflows although x does not, the safeguarded
    Newton iteration computes infinity/infinity, accepts the NaN as its next
    point (both bound tests are false) and then makes every remaining pass of
    its 2^64 - 2, on an interval of finite doubles around the root. *)
Theorem C68_newton_nan_refuted : forall prec,
  exists s, d_newton_raphson cube prec (d_lit 1 700) (d_lit (-1) 800) (d_lit 1 800) 0
            = (false, s, (2 ^ 64 - 2)%N) /\ d_isnan (ds_x s) = true.
Proof. intros prec. apply newton_hangs; [exact cube_nan|vm_compute; reflexivity..]. Qed.

(** deflation of a cubic *)
Lemma deflate_cubic prefer a0 a1 a2 a3 root : d_eq root d_zero = false ->
  exists p, deflate_polynomial (H := D_num) prefer [a0; a1; a2; a3] root =
    Ret [d_div (d_opp a0) root;
         if (p : bool) then d_div (d_sub (d_div (d_opp a0) root) a1) root
         else d_add a2 (d_mul root a3);
         a3].
Proof.
  intros H. unfold deflate_polynomial. cbn [neqb n0 D_num]. rewrite H.
  exists (prefer d_zero a1 a2 (d_mul root a3)).
  lazy -[d_add d_sub d_mul d_div d_opp d_eq d_zero].
  destruct (prefer _ _ _ _); reflexivity.
Qed.

Lemma eval3_nan a0 a1 a2 a3 : all_nan (fun x => eval_derivatives (H := D_num) 2 [a0; a1; a2; a3] x).
Proof.
  intros y i Hy Hi.
  destruct i as [|[|[|i]]]; [| | |lia];
    lazy -[d_add d_sub d_mul d_div d_opp d_eq d_zero d_one d_isnan].
  - apply nan_add_l, nan_mul_r, Hy.
  - apply nan_add_l, nan_mul_r, Hy.
  - apply nan_mul_l, nan_add_l, nan_mul_r, Hy.
Qed.

(** 2^-1000 x^3 + 2^1000 x^2 + x + 1: four finite coefficients, and one of the
    calls of halleys_method makes 2^64 - 2 passes: solve_real_roots does not return in
    any practical sense.  This is so for every outcome of the choice inside
    deflate_polynomial and whatever cbrt, cos and acos compute. *)
Theorem C68_cubic_hang_refuted : forall prefer cbrt cos acos,
  exists roots passes,
  d_solve_cubic prefer cbrt cos acos [d_one; d_one; d_lit 1 1000; d_lit 1 (-1000)] = Ret (roots, passes) /\
  (2 ^ 64 - 2 <= passes)%N.
Proof.
  intros prefer cbrt cos acos. unfold d_solve_cubic.
  set (fo := [d_one; d_one; d_lit 1 1000; d_lit 1 (-1000)]).
  replace (d_eq (dget fo 3) d_zero) with false by (vm_compute; reflexivity).
  replace (d_eq (dget fo 0) d_zero) with false by (vm_compute; reflexivity).
  cbv zeta. set (f := poly_div0 (H := D_num) fo (dget fo 3)).
  assert (E2 : dget f 2 = d_inf false) by (vm_compute; reflexivity).
  rewrite E2.
  replace (d_eq (d_inf false) d_zero && d_eq (dget f 1) d_zero)%bool with false by (vm_compute; reflexivity).
  replace (d_gt (d_inf false) d_maxsqrt) with true by (vm_compute; reflexivity). cbn [orb].
  change (d_opp (d_inf false)) with (d_inf true).
  assert (Ef : f = [dget f 0; dget f 1; d_inf false; dget f 3]).
  { rewrite <- E2. unfold f, fo. reflexivity. }
  unfold d_deflate_and_solve.
  destruct (deflate_cubic prefer (dget f 0) (dget f 1) (d_inf false) (dget f 3) (d_inf true)) as (p & E).
  { vm_compute; reflexivity. }
  rewrite <- Ef in E. rewrite E. cbn [obind].
  eexists _, _. split; [reflexivity|].
  set (q := [d_div (d_opp (dget f 0)) (d_inf true); _; dget f 3]).
  assert (Hq : match d_solve_quadratic q with
               | r :: _ => hangs_at (fun x => eval_derivatives (H := D_num) 2 f x) r
               | [] => false end = true).
  { unfold q. destruct p; vm_compute; reflexivity. }
  destruct (d_solve_quadratic q) as [|r rest]; [discriminate Hq|].
  cbn [map fold_right].
  assert (P : snd (d_polish f r) = (2 ^ 64 - 2)%N).
  { unfold d_polish.
    destruct (halley_hangs (fun x => eval_derivatives (H := D_num) 2 f x) d_default_precision r
                (d_inf true) (d_inf false)) as (s & Es & _).
    - rewrite Ef. apply eval3_nan.
    - apply hangs_at_spec. exact Hq.
    - rewrite Es. reflexivity. }
  rewrite P. apply N.le_max_l.
Qed.

(** *** success means an in-range, non-NaN answer *)
Lemma strictly_between a lo hi : fin lo -> fin hi -> d_isnan a = false ->
  d_ge a hi = false -> d_le a lo = false -> fin a /\ dR lo < dR a < dR hi.
Proof.
  intros Fl Fh Na G L.
  assert (Fa : fin a).
  { destruct a as [s|s|s pl Hp|s m e Hb]; try reflexivity; try discriminate Na.
    destruct s.
    - destruct lo as [sl|sl|sl pl Hp|sl ml el Hb]; try discriminate Fl; discriminate L.
    - destruct hi as [sl|sl|sl pl Hp|sl ml el Hb]; try discriminate Fh;
        unfold d_ge, d_le, d_lt, d_eq in G; destruct sl; discriminate G. }
  split; [exact Fa|].
  assert (~ dR hi <= dR a) by (intros C; apply (d_ge_fin a hi Fa Fh) in C; congruence).
  assert (~ dR a <= dR lo) by (intros C; apply (d_ge_fin lo a Fl Fa) in C; unfold d_ge in C; congruence).
  lra.
Qed.

(** what success means: the function vanishes (as computed) at [x], or [x] is within
    the requested relative precision of an earlier point [p], or [x] is one of two
    adjacent doubles between which the function changes sign *)
Definition reached (f : d64 -> list d64) (prec lo hi x : d64) : Prop :=
  d_eq (dget (f x) 0) d_zero = true \/
  (exists p, within lo hi p /\ d_lt (d_abs (d_sub x p)) (d_abs (d_mul prec x)) = true) \/
  (exists u v, within lo hi u /\ within lo hi v /\ dR u < dR v /\ adjacent u v /\
     d_signbit (dget (f u) 0) <> d_signbit (dget (f v) 0) /\ (dR x = dR u \/ dR x = dR v)).

Section InBounds.
Variable f : d64 -> list d64.
Variable prec LO HI : d64.
Hypothesis Fl : fin LO.
Hypothesis Fh : fin HI.
Hypothesis Bl : Rabs (dR LO) < bpow radix2 1023.
Hypothesis Bh : Rabs (dR HI) < bpow radix2 1023.
Hypothesis Hf : forall y, d_isnan y = true -> d_eq (dget (f y) 0) d_zero = false.

Definition inv (s : dstate) : Prop :=
  (d_isnan (ds_x s) = true \/ within LO HI (ds_x s)) /\
  within LO HI (ds_lo s) /\ within LO HI (ds_hi s) /\ ds_cur s = f (ds_x s).
Definition good (r : dstatus * dstate) (s : dstate) : Prop :=
  match r with
  | (DFailed, s') => s' = s
  | (DStepped, s') => inv s'
  | (DConverged, s') => within LO HI (ds_x s') /\ ds_cur s' = f (ds_x s') /\
      reached f prec LO HI (ds_x s')
  end.

Lemma good_process s y : inv s -> good (d_process f prec s y) s.
Proof.
  intros (Ix & Il & Ih & Ic). unfold d_process.
  destruct (d_ge y (ds_hi s)) eqn:G1; cbn [orb]; [reflexivity|].
  destruct (d_le y (ds_lo s)) eqn:G2; cbn [orb]; [reflexivity|].
  assert (Wy : d_isnan y = true \/ within LO HI y).
  { destruct (d_isnan y) eqn:Ny; [left; reflexivity|right].
    destruct (strictly_between y (ds_lo s) (ds_hi s) (proj1 Il) (proj1 Ih) Ny G1 G2) as (Fy & L1 & L2).
    destruct Il as (_ & Q1 & Q2), Ih as (_ & Q3 & Q4). split; [exact Fy|lra]. }
  destruct (d_lt (d_abs (d_sub y (ds_x s))) (d_abs (d_mul prec y)) || d_eq (dget (f y) 0) d_zero)%bool eqn:C.
  - cbn [good ds_x ds_cur]. destruct Wy as [Ny|Wy].
    { exfalso. rewrite nan_lt_l in C by (apply nan_abs, nan_sub_l, Ny). rewrite (Hf y Ny) in C. discriminate C. }
    split; [exact Wy|]. split; [reflexivity|].
    apply Bool.orb_prop in C. destruct C as [C|C]; [|left; exact C].
    right. left. exists (ds_x s). split; [|exact C].
    destruct Ix as [Nx|Wx]; [exfalso|exact Wx].
    rewrite nan_lt_l in C by (apply nan_abs, nan_sub_r, Nx). discriminate C.
  - destruct (d_gt _ _); [reflexivity|].
    unfold good, inv; cbn [ds_x ds_lo ds_hi ds_cur]. split; [exact Wy|].
    destruct Ix as [Nx|Wx].
    + unfold d_ge. rewrite nan_le_r, nan_le_l by (apply nan_sub_r, Nx). auto.
    + split; [destruct (d_ge (d_sub y (ds_x s)) d_zero); assumption|].
      split; [destruct (d_le (d_sub y (ds_x s)) d_zero); assumption|reflexivity].
Qed.
Lemma good_newton s : inv s -> good (d_newton_step f prec s) s.
Proof.
  intros I. unfold d_newton_step. destruct (d_eq _ _); [reflexivity|apply good_process, I].
Qed.
Lemma good_halley s : inv s -> good (d_halley_step f prec s) s.
Proof.
  intros I. unfold d_halley_step. destruct (_ || _)%bool; [reflexivity|].
  destruct (negb _); [reflexivity|apply good_process, I].
Qed.
Lemma good_bisection s : inv s -> good (d_bisection_step f prec s) s.
Proof.
  intros (Ix & Il & Ih & Ic). unfold d_bisection_step.
  destruct (d_ge (ds_lo s) (ds_hi s)) eqn:G; cbn [orb]; [reflexivity|].
  destruct (d_isinf (ds_lo s) || d_isinf (ds_hi s))%bool; [reflexivity|].
  destruct (Bool.eqb _ _) eqn:Sg; [reflexivity|]. apply Bool.eqb_false_iff in Sg.
  assert (L : dR (ds_lo s) < dR (ds_hi s)).
  { apply Rnot_le_lt. intros C. apply (d_ge_fin _ _ (proj1 Il) (proj1 Ih)) in C. congruence. }
  assert (B : forall p, within LO HI p -> Rabs (dR p) < bpow radix2 1023).
  { intros p (_ & Q1 & Q2). apply Rabs_lt. apply Rabs_lt_inv in Bl. apply Rabs_lt_inv in Bh. lra. }
  destruct (mid_fin (ds_lo s) (ds_hi s) (proj1 Il) (proj1 Ih) L (B _ Il) (B _ Ih)) as (Fm & _ & M1 & M2).
  pose proof (mid_strict (ds_lo s) (ds_hi s) (proj1 Il) (proj1 Ih) L (B _ Il) (B _ Ih)) as St.
  fold (d_mid (ds_lo s) (ds_hi s)). set (m := d_mid (ds_lo s) (ds_hi s)) in *.
  assert (Wm : within LO HI m).
  { destruct Il as (_ & Q1 & Q2), Ih as (_ & Q3 & Q4). split; [exact Fm|lra]. }
  assert (Adj : dR m = dR (ds_lo s) \/ dR m = dR (ds_hi s) -> adjacent (ds_lo s) (ds_hi s)).
  { intros H y Fy Hy. destruct (St (ex_intro _ (dR y) (conj (dR_fmt y) Hy))). lra. }
  destruct (d_lt (d_abs (d_sub m (ds_x s))) (d_abs (d_mul prec m))) eqn:E1; cbn [orb].
  { split; [exact Wm|]. split; [reflexivity|]. cbn [ds_x]. right. left. exists (ds_x s). split; [|exact E1].
    destruct Ix as [Nx|Wx]; [exfalso|exact Wx].
    rewrite nan_lt_l in E1 by (apply nan_abs, nan_sub_r, Nx). discriminate E1. }
  destruct (d_eq (dget (f m) 0) d_zero) eqn:E2; cbn [orb].
  { split; [exact Wm|]. split; [reflexivity|]. left. exact E2. }
  destruct (d_eq m (ds_lo s)) eqn:E3; cbn [orb].
  { apply d_eq_fin in E3; [|exact Fm|apply Il]. split; [exact Wm|]. split; [reflexivity|].
    cbn [ds_x]. right. right. exists (ds_lo s), (ds_hi s). repeat (split; [assumption|]).
    split; [apply Adj; left; exact E3|]. split; [exact Sg|left; exact E3]. }
  destruct (d_eq m (ds_hi s)) eqn:E4; cbn [orb].
  { apply d_eq_fin in E4; [|exact Fm|apply Ih]. split; [exact Wm|]. split; [reflexivity|].
    cbn [ds_x]. right. right. exists (ds_lo s), (ds_hi s). repeat (split; [assumption|]).
    split; [apply Adj; right; exact E4|]. split; [exact Sg|right; exact E4]. }
  unfold good, inv; cbn [ds_x ds_lo ds_hi ds_cur]. split; [right; exact Wm|].
  destruct (Bool.eqb _ _); auto.
Qed.

(** bisection alone: the sign change is kept and the interval shrinks *)
Definition brackets (s : dstate) (j : nat) : Prop :=
  inv s /\ dR (ds_lo s) < dR (ds_hi s) /\
  d_signbit (dget (f (ds_lo s)) 0) <> d_signbit (dget (f (ds_hi s)) 0) /\
  dR (ds_hi s) - dR (ds_lo s) <= (3 / 4) ^ j * bpow radix2 1024.

Lemma bisection_brackets s j : brackets s j ->
  match d_bisection_step f prec s with
  | (DFailed, _) => False
  | (DStepped, s') => brackets s' (S j)
  | (DConverged, _) => True
  end.
Proof.
  intros (I & L & Sg & Hw). pose proof (good_bisection s I) as Good. revert Good.
  destruct I as (Ix & Il & Ih & Ic). unfold d_bisection_step.
  assert (G : d_ge (ds_lo s) (ds_hi s) = false).
  { destruct (d_ge (ds_lo s) (ds_hi s)) eqn:G; [|reflexivity].
    apply d_ge_fin in G; [lra|apply Il|apply Ih]. }
  rewrite G, !fin_not_inf by (apply Il || apply Ih). cbn [orb].
  pose proof Sg as Sg'. apply Bool.eqb_false_iff in Sg'. rewrite Sg'.
  assert (B : forall p, within LO HI p -> Rabs (dR p) < bpow radix2 1023).
  { intros p (_ & Q1 & Q2). apply Rabs_lt. apply Rabs_lt_inv in Bl. apply Rabs_lt_inv in Bh. lra. }
  destruct (mid_fin (ds_lo s) (ds_hi s) (proj1 Il) (proj1 Ih) L (B _ Il) (B _ Ih)) as (Fm & _ & M1 & M2).
  pose proof (mid_shrinks (ds_lo s) (ds_hi s) (proj1 Il) (proj1 Ih) L (B _ Il) (B _ Ih)) as Sh.
  fold (d_mid (ds_lo s) (ds_hi s)). set (m := d_mid (ds_lo s) (ds_hi s)) in *.
  destruct (d_lt _ _) eqn:E1; cbn [orb]; [auto|].
  destruct (d_eq (dget (f m) 0) d_zero) eqn:E2; cbn [orb]; [auto|].
  destruct (d_eq m (ds_lo s)) eqn:E3; cbn [orb]; [auto|].
  destruct (d_eq m (ds_hi s)) eqn:E4; cbn [orb]; [auto|].
  assert (N3 : dR m <> dR (ds_lo s)).
  { intros H. apply (d_eq_fin m _ Fm (proj1 Il)) in H. congruence. }
  assert (N4 : dR m <> dR (ds_hi s)).
  { intros H. apply (d_eq_fin m _ Fm (proj1 Ih)) in H. congruence. }
  specialize (Sh ltac:(lra)). apply Rabs_le_inv in Sh.
  assert (Hp : 3 / 4 * (dR (ds_hi s) - dR (ds_lo s)) <= (3 / 4) ^ S j * bpow radix2 1024).
  { cbn [pow]. rewrite Rmult_assoc. apply Rmult_le_compat_l; lra. }
  cbn [good]. intros I'. split; [exact I'|]. cbn [ds_lo ds_hi].
  destruct (Bool.eqb (d_signbit (dget (f m) 0)) (d_signbit (dget (f (ds_hi s)) 0))) eqn:E5.
  - apply Bool.eqb_prop in E5. split; [lra|]. split; [rewrite E5; exact Sg|lra].
  - apply Bool.eqb_false_iff in E5. split; [lra|]. split; [exact E5|lra].
Qed.

Lemma iterate_bisection step :
  (forall s, ds_cur s = f (ds_x s) -> step s = d_bisection_step f prec s) ->
  forall n s k j, brackets s j -> (5055 <= Z.of_nat n + Z.of_nat j)%Z -> k = N.of_nat j ->
  exists s' k', d_iterate n step s k = (true, s', k') /\ (k' <= 5055)%N /\
    within LO HI (ds_x s') /\ ds_cur s' = f (ds_x s') /\ reached f prec LO HI (ds_x s').
Proof.
  intros Hstep. induction n as [|n IH]; intros s k j Br Hn ->.
  - exfalso. destruct Br as (_ & L & _ & Hw).
    pose proof (pass_bound j _ _ (dR_fmt (ds_lo s)) (dR_fmt (ds_hi s)) L Hw). lia.
  - cbn [d_iterate]. pose proof Br as Br'. destruct Br as (I & L & _ & Hw).
    pose proof (pass_bound j _ _ (dR_fmt (ds_lo s)) (dR_fmt (ds_hi s)) L Hw).
    rewrite (Hstep s (proj2 (proj2 (proj2 I)))).
    pose proof (bisection_brackets s j Br') as Bs. pose proof (good_bisection s I) as G.
    destruct (d_bisection_step f prec s) as [[| |] s1]; [contradiction| |].
    + apply (IH s1 _ (S j)); [exact Bs|lia|lia].
    + exists s1, (N.succ (N.of_nat j)). cbn [good] in G. split; [reflexivity|]. split; [lia|exact G].
Qed.
Lemma good_or_else a b : (forall s, inv s -> good (a s) s) -> (forall s, inv s -> good (b s) s) ->
  forall s, inv s -> good (d_or_else a b s) s.
Proof.
  intros Ha Hb s I. unfold d_or_else. pose proof (Ha s I) as G.
  destruct (a s) as [[| |] s']; cbn [good] in G; try exact G. subst s'. apply Hb, I.
Qed.
Lemma good_iterate step : (forall s, inv s -> good (step s) s) ->
  forall n s k s' k', inv s -> d_iterate n step s k = (true, s', k') ->
  within LO HI (ds_x s') /\ ds_cur s' = f (ds_x s') /\ reached f prec LO HI (ds_x s').
Proof.
  intros G. induction n as [|n IH]; intros s k s' k' I E; cbn [d_iterate] in E; [discriminate E|].
  pose proof (G s I) as Gs. destruct (step s) as [[| |] s1]; cbn [good] in Gs.
  - discriminate E.
  - apply (IH s1 _ s' k' Gs E).
  - injection E as -> _. exact Gs.
Qed.
End InBounds.

(** If the function does not vanish at NaNs and the start lies in the (finite,
    not enormous) bounds, success gives a double within the bounds together
    with the function's values there. *)
Theorem C68_newton_partial : forall (f : d64 -> list d64) (prec x lo hi : d64) iterations s k,
  (forall y, d_isnan y = true -> d_eq (dget (f y) 0) d_zero = false) ->
  fin lo -> fin hi -> Rabs (dR lo) < bpow radix2 1023 -> Rabs (dR hi) < bpow radix2 1023 ->
  within lo hi x ->
  d_newton_raphson f prec x lo hi iterations = (true, s, k) ->
  within lo hi (ds_x s) /\ ds_cur s = f (ds_x s) /\ reached f prec lo hi (ds_x s).
Proof.
  intros f prec x lo hi it s k Hf Fl Fh Bl Bh Wx E. unfold d_newton_raphson in E.
  destruct (d_eq (dget _ 0) d_zero) eqn:Z0 in E.
  { injection E as <- _; cbn. split; [exact Wx|]. split; [reflexivity|]. left. exact Z0. }
  refine (good_iterate f prec lo hi _ _ _ _ _ _ _ _ E).
  - apply good_or_else; intros s1 I; [apply good_newton|apply good_bisection]; assumption.
  - assert (dR lo <= dR hi) by (destruct Wx as (_ & Q); lra).
    split; [right; exact Wx|]. cbn [ds_lo ds_hi ds_cur ds_x].
    split; [split; [exact Fl|lra]|]. split; [split; [exact Fh|lra]|reflexivity].
Qed.
Theorem C68_halley_partial : forall (f : d64 -> list d64) (prec x lo hi : d64) iterations s k,
  (forall y, d_isnan y = true -> d_eq (dget (f y) 0) d_zero = false) ->
  fin lo -> fin hi -> Rabs (dR lo) < bpow radix2 1023 -> Rabs (dR hi) < bpow radix2 1023 ->
  within lo hi x ->
  d_halleys_method f prec x lo hi iterations = (true, s, k) ->
  within lo hi (ds_x s) /\ ds_cur s = f (ds_x s) /\ reached f prec lo hi (ds_x s).
Proof.
  intros f prec x lo hi it s k Hf Fl Fh Bl Bh Wx E. unfold d_halleys_method in E.
  destruct (d_eq (dget _ 0) d_zero) eqn:Z0 in E.
  { injection E as <- _; cbn. split; [exact Wx|]. split; [reflexivity|]. left. exact Z0. }
  refine (good_iterate f prec lo hi _ _ _ _ _ _ _ _ E).
  - apply good_or_else; [intros s1 I; apply good_halley; assumption|].
    apply good_or_else; intros s1 I; [apply good_newton|apply good_bisection]; assumption.
  - assert (dR lo <= dR hi) by (destruct Wx as (_ & Q); lra).
    split; [right; exact Wx|]. cbn [ds_lo ds_hi ds_cur ds_x].
    split; [split; [exact Fl|lra]|]. split; [split; [exact Fh|lra]|reflexivity].
Qed.

(** where the derivatives are computed as zero neither Newton's nor Halley's step
    exists, and a sign change between the bounds is found by bisection instead, in at most
    5055 passes *)
Definition bracketed (f : d64 -> list d64) (x lo hi : d64) : Prop :=
  fin lo /\ fin hi /\ dR lo < dR hi /\ Rabs (dR lo) < bpow radix2 1023 /\ Rabs (dR hi) < bpow radix2 1023 /\
  within lo hi x /\ d_signbit (dget (f lo) 0) <> d_signbit (dget (f hi) 0).

Lemma start_brackets f x lo hi : bracketed f x lo hi ->
  brackets f lo hi {| ds_x := x; ds_lo := lo; ds_hi := hi; ds_cur := f x |} 0.
Proof.
  intros (Fl & Fh & L & Bl & Bh & Wx & Sg). split.
  - split; [right; exact Wx|]. cbn [ds_lo ds_hi ds_cur ds_x].
    split; [split; [exact Fl|lra]|]. split; [split; [exact Fh|lra]|reflexivity].
  - cbn [ds_lo ds_hi]. split; [exact L|]. split; [exact Sg|].
    cbn [pow]. apply Rabs_lt_inv in Bl. apply Rabs_lt_inv in Bh.
    replace (bpow radix2 1024) with (2 * bpow radix2 1023)
      by (change 1024%Z with (1 + 1023)%Z; rewrite bpow_plus; reflexivity). lra.
Qed.

Theorem C68_newton_fallback : forall (f : d64 -> list d64) (prec x lo hi : d64),
  bracketed f x lo hi -> (forall y, d_eq (dget (f y) 1) d_zero = true) ->
  exists s k, d_newton_raphson f prec x lo hi 0 = (true, s, k) /\ (k <= 5055)%N /\
    within lo hi (ds_x s) /\ ds_cur s = f (ds_x s) /\ reached f prec lo hi (ds_x s).
Proof.
  intros f prec x lo hi Br D0. pose proof (start_brackets f x lo hi Br) as B0.
  destruct Br as (Fl & Fh & L & Bl & Bh & Wx & Sg).
  unfold d_newton_raphson. cbn [ds_cur]. destruct (d_eq (dget (f x) 0) d_zero) eqn:Z0.
  { exists {| ds_x := x; ds_lo := lo; ds_hi := hi; ds_cur := f x |}, 0%N.
    split; [reflexivity|]. split; [lia|]. cbn [ds_x ds_cur]. split; [exact Wx|]. split; [reflexivity|].
    left. exact Z0. }
  refine (iterate_bisection f prec lo hi Bl Bh _ _ _ _ _ 0 B0 _ eq_refl).
  - intros s E. unfold d_or_else, d_newton_step. rewrite E, D0. reflexivity.
  - change (d_iterations 0) with (2 ^ 64 - 1)%N. lia.
Qed.
Theorem C68_halley_fallback : forall (f : d64 -> list d64) (prec x lo hi : d64),
  bracketed f x lo hi ->
  (forall y, d_eq (dget (f y) 1) d_zero = true) -> (forall y, d_eq (dget (f y) 2) d_zero = true) ->
  exists s k, d_halleys_method f prec x lo hi 0 = (true, s, k) /\ (k <= 5055)%N /\
    within lo hi (ds_x s) /\ ds_cur s = f (ds_x s) /\ reached f prec lo hi (ds_x s).
Proof.
  intros f prec x lo hi Br D0 D2. pose proof (start_brackets f x lo hi Br) as B0.
  destruct Br as (Fl & Fh & L & Bl & Bh & Wx & Sg).
  unfold d_halleys_method. cbn [ds_cur]. destruct (d_eq (dget (f x) 0) d_zero) eqn:Z0.
  { exists {| ds_x := x; ds_lo := lo; ds_hi := hi; ds_cur := f x |}, 0%N.
    split; [reflexivity|]. split; [lia|]. cbn [ds_x ds_cur]. split; [exact Wx|]. split; [reflexivity|].
    left. exact Z0. }
  assert (Z : forall a, d_eq a d_zero = true -> exists b, a = B754_zero 53 1024 b).
  { intros a Ha. destruct a as [b|b|b pl Hp|b m e He]; try (destruct b; discriminate Ha); eauto. }

  refine (iterate_bisection f prec lo hi Bl Bh _ _ _ _ _ 0 B0 _ eq_refl).
  - intros s E.
    assert (Nw : d_newton_step f prec s = (DFailed, s)) by (unfold d_newton_step; rewrite E, D0; reflexivity).
    assert (Ha : d_halley_step f prec s = (DFailed, s)); [|unfold d_or_else; rewrite Ha, Nw; reflexivity].
    clear Nw. unfold d_halley_step. rewrite E.
    destruct (Z _ (D0 (ds_x s))) as (b1 & ->). destruct (Z _ (D2 (ds_x s))) as (b2 & ->).
    match goal with |- context [if ?c then _ else _] => assert (C : c = true) end.
    { destruct (dget (f (ds_x s)) 0) as [b|b|b pl Hp|b m e He]; destruct b1, b2, b; reflexivity. }
    rewrite C. reflexivity.
  - change (d_iterations 0) with (2 ^ 64 - 1)%N. lia.
Qed.
(** a step function *)
Example C68_ex_fallback :
  bracketed (fun a => [if d_lt a d_one then d_opp d_one else d_one; d_zero; d_zero]) d_one d_zero d_two.
Proof.
  assert (E1 : dR d_one = 1) by (unfold dR; vm_compute; lra).
  assert (E0 : dR d_zero = 0) by (unfold dR; vm_compute; lra).
  pose proof d_two_R as E2.
  assert (B : 2 < bpow radix2 1023) by (change 2 with (bpow radix2 1); apply bpow_lt; lia).
  unfold bracketed, within. rewrite E0, E1, E2, !Rabs_pos_eq by lra.
  repeat split; try reflexivity; try lra. discriminate.
Qed.

(** x*x - 2 from 3/2 on [1,2] *)
Definition sq2 (a : d64) : list d64 := [d_sub (d_mul a a) d_two; d_mul d_two a; d_two].
Example C68_ex : exists s k,
  d_newton_raphson sq2 d_default_precision (d_lit 3 (-1)) d_one d_two 0 = (true, s, k) /\
  within d_one d_two (ds_x s) /\ ds_cur s = sq2 (ds_x s) /\
  reached sq2 d_default_precision d_one d_two (ds_x s).
Proof.
  assert (R : exists s k n, d_newton_raphson sq2 d_default_precision (d_lit 3 (-1)) d_one d_two 20 = (true, s, k)
              /\ n = 19%nat).
  { destruct (d_newton_raphson sq2 d_default_precision (d_lit 3 (-1)) d_one d_two 20) as [[b s] k] eqn:E.
    exists s, k, 19%nat. split; [|reflexivity]. f_equal. f_equal.
    change b with (fst (fst (b, s, k))). rewrite <- E. vm_compute. reflexivity. }
  destruct R as (s & k & n & E & _). exists s, k.
  assert (E0 : d_newton_raphson sq2 d_default_precision (d_lit 3 (-1)) d_one d_two 0 = (true, s, k)).
  { unfold d_newton_raphson in *. cbn [ds_cur] in *.
    destruct (d_eq (dget (sq2 (d_lit 3 (-1))) 0) d_zero); [exact E|].
    change (N.to_nat (N.pred (d_iterations 20))) with 19%nat in E.
    replace (N.to_nat (N.pred (d_iterations 0))) with (19 + N.to_nat (2 ^ 64 - 21))%nat.
    - revert E. generalize 19%nat at 1 2. intros n0. generalize 0%N.
      generalize {| ds_x := d_lit 3 (-1); ds_lo := d_one; ds_hi := d_two; ds_cur := sq2 (d_lit 3 (-1)) |}.
      induction n0 as [|n0 IH]; intros st k0 E; cbn [d_iterate Nat.add] in *; [discriminate E|].
      destruct (d_or_else _ _ st) as [[| |] st']; [exact E|apply IH, E|exact E].
    - change 19%nat with (N.to_nat 19). rewrite <- N2Nat.inj_add. f_equal. }
  split; [exact E0|].
  assert (E1 : dR d_one = 1) by (unfold dR; vm_compute; lra).
  assert (E3 : dR (d_lit 3 (-1)) = 3 / 2) by (unfold dR; vm_compute; lra).
  pose proof d_two_R as E2.
  assert (B : 2 < bpow radix2 1023) by (change 2 with (bpow radix2 1); apply bpow_lt; lia).
  refine (C68_newton_partial _ _ _ _ _ _ _ _ _ _ _ _ _ _ E0).
  - intros y Hy. apply nan_eq_l. change (d_isnan (d_sub (d_mul y y) d_two) = true). apply nan_sub_l, nan_mul_l, Hy.
  - reflexivity.
  - reflexivity.
  - rewrite E1, Rabs_pos_eq by lra. lra.
  - rewrite E2, Rabs_pos_eq by lra. lra.
  - split; [reflexivity|]. rewrite E1, E2, E3. lra.
Qed.

Print Assumptions C67_bisection.
Print Assumptions C67_iterations.
Print Assumptions C67_refuses.
Print Assumptions C67_overflow_refuted.
Print Assumptions C68_newton_nan_refuted.
Print Assumptions C68_cubic_hang_refuted.
Print Assumptions C68_newton_partial.
Print Assumptions C68_halley_partial.
Print Assumptions C68_newton_fallback.
Print Assumptions C68_halley_fallback.
(* ------------------------------------------------------------------ *)
(** ** NaN operands *)
Lemma isnan_add (x y : d64) : d_isnan x = true \/ d_isnan y = true -> d_isnan (d_add x y) = true.
Proof. intros [H|H]; destruct x, y; try discriminate; reflexivity. Qed.
Lemma isnan_sub (x y : d64) : d_isnan x = true -> d_isnan (d_sub x y) = true.
Proof. intros H; destruct x, y; try discriminate; reflexivity. Qed.
Lemma isnan_mul (x y : d64) : d_isnan y = true -> d_isnan (d_mul x y) = true.
Proof. intros H; destruct x, y; try discriminate; reflexivity. Qed.
Lemma isnan_div (x y : d64) : d_isnan x = true -> d_isnan (d_div x y) = true.
Proof. intros H; destruct x, y; try discriminate; reflexivity. Qed.
Lemma isnan_abs (x : d64) : d_isnan x = true -> d_isnan (d_abs x) = true.
Proof. intros H; destruct x; try discriminate; reflexivity. Qed.
Lemma isnan_lt (x y : d64) : d_isnan x = true \/ d_isnan y = true -> d_lt x y = false.
Proof. intros [H|H]; destruct x, y; try discriminate; reflexivity. Qed.
Lemma isnan_eq (x y : d64) : d_isnan x = true \/ d_isnan y = true -> d_eq x y = false.
Proof. intros [H|H]; destruct x, y; try discriminate; reflexivity. Qed.
Lemma isnan_not_inf (x : d64) : d_isnan x = true -> d_isinf x = false.
Proof. destruct x; try discriminate; reflexivity. Qed.

Lemma isnan_loop f prec n : forall (x lo hi fh : d64) tr,
  (forall a, d_isnan a = true -> d_eq (f a) d_zero = false) -> d_isnan lo = true \/ d_isnan hi = true ->
  exists tr', d_bisect_loop n f prec x lo hi fh tr = (false, x, tr' ++ tr) /\ length tr' = n /\ Forall (fun a : d64 => d_isnan a = true) tr'.
Proof.
  induction n as [|n IH]; intros x lo hi fh tr Hf H; cbn [d_bisect_loop]; [exists []; auto|].
  assert (M : d_isnan (d_div (d_add lo hi) d_two) = true) by (apply isnan_div, isnan_add, H).
  set (m := d_div (d_add lo hi) d_two) in *.
  rewrite (isnan_lt (d_abs (d_sub m x))) by (left; apply isnan_abs, isnan_sub, M). rewrite Hf by exact M.
  rewrite (isnan_eq m lo), (isnan_eq m hi) by (left; exact M). cbn [orb].
  destruct (Bool.eqb _ _).
  - destruct (IH x lo m (f m) (m :: tr) Hf (or_intror M)) as (t & E & L & F). exists (t ++ [m]). rewrite E, <- app_assoc. split; [reflexivity|].
    rewrite app_length. cbn [length]. split; [lia|]. apply Forall_app. auto.
  - destruct (IH x m hi fh (m :: tr) Hf (or_introl M)) as (t & E & L & F). exists (t ++ [m]). rewrite E, <- app_assoc. split; [reflexivity|].
    rewrite app_length. cbn [length]. split; [lia|]. apply Forall_app. auto.
Qed.
(** A NaN bound is not refused: if the sign bits of the two values differ, f is
    evaluated at NaN until the iterations are used up (2^64 - 2 times when they are not
    given), then failure is reported. *)
Theorem C67_nan_bounds : forall (f : d64 -> d64) (prec lo hi : d64) iterations,
  d_isnan lo = true \/ d_isnan hi = true -> (forall s, lo <> d_inf s /\ hi <> d_inf s) ->
  d_signbit (f lo) <> d_signbit (f hi) ->
  (forall a, d_isnan a = true -> d_eq (f a) d_zero = false) ->
  exists x nans, d_bisection f prec lo hi iterations = (false, Some x, nans ++ [hi; lo]) /\ (x = lo \/ x = hi) /\
    Forall (fun a : d64 => d_isnan a = true) nans /\
    N.of_nat (length nans) = (if N.eqb iterations 0 then 2 ^ 64 - 2 else iterations - 1)%N.
Proof.
  intros f prec lo hi it H Hi Hs Hf. unfold d_bisection.
  assert (G : d_ge lo hi = false).
  { unfold d_ge, d_le. rewrite isnan_lt, isnan_eq by tauto. reflexivity. }
  assert (NI : forall a : d64, (forall s, a <> d_inf s) -> d_isinf a = false).
  { intros a Ha. destruct a as [| s | | ]; try reflexivity. destruct (Ha s). reflexivity. }
  rewrite G, !NI by apply Hi. cbn [orb].
  assert (E : Bool.eqb (d_signbit (f lo)) (d_signbit (f hi)) = false) by (apply Bool.eqb_false_iff, Hs). rewrite E.
  set (x := if d_lt _ _ then lo else hi).
  destruct (isnan_loop f prec (N.to_nat (N.pred (d_iterations it))) x lo hi (f hi) [hi; lo] Hf H) as (t & L & Le & F).
  rewrite L. exists x, t. split; [reflexivity|]. split; [unfold x; destruct (d_lt _ _); auto|]. split; [exact F|].
  rewrite Le, N2Nat.id. unfold d_iterations. destruct (N.eqb_spec it 0); [reflexivity|lia].
Qed.
Print Assumptions C67_nan_bounds.
(** f a = -1 for a >= 0 and 1 otherwise, on [NaN, 1] *)
Example C67_nan_example : let f := fun a : d64 => if d_ge a d_zero then d_opp d_one else d_one in
  let lo := d_div d_zero d_zero in
  d_isnan lo = true /\ (forall s, lo <> d_inf s /\ d_one <> d_inf s) /\ d_signbit (f lo) <> d_signbit (f d_one) /\
  (forall a, d_isnan a = true -> d_eq (f a) d_zero = false).
Proof.
  intros f lo. split; [reflexivity|]. split; [intros s; split; discriminate|]. split; [vm_compute; discriminate|].
  intros a H. unfold f, d_ge, d_le. rewrite (isnan_lt d_zero a), (isnan_eq d_zero a) by (right; exact H). reflexivity.
Qed.

(** With the precision argument left out (in bisection, newton_raphson and halley)
    it is 2^(1 - 53/2) with the integer quotient, that is 2^-25. *)
Theorem C67_default_precision : fin d_default_precision /\ dR d_default_precision = powerRZ 2 (1 - 53 / 2) /\ dR d_default_precision = / 33554432.
Proof.
  split; [reflexivity|]. assert (E : dR d_default_precision = / 33554432) by
   (unfold dR; rewrite <- FF2R_B2FF; replace (B2FF 53 1024 d_default_precision) with (F754_finite false 4503599627370496 (-77)) by (vm_compute; reflexivity);
    change (4503599627370496 * / 151115727451828646838272 = / 33554432); lra).
  split; [|exact E]. rewrite E. replace (1 - 53 / 2)%Z with (- 25)%Z by reflexivity.
  change (powerRZ 2 (-25)) with (/ 2 ^ 25). replace (2 ^ 25) with 33554432 by (cbn; lra). reflexivity.
Qed.
Print Assumptions C67_default_precision.

(** Steps that are refused: no derivative, a Halley denominator that is zero or infinite.
    A refused step of any kind moves nothing. *)
Theorem C68_steps_refused : forall (f : d64 -> list d64) (prec : d64) (s : dstate),
  (d_eq (dget (ds_cur s) 1) d_zero = true -> d_newton_step f prec s = (DFailed, s)) /\
  (let den := d_sub (d_mul (d_mul d_two (dget (ds_cur s) 1)) (dget (ds_cur s) 1)) (d_mul (dget (ds_cur s) 0) (dget (ds_cur s) 2)) in
   d_eq den d_zero = true \/ den = d_inf true \/ den = d_inf false -> d_halley_step f prec s = (DFailed, s)) /\
  (forall step s', step = d_newton_step f prec \/ step = d_halley_step f prec \/ step = d_bisection_step f prec ->
     step s = (DFailed, s') -> s' = s).
Proof.
  intros f prec s.
  assert (P : forall x s', d_process f prec s x = (DFailed, s') -> s' = s).
  { intros x s'. unfold d_process. destruct (_ || _)%bool; [congruence|]. cbv zeta. destruct (_ || _)%bool; [discriminate|].
    destruct (d_gt _ _); [congruence|discriminate]. }
  split; [|split].
  - intros H. unfold d_newton_step. now rewrite H.
  - cbv zeta. intros H. unfold d_halley_step. set (den := d_sub _ _) in *. destruct (d_eq den d_zero) eqn:E; [reflexivity|].
    destruct H as [H | [H | H]]; [discriminate| |]; rewrite H; reflexivity.
  - intros step s' [-> | [-> | ->]].
    + unfold d_newton_step. destruct (d_eq _ _); [congruence|apply P].
    + unfold d_halley_step. destruct (_ || _)%bool; [congruence|]. cbv zeta. destruct (negb _); [congruence|apply P].
    + unfold d_bisection_step. cbv zeta. destruct (_ || _)%bool; [congruence|]. destruct (Bool.eqb _ _); [congruence|].
      destruct (_ || _)%bool; discriminate.
Qed.
Print Assumptions C68_steps_refused.
Example C68_steps_refused_ex : let s := {| ds_x := d_one; ds_lo := d_zero; ds_hi := d_two; ds_cur := [d_one; d_lit 1 600; d_one] |} in
  fst (d_halley_step (fun _ => [d_one; d_one; d_one]) d_zero s) = DFailed /\
  fst (d_newton_step (fun _ => [d_zero; d_one; d_one]) d_zero s) <> DFailed.
Proof. cbv zeta. split; vm_compute; [reflexivity|discriminate]. Qed.
