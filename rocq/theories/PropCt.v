(** C40, C43, C44, C54, C55: compile-time symbolic expressions. *)
From Coq Require Import ZArith Reals Lia Lra Bool List String Factorial.
From Verif Require Import Outcome Num PolySpec PolyModel PolyBase PolyProofs PolyCalc ExprModel ExprSpec ExprBase ExprDeriv AdProofs ConstModel PropConst CtModel CtSpec CtProofs CtSimp CtDeriv CtTaylor CtTaylor2.
Import ListNotations.
Open Scope R_scope.

Local Notation x := (TVar "x").
Local Notation y := (TVar "y").
Lemma table_off : ok_table off_table.
Proof. intros u H. exact H. Qed.

(** ** C44: simplification *)
(** simplify and sym::N ([to_numbers]) keep every value of the expression.  Missing
    from the full claim: sin and cos at the table's multiples of the rational pi,
    where the result is that of C41, and division of two ints. *)
Theorem C44_simplify_keeps_values_partial (to_numbers : bool) (fuel : nat) (ints : bool) (e e' : cexpr) (rho : string -> R) (v : R) :
  csimp to_numbers fuel e = Ret (Some e') -> no_truncation ints e ->
  cval off_table rho e v -> cval off_table rho e' v.
Proof. intros H N V. destruct (csimp_keeps off_table ints table_off _ _ _ _ H N) as (_ & _ & K). auto. Qed.
Print Assumptions C44_simplify_keeps_values_partial.

(** Without "either sign" the value is unique, so it is the value. *)
Theorem C44_simplify_value_partial (to_numbers : bool) (fuel : nat) (ints : bool) (e e' : cexpr) (rho : string -> R) (v : R) :
  csimp to_numbers fuel e = Ret (Some e') -> no_truncation ints e -> sign_free e ->
  cval off_table rho e v -> forall w, cval off_table rho e' w <-> w = v.
Proof.
  intros H N S V. destruct (csimp_keeps off_table ints table_off _ _ _ _ H N) as (_ & K2 & K3). intros w. split.
  - intros W. apply (cval_det off_table rho e' (K2 S)); auto.
  - intros ->. auto.
Qed.
Print Assumptions C44_simplify_value_partial.

(** The functions the power rules use: x^(1/3) of a number is the number whose
    cube it is, also below zero, and x^(1/2) is the square root. *)
Theorem C44_cube_root : forall x, rcbrt x * (rcbrt x * rcbrt x) = x.
Proof.
  assert (P : forall x, 0 < x -> Rpower x (1/3) * (Rpower x (1/3) * Rpower x (1/3)) = x).
  { intros x Hx. rewrite <- !Rpower_plus. replace (1/3 + (1/3 + 1/3)) with 1 by lra. now apply Rpower_1. }
  intros x. unfold rcbrt. destruct (Rlt_dec 0 x) as [H|H]; [now apply P|].
  destruct (Req_EM_T x 0) as [->|Nz]; [ring|]. specialize (P (- x) ltac:(lra)).
  replace x with (- - x) at 4 by ring. rewrite <- P at 4. ring.
Qed.
Print Assumptions C44_cube_root.

(** the cases of the project's own tests *)
Example C44_tests :
  csimp false 9 (TBin OMul (TBin OMul (TUn USin (TBin OMul (TC 2 1) x)) x) x) =
    Ret (Some (TBin OMul (TUn USin (TBin OMul (TC 2 1) x)) (TBin OPow x (TC 2 1)))) /\
  csimp false 9 (TBin OMul x (TBin OMul (TUn USin (TBin OMul (TC 2 1) x)) x)) =
    Ret (Some (TBin OMul (TBin OPow x (TC 2 1)) (TUn USin (TBin OMul (TC 2 1) x)))) /\
  csimp false 9 (TBin OMul x (TUn UArb x)) = Ret (Some (TUn UArb (TBin OPow x (TC 2 1)))) /\
  csimp false 9 (TBin ODiv (TUn UArb x) (TUn UArb x)) = Ret (Some (TUn UArb Unity)) /\
  csimp false 9 (TBin OPow (TUn UArb x) (TC 5 1)) = Ret (Some (TUn UArb (TBin OPow x (TC 5 1)))) /\
  csimp false 9 (TBin OPow (TUn UArb x) (TC 6 1)) = Ret (Some (TBin OPow x (TC 6 1))) /\
  (do d <- cderiv "x" (TBin OMul (TC 2 1) (TUn UCos x)); csimp false 9 d) = Ret (Some (TBin OMul (TC (-2) 1) (TUn USin x))).
Proof. repeat split; lazy; reflexivity. Qed.
Example C44_hypotheses : exists e', csimp false 9 (TBin OMul x (TBin OMul (TUn USin (TBin OMul (TC 2 1) x)) x)) = Ret (Some e') /\
  no_truncation true (TBin OMul x (TBin OMul (TUn USin (TBin OMul (TC 2 1) x)) x)) /\
  cval off_table (fun _ => 0) (TBin OMul x (TBin OMul (TUn USin (TBin OMul (TC 2 1) x)) x)) 0.
Proof.
  eexists. split; [lazy; reflexivity|]. split; [cbn; intuition congruence|].
  exists 0, 0. split; [reflexivity|]. split; [|cbn; f_equal; ring].
  exists (sin 0), 0. split; [|split; [reflexivity|cbn; f_equal; ring]].
  exists 0. split; [|split; [left; reflexivity|reflexivity]].
  exists 2, 0. split; [split; [lia|lra]|]. split; [reflexivity|cbn; f_equal; ring].
Qed.

(** The converse is false: an expression with "either sign" can gain values.  The
    square of ±x·y becomes ±((x·y)·(x·y)). *)
Theorem C44_no_new_values_refuted :
  let e := TBin OPow (TBin OMul (TUn UArb x) y) (TC 2 1) in
  exists e', csimp false 9 e = Ret (Some e') /\ cval anywhere (fun _ => 1) e' (-1) /\ ~ cval anywhere (fun _ => 1) e (-1).
Proof.
  cbv zeta. eexists. split; [lazy; reflexivity|]. split.
  - exists 1. split; [|right; ring]. exists 1, 1. repeat split; try (cbn; f_equal; ring); exists 1, 1; repeat split; cbn; f_equal; ring.
  - intros (u & w & (a & c & Ha & -> & E) & [_ ->] & P). cbn [binary_value] in *. injection E as E.
    replace (2 / 1) with 2 in P by field. rewrite npow_2 in P. injection P as P. subst u. nra.
Qed.
Print Assumptions C44_no_new_values_refuted.

(** simplify of a square whose base does not simplify is a compilation error
    instead of "not available": simplify(pow<2>(sin(x))). *)
Theorem C44_square_does_not_compile fuel : csimp false (S (S (S (S fuel)))) (TBin OPow (TUn USin x) (TC 2 1)) = Throw.
Proof. lazy. reflexivity. Qed.

(** ** C54: substitution *)
(** sub(f, x = g) has every value that f has when x has a value of g. *)
Theorem C54_substitution_partial (ints : bool) (z : string) (g f f' : cexpr) (rho : string -> R) (u v : R) :
  csub z g f = Ret f' -> no_truncation ints f -> no_truncation ints g ->
  cval off_table rho g u -> cval off_table (upd_num rho z u) f v -> cval off_table rho f' v.
Proof. intros. eapply csub_val; eauto. apply table_off. Qed.
Print Assumptions C54_substitution_partial.
(** ... and no other value when there is no "either sign". *)
Theorem C54_substitution_value_partial (ints : bool) (z : string) (g f f' : cexpr) (rho : string -> R) (u v : R) :
  csub z g f = Ret f' -> no_truncation ints f -> no_truncation ints g -> sign_free f -> sign_free g ->
  cval off_table rho g u -> cval off_table (upd_num rho z u) f v -> forall w, cval off_table rho f' w <-> w = v.
Proof.
  intros H Nf Ng Sf Sg Vg Vf w. pose proof (csub_val off_table ints z g f f' rho u v table_off H Nf Ng Vg Vf) as V. split.
  - intros W. apply (cval_det off_table rho f'); auto. eapply csub_sf; eauto.
  - intros ->. exact V.
Qed.
Print Assumptions C54_substitution_value_partial.
Example C54_tests :
  csub "x" y (TBin OMul x (TUn USin (TBin OAdd x y))) = Ret (TBin OMul y (TUn USin (TBin OAdd y y))) /\
  csub "x" (TC 2 1) (TBin OMul x (TBin OAdd x y)) = Ret (TBin OMul (TC 2 1) (TBin OAdd (TC 2 1) y)).
Proof. split; lazy; reflexivity. Qed.
(** With two ints the division truncates: sub(x / 2, x = 1) is 0. *)
Theorem C54_int_division_refuted :
  csub "x" (TNum (RInt 1)) (TBin ODiv x (TNum (RInt 2))) = Ret (TNum (RInt 0)) /\
  cval anywhere (fun _ => 1) (TBin ODiv x (TNum (RInt 2))) (1 / 2).
Proof.
  split; [lazy; reflexivity|]. exists 1, 2. split; [reflexivity|]. split; [reflexivity|]. cbn [binary_value].
  destruct (Req_EM_T 2 0); [lra|reflexivity].
Qed.

(** ** C55: derivatives *)
(** Where derivative(f, x) compiles it is the derivative. *)
Theorem C55_derivative (z : string) (f f' : cexpr) (rho : string -> R) (v : R) :
  cderiv z f = Ret f' -> differentiable_at rho f -> cval anywhere rho f v ->
  exists d, cval anywhere rho f' d /\ differentiates rho z f v d.
Proof. intros. eapply cderiv_correct; eauto. Qed.
Print Assumptions C55_derivative.
(** ... for the values it has, without "either sign". *)
Theorem C55_derivative_value (z : string) (f f' : cexpr) (rho : string -> R) (v w : R) :
  cderiv z f = Ret f' -> differentiable_at rho f -> sign_free f -> cval anywhere rho f v ->
  (cval anywhere rho f' w <-> differentiates rho z f v w).
Proof.
  intros H D S V. destruct (cderiv_correct rho z f f' v H D V) as (d & Vd & Dd).
  assert (U : forall d', differentiates rho z f v d' -> d' = d).
  { intros d' Dd'. destruct Dd as (F & r & Hr & _ & HF & LF), Dd' as (G & s & Hs & _ & HG & LG).
    apply (uniqueness_limite F (rho z)); auto. apply (dpl_local G F _ _ (Rmin r s)); auto.
    - apply Rmin_pos; auto.
    - intros q Hq. apply (cval_det anywhere (upd_num rho z q) f S).
      + apply HG. eapply Rlt_le_trans; [exact Hq|apply Rmin_r].
      + apply HF. eapply Rlt_le_trans; [exact Hq|apply Rmin_l]. }
  split.
  - intros W. assert (w = d) by (apply (cval_det anywhere rho f' (cderiv_sf _ _ _ H S)); auto). now subst w.
  - intros W. now rewrite (U w W).
Qed.
Print Assumptions C55_derivative_value.
Example C55_hypotheses : exists f', cderiv "x" (TBin OMul (TBin OPow x (TC 3 1)) (TUn USin (TBin ODiv y x))) = Ret f' /\
  differentiable_at (fun _ => 2) (TBin OMul (TBin OPow x (TC 3 1)) (TUn USin (TBin ODiv y x))) /\
  exists v, cval anywhere (fun _ => 2) (TBin OMul (TBin OPow x (TC 3 1)) (TUn USin (TBin ODiv y x))) v.
Proof.
  eexists. split; [lazy; reflexivity|]. split.
  - cbn [differentiable_at]. repeat split; try discriminate. intros _. left. intros u ->. lra.
  - exists (powerRZ 2 3 * sin 1), (powerRZ 2 3), (sin 1). split; [|split; [|reflexivity]].
    + exists 2, (IZR 3). split; [reflexivity|]. split; [split; [lia|lra]|]. apply (npow_int 2 3). right. lia.
    + exists 1. split; [|split; [exact I|reflexivity]]. exists 2, 2. split; [reflexivity|]. split; [reflexivity|]. cbn [binary_value].
      destruct (Req_EM_T 2 0); [lra|f_equal; lra].
Qed.
(** derivative(x / C<3>(), x) does not compile: pow(C<3>(), C<2>()) does not. *)
Theorem C55_constant_divisor_does_not_compile : cderiv "x" (TBin ODiv x (TC 3 1)) = Throw.
Proof. lazy. reflexivity. Qed.

(** ** C43: integration *)
(** Where integrate(f, x) compiles, f is the derivative of the result. *)
Theorem C43_integrate (z : string) (f e : cexpr) (rho : string -> R) (v : R) :
  cintegrate z f = Ret e -> each_summand rho z f -> cval anywhere rho f v ->
  exists V, cval anywhere rho e V /\ differentiates rho z e V v.
Proof.
  intros H S V. destruct (cintegrate_correct rho z f e v H S V) as (W & D). exists W. split; auto. eapply diff_val; eauto.
Qed.
Print Assumptions C43_integrate.
Example C43_tests :
  cintegrate "x" (TBin OAdd (TBin OPow x (TC 3 1)) (TBin OSub x (TC 3 1))) =
    Ret (TBin OAdd (TBin OMul (TC 1 4) (TBin OPow x (TC 4 1))) (TBin OSub (TBin OMul (TC 1 2) (TBin OPow x (TC 2 1))) (TBin OMul (TC 3 1) x))) /\
  cintegrate "x" (TBin OMul y (TUn USin y)) = Ret (TBin OMul (TBin OMul y (TUn USin y)) x) /\
  (* 1/x and constant multiples of x are not integrated *)
  cintegrate "x" (TBin OPow x (TC (-1) 1)) = Throw /\ cintegrate "x" (TBin OMul (TC 3 1) x) = Throw.
Proof. repeat split; lazy; reflexivity. Qed.
Example C43_hypotheses rho : each_summand rho "x" (TBin OAdd (TBin OPow x (TC 3 1)) (TBin OSub x (TC 3 1))) /\
  exists v, cval anywhere rho (TBin OAdd (TBin OPow x (TC 3 1)) (TBin OSub x (TC 3 1))) v.
Proof.
  split.
  - split; [|split; right; exact I]. right. cbn [differentiable_at]. repeat split. intros _. right. split; [exact I|].
    exists 3%Z. split; [split; [lia|lra]|left; lia].
  - exists (powerRZ (rho "x"%string) 3 + (rho "x"%string - 3 / 1)), (powerRZ (rho "x"%string) 3), (rho "x"%string - 3 / 1). split; [|split; [|reflexivity]].
    + exists (rho "x"%string), (IZR 3). split; [reflexivity|]. split; [split; [lia|lra]|]. apply (npow_int _ 3). right. lia.
    + exists (rho "x"%string), (3 / 1). split; [reflexivity|]. split; [split; [lia|reflexivity]|reflexivity].
Qed.

(** ** C40: Taylor series *)
(** As a function of x the result is the Taylor polynomial of f around the value
    of a: its coefficients are the derivatives of f over the factorials.  Missing from the
    full claim: points where sin and cos are looked up in the table (C41), and
    divisions between ints. *)
Theorem C40_taylor_polynomial_partial (ints : bool) (z : string) (f a e : cexpr) (rho : string -> R) (alpha : R) (fuel order : nat) :
  taylor_series fuel order z f a = Ret e ->
  sign_free f -> sign_free a -> no_truncation_in_derivatives ints f -> no_truncation ints a ->
  ~ occurs z a -> cval off_table rho a alpha -> regular off_table (upd_num rho z alpha) f ->
  exists c, taylor_of rho z f alpha order c /\
    forall t v, cval off_table (upd_num rho z t) e v <-> v = sum_f_R0 (fun k => c k * (t - alpha) ^ k) order.
Proof. intros. eapply taylor_correct; eauto. apply table_off. Qed.
Print Assumptions C40_taylor_polynomial_partial.

(** The k-th derivative of a polynomial at a is k! times the k-th coefficient of
    its shifted form. *)
Lemma derivs_pval (p : list R) (F : nat -> R -> R) a delta n : 0 < delta ->
  (forall t, Rabs (t - a) < delta -> F 0%nat t = pval p t) ->
  (forall k t, (k < n)%nat -> Rabs (t - a) < delta -> derivable_pt_lim (F k) t (F (S k) t)) ->
  forall k, (k <= n)%nat -> forall t, Rabs (t - a) < delta -> F k t = pval (iterf k fder p) t.
Proof.
  intros Hd H0 HS k. induction k as [|k IH]; intros Hk t Ht; [apply H0; auto|].
  apply (uniqueness_limite (F k) t); [apply HS; auto; lia|].
  apply (dpl_local (pval (iterf k fder p)) _ _ _ (delta - Rabs (t - a))); [lra| |].
  - intros q Hq. symmetry. apply IH; [lia|]. replace (q - a) with (q - t + (t - a)) by ring.
    eapply Rle_lt_trans; [apply Rabs_triang|]. lra.
  - cbn [iterf]. apply pval_derivable.
Qed.
(** For a polynomial of order at most the series' order the result is f itself. *)
Theorem C40_exact_for_polynomials_partial (ints : bool) (z : string) (f a e : cexpr) (rho : string -> R) (alpha : R) (fuel order : nat) (p : list R) :
  taylor_series fuel order z f a = Ret e ->
  sign_free f -> sign_free a -> no_truncation_in_derivatives ints f -> no_truncation ints a ->
  ~ occurs z a -> cval off_table rho a alpha -> regular off_table (upd_num rho z alpha) f ->
  (length p <= S order)%nat -> (forall t, cval anywhere (upd_num rho z t) f (pval p t)) ->
  forall t v, cval off_table (upd_num rho z t) e v <-> v = pval p t.
Proof.
  intros H Sf Sa Nf Na Oa Ha Rf Lp Hp t v.
  destruct (taylor_correct off_table ints rho z f a alpha fuel order e table_off H Sf Sa Nf Na Oa Ha Rf) as (c & (F & delta & Hd & F0 & FS & Hc) & V).
  rewrite (V t v). clear V. enough (E : sum_f_R0 (fun k => c k * (t - alpha) ^ k) order = pval p t) by (rewrite E; tauto).
  assert (G0 : forall s, Rabs (s - alpha) < delta -> F 0%nat s = pval p s).
  { intros s Hs. apply (cval_det anywhere (upd_num rho z s) f Sf); auto. }
  pose proof (derivs_pval p F alpha delta order Hd G0 FS) as D.
  assert (Ha0 : Rabs (alpha - alpha) < delta) by (apply near_self; auto).
  assert (X : exists g, (length g <= S order)%nat /\ forall s, pval g s = pval p (s + alpha)).
  { destruct p as [|p0 p']; [exists []; split; [cbn; lia|intros; reflexivity]|].
    destruct (shift_function_correct (p0 :: p') alpha ltac:(discriminate)) as [L S]. exists (shift_function (p0 :: p') alpha). split; auto. lia. }
  destruct X as (g & Lg & Hg).
  replace (pval p t) with (pval g (t - alpha)) by (rewrite Hg; f_equal; ring).
  rewrite (sum_eq _ (fun k => get g k * (t - alpha) ^ k)).
  - rewrite pval_bsum. clear - Lg. assert (B : forall m s, sum_f_R0 (fun k => get g k * s ^ k) m = bsum (S m) (fun k => get g k * s ^ k)).
    { intros m s. induction m as [|m IH]; [cbn; ring|]. cbn [sum_f_R0]. rewrite IH. reflexivity. }
    rewrite B. apply bsum_extend; auto. intros i Hi. rewrite get_over by lia. ring.
  - intros k Hk. rewrite Hc, (D k Hk alpha Ha0), (iter_fder_taylor p g alpha k Hg) by auto. pose proof (INR_fact_neq_0 k). field_simplify; auto.
Qed.
Print Assumptions C40_exact_for_polynomials_partial.

(** sin to sixth order: the (commented out) case of the project's tests *)
Example C40_tests :
  taylor_series 60 6 "y" (TUn USin y) Null =
    Ret (TBin OMul y (TBin OAdd (TC 1 1) (TBin OMul (TBin OPow y (TC 2 1)) (TBin OAdd (TC (-1) 6) (TBin OMul (TBin OPow y (TC 2 1)) (TC 1 120)))))) /\
  taylor_series 40 3 "y" (TBin OMul (TBin OMul y y) y) Null = Ret (TBin OPow y (TC 3 1)) /\
  taylor_series 40 2 "y" (TBin OMul (TBin OMul y y) y) Null = Ret Null.
Proof. repeat split; lazy; reflexivity. Qed.
Example C40_hypotheses rho :
  sign_free (TUn USin y) /\ no_truncation_in_derivatives true (TUn USin y) /\ cval off_table rho Null 0 /\
  regular off_table (upd_num rho "y" 0) (TUn USin y).
Proof.
  repeat split; try discriminate.
  - intros [?|?]; discriminate.
  - lra.
  - intros _ u ->. left. reflexivity.
Qed.
(** An order above 20 does not compile (the factorial overflows), unless a
    derivative is syntactically zero before. *)
Theorem C40_order_21 fuel : taylor_series fuel 21 "y" (TUn USin y) Null = Throw.
Proof. unfold taylor_series. replace (taylor_worker "y" Null 21 0 (TUn USin y)) with (@Throw cexpr); [reflexivity|]. lazy. reflexivity. Qed.

(** ** cos(pi) = 1 *)
(** The table of C41 is wrong at odd multiples of pi: substituting pi in cos(y),
    simplifying cos(pi * 1) and expanding cos(y) around pi all give 1, although
    neither the cosine of pi nor that of the fraction that stands for it is 1. *)
Definition ct_pi : cexpr := TC 47627751 15160384.
Lemma cos_not_1 u : 0 < u < 2 * PI -> cos u <> 1.
Proof.
  intros Hu E. replace u with (2 * (u / 2)) in E by field. rewrite cos_2a_sin in E.
  assert (0 < sin (u / 2)) by (apply sin_gt_0; lra). nra.
Qed.
Lemma ct_pi_range : 0 < 47627751 / 15160384 < 2 * PI.
Proof. pose proof PI2_1. split; lra. Qed.

Theorem C44_trig_refuted : forall rho v,
  let e := TUn UCos (TBin OMul ct_pi (TC 1 1)) in
  csimp false 9 e = Ret (Some (TC 1 1)) /\ (cval anywhere rho e v -> v <> 1) /\ cos PI <> 1.
Proof.
  intros rho v e. split; [lazy; reflexivity|]. split.
  - intros (u & (a & b & [_ ->] & [_ ->] & E) & _ & ->). cbn [binary_value] in E. injection E as <-.
    apply cos_not_1. pose proof ct_pi_range. lra.
  - rewrite cos_PI. lra.
Qed.
Print Assumptions C44_trig_refuted.
Theorem C54_trig_refuted : forall rho v,
  csub "y" ct_pi (TUn UCos y) = Ret (TC 1 1) /\
  (cval anywhere (upd_num rho "y" (47627751 / 15160384)) (TUn UCos y) v -> v <> 1) /\
  (cval anywhere (upd_num rho "y" PI) (TUn UCos y) v -> v <> 1).
Proof.
  intros rho v. split; [lazy; reflexivity|]. split; intros (u & -> & _ & ->); unfold upd_num; cbn [String.eqb Ascii.eqb Bool.eqb].
  - apply cos_not_1, ct_pi_range.
  - rewrite cos_PI. lra.
Qed.
Print Assumptions C54_trig_refuted.
Theorem C40_trig_refuted : forall rho v,
  taylor_series 9 0 "y" (TUn UCos y) ct_pi = Ret (TC 1 1) /\
  (cval anywhere (upd_num rho "y" (47627751 / 15160384)) (TUn UCos y) v -> v <> 1) /\
  (cval anywhere (upd_num rho "y" PI) (TUn UCos y) v -> v <> 1).
Proof. intros rho v. split; [lazy; reflexivity|apply C54_trig_refuted]. Qed.
Print Assumptions C40_trig_refuted.
