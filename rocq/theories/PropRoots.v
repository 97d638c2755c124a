(** C12-C21: real root solving, counting, bounding and isolation. *)
From Verif Require Import PolyProofs PolyCalc RootsModel SolverModel RootSpec Descartes LMQ NumericProofs Isolate Sturm Solve Solver.
From Verif Require PropPoly.
From Coq Require Import Permutation.
Open Scope R_scope.

(* ------------------------------------------------------------------ C12 *)
(** order 1: exactly the real roots, each once *)
Theorem C12_linear : forall a b : R, [a; b] <> [0; 0] ->
  exactly_roots [a; b] (solve_linear [a; b]) /\ increasing (solve_linear [a; b]).
Proof. exact linear_correct. Qed.
Print Assumptions C12_linear.

(** order 2.  [ms] is sqrt(DBL_MAX): above it the code switches to an
    approximation.  Full statement: the list is strictly increasing for every
    polynomial; that fails for c x^2 (C12_double_zero_refuted). *)
Theorem C12_quadratic_partial : forall ms a b c : R,
  0 <= ms -> [a; b; c] <> [0; 0; 0] -> Rabs b <= ms * Rabs c \/ c = 0 ->
  exactly_roots [a; b; c] (solve_quadratic ms [a; b; c]) /\
  nondecreasing (solve_quadratic ms [a; b; c]) /\
  (a <> 0 \/ b <> 0 -> increasing (solve_quadratic ms [a; b; c])).
Proof. exact quadratic_correct. Qed.
Print Assumptions C12_quadratic_partial.

Example C12_example : [6; -5; 1] <> [0; 0; 0] /\ Rabs (-5) <= 10 * Rabs 1 /\
  exactly_roots [6; -5; 1] [2; 3].
Proof.
  split; [intros E; injection E; intros; lra|]. split; [rewrite Rabs_R1, Rabs_left; lra|].
  intros x. unfold is_root. rewrite pval3. cbn [In]. split.
  - intros [<-|[<-|[]]]; ring.
  - intros E. assert (H : (x - 2) * (x - 3) = 0) by lra. apply Rmult_integral in H. destruct H; [left|right; left]; lra.
Qed.

(** x^2 has one real root, listed twice *)
Theorem C12_double_zero_refuted : forall ms c, c <> 0 -> solve_quadratic ms [0; 0; c] = [0; 0].
Proof.
  intros ms c Hc. unfold solve_quadratic. cbn [get nth n0 R_num].
  destruct (Reqb_spec c 0); [contradiction|]. rewrite div0_3. cbn [get nth n0 R_num].
  destruct (Reqb_spec (0 + 0 / c) 0) as [E|E]; [|exfalso; apply E; field; exact Hc].
  replace (0 + 0 / c) with 0 by (field; exact Hc). rewrite Ropp_0.
  unfold Rmin, Rmax. repeat destruct Rle_dec; reflexivity.
Qed.
Print Assumptions C12_double_zero_refuted.

(** The overflow-avoiding branch of the quadratic solver, |b/c| > ms: its two
    values approximate the real roots with relative error at most 4|ac|/b^2 ... *)
Theorem C12_overflow_approximation : forall ms a b c : R,
  0 <= ms -> a <> 0 -> ms * Rabs c < Rabs b -> c <> 0 -> 8 * Rabs (a * c) <= b * b ->
  exists r1 r2 x1 x2, solve_quadratic ms [a; b; c] = [x1; x2] /\ x1 <= x2 /\
    exactly_roots [a; b; c] [r1; r2] /\
    Rabs (x1 - r1) <= 4 * (Rabs (a * c) / (b * b)) * Rabs r1 /\
    Rabs (x2 - r2) <= 4 * (Rabs (a * c) / (b * b)) * Rabs r2.
Proof.
  intros ms a b c Hms Ha Hb Hc Hs.
  assert (Hb0 : b <> 0). { intros ->. rewrite Rabs_R0 in Hb. assert (0 <= Rabs c) by apply Rabs_pos. nra. }
  assert (Hbb : 0 < b * b) by nra.
  set (p := b / c). set (q := a / c).
  assert (Hp : ms < Rabs p).
  { unfold p, Rdiv. rewrite Rabs_mult, Rabs_inv. apply (Rmult_lt_reg_r (Rabs c)); [apply Rabs_pos_lt; auto|].
    rewrite Rmult_assoc, Rinv_l, Rmult_1_r; [exact Hb|apply Rabs_no_R0; auto]. }
  assert (Hp0 : p <> 0) by (intros E; rewrite E, Rabs_R0 in Hp; lra).
  assert (Hq0 : q <> 0). { unfold q. intros E. apply Ha. apply (f_equal (fun v => v * c)) in E. unfold Rdiv in E. rewrite Rmult_assoc, Rinv_l in E by auto. lra. }
  assert (Hpq : Rabs (a * c) / (b * b) = Rabs q / (p * p)).
  { unfold p, q. rewrite Rabs_mult. replace (Rabs (a / c)) with (Rabs a * / Rabs c) by (unfold Rdiv; rewrite Rabs_mult, Rabs_inv; reflexivity).
    assert (E : c * c = Rabs c * Rabs c) by (rewrite <- Rabs_mult; symmetry; apply Rabs_pos_eq; nra).
    assert (Rabs c <> 0) by (apply Rabs_no_R0; auto). replace (b / c * (b / c)) with (b * b / (c * c)) by (field; auto). rewrite E. field. split; auto. }
  assert (Hpp : 0 < p * p) by nra.
  assert (Hq8 : 8 * Rabs q <= p * p).
  { assert (Z : 8 * (Rabs (a * c) / (b * b)) <= 1). { apply (Rmult_le_reg_r (b * b)); auto. replace (8 * (Rabs (a * c) / (b * b)) * (b * b)) with (8 * Rabs (a * c)) by (field; auto). lra. }
    rewrite Hpq in Z. apply (Rmult_le_compat_r (p * p)) in Z; [|lra]. replace (8 * (Rabs q / (p * p)) * (p * p)) with (8 * Rabs q) in Z by (field; auto). lra. }
  set (D := p * p - 4 * q). assert (HD : p * p / 2 <= D) by (unfold D; pose proof (Rle_abs q); lra).
  set (w := sqrt D). assert (Hw : w * w = D) by (apply sqrt_sqrt; nra). assert (Hw0 : 0 < w) by (apply sqrt_lt_R0; nra).
  (* the large root *)
  set (Rb := if Rle_dec 0 p then (- p - w) / 2 else (- p + w) / 2).
  assert (RbE : Rb * Rb + p * Rb + q = 0) by (unfold Rb; destruct Rle_dec; unfold D in Hw; nra).
  assert (RbB : Rabs p / 2 <= Rabs Rb).
  { unfold Rb. destruct Rle_dec; [rewrite (Rabs_pos_eq p), Rabs_left by lra|rewrite (Rabs_left p), Rabs_pos_eq by lra]; lra. }
  assert (Rb0 : Rb <> 0) by (intros E; rewrite E, Rabs_R0 in RbB; assert (0 < Rabs p) by (apply Rabs_pos_lt; auto); lra).
  set (r := q / Rb). assert (rE : r * r + p * r + q = 0).
  { unfold r. replace (q / Rb * (q / Rb) + p * (q / Rb) + q) with (q / (Rb * Rb) * (Rb * Rb + p * Rb + q)) by (field; auto). rewrite RbE. ring. }
  assert (sumE : r = - p - Rb). { unfold r. apply (Rmult_eq_reg_r Rb); auto. replace (q / Rb * Rb) with q by (field; auto). lra. }
  assert (Fac : forall x, x * x + p * x + q = (x - Rb) * (x - r)) by (intros x; rewrite sumE; nra).
  assert (Rootiff : forall x, is_root [a; b; c] x <-> x = Rb \/ x = r).
  { intros x. unfold is_root. rewrite pval3. assert (E : a + b * x + c * (x * x) = c * (x * x + p * x + q)) by (unfold p, q; field; auto).
    assert (E' : pval [a; b; c] x = c * ((x - Rb) * (x - r))) by (rewrite pval3, <- Fac; unfold p, q; field; auto). rewrite pval3 in E'. rewrite E'. split.
    - intros Z. apply Rmult_integral in Z. destruct Z as [Z|Z]; [contradiction|]. apply Rmult_integral in Z. destruct Z; [left|right]; lra.
    - intros [-> | ->]; ring. }
  (* errors *)
  set (e := 4 * (Rabs q / (p * p))). assert (He : 0 <= e). { unfold e. assert (0 <= Rabs q / (p * p)); [|lra]. apply Rmult_le_pos; [apply Rabs_pos|left; apply Rinv_0_lt_compat; auto]. }
  assert (RR : p * p / 4 <= Rb * Rb).
  { replace (p * p) with (Rabs p * Rabs p) by (rewrite <- Rabs_mult; apply Rabs_pos_eq; lra). replace (Rb * Rb) with (Rabs Rb * Rabs Rb) by (rewrite <- Rabs_mult; apply Rabs_pos_eq; nra).
    assert (0 <= Rabs p) by apply Rabs_pos. nra. }
  assert (Er : Rabs r <= e * Rabs Rb).
  { unfold r, e, Rdiv. rewrite Rabs_mult, Rabs_inv. assert (PR : 0 < Rabs Rb) by (apply Rabs_pos_lt; auto). apply (Rmult_le_reg_r (Rabs Rb)); auto.
    rewrite Rmult_assoc, Rinv_l, Rmult_1_r by lra. replace (4 * (Rabs q * / (p * p)) * Rabs Rb * Rabs Rb) with (Rabs q * (4 * (Rabs Rb * Rabs Rb) / (p * p))) by (field; auto).
    rewrite <- (Rmult_1_r (Rabs q)) at 1. apply Rmult_le_compat_l; [apply Rabs_pos|]. rewrite <- Rabs_mult, (Rabs_pos_eq (Rb * Rb)) by nra.
    apply (Rmult_le_reg_r (p * p)); auto. replace (4 * (Rb * Rb) / (p * p) * (p * p)) with (4 * (Rb * Rb)) by (field; auto). lra. }
  assert (E1 : Rabs (- p - Rb) <= e * Rabs Rb) by (rewrite <- sumE; exact Er).
  assert (E2 : Rabs (- q / p - r) <= e * Rabs r).
  { replace (- q / p - r) with (r * ((- p - Rb) / p)) by (unfold r; field; auto). rewrite Rabs_mult, Rmult_comm. apply Rmult_le_compat_r; [apply Rabs_pos|].
    rewrite <- sumE. unfold Rdiv. rewrite Rabs_mult, Rabs_inv. assert (PP : 0 < Rabs p) by (apply Rabs_pos_lt; auto). apply (Rmult_le_reg_r (Rabs p)); auto.
    rewrite Rmult_assoc, Rinv_l, Rmult_1_r by lra. unfold r, e, Rdiv. rewrite Rabs_mult, Rabs_inv. assert (PR : 0 < Rabs Rb) by (apply Rabs_pos_lt; auto).
    apply (Rmult_le_reg_r (Rabs Rb)); auto. rewrite Rmult_assoc, Rinv_l, Rmult_1_r by lra.
    replace (4 * (Rabs q * / (p * p)) * Rabs p * Rabs Rb) with (Rabs q * (4 * (Rabs p * Rabs Rb) / (p * p))) by (field; auto).
    rewrite <- (Rmult_1_r (Rabs q)) at 1. apply Rmult_le_compat_l; [apply Rabs_pos|]. apply (Rmult_le_reg_r (p * p)); auto.
    replace (4 * (Rabs p * Rabs Rb) / (p * p) * (p * p)) with (4 * (Rabs p * Rabs Rb)) by (field; auto).
    replace (p * p) with (Rabs p * Rabs p) by (rewrite <- Rabs_mult; apply Rabs_pos_eq; lra). nra. }
  assert (Sol : solve_quadratic ms [a; b; c] = if Rltb (- q / p) (- p) then [- q / p; - p] else [- p; - q / p]).
  { unfold solve_quadratic. cbn [get nth n0 R_num]. destruct (Reqb_spec c 0); [contradiction|]. rewrite div0_3. cbn [get nth n0 R_num]. rewrite !Rplus_0_l. fold p q.
    destruct (Reqb_spec q 0); [contradiction|]. destruct (Rltb_spec ms (Rabs p)); [|contradiction]. reflexivity. }
  rewrite Hpq. fold e. rewrite Sol. destruct (Rltb_spec (- q / p) (- p)) as [O|O].
  - exists r, Rb, (- q / p), (- p). split; [reflexivity|]. split; [lra|]. split; [|split; assumption].
    intros x. rewrite Rootiff. cbn [In]. split; [intros [<-|[<-|[]]]; auto|intros [-> | ->]; auto].
  - exists Rb, r, (- p), (- q / p). split; [reflexivity|]. split; [lra|]. split; [|split; assumption].
    intros x. rewrite Rootiff. cbn [In]. split; [intros [<-|[<-|[]]]; auto|intros [-> | ->]; auto].
Qed.
Print Assumptions C12_overflow_approximation.
Example C12_overflow_example : 0 <= 10 /\ 1 <> 0 /\ 10 * Rabs 1 < Rabs 20 /\ 8 * Rabs (1 * 1) <= 20 * 20.
Proof. rewrite Rmult_1_r, Rabs_R1, (Rabs_pos_eq 20) by lra. lra. Qed.
(** ... but without a bound on a/c the branch answers two values for quadratics
    without any real root *)
Theorem C12_overflow_refuted : forall ms, 0 < ms ->
  let f := [2 * ms * ms; 2 * ms; 1] in
  (forall x, ~ is_root f x) /\ length (solve_quadratic ms f) = 2%nat.
Proof.
  intros ms Hm f. split.
  - intros x. unfold is_root, f. rewrite pval3. intros E. assert ((x + ms) * (x + ms) + ms * ms = 0) by lra. pose proof (Rle_0_sqr (x + ms)) as Q. unfold Rsqr in Q. assert (0 < ms * ms) by (apply Rmult_lt_0_compat; auto). lra.
  - unfold f, solve_quadratic. cbn [get nth n0 R_num]. destruct (Reqb_spec 1 0); [lra|]. rewrite div0_3. cbn [get nth n0 R_num].
    replace (0 + 2 * ms * ms / 1) with (2 * ms * ms) by field. replace (0 + 2 * ms / 1) with (2 * ms) by field.
    destruct (Reqb_spec (2 * ms * ms) 0); [nra|]. rewrite Rabs_pos_eq by lra. destruct (Rltb_spec ms (2 * ms)); [|lra]. destruct (Rltb _ _); reflexivity.
Qed.
Print Assumptions C12_overflow_refuted.

(** Exactly when order 2 is solved: in the overflow-avoiding branch no value returned
    is a root (unless the constant coefficient is 0), and c*x^2 lists its root twice. *)
Theorem C12_quadratic_iff : forall ms a b c : R, 0 <= ms -> [a; b; c] <> [0; 0; 0] ->
  exactly_roots [a; b; c] (solve_quadratic ms [a; b; c]) /\ increasing (solve_quadratic ms [a; b; c]) <->
  c = 0 \/ (a = 0 /\ b <> 0) \/ (a <> 0 /\ Rabs b <= ms * Rabs c).
Proof.
  intros ms a b c Hms Hn.
  assert (Rt : forall x, is_root [a; b; c] x <-> a + b * x + c * (x * x) = 0) by (intros x; unfold is_root; rewrite pval3; replace (c * (x * x)) with (c * x * x) by ring; reflexivity).
  split.
  - intros [X I]. destruct (Req_dec c 0) as [C|C]; [left; exact C|right].
    destruct (Req_dec a 0) as [A|A].
    + left. split; [exact A|]. intros B. subst a b. rewrite (C12_double_zero_refuted ms c C) in I.
      inversion I as [|? ? _ H]; subst. inversion H; subst. lra.
    + right. split; [exact A|]. apply Rnot_lt_le. intros B.
      set (p := b / c). set (q := a / c).
      assert (Hb0 : b <> 0). { intros ->. rewrite Rabs_R0 in B. assert (0 <= Rabs c) by apply Rabs_pos. nra. }
      assert (Hp : ms < Rabs p).
      { unfold p, Rdiv. rewrite Rabs_mult, Rabs_inv. apply (Rmult_lt_reg_r (Rabs c)); [apply Rabs_pos_lt; auto|].
        rewrite Rmult_assoc, Rinv_l, Rmult_1_r; [exact B|apply Rabs_no_R0; auto]. }
      assert (Hq0 : q <> 0). { unfold q. intros E. apply A. apply (f_equal (fun v => v * c)) in E. unfold Rdiv in E. rewrite Rmult_assoc, Rinv_l in E by auto. lra. }
      assert (In (- p) (solve_quadratic ms [a; b; c])).
      { unfold solve_quadratic. cbn [get nth n0 R_num]. destruct (Reqb_spec c 0); [contradiction|]. rewrite div0_3. cbn [get nth n0 R_num]. rewrite !Rplus_0_l. fold p q.
        destruct (Reqb_spec q 0); [contradiction|]. destruct (Rltb_spec ms (Rabs p)); [|contradiction].
        destruct (Rltb _ _); [right; left|left]; reflexivity. }
      apply X, Rt in H. apply A. rewrite <- H. unfold p. field. exact C.
  - intros H. assert (P : (a = 0 /\ b <> 0 /\ c <> 0) \/ (Rabs b <= ms * Rabs c \/ c = 0) /\ (a <> 0 \/ b <> 0)).
    { destruct (Req_dec c 0) as [C|C].
      - right. split; [auto|]. destruct (Req_dec a 0) as [A|A]; [|auto]. right. intros B. apply Hn. congruence.
      - destruct H as [H|[[H1 H2]|[H1 H2]]]; [contradiction|left; auto|right; auto]. }
    destruct P as [(A & B & C)|[P Q]].
    + subst a. set (p := b / c).
      assert (p <> 0). { unfold p. intros E. apply B. apply (f_equal (fun v => v * c)) in E. unfold Rdiv in E. rewrite Rmult_assoc, Rinv_l in E by auto. lra. }
      assert (Sol : solve_quadratic ms [0; b; c] = [Rmin (- p) 0; Rmax (- p) 0]).
      { unfold solve_quadratic. cbn [get nth n0 R_num]. destruct (Reqb_spec c 0); [contradiction|]. rewrite div0_3. cbn [get nth n0 R_num]. rewrite !Rplus_0_l. fold p.
        destruct (Reqb_spec (0 / c) 0) as [E|E]; [reflexivity|]. exfalso. apply E. field. exact C. }
      rewrite Sol. split.
      * intros x. rewrite Rt. assert (F : 0 + b * x + c * (x * x) = c * ((x - (- p)) * x)) by (unfold p; field; exact C). rewrite F.
        assert (Z : c * ((x - - p) * x) = 0 <-> x = - p \/ x = 0).
        { split; [|intros [-> | ->]; ring]. intros E. apply Rmult_integral in E. destruct E as [E|E]; [contradiction|].
          apply Rmult_integral in E. destruct E; [left|right]; lra. }
        rewrite Z. cbn [In]. unfold Rmin, Rmax. destruct Rle_dec; firstorder congruence.
      * unfold Rmin, Rmax. destruct Rle_dec; repeat constructor; lra.
    + destruct (C12_quadratic_partial ms a b c Hms Hn P) as (X & _ & I). split; [exact X|exact (I Q)].
Qed.
Print Assumptions C12_quadratic_iff.

(* ------------------------------------------------------------------ C13 *)
(** cubics.  [B] bounds the coefficients of the monic polynomial and 16 B^4 <= ms
    keeps every intermediate value below sqrt(DBL_MAX), so that none of the
    overflow-avoiding approximations is taken.  Roots of multiplicity two may be
    listed twice. *)
Theorem C13_cubic_partial : forall ms prefer prec a b c d B,
  1 <= B -> 16 * B ^ 4 <= ms -> d <> 0 ->
  Rabs a <= B * Rabs d -> Rabs b <= B * Rabs d -> Rabs c <= B * Rabs d ->
  exists l, solve_cubic ms prefer prec [a; b; c; d] = Ret l /\
    exactly_roots [a; b; c; d] l /\ nondecreasing l.
Proof.
  intros ms pf prec a b c d B H1 H2. apply cubic_correct; [exact H1|].
  replace (B * B * B * B) with (B ^ 4) by ring. exact H2.
Qed.
Print Assumptions C13_cubic_partial.

(** the overflow-avoiding branches of the cubic: (x+1)(x^2 + ms x + ms^2/2) has the
    single real root -1, but -(ms+1) is among the returned values *)
Lemma deflate3_total pf a0 a1 a2 a3 root : root <> 0 -> exists d0 d1 d2, deflate_polynomial pf [a0; a1; a2; a3] root = Ret [d0; d1; d2].
Proof.
  intros Hr. unfold deflate_polynomial. cbn [neqb n0 R_num]. destruct (Reqb_spec root 0); [contradiction|].
  lazy -[Rplus Rmult Rminus Ropp Rdiv Rinv IZR]. match goal with |- context [if pf ?x ?y ?z ?w then _ else _] => destruct (pf x y z w) end; eauto.
Qed.
Theorem C13_overflow_refuted : forall ms prefer prec, 1 <= ms ->
  let f := [ms * ms / 2; ms * ms / 2 + ms; ms + 1; 1] in
  (forall x, is_root f x <-> x = -1) /\
  exists l, solve_cubic ms prefer prec f = Ret l /\ In (- (ms + 1)) l.
Proof.
  intros ms pf prec Hm f. split.
  - intros x. unfold is_root, f. rewrite pval4. split.
    + intros E. assert (Q : (x + 1) * (x * x + ms * x + ms * ms / 2) = 0) by lra. apply Rmult_integral in Q. destruct Q as [Q|Q]; [lra|].
      exfalso. assert ((2 * x + ms) * (2 * x + ms) + ms * ms = 0) by lra. pose proof (Rle_0_sqr (2 * x + ms)) as Q1. unfold Rsqr in Q1. assert (0 < ms * ms) by (apply Rmult_lt_0_compat; lra). lra.
    + intros ->. field.
  - unfold f, solve_cubic. cbn [get nth n0 R_num]. destruct (Reqb_spec 1 0) as [Q1|Q1]; [lra|]. destruct (Reqb_spec (ms * ms / 2) 0) as [Q2|Q2]; [nra|].
    rewrite div0_4. cbn [get nth n0 R_num]. replace (0 + (ms + 1) / 1) with (ms + 1) by field.
    destruct (Reqb_spec (ms + 1) 0) as [Q3|Q3]; [lra|]. cbn [andb]. destruct (Rltb_spec ms (ms + 1)); [|lra]. cbn [orb].
    unfold deflate_and_solve.
    destruct (deflate3_total pf (0 + ms * ms / 2 / 1) (0 + (ms * ms / 2 + ms) / 1) (ms + 1) (0 + 1 / 1) (- (ms + 1)) ltac:(lra)) as (d0 & d1 & d2 & ->). cbn [obind].
    unfold sv_push. rewrite map_length.
    assert (LQ : (length (solve_quadratic ms [d0; d1; d2]) < 3)%nat).
    { unfold solve_quadratic, solve_linear. repeat match goal with |- context [if ?c then _ else _] => destruct c end; cbn [length]; lia. }
    destruct (Nat.ltb_spec (length (solve_quadratic ms [d0; d1; d2])) 3); [|lia]. cbn [obind]. eexists. split; [reflexivity|].
    apply rsort_In. apply in_or_app. right. left. reflexivity.
Qed.
Print Assumptions C13_overflow_refuted.

(** zero leading coefficient: the quadratic solver answers *)
Theorem C13_degenerate : forall ms prefer prec a b c,
  0 <= ms -> [a; b; c] <> [0; 0; 0] -> Rabs b <= ms * Rabs c \/ c = 0 ->
  exists l, solve_cubic ms prefer prec [a; b; c; 0] = Ret l /\
    exactly_roots [a; b; c; 0] l /\ nondecreasing l.
Proof.
  intros ms pf prec a b c Hms Hn Ho. destruct (quadratic_correct ms a b c Hms Hn Ho) as (Q1 & Q2 & _).
  exists (solve_quadratic ms [a; b; c]). split; [|split; [|exact Q2]].
  - unfold solve_cubic. cbn [get nth n0 R_num]. destruct (Reqb_spec 0 0); [|lra]. reflexivity.
  - intros x. rewrite (Q1 x). unfold is_root. rewrite pval3, pval4. split; intros E; lra.
Qed.
Print Assumptions C13_degenerate.

(** (x-1)(x-2)(x-3) with sqrt(DBL_MAX) replaced by the much smaller 16 * 11^4 *)
Example C13_example : 1 <= 11 /\ 16 * 11 ^ 4 <= 300000 /\ 1 <> 0 /\
  Rabs (-6) <= 11 * Rabs 1 /\ Rabs 11 <= 11 * Rabs 1 /\ exactly_roots [-6; 11; -6; 1] [1; 2; 3].
Proof.
  rewrite Rabs_R1, (Rabs_left (-6)), (Rabs_pos_eq 11) by lra.
  split; [lra|]. split; [lra|]. split; [lra|]. split; [lra|]. split; [lra|].
  intros x. unfold is_root. rewrite pval4. cbn [In]. split.
  - intros [<-|[<-|[<-|[]]]]; ring.
  - intros E. assert (H : (x - 1) * ((x - 2) * (x - 3)) = 0) by lra.
    apply Rmult_integral in H. destruct H as [H|H]; [left; lra|]. apply Rmult_integral in H. destruct H; right; [left|right; left]; lra.
Qed.

(* ------------------------------------------------------------------ C14 *)
Lemma last_get (f : list R) : last f 0 = get f (porder f).
Proof.
  unfold get, porder. induction f as [|a [|b f] IH]; try reflexivity.
  change (last (a :: b :: f) 0) with (last (b :: f) 0). rewrite IH. reflexivity.
Qed.

(** What the Sturm mode needs to know about the positive roots of [g]: they are
    all simple, or none of them (of whatever multiplicity) is one of the points
    l + (u - l) i / 2^k reached by halving the interval [l,u] between the
    computed bounds.  C14_multiple_root_refuted and C14_touching_root_refuted
    (PropSolver.v) show that something of the kind is needed. *)
Definition positive_roots_tame (g : list R) : Prop :=
  (forall x, 0 < x -> is_root g x -> ~ derivable_pt_lim (pval g) x 0) \/
  (forall l u k i, LMQ_lower g = Ret (Fin l) -> LMQ_upper g = Ret (Fin u) ->
     ~ is_root g (l + (u - l) * (INR i / 2 ^ k))).

(** The general solver in its default (Sturm) mode terminates, and returns a
    nondecreasing list matching the distinct real roots one to one, each value
    equal to its root up to the relative tolerance.  [eps]: Sturm tolerance;
    [prec]: bisection precision.  Order at most 30: see C18_ub.  The two missing
    parts of the full statement are zero constant coefficients and multiple
    roots at halving points; both are refuted. *)
Theorem C14_sturm_partial : forall eps prec veps ms prefer tol (f : list R),
  0 < eps -> eps <= tol -> Rabs prec <= tol ->
  (5 <= length f <= 31)%nat -> nth 0 f 0 <> 0 -> last f 0 <> 0 ->
  positive_roots_tame f -> positive_roots_tame (reflect_poly f) ->
  exists fuel L, (forall fu, (fuel <= fu)%nat ->
      solve_real_roots eps prec veps ms prefer (length f - 1) fu STURM f = Ret L) /\
    nondecreasing L /\
    exists rs, Forall2 (close_to tol) L rs /\ NoDup rs /\ exactly_roots f rs.
Proof.
  intros eps prec veps ms pf tol f He H1 H2 Ho H0 Hl Hs Hr.
  assert (T : forall g, positive_roots_tame g -> side_ok g).
  { intros g [S1|S1]; [left; exact S1|right]. intros l u x El Eu (k & i & _ & ->). apply (S1 l u k i El Eu). }
  pose proof (last_get f) as EL.
  rewrite EL in Hl.
  destruct (solver_sturm_ok eps prec veps ms pf tol f He H1 H2) as (fuel & L & P); auto.
  { unfold porder. lia. }
  exists fuel, L. split.
  - intros fu Hfu. replace (length f - 1)%nat with (porder f) by (unfold porder; lia). apply P, Hfu.
  - apply (P fuel (le_n _)).
Qed.
Print Assumptions C14_sturm_partial.

Lemma simple_tame f : f <> [] -> simple_roots f -> positive_roots_tame f /\ positive_roots_tame (reflect_poly f).
Proof. intros Hf Hs. split; left; intros x _ Hx; [apply Hs, Hx|apply (simple_reflect f Hf Hs), Hx]. Qed.

(** The VAS mode: whenever it returns (its bisections may fail or it may not
    terminate), the answer is right. *)
Theorem C14_vas_partial : forall eps prec veps ms prefer tol (f : list R) fuel L,
  0 <= veps -> Rabs prec <= tol ->
  (5 <= length f)%nat -> nth 0 f 0 <> 0 -> last f 0 <> 0 -> simple_roots f ->
  solve_real_roots eps prec veps ms prefer (length f - 1) fuel VAS f = Ret L ->
  nondecreasing L /\ exists rs, Forall2 (close_to tol) L rs /\ NoDup rs /\ exactly_roots f rs.
Proof.
  intros eps prec veps ms pf tol f fuel L Hv Hp Ho H0 Hl Hs.
  pose proof (last_get f) as EL.
  rewrite EL in Hl. replace (length f - 1)%nat with (porder f) by (unfold porder; lia).
  intros E. apply (solver_vas_ok eps prec veps ms pf tol f fuel L Hv Hp); auto. unfold porder; lia.
Qed.
Print Assumptions C14_vas_partial.

(** x^4 - 1 meets the hypotheses *)
Example C14_example : nth 0 [-1; 0; 0; 0; 1] 0 <> 0 /\ last [-1; 0; 0; 0; 1] 0 <> 0 /\
  simple_roots [-1; 0; 0; 0; 1] /\ exactly_roots [-1; 0; 0; 0; 1] [-1; 1].
Proof.
  assert (F : forall x, pval [-1; 0; 0; 0; 1] x = x * x * (x * x) - 1) by (intros x; rewrite !pval_cons, pval_nil; ring).
  split; [cbn; lra|]. split; [cbn; lra|].
  assert (X : exactly_roots [-1; 0; 0; 0; 1] [-1; 1]).
  { intros x. unfold is_root. rewrite F. cbn [In]. split.
    - intros [<-|[<-|[]]]; ring.
    - intros E. assert (H : (x * x + 1) * ((x + 1) * (x - 1)) = 0) by lra.
      apply Rmult_integral in H. destruct H as [H|H]; [nra|]. apply Rmult_integral in H. destruct H; [left|right; left]; lra. }
  split; [|exact X]. intros x Hx D.
  pose proof (uniqueness_limite _ _ _ _ D (pval_derivable [-1; 0; 0; 0; 1] x)) as E.
  assert (P : pval (fder [-1; 0; 0; 0; 1]) x = 4 * (x * x * x)).
  { unfold fder. simpl. rewrite !pval_cons, pval_nil. cbn [get nth]. ring. }
  rewrite P in E. apply X in Hx. destruct Hx as [<-|[<-|[]]]; lra.
Qed.

(** x(x-1)(x-2)(x-3): the zero root is lost *)
Theorem C14_zero_root_refuted : forall eps prec veps ms prefer fuel mode, 300000 <= ms ->
  is_root [0; -6; 11; -6; 1] 0 /\
  exists L, solve_real_roots eps prec veps ms prefer 4 fuel mode [0; -6; 11; -6; 1] = Ret L /\
    In 1 L /\ In 2 L /\ In 3 L /\ ~ In 0 L.
Proof.
  intros eps prec veps ms pf fuel mode Hms. split; [unfold is_root; rewrite !pval_cons, pval_nil; ring|].
  destruct (C13_cubic_partial ms pf prec (-6) 11 (-6) 1 11) as (L & EL & XL & _); try lra;
    try (rewrite Rabs_R1; rewrite ?(Rabs_left (-6)), ?(Rabs_pos_eq 11); lra).
  exists L. split.
  - cbn [solve_real_roots]. change (porder [0; -6; 11; -6; 1]) with 4%nat. cbv iota.
    change (get [0; -6; 11; -6; 1] 0) with 0. destruct (Reqb_spec 0 0) as [_|]; [|lra].
    change (deflate_null [0; -6; 11; -6; 1]) with [-6; 11; -6; 1]. change (porder [-6; 11; -6; 1]) with 3%nat. cbv iota. exact EL.
  - unfold exactly_roots, is_root in XL.
    split; [apply XL; rewrite pval4; ring|]. split; [apply XL; rewrite pval4; ring|]. split; [apply XL; rewrite pval4; ring|].
    intros H. apply XL in H. rewrite pval4 in H. lra.
Qed.
Print Assumptions C14_zero_root_refuted.

(** Leading zeros are stripped and roots at zero divided out first: whatever the
    requested method, the answer for x^k * g (with m leading zero coefficients)
    consists of exactly the non-zero real roots.  (That a root 0 is dropped is
    C14_zero_root_refuted.) *)
Lemma solver_strip_low eps prec veps ms pb n fu mode f : (4 <= length f)%nat ->
  solve_real_roots eps prec veps ms pb (S n) fu mode (0 :: f) = solve_real_roots eps prec veps ms pb n fu STURM f.
Proof.
  intros Hl. cbn [solve_real_roots]. destruct f as [|a [|b [|c [|d f]]]]; cbn [length] in Hl; try lia.
  change (porder (0 :: a :: b :: c :: d :: f)) with (S (S (S (S (length f))))). cbv iota.
  change (get (0 :: a :: b :: c :: d :: f) 0) with 0. destruct (Reqb_spec 0 0) as [_|]; [|lra]. reflexivity.
Qed.
Lemma change_order_snoc (g : list R) : g <> [] -> change_order (porder (g ++ [0]) - 1) (g ++ [0]) = g.
Proof.
  intros Hg. destruct (change_order_spec (porder (g ++ [0]) - 1) (g ++ [0])) as [L G].
  assert (Hl : (porder (g ++ [0]%R) - 1 = length g - 1)%nat) by (unfold porder; rewrite app_length; cbn [length]; lia).
  assert (Hp : (0 < length g)%nat) by (destruct g; [congruence|cbn [length]; lia]).
  apply list_eq_get; [rewrite L, Hl; lia|]. intros i _. rewrite G, Hl. unfold get. destruct (Nat.leb_spec i (length g - 1)) as [W|W].
  - apply app_nth1. lia.
  - rewrite nth_overflow by lia. reflexivity.
Qed.
Lemma solver_strip_high eps prec veps ms pb n fu mode g : (4 <= length g)%nat -> nth 0 g 0 <> 0 ->
  solve_real_roots eps prec veps ms pb (S n) fu mode (g ++ [0]) = solve_real_roots eps prec veps ms pb n fu STURM g.
Proof.
  intros Hl H0. cbn [solve_real_roots]. pose proof (change_order_snoc g) as C. destruct g as [|a [|b [|c [|d g]]]]; cbn [length] in Hl; try lia.
  rewrite C by discriminate. rewrite <- last_get, last_last.
  change (porder ((a :: b :: c :: d :: g) ++ [0])) with (S (S (S (length (g ++ [0]))))). rewrite app_length, Nat.add_comm. cbn [length Nat.add].
  change (get ((a :: b :: c :: d :: g) ++ [0]) 0) with a. cbn [nth] in H0. destruct (Reqb_spec a 0) as [|_]; [contradiction|]. destruct (Reqb_spec 0 0) as [_|]; [|lra]. reflexivity.
Qed.
Lemma solver_strip eps prec veps ms pb fu g : (5 <= length g)%nat -> nth 0 g 0 <> 0 -> forall k m mode, (k + m = 0 -> mode = STURM)%nat ->
  solve_real_roots eps prec veps ms pb (length (repeat 0 k ++ g ++ repeat 0 m) - 1) fu mode (repeat 0 k ++ g ++ repeat 0 m) =
  solve_real_roots eps prec veps ms pb (length g - 1) fu STURM g.
Proof.
  intros Hl H0. induction k as [|k IH]; intros m mode Hm.
  - cbn [repeat app]. revert mode Hm. induction m as [|m IH]; intros mode Hm.
    + cbn [repeat]. rewrite app_nil_r, Hm by reflexivity. reflexivity.
    + change (repeat 0 (S m)) with (0 :: repeat 0 m). rewrite repeat_cons, app_assoc.
      assert (P : (length ((g ++ repeat 0%R m) ++ [0%R]) - 1 = S (length (g ++ repeat 0%R m) - 1))%nat) by (rewrite !app_length; cbn [length]; lia).
      rewrite P, solver_strip_high.
      * apply IH. reflexivity.
      * rewrite app_length. lia.
      * rewrite app_nth1 by lia. exact H0.
  - cbn [repeat app]. set (f := repeat 0 k ++ g ++ repeat 0 m) in *.
    assert (P : (4 <= length f)%nat) by (unfold f; rewrite !app_length; lia).
    replace (length (0%R :: f) - 1)%nat with (S (length f - 1)) by (cbn [length]; lia). rewrite solver_strip_low by exact P. apply IH. reflexivity.
Qed.
Theorem C14_padded : forall eps prec veps ms prefer tol (g : list R) k m mode,
  0 < eps -> eps <= tol -> Rabs prec <= tol ->
  (5 <= length g <= 31)%nat -> nth 0 g 0 <> 0 -> last g 0 <> 0 ->
  positive_roots_tame g -> positive_roots_tame (reflect_poly g) ->
  (k + m = 0 -> mode = STURM)%nat ->
  let f := repeat 0 k ++ g ++ repeat 0 m in
  exists fuel L, (forall fu, (fuel <= fu)%nat ->
      solve_real_roots eps prec veps ms prefer (length f - 1) fu mode f = Ret L) /\
    nondecreasing L /\
    exists rs, Forall2 (close_to tol) L rs /\ NoDup rs /\ forall x, In x rs <-> is_root f x /\ x <> 0.
Proof.
  intros eps prec veps ms pf tol g k m mode He H1 H2 Ho H0 Hl Hs Hs' Hm f.
  destruct (C14_sturm_partial eps prec veps ms pf tol g He H1 H2 Ho H0 Hl Hs Hs') as (fuel & L & E & Nd & rs & A & B & X).
  exists fuel, L. split; [intros fu Hfu; unfold f; rewrite solver_strip; auto; lia|]. split; [exact Nd|]. exists rs. split; [exact A|]. split; [exact B|].
  intros x. rewrite (X x). unfold is_root. unfold f. rewrite pval_app, pval_app, !pval_repeat0, repeat_length.
  assert (G0 : pval g 0 <> 0) by (rewrite pval_at_0; exact H0). split.
  - intros E0. split; [rewrite E0; ring|]. intros ->. contradiction.
  - intros [E0 Nx]. destruct (Req_dec (pval g x) 0) as [|N]; auto. exfalso. assert (P : x ^ k * pval g x = 0) by lra.
    apply Rmult_integral in P. destruct P as [P|P]; [|contradiction]. revert P. apply pow_nonzero. exact Nx.
Qed.
Print Assumptions C14_padded.
(** x^2 (x^4 - 1), stored with one leading zero *)
Example C14_padded_example : exists fuel L, (forall fu, (fuel <= fu)%nat ->
    solve_real_roots (/ 1024) (/ 1024) 0 1000 (fun _ _ _ _ => true) 7 fu VAS [0; 0; -1; 0; 0; 0; 1; 0] = Ret L) /\ length L = 2%nat.
Proof.
  destruct C14_example as (A & B & D & X).
  destruct (C14_padded (/ 1024) (/ 1024) 0 1000 (fun _ _ _ _ => true) (/ 1024) [-1; 0; 0; 0; 1] 2 1 VAS) as (fuel & L & E & _ & rs & F & Nd & R); auto; try lra.
  { rewrite Rabs_pos_eq; lra. } { cbn [length]; lia. } { apply simple_tame; [discriminate|exact D]. } { apply simple_tame; [discriminate|exact D]. } { intros; lia. }
  exists fuel, L. split; [exact E|]. assert (FL : length L = length rs) by (clear - F; induction F; cbn [length]; congruence). rewrite FL. clear - R Nd X.
  assert (Q : forall x, In x rs <-> In x [-1; 1]).
  { intros x. rewrite (R x), (X x). unfold is_root. cbn [repeat app]. rewrite !pval_cons, pval_nil. split.
    - intros [E0 Nx]. assert (P : x * x * (-1 + x * (0 + x * (0 + x * (0 + x * (1 + x * 0))))) = 0) by lra. apply Rmult_integral in P. destruct P as [P|P]; [nra|exact P].
    - intros E0. split; [|intros ->; lra]. replace (0 + x * _) with (x * x * (-1 + x * (0 + x * (0 + x * (0 + x * (1 + x * 0)))))) by ring. rewrite E0. ring. }
  assert (Nd2 : NoDup [-1; 1]) by (repeat constructor; cbn [In]; lra).
  apply Nat.le_antisymm; [apply (NoDup_incl_length Nd (l' := [-1; 1])); intros x; apply Q|apply (NoDup_incl_length Nd2 (l' := rs)); intros x; apply Q].
Qed.

(* ------------------------------------------------------------------ C15 *)
(** number of distinct roots in (a,b]; end points must not be multiple roots *)
Theorem C15_sturm : forall (f : list R) a b rs, not_zero f -> a <= b ->
  (is_root f a -> ~ derivable_pt_lim (pval f) a 0) ->
  (is_root f b -> ~ derivable_pt_lim (pval f) b 0) ->
  NoDup rs -> (forall x, In x rs <-> (a < x /\ x <= b) /\ is_root f x) ->
  sturm_roots (sturm_chain f) (Fin a) (Fin b) = length rs.
Proof.
  intros f a b rs Hz Hab Ha Hb Hnd Hrs.
  assert (Hf : f <> []) by (destruct Hz as (c & Hc & _); intros ->; destruct Hc).
  assert (Q : forall c, (is_root f c -> ~ derivable_pt_lim (pval f) c 0) -> ~ (pval f c = 0 /\ pval (poly_derivative true f) c = 0)).
  { intros c Hc [E D]. apply (Hc E). rewrite <- D. apply poly_derivative_correct, Hf. }
  apply sturm_roots_eq, sturm_count; auto.
Qed.
Print Assumptions C15_sturm.
(** the order of the arguments does not matter *)
Theorem C15_sturm_swapped : forall (f : list R) a b rs, not_zero f -> a <= b ->
  (is_root f a -> ~ derivable_pt_lim (pval f) a 0) ->
  (is_root f b -> ~ derivable_pt_lim (pval f) b 0) ->
  NoDup rs -> (forall x, In x rs <-> (a < x /\ x <= b) /\ is_root f x) ->
  sturm_roots (sturm_chain f) (Fin b) (Fin a) = length rs.
Proof.
  intros f a b rs Hz Hab Ha Hb Hnd Hrs. rewrite <- (C15_sturm f a b rs Hz Hab Ha Hb Hnd Hrs). unfold sturm_roots. f_equal. lia.
Qed.
Print Assumptions C15_sturm_swapped.

(** (a, +inf) *)
Theorem C15_sturm_pinf : forall (f : list R) a rs, not_zero f ->
  (is_root f a -> ~ derivable_pt_lim (pval f) a 0) ->
  NoDup rs -> (forall x, In x rs <-> a < x /\ is_root f x) ->
  sturm_roots (sturm_chain f) (Fin a) PInf = length rs.
Proof.
  intros f a rs Hz Ha Hnd Hrs.
  assert (Hf : f <> []) by (destruct Hz as (c & Hc & _); intros ->; destruct Hc).
  destruct (changes_pinf f Hf) as [X HX]. destruct (large_clear f Hz) as [Y HY].
  set (b := Rmax (Rabs a) (Rmax X (Rmax Y 0)) + 1).
  assert (B : a < b /\ X < b /\ Y < b /\ 0 < b).
  { pose proof (Rle_abs a). pose proof (Rmax_l (Rabs a) (Rmax X (Rmax Y 0))). pose proof (Rmax_r (Rabs a) (Rmax X (Rmax Y 0))).
    pose proof (Rmax_l X (Rmax Y 0)). pose proof (Rmax_r X (Rmax Y 0)). pose proof (Rmax_l Y 0). pose proof (Rmax_r Y 0). unfold b. lra. }
  unfold sturm_roots. rewrite (HX b) by lra. fold (sturm_roots (sturm_chain f) (Fin a) (Fin b)).
  apply C15_sturm; auto; [lra| |].
  - intros E _. apply (HY b); [rewrite Rabs_pos_eq; lra|exact E].
  - intros x. rewrite Hrs. split.
    + intros [L E]. split; [|exact E]. split; [exact L|]. destruct (Rle_or_lt x b) as [|G]; [assumption|exfalso].
      apply (HY x); [rewrite Rabs_pos_eq; lra|exact E].
    + tauto.
Qed.
Print Assumptions C15_sturm_pinf.

(** (-inf, b]: only when every chain member is evaluated correctly at -inf; the
    full statement (without the third hypothesis) is refuted below *)
Theorem C15_sturm_ninf_partial : forall (f : list R) b rs, not_zero f ->
  (is_root f b -> ~ derivable_pt_lim (pval f) b 0) ->
  (forall p, In p (sturm_chain f) -> limit_at_ninf (pval p) (xlim (poly_sub p NInf))) ->
  NoDup rs -> (forall x, In x rs <-> x <= b /\ is_root f x) ->
  sturm_roots (sturm_chain f) NInf (Fin b) = length rs.
Proof.
  intros f b rs Hz Hb Hn Hnd Hrs.
  assert (Hf : f <> []) by (destruct Hz as (c & Hc & _); intros ->; destruct Hc).
  destruct (changes_ninf f Hf Hn) as [X HX]. destruct (large_clear f Hz) as [Y HY].
  set (a := Rmax (Rabs b) (Rmax X (Rmax Y 0)) + 1).
  assert (B : - a < b /\ X < a /\ Y < a /\ 0 < a).
  { pose proof (Rle_abs (- b)). rewrite Rabs_Ropp in H. pose proof (Rmax_l (Rabs b) (Rmax X (Rmax Y 0))). pose proof (Rmax_r (Rabs b) (Rmax X (Rmax Y 0))).
    pose proof (Rmax_l X (Rmax Y 0)). pose proof (Rmax_r X (Rmax Y 0)). pose proof (Rmax_l Y 0). pose proof (Rmax_r Y 0). unfold a. lra. }
  unfold sturm_roots. rewrite (HX a) by lra. fold (sturm_roots (sturm_chain f) (Fin (- a)) (Fin b)).
  apply C15_sturm; auto; [lra| |].
  - intros E _. apply (HY (- a)); [rewrite Rabs_Ropp, Rabs_pos_eq; lra|exact E].
  - intros x. rewrite Hrs. split.
    + intros [L E]. split; [|exact E]. split; [|exact L]. destruct (Rlt_or_le (- a) x) as [|G]; [assumption|exfalso].
      apply (HY x); [rewrite Rabs_left1; lra|exact E].
    + tauto.
Qed.
Print Assumptions C15_sturm_ninf_partial.

(** In terms of degrees: -inf is a correct left end when in every member of the chain the
    degree (if not 0) has the parity of the number of coefficients minus one; in
    particular when no member has a zero leading coefficient. *)
Theorem C15_sturm_ninf_degrees_partial : forall (f : list R) b rs, not_zero f ->
  (is_root f b -> ~ derivable_pt_lim (pval f) b 0) ->
  (forall p n, In p (sturm_chain f) -> (1 <= n)%nat -> has_degree p n -> Nat.odd n = Nat.odd (length p - 1)) ->
  NoDup rs -> (forall x, In x rs <-> x <= b /\ is_root f x) ->
  sturm_roots (sturm_chain f) NInf (Fin b) = length rs.
Proof.
  intros f b rs Hz Hb Hd. apply C15_sturm_ninf_partial; [exact Hz|exact Hb|].
  intros p Hp. destruct p as [|c p].
  - intros x. reflexivity.
  - apply PropPoly.C02_ninf_iff; [discriminate|]. intros n H1 Hn. exact (Hd _ n Hp H1 Hn).
Qed.
Print Assumptions C15_sturm_ninf_degrees_partial.
Example C15_ninf_degrees_example : let f := [-1; 0; 1] in
  forall p n, In p (sturm_chain f) -> (1 <= n)%nat -> has_degree p n -> Nat.odd n = Nat.odd (length p - 1).
Proof.
  intros f p n H H1 [D0 D].
  unfold sturm_chain, f in H. cbn [porder length Nat.pred chain_tail] in H.
  assert (L : (n < length p)%nat) by (destruct (Nat.lt_ge_cases n (length p)); [assumption|exfalso; apply D0; apply nth_overflow; assumption]).
  destruct H as [<-|[<-|H]].
  - cbn in L. destruct n as [|[|[|n]]]; try lia; [|reflexivity]. exfalso. specialize (D 2%nat ltac:(lia)). cbn in D. lra.
  - cbn in L. destruct n as [|[|n]]; try lia. reflexivity.
  - destruct H as [<-|[]].
    destruct (mrem_spec 1 [-1; 0; 1] (poly_derivative true [-1; 0; 1]) eq_refl eq_refl) as [E _].
    rewrite E in L. cbn in L. lia.
Qed.


(** x^4 + x has the two simple roots -1 and 0 below 1, but counting them over
    (-inf, 1] gives none: the chain member -3x/4, stored with order 2, is
    evaluated to -inf at -inf. *)
Lemma ninf_d : poly_derivative true [0; 1; 0; 0; 1] = [1; 0; 0; 4].
Proof. lazy -[Rplus Rmult Rminus Ropp Rdiv Rinv IZR INR]. repeat (f_equal; try ring). Qed.
Lemma ninf_m1 : mrem [0; 1; 0; 0; 1] [1; 0; 0; 4] = [0; - (3 / 4); 0].
Proof.
  unfold mrem, poly_gcd. change (porder [1; 0; 0; 4]) with 3%nat. cbn [gcd_rec]. change (get [1; 0; 0; 4] 3) with 4. cbn [neqb R_num n0]. destruct (Reqb_spec 4 0); [lra|].
  lazy -[Rplus Rmult Rminus Ropp Rdiv Rinv IZR INR]. repeat (f_equal; try (field; lra)).
Qed.
Lemma ninf_m2 : mrem [1; 0; 0; 4] [0; - (3 / 4); 0] = [-1; 0].
Proof.
  unfold mrem, poly_gcd. change (porder [0; - (3/4); 0]) with 2%nat. cbn [gcd_rec]. change (get [0; - (3 / 4); 0] 2) with 0.
  change (get (change_order 1 [0; - (3 / 4); 0]) 1) with (- (3/4)). cbn [neqb R_num n0]. destruct (Reqb_spec 0 0); [|lra]. destruct (Reqb_spec (- (3/4)) 0); [lra|].
  lazy -[Rplus Rmult Rminus Ropp Rdiv Rinv IZR INR]. repeat (f_equal; try (field; lra)).
Qed.
Lemma ninf_m3 : mrem [0; - (3 / 4); 0] [-1; 0] = [0].
Proof.
  unfold mrem, poly_gcd. change (porder [-1; 0]) with 1%nat. cbn [gcd_rec]. change (get [-1; 0] 1) with 0.
  change (get (change_order 0 [-1; 0]) 0) with (-1). cbn [neqb R_num n0]. destruct (Reqb_spec 0 0); [|lra]. destruct (Reqb_spec (-1) 0); [lra|].
  lazy -[Rplus Rmult Rminus Ropp Rdiv Rinv IZR INR]. repeat (f_equal; try (field; lra)).
Qed.
Theorem C15_ninf_refuted :
  let f := [0; 1; 0; 0; 1] in
  (forall x, x <= 1 /\ is_root f x <-> In x [-1; 0]) /\ simple_roots f /\
  sturm_roots (sturm_chain f) NInf (Fin 1) = 0%nat.
Proof.
  intros f. assert (V : forall x, pval f x = x * (1 + x * x * x)) by (intros x; unfold f; rewrite !pval_cons, pval_nil; ring).
  assert (X : forall x, is_root f x <-> In x [-1; 0]).
  { intros x. unfold is_root. rewrite V. cbn [In]. split.
    - intros E. apply Rmult_integral in E. destruct E as [E|E]; [right; left; auto|].
      assert (Q : (x + 1) * (x * x - x + 1) = 0) by lra. apply Rmult_integral in Q. destruct Q as [Q|Q]; [left; lra|]. exfalso. nra.
    - intros [<-|[<-|[]]]; ring. }
  split; [|split].
  - intros x. rewrite X. cbn [In]. split; [tauto|]. intros H. split; [destruct H as [<-|[<-|[]]]; lra|exact H].
  - intros x Rx D. pose proof (uniqueness_limite _ _ _ _ D (pval_derivable f x)) as E.
    assert (P : pval (fder f) x = 1 + 4 * (x * x * x)) by (unfold fder, f; simpl; rewrite !pval_cons, pval_nil; cbn [get nth]; ring).
    rewrite P in E. apply X in Rx. destruct Rx as [<-|[<-|[]]]; lra.
  - unfold sturm_roots, sturm_chain, f. change (porder [0; 1; 0; 0; 1]) with 4%nat. cbn [chain_tail].
    rewrite ninf_d, ninf_m1, ninf_m2, ninf_m3. unfold sign_changes. cbn [sign_change_helper].
    assert (A : forall a l, xsign (poly_sub (a :: l) (Fin 1)) = rsign (pval (a :: l) 1)).
    { intros a l. unfold poly_sub, xsign. rewrite poly_eval_correct by discriminate. reflexivity. }
    assert (RN : forall v, v < 0 -> rsign v = (-1)%Z) by (intros v Hv; unfold rsign; destruct (Reqb_spec v 0); [lra|]; destruct (Rltb_spec v 0); [reflexivity|lra]).
    assert (RP : forall v, 0 < v -> rsign v = 1%Z) by (intros v Hv; unfold rsign; destruct (Reqb_spec v 0); [lra|]; destruct (Rltb_spec v 0); [lra|reflexivity]).
    assert (RZ : rsign 0 = 0%Z) by (unfold rsign; destruct (Reqb_spec 0 0); [reflexivity|lra]).
    rewrite !A. rewrite !pval_cons, !pval_nil.
    rewrite (RP (0 + 1 * (1 + 1 * (0 + 1 * (0 + 1 * (1 + 1 * 0)))))) by lra. rewrite (RP (1 + 1 * (0 + 1 * (0 + 1 * (4 + 1 * 0))))) by lra.
    rewrite (RN (0 + 1 * (- (3 / 4) + 1 * (0 + 1 * 0)))) by lra. rewrite (RN (-1 + 1 * (0 + 1 * 0))) by lra.
    replace (0 + 1 * 0) with 0 by ring. rewrite RZ.
    unfold poly_sub. cbn [porder length Nat.pred Nat.eqb inf_scan get nth n0 neqb R_num Nat.odd Nat.even negb].
    destruct (Reqb_spec 1 0) as [Q1|Q1]; [lra|]. destruct (Reqb_spec 4 0) as [Q2|Q2]; [lra|]. destruct (Reqb_spec 0 0) as [Q3|Q3]; [|lra]. destruct (Reqb_spec (- (3 / 4)) 0) as [Q4|Q4]; [lra|].
    unfold inf_mul. cbn [negb nltb n0 R_num]. repeat match goal with |- context [Rltb ?a ?b] => first [destruct (Rltb_spec a b); [exfalso; lra|] | destruct (Rltb_spec a b); [|exfalso; lra]] end.
    cbn [xsign]. rewrite ?(RN (-1)), ?RZ by lra. reflexivity.
Qed.
Print Assumptions C15_ninf_refuted.

Example C15_example : not_zero [-1; 0; 0; 0; 1] /\ NoDup [1] /\
  (forall x, In x [1] <-> (0 < x /\ x <= 1) /\ is_root [-1; 0; 0; 0; 1] x) /\
  (is_root [-1; 0; 0; 0; 1] 1 -> ~ derivable_pt_lim (pval [-1; 0; 0; 0; 1]) 1 0) /\
  sturm_roots (sturm_chain [-1; 0; 0; 0; 1]) (Fin 0) (Fin 1) = 1%nat.
Proof.
  destruct C14_example as (_ & _ & S & X).
  assert (Z : not_zero [-1; 0; 0; 0; 1]) by (exists 1; split; [right; right; right; right; left; reflexivity|lra]).
  assert (N : NoDup [1]) by (repeat constructor; intros []).
  assert (I : forall x, In x [1] <-> (0 < x /\ x <= 1) /\ is_root [-1; 0; 0; 0; 1] x).
  { intros x. rewrite <- (X x). cbn [In]. split; [intros [<-|[]]; lra|]. intros [L [E|[E|[]]]]; [lra|left; exact E]. }
  split; [exact Z|]. split; [exact N|]. split; [exact I|]. split; [apply S|].
  apply (C15_sturm _ 0 1 [1]); auto. lra.
Qed.

(* ------------------------------------------------------------------ C16 *)
Theorem C16_descartes : forall (f : list R) rs, roots_in positive f rs ->
  exists k, descartes f = (length rs + 2 * k)%nat.
Proof. exact descartes_rule. Qed.
Print Assumptions C16_descartes.

(** every non-zero polynomial has such a list of roots *)
Theorem C16_roots_exist : forall S (f : list R), not_zero f -> exists rs, roots_in S f rs.
Proof. exact roots_in_exists. Qed.
Print Assumptions C16_roots_exist.

Theorem C16_zero : forall f : list R, not_zero f -> descartes f = 0%nat -> forall x, 0 < x -> ~ is_root f x.
Proof. exact descartes_0. Qed.
Theorem C16_one : forall f : list R, not_zero f -> descartes f = 1%nat ->
  exists r, 0 < r /\ roots_in positive f [r] /\ forall x, 0 < x -> (is_root f x <-> x = r).
Proof.
  intros f Hz H. destruct (descartes_1 f Hz H) as (r & Hr & HR & _). exists r. split; [exact Hr|]. split; [exact HR|].
  intros x Hx. unfold is_root. rewrite (roots_in_In positive f [r] x HR Hx). cbn [In]. intuition.
Qed.
Print Assumptions C16_zero.
Print Assumptions C16_one.

Example C16_example : roots_in positive [6; -5; 1] [2; 3] /\ descartes [6; -5; 1] = 2%nat.
Proof.
  split.
  - split; [repeat constructor; unfold positive; lra|]. exists [1]. split.
    + intros x. cbn [prod_roots]. rewrite !pval_cons, pval_nil. ring.
    + intros x _. rewrite pval_cons, pval_nil. lra.
  - unfold descartes. cbn [for_up fst length get nth n0 R_num]. unfold rsign, Reqb, Rltb.
    repeat (destruct Req_EM_T; try (exfalso; lra)). repeat (destruct Rlt_dec; try (exfalso; lra)). reflexivity.
Qed.

(* ------------------------------------------------------------------ C17 *)
Lemma its_divide f f1 r : f1 <> [] -> length f = S (length f1) -> 0 < r < 1 ->
  (forall x, pval f x = (x - r) * pval f1 x) ->
  forall x, x <> -1 -> pval (invert_taylor_shift f) x = (x - (/ r - 1)) * (- r * pval (invert_taylor_shift f1) x).
Proof.
  intros Hn Hl Hr Hv x Hx.
  assert (Hf : f <> []) by (intros ->; discriminate).
  destruct (invert_taylor_shift_correct f Hf) as [_ ->]; [|exact Hx].
  destruct (invert_taylor_shift_correct f1 Hn) as [_ ->]; [|exact Hx].
  rewrite Hv. assert (EP : porder f = S (porder f1)) by (unfold porder; rewrite Hl; destruct f1; [congruence|reflexivity]).
  rewrite EP. cbn [pow]. field. split; lra.
Qed.

Lemma cont_ext (F G : R -> R) c : continuity F -> continuity G -> (forall x, x <> c -> F x = G x) -> forall x, F x = G x.
Proof.
  intros CF CG H x. destruct (Req_dec x c) as [-> |N]; [|apply H, N].
  assert (C : continuity_pt (fun y => F y - G y) c) by (apply (continuity_minus F G); assumption).
  pose proof (cont_zero _ c C) as Z. cbv beta in Z. enough (F c - G c = 0) by lra. apply Z.
  intros y Hy. rewrite (H y Hy). ring.
Qed.
Lemma prod_cont rs : continuity (prod_roots rs).
Proof.
  induction rs as [|s rs IH]; cbn [prod_roots].
  - intros y. apply derivable_continuous_pt. exists 0. apply derivable_pt_lim_const.
  - apply (continuity_mult (fun y => y - s) (prod_roots rs)); [|exact IH].
    intros y. apply derivable_continuous_pt. exists (1 - 0).
    apply (derivable_pt_lim_minus id (fct_cte s)); [apply derivable_pt_lim_id|apply derivable_pt_lim_const].
Qed.
Lemma pval_scale k h x : pval (map (Rmult k) h) x = k * pval h x.
Proof. induction h as [|a h IH]; cbn [map]; rewrite ?pval_nil, ?pval_cons; [ring|]. rewrite IH. ring. Qed.

Lemma roots_in_tail S f f1 r rs : roots_in S f (r :: rs) -> (forall x, pval f x = (x - r) * pval f1 x) -> roots_in S f1 rs.
Proof.
  intros (Hb & g & Hg & Hn) Hv. inversion Hb as [|? ? _ Hb']; subst. split; [exact Hb'|]. exists g. split; [|exact Hn].
  apply (cont_ext _ (fun x => prod_roots rs x * pval g x) r).
  - apply pval_continuity.
  - apply (continuity_mult (prod_roots rs) (pval g)); [apply prod_cont|apply pval_continuity].
  - intros x N. pose proof (Hv x) as E1. pose proof (Hg x) as E2. cbn [prod_roots] in E2.
    assert (E3 : (x - r) * (pval f1 x - prod_roots rs x * pval g x) = 0) by lra.
    apply Rmult_integral in E3. destruct E3; lra.
Qed.

Lemma its_roots_in rs : forall f, not_zero f -> roots_in (between 0 1) f rs ->
  roots_in positive (invert_taylor_shift f) (map (fun r => / r - 1) rs).
Proof.
  induction rs as [|r rs IH]; intros f Hz HRI; pose proof HRI as (Hb & g & Hg & Hn).
  - split; [constructor|]. exists (invert_taylor_shift f). split; [intros x; cbn [prod_roots map]; ring|].
    intros x Hx E. unfold positive in Hx.
    assert (Z : Zof (invert_taylor_shift f) itsM (mobR itsM x)) by (exists x; auto).
    apply (its_roots f _ Hz) in Z. destruct Z as [Z1 Z2]. rewrite Hg in Z2. cbn [prod_roots] in Z2.
    apply (Hn _ Z1). lra.
  - assert (Hf : f <> []) by (destruct Hz as (c & Hc & _); intros ->; destruct Hc).
    inversion Hb as [|? ? Hr Hb']; subst. unfold between in Hr.
    assert (Er : pval f r = 0) by (rewrite Hg; cbn [prod_roots]; ring).
    destruct (divide_root f r Hf Er) as (f1 & Hl1 & Hv1).
    assert (Hz1 : not_zero f1).
    { apply not_zero_iff. apply not_zero_iff in Hz. destruct Hz as [x Hx]. exists x. intros E. apply Hx. rewrite Hv1, E. ring. }
    assert (Hf1 : f1 <> []) by (destruct Hz1 as (c & Hc & _); intros ->; destruct Hc).
    assert (Hl : length f = S (length f1)).
    { destruct f1; [congruence|]. destruct f; [congruence|]. simpl in *. lia. }
    destruct (IH f1 Hz1 (roots_in_tail _ f f1 r rs HRI Hv1)) as (P1 & h & Hh & Hhn).
    assert (IR : 1 < / r) by (rewrite <- Rinv_1; apply Rinv_lt_contravar; lra).
    split; [cbn [map]; constructor; [unfold positive; lra|exact P1]|].
    exists (map (Rmult (- r)) h). split.
    + apply (cont_ext _ (fun x => prod_roots (map (fun r0 => / r0 - 1) (r :: rs)) x * pval (map (Rmult (- r)) h) x) (-1)).
      * apply pval_continuity.
      * apply (continuity_mult (prod_roots _) (pval _)); [apply prod_cont|apply pval_continuity].
      * intros x Hx. rewrite (its_divide f f1 r Hf1 Hl Hr Hv1 x Hx), pval_scale, Hh. cbn [map prod_roots]. ring.
    + intros x Hx. rewrite pval_scale. intros E. apply Rmult_integral in E. destruct E as [E|E]; [lra|]. exact (Hhn x Hx E).
Qed.

Theorem C17_budan : forall (f : list R) rs, not_zero f -> roots_in (between 0 1) f rs ->
  exists k, budan_01 f = (length rs + 2 * k)%nat.
Proof.
  intros f rs Hz H. apply (its_roots_in rs f Hz) in H. apply descartes_rule in H. rewrite map_length in H. exact H.
Qed.
Print Assumptions C17_budan.

Lemma affine_roots_in f a b rs : f <> [] -> a < b -> roots_in (between a b) f rs ->
  roots_in (between 0 1) (scale_poly (shift_function f a) (b - a)) (map (fun r => (r - a) / (b - a)) rs).
Proof.
  intros Hf Hab (Hb & g & Hg & Hn).
  destruct (shift_function_correct f a Hf) as [SL SV].
  assert (Hs : shift_function f a <> []) by (intros E; rewrite E in SL; destruct f; [congruence|discriminate]).
  destruct (scale_poly_correct (shift_function f a) (b - a) Hs) as [_ CV].
  split.
  - clear - Hb Hab. induction Hb as [|r rs Hr _ IH]; cbn [map]; constructor; [|exact IH].
    unfold between in *. split.
    + apply Rdiv_lt_0_compat; lra.
    + apply (Rmult_lt_reg_r (b - a)); [lra|]. unfold Rdiv. rewrite Rmult_assoc, Rinv_l by lra. lra.
  - assert (Hg0 : exists g', g' <> [] /\ forall x, pval g' x = pval g x).
    { destruct g as [|c g]; [exists [0]; split; [discriminate|]; intros x; rewrite pval_cons, pval_nil; ring|exists (c :: g); split; [discriminate|reflexivity]]. }
    destruct Hg0 as (g' & Hg' & Eg).
    destruct (shift_function_correct g' a Hg') as [GL GV].
    assert (Hs' : shift_function g' a <> []) by (intros E; rewrite E in GL; destruct g'; [congruence|discriminate]).
    destruct (scale_poly_correct (shift_function g' a) (b - a) Hs') as [_ GC].
    exists (map (Rmult ((b - a) ^ length rs)) (scale_poly (shift_function g' a) (b - a))). split.
    + intros x. rewrite CV, SV, Hg, pval_scale, GC, GV, Eg.
      assert (P : prod_roots rs ((b - a) * x + a) = prod_roots (map (fun r => (r - a) / (b - a)) rs) x * (b - a) ^ length rs).
      { clear - Hab. induction rs as [|r rs IH]; cbn [map prod_roots length pow]; [ring|]. rewrite IH. field. lra. }
      rewrite P. ring.
    + intros x Hx. rewrite pval_scale, GC, GV, Eg. intros E. apply Rmult_integral in E.
      destruct E as [E|E]; [revert E; apply pow_nonzero; lra|]. apply (Hn ((b - a) * x + a)); [|exact E].
      unfold between in *. nra.
Qed.

Theorem C17_alesina_galuzzi : forall (f : list R) a b rs, not_zero f -> a < b ->
  roots_in (between a b) f rs -> exists k, alesina_galuzzi f a b = (length rs + 2 * k)%nat.
Proof.
  intros f a b rs Hz Hab H. unfold alesina_galuzzi.
  assert (Hf : f <> []) by (destruct Hz as (c & Hc & _); intros ->; destruct Hc).
  apply (affine_roots_in f a b rs Hf Hab) in H.
  rewrite <- (map_length (fun r => (r - a) / (b - a)) rs). apply C17_budan; [|exact H].
  apply not_zero_scale; [lra|]. apply not_zero_shift, Hz.
Qed.
Print Assumptions C17_alesina_galuzzi.

(** 0 means no root, 1 exactly one (simple) root *)
Theorem C17_zero : forall (f : list R) a b, not_zero f -> a < b -> alesina_galuzzi f a b = 0%nat ->
  forall x, a < x < b -> ~ is_root f x.
Proof.
  intros f a b Hz Hab H x Hx E. destruct (roots_in_exists (between a b) f Hz) as [rs Hrs].
  destruct (C17_alesina_galuzzi f a b rs Hz Hab Hrs) as [k Hk].
  apply (roots_in_In _ f rs x Hrs Hx) in E. destruct rs; [destruct E|simpl in Hk; lia].
Qed.
Print Assumptions C17_zero.
Theorem C17_one : forall (f : list R) a b, not_zero f -> a < b -> alesina_galuzzi f a b = 1%nat ->
  exists r, a < r < b /\ roots_in (between a b) f [r] /\ forall x, a < x < b -> (is_root f x <-> x = r).
Proof.
  intros f a b Hz Hab H. destruct (roots_in_exists (between a b) f Hz) as [rs Hrs].
  destruct (C17_alesina_galuzzi f a b rs Hz Hab Hrs) as [k Hk].
  destruct rs as [|r [|r' t]]; simpl in Hk; try lia.
  exists r. split; [destruct Hrs as [F _]; inversion F; assumption|]. split; [exact Hrs|].
  intros x Hx. unfold is_root. rewrite (roots_in_In _ f [r] x Hrs Hx). cbn [In]. intuition.
Qed.
Print Assumptions C17_one.

Example C17_example : roots_in (between 1 4) [6; -5; 1] [2; 3] /\ not_zero [6; -5; 1].
Proof.
  split; [|exists 1; split; [right; right; left; reflexivity|lra]].
  split; [repeat constructor; unfold between; lra|]. exists [1]. split.
  - intros x. cbn [prod_roots]. rewrite !pval_cons, pval_nil. ring.
  - intros x _. rewrite pval_cons, pval_nil. lra.
Qed.

(* ------------------------------------------------------------------ C18 *)
(** upper and lower bound of the positive roots; order at most 30 *)
Theorem C18_bounds : forall f : list R, not_zero f -> (length f <= 31)%nat ->
  exists u, LMQ_upper f = Ret (Fin u) /\ 0 <= u /\ (forall x, 0 < x -> is_root f x -> x < u) /\
  ((exists l, LMQ_lower f = Ret (Fin l) /\ 0 < l /\ forall x, 0 < x -> is_root f x -> l < x) \/
   (LMQ_lower f = Ret PInf /\ forall x, 0 < x -> ~ is_root f x)).
Proof.
  intros f Hz Hl. assert (Ho : ~ (31 <= porder f)%nat).
  { unfold porder. destruct Hz as (c & Hc & _). destruct f; [destruct Hc|]. simpl in *. lia. }
  pose proof (lmq_upper_correct f Hz) as HU. pose proof (lmq_lower_correct f Hz) as HL.
  destruct (LMQ_upper f) as [[u| |]| | |]; try (exfalso; exact HU); [|exfalso; tauto].
  destruct HU as (Hu & HU & _). exists u. split; [reflexivity|]. split; [exact Hu|]. split.
  { intros x Hx E. destruct (Rlt_or_le x u) as [L|L]; [exact L|exfalso; exact (HU x Hx L E)]. }
  destruct (LMQ_lower f) as [[l| |]| | |]; try (exfalso; exact HL); [| |exfalso; tauto].
  - left. exists l. split; [reflexivity|]. destruct HL as [H1 H2]. split; [exact H1|].
    intros x Hx E. destruct (Rlt_or_le l x) as [L|L]; [exact L|exfalso; exact (H2 x Hx L E)].
  - right. split; [reflexivity|exact HL].
Qed.
Print Assumptions C18_bounds.

(** any order: no wrong bound is ever returned (but see C18_shift_ub_refuted) *)
Theorem C18_any_order : forall (f : list R) b, not_zero f -> LMQ_upper f = Ret b ->
  exists u, b = Fin u /\ 0 <= u /\ forall x, 0 < x -> is_root f x -> x < u.
Proof.
  intros f b Hz E. pose proof (lmq_upper_correct f Hz) as HU. rewrite E in HU. destruct b as [u| |]; try (exfalso; exact HU).
  exists u. split; [reflexivity|]. destruct HU as (Hu & HU & _). split; [exact Hu|].
  intros x Hx Ex. destruct (Rlt_or_le x u) as [L|L]; [exact L|exfalso; exact (HU x Hx L Ex)].
Qed.
Print Assumptions C18_any_order.

Example C18_example : not_zero [6; -5; 1] /\ (length [6%R; (-5)%R; 1%R] <= 31)%nat /\ is_root [6; -5; 1] 3.
Proof.
  split; [exists 1; split; [right; right; left; reflexivity|lra]|]. split; [simpl; lia|].
  unfold is_root. rewrite pval3. ring.
Qed.

(** From order 31 on the shift 1 << times[k] can reach 31, undefined for int:
    x^31 - x^30 - ... - x - 1 *)
Definition deep : list R := repeat (-1) 31 ++ [1].
Lemma deep_get k : (k < 31)%nat -> get deep k = -1.
Proof. intros H. do 31 (destruct k as [|k]; [reflexivity|]). lia. Qed.
Lemma deep_top : get deep 31 = 1.
Proof. reflexivity. Qed.
Lemma opp_nn : opposite (-1) (-1) = false.
Proof. unfold opposite. destruct (signbit (-1)); reflexivity. Qed.
Lemma opp_np : opposite (-1) 1 = true /\ opposite 1 (-1) = true.
Proof.
  unfold opposite. rewrite !signbit_Rltb. destruct (Rltb_spec (-1) 0); [|lra]. destruct (Rltb_spec 1 0); [lra|]. split; reflexivity.
Qed.
Lemma nz_n : nonzerob (-1) = true /\ nonzerob 1 = true.
Proof. unfold nonzerob. destruct (Reqb_spec (-1) 0); [lra|]. destruct (Reqb_spec 1 0); [lra|]. split; reflexivity. Qed.

Lemma for_down_noop {S} (body : nat -> S -> S) s : forall cnt hi,
  (forall k, (hi < k + cnt)%nat -> (k <= hi)%nat -> (0 < k)%nat -> body k s = s) -> (cnt <= hi)%nat -> for_down hi cnt body s = s.
Proof.
  induction cnt as [|cnt IH]; intros hi H Hle; [reflexivity|]. cbn [for_down].
  rewrite H by lia. apply IH; [|lia]. intros k H1 H2 H3. apply H; lia.
Qed.

Lemma deep_inner m times : (m < 31)%nat ->
  lmq_inner deep 31 m times =
  (do s <- neg_shl (tget times 31);
   Ret (upd times 31 (S (tget times 31)), xmin (Rpower (s * -1 / 1) (1 / INR (31 - m))) PInf)).
Proof.
  intros Hm. unfold lmq_inner. replace (31 - m)%nat with (S (30 - m)) at 1 by lia. cbn [for_down Nat.pred].
  cbn [obind]. rewrite deep_top, (deep_get m Hm). rewrite (proj2 nz_n), (proj2 opp_np). cbn [andb].
  apply for_down_noop; [|lia]. intros k H1 H2 H3.
  destruct (neg_shl (tget times 31)) as [s| | |]; cbn [obind]; try reflexivity.
  rewrite (deep_get k) by lia. rewrite opp_nn, Bool.andb_false_r. reflexivity.
Qed.

Lemma tget_same (l : list nat) i v : (i < length l)%nat -> tget (upd l i v) i = v.
Proof.
  intros Hi. unfold tget. rewrite nth_upd, Nat.eqb_refl. destruct (Nat.ltb_spec i (length l)); [reflexivity|lia].
Qed.

Theorem C18_shift_ub_refuted : not_zero deep /\ length deep = 32%nat /\ LMQ_upper deep = UB.
Proof.
  split; [exists 1; split; [apply in_or_app; right; left; reflexivity|lra]|]. split; [reflexivity|].
  unfold LMQ_upper. assert (HH : highest (porder deep) deep = 31%nat).
  { change (porder deep) with 31%nat. cbn [highest]. rewrite deep_top. destruct (Reqb_spec 1 0); [lra|reflexivity]. }
  rewrite HH.
  match goal with |- context [for_down (31 - 1) 31 ?b ?s0] =>
    pose proof (for_down_inv (fun j s => ((j <= 30)%nat -> exists times ub, s = Ret (times, ub) /\ length times = 32%nat /\ tget times 31 = S j) /\
      (j = 31%nat -> s = UB)) b) as P end.
  specialize (P 31%nat 0%nat (31 - 1)%nat (Ret (repeat 1%nat (length deep), Fin 0))).
  destruct P as [_ P].
  - split; [|discriminate]. intros _. exists (repeat 1%nat (length deep)), (Fin 0). repeat split.
  - intros j s Hj [H1 H2]. cbn [Nat.add] in *. set (i := (31 - 1 - j)%nat) in *.
    split.
    + intros Hj30. destruct H1 as (times & ub & -> & HL & HT); [lia|]. cbn [obind].
      assert (Hm : (i < 31)%nat) by (unfold i; lia). rewrite (deep_get i Hm), deep_top, (proj1 nz_n), (proj1 opp_np). cbn [andb].
      rewrite deep_inner by exact Hm. rewrite HT. unfold neg_shl. destruct (Nat.ltb_spec (S j) 31); [|lia]. cbn [obind].
      do 2 eexists. split; [reflexivity|]. split; [rewrite upd_length; exact HL|].
      rewrite tget_same by (rewrite HL; lia). reflexivity.
    + intros Ej. assert (j = 30)%nat by lia. subst j. destruct H1 as (times & ub & -> & HL & HT); [lia|]. cbn [obind].
      assert (Hm : (i < 31)%nat) by (unfold i; lia). rewrite (deep_get i Hm), deep_top, (proj1 nz_n), (proj1 opp_np). cbn [andb].
      rewrite deep_inner by exact Hm. rewrite HT. reflexivity.
  - cbn [Nat.add] in P. rewrite P by reflexivity. reflexivity.
Qed.
Print Assumptions C18_shift_ub_refuted.

