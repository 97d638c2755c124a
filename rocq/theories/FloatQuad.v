(** Forward error of the quadratic solver in double arithmetic. *)
From Coq Require Import Lia Lra.
From Flocq Require Import Core Binary Bits Plus_error Relative.
From Verif Require Import FloatModel FloatSpec FloatProofs.
Open Scope R_scope.

#[local] Instance dexp_valid' : Valid_exp dexp.
Proof. apply FLT_exp_valid. reflexivity. Qed.

Definition dl : R := bpow radix2 (-53).
Definition tiny : R := bpow radix2 (-1075).

Lemma dl_bounds : 0 < dl <= / 1000000.
Proof. unfold dl. split; [apply bpow_gt_0|]. simpl. lra. Qed.

(** one rounding: relative error 2^-53 plus an absolute error for underflow *)
Lemma rnd_err x : Rabs (drnd x - x) <= dl * Rabs x + tiny.
Proof.
  destruct (error_N_FLT radix2 (-1074) 53 eq_refl (fun x => negb (Z.even x)) x) as (e & h & H1 & H2 & _ & E).
  rewrite E. replace (x * (1 + e) + h - x) with (x * e + h) by ring.
  eapply Rle_trans; [apply Rabs_triang|]. apply Rplus_le_compat.
  - rewrite Rabs_mult, Rmult_comm. apply Rmult_le_compat_r; [apply Rabs_pos|].
    eapply Rle_trans; [exact H1|]. unfold dl, u_ro. simpl. lra.
  - eapply Rle_trans; [exact H2|]. unfold tiny.
    change (bpow radix2 (-1075)) with (bpow radix2 (-1 + -1074)). rewrite bpow_plus. simpl (bpow radix2 (-1)). lra.
Qed.
Lemma rnd_pos x : 0 <= x -> 0 <= drnd x.
Proof.
  intros H. rewrite <- (round_0 radix2 dexp ZnearestE). apply round_le; [typeclasses eauto|apply valid_rnd_N|exact H].
Qed.
Lemma rnd_opp x : drnd (- x) = - drnd x.
Proof. apply round_NE_opp. Qed.
Lemma rnd_big x k : (-1074 <= k)%Z -> Rabs x <= bpow radix2 k -> Rabs (drnd x) <= bpow radix2 k.
Proof.
  intros K H. apply abs_round_le_generic; [typeclasses eauto|apply valid_rnd_N| |exact H].
  apply generic_format_FLT_bpow; [easy|exact K].
Qed.
Lemma rnd_fmt x : generic_format radix2 dexp x -> drnd x = x.
Proof. intros H. apply round_generic; [apply valid_rnd_N|exact H]. Qed.

Lemma big_lt x : Rabs x <= bpow radix2 1000 ->
  Rlt_bool (Rabs (drnd x)) (bpow radix2 1024) = true.
Proof.
  intros H. apply Rlt_bool_true. eapply Rle_lt_trans; [apply (rnd_big x 1000); [lia|exact H]|].
  apply bpow_lt. lia.
Qed.

Lemma add_R a b : fin a -> fin b -> Rabs (dR a + dR b) <= bpow radix2 1000 ->
  fin (d_add a b) /\ dR (d_add a b) = drnd (dR a + dR b) /\
  d_signbit (d_add a b) = match Rcompare (dR a + dR b) 0 with
     Eq => (d_signbit a && d_signbit b)%bool | Lt => true | Gt => false end.
Proof.
  intros Fa Fb H.
  pose proof (Bplus_correct 53 1024 eq_refl eq_refl binop_nan_pl64 BinarySingleNaN.mode_NE a b Fa Fb) as C.
  change (round radix2 (SpecFloat.fexp 53 1024) (BinarySingleNaN.round_mode BinarySingleNaN.mode_NE)
            (B2R 53 1024 a + B2R 53 1024 b)) with (drnd (dR a + dR b)) in C.
  rewrite (big_lt _ H) in C. destruct C as (C1 & C2 & C3). repeat split; assumption.
Qed.
Lemma sub_R a b : fin a -> fin b -> Rabs (dR a - dR b) <= bpow radix2 1000 ->
  fin (d_sub a b) /\ dR (d_sub a b) = drnd (dR a - dR b).
Proof.
  intros Fa Fb H.
  pose proof (Bminus_correct 53 1024 eq_refl eq_refl binop_nan_pl64 BinarySingleNaN.mode_NE a b Fa Fb) as C.
  change (round radix2 (SpecFloat.fexp 53 1024) (BinarySingleNaN.round_mode BinarySingleNaN.mode_NE)
            (B2R 53 1024 a - B2R 53 1024 b)) with (drnd (dR a - dR b)) in C.
  rewrite (big_lt _ H) in C. destruct C as (C1 & C2 & C3). split; assumption.
Qed.
Lemma mul_R a b : fin a -> fin b -> Rabs (dR a * dR b) <= bpow radix2 1000 ->
  fin (d_mul a b) /\ dR (d_mul a b) = drnd (dR a * dR b).
Proof.
  intros Fa Fb H.
  pose proof (Bmult_correct 53 1024 eq_refl eq_refl binop_nan_pl64 BinarySingleNaN.mode_NE a b) as C.
  change (round radix2 (SpecFloat.fexp 53 1024) (BinarySingleNaN.round_mode BinarySingleNaN.mode_NE)
            (B2R 53 1024 a * B2R 53 1024 b)) with (drnd (dR a * dR b)) in C.
  rewrite (big_lt _ H) in C. destruct C as (C1 & C2 & C3). split; [|exact C1].
  etransitivity; [exact C2|]. rewrite Fa, Fb. reflexivity.
Qed.
Lemma div_R a b : fin a -> fin b -> dR b <> 0 -> Rabs (dR a / dR b) <= bpow radix2 1000 ->
  fin (d_div a b) /\ dR (d_div a b) = drnd (dR a / dR b).
Proof.
  intros Fa Fb N H.
  pose proof (Bdiv_correct 53 1024 eq_refl eq_refl binop_nan_pl64 BinarySingleNaN.mode_NE a b N) as C.
  change (round radix2 (SpecFloat.fexp 53 1024) (BinarySingleNaN.round_mode BinarySingleNaN.mode_NE)
            (B2R 53 1024 a / B2R 53 1024 b)) with (drnd (dR a / dR b)) in C.
  rewrite (big_lt _ H) in C. destruct C as (C1 & C2 & C3). split; [|exact C1].
  etransitivity; [exact C2|exact Fa].
Qed.
Lemma sqrt_R a : fin a -> 0 < dR a ->
  fin (d_sqrt a) /\ dR (d_sqrt a) = drnd (sqrt (dR a)) /\ d_signbit (d_sqrt a) = false.
Proof.
  intros Fa P.
  pose proof (Bsqrt_correct 53 1024 eq_refl eq_refl unop_nan_pl64 BinarySingleNaN.mode_NE a) as (C1 & C2 & C3).
  assert (Sg : exists m e H, a = B754_finite 53 1024 false m e H).
  { destruct a as [s|s|s pl Hp|[|] m e H]; try discriminate Fa.
    - unfold dR in P; simpl in P; lra.
    - rewrite dR_finite in P. pose proof (F2R_pos m e). lra.
    - eauto. }
  destruct Sg as (m & e & H & ->).
  split; [exact C2|]. split; [exact C1|]. apply C3.
  match goal with |- is_nan _ _ ?x = false => destruct x; try discriminate C2; reflexivity end.
Qed.
Lemma opp_R a : fin a -> fin (d_opp a) /\ dR (d_opp a) = - dR a /\ d_signbit (d_opp a) = negb (d_signbit a).
Proof.
  intros Fa. unfold d_opp, b64_opp, dR. rewrite is_finite_Bopp, B2R_Bopp.
  destruct a as [s|s|s pl Hp|s m e H]; try discriminate Fa; cbn; auto.
Qed.

Lemma signbit_neg a : fin a -> dR a < 0 -> d_signbit a = true.
Proof.
  intros Fa N. destruct a as [s|s|s pl Hp|s m e H]; try discriminate Fa.
  - unfold dR in N; simpl in N; lra.
  - rewrite dR_finite in N. pose proof (F2R_pos m e). destruct s; [reflexivity|lra].
Qed.
Lemma signbit_pos a : fin a -> 0 < dR a -> d_signbit a = false.
Proof.
  intros Fa N. destruct a as [s|s|s pl Hp|s m e H]; try discriminate Fa.
  - unfold dR in N; simpl in N; lra.
  - rewrite dR_finite in N. pose proof (F2R_pos m e). destruct s; [lra|reflexivity].
Qed.

(* ------------------------------------------------------------------ *)
(** ** relative errors; [rel k y x]: y approximates x > 0 to k units of 2^-53 *)
Definition rel (k y x : R) : Prop := Rabs (y - x) <= k * dl * x.

Lemma rel_intro k y x : x * (1 - k * dl) <= y -> y <= x * (1 + k * dl) -> rel k y x.
Proof. intros H1 H2. unfold rel. apply Rabs_le. lra. Qed.
Lemma rel_lo k y x : rel k y x -> x * (1 - k * dl) <= y.
Proof. intros H. apply Rabs_le_inv in H. lra. Qed.
Lemma rel_hi k y x : rel k y x -> y <= x * (1 + k * dl).
Proof. intros H. apply Rabs_le_inv in H. lra. Qed.

(** values of at least 2^-1000 round with relative error at most 2^-53 + 2^-75 *)
Lemma rnd_rel x : bpow radix2 (-1000) <= x ->
  x * (1 - dl - dl * / 4000000) <= drnd x <= x * (1 + dl + dl * / 4000000).
Proof.
  intros H. pose proof (rnd_err x) as E. pose proof (bpow_gt_0 radix2 (-1000)).
  rewrite (Rabs_pos_eq x) in E by lra.
  assert (T : tiny <= dl * / 4000000 * x).
  { apply Rle_trans with (dl * / 4000000 * bpow radix2 (-1000)).
    - unfold tiny. change (-1075)%Z with (-53 + (-22 + -1000))%Z. rewrite !bpow_plus. fold dl.
      pose proof dl_bounds. rewrite Rmult_assoc. apply Rmult_le_compat_l; [lra|].
      apply Rmult_le_compat_r; [lra|]. simpl. lra.
    - pose proof dl_bounds. apply Rmult_le_compat_l; [|exact H]. nra. }
  apply Rabs_le_inv in E. lra.
Qed.
Lemma rel_rnd k y x : 0 <= k <= 20 -> 0 < x -> bpow radix2 (-1000) <= y -> rel k y x -> rel (k + 1.01) (drnd y) x.
Proof.
  intros K X Y H. pose proof (rel_lo _ _ _ H). pose proof (rel_hi _ _ _ H).
  pose proof (rnd_rel y Y) as (L & U). pose proof dl_bounds as (D1 & D2).
  pose proof (bpow_gt_0 radix2 (-1000)) as P.
  set (e := dl + dl * / 4000000) in *.
  assert (E : 0 < e <= dl * 1.000001) by (unfold e; lra).
  assert (KD : 0 <= k * dl <= / 10000) by nra.
  assert (KE : 0 <= k * dl * e <= / 10000 * e) by nra.
  apply rel_intro.
  - apply Rle_trans with (x * (1 - k * dl) * (1 - e)).
    + replace (x * (1 - k * dl) * (1 - e)) with (x * ((1 - k * dl) * (1 - e))) by ring.
      apply Rmult_le_compat_l; [lra|]. lra.
    + apply Rle_trans with (y * (1 - e)); [apply Rmult_le_compat_r; [lra|assumption]|]. unfold e. lra.
  - apply Rle_trans with (x * (1 + k * dl) * (1 + e)).
    + apply Rle_trans with (y * (1 + e)); [unfold e; lra|apply Rmult_le_compat_r; [lra|assumption]].
    + replace (x * (1 + k * dl) * (1 + e)) with (x * ((1 + k * dl) * (1 + e))) by ring.
      apply Rmult_le_compat_l; [lra|]. lra.
Qed.
Lemma rel_sqrt k y x : 0 <= k <= 20 -> 0 < x -> rel k y x -> rel k (sqrt y) (sqrt x).
Proof.
  intros K X H. pose proof (rel_lo _ _ _ H). pose proof (rel_hi _ _ _ H). pose proof dl_bounds as (D1 & D2).
  assert (KD : 0 <= k * dl <= 1 / 2) by nra.
  pose proof (sqrt_lt_R0 x X) as SX. pose proof (sqrt_sqrt x ltac:(lra)) as SS.
  apply rel_intro.
  - rewrite <- (sqrt_Rsqr (sqrt x * (1 - k * dl))) by nra. apply sqrt_le_1_alt. unfold Rsqr. nra.
  - rewrite <- (sqrt_Rsqr (sqrt x * (1 + k * dl))) by nra. apply sqrt_le_1_alt. unfold Rsqr. nra.
Qed.
Lemma rel_weaken k k' y x : 0 <= x -> k <= k' -> rel k y x -> rel k' y x.
Proof.
  intros X K H. unfold rel in *. eapply Rle_trans; [exact H|]. pose proof dl_bounds.
  apply Rmult_le_compat_r; [exact X|]. apply Rmult_le_compat_r; lra.
Qed.

(* ------------------------------------------------------------------ *)
(** ** The real computation: the magnitudes of the roots of x^2 + p x - e q,
    p >= 0, q > 0, e = 1 or e = -1 *)
Lemma mul_fin_lit4 : fin (d_lit 4 0) /\ dR (d_lit 4 0) = 4.
Proof. split; [reflexivity|]. unfold dR. vm_compute. lra. Qed.
Lemma mul_fin_half : fin (d_lit 1 (-1)) /\ dR (d_lit 1 (-1)) = / 2.
Proof. split; [reflexivity|]. unfold dR. vm_compute. lra. Qed.
Lemma d_max_R : fin d_max /\ bpow radix2 1022 <= dR d_max.
Proof.
  split; [reflexivity|].
  replace (dR d_max) with (IZR (2 ^ 53 - 1) * bpow radix2 971).
  - change 1022%Z with (51 + 971)%Z. rewrite bpow_plus. apply Rmult_le_compat_r; [apply bpow_ge_0|].
    simpl. lra.
  - reflexivity.
Qed.
Lemma d_maxsqrt_R : fin d_maxsqrt /\ bpow radix2 511 <= dR d_maxsqrt.
Proof.
  destruct d_max_R as (F & B). pose proof (bpow_gt_0 radix2 1022).
  destruct (sqrt_R d_max F ltac:(lra)) as (F2 & E & _). split; [exact F2|].
  change (dR d_maxsqrt) with (dR (d_sqrt d_max)). rewrite E.
  rewrite <- (rnd_fmt (bpow radix2 511)).
  - apply round_le; [typeclasses eauto|apply valid_rnd_N|].
    rewrite <- (sqrt_Rsqr (bpow radix2 511)) by apply bpow_ge_0. apply sqrt_le_1_alt.
    unfold Rsqr. rewrite <- bpow_plus. exact B.
  - apply generic_format_FLT_bpow; [easy|lia].
Qed.
Lemma d_abs_R a : fin a -> fin (d_abs a) /\ dR (d_abs a) = Rabs (dR a).
Proof.
  intros F. unfold d_abs, b64_abs, dR. rewrite is_finite_Babs, B2R_Babs. split; [exact F|reflexivity].
Qed.
Lemma d_gt_false a b : fin a -> fin b -> dR a <= dR b -> d_gt a b = false.
Proof.
  intros Fa Fb H. destruct (d_gt a b) eqn:E; [|reflexivity]. apply d_lt_fin in E; [lra|assumption|assumption].
Qed.
Lemma d_lt_false a b : fin a -> fin b -> dR b <= dR a -> d_lt a b = false.
Proof. intros Fa Fb H. apply (d_gt_false b a); assumption. Qed.
Lemma d_eq_false a b : fin a -> fin b -> dR a <> dR b -> d_eq a b = false.
Proof.
  intros Fa Fb H. destruct (d_eq a b) eqn:E; [|reflexivity]. apply d_eq_fin in E; [contradiction|assumption|assumption].
Qed.
Lemma zero_R : fin d_zero /\ dR d_zero = 0.
Proof. split; reflexivity. Qed.

(** the part of the solver after the division by the leading coefficient *)
Definition quad_tail (f0 f1 : d64) : list d64 :=
  if d_eq f0 d_zero then [d_min (d_opp f1) d_zero; d_maximum (d_opp f1) d_zero]
  else if d_gt (d_abs f1) d_maxsqrt then
    let a := d_opp f1 in
    let b := d_div (d_opp f0) f1 in
    if d_gt a b then [b; a] else [a; b]
  else
    let arg := d_sub (d_mul f1 f1) (d_mul (d_lit 4 0) f0) in
    if d_lt arg d_zero then []
    else if d_eq arg d_zero then [d_mul (d_opp f1) (d_lit 1 (-1))]
    else
      let root1 := d_mul (d_opp (d_add f1 (d_copysign (d_sqrt arg) f1))) (d_lit 1 (-1)) in
      let root2 := d_div f0 root1 in
      if d_gt root1 root2 then [root2; root1] else [root1; root2].

Section RealPart.
Variables p q e : R.
Hypothesis Hp : 0 <= p <= bpow radix2 400.
Hypothesis Hq : bpow radix2 (-400) <= q <= bpow radix2 400.
Hypothesis He : e = 1 \/ e = -1 /\ 8 * q <= p * p.
Let p' := drnd p.
Let q' := drnd q.
Let P := drnd (p' * p').
Let Q := drnd (4 * q').
Let A := drnd (P + e * Q).
Let s := drnd (sqrt A).
Let t := drnd (p' + s).
Let r := drnd (t * / 2).
Let o := drnd (q' / r).
Let S := sqrt (p * p + e * 4 * q).
Let Rt := (p + S) / 2.

Lemma bp a b : (a < b)%Z -> bpow radix2 a < bpow radix2 b.
Proof. apply bpow_lt. Qed.
Lemma bp_step n : bpow radix2 (n + 1) = 2 * bpow radix2 n.
Proof. rewrite bpow_plus. simpl. lra. Qed.

Lemma q_pos : 0 < q.
Proof. pose proof (bpow_gt_0 radix2 (-400)). lra. Qed.
Lemma relq : rel 1.01 q' q.
Proof.
  replace 1.01 with (0 + 1.01) by lra. pose proof q_pos.
  apply rel_rnd; [lra|assumption| |unfold rel; rewrite Rminus_diag_eq, Rabs_R0 by reflexivity; lra].
  apply Rle_trans with (bpow radix2 (-400)); [apply bpow_le; lia|lra].
Qed.
Lemma q'_bounds : bpow radix2 (-401) <= q' <= bpow radix2 401.
Proof.
  pose proof (rel_lo _ _ _ relq). pose proof (rel_hi _ _ _ relq). pose proof dl_bounds. pose proof q_pos.
  pose proof (bp_step (-401)). pose proof (bp_step 400). simpl Z.add in *. nra.
Qed.
Lemma relQ : rel 2.02 Q (4 * q).
Proof.
  replace 2.02 with (1.01 + 1.01) by lra. pose proof q_pos.
  apply rel_rnd; [lra|lra| |].
  - pose proof q'_bounds. apply Rle_trans with (bpow radix2 (-401)); [apply bpow_le; lia|].
    pose proof (bpow_gt_0 radix2 (-401)). lra.
  - pose proof relq as H0. unfold rel in *. replace (4 * q' - 4 * q) with (4 * (q' - q)) by ring.
    rewrite Rabs_mult, (Rabs_pos_eq 4) by lra. lra.
Qed.

Lemma p'_pos : 0 <= p'.
Proof. apply rnd_pos. lra. Qed.
Lemma p'_err : Rabs (p' - p) <= dl * p + tiny.
Proof. pose proof (rnd_err p) as E. rewrite (Rabs_pos_eq p) in E by lra. exact E. Qed.
Lemma p'_big : p' <= bpow radix2 400.
Proof.
  pose proof (rnd_big p 400 ltac:(lia)) as B. rewrite Rabs_pos_eq in B by lra.
  specialize (B ltac:(lra)). fold p' in B. rewrite Rabs_pos_eq in B by apply p'_pos. exact B.
Qed.

Let w := bpow radix2 (-600).
Lemma w_small : 0 < w /\ w <= dl * / 4000000 * q /\ tiny <= w * / 4000000 /\ p * tiny <= w * / 4000000 /\
  tiny * tiny <= w * / 4000000.
Proof.
  assert (W : 0 < w) by apply bpow_gt_0. pose proof dl_bounds as (D & _).
  assert (T : 0 < tiny) by apply bpow_gt_0.
  assert (K : bpow radix2 (-22) <= / 4000000) by (simpl; lra).
  assert (K2 : 0 < bpow radix2 (-22)) by apply bpow_gt_0.
  split; [exact W|]. split; [|split; [|split]].
  - apply Rle_trans with (dl * bpow radix2 (-22) * bpow radix2 (-400)).
    + unfold w, dl. rewrite <- !bpow_plus. apply bpow_le. lia.
    + apply Rmult_le_compat; [nra|pose proof (bpow_gt_0 radix2 (-400)); lra| |lra].
      apply Rmult_le_compat_l; lra.
  - apply Rle_trans with (w * bpow radix2 (-22)); [|apply Rmult_le_compat_l; lra].
    unfold tiny, w. rewrite <- bpow_plus. apply bpow_le. lia.
  - apply Rle_trans with (bpow radix2 400 * tiny); [apply Rmult_le_compat_r; lra|].
    apply Rle_trans with (w * bpow radix2 (-22)); [|apply Rmult_le_compat_l; lra].
    unfold tiny, w. rewrite <- !bpow_plus. apply bpow_le. lia.
  - apply Rle_trans with (w * bpow radix2 (-22)); [|apply Rmult_le_compat_l; lra].
    unfold tiny, w. rewrite <- !bpow_plus. apply bpow_le. lia.
Qed.

Lemma P_err : Rabs (P - p * p) <= 3.01 * dl * (p * p) + dl * / 100 * q.
Proof.
  pose proof p'_err as E. pose proof p'_pos as PP. pose proof dl_bounds as (D1 & D2).
  destruct w_small as (W & W1 & W2 & W3 & W4).
  assert (E2 : Rabs (p' * p' - p * p) <= 2.001 * dl * (p * p) + w).
  { replace (p' * p' - p * p) with ((p' - p) * (p' + p)) by ring. rewrite Rabs_mult.
    rewrite (Rabs_pos_eq (p' + p)) by lra.
    assert (U : p' + p <= 2 * p + dl * p + tiny) by (apply Rabs_le_inv in E; lra).
    assert (T : 0 < tiny) by apply bpow_gt_0.
    apply Rle_trans with ((dl * p + tiny) * (2 * p + dl * p + tiny)).
    - apply Rmult_le_compat; [apply Rabs_pos|lra|exact E|exact U].
    - replace ((dl * p + tiny) * (2 * p + dl * p + tiny))
        with ((2 + dl) * dl * (p * p) + (2 + 2 * dl) * (p * tiny) + tiny * tiny) by ring.
      assert (0 <= p * p) by nra. assert (0 <= p * tiny) by nra.
      assert ((2 + dl) * dl * (p * p) <= 2.001 * dl * (p * p)).
      { apply Rmult_le_compat_r; [assumption|]. nra. }
      assert ((2 + 2 * dl) * (p * tiny) <= 3 * (p * tiny)) by (apply Rmult_le_compat_r; lra).
      lra. }
  pose proof (rnd_err (p' * p')) as E3. fold P in E3. rewrite (Rabs_pos_eq (p' * p')) in E3 by nra.
  replace (P - p * p) with ((P - p' * p') + (p' * p' - p * p)) by ring.
  eapply Rle_trans; [apply Rabs_triang|].
  assert (0 <= p * p) by nra. apply Rabs_le_inv in E2.
  assert (p' * p' <= 1.001 * (p * p) + w) by nra.
  assert (dl * (p' * p') <= dl * (1.001 * (p * p) + w)) by (apply Rmult_le_compat_l; lra).
  assert (dl * w <= w) by nra.
  assert (Rabs (p' * p' - p * p) <= 2.001 * dl * (p * p) + w) by (apply Rabs_le; lra).
  assert (0 < dl * q) by (apply Rmult_lt_0_compat; [lra|apply q_pos]).
  lra.
Qed.

Lemma A0_pos : q <= p * p + e * 4 * q /\ p * p <= 2 * (p * p + e * 4 * q).
Proof. pose proof q_pos. assert (0 <= p * p) by nra. destruct He as [-> | [-> H8]]; lra. Qed.
Lemma A0_gt : 0 < p * p + e * 4 * q.
Proof. pose proof q_pos. pose proof A0_pos. lra. Qed.
Lemma relPQ : rel 8.06 (P + e * Q) (p * p + e * 4 * q).
Proof.
  pose proof P_err as E1. pose proof relQ as E2. unfold rel in *. pose proof q_pos.
  pose proof dl_bounds as (D1 & _).
  replace (P + e * Q - (p * p + e * 4 * q)) with ((P - p * p) + e * (Q - 4 * q)) by ring.
  eapply Rle_trans; [apply Rabs_triang|]. rewrite Rabs_mult.
  assert (0 <= dl * (p * p)) by (apply Rmult_le_pos; nra). assert (0 < dl * q) by (apply Rmult_lt_0_compat; lra).
  destruct He as [-> | [-> H8]].
  - rewrite Rabs_R1. lra.
  - rewrite (Rabs_left (-1)) by lra. assert (8 * (dl * q) <= dl * (p * p)) by nra. lra.
Qed.
Lemma A0_big : p * p + e * 4 * q <= 5 * bpow radix2 800.
Proof.
  pose proof q_pos.
  assert (p * p <= bpow radix2 800).
  { change 800%Z with (400 + 400)%Z. rewrite bpow_plus. apply Rmult_le_compat; lra. }
  assert (bpow radix2 400 <= bpow radix2 800) by (apply bpow_le; lia).
  destruct He as [-> | [-> _]]; lra.
Qed.
Lemma PQ_bounds : bpow radix2 (-401) <= P + e * Q <= bpow radix2 810.
Proof.
  pose proof (rel_lo _ _ _ relPQ) as L. pose proof (rel_hi _ _ _ relPQ) as U. pose proof dl_bounds as (D1 & D2).
  pose proof q_pos. pose proof A0_pos as (K & _). split.
  - pose proof (bp_step (-401)). simpl Z.add in *. apply Rle_trans with (2 := L). nra.
  - apply Rle_trans with (1 := U). pose proof A0_big.
    assert (bpow radix2 810 = 1024 * bpow radix2 800).
    { change 810%Z with (10 + 800)%Z. rewrite bpow_plus. simpl (bpow radix2 10). reflexivity. }
    pose proof (bpow_gt_0 radix2 800). nra.
Qed.
Lemma relA : rel 9.07 A (p * p + e * 4 * q).
Proof.
  replace 9.07 with (8.06 + 1.01) by lra. apply rel_rnd; [lra|apply A0_gt| |apply relPQ].
  pose proof PQ_bounds. apply Rle_trans with (bpow radix2 (-401)); [apply bpow_le; lia|lra].
Qed.
Lemma A_bounds : bpow radix2 (-402) <= A <= bpow radix2 810.
Proof.
  split.
  - pose proof (rel_lo _ _ _ relA) as L. pose proof dl_bounds as (D1 & D2). pose proof q_pos.
    pose proof A0_pos as (K & _). pose proof (bp_step (-401)). pose proof (bp_step (-402)). simpl Z.add in *.
    apply Rle_trans with (2 := L). nra.
  - pose proof PQ_bounds as (L & U). pose proof (bpow_gt_0 radix2 (-401)).
    pose proof (rnd_big (P + e * Q) 810 ltac:(lia)) as B. rewrite (Rabs_pos_eq (P + e * Q)) in B by lra.
    specialize (B U). fold A in B. eapply Rle_trans; [apply Rle_abs|exact B].
Qed.
Lemma A_pos : 0 < A.
Proof. pose proof A_bounds. pose proof (bpow_gt_0 radix2 (-402)). lra. Qed.
Lemma S_pos : bpow radix2 (-200) <= S.
Proof.
  unfold S. rewrite <- (sqrt_Rsqr (bpow radix2 (-200))) by apply bpow_ge_0.
  apply sqrt_le_1_alt. unfold Rsqr. rewrite <- bpow_plus. simpl Z.add.
  pose proof q_pos. pose proof A0_pos. lra.
Qed.
Lemma rels : rel 10.08 s S.
Proof.
  replace 10.08 with (9.07 + 1.01) by lra. pose proof S_pos. pose proof (bpow_gt_0 radix2 (-200)).
  apply rel_rnd; [lra|lra| |].
  - apply Rle_trans with (bpow radix2 (-201)); [apply bpow_le; lia|].
    rewrite <- (sqrt_Rsqr (bpow radix2 (-201))) by apply bpow_ge_0. apply sqrt_le_1_alt.
    unfold Rsqr. rewrite <- bpow_plus. apply A_bounds.
  - apply rel_sqrt; [lra|apply A0_gt|apply relA].
Qed.
Lemma s_bounds : bpow radix2 (-201) <= s <= bpow radix2 405.
Proof.
  split.
  - pose proof (rel_lo _ _ _ rels) as L. pose proof dl_bounds. pose proof S_pos. pose proof (bp_step (-201)).
    simpl Z.add in *. pose proof (bpow_gt_0 radix2 (-201)). nra.
  - assert (B : sqrt A <= bpow radix2 405).
    { rewrite <- (sqrt_Rsqr (bpow radix2 405)) by apply bpow_ge_0. apply sqrt_le_1_alt.
      unfold Rsqr. rewrite <- bpow_plus. apply A_bounds. }
    pose proof (rnd_big (sqrt A) 405 ltac:(lia)) as C. rewrite (Rabs_pos_eq (sqrt A)) in C by apply sqrt_pos.
    specialize (C B). fold s in C. eapply Rle_trans; [apply Rle_abs|exact C].
Qed.
Lemma relps : rel 10.09 (p' + s) (p + S).
Proof.
  pose proof rels as E2. unfold rel in *. pose proof p'_err as E1. pose proof S_pos. pose proof dl_bounds as (D1 & D2).
  pose proof (bpow_gt_0 radix2 (-200)).
  assert (T : tiny <= dl * / 1000 * S).
  { apply Rle_trans with (dl * / 1000 * bpow radix2 (-200)); [|apply Rmult_le_compat_l; nra].
    apply Rle_trans with (dl * bpow radix2 (-10) * bpow radix2 (-200)).
    - unfold tiny, dl. rewrite <- !bpow_plus. apply bpow_le. lia.
    - apply Rmult_le_compat_r; [lra|]. apply Rmult_le_compat_l; [lra|]. simpl. lra. }
  replace (p' + s - (p + S)) with ((p' - p) + (s - S)) by ring.
  eapply Rle_trans; [apply Rabs_triang|].
  assert (0 <= dl * p) by nra. assert (0 <= dl * S) by nra. lra.
Qed.
Lemma relt : rel 11.1 t (p + S).
Proof.
  replace 11.1 with (10.09 + 1.01) by lra. pose proof S_pos. pose proof (bpow_gt_0 radix2 (-200)).
  apply rel_rnd; [lra|lra| |apply relps].
  pose proof s_bounds. pose proof p'_pos. apply Rle_trans with (bpow radix2 (-201)); [apply bpow_le; lia|lra].
Qed.
Lemma t_bounds : bpow radix2 (-202) <= t <= bpow radix2 406.
Proof.
  split.
  - pose proof (rel_lo _ _ _ relt) as L. pose proof dl_bounds. pose proof S_pos.
    pose proof (bpow_gt_0 radix2 (-202)). assert (bpow radix2 (-200) = 4 * bpow radix2 (-202)).
    { change (-200)%Z with (2 + -202)%Z. rewrite bpow_plus. simpl (bpow radix2 2). reflexivity. }
    nra.
  - pose proof s_bounds. pose proof p'_pos. pose proof p'_big. pose proof (bpow_gt_0 radix2 (-201)).
    assert (bpow radix2 400 <= bpow radix2 405) by (apply bpow_le; lia). pose proof (bp_step 405). simpl Z.add in *.
    pose proof (rnd_big (p' + s) 406 ltac:(lia)) as C. rewrite (Rabs_pos_eq (p' + s)) in C by lra.
    specialize (C ltac:(lra)). fold t in C. eapply Rle_trans; [apply Rle_abs|exact C].
Qed.
Lemma relr : rel 12.11 r Rt.
Proof.
  replace 12.11 with (11.1 + 1.01) by lra. pose proof S_pos. pose proof (bpow_gt_0 radix2 (-200)).
  apply rel_rnd; [lra|unfold Rt; lra| |].
  - pose proof t_bounds. apply Rle_trans with (bpow radix2 (-203)); [apply bpow_le; lia|].
    pose proof (bp_step (-203)). simpl Z.add in *. lra.
  - pose proof relt as H1. unfold rel, Rt in *.
    replace (t * / 2 - (p + S) / 2) with (/ 2 * (t - (p + S))) by field.
    rewrite Rabs_mult, (Rabs_pos_eq (/ 2)) by lra. lra.
Qed.
Lemma r_bounds : bpow radix2 (-203) <= r <= bpow radix2 406.
Proof.
  pose proof t_bounds. pose proof (bpow_gt_0 radix2 (-202)). pose proof (bp_step (-203)). simpl Z.add in *.
  split.
  - unfold r. rewrite <- (round_generic radix2 dexp ZnearestE (bpow radix2 (-203))).
    + apply round_le; [typeclasses eauto|apply valid_rnd_N|lra].
    + apply generic_format_FLT_bpow; [easy|lia].
  - pose proof (rnd_big (t * / 2) 406 ltac:(lia)) as C. rewrite (Rabs_pos_eq (t * / 2)) in C by lra.
    specialize (C ltac:(lra)). fold r in C. eapply Rle_trans; [apply Rle_abs|exact C].
Qed.
Lemma Rt_pos : 0 < Rt.
Proof. pose proof S_pos. pose proof (bpow_gt_0 radix2 (-200)). unfold Rt. lra. Qed.
Lemma qr_bounds : bpow radix2 (-807) <= q' / r <= bpow radix2 604.
Proof.
  pose proof r_bounds as (L & U). pose proof q'_bounds as (L2 & U2). pose proof (bpow_gt_0 radix2 (-203)).
  pose proof (bpow_gt_0 radix2 (-401)). pose proof (bpow_gt_0 radix2 406).
  split.
  - replace (bpow radix2 (-807)) with (bpow radix2 (-401) * / bpow radix2 406).
    + unfold Rdiv. apply Rmult_le_compat; [lra|apply Rlt_le, Rinv_0_lt_compat; lra|lra|].
      apply Rinv_le; lra.
    + rewrite <- bpow_opp, <- bpow_plus. reflexivity.
  - replace (bpow radix2 604) with (bpow radix2 401 * / bpow radix2 (-203)).
    + unfold Rdiv. apply Rmult_le_compat; [lra|apply Rlt_le, Rinv_0_lt_compat; lra|lra|].
      apply Rinv_le; lra.
    + rewrite <- bpow_opp, <- bpow_plus. reflexivity.
Qed.
Lemma relo : rel 14.21 o (q / Rt).
Proof.
  replace 14.21 with (13.2 + 1.01) by lra. pose proof Rt_pos as RP. pose proof q_pos as QP.
  apply rel_rnd; [lra|apply Rdiv_lt_0_compat; lra| |].
  { pose proof qr_bounds. apply Rle_trans with (bpow radix2 (-807)); [apply bpow_le; lia|lra]. }
  pose proof (rel_lo _ _ _ relq) as L1. pose proof (rel_hi _ _ _ relq) as U1.
  pose proof (rel_lo _ _ _ relr) as L2. pose proof (rel_hi _ _ _ relr) as U2.
  pose proof dl_bounds as (D1 & D2). pose proof r_bounds as (L3 & _). pose proof (bpow_gt_0 radix2 (-203)).
  apply rel_intro.
  - apply Rmult_le_reg_r with (r * Rt); [apply Rmult_lt_0_compat; lra|].
    replace (q / Rt * (1 - 13.2 * dl) * (r * Rt)) with (q * (1 - 13.2 * dl) * r) by (field; lra).
    replace (q' / r * (r * Rt)) with (q' * Rt) by (field; lra).
    apply Rle_trans with (q * (1 - 13.2 * dl) * (Rt * (1 + 12.11 * dl))).
    + apply Rmult_le_compat_l; [apply Rmult_le_pos; lra|exact U2].
    + apply Rle_trans with (q * (1 - 1.01 * dl) * Rt); [|apply Rmult_le_compat_r; lra].
      replace (q * (1 - 13.2 * dl) * (Rt * (1 + 12.11 * dl))) with (q * Rt * ((1 - 13.2 * dl) * (1 + 12.11 * dl))) by ring.
      replace (q * (1 - 1.01 * dl) * Rt) with (q * Rt * (1 - 1.01 * dl)) by ring.
      apply Rmult_le_compat_l; [apply Rmult_le_pos; lra|]. nra.
  - apply Rmult_le_reg_r with (r * Rt); [apply Rmult_lt_0_compat; lra|].
    replace (q / Rt * (1 + 13.2 * dl) * (r * Rt)) with (q * (1 + 13.2 * dl) * r) by (field; lra).
    replace (q' / r * (r * Rt)) with (q' * Rt) by (field; lra).
    apply Rle_trans with (q * (1 + 13.2 * dl) * (Rt * (1 - 12.11 * dl))).
    + apply Rle_trans with (q * (1 + 1.01 * dl) * Rt); [apply Rmult_le_compat_r; lra|].
      replace (q * (1 + 13.2 * dl) * (Rt * (1 - 12.11 * dl))) with (q * Rt * ((1 + 13.2 * dl) * (1 - 12.11 * dl))) by ring.
      replace (q * (1 + 1.01 * dl) * Rt) with (q * Rt * (1 + 1.01 * dl)) by ring.
      apply Rmult_le_compat_l; [apply Rmult_le_pos; lra|]. nra.
    + apply Rmult_le_compat_l; [apply Rmult_le_pos; lra|exact L2].
Qed.
(** Rt is the larger root of x^2 - p x - q in magnitude, - q / Rt the other *)
Lemma Rt_root : Rt * Rt - p * Rt - e * q = 0.
Proof.
  unfold Rt. pose proof (sqrt_sqrt (p * p + e * 4 * q)) as E. fold S in E. pose proof A0_gt. specialize (E ltac:(lra)).
  field_simplify. replace (S ^ 2) with (S * S) by ring. rewrite E. field.
Qed.

(** the same computation on doubles: sg is the sign of f1 *)
Variables f0 f1 : d64.
Variable sg : R.
Hypothesis F0 : fin f0.
Hypothesis F1 : fin f1.
Hypothesis Hsg : sg = 1 /\ d_signbit f1 = false \/ sg = -1 /\ d_signbit f1 = true.
Hypothesis H1 : dR f1 = sg * p'.
Hypothesis H0 : dR f0 = - (e * q').

Lemma sg_sq : sg * sg = 1.
Proof. destruct Hsg as [[-> _] | [-> _]]; lra. Qed.
Lemma sg_abs x : Rabs (sg * x) = Rabs x.
Proof. rewrite Rabs_mult. destruct Hsg as [[-> _] | [-> _]]; [rewrite Rabs_R1|rewrite (Rabs_left (-1)) by lra]; lra. Qed.
Lemma sg_rnd x : drnd (sg * x) = sg * drnd x.
Proof.
  destruct Hsg as [[-> _] | [-> _]]; [rewrite !Rmult_1_l; reflexivity|].
  replace (-1 * x) with (- x) by ring. rewrite rnd_opp. ring.
Qed.
Lemma e_abs : Rabs e = 1.
Proof. destruct He as [-> | [-> _]]; [apply Rabs_R1|rewrite Rabs_left; lra]. Qed.
Lemma e_rnd x : drnd (e * x) = e * drnd x.
Proof.
  destruct He as [-> | [-> _]]; [rewrite !Rmult_1_l; reflexivity|].
  replace (-1 * x) with (- x) by ring. rewrite rnd_opp. ring.
Qed.
Lemma bp1000 k : (k <= 1000)%Z -> bpow radix2 k <= bpow radix2 1000.
Proof. apply bpow_le. Qed.

Lemma arg_R : fin (d_sub (d_mul f1 f1) (d_mul (d_lit 4 0) f0)) /\
  dR (d_sub (d_mul f1 f1) (d_mul (d_lit 4 0) f0)) = A.
Proof.
  pose proof p'_big as PB. pose proof p'_pos as PP. pose proof q'_bounds as (QL & QU).
  pose proof (bpow_gt_0 radix2 (-401)) as Z1.
  assert (PP2 : p' * p' <= bpow radix2 800).
  { change 800%Z with (400 + 400)%Z. rewrite bpow_plus. apply Rmult_le_compat; lra. }
  assert (E11 : dR f1 * dR f1 = p' * p').
  { rewrite H1. replace (sg * p' * (sg * p')) with (sg * sg * (p' * p')) by ring. rewrite sg_sq. ring. }
  destruct (mul_R f1 f1 F1 F1) as (M1 & M2).
  { rewrite E11, Rabs_pos_eq by nra. pose proof (bp1000 800 ltac:(lia)). lra. }
  destruct mul_fin_lit4 as (L1 & L2).
  assert (E4 : dR (d_lit 4 0) * dR f0 = e * - (4 * q')) by (rewrite L2, H0; ring).
  destruct (mul_R (d_lit 4 0) f0 L1 F0) as (M3 & M4).
  { rewrite E4, Rabs_mult, e_abs, Rabs_Ropp, Rabs_pos_eq by lra.
    pose proof (bp1000 403 ltac:(lia)) as Z. change 403%Z with (2 + 401)%Z in Z. rewrite bpow_plus in Z.
    simpl (bpow radix2 2) in Z. lra. }
  rewrite E11 in M2. fold P in M2. rewrite E4, e_rnd, rnd_opp in M4. fold Q in M4.
  assert (ES : dR (d_mul f1 f1) - dR (d_mul (d_lit 4 0) f0) = P + e * Q).
  { rewrite M2, M4. fold P Q. ring. }
  destruct (sub_R _ _ M1 M3) as (M5 & M6).
  { rewrite ES. pose proof PQ_bounds as (U1 & U2). rewrite Rabs_pos_eq by lra.
    pose proof (bp1000 810 ltac:(lia)). lra. }
  rewrite ES in M6. fold A in M6. split; [exact M5|exact M6].
Qed.

Lemma copysign_R m : fin m -> d_signbit m = false ->
  fin (d_copysign m f1) /\ dR (d_copysign m f1) = sg * dR m.
Proof.
  intros Fm Sm. unfold d_copysign. rewrite Sm. destruct (opp_R m Fm) as (O1 & O2 & _).
  destruct Hsg as [[-> ->] | [-> ->]]; cbn [Bool.eqb].
  - split; [exact Fm|ring].
  - split; [exact O1|]. rewrite O2. ring.
Qed.

Lemma tail_R : exists x1 x2, quad_tail f0 f1 = (if d_gt x1 x2 then [x2; x1] else [x1; x2]) /\
  fin x1 /\ fin x2 /\ dR x1 = - sg * r /\ dR x2 = sg * e * o.
Proof.
  unfold quad_tail.
  pose proof q'_bounds as (QL & QU). pose proof (bpow_gt_0 radix2 (-401)) as Z1.
  rewrite d_eq_false; [|exact F0|reflexivity|].
  2: { rewrite H0. destruct zero_R as (_ & ->). destruct He as [-> | [-> _]]; lra. }
  destruct d_maxsqrt_R as (MF & MB). destruct (d_abs_R f1 F1) as (AF & AR).
  rewrite d_gt_false; [|exact AF|exact MF|].
  2: { rewrite AR, H1, sg_abs, Rabs_pos_eq by apply p'_pos. pose proof p'_big.
       assert (bpow radix2 400 <= bpow radix2 511) by (apply bpow_le; lia). fold p'. lra. }
  destruct arg_R as (GF & GR). cbv zeta. set (arg := d_sub (d_mul f1 f1) (d_mul (d_lit 4 0) f0)) in *.
  pose proof A_pos as AP.
  rewrite d_lt_false; [|exact GF|reflexivity|rewrite GR; destruct zero_R as (_ & ->); fold A; lra].
  rewrite d_eq_false; [|exact GF|reflexivity|rewrite GR; destruct zero_R as (_ & ->); fold A; lra].
  destruct (sqrt_R arg GF ltac:(rewrite GR; exact AP)) as (SF & SR & SS).
  rewrite GR in SR. fold A s in SR.
  destruct (copysign_R _ SF SS) as (CF & CR). rewrite SR in CR.
  pose proof s_bounds as (SL & SU). pose proof (bpow_gt_0 radix2 (-201)) as Z2.
  pose proof p'_big as PB. pose proof p'_pos as PP.
  assert (ET : dR f1 + dR (d_copysign (d_sqrt arg) f1) = sg * (p' + s)) by (rewrite H1, CR; ring).
  destruct (add_R f1 _ F1 CF) as (TF & TR & _).
  { rewrite ET, sg_abs, Rabs_pos_eq by (fold s p'; lra).
    pose proof (bp1000 406 ltac:(lia)) as Z. pose proof (bp_step 405) as Z'. simpl Z.add in Z'.
    assert (bpow radix2 400 <= bpow radix2 405) by (apply bpow_le; lia). lra. }
  rewrite ET, sg_rnd in TR. fold t in TR.
  destruct (opp_R _ TF) as (OF & OR & _). rewrite TR in OR.
  destruct mul_fin_half as (L1 & L2).
  set (tt := d_opp (d_add f1 (d_copysign (d_sqrt arg) f1))) in *.
  assert (EH : dR tt * dR (d_lit 1 (-1)) = sg * - (t * / 2)) by (rewrite OR, L2; ring).
  pose proof t_bounds as (TL & TU). pose proof (bpow_gt_0 radix2 (-202)) as Z3.
  destruct (mul_R tt _ OF L1) as (RF & RR).
  { rewrite EH, sg_abs, Rabs_Ropp, Rabs_pos_eq by (fold t; lra). pose proof (bp1000 406 ltac:(lia)). fold t. lra. }
  rewrite EH, sg_rnd, rnd_opp in RR. fold r in RR.
  set (root1 := d_mul tt (d_lit 1 (-1))) in *.
  pose proof r_bounds as (RL & RU). pose proof (bpow_gt_0 radix2 (-203)) as Z4.
  assert (NZ : dR root1 <> 0).
  { rewrite RR. fold r. destruct Hsg as [[-> _] | [-> _]]; lra. }
  assert (ED : dR f0 / dR root1 = sg * (e * (q' / r))).
  { rewrite RR, H0. fold r q'.
    replace (sg * (e * (q' / r))) with ((sg * sg) * (- (e * q') / (sg * - r))).
    - rewrite sg_sq. ring.
    - field. split; [lra|]. destruct Hsg as [[-> _] | [-> _]]; lra. }
  pose proof qr_bounds as (OL & OU). pose proof (bpow_gt_0 radix2 (-807)) as Z5.
  destruct (div_R f0 root1 F0 RF NZ) as (DF & DR).
  { rewrite ED, sg_abs, Rabs_mult, e_abs, Rabs_pos_eq by (fold q' r; lra).
    pose proof (bp1000 604 ltac:(lia)). fold q' r. lra. }
  rewrite ED, sg_rnd, e_rnd in DR. fold o in DR.
  exists root1, (d_div f0 root1). split; [reflexivity|]. split; [exact RF|]. split; [exact DF|].
  split; [rewrite RR; fold r; ring|rewrite DR; fold o; ring].
Qed.

Lemma summary : exists x1 x2 Z, quad_tail f0 f1 = (if d_gt x1 x2 then [x2; x1] else [x1; x2]) /\
  fin x1 /\ fin x2 /\ bpow radix2 (-202) <= Z /\ p / 2 <= Z /\ Z * Z - p * Z - e * q = 0 /\
  Rabs (dR x1 - - sg * Z) <= 15 * dl * Z /\ Rabs (dR x2 - sg * e * (q / Z)) <= 15 * dl * (q / Z).
Proof.
  destruct tail_R as (x1 & x2 & E & X1 & X2 & V1 & V2). exists x1, x2, Rt.
  split; [exact E|]. split; [exact X1|]. split; [exact X2|].
  pose proof S_pos as SP. pose proof (bpow_gt_0 radix2 (-202)) as Z0.
  assert (Z1 : bpow radix2 (-200) = 4 * bpow radix2 (-202)).
  { change (-200)%Z with (2 + -202)%Z. rewrite bpow_plus. reflexivity. }
  pose proof Rt_pos as RP. pose proof q_pos as QP. pose proof dl_bounds as (D & _).
  split; [unfold Rt; lra|]. split; [unfold Rt; lra|]. split; [apply Rt_root|].
  split.
  - rewrite V1. replace (- sg * r - - sg * Rt) with (sg * - (r - Rt)) by ring. rewrite sg_abs, Rabs_Ropp.
    eapply Rle_trans; [apply relr|]. apply Rmult_le_compat_r; lra.
  - rewrite V2. replace (sg * e * o - sg * e * (q / Rt)) with (sg * (e * (o - q / Rt))) by ring.
    rewrite sg_abs, Rabs_mult, e_abs, Rmult_1_l.
    eapply Rle_trans; [apply relo|]. apply Rmult_le_compat_r; [apply Rlt_le, Rdiv_lt_0_compat; lra|lra].
Qed.
End RealPart.
