(** Backward error of the quadratic solver in double arithmetic: no condition on
    the discriminant. *)
From Coq Require Import Lia Lra.
From Flocq Require Import Core Binary Bits Plus_error Relative.
From Verif Require Import FloatModel FloatSpec FloatProofs FloatQuad.
Open Scope R_scope.

#[local] Instance dexp_valid3 : Valid_exp dexp.
Proof. apply FLT_exp_valid. reflexivity. Qed.

#[local] Instance prec53 : Prec_gt_0 53.
Proof. reflexivity. Qed.

(** y approximates z when both approximate x *)
Lemma rel_trans j k m y z x : 0 <= j <= 20 -> 0 <= k <= 20 -> j + k + / 10 <= m <= 20 -> 0 <= x ->
  rel j y x -> rel k z x -> rel m y z.
Proof.
  intros J K M X H1 H2. pose proof dl_bounds as (D1 & D2).
  pose proof (rel_lo _ _ _ H1). pose proof (rel_hi _ _ _ H1). pose proof (rel_lo _ _ _ H2). pose proof (rel_hi _ _ _ H2).
  assert (DJ : 0 <= j * dl <= / 20000) by nra. assert (DK : 0 <= k * dl <= / 20000) by nra.
  assert (DM : 0 <= m * dl <= / 20000) by nra.
  assert (JKM : j * dl + k * dl + / 10 * dl <= m * dl) by nra.
  assert (KM : 0 <= (k * dl) * (m * dl) <= / 100 * dl).
  { split; [apply Rmult_le_pos; lra|]. apply Rle_trans with ((20 * dl) * / 20000); [|lra].
    apply Rmult_le_compat; try lra. apply Rmult_le_compat_r; lra. }
  apply rel_intro.
  - apply Rle_trans with (x * (1 + k * dl) * (1 - m * dl)); [apply Rmult_le_compat_r; lra|].
    apply Rle_trans with (2 := H). replace (x * (1 + k * dl) * (1 - m * dl)) with (x * ((1 + k * dl) * (1 - m * dl))) by ring.
    apply Rmult_le_compat_l; [exact X|]. nra.
  - apply Rle_trans with (x * (1 - k * dl) * (1 + m * dl)); [|apply Rmult_le_compat_r; lra].
    apply Rle_trans with (1 := H0). replace (x * (1 - k * dl) * (1 + m * dl)) with (x * ((1 - k * dl) * (1 + m * dl))) by ring.
    apply Rmult_le_compat_l; [exact X|]. nra.
Qed.
Lemma rel_refl k x : 0 <= k -> 0 <= x -> rel k x x.
Proof.
  intros K X. unfold rel. rewrite Rminus_diag_eq, Rabs_R0 by reflexivity. pose proof dl_bounds as (D & _).
  apply Rmult_le_pos; [apply Rmult_le_pos; lra|exact X].
Qed.
(** a further relative perturbation by at most 2^-53 *)
Lemma rel_pert k y x z : 0 <= k <= 20 -> 0 <= x -> Rabs z <= dl -> rel k y x -> rel (k + 1.01) (y * (1 + z)) x.
Proof.
  intros K X Z H. pose proof (rel_lo _ _ _ H). pose proof (rel_hi _ _ _ H). pose proof dl_bounds as (D1 & D2).
  apply Rabs_le_inv in Z.
  assert (KD : 0 <= k * dl <= / 10000) by nra.
  assert (KE : 0 <= k * dl * dl <= / 10000 * dl) by nra.
  assert (Y : 0 <= y) by nra.
  apply rel_intro.
  - apply Rle_trans with (x * (1 - k * dl) * (1 - dl)).
    + replace (x * (1 - k * dl) * (1 - dl)) with (x * ((1 - k * dl) * (1 - dl))) by ring.
      apply Rmult_le_compat_l; [lra|]. lra.
    + apply Rmult_le_compat; [nra|lra|assumption|lra].
  - apply Rle_trans with (x * (1 + k * dl) * (1 + dl)).
    + apply Rmult_le_compat; [lra|lra|assumption|lra].
    + replace (x * (1 + k * dl) * (1 + dl)) with (x * ((1 + k * dl) * (1 + dl))) by ring.
      apply Rmult_le_compat_l; [lra|]. lra.
Qed.
Lemma rel_plus k y1 x1 y2 x2 : rel k y1 x1 -> rel k y2 x2 -> rel k (y1 + y2) (x1 + x2).
Proof.
  intros H1 H2. unfold rel in *. replace (y1 + y2 - (x1 + x2)) with ((y1 - x1) + (y2 - x2)) by ring.
  eapply Rle_trans; [apply Rabs_triang|]. lra.
Qed.
Lemma rel_half k y x : rel k y x -> rel k (y * / 2) (x * / 2).
Proof.
  intros H. unfold rel in *. replace (y * / 2 - x * / 2) with (/ 2 * (y - x)) by ring.
  rewrite Rabs_mult, (Rabs_pos_eq (/ 2)) by lra. lra.
Qed.
Lemma rel_sq k y x : 0 <= k <= 5 -> 0 <= x -> rel k y x -> rel (2 * k + / 100) (y * y) (x * x).
Proof.
  intros K X H. pose proof (rel_lo _ _ _ H). pose proof (rel_hi _ _ _ H). pose proof dl_bounds as (D1 & D2).
  assert (KD : 0 <= k * dl <= / 10000) by nra.
  assert (KK : 0 <= (k * dl) * (k * dl) <= / 100 * dl).
  { split; [apply Rmult_le_pos; lra|]. apply Rle_trans with ((5 * dl) * / 10000); [|lra].
    apply Rmult_le_compat; try lra. apply Rmult_le_compat_r; lra. }
  assert (Y : 0 <= y) by nra. assert (0 <= x * x) by nra.
  apply rel_intro.
  - apply Rle_trans with ((x * (1 - k * dl)) * (x * (1 - k * dl))).
    + replace (x * (1 - k * dl) * (x * (1 - k * dl))) with (x * x * ((1 - k * dl) * (1 - k * dl))) by ring.
      apply Rmult_le_compat_l; [assumption|]. nra.
    + apply Rmult_le_compat; try assumption; apply Rmult_le_pos; lra.
  - apply Rle_trans with ((x * (1 + k * dl)) * (x * (1 + k * dl))).
    + apply Rmult_le_compat; assumption.
    + replace (x * (1 + k * dl) * (x * (1 + k * dl))) with (x * x * ((1 + k * dl) * (1 + k * dl))) by ring.
      apply Rmult_le_compat_l; [assumption|]. nra.
Qed.
Lemma rel_quot j k m y1 x1 y2 x2 : 0 <= j <= 20 -> 0 <= k <= 20 -> j + k + / 10 <= m <= 20 -> 0 < x1 -> 0 < x2 ->
  rel j y1 x1 -> rel k y2 x2 -> rel m (y1 / y2) (x1 / x2).
Proof.
  intros J K M X1 X2 H1 H2. pose proof dl_bounds as (D1 & D2).
  pose proof (rel_lo _ _ _ H1) as L1. pose proof (rel_hi _ _ _ H1) as U1.
  pose proof (rel_lo _ _ _ H2) as L2. pose proof (rel_hi _ _ _ H2) as U2.
  assert (DJ : 0 <= j * dl <= / 20000) by nra. assert (DK : 0 <= k * dl <= / 20000) by nra.
  assert (DM : 0 <= m * dl <= / 20000) by nra.
  assert (JKM : j * dl + k * dl + / 10 * dl <= m * dl) by nra.
  assert (KM : 0 <= (k * dl) * (m * dl) <= / 100 * dl).
  { split; [apply Rmult_le_pos; lra|]. apply Rle_trans with ((20 * dl) * / 20000); [|lra].
    apply Rmult_le_compat; try lra. apply Rmult_le_compat_r; lra. }
  assert (Y2 : 0 < y2) by nra.
  apply rel_intro.
  - apply Rmult_le_reg_r with (y2 * x2); [apply Rmult_lt_0_compat; lra|].
    replace (x1 / x2 * (1 - m * dl) * (y2 * x2)) with (x1 * (1 - m * dl) * y2) by (field; lra).
    replace (y1 / y2 * (y2 * x2)) with (y1 * x2) by (field; lra).
    apply Rle_trans with (x1 * (1 - m * dl) * (x2 * (1 + k * dl))).
    + apply Rmult_le_compat_l; [apply Rmult_le_pos; lra|exact U2].
    + apply Rle_trans with (x1 * (1 - j * dl) * x2); [|apply Rmult_le_compat_r; lra].
      replace (x1 * (1 - m * dl) * (x2 * (1 + k * dl))) with (x1 * x2 * ((1 - m * dl) * (1 + k * dl))) by ring.
      replace (x1 * (1 - j * dl) * x2) with (x1 * x2 * (1 - j * dl)) by ring.
      apply Rmult_le_compat_l; [apply Rmult_le_pos; lra|]. lra.
  - apply Rmult_le_reg_r with (y2 * x2); [apply Rmult_lt_0_compat; lra|].
    replace (x1 / x2 * (1 + m * dl) * (y2 * x2)) with (x1 * (1 + m * dl) * y2) by (field; lra).
    replace (y1 / y2 * (y2 * x2)) with (y1 * x2) by (field; lra).
    apply Rle_trans with (x1 * (1 + m * dl) * (x2 * (1 - k * dl))).
    + apply Rle_trans with (x1 * (1 + j * dl) * x2); [apply Rmult_le_compat_r; lra|].
      replace (x1 * (1 + m * dl) * (x2 * (1 - k * dl))) with (x1 * x2 * ((1 + m * dl) * (1 - k * dl))) by ring.
      replace (x1 * (1 + j * dl) * x2) with (x1 * x2 * (1 + j * dl)) by ring.
      apply Rmult_le_compat_l; [apply Rmult_le_pos; lra|]. lra.
    + apply Rmult_le_compat_l; [apply Rmult_le_pos; lra|exact L2].
Qed.

Section Back.
Variables p q e : R.
Hypothesis Hp : p = 0 \/ bpow radix2 (-400) <= p <= bpow radix2 400.
Hypothesis Hq : bpow radix2 (-400) <= q <= bpow radix2 400.
Hypothesis He : e = 1 \/ e = -1.
Let p' := drnd p.
Let q' := drnd q.
Let P := drnd (p' * p').
Let Q := drnd (4 * q').
Let A := drnd (P + e * Q).

Lemma Hp' : 0 <= p <= bpow radix2 400.
Proof.
  pose proof (bpow_gt_0 radix2 (-400)). pose proof (bpow_gt_0 radix2 400). destruct Hp as [-> | H1]; lra.
Qed.
Lemma b_p'_pos : 0 <= p'.
Proof. apply rnd_pos, Hp'. Qed.
Lemma b_p'_big : p' <= bpow radix2 400.
Proof. apply (p'_big p Hp'). Qed.
Lemma b_relp : rel 1.01 p' p.
Proof.
  unfold p'. destruct Hp as [-> | H1].
  - rewrite round_0 by apply valid_rnd_N. apply rel_refl; lra.
  - replace 1.01 with (0 + 1.01) by lra. pose proof (bpow_gt_0 radix2 (-400)).
    apply rel_rnd; [lra|lra| |apply rel_refl; lra].
    apply Rle_trans with (bpow radix2 (-400)); [apply bpow_le; lia|lra].
Qed.
Lemma b_relP : rel 3.04 P (p * p).
Proof.
  assert (H : rel 2.03 (p' * p') (p * p)).
  { replace 2.03 with (2 * 1.01 + / 100) by lra. apply rel_sq; [lra|apply Hp'|apply b_relp]. }
  destruct Hp as [E | H1].
  - unfold P. assert (p' = 0) by (unfold p'; rewrite E; apply round_0, valid_rnd_N).
    rewrite H0, E, Rmult_0_l, round_0 by apply valid_rnd_N. apply rel_refl; lra.
  - replace 3.04 with (2.03 + 1.01) by lra. pose proof (bpow_gt_0 radix2 (-400)).
    assert (PP : bpow radix2 (-800) <= p * p).
    { change (-800)%Z with (-400 + -400)%Z. rewrite bpow_plus. apply Rmult_le_compat; lra. }
    pose proof (bpow_gt_0 radix2 (-800)). apply rel_rnd; [lra|lra| |exact H].
    pose proof (rel_lo _ _ _ H). pose proof dl_bounds. pose proof (bp_step (-801)). simpl Z.add in *.
    apply Rle_trans with (bpow radix2 (-801)); [apply bpow_le; lia|]. nra.
Qed.
Lemma b_relQ : rel 2.02 Q (4 * q).
Proof. apply (relQ q Hq). Qed.
Lemma b_A : exists z, Rabs z <= dl /\ A = (P + e * Q) * (1 + z).
Proof.
  destruct (FLT_plus_error_N_ex radix2 (-1074) 53 (fun x => negb (Z.even x)) P (e * Q)) as (z & Z & E).
  - apply generic_format_round; [typeclasses eauto|apply valid_rnd_N].
  - assert (G : generic_format radix2 dexp Q) by (apply generic_format_round; [typeclasses eauto|apply valid_rnd_N]).
    destruct He as [-> | ->]; [rewrite Rmult_1_l; exact G|].
    replace (-1 * Q) with (- Q) by ring. apply generic_format_opp, G.
  - exists z. split; [|exact E]. eapply Rle_trans; [exact Z|].
    unfold u_ro, dl. simpl. lra.
Qed.
Lemma b_PQ_big : Rabs (P + e * Q) <= bpow radix2 810.
Proof.
  pose proof (rel_lo _ _ _ b_relP) as L1. pose proof (rel_hi _ _ _ b_relP) as U1.
  pose proof (rel_lo _ _ _ b_relQ) as L2. pose proof (rel_hi _ _ _ b_relQ) as U2.
  pose proof dl_bounds as (D1 & D2). pose proof Hp' as PP. pose proof (q_pos q Hq) as QP.
  assert (p * p <= bpow radix2 800).
  { change 800%Z with (400 + 400)%Z. rewrite bpow_plus. apply Rmult_le_compat; lra. }
  assert (bpow radix2 400 <= bpow radix2 800) by (apply bpow_le; lia).
  assert (E810 : bpow radix2 810 = 1024 * bpow radix2 800).
  { change 810%Z with (10 + 800)%Z. rewrite bpow_plus. reflexivity. }
  assert (0 <= p * p) by nra.
  assert (0 <= P <= 2 * bpow radix2 800) by nra. assert (0 <= Q <= 8 * bpow radix2 800) by nra.
  destruct He as [-> | ->]; apply Rabs_le; lra.
Qed.

Variables f0 f1 : d64.
Variable sg : R.
Hypothesis F0 : fin f0.
Hypothesis F1 : fin f1.
Hypothesis Hsg : sg = 1 /\ d_signbit f1 = false \/ sg = -1 /\ d_signbit f1 = true.
Hypothesis H1 : dR f1 = sg * p'.
Hypothesis H0 : dR f0 = - (e * q').

Lemma b_sg_abs x : Rabs (sg * x) = Rabs x.
Proof. rewrite Rabs_mult. destruct Hsg as [[-> _] | [-> _]]; [rewrite Rabs_R1|rewrite (Rabs_left (-1)) by lra]; lra. Qed.
Lemma b_sg_rnd x : drnd (sg * x) = sg * drnd x.
Proof.
  destruct Hsg as [[-> _] | [-> _]]; [rewrite !Rmult_1_l; reflexivity|].
  replace (-1 * x) with (- x) by ring. rewrite rnd_opp. ring.
Qed.
Lemma b_e_abs : Rabs e = 1.
Proof. destruct He as [-> | ->]; [apply Rabs_R1|rewrite Rabs_left; lra]. Qed.
Lemma b_e_rnd x : drnd (e * x) = e * drnd x.
Proof.
  destruct He as [-> | ->]; [rewrite !Rmult_1_l; reflexivity|].
  replace (-1 * x) with (- x) by ring. rewrite rnd_opp. ring.
Qed.

Lemma b_arg : fin (d_sub (d_mul f1 f1) (d_mul (d_lit 4 0) f0)) /\
  dR (d_sub (d_mul f1 f1) (d_mul (d_lit 4 0) f0)) = A.
Proof.
  pose proof b_p'_big as PB. pose proof b_p'_pos as PP. pose proof (q'_bounds q Hq) as (QL & QU). fold q' in QL, QU.
  pose proof (bpow_gt_0 radix2 (-401)) as Z1.
  assert (PP2 : p' * p' <= bpow radix2 800).
  { change 800%Z with (400 + 400)%Z. rewrite bpow_plus. apply Rmult_le_compat; lra. }
  assert (Sg2 : sg * sg = 1) by (destruct Hsg as [[-> _] | [-> _]]; lra).
  assert (E11 : dR f1 * dR f1 = p' * p').
  { rewrite H1. replace (sg * p' * (sg * p')) with (sg * sg * (p' * p')) by ring. rewrite Sg2. ring. }
  destruct (mul_R f1 f1 F1 F1) as (M1 & M2).
  { rewrite E11, Rabs_pos_eq by nra. pose proof (bp1000 800 ltac:(lia)). lra. }
  destruct mul_fin_lit4 as (L1 & L2).
  assert (E4 : dR (d_lit 4 0) * dR f0 = e * - (4 * q')) by (rewrite L2, H0; ring).
  destruct (mul_R (d_lit 4 0) f0 L1 F0) as (M3 & M4).
  { rewrite E4, Rabs_mult, b_e_abs, Rabs_Ropp, Rabs_pos_eq by lra.
    pose proof (bp1000 403 ltac:(lia)) as Z. change 403%Z with (2 + 401)%Z in Z. rewrite bpow_plus in Z.
    simpl (bpow radix2 2) in Z. lra. }
  rewrite E11 in M2. fold P in M2. rewrite E4, b_e_rnd, rnd_opp in M4. fold Q in M4.
  assert (ES : dR (d_mul f1 f1) - dR (d_mul (d_lit 4 0) f0) = P + e * Q).
  { rewrite M2, M4. fold P Q. ring. }
  destruct (sub_R _ _ M1 M3) as (M5 & M6).
  { rewrite ES. pose proof b_PQ_big. pose proof (bp1000 810 ltac:(lia)). lra. }
  rewrite ES in M6. fold A in M6. split; [exact M5|exact M6].
Qed.

(** the perturbed coefficients *)
Lemma b_pert : exists pt qt, 0 <= pt /\ 0 < qt /\ rel 4.05 pt p /\ rel 3.03 qt q /\ A = pt * pt + e * 4 * qt.
Proof.
  destruct b_A as (z & Z & EA).
  pose proof (rel_pert 3.04 P (p * p) z ltac:(lra) ltac:(pose proof Hp'; nra) Z b_relP) as RP.
  pose proof (rel_pert 2.02 Q (4 * q) z ltac:(lra) ltac:(pose proof (q_pos q Hq); lra) Z b_relQ) as RQ.
  pose proof Hp' as PP. pose proof (q_pos q Hq) as QP. pose proof dl_bounds as (D1 & D2).
  exists (sqrt (P * (1 + z))), (Q * (1 + z) / 4).
  assert (P0 : 0 <= P * (1 + z)).
  { pose proof (rel_lo _ _ _ RP). assert (0 <= p * p) by nra. nra. }
  split; [apply sqrt_pos|]. split; [pose proof (rel_lo _ _ _ RQ); nra|]. split; [|split].
  - replace p with (sqrt (p * p)) by (apply sqrt_square; lra).
    destruct (Req_dec p 0) as [E | E].
    + assert (ZP : P * (1 + z) = 0).
      { pose proof (rel_lo _ _ _ RP). pose proof (rel_hi _ _ _ RP). rewrite E in *. lra. }
      rewrite ZP, E, Rmult_0_l, sqrt_0. apply rel_refl; lra.
    + apply rel_sqrt; [lra|nra|]. apply rel_weaken with (3 := RP); [nra|lra].
  - unfold rel in RQ |- *. replace (Q * (1 + z) / 4 - q) with (/ 4 * (Q * (1 + z) - 4 * q)) by field.
    rewrite Rabs_mult, (Rabs_pos_eq (/ 4)) by lra. lra.
  - rewrite sqrt_sqrt by exact P0. rewrite EA. field.
Qed.

Lemma b_copysign m : fin m -> d_signbit m = false ->
  fin (d_copysign m f1) /\ dR (d_copysign m f1) = sg * dR m.
Proof.
  intros Fm Sm. unfold d_copysign. rewrite Sm. destruct (opp_R m Fm) as (O1 & O2 & _).
  destruct Hsg as [[-> ->] | [-> ->]]; cbn [Bool.eqb].
  - split; [exact Fm|ring].
  - split; [exact O1|]. rewrite O2. ring.
Qed.

(** what the solver does with the perturbed coefficients *)
Lemma b_tail : exists pt qt, 0 <= pt /\ 0 < qt /\ rel 4.05 pt p /\ rel 3.03 qt q /\
  (pt * pt + e * 4 * qt < 0 /\ quad_tail f0 f1 = [] \/
   pt * pt + e * 4 * qt = 0 /\ (exists x, quad_tail f0 f1 = [x] /\ fin x /\
     exists y, dR x = - sg * y /\ rel 15 y (pt / 2)) \/
   0 < pt * pt + e * 4 * qt /\ exists x1 x2 y1 y2 Z, quad_tail f0 f1 = (if d_gt x1 x2 then [x2; x1] else [x1; x2]) /\
     fin x1 /\ fin x2 /\ 0 < Z /\ Z * Z - pt * Z - e * qt = 0 /\ pt < 2 * Z /\
     dR x1 = - sg * y1 /\ dR x2 = sg * e * y2 /\ rel 15 y1 Z /\ rel 15 y2 (qt / Z)).
Proof.
  destruct b_pert as (pt & qt & PT & QT & RPt & RQt & EA). exists pt, qt.
  split; [exact PT|]. split; [exact QT|]. split; [exact RPt|]. split; [exact RQt|].
  rewrite <- EA. unfold quad_tail.
  pose proof (q'_bounds q Hq) as (QL & QU). fold q' in QL, QU. pose proof (bpow_gt_0 radix2 (-401)) as Z1.
  pose proof b_p'_big as PB. pose proof b_p'_pos as PP. destruct zero_R as (_ & ZR).
  pose proof (q_pos q Hq) as QP. pose proof Hp' as (P0 & _). pose proof dl_bounds as (D1 & D2).
  rewrite d_eq_false; [|exact F0|reflexivity|].
  2: { rewrite H0, ZR. destruct He as [-> | ->]; lra. }
  destruct d_maxsqrt_R as (MF & MB). destruct (d_abs_R f1 F1) as (AF & AR).
  rewrite d_gt_false; [|exact AF|exact MF|].
  2: { rewrite AR, H1, b_sg_abs, Rabs_pos_eq by exact PP.
       assert (bpow radix2 400 <= bpow radix2 511) by (apply bpow_le; lia). lra. }
  destruct b_arg as (GF & GR). cbv zeta. set (arg := d_sub (d_mul f1 f1) (d_mul (d_lit 4 0) f0)) in *.
  assert (RP' : rel 5.2 p' pt) by (apply rel_trans with 1.01 4.05 p; [lra|lra|lra|lra|apply b_relp|exact RPt]).
  destruct (Rtotal_order A 0) as [AN | [AZ | AP]].
  - left. split; [exact AN|].
    assert (L : d_lt arg d_zero = true) by (apply d_lt_fin; [exact GF|reflexivity|lra]). rewrite L. reflexivity.
  - right. left. split; [exact AZ|].
    rewrite d_lt_false by (first [exact GF|reflexivity|lra]).
    assert (L : d_eq arg d_zero = true) by (apply d_eq_fin; [exact GF|reflexivity|lra]). rewrite L.
    destruct (opp_R f1 F1) as (OF & OR & _). destruct mul_fin_half as (L1 & L2).
    assert (EH : dR (d_opp f1) * dR (d_lit 1 (-1)) = sg * - (p' * / 2)) by (rewrite OR, L2, H1; ring).
    destruct (mul_R _ _ OF L1) as (RF & RR).
    { rewrite EH, b_sg_abs, Rabs_Ropp, Rabs_pos_eq by lra. pose proof (bp1000 400 ltac:(lia)). lra. }
    rewrite EH, b_sg_rnd, rnd_opp in RR.
    exists (d_mul (d_opp f1) (d_lit 1 (-1))). split; [reflexivity|]. split; [exact RF|].
    exists (drnd (p' * / 2)). split; [rewrite RR; ring|].
    assert (PL : bpow radix2 (-400) <= p).
    { destruct Hp as [E | H]; [|lra]. exfalso. assert (pt = 0).
      { pose proof (rel_lo _ _ _ RPt). pose proof (rel_hi _ _ _ RPt). rewrite E in *. lra. }
      rewrite AZ, H in EA. destruct He as [-> | ->]; lra. }
    pose proof (bpow_gt_0 radix2 (-400)) as Z4.
    apply rel_weaken with 6.21; [lra|lra|]. replace 6.21 with (5.2 + 1.01) by lra. apply rel_rnd; [lra| | |].
    + pose proof (rel_lo _ _ _ RPt). nra.
    + pose proof (rel_lo _ _ _ b_relp). pose proof (bp_step (-401)). pose proof (bp_step (-402)). simpl Z.add in *.
      apply Rle_trans with (bpow radix2 (-402)); [apply bpow_le; lia|]. nra.
    + apply rel_half, RP'.
  - right. right. split; [exact AP|].
    rewrite d_lt_false by (first [exact GF|reflexivity|lra]).
    rewrite d_eq_false by (first [exact GF|reflexivity|lra]).
    destruct (sqrt_R arg GF ltac:(lra)) as (SF & SR & SS). rewrite GR in SR.
    destruct (b_copysign _ SF SS) as (CF & CR). rewrite SR in CR.
    set (S := sqrt A) in *. set (s := drnd S) in *.
    assert (AL : bpow radix2 (-1074) <= A).
    { apply Rnot_lt_le. intros H.
      assert (FA : generic_format radix2 dexp A) by (apply generic_format_round; [typeclasses eauto|apply valid_rnd_N]).
      pose proof (generic_format_ge_bpow radix2 dexp (-1074)) as G.
      specialize (G ltac:(intros k; unfold FLT_exp; lia) A AP FA). lra. }
    assert (SL : bpow radix2 (-537) <= S).
    { unfold S. rewrite <- (sqrt_Rsqr (bpow radix2 (-537))) by apply bpow_ge_0. apply sqrt_le_1_alt.
      unfold Rsqr. rewrite <- bpow_plus. exact AL. }
    pose proof (bpow_gt_0 radix2 (-537)) as Z5.
    assert (Rs : rel 1.01 s S).
    { replace 1.01 with (0 + 1.01) by lra. apply rel_rnd; [lra|lra| |apply rel_refl; lra].
      apply Rle_trans with (bpow radix2 (-537)); [apply bpow_le; lia|exact SL]. }
    pose proof (sqrt_sqrt A ltac:(lra)) as SSq. fold S in SSq.
    set (Z := (pt + S) * / 2).
    assert (ZRoot : Z * Z - pt * Z - e * qt = 0).
    { unfold Z. replace ((pt + S) * / 2 * ((pt + S) * / 2) - pt * ((pt + S) * / 2) - e * qt)
        with ((S * S - pt * pt - e * 4 * qt) * / 4) by field. rewrite SSq, EA. ring. }
    assert (ZP : 0 < Z) by (unfold Z; lra).
    assert (ZQ : qt <= Z * Z).
    { assert (0 <= pt * S) by (apply Rmult_le_pos; lra).
      unfold Z. replace ((pt + S) * / 2 * ((pt + S) * / 2)) with ((pt * pt + 2 * (pt * S) + S * S) * / 4) by field.
      rewrite SSq, EA. destruct He as [-> | ->]; [nra|].
      assert (4 * qt <= pt * pt) by lra. nra. }
    assert (ZL : bpow radix2 (-201) <= Z).
    { apply Rnot_lt_le. intros H. assert (Z * Z < bpow radix2 (-201) * bpow radix2 (-201)) by (apply Rmult_le_0_lt_compat; lra).
      rewrite <- bpow_plus in H2. simpl Z.add in H2. pose proof (rel_lo _ _ _ RQt).
      pose proof (bp_step (-402)). pose proof (bp_step (-401)). simpl Z.add in *. pose proof (bpow_gt_0 radix2 (-402)). nra. }
    pose proof (bpow_gt_0 radix2 (-201)) as Z6.
    assert (ES : dR f1 + dR (d_copysign (d_sqrt arg) f1) = sg * (p' + s)) by (rewrite H1, CR; ring).
    assert (SU : s <= bpow radix2 405).
    { assert (B : S <= bpow radix2 405).
      { unfold S. rewrite <- (sqrt_Rsqr (bpow radix2 405)) by apply bpow_ge_0. apply sqrt_le_1_alt.
        unfold Rsqr. rewrite <- bpow_plus. simpl Z.add.
        pose proof (rnd_big _ 810 ltac:(lia) b_PQ_big) as G. fold A in G. rewrite Rabs_pos_eq in G by lra. exact G. }
      pose proof (rnd_big S 405 ltac:(lia)) as C. rewrite (Rabs_pos_eq S) in C by lra.
      specialize (C B). fold s in C. eapply Rle_trans; [apply Rle_abs|exact C]. }
    assert (sP : 0 <= s) by (apply rnd_pos; lra).
    destruct (add_R f1 _ F1 CF) as (TF & TR & _).
    { rewrite ES, b_sg_abs, Rabs_pos_eq by lra.
      pose proof (bp1000 406 ltac:(lia)) as X1. pose proof (bp_step 405) as X2. simpl Z.add in X2.
      assert (bpow radix2 400 <= bpow radix2 405) by (apply bpow_le; lia). lra. }
    rewrite ES, b_sg_rnd in TR. set (t := drnd (p' + s)) in *.
    assert (Rps : rel 5.2 (p' + s) (pt + S)).
    { apply rel_plus; [exact RP'|]. apply rel_weaken with (3 := Rs); lra. }
    assert (PSL : bpow radix2 (-201) <= p' + s).
    { pose proof (rel_lo _ _ _ Rps). unfold Z in ZL. nra. }
    assert (Rt : rel 6.21 t (pt + S)).
    { replace 6.21 with (5.2 + 1.01) by lra. apply rel_rnd; [lra|lra| |exact Rps].
      apply Rle_trans with (bpow radix2 (-201)); [apply bpow_le; lia|exact PSL]. }
    assert (TL : bpow radix2 (-201) <= t).
    { unfold t. rewrite <- (rnd_fmt (bpow radix2 (-201))).
      - apply round_le; [typeclasses eauto|apply valid_rnd_N|exact PSL].
      - apply generic_format_FLT_bpow; [easy|lia]. }
    assert (TU : t <= bpow radix2 406).
    { pose proof (bp_step 405) as X2. simpl Z.add in X2.
      assert (bpow radix2 400 <= bpow radix2 405) by (apply bpow_le; lia).
      pose proof (rnd_big (p' + s) 406 ltac:(lia)) as C. rewrite (Rabs_pos_eq (p' + s)) in C by lra.
      specialize (C ltac:(lra)). fold t in C. eapply Rle_trans; [apply Rle_abs|exact C]. }
    destruct (opp_R _ TF) as (OF & OR & _). rewrite TR in OR.
    destruct mul_fin_half as (L1 & L2).
    set (tt := d_opp (d_add f1 (d_copysign (d_sqrt arg) f1))) in *.
    assert (EH : dR tt * dR (d_lit 1 (-1)) = sg * - (t * / 2)) by (rewrite OR, L2; ring).
    destruct (mul_R tt _ OF L1) as (RF & RR).
    { rewrite EH, b_sg_abs, Rabs_Ropp, Rabs_pos_eq by lra. pose proof (bp1000 406 ltac:(lia)). lra. }
    rewrite EH, b_sg_rnd, rnd_opp in RR. set (r := drnd (t * / 2)) in *.
    assert (TL2 : bpow radix2 (-202) <= t * / 2) by (pose proof (bp_step (-202)) as X; simpl Z.add in X; lra).
    pose proof (bpow_gt_0 radix2 (-202)) as Z7.
    assert (Rr : rel 7.22 r Z).
    { replace 7.22 with (6.21 + 1.01) by lra. apply rel_rnd; [lra|exact ZP| |].
      - apply Rle_trans with (bpow radix2 (-202)); [apply bpow_le; lia|exact TL2].
      - unfold Z. apply rel_half, Rt. }
    assert (RL : bpow radix2 (-202) <= r).
    { unfold r. rewrite <- (rnd_fmt (bpow radix2 (-202))).
      - apply round_le; [typeclasses eauto|apply valid_rnd_N|exact TL2].
      - apply generic_format_FLT_bpow; [easy|lia]. }
    assert (RU : r <= bpow radix2 406).
    { pose proof (rnd_big (t * / 2) 406 ltac:(lia)) as C. rewrite (Rabs_pos_eq (t * / 2)) in C by lra.
      specialize (C ltac:(lra)). fold r in C. eapply Rle_trans; [apply Rle_abs|exact C]. }
    set (root1 := d_mul tt (d_lit 1 (-1))) in *.
    assert (NZ : dR root1 <> 0) by (rewrite RR; destruct Hsg as [[-> _] | [-> _]]; lra).
    assert (ED : dR f0 / dR root1 = sg * (e * (q' / r))).
    { rewrite RR, H0. destruct Hsg as [[-> _] | [-> _]]; field; lra. }
    assert (OL : bpow radix2 (-807) <= q' / r).
    { apply Rle_trans with (bpow radix2 (-401) * / bpow radix2 406).
      - rewrite <- bpow_opp, <- bpow_plus. apply Rle_refl.
      - unfold Rdiv. apply Rmult_le_compat; [lra|apply Rlt_le, Rinv_0_lt_compat; lra|lra|]. apply Rinv_le; lra. }
    assert (OU : q' / r <= bpow radix2 604).
    { apply Rle_trans with (bpow radix2 401 * / bpow radix2 (-202)).
      - unfold Rdiv. apply Rmult_le_compat; [lra|apply Rlt_le, Rinv_0_lt_compat; lra|lra|]. apply Rinv_le; lra.
      - rewrite <- bpow_opp, <- bpow_plus. apply bpow_le. lia. }
    pose proof (bpow_gt_0 radix2 (-807)) as Z8.
    destruct (div_R f0 root1 F0 RF NZ) as (DF & DR).
    { rewrite ED, b_sg_abs, Rabs_mult, b_e_abs, Rabs_pos_eq by lra. pose proof (bp1000 604 ltac:(lia)). lra. }
    rewrite ED, b_sg_rnd, b_e_rnd in DR.
    assert (Rq : rel 4.2 q' qt) by (apply rel_trans with 1.01 3.03 q; [lra|lra|lra|lra|apply (relq q Hq)|exact RQt]).
    exists root1, (d_div f0 root1), r, (drnd (q' / r)), Z.
    split; [reflexivity|]. split; [exact RF|]. split; [exact DF|]. split; [exact ZP|]. split; [exact ZRoot|].
    split; [unfold Z; lra|]. split; [rewrite RR; ring|]. split; [rewrite DR; ring|].
    split; [apply rel_weaken with (3 := Rr); lra|].
    apply rel_weaken with 12.61; [apply Rlt_le, Rdiv_lt_0_compat; lra|lra|].
    replace 12.61 with (11.6 + 1.01) by lra. apply rel_rnd; [lra|apply Rdiv_lt_0_compat; lra| |].
    + apply Rle_trans with (bpow radix2 (-807)); [apply bpow_le; lia|exact OL].
    + apply rel_quot with 4.2 7.22; [lra|lra|lra|lra|lra|exact Rq|exact Rr].
Qed.
End Back.
