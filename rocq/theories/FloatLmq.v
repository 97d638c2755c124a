(** The LMQ root bounds, computed in doubles, still enclose the positive roots. *)
From Coq Require Import Lia Lra.
From Flocq Require Import Core Binary Bits.
From Verif Require Import PolyCalc RootsModel RootSpec Descartes LMQ.
From Verif Require Import FloatModel FloatSpec FloatProofs FloatQuad FloatSolver.
Open Scope R_scope.

#[local] Instance dexp_valid_l : Valid_exp dexp.
Proof. apply FLT_exp_valid. reflexivity. Qed.
#[local] Instance prec53_l : Prec_gt_0 53.
Proof. reflexivity. Qed.

(** what is asked of the C library's pow: when the base is between 2^-700 and 2^700
    and the exponent is the double nearest 1/n, n <= 30, the result is finite and
    within 2^-45 of the power, relatively (that is 128 units in the last place) *)
Definition pow_accurate (pow : d64 -> d64 -> d64) : Prop :=
  forall (x : d64) (n : nat), fin x -> bpow radix2 (-700) <= dR x <= bpow radix2 700 -> (1 <= n <= 30)%nat ->
  let y := d_div d_one (d_lit (Z.of_nat n) 0) in
  fin (pow x y) /\ Rabs (dR (pow x y) - Rpower (dR x) (dR y)) <= bpow radix2 (-45) * Rpower (dR x) (dR y).

(** a finite coefficient, zero or of magnitude between 2^-300 and 2^300 *)
Definition moderate (c : d64) : Prop :=
  fin c /\ (dR c = 0 \/ bpow radix2 (-300) <= Rabs (dR c) <= bpow radix2 300).

Lemma lit_R_small z : (Z.abs z <= 2 ^ 31)%Z -> fin (d_lit z 0) /\ dR (d_lit z 0) = IZR z.
Proof.
  intros H. unfold d_lit, dR.
  pose proof (binary_normalize_correct 53 1024 eq_refl eq_refl BinarySingleNaN.mode_NE z 0 false) as C.
  assert (E : F2R (Float radix2 z 0) = IZR z) by (unfold F2R; cbn; lra).
  assert (G : generic_format radix2 (SpecFloat.fexp 53 1024) (IZR z)).
  { apply (generic_format_FLT radix2 (-1074) 53). exists (Float radix2 z 0); [symmetry; exact E| |cbn; lia]. cbn [Fnum].
    change (radix2 ^ 53)%Z with (2 ^ 53)%Z. lia. }
  rewrite E in C. rewrite (round_generic radix2 (SpecFloat.fexp 53 1024) _ (IZR z) G) in C.
  rewrite Rlt_bool_true in C; [tauto|]. rewrite <- abs_IZR.
  apply Rle_lt_trans with (IZR (2 ^ 31)); [apply IZR_le; exact H|].
  change (IZR (2 ^ 31)) with (bpow radix2 31). apply bpow_lt. lia.
Qed.
Lemma one_R : fin d_one /\ dR d_one = 1.
Proof. apply (lit_R_small 1). lia. Qed.

Lemma dl_val : dl = bpow radix2 (-53).
Proof. reflexivity. Qed.
Lemma bp_eq a b c : (c = a + b)%Z -> bpow radix2 c = bpow radix2 a * bpow radix2 b.
Proof. intros ->. apply bpow_plus. Qed.

(** the exponent *)
Lemma expo n : (1 <= n <= 30)%nat ->
  let y := d_div d_one (d_lit (Z.of_nat n) 0) in
  0 < dR y <= 1 /\ Rabs (INR n * dR y - 1) <= 2 * dl.
Proof.
  intros Hn. cbv zeta. destruct one_R as [F1 E1]. destruct (lit_R_small (Z.of_nat n)) as [Fn En]; [lia|].
  rewrite <- INR_IZR_INZ in En.
  assert (N1 : 1 <= INR n) by (apply (le_INR 1); lia). assert (N2 : INR n <= 30) by (replace 30 with (INR 30) by (simpl; lra); apply le_INR; lia).
  assert (B : 1 <= bpow radix2 1000) by (change 1 with (bpow radix2 0); apply bpow_le; lia).
  assert (I : / 30 <= / INR n <= 1).
  { split; [apply Rinv_le_contravar; lra|]. rewrite <- Rinv_1. apply Rinv_le_contravar; lra. }
  destruct (div_R d_one (d_lit (Z.of_nat n) 0) F1 Fn) as [Fy Ey]; [lra|rewrite E1, En, Rabs_pos_eq; unfold Rdiv; lra|].
  rewrite Ey, E1, En. unfold Rdiv. rewrite Rmult_1_l. set (q := / INR n) in *.
  assert (Bq : bpow radix2 (-1000) <= q).
  { apply Rle_trans with (bpow radix2 (-5)); [apply bpow_le; lia|]. simpl. lra. }
  pose proof (rnd_rel q Bq) as [R1 R2]. pose proof dl_bounds.
  assert (U : drnd q <= 1).
  { replace 1 with (drnd 1). { apply round_le; [typeclasses eauto|apply valid_rnd_N|lra]. }
    apply rnd_fmt. rewrite <- E1. apply dR_fmt. }
  split; [split; [nra|exact U]|].
  assert (NQ : INR n * q = 1) by (unfold q; apply Rinv_r; lra).
  apply Rabs_le. split; nra.
Qed.

Lemma ln_mono x y : 0 < x -> x <= y -> ln x <= ln y.
Proof. intros H [L| ->]; [left; apply ln_increasing; assumption|right; reflexivity]. Qed.
(** ln of something in range *)
Lemma ln_range x k : (0 <= k)%Z -> bpow radix2 (- k) <= x <= bpow radix2 k -> - IZR k <= ln x <= IZR k.
Proof.
  intros K [H1 H2]. pose proof (bpow_gt_0 radix2 (- k)).
  assert (B : forall j, 0 <= IZR j -> ln (bpow radix2 j) <= IZR j /\ ln (bpow radix2 (- j)) >= - IZR j).
  { intros j J. assert (L : ln (bpow radix2 j) <= IZR j).
    { rewrite bpow_powerRZ. rewrite powerRZ_Rpower by (cbn; lra). unfold Rpower. rewrite ln_exp. change (IZR radix2) with 2.
      assert (ln 2 <= 1). { rewrite <- (ln_exp 1). apply ln_mono; [lra|]. pose proof (exp_ineq1_le 1). lra. } nra. }
    split; [exact L|]. rewrite bpow_opp, ln_Rinv by apply bpow_gt_0. lra. }
  destruct (B k) as [B1 B2]; [apply IZR_le; exact K|].
  split.
  - apply Rle_trans with (ln (bpow radix2 (- k))); [lra|]. apply ln_mono; lra.
  - apply Rle_trans with (ln (bpow radix2 k)); [|lra]. apply ln_mono; lra.
Qed.
Lemma pow_lower n d : 0 <= d <= 1 -> 1 - INR n * d <= (1 - d) ^ n.
Proof.
  intros D. induction n as [|n IH]; [simpl; lra|]. rewrite S_INR. cbn [pow].
  assert (0 <= (1 - d) ^ n) by (apply pow_le; lra). pose proof (pos_INR n). nra.
Qed.

Lemma widen a lo hi y e e' : 0 < lo -> lo <= a <= hi -> e <= / 2 -> e' <= 1 -> a * (1 - e) <= y <= a * (1 + e') ->
  / 2 * lo <= y <= 2 * hi.
Proof. intros H1 H2 H3 H4 [H5 H6]. split; nra. Qed.

Definition d44 : R := bpow radix2 (-44).
Definition d36 : R := bpow radix2 (-36).

(** a computed term is, up to a small factor, at least the root it stands for *)
Section Term.
Variable pow : d64 -> d64 -> d64.
Hypothesis PA : pow_accurate pow.

Lemma root_slack (X y W : R) n : (1 <= n <= 30)%nat -> bpow radix2 (-700) <= X <= bpow radix2 700 ->
  Rabs (INR n * y - 1) <= 2 * dl -> W = Rpower X y ->
  forall x, (1 - d44) * ((1 - bpow radix2 (-45)) * W) <= x -> X * (1 - bpow radix2 (-37)) <= x ^ n.
Proof.
  intros Hn HX Hy -> x Hx. pose proof (bpow_gt_0 radix2 (-700)) as P0.
  assert (WP : 0 < Rpower X y) by apply exp_pos.
  assert (E44 : d44 = 2 * bpow radix2 (-45)) by (unfold d44; rewrite (bp_eq 1 (-45) (-44)) by lia; reflexivity).
  set (e := bpow radix2 (-45)) in *. assert (Pe : 0 < e) by apply bpow_gt_0.
  assert (Le : e <= / 1000000) by (unfold e; simpl; lra).
  assert (H3 : (1 - 3 * e) * Rpower X y <= x) by nra.
  assert (S1 : ((1 - 3 * e) * Rpower X y) ^ n <= x ^ n) by (apply pow_incr; split; [nra|exact H3]).
  rewrite Rpow_mult_distr in S1.
  assert (S2 : Rpower X y ^ n = X * Rpower X (INR n * y - 1)).
  { rewrite <- Rpower_pow by exact WP. rewrite Rpower_mult. rewrite <- (Rpower_1 X) at 2 by lra. rewrite <- Rpower_plus. f_equal. ring. }
  rewrite S2 in S1.
  assert (S3 : 1 - 1400 * dl <= Rpower X (INR n * y - 1)).
  { unfold Rpower. eapply Rle_trans; [|apply exp_ineq1_le]. destruct (ln_range X 700) as [L1 L2]; [lia|exact HX|].
    apply Rabs_le_inv in Hy. pose proof dl_bounds.
    assert (Rabs ((INR n * y - 1) * ln X) <= 2 * dl * 700).
    { rewrite Rabs_mult. apply Rmult_le_compat; try apply Rabs_pos; apply Rabs_le; lra. }
    apply Rabs_le_inv in H0. lra. }
  pose proof (pow_lower n (3 * e) ltac:(lra)) as S4.
  assert (N2 : INR n <= 30) by (replace 30 with (INR 30) by (simpl; lra); apply le_INR; lia).
  assert (N1 : 1 <= INR n) by (apply (le_INR 1); lia).
  assert (DE : 1400 * dl <= 10 * e).
  { unfold e, dl. rewrite (bp_eq (-8) (-45) (-53)) by lia. change (bpow radix2 (-8)) with (/ 256). fold e. lra. }
  assert (T : 256 * e = bpow radix2 (-37)).
  { unfold e. rewrite (bp_eq 8 (-45) (-37)) by lia. reflexivity. }
  rewrite <- T. set (A := (1 - 3 * e) ^ n) in *. set (B := Rpower X (INR n * y - 1)) in *.
  assert (A1 : 1 - 90 * e <= A) by nra. assert (B1 : 1 - 10 * e <= B) by lra.
  assert (AB : 1 - 256 * e <= A * B) by nra.
  apply Rle_trans with (A * (X * B)); [|exact S1]. replace (A * (X * B)) with (X * (A * B)) by ring.
  apply Rmult_le_compat_l; lra.
Qed.

Lemma rpower_range X y : 0 < y <= 1 -> forall k, (0 <= k)%Z -> bpow radix2 (- k) <= X <= bpow radix2 k ->
  bpow radix2 (- k) <= Rpower X y <= bpow radix2 k.
Proof.
  intros Hy k K [H1 H2]. pose proof (bpow_gt_0 radix2 (- k)) as P0.
  assert (P1 : 1 <= bpow radix2 k) by (change 1 with (bpow radix2 0); apply bpow_le; lia).
  assert (P2 : bpow radix2 (- k) <= 1) by (change 1 with (bpow radix2 0); apply bpow_le; lia).
  destruct (Rle_or_lt 1 X) as [L|L].
  - split.
    + apply Rle_trans with 1; [exact P2|]. rewrite <- (Rpower_O X) by lra. apply Rle_Rpower; lra.
    + apply Rle_trans with X; [|exact H2]. rewrite <- (Rpower_1 X) at 2 by lra. apply Rle_Rpower; lra.
  - assert (LN : ln X <= 0) by (rewrite <- ln_1; apply ln_mono; lra).
    assert (EX : exp (ln X) = X) by (apply exp_ln; lra). unfold Rpower.
    split.
    + apply Rle_trans with X; [exact H1|]. rewrite <- EX at 1.
      destruct (Req_dec (ln X) (y * ln X)) as [<-|N]; [lra|]. left. apply exp_increasing. nra.
    + apply Rle_trans with 1; [|exact P1]. rewrite <- exp_0. destruct (Req_dec (y * ln X) 0) as [-> |N]; [lra|].
      left. apply exp_increasing. nra.
Qed.

Lemma term_ok (a b : d64) (t n : nat) s : moderate a -> moderate b -> dR a * dR b < 0 -> (t < 31)%nat -> (1 <= n <= 30)%nat ->
  d_neg_shl t = Ret s ->
  let v := pow (d_div (d_mul s a) b) (d_div d_one (d_lit (Z.of_nat n) 0)) in
  fin v /\ bpow radix2 (-650) <= dR v <= bpow radix2 650 /\
  forall x, (1 - d44) * dR v <= x -> 2 ^ t * (- dR a / dR b) * (1 - d36) <= x ^ n.
Proof.
  intros [Fa Ma] [Fb Mb] Op Ht Hn Es v. unfold d_neg_shl in Es.
  destruct (Nat.ltb_spec t 31); [|lia]. injection Es as <-.
  destruct (lit_R_small (- 2 ^ Z.of_nat t)) as [Fs Es].
  { rewrite Z.abs_opp, Z.abs_eq by (apply Z.pow_nonneg; lia). apply Z.pow_le_mono_r; lia. }
  assert (E2 : IZR (- 2 ^ Z.of_nat t) = - 2 ^ t) by (rewrite opp_IZR, <- pow_IZR; reflexivity).
  rewrite E2 in Es. set (s := d_lit (- 2 ^ Z.of_nat t) 0) in *.
  assert (T2 : 1 <= 2 ^ t <= bpow radix2 30).
  { split; [apply pow_R1_Rle; lra|]. change (bpow radix2 30) with (IZR (2 ^ 30)). replace (IZR (2 ^ 30)) with (2 ^ 30) by (rewrite pow_IZR; reflexivity).
    apply Rle_pow; [lra|lia]. }
  assert (Ma' : bpow radix2 (-300) <= Rabs (dR a) <= bpow radix2 300) by (destruct Ma as [Z|]; [rewrite Z in Op; lra|assumption]).
  assert (Mb' : bpow radix2 (-300) <= Rabs (dR b) <= bpow radix2 300) by (destruct Mb as [Z|]; [rewrite Z in Op; lra|assumption]).
  clear Ma Mb. pose proof (bpow_gt_0 radix2 (-300)) as P3.
  set (A := 2 ^ t * Rabs (dR a)).
  assert (BA : bpow radix2 (-300) <= A <= bpow radix2 330).
  { unfold A. split; [nra|]. rewrite (bp_eq 30 300 330) by lia. apply Rmult_le_compat; try lra; apply Rabs_pos. }
  (* sign of a *)
  assert (SG : exists sg, (sg = 1 \/ sg = -1) /\ - dR a = sg * Rabs (dR a) /\ dR b = sg * Rabs (dR b)).
  { destruct (Rlt_or_le (dR a) 0) as [N|N].
    - exists 1. rewrite (Rabs_left (dR a)) by exact N. rewrite (Rabs_pos_eq (dR b)) by nra. split; [auto|split; ring].
    - exists (-1). rewrite (Rabs_pos_eq (dR a)) by exact N. rewrite (Rabs_left (dR b)) by nra. split; [auto|split; ring]. }
  destruct SG as (sg & Hsg & Ea & Eb).
  assert (SR : forall x, drnd (sg * x) = sg * drnd x).
  { intros x. destruct Hsg as [-> | ->]; [rewrite !Rmult_1_l; reflexivity|]. replace (-1 * x) with (- x) by ring. rewrite rnd_opp. ring. }
  assert (SA : forall x, Rabs (sg * x) = Rabs x).
  { intros x. destruct Hsg as [-> | ->]; [f_equal; ring|]. replace (-1 * x) with (- x) by ring. apply Rabs_Ropp. }
  assert (SS : sg <> 0 /\ sg * sg = 1) by (destruct Hsg as [-> | ->]; split; lra).
  destruct (mul_R s a Fs Fa) as [Fm Em].
  { rewrite Es. replace (- 2 ^ t * dR a) with (sg * A) by (unfold A; rewrite <- Rmult_assoc, (Rmult_comm sg), Rmult_assoc, <- Ea; ring).
    rewrite SA, Rabs_pos_eq by lra. eapply Rle_trans; [apply BA|apply bpow_le; lia]. }
  rewrite Es in Em. replace (- 2 ^ t * dR a) with (sg * A) in Em by (unfold A; rewrite <- Rmult_assoc, (Rmult_comm sg), Rmult_assoc, <- Ea; ring).
  rewrite SR in Em.
  pose proof dl_bounds as DB.
  pose proof (rnd_rel A ltac:(eapply Rle_trans; [|apply BA]; apply bpow_le; lia)) as RA. set (A' := drnd A) in *.
  assert (BA' : bpow radix2 (-301) <= A' <= bpow radix2 331).
  { replace (bpow radix2 331) with (2 * bpow radix2 330) by (rewrite (bp_eq 1 330 331) by lia; reflexivity).
    replace (bpow radix2 (-301)) with (/ 2 * bpow radix2 (-300)) by (rewrite (bp_eq (-1) (-300) (-301)) by lia; reflexivity).
    apply (widen A _ _ A' (dl + dl * / 4000000) (dl + dl * / 4000000)); lra. }
  set (B := Rabs (dR b)) in *. assert (PB : 0 < B) by lra.
  assert (IB : bpow radix2 (-300) <= / B <= bpow radix2 300).
  { assert (I1 : bpow radix2 (-300) = / bpow radix2 300) by apply (bpow_opp radix2 300).
    assert (I2 : bpow radix2 300 = / bpow radix2 (-300)) by apply (bpow_opp radix2 (-300)).
    split; [rewrite I1|rewrite I2]; apply Rinv_le_contravar; lra. }
  pose proof (bpow_gt_0 radix2 (-301)) as P31.
  assert (BQ : bpow radix2 (-601) <= A' / B <= bpow radix2 631).
  { unfold Rdiv. split; [rewrite (bp_eq (-301) (-300) (-601)) by lia|rewrite (bp_eq 331 300 631) by lia]; apply Rmult_le_compat; lra. }
  assert (EQ : sg * A' / dR b = A' / B) by (rewrite Eb; field; split; [lra|tauto]).
  destruct (div_R (d_mul s a) b Fm Fb) as [Fq Eq].
  { rewrite Eb. apply Rmult_integral_contrapositive. split; [tauto|lra]. }
  { rewrite Em, EQ. rewrite Rabs_pos_eq by (pose proof (bpow_gt_0 radix2 (-601)); lra). eapply Rle_trans; [apply BQ|apply bpow_le; lia]. }
  rewrite Em, EQ in Eq.
  pose proof (rnd_rel (A' / B) ltac:(eapply Rle_trans; [|apply BQ]; apply bpow_le; lia)) as RQ. set (X := drnd (A' / B)) in *.
  pose proof (bpow_gt_0 radix2 (-601)) as P61.
  assert (BX : bpow radix2 (-640) <= X <= bpow radix2 640).
  { pose proof (widen (A' / B) _ _ X (dl + dl * / 4000000) (dl + dl * / 4000000) P61 BQ ltac:(lra) ltac:(lra) ltac:(lra)) as BX.
    replace (2 * bpow radix2 631) with (bpow radix2 632) in BX by (rewrite (bp_eq 1 631 632) by lia; reflexivity).
    replace (/ 2 * bpow radix2 (-601)) with (bpow radix2 (-602)) in BX by (rewrite (bp_eq (-1) (-601) (-602)) by lia; reflexivity).
    split; [apply Rle_trans with (bpow radix2 (-602)); [apply bpow_le; lia|apply BX]|apply Rle_trans with (bpow radix2 632); [apply BX|apply bpow_le; lia]]. }
  assert (BX' : bpow radix2 (-700) <= X <= bpow radix2 700).
  { split; [apply Rle_trans with (bpow radix2 (-640)); [apply bpow_le; lia|apply BX]|apply Rle_trans with (bpow radix2 640); [apply BX|apply bpow_le; lia]]. }
  destruct (expo n Hn) as [Y1 Y2].
  destruct (PA (d_div (d_mul s a) b) n Fq) as [Fv Ev]; [rewrite Eq; exact BX'|exact Hn|].
  fold v in Fv, Ev. rewrite Eq in Ev. set (y := dR (d_div d_one (d_lit (Z.of_nat n) 0))) in *.
  pose proof (rpower_range X y Y1 640 ltac:(lia) BX) as BW. set (W := Rpower X y) in *.
  apply Rabs_le_inv in Ev. assert (E45 : 0 < bpow radix2 (-45) <= / 1000000) by (split; [apply bpow_gt_0|simpl; lra]).
  pose proof (bpow_gt_0 radix2 (- (640))) as P64. change (- (640))%Z with (-640)%Z in *.
  split; [exact Fv|]. split.
  { pose proof (widen W _ _ (dR v) (bpow radix2 (-45)) (bpow radix2 (-45)) P64 BW ltac:(lra) ltac:(lra) ltac:(lra)) as BV.
    replace (2 * bpow radix2 640) with (bpow radix2 641) in BV by (rewrite (bp_eq 1 640 641) by lia; reflexivity).
    replace (/ 2 * bpow radix2 (-640)) with (bpow radix2 (-641)) in BV by (rewrite (bp_eq (-1) (-640) (-641)) by lia; reflexivity).
    split; [apply Rle_trans with (bpow radix2 (-641)); [apply bpow_le; lia|apply BV]|apply Rle_trans with (bpow radix2 641); [apply BV|apply bpow_le; lia]]. }
  intros x Hx.
  assert (D44 : 0 < d44 <= / 1000000) by (unfold d44; split; [apply bpow_gt_0|simpl; lra]).
  pose proof (root_slack X y W n Hn BX' Y2 eq_refl x) as RS.
  assert (Hx' : (1 - d44) * ((1 - bpow radix2 (-45)) * W) <= x) by (eapply Rle_trans; [|exact Hx]; apply Rmult_le_compat_l; lra).
  specialize (RS Hx'). eapply Rle_trans; [|exact RS].
  assert (YE : 2 ^ t * (- dR a / dR b) = A / B).
  { rewrite Ea, Eb. unfold A. field. split; [lra|tauto]. }
  rewrite YE.
  assert (T : bpow radix2 (-37) = / 2 * d36) by (unfold d36; rewrite (bp_eq (-1) (-36) (-37)) by lia; reflexivity).
  rewrite T. assert (D36 : 0 < d36 <= / 1000000) by (unfold d36; split; [apply bpow_gt_0|simpl; lra]).
  assert (DD : 100 * dl <= d36).
  { unfold d36, dl. rewrite (bp_eq (-17) (-36) (-53)) by lia. fold d36. change (bpow radix2 (-17)) with (/ 131072). lra. }
  assert (Q0 : 0 < A / B) by (apply Rdiv_lt_0_compat; lra).
  assert (Q1 : A / B * (1 - 2 * dl) <= A' / B).
  { unfold Rdiv. replace (A * / B * (1 - 2 * dl)) with (A * (1 - 2 * dl) * / B) by ring. apply Rmult_le_compat_r; [lra|]. destruct RA as [RA _]. clear - RA DB BA P3. nra. }
  assert (Q2 : A / B * (1 - 5 * dl) <= X).
  { destruct RQ as [RQ _]. clear - Q0 Q1 RQ DB. set (q := A / B) in *. set (q' := A' / B) in *. apply Rle_trans with (q * (1 - 2 * dl) * (1 - 2 * dl)); [nra|].
    assert (0 <= q') by nra. apply Rle_trans with (q' * (1 - 2 * dl)); [apply Rmult_le_compat_r; lra|].
    apply Rle_trans with (q' * (1 - dl - dl * / 4000000)); [apply Rmult_le_compat_l; lra|exact RQ]. }
  apply Rle_trans with (A / B * (1 - 5 * dl) * (1 - / 2 * d36)); [|apply Rmult_le_compat_r; lra].
  rewrite Rmult_assoc. apply Rmult_le_compat_l; [lra|]. assert (0 <= dl * d36) by (apply Rmult_le_pos; lra). lra.
Qed.
End Term.

(* ------------------------------------------------------------------ *)
Lemma tget_upd' (l : list nat) i j v : (i < length l)%nat -> tget (upd l i v) j = if Nat.eqb i j then v else tget l j.
Proof.
  intros Hi. unfold tget. rewrite nth_upd. destruct (Nat.eqb_spec i j); cbn [andb]; [|reflexivity].
  destruct (Nat.ltb_spec i (length l)); [reflexivity|lia].
Qed.
Lemma bsum_two' n F G k v : (k < n)%nat -> (forall i, (i < n)%nat -> F i <= G i) -> F k <= G k - v ->
  bsum n F <= bsum n G - v.
Proof.
  induction n as [|n IH]; intros Hk HFG Hkc; [lia|]. cbn [bsum].
  destruct (Nat.eq_dec k n) as [-> |Hne].
  - assert (bsum n F <= bsum n G) by (apply bsum_le; intros; apply HFG; lia). lra.
  - assert (bsum n F <= bsum n G - v) by (apply IH; [lia|intros; apply HFG; lia|exact Hkc]).
    pose proof (HFG n ltac:(lia)). lra.
Qed.
Section Upper.
Variable pow : d64 -> d64 -> d64.
Hypothesis PA : pow_accurate pow.
Variable f : list d64.
Hypothesis Hmod : Forall moderate f.
Hypothesis Hlen : (length f <= 31)%nat.
Variable ro : nat.
Variable sg : R.
Hypothesis Hsg : sg = 1 \/ sg = -1.
Let c i := dR (dget f i).
Hypothesis Hlead : 0 < sg * c ro.
Hypothesis Hro : (ro < length f)%nat.
Let g i := sg * c i.
Let gp i := Rmax (g i) 0.

Lemma sg2 : sg * sg = 1.
Proof. destruct Hsg as [-> | ->]; ring. Qed.
Lemma mod_get i : moderate (dget f i).
Proof.
  unfold dget. destruct (Nat.lt_ge_cases i (length f)) as [L|L].
  - rewrite Forall_forall in Hmod. apply Hmod. apply nth_In. exact L.
  - rewrite nth_overflow by exact L. split; [reflexivity|]. left. reflexivity.
Qed.
Lemma fin_get i : fin (dget f i).
Proof. apply mod_get. Qed.
Lemma neq0 i : d_neq (dget f i) d_zero = true <-> c i <> 0.
Proof.
  unfold d_neq. destruct zero_R as [F0 E0]. pose proof (d_eq_fin (dget f i) d_zero (fin_get i) F0) as H. rewrite E0 in H. fold (c i) in H.
  destruct (d_eq (dget f i) d_zero); cbn [negb]; split; intros; try discriminate; try tauto. intros Z. apply H in Z. discriminate.
Qed.
Lemma d_opp_iff k m : c k <> 0 -> c m <> 0 -> d_opposite (dget f k) (dget f m) = true <-> g k * g m < 0.
Proof.
  intros Hk Hm. unfold d_opposite, g.
  assert (Sg : forall i, c i <> 0 -> d_signbit (dget f i) = true /\ c i < 0 \/ d_signbit (dget f i) = false /\ 0 < c i).
  { intros i Hi. destruct (Rlt_or_le (c i) 0) as [L|L]; [left|right]; (split; [|lra]).
    - apply signbit_neg; [apply fin_get|exact L]. - apply signbit_pos; [apply fin_get|unfold c in *; lra]. }
  destruct (Sg k Hk) as [[-> A]|[-> A]], (Sg m Hm) as [[-> B]|[-> B]]; cbn; destruct Hsg as [-> | ->]; split; intros; try discriminate; try reflexivity; nra.
Qed.

(** what is known of a computed term v for the coefficients m < k *)
Definition good (m k t : nat) (v : d64) : Prop :=
  fin v /\ bpow radix2 (-650) <= dR v <= bpow radix2 650 /\
  forall x, (1 - d44) * dR v <= x -> 2 ^ t * (- g m) / g k * (1 - d36) <= x ^ (k - m).

Definition d_inner_inv (m : nat) (times : list nat) (i : nat) (st : outcome (list nat * d64)) : Prop :=
  match st with
  | Ret (t', tub) =>
      length t' = length times :> nat /\
      (forall k, (tget times k <= tget t' k <= S (tget times k))%nat) /\
      (forall k, (k <= m)%nat -> tget t' k = tget times k) /\
      (forall k, (k <= ro - i)%nat -> tget t' k = tget times k) /\
      ((i = 0%nat /\ tub = d_inf false) \/
       exists k v, (m < k <= ro)%nat /\ tub = v /\ 0 < g k /\
         tget t' k = S (tget times k) /\ good m k (tget times k) v)
  | UB => exists k, (k <= ro)%nat /\ (31 <= tget times k)%nat
  | _ => False
  end.

Lemma d_inner_correct m times : (m < ro)%nat -> g m < 0 -> length times = length f ->
  d_inner_inv m times (ro - m) (d_lmq_inner pow f ro m times).
Proof.
  intros Hm Hgm Hlt. unfold d_lmq_inner.
  replace (ro - m)%nat with (0 + (ro - m))%nat at 1 by lia.
  assert (Hfm : c m <> 0) by (intros Z; unfold g in Hgm; rewrite Z in Hgm; lra).
  apply for_down_inv.
  - simpl. repeat split; auto.
  - intros j st Hj. cbn [Nat.add]. unfold d_inner_inv.
    destruct st as [[t' tub]| | |]; cbn [obind]; auto.
    intros (Hl & Hb & Hlow & Hun & Hex).
    set (k := (ro - j)%nat). assert (Hk : (m < k <= ro)%nat) by (unfold k; lia).
    destruct (d_neq (dget f k) d_zero && d_opposite (dget f k) (dget f m))%bool eqn:E.
    + apply andb_true_iff in E. destruct E as [E1 E2]. apply neq0 in E1.
      apply (d_opp_iff k m E1 Hfm) in E2.
      assert (Hgk : 0 < g k) by nra.
      change (nth k t' 0%nat) with (tget t' k). rewrite (Hun k) by (unfold k; lia).
      destruct (d_neg_shl (tget times k)) as [s| | |] eqn:ES; cbn [obind];
        [|unfold d_neg_shl in ES; destruct (Nat.ltb _ _); discriminate| |unfold d_neg_shl in ES; destruct (Nat.ltb _ _); discriminate].
      2:{ exists k. split; [lia|]. unfold d_neg_shl in ES. destruct (Nat.ltb_spec (tget times k) 31) as [L|L]; [discriminate|exact L]. }
      assert (L31 : (tget times k < 31)%nat).
      { unfold d_neg_shl in ES. destruct (Nat.ltb_spec (tget times k) 31) as [L|L]; [exact L|discriminate]. }
      set (v0 := pow _ _).
      assert (G0 : good m k (tget times k) v0).
      { destruct (term_ok pow PA (dget f m) (dget f k) (tget times k) (k - m) s (mod_get m) (mod_get k)) as (T1 & T2 & T3);
          [|exact L31|lia|exact ES|].
        - fold (c m) (c k). unfold g in E2. replace (sg * c k * (sg * c m)) with (sg * sg * (c m * c k)) in E2 by ring. rewrite sg2, Rmult_1_l in E2. exact E2.
        - split; [exact T1|]. split; [exact T2|]. intros x Hx. specialize (T3 x Hx). fold (c m) (c k) in T3.
          replace (2 ^ tget times k * - g m / g k) with (2 ^ tget times k * (- c m / c k)); [exact T3|].
          unfold g. field. split; [exact E1|]. intros Z. pose proof sg2 as Z2. rewrite Z in Z2. lra. }
      assert (Hkl : (k < length t')%nat) by lia.
      split; [rewrite upd_length; exact Hl|].
      split. { intros i. rewrite tget_upd' by exact Hkl. destruct (Nat.eqb_spec k i) as [<-|]; [lia|apply Hb]. }
      split. { intros i Hi. rewrite tget_upd' by exact Hkl. destruct (Nat.eqb_spec k i); [lia|apply Hlow; exact Hi]. }
      split. { intros i Hi. rewrite tget_upd' by exact Hkl. destruct (Nat.eqb_spec k i); [unfold k in *; lia|apply Hun; lia]. }
      right.
      assert (New : exists k0 v, (m < k0 <= ro)%nat /\ v0 = v /\ 0 < g k0 /\
         tget (upd t' k (S (tget times k))) k0 = S (tget times k0) /\ good m k0 (tget times k0) v).
      { exists k, v0. split; [lia|]. split; [reflexivity|]. split; [exact Hgk|]. split; [|exact G0].
        rewrite tget_upd' by exact Hkl. rewrite Nat.eqb_refl. reflexivity. }
      destruct Hex as [[Hj0 ->]|(k' & v' & Hk' & -> & Hg' & Ht' & Hv')].
      * replace (d_min v0 (d_inf false)) with v0; [exact New|]. unfold d_min.
        destruct G0 as [F0 _]. destruct v0 as [q|q|q|q]; try discriminate F0; reflexivity.
      * unfold d_min. destruct (d_lt v' v0).
        { exists k', v'. split; [lia|]. split; [reflexivity|]. split; [exact Hg'|]. split; [|exact Hv'].
          rewrite tget_upd' by exact Hkl. destruct (Nat.eqb_spec k k') as [->|]; [|exact Ht'].
          reflexivity. }
        { exact New. }
    + split; [exact Hl|]. split; [exact Hb|]. split; [exact Hlow|].
      split; [intros i Hi; apply Hun; lia|].
      right. destruct Hex as [[Hj0 _]|Hex]; [|exact Hex].
      exfalso. assert (Hfr : c ro <> 0) by (intros Z; rewrite Z in Hlead; lra).
      replace k with ro in E by (unfold k; lia).
      assert (Eo : d_opposite (dget f ro) (dget f m) = true).
      { apply d_opp_iff; auto. unfold g in *. nra. }
      rewrite Eo in E. apply neq0 in Hfr. rewrite Hfr in E. discriminate.
Qed.

(** remaining budget of coefficient i when it has been used t-1 times, each time
    with a loss of at most the factor 1 + 2 d36 *)
Definition d_budget (times : list nat) (x : R) (i : nat) : R :=
  gp i * x ^ i * (1 - (1 + 2 * d36) * (1 - 2 / 2 ^ tget times i)).

Definition d_outer_inv (j : nat) (st : outcome (list nat * d64)) : Prop :=
  match st with
  | Ret (times, u) =>
      length times = length f /\
      (forall k, (k < length f)%nat -> (1 <= tget times k <= S j)%nat) /\
      (forall k, (k < ro - j)%nat -> tget times k = 1%nat :> nat) /\
      fin u /\ dR u <= bpow radix2 650 /\
      (u = d_zero /\ (forall i, (ro - j <= i <= ro)%nat -> 0 <= g i) \/ bpow radix2 (-650) <= dR u) /\
      forall x, 0 < x -> (1 - d44) * dR u <= x ->
          bsum (S j) (fun i => d_budget times x (ro - i)) <= bsum (S j) (fun i => g (ro - i) * x ^ (ro - i))
  | _ => False
  end.

Lemma d_gp_pos i : 0 <= g i -> gp i = g i.
Proof. intros. unfold gp. apply Rmax_left. lra. Qed.
Lemma d_gp_nonneg i : 0 <= gp i.
Proof. unfold gp. apply Rmax_r. Qed.
Lemma d36_bounds : 0 < d36 <= / 1000000.
Proof. unfold d36; split; [apply bpow_gt_0|simpl; lra]. Qed.
Lemma d44_bounds : 0 < d44 <= / 1000000.
Proof. unfold d44; split; [apply bpow_gt_0|simpl; lra]. Qed.

Lemma d_outer_correct : d_outer_inv ro (for_down (ro - 1) ro (fun m st =>
    do st <- st;
    let '(times, ub) := st in
    if (d_neq (dget f m) d_zero && d_opposite (dget f m) (dget f ro))%bool then
      do r <- d_lmq_inner pow f ro m times;
      let '(times, tempub) := r in
      Ret (times, d_maximum tempub ub)
    else Ret (times, ub)) (Ret (repeat 1%nat (length f), d_zero))).
Proof.
  replace ro with (0 + ro)%nat at 1 by lia. pose proof d36_bounds as D36. pose proof d44_bounds as D44.
  assert (Hfr : c ro <> 0) by (intros Z; rewrite Z in Hlead; lra).
  apply for_down_inv.
  - unfold d_outer_inv. rewrite repeat_length. split; [reflexivity|].
    assert (T : forall k, (k < length f)%nat -> tget (repeat 1%nat (length f)) k = 1%nat).
    { intros k Hk. unfold tget. rewrite (nth_indep _ _ 1%nat) by (rewrite repeat_length; exact Hk). apply nth_repeat. }
    split; [intros k Hk; rewrite T by exact Hk; lia|].
    split; [intros k Hk; apply T; lia|]. destruct zero_R as [F0 E0].
    split; [exact F0|]. rewrite E0. split; [apply Rlt_le, bpow_gt_0|]. split.
    { left. split; [reflexivity|]. intros i Hi. replace i with ro by lia. unfold g; lra. }
    intros x Hx _. cbn [bsum]. unfold d_budget. rewrite Nat.sub_0_r, T by exact Hro.
    rewrite d_gp_pos by (unfold g; lra). simpl (2 ^ 1). apply Req_le. field.
  - intros j st Hj. cbn [Nat.add]. unfold d_outer_inv.
    destruct st as [[times u]| | |]; cbn [obind]; auto.
    intros (Hl & Hb & H1 & Fu & Hu & Hu0 & Hsum).
    set (m := (ro - 1 - j)%nat).
    assert (Hm : (m < ro)%nat) by (unfold m; lia).
    assert (Em : (ro - S j)%nat = m) by (unfold m; lia).
    destruct (d_neq (dget f m) d_zero && d_opposite (dget f m) (dget f ro))%bool eqn:E.
    + apply andb_true_iff in E. destruct E as [E1 E2]. apply neq0 in E1.
      apply (d_opp_iff m ro E1 Hfr) in E2.
      assert (Hgm : g m < 0) by (unfold g in *; nra).
      pose proof (d_inner_correct m times Hm Hgm Hl) as P.
      destruct (d_lmq_inner pow f ro m times) as [[t' tub]| | |]; cbn [obind]; simpl in P; auto.
      2:{ destruct P as (k & Hk & H31). specialize (Hb k ltac:(lia)). lia. }
      destruct P as (Hl' & Hb' & Hlow & _ & Hex).
      destruct Hex as [[Z _]|(k & v & Hk & -> & Hgk & Htk & Fv & Bv & Hv)]; [lia|].
      pose proof (bpow_gt_0 radix2 (-650)) as P65.
      split; [congruence|].
      split. { intros i Hi. specialize (Hb' i). specialize (Hb i Hi). lia. }
      split. { intros i Hi. rewrite Hlow by (unfold m; lia). apply H1. lia. }
      assert (Hmax : fin (d_maximum v u) /\ dR v <= dR (d_maximum v u) /\ dR u <= dR (d_maximum v u) /\ dR (d_maximum v u) <= bpow radix2 650).
      { unfold d_maximum. destruct (d_lt v u) eqn:EL; [apply (d_lt_fin v u Fv Fu) in EL; repeat split; auto; lra|].
        assert (dR u <= dR v). { apply Rnot_lt_le. intros X. apply (d_lt_fin v u Fv Fu) in X. congruence. }
        repeat split; auto; lra. }
      destruct Hmax as (M1 & M2 & M3 & M4). set (w := d_maximum v u) in *.
      split; [exact M1|]. split; [exact M4|]. split; [right; lra|].
      intros x Hx Hux.
      cbn [bsum]. rewrite Em.
      (* the budget of k loses at least |g m| x^m *)
      assert (Hkey : (- g m) * x ^ m <= (1 + 2 * d36) * (gp k * x ^ k / 2 ^ tget times k)).
      { assert (Hp2 : 0 < 2 ^ tget times k) by (apply pow_lt; lra).
        assert (Hxm : 0 < x ^ m) by (apply pow_lt; exact Hx).
        assert (Hy : 2 ^ tget times k * (- g m) / g k * (1 - d36) <= x ^ (k - m)).
        { apply Hv. eapply Rle_trans; [|exact Hux]. apply Rmult_le_compat_l; lra. }
        rewrite d_gp_pos by lra.
        replace (x ^ k) with (x ^ (k - m) * x ^ m) by (rewrite <- pow_add; f_equal; lia).
        assert (Hxk : 0 < x ^ (k - m)) by (apply pow_lt; exact Hx).
        assert (Hz : 2 ^ tget times k * (- g m) <= (1 + 2 * d36) * (g k * x ^ (k - m))).
        { set (Y := 2 ^ tget times k * - g m / g k) in *.
          assert (EY : 2 ^ tget times k * - g m = g k * Y) by (unfold Y; field; lra). rewrite EY.
          replace ((1 + 2 * d36) * (g k * x ^ (k - m))) with (g k * ((1 + 2 * d36) * x ^ (k - m))) by ring.
          apply Rmult_le_compat_l; [lra|].
          assert (0 <= Y). { unfold Y. apply Rlt_le, Rdiv_lt_0_compat; [apply Rmult_lt_0_compat; lra|exact Hgk]. }
          apply Rle_trans with ((1 + 2 * d36) * (Y * (1 - d36))); [|apply Rmult_le_compat_l; lra].
          assert (0 <= Y * (d36 * (1 - 2 * d36))) by (apply Rmult_le_pos; [exact H|apply Rmult_le_pos; lra]). lra. }
        apply Rmult_le_reg_l with (2 ^ tget times k); [exact Hp2|].
        replace (2 ^ tget times k * ((1 + 2 * d36) * (g k * (x ^ (k - m) * x ^ m) / 2 ^ tget times k)))
          with ((1 + 2 * d36) * (g k * x ^ (k - m)) * x ^ m) by (field; lra).
        rewrite <- Rmult_assoc. apply Rmult_le_compat_r; lra. }
      assert (Hmb : d_budget t' x m = 0).
      { unfold d_budget. replace (gp m) with 0 by (unfold gp; rewrite Rmax_right; lra). ring. }
      rewrite Hmb.
      specialize (Hsum x Hx ltac:(eapply Rle_trans; [|exact Hux]; apply Rmult_le_compat_l; lra)).
      assert (Hdrop : bsum (S j) (fun i => d_budget t' x (ro - i)) <=
                      bsum (S j) (fun i => d_budget times x (ro - i)) - (- g m) * x ^ m).
      { apply bsum_two' with (k := (ro - k)%nat); [unfold m in *; lia| |].
        - intros i Hi. unfold d_budget.
          assert (Hgx : 0 <= gp (ro - i) * x ^ (ro - i)).
          { apply Rmult_le_pos; [apply d_gp_nonneg|apply pow_le; lra]. }
          apply Rmult_le_compat_l; [exact Hgx|].
          assert (2 / 2 ^ tget t' (ro - i) <= 2 / 2 ^ tget times (ro - i)).
          { apply Rmult_le_compat_l; [lra|]. apply Rinv_le_contravar; [apply pow_lt; lra|].
            apply Rle_pow; [lra|apply Hb']. }
          apply Rplus_le_compat_l, Ropp_le_contravar, Rmult_le_compat_l; lra.
        - replace (ro - (ro - k))%nat with k by lia. unfold d_budget. rewrite Htk.
          change (2 ^ S (tget times k)) with (2 * 2 ^ tget times k). assert (Hp2 : 0 < 2 ^ tget times k) by (apply pow_lt; lra).
          replace (2 / (2 * 2 ^ tget times k)) with (/ 2 ^ tget times k) by (field; lra).
          replace (2 / 2 ^ tget times k) with (2 * / 2 ^ tget times k) by (field; lra).
          unfold Rdiv in Hkey. set (q := / 2 ^ tget times k) in *. set (G := gp k * x ^ k) in *.
          replace (G * (1 - (1 + 2 * d36) * (1 - 2 * q))) with (G * (1 - (1 + 2 * d36) * (1 - q)) + (1 + 2 * d36) * (G * q)) by ring.
          lra. }
      cbn [bsum] in Hdrop, Hsum. lra.
    + assert (Hgm : 0 <= g m).
      { destruct (Req_dec (c m) 0) as [Z|Z]; [unfold g; rewrite Z; lra|].
        apply neq0 in Z as Z'. rewrite Z' in E. cbn [andb] in E.
        destruct (Rle_or_lt 0 (g m)) as [L|L]; [exact L|exfalso].
        assert (d_opposite (dget f m) (dget f ro) = true) by (apply d_opp_iff; auto; unfold g in *; nra).
        congruence. }
      split; [exact Hl|]. split; [intros k Hk; specialize (Hb k Hk); lia|].
      split; [intros k Hk; apply H1; lia|].
      split; [exact Fu|]. split; [exact Hu|]. split.
      { destruct Hu0 as [[Z Hall]|Hu0]; [left|right; exact Hu0]. split; [exact Z|].
        intros i Hi. destruct (Nat.eq_dec i m) as [-> |]; [exact Hgm|apply Hall; lia]. }
      intros x Hx Hux. specialize (Hsum x Hx Hux). cbn [bsum] in *. rewrite Em.
      assert (Eb : d_budget times x m = g m * x ^ m).
      { unfold d_budget. rewrite H1 by lia. rewrite d_gp_pos by exact Hgm. simpl (2 ^ 1). field. }
      rewrite Eb. lra.
Qed.
End Upper.

Lemma get_dR (f : list d64) i : get (map dR f) i = dR (dget f i).
Proof. unfold get, dget. change (@n0 R R_num) with (dR d_zero). apply map_nth. Qed.
Lemma d_highest_R n (f : list d64) : Forall (fun c : d64 => fin c) f -> d_highest n f = highest n (map dR f).
Proof.
  intros Hf. induction n as [|n IH]; [reflexivity|]. cbn [d_highest highest]. rewrite IH, get_dR.
  assert (F : fin (dget f (S n))).
  { unfold dget. destruct (Nat.lt_ge_cases (S n) (length f)) as [L|L]; [|rewrite nth_overflow by exact L; reflexivity].
    rewrite Forall_forall in Hf. apply Hf, nth_In, L. }
  pose proof (d_eq_fin (dget f (S n)) d_zero F eq_refl) as E. change (dR d_zero) with 0 in E. change (@n0 R R_num) with 0. change (@neqb R R_num) with Reqb.
  destruct (Reqb_spec (dR (dget f (S n))) 0) as [Z|Z]; destruct (d_eq (dget f (S n)) d_zero); try reflexivity; exfalso; [apply E in Z; discriminate|apply Z, E; reflexivity].
Qed.

(** the smallest share of a coefficient left over *)
Lemma share_left t : (1 <= t <= 31)%nat -> 0 < 1 - (1 + 2 * d36) * (1 - 2 / 2 ^ t).
Proof.
  intros Ht. pose proof d36_bounds. assert (P : 0 < 2 ^ t) by (apply pow_lt; lra).
  assert (B : bpow radix2 (-30) <= 2 / 2 ^ t).
  { unfold Rdiv. replace (bpow radix2 (-30)) with (2 * / 2 ^ 31).
    - apply Rmult_le_compat_l; [lra|]. apply Rinv_le_contravar; [exact P|]. apply Rle_pow; [lra|lia].
    - replace (2 ^ 31) with (bpow radix2 31) by (change (bpow radix2 31) with (IZR (2 ^ 31)); rewrite pow_IZR; reflexivity).
      rewrite <- bpow_opp. change 2 with (bpow radix2 1) at 1. rewrite <- bpow_plus. reflexivity. }
  assert (D : bpow radix2 (-30) = 64 * d36) by (unfold d36; rewrite (bp_eq 6 (-36) (-30)) by lia; reflexivity).
  rewrite D in B. set (q := 2 / 2 ^ t) in *.
  assert (0 <= d36 * q) by (apply Rmult_le_pos; lra). lra.
Qed.

Lemma d_upper_ok pow (f : list d64) : pow_accurate pow -> Forall moderate f -> (length f <= 31)%nat -> not_zero (map dR f) ->
  exists u, d_LMQ_upper pow f = Ret u /\ fin u /\ dR u <= bpow radix2 650 /\
    (u = d_zero /\ (exists sg, (sg = 1 \/ sg = -1) /\ forall i, 0 <= sg * get (map dR f) i) \/ bpow radix2 (-650) <= dR u) /\
    forall x, 0 < x -> (1 - d44) * dR u <= x -> pval (map dR f) x <> 0.
Proof.
  intros PA Hm Hlen Hz. destruct (highest_degree (map dR f) Hz) as (Hro & Hlead & Hhigh).
  assert (Hf : map dR f <> []) by (destruct Hz as [c [Hc _]]; intros E; rewrite E in Hc; destruct Hc).
  pose proof (order_length _ Hf) as Hl.
  assert (Ff : Forall (fun c : d64 => fin c) f) by (eapply Forall_impl; [|exact Hm]; intros a Ha; apply Ha).
  assert (PO : porder (map dR f) = porder f) by (unfold porder; rewrite map_length; reflexivity).
  unfold d_LMQ_upper. rewrite (d_highest_R (porder f) f Ff), <- PO. set (ro := highest (porder (map dR f)) (map dR f)) in *.
  rewrite map_length in Hl.
  assert (Lro : (ro < @length d64 f)%nat).
  { assert (E : length (map dR f) = @length d64 f) by apply map_length. clear - Hro Hl E PO. unfold porder in *. rewrite E in *. change (@length binary64 f) with (@length d64 f) in *. lia. }
  assert (Hsgn : exists sg, (sg = 1 \/ sg = -1) /\ 0 < sg * get (map dR f) ro).
  { destruct (Rlt_or_le 0 (get (map dR f) ro)); [exists 1|exists (-1)]; split; auto; lra. }
  destruct Hsgn as (sg & Hsg & Hpos). rewrite get_dR in Hpos.
  pose proof (d_outer_correct pow PA f Hm Hlen ro sg Hsg Hpos Lro) as P.
  match type of P with d_outer_inv _ _ _ _ ?e => destruct e as [[times u]| | |] end; cbn [obind] in *; unfold d_outer_inv in P; try contradiction.
  destruct P as (Hlt & Hb & _ & Fu & Hu & Hu0 & Hsum). cbn [snd].
  exists u. split; [reflexivity|]. split; [exact Fu|]. split; [exact Hu|]. split.
  { destruct Hu0 as [[Z Hall]|Hu0]; [left|right; exact Hu0]. split; [exact Z|]. exists sg. split; [exact Hsg|].
    intros i. destruct (Nat.le_gt_cases i ro) as [L|L]; [rewrite get_dR; apply Hall; lia|]. rewrite Hhigh by exact L. lra. }
  intros x Hx Hux E. specialize (Hsum x Hx Hux).
  assert (Hv : bsum (S ro) (fun i => sg * dR (dget f (ro - i)) * x ^ (ro - i)) = 0).
  { rewrite (pval_bsum_n (S ro)) in E by (intros i Hi; apply Hhigh; lia).
    rewrite bsum_rev in E.
    rewrite (bsum_ext (S ro) _ (fun i => sg * (get (map dR f) (S ro - 1 - i) * x ^ (S ro - 1 - i)))).
    - rewrite bsum_scal, E. ring.
    - intros i Hi. replace (S ro - 1 - i)%nat with (ro - i)%nat by lia. rewrite get_dR. ring. }
  rewrite Hv in Hsum.
  assert (Hsh : forall i, (i < length f)%nat -> 0 < 1 - (1 + 2 * d36) * (1 - 2 / 2 ^ tget times i)).
  { intros i Hi. apply share_left. specialize (Hb i Hi). lia. }
  assert (Hlow : 0 < bsum (S ro) (fun i => d_budget f sg times x (ro - i))).
  { apply Rlt_le_trans with (bsum (S ro) (fun i => if Nat.eqb i 0 then d_budget f sg times x ro else 0)).
    - rewrite bsum_shift. cbn [Nat.eqb]. rewrite bsum_zero by reflexivity.
      unfold d_budget. rewrite Rmax_left by lra.
      assert (0 < x ^ ro) by (apply pow_lt; exact Hx).
      rewrite Rplus_0_r. apply Rmult_lt_0_compat; [|apply Hsh; lia]. apply Rmult_lt_0_compat; assumption.
    - apply bsum_le. intros i Hi. destruct (Nat.eqb_spec i 0) as [-> |].
      + rewrite Nat.sub_0_r. lra.
      + unfold d_budget. apply Rmult_le_pos; [apply Rmult_le_pos; [apply Rmax_r|apply pow_le; lra]|].
        apply Rlt_le, Hsh. lia. }
  lra.
Qed.
