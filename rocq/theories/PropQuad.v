(** C69: the linear and the quadratic solver in double arithmetic. *)
From Coq Require Import Lia Lra.
From Flocq Require Import Core Binary Bits Relative.
From Verif Require Import FloatModel FloatSpec FloatProofs FloatQuad FloatBack.
Open Scope R_scope.

#[local] Instance dexp_valid'' : Valid_exp dexp.
Proof. apply FLT_exp_valid. reflexivity. Qed.

(** the magnitude of a finite double lies between 2^-200 and 2^200 *)
Definition moderate (a : d64) : Prop := bpow radix2 (-200) <= Rabs (dR a) <= bpow radix2 200.
(** r is a root of a x^2 + b x + c *)
Definition quad_root (a b c : d64) (r : R) : Prop := dR a * (r * r) + dR b * r + dR c = 0.
(** x is a finite double approximating r to a relative error of 2^-49 *)
Definition close (x : d64) (r : R) : Prop := fin x /\ Rabs (dR x - r) <= bpow radix2 (-49) * Rabs r.

Lemma dl49 : bpow radix2 (-49) = 16 * dl.
Proof. unfold dl. change (-49)%Z with (4 + -53)%Z. rewrite bpow_plus. simpl (bpow radix2 4). reflexivity. Qed.

Lemma quad_unfold a b c : d_eq a d_zero = false ->
  d_solve_quadratic [c; b; a] = quad_tail (d_add d_zero (d_div c a)) (d_add d_zero (d_div b a)).
Proof. intros H. unfold d_solve_quadratic. change (dget [c; b; a] 2) with a. rewrite H. reflexivity. Qed.

Lemma addz y : fin y -> Rabs (dR y) <= bpow radix2 1000 ->
  fin (d_add d_zero y) /\ dR (d_add d_zero y) = dR y /\ (dR y = 0 -> d_signbit (d_add d_zero y) = false).
Proof.
  intros F B. destruct (add_R d_zero y eq_refl F) as (F2 & E & S).
  - destruct zero_R as (_ & ->). rewrite Rplus_0_l. exact B.
  - destruct zero_R as (_ & Z). rewrite Z, Rplus_0_l in *. split; [exact F2|]. split.
    + rewrite E. apply rnd_fmt, dR_fmt.
    + intros Y. rewrite Y in S. rewrite Rcompare_Eq in S by reflexivity. exact S.
Qed.

(** dividing a moderate number and adding it to a zero *)
Lemma quot_R x a : fin x -> fin a -> moderate a -> Rabs (dR x) <= bpow radix2 200 ->
  Rabs (dR x / dR a) <= bpow radix2 400 /\
  fin (d_add d_zero (d_div x a)) /\ dR (d_add d_zero (d_div x a)) = drnd (dR x / dR a) /\
  (drnd (dR x / dR a) = 0 -> d_signbit (d_add d_zero (d_div x a)) = false).
Proof.
  intros Fx Fa (L & U) B. pose proof (bpow_gt_0 radix2 (-200)) as Z.
  assert (N : dR a <> 0) by (intros E; rewrite E, Rabs_R0 in L; lra).
  assert (Q : Rabs (dR x / dR a) <= bpow radix2 400).
  { unfold Rdiv. rewrite Rabs_mult, Rabs_inv. change 400%Z with (200 + 200)%Z. rewrite bpow_plus.
    apply Rmult_le_compat; [apply Rabs_pos|apply Rlt_le, Rinv_0_lt_compat; lra|exact B|].
    rewrite <- (Rinv_inv (bpow radix2 200)), <- bpow_opp. apply Rinv_le; [exact Z|exact L]. }
  split; [exact Q|].
  destruct (div_R x a Fx Fa N) as (F & E).
  { eapply Rle_trans; [exact Q|]. apply bpow_le. lia. }
  destruct (addz (d_div x a) F) as (F2 & E2 & S2).
  { rewrite E. pose proof (rnd_big (dR x / dR a) 400 ltac:(lia) Q) as R4.
    eapply Rle_trans; [exact R4|]. apply bpow_le. lia. }
  rewrite E in *. auto.
Qed.

(** the conclusion for the divided coefficients: beta = b/a, gamma = c/a *)
Section Main.
Variables (f0 f1 : d64) (beta gamma : R).
Hypothesis F0 : fin f0.
Hypothesis F1 : fin f1.
Hypothesis E0 : dR f0 = drnd gamma.
Hypothesis E1 : dR f1 = drnd beta.
Hypothesis S1 : drnd beta = 0 -> d_signbit f1 = false.
Hypothesis B1 : Rabs beta <= bpow radix2 400.
Hypothesis B0 : bpow radix2 (-400) <= Rabs gamma <= bpow radix2 400.
Hypothesis Sep : gamma < 0 \/ 8 * gamma <= beta * beta.

Let q := Rabs gamma.
Let e := if Rlt_dec gamma 0 then 1 else -1.

Lemma e_q : e * q = - gamma.
Proof.
  unfold e, q. destruct (Rlt_dec gamma 0); [rewrite Rabs_left by lra; ring|rewrite Rabs_pos_eq by lra; ring].
Qed.
Lemma f0_eq : dR f0 = - (e * drnd q).
Proof.
  rewrite E0. unfold e, q. destruct (Rlt_dec gamma 0).
  - rewrite Rabs_left by lra. rewrite rnd_opp. ring.
  - rewrite Rabs_pos_eq by lra. ring.
Qed.

(** the roots of x^2 + beta x + gamma, in increasing order, and their approximations *)
Definition solved (l : list d64) : Prop := exists x1 x2 r1 r2, l = [x1; x2] /\ r1 < r2 /\
  r1 * r1 + beta * r1 + gamma = 0 /\ r2 * r2 + beta * r2 + gamma = 0 /\ close x1 r1 /\ close x2 r2.

Lemma sort2 sg (x1 x2 : d64) r1 r2 : sg = 1 \/ sg = -1 -> fin x1 -> fin x2 ->
  sg * r1 < sg * r2 -> sg * dR x1 < sg * dR x2 ->
  r1 * r1 + beta * r1 + gamma = 0 -> r2 * r2 + beta * r2 + gamma = 0 -> close x1 r1 -> close x2 r2 ->
  solved (if d_gt x1 x2 then [x2; x1] else [x1; x2]).
Proof.
  intros [-> | ->] G1 G2 L1 L2 R1 R2 C1 C2.
  - rewrite d_gt_false; [|assumption|assumption|lra]. exists x1, x2, r1, r2. split; [reflexivity|]. split; [lra|]. auto.
  - assert (G : d_gt x1 x2 = true) by (apply d_lt_fin; [assumption|assumption|lra]). rewrite G.
    exists x2, x1, r2, r1. split; [reflexivity|]. split; [lra|]. auto.
Qed.

Lemma main_regular : beta = 0 \/ drnd beta <> 0 -> solved (quad_tail f0 f1).
Proof.
  intros Reg. set (p := Rabs beta).
  assert (HS : exists sg, beta = sg * p /\ dR f1 = sg * drnd p /\
    (sg = 1 /\ d_signbit f1 = false \/ sg = -1 /\ d_signbit f1 = true)).
  { rewrite E1. unfold p. destruct (Rtotal_order beta 0) as [N | [Z | P]].
    - exists (-1). rewrite Rabs_left by lra. split; [ring|]. split; [rewrite rnd_opp; ring|]. right. split; [reflexivity|].
      apply signbit_neg; [exact F1|]. rewrite E1. destruct Reg as [? | Reg]; [lra|].
      assert (0 <= drnd (- beta)) by (apply rnd_pos; lra). rewrite rnd_opp in H. lra.
    - exists 1. rewrite Z, Rabs_R0. split; [ring|]. split; [ring|]. left. split; [reflexivity|].
      apply S1. rewrite Z. apply round_0, valid_rnd_N.
    - exists 1. rewrite Rabs_pos_eq by lra. split; [ring|]. split; [ring|]. left. split; [reflexivity|].
      apply signbit_pos; [exact F1|]. rewrite E1. destruct Reg as [? | Reg]; [lra|].
      assert (0 <= drnd beta) by (apply rnd_pos; lra). lra. }
  destruct HS as (sg & Eb & Ef1 & Hsg).
  assert (Hsg' : sg = 1 \/ sg = -1) by (destruct Hsg as [[? _] | [? _]]; auto).
  assert (He : e = 1 \/ e = -1 /\ 8 * q <= p * p).
  { unfold e, q, p. destruct (Rlt_dec gamma 0) as [H | H]; [left; reflexivity|right].
    split; [reflexivity|]. rewrite (Rabs_pos_eq gamma) by lra.
    replace (Rabs beta * Rabs beta) with (beta * beta).
    - destruct Sep; lra.
    - rewrite <- Rabs_mult, Rabs_pos_eq; [reflexivity|nra]. }
  destruct (summary p q e (conj (Rabs_pos _) B1) B0 He f0 f1 sg F0 F1 Hsg Ef1 f0_eq)
    as (x1 & x2 & Z & -> & X1 & X2 & ZL & ZP & ZR & A1 & A2).
  pose proof (bpow_gt_0 radix2 (-202)) as Z2. pose proof (bpow_gt_0 radix2 (-400)) as Z4.
  pose proof dl_bounds as (D1 & D2). assert (QP : 0 < q) by (unfold q; lra).
  assert (WP : 0 < q / Z) by (apply Rdiv_lt_0_compat; lra).
  set (W := q / Z) in *. assert (WZ : W * Z = q) by (unfold W; field; lra).
  pose proof e_q as EQ.
  assert (P0 : 0 <= p) by apply Rabs_pos.
  assert (Sg2 : sg * sg = 1) by (destruct Hsg' as [-> | ->]; lra).
  assert (Ev : e = 1 \/ e = -1 /\ 2 * W <= Z).
  { destruct He as [He | [He H8]]; [left; exact He|right]. split; [exact He|].
    apply Rmult_le_reg_r with Z; [lra|]. nra. }
  assert (DZ : 15 * dl * Z <= / 1000 * Z) by (apply Rmult_le_compat_r; lra).
  assert (DW : 15 * dl * W <= / 1000 * W) by (apply Rmult_le_compat_r; lra).
  assert (Sg1 : forall x, Rabs (sg * x) = Rabs x).
  { intros x. rewrite Rabs_mult. destruct Hsg' as [-> | ->]; [rewrite Rabs_R1|rewrite (Rabs_left (-1)) by lra]; ring. }
  assert (Ea : Rabs e = 1) by (destruct He as [-> | [-> _]]; [apply Rabs_R1|rewrite Rabs_left; lra]).
  apply (sort2 sg _ _ (- sg * Z) (sg * e * W) Hsg' X1 X2).
  - replace (sg * (- sg * Z)) with (- (sg * sg) * Z) by ring. replace (sg * (sg * e * W)) with (sg * sg * (e * W)) by ring.
    rewrite Sg2. destruct Ev as [-> | [-> Ev]]; lra.
  - apply Rabs_le_inv in A1. apply Rabs_le_inv in A2.
    destruct Hsg' as [-> | ->]; destruct Ev as [-> | [-> Ev]]; lra.
  - rewrite Eb. replace (- sg * Z * (- sg * Z) + sg * p * (- sg * Z) + gamma)
      with (sg * sg * (Z * Z) - sg * sg * (p * Z) + gamma) by ring. rewrite Sg2. lra.
  - rewrite Eb. assert (ee : e * e = 1) by (destruct Ev as [-> | [-> _]]; lra).
    replace (sg * e * W * (sg * e * W) + sg * p * (sg * e * W) + gamma)
      with (sg * sg * (e * e) * (W * W) + sg * sg * (e * p * W) + gamma) by ring. rewrite Sg2, ee.
    apply Rmult_eq_reg_r with (Z * Z); [|nra].
    replace ((1 * 1 * (W * W) + 1 * (e * p * W) + gamma) * (Z * Z))
      with ((W * Z) * (W * Z) + e * (W * Z) * (p * Z) + gamma * (Z * Z)) by ring. rewrite WZ.
    replace (q * q + e * q * (p * Z) + gamma * (Z * Z)) with (e * e * (q * q) + e * q * (p * Z) + gamma * (Z * Z)) by (rewrite ee; ring).
    replace (e * e * (q * q)) with (e * q * (e * q)) by ring. rewrite EQ.
    assert (Z * Z = p * Z - gamma) by lra. rewrite H. ring.
  - split; [exact X1|]. rewrite dl49. replace (- sg * Z) with (sg * - Z) in * by ring. rewrite Sg1, Rabs_Ropp, (Rabs_pos_eq Z) by lra.
    eapply Rle_trans; [exact A1|]. apply Rmult_le_compat_r; lra.
  - split; [exact X2|]. rewrite dl49. replace (sg * e * W) with (sg * (e * W)) in * by ring.
    rewrite Sg1, Rabs_mult, Ea, Rmult_1_l, (Rabs_pos_eq W) by lra.
    eapply Rle_trans; [exact A2|]. apply Rmult_le_compat_r; lra.
Qed.

(** beta <> 0 underflows to 0 *)
Lemma main_underflow : beta <> 0 -> drnd beta = 0 -> solved (quad_tail f0 f1).
Proof.
  intros NZ Und.
  pose proof dl_bounds as (D1 & D2).
  assert (BT : Rabs beta <= 2 * tiny).
  { pose proof (rnd_err beta) as E. rewrite Und in E. unfold Rminus in E. rewrite Rplus_0_l, Rabs_Ropp in E.
    pose proof (Rabs_pos beta). assert (0 < tiny) by apply bpow_gt_0. nra. }
  assert (T : 2 * tiny <= dl * / 10 * bpow radix2 (-202)).
  { apply Rle_trans with (dl * bpow radix2 (-4) * bpow radix2 (-202)).
    - unfold tiny, dl. replace 2 with (bpow radix2 1) by reflexivity. rewrite <- !bpow_plus. apply bpow_le. lia.
    - apply Rmult_le_compat_r; [apply bpow_ge_0|]. apply Rmult_le_compat_l; [lra|]. simpl. lra. }
  pose proof (bpow_gt_0 radix2 (-202)) as Z2. pose proof (bpow_gt_0 radix2 (-400)) as Z4.
  assert (GN : gamma < 0).
  { destruct Sep as [G | G]; [exact G|]. destruct (Rlt_dec gamma 0) as [H | H]; [exact H|]. exfalso.
    rewrite (Rabs_pos_eq gamma) in B0 by lra.
    assert (beta * beta = Rabs beta * Rabs beta) by (rewrite <- Rabs_mult, Rabs_pos_eq; [reflexivity|nra]).
    assert (BB : Rabs beta <= bpow radix2 (-202)) by nra.
    assert (Rabs beta * Rabs beta <= bpow radix2 (-202) * bpow radix2 (-202)).
    { apply Rmult_le_compat; try apply Rabs_pos; exact BB. }
    rewrite <- bpow_plus in H1. assert (bpow radix2 (-202 + -202) <= bpow radix2 (-400)) by (apply bpow_le; lia). lra. }
  assert (Ee : e = 1) by (unfold e; destruct (Rlt_dec gamma 0); [reflexivity|lra]).
  assert (Eg : gamma = - q) by (unfold q; rewrite Rabs_left by lra; ring).
  assert (E1' : dR f1 = 1 * drnd 0) by (rewrite E1, Und, round_0 by apply valid_rnd_N; ring).
  destruct (summary 0 q e (conj (Rle_refl 0) (bpow_ge_0 radix2 400)) B0 (or_introl Ee) f0 f1 1 F0 F1
              (or_introl (conj eq_refl (S1 Und))) E1' f0_eq) as (x1 & x2 & Z & -> & X1 & X2 & ZL & _ & ZR & A1 & A2).
  rewrite Ee in *. assert (QZ : q = Z * Z) by lra.
  replace (q / Z) with Z in A2 by (rewrite QZ; field; lra).
  replace (1 * 1 * Z) with Z in A2 by ring. replace (- (1) * Z) with (- Z) in A1 by ring.
  set (h := Rabs beta) in *. assert (HP : 0 <= h) by apply Rabs_pos.
  assert (HZ : h <= dl * / 10 * Z).
  { apply Rle_trans with (1 := BT). apply Rle_trans with (1 := T). apply Rmult_le_compat_l; lra. }
  assert (Hb : - h <= beta <= h) by (unfold h; apply Rabs_le_inv, Rle_refl).
  assert (SL : 2 * Z <= sqrt (beta * beta + 4 * q) <= 2 * Z + h).
  { split.
    - rewrite <- (sqrt_Rsqr (2 * Z)) by lra. apply sqrt_le_1_alt. unfold Rsqr. nra.
    - rewrite <- (sqrt_Rsqr (2 * Z + h)) by lra. apply sqrt_le_1_alt. unfold Rsqr.
      assert (beta * beta = h * h) by (unfold h; rewrite <- Rabs_mult, Rabs_pos_eq; [reflexivity|nra]). nra. }
  pose proof (sqrt_sqrt (beta * beta + 4 * q) ltac:(nra)) as SS.
  set (s := sqrt (beta * beta + 4 * q)) in *.
  assert (DZ : 0 < dl * Z) by (apply Rmult_lt_0_compat; lra).
  assert (DZ2 : dl * Z <= / 1000 * Z) by (apply Rmult_le_compat_r; lra).
  assert (DDZ : dl * (dl * Z) <= / 1000 * (dl * Z)) by (apply Rmult_le_compat_r; lra).
  apply Rabs_le_inv in A1. apply Rabs_le_inv in A2.
  apply (sort2 1 _ _ ((- beta - s) / 2) ((- beta + s) / 2) (or_introl eq_refl) X1 X2).
  - lra.
  - lra.
  - rewrite Eg. field_simplify. replace (s ^ 2) with (s * s) by ring. rewrite SS. field.
  - rewrite Eg. field_simplify. replace (s ^ 2) with (s * s) by ring. rewrite SS. field.
  - split; [exact X1|]. rewrite dl49, (Rabs_left ((- beta - s) / 2)) by lra. apply Rabs_le.
    assert (16 * dl * (Z - h) <= 16 * dl * - ((- beta - s) / 2)) by (apply Rmult_le_compat_l; lra).
    assert (16 * dl * h <= 16 * dl * (dl * / 10 * Z)) by (apply Rmult_le_compat_l; lra). lra.
  - split; [exact X2|]. rewrite dl49, (Rabs_pos_eq ((- beta + s) / 2)) by lra. apply Rabs_le.
    assert (16 * dl * (Z - h) <= 16 * dl * ((- beta + s) / 2)) by (apply Rmult_le_compat_l; lra).
    assert (16 * dl * h <= 16 * dl * (dl * / 10 * Z)) by (apply Rmult_le_compat_l; lra). lra.
Qed.

Lemma main : solved (quad_tail f0 f1).
Proof.
  destruct (Req_dec beta 0) as [H | H]; [apply main_regular; left; exact H|].
  destruct (Req_dec (drnd beta) 0) as [H2 | H2]; [apply main_underflow; assumption|].
  apply main_regular. right. exact H2.
Qed.
End Main.

Lemma quad_root_div a b c r : dR a <> 0 ->
  r * r + dR b / dR a * r + dR c / dR a = 0 <-> quad_root a b c r.
Proof.
  intros N. unfold quad_root. replace (dR a * (r * r) + dR b * r + dR c)
    with (dR a * (r * r + dR b / dR a * r + dR c / dR a)) by (field; exact N).
  split; intros H; [rewrite H; ring|]. apply Rmult_integral in H. destruct H; [contradiction|assumption].
Qed.
Lemma moderate_nz a : moderate a -> dR a <> 0.
Proof. intros (L & _) E. rewrite E, Rabs_R0 in L. pose proof (bpow_gt_0 radix2 (-200)). lra. Qed.
Lemma moderate_quot a c : moderate a -> moderate c -> bpow radix2 (-400) <= Rabs (dR c / dR a).
Proof.
  intros A (L & _). pose proof (moderate_nz _ A) as N. destruct A as (La & Ua).
  unfold Rdiv. rewrite Rabs_mult, Rabs_inv. change (-400)%Z with (-200 + -200)%Z. rewrite bpow_plus.
  pose proof (bpow_gt_0 radix2 (-200)). apply Rmult_le_compat; [lra|lra|exact L|].
  change (-200)%Z with (- (200))%Z. rewrite bpow_opp. apply Rinv_le; [lra|exact Ua].
Qed.

(** C69, forward error: with coefficients of moderate size, when the roots have
    opposite signs or the discriminant is at least b^2/2, the quadratic solver
    returns exactly the two roots, in increasing order, each to a relative error
    of 2^-49. *)
Theorem C69_accurate_partial : forall a b c : d64,
  fin a -> fin b -> fin c -> moderate a -> moderate c -> Rabs (dR b) <= bpow radix2 200 ->
  dR a * dR c < 0 \/ 8 * (dR a * dR c) <= dR b * dR b ->
  exists x1 x2 r1 r2, d_solve_quadratic [c; b; a] = [x1; x2] /\
    r1 < r2 /\ quad_root a b c r1 /\ quad_root a b c r2 /\ close x1 r1 /\ close x2 r2.
Proof.
  intros a b c Fa Fb Fc Ma Mc Bb Sep. pose proof (moderate_nz _ Ma) as N.
  rewrite quad_unfold by (apply d_eq_false; [exact Fa|reflexivity|exact N]).
  destruct (quot_R c a Fc Fa Ma (proj2 Mc)) as (Q0 & G0 & V0 & _).
  destruct (quot_R b a Fb Fa Ma Bb) as (Q1 & G1 & V1 & S1).
  destruct (main _ _ (dR b / dR a) (dR c / dR a) G0 G1 V0 V1 S1 Q1 (conj (moderate_quot a c Ma Mc) Q0))
    as (x1 & x2 & r1 & r2 & E & L & R1 & R2 & C1 & C2).
  - assert (AA : 0 < dR a * dR a) by nra. destruct Sep as [H | H].
    + left. apply Rmult_lt_reg_r with (dR a * dR a); [exact AA|].
      replace (dR c / dR a * (dR a * dR a)) with (dR a * dR c) by (field; exact N). lra.
    + right. apply Rmult_le_reg_r with (dR a * dR a); [exact AA|].
      replace (8 * (dR c / dR a) * (dR a * dR a)) with (8 * (dR a * dR c)) by (field; exact N).
      replace (dR b / dR a * (dR b / dR a) * (dR a * dR a)) with (dR b * dR b) by (field; exact N). exact H.
  - exists x1, x2, r1, r2. split; [exact E|]. split; [exact L|].
    split; [apply quad_root_div; assumption|]. split; [apply quad_root_div; assumption|]. auto.
Qed.

(** ** Backward error, with no condition on the discriminant *)

Lemma sign_of (f1 : d64) beta : fin f1 -> dR f1 = drnd beta -> (drnd beta = 0 -> d_signbit f1 = false) ->
  beta = 0 \/ drnd beta <> 0 ->
  exists sg, beta = sg * Rabs beta /\ dR f1 = sg * drnd (Rabs beta) /\
    (sg = 1 /\ d_signbit f1 = false \/ sg = -1 /\ d_signbit f1 = true).
Proof.
  intros F1 E1 S1 Reg. rewrite E1. destruct (Rtotal_order beta 0) as [N | [Z | P]].
  - exists (-1). rewrite Rabs_left by lra. split; [ring|]. split; [rewrite rnd_opp; ring|]. right. split; [reflexivity|].
    apply signbit_neg; [exact F1|]. rewrite E1. destruct Reg as [? | Reg]; [lra|].
    assert (0 <= drnd (- beta)) by (apply rnd_pos; lra). rewrite rnd_opp in H. lra.
  - exists 1. rewrite Z, Rabs_R0. split; [ring|]. split; [ring|]. left. split; [reflexivity|].
    apply S1. rewrite Z. apply round_0, valid_rnd_N.
  - exists 1. rewrite Rabs_pos_eq by lra. split; [ring|]. split; [ring|]. left. split; [reflexivity|].
    apply signbit_pos; [exact F1|]. rewrite E1. destruct Reg as [? | Reg]; [lra|].
    assert (0 <= drnd beta) by (apply rnd_pos; lra). lra.
Qed.
Lemma rnd_nz x : bpow radix2 (-400) <= Rabs x -> drnd x <> 0.
Proof.
  intros H E. pose proof (rnd_err x) as R. rewrite E in R. unfold Rminus in R. rewrite Rplus_0_l, Rabs_Ropp in R.
  pose proof dl_bounds as (D1 & D2). pose proof (bpow_gt_0 radix2 (-400)).
  assert (tiny <= / 2 * bpow radix2 (-400)).
  { unfold tiny. apply Rle_trans with (bpow radix2 (-1 + -400)); [apply bpow_le; lia|]. rewrite bpow_plus. simpl (bpow radix2 (-1)). lra. }
  nra.
Qed.

(** x approximates a root r of a x^2 + b x + c *)
Definition root_of (a b c r : R) : Prop := a * (r * r) + b * r + c = 0.

(** C69, backward error: with coefficients of moderate size (b may be 0), what the
    solver returns is right, to a relative error of 2^-49 in each root, for a
    polynomial a x^2 + b' x + c' whose coefficients differ from the given ones by
    a relative 2^-50: no roots, the double root, or the two roots in increasing
    order, according to the sign of its discriminant. *)
Theorem C69_backward_partial : forall a b c : d64,
  fin a -> fin b -> fin c -> moderate a -> moderate c -> dR b = 0 \/ moderate b ->
  exists b' c' : R,
    Rabs (b' - dR b) <= bpow radix2 (-50) * Rabs (dR b) /\
    Rabs (c' - dR c) <= bpow radix2 (-50) * Rabs (dR c) /\
    (b' * b' < 4 * dR a * c' /\ d_solve_quadratic [c; b; a] = [] \/
     b' * b' = 4 * dR a * c' /\
       (exists x, d_solve_quadratic [c; b; a] = [x] /\ close x (- b' / (2 * dR a))) \/
     4 * dR a * c' < b' * b' /\
       exists x1 x2 r1 r2, d_solve_quadratic [c; b; a] = [x1; x2] /\
         r1 < r2 /\ root_of (dR a) b' c' r1 /\ root_of (dR a) b' c' r2 /\ close x1 r1 /\ close x2 r2).
Proof.
  intros a b c Fa Fb Fc Ma Mc Mb. pose proof (moderate_nz _ Ma) as N.
  rewrite quad_unfold by (apply d_eq_false; [exact Fa|reflexivity|exact N]).
  assert (Bb : Rabs (dR b) <= bpow radix2 200).
  { destruct Mb as [-> | (_ & Mb)]; [rewrite Rabs_R0; apply bpow_ge_0|exact Mb]. }
  destruct (quot_R c a Fc Fa Ma (proj2 Mc)) as (Q0 & G0 & V0 & _).
  destruct (quot_R b a Fb Fa Ma Bb) as (Q1 & G1 & V1 & S1).
  pose proof (moderate_quot a c Ma Mc) as L0.
  set (beta := dR b / dR a) in *. set (gamma := dR c / dR a) in *.
  assert (Hp : Rabs beta = 0 \/ bpow radix2 (-400) <= Rabs beta <= bpow radix2 400).
  { destruct Mb as [E | Mb]; [left; unfold beta; rewrite E; unfold Rdiv; rewrite Rmult_0_l; apply Rabs_R0|right].
    split; [apply moderate_quot; assumption|exact Q1]. }
  destruct (sign_of _ beta G1 V1 S1) as (sg & Eb & Ef1 & Hsg).
  { destruct Hp as [E | (E & _)]; [left|right; apply rnd_nz; exact E].
    destruct (Req_dec beta 0) as [H | H]; [exact H|]. apply Rabs_pos_lt in H. lra. }
  set (e := if Rlt_dec gamma 0 then 1 else -1).
  assert (He : e = 1 \/ e = -1) by (unfold e; destruct (Rlt_dec gamma 0); auto).
  assert (Eg : gamma = - (e * Rabs gamma)) by (pose proof (e_q gamma) as X; fold e in X; rewrite X; ring).
  destruct (b_tail (Rabs beta) (Rabs gamma) e Hp (conj L0 Q0) He _ _ sg G0 G1 Hsg Ef1 (f0_eq _ gamma V0))
    as (pt & qt & PT & QT & RP & RQ & T).
  assert (Sg2 : sg * sg = 1) by (destruct Hsg as [[-> _] | [-> _]]; lra).
  assert (Hsg' : sg = 1 \/ sg = -1) by (destruct Hsg as [[? _] | [? _]]; auto).
  assert (ee : e * e = 1) by (destruct He as [-> | ->]; lra).
  assert (Sg1 : forall x, Rabs (sg * x) = Rabs x).
  { intros x. rewrite Rabs_mult. destruct Hsg' as [-> | ->]; [rewrite Rabs_R1|rewrite (Rabs_left (-1)) by lra]; ring. }
  assert (Se1 : forall x, Rabs (e * x) = Rabs x).
  { intros x. rewrite Rabs_mult. destruct He as [-> | ->]; [rewrite Rabs_R1|rewrite (Rabs_left (-1)) by lra]; ring. }
  assert (AA : 0 < dR a * dR a) by nra.
  pose proof dl_bounds as (D1 & D2).
  assert (d50 : bpow radix2 (-50) = 8 * dl).
  { unfold dl. change (-50)%Z with (3 + -53)%Z. rewrite bpow_plus. reflexivity. }
  assert (Bv : dR b = dR a * (sg * Rabs beta)) by (rewrite <- Eb; unfold beta; field; exact N).
  assert (Cv : dR c = dR a * - (e * Rabs gamma)) by (rewrite <- Eg; unfold gamma; field; exact N).
  exists (dR a * (sg * pt)), (dR a * - (e * qt)).
  split; [|split].
  - rewrite Bv, d50. replace (dR a * (sg * pt) - dR a * (sg * Rabs beta)) with (dR a * (sg * (pt - Rabs beta))) by ring.
    rewrite !(Rabs_mult (dR a)), !Sg1, (Rabs_pos_eq (Rabs beta)) by apply Rabs_pos.
    replace (8 * dl * (Rabs (dR a) * Rabs beta)) with (Rabs (dR a) * (8 * dl * Rabs beta)) by ring.
    apply Rmult_le_compat_l; [apply Rabs_pos|]. eapply Rle_trans; [exact RP|].
    apply Rmult_le_compat_r; [apply Rabs_pos|lra].
  - rewrite Cv, d50. replace (dR a * - (e * qt) - dR a * - (e * Rabs gamma)) with (dR a * - (e * (qt - Rabs gamma))) by ring.
    rewrite !(Rabs_mult (dR a)), !Rabs_Ropp, !Se1, (Rabs_pos_eq (Rabs gamma)) by apply Rabs_pos.
    replace (8 * dl * (Rabs (dR a) * Rabs gamma)) with (Rabs (dR a) * (8 * dl * Rabs gamma)) by ring.
    apply Rmult_le_compat_l; [apply Rabs_pos|]. eapply Rle_trans; [exact RQ|].
    apply Rmult_le_compat_r; [apply Rabs_pos|lra].
  - assert (ED : dR a * (sg * pt) * (dR a * (sg * pt)) - 4 * dR a * (dR a * - (e * qt))
                 = dR a * dR a * (pt * pt + e * 4 * qt)).
    { replace (dR a * (sg * pt) * (dR a * (sg * pt))) with (sg * sg * (dR a * dR a * (pt * pt))) by ring. rewrite Sg2. ring. }
    assert (KZ : forall x y z, 0 < x -> rel 15 y x -> (z = 1 \/ z = -1) -> Rabs (z * y - z * x) <= bpow radix2 (-49) * Rabs (z * x)).
    { intros x y z X R Z. replace (z * y - z * x) with (z * (y - x)) by ring. rewrite !Rabs_mult.
      assert (Rabs z = 1) by (destruct Z as [-> | ->]; [apply Rabs_R1|rewrite Rabs_left; lra]). rewrite H, !Rmult_1_l, (Rabs_pos_eq x) by lra.
      rewrite dl49. eapply Rle_trans; [exact R|]. apply Rmult_le_compat_r; lra. }
    assert (Nsg : - sg = 1 \/ - sg = -1) by (destruct Hsg' as [-> | ->]; lra).
    destruct T as [(T & E) | [(T & x & E & Fx & y & Ex & Ry) | (T & x1 & x2 & y1 & y2 & Z & E & F1 & F2 & ZP & ZR & ZB & V3 & V4 & R3 & R4)]].
    + left. split; [nra|exact E].
    + right. left. split; [rewrite T in ED; lra|]. exists x. split; [exact E|]. split; [exact Fx|].
      assert (PP : 0 < pt) by (destruct He as [-> | ->]; nra).
      replace (- (dR a * (sg * pt)) / (2 * dR a)) with (- sg * (pt / 2)) by (field; exact N).
      rewrite Ex. apply KZ; [lra|exact Ry|exact Nsg].
    + right. right. split; [nra|]. rewrite E.
      set (W := qt / Z) in *. assert (WZ : W * Z = qt) by (unfold W; field; lra).
      assert (WP : 0 < W) by (unfold W; apply Rdiv_lt_0_compat; lra).
      assert (Root1 : root_of (dR a) (dR a * (sg * pt)) (dR a * - (e * qt)) (- sg * Z)).
      { unfold root_of. replace (dR a * (- sg * Z * (- sg * Z)) + dR a * (sg * pt) * (- sg * Z) + dR a * - (e * qt))
          with (dR a * ((sg * sg) * (Z * Z) - (sg * sg) * pt * Z - e * qt)) by ring. rewrite Sg2, !Rmult_1_l, ZR. ring. }
      assert (WR : W * W + e * pt * W - e * qt = 0).
      { apply Rmult_eq_reg_r with (Z * Z); [|nra].
        replace ((W * W + e * pt * W - e * qt) * (Z * Z))
          with ((W * Z) * (W * Z) + e * (W * Z) * (pt * Z) - e * qt * (Z * Z)) by ring. rewrite WZ.
        assert (H : Z * Z = pt * Z + e * qt) by lra. rewrite H.
        replace (qt * qt + e * qt * (pt * Z) - e * qt * (pt * Z + e * qt)) with (qt * qt * (1 - e * e)) by ring. rewrite ee. ring. }
      assert (Root2 : root_of (dR a) (dR a * (sg * pt)) (dR a * - (e * qt)) (sg * e * W)).
      { unfold root_of. replace (dR a * (sg * e * W * (sg * e * W)) + dR a * (sg * pt) * (sg * e * W) + dR a * - (e * qt))
          with (dR a * ((sg * sg) * (e * e) * (W * W) + (sg * sg) * e * pt * W - e * qt)) by ring.
        rewrite Sg2, ee, !Rmult_1_l, WR. ring. }
      assert (Lt : e = -1 -> W < Z).
      { intros Ee. rewrite Ee in ZR. assert (W = pt - Z).
        { apply Rmult_eq_reg_r with Z; [|lra]. lra. } lra. }
      pose proof (rel_lo _ _ _ R3) as L3. pose proof (rel_hi _ _ _ R3) as U3.
      pose proof (rel_lo _ _ _ R4) as L4. pose proof (rel_hi _ _ _ R4) as U4.
      assert (DZ : 0 <= 15 * dl * Z <= / 1000 * Z) by (split; [apply Rmult_le_pos; lra|apply Rmult_le_compat_r; lra]).
      assert (DW : 0 <= 15 * dl * W <= / 1000 * W) by (split; [apply Rmult_le_pos; lra|apply Rmult_le_compat_r; lra]).
      destruct He as [He | He].
      * (* opposite signs *)
        rewrite He in *. replace (sg * 1) with sg in * by ring.
        destruct Hsg' as [-> | ->].
        -- rewrite d_gt_false; [|exact F1|exact F2|lra].
           exists x1, x2, (- (1) * Z), (1 * W). split; [reflexivity|]. split; [lra|]. split; [exact Root1|]. split; [exact Root2|].
           split; (split; [assumption|]); [rewrite V3|rewrite V4]; apply KZ; auto; lra.
        -- assert (G : d_gt x1 x2 = true) by (apply d_lt_fin; [assumption|assumption|lra]). rewrite G.
           exists x2, x1, (-1 * W), (- (-1) * Z). split; [reflexivity|]. split; [lra|]. split; [exact Root2|]. split; [exact Root1|].
           split; (split; [assumption|]); [rewrite V4|rewrite V3]; apply KZ; auto; lra.
      * (* the same sign: the computed roots may even come in the wrong order *)
        specialize (Lt He). rewrite He in *.
        replace (sg * -1 * W) with (- sg * W) in * by ring. replace (sg * -1 * y2) with (- sg * y2) in * by ring.
        assert (Cross : y1 <= y2 -> rel 15 y2 Z /\ rel 15 y1 W).
        { intros H. assert (15 * dl * W <= 15 * dl * Z) by (apply Rmult_le_compat_l; lra).
          assert (W * (1 - 15 * dl) <= Z * (1 - 15 * dl)) by (apply Rmult_le_compat_r; lra).
          split; apply rel_intro; lra. }
        destruct (d_gt x1 x2) eqn:G.
        -- apply d_lt_fin in G; [|exact F2|exact F1].
           destruct Hsg' as [-> | ->].
           ++ (* -y2 < -y1, but -Z < -W *)
              destruct (Cross ltac:(lra)) as (C1 & C2).
              exists x2, x1, (- (1) * Z), (- (1) * W). split; [reflexivity|]. split; [lra|]. split; [exact Root1|]. split; [exact Root2|].
              split; (split; [assumption|]); [rewrite V4|rewrite V3]; apply KZ; auto; lra.
           ++ exists x2, x1, (- (-1) * W), (- (-1) * Z). split; [reflexivity|]. split; [lra|]. split; [exact Root2|]. split; [exact Root1|].
              split; (split; [assumption|]); [rewrite V4|rewrite V3]; apply KZ; auto; lra.
        -- assert (G' : dR x1 <= dR x2).
           { apply Rnot_lt_le. intros H. apply (d_lt_fin x2 x1 F2 F1) in H. unfold d_gt in G. congruence. }
           destruct Hsg' as [-> | ->].
           ++ exists x1, x2, (- (1) * Z), (- (1) * W). split; [reflexivity|]. split; [lra|]. split; [exact Root1|]. split; [exact Root2|].
              split; (split; [assumption|]); [rewrite V3|rewrite V4]; apply KZ; auto; lra.
           ++ destruct (Cross ltac:(lra)) as (C1 & C2).
              exists x1, x2, (- (-1) * W), (- (-1) * Z). split; [reflexivity|]. split; [lra|]. split; [exact Root2|]. split; [exact Root1|].
              split; (split; [assumption|]); [rewrite V3|rewrite V4]; apply KZ; auto; lra.
Qed.

(** ... in particular no roots are returned when b^2 is smaller than 4 a c by a
    relative 2^-48 *)
Theorem C69_no_roots_partial : forall a b c : d64,
  fin a -> fin b -> fin c -> moderate a -> moderate c -> dR b = 0 \/ moderate b ->
  dR b * dR b < 4 * (dR a * dR c) * (1 - bpow radix2 (-48)) ->
  d_solve_quadratic [c; b; a] = [].
Proof.
  intros a b c Fa Fb Fc Ma Mc Mb H.
  destruct (C69_backward_partial a b c Fa Fb Fc Ma Mc Mb) as (b' & c' & Hb & Hc & T).
  assert (d48 : bpow radix2 (-48) = 32 * dl).
  { unfold dl. change (-48)%Z with (5 + -53)%Z. rewrite bpow_plus. reflexivity. }
  assert (d50 : bpow radix2 (-50) = 8 * dl).
  { unfold dl. change (-50)%Z with (3 + -53)%Z. rewrite bpow_plus. reflexivity. }
  pose proof dl_bounds as (D1 & D2). rewrite d48 in H. rewrite d50 in Hb, Hc.
  assert (B2 : 0 <= dR b * dR b) by nra.
  assert (AC : 0 < dR a * dR c) by nra.
  assert (Lb : b' * b' <= dR b * dR b * (1 + 17 * dl)).
  { apply Rle_trans with ((Rabs (dR b) * (1 + 8 * dl)) * (Rabs (dR b) * (1 + 8 * dl))).
    - replace (b' * b') with (Rabs b' * Rabs b') by (rewrite <- Rabs_mult, Rabs_pos_eq; [reflexivity|nra]).
      assert (Rabs b' <= Rabs (dR b) * (1 + 8 * dl)).
      { replace b' with ((b' - dR b) + dR b) by ring. eapply Rle_trans; [apply Rabs_triang|]. lra. }
      apply Rmult_le_compat; try apply Rabs_pos; assumption.
    - replace (Rabs (dR b) * (1 + 8 * dl) * (Rabs (dR b) * (1 + 8 * dl))) with ((Rabs (dR b) * Rabs (dR b)) * ((1 + 8 * dl) * (1 + 8 * dl))) by ring.
      rewrite <- Rabs_mult, Rabs_pos_eq by exact B2. apply Rmult_le_compat_l; [exact B2|]. nra. }
  assert (Lc : dR a * dR c * (1 - 8 * dl) <= dR a * c').
  { assert (K : Rabs (dR a * (c' - dR c)) <= 8 * dl * (dR a * dR c)).
    { rewrite Rabs_mult. replace (8 * dl * (dR a * dR c)) with (Rabs (dR a) * (8 * dl * Rabs (dR c))).
      - apply Rmult_le_compat_l; [apply Rabs_pos|exact Hc].
      - replace (Rabs (dR a) * (8 * dl * Rabs (dR c))) with (8 * dl * (Rabs (dR a) * Rabs (dR c))) by ring.
        rewrite <- Rabs_mult, (Rabs_pos_eq (dR a * dR c)) by lra. reflexivity. }
    apply Rabs_le_inv in K. lra. }
  assert (ACD : 0 < dR a * dR c * dl) by (apply Rmult_lt_0_compat; lra).
  assert (F : b' * b' < 4 * dR a * c').
  { apply Rle_lt_trans with (1 := Lb).
    apply Rle_lt_trans with (4 * (dR a * dR c) * (1 - 32 * dl) * (1 + 17 * dl)); [apply Rmult_le_compat_r; lra|].
    apply Rlt_le_trans with (4 * (dR a * dR c * (1 - 8 * dl))); [|lra].
    replace (4 * (dR a * dR c) * (1 - 32 * dl) * (1 + 17 * dl))
      with (4 * (dR a * dR c) * (1 - 15 * dl) - 4 * 544 * (dR a * dR c * dl) * dl) by ring.
    assert (0 < dR a * dR c * dl * dl) by (apply Rmult_lt_0_compat; lra). lra. }
  destruct T as [(_ & E) | [(E & _) | (E & _)]]; [exact E|lra|lra].
Qed.

(* ------------------------------------------------------------------ *)
(** ** One root at zero, and first order polynomials *)

(** x is the double nearest to r up to a relative error of 2^-53 *)
Definition nearest (x : d64) (r : R) : Prop := fin x /\ Rabs (dR x - r) <= bpow radix2 (-53) * Rabs r.
(** r is zero or neither under- nor overflows *)
Definition in_range (r : R) : Prop := r = 0 \/ bpow radix2 (-1022) <= Rabs r <= bpow radix2 1000.

Lemma in_range_rnd r : in_range r ->
  Rabs r <= bpow radix2 1000 /\ Rabs (drnd r - r) <= bpow radix2 (-53) * Rabs r.
Proof.
  intros [-> | (L & U)].
  - rewrite round_0 by apply valid_rnd_N. rewrite Rminus_diag_eq, Rabs_R0 by reflexivity.
    split; [apply bpow_ge_0|lra].
  - split; [exact U|].
    pose proof (relative_error_N_FLT radix2 (-1074) 53 eq_refl (fun x => negb (Z.even x)) r L) as E.
    eapply Rle_trans; [exact E|]. apply Rmult_le_compat_r; [apply Rabs_pos|]. simpl. lra.
Qed.

Theorem C69_linear : forall b c : d64, fin b -> fin c ->
  (dR b = 0 -> d_solve_linear [c; b] = []) /\
  (dR b <> 0 -> in_range (- dR c / dR b) -> exists x, d_solve_linear [c; b] = [x] /\ nearest x (- dR c / dR b)).
Proof.
  intros b c Fb Fc. unfold d_solve_linear, d_neq. change (dget [c; b] 1) with b. change (dget [c; b] 0) with c. split.
  - intros E. assert (X : d_eq b d_zero = true) by (apply d_eq_fin; [exact Fb|reflexivity|exact E]). rewrite X. reflexivity.
  - intros N Rg. rewrite (d_eq_false b d_zero Fb eq_refl N). cbn [negb].
    destruct (opp_R c Fc) as (OF & OR & _). destruct (in_range_rnd _ Rg) as (B & E).
    rewrite <- OR in *. destruct (div_R _ b OF Fb N B) as (DF & DR).
    exists (d_div (d_opp c) b). split; [reflexivity|]. split; [exact DF|]. rewrite DR. exact E.
Qed.

(** a zero leading coefficient leaves the linear polynomial *)
Theorem C69_drops_to_linear : forall a b c : d64, fin a -> dR a = 0 ->
  d_solve_quadratic [c; b; a] = d_solve_linear [c; b].
Proof.
  intros a b c Fa E. unfold d_solve_quadratic. change (dget [c; b; a] 2) with a.
  assert (X : d_eq a d_zero = true) by (apply d_eq_fin; [exact Fa|reflexivity|exact E]). rewrite X. reflexivity.
Qed.

(** no constant term: 0 and -b/a in increasing order *)
Theorem C69_zero_constant : forall a b c : d64, fin a -> fin b -> fin c ->
  dR a <> 0 -> dR c = 0 -> in_range (- dR b / dR a) ->
  exists x1 x2, d_solve_quadratic [c; b; a] = [x1; x2] /\ dR x1 <= dR x2 /\
    (nearest x1 0 /\ nearest x2 (- dR b / dR a) \/ nearest x2 0 /\ nearest x1 (- dR b / dR a)).
Proof.
  intros a b c Fa Fb Fc N Ec Rg. rewrite quad_unfold by (apply d_eq_false; [exact Fa|reflexivity|exact N]).
  destruct (in_range_rnd _ Rg) as (B & E).
  replace (- dR b / dR a) with (- (dR b / dR a)) in * by (field; exact N). rewrite Rabs_Ropp in B.
  destruct (div_R b a Fb Fa N B) as (DF & DR).
  assert (B2 : Rabs (dR c / dR a) <= bpow radix2 1000).
  { rewrite Ec. unfold Rdiv. rewrite Rmult_0_l, Rabs_R0. apply bpow_ge_0. }
  destruct (div_R c a Fc Fa N B2) as (DF2 & DR2).
  assert (Z2 : dR (d_div c a) = 0).
  { rewrite DR2, Ec. unfold Rdiv. rewrite Rmult_0_l. apply round_0, valid_rnd_N. }
  destruct (addz (d_div b a) DF) as (F1 & V1 & _).
  { rewrite DR. apply rnd_big; [lia|exact B]. }
  destruct (addz (d_div c a) DF2) as (F0 & V0 & _).
  { rewrite Z2, Rabs_R0. apply bpow_ge_0. }
  rewrite Z2 in V0. rewrite DR in V1.
  set (f0 := d_add d_zero (d_div c a)) in *. set (f1 := d_add d_zero (d_div b a)) in *.
  unfold quad_tail. assert (X : d_eq f0 d_zero = true) by (apply d_eq_fin; [exact F0|reflexivity|exact V0]). rewrite X.
  destruct (opp_R f1 F1) as (OF & OR & _). rewrite V1, <- rnd_opp in OR.
  assert (NZ : nearest d_zero 0).
  { split; [reflexivity|]. destruct zero_R as (_ & ->). rewrite Rminus_diag_eq, Rabs_R0 by reflexivity. lra. }
  assert (NO : nearest (d_opp f1) (- (dR b / dR a))) by (split; [exact OF|rewrite OR; exact E]).
  destruct zero_R as (FZ & ZR).
  exists (d_min (d_opp f1) d_zero), (d_maximum (d_opp f1) d_zero). split; [reflexivity|].
  unfold d_min, d_maximum.
  destruct (d_lt d_zero (d_opp f1)) eqn:L1; destruct (d_lt (d_opp f1) d_zero) eqn:L2.
  - apply d_lt_fin in L1; [|exact FZ|exact OF]. apply d_lt_fin in L2; [|exact OF|exact FZ]. lra.
  - apply d_lt_fin in L1; [|exact FZ|exact OF]. split; [lra|]. left. split; assumption.
  - apply d_lt_fin in L2; [|exact OF|exact FZ]. split; [lra|]. right. split; assumption.
  - split; [lra|].
    assert (Z : dR (d_opp f1) = 0).
    { destruct (Rtotal_order (dR (d_opp f1)) 0) as [G | [G | G]]; [|exact G|].
      - rewrite <- ZR in G. apply (d_lt_fin _ _ OF FZ) in G. congruence.
      - rewrite <- ZR in G. apply (d_lt_fin _ _ FZ OF) in G. congruence. }
    left. split; [|exact NO]. split; [exact OF|]. rewrite Z, Rminus_diag_eq, Rabs_R0 by reflexivity. lra.
Qed.

(* ------------------------------------------------------------------ *)
(** ** Refutations outside those ranges *)

(** dividing by a small leading coefficient overflows: 2^-1000 x^2 + x + 2^1000
    has no real root, but "roots" -inf and -2^1000 are returned *)
Theorem C69_overflow_refuted : exists a b c x : d64, fin a /\ fin b /\ fin c /\
  (forall r, ~ quad_root a b c r) /\
  d_solve_quadratic [c; b; a] = [d_inf true; x] /\ fin x.
Proof.
  exists (d_lit 1 (-1000)), d_one, (d_lit 1 1000), (d_opp (d_add d_zero (d_div d_one (d_lit 1 (-1000))))).
  split; [reflexivity|]. split; [reflexivity|]. split; [reflexivity|]. split; [|split].
  - intros r H. unfold quad_root in H.
    assert (Ea : dR (d_lit 1 (-1000)) = bpow radix2 (-1000)) by (change (dR (d_lit 1 (-1000))) with (F2R (Float radix2 4503599627370496 (-1052)));
      unfold F2R; cbn [Fnum Fexp]; change (IZR 4503599627370496) with (bpow radix2 52); rewrite <- bpow_plus; reflexivity).
    assert (Ec : dR (d_lit 1 1000) = bpow radix2 1000) by (change (dR (d_lit 1 1000)) with (F2R (Float radix2 4503599627370496 948));
      unfold F2R; cbn [Fnum Fexp]; change (IZR 4503599627370496) with (bpow radix2 52); rewrite <- bpow_plus; reflexivity).
    assert (Eb : dR d_one = 1) by (unfold dR; vm_compute; lra).
    rewrite Ea, Eb, Ec in H.
    assert (AC : bpow radix2 (-1000) * bpow radix2 1000 = 1) by (rewrite <- bpow_plus; reflexivity).
    pose proof (bpow_gt_0 radix2 (-1000)) as P.
    assert (K : (2 * bpow radix2 (-1000) * r + 1) * (2 * bpow radix2 (-1000) * r + 1) = -3).
    { replace ((2 * bpow radix2 (-1000) * r + 1) * (2 * bpow radix2 (-1000) * r + 1))
        with (4 * bpow radix2 (-1000) * (bpow radix2 (-1000) * (r * r) + 1 * r + bpow radix2 1000)
              + 1 - 4 * (bpow radix2 (-1000) * bpow radix2 1000)) by ring.
      rewrite H, AC. ring. }
    nra.
  - rewrite quad_unfold by reflexivity.
    set (f1 := d_add d_zero (d_div d_one (d_lit 1 (-1000)))).
    assert (E0 : d_add d_zero (d_div (d_lit 1 1000) (d_lit 1 (-1000))) = d_inf false) by (vm_compute; reflexivity).
    rewrite E0. unfold quad_tail. change (d_eq (d_inf false) d_zero) with false.
    assert (E1 : d_gt (d_abs f1) d_maxsqrt = true) by (vm_compute; reflexivity). rewrite E1. cbv zeta.
    assert (E2 : d_div (d_opp (d_inf false)) f1 = d_inf true) by (vm_compute; reflexivity). rewrite E2.
    assert (E3 : d_gt (d_opp f1) (d_inf true) = true) by (vm_compute; reflexivity). rewrite E3. reflexivity.
  - vm_compute. reflexivity.
Qed.

(** two close roots may be reported as one double root: x^2 - (2 + 2^-51) x + (1 + 2^-51)
    has the roots 1 and 1 + 2^-51, both doubles *)
Theorem C69_double_root_refuted : exists a b c u v x : d64, fin a /\ fin b /\ fin c /\ fin u /\ fin v /\
  dR u < dR v /\ quad_root a b c (dR u) /\ quad_root a b c (dR v) /\ d_solve_quadratic [c; b; a] = [x].
Proof.
  exists d_one, (d_opp (d_lit (2 ^ 52 + 1) (-51))), (d_lit (2 ^ 51 + 1) (-51)), d_one, (d_lit (2 ^ 51 + 1) (-51)).
  assert (L : length (d_solve_quadratic [d_lit (2 ^ 51 + 1) (-51); d_opp (d_lit (2 ^ 52 + 1) (-51)); d_one]) = 1%nat)
    by (vm_compute; reflexivity).
  destruct (d_solve_quadratic _) as [|x [|y l]] eqn:E; try discriminate L. exists x.
  repeat (split; [reflexivity|]).
  assert (E1 : dR d_one = 1) by (unfold dR; vm_compute; lra).
  assert (E2 : dR (d_lit (2 ^ 51 + 1) (-51)) = 1 + / 2251799813685248) by (unfold dR; vm_compute; lra).
  assert (E3 : dR (d_opp (d_lit (2 ^ 52 + 1) (-51))) = - (2 + / 2251799813685248)) by (unfold dR; vm_compute; lra).
  unfold quad_root. rewrite E1, E2, E3. split; [lra|]. split; [lra|]. split; [lra|reflexivity].
Qed.

(** the golden ratio: x^2 - x - 1 meets the hypotheses *)
Example C69_ex : exists x1 x2 r1 r2, d_solve_quadratic [d_lit (-1) 0; d_lit (-1) 0; d_one] = [x1; x2] /\
  r1 < r2 /\ quad_root d_one (d_lit (-1) 0) (d_lit (-1) 0) r1 /\ quad_root d_one (d_lit (-1) 0) (d_lit (-1) 0) r2 /\
  close x1 r1 /\ close x2 r2.
Proof.
  assert (E1 : dR d_one = 1) by (unfold dR; vm_compute; lra).
  assert (E2 : dR (d_lit (-1) 0) = -1) by (unfold dR; vm_compute; lra).
  assert (B : bpow radix2 (-200) <= 1 <= bpow radix2 200).
  { change 1 with (bpow radix2 0). split; apply bpow_le; lia. }
  apply C69_accurate_partial; try reflexivity; unfold moderate; rewrite ?E1, ?E2.
  - rewrite Rabs_R1. exact B.
  - rewrite Rabs_left by lra. lra.
  - rewrite Rabs_left by lra. lra.
  - left. lra.
Qed.
(** x^2 + 2 x + 1: the double root is found *)
Example C69_ex_double : exists x, d_solve_quadratic [d_one; d_two; d_one] = [x] /\ d_eq x (d_lit (-1) 0) = true.
Proof.
  assert (L : match d_solve_quadratic [d_one; d_two; d_one] with [x] => d_eq x (d_lit (-1) 0) | _ => false end = true)
    by (vm_compute; reflexivity).
  destruct (d_solve_quadratic _) as [|x [|y l]]; try discriminate L. exists x. auto.
Qed.

Print Assumptions C69_accurate_partial.
Print Assumptions C69_backward_partial.
Print Assumptions C69_no_roots_partial.
Print Assumptions C69_linear.
Print Assumptions C69_drops_to_linear.
Print Assumptions C69_zero_constant.
Print Assumptions C69_overflow_refuted.
Print Assumptions C69_double_root_refuted.
