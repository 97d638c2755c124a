(** Facts about double arithmetic used by PropFloat.v: comparisons, the midpoint
    of two doubles, and a numbering of the finite doubles. *)
From Coq Require Import Lia Lra.
From Flocq Require Import Core Binary Bits Plus_error.
From Verif Require Import FloatModel FloatSpec.
Open Scope R_scope.

Notation dexp := (FLT_exp (-1074) 53).
Notation drnd := (round radix2 dexp ZnearestE).

#[local] Instance dexp_valid : Valid_exp dexp.
Proof. apply FLT_exp_valid. reflexivity. Qed.

#[local] Instance prec53 : Prec_gt_0 53.
Proof. reflexivity. Qed.

Lemma cmp_fin a b : fin a -> fin b -> b64_compare a b = Some (Rcompare (dR a) (dR b)).
Proof. intros Ha Hb. apply Bcompare_correct; assumption. Qed.

Lemma d_lt_fin a b : fin a -> fin b -> d_lt a b = true <-> dR a < dR b.
Proof.
  intros Ha Hb. unfold d_lt. rewrite cmp_fin by assumption.
  destruct (Rcompare_spec (dR a) (dR b)); split; intros; try discriminate; try reflexivity; lra.
Qed.
Lemma d_eq_fin a b : fin a -> fin b -> d_eq a b = true <-> dR a = dR b.
Proof.
  intros Ha Hb. unfold d_eq. rewrite cmp_fin by assumption.
  destruct (Rcompare_spec (dR a) (dR b)); split; intros; try discriminate; try reflexivity; lra.
Qed.
Lemma d_ge_fin a b : fin a -> fin b -> d_ge a b = true <-> dR b <= dR a.
Proof.
  intros Ha Hb. unfold d_ge, d_le. rewrite Bool.orb_true_iff, d_lt_fin, d_eq_fin by assumption. lra.
Qed.
Lemma fin_not_inf a : fin a -> d_isinf a = false.
Proof. destruct a; try discriminate; reflexivity. Qed.

Lemma dR_fmt a : generic_format radix2 dexp (dR a).
Proof. apply (generic_format_B2R 53 1024). Qed.

Lemma d_two_R : dR d_two = 2.
Proof. unfold dR. vm_compute. lra. Qed.

Lemma fmt_double x : generic_format radix2 dexp x -> generic_format radix2 dexp (2 * x).
Proof.
  intros H. apply generic_format_FLT. apply FLT_format_generic in H; [|easy].
  destruct H as [[m e] H1 H2 H3]. exists (Float radix2 m (e + 1)).
  - rewrite H1. unfold F2R; simpl. rewrite bpow_plus. change (bpow radix2 1) with 2. ring.
  - exact H2.
  - simpl in *. lia.
Qed.

Lemma gap_pos x : generic_format radix2 dexp x -> 0 < x ->
  ulp radix2 dexp x / 2 <= x - pred radix2 dexp x <= ulp radix2 dexp x.
Proof.
  intros Fx Px. rewrite pred_eq_pos by lra. unfold pred_pos.
  rewrite ulp_neq_0 by lra. unfold cexp.
  destruct (Req_bool_spec x (bpow radix2 (mag radix2 x - 1))) as [E|E].
  - set (m := mag_val radix2 x (mag radix2 x)) in *.
    assert (bpow radix2 (dexp m) <= 2 * bpow radix2 (dexp (m - 1))).
    { change 2 with (bpow radix2 1). rewrite <- bpow_plus. apply bpow_le. unfold FLT_exp. lia. }
    assert (bpow radix2 (dexp (m - 1)) <= bpow radix2 (dexp m)) by (apply bpow_le; unfold FLT_exp; lia).
    lra.
  - pose proof (bpow_gt_0 radix2 (dexp (mag radix2 x))). lra.
Qed.

Lemma gap_strict x : pred radix2 dexp x < x < succ radix2 dexp x.
Proof.
  destruct (Req_dec x 0) as [->|N].
  - rewrite pred_0, succ_0. pose proof (ulp_ge_0 radix2 dexp 0).
    assert (ulp radix2 dexp 0 <> 0); [|lra].
    pose proof (bpow_gt_0 radix2 (-1074)). rewrite (ulp_FLT_small radix2 (-1074) 53 0); [lra|].
    rewrite Rabs_R0. apply bpow_gt_0.
  - split; [apply pred_lt_id, N|apply succ_gt_id, N].
Qed.

Lemma gap_ratio x : generic_format radix2 dexp x ->
  (x - pred radix2 dexp x) / 2 <= succ radix2 dexp x - x /\
  (succ radix2 dexp x - x) / 2 <= x - pred radix2 dexp x.
Proof.
  intros Fx. destruct (Rtotal_order x 0) as [L|[->|L]].
  - assert (Fo : generic_format radix2 dexp (- x)) by (apply generic_format_opp, Fx).
    pose proof (gap_pos (- x) Fo ltac:(lra)) as G.
    rewrite <- (Ropp_involutive x). set (y := - x) in *.
    assert (Py : 0 < y) by (unfold y; lra).
    rewrite pred_opp, succ_opp. rewrite (succ_eq_pos _ _ y) by lra.
    lra.
  - rewrite pred_0, succ_0. pose proof (ulp_ge_0 radix2 dexp 0). lra.
  - pose proof (gap_pos x Fx L) as G. rewrite (succ_eq_pos _ _ x) by lra. lra.
Qed.

(** the midpoint computed as (u + v) / 2 *)
Definition d_mid (u v : d64) : d64 := d_div (d_add u v) d_two.

Section Mid.
Variables u v : d64.
Hypothesis Fu : fin u.
Hypothesis Fv : fin v.
Hypothesis Huv : dR u < dR v.
Hypothesis Bu : Rabs (dR u) < bpow radix2 1023.
Hypothesis Bv : Rabs (dR v) < bpow radix2 1023.

Let s := drnd (dR u + dR v).

Lemma sum_between : 2 * dR u <= s <= 2 * dR v.
Proof.
  unfold s. split.
  - rewrite <- (round_generic radix2 dexp ZnearestE (2 * dR u)).
    + apply round_le; [apply FLT_exp_valid; easy|apply valid_rnd_N|lra].
    + apply fmt_double, dR_fmt.
  - rewrite <- (round_generic radix2 dexp ZnearestE (2 * dR v)).
    + apply round_le; [apply FLT_exp_valid; easy|apply valid_rnd_N|lra].
    + apply fmt_double, dR_fmt.
Qed.

Lemma sum_fin : fin (d_add u v) /\ dR (d_add u v) = s.
Proof.
  pose proof (Bplus_correct 53 1024 eq_refl eq_refl binop_nan_pl64 BinarySingleNaN.mode_NE u v Fu Fv) as C.
  pose proof sum_between as SB. unfold s in SB.
  rewrite Rlt_bool_true in C.
  - destruct C as (C1 & C2 & _). split; [exact C2|exact C1].
  - change (round radix2 (SpecFloat.fexp 53 1024) (BinarySingleNaN.round_mode BinarySingleNaN.mode_NE)
              (B2R 53 1024 u + B2R 53 1024 v)) with s. fold s in SB.
    replace (bpow radix2 1024) with (2 * bpow radix2 1023)
      by (change 1024%Z with (1 + 1023)%Z; rewrite bpow_plus; reflexivity).
    apply Rabs_lt. apply Rabs_lt_inv in Bu. apply Rabs_lt_inv in Bv. lra.
Qed.

Lemma mid_fin : fin (d_mid u v) /\ dR (d_mid u v) = drnd (s / 2) /\
  dR u <= dR (d_mid u v) <= dR v.
Proof.
  destruct sum_fin as (F & E). pose proof sum_between as SB.
  assert (M : dR u <= drnd (s / 2) <= dR v).
  { split.
    - rewrite <- (round_generic radix2 dexp ZnearestE (dR u) (dR_fmt u)) at 1.
      apply round_le; [apply FLT_exp_valid; easy|apply valid_rnd_N|lra].
    - rewrite <- (round_generic radix2 dexp ZnearestE (dR v) (dR_fmt v)) at 1.
      apply round_le; [apply FLT_exp_valid; easy|apply valid_rnd_N|lra]. }
  assert (N2 : B2R 53 1024 d_two <> 0) by (change (dR d_two <> 0); rewrite d_two_R; lra).
  pose proof (Bdiv_correct 53 1024 eq_refl eq_refl binop_nan_pl64 BinarySingleNaN.mode_NE
                (d_add u v) d_two N2) as C.
  change (B2R 53 1024 d_two) with (dR d_two) in C. rewrite d_two_R in C.
  change (B2R 53 1024 (d_add u v)) with (dR (d_add u v)) in C. rewrite E in C.
  change (round radix2 (SpecFloat.fexp 53 1024) (BinarySingleNaN.round_mode BinarySingleNaN.mode_NE)
            (s / 2)) with (drnd (s / 2)) in C.
  rewrite Rlt_bool_true in C.
  - destruct C as (C1 & C2 & _). split; [|split].
    + unfold d_mid, d_div, b64_div. unfold Bits.b64_div. etransitivity; [exact C2|exact F].
    + exact C1.
    + change (dR (d_mid u v)) with (B2R 53 1024 (d_mid u v)).
      unfold d_mid at 1 2. unfold d_div, b64_div. rewrite C1. exact M.
  - apply Rabs_lt. apply Rabs_lt_inv in Bu. apply Rabs_lt_inv in Bv.
    assert (bpow radix2 1023 < bpow radix2 1024) by (apply bpow_lt; lia). lra.
Qed.

(** either the rounded sum halves exactly, or the sum was exact *)
Lemma half_exact : drnd (s / 2) = s / 2 \/ s = dR u + dR v.
Proof.
  destruct (Rle_or_lt (Rabs (dR u + dR v)) (bpow radix2 (53 + -1074))) as [L|L].
  - right. unfold s. apply round_generic; [apply valid_rnd_N|].
    apply FLT_format_plus_small; [easy|apply dR_fmt|apply dR_fmt|exact L].
  - left. apply round_generic; [apply valid_rnd_N|].
    assert (Fs : generic_format radix2 dexp s) by (apply generic_format_round; [apply FLT_exp_valid; easy|apply valid_rnd_N]).
    assert (Ls : bpow radix2 (53 + -1074) <= Rabs s).
    { unfold s. apply abs_round_ge_generic;
        [apply FLT_exp_valid; easy|apply valid_rnd_N| |apply Rlt_le, L].
      apply generic_format_FLT_bpow; [easy|lia]. }
    apply generic_format_FLT. apply FLT_format_generic in Fs; [|easy].
    destruct Fs as [[m e] H1 H2 H3]. simpl in H2, H3.
    (* e > -1074 because |s| >= 2^(53-1074) and |m| < 2^53 *)
    assert (He : (-1074 < e)%Z).
    { apply (lt_bpow radix2). apply Rmult_lt_reg_l with (bpow radix2 53); [apply bpow_gt_0|].
      rewrite <- !bpow_plus. eapply Rle_lt_trans; [exact Ls|].
      rewrite H1, <- F2R_Zabs. unfold F2R; simpl Fnum; simpl Fexp. rewrite bpow_plus.
      apply Rmult_lt_compat_r; [apply bpow_gt_0|].
      rewrite <- IZR_Zpower by lia. apply IZR_lt. exact H2. }
    exists (Float radix2 m (e - 1)); simpl; [|exact H2|lia].
    rewrite H1. unfold F2R; simpl. unfold Zminus. rewrite bpow_plus. change (bpow radix2 (- (1))) with (/ 2). field.
Qed.

Lemma mid_near t : generic_format radix2 dexp t ->
  Rabs (dR (d_mid u v) - (dR u + dR v) / 2) <= Rabs (t - (dR u + dR v) / 2).
Proof.
  destruct mid_fin as (_ & E & _). rewrite E.
  intros Ft. destruct half_exact as [H|H].
    - rewrite H.
      pose proof (round_N_pt radix2 dexp (fun x => negb (Z.even x)) (dR u + dR v)) as (_ & P).
      specialize (P (2 * t) (fmt_double _ Ft)). fold s in P.
      replace (s / 2 - (dR u + dR v) / 2) with ((s - (dR u + dR v)) / 2) by field.
      replace (t - (dR u + dR v) / 2) with ((2 * t - (dR u + dR v)) / 2) by field.
      unfold Rdiv. rewrite !Rabs_mult, (Rabs_pos_eq (/ 2)) by lra. 
      apply Rmult_le_compat_r; [lra|exact P].
    - rewrite H.
      pose proof (round_N_pt radix2 dexp (fun x => negb (Z.even x)) ((dR u + dR v) / 2)) as (_ & P).
      exact (P t Ft).
Qed.

Lemma mid_strict : (exists y, generic_format radix2 dexp y /\ dR u < y < dR v) ->
  dR u < dR (d_mid u v) < dR v.
Proof.
  intros (y & Fy & Hy). pose proof (mid_near y Fy) as Near.
  assert (Q : Rabs (y - (dR u + dR v) / 2) < (dR v - dR u) / 2) by (apply Rabs_lt; lra).
  assert (Q2 : Rabs (dR (d_mid u v) - (dR u + dR v) / 2) < (dR v - dR u) / 2) by lra.
  apply Rabs_lt_inv in Q2. lra.
Qed.

(** when the midpoint is strictly inside, both halves are at most 3/4 of the
    interval *)
Lemma mid_shrinks : dR u < dR (d_mid u v) < dR v ->
  Rabs (dR (d_mid u v) - (dR u + dR v) / 2) <= (dR v - dR u) / 4.
Proof.
  intros [L1 L2]. set (m := dR (d_mid u v)) in *.
  assert (Fm : generic_format radix2 dexp m) by apply dR_fmt.
  destruct (gap_ratio m Fm) as (G1 & G2).
  pose proof (mid_near _ (generic_format_pred radix2 dexp m Fm)) as N1.
  pose proof (mid_near _ (generic_format_succ radix2 dexp m Fm)) as N2.
  pose proof (pred_le_id radix2 dexp m) as P1. pose proof (succ_ge_id radix2 dexp m) as P2.
  pose proof (succ_le_lt radix2 dexp m (dR v) Fm (dR_fmt v) L2) as S1.
  pose proof (pred_ge_gt radix2 dexp (dR u) m (dR_fmt u) Fm L1) as S2.
  destruct (gap_strict m) as (PL & SL).
  fold m in N1, N2.
  revert N1 N2. unfold Rabs. repeat destruct (Rcase_abs _); lra.
Qed.
End Mid.

(* ------------------------------------------------------------------ *)
(** ** numbering the finite doubles *)
Definition rank_abs (m : positive) (e : Z) : Z := (Zpos m + (e + 1074) * 2 ^ 52)%Z.
Definition rank (a : d64) : Z :=
  match a with
  | B754_finite _ _ s m e _ => cond_Zopp s (rank_abs m e)
  | _ => 0%Z
  end.

Lemma bounded_inv m e : SpecFloat.bounded 53 1024 m e = true ->
  (-1074 <= e <= 971 /\ Zpos m < 2 ^ 53 /\ (e = -1074 \/ 2 ^ 52 <= Zpos m))%Z.
Proof.
  intros H. unfold SpecFloat.bounded in H. apply andb_prop in H. destruct H as (H1 & H2).
  apply Zle_bool_imp_le in H2. unfold SpecFloat.canonical_mantissa in H1.
  apply Zeq_bool_eq in H1. unfold SpecFloat.fexp, SpecFloat.emin in H1.
  rewrite Digits.Zpos_digits2_pos in H1.
  pose proof (Zdigits_correct radix2 (Zpos m)) as D. rewrite Z.abs_eq in D by lia.
  set (d := Zdigits radix2 (Zpos m)) in *.
  change (radix_val radix2) with 2%Z in D.
  assert (Hd : (0 < d)%Z) by (apply Zdigits_gt_0; lia).
  assert (d <= 53)%Z by lia.
  split; [lia|]. split.
  - apply Z.lt_le_trans with (2 ^ d)%Z; [apply D|]. apply Z.pow_le_mono_r; lia.
  - destruct (Z.eq_dec e (-1074)) as [|Hne]; [left; assumption|right].
    assert (d = 53)%Z by lia. replace 52%Z with (d - 1)%Z by lia. apply D.
Qed.

Lemma rank_abs_le m1 e1 m2 e2 :
  SpecFloat.bounded 53 1024 m1 e1 = true -> SpecFloat.bounded 53 1024 m2 e2 = true ->
  (rank_abs m2 e2 <= rank_abs m1 e1)%Z ->
  F2R (Float radix2 (Zpos m2) e2) <= F2R (Float radix2 (Zpos m1) e1).
Proof.
  intros B1 B2 H. apply bounded_inv in B1. apply bounded_inv in B2. unfold rank_abs in H.
  destruct B1 as (E1 & M1 & C1). destruct B2 as (E2 & M2 & C2).
  destruct (Z.lt_trichotomy e1 e2) as [L|[L|L]].
  - exfalso. assert (2 ^ 52 <= Zpos m2)%Z by lia. nia.
  - subst e2. apply F2R_le. lia.
  - assert (2 ^ 52 <= Zpos m1)%Z by lia.
    unfold F2R; simpl Fnum; simpl Fexp.
    apply Rle_trans with (IZR (2 ^ 53) * bpow radix2 e2).
    { apply Rmult_le_compat_r; [apply bpow_ge_0|]. apply IZR_le. lia. }
    apply Rle_trans with (IZR (2 ^ 52) * bpow radix2 e1).
    { change (2 ^ 53)%Z with (2 ^ 52 * 2)%Z. rewrite mult_IZR, Rmult_assoc.
      apply Rmult_le_compat_l; [apply IZR_le; lia|].
      change 2 with (bpow radix2 1). rewrite <- bpow_plus. apply bpow_le. lia. }
    apply Rmult_le_compat_r; [apply bpow_ge_0|]. apply IZR_le. lia.
Qed.

Lemma rank_abs_bound m e : SpecFloat.bounded 53 1024 m e = true ->
  (0 < rank_abs m e <= 2047 * 2 ^ 52 - 1)%Z.
Proof. intros B. apply bounded_inv in B. unfold rank_abs. lia. Qed.

Lemma rank_bound a : (Z.abs (rank a) <= 2047 * 2 ^ 52 - 1)%Z.
Proof.
  destruct a as [s|s|s pl H|s m e H]; simpl rank; try (cbn; lia).
  pose proof (rank_abs_bound m e H). destruct s; cbn [cond_Zopp]; lia.
Qed.

Lemma F2R_pos m e : 0 < F2R (Float radix2 (Zpos m) e).
Proof. apply F2R_gt_0. reflexivity. Qed.

Lemma dR_finite s m e H : dR (B754_finite 53 1024 s m e H) =
  (if s then - F2R (Float radix2 (Zpos m) e) else F2R (Float radix2 (Zpos m) e))%R.
Proof. unfold dR, B2R. destruct s; cbn [cond_Zopp]; [apply F2R_Zopp|reflexivity]. Qed.

Lemma rank_mono a b : fin a -> fin b -> dR a < dR b -> (rank a < rank b)%Z.
Proof.
  intros Fa Fb L.
  destruct a as [s1|s1|s1 p1 H1|s1 m1 e1 H1]; try discriminate Fa;
  destruct b as [s2|s2|s2 p2 H2|s2 m2 e2 H2]; try discriminate Fb; simpl rank.
  - exfalso. unfold dR in L; simpl in L; lra.
  - rewrite dR_finite in L. change (dR (B754_zero 53 1024 s1)) with 0 in L.
    pose proof (F2R_pos m2 e2). pose proof (rank_abs_bound _ _ H2).
    destruct s2; cbn [cond_Zopp]; [lra|lia].
  - rewrite dR_finite in L. change (dR (B754_zero 53 1024 s2)) with 0 in L.
    pose proof (F2R_pos m1 e1). pose proof (rank_abs_bound _ _ H1).
    destruct s1; cbn [cond_Zopp]; [lia|lra].
  - rewrite !dR_finite in L.
    pose proof (F2R_pos m1 e1). pose proof (F2R_pos m2 e2).
    pose proof (rank_abs_bound _ _ H1). pose proof (rank_abs_bound _ _ H2).
    destruct s1, s2; cbn [cond_Zopp]; try lra; try lia.
    + destruct (Z_le_gt_dec (rank_abs m1 e1) (rank_abs m2 e2)) as [G|G]; [|lia].
      pose proof (rank_abs_le m2 e2 m1 e1 H2 H1 G). lra.
    + destruct (Z_le_gt_dec (rank_abs m2 e2) (rank_abs m1 e1)) as [G|G]; [|lia].
      pose proof (rank_abs_le m1 e1 m2 e2 H1 H2 G). lra.
Qed.

(* ------------------------------------------------------------------ *)
(** ** how often an interval of doubles can shrink by a quarter *)
Lemma fmt_int x : generic_format radix2 dexp x -> exists k, x = IZR k * bpow radix2 (-1074).
Proof.
  intros H. apply FLT_format_generic in H; [|easy]. destruct H as [[m e] H1 _ H3]. simpl in H3.
  exists (m * 2 ^ (e + 1074))%Z. rewrite H1. unfold F2R; simpl Fnum; simpl Fexp.
  rewrite mult_IZR. change 2%Z with (radix_val radix2). rewrite IZR_Zpower by lia.
  rewrite Rmult_assoc, <- bpow_plus. do 2 f_equal. lia.
Qed.

Lemma fmt_sep x y : generic_format radix2 dexp x -> generic_format radix2 dexp y -> x < y ->
  bpow radix2 (-1074) <= y - x.
Proof.
  intros Fx Fy L. destruct (fmt_int x Fx) as (a & ->). destruct (fmt_int y Fy) as (b & ->).
  pose proof (bpow_gt_0 radix2 (-1074)) as P.
  assert (IZR a < IZR b) by (eapply Rmult_lt_reg_r; eassumption).
  assert (a + 1 <= b)%Z by (apply lt_IZR in H; lia).
  apply IZR_le in H0. rewrite plus_IZR in H0. nra.
Qed.

Lemma pass_bound j x y : generic_format radix2 dexp x -> generic_format radix2 dexp y -> x < y ->
  y - x <= (3 / 4) ^ j * bpow radix2 1024 -> (Z.of_nat j <= 5054)%Z.
Proof.
  intros Fx Fy L H. pose proof (fmt_sep x y Fx Fy L) as Sp.
  destruct (Z_le_gt_dec (Z.of_nat j) 5054) as [|G]; [assumption|exfalso].
  destruct (Z_of_nat_complete 5055 ltac:(lia)) as (n & En).
  assert (Q : (3 / 4) ^ j <= (3 / 4) ^ n).
  { replace j with (n + (j - n))%nat by lia. rewrite pow_add.
    rewrite <- (Rmult_1_r ((3 / 4) ^ n)) at 2. apply Rmult_le_compat_l; [apply pow_le; lra|].
    rewrite <- (pow1 (j - n)). apply pow_incr. lra. }
  assert (B : bpow radix2 (-1074) <= (3 / 4) ^ n * bpow radix2 1024).
  { eapply Rle_trans; [exact Sp|]. eapply Rle_trans; [exact H|].
    apply Rmult_le_compat_r; [apply bpow_ge_0|exact Q]. }
  assert (Z : (3 ^ 5055 * 2 ^ 2098 < 4 ^ 5055)%Z) by (vm_compute; reflexivity).
  apply IZR_lt in Z. rewrite mult_IZR in Z.
  assert (E3 : IZR (3 ^ 5055) = 3 ^ n) by (rewrite (pow_IZR 3 n), <- En; reflexivity).
  assert (E4 : IZR (4 ^ 5055) = 4 ^ n) by (rewrite (pow_IZR 4 n), <- En; reflexivity).
  assert (E2 : IZR (2 ^ 2098) = bpow radix2 2098) by (rewrite <- IZR_Zpower by lia; reflexivity).
  rewrite E3, E4, E2 in Z. unfold Rdiv in B. rewrite Rpow_mult_distr, pow_inv in B.
  assert (P4 : 0 < 4 ^ n) by (apply pow_lt; lra).
  apply (Rmult_le_compat_r (bpow radix2 1074)) in B; [|apply bpow_ge_0].
  rewrite Rmult_assoc, <- !bpow_plus in B.
  change (bpow radix2 (-1074 + 1074)) with 1 in B. change (1024 + 1074)%Z with 2098%Z in B.
  apply (Rmult_le_compat_l (4 ^ n)) in B; [|lra].
  replace (4 ^ n * (3 ^ n * / 4 ^ n * bpow radix2 2098)) with (3 ^ n * bpow radix2 2098) in B
    by (field; lra).
  lra.
Qed.
