(** C02 and C62 in doubles: the rounding error of evaluating a polynomial, and
    the estimate of it that the code computes. *)
From Coq Require Import List Reals Lra Lia Arith Psatz ZArith.
From Flocq Require Import Core Binary Bits Relative.
From Verif Require Import Outcome Num PolyModel PolySpec PolyBase PolyProofs NumericProofs.
From Verif Require Import FloatModel FloatSpec FloatProofs FloatQuad PropFloatExpr FloatSolver PropFloatSolver.
Import ListNotations.
Open Scope R_scope.

(** ** Model *)
(** polynomial.hpp:634: eps = 1.06 / std::pow(2, mantissa_digits) *)
Definition d_unit : d64 := d_div (d_lit 4773815605012726 (-52)) (d_lit 1 53).
(** polynomial.hpp:622-645 precision(f, x), in doubles; an infinite x gives 0 *)
Definition d_precision (f : list d64) (x : d64) : d64 :=
  if d_isinf x then d_zero else poly_precision (H := D_num) d_unit f x.

(** ** Rounding errors over the reals *)
Section Horner.
Variables (u eta : R) (rnd : R -> R) (x : R).
Hypothesis u0 : 0 <= u.
Hypothesis rnd_ok : forall y, Rabs (rnd y - y) <= u * Rabs y + eta.

Fixpoint hs (f : list R) : R := match f with [] => 0 | a :: t => rnd (rnd (hs t * x) + a) end.
Fixpoint Mw (n : nat) (f : list R) : R := match f with [] => 0 | a :: t => (1 + u) ^ n * Rabs a + Rabs x * Mw (2 + n) t end.
Fixpoint Ew (n : nat) (f : list R) : R := match f with [] => 0 | a :: t => ((1 + u) ^ n - 1) * Rabs a + Rabs x * Ew (2 + n) t end.
Fixpoint Zw (f : list R) : R := match f with [] => 0 | a :: t => (2 + u) + (1 + u) ^ 2 * (Rabs x * Zw t) end.

Lemma rnd_abs y : Rabs (rnd y) <= (1 + u) * Rabs y + eta.
Proof. pose proof (rnd_ok y). pose proof (Rabs_triang (rnd y - y) y). replace (rnd y - y + y) with (rnd y) in H0 by ring. lra. Qed.
Lemma Mw_shift f : forall n, Mw (2 + n) f = (1 + u) ^ 2 * Mw n f.
Proof. induction f as [|a t IH]; intros n; cbn [Mw]; [ring|]. rewrite IH. rewrite pow_add. ring. Qed.
Lemma Ew_shift f : forall n, Ew (2 + n) f = (2 * u + u ^ 2) * Mw n f + Ew n f.
Proof. induction f as [|a t IH]; intros n; cbn [Mw Ew]; [ring|]. rewrite IH. rewrite pow_add. ring. Qed.
Lemma Zw_pos f : 0 <= Zw f.
Proof.
  induction f as [|a t IH]; cbn [Zw]; [lra|]. pose proof (Rabs_pos x). assert (0 <= Rabs x * Zw t) by (apply Rmult_le_pos; auto).
  assert (0 <= (1 + u) ^ 2) by (apply pow_le; lra). assert (0 <= (1 + u) ^ 2 * (Rabs x * Zw t)) by (apply Rmult_le_pos; auto). lra.
Qed.
Lemma hs_abs f : Rabs (hs f) <= Mw 1 f + eta * Zw f.
Proof.
  induction f as [|a t IH]; [simpl; rewrite Rabs_R0; lra|]. cbn [hs Mw Zw]. rewrite Mw_shift.
  eapply Rle_trans; [apply rnd_abs|]. pose proof (rnd_abs (hs t * x)) as H1. rewrite Rabs_mult in H1.
  pose proof (Rabs_triang (rnd (hs t * x)) a) as H2. pose proof (Rabs_pos x). pose proof (Rabs_pos (hs t)).
  assert (H3 : Rabs (hs t) * Rabs x <= (Mw 1 t + eta * Zw t) * Rabs x) by (apply Rmult_le_compat_r; auto).
  assert (H4 : (1 + u) * (Rabs (hs t) * Rabs x) <= (1 + u) * ((Mw 1 t + eta * Zw t) * Rabs x)) by (apply Rmult_le_compat_l; lra).
  assert (H5 : Rabs (rnd (hs t * x) + a) <= (1 + u) * ((Mw 1 t + eta * Zw t) * Rabs x) + eta + Rabs a) by lra.
  apply (Rmult_le_compat_l (1 + u)) in H5; [|lra]. eapply Rle_trans; [apply Rplus_le_compat_r, H5|]. apply Req_le. ring.
Qed.
Lemma hs_error f : Rabs (hs f - pval f x) <= Ew 1 f + eta * Zw f.
Proof.
  induction f as [|a t IH]; [simpl; rewrite pval_nil, Rminus_0_r, Rabs_R0; lra|].
  cbn [hs Ew Zw]. rewrite Ew_shift, pval_cons.
  pose proof (hs_abs t) as Hs. pose proof (rnd_ok (rnd (hs t * x) + a)) as H1. pose proof (rnd_ok (hs t * x)) as H2.
  set (p := rnd (hs t * x)) in *. set (r := rnd (p + a)) in *.
  assert (H3 : Rabs (p + a) <= (1 + u) * (Rabs (hs t) * Rabs x) + eta + Rabs a).
  { rewrite <- Rabs_mult. eapply Rle_trans; [apply Rabs_triang|]. pose proof (rnd_abs (hs t * x)) as H4. fold p in H4. lra. }
  rewrite Rabs_mult in H2.
  replace (r - (a + x * pval t x)) with ((r - (p + a)) + ((p - hs t * x) + (hs t - pval t x) * x)) by ring.
  eapply Rle_trans; [apply Rabs_triang|]. eapply Rle_trans; [apply Rplus_le_compat_l; apply Rabs_triang|]. rewrite (Rabs_mult (hs t - pval t x)).
  pose proof (Rabs_pos x) as X0.
  assert (A1 : Rabs (hs t - pval t x) * Rabs x <= (Ew 1 t + eta * Zw t) * Rabs x) by (apply Rmult_le_compat_r; auto).
  assert (A2 : Rabs (hs t) * Rabs x <= (Mw 1 t + eta * Zw t) * Rabs x) by (apply Rmult_le_compat_r; auto).
  set (h := Rabs (hs t) * Rabs x) in *. set (m := (Mw 1 t + eta * Zw t) * Rabs x) in *.
  assert (A3 : u * Rabs (p + a) <= u * ((1 + u) * h + eta + Rabs a)) by (apply Rmult_le_compat_l; auto).
  assert (A4 : u * h <= u * m) by (apply Rmult_le_compat_l; auto).
  assert (A5 : u * (u * h) <= u * (u * m)) by (apply Rmult_le_compat_l; auto).
  replace (((1 + u) ^ 1 - 1) * Rabs a + Rabs x * ((2 * u + u ^ 2) * Mw 1 t + Ew 1 t) + eta * (2 + u + (1 + u) ^ 2 * (Rabs x * Zw t)))
    with (u * Rabs a + (2 * (u * m) + u * (u * m)) + (Ew 1 t + eta * Zw t) * Rabs x + eta * (2 + u)) by (unfold m; ring). lra.
Qed.

Lemma bern k : u <= 1 -> 1 - INR k * u <= (1 - u) ^ k.
Proof.
  intros Hu. induction k as [|k IH]; [simpl; lra|]. rewrite S_INR. cbn [pow].
  destruct (Rle_dec 0 (1 - INR k * u)) as [Q|Q].
  - pose proof (pos_INR k). assert ((1 - u) * (1 - INR k * u) <= (1 - u) * (1 - u) ^ k) by (apply Rmult_le_compat_l; lra). nra.
  - pose proof (pow_le (1 - u) k ltac:(lra)). assert (0 <= (1 - u) * (1 - u) ^ k) by (apply Rmult_le_pos; lra). lra.
Qed.
Lemma pow_bound n : INR n * u <= / 1000 -> (1 + u) ^ n - 1 <= 1.01 * (INR n * u).
Proof.
  intros Hn. destruct n as [|n]; [simpl; lra|].
  assert (Hu : u <= / 1000). { rewrite S_INR in Hn. pose proof (pos_INR n). nra. }
  pose proof (bern (S n) ltac:(lra)) as B. set (k := S n) in *. set (d := INR k * u) in *.
  assert (P : (1 + u) ^ k * (1 - u) ^ k <= 1).
  { rewrite <- Rpow_mult_distr. replace ((1 + u) * (1 - u)) with (1 - u * u) by ring.
    replace 1 with (1 ^ k) at 2 by apply pow1. apply pow_incr. assert (0 <= u * u) by (apply Rmult_le_pos; auto). assert (u * u <= 1) by (rewrite <- (Rmult_1_r 1); apply Rmult_le_compat; lra). lra. }
  assert (0 <= d) by (unfold d; pose proof (pos_INR k); nra).
  pose proof (pow_R1_Rle (1 + u) k ltac:(lra)) as G1.
  assert ((1 + u) ^ k * (1 - d) <= 1). { eapply Rle_trans; [|exact P]. apply Rmult_le_compat_l; lra. }
  nra.
Qed.
End Horner.

#[local] Instance dexp_valid' : Valid_exp dexp.
Proof. apply FLT_exp_valid. reflexivity. Qed.

Section Sums.
Variables (u x : R).
Hypothesis u0 : 0 <= u.
Definition Wsum (n : nat) (f : list R) : R := bsum (length f) (fun i => INR (n + 2 * i) * Rabs (nth i f 0) * Rabs x ^ i).
Definition Ssum (m : nat) : R := bsum m (fun i => Rabs x ^ i).

Lemma Wsum_cons n a t : Wsum n (a :: t) = INR n * Rabs a + Rabs x * Wsum (2 + n) t.
Proof.
  unfold Wsum. cbn [length]. rewrite bsum_shift. cbn [nth]. rewrite Nat.mul_0_r, Nat.add_0_r. rewrite <- bsum_scal. f_equal; [simpl (_ ^ 0); ring|].
  apply bsum_ext. intros i _. replace (n + 2 * S i)%nat with (2 + n + 2 * i)%nat by lia. cbn [nth]. simpl (_ ^ S i). ring.
Qed.
Lemma Ssum_S m : Ssum (S m) = 1 + Rabs x * Ssum m.
Proof. unfold Ssum. rewrite bsum_shift, <- bsum_scal. f_equal. Qed.
Lemma Ssum_ge m : (1 <= m)%nat -> 1 <= Ssum m.
Proof.
  destruct m as [|m]; [lia|]. intros _. rewrite Ssum_S. assert (0 <= Ssum m).
  { unfold Ssum. induction m as [|m IH]; [cbn; lra|]. cbn [bsum]. pose proof (pow_le (Rabs x) m (Rabs_pos x)). lra. }
  pose proof (Rabs_pos x). assert (0 <= Rabs x * Ssum m) by (apply Rmult_le_pos; auto). lra.
Qed.
Lemma Ew_Wsum f : forall n, INR (n + 2 * length f) * u <= / 1000 -> Ew u x n f <= 1.01 * u * Wsum n f.
Proof.
  induction f as [|a t IH]; intros n Hn; [cbn; lra|]. cbn [Ew]. rewrite Wsum_cons.
  assert (Hn0 : INR n * u <= / 1000).
  { eapply Rle_trans; [|exact Hn]. apply Rmult_le_compat_r; auto. apply le_INR. lia. }
  assert (IH' : Ew u x (2 + n) t <= 1.01 * u * Wsum (2 + n) t).
  { apply IH. eapply Rle_trans; [|exact Hn]. apply Rmult_le_compat_r; auto. apply le_INR. simpl. lia. }
  pose proof (pow_bound u u0 n Hn0) as P. pose proof (Rabs_pos a). pose proof (Rabs_pos x).
  assert (((1 + u) ^ n - 1) * Rabs a <= 1.01 * (INR n * u) * Rabs a) by (apply Rmult_le_compat_r; auto).
  assert (Rabs x * Ew u x (2 + n) t <= Rabs x * (1.01 * u * Wsum (2 + n) t)) by (apply Rmult_le_compat_l; auto). lra.
Qed.
Lemma Zw_Ssum f : forall n, u <= / 1000 -> INR (n + 2 * length f) * u <= / 1000 -> (1 + u) ^ n * Zw u x f <= 2.1 * Ssum (length f).
Proof.
  induction f as [|a t IH]; intros n Hu Hn; [cbn; lra|]. cbn [Zw length]. rewrite Ssum_S.
  assert (Hn0 : INR n * u <= / 1000).
  { eapply Rle_trans; [|exact Hn]. apply Rmult_le_compat_r; auto. apply le_INR. lia. }
  assert (IH' : (1 + u) ^ (2 + n) * Zw u x t <= 2.1 * Ssum (length t)).
  { apply IH; auto. eapply Rle_trans; [|exact Hn]. apply Rmult_le_compat_r; auto. apply le_INR. simpl. lia. }
  pose proof (pow_bound u u0 n Hn0) as P. pose proof (Rabs_pos x).
  assert (Rabs x * ((1 + u) ^ (2 + n) * Zw u x t) <= Rabs x * (2.1 * Ssum (length t))) by (apply Rmult_le_compat_l; auto).
  rewrite pow_add in *. assert ((1 + u) ^ n * (2 + u) <= 2.1) by nra. nra.
Qed.
End Sums.

(** ** doubles *)
Lemma add_fin_inv a b : fin (d_add a b) -> fin a /\ fin b.
Proof.
  intros F. unfold d_add, b64_plus in F. destruct a as [s|s|s p e|s m e B], b as [t|t|t q g|t n g B']; try (split; reflexivity);
    try discriminate F; destruct s, t; discriminate F.
Qed.
Lemma mul_fin_inv a b : fin (d_mul a b) -> fin a /\ fin b.
Proof.
  intros F. unfold d_mul, b64_mult in F. destruct a as [s|s|s p e|s m e B], b as [t|t|t q g|t n g B']; try (split; reflexivity);
    discriminate F.
Qed.
Lemma add_val a b : fin (d_add a b) -> dR (d_add a b) = drnd (dR a + dR b).
Proof. intros F. destruct (add_fin_inv _ _ F) as (Fa & Fb). apply (add_cong a b a b); auto using same_refl. Qed.
Lemma mul_val a b : fin (d_mul a b) -> dR (d_mul a b) = drnd (dR a * dR b).
Proof. intros F. destruct (mul_fin_inv _ _ F) as (Fa & Fb). apply (mul_cong a b a b); auto using same_refl. Qed.

Fixpoint hsd (x : d64) (f : list d64) : d64 := match f with [] => d_zero | a :: t => d_add (d_mul (hsd x t) x) a end.
Lemma hsd_val x f : fin (hsd x f) -> dR (hsd x f) = hs drnd (dR x) (map dR f).
Proof.
  induction f as [|a t IH]; intros F; [reflexivity|]. cbn [hsd] in F |- *. cbn [map hs].
  destruct (add_fin_inv _ _ F) as (Fm & _). destruct (mul_fin_inv _ _ Fm) as (Fh & _).
  rewrite (add_val _ _ F), (mul_val _ _ Fm), (IH Fh). reflexivity.
Qed.
Lemma d_eval_hsd f x : (1 <= porder f)%nat -> poly_eval (H := D_num) f x = hsd x f.
Proof.
  intros Ho. destruct f as [|a t]; [cbn in Ho; lia|]. unfold poly_eval. destruct (Nat.eqb_spec (porder (a :: t)) 0); [lia|].
  set (N := porder (a :: t)) in *. assert (OL : @length d64 (a :: t) = S N) by reflexivity. clearbody N. cbn [nadd nmul D_num n0]. cbn [hsd]. unfold get at 2. cbn [nth]. do 2 f_equal.
  pose proof (for_down_inv (fun j s => (j <= N)%nat -> s = hsd x (skipn (S N - j) (a :: t))) (fun i s => d_add (d_mul s x) (get (H := D_num) (a :: t) i)) N 0 N d_zero) as P.
  rewrite P.
  - replace (S N - (0 + N))%nat with 1%nat by lia. reflexivity.
  - intros _. rewrite Nat.sub_0_r. rewrite skipn_all2; [reflexivity|]. rewrite OL. apply Nat.le_refl.
  - intros j s Hj IH Hle. rewrite IH by lia. cbn [Nat.add]. replace (S N - S j)%nat with (N - j)%nat by lia.
    replace (S N - j)%nat with (S (N - j)) by lia. unfold get.
    assert (HL : (N - j < length (a :: t))%nat) by (rewrite OL; lia). revert HL. generalize (N - j)%nat. generalize (a :: t). clear.
    induction l as [|b l IHl]; intros k Hk; [simpl in Hk; lia|]. destruct k as [|k]; [reflexivity|]. cbn [skipn nth]. cbn [skipn] in IHl. simpl in Hk. rewrite <- IHl by lia. reflexivity.
  - lia.
Qed.
Lemma nofnat_D n : INR n <= 2 ^ 53 -> fin (nofnat (H := D_num) n) /\ dR (nofnat (H := D_num) n) = INR n.
Proof.
  induction n as [|n IH]; intros Hn; [split; [reflexivity|]; reflexivity|].
  rewrite S_INR in Hn. destruct IH as (F & E); [lra|]. cbn [nofnat]. cbn [nadd n1 D_num].
  pose proof (pos_INR n) as P0.
  destruct (add_R (nofnat (H := D_num) n) d_one F eq_refl) as (F1 & E1 & _).
  - rewrite E, d_one_R. rewrite Rabs_pos_eq by lra. eapply Rle_trans; [exact Hn|]. rewrite bpow_powerRZ. change (IZR radix2) with 2.
    change 53%nat with (Z.to_nat 53). rewrite pow_powerRZ. change (Z.of_nat (Z.to_nat 53)) with 53%Z. rewrite <- (bpow_powerRZ radix2), <- (bpow_powerRZ radix2). apply bpow_le. lia.
  - split; [exact F1|]. rewrite E1, E, d_one_R, S_INR. rewrite <- S_INR, INR_IZR_INZ. apply rnd_Z.
    rewrite Z.abs_eq by lia. apply le_IZR. rewrite <- INR_IZR_INZ, S_INR. change (IZR (2 ^ 53)) with (IZR (Z.pow 2 53)).
    replace (IZR (2 ^ 53)) with (2 ^ 53); [lra|]. rewrite pow_IZR. f_equal.
Qed.
Lemma nabs_D a : fin a -> fin (nabs (H := D_num) a) /\ dR (nabs (H := D_num) a) = Rabs (dR a).
Proof.
  intros F. unfold nabs. cbn [nltb nopp n0 D_num]. destruct (d_lt a d_zero) eqn:E.
  - assert (L : dR a < 0) by (apply d_lt_fin in E; auto). destruct (opp_R a F) as (F1 & E1 & _). split; [exact F1|]. rewrite E1, Rabs_left; auto.
  - split; [exact F|]. rewrite Rabs_pos_eq; auto. apply Rnot_lt_le. intros L.
    assert (d_lt a d_zero = true) by (apply d_lt_fin; auto). congruence.
Qed.

Lemma dl_small n : INR n <= 2 ^ 41 -> INR n * dl <= / 4096.
Proof.
  intros H. unfold dl. replace (bpow radix2 (-53)) with (/ 2 ^ 53) by (simpl; lra).
  apply Rmult_le_reg_r with (2 ^ 53); [apply pow_lt; lra|]. rewrite Rmult_assoc, Rinv_l, Rmult_1_r by (apply pow_nonzero; lra).
  eapply Rle_trans; [exact H|]. simpl. lra.
Qed.
Lemma rnd_lo y : 0 <= y -> (1 - dl) * y - tiny <= drnd y.
Proof. intros H. pose proof (rnd_err y) as E. rewrite (Rabs_pos_eq y) in E by auto. apply Rabs_le_inv in E. lra. Qed.
Lemma rnd_norm y : bpow radix2 (-1022) <= y -> (1 - dl) * y <= drnd y <= (1 + dl) * y.
Proof.
  intros H. pose proof (bpow_gt_0 radix2 (-1022)).
  pose proof (relative_error_N_FLT radix2 (-1074) 53 eq_refl (fun x => negb (Z.even x)) y) as E.
  rewrite (Rabs_pos_eq y) in E by lra. specialize (E H).
  assert (D : / 2 * bpow radix2 (- (53) + 1) = dl) by (unfold dl; simpl; lra).
  rewrite D in E. apply Rabs_le_inv in E. fold dexp in E. change (round radix2 (FLT_exp (-1074) 53) (Znearest (fun x => negb (Z.even x))) y) with (drnd y) in E. lra.
Qed.

Section Precision.
Variables (f : list d64) (x : d64).
Let N := porder f.
Let a := Rabs (dR x).
Hypothesis f_ne : f <> [].
Hypothesis f_fin : Forall (fun c : d64 => fin c) f.
Hypothesis x_fin : fin x.
Hypothesis N_le : INR N <= 2 ^ 39.
Hypothesis c0 : 0 <= dR (nth 0 f d_zero).
Hypothesis big : dR x = 0 \/ bpow radix2 (-1000) <= a ^ N.

Let c (i : nat) : R := Rabs (dR (nth i f d_zero)).
Let L (i : nat) : R := bsum i (fun k => INR (1 + 2 * k) * c k * a ^ k).

Lemma a_pos : 0 <= a.
Proof. apply Rabs_pos. Qed.
Lemma pow_big i : dR x <> 0 -> (i <= N)%nat -> bpow radix2 (-1000) <= a ^ i.
Proof.
  intros Nx Hi. destruct big as [E|B]; [contradiction|]. assert (0 < a) by (apply Rabs_pos_lt; auto).
  destruct (Rle_or_lt 1 a) as [G|G].
  - pose proof (pow_R1_Rle a i G). assert (bpow radix2 (-1000) <= bpow radix2 0) by (apply bpow_le; lia). simpl (bpow radix2 0) in *. lra.
  - eapply Rle_trans; [exact B|]. replace N with (i + (N - i))%nat by lia. rewrite pow_add.
    rewrite <- (Rmult_1_r (a ^ i)) at 2. apply Rmult_le_compat_l; [apply pow_le; lra|].
    rewrite <- (pow1 (N - i)). apply pow_incr. lra.
Qed.
Lemma small_pow i : (i <= 2 * N + 4)%nat -> 999 / 1000 <= (1 - dl) ^ i /\ (1 + dl) ^ i <= 1001 / 1000.
Proof.
  intros Hi. pose proof dl_bounds as (D1 & D2).
  assert (B : INR i * dl <= / 4096).
  { apply dl_small. apply le_INR in Hi. rewrite plus_INR, mult_INR in Hi. simpl (INR 2) in Hi. simpl (INR 4) in Hi. simpl in N_le |- *. lra. }
  pose proof (bern dl ltac:(lra) i ltac:(lra)). pose proof (pow_bound dl ltac:(lra) i ltac:(lra)). split; lra.
Qed.

(** the power of x *)
Definition xn_ok (i : nat) (xn : d64) : Prop :=
  (i <= N)%nat -> fin xn -> (1 - dl) ^ i * a ^ i <= dR xn <= (1 + dl) ^ i * a ^ i.
Lemma xn_step i xn : (1 <= i)%nat -> xn_ok i xn -> xn_ok (S i) (d_mul xn (nabs (H := D_num) x)).
Proof.
  intros H1 IH Hi F. destruct (mul_fin_inv _ _ F) as (F1 & F2). rewrite (mul_val _ _ F).
  destruct (nabs_D x x_fin) as (_ & ->). fold a. specialize (IH ltac:(lia) F1). pose proof dl_bounds as (D1 & D2). pose proof a_pos as A0.
  destruct (Req_dec (dR x) 0) as [Z|Z].
  - assert (a = 0) as -> by (unfold a; rewrite Z; apply Rabs_R0). rewrite Rmult_0_r, rnd_0. rewrite !pow_i by lia. lra.
  - pose proof (pow_big (S i) Z Hi) as B. simpl (a ^ S i) in *. destruct (small_pow i ltac:(lia)) as (P1 & P2).
    assert (Q1 : (1 - dl) ^ i * (a * a ^ i) <= dR xn * a).
    { replace ((1 - dl) ^ i * (a * a ^ i)) with ((1 - dl) ^ i * a ^ i * a) by ring. apply Rmult_le_compat_r; lra. }
    assert (Q2 : dR xn * a <= (1 + dl) ^ i * (a * a ^ i)).
    { replace ((1 + dl) ^ i * (a * a ^ i)) with ((1 + dl) ^ i * a ^ i * a) by ring. apply Rmult_le_compat_r; lra. }
    assert (0 < bpow radix2 (-1000)) by apply bpow_gt_0.
    assert (Bg : bpow radix2 (-1022) <= / 2 * bpow radix2 (-1000)).
    { change (-1022)%Z with (-22 + -1000)%Z. rewrite bpow_plus. apply Rmult_le_compat_r; [lra|]. simpl. lra. }
    assert (Q3 : / 2 * bpow radix2 (-1000) <= (1 - dl) ^ i * (a * a ^ i)) by nra.
    pose proof (rnd_norm (dR xn * a) ltac:(lra)) as (R1 & R2). simpl ((1 - dl) ^ S i). simpl ((1 + dl) ^ S i). split.
    + eapply Rle_trans; [|exact R1]. replace ((1 - dl) * (1 - dl) ^ i * (a * a ^ i)) with ((1 - dl) * ((1 - dl) ^ i * (a * a ^ i))) by ring. apply Rmult_le_compat_l; lra.
    + eapply Rle_trans; [exact R2|]. replace ((1 + dl) * (1 + dl) ^ i * (a * a ^ i)) with ((1 + dl) * ((1 + dl) ^ i * (a * a ^ i))) by ring. apply Rmult_le_compat_l; lra.
Qed.

Lemma c_pos i : 0 <= c i.
Proof. apply Rabs_pos. Qed.
Lemma nth_fin i : fin (nth i f d_zero).
Proof.
  destruct (Nat.lt_ge_cases i (length f)) as [H|H]; [|rewrite nth_overflow by exact H; reflexivity].
  rewrite Forall_forall in f_fin. apply f_fin, nth_In, H.
Qed.
(** the sum *)
Definition sum_ok (i : nat) (s : d64) : Prop :=
  fin s -> 0 <= dR s /\ (1 - dl) ^ (2 * i) * L i - tiny * (1.01 * Ssum (dR x) i + 2 * INR i) <= dR s.
Lemma sum_step i s xn : (1 <= i <= N)%nat -> xn_ok i xn -> sum_ok i s ->
  sum_ok (S i) (d_add s (d_mul (d_mul (nofnat (H := D_num) (2 * i + 1)) (nabs (H := D_num) (nth i f d_zero))) xn)).
Proof.
  intros Hi Hx Hs F. destruct (add_fin_inv _ _ F) as (F1 & F2). destruct (mul_fin_inv _ _ F2) as (F3 & F4).
  destruct (mul_fin_inv _ _ F3) as (F5 & F6). rewrite (add_val _ _ F), (mul_val _ _ F2), (mul_val _ _ F3).
  destruct (nabs_D _ (nth_fin i)) as (_ & ->). fold (c i).
  destruct (nofnat_D (2 * i + 1)) as (_ & ->).
  { assert (Hi' : (i <= N)%nat) by lia. apply le_INR in Hi'. rewrite plus_INR, mult_INR. simpl (INR 2). simpl (INR 1). simpl in N_le |- *. lra. }
  specialize (Hx ltac:(lia) F4). destruct (Hs F1) as (S0 & S1). pose proof dl_bounds as (D1 & D2). pose proof a_pos as A0.
  assert (T0 : 0 < tiny) by apply bpow_gt_0.
  destruct (small_pow i ltac:(lia)) as (P1 & P2).
  assert (Ai : 0 <= a ^ i) by (apply pow_le; auto).
  set (A := INR (2 * i + 1) * c i) in *. assert (A1 : 0 <= A) by (apply Rmult_le_pos; [apply pos_INR|apply c_pos]).
  pose proof (rnd_lo A A1) as R1. pose proof (rnd_pos A A1) as R2. set (B := drnd A) in *. clearbody B.
  assert (X0 : 0 <= (1 - dl) ^ i * a ^ i) by (apply Rmult_le_pos; [apply pow_le; lra|auto]).
  assert (Y0 : 0 <= B * dR xn) by (apply Rmult_le_pos; lra).
  assert (Y1 : (1 - dl) ^ (i + 1) * (A * a ^ i) - 1.01 * tiny * a ^ i <= B * dR xn).
  { assert (E1 : (1 - dl) * A * dR xn - tiny * dR xn <= B * dR xn) by (rewrite <- Rmult_minus_distr_r; apply Rmult_le_compat_r; lra).
    assert (E2 : (1 - dl) * A * ((1 - dl) ^ i * a ^ i) <= (1 - dl) * A * dR xn) by (apply Rmult_le_compat_l; [apply Rmult_le_pos; lra|lra]).
    assert (E3 : tiny * dR xn <= 1.01 * tiny * a ^ i).
    { replace (1.01 * tiny * a ^ i) with (tiny * (1.01 * a ^ i)) by ring. apply Rmult_le_compat_l; [lra|]. nra. }
    rewrite pow_add, pow_1. replace ((1 - dl) ^ i * (1 - dl) * (A * a ^ i)) with ((1 - dl) * A * ((1 - dl) ^ i * a ^ i)) by ring. lra. }
  pose proof (rnd_lo _ Y0) as R3. pose proof (rnd_pos _ Y0) as R4. set (t := drnd (B * dR xn)) in *. clearbody t.
  set (y := B * dR xn) in *. clearbody y.
  assert (T1 : (1 - dl) ^ (i + 2) * (A * a ^ i) - 1.01 * tiny * a ^ i - tiny <= t).
  { replace (i + 2)%nat with (S (i + 1)) by lia. cbn [pow].
    assert (0 <= 1.01 * tiny * a ^ i) by (apply Rmult_le_pos; lra). nra. }
  split; [apply rnd_pos; lra|]. pose proof (rnd_lo (dR s + t) ltac:(lra)) as R5. eapply Rle_trans; [|exact R5].
  assert (LS : L (S i) = L i + A * a ^ i). { unfold L. cbn [bsum]. unfold A. replace (2 * i + 1)%nat with (1 + 2 * i)%nat by lia. reflexivity. }
  assert (SS : Ssum (dR x) (S i) = Ssum (dR x) i + a ^ i) by reflexivity.
  rewrite LS, SS, S_INR. set (Ti := A * a ^ i) in *. assert (Ti0 : 0 <= Ti) by (apply Rmult_le_pos; auto).
  assert (V1 : (1 - dl) ^ (2 * S i) <= (1 - dl) ^ (i + 3)).
  { replace (2 * S i)%nat with (i + 3 + (i - 1))%nat by lia. rewrite (pow_add _ (i + 3)). rewrite <- (Rmult_1_r ((1 - dl) ^ (i + 3))) at 2.
    apply Rmult_le_compat_l; [apply pow_le; lra|]. pose proof (pow_incr (1 - dl) 1 (i - 1) ltac:(lra)) as V. rewrite pow1 in V. exact V. }
  apply (Rmult_le_compat_r Ti) in V1; [|auto].
  replace (2 * S i)%nat with (S (S (2 * i))) in * by lia. replace (i + 3)%nat with (S (i + 2)) in * by lia. cbn [pow] in *.
  assert (G0 : 0 <= tiny * (1.01 * Ssum (dR x) i + 2 * INR i)).
  { apply Rmult_le_pos; [lra|]. pose proof (Ssum_ge (dR x) i ltac:(lia)). pose proof (pos_INR i). lra. }
  assert (G1 : 0 <= tiny * a ^ i) by (apply Rmult_le_pos; lra).
  assert (W1 : (1 - dl) * ((1 - dl) ^ (2 * i) * L i - tiny * (1.01 * Ssum (dR x) i + 2 * INR i)) <= (1 - dl) * dR s) by (apply Rmult_le_compat_l; [lra|exact S1]).
  assert (W2 : (1 - dl) * ((1 - dl) ^ (i + 2) * Ti - 1.01 * tiny * a ^ i - tiny) <= (1 - dl) * t) by (apply Rmult_le_compat_l; lra).
  assert (Li : 0 <= L i).
  { unfold L. clear - i f. generalize i. intros k. induction k as [|k IH]; [cbn; lra|]. cbn [bsum].
    assert (0 <= INR (1 + 2 * k) * c k * a ^ k) by (apply Rmult_le_pos; [apply Rmult_le_pos; [apply pos_INR|apply c_pos]|apply pow_le, a_pos]). lra. }
  assert (Q : (1 - dl) * ((1 - dl) * (1 - dl) ^ (2 * i)) * L i <= (1 - dl) * ((1 - dl) ^ (2 * i)) * L i).
  { apply Rmult_le_compat_r; [auto|]. apply Rmult_le_compat_l; [lra|]. assert (0 <= (1 - dl) ^ (2 * i)) by (apply pow_le; lra). nra. }
  set (Z := tiny * (1.01 * Ssum (dR x) i + 2 * INR i)) in *.
  assert (Ez : tiny * (1.01 * (Ssum (dR x) i + a ^ i) + 2 * (INR i + 1)) = Z + 1.01 * (tiny * a ^ i) + 2 * tiny) by (unfold Z; ring).
  rewrite Ez. clear Ez S1 R5 SS LS.
  assert (Zd : 0 <= dl * Z) by (apply Rmult_le_pos; lra).
  assert (Gd : 0 <= dl * (tiny * a ^ i)) by (apply Rmult_le_pos; lra).
  assert (Td : 0 <= dl * tiny) by (apply Rmult_le_pos; lra).
  clearbody Z. lra.
Qed.

Lemma d_unit_R : fin d_unit /\ 1.0599 * dl <= dR d_unit <= 1.061 * dl.
Proof.
  split; [vm_compute; reflexivity|].
  assert (E : dR d_unit = 4773815605012726 * bpow radix2 (-105)).
  { unfold dR. rewrite <- FF2R_B2FF. replace (B2FF 53 1024 d_unit) with (F754_finite false 4773815605012726 (-105)) by (vm_compute; reflexivity).
    reflexivity. }
  rewrite E. unfold dl. simpl. lra.
Qed.
Lemma prec_lo : (1 <= N)%nat -> fin (poly_precision (H := D_num) d_unit f x) ->
  1.05 * dl * L (S N) - tiny * (0.01 * Ssum (dR x) (S N) + 1.01) <= dR (poly_precision (H := D_num) d_unit f x).
Proof.
  intros N1. unfold poly_precision. fold N. destruct (Nat.eqb_spec N 0) as [E|E]; [lia|]. cbn [nadd nmul D_num].
  match goal with |- context [for_up 1 N ?b ?s] =>
    assert (P : (fun i '(sum, xn) => (i <= S N)%nat -> sum_ok i sum /\ xn_ok i xn) (1 + N)%nat (for_up 1 N b s)) end.
  { apply for_up_inv.
    - intros _. pose proof dl_bounds as (D1 & D2). split.
      + intros F. change (get f 0) with (nth 0 f d_zero) in *. split; [exact c0|]. unfold L, Ssum. cbn [bsum]. unfold c. rewrite (Rabs_pos_eq _ c0).
        simpl INR. simpl (_ ^ 0). assert (0 < tiny) by apply bpow_gt_0. simpl. set (w := dR (nth 0 f d_zero)) in *. clearbody w. assert (0 <= dl * w) by (apply Rmult_le_pos; lra). assert (dl * (dl * w) <= dl * w) by (rewrite <- (Rmult_1_l (dl * w)) at 2; apply Rmult_le_compat_r; lra). lra.
      + intros _ F. destruct (nabs_D x x_fin) as (_ & ->). fold a. pose proof a_pos. simpl. split; [|]; nra.
    - intros i [s xn] Hi IH Hle. destruct IH as (I1 & I2); [lia|]. split.
      + apply sum_step; auto; lia.
      + apply xn_step; auto; lia. }
  destruct (for_up _ _ _ _) as [s xn]. destruct (P ltac:(lia)) as (I1 & _). cbn [fst]. intros F.
  destruct (mul_fin_inv _ _ F) as (F1 & _). rewrite (mul_val _ _ F). destruct (I1 F1) as (S0 & S1). change (1 + N)%nat with (S N) in S1.
  destruct d_unit_R as (_ & E1 & E2). pose proof dl_bounds as (D1 & D2). assert (T0 : 0 < tiny) by apply bpow_gt_0.
  assert (Y0 : 0 <= dR s * dR d_unit) by (apply Rmult_le_pos; lra).
  pose proof (rnd_lo _ Y0) as R1. eapply Rle_trans; [|exact R1].
  destruct (small_pow (2 * S N) ltac:(lia)) as (P1 & _).
  assert (L0 : 0 <= L (S N)).
  { unfold L. generalize (S N). intros k. induction k as [|k IH]; [cbn; lra|]. cbn [bsum].
    assert (0 <= INR (1 + 2 * k) * c k * a ^ k) by (apply Rmult_le_pos; [apply Rmult_le_pos; [apply pos_INR|apply c_pos]|apply pow_le, a_pos]). lra. }
  assert (S1' : 999 / 1000 * L (S N) - tiny * (1.01 * Ssum (dR x) (S N) + 2 * INR (S N)) <= dR s).
  { eapply Rle_trans; [|exact S1]. apply Rplus_le_compat_r. apply Rmult_le_compat_r; auto. }
  clear S1 P1. pose proof (Ssum_ge (dR x) (S N) ltac:(lia)) as SG. set (Sg := Ssum (dR x) (S N)) in *. set (LL := L (S N)) in *.
  assert (Nd : INR (S N) * dl <= / 4096). { apply dl_small. rewrite S_INR. simpl in N_le |- *. lra. }
  pose proof (pos_INR (S N)) as Np. set (n := INR (S N)) in *. clearbody n Sg LL.
  set (q := tiny * (1.01 * Sg + 2 * n)) in *.
  assert (Qd : q * dl <= tiny * (0.001 * Sg + 0.001)).
  { unfold q. rewrite Rmult_assoc. apply Rmult_le_compat_l; [lra|].
    replace ((1.01 * Sg + 2 * n) * dl) with (1.01 * (Sg * dl) + 2 * (n * dl)) by ring.
    assert (Sg * dl <= Sg * / 1000000) by (apply Rmult_le_compat_l; lra). lra. }
  assert (Q0 : 0 <= q) by (apply Rmult_le_pos; lra).
  assert (Ld : 0 <= LL * dl) by (apply Rmult_le_pos; lra).
  assert (Y1 : 999 / 1000 * 1.0599 * (LL * dl) - 1.061 * (q * dl) <= dR s * dR d_unit).
  { assert (Z : 999 / 1000 * LL * dR d_unit - q * dR d_unit <= dR s * dR d_unit) by (rewrite <- Rmult_minus_distr_r; apply Rmult_le_compat_r; lra).
    assert (Z1 : LL * (1.0599 * dl) <= LL * dR d_unit) by (apply Rmult_le_compat_l; lra).
    assert (Z2 : q * dR d_unit <= q * (1.061 * dl)) by (apply Rmult_le_compat_l; lra). lra. }
  set (y := dR s * dR d_unit) in *. clearbody y.
  assert (tiny * (0.01 * Sg + 1.01) = 0.01 * (tiny * Sg) + 1.01 * tiny) as -> by ring.
  replace (tiny * (0.001 * Sg + 0.001)) with (0.001 * (tiny * Sg) + 0.001 * tiny) in Qd by ring.
  assert (TS : 0 <= tiny * Sg) by (apply Rmult_le_pos; lra).
  assert (Yd : (1 - dl) * (999 / 1000 * 1.0599 * (LL * dl) - 1.061 * (q * dl)) <= (1 - dl) * y) by (apply Rmult_le_compat_l; lra).
  assert (dl * (LL * dl) <= / 1000000 * (LL * dl)) by (apply Rmult_le_compat_r; lra).
  assert (0 <= dl * (q * dl)) by (apply Rmult_le_pos; [lra|apply Rmult_le_pos; lra]).
  replace (1.05 * dl * LL) with (1.05 * (LL * dl)) by ring. lra.
Qed.
End Precision.

(** ** The theorems *)
Lemma eval_err f x : (1 <= porder f)%nat -> INR (porder f) <= 2 ^ 39 -> fin (poly_eval (H := D_num) f x) ->
  Rabs (dR (poly_eval (H := D_num) f x) - pval (map dR f) (dR x)) <=
    1.01 * dl * Wsum (dR x) 1 (map dR f) + 2.1 * tiny * Ssum (dR x) (length f).
Proof.
  intros H1 H2. rewrite d_eval_hsd by exact H1. intros F. rewrite (hsd_val _ _ F). pose proof dl_bounds as (D1 & D2).
  assert (T0 : 0 < tiny) by apply bpow_gt_0.
  eapply Rle_trans; [apply (hs_error dl tiny drnd (dR x) (Rlt_le _ _ D1) rnd_err)|].
  assert (HL : length (map dR f) = S (porder f)).
  { destruct f; [cbn in H1; lia|]. cbn [map length porder pred]. rewrite map_length. reflexivity. }
  assert (B : INR (1 + 2 * length (map dR f)) * dl <= / 1000).
  { eapply Rle_trans; [apply dl_small|lra]. rewrite HL. revert H2. generalize (porder f). intros n H2. rewrite plus_INR, mult_INR, (S_INR n). simpl (INR 1). simpl (INR 2). simpl in H2 |- *. lra. }
  apply Rplus_le_compat; [apply Ew_Wsum; [lra|exact B]|].
  pose proof (Zw_Ssum dl (dR x) ltac:(lra) (map dR f) 0 ltac:(lra)) as Z. rewrite map_length in Z at 2.
  replace (2.1 * tiny * Ssum (dR x) (length f)) with (tiny * (2.1 * Ssum (dR x) (length f))) by ring.
  apply Rmult_le_compat_l; [lra|]. rewrite <- (Rmult_1_l (Zw _ _ _)). apply Z.
  eapply Rle_trans; [|exact B]. apply Rmult_le_compat_r; [lra|]. apply le_INR. lia.
Qed.

(** Evaluating at a finite number: whenever the result is finite it is within the
    classical error bound of Horner's rule, plus what underflow can contribute. *)
Theorem C02_doubles_error : forall (f : list d64) (x : d64),
  f <> [] -> INR (length f) <= 2 ^ 39 -> fin x -> fin (d_poly_sub f x) ->
  Rabs (dR (d_poly_sub f x) - pval (map dR f) (dR x)) <=
    1.01 * bpow radix2 (-53) * bsum (length f) (fun i => INR (1 + 2 * i) * Rabs (nth i (map dR f) 0) * Rabs (dR x) ^ i) +
    2.1 * bpow radix2 (-1075) * bsum (length f) (fun i => Rabs (dR x) ^ i).
Proof.
  intros f x Nf HL Fx. unfold d_poly_sub. assert (Ix : d_isinf x = false) by (destruct x; try discriminate Fx; reflexivity).
  rewrite Ix. destruct (Nat.eqb_spec (porder f) 0) as [E|E].
  - intros _. destruct f as [|a [|b t]]; [congruence| |discriminate E]. cbn [map dget length]. rewrite pval_cons, pval_nil.
    unfold dget. cbn [nth]. replace (dR a - (dR a + dR x * 0)) with 0 by ring. rewrite Rabs_R0. cbn [bsum nth]. simpl (INR _). simpl (_ ^ 0).
    pose proof (bpow_gt_0 radix2 (-53)). pose proof (bpow_gt_0 radix2 (-1075)). pose proof (Rabs_pos (dR a)). nra.
  - intros F. pose proof (eval_err f x ltac:(lia)) as P. unfold Wsum, Ssum in P. rewrite map_length in P. apply P; [|exact F].
    eapply Rle_trans; [|exact HL]. apply le_INR. unfold porder. lia.
Qed.
Print Assumptions C02_doubles_error.

(** The estimate, itself computed in doubles, bounds the error of the computed
    value (up to a few units of 2^-1074 where results underflow), if the constant
    coefficient is not negative and the powers of x do not underflow. *)
Theorem C62_doubles_partial : forall (f : list d64) (x : d64),
  f <> [] -> Forall (fun c : d64 => fin c) f -> fin x -> INR (length f) <= 2 ^ 39 ->
  0 <= dR (nth 0 f d_zero) ->
  (dR x = 0 \/ bpow radix2 (-1000) <= Rabs (dR x) ^ (length f - 1)) ->
  fin (d_poly_sub f x) -> fin (d_precision f x) ->
  Rabs (dR (d_poly_sub f x) - pval (map dR f) (dR x)) <=
    dR (d_precision f x) + bpow radix2 (-1073) * bsum (length f) (fun i => Rabs (dR x) ^ i).
Proof.
  intros f x Nf Ff Fx HL H0 HB Fe Fp. pose proof (bpow_gt_0 radix2 (-1073)) as T3.
  assert (T4 : bpow radix2 (-1073) = 4 * tiny).
  { unfold tiny. change (-1073)%Z with (2 + -1075)%Z. rewrite bpow_plus. reflexivity. }
  assert (Ix : d_isinf x = false) by (destruct x; try discriminate Fx; reflexivity).
  unfold d_precision in *. unfold d_poly_sub in *. rewrite Ix in *. destruct (Nat.eqb_spec (porder f) 0) as [E|E].
  - destruct f as [|a [|b t]]; [congruence| |discriminate E]. cbn [map dget length]. rewrite pval_cons, pval_nil.
    unfold dget. cbn [nth]. replace (dR a - (dR a + dR x * 0)) with 0 by ring. rewrite Rabs_R0. cbn [bsum nth]. simpl (_ ^ 0).
    unfold poly_precision. cbn [porder length Nat.pred Nat.eqb n0 D_num]. change (dR d_zero) with 0. lra.
  - assert (Ln : length f = S (porder f)) by (destruct f; [congruence|reflexivity]).
    assert (HN : INR (porder f) <= 2 ^ 39) by (eapply Rle_trans; [|exact HL]; apply le_INR; lia).
    assert (N1 : (1 <= porder f)%nat) by lia.
    pose proof (eval_err f x N1 HN Fe) as P1. replace (length f - 1)%nat with (porder f) in HB by lia.
    pose proof (prec_lo f x Ff Fx HN H0 HB N1 Fp) as P2. cbv beta zeta in P2.
    set (v := dR (poly_precision (H := D_num) d_unit f x)) in *. clearbody v.
    pose proof (Ssum_ge (dR x) (length f) ltac:(lia)) as SG. rewrite Ln in SG, P1 |- *.
    change (bsum (S (porder f)) (fun i => Rabs (dR x) ^ i)) with (Ssum (dR x) (S (porder f))).
    assert (EW : Wsum (dR x) 1 (map dR f) = bsum (S (porder f)) (fun k => INR (1 + 2 * k) * Rabs (dR (nth k f d_zero)) * Rabs (dR x) ^ k)).
    { unfold Wsum. replace (length (map dR f)) with (S (porder f)) by (rewrite map_length; symmetry; exact Ln). apply bsum_ext. intros i _. change 0 with (dR d_zero). rewrite map_nth. reflexivity. }
    rewrite EW in P1. set (LL := bsum (S (porder f)) _) in *. set (Sg := Ssum _ _) in *.
    assert (T0 : 0 < tiny) by apply bpow_gt_0. pose proof dl_bounds as (D1 & D2).
    assert (L0 : 0 <= LL).
    { unfold LL. generalize (S (porder f)). intros k. induction k as [|k IH]; [cbn; lra|]. cbn [bsum].
      assert (0 <= INR (1 + 2 * k) * Rabs (dR (nth k f d_zero)) * Rabs (dR x) ^ k) by (apply Rmult_le_pos; [apply Rmult_le_pos; [apply pos_INR|apply Rabs_pos]|apply pow_le, Rabs_pos]). lra. }
    rewrite T4. assert (0 <= dl * LL) by (apply Rmult_le_pos; lra). assert (tiny * 1 <= tiny * Sg) by (apply Rmult_le_compat_l; lra).
    eapply Rle_trans; [exact P1|]. clearbody LL Sg. lra.
Qed.
Print Assumptions C62_doubles_partial.
(** at an infinite x, where the value is exact (C02_doubles), the estimate is 0 *)
Theorem C62_doubles_infinite : forall f s, d_precision f (d_inf s) = d_zero.
Proof. reflexivity. Qed.

(** 1 - 2x + 3x^2 + 4x^3 at 1/3 (rounded) *)
Example C62_doubles_example : let f := dlist [1; -2; 3; 4]%Z in let x := d_div d_one (d_lit 3 0) in
  Forall (fun c : d64 => fin c) f /\ fin x /\ INR (length f) <= 2 ^ 39 /\ 0 <= dR (nth 0 f d_zero) /\
  bpow radix2 (-1000) <= Rabs (dR x) ^ (length f - 1) /\ fin (d_poly_sub f x) /\ fin (d_precision f x).
Proof.
  intros f x. split; [repeat constructor|]. split; [vm_compute; reflexivity|]. split; [|split; [|split; [|split; vm_compute; reflexivity]]].
  - change (length f) with 4%nat. simpl. lra.
  - change (nth 0 f d_zero) with d_one. rewrite d_one_R. lra.
  - change (length f - 1)%nat with 3%nat.
    assert (E : dR x = 6004799503160661 * bpow radix2 (-54)).
    { unfold dR. rewrite <- FF2R_B2FF. replace (B2FF 53 1024 x) with (F754_finite false 6004799503160661 (-54)) by (vm_compute; reflexivity). reflexivity. }
    assert (/ 4 <= dR x) by (rewrite E; simpl; lra). rewrite Rabs_pos_eq by lra.
    apply Rle_trans with ((/ 4) ^ 3); [|apply pow_incr; lra]. apply Rle_trans with (bpow radix2 (-6)); [apply bpow_le; lia|simpl; lra].
Qed.

(** A negative constant coefficient: the estimate for x - 1 at 0 is a negative
    number. *)
Theorem C62_doubles_negative_refuted : d_lt (d_precision (dlist [-1; 1]%Z) d_zero) d_zero = true.
Proof. vm_compute. reflexivity. Qed.
(** Powers of x that underflow: for c x^2 the estimate is 0, the error is not. *)
Theorem C62_underflow_refuted : exists (f : list d64) (x : d64),
  Forall (fun c : d64 => fin c) f /\ fin x /\ 0 <= dR (nth 0 f d_zero) /\ fin (d_poly_sub f x) /\
  d_precision f x = d_zero /\
  bpow radix2 (-305) <= Rabs (dR (d_poly_sub f x) - pval (map dR f) (dR x)).
Proof.
  set (m := (2 ^ 53 - 1)%Z). set (c := d_lit m 947). set (x := d_lit m (-653)).
  exists [d_zero; d_zero; c], x. split; [repeat constructor; vm_compute; reflexivity|]. split; [vm_compute; reflexivity|].
  split; [cbn [nth]; change (dR d_zero) with 0; lra|]. split; [vm_compute; reflexivity|]. split; [vm_compute; reflexivity|].
  assert (Ec : dR c = 9007199254740991 * bpow radix2 947).
  { unfold dR. rewrite <- FF2R_B2FF. replace (B2FF 53 1024 c) with (F754_finite false 9007199254740991 947) by (vm_compute; reflexivity). reflexivity. }
  assert (Ex : dR x = 9007199254740991 * bpow radix2 (-653)).
  { unfold dR. rewrite <- FF2R_B2FF. replace (B2FF 53 1024 x) with (F754_finite false 9007199254740991 (-653)) by (vm_compute; reflexivity). reflexivity. }
  assert (Ev : dR (d_poly_sub [d_zero; d_zero; c] x) = 9007199254740989 * bpow radix2 (-253)).
  { unfold dR. rewrite <- FF2R_B2FF. replace (B2FF 53 1024 (d_poly_sub [d_zero; d_zero; c] x)) with (F754_finite false 9007199254740989 (-253)) by (vm_compute; reflexivity). reflexivity. }
  rewrite Ev. cbn [map]. rewrite !pval_cons, pval_nil, Ec, Ex. change (dR d_zero) with 0.
  replace (bpow radix2 (-253)) with (bpow radix2 106 * bpow radix2 (-359)) by (rewrite <- bpow_plus; reflexivity).
  replace (bpow radix2 (-305)) with (bpow radix2 54 * bpow radix2 (-359)) by (rewrite <- bpow_plus; reflexivity).
  replace (9007199254740989 * (bpow radix2 106 * bpow radix2 (-359)) -
     (0 + 9007199254740991 * bpow radix2 (-653) * (0 + 9007199254740991 * bpow radix2 (-653) * (9007199254740991 * bpow radix2 947 + 9007199254740991 * bpow radix2 (-653) * 0))))
    with ((9007199254740989 * bpow radix2 106 - 9007199254740991 * 9007199254740991 * 9007199254740991) * bpow radix2 (-359)).
  2: { replace (bpow radix2 (-359)) with (bpow radix2 (-653) * bpow radix2 (-653) * bpow radix2 947) by (rewrite <- !bpow_plus; reflexivity). ring. }
  rewrite Rabs_mult, (Rabs_pos_eq (bpow radix2 (-359))) by apply bpow_ge_0. apply Rmult_le_compat_r; [apply bpow_ge_0|].
  rewrite Rabs_left1; simpl; lra.
Qed.
Print Assumptions C62_doubles_negative_refuted.
Print Assumptions C62_underflow_refuted.
