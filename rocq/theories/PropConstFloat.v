(** C81: the constants pi, e and R. *)
From Coq Require Import ZArith QArith Reals Machin Ratan Lra Lia Qreals.
From Coquelicot Require Import Coquelicot.
From Flocq Require Import Core.
From Verif Require Import FloatModel FloatSpec FloatProofs FloatQuad ConstModel ConvModel PropConv ConstFloatModel.
Open Scope R_scope.

(** ** pi and e enclosed by rational numbers *)
Definition pi_term (n : nat) : Q :=
  let k := (2 * Z.of_nat n + 1)%Z in
  ((if Nat.even n then 1 else -1) * (2 * (1 # Z.to_pos (3 ^ k * k)) + (1 # Z.to_pos (7 ^ k * k))))%Q.
Fixpoint q_sum (f : nat -> Q) (n : nat) : Q :=
  match n with O => Qred (f O) | S k => Qred (q_sum f k + f n) end.
Lemma Q2R_one_pos p : (0 < p)%Z -> Q2R (1 # Z.to_pos p) = / IZR p.
Proof. intros H. unfold Q2R. cbn [Qnum Qden]. rewrite Z2Pos.id by lia. rewrite Rmult_1_l. reflexivity. Qed.
Lemma q_sum_R f g : (forall n, Q2R (f n) = g n) -> forall n, Q2R (q_sum f n) = sum_f_R0 g n.
Proof.
  intros H. induction n as [|n IH]; cbn [q_sum sum_f_R0].
  - rewrite (Qeq_eqR _ _ (Qred_correct _)). apply H.
  - rewrite (Qeq_eqR _ _ (Qred_correct _)), Q2R_plus, IH, H. reflexivity.
Qed.
Lemma pi_term_R n : Q2R (pi_term n) = tg_alt PI_2_3_7_tg n.
Proof.
  unfold pi_term, tg_alt, PI_2_3_7_tg, Ratan_seq. set (k := (2 * Z.of_nat n + 1)%Z).
  assert (K : INR (2 * n + 1) = IZR k) by (rewrite INR_IZR_INZ; f_equal; unfold k; lia).
  assert (K0 : (0 < k)%Z) by (unfold k; lia).
  assert (P : forall b : Z, (0 < b)%Z -> (/ IZR b) ^ (2 * n + 1) = / IZR (b ^ k)).
  { intros b Hb. rewrite pow_inv by (apply not_0_IZR; lia). f_equal. rewrite pow_IZR. do 2 f_equal. unfold k. lia. }
  assert (P3 : (0 < 3 ^ k)%Z) by (apply Z.pow_pos_nonneg; lia). assert (P7 : (0 < 7 ^ k)%Z) by (apply Z.pow_pos_nonneg; lia).
  rewrite Q2R_mult, Q2R_plus, Q2R_mult. rewrite !Q2R_one_pos by nia. rewrite K, (P 3%Z), (P 7%Z) by lia. rewrite !mult_IZR.
  assert (S : Q2R (if Nat.even n then 1 else -1) = (-1) ^ n).
  { clear. induction n as [|n IH]; [unfold Q2R; cbn; lra|]. cbn [pow]. rewrite <- IH. rewrite Nat.even_succ, <- Nat.negb_even.
    destruct (Nat.even n); unfold Q2R; cbn; lra. }
  rewrite S. assert (Q2R 2 = 2) as -> by (unfold Q2R; cbn; lra).
  assert (IZR (3 ^ k) <> 0) by (apply not_0_IZR; lia). assert (IZR (7 ^ k) <> 0) by (apply not_0_IZR; lia).
  assert (IZR k <> 0) by (apply not_0_IZR; lia). field. auto.
Qed.
Lemma PI_enclosed : 31415926535897932384626 / 10 ^ 22 < PI < 31415926535897932384627 / 10 ^ 22.
Proof.
  pose proof (PI_2_3_7_ineq 13) as [L U]. rewrite <- !(q_sum_R _ _ pi_term_R) in L, U.
  assert (QL : ((31415926535897932384626 # 40000000000000000000000) < q_sum pi_term (S (2 * 13)))%Q) by (vm_compute; reflexivity).
  assert (QU : (q_sum pi_term (2 * 13) < (31415926535897932384627 # 40000000000000000000000))%Q) by (vm_compute; reflexivity).
  apply Qlt_Rlt in QL, QU.
  revert QL QU L U. generalize (Q2R (q_sum pi_term (S (2 * 13)))) (Q2R (q_sum pi_term (2 * 13))). unfold Q2R. cbn [Qnum Qden]. intros a b. lra.
Qed.

Definition e_term (n : nat) : Q := 1 # Z.to_pos (Z.of_nat (fact n)).
Fixpoint zfact (n : nat) : Z := match n with O => 1 | S k => (Z.of_nat n * zfact k)%Z end.
Lemma zfact_fact n : zfact n = Z.of_nat (fact n).
Proof. induction n; [reflexivity|]. cbn [zfact]. rewrite IHn. change (fact (S n)) with (S n * fact n)%nat. now rewrite Nat2Z.inj_mul. Qed.
Lemma INR_fact n : INR (fact n) = IZR (zfact n).
Proof. now rewrite zfact_fact, <- INR_IZR_INZ. Qed.
Lemma E_enclosed : 27182818284590452353 / 10 ^ 19 < exp 1 < 27182818284590452354 / 10 ^ 19.
Proof.
  destruct (Taylor_Lagrange exp 22 0 1) as (z & Hz & E); [lra| |].
  - intros t _ k _. destruct k; [exact I|]. eexists. apply (is_derive_n_exp (S k) t).
  - assert (D : forall m t, Derive_n exp m t = exp t) by (intros; apply is_derive_n_unique, is_derive_n_exp).
    rewrite D in E.
    assert (S : sum_f_R0 (fun m => (1 - 0) ^ m / INR (fact m) * Derive_n exp m 0) 22 = Q2R (q_sum (fun n => 1 # Z.to_pos (zfact n)) 22)).
    { symmetry. apply (q_sum_R _ (fun m => (1 - 0) ^ m / INR (fact m) * Derive_n exp m 0)). intros n. rewrite D, exp_0, Rminus_0_r, pow1.
      assert (0 < fact n)%nat by apply lt_O_fact.
      rewrite Q2R_one_pos by (rewrite zfact_fact; lia). rewrite zfact_fact, <- INR_IZR_INZ. field. apply not_0_INR. lia. }
    rewrite S in E. rewrite Rminus_0_r, pow1 in E.
    rewrite INR_fact in E. assert (F : zfact 23 = 25852016738884976640000%Z) by (vm_compute; reflexivity). rewrite F in E. clear F S.
    assert (B : 0 < exp z < 3). { split; [apply exp_pos|]. apply Rlt_le_trans with (exp 1); [apply exp_increasing; lra|apply exp_le_3]. }
    assert (QL : ((27182818284590452353 # 10000000000000000000) < q_sum (fun n => 1 # Z.to_pos (zfact n)) 22)%Q) by (vm_compute; reflexivity).
    assert (QU : (q_sum (fun n => 1 # Z.to_pos (zfact n)) 22 < (27182818284590452353603 # 10000000000000000000000))%Q) by (vm_compute; reflexivity).
    apply Qlt_Rlt in QL, QU. revert QL QU E. generalize (Q2R (q_sum (fun n => 1 # Z.to_pos (zfact n)) 22)).
    unfold Q2R. cbn [Qnum Qden]. clear - B. intros a. lra.
Qed.

(** The rational numbers that stand for pi and e: how far they are off. *)
Definition real_ratio (c : constant) : R := IZR (fst c) / IZR (snd c).
Theorem C81_ratios :
  1.609 / 10 ^ 14 < PI - real_ratio c_pi < 1.61 / 10 ^ 14 /\
  6.16 / 10 ^ 16 < real_ratio c_e - exp 1 < 6.17 / 10 ^ 16.
Proof.
  pose proof PI_enclosed. pose proof E_enclosed. unfold real_ratio, c_pi, c_e. cbn [fst snd]. split; lra.
Qed.
Print Assumptions C81_ratios.
(** The remainders given in the comments of constants.hpp are not right: pi is farther off
    than stated, and the fraction for e is too large, not too small. *)
Theorem C81_remainders_refuted :
  PI - real_ratio c_pi > 1.5987211554602255 / 10 ^ 14 + 1 / 10 ^ 16 /\
  exp 1 - real_ratio c_e < 0.
Proof. pose proof C81_ratios. lra. Qed.
Print Assumptions C81_remainders_refuted.

(** ** The same as doubles *)
Lemma round_between_2_4 fexp x n : 2 <= x < 4 -> Rabs (x * bpow radix2 (- fexp 2%Z) - IZR n) < / 2 ->
  round radix2 fexp ZnearestE x = IZR n * bpow radix2 (fexp 2%Z).
Proof.
  intros Hx Hn. assert (M : mag radix2 x = 2%Z :> Z).
  { apply mag_unique_pos. cbn. lra. }
  unfold round, F2R, scaled_mantissa, cexp. rewrite M. cbn [Fnum Fexp]. do 2 f_equal. apply Znearest_imp. exact Hn.
Qed.
Ltac bpows := repeat match goal with |- context [bpow radix2 ?z] =>
  let v := eval vm_compute in z in progress (change (bpow radix2 z) with (bpow radix2 v)) end;
  cbn [bpow radix_val radix2];
  repeat match goal with |- context [Z.pow_pos 2 ?p] =>
  let v := eval vm_compute in (Z.pow_pos 2 p) in change (Z.pow_pos 2 p) with v end.
Ltac near_integer := apply Rabs_def1; bpows; lra.

Definition nearest_pi : R := 7074237752028440 * bpow radix2 (-51).
Definition nearest_e : R := 6121026514868073 * bpow radix2 (-51).
Lemma round_to_pi x n : 2 <= x < 4 -> Rabs (x * bpow radix2 51 - IZR n) < / 2 -> drnd x = IZR n * bpow radix2 (-51).
Proof. intros H N. apply (round_between_2_4 dexp x n H). exact N. Qed.
Lemma long_between p x n : 2 <= x < 4 -> Rabs (x * bpow radix2 (p - 2) - IZR n) < / 2 -> long_double p x = IZR n * bpow radix2 (2 - p).
Proof.
  intros H N. unfold long_double. apply (round_between_2_4 (FLX_exp p) x n H). unfold FLX_exp. replace (- (2 - p))%Z with (p - 2)%Z by lia. exact N.
Qed.

Lemma drnd_PI : drnd PI = nearest_pi.
Proof. apply round_to_pi; pose proof PI_enclosed; [lra|]. near_integer. Qed.
Lemma drnd_E : drnd (exp 1) = nearest_e.
Proof. apply round_to_pi; pose proof E_enclosed; [lra|]. near_integer. Qed.
Local Instance cf_prec : Prec_gt_0 53 := eq_refl.
Local Instance cf_valid : Valid_exp dexp := FLT_exp_valid (-1074) 53.
Lemma pi_double_is p : (p = 53 \/ p = 64 \/ p = 113)%Z -> pi_double p = drnd PI.
Proof.
  intros Hp. rewrite drnd_PI. unfold pi_double, nearest_pi.
    assert (L : 2 <= pi_literal < 4) by (unfold pi_literal; change (10 ^ 34)%Z with 10000000000000000000000000000000000%Z; lra).
    destruct Hp as [-> | [-> | ->]].
    - rewrite (long_between 53 pi_literal 7074237752028440 L); [|unfold pi_literal; change (10 ^ 34)%Z with 10000000000000000000000000000000000%Z; near_integer].
      apply round_to_pi; bpows; [lra|]. near_integer.
    - rewrite (long_between 64 pi_literal 14488038916154245685 L); [|unfold pi_literal; change (10 ^ 34)%Z with 10000000000000000000000000000000000%Z; near_integer].
      apply round_to_pi; bpows; [lra|]. near_integer.
    - rewrite (long_between 113 pi_literal 8156040833015188200833743081374136 L); [|unfold pi_literal; change (10 ^ 34)%Z with 10000000000000000000000000000000000%Z; near_integer].
      apply round_to_pi; bpows; [lra|]. near_integer.
Qed.
Lemma e_double_is p : (p = 53 \/ p = 64 \/ p = 113)%Z -> e_double p = drnd (exp 1).
Proof.
  intros Hp. rewrite drnd_E. unfold e_double, nearest_e.
    assert (L : 2 <= e_literal < 4) by (unfold e_literal; change (10 ^ 34)%Z with 10000000000000000000000000000000000%Z; lra).
    destruct Hp as [-> | [-> | ->]].
    - rewrite (long_between 53 e_literal 6121026514868073 L); [|unfold e_literal; change (10 ^ 34)%Z with 10000000000000000000000000000000000%Z; near_integer].
      apply round_to_pi; bpows; [lra|]. near_integer.
    - rewrite (long_between 64 e_literal 12535862302449814171 L); [|unfold e_literal; change (10 ^ 34)%Z with 10000000000000000000000000000000000%Z; near_integer].
      apply round_to_pi; bpows; [lra|]. near_integer.
    - rewrite (long_between 113 e_literal 7057063099260103890616691862818426 L); [|unfold e_literal; change (10 ^ 34)%Z with 10000000000000000000000000000000000%Z; near_integer].
      apply round_to_pi; bpows; [lra|]. near_integer.
Qed.
(** constant<double>::pi() and e() are the doubles nearest to pi and e, whatever the
    precision of long double. *)
Theorem C81_doubles : forall ldprec, (ldprec = 53 \/ ldprec = 64 \/ ldprec = 113)%Z ->
  forall d : d64, fin d ->
  Rabs (pi_double ldprec - PI) <= Rabs (dR d - PI) /\ Rabs (e_double ldprec - exp 1) <= Rabs (dR d - exp 1).
Proof.
  intros p Hp d Fd.
  rewrite (pi_double_is p Hp), (e_double_is p Hp).
  assert (G : forall x, Rabs (drnd x - x) <= Rabs (dR d - x)).
  { intros x. destruct (round_N_pt radix2 dexp (fun x => negb (Z.even x)) x) as [_ H]. apply H. apply dR_fmt. }
  split; apply G.
Qed.
Print Assumptions C81_doubles.
(** The double of the ratio for pi is the 36th below the nearest one, that of the ratio for
    e the second above. *)
Theorem C81_ratios_as_doubles : forall ldprec, (ldprec = 53 \/ ldprec = 64 \/ ldprec = 113)%Z ->
  dR (d_const (fst c_pi) (snd c_pi)) = pi_double ldprec - 36 * bpow radix2 (-51) /\
  dR (d_const (fst c_e) (snd c_e)) = e_double ldprec + 2 * bpow radix2 (-51).
Proof.
  intros p Hp. rewrite (pi_double_is p Hp), (e_double_is p Hp), drnd_PI, drnd_E.
  destruct (C80_constant 47627751 15160384) as (_ & _ & P); [lia|lia|].
  destruct (C80_constant 28245729 10391023) as (_ & _ & E); [lia|lia|].
  unfold c_pi, c_e. cbn [fst snd]. rewrite P, E by lia.
  rewrite (round_to_pi _ 7074237752028404), (round_to_pi _ 6121026514868075); [|lra|near_integer|lra|near_integer].
  unfold nearest_pi, nearest_e. split; ring.
Qed.
Print Assumptions C81_ratios_as_doubles.

(** The gas constant: the product of the two others up to three roundings, and within the
    uncertainty of the recommended value 8.3144621(75). *)
Theorem C81_gas_constant :
  Rabs (gas_constant - 6.02214129 * 1.3806488) <= 6.02214129 * 1.3806488 * bpow radix2 (-51) /\
  Rabs (gas_constant - 8.3144621) < 0.0000075.
Proof.
  assert (A : exists a, avogadro = 602214129000000000000000 * a /\ 1 - unit_off <= a <= 1 + unit_off).
  { unfold avogadro. replace (IZR 602214129 * IZR (10 ^ 15)) with 602214129000000000000000 by (change (10 ^ 15)%Z with 1000000000000000%Z; lra).
    apply rnd_factor. right. rewrite Rabs_pos_eq by lra. apply Rle_trans with (bpow radix2 0); [apply bpow_le; lia|]. cbn. lra. }
  assert (B : exists b, boltzmann = 13806488 / 1000000000000000000000000000000 * b /\ 1 - unit_off <= b <= 1 + unit_off).
  { unfold boltzmann. change (10 ^ 30)%Z with 1000000000000000000000000000000%Z.
    apply rnd_factor. right. rewrite Rabs_pos_eq by lra. apply Rle_trans with (bpow radix2 (-100)); [apply bpow_le; lia|]. bpows. lra. }
  destruct A as (a & EA & Ba), B as (b & EB & Bb).
  assert (U : 0 < unit_off <= / 100000000000000 /\ 3.9 * unit_off <= bpow radix2 (-51)).
  { unfold unit_off, dl. bpows. lra. }
  destruct U as [U U4]. set (e := unit_off) in *.
  assert (AB : (1 - e) * (1 - e) <= a * b <= (1 + e) * (1 + e)) by (split; apply Rmult_le_compat; lra).
  assert (E2 : e * e <= e * / 100000) by (apply Rmult_le_compat_l; lra).
  assert (X : avogadro * boltzmann = 6.02214129 * 1.3806488 * (a * b)) by (
    rewrite EA, EB; assert (K : 602214129000000000000000 * (13806488 / 1000000000000000000000000000000) = 6.02214129 * 1.3806488) by lra;
    rewrite <- K; ring).
  destruct (rnd_factor (avogadro * boltzmann)) as (c & Ec & Bc).
  { right. rewrite X. rewrite Rabs_pos_eq by nra. apply Rle_trans with (bpow radix2 0); [apply bpow_le; lia|]. cbn. nra. }
  fold e in Bc. unfold gas_constant. rewrite Ec, X.
  assert (ABC : Rabs (a * b * c - 1) <= 3.9 * e).
  { assert (E3 : e * (e * e) <= e * (e * / 100000)) by (apply Rmult_le_compat_l; lra).
    assert (L : (1 - e) * (1 - e) * (1 - e) <= a * b * c) by (apply Rmult_le_compat; nra).
    assert (H : a * b * c <= (1 + e) * (1 + e) * (1 + e)) by (apply Rmult_le_compat; nra).
    apply Rabs_le. nra. }
  replace (6.02214129 * 1.3806488 * (a * b) * c - 6.02214129 * 1.3806488) with (6.02214129 * 1.3806488 * (a * b * c - 1)) by ring.
  split.
  - rewrite Rabs_mult. rewrite (Rabs_pos_eq (6.02214129 * 1.3806488)) by lra. apply Rmult_le_compat_l; lra.
  - replace (6.02214129 * 1.3806488 * (a * b) * c - 8.3144621) with (6.02214129 * 1.3806488 * (a * b * c - 1) + (6.02214129 * 1.3806488 - 8.3144621)) by ring.
    apply Rabs_le_inv in ABC. apply Rabs_def1; lra.
Qed.
Print Assumptions C81_gas_constant.
