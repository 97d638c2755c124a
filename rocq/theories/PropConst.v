(** C41, C42: compile-time rational constants. *)
From Coq Require Import ZArith QArith Reals Lia Lra Bool List Znumtheory Factorial.
From Verif Require Import Outcome ConstModel.
Import ListNotations.
Open Scope Z_scope.

(** ** Specification *)
(** The value of the type C<n,d>. *)
Definition cvalue (c : constant) : Q := (inject_Z (fst c) / inject_Z (snd c))%Q.
Definition cmath (o : cop) (x y : Q) : Q :=
  match o with CAdd => x + y | CSub => x - y | CMul => x * y | CDiv => x / y end%Q.
(** A valid constant: the denominator is not zero and both arguments fit. *)
Definition valid_constant (c : constant) : Prop :=
  snd c <> 0 /\ Z.abs (fst c) <= intmax_max /\ Z.abs (snd c) <= intmax_max.
(** Lowest terms, positive denominator. *)
Definition lowest_terms (c : constant) : Prop := 0 < snd c /\ Z.gcd (fst c) (snd c) = 1.

(** ** Proofs *)
Lemma fits_iff n : fits n = true <-> Z.abs n <= intmax_max.
Proof. unfold fits. rewrite andb_true_iff, !Z.leb_le. lia. Qed.

Lemma ratio_spec n d c : d <> 0 ->
  (ratio n d = Ret c <-> (lowest_terms c /\ n * snd c = fst c * d /\ Z.abs (fst c) <= intmax_max /\ Z.abs (snd c) <= intmax_max)).
Proof.
  intros Hd. unfold ratio. destruct (Z.eqb_spec d 0); [contradiction|].
  set (g := Z.gcd n d). assert (Hg : 0 < g).
  { assert (0 <= g) by apply Z.gcd_nonneg. assert (g <> 0); [|lia]. intros E. apply Z.gcd_eq_0_r in E. contradiction. }
  destruct (Z.gcd_divide_l n d) as [n' Hn]. destruct (Z.gcd_divide_r n d) as [d' Hdd]. fold g in Hn, Hdd.
  assert (En : n / g = n') by (rewrite Hn; apply Z.div_mul; lia).
  assert (Ed : d / g = d') by (rewrite Hdd; apply Z.div_mul; lia).
  assert (G1 : Z.gcd n' d' = 1).
  { assert (X : Z.gcd (n' * g) (d' * g) = Z.gcd n' d' * g) by (rewrite Z.gcd_mul_mono_r_nonneg by lia; reflexivity).
    rewrite <- Hn, <- Hdd in X. fold g in X. nia. }
  assert (Hd' : d' <> 0) by (intros E; rewrite E in Hdd; lia).
  rewrite En, Ed.
  assert (Sg : Z.sgn d = Z.sgn d') by (rewrite Hdd, Z.sgn_mul, (Z.sgn_pos g) by lia; lia). rewrite Sg.
  assert (L : lowest_terms (Z.sgn d' * n', Z.abs d')).
  { split; simpl; [lia|]. rewrite Z.gcd_abs_r. destruct (Z.sgn_spec d') as [[_ E]|[[E _]|[_ E]]]; try lia; rewrite E.
    - rewrite Z.mul_1_l. exact G1.
    - replace (-1 * n') with (- n') by lia. rewrite Z.gcd_opp_l. exact G1. }
  assert (X : n * Z.abs d' = Z.sgn d' * n' * d).
  { rewrite Hn, Hdd, <- Z.sgn_abs. ring. }
  split.
  - destruct (fits (Z.sgn d' * n') && fits (Z.abs d')) eqn:F; [|discriminate]. intros E. injection E as <-.
    apply andb_true_iff in F as [F1 F2]. apply fits_iff in F1, F2. simpl. auto.
  - intros (Lc & Ec & R1 & R2). destruct c as [cn cd]. simpl in *.
    assert (E : Z.sgn d' * n' = cn /\ Z.abs d' = cd).
    { destruct L as [L1 L2], Lc as [L3 L4]. simpl in *.
      assert (Cr : Z.sgn d' * n' * cd = cn * Z.abs d').
      { assert (d * (Z.sgn d' * n' * cd) = d * (cn * Z.abs d')); [|nia].
        replace (d * (Z.sgn d' * n' * cd)) with ((Z.sgn d' * n' * d) * cd) by ring. rewrite <- X.
        replace (d * (cn * Z.abs d')) with ((cn * d) * Z.abs d') by ring. rewrite <- Ec. ring. }
      assert (D1 : (cd | Z.abs d')).
      { apply Z.gauss with cn; [exists (Z.sgn d' * n'); lia|]. now rewrite Z.gcd_comm. }
      assert (D2 : (Z.abs d' | cd)).
      { apply Z.gauss with (Z.sgn d' * n'); [exists cn; lia|]. now rewrite Z.gcd_comm. }
      assert (Z.abs d' = cd) by (apply Z.divide_antisym_nonneg; auto; lia). split; nia. }
    destruct E as [-> ->]. rewrite (proj2 (fits_iff cn) R1), (proj2 (fits_iff cd) R2). reflexivity.
Qed.

Lemma ratio_total n d : d <> 0 -> exists c, lowest_terms c /\ n * snd c = fst c * d /\
  (Z.abs n <= intmax_max -> Z.abs d <= intmax_max -> ratio n d = Ret c).
Proof.
  intros Hd. set (g := Z.gcd n d). assert (Hg : 0 < g).
  { assert (0 <= g) by apply Z.gcd_nonneg. assert (g <> 0); [|lia]. intros E. apply Z.gcd_eq_0_r in E. contradiction. }
  destruct (Z.gcd_divide_l n d) as [n' Hn]. destruct (Z.gcd_divide_r n d) as [d' Hdd]. fold g in Hn, Hdd.
  assert (G1 : Z.gcd n' d' = 1).
  { assert (X : Z.gcd (n' * g) (d' * g) = Z.gcd n' d' * g) by (rewrite Z.gcd_mul_mono_r_nonneg by lia; reflexivity).
    rewrite <- Hn, <- Hdd in X. fold g in X. nia. }
  assert (Hd' : d' <> 0) by (intros E; rewrite E in Hdd; lia).
  exists (Z.sgn d' * n', Z.abs d').
  assert (L : lowest_terms (Z.sgn d' * n', Z.abs d')).
  { split; simpl; [lia|]. rewrite Z.gcd_abs_r. destruct (Z.sgn_spec d') as [[_ E]|[[E _]|[_ E]]]; try lia; rewrite E.
    - rewrite Z.mul_1_l. exact G1.
    - replace (-1 * n') with (- n') by lia. rewrite Z.gcd_opp_l. exact G1. }
  assert (X : n * Z.abs d' = Z.sgn d' * n' * d) by (rewrite Hn, Hdd, <- Z.sgn_abs; ring).
  split; [exact L|]. split; [exact X|]. intros R1 R2. apply ratio_spec; auto. simpl. repeat split; try apply L; auto.
  - rewrite Z.abs_mul. assert (Z.abs (Z.sgn d') = 1) by (destruct (Z.sgn_spec d') as [[_ ->]|[[? _]|[_ ->]]]; lia).
    rewrite Hn, Z.abs_mul in R1. nia.
  - rewrite Hdd, Z.abs_mul in R2. nia.
Qed.

Lemma cross_value (a b c d : Z) : b <> 0 -> d <> 0 -> (inject_Z a / inject_Z b == inject_Z c / inject_Z d)%Q <-> a * d = c * b.
Proof.
  intros Hb Hd.
  assert (nb : ~ (inject_Z b == 0)%Q) by (intros E; apply Hb; apply inject_Z_injective; exact E).
  assert (nd : ~ (inject_Z d == 0)%Q) by (intros E; apply Hd; apply inject_Z_injective; exact E).
  rewrite <- (inject_Z_injective (a * d) (c * b)), !inject_Z_mult. split; intros H.
  - setoid_replace (inject_Z a) with (inject_Z a / inject_Z b * inject_Z b)%Q by (field; auto). rewrite H. field. auto.
  - setoid_replace (inject_Z a / inject_Z b)%Q with (inject_Z a * inject_Z d / (inject_Z b * inject_Z d))%Q by (field; auto).
    rewrite H. field. auto.
Qed.

Lemma ratio_of_spec a : valid_constant a -> exists c, ratio_of a = Ret c /\ lowest_terms c /\ (cvalue c == cvalue a)%Q /\ valid_constant c.
Proof.
  intros (H0 & H1 & H2). destruct (ratio_total (fst a) (snd a) H0) as (c & L & E & T). exists c.
  assert (Rc : ratio (fst a) (snd a) = Ret c) by auto.
  unfold ratio_of. rewrite (proj2 (fits_iff _) H1), (proj2 (fits_iff _) H2). split; [exact Rc|]. split; auto.
  destruct L as [L1 L2]. split.
  - unfold cvalue. rewrite cross_value by lia. lia.
  - apply ratio_spec in Rc as (_ & _ & R1 & R2); auto. split; auto. lia.
Qed.

Lemma nz_inject z : z <> 0 -> ~ (inject_Z z == 0)%Q.
Proof. intros H E. apply H. apply inject_Z_injective. exact E. Qed.

(** *** C41 : arithmetic *)
(** For all valid constants and every operation (division by a non-zero
    constant): the result is exactly the constant in lowest terms with a positive
    denominator that has the mathematical value, and the expression fails to
    compile exactly when that constant does not fit in std::intmax_t. *)
Theorem C41_exact : forall (o : cop) (a b c : constant),
  valid_constant a -> valid_constant b -> (o = CDiv -> fst b <> 0) ->
  (c_op o a b = Ret c <->
   (lowest_terms c /\ valid_constant c /\ (cvalue c == cmath o (cvalue a) (cvalue b))%Q)).
Proof.
  intros o a b c Va Vb Hb. destruct (ratio_of_spec a Va) as (x & Ex & Lx & Qx & Vx).
  destruct (ratio_of_spec b Vb) as (y & Ey & Ly & Qy & Vy).
  unfold c_op. rewrite Ex, Ey. cbn [obind].
  assert (Hy : o = CDiv -> fst y <> 0).
  { intros Ho E. apply (Hb Ho). unfold cvalue in Qy. rewrite E in Qy.
    destruct Vb as (B & _), Vy as (Y & _). rewrite cross_value in Qy by auto. rewrite Z.mul_0_l in Qy. symmetry in Qy. apply Z.mul_eq_0 in Qy. tauto. }
  assert (Sub : (cvalue c == cmath o (cvalue a) (cvalue b))%Q <-> (cvalue c == cmath o (cvalue x) (cvalue y))%Q)
    by (destruct o; cbn [cmath]; rewrite Qx, Qy; reflexivity).
  rewrite Sub. clear Sub.
  destruct x as [n1 d1], y as [n2 d2]. destruct Lx as [X1 X2], Ly as [Y1 Y2]. simpl in *.
  assert (D : forall n d, d <> 0 -> (cmath o (cvalue (n1, d1)) (cvalue (n2, d2)) == inject_Z n / inject_Z d)%Q ->
     (ratio n d = Ret c <-> (lowest_terms c /\ valid_constant c /\ (cvalue c == cmath o (cvalue (n1, d1)) (cvalue (n2, d2)))%Q))).
  { intros n d Hd E. rewrite ratio_spec by auto. rewrite E. unfold valid_constant. destruct c as [cn cd].
    unfold cvalue. simpl. split.
    - intros (L & Ec & R1 & R2). assert (cd <> 0) by (destruct L as [L _]; simpl in L; lia).
      repeat split; try apply L; auto. apply cross_value; auto.
    - intros (L & (Z0 & R1 & R2) & Ec). rewrite cross_value in Ec by auto. auto. }
  assert (N1 := nz_inject d1 ltac:(lia)). assert (N2 := nz_inject d2 ltac:(lia)).
  destruct o; cbn [ratio_op]; apply D; try nia;
    unfold cvalue; cbn [cmath fst snd]; unfold Z.sub; rewrite ?inject_Z_plus, ?inject_Z_opp, ?inject_Z_mult, ?inject_Z_opp, ?inject_Z_mult.
  - field. auto.
  - field. auto.
  - field. auto.
  - specialize (Hy eq_refl). nia.
  - assert (N3 := nz_inject n2 (Hy eq_refl)). field. auto.
Qed.
Print Assumptions C41_exact.
Example C41_ex : c_op CAdd (2, 4) (-1, -6) = Ret (2, 3) /\ c_op CDiv (1, 2) (-3, 4) = Ret (-2, 3) /\
  c_op CMul (intmax_max, 1) (2, 1) = Throw /\ valid_constant (-1, -6).
Proof. vm_compute. repeat split; congruence. Qed.

(** Division by zero does not compile; == compares values; negation and absolute
    value are exact. *)
Theorem C41_division_by_zero : forall a d, valid_constant a -> valid_constant (0, d) -> c_op CDiv a (0, d) = Throw.
Proof.
  intros a d Va Vb. destruct (ratio_of_spec a Va) as ([n1 d1] & Ex & Lx & Qx & Vx).
  destruct (ratio_of_spec _ Vb) as ([n2 d2] & Ey & Ly & Qy & Vy). unfold c_op. rewrite Ex, Ey. cbn [obind ratio_op].
  destruct Vb as (B & _), Vy as (Y & _). unfold cvalue in Qy. rewrite cross_value in Qy by auto. simpl in *.
  assert (n2 = 0) by nia. subst. rewrite Z.mul_0_r. reflexivity.
Qed.
Print Assumptions C41_division_by_zero.
Theorem C41_equality : forall a b, valid_constant a -> valid_constant b ->
  exists r, c_eq a b = Ret r /\ (r = true <-> (cvalue a == cvalue b)%Q).
Proof.
  intros a b Va Vb. destruct (ratio_of_spec a Va) as ([n1 d1] & Ex & Lx & Qx & Vx).
  destruct (ratio_of_spec b Vb) as ([n2 d2] & Ey & Ly & Qy & Vy). unfold c_eq. rewrite Ex, Ey. cbn [obind fst snd].
  eexists. split; [reflexivity|]. rewrite <- Qx, <- Qy, andb_true_iff, !Z.eqb_eq. unfold cvalue. cbn [fst snd].
  destruct Lx as [X1 X2], Ly as [Y1 Y2]. simpl in *. rewrite cross_value by lia. split; [intros [-> ->]; auto|].
  intros E.
  assert (A1 : (d1 | d2)) by (apply Z.gauss with n1; [exists n2; lia|now rewrite Z.gcd_comm]).
  assert (A2 : (d2 | d1)) by (apply Z.gauss with n2; [exists n1; lia|now rewrite Z.gcd_comm]).
  assert (d1 = d2) by (apply Z.divide_antisym_nonneg; auto; lia). nia.
Qed.
Print Assumptions C41_equality.
Theorem C41_neg_abs : forall a, valid_constant a ->
  valid_constant (c_neg a) /\ (cvalue (c_neg a) == - cvalue a)%Q /\
  valid_constant (c_abs a) /\ (cvalue (c_abs a) == Qabs.Qabs (cvalue a))%Q /\
  valid_constant (c_pos a) /\ (cvalue (c_pos a) == cvalue a)%Q.
Proof.
  intros [n d] (H0 & H1 & H2). simpl in *. unfold c_pos, c_neg, c_abs, valid_constant, cvalue. cbn [fst snd].
  assert (N := nz_inject d H0).
  assert (A : (1 - 2 * (if n <? 0 then 1 else 0)) * n = Z.abs n) by (destruct (Z.ltb_spec n 0); lia).
  assert (B : (1 - 2 * (if d <? 0 then 1 else 0)) * d = Z.abs d) by (destruct (Z.ltb_spec d 0); lia).
  rewrite A, B. repeat split; try lia.
  - rewrite inject_Z_opp. field. auto.
  - rewrite (Qabs.Qabs_Qmult (inject_Z n) (/ inject_Z d)). unfold Qdiv. apply Qmult_comp; [reflexivity|].
    destruct d; [congruence| |]; reflexivity.
Qed.
Print Assumptions C41_neg_abs.

(** *** C41 : sine and cosine *)
Lemma whole_spec arg off : forall b, is_whole_factor arg c_pi off = Ret b -> valid_constant arg -> valid_constant off ->
  (b = true <-> exists k : Z, (cvalue arg - cvalue off == inject_Z k * cvalue c_pi)%Q).
Proof.
  intros b H Va Vo. unfold is_whole_factor in H.
  destruct (ratio_of_spec arg Va) as (x & Ex & Lx & Qx & Vx). destruct (ratio_of_spec off Vo) as (y & Ey & Ly & Qy & Vy).
  rewrite Ex, Ey in H. cbn [obind] in H. change (ratio_of c_pi) with (Ret c_pi) in H. cbn [obind] in H.
  apply obind_ret in H as (s & Hs & H). apply obind_ret in H as (q & Hq & H). injection H as <-.
  assert (Vpi : valid_constant c_pi) by (vm_compute; repeat split; congruence).
  assert (Self : forall z, lowest_terms z -> valid_constant z -> ratio_of z = Ret z).
  { intros z Lz (Z0 & Z1 & Z2). unfold ratio_of. rewrite (proj2 (fits_iff _) Z1), (proj2 (fits_iff _) Z2).
    cbn [andb]. apply ratio_spec; auto. }
  assert (Cs : c_op CSub x y = Ret s) by (unfold c_op; rewrite !Self by auto; exact Hs).
  apply C41_exact in Cs as (Ls & Vs & Qs); auto; [|discriminate].
  assert (Cq : c_op CDiv s c_pi = Ret q).
  { unfold c_op. rewrite !Self by auto. change (ratio_of c_pi) with (Ret c_pi). exact Hq. }
  apply C41_exact in Cq as (Lq & Vq & Qq); auto; [|intros _; discriminate].
  cbn [cmath] in Qs, Qq. assert (Ar : (cvalue arg - cvalue off == cvalue s)%Q) by (rewrite Qs, Qx, Qy; reflexivity). rewrite Z.eqb_eq.
  assert (Npi : ~ (cvalue c_pi == 0)%Q) by discriminate.
  destruct q as [qn qd]. destruct Lq as [Q1 Q2]. simpl in Q1, Q2. unfold cvalue at 1 in Qq. cbn [fst snd] in *. split.
  - intros ->. exists qn. rewrite Ar. setoid_replace (inject_Z qn) with (inject_Z qn / inject_Z 1)%Q by (field).
    rewrite Qq. field. auto.
  - intros [k Hk]. rewrite Ar in Hk. rewrite Hk in Qq.
    assert (E : (inject_Z qn / inject_Z qd == inject_Z k / inject_Z 1)%Q) by (rewrite Qq; field; auto).
    rewrite cross_value in E by lia. assert (qn = k * qd) by lia. subst qn.
    rewrite Z.gcd_comm, (Z.mul_comm k), Z.gcd_mul_diag_l in Q2 by lia. auto.
Qed.

(** An argument that is the rational q times the library's pi stands for q times
    the real pi.  Where sin and cos simplify, the result is right for sin at all
    whole multiples of pi and at pi/2 plus multiples of 2 pi, and for cos at
    pi/2 plus whole multiples of pi and at even multiples.  (Partial: at the
    remaining multiples the result has the wrong sign, see below.) *)
Definition stands_for (a : constant) (q : Q) : Prop := (cvalue a == q * cvalue c_pi)%Q.
Definition real_of (c : constant) : R := (IZR (fst c) / IZR (snd c))%R.

Lemma trig_cases p h a r : valid_constant a -> c_trig p h a = Ret (Some r) ->
  (r = p /\ exists k : Z, stands_for a (inject_Z k)) \/ (r = h /\ exists k : Z, stands_for a (inject_Z k + (1#2))).
Proof.
  intros Va H. unfold c_trig in H. apply obind_ret in H as (w & Hw & H).
  apply obind_ret in H as (hf & Hh & H). apply obind_ret in H as (b & Hb & H).
  assert (Vpi : valid_constant c_pi) by (vm_compute; repeat split; congruence).
  assert (V0 : valid_constant (0, 1)) by (vm_compute; repeat split; congruence).
  assert (V2 : valid_constant (2, 1)) by (vm_compute; repeat split; congruence).
  apply C41_exact in Hh as (Lh & Vh & Qh); auto; [|intros _; discriminate].
  pose proof (whole_spec a _ w Hw Va V0) as W. pose proof (whole_spec a hf b Hb Va Vh) as B.
  destruct w, b; try discriminate; injection H as <-.
  - left. split; auto. destruct (proj1 W eq_refl) as [k Hk]. exists k. unfold stands_for. rewrite <- Hk.
    assert (Z0 : (cvalue (0, 1)%Z == 0)%Q) by reflexivity. rewrite Z0. ring.
  - right. split; auto. destruct (proj1 B eq_refl) as [k Hk]. exists k. unfold stands_for.
    rewrite Qmult_plus_distr_l, <- Hk, Qh. cbn [cmath].
    assert (Z0 : (cvalue (2, 1)%Z == 2)%Q) by reflexivity. rewrite Z0. field.
Qed.

Lemma half_int j k : (inject_Z j == inject_Z k + (1#2))%Q -> False.
Proof. unfold Qeq, Qplus, inject_Z. cbn [Qnum Qden]. change (1 * 2)%positive with 2%positive. lia. Qed.
Lemma half_half j k : (inject_Z j + (1#2) == inject_Z k + (1#2))%Q -> j = k.
Proof. intros H. apply inject_Z_injective. setoid_replace (inject_Z j) with (inject_Z j + (1#2) - (1#2))%Q by ring. rewrite H. ring. Qed.
Lemma sin_kpi k : sin (IZR k * PI) = 0%R.
Proof. rewrite sin_eq_0_1; auto. exists k. reflexivity. Qed.
Lemma Q2R_inj k : Q2R (inject_Z k) = IZR k.
Proof. unfold Q2R, inject_Z. simpl. field. Qed.
Lemma Q2R_half k : Q2R (inject_Z k + (1#2)) = (IZR k + 1/2)%R.
Proof. rewrite Qreals.Q2R_plus, Q2R_inj. unfold Q2R. simpl. lra. Qed.

Lemma stands_unique a q q' : stands_for a q -> stands_for a q' -> (q == q')%Q.
Proof.
  unfold stands_for. intros H1 H2. assert (Npi : ~ (cvalue c_pi == 0)%Q) by discriminate.
  apply (Qmult_inj_r _ _ _ Npi). rewrite <- H1. exact H2.
Qed.

Theorem C41_sin_partial : forall a q r, valid_constant a -> stands_for a q -> c_sin a = Ret (Some r) ->
  (exists k : Z, (q == inject_Z k)%Q) \/ (exists m : Z, (q == inject_Z (2 * m) + (1#2))%Q) ->
  real_of r = sin (Q2R q * PI).
Proof.
  intros a q r Va Sq H Hq. apply trig_cases in H as [[-> [k Sk]]|[-> [k Sk]]]; auto;
    pose proof (stands_unique _ _ _ Sq Sk) as E; rewrite (Qreals.Qeq_eqR _ _ E).
  - rewrite Q2R_inj, sin_kpi. unfold real_of. simpl. field.
  - rewrite Q2R_half. destruct Hq as [[j Hj]|[m Hm]].
    + exfalso. rewrite Hj in E. eapply half_int. (exact E || (symmetry; exact E)).
    + rewrite Hm in E. assert (k = 2 * m) by (symmetry; apply half_half; exact E). subst k.
      replace ((IZR (2 * m) + 1 / 2) * PI)%R with (PI / 2 + 2 * IZR m * PI)%R by (rewrite mult_IZR; field).
      unfold real_of. simpl. rewrite sin_plus.
      assert (S0 : sin (2 * IZR m * PI) = 0%R) by (rewrite <- mult_IZR; apply sin_kpi).
      assert (C1 : cos (2 * IZR m * PI) = 1%R).
      { replace (2 * IZR m * PI)%R with (2 * (IZR m * PI))%R by ring. rewrite cos_2a_sin, sin_kpi. ring. }
      rewrite S0, C1, sin_PI2. field.
Qed.
Print Assumptions C41_sin_partial.
Theorem C41_cos_partial : forall a q r, valid_constant a -> stands_for a q -> c_cos a = Ret (Some r) ->
  (exists m : Z, (q == inject_Z (2 * m))%Q) \/ (exists k : Z, (q == inject_Z k + (1#2))%Q) ->
  real_of r = cos (Q2R q * PI).
Proof.
  intros a q r Va Sq H Hq. apply trig_cases in H as [[-> [k Sk]]|[-> [k Sk]]]; auto;
    pose proof (stands_unique _ _ _ Sq Sk) as E; rewrite (Qreals.Qeq_eqR _ _ E).
  - rewrite Q2R_inj. destruct Hq as [[m Hm]|[j Hj]].
    + rewrite Hm in E. assert (k = 2 * m) by (symmetry; apply inject_Z_injective; exact E). subst k.
      replace (IZR (2 * m) * PI)%R with (2 * (IZR m * PI))%R by (rewrite mult_IZR; field).
      rewrite cos_2a_sin, sin_kpi. unfold real_of. simpl. field.
    + exfalso. rewrite Hj in E. eapply half_int. (exact E || (symmetry; exact E)).
  - rewrite Q2R_half. replace ((IZR k + 1 / 2) * PI)%R with (PI / 2 + IZR k * PI)%R by field.
    rewrite cos_plus, cos_PI2, sin_kpi. unfold real_of. simpl. field.
Qed.
Print Assumptions C41_cos_partial.
Example C41_ex_trig : c_sin (3 * 47627751, 15160384) = Ret (Some (0, 1)) /\ c_sin (47627751, 2 * 15160384) = Ret (Some (1, 1)) /\
  c_cos (2 * 47627751, 15160384) = Ret (Some (1, 1)) /\ c_sin (1, 2) = Ret None /\ stands_for (47627751, 2 * 15160384) (1#2).
Proof. vm_compute. auto. Qed.

(** sin(3/2 pi) is given as 1 and cos(pi) as 1. *)
Theorem C41_trig_refuted :
  (c_sin (3 * 47627751, 2 * 15160384) = Ret (Some (1, 1)) /\ stands_for (3 * 47627751, 2 * 15160384) (3#2) /\
   real_of (1, 1) <> sin (Q2R (3#2) * PI)) /\
  (c_cos c_pi = Ret (Some (1, 1)) /\ stands_for c_pi 1 /\ real_of (1, 1) <> cos (Q2R 1 * PI)).
Proof.
  split; (split; [vm_compute; reflexivity|split; [vm_compute; reflexivity|]]); unfold real_of, Q2R; simpl.
  - replace (3 * / 2 * PI)%R with (PI / 2 + PI)%R by field. rewrite neg_sin, sin_PI2. lra.
  - replace (1 * / 1 * PI)%R with PI by field. rewrite cos_PI. lra.
Qed.
Print Assumptions C41_trig_refuted.

(** Exactly when the results are right: a result is given only at multiples of
    half pi; sine is wrong exactly at 3/2 + 2m times pi, cosine exactly at the
    odd multiples of pi. *)
Lemma odd_split (k : Z) : (exists m, k = 2 * m) \/ (exists m, k = 2 * m + 1).
Proof.
  destruct (Z.Even_or_Odd k) as [[m E]|[m E]]; [left|right]; exists m; exact E.
Qed.
Lemma cos_2mpi (m : Z) : cos (2 * IZR m * PI) = 1%R.
Proof. replace (2 * IZR m * PI)%R with (2 * (IZR m * PI))%R by ring. rewrite cos_2a_sin, sin_kpi. ring. Qed.
Lemma sin_2mpi (m : Z) : sin (2 * IZR m * PI) = 0%R.
Proof. rewrite <- mult_IZR. apply sin_kpi. Qed.
Theorem C41_sin_iff : forall a q r, valid_constant a -> stands_for a q -> c_sin a = Ret (Some r) ->
  (real_of r = sin (Q2R q * PI) <-> ~ exists m : Z, (q == inject_Z (2 * m) + (3#2))%Q).
Proof.
  intros a q r Va Sq H. split.
  - intros Hr [m Hm]. apply trig_cases in H as [[-> [k Sk]]|[-> [k Sk]]]; auto;
      pose proof (stands_unique _ _ _ Sq Sk) as E.
    + rewrite Hm in E. revert E. unfold Qeq, Qplus, inject_Z. cbn [Qnum Qden]. change (1 * 2)%positive with 2%positive. lia.
    + assert (Q : Q2R q = (2 * IZR m + 3 / 2)%R).
      { rewrite (Qreals.Qeq_eqR _ _ Hm), Qreals.Q2R_plus, Q2R_inj, mult_IZR. unfold Q2R. simpl. field. }
      revert Hr. rewrite Q. replace ((2 * IZR m + 3 / 2) * PI)%R with ((PI / 2 + PI) + 2 * IZR m * PI)%R by field.
      rewrite sin_plus, cos_2mpi, sin_2mpi, neg_sin, sin_PI2. unfold real_of. simpl. lra.
  - intros N. pose proof H as H'. apply (C41_sin_partial a q r Va Sq H).
    apply trig_cases in H' as [[-> [k Sk]]|[-> [k Sk]]]; auto; pose proof (stands_unique _ _ _ Sq Sk) as E.
    + left. exists k. exact E.
    + right. destruct (odd_split k) as [[m ->]|[m ->]]; [exists m; exact E|].
      exfalso. apply N. exists m. rewrite E. unfold Qeq, Qplus, inject_Z. cbn [Qnum Qden]. change (1 * 2)%positive with 2%positive. lia.
Qed.
Print Assumptions C41_sin_iff.
Theorem C41_cos_iff : forall a q r, valid_constant a -> stands_for a q -> c_cos a = Ret (Some r) ->
  (real_of r = cos (Q2R q * PI) <-> ~ exists m : Z, (q == inject_Z (2 * m + 1))%Q).
Proof.
  intros a q r Va Sq H. split.
  - intros Hr [m Hm]. apply trig_cases in H as [[-> [k Sk]]|[-> [k Sk]]]; auto;
      pose proof (stands_unique _ _ _ Sq Sk) as E.
    + assert (Q : Q2R q = (2 * IZR m + 1)%R).
      { rewrite (Qreals.Qeq_eqR _ _ Hm), Q2R_inj, plus_IZR, mult_IZR. reflexivity. }
      revert Hr. rewrite Q. replace ((2 * IZR m + 1) * PI)%R with (PI + 2 * IZR m * PI)%R by ring.
      rewrite cos_plus, cos_2mpi, sin_2mpi, cos_PI. unfold real_of. simpl. lra.
    + rewrite Hm in E. eapply half_int. (exact E || (symmetry; exact E)).
  - intros N. pose proof H as H'. apply (C41_cos_partial a q r Va Sq H).
    apply trig_cases in H' as [[-> [k Sk]]|[-> [k Sk]]]; auto; pose proof (stands_unique _ _ _ Sq Sk) as E.
    + left. destruct (odd_split k) as [[m ->]|[m ->]]; [exists m; exact E|].
      exfalso. apply N. exists m. exact E.
    + right. exists k. exact E.
Qed.
Print Assumptions C41_cos_iff.

(** sin and cos are left as they are exactly when the argument is not a multiple of
    half the library's pi (whenever the question can be answered within the range of
    std::intmax_t at all). *)
Lemma trig_kept p h a r : valid_constant a -> c_trig p h a = Ret r ->
  (r = None <-> ~ exists k : Z, stands_for a (inject_Z k * (1#2))%Q).
Proof.
  intros Va H.
  assert (Hf : forall k, (inject_Z k * (1#2) == inject_Z (k / 2) + (if Z.even k then 0 else 1#2))%Q).
  { intros k. destruct (Z.even k) eqn:Ek.
    - rewrite Zeven_bool_iff in Ek. apply Zeven_div2 in Ek. rewrite Z.div2_div in Ek. rewrite Ek at 1.
      unfold Qeq, Qplus, Qmult, inject_Z. cbn [Qnum Qden]. lia.
    - assert (Eo : Z.odd k = true) by (rewrite <- Z.negb_even, Ek; reflexivity).
      rewrite Zodd_bool_iff in Eo. apply Zodd_div2 in Eo. rewrite Z.div2_div in Eo. rewrite Eo at 1.
      unfold Qeq, Qplus, Qmult, inject_Z. cbn [Qnum Qden]. lia. }
  destruct r as [r|].
  - split; [discriminate|]. intros N. exfalso. apply N.
    apply trig_cases in H as [[_ [k Sk]]|[_ [k Sk]]]; auto.
    + exists (2 * k). unfold stands_for in *. rewrite Sk. rewrite inject_Z_mult. change (inject_Z 2) with (2#1). ring.
    + exists (2 * k + 1). unfold stands_for in *. rewrite Sk. rewrite inject_Z_plus, inject_Z_mult.
      change (inject_Z 2) with (2#1). change (inject_Z 1) with (1#1). ring.
  - split; [intros _|auto]. intros [k Sk].
    unfold c_trig in H. apply obind_ret in H as (w & Hw & H).
    apply obind_ret in H as (hf & Hh & H). apply obind_ret in H as (b & Hb & H).
    assert (Vpi : valid_constant c_pi) by (vm_compute; repeat split; congruence).
    assert (V0 : valid_constant (0, 1)) by (vm_compute; repeat split; congruence).
    assert (V2 : valid_constant (2, 1)) by (vm_compute; repeat split; congruence).
    apply C41_exact in Hh as (Lh & Vh & Qh); auto; [|intros _; discriminate].
    pose proof (whole_spec a _ w Hw Va V0) as W. pose proof (whole_spec a hf b Hb Va Vh) as B.
    assert (Z0 : (cvalue (0, 1)%Z == 0)%Q) by reflexivity. assert (Z2 : (cvalue (2, 1)%Z == 2)%Q) by reflexivity.
    unfold stands_for in Sk. rewrite (Hf k) in Sk. destruct (Z.even k).
    + assert (Tw : w = true) by (apply W; exists (k / 2); rewrite Sk, Z0; ring). subst w. destruct b; discriminate.
    + assert (Tb : b = true) by (apply B; exists (k / 2); rewrite Sk, Qh; cbn [cmath]; rewrite Z2; field). subst b. destruct w; discriminate.
Qed.
Theorem C41_kept_iff : forall a r, valid_constant a -> c_sin a = Ret r \/ c_cos a = Ret r ->
  (r = None <-> ~ exists k : Z, stands_for a (inject_Z k * (1#2))%Q).
Proof. intros a r Va [H|H]; eapply trig_kept; eauto. Qed.
Print Assumptions C41_kept_iff.
Example C41_kept_ex : c_sin (1, 3) = Ret None /\ valid_constant (1, 3) /\ c_cos (3 * 47627751, 2 * 15160384) = Ret (Some (0, 1)).
Proof. repeat split; try (vm_compute; congruence). Qed.

(** *** C42 *)
Definition zfact : nat -> Z := fix f (i : nat) := match i with O => 1 | S j => Z.of_nat i * f j end.
Lemma zfact_fact i : zfact i = Z.of_nat (fact i).
Proof.
  induction i; auto. cbn [fact]. change (fact i + i * fact i)%nat with (S i * fact i)%nat. rewrite Nat2Z.inj_mul, <- IHi. reflexivity.
Qed.
Lemma factorial_small : forall i, (i <= 20)%nat -> factorial i = Ret (Z.of_nat (fact i), 1).
Proof.
  assert (H : forallb (fun i => match factorial i with Ret (n, 1) => n =? zfact i | _ => false end) (seq 0 21) = true)
    by (vm_compute; reflexivity).
  intros i Hi. rewrite forallb_forall in H. specialize (H i ltac:(apply in_seq; lia)).
  destruct (factorial i) as [[n [|[]|]]| | |]; try discriminate. apply Z.eqb_eq in H. rewrite H, zfact_fact. reflexivity.
Qed.
Lemma factorial_large : forall i, (21 <= i)%nat -> factorial i = Throw.
Proof.
  intros i Hi. induction i as [|i IH]; [lia|]. destruct (Nat.eq_dec i 20) as [->|]; [vm_compute; reflexivity|].
  destruct i as [|i]; [lia|]. change (factorial (S (S i))) with (do f <- factorial (S i); do r <- ratio_of f;
     let p := (Z.of_nat (S (S i)) * fst r) mod 2 ^ 64 in if p <? 2 ^ 63 then Ret (p, 1) else Throw).
  rewrite IH by lia. reflexivity.
Qed.

(** Factorial<n> is n! and InvFactorial<n> is 1/n! for every n for which they
    compile, which is n <= 20. *)
Theorem C42_factorial : forall n : nat,
  ((n <= 20)%nat -> factorial n = Ret (Z.of_nat (fact n), 1) /\ inv_factorial n = Ret (1, Z.of_nat (fact n))) /\
  ((20 < n)%nat -> factorial n = Throw /\ inv_factorial n = Throw).
Proof.
  intros n. split; intros Hn.
  - pose proof (factorial_small n Hn) as E. split; auto. unfold inv_factorial. rewrite E. cbn [obind].
    assert (B : Z.of_nat (fact n) <= intmax_max).
    { transitivity (Z.of_nat (fact 20)).
      - apply inj_le. apply fact_le. auto.
      - rewrite <- zfact_fact. vm_compute. discriminate. }
    assert (P := lt_O_fact n).
    assert (X : ratio_of (Z.of_nat (fact n), 1) = Ret (Z.of_nat (fact n), 1)).
    { unfold ratio_of. cbn [fst snd]. rewrite (proj2 (fits_iff _)) by lia. rewrite (proj2 (fits_iff 1)) by (vm_compute; discriminate).
      cbn [andb]. apply ratio_spec; [lia|]. cbn [fst snd]. repeat split; cbn [fst snd]; try lia.
      apply Z.gcd_1_r. }
    rewrite X. reflexivity.
  - assert (E := factorial_large n ltac:(lia)). unfold inv_factorial. rewrite E. split; reflexivity.
Qed.
Print Assumptions C42_factorial.
Example C42_ex : factorial 5 = Ret (120, 1) /\ inv_factorial 5 = Ret (1, 120) /\ factorial 21 = Throw.
Proof. vm_compute. auto. Qed.
