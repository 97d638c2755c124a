(** C62: precision(f, x) bounds the rounding error of f(x). *)
From Coq Require Import List Reals Lra Lia Arith Psatz ZArith.
From Flocq Require Import Core Relative.
From Verif Require Import Outcome Num PolyModel PolySpec PolyBase PolyProofs NumericProofs RoundModel.
Import ListNotations.
Open Scope R_scope.

(** Arithmetic with [digits] binary digits: results are within half a unit in the
    last place of the exact value. *)
Definition rounds (digits : nat) (rnd : R -> R) : Prop :=
  forall y, Rabs (rnd y - y) <= / 2 ^ digits * Rabs y.

Section Horner.
Variables (u : R) (rnd : R -> R) (x : R).
Hypothesis u0 : 0 <= u.
Hypothesis rnd_ok : forall y, Rabs (rnd y - y) <= u * Rabs y.

Fixpoint hs (f : list R) : R := match f with [] => 0 | a :: t => rnd (rnd (hs t * x) + a) end.
Fixpoint Mw (n : nat) (f : list R) : R := match f with [] => 0 | a :: t => (1 + u) ^ n * Rabs a + Rabs x * Mw (2 + n) t end.
Fixpoint Ew (n : nat) (f : list R) : R := match f with [] => 0 | a :: t => ((1 + u) ^ n - 1) * Rabs a + Rabs x * Ew (2 + n) t end.
Fixpoint Ww (n : nat) (f : list R) : R := match f with [] => 0 | a :: t => INR n * Rabs a + Rabs x * Ww (2 + n) t end.

Lemma rnd_abs y : Rabs (rnd y) <= (1 + u) * Rabs y.
Proof. pose proof (rnd_ok y). pose proof (Rabs_triang (rnd y - y) y). replace (rnd y - y + y) with (rnd y) in H0 by ring. lra. Qed.
Lemma Mw_shift f : forall n, Mw (2 + n) f = (1 + u) ^ 2 * Mw n f.
Proof. induction f as [|a t IH]; intros n; cbn [Mw]; [ring|]. rewrite IH. rewrite pow_add. ring. Qed.
Lemma Ew_shift f : forall n, Ew (2 + n) f = (2 * u + u ^ 2) * Mw n f + Ew n f.
Proof. induction f as [|a t IH]; intros n; cbn [Mw Ew]; [ring|]. rewrite IH. rewrite pow_add. ring. Qed.
Lemma hs_abs f : Rabs (hs f) <= Mw 1 f.
Proof.
  induction f as [|a t IH]; [simpl; rewrite Rabs_R0; lra|]. cbn [hs Mw]. rewrite Mw_shift.
  eapply Rle_trans; [apply rnd_abs|]. pose proof (rnd_abs (hs t * x)) as H1. rewrite Rabs_mult in H1.
  pose proof (Rabs_triang (rnd (hs t * x)) a) as H2. pose proof (Rabs_pos x). pose proof (Rabs_pos (hs t)).
  assert (Rabs (hs t) * Rabs x <= Mw 1 t * Rabs x) by (apply Rmult_le_compat_r; auto).
  assert ((1 + u) * (Rabs (hs t) * Rabs x) <= (1 + u) * (Mw 1 t * Rabs x)) by (apply Rmult_le_compat_l; lra).
  assert (Rabs (rnd (hs t * x) + a) <= (1 + u) * (Mw 1 t * Rabs x) + Rabs a) by lra.
  apply (Rmult_le_compat_l (1 + u)) in H5; [|lra]. simpl. nra.
Qed.
Lemma hs_error f : Rabs (hs f - pval f x) <= Ew 1 f.
Proof.
  induction f as [|a t IH]; [simpl; rewrite pval_nil, Rminus_0_r, Rabs_R0; lra|].
  cbn [hs Ew]. rewrite Ew_shift, pval_cons.
  pose proof (hs_abs t) as Hs. pose proof (rnd_ok (rnd (hs t * x) + a)) as H1. pose proof (rnd_ok (hs t * x)) as H2.
  set (p := rnd (hs t * x)) in *. set (r := rnd (p + a)) in *.
  assert (H3 : Rabs (p + a) <= (1 + u) * (Rabs (hs t) * Rabs x) + Rabs a).
  { rewrite <- Rabs_mult. eapply Rle_trans; [apply Rabs_triang|]. pose proof (rnd_abs (hs t * x)) as H4. fold p in H4. lra. }
  rewrite Rabs_mult in H2.
  replace (r - (a + x * pval t x)) with ((r - (p + a)) + ((p - hs t * x) + (hs t - pval t x) * x)) by ring.
  eapply Rle_trans; [apply Rabs_triang|]. eapply Rle_trans; [apply Rplus_le_compat_l; apply Rabs_triang|]. rewrite (Rabs_mult (hs t - pval t x)).
  pose proof (Rabs_pos x) as X0.
  assert (A1 : Rabs (hs t - pval t x) * Rabs x <= Ew 1 t * Rabs x) by (apply Rmult_le_compat_r; auto).
  assert (A2 : Rabs (hs t) * Rabs x <= Mw 1 t * Rabs x) by (apply Rmult_le_compat_r; auto).
  set (h := Rabs (hs t) * Rabs x) in *. set (m := Mw 1 t * Rabs x) in *.
  assert (A3 : u * Rabs (p + a) <= u * ((1 + u) * h + Rabs a)) by (apply Rmult_le_compat_l; auto).
  assert (A4 : u * h <= u * m) by (apply Rmult_le_compat_l; auto).
  assert (A5 : u * (u * h) <= u * (u * m)) by (apply Rmult_le_compat_l; auto).
  replace (Rabs x * ((2 * u + u ^ 2) * Mw 1 t + Ew 1 t)) with ((2 * u + u * u) * m + Ew 1 t * Rabs x) by (unfold m; ring).
  replace ((1 + u) ^ 1 - 1) with u by ring. lra.
Qed.

Lemma pow_bound n : INR n * u <= / 20 -> (1 + u) ^ n - 1 <= 1.06 * (INR n * u).
Proof.
  intros Hn. destruct n as [|n]; [simpl; lra|].
  assert (Hu : u <= / 20). { rewrite S_INR in Hn. pose proof (pos_INR n). nra. }
  assert (B : forall k, (1 - INR k * u) <= (1 - u) ^ k).
  { induction k as [|k IH]; [simpl; lra|]. rewrite S_INR. cbn [pow].
    destruct (Rle_dec 0 (1 - INR k * u)) as [Q|Q].
    - pose proof (pos_INR k). assert ((1 - u) * (1 - INR k * u) <= (1 - u) * (1 - u) ^ k) by (apply Rmult_le_compat_l; lra). nra.
    - pose proof (pow_le (1 - u) k ltac:(lra)). assert (0 <= (1 - u) * (1 - u) ^ k) by (apply Rmult_le_pos; lra). lra. }
  specialize (B (S n)). set (k := S n) in *. set (d := INR k * u) in *.
  assert (P : (1 + u) ^ k * (1 - u) ^ k <= 1).
  { rewrite <- Rpow_mult_distr. replace ((1 + u) * (1 - u)) with (1 - u * u) by ring.
    replace 1 with (1 ^ k) at 2 by apply pow1. apply pow_incr. assert (0 <= u * u) by (apply Rmult_le_pos; auto). assert (u * u <= 1) by (rewrite <- (Rmult_1_r 1); apply Rmult_le_compat; lra). lra. }
  assert (0 <= d) by (unfold d; pose proof (pos_INR k); nra).
  pose proof (pow_R1_Rle (1 + u) k ltac:(lra)) as G1.
  assert ((1 + u) ^ k * (1 - d) <= 1). { eapply Rle_trans; [|exact P]. apply Rmult_le_compat_l; lra. }
  nra.
Qed.
Lemma Ew_Ww f : forall n, INR (n + 2 * (length f - 1)) * u <= / 20 -> Ew n f <= 1.06 * u * Ww n f.
Proof.
  induction f as [|a t IH]; intros n Hn; cbn [Ew Ww]; [lra|].
  assert (Hn0 : INR n * u <= / 20).
  { eapply Rle_trans; [|exact Hn]. apply Rmult_le_compat_r; auto. apply le_INR. lia. }
  assert (IH' : Ew (2 + n) t <= 1.06 * u * Ww (2 + n) t).
  { destruct t as [|b t]; [simpl; lra|]. apply IH. eapply Rle_trans; [|exact Hn]. apply Rmult_le_compat_r; auto. apply le_INR. simpl. lia. }
  pose proof (pow_bound n Hn0) as P. pose proof (Rabs_pos a). pose proof (Rabs_pos x).
  assert (((1 + u) ^ n - 1) * Rabs a <= 1.06 * (INR n * u) * Rabs a) by (apply Rmult_le_compat_r; auto).
  assert (Rabs x * Ew (2 + n) t <= Rabs x * (1.06 * u * Ww (2 + n) t)) by (apply Rmult_le_compat_l; auto). lra.
Qed.
Lemma Ww_bsum f : forall n, Ww n f = bsum (length f) (fun i => INR (n + 2 * i) * Rabs (get f i) * Rabs x ^ i).
Proof.
  induction f as [|a t IH]; intros n; [reflexivity|]. cbn [Ww length]. rewrite IH, bsum_shift, get_cons_0. simpl (_ ^ 0).
  rewrite Nat.mul_0_r, Nat.add_0_r. rewrite <- bsum_scal. f_equal; [ring|]. apply bsum_ext. intros i _. rewrite get_cons_S.
  replace (n + 2 * S i)%nat with (2 + n + 2 * i)%nat by lia. simpl (_ ^ S i). ring.
Qed.
Lemma precision_Ww eps f : (1 <= porder f)%nat -> poly_precision eps f x = (Ww 1 f - Rabs (get f 0) + get f 0) * eps.
Proof.
  intros Ho. unfold poly_precision. destruct (Nat.eqb_spec (porder f) 0); [lia|]. cbn [nmul R_num]. f_equal.
  match goal with |- context [for_up 1 ?n ?b ?s] =>
    assert (P : (fun i '(sum, xn) => xn = Rabs x ^ i /\ sum = bsum i (fun k => INR (1 + 2 * k) * Rabs (get f k) * Rabs x ^ k) - Rabs (get f 0) + get f 0) (1 + n)%nat (for_up 1 n b s)) end.
  { apply for_up_inv.
    - cbn [bsum]. rewrite nabs_R. split; [simpl; ring|]. simpl. ring.
    - intros i [sum xn] Hi [-> ->]. cbn [nadd nmul R_num]. rewrite !nabs_R, nofnat_INR. split; [simpl; ring|]. cbn [bsum].
      replace (2 * i + 1)%nat with (1 + 2 * i)%nat by lia. ring. }
  destruct (for_up _ _ _ _) as [sum xn]. destruct P as [_ ->]. cbn [fst]. rewrite Ww_bsum.
  replace (length f) with (1 + porder f)%nat; [reflexivity|]. rewrite order_length; [lia|]. intros ->. cbn in Ho. lia.
Qed.
Lemma eval_hs f : (1 <= porder f)%nat -> poly_eval (H := Fl_num rnd) f x = hs f.
Proof.
  intros Ho. destruct f as [|a t]; [cbn in Ho; lia|]. unfold poly_eval. destruct (Nat.eqb_spec (porder (a :: t)) 0); [lia|].
  set (N := porder (a :: t)) in *. cbn [nadd nmul Fl_num n0]. cbn [hs]. unfold get at 2. cbn [nth]. do 4 f_equal.
  pose proof (for_down_inv (fun j s => (j <= N)%nat -> s = hs (skipn (S N - j) (a :: t))) (fun i s => rnd (rnd (s * x) + get (H := Fl_num rnd) (a :: t) i)) N 0 N 0) as P.
  rewrite P.
  - replace (S N - (0 + N))%nat with 1%nat by lia. reflexivity.
  - intros _. rewrite Nat.sub_0_r. rewrite skipn_all2; [reflexivity|]. unfold N. rewrite <- order_length by discriminate. lia.
  - intros j s Hj IH Hle. rewrite IH by lia. cbn [Nat.add]. replace (S N - S j)%nat with (N - j)%nat by lia.
    replace (S N - j)%nat with (S (N - j)) by lia. unfold get.
    assert (HL : (N - j < length (a :: t))%nat) by (rewrite (order_length (a :: t)) by discriminate; fold N; lia). revert HL. generalize (N - j)%nat. generalize (a :: t). clear.
    induction l as [|b l IHl]; intros k Hk; [simpl in Hk; lia|]. destruct k as [|k]; [reflexivity|]. cbn [skipn nth]. cbn [skipn] in IHl. simpl in Hk. rewrite <- IHl by lia. reflexivity.
  - lia.
Qed.
End Horner.

Lemma eval_error digits rnd f x : f <> [] -> rounds digits rnd -> INR (2 * porder f + 1) / 2 ^ digits <= / 20 ->
  Rabs (poly_eval (H := Fl_num rnd) f x - pval f x) <=
    poly_precision (precision_eps digits) f x + precision_eps digits * (Rabs (nth 0 f 0) - nth 0 f 0).
Proof.
  intros Nf Hr Hd. set (u := / 2 ^ digits) in *. assert (u0 : 0 <= u) by (unfold u; left; apply Rinv_0_lt_compat, pow_lt; lra).
  assert (Ee : precision_eps digits = 1.06 * u) by (unfold precision_eps, u; field; apply pow_nonzero; lra).
  destruct (Nat.eqb_spec (porder f) 0) as [E|E].
  - unfold poly_eval, poly_precision. rewrite E. cbn [Nat.eqb n0 R_num]. destruct f as [|a [|b t]]; [congruence| |discriminate E].
    unfold get. cbn [nth]. rewrite pval_cons, pval_nil. replace (a - (a + x * 0)) with 0 by ring. rewrite Rabs_R0, Ee. pose proof (Rle_abs a). nra.
  - rewrite (eval_hs rnd x f) by lia. rewrite precision_Ww by lia.
    eapply Rle_trans; [apply (hs_error u rnd x u0 Hr)|]. eapply Rle_trans; [apply (Ew_Ww u x u0 f 1)|].
    + replace (1 + 2 * (length f - 1))%nat with (2 * porder f + 1)%nat by (rewrite order_length by exact Nf; lia). exact Hd.
    + rewrite Ee. unfold get. cbn [n0 R_num]. lra.
Qed.

(** The estimate bounds the error of Horner's rule when the constant coefficient
    is not negative and the order is below 2^digits/40. *)
Theorem C62_bound_partial : forall digits rnd f x, f <> [] -> rounds digits rnd ->
  INR (2 * porder f + 1) / 2 ^ digits <= / 20 -> 0 <= nth 0 f 0 ->
  Rabs (poly_eval (H := Fl_num rnd) f x - pval f x) <= poly_precision (precision_eps digits) f x.
Proof.
  intros digits rnd f x Nf Hr Hd H0. pose proof (eval_error _ _ f x Nf Hr Hd) as P. rewrite (Rabs_right (nth 0 f 0)) in P by lra. lra.
Qed.
Print Assumptions C62_bound_partial.

(** In general it falls short by at most twice the share of the constant
    coefficient, |f[0]| not being taken. *)
Theorem C62_bound_any_sign : forall digits rnd f x, f <> [] -> rounds digits rnd ->
  INR (2 * porder f + 1) / 2 ^ digits <= / 20 ->
  Rabs (poly_eval (H := Fl_num rnd) f x - pval f x) <=
    poly_precision (precision_eps digits) f x + precision_eps digits * (Rabs (nth 0 f 0) - nth 0 f 0).
Proof. exact eval_error. Qed.
Print Assumptions C62_bound_any_sign.

(** Round to nearest in any precision satisfies [rounds]; so do the doubles as
    long as there is no overflow or underflow. *)
Theorem C62_round_to_nearest : forall digits choice, (1 <= digits)%nat ->
  rounds digits (round radix2 (FLX_exp (Z.of_nat digits)) (Znearest choice)).
Proof.
  intros digits choice Hd y. pose proof (relative_error_N_FLX radix2 (Z.of_nat digits) ltac:(lia) choice y) as P.
  eapply Rle_trans; [exact P|]. apply Rmult_le_compat_r; [apply Rabs_pos|].
  rewrite bpow_plus, bpow_opp. change (bpow radix2 1) with 2. rewrite bpow_powerRZ, <- pow_powerRZ. change (IZR radix2) with 2.
  assert (0 < / 2 ^ digits) by (apply Rinv_0_lt_compat, pow_lt; lra). lra.
Qed.
Print Assumptions C62_round_to_nearest.

(** A negative constant coefficient: for x - 1 at 0 the estimate is negative, so
    it bounds no error at all. *)
Theorem C62_negative_constant_refuted : exists digits rnd f x, f <> [] /\ rounds digits rnd /\
  INR (2 * porder f + 1) / 2 ^ digits <= / 20 /\
  poly_precision (precision_eps digits) f x < Rabs (poly_eval (H := Fl_num rnd) f x - pval f x).
Proof.
  exists 53%nat, (round radix2 (FLX_exp 53) (Znearest (fun _ => true))), [-1; 1], 0. split; [discriminate|]. split; [apply (C62_round_to_nearest 53); lia|]. split.
  - cbn [porder length Nat.pred Nat.mul Nat.add]. simpl INR. lra.
  - eapply Rlt_le_trans; [|apply Rabs_pos]. rewrite precision_Ww by (cbn; lia). unfold get. cbn [Ww nth]. rewrite Rabs_R0, !(Rabs_left (-1)) by lra.
    assert (0 < precision_eps 53) by (unfold precision_eps; apply Rdiv_lt_0_compat; [lra|apply pow_lt; lra]). simpl INR. nra.
Qed.
Print Assumptions C62_negative_constant_refuted.

(** Doubles and order 5: the hypotheses hold. *)
Example C62_example : forall x,
  Rabs (poly_eval (H := Fl_num (round radix2 (FLX_exp 53) ZnearestE)) [1; -2; 3; 4; -5; 6] x - pval [1; -2; 3; 4; -5; 6] x)
  <= poly_precision (precision_eps 53) [1; -2; 3; 4; -5; 6] x.
Proof.
  intros x. apply C62_bound_partial; [discriminate|apply (C62_round_to_nearest 53); lia| |simpl; lra].
  cbn [porder length Nat.pred Nat.mul Nat.add]. simpl INR. lra.
Qed.
