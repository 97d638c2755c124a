(** C73: the root bounds computed in doubles are bounds. *)
From Coq Require Import Lia Lra.
From Flocq Require Import Core Binary Bits.
From Verif Require Import PolySpec PolyBase PolyProofs LMQ.
From Verif Require Import FloatModel FloatSpec FloatProofs FloatQuad FloatSolver FloatSturm FloatLmq PropFloatSolver.
Open Scope R_scope.

#[local] Instance dexp_valid_p : Valid_exp dexp.
Proof. apply FLT_exp_valid. reflexivity. Qed.

Lemma moderate_rev (f : list d64) : Forall moderate f -> Forall moderate (rev f).
Proof. rewrite !Forall_forall. intros H c Hc. apply H, in_rev, Hc. Qed.

Lemma same_sign_no_root (p : list R) sg : (sg = 1 \/ sg = -1) -> (forall i, 0 <= sg * get p i) -> not_zero p ->
  forall x, 0 < x -> pval p x <> 0.
Proof.
  intros Hs Hall Hz x Hx.
  assert (G : forall q, (forall i, 0 <= sg * get q i) -> 0 <= sg * pval q x).
  { clear - Hx. induction q as [|a q IH]; intros H; [rewrite pval_nil; lra|]. rewrite pval_cons.
    assert (0 <= sg * pval q x) by (apply IH; intros i; apply (H (S i))). pose proof (H 0%nat) as Ha. cbn in Ha. nra. }
  assert (P : 0 < sg * pval p x).
  { destruct Hz as (c & Hc & Hc0). induction p as [|a p IH]; [destruct Hc|]. rewrite pval_cons.
    pose proof (Hall 0%nat) as Ha. cbn in Ha. assert (Hp : forall i, 0 <= sg * get p i) by (intros i; apply (Hall (S i))).
    destruct Hc as [-> |Hc].
    - pose proof (G p Hp). assert (0 < sg * c) by (destruct Hs as [-> | ->]; lra). nra.
    - specialize (IH Hp Hc). nra. }
  intros E. rewrite E in P. lra.
Qed.

Lemma d_lower_ok pow (f : list d64) : pow_accurate pow -> Forall moderate f -> (length f <= 31)%nat -> not_zero (map dR f) ->
  exists l, d_LMQ_lower pow f = Ret l /\
    ((l = d_inf false /\ forall x, 0 < x -> pval (map dR f) x <> 0) \/
     (fin l /\ bpow radix2 (-650) <= dR l <= bpow radix2 650 /\ forall x, 0 < x -> x <= dR l -> pval (map dR f) x <> 0)).
Proof.
  intros PA Hm Hlen Hz. unfold d_LMQ_lower.
  assert (Hf : map dR f <> []) by (destruct Hz as [c [Hc _]]; intros E; rewrite E in Hc; destruct Hc).
  assert (Hz' : not_zero (rev (map dR f))) by (apply rev_not_zero; exact Hz).
  destruct (d_upper_ok pow (rev f) PA (moderate_rev f Hm)) as (u & Eu & Fu & Hu & Hu0 & Hr).
  { rewrite rev_length. exact Hlen. }
  { rewrite map_rev. exact Hz'. }
  rewrite map_rev in Hr, Hu0. rewrite Eu. cbn [obind]. eexists. split; [reflexivity|].
  assert (REV : forall x, 0 < x -> pval (rev (map dR f)) (/ x) <> 0 -> pval (map dR f) x <> 0).
  { intros x Hx H E. apply H. rewrite pval_rev; [|apply Rinv_neq_0_compat; lra|exact Hf]. rewrite Rinv_inv, E. ring. }
  destruct Hu0 as [[-> (sg & Hsg & Hall)]|Hu0].
  - left. split; [reflexivity|]. intros x Hx. apply REV; [exact Hx|].
    apply (same_sign_no_root _ sg Hsg Hall Hz'). apply Rinv_0_lt_compat; exact Hx.
  - right. pose proof (bpow_gt_0 radix2 (-650)) as P. destruct one_R as [F1 E1].
    assert (IB : bpow radix2 (-650) <= / dR u <= bpow radix2 650).
    { assert (I1 : bpow radix2 (-650) = / bpow radix2 650) by apply (bpow_opp radix2 650).
      assert (I2 : bpow radix2 650 = / bpow radix2 (-650)) by apply (bpow_opp radix2 (-650)).
      split; [rewrite I1|rewrite I2]; apply Rinv_le_contravar; lra. }
    assert (E : dR d_one / dR u = / dR u) by (rewrite E1; unfold Rdiv; ring).
    destruct (div_R d_one u F1 Fu) as [Fl El]; [lra|rewrite E, Rabs_pos_eq by lra; eapply Rle_trans; [apply IB|apply bpow_le; lia]|].
    rewrite E in El. split; [exact Fl|]. rewrite El.
    assert (BF : forall k, (-1074 <= k)%Z -> drnd (bpow radix2 k) = bpow radix2 k).
    { intros k Hk. apply rnd_fmt. apply generic_format_FLT_bpow; [easy|exact Hk]. }
    split. { rewrite <- (BF (-650)%Z), <- (BF 650%Z) by lia. split; apply rnd_le; apply IB. }
    intros x Hx Hxl. apply REV; [exact Hx|]. apply Hr; [apply Rinv_0_lt_compat; exact Hx|].
    pose proof (rnd_rel (/ dR u) ltac:(eapply Rle_trans; [|apply IB]; apply bpow_le; lia)) as [_ RU].
    pose proof dl_bounds as DB.
    assert (D : 4 * dl <= d44).
    { unfold d44, dl. rewrite (bp_eq (-9) (-44) (-53)) by lia. fold d44. pose proof d44_bounds. change (bpow radix2 (-9)) with (/ 512). lra. }
    assert (X : x * dR u <= 1 + 2 * dl).
    { apply Rle_trans with (/ dR u * (1 + 2 * dl) * dR u); [|apply Req_le; field; lra]. apply Rmult_le_compat_r; [lra|].
      eapply Rle_trans; [exact Hxl|]. eapply Rle_trans; [exact RU|]. apply Rmult_le_compat_l; lra. }
    apply Rmult_le_reg_l with x; [exact Hx|]. rewrite Rinv_r by lra.
    replace (x * ((1 - d44) * dR u)) with ((1 - d44) * (x * dR u)) by ring.
    pose proof d44_bounds as D44. apply Rle_trans with ((1 - d44) * (1 + 2 * dl)); [apply Rmult_le_compat_l; lra|].
    assert (0 <= d44 * dl) by (apply Rmult_le_pos; lra). lra.
Qed.

(** The bounds the solver starts from, computed in doubles with a C library whose
    pow is accurate to 128 units in the last place.  For every polynomial of at
    most 31 coefficients, not all zero, each of them zero or of magnitude between
    2^-300 and 2^300: both bounds are computed, the upper one is finite and not
    negative, the lower one is positive (infinite only when the polynomial has no
    positive root), and every positive real root of the polynomial lies strictly
    between them: rounding never cuts a root off. *)
Theorem C73_bounds : forall (pow : d64 -> d64 -> d64) (f : list d64),
  pow_accurate pow -> Forall moderate f -> (length f <= 31)%nat -> not_zero (map dR f) ->
  exists mn mx, d_LMQ_lower pow f = Ret mn /\ d_LMQ_upper pow f = Ret mx /\
    fin mx /\ 0 <= dR mx <= bpow radix2 650 /\
    ((mn = d_inf false /\ forall x, 0 < x -> pval (map dR f) x <> 0) \/
     (fin mn /\ bpow radix2 (-650) <= dR mn <= bpow radix2 650)) /\
    forall x, 0 < x -> pval (map dR f) x = 0 -> fin mn /\ dR mn < x < dR mx.
Proof.
  intros pow f PA Hm Hlen Hz.
  destruct (d_upper_ok pow f PA Hm Hlen Hz) as (u & Eu & Fu & Hu & Hu0 & Hr).
  destruct (d_lower_ok pow f PA Hm Hlen Hz) as (l & El & Hl).
  exists l, u. split; [exact El|]. split; [exact Eu|]. split; [exact Fu|].
  pose proof (bpow_gt_0 radix2 (-650)) as P. pose proof d44_bounds as D44.
  assert (U0 : 0 <= dR u) by (destruct Hu0 as [[-> _]|H]; [apply Rle_refl|lra]).
  split; [lra|]. split.
  - destruct Hl as [Hl|(F & B & _)]; [left; exact Hl|right; split; assumption].
  - intros x Hx E. destruct Hl as [[_ N]|(F & B & N)]; [exfalso; apply (N x Hx E)|].
    split; [exact F|]. split; apply Rnot_le_lt; intros H.
    + apply (N x Hx H E).
    + apply (Hr x Hx); [|exact E]. nra.
Qed.
Print Assumptions C73_bounds.

(** Put together with C71: the search for the positive roots of such a polynomial
    starts from an interval that contains them all and, unless there is a trap in
    it, returns within 21462 * order passes a certified list. *)
Theorem C73_solver_partial : forall (pow : d64 -> d64 -> d64) (f : list d64),
  pow_accurate pow -> Forall moderate f -> (2 <= length f <= 31)%nat -> not_zero (map dR f) ->
  exists mn mx : d64, (forall x, 0 < x -> pval (map dR f) x = 0 -> fin mn /\ fin mx /\ dR mn < x < dR mx) /\
    (~ trap f mn mx ->
     exists L, (forall fuel, (21462 * (Z.of_nat (length f) - 1) < Z.of_nat fuel)%Z -> d_solve_positive pow fuel f = Ret L) /\
       (length L <= length f - 1)%nat /\ Forall (certified f mn mx) L).
Proof.
  intros pow f PA Hm [Hl2 Hlen] Hz.
  destruct (C73_bounds pow f PA Hm Hlen Hz) as (mn & mx & El & Eu & Fx & Bx & Hmn & Hr).
  exists mn, mx. split.
  { intros x Hx E. destruct (Hr x Hx E) as [F B]. repeat split; auto; lra. }
  intros NT. destruct Hmn as [[-> N]|[Fn Bn]].
  - exists []. split; [|split; [cbn; lia|constructor]]. intros fuel _. unfold d_solve_positive. rewrite Eu, El. cbn [obind].
    replace (d_gt (d_inf false) mx) with true; [reflexivity|]. destruct mx as [s|s|s pl H|s m e H]; try discriminate Fx; reflexivity.
  - apply (C71_positive_partial pow f mn mx Eu El Hl2 Fn Fx); [|eapply Rle_trans; [apply Bx|apply bpow_le; lia]|exact NT].
    eapply Rle_trans; [|apply Bn]. apply bpow_le; lia.
Qed.
Print Assumptions C73_solver_partial.

(** ** An accurate pow exists: round the exact power *)
Definition d_of_R (r : R) : d64 :=
  binary_normalize 53 1024 eq_refl eq_refl BinarySingleNaN.mode_NE
    (ZnearestE (scaled_mantissa radix2 dexp r)) (cexp radix2 dexp r) false.
Lemma d_of_R_ok r : Rabs r <= bpow radix2 1000 -> fin (d_of_R r) /\ dR (d_of_R r) = drnd r.
Proof.
  intros H. unfold d_of_R, dR.
  pose proof (binary_normalize_correct 53 1024 eq_refl eq_refl BinarySingleNaN.mode_NE
    (ZnearestE (scaled_mantissa radix2 dexp r)) (cexp radix2 dexp r) false) as C.
  change (F2R (Float radix2 (ZnearestE (scaled_mantissa radix2 dexp r)) (cexp radix2 dexp r))) with (drnd r) in C.
  change (round radix2 (SpecFloat.fexp 53 1024) (BinarySingleNaN.round_mode BinarySingleNaN.mode_NE) (drnd r)) with (drnd (drnd r)) in C.
  rewrite (rnd_fmt (drnd r)) in C by (apply generic_format_round; [typeclasses eauto|apply valid_rnd_N]).
  rewrite (big_lt r H) in C. tauto.
Qed.
Definition ideal_pow (x y : d64) : d64 := d_of_R (Rpower (dR x) (dR y)).
Lemma ideal_pow_accurate : pow_accurate ideal_pow.
Proof.
  intros x n Fx Bx Hn y. destruct (expo n Hn) as [Y _]. fold y in Y.
  pose proof (rpower_range (dR x) (dR y) Y 700 ltac:(lia) Bx) as B. change (- (700))%Z with (-700)%Z in B.
  unfold ideal_pow. set (W := Rpower (dR x) (dR y)) in *. pose proof (bpow_gt_0 radix2 (-700)) as P.
  destruct (d_of_R_ok W) as [F E].
  { rewrite Rabs_pos_eq by lra. eapply Rle_trans; [apply B|apply bpow_le; lia]. }
  split; [exact F|]. rewrite E. pose proof dl_bounds as DB.
  pose proof (rnd_rel W ltac:(eapply Rle_trans; [|apply B]; apply bpow_le; lia)) as [R1 R2].
  assert (D : 2 * dl <= bpow radix2 (-45)).
  { unfold dl. rewrite (bp_eq (-8) (-45) (-53)) by lia. pose proof (bpow_gt_0 radix2 (-45)). change (bpow radix2 (-8)) with (/ 256). lra. }
  apply Rabs_le. split; nra.
Qed.
(** (x-1)(x-2)(x-3)(x-4) *)
Example C73_example : let f := dlist [24; -50; 35; -10; 1]%Z in
  pow_accurate ideal_pow /\ Forall moderate f /\ (2 <= length f <= 31)%nat /\ not_zero (map dR f) /\
  pval (map dR f) 1 = 0 /\ pval (map dR f) 4 = 0.
Proof.
  cbv zeta. set (f := dlist [24; -50; 35; -10; 1]%Z).
  assert (E : map dR f = [24; -50; 35; -10; 1]).
  { unfold f, dlist. cbn [map]. repeat f_equal; match goal with |- _ (d_lit ?z 0) = _ => exact (proj2 (lit_R_small z ltac:(lia))) end. }
  split; [apply ideal_pow_accurate|]. split.
  - assert (B1 : bpow radix2 (-300) <= 1) by (change 1 with (bpow radix2 0); apply bpow_le; lia).
    assert (B2 : 64 <= bpow radix2 300) by (change 64 with (bpow radix2 6); apply bpow_le; lia).
    assert (M : forall z, (1 <= Z.abs z <= 64)%Z -> moderate (d_lit z 0)).
    { intros z Hz. destruct (lit_R_small z) as [F V]; [lia|]. split; [exact F|]. right. rewrite V, <- abs_IZR.
      destruct Hz as [H1 H2]. apply IZR_le in H1, H2. lra. }
    unfold f, dlist. cbn [map]. repeat apply Forall_cons; try apply Forall_nil; apply M; lia.
  - split; [change (length f) with 5%nat; lia|]. rewrite E. split; [exists 1; split; [right; right; right; right; left; reflexivity|lra]|].
    rewrite !pval_cons, !pval_nil. split; lra.
Qed.
