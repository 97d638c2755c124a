(** C80: compile-time expressions turned into run-time expressions, and the agreement of
    the two engines. *)
From Coq Require Import ZArith Reals String List Lra Lia Bool.
From Flocq Require Import Core Binary.
From Verif Require Import Outcome Num FloatModel FloatSpec FloatProofs PropFloat.
From Verif Require Import ExprModel ExprSpec ExprBase ExprSub PropExpr AdProofs ConstModel CtModel CtSpec CtProofs CtSimp CtDeriv CtTaylor2 PropCt.
From Verif Require ParserModel.
From Verif Require Import FloatQuad FloatLmq PropFloatExpr PropFloatSolver PropFloatLmq ConvModel.
Import ExprModel.
Open Scope R_scope.

(** Every constant has a denominator (std::ratio rejects 0 at compile time). *)
Fixpoint has_denominators (e : cexpr) : Prop :=
  match e with
  | TC _ d => d <> 0%Z
  | TUn _ a => has_denominators a
  | TBin _ l r => has_denominators l /\ has_denominators r
  | _ => True
  end.

Lemma value_bin s env o l r : value_of s env (EBin (aop_bop o) l r) =
  match value_of s env l, value_of s env r with Some v, Some w => vbin (aop_bop o) v w | _, _ => None end.
Proof. destruct o; reflexivity. Qed.
Lemma nbin_binary o u w : nbin (aop_bop o) u w = binary_value o u w.
Proof. destruct o; reflexivity. Qed.

Lemma conv_value s rho e : sign_free e -> forall v, cval anywhere rho e v -> value_of s (nums rho) (conv e) = Some (VN v).
Proof.
  unfold conv. induction e as [n d|k|x|o a IH|o l IHl r IHr]; intros S v H; cbn [to_expr].
  - destruct H as [_ ->]. reflexivity.
  - destruct k; cbn in H; subst v; reflexivity.
  - cbn in H. subst v. reflexivity.
  - destruct S as [No S]. destruct H as (u & Hu & Hv). specialize (IH S u Hu).
    change (value_of s (nums rho) (EUn o (to_expr c_real to_real a)))
      with (match value_of s (nums rho) (to_expr c_real to_real a) with Some (VN w) => option_map VN (nun s o w) | _ => None end).
    rewrite IH. destruct o; cbn in Hv |- *; try (destruct Hv as [_ ->]; reflexivity); try (subst v; reflexivity); try congruence.
    destruct Hv as [P ->]. destruct (Rlt_dec 0 u); [reflexivity|contradiction].
  - destruct S as [Sl Sr]. destruct H as (u & w & Hu & Hw & Hv). rewrite value_bin.
    rewrite (IHl Sl u Hu), (IHr Sr w Hw). cbn [vbin]. rewrite nbin_binary, Hv. reflexivity.
Qed.
(** the values of arithmetic are numbers *)
Lemma conv_number s rho e v : value_of s (nums rho) (conv e) = Some v -> exists u, v = VN u.
Proof.
  unfold conv. destruct e as [n d|k|x|o a|o l r]; cbn [to_expr].
  - intros H. injection H as <-. eauto.
  - intros H. injection H as <-. eauto.
  - intros H. injection H as <-. eauto.
  - change (value_of s (nums rho) (EUn o (to_expr c_real to_real a)))
      with (match value_of s (nums rho) (to_expr c_real to_real a) with Some (VN w) => option_map VN (nun s o w) | _ => None end).
    destruct (value_of s (nums rho) _) as [[w| | |]|]; try discriminate. destruct (nun s o w); cbn; [|discriminate].
    intros H. injection H as <-. eauto.
  - revert v. enough (G : forall e v, value_of s (nums rho) (to_expr c_real to_real e) = Some v -> exists u, v = VN u) by (intros v; apply (G (TBin o l r))).
    clear. induction e as [n d|k|x|o a IH|o l IHl r IHr]; intros v; cbn [to_expr].
    + intros H. injection H as <-. eauto.
    + intros H. injection H as <-. eauto.
    + intros H. injection H as <-. eauto.
    + change (value_of s (nums rho) (EUn o (to_expr c_real to_real a)))
        with (match value_of s (nums rho) (to_expr c_real to_real a) with Some (VN w) => option_map VN (nun s o w) | _ => None end).
      destruct (value_of s (nums rho) _) as [[w| | |]|]; try discriminate. destruct (nun s o w); cbn; [|discriminate].
      intros H. injection H as <-. eauto.
    + rewrite value_bin. destruct (value_of s (nums rho) (to_expr c_real to_real l)) as [x|]; [|discriminate].
      destruct (value_of s (nums rho) (to_expr c_real to_real r)) as [y|]; [|discriminate].
      destruct (IHl x eq_refl) as (u & ->). destruct (IHr y eq_refl) as (w & ->). cbn [vbin].
      destruct (nbin (aop_bop o) u w); cbn; [|discriminate]. intros H. injection H as <-. eauto.
Qed.
Lemma conv_value_back s rho e : s = 1 \/ s = -1 -> has_denominators e ->
  forall v, value_of s (nums rho) (conv e) = Some (VN v) -> cval anywhere rho e v.
Proof.
  intros Hs. unfold conv. induction e as [n d|k|x|o a IH|o l IHl r IHr]; intros D v H; cbn [to_expr] in H.
  - injection H as <-. split; [exact D|reflexivity].
  - injection H as <-. destruct k; reflexivity.
  - injection H as <-. reflexivity.
  - change (value_of s (nums rho) (EUn o (to_expr c_real to_real a)))
      with (match value_of s (nums rho) (to_expr c_real to_real a) with Some (VN w) => option_map VN (nun s o w) | _ => None end) in H.
    destruct (value_of s (nums rho) _) as [[u| | |]|] eqn:E; try discriminate H.
    exists u. split; [apply IH; auto|]. destruct o; cbn in H |- *; unfold anywhere.
    + injection H as <-. auto.
    + injection H as <-. auto.
    + destruct (Rlt_dec 0 u); [|discriminate H]. injection H as <-. auto.
    + injection H as <-. auto.
    + injection H as <-. auto.
    + injection H as <-. destruct Hs as [-> | ->]; [left|right]; ring.
    + injection H as <-. auto.
  - rewrite value_bin in H. destruct D as [Dl Dr].
    destruct (value_of s (nums rho) (to_expr c_real to_real l)) as [x|] eqn:El; [|discriminate H].
    destruct (value_of s (nums rho) (to_expr c_real to_real r)) as [y|] eqn:Er; [|discriminate H].
    destruct (conv_number s rho l x El) as (u & ->). destruct (conv_number s rho r y Er) as (w & ->).
    cbn [vbin] in H. rewrite nbin_binary in H. destruct (binary_value o u w) as [z|] eqn:B; [|discriminate H].
    injection H as <-. exists u, w. auto.
Qed.

(** The run-time expression has the value of the compile-time one, and a value only where
    that has one. *)
Theorem C80_value : forall s rho e v, s = 1 \/ s = -1 -> has_denominators e -> sign_free e ->
  (value_of s (nums rho) (conv e) = Some (VN v) <-> cval anywhere rho e v).
Proof. intros s rho e v Hs D S. split; [now apply conv_value_back|now apply conv_value]. Qed.
Print Assumptions C80_value.
(** with "either sign": the value for either choice is a value of the compile-time one *)
Theorem C80_either_sign : forall s rho e v, s = 1 \/ s = -1 -> has_denominators e ->
  value_of s (nums rho) (conv e) = Some (VN v) -> cval anywhere rho e v.
Proof. intros. eapply conv_value_back; eauto. Qed.
Print Assumptions C80_either_sign.
Example C80_ex :
  let e := TBin OMul (TC 3 2) (TUn ULog (TBin OAdd (TVar "x") (TNum (RInt 1)))) in
  has_denominators e /\ sign_free e /\
  conv e = EBin BMul (EConst (3 / 2)) (EUn ULog (EBin BAdd (EVar "x") (EConst 1))) /\
  value_of 1 (nums (fun _ => 0)) (conv e) = Some (VN 0).
Proof.
  cbn zeta. split; [cbn; repeat split; lia|]. split; [cbn; repeat split; congruence|]. split; [reflexivity|].
  apply C80_value; auto.
  - cbn; repeat split; lia.
  - cbn; repeat split; congruence.
  - exists (3 / 2), 0. split; [split; [lia|reflexivity]|]. split; [|cbn; f_equal; ring].
    exists 1. split; [|split; [lra|symmetry; apply ln_1]]. exists 0, 1. split; [reflexivity|]. split; [reflexivity|]. cbn. f_equal. ring.
Qed.

(** ** The two engines agree *)
Lemma conv_dict_free e : dict_free (conv e).
Proof.
  unfold conv, dict_free. induction e as [n d|k|x|o a IH|o l IHl r IHr]; cbn; auto. rewrite IHl, IHr. reflexivity.
Qed.
Lemma cval_off_any rho e v : cval off_table rho e v -> cval anywhere rho e v.
Proof.
  revert v. induction e as [n d|k|x|o a IH|o l IHl r IHr]; intros v H; auto.
  - destruct H as (u & Hu & Hv). exists u. split; auto. destruct o; cbn in *; unfold anywhere; tauto.
  - destruct H as (u & w & Hu & Hw & Hv). exists u, w. auto.
Qed.
(** Substituting and then converting has the value of converting and then substituting. *)
Theorem C80_substitution_partial : forall s (ints : bool) z g f f' rho u v,
  csub z g f = Ret f' -> no_truncation ints f -> no_truncation ints g -> sign_free f -> sign_free g ->
  cval off_table rho g u -> cval off_table (upd_num rho z u) f v ->
  value_of s (nums rho) (conv f') = Some (VN v) /\
  exists h, sub_expr (conv f) (var_equals z (conv g)) = Ret h /\ value_of s (nums rho) h = Some (VN v).
Proof.
  intros s ints z g f f' rho u v H Nf Ng Sf Sg Vg Vf. split.
  - apply conv_value; [eapply csub_sf; eauto|]. apply cval_off_any. eapply C54_substitution_partial; eauto.
  - destruct (C33_substitute_variable s (nums rho) (conv f) (conv g) z (mentions_free _ z (conv_dict_free f))) as (h & Hh & Ev).
    exists h. split; [exact Hh|]. rewrite Ev. rewrite (conv_value s rho g Sg u (cval_off_any _ _ _ Vg)).
    rewrite <- (conv_value s (upd_num rho z u) f Sf v (cval_off_any _ _ _ Vf)).
    unfold value_of. apply eval_ext. intros y _. unfold upd_env, nums, upd_num. destruct (String.eqb y z); reflexivity.
Qed.
Print Assumptions C80_substitution_partial.

(** Both simplifiers keep the value. *)
Theorem C80_simplify_partial : forall to_numbers fuel fuel' s (ints : bool) e e' r rho v,
  csimp to_numbers fuel e = Ret (Some e') -> no_truncation ints e -> sign_free e -> cval off_table rho e v ->
  simplify fuel' (conv e) = Ret r ->
  value_of s (nums rho) (conv e') = Some (VN v) /\ value_of s (nums rho) r = Some (VN v).
Proof.
  intros b fuel fuel' s ints e e' r rho v H N S V R.
  destruct (csimp_keeps off_table ints table_off _ _ _ _ H N) as (_ & K2 & K3). split.
  - apply conv_value; [auto|]. apply cval_off_any. auto.
  - eapply C31_simplify_preserves_value_partial; [| |exact R|].
    + intros x w E. unfold nums in E. injection E as <-. eauto.
    + left. unfold units_free, conv. clear. induction e as [n d|k|x|o a IH|o l IHl r IHr]; cbn; auto.
      rewrite IHl, IHr. destruct o; reflexivity.
    + apply conv_value; auto. now apply cval_off_any.
Qed.
Print Assumptions C80_simplify_partial.

Lemma conv_differentiable s rho x e : sign_free e -> differentiable_at rho e -> (exists v, cval anywhere rho e v) ->
  differentiable s rho x (conv e).
Proof.
  unfold conv. induction e as [n d|k|y|o a IH|o l IHl r IHr]; intros S D (v & V); cbn [to_expr differentiable]; auto.
  - destruct S as [_ S]. destruct D as [D A]. destruct V as (u & Hu & _). split; [apply IH; eauto|].
    intros -> E. pose proof (conv_value s rho a S u Hu) as E'. unfold conv in E'. rewrite E in E'. injection E' as E'.
    apply (A eq_refl u Hu). auto.
  - destruct S as [Sl Sr]. destruct D as (Dl & Dr & P). destruct V as (u & w & Hu & Hw & Hv).
    split; [destruct o; cbn; tauto|]. split; [apply IHl; eauto|]. split; [apply IHr; eauto|].
    intros E. assert (o = OPow) as -> by (destruct o; cbn in E; congruence). destruct (P eq_refl) as [Q|(L & z & Hz & _)].
    + left. exists u. split; [apply conv_value; auto|auto].
    + right. split.
      * destruct r; cbn in L; try contradiction; reflexivity.
      * exists z. apply conv_value; auto.
Qed.
(** The derivative computed at compile time and the one computed at run time are the same
    number. *)
Theorem C80_derivative : forall s z f f' rho v,
  cderiv z f = Ret f' -> differentiable_at rho f -> sign_free f -> cval anywhere rho f v ->
  exists D d, derivative (conv f) (EVar z) = Ret D /\
    eval true s (nums rho) D = Some (VN d) /\ (forall w, value_of s (nums rho) D = Some w -> w = VN d) /\
    value_of s (nums rho) (conv f') = Some (VN d).
Proof.
  intros s z f f' rho v H Dd S V.
  destruct (C55_derivative z f f' rho v H Dd V) as (d & Vd & (F & r & Hr & Fv & HF & LF)).
  destruct (C34_derivative s rho z (conv f) v) as (D & d' & HD & E1 & (G & (q & Hq & HG) & LG) & E2).
  - apply conv_differentiable; eauto.
  - apply conv_value; auto.
  - exists D, d'. split; [exact HD|]. split; [exact E1|]. split; [exact E2|].
    assert (d = d') as <-.
    { apply (uniqueness_limite G (rho z)); auto. apply (dpl_local F G _ _ (Rmin r q)); auto.
      - apply Rmin_pos; auto.
      - intros t Ht. assert (T1 : Rabs (t - rho z) < r) by (eapply Rlt_le_trans; [exact Ht|apply Rmin_l]).
        assert (T2 : Rabs (t - rho z) < q) by (eapply Rlt_le_trans; [exact Ht|apply Rmin_r]).
        specialize (HF t T1). specialize (HG t T2).
        rewrite (conv_value s _ f S _ HF) in HG. injection HG as HG. exact HG. }
    apply conv_value; auto. eapply cderiv_sf; eauto.
Qed.
Print Assumptions C80_derivative.

(** ** Doubles *)
Local Instance conv_prec : Prec_gt_0 53 := eq_refl.
Local Instance conv_valid : Valid_exp dexp := FLT_exp_valid (-1074) 53.
Lemma int_R z : (Z.abs z <= 2 ^ 64)%Z -> fin (d_of_int z) /\ dR (d_of_int z) = drnd (IZR z).
Proof.
  intros H. unfold d_of_int, d_lit, dR.
  pose proof (binary_normalize_correct 53 1024 eq_refl eq_refl BinarySingleNaN.mode_NE z 0 false) as C.
  assert (E : F2R (Float radix2 z 0) = IZR z) by (unfold F2R; cbn; lra). rewrite E in C.
  change (round radix2 (SpecFloat.fexp 53 1024) (BinarySingleNaN.round_mode BinarySingleNaN.mode_NE) (IZR z)) with (drnd (IZR z)) in C.
  rewrite big_lt in C.
  - tauto.
  - rewrite <- abs_IZR. apply Rle_trans with (IZR (2 ^ 64)); [now apply IZR_le|].
    change (IZR (2 ^ 64)) with (IZR (Zpower radix2 64)). rewrite IZR_Zpower by lia. apply bpow_le. lia.
Qed.
Definition unit_off : R := dl + dl * / 4000000.
Lemma rnd_factor x : x = 0 \/ bpow radix2 (-1000) <= Rabs x -> exists a, drnd x = x * a /\ 1 - unit_off <= a <= 1 + unit_off.
Proof.
  assert (U : 0 <= unit_off) by (unfold unit_off; pose proof (bpow_gt_0 radix2 (-53)); unfold dl; lra).
  intros [-> | H].
  - exists 1. split; [|lra]. rewrite Rmult_0_l. apply round_0. apply valid_rnd_N.
  - assert (P : forall y, bpow radix2 (-1000) <= y -> exists a, drnd y = y * a /\ 1 - unit_off <= a <= 1 + unit_off).
    { intros y Hy. pose proof (bpow_gt_0 radix2 (-1000)). pose proof (rnd_rel y Hy) as [A B]. exists (drnd y / y).
      split; [field; lra|]. unfold unit_off. split.
      - apply Rmult_le_reg_l with y; [lra|]. replace (y * (drnd y / y)) with (drnd y) by (field; lra). lra.
      - apply Rmult_le_reg_l with y; [lra|]. replace (y * (drnd y / y)) with (drnd y) by (field; lra). lra. }
    destruct (Rle_lt_dec 0 x).
    + rewrite Rabs_pos_eq in H by auto. auto.
    + rewrite Rabs_left in H by auto. destruct (P (- x) H) as (a & Ha & B). exists a. split; [|exact B].
      rewrite rnd_opp in Ha. lra.
Qed.
(** C<n,d> as a double is within 2^-51 of n/d relatively, and correctly rounded when n and d
    are at most 2^53. *)
Theorem C80_constant : forall n d, (Z.abs n <= 2 ^ 63)%Z -> (0 < d < 2 ^ 63)%Z ->
  fin (d_const n d) /\
  Rabs (dR (d_const n d) - IZR n / IZR d) <= Rabs (IZR n / IZR d) * bpow radix2 (-51) /\
  ((Z.abs n <= 2 ^ 53)%Z -> (d <= 2 ^ 53)%Z -> dR (d_const n d) = drnd (IZR n / IZR d)).
Proof.
  intros n d Hn Hd.
  destruct (int_R n ltac:(lia)) as [Fn En]. destruct (int_R d ltac:(lia)) as [Fd Ed].
  assert (D1 : 1 <= IZR d) by (apply IZR_le; lia).
  assert (D2 : IZR d <= bpow radix2 63) by (rewrite <- IZR_Zpower by lia; apply IZR_le; change (Zpower radix2 63) with (2 ^ 63)%Z; lia).
  assert (N2 : Rabs (IZR n) <= bpow radix2 63) by (rewrite <- abs_IZR, <- IZR_Zpower by lia; apply IZR_le; change (Zpower radix2 63) with (2 ^ 63)%Z; lia).
  assert (E0 : 0 < dl <= / 1000000).
  { unfold dl. split; [apply bpow_gt_0|]. apply Rle_trans with (bpow radix2 (-20)); [apply bpow_le; lia|]. cbn. lra. }
  assert (U : 0 < unit_off <= / 100000) by (unfold unit_off; lra).
  assert (S0 : bpow radix2 (-1000) <= bpow radix2 (-100)) by (apply bpow_le; lia).
  assert (S1 : bpow radix2 (-100) <= / 4) by (apply Rle_trans with (bpow radix2 (-2)); [apply bpow_le; lia|cbn; lra]).
  destruct (rnd_factor (IZR n)) as (a & Ea & Ba).
  { destruct (Z.eq_dec n 0) as [-> |Nz]; [now left|right]. rewrite <- abs_IZR.
    apply Rle_trans with 1; [lra|]. apply (IZR_le 1). lia. }
  destruct (rnd_factor (IZR d)) as (b & Eb & Bb). { right. rewrite Rabs_pos_eq; lra. }
  assert (Db : 0 < IZR d * b) by (apply Rmult_lt_0_compat; lra).
  assert (Q : dR (d_of_int n) / dR (d_of_int d) = IZR n / IZR d * (a / b)).
  { rewrite En, Ed, Ea, Eb. field. lra. }
  assert (AB : / 2 <= a / b <= 2).
  { split; apply Rmult_le_reg_r with b; try lra; unfold Rdiv; rewrite Rmult_assoc, Rinv_l by lra; lra. }
  assert (QB : Rabs (IZR n / IZR d) <= bpow radix2 63).
  { unfold Rdiv. rewrite Rabs_mult. rewrite <- (Rmult_1_r (bpow radix2 63)). apply Rmult_le_compat; try apply Rabs_pos; auto.
    rewrite Rabs_pos_eq by (left; apply Rinv_0_lt_compat; lra). rewrite <- Rinv_1. apply Rinv_le_contravar; lra. }
  assert (QR : Rabs (dR (d_of_int n) / dR (d_of_int d)) <= bpow radix2 1000).
  { rewrite Q, Rabs_mult. apply Rle_trans with (bpow radix2 63 * 2).
    - apply Rmult_le_compat; try apply Rabs_pos; auto. rewrite Rabs_pos_eq by lra. lra.
    - change 2 with (bpow radix2 1). rewrite <- bpow_plus. apply bpow_le. lia. }
  destruct (div_R (d_of_int n) (d_of_int d) Fn Fd) as [FF EE]; [rewrite Ed, Eb; lra|exact QR|].
  unfold d_const. split; [exact FF|]. split.
  - destruct (rnd_factor (dR (d_of_int n) / dR (d_of_int d))) as (c & Ec & Bc).
    { destruct (Z.eq_dec n 0) as [Z0|Nz]; [left; rewrite Q, Z0; unfold Rdiv; ring|right].
      rewrite Q, Rabs_mult. rewrite (Rabs_pos_eq (a / b)) by lra.
      assert (L : bpow radix2 (-63) <= Rabs (IZR n / IZR d)).
      { unfold Rdiv. rewrite Rabs_mult. rewrite <- (Rmult_1_l (bpow radix2 (-63))). apply Rmult_le_compat; try lra.
        - apply bpow_ge_0.
        - rewrite <- abs_IZR. apply (IZR_le 1). lia.
        - rewrite Rabs_pos_eq by (left; apply Rinv_0_lt_compat; lra). change (-63)%Z with (- (63))%Z. rewrite bpow_opp.
          apply Rinv_le_contravar; lra. }
      apply Rle_trans with (bpow radix2 (-63) * bpow radix2 (-1)).
      - rewrite <- bpow_plus. apply bpow_le. lia.
      - apply Rmult_le_compat; try apply bpow_ge_0; auto. cbn. lra. }
    rewrite EE, Ec, Q.
    replace (IZR n / IZR d * (a / b) * c - IZR n / IZR d) with (IZR n / IZR d * (a * c / b - 1)) by (field; lra).
    rewrite Rabs_mult. apply Rmult_le_compat_l; [apply Rabs_pos|].
    assert (F4 : bpow radix2 (-51) = 4 * dl) by (unfold dl; change 4 with (bpow radix2 2); rewrite <- bpow_plus; reflexivity).
    rewrite F4. assert (U2 : 3.9 * unit_off <= 4 * dl) by (unfold unit_off; lra).
    set (e := unit_off) in *. clearbody e. clear - U U2 Ba Bb Bc.
    assert (LO : (1 - e) * (1 - e) <= a * c) by (apply Rmult_le_compat; lra).
    assert (HI : a * c <= (1 + e) * (1 + e)) by (apply Rmult_le_compat; lra).
    assert (E2 : e * e <= e * / 100000) by (apply Rmult_le_compat_l; lra).
    apply Rabs_le. split; apply Rmult_le_reg_r with b; try lra.
    + replace ((a * c / b - 1) * b) with (a * c - b) by (field; lra).
      apply Rle_trans with (- (3.9 * e) * b); [apply Rmult_le_compat_r; lra|]. nra.
    + replace ((a * c / b - 1) * b) with (a * c - b) by (field; lra).
      apply Rle_trans with (3.9 * e * b); [|apply Rmult_le_compat_r; lra]. nra.
  - intros Sn Sd. rewrite EE, En, Ed. rewrite !rnd_Z by lia. reflexivity.
Qed.
Print Assumptions C80_constant.

(** A whole expression in doubles: the same tree, with each constant that close. *)
Fixpoint close_to (a : expr d64) (b : expr R) : Prop :=
  match a, b with
  | EConst x, EConst y => fin x /\ Rabs (dR x - y) <= Rabs y * bpow radix2 (-51)
  | EVar x, EVar y => x = y
  | EUn o a, EUn p b => o = p /\ close_to a b
  | EBin o l r, EBin p l' r' => o = p /\ close_to l l' /\ close_to r r'
  | _, _ => False
  end.
(** constants and numbers the machine can hold *)
Fixpoint in_range (e : cexpr) : Prop :=
  match e with
  | TC n d => (Z.abs n <= 2 ^ 63)%Z /\ (0 < d < 2 ^ 63)%Z
  | TNum (RInt z) => (Z.abs z <= 2 ^ 31)%Z
  | TNum (RDbl r) => exists x, fin x /\ dR x = r /\ Rabs r <= bpow radix2 1000
  | TVar _ => True
  | TUn _ a => in_range a
  | TBin _ l r => in_range l /\ in_range r
  end.
Definition holds_number (num : rnum -> d64) : Prop :=
  (forall z, (Z.abs z <= 2 ^ 31)%Z -> num (RInt z) = d_of_int z) /\
  forall x, fin x -> Rabs (dR x) <= bpow radix2 1000 -> fin (num (RDbl (dR x))) /\ dR (num (RDbl (dR x))) = dR x.
Theorem C80_doubles : forall num e, holds_number num -> in_range e -> close_to (to_expr d_const num e) (conv e).
Proof.
  intros num e [HI HD]. assert (P : forall y, 0 <= Rabs y * bpow radix2 (-51)) by (intros; apply Rmult_le_pos; [apply Rabs_pos|apply bpow_ge_0]).
  unfold conv. induction e as [n d|k|x|o a IH|o l IHl r IHr]; intros R; cbn [to_expr close_to]; auto.
  - destruct R as [Rn Rd]. destruct (C80_constant n d Rn Rd) as (F & E & _). unfold c_real. auto.
  - destruct k as [z|r].
    + cbn [in_range] in R. rewrite HI by auto. destruct (int_R z) as [F E]; [lia|]. split; [exact F|]. rewrite E, rnd_Z by lia.
      cbn [to_real]. rewrite Rminus_eq_0, Rabs_R0. apply P.
    + destruct R as (x & Fx & <- & Bx). destruct (HD x Fx Bx) as [F E]. split; [exact F|]. rewrite E. cbn [to_real].
      rewrite Rminus_eq_0, Rabs_R0. apply P.
  - destruct R. auto.
Qed.
Print Assumptions C80_doubles.
Example C80_doubles_ex : exists num, holds_number num /\ in_range (TBin OAdd (TC 1 3) (TNum (RInt 5))).
Proof.
  exists (fun k => match k with RInt z => d_of_int z | RDbl r => d_of_R r end). split.
  - split; [reflexivity|]. intros x Fx Bx. destruct (d_of_R_ok (dR x) Bx) as [F E]. split; [exact F|]. rewrite E. apply rnd_fmt. apply dR_fmt.
  - cbn. lia.
Qed.

(** ** Reading back *)
Theorem C80_as_number : forall (K : Type) (e : expr K) c, as_number e = Ret c <-> e = EConst c.
Proof. intros K e c. destruct e; cbn; split; intros H; inversion H; auto. Qed.
Theorem C80_as_other : forall (K : Type) (e : expr K),
  (as_number e = Throw <-> forall c, e <> EConst c) /\
  (forall o a, as_unary o e = Ret a <-> e = EUn o a) /\
  (forall o l r, as_binary o e = Ret (l, r) <-> e = EBin o l r) /\
  (forall x, as_variable e = Ret x <-> e = EVar x).
Proof.
  intros K e. split; [|split; [|split]].
  - destruct e; cbn; split; intros H; try reflexivity; try discriminate. exfalso. now apply (H c).
  - intros o a. destruct e as [| |p b| | |]; cbn; split; intros H; try discriminate.
    + destruct o, p; cbn in H; inversion H; reflexivity.
    + injection H as -> ->. destruct o; reflexivity.
  - intros o l r. destruct e as [| | |p l' r'| |]; cbn; split; intros H; try discriminate.
    + destruct o, p; cbn in H; inversion H; reflexivity.
    + injection H as -> -> ->. destruct o; reflexivity.
  - intros x. destruct e; cbn; split; intros H; inversion H; reflexivity.
Qed.
Print Assumptions C80_as_other.
(** Run-time variables on their own behave as the same variable inside an expression. *)
Theorem C80_variables : forall (K : Type) (EN : ENum K) (f x : string) (r : expr K),
  sub_expr (EVar f) (var_equals x r) = Ret (sub_var_rt f x r) /\
  derivative (EVar f) (EVar x) = Ret (derivative_var_rt n0 n1 f x).
Proof.
  intros K EN f x r. split; cbn.
  - unfold sub_var, sub_var_rt. cbn. destruct (String.eqb f x); reflexivity.
  - unfold derivative_var_rt. reflexivity.
Qed.
Print Assumptions C80_variables.
(** e[i] is the access node with the array e and the index i; a[i] reads a[i]. *)
Theorem C80_index : forall (K : Type) (show : K -> string) (e i : expr K) (a b : string),
  as_binary BAcc (index_expr e i) = Ret (e, i) /\
  ParserModel.repr show false (index_expr (EVar a) (EVar b)) = Ret (a ++ "[" ++ b ++ "]")%string.
Proof. intros. split; reflexivity. Qed.
Print Assumptions C80_index.
