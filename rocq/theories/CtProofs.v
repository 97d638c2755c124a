(** Compile-time expressions: the operators, substitution and simplification
    preserve values. *)
From Coq Require Import ZArith QArith Qreals Reals Lia Lra Bool List String.
From Verif Require Import Outcome Num ExprModel ExprSpec ExprBase ExprSimp ExprVal ExprSub ExprDeriv ConstModel PropConst CtModel CtSpec.
Import ListNotations.
Open Scope R_scope.

Lemma cval_num ok rho k v : cval ok rho (TNum k) v <-> v = to_real k.
Proof. destruct k; reflexivity. Qed.

Lemma cval_ext ok rho rho' e v : (forall y, rho y = rho' y) -> cval ok rho e v -> cval ok rho' e v.
Proof.
  intros E. revert v. induction e as [n d|k|y|o a IH|o l IHl r IHr]; intros v H; cbn [cval] in *; auto.
  - rewrite <- E; auto.
  - destruct H as (u & H1 & H2). exists u. auto.
  - destruct H as (u & w & H1 & H2 & H3). exists u, w. auto.
Qed.

Lemma cval_mono (ok ok' : R -> Prop) rho e v : (forall u, ok u -> ok' u) -> cval ok rho e v -> cval ok' rho e v.
Proof.
  intros M. revert v. induction e as [n d|k|y|o a IH|o l IHl r IHr]; intros v H; cbn [cval] in *; auto.
  - destruct H as (u & H1 & H2). exists u. split; auto. destruct o; cbn [unary_value] in *; intuition.
  - destruct H as (u & w & H1 & H2 & H3). exists u, w. auto.
Qed.

Lemma cval_det ok rho e : sign_free e -> forall v w, cval ok rho e v -> cval ok rho e w -> v = w.
Proof.
  induction e as [n d|k|y|o a IH|o l IHl r IHr]; intros S v w H1 H2; cbn [cval sign_free] in *.
  - destruct H1, H2; congruence.
  - destruct k; congruence.
  - congruence.
  - destruct S as [So Sa]. destruct H1 as (u & A & B), H2 as (u' & A' & B'). specialize (IH Sa _ _ A A'). subst u'.
    destruct o; cbn [unary_value] in *; try congruence; try (destruct B, B'; congruence).
  - destruct S as [Sl Sr]. destruct H1 as (u & x & A & B & C), H2 as (u' & x' & A' & B' & C').
    specialize (IHl Sl _ _ A A'). specialize (IHr Sr _ _ B B'). congruence.
Qed.

(** *** Constants *)
Lemma ratio_of_valid a c : ratio_of a = Ret c -> valid_constant a.
Proof.
  unfold ratio_of. destruct (fits (fst a)) eqn:F1; [|discriminate]. destruct (fits (snd a)) eqn:F2; [|discriminate].
  cbn [andb]. unfold ratio. destruct (Z.eqb_spec (snd a) 0); [discriminate|]. intros _.
  apply fits_iff in F1. apply fits_iff in F2. split; auto.
Qed.
Lemma c_op_valid o a b c : c_op o a b = Ret c -> valid_constant a /\ valid_constant b.
Proof.
  unfold c_op. intros H. apply obind_ret in H as (x & Hx & H). apply obind_ret in H as (y & Hy & H).
  split; eapply ratio_of_valid; eauto.
Qed.

Definition rmath (o : cop) (x y : R) : R :=
  match o with CAdd => x + y | CSub => x - y | CMul => x * y | CDiv => x / y end.
Lemma real_of_Q c : snd c <> 0%Z -> real_of c = Q2R (cvalue c).
Proof.
  intros H. unfold cvalue, real_of. rewrite Q2R_div, !Q2R_inj; [reflexivity|]. apply nz_inject; auto.
Qed.
Lemma c_op_real o a b c : c_op o a b = Ret c -> (o = CDiv -> fst b <> 0%Z) ->
  snd c <> 0%Z /\ real_of c = rmath o (real_of a) (real_of b).
Proof.
  intros H Hd. destruct (c_op_valid _ _ _ _ H) as [Va Vb]. apply C41_exact in H as (L & V & E); auto.
  split; [apply V|]. rewrite !real_of_Q by (apply V || apply Va || apply Vb). rewrite (Qeq_eqR _ _ E).
  destruct o; cbn [cmath rmath].
  - apply Q2R_plus.
  - apply Q2R_minus.
  - apply Q2R_mult.
  - apply Q2R_div. intros Z. specialize (Hd eq_refl). apply Hd. unfold cvalue in Z.
    assert (X : (inject_Z (fst b) == 0)%Q).
    { setoid_replace (inject_Z (fst b)) with (inject_Z (fst b) / inject_Z (snd b) * inject_Z (snd b))%Q.
      - rewrite Z. ring.
      - field. apply nz_inject, Vb. }
    apply inject_Z_injective. exact X.
Qed.

Lemma stands_real a q : snd a <> 0%Z -> stands_for a q -> real_of a = Q2R q * (47627751 / 15160384).
Proof.
  intros H S. rewrite real_of_Q by auto. rewrite (Qeq_eqR _ _ S), Q2R_mult. f_equal.
Qed.

Lemma real_zero (a : constant) : snd a <> 0%Z -> real_of a = 0 -> fst a = 0%Z.
Proof.
  intros H E. unfold real_of in E. apply eq_IZR.
  apply (Rmult_eq_reg_r (/ IZR (snd a))); [|apply Rinv_neq_0_compat; intros X; apply H, eq_IZR; exact X].
  rewrite Rmult_0_l. exact E.
Qed.

Lemma c_trig_valid p h a r : c_trig p h a = Ret r -> valid_constant a.
Proof.
  unfold c_trig. intros H. apply obind_ret in H as (w & H & _). unfold is_whole_factor in H.
  apply obind_ret in H as (x & H & _). eapply ratio_of_valid; eauto.
Qed.

(** at arguments off the table the only constant with an entry is zero *)
Lemma c_trig_zero p h a r : off_table (real_of a) -> c_trig p h a = Ret (Some r) -> real_of a = 0 /\ r = p.
Proof.
  intros O H. pose proof (c_trig_valid _ _ _ _ H) as V. assert (D : snd a <> 0%Z) by apply V.
  destruct (trig_cases _ _ _ _ V H) as [[-> [k S]]|[-> [k S]]]; apply stands_real in S; auto.
  - destruct O as [O|O]; auto. exfalso. apply (O (2 * k)%Z). rewrite S, Q2R_inj, mult_IZR. field.
  - exfalso. rewrite Q2R_half in S. destruct O as [O|O].
    + rewrite S in O. apply (Rmult_eq_compat_r (15160384 / 47627751 * 2)) in O.
      assert (X : IZR (2 * k + 1) = 0) by (rewrite plus_IZR, mult_IZR; lra). apply eq_IZR in X. lia.
    + apply (O (2 * k + 1)%Z). rewrite S, plus_IZR, mult_IZR. field.
Qed.

(** *** Powers *)
Lemma npow_1 x : npow x 1 = Some x.
Proof. change 1 with (IZR 1). rewrite npow_int by (right; lia). simpl. f_equal. ring. Qed.
Lemma npow_0 x : npow x 0 = Some 1.
Proof. change 0 with (IZR 0). rewrite npow_int by (right; lia). reflexivity. Qed.
Lemma npow_2 x : npow x 2 = Some (x * x).
Proof. change 2 with (IZR 2). rewrite npow_int by (right; lia). simpl. f_equal. ring. Qed.
Lemma int_of_spec y z : int_of y = Some z -> y = IZR z.
Proof. unfold int_of. destruct (Req_EM_T (IZR (Int_part y)) y); congruence. Qed.
Lemma npow_one_base w v : npow 1 w = Some v -> v = 1.
Proof.
  unfold npow. destruct (Rlt_dec 0 1); [|lra]. intros E. injection E as <-. unfold Rpower. now rewrite ln_1, Rmult_0_r, exp_0.
Qed.
Lemma int_of_half : int_of (1/2) = None.
Proof.
  destruct (int_of (1/2)) as [z|] eqn:E; auto. apply int_of_spec in E.
  assert (X : IZR (2 * z) = IZR 1) by (rewrite mult_IZR; lra). apply eq_IZR in X. lia.
Qed.
Lemma int_of_third : int_of (1/3) = None.
Proof.
  destruct (int_of (1/3)) as [z|] eqn:E; auto. apply int_of_spec in E.
  assert (X : IZR (3 * z) = IZR 1) by (rewrite mult_IZR; lra). apply eq_IZR in X. lia.
Qed.
Lemma npow_sqrt x v : npow x (1/2) = Some v -> v = sqrt x.
Proof.
  unfold npow. rewrite int_of_half. destruct (Rlt_dec 0 x) as [P|P].
  - intros E. injection E as <-. replace (1/2) with (/2) by lra. apply Rpower_sqrt; auto.
  - destruct (Req_EM_T x 0) as [->|]; [|discriminate]. destruct (Rlt_dec 0 (1/2)); [|lra]. rewrite sqrt_0. congruence.
Qed.
Lemma npow_cbrt x v : npow x (1/3) = Some v -> v = rcbrt x.
Proof.
  unfold npow, rcbrt. rewrite int_of_third. destruct (Rlt_dec 0 x) as [P|P]; [congruence|].
  destruct (Req_EM_T x 0) as [->|]; [|discriminate]. destruct (Rlt_dec 0 (1/3)); [|lra]. congruence.
Qed.
Lemma npow_rpow x y v : npow x y = Some v -> v = rpow x y.
Proof. unfold rpow. intros ->. reflexivity. Qed.
Lemma npow_succ x n v : npow x n = Some v -> npow x (n + 1) = Some (v * x).
Proof.
  unfold npow. destruct (Rlt_dec 0 x) as [P|P].
  - intros E. injection E as <-. rewrite Rpower_plus, Rpower_1; auto.
  - destruct (int_of n) as [z|] eqn:Ez.
    + apply int_of_spec in Ez. subst n. replace (IZR z + 1) with (IZR (z + 1)) by (now rewrite plus_IZR). rewrite int_of_IZR.
      destruct (Req_EM_T x 0) as [->|Nx].
      * destruct (Z_lt_dec z 0); [discriminate|]. intros E. destruct (Z_lt_dec (z + 1) 0); [lia|].
        rewrite Rmult_0_r. f_equal. destruct (Z_of_nat_complete (z + 1)) as [m Hm]; [lia|]. rewrite Hm, powerRZ_nat.
        apply pow_i. lia.
      * intros E. injection E as <-. rewrite powerRZ_add by auto. simpl (powerRZ x 1). f_equal. ring.
    + destruct (Req_EM_T x 0) as [->|Nx]; [|discriminate]. destruct (Rlt_dec 0 n); [|discriminate]. intros E. injection E as <-.
      rewrite Rmult_0_l. destruct (int_of (n + 1)) as [z|] eqn:E1.
      * apply int_of_spec in E1. assert (X : (0 < z)%Z) by (apply lt_IZR; lra). destruct (Z_lt_dec z 0); [lia|].
        f_equal. destruct (Z_of_nat_complete z) as [m Hm]; [lia|]. rewrite Hm, powerRZ_nat. apply pow_i. lia.
      * destruct (Rlt_dec 0 (n + 1)); [reflexivity|lra].
Qed.
Lemma powerRZ_neg_sign w p : powerRZ (- w) p = (if Z.even p then powerRZ w p else - powerRZ w p).
Proof.
  assert (N : forall k, (- w) ^ k = if Nat.even k then w ^ k else - w ^ k).
  { induction k as [|k IH]; [reflexivity|]. rewrite Nat.even_succ, <- Nat.negb_even. simpl pow. rewrite IH.
    destruct (Nat.even k); simpl; ring. }
  assert (Ev : forall q, Nat.even (Pos.to_nat q) = Z.even (Zpos q)).
  { intros q. rewrite <- positive_nat_Z. symmetry. destruct (Nat.even (Pos.to_nat q)) eqn:E.
    - apply Nat.even_spec in E as [m ->]. apply Z.even_spec. exists (Z.of_nat m). lia.
    - rewrite <- Z.negb_odd. apply negb_false_iff, Z.odd_spec. rewrite <- Nat.negb_odd in E. apply negb_false_iff, Nat.odd_spec in E as [m ->].
      exists (Z.of_nat m). lia. }
  destruct p as [|q|q]; simpl (powerRZ _ _).
  - reflexivity.
  - rewrite N, Ev. reflexivity.
  - rewrite N, Ev. change (Z.even (Zneg q)) with (Z.even (Zpos q)). destruct (Z.even (Zpos q)); auto. now rewrite Rinv_opp.
Qed.

(** *** The operators *)
Definition ok_table (ok : R -> Prop) : Prop := forall u, ok u -> off_table u.

Lemma real_of_pair n d : real_of (n, d) = IZR n / IZR d.
Proof. reflexivity. Qed.
Lemma cval_TC ok rho (c : constant) : snd c <> 0%Z -> cval ok rho (TC (fst c) (snd c)) (real_of c).
Proof. intros H. split; auto. Qed.
Lemma as_double_val ok rho e x v : as_double e = Some x -> cval ok rho e v -> v = x.
Proof.
  destruct e as [n d|k| | |]; cbn [as_double cval]; try discriminate; intros E; injection E as <-.
  - intros [_ ->]. reflexivity.
  - intros H. destruct k; exact H.
Qed.

Lemma uapply_val ok rho o a e u v : uapply o a = Ret e ->
  (o = USin \/ o = UCos -> forall n d, a = TC n d -> off_table u) ->
  cval ok rho a u -> unary_value ok o u v -> cval ok rho e v.
Proof.
  intros H Ho Ha Hv. unfold uapply in H. destruct a as [n d|k|y|p b|p l r].
  2:{ apply cval_num in Ha. subst u.
      destruct o; injection H as <-; cbn [unary_value] in Hv; try (apply cval_num; cbn [to_real]; intuition congruence).
      - destruct k; cbn [cval to_real] in *; auto. subst v. rewrite abs_IZR. reflexivity.
      - exists (to_real k). split; [destruct k; reflexivity|]. exact Hv.
      - destruct k; cbn [cval to_real] in *; auto. subst v. now rewrite opp_IZR. }
  2-4: injection H as <-; exists u; split; [exact Ha|exact Hv].
  destruct Ha as [Hd ->]. rewrite <- real_of_pair in *.
  destruct o; cbn [unary_value] in Hv.
  - apply obind_ret in H as (r & Hr & H). destruct r as [c|]; [|discriminate]. injection H as <-.
    apply c_trig_zero in Hr as [Z ->]; [|eapply Ho; eauto]. destruct Hv as [_ ->]. rewrite Z, sin_0. split; [discriminate|]. cbn [fst snd]. lra.
  - apply obind_ret in H as (r & Hr & H). destruct r as [c|]; [|discriminate]. injection H as <-.
    apply c_trig_zero in Hr as [Z ->]; [|eapply Ho; eauto]. destruct Hv as [_ ->]. rewrite Z, cos_0. split; [discriminate|]. cbn [fst snd]. lra.
  - injection H as <-. cbn [cval]. apply Hv.
  - injection H as <-. cbn [cval]. apply Hv.
  - injection H as <-. subst v. unfold c_abs. split.
    + change ((1 - 2 * (if (d <? 0)%Z then 1 else 0)) * d <> 0)%Z. destruct (Z.ltb_spec d 0); lia.
    + change (Rabs (real_of (n, d)) = IZR ((1 - 2 * (if (n <? 0)%Z then 1 else 0)) * n) / IZR ((1 - 2 * (if (d <? 0)%Z then 1 else 0)) * d)).
      rewrite real_of_pair. unfold Rdiv. rewrite Rabs_mult, Rabs_inv.
      assert (E : forall z, IZR ((1 - 2 * (if (z <? 0)%Z then 1 else 0)) * z) = Rabs (IZR z)).
      { intros z. rewrite <- abs_IZR. f_equal. destruct (Z.ltb_spec z 0); lia. }
      rewrite !E. reflexivity.
  - injection H as <-. exists (real_of (n, d)). split; [split; auto|exact Hv].
  - injection H as <-. cbn [cval c_neg fst snd]. split; auto. rewrite Hv, real_of_pair, opp_IZR. lra.
Qed.

Definition both_ints (l r : cexpr) : Prop := exists a b, l = TNum (RInt a) /\ r = TNum (RInt b).

Lemma num_op_val o a b k v : num_op o a b = Ret k -> (o = ODiv -> ~ both_ints (TNum a) (TNum b)) ->
  binary_value o (to_real a) (to_real b) = Some v -> v = to_real k.
Proof.
  intros H N V.
  assert (X : forall a b, binary_value o a b = Some v -> v = real_op o a b).
  { intros x y E. destruct o; cbn [binary_value real_op] in *; try congruence.
    - destruct (Req_EM_T y 0); congruence.
    - now apply npow_rpow. }
  destruct a as [x|x], b as [y|y]; unfold num_op in H; try (injection H as <-; cbn [to_real]; now apply X).
  destruct o; cbn [to_real binary_value] in *.
  - injection H as <-. cbn. rewrite plus_IZR. congruence.
  - injection H as <-. cbn. rewrite minus_IZR. congruence.
  - injection H as <-. cbn. rewrite mult_IZR. congruence.
  - exfalso. apply N; auto. exists x, y. auto.
  - injection H as <-. cbn. now apply npow_rpow.
Qed.

Lemma is_null_eq e : is_null e = true -> e = Null.
Proof. destruct e; cbn; try discriminate. rewrite andb_true_iff, !Z.eqb_eq. intros [-> ->]. reflexivity. Qed.
Lemma is_unity_eq e : is_unity e = true -> e = Unity.
Proof. destruct e; cbn; try discriminate. rewrite andb_true_iff, !Z.eqb_eq. intros [-> ->]. reflexivity. Qed.
Lemma cval_Null ok rho v : cval ok rho Null v <-> v = 0.
Proof. cbn. split; [intros [_ ->]; lra|intros ->; split; [discriminate|lra]]. Qed.
Lemma cval_Unity ok rho v : cval ok rho Unity v <-> v = 1.
Proof. cbn. split; [intros [_ ->]; lra|intros ->; split; [discriminate|lra]]. Qed.
Lemma bin_real o u w v : binary_value o u w = Some v -> v = real_op o u w.
Proof.
  destruct o; cbn [binary_value real_op]; try congruence.
  - destruct (Req_EM_T w 0); congruence.
  - apply npow_rpow.
Qed.

Lemma reduce_pow_val ok rho l r e u w v : reduce_pow l r = Ret (Some e) ->
  cval ok rho l u -> cval ok rho r w -> npow u w = Some v -> cval ok rho e v.
Proof.
  intros H Hl Hr Hv. unfold reduce_pow in H.
  destruct r as [rn rd|k|y|p b|p a b]; try discriminate.
  - destruct Hr as [Hd ->].
    assert (One : forall l, cval ok rho l u -> (rn =? 1)%Z && (rd =? 1)%Z = true -> cval ok rho l v).
    { intros l' Hl' E. apply andb_true_iff in E as [E1 E2]. apply Z.eqb_eq in E1, E2. subst rn rd.
      replace (1 / 1) with 1 in Hv by lra. rewrite npow_1 in Hv. injection Hv as <-. exact Hl'. }
    destruct l as [n d|k|y|p b|p a b].
    + destruct (rd =? 1)%Z; [discriminate|]. injection H as <-. cbn [cval]. destruct Hl as [_ ->]. now apply npow_rpow.
    + destruct ((rn =? 1)%Z && (rd =? 1)%Z) eqn:E1; [injection H as <-; auto|].
      apply cval_num in Hl. subst u.
      destruct ((rn =? 1)%Z && (rd =? 2)%Z) eqn:E2.
      { injection H as <-. apply andb_true_iff in E2 as [A B]. apply Z.eqb_eq in A, B. subst. cbn [cval]. now apply npow_sqrt. }
      destruct ((rn =? 1)%Z && (rd =? 3)%Z) eqn:E3.
      { injection H as <-. apply andb_true_iff in E3 as [A B]. apply Z.eqb_eq in A, B. subst. cbn [cval]. now apply npow_cbrt. }
      injection H as <-. cbn [cval]. now apply npow_rpow.
    + destruct ((rn =? 1)%Z && (rd =? 1)%Z) eqn:E1; [|discriminate]. injection H as <-; auto.
    + destruct ((rn =? 1)%Z && (rd =? 1)%Z) eqn:E1; [|discriminate]. injection H as <-; auto.
    + destruct ((rn =? 1)%Z && (rd =? 1)%Z) eqn:E1; [|discriminate]. injection H as <-; auto.
  - apply cval_num in Hr. subst w. destruct (as_double l) as [a|] eqn:El; [|discriminate]. injection H as <-.
    rewrite (as_double_val _ _ _ _ _ El Hl) in Hv. cbn [cval]. now apply npow_rpow.
Qed.

Lemma reduce_null_val ok rho o l r m e u w v : reduce_null o l r = Some m -> m = Ret e ->
  cval ok rho l u -> cval ok rho r w -> binary_value o u w = Some v -> cval ok rho e v.
Proof.
  intros H -> Hl Hr Hv. unfold reduce_null in H. destruct o; try discriminate; cbn [binary_value] in Hv; injection Hv as <-.
  - destruct (is_null r) eqn:Er.
    { injection H as <-. apply is_null_eq in Er. subst r. apply cval_Null in Hr. subst w. now rewrite Rplus_0_r. }
    destruct (is_null l) eqn:El; [|discriminate].
    injection H as <-. apply is_null_eq in El. subst l. apply cval_Null in Hl. subst u. now rewrite Rplus_0_l.
  - destruct (is_null r) eqn:Er.
    { injection H as <-. apply is_null_eq in Er. subst r. apply cval_Null in Hr. subst w. now rewrite Rminus_0_r. }
    destruct (is_null l) eqn:El; [|discriminate].
    injection H as H. apply is_null_eq in El. subst l. apply cval_Null in Hl. subst u.
    eapply uapply_val; eauto; [intros [?|?]; discriminate|]. cbn. lra.
  - destruct (is_null r) eqn:Er.
    { injection H as <-. apply is_null_eq in Er. subst r. apply cval_Null in Hr. subst w. apply cval_Null. ring. }
    destruct (is_null l) eqn:El.
    { injection H as <-. apply is_null_eq in El. subst l. apply cval_Null in Hl. subst u. apply cval_Null. ring. }
    destruct (is_unity r) eqn:Ur.
    { injection H as <-. apply is_unity_eq in Ur. subst r. apply cval_Unity in Hr. subst w. now rewrite Rmult_1_r. }
    destruct (is_unity l) eqn:Ul; [|discriminate].
    injection H as <-. apply is_unity_eq in Ul. subst l. apply cval_Unity in Hl. subst u. now rewrite Rmult_1_l.
Qed.

Lemma reduce_num_val ok rho o l r e u w v : reduce_num o l r = Ret (Some e) -> (o = ODiv -> ~ both_ints l r) ->
  cval ok rho l u -> cval ok rho r w -> binary_value o u w = Some v -> cval ok rho e v.
Proof.
  intros H N Hl Hr Hv.
  assert (G : forall a b, as_double l = Some a -> as_double r = Some b -> Ret (Some (TNum (RDbl (real_op o a b)))) = Ret (Some e) -> cval ok rho e v).
  { intros a b A B E. injection E as <-. cbn [cval]. rewrite (as_double_val _ _ _ _ _ A Hl), (as_double_val _ _ _ _ _ B Hr) in Hv.
    now apply bin_real. }
  unfold reduce_num in H. destruct l as [n d|k|y|p b|p a b], r as [n' d'|k'|y'|p' b'|p' a' b'];
    try discriminate H; try (eapply G; [reflexivity|reflexivity|exact H]).
  apply obind_ret in H as (z & Hz & E). injection E as <-. apply cval_num in Hl. apply cval_num in Hr. subst.
  apply cval_num. eapply num_op_val; eauto.
Qed.

Lemma creduce_val ok rho o l r e u w v : creduce o l r = Ret (Some e) -> (o = ODiv -> ~ both_ints l r) ->
  cval ok rho l u -> cval ok rho r w -> binary_value o u w = Some v -> cval ok rho e v.
Proof.
  intros H N Hl Hr Hv. unfold creduce in H. destruct (cop_of o) as [co|] eqn:Eo.
  2:{ destruct o; try discriminate. eapply reduce_pow_val; eauto. }
  assert (G : match reduce_null o l r with Some m => do x <- m; Ret (Some x) | None => reduce_num o l r end = Ret (Some e) -> cval ok rho e v).
  { intros K. destruct (reduce_null o l r) as [m|] eqn:Em.
    - apply obind_ret in K as (x & Hx & E). injection E as <-. eapply reduce_null_val; eauto.
    - eapply reduce_num_val; eauto. }
  destruct l as [n d|k|y|p b|p a b]; try (apply G; exact H).
  destruct r as [n' d'|k'|y'|p' b'|p' a' b']; try (apply G; exact H).
  apply obind_ret in H as (c & Hc & E). injection E as <-. destruct Hl as [D1 ->], Hr as [D2 ->].
  assert (Nz : co = CDiv -> n' <> 0%Z).
  { intros -> ->. destruct o; try discriminate. cbn [binary_value] in Hv.
    destruct (Req_EM_T (0 / IZR d') 0) as [|X]; [discriminate|]. apply X. unfold Rdiv. ring. }
  destruct (c_op_real _ _ _ _ Hc) as [Dc Ec]; [exact Nz|].
  assert (E : v = real_of c).
  { rewrite Ec, !real_of_pair. destruct o; cbn in Eo; inversion Eo; subst co; cbn [binary_value rmath] in *; try congruence.
    destruct (Req_EM_T _ 0); congruence. }
  rewrite E. now apply cval_TC.
Qed.

Lemma capply_val ok rho o l r e u w v : capply o l r = Ret e -> (o = ODiv -> ~ both_ints l r) ->
  cval ok rho l u -> cval ok rho r w -> binary_value o u w = Some v -> cval ok rho e v.
Proof.
  intros H N Hl Hr Hv. unfold capply in H. apply obind_ret in H as (x & Hx & E). injection E as <-.
  destruct x as [e|].
  - eapply creduce_val; eauto.
  - exists u, w. auto.
Qed.
