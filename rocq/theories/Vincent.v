(** Why the isolation methods stop: on a short interval a polynomial whose real
    roots are simple has at most one sign variation after the interval has been
    mapped to (0, +inf). *)
From Coq Require Import List Reals Lra Lia Arith Psatz ZArith.
From Verif Require Import Outcome Num PolyModel PolySpec PolyBase PolyProofs PolyCalc RootsModel RootSpec Descartes LMQ Isolate.
Import ListNotations.
Open Scope R_scope.

(* ------------------------------------------------------------ binomials *)
Fixpoint bin (n k : nat) : nat :=
  match n, k with
  | _, O => 1
  | O, S _ => 0
  | S n', S k' => bin n' k' + bin n' k
  end.
Lemma bin_0 n : bin n 0 = 1%nat. Proof. destruct n; reflexivity. Qed.
Lemma bin_over n : forall k, (n < k)%nat -> bin n k = 0%nat.
Proof.
  induction n as [|n IH]; intros [|k] H; try lia; [reflexivity|]. cbn [bin]. rewrite !IH by lia. reflexivity.
Qed.
Lemma bin_pos n : forall k, (k <= n)%nat -> (1 <= bin n k)%nat.
Proof.
  induction n as [|n IH]; intros [|k] H; try lia; [reflexivity|reflexivity|]. cbn [bin]. pose proof (IH k ltac:(lia)). lia.
Qed.
Lemma bin_mul n : forall k, (bin (S n) (S k) * S k = S n * bin n k)%nat.
Proof.
  induction n as [|n IH]; intros k.
  - destruct k; cbn; lia.
  - change (bin (S (S n)) (S k)) with (bin (S n) k + bin (S n) (S k))%nat.
    destruct k as [|k].
    + rewrite bin_0. pose proof (IH 0%nat) as I0. rewrite bin_0 in I0. lia.
    + pose proof (IH (S k)) as I1. pose proof (IH k) as I2. change (bin (S n) (S k)) with (bin n k + bin n (S k))%nat in *.
      nia.
Qed.
Lemma bin_val n y : bsum (S n) (fun i => INR (bin n i) * y ^ i) = (1 + y) ^ n.
Proof.
  induction n as [|n IH]; [simpl; ring|].
  rewrite bsum_shift. rewrite (bsum_ext _ _ (fun i => y * (INR (bin n i) * y ^ i) + INR (bin n (S i)) * y ^ S i)).
  2:{ intros i _. cbn [bin]. rewrite plus_INR. simpl. ring. }
  rewrite bsum_plus, bsum_scal, IH. cbn [bin].
  assert (E : bsum (S n) (fun i => INR (bin n (S i)) * y ^ S i) = (1 + y) ^ n - 1).
  { rewrite <- IH. rewrite (bsum_shift n (fun i => INR (bin n i) * y ^ i)). cbv beta. rewrite bin_0. cbn [bsum]. rewrite bin_over by lia. simpl. ring. }
  rewrite E. simpl. ring.
Qed.

(* ------------------------------------------------------------ coefficients on an interval *)
(** (1+y)^n t(w y/(1+y)), n the order of t, has the coefficients [hc w t] *)
Fixpoint hc (w : R) (t : list R) (i : nat) : R :=
  match t with
  | [] => 0
  | a :: t' => a * INR (bin (length t') i) + match i with O => 0 | S j => w * hc w t' j end
  end.
Lemma hc_over w t : forall i, (length t <= i)%nat -> hc w t i = 0.
Proof.
  induction t as [|a t IH]; intros i Hi; [reflexivity|]. cbn [hc length] in *. rewrite bin_over by lia.
  destruct i as [|i]; [lia|]. rewrite IH by lia. simpl. ring.
Qed.
Lemma hc_val w t y : 0 <= y -> bsum (length t) (fun i => hc w t i * y ^ i) = (1 + y) ^ (length t - 1) * pval t (w * (y / (1 + y))).
Proof.
  intros Hy. induction t as [|a t IH]; [simpl; rewrite pval_nil; ring|].
  cbn [length hc]. rewrite pval_cons. replace (S (length t) - 1)%nat with (length t) by lia.
  rewrite (bsum_ext _ _ (fun i => a * (INR (bin (length t) i) * y ^ i) + match i with O => 0 | S j => w * hc w t j end * y ^ i)) by (intros; ring).
  rewrite bsum_plus, bsum_scal, bin_val, bsum_shift. cbv iota.
  rewrite (bsum_ext _ (fun i => w * hc w t i * y ^ S i) (fun i => (w * y) * (hc w t i * y ^ i))) by (intros; simpl; ring).
  rewrite bsum_scal, IH. destruct t as [|b t]; [rewrite pval_nil; simpl; ring|].
  cbn [length]. replace (S (length t) - 1)%nat with (length t) by lia. cbn [pow]. field. lra.
Qed.
Lemma hc_bound w t B : Rabs w <= 1 -> (forall i, Rabs (get t i) <= B) -> forall i, Rabs (hc w t i) <= B * 2 ^ length t.
Proof.
  intros Hw. assert (BB : forall n i, INR (bin n i) <= 2 ^ n).
  { intros n i. replace (2 ^ n) with (INR (2 ^ n)) by (rewrite pow_INR; reflexivity). apply le_INR. revert i. induction n as [|n IH]; intros [|i]; cbn [bin Nat.pow]; try lia.
    - pose proof (IH 0%nat). rewrite bin_0 in *. lia.
    - pose proof (IH i). pose proof (IH (S i)). lia. }
  induction t as [|a t IH]; intros HB i.
  - simpl. rewrite Rabs_R0. specialize (HB 0%nat). rewrite get_nil, Rabs_R0 in HB. lra.
  - assert (B0 : 0 <= B) by (eapply Rle_trans; [apply Rabs_pos|apply (HB 0%nat)]).
    pose proof (HB 0%nat) as Ha. rewrite get_cons_0 in Ha.
    assert (IH' : forall i, Rabs (hc w t i) <= B * 2 ^ length t) by (apply IH; intros j; exact (HB (S j))).
    cbn [hc length pow]. eapply Rle_trans; [apply Rabs_triang|].
    assert (P1 : Rabs (a * INR (bin (length t) i)) <= B * 2 ^ length t).
    { rewrite Rabs_mult. apply Rmult_le_compat; auto using Rabs_pos. rewrite Rabs_pos_eq by apply pos_INR. apply BB. }
    assert (P2 : Rabs match i with O => 0 | S j => w * hc w t j end <= B * 2 ^ length t).
    { destruct i as [|j]; [rewrite Rabs_R0; apply Rmult_le_pos; [auto|apply pow_le; lra]|].
      rewrite Rabs_mult. specialize (IH' j). pose proof (Rabs_pos (hc w t j)). pose proof (Rabs_pos w). nra. }
    lra.
Qed.

(** a dominant constant coefficient: all coefficients have its sign *)
Lemma hc_case0 w a t B m : 0 < m -> m <= Rabs a -> (forall i, Rabs (get t i) <= B) -> Rabs w <= 1 -> Rabs w * (B * 2 ^ length t) < m ->
  forall i, (i <= length t)%nat -> 0 < a * hc w (a :: t) i.
Proof.
  intros Hm Ha HB Hw1 Hw i Hi. cbn [hc]. pose proof (bin_pos (length t) i Hi) as P. apply le_INR in P. change (INR 1) with 1 in P.
  assert (A2 : 0 < a * a) by (assert (a <> 0) by (intros ->; rewrite Rabs_R0 in Ha; lra); nra).
  destruct i as [|j]; [nra|].
  assert (Q : Rabs (w * hc w t j) < m).
  { rewrite Rabs_mult. pose proof (hc_bound w t B Hw1 HB j). pose proof (Rabs_pos w). eapply Rle_lt_trans; [|exact Hw]. apply Rmult_le_compat_l; auto. }
  set (e := w * hc w t j) in *. set (b := INR (bin (length t) (S j))) in *.
  assert (Rabs (a * e) < a * a).
  { rewrite Rabs_mult. assert (a * a = Rabs a * Rabs a) by (rewrite <- Rabs_mult; symmetry; apply Rabs_pos_eq; lra). rewrite H. apply Rmult_lt_compat_l; lra. }
  apply Rabs_def2 in H. nra.
Qed.

(** a dominant linear coefficient: the coefficients divided by the binomials are
    strictly monotone *)
Definition sgm (a b : R) (t : list R) (w : R) (i : nat) : R := hc w (a :: b :: t) i / INR (bin (S (length t)) i).
Lemma sgm_step w a b t B m : 0 < m -> m <= Rabs b -> (forall i, Rabs (get t i) <= B) -> Rabs w <= 1 -> w <> 0 ->
  Rabs w * (B * 2 ^ length t) * INR (2 * length t + 3) < m ->
  forall i, (S i <= S (length t))%nat -> 0 < (b * w) * (sgm a b t w (S i) - sgm a b t w i).
Proof.
  intros Hm Hb HB Hw1 Hw0 Hw i Hi. set (n := S (length t)).
  assert (B0 : 0 <= B) by (eapply Rle_trans; [apply Rabs_pos|apply (HB 0%nat)]).
  (* hc/bin = a + w/n * i * (b + o_i) *)
  assert (F : exists o : nat -> R, (forall i, Rabs (o i) <= Rabs w * (B * 2 ^ length t)) /\
     forall i, (i <= n)%nat -> sgm a b t w i = a + w / INR n * (INR i * (b + o i))).
  { exists (fun i => match i with O | 1%nat => 0 | S (S j) => w * hc w t j / INR (bin (length t) (S j)) end). split.
    - intros [|[|j]]; try (rewrite Rabs_R0; apply Rmult_le_pos; [apply Rabs_pos|apply Rmult_le_pos; [auto|apply pow_le; lra]]).
      unfold Rdiv. rewrite !Rabs_mult. rewrite Rmult_assoc. apply Rmult_le_compat_l; [apply Rabs_pos|].
      destruct (Nat.le_gt_cases (S j) (length t)) as [L|L].
      + pose proof (bin_pos _ _ L) as P. apply le_INR in P. change (INR 1) with 1 in P.
        assert (0 < / INR (bin (length t) (S j)) <= 1). { split; [apply Rinv_0_lt_compat; lra|]. rewrite <- Rinv_1. apply Rinv_le_contravar; lra. }
        rewrite (Rabs_pos_eq (/ _)) by lra. pose proof (hc_bound w t B Hw1 HB j). pose proof (Rabs_pos (hc w t j)). nra.
      + rewrite hc_over by lia. rewrite Rabs_R0, Rmult_0_l. apply Rmult_le_pos; [auto|apply pow_le; lra].
    - intros k Hk. unfold sgm. fold n.
      destruct k as [|k]; [cbn [hc]; cbn [length]; fold n; rewrite bin_0; change (INR 0) with 0; change (INR 1) with 1; field; apply not_0_INR; unfold n; lia|].
      assert (N0 : INR n <> 0) by (apply not_0_INR; unfold n; lia).
      assert (K1 : INR (bin n (S k)) * INR (S k) = INR n * INR (bin (length t) k)).
      { rewrite <- !mult_INR. f_equal. unfold n. apply bin_mul. }
      assert (K2 : INR (bin n (S k)) <> 0) by (apply not_0_INR; pose proof (bin_pos n (S k) Hk); lia).
      assert (K3 : INR (bin (length t) k) <> 0) by (apply not_0_INR; pose proof (bin_pos (length t) k ltac:(unfold n in Hk; lia)); lia).
      cbn [hc]. cbn [length]. fold n.
      assert (K4 : INR (S k) / INR n = INR (bin (length t) k) / INR (bin n (S k))).
      { apply (Rmult_eq_reg_r (INR n * INR (bin n (S k)))); [|apply Rmult_integral_contrapositive; auto].
        transitivity (INR (bin n (S k)) * INR (S k)); [field; auto|]. rewrite K1. field. auto. }
      replace (w / INR n * (INR (S k) * (b + match k with O => 0 | S j => w * hc w t j / INR (bin (length t) (S j)) end)))
        with (w * (INR (S k) / INR n) * (b + match k with O => 0 | S j => w * hc w t j / INR (bin (length t) (S j)) end)) by (field; auto).
      rewrite K4. destruct k as [|j]; field; auto. }
  destruct F as (o & Ho & F). rewrite !F by (unfold n; lia).
  set (e := Rabs w * (B * 2 ^ length t)) in *.
  assert (N1 : 0 < / INR n) by (apply Rinv_0_lt_compat, lt_0_INR; unfold n; lia).
  replace (b * w * (a + w / INR n * (INR (S i) * (b + o (S i))) - (a + w / INR n * (INR i * (b + o i)))))
    with ((w * w) * / INR n * (b * (b + (INR (S i) * o (S i) - INR i * o i)))) by (rewrite S_INR; unfold Rdiv; ring).
  apply Rmult_lt_0_compat; [apply Rmult_lt_0_compat; nra|].
  assert (Q : Rabs (INR (S i) * o (S i) - INR i * o i) < m).
  { eapply Rle_lt_trans; [|exact Hw]. unfold Rminus. eapply Rle_trans; [apply Rabs_triang|]. rewrite Rabs_Ropp, !Rabs_mult, !(Rabs_pos_eq (INR _)) by apply pos_INR.
    pose proof (Ho (S i)) as O1. pose proof (Ho i) as O2. pose proof (pos_INR i). pose proof (pos_INR (S i)).
    assert (e0 : 0 <= e) by (eapply Rle_trans; [apply Rabs_pos|exact O1]).
    assert (INR (S i) * Rabs (o (S i)) <= INR (S i) * e) by (apply Rmult_le_compat_l; auto).
    assert (INR i * Rabs (o i) <= INR i * e) by (apply Rmult_le_compat_l; auto).
    assert (INR (S i) + INR i <= INR (2 * length t + 3)) by (rewrite <- plus_INR; apply le_INR; lia). nra. }
  assert (Hb0 : 0 < Rabs b) by lra.
  assert (Rabs (b * (INR (S i) * o (S i) - INR i * o i)) < b * b).
  { rewrite Rabs_mult. replace (b * b) with (Rabs b * Rabs b) by (rewrite <- Rabs_mult; apply Rabs_pos_eq; nra). apply Rmult_lt_compat_l; lra. }
  apply Rabs_def2 in H. lra.
Qed.

(* ------------------------------------------------------------ sign variations *)
Lemma sv_one l : forall s, (s = 1 \/ s = -1)%Z -> (forall i j, (i <= j)%nat -> 0 < IZR s * get l i -> 0 <= IZR s * get l j) ->
  (sv 0 l <= 1 /\ sv (- s) l <= 1)%nat.
Proof.
  induction l as [|a t IH]; intros s Hs HP; [simpl; lia|].
  assert (HT : forall i j, (i <= j)%nat -> 0 < IZR s * get t i -> 0 <= IZR s * get t j).
  { intros i j Hij Hi. exact (HP (S i) (S j) ltac:(lia) Hi). }
  specialize (IH s Hs HT). cbn [sv]. unfold chg, nxt.
  destruct (rsign_cases a) as [[Ha ->]|[[Ha ->]|[Ha ->]]].
  - destruct Hs as [-> | ->]; cbn [Z.eqb negb andb Z.opp Pos.eqb] in *; lia.
  - destruct Hs as [-> | ->]; cbn [Z.eqb negb andb Z.opp Pos.eqb] in *.
    + lia.
    + assert (Z0 : sv (-1) t = 0%nat). { apply sv_sign_zero; auto. intros j. apply (HP 0%nat (S j)); [lia|]. rewrite get_cons_0. lra. }
      rewrite Z0. lia.
  - destruct Hs as [-> | ->]; cbn [Z.eqb negb andb Z.opp Pos.eqb] in *.
    + assert (Z0 : sv 1 t = 0%nat). { apply sv_sign_zero; auto. intros j. apply (HP 0%nat (S j)); [lia|]. rewrite get_cons_0. lra. }
      rewrite Z0. lia.
    + lia.
Qed.

(** all of it together, for the coefficients of K (1+ry)^n t(w ry/(1+ry)) *)
Lemma variations_short t B m w K r g : 0 < m -> (forall i, Rabs (get t i) <= B) ->
  (m <= Rabs (get t 0) \/ m <= Rabs (get t 1)) -> Rabs w <= 1 -> w <> 0 ->
  Rabs w * (B * 2 ^ length t) * INR (2 * length t + 3) < m -> 0 < K -> 0 < r -> length g = length t ->
  (forall y, 0 < y -> pval g y = K * ((1 + r * y) ^ (length t - 1) * pval t (w * (r * y / (1 + r * y))))) ->
  (descartes g <= 1)%nat.
Proof.
  intros Hm HB Hd Hw1 Hw0 Hw HK Hr Hl Hg.
  assert (B0 : 0 <= B) by (eapply Rle_trans; [apply Rabs_pos|apply (HB 0%nat)]).
  assert (G : forall i, get g i = K * r ^ i * hc w t i).
  { intros i. set (h := map (fun i => K * r ^ i * hc w t i) (seq 0 (length t))).
    assert (Gh : forall i, get h i = K * r ^ i * hc w t i).
    { intros k. unfold h, get. destruct (Nat.lt_ge_cases k (length t)) as [L|L].
      - rewrite (nth_indep _ _ ((fun i => K * r ^ i * hc w t i) 0%nat)) by (rewrite map_length, seq_length; auto).
        rewrite (map_nth (fun i => K * r ^ i * hc w t i)), seq_nth by auto. reflexivity.
      - rewrite nth_overflow by (rewrite map_length, seq_length; auto). rewrite hc_over by auto. cbn [n0 R_num]. ring. }
    rewrite <- Gh. apply pval_eq_get. intros y Hy. rewrite Hg by auto. rewrite <- hc_val by nra.
    rewrite (pval_bsum_ge (length t) h) by (unfold h; rewrite map_length, seq_length; auto). rewrite <- bsum_scal. apply bsum_ext. intros k _.
    rewrite Gh, Rpow_mult_distr. ring. }
  assert (KR : forall i, 0 < K * r ^ i) by (intros i; apply Rmult_lt_0_compat; auto using pow_lt).
  rewrite descartes_sv.
  destruct t as [|a t]; [destruct g; [simpl; lia|discriminate]|].
  assert (LT : 1 <= INR (2 * length (a :: t) + 3)) by (apply (le_INR 1); lia).
  assert (HBt : forall i, Rabs (get t i) <= B) by (intros i; exact (HB (S i))).
  assert (W0 : 0 <= Rabs w * (B * 2 ^ length t)) by (apply Rmult_le_pos; [apply Rabs_pos|apply Rmult_le_pos; [auto|apply pow_le; lra]]).
  cbn [length pow] in Hw.
  destruct Hd as [Hd|Hd].
  - rewrite get_cons_0 in Hd.
    assert (Z0 : sv 0 g = 0%nat); [|lia]. apply sv_zero. intros i j. rewrite !G.
    assert (Z : forall i, 0 <= a * hc w (a :: t) i).
    { intros k. destruct (Nat.le_gt_cases k (length t)) as [L|L]; [left; apply (hc_case0 w a t B m); auto|rewrite hc_over by (simpl; lia); lra].
      assert (Rabs w * (B * 2 ^ length t) * 1 <= Rabs w * (B * (2 * 2 ^ length t)) * INR (2 * S (length t) + 3)); [|lra].
      apply Rmult_le_compat; try lra; try exact LT. }
    pose proof (Z i) as Zi. pose proof (Z j) as Zj. assert (a <> 0) by (intros ->; rewrite Rabs_R0 in Hd; lra).
    assert (0 <= hc w (a :: t) i * hc w (a :: t) j).
    { assert (0 < a \/ a < 0) as [A|A] by lra; [assert (0 <= hc w (a :: t) i) by nra; assert (0 <= hc w (a :: t) j) by nra; nra|assert (hc w (a :: t) i <= 0) by nra; assert (hc w (a :: t) j <= 0) by nra; nra]. }
    pose proof (KR i). pose proof (KR j).
    replace (K * r ^ i * hc w (a :: t) i * (K * r ^ j * hc w (a :: t) j)) with ((K * r ^ i) * (K * r ^ j) * (hc w (a :: t) i * hc w (a :: t) j)) by ring.
    apply Rmult_le_pos; [nra|auto].
  - destruct t as [|b t]; [unfold get in Hd; cbn [nth] in Hd; cbn [n0 R_num] in Hd; rewrite Rabs_R0 in Hd; lra|].
    change (get (a :: b :: t) 1) with b in Hd.
    assert (HBs : forall i, Rabs (get t i) <= B) by (intros i; exact (HBt (S i))).
    cbn [length pow] in *.
    assert (St : forall i, (S i <= S (length t))%nat -> 0 < b * w * (sgm a b t w (S i) - sgm a b t w i)).
    { apply (sgm_step w a b t B m); auto.
      assert (Rabs w * (B * 2 ^ length t) * INR (2 * length t + 3) <= Rabs w * (B * (2 * (2 * 2 ^ length t))) * INR (2 * S (S (length t)) + 3)); [|lra].
      assert (0 <= Rabs w * (B * 2 ^ length t)) by (apply Rmult_le_pos; [apply Rabs_pos|apply Rmult_le_pos; [auto|apply pow_le; lra]]).
      apply Rmult_le_compat; try lra; try apply pos_INR; try (apply le_INR; lia). }
    assert (Mono : forall i j, (i <= j)%nat -> (j <= S (length t))%nat -> 0 <= b * w * (sgm a b t w j - sgm a b t w i)).
    { intros i j Hij Hj. induction j as [|j IHj]; [replace i with 0%nat by lia; lra|].
      destruct (Nat.eq_dec i (S j)) as [->|Ne]; [lra|]. specialize (IHj ltac:(lia) ltac:(lia)). specialize (St j Hj). lra. }
    assert (b0 : b <> 0) by (intros ->; rewrite Rabs_R0 in Hd; lra).
    assert (bw : b * w <> 0) by (apply Rmult_integral_contrapositive; auto).
    set (s := if Rlt_dec 0 (b * w) then 1%Z else (-1)%Z).
    assert (Hs : (s = 1 \/ s = -1)%Z) by (unfold s; destruct Rlt_dec; auto).
    assert (Hbs : 0 < b * w * IZR s) by (unfold s; destruct Rlt_dec; lra).
    assert (S2 : IZR s * IZR s = 1) by (destruct Hs as [-> | ->]; ring).
    apply (sv_one g s Hs). intros i j Hij Hi. rewrite G in *.
    destruct (Nat.le_gt_cases j (S (length t))) as [Lj|Lj]; [|rewrite hc_over by (simpl; lia); lra].
    assert (E : forall k, (k <= S (length t))%nat -> 0 < INR (bin (S (length t)) k) /\ hc w (a :: b :: t) k = sgm a b t w k * INR (bin (S (length t)) k)).
    { intros k Hk. pose proof (bin_pos _ _ Hk) as P. apply le_INR in P. change (INR 1) with 1 in P. split; [lra|]. unfold sgm. field. lra. }
    destruct (E i ltac:(lia)) as [Pi Ei]. destruct (E j Lj) as [Pj Ej]. rewrite Ei in Hi. rewrite Ej.
    pose proof (KR i). pose proof (KR j).
    assert (Q : 0 < IZR s * sgm a b t w i).
    { destruct (Rlt_or_le 0 (IZR s * sgm a b t w i)) as [X|X]; auto. exfalso.
      assert (IZR s * sgm a b t w i * (K * r ^ i * INR (bin (S (length t)) i)) <= 0); [|lra].
      assert (P3 : 0 < K * r ^ i * INR (bin (S (length t)) i)) by (apply Rmult_lt_0_compat; auto). rewrite <- (Rmult_0_l (K * r ^ i * INR (bin (S (length t)) i))). apply Rmult_le_compat_r; lra. }
    pose proof (Mono i j Hij Lj) as Mn.
    assert (Q2 : 0 <= IZR s * (sgm a b t w j - sgm a b t w i)).
    { apply (Rmult_le_reg_l (b * w * IZR s)); auto. rewrite Rmult_0_r. replace (b * w * IZR s * (IZR s * (sgm a b t w j - sgm a b t w i))) with ((b * w * (sgm a b t w j - sgm a b t w i)) * (IZR s * IZR s)) by ring. rewrite S2. lra. }
    replace (IZR s * (K * r ^ j * (sgm a b t w j * INR (bin (S (length t)) j)))) with ((K * r ^ j) * INR (bin (S (length t)) j) * (IZR s * sgm a b t w j)) by ring.
    apply Rmult_le_pos; [apply Rmult_le_pos; lra|lra].
Qed.
