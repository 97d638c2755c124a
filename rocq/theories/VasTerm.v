(** Termination of the VAS isolation method. *)
From Coq Require Import List Reals Lra Lia Arith Psatz ZArith.
From Verif Require Import Outcome Num PolyModel PolySpec PolyBase PolyProofs PolyCalc NumericProofs RootsModel RootSpec Descartes LMQ Isolate Vincent IsolateTerm.
Import ListNotations.
Open Scope R_scope.

(* ------------------------------------------------------------ doubling stops *)
(** |g(s)| is not clearly larger than its rounding error *)
Definition weight (g : list R) (s : R) : R := bsum (length g) (fun i => INR (2 * i + 1) * Rabs (get g i) * s ^ i).
Definition unclear (eps : R) (g : list R) (s : R) : Prop := Rabs (pval g s) <= 100 * eps * weight g s.

Lemma precision_weight eps g : g <> [] -> 0 <= eps -> 100 * poly_precision eps g 1 <= 100 * eps * weight g 1.
Proof.
  intros Hg He. pose proof (order_length g Hg) as Hl. unfold poly_precision.
  assert (W0 : forall n, 0 <= bsum n (fun i => INR (2 * i + 1) * Rabs (get g i) * 1 ^ i)).
  { induction n as [|n IH]; [simpl; lra|]. cbn [bsum]. rewrite pow1. pose proof (pos_INR (2 * n + 1)). pose proof (Rabs_pos (get g n)). nra. }
  destruct (Nat.eqb_spec (porder g) 0); [cbn [n0 R_num]; specialize (W0 (length g)); fold (weight g 1) in W0; nra|].
  match goal with |- context [for_up 1 ?n ?b ?s] =>
    assert (P : (fun i '(sum, xn) => xn = 1 /\ sum <= bsum i (fun i => INR (2 * i + 1) * Rabs (get g i) * 1 ^ i)) (1 + n)%nat (for_up 1 n b s)) end.
  { apply for_up_inv.
    - cbn [bsum]. rewrite nabs_R, Rabs_R1. split; [reflexivity|]. simpl. pose proof (Rle_abs (get g 0)). lra.
    - intros i [sum xn] Hi [-> Hs]. cbn [nadd nmul R_num]. rewrite !nabs_R, nofnat_INR. split; [rewrite Rabs_R1; ring|]. cbn [bsum]. rewrite pow1. lra. }
  destruct (for_up _ _ _ _) as [sum xn]. destruct P as [_ Hs]. cbn [fst nmul R_num].
  unfold weight. rewrite Hl. change (S (porder g)) with (1 + porder g)%nat. set (W := bsum _ _) in *. nra.
Qed.
Lemma scale_get g s i : g <> [] -> get (scale_poly g s) i = get g i * s ^ i.
Proof.
  intros Hg. destruct (scale_poly_correct g s Hg) as [L V].
  set (h := map (fun i => get g i * s ^ i) (seq 0 (length g))).
  assert (Gh : forall i, get h i = get g i * s ^ i).
  { intros k. unfold h. unfold get at 1. destruct (Nat.lt_ge_cases k (length g)) as [Lk|Lk].
    - rewrite (nth_indep _ _ ((fun i => get g i * s ^ i) 0%nat)) by (rewrite map_length, seq_length; auto). rewrite (map_nth (fun i => get g i * s ^ i)), seq_nth by auto. reflexivity.
    - rewrite nth_overflow by (rewrite map_length, seq_length; auto). rewrite get_over by auto. cbn [n0 R_num]. ring. }
  rewrite <- Gh. apply pval_eq_get. intros x Hx. rewrite V.
  rewrite (pval_bsum_ge (length g) h) by (unfold h; rewrite map_length, seq_length; auto). rewrite (pval_bsum_ge (length g) g) by lia.
  apply bsum_ext. intros k _. rewrite Gh, Rpow_mult_distr. ring.
Qed.
Lemma unclear_scale eps g s : g <> [] -> unclear eps (scale_poly g 2) s <-> unclear eps g (2 * s).
Proof.
  intros Hg. destruct (scale_poly_correct g 2 Hg) as [L V]. unfold unclear. rewrite V.
  replace (weight (scale_poly g 2) s) with (weight g (2 * s)); [tauto|]. unfold weight. rewrite L. apply bsum_ext. intros i _.
  rewrite scale_get by auto. rewrite Rabs_mult, (Rabs_pos_eq (2 ^ i)) by (apply pow_le; lra). rewrite Rpow_mult_distr. ring.
Qed.

Lemma argmax (F : nat -> R) N : exists i, (i <= N)%nat /\ (forall k, (k <= N)%nat -> F k <= F i) /\ forall k, (k <= N)%nat -> (i < k)%nat -> F k < F i.
Proof.
  induction N as [|N (i & Hi & M1 & M2)].
  - exists 0%nat. split; [lia|]. split; intros k Hk; [replace k with 0%nat by lia; lra|lia].
  - destruct (Rle_or_lt (F i) (F (S N))) as [L|L].
    + exists (S N). split; [lia|]. split; [|intros; lia]. intros k Hk. destruct (Nat.eq_dec k (S N)) as [->|]; [lra|]. specialize (M1 k ltac:(lia)). lra.
    + exists i. split; [lia|]. split; intros k Hk; [|intros Hik]; destruct (Nat.eq_dec k (S N)) as [->|]; try lra; [apply M1; lia|apply M2; lia].
Qed.

(** among the points 1, 2, 4, ..., 2^K one monomial dominates all the others *)
Definition dominates (N L : nat) (c : nat -> R) (x : R) (i : nat) : Prop :=
  (i <= N)%nat /\ forall k, (k <= N)%nat -> k <> i -> c k * x ^ k * 2 ^ L <= c i * x ^ i.
Lemma dominant N L (c : nat -> R) : (forall i, 0 <= c i) -> exists j i, (j <= 2 * L * (N + 1))%nat /\ dominates N L c (2 ^ j) i.
Proof.
  intros Hc. set (F := fun m i => c i * (2 ^ (2 * L * m)) ^ i).
  assert (P2 : forall k, 0 < 2 ^ k) by (intros k; apply pow_lt; lra).
  assert (FS : forall m i, F (S m) i = F m i * 2 ^ (2 * L * i)).
  { intros m i. unfold F. rewrite <- !pow_mult, Rmult_assoc, <- pow_add. do 2 f_equal. lia. }
  (* argmax is monotone; two neighbours share it *)
  assert (Q : forall m, (exists m' i, (m' < m)%nat /\ (i <= N)%nat /\ (forall k, (k <= N)%nat -> F m' k <= F m' i) /\ (forall k, (k <= N)%nat -> F (S m') k <= F (S m') i))
     \/ exists i, (m <= i <= N)%nat /\ (forall k, (k <= N)%nat -> F m k <= F m i) /\ forall k, (k <= N)%nat -> (i < k)%nat -> F m k < F m i).
  { induction m as [|m IH].
    - right. destruct (argmax (F 0%nat) N) as (i & Hi & M1 & M2). exists i. split; [lia|]. auto.
    - destruct IH as [(m' & i & H1 & H2)|(i & Hi & M1 & M2)]; [left; exists m', i; split; [lia|auto]|].
      destruct (argmax (F (S m)) N) as (i' & Hi' & M1' & M2').
      destruct (Nat.eq_dec i' i) as [->|Ne]; [left; exists m, i; repeat split; auto; lia|].
      right. exists i'. split; [|auto]. split; [|auto]. destruct (Nat.lt_ge_cases i' i) as [Lt|Ge]; [exfalso|lia].
      specialize (M2' i ltac:(lia) Lt). specialize (M1 i' Hi'). rewrite !FS in M2'.
      assert (2 ^ (2 * L * i') <= 2 ^ (2 * L * i)) by (apply Rle_pow; [lra|nia]).
      assert (0 <= F m i) by (unfold F; apply Rmult_le_pos; [auto|apply pow_le; left; auto]).
      pose proof (P2 (2 * L * i')%nat). assert (0 <= F m i') by (unfold F; apply Rmult_le_pos; [auto|apply pow_le; left; auto]). nra. }
  destruct (Q (N + 1)%nat) as [(m & i & Hm & Hi & M1 & M2)|(i & Hi & _)]; [|lia].
  exists (2 * L * m + L)%nat, i. split; [nia|]. split; [auto|]. intros k Hk Ne.
  set (x := 2 ^ (2 * L * m)). assert (Ex : forall a, (2 ^ (2 * L * m + L)) ^ a = x ^ a * 2 ^ (L * a)) by (intros a; unfold x; rewrite pow_add, Rpow_mult_distr, <- (pow_mult 2 L a); reflexivity).
  rewrite !Ex. specialize (M1 k Hk). specialize (M2 k Hk). rewrite !FS in M2. unfold F in M1, M2. fold x in M1, M2.
  set (u := c k * x ^ k) in *. set (v := c i * x ^ i) in *.
  replace (c k * (x ^ k * 2 ^ (L * k)) * 2 ^ L) with (u * (2 ^ (L * k) * 2 ^ L)) by (unfold u; ring).
  replace (c i * (x ^ i * 2 ^ (L * i))) with (v * 2 ^ (L * i)) by (unfold v; ring). rewrite <- pow_add.
  assert (Hu : 0 <= u) by (unfold u; apply Rmult_le_pos; [auto|apply pow_le; left; apply P2]).
  assert (Hv : 0 <= v) by (unfold v; apply Rmult_le_pos; [auto|apply pow_le; left; apply P2]).
  destruct (Nat.lt_ge_cases k i) as [Lt|Ge].
  - assert (2 ^ (L * k + L) <= 2 ^ (L * i)) by (apply Rle_pow; [lra|nia]). pose proof (P2 (L * k + L)%nat). nra.
  - (* i < k: multiply M2 by 2^(-(L*i + L*k)) *)
    assert (E1 : 2 ^ (L * k + L) * 2 ^ (L * k - L) = 2 ^ (2 * L * k)) by (rewrite <- pow_add; f_equal; nia).
    assert (E2 : 2 ^ (L * i) * 2 ^ (L * k - L) * 2 ^ (2 * L * i) <= 2 ^ (2 * L * i) * (2 ^ (L * i) * 2 ^ (L * k - L))) by lra.
    assert (E3 : 2 ^ (2 * L * i) <= 2 ^ (L * i) * 2 ^ (L * k - L)) by (rewrite <- pow_add; apply Rle_pow; [lra|nia]).
    apply (Rmult_le_reg_r (2 ^ (L * k - L))); [apply P2|]. rewrite Rmult_assoc, E1, Rmult_assoc. eapply Rle_trans; [exact M2|]. apply Rmult_le_compat_l; auto.
Qed.

Lemma bsum_dom N (F : nat -> R) i e : (i <= N)%nat -> (forall k, (k <= N)%nat -> k <> i -> Rabs (F k) <= e) -> 0 <= e ->
  Rabs (bsum (S N) F - F i) <= INR N * e.
Proof.
  intros Hi HF He. assert (G : forall n, (i <= n)%nat -> (n <= N)%nat -> Rabs (bsum (S n) F - F i) <= INR n * e).
  { assert (G0 : forall n, (n <= i)%nat -> Rabs (bsum n F) <= INR n * e).
    { induction n as [|n IH]; intros Hn; [simpl; rewrite Rabs_R0; lra|]. cbn [bsum]. rewrite S_INR. eapply Rle_trans; [apply Rabs_triang|].
      specialize (IH ltac:(lia)). specialize (HF n ltac:(lia) ltac:(lia)). lra. }
    induction n as [|n IH]; intros Hin HnN.
    - replace i with 0%nat by lia. simpl. replace (0 + F 0%nat - F 0%nat) with 0 by ring. rewrite Rabs_R0. lra.
    - destruct (Nat.eq_dec i (S n)) as [->|Ne].
      + change (bsum (S (S n)) F) with (bsum (S n) F + F (S n)). replace (bsum (S n) F + F (S n) - F (S n)) with (bsum (S n) F) by ring. apply G0. lia.
      + change (bsum (S (S n)) F) with (bsum (S n) F + F (S n)). specialize (IH ltac:(lia) ltac:(lia)). specialize (HF (S n) ltac:(lia) ltac:(lia)).
        replace (bsum (S n) F + F (S n) - F i) with ((bsum (S n) F - F i) + F (S n)) by ring. rewrite S_INR. eapply Rle_trans; [apply Rabs_triang|]. lra. }
  apply G; lia.
Qed.

Lemma pow2_ge n : INR (n + 1) <= 2 ^ n.
Proof. replace (2 ^ n) with (INR (2 ^ n)) by (rewrite pow_INR; reflexivity). apply le_INR. induction n as [|n IH]; [simpl; lia|]. cbn [Nat.pow]. lia. Qed.

(** the number of doublings is bounded *)
Definition Kmax (N : nat) : nat := (2 * (N + 1) * (N + 1))%nat.
Lemma clear_exists eps N g : 0 <= eps -> 300 * eps * INR (2 * N + 1) < 1 -> not_zero g -> length g = S N ->
  exists j, (j <= Kmax N)%nat /\ ~ unclear eps g (2 ^ j).
Proof.
  intros He Hs Nz HL. destruct (dominant N (N + 1) (fun i => Rabs (get g i))) as (j & i & Hj & Hi & Dm); [intros; apply Rabs_pos|].
  exists j. split; [unfold Kmax; exact Hj|]. set (x := 2 ^ j) in *. assert (Hx : 0 < x) by (apply pow_lt; lra).
  set (D := Rabs (get g i) * x ^ i) in *.
  assert (HP : 0 < 2 ^ (N + 1)) by (apply pow_lt; lra). assert (H2 : 2 * INR N <= 2 ^ (N + 1)).
  { rewrite pow_add. pose proof (pow2_ge N). rewrite plus_INR in H. simpl in *. lra. }
  assert (Xp : forall k, 0 < x ^ k) by (intros; apply pow_lt; auto).
  assert (D0 : 0 < D).
  { assert (0 <= D) by (unfold D; apply Rmult_le_pos; [apply Rabs_pos|left; auto]). destruct (Req_dec D 0) as [E|]; [|lra]. exfalso.
    destruct Nz as (c & Hc & Hcn). apply In_nth with (d := 0) in Hc. destruct Hc as (k & Hk & Ek). assert (Gk : get g k = c) by exact Ek.
    assert (Z : Rabs (get g k) * x ^ k = 0).
    { destruct (Nat.eq_dec k i) as [->|Ne]; [exact E|]. specialize (Dm k ltac:(lia) Ne). rewrite E in Dm. pose proof (Rabs_pos (get g k)). pose proof (Xp k).
      assert (0 <= Rabs (get g k) * x ^ k) by nra. nra. }
    pose proof (Xp k). apply Rmult_integral in Z. destruct Z as [Z|Z]; [|lra]. apply Hcn. rewrite <- Gk. destruct (Req_dec (get g k) 0) as [|X]; auto. apply Rabs_no_R0 in X. lra. }
  set (e := D / 2 ^ (N + 1)). assert (e0 : 0 <= e) by (unfold e; left; apply Rdiv_lt_0_compat; lra).
  assert (eN : INR N * e <= D / 2).
  { assert (INR N * D <= D / 2 * 2 ^ (N + 1)) by nra. unfold e, Rdiv. apply (Rmult_le_reg_r (2 ^ (N + 1))); auto. replace (INR N * (D * / 2 ^ (N + 1)) * 2 ^ (N + 1)) with (INR N * D) by (field; lra). exact H. }
  assert (De : forall k, (k <= N)%nat -> k <> i -> Rabs (get g k) * x ^ k <= e).
  { intros k Hk Ne. specialize (Dm k Hk Ne). unfold e. apply (Rmult_le_reg_r (2 ^ (N + 1))); auto. replace (D / 2 ^ (N + 1) * 2 ^ (N + 1)) with D by (field; lra). exact Dm. }
  intros U. unfold unclear in U.
  assert (A : D / 2 <= Rabs (pval g x)).
  { rewrite (pval_bsum_ge (S N) g x) by lia. pose proof (bsum_dom N (fun k => get g k * x ^ k) i e Hi) as B.
    specialize (B ltac:(intros k Hk Ne; cbv beta; rewrite Rabs_mult, (Rabs_pos_eq (x ^ k)) by (left; auto); apply De; auto) e0). cbn beta in B.
    assert (Ei : Rabs (get g i * x ^ i) = D) by (rewrite Rabs_mult, (Rabs_pos_eq (x ^ i)) by (left; auto); reflexivity).
    set (s := bsum (S N) _) in *. pose proof (Rabs_triang (s - (get g i * x ^ i)) (- s)) as T. replace (s - get g i * x ^ i + - s) with (- (get g i * x ^ i)) in T by ring. rewrite !Rabs_Ropp in T. lra. }
  assert (Bw : weight g x <= INR (2 * N + 1) * (3 / 2 * D)).
  { unfold weight. rewrite HL. apply Rle_trans with (bsum (S N) (fun k => INR (2 * N + 1) * (Rabs (get g k) * x ^ k))).
    - apply bsum_le. intros k Hk. assert (INR (2 * k + 1) <= INR (2 * N + 1)) by (apply le_INR; lia). pose proof (Rabs_pos (get g k)). pose proof (Xp k). rewrite Rmult_assoc. apply Rmult_le_compat_r; [nra|auto].
    - rewrite bsum_scal. apply Rmult_le_compat_l; [apply pos_INR|].
      pose proof (bsum_dom N (fun k => Rabs (get g k) * x ^ k) i e Hi) as B.
      specialize (B ltac:(intros k Hk Ne; cbv beta; rewrite Rabs_pos_eq; [apply De; auto|pose proof (Rabs_pos (get g k)); pose proof (Xp k); nra]) e0). cbn beta in B. fold D in B.
      pose proof (Rle_abs (bsum (S N) (fun k => Rabs (get g k) * x ^ k) - D)). lra. }
  assert (Rabs (pval g x) <= 100 * eps * (INR (2 * N + 1) * (3 / 2 * D))) by (eapply Rle_trans; [exact U|apply Rmult_le_compat_l; lra]).
  assert (100 * eps * (INR (2 * N + 1) * (3 / 2 * D)) = 300 * eps * INR (2 * N + 1) * (D / 2)) by field. nra.
Qed.

(* ------------------------------------------------------------ cells *)
Definition cell (f g : list R) (M : mobius) : Prop :=
  length g = length f /\ not_zero g /\ get g 0 <> 0 /\ mob_valid M /\
  forall y, 0 < y -> pval g y = (mc M * y + md M) ^ porder f * pval f (mobR M y).

Lemma cell_scale f g M s : cell f g M -> 0 < s -> cell f (scale_poly g s) (mob_scale M s).
Proof.
  intros (L & Nz & G0 & V & E) Hs. pose proof (not_zero_nil g Nz) as Hg. destruct (scale_poly_correct g s Hg) as [SL SV].
  split; [congruence|]. split; [apply not_zero_scale; [lra|auto]|]. split; [rewrite <- pval_at_0, SV, Rmult_0_r, pval_at_0; auto|]. split; [apply mob_scale_valid; auto|].
  intros y Hy. rewrite SV, mob_scale_R, E by nra. cbn [mc md mob_scale]. f_equal. f_equal. ring.
Qed.
Lemma cell_shift f g g' M s : cell f g M -> 0 < s -> length g' = length g -> not_zero g' -> pval g s <> 0 ->
  (forall x, pval g' x = pval g (x + s)) -> cell f g' (mob_shift M s).
Proof.
  intros (L & Nz & G0 & V & E) Hs SL Nz' H1 SV.
  split; [congruence|]. split; [auto|]. split; [rewrite <- pval_at_0, SV, Rplus_0_l; auto|]. split; [apply mob_shift_valid; auto; lra|].
  intros y Hy. rewrite SV, mob_shift_R, E by (auto; lra). cbn [mc md mob_shift]. f_equal. f_equal. ring.
Qed.
Lemma cell_its f g M : cell f g M -> pval g 1 <> 0 -> cell f (invert_taylor_shift g) (mob_invert_taylor_shift M).
Proof.
  intros (L & Nz & G0 & V & E) H1. pose proof (not_zero_nil g Nz) as Hg. destruct (invert_taylor_shift_correct g Hg) as [SL SV].
  split; [congruence|]. split; [apply not_zero_its; auto|].
  split; [rewrite <- pval_at_0, SV by lra; rewrite Rplus_0_l, pow1, Rmult_1_l; replace (1 / 1) with 1 by field; exact H1|].
  split; [apply mob_its_valid; auto|]. intros y Hy.
  assert (P : 0 < 1 / (y + 1)) by (apply Rdiv_lt_0_compat; lra).
  rewrite SV, mob_its_R, E by (auto; lra). cbn [mc md mob_invert_taylor_shift]. rewrite <- Rmult_assoc.
  replace (porder g) with (porder f) by (unfold porder; congruence). rewrite <- Rpow_mult_distr. f_equal. f_equal. field. lra.
Qed.

Lemma obind_fuel {A B} (m : outcome A) (k : A -> outcome B) : m <> Fuel -> (forall x, k x <> Fuel) -> obind m k <> Fuel.
Proof. intros H1 H2. destruct m; cbn [obind]; try discriminate; [apply H2|congruence]. Qed.
Lemma INR_above x : exists n, x < INR n.
Proof.
  exists (Z.to_nat (up (Rabs x))). rewrite INR_IZR_INZ, Z2Nat.id.
  - pose proof (archimed (Rabs x)). pose proof (Rle_abs x). lra.
  - apply le_IZR. pose proof (archimed (Rabs x)). pose proof (Rabs_pos x). lra.
Qed.
Definition vstops (eps : R) (g : list R) (M : mobius) : Prop := stops (fun fu => vas_worker fu eps g M).

Lemma vas_step eps f g M : 0 <= eps -> cell f g M ->
  (forall g' s t, 1 <= s -> 1 <= t -> cell f g' (mob_shift (mob_scale M s) t) -> vstops eps g' (mob_shift (mob_scale M s) t)) ->
  (unclear eps g 1 -> cell f (scale_poly g 2) (mob_scale M 2) -> vstops eps (scale_poly g 2) (mob_scale M 2)) ->
  (forall g', cell f g' (mob_invert_taylor_shift M) -> vstops eps g' (mob_invert_taylor_shift M)) ->
  vstops eps g M.
Proof.
  intros He C Hshift Hdouble Hits. pose proof C as (L & Nz & G0 & V & E). pose proof (not_zero_nil g Nz) as Hg.
  assert (EM : mob_scale M 1 = M) by (destruct M as [a1 b1 c1 d1]; unfold mob_scale; cbn [ma mb mc md]; rewrite !Rmult_1_r; reflexivity).
  pose proof (lmq_lower_correct g Nz) as Plb. pose proof (lmq_lower_inf g Nz) as Pinf.
  destruct (descartes g) as [|[|d]] eqn:Ed; [exists 1%nat; intros [|fu] Hfu; [lia|]; cbn [vas_worker]; rewrite Ed; discriminate..|].
  destruct (LMQ_lower g) as [[lb0| |]| | |] eqn:El;
    try (exists 1%nat; intros [|fu] Hfu; [lia|]; cbn [vas_worker]; rewrite Ed, El; cbn [obind]; discriminate); [|exfalso; exact Plb].
  clear Pinf. destruct Plb as [Hlb0 Hno0].
  destruct (Rltb_spec lb0 16) as [H16|H16].
  - destruct (Rltb_spec lb0 1) as [Hl1|Hl1].
    + destruct (Rltb_spec (100 * poly_precision eps g 1) (Rabs (poly_eval g 1))) as [Hsp|Hsp].
      * (* split *)
        assert (H1 : pval g 1 <> 0).
        { intros E1. rewrite poly_eval_correct in Hsp by exact Hg. rewrite E1, Rabs_R0 in Hsp. pose proof (precision_nonneg eps g Hg He E1). lra. }
        destruct (shift_unity_correct g Hg) as [Sl Sv].
        destruct (Hits _ (cell_its f g M C H1)) as [n1 S1].
        destruct (Hshift (shift_unity g) 1 1) as [n2 S2]; try lra.
        { rewrite EM. apply (cell_shift f g); auto; try lra. apply not_zero_unity; auto. }
        rewrite EM in S2. exists (S (n1 + n2)). intros [|fu] Hfu; [lia|]. cbn [vas_worker]. rewrite Ed, El. cbn [obind].
        destruct (Rltb_spec lb0 16); [|lra]. cbn [negb]. cbv iota. destruct (Rltb_spec lb0 1); [|lra]. cbn [negb].
        destruct (Rltb_spec (100 * poly_precision eps g 1) (Rabs (poly_eval g 1))); [|lra]. cbn [negb].
        destruct (Reqb_spec (get g 0) 0); [contradiction|]. cbv iota zeta.
        specialize (S1 fu ltac:(lia)). specialize (S2 fu ltac:(lia)). cbn beta in S1, S2.
        apply obind_fuel; [exact S1|intros l]. apply obind_fuel; [apply sv_extend_fuel|intros ra]. apply obind_fuel; [exact S2|intros r2]. apply sv_extend_fuel.
      * assert (Un : unclear eps g 1).
        { unfold unclear. rewrite poly_eval_correct in Hsp by exact Hg. apply Rnot_lt_le in Hsp; eapply Rle_trans; [exact Hsp|apply precision_weight; auto]. }
        destruct (Hdouble Un (cell_scale f g M 2 C ltac:(lra))) as [n1 S1]. exists (S n1). intros [|fu] Hfu; [lia|]. cbn [vas_worker]. rewrite Ed, El. cbn [obind].
        destruct (Rltb_spec lb0 16); [|lra]. cbn [negb]. cbv iota. destruct (Rltb_spec lb0 1); [|lra]. cbn [negb].
        destruct (Rltb_spec (100 * poly_precision eps g 1) (Rabs (poly_eval g 1))); [lra|]. cbn [negb]. apply S1. lia.
    + destruct (shift_function_correct g lb0 Hg) as [Sl Sv].
      destruct (Hshift (shift_function g lb0) 1 lb0) as [n1 S1]; try lra.
      { rewrite EM. apply (cell_shift f g); auto. - apply not_zero_shift; auto. - apply Hno0; lra. }
      rewrite EM in S1. exists (S n1). intros [|fu] Hfu; [lia|]. cbn [vas_worker]. rewrite Ed, El. cbn [obind].
      destruct (Rltb_spec lb0 16); [|lra]. cbn [negb]. cbv iota. destruct (Rltb_spec lb0 1); [lra|]. cbn [negb]. apply S1. lia.
  - pose proof (cell_scale f g M lb0 C Hlb0) as C'. destruct (scale_poly_correct g lb0 Hg) as [Cl Cv].
    assert (Hg' : scale_poly g lb0 <> []) by (intros Z; rewrite Z in Cl; destruct g; [congruence|discriminate]).
    destruct (shift_function_correct (scale_poly g lb0) 1 Hg') as [Sl Sv].
    destruct (Hshift (shift_function (scale_poly g lb0) 1) lb0 1) as [n1 S1]; try lra.
    { apply (cell_shift f (scale_poly g lb0)); auto; try lra. - apply not_zero_shift, not_zero_scale; auto; lra. - rewrite Cv. apply Hno0; lra. }
    exists (S n1). intros [|fu] Hfu; [lia|]. cbn [vas_worker]. rewrite Ed, El. cbn [obind].
    destruct (Rltb_spec lb0 16); [lra|]. cbn [negb]. cbv iota. destruct (Rltb_spec 1 1); [lra|]. cbn [negb]. apply S1. lia.
Qed.

Lemma vas_terminal eps g M : (descartes g <= 1)%nat -> vstops eps g M.
Proof. intros D. exists 1%nat. intros [|fu] Hfu; [lia|]. cbn [vas_worker]. destruct (descartes g) as [|[|n]]; [discriminate|discriminate|exfalso; lia]. Qed.

(** finite cells *)
Definition mdet (M : mobius) : R := Rabs (ma M * md M - mb M * mc M).
Lemma cell_finite_terminal f U d eps g M :
  (forall p w K r g, 0 <= p <= U -> w <> 0 -> Rabs w < d -> 0 < K -> 0 < r -> length g = length f ->
    (forall y, 0 < y -> pval g y = K * ((1 + r * y) ^ porder f * pval f (p + w * (r * y / (1 + r * y))))) -> (descartes g <= 1)%nat) ->
  cell f g M -> 0 < mc M -> mb M <= U * md M -> mdet M < d * (mc M * md M) -> vstops eps g M.
Proof.
  intros SC (L & Nz & G0 & V & E) Hc Hb Hd. apply vas_terminal. destruct V as (Va & Vb & Vc & Vd & Vdet).
  set (a := ma M) in *. set (b := mb M) in *. set (c := mc M) in *. set (dd := md M) in *.
  assert (Hcd : 0 < c * dd) by (apply Rmult_lt_0_compat; auto).
  assert (Ew : a / c - b / dd = (a * dd - b * c) / (c * dd)) by (field; lra).
  apply (SC (b / dd) (a / c - b / dd) (dd ^ porder f) (c / dd) g); auto.
  - split; [apply Rmult_le_pos; [auto|left; apply Rinv_0_lt_compat; auto]|]. apply (Rmult_le_reg_r dd); auto. replace (b / dd * dd) with b by (field; lra). exact Hb.
  - rewrite Ew. intros Z. apply Vdet. apply (Rmult_eq_reg_r (/ (c * dd))); [|apply Rinv_neq_0_compat; lra]. rewrite Rmult_0_l. exact Z.
  - rewrite Ew. unfold Rdiv. rewrite Rabs_mult, (Rabs_pos_eq (/ _)) by (left; apply Rinv_0_lt_compat; auto). fold (mdet M). apply (Rmult_lt_reg_r (c * dd)); auto.
    rewrite Rmult_assoc, Rinv_l, Rmult_1_r by lra. exact Hd.
  - apply pow_lt; auto.
  - apply Rdiv_lt_0_compat; auto.
  - intros y Hy. rewrite E by auto. fold c dd. rewrite <- Rmult_assoc, <- Rpow_mult_distr. f_equal; [f_equal; field; lra|]. f_equal. unfold mobR. fold a b c dd.
    assert (0 < c * y) by (apply Rmult_lt_0_compat; auto). field. split; [lra|]. split; lra.
Qed.

Section Finite.
Variables (eps : R) (f : list R) (U d : R).
Let N := porder f.
Let K := Kmax N.
Let eta := 1 + / 2 ^ K.
Hypothesis He : 0 <= eps.
Hypothesis Heps : 300 * eps * INR (2 * N + 1) < 1.
Hypothesis Hf : f <> [].
Hypothesis HU : 0 <= U.
Hypothesis Hd : 0 < d.
Hypothesis SC : forall p w K r g, 0 <= p <= U -> w <> 0 -> Rabs w < d -> 0 < K -> 0 < r -> length g = length f ->
    (forall y, 0 < y -> pval g y = K * ((1 + r * y) ^ porder f * pval f (p + w * (r * y / (1 + r * y))))) -> (descartes g <= 1)%nat.

Lemma cell_clear g M : cell f g M -> exists j, (j <= K)%nat /\ ~ unclear eps g (2 ^ j).
Proof. intros (L & Nz & _). apply clear_exists; auto. rewrite L. apply order_length, Hf. Qed.

Lemma mdet_shift M s t : mdet (mob_shift (mob_scale M s) t) = Rabs s * mdet M.
Proof. unfold mdet, mob_shift, mob_scale. cbn [ma mb mc md]. rewrite <- Rabs_mult. f_equal. ring. Qed.
Lemma mdet_scale M s : mdet (mob_scale M s) = Rabs s * mdet M.
Proof. unfold mdet, mob_scale. cbn [ma mb mc md]. rewrite <- Rabs_mult. f_equal. ring. Qed.
Lemma mdet_its M : mdet (mob_invert_taylor_shift M) = mdet M.
Proof. unfold mdet, mob_invert_taylor_shift. cbn [ma mb mc md]. rewrite <- Rabs_Ropp. f_equal. ring. Qed.

Lemma finite_stops : forall J g M, cell f g M -> 0 < mc M -> mb M <= U * md M -> ma M <= U * mc M -> mc M <= md M ->
  mdet M < d * (mc M * md M) * eta ^ J -> vstops eps g M.
Proof.
  assert (P2 : 0 < 2 ^ K) by (apply pow_lt; lra). assert (Hi : 0 < / 2 ^ K) by (apply Rinv_0_lt_compat; auto).
  assert (Heta : 1 < eta) by (unfold eta; lra).
  induction J as [|J IHJ]; intros g M C Hc Hb Ha Hcd HJ.
  - apply (cell_finite_terminal f U d); auto. simpl in HJ. lra.
  - assert (HE : 1 <= eta ^ S J) by (apply pow_R1_Rle; lra).
    assert (Main : forall S j g M, cell f g M -> 0 < mc M -> mb M <= U * md M -> ma M <= U * mc M -> (j <= K)%nat ->
      (exists j', (j' <= j)%nat /\ ~ unclear eps g (2 ^ j')) -> mc M <= 2 ^ (K - j) * md M ->
      mdet M < d * (mc M * md M) * eta ^ (Datatypes.S J) -> mdet M < d * (mc M * md M + INR S * (mc M * mc M)) -> vstops eps g M).
    { clear g M C Hc Hb Ha Hcd HJ. induction S as [|S IHS]; [intros j g M C Hc Hb Ha Hj Cl Hr HJ HS; apply (cell_finite_terminal f U d); auto; simpl in HS; lra|].
      induction j as [|j IHj]; intros g M C Hc Hb Ha Hj Cl Hr HJ HS.
      all: pose proof C as (_ & _ & _ & (Va & Vb & Vc & Vd & _) & _).
      all: apply (vas_step eps f); auto.
      (* shift *)
      1,4: intros g' s t Hs Ht C'; destruct (cell_clear g' _ C') as (j1 & Hj1 & Cl1);
        apply (IHS K g' (mob_shift (mob_scale M s) t)); auto; [..|exists j1; auto| | |];
        rewrite ?mdet_shift, ?(Rabs_pos_eq s) by lra; cbn [ma mb mc md mob_shift mob_scale];
        [nra| | |rewrite Nat.sub_diag| |].
      1,6: assert (ma M * s * t <= U * mc M * s * t) by (do 2 (apply Rmult_le_compat_r; [lra|]); exact Ha); lra.
      1,5: assert (ma M * s <= U * mc M * s) by (apply Rmult_le_compat_r; [lra|exact Ha]); lra.
      1,4: assert (mc M * s * 1 <= mc M * s * t) by (apply Rmult_le_compat_l; nra); simpl; lra.
      1,3: assert (0 < mc M * s * t) by (apply Rmult_lt_0_compat; nra); assert (s * mdet M < s * (d * (mc M * md M) * eta ^ Datatypes.S J)) by (apply Rmult_lt_compat_l; lra);
        assert (0 <= d * (mc M * s * (mc M * s * t)) * eta ^ Datatypes.S J) by (apply Rmult_le_pos; [apply Rmult_le_pos; [lra|nra]|lra]); lra.
      1,2: rewrite S_INR in HS; assert (X1 : s * mdet M < s * (d * (mc M * md M + (INR S + 1) * (mc M * mc M)))) by (apply Rmult_lt_compat_l; lra);
        eapply Rlt_le_trans; [exact X1|]; set (cc := mc M * mc M); assert (0 <= cc) by (unfold cc; nra); pose proof (pos_INR S);
        replace (s * (d * (mc M * md M + (INR S + 1) * cc))) with (d * (s * (mc M * md M) + (s * cc + INR S * (s * cc)))) by ring;
        apply Rmult_le_compat_l; [lra|];
        replace (mc M * s * (md M + mc M * s * t) + INR S * (mc M * s * (mc M * s))) with (s * (mc M * md M) + (s * cc * (s * t) + INR S * (s * cc * s))) by (unfold cc; ring);
        assert (0 <= s * cc) by nra; assert (1 <= s * t) by nra; assert (s * cc <= s * cc * (s * t)) by nra; assert (s * cc <= s * cc * s) by nra;
        assert (INR S * (s * cc) <= INR S * (s * cc * s)) by (apply Rmult_le_compat_l; auto); lra.
      (* double *)
      1,3: intros Un C2.
      + exfalso. destruct Cl as (j' & Hj' & X). apply X. replace j' with 0%nat by lia. exact Un.
      + apply IHj; auto; try lia; rewrite ?mdet_scale, ?(Rabs_pos_eq 2) by lra; cbn [ma mb mc md mob_scale]; try nra.
        * destruct Cl as ([|j'] & Hj' & X); [exfalso; apply X; exact Un|]. exists j'. split; [lia|]. rewrite unclear_scale by (destruct C as (_ & Nz & _); apply not_zero_nil; auto). exact X.
        * replace (K - j)%nat with (Datatypes.S (K - Datatypes.S j)) by lia. cbn [pow]. nra.
        * pose proof (pos_INR (Datatypes.S S)) as PS. assert (0 <= mc M * mc M) by nra. assert (0 <= INR (Datatypes.S S) * (mc M * mc M)) by nra.
          replace (d * (mc M * 2 * md M + INR (Datatypes.S S) * (mc M * 2 * (mc M * 2)))) with (2 * (d * (mc M * md M + INR (Datatypes.S S) * (mc M * mc M))) + 2 * d * (INR (Datatypes.S S) * (mc M * mc M))) by ring.
          assert (0 <= 2 * d * (INR (Datatypes.S S) * (mc M * mc M))) by (apply Rmult_le_pos; lra). lra.
      (* invert *)
      + intros g' C'. apply IHJ; auto; rewrite ?mdet_its; cbn [ma mb mc md mob_invert_taylor_shift]; try nra.
        assert (mc M <= 2 ^ K * md M). { eapply Rle_trans; [exact Hr|]. apply Rmult_le_compat_r; [lra|]. apply Rle_pow; [lra|lia]. }
        assert (mc M * eta <= mc M + md M). { unfold eta. assert (mc M * / 2 ^ K <= md M); [|lra]. apply (Rmult_le_reg_r (2 ^ K)); auto. rewrite Rmult_assoc, Rinv_l by lra. lra. }
        eapply Rlt_le_trans; [exact HJ|]. cbn [pow]. assert (0 < eta ^ J) by (apply pow_lt; lra).
        replace (d * (mc M * md M) * (eta * eta ^ J)) with (d * (md M * (mc M * eta)) * eta ^ J) by ring. apply Rmult_le_compat_r; [lra|]. apply Rmult_le_compat_l; [lra|]. apply Rmult_le_compat_l; lra.
      + intros g' C'. apply IHJ; auto; rewrite ?mdet_its; cbn [ma mb mc md mob_invert_taylor_shift]; try nra.
        assert (mc M <= 2 ^ K * md M). { eapply Rle_trans; [exact Hr|]. apply Rmult_le_compat_r; [lra|]. apply Rle_pow; [lra|lia]. }
        assert (mc M * eta <= mc M + md M). { unfold eta. assert (mc M * / 2 ^ K <= md M); [|lra]. apply (Rmult_le_reg_r (2 ^ K)); auto. rewrite Rmult_assoc, Rinv_l by lra. lra. }
        eapply Rlt_le_trans; [exact HJ|]. cbn [pow]. assert (0 < eta ^ J) by (apply pow_lt; lra).
        replace (d * (mc M * md M) * (eta * eta ^ J)) with (d * (md M * (mc M * eta)) * eta ^ J) by ring. apply Rmult_le_compat_r; [lra|]. apply Rmult_le_compat_l; [lra|]. apply Rmult_le_compat_l; lra. }
    pose proof C as (_ & _ & _ & (Va & Vb & Vc & Vd & _) & _).
    assert (Hcc : 0 < d * (mc M * mc M)) by (apply Rmult_lt_0_compat; nra).
    destruct (INR_above (mdet M / (d * (mc M * mc M)))) as [S HS].
    apply (Main S K g M); auto; [apply (cell_clear g M C)|rewrite Nat.sub_diag; simpl; lra|].
    apply (Rmult_lt_compat_l (d * (mc M * mc M))) in HS; auto. replace (d * (mc M * mc M) * (mdet M / (d * (mc M * mc M)))) with (mdet M) in HS by (field; nra).
    assert (0 < d * (mc M * md M)) by (apply Rmult_lt_0_compat; nra). lra.
Qed.
End Finite.

(* ------------------------------------------------------------ infinite cells *)
(** far out all Taylor coefficients have the same sign *)
Lemma pval_zero_right t X : (forall q, X <= q -> pval t q = 0) -> forall x, pval t x = 0.
Proof.
  intros H x. destruct t as [|b t]; [apply pval_nil|]. destruct (shift_function_correct (b :: t) X) as [_ V]; [discriminate|].
  replace x with ((x - X) + X) by ring. rewrite <- V. rewrite (pval_ext _ []); [apply pval_nil|]. intros i. rewrite get_nil.
  apply pval_zero_pos. intros y Hy. rewrite V. apply H. lra.
Qed.
Lemma far_signs f : exists X s, (s = 1 \/ s = -1) /\ forall p, X <= p -> forall i, 0 <= s * st p f i.
Proof.
  induction f as [|a t IH].
  - exists 0, 1. split; [auto|]. intros p _ i. simpl. lra.
  - destruct IH as (X & s & Hs & IH).
    destruct (Classical_Prop.classic (forall x, pval t x = 0)) as [Z|Nz].
    + exists 0, (if Rle_dec 0 a then 1 else -1). split; [destruct Rle_dec; auto|]. intros p _ i. cbn [st].
      assert (ZZ : forall k, st p t k = 0).
      { intros k. destruct t as [|b t']; [reflexivity|]. rewrite <- st_get by discriminate. apply pval_zero_pos. intros x _. destruct (shift_function_correct (b :: t') p) as [_ V]; [discriminate|]. rewrite V. apply Z. }
      rewrite !ZZ. destruct i; rewrite ?ZZ; destruct Rle_dec; lra.
    + assert (Ex : exists q, X <= q /\ 0 < s * pval t q).
      { apply Classical_Prop.NNPP. intros H. apply Nz. intros x. revert x. apply (pval_zero_right t X). intros q Hq.
        destruct (Req_dec (pval t q) 0) as [|Nq]; auto. exfalso. apply H. exists q. split; auto. pose proof (IH q Hq 0%nat) as P. rewrite st_0 in P. destruct Hs as [-> | ->]; lra. }
      destruct Ex as (q & Hq & Hpos). set (e := s * pval t q) in *.
      (* s * t is non-decreasing on [X, inf) *)
      assert (Mono : forall p, q <= p -> e <= s * pval t p).
      { intros p Hp. replace p with ((p - q) + q) by ring. rewrite <- st_val. destruct t as [|b t']; [unfold e in Hpos; rewrite pval_nil in Hpos; lra|].
        cbn [length]. rewrite bsum_shift. rewrite st_0. unfold e. simpl ((p - q) ^ 0).
        assert (0 <= s * bsum (length t') (fun i => st q (b :: t') (S i) * (p - q) ^ S i)); [|lra].
        rewrite <- bsum_scal. rewrite <- (bsum_zero (length t') (fun _ => 0)) by auto. apply bsum_le. intros i _.
        rewrite <- Rmult_assoc. apply Rmult_le_pos; [apply IH; auto|apply pow_le; lra]. }
      exists (Rmax q (Rmax 0 (Rabs a / e))), s. split; auto. intros p Hp i.
      assert (B : q <= p /\ 0 <= p /\ Rabs a / e <= p).
      { pose proof (Rmax_l q (Rmax 0 (Rabs a / e))). pose proof (Rmax_r q (Rmax 0 (Rabs a / e))). pose proof (Rmax_l 0 (Rabs a / e)). pose proof (Rmax_r 0 (Rabs a / e)). lra. }
      destruct B as (B1 & B2 & B3). cbn [st]. assert (IHp : forall k, 0 <= s * st p t k) by (apply IH; lra).
      destruct i as [|i].
      * rewrite st_0. pose proof (Mono p B1) as M1. assert (Rabs a <= p * e). { apply (Rmult_le_compat_r e) in B3; [|lra]. replace (Rabs a / e * e) with (Rabs a) in B3 by (field; lra). exact B3. }
        pose proof (Rle_abs a). pose proof (Rle_abs (- a)). rewrite Rabs_Ropp in H1. assert (p * e <= p * (s * pval t p)) by (apply Rmult_le_compat_l; auto).
        destruct Hs as [-> | ->]; lra.
      * pose proof (IHp i). pose proof (IHp (S i)). assert (0 <= p * (s * st p t (S i))) by (apply Rmult_le_pos; auto). lra.
Qed.

Lemma cell_far f g M X s eps : f <> [] -> (s = 1 \/ s = -1) -> (forall p, X <= p -> forall i, 0 <= s * st p f i) ->
  cell f g M -> mc M = 0 -> X * md M <= mb M -> vstops eps g M.
Proof.
  intros Hf Hs HX (L & Nz & G0 & V & E) Hc Hb. destruct V as (Va & Vb & Vc & Vd & Vdet). apply vas_terminal.
  rewrite Hc, Rmult_0_r, Rminus_0_r in Vdet. assert (Ha : 0 < ma M) by (destruct Va as [|Z]; [auto|rewrite <- Z, Rmult_0_l in Vdet; congruence]).
  assert (G : forall i, get g i = md M ^ porder f * ((ma M / md M) ^ i * st (mb M / md M) f i)).
  { set (h := scale_poly (shift_function f (mb M / md M)) (ma M / md M)).
    destruct (shift_function_correct f (mb M / md M) Hf) as [SL SV].
    assert (Sn : shift_function f (mb M / md M) <> []) by (intros Z; rewrite Z in SL; destruct f; [congruence|discriminate]).
    destruct (scale_poly_correct _ (ma M / md M) Sn) as [CL CV]. intros i.
    replace (get g i) with (get (map (Rmult (md M ^ porder f)) h) i).
    - assert (PM : forall k l n, get (map (Rmult k) l) n = k * get l n).
      { intros k. induction l as [|c l IH]; intros [|n]; unfold get in *; cbn [map nth]; try (change (@n0 R R_num) with 0; ring). apply IH. }
      rewrite PM. f_equal. unfold h. rewrite scale_get by auto. rewrite st_get by auto. ring.
    - apply pval_eq_get. intros y Hy. rewrite E by auto. rewrite Hc, Rmult_0_l, Rplus_0_l.
      assert (PS : forall k l x, pval (map (Rmult k) l) x = k * pval l x). { intros k l x. induction l as [|c l IH]; cbn [map]; [rewrite pval_nil; ring|rewrite !pval_cons, IH; ring]. }
      rewrite PS. unfold h. rewrite CV, SV. f_equal. f_equal. unfold mobR. rewrite Hc. field. lra. }
  rewrite descartes_sv. assert (Z0 : sv 0 g = 0%nat); [|lia]. apply sv_zero. intros i j. rewrite !G.
  assert (P : X <= mb M / md M). { apply (Rmult_le_reg_r (md M)); auto. replace (mb M / md M * md M) with (mb M) by (field; lra). exact Hb. }
  pose proof (HX _ P i) as Hi. pose proof (HX _ P j) as Hj.
  assert (0 <= st (mb M / md M) f i * st (mb M / md M) f j) by (destruct Hs as [-> | ->]; nra).
  assert (0 < md M ^ porder f) by (apply pow_lt; auto). assert (Q : forall k, 0 < (ma M / md M) ^ k) by (intros; apply pow_lt, Rdiv_lt_0_compat; auto).
  pose proof (Q i). pose proof (Q j).
  replace (md M ^ porder f * ((ma M / md M) ^ i * st (mb M / md M) f i) * (md M ^ porder f * ((ma M / md M) ^ j * st (mb M / md M) f j)))
    with ((md M ^ porder f * md M ^ porder f) * ((ma M / md M) ^ i * (ma M / md M) ^ j) * (st (mb M / md M) f i * st (mb M / md M) f j)) by ring.
  apply Rmult_le_pos; [apply Rmult_le_pos; nra|auto].
Qed.

(** every cell *)
Lemma finite_cell_stops eps f g M : 0 <= eps -> 300 * eps * INR (2 * porder f + 1) < 1 -> f <> [] ->
  (forall x, 0 <= x -> is_root f x -> ~ derivable_pt_lim (pval f) x 0) ->
  cell f g M -> 0 < mc M -> mc M <= md M -> vstops eps g M.
Proof.
  intros He Heps Hf Hs C Hc Hcd. pose proof C as (_ & _ & _ & (Va & Vb & Vc & Vd & _) & _).
  set (U := mb M / md M + ma M / mc M).
  assert (U1 : 0 <= mb M / md M) by (apply Rmult_le_pos; [auto|left; apply Rinv_0_lt_compat; auto]).
  assert (U2 : 0 <= ma M / mc M) by (apply Rmult_le_pos; [auto|left; apply Rinv_0_lt_compat; auto]).
  destruct (short_cell f U Hf ltac:(unfold U; lra)) as (d & Hd & SC); [intros x Hx; apply Hs; lra|].
  assert (P2 : 0 < / 2 ^ Kmax (porder f)) by (apply Rinv_0_lt_compat, pow_lt; lra).
  assert (Hcd' : 0 < d * (mc M * md M)) by (apply Rmult_lt_0_compat; [auto|nra]).
  destruct (Pow_x_infinity (1 + / 2 ^ Kmax (porder f)) ltac:(rewrite Rabs_pos_eq; lra) (mdet M / (d * (mc M * md M)) + 1)) as [J HJ].
  specialize (HJ J (le_n J)). rewrite Rabs_pos_eq in HJ by (apply pow_le; lra).
  apply (finite_stops eps f U d He Heps Hf Hd SC J g M C Hc); auto.
  - replace (mb M) with (mb M / md M * md M) at 1 by (field; lra). apply Rmult_le_compat_r; unfold U; lra.
  - replace (ma M) with (ma M / mc M * mc M) at 1 by (field; lra). apply Rmult_le_compat_r; unfold U; lra.
  - assert (L : mdet M / (d * (mc M * md M)) < (1 + / 2 ^ Kmax (porder f)) ^ J) by lra.
    apply (Rmult_lt_compat_l (d * (mc M * md M))) in L; auto. replace (d * (mc M * md M) * (mdet M / (d * (mc M * md M)))) with (mdet M) in L by (field; nra). exact L.
Qed.

Lemma infinite_cell_stops eps f : 0 <= eps -> 300 * eps * INR (2 * porder f + 1) < 1 -> f <> [] ->
  (forall x, 0 <= x -> is_root f x -> ~ derivable_pt_lim (pval f) x 0) ->
  forall g M, cell f g M -> mc M = 0 -> md M <= ma M -> vstops eps g M.
Proof.
  intros He Heps Hf Hs. destruct (far_signs f) as (X & s & Hsg & HX).
  assert (Main : forall n j g M, cell f g M -> mc M = 0 -> md M <= ma M -> (exists j', (j' <= j)%nat /\ ~ unclear eps g (2 ^ j')) -> X * md M <= mb M + INR n * md M -> vstops eps g M).
  { induction n as [|n IHn]; [intros j g M C Hc Ha Cl Hn; apply (cell_far f g M X s); auto; simpl in Hn; lra|].
    induction j as [|j IHj]; intros g M C Hc Ha Cl Hn.
    all: pose proof C as (_ & _ & _ & (Va & Vb & Vc & Vd & _) & _); rewrite S_INR in Hn.
    all: apply (vas_step eps f); auto.
    1,4: intros g' s' t Hs' Ht C'; destruct (cell_clear eps f He Heps Hf g' _ C') as (j1 & Hj1 & Cl1);
      apply (IHn (Kmax (porder f)) g' (mob_shift (mob_scale M s') t)); auto; [..|exists j1; auto|]; cbn [ma mb mc md mob_shift mob_scale]; rewrite ?Hc; try nra;
      assert (md M <= ma M * s') by nra; assert (ma M * s' <= ma M * s' * t) by nra; nra.
    - intros Un C2. exfalso. destruct Cl as (j' & Hj' & Y). apply Y. replace j' with 0%nat by lia. exact Un.
    - intros g' C'. apply (finite_cell_stops eps f); auto; cbn [ma mb mc md mob_invert_taylor_shift]; rewrite ?Hc; lra.
    - intros Un C2. apply IHj; auto; cbn [ma mb mc md mob_scale]; rewrite ?Hc, ?S_INR; try lra.
      destruct Cl as ([|j'] & Hj' & Y); [exfalso; apply Y; exact Un|]. exists j'. split; [lia|]. rewrite unclear_scale by (destruct C as (_ & Nz & _); apply not_zero_nil; auto). exact Y.
    - intros g' C'. apply (finite_cell_stops eps f); auto; cbn [ma mb mc md mob_invert_taylor_shift]; rewrite ?Hc; lra. }
  intros g M C Hc Ha. pose proof C as (_ & _ & _ & (Va & Vb & Vc & Vd & _) & _).
  destruct (INR_above X) as [n Hn]. destruct (cell_clear eps f He Heps Hf g M C) as (j1 & Hj1 & Cl1).
  apply (Main n (Kmax (porder f)) g M); auto; [exists j1; auto|]. nra.
Qed.

Lemma VAS_stops eps f : 0 <= eps -> 300 * eps * INR (2 * porder f + 1) < 1 -> not_zero f -> get f 0 <> 0 ->
  (forall x, 0 <= x -> is_root f x -> ~ derivable_pt_lim (pval f) x 0) -> stops (fun fu => VAS_bounds fu eps f).
Proof.
  intros He Heps Nz H0 Hs. pose proof (not_zero_nil f Nz) as Hf. unfold VAS_bounds. pose proof (lmq_upper_correct f Nz) as P.
  destruct (LMQ_upper f) as [[u| |]| | |]; cbn [obind]; try (exists 0%nat; intros; discriminate); try (exfalso; exact P).
  destruct (Reqb_spec u 0) as [E|E]; [exists 0%nat; intros; discriminate|].
  destruct (infinite_cell_stops eps f He Heps Hf Hs f mob_id) as [n Hn].
  - split; [auto|]. split; [auto|]. split; [auto|]. split; [apply mob_id_valid|]. intros y Hy. cbn [mc md mob_id]. rewrite mob_id_R, Rmult_0_l, Rplus_0_l, pow1. ring.
  - reflexivity.
  - simpl. lra.
  - exists n. intros fu Hfu. apply obind_fuel; [apply Hn; auto|]. intros x. discriminate.
Qed.
