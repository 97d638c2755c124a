(** Termination of the VCA and VAS isolation methods. *)
From Coq Require Import List Reals Lra Lia Arith Psatz ZArith.
From Verif Require Import Outcome Num PolyModel PolySpec PolyBase PolyProofs PolyCalc NumericProofs RootsModel RootSpec Descartes LMQ Isolate Vincent.
Import ListNotations.
Open Scope R_scope.

(* ------------------------------------------------------------ Taylor coefficients at p *)
Fixpoint st (p : R) (f : list R) : nat -> R :=
  match f with
  | [] => fun _ => 0
  | a :: t => fun i => match i with O => a | S j => st p t j end + p * st p t i
  end.
Lemma st_over p f : forall i, (length f <= i)%nat -> st p f i = 0.
Proof.
  induction f as [|a t IH]; intros i Hi; [reflexivity|]. cbn [st length] in *. destruct i as [|i]; [lia|]. rewrite !IH by lia. ring.
Qed.
Lemma st_val p f x : bsum (length f) (fun i => st p f i * x ^ i) = pval f (x + p).
Proof.
  induction f as [|a t IH]; [reflexivity|]. rewrite pval_cons, <- IH. cbn [length st].
  rewrite (bsum_ext _ _ (fun i => match i with O => a | S j => st p t j end * x ^ i + p * (st p t i * x ^ i))) by (intros; ring).
  rewrite bsum_plus, bsum_scal, bsum_shift. cbv iota. simpl (x ^ 0).
  rewrite (bsum_ext _ (fun i => st p t i * x ^ S i) (fun i => x * (st p t i * x ^ i))) by (intros; simpl; ring). rewrite bsum_scal.
  cbn [bsum]. rewrite st_over by lia. ring.
Qed.
Lemma st_get p f i : f <> [] -> get (shift_function f p) i = st p f i.
Proof.
  intros Hf. destruct (shift_function_correct f p Hf) as [L V].
  set (h := map (st p f) (seq 0 (length f))).
  assert (Gh : forall i, get h i = st p f i).
  { intros k. unfold h, get. destruct (Nat.lt_ge_cases k (length f)) as [Lk|Lk].
    - rewrite (nth_indep _ _ (st p f 0%nat)) by (rewrite map_length, seq_length; auto). rewrite map_nth, seq_nth by auto. reflexivity.
    - rewrite nth_overflow by (rewrite map_length, seq_length; auto). rewrite st_over by auto. reflexivity. }
  rewrite <- Gh. apply pval_eq_get. intros x Hx. rewrite V, <- st_val.
  rewrite (pval_bsum_ge (length f) h) by (unfold h; rewrite map_length, seq_length; auto). apply bsum_ext. intros k _. rewrite Gh. reflexivity.
Qed.
Lemma st_cont f : forall i, continuity (fun p => st p f i).
Proof.
  induction f as [|a t IH]; intros i.
  - apply continuity_const. intros x y. reflexivity.
  - cbn [st]. apply (continuity_plus (fun p => match i with O => a | S j => st p t j end) (fun p => p * st p t i)).
    + destruct i as [|j]; [apply continuity_const; intros x y; reflexivity|apply IH].
    + apply (continuity_mult id (fun p => st p t i)); [apply derivable_continuous, derivable_id|apply IH].
Qed.
Lemma st_0 p f : st p f 0 = pval f p.
Proof.
  rewrite <- (Rplus_0_l p) at 2. rewrite <- st_val. destruct f as [|a t]; [reflexivity|]. cbn [length]. rewrite bsum_shift.
  rewrite bsum_zero; [simpl (0 ^ 0); ring|]. intros i _. simpl (0 ^ _). ring.
Qed.
Lemma st_1 p f : derivable_pt_lim (pval f) p (st p f 1).
Proof.
  induction f as [|a t IH].
  - apply (derivable_pt_lim_ext (fun _ => 0)); [intros; rewrite pval_nil; reflexivity|apply derivable_pt_lim_const].
  - apply (derivable_pt_lim_ext (fun x => a + x * pval t x)); [intros x; rewrite pval_cons; reflexivity|].
    cbn [st]. replace (st p t 0 + p * st p t 1) with (0 + (1 * pval t p + p * st p t 1)) by (rewrite st_0; ring).
    apply (derivable_pt_lim_plus (fun _ => a) (fun x => x * pval t x)); [apply derivable_pt_lim_const|].
    apply (derivable_pt_lim_mult id (pval t)); [apply derivable_pt_lim_id|exact IH].
Qed.

(** bounds of continuous functions on [0, U] *)
Lemma st_bound f U : 0 <= U -> exists B, forall p i, 0 <= p <= U -> Rabs (st p f i) <= B.
Proof.
  intros HU. assert (E : forall n, exists B, forall p i, (i < n)%nat -> 0 <= p <= U -> Rabs (st p f i) <= B).
  { induction n as [|n [B HB]]; [exists 0; intros; lia|].
    destruct (continuity_ab_maj (fun p => Rabs (st p f n)) 0 U HU) as (x & Hx & _).
    { intros c _. apply (continuity_pt_comp (fun p => st p f n) Rabs); [apply st_cont|apply Rcontinuity_abs]. }
    exists (Rmax B (Rabs (st x f n))). intros p i Hi Hp. destruct (Nat.eq_dec i n) as [->|Ne].
    - eapply Rle_trans; [apply Hx; auto|apply Rmax_r].
    - eapply Rle_trans; [apply HB; auto; lia|apply Rmax_l]. }
  destruct (E (length f)) as [B HB]. exists (Rmax B 0). intros p i Hp. destruct (Nat.lt_ge_cases i (length f)) as [L|L].
  - eapply Rle_trans; [apply HB; auto|apply Rmax_l].
  - rewrite st_over by auto. rewrite Rabs_R0. apply Rmax_r.
Qed.
Lemma st_min f U : 0 <= U -> (forall x, 0 <= x <= U -> is_root f x -> ~ derivable_pt_lim (pval f) x 0) ->
  exists m, 0 < m /\ forall p, 0 <= p <= U -> m <= Rabs (st p f 0) \/ m <= Rabs (st p f 1).
Proof.
  intros HU Hs. destruct (continuity_ab_min (fun p => st p f 0 * st p f 0 + st p f 1 * st p f 1) 0 U HU) as (x & Hx & Ux).
  { intros c _. apply (continuity_pt_plus (fun p => st p f 0 * st p f 0) (fun p => st p f 1 * st p f 1));
    apply (continuity_pt_mult (fun p => st p f _) (fun p => st p f _)); apply st_cont. }
  set (q := st x f 0 * st x f 0 + st x f 1 * st x f 1) in *.
  assert (Hq : 0 < q).
  { assert (0 <= q) by (unfold q; nra). destruct (Req_dec q 0) as [E|E]; [|lra]. exfalso.
    assert (st x f 0 = 0) by (unfold q in E; nra). assert (st x f 1 = 0) by (unfold q in E; nra).
    apply (Hs x Ux); [unfold is_root; rewrite <- st_0; auto|]. rewrite <- H1. apply st_1. }
  set (m := Rmin 1 q / 2). assert (Hm : 0 < m <= / 2 /\ m <= q / 2) by (unfold m, Rmin; destruct Rle_dec; lra).
  exists m. split; [lra|]. intros p Hp. specialize (Hx p Hp).
  destruct (Rle_or_lt m (Rabs (st p f 0))) as [|L0]; auto. destruct (Rle_or_lt m (Rabs (st p f 1))) as [|L1]; auto. exfalso.
  assert (SQ : forall v, v * v = Rabs v * Rabs v) by (intros v; rewrite <- Rabs_mult; symmetry; apply Rabs_pos_eq; nra).
  rewrite (SQ (st p f 0)), (SQ (st p f 1)) in Hx. pose proof (Rabs_pos (st p f 0)). pose proof (Rabs_pos (st p f 1)).
  assert (Rabs (st p f 0) * Rabs (st p f 0) < m * m) by nra. assert (Rabs (st p f 1) * Rabs (st p f 1) < m * m) by nra. nra.
Qed.

(** the main lemma *)
Definition simple_on (U : R) (f : list R) : Prop :=
  forall x, 0 <= x <= U -> is_root f x -> ~ derivable_pt_lim (pval f) x 0.
Lemma short_cell f U : f <> [] -> 0 <= U -> simple_on U f ->
  exists d, 0 < d /\ forall p w K r g, 0 <= p <= U -> w <> 0 -> Rabs w < d -> 0 < K -> 0 < r -> length g = length f ->
    (forall y, 0 < y -> pval g y = K * ((1 + r * y) ^ porder f * pval f (p + w * (r * y / (1 + r * y))))) ->
    (descartes g <= 1)%nat.
Proof.
  intros Hf HU Hs. destruct (st_bound f U HU) as [B HB]. destruct (st_min f U HU Hs) as (m & Hm & Hmin).
  assert (B0 : 0 <= B) by (eapply Rle_trans; [apply Rabs_pos|apply (HB 0 0%nat); lra]).
  set (Q := (B * 2 ^ length f) * INR (2 * length f + 3) + 1).
  assert (Q1 : 1 <= Q).
  { unfold Q. assert (0 <= (B * 2 ^ length f) * INR (2 * length f + 3)) by (apply Rmult_le_pos; [apply Rmult_le_pos; [auto|apply pow_le; lra]|apply pos_INR]). lra. }
  exists (Rmin 1 (m / Q)). split; [apply Rmin_glb_lt; [lra|apply Rdiv_lt_0_compat; lra]|].
  intros p w K r g Hp Hw0 Hw HK Hr HL Hg. destruct (shift_function_correct f p Hf) as [SL SV].
  assert (W1 : Rabs w < 1) by (eapply Rlt_le_trans; [exact Hw|apply Rmin_l]).
  assert (W2 : Rabs w * Q < m).
  { apply (Rmult_lt_reg_r (/ Q)); [apply Rinv_0_lt_compat; lra|]. rewrite Rmult_assoc, Rinv_r, Rmult_1_r by lra. eapply Rlt_le_trans; [exact Hw|apply Rmin_r]. }
  apply (variations_short (shift_function f p) B m w K r g); auto; try lra.
  - intros i. rewrite st_get by auto. apply HB, Hp.
  - rewrite !st_get by auto. apply Hmin, Hp.
  - rewrite SL. pose proof (Rabs_pos w). unfold Q in W2. nra.
  - congruence.
  - intros y Hy. rewrite Hg by auto. rewrite SL, SV. replace (length f - 1)%nat with (porder f) by (unfold porder; lia). rewrite (Rplus_comm p). reflexivity.
Qed.

(* ------------------------------------------------------------ VCA *)
Definition stops {A} (run : nat -> outcome A) : Prop := exists n, forall fu, (n <= fu)%nat -> run fu <> Fuel.
Lemma sv_extend_fuel {A} cap (m : list A) : forall l, sv_extend cap l m <> Fuel.
Proof. induction m as [|x t IH]; intros l; cbn [sv_extend]; [discriminate|]. unfold sv_push. destruct (Nat.ltb _ _); cbn [obind]; [apply IH|discriminate]. Qed.

Lemma vca_worker_stops f U : not_zero f -> 0 <= U -> simple_on U f ->
  exists d, 0 < d /\ forall k a w K fc, 0 <= a -> 0 < w -> a + w <= U -> w < d * 2 ^ k -> 0 < K -> length fc = length f -> not_zero fc ->
    (forall x, pval fc x = K * pval f (a + w * x)) -> stops (fun fu => vca_worker fu fc).
Proof.
  intros Nz HU Hs. pose proof (not_zero_nil f Nz) as Hf. destruct (short_cell f U Hf HU Hs) as (d & Hd & SC). exists d. split; auto.
  induction k as [|k IH]; intros a w K fc Ha Hw HaU Hwd HK HL Hnz Hfc.
  - exists 1%nat. intros [|fu] Hfu; [lia|]. cbn [vca_worker]. unfold budan_01.
    assert (fcn : fc <> []) by (apply not_zero_nil; auto).
    destruct (invert_taylor_shift_correct fc fcn) as [IL IV].
    assert (D : (descartes (invert_taylor_shift fc) <= 1)%nat).
    { apply (SC (a + w) (- w) K 1 (invert_taylor_shift fc)); auto; try lra; try congruence; [rewrite Rabs_Ropp, Rabs_pos_eq; simpl in Hwd; lra|].
      intros y Hy. rewrite IV by lra. rewrite Hfc. replace (porder fc) with (porder f) by (unfold porder; congruence).
      rewrite Rmult_1_l. replace (a + w + - w * (y / (1 + y))) with (a + w * (1 / (y + 1))) by (field; lra). rewrite (Rplus_comm 1 y). ring. }
    destruct (descartes (invert_taylor_shift fc)) as [|[|n]]; [discriminate|discriminate|exfalso; lia].
  - destruct (Nat.lt_ge_cases (porder fc) 31) as [Ho|Ho].
    2:{ exists 1%nat. intros [|fu] Hfu; [lia|]. cbn [vca_worker]. destruct (budan_01 fc) as [|[|n]]; try discriminate. unfold vca_double. destruct (Nat.ltb_spec (porder fc) 31); [lia|]. cbn [obind]. discriminate. }
    destruct (vca_double fc) as [p1| | |] eqn:E1; try (unfold vca_double in E1; destruct (Nat.ltb_spec (porder fc) 31); [discriminate|lia]).
    destruct (vca_double_correct fc p1 Hnz E1) as [L1 V1].
    assert (P2 : 0 < 2 ^ porder fc) by (apply pow_lt; lra).
    assert (N1 : not_zero p1). { apply not_zero_iff. apply not_zero_iff in Hnz. destruct Hnz as [x Hx]. exists (2 * x). rewrite V1. replace (2 * x / 2) with x by field. apply Rmult_integral_contrapositive. split; [lra|auto]. }
    assert (p1n : p1 <> []) by (apply not_zero_nil; auto). destruct (shift_unity_correct p1 p1n) as [L2 V2].
    destruct (IH a (w / 2) (2 ^ porder fc * K) p1) as [n1 S1]; auto; try lra; try congruence.
    { simpl in Hwd. lra. } { apply Rmult_lt_0_compat; auto. } { intros x. rewrite V1, Hfc. replace (w * (x / 2)) with (w / 2 * x) by field. ring. }
    destruct (IH (a + w / 2) (w / 2) (2 ^ porder fc * K) (shift_unity p1)) as [n2 S2]; auto; try lra; try congruence.
    { simpl in Hwd. lra. } { apply Rmult_lt_0_compat; auto. } { apply not_zero_unity; auto. }
    { intros x. rewrite V2, V1, Hfc. replace (w * ((x + 1) / 2)) with (w / 2 + w / 2 * x) by field. rewrite <- Rplus_assoc. ring. }
    exists (S (n1 + n2)). intros [|fu] Hfu; [lia|]. cbn [vca_worker]. destruct (budan_01 fc) as [|[|n]]; try discriminate.
    rewrite E1. cbn [obind]. specialize (S1 fu ltac:(lia)). specialize (S2 fu ltac:(lia)). cbn beta in S1, S2.
    destruct (vca_worker fu p1); cbn [obind]; try discriminate; [|congruence].
    destruct (vca_worker fu (shift_unity p1)); cbn [obind]; try discriminate; [|congruence]. apply sv_extend_fuel.
Qed.

Lemma VCA_stops f : not_zero f -> (forall x, 0 <= x -> is_root f x -> ~ derivable_pt_lim (pval f) x 0) ->
  stops (fun fu => VCA_bounds fu f).
Proof.
  intros Nz Hs. unfold VCA_bounds. pose proof (lmq_upper_correct f Nz) as P.
  destruct (LMQ_upper f) as [[u| |]| | |]; cbn [obind]; try (exists 0%nat; intros; discriminate); try (exfalso; exact P).
  destruct (Reqb_spec u 0) as [E|E]; [exists 0%nat; intros; discriminate|].
  assert (Hu : 0 < u) by (destruct P as ([?|?] & _); [auto|congruence]).
  pose proof (not_zero_nil f Nz) as Hf. destruct (scale_poly_correct f u Hf) as [SL SV].
  destruct (vca_worker_stops f u Nz ltac:(lra)) as (d & Hd & W); [intros x Hx; apply Hs; lra|].
  destruct (Pow_x_infinity 2 ltac:(rewrite Rabs_pos_eq; lra) (u / d + 1)) as [k Hk]. specialize (Hk k (le_n k)). rewrite Rabs_pos_eq in Hk by (apply pow_le; lra).
  destruct (W k 0 u 1 (scale_poly f u)) as [n Hn]; auto; try lra.
  { assert (u / d < 2 ^ k) by lra. apply (Rmult_lt_compat_l d) in H; auto. replace (d * (u / d)) with u in H by (field; lra). lra. }
  { apply not_zero_scale; auto. } { intros x. rewrite SV, Rplus_0_l. ring. }
  exists n. intros fu Hfu. specialize (Hn fu Hfu). cbn beta in Hn. destruct (vca_worker fu (scale_poly f u)); cbn [obind]; try discriminate. congruence.
Qed.
