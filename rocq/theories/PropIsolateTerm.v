(** C19, C21: exactly when the isolation methods return. *)
From Coq Require Import List Reals Lra Lia Arith Psatz ZArith.
From Verif Require Import Outcome Num PolyModel PolySpec PolyBase PolyProofs PolyCalc NumericProofs RootsModel RootSpec Descartes LMQ Isolate PropIsolate Vincent IsolateTerm VasTerm.
Import ListNotations.
Open Scope R_scope.

(* ------------------------------------------------------------ multiple roots *)
Definition flat (g : list R) (z : R) : Prop :=
  exists C d, 0 < d /\ 0 <= C /\ forall x, Rabs (x - z) < d -> Rabs (pval g x) <= C * (x - z) ^ 2.

Lemma cont_near h z e : 0 < e -> exists d, 0 < d /\ forall x, Rabs (x - z) < d -> Rabs (pval h x - pval h z) < e.
Proof.
  intros He. destruct (pval_continuity h z e He) as (d & Hd & H). exists d. split; [exact Hd|]. intros x Hx.
  destruct (Req_dec x z) as [-> |N]; [rewrite Rminus_diag_eq, Rabs_R0 by reflexivity; exact He|].
  apply (H x). split; [split; [exact I|auto]|exact Hx].
Qed.

Lemma flat_root g z : flat g z -> pval g z = 0.
Proof.
  intros (C & d & Hd & _ & H). specialize (H z). rewrite Rminus_diag_eq, Rabs_R0 in H by reflexivity. specialize (H Hd).
  destruct (Req_dec (pval g z) 0) as [|N]; auto. apply Rabs_pos_lt in N. simpl in H. lra.
Qed.

Lemma flat_descartes g z : not_zero g -> 0 < z -> flat g z -> (2 <= descartes g)%nat.
Proof.
  intros Nz Hz F. pose proof (flat_root g z F) as R0.
  destruct (descartes g) as [|[|n]] eqn:Ed; [exfalso; exact (descartes_0 g Nz Ed z Hz R0)| |lia]. exfalso.
  destruct (descartes_1 g Nz Ed) as (r & Hr & (_ & h & Hh & Hn) & _ & Hu). rewrite <- (Hu z Hz R0) in Hh.
  assert (Hz0 : pval h z <> 0) by (apply Hn; exact Hz). set (e := Rabs (pval h z)) in *. assert (He : 0 < e) by (apply Rabs_pos_lt; exact Hz0).
  destruct (cont_near h z (e / 2) ltac:(lra)) as (d1 & Hd1 & H1). destruct F as (C & d & Hd & HC & H).
  set (t := Rmin (Rmin d1 d) (e / (2 * C + 2)) / 2).
  assert (Ht0 : 0 < Rmin (Rmin d1 d) (e / (2 * C + 2))) by (repeat apply Rmin_glb_lt; auto; apply Rdiv_lt_0_compat; lra).
  pose proof (Rmin_l (Rmin d1 d) (e / (2 * C + 2))) as A1. pose proof (Rmin_r (Rmin d1 d) (e / (2 * C + 2))) as A2.
  pose proof (Rmin_l d1 d) as A3. pose proof (Rmin_r d1 d) as A4.
  assert (Ht : 0 < t /\ t < d1 /\ t < d /\ t < e / (2 * C + 2)) by (unfold t; lra). destruct Ht as (T0 & T1 & T2 & T3).
  assert (Ex : Rabs (z + t - z) = t) by (replace (z + t - z) with t by ring; apply Rabs_pos_eq; lra).
  specialize (H (z + t)). specialize (H1 (z + t)). rewrite Ex in *. specialize (H T2). specialize (H1 T1).
  rewrite Hh in H. cbn [prod_roots] in H. replace (z + t - z) with t in H by ring. rewrite Rmult_1_r, Rabs_mult, (Rabs_pos_eq t) in H by lra.
  assert (Q : Rabs (pval h (z + t)) <= C * t). { apply (Rmult_le_reg_l t); auto. simpl in H. lra. }
  assert (P : e <= Rabs (pval h (z + t)) + Rabs (pval h (z + t) - pval h z)).
  { unfold e. replace (pval h z) with (pval h (z + t) + - (pval h (z + t) - pval h z)) at 1 by ring. eapply Rle_trans; [apply Rabs_triang|]. rewrite Rabs_Ropp. lra. }
  assert (T4 : t * (2 * C + 2) < e). { apply (Rmult_lt_compat_r (2 * C + 2)) in T3; [|lra]. replace (e / (2 * C + 2) * (2 * C + 2)) with e in T3 by (field; lra). exact T3. }
  nra.
Qed.

Lemma flat_of_derivative f z : is_root f z -> derivable_pt_lim (pval f) z 0 -> flat f z.
Proof.
  intros R0 D. destruct (list_eq_dec Req_EM_T f []) as [-> |Hf].
  { exists 0, 1. split; [lra|]. split; [lra|]. intros x _. rewrite pval_nil, Rabs_R0. lra. }
  destruct (divide_root f z Hf R0) as (g & _ & Hg).
  assert (G0 : pval g z = 0).
  { pose proof (derivable_pt_lim_mult (fun x => x - z) (pval g) z 1 (pval (fder g) z)) as M.
    assert (D1 : derivable_pt_lim (fun x => x - z) z 1).
    { replace 1 with (1 - 0) by ring. apply (derivable_pt_lim_minus id (fun _ => z)); [apply derivable_pt_lim_id|apply derivable_pt_lim_const]. }
    specialize (M D1 (pval_derivable g z)). apply (derivable_pt_lim_ext _ (pval f)) in M; [|intros x; unfold mult_fct; rewrite Hg; reflexivity].
    pose proof (uniqueness_limite _ _ _ _ M D) as U. cbn beta in U. lra. }
  destruct (list_eq_dec Req_EM_T g []) as [-> |Hg0].
  { exists 0, 1. split; [lra|]. split; [lra|]. intros x _. rewrite Hg, pval_nil, Rmult_0_r, Rabs_R0. lra. }
  destruct (divide_root g z Hg0 G0) as (h & _ & Hh). destruct (cont_near h z 1 ltac:(lra)) as (d & Hd & H).
  exists (Rabs (pval h z) + 1), d. split; [exact Hd|]. split; [pose proof (Rabs_pos (pval h z)); lra|]. intros x Hx. specialize (H x Hx).
  rewrite Hg, Hh. replace ((x - z) * ((x - z) * pval h x)) with ((x - z) ^ 2 * pval h x) by ring. rewrite Rabs_mult, (Rabs_pos_eq ((x - z) ^ 2)) by apply pow2_ge_0.
  rewrite Rmult_comm. apply Rmult_le_compat_r; [apply pow2_ge_0|].
  replace (pval h x) with (pval h z + (pval h x - pval h z)) by ring. eapply Rle_trans; [apply Rabs_triang|]. lra.
Qed.

Lemma flat_comp g g' z z' (phi : R -> R) K Lp d0 : 0 < d0 -> 0 <= K -> 0 < Lp ->
  (forall x, Rabs (x - z') < d0 -> Rabs (pval g' x) <= K * Rabs (pval g (phi x)) /\ Rabs (phi x - z) <= Lp * Rabs (x - z')) ->
  flat g z -> flat g' z'.
Proof.
  intros Hd0 HK HL H (C & d & Hd & HC & F). exists (K * C * (Lp * Lp)), (Rmin d0 (d / Lp)).
  assert (HdL : 0 < d / Lp) by (apply Rdiv_lt_0_compat; auto).
  split; [apply Rmin_glb_lt; auto|]. split; [apply Rmult_le_pos; [apply Rmult_le_pos; auto|nra]|].
  intros x Hx. pose proof (Rmin_l d0 (d / Lp)). pose proof (Rmin_r d0 (d / Lp)). destruct (H x ltac:(lra)) as [A B].
  assert (B' : Rabs (phi x - z) < d).
  { eapply Rle_lt_trans; [exact B|]. replace d with (Lp * (d / Lp)) by (field; lra). apply Rmult_lt_compat_l; auto. lra. }
  specialize (F _ B'). eapply Rle_trans; [exact A|].
  assert (Q : (phi x - z) ^ 2 <= Lp * Lp * (x - z') ^ 2).
  { rewrite <- (pow2_abs (phi x - z)), <- (pow2_abs (x - z')). pose proof (Rabs_pos (phi x - z)). simpl. nra. }
  apply Rle_trans with (K * (C * (phi x - z) ^ 2)); [apply Rmult_le_compat_l; auto|].
  replace (K * C * (Lp * Lp) * (x - z') ^ 2) with (K * (C * (Lp * Lp * (x - z') ^ 2))) by ring. apply Rmult_le_compat_l; auto. apply Rmult_le_compat_l; auto.
Qed.
Lemma flat_shift g g' t z : (forall x, pval g' x = pval g (x + t)) -> flat g z -> flat g' (z - t).
Proof.
  intros H F. apply (flat_comp g g' z (z - t) (fun x => x + t) 1 1 1); auto; try lra. intros x _. rewrite H. split; [lra|].
  replace (x + t - z) with (x - (z - t)) by ring. lra.
Qed.
Lemma flat_scale g g' s k z : 0 < s -> (forall x, pval g' x = k * pval g (x * s)) -> flat g z -> flat g' (z / s).
Proof.
  intros Hs H F. apply (flat_comp g g' z (z / s) (fun x => x * s) (Rabs k) s 1); auto; try lra; [apply Rabs_pos|]. intros x _. rewrite H, Rabs_mult. split; [lra|].
  replace (x * s - z) with (s * (x - z / s)) by (field; lra). rewrite Rabs_mult, (Rabs_pos_eq s) by lra. lra.
Qed.
Lemma flat_its g z : g <> [] -> 0 < z < 1 -> flat g z -> flat (invert_taylor_shift g) (1 / z - 1).
Proof.
  intros Hg Hz F. destruct (invert_taylor_shift_correct g Hg) as [_ V]. set (w := 1 / z - 1).
  assert (Hw : 0 < w). { unfold w. assert (1 < 1 / z); [|lra]. apply (Rmult_lt_reg_r z); [lra|]. replace (1 / z * z) with 1 by (field; lra). lra. }
  assert (Ez : z = 1 / (w + 1)) by (unfold w; field; lra).
  apply (flat_comp g _ z w (fun x => 1 / (x + 1)) ((2 * w + 1) ^ porder g) 1 w); auto; try lra; [apply pow_le; lra|].
  intros x Hx. apply Rabs_def2 in Hx. rewrite V by lra. split.
  - rewrite Rabs_mult, Rabs_pos_eq by (apply pow_le; lra). apply Rmult_le_compat_r; [apply Rabs_pos|]. apply pow_incr. lra.
  - rewrite Ez. replace (1 / (x + 1) - 1 / (w + 1)) with ((w - x) * (/ (x + 1) * / (w + 1))) by (field; lra).
    assert (0 < / (x + 1) <= 1). { split; [apply Rinv_0_lt_compat; lra|]. rewrite <- Rinv_1 at 2. apply Rinv_le_contravar; lra. }
    assert (0 < / (w + 1) <= 1). { split; [apply Rinv_0_lt_compat; lra|]. rewrite <- Rinv_1 at 2. apply Rinv_le_contravar; lra. }
    rewrite Rabs_mult, (Rabs_pos_eq (_ * _)) by nra. rewrite Rabs_minus_sym. pose proof (Rabs_pos (x - w)).
    assert (/ (x + 1) * / (w + 1) <= 1) by nra. nra.
Qed.

Lemma obind_noret {A B} (m : outcome A) (k : A -> outcome B) L : (forall x, k x <> Ret L) -> obind m k <> Ret L.
Proof. intros H. destruct m; cbn [obind]; try discriminate. apply H. Qed.
Lemma vas_worker_flat eps : 0 <= eps -> forall fu g M y L, not_zero g -> get g 0 <> 0 -> 0 < y -> flat g y -> vas_worker fu eps g M <> Ret L.
Proof.
  intros He. induction fu as [|fu IH]; intros g M y L Nz G0 Hy F; cbn [vas_worker]; [discriminate|].
  pose proof (not_zero_nil g Nz) as Hg. pose proof (flat_root g y F) as Ry. pose proof (flat_descartes g y Nz Hy F) as D2.
  destruct (descartes g) as [|[|d]]; [lia|lia|]. pose proof (lmq_lower_correct g Nz) as Plb.
  destruct (LMQ_lower g) as [[lb0| |]| | |]; cbn [obind]; try discriminate. destruct Plb as [Hlb0 Hno0].
  assert (Hyl : lb0 < y). { destruct (Rle_or_lt y lb0) as [W|W]; auto. exfalso. exact (Hno0 y Hy W Ry). }
  destruct (Rltb_spec lb0 16) as [H16|H16]; cbn [negb].
  - destruct (Rltb_spec lb0 1) as [Hl1|Hl1]; cbn [negb].
    + destruct (Rltb_spec (100 * poly_precision eps g 1) (Rabs (poly_eval g 1))) as [Hsp|Hsp]; cbn [negb].
      * assert (H1 : pval g 1 <> 0).
        { intros E1. rewrite poly_eval_correct in Hsp by exact Hg. rewrite E1, Rabs_R0 in Hsp. pose proof (precision_nonneg eps g Hg He E1). lra. }
        destruct (Reqb_spec (get g 0) 0); [contradiction|]. cbv iota zeta.
        destruct (invert_taylor_shift_correct g Hg) as [_ Vi]. destruct (shift_unity_correct g Hg) as [_ Vu].
        assert (G1 : get (invert_taylor_shift g) 0 <> 0) by (rewrite <- pval_at_0, Vi by lra; rewrite Rplus_0_l, pow1, Rmult_1_l; replace (1 / 1) with 1 by field; exact H1).
        assert (G2 : get (shift_unity g) 0 <> 0) by (rewrite <- pval_at_0, Vu, Rplus_0_l; exact H1).
        destruct (Rtotal_order y 1) as [Y|[Y|Y]]; [|subst; contradiction|].
        -- assert (P : 0 < 1 / y - 1). { assert (1 < 1 / y); [|lra]. apply (Rmult_lt_reg_r y); [lra|]. replace (1 / y * y) with 1 by (field; lra). lra. }
           pose proof (fun l => IH _ (mob_invert_taylor_shift M) _ l (not_zero_its g Nz) G1 P (flat_its g y Hg (conj Hy Y) F)) as N1.
           destruct (vas_worker fu eps (invert_taylor_shift g) _) as [l| | |]; cbn [obind]; try discriminate. exfalso. exact (N1 l eq_refl).
        -- pose proof (fun l => IH _ (mob_shift M 1) (y - 1) l (not_zero_unity g Nz) G2 ltac:(lra) (flat_shift g (shift_unity g) 1 y Vu F)) as N2.
           apply obind_noret. intros l. apply obind_noret. intros ra. destruct (vas_worker fu eps (shift_unity g) _) as [l2| | |]; cbn [obind]; try discriminate. exfalso. exact (N2 l2 eq_refl).
      * destruct (scale_poly_correct g 2 Hg) as [_ V]. apply (IH _ _ (y / 2)); [apply not_zero_scale; [lra|auto]|rewrite <- pval_at_0, V, Rmult_0_r, pval_at_0; auto|lra|].
        apply (flat_scale g _ 2 1); [lra| |exact F]. intros x. rewrite V. rewrite Rmult_1_l. f_equal. ring.
    + destruct (shift_function_correct g lb0 Hg) as [_ V]. apply (IH _ _ (y - lb0)); [apply not_zero_shift; auto| |lra|apply (flat_shift g); auto].
      rewrite <- pval_at_0, V, Rplus_0_l. apply Hno0; lra.
  - destruct (Rltb_spec 1 1); [lra|]. cbn [negb]. destruct (scale_poly_correct g lb0 Hg) as [Cl Cv].
    assert (Hg' : scale_poly g lb0 <> []) by (intros Z; rewrite Z in Cl; destruct g; [congruence|discriminate]).
    destruct (shift_function_correct (scale_poly g lb0) 1 Hg') as [_ V].
    assert (Y1 : 1 < y / lb0). { apply (Rmult_lt_reg_r lb0); [lra|]. replace (y / lb0 * lb0) with y by (field; lra). lra. }
    apply (IH _ _ (y / lb0 - 1)); [apply not_zero_shift, not_zero_scale; auto; lra| |lra|].
    + rewrite <- pval_at_0, V, Rplus_0_l, Cv. apply Hno0; lra.
    + apply (flat_shift (scale_poly g lb0)); auto. apply (flat_scale g _ lb0 1); [lra| |exact F]. intros x. rewrite Cv, Rmult_1_l. f_equal. ring.
Qed.

Lemma vca_worker_flat : forall fu g y L, not_zero g -> 0 < y < 1 -> ~ dyadic y -> flat g y -> vca_worker fu g <> Ret L.
Proof.
  induction fu as [|fu IH]; intros g y L Nz Hy Hd F; cbn [vca_worker]; [discriminate|]. unfold budan_01.
  pose proof (not_zero_nil g Nz) as Hg.
  assert (P : 0 < 1 / y - 1). { assert (1 < 1 / y); [|lra]. apply (Rmult_lt_reg_r y); [lra|]. replace (1 / y * y) with 1 by (field; lra). lra. }
  pose proof (flat_descartes _ _ (not_zero_its g Nz) P (flat_its g y Hg Hy F)) as D2.
  destruct (descartes (invert_taylor_shift g)) as [|[|d]]; [lia|lia|].
  pose proof (vca_double_correct g) as Hdb. destruct (vca_double g) as [p1| | |]; cbn [obind]; try discriminate.
  destruct (Hdb p1 Nz eq_refl) as [El1 Ev1].
  assert (Hp1 : not_zero p1).
  { destruct (proj1 (not_zero_iff g) Nz) as [x Hx]. apply not_zero_iff. exists (2 * x). rewrite Ev1.
    replace (2 * x / 2) with x by field. apply Rmult_integral_contrapositive_currified; [apply pow_nonzero; lra|exact Hx]. }
  destruct (shift_unity_correct p1 (not_zero_nil p1 Hp1)) as [_ Ev2].
  assert (F1 : flat p1 (y * 2)).
  { replace (y * 2) with (y / (/ 2)) by field. apply (flat_scale g _ (/ 2) (2 ^ porder g)); [lra| |exact F]. intros x. rewrite Ev1. reflexivity. }
  destruct (Rtotal_order (y * 2) 1) as [Y|[Y|Y]].
  - assert (D : ~ dyadic (y * 2)). { intros (n & k & E). apply Hd. exists (S n), k. cbn [pow]. replace y with (y * 2 / 2) by field. rewrite E. field. apply pow_nonzero; lra. }
    pose proof (fun l => IH p1 (y * 2) l Hp1 ltac:(lra) D F1) as N1. destruct (vca_worker fu p1) as [l| | |]; cbn [obind]; try discriminate. exfalso. exact (N1 l eq_refl).
  - exfalso. apply Hd. exists 1%nat, 1%nat. simpl. lra.
  - assert (D : ~ dyadic (y * 2 - 1)).
    { intros (n & k & E). apply Hd. exists (S n), (k + 2 ^ n)%nat. rewrite plus_INR, pow_INR. cbn [pow]. replace y with ((y * 2 - 1 + 1) / 2) by field. rewrite E. change (INR 2) with 2. field. apply pow_nonzero; lra. }
    pose proof (fun l => IH (shift_unity p1) (y * 2 - 1) l (not_zero_unity p1 Hp1) ltac:(lra) D (flat_shift p1 _ 1 _ Ev2 F1)) as N2.
    destruct (vca_worker fu p1) as [l| | |]; cbn [obind]; try discriminate.
    destruct (vca_worker fu (shift_unity p1)) as [l2| | |]; cbn [obind]; try discriminate. exfalso. exact (N2 l2 eq_refl).
Qed.

(* ------------------------------------------------------------ fuel *)
Lemma obind_same {A B} (m m' : outcome A) (k k' : A -> outcome B) :
  (m <> Fuel -> m' = m) -> (forall x, m = Ret x -> k x <> Fuel -> k' x = k x) -> obind m k <> Fuel -> obind m' k' = obind m k.
Proof. intros H1 H2 H3. destruct m; cbn [obind] in *; try (rewrite H1 by discriminate; cbn [obind]; auto). congruence. Qed.
Lemma vas_worker_more eps : forall fu fu' g M, (fu <= fu')%nat -> vas_worker fu eps g M <> Fuel -> vas_worker fu' eps g M = vas_worker fu eps g M.
Proof.
  induction fu as [|fu IH]; intros [|fu'] g M Hle; cbn [vas_worker]; try congruence; try lia.
  destruct (descartes g) as [|[|d]]; try reflexivity. destruct (LMQ_lower g) as [[lb0| |]| | |]; cbn [obind]; try reflexivity.
  assert (K : forall h N, vas_worker fu eps h N <> Fuel -> vas_worker fu' eps h N = vas_worker fu eps h N) by (intros; apply IH; auto; lia).
  destruct (negb (Rltb lb0 16)); cbv iota beta zeta; (destruct (negb (Rltb _ 1)); [apply K|]; (destruct (negb (Rltb _ _)); [apply K|])).
  all: intros H; apply obind_same; auto; intros r1 _; intros H1; apply obind_same; auto; intros ra _; intros H2; apply obind_same; auto.
Qed.
Lemma vca_worker_more : forall fu fu' g, (fu <= fu')%nat -> vca_worker fu g <> Fuel -> vca_worker fu' g = vca_worker fu g.
Proof.
  induction fu as [|fu IH]; intros [|fu'] g Hle; cbn [vca_worker]; try congruence; try lia.
  destruct (budan_01 g) as [|[|d]]; try reflexivity.
  assert (K : forall h, vca_worker fu h <> Fuel -> vca_worker fu' h = vca_worker fu h) by (intros; apply IH; auto; lia).
  intros H. apply obind_same; auto. intros p1 _ H1. apply obind_same; auto. intros r1 _ H2. apply obind_same; auto.
Qed.
Lemma VAS_more eps fu fu' f : (fu <= fu')%nat -> VAS_bounds fu eps f <> Fuel -> VAS_bounds fu' eps f = VAS_bounds fu eps f.
Proof.
  intros Hle H. unfold VAS_bounds in *. apply obind_same; auto. intros [u| |] _ H'; auto. destruct (Reqb u 0); auto.
  apply obind_same; auto. intros. apply vas_worker_more; auto.
Qed.
Lemma VCA_more fu fu' f : (fu <= fu')%nat -> VCA_bounds fu f <> Fuel -> VCA_bounds fu' f = VCA_bounds fu f.
Proof.
  intros Hle H. unfold VCA_bounds in *. apply obind_same; auto. intros [u| |] _ H'; auto. destruct (Reqb u 0); auto.
  apply obind_same; auto. intros. apply vca_worker_more; auto.
Qed.

(* ------------------------------------------------------------ C19 *)
(** A polynomial whose roots x >= 0 are simple: VCA returns, whatever the recursion
    depth needed, and every later fuel gives the same answer.  With C19_vca_partial
    the answer isolates every positive root that is not a dyadic multiple of the
    bound. *)
Theorem C19_vca_terminates : forall f : list R,
  not_zero f -> (porder f < 31)%nat ->
  (forall x, 0 <= x -> is_root f x -> ~ derivable_pt_lim (pval f) x 0) ->
  exists n L, forall fuel, (n <= fuel)%nat -> VCA_bounds fuel f = Ret L.
Proof.
  intros f Nz Ho Hs. destruct (VCA_stops f Nz Hs) as [n Hn]. exists n. pose proof (VCA_bounds_correct n f Nz) as P. specialize (Hn n (le_n n)).
  destruct (VCA_bounds n f) as [L| | |] eqn:E; [|contradiction|lia|congruence]. exists L. intros fu Hfu. rewrite (VCA_more n fu f Hfu); rewrite E; [reflexivity|discriminate].
Qed.
Print Assumptions C19_vca_terminates.
(** and a positive multiple root that is not a dyadic multiple of the bound makes
    VCA recurse for ever *)
Theorem C19_multiple_root_refuted : forall (f : list R) u z,
  not_zero f -> (porder f < 31)%nat -> LMQ_upper f = Ret (Fin u) -> 0 < z -> is_root f z -> derivable_pt_lim (pval f) z 0 ->
  (forall n k : nat, z <> INR k / 2 ^ n * u) ->
  forall fuel, VCA_bounds fuel f = Fuel.
Proof.
  intros f u z Nz Ho Hu Hz Rz Dz Hd fu. pose proof (VCA_bounds_correct fu f Nz) as P.
  enough (N : forall L, VCA_bounds fu f <> Ret L).
  { destruct (VCA_bounds fu f) as [L| | |]; [exfalso; exact (N L eq_refl)|contradiction|lia|reflexivity]. }
  clear P. intros L. unfold VCA_bounds. rewrite Hu. cbn [obind]. pose proof (lmq_upper_correct f Nz) as P. rewrite Hu in P. destruct P as (Hu0 & Hno & _).
  assert (Hzu : z < u). { destruct (Rlt_or_le z u) as [W|W]; auto. exfalso. exact (Hno z Hz W Rz). }
  destruct (Reqb_spec u 0) as [E|E]; [lra|]. destruct (scale_poly_correct f u (not_zero_nil f Nz)) as [_ V].
  assert (Hq : 0 < z / u < 1).
  { split; [apply Rdiv_lt_0_compat; lra|]. apply (Rmult_lt_reg_r u); [lra|]. replace (z / u * u) with z by (field; lra). lra. }
  pose proof (fun l => vca_worker_flat fu (scale_poly f u) (z / u) l) as W.
  destruct (vca_worker fu (scale_poly f u)) as [l| | |]; cbn [obind]; try discriminate. exfalso. apply (W l); auto.
  - apply not_zero_scale; auto.
  - intros (n & k & D). apply (Hd n k). rewrite <- D. field. lra.
  - apply (flat_scale f _ u 1); [lra| |apply flat_of_derivative; auto]. intros x. rewrite V, Rmult_1_l. f_equal. ring.
Qed.
Print Assumptions C19_multiple_root_refuted.

(* ------------------------------------------------------------ C21 *)
(** VAS on a polynomial with non-zero constant coefficient whose positive roots are
    simple: it returns, and the answer isolates the positive roots.  [eps] is the
    rounding unit of the error estimate it consults (2^-52 for double allows every
    order below 7 * 10^12). *)
Theorem C21_vas : forall eps (f : list R),
  0 <= eps -> 300 * eps * INR (2 * porder f + 1) < 1 ->
  not_zero f -> get f 0 <> 0 -> (porder f < 31)%nat ->
  (forall x, 0 < x -> is_root f x -> ~ derivable_pt_lim (pval f) x 0) ->
  exists n (L : list (R * R)),
    (forall fuel, (n <= fuel)%nat -> VAS_bounds fuel eps f = Ret (map (fun p => (Fin (fst p), Fin (snd p))) L)) /\
    isolates L (fun z => 0 < z /\ is_root f z) /\
    Forall (fun p => 0 <= fst p < snd p) L /\ (length L <= porder f)%nat.
Proof.
  intros eps f He Heps Nz H0 Ho Hs. destruct (VAS_stops eps f He Heps Nz H0) as [n Hn].
  { intros x [Hx| <-] Rx; [apply Hs; auto|]. exfalso. unfold is_root in Rx. rewrite pval_at_0 in Rx. contradiction. }
  specialize (Hn n (le_n n)). destruct (C21_vas_safe n eps f He Nz H0 Ho) as [E|(L & E)]; [congruence|].
  destruct (C21_vas_partial n eps f L He Nz H0 E) as (L' & -> & A). exists n, L'. split; [|exact A].
  intros fu Hfu. rewrite (VAS_more eps n fu f Hfu); rewrite E; [reflexivity|discriminate].
Qed.
Print Assumptions C21_vas.
(** and it never returns when some positive root is multiple *)
Theorem C21_multiple_root_refuted : forall eps (f : list R) z,
  0 <= eps -> not_zero f -> get f 0 <> 0 -> (porder f < 31)%nat ->
  0 < z -> is_root f z -> derivable_pt_lim (pval f) z 0 ->
  forall fuel, VAS_bounds fuel eps f = Fuel.
Proof.
  intros eps f z He Nz H0 Ho Hz Rz Dz fu. destruct (C21_vas_safe fu eps f He Nz H0 Ho) as [E|(L & E)]; [exact E|exfalso].
  unfold VAS_bounds in E. pose proof (lmq_upper_correct f Nz) as P. destruct (LMQ_upper f) as [[u| |]| | |]; cbn [obind] in E; try discriminate.
  destruct P as (Hu0 & Hno & _). destruct (Reqb_spec u 0) as [Eu|Eu].
  - apply (Hno z Hz); [lra|exact Rz].
  - pose proof (fun l => vas_worker_flat eps He fu f mob_id z l Nz H0 Hz (flat_of_derivative f z Rz Dz)) as W.
    destruct (vas_worker fu eps f mob_id) as [l| | |]; try discriminate. exact (W l eq_refl).
Qed.
Print Assumptions C21_multiple_root_refuted.

(* ------------------------------------------------------------ examples *)
Lemma pval3' a b c x : pval [a; b; c] x = a + x * (b + x * c).
Proof. rewrite !pval_cons, pval_nil. ring. Qed.
Lemma der3 a b c x : derivable_pt_lim (pval [a; b; c]) x (b + 2 * c * x).
Proof. pose proof (st_1 x [a; b; c]) as D. cbn [st] in D. replace (b + 2 * c * x) with (b + x * c + x * 0 + x * (c + x * 0 + x * 0)) by ring.
  replace (b + x * c + x * 0 + x * (c + x * 0 + x * 0)) with (b + x * (c + x * 0) + x * (c + x * 0 + x * (0 + x * 0))) by ring. exact D. Qed.
(** (2x-1)(x-2) meets the hypotheses of C19_vca_terminates and C21_vas with the
    rounding unit of double, (x-1)^2 those of C21_multiple_root_refuted *)
Example C21_terminates_example :
  (not_zero [2; -5; 2] /\ get [2; -5; 2] 0 <> 0 /\ (porder [2; -5; 2]%R < 31)%nat /\
   300 * / 2 ^ 52 * INR (2 * porder [2; -5; 2]%R + 1) < 1 /\
   forall x, 0 <= x -> is_root [2; -5; 2] x -> ~ derivable_pt_lim (pval [2; -5; 2]) x 0) /\
  (not_zero [1; -2; 1] /\ get [1; -2; 1] 0 <> 0 /\ is_root [1; -2; 1] 1 /\ derivable_pt_lim (pval [1; -2; 1]) 1 0).
Proof.
  split.
  - split; [exists 2; split; [left; reflexivity|lra]|]. split; [cbn [get nth]; lra|]. split; [cbn; lia|].
    split.
    + cbn [porder length Nat.pred Nat.mul Nat.add]. replace (INR 5) with 5 by (simpl; ring). assert (2048 <= 2 ^ 52).
      { replace 2048 with (2 ^ 11) by ring. apply Rle_pow; [lra|lia]. }
      assert (/ 2 ^ 52 <= / 2048) by (apply Rinv_le_contravar; lra). lra.
    + intros x _ Rx D. unfold is_root in Rx. rewrite pval3' in Rx. pose proof (uniqueness_limite _ _ _ _ D (der3 2 (-5) 2 x)) as U. nra.
  - split; [exists 1; split; [left; reflexivity|lra]|]. split; [cbn [get nth]; lra|]. split; [unfold is_root; rewrite pval3'; ring|].
    replace 0 with (-2 + 2 * 1 * 1) by ring. apply der3.
Qed.
Lemma vca_double_ub : LMQ_upper [11; -18; 3; 4] = Ret (Fin 3).
Proof.
  unfold LMQ_upper.
  replace (highest (porder [11; -18; 3; 4]) [11; -18; 3; 4]) with 3%nat
    by (cbn [porder length Nat.pred highest get nth n0 R_num]; destruct (Reqb_spec 4 0); [lra|reflexivity]).
  cbn [for_down Nat.sub Nat.pred obind].
  unfold lmq_inner. cbn [for_down Nat.sub Nat.pred obind].
  unfold nonzerob, opposite. rewrite !signbit_Rltb. cbn [get nth n0 R_num length repeat tget upd].
  repeat match goal with
  | |- context [Reqb ?a ?b] => destruct (Reqb_spec a b); [exfalso; lra|]
  | |- context [Rltb ?a ?b] => first [destruct (Rltb_spec a b); [exfalso; lra|] | destruct (Rltb_spec a b); [|exfalso; lra]]
  end.
  cbn [negb andb eqb Bool.eqb obind xmax xmin tget nth upd neg_shl Nat.ltb Nat.leb snd].
  rewrite (rpower1 (- 2 ^ 1 * -18 / 3)) by lra. rewrite (rpower2 (- 2 ^ 1 * -18 / 4) 3) by lra.
  cbn [xmin xmax].
  repeat match goal with
  | |- context [Rltb ?a ?b] => first [destruct (Rltb_spec a b); [exfalso; lra|] | destruct (Rltb_spec a b); [|exfalso; lra]]
  end. reflexivity.
Qed.
Lemma third_not_dyadic (n k : nat) : 1 <> INR k / 2 ^ n * 3.
Proof.
  intros E. assert (H : (2 ^ n = k * 3)%nat).
  { apply INR_eq. rewrite pow_INR, mult_INR. change (INR 2) with 2. replace (INR 3) with 3 by (simpl; ring).
    assert (P : 2 ^ n <> 0) by (apply pow_nonzero; lra). apply (f_equal (fun v => v * 2 ^ n)) in E. field_simplify in E; auto. lra. }
  assert (M : (2 ^ n mod 3 <> 0)%nat).
  { clear. induction n as [|n IH]; [discriminate|]. cbn [Nat.pow]. intros Z.
    rewrite <- Nat.mul_mod_idemp_r in Z by lia. pose proof (Nat.mod_upper_bound (2 ^ n) 3 ltac:(lia)).
    destruct ((2 ^ n) mod 3)%nat as [|[|[|r]]]; try lia; discriminate. }
  apply M. rewrite H. apply Nat.mod_mul. lia.
Qed.
(** (x-1)^2 (4x+11): VCA never returns *)
Example C19_multiple_root_example : forall fuel, VCA_bounds fuel [11; -18; 3; 4] = Fuel.
Proof.
  apply (C19_multiple_root_refuted [11; -18; 3; 4] 3 1).
  - exists 4. split; [right; right; right; left; reflexivity|lra].
  - cbn; lia.
  - apply vca_double_ub.
  - lra.
  - unfold is_root. rewrite !pval_cons, pval_nil. ring.
  - pose proof (st_1 1 [11; -18; 3; 4]) as D. cbn [st] in D. match type of D with derivable_pt_lim _ _ ?v => replace 0 with v by ring end. exact D.
  - apply third_not_dyadic.
Qed.
