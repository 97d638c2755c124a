(** C19: VCA isolation returns exactly when every positive multiple root is at a
    bisection point. *)
From Coq Require Import List Reals Lra Lia Arith Psatz ZArith.
From Verif Require Import Outcome Num PolyModel PolySpec PolyBase PolyProofs PolyCalc NumericProofs RootsModel RootSpec Descartes LMQ Isolate PropIsolate Vincent IsolateTerm VasTerm PropIsolateTerm.
Import ListNotations.
Open Scope R_scope.

(* ------------------------------------------- (c0 + c1 x) l with c0, c1 >= 0 *)
Fixpoint mulp (c0 c1 p : R) (l : list R) : list R :=
  match l with [] => [c1 * p] | a :: t => (c0 * a + c1 * p) :: mulp c0 c1 a t end.
Lemma mulp_val c0 c1 l : forall p x, pval (mulp c0 c1 p l) x = c1 * p + (c0 + c1 * x) * pval l x.
Proof.
  induction l as [|a t IH]; intros p x; cbn [mulp]; rewrite !pval_cons, ?pval_nil, ?IH; ring.
Qed.
Lemma sign_mix c0 c1 a p : 0 <= c0 -> 0 <= c1 ->
  rsign (c0 * a + c1 * p) = 0%Z \/ rsign (c0 * a + c1 * p) = rsign a \/ (rsign (c0 * a + c1 * p) = rsign p /\ p <> 0).
Proof.
  intros H0 H1. destruct (rsign_cases (c0 * a + c1 * p)) as [(_ & E) | [(L & E) | (L & E)]]; [auto| |]; rewrite E; right;
    destruct (rsign_cases a) as [(A & ->) | [(A & ->) | (A & ->)]]; auto; right; (split; [|intros P; subst p; nra]);
    destruct (rsign_cases p) as [(P & ->) | [(P & ->) | (P & ->)]]; auto; exfalso; nra.
Qed.
Definition unit_sign (s : Z) : Prop := (s = 0 \/ s = 1 \/ s = -1)%Z.
Lemma rsign_unit a : unit_sign (rsign a).
Proof. unfold unit_sign. destruct (rsign_cases a) as [(_ & ->) | [(_ & ->) | (_ & ->)]]; auto. Qed.
Lemma mulp_sv c0 c1 : 0 <= c0 -> 0 <= c1 -> forall l p s q, unit_sign s -> unit_sign q ->
  (p = 0 \/ rsign p = q) -> (q = 0%Z -> s = 0%Z) ->
  (sv s (mulp c0 c1 p l) <= sv q l + if chg s q then 1 else 0)%nat.
Proof.
  intros H0 H1. induction l as [|a t IH]; intros p s q Us Uq Hp Hz; cbn [mulp sv].
  - pose proof (sign_mix c0 c1 0 p H0 H1) as M. rewrite Rmult_0_r, Rplus_0_l in M.
    replace (rsign 0) with 0%Z in M by (destruct (rsign_cases 0) as [(_ & ->) | [(L & _) | (L & _)]]; [reflexivity|lra|lra]).
    destruct M as [-> | [-> | (-> & P)]]; [cbn; lia|cbn; lia|].
    destruct Hp as [Hp | ->]; [contradiction|]. unfold chg. rewrite !(Z.eqb_sym s). 
    destruct Us as [-> | [-> | ->]], Uq as [-> | [-> | ->]]; cbn; lia.
  - pose proof (sign_mix c0 c1 a p H0 H1) as M. pose proof (rsign_unit a) as Ua. pose proof (rsign_unit (c0 * a + c1 * p)) as Uo.
    assert (P0 : p <> 0 -> rsign p <> 0%Z) by (intros P; destruct (rsign_cases p) as [(? & _) | [(_ & ->) | (_ & ->)]]; [contradiction|discriminate|discriminate]).
    specialize (IH a (nxt s (rsign (c0 * a + c1 * p))) (nxt q (rsign a))).
    assert (A1 : a = 0 \/ rsign a = nxt q (rsign a)).
    { destruct (rsign_cases a) as [(A & _) | [(_ & ->) | (_ & ->)]]; [left; exact A|right; reflexivity|right; reflexivity]. }
    destruct M as [M | [M | (M & P)]].
    + rewrite M in *. change (nxt s 0) with s in *. change (chg s 0) with false in *. cbn [Nat.add].
      destruct Us as [-> | [-> | ->]], Uq as [-> | [-> | ->]], Ua as [Ea | [Ea | Ea]]; rewrite Ea in *; cbn in *;
        try (specialize (Hz eq_refl); discriminate);
        (specialize (IH ltac:(unfold unit_sign; tauto) ltac:(unfold unit_sign; tauto) A1 ltac:(first [discriminate | intros; assumption | intros _; reflexivity])); lia).
    + rewrite M in *. destruct Us as [-> | [-> | ->]], Uq as [-> | [-> | ->]], Ua as [Ea | [Ea | Ea]]; rewrite Ea in *; cbn in *;
        try (specialize (Hz eq_refl); discriminate);
        (specialize (IH ltac:(unfold unit_sign; tauto) ltac:(unfold unit_sign; tauto) A1 ltac:(first [discriminate | intros; assumption | intros _; reflexivity])); lia).
    + destruct Hp as [Hp | Hp]; [contradiction|]. rewrite Hp in *. specialize (P0 P). rewrite M in *.
      destruct Us as [-> | [-> | ->]], Uq as [-> | [-> | ->]], Ua as [Ea | [Ea | Ea]]; try congruence; rewrite Ea in *; cbn in *;
        try (specialize (Hz eq_refl); discriminate);
        (specialize (IH ltac:(unfold unit_sign; tauto) ltac:(unfold unit_sign; tauto) A1 ltac:(first [discriminate | intros; assumption | intros _; reflexivity])); lia).
Qed.

Lemma rsign_opp a : rsign (- a) = (- rsign a)%Z.
Proof.
  destruct (rsign_cases a) as [(A & ->) | [(A & ->) | (A & ->)]], (rsign_cases (- a)) as [(B & ->) | [(B & ->) | (B & ->)]]; try reflexivity; lra.
Qed.
Lemma sv_opp l : forall s, unit_sign s -> sv (- s) (map Ropp l) = sv s l.
Proof.
  induction l as [|a t IH]; intros s Us; [reflexivity|]. cbn [map sv]. rewrite rsign_opp. pose proof (rsign_unit a) as Ua.
  assert (Un : unit_sign (nxt s (rsign a))) by (unfold nxt; destruct (negb _); assumption). rewrite <- (IH _ Un).
  destruct Us as [-> | [-> | ->]], Ua as [-> | [-> | ->]]; reflexivity.
Qed.
Lemma opp_val l x : pval (map Ropp l) x = - pval l x.
Proof. induction l as [|a t IH]; cbn [map]; rewrite ?pval_nil, ?pval_cons, ?IH; ring. Qed.
(** multiplying by a factor whose root is not positive makes no new sign changes *)
Lemma descartes_factor g h c0 c1 : (0 <= c0 /\ 0 <= c1) \/ (c0 <= 0 /\ c1 <= 0) ->
  (forall y, 0 < y -> pval g y = (c0 + c1 * y) * pval h y) -> (descartes g <= descartes h)%nat.
Proof.
  intros C E. rewrite !descartes_sv.
  assert (U0 : unit_sign 0) by (unfold unit_sign; auto).
  destruct C as [(C0 & C1) | (C0 & C1)].
  - rewrite (sv_ext 0 g (mulp c0 c1 0 h)).
    + pose proof (mulp_sv c0 c1 C0 C1 h 0 0 0 U0 U0 ltac:(left; reflexivity) ltac:(reflexivity)) as M. cbn [chg] in M. change (chg 0 0) with false in M. cbn iota in M. lia.
    + apply pval_eq_get. intros y Hy. rewrite mulp_val, E by exact Hy. ring.
  - rewrite (sv_ext 0 g (mulp (- c0) (- c1) 0 (map Ropp h))).
    + pose proof (mulp_sv (- c0) (- c1) ltac:(lra) ltac:(lra) (map Ropp h) 0 0 0 U0 U0 ltac:(left; reflexivity) ltac:(reflexivity)) as M.
      change (chg 0 0) with false in M. cbn iota in M. pose proof (sv_opp h 0 U0) as O. change (- 0)%Z with 0%Z in O. lia.
    + apply pval_eq_get. intros y Hy. rewrite mulp_val, opp_val, E by exact Hy. ring.
Qed.

(* ---------------------------------------------------------- dyadic cells *)
(** the k-th of the 2^n cells of [0,u] *)
Definition in_cell (u : R) (n k : nat) (y : R) : R := INR k / 2 ^ n * u + u / 2 ^ n * (1 / (y + 1)).
Definition cells_ok (u : R) (f : list R) (N : nat) : Prop :=
  forall n k K g, (N <= n)%nat -> (k < 2 ^ n)%nat -> 0 < K -> length g = length f ->
    (forall y, 0 < y -> pval g y = K * ((y + 1) ^ porder f * pval f (in_cell u n k y))) -> (descartes g <= 1)%nat.

Lemma cell_bounds u n k : 0 < u -> (k < 2 ^ n)%nat -> 0 <= INR k / 2 ^ n * u /\ INR k / 2 ^ n * u + u / 2 ^ n <= u /\ 0 < u / 2 ^ n.
Proof.
  intros Hu Hk. assert (P : 0 < 2 ^ n) by (apply pow_lt; lra). pose proof (pos_INR k) as K0.
  assert (K1 : INR k + 1 <= 2 ^ n). { rewrite <- S_INR. change 2 with (INR 2). rewrite <- pow_INR. apply le_INR. lia. }
  assert (Q : 0 < / 2 ^ n) by (apply Rinv_0_lt_compat, P). unfold Rdiv. split; [|split].
  - apply Rmult_le_pos; [apply Rmult_le_pos|]; lra.
  - replace (INR k * / 2 ^ n * u + u * / 2 ^ n) with ((INR k + 1) * / 2 ^ n * u) by ring.
    assert ((INR k + 1) * / 2 ^ n <= 1); [|nra]. apply (Rmult_le_reg_r (2 ^ n)); [lra|]. rewrite Rmult_assoc, Rinv_l by lra. lra.
  - apply Rmult_lt_0_compat; lra.
Qed.

Lemma cells_simple u f : 0 < u -> not_zero f -> simple_on u f -> exists N, cells_ok u f N.
Proof.
  intros Hu Nz Hs. pose proof (not_zero_nil f Nz) as Hf. destruct (short_cell f u Hf ltac:(lra) Hs) as (d & Hd & SC).
  destruct (Pow_x_infinity 2 ltac:(rewrite Rabs_pos_eq; lra) (u / d + 1)) as [N HN]. exists N. intros n k K g Hn Hk HK Hl Hg.
  destruct (cell_bounds u n k Hu Hk) as (B1 & B2 & B3). specialize (HN n Hn). rewrite Rabs_pos_eq in HN by (apply pow_le; lra).
  assert (P : 0 < 2 ^ n) by (apply pow_lt; lra).
  assert (W : u / 2 ^ n < d).
  { apply (Rmult_lt_reg_r (2 ^ n)); [lra|]. replace (u / 2 ^ n * 2 ^ n) with u by (field; lra).
    assert (u / d < 2 ^ n) by lra. apply (Rmult_lt_compat_l d) in H; [|lra]. replace (d * (u / d)) with u in H by (field; lra). lra. }
  apply (SC (INR k / 2 ^ n * u + u / 2 ^ n) (- (u / 2 ^ n)) K 1 g); auto; try lra; [rewrite Rabs_Ropp, Rabs_pos_eq; lra|].
  intros y Hy. rewrite Hg by lra. unfold in_cell. rewrite Rmult_1_l.
  replace (INR k / 2 ^ n * u + u / 2 ^ n + - (u / 2 ^ n) * (y / (1 + y))) with (INR k / 2 ^ n * u + u / 2 ^ n * (1 / (y + 1))) by (field; lra).
  rewrite (Rplus_comm 1 y). reflexivity.
Qed.

Definition dyadic_of (u z : R) : Prop := exists n k : nat, z = INR k / 2 ^ n * u.
Definition multiple_root (f : list R) (z : R) : Prop := is_root f z /\ derivable_pt_lim (pval f) z 0.

Lemma cells_step u f b r : 0 < u -> not_zero f -> b <> [] -> length f = S (length b) -> (forall x, pval f x = (x - r) * pval b x) ->
  dyadic_of u r -> (exists N, cells_ok u b N) -> exists N, cells_ok u f N.
Proof.
  intros Hu Nz Hb HL Hf (nr & kr & Hr) (N & HN). exists (Nat.max N nr). intros n k K g Hn Hk HK Hl Hg.
  destruct (cell_bounds u n k Hu Hk) as (B1 & B2 & B3).
  set (a := INR k / 2 ^ n * u) in *. set (w := u / 2 ^ n) in *.
  destruct (shift_function_correct b a Hb) as (SL & SV).
  assert (Sn : shift_function b a <> []) by (intros Z; rewrite Z in SL; destruct b; [congruence|discriminate]).
  destruct (scale_poly_correct (shift_function b a) w Sn) as (CL & CV).
  assert (Cn : scale_poly (shift_function b a) w <> []) by (intros Z; rewrite Z in CL; destruct (shift_function b a); [congruence|discriminate]).
  destruct (invert_taylor_shift_correct (scale_poly (shift_function b a) w) Cn) as (IL & IV).
  set (h := invert_taylor_shift (scale_poly (shift_function b a) w)) in *.
  assert (Po : porder (scale_poly (shift_function b a) w) = porder b) by (unfold porder; congruence).
  assert (Pf : porder f = S (porder b)) by (unfold porder; destruct b; [congruence|simpl in *; lia]).
  assert (Hh : forall y, 0 < y -> pval h y = (y + 1) ^ porder b * pval b (in_cell u n k y)).
  { intros y Hy. rewrite IV by lra. rewrite Po, CV, SV. unfold in_cell. fold a w. f_equal. f_equal. ring. }
  assert (D : (descartes h <= 1)%nat).
  { apply (HN n k 1 h); auto; [lia|lra|congruence|]. intros y Hy. rewrite Hh by exact Hy. ring. }
  eapply Nat.le_trans; [|exact D]. apply (descartes_factor g h (K * (a - r + w)) (K * (a - r))).
  - (* the root is not inside the cell *)
    assert (P : 0 < 2 ^ n) by (apply pow_lt; lra).
    set (kk := (kr * 2 ^ (n - nr))%nat).
    assert (Er : r = INR kk * w).
    { unfold kk, w. rewrite mult_INR, pow_INR. change (INR 2) with 2. rewrite Hr.
      replace n with (nr + (n - nr))%nat at 2 by lia. rewrite pow_add. field. split; apply pow_nonzero; lra. }
    assert (Ea : a = INR k * w) by (unfold a, w; field; lra).
    destruct (Nat.le_gt_cases kk k) as [L | L].
    + left. apply le_INR in L. assert (0 <= a - r) by nra. split; apply Rmult_le_pos; lra.
    + right. apply le_INR in L. rewrite S_INR in L. assert (a - r + w <= 0) by nra. split; nra.
  - intros y Hy. rewrite Hg, Hf, Hh by exact Hy. rewrite Pf. unfold in_cell. fold a w. cbn [pow].
    replace (K * (a - r + w) + K * (a - r) * y) with (K * ((y + 1) * (a + w * (1 / (y + 1)) - r))) by (field; lra). ring.
Qed.

Lemma cells_exist u : 0 < u -> forall m f, length f = m -> not_zero f ->
  (forall z, 0 <= z <= u -> multiple_root f z -> dyadic_of u z) -> exists N, cells_ok u f N.
Proof.
  intros Hu. induction m as [m IH] using lt_wf_ind. intros f Hm Nz Hd.
  destruct (Classical_Prop.classic (exists z, 0 <= z <= u /\ multiple_root f z)) as [(z & Hz & Mz) | No].
  - pose proof (not_zero_nil f Nz) as Hf. destruct Mz as (Rz & Dz).
    destruct (divide_root f z Hf Rz) as (b & Lb & Vb).
    assert (Nb : not_zero b).
    { apply not_zero_iff in Nz. destruct Nz as (x & Hx). apply not_zero_iff. exists x. intros Z. apply Hx. rewrite Vb, Z. ring. }
    pose proof (not_zero_nil b Nb) as Hb.
    assert (L1 : length f = S (length b)) by (destruct f; [congruence|simpl in *; lia]).
    apply (cells_step u f b z); auto; [apply Hd; [exact Hz|split; assumption]|].
    apply (IH (length b)); auto; [lia|]. intros x Hx (Rx & Dx). apply Hd; [exact Hx|]. split; [unfold is_root in *; rewrite Vb, Rx; ring|].
    assert (Dp : derivable_pt_lim (fun t => (t - z) * pval b t) x (1 * pval b x + (x - z) * 0)).
    { apply (derivable_pt_lim_mult (fun t => t - z) (pval b)); [|exact Dx].
      replace 1 with (1 - 0) by ring. apply (derivable_pt_lim_minus id (fct_cte z)); [apply derivable_pt_lim_id|apply derivable_pt_lim_const]. }
    unfold is_root in Rx. rewrite Rx in Dp. replace (1 * 0 + (x - z) * 0) with 0 in Dp by ring.
    intros eps He. destruct (Dp eps He) as (del & Hdel). exists del. intros h Hh Hh2. rewrite !Vb. exact (Hdel h Hh Hh2).
  - apply cells_simple; auto. intros x Hx Rx Dx. apply No. exists x. split; [exact Hx|]. split; assumption.
Qed.

(* ---------------------------------------------------------- termination *)
Lemma vca_worker_cells u f N : 0 < u -> not_zero f -> cells_ok u f N ->
  forall j n k K fc, (N <= n + j)%nat -> (k < 2 ^ n)%nat -> 0 < K -> length fc = length f -> not_zero fc ->
    (forall x, pval fc x = K * pval f (INR k / 2 ^ n * u + u / 2 ^ n * x)) -> stops (fun fu => vca_worker fu fc).
Proof.
  intros Hu Nz HN. induction j as [|j IH]; intros n k K fc Hn Hk HK HL Hnz Hfc.
  - exists 1%nat. intros [|fu] Hfu; [lia|]. cbn [vca_worker]. unfold budan_01.
    assert (fcn : fc <> []) by (apply not_zero_nil; auto).
    destruct (invert_taylor_shift_correct fc fcn) as [IL IV].
    assert (D : (descartes (invert_taylor_shift fc) <= 1)%nat).
    { apply (HN n k K); auto; try lia; try congruence. intros y Hy. rewrite IV by lra. rewrite Hfc. replace (porder fc) with (porder f) by (unfold porder; congruence).
      unfold in_cell. ring. }
    destruct (descartes (invert_taylor_shift fc)) as [|[|q]]; [discriminate|discriminate|exfalso; lia].
  - destruct (Nat.lt_ge_cases (porder fc) 31) as [Ho|Ho].
    2:{ exists 1%nat. intros [|fu] Hfu; [lia|]. cbn [vca_worker]. destruct (budan_01 fc) as [|[|q]]; try discriminate. unfold vca_double. destruct (Nat.ltb_spec (porder fc) 31); [lia|]. cbn [obind]. discriminate. }
    destruct (vca_double fc) as [p1| | |] eqn:E1; try (unfold vca_double in E1; destruct (Nat.ltb_spec (porder fc) 31); [discriminate|lia]).
    destruct (vca_double_correct fc p1 Hnz E1) as [L1 V1].
    assert (P2 : 0 < 2 ^ porder fc) by (apply pow_lt; lra). assert (Pn : 0 < 2 ^ n) by (apply pow_lt; lra).
    assert (N1 : not_zero p1). { apply not_zero_iff. apply not_zero_iff in Hnz. destruct Hnz as [x Hx]. exists (2 * x). rewrite V1. replace (2 * x / 2) with x by field. apply Rmult_integral_contrapositive. split; [lra|auto]. }
    assert (p1n : p1 <> []) by (apply not_zero_nil; auto). destruct (shift_unity_correct p1 p1n) as [L2 V2].
    destruct (IH (S n) (2 * k)%nat (2 ^ porder fc * K) p1) as [n1 S1]; auto; try lia; try congruence.
    { cbn [Nat.pow]. lia. } { apply Rmult_lt_0_compat; auto. }
    { intros x. rewrite V1, Hfc, mult_INR. change (INR 2) with 2. rewrite <- tech_pow_Rmult.
      replace (2 * INR k / (2 * 2 ^ n) * u + u / (2 * 2 ^ n) * x) with (INR k / 2 ^ n * u + u / 2 ^ n * (x / 2)) by (field; lra). ring. }
    destruct (IH (S n) (2 * k + 1)%nat (2 ^ porder fc * K) (shift_unity p1)) as [n2 S2]; auto; try lia; try congruence.
    { cbn [Nat.pow]. lia. } { apply Rmult_lt_0_compat; auto. } { apply not_zero_unity; auto. }
    { intros x. rewrite V2, V1, Hfc, plus_INR, mult_INR. change (INR 2) with 2. change (INR 1) with 1. rewrite <- tech_pow_Rmult.
      replace ((2 * INR k + 1) / (2 * 2 ^ n) * u + u / (2 * 2 ^ n) * x) with (INR k / 2 ^ n * u + u / 2 ^ n * ((x + 1) / 2)) by (field; lra). ring. }
    exists (S (n1 + n2)). intros [|fu] Hfu; [lia|]. cbn [vca_worker]. destruct (budan_01 fc) as [|[|q]]; try discriminate.
    rewrite E1. cbn [obind]. specialize (S1 fu ltac:(lia)). specialize (S2 fu ltac:(lia)). cbn beta in S1, S2.
    destruct (vca_worker fu p1); cbn [obind]; try discriminate; [|congruence].
    destruct (vca_worker fu (shift_unity p1)); cbn [obind]; try discriminate; [|congruence]. apply sv_extend_fuel.
Qed.

Lemma VCA_stops_dyadic f : not_zero f ->
  (forall u, LMQ_upper f = Ret (Fin u) -> 0 < u -> forall z, 0 <= z <= u -> multiple_root f z -> dyadic_of u z) ->
  stops (fun fu => VCA_bounds fu f).
Proof.
  intros Nz Hd. unfold VCA_bounds. pose proof (lmq_upper_correct f Nz) as P.
  destruct (LMQ_upper f) as [[u| |]| | |]; cbn [obind]; try (exists 0%nat; intros; discriminate); try (exfalso; exact P).
  destruct (Reqb_spec u 0) as [E|E]; [exists 0%nat; intros; discriminate|].
  assert (Hu : 0 < u) by (destruct P as ([?|?] & _); [auto|congruence]).
  pose proof (not_zero_nil f Nz) as Hf. destruct (scale_poly_correct f u Hf) as [SL SV].
  destruct (cells_exist u Hu (length f) f eq_refl Nz (Hd u eq_refl Hu)) as (N & HN).
  destruct (vca_worker_cells u f N Hu Nz HN N 0 0 1 (scale_poly f u)) as [n Hn]; auto; try lia; try lra.
  { apply not_zero_scale; auto. } { intros x. rewrite SV. cbn [INR pow]. replace (0 / 1 * u + u / 1 * x) with (u * x) by field. ring. }
  exists n. intros fu Hfu. specialize (Hn fu Hfu). cbn beta in Hn. destruct (vca_worker fu (scale_poly f u)); cbn [obind]; try discriminate. congruence.
Qed.

(** ** VCA returns exactly when every positive multiple root of f is a dyadic
    fraction of the bound it starts from; otherwise it recurses for ever. *)
Theorem C19_returns_iff : forall f : list R, not_zero f -> (porder f < 31)%nat ->
  exists u, LMQ_upper f = Ret (Fin u) /\
  ((exists fuel L, VCA_bounds fuel f = Ret L) <->
   forall z, 0 < z -> is_root f z -> derivable_pt_lim (pval f) z 0 -> exists n k : nat, z = INR k / 2 ^ n * u) /\
  ((exists fuel, VCA_bounds fuel f <> Fuel) -> exists n L, forall fuel, (n <= fuel)%nat -> VCA_bounds fuel f = Ret L).
Proof.
  intros f Nz Ho. pose proof (lmq_upper_correct f Nz) as P.
  assert (T : stops (fun fu => VCA_bounds fu f) -> exists n L, forall fuel, (n <= fuel)%nat -> VCA_bounds fuel f = Ret L).
  { intros (n & Hn). exists n. pose proof (VCA_bounds_correct n f Nz) as Q. specialize (Hn n (le_n n)).
    destruct (VCA_bounds n f) as [L| | |] eqn:E; [|contradiction|lia|congruence]. exists L. intros fu Hfu. rewrite (VCA_more n fu f Hfu); rewrite E; [reflexivity|discriminate]. }
  assert (U : exists u, LMQ_upper f = Ret (Fin u)).
  { pose proof (VCA_bounds_correct 0 f Nz) as Q. unfold VCA_bounds in Q. destruct (LMQ_upper f) as [[u| |]| | |]; cbn [obind] in Q; try lia; try contradiction; eauto. }
  destruct U as (u & Hu). exists u. split; [exact Hu|]. rewrite Hu in P. destruct P as (Hu0 & Hno & _). split; [split|].
  - intros (fu & L & E) z Hz Rz Dz. apply Classical_Prop.NNPP. intros Hn.
    pose proof (C19_multiple_root_refuted f u z Nz Ho Hu Hz Rz Dz) as X. rewrite X in E; [discriminate|]. intros n k Ez. apply Hn. exists n, k. exact Ez.
  - intros H. destruct T as (n & L & T).
    + apply VCA_stops_dyadic; auto. intros u' Hu' Pu' z Hz (Rz & Dz). assert (u' = u) by congruence. subst u'.
      destruct (Req_dec z 0) as [-> | Nz0]; [exists 0%nat, 0%nat; simpl; field|]. apply H; auto. lra.
    + exists n, L. apply T. lia.
  - intros (fu & Hf). apply T. exists fu. intros fu' Hle. rewrite (VCA_more fu fu' f Hle Hf). exact Hf.
Qed.
Print Assumptions C19_returns_iff.

(** (x-1)^2: the bound is 4, the double root is a quarter of it, and VCA returns
    (it finds nothing: the root is on a bisection point). *)
Lemma vca_double_root_bound : LMQ_upper [1; -2; 1] = Ret (Fin 4).
Proof.
  unfold LMQ_upper.
  replace (highest (porder [1; -2; 1]) [1; -2; 1]) with 2%nat
    by (cbn [porder length Nat.pred highest get nth n0 R_num]; destruct (Reqb_spec 1 0); [lra|reflexivity]).
  cbn [for_down Nat.sub Nat.pred obind].
  unfold lmq_inner. cbn [for_down Nat.sub Nat.pred obind].
  unfold nonzerob, opposite. rewrite !signbit_Rltb. cbn [get nth n0 R_num length repeat tget upd].
  repeat match goal with
  | |- context [Reqb ?a ?b] => destruct (Reqb_spec a b); [exfalso; lra|]
  | |- context [Rltb ?a ?b] => first [destruct (Rltb_spec a b); [exfalso; lra|] | destruct (Rltb_spec a b); [|exfalso; lra]]
  end.
  cbn [negb andb eqb Bool.eqb obind xmax xmin tget nth upd neg_shl Nat.ltb Nat.leb snd].
  rewrite (rpower1 (- 2 ^ 1 * -2 / 1)) by lra.
  cbn [xmin xmax]. decR. f_equal. f_equal. lra.
Qed.
Example C19_returns_ex : (exists fuel L, VCA_bounds fuel [1; -2; 1] = Ret L) /\ is_root [1; -2; 1] 1 /\ derivable_pt_lim (pval [1; -2; 1]) 1 0.
Proof.
  assert (V : forall x, pval [1; -2; 1] x = (x - 1) * (x - 1)) by (intros x; rewrite !pval_cons, pval_nil; ring).
  assert (R1 : is_root [1; -2; 1] 1) by (unfold is_root; rewrite V; ring).
  split; [|split; [exact R1|]].
  - destruct (C19_returns_iff [1; -2; 1]) as (u & Hu & H & _); [exists 1; split; [cbn [In]; tauto|lra]|cbn; lia|].
    rewrite vca_double_root_bound in Hu. injection Hu as <-. apply H. intros z Hz Rz _. exists 2%nat, 1%nat. unfold is_root in Rz. rewrite V in Rz.
    assert (z = 1) by nra. simpl. lra.
  - intros eps He. exists (mkposreal eps He). intros h H0 Hh. rewrite !V. replace (((1 + h - 1) * (1 + h - 1) - (1 - 1) * (1 - 1)) / h - 0) with h by (field; exact H0). exact Hh.
Qed.
