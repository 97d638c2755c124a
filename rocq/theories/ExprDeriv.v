(** The run-time symbolic derivative is the mathematical derivative. *)
From Coq Require Import String R_Ifp.
From Coq Require Import Ranalysis4.
From Verif Require Import Outcome Num ExprModel ExprSpec ExprBase ExprSimp ExprVal ExprSub.
Open Scope R_scope.

Lemma hd_ext g g' a d : (forall t, g t = g' t) -> has_derivative g a d -> has_derivative g' a d.
Proof.
  intros E (F & (dl & H0 & H1) & H2). exists F; split; auto. exists dl; split; auto.
  intros t Ht; rewrite <- E; auto.
Qed.

Lemma hd_at g a d : has_derivative g a d -> exists v, g a = Some (VN v).
Proof.
  intros (F & (dl & H0 & H1) & H2). exists (F a). apply H1. rewrite Rminus_diag_eq, Rabs_R0; auto.
Qed.

Lemma hd_const c a : has_derivative (fun _ => Some (VN c)) a 0.
Proof.
  exists (fun _ => c); split; [exists 1; split; [lra|reflexivity]|]. apply derivable_pt_lim_const.
Qed.

Lemma hd_id a : has_derivative (fun t => Some (VN t)) a 1.
Proof.
  exists (fun t => t); split; [exists 1; split; [lra|reflexivity]|]. apply derivable_pt_lim_id.
Qed.

Lemma dpl_cont F a d : derivable_pt_lim F a d -> forall eps, 0 < eps ->
  exists dl, 0 < dl /\ forall t, Rabs (t - a) < dl -> Rabs (F t - F a) < eps.
Proof.
  intros H eps He.
  assert (C : continuity_pt F a) by (apply derivable_continuous_pt; exists d; exact H).
  destruct (C eps He) as (dl & H1 & H2). exists dl; split; auto. intros t Ht.
  destruct (Req_dec t a) as [->|Hne]. { rewrite Rminus_diag_eq, Rabs_R0; auto. }
  apply (H2 t). split; [split; [exact I|auto]|exact Ht].
Qed.

(** A function of one number applied to a differentiable expression. *)
Lemma hd_comp (nf : R -> option R) G g a v d d' :
  g a = Some (VN v) ->
  (exists eps, 0 < eps /\ forall u, Rabs (u - v) < eps -> nf u = Some (G u)) ->
  derivable_pt_lim G v d' -> has_derivative g a d ->
  has_derivative (fun t => match g t with Some (VN u) => option_map VN (nf u) | _ => None end) a (d' * d).
Proof.
  intros Hv (eps & He & Hnf) HG (F & (dl & H0 & H1) & H2).
  assert (HFa : F a = v).
  { specialize (H1 a). rewrite Rminus_diag_eq, Rabs_R0, Hv in H1 by auto. specialize (H1 H0). congruence. }
  destruct (dpl_cont _ _ _ H2 eps He) as (dl2 & H3 & H4).
  exists (fun t => G (F t)); split.
  - exists (Rmin dl dl2); split; [apply Rmin_glb_lt; auto|]. intros t Ht.
    rewrite H1 by (eapply Rlt_le_trans; [exact Ht|apply Rmin_l]).
    rewrite Hnf; [reflexivity|]. rewrite <- HFa. apply H4. eapply Rlt_le_trans; [exact Ht|apply Rmin_r].
  - apply (derivable_pt_lim_comp F G a d d'); auto. rewrite HFa; auto.
Qed.

Lemma hd_bin (o : bop) (op : (R -> R) -> (R -> R) -> R -> R) g h a dg dh d :
  (forall F G, derivable_pt_lim F a dg -> derivable_pt_lim G a dh ->
     g a = Some (VN (F a)) -> h a = Some (VN (G a)) ->
     derivable_pt_lim (op F G) a d /\
     exists eps, 0 < eps /\ forall t, Rabs (t - a) < eps -> nbin o (F t) (G t) = Some (op F G t)) ->
  has_derivative g a dg -> has_derivative h a dh ->
  has_derivative (fun t => match g t, h t with Some v, Some w => vbin o v w | _, _ => None end) a d.
Proof.
  intros Hop (F & (d1 & H0 & H1) & H2) (G & (d2 & H3 & H4) & H5).
  destruct (Hop F G H2 H5) as [H6 (eps & He & H7)].
  { apply H1. rewrite Rminus_diag_eq, Rabs_R0; auto. }
  { apply H4. rewrite Rminus_diag_eq, Rabs_R0; auto. }
  exists (op F G); split; auto.
  exists (Rmin eps (Rmin d1 d2)); split; [repeat apply Rmin_glb_lt; auto|]. intros t Ht.
  assert (Ht1 : Rabs (t - a) < eps) by (eapply Rlt_le_trans; [exact Ht|apply Rmin_l]).
  assert (Ht2 : Rabs (t - a) < Rmin d1 d2) by (eapply Rlt_le_trans; [exact Ht|apply Rmin_r]).
  rewrite H1 by (eapply Rlt_le_trans; [exact Ht2|apply Rmin_l]).
  rewrite H4 by (eapply Rlt_le_trans; [exact Ht2|apply Rmin_r]).
  cbn [vbin]. rewrite H7; auto.
Qed.

Lemma hd_plus g h a dg dh : has_derivative g a dg -> has_derivative h a dh ->
  has_derivative (fun t => match g t, h t with Some v, Some w => vbin BAdd v w | _, _ => None end) a (dg + dh).
Proof.
  apply (hd_bin BAdd plus_fct). intros F G HF HG _ _. split; [apply derivable_pt_lim_plus; auto|].
  exists 1; split; [lra|reflexivity].
Qed.
Lemma hd_minus g h a dg dh : has_derivative g a dg -> has_derivative h a dh ->
  has_derivative (fun t => match g t, h t with Some v, Some w => vbin BSub v w | _, _ => None end) a (dg - dh).
Proof.
  apply (hd_bin BSub minus_fct). intros F G HF HG _ _. split; [apply derivable_pt_lim_minus; auto|].
  exists 1; split; [lra|reflexivity].
Qed.
Lemma hd_mult g h a dg dh vg vh : g a = Some (VN vg) -> h a = Some (VN vh) ->
  has_derivative g a dg -> has_derivative h a dh ->
  has_derivative (fun t => match g t, h t with Some v, Some w => vbin BMul v w | _, _ => None end) a
    (dg * vh + vg * dh).
Proof.
  intros Eg Eh. apply (hd_bin BMul mult_fct). intros F G HF HG E1 E2. split.
  - assert (vg = F a) by congruence. assert (vh = G a) by congruence. subst.
    apply derivable_pt_lim_mult; auto.
  - exists 1; split; [lra|reflexivity].
Qed.

Lemma near_nonzero v : v <> 0 -> exists eps, 0 < eps /\ forall u, Rabs (u - v) < eps -> u <> 0.
Proof.
  intros H. exists (Rabs v); split; [apply Rabs_pos_lt; auto|]. intros u Hu ->.
  rewrite Rminus_0_l, Rabs_Ropp in Hu. lra.
Qed.
Lemma near_pos v : 0 < v -> exists eps, 0 < eps /\ forall u, Rabs (u - v) < eps -> 0 < u.
Proof.
  intros H. exists v; split; auto. intros u Hu. apply Rabs_def2 in Hu. lra.
Qed.

Lemma hd_div g h a dg dh vg vh : g a = Some (VN vg) -> h a = Some (VN vh) -> vh <> 0 ->
  has_derivative g a dg -> has_derivative h a dh ->
  has_derivative (fun t => match g t, h t with Some v, Some w => vbin BDiv v w | _, _ => None end) a
    ((dg * vh - vg * dh) / (vh * vh)).
Proof.
  intros Eg Eh Hn. apply (hd_bin BDiv div_fct). intros F G HF HG E1 E2.
  assert (vg = F a) by congruence. assert (vh = G a) by congruence. subst. split.
  - replace ((dg * G a - F a * dh) / (G a * G a)) with ((dg * G a - dh * F a) / Rsqr (G a)).
    + apply derivable_pt_lim_div; auto.
    + unfold Rsqr; apply (f_equal2 Rdiv); ring.
  - destruct (near_nonzero _ Hn) as (eps & He & H).
    destruct (dpl_cont _ _ _ HG eps He) as (dl & Hd & Hc).
    exists dl; split; auto. intros t Ht. cbn [nbin].
    destruct (Req_EM_T (G t) 0) as [E|]; [|reflexivity]. exfalso; apply (H (G t)); auto.
Qed.

(** Powers with a positive base. *)
Lemma Rpower_m1 x y : 0 < x -> Rpower x (y - 1) = Rpower x y / x.
Proof.
  intros H. unfold Rminus. rewrite Rpower_plus, Rpower_Ropp, Rpower_1; auto.
Qed.

Lemma hd_pow_pos g h a dg dh vg vh : g a = Some (VN vg) -> h a = Some (VN vh) -> 0 < vg ->
  has_derivative g a dg -> has_derivative h a dh ->
  has_derivative (fun t => match g t, h t with Some v, Some w => vbin BPow v w | _, _ => None end) a
    (vh * dg * Rpower vg (vh - 1) + dh * ln vg * Rpower vg vh).
Proof.
  intros Eg Eh Hp. apply (hd_bin BPow (fun F G t => Rpower (F t) (G t))). intros F G HF HG E1 E2.
  assert (vg = F a) by congruence. assert (vh = G a) by congruence. subst. split.
  - rewrite Rpower_m1 by auto. unfold Rpower at 3.
    assert (Hln : derivable_pt_lim (fun t => ln (F t)) a (/ F a * dg)).
    { apply (derivable_pt_lim_comp F ln); auto. apply derivable_pt_lim_ln; auto. }
    assert (Hm := derivable_pt_lim_mult G (fun t => ln (F t)) a _ _ HG Hln).
    assert (He := derivable_pt_lim_comp _ exp a _ _ Hm (derivable_pt_lim_exp _)).
    unfold comp, mult_fct in He. unfold Rpower in *.
    replace (G a * dg * (exp (G a * ln (F a)) / F a) + dh * ln (F a) * exp (G a * ln (F a)))
      with (exp (G a * ln (F a)) * (dh * ln (F a) + G a * (/ F a * dg))) by (field; lra).
    exact He.
  - destruct (near_pos _ Hp) as (eps & He & H).
    destruct (dpl_cont _ _ _ HF eps He) as (dl & Hd & Hc).
    exists dl; split; auto. intros t Ht. cbn [nbin]. unfold npow.
    destruct (Rlt_dec 0 (F t)) as [|E]; [reflexivity|]. exfalso; apply E; apply H; auto.
Qed.

(** Whole powers. *)
Lemma powerRZ_nat x n : powerRZ x (Z.of_nat n) = x ^ n.
Proof. symmetry; apply pow_powerRZ. Qed.

Lemma npow_int x z : (x <> 0 \/ (0 <= z)%Z) -> npow x (IZR z) = Some (powerRZ x z).
Proof.
  intros H. unfold npow. rewrite int_of_IZR.
  destruct (Rlt_dec 0 x) as [Hp|]. { rewrite powerRZ_Rpower; auto. }
  destruct (Req_EM_T x 0); auto. destruct (Z_lt_dec z 0); auto. destruct H; [contradiction|lia].
Qed.

Lemma npow_int_inv x z v : npow x (IZR z) = Some v -> (x <> 0 \/ (0 <= z)%Z) /\ v = powerRZ x z.
Proof.
  intros H. assert (C : x <> 0 \/ (0 <= z)%Z).
  { destruct (Req_dec x 0) as [->|]; auto. right. unfold npow in H. rewrite int_of_IZR in H.
    destruct (Rlt_dec 0 0); [lra|]. destruct (Req_EM_T 0 0); [|lra].
    destruct (Z_lt_dec z 0); [discriminate|lia]. }
  split; auto. rewrite npow_int in H by auto. congruence.
Qed.

(** the coefficient [z * x^(z-1)], read as 0 when z = 0 *)
Definition dpow (x : R) (z : Z) : R := if Z.eq_dec z 0 then 0 else IZR z * powerRZ x (z - 1).

Lemma dpl_powerRZ x z : (x <> 0 \/ (0 <= z)%Z) -> derivable_pt_lim (fun u => powerRZ u z) x (dpow x z).
Proof.
  intros H. unfold dpow.
  destruct (Z_le_gt_dec 0 z) as [Hz|Hz].
  - destruct (Z_of_nat_complete z Hz) as [n ->]. destruct (Z.eq_dec (Z.of_nat n) 0) as [E|E].
    + assert (n = 0)%nat by lia. subst n. simpl. apply derivable_pt_lim_const.
    + destruct n as [|n]; [lia|].
      replace (Z.of_nat (S n) - 1)%Z with (Z.of_nat n) by lia.
      rewrite powerRZ_nat, <- INR_IZR_INZ.
      assert (D := derivable_pt_lim_pow x (S n)). simpl pred in D.
      intros eps He. destruct (D eps He) as [dl Hd]. exists dl. intros h Hh1 Hh2.
      specialize (Hd h Hh1 Hh2). rewrite !powerRZ_nat. exact Hd.
  - destruct H as [H|H]; [|lia]. destruct (Z.eq_dec z 0) as [|_]; [lia|].
    assert (Hn : exists n, z = (- Z.of_nat (S n))%Z).
    { exists (Z.to_nat (- z - 1)). lia. }
    destruct Hn as [n ->].
    assert (E : forall u, powerRZ u (- Z.of_nat (S n)) = 1 / u ^ (S n)).
    { intros u. change (- Z.of_nat (S n))%Z with (Zneg (Pos.of_succ_nat n)). unfold powerRZ.
      rewrite SuccNat2Pos.id_succ. unfold Rdiv; ring. }
    assert (Hnz : x ^ (S n) <> 0) by (apply pow_nonzero; auto).
    assert (D := derivable_pt_lim_div (fct_cte 1) (fun u => u ^ S n) x _ _
       (derivable_pt_lim_const 1 x) (derivable_pt_lim_pow x (S n)) Hnz).
    simpl pred in D.
    replace (IZR (- Z.of_nat (S n)) * powerRZ x (- Z.of_nat (S n) - 1))
      with ((0 * x ^ S n - INR (S n) * x ^ n * fct_cte 1 x) / Rsqr (x ^ S n)).
    + intros eps He. destruct (D eps He) as [dl Hd]. exists dl. intros h Hh1 Hh2.
      specialize (Hd h Hh1 Hh2). rewrite !E. exact Hd.
    + replace (- Z.of_nat (S n) - 1)%Z with (- Z.of_nat (S (S n)))%Z by lia.
      assert (E2 : powerRZ x (- Z.of_nat (S (S n))) = 1 / x ^ S (S n)).
      { change (- Z.of_nat (S (S n)))%Z with (Zneg (Pos.of_succ_nat (S n))). unfold powerRZ.
        rewrite SuccNat2Pos.id_succ. unfold Rdiv; ring. }
      rewrite E2, opp_IZR, <- INR_IZR_INZ. unfold fct_cte, Rsqr.
      assert (x ^ n <> 0) by (apply pow_nonzero; auto).
      simpl pow. field. auto.
Qed.

Lemma near_int_pow v z : (v <> 0 \/ (0 <= z)%Z) ->
  exists eps, 0 < eps /\ forall u, Rabs (u - v) < eps -> npow u (IZR z) = Some (powerRZ u z).
Proof.
  intros [H|H].
  - destruct (near_nonzero v H) as (eps & He & Hu). exists eps; split; auto.
    intros u Hu'; apply npow_int; auto.
  - exists 1; split; [lra|]. intros; apply npow_int; auto.
Qed.

Lemma hd_pow_int g (c : option value) a dg vg z v : g a = Some (VN vg) -> c = Some (VN (IZR z)) ->
  vbin BPow (VN vg) (VN (IZR z)) = Some v ->
  has_derivative g a dg ->
  has_derivative (fun t => match g t, c with Some v, Some w => vbin BPow v w | _, _ => None end) a
    (dpow vg z * dg).
Proof.
  intros Eg -> Hv Hg. cbn [vbin nbin] in Hv.
  destruct (npow vg (IZR z)) as [p|] eqn:Ep; [|discriminate]. apply npow_int_inv in Ep as [C ->].
  assert (Hc := hd_comp (fun u => npow u (IZR z)) (fun u => powerRZ u z) g a vg dg _ Eg
    (near_int_pow vg z C) (dpl_powerRZ vg z C) Hg).
  destruct Hc as (F & (dl & H0 & H1) & H2). exists F; split; auto. exists dl; split; auto.
  intros t Ht. specialize (H1 t Ht). destruct (g t) as [[u| | |]|]; try discriminate. exact H1.
Qed.

Lemma near_abs v : v <> 0 -> derivable_pt_lim Rabs v (Rabs v / v).
Proof.
  intros H. destruct (Rtotal_order v 0) as [Hn|[Hz|Hp]]; [|contradiction|].
  - rewrite Rabs_left by auto. replace (- v / v) with (-1) by (field; auto). apply Rabs_derive_2; auto.
  - rewrite Rabs_right by lra. replace (v / v) with 1 by (field; auto). apply Rabs_derive_1; auto.
Qed.

Lemma hd_constant g a d : has_derivative g a d -> (forall t, g t = g a) -> d = 0.
Proof.
  intros (F & (dl & H0 & H1) & H2) Hc.
  assert (D0 : derivable_pt_lim (fct_cte (F a)) a 0) by apply derivable_pt_lim_const.
  apply (uniqueness_limite (fct_cte (F a)) a); auto.
  intros eps He. destruct (H2 eps He) as [dl2 Hd].
  assert (Hm : 0 < Rmin dl dl2) by (apply Rmin_glb_lt; auto; apply cond_pos).
  exists (mkposreal _ Hm). intros h Hh Hh2. simpl in Hh2.
  specialize (Hd h Hh (Rlt_le_trans _ _ _ Hh2 (Rmin_r _ _))).
  assert (E : F (a + h) = F a).
  { assert (E1 := H1 (a + h)). assert (E2 := H1 a).
    rewrite Hc in E1. rewrite E2 in E1.
    - assert (E3 : Some (VN (F a)) = Some (VN (F (a + h)))).
      { apply E1. replace (a + h - a) with h by ring. eapply Rlt_le_trans; [exact Hh2|apply Rmin_l]. }
      congruence.
    - rewrite Rminus_diag_eq, Rabs_R0; auto. }
  rewrite E in Hd. exact Hd.
Qed.

Lemma eval_lazy s env e v : eval false s env e = Some v -> eval true s env e = Some v.
Proof.
  revert v; induction e as [c|x|o a IHa|o l r IHl IHr|es IH|d IH] using expr_ind'; intros v H.
  - exact H.
  - exact H.
  - cbn [eval] in *. destruct (eval false s env a) as [va|]; [|discriminate]. rewrite (IHa _ eq_refl). exact H.
  - rewrite eval_bin in *. assert (L : forall w, eval false s env l = Some w -> eval true s env l = Some w) by auto.
    apply (obin_mono true o (eval false s env l) (eval false s env r)); try (intros w Hw; auto).
    destruct o; try exact H. unfold obin in *. simpl in H.
    destruct (eval false s env l) as [vl|] eqn:El; [|discriminate].
    destruct (eval false s env r) as [vr|] eqn:Er; [|discriminate].
    destruct (vzero (Some vl)) eqn:Ez; simpl; [|exact H].
    destruct vl as [a| | |]; try discriminate. simpl in Ez. destruct (Req_EM_T a 0); [|discriminate]. subst a.
    assert (v = VN 0) as -> by (eapply (left_zero_val false BMul 0 (Some vr)); [reflexivity|exact H]). reflexivity.
  - cbn [eval] in *. destruct (all_some (map (eval false s env) es)) as [vs|] eqn:E; [|discriminate].
    injection H as <-. apply all_some_iff, Forall2_map_l in E.
    assert (E2 : all_some (map (eval true s env) es) = Some vs).
    { apply all_some_iff, Forall2_map_l. revert IH. induction E; intros IH; inversion IH; subst; constructor; auto. }
    rewrite E2; reflexivity.
  - cbn [eval] in *.
    match type of H with option_map VD (?f d) = _ => set (go := f) in * end.
    match goal with |- option_map VD (?f d) = _ => set (go' := f) in * end.
    destruct (go d) as [vs|] eqn:Eg; [|discriminate]. injection H as <-.
    assert (E2 : go' d = Some vs); [|rewrite E2; reflexivity].
    revert vs Eg. induction IH as [|(k & a) d' Ha HF IHd]; intros vs Eg; [exact Eg|].
    simpl in *. destruct (eval false s env a) as [va|] eqn:Ea; [|discriminate]. fold (go d') in Eg.
    destruct (go d') as [vd|]; [|discriminate]. injection Eg as <-.
    rewrite (Ha _ eq_refl). fold (go' d'). rewrite (IHd vd eq_refl). reflexivity.
Qed.

Lemma upd_same rho x y : nums (upd_num rho x (rho x)) y = nums rho y.
Proof.
  unfold nums, upd_num. destruct (String.eqb_spec y x); subst; reflexivity.
Qed.

Lemma value_upd_same s rho x f : value_of s (nums (upd_num rho x (rho x))) f = value_of s (nums rho) f.
Proof. apply eval_ext. intros; apply upd_same. Qed.

Lemma value_no_var s rho x t f : has_node (is_var x) f = false ->
  value_of s (nums (upd_num rho x t)) f = value_of s (nums rho) f.
Proof.
  intros H. apply eval_ext. intros y Hy. unfold nums, upd_num.
  destruct (String.eqb_spec y x); auto. subst. congruence.
Qed.

Lemma vbin_num o a b v : vbin o (VN a) (VN b) = Some (VN v) -> nbin o a b = Some v.
Proof. simpl. destruct (nbin o a b); [|discriminate]. simpl. congruence. Qed.

Lemma vbin_num_inv o va vb v : vbin o va vb = Some (VN v) ->
  exists a b, va = VN a /\ vb = VN b /\ nbin o a b = Some v.
Proof.
  destruct va as [a|l| |], vb as [b|r| |]; try discriminate; intros H.
  - exists a, b; repeat split. apply vbin_num; auto.
  - cbn [vbin] in H. destruct (bc_left o a); [|discriminate].
    apply vmap_VA in H as (l' & H & _); discriminate.
  - cbn [vbin] in H. destruct (bc_right o b); [|discriminate].
    apply vmap_VA in H as (l' & H & _); discriminate.
  - cbn [vbin] in H. destruct (elementwise o); [|discriminate].
    match type of H with option_map VA ?m = _ => destruct m; discriminate end.
Qed.

Lemma mul_lz0 w : obin true BMul (Some (VN 0)) w = Some (VN 0).
Proof. apply mul_0. Qed.
Lemma mul_lzn a b : obin true BMul (Some (VN a)) (Some (VN b)) = Some (VN (a * b)).
Proof. apply mul_nn. Qed.

Lemma deriv_correct s rho x f : forall v, differentiable s rho x f -> value_of s (nums rho) f = Some (VN v) ->
  exists D d, deriv x f = Ret D /\ eval true s (nums rho) D = Some (VN d) /\
    has_derivative (fun t => value_of s (nums (upd_num rho x t)) f) (rho x) d.
Proof.
  unfold value_of.
  induction f as [c|y|o a IHa|o l r IHl IHr|es IH|dd IH] using expr_ind'; intros v Hd Hv.
  - exists (EConst 0), 0. repeat split; auto. apply hd_const.
  - exists (EConst (if String.eqb y x then 1 else 0)), (if String.eqb y x then 1 else 0). repeat split; auto.
    unfold nums, upd_num; simpl. destruct (String.eqb y x); [apply hd_id|apply hd_const].
  - destruct Hd as [Hd Habs]. cbn [eval] in Hv. unfold value_of in Habs.
    destruct (eval false s (nums rho) a) as [[u| | |]|] eqn:Ea; try discriminate.
    destruct (nun s o u) as [w|] eqn:Ew; [|discriminate]. injection Hv as <-.
    destruct (IHa u Hd eq_refl) as (D & d & HD & HDv & Hder).
    assert (Eat : eval false s (nums (upd_num rho x (rho x))) a = Some (VN u)).
    { rewrite <- Ea. apply (value_upd_same s rho x a). }
    assert (EaT := eval_lazy _ _ _ _ Ea).
    cbn [deriv]. rewrite HD. cbn [obind].
    assert (Hc := fun nf G d' H1 H2 => hd_comp nf G _ (rho x) u d d' Eat H1 H2 Hder).
    cbv beta in Hc. cbn [eval].
    destruct o.
    + exists (EBin BMul D (EUn UCos a)), (cos u * d). repeat split.
      * rewrite eval_bin, HDv. cbn [eval]. rewrite EaT. cbn [nun option_map]. rewrite mul_lzn. do 2 f_equal; ring.
      * apply (Hc (nun s USin) sin); [exists 1; split; [lra|reflexivity]|apply derivable_pt_lim_sin].
    + exists (EBin BMul (EUn UNeg D) (EUn USin a)), (- sin u * d). repeat split.
      * rewrite eval_bin. cbn [eval]. rewrite HDv, EaT. cbn [nun option_map]. rewrite mul_lzn. do 2 f_equal; ring.
      * apply (Hc (nun s UCos) cos); [exists 1; split; [lra|reflexivity]|apply derivable_pt_lim_cos].
    + cbn [nun] in Ew. destruct (Rlt_dec 0 u) as [Hp|]; [|discriminate].
      exists (EBin BDiv D a), (/ u * d). repeat split.
      * rewrite eval_bin, HDv, EaT. cbn [obin vbin nbin]. destruct (Req_EM_T u 0); [lra|].
        simpl. do 2 f_equal. field; auto.
      * apply (Hc (nun s ULog) ln); [|apply derivable_pt_lim_ln; auto].
        destruct (near_pos u Hp) as (eps & He & H). exists eps; split; auto. intros u' Hu'.
        cbn [nun]. destruct (Rlt_dec 0 u') as [|E]; [reflexivity|]. exfalso; apply E; auto.
    + exists (EBin BMul D (EUn UExp a)), (exp u * d). repeat split.
      * rewrite eval_bin, HDv. cbn [eval]. rewrite EaT. cbn [nun option_map]. rewrite mul_lzn. do 2 f_equal; ring.
      * apply (Hc (nun s UExp) exp); [exists 1; split; [lra|reflexivity]|apply derivable_pt_lim_exp].
    + assert (Hu : u <> 0) by (intros ->; apply (Habs eq_refl); reflexivity).
      exists (EBin BDiv (EBin BMul D (EUn UAbs a)) a), (Rabs u / u * d). repeat split.
      * rewrite eval_bin, eval_bin, HDv. cbn [eval]. rewrite EaT. cbn [nun option_map]. rewrite mul_lzn.
        cbn [obin vbin nbin]. destruct (Req_EM_T u 0); [lra|]. simpl. do 2 f_equal. field; auto.
      * apply (Hc (nun s UAbs) Rabs); [exists 1; split; [lra|reflexivity]|apply near_abs; auto].
    + exists (EBin BMul D (EUn UArb (EConst 1))), (s * d). repeat split.
      * rewrite eval_bin, HDv. cbn [eval nun option_map]. rewrite mul_lzn. do 2 f_equal; ring.
      * apply (Hc (nun s UArb) (fun u => s * u)); [exists 1; split; [lra|reflexivity]|].
        assert (E := derivable_pt_lim_scal id s u 1 (derivable_pt_lim_id u)). rewrite Rmult_1_r in E. exact E.
    + exists (EUn UNeg D), (-1 * d). repeat split.
      * cbn [eval]. rewrite HDv. cbn [nun option_map]. do 2 f_equal; ring.
      * apply (Hc (nun s UNeg) Ropp); [exists 1; split; [lra|reflexivity]|].
        assert (E := derivable_pt_lim_opp id u 1 (derivable_pt_lim_id u)). replace (-1) with (- (1)) by ring. exact E.
  - destruct Hd as (Ho & Hdl & Hdr & Hpow). unfold value_of in Hpow.
    rewrite eval_bin in Hv.
    destruct (eval false s (nums rho) l) as [vl|] eqn:El; [|apply obin_none_l in Hv as []].
    destruct (eval false s (nums rho) r) as [vr|] eqn:Er;
      [|apply obin_none_r in Hv as (_ & _ & ? & _); discriminate].
    assert (Hvb : vbin o vl vr = Some (VN v)).
    { destruct Ho as [->|[->|[->|[->| ->]]]]; exact Hv. }
    clear Hv. assert (Hvb2 := Hvb).
    apply vbin_num_inv in Hvb as (a & b & -> & -> & Hn).
    destruct (IHl a Hdl eq_refl) as (Dl & dl & HDl & HDlv & Hl).
    destruct (IHr b Hdr eq_refl) as (Dr & dr & HDr & HDrv & Hr).
    assert (Elat : eval false s (nums (upd_num rho x (rho x))) l = Some (VN a)).
    { rewrite <- El. apply (value_upd_same s rho x l). }
    assert (Erat : eval false s (nums (upd_num rho x (rho x))) r = Some (VN b)).
    { rewrite <- Er. apply (value_upd_same s rho x r). }
    assert (ElT := eval_lazy _ _ _ _ El). assert (ErT := eval_lazy _ _ _ _ Er).
    destruct Ho as [->|[->|[->|[->| ->]]]]; cbn [deriv]; rewrite HDl, HDr; cbn [obind].
    + exists (EBin BAdd Dl Dr), (dl + dr). repeat split.
      * rewrite eval_bin, HDlv, HDrv. reflexivity.
      * cbn [eval]. apply hd_plus; auto.
    + exists (EBin BSub Dl Dr), (dl - dr). repeat split.
      * rewrite eval_bin, HDlv, HDrv. reflexivity.
      * cbn [eval]. apply hd_minus; auto.
    + exists (EBin BAdd (EBin BMul Dl r) (EBin BMul l Dr)), (dl * b + a * dr). repeat split.
      * rewrite !eval_bin, HDlv, HDrv, ElT, ErT, !mul_lzn. reflexivity.
      * cbn [eval andb]. apply hd_mult; auto.
    + cbn [nbin] in Hn. destruct (Req_EM_T b 0) as [|Hb]; [discriminate|].
      exists (EBin BDiv (EBin BSub (EBin BMul Dl r) (EBin BMul l Dr)) (EBin BPow r (EConst (1 + 1)))),
        ((dl * b - a * dr) / (b * b)). repeat split.
      * rewrite !eval_bin, HDlv, HDrv, ElT, ErT, !mul_lzn. cbn [eval obin vbin nbin option_map].
        replace (1 + 1) with (IZR 2) by ring. rewrite npow_int by auto.
        cbn [option_map]. cbn [vbin nbin].
        replace (powerRZ b 2) with (b * b) by (simpl; ring).
        destruct (Req_EM_T (b * b) 0) as [E|]; [|reflexivity].
        apply Rmult_integral in E as [|]; contradiction.
      * cbn [eval]. apply hd_div; auto.
    + cbn [nbin] in Hn.
      destruct (Hpow eq_refl) as [(p & Hp & Hp0)|(Hocc & z & Hz)].
      * assert (p = a) as -> by congruence. eexists; eexists; split; [reflexivity|].
        split; [|cbn [eval]; apply hd_pow_pos; eauto].
        rewrite !eval_bin, HDlv, HDrv, ElT, ErT, !mul_lzn. cbn [eval]. rewrite ElT.
        cbn [nun obin vbin nbin option_map]. unfold npow.
        destruct (Rlt_dec 0 a); [|contradiction]. cbn [option_map].
        fold (obin true BMul (Some (VN (b * dl))) (Some (VN (Rpower a (b - 1))))).
        change (match obin true BMul (Some (VN (b * dl))) (Some (VN (Rpower a (b - 1)))) with
           Some v0 => match obin true BMul (obin true BMul (Some (VN dr)) (Some (VN (ln a)))) (Some (VN (Rpower a b))) with
             Some w => vbin BAdd v0 w | None => None end | None => None end = Some (VN (b * dl * Rpower a (b - 1) + dr * ln a * Rpower a b))).
        rewrite !mul_lzn. reflexivity.
      * injection Hz as ->.
        assert (dr = 0) as ->.
        { apply (hd_constant _ _ _ Hr). intros t. rewrite Erat, <- Er. apply (value_no_var s rho x t r Hocc). }
        eexists; eexists; split; [reflexivity|].
        split; [|cbn [eval]].
        2: { eapply hd_ext; [|exact (hd_pow_int (fun t => eval false s (nums (upd_num rho x t)) l) (Some (VN (IZR z))) (rho x) dl a z _ Elat eq_refl Hvb2 Hl)].
             intros t. cbv beta.
             assert (Et := value_no_var s rho x t r Hocc). unfold value_of in Et. rewrite Et, Er. reflexivity. }
        rewrite !eval_bin, HDlv, HDrv, ElT, ErT, !mul_lzn. rewrite !mul_lz0. cbn [eval].
        apply npow_int_inv in Hn as [C ->].
        assert (Hfirst : obin true BMul (Some (VN (IZR z * dl)))
           (obin true BPow (Some (VN a)) (obin true BSub (Some (VN (IZR z))) (Some (VN 1)))) = Some (VN (dpow a z * dl))).
        { unfold dpow. destruct (Z.eq_dec z 0) as [->|Hz0].
          - rewrite !Rmult_0_l. apply mul_lz0.
          - cbn [obin vbin nbin option_map]. rewrite <- (minus_IZR z 1).
            rewrite npow_int by (destruct C; [auto|right; lia]).
            change (obin true BMul (Some (VN (IZR z * dl))) (Some (VN (powerRZ a (z - 1)))) =
               Some (VN (IZR z * powerRZ a (z - 1) * dl))).
            rewrite mul_lzn. do 2 f_equal; ring. }
        change (@n1 R (@enum_num R R_enum)) with 1. rewrite Hfirst. cbn [obin vbin nbin option_map]. do 2 f_equal; ring.
  - destruct Hd.
  - destruct Hd.
Qed.
