(** Moebius bookkeeping and the VAS / VCA isolation algorithms. *)
From Verif Require Import PolyCalc RootsModel RootSpec Descartes LMQ NumericProofs.
Open Scope R_scope.

(* ------------------------------------------------------- polynomials *)
Lemma not_zero_iff f : not_zero f <-> exists x, pval f x <> 0.
Proof.
  split.
  - intros (c & Hc & H0).
    destruct (Classical_Prop.classic (exists x, pval f x <> 0)) as [H|H]; [exact H|exfalso].
    assert (Z : forall i, get f i = 0).
    { apply pval_zero_pos. intros x _. destruct (Req_dec (pval f x) 0); [assumption|].
      exfalso; apply H; eauto. }
    destruct (In_nth f c 0 Hc) as (i & Hi & Ei). apply H0. rewrite <- Ei. apply Z.
  - intros [x Hx]. destruct (Classical_Prop.classic (not_zero f)) as [H|H]; [exact H|exfalso].
    apply Hx. rewrite (pval_ext f []); [apply pval_nil|].
    intros i. rewrite get_nil. destruct (Nat.lt_ge_cases i (length f)) as [L|L]; [|apply get_over; exact L].
    destruct (Req_dec (get f i) 0) as [E|E]; [exact E|]. exfalso. apply H. exists (get f i).
    split; [apply nth_In; exact L|exact E].
Qed.
Lemma not_zero_pos f : not_zero f -> exists x, 0 < x /\ pval f x <> 0.
Proof.
  intros Hn. destruct (Classical_Prop.classic (exists x, 0 < x /\ pval f x <> 0)) as [H|H]; [exact H|exfalso].
  apply not_zero_iff in Hn. destruct Hn as [x Hx]. apply Hx.
  rewrite (pval_ext f []); [apply pval_nil|]. intros i. rewrite get_nil. apply pval_zero_pos.
  intros y Hy. destruct (Req_dec (pval f y) 0); [assumption|]. exfalso; apply H; eauto.
Qed.
Lemma not_zero_nil f : not_zero f -> f <> [].
Proof. intros (c & Hc & _) ->. destruct Hc. Qed.

Lemma not_zero_shift f t : not_zero f -> not_zero (shift_function f t).
Proof.
  intros H. pose proof (not_zero_nil f H) as Hf. apply not_zero_iff in H. destruct H as [x Hx].
  apply not_zero_iff. exists (x - t). rewrite (proj2 (shift_function_correct f t Hf)).
  replace (x - t + t) with x by ring. exact Hx.
Qed.
Lemma not_zero_unity f : not_zero f -> not_zero (shift_unity f).
Proof.
  intros H. pose proof (not_zero_nil f H) as Hf. apply not_zero_iff in H. destruct H as [x Hx].
  apply not_zero_iff. exists (x - 1). rewrite (proj2 (shift_unity_correct f Hf)).
  replace (x - 1 + 1) with x by ring. exact Hx.
Qed.
Lemma not_zero_scale f s : s <> 0 -> not_zero f -> not_zero (scale_poly f s).
Proof.
  intros Hs H. pose proof (not_zero_nil f H) as Hf. apply not_zero_iff in H. destruct H as [x Hx].
  apply not_zero_iff. exists (x / s). rewrite (proj2 (scale_poly_correct f s Hf)).
  replace (s * (x / s)) with x by (field; exact Hs). exact Hx.
Qed.
Lemma not_zero_its f : not_zero f -> not_zero (invert_taylor_shift f).
Proof.
  intros H. pose proof (not_zero_nil f H) as Hf. destruct (not_zero_pos f H) as (x & Hx & Hv).
  apply not_zero_iff. exists (1 / x - 1).
  assert (Hix : 0 < / x) by (apply Rinv_0_lt_compat; exact Hx).
  rewrite (proj2 (invert_taylor_shift_correct f Hf)) by (unfold Rdiv; lra).
  replace (1 / x - 1 + 1) with (/ x) by (unfold Rdiv; lra).
  replace (1 / / x) with x by (field; lra).
  apply Rmult_integral_contrapositive_currified; [apply pow_nonzero; lra|exact Hv].
Qed.

Lemma descartes_length f k : descartes f = S k -> (1 <= porder f)%nat.
Proof.
  rewrite descartes_sv. unfold porder. destruct f as [|a [|b t]]; simpl length; intros H; try lia.
  - discriminate.
  - exfalso. cbn [sv] in H. unfold chg in H. destruct (negb _); simpl in H; discriminate.
Qed.

(* ------------------------------------------------------- Moebius maps *)
Definition mob_valid (M : mobius) : Prop :=
  0 <= ma M /\ 0 <= mb M /\ 0 <= mc M /\ 0 < md M /\ ma M * md M - mb M * mc M <> 0.
Definition mobR (M : mobius) (y : R) : R := (ma M * y + mb M) / (mc M * y + md M).

Lemma mob_den M y : mob_valid M -> 0 <= y -> 0 < mc M * y + md M.
Proof. intros (_ & _ & Hc & Hd & _) Hy. nra. Qed.

Lemma mob_eval_fin M y : mob_valid M -> 0 <= y -> mob_eval M (Fin y) = Fin (mobR M y).
Proof.
  intros HM Hy. pose proof (mob_den M y HM Hy) as Hden. destruct HM as (Ha & Hb & Hc & Hd & Hdet).
  unfold mob_eval, mobR.
  destruct (Reqb_spec (ma M) 0) as [Ea|Ea], (Reqb_spec (mc M) 0) as [Ec|Ec]; cbn [andb negb].
  - exfalso. apply Hdet. rewrite Ea, Ec. ring.
  - f_equal. rewrite Ea. apply (f_equal2 Rdiv); ring.
  - f_equal. rewrite Ec. apply (f_equal2 Rdiv); ring.
  - f_equal. apply (f_equal2 Rdiv); ring.
Qed.

Lemma mob_eval_inf M : mob_valid M ->
  (mc M = 0 /\ 0 < ma M /\ mob_eval M PInf = PInf) \/
  (0 < mc M /\ mob_eval M PInf = Fin (ma M / mc M)).
Proof.
  intros (Ha & Hb & Hc & Hd & Hdet). unfold mob_eval.
  destruct (Reqb_spec (ma M) 0) as [Ea|Ea], (Reqb_spec (mc M) 0) as [Ec|Ec]; cbn [andb negb].
  - exfalso. apply Hdet. rewrite Ea, Ec. ring.
  - right. split; [lra|]. rewrite Ea. f_equal. unfold Rdiv. ring.
  - left. split; [exact Ec|]. split; [lra|]. unfold signbit. cbn [nltb n0 R_num].
    destruct (Rltb_spec (ma M) 0), (Rltb_spec (md M) 0); try lra. reflexivity.
  - right. split; [lra|reflexivity].
Qed.

Definition xlt (a b : xval R) : Prop :=
  match a, b with
  | Fin x, Fin y => x < y
  | NInf, Fin _ => True | Fin _, PInf => True | NInf, PInf => True
  | _, _ => False
  end.
Definition xinside (p : interval) (z : R) : Prop :=
  (xlt (fst p) (Fin z) /\ xlt (Fin z) (snd p)) \/ (xlt (snd p) (Fin z) /\ xlt (Fin z) (fst p)).

Lemma mob_diff0 M y : mob_valid M -> 0 <= y ->
  mobR M y - mb M / md M = (ma M * md M - mb M * mc M) * y / (md M * (mc M * y + md M)).
Proof.
  intros HM Hy. pose proof (mob_den M y HM Hy). destruct HM as (Ha & Hb & Hc & Hd & Hdet).
  unfold mobR. field. lra.
Qed.
Lemma mob_diffinf M y : mob_valid M -> 0 <= y -> 0 < mc M ->
  ma M / mc M - mobR M y = (ma M * md M - mb M * mc M) / (mc M * (mc M * y + md M)).
Proof.
  intros HM Hy Hc'. pose proof (mob_den M y HM Hy). destruct HM as (Ha & Hb & Hc & Hd & Hdet).
  unfold mobR. field. lra.
Qed.

Definition mob_range (M : mobius) (z : R) : Prop := exists y, 0 < y /\ z = mobR M y.

Lemma mob_inj M y1 y2 : mob_valid M -> 0 <= y1 -> 0 <= y2 -> mobR M y1 = mobR M y2 -> y1 = y2.
Proof.
  intros HM H1 H2 E. pose proof (mob_den M y1 HM H1). pose proof (mob_den M y2 HM H2).
  destruct HM as (Ha & Hb & Hc & Hd & Hdet). unfold mobR in E.
  assert (E2 : (ma M * y1 + mb M) * (mc M * y2 + md M) = (ma M * y2 + mb M) * (mc M * y1 + md M)).
  { apply Rmult_eq_reg_r with (/ (mc M * y1 + md M) * / (mc M * y2 + md M)).
    - transitivity ((ma M * y1 + mb M) / (mc M * y1 + md M)); [field; lra|]. rewrite E. field; lra.
    - apply Rmult_integral_contrapositive_currified; apply Rinv_neq_0_compat; lra. }
  assert (E3 : (ma M * md M - mb M * mc M) * (y1 - y2) = 0) by lra.
  apply Rmult_integral in E3. destruct E3; [contradiction|lra].
Qed.

Lemma mob_inside M z : mob_valid M ->
  (xinside (mob_eval M (Fin 0), mob_eval M PInf) z <-> mob_range M z).
Proof.
  intros HM. rewrite mob_eval_fin by (auto; lra).
  replace (mobR M 0) with (mb M / md M) by (unfold mobR; apply (f_equal2 Rdiv); ring).
  pose proof HM as (Ha & Hb & Hc & Hd & Hdet).
  set (D := ma M * md M - mb M * mc M) in *.
  unfold xinside, mob_range. cbn [fst snd].
  destruct (mob_eval_inf M HM) as [(Ec & Hap & ->)|(Hcp & ->)]; cbn [xlt].
  - (* z > b/d *)
    assert (E0 : forall y, mobR M y = (ma M * y + mb M) / md M).
    { intros y. unfold mobR. rewrite Ec. f_equal. f_equal. ring. }
    split.
    + intros [[H _]|[[] _]]. exists ((md M * z - mb M) / ma M). split.
      * apply Rdiv_lt_0_compat; [|exact Hap].
        apply Rmult_lt_compat_l with (r := md M) in H; [|exact Hd].
        replace (md M * (mb M / md M)) with (mb M) in H by (field; lra). lra.
      * rewrite E0. field. lra.
    + intros (y & Hy & ->). left. split; [|exact I]. rewrite E0.
      unfold Rdiv. apply Rmult_lt_compat_r; [apply Rinv_0_lt_compat; exact Hd|]. nra.
  - split.
    + intros H.
      assert (Hz : (mb M / md M < z < ma M / mc M) \/ (ma M / mc M < z < mb M / md M)) by tauto.
      assert (Hn : (md M * z - mb M) * (ma M - mc M * z) > 0).
      { assert (E1 : md M * z - mb M = md M * (z - mb M / md M)) by (field; lra).
        assert (E2 : ma M - mc M * z = mc M * (ma M / mc M - z)) by (field; lra).
        rewrite E1, E2. destruct Hz as [[L1 L2]|[L1 L2]].
        - apply Rmult_gt_0_compat; apply Rmult_lt_0_compat; lra.
        - replace (md M * (z - mb M / md M) * (mc M * (ma M / mc M - z)))
            with ((md M * (mb M / md M - z)) * (mc M * (z - ma M / mc M))) by ring.
          apply Rmult_gt_0_compat; apply Rmult_lt_0_compat; lra. }
      assert (Hne : ma M - mc M * z <> 0) by (intros E; rewrite E in Hn; lra).
      exists ((md M * z - mb M) / (ma M - mc M * z)).
      assert (Hy : 0 < (md M * z - mb M) / (ma M - mc M * z)).
      { replace ((md M * z - mb M) / (ma M - mc M * z))
          with ((md M * z - mb M) * (ma M - mc M * z) * / ((ma M - mc M * z) * (ma M - mc M * z))) by (field; exact Hne).
        apply Rmult_lt_0_compat; [lra|]. apply Rinv_0_lt_compat. nra. }
      split; [exact Hy|].
      pose proof (mob_den M _ HM (Rlt_le _ _ Hy)) as Hden.
      unfold mobR. 
      assert (E3 : mc M * ((md M * z - mb M) / (ma M - mc M * z)) + md M = D / (ma M - mc M * z))
        by (unfold D; field; exact Hne).
      assert (E4 : ma M * ((md M * z - mb M) / (ma M - mc M * z)) + mb M = D * z / (ma M - mc M * z))
        by (unfold D; field; exact Hne).
      rewrite E3, E4. field. auto.
    + intros (y & Hy & ->).
      pose proof (mob_diff0 M y HM ltac:(lra)) as E1. pose proof (mob_diffinf M y HM ltac:(lra) Hcp) as E2.
      fold D in E1, E2.
      pose proof (mob_den M y HM ltac:(lra)) as Hden.
      assert (P1 : 0 < / (md M * (mc M * y + md M))) by (apply Rinv_0_lt_compat, Rmult_lt_0_compat; lra).
      assert (P2 : 0 < / (mc M * (mc M * y + md M))) by (apply Rinv_0_lt_compat, Rmult_lt_0_compat; lra).
      unfold Rdiv in E1 at 2. unfold Rdiv in E2 at 2.
      destruct (Rlt_or_le 0 D) as [L|L].
      * left. assert (0 < D * y * / (md M * (mc M * y + md M))) by (apply Rmult_lt_0_compat; [nra|exact P1]).
        assert (0 < D * / (mc M * (mc M * y + md M))) by (apply Rmult_lt_0_compat; [lra|exact P2]). lra.
      * right. assert (HD : D < 0) by (destruct L; [assumption|contradiction]).
        assert (0 < (- D) * y * / (md M * (mc M * y + md M))) by (apply Rmult_lt_0_compat; [nra|exact P1]).
        assert (0 < (- D) * / (mc M * (mc M * y + md M))) by (apply Rmult_lt_0_compat; [lra|exact P2]). lra.
Qed.

Lemma mob_id_valid : mob_valid mob_id.
Proof. unfold mob_valid, mob_id; simpl. lra. Qed.
Lemma mob_id_R y : mobR mob_id y = y.
Proof. unfold mobR, mob_id; simpl. field. Qed.

Lemma mob_shift_valid M t : mob_valid M -> 0 <= t -> mob_valid (mob_shift M t).
Proof.
  intros (Ha & Hb & Hc & Hd & Hdet) Ht. unfold mob_valid, mob_shift; simpl.
  repeat split; try nra; intros E; apply Hdet; lra.
Qed.
Lemma mob_shift_R M t y : mob_valid M -> 0 <= t -> 0 <= y -> mobR (mob_shift M t) y = mobR M (y + t).
Proof. intros. unfold mobR, mob_shift; simpl. apply (f_equal2 Rdiv); ring. Qed.
Lemma mob_scale_valid M t : mob_valid M -> 0 < t -> mob_valid (mob_scale M t).
Proof.
  intros (Ha & Hb & Hc & Hd & Hdet) Ht. unfold mob_valid, mob_scale; simpl.
  split; [nra|]. split; [nra|]. split; [nra|]. split; [nra|]. intros E; apply Hdet.
  assert (E2 : (ma M * md M - mb M * mc M) * t = 0) by lra. apply Rmult_integral in E2. destruct E2; lra.
Qed.
Lemma mob_scale_R M t y : mobR (mob_scale M t) y = mobR M (t * y).
Proof. unfold mobR, mob_scale; simpl. apply (f_equal2 Rdiv); ring. Qed.
Lemma mob_its_valid M : mob_valid M -> mob_valid (mob_invert_taylor_shift M).
Proof.
  intros (Ha & Hb & Hc & Hd & Hdet). unfold mob_valid, mob_invert_taylor_shift; simpl.
  repeat split; try nra; intros E; apply Hdet; lra.
Qed.
Lemma mob_its_R M y : mob_valid M -> 0 <= y ->
  mobR (mob_invert_taylor_shift M) y = mobR M (1 / (y + 1)).
Proof.
  intros HM Hy. pose proof (mob_den M (1 / (y + 1)) HM) as H1.
  assert (0 <= 1 / (y + 1)) by (apply Rlt_le, Rdiv_lt_0_compat; lra). specialize (H1 H).
  pose proof (mob_den _ y (mob_its_valid M HM) Hy) as H2.
  unfold mobR, mob_invert_taylor_shift in *; simpl in *.
  field. repeat split; lra.
Qed.

(* ------------------------------------------------------- isolation *)
Definition xiso (L : list interval) (Z : R -> Prop) : Prop :=
  (forall z, Z z -> exists p, In p L /\ xinside p z) /\
  (forall p, In p L -> exists z, (Z z /\ xinside p z) /\ forall z', Z z' /\ xinside p z' -> z' = z) /\
  ForallOrdPairs (fun p q => forall z, ~ (xinside p z /\ xinside q z)) L.

Definition xsub (L : list interval) (J : R -> Prop) : Prop :=
  forall p, In p L -> forall z, xinside p z -> J z.

Lemma xiso_ext L Z Z' : (forall z, Z z <-> Z' z) -> xiso L Z -> xiso L Z'.
Proof.
  intros E (H1 & H2 & H3). split; [intros z Hz; apply H1, E, Hz|]. split; [|exact H3].
  intros p Hp. destruct (H2 p Hp) as (z & [Hz Hi] & Hu). exists z.
  split; [split; [apply E, Hz|exact Hi]|]. intros z' [Hz' Hi']. apply Hu. split; [apply E, Hz'|exact Hi'].
Qed.

Lemma FOP_app {A} (P : A -> A -> Prop) l m : ForallOrdPairs P l -> ForallOrdPairs P m ->
  (forall a b, In a l -> In b m -> P a b) -> ForallOrdPairs P (l ++ m).
Proof.
  intros Hl Hm Hlm. induction Hl as [|a t Ha Ht IH]; [exact Hm|]. cbn [app]. constructor.
  - apply Forall_app. split; [exact Ha|]. apply Forall_forall. intros b Hb. apply Hlm; [left; reflexivity|exact Hb].
  - apply IH. intros x y Hx Hy. apply Hlm; [right; exact Hx|exact Hy].
Qed.

Lemma xiso_app L1 L2 Z1 Z2 J1 J2 : xiso L1 Z1 -> xiso L2 Z2 -> xsub L1 J1 -> xsub L2 J2 ->
  (forall z, Z1 z -> J1 z) -> (forall z, Z2 z -> J2 z) -> (forall z, ~ (J1 z /\ J2 z)) ->
  xiso (L1 ++ L2) (fun z => Z1 z \/ Z2 z).
Proof.
  intros (A1 & A2 & A3) (B1 & B2 & B3) S1 S2 ZJ1 ZJ2 HJ. split; [|split].
  - intros z [Hz|Hz]; [destruct (A1 z Hz) as (p & Hp & Hi)|destruct (B1 z Hz) as (p & Hp & Hi)];
      exists p; split; auto; apply in_or_app; auto.
  - intros p Hp. apply in_app_or in Hp. destruct Hp as [Hp|Hp].
    + destruct (A2 p Hp) as (z & [Hz Hi] & Hu). exists z. split; [split; auto|].
      intros z' [[Hz'|Hz'] Hi']; [apply Hu; auto|]. exfalso. apply (HJ z').
      split; [apply (S1 p Hp), Hi'|apply ZJ2, Hz'].
    + destruct (B2 p Hp) as (z & [Hz Hi] & Hu). exists z. split; [split; auto|].
      intros z' [[Hz'|Hz'] Hi']; [|apply Hu; auto]. exfalso. apply (HJ z').
      split; [apply ZJ1, Hz'|apply (S2 p Hp), Hi'].
  - apply FOP_app; auto. intros p q Hp Hq z [H1 H2]. apply (HJ z). split; [apply (S1 p Hp z H1)|apply (S2 q Hq z H2)].
Qed.


(** the precision estimate at 1 is not negative where the polynomial vanishes *)
Lemma precision_nonneg eps f : f <> [] -> 0 <= eps -> pval f 1 = 0 -> 0 <= poly_precision eps f 1.
Proof.
  intros Hf He H1. pose proof (order_length f Hf) as Hl. unfold poly_precision.
  destruct (Nat.eqb_spec (porder f) 0); [cbn [n0 R_num]; lra|].
  match goal with |- context [for_up 1 ?n ?b ?s] =>
    assert (P : (fun i '(sum, xn) => xn = 1 /\ bsum i (fun k => get f k * 1 ^ k) <= sum) (1 + n)%nat (for_up 1 n b s)) end.
  { apply for_up_inv.
    - cbn [bsum]. rewrite nabs_R. rewrite Rabs_R1. split; [reflexivity|]. simpl. lra.
    - intros i [sum xn] Hi [-> Hs]. cbn [nadd nmul R_num]. rewrite !nabs_R, nofnat_INR.
      split; [rewrite Rabs_R1; ring|]. cbn [bsum]. rewrite pow1.
      assert (get f i <= Rabs (get f i)) by apply Rle_abs.
      pose proof (Rabs_pos (get f i)).
      assert (1 <= INR (2 * i + 1)) by (apply (le_INR 1); lia).
      nra. }
  destruct (for_up _ _ _ _) as [sum xn]. destruct P as [_ Hs]. cbn [fst nmul R_num].
  rewrite (pval_bsum_ge (1 + porder f)) in H1 by lia. rewrite H1 in Hs.
  apply Rmult_le_pos; assumption.
Qed.

(* ------------------------------------------------------- sign variations of the reversed list *)
Lemma sv_sign_zero l : forall s, s = 1%Z \/ s = (-1)%Z ->
  (sv s l = O <-> forall i, 0 <= IZR s * get l i).
Proof.
  induction l as [|a t IH]; intros s Hs; cbn [sv].
  - split; [|reflexivity]. intros _ i. rewrite get_nil. lra.
  - assert (G : (forall i, 0 <= IZR s * get (a :: t) i) <-> 0 <= IZR s * a /\ forall i, 0 <= IZR s * get t i).
    { split; [intros H; split; [exact (H O)|intros i; exact (H (S i))]|].
      intros [H0 H1] [|i]; [exact H0|exact (H1 i)]. }
    rewrite G. unfold chg, nxt.
    destruct (rsign_cases a) as [[Ha ->]|[[Ha ->]|[Ha ->]]]; cbn [Z.eqb negb andb].
    + cbn [Nat.add]. rewrite (IH s Hs). subst a. split; [intros H; split; [lra|exact H]|tauto].
    + destruct Hs as [->| ->]; cbn [Z.eqb negb andb Pos.eqb Nat.add].
      * split; [discriminate|]. intros [H _]. lra.
      * rewrite (IH (-1)%Z) by auto. split; [intros H; split; [lra|exact H]|tauto].
    + destruct Hs as [->| ->]; cbn [Z.eqb negb andb Pos.eqb Nat.add].
      * rewrite (IH 1%Z) by auto. split; [intros H; split; [lra|exact H]|tauto].
      * split; [discriminate|]. intros [H _]. lra.
Qed.
Lemma sv_zero l : sv 0 l = O <-> forall i j, 0 <= get l i * get l j.
Proof.
  induction l as [|a t IH]; cbn [sv].
  - split; [|reflexivity]. intros _ i j. rewrite !get_nil. lra.
  - unfold chg, nxt. destruct (rsign_cases a) as [[Ha Es]|[[Ha Es]|[Ha Es]]]; rewrite Es; cbn [Z.eqb negb andb Nat.add].
    + rewrite IH. subst a. split.
      * intros H [|i] [|j]; unfold get; cbn [nth]; try (rewrite ?Rmult_0_l, ?Rmult_0_r; apply Rle_refl).
        apply H.
      * intros H i j. exact (H (S i) (S j)).
    + rewrite (sv_sign_zero t (-1)%Z) by auto. split.
      * intros H i j.
        assert (A : forall i, get (a :: t) i <= 0) by (intros [|k]; [unfold get; cbn [nth]; lra|specialize (H k); change (get (a :: t) (S k)) with (get t k); lra]).
        pose proof (A i). pose proof (A j). nra.
      * intros H i. specialize (H O (S i)). change (get (a :: t) 0) with a in H. change (get (a :: t) (S i)) with (get t i) in H. nra.
    + rewrite (sv_sign_zero t 1%Z) by auto. split.
      * intros H i j.
        assert (A : forall i, 0 <= get (a :: t) i) by (intros [|k]; [unfold get; cbn [nth]; lra|specialize (H k); change (get (a :: t) (S k)) with (get t k); lra]).
        pose proof (A i). pose proof (A j). nra.
      * intros H i. specialize (H O (S i)). change (get (a :: t) 0) with a in H. change (get (a :: t) (S i)) with (get t i) in H. nra.
Qed.
Lemma descartes_rev_0 f : descartes (rev f) = O -> descartes f = O.
Proof.
  rewrite !descartes_sv, !sv_zero. intros H.
  assert (G : forall i, (exists i', get f i = get (rev f) i')).
  { intros i. destruct (Nat.lt_ge_cases i (length f)) as [L|L].
    - exists (length f - S i)%nat. unfold get. rewrite rev_nth by lia. f_equal. lia.
    - exists (length f). rewrite (get_over f) by exact L. rewrite get_over by (rewrite rev_length; lia). reflexivity. }
  intros i j. destruct (G i) as [i' ->], (G j) as [j' ->]. apply H.
Qed.
Lemma lmq_lower_inf f : not_zero f -> LMQ_lower f = Ret PInf -> descartes f = O.
Proof.
  intros Hz E. pose proof (lmq_upper_correct (rev f) (rev_not_zero f Hz)) as P.
  unfold LMQ_lower in E. destruct (LMQ_upper (rev f)) as [[u| |]| | |]; cbn [obind] in E; try (exfalso; exact P); try discriminate.
  destruct P as (_ & _ & P). injection E as E. cbn [xinv] in E.
  destruct (Reqb_spec u 0) as [E0|E0]; [|discriminate]. apply descartes_rev_0, P, E0.
Qed.

(* ------------------------------------------------------- the worker *)
Definition Zof (f : list R) (M : mobius) (z : R) : Prop := exists y, 0 < y /\ pval f y = 0 /\ z = mobR M y.

Lemma descartes_le f : (descartes f <= porder f)%nat.
Proof.
  rewrite descartes_sv. unfold porder. destruct f as [|a t]; [cbn; lia|].
  assert (G : forall l s, (sv s l <= length l)%nat).
  { induction l as [|b l IH]; intros s; cbn [sv length]; [lia|]. specialize (IH (nxt s (rsign b))). destruct (chg _ _); lia. }
  cbn [sv length Nat.pred]. unfold chg. rewrite Bool.andb_false_r. cbn [andb Nat.add]. simpl. specialize (G t (nxt 0 (rsign a))). lia.
Qed.

(** disjoint sets each containing a point of the list [zs]: there are no more sets than points *)
Lemma pick_len {A} (ins : A -> R -> Prop) (L : list A) (Z : R -> Prop) (zs : list R) :
  (forall p, In p L -> exists z, Z z /\ ins p z) ->
  ForallOrdPairs (fun p q => forall z, ~ (ins p z /\ ins q z)) L ->
  (forall z, Z z -> In z zs) -> (length L <= length zs)%nat.
Proof.
  intros H2 H3 Hz.
  assert (Hpre : exists ys, length ys = length L /\ NoDup ys /\ incl ys zs /\
     forall y, In y ys -> exists p, In p L /\ ins p y).
  { induction H3 as [|p L Hp HL IH].
    - exists []. split; [reflexivity|]. split; [constructor|]. split; [intros x []|intros y []].
    - destruct IH as (ys & El & Hnd & Hinc & Hin).
      { intros q Hq. apply H2. right. exact Hq. }
      destruct (H2 p (or_introl eq_refl)) as (z & Hzz & Hi).
      exists (z :: ys). split; [simpl; f_equal; exact El|]. split; [|split].
      + constructor; [|exact Hnd]. intros Hyin. destruct (Hin z Hyin) as (q & Hq & Hqi).
        rewrite Forall_forall in Hp. exact (Hp q Hq _ (conj Hi Hqi)).
      + intros x [<-|Hx]; [|apply Hinc, Hx]. apply Hz, Hzz.
      + intros x [<-|Hx]; [exists p; split; [left; reflexivity|exact Hi]|].
        destruct (Hin x Hx) as (q & Hq & Hqi). exists q. split; [right; exact Hq|exact Hqi]. }
  destruct Hpre as (ys & El & Hnd & Hinc & _).
  pose proof (NoDup_incl_length Hnd Hinc). lia.
Qed.

(** one interval per root: no more intervals than coefficients *)
Lemma xiso_len f M L : not_zero f -> mob_valid M -> xiso L (Zof f M) -> (length L <= porder f)%nat.
Proof.
  intros Hf HM (_ & H2 & H3). destruct (roots_in_exists positive f Hf) as [rs Hrs].
  destruct (descartes_rule f rs Hrs) as [k Hk]. pose proof (descartes_le f) as Hd.
  pose proof (pick_len xinside L (Zof f M) (map (mobR M) rs)) as P. rewrite map_length in P.
  enough (length L <= length rs)%nat by lia. apply P; [|exact H3|].
  - intros p Hp. destruct (H2 p Hp) as (z & H & _). eauto.
  - intros z (y & Hy & Ey & ->). apply in_map. apply (roots_in_In positive f rs y Hrs Hy), Ey.
Qed.

Lemma sv_extend_total {A} cap (m : list A) : forall l, (length l + length m <= cap)%nat ->
  sv_extend cap l m = Ret (l ++ m).
Proof.
  induction m as [|x t IH]; intros l H; cbn [sv_extend length] in *; [rewrite app_nil_r; reflexivity|].
  unfold sv_push. destruct (Nat.ltb_spec (length l) cap); [|lia]. cbn [obind].
  rewrite IH by (rewrite app_length; simpl; lia). rewrite <- app_assoc. reflexivity.
Qed.

Lemma Zof_range f M z : Zof f M z -> mob_range M z.
Proof. intros (y & Hy & _ & ->). exists y. auto. Qed.

Lemma vas_worker_correct eps : 0 <= eps -> forall fuel f M,
  not_zero f -> get f 0 <> 0 -> mob_valid M ->
  match vas_worker fuel eps f M with
  | Ret L => xiso L (Zof f M) /\ xsub L (mob_range M)
  | UB => (31 <= porder f)%nat
  | Throw => False
  | Fuel => True
  end.
Proof.
  intros Heps. induction fuel as [|fu IH]; intros f M Hf H0 HM; cbn [vas_worker]; [exact I|].
  destruct (descartes f) as [|[|d]] eqn:Ed.
  - split; [|intros p []]. split; [|split; [intros p []|constructor]].
    intros z (y & Hy & E & _). exfalso. exact (descartes_0 f Hf Ed y Hy E).
  - pose proof (descartes_length f _ Ed) as Hlen.
    assert (Efn : firstn (porder f) [(mob_eval M (Fin 0), mob_eval M PInf)] = [(mob_eval M (Fin 0), mob_eval M PInf)]).
    { revert Hlen. destruct (porder f); intros Hlen; [lia|cbn [firstn]; rewrite firstn_nil; reflexivity]. }
    rewrite Efn.
    destruct (descartes_1 f Hf Ed) as (r & Hr & _ & Er & Hu).
    split.
    + split; [|split; [|repeat constructor]].
      * intros z Hz. eexists; split; [left; reflexivity|]. apply (mob_inside M z HM). apply (Zof_range f M z Hz).
      * intros p [<-|[]]. exists (mobR M r). split.
        { split; [exists r; auto|]. apply (mob_inside M _ HM). exists r; auto. }
        intros z' [(y & Hy & E & ->) _]. f_equal. apply Hu; assumption.
    + intros p [<-|[]] z Hz. apply (mob_inside M z HM), Hz.
  - pose proof (lmq_lower_correct f Hf) as Plb. pose proof (lmq_lower_inf f Hf) as Pinf.
    destruct (LMQ_lower f) as [[lb0| |]| | |]; cbn [obind]; try exact I; try exact Plb; try (exfalso; exact Plb); [|specialize (Pinf eq_refl); congruence].
    clear Pinf. destruct Plb as [Hlb0 Hno0].
    (* the scaled state *)
    assert (Hst : exists f' M' lb, (if negb (Rltb lb0 16) then (scale_poly f lb0, mob_scale M lb0, 1) else (f, M, lb0)) = (f', M', lb)
      /\ not_zero f' /\ get f' 0 <> 0 /\ mob_valid M' /\ porder f' = porder f /\ 0 < lb
      /\ (forall x, 0 < x -> x <= lb -> pval f' x <> 0)
      /\ (forall z, Zof f' M' z <-> Zof f M z) /\ (forall z, mob_range M' z -> mob_range M z)).
    { destruct (negb (Rltb lb0 16)).
      - exists (scale_poly f lb0), (mob_scale M lb0), 1. split; [reflexivity|].
        destruct (scale_poly_correct f lb0 (not_zero_nil f Hf)) as [El Ev].
        split; [apply not_zero_scale; [lra|exact Hf]|]. split; [rewrite <- pval_at_0, Ev, Rmult_0_r, pval_at_0; exact H0|].
        split; [apply mob_scale_valid; assumption|]. split; [unfold porder; rewrite El; reflexivity|].
        split; [lra|]. split; [intros x Hx Hx1; rewrite Ev; apply Hno0; nra|].
        split.
        + intros z. split; intros (y & Hy & E & ->).
          * exists (lb0 * y). split; [nra|]. rewrite <- Ev. split; [exact E|apply mob_scale_R].
          * exists (y / lb0). split; [apply Rdiv_lt_0_compat; assumption|]. rewrite Ev, mob_scale_R.
            replace (lb0 * (y / lb0)) with y by (field; lra). auto.
        + intros z (y & Hy & ->). exists (lb0 * y). split; [nra|apply mob_scale_R].
      - exists f, M, lb0. repeat (split; [auto; try reflexivity; intros; tauto|]). auto. }
    destruct Hst as (f' & M' & lb & -> & Hf' & H0' & HM' & Hpo & Hlb & Hno & HZ & HJ).
    pose proof (not_zero_nil f' Hf') as Hfn.
    destruct (Rltb_spec lb 1) as [Hlb1|Hlb1]; cbn [negb].
    2:{ (* shift *)
      destruct (shift_function_correct f' lb Hfn) as [El Ev].
      specialize (IH (shift_function f' lb) (mob_shift M' lb) (not_zero_shift f' lb Hf')).
      specialize (IH ltac:(rewrite <- pval_at_0, Ev, Rplus_0_l; apply Hno; lra)).
      specialize (IH (mob_shift_valid M' lb HM' ltac:(lra))).
      destruct (vas_worker fu eps _ _) as [L| | |]; auto.
      - destruct IH as [I1 I2]. split.
        + apply (xiso_ext _ _ _ HZ). revert I1. apply xiso_ext. intros z. split; intros (y & Hy & E & ->).
          * exists (y + lb). split; [lra|]. rewrite <- Ev. split; [exact E|apply mob_shift_R; auto; lra].
          * assert (lb < y) by (destruct (Rle_or_lt y lb); [exfalso; exact (Hno y Hy H E)|assumption]).
            exists (y - lb). split; [lra|]. rewrite Ev, mob_shift_R by (auto; lra).
            replace (y - lb + lb) with y by ring. auto.
        + intros p Hp z Hz. apply HJ. destruct (I2 p Hp z Hz) as (y & Hy & ->). exists (y + lb).
          split; [lra|apply mob_shift_R; auto; lra].
      - rewrite <- Hpo. unfold porder in *. rewrite El in IH. exact IH. }
    destruct (Rltb_spec (100 * poly_precision eps f' 1) (Rabs (poly_eval f' 1))) as [Hsp|Hsp]; cbn [negb].
    2:{ (* double *)
      destruct (scale_poly_correct f' 2 Hfn) as [El Ev].
      specialize (IH (scale_poly f' 2) (mob_scale M' 2) (not_zero_scale f' 2 ltac:(lra) Hf')).
      specialize (IH ltac:(rewrite <- pval_at_0, Ev, Rmult_0_r, pval_at_0; exact H0')).
      specialize (IH (mob_scale_valid M' 2 HM' ltac:(lra))).
      destruct (vas_worker fu eps _ _) as [L| | |]; auto.
      - destruct IH as [I1 I2]. split.
        + apply (xiso_ext _ _ _ HZ). revert I1. apply xiso_ext. intros z. split; intros (y & Hy & E & ->).
          * exists (2 * y). split; [lra|]. rewrite <- Ev. split; [exact E|apply mob_scale_R].
          * exists (y / 2). split; [lra|]. rewrite Ev, mob_scale_R. replace (2 * (y / 2)) with y by field. auto.
        + intros p Hp z Hz. apply HJ. destruct (I2 p Hp z Hz) as (y & Hy & ->). exists (2 * y).
          split; [lra|apply mob_scale_R].
      - rewrite <- Hpo. unfold porder in *. rewrite El in IH. exact IH. }
    (* split at 1 *)
    assert (H1 : pval f' 1 <> 0).
    { intros E. rewrite poly_eval_correct in Hsp by exact Hfn. rewrite E, Rabs_R0 in Hsp.
      pose proof (precision_nonneg eps f' Hfn Heps E). lra. }
    destruct (Reqb_spec (get f' 0) 0) as [E0|_]; [contradiction|].
    cbv beta iota zeta.
    destruct (invert_taylor_shift_correct f' Hfn) as [Eli Evi].
    destruct (shift_unity_correct f' Hfn) as [Els Evs].
    pose proof (IH (invert_taylor_shift f') (mob_invert_taylor_shift M') (not_zero_its f' Hf')) as IA.
    specialize (IA ltac:(rewrite <- pval_at_0, Evi by lra; rewrite Rplus_0_l, pow1, Rmult_1_l; replace (1 / 1) with 1 by field; exact H1)).
    specialize (IA (mob_its_valid M' HM')).
    pose proof (IH (shift_unity f') (mob_shift M' 1) (not_zero_unity f' Hf')) as IB.
    specialize (IB ltac:(rewrite <- pval_at_0, Evs, Rplus_0_l; exact H1)).
    specialize (IB (mob_shift_valid M' 1 HM' ltac:(lra))). clear IH.
    destruct (vas_worker fu eps (invert_taylor_shift f') _) as [L1| | |]; cbn [obind]; auto;
      [|rewrite <- Hpo; unfold porder in *; rewrite Eli in IA; exact IA].
    destruct IA as [A1 A2].
    assert (A1' : xiso L1 (fun z => exists y, 0 < y < 1 /\ pval f' y = 0 /\ z = mobR M' y)).
    { revert A1. apply xiso_ext. intros z. split; intros (y & Hy & E & ->).
      - exists (1 / (y + 1)). rewrite Evi in E by lra. apply Rmult_integral in E.
        destruct E as [E|E]; [exfalso; revert E; apply pow_nonzero; lra|].
        assert (0 < / (y + 1) < 1).
        { split; [apply Rinv_0_lt_compat; lra|]. rewrite <- Rinv_1. apply Rinv_lt_contravar; lra. }
        split; [unfold Rdiv; lra|]. split; [exact E|apply mob_its_R; auto; lra].
      - assert (1 < / y) by (rewrite <- Rinv_1; apply Rinv_lt_contravar; lra).
        exists (/ y - 1). split; [lra|]. rewrite Evi, mob_its_R by (auto; lra).
        replace (/ y - 1 + 1) with (/ y) by ring. replace (1 / / y) with y by (field; lra).
        rewrite E. split; [ring|reflexivity]. }
    assert (A2' : xsub L1 (fun z => exists y, 0 < y < 1 /\ z = mobR M' y)).
    { intros p Hp z Hz. destruct (A2 p Hp z Hz) as (y & Hy & ->). exists (1 / (y + 1)).
      assert (0 < / (y + 1) < 1).
      { split; [apply Rinv_0_lt_compat; lra|]. rewrite <- Rinv_1. apply Rinv_lt_contravar; lra. }
      split; [unfold Rdiv; lra|]. apply mob_its_R; auto; lra. }
    assert (HL1 : (length L1 <= porder f')%nat).
    { pose proof (xiso_len _ _ _ (not_zero_its f' Hf') (mob_its_valid M' HM') A1) as H. unfold porder in *. rewrite Eli in H. exact H. }
    rewrite (@sv_extend_total (xval R * xval R) (porder f') L1 []) by (simpl; exact HL1). cbn [obind app].
    destruct (vas_worker fu eps (shift_unity f') _) as [L2| | |]; cbn [obind]; auto;
      [|rewrite <- Hpo; unfold porder in *; rewrite Els in IB; exact IB].
    destruct IB as [B1 B2].
    assert (B1' : xiso L2 (fun z => exists y, 1 < y /\ pval f' y = 0 /\ z = mobR M' y)).
    { revert B1. apply xiso_ext. intros z. split; intros (y & Hy & E & ->).
      - exists (y + 1). split; [lra|]. rewrite <- Evs. split; [exact E|apply mob_shift_R; auto; lra].
      - exists (y - 1). split; [lra|]. rewrite Evs, mob_shift_R by (auto; lra).
        replace (y - 1 + 1) with y by ring. auto. }
    assert (B2' : xsub L2 (fun z => exists y, 1 < y /\ z = mobR M' y)).
    { intros p Hp z Hz. destruct (B2 p Hp z Hz) as (y & Hy & ->). exists (y + 1).
      split; [lra|]. apply mob_shift_R; auto; lra. }
    assert (HC : xiso (L1 ++ L2) (Zof f' M')).
    { pose proof (xiso_app L1 L2 _ _ _ _ A1' B1' A2' B2') as X.
      assert (X2 := X ltac:(intros z (y & Hy & _ & ->); exists y; auto) ltac:(intros z (y & Hy & _ & ->); exists y; auto)).
      clear X. assert (X3 := X2 ltac:(intros z [(y & Hy & ->) (y' & Hy' & E)]; apply (mob_inj M') in E; [lra|exact HM'|lra|lra])).
      clear X2. revert X3. apply xiso_ext. intros z. split.
      - intros [(y & Hy & E & ->)|(y & Hy & E & ->)]; exists y; split; auto; lra.
      - intros (y & Hy & E & ->). destruct (Rtotal_order y 1) as [L|[->|L]]; [left; exists y|contradiction|right; exists y]; auto. }
    pose proof (xiso_len _ _ _ Hf' HM' HC) as HL. rewrite app_length in HL.
    rewrite (@sv_extend_total (xval R * xval R) (porder f') L2 L1) by exact HL.
    split; [apply (xiso_ext _ _ _ HZ), HC|].
    intros p Hp z Hz. apply HJ. apply in_app_or in Hp. destruct Hp as [Hp|Hp].
    + destruct (A2' p Hp z Hz) as (y & Hy & ->). exists y. split; [lra|reflexivity].
    + destruct (B2' p Hp z Hz) as (y & Hy & ->). exists y. split; [lra|reflexivity].
Qed.

(* ------------------------------------------------------- VAS_real_root_bounds *)
Definition xpair (p : R * R) : interval := (Fin (fst p), Fin (snd p)).

Lemma xinside_pos_shape (p : interval) (z : R) : xinside p z -> (forall x, xinside p x -> 0 < x) ->
  (exists a b, 0 <= a /\ a < b /\ (p = (Fin a, Fin b) \/ p = (Fin b, Fin a))) \/
  (exists a, 0 <= a /\ (p = (Fin a, PInf) \/ p = (PInf, Fin a))).
Proof.
  destruct p as [a b]. unfold xinside. cbn [fst snd]. intros Hz Hp.
  assert (Hpos := Hp z Hz).
  assert (NN : forall (u v : xval R), xlt u (Fin z) -> xlt (Fin z) v -> (forall x, xlt u (Fin x) -> xlt (Fin x) v -> 0 < x) ->
     exists a', u = Fin a' /\ 0 <= a').
  { intros u v Hu Hv Hx. destruct u as [u| |]; cbn [xlt] in *; try contradiction.
    - exists u. split; [reflexivity|]. destruct (Rle_or_lt 0 u) as [L|L]; [exact L|].
      exfalso. assert (Hu2 : u < u / 2) by lra.
      assert (X : xlt (Fin (u / 2)) v) by (destruct v; cbn [xlt] in *; try exact I; try contradiction; lra).
      specialize (Hx _ Hu2 X). lra.
    - exfalso. assert (X : xlt (Fin (-1)) v) by (destruct v; cbn [xlt] in *; try exact I; try contradiction; lra).
      specialize (Hx _ I X). lra. }
  destruct Hz as [[H1 H2]|[H1 H2]].
  - destruct (NN a b H1 H2) as (a' & -> & Ha); [intros x A B; apply Hp; left; split; assumption|].
    destruct b as [b| |]; cbn [xlt] in *; try contradiction.
    + left. exists a', b. split; [exact Ha|]. split; [lra|left; reflexivity].
    + right. exists a'. split; [exact Ha|left; reflexivity].
  - destruct (NN b a H1 H2) as (b' & -> & Hb); [intros x A B; apply Hp; right; split; assumption|].
    destruct a as [a| |]; cbn [xlt] in *; try contradiction.
    + left. exists b', a. split; [exact Hb|]. split; [lra|right; reflexivity].
    + right. exists b'. split; [exact Hb|right; reflexivity].
Qed.

Lemma VAS_fix_shape (u z : R) (p : interval) : xinside p z -> (forall x, xinside p x -> 0 < x) -> z < u ->
  exists q, VAS_fix (Fin u) p = xpair q /\ 0 <= fst q /\ fst q < snd q /\
    (forall x, inside q x -> xinside p x) /\ (forall x, xinside p x -> x < u -> inside q x).
Proof.
  intros Hz Hp Hzu. destruct (xinside_pos_shape p z Hz Hp) as [(a & b & Ha & Hab & [-> | ->])|(a & Ha & [-> | ->])];
    unfold VAS_fix, xinside, inside, xpair in *; cbn [fst snd xltb xlt] in *.
  - destruct (Rltb_spec b a); [lra|]. exists (a, b). cbn [fst snd]. repeat split; intros; lra.
  - destruct (Rltb_spec a b); [|lra]. exists (a, b). cbn [fst snd]. repeat split; intros; lra.
  - exists (a, u). cbn [fst snd]. destruct Hz as [[Hz _]|[[] _]]. repeat split; intros; try lra; tauto.
  - exists (a, u). cbn [fst snd]. destruct Hz as [[[] _]|[Hz _]]. repeat split; intros; try lra; tauto.
Qed.

Lemma VAS_bounds_correct fuel eps f : 0 <= eps -> not_zero f -> get f 0 <> 0 ->
  match VAS_bounds fuel eps f with
  | Ret L => exists L', L = map xpair L' /\
      isolates L' (fun z => 0 < z /\ is_root f z) /\ Forall (fun p => 0 <= fst p /\ fst p < snd p) L' /\
      (length L' <= porder f)%nat
  | UB => (31 <= porder f)%nat
  | Throw => False
  | Fuel => True
  end.
Proof.
  intros He Hf H0. unfold VAS_bounds. pose proof (lmq_upper_correct f Hf) as P.
  destruct (LMQ_upper f) as [[u| |]| | |]; cbn [obind]; auto; try (exfalso; exact P).
  destruct P as (Hu & Hno & Hu0).
  destruct (Reqb_spec u 0) as [E|E].
  - exists []. split; [reflexivity|]. split; [|split; [constructor|simpl; lia]]. split; [|split; [intros p []|constructor]].
    intros z [Hz Ez]. exfalso. exact (Hno z Hz ltac:(lra) Ez).
  - pose proof (vas_worker_correct eps He fuel f mob_id Hf H0 mob_id_valid) as W.
    destruct (vas_worker fuel eps f mob_id) as [L| | |]; cbn [obind]; auto.
    destruct W as [W S].
    pose proof (xiso_len f mob_id L Hf mob_id_valid W) as Hlen.
    assert (EZ : forall z, Zof f mob_id z <-> 0 < z /\ is_root f z).
    { intros z. split.
      - intros (y & Hy & Ey & ->). rewrite mob_id_R. auto.
      - intros [Hz Ez]. exists z. rewrite mob_id_R. auto. }
    apply (xiso_ext _ _ _ EZ) in W.
    assert (S' : forall p, In p L -> forall x, xinside p x -> 0 < x).
    { intros p Hp x Hx. destruct (S p Hp x Hx) as (y & Hy & ->). rewrite mob_id_R. exact Hy. }
    assert (Q : exists L', map (VAS_fix (Fin u)) L = map xpair L' /\
       Forall2 (fun p q => 0 <= fst q /\ fst q < snd q /\ (forall x, inside q x -> xinside p x) /\
          (forall x, xinside p x -> x < u -> inside q x)) L L').
    { destruct W as (_ & W2 & _). clear Hlen S. induction L as [|p L IH].
      - exists []. split; [reflexivity|constructor].
      - destruct IH as (L' & EL & FL); [intros q Hq; apply W2; right; exact Hq|intros q Hq; apply S'; right; exact Hq|].
        destruct (W2 p (or_introl eq_refl)) as (z & [[Hz Ez] Hi] & _).
        assert (z < u) by (destruct (Rlt_or_le z u); [assumption|exfalso; exact (Hno z Hz H Ez)]).
        destruct (VAS_fix_shape u z p Hi (S' p (or_introl eq_refl)) H) as (q & Eq & Hq).
        exists (q :: L'). cbn [map]. rewrite Eq, EL. split; [reflexivity|]. constructor; assumption. }
    destruct Q as (L' & EL & FL). exists L'. split; [exact EL|].
    assert (Hl2 : length L' = length L) by (clear - FL; induction FL; simpl; congruence).
    destruct W as (W1 & W2 & W3).
    split; [|split; [|lia]].
    + split; [|split].
      * intros z [Hz Ez]. destruct (W1 z (conj Hz Ez)) as (p & Hp & Hi).
        assert (z < u) by (destruct (Rlt_or_le z u); [assumption|exfalso; exact (Hno z Hz H Ez)]).
        clear - FL Hp Hi H. induction FL as [|p0 q0 L L' (_ & _ & _ & F) FL IH]; [destruct Hp|].
        destruct Hp as [->|Hp]; [exists q0; split; [left; reflexivity|apply F; assumption]|].
        destruct (IH Hp) as (q & Hq & Hq2). exists q. split; [right; exact Hq|exact Hq2].
      * intros q Hq.
        assert (G : exists p, In p L /\ (forall x, inside q x -> xinside p x) /\ (forall x, xinside p x -> x < u -> inside q x)).
        { clear - FL Hq. induction FL as [|p0 q0 L L' (_ & _ & F1 & F2) FL IH]; [destruct Hq|].
          destruct Hq as [->|Hq]; [exists p0; split; [left; reflexivity|auto]|].
          destruct (IH Hq) as (p & Hp & Hp2). exists p. split; [right; exact Hp|exact Hp2]. }
        destruct G as (p & Hp & G1 & G2). destruct (W2 p Hp) as (z & [[Hz Ez] Hi] & Hun).
        exists z. split.
        { split; [auto|]. apply G2; [exact Hi|]. destruct (Rlt_or_le z u); [assumption|exfalso; exact (Hno z Hz H Ez)]. }
        intros z' [Hz' Hi']. apply Hun. split; [exact Hz'|apply G1, Hi'].
      * clear - FL W3. induction FL as [|p0 q0 L L' (_ & _ & F1 & F2) FL IH]; [constructor|].
        inversion W3 as [|? ? H1 H2]; subst. constructor; [|apply IH, H2].
        clear - FL H1 F1. induction FL as [|p1 q1 L L' (_ & _ & G1 & G2) FL IH]; [constructor|].
        inversion H1 as [|? ? H3 H4]; subst. constructor; [|apply IH, H4].
        intros z [A B]. exact (H3 z (conj (F1 z A) (G1 z B))).
    + clear - FL. induction FL as [|p0 q0 L L' (F1 & F2 & _) FL IH]; constructor; auto.
Qed.

(* ------------------------------------------------------- VCA *)
Definition itsM : mobius := mob_invert_taylor_shift mob_id.
Lemma itsM_valid : mob_valid itsM.
Proof. apply mob_its_valid, mob_id_valid. Qed.
Lemma itsM_R y : 0 <= y -> mobR itsM y = 1 / (y + 1).
Proof. intros Hy. unfold itsM. rewrite mob_its_R by (auto using mob_id_valid). apply mob_id_R. Qed.

(** positive roots of the transformed polynomial = roots in (0,1) *)
Lemma its_roots f z : not_zero f ->
  (Zof (invert_taylor_shift f) itsM z <-> 0 < z < 1 /\ pval f z = 0).
Proof.
  intros Hf. destruct (invert_taylor_shift_correct f (not_zero_nil f Hf)) as [_ Evi]. split.
  - intros (y & Hy & E & ->). rewrite itsM_R by lra. rewrite Evi in E by lra. apply Rmult_integral in E.
    destruct E as [E|E]; [exfalso; revert E; apply pow_nonzero; lra|].
    assert (0 < / (y + 1) < 1).
    { split; [apply Rinv_0_lt_compat; lra|]. rewrite <- Rinv_1. apply Rinv_lt_contravar; lra. }
    split; [unfold Rdiv; lra|exact E].
  - intros [Hz E]. assert (1 < / z) by (rewrite <- Rinv_1; apply Rinv_lt_contravar; lra).
    exists (/ z - 1). split; [lra|]. rewrite Evi, itsM_R by lra.
    replace (/ z - 1 + 1) with (/ z) by ring. replace (1 / / z) with z by (field; lra).
    rewrite E. split; [ring|reflexivity].
Qed.

(** as [isolates], but points satisfying [D] may be missed *)
Definition viso (L : list (R * R)) (Z D : R -> Prop) : Prop :=
  (forall z, Z z -> (exists p, In p L /\ inside p z) \/ D z) /\
  (forall p, In p L -> exists z, (Z z /\ inside p z) /\ forall z', Z z' /\ inside p z' -> z' = z) /\
  ForallOrdPairs (fun p q => forall z, ~ (inside p z /\ inside q z)) L.


Lemma vca_len f L D : not_zero f -> viso L (fun z => 0 < z < 1 /\ pval f z = 0) D ->
  (length L <= porder f)%nat.
Proof.
  intros Hf (_ & H2 & H3). pose proof (not_zero_its f Hf) as Hg.
  destruct (roots_in_exists positive _ Hg) as [rs Hrs].
  destruct (descartes_rule _ rs Hrs) as [k Hk].
  pose proof (descartes_le (invert_taylor_shift f)) as Hd.
  assert (E : porder f = porder (invert_taylor_shift f)).
  { unfold porder. rewrite (proj1 (invert_taylor_shift_correct f (not_zero_nil f Hf))). reflexivity. }
  pose proof (pick_len inside L (fun z => 0 < z < 1 /\ pval f z = 0) (map (mobR itsM) rs)) as P.
  rewrite map_length in P. enough (length L <= length rs)%nat by lia. apply P; [|exact H3|].
  - intros p Hp. destruct (H2 p Hp) as (z & H & _). eauto.
  - intros z Hz. apply (its_roots f z Hf) in Hz. destruct Hz as (y & Hy & Ey & ->).
    apply in_map. apply (roots_in_In positive _ rs y Hrs Hy). exact Ey.
Qed.

Lemma viso_app L1 L2 (Z D Z1 D1 Z2 D2 : R -> Prop) : viso L1 Z1 D1 -> viso L2 Z2 D2 ->
  (forall z, Z z -> Z1 z \/ Z2 z \/ D z) -> (forall z, D1 z -> D z) -> (forall z, D2 z -> D z) ->
  (forall z, Z1 z -> Z z) -> (forall z, Z2 z -> Z z) ->
  (forall p z, In p L1 -> inside p z -> Z z -> Z1 z) ->
  (forall p z, In p L2 -> inside p z -> Z z -> Z2 z) ->
  (forall p q z, In p L1 -> In q L2 -> ~ (inside p z /\ inside q z)) ->
  viso (L1 ++ L2) Z D.
Proof.
  intros (A1 & A2 & A3) (B1 & B2 & B3) HZ HD1 HD2 HZ1 HZ2 I1 I2 Hdis. split; [|split].
  - intros z Hz. destruct (HZ z Hz) as [H|[H|H]]; [| |auto].
    + destruct (A1 z H) as [(p & Hp & Hi)|H']; [left; exists p; split; [apply in_or_app; auto|exact Hi]|right; auto].
    + destruct (B1 z H) as [(p & Hp & Hi)|H']; [left; exists p; split; [apply in_or_app; auto|exact Hi]|right; auto].
  - intros p Hp. apply in_app_or in Hp. destruct Hp as [Hp|Hp].
    + destruct (A2 p Hp) as (z & [Hz Hi] & Hu). exists z. split; [auto|]. intros z' [Hz' Hi']. apply Hu. eauto.
    + destruct (B2 p Hp) as (z & [Hz Hi] & Hu). exists z. split; [auto|]. intros z' [Hz' Hi']. apply Hu. eauto.
  - apply FOP_app; auto.
Qed.

(** affine images *)
Lemma inside_affine (a b : R) p z : 0 < a -> inside (a * fst p + b, a * snd p + b) z <-> inside p ((z - b) / a).
Proof.
  intros Ha. unfold inside. cbn [fst snd].
  assert (E : forall u, u < (z - b) / a <-> a * u + b < z).
  { intros u. split; intros H.
    - apply (Rmult_lt_compat_l a) in H; [|exact Ha]. replace (a * ((z - b) / a)) with (z - b) in H by (field; lra). lra.
    - apply (Rmult_lt_reg_l a); [exact Ha|]. replace (a * ((z - b) / a)) with (z - b) by (field; lra). lra. }
  assert (E' : forall u, (z - b) / a < u <-> z < a * u + b).
  { intros u. split; intros H.
    - apply (Rmult_lt_compat_l a) in H; [|exact Ha]. replace (a * ((z - b) / a)) with (z - b) in H by (field; lra). lra.
    - apply (Rmult_lt_reg_l a); [exact Ha|]. replace (a * ((z - b) / a)) with (z - b) by (field; lra). lra. }
  rewrite !E, !E'. reflexivity.
Qed.
Lemma viso_affine (a b : R) L (Z D : R -> Prop) : 0 < a -> viso L Z D ->
  viso (map (fun p => (a * fst p + b, a * snd p + b)) L) (fun z => Z ((z - b) / a)) (fun z => D ((z - b) / a)).
Proof.
  intros Ha (H1 & H2 & H3). split; [|split].
  - intros z Hz. destruct (H1 _ Hz) as [(p & Hp & Hi)|H]; [left|right; exact H].
    eexists. split; [apply in_map, Hp|]. apply inside_affine; assumption.
  - intros q Hq. apply in_map_iff in Hq. destruct Hq as (p & <- & Hp).
    destruct (H2 p Hp) as (z & [Hz Hi] & Hu). exists (a * z + b).
    assert (E : (a * z + b - b) / a = z) by (field; lra).
    split; [rewrite inside_affine, E by exact Ha; auto|].
    intros z' [Hz' Hi']. apply inside_affine in Hi'; [|exact Ha].
    pose proof (Hu _ (conj Hz' Hi')) as E2. rewrite <- E2. field. lra.
  - clear - H3 Ha. induction H3 as [|p L Hp HL IH]; cbn [map]; constructor; [|exact IH].
    rewrite Forall_forall in *. intros q Hq. apply in_map_iff in Hq. destruct Hq as (r & <- & Hr).
    intros z [A B]. apply inside_affine in A; [|exact Ha]. apply inside_affine in B; [|exact Ha].
    exact (Hp r Hr _ (conj A B)).
Qed.

Lemma vca_double_correct f p1 : not_zero f -> vca_double f = Ret p1 ->
  length p1 = length f /\ forall x, pval p1 x = 2 ^ porder f * pval f (x / 2).
Proof.
  intros Hf. pose proof (order_length f (not_zero_nil f Hf)) as Hl. unfold vca_double.
  destruct (Nat.ltb_spec (porder f) 31); [|discriminate]. intros E. injection E as E.
  assert (P : length p1 = length f /\ forall i, get p1 i = if Nat.ltb i (length f) then get f i * 2 ^ (porder f - i) else get f i).
  { rewrite <- E.
    match goal with |- context [for_up 0 ?n ?b ?s] =>
      assert (P : (fun i p => length p = length f /\ forall j, get p j = if Nat.ltb j i then get f j * 2 ^ (porder f - j) else get f j) (0 + n)%nat (for_up 0 n b s)) end.
    { apply for_up_inv.
      - split; [reflexivity|]. intros j. destruct (Nat.ltb_spec j 0); [lia|reflexivity].
      - intros i p Hi [Hp1 Hp2]. split; [rewrite upd_length; exact Hp1|]. intros j.
        destruct (Nat.eq_dec i j) as [->|N].
        + rewrite get_upd_eq by lia. rewrite Hp2. destruct (Nat.ltb_spec j j); [lia|]. destruct (Nat.ltb_spec j (S j)); [reflexivity|lia].
        + rewrite get_upd_neq by exact N. rewrite Hp2.
          destruct (Nat.ltb_spec j i), (Nat.ltb_spec j (S i)); try lia; reflexivity. }
    cbn [Nat.add] in P. exact P. }
  destruct P as [P1 P2]. split; [exact P1|]. intros x.
  rewrite (pval_bsum_ge (length f) p1) by lia. rewrite (pval_bsum_ge (length f) f) by lia.
  rewrite <- bsum_scal. apply bsum_ext. intros i Hi. rewrite P2.
  destruct (Nat.ltb_spec i (length f)); [|lia].
  replace (2 ^ porder f) with (2 ^ (porder f - i) * 2 ^ i) by (rewrite <- pow_add; f_equal; lia).
  unfold Rdiv. rewrite Rpow_mult_distr, pow_inv.
  field. apply pow_nonzero. lra.
Qed.

(** k/2^n for whole k *)
Definition dyadic (z : R) : Prop := exists n k : nat, z = INR k / 2 ^ n.
Lemma dyadic_half z : dyadic z -> dyadic (z / 2).
Proof. intros (n & k & ->). exists (S n), k. cbn [pow]. field. apply pow_nonzero. lra. Qed.
Lemma dyadic_half1 z : dyadic z -> dyadic (z / 2 + / 2).
Proof.
  intros (n & k & ->). exists (S n), (k + 2 ^ n)%nat. rewrite plus_INR, pow_INR. cbn [pow].
  replace (INR 2) with 2 by (simpl; ring). field. apply pow_nonzero. lra.
Qed.

Lemma vca_worker_correct : forall fuel f, not_zero f ->
  match vca_worker fuel f with
  | Ret L => viso L (fun z => 0 < z < 1 /\ pval f z = 0) dyadic /\
             Forall (fun p => 0 <= fst p /\ fst p < snd p /\ snd p <= 1) L
  | UB => (31 <= porder f)%nat
  | Throw => False
  | Fuel => True
  end.
Proof.
  induction fuel as [|fu IH]; intros f Hf; cbn [vca_worker]; [exact I|].
  pose proof (not_zero_its f Hf) as Hg. unfold budan_01.
  destruct (descartes (invert_taylor_shift f)) as [|[|d]] eqn:Ed.
  - split; [|constructor]. split; [|split; [intros p []|constructor]].
    intros z Hz. apply (its_roots f z Hf) in Hz. destruct Hz as (y & Hy & E & _).
    exfalso. exact (descartes_0 _ Hg Ed y Hy E).
  - pose proof (descartes_length _ _ Ed) as Hlen.
    assert (E : porder f = porder (invert_taylor_shift f)).
    { unfold porder. rewrite (proj1 (invert_taylor_shift_correct f (not_zero_nil f Hf))). reflexivity. }
    assert (Efn : firstn (porder f) [(0, 1)] = [(0, 1)] :> list (R * R)).
    { rewrite E. revert Hlen. destruct (porder (invert_taylor_shift f)); intros Hlen; [lia|cbn [firstn]; rewrite firstn_nil; reflexivity]. }
    rewrite Efn. destruct (descartes_1 _ Hg Ed) as (r & Hr & _ & Er & Hu).
    split; [|constructor; [cbn [fst snd]; lra|constructor]].
    split; [|split; [|repeat constructor]].
    + intros z [Hz _]. left. exists (0, 1). split; [left; reflexivity|]. left. cbn [fst snd]. exact Hz.
    + intros p [<-|[]].
      assert (Hz : 0 < mobR itsM r < 1 /\ pval f (mobR itsM r) = 0) by (apply (its_roots f _ Hf); exists r; auto).
      exists (mobR itsM r). split; [split; [exact Hz|left; cbn [fst snd]; tauto]|].
      intros z' [Hz' _]. apply (its_roots f z' Hf) in Hz'. destruct Hz' as (y & Hy & Ey & ->). f_equal. auto.
  - clear d Ed. pose proof (vca_double_correct f) as Hdb.
    assert (Hub : vca_double f = UB -> (31 <= porder f)%nat).
    { unfold vca_double. destruct (Nat.ltb_spec (porder f) 31); [discriminate|intros _; assumption]. }
    assert (Hnt : vca_double f <> Throw /\ vca_double f <> Fuel) by (unfold vca_double; destruct (Nat.ltb _ _); split; discriminate).
    destruct (vca_double f) as [p1| | |]; cbn [obind]; auto; try (destruct Hnt; congruence).
    destruct (Hdb p1 Hf eq_refl) as [El1 Ev1]. clear Hdb Hub Hnt.
    assert (Hp1 : not_zero p1).
    { destruct (proj1 (not_zero_iff f) Hf) as [x Hx]. apply not_zero_iff. exists (2 * x). rewrite Ev1.
      replace (2 * x / 2) with x by field. apply Rmult_integral_contrapositive_currified; [apply pow_nonzero; lra|exact Hx]. }
    destruct (shift_unity_correct p1 (not_zero_nil p1 Hp1)) as [El2 Ev2].
    pose proof (not_zero_unity p1 Hp1) as Hp2.
    pose proof (IH p1 Hp1) as IA. pose proof (IH (shift_unity p1) Hp2) as IB. clear IH.
    destruct (vca_worker fu p1) as [L1| | |]; cbn [obind]; auto; [|unfold porder in *; rewrite El1 in IA; exact IA].
    destruct (vca_worker fu (shift_unity p1)) as [L2| | |]; cbn [obind]; auto; [|unfold porder in *; rewrite El2, El1 in IB; exact IB].
    destruct IA as [A1 A2], IB as [B1 B2].
    assert (H2 : 2 ^ porder f <> 0) by (apply pow_nonzero; lra).
    (* rewrite the two maps as affine maps *)
    set (h1 := fun p : R * R => (/ 2 * fst p + 0, / 2 * snd p + 0)).
    set (h2 := fun p : R * R => (/ 2 * fst p + / 2, / 2 * snd p + / 2)).
    replace (map (fun '(a, b) => (a / 2, b / 2)) L1) with (map h1 L1)
      by (apply map_ext; intros [a b]; unfold h1; cbn [fst snd]; f_equal; field).
    replace (map (fun '(a, b) => (a / 2 + / 2, b / 2 + / 2)) L2) with (map h2 L2)
      by (apply map_ext; intros [a b]; unfold h2; cbn [fst snd]; f_equal; field).
    assert (R1 : forall p, In p (map h1 L1) -> 0 <= fst p /\ fst p < snd p /\ snd p <= / 2).
    { intros p Hp. apply in_map_iff in Hp. destruct Hp as (q & <- & Hq). rewrite Forall_forall in A2.
      specialize (A2 q Hq). unfold h1. cbn [fst snd]. lra. }
    assert (R2 : forall p, In p (map h2 L2) -> / 2 <= fst p /\ fst p < snd p /\ snd p <= 1).
    { intros p Hp. apply in_map_iff in Hp. destruct Hp as (q & <- & Hq). rewrite Forall_forall in B2.
      specialize (B2 q Hq). unfold h2. cbn [fst snd]. lra. }
    assert (V : viso (map h1 L1 ++ map h2 L2) (fun z => 0 < z < 1 /\ pval f z = 0) dyadic).
    { pose proof (viso_affine (/ 2) 0 L1 _ _ ltac:(lra) A1) as V1.
      pose proof (viso_affine (/ 2) (/ 2) L2 _ _ ltac:(lra) B1) as V2. fold h1 in V1. fold h2 in V2.
      assert (S1 : forall z, 0 < (z - 0) / / 2 < 1 /\ pval p1 ((z - 0) / / 2) = 0 <-> 0 < z < / 2 /\ pval f z = 0).
      { intros z. replace ((z - 0) / / 2) with (2 * z) by field. rewrite Ev1. replace (2 * z / 2) with z by field.
        split; intros [Hz E].
        - apply Rmult_integral in E. destruct E; [contradiction|]. split; [lra|assumption].
        - rewrite E. split; [lra|ring]. }
      assert (S2 : forall z, 0 < (z - / 2) / / 2 < 1 /\ pval (shift_unity p1) ((z - / 2) / / 2) = 0 <-> / 2 < z < 1 /\ pval f z = 0).
      { intros z. rewrite Ev2. replace ((z - / 2) / / 2 + 1) with (2 * z) by field.
        replace ((z - / 2) / / 2) with (2 * z - 1) by field. rewrite Ev1. replace (2 * z / 2) with z by field.
        split; intros [Hz E].
        - apply Rmult_integral in E. destruct E; [contradiction|]. split; [lra|assumption].
        - rewrite E. split; [lra|ring]. }
      refine (viso_app _ _ _ _ _ _ _ _ V1 V2 _ _ _ _ _ _ _ _).
      - intros z [Hz E]. destruct (Rtotal_order z (/ 2)) as [L|[->|L]].
        + left. apply S1. split; [lra|exact E].
        + right; right. exists 1%nat, 1%nat. simpl. field.
        + right; left. apply S2. split; [lra|exact E].
      - intros z Hd. apply dyadic_half in Hd. replace ((z - 0) / / 2 / 2) with z in Hd by field. exact Hd.
      - intros z Hd. apply dyadic_half1 in Hd. replace ((z - / 2) / / 2 / 2 + / 2) with z in Hd by field. exact Hd.
      - intros z Hz. apply S1 in Hz. split; [lra|tauto].
      - intros z Hz. apply S2 in Hz. split; [lra|tauto].
      - intros p z Hp Hi [Hz E]. apply S1. specialize (R1 p Hp). unfold inside in Hi. split; [lra|exact E].
      - intros p z Hp Hi [Hz E]. apply S2. specialize (R2 p Hp). unfold inside in Hi. split; [lra|exact E].
      - intros p q z Hp Hq [I1 I2]. specialize (R1 p Hp). specialize (R2 q Hq). unfold inside in *. lra. }
    pose proof (vca_len f _ _ Hf V) as HL. rewrite app_length in HL.
    rewrite (@sv_extend_total (R * R)) by exact HL.
    split; [exact V|]. apply Forall_app. split; apply Forall_forall; intros p Hp; [specialize (R1 p Hp)|specialize (R2 p Hp)]; lra.
Qed.

(** with two roots inside (0,1), the mid point is in no interval *)
Lemma vca_worker_mid fuel f L z1 z2 : not_zero f -> vca_worker fuel f = Ret L ->
  0 < z1 -> z1 < z2 -> z2 < 1 -> pval f z1 = 0 -> pval f z2 = 0 ->
  forall p, In p L -> ~ inside p (/ 2).
Proof.
  destruct fuel as [|fu]; intros Hf E H1 H12 H2 E1 E2; cbn [vca_worker] in E; [discriminate|].
  pose proof (not_zero_its f Hf) as Hg. unfold budan_01 in E.
  assert (R1 : Zof (invert_taylor_shift f) itsM z1) by (apply its_roots; auto; split; [lra|exact E1]).
  assert (R2 : Zof (invert_taylor_shift f) itsM z2) by (apply its_roots; auto; split; [lra|exact E2]).
  destruct R1 as (y1 & Hy1 & F1 & Z1), R2 as (y2 & Hy2 & F2 & Z2).
  assert (y1 <> y2) by (intros ->; lra).
  destruct (descartes (invert_taylor_shift f)) as [|[|d]] eqn:Ed.
  - exfalso. exact (descartes_0 _ Hg Ed y1 Hy1 F1).
  - exfalso. destruct (descartes_1 _ Hg Ed) as (r & _ & _ & _ & Hu). apply H.
    rewrite (Hu y1 Hy1 F1), (Hu y2 Hy2 F2). reflexivity.
  - apply obind_ret in E. destruct E as (p1 & Ep & E).
    apply obind_ret in E. destruct E as (L1 & EL1 & E).
    apply obind_ret in E. destruct E as (L2 & EL2 & E).
    destruct (vca_double_correct f p1 Hf Ep) as [El1 Ev1].
    assert (Hp1 : not_zero p1).
    { destruct (proj1 (not_zero_iff f) Hf) as [x Hx]. apply not_zero_iff. exists (2 * x). rewrite Ev1.
      replace (2 * x / 2) with x by field. apply Rmult_integral_contrapositive_currified; [apply pow_nonzero; lra|exact Hx]. }
    pose proof (vca_worker_correct fu p1 Hp1) as A. rewrite EL1 in A. destruct A as [_ A].
    pose proof (vca_worker_correct fu _ (not_zero_unity p1 Hp1)) as B. rewrite EL2 in B. destruct B as [_ B].
    assert (EL : L = map (fun '(a, b) => (a / 2, b / 2)) L1 ++ map (fun '(a, b) => (a / 2 + / 2, b / 2 + / 2)) L2).
    { revert E. generalize (map (fun '(a, b) => (a / 2, b / 2)) L1) (map (fun '(a, b) => (a / 2 + / 2, b / 2 + / 2)) L2).
      generalize (porder f). intros cap l m. revert l. induction m as [|x t IHm]; intros l E; cbn [sv_extend] in E.
      - injection E as <-. rewrite app_nil_r. reflexivity.
      - unfold sv_push in E. destruct (Nat.ltb _ _); [|discriminate]. cbn [obind] in E. apply IHm in E. rewrite <- app_assoc in E. exact E. }
    rewrite EL. intros p Hp Hi. unfold inside in Hi. apply in_app_or in Hp. destruct Hp as [Hp|Hp]; apply in_map_iff in Hp;
      destruct Hp as ([a b] & <- & Hq); rewrite Forall_forall in *; [specialize (A _ Hq)|specialize (B _ Hq)]; cbn [fst snd] in *; lra.
Qed.

Lemma VCA_bounds_correct fuel f : not_zero f ->
  match VCA_bounds fuel f with
  | Ret L => Forall (fun p => 0 <= fst p /\ fst p < snd p) L /\ (length L <= porder f)%nat /\
      exists u, LMQ_upper f = Ret (Fin u) /\
        viso L (fun z => 0 < z /\ is_root f z) (fun z => dyadic (z / u))
  | UB => (31 <= porder f)%nat
  | Throw => False
  | Fuel => True
  end.
Proof.
  intros Hf. unfold VCA_bounds. pose proof (lmq_upper_correct f Hf) as P.
  destruct (LMQ_upper f) as [[u| |]| | |]; cbn [obind]; auto; try (exfalso; exact P).
  destruct P as (Hu & Hno & _).
  destruct (Reqb_spec u 0) as [E|E].
  - split; [constructor|]. split; [simpl; lia|]. exists u. split; [reflexivity|].
    split; [|split; [intros p []|constructor]]. intros z [Hz Ez]. exfalso. exact (Hno z Hz ltac:(lra) Ez).
  - assert (Hu' : 0 < u) by (destruct Hu; [assumption|congruence]).
    destruct (scale_poly_correct f u (not_zero_nil f Hf)) as [El Ev].
    pose proof (not_zero_scale f u E Hf) as Hs.
    pose proof (vca_worker_correct fuel _ Hs) as W.
    destruct (vca_worker fuel (scale_poly f u)) as [L| | |]; cbn [obind]; auto;
      [|unfold porder in *; rewrite El in W; exact W].
    destruct W as [W R]. pose proof (vca_len _ _ _ Hs W) as HL.
    replace (map (fun '(a, b) => (a * u, b * u)) L) with (map (fun p => (u * fst p + 0, u * snd p + 0)) L)
      by (apply map_ext; intros [a b]; cbn [fst snd]; f_equal; ring).
    split; [|split].
    + apply Forall_forall. intros q Hq. apply in_map_iff in Hq. destruct Hq as (p & <- & Hp).
      rewrite Forall_forall in R. specialize (R p Hp). cbn [fst snd]. nra.
    + rewrite map_length. unfold porder in *. rewrite El in HL. exact HL.
    + exists u. split; [reflexivity|].
      pose proof (viso_affine u 0 L _ _ Hu' W) as V.
      assert (S : forall z, 0 < (z - 0) / u < 1 /\ pval (scale_poly f u) ((z - 0) / u) = 0 <-> 0 < z /\ is_root f z).
      { intros z. rewrite Ev. replace (u * ((z - 0) / u)) with z by (field; lra). replace ((z - 0) / u) with (z / u) by (f_equal; ring).
        split; intros [Hz Ez]; (split; [|exact Ez]).
        - replace z with (u * (z / u)) by (field; lra). nra.
        - assert (z < u) by (destruct (Rlt_or_le z u); [assumption|exfalso; exact (Hno z Hz H Ez)]).
          split; [apply Rdiv_lt_0_compat; lra|]. apply (Rmult_lt_reg_l u); [lra|]. replace (u * (z / u)) with z by (field; lra). lra. }
      destruct V as (V1 & V2 & V3). split; [|split; [|exact V3]].
      * intros z Hz. apply S in Hz. destruct (V1 z Hz) as [H|H]; [left; exact H|right].
        replace (z / u) with ((z - 0) / u) by (f_equal; ring). exact H.
      * intros p Hp. destruct (V2 p Hp) as (z & [Hz Hi] & Hun). exists z. split; [split; [apply S, Hz|exact Hi]|].
        intros z' [Hz' Hi']. apply Hun. split; [apply S, Hz'|exact Hi'].
Qed.
