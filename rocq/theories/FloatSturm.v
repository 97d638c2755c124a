(** The region loop of the Sturm mode in doubles: it halves intervals of doubles,
    and each pass gets closer to the end. *)
From Coq Require Import Lia Lra Arith ZArith.
From Flocq Require Import Core Binary Bits Plus_error Sterbenz.
From Verif Require Import FloatModel FloatSpec FloatProofs PropFloat FloatQuad FloatSolver.
Open Scope R_scope.

#[local] Instance dexp_valid : Valid_exp dexp.
Proof. apply FLT_exp_valid. reflexivity. Qed.
#[local] Instance prec53 : Prec_gt_0 53.
Proof. reflexivity. Qed.

(* ------------------------------------------------ sign changes *)
Lemma helper_le c : forall last x, (d_sign_change_helper last c x <= length c)%nat.
Proof.
  induction c as [|p t IH]; intros last x; cbn [d_sign_change_helper length]; [lia|].
  specialize (IH (if negb (Z.eqb (d_sign (d_poly_sub p x)) 0) then d_sign (d_poly_sub p x) else last) x).
  destruct (_ && _)%bool; lia.
Qed.
Lemma changes_le c x : (d_sign_changes c x <= length c - 1)%nat.
Proof.
  destruct c as [|p [|q t]]; cbn [d_sign_changes]; [cbn; lia|lia|].
  cbn [d_sign_change_helper length]. rewrite Bool.andb_false_r. cbn [andb].
  set (nx := if negb (Z.eqb (d_sign (d_poly_sub p x)) 0) then d_sign (d_poly_sub p x) else 0%Z).
  pose proof (helper_le (q :: t) nx x) as H. cbn [d_sign_change_helper length] in H. lia.
Qed.
Lemma chain_length f : length (d_sturm_chain f) = S (porder f).
Proof.
  unfold d_sturm_chain. cbn [length]. f_equal. generalize (poly_derivative (H := D_num) true f). generalize f at 2.
  generalize (porder f). induction n as [|n IH]; intros p q; [reflexivity|]. cbn [d_chain_tail length]. f_equal. apply IH.
Qed.
Lemma changes_order f x : (d_sign_changes (d_sturm_chain f) x <= porder f)%nat.
Proof. pose proof (changes_le (d_sturm_chain f) x). rewrite chain_length in H. lia. Qed.

(* ------------------------------------------------ intervals of doubles *)
Definition mid_ok (m a b : R) : Prop := m - a <= 15 / 16 * (b - a) /\ b - m <= 15 / 16 * (b - a).

Lemma eps_R : fin d_eps /\ dR d_eps = bpow radix2 (-51).
Proof. split; [reflexivity|]. unfold dR. vm_compute. lra. Qed.

Lemma bp1 : bpow radix2 (-951) = bpow radix2 (-51) * bpow radix2 (-900).
Proof. rewrite <- bpow_plus. reflexivity. Qed.

(** the test for a narrow interval is exact *)
Lemma narrow_spec (a b : d64) : fin a -> fin b -> bpow radix2 (-900) <= dR a -> dR a <= dR b -> dR b <= bpow radix2 1000 ->
  d_le (d_abs (d_sub a b)) (d_mul d_eps (d_min (d_abs a) (d_abs b))) = true <-> dR b - dR a <= bpow radix2 (-51) * dR a.
Proof.
  intros Fa Fb L1 L2 L3. pose proof (bpow_gt_0 radix2 (-900)) as P0. pose proof (bpow_gt_0 radix2 (-51)) as P1.
  assert (P2 : bpow radix2 (-51) < 1) by (change 1 with (bpow radix2 0); apply bpow_lt; lia).
  destruct (d_abs_R a Fa) as [Fa' Ea]. destruct (d_abs_R b Fb) as [Fb' Eb]. rewrite Rabs_pos_eq in Ea, Eb by lra.
  assert (Em : d_min (d_abs a) (d_abs b) = d_abs a). { unfold d_min. rewrite d_lt_false; auto. lra. }
  rewrite Em. destruct eps_R as [Fe Ee].
  destruct (mul_R d_eps (d_abs a) Fe Fa') as [Fm E]; [rewrite Ee, Ea, Rabs_pos_eq by nra; nra|].
  rewrite Ee, Ea in E.
  assert (Fmt : generic_format radix2 dexp (bpow radix2 (-51) * dR a)).
  { apply generic_format_FLT.
    assert (Ha : F2R (Float radix2 (Ztrunc (scaled_mantissa radix2 dexp (dR a))) (cexp radix2 dexp (dR a))) = dR a)
      by (symmetry; apply (dR_fmt a)).
    set (M := Ztrunc (scaled_mantissa radix2 dexp (dR a))) in *. set (E0 := cexp radix2 dexp (dR a)) in *.
    exists (Float radix2 M (E0 - 51)).
    - rewrite <- Ha. unfold F2R; cbn [Fnum Fexp]. replace (E0 - 51)%Z with (-51 + E0)%Z by ring. rewrite bpow_plus. ring.
    - cbn [Fnum]. assert (G : Rabs (IZR M) < bpow radix2 53).
      { replace (IZR M) with (scaled_mantissa radix2 dexp (dR a)) by (apply (scaled_mantissa_generic radix2 dexp (dR a) (dR_fmt a))).
        eapply Rlt_le_trans; [apply scaled_mantissa_lt_bpow|]. apply bpow_le. fold E0. unfold E0, cexp, FLT_exp. lia. }
      rewrite <- abs_IZR in G. rewrite <- IZR_Zpower in G by lia. apply lt_IZR in G. exact G.
    - cbn [Fexp]. unfold E0, cexp, FLT_exp. assert ((-899 <= mag radix2 (dR a))%Z); [|lia].
      apply mag_ge_bpow. rewrite Rabs_pos_eq by lra. exact L1. }
  rewrite (rnd_fmt _ Fmt) in E.
  destruct (sub_R a b Fa Fb) as [Fs Es]; [rewrite Rabs_left1 by lra; lra|].
  destruct (d_abs_R _ Fs) as [Fs' Es']. rewrite Es in Es'.
  replace (dR a - dR b) with (- (dR b - dR a)) in Es' by ring. rewrite rnd_opp, Rabs_Ropp, Rabs_pos_eq in Es' by (apply rnd_pos; lra).
  pose proof (d_ge_fin _ _ Fm Fs') as G. unfold d_ge in G. rewrite G, Es', E. clear G.
  split; intros H.
  - destruct (Rle_or_lt (dR b) (2 * dR a)) as [W|W].
    + rewrite <- (rnd_fmt (dR b - dR a)); [exact H|]. apply sterbenz; [typeclasses eauto|apply FLT_exp_monotone|apply dR_fmt|apply dR_fmt|lra].
    + exfalso. assert (dR a <= drnd (dR b - dR a)).
      { rewrite <- (rnd_fmt (dR a) (dR_fmt a)) at 1. apply round_le; [typeclasses eauto|apply valid_rnd_N|lra]. }
      nra.
  - rewrite <- (rnd_fmt _ Fmt). apply round_le; [typeclasses eauto|apply valid_rnd_N|exact H].
Qed.

Lemma eq_of_dR (x y : d64) : fin x -> fin y -> dR x = dR y -> dR x <> 0 -> x = y.
Proof.
  intros Fx Fy E N. destruct x as [s|s|s pl Hp|s m e H]; try discriminate Fx; [exfalso; apply N; reflexivity|].
  destruct y as [s'|s'|s' pl' Hp'|s' m' e' H']; try discriminate Fy; [exfalso; apply N; rewrite E; reflexivity|].
  apply B2R_inj; [reflexivity|reflexivity|exact E].
Qed.

Lemma lt1023 x : 0 <= x -> x <= bpow radix2 1000 -> Rabs x < bpow radix2 1023.
Proof. intros H1 H2. rewrite Rabs_pos_eq by exact H1. eapply Rle_lt_trans; [exact H2|]. apply bpow_lt. lia. Qed.

(** an interval that is not narrow has its midpoint strictly inside *)
Lemma wide_mid (a b : d64) : fin a -> fin b -> bpow radix2 (-900) <= dR a -> dR b <= bpow radix2 1000 ->
  bpow radix2 (-51) * dR a < dR b - dR a ->
  fin (d_mid a b) /\ dR a < dR (d_mid a b) < dR b /\ Rabs (dR (d_mid a b) - (dR a + dR b) / 2) <= (dR b - dR a) / 4.
Proof.
  intros Fa Fb L1 L3 W. pose proof (bpow_gt_0 radix2 (-900)) as P0. pose proof (bpow_gt_0 radix2 (-51)) as P1.
  assert (L2 : dR a < dR b) by nra.
  assert (Ba : Rabs (dR a) < bpow radix2 1023) by (apply lt1023; lra).
  assert (Bb : Rabs (dR b) < bpow radix2 1023) by (apply lt1023; lra).
  destruct (mid_fin a b Fa Fb L2 Ba Bb) as (Fm & _ & _).
  assert (St : dR a < dR (d_mid a b) < dR b).
  { apply (mid_strict a b Fa Fb L2 Ba Bb). exists (succ radix2 dexp (dR a)).
    split; [apply generic_format_succ; [typeclasses eauto|apply dR_fmt]|].
    pose proof (gap_strict (dR a)) as G. split; [lra|].
    rewrite succ_eq_pos by lra.
    pose proof (ulp_FLT_le radix2 (-1074) 53 (dR a)) as U. rewrite Rabs_pos_eq in U by lra.
    specialize (U ltac:(eapply Rle_trans; [|exact L1]; apply bpow_le; lia)).
    assert (E52 : bpow radix2 (-51) = 2 * bpow radix2 (1 - 53)).
    { change (-51)%Z with (1 + (1 - 53))%Z. rewrite bpow_plus. reflexivity. }
    pose proof (bpow_gt_0 radix2 (1 - 53)). nra. }
  split; [exact Fm|]. split; [exact St|]. apply mid_shrinks; assumption.
Qed.

Definition nbetween (u v w : nat) : Prop := (Nat.min u w <= v <= Nat.max u w)%nat.
Definition ndiff (u v : nat) : nat := (Nat.max u v - Nat.min u v)%nat.
Lemma roots_ndiff c a b : d_sturm_roots c a b = ndiff (d_sign_changes c a) (d_sign_changes c b).
Proof. unfold d_sturm_roots, ndiff. lia. Qed.
Lemma ndiff_between u v w : (ndiff u v + ndiff v w = ndiff u w)%nat <-> nbetween u v w.
Proof. unfold ndiff, nbetween. lia. Qed.

(* ------------------------------------------------ the loop *)
Section Loop.
Variable f : list d64.
Variables mn mx : d64.
Hypothesis Hmn : bpow radix2 (-900) <= dR mn.
Hypothesis Hmx : dR mx <= bpow radix2 1000.
Notation chain := (d_sturm_chain f).
Notation V := (d_sign_changes (d_sturm_chain f)).

(** an interval [a,b] of the search whose midpoint m loses count, and which the
    second try (the midpoint of m and b) leaves as it is *)
Definition trap : Prop := exists a b : d64, within mn mx a /\ within mn mx b /\ dR a < dR b /\
  d_mid (d_mid a b) b = b /\ ~ nbetween (V a) (V (d_mid a b)) (V b).

(** how a reported root was found *)
Definition by_bisection (r : d64) : Prop := exists a b : d64,
  within mn mx a /\ within mn mx b /\ dR a < dR b /\ within a b r /\
  d_signbit (d_poly_sub f a) <> d_signbit (d_poly_sub f b) /\ ndiff (V a) (V b) = 1%nat /\
  stops_well (d_poly_sub f) d_default_precision a b r.
Definition by_narrowing (r : d64) : Prop := exists a b : d64,
  within mn mx a /\ within mn mx b /\ within a b r /\ V a <> V b /\
  dR b - dR a <= bpow radix2 (-51) * dR a.
Definition by_losing_count (r : d64) : Prop := exists a b m : d64,
  within mn mx a /\ within mn mx b /\ within a b r /\ within a b m /\ ~ nbetween (V a) (V m) (V b).
Definition certified (r : d64) : Prop := by_bisection r \/ by_narrowing r \/ by_losing_count r.

Definition w0 : R := bpow radix2 (-951).
Definition okreg (j : nat) (g : dregion) : Prop :=
  let '(a, b, k) := g in within mn mx a /\ within mn mx b /\ dR a <= dR b /\
    k = ndiff (V a) (V b) /\ dR b - dR a <= (16 / 15) ^ j * w0.
Definition load (g : dregion) : nat := Nat.max 1 (snd g).
Definition total (gs : list dregion) : nat := fold_right (fun g n => (load g + n)%nat) 0%nat gs.
Definition ksum (gs : list dregion) : nat := fold_right (fun g n => (snd g + n)%nat) 0%nat gs.
Fixpoint cost (js : list nat) (gs : list dregion) : nat :=
  match js, gs with
  | j :: js, g :: gs => (load g * S j + cost js gs)%nat
  | _, _ => 0%nat
  end.

Lemma total_length gs : (length gs <= total gs)%nat.
Proof. induction gs as [|g gs IH]; cbn [length total fold_right]; [lia|]. fold (total gs). unfold load. lia. Qed.

(** what one half of a region does: nothing, a root, or a smaller region *)
Lemma half_spec (a b : d64) j regions retval : within mn mx a -> within mn mx b -> dR a <= dR b ->
  dR b - dR a <= (16 / 15) ^ j * w0 ->
  (length regions + length retval + ndiff (V a) (V b) <= porder f)%nat ->
  let k := ndiff (V a) (V b) in
  (k = 0%nat /\ d_sturm_half f a b k regions retval = Ret (regions, retval)) \/
  (k = 1%nat /\ exists r, by_bisection r /\ d_sturm_half f a b k regions retval = Ret (regions, retval ++ [r])) \/
  ((1 <= k)%nat /\ okreg j (a, b, k) /\ d_sturm_half f a b k regions retval = Ret ((a, b, k) :: regions, retval)).
Proof.
  intros Wa Wb Hab Hw Hc k. pose proof (bpow_gt_0 radix2 (-900)) as P0.
  assert (OK : okreg j (a, b, k)) by (repeat (split; [assumption|]); split; [reflexivity|exact Hw]).
  assert (PR : (1 <= k)%nat -> d_push_region (porder f) regions (a, b, k) = Ret ((a, b, k) :: regions)).
  { intros Hk. unfold d_push_region. fold k in Hc. rewrite (proj2 (Nat.ltb_lt _ _)); [reflexivity|lia]. }
  assert (PV : (1 <= k)%nat -> forall r, d_push (porder f) retval r = Ret (retval ++ [r])).
  { intros Hk r. unfold d_push. fold k in Hc. rewrite (proj2 (Nat.ltb_lt _ _)); [reflexivity|lia]. }
  destruct k as [|[|k']] eqn:Ek.
  - left. split; reflexivity.
  - specialize (PR (le_n _)). specialize (PV (le_n _)). cbn [d_sturm_half].
    destruct (Bool.bool_dec (d_signbit (d_poly_sub f a)) (d_signbit (d_poly_sub f b))) as [Es|Es].
    + right; right. split; [lia|]. split; [exact OK|]. unfold d_bisection.
      rewrite Es, Bool.eqb_reflx. destruct (_ || _ || _)%bool; rewrite PR; reflexivity.
    + right; left. split; [reflexivity|].
      assert (Hlt : dR a < dR b).
      { destruct Hab as [H|H]; [exact H|]. exfalso. assert (a = b) as ->; [|congruence].
        apply eq_of_dR; [apply Wa|apply Wb|exact H|]. destruct Wa as (_ & ? & _). lra. }
      destruct (C67_bisection (d_poly_sub f) d_default_precision a b) as (x & tr & E & I & Wt & _ & St); auto.
      * apply Wa.
      * apply Wb.
      * destruct Wa as (_ & ? & ?). apply lt1023; lra.
      * destruct Wb as (_ & ? & ?). apply lt1023; lra.
      * exists x. split.
        -- exists a, b. rewrite Forall_forall in Wt. repeat (split; [first [assumption|exact (Wt x I)]|]). exact St.
        -- rewrite E, PV. reflexivity.
  - right; right. split; [lia|]. split; [exact OK|]. cbn [d_sturm_half]. rewrite PR by lia. reflexivity.
Qed.

Lemma wid_step j x y : x <= 15 / 16 * y -> y <= (16 / 15) ^ S j * w0 -> x <= (16 / 15) ^ j * w0.
Proof. cbn [pow]. intros H1 H2. lra. Qed.

Hypothesis NoTrap : ~ trap.
Definition clean : Prop := forall a m b : d64, within mn mx a -> within mn mx b -> within a b m -> nbetween (V a) (V m) (V b).

Lemma extend_repeat (retval : list d64) x k : (length retval + k <= porder f)%nat ->
  d_extend (porder f) retval (repeat x k) = Ret (retval ++ repeat x k).
Proof.
  revert retval. induction k as [|k IH]; intros retval H; cbn [repeat d_extend]; [rewrite app_nil_r; reflexivity|].
  unfold d_push. rewrite (proj2 (Nat.ltb_lt _ _)) by lia. cbn [obind]. rewrite IH by (rewrite app_length; cbn [length]; lia).
  rewrite <- app_assoc. reflexivity.
Qed.

Lemma half_load k : (k = 0 \/ Nat.max 1 k = k)%nat.
Proof. lia. Qed.

Lemma loop_ok : forall n js regions retval,
  Forall2 okreg js regions -> (cost js regions <= n)%nat ->
  (length retval + total regions <= porder f)%nat -> Forall certified retval ->
  exists L, (forall fuel, (n < fuel)%nat -> d_sturm_loop fuel f chain regions retval = Ret L) /\
    (length L <= porder f)%nat /\ Forall certified L /\
    (clean -> length L = (length retval + ksum regions)%nat).
Proof.
  induction n as [n IH] using lt_wf_ind. intros js regions retval Hok Hcost Hcap Hcert.
  inversion Hok as [|j g js' gs Hg Hgs]; subst.
  { exists retval. split; [|split; [cbn in Hcap; lia|split; [exact Hcert|cbn; lia]]].
    intros [|fu] Hfu; [lia|reflexivity]. }
  destruct g as [[a b] k]. destruct Hg as (Wa & Wb & Hab & Hk & Hw).
  cbn [cost] in Hcost. cbn [total fold_right] in Hcap. fold (total gs) in Hcap. unfold load in Hcost, Hcap. cbn [snd] in Hcost, Hcap.
  assert (Hn : exists n', n = S n' /\ (Nat.max 1 k * j + cost js' gs <= n')%nat) by (exists (n - 1)%nat; nia).
  destruct Hn as (n' & -> & Hn'). pose proof (total_length gs) as TL.
  pose proof (bpow_gt_0 radix2 (-900)) as P0. pose proof (bpow_gt_0 radix2 (-51)) as P1.
  destruct Wa as (Fa & La1 & La2) eqn:EWa; clear EWa. destruct Wb as (Fb & Lb1 & Lb2) eqn:EWb; clear EWb.
  pose proof (narrow_spec a b Fa Fb ltac:(lra) Hab ltac:(lra)) as NS.
  assert (KS : ksum ((a, b, k) :: gs) = (k + ksum gs)%nat) by reflexivity.
  destruct (d_le (d_abs (d_sub a b)) (d_mul d_eps (d_min (d_abs a) (d_abs b)))) eqn:EN.
  - (* narrow *)
    pose proof (proj1 NS eq_refl) as Nar.
    assert (CM : k <> 0%nat -> certified (d_mid a b)).
    { intros Hk0. assert (NV : V a <> V b) by (intros E; apply Hk0; rewrite Hk, E; unfold ndiff; lia).
      destruct Hab as [Hlt|Heq]; [|exfalso; apply NV; assert (a = b) as ->; [apply eq_of_dR; auto; lra|reflexivity]].
      right; left. exists a, b. split; [assumption|]. split; [assumption|]. split; [|split; [exact NV|exact Nar]].
      destruct (mid_fin a b Fa Fb Hlt) as (Fm & _ & M); [apply lt1023; lra|apply lt1023; lra|]. split; [exact Fm|exact M]. }
    destruct (IH n' ltac:(lia) js' gs (retval ++ repeat (d_mid a b) k)) as (L & E & L1 & L2 & L3).
    + exact Hgs.
    + lia.
    + rewrite app_length, repeat_length. lia.
    + apply Forall_app. split; [exact Hcert|]. apply Forall_forall. intros x Hx. pose proof (repeat_spec _ _ _ Hx) as ->. apply CM. destruct k; [destruct Hx|lia].
    + exists L. split; [|split; [exact L1|split; [exact L2|]]].
      * intros [|fu] Hfu; [lia|]. cbn [d_sturm_loop]. rewrite EN. fold (d_mid a b). rewrite extend_repeat by lia. cbn [obind]. apply E. lia.
      * intros C. rewrite (L3 C), app_length, repeat_length. cbn [ksum fold_right snd]. fold (ksum gs). lia.
  - (* wide *)
    assert (Wd : bpow radix2 (-51) * dR a < dR b - dR a).
    { apply Rnot_le_lt. intros H. apply NS in H. discriminate. }
    destruct (wide_mid a b Fa Fb ltac:(lra) ltac:(lra) Wd) as (Fm & Mm & Sh). apply Rabs_le_inv in Sh.
    assert (Wm : within a b (d_mid a b)) by (split; [exact Fm|lra]).
    assert (Wm' : within mn mx (d_mid a b)) by (split; [exact Fm|lra]).
    (* the region's level is positive *)
    assert (Hj : exists j', j = S j').
    { destruct j as [|j']; [|eauto]. exfalso. cbn [pow] in Hw. unfold w0 in Hw. rewrite bp1 in Hw. nra. }
    destruct Hj as [j' ->].
    (* what happens once the dividing point is known *)
    assert (Split : forall m, within mn mx m -> dR a <= dR m <= dR b -> mid_ok (dR m) (dR a) (dR b) ->
      (ndiff (V a) (V m) + ndiff (V m) (V b) = k)%nat ->
      exists L, (forall fu, (n' < fu)%nat ->
        (do s <- d_sturm_half f a m (ndiff (V a) (V m)) gs retval;
         let '(regions, retval) := s in
         do s <- d_sturm_half f m b (ndiff (V m) (V b)) regions retval;
         let '(regions, retval) := s in d_sturm_loop fu f chain regions retval) = Ret L) /\
        (length L <= porder f)%nat /\ Forall certified L /\
        (clean -> length L = (length retval + ksum ((a, b, k) :: gs))%nat)).
    { intros m Wmm Hm [S1 S2] HK.
      set (k1 := ndiff (V a) (V m)) in *. set (k2 := ndiff (V m) (V b)) in *.
      assert (X1 := half_spec a m j' gs retval Wa Wmm (proj1 Hm) (wid_step _ _ _ S1 Hw)).
      fold k1 in X1. cbv zeta in X1. specialize (X1 ltac:(lia)).
      assert (HX : exists gs1 rv1 js1, d_sturm_half f a m k1 gs retval = Ret (gs1, rv1) /\ Forall2 okreg js1 gs1 /\ Forall certified rv1 /\
        (length rv1 + total gs1 = length retval + total gs + k1)%nat /\ (length rv1 + ksum gs1 = length retval + ksum gs + k1)%nat /\
        (cost js1 gs1 <= cost js' gs + k1 * S j')%nat).
      { destruct X1 as [(Z & E)|[(Z & r & Cr & E)|(Z & O & E)]].
        - exists gs, retval, js'. rewrite Z in *. repeat (split; [first [assumption|lia]|]). lia.
        - exists gs, (retval ++ [r]), js'. split; [exact E|]. split; [exact Hgs|]. split; [apply Forall_app; split; [exact Hcert|constructor; [left; exact Cr|constructor]]|].
          rewrite app_length, Z. cbn [length]. repeat split; lia.
        - exists ((a, m, k1) :: gs), retval, (j' :: js'). split; [exact E|]. split; [constructor; assumption|]. split; [exact Hcert|].
          cbn [total ksum fold_right cost]. fold (total gs) (ksum gs). unfold load. cbn [snd]. rewrite Nat.max_r by lia. repeat split; lia. }
      destruct HX as (gs1 & rv1 & js1 & E1 & O1 & C1 & T1 & K1 & Co1).
      pose proof (total_length gs1) as TL1.
      assert (X2 := half_spec m b j' gs1 rv1 Wmm Wb (proj2 Hm) (wid_step _ _ _ S2 Hw)).
      fold k2 in X2. cbv zeta in X2. specialize (X2 ltac:(lia)).
      assert (HX : exists gs2 rv2 js2, d_sturm_half f m b k2 gs1 rv1 = Ret (gs2, rv2) /\ Forall2 okreg js2 gs2 /\ Forall certified rv2 /\
        (length rv2 + total gs2 = length rv1 + total gs1 + k2)%nat /\ (length rv2 + ksum gs2 = length rv1 + ksum gs1 + k2)%nat /\
        (cost js2 gs2 <= cost js1 gs1 + k2 * S j')%nat).
      { destruct X2 as [(Z & E)|[(Z & r & Cr & E)|(Z & O & E)]].
        - exists gs1, rv1, js1. rewrite Z in *. repeat (split; [first [assumption|lia]|]). lia.
        - exists gs1, (rv1 ++ [r]), js1. split; [exact E|]. split; [exact O1|]. split; [apply Forall_app; split; [exact C1|constructor; [left; exact Cr|constructor]]|].
          rewrite app_length, Z. cbn [length]. repeat split; lia.
        - exists ((m, b, k2) :: gs1), rv1, (j' :: js1). split; [exact E|]. split; [constructor; assumption|]. split; [exact C1|].
          cbn [total ksum fold_right cost]. fold (total gs1) (ksum gs1). unfold load. cbn [snd]. rewrite Nat.max_r by lia. repeat split; lia. }
      destruct HX as (gs2 & rv2 & js2 & E2 & O2 & C2 & T2 & K2 & Co2).
      destruct (IH n' ltac:(lia) js2 gs2 rv2 O2) as (L & E & L1 & L2 & L3); [nia|lia|exact C2|].
      exists L. split; [|split; [exact L1|split; [exact L2|]]].
      - intros fu Hfu. rewrite E1. cbn [obind]. rewrite E2. cbn [obind]. apply E. exact Hfu.
      - intros C. rewrite (L3 C). cbn [ksum fold_right snd]. fold (ksum gs). lia. }
    (* the first midpoint *)
    destruct (Nat.eq_dec (ndiff (V a) (V (d_mid a b)) + ndiff (V (d_mid a b)) (V b)) k) as [Eq|Ne].
    + destruct (Split (d_mid a b) Wm' ltac:(lra) ltac:(unfold mid_ok; lra) Eq) as (L & E & R).
      exists L. split; [|exact R]. intros [|fu] Hfu; [lia|]. cbn [d_sturm_loop]. rewrite EN. fold (d_mid a b). cbv zeta.
      rewrite !roots_ndiff, Eq, Nat.eqb_refl. cbn [negb]. rewrite Eq, Nat.eqb_refl. cbn [negb]. apply E. lia.
    + assert (NB : ~ nbetween (V a) (V (d_mid a b)) (V b)) by (intros B; apply ndiff_between in B; congruence).
      destruct (mid_fin (d_mid a b) b Fm Fb (proj2 Mm)) as (Fm2 & _ & M2); [apply lt1023; lra|apply lt1023; lra|].
      assert (Lost : exists L, (forall fu, (n' < fu)%nat ->
          (do retval <- d_push (porder f) retval (d_mid a b); d_sturm_loop fu f chain gs retval) = Ret L) /\
        (length L <= porder f)%nat /\ Forall certified L /\
        (clean -> length L = (length retval + ksum ((a, b, k) :: gs))%nat)).
      { destruct (IH n' ltac:(lia) js' gs (retval ++ [d_mid a b])) as (L & E & L1 & L2 & L3).
        - exact Hgs.
        - lia.
        - rewrite app_length. cbn [length]. lia.
        - apply Forall_app. split; [exact Hcert|]. constructor; [|constructor]. right; right.
          exists a, b, (d_mid a b). repeat (split; [assumption|]). exact NB.
        - exists L. split; [|split; [exact L1|split; [exact L2|]]].
          + intros fu Hfu. unfold d_push. rewrite (proj2 (Nat.ltb_lt _ _)) by lia. cbn [obind]. apply E. exact Hfu.
          + intros C. exfalso. apply NB, C; assumption. }
      destruct (Nat.eq_dec (ndiff (V a) (V (d_mid (d_mid a b) b)) + ndiff (V (d_mid (d_mid a b) b)) (V b)) k) as [Eq2|Ne2].
      * assert (N1 : dR (d_mid (d_mid a b) b) <> dR (d_mid a b)).
        { intros H. apply eq_of_dR in H; auto; [|lra]. rewrite H in Eq2. contradiction. }
        assert (N2 : dR (d_mid (d_mid a b) b) <> dR b).
        { intros H. apply eq_of_dR in H; auto; [|lra]. apply NoTrap. exists a, b. repeat (split; [first [assumption|lra]|]). exact NB. }
        pose proof (mid_shrinks (d_mid a b) b Fm Fb (proj2 Mm)) as Sh2. specialize (Sh2 ltac:(apply lt1023; lra) ltac:(apply lt1023; lra) ltac:(lra)).
        apply Rabs_le_inv in Sh2.
        destruct (Split (d_mid (d_mid a b) b)) as (L & E & R); [split; [exact Fm2|lra]|lra|unfold mid_ok; lra|exact Eq2|].
        exists L. split; [|exact R]. intros [|fu] Hfu; [lia|]. cbn [d_sturm_loop]. rewrite EN. fold (d_mid a b). cbv zeta.
        rewrite !roots_ndiff. rewrite (proj2 (Nat.eqb_neq _ _) Ne). cbn [negb]. fold (d_mid (d_mid a b) b).
        rewrite Eq2, Nat.eqb_refl. cbn [negb]. apply E. lia.
      * destruct Lost as (L & E & R). exists L. split; [|exact R]. intros [|fu] Hfu; [lia|]. cbn [d_sturm_loop]. rewrite EN. fold (d_mid a b). cbv zeta.
        rewrite !roots_ndiff. rewrite (proj2 (Nat.eqb_neq _ _) Ne). cbn [negb]. fold (d_mid (d_mid a b) b).
        rewrite (proj2 (Nat.eqb_neq _ _) Ne2). cbn [negb]. apply E. lia.
Qed.
End Loop.
