(** C61: quadratic factors by the Lin-Bairstow method. *)
From Coq Require Import List Reals Lra Lia Arith.
From Verif Require Import Outcome Num PolyModel PolySpec PolyBase PolyProofs PolyCalc PropPoly Descartes BairstowModel BairstowSpec.
Import ListNotations.
Open Scope R_scope.

(** Horner form of the remainder *)
Fixpoint srem (f : list R) (B C : R) : R * R :=
  match f with
  | [] => (0, 0)
  | a :: t => let '(s, r) := srem t B C in (a - C * r, s - B * r)
  end.
Fixpoint squot (f : list R) (B C : R) : list R :=
  match f with
  | [] => []
  | a :: t => snd (srem t B C) :: squot t B C
  end.
Lemma srem_ok f B C : remainder_is f B C (fst (srem f B C)) (snd (srem f B C)).
Proof.
  exists (squot f B C). intros x. induction f as [|a t IH]; simpl squot; simpl srem.
  - rewrite !pval_nil. simpl. ring.
  - rewrite !pval_cons, IH. destruct (srem t B C) as [s r]. cbn [fst snd]. ring.
Qed.

Fixpoint padd (f g : list R) : list R :=
  match f, g with
  | [], _ => g
  | _, [] => f
  | a :: f', b :: g' => (a + b) :: padd f' g'
  end.
Lemma padd_val f : forall g x, pval (padd f g) x = pval f x + pval g x.
Proof.
  induction f as [|a f IH]; intros [|b g] x; simpl padd; rewrite ?pval_nil, ?pval_cons; try ring. rewrite IH. ring.
Qed.
Lemma scal_val k f x : pval (map (Rmult k) f) x = k * pval f x.
Proof. induction f as [|a f IH]; simpl; rewrite ?pval_nil, ?pval_cons; [ring|]. rewrite IH. ring. Qed.
Lemma srem_padd f B C : forall g, srem (padd f g) B C = (fst (srem f B C) + fst (srem g B C), snd (srem f B C) + snd (srem g B C)).
Proof.
  induction f as [|a f IH]; intros [|b g]; simpl.
  - f_equal; ring.
  - destruct (srem g B C). cbn. f_equal; ring.
  - destruct (srem f B C). cbn. f_equal; ring.
  - rewrite IH. destruct (srem f B C), (srem g B C). cbn. f_equal; ring.
Qed.
Lemma srem_scal k f B C : srem (map (Rmult k) f) B C = (k * fst (srem f B C), k * snd (srem f B C)).
Proof. induction f as [|a f IH]; simpl; [f_equal; ring|]. rewrite IH. destruct (srem f B C). cbn. f_equal; ring. Qed.
Lemma srem_zero f B C : (forall i, get f i = 0) -> srem f B C = (0, 0).
Proof.
  induction f as [|a f IH]; intros Z; [reflexivity|]. simpl. rewrite IH by (intros i; apply (Z (S i))). pose proof (Z 0%nat) as E. unfold get in E. simpl in E. subst. f_equal; ring.
Qed.
Lemma remainder_unique f B C S R' : remainder_is f B C S R' -> srem f B C = (S, R').
Proof.
  intros (q & Hq).
  set (h := padd f (padd (map (Rmult (- C)) q) (padd (map (Rmult (- B)) (0 :: q)) (padd (map (Rmult (-1)) (0 :: 0 :: q)) [- S; - R'])))).
  assert (Z : forall i, get h i = 0).
  { apply pval_zero_pos. intros x _. unfold h. rewrite !padd_val, !scal_val, !pval_cons, !pval_nil, Hq. ring. }
  pose proof (srem_zero h B C Z) as E. unfold h in E. rewrite !srem_padd, !srem_scal in E. simpl in E.
  destruct (srem q B C) as [s r], (srem f B C) as [sf rf]. cbn in E. injection E as E1 E2. f_equal; lra.
Qed.

Lemma pval_all_zero f : (forall i, get f i = 0) -> forall x, pval f x = 0.
Proof. intros Z x. rewrite pval_bsum. apply bsum_zero. intros i _. rewrite Z. ring. Qed.
Lemma get_padd a : forall b j, get (padd a b) j = get a j + get b j.
Proof. induction a as [|u a IH]; intros [|v b] [|j]; unfold get in *; simpl; try ring. apply IH. Qed.
Lemma get_scal k l : forall j, get (map (Rmult k) l) j = k * get l j.
Proof. induction l as [|u l IH]; intros [|j]; unfold get in *; simpl; try ring. apply IH. Qed.
Lemma quad_cancel d B C : (forall y, pval d y * (y ^ 2 + B * y + C) = 0) -> forall x, pval d x = 0.
Proof.
  intros D. apply pval_all_zero.
  set (h := padd (map (Rmult C) d) (padd (map (Rmult B) (0 :: d)) (0 :: 0 :: d))).
  assert (Zh : forall i, get h i = 0).
  { apply pval_zero_pos. intros y _. unfold h. rewrite !padd_val, !scal_val, !pval_cons. specialize (D y). nra. }
  assert (Hh : forall i, get h (S (S i)) = C * get d (S (S i)) + B * get d (S i) + get d i).
  { intros i. unfold h. rewrite !get_padd, !get_scal. unfold get. simpl. ring. }
  assert (G : forall k i, (length d <= i + k)%nat -> get d i = 0).
  { induction k as [|k IHk]; intros i Hi.
    - unfold get. apply nth_overflow. lia.
    - pose proof (Hh i) as Q. rewrite Zh, (IHk (S i)), (IHk (S (S i))) in Q by lia. lra. }
  intros i. apply (G (length d)). lia.
Qed.
Lemma squot_val f B C x : pval f x = pval (squot f B C) x * (x ^ 2 + B * x + C) + snd (srem f B C) * x + fst (srem f B C).
Proof.
  induction f as [|a t IH]; simpl squot; simpl srem.
  - rewrite !pval_nil. simpl. ring.
  - rewrite !pval_cons, IH. destruct (srem t B C) as [s r]. cbn [fst snd]. ring.
Qed.
Lemma quot_unique f q B C S R' : (forall x, pval f x = pval q x * (x ^ 2 + B * x + C) + R' * x + S) ->
  srem f B C = (S, R') /\ forall x, pval q x = pval (squot f B C) x.
Proof.
  intros E. assert (U : srem f B C = (S, R')) by (apply remainder_unique; exists q; auto). split; auto.
  intros x. assert (V : pval (padd q (map (Rmult (-1)) (squot f B C))) x = 0).
  { apply quad_cancel with (B := B) (C := C). intros y. rewrite padd_val, scal_val. pose proof (squot_val f B C y) as Y. rewrite U in Y. cbn [fst snd] in Y. rewrite E in Y. lra. }
  rewrite padd_val, scal_val in V. lra.
Qed.
Lemma srem_ext f g B C : (forall x, pval f x = pval g x) -> srem f B C = srem g B C.
Proof.
  intros E. destruct (quot_unique f (squot g B C) B C (fst (srem g B C)) (snd (srem g B C))) as [-> _].
  - intros x. rewrite E. apply squot_val.
  - now destruct (srem g B C).
Qed.

(** How the remainder changes with C and with B *)
Lemma srem_C f B C h : srem f B (C + h) = (fst (srem f B C) - h * fst (srem (squot f B C) B (C + h)), snd (srem f B C) - h * snd (srem (squot f B C) B (C + h))).
Proof.
  apply remainder_unique. exists (padd (squot f B C) (map (Rmult (- h)) (squot (squot f B C) B (C + h)))). intros x.
  rewrite padd_val, scal_val, (squot_val f B C x). pose proof (squot_val (squot f B C) B (C + h) x) as Q. nra.
Qed.
Lemma srem_B f B C h : srem f (B + h) C = (fst (srem f B C) - h * fst (srem (0 :: squot f B C) (B + h) C), snd (srem f B C) - h * snd (srem (0 :: squot f B C) (B + h) C)).
Proof.
  apply remainder_unique. exists (padd (squot f B C) (map (Rmult (- h)) (squot (0 :: squot f B C) (B + h) C))). intros x.
  rewrite padd_val, scal_val, (squot_val f B C x). pose proof (squot_val (0 :: squot f B C) (B + h) C x) as Q. rewrite pval_cons in Q. nra.
Qed.
Lemma srem_cont_C f B C : continuity_pt (fun c => fst (srem f B c)) C /\ continuity_pt (fun c => snd (srem f B c)) C.
Proof.
  induction f as [|a t [I1 I2]]; simpl.
  - split; apply continuity_pt_const; intros ? ?; reflexivity.
  - split.
    + apply continuity_pt_locally_ext with (f := fun c => a - c * snd (srem t B c)) (a := 1); [lra|intros y _; destruct (srem t B y); reflexivity|].
      apply continuity_pt_minus; [apply continuity_pt_const; intros ? ?; reflexivity|]. apply continuity_pt_mult; [apply derivable_continuous_pt, derivable_pt_id|exact I2].
    + apply continuity_pt_locally_ext with (f := fun c => fst (srem t B c) - B * snd (srem t B c)) (a := 1); [lra|intros y _; destruct (srem t B y); reflexivity|].
      apply continuity_pt_minus; auto. apply continuity_pt_mult; auto. apply continuity_pt_const; intros ? ?; reflexivity.
Qed.
Lemma srem_cont_B f B C : continuity_pt (fun b => fst (srem f b C)) B /\ continuity_pt (fun b => snd (srem f b C)) B.
Proof.
  induction f as [|a t [I1 I2]]; simpl.
  - split; apply continuity_pt_const; intros ? ?; reflexivity.
  - split.
    + apply continuity_pt_locally_ext with (f := fun b => a - C * snd (srem t b C)) (a := 1); [lra|intros y _; destruct (srem t y C); reflexivity|].
      apply continuity_pt_minus; [apply continuity_pt_const; intros ? ?; reflexivity|]. apply continuity_pt_mult; auto. apply continuity_pt_const; intros ? ?; reflexivity.
    + apply continuity_pt_locally_ext with (f := fun b => fst (srem t b C) - b * snd (srem t b C)) (a := 1); [lra|intros y _; destruct (srem t y C); reflexivity|].
      apply continuity_pt_minus; auto. apply continuity_pt_mult; auto. apply derivable_continuous_pt, derivable_pt_id.
Qed.
Lemma deriv_from_quot F G p : (forall h, F (p + h) = F p - h * G (p + h)) -> continuity_pt G p -> derivable_pt_lim F p (- G p).
Proof.
  intros E Cg eps He. destruct (Cg eps He) as (d & Hd & Hc). exists (mkposreal d Hd). intros h Hh Hb. simpl in Hb.
  rewrite E. replace ((F p - h * G (p + h) - F p) / h - - G p) with (- (G (p + h) - G p)) by (field; auto). rewrite Rabs_Ropp.
  unfold R_dist, dist in Hc. simpl in Hc. unfold R_dist in Hc. apply Hc. split.
  - unfold D_x, no_cond. split; auto. lra.
  - replace (p + h - p) with h by ring. auto.
Qed.

(** ** The model *)
Lemma gcd_quadratic f C B q r : f <> [] -> (3 <= length f)%nat -> poly_gcd f [C; B; 1] = Div q r ->
  srem f B C = (get r 0, get r 1) /\ (forall x, pval q x = pval (squot f B C) x) /\ length q = length f.
Proof.
  intros Nf L E. pose proof (C04_division f [C; B; 1] Nf) as D. rewrite E in D. destruct D as (n & Hd & Hr & Lq & Lr & Hv); [discriminate|simpl; auto|].
  assert (n = 2%nat).
  { destruct Hd as [H1 H2]. destruct (lt_eq_lt_dec n 2) as [[?|?]|?]; auto; exfalso.
    - specialize (H2 2%nat ltac:(lia)). simpl in H2. lra.
    - apply H1. apply nth_overflow. simpl. lia. }
  subst n. simpl in Lr. destruct r as [|r0 [|r1 [|]]]; try discriminate.
  destruct (quot_unique f q B C r0 r1) as [A1 A2].
  - intros x. rewrite Hv, !pval_cons, !pval_nil. ring.
  - split; [exact A1|]. split; auto.
Qed.
Lemma gcd_no_inf f C B r : f <> [] -> (3 <= length f)%nat -> poly_gcd f [C; B; 1] <> DivInf r.
Proof.
  intros Nf L E. pose proof (C04_division f [C; B; 1] Nf) as D. rewrite E in D. specialize (D ltac:(discriminate) ltac:(simpl; auto) 2%nat). simpl in D. lra.
Qed.
Lemma step_shape f C B g d0 d1 : (3 <= length f)%nat -> bairstow_step f [C; B; 1] = Ret (g, d0, d1) ->
  g = [C + d0; B + d1; 1] /\ newton_step f B C d0 d1.
Proof.
  intros L E. assert (Nf : f <> []) by (destruct f; simpl in L; [lia|discriminate]). unfold bairstow_step in E.
  destruct (poly_gcd f [C; B; 1]) as [r|p1 rem1] eqn:G1; [discriminate|].
  destruct (gcd_quadratic _ _ _ _ _ Nf L G1) as (S1 & Q1 & L1).
  assert (Np : p1 <> []) by (destruct p1; simpl in L1; [lia|discriminate]).
  destruct (poly_gcd p1 [C; B; 1]) as [r|p2 rem2] eqn:G2; [discriminate|].
  destruct (gcd_quadratic _ _ _ _ _ Np ltac:(lia) G2) as (S2 & _ & _).
  rewrite (srem_ext p1 (squot f B C)) in S2 by auto.
  set (s1 := get rem1 0) in *. set (r1 := get rem1 1) in *. set (s2 := get rem2 0) in *. set (r2 := get rem2 1) in *.
  cbn [neqb nopp nmul nsub nadd ndiv n0 R_num] in E.
  change (get [C; B; 1] 0) with C in E. change (get [C; B; 1] 1) with B in E.
  set (det := - s2 * (B * r2 - s2) - C * r2 * - r2) in *. destruct (Reqb_spec det 0) as [|Nd]; [discriminate|].
  injection E as Eg E0 E1. split; [subst; reflexivity|].
  exists (fun b c => fst (srem f b c)), (fun b c => snd (srem f b c)). split; [intros; apply srem_ok|].
  exists (- s2), (C * r2), (- r2), (B * r2 - s2).
  destruct (srem_cont_C (squot f B C) B C) as [K1 K2]. destruct (srem_cont_B (0 :: squot f B C) B C) as [K3 K4].
  assert (D1 : derivable_pt_lim (fun c => fst (srem f B c)) C (- fst (srem (squot f B C) B C))).
  { apply (deriv_from_quot _ (fun c => fst (srem (squot f B C) B c))); [intros h; now rewrite srem_C|exact K1]. }
  assert (D2 : derivable_pt_lim (fun b => fst (srem f b C)) B (- fst (srem (0 :: squot f B C) B C))).
  { apply (deriv_from_quot _ (fun b => fst (srem (0 :: squot f B C) b C))); [intros h; now rewrite srem_B|exact K3]. }
  assert (D3 : derivable_pt_lim (fun c => snd (srem f B c)) C (- snd (srem (squot f B C) B C))).
  { apply (deriv_from_quot _ (fun c => snd (srem (squot f B C) B c))); [intros h; now rewrite srem_C|exact K2]. }
  assert (D4 : derivable_pt_lim (fun b => snd (srem f b C)) B (- snd (srem (0 :: squot f B C) B C))).
  { apply (deriv_from_quot _ (fun b => snd (srem (0 :: squot f B C) b C))); [intros h; now rewrite srem_B|exact K4]. }
  simpl srem in D2, D4. rewrite S2 in D1, D2, D3, D4. cbn [fst snd] in D1, D2, D3, D4.
  split; [exact D1|]. split; [replace (C * r2) with (- (0 - C * r2)) by ring; exact D2|]. split; [exact D3|].
  split; [replace (B * r2 - s2) with (- (s2 - B * r2)) by ring; exact D4|]. rewrite S1. cbn [fst snd].
  split; [unfold det in Nd; intros X; apply Nd; rewrite <- X; ring|].
  split; subst d0 d1; unfold det; field; fold det; auto.
Qed.

(** Every returned guess was reached by a Newton step no longer than the
    tolerance; the leading coefficient stays 1. *)
Lemma loop_newton n : forall f tol C B g, (3 <= length f)%nat -> bairstow_loop n f tol [C; B; 1] = Ret g ->
  exists C' B' dC dB, g = [C' + dC; B' + dB; 1] /\ newton_step f B' C' dC dB /\ dC ^ 2 + dB ^ 2 <= tol ^ 2.
Proof.
  induction n as [|n IH]; intros f tol C B g L E; cbn [bairstow_loop] in E; [discriminate|].
  destruct (bairstow_step f [C; B; 1]) as [[[g' d0] d1]| | |] eqn:Es; try discriminate. destruct (step_shape _ _ _ _ _ _ L Es) as [-> Nw].
  cbn [nltb nmul nadd R_num] in E. destruct (Rltb (tol * tol) (d0 * d0 + d1 * d1)) eqn:T; [eapply IH; eauto|].
  injection E as <-. apply Rltb_false in T. exists C, B, d0, d1. repeat split; auto. simpl. lra.
Qed.
Theorem C61_newton : forall N f tol C B g, (2 < N)%nat -> length f = S N -> nth N f 0 <> 0 ->
  bairstow N f tol [C; B; 1] = Ret g ->
  exists C' B' dC dB, g = [C' + dC; B' + dB; 1] /\ newton_step f B' C' dC dB /\ dC ^ 2 + dB ^ 2 <= tol ^ 2.
Proof.
  intros [|N] f tol C B g HN L Lead E; [lia|]. cbn [bairstow] in E. destruct (Nat.leb_spec (S N) 2); [lia|].
  cbn [neqb R_num] in E. destruct (Reqb_spec (get f (S N)) n0) as [Z|_]; [exfalso; apply Lead; exact Z|]. eapply loop_newton; [|exact E]. lia.
Qed.
Print Assumptions C61_newton.

(** With tolerance 0 the result is an exact factor. *)
Theorem C61_exact : forall N f C B C2 B2 g2, (2 < N)%nat -> length f = S N -> nth N f 0 <> 0 ->
  bairstow N f 0 [C; B; 1] = Ret [C2; B2; g2] -> g2 = 1 /\ quadratic_factor f B2 C2.
Proof.
  intros N f C B C2 B2 g2 HN L Lead E. destruct (C61_newton _ _ _ _ _ _ HN L Lead E) as (C' & B' & dC & dB & Eg & Nw & T).
  assert (dC = 0) by (simpl in T; nra). assert (dB = 0) by (simpl in T; nra). subst dC dB. rewrite !Rplus_0_r in Eg. injection Eg as -> -> ->. split; auto.
  destruct Nw as (S & R' & Rem & SC & SB & RC & RB & _ & _ & _ & _ & _ & E1 & E2).
  destruct (Rem B' C') as (q & Hq). exists q. intros x. rewrite Hq. assert (S B' C' = 0) by lra. assert (R' B' C' = 0) by lra. rewrite H, H0. ring.
Qed.
Print Assumptions C61_exact.

(** An exact factor given as the guess is returned, whatever the tolerance, if it
    is a simple factor: the remainder R x + S of the cofactor has no root in
    common with the quadratic (S^2 - B R S + C R^2 is their resultant). *)
Theorem C61_fixed_point : forall N f tol C B q, (2 < N)%nat -> length f = S N -> nth N f 0 <> 0 ->
  (forall x, pval f x = pval q x * (x ^ 2 + B * x + C)) ->
  (forall S R', remainder_is q B C S R' -> S ^ 2 - B * R' * S + C * R' ^ 2 <> 0) ->
  bairstow N f tol [C; B; 1] = Ret [C; B; 1].
Proof.
  intros [|N] f tol C B q HN L Lead Hq Simple; [lia|]. cbn [bairstow]. destruct (Nat.leb_spec (S N) 2); [lia|].
  cbn [neqb R_num]. destruct (Reqb_spec (get f (S N)) n0) as [Z|_]; [exfalso; apply Lead; exact Z|].
  change 20%nat with (S 19). generalize 19%nat. intros k. cbn [bairstow_loop].
  assert (Nf : f <> []) by (destruct f; [discriminate|discriminate]). assert (L3 : (3 <= length f)%nat) by lia.
  destruct (quot_unique f q B C 0 0) as [S0 Q0]; [intros x; rewrite Hq; ring|].
  assert (St : bairstow_step f [C; B; 1] = Ret ([C; B; 1], 0, 0)).
  { unfold bairstow_step. destruct (poly_gcd f [C; B; 1]) as [r|p1 rem1] eqn:G1; [exfalso; eapply gcd_no_inf; eauto|].
    destruct (gcd_quadratic _ _ _ _ _ Nf L3 G1) as (S1 & Q1 & L1). rewrite S0 in S1. injection S1 as S1a S1b.
    assert (Np : p1 <> []) by (destruct p1; simpl in L1; [lia|discriminate]).
    destruct (poly_gcd p1 [C; B; 1]) as [r|p2 rem2] eqn:G2; [exfalso; eapply (gcd_no_inf p1); eauto; lia|].
    destruct (gcd_quadratic _ _ _ _ _ Np ltac:(lia) G2) as (S2 & _ & _).
    assert (S2' : srem q B C = (get rem2 0, get rem2 1)) by (rewrite <- S2; apply srem_ext; intros x; rewrite Q0; symmetry; apply Q1).
    pose proof (srem_ok q B C) as RO. rewrite S2' in RO. specialize (Simple _ _ RO).
    rewrite <- S1a, <- S1b. change (get [C; B; 1] 0) with C. change (get [C; B; 1] 1) with B.
    cbn [neqb nopp nmul nsub nadd ndiv n0 R_num].
    match goal with |- context [Reqb ?d 0] => set (det := d) end. destruct (Reqb_spec det 0) as [Zd|Nd].
    - exfalso. apply Simple. rewrite <- Zd. unfold det. cbn [fst snd]. ring.
    - replace ((B * get rem2 1 - get rem2 0) * - 0 - C * get rem2 1 * - 0) with 0 by ring.
      replace (- get rem2 0 * - 0 - - get rem2 1 * - 0) with 0 by ring. unfold Rdiv. rewrite Rmult_0_l, !Rplus_0_r. reflexivity. }
  rewrite St. cbn [nltb nmul nadd R_num]. replace (Rltb (tol * tol) (0 * 0 + 0 * 0)) with false; auto.
  symmetry. apply Rltb_false. nra.
Qed.
Print Assumptions C61_fixed_point.

(** Orders up to 2 are returned as they are. *)
Theorem C61_low_order : forall N f tol guess, (N <= 2)%nat -> length f = S N ->
  exists g, bairstow N f tol guess = Ret g /\ length g = 3%nat /\ same_fun g f.
Proof.
  intros N f tol guess HN L. exists (change_order 2 f). split.
  - destruct N as [|[|[|N]]]; [reflexivity..|lia].
  - split; [unfold change_order; rewrite app_length, firstn_length, repeat_length; lia|]. apply change_order_val. intros i Hi. unfold get. apply nth_overflow. lia.
Qed.
Print Assumptions C61_low_order.

(** With a zero leading coefficient the caller's guess is not used. *)
Theorem C61_guess_dropped : forall N f tol g1 g2, (2 < N)%nat -> nth N f 0 = 0 ->
  bairstow N f tol g1 = bairstow N f tol g2.
Proof.
  intros [|N] f tol g1 g2 HN Z; [lia|]. cbn [bairstow]. destruct (Nat.leb_spec (S N) 2); [lia|]. cbn [neqb R_num].
  destruct (Reqb_spec (get f (S N)) n0) as [_|X]; auto. exfalso. apply X. exact Z.
Qed.
Print Assumptions C61_guess_dropped.

(** x^3 + 2x^2 + x + 2 = (x^2 + 1)(x + 2): the hypotheses hold and the factor is
    returned. *)
Example C61_example : bairstow 3 [2; 1; 2; 1] (/ 10) [1; 0; 1] = Ret [1; 0; 1].
Proof.
  apply C61_fixed_point with (q := [2; 1]); auto; [simpl; lra|intros x; rewrite !pval_cons, !pval_nil; ring|].
  intros S R' H. apply remainder_unique in H. simpl in H. injection H as <- <-. nra.
Qed.
(** a run with exact rationals: from x^2 + 9/10, one step leads closer *)
Example C61_run : exists g, bairstow (H := Q_num) 3 [2; 1; 2; 1]%Q (1 # 1000)%Q [9 # 10; 0; 1]%Q = Ret g.
Proof. eexists. vm_compute. reflexivity. Qed.
