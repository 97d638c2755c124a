(** Closed-form solvers of orders 1, 2 and 3. *)
From Verif Require Import PolyCalc RootsModel RootSpec Descartes LMQ NumericProofs Isolate.
Open Scope R_scope.

Lemma pval2 a b x : pval [a; b] x = a + b * x.
Proof. rewrite !pval_cons, pval_nil. ring. Qed.
Lemma pval3 a b c x : pval [a; b; c] x = a + b * x + c * x * x.
Proof. rewrite !pval_cons, pval_nil. ring. Qed.
Lemma pval4 a b c d x : pval [a; b; c; d] x = a + b * x + c * x * x + d * x * x * x.
Proof. rewrite !pval_cons, pval_nil. ring. Qed.

Lemma linear_correct a b : [a; b] <> [0; 0] -> exactly_roots [a; b] (solve_linear [a; b]) /\ increasing (solve_linear [a; b]).
Proof.
  intros Hn. unfold solve_linear. cbn [get nth n0 R_num].
  destruct (Reqb_spec b 0) as [->|E]; cbn [negb].
  - split; [|constructor]. intros x. unfold is_root. rewrite pval2. split; [intros []|]. intros E.
    exfalso. apply Hn. f_equal. lra.
  - split; [|repeat constructor]. intros x. unfold is_root. rewrite pval2. simpl. split.
    + intros [<-|[]]. field. exact E.
    + intros H. left. apply (Rmult_eq_reg_l b); [|exact E]. field_simplify; [lra|exact E].
Qed.

Lemma copysign_cases m s : 0 <= m -> (0 <= s /\ copysign m s = m) \/ (s < 0 /\ copysign m s = - m).
Proof. intros. unfold copysign. destruct (Rltb_spec s 0); [right|left]; split; try reflexivity; lra. Qed.

Lemma nd2 a b : a <= b -> nondecreasing [a; b].
Proof. intros H. constructor; [constructor; [constructor|constructor]|constructor; [exact H|constructor]]. Qed.
Lemma inc2 a b : a < b -> increasing [a; b].
Proof. intros H. constructor; [constructor; [constructor|constructor]|constructor; [exact H|constructor]]. Qed.
Lemma two_sorted a b : a <> b -> increasing (if Rltb b a then [b; a] else [a; b]).
Proof. intros N. destruct (Rltb_spec b a); apply inc2; lra. Qed.
Lemma two_In (a b x : R) : In x (if Rltb b a then [b; a] else [a; b]) <-> x = a \/ x = b.
Proof. destruct (Rltb b a); simpl; intuition. Qed.

(** monic quadratic *)
Lemma quad_monic f0 f1 : f0 <> 0 -> forall arg, arg = f1 * f1 - 4 * f0 -> 0 < arg ->
  let r1 := - (f1 + copysign (sqrt arg) f1) * (/ 2) in
  let r2 := f0 / r1 in
  r1 <> 0 /\ r1 <> r2 /\ forall x, f0 + f1 * x + x * x = (x - r1) * (x - r2).
Proof.
  intros H0 arg Ea Hp r1 r2. pose proof (sqrt_sqrt arg ltac:(lra)) as Hs. pose proof (sqrt_lt_R0 arg Hp) as Hsp.
  set (s := sqrt arg) in *.
  assert (E : r1 * r1 + f1 * r1 + f0 = 0 /\ r1 <> 0 /\ (2 * r1 + f1) * (2 * r1 + f1) = arg).
  { unfold r1. destruct (copysign_cases s f1 ltac:(lra)) as [[Hf ->]|[Hf ->]].
    - split; [field_simplify; nra|]. split; [lra|field_simplify; nra].
    - split; [field_simplify; nra|]. split; [lra|field_simplify; nra]. }
  destruct E as (E & N & D). split; [exact N|].
  assert (E2 : r2 = - f1 - r1).
  { unfold r2. apply (Rmult_eq_reg_l r1); [|exact N]. replace (r1 * (f0 / r1)) with f0 by (field; exact N). lra. }
  split.
  - intros E3. rewrite E2 in E3. assert (2 * r1 + f1 = 0) by lra. rewrite H in D. lra.
  - intros x. rewrite E2. nra.
Qed.

Lemma div0_3 a b c d : poly_div0 [a; b; c] d = [0 + a / d; 0 + b / d; 0 + c / d].
Proof. reflexivity. Qed.
Lemma div0_4 a b c e d : poly_div0 [a; b; c; e] d = [0 + a / d; 0 + b / d; 0 + c / d; 0 + e / d].
Proof. reflexivity. Qed.

Lemma quadratic_correct ms a b c : 0 <= ms -> [a; b; c] <> [0; 0; 0] -> Rabs b <= ms * Rabs c \/ c = 0 ->
  exactly_roots [a; b; c] (solve_quadratic ms [a; b; c]) /\
  nondecreasing (solve_quadratic ms [a; b; c]) /\
  (a <> 0 \/ b <> 0 -> increasing (solve_quadratic ms [a; b; c])).
Proof.
  intros Hms0 Hn Hms. unfold solve_quadratic. cbn [get nth n0 R_num].
  destruct (Reqb_spec c 0) as [->|Ec].
  - assert (Hab : [a; b] <> [0; 0]) by (intros E; apply Hn; injection E as -> ->; reflexivity).
    destruct (linear_correct a b Hab) as [H1 H2].
    change (change_order 1 [a; b; 0]) with [a; b].
    split; [|split; [|auto]].
    + intros x. rewrite (H1 x). unfold is_root. rewrite pval2, pval3. split; lra.
    + unfold solve_linear. destruct (negb _); repeat constructor.
  - destruct Hms as [Hms|]; [|contradiction].
    rewrite div0_3. cbn [get nth n0 R_num]. rewrite !Rplus_0_l.
    set (f0 := a / c). set (f1 := b / c).
    assert (Ef : forall x, pval [a; b; c] x = c * (f0 + f1 * x + x * x)).
    { intros x. rewrite pval3. unfold f0, f1. field. exact Ec. }
    assert (Er : forall x, is_root [a; b; c] x <-> f0 + f1 * x + x * x = 0).
    { intros x. unfold is_root. rewrite Ef. split; [|intros ->; ring]. intros H. apply Rmult_integral in H. destruct H; [contradiction|assumption]. }
    assert (Hnz : a <> 0 \/ b <> 0 -> f0 <> 0 \/ f1 <> 0).
    { intros [H|H]; [left|right]; unfold f0, f1, Rdiv; apply Rmult_integral_contrapositive_currified; auto using Rinv_neq_0_compat. }
    destruct (Reqb_spec f0 0) as [E0|E0].
    + split; [|split].
      * intros x. rewrite Er, E0. simpl. split.
        -- unfold Rmin, Rmax. destruct (Rle_dec (- f1) 0); intros [<-|[<-|[]]]; ring.
        -- intros H. assert (E : x * (f1 + x) = 0) by lra. apply Rmult_integral in E.
           unfold Rmin, Rmax. destruct (Rle_dec (- f1) 0); destruct E as [E|E]; subst; try (left; lra); right; left; lra.
      * apply nd2. unfold Rmin, Rmax. destruct (Rle_dec (- f1) 0); lra.
      * intros H. specialize (Hnz H). apply inc2. unfold Rmin, Rmax. destruct (Rle_dec (- f1) 0); destruct Hnz; lra.
    + destruct (Rltb_spec ms (Rabs f1)) as [Hov|_].
      { exfalso. unfold f1, Rdiv in Hov. rewrite Rabs_mult, Rabs_inv in Hov.
        assert (0 < Rabs c) by (apply Rabs_pos_lt, Ec).
        apply (Rmult_lt_compat_r (Rabs c)) in Hov; [|assumption].
        rewrite Rmult_assoc, Rinv_l, Rmult_1_r in Hov by lra. lra. }
      cbn zeta. destruct (Rltb_spec (f1 * f1 - 4 * f0) 0) as [Hneg|Hneg].
      * assert (H : forall x, ~ f0 + f1 * x + x * x = 0).
        { intros x E. assert (H : (2 * x + f1) * (2 * x + f1) = f1 * f1 - 4 * f0) by lra.
          pose proof (Rle_0_sqr (2 * x + f1)) as P. unfold Rsqr in P. lra. }
        split; [|split; constructor]. intros x. rewrite Er. split; [intros []|]. intros E. exact (H x E).
      * destruct (Reqb_spec (f1 * f1 - 4 * f0) 0) as [Hz|Hz].
        -- split; [|split; repeat constructor]. intros x. rewrite Er. simpl. split.
           ++ intros [<-|[]]. lra.
           ++ intros E. left. assert (H : (2 * x + f1) * (2 * x + f1) = 0) by lra.
              apply Rmult_integral in H. destruct H; lra.
        -- destruct (quad_monic f0 f1 E0 _ eq_refl ltac:(lra)) as (N1 & N2 & HF).
           set (r1 := - (f1 + copysign (sqrt (f1 * f1 - 4 * f0)) f1) * / 2) in *.
           set (r2 := f0 / r1) in *.
           split; [|split].
           ++ intros x. rewrite two_In, Er, HF. split.
              ** intros [-> | ->]; ring.
              ** intros E. apply Rmult_integral in E. destruct E; [left|right]; lra.
           ++ destruct (Rltb_spec r2 r1); apply nd2; lra.
           ++ intros _. apply two_sorted, N2.
Qed.

(* ------------------------------------------------------- sorting *)
Lemma rinsert_In x l y : In y (rinsert x l) <-> y = x \/ In y l.
Proof.
  induction l as [|a l IH]; cbn [rinsert]; [simpl; intuition|].
  destruct (Rltb a x); simpl; rewrite ?IH; intuition.
Qed.
Lemma rsort_In l y : In y (rsort l) <-> In y l.
Proof. induction l as [|a l IH]; cbn [rsort fold_right]; [reflexivity|]. fold (rsort l). rewrite rinsert_In, IH. simpl. intuition. Qed.
Lemma rinsert_sorted x l : nondecreasing l -> nondecreasing (rinsert x l).
Proof.
  unfold nondecreasing. induction 1 as [|a l Hl IH Ha]; cbn [rinsert]; [repeat constructor|].
  destruct (Rltb_spec a x) as [L|L].
  - constructor; [exact IH|]. apply Forall_forall. intros y Hy. apply rinsert_In in Hy.
    rewrite Forall_forall in Ha. destruct Hy as [->|Hy]; [lra|auto].
  - constructor; [constructor; assumption|]. constructor; [lra|].
    eapply Forall_impl; [|exact Ha]. cbn. intros y Hy. lra.
Qed.
Lemma rsort_sorted l : nondecreasing (rsort l).
Proof. induction l as [|a l IH]; cbn [rsort fold_right]; [constructor|]. apply rinsert_sorted, IH. Qed.

(* ------------------------------------------------------- cubics *)
Lemma pow3_cbrt x : cbrt x * cbrt x * cbrt x = x.
Proof.
  assert (P : forall y, 0 < y -> Rpower y (/ 3) * Rpower y (/ 3) * Rpower y (/ 3) = y).
  { intros y Hy. rewrite <- !Rpower_plus. replace (/ 3 + / 3 + / 3) with 1 by field. apply Rpower_1, Hy. }
  unfold cbrt. destruct (Reqb_spec x 0) as [->|E]; [ring|].
  destruct (Rltb_spec x 0) as [L|L].
  - specialize (P (- x) ltac:(lra)). lra.
  - apply P. lra.
Qed.
Lemma cube_inj a b : a * a * a = b * b * b -> a = b.
Proof.
  intros E. assert (H : (a - b) * (a * a + a * b + b * b) = 0) by lra.
  apply Rmult_integral in H. destruct H as [H|H]; [lra|].
  assert (H1 : (2 * a + b) * (2 * a + b) + 3 * (b * b) = 0) by lra.
  assert (Hb : b * b = 0) by nra. assert (b = 0) by nra. subst b.
  assert (Ha : a * a = 0) by lra. nra.
Qed.
Lemma cbrt_inv x : x <> 0 -> cbrt (/ x) = / cbrt x.
Proof.
  intros Hx. assert (N : cbrt x <> 0).
  { intros E. apply Hx. rewrite <- (pow3_cbrt x), E. ring. }
  apply cube_inj. rewrite pow3_cbrt. rewrite <- (pow3_cbrt x) at 1. field. exact N.
Qed.
Lemma cbrt_nz x : x <> 0 -> cbrt x <> 0.
Proof. intros Hx E. apply Hx. rewrite <- (pow3_cbrt x), E. ring. Qed.

(** Cardano *)
Lemma cardano (u v w : R) (e : R) : w * w = 4 * u * u * u + v * v -> (e = 1 \/ e = -1) -> 0 < w + e * v ->
  let A := cbrt (/ 2 * (w + e * v)) in
  let y := e * (u * cbrt (2 / (w + e * v)) - A) in
  y * y * y + 3 * u * y + v = 0.
Proof.
  intros Hw He Hp A y.
  assert (EA : A * A * A = / 2 * (w + e * v)) by apply pow3_cbrt.
  assert (NA : A <> 0) by (apply cbrt_nz; lra).
  assert (EI : cbrt (2 / (w + e * v)) = / A).
  { unfold A. rewrite <- cbrt_inv by lra. f_equal. field. lra. }
  unfold y. rewrite EI.
  assert (E1 : (u * / A - A) * (u * / A - A) * (u * / A - A) + 3 * u * (u * / A - A) = u * u * u / (A * A * A) - A * A * A)
    by (field; exact NA).
  assert (E2 : u * u * u / (A * A * A) - A * A * A = - e * v).
  { rewrite EA. apply (Rmult_eq_reg_l (2 * (w + e * v))); [|lra]. field_simplify; [|lra].
    assert (e * e = 1) by (destruct He; subst; ring). nra. }
  rewrite E2 in E1.
  set (t := u * / A - A) in *.
  destruct He as [-> | ->]; lra.
Qed.

Lemma cos3 k : cos (3 * k) = 4 * cos k * cos k * cos k - 3 * cos k.
Proof.
  replace (3 * k) with (2 * k + k) by ring. rewrite cos_plus, cos_2a_cos, sin_2a.
  pose proof (sin2_cos2 k) as H. unfold Rsqr in H.
  replace (2 * sin k * cos k * sin k) with (2 * cos k * (sin k * sin k)) by ring.
  replace (sin k * sin k) with (1 - cos k * cos k) by lra. ring.
Qed.

(** three real roots *)
Lemma trig_roots (m s t c r : R) : s * s = m -> t = 4 * c * c * c - 3 * c -> 0 <= 1 - c * c ->
  r = sqrt 3 * sqrt (1 - c * c) -> forall y,
  y * y * y - 3 * m * y - 2 * (s * m) * t =
  (y - (s + s) * c) * (y - s * (- c + r)) * (y - s * (- c - r)).
Proof.
  intros <- -> Hc Er y.
  assert (R2 : r * r = 3 * (1 - c * c)).
  { rewrite Er. replace (sqrt 3 * sqrt (1 - c * c) * (sqrt 3 * sqrt (1 - c * c))) with ((sqrt 3 * sqrt 3) * (sqrt (1 - c * c) * sqrt (1 - c * c))) by ring.
    rewrite !sqrt_sqrt by lra. reflexivity. }
  replace ((y - (s + s) * c) * (y - s * (- c + r)) * (y - s * (- c - r)))
    with ((y - (s + s) * c) * (y * y + 2 * y * s * c + s * s * (c * c - r * r))) by ring.
  rewrite R2. ring.
Qed.

Lemma polish_root prec f x : f <> [] -> pval f x = 0 -> polish prec f x = x.
Proof.
  intros Hf E. unfold polish, halleys_method. cbn [ns_cur neqb n0 R_num].
  destruct (eval_derivatives_correct f x 2 Hf) as [Hl HG].
  destruct (HG 0%nat ltac:(lia)) as (G & HG0 & EG). cbn [nth_deriv_of] in HG0.
  assert (E0 : get (eval_derivatives 2 f x) 0 = 0) by (change (get (eval_derivatives 2 f x) 0) with (nth 0 (eval_derivatives 2 f x) 0); rewrite EG, HG0; exact E).
  rewrite E0. destruct (Reqb_spec 0 0); [|congruence]. reflexivity.
Qed.

Lemma deflate_and_solve_correct ms pb prec a b c d root : 0 <= ms -> d <> 0 -> pval [a; b; c; d] root = 0 ->
  Rabs (c + d * root) <= ms * Rabs d ->
  exists l, deflate_and_solve ms pb prec [a; b; c; d] root = Ret l /\
    exactly_roots [a; b; c; d] l /\ nondecreasing l.
Proof.
  intros Hms Hd Hr Hov. unfold deflate_and_solve.
  destruct (deflate_correct pb [a; b; c; d] root) as (q & Eq & Hq & Hv).
  { unfold porder; simpl; lia. } { unfold porder; simpl; lia. } { exact Hr. }
  rewrite Eq. cbn [obind].
  assert (Eqq : q = [b + c * root + d * root * root; c + d * root; d]).
  { unfold porder in Hq. simpl in Hq. destruct q as [|q0 [|q1 [|q2 [|? ?]]]]; try discriminate.
    assert (P : forall x, 0 < x -> pval [a; b; c; d] x = pval [- root * q0; q0 - root * q1; q1 - root * q2; q2] x).
    { intros x _. rewrite Hv, pval3, pval4. ring. }
    pose proof (pval_eq_get _ _ P) as G.
    pose proof (G 1%nat) as G1. pose proof (G 2%nat) as G2. pose proof (G 3%nat) as G3.
    cbn [get nth n0 R_num] in G1, G2, G3. subst q2. assert (q1 = c + d * root) by lra. subst q1.
    assert (q0 = b + c * root + d * root * root) by lra. subst q0. reflexivity. }
  rewrite Eqq in Hv |- *. clear q Eq Hq Eqq.
  set (q0 := b + c * root + d * root * root) in *. set (q1 := c + d * root) in *.
  destruct (quadratic_correct ms q0 q1 d Hms) as (QE & _ & _).
  { intros E. injection E as _ _ E. contradiction. } { left. exact Hov. }
  assert (HL : (length (solve_quadratic ms [q0; q1; d]) <= 2)%nat).
  { unfold solve_quadratic, solve_linear. repeat match goal with |- context [if ?x then _ else _] => destruct x end; simpl; lia. }
  assert (HM : map (polish prec [a; b; c; d]) (solve_quadratic ms [q0; q1; d]) = solve_quadratic ms [q0; q1; d]).
  { rewrite <- (map_id (solve_quadratic ms [q0; q1; d])) at 2. apply map_ext_in. intros z Hz.
    apply polish_root; [discriminate|]. apply QE in Hz. unfold is_root in Hz. rewrite Hv, Hz. ring. }
  rewrite HM. unfold sv_push. destruct (Nat.ltb_spec (length (solve_quadratic ms [q0; q1; d])) 3); [|lia].
  cbn [obind]. eexists. split; [reflexivity|]. split; [|apply rsort_sorted].
  intros x. rewrite rsort_In, in_app_iff. rewrite (QE x). unfold is_root. rewrite Hv. split.
  - intros [E|[E|[]]]; [rewrite E; ring|]. subst x. ring.
  - intros E. apply Rmult_integral in E. destruct E as [E|E]; [right; left; lra|left; exact E].
Qed.

(** the coefficient ranges in which none of the overflow branches is taken *)
Lemma abs_le_iff x b : Rabs x <= b <-> - b <= x <= b.
Proof. unfold Rabs. destruct (Rcase_abs x); split; intros; lra. Qed.

Lemma cauchy_bound B f0 f1 f2 x : 0 <= B -> Rabs f0 <= B -> Rabs f1 <= B -> Rabs f2 <= B ->
  x * x * x + f2 * x * x + f1 * x + f0 = 0 -> Rabs x <= 1 + B.
Proof.
  intros HB H0 H1 H2 E. destruct (Rle_or_lt (Rabs x) (1 + B)) as [L|L]; [exact L|exfalso].
  assert (A : Rabs (x * x * x) <= B * (Rabs x * Rabs x) + B * Rabs x + B).
  { replace (x * x * x) with (- (f2 * x * x + f1 * x + f0)) by lra. rewrite Rabs_Ropp.
    eapply Rle_trans; [apply Rabs_triang|]. apply Rplus_le_compat; [|exact H0].
    eapply Rle_trans; [apply Rabs_triang|]. rewrite !Rabs_mult.
    pose proof (Rabs_pos x). apply Rplus_le_compat.
    - rewrite Rmult_assoc. apply Rmult_le_compat_r; [nra|exact H2].
    - apply Rmult_le_compat_r; [lra|exact H1]. }
  rewrite !Rabs_mult in A. set (y := Rabs x) in *. 
  assert (y - 1 > B) by lra. assert (0 < y) by lra.
  assert (y * y * y - 1 > 0) by nra.
  assert ((y - 1) * (y * y + y + 1) >= B * (y * y + y + 1)) by nra. nra.
Qed.

Lemma exactly_roots_scale f g k l : k <> 0 -> (forall x, pval f x = k * pval g x) ->
  exactly_roots g l -> exactly_roots f l.
Proof.
  intros Hk E H x. rewrite (H x). unfold is_root. rewrite E. split; [intros ->; ring|].
  intros H0. apply Rmult_integral in H0. destruct H0; [contradiction|assumption].
Qed.

Lemma Rltb_false a b : b <= a -> Rltb a b = false.
Proof. intros H. destruct (Rltb_spec a b); [lra|reflexivity]. Qed.

(** the part of the cubic solver after the range tests *)
Lemma cubic_core ms pb prec f f2 u v : f <> [] ->
  (forall x, pval f x = (x + f2 / 3) * (x + f2 / 3) * (x + f2 / 3) + 3 * u * (x + f2 / 3) + v) ->
  (forall r, pval f r = 0 -> exists l, deflate_and_solve ms pb prec f r = Ret l /\ exactly_roots f l /\ nondecreasing l) ->
  exists l,
    (let j := (u + u) * (u + u) * u + v * v in
     if Rltb 0 j then
       let w := sqrt j in
       let root :=
         if Rltb v 0 then cbrt (/ 2 * (w - v)) - u * cbrt (2 / (w - v)) - f2 / 3
         else u * cbrt (2 / (w + v)) - cbrt (/ 2 * (w + v)) - f2 / 3 in
       deflate_and_solve ms pb prec f (polish prec f root)
     else if negb (Rltb u 0) then Ret [cbrt v - f2 / 3]
     else
       let muo3 := - u in
       let s := if Rltb 0 muo3 then (if Rltb 0 f2 then - sqrt muo3 else sqrt muo3) else 0 in
       let scube := s * muo3 in
       if Reqb scube 0 then Ret [- f2 / 3]
       else
         let t := Rmin (Rmax (- v / (scube + scube)) (-1)) 1 in
         let k := acos t / 3 in
         let cosk := cos k in
         let r0 := (s + s) * cosk - f2 / 3 in
         let sinsqk := 1 - cosk * cosk in
         if Rltb sinsqk 0 then Ret [r0]
         else
           let rt3sink := sqrt 3 * sqrt sinsqk in
           let r1 := s * (- cosk + rt3sink) - f2 / 3 in
           let r2 := s * (- cosk - rt3sink) - f2 / 3 in
           Ret (rsort (map (polish prec f) [r0; r1; r2]))) = Ret l /\
    exactly_roots f l /\ nondecreasing l.
Proof.
  intros Hf KEY DEF. cbv zeta. set (j := (u + u) * (u + u) * u + v * v).
  destruct (Rltb_spec 0 j) as [J|J].
  - assert (W : sqrt j * sqrt j = 4 * u * u * u + v * v) by (rewrite sqrt_sqrt by lra; unfold j; ring).
    assert (WP : 0 < sqrt j) by (apply sqrt_lt_R0, J).
    match goal with |- context [polish prec f ?r] => assert (HR : pval f r = 0) end.
    { destruct (Rltb_spec v 0) as [V|V].
      - pose proof (cardano u v (sqrt j) (-1) W ltac:(lra) ltac:(lra)) as C. cbv zeta in C.
        replace (sqrt j + -1 * v) with (sqrt j - v) in C by ring. rewrite KEY. rewrite <- C. ring.
      - pose proof (cardano u v (sqrt j) 1 W ltac:(lra) ltac:(lra)) as C. cbv zeta in C.
        replace (sqrt j + 1 * v) with (sqrt j + v) in C by ring. rewrite KEY. rewrite <- C. ring. }
    rewrite polish_root by (exact Hf || exact HR). apply DEF, HR.
  - unfold j in J. destruct (Rltb_spec u 0) as [U|U]; cbn [negb].
    + destruct (Rltb_spec 0 (- u)) as [_|]; [|lra].
      set (s := if Rltb 0 f2 then - sqrt (- u) else sqrt (- u)).
      pose proof (sqrt_sqrt (- u) ltac:(lra)) as S0. pose proof (sqrt_lt_R0 (- u) ltac:(lra)) as S1.
      assert (SS : s * s = - u) by (unfold s; destruct (Rltb 0 f2); lra).
      assert (SN : s <> 0) by (intros E; rewrite E in SS; lra).
      destruct (Reqb_spec (s * - u) 0) as [E|_]; [exfalso; apply Rmult_integral in E; lra|].
      set (t0 := - v / (s * - u + s * - u)).
      assert (ND : s * - u + s * - u <> 0) by (intros E; assert (s * u = 0) by lra; apply Rmult_integral in H; lra).
      assert (VT : v = - (2 * (s * - u) * t0)) by (unfold t0; field; lra).
      assert (T1 : -1 <= t0 <= 1).
      { assert (v * v = 4 * ((s * s) * (- u) * (- u)) * (t0 * t0)) by (rewrite VT; ring). rewrite SS in H.
        assert (0 < (- u) * (- u) * (- u)) by (repeat apply Rmult_lt_0_compat; lra).
        assert (t0 * t0 <= 1).
        { apply (Rmult_le_reg_l (4 * ((- u) * (- u) * (- u)))); lra. }
        split; nra. }
      rewrite Rmax_left, Rmin_left by (rewrite ?Rmax_left; lra).
      set (c := cos (acos t0 / 3)).
      assert (TC : t0 = 4 * c * c * c - 3 * c).
      { unfold c. rewrite <- cos3. replace (3 * (acos t0 / 3)) with (acos t0) by field. symmetry. apply cos_acos, T1. }
      assert (SC : 0 <= 1 - c * c) by (unfold c; pose proof (COS_bound (acos t0 / 3)); nra).
      rewrite (Rltb_false (1 - c * c) 0 SC).
      pose proof (trig_roots (- u) s t0 c _ SS TC SC eq_refl) as TR.
      set (r := sqrt 3 * sqrt (1 - c * c)) in *.
      assert (FAC : forall x, pval f x = (x - ((s + s) * c - f2 / 3)) * (x - (s * (- c + r) - f2 / 3)) * (x - (s * (- c - r) - f2 / 3))).
      { intros x. rewrite KEY. pose proof (TR (x + f2 / 3)) as T.
        transitivity ((x + f2 / 3) * (x + f2 / 3) * (x + f2 / 3) - 3 * - u * (x + f2 / 3) - 2 * (s * - u) * t0).
        - rewrite VT. ring.
        - rewrite T. ring. }
      cbn [map]. rewrite !polish_root by (exact Hf || (rewrite FAC; ring)).
      eexists. split; [reflexivity|]. split; [|apply rsort_sorted].
      intros x. rewrite rsort_In. unfold is_root. rewrite FAC. cbn [In]. split.
      * intros [<-|[<-|[<-|[]]]]; ring.
      * intros E. apply Rmult_integral in E. destruct E as [E|E]; [apply Rmult_integral in E; destruct E as [E|E]|].
        -- left. lra.
        -- right; left. lra.
        -- right; right; left. lra.
    + assert (U0 : 0 <= u) by lra. assert (0 <= u * u * u) by (repeat apply Rmult_le_pos; lra).
      assert (V2 : v * v = 0) by nra. assert (V0 : v = 0) by nra.
      assert (Uz : u = 0).
      { assert (u * u * u = 0 * 0 * 0) by nra. apply cube_inj in H0. exact H0. }
      subst v u. eexists. split; [reflexivity|]. split; [|repeat constructor].
      intros x. unfold is_root. rewrite KEY. cbn [In].
      assert (C0 : cbrt 0 = 0) by (apply cube_inj; rewrite pow3_cbrt; ring). rewrite C0. split.
      * intros [<-|[]]. field.
      * intros E. left. assert ((x + f2 / 3) = 0) by (apply cube_inj; lra). lra.
Qed.

(** the cubic solver on a monic polynomial with nonzero constant term *)
Lemma cubic_monic ms pb prec f0 f1 f2 B : 1 <= B -> 16 * (B * B * B * B) <= ms ->
  Rabs f0 <= B -> Rabs f1 <= B -> Rabs f2 <= B -> f0 <> 0 -> 
  exists l, solve_cubic ms pb prec [f0; f1; f2; 1] = Ret l /\
    exactly_roots [f0; f1; f2; 1] l /\ nondecreasing l.
Proof.
  intros HB Hms H0 H1 H2 N0. unfold solve_cubic. cbn [get nth n0 R_num].
  destruct (Reqb_spec 1 0) as [Hx|_]; [lra|]. destruct (Reqb_spec f0 0) as [Hx|_]; [contradiction|].
  assert (ED : poly_div0 [f0; f1; f2; 1] 1 = [f0; f1; f2; 1]).
  { rewrite div0_4. repeat f_equal; field. }
  rewrite ED. cbn [get nth n0 R_num]. clear ED.
  set (f := [f0; f1; f2; 1]).
  assert (PV : forall x, pval f x = x * x * x + f2 * x * x + f1 * x + f0) by (intros x; unfold f; rewrite pval4; ring).
  assert (B2 : 1 <= B * B) by nra. assert (B3 : B * B <= B * B * B) by nra. assert (B4 : B * B * B <= B * B * B * B) by nra.
  assert (HBms : B <= ms) by nra.
  assert (A0 := H0). assert (A1 := H1). assert (A2 := H2).
  apply abs_le_iff in A0, A1, A2.
  destruct (Reqb_spec f2 0) as [E2|N2]; destruct (Reqb_spec f1 0) as [E1|N1]; cbn [andb];
    [ eexists; split; [reflexivity|]; split; [|repeat constructor];
      intros x; unfold is_root; rewrite PV, E1, E2; cbn [In]; split;
      [ intros [<-|[]]; pose proof (pow3_cbrt (- f0)); lra
      | intros E; left; apply cube_inj; rewrite pow3_cbrt; lra ] | | | ].
  all: rewrite (Rltb_false ms f2), (Rltb_false f2 (- ms)), (Rltb_false ms f1), (Rltb_false f1 (- ms)), (Rltb_false ms f0), (Rltb_false f0 (- ms)) by lra; cbn [orb].
  all: set (v := f0 + (2 * f2 * f2 / 9 - f1) * (f2 / 3)).
  all: assert (Hv : Rabs v <= 2 * (B * B * B)) by
    (unfold v; eapply Rle_trans; [apply Rabs_triang|]; rewrite Rabs_mult;
     assert (Rabs (f2 / 3) <= B / 3) by (unfold Rdiv; rewrite Rabs_mult, (Rabs_pos_eq (/ 3)) by lra; lra);
     assert (Rabs (2 * f2 * f2 / 9 - f1) <= 2 / 9 * (B * B) + B) by
       (apply abs_le_iff; assert (f2 * f2 <= B * B) by nra; assert (0 <= f2 * f2) by nra; split; lra);
     assert (P1 := Rabs_pos (f2 / 3)); assert (P2 := Rabs_pos (2 * f2 * f2 / 9 - f1));
     assert (Rabs (2 * f2 * f2 / 9 - f1) * Rabs (f2 / 3) <= (2 / 9 * (B * B) + B) * (B / 3)) by
       (apply Rmult_le_compat; assumption); nra).
  all: assert (Av := Hv); apply abs_le_iff in Av.
  all: rewrite (Rltb_false ms v), (Rltb_false v (- ms)) by lra; cbn [orb].
  all: set (u := f1 / 3 - f2 * f2 / 9).
  all: assert (Au : - (4 / 9 * (B * B)) <= u <= 4 / 9 * (B * B)) by
    (unfold u; assert (f2 * f2 <= B * B) by nra; assert (0 <= f2 * f2) by nra; nra).
  all: rewrite (Rltb_false ms (u + u)), (Rltb_false (u + u) (- ms)), (Rltb_false ms ((u + u) * (u + u))) by nra; cbn [orb].
  all: assert (KEY : forall x, pval f x = (x + f2 / 3) * (x + f2 / 3) * (x + f2 / 3) + 3 * u * (x + f2 / 3) + v) by
    (intros x; rewrite PV; unfold u, v; field).
  all: assert (DEF : forall r, pval f r = 0 -> exists l, deflate_and_solve ms pb prec f r = Ret l /\ exactly_roots f l /\ nondecreasing l) by
    (intros r Hr; unfold f; apply deflate_and_solve_correct; [nra|lra|exact Hr|];
     pose proof (cauchy_bound B f0 f1 f2 r ltac:(lra) H0 H1 H2 ltac:(rewrite <- PV; exact Hr)) as C;
     rewrite Rabs_R1; rewrite Rmult_1_l; eapply Rle_trans; [apply Rabs_triang|]; nra).
  all: exact (cubic_core ms pb prec f f2 u v ltac:(discriminate) KEY DEF).
Qed.

(** the full cubic solver *)
Lemma cubic_correct ms pb prec a b c d B : 1 <= B -> 16 * (B * B * B * B) <= ms -> d <> 0 ->
  Rabs a <= B * Rabs d -> Rabs b <= B * Rabs d -> Rabs c <= B * Rabs d ->
  exists l, solve_cubic ms pb prec [a; b; c; d] = Ret l /\
    exactly_roots [a; b; c; d] l /\ nondecreasing l.
Proof.
  intros HB Hms Hd Ha Hb Hc.
  assert (B2 : 1 <= B * B) by nra. assert (B3 : B * B <= B * B * B) by nra. assert (B4 : B * B * B <= B * B * B * B) by nra.
  assert (HBms : B <= ms) by nra.
  destruct (Req_dec a 0) as [E|N].
  - unfold solve_cubic. cbn [get nth n0 R_num].
    destruct (Reqb_spec d 0) as [Hx|_]; [contradiction|]. destruct (Reqb_spec a 0) as [_|Hx]; [|contradiction].
    apply deflate_and_solve_correct; [lra|exact Hd|rewrite pval4, E; ring|].
    rewrite Rmult_0_r, Rplus_0_r. eapply Rle_trans; [exact Hc|]. apply Rmult_le_compat_r; [apply Rabs_pos|exact HBms].
  - assert (DD : 0 < Rabs d) by (apply Rabs_pos_lt, Hd).
    assert (Q : forall x, Rabs x <= B * Rabs d -> Rabs (x / d) <= B).
    { intros x Hx. unfold Rdiv. rewrite Rabs_mult, Rabs_inv. apply (Rmult_le_reg_r (Rabs d)); [exact DD|].
      rewrite Rmult_assoc, Rinv_l by lra. lra. }
    destruct (cubic_monic ms pb prec (a / d) (b / d) (c / d) B HB Hms (Q _ Ha) (Q _ Hb) (Q _ Hc)) as (l & E1 & E2 & E3).
    { intros E. apply N. apply (Rmult_eq_reg_r (/ d)); [unfold Rdiv in E; lra|]. apply Rinv_neq_0_compat, Hd. }
    exists l. split; [|split; [|exact E3]].
    + rewrite <- E1. clear E1. unfold solve_cubic. cbn [get nth n0 R_num].
      destruct (Reqb_spec d 0) as [Hx|_]; [contradiction|]. destruct (Reqb_spec a 0) as [Hx|_]; [contradiction|].
      destruct (Reqb_spec 1 0) as [Hx|_]; [lra|].
      destruct (Reqb_spec (a / d) 0) as [Hx|_].
      { exfalso. apply N. apply (Rmult_eq_reg_r (/ d)); [unfold Rdiv in Hx; lra|]. apply Rinv_neq_0_compat, Hd. }
      rewrite !div0_4. cbn [get nth n0 R_num].
      replace (0 + a / d) with (a / d) by ring. replace (0 + b / d) with (b / d) by ring. replace (0 + c / d) with (c / d) by ring.
      replace (0 + d / d) with 1 by (field; exact Hd).
      replace (0 + a / d / 1) with (a / d) by (field; exact Hd). replace (0 + b / d / 1) with (b / d) by (field; exact Hd).
      replace (0 + c / d / 1) with (c / d) by (field; exact Hd). replace (0 + 1 / 1) with 1 by field. reflexivity.
    + apply (exactly_roots_scale _ [a / d; b / d; c / d; 1] d); [exact Hd| |exact E2].
      intros x. rewrite !pval4. field. exact Hd.
Qed.
