(** C19-C21: root isolation. *)
From Verif Require Import PolyProofs PolyCalc RootsModel SolverModel RootSpec Descartes LMQ NumericProofs Isolate Sturm Solve Solver.
From Coq Require Import Permutation.
Open Scope R_scope.

(* ------------------------------------------------------------------ C19 *)
(** Every returned interval holds exactly one positive root, intervals are
    disjoint, and every positive root that is not a dyadic multiple of the upper
    bound is in one of them.  Full statement: every positive root; refuted below. *)
Theorem C19_vca_partial : forall fuel (f : list R) L, not_zero f -> VCA_bounds fuel f = Ret L ->
  Forall (fun p => 0 <= fst p /\ fst p < snd p) L /\
  (forall p, In p L -> exists z, (0 < z /\ is_root f z /\ fst p < z < snd p) /\
      forall z', is_root f z' -> fst p < z' < snd p -> z' = z) /\
  ForallOrdPairs (fun p q => forall z, ~ (inside p z /\ inside q z)) L /\
  exists u, LMQ_upper f = Ret (Fin u) /\
    forall z, 0 < z -> is_root f z -> (forall n k : nat, z <> INR k / 2 ^ n * u) ->
      exists p, In p L /\ fst p < z < snd p.
Proof.
  intros fuel f L Hz E. pose proof (VCA_bounds_correct fuel f Hz) as V. rewrite E in V.
  destruct V as (HF & _ & u & Hu & V1 & V2 & V3). split; [exact HF|].
  assert (IN : forall p z, In p L -> inside p z -> fst p < z < snd p).
  { intros p z Hp Hi. rewrite Forall_forall in HF. specialize (HF p Hp). unfold inside in Hi. lra. }
  split; [|split; [exact V3|]].
  - intros p Hp. destruct (V2 p Hp) as (z & ((Z1 & Z2) & Hi) & Hun). exists z.
    split; [split; [exact Z1|split; [exact Z2|apply IN; assumption]]|]. intros z' E' I'. apply Hun.
    split; [split; [|exact E']|left; exact I']. rewrite Forall_forall in HF. specialize (HF p Hp). lra.
  - exists u. split; [exact Hu|]. intros z Hzp Ez Hd. destruct (V1 z (conj Hzp Ez)) as [(p & Hp & Hi)|(n & k & D)].
    + exists p. split; [exact Hp|apply IN; assumption].
    + exfalso. apply (Hd n k). rewrite <- D.
      assert (u <> 0).
      { intros ->. pose proof (lmq_upper_correct f Hz) as P. rewrite Hu in P. destruct P as (_ & P & _). apply (P z Hzp); [lra|exact Ez]. }
      field. assumption.
Qed.
Print Assumptions C19_vca_partial.

Lemma its4 a b c d : invert_taylor_shift [a; b; c; d] = [a + b + c + d; 3 * a + 2 * b + c; 3 * a + b; a].
Proof. cbn. repeat (f_equal; try ring). Qed.
Lemma su4 a b c d : shift_unity [a; b; c; d] = [a + b + c + d; b + 2 * c + 3 * d; c + 3 * d; d].
Proof. cbn. repeat (f_equal; try ring). Qed.
Lemma sc4 a b c d u : scale_poly [a; b; c; d] u = [a; b * u; c * u * u; d * u * u * u].
Proof. cbn. repeat (f_equal; try ring). Qed.
Lemma vd4 a b c d : vca_double [a; b; c; d] = Ret [a * 8; b * 4; c * 2; d].
Proof. unfold vca_double. cbn. repeat (f_equal; try ring). Qed.
Lemma rpower1 x : 0 < x -> Rpower x (1 / INR 1) = x.
Proof. intros. replace (1 / INR 1) with 1 by (simpl; field). apply Rpower_1, H. Qed.
Lemma rpower2 x y : 0 < x -> x = y * y -> 0 < y -> Rpower x (1 / INR 2) = y.
Proof.
  intros H E Hy. replace (1 / INR 2) with (/ 2) by (simpl; field). rewrite Rpower_sqrt by exact H. rewrite E. apply sqrt_square. lra.
Qed.

Ltac decR := repeat match goal with
  | |- context [Reqb ?a ?b] => destruct (Reqb_spec a b); try (exfalso; lra)
  | |- context [Rltb ?a ?b] => destruct (Rltb_spec a b); try (exfalso; lra)
  end.

(** 3x^3 + x^2 - 24x + 20 = (x-1)(x-2)(3x+10): the upper bound is 4, the first
    bisection point is the root 2, and 2 is in no returned interval. *)
Lemma vca_ub : LMQ_upper [20; -24; 1; 3] = Ret (Fin 4).
Proof.
  unfold LMQ_upper.
  replace (highest (porder [20; -24; 1; 3]) [20; -24; 1; 3]) with 3%nat
    by (cbn [porder length Nat.pred highest get nth n0 R_num]; destruct (Reqb_spec 3 0); [lra|reflexivity]).
  cbn [for_down Nat.sub Nat.pred obind].
  unfold lmq_inner. cbn [for_down Nat.sub Nat.pred obind].
  unfold nonzerob, opposite. rewrite !signbit_Rltb. cbn [get nth n0 R_num length repeat tget upd].
  repeat match goal with
  | |- context [Reqb ?a ?b] => destruct (Reqb_spec a b); [exfalso; lra|]
  | |- context [Rltb ?a ?b] => first [destruct (Rltb_spec a b); [exfalso; lra|] | destruct (Rltb_spec a b); [|exfalso; lra]]
  end.
  cbn [negb andb eqb Bool.eqb obind xmax xmin tget nth upd neg_shl Nat.ltb Nat.leb snd].
  rewrite (rpower1 (- 2 ^ 1 * -24 / 1)) by lra. rewrite (rpower2 _ 4) by lra.
  cbn [xmin xmax]. destruct (Rltb_spec 4 (- 2 ^ 1 * -24 / 1)); [|lra]. decR. reflexivity.
Qed.

Lemma rs_pos x : 0 < x -> rsign x = 1%Z.
Proof. intros. unfold rsign. decR. reflexivity. Qed.
Lemma rs_neg x : x < 0 -> rsign x = (-1)%Z.
Proof. intros. unfold rsign. decR. reflexivity. Qed.
Lemma rs_zero x : x = 0 -> rsign x = 0%Z.
Proof. intros. unfold rsign. decR. reflexivity. Qed.
Ltac signs := rewrite !descartes_sv; cbn [sv];
  repeat match goal with
  | |- context [rsign ?x] => first [rewrite (rs_pos x) by lra | rewrite (rs_neg x) by lra | rewrite (rs_zero x) by lra]
  end.

Lemma vca_two : VCA_bounds 2 [20; -24; 1; 3] = Ret [(0 / 2 * 4, 1 / 2 * 4)].
Proof.
  unfold VCA_bounds. rewrite vca_ub. cbn [obind]. destruct (Reqb_spec 4 0); [lra|]. rewrite sc4.
  cbn [vca_worker]. unfold budan_01. rewrite its4, vd4. cbn [obind]. rewrite su4, !its4.
  signs. reflexivity.
Qed.

(** full completeness (every positive root is inside a returned interval) fails *)
Theorem C19_midpoint_refuted :
  not_zero [20; -24; 1; 3] /\ is_root [20; -24; 1; 3] 1 /\ is_root [20; -24; 1; 3] 2 /\
  exists L, VCA_bounds 2 [20; -24; 1; 3] = Ret L /\ length L = 1%nat /\
    forall p, In p L -> ~ inside p 2.
Proof.
  split; [exists 3; split; [cbn [In]; tauto|lra]|]. unfold is_root. rewrite !pval4.
  split; [ring|]. split; [ring|].
  eexists. split; [exact vca_two|]. split; [reflexivity|]. intros p [<-|[]]. unfold inside. cbn [fst snd]. lra.
Qed.
Print Assumptions C19_midpoint_refuted.

(** non-vacuity of C19_vca_partial on the same polynomial: the interval (0,2) holds
    the root 1, which is a quarter of the bound; the hypothesis is also met by x-1
    scaled so that the root is not dyadic. *)
Lemma vca_lin : LMQ_upper [-1; 3] = Ret (Fin (2 / 3)).
Proof.
  unfold LMQ_upper.
  replace (highest (porder [-1; 3]) [-1; 3]) with 1%nat
    by (cbn [porder length Nat.pred highest get nth n0 R_num]; destruct (Reqb_spec 3 0); [lra|reflexivity]).
  cbn [for_down Nat.sub Nat.pred obind].
  unfold lmq_inner. cbn [for_down Nat.sub Nat.pred obind].
  unfold nonzerob, opposite. rewrite !signbit_Rltb. cbn [get nth n0 R_num length repeat tget upd].
  repeat match goal with
  | |- context [Reqb ?a ?b] => destruct (Reqb_spec a b); [exfalso; lra|]
  | |- context [Rltb ?a ?b] => first [destruct (Rltb_spec a b); [exfalso; lra|] | destruct (Rltb_spec a b); [|exfalso; lra]]
  end.
  cbn [negb andb eqb Bool.eqb obind xmax xmin tget nth upd neg_shl Nat.ltb Nat.leb snd].
  rewrite (rpower1 (- 2 ^ 1 * -1 / 3)) by lra. 
  cbn [xmin xmax]. decR. f_equal. f_equal. lra.
Qed.
Example C19_example : not_zero [20; -24; 1; 3] /\
  (exists L, VCA_bounds 2 [20; -24; 1; 3] = Ret L /\ exists p, In p L /\ fst p < 1 < snd p).
Proof.
  split; [exists 3; split; [cbn [In]; tauto|lra]|]. eexists. split; [exact vca_two|].
  eexists. split; [left; reflexivity|]. cbn [fst snd]. lra.
Qed.

(* ------------------------------------------------------------------ C20 *)
(** The code applies the same substitution to the polynomial and to the Moebius
    map.  [step] is one such substitution. *)
Inductive msub := Shift (t : R) | Scale (t : R) | InvShift.
Definition admissible (s : msub) : Prop := match s with Shift t => 0 <= t | Scale t => 0 < t | InvShift => True end.
Definition app_poly (f : list R) (s : msub) : list R :=
  match s with Shift t => shift_function f t | Scale t => scale_poly f t | InvShift => invert_taylor_shift f end.
Definition app_mob (M : mobius) (s : msub) : mobius :=
  match s with Shift t => mob_shift M t | Scale t => mob_scale M t | InvShift => mob_invert_taylor_shift M end.

(** After any sequence of substitutions: the map sends every y >= 0 to a finite
    point; y > 0 is a root of the transformed polynomial exactly when its image is a
    root of the original; and the values of the map at 0 and +infinity are the end
    points of an interval which is exactly the image of (0, +infinity), in bijection. *)
Theorem C20_moebius : forall (ops : list msub) (f : list R), f <> [] -> Forall admissible ops ->
  let f' := fold_left app_poly ops f in let M := fold_left app_mob ops mob_id in
  exists m : R -> R,
    (forall y, 0 <= y -> mob_eval M (Fin y) = Fin (m y)) /\
    (forall y, 0 < y -> (is_root f' y <-> is_root f (m y))) /\
    (forall y1 y2, 0 < y1 -> 0 < y2 -> m y1 = m y2 -> y1 = y2) /\
    (forall z, xinside (mob_eval M (Fin 0), mob_eval M PInf) z <-> exists y, 0 < y /\ m y = z) /\
    (forall y, 0 < y -> 0 < m y).
Proof.
  intros ops f Hf HA f' M.
  assert (G : mob_valid M /\ forall y, 0 < y -> (is_root f' y <-> is_root f (mobR M y)) /\ 0 < mobR M y).
  { revert f' M. 
    assert (G : forall ops, Forall admissible ops -> forall f1 M1, f1 <> [] -> mob_valid M1 ->
       (forall y, 0 < y -> (is_root f1 y <-> is_root f (mobR M1 y)) /\ 0 < mobR M1 y) ->
       let f' := fold_left app_poly ops f1 in let M := fold_left app_mob ops M1 in
       mob_valid M /\ forall y, 0 < y -> (is_root f' y <-> is_root f (mobR M y)) /\ 0 < mobR M y).
    { clear ops HA. induction ops as [|s ops IH]; intros HA f1 M1 Hf1 HM1 H; [split; assumption|].
      inversion HA as [|? ? Hs HA']; subst. cbn [fold_left]. apply IH; [exact HA'| | |].
      - destruct s; cbn [app_poly].
        + intros E. apply Hf1, length_zero_iff_nil. rewrite <- (proj1 (shift_function_correct f1 t Hf1)). rewrite E. reflexivity.
        + intros E. apply Hf1, length_zero_iff_nil. rewrite <- (proj1 (scale_poly_correct f1 t Hf1)). rewrite E. reflexivity.
        + intros E. apply Hf1, length_zero_iff_nil. rewrite <- (proj1 (invert_taylor_shift_correct f1 Hf1)). rewrite E. reflexivity.
      - destruct s; cbn [app_mob admissible] in *; [apply mob_shift_valid|apply mob_scale_valid|apply mob_its_valid]; assumption.
      - intros y Hy. destruct s; cbn [app_mob app_poly admissible] in *.
        + rewrite mob_shift_R by (auto; lra). destruct (H (y + t) ltac:(lra)) as [H1 H2]. split; [|exact H2].
          rewrite <- H1. unfold is_root. rewrite (proj2 (shift_function_correct f1 t Hf1)). replace (t + y) with (y + t) by ring. reflexivity.
        + rewrite mob_scale_R. destruct (H (t * y) ltac:(nra)) as [H1 H2]. split; [|exact H2].
          rewrite <- H1. unfold is_root. rewrite (proj2 (scale_poly_correct f1 t Hf1)). reflexivity.
        + rewrite mob_its_R by (auto; lra). assert (0 < 1 / (y + 1)) by (apply Rdiv_lt_0_compat; lra).
          destruct (H (1 / (y + 1)) H0) as [H1 H2]. split; [|exact H2].
          rewrite <- H1. unfold is_root. rewrite (proj2 (invert_taylor_shift_correct f1 Hf1)) by lra.
          split; intros E; [apply Rmult_integral in E; destruct E as [E|E]; [exfalso; revert E; apply pow_nonzero; lra|exact E]|rewrite E; ring]. }
    apply G; [exact HA|exact Hf|exact mob_id_valid|]. intros y Hy. rewrite mob_id_R. tauto. }
  destruct G as [HM G]. exists (mobR M).
  split; [intros; apply mob_eval_fin; assumption|]. split; [intros y Hy; apply G, Hy|].
  split; [intros y1 y2 H1 H2; apply mob_inj; auto; lra|]. split; [|intros y Hy; apply G, Hy].
  intros z. rewrite mob_inside by exact HM. unfold mob_range. split; intros (y & Hy & E); exists y; auto.
Qed.
Print Assumptions C20_moebius.

Example C20_example : Forall admissible [Shift 2; InvShift; Scale 3] /\
  fold_left app_mob [Shift 2; InvShift; Scale 3] mob_id = {| ma := (0 + 1 * 2) * 3; mb := 1 + (0 + 1 * 2); mc := (1 + 0 * 2) * 3; md := 0 + (1 + 0 * 2) |}.
Proof. split; [|reflexivity]. repeat constructor; cbn [admissible]; lra. Qed.

(* ------------------------------------------------------------------ C21 *)
(** Whenever VAS returns (it has no iteration limit; [Fuel] stands for not having
    returned yet): every interval is finite, contains exactly one positive root,
    intervals are pairwise disjoint and every positive root is in one of them. *)
Theorem C21_vas_partial : forall fuel eps (f : list R) L,
  0 <= eps -> not_zero f -> get f 0 <> 0 -> VAS_bounds fuel eps f = Ret L ->
  exists L' : list (R * R), L = map (fun p => (Fin (fst p), Fin (snd p))) L' /\
    isolates L' (fun z => 0 < z /\ is_root f z) /\
    Forall (fun p => 0 <= fst p < snd p) L' /\ (length L' <= porder f)%nat.
Proof.
  intros fuel eps f L He Hz H0 E. pose proof (VAS_bounds_correct fuel eps f He Hz H0) as V. rewrite E in V. exact V.
Qed.
Print Assumptions C21_vas_partial.

(** with enough fuel or not, VAS never fails on polynomials of order below 31 *)
Theorem C21_vas_safe : forall fuel eps (f : list R),
  0 <= eps -> not_zero f -> get f 0 <> 0 -> (porder f < 31)%nat ->
  VAS_bounds fuel eps f = Fuel \/ exists L, VAS_bounds fuel eps f = Ret L.
Proof.
  intros fuel eps f He Hz H0 Ho. pose proof (VAS_bounds_correct fuel eps f He Hz H0) as V.
  destruct (VAS_bounds fuel eps f) as [L| | |]; [right; exists L; reflexivity|contradiction|lia|left; reflexivity].
Qed.
Print Assumptions C21_vas_safe.

Lemma vas_ub : LMQ_upper [2; -5; 2] = Ret (Fin 5).
Proof.
  unfold LMQ_upper.
  replace (highest (porder [2; -5; 2]) [2; -5; 2]) with 2%nat
    by (cbn [porder length Nat.pred highest get nth n0 R_num]; destruct (Reqb_spec 2 0); [lra|reflexivity]).
  cbn [for_down Nat.sub Nat.pred obind].
  unfold lmq_inner. cbn [for_down Nat.sub Nat.pred obind].
  unfold nonzerob, opposite. rewrite !signbit_Rltb. cbn [get nth n0 R_num length repeat tget upd].
  repeat match goal with
  | |- context [Reqb ?a ?b] => destruct (Reqb_spec a b); [exfalso; lra|]
  | |- context [Rltb ?a ?b] => first [destruct (Rltb_spec a b); [exfalso; lra|] | destruct (Rltb_spec a b); [|exfalso; lra]]
  end.
  cbn [negb andb eqb Bool.eqb obind xmax xmin tget nth upd neg_shl Nat.ltb Nat.leb snd].
  rewrite (rpower1 (- 2 ^ 1 * -5 / 2)) by lra.
  cbn [xmin xmax]. decR. f_equal. f_equal. lra.
Qed.

Lemma vas_one eps f M fu : descartes f = 1%nat -> (0 < porder f)%nat ->
  vas_worker (S fu) eps f M = Ret [(mob_eval M (Fin 0), mob_eval M PInf)].
Proof. intros H Ho. cbn [vas_worker]. rewrite H. destruct (porder f) as [|k]; [lia|]. cbn [firstn]. rewrite firstn_nil. reflexivity. Qed.
Lemma vas_step fu eps f M d lb : descartes f = S (S d) -> LMQ_lower f = Ret (Fin lb) -> lb < 1 ->
  100 * poly_precision eps f 1 < Rabs (poly_eval f 1) -> get f 0 <> 0 ->
  vas_worker (S fu) eps f M =
    (do r1 <- vas_worker fu eps (invert_taylor_shift f) (mob_invert_taylor_shift M);
     do ra <- sv_extend (porder f) [] r1;
     do r2 <- vas_worker fu eps (shift_unity f) (mob_shift M 1);
     sv_extend (porder f) ra r2).
Proof.
  intros H1 H2 H3 H4 H5. cbn [vas_worker]. rewrite H1, H2. cbn [obind].
  destruct (Rltb_spec lb 16); [|lra]. cbn [negb]. destruct (Rltb_spec lb 1); [|lra]. cbn [negb].
  match goal with |- context [Rltb ?a ?b] => destruct (Rltb_spec a b) as [_|Hn] end; [|contradiction].
  cbn [negb]. destruct (Reqb_spec (get f 0) 0); [contradiction|]. reflexivity.
Qed.
Lemma its3 a b c : invert_taylor_shift [a; b; c] = [a + b + c; 2 * a + b; a].
Proof. cbn. repeat (f_equal; try ring). Qed.
Lemma su3 a b c : shift_unity [a; b; c] = [a + b + c; b + 2 * c; c].
Proof. cbn. repeat (f_equal; try ring). Qed.

Example C21_example : not_zero [2; -5; 2] /\ get [2; -5; 2] 0 <> 0 /\
  VAS_bounds 2 0 [2; -5; 2] = Ret [(Fin 0, Fin 1); (Fin 1, Fin 5)].
Proof.
  split; [exists 2; split; [left; reflexivity|lra]|]. split; [cbn [get nth]; lra|].
  unfold VAS_bounds. rewrite vas_ub. cbn [obind]. destruct (Reqb_spec 5 0); [lra|].
  rewrite (vas_step 1 0 [2; -5; 2] mob_id 0 (1 / 5)).
  - rewrite its3, su3. rewrite !vas_one; [|first [cbn [porder length Nat.pred]; lia | signs; reflexivity]..].
    cbn [obind sv_extend porder length Nat.pred sv_push Nat.ltb Nat.leb app map VAS_fix fst snd].
    unfold mob_eval, mob_invert_taylor_shift, mob_shift, mob_id. cbn [ma mb mc md].
    unfold signbit. cbn [nltb n0 R_num]. decR. cbn [andb negb Bool.eqb xltb]. decR. cbn [fst snd].
    f_equal. f_equal; [|f_equal].
    + unfold VAS_fix. cbn [fst snd xltb]. destruct (Rltb_spec 0 ((1 + 0) / (0 + 1 + 0 * 1))) as [_|Hn]; [|exfalso; lra].
      repeat (f_equal; try lra).
    + unfold VAS_fix. cbn [fst snd xltb]. repeat (f_equal; try lra).
  - signs. reflexivity.
  - unfold LMQ_lower. cbn [rev app]. rewrite vas_ub. cbn [obind xinv]. decR. reflexivity.
  - lra.
  - unfold poly_precision. cbn [porder length Nat.pred Nat.eqb]. cbn [nmul R_num]. rewrite !Rmult_0_r.
    apply Rabs_pos_lt. rewrite poly_eval_correct by discriminate. rewrite pval3. intros E. lra.
  - cbn [get nth]. lra.
Qed.
