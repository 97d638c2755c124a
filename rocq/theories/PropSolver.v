(** C14: polynomials with multiple roots in the solver's Sturm mode. *)
From Verif Require Import PolyProofs PolyCalc SolverModel RootSpec Descartes LMQ NumericSpec NumericProofs PropNumeric Isolate Sturm Solve Solver PropRoots.
Open Scope R_scope.

Ltac decide_R := repeat match goal with
  | |- context [Reqb ?a ?b] => first [destruct (Reqb_spec a b) as [?Q|?Q]; [exfalso; lra|] | destruct (Reqb_spec a b) as [?Q|?Q]; [|exfalso; lra]]
  | |- context [Rltb ?a ?b] => first [destruct (Rltb_spec a b) as [?Q|?Q]; [exfalso; lra|] | destruct (Rltb_spec a b) as [?Q|?Q]; [|exfalso; lra]]
  end.
Lemma Rpower_inv1 x : 0 < x -> Rpower x (1 / INR 1) = x.
Proof. intros H. replace (1 / INR 1) with 1 by (change (INR 1) with 1; field). apply Rpower_1, H. Qed.
Lemma Rpower_le_root x n y : 0 < x -> 0 < y -> x <= y ^ S n -> Rpower x (1 / INR (S n)) <= y.
Proof.
  intros Hx Hy H. apply Rle_trans with (Rpower (y ^ S n) (1 / INR (S n))).
  - apply Rle_Rpower_l; [|lra]. apply Rlt_le, Rdiv_lt_0_compat; [lra|apply lt_0_INR; lia].
  - rewrite <- Rpower_pow by exact Hy. rewrite Rpower_mult. replace (INR (S n) * (1 / INR (S n))) with 1.
    + rewrite Rpower_1 by exact Hy. lra.
    + field. apply not_0_INR. lia.
Qed.

Ltac lmq_run := repeat (
  unfold LMQ_upper, lmq_inner, nonzerob, opposite, neg_shl, tget;
  cbn [rev app porder length Nat.pred highest get nth n0 R_num Nat.sub for_down obind repeat negb Bool.eqb andb upd Nat.ltb Nat.leb xmin];
  rewrite ?signbit_Rltb; progress decide_R);
  repeat (progress cbn [obind upd nth Nat.leb Nat.ltb xmin xmax snd negb Bool.eqb andb]).


Ltac lmq_close := cbn [pow]; rewrite ?Rpower_inv1 by lra;
  repeat match goal with |- context [Rltb ?a ?b] => lazymatch a with context [Rltb] => fail | _ => lazymatch b with context [Rltb] => fail | _ => destruct (Rltb_spec a b) end end end; f_equal; f_equal; lra.

(** ** a double root at a halving point *)
(** 20 (x-1)^2 (x - 7/5) (x + 7/4) *)
Definition dbl : list R := [-49; 105; -43; -33; 20].
Lemma dbl_upper : LMQ_upper dbl = Ret (Fin (33 / 10)).
Proof.
  unfold dbl. lmq_run.
  pose proof (Rpower_le_root (- 2 ^ 2 * -43 / 20) 1 3 ltac:(lra) ltac:(lra) ltac:(lra)).
  cbn [pow] in *. lmq_close.
Qed.
Lemma dbl_lower : LMQ_lower dbl = Ret (Fin (7 / 30)).
Proof.
  unfold LMQ_lower, dbl.
  assert (E : LMQ_upper (rev [-49; 105; -43; -33; 20]) = Ret (Fin (30 / 7))).
  { lmq_run.
    pose proof (Rpower_le_root (- 2 ^ 2 * 20 / -49) 3 4 ltac:(lra) ltac:(lra) ltac:(lra)).
    cbn [pow] in *. lmq_close. }
  rewrite E. cbn [obind xinv]. decide_R. f_equal. f_equal. field.
Qed.
Lemma dbl_d : poly_derivative true dbl = [105; -86; -99; 80].
Proof. lazy -[Rplus Rmult Rminus Ropp Rdiv Rinv IZR INR]. repeat (f_equal; try (cbn [INR]; ring)). Qed.
Lemma dbl_m1 : mrem dbl [105; -86; -99; 80] = [2443 / 64; - (11181 / 160); 10147 / 320].
Proof.
  unfold mrem, poly_gcd. change (porder [105; -86; -99; 80]) with 3%nat. cbn [gcd_rec]. change (get [105; -86; -99; 80] 3) with 80. cbn [neqb R_num n0]. decide_R.
  lazy -[Rplus Rmult Rminus Ropp Rdiv Rinv IZR INR]. repeat (f_equal; try (field; lra)).
Qed.
Lemma dbl_m2 : mrem [105; -86; -99; 80] [2443 / 64; - (11181 / 160); 10147 / 320] = [- (1229437440 / 102961609); 1229437440 / 102961609].
Proof.
  unfold mrem, poly_gcd. change (porder [2443 / 64; - (11181 / 160); 10147 / 320]) with 2%nat. cbn [gcd_rec]. change (get [2443 / 64; - (11181 / 160); 10147 / 320] 2) with (10147 / 320). cbn [neqb R_num n0]. decide_R.
  lazy -[Rplus Rmult Rminus Ropp Rdiv Rinv IZR INR]. repeat (f_equal; try (field; lra)).
Qed.
Lemma dbl_m3 : mrem [2443 / 64; - (11181 / 160); 10147 / 320] [- (1229437440 / 102961609); 1229437440 / 102961609] = [0].
Proof.
  unfold mrem, poly_gcd. change (porder [- (1229437440 / 102961609); 1229437440 / 102961609]) with 1%nat. cbn [gcd_rec]. change (get [- (1229437440 / 102961609); 1229437440 / 102961609] 1) with (1229437440 / 102961609). cbn [neqb R_num n0]. decide_R.
  lazy -[Rplus Rmult Rminus Ropp Rdiv Rinv IZR INR]. repeat (f_equal; try (field; lra)).
Qed.
Lemma dbl_chain : sturm_chain dbl =
  [dbl; [105; -86; -99; 80]; [2443 / 64; - (11181 / 160); 10147 / 320]; [- (1229437440 / 102961609); 1229437440 / 102961609]; [0]].
Proof. unfold sturm_chain. change (porder dbl) with 4%nat. cbn [chain_tail]. rewrite dbl_d, dbl_m1, dbl_m2, dbl_m3. reflexivity. Qed.

Lemma xsign_fin a l x : xsign (poly_sub (a :: l) (Fin x)) = rsign (pval (a :: l) x).
Proof. unfold poly_sub, xsign. rewrite poly_eval_correct by discriminate. reflexivity. Qed.
Lemma xsign_ne f x : f <> [] -> xsign (poly_sub f (Fin x)) = rsign (pval f x).
Proof. destruct f; [congruence|]. intros _. apply xsign_fin. Qed.
Lemma rsign_neg v : v < 0 -> rsign v = (-1)%Z.
Proof. intros. unfold rsign. decide_R. reflexivity. Qed.
Lemma rsign_pos v : 0 < v -> rsign v = 1%Z.
Proof. intros. unfold rsign. decide_R. reflexivity. Qed.
Lemma rsign_0 v : v = 0 -> rsign v = 0%Z.
Proof. intros. unfold rsign. decide_R. reflexivity. Qed.

Lemma dbl_val x : pval dbl x = 20 * ((x - 1) * (x - 1)) * (x - 7 / 5) * (x + 7 / 4).
Proof. unfold dbl. rewrite !pval_cons, pval_nil. field. Qed.

(** the number of sign changes of the chain *)
Lemma dbl_changes_low x : 7 / 30 <= x < 1 -> sign_changes (sturm_chain dbl) (Fin x) = 2%nat.
Proof.
  intros Hx. rewrite dbl_chain. unfold sign_changes. cbn [sign_change_helper]. rewrite (xsign_ne dbl) by discriminate. rewrite !xsign_fin.
  rewrite (rsign_neg (pval dbl x)).
  2:{ rewrite dbl_val. assert (0 < (1 - x) * (1 - x)) by nra. assert (0 < (7 / 5 - x) * (x + 7 / 4)) by nra. nra. }
  rewrite (rsign_pos (pval [105; -86; -99; 80] x)).
  2:{ rewrite !pval_cons, pval_nil. replace (105 + x * (-86 + x * (-99 + x * (80 + x * 0)))) with ((1 - x) * (105 + 19 * x - 80 * (x * x))) by ring.
      apply Rmult_lt_0_compat; nra. }
  rewrite (rsign_pos (pval [2443 / 64; - (11181 / 160); 10147 / 320] x)).
  2:{ rewrite !pval_cons, pval_nil. replace (2443 / 64 + x * (- (11181 / 160) + x * (10147 / 320 + x * 0))) with ((1 - x) * (2443 / 64 - 10147 / 320 * x)) by field.
      apply Rmult_lt_0_compat; nra. }
  rewrite (rsign_neg (pval [- (1229437440 / 102961609); 1229437440 / 102961609] x)) by (rewrite !pval_cons, pval_nil; lra).
  rewrite (rsign_0 (pval [0] x)) by (rewrite !pval_cons, pval_nil; lra).
  reflexivity.
Qed.
Lemma dbl_changes_root : sign_changes (sturm_chain dbl) (Fin 1) = 0%nat.
Proof.
  rewrite dbl_chain. unfold sign_changes. cbn [sign_change_helper]. rewrite (xsign_ne dbl) by discriminate. rewrite !xsign_fin.
  rewrite !(rsign_0 (pval _ 1)) by (unfold dbl; rewrite !pval_cons, pval_nil; lra). reflexivity.
Qed.
Lemma dbl_changes_high x : x = 53 / 30 \/ x = 33 / 10 -> sign_changes (sturm_chain dbl) (Fin x) = 0%nat.
Proof.
  intros Hx. rewrite dbl_chain. unfold sign_changes. cbn [sign_change_helper]. rewrite (xsign_ne dbl) by discriminate. rewrite !xsign_fin.
  rewrite (rsign_pos (pval dbl x)) by (destruct Hx as [-> | ->]; unfold dbl; rewrite !pval_cons, pval_nil; lra).
  rewrite (rsign_pos (pval [105; -86; -99; 80] x)) by (destruct Hx as [-> | ->]; rewrite !pval_cons, pval_nil; lra).
  rewrite (rsign_pos (pval [2443 / 64; - (11181 / 160); 10147 / 320] x)) by (destruct Hx as [-> | ->]; rewrite !pval_cons, pval_nil; lra).
  rewrite (rsign_pos (pval [- (1229437440 / 102961609); 1229437440 / 102961609] x)) by (destruct Hx as [-> | ->]; rewrite !pval_cons, pval_nil; lra).
  rewrite (rsign_0 (pval [0] x)) by (rewrite !pval_cons, pval_nil; lra).
  reflexivity.
Qed.

(** the region left of the double root shrinks towards it *)
Lemma dbl_loop eps prec : 0 < eps -> forall n a, 7 / 30 <= a < 1 -> 1 - a <= eps * (7 / 30) * 2 ^ n ->
  exists m, a <= m <= 1 /\ forall fu, (n + 2 <= fu)%nat -> sturm_loop eps prec fu dbl [(a, 1, 2%nat)] [] = Ret [m; m].
Proof.
  intros He. induction n as [|n IH]; intros a Ha Hn.
  - exists ((a + 1) / 2). split; [lra|]. intros fu Hfu. destruct fu as [|[|fu]]; try lia. cbn [sturm_loop].
    rewrite (Rabs_pos_eq a), Rabs_R1, Rmin_left, (Rabs_left1 (a - 1)) by lra. cbn [pow] in Hn.
    destruct (Rltb_spec (eps * a) (- (a - 1))); [exfalso; nra|]. cbn [negb]. reflexivity.
  - destruct (Rlt_or_le (eps * a) (1 - a)) as [W|W].
    + destruct (IH ((a + 1) / 2)) as (m & Hm & E); [lra|cbn [pow] in Hn; lra|].
      exists m. split; [lra|]. intros fu Hfu. destruct fu as [|fu]; [lia|]. cbn [sturm_loop].
      rewrite (Rabs_pos_eq a), Rabs_R1, Rmin_left, (Rabs_left1 (a - 1)) by lra.
      destruct (Rltb_spec (eps * a) (- (a - 1))); [|exfalso; lra]. cbn [negb]. cbv zeta.
      unfold sturm_roots. rewrite (dbl_changes_low a), (dbl_changes_low ((a + 1) / 2)), dbl_changes_root by lra.
      cbn [Z.of_nat Pos.of_succ_nat Pos.succ Z.sub Z.add Z.opp Z.pos_sub Z.abs Z.to_nat Pos.to_nat Pos.iter_op Nat.add Nat.eqb negb Init.Nat.add].
      change (Z.to_nat 2) with 2%nat. cbn [Nat.add Nat.eqb negb sturm_half obind]. change (push_region (porder dbl) [] ((a + 1) / 2, 1, 2%nat)) with (Ret [((a + 1) / 2, 1, 2%nat)]).
      cbn [obind]. apply E. lia.
    + exists ((a + 1) / 2). split; [lra|]. intros fu Hfu. destruct fu as [|[|fu]]; try lia. cbn [sturm_loop].
      rewrite (Rabs_pos_eq a), Rabs_R1, Rmin_left, (Rabs_left1 (a - 1)) by lra.
      destruct (Rltb_spec (eps * a) (- (a - 1))); [exfalso; lra|]. cbn [negb]. reflexivity.
Qed.

Lemma dbl_positive eps prec : 0 < eps -> eps <= / 2 -> exists fuel m, m <= 1 /\ forall fu, (fuel <= fu)%nat -> solve_positive_sturm eps prec fu dbl = Ret [m; m].
Proof.
  intros He He2.
  assert (exists n, 1 - 7 / 30 <= eps * (7 / 30) * 2 ^ n) as [n Hn].
  { assert (Dl : 0 < eps * (7 / 30)) by lra.
    destruct (archimed_cor1_nat ((1 - 7 / 30) / (eps * (7 / 30)))) as [n Hn]. exists n.
    apply Rle_trans with (eps * (7 / 30) * INR n); [|apply Rmult_le_compat_l; [lra|apply pow2_INR]].
    replace (1 - 7 / 30) with (eps * (7 / 30) * ((1 - 7 / 30) / (eps * (7 / 30)))) at 1 by (field; lra).
    apply Rmult_le_compat_l; lra. }
  destruct (dbl_loop eps prec He n (7 / 30) ltac:(lra) Hn) as (m & Hm & E).
  exists (n + 4)%nat, m. split; [lra|]. intros fu Hfu. destruct fu as [|[|fu]]; try lia.
  unfold solve_positive_sturm. rewrite dbl_upper, dbl_lower. cbn [obind xltb]. decide_R.
  assert (R0 : sturm_roots (sturm_chain dbl) (Fin (7 / 30)) (Fin (33 / 10)) = 2%nat)
    by (unfold sturm_roots; rewrite dbl_changes_low, dbl_changes_high by lra; reflexivity).
  rewrite R0. change (push_region (porder dbl) [] (7 / 30, 33 / 10, 2%nat)) with (Ret [(7 / 30, 33 / 10, 2%nat)]). cbn [obind].
  cbn [sturm_loop].
  rewrite (Rabs_pos_eq (7 / 30)), (Rabs_pos_eq (33 / 10)), Rmin_left, (Rabs_left1 (7 / 30 - 33 / 10)) by lra.
  destruct (Rltb_spec (eps * (7 / 30)) (- (7 / 30 - 33 / 10))); [|exfalso; lra]. cbn [negb]. cbv zeta.
  replace ((7 / 30 + 33 / 10) / 2) with (53 / 30) by field.
  assert (R1 : sturm_roots (sturm_chain dbl) (Fin (7 / 30)) (Fin (53 / 30)) = 2%nat)
    by (unfold sturm_roots; rewrite dbl_changes_low, dbl_changes_high by lra; reflexivity).
  assert (R2 : sturm_roots (sturm_chain dbl) (Fin (53 / 30)) (Fin (33 / 10)) = 0%nat)
    by (unfold sturm_roots; rewrite !dbl_changes_high by lra; reflexivity).
  rewrite R1, R2. cbn [Nat.add Nat.eqb negb sturm_half obind].
  change (push_region (porder dbl) [] (7 / 30, 53 / 30, 2%nat)) with (Ret [(7 / 30, 53 / 30, 2%nat)]). cbn [obind sturm_loop].
  rewrite (Rabs_pos_eq (7 / 30)), (Rabs_pos_eq (53 / 30)), Rmin_left, (Rabs_left1 (7 / 30 - 53 / 30)) by lra.
  destruct (Rltb_spec (eps * (7 / 30)) (- (7 / 30 - 53 / 30))); [|exfalso; lra]. cbn [negb]. cbv zeta.
  replace ((7 / 30 + 53 / 30) / 2) with 1 by field.
  assert (R3 : sturm_roots (sturm_chain dbl) (Fin (7 / 30)) (Fin 1) = 2%nat)
    by (unfold sturm_roots; rewrite dbl_changes_low, dbl_changes_root by lra; reflexivity).
  assert (R4 : sturm_roots (sturm_chain dbl) (Fin 1) (Fin (53 / 30)) = 0%nat)
    by (unfold sturm_roots; rewrite dbl_changes_root, dbl_changes_high by lra; reflexivity).
  rewrite R3, R4. cbn [Nat.add Nat.eqb negb sturm_half obind].
  change (push_region (porder dbl) [] (7 / 30, 1, 2%nat)) with (Ret [(7 / 30, 1, 2%nat)]). cbn [obind].
  apply E. lia.
Qed.

Lemma dbl_reflect : reflect_poly dbl = [-49; -105; -43; 33; 20].
Proof. lazy -[Rplus Rmult Rminus Ropp Rdiv Rinv IZR INR]. repeat (f_equal; try ring). Qed.
Lemma dbl_reflect_val x : pval (reflect_poly dbl) x = 20 * ((x + 1) * (x + 1)) * (x + 7 / 5) * (x - 7 / 4).
Proof. rewrite dbl_reflect. rewrite !pval_cons, pval_nil. field. Qed.

Lemma rsort_In x l : In x (rsort l) -> In x l.
Proof. apply Permutation.Permutation_in, Permutation.Permutation_sym, rsort_perm. Qed.

(** 20 (x-1)^2 (x - 7/5) (x + 7/4): the second halving of [7/30, 33/10] hits the
    double root 1, where the whole Sturm chain vanishes.  The two roots counted
    between 7/30 and 53/30 are then both attributed to [7/30, 1], and the simple
    root 7/5 is lost: the result is (about) 1 twice and -7/4. *)
Theorem C14_multiple_root_refuted : forall eps prec veps ms prefer,
  0 < eps -> eps <= / 2 -> Rabs prec <= / 2 ->
  let f := [-49; 105; -43; -33; 20] in
  exists fuel L, (forall fu, (fuel <= fu)%nat -> solve_real_roots eps prec veps ms prefer 4 fu STURM f = Ret L) /\
    length L = 3%nat /\ (forall x, In x L -> x <= 1) /\ exactly_roots f [1; 7 / 5; -7 / 4].
Proof.
  intros eps prec veps ms pb He He2 Hp f. fold dbl in f. subst f.
  destruct (dbl_positive eps prec He He2) as (f1 & m & Hm & E1).
  assert (RZ : not_zero (reflect_poly dbl)) by (rewrite dbl_reflect; exists 20; split; [do 4 right; left; reflexivity|lra]).
  assert (RR : forall x, 0 < x -> (pval (reflect_poly dbl) x = 0 <-> x = 7 / 4)).
  { intros x Hx. rewrite dbl_reflect_val. split; [|intros ->; ring]. intros E. apply Rmult_integral in E. destruct E as [E|E]; [|lra].
    apply Rmult_integral in E. destruct E as [E|E]; [|lra]. nra. }
  destruct (positive_sturm_ok eps prec (/ 2) (reflect_poly dbl) He He2 Hp RZ) as [(f2 & L2 & E2)|B].
  - intros x Hx Rx D. apply RR in Rx; [|exact Hx]. subst x.
    pose proof (uniqueness_limite _ _ _ _ D (pval_derivable (reflect_poly dbl) (7 / 4))) as E.
    rewrite dbl_reflect in E. unfold fder in E. simpl in E. rewrite !pval_cons, pval_nil in E. cbn [get nth] in E. lra.
  - rewrite dbl_reflect. cbn. lia.
  - destruct (proj2 (E2 f2 (le_n _))) as (rs & A & Nd & HR).
    assert (Ers : rs = [7 / 4]).
    { assert (I : In (7 / 4) rs) by (apply HR; split; [lra|apply RR; lra]).
      assert (U : forall z, In z rs -> z = 7 / 4) by (intros z Hz; apply HR in Hz; apply RR; tauto).
      destruct rs as [|r [|r' rs]]; [destruct I|rewrite (U r) by (left; reflexivity); reflexivity|].
      exfalso. inversion Nd; subst. apply H1. left. rewrite (U r), (U r'); auto; [right; left|left]; reflexivity. }
    subst rs. inversion A as [|x ? L2' ? C A']; subst. inversion A'; subst.
    assert (Xp : -1 <= x).
    { unfold close_to in C. unfold Rabs in C. repeat destruct Rcase_abs in C; lra. }
    exists (Nat.max f1 f2), (rsort [m; m; - x]). split; [|split; [|split]].
    + intros fu Hfu. rewrite solver_unfold; [|change (porder dbl) with 4%nat; lia|change (get dbl 0) with (-49); lra|change (get dbl (porder dbl)) with 20; lra].
      cbn [solve_positive]. rewrite E1 by lia. rewrite (proj1 (E2 fu ltac:(lia))). cbn [obind map].
      rewrite sv_extend_total by (change (porder dbl) with 4%nat; cbn [length]; lia). reflexivity.
    + rewrite <- (Permutation.Permutation_length (rsort_perm _)). reflexivity.
    + intros y Hy. apply rsort_In in Hy. destruct Hy as [<-|[<-|[<-|[]]]]; lra.
    + intros z. unfold is_root. rewrite dbl_val. cbn [In]. split.
      * intros [<-|[<-|[<-|[]]]]; field.
      * intros E. apply Rmult_integral in E. destruct E as [E|E]; [|lra]. apply Rmult_integral in E. destruct E as [E|E]; [|lra].
        left. nra.
  - rewrite dbl_reflect in B. cbn in B. lia.
Qed.
Print Assumptions C14_multiple_root_refuted.

(** ** a simple root at a halving point next to a touching root *)
(** -8 (x-1) (x - 3/2)^2 (x^2 + 5/2 x + 3) *)
Definition tch : list R := [54; -81; 9; 14; 12; -8].
Lemma tch_upper : LMQ_upper tch = Ret (Fin 3).
Proof.
  unfold tch. lmq_run.
  pose proof (Rpower_le_root (- 2 ^ 2 * 14 / -8) 1 3 ltac:(lra) ltac:(lra) ltac:(lra)).
  pose proof (Rpower_le_root (- 2 ^ 3 * 9 / -8) 2 3 ltac:(lra) ltac:(lra) ltac:(lra)).
  cbn [pow] in *. lmq_close.
Qed.
Lemma tch_lower : LMQ_lower tch = Ret (Fin (1 / 3)).
Proof.
  unfold LMQ_lower, tch.
  assert (E : LMQ_upper (rev [54; -81; 9; 14; 12; -8]) = Ret (Fin 3)) by (lmq_run; lmq_close).
  rewrite E. cbn [obind xinv]. decide_R. reflexivity.
Qed.
Definition t1 : list R := [-81; 18; 42; 48; -40].
Definition t2 : list R := [- (2457 / 50); 1593 / 25; - (198 / 25); - (212 / 25)].
Definition t3 : list R := [3233925 / 5618; - (2503350 / 2809); 950250 / 2809].
Definition t4 : list R := [- (2358413928 / 1003305625); 1572275952 / 1003305625].
Lemma tch_chain : sturm_chain tch = [tch; t1; t2; t3; t4; [0]].
Proof.
  unfold sturm_chain. change (porder tch) with 5%nat. cbn [chain_tail].
  assert (E1 : poly_derivative true tch = t1) by (lazy -[Rplus Rmult Rminus Ropp Rdiv Rinv IZR INR]; repeat (f_equal; try (cbn [INR]; ring))).
  assert (E2 : mrem tch t1 = t2).
  { unfold mrem, poly_gcd. change (porder t1) with 4%nat. cbn [gcd_rec]. change (get t1 4) with (-40). cbn [neqb R_num n0]. decide_R.
    lazy -[Rplus Rmult Rminus Ropp Rdiv Rinv IZR INR]. repeat (f_equal; try (field; lra)). }
  assert (E3 : mrem t1 t2 = t3).
  { unfold mrem, poly_gcd. change (porder t2) with 3%nat. cbn [gcd_rec]. change (get t2 3) with (- (212 / 25)). cbn [neqb R_num n0]. decide_R.
    lazy -[Rplus Rmult Rminus Ropp Rdiv Rinv IZR INR]. repeat (f_equal; try (field; lra)). }
  assert (E4 : mrem t2 t3 = t4).
  { unfold mrem, poly_gcd. change (porder t3) with 2%nat. cbn [gcd_rec]. change (get t3 2) with (950250 / 2809). cbn [neqb R_num n0]. decide_R.
    lazy -[Rplus Rmult Rminus Ropp Rdiv Rinv IZR INR]. repeat (f_equal; try (field; lra)). }
  assert (E5 : mrem t3 t4 = [0]).
  { unfold mrem, poly_gcd. change (porder t4) with 1%nat. cbn [gcd_rec]. change (get t4 1) with (1572275952 / 1003305625). cbn [neqb R_num n0]. decide_R.
    lazy -[Rplus Rmult Rminus Ropp Rdiv Rinv IZR INR]. repeat (f_equal; try (field; lra)). }
  rewrite E1, E2, E3, E4, E5. reflexivity.
Qed.
Ltac tch_signs := rewrite tch_chain; unfold sign_changes; cbn [sign_change_helper]; unfold t1, t2, t3, t4;
  rewrite (xsign_ne tch) by discriminate; rewrite !xsign_fin; unfold tch; rewrite !pval_cons, !pval_nil;
  repeat match goal with |- context [rsign ?v] => first [rewrite (rsign_neg v) by lra | rewrite (rsign_pos v) by lra | rewrite (rsign_0 v) by lra] end;
  reflexivity.
Lemma tch_changes : sign_changes (sturm_chain tch) (Fin (1 / 3)) = 3%nat /\ sign_changes (sturm_chain tch) (Fin 1) = 2%nat /\
  sign_changes (sturm_chain tch) (Fin (5 / 3)) = 1%nat /\ sign_changes (sturm_chain tch) (Fin 3) = 1%nat.
Proof. repeat split; tch_signs. Qed.
Lemma tch_val x : pval tch x = -8 * (x - 1) * ((x - 3 / 2) * (x - 3 / 2)) * (x * x + 5 / 2 * x + 3).
Proof. unfold tch. rewrite !pval_cons, pval_nil. field. Qed.
Lemma tch_changes_low x : 1 / 3 <= x < 1 -> sign_changes (sturm_chain tch) (Fin x) = 3%nat.
Proof.
  intros Hx. rewrite tch_chain. unfold sign_changes. cbn [sign_change_helper].
  rewrite (xsign_ne tch), (xsign_ne t1), (xsign_ne t2), (xsign_ne t3), (xsign_ne t4), (xsign_ne [0]) by discriminate.
  rewrite (rsign_pos (pval tch x)).
  2:{ rewrite tch_val. assert (0 < (x - 3 / 2) * (x - 3 / 2)) by nra. assert (0 < x * x + 5 / 2 * x + 3) by nra.
      replace (-8 * (x - 1) * ((x - 3 / 2) * (x - 3 / 2)) * (x * x + 5 / 2 * x + 3)) with (8 * (1 - x) * ((x - 3 / 2) * (x - 3 / 2)) * (x * x + 5 / 2 * x + 3)) by ring.
      apply Rmult_lt_0_compat; [apply Rmult_lt_0_compat; [lra|assumption]|assumption]. }
  assert (X2 : 0 <= x * x <= 1) by nra. assert (X3 : 0 <= x * (x * x) <= 1) by nra.
  rewrite (rsign_neg (pval t1 x)).
  2:{ unfold t1. rewrite !pval_cons, pval_nil. assert (0 <= x * x * (1 - x)) by nra. assert (x * x * x * (1 - x) <= / 2) by nra. nra. }
  rewrite (rsign_neg (pval t2 x)).
  2:{ unfold t2. rewrite !pval_cons, pval_nil. 
      replace (- (2457 / 50) + x * (1593 / 25 + x * (- (198 / 25) + x * (- (212 / 25) + x * 0)))) with
        (- (91 / 50) - (1 - x) * (1593 / 25 - 198 / 25 * (1 + x) - 212 / 25 * (1 + x + x * x))) by field.
      assert (0 <= (1 - x) * (1593 / 25 - 198 / 25 * (1 + x) - 212 / 25 * (1 + x + x * x))) by (apply Rmult_le_pos; nra). lra. }
  rewrite (rsign_pos (pval t3 x)) by (unfold t3; rewrite !pval_cons, pval_nil; nra).
  rewrite (rsign_neg (pval t4 x)) by (unfold t4; rewrite !pval_cons, pval_nil; lra).
  rewrite (rsign_0 (pval [0] x)) by (rewrite !pval_cons, pval_nil; lra).
  reflexivity.
Qed.

Lemma tch_f x : f_bisection tch x = pval tch x.
Proof. apply poly_eval_correct. discriminate. Qed.
Lemma tch_neg x : 1 < x -> x <> 3 / 2 -> pval tch x < 0.
Proof.
  intros H1 H2. rewrite tch_val. assert (0 < (x - 3 / 2) * (x - 3 / 2)) by nra. assert (0 < x * x + 5 / 2 * x + 3) by nra.
  replace (-8 * (x - 1) * ((x - 3 / 2) * (x - 3 / 2)) * (x * x + 5 / 2 * x + 3)) with (- (8 * (x - 1) * ((x - 3 / 2) * (x - 3 / 2)) * (x * x + 5 / 2 * x + 3))) by ring.
  apply Ropp_lt_gt_0_contravar. apply Rmult_lt_0_compat; [apply Rmult_lt_0_compat; [lra|assumption]|assumption].
Qed.

(** between the simple root 1 and 5/3 the bisection runs to 1 *)
Lemma tch_bisect_loop prec : 0 < prec -> forall n hi tr, 1 < hi <= 5 / 3 -> hi <> 3 / 2 -> prec <= hi - 1 -> hi - 1 < prec * 2 ^ n ->
  exists x tr', bisect_loop n (f_bisection tch) prec 1 1 hi (f_bisection tch hi) tr = (true, x, tr') /\ 1 < x <= 4 / 3.
Proof.
  intros Hp. induction n as [|n IH]; intros hi tr Hhi Hne Hlow Hup; [cbn [pow] in Hup; lra|]. cbn [bisect_loop].
  rewrite mid_R. set (m := (1 + hi) / 2). assert (Hm : 1 < m < hi /\ m <= 4 / 3) by (unfold m; lra).
  cbn [nltb neqb nsub nmul n0 R_num]. rewrite !nabs_R, !tch_f.
  pose proof (tch_neg m ltac:(lra) ltac:(lra)) as Nm. pose proof (tch_neg hi ltac:(lra) Hne) as Nh.
  destruct (Reqb_spec m 1); [lra|]. destruct (Reqb_spec m hi); [lra|]. destruct (Reqb_spec (pval tch m) 0); [lra|]. rewrite !orb_false_r.
  destruct (Rltb_spec (Rabs (m - 1)) (Rabs (prec * m))) as [W|W].
  - exists m, (m :: tr). split; [reflexivity|lra].
  - assert (ES : Bool.eqb (signbit (pval tch m)) (signbit (pval tch hi)) = true) by (apply signbit_eq; left; split; assumption).
    rewrite ES. rewrite <- tch_f. assert (prec * m > 0) by (apply Rmult_lt_0_compat; lra). rewrite !Rabs_pos_eq in W by lra.
    apply IH; [lra|lra|nra|]. cbn [pow] in Hup. unfold m in *. lra.
Qed.
Lemma tch_bisect prec : / 2 ^ 50 <= prec -> prec <= / 2 ->
  exists x tr, bisection (f_bisection tch) prec (Fin 1) (Fin (5 / 3)) 0 = (true, Some x, tr) /\ 1 < x <= 4 / 3.
Proof.
  intros Hp1 Hp2. unfold bisection. cbn [nltb R_num]. destruct (Rltb_spec 1 (5 / 3)); [|lra]. cbn [negb].
  rewrite !nabs_R, !tch_f. assert (E1 : pval tch 1 = 0) by (rewrite tch_val; field). rewrite E1.
  pose proof (tch_neg (5 / 3) ltac:(lra) ltac:(lra)) as N.
  destruct (Bool.eqb (signbit 0) (signbit (pval tch (5 / 3)))) eqn:ES; [apply signbit_eq in ES; lra|]. clear ES.
  rewrite Rabs_R0. destruct (Rltb_spec 0 (Rabs (pval tch (5 / 3)))) as [_|W]; [|rewrite Rabs_left in W; lra].
  assert (Hit : (60 <= N.to_nat (N.pred (eff_iterations 0)))%nat).
  { assert (60 <= N.pred (eff_iterations 0))%N by (vm_compute; discriminate). lia. }
  revert Hit. generalize (N.to_nat (N.pred (eff_iterations 0))). intros n Hn.
  assert (P50 : 0 < / 2 ^ 50) by (apply Rinv_0_lt_compat, pow_lt; lra).
  destruct (tch_bisect_loop prec ltac:(lra) n (5 / 3) [5 / 3; 1]) as (x & tr & E & Hx); try lra.
  { assert (2 ^ 60 <= 2 ^ n) by (apply Rle_pow; [lra|exact Hn]).
    apply Rlt_le_trans with (prec * 2 ^ 60); [|apply Rmult_le_compat_l; lra].
    apply Rlt_le_trans with (/ 2 ^ 50 * 2 ^ 60); [|apply Rmult_le_compat_r; [apply pow_le; lra|exact Hp1]].
    change 60%nat with (50 + 10)%nat. rewrite pow_add. rewrite <- Rmult_assoc, Rinv_l by (apply pow_nonzero; lra). cbn [pow]. lra. }
  rewrite tch_f in E. rewrite E. exists x, tr. split; [reflexivity|exact Hx].
Qed.

Lemma tch_nobisect prec a : 1 / 3 <= a < 1 -> exists tr, bisection (f_bisection tch) prec (Fin a) (Fin 1) 0 = (false, None, tr).
Proof.
  intros Ha. apply C22_invalid. right. right. rewrite !tch_f, !tch_val. split; [|right; ring].
  assert (0 < (a - 3 / 2) * (a - 3 / 2)) by nra. assert (0 < a * a + 5 / 2 * a + 3) by nra.
  replace (-8 * (a - 1) * ((a - 3 / 2) * (a - 3 / 2)) * (a * a + 5 / 2 * a + 3)) with (8 * (1 - a) * ((a - 3 / 2) * (a - 3 / 2)) * (a * a + 5 / 2 * a + 3)) by ring.
  apply Rlt_le. apply Rmult_lt_0_compat; [apply Rmult_lt_0_compat; [lra|assumption]|assumption].
Qed.

Lemma tch_loop eps prec y : 0 < eps -> forall n a, 1 / 3 <= a < 1 -> 1 - a <= eps * (1 / 3) * 2 ^ n ->
  exists m, a <= m <= 1 /\ forall fu, (n + 2 <= fu)%nat -> sturm_loop eps prec fu tch [(a, 1, 1%nat)] [y] = Ret [y; m].
Proof.
  intros He. assert (STOP : forall a, 1 / 3 <= a < 1 -> ~ eps * a < 1 - a -> forall fu, (2 <= fu)%nat ->
    sturm_loop eps prec fu tch [(a, 1, 1%nat)] [y] = Ret [y; (a + 1) / 2]).
  { intros a Ha W fu Hfu. destruct fu as [|[|fu]]; try lia. cbn [sturm_loop].
    rewrite (Rabs_pos_eq a), Rabs_R1, Rmin_left, (Rabs_left1 (a - 1)) by lra.
    destruct (Rltb_spec (eps * a) (- (a - 1))); [exfalso; lra|]. cbn [negb]. reflexivity. }
  induction n as [|n IH]; intros a Ha Hn.
  - exists ((a + 1) / 2). split; [lra|]. intros fu Hfu. apply STOP; [exact Ha| |lia]. cbn [pow] in Hn. nra.
  - destruct (Rlt_or_le (eps * a) (1 - a)) as [W|W].
    + destruct (IH ((a + 1) / 2)) as (m & Hm & E); [lra|cbn [pow] in Hn; lra|].
      exists m. split; [lra|]. intros fu Hfu. destruct fu as [|fu]; [lia|]. cbn [sturm_loop].
      rewrite (Rabs_pos_eq a), Rabs_R1, Rmin_left, (Rabs_left1 (a - 1)) by lra.
      destruct (Rltb_spec (eps * a) (- (a - 1))); [|exfalso; lra]. cbn [negb]. cbv zeta.
      assert (R1 : sturm_roots (sturm_chain tch) (Fin a) (Fin ((a + 1) / 2)) = 0%nat)
        by (unfold sturm_roots; rewrite !tch_changes_low by lra; reflexivity).
      assert (R2 : sturm_roots (sturm_chain tch) (Fin ((a + 1) / 2)) (Fin 1) = 1%nat)
        by (unfold sturm_roots; rewrite tch_changes_low, (proj1 (proj2 tch_changes)) by lra; reflexivity).
      rewrite R1, R2. cbn [Nat.add Nat.eqb negb sturm_half obind].
      destruct (tch_nobisect prec ((a + 1) / 2) ltac:(lra)) as [tr ->].
      change (push_region (porder tch) [] ((a + 1) / 2, 1, 1%nat)) with (Ret [((a + 1) / 2, 1, 1%nat)]).
      cbn [obind]. apply E. lia.
    + exists ((a + 1) / 2). split; [lra|]. intros fu Hfu. apply STOP; [exact Ha|lra|lia].
Qed.

Lemma tch_positive eps prec : 0 < eps -> eps <= / 2 -> / 2 ^ 50 <= prec -> prec <= / 2 ->
  exists fuel x m, x <= 4 / 3 /\ m <= 1 /\ forall fu, (fuel <= fu)%nat -> solve_positive_sturm eps prec fu tch = Ret [x; m].
Proof.
  intros He He2 Hp1 Hp2.
  assert (exists n, 1 - 1 / 3 <= eps * (1 / 3) * 2 ^ n) as [n Hn].
  { assert (Dl : 0 < eps * (1 / 3)) by lra.
    destruct (archimed_cor1_nat ((1 - 1 / 3) / (eps * (1 / 3)))) as [n Hn]. exists n.
    apply Rle_trans with (eps * (1 / 3) * INR n); [|apply Rmult_le_compat_l; [lra|apply pow2_INR]].
    replace (1 - 1 / 3) with (eps * (1 / 3) * ((1 - 1 / 3) / (eps * (1 / 3)))) at 1 by (field; lra).
    apply Rmult_le_compat_l; lra. }
  destruct (tch_bisect prec Hp1 Hp2) as (x & tr & EB & Hx).
  destruct (tch_loop eps prec x He n (1 / 3) ltac:(lra) Hn) as (m & Hm & E).
  exists (n + 4)%nat, x, m. split; [lra|]. split; [lra|]. intros fu Hfu. destruct fu as [|[|fu]]; try lia.
  destruct tch_changes as (V1 & V2 & V3 & V4).
  unfold solve_positive_sturm. rewrite tch_upper, tch_lower. cbn [obind xltb]. decide_R.
  assert (R0 : sturm_roots (sturm_chain tch) (Fin (1 / 3)) (Fin 3) = 2%nat) by (unfold sturm_roots; rewrite V1, V4; reflexivity).
  rewrite R0. change (push_region (porder tch) [] (1 / 3, 3, 2%nat)) with (Ret [(1 / 3, 3, 2%nat)]). cbn [obind].
  cbn [sturm_loop].
  rewrite (Rabs_pos_eq (1 / 3)), (Rabs_pos_eq 3), Rmin_left, (Rabs_left1 (1 / 3 - 3)) by lra.
  destruct (Rltb_spec (eps * (1 / 3)) (- (1 / 3 - 3))); [|exfalso; lra]. cbn [negb]. cbv zeta.
  replace ((1 / 3 + 3) / 2) with (5 / 3) by field.
  assert (R1 : sturm_roots (sturm_chain tch) (Fin (1 / 3)) (Fin (5 / 3)) = 2%nat) by (unfold sturm_roots; rewrite V1, V3; reflexivity).
  assert (R2 : sturm_roots (sturm_chain tch) (Fin (5 / 3)) (Fin 3) = 0%nat) by (unfold sturm_roots; rewrite V3, V4; reflexivity).
  rewrite R1, R2. cbn [Nat.add Nat.eqb negb sturm_half obind].
  change (push_region (porder tch) [] (1 / 3, 5 / 3, 2%nat)) with (Ret [(1 / 3, 5 / 3, 2%nat)]). cbn [obind sturm_loop].
  rewrite (Rabs_pos_eq (1 / 3)), (Rabs_pos_eq (5 / 3)), Rmin_left, (Rabs_left1 (1 / 3 - 5 / 3)) by lra.
  destruct (Rltb_spec (eps * (1 / 3)) (- (1 / 3 - 5 / 3))); [|exfalso; lra]. cbn [negb]. cbv zeta.
  replace ((1 / 3 + 5 / 3) / 2) with 1 by field.
  assert (R3 : sturm_roots (sturm_chain tch) (Fin (1 / 3)) (Fin 1) = 1%nat) by (unfold sturm_roots; rewrite V1, V2; reflexivity).
  assert (R4 : sturm_roots (sturm_chain tch) (Fin 1) (Fin (5 / 3)) = 1%nat) by (unfold sturm_roots; rewrite V2, V3; reflexivity).
  rewrite R3, R4. cbn [Nat.add Nat.eqb negb sturm_half obind].
  destruct (tch_nobisect prec (1 / 3) ltac:(lra)) as [tr' ->].
  change (push_region (porder tch) [] (1 / 3, 1, 1%nat)) with (Ret [(1 / 3, 1, 1%nat)]). cbn [obind].
  rewrite EB. change (sv_push (porder tch) [] x) with (Ret [x]). cbn [obind]. apply E. lia.
Qed.

Lemma tch_reflect : reflect_poly tch = [54; 81; 9; -14; 12; 8].
Proof. lazy -[Rplus Rmult Rminus Ropp Rdiv Rinv IZR INR]. repeat (f_equal; try ring). Qed.

(** -8 (x-1) (x - 3/2)^2 (x^2 + 5/2 x + 3): halving hits the simple root 1; the
    sign bit of 0 is that of a positive number, so the bisection meant for the
    double root 3/2 in (1, 5/3] runs into 1 instead.  Both returned values are
    near 1 and 3/2 is lost. *)
Theorem C14_touching_root_refuted : forall eps prec veps ms prefer,
  0 < eps -> eps <= / 2 -> / 2 ^ 50 <= prec -> prec <= / 2 ->
  let f := [54; -81; 9; 14; 12; -8] in
  exists fuel L, (forall fu, (fuel <= fu)%nat -> solve_real_roots eps prec veps ms prefer 5 fu STURM f = Ret L) /\
    length L = 2%nat /\ (forall x, In x L -> x <= 4 / 3) /\ exactly_roots f [1; 3 / 2].
Proof.
  intros eps prec veps ms pb He He2 Hp1 Hp2 f. fold tch in f. subst f.
  destruct (tch_positive eps prec He He2 Hp1 Hp2) as (f1 & x & m & Hx & Hm & E1).
  assert (P50 : 0 < / 2 ^ 50) by (apply Rinv_0_lt_compat, pow_lt; lra).
  assert (RZ : not_zero (reflect_poly tch)) by (rewrite tch_reflect; exists 8; split; [do 5 right; left; reflexivity|lra]).
  assert (RR : forall y, 0 < y -> pval (reflect_poly tch) y <> 0).
  { intros y Hy. rewrite tch_reflect, !pval_cons, pval_nil.
    replace (54 + y * (81 + y * (9 + y * (-14 + y * (12 + y * (8 + y * 0)))))) with (8 * (y + 1) * ((y + 3 / 2) * (y + 3 / 2)) * (y * y - 5 / 2 * y + 3)) by field.
    apply Rgt_not_eq. apply Rmult_lt_0_compat; [apply Rmult_lt_0_compat; [lra|nra]|].
    pose proof (Rle_0_sqr (y - 5 / 4)) as Y. unfold Rsqr in Y. lra. }
  destruct (positive_sturm_ok eps prec (/ 2) (reflect_poly tch) He He2 ltac:(rewrite Rabs_pos_eq; lra) RZ) as [(f2 & L2 & E2)|B].
  - intros y Hy Ry. exfalso. apply (RR y Hy Ry).
  - rewrite tch_reflect. cbn. lia.
  - destruct (proj2 (E2 f2 (le_n _))) as (rs & A & _ & HR).
    destruct rs as [|r rs]; [|exfalso; destruct (proj1 (HR r) (or_introl eq_refl)) as [P Z]; apply (RR r P Z)].
    inversion A; subst.
    exists (Nat.max f1 f2), (rsort [x; m]). split; [|split; [|split]].
    + intros fu Hfu. rewrite solver_unfold; [|change (porder tch) with 5%nat; lia|change (get tch 0) with 54; lra|change (get tch (porder tch)) with (-8); lra].
      cbn [solve_positive]. rewrite E1 by lia. rewrite (proj1 (E2 fu ltac:(lia))). cbn [obind map].
      rewrite sv_extend_total by (change (porder tch) with 5%nat; cbn [length]; lia). reflexivity.
    + rewrite <- (Permutation.Permutation_length (rsort_perm _)). reflexivity.
    + intros y Hy. apply rsort_In in Hy. destruct Hy as [<-|[<-|[]]]; lra.
    + intros z. unfold is_root. rewrite tch_val. cbn [In]. split.
      * intros [<-|[<-|[]]]; field.
      * intros E. apply Rmult_integral in E. destruct E as [E|E]; [|exfalso; pose proof (Rle_0_sqr (z + 5 / 4)) as Y; unfold Rsqr in Y; lra].
        apply Rmult_integral in E. destruct E as [E|E]; [left; lra|].
        right; left. apply Rmult_integral in E. lra.
  - rewrite tch_reflect in B. cbn in B. lia.
Qed.
Print Assumptions C14_touching_root_refuted.

(** ** a polynomial with a double root that meets the hypotheses of C14_sturm_partial *)
(** (3x-1)^2 (x^2+1): bounds 1/12 and 4/3, and 1/3 = 1/12 + 5/4 * 1/5 *)
Definition third : list R := [1; -6; 10; -6; 9].
Lemma third_upper : LMQ_upper third = Ret (Fin (4 / 3)).
Proof. unfold third. lmq_run. lmq_close. Qed.
Lemma third_lower : LMQ_lower third = Ret (Fin (1 / 12)).
Proof.
  unfold LMQ_lower, third.
  assert (E : LMQ_upper (rev [1; -6; 10; -6; 9]) = Ret (Fin 12)) by (lmq_run; lmq_close).
  rewrite E. cbn [obind xinv]. decide_R. reflexivity.
Qed.
Lemma third_val x : pval third x = (3 * x - 1) * (3 * x - 1) * (x * x + 1).
Proof. unfold third. rewrite !pval_cons, pval_nil. ring. Qed.
Example C14_multiple_example :
  positive_roots_tame third /\ positive_roots_tame (reflect_poly third) /\
  exactly_roots third [1 / 3] /\ derivable_pt_lim (pval third) (1 / 3) 0 /\
  exists fuel x, (forall fu, (fuel <= fu)%nat ->
    solve_real_roots (/ 1024) (/ 1024) 0 1000 (fun _ _ _ _ => true) 4 fu STURM third = Ret [x]) /\ close_to (/ 1024) x (1 / 3).
Proof.
  assert (T1 : positive_roots_tame third).
  { right. intros l u k i El Eu. rewrite third_lower in El. rewrite third_upper in Eu. injection El as <-. injection Eu as <-.
    unfold is_root. rewrite third_val. intros E. apply Rmult_integral in E. destruct E as [E|E]; [|nra].
    assert (E' : 3 * (1 / 12 + (4 / 3 - 1 / 12) * (INR i / 2 ^ k)) - 1 = 0) by nra. clear E.
    pose proof (pow_lt 2 k ltac:(lra)) as P.
    assert (E5 : 5 * INR i = 2 ^ k).
    { apply Rmult_eq_reg_r with (/ 2 ^ k); [|apply Rinv_neq_0_compat; lra]. rewrite Rinv_r by lra. unfold Rdiv in E'. lra. }
    assert (N : (5 * i = 2 ^ k)%nat).
    { apply INR_eq. rewrite mult_INR, pow_INR. change (INR 2) with 2. rewrite <- E5. simpl. ring. }
    assert (M : forall k, (2 ^ k mod 5 <> 0)%nat).
    { clear. intros k. enough (exists r, (2 ^ k mod 5 = r)%nat /\ (r = 1 \/ r = 2 \/ r = 4 \/ r = 3)%nat) as (r & -> & H) by lia.
      induction k as [|k (r & E & H)]; [exists 1%nat; split; [reflexivity|lia]|].
      exists ((2 * r) mod 5)%nat. split.
      - rewrite Nat.pow_succ_r', Nat.mul_mod, E by lia. rewrite (Nat.mod_small 2) by lia. reflexivity.
      - destruct H as [-> | [-> | [-> | ->]]]; cbn; lia. }
    apply (M k). rewrite <- N, Nat.mul_comm. apply Nat.mod_mul. lia. }
  assert (T2 : positive_roots_tame (reflect_poly third)).
  { left. intros x Hx Rx. exfalso. unfold is_root in Rx. rewrite (proj2 (reflect_poly_correct third ltac:(discriminate))), third_val in Rx.
    apply Rmult_integral in Rx. destruct Rx as [E|E]; [apply Rmult_integral in E; lra|nra]. }
  assert (X : exactly_roots third [1 / 3]).
  { intros z. unfold is_root. rewrite third_val. cbn [In]. split; [intros [<-|[]]; field|].
    intros E. apply Rmult_integral in E. destruct E as [E|E]; [|nra]. left. apply Rmult_integral in E. lra. }
  split; [exact T1|]. split; [exact T2|]. split; [exact X|]. split.
  { pose proof (pval_derivable third (1 / 3)) as D.
    assert (E : pval (fder third) (1 / 3) = 0) by (unfold fder, third; simpl; rewrite !pval_cons, pval_nil; cbn [get nth]; field).
    rewrite E in D. exact D. }
  destruct (C14_sturm_partial (/ 1024) (/ 1024) 0 1000 (fun _ _ _ _ => true) (/ 1024) third) as (fuel & L & E & _ & rs & A & Nd & XR); auto; try lra.
  { rewrite Rabs_pos_eq; lra. } { cbn; lia. } { cbn; lra. } { cbn; lra. }
  assert (Ers : rs = [1 / 3]).
  { assert (U : forall z, In z rs -> z = 1 / 3) by (intros z Hz; apply XR in Hz; apply X in Hz; destruct Hz as [<-|[]]; reflexivity).
    assert (I : In (1 / 3) rs) by (apply XR, X; left; reflexivity).
    destruct rs as [|r [|r' rs]]; [destruct I|rewrite (U r) by (left; reflexivity); reflexivity|].
    exfalso. inversion Nd; subst. apply H1. left. rewrite (U r), (U r'); auto; [right; left|left]; reflexivity. }
  subst rs. inversion A as [|x ? L' ? C A']; subst. inversion A'; subst.
  exists fuel, x. split; [exact E|exact C].
Qed.
