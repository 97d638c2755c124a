(** C14: the whole solver with the VCA bounder. *)
From Coq Require Import List Reals Lra Lia Arith Psatz ZArith.
From Verif Require Import Outcome Num PolyModel PolySpec PolyBase PolyProofs PolyCalc NumericModel NumericSpec NumericProofs PropNumeric
  RootsModel RootSpec Descartes LMQ Isolate Sturm SolverModel Solve Solver PropIsolate IsolateTerm VasTerm PropIsolateTerm PropSolver.
Import ListNotations.
Open Scope R_scope.

(** the ends of VCA's intervals are dyadic multiples of the bound *)
Lemma extend_app {A} cap (l m L : list A) : sv_extend cap l m = Ret L -> L = l ++ m.
Proof.
  revert l. induction m as [|x t IH]; intros l E; cbn [sv_extend] in E.
  - injection E as <-. rewrite app_nil_r. reflexivity.
  - unfold sv_push in E. destruct (Nat.ltb _ _); [|discriminate]. cbn [obind] in E. apply IH in E. rewrite <- app_assoc in E. exact E.
Qed.
Lemma vca_worker_dyadic : forall fu f L, vca_worker fu f = Ret L -> forall p, In p L -> dyadic (fst p) /\ dyadic (snd p).
Proof.
  induction fu as [|fu IH]; intros f L E p Hp; cbn [vca_worker] in E; [discriminate|].
  destruct (budan_01 f) as [|[|n]].
  - injection E as <-. destruct Hp.
  - injection E as <-. apply In_nth with (d := (0, 1)) in Hp as (k & Hk & <-).
    destruct (porder f); [cbn in Hk; lia|]. rewrite firstn_cons, firstn_nil in Hk |- *. cbn [length] in Hk.
    destruct k as [|k]; [|lia]. cbn. split; [exists O, O|exists O, 1%nat]; simpl; lra.
  - apply obind_ret in E as (p1 & _ & E). apply obind_ret in E as (L1 & E1 & E). apply obind_ret in E as (L2 & E2 & E).
    apply extend_app in E. rewrite E in Hp. apply in_app_or in Hp. destruct Hp as [Hp|Hp]; apply in_map_iff in Hp as ([a b] & <- & Hq).
    + destruct (IH _ _ E1 _ Hq) as [A B]. cbn [fst snd] in *. split; apply dyadic_half; assumption.
    + destruct (IH _ _ E2 _ Hq) as [A B]. cbn [fst snd] in *. split; apply dyadic_half1; assumption.
Qed.

(** [z] is k/2^n times the computed upper bound on the positive roots of [f] *)
Definition on_vca_grid (f : list R) (z : R) : Prop :=
  exists u (n k : nat), LMQ_upper f = Ret (Fin u) /\ z = INR k / 2 ^ n * u.
(** no positive root of [f] is such a point *)
Definition off_vca_grid (f : list R) : Prop := forall z, 0 < z -> is_root f z -> ~ on_vca_grid f z.

Lemma VCA_grid fuel f L : VCA_bounds fuel f = Ret L -> forall p, In p L -> on_vca_grid f (fst p) /\ on_vca_grid f (snd p).
Proof.
  unfold VCA_bounds, on_vca_grid. destruct (LMQ_upper f) as [[u| |]| | |]; cbn [obind]; try discriminate.
  destruct (Reqb u 0); [intros E; injection E as <-; intros p []|].
  intros E. apply obind_ret in E as (b & Eb & E). injection E as <-. intros p Hp. apply in_map_iff in Hp as ([x y] & <- & Hq).
  destruct (vca_worker_dyadic _ _ _ Eb _ Hq) as [(n & k & A) (m & j & B)]. cbn [fst snd] in *. subst.
  split; [exists u, n, k|exists u, m, j]; auto.
Qed.

(** bisecting the intervals one after the other throws only when a bisection
    that was given a proper bracket used up its 2^64 - 2 passes *)
Lemma bisect_all_throw prec f : f <> [] -> forall L retval,
  Forall (fun p => fst p < snd p /\ pval f (fst p) * pval f (snd p) < 0) L ->
  bisect_all prec f (map (fun '(u, v) => (Fin u, Fin v)) L) retval = Throw ->
  exists a b x tr, In (a, b) L /\ bisection (f_bisection f) prec (Fin a) (Fin b) 0 = (false, Some x, tr).
Proof.
  intros Hf. induction L as [|[u v] L IH]; intros retval Ho; cbn [map bisect_all]; [discriminate|].
  inversion Ho as [|? ? [Huv Hs] Ho']; subst. cbn [fst snd] in *.
  assert (FB : forall y, f_bisection f y = pval f y) by (intros y; apply poly_eval_correct, Hf).
  destruct (C22_bisection (f_bisection f) prec u v 0 Huv) as (ok & x & tr & E & _).
  { unfold sign_change. rewrite !FB. destruct (Rlt_or_le (pval f u) 0); [left|right]; split; try lra; nra. }
  rewrite E. destruct ok; [|intros _; exists u, v, x, tr; split; [left; reflexivity|exact E]].
  unfold sv_push. destruct (Nat.ltb _ _); cbn [obind]; [|discriminate]. intros E'. destruct (IH _ Ho' E') as (a & b & y & tr' & A & B).
  exists a, b, y, tr'. split; [right; exact A|exact B].
Qed.

Definition bracket_failed (prec : R) (f : list R) : Prop :=
  exists a b x tr, a < b /\ pval f a * pval f b < 0 /\
    bisection (f_bisection f) prec (Fin a) (Fin b) 0 = (false, Some x, tr).

Lemma positive_vca_ok eps prec veps tol f : Rabs prec <= tol -> not_zero f -> (porder f < 31)%nat -> get f 0 <> 0 ->
  simple_roots f -> off_vca_grid f ->
  exists n, (exists L, positive_solution tol f L /\ forall fuel, (n <= fuel)%nat -> solve_positive eps prec veps fuel VCA f = Ret L) \/
    (bracket_failed prec f /\ forall fuel, (n <= fuel)%nat -> solve_positive eps prec veps fuel VCA f = Throw).
Proof.
  intros Hp Hz Ho H0 Hs Hoff. pose proof (not_zero_nil f Hz) as Hf.
  destruct (C19_vca_terminates f Hz Ho (fun x _ => Hs x)) as (n & L & HL). exists n.
  pose proof (VCA_bounds_correct n f Hz) as V. rewrite (HL n (le_n n)) in V. destruct V as (HF & HLen & u & Hu & V1 & V2 & V3).
  pose proof (VCA_grid n f L (HL n (le_n n))) as HG. rewrite Forall_forall in HF.
  assert (IN : forall p z, In p L -> inside p z -> fst p < z < snd p).
  { intros p z Hin Hi. specialize (HF p Hin). unfold inside in Hi. lra. }
  assert (NZ : forall z, 0 <= z -> on_vca_grid f z -> pval f z <> 0).
  { intros z Hz0 Hgz E. destruct Hz0 as [Hz0|<-]; [exact (Hoff z Hz0 E Hgz)|]. rewrite pval_0 in E. contradiction. }
  assert (BR : Forall (fun p => fst p < snd p /\ pval f (fst p) * pval f (snd p) < 0) L).
  { apply Forall_forall. intros p Hin. specialize (HF p Hin). destruct (HG p Hin) as [G1 G2]. split; [apply HF|].
    destruct (V2 p Hin) as (z & ((Zp & Ez) & Iz) & U). pose proof (IN p z Hin Iz).
    assert (N1 := NZ (fst p) ltac:(lra) G1). assert (N2 := NZ (snd p) ltac:(lra) G2).
    apply (simple_cross f z); auto. intros y [[Y1|Y1] [Y2|Y2]] Ey; subst; try contradiction.
    apply U. split; [split; [lra|exact Ey]|left; lra]. }
  pose proof (bisect_all_ok prec tol f Hp Hz Hs L [] []) as Q.
  pose proof (bisect_all_throw prec f Hf L [] BR) as T.
  assert (Hfst : Forall (fun p => fst p < snd p) L) by (eapply Forall_impl; [|exact BR]; intros a Ha; apply Ha).
  specialize (Q Hfst).
  assert (Hone : forall p, In p L -> exists z, (pval f z = 0 /\ inside p z) /\ forall z', pval f z' = 0 /\ inside p z' -> z' = z).
  { intros p Hin. destruct (V2 p Hin) as (z & ((Pz & Ez) & Iz) & U). exists z. split; [split; assumption|].
    intros z' [E' I']. apply U. split; [split; [|exact E']|exact I']. pose proof (IN p z' Hin I'). specialize (HF p Hin). lra. }
  specialize (Q Hone ltac:(constructor)).
  destruct (bisect_all prec f (map (fun '(u, v) => (Fin u, Fin v)) L) []) as [r| | |] eqn:EB; [| |exfalso; cbn [length] in Q; lia|contradiction].
  - left. exists r. split; [|intros fu Hfu; cbn [solve_positive]; rewrite (HL fu Hfu); exact EB].
    destruct Q as (rv & zs & -> & A & Bz). apply sort_solution. exists zs. split; [exact A|]. split; [apply (picked_NoDup L zs f V3 Bz)|].
    intros z. split.
    + intros Hin. destruct (picked_In2 _ _ _ Bz z Hin) as (p & P1 & P2 & P3). split; [|exact P3]. pose proof (IN p z P1 P2). specialize (HF p P1). lra.
    + intros [Pz Ez]. destruct (V1 z (conj Pz Ez)) as [(p & P1 & P2)|(m & k & D)].
      * destruct (picked_In _ _ _ Bz p P1) as (z' & Q1 & Q2 & Q3). destruct (Hone p P1) as (w & _ & U).
        assert (z = w) by (apply U; split; assumption). assert (z' = w) by (apply U; split; assumption). congruence.
      * exfalso. apply (Hoff z Pz Ez). exists u, m, k. split; [exact Hu|]. rewrite <- D.
        destruct (Req_dec u 0) as [-> |Nu]; [|field; exact Nu]. exfalso.
        pose proof (lmq_upper_correct f Hz) as B. rewrite Hu in B. destruct B as (_ & B & _). exact (B z Pz ltac:(lra) Ez).
  - right. split; [|intros fu Hfu; cbn [solve_positive]; rewrite (HL fu Hfu); exact EB].
    destruct (T eq_refl) as (a & b & x & tr & Hin & E). exists a, b, x, tr. rewrite Forall_forall in BR. destruct (BR _ Hin). auto.
Qed.

(** The VCA mode of the solver, order 4 to 30, neither end coefficient zero, real
    roots simple and none of them at a dyadic fraction of the computed bound (of f
    for the positive roots, of f(-x) for the negative ones; VCA drops such a
    root, C19_midpoint_refuted): with enough recursion it either returns a
    non-decreasing list with each real root once, within the tolerance, and
    nothing else, or throws because bisection of an interval whose ends have
    values of opposite sign used up its 2^64 - 2 passes (C22). *)
Theorem C14_vca_partial : forall eps prec veps ms prefer tol (f : list R),
  Rabs prec <= tol -> (5 <= length f <= 31)%nat -> nth 0 f 0 <> 0 -> last f 0 <> 0 -> simple_roots f ->
  off_vca_grid f -> off_vca_grid (reflect_poly f) ->
  exists n, 
    (exists L, (nondecreasing L /\ exists rs, Forall2 (close_to tol) L rs /\ NoDup rs /\ exactly_roots f rs) /\
       forall fuel, (n <= fuel)%nat -> solve_real_roots eps prec veps ms prefer (length f - 1) fuel VCA f = Ret L) \/
    ((bracket_failed prec f \/ bracket_failed prec (reflect_poly f)) /\
       forall fuel, (n <= fuel)%nat -> solve_real_roots eps prec veps ms prefer (length f - 1) fuel VCA f = Throw).
Proof.
  intros eps prec veps ms pf tol f Hp Ho H0 Hl Hs G1 G2.
  assert (EL : last f 0 = get f (porder f)).
  { unfold get, porder. destruct f as [|c f]; [cbn in Ho; lia|]. clear. revert c. induction f as [|d f IH]; intros c; [reflexivity|].
    change (last (c :: d :: f) 0) with (last (d :: f) 0). rewrite IH. reflexivity. }
  rewrite EL in Hl. replace (length f - 1)%nat with (porder f) by (unfold porder; lia).
  assert (Hf : f <> []) by (intros ->; cbn in Ho; lia).
  assert (Hz : not_zero f). { exists (nth 0 f 0). split; [apply nth_In; lia|exact H0]. }
  destruct (reflect_poly_correct f Hf) as [RL _].
  assert (RO : porder (reflect_poly f) = porder f) by (unfold porder; rewrite RL; reflexivity).
  assert (EO : exists k, porder f = S k) by (exists (porder f - 1)%nat; unfold porder; lia). destruct EO as [k EO].
  assert (UF : forall fu, solve_real_roots eps prec veps ms pf (porder f) fu VCA f =
    (do roots <- solve_positive eps prec veps fu VCA f; do neg <- solve_positive eps prec veps fu VCA (reflect_poly f);
     do roots <- sv_extend (porder f) roots (map Ropp neg); Ret (rsort roots))).
  { intros fu. rewrite EO at 1. apply solver_unfold; auto. unfold porder; lia. }
  destruct (positive_vca_ok eps prec veps tol f Hp Hz ltac:(unfold porder; lia) H0 Hs G1) as (n1 & P1).
  destruct (positive_vca_ok eps prec veps tol (reflect_poly f) Hp (reflect_not_zero f Hz) ltac:(rewrite RO; unfold porder; lia)
    ltac:(rewrite get_reflect_0; auto) (simple_reflect f Hf Hs) G2) as (n2 & P2).
  exists (Nat.max n1 n2). destruct P1 as [(L1 & S1 & E1)|(B1 & E1)].
  - destruct P2 as [(L2 & S2 & E2)|(B2 & E2)].
    + left. destruct (combine_solutions tol f L1 L2 Hz H0 S1 S2) as (L & E & FS). exists (rsort L). split; [exact FS|].
      intros fu Hfu. rewrite UF, E1, E2 by lia. cbn [obind]. rewrite E. reflexivity.
    + right. split; [right; exact B2|]. intros fu Hfu. rewrite UF, E1, E2 by lia. reflexivity.
  - right. split; [left; exact B1|]. intros fu Hfu. rewrite UF, E1 by lia. reflexivity.
Qed.
Print Assumptions C14_vca_partial.

(** (x-1)(x-2)(x^2+1) = x^4 - 3x^3 + 3x^2 - 3x + 2 meets the hypotheses: its bound is 6 *)
Example C14_vca_example : let f := [2; -3; 3; -3; 1] in
  nth 0 f 0 <> 0 /\ last f 0 <> 0 /\ simple_roots f /\ off_vca_grid f /\ off_vca_grid (reflect_poly f) /\ exactly_roots f [1; 2].
Proof.
  intros f.
  assert (F : forall x, pval f x = (x - 1) * (x - 2) * (x * x + 1)) by (intros x; unfold f; rewrite !pval_cons, pval_nil; ring).
  assert (X : exactly_roots f [1; 2]).
  { intros x. unfold is_root. rewrite F. cbn [In]. split; [intros [<-|[<-|[]]]; ring|]. intros E.
    apply Rmult_integral in E as [E|E]; [|nra]. apply Rmult_integral in E as [E|E]; [left|right; left]; lra. }
  split; [cbn; lra|]. split; [cbn; lra|]. split.
  { intros x Hx D. pose proof (uniqueness_limite _ _ _ _ D (pval_derivable f x)) as E.
    assert (EV : pval (fder f) x = 4 * x^3 - 9 * x^2 + 6 * x - 3).
    { unfold f, fder. simpl map. rewrite !pval_cons, pval_nil. cbn [get nth INR]. ring. }
    rewrite EV in E. apply X in Hx. destruct Hx as [<-|[<-|[]]]; lra. }
  assert (U : LMQ_upper f = Ret (Fin 6)).
  { unfold f. lmq_run. lmq_close. }
  split; [|split; [|exact X]].
  - intros z Hz Hr (u & n & k & Hu & E). rewrite U in Hu. injection Hu as <-.
    assert (P : IZR (2 ^ Z.of_nat (S n)) = IZR (Z.of_nat k * 6) * 2 \/ IZR (2 ^ Z.of_nat (S n)) = IZR (Z.of_nat k * 6)).
    { assert (Hp : (2:R) ^ n <> 0) by (apply pow_nonzero; lra).
      rewrite mult_IZR, <- INR_IZR_INZ. rewrite <- pow_IZR. cbn [pow].
      apply X in Hr. destruct Hr as [<-|[<-|[]]]; [left|right]; apply (Rmult_eq_reg_r (/ 2 ^ n)); try (apply Rinv_neq_0_compat; exact Hp); field_simplify; auto; unfold Rdiv in E; lra. }
    assert (Q : (2 ^ Z.of_nat (S n) mod 3 = 0)%Z).
    { destruct P as [P|P]; [rewrite <- mult_IZR in P|]; apply eq_IZR in P; rewrite P; [replace (Z.of_nat k * 6 * 2)%Z with ((Z.of_nat k * 4) * 3)%Z by ring|replace (Z.of_nat k * 6)%Z with ((Z.of_nat k * 2) * 3)%Z by ring]; apply Z_mod_mult. }
    assert (R3 : forall m, ((2 ^ Z.of_nat m) mod 3 = 1 \/ (2 ^ Z.of_nat m) mod 3 = 2)%Z).
    { induction m as [|m IH]; [left; reflexivity|]. rewrite Nat2Z.inj_succ, Z.pow_succ_r by lia. rewrite Z.mul_mod by lia.
      destruct IH as [-> | ->]; [right|left]; reflexivity. }
    destruct (R3 (S n)); lia.
  - intros z Hz Hr _. unfold is_root in Hr. destruct (reflect_poly_correct f ltac:(discriminate)) as [_ HV]. rewrite HV, F in Hr.
    nra.
Qed.
