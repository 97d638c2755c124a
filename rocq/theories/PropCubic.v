(** C75: the cubic solver in doubles: how many values, and in which order. *)
From Coq Require Import List Reals Lra Lia Arith NArith ZArith.
From Coq Require Import Sorting.Permutation.
From Flocq Require Import Core Binary Bits.
From Verif Require Import Outcome Num PolyModel PolySpec PolyBase.
From Verif Require Import FloatModel FloatSpec FloatProofs PropFloat FloatQuad FloatSolver PropFloatSolver.
Import ListNotations.
Open Scope R_scope.

#[local] Instance prec53 : Prec_gt_0 53.
Proof. reflexivity. Qed.

(** ** The order of the doubles that are numbers: finite values, -inf, +inf *)
Definition ext (x : d64) : R :=
  match x with
  | B754_infinity _ _ s => if s then - bpow radix2 1024 else bpow radix2 1024
  | _ => dR x
  end.
Lemma ext_fin (x : d64) : fin x -> ext x = dR x.
Proof. destruct x; try discriminate; reflexivity. Qed.
Lemma dR_lt_max (x : d64) : Rabs (dR x) < bpow radix2 1024.
Proof. apply abs_B2R_lt_emax. Qed.
Lemma d_lt_ext (a b : d64) : d_isnan a = false -> d_isnan b = false -> d_lt a b = true <-> ext a < ext b.
Proof.
  intros Ha Hb. pose proof (bpow_gt_0 radix2 1024) as P.
  assert (A : forall x : d64, fin x -> - bpow radix2 1024 < ext x < bpow radix2 1024).
  { intros x F. rewrite (ext_fin x F). pose proof (dR_lt_max x) as H. apply Rabs_def2 in H. lra. }
  destruct (is_finite 53 1024 a) eqn:Fa, (is_finite 53 1024 b) eqn:Fb.
  - rewrite (ext_fin a Fa), (ext_fin b Fb). apply d_lt_fin; assumption.
  - destruct b as [| s | |]; try discriminate. specialize (A a Fa).
    assert (E : d_lt a (d_inf s) = negb s) by (destruct a as [| | |sa ma ea ba]; try discriminate; destruct s; reflexivity).
    change (d_lt a (B754_infinity 53 1024 s)) with (d_lt a (d_inf s)). rewrite E. destruct s; cbn [ext negb]; split; intros; try discriminate; try reflexivity; lra.
  - destruct a as [| s | |]; try discriminate. specialize (A b Fb).
    assert (E : d_lt (d_inf s) b = s) by (destruct b as [| | |sa ma ea ba]; try discriminate; destruct s; reflexivity).
    change (d_lt (B754_infinity 53 1024 s) b) with (d_lt (d_inf s) b). rewrite E. destruct s; cbn [ext negb]; split; intros; try discriminate; try reflexivity; lra.
  - destruct a as [| s | |]; try discriminate. destruct b as [| t | |]; try discriminate.
    destruct s, t; cbn [ext]; split; intros H; try (vm_compute in H; discriminate); try lra; try reflexivity.
Qed.

(** ** Specification: no value is smaller than one before it *)
Definition in_order (l : list d64) : Prop :=
  forall i j, (i < j < length l)%nat -> d_lt (nth j l d_zero) (nth i l d_zero) = false.
Definition numbers (l : list d64) : Prop := forall x, In x l -> d_isnan x = false.

Fixpoint asc (l : list d64) : Prop :=
  match l with [] => True | x :: t => (forall y, In y t -> ext x <= ext y) /\ asc t end.
Lemma asc_order l : numbers l -> asc l -> in_order l.
Proof.
  induction l as [|x t IH]; intros N A i j H; cbn [length] in H; [lia|]. destruct A as (A1 & A2).
  destruct j as [|j]; [lia|]. destruct i as [|i]; cbn [nth].
  - assert (I : In (nth j t d_zero) t) by (apply nth_In; lia).
    destruct (d_lt (nth j t d_zero) x) eqn:E; [|reflexivity].
    apply d_lt_ext in E; [|apply N; right; exact I|apply N; left; reflexivity]. specialize (A1 _ I). lra.
  - apply (IH (fun y Y => N y (or_intror Y)) A2). lia.
Qed.
Lemma insert_asc x l : d_isnan x = false -> numbers l -> asc l -> asc (d_insert x l).
Proof.
  intros Nx. induction l as [|y t IH]; intros N A; cbn [d_insert]; [split; [intros ? []|exact I]|].
  destruct A as (A1 & A2). assert (Ny : d_isnan y = false) by (apply N; left; reflexivity).
  destruct (d_lt y x) eqn:E.
  - apply d_lt_ext in E; auto. split; [|apply IH; [intros z Z; apply N; right; exact Z|exact A2]].
    intros z Z. apply (Permutation_in _ (d_insert_perm x t)) in Z as [<- | Z]; [lra|apply A1, Z].
  - assert (L : ext x <= ext y).
    { destruct (Rle_or_lt (ext x) (ext y)) as [L | L]; [exact L|]. apply d_lt_ext in L; auto. congruence. }
    split; [|split; assumption]. intros z [<- | Z]; [exact L|]. specialize (A1 z Z). lra.
Qed.
Lemma sort_asc l : numbers l -> asc (d_sort l).
Proof.
  induction l as [|x t IH]; intros N; cbn; [exact I|]. apply insert_asc.
  - apply N. left. reflexivity.
  - intros z Z. apply N. right. apply (Permutation_in _ (d_sort_perm t)), Z.
  - apply IH. intros z Z. apply N. right. exact Z.
Qed.
Lemma sort_order l : numbers (d_sort l) -> in_order (d_sort l).
Proof.
  intros N. apply asc_order; [exact N|]. apply sort_asc. intros z Z. apply N.
  apply (Permutation_in _ (Permutation_sym (d_sort_perm l))), Z.
Qed.
Lemma sort_length l : length (d_sort l) = length l.
Proof. apply Permutation_length, d_sort_perm. Qed.

Lemma one_order (x : d64) : in_order [x].
Proof. intros i j H. cbn [length] in H. lia. Qed.
Lemma nil_order : in_order [].
Proof. intros i j H. cbn [length] in H. lia. Qed.
Lemma two_order (x y : d64) : d_lt y x = false -> in_order [x; y].
Proof. intros E i j H. cbn [length] in H. assert (i = 0%nat /\ j = 1%nat) as [-> ->] by lia. exact E. Qed.
Lemma lt_asym (x y : d64) : d_lt x y = true -> d_lt y x = false.
Proof.
  intros H. destruct (d_isnan x) eqn:Nx; [rewrite nan_lt_l in H by exact Nx; discriminate|].
  destruct (d_isnan y) eqn:Ny; [rewrite nan_lt_r in H by exact Ny; discriminate|].
  apply (d_lt_ext x y Nx Ny) in H. destruct (d_lt y x) eqn:E; [|reflexivity].
  apply (d_lt_ext y x Ny Nx) in E. lra.
Qed.
Lemma lt_irrefl (x : d64) : d_lt x x = false.
Proof. destruct (d_lt x x) eqn:E; [|reflexivity]. rewrite (lt_asym _ _ E) in E. discriminate. Qed.

(** ** C69: the quadratic solver, any doubles *)
Lemma linear_count f : (length (d_solve_linear f) <= 1)%nat /\ in_order (d_solve_linear f).
Proof. unfold d_solve_linear. destruct (d_neq _ _); split; cbn [length]; try lia; [apply one_order|apply nil_order]. Qed.
Lemma minmax_order (a b : d64) : in_order [d_min a b; d_maximum a b].
Proof.
  apply two_order. unfold d_min, d_maximum. destruct (d_lt b a) eqn:E.
  - rewrite (lt_asym _ _ E). apply lt_asym, E.
  - destruct (d_lt a b) eqn:F; [exact E|apply lt_irrefl].
Qed.
Theorem C69_order : forall f, (length (d_solve_quadratic f) <= 2)%nat /\ in_order (d_solve_quadratic f).
Proof.
  intros f. unfold d_solve_quadratic.
  destruct (d_eq (dget f 2) d_zero).
  { destruct (linear_count (change_order (H := D_num) 1 f)) as (L & O). split; [lia|exact O]. }
  cbv zeta. destruct (d_eq _ d_zero).
  { split; [cbn [length]; lia|apply minmax_order]. }
  destruct (d_gt (d_abs _) _).
  { destruct (d_gt (d_opp _) _) eqn:E; (split; [cbn [length]; lia|apply two_order]); [apply lt_asym, E|exact E]. }
  destruct (d_lt _ d_zero); [split; [cbn [length]; lia|apply nil_order]|].
  destruct (d_eq _ d_zero); [split; [cbn [length]; lia|apply one_order]|].
  match goal with |- context [d_gt ?a ?b] => destruct (d_gt a b) eqn:E end;
    (split; [cbn [length]; lia|apply two_order]); [apply lt_asym, E|exact E].
Qed.
Print Assumptions C69_order.

(** ** C75: the cubic solver, any doubles *)
Section Cubic.
Variable prefer : d64 -> d64 -> d64 -> d64 -> bool.
Variable cbrt cos acos : d64 -> d64.

Definition good (r : outcome (list d64 * N)) : Prop :=
  exists roots passes, r = Ret (roots, passes) /\ (1 <= length roots <= 3)%nat /\ (numbers roots -> in_order roots).
Lemma good_das a0 a1 a2 a3 root : good (d_deflate_and_solve prefer [a0; a1; a2; a3] root).
Proof.
  assert (X : exists d, deflate_polynomial (H := D_num) prefer [a0; a1; a2; a3] root = Ret d).
  { destruct (d_eq root d_zero) eqn:E.
    - unfold deflate_polynomial. cbn [neqb n0 D_num]. rewrite E. eexists; reflexivity.
    - destruct (deflate_cubic prefer a0 a1 a2 a3 root E) as (p & H). eexists. exact H. }
  destruct X as (d & X). unfold good, d_deflate_and_solve. rewrite X. cbn [obind].
  eexists; eexists; split; [reflexivity|]. rewrite sort_length, app_length, map_length, map_length. cbn [length].
  destruct (C69_order d) as (L & _). split; [lia|apply sort_order].
Qed.
Lemma good_one x k : good (Ret ([x], k)).
Proof. exists [x], k. split; [reflexivity|]. split; [cbn [length]; lia|]. intros _. apply one_order. Qed.
Lemma div0_four a0 a1 a2 a3 c : exists b0 b1 b2 b3,
  poly_div0 (H := D_num) [a0; a1; a2; a3] c = [b0; b1; b2; b3].
Proof. repeat eexists. Qed.

(** For every four doubles (NaN and infinities included) and whatever the C
    library computes for cbrt, cos and acos: the solver returns without touching
    memory outside its vectors; a cubic whose leading coefficient is not zero
    gives one, two or three values; they are in ascending order if no NaN is
    among them. *)
Theorem C75_cubic : forall a0 a1 a2 a3 : d64, d_eq a3 d_zero = false ->
  exists roots passes, d_solve_cubic prefer cbrt cos acos [a0; a1; a2; a3] = Ret (roots, passes) /\
    (1 <= length roots <= 3)%nat /\ (numbers roots -> in_order roots).
Proof.
  intros a0 a1 a2 a3 H3. fold (good (d_solve_cubic prefer cbrt cos acos [a0; a1; a2; a3])).
  unfold d_solve_cubic. change (dget [a0; a1; a2; a3] 3) with a3. change (dget [a0; a1; a2; a3] 0) with a0. rewrite H3.
  destruct (d_eq a0 d_zero); [apply good_das|].
  destruct (div0_four a0 a1 a2 a3 a3) as (b0 & b1 & b2 & b3 & ->). cbv zeta.
  change (dget [b0; b1; b2; b3] 0) with b0. change (dget [b0; b1; b2; b3] 1) with b1. change (dget [b0; b1; b2; b3] 2) with b2.
  repeat match goal with
  | |- good (d_deflate_and_solve _ _ _) => apply good_das
  | |- good (Ret ([_], _)) => apply good_one
  | |- good (if ?c then _ else _) => destruct c
  | |- good (let '(_, _) := ?p in _) => destruct p as [rt k]
  end.
  - destruct (good_das b0 b1 b2 b3 rt) as (roots & passes & E & L & O). rewrite E. cbn [obind fst snd].
    exists roots, (N.max k passes). auto.
  - eexists; eexists; split; [reflexivity|]. rewrite sort_length. cbn [map length]. split; [lia|apply sort_order].
Qed.

(** a zero leading coefficient: the values of the quadratic *)
Theorem C75_drops : forall a0 a1 a2 a3 : d64, d_eq a3 d_zero = true ->
  exists roots passes, d_solve_cubic prefer cbrt cos acos [a0; a1; a2; a3] = Ret (roots, passes) /\
    roots = d_solve_quadratic [a0; a1; a2].
Proof. intros a0 a1 a2 a3 H. unfold d_solve_cubic. change (dget [a0; a1; a2; a3] 3) with a3. rewrite H. eexists; eexists; split; reflexivity. Qed.

(** no constant term: 0 is reported, next to the values of the quadratic, each as
    Halley's method leaves it when started there on the cubic *)
Theorem C75_zero_root : forall a0 a1 a2 a3 : d64, d_eq a3 d_zero = false -> d_eq a0 d_zero = true ->
  exists roots passes, d_solve_cubic prefer cbrt cos acos [a0; a1; a2; a3] = Ret (roots, passes) /\
    Permutation roots (d_zero :: map (fun r => ds_x (snd (fst (d_halleys_method
      (fun x => eval_derivatives (H := D_num) 2 [a0; a1; a2; a3] x) d_default_precision r (d_inf true) (d_inf false) 0))))
      (d_solve_quadratic [a1; a2; a3])).
Proof.
  intros a0 a1 a2 a3 H3 H0. unfold d_solve_cubic. change (dget [a0; a1; a2; a3] 3) with a3. change (dget [a0; a1; a2; a3] 0) with a0. rewrite H3, H0.
  unfold d_deflate_and_solve. change (deflate_polynomial (H := D_num) prefer [a0; a1; a2; a3] d_zero) with (Ret (A := list d64) [a1; a2; a3]).
  cbn [obind]. eexists; eexists. split; [reflexivity|].
  rewrite d_sort_perm. rewrite Permutation_app_comm. cbn [app]. apply perm_skip.
  rewrite map_map. apply Permutation_refl'. apply map_ext. intros r. unfold d_polish.
  destruct (d_halleys_method _ _ _ _ _ _) as [[? ?] ?]. reflexivity.
Qed.

(** a x^3 + c: one value, cbrt of -(c/a) *)
Theorem C75_pure : forall a0 a1 a2 a3 : d64, d_eq a3 d_zero = false -> d_eq a0 d_zero = false ->
  d_eq (d_add d_zero (d_div a1 a3)) d_zero = true -> d_eq (d_add d_zero (d_div a2 a3)) d_zero = true ->
  d_solve_cubic prefer cbrt cos acos [a0; a1; a2; a3] = Ret ([cbrt (d_opp (d_add d_zero (d_div a0 a3)))], 0%N).
Proof.
  intros a0 a1 a2 a3 H3 H0 H1 H2. unfold d_solve_cubic. change (dget [a0; a1; a2; a3] 3) with a3. change (dget [a0; a1; a2; a3] 0) with a0. rewrite H3, H0.
  set (f := poly_div0 (H := D_num) [a0; a1; a2; a3] a3). cbv zeta.
  change (dget f 0) with (d_add d_zero (d_div a0 a3)). change (dget f 1) with (d_add d_zero (d_div a1 a3)).
  change (dget f 2) with (d_add d_zero (d_div a2 a3)). rewrite H1, H2. reflexivity.
Qed.
End Cubic.
(** x^3 + 8 *)
Example C75_ex : forall prefer cos acos,
  exists y, d_solve_cubic prefer (fun x => x) cos acos [d_lit 8 0; d_zero; d_zero; d_one] = Ret ([y], 0%N) /\
     d_eq y (d_lit (-8) 0) = true.
Proof.
  intros. eexists. split; [apply C75_pure; vm_compute; reflexivity|]. vm_compute. reflexivity.
Qed.
Print Assumptions C75_pure. Print Assumptions C75_cubic. Print Assumptions C75_drops. Print Assumptions C75_zero_root.
