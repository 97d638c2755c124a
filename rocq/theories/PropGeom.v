(** C45 - C47: boxes, balls and overlap indicators. *)
From Coq Require Import Reals List Factorial Lia Lra Psatz.
From Verif Require Import Outcome Num GeomModel.
Import ListNotations.
Open Scope R_scope.

(** ** C45 *)
(** Specification: product of the edges; the faces of a box are, for each axis,
    two boxes of one dimension less with that axis removed. *)
Definition product (es : list R) : R := fold_right Rmult 1 es.
Fixpoint remove_nth (i : nat) (l : list R) : list R :=
  match l, i with [], _ => [] | _ :: t, O => t | x :: t, S i => x :: remove_nth i t end.
Definition face_sum (es : list R) : R :=
  fold_right Rplus 0 (map (fun i => 2 * product (remove_nth i es)) (seq 0 (length es))).
Definition box_of (D : nat) (b : aabox) : Prop := (0 < D)%nat /\ length (box_max b) = D /\ length (box_min b) = D.
(** The edges: differences of the corners' coordinates. *)
Definition edges (D : nat) (b : aabox) : list R := map (fun i => nth i (box_max b) 0 - nth i (box_min b) 0) (seq 0 D).

Lemma vzip_length f u v : length (vzip f u v) = Nat.min (length u) (length v).
Proof. unfold vzip. now rewrite map_length, combine_length. Qed.
Lemma vzip_nth f u v i : (i < length u)%nat -> (i < length v)%nat -> nth i (vzip f u v) 0 = f (nth i u 0) (nth i v 0).
Proof.
  revert v i. induction u as [|a u IH]; intros [|b v] i H1 H2; simpl in *; try lia.
  destruct i; auto. apply IH; lia.
Qed.

Lemma dims_edges D b : box_of D b -> dimensions b = edges D b.
Proof.
  intros (P & H1 & H2). apply nth_ext with 0 0.
  - unfold dimensions, vsub. rewrite vzip_length. unfold edges. rewrite map_length, seq_length. lia.
  - intros i Hi. unfold dimensions, vsub in *. rewrite vzip_length in Hi. rewrite vzip_nth by lia.
    unfold edges. set (f := fun j => nth j (box_max b) 0 - nth j (box_min b) 0).
    rewrite (nth_indep (map f (seq 0 D)) 0 (f O)) by (rewrite map_length, seq_length; lia).
    rewrite map_nth, seq_nth by lia. reflexivity.
Qed.

Lemma for_up_prod es k lo m : (lo + k = length es)%nat ->
  for_up lo k (fun i m => m * nth i es 0) m = m * product (skipn lo es).
Proof.
  revert lo m. induction k as [|k IH]; intros lo m H; cbn [for_up].
  - rewrite skipn_all2 by lia. unfold product. simpl. ring.
  - rewrite IH by lia. destruct (skipn lo es) as [|a t] eqn:E.
    { assert (X := skipn_length lo es). rewrite E in X. simpl in X. lia. }
    assert (Ha : nth lo es 0 = a).
    { rewrite <- (firstn_skipn lo es), E. rewrite app_nth2; rewrite firstn_length; [|lia].
      replace (lo - Nat.min lo (length es))%nat with O by lia. reflexivity. }
    assert (Ht : skipn (S lo) es = t).
    { rewrite <- (firstn_skipn lo es), E. rewrite skipn_app, firstn_length.
      replace (S lo - Nat.min lo (length es))%nat with 1%nat by lia.
      rewrite skipn_all2 by (rewrite firstn_length; lia). reflexivity. }
    rewrite Ha, Ht. unfold product. simpl. ring.
Qed.

(** The volume is the product of the edge lengths, in every dimension. *)
Theorem C45_volume : forall D b, box_of D b -> box_volume D b = product (edges D b).
Proof.
  intros D b H. unfold box_volume. rewrite (dims_edges D b H). destruct H as (P & _ & _).
  assert (L : length (edges D b) = D) by (unfold edges; now rewrite map_length, seq_length).
  rewrite for_up_prod by lia. destruct (edges D b) as [|e es]; simpl in L; [lia|]. unfold product. simpl. ring.
Qed.
Print Assumptions C45_volume.
(** The area is the sum of the face measures in three dimensions (the formula is
    only right there, see below). *)
Theorem C45_area_partial : forall b, box_of 3 b -> box_area 3 b = face_sum (edges 3 b).
Proof.
  intros b H. unfold box_area. rewrite (dims_edges 3 b H). unfold face_sum, edges. simpl.
  set (a := nth 0 (box_max b) 0 - nth 0 (box_min b) 0). set (c := nth 1 (box_max b) 0 - nth 1 (box_min b) 0).
  set (d := nth 2 (box_max b) 0 - nth 2 (box_min b) 0). unfold product. simpl. ring.
Qed.
Print Assumptions C45_area_partial.
Example C45_ex : let b := {| box_max := [3; 4; 6]; box_min := [1; 1; 1] |} in
  box_of 3 b /\ box_volume 3 b = 30 /\ box_area 3 b = 62.
Proof.
  cbv zeta. split; [repeat split; auto|]. split.
  - rewrite C45_volume by (repeat split; auto). unfold product, edges. simpl. lra.
  - rewrite C45_area_partial by (repeat split; auto). unfold face_sum, product, edges. simpl. lra.
Qed.
(** A rectangle 2 x 3 has perimeter 10, not 12; a unit cube in four dimensions
    has surface 8, not 12; an interval has two end points, not none. *)
Theorem C45_area_refuted :
  (exists b, box_of 2 b /\ box_area 2 b <> face_sum (edges 2 b)) /\
  (exists b, box_of 4 b /\ box_area 4 b <> face_sum (edges 4 b)) /\
  (forall b, box_of 1 b -> box_area 1 b <> face_sum (edges 1 b)).
Proof.
  split; [|split].
  - exists {| box_max := [2; 3]; box_min := [0; 0] |}. split; [repeat split; auto|].
    unfold box_area, dimensions, vsub, vzip, face_sum, edges, product. simpl. lra.
  - exists {| box_max := [1; 1; 1; 1]; box_min := [0; 0; 0; 0] |}. split; [repeat split; auto|].
    unfold box_area, dimensions, vsub, vzip, face_sum, edges, product. simpl. lra.
  - intros b _. unfold box_area, face_sum, edges, product. simpl. lra.
Qed.
Print Assumptions C45_area_refuted.
Definition unit_cube (D : nat) : aabox := {| box_max := repeat 1 D; box_min := repeat 0 D |}.
Lemma unit_edges D : edges D (unit_cube D) = repeat 1 D.
Proof.
  apply nth_ext with 0 0; unfold edges; [rewrite map_length, seq_length, repeat_length; reflexivity|].
  intros i Hi. rewrite map_length, seq_length in Hi.
  set (f := fun j => nth j (box_max (unit_cube D)) 0 - nth j (box_min (unit_cube D)) 0).
  rewrite (nth_indep (map f (seq 0 D)) 0 (f O)) by (rewrite map_length, seq_length; exact Hi).
  rewrite map_nth, seq_nth by exact Hi. unfold f. cbn [unit_cube box_max box_min Nat.add].
  rewrite (nth_indep (repeat 1 D) 0 1) by (rewrite repeat_length; exact Hi). rewrite !nth_repeat. lra.
Qed.
Lemma unit_area D : (0 < D)%nat -> box_area D (unit_cube D) = INR D * (INR D - 1).
Proof.
  intros P. unfold box_area. rewrite (dims_edges D (unit_cube D)) by (repeat split; [exact P|apply repeat_length|apply repeat_length]).
  rewrite unit_edges.
  assert (N : forall i, (i < D)%nat -> nth i (repeat 1 D) 0 = 1).
  { intros i Hi. rewrite (nth_indep (repeat 1 D) 0 1) by (rewrite repeat_length; exact Hi). apply nth_repeat. }
  assert (In : forall i m, (i < D)%nat ->
    for_up (i + 1) (D - (i + 1)) (fun j measure => measure + nth i (repeat 1 D) 0 * nth j (repeat 1 D) 0) m = m + INR (D - (i + 1))).
  { intros i m Hi. assert (G : forall k lo m, (lo + k <= D)%nat ->
      for_up lo k (fun j measure => measure + nth i (repeat 1 D) 0 * nth j (repeat 1 D) 0) m = m + INR k).
    { induction k as [|k IH]; intros lo m' H; cbn [for_up]; [simpl; lra|]. rewrite IH by lia. rewrite !N by lia. rewrite S_INR. lra. }
    apply G. lia. }
  assert (Out : forall k lo m, (lo + k = D)%nat ->
    for_up lo k (fun i measure => for_up (i + 1) (D - (i + 1)) (fun j measure => measure + nth i (repeat 1 D) 0 * nth j (repeat 1 D) 0) measure) m
    = m + INR k * (INR k - 1) / 2).
  { induction k as [|k IH]; intros lo m H; cbn [for_up]; [simpl; lra|]. rewrite IH by lia. rewrite In by lia.
    replace (D - (lo + 1))%nat with k by lia. rewrite S_INR. lra. }
  rewrite (Out D 0%nat 0) by lia. lra.
Qed.
Lemma unit_faces D : (0 < D)%nat -> face_sum (edges D (unit_cube D)) = 2 * INR D.
Proof.
  intros P. rewrite unit_edges. unfold face_sum. rewrite repeat_length.
  assert (Pr : forall n, product (repeat 1 n) = 1).
  { unfold product. induction n as [|n IH]; simpl; [reflexivity|]. rewrite IH. ring. }
  assert (Rm : forall n i, (i < n)%nat -> remove_nth i (repeat 1 n) = repeat 1 (n - 1)).
  { induction n as [|n IH]; intros i Hi; [lia|]. destruct i as [|i]; cbn [repeat remove_nth]; [rewrite Nat.sub_succ, Nat.sub_0_r; reflexivity|].
    rewrite IH by lia. replace (S n - 1)%nat with (S (n - 1)) by lia. reflexivity. }
  assert (G : forall k lo, (lo + k <= D)%nat ->
    fold_right Rplus 0 (map (fun i => 2 * product (remove_nth i (repeat 1 D))) (seq lo k)) = 2 * INR k).
  { induction k as [|k IH]; intros lo H; [simpl; lra|]. cbn [seq map fold_right]. rewrite IH by lia. rewrite Rm by lia. rewrite Pr, S_INR. lra. }
  apply G. lia.
Qed.
(** Three is the only dimension where the area is right; everywhere else it is
    wrong for the unit cube. *)
Theorem C45_area_iff : forall D, (0 < D)%nat ->
  ((forall b, box_of D b -> box_area D b = face_sum (edges D b)) <-> D = 3%nat).
Proof.
  intros D P. split.
  - intros H. specialize (H (unit_cube D)). rewrite unit_area, unit_faces in H by exact P.
    assert (E : INR D * (INR D - 1) = 2 * INR D) by (apply H; repeat split; [exact P|apply repeat_length|apply repeat_length]).
    assert (Q : 0 < INR D) by (apply lt_0_INR; exact P). assert (INR D = INR 3) by (simpl; nra). apply INR_eq. assumption.
  - intros ->. apply C45_area_partial.
Qed.
Print Assumptions C45_area_iff.

(** ** C46 *)
Lemma odd_form k : unit_ball_volume (2 * k + 1) = 2 * INR (fact k) * (4 * PI) ^ k / INR (fact (2 * k + 1)).
Proof.
  destruct k as [|k]; [simpl; lra|].
  replace (2 * S k + 1)%nat with (S (S (2 * k + 1))) by lia. cbn [unit_ball_volume].
  replace (Nat.odd (S (S (2 * k + 1)))) with true by (symmetry; apply Nat.odd_spec; exists (S k); lia).
  replace ((S (S (2 * k + 1)) - 1) / 2)%nat with (S k); [reflexivity|].
  replace (S (S (2 * k + 1)) - 1)%nat with (S k * 2)%nat by lia. now rewrite Nat.div_mul.
Qed.
Lemma even_form k : unit_ball_volume (2 * k) = PI ^ k / INR (fact k).
Proof.
  destruct k as [|k]; [simpl; lra|].
  replace (2 * S k)%nat with (S (S (2 * k))) by lia. cbn [unit_ball_volume].
  replace (Nat.odd (S (S (2 * k)))) with false.
  - replace (S (S (2 * k)) / 2)%nat with (S k); [reflexivity|].
    replace (S (S (2 * k))) with (S k * 2)%nat by lia. now rewrite Nat.div_mul.
  - symmetry. apply not_true_is_false. intros E. apply Nat.odd_spec in E as [m Hm]. lia.
Qed.

(** The unit-ball volumes are 1 and 2 in dimensions 0 and 1 and satisfy the
    recurrence V_D = (2 pi / D) V_{D-2}; the volume scales as r^D; and the
    surface is the derivative of the volume with respect to the radius. *)
Theorem C46_balls :
  unit_ball_volume 0 = 1 /\ unit_ball_volume 1 = 2 /\
  (forall D, (2 <= D)%nat -> unit_ball_volume D = 2 * PI / INR D * unit_ball_volume (D - 2)) /\
  (forall D r, ball_volume D r = ball_volume D 1 * r ^ D /\ ball_volume D 1 = unit_ball_volume D) /\
  (forall D r, (1 <= D)%nat -> derivable_pt_lim (ball_volume D) r (ball_area D r)).
Proof.
  split; [reflexivity|]. split; [reflexivity|]. split; [|split].
  - intros D HD. destruct (Nat.Even_or_Odd D) as [[k ->]|[k ->]].
    + destruct k as [|k]; [lia|]. replace (2 * S k - 2)%nat with (2 * k)%nat by lia. rewrite !even_form.
      rewrite fact_simpl, !mult_INR. simpl pow. change (INR 2) with 2. field. split; [apply INR_fact_neq_0|apply not_0_INR; lia].
    + destruct k as [|k]; [lia|]. replace (2 * S k + 1 - 2)%nat with (2 * k + 1)%nat by lia. rewrite !odd_form.
      replace (2 * S k + 1)%nat with (S (S (2 * k + 1))) by lia.
      rewrite (fact_simpl k), (fact_simpl (S (2 * k + 1))), (fact_simpl (2 * k + 1)), !mult_INR.
      replace (INR (S (S (2 * k + 1)))) with (2 * INR k + 3) by (rewrite !S_INR, plus_INR, mult_INR; simpl; ring).
      replace (INR (S (2 * k + 1))) with (2 * (INR k + 1)) by (rewrite !S_INR, plus_INR, mult_INR; simpl; ring).
      replace (INR (S k)) with (INR k + 1) by (rewrite S_INR; ring).
      assert (0 <= INR k) by apply pos_INR. simpl pow. field. repeat split; try lra; try apply INR_fact_neq_0.
  - intros D r. unfold ball_volume. rewrite pow1. split; ring.
  - intros D r HD. unfold ball_volume, ball_area, unit_ball_area.
    replace (INR D * unit_ball_volume D * r ^ (D - 1)) with (unit_ball_volume D * (INR D * r ^ Nat.pred D))
      by (replace (D - 1)%nat with (Nat.pred D) by lia; ring).
    apply (derivable_pt_lim_scal (fun r => r ^ D)). apply derivable_pt_lim_pow.
Qed.
Print Assumptions C46_balls.
Example C46_ex : ball_volume 2 3 = PI * 3 ^ 2 /\ ball_volume 3 2 = 4 / 3 * PI * 2 ^ 3 /\ ball_area 3 2 = 4 * PI * 2 ^ 2.
Proof.
  assert (V2 : unit_ball_volume 2 = PI) by (transitivity (PI ^ 1 / INR (fact 1)); [apply (even_form 1)|simpl; field]).
  assert (V3 : unit_ball_volume 3 = 4 / 3 * PI)
    by (transitivity (2 * INR (fact 1) * (4 * PI) ^ 1 / INR (fact 3)); [apply (odd_form 1)|simpl; field]).
  unfold ball_area, unit_ball_area, ball_volume. rewrite V2, V3. change (INR 3) with 3 || simpl INR. simpl. repeat split; field.
Qed.

(** ** C47 *)
(** Specification: a shape translated by [delta] and another one have a common
    point.  Balls are open; the half-space is the open side the normal points
    away from. *)
Definition inside (s : shape) (x : vec) : Prop :=
  match s with
  | Ball r c => vsq (vsub x c) < r ^ 2
  | Point c => x = c
  | HalfSpace c n => vdot n (vsub x c) < 0
  end.
Definition shape_dim (D : nat) (s : shape) : Prop :=
  match s with
  | Ball r c => length c = D /\ 0 < r
  | Point c => length c = D
  | HalfSpace c n => length c = D /\ length n = D /\ vsq n = 1
  end.
Definition overlap (D : nat) (s1 s2 : shape) (delta : vec) : Prop :=
  exists x, length x = D /\ inside s1 (vsub x delta) /\ inside s2 x.

(** *** Vectors of one dimension *)
Lemma vzip_cons f a u b v : vzip f (a :: u) (b :: v) = f a b :: vzip f u v.
Proof. reflexivity. Qed.
Lemma vdot_cons a u b v : vdot (a :: u) (b :: v) = a * b + vdot u v.
Proof. reflexivity. Qed.
Lemma vdot_nil_r u : vdot u [] = 0.
Proof. destruct u; reflexivity. Qed.


Lemma vdot_comm u : forall v, vdot u v = vdot v u.
Proof. induction u as [|a u IH]; intros [|b v]; try reflexivity. rewrite !vdot_cons, IH. ring. Qed.

(** x + t y *)
Definition axpy (t : R) (x y : vec) : vec := vzip (fun a b => a + t * b) x y.
Lemma axpy_length t x y : length x = length y -> length (axpy t x y) = length x.
Proof. intros H. unfold axpy. rewrite vzip_length. lia. Qed.
Lemma vdot_axpy t : forall n x y, length x = length y -> length n = length x -> vdot n (axpy t x y) = vdot n x + t * vdot n y.
Proof.
  intros n. induction n as [|c n IH]; intros [|a x] [|b y] H1 H2; try discriminate; unfold axpy in *; cbn [length] in *.
  - simpl. unfold vdot. simpl. ring.
  - rewrite vzip_cons, !vdot_cons, IH by lia. ring.
Qed.
Lemma vsq_axpy t x y : length x = length y -> vsq (axpy t x y) = vsq x + 2 * t * vdot x y + t * t * vsq y.
Proof.
  unfold vsq. revert y. induction x as [|a x IH]; intros [|b y] H; try discriminate; unfold axpy in *.
  - unfold vdot. simpl. ring.
  - rewrite vzip_cons, !vdot_cons, IH by (simpl in H; lia). ring.
Qed.
Lemma vsq_nonneg x : 0 <= vsq x.
Proof. unfold vsq. induction x as [|a x IH]; [unfold vdot; simpl; lra|]. rewrite vdot_cons. nra. Qed.
Lemma vsq_zero x y : length x = length y -> vsq y = 0 -> vdot x y = 0.
Proof.
  revert y. induction x as [|a x IH]; intros [|b y] H1 H2; try discriminate; try reflexivity.
  unfold vsq in *. rewrite vdot_cons in *. pose proof (vsq_nonneg y) as P. unfold vsq in P.
  assert (b = 0) by nra. subst. rewrite IH; [ring|simpl in H1; lia|nra].
Qed.
(** Cauchy-Schwarz *)
Lemma cauchy_schwarz x y : length x = length y -> vdot x y * vdot x y <= vsq x * vsq y.
Proof.
  intros H. destruct (Req_dec (vsq y) 0) as [Z|NZ].
  - rewrite (vsq_zero x y H Z), Z. lra.
  - pose proof (vsq_nonneg y) as P. pose proof (vsq_nonneg (axpy (- vdot x y / vsq y) x y)) as Q.
    rewrite vsq_axpy in Q by auto.
    assert (E : vsq x + 2 * (- vdot x y / vsq y) * vdot x y + - vdot x y / vsq y * (- vdot x y / vsq y) * vsq y
       = vsq x - vdot x y * vdot x y / vsq y) by (field; auto).
    rewrite E in Q. assert (0 < vsq y) by lra.
    apply (Rmult_le_compat_r (vsq y)) in Q; [|lra]. rewrite Rmult_0_l, Rmult_minus_distr_r in Q.
    replace (vdot x y * vdot x y / vsq y * vsq y) with (vdot x y * vdot x y) in Q by (field; auto). lra.
Qed.

(** Coordinatewise equalities between vectors of the same length. *)
Lemma vsub_axpy x y : vsub x y = axpy (-1) x y.
Proof. unfold vsub, axpy, vzip. apply map_ext. intros [a b]. simpl. ring. Qed.
Lemma vadd_axpy x y : vadd x y = axpy 1 x y.
Proof. unfold vadd, axpy, vzip. apply map_ext. intros [a b]. simpl. ring. Qed.
Lemma vneg_length u : length (vneg u) = length u.
Proof. apply map_length. Qed.

(** Induction on three vectors of the same length. *)
Lemma rel_pos D : forall delta ci cj x, length delta = D -> length ci = D -> length cj = D -> length x = D ->
  vsub (vadd delta ci) cj = vsub (vsub x cj) (vsub (vsub x delta) ci).
Proof.
  induction D as [|D IH]; intros [|a d] [|b u] [|c v] [|e x] H1 H2 H3 H4; try discriminate; try reflexivity.
  unfold vadd, vsub in *. rewrite !vzip_cons. f_equal; [ring|]. apply IH; simpl in *; lia.
Qed.
Lemma neg_pos D : forall delta ci cj, length delta = D -> length ci = D -> length cj = D ->
  vsub (vadd (vneg delta) cj) ci = axpy (-1) (repeat 0 D) (vsub (vadd delta ci) cj).
Proof.
  induction D as [|D IH]; intros [|a d] [|b u] [|c v] H1 H2 H3; try discriminate; try reflexivity.
  unfold vadd, vsub, axpy in *. cbn [vneg map repeat]. rewrite !vzip_cons. f_equal; [ring|]. apply IH; simpl in *; lia.
Qed.
Lemma vsq_neg D u : length u = D -> vsq (axpy (-1) (repeat 0 D) u) = vsq u.
Proof.
  intros H. rewrite vsq_axpy by (rewrite repeat_length; auto).
  assert (A : forall D (v : vec), vdot (repeat 0 D) v = 0).
  { intros n. induction n; intros [|b v]; simpl repeat; try reflexivity. rewrite vdot_cons, IHn. ring. }
  unfold vsq at 1. rewrite !A. ring.
Qed.

(** Symmetry: exchanging the shapes and reversing the displacement gives the same number. *)
Lemma neg_neg u : vneg (vneg u) = u.
Proof. induction u; simpl; auto. rewrite Ropp_involutive. f_equal; auto. Qed.
Theorem C47_symmetric : forall D s1 s2 delta, shape_dim D s1 -> shape_dim D s2 -> length delta = D ->
  indicator s1 s2 delta = indicator s2 s1 (vneg delta).
Proof.
  intros D [r1 c1|c1|c1 n1] [r2 c2|c2|c2 n2] delta H1 H2 H3; cbn [indicator]; rewrite ?neg_neg; auto.
  f_equal. unfold ind_ball_ball. destruct H1 as [H1 _], H2 as [H2 _].
  rewrite (neg_pos D delta c1 c2), vsq_neg; auto; [|unfold vsub, vadd; rewrite !vzip_length; lia]. rewrite Rplus_comm with (r1 := r2). reflexivity.
Qed.
Print Assumptions C47_symmetric.

Lemma sq_lt_abs a b : 0 < b -> a * a < b ^ 2 -> - b < a < b.
Proof. intros. split; nra. Qed.

(** two open balls whose centres differ by u *)
Lemma balls_meet D u r1 r2 : length u = D -> 0 < r1 -> 0 < r2 ->
  (vsq u < (r1 + r2) ^ 2 <-> exists y, length y = D /\ vsq y < r1 ^ 2 /\ vsq (axpy 1 u y) < r2 ^ 2).
Proof.
  intros L P1 P2. split.
  - intros H. exists (axpy (- (r1 / (r1 + r2)) - 1) u u). rewrite axpy_length by auto. split; auto.
    assert (A : vsq (axpy (- (r1 / (r1 + r2)) - 1) u u) = (r1 / (r1 + r2)) ^ 2 * vsq u).
    { rewrite vsq_axpy by auto. unfold vsq. field. lra. }
    assert (B : vsq (axpy 1 u (axpy (- (r1 / (r1 + r2)) - 1) u u)) = (r2 / (r1 + r2)) ^ 2 * vsq u).
    { rewrite vsq_axpy by (rewrite axpy_length; auto). rewrite A, vdot_axpy by auto. unfold vsq. field. lra. }
    rewrite A, B. assert (S : 0 < r1 + r2) by lra. pose proof (vsq_nonneg u).
    assert (Q : forall r, 0 < r -> (r / (r1 + r2)) ^ 2 * vsq u < r ^ 2).
    { intros r Pr. replace (r ^ 2) with ((r / (r1 + r2)) ^ 2 * (r1 + r2) ^ 2) by (field; lra).
      apply Rmult_lt_compat_l; auto. apply pow_lt. unfold Rdiv. apply Rmult_lt_0_compat; auto. now apply Rinv_0_lt_compat. }
    split; apply Q; auto.
  - intros (y & Ly & H1 & H2). rewrite vsq_axpy in H2 by lia.
    pose proof (cauchy_schwarz u y ltac:(lia)) as CS. pose proof (vsq_nonneg u). pose proof (vsq_nonneg y).
    pose proof (vsq_nonneg (axpy 1 u y)) as N3. rewrite vsq_axpy in N3 by lia.
    (* |u| <= |u+y| + |y| *)
    set (a := sqrt (vsq u)). set (b := sqrt (vsq y)).
    assert (Ea : a * a = vsq u) by (apply sqrt_sqrt; auto). assert (Eb : b * b = vsq y) by (apply sqrt_sqrt; auto).
    assert (Pa : 0 <= a) by apply sqrt_pos. assert (Pb : 0 <= b) by apply sqrt_pos.
    assert (Lb : b < r1) by (simpl in H1; nra).
    destruct (Rlt_dec a (r1 + r2)) as [La|La]; [rewrite <- Ea; simpl; nra|exfalso].
    assert (Dt : - (a * b) <= vdot u y).
    { destruct (Rle_dec (- (a * b)) (vdot u y)); auto. exfalso. assert (0 <= a * b) by nra.
      assert (a * b * (a * b) < vdot u y * vdot u y) by nra. rewrite <- Ea, <- Eb in CS. nra. }
    assert ((a - b) * (a - b) < r2 ^ 2) by (simpl; nra). simpl in *. nra.
Qed.

Lemma ball_half_meet D u n r : length u = D -> length n = D -> vsq n = 1 -> 0 < r ->
  (vdot n u < r <-> exists y, length y = D /\ vsq y < r ^ 2 /\ vdot n (axpy 1 u y) < 0).
Proof.
  intros Lu Ln N1 Pr. split.
  - intros H. destruct (Rlt_dec (vdot n u) 0) as [Hn|Hn].
    + exists (repeat 0 D). rewrite repeat_length. split; auto.
      assert (A : forall D (v : vec), vdot v (repeat 0 D) = 0).
      { intros k. induction k; intros [|b v]; simpl repeat; try reflexivity. rewrite vdot_cons, IHk. ring. }
      split.
      * unfold vsq. rewrite A. nra.
      * rewrite vdot_axpy by (rewrite ?repeat_length; lia). rewrite A. lra.
    + set (t := (vdot n u + r) / 2). exists (axpy (- t - 1) n n). rewrite axpy_length by auto. split; auto.
      split.
      * rewrite vsq_axpy by auto. unfold vsq in *. rewrite N1. unfold t. simpl. nra.
      * rewrite vdot_axpy by (rewrite ?axpy_length; lia). rewrite vdot_axpy by auto. unfold vsq in N1. rewrite N1. unfold t. lra.
  - intros (y & Ly & H1 & H2). rewrite vdot_axpy in H2 by lia.
    pose proof (cauchy_schwarz n y ltac:(lia)) as CS. rewrite N1, Rmult_1_l in CS.
    assert (- r < vdot n y < r) by (apply sq_lt_abs; lra). lra.
Qed.

Lemma overlap_shift D delta c1 (c2 : vec) : length delta = D -> length c1 = D -> length c2 = D ->
  (forall y, length y = D -> (exists x, length x = D /\ vsub (vsub x delta) c1 = y)).
Proof.
  intros H1 H2 H3 y Hy. exists (vadd (vadd y c1) delta). split; [unfold vadd; rewrite !vzip_length; lia|].
  clear H3. revert delta c1 y H1 H2 Hy. induction D as [|D IH]; intros [|a d] [|b u] [|c v] H1 H2 H3; try discriminate; try reflexivity.
  unfold vadd, vsub in *. rewrite !vzip_cons. f_equal; [ring|]. apply IH; simpl in *; lia.
Qed.

Lemma rel_axpy D delta ci cj x : length delta = D -> length ci = D -> length cj = D -> length x = D ->
  vsub x cj = axpy 1 (vsub (vadd delta ci) cj) (vsub (vsub x delta) ci).
Proof.
  revert delta ci cj x. induction D as [|D IH]; intros [|a d] [|b u] [|c v] [|e x] H1 H2 H3 H4; try discriminate; try reflexivity.
  unfold vadd, vsub, axpy in *. rewrite !vzip_cons. f_equal; [ring|]. apply IH; simpl in *; lia.
Qed.

Lemma ball_any_overlap D r1 c1 s2 c2 delta (P : vec -> Prop) : shape_dim D (Ball r1 c1) -> length c2 = D -> length delta = D ->
  (forall x, length x = D -> (inside s2 x <-> P (vsub x c2))) ->
  (overlap D (Ball r1 c1) s2 delta <-> exists y, length y = D /\ vsq y < r1 ^ 2 /\ P (axpy 1 (vsub (vadd delta c1) c2) y)).
Proof.
  intros [L1 P1] L2 Ld HP. unfold overlap. cbn [inside]. split.
  - intros (x & Lx & H1 & H2). exists (vsub (vsub x delta) c1). split; [unfold vsub; rewrite !vzip_length; lia|]. split; auto.
    rewrite <- (rel_axpy D) by auto. now apply HP.
  - intros (y & Ly & H1 & H2). destruct (overlap_shift D delta c1 c2 Ld L1 L2 y Ly) as (x & Lx & E).
    exists x. rewrite E. split; auto. split; auto. apply HP; auto. rewrite (rel_axpy D delta c1 c2 x), E; auto.
Qed.

Lemma vsub_len D u v : length u = D -> length v = D -> length (vsub u v) = D.
Proof. intros. unfold vsub. rewrite vzip_length. lia. Qed.
Lemma vadd_len D u v : length u = D -> length v = D -> length (vadd u v) = D.
Proof. intros. unfold vadd. rewrite vzip_length. lia. Qed.

Lemma overlap_sym D s1 s2 delta : shape_dim D s1 -> shape_dim D s2 -> length delta = D ->
  overlap D s1 s2 delta -> overlap D s2 s1 (vneg delta).
Proof.
  intros H1 H2 Ld (x & Lx & A & B). exists (vsub x delta). split; [now apply vsub_len|].
  assert (E : vsub (vsub x delta) (vneg delta) = x).
  { clear -Lx Ld. revert x delta Lx Ld. induction D as [|D IH]; intros [|a x] [|b d] Lx Ld; try discriminate; try reflexivity.
    unfold vsub in *. cbn [vneg map]. rewrite !vzip_cons. f_equal; [ring|]. apply IH; simpl in *; lia. }
  rewrite E. auto.
Qed.

(** The indicator is negative exactly when the displaced first shape and the
    second one overlap, for every dimension, all balls of positive radius and
    all half-spaces with a unit normal. *)
Theorem C47_overlap : forall D s1 s2 delta v, shape_dim D s1 -> shape_dim D s2 -> length delta = D ->
  indicator s1 s2 delta = Some v -> (v < 0 <-> overlap D s1 s2 delta).
Proof.
  assert (BB : forall D r1 c1 r2 c2 delta, shape_dim D (Ball r1 c1) -> shape_dim D (Ball r2 c2) -> length delta = D ->
     (ind_ball_ball r1 c1 r2 c2 delta < 0 <-> overlap D (Ball r1 c1) (Ball r2 c2) delta)).
  { intros D r1 c1 r2 c2 delta H1 H2 Ld. destruct H2 as [L2 P2].
    rewrite (ball_any_overlap D r1 c1 (Ball r2 c2) c2 delta (fun u => vsq u < r2 ^ 2)) by (auto; reflexivity).
    destruct H1 as [L1 P1].
    rewrite <- (balls_meet D) by (auto; apply vsub_len; auto; apply vadd_len; auto). unfold ind_ball_ball. split; lra. }
  assert (BP : forall D r1 c1 c2 delta, shape_dim D (Ball r1 c1) -> shape_dim D (Point c2) -> length delta = D ->
     (ind_ball_point r1 c1 c2 delta < 0 <-> overlap D (Ball r1 c1) (Point c2) delta)).
  { intros D r1 c1 c2 delta [L1 P1] L2 Ld. cbn in L2. unfold ind_ball_point, overlap. cbn [inside].
    assert (E : vsq (vsub (vsub c2 delta) c1) = vsq (vsub (vadd delta c1) c2)).
    { rewrite <- (vsq_neg D (vsub (vadd delta c1) c2)) by (apply vsub_len; auto; apply vadd_len; auto).
      rewrite <- (neg_pos D) by auto. f_equal. clear -L1 L2 Ld. revert delta c1 c2 L1 L2 Ld.
      induction D as [|D IH]; intros [|a d] [|b u] [|c v] H1 H2 H3; try discriminate; try reflexivity.
      unfold vadd, vsub in *. cbn [vneg map]. rewrite !vzip_cons. f_equal; [ring|]. apply IH; simpl in *; lia. }
    split.
    - intros H. exists c2. rewrite E. repeat split; auto. lra.
    - intros (x & Lx & H & ->). rewrite E in H. lra. }
  assert (BH : forall D r1 c1 c2 n delta, shape_dim D (Ball r1 c1) -> shape_dim D (HalfSpace c2 n) -> length delta = D ->
     (ind_ball_half r1 c1 c2 n delta < 0 <-> overlap D (Ball r1 c1) (HalfSpace c2 n) delta)).
  { intros D r1 c1 c2 n delta H1 (L2 & Ln & N1) Ld.
    rewrite (ball_any_overlap D r1 c1 (HalfSpace c2 n) c2 delta (fun u => vdot n u < 0)) by (auto; reflexivity).
    destruct H1 as [L1 P1].
    rewrite <- (ball_half_meet D) by (auto; apply vsub_len; auto; apply vadd_len; auto). unfold ind_ball_half. split; lra. }
  assert (Ln : forall D (u : vec), length u = D -> length (vneg u) = D) by (intros; rewrite vneg_length; auto).
  assert (Sy : forall D s1 s2 delta, shape_dim D s1 -> shape_dim D s2 -> length delta = D ->
     (overlap D s1 s2 (vneg delta) <-> overlap D s2 s1 delta)).
  { intros D s1 s2 delta H1 H2 H3. split; intros H.
    - rewrite <- (neg_neg delta). apply overlap_sym; auto.
    - apply overlap_sym; auto. }
  intros D [r1 c1|c1|c1 n1] [r2 c2|c2|c2 n2] delta v H1 H2 Ld H; cbn [indicator] in H; try discriminate; injection H as <-; auto.
  - rewrite (BP D r2 c2 c1 (vneg delta)) by auto. apply Sy; auto.
  - rewrite (BH D r2 c2 c1 n1 (vneg delta)) by auto. apply Sy; auto.
Qed.
Print Assumptions C47_overlap.

(** intersects(a,b) is true exactly when the two shapes overlap. *)
Theorem C47_intersects : forall D s1 s2 b, shape_dim D s1 -> shape_dim D s2 ->
  intersects D s1 s2 = Some b -> (b = true <-> exists x, length x = D /\ inside s1 x /\ inside s2 x).
Proof.
  intros D s1 s2 b H1 H2 H. unfold intersects in H. destruct (indicator s1 s2 (vnull D)) as [v|] eqn:E; [|discriminate].
  injection H as <-. assert (L : length (vnull D) = D) by apply repeat_length.
  rewrite Rltb_true, (C47_overlap D s1 s2 _ v H1 H2 L E). unfold overlap.
  assert (X : forall x, length x = D -> vsub x (vnull D) = x).
  { clear. unfold vnull. induction D as [|D IH]; intros [|a x] H; try discriminate; try reflexivity.
    unfold vsub in *. cbn [repeat]. rewrite vzip_cons. f_equal; [ring|]. apply IH. simpl in H. lia. }
  split; intros (x & Lx & A & B); exists x; (split; [auto|split; [|auto]]); [rewrite X in A by auto|rewrite X by auto]; auto.
Qed.
Print Assumptions C47_intersects.
Example C47_ex : let b1 := Ball (1/2) [0; 0; 0] in let b2 := Ball (1/2) [1/2; -1/2; 1/2] in
  shape_dim 3 b1 /\ shape_dim 3 b2 /\ intersects 3 b1 b2 = Some true /\
  intersects 3 b1 (HalfSpace [0; 0; -1] [0; 0; 1]) = Some false /\ shape_dim 3 (HalfSpace [0; 0; -1] [0; 0; 1]).
Proof.
  cbv zeta. unfold intersects, indicator, ind_ball_ball, ind_ball_half, vsq, vdot, vsub, vadd, vzip. simpl.
  repeat split; try lra; unfold vsq, vdot, vzip; simpl; try lra; f_equal.
  - apply Rltb_true. lra.
  - apply Rltb_false. lra.
Qed.

(** A half-space made with a normal of another length is misjudged: the ball of
    radius 1 at (3/2) is outside the half-space x < 0 given with normal (1/2),
    but the indicator is negative. *)
Theorem C47_normal_length_refuted :
  exists v, indicator (Ball 1 [3/2]) (HalfSpace [0] [1/2]) [0] = Some v /\ v < 0 /\
  ~ overlap 1 (Ball 1 [3/2]) (HalfSpace [0] [1/2]) [0].
Proof.
  eexists. split; [reflexivity|]. unfold ind_ball_half, overlap, inside, vsq, vdot, vsub, vadd, vzip. simpl. split; [lra|].
  intros ([|x [|]] & L & A & B); try discriminate. simpl in *. nra.
Qed.
Print Assumptions C47_normal_length_refuted.
