(** C72: what one step of each iteration does (newton_raphson_step, halley_step,
    schroeder_step are part of the API). *)
From Verif Require Import Num Outcome PolyModel NumericModel NumericSpec NumericProofs PropNumeric.
From Coq Require Import Lra Lia Reals.
Open Scope R_scope.

(** the point a step moves to, when it does not give up *)
Definition moves_to (r : status * nstate R) (v : R) : Prop := fst r <> Failed -> ns_x (snd r) = v.
Definition start (f : R -> list R) (lo hi : xval R) (x : R) : nstate R :=
  {| ns_x := x; ns_lo := lo; ns_hi := hi; ns_cur := f x |}.
Definition inside (lo hi : xval R) (v : R) : Prop :=
  match lo with Fin l => l < v | PInf => False | NInf => True end /\
  match hi with Fin h => v < h | PInf => True | NInf => False end.

Lemma process_moves f prec s v : moves_to (process_step f prec s v) v.
Proof.
  unfold moves_to, process_step. destruct (_ || _); [intros X; exfalso; apply X; reflexivity|].
  destruct (_ || _); [reflexivity|]. destruct (nltb _ _); [intros X; exfalso; apply X; reflexivity|reflexivity].
Qed.
Lemma process_hits f prec lo hi x v : inside lo hi v -> get (f v) 0 = 0 ->
  process_step f prec (start f lo hi x) v = (Converged, start f lo hi v).
Proof.
  intros [H1 H2] Z. unfold process_step, start. cbn [ns_hi ns_lo ns_x ns_cur].
  assert (E : ge_bound v hi || le_bound v lo = false).
  { destruct hi, lo; cbn [ge_bound le_bound]; cbn [nltb R_num]; try contradiction; try reflexivity.
    all: repeat match goal with |- context [Rltb ?a ?b] => destruct (Rltb_spec a b) end; try reflexivity; lra. }
  rewrite E. cbn [neqb n0 R_num]. destruct (Reqb_spec (get (f v) 0) 0) as [_|X]; [|contradiction].
  rewrite Bool.orb_true_r. reflexivity.
Qed.

(** *** exactness *)
(** f is the function k (t - r) with its derivatives *)
Definition linear (f : R -> list R) (k r : R) : Prop :=
  forall t, get (f t) 0 = k * (t - r) /\ get (f t) 1 = k /\ get (f t) 2 = 0.
(** f is k (t - r) / (c t + d) with its derivatives *)
Definition homographic (f : R -> list R) (k r c d : R) : Prop :=
  forall t, c * t + d <> 0 ->
    get (f t) 0 = k * (t - r) / (c * t + d) /\
    get (f t) 1 = k * (c * r + d) / (c * t + d) ^ 2 /\
    get (f t) 2 = -2 * c * k * (c * r + d) / (c * t + d) ^ 3.

(** Newton's step finds the root of a linear function at once *)
Theorem C72_newton_linear : forall f prec lo hi x k r, linear f k r -> k <> 0 -> inside lo hi r ->
  newton_raphson_step f prec (start f lo hi x) = (Converged, start f lo hi r).
Proof.
  intros f prec lo hi x k r L Hk Hr. unfold newton_raphson_step. cbn [start ns_cur ns_x neqb n0 R_num].
  destruct (L x) as (E0 & E1 & _). rewrite E0, E1. destruct (Reqb_spec k 0) as [X|_]; [contradiction|].
  cbn [nsub ndiv R_num]. replace (x - k * (x - r) / k) with r by (field; exact Hk).
  apply process_hits; [exact Hr|]. destruct (L r) as (Z & _). rewrite Z. ring.
Qed.
Example C72_linear_example : linear (fun t => [2 * (t - 3); 2; 0]) 2 3 /\ inside NInf PInf 3.
Proof. split; [intros t; cbn [get nth]; auto|split; exact I]. Qed.

(** Halley's step finds the root of a homographic function at once, from either
    side, as long as there is no pole between x and the root *)
Theorem C72_halley_homographic : forall f prec lo hi x k r c d, homographic f k r c d -> k <> 0 ->
  0 < (c * x + d) * (c * r + d) -> x <> r -> inside lo hi r ->
  halley_step f prec (start f lo hi x) = (Converged, start f lo hi r).
Proof.
  intros f prec lo hi x k r c d Hm Hk Hp Hx Hr.
  assert (P1 : c * x + d <> 0) by (intros X; rewrite X in Hp; lra).
  assert (P2 : c * r + d <> 0) by (intros X; rewrite X in Hp; lra).
  destruct (Hm x P1) as (E0 & E1 & E2). unfold halley_step. cbn [start ns_cur ns_x]. rewrite E0, E1, E2.
  cbn [nmul nsub nopp ndiv nadd neqb nltb n0 n1 n2 R_num]. unfold n2. cbn [nadd n1 R_num].
  set (q := c * x + d) in *. set (w := c * r + d) in *.
  assert (Eq : q = w + c * (x - r)) by (unfold q, w; ring).
  assert (D : (1 + 1) * (k * w / q ^ 2) * (k * w / q ^ 2) - k * (x - r) / q * (-2 * c * k * w / q ^ 3) = 2 * k ^ 2 * w / q ^ 3).
  { replace (2 * k ^ 2 * w / q ^ 3) with (2 * k ^ 2 * w * (w + c * (x - r)) / q ^ 4) by (rewrite <- Eq; field; exact P1). field. exact P1. }
  rewrite D.
  assert (ND : 2 * k ^ 2 * w / q ^ 3 <> 0).
  { unfold Rdiv. repeat apply Rmult_integral_contrapositive_currified; try lra; try exact P2; try (apply pow_nonzero; exact Hk).
    apply Rinv_neq_0_compat, pow_nonzero, P1. }
  destruct (Reqb_spec (2 * k ^ 2 * w / q ^ 3) 0) as [X|_]; [contradiction|].
  assert (N1 : k * w / q ^ 2 <> 0).
  { unfold Rdiv. repeat apply Rmult_integral_contrapositive_currified; auto. apply Rinv_neq_0_compat, pow_nonzero, P1. }
  destruct (Reqb_spec (k * w / q ^ 2) 0) as [X|_]; [contradiction|].
  assert (Dl : - ((1 + 1) * (k * (x - r) / q) * (k * w / q ^ 2)) / (2 * k ^ 2 * w / q ^ 3) = r - x) by (field; auto).
  assert (Nr : - (k * (x - r) / q) / (k * w / q ^ 2) = (r - x) * (q / w)) by (field; auto).
  rewrite Dl, Nr.
  assert (Pos : 0 < q / w). { replace (q / w) with (q * w * / (w * w)) by (field; exact P2). apply Rmult_lt_0_compat; [exact Hp|]. apply Rinv_0_lt_compat. nra. }
  assert (Ag : Bool.eqb (signbit (r - x)) (signbit ((r - x) * (q / w))) = true).
  { unfold signbit. cbn [nltb n0 R_num]. destruct (Rltb_spec (r - x) 0) as [A|A], (Rltb_spec ((r - x) * (q / w)) 0) as [B|B]; try reflexivity; exfalso; nra. }
  rewrite Ag. replace (x + (r - x)) with r by ring. apply process_hits; [exact Hr|].
  destruct (Hm r P2) as (Z & _). rewrite Z. unfold Rdiv. ring.
Qed.
(** 1 - 1/t, with its root 1, from any positive x *)
Example C72_homographic_example : homographic (fun t => [1 - / t; / t ^ 2; - 2 / t ^ 3]) 1 1 1 0 /\ 0 < (1 * 2 + 0) * (1 * 1 + 0).
Proof.
  split; [|lra]. intros t Ht. assert (t <> 0) by (intros X; apply Ht; rewrite X; ring). cbn [get nth].
  repeat split; field; auto.
Qed.

(** *** order of convergence *)
(** F(r) = F(x) + F'(x)(r-x) + F''(xi)(r-x)^2/2 for some xi between *)
Lemma lagrange2 (F F1 F2 : R -> R) x r :
  (forall t, Rmin x r <= t <= Rmax x r -> derivable_pt_lim F t (F1 t)) ->
  (forall t, Rmin x r <= t <= Rmax x r -> derivable_pt_lim F1 t (F2 t)) ->
  exists xi, Rmin x r <= xi <= Rmax x r /\ F r = F x + F1 x * (r - x) + F2 xi / 2 * (r - x) ^ 2.
Proof.
  intros D1 D2. destruct (Req_dec x r) as [->|Hne].
  { exists r. split; [split; [apply Rmin_l|apply Rmax_l]|ring]. }
  set (A := (F r - F x - F1 x * (r - x)) / (r - x) ^ 2).
  set (phi := fun t => F t + F1 t * (r - t) + A * (r - t) ^ 2).
  assert (Dphi : forall t, Rmin x r <= t <= Rmax x r -> derivable_pt_lim phi t ((r - t) * (F2 t - 2 * A))).
  { intros t Ht. unfold phi.
    replace ((r - t) * (F2 t - 2 * A)) with ((F1 t + (F2 t * (r - t) + F1 t * (0 - 1))) + A * ((0 - 1) * (r - t) + (r - t) * (0 - 1))) by ring.
    apply derivable_pt_lim_plus; [apply derivable_pt_lim_plus; [apply D1, Ht|]|].
    - apply (derivable_pt_lim_mult F1 (fun t => r - t)); [apply D2, Ht|].
      apply (derivable_pt_lim_minus (fct_cte r) id); [apply derivable_pt_lim_const|apply derivable_pt_lim_id].
    - apply (derivable_pt_lim_scal (fun t => (r - t) ^ 2) A).
      assert (L : derivable_pt_lim (fun t => r - t) t (0 - 1))
        by (apply (derivable_pt_lim_minus (fct_cte r) id); [apply derivable_pt_lim_const|apply derivable_pt_lim_id]).
      intros eps He. destruct (derivable_pt_lim_mult _ _ t _ _ L L eps He) as (dl & Hd). exists dl. intros h H1 H2.
      specialize (Hd h H1 H2). unfold mult_fct in Hd. replace ((r - (t + h)) ^ 2) with ((r - (t + h)) * (r - (t + h))) by ring.
      replace ((r - t) ^ 2) with ((r - t) * (r - t)) by ring. exact Hd. }
  assert (Ends : phi x = phi r). { unfold phi, A. field. lra. }
  assert (R0 : exists xi, Rmin x r < xi < Rmax x r /\ (r - xi) * (F2 xi - 2 * A) = 0).
  { destruct (Rlt_or_le x r) as [H|H].
    - rewrite Rmin_left, Rmax_right in * by lra.
      destruct (MVT_cor2 phi (fun t => (r - t) * (F2 t - 2 * A)) x r H) as (c & E & Hc); [intros c Hc; apply Dphi; lra|].
      exists c. split; [lra|]. rewrite Ends in E. replace (phi r - phi r) with 0 in E by ring. symmetry in E. apply Rmult_integral in E as [E|E]; [exact E|lra].
    - rewrite Rmin_right, Rmax_left in * by lra. assert (H' : r < x) by lra.
      destruct (MVT_cor2 phi (fun t => (r - t) * (F2 t - 2 * A)) r x H') as (c & E & Hc); [intros c Hc; apply Dphi; lra|].
      exists c. split; [lra|]. rewrite Ends in E. replace (phi r - phi r) with 0 in E by ring. symmetry in E. apply Rmult_integral in E as [E|E]; [exact E|lra]. }
  destruct R0 as (xi & Hxi & E). exists xi. split; [lra|].
  apply Rmult_integral in E as [E|E].
  { exfalso. destruct (Rlt_or_le x r); [rewrite Rmax_right in Hxi by lra|rewrite Rmin_right in Hxi by lra]; lra. }
  assert (EA : F2 xi / 2 = A) by lra. rewrite EA. unfold A. field. lra.
Qed.

(** F(r) = F(x) + F'(x)(r-x) + F''(x)(r-x)^2/2 + F'''(xi)(r-x)^3/6 *)
Lemma lagrange3 (F F1 F2 F3 : R -> R) x r :
  (forall t, Rmin x r <= t <= Rmax x r -> derivable_pt_lim F t (F1 t)) ->
  (forall t, Rmin x r <= t <= Rmax x r -> derivable_pt_lim F1 t (F2 t)) ->
  (forall t, Rmin x r <= t <= Rmax x r -> derivable_pt_lim F2 t (F3 t)) ->
  exists xi, Rmin x r <= xi <= Rmax x r /\ F r = F x + F1 x * (r - x) + F2 x / 2 * (r - x) ^ 2 + F3 xi / 6 * (r - x) ^ 3.
Proof.
  intros D1 D2 D3. destruct (Req_dec x r) as [->|Hne].
  { exists r. split; [split; [apply Rmin_l|apply Rmax_l]|ring]. }
  set (A := (F r - F x - F1 x * (r - x) - F2 x / 2 * (r - x) ^ 2) / (r - x) ^ 3).
  set (phi := fun t => F t + F1 t * (r - t) + (F2 t * (/ 2 * (r - t) ^ 2) + A * (r - t) ^ 3)).
  assert (L : forall t, derivable_pt_lim (fun t => r - t) t (0 - 1))
    by (intros t; apply (derivable_pt_lim_minus (fct_cte r) id); [apply derivable_pt_lim_const|apply derivable_pt_lim_id]).
  assert (L2 : forall t, derivable_pt_lim (fun t => (r - t) ^ 2) t (-2 * (r - t))).
  { intros t eps He. destruct (derivable_pt_lim_mult _ _ t _ _ (L t) (L t) eps He) as (dl & Hd). exists dl. intros h H1 H2.
    specialize (Hd h H1 H2). unfold mult_fct in Hd. replace ((r - (t + h)) ^ 2) with ((r - (t + h)) * (r - (t + h))) by ring.
    replace ((r - t) ^ 2) with ((r - t) * (r - t)) by ring. replace (-2 * (r - t)) with ((0 - 1) * (r - t) + (r - t) * (0 - 1)) by ring. exact Hd. }
  assert (L3 : forall t, derivable_pt_lim (fun t => (r - t) ^ 3) t (-3 * (r - t) ^ 2)).
  { intros t eps He. destruct (derivable_pt_lim_mult _ _ t _ _ (L2 t) (L t) eps He) as (dl & Hd). exists dl. intros h H1 H2.
    specialize (Hd h H1 H2). unfold mult_fct in Hd. replace ((r - (t + h)) ^ 3) with ((r - (t + h)) ^ 2 * (r - (t + h))) by ring.
    replace ((r - t) ^ 3) with ((r - t) ^ 2 * (r - t)) by ring. replace (-3 * (r - t) ^ 2) with (-2 * (r - t) * (r - t) + (r - t) ^ 2 * (0 - 1)) by ring. exact Hd. }
  assert (Dphi : forall t, Rmin x r <= t <= Rmax x r -> derivable_pt_lim phi t ((r - t) ^ 2 * (F3 t / 2 - 3 * A))).
  { intros t Ht. unfold phi.
    replace ((r - t) ^ 2 * (F3 t / 2 - 3 * A)) with
      ((F1 t + (F2 t * (r - t) + F1 t * (0 - 1))) + ((F3 t * (/ 2 * (r - t) ^ 2) + F2 t * (/ 2 * (-2 * (r - t)))) + A * (-3 * (r - t) ^ 2))) by field.
    apply derivable_pt_lim_plus; [apply derivable_pt_lim_plus; [apply D1, Ht|]|].
    - apply (derivable_pt_lim_mult F1 (fun t => r - t)); [apply D2, Ht|apply L].
    - apply derivable_pt_lim_plus; [|apply (derivable_pt_lim_scal (fun t => (r - t) ^ 3) A), L3].
      apply (derivable_pt_lim_mult F2 (fun t => / 2 * (r - t) ^ 2)); [apply D3, Ht|].
      apply (derivable_pt_lim_scal (fun t => (r - t) ^ 2) (/ 2)), L2. }
  assert (Ends : phi x = phi r). { unfold phi, A. field. lra. }
  assert (R0 : exists xi, Rmin x r < xi < Rmax x r /\ (r - xi) ^ 2 * (F3 xi / 2 - 3 * A) = 0).
  { destruct (Rlt_or_le x r) as [H|H].
    - rewrite Rmin_left, Rmax_right in * by lra.
      destruct (MVT_cor2 phi (fun t => (r - t) ^ 2 * (F3 t / 2 - 3 * A)) x r H) as (c & E & Hc); [intros c Hc; apply Dphi; lra|].
      exists c. split; [lra|]. rewrite Ends in E. replace (phi r - phi r) with 0 in E by ring. symmetry in E. apply Rmult_integral in E as [E|E]; [exact E|lra].
    - rewrite Rmin_right, Rmax_left in * by lra. assert (H' : r < x) by lra.
      destruct (MVT_cor2 phi (fun t => (r - t) ^ 2 * (F3 t / 2 - 3 * A)) r x H') as (c & E & Hc); [intros c Hc; apply Dphi; lra|].
      exists c. split; [lra|]. rewrite Ends in E. replace (phi r - phi r) with 0 in E by ring. symmetry in E. apply Rmult_integral in E as [E|E]; [exact E|lra]. }
  destruct R0 as (xi & Hxi & E). exists xi. split; [lra|].
  apply Rmult_integral in E as [E|E].
  { exfalso. assert (Z : r - xi <> 0) by (destruct (Rlt_or_le x r); [rewrite Rmax_right in Hxi by lra|rewrite Rmin_right in Hxi by lra]; lra).
    exact (pow_nonzero _ 2 Z E). }
  assert (EA : F3 xi / 6 = A) by lra. rewrite EA. unfold A. field. lra.
Qed.

(** Newton: near a root r of F with |F''| <= M, |F'(x)| >= m > 0, a step that is not
    refused has error at most M/(2m) times the square of the error before *)
Theorem C72_newton_quadratic : forall f prec lo hi x r m M (F2 : R -> R),
  let F := fun t => get (f t) 0 in let F1 := fun t => get (f t) 1 in
  (forall t, Rmin x r <= t <= Rmax x r -> derivable_pt_lim F t (F1 t)) ->
  (forall t, Rmin x r <= t <= Rmax x r -> derivable_pt_lim F1 t (F2 t)) ->
  (forall t, Rmin x r <= t <= Rmax x r -> Rabs (F2 t) <= M) ->
  F r = 0 -> 0 < m -> m <= Rabs (F1 x) ->
  let res := newton_raphson_step f prec (start f lo hi x) in
  fst res <> Failed -> Rabs (ns_x (snd res) - r) <= M / (2 * m) * (x - r) ^ 2.
Proof.
  intros f prec lo hi x r m M F2 F F1 D1 D2 B Z Hm HF res Hr.
  assert (NZ : F1 x <> 0) by (intros X; rewrite X, Rabs_R0 in HF; lra).
  assert (EX : ns_x (snd res) = x - F x / F1 x).
  { revert Hr. unfold res, newton_raphson_step. cbn [start ns_cur ns_x neqb n0 R_num]. fold (F1 x). destruct (Reqb_spec (F1 x) 0); [contradiction|].
    apply process_moves. }
  rewrite EX. destruct (lagrange2 F F1 F2 x r D1 D2) as (xi & Hxi & E). rewrite Z in E.
  replace (x - F x / F1 x - r) with (F2 xi / (2 * F1 x) * (x - r) ^ 2).
  2:{ apply (Rmult_eq_reg_l (F1 x)); [|exact NZ]. replace (F1 x * (x - F x / F1 x - r)) with (F1 x * (x - r) - F x) by (field; exact NZ).
      replace (F1 x * (F2 xi / (2 * F1 x) * (x - r) ^ 2)) with (F2 xi / 2 * (r - x) ^ 2) by (field; exact NZ). lra. }
  rewrite Rabs_mult, (Rabs_pos_eq ((x - r) ^ 2)) by apply pow2_ge_0. apply Rmult_le_compat_r; [apply pow2_ge_0|].
  unfold Rdiv. rewrite Rabs_mult. apply Rmult_le_compat; [apply Rabs_pos|apply Rabs_pos|apply B, Hxi|].
  rewrite Rabs_inv, Rabs_mult, (Rabs_pos_eq 2) by lra. apply Rinv_le_contravar; [lra|]. lra.
Qed.

(** Halley: with |F'| <= M1, |F''| <= M2, |F'''| <= M3 between x and the root and a
    denominator of at least d > 0 in absolute value, the error is at most
    (M2^2/2 + M1 M3/3)/d times the cube of the error before *)
Theorem C72_halley_cubic : forall f prec lo hi x r d M1 M2 M3 (F3 : R -> R),
  let F := fun t => get (f t) 0 in let F1 := fun t => get (f t) 1 in let F2 := fun t => get (f t) 2 in
  (forall t, Rmin x r <= t <= Rmax x r -> derivable_pt_lim F t (F1 t)) ->
  (forall t, Rmin x r <= t <= Rmax x r -> derivable_pt_lim F1 t (F2 t)) ->
  (forall t, Rmin x r <= t <= Rmax x r -> derivable_pt_lim F2 t (F3 t)) ->
  (forall t, Rmin x r <= t <= Rmax x r -> Rabs (F1 t) <= M1 /\ Rabs (F2 t) <= M2 /\ Rabs (F3 t) <= M3) ->
  F r = 0 -> 0 < d -> d <= Rabs (2 * F1 x * F1 x - F x * F2 x) ->
  let res := halley_step f prec (start f lo hi x) in
  fst res <> Failed -> Rabs (ns_x (snd res) - r) <= (M2 ^ 2 / 2 + M1 * M3 / 3) / d * Rabs (x - r) ^ 3.
Proof.
  intros f prec lo hi x r d M1 M2 M3 F3 F F1 F2 D1 D2 D3 B Z Hd HD res Hr.
  set (D := 2 * F1 x * F1 x - F x * F2 x) in *.
  assert (ND : D <> 0) by (intros X; rewrite X, Rabs_R0 in HD; lra).
  assert (EX : ns_x (snd res) = x - 2 * F x * F1 x / D).
  { revert Hr. unfold res, halley_step. cbn [start ns_cur ns_x]. fold (F x) (F1 x) (F2 x).
    unfold n2. cbn [nmul nsub nopp ndiv nadd neqb nltb n0 n1 R_num]. change (1 + 1) with 2. fold D.
    destruct (Reqb_spec D 0); [contradiction|].
    match goal with |- context [if ?c then process_step _ _ _ _ else _] => destruct c end; [|intros X; exfalso; apply X; reflexivity].
    intros X. rewrite (process_moves _ _ _ _ X). field. exact ND. }
  rewrite EX. destruct (lagrange2 F F1 F2 x r D1 D2) as (e2 & H2 & E2). destruct (lagrange3 F F1 F2 F3 x r D1 D2 D3) as (e3 & H3 & E3).
  rewrite Z in E2, E3.
  set (e := x - r) in *. replace (r - x) with (- e) in * by (unfold e; ring).
  assert (Key : x - 2 * F x * F1 x / D - r = e ^ 3 * (F2 x * F2 e2 / 2 - F1 x * F3 e3 / 3) / D).
  { apply (Rmult_eq_reg_r D); [|exact ND]. replace ((x - 2 * F x * F1 x / D - r) * D) with (e * D - 2 * F x * F1 x) by (unfold e; field; exact ND).
    replace (e ^ 3 * (F2 x * F2 e2 / 2 - F1 x * F3 e3 / 3) / D * D) with (F2 x * e * (F2 e2 / 2 * e ^ 2) - 2 * F1 x * (F3 e3 / 6 * e ^ 3)) by (field; exact ND).
    assert (X2 : F2 e2 / 2 * e ^ 2 = F1 x * e - F x) by lra.
    assert (X3 : F3 e3 / 6 * e ^ 3 = F2 x / 2 * e ^ 2 - (F1 x * e - F x)) by lra.
    rewrite X2, X3. unfold D. field. }
  rewrite Key. unfold Rdiv at 1. rewrite !Rabs_mult, RPow_abs.
  assert (Hx : Rmin x r <= x <= Rmax x r) by (split; [apply Rmin_l|apply Rmax_l]).
  destruct (B x Hx) as (B1 & B2 & _). destruct (B e2 H2) as (_ & B2' & _). destruct (B e3 H3) as (_ & _ & B3).
  pose proof (Rabs_pos (F1 x)). pose proof (Rabs_pos (F2 x)). pose proof (Rabs_pos (F2 e2)). pose proof (Rabs_pos (F3 e3)).
  assert (C : Rabs (F2 x * F2 e2 / 2 - F1 x * F3 e3 / 3) <= M2 ^ 2 / 2 + M1 * M3 / 3).
  { eapply Rle_trans; [apply Rabs_triang|]. rewrite Rabs_Ropp. unfold Rdiv. rewrite !Rabs_mult, !Rabs_inv, (Rabs_pos_eq 2), (Rabs_pos_eq 3) by lra.
    assert (Rabs (F2 x) * Rabs (F2 e2) <= M2 * M2) by (apply Rmult_le_compat; lra).
    assert (Rabs (F1 x) * Rabs (F3 e3) <= M1 * M3) by (apply Rmult_le_compat; lra). lra. }
  assert (IV : Rabs (/ D) <= / d) by (rewrite Rabs_inv; apply Rinv_le_contravar; lra).
  replace ((M2 ^ 2 / 2 + M1 * M3 / 3) / d * Rabs (e ^ 3)) with (Rabs (e ^ 3) * (M2 ^ 2 / 2 + M1 * M3 / 3) * / d) by (unfold Rdiv; ring).
  apply Rmult_le_compat; [apply Rmult_le_pos; apply Rabs_pos|apply Rabs_pos| |exact IV].
  apply Rmult_le_compat_l; [apply Rabs_pos|exact C].
Qed.

(** t^2 - 2 at x = 3/2 meets the hypotheses of both (r = sqrt 2) *)
Example C72_order_example : let f := fun t : R => [t * t - 2; 2 * t; 2] in
  let F := fun t => get (f t) 0 in let F1 := fun t => get (f t) 1 in let F2 := fun t => get (f t) 2 in
  (forall t, derivable_pt_lim F t (F1 t)) /\ (forall t, derivable_pt_lim F1 t (F2 t)) /\ (forall t, derivable_pt_lim F2 t 0) /\
  F (sqrt 2) = 0 /\ 3 <= Rabs (F1 (3 / 2)) /\ 1 <= Rabs (2 * F1 (3 / 2) * F1 (3 / 2) - F (3 / 2) * F2 (3 / 2)) /\
  fst (newton_raphson_step f 1 (start f NInf PInf (3 / 2))) <> Failed /\ fst (halley_step f 1 (start f NInf PInf (3 / 2))) <> Failed.
Proof.
  intros f F F1 F2. unfold F, F1, F2, f. cbn [get nth].
  split; [|split; [|split; [|split; [|split; [|split; [|split]]]]]].
  - intros t. replace (2 * t) with ((1 * t + t * 1) - 0) by ring.
    apply (derivable_pt_lim_minus (mult_fct id id) (fct_cte 2)); [apply derivable_pt_lim_mult; apply derivable_pt_lim_id|apply derivable_pt_lim_const].
  - intros t. pose proof (derivable_pt_lim_scal id 2 t 1 (derivable_pt_lim_id t)) as X. rewrite Rmult_1_r in X. exact X.
  - intros t. apply derivable_pt_lim_const.
  - rewrite sqrt_sqrt; lra.
  - rewrite Rabs_pos_eq; lra.
  - rewrite Rabs_pos_eq; lra.
  - unfold newton_raphson_step, start, process_step. cbn [ns_cur ns_x ns_lo ns_hi get nth ge_bound le_bound orb nltb neqb n0 nsub ndiv nmul R_num].
    rewrite ?nabs_R. destruct (Reqb_spec (2 * (3 / 2)) 0); [lra|]. destruct (Rltb_spec (Rabs (3 / 2 - (3 / 2 * (3 / 2) - 2) / (2 * (3 / 2)) - 3 / 2)) (Rabs (1 * (3 / 2 - (3 / 2 * (3 / 2) - 2) / (2 * (3 / 2)))))) as [_|X]; [cbn; discriminate|].
    exfalso. rewrite (Rabs_left (_ - 3 / 2)), Rabs_pos_eq in X by lra. lra.
  - unfold halley_step, start, process_step, n2, signbit. cbn [ns_cur ns_x ns_lo ns_hi get nth ge_bound le_bound orb nltb neqb n0 n1 nsub ndiv nmul nopp nadd R_num].
    rewrite ?nabs_R.
    destruct (Reqb_spec ((1 + 1) * (2 * (3 / 2)) * (2 * (3 / 2)) - (3 / 2 * (3 / 2) - 2) * 2) 0); [lra|].
    destruct (Reqb_spec (2 * (3 / 2)) 0); [lra|].
    match goal with |- context [Bool.eqb (Rltb ?a 0) (Rltb ?b 0)] => destruct (Rltb_spec a 0) as [_|X]; [|exfalso; lra]; destruct (Rltb_spec b 0) as [_|X]; [|exfalso; lra] end.
    cbn [Bool.eqb].
    match goal with |- context [Rltb ?a ?b] => destruct (Rltb_spec a b) as [_|X]; [cbn; discriminate|] end.
    exfalso. rewrite (Rabs_left (_ - 3 / 2)), Rabs_pos_eq in X by lra. lra.
Qed.

(** *** Schroeder's step *)
(** Schroeder's proposal would be x - f/f' - f'' f^2/(2 f'^3), of third order.  The code
    has 2 f f' where f/f' belongs: on k (t - r) it does not go to the root unless
    2 k^2 = 1, and for t - r the distance to the root never shrinks. *)
Theorem C72_schroeder_refuted : forall f prec lo hi x k r, linear f k r -> k <> 0 ->
  let res := schroeder_step f prec (start f lo hi x) in
  fst res <> Failed -> ns_x (snd res) - r = (1 - 2 * k ^ 2) * (x - r) /\
  (k = 1 -> Rabs (ns_x (snd res) - r) = Rabs (x - r)).
Proof.
  intros f prec lo hi x k r L Hk res Hr.
  assert (E : ns_x (snd res) - r = (1 - 2 * k ^ 2) * (x - r)).
  { destruct (L x) as (E0 & E1 & E2). revert Hr. unfold res, schroeder_step. cbn [start ns_cur ns_x]. rewrite E0, E1, E2.
    unfold n2. cbn [nmul nsub ndiv nadd neqb n0 n1 R_num]. destruct (Reqb_spec k 0); [contradiction|].
    intros X. rewrite (process_moves _ _ _ _ X). field. exact Hk. }
  split; [exact E|]. intros ->. rewrite E. replace ((1 - 2 * 1 ^ 2) * (x - r)) with (- (x - r)) by ring. apply Rabs_Ropp.
Qed.
(** The point the code's step moves to is Schroeder's point just when f is zero at x
    already or 2 f'(x)^2 = 1. *)
Theorem C72_schroeder_iff : forall f prec lo hi x, get (f x) 1 <> 0 ->
  let res := schroeder_step f prec (start f lo hi x) in
  let f0 := get (f x) 0 in let f1 := get (f x) 1 in let f2 := get (f x) 2 in
  fst res <> Failed ->
  (ns_x (snd res) = x - f0 / f1 - f2 * f0 ^ 2 / (2 * f1 ^ 3) <-> f0 = 0 \/ 2 * f1 ^ 2 = 1).
Proof.
  intros f prec lo hi x N res f0 f1 f2 Hr.
  assert (E : ns_x (snd res) = x - 2 * f0 * f1 - f2 * f0 ^ 2 / (2 * f1 ^ 3)).
  { revert Hr. unfold res, schroeder_step. cbn [start ns_cur ns_x]. fold f0 f1 f2.
    unfold n2. cbn [nmul nsub ndiv nadd neqb n0 n1 R_num]. fold f1 in N. destruct (Reqb_spec f1 0); [contradiction|].
    intros X. rewrite (process_moves _ _ _ _ X). field. exact N. }
  rewrite E. fold f1 in N. split.
  - intros H. destruct (Req_dec f0 0) as [Z|Z]; [left; exact Z|right].
    assert (H' : 2 * f0 * f1 = f0 / f1) by lra.
    apply Rmult_eq_reg_l with (f0 / f1); [|unfold Rdiv; apply Rmult_integral_contrapositive; split; [exact Z|apply Rinv_neq_0_compat, N]].
    rewrite Rmult_1_r. transitivity (2 * f0 * f1); [field; exact N|exact H'].
  - intros [Z|Z]; [rewrite Z; field; exact N|].
    assert (I : / f1 = 2 * f1). { apply Rmult_eq_reg_l with f1; [|exact N]. rewrite Rinv_r by exact N. lra. }
    unfold Rdiv at 2. rewrite I. ring.
Qed.
Print Assumptions C72_schroeder_iff.
(** t - 1 from 0: accepted, and goes to 2 *)
Example C72_schroeder_example : let f := fun t : R => [t - 1; 1; 0] in
  linear f 1 1 /\ fst (schroeder_step f 0 (start f NInf PInf 0)) = Stepped /\ ns_x (snd (schroeder_step f 0 (start f NInf PInf 0))) = 2.
Proof.
  intros f.
  assert (S : exists s, schroeder_step f 0 (start f NInf PInf 0) = (Stepped, s)).
  { unfold schroeder_step, start, process_step, n2, f. cbn [ns_cur ns_x ns_lo ns_hi get nth ge_bound le_bound orb nltb neqb n0 n1 nsub ndiv nmul nopp nadd R_num].
    rewrite ?nabs_R. destruct (Reqb_spec 1 0); [lra|]. set (y := 0 - _ - _). assert (Ey : y = 2) by (unfold y; field). rewrite Ey. clear y Ey.
    replace (0 * 2) with 0 by ring. rewrite Rabs_R0. destruct (Rltb_spec (Rabs (2 - 0)) 0) as [X|_]; [pose proof (Rabs_pos (2 - 0)); lra|].
    destruct (Reqb_spec (2 - 1) 0); [lra|]. cbn [orb]. destruct (Rltb_spec (Rabs (0 - 1)) (Rabs (2 - 1))) as [X|_]; [|eauto].
    rewrite Rabs_left, Rabs_pos_eq in X by lra. lra. }
  assert (L : linear f 1 1) by (intros t; unfold f; cbn [get nth]; repeat split; ring).
  destruct S as (s & E). split; [exact L|]. split; [rewrite E; reflexivity|].
  pose proof (C72_schroeder_refuted f 0 NInf PInf 0 1 1 L ltac:(lra)) as P. cbv zeta in P. rewrite E in P |- *.
  destruct P as [P _]; [discriminate|]. lra.
Qed.
Print Assumptions C72_newton_quadratic.
Print Assumptions C72_halley_cubic.
