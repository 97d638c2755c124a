(** The recurrences of ad.hpp as identities between sequences of functions. *)
From Coq Require Import String.
From Verif Require Import Outcome Num ExprModel ExprSpec ExprDeriv AdModel AdSpec.
Open Scope R_scope.

(** ** Sums and convolutions *)
Fixpoint rsum (n : nat) (f : nat -> R) : R := match n with O => 0 | S n => rsum n f + f n end.
Lemma rsum_ext n f g : (forall i, (i < n)%nat -> f i = g i) -> rsum n f = rsum n g.
Proof. induction n; simpl; intros H; auto. rewrite IHn, H; auto. Qed.
Lemma rsum_plus n f g : rsum n (fun i => f i + g i) = rsum n f + rsum n g.
Proof. induction n; simpl; [lra|]. rewrite IHn. lra. Qed.
Lemma rsum_scal n c f : rsum n (fun i => c * f i) = c * rsum n f.
Proof. induction n; simpl; [lra|]. rewrite IHn. lra. Qed.
Lemma rsum_first n f : rsum (S n) f = f O + rsum n (fun i => f (S i)).
Proof. induction n; [simpl; lra|]. change (rsum (S (S n)) f) with (rsum (S n) f + f (S n)). rewrite IHn. simpl. lra. Qed.
Lemma rsum_rev n f : rsum n f = rsum n (fun i => f (n - 1 - i)%nat).
Proof.
  induction n; auto. rewrite (rsum_first n (fun i => f (S n - 1 - i)%nat)). change (rsum (S n) f) with (rsum n f + f n). rewrite IHn.
  replace (S n - 1 - 0)%nat with n by lia. rewrite Rplus_comm. f_equal.
  apply rsum_ext. intros i Hi. f_equal. lia.
Qed.

Definition conv (u v : nat -> R) (k : nat) : R := rsum (S k) (fun i => u i * v (k - i)%nat).
Definition D (u : nat -> R) (k : nat) : R := INR (S k) * u (S k).

Lemma conv_comm u v k : conv u v k = conv v u k.
Proof.
  unfold conv. rewrite rsum_rev. apply rsum_ext. intros i Hi.
  replace (S k - 1 - i)%nat with (k - i)%nat by lia. replace (k - (k - i))%nat with i by lia. lra.
Qed.

Lemma leibniz u v k : conv (D u) v k + conv u (D v) k = INR (S k) * conv u v (S k).
Proof.
  unfold conv, D.
  assert (E : INR (S k) * rsum (S (S k)) (fun i => u i * v (S k - i)%nat) =
    rsum (S (S k)) (fun i => INR i * u i * v (S k - i)%nat) +
    rsum (S (S k)) (fun i => INR (S k - i) * u i * v (S k - i)%nat)).
  { rewrite <- rsum_scal, <- rsum_plus. apply rsum_ext. intros i Hi.
    rewrite <- (Rmult_1_l (u i * _)). rewrite minus_INR by lia. ring. }
  rewrite E. f_equal.
  - rewrite (rsum_first (S k)). cbv beta. change (INR 0) with 0. rewrite !Rmult_0_l, Rplus_0_l. apply rsum_ext. intros i Hi.
    replace (S k - S i)%nat with (k - i)%nat by lia. reflexivity.
  - change (rsum (S (S k)) ?f) with (rsum (S k) f + f (S k)). cbv beta. rewrite Nat.sub_diag. change (INR 0) with 0.
    rewrite !Rmult_0_l, Rplus_0_r. apply rsum_ext. intros i Hi.
    replace (S k - i)%nat with (S (k - i)) by lia. ring.
Qed.

(** ** Sequences of functions that are towers of derivatives *)
Definition flat (n : nat) (U : nat -> R -> R) (p : R) : Prop :=
  forall k, (k < n)%nat -> derivable_pt_lim (U k) p (INR (S k) * U (S k) p).

Lemma dpl_ext f g p d : (forall q, f q = g q) -> derivable_pt_lim f p d -> derivable_pt_lim g p d.
Proof.
  intros E H eps He. destruct (H eps He) as [dl Hd]. exists dl. intros h Hh Hb. rewrite <- !E. auto.
Qed.

Lemma dpl_rsum m (f : nat -> R -> R) (f' : nat -> R) p :
  (forall i, (i < m)%nat -> derivable_pt_lim (f i) p (f' i)) ->
  derivable_pt_lim (fun q => rsum m (fun i => f i q)) p (rsum m f').
Proof.
  induction m; intros H; simpl.
  - apply derivable_pt_lim_const.
  - apply (derivable_pt_lim_plus (fun q => rsum m (fun i => f i q)) (f m)); auto.
Qed.

Lemma flat_le n m U p : (m <= n)%nat -> flat n U p -> flat m U p.
Proof. intros L H k Hk. apply H. lia. Qed.
Lemma flat_ext n U V p : (forall k q, (k <= n)%nat -> U k q = V k q) -> flat n U p -> flat n V p.
Proof.
  intros E H k Hk. rewrite <- E by lia. apply (dpl_ext (U k)); [intros; apply E; lia|]. now apply H.
Qed.

Lemma flat_conv n U V W p : flat n U p -> flat n V p ->
  (forall k q, (k <= n)%nat -> W k q = conv (fun i => U i q) (fun i => V i q) k) -> flat n W p.
Proof.
  intros HU HV E k Hk. rewrite E by lia. rewrite <- leibniz.
  apply (dpl_ext (fun q => conv (fun i => U i q) (fun i => V i q) k)); [intros; symmetry; apply E; lia|].
  unfold conv. rewrite <- rsum_plus.
  apply (dpl_rsum (S k) (fun i q => U i q * V (k - i)%nat q)).
  intros i Hi. unfold D. apply (derivable_pt_lim_mult (U i) (V (k - i)%nat)); [apply HU|apply HV]; lia.
Qed.

Lemma flat_plus n U V W p : flat n U p -> flat n V p -> (forall k q, (k <= n)%nat -> W k q = U k q + V k q) -> flat n W p.
Proof.
  intros HU HV E k Hk. rewrite E by lia. rewrite Rmult_plus_distr_l.
  apply (dpl_ext (fun q => U k q + V k q)); [intros; symmetry; apply E; lia|].
  apply (derivable_pt_lim_plus (U k) (V k)); auto.
Qed.
Lemma flat_scal n c U W p : flat n U p -> (forall k q, (k <= n)%nat -> W k q = c * U k q) -> flat n W p.
Proof.
  intros HU E k Hk. rewrite E by lia.
  replace (INR (S k) * (c * U (S k) p)) with (c * (INR (S k) * U (S k) p)) by ring.
  apply (dpl_ext (fun q => c * U k q)); [intros; symmetry; apply E; lia|].
  apply (derivable_pt_lim_scal (U k)); auto.
Qed.

Lemma flat_D n U W p : flat (S n) U p -> (forall k q, (k <= n)%nat -> W k q = INR (S k) * U (S k) q) -> flat n W p.
Proof.
  intros HU E k Hk. rewrite E by lia.
  replace (INR (S k) * (INR (S (S k)) * U (S (S k)) p)) with (INR (S k) * (INR (S (S k)) * U (S (S k)) p)) by ring.
  apply (dpl_ext (fun q => INR (S k) * U (S k) q)); [intros; symmetry; apply E; lia|].
  apply (derivable_pt_lim_scal (U (S k))). apply HU. lia.
Qed.

Lemma flat_int n H p : derivable_pt_lim (H O) p (H 1%nat p) ->
  flat n (fun k q => INR (S k) * H (S k) q) p -> flat (S n) H p.
Proof.
  intros H0 F [|k] Hk.
  - change (INR 1) with 1. rewrite Rmult_1_l. exact H0.
  - specialize (F k ltac:(lia)). cbv beta in F. assert (INR (S k) <> 0) by (apply not_0_INR; lia).
    apply (derivable_pt_lim_scal _ (/ INR (S k))) in F. unfold mult_real_fct in F.
    replace (INR (S (S k)) * H (S (S k)) p) with (/ INR (S k) * (INR (S k) * (INR (S (S k)) * H (S (S k)) p)))
      by (field; auto).
    apply (dpl_ext (fun q => / INR (S k) * (INR (S k) * H (S k) q))); auto. intros q. field. auto.
Qed.

(** Division: G * W = V. *)
Lemma flat_div n V G W p : flat n V p -> flat n G p -> G O p <> 0 ->
  (forall k q, (k <= n)%nat -> W k q = (V k q - rsum k (fun i => W i q * G (k - i)%nat q)) / G O q) ->
  flat n W p.
Proof.
  intros HV HG NZ E.
  assert (C : forall k, (k <= n)%nat -> conv (fun i => W i p) (fun i => G i p) k = V k p).
  { intros k Hk. unfold conv. change (rsum (S k) ?f) with (rsum k f + f k). cbv beta. rewrite Nat.sub_diag.
    rewrite (E k p Hk). field. exact NZ. }
  intros k. induction k as [k IH] using lt_wf_ind. intros Hk.
  apply (dpl_ext (fun q => (V k q - rsum k (fun i => W i q * G (k - i)%nat q)) / G O q));
    [intros; symmetry; apply E; lia|].
  set (S1 := rsum k (fun i => D (fun i => W i p) i * G (k - i)%nat p + W i p * D (fun i => G i p) (k - i))).
  assert (DN : derivable_pt_lim (fun q => V k q - rsum k (fun i => W i q * G (k - i)%nat q)) p
     (INR (S k) * V (S k) p - S1)).
  { apply (derivable_pt_lim_minus (V k) (fun q => rsum k (fun i => W i q * G (k - i)%nat q))); [apply HV; lia|].
    apply (dpl_rsum k (fun i q => W i q * G (k - i)%nat q)). intros i Hi. unfold D.
    apply (derivable_pt_lim_mult (W i) (G (k - i)%nat)); [apply IH; lia|apply HG; lia]. }
  pose proof (derivable_pt_lim_div _ _ p _ _ DN (HG O ltac:(lia)) NZ) as Q. unfold div_fct in Q.
  match type of Q with derivable_pt_lim _ _ ?d => replace (INR (S k) * W (S k) p) with d; [exact Q|] end.
  pose proof (leibniz (fun i => W i p) (fun i => G i p) k) as L. rewrite (C (S k)) in L by lia.
  unfold conv in L. change (rsum (S k) ?f) with (rsum k f + f k) in L. cbv beta in L. rewrite Nat.sub_diag in L.
  unfold S1. rewrite rsum_plus. pose proof (E k p ltac:(lia)) as Ek.
  set (A := rsum k (fun i => D (fun i0 => W i0 p) i * G (k - i)%nat p)) in *.
  set (B := rsum k (fun i => W i p * D (fun i0 => G i0 p) (k - i))) in *.
  set (X := rsum k (fun i => W i p * G (k - i)%nat p)) in *.
  unfold D in L. change (INR 1) with 1 in *.
  replace (INR (S k) * V (S k) p) with (A + INR (S k) * W (S k) p * G O p + (B + W k p * (1 * G 1%nat p))) by lra.
  replace (V k p - X) with (W k p * G O p) by (rewrite Ek; field; auto).
  unfold Rsqr. field. auto.
Qed.

(** ** Values of the loops *)
Lemma for_up_sum lo cnt (f : nat -> R) s : for_up lo cnt (fun i s => s + f i) s = s + rsum cnt (fun j => f (lo + j)%nat).
Proof.
  revert lo s. induction cnt; intros lo s; [simpl; lra|]. cbn [for_up]. rewrite IHcnt, rsum_first.
  rewrite Nat.add_0_r, Rplus_assoc. f_equal. f_equal. apply rsum_ext. intros; f_equal; lia.
Qed.
Lemma for_up_diff lo cnt (f : nat -> R) s : for_up lo cnt (fun i s => s - f i) s = s - rsum cnt (fun j => f (lo + j)%nat).
Proof.
  revert lo s. induction cnt; intros lo s; [simpl; lra|]. cbn [for_up]. rewrite IHcnt, rsum_first.
  rewrite Nat.add_0_r. replace (rsum cnt (fun j => f (S lo + j)%nat)) with (rsum cnt (fun i => f (lo + S i)%nat));
    [lra|apply rsum_ext; intros; f_equal; lia].
Qed.
Lemma nofnat_INR n : nofnat n = INR n.
Proof. induction n; auto. rewrite S_INR, <- IHn. reflexivity. Qed.

Lemma fill_length {A} (step : list A -> A) n : length (fill step n) = n.
Proof. induction n; simpl; auto. rewrite app_length. simpl. lia. Qed.
Lemma fill_nth {A} (step : list A -> A) d n k : (k < n)%nat -> nth k (fill step n) d = step (fill step k).
Proof.
  induction n; intros H; [lia|]. simpl. destruct (Nat.eq_dec k n) as [->|].
  - rewrite app_nth2 by (rewrite fill_length; lia). rewrite fill_length, Nat.sub_diag. reflexivity.
  - rewrite app_nth1 by (rewrite fill_length; lia). apply IHn. lia.
Qed.
(** An entry does not depend on how far the list is filled. *)
Lemma fill_get {A} (step : list A -> A) d n m k : (k < n)%nat -> (k < m)%nat -> nth k (fill step n) d = nth k (fill step m) d.
Proof. intros. rewrite !fill_nth by auto. reflexivity. Qed.

(** ** The overloads *)
Section Nodes.
Variable Nd : nat.
Notation vflat := (fun (n : nat) (G : R -> list R) (p : R) => flat n (fun k q => get (G q) k) p).

Ltac entry H := unfold get; rewrite fill_nth by H; cbv beta; rewrite ?fill_length.

Lemma fget (step : list R -> R) i k : (i < k)%nat -> (k <= Nd)%nat -> nth i (fill step k) 0 = nth i (fill step (S Nd)) 0.
Proof. intros. apply fill_get; lia. Qed.

Lemma const_entry c k : (k <= Nd)%nat -> get (ad_const Nd c) k = match k with O => c | _ => 0 end.
Proof. intros H. unfold ad_const. entry lia. reflexivity. Qed.
Lemma var_entry nan x a k : (k <= Nd)%nat -> get (ad_var nan Nd x x a) k = match k with O => a | 1%nat => 1 | _ => 0 end.
Proof. intros H. unfold ad_var. entry lia. rewrite String.eqb_refl. reflexivity. Qed.
Lemma add_entry l r k : (k <= Nd)%nat -> get (ad_add Nd l r) k = get l k + get r k.
Proof. intros H. unfold ad_add. unfold get at 1. rewrite fill_nth by lia. cbv beta. now rewrite fill_length. Qed.
Lemma sub_entry l r k : (k <= Nd)%nat -> get (ad_sub Nd l r) k = get l k - get r k.
Proof. intros H. unfold ad_sub. unfold get at 1. rewrite fill_nth by lia. cbv beta. now rewrite fill_length. Qed.
Lemma mul_entry l r k : (k <= Nd)%nat -> get (ad_mul Nd l r) k = conv (get l) (get r) k.
Proof.
  intros H. unfold ad_mul. unfold get at 1. rewrite fill_nth by lia. cbv beta. rewrite fill_length.
  destruct k as [|k].
  - unfold conv. simpl. lra.
  - unfold add_up, conv. rewrite (for_up_sum 0 (S (S k)) (fun i => get l i * get r (S k - i)%nat)). simpl n0.
    rewrite Rplus_0_l. reflexivity.
Qed.
Ltac rn := cbn [n0 n1 nadd nsub nmul ndiv nopp enum_num R_enum R_num esin ecos elog eexp epow].
Ltac fills := unfold get; rewrite fget by lia; reflexivity.

Lemma div_entry l r k : (k <= Nd)%nat ->
  get (ad_div Nd l r) k = (get l k - rsum k (fun i => get (ad_div Nd l r) i * get r (k - i)%nat)) / get r 0.
Proof.
  intros H. unfold ad_div at 1. unfold get at 1. rewrite fill_nth by lia. cbv beta. rewrite fill_length.
  destruct k as [|k]; rn.
  - simpl. unfold Rdiv. rewrite Rminus_0_r. reflexivity.
  - unfold sub_up. rn. rewrite (for_up_diff 0 (S k)). f_equal. f_equal. apply rsum_ext. intros i Hi. cbn [Nat.add]. f_equal.
    fills.
Qed.
Lemma exp_entry0 g : get (ad_exp Nd g) 0 = exp (get g 0).
Proof. unfold ad_exp. entry lia. reflexivity. Qed.

Lemma scale_div k x : INR (S k) * (x / INR (S k)) = x.
Proof. field. apply not_0_INR. lia. Qed.

Lemma div_scale c x y d : c * x = y -> c * (x / d) = y / d.
Proof. intros <-. unfold Rdiv. ring. Qed.

Lemma div_cancel c x d : c <> 0 -> c * (x / (c * d)) = x / d.
Proof. intros N. unfold Rdiv. rewrite Rinv_mult. transitivity ((c * / c) * (x * / d)); [ring|]. rewrite Rinv_r; auto; ring. Qed.

Lemma exp_entry g k : (S k <= Nd)%nat ->
  INR (S k) * get (ad_exp Nd g) (S k) = conv (D (get g)) (get (ad_exp Nd g)) k.
Proof.
  intros H. unfold ad_exp at 1. unfold get at 1. rewrite fill_nth by lia. cbv beta. rewrite fill_length.
  rewrite nofnat_INR. unfold add_up. rn. rewrite for_up_sum, Rplus_0_l, scale_div.
  apply rsum_ext. intros i Hi. unfold D. rewrite nofnat_INR. cbn [Nat.add Nat.sub]. f_equal. fills.
Qed.

Lemma log_entry0 g : get (ad_log Nd g) 0 = ln (get g 0).
Proof. unfold ad_log. entry lia. reflexivity. Qed.
Lemma log_entry g k : (S k <= Nd)%nat ->
  INR (S k) * get (ad_log Nd g) (S k) =
  (D (get g) k - rsum k (fun i => INR (S i) * get (ad_log Nd g) (S i) * get g (k - i)%nat)) / get g 0.
Proof.
  intros H. unfold ad_log at 1. unfold get at 1. rewrite fill_nth by lia. cbv beta. rewrite fill_length.
  rewrite nofnat_INR. unfold add_up. rn. rewrite for_up_sum, Rplus_0_l.
  replace (S k - 1)%nat with k by lia.
  assert (N : INR (S k) <> 0) by (apply not_0_INR; lia).
  unfold D. match goal with |- INR (S k) * ((_ - rsum k ?f / _) / _) = (_ - rsum k ?h) / _ => replace (rsum k f) with (rsum k h) end.
  - unfold Rdiv. rewrite <- Rmult_assoc. f_equal. rewrite Rmult_minus_distr_l. f_equal. field. auto.
  - apply rsum_ext. intros i Hi. rewrite nofnat_INR. cbn [Nat.add Nat.sub]. f_equal. f_equal. symmetry. fills.
Qed.

(** sine and cosine *)
Lemma map_fill_nth (step : list (R * R) -> R * R) (f : R * R -> R) i n : (i < n)%nat ->
  nth i (map f (fill step n)) 0 = f (step (fill step i)).
Proof.
  intros H. rewrite (nth_indep _ 0 (f (0, 0))) by (rewrite map_length, fill_length; auto).
  rewrite map_nth, fill_nth by auto. reflexivity.
Qed.
Notation sn g := (get (map fst (ad_sincos Nd g))).
Notation cs g := (get (map snd (ad_sincos Nd g))).
Lemma sin_entry0 g : sn g 0%nat = sin (get g 0) /\ cs g 0%nat = cos (get g 0).
Proof. unfold ad_sincos, get. rewrite !map_fill_nth by lia. split; reflexivity. Qed.
Lemma sin_entry g k : (S k <= Nd)%nat ->
  INR (S k) * sn g (S k) = conv (D (get g)) (cs g) k /\
  INR (S k) * cs g (S k) = - conv (D (get g)) (sn g) k.
Proof.
  intros H. assert (N : INR (S k) <> 0) by (apply not_0_INR; lia).
  split; unfold ad_sincos at 1; unfold get at 1; rewrite map_fill_nth by lia; cbv beta; rewrite !fill_length;
    cbn [fst snd]; rewrite !nofnat_INR; unfold add_up; rn; rewrite !for_up_sum, !Rplus_0_l, ?scale_div.
  - apply rsum_ext. intros i Hi. unfold D. rewrite nofnat_INR. cbn [Nat.add Nat.sub]. f_equal.
    unfold ad_sincos, get. rewrite !map_fill_nth by lia. reflexivity.
  - match goal with |- _ * (?x / _) = - ?y => replace y with x; [field; auto|] end.
    apply rsum_ext. intros i Hi. unfold D. rewrite nofnat_INR. cbn [Nat.add Nat.sub]. f_equal.
    unfold ad_sincos, get. rewrite !map_fill_nth by lia. reflexivity.
Qed.

(** powers *)
Lemma powc_entry0 g a : get (ad_pow_const Nd g a) 0 = epow (get g 0) a.
Proof. unfold ad_pow_const. entry lia. reflexivity. Qed.
Lemma powc_entry g a k : (S k <= Nd)%nat ->
  INR (S k) * get (ad_pow_const Nd g a) (S k) =
  (a * conv (D (get g)) (get (ad_pow_const Nd g a)) k
   - rsum k (fun i => INR (S i) * get (ad_pow_const Nd g a) (S i) * get g (k - i)%nat)) / get g 0.
Proof.
  intros H. unfold ad_pow_const at 1. unfold get at 1. rewrite fill_nth by lia. cbv beta. rewrite fill_length.
  rewrite nofnat_INR. unfold add_up. rn. rewrite for_up_sum, Rplus_0_l.
  assert (N : INR (S k) <> 0) by (apply not_0_INR; lia).
  apply div_scale. rewrite <- rsum_scal.
  set (h := get (ad_pow_const Nd g a)).
  transitivity (a * conv (D (get g)) h k - rsum (S k) (fun i => INR (k - i) * get g (S i) * h (k - i)%nat)).
  - unfold conv. rewrite <- rsum_scal.
    replace (rsum (S k) (fun i => a * (D (get g) i * h (k - i)%nat)) - rsum (S k) (fun i => INR (k - i) * get g (S i) * h (k - i)%nat))
      with (rsum (S k) (fun i => a * (D (get g) i * h (k - i)%nat)) + (-1) * rsum (S k) (fun i => INR (k - i) * get g (S i) * h (k - i)%nat)) by ring.
    rewrite <- rsum_scal, <- rsum_plus. apply rsum_ext. intros i Hi. rewrite nofnat_INR. cbn [Nat.add].
    replace (S k - S i)%nat with (k - i)%nat by lia.
    match goal with |- context [get (fill ?st ?n) ?j] => replace (get (fill st n) j) with (h (k - i)%nat) by (unfold h, ad_pow_const; symmetry; unfold get; apply fget; lia) end.
    unfold D. rewrite minus_INR by lia. rewrite !S_INR. rewrite S_INR in N. field. auto.
  - f_equal. change (rsum (S k) ?f) with (rsum k f + f k). cbv beta. rewrite Nat.sub_diag. change (INR 0) with 0.
    rewrite !Rmult_0_l, Rplus_0_r. rewrite rsum_rev. apply rsum_ext. intros i Hi.
    replace (k - (k - 1 - i))%nat with (S i) by lia. replace (S (k - 1 - i)) with (k - i)%nat by lia. ring.
Qed.

Lemma pow_entry0 f g l : get (ad_pow Nd f g l) 0 = epow (get f 0) (get g 0).
Proof. unfold ad_pow. entry lia. reflexivity. Qed.
Lemma for_up_ext {S} (b1 b2 : nat -> S -> S) cnt : forall lo s, (forall i s, (lo <= i < lo + cnt)%nat -> b1 i s = b2 i s) ->
  for_up lo cnt b1 s = for_up lo cnt b2 s.
Proof. induction cnt; intros lo s H; simpl; auto. rewrite H by lia. apply IHcnt. intros; apply H; lia. Qed.
Lemma pow_entry f g l k : (S k <= Nd)%nat ->
  let h := get (ad_pow Nd f g l) in
  INR (S k) * h (S k) =
  (conv (D (get f)) (conv h (get g)) k + conv (D (get g)) (conv h (conv (get f) (get l))) k
   - rsum k (fun i => INR (S i) * h (S i) * get f (k - i)%nat)) / get f 0.
Proof.
  intros H h. unfold h at 1. unfold ad_pow at 1. unfold get at 1. rewrite fill_nth by lia. cbv beta. rewrite fill_length.
  cbv zeta. rewrite nofnat_INR. unfold sub_up, add_up. rn.
  assert (N : INR (S k) <> 0) by (apply not_0_INR; lia).
  match goal with |- context [fill ?st (S k)] => set (t := fill st (S k)) end.
  assert (T : forall i, (i <= k)%nat -> get t i = h i).
  { intros i Hi. unfold t, h, ad_pow. unfold get. apply fget; lia. }
  clearbody t.
  rewrite for_up_diff.
  assert (E1 : forall j s, (1 <= j < 1 + S k)%nat ->
     for_up 0 (S (S k - j)) (fun i s => s + nofnat j * get t i * (get f j * get g (S k - i - j) +
        get g j * for_up 0 (S (S k - i - j)) (fun k0 s0 => s0 + get f k0 * get l (S k - i - j - k0)) 0)) s =
     s + (INR j * get f j * conv h (get g) (S k - j) + INR j * get g j * conv h (conv (get f) (get l)) (S k - j))).
  { intros j s Hj. rewrite for_up_sum. f_equal. unfold conv at 1 2. rewrite <- !rsum_scal, <- rsum_plus.
    apply rsum_ext. intros i Hi. cbn [Nat.add]. rewrite T by lia. rewrite nofnat_INR, for_up_sum, Rplus_0_l.
    unfold conv. replace (S k - i - j)%nat with (S k - j - i)%nat by lia. cbn [Nat.add]. ring. }
  rewrite (for_up_ext _ _ (S k) 1 0 E1). rewrite for_up_sum, Rplus_0_l.
  replace (S k - 1)%nat with k by lia.
  assert (X : rsum (S k) (fun j => INR (1 + j) * get f (1 + j) * conv h (get g) (S k - (1 + j)) +
                INR (1 + j) * get g (1 + j) * conv h (conv (get f) (get l)) (S k - (1 + j))) =
              conv (D (get f)) (conv h (get g)) k + conv (D (get g)) (conv h (conv (get f) (get l))) k).
  { change (conv (D (get f)) (conv h (get g)) k) with (rsum (S k) (fun i => D (get f) i * conv h (get g) (k - i))).
    change (conv (D (get g)) (conv h (conv (get f) (get l))) k) with
      (rsum (S k) (fun i => D (get g) i * conv h (conv (get f) (get l)) (k - i))). rewrite <- rsum_plus. apply rsum_ext. intros i Hi. reflexivity. }
  rewrite X.
  match goal with |- _ * ((_ - rsum k ?a) / _) = (_ - rsum k ?b) / _ => replace (rsum k a) with (rsum k b) end.
  - now apply div_cancel.
  - apply rsum_ext. intros i Hi. rewrite nofnat_INR. cbn [Nat.add]. rewrite T by lia.
    replace (S k - S i)%nat with (k - i)%nat by lia. ring.
Qed.
End Nodes.

(** ** Each overload preserves towers *)
Definition vflat (n : nat) (G : R -> list R) (p : R) : Prop := flat n (fun k q => get (G q) k) p.

Section Flat.
Variable Nd : nat.

Lemma const_flat c p : vflat Nd (fun _ => ad_const Nd c) p.
Proof.
  unfold vflat, flat. intros k Hk.
  replace (INR (S k) * get (ad_const Nd c) (S k)) with 0 by (rewrite const_entry by lia; ring).
  apply derivable_pt_lim_const.
Qed.
Lemma var_flat nan x p : vflat Nd (fun q => ad_var nan Nd x x q) p.
Proof.
  unfold vflat, flat. intros k Hk. rewrite (var_entry Nd nan x p (S k)) by lia.
  apply (dpl_ext (fun q => match k with O => q | 1%nat => 1 | _ => 0 end)).
  { intros. rewrite var_entry by lia. auto. }
  destruct k as [|[|k]].
  - change (INR 1) with 1. rewrite Rmult_1_l. apply derivable_pt_lim_id.
  - rewrite Rmult_0_r. apply derivable_pt_lim_const.
  - rewrite Rmult_0_r. apply derivable_pt_lim_const.
Qed.
Lemma add_flat F G p : vflat Nd F p -> vflat Nd G p -> vflat Nd (fun q => ad_add Nd (F q) (G q)) p.
Proof. intros HF HG. eapply flat_plus; [apply HF|apply HG|]. intros. cbv beta. now apply add_entry. Qed.
Lemma sub_flat F G p : vflat Nd F p -> vflat Nd G p -> vflat Nd (fun q => ad_sub Nd (F q) (G q)) p.
Proof.
  intros HF HG. eapply (flat_plus Nd (fun k q => get (F q) k) (fun k q => -1 * get (G q) k)); [apply HF| |].
  - eapply flat_scal; [apply HG|]. reflexivity.
  - intros. cbv beta. rewrite sub_entry by auto. lra.
Qed.
Lemma mul_flat F G p : vflat Nd F p -> vflat Nd G p -> vflat Nd (fun q => ad_mul Nd (F q) (G q)) p.
Proof.
  intros HF HG. eapply flat_conv; [apply HF|apply HG|]. intros. cbv beta. rewrite mul_entry by auto. reflexivity.
Qed.
Lemma div_flat F G p : vflat Nd F p -> vflat Nd G p -> get (G p) 0 <> 0 ->
  vflat Nd (fun q => ad_div Nd (F q) (G q)) p.
Proof.
  intros HF HG NZ. eapply flat_div; [apply HF|apply HG|exact NZ|]. intros. cbv beta. now apply div_entry.
Qed.

Lemma first_deriv G p : (0 < Nd)%nat -> vflat Nd G p -> derivable_pt_lim (fun q => get (G q) 0) p (get (G p) 1).
Proof. intros H F. specialize (F O H). cbv beta in F. change (INR 1) with 1 in F. now rewrite Rmult_1_l in F. Qed.

Lemma exp_flat G p : vflat Nd G p -> vflat Nd (fun q => ad_exp Nd (G q)) p.
Proof.
  intros HG. unfold vflat. set (H := fun k q => get (ad_exp Nd (G q)) k).
  assert (X : forall m, (m <= Nd)%nat -> flat m H p).
  { induction m as [|m IH]; intros Hm; [intros k Hk; lia|]. apply flat_int.
    - unfold H. pose proof (exp_entry Nd (G p) 0 ltac:(lia)) as E. change (INR 1) with 1 in E. rewrite Rmult_1_l in E.
      rewrite E. unfold conv, D. simpl rsum. change (INR 1) with 1. rewrite exp_entry0.
      apply (dpl_ext (comp exp (fun q => get (G q) 0))).
      { intros q. unfold comp. now rewrite exp_entry0. }
      replace (0 + 1 * get (G p) 1 * exp (get (G p) 0)) with (exp (get (G p) 0) * get (G p) 1) by ring.
      apply derivable_pt_lim_comp; [apply first_deriv; auto; lia|apply derivable_pt_lim_exp].
    - apply (flat_conv m (fun k q => INR (S k) * get (G q) (S k)) H).
      + apply (flat_D m (fun k q => get (G q) k)); [|reflexivity]. eapply flat_le; [|apply HG]. lia.
      + apply IH. lia.
      + intros k q Hk. unfold H. destruct (Nat.eq_dec k m).
        * subst. rewrite exp_entry by lia. reflexivity.
        * rewrite exp_entry by lia. reflexivity. }
  apply X. lia.
Qed.

Lemma log_flat G p : vflat Nd G p -> 0 < get (G p) 0 -> vflat Nd (fun q => ad_log Nd (G q)) p.
Proof.
  intros HG Pos. destruct Nd as [|n] eqn:En; [intros k Hk; lia|]. rewrite <- En in *.
  unfold vflat. rewrite En at 1. apply flat_int.
  - pose proof (log_entry Nd (G p) 0 ltac:(lia)) as E. change (INR 1) with 1 in E. rewrite Rmult_1_l in E.
    rewrite E. unfold D. simpl rsum. change (INR 1) with 1.
    apply (dpl_ext (comp ln (fun q => get (G q) 0))).
    { intros q. unfold comp. now rewrite log_entry0. }
    replace ((1 * get (G p) 1 - 0) / get (G p) 0) with (/ get (G p) 0 * get (G p) 1) by (field; lra).
    apply derivable_pt_lim_comp; [apply first_deriv; auto; lia|now apply derivable_pt_lim_ln].
  - apply (flat_div n (fun k q => INR (S k) * get (G q) (S k)) (fun k q => get (G q) k)).
    + apply (flat_D n (fun k q => get (G q) k)); [|reflexivity]. eapply flat_le; [|apply HG]. lia.
    + eapply flat_le; [|apply HG]. lia.
    + lra.
    + intros k q Hk. rewrite log_entry by lia. reflexivity.
Qed.

Lemma sincos_flat G p : vflat Nd G p ->
  vflat Nd (fun q => map fst (ad_sincos Nd (G q))) p /\ vflat Nd (fun q => map snd (ad_sincos Nd (G q))) p.
Proof.
  intros HG. unfold vflat.
  set (HS := fun k q => get (map fst (ad_sincos Nd (G q))) k). set (HC := fun k q => get (map snd (ad_sincos Nd (G q))) k).
  assert (X : forall m, (m <= Nd)%nat -> flat m HS p /\ flat m HC p).
  { induction m as [|m IH]; intros Hm; [split; intros k Hk; lia|]. destruct (IH ltac:(lia)) as [I1 I2].
    assert (FD : flat m (fun k q => INR (S k) * get (G q) (S k)) p).
    { apply (flat_D m (fun k q => get (G q) k)); [|reflexivity]. eapply flat_le; [|apply HG]. lia. }
    assert (G0 : derivable_pt_lim (fun q => get (G q) 0) p (get (G p) 1)) by (apply first_deriv; auto; lia).
    pose proof (sin_entry Nd (G p) 0 ltac:(lia)) as [E1 E2]. change (INR 1) with 1 in E1, E2. rewrite Rmult_1_l in E1, E2.
    unfold conv, D in E1, E2. simpl rsum in E1, E2. change (INR 1) with 1 in E1, E2.
    destruct (sin_entry0 Nd (G p)) as [Z1 Z2]. rewrite Z2 in E1. rewrite Z1 in E2.
    split; apply flat_int.
    - unfold HS. rewrite E1. apply (dpl_ext (comp sin (fun q => get (G q) 0))).
      { intros q. unfold comp. now rewrite (proj1 (sin_entry0 Nd (G q))). }
      replace (0 + 1 * get (G p) 1 * cos (get (G p) 0)) with (cos (get (G p) 0) * get (G p) 1) by ring.
      apply derivable_pt_lim_comp; [exact G0|apply derivable_pt_lim_sin].
    - apply (flat_conv m (fun k q => INR (S k) * get (G q) (S k)) HC); auto.
      intros k q Hk. unfold HS. rewrite (proj1 (sin_entry Nd (G q) k ltac:(lia))). reflexivity.
    - unfold HC. rewrite E2. apply (dpl_ext (comp cos (fun q => get (G q) 0))).
      { intros q. unfold comp. now rewrite (proj2 (sin_entry0 Nd (G q))). }
      replace (- (0 + 1 * get (G p) 1 * sin (get (G p) 0))) with (- sin (get (G p) 0) * get (G p) 1) by ring.
      apply derivable_pt_lim_comp; [exact G0|apply derivable_pt_lim_cos].
    - apply (flat_scal m (-1) (fun k q => conv (D (get (G q))) (fun i => HS i q) k)).
      + apply (flat_conv m (fun k q => INR (S k) * get (G q) (S k)) HS); auto.
      + intros k q Hk. unfold HC. rewrite (proj2 (sin_entry Nd (G q) k ltac:(lia))). match goal with |- _ = _ * ?x => replace (-1 * x) with (- x) by ring end. reflexivity. }
  split; apply X; lia.
Qed.

Lemma dpl_local f g p d dl : 0 < dl -> (forall q, Rabs (q - p) < dl -> f q = g q) -> derivable_pt_lim f p d -> derivable_pt_lim g p d.
Proof.
  intros Hd E H eps He. destruct (H eps He) as [d1 H1].
  assert (M : 0 < Rmin dl d1) by (apply Rmin_pos; auto; apply cond_pos).
  exists (mkposreal _ M). simpl. intros h Hh Hb.
  rewrite <- !E.
  - apply H1; auto. eapply Rlt_le_trans; [apply Hb|apply Rmin_r].
  - rewrite Rminus_diag_eq, Rabs_R0; auto.
  - replace (p + h - p) with h by ring. eapply Rlt_le_trans; [apply Hb|apply Rmin_l].
Qed.

Lemma pow_step G a p H0 : derivable_pt_lim (fun q => get (ad_pow_const Nd (G q) a) 0) p H0 -> (0 < Nd)%nat ->
  get (G p) 0 <> 0 ->
  H0 = a * get (G p) 1 * get (ad_pow_const Nd (G p) a) 0 / get (G p) 0 ->
  derivable_pt_lim (fun q => get (ad_pow_const Nd (G q) a) 0) p (get (ad_pow_const Nd (G p) a) 1).
Proof.
  intros HD HN NZ E. pose proof (powc_entry Nd (G p) a 0 ltac:(lia)) as E1. change (INR 1) with 1 in E1. rewrite Rmult_1_l in E1.
  unfold conv, D in E1. simpl rsum in E1. change (INR 1) with 1 in E1.
  rewrite E1. replace ((a * (0 + 1 * get (G p) 1 * get (ad_pow_const Nd (G p) a) 0) - 0) / get (G p) 0) with H0; auto.
  rewrite E. field. auto.
Qed.

Lemma powc_flat0 G a p : vflat Nd G p -> get (G p) 0 <> 0 ->
  ((0 < Nd)%nat -> derivable_pt_lim (fun q => get (ad_pow_const Nd (G q) a) 0) p (get (ad_pow_const Nd (G p) a) 1)) ->
  vflat Nd (fun q => ad_pow_const Nd (G q) a) p.
Proof.
  intros HG NZ B. unfold vflat. set (H := fun k q => get (ad_pow_const Nd (G q) a) k).
  assert (X : forall m, (m <= Nd)%nat -> flat m H p).
  { induction m as [|m IH]; intros Hm; [intros k Hk; lia|]. apply flat_int; [apply B; lia|].
    apply (flat_div m (fun k q => a * conv (D (get (G q))) (fun i => H i q) k) (fun k q => get (G q) k)).
    - apply (flat_scal m a (fun k q => conv (D (get (G q))) (fun i => H i q) k)); [|reflexivity].
      apply (flat_conv m (fun k q => INR (S k) * get (G q) (S k)) H); [|apply IH; lia|reflexivity].
      apply (flat_D m (fun k q => get (G q) k)); [|reflexivity]. eapply flat_le; [|apply HG]. lia.
    - eapply flat_le; [|apply HG]. lia.
    - exact NZ.
    - intros k q Hk. unfold H. rewrite powc_entry by lia. reflexivity. }
  apply X. lia.
Qed.

Lemma epow_pos x y : 0 < x -> epow x y = Rpower x y.
Proof. intros H. cbn [epow R_enum]. unfold npow. destruct (Rlt_dec 0 x); [auto|lra]. Qed.
Lemma epow_int x z : x <> 0 -> epow x (IZR z) = powerRZ x z.
Proof. intros H. cbn [epow R_enum]. rewrite npow_int by auto. reflexivity. Qed.

Lemma pos_near F p d : derivable_pt_lim F p d -> 0 < F p -> exists dl, 0 < dl /\ forall q, Rabs (q - p) < dl -> 0 < F q.
Proof.
  intros H P. destruct (dpl_cont F p d H (F p) P) as (dl & Hd & Hc). exists dl. split; auto. intros q Hq.
  specialize (Hc q Hq). apply Rabs_def2 in Hc. lra.
Qed.
Lemma nz_near F p d : derivable_pt_lim F p d -> F p <> 0 -> exists dl, 0 < dl /\ forall q, Rabs (q - p) < dl -> F q <> 0.
Proof.
  intros H P. destruct (dpl_cont F p d H (Rabs (F p)) (Rabs_pos_lt _ P)) as (dl & Hd & Hc). exists dl. split; auto. intros q Hq.
  specialize (Hc q Hq). intros E. rewrite E in Hc. rewrite Rminus_0_l, Rabs_Ropp in Hc. lra.
Qed.

Lemma powc_flat_pos G a p : vflat Nd G p -> 0 < get (G p) 0 -> vflat Nd (fun q => ad_pow_const Nd (G q) a) p.
Proof.
  intros HG Pos. apply powc_flat0; auto; [lra|]. intros HN.
  pose proof (first_deriv G p HN HG) as G0. destruct (pos_near _ _ _ G0 Pos) as (dl & Hd & Hn).
  eapply pow_step; [|exact HN|lra|reflexivity].
  apply (dpl_local (fun q => Rpower (get (G q) 0) a) _ _ _ dl Hd).
  { intros q Hq. rewrite powc_entry0, epow_pos; auto. }
  rewrite powc_entry0, epow_pos by auto.
  replace (a * get (G p) 1 * Rpower (get (G p) 0) a / get (G p) 0) with
     (a * Rpower (get (G p) 0) (a - 1) * get (G p) 1).
  - apply (derivable_pt_lim_comp (fun q => get (G q) 0) (fun u => Rpower u a)); [exact G0|].
    apply derivable_pt_lim_power; auto.
  - rewrite Rpower_m1 by auto. field. lra.
Qed.

Lemma powc_flat_int G z p : vflat Nd G p -> get (G p) 0 <> 0 -> vflat Nd (fun q => ad_pow_const Nd (G q) (IZR z)) p.
Proof.
  intros HG NZ. apply powc_flat0; auto. intros HN.
  pose proof (first_deriv G p HN HG) as G0. destruct (nz_near _ _ _ G0 NZ) as (dl & Hd & Hn).
  eapply pow_step; [|exact HN|exact NZ|].
  - apply (dpl_local (fun q => powerRZ (get (G q) 0) z) _ _ _ dl Hd).
    { intros q Hq. rewrite powc_entry0, epow_int; auto. }
    apply (derivable_pt_lim_comp (fun q => get (G q) 0) (fun u => powerRZ u z)); [exact G0|].
    apply dpl_powerRZ. auto.
  - rewrite powc_entry0, epow_int by auto. unfold dpow. destruct (Z.eq_dec z 0) as [->|].
    + simpl. field. auto.
    + replace z with (z - 1 + 1)%Z at 4 by lia. rewrite powerRZ_add by auto. rewrite powerRZ_1. field. auto.
Qed.

Lemma pow_flat F G p : vflat Nd F p -> vflat Nd G p -> 0 < get (F p) 0 ->
  vflat Nd (fun q => ad_pow Nd (F q) (G q) (ad_log Nd (F q))) p.
Proof.
  intros HF HG Pos. pose proof (log_flat F p HF Pos) as HL.
  unfold vflat. set (H := fun k q => get (ad_pow Nd (F q) (G q) (ad_log Nd (F q))) k).
  assert (FL : flat Nd (fun k q => conv (get (F q)) (get (ad_log Nd (F q))) k) p).
  { apply (flat_conv Nd (fun k q => get (F q) k) (fun k q => get (ad_log Nd (F q)) k)); auto. }
  assert (X : forall m, (m <= Nd)%nat -> flat m H p).
  { induction m as [|m IH]; intros Hm; [intros k Hk; lia|]. apply flat_int.
    - unfold H. pose proof (first_deriv F p ltac:(lia) HF) as F0. pose proof (first_deriv G p ltac:(lia) HG) as G0.
      destruct (pos_near _ _ _ F0 Pos) as (dl & Hd & Hn).
      apply (dpl_local (fun q => Rpower (get (F q) 0) (get (G q) 0)) _ _ _ dl Hd).
      { intros q Hq. rewrite pow_entry0, epow_pos; auto. }
      pose proof (pow_entry Nd (F p) (G p) (ad_log Nd (F p)) 0 ltac:(lia)) as E. cbv zeta in E.
      change (INR 1) with 1 in E. rewrite Rmult_1_l in E. rewrite E. unfold conv, D. simpl rsum. change (INR 1) with 1.
      rewrite pow_entry0, log_entry0, epow_pos by auto.
      assert (Hln : derivable_pt_lim (fun t => ln (get (F t) 0)) p (/ get (F p) 0 * get (F p) 1)).
      { apply (derivable_pt_lim_comp (fun q => get (F q) 0) ln); auto. apply derivable_pt_lim_ln; auto. }
      assert (Hm1 := derivable_pt_lim_mult (fun q => get (G q) 0) (fun t => ln (get (F t) 0)) p _ _ G0 Hln).
      assert (He := derivable_pt_lim_comp _ exp p _ _ Hm1 (derivable_pt_lim_exp _)).
      unfold comp, mult_fct in He. unfold Rpower.
      match type of He with derivable_pt_lim _ _ ?d => match goal with |- derivable_pt_lim _ _ ?d' => replace d' with d; [exact He|] end end.
      field. lra.
    - assert (FDF : flat m (fun k q => INR (S k) * get (F q) (S k)) p).
      { apply (flat_D m (fun k q => get (F q) k)); [|reflexivity]. eapply flat_le; [|apply HF]. lia. }
      assert (FDG : flat m (fun k q => INR (S k) * get (G q) (S k)) p).
      { apply (flat_D m (fun k q => get (G q) k)); [|reflexivity]. eapply flat_le; [|apply HG]. lia. }
      assert (FH : flat m H p) by (apply IH; lia).
      apply (flat_div m (fun k q => conv (D (get (F q))) (conv (fun i => H i q) (get (G q))) k +
               conv (D (get (G q))) (conv (fun i => H i q) (conv (get (F q)) (get (ad_log Nd (F q))))) k) (fun k q => get (F q) k)).
      + eapply (flat_plus m); [| |reflexivity].
        * apply (flat_conv m (fun k q => INR (S k) * get (F q) (S k)) (fun k q => conv (fun i => H i q) (get (G q)) k)); auto.
          apply (flat_conv m H (fun k q => get (G q) k)); auto. eapply flat_le; [|apply HG]. lia.
        * apply (flat_conv m (fun k q => INR (S k) * get (G q) (S k))
             (fun k q => conv (fun i => H i q) (conv (get (F q)) (get (ad_log Nd (F q)))) k)); auto.
          apply (flat_conv m H (fun k q => conv (get (F q)) (get (ad_log Nd (F q))) k)); auto. eapply flat_le; [|apply FL]. lia.
      + eapply flat_le; [|apply HF]. lia.
      + lra.
      + intros k q Hk. unfold H.
        rewrite (pow_entry Nd (F q) (G q) (ad_log Nd (F q)) k) by lia. reflexivity. }
  apply X. lia.
Qed.
End Flat.
