(** Proofs about the polynomial algebra model (PolyModel.v) over the reals. *)
From Verif Require Export PolyModel PolyBase.
Open Scope R_scope.

Ltac numR :=
  change (@nadd R R_num) with Rplus in *; change (@nsub R R_num) with Rminus in *;
  change (@nmul R R_num) with Rmult in *; change (@ndiv R R_num) with Rdiv in *;
  change (@nopp R R_num) with Ropp in *; change (@n0 R R_num) with 0 in *;
  change (@n1 R R_num) with 1 in *; change (@neqb R R_num) with Reqb in *;
  change (@nltb R R_num) with Rltb in *.

Lemma order_length (f : list R) : f <> [] -> length f = S (porder f).
Proof. destruct f; [congruence|]. reflexivity. Qed.

(** ** Horner evaluation *)
Lemma horner_loop f x : forall n s,
  for_down n n (fun i s => s * x + get f i) s =
  s * x ^ n + bsum n (fun i => get f (S i) * x ^ i).
Proof.
  induction n as [|n IH]; intros s.
  - simpl; ring.
  - cbn [for_down Nat.pred]. rewrite IH. cbn [bsum pow]. ring.
Qed.

Lemma poly_eval_correct (f : list R) x : f <> [] -> poly_eval f x = pval f x.
Proof.
  intros Hf. unfold poly_eval. numR.
  rewrite (pval_bsum_ge (S (porder f))) by (rewrite <- order_length by exact Hf; lia).
  destruct (Nat.eqb_spec (porder f) 0) as [E|E].
  - rewrite E. simpl. ring.
  - rewrite horner_loop. rewrite bsum_shift. simpl (x ^ 0).
    rewrite (bsum_ext _ (fun i => get f (S i) * x ^ S i) (fun i => x * (get f (S i) * x ^ i)))
      by (intros; simpl; ring).
    rewrite bsum_scal. ring.
Qed.

Lemma poly_sub_worker_correct (f : list R) x : forall s, (s <= porder f)%nat -> f <> [] ->
  poly_sub_worker s f x = bsum (S s) (fun i => get f (porder f - s + i) * x ^ i).
Proof.
  induction s as [|s IH]; intros Hs Hf; cbn [poly_sub_worker].
  - simpl. rewrite Nat.sub_0_r, Nat.add_0_r. ring.
  - rewrite IH by (try lia; assumption). numR.
    rewrite (bsum_shift (S s)). simpl (x ^ 0). rewrite Nat.add_0_r, Rmult_1_r. f_equal.
    rewrite <- bsum_scal. apply bsum_ext. intros i _.
    replace (porder f - S s + S i)%nat with (porder f - s + i)%nat by lia.
    simpl. ring.
Qed.

Lemma poly_sub_symbolic_correct (f : list R) x : f <> [] -> poly_sub_symbolic f x = pval f x.
Proof.
  intros Hf. unfold poly_sub_symbolic. rewrite poly_sub_worker_correct by (auto; lia).
  rewrite (pval_bsum_ge (S (porder f))) by (rewrite <- order_length by exact Hf; lia).
  apply bsum_ext. intros i _. f_equal. f_equal. lia.
Qed.

(** ** Shifts *)
(** coefficient-level step shared by all triangular loops *)
Definition shift_step (t : R) (m : nat) (c : R) (r : list R) : list R :=
  let r := for_down m m (fun j r => upd r j (get r j * t + get r (j - 1))) r in
  upd r 0 (get r 0 * t + c).

Lemma shift_step_spec t m c r : (m < length r)%nat ->
  length (shift_step t m c r) = length r /\
  (forall j, get (shift_step t m c r) j =
     if (j =? 0)%nat then get r 0 * t + c
     else if (j <=? m)%nat then get r j * t + get r (j - 1) else get r j).
Proof.
  intros Hm. unfold shift_step.
  destruct (inner_down_spec (fun _ a b => a * t + b) m r Hm) as [Hl Hg].
  cbn zeta in *. set (r1 := for_down _ _ _ _) in *.
  split; [rewrite upd_length; exact Hl|].
  intros [|j]; cbn [Nat.eqb].
  - rewrite get_upd_eq by lia. rewrite Hg. reflexivity.
  - rewrite get_upd_neq by lia. rewrite Hg.
    destruct (Nat.leb_spec 1 (S j)); [|lia]. reflexivity.
Qed.

Lemma shift_step_val t m c r : (m < length r)%nat ->
  (forall j, (m <= j)%nat -> get r j = 0) ->
  (forall j, (S m <= j)%nat -> get (shift_step t m c r) j = 0) /\
  forall x, pval (shift_step t m c r) x = (x + t) * pval r x + c.
Proof.
  intros Hm Hz. destruct (shift_step_spec t m c r Hm) as [Hl Hg].
  assert (Hz' : forall j, (S m <= j)%nat -> get (shift_step t m c r) j = 0).
  { intros j Hj. rewrite Hg. destruct (Nat.eqb_spec j 0); [lia|].
    destruct (Nat.leb_spec j m); [lia|]. apply Hz; lia. }
  split; [exact Hz'|].
  intros x. rewrite (pval_bsum_n (S m) _ x Hz').
  rewrite bsum_shift. rewrite Hg. cbn [Nat.eqb].
  rewrite (bsum_ext m _ (fun i => t * (get r (S i) * x ^ S i) + x * (get r i * x ^ i))).
  2:{ intros i Hi. rewrite Hg. destruct (Nat.eqb_spec (S i) 0); [lia|].
      destruct (Nat.leb_spec (S i) m); [|lia].
      replace (S i - 1)%nat with i by lia. simpl. ring. }
  rewrite bsum_plus, !bsum_scal.
  rewrite (pval_bsum_n m r x Hz).
  assert (E : bsum m (fun i => get r (S i) * x ^ S i) =
              bsum m (fun i => get r i * x ^ i) - get r 0).
  { assert (E1 : bsum (S m) (fun i => get r i * x ^ i) = bsum m (fun i => get r i * x ^ i)).
    { cbn [bsum]. rewrite (Hz m) by lia. ring. }
    rewrite <- E1. rewrite bsum_shift. simpl (x ^ 0). ring. }
  rewrite E. simpl (x ^ 0). ring.
Qed.

(** A generic triangular loop fed with coefficients c(1), c(2), ..., c(n). *)
Lemma triangular_loop (t : R) (cf : nat -> R) (N : nat) (r0 : list R) :
  length r0 = S N -> (forall j, (1 <= j)%nat -> get r0 j = 0) ->
  let r := for_down N N (fun i r => shift_step t (N - (i - 1)) (cf i) r) r0 in
  length r = S N /\
  forall x, pval r x = (x + t) ^ N * pval r0 x + bsum N (fun k => cf (S k) * (x + t) ^ k).
Proof.
  intros Hl0 Hz0. cbn zeta.
  set (P := fun k r => length r = S N /\ (forall j, (S k <= j)%nat -> get r j = 0) /\
     (k <= N)%nat /\
     forall x, pval r x = (x + t) ^ k * pval r0 x + bsum k (fun l => cf (N - k + S l)%nat * (x + t) ^ l)).
  assert (HP : P (0 + N)%nat (for_down N N (fun i r => shift_step t (N - (i - 1)) (cf i) r) r0)).
  { apply for_down_inv.
    - unfold P. repeat split; auto; try lia. intros x. simpl. ring.
    - intros j r Hj (Hl & Hz & Hk & Hv). rewrite Nat.add_0_l in *.
      assert (Em : (N - (N - j - 1))%nat = S j) by lia. rewrite Em.
      destruct (shift_step_val t (S j) (cf (N - j)%nat) r) as [Hz' Hv']; [lia|exact Hz|].
      destruct (shift_step_spec t (S j) (cf (N - j)%nat) r) as [Hl' _]; [lia|].
      unfold P. repeat split; try lia; auto; try congruence.
      intros x. rewrite Hv', Hv. rewrite bsum_shift. simpl (_ ^ 0).
      replace (N - S j + 1)%nat with (N - j)%nat by lia.
      rewrite (bsum_ext j (fun i => cf (N - S j + S (S i))%nat * (x + t) ^ S i)
                 (fun i => (x + t) * (cf (N - j + S i)%nat * (x + t) ^ i))).
      2:{ intros i _. replace (N - S j + S (S i))%nat with (N - j + S i)%nat by lia. simpl. ring. }
      rewrite bsum_scal. simpl. ring. }
  destruct HP as (Hl & _ & _ & Hv). rewrite Nat.add_0_l in *.
  split; [exact Hl|]. intros x. rewrite Hv. f_equal.
  apply bsum_ext. intros i _. rewrite Nat.sub_diag. reflexivity.
Qed.

Lemma shift_loop_correct (f : list R) t : f <> [] ->
  length (shift_loop f t) = length f /\
  forall x, pval (shift_loop f t) x = pval f (x + t).
Proof.
  intros Hf. pose proof (order_length f Hf) as Hl. unfold shift_loop. numR.
  set (N := porder f) in *.
  set (r0 := upd (poly_zero N) 0 (get f N)).
  assert (Hr0 : length r0 = S N) by (unfold r0; rewrite upd_length; unfold poly_zero; rewrite repeat_length; reflexivity).
  assert (Hz0 : forall j, (1 <= j)%nat -> get r0 j = 0).
  { intros j Hj. unfold r0. rewrite get_upd_neq by lia. exact (get_repeat _ _). }
  destruct (triangular_loop t (fun i => get f (i - 1)) N r0 Hr0 Hz0) as [HL HV].
  split; [rewrite Hl; exact HL|].
  intros x. specialize (HV x). unfold shift_step in HV. rewrite HV.
  rewrite (pval_bsum_n 1 r0) by (intros; apply Hz0; lia).
  rewrite (pval_bsum_ge (S N)) by lia. cbn [bsum].
  unfold r0 at 1. rewrite get_upd_eq by (unfold poly_zero; simpl; lia).
  rewrite (bsum_ext N (fun k => get f (S k - 1) * (x + t) ^ k) (fun i => get f i * (x + t) ^ i)).
  2:{ intros i _. simpl. rewrite Nat.sub_0_r. reflexivity. }
  simpl. ring.
Qed.

Lemma shift_function_correct (f : list R) t : f <> [] ->
  length (shift_function f t) = length f /\
  forall x, pval (shift_function f t) x = pval f (x + t).
Proof.
  intros Hf. unfold shift_function. numR.
  destruct (Reqb_spec t 0) as [->|Ht].
  - split; [reflexivity|]. intros x. rewrite Rplus_0_r. reflexivity.
  - apply shift_loop_correct; assumption.
Qed.

Lemma for_down_ext {S} (b1 b2 : nat -> S -> S) : forall cnt hi s,
  (forall i s, b1 i s = b2 i s) -> for_down hi cnt b1 s = for_down hi cnt b2 s.
Proof.
  induction cnt as [|c IH]; intros hi s E; [reflexivity|].
  cbn [for_down]. rewrite E. apply IH. exact E.
Qed.

Lemma for_up_ext {S} (b1 b2 : nat -> S -> S) : forall cnt lo s,
  (forall i s, b1 i s = b2 i s) -> for_up lo cnt b1 s = for_up lo cnt b2 s.
Proof.
  induction cnt as [|c IH]; intros lo s E; [reflexivity|].
  cbn [for_up]. rewrite E. apply IH. exact E.
Qed.

Lemma unit_step m c (r : list R) :
  (let r := for_down m m (fun j r => upd r j (get r j + get r (j - 1))) r in
   upd r 0 (get r 0 + c)) = shift_step 1 m c r.
Proof.
  unfold shift_step. cbn zeta.
  rewrite (for_down_ext (fun j r => upd r j (get r j + get r (j - 1)))
             (fun j r => upd r j (get r j * 1 + get r (j - 1)))).
  - rewrite Rmult_1_r. reflexivity.
  - intros i s. rewrite Rmult_1_r. reflexivity.
Qed.

Lemma shift_unity_eq (f : list R) : shift_unity f = shift_loop f 1.
Proof.
  unfold shift_unity, shift_loop. numR. cbn zeta.
  apply for_down_ext. intros i s. exact (unit_step _ _ s).
Qed.

Lemma shift_unity_correct (f : list R) : f <> [] ->
  length (shift_unity f) = length f /\
  forall x, pval (shift_unity f) x = pval f (x + 1).
Proof. intros Hf. rewrite shift_unity_eq. apply shift_loop_correct; assumption. Qed.

(** reversing the coefficients *)
Lemma pval_rev f x : x <> 0 -> f <> [] -> pval (rev f) x = x ^ porder f * pval f (/ x).
Proof.
  intros Hx Hf. pose proof (order_length f Hf) as Hl.
  rewrite !pval_bsum. rewrite rev_length, <- bsum_scal, bsum_rev.
  apply bsum_ext. intros i Hi.
  unfold get. rewrite rev_nth by lia.
  replace (length f - S (length f - 1 - i))%nat with i by lia.
  replace (length f - 1 - i)%nat with (porder f - i)%nat by lia.
  assert (E : x ^ porder f = x ^ (porder f - i) * x ^ i).
  { rewrite <- pow_add. f_equal. lia. }
  rewrite E. rewrite pow_inv. field. apply pow_nonzero; assumption.
Qed.

Lemma invert_taylor_shift_rev (f : list R) : f <> [] ->
  length (invert_taylor_shift f) = length f /\
  forall x, pval (invert_taylor_shift f) x = pval (rev f) (x + 1).
Proof.
  intros Hf. pose proof (order_length f Hf) as Hl. unfold invert_taylor_shift. numR.
  set (N := porder f) in *.
  set (r0 := upd (poly_zero N) 0 (get f 0)).
  assert (Hr0 : length r0 = S N) by (unfold r0; rewrite upd_length; unfold poly_zero; rewrite repeat_length; reflexivity).
  assert (Hz0 : forall j, (1 <= j)%nat -> get r0 j = 0).
  { intros j Hj. unfold r0. rewrite get_upd_neq by lia. exact (get_repeat _ _). }
  rewrite (for_down_ext _ (fun i r => shift_step 1 (N - (i - 1)) (get f (N - (i - 1))) r))
    by (intros i s; exact (unit_step _ _ s)).
  destruct (triangular_loop 1 (fun i => get f (N - (i - 1))) N r0 Hr0 Hz0) as [HL HV].
  split; [rewrite Hl; exact HL|].
  intros x. rewrite HV. rewrite (pval_bsum_n 1 r0) by (intros; apply Hz0; lia).
  rewrite (pval_bsum_ge (S N)) by (rewrite rev_length; lia). cbn [bsum].
  unfold r0 at 1. rewrite get_upd_eq by (unfold poly_zero; simpl; lia).
  rewrite (bsum_ext N (fun k => get f (N - (S k - 1)) * (x + 1) ^ k)
                      (fun i => get (rev f) i * (x + 1) ^ i)).
  2:{ intros i Hi. f_equal. unfold get. rewrite rev_nth by lia. f_equal. lia. }
  replace (get (rev f) N) with (get f 0).
  2:{ unfold get. rewrite rev_nth by lia. f_equal. lia. }
  simpl. ring.
Qed.

Lemma invert_taylor_shift_correct (f : list R) : f <> [] ->
  length (invert_taylor_shift f) = length f /\
  forall x, x <> -1 ->
    pval (invert_taylor_shift f) x = (x + 1) ^ porder f * pval f (1 / (x + 1)).
Proof.
  intros Hf. destruct (invert_taylor_shift_rev f Hf) as [Hl Hv]. split; [exact Hl|].
  intros x Hx. rewrite Hv. rewrite pval_rev by (auto; lra).
  f_equal. f_equal. field. lra.
Qed.

(** ** Reflection, scaling, negation *)
Lemma reflect_loop (f : list R) : forall n k g,
  (2 * (k + n) <= length g)%nat ->
  length (for_up k n (fun k g => upd g (2 * k + 1) (- get g (2 * k + 1))) g) = length g /\
  forall i, get (for_up k n (fun k g => upd g (2 * k + 1) (- get g (2 * k + 1))) g) i =
    if (Nat.odd i && (2 * k <=? i) && (i <? 2 * (k + n)))%nat%bool then - get g i else get g i.
Proof.
  induction n as [|n IH]; intros k g Hg.
  - cbn [for_up]. split; [reflexivity|]. intros i.
    destruct (Nat.odd i), (Nat.leb_spec (2 * k) i), (Nat.ltb_spec i (2 * (k + 0))); cbn [andb]; try reflexivity; lia.
  - cbn [for_up]. set (g1 := upd g _ _).
    assert (Hl : length g1 = length g) by apply upd_length.
    destruct (IH (S k) g1 ltac:(lia)) as [HL HG]. split; [congruence|].
    intros i. rewrite HG. unfold g1.
    destruct (Nat.eq_dec i (2 * k + 1)) as [->|Hi].
    + assert (E : Nat.odd (2 * k + 1) = true) by (rewrite Nat.odd_spec; exists k; lia).
      rewrite E.
      destruct (Nat.leb_spec (2 * S k) (2 * k + 1)), (Nat.ltb_spec (2 * k + 1) (2 * (S k + n))),
        (Nat.leb_spec (2 * k) (2 * k + 1)), (Nat.ltb_spec (2 * k + 1) (2 * (k + S n))); cbn [andb]; try lia.
      rewrite get_upd_eq by lia. reflexivity.
    + rewrite !get_upd_neq by lia.
      destruct (Nat.odd i) eqn:Eo; cbn [andb]; [|reflexivity].
      apply Nat.odd_spec in Eo. destruct Eo as [q Hq].
      destruct (Nat.leb_spec (2 * S k) i), (Nat.ltb_spec i (2 * (S k + n))),
        (Nat.leb_spec (2 * k) i), (Nat.ltb_spec i (2 * (k + S n))); cbn [andb]; try lia; reflexivity.
Qed.

Lemma pow_opp x n : (- x) ^ n = if Nat.odd n then - x ^ n else x ^ n.
Proof.
  induction n as [|n IH]; [reflexivity|].
  rewrite Nat.odd_succ, <- Nat.negb_odd. simpl. rewrite IH.
  destruct (Nat.odd n); simpl; ring.
Qed.

Lemma reflect_poly_correct (f : list R) : f <> [] ->
  length (reflect_poly f) = length f /\ forall x, pval (reflect_poly f) x = pval f (- x).
Proof.
  intros Hf. pose proof (order_length f Hf) as Hl. unfold reflect_poly. numR.
  pose proof (Nat.div_mod_eq (porder f + 1) 2) as Hdm.
  pose proof (Nat.mod_upper_bound (porder f + 1) 2 ltac:(lia)) as Hmb.
  destruct (reflect_loop f ((porder f + 1) / 2) 0 f ltac:(lia)) as [HL HG].
  split; [exact HL|].
  intros x. rewrite (pval_bsum _ x), HL, pval_bsum. apply bsum_ext. intros i Hi.
  rewrite HG, pow_opp.
  destruct (Nat.odd i) eqn:Eo; cbn [andb]; [|reflexivity].
  apply Nat.odd_spec in Eo. destruct Eo as [q Hq].
  destruct (Nat.leb_spec (2 * 0) i), (Nat.ltb_spec i (2 * (0 + (porder f + 1) / 2))); cbn [andb]; try lia.
  ring.
Qed.

Lemma scale_loop (a : R) : forall n k p g, (k + n <= length g)%nat ->
  let r := for_up k n (fun i '(factor, g) => (factor * a, upd g i (get g i * (factor * a)))) (p, g) in
  length (snd r) = length g /\
  forall i, get (snd r) i = if ((k <=? i) && (i <? k + n))%nat%bool
                            then get g i * (p * a ^ (i - k + 1)) else get g i.
Proof.
  induction n as [|n IH]; intros k p g Hg; cbn zeta.
  - cbn [for_up snd]. split; [reflexivity|]. intros i.
    destruct (Nat.leb_spec k i), (Nat.ltb_spec i (k + 0)); cbn [andb]; try reflexivity; lia.
  - cbn [for_up]. set (g1 := upd g _ _).
    assert (Hl : length g1 = length g) by apply upd_length.
    destruct (IH (S k) (p * a) g1 ltac:(lia)) as [HL HG]. cbn zeta in *. split; [congruence|].
    intros i. rewrite HG. unfold g1.
    destruct (Nat.eq_dec i k) as [->|Hi].
    + destruct (Nat.leb_spec (S k) k), (Nat.ltb_spec k (S k + n)), (Nat.leb_spec k k), (Nat.ltb_spec k (k + S n)); cbn [andb]; try lia.
      rewrite get_upd_eq by lia. rewrite Nat.sub_diag. simpl. ring.
    + rewrite !get_upd_neq by lia.
      destruct (Nat.leb_spec (S k) i), (Nat.ltb_spec i (S k + n)), (Nat.leb_spec k i), (Nat.ltb_spec i (k + S n)); cbn [andb]; try lia; try reflexivity.
      replace (i - k + 1)%nat with (S (i - S k + 1)) by lia. simpl. ring.
Qed.

Lemma scale_poly_correct (f : list R) a : f <> [] ->
  length (scale_poly f a) = length f /\ forall x, pval (scale_poly f a) x = pval f (a * x).
Proof.
  intros Hf. pose proof (order_length f Hf) as Hl. unfold scale_poly. numR. cbn zeta.
  destruct (scale_loop a (porder f) 1 1 f ltac:(lia)) as [HL HG]. cbn zeta in *.
  set (r := for_up _ _ _ _) in *.
  split; [exact HL|].
  intros x. rewrite (pval_bsum _ x), HL, pval_bsum. apply bsum_ext. intros i Hi.
  rewrite HG, Rpow_mult_distr.
  destruct (Nat.leb_spec 1 i), (Nat.ltb_spec i (1 + porder f)); cbn [andb]; try lia.
  - replace (i - 1 + 1)%nat with i by lia. ring.
  - replace i with 0%nat by lia. simpl. ring.
Qed.

Lemma poly_neg_correct (f : list R) x : pval (poly_neg f) x = - pval f x.
Proof.
  unfold poly_neg. induction f as [|c t IH]; cbn [map].
  - rewrite pval_nil; ring.
  - rewrite !pval_cons, IH. numR. ring.
Qed.

(** ** Sums, products *)
Lemma poly_addsub_spec (op : R -> R -> R) (f g : list R) : f <> [] -> g <> [] -> op 0 0 = 0 ->
  length (poly_addsub op f g) = S (Nat.max (porder f) (porder g)) /\
  forall i, get (poly_addsub op f g) i = op (get f i) (get g i).
Proof.
  intros Hf Hg Hop. pose proof (order_length f Hf) as Hlf. pose proof (order_length g Hg) as Hlg.
  unfold poly_addsub. set (N := porder f) in *. set (M := porder g) in *. set (k := Nat.min N M).
  assert (Hz : length (@poly_zero R _ (Nat.max M N)) = S (Nat.max M N)).
  { unfold poly_zero. apply repeat_length. }
  destruct (for_up_upd_spec (fun i _ => op (get f i) (get g i)) (S k) 0 0 (poly_zero (Nat.max M N)) ltac:(lia)) as [L1 G1].
  cbn zeta in *. cbn [Nat.add] in *. set (r1 := for_up 0 (S k) _ _) in *.
  destruct (for_up_upd_spec (fun i _ => op (get f i) 0) (N - k) (S k) 0 r1 ltac:(lia)) as [L2 G2].
  cbn zeta in *. cbn [Nat.add] in *. numR. set (r2 := for_up (S k) (N - k) _ _) in *.
  destruct (for_up_upd_spec (fun i _ => op 0 (get g i)) (M - k) (S k) 0 r2 ltac:(lia)) as [L3 G3].
  cbn zeta in *. cbn [Nat.add] in *. set (r3 := for_up (S k) (M - k) _ _) in *.
  split; [lia|].
  intros i. rewrite G3, G2, G1. rewrite !Nat.sub_0_r.
  assert (Zi : get (poly_zero (Nat.max M N)) i = 0) by exact (get_repeat _ _).
  destruct (Nat.leb_spec (S k) i), (Nat.ltb_spec i (S (k + (M - k)))),
    (Nat.ltb_spec i (S (k + (N - k)))), (Nat.leb_spec 0 i), (Nat.ltb_spec i (S k)); cbn [andb]; try lia;
    try reflexivity.
  - rewrite (get_over f) by lia. reflexivity.
  - rewrite (get_over g) by lia. reflexivity.
  - rewrite (get_over g), (get_over f), Hop by lia. exact Zi.
Qed.

Lemma poly_add_correct (f g : list R) : f <> [] -> g <> [] ->
  length (poly_add f g) = Nat.max (length f) (length g) /\
  forall x, pval (poly_add f g) x = pval f x + pval g x.
Proof.
  intros Hf Hg. destruct (poly_addsub_spec Rplus f g Hf Hg ltac:(lra)) as [HL HG].
  unfold poly_add. numR. split.
  - rewrite HL, (order_length f Hf), (order_length g Hg). lia.
  - intros x. rewrite (pval_bsum_ge (length f + length g)%nat _) by (rewrite HL, (order_length f Hf), (order_length g Hg); lia).
    rewrite (pval_bsum_ge (length f + length g)%nat f) by lia.
    rewrite (pval_bsum_ge (length f + length g)%nat g) by lia.
    rewrite <- bsum_plus. apply bsum_ext. intros i _. rewrite HG. ring.
Qed.

Lemma poly_sub_op_correct (f g : list R) : f <> [] -> g <> [] ->
  length (poly_sub_op f g) = Nat.max (length f) (length g) /\
  forall x, pval (poly_sub_op f g) x = pval f x - pval g x.
Proof.
  intros Hf Hg. destruct (poly_addsub_spec Rminus f g Hf Hg ltac:(lra)) as [HL HG].
  unfold poly_sub_op. numR. split.
  - rewrite HL, (order_length f Hf), (order_length g Hg). lia.
  - intros x. rewrite (pval_bsum_ge (length f + length g)%nat _) by (rewrite HL, (order_length f Hf), (order_length g Hg); lia).
    rewrite (pval_bsum_ge (length f + length g)%nat f) by lia.
    rewrite (pval_bsum_ge (length f + length g)%nat g) by lia.
    rewrite <- bsum_minus. apply bsum_ext. intros i _. rewrite HG. ring.
Qed.

(** inner accumulation loop of the product *)
Lemma accum_loop (F : nat -> R) i : forall n lo r, (i < length r)%nat ->
  let r' := for_up lo n (fun j r => upd r i (get r i + F j)) r in
  length r' = length r /\ get r' i = get r i + bsum n (fun j => F (lo + j)%nat) /\
  forall k, k <> i -> get r' k = get r k.
Proof.
  induction n as [|n IH]; intros lo r Hi; cbn zeta.
  - simpl. repeat split; auto. ring.
  - cbn [for_up]. set (r1 := upd r i _).
    assert (Hl : length r1 = length r) by apply upd_length.
    destruct (IH (S lo) r1 ltac:(lia)) as (HL & HG & HK). cbn zeta in *.
    split; [congruence|]. split.
    + rewrite HG, bsum_shift. unfold r1. rewrite get_upd_eq by lia. rewrite Nat.add_0_r.
      rewrite (bsum_ext n (fun i0 => F (lo + S i0)%nat) (fun j => F (S lo + j)%nat)) by (intros; f_equal; lia).
      ring.
    + intros k Hk. rewrite HK by exact Hk. unfold r1. apply get_upd_neq. auto.
Qed.

(** coefficient i of a product *)
Definition conv (f g : list R) (i : nat) : R := bsum (S i) (fun j => get f j * get g (i - j)).

Lemma conv_window f g i : f <> [] -> g <> [] ->
  let M := porder f in let N := porder g in
  let j0 := if (N <? i)%nat then (i - N)%nat else 0%nat in
  bsum (S (Nat.min i M) - j0) (fun j => get f (j0 + j) * get g (i - (j0 + j))) = conv f g i.
Proof.
  intros Hf Hg M N j0. pose proof (order_length f Hf) as Hlf. pose proof (order_length g Hg) as Hlg.
  fold M in Hlf. fold N in Hlg. unfold conv.
  assert (Hj0 : (j0 <= i)%nat /\ (forall j, (j < j0)%nat -> (N < i - j)%nat)).
  { unfold j0. destruct (Nat.ltb_spec N i); split; intros; lia. }
  destruct Hj0 as [Hj0 Hj1].
  destruct (Nat.le_gt_cases j0 (S (Nat.min i M))) as [Hc|Hc].
  - assert (E1 : bsum (S i) (fun j => get f j * get g (i - j)) =
                 bsum (S (Nat.min i M)) (fun j => get f j * get g (i - j))).
    { apply bsum_extend; [lia|]. intros j Hj. rewrite (get_over f) by lia. ring. }
    rewrite E1.
    replace (S (Nat.min i M)) with (j0 + (S (Nat.min i M) - j0))%nat at 2 by lia.
    rewrite bsum_split.
    rewrite (bsum_zero j0) by (intros j Hj; rewrite (get_over g) by (specialize (Hj1 j Hj); lia); ring).
    ring.
  - replace (S (Nat.min i M) - j0)%nat with 0%nat by lia. simpl (bsum 0 _).
    symmetry. apply bsum_zero. intros j Hj.
    destruct (Nat.le_gt_cases j M).
    + rewrite (get_over g) by (specialize (Hj1 j ltac:(lia)); lia). ring.
    + rewrite (get_over f) by lia. ring.
Qed.

Lemma poly_mul_spec (f g : list R) : f <> [] -> g <> [] ->
  length (poly_mul f g) = S (porder f + porder g) /\
  forall i, (i <= porder f + porder g)%nat -> get (poly_mul f g) i = conv f g i.
Proof.
  intros Hf Hg. unfold poly_mul. numR. set (M := porder f). set (N := porder g).
  set (body := fun i r => _).
  set (P := fun k (r : list R) => length r = S (M + N) /\
        (forall i, (i < k)%nat -> get r i = conv f g i) /\ (forall i, (k <= i)%nat -> get r i = 0)).
  assert (HP : P (0 + S (N + M))%nat (for_up 0 (S (N + M)) body (poly_zero (M + N)))).
  { apply (for_up_inv P).
    - unfold P. repeat split.
      + unfold poly_zero. rewrite repeat_length. reflexivity.
      + intros i Hi; lia.
      + intros i _. exact (get_repeat _ _).
    - intros i r Hi (HL & HG & HZ). unfold body.
      set (j0 := if (N <? i)%nat then (i - N)%nat else 0%nat).
      destruct (accum_loop (fun j => get f j * get g (i - j)) i (S (Nat.min i M) - j0) j0 r ltac:(lia))
        as (HL' & HG' & HK'). cbn zeta in *.
      unfold P. split; [congruence|]. split.
      + intros k Hk. destruct (Nat.eq_dec k i) as [->|Hn].
        * rewrite HG', HZ by lia. rewrite Rplus_0_l. apply conv_window; assumption.
        * rewrite HK' by exact Hn. apply HG. lia.
      + intros k Hk. rewrite HK' by lia. apply HZ. lia. }
  destruct HP as (HL & HG & _). split; [exact HL|].
  intros i Hi. apply HG. lia.
Qed.

Lemma bsum_conv_step f c t x n :
  (forall i, get f (S i) = get t i) -> get f 0 = c -> forall g,
  bsum n (fun i => conv f g i * x ^ i) =
  c * bsum n (fun i => get g i * x ^ i) + x * bsum (n - 1) (fun i => conv t g i * x ^ i).
Proof.
  intros Hs H0 g. destruct n as [|n]; [simpl; ring|].
  replace (S n - 1)%nat with n by lia.
  rewrite bsum_shift. rewrite (bsum_shift n (fun i => get g i * x ^ i)).
  rewrite <- (bsum_scal n x).
  unfold conv at 1. simpl (bsum 1 _). rewrite H0. simpl (0 - 0)%nat. simpl (x ^ 0).
  rewrite Rmult_plus_distr_l, <- bsum_scal.
  rewrite (bsum_ext n (fun i => conv f g (S i) * x ^ S i)
     (fun i => c * (get g (S i) * x ^ S i) + x * (conv t g i * x ^ i))).
  - rewrite bsum_plus. ring.
  - intros i _. unfold conv at 1. rewrite bsum_shift. rewrite H0, Nat.sub_0_r.
    unfold conv. rewrite (bsum_ext (S i) (fun i0 => get f (S i0) * get g (S i - S i0))
       (fun j => get t j * get g (i - j))) by (intros; rewrite Hs; reflexivity).
    simpl (x ^ S i). ring.
Qed.

Lemma conv_pval : forall f g x n, (length f + length g <= S n)%nat ->
  bsum n (fun i => conv f g i * x ^ i) = pval f x * pval g x.
Proof.
  induction f as [|c t IH]; intros g x n Hn.
  - rewrite pval_nil, Rmult_0_l. apply bsum_zero. intros i _. unfold conv.
    rewrite bsum_zero; [ring|]. intros j _. rewrite get_nil. ring.
  - simpl in Hn. rewrite (bsum_conv_step (c :: t) c t) by reflexivity.
    destruct n as [|n].
    + assert (length g = 0%nat) by lia. destruct g; [|discriminate].
      rewrite pval_nil. simpl. ring.
    + replace (S n - 1)%nat with n by lia.
      rewrite IH by lia. rewrite <- (pval_bsum_ge (S n) g) by lia.
      rewrite pval_cons. ring.
Qed.

Lemma poly_mul_correct (f g : list R) : f <> [] -> g <> [] ->
  length (poly_mul f g) = (length f + length g - 1)%nat /\
  forall x, pval (poly_mul f g) x = pval f x * pval g x.
Proof.
  intros Hf Hg. destruct (poly_mul_spec f g Hf Hg) as [HL HG].
  pose proof (order_length f Hf) as Hlf. pose proof (order_length g Hg) as Hlg.
  split; [lia|]. intros x.
  rewrite pval_bsum, HL. rewrite <- (conv_pval f g x (S (porder f + porder g))) by lia.
  apply bsum_ext. intros i Hi. rewrite HG by lia. reflexivity.
Qed.

Lemma poly_div0_correct (f : list R) c : f <> [] -> c <> 0 ->
  length (poly_div0 f c) = length f /\ forall x, pval (poly_div0 f c) x = pval f x / c.
Proof.
  intros Hf Hc. pose proof (order_length f Hf) as Hl. unfold poly_div0. numR.
  assert (Hz : length (@poly_zero R _ (porder f)) = S (porder f)) by (unfold poly_zero; apply repeat_length).
  destruct (for_up_upd_spec (fun i a => a + get f i / c) (S (porder f)) 0 0 (poly_zero (porder f)) ltac:(lia)) as [HL HG].
  cbn zeta in *. cbn [Nat.add] in *. set (r := for_up _ _ _ _) in *.
  split; [lia|]. intros x. rewrite (pval_bsum r), (pval_bsum f).
  rewrite HL, Hz, <- Hl. unfold Rdiv. rewrite Rmult_comm, <- bsum_scal. apply bsum_ext.
  intros i Hi. rewrite HG. destruct (Nat.leb_spec 0 i), (Nat.ltb_spec i (S (porder f))); cbn [andb]; try lia.
  rewrite Nat.sub_0_r. replace (get (poly_zero (porder f)) i) with 0 by (symmetry; exact (get_repeat _ _)).
  field. exact Hc.
Qed.

Lemma poly_mulvar_correct (f : list R) x : pval (poly_mulvar f) x = x * pval f x.
Proof. unfold poly_mulvar. rewrite pval_cons. numR. ring. Qed.

Lemma poly_var_correct x : pval poly_var x = x.
Proof. unfold poly_var. rewrite !pval_cons, pval_nil. numR. ring. Qed.

Lemma poly_const_correct c x : pval (poly_const c) x = c.
Proof. unfold poly_const. rewrite pval_cons, pval_nil. ring. Qed.

Lemma poly_varpow_correct P x : pval (poly_varpow P) x = x ^ P.
Proof.
  unfold poly_varpow. rewrite pval_bsum, upd_length. unfold poly_zero. rewrite repeat_length.
  cbn [bsum]. rewrite get_upd_eq by (rewrite repeat_length; lia).
  rewrite bsum_zero; [numR; ring|].
  intros i Hi. rewrite get_upd_neq by lia. rewrite get_repeat. numR. ring.
Qed.

(** ** Constructors *)
Lemma poly_of_list_correct N (l : list R) :
  match poly_of_list N l with
  | Ret f => (length l <= S N)%nat /\ length f = S N /\
             (forall i, (i < length l)%nat -> get f i = get l i) /\
             (forall i, (length l <= i)%nat -> get f i = 0) /\ same_fun f l
  | Throw => (S N < length l)%nat
  | _ => False
  end.
Proof.
  unfold poly_of_list. destruct (Nat.ltb_spec (S N) (length l)); [assumption|]. numR.
  split; [lia|]. split; [rewrite app_length, repeat_length; lia|].
  split; [|split].
  - intros i Hi. rewrite get_app. destruct (Nat.ltb_spec i (length l)); [reflexivity|lia].
  - intros i Hi. rewrite get_app. destruct (Nat.ltb_spec i (length l)); [lia|]. apply get_rep0.
  - intros x. rewrite pval_app, pval_repeat0. ring.
Qed.

Lemma copy_range_spec {K} (room : nat) : forall (l : list K),
  copy_range room l = (firstn room l, skipn room l).
Proof.
  induction room as [|r IH]; intros [|x t]; simpl; try reflexivity.
  rewrite IH. reflexivity.
Qed.

Lemma poly_of_range_eq N (l : list R) : poly_of_range N l = poly_of_list N l.
Proof.
  unfold poly_of_range, poly_of_list. rewrite copy_range_spec.
  destruct (Nat.ltb_spec (S N) (length l)) as [Hlt|Hge].
  - destruct (skipn (S N) l) eqn:E; [|reflexivity].
    assert (length (skipn (S N) l) = 0%nat) by (rewrite E; reflexivity).
    rewrite skipn_length in *. lia.
  - rewrite skipn_all2 by lia. rewrite firstn_all2 by lia. reflexivity.
Qed.

Lemma change_order_spec N (f : list R) :
  length (change_order N f) = S N /\
  forall i, get (change_order N f) i = if (i <=? N)%nat then get f i else 0.
Proof.
  unfold change_order. numR. split.
  - rewrite app_length, firstn_length, repeat_length. lia.
  - intros i. rewrite get_app, firstn_length.
    destruct (Nat.ltb_spec i (Nat.min (S N) (length f))), (Nat.leb_spec i N); try lia.
    + unfold get. rewrite <- (firstn_skipn (S N) f) at 2.
      rewrite app_nth1 by (rewrite firstn_length; lia). reflexivity.
    + rewrite get_rep0. symmetry. apply get_over. lia.
    + apply get_rep0.
Qed.

Lemma change_order_val N (f : list R) : (forall i, (N < i)%nat -> get f i = 0) -> same_fun (change_order N f) f.
Proof.
  intros Hz x. apply pval_ext. intros i. destruct (change_order_spec N f) as [_ HG].
  rewrite HG. destruct (Nat.leb_spec i N); [reflexivity|]. symmetry. apply Hz. lia.
Qed.

Lemma poly_raise_val N (f : list R) : same_fun (poly_raise N f) f.
Proof. intros x. unfold poly_raise. numR. rewrite pval_app, pval_repeat0. ring. Qed.
