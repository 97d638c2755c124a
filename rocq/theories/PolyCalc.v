(** Derivatives, infinities, division and deflation of polynomials. *)
From Verif Require Export PolyProofs.
Open Scope R_scope.

(** ** Derivative *)
Lemma bsum_derivable (c : nat -> R) n x :
  derivable_pt_lim (fun y => bsum n (fun i => c i * y ^ i)) x
    (bsum n (fun i => c i * (INR i * x ^ pred i))).
Proof.
  induction n as [|n IH]; cbn [bsum].
  - apply derivable_pt_lim_const.
  - apply (derivable_pt_lim_plus _ (fun y => c n * y ^ n)); [exact IH|].
    apply (derivable_pt_lim_scal (fun y => y ^ n)). apply derivable_pt_lim_pow.
Qed.

Lemma derivable_pt_lim_ext F G x l :
  (forall y, F y = G y) -> derivable_pt_lim F x l -> derivable_pt_lim G x l.
Proof.
  intros E H eps He. destruct (H eps He) as [d Hd]. exists d. intros h Hh Hhd.
  rewrite <- !E. apply Hd; assumption.
Qed.

(** formal derivative, as a reference for proofs *)
Definition fder (f : list R) : list R := map (fun i => INR (S i) * get f (S i)) (seq 0 (pred (length f))).

Lemma get_fder f i : get (fder f) i = INR (S i) * get f (S i).
Proof.
  unfold fder. unfold get at 1.
  destruct (Nat.lt_ge_cases i (pred (length f))) as [Hi|Hi].
  - set (F := fun i => INR (S i) * get f (S i)).
    rewrite nth_indep with (d' := F 0%nat)
      by (rewrite map_length, seq_length; exact Hi).
    rewrite (map_nth F). rewrite seq_nth by exact Hi. reflexivity.
  - rewrite nth_overflow by (rewrite map_length, seq_length; exact Hi).
    rewrite (get_over f) by lia. change n0 with 0. ring.
Qed.

Lemma pval_derivable f x : derivable_pt_lim (pval f) x (pval (fder f) x).
Proof.
  apply (derivable_pt_lim_ext (fun y => bsum (length f) (fun i => get f i * y ^ i))).
  { intros y. symmetry. apply pval_bsum. }
  replace (pval (fder f) x) with (bsum (length f) (fun i => get f i * (INR i * x ^ pred i))).
  { apply bsum_derivable. }
  rewrite (pval_bsum_ge (length f) (fder f)) by (unfold fder; rewrite map_length, seq_length; lia).
  destruct (length f) as [|n] eqn:E; [reflexivity|].
  rewrite bsum_shift.
  change (bsum (S n) (fun i => get (fder f) i * x ^ i))
    with (bsum n (fun i => get (fder f) i * x ^ i) + get (fder f) n * x ^ n).
  rewrite (get_fder f n). rewrite (get_over f (S n)) by lia.
  rewrite (bsum_ext n (fun i => get f (S i) * (INR (S i) * x ^ pred (S i))) (fun i => get (fder f) i * x ^ i)).
  - simpl (INR 0). ring.
  - intros i _. rewrite get_fder. simpl (pred (S i)). ring.
Qed.

Lemma poly_deriv_get (f : list R) : (0 < porder f)%nat ->
  length (poly_deriv f) = porder f /\ forall i, get (poly_deriv f) i = get (fder f) i.
Proof.
  intros Ho. assert (Hf : f <> []) by (destruct f; [cbv in Ho; lia|congruence]).
  pose proof (order_length f Hf) as Hl. unfold poly_deriv. numR.
  assert (Hz : length (@poly_zero R _ (porder f - 1)) = porder f).
  { unfold poly_zero. rewrite repeat_length. lia. }
  destruct (for_up_upd_spec (fun i _ => get f (S i) * nofnat (S i)) (porder f) 0 0 (poly_zero (porder f - 1)) ltac:(lia)) as [HL HG].
  cbn zeta in *. cbn [Nat.add] in *. set (r := for_up _ _ _ _) in *.
  split; [lia|]. intros i. rewrite HG, get_fder, Nat.sub_0_r, nofnat_INR.
  destruct (Nat.leb_spec 0 i), (Nat.ltb_spec i (porder f)); cbn [andb]; try lia.
  - ring.
  - rewrite (get_over f) by lia. rewrite Rmult_0_r. exact (get_repeat _ _).
Qed.

Lemma poly_derivative_correct (f : list R) x : f <> [] ->
  derivable_pt_lim (pval f) x (pval (poly_derivative true f) x).
Proof.
  intros Hf. unfold poly_derivative. cbn [andb].
  destruct (Nat.eqb_spec (porder f) 0) as [E|E]; cbn [negb].
  - replace (pval [n0] x) with (pval (fder f) x); [apply pval_derivable|].
    apply pval_ext. intros i. rewrite get_fder. rewrite get_over by (rewrite (order_length f Hf); lia).
    rewrite Rmult_0_r. destruct i as [|[|i]]; reflexivity.
  - destruct (poly_deriv_get f ltac:(lia)) as [_ HG].
    rewrite (pval_ext _ _ HG). apply pval_derivable.
Qed.

(** ** eval_derivatives *)
Fixpoint iterf {A} (n : nat) (F : A -> A) (a : A) : A :=
  match n with O => a | S m => F (iterf m F a) end.

Lemma get_iter_fder f : forall k i,
  get (iterf k fder f) i * INR (fact i) = INR (fact (i + k)) * get f (i + k).
Proof.
  induction k as [|k IH]; intros i.
  - rewrite Nat.add_0_r. simpl. ring.
  - cbn [iterf]. rewrite get_fder.
    replace (i + S k)%nat with (S i + k)%nat by lia. rewrite <- IH.
    rewrite (fact_simpl i), mult_INR. ring.
Qed.

Lemma get_iter_fder_0 f k : get (iterf k fder f) 0 = INR (fact k) * get f k.
Proof.
  pose proof (get_iter_fder f k 0) as E. cbn [Nat.add] in E. change (INR (fact 0)) with 1 in E.
  rewrite Rmult_1_r in E. exact E.
Qed.

Lemma nth_deriv_ext k : forall F F' G, (forall x, F x = F' x) -> nth_deriv_of k F G -> nth_deriv_of k F' G.
Proof.
  destruct k as [|k]; simpl; intros F F' G E H.
  - intros x. rewrite H. apply E.
  - destruct H as (H & HD & HN). exists H. split; [|exact HN].
    intros x. apply (derivable_pt_lim_ext F); auto.
Qed.

Lemma iter_fder_deriv k : forall f, nth_deriv_of k (pval f) (pval (iterf k fder f)).
Proof.
  induction k as [|k IH]; intros f.
  - simpl. reflexivity.
  - cbn [nth_deriv_of]. exists (pval (fder f)). split; [apply pval_derivable|].
    replace (iterf (S k) fder f) with (iterf k fder (fder f)).
    + apply IH.
    + clear. induction k as [|k IH]; [reflexivity|]. cbn [iterf] in *. rewrite <- IH. reflexivity.
Qed.

(** derivatives of a shifted polynomial *)
Lemma fder_shift f g t : (forall x, pval g x = pval f (x + t)) ->
  forall x, pval (fder g) x = pval (fder f) (x + t).
Proof.
  intros E x. apply (uniqueness_limite (pval g) x); [apply pval_derivable|].
  apply (derivable_pt_lim_ext (fun y => pval f (y + t))); [intros; symmetry; apply E|].
  replace (pval (fder f) (x + t)) with (pval (fder f) (x + t) * (1 + 0)) by ring.
  apply (derivable_pt_lim_comp (fun y => y + t) (pval f)).
  - apply (derivable_pt_lim_plus id (fun _ => t)); [apply derivable_pt_lim_id|apply derivable_pt_lim_const].
  - apply pval_derivable.
Qed.

Lemma iter_fder_shift k : forall f g t, (forall x, pval g x = pval f (x + t)) ->
  forall x, pval (iterf k fder g) x = pval (iterf k fder f) (x + t).
Proof.
  induction k as [|k IH]; intros f g t E x; cbn [iterf]; [apply E|].
  apply fder_shift. intros y. apply IH. exact E.
Qed.

Lemma iter_fder_taylor f g t k : (forall x, pval g x = pval f (x + t)) ->
  pval (iterf k fder f) t = INR (fact k) * get g k.
Proof.
  intros E. replace t with (0 + t) at 1 by ring.
  rewrite <- (iter_fder_shift k f g t E), pval_at_0. apply get_iter_fder_0.
Qed.

(** the truncated triangular loop agrees with the full one on indices <= D *)
Lemma eval_deriv_loop (f : list R) x D : f <> [] ->
  let N := porder f in
  let r := for_down N N (fun i r => shift_step x (Nat.min D (N - (i - 1))) (get f (i - 1)) r)
             (upd (repeat 0 (S D)) 0 (get f N)) in
  length r = S D /\ forall j, (j <= D)%nat -> get r j = get (shift_loop f x) j.
Proof.
  intros Hf N. cbn zeta.
  unfold shift_loop. numR. fold N.
  set (bs := fun i r => upd (for_down _ _ _ r) 0 _).
  set (bd := fun i r => shift_step _ _ _ r).
  set (rd0 := upd (repeat 0 (S D)) 0 (get f N)).
  set (rs0 := upd (poly_zero N) 0 (get f N)).
  set (P := fun (k : nat) (rr : list R * list R) =>
       length (fst rr) = S D /\ length (snd rr) = S N /\
       forall j, (j <= D)%nat -> get (fst rr) j = get (snd rr) j).
  assert (HP : P (0 + N)%nat (for_down N N (fun i rr => (bd i (fst rr), bs i (snd rr))) (rd0, rs0))).
  { apply for_down_inv.
    - unfold P, rd0, rs0; cbn [fst snd]. rewrite !upd_length. unfold poly_zero. rewrite !repeat_length.
      repeat split. intros j Hj. destruct j as [|j].
      + rewrite !get_upd_eq by (rewrite repeat_length; lia). reflexivity.
      + rewrite !get_upd_neq by lia. change (@n0 R R_num) with 0. rewrite !get_rep0. reflexivity.
    - intros k [r s] Hk (Hr & Hs & HE). unfold P. cbn [fst snd] in *.
      set (i := (N - k)%nat) in *.
      assert (Hi : (1 <= i <= N)%nat) by (unfold i; lia).
      assert (Ebs : bs i s = shift_step x (N - (i - 1)) (get f (i - 1)) s) by reflexivity.
      rewrite Ebs. unfold bd.
      destruct (shift_step_spec x (Nat.min D (N - (i - 1))) (get f (i - 1)) r ltac:(lia)) as [L1 G1].
      destruct (shift_step_spec x (N - (i - 1)) (get f (i - 1)) s ltac:(lia)) as [L2 G2].
      repeat split; try congruence.
      intros j Hj. rewrite G1, G2. rewrite !HE by lia.
      destruct (Nat.eqb_spec j 0); [reflexivity|].
      destruct (Nat.leb_spec j (Nat.min D (N - (i - 1)))), (Nat.leb_spec j (N - (i - 1))); try lia; reflexivity. }
  assert (Epair : forall n hi r s, for_down hi n (fun i rr => (bd i (fst rr), bs i (snd rr))) (r, s)
             = (for_down hi n bd r, for_down hi n bs s)).
  { clear. induction n as [|n IH]; intros hi r s; cbn [for_down]; [reflexivity|]. apply IH. }
  rewrite Epair in HP. destruct HP as (H1 & _ & H3). cbn [fst snd] in *.
  split; [exact H1|]. intros j Hj. apply H3. exact Hj.
Qed.

Lemma fact_loop : forall n k (p : R) (r : list R), (k + n <= length r)%nat -> p = INR (fact (k - 1)) -> (1 <= k)%nat ->
  let q := for_up k n (fun i '(cnst, r) => (cnst * nofnat i, upd r i (get r i * (cnst * nofnat i)))) (p, r) in
  length (snd q) = length r /\
  forall i, get (snd q) i = if ((k <=? i) && (i <? k + n))%nat%bool
                            then get r i * INR (fact i) else get r i.
Proof.
  induction n as [|n IH]; intros k p r Hr Hp Hk; cbn zeta.
  - cbn [for_up snd]. split; [reflexivity|]. intros i.
    destruct (Nat.leb_spec k i), (Nat.ltb_spec i (k + 0)); cbn [andb]; try reflexivity; lia.
  - cbn [for_up]. set (r1 := upd r _ _).
    assert (Hl : length r1 = length r) by apply upd_length.
    assert (Ep : p * nofnat k = INR (fact k)).
    { rewrite nofnat_INR, Hp. destruct k as [|k]; [lia|]. replace (S k - 1)%nat with k by lia.
      rewrite (fact_simpl k), mult_INR. ring. }
    destruct (IH (S k) (p * nofnat k) r1 ltac:(lia)) as [HL HG];
      [rewrite Ep; f_equal; f_equal; lia|lia|]. cbn zeta in *. split; [congruence|].
    intros i. rewrite HG. unfold r1.
    destruct (Nat.eq_dec i k) as [->|Hi].
    + destruct (Nat.leb_spec (S k) k), (Nat.ltb_spec k (S k + n)), (Nat.leb_spec k k), (Nat.ltb_spec k (k + S n)); cbn [andb]; try lia.
      rewrite get_upd_eq by lia. rewrite Ep. reflexivity.
    + rewrite !get_upd_neq by lia.
      destruct (Nat.leb_spec (S k) i), (Nat.ltb_spec i (S k + n)), (Nat.leb_spec k i), (Nat.ltb_spec i (k + S n)); cbn [andb]; try lia; reflexivity.
Qed.

Lemma eval_derivatives_spec (f : list R) x D : f <> [] ->
  length (eval_derivatives D f x) = S D /\
  forall k, (k <= D)%nat -> get (eval_derivatives D f x) k = INR (fact k) * get (shift_loop f x) k.
Proof.
  intros Hf. unfold eval_derivatives. numR. cbn zeta.
  destruct (eval_deriv_loop f x D Hf) as [HL HG]. cbn zeta in *. unfold shift_step in HL, HG.
  set (r := for_down _ _ _ _) in *.
  destruct D as [|D].
  { cbn [Nat.sub for_up snd]. split; [exact HL|]. intros k Hk. rewrite HG by exact Hk.
    replace k with 0%nat by lia. simpl. ring. }
  destruct (fact_loop (S D - 1) 2 1 r) as [FL FG]; try (simpl; lra); try lia.
  cbn zeta in *. set (q := for_up _ _ _ _) in *.
  split; [congruence|]. intros k Hk. rewrite FG, HG by exact Hk.
  destruct (Nat.leb_spec 2 k), (Nat.ltb_spec k (2 + (S D - 1))); cbn [andb]; try lia; try ring.
  - destruct k as [|[|k]]; simpl; try ring; lia.
Qed.

Lemma eval_derivatives_correct (f : list R) x D : f <> [] ->
  length (eval_derivatives D f x) = S D /\
  forall k, (k <= D)%nat ->
    exists G, nth_deriv_of k (pval f) G /\ nth k (eval_derivatives D f x) 0 = G x.
Proof.
  intros Hf. destruct (eval_derivatives_spec f x D Hf) as [HL HG]. split; [exact HL|].
  intros k Hk. exists (pval (iterf k fder f)). split; [apply iter_fder_deriv|].
  change (nth k (eval_derivatives D f x) 0) with (get (eval_derivatives D f x) k).
  rewrite HG by exact Hk. destruct (shift_loop_correct f x Hf) as [_ HS].
  symmetry. apply iter_fder_taylor. exact HS.
Qed.

(** ** Values at infinity *)
Definition xlim (v : xval R) : limit_is :=
  match v with Fin c => Const c | PInf => ToPInf | NInf => ToNInf end.

Lemma limit_deg f : forall n, (1 <= n)%nat -> has_degree f n ->
  limit_at_pinf (pval f) (if Rltb 0 (nth n f 0) then ToPInf else ToNInf).
Proof.
  induction f as [|c t IH]; intros n Hn [H0 Hz].
  { destruct n; simpl in H0; lra. }
  destruct n as [|n]; [lia|]. simpl in H0. cbn [nth].
  assert (Ht : has_degree t n) by (split; [exact H0|]; intros i Hi; apply (Hz (S i)); lia).
  destruct n as [|n].
  - (* t is the constant d *)
    assert (Ev : forall x, pval t x = nth 0 t 0).
    { intros x. rewrite (pval_bsum_n 1); [simpl; unfold get; change n0 with 0; ring|].
      intros i Hi. apply Ht. lia. }
    set (d := nth 0 t 0) in *.
    destruct (Rltb_spec 0 d) as [Hd|Hd]; intros M.
    + exists (Rabs ((M - c) / d)). intros x Hx. rewrite pval_cons, Ev.
      assert ((M - c) / d < x) by (pose proof (Rle_abs ((M - c) / d)); lra).
      apply (Rmult_lt_compat_r d) in H; [|exact Hd]. unfold Rdiv in H.
      rewrite Rmult_assoc, Rinv_l, Rmult_1_r in H by lra. lra.
    + assert (Hd' : d < 0) by lra.
      exists (Rabs ((M - c) / d)). intros x Hx. rewrite pval_cons, Ev.
      assert ((M - c) / d < x) by (pose proof (Rle_abs ((M - c) / d)); lra).
      apply (Rmult_lt_compat_r (- d)) in H; [|lra]. unfold Rdiv in H.
      replace ((M - c) * / d * - d) with (- (M - c)) in H by (field; lra). lra.
  - specialize (IH (S n) ltac:(lia) Ht).
    destruct (Rltb_spec 0 (nth (S n) t 0)) as [Hd|Hd]; intros M.
    + destruct (IH (Rabs (M - c) + 1)) as [X HX].
      exists (Rmax X 1). intros x Hx.
      pose proof (Rmax_l X 1). pose proof (Rmax_r X 1).
      specialize (HX x ltac:(lra)). rewrite pval_cons.
      pose proof (Rle_abs (M - c)). pose proof (Rabs_pos (M - c)).
      assert (pval t x * 1 <= pval t x * x) by (apply Rmult_le_compat_l; lra). lra.
    + destruct (IH (- (Rabs (M - c) + 1))) as [X HX].
      exists (Rmax X 1). intros x Hx.
      pose proof (Rmax_l X 1). pose proof (Rmax_r X 1).
      specialize (HX x ltac:(lra)). rewrite pval_cons.
      pose proof (Rle_abs (- (M - c))) as Ha. rewrite Rabs_Ropp in Ha. pose proof (Rabs_pos (M - c)).
      assert (- pval t x * 1 <= - pval t x * x) by (apply Rmult_le_compat_l; lra). lra.
Qed.

Lemma limit_ext F G l : (forall x, F x = G x) -> limit_at_pinf F l -> limit_at_pinf G l.
Proof.
  intros E. destruct l; simpl; intros H.
  - intros M. destruct (H M) as [X HX]. exists X. intros x Hx. rewrite <- E. auto.
  - intros M. destruct (H M) as [X HX]. exists X. intros x Hx. rewrite <- E. auto.
  - intros x. rewrite <- E. apply H.
Qed.

Lemma limit_deg_neg f n : (1 <= n)%nat -> has_degree f n ->
  limit_at_ninf (pval f) (if Bool.eqb (Rltb 0 (nth n f 0)) (Nat.even n) then ToPInf else ToNInf).
Proof.
  intros Hn [H0 Hz]. unfold limit_at_ninf.
  assert (Hf : f <> []) by (intros ->; destruct n; simpl in H0; lra).
  destruct (reflect_poly_correct f Hf) as [HL HV].
  assert (HG : forall i, get (reflect_poly f) i = if Nat.odd i then - get f i else get f i).
  { intros i. unfold reflect_poly. numR.
    pose proof (order_length f Hf) as Hlen.
    pose proof (Nat.div_mod_eq (porder f + 1) 2) as Hdm.
    pose proof (Nat.mod_upper_bound (porder f + 1) 2 ltac:(lia)) as Hmb.
    destruct (reflect_loop f ((porder f + 1) / 2) 0 f ltac:(lia)) as [_ HG].
    rewrite HG. destruct (Nat.odd i) eqn:Eo; cbn [andb]; [|reflexivity].
    destruct (Nat.leb_spec (2 * 0) i); [|lia]; cbn [andb].
    destruct (Nat.ltb_spec i (2 * (0 + (porder f + 1) / 2))); [reflexivity|].
    rewrite get_over; [ring|]. apply Nat.odd_spec in Eo. destruct Eo as [q Hq]. lia. }
  apply (limit_ext (pval (reflect_poly f))); [intros; apply HV|].
  assert (Hd : has_degree (reflect_poly f) n).
  { split.
    - change (get (reflect_poly f) n <> 0). rewrite HG. change (nth n f 0) with (get f n) in H0.
      destruct (Nat.odd n); lra.
    - intros i Hi. change (get (reflect_poly f) i = 0). rewrite HG.
      specialize (Hz i Hi). change (nth i f 0) with (get f i) in Hz. rewrite Hz.
      destruct (Nat.odd i); ring. }
  pose proof (limit_deg _ n Hn Hd) as HLm.
  replace (Bool.eqb (Rltb 0 (nth n f 0)) (Nat.even n)) with (Rltb 0 (nth n (reflect_poly f) 0)); [exact HLm|].
  change (nth n (reflect_poly f) 0) with (get (reflect_poly f) n). rewrite HG.
  change (nth n f 0) with (get f n) in *. rewrite <- Nat.negb_odd.
  destruct (Nat.odd n); cbn [negb];
    destruct (Rltb_spec 0 (get f n)), (Rltb_spec 0 (- get f n)); simpl; try reflexivity; try lra;
    destruct (Rltb_spec 0 (get f n)); simpl; try reflexivity; lra.
Qed.

Lemma const_poly f : (forall i, (1 <= i)%nat -> get f i = 0) -> forall x, pval f x = get f 0.
Proof. intros Hz x. rewrite (pval_bsum_n 1 f x Hz). simpl. ring. Qed.

Lemma inf_scan_spec (f : list R) N pos : forall i,
  (forall j, (i < j)%nat -> get f j = 0) ->
  (exists n, (1 <= n <= i)%nat /\ has_degree f n /\
     inf_scan N i f pos = if Nat.odd N then inf_mul (get f n) pos else inf_mul (get f n) true) \/
  ((forall j, (1 <= j)%nat -> get f j = 0) /\ inf_scan N i f pos = Fin (get f 0)).
Proof.
  induction i as [|i IH]; intros Hz.
  - right. split; [intros; apply Hz; lia|reflexivity].
  - cbn [inf_scan]. numR. destruct (Reqb_spec (get f (S i)) 0) as [E|E]; cbn [negb].
    + destruct IH as [(n & Hn & Hd & Es)|[Hc Es]].
      * intros j Hj. destruct (Nat.eq_dec j (S i)) as [->|]; [exact E|apply Hz; lia].
      * left. exists n. split; [lia|]. split; assumption.
      * right. split; assumption.
    + left. exists (S i). split; [lia|]. split; [|reflexivity].
      split; [exact E|]. intros j Hj. apply Hz. lia.
Qed.

Lemma order0_const (f : list R) : f <> [] -> porder f = 0%nat -> forall x, pval f x = get f 0.
Proof.
  intros Hf E. apply const_poly. intros i Hi. apply get_over. rewrite (order_length f Hf). lia.
Qed.

Lemma poly_sub_pinf (f : list R) : f <> [] ->
  limit_at_pinf (pval f) (xlim (poly_sub f PInf)).
Proof.
  intros Hf. cbn [poly_sub]. destruct (Nat.eqb_spec (porder f) 0) as [E|E].
  - simpl. apply order0_const; assumption.
  - destruct (inf_scan_spec f (porder f) true (porder f)) as [(n & Hn & Hd & Es)|[Hc Es]].
    { intros j Hj. apply get_over. rewrite (order_length f Hf). lia. }
    + rewrite Es. assert (Em : (if Nat.odd (porder f) then inf_mul (get f n) true else inf_mul (get f n) true)
         = inf_mul (get f n) true) by (destruct (Nat.odd _); reflexivity).
      rewrite Em. pose proof (limit_deg f n ltac:(lia) Hd) as HLm. unfold inf_mul. numR.
      change (nth n f 0) with (get f n) in HLm.
      destruct (Rltb 0 (get f n)); simpl in *; exact HLm.
    + rewrite Es. simpl. apply const_poly. exact Hc.
Qed.

Lemma poly_sub_ninf (f : list R) n : f <> [] -> (1 <= n)%nat -> has_degree f n ->
  Nat.odd n = Nat.odd (porder f) ->
  limit_at_ninf (pval f) (xlim (poly_sub f NInf)).
Proof.
  intros Hf Hn1 Hd Hpar. cbn [poly_sub].
  assert (Hlen : (n <= porder f)%nat).
  { destruct (Nat.le_gt_cases n (porder f)) as [|Hgt]; [assumption|]. exfalso.
    apply (proj1 Hd). apply nth_overflow. rewrite (order_length f Hf). lia. }
  destruct (Nat.eqb_spec (porder f) 0) as [E|E]; [lia|].
  destruct (inf_scan_spec f (porder f) false (porder f)) as [(n' & Hn & Hd' & Es)|[Hc Es]].
  { intros j Hj. apply get_over. rewrite (order_length f Hf). lia. }
  - assert (n' = n).
    { destruct (Nat.lt_trichotomy n n') as [Hlt|[->|Hlt]]; [|reflexivity|].
      - exfalso. apply (proj1 Hd'). apply (proj2 Hd). exact Hlt.
      - exfalso. apply (proj1 Hd). apply (proj2 Hd'). exact Hlt. }
    subst n'. rewrite Es, <- Hpar.
    pose proof (limit_deg_neg f n Hn1 Hd) as HLm. change (nth n f 0) with (get f n) in HLm.
    rewrite <- Nat.negb_odd in HLm. unfold inf_mul. numR.
    destruct (Nat.odd n), (Rltb 0 (get f n)); simpl in *; exact HLm.
  - exfalso. apply (proj1 Hd). apply Hc. exact Hn1.
Qed.

(** a constant polynomial is also handled correctly at -inf *)
Lemma poly_sub_ninf_const (f : list R) : f <> [] -> (forall i, (1 <= i)%nat -> get f i = 0) ->
  limit_at_ninf (pval f) (xlim (poly_sub f NInf)).
Proof.
  intros Hf Hc. cbn [poly_sub].
  assert (E : inf_scan (porder f) (porder f) f false = Fin (get f 0)).
  { destruct (inf_scan_spec f (porder f) false (porder f)) as [(n' & Hn & Hd' & Es)|[_ Es]].
    - intros; apply Hc; lia.
    - exfalso. apply (proj1 Hd'). apply Hc. lia.
    - exact Es. }
  rewrite E. destruct (Nat.eqb (porder f) 0); simpl; intros x; apply const_poly; exact Hc.
Qed.

(** ** Euclidean division *)
Definition mono (c : R) (k : nat) : list R := repeat 0 k ++ [c].

Lemma gcd_loop_step (g : list R) (O2 k : nat) (q r : list R) :
  g <> [] -> O2 = porder g -> get g O2 <> 0 -> (O2 <= k)%nat ->
  length q = length r -> (k < length r)%nat ->
  (forall j, (k < j)%nat -> get r j = 0) ->
  get q (k - O2) = 0 ->
  let c := get r k / get g O2 in
  let q' := upd q (k - O2) c in
  let r' := for_up 0 (S O2) (fun j r => upd r (k + j - O2) (get r (k + j - O2) - c * get g j)) r in
  length q' = length r' /\ length r' = length r /\
  (forall j, (k <= j)%nat -> get r' j = 0) /\
  (forall j, (j < k - O2)%nat -> get q' j = get q j) /\
  forall x, pval q' x * pval g x + pval r' x = pval q x * pval g x + pval r x.
Proof.
  intros Hg HO Hlead Hk Hqr Hkr Hz Hq c q' r'.
  pose proof (order_length g Hg) as Hlg. rewrite <- HO in Hlg.
  assert (Er' : r' = for_up 0 (S O2) (fun j r => upd r ((k - O2) + j) (get r ((k - O2) + j) - c * get g j)) r).
  { unfold r'. apply for_up_ext. intros i s. replace (k + i - O2)%nat with (k - O2 + i)%nat by lia.
    reflexivity. }
  destruct (for_up_upd_spec (fun j a => a - c * get g j) (S O2) 0 (k - O2) r ltac:(lia)) as [HL HG].
  cbn zeta in HL, HG. rewrite <- Er' in HL, HG. rewrite Nat.add_0_r in HG.
  assert (Hz' : forall j, (k <= j)%nat -> get r' j = 0).
  { intros j Hj. rewrite HG. destruct (Nat.eq_dec j k) as [->|Hn].
    - destruct (Nat.leb_spec (k - O2) k), (Nat.ltb_spec k (k - O2 + S O2)); cbn [andb]; try lia.
      replace (k - (k - O2))%nat with O2 by lia. unfold c. field. exact Hlead.
    - destruct (Nat.leb_spec (k - O2) j), (Nat.ltb_spec j (k - O2 + S O2)); cbn [andb]; try lia; apply Hz; lia. }
  split; [unfold q'; rewrite upd_length; congruence|]. split; [exact HL|]. split; [exact Hz'|].
  split; [intros j Hj; unfold q'; apply get_upd_neq; lia|].
  intros x.
  assert (Eq : pval q' x = pval q x + c * x ^ (k - O2)).
  { rewrite !pval_bsum. unfold q'. rewrite upd_length.
    assert (Hlt : (k - O2 < length q)%nat) by lia.
    replace (length q) with ((k - O2) + S (length q - (k - O2) - 1))%nat by lia.
    rewrite !bsum_split. rewrite !bsum_shift. rewrite Nat.add_0_r.
    rewrite get_upd_eq by lia. rewrite Hq.
    rewrite (bsum_ext (k - O2) (fun i => get (upd q (k - O2) c) i * x ^ i) (fun i => get q i * x ^ i))
      by (intros; rewrite get_upd_neq by lia; reflexivity).
    rewrite (bsum_ext (length q - (k - O2) - 1)
       (fun i => get (upd q (k - O2) c) (k - O2 + S i) * x ^ (k - O2 + S i))
       (fun i => get q (k - O2 + S i) * x ^ (k - O2 + S i)))
      by (intros; rewrite get_upd_neq by lia; reflexivity).
    ring. }
  assert (Er : pval r' x = pval r x - c * x ^ (k - O2) * pval g x).
  { rewrite (pval_bsum_n (S k) r') by (intros; apply Hz'; lia).
    rewrite (pval_bsum_n (S k) r) by (intros; apply Hz; lia).
    rewrite (pval_bsum g), Hlg.
    replace (S k) with ((k - O2) + S O2)%nat by lia.
    rewrite !bsum_split.
    rewrite (bsum_ext (k - O2) (fun i => get r' i * x ^ i) (fun i => get r i * x ^ i)).
    2:{ intros i Hi. rewrite HG. destruct (Nat.leb_spec (k - O2) i); [lia|]. reflexivity. }
    rewrite (bsum_ext (S O2) (fun i => get r' (k - O2 + i) * x ^ (k - O2 + i))
        (fun i => get r (k - O2 + i) * x ^ (k - O2 + i) - (c * x ^ (k - O2)) * (get g i * x ^ i))).
    2:{ intros i Hi. rewrite HG.
        destruct (Nat.leb_spec (k - O2) (k - O2 + i)), (Nat.ltb_spec (k - O2 + i) (k - O2 + S O2)); cbn [andb]; try lia.
        replace (k - O2 + i - (k - O2))%nat with i by lia. rewrite pow_add. ring. }
    rewrite bsum_minus, bsum_scal. ring. }
  rewrite Eq, Er. ring.
Qed.

Lemma gcd_loop_correct (f g : list R) : f <> [] -> g <> [] ->
  (porder g <= porder f)%nat -> get g (porder g) <> 0 ->
  let '(q, r) := gcd_loop f g in
  length q = length f /\ length r = length f /\
  (forall j, (porder g <= j)%nat -> get r j = 0) /\
  forall x, pval f x = pval q x * pval g x + pval r x.
Proof.
  intros Hf Hg Ho Hlead. pose proof (order_length f Hf) as Hl.
  unfold gcd_loop. numR. cbn zeta. set (O1 := porder f) in *. set (O2 := porder g) in *.
  set (body := fun k '(q, r) => _).
  set (P := fun k (qr : list R * list R) => let '(q, r) := qr in
     length q = length f /\ length r = length f /\
     (forall j, (S O1 - k <= j)%nat -> get r j = 0) /\
     (forall j, (j + k < S O1 - O2)%nat -> get q j = 0) /\
     forall x, pval f x = pval q x * pval g x + pval r x).
  assert (HP : P (0 + (S O1 - O2))%nat (for_down O1 (S O1 - O2) body (poly_zero O1, f))).
  { apply for_down_inv.
    - unfold P. unfold poly_zero. rewrite repeat_length. repeat split; try lia.
      + intros j Hj. apply get_over. lia.
      + intros j _. exact (get_repeat _ _).
      + intros x. change (@n0 R R_num) with 0. rewrite pval_repeat0. ring.
    - intros j [q r] Hj (Hq & Hr & Hz & Hqz & Hv). rewrite Nat.add_0_l in *. cbn [body].
      destruct (gcd_loop_step g O2 (O1 - j) q r Hg eq_refl Hlead ltac:(lia) ltac:(lia) ltac:(lia))
        as (L1 & L2 & Z1 & Q1 & V1).
      { intros i Hi. apply Hz. lia. }
      { apply Hqz. lia. }
      cbn zeta in *. unfold P. split; [lia|]. split; [lia|]. split; [intros i Hi; apply Z1; lia|].
      split; [intros i Hi; rewrite Q1 by lia; apply Hqz; lia|].
      intros x. rewrite V1. apply Hv. }
  rewrite Nat.add_0_l in HP. destruct (for_down O1 (S O1 - O2) body (poly_zero O1, f)) as [q r].
  destruct HP as (Hq & Hr & Hz & _ & Hv). repeat split; try assumption.
  intros j Hj. apply Hz. lia.
Qed.

(** effective degree bound: remainder coefficients vanish from the divisor's degree on *)
Lemma gcd_rec_correct (f : list R) : f <> [] -> forall O2 g,
  length g = S O2 -> (O2 <= porder f)%nat ->
  match gcd_rec O2 f g with
  | DivInf r => (forall x, pval g x = 0) /\ (forall i, get g i = 0) /\ (forall x, pval r x = 0) /\ length r = Nat.max 1 O2
  | Div q r => exists n, (n <= O2)%nat /\ has_degree g n /\ length q = length f /\
       length r = Nat.max 1 O2 /\
       (forall i, (n <= i)%nat -> get r i = 0) /\
       forall x, pval f x = pval q x * pval g x + pval r x
  end.
Proof.
  intros Hf. induction O2 as [|O2 IH]; intros g Hg Ho.
  - cbn [gcd_rec]. numR.
    assert (Hz : forall i, (1 <= i)%nat -> get g i = 0) by (intros; apply get_over; lia).
    destruct (Reqb_spec (get g 0) 0) as [E|E].
    + split; [intros x; rewrite (const_poly g Hz); exact E|].
      split; [intros [|i]; [exact E|apply Hz; lia]|]. split; [|reflexivity].
      intros x. rewrite pval_cons, pval_nil. ring.
    + exists 0%nat. destruct (poly_mul_correct f [1 / get g 0] Hf ltac:(congruence)) as [HL HV].
      split; [lia|]. split; [split; [exact E|intros i Hi; apply Hz; lia]|].
      split; [rewrite HL; simpl; lia|]. split; [reflexivity|]. split.
      * intros [|[|i]] _; reflexivity.
      * intros x. rewrite HV, (const_poly g Hz), !pval_cons, !pval_nil. field. exact E.
  - cbn [gcd_rec]. numR. destruct (Reqb_spec (get g (S O2)) 0) as [E|E].
    + destruct (change_order_spec O2 g) as [HcL HcG].
      specialize (IH (change_order O2 g) HcL ltac:(lia)).
      assert (Hsame : same_fun (change_order O2 g) g).
      { apply change_order_val. intros i Hi. destruct (Nat.eq_dec i (S O2)) as [->|]; [exact E|apply get_over; lia]. }
      assert (HcG' : forall i, get (change_order O2 g) i = get g i).
      { intros i. rewrite HcG. destruct (Nat.leb_spec i O2); [reflexivity|].
        destruct (Nat.eq_dec i (S O2)) as [->|]; [symmetry; exact E|symmetry; apply get_over; lia]. }
      assert (Hraise : forall r i, get (poly_raise O2 r) i = get r i).
      { intros r i. unfold poly_raise. numR. rewrite get_app. destruct (Nat.ltb_spec i (length r)); [reflexivity|].
        rewrite get_rep0. symmetry. apply get_over. lia. }
      assert (HraiseL : forall r : list R, (length r <= S O2)%nat -> length (poly_raise O2 r) = S O2).
      { intros r Hr. unfold poly_raise. rewrite app_length, repeat_length. lia. }
      destruct (gcd_rec O2 f (change_order O2 g)) as [r|q r].
      * destruct IH as (Hg0 & Hgi & Hr0 & HrL). split; [intros x; rewrite <- Hsame; apply Hg0|].
        split; [intros i; rewrite <- HcG'; apply Hgi|].
        split; [intros x; rewrite (poly_raise_val O2 r); apply Hr0|].
        rewrite HraiseL by lia. lia.
      * destruct IH as (n & Hn & Hd & Hq & HrL & Hr & Hv). exists n.
        split; [lia|]. split.
        { split.
          - intros E0. apply (proj1 Hd). change (get (change_order O2 g) n = 0). rewrite HcG'. exact E0.
          - intros i Hi. change (get g i = 0). rewrite <- HcG'. apply (proj2 Hd). exact Hi. }
        split; [exact Hq|]. split; [rewrite HraiseL by lia; lia|].
        split; [intros i Hi; rewrite Hraise; apply Hr; exact Hi|].
        intros x. rewrite (poly_raise_val O2 r), <- (Hsame x). apply Hv.
    + assert (Hgne : g <> []) by (intros ->; discriminate).
      assert (Hpo : porder g = S O2) by (unfold porder; rewrite Hg; reflexivity).
      pose proof (gcd_loop_correct f g Hf Hgne ltac:(lia) ltac:(rewrite Hpo; exact E)) as HL.
      destruct (gcd_loop f g) as [q r]. destruct HL as (Hq & Hr & Hz & Hv).
      rewrite Hpo in Hz. destruct (change_order_spec O2 r) as [HcL HcG].
      exists (S O2). split; [lia|]. split; [split; [exact E|intros i Hi; apply get_over; lia]|].
      split; [exact Hq|]. split; [rewrite HcL; lia|]. split.
      * intros i Hi. rewrite HcG. destruct (Nat.leb_spec i O2); [lia|reflexivity].
      * intros x. rewrite (change_order_val O2 r) by (intros; apply Hz; lia). apply Hv.
Qed.

(** ** Deflation *)
Definition beta (a : list R) (root : R) (i : nat) : R := pval (skipn (S i) a) root.

Lemma pval_skipn_step (a : list R) root : forall i,
  pval (skipn i a) root = get a i + root * pval (skipn (S i) a) root.
Proof.
  induction a as [|c t IH]; intros i.
  - rewrite !skipn_nil, pval_nil, get_nil. ring.
  - destruct i as [|i].
    + cbn [skipn]. rewrite pval_cons. reflexivity.
    + change (skipn (S i) (c :: t)) with (skipn i t).
      change (skipn (S (S i)) (c :: t)) with (skipn (S i) t). apply IH.
Qed.

Lemma beta_fwd a root i : beta a root i = get a (S i) + root * beta a root (S i).
Proof. apply pval_skipn_step. Qed.
Lemma beta_root a root : pval a root = 0 -> get a 0 + root * beta a root 0 = 0.
Proof. intros H. pose proof (pval_skipn_step a root 0) as E. change (skipn 0 a) with a in E. unfold beta. lra. Qed.

Lemma rd_ok (l : list R) (i : nat) : (i < length l)%nat -> rd l (Z.of_nat i) = Ret (get l i).
Proof.
  intros Hi. unfold rd. destruct (Z.leb_spec 0 (Z.of_nat i)), (Z.ltb_spec (Z.of_nat i) (Z.of_nat (length l))); cbn [andb]; try lia.
  rewrite Nat2Z.id. reflexivity.
Qed.
Lemma wr_ok (l : list R) (i : nat) v : (i < length l)%nat -> wr l (Z.of_nat i) v = Ret (upd l i v).
Proof.
  intros Hi. unfold wr. destruct (Z.leb_spec 0 (Z.of_nat i)), (Z.ltb_spec (Z.of_nat i) (Z.of_nat (length l))); cbn [andb]; try lia.
  rewrite Nat2Z.id. reflexivity.
Qed.
Lemma wrap64_small z : (0 <= z < 2 ^ 64)%Z -> wrap64 z = z.
Proof. intros Hz. unfold wrap64. apply Z.mod_small. exact Hz. Qed.

Lemma deflate_loop_correct pb (a : list R) root : root <> 0 -> pval a root = 0 ->
  forall N, length a = S N -> (Z.of_nat N < 2 ^ 63)%Z ->
  forall fuel it ib b,
  (1 <= ib)%nat -> (ib <= S it)%nat -> (it + 2 <= N)%nat -> length b = N ->
  (forall j, (j < ib)%nat -> get b j = beta a root j) ->
  (forall j, (it < j < N)%nat -> get b j = beta a root j) ->
  (S it - ib < fuel)%nat ->
  exists b', deflate_loop pb fuel a root (Z.of_nat it) (Z.of_nat ib) b = Ret b' /\
    length b' = N /\ forall j, (j < N)%nat -> get b' j = beta a root j.
Proof.
  intros Hr0 Hroot N HN HN63. induction fuel as [|fuel IH]; intros it ib b Hib Hibt Hit Hb Hlo Hhi Hfu; [lia|].
  cbn [deflate_loop]. destruct (Z.leb_spec (Z.of_nat ib) (Z.of_nat it)) as [Hle|Hgt].
  - assert (Hle' : (ib <= it)%nat) by lia.
    rewrite (wrap64_small (Z.of_nat it + 1)) by lia.
    replace (Z.of_nat it + 1)%Z with (Z.of_nat (S it)) by lia.
    rewrite (rd_ok b (S it)) by lia. cbn [obind].
    rewrite (rd_ok b ib) by lia. cbn [obind].
    rewrite (rd_ok a ib) by lia. cbn [obind].
    rewrite (rd_ok a (S it)) by lia. cbn [obind]. numR.
    destruct (pb _ _ _ _).
    + rewrite (wrap64_small (Z.of_nat ib - 1)) by lia.
      replace (Z.of_nat ib - 1)%Z with (Z.of_nat (ib - 1)) by lia.
      rewrite (rd_ok b (ib - 1)) by lia. cbn [obind].
      rewrite (wr_ok b ib) by lia. cbn [obind].
      rewrite (wrap64_small (Z.of_nat ib + 1)) by lia.
      replace (Z.of_nat ib + 1)%Z with (Z.of_nat (S ib)) by lia.
      apply IH; try lia.
      * rewrite upd_length. exact Hb.
      * intros j Hj. destruct (Nat.eq_dec j ib) as [->|Hn].
        -- rewrite get_upd_eq by lia. rewrite Hlo by lia.
           pose proof (beta_fwd a root (ib - 1)) as E. replace (S (ib - 1)) with ib in E by lia.
           rewrite E. field. exact Hr0.
        -- rewrite get_upd_neq by lia. apply Hlo. lia.
      * intros j Hj. rewrite get_upd_neq by lia. apply Hhi. lia.
    + rewrite (wr_ok b it) by lia. cbn [obind].
      rewrite (wrap64_small (Z.of_nat it - 1)) by lia.
      replace (Z.of_nat it - 1)%Z with (Z.of_nat (it - 1)) by lia.
      apply IH; try lia.
      * rewrite upd_length. exact Hb.
      * intros j Hj. rewrite get_upd_neq by lia. apply Hlo. lia.
      * intros j Hj. destruct (Nat.eq_dec j it) as [->|Hn].
        -- rewrite get_upd_eq by lia. rewrite Hhi by lia. symmetry. apply beta_fwd.
        -- rewrite get_upd_neq by lia. apply Hhi. lia.
  - exists b. split; [reflexivity|]. split; [exact Hb|].
    intros j Hj. destruct (Nat.lt_ge_cases j ib); [apply Hlo; assumption|apply Hhi; lia].
Qed.

Lemma quotient_val (a b : list R) root N : length a = S N -> length b = N ->
  pval a root = 0 -> (forall j, (j < N)%nat -> get b j = beta a root j) ->
  forall x, pval a x = (x - root) * pval b x.
Proof.
  intros Ha Hb Hroot Hbeta x.
  assert (HbN : beta a root N = 0) by (unfold beta; rewrite skipn_all2 by lia; reflexivity).
  assert (E : forall n, (n <= N)%nat ->
     bsum (S n) (fun i => get a i * x ^ i) = (x - root) * bsum n (fun i => beta a root i * x ^ i) - root * beta a root n * x ^ n).
  { induction n as [|n IH]; intros Hn.
    - simpl. pose proof (beta_root a root Hroot). lra.
    - cbn [bsum] in *. rewrite IH by lia.
      pose proof (beta_fwd a root n) as Ef. simpl (x ^ S n).
      replace (get a (S n)) with (beta a root n - root * beta a root (S n)) by lra. ring. }
  rewrite pval_bsum, Ha, E by lia. rewrite HbN, (pval_bsum b), Hb.
  rewrite (bsum_ext N (fun i => get b i * x ^ i) (fun i => beta a root i * x ^ i))
    by (intros; rewrite Hbeta by assumption; reflexivity).
  ring.
Qed.

Lemma deflate_correct pb (a : list R) root :
  (2 <= porder a)%nat \/ (root = 0 /\ a <> []) -> (Z.of_nat (porder a) < 2 ^ 63)%Z -> pval a root = 0 ->
  exists b, deflate_polynomial pb a root = Ret b /\ length b = porder a /\
    forall x, pval a x = (x - root) * pval b x.
Proof.
  intros Hcase HN63 Hroot. unfold deflate_polynomial. numR.
  assert (Ha : a <> []) by (destruct Hcase as [H|[_ H]]; [destruct a; [cbv in H; lia|congruence]|exact H]).
  pose proof (order_length a Ha) as Hl.
  destruct (Reqb_spec root 0) as [E|E].
  - exists (deflate_null a). split; [reflexivity|]. unfold deflate_null.
    destruct a as [|c t]; [congruence|]. cbn [tl]. split; [reflexivity|].
    intros x. subst root. rewrite pval_cons in *. assert (c = 0) by lra. subst c. ring.
  - destruct Hcase as [Ho|[Ho _]]; [|contradiction].
    set (N := porder a) in *. cbn zeta.
    rewrite (rd_ok a N) by lia. cbn [obind].
    replace (Z.of_nat N - 1)%Z with (Z.of_nat (N - 1)) by lia.
    rewrite wr_ok by (rewrite repeat_length; lia). cbn [obind].
    change 0%Z with (Z.of_nat 0). rewrite (rd_ok a 0) by lia. cbn [obind].
    rewrite wr_ok by (rewrite upd_length, repeat_length; lia). cbn [obind].
    rewrite (wrap64_small (Z.of_nat N - 2)) by lia.
    replace (Z.of_nat N - 2)%Z with (Z.of_nat (N - 2)) by lia. change 1%Z with (Z.of_nat 1).
    set (b0 := upd (upd _ _ _) _ _).
    assert (Hb0 : length b0 = N) by (unfold b0; rewrite !upd_length, repeat_length; reflexivity).
    destruct (deflate_loop_correct pb a root E Hroot N Hl HN63 (length a) (N - 2) 1 b0) as (b & Eb & Hb & HB); try lia.
    + intros j Hj. assert (j = 0%nat) by lia. subst j. unfold b0.
      rewrite get_upd_eq by (rewrite upd_length, repeat_length; lia).
      pose proof (beta_root a root Hroot). replace (get a 0) with (- (root * beta a root 0)) by lra.
      field. exact E.
    + intros j Hj. assert (j = (N - 1)%nat) by lia. subst j. unfold b0.
      rewrite get_upd_neq by lia. rewrite get_upd_eq by (rewrite repeat_length; lia).
      rewrite beta_fwd. replace (S (N - 1)) with N by lia.
      unfold beta. rewrite skipn_all2 by lia. rewrite pval_nil. ring.
    + exists b. split; [exact Eb|]. split; [exact Hb|].
      apply (quotient_val a b root N); assumption.
Qed.
