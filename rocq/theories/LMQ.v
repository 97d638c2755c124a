(** The LMQ bounds enclose the positive roots. *)
From Verif Require Import PolyCalc RootsModel RootSpec Descartes.
Open Scope R_scope.

Lemma signbit_Rltb (v : R) : signbit v = Rltb v 0.
Proof. reflexivity. Qed.

Lemma rpower_root y n x : 0 < y -> (1 <= n)%nat -> Rpower y (1 / INR n) <= x -> y <= x ^ n.
Proof.
  intros Hy Hn Hx.
  assert (Hi : 0 < INR n) by (apply lt_0_INR; lia).
  assert (Hp : 0 < Rpower y (1 / INR n)) by apply exp_pos.
  apply Rle_trans with (Rpower y (1 / INR n) ^ n).
  - rewrite <- Rpower_pow by exact Hp. rewrite Rpower_mult.
    replace (1 / INR n * INR n) with 1 by (field; lra). rewrite Rpower_1 by exact Hy. lra.
  - apply pow_incr. lra.
Qed.

Lemma highest_spec n f : (highest n f <= n)%nat /\
  (forall i, (highest n f < i <= n)%nat -> get f i = 0) /\
  (highest n f <> 0%nat -> get f (highest n f) <> 0).
Proof.
  induction n as [|n IH]; cbn [highest].
  - repeat split; auto; intros; lia.
  - destruct (Reqb_spec (get f (S n)) 0) as [E|E].
    + destruct IH as (H1 & H2 & H3). repeat split; [lia| |exact H3].
      intros i Hi. destruct (Nat.eq_dec i (S n)) as [-> |]; [exact E|apply H2; lia].
    + repeat split; [lia|intros; lia|auto].
Qed.

Lemma highest_degree f : not_zero f ->
  let ro := highest (porder f) f in
  (ro <= porder f)%nat /\ get f ro <> 0 /\ forall i, (ro < i)%nat -> get f i = 0.
Proof.
  intros [c [Hc Hc0]]. cbn zeta.
  assert (Hf : f <> []) by (intros ->; destruct Hc).
  pose proof (order_length f Hf) as Hl.
  destruct (highest_spec (porder f) f) as (H1 & H2 & H3).
  assert (H4 : forall i, (highest (porder f) f < i)%nat -> get f i = 0).
  { intros i Hi. destruct (Nat.le_gt_cases i (porder f)); [apply H2; lia|apply get_over; lia]. }
  split; [exact H1|]. split; [|exact H4].
  destruct (Nat.eq_dec (highest (porder f) f) 0) as [E|E]; [|apply H3; exact E].
  rewrite E. intros E0. destruct (In_nth f c 0 Hc) as (i & Hi & Ei).
  apply Hc0. rewrite <- Ei. change (nth i f 0) with (get f i).
  destruct i as [|i]; [exact E0|apply H4; lia].
Qed.

Section LMQ.
Variable f : list R.
Variable ro : nat.
Variable sg : R.
Hypothesis Hsg : sg = 1 \/ sg = -1.
Hypothesis Hlead : 0 < sg * get f ro.
Hypothesis Hro : (ro < length f)%nat.
Let g i := sg * get f i.
Let gp i := Rmax (g i) 0.

Lemma opp_iff k m : get f k <> 0 -> get f m <> 0 ->
  opposite (get f k) (get f m) = true <-> g k * g m < 0.
Proof.
  intros Hk Hm. unfold opposite. rewrite !signbit_Rltb. unfold g.
  destruct Hsg as [-> | ->];
  destruct (Rltb_spec (get f k) 0), (Rltb_spec (get f m) 0); simpl; split; intros; try discriminate; try reflexivity; try nra.
Qed.

(** state of the inner loop after i iterations (k = ro, ..., ro-i+1) *)
Definition inner_inv (m : nat) (times : list nat) (i : nat) (st : outcome (list nat * xval R)) : Prop :=
  match st with
  | Ret (t', tub) =>
      length t' = length times :> nat /\
      (forall k, (tget times k <= tget t' k <= S (tget times k))%nat) /\
      (forall k, (k <= m)%nat -> tget t' k = tget times k) /\
      (forall k, (k <= ro - i)%nat -> tget t' k = tget times k) /\
      ((i = 0%nat /\ tub = PInf) \/
       exists k v, (m < k <= ro)%nat /\ tub = Fin v /\ 0 < g k /\
         tget t' k = S (tget times k) /\
         v = Rpower (2 ^ tget times k * (- g m) / g k) (1 / INR (k - m)))
  | UB => exists k, (k <= ro)%nat /\ (31 <= tget times k)%nat
  | _ => False
  end.

Lemma tget_upd (l : list nat) i j v : (i < length l)%nat -> tget (upd l i v) j = if Nat.eqb i j then v else tget l j.
Proof.
  intros Hi. unfold tget. rewrite nth_upd. destruct (Nat.eqb_spec i j); cbn [andb]; [|reflexivity].
  destruct (Nat.ltb_spec i (length l)); [reflexivity|lia].
Qed.

Lemma inner_correct m times : (m < ro)%nat -> g m < 0 -> length times = length f ->
  inner_inv m times (ro - m) (lmq_inner f ro m times).
Proof.
  intros Hm Hgm Hlt. unfold lmq_inner.
  replace (ro - m)%nat with (0 + (ro - m))%nat at 1 by lia.
  apply for_down_inv.
  - simpl. repeat split; auto.
  - intros j st Hj. cbn [Nat.add]. unfold inner_inv.
    destruct st as [[t' tub]| | |]; cbn [obind]; auto.
    intros (Hl & Hb & Hlow & Hun & Hex).
    set (k := (ro - j)%nat). assert (Hk : (m < k <= ro)%nat) by (unfold k; lia).
    destruct (nonzerob (get f k) && opposite (get f k) (get f m))%bool eqn:E.
    + apply andb_true_iff in E. destruct E as [E1 E2].
      unfold nonzerob in E1. apply negb_true_iff, Reqb_false in E1.
      assert (Hfm : get f m <> 0) by (intros Z; unfold g in Hgm; rewrite Z in Hgm; lra).
      apply (opp_iff k m E1 Hfm) in E2.
      assert (Hgk : 0 < g k) by nra.
      unfold neg_shl. rewrite (Hun k) by (unfold k; lia).
      destruct (Nat.ltb_spec (tget times k) 31) as [L|L]; cbn [obind].
      2:{ exists k. split; [lia|exact L]. }
      assert (Ev : - 2 ^ tget times k * get f m / get f k = 2 ^ tget times k * (- g m) / g k).
      { unfold g. destruct Hsg as [-> | ->]; field; exact E1. }
      rewrite Ev.
      assert (Hkl : (k < length t')%nat) by lia.
      split; [rewrite upd_length; exact Hl|].
      split. { intros i. rewrite tget_upd by exact Hkl. destruct (Nat.eqb_spec k i) as [<-|]; [lia|apply Hb]. }
      split. { intros i Hi. rewrite tget_upd by exact Hkl. destruct (Nat.eqb_spec k i); [lia|apply Hlow; exact Hi]. }
      split. { intros i Hi. rewrite tget_upd by exact Hkl. destruct (Nat.eqb_spec k i); [unfold k in *; lia|apply Hun; lia]. }
      right.
      destruct Hex as [[Hj0 ->]|(k' & v' & Hk' & -> & Hg' & Ht' & Hv')]; cbn [xmin].
      * exists k, (Rpower (2 ^ tget times k * (- g m) / g k) (1 / INR (k - m))).
        repeat split; auto; try lia. rewrite tget_upd by exact Hkl. rewrite Nat.eqb_refl. reflexivity.
      * destruct (Rltb v' _).
        { exists k', v'. repeat split; auto; try lia.
          rewrite tget_upd by exact Hkl. destruct (Nat.eqb_spec k k') as [->|]; [|exact Ht'].
          reflexivity. }
        { exists k, (Rpower (2 ^ tget times k * (- g m) / g k) (1 / INR (k - m))).
          repeat split; auto; try lia. rewrite tget_upd by exact Hkl. rewrite Nat.eqb_refl. reflexivity. }
    + split; [exact Hl|]. split; [exact Hb|]. split; [exact Hlow|].
      split; [intros i Hi; apply Hun; lia|].
      right. destruct Hex as [[Hj0 _]|Hex]; [|exact Hex].
      exfalso. assert (Hfm : get f m <> 0) by (intros Z; unfold g in Hgm; rewrite Z in Hgm; lra).
      assert (Hfr : get f ro <> 0) by (intros Z; rewrite Z in Hlead; lra).
      replace k with ro in E by (unfold k; lia).
      assert (Eo : opposite (get f ro) (get f m) = true).
      { apply opp_iff; auto. unfold g in *. nra. }
      unfold nonzerob in E. rewrite Eo in E. apply Reqb_false in Hfr. rewrite Hfr in E. discriminate.
Qed.

(** remaining budget of coefficient i when it has been used t-1 times *)
Definition budget (times : list nat) (x : R) (i : nat) : R := gp i * x ^ i * (2 / 2 ^ tget times i).

Definition outer_inv (j : nat) (st : outcome (list nat * xval R)) : Prop :=
  match st with
  | Ret (times, ub) =>
      length times = length f /\
      (forall k, (k < length f)%nat -> (1 <= tget times k <= S j)%nat) /\
      (forall k, (k < ro - j)%nat -> tget times k = 1%nat :> nat) /\
      exists u, ub = Fin u /\ 0 <= u /\
        (u = 0 -> forall i, (ro - j <= i <= ro)%nat -> 0 <= g i) /\
        forall x, 0 < x -> u <= x ->
          bsum (S j) (fun i => budget times x (ro - i)) <= bsum (S j) (fun i => g (ro - i) * x ^ (ro - i))
  | UB => (31 <= ro)%nat
  | _ => False
  end.

Lemma gp_pos i : 0 <= g i -> gp i = g i.
Proof. intros. unfold gp. apply Rmax_left. lra. Qed.
Lemma gp_nonneg i : 0 <= gp i.
Proof. unfold gp. apply Rmax_r. Qed.

Lemma bsum_two n F G k c : (k < n)%nat -> (forall i, (i < n)%nat -> F i <= G i) -> F k <= G k - c ->
  bsum n F <= bsum n G - c.
Proof.
  induction n as [|n IH]; intros Hk HFG Hkc; [lia|]. cbn [bsum].
  destruct (Nat.eq_dec k n) as [-> |Hne].
  - assert (bsum n F <= bsum n G) by (apply bsum_le; intros; apply HFG; lia). lra.
  - assert (bsum n F <= bsum n G - c) by (apply IH; [lia|intros; apply HFG; lia|exact Hkc]).
    pose proof (HFG n ltac:(lia)). lra.
Qed.

Lemma outer_correct : outer_inv ro (for_down (ro - 1) ro (fun m st =>
    do st <- st;
    let '(times, ub) := st in
    if (nonzerob (get f m) && opposite (get f m) (get f ro))%bool then
      do r <- lmq_inner f ro m times;
      let '(times, tempub) := r in
      Ret (times, xmax tempub ub)
    else Ret (times, ub)) (Ret (repeat 1%nat (length f), Fin 0))).
Proof.
  replace ro with (0 + ro)%nat at 1 by lia.
  apply for_down_inv.
  - simpl. rewrite repeat_length. split; [reflexivity|].
    assert (T : forall k, (k < length f)%nat -> tget (repeat 1%nat (length f)) k = 1%nat).
    { intros k Hk. unfold tget. apply nth_repeat_lt || (rewrite (nth_indep _ _ 1%nat) by (rewrite repeat_length; exact Hk); apply nth_repeat). }
    split; [intros k Hk; rewrite T by exact Hk; lia|].
    split; [intros k Hk; apply T; lia|].
    exists 0. split; [reflexivity|]. split; [lra|]. split.
    { intros _ i Hi. replace i with ro by lia. unfold g; lra. }
    intros x Hx _. cbn [bsum]. unfold budget. rewrite Nat.sub_0_r, T by exact Hro.
    rewrite gp_pos by (unfold g; lra). simpl. lra.
  - intros j st Hj. cbn [Nat.add]. unfold outer_inv.
    destruct st as [[times ub]| | |]; cbn [obind]; auto.
    intros (Hl & Hb & H1 & u & -> & Hu & Hu0 & Hsum).
    set (m := (ro - 1 - j)%nat).
    assert (Hm : (m < ro)%nat) by (unfold m; lia).
    assert (Em : (ro - S j)%nat = m) by (unfold m; lia).
    destruct (nonzerob (get f m) && opposite (get f m) (get f ro))%bool eqn:E.
    + apply andb_true_iff in E. destruct E as [E1 E2].
      unfold nonzerob in E1. apply negb_true_iff, Reqb_false in E1.
      assert (Hfr : get f ro <> 0) by (intros Z; rewrite Z in Hlead; lra).
      apply (opp_iff m ro E1 Hfr) in E2.
      assert (Hgm : g m < 0) by (unfold g in *; nra).
      pose proof (inner_correct m times Hm Hgm Hl) as P.
      destruct (lmq_inner f ro m times) as [[t' tub]| | |]; cbn [obind]; simpl in P; auto.
      2:{ destruct P as (k & Hk & H31). specialize (Hb k ltac:(lia)). lia. }
      destruct P as (Hl' & Hb' & Hlow & _ & Hex).
      destruct Hex as [[Z _]|(k & v & Hk & -> & Hgk & Htk & Hv)]; [lia|].
      assert (Hvpos : 0 < v) by (rewrite Hv; apply exp_pos).
      split; [congruence|].
      split. { intros i Hi. specialize (Hb' i). specialize (Hb i Hi). lia. }
      split. { intros i Hi. rewrite Hlow by (unfold m; lia). apply H1. lia. }
      exists (if Rltb v u then u else v). split; [reflexivity|].
      assert (Hmax : v <= (if Rltb v u then u else v) /\ u <= (if Rltb v u then u else v)).
      { destruct (Rltb_spec v u); lra. }
      split; [lra|]. split; [intros; lra|].
      intros x Hx Hux.
      cbn [bsum]. rewrite Em.
      (* the budget of k loses at least |g m| x^m *)
      assert (Hkey : (- g m) * x ^ m <= gp k * x ^ k / 2 ^ tget times k).
      { assert (Hp2 : 0 < 2 ^ tget times k) by (apply pow_lt; lra).
        assert (Hxm : 0 < x ^ m) by (apply pow_lt; exact Hx).
        assert (Hy : 2 ^ tget times k * (- g m) / g k <= x ^ (k - m)).
        { apply rpower_root; [|lia|rewrite <- Hv; lra].
          apply Rdiv_lt_0_compat; [|exact Hgk]. apply Rmult_lt_0_compat; lra. }
        rewrite gp_pos by lra.
        replace (x ^ k) with (x ^ (k - m) * x ^ m) by (rewrite <- pow_add; f_equal; lia).
        assert (Hz : 2 ^ tget times k * (- g m) <= g k * x ^ (k - m)).
        { apply Rmult_le_reg_r with (/ g k); [apply Rinv_0_lt_compat; exact Hgk|].
          replace (g k * x ^ (k - m) * / g k) with (x ^ (k - m)) by (field; lra). exact Hy. }
        apply Rmult_le_reg_l with (2 ^ tget times k); [exact Hp2|].
        replace (2 ^ tget times k * (g k * (x ^ (k - m) * x ^ m) / 2 ^ tget times k))
          with (g k * x ^ (k - m) * x ^ m) by (field; lra).
        rewrite <- Rmult_assoc. apply Rmult_le_compat_r; lra. }
      assert (Hmb : budget t' x m = 0).
      { unfold budget. replace (gp m) with 0 by (unfold gp; rewrite Rmax_right; lra). ring. }
      rewrite Hmb.
      specialize (Hsum x Hx ltac:(lra)).
      assert (Hdrop : bsum (S j) (fun i => budget t' x (ro - i)) <=
                      bsum (S j) (fun i => budget times x (ro - i)) - (- g m) * x ^ m).
      { apply bsum_two with (k := (ro - k)%nat); [unfold m in *; lia| |].
        - intros i Hi. unfold budget.
          assert (Hgx : 0 <= gp (ro - i) * x ^ (ro - i)).
          { apply Rmult_le_pos; [apply gp_nonneg|apply pow_le; lra]. }
          apply Rmult_le_compat_l; [exact Hgx|].
          apply Rmult_le_compat_l; [lra|]. apply Rinv_le_contravar; [apply pow_lt; lra|].
          apply Rle_pow; [lra|apply Hb'].
        - replace (ro - (ro - k))%nat with k by lia. unfold budget. rewrite Htk.
          cbn [pow]. assert (Hp2 : 0 < 2 ^ tget times k) by (apply pow_lt; lra).
          replace (gp k * x ^ k * (2 / (2 * 2 ^ tget times k))) with (gp k * x ^ k / 2 ^ tget times k) by (field; lra).
          replace (gp k * x ^ k * (2 / 2 ^ tget times k)) with (gp k * x ^ k / 2 ^ tget times k + gp k * x ^ k / 2 ^ tget times k) by (field; lra).
          lra. }
      cbn [bsum] in Hdrop, Hsum. lra.
    + assert (Hgm : 0 <= g m).
      { destruct (Req_dec (get f m) 0) as [Z|Z]; [unfold g; rewrite Z; lra|].
        assert (Hfr : get f ro <> 0) by (intros Z'; rewrite Z' in Hlead; lra).
        unfold nonzerob in E. apply Reqb_false in Z as Z'. rewrite Z' in E. cbn [negb andb] in E.
        destruct (Rle_or_lt 0 (g m)) as [L|L]; [exact L|exfalso].
        assert (opposite (get f m) (get f ro) = true) by (apply opp_iff; auto; unfold g in *; nra).
        congruence. }
      split; [exact Hl|]. split; [intros k Hk; specialize (Hb k Hk); lia|].
      split; [intros k Hk; apply H1; lia|].
      exists u. split; [reflexivity|]. split; [exact Hu|]. split.
      { intros Z i Hi. destruct (Nat.eq_dec i m) as [-> |]; [exact Hgm|apply Hu0; [exact Z|lia]]. }
      intros x Hx Hux. specialize (Hsum x Hx Hux). cbn [bsum] in *. rewrite Em.
      assert (Eb : budget times x m = g m * x ^ m).
      { unfold budget. rewrite H1 by lia. rewrite gp_pos by exact Hgm. simpl. lra. }
      rewrite Eb. lra.
Qed.
End LMQ.

Lemma lmq_upper_correct f : not_zero f ->
  match LMQ_upper f with
  | Ret (Fin u) => 0 <= u /\ (forall x, 0 < x -> u <= x -> pval f x <> 0) /\
                   (u = 0 -> descartes f = 0%nat)
  | UB => (31 <= porder f)%nat
  | _ => False
  end.
Proof.
  intros Hz. destruct (highest_degree f Hz) as (Hro & Hlead & Hhigh).
  assert (Hf : f <> []) by (destruct Hz as [c [Hc _]]; intros ->; destruct Hc).
  pose proof (order_length f Hf) as Hl.
  unfold LMQ_upper. set (ro := highest (porder f) f) in *.
  assert (Hsgn : exists sg, (sg = 1 \/ sg = -1) /\ 0 < sg * get f ro).
  { destruct (Rlt_or_le 0 (get f ro)); [exists 1|exists (-1)]; split; auto; lra. }
  destruct Hsgn as (sg & Hsg & Hpos).
  pose proof (outer_correct f ro sg Hsg Hpos ltac:(lia)) as P.
  match type of P with outer_inv _ _ _ _ ?e => destruct e as [[times ub]| | |] end; cbn [obind] in *; unfold outer_inv in P; auto; [|lia].
  destruct P as (Hlt & Hb & _ & u & -> & Hu & Hu0 & Hsum). cbn [snd].
  split; [exact Hu|]. split.
  - intros x Hx Hux E. specialize (Hsum x Hx Hux).
    assert (Hv : bsum (S ro) (fun i => sg * get f (ro - i) * x ^ (ro - i)) = 0).
    { rewrite (pval_bsum_n (S ro)) in E by (intros i Hi; apply Hhigh; lia).
      rewrite bsum_rev in E.
      rewrite (bsum_ext (S ro) _ (fun i => sg * (get f (S ro - 1 - i) * x ^ (S ro - 1 - i)))).
      - rewrite bsum_scal, E. ring.
      - intros i Hi. replace (S ro - 1 - i)%nat with (ro - i)%nat by lia. ring. }
    rewrite Hv in Hsum.
    assert (Hlow : 0 < bsum (S ro) (fun i => budget f sg times x (ro - i))).
    { apply Rlt_le_trans with (bsum (S ro) (fun i => if Nat.eqb i 0 then budget f sg times x ro else 0)).
      - rewrite bsum_shift. cbn [Nat.eqb]. rewrite bsum_zero by reflexivity.
        unfold budget. rewrite gp_pos by lra.
        assert (0 < x ^ ro) by (apply pow_lt; exact Hx).
        assert (0 < 2 / 2 ^ tget times ro) by (apply Rdiv_lt_0_compat; [lra|apply pow_lt; lra]).
        rewrite Rplus_0_r. apply Rmult_lt_0_compat; [|assumption]. apply Rmult_lt_0_compat; assumption.
      - apply bsum_le. intros i Hi. destruct (Nat.eqb_spec i 0) as [-> |].
        + rewrite Nat.sub_0_r. lra.
        + unfold budget. apply Rmult_le_pos; [apply Rmult_le_pos; [apply gp_nonneg|apply pow_le; lra]|].
          apply Rlt_le, Rdiv_lt_0_compat; [lra|apply pow_lt; lra]. }
    lra.
  - intros Z. rewrite descartes_sv.
    assert (Hall : forall i, 0 <= sg * get f i).
    { intros i. destruct (Nat.le_gt_cases i ro) as [L|L]; [apply Hu0; [exact Z|lia]|].
      rewrite Hhigh by exact L. lra. }
    clear - Hall Hsg. 
    assert (G : forall l s, (forall a, In a l -> 0 <= sg * a) ->
                (s = 0%Z \/ s = (if Rltb sg 0 then -1 else 1)%Z) -> sv s l = 0%nat).
    { induction l as [|a t IH]; intros s Hp Hs; [reflexivity|]. cbn [sv].
      pose proof (Hp a (or_introl eq_refl)) as Ha.
      assert (Ht : forall b, In b t -> 0 <= sg * b) by (intros; apply Hp; right; assumption).
      destruct Hsg as [E|E]; rewrite E in *; destruct (Rltb_spec (-1) 0); try lra; destruct (Rltb_spec 1 0); try lra;
      destruct (rsign_cases a) as [[Ha' Ea]|[[Ha' Ea]|[Ha' Ea]]]; rewrite Ea; try lra;
      destruct Hs as [-> | ->]; cbn; apply IH; auto. }
    apply G; [|left; reflexivity].
    intros a Ha. destruct (In_nth f a 0 Ha) as (i & Hi & <-). apply Hall.
Qed.

Lemma rev_not_zero f : not_zero f -> not_zero (rev f).
Proof. intros (c & Hc & H0). exists c. split; [rewrite <- in_rev; exact Hc|exact H0]. Qed.

Lemma lmq_lower_correct f : not_zero f ->
  match LMQ_lower f with
  | Ret (Fin l) => 0 < l /\ forall x, 0 < x -> x <= l -> pval f x <> 0
  | Ret PInf => forall x, 0 < x -> pval f x <> 0
  | UB => (31 <= porder f)%nat
  | _ => False
  end.
Proof.
  intros Hz. unfold LMQ_lower.
  assert (Hf : f <> []) by (destruct Hz as [c [Hc _]]; intros ->; destruct Hc).
  pose proof (lmq_upper_correct (rev f) (rev_not_zero f Hz)) as P.
  destruct (LMQ_upper (rev f)) as [[u| |]| | |]; cbn [obind xinv]; try (exfalso; exact P).
  2:{ unfold porder in *. rewrite (rev_length f) in P. exact P. }
  destruct P as (Hu & Hr & _).
  assert (Hval : forall x, 0 < x -> u <= / x -> pval f x <> 0).
  { intros x Hx Hux E. apply (Hr (/ x)); [apply Rinv_0_lt_compat; exact Hx|exact Hux|].
    rewrite pval_rev; [|apply Rinv_neq_0_compat; lra|exact Hf].
    rewrite Rinv_inv, E. ring. }
  destruct (Reqb_spec u 0) as [-> |Hu0].
  - intros x Hx. apply Hval; [exact Hx|]. apply Rlt_le, Rinv_0_lt_compat; exact Hx.
  - assert (Hu1 : 0 < u) by lra. split; [apply Rdiv_lt_0_compat; lra|].
    intros x Hx Hxl. apply Hval; [exact Hx|].
    apply Rmult_le_reg_l with x; [exact Hx|]. rewrite Rinv_r by lra.
    apply Rmult_le_reg_r with (/ u); [apply Rinv_0_lt_compat; exact Hu1|].
    replace (x * u * / u) with x by (field; lra). lra.
Qed.
