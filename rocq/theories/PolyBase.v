(** Lemmas about polynomial values and loops (no model definitions here). *)
From Verif Require Export Num PolySpec.
Open Scope R_scope.

(** finite sums *)
Fixpoint bsum (n : nat) (F : nat -> R) : R :=
  match n with O => 0 | S m => bsum m F + F m end.

Lemma bsum_ext n F G : (forall i, (i < n)%nat -> F i = G i) -> bsum n F = bsum n G.
Proof.
  induction n as [|n IH]; intros E; simpl; [reflexivity|].
  rewrite IH by (intros; apply E; lia). rewrite E by lia. reflexivity.
Qed.

Lemma bsum_plus n F G : bsum n (fun i => F i + G i) = bsum n F + bsum n G.
Proof. induction n as [|n IH]; simpl; [lra|rewrite IH; lra]. Qed.
Lemma bsum_minus n F G : bsum n (fun i => F i - G i) = bsum n F - bsum n G.
Proof. induction n as [|n IH]; simpl; [lra|rewrite IH; lra]. Qed.
Lemma bsum_scal n c F : bsum n (fun i => c * F i) = c * bsum n F.
Proof. induction n as [|n IH]; simpl; [lra|rewrite IH; lra]. Qed.
Lemma bsum_zero n F : (forall i, (i < n)%nat -> F i = 0) -> bsum n F = 0.
Proof.
  induction n as [|n IH]; intros E; simpl; [reflexivity|].
  rewrite IH by (intros; apply E; lia). rewrite E by lia. lra.
Qed.
Lemma bsum_shift n F : bsum (S n) F = F 0%nat + bsum n (fun i => F (S i)).
Proof. induction n as [|n IH]; simpl in *; [lra|rewrite IH; lra]. Qed.
Lemma bsum_extend n m F : (n <= m)%nat -> (forall i, (n <= i < m)%nat -> F i = 0) ->
  bsum m F = bsum n F.
Proof.
  intros Hnm HF. induction m as [|m IH].
  - replace n with 0%nat by lia. reflexivity.
  - destruct (Nat.eq_dec n (S m)) as [->|Hn]; [reflexivity|].
    simpl. rewrite IH by (try lia; intros; apply HF; lia). rewrite HF by lia. lra.
Qed.
Lemma bsum_split n m F : bsum (n + m) F = bsum n F + bsum m (fun i => F (n + i)%nat).
Proof.
  induction m as [|m IH].
  - rewrite Nat.add_0_r; simpl; lra.
  - rewrite Nat.add_succ_r; simpl. rewrite IH. lra.
Qed.
Lemma bsum_rev n F : bsum n F = bsum n (fun i => F (n - 1 - i)%nat).
Proof.
  revert F; induction n as [|n IH]; intros F; [reflexivity|].
  rewrite (bsum_shift n (fun i => F (S n - 1 - i)%nat)).
  cbn [bsum].
  rewrite IH. rewrite Rplus_comm. apply f_equal2; [f_equal; lia|].
  apply bsum_ext. intros i Hi. f_equal. lia.
Qed.
Lemma bsum_le n F G : (forall i, (i < n)%nat -> F i <= G i) -> bsum n F <= bsum n G.
Proof.
  induction n as [|n IH]; intros E; simpl; [lra|].
  assert (bsum n F <= bsum n G) by (apply IH; intros; apply E; lia).
  assert (F n <= G n) by (apply E; lia). lra.
Qed.

Lemma get_over (l : list R) i : (length l <= i)%nat -> get l i = 0.
Proof. exact (get_overflow l i). Qed.
Lemma get_rep0 n i : get (repeat 0 n) i = 0.
Proof. exact (get_repeat n i). Qed.

(** Horner form *)
Fixpoint pev (f : list R) (x : R) : R :=
  match f with [] => 0 | c :: t => c + x * pev t x end.

Lemma psum_from_pev k f x : psum_from k f x = x ^ k * pev f x.
Proof.
  revert k; induction f as [|c t IH]; intros k; simpl; [lra|].
  rewrite IH. simpl. ring.
Qed.
Lemma pval_pev f x : pval f x = pev f x.
Proof. unfold pval. rewrite psum_from_pev. simpl. ring. Qed.

Lemma pval_nil x : pval [] x = 0.
Proof. reflexivity. Qed.
Lemma pval_cons c t x : pval (c :: t) x = c + x * pval t x.
Proof. rewrite !pval_pev. reflexivity. Qed.

Lemma get_cons_S (c : R) t i : get (c :: t) (S i) = get t i.
Proof. reflexivity. Qed.
Lemma get_cons_0 (c : R) t : get (c :: t) 0 = c.
Proof. reflexivity. Qed.
Lemma get_nil i : get (@nil R) i = 0.
Proof. destruct i; reflexivity. Qed.

Lemma pval_bsum f x : pval f x = bsum (length f) (fun i => get f i * x ^ i).
Proof.
  induction f as [|c t IH]; [reflexivity|].
  rewrite pval_cons, IH. cbn [length].
  rewrite bsum_shift. rewrite get_cons_0. simpl (x ^ 0). rewrite Rmult_1_r. f_equal.
  rewrite <- bsum_scal. apply bsum_ext. intros i _.
  rewrite get_cons_S. simpl. ring.
Qed.

Lemma pval_bsum_n n f x : (forall i, (n <= i)%nat -> get f i = 0) ->
  pval f x = bsum n (fun i => get f i * x ^ i).
Proof.
  intros Hz. rewrite pval_bsum.
  destruct (Nat.le_gt_cases n (length f)) as [Hn|Hn].
  - apply bsum_extend; [lia|]. intros i Hi. rewrite Hz by lia. ring.
  - symmetry. apply bsum_extend; [lia|]. intros i Hi.
    rewrite get_over by lia. ring.
Qed.

Lemma pval_bsum_ge n f x : (length f <= n)%nat ->
  pval f x = bsum n (fun i => get f i * x ^ i).
Proof. intros Hn. apply pval_bsum_n. intros i Hi. apply get_over; lia. Qed.

Lemma pval_ext f g : (forall i, get f i = get g i) -> forall x, pval f x = pval g x.
Proof.
  intros E x.
  rewrite (pval_bsum_ge (length f + length g) f) by lia.
  rewrite (pval_bsum_ge (length f + length g) g) by lia.
  apply bsum_ext. intros i _. rewrite E. reflexivity.
Qed.

Lemma pval_app f g x : pval (f ++ g) x = pval f x + x ^ length f * pval g x.
Proof.
  induction f as [|c t IH]; simpl.
  - rewrite pval_nil. ring.
  - rewrite !pval_cons, IH. ring.
Qed.

Lemma pval_repeat0 n x : pval (repeat 0 n) x = 0.
Proof. induction n as [|n IH]; simpl; [apply pval_nil|rewrite pval_cons, IH; ring]. Qed.

Lemma pval_at_0 f : pval f 0 = get f 0.
Proof. destruct f as [|c t]; [reflexivity|]. rewrite pval_cons. unfold get; simpl. ring. Qed.

Lemma get_app f g i : get (f ++ g) i = if (i <? length f)%nat then get f i else get g (i - length f).
Proof.
  unfold get. destruct (Nat.ltb_spec i (length f)).
  - apply app_nth1; assumption.
  - apply app_nth2; assumption.
Qed.

(** Loop shapes used by the code. *)
Lemma inner_down_spec (F : nat -> R -> R -> R) : forall m r,
  (m < length r)%nat ->
  let r' := for_down m m (fun j r => upd r j (F j (get r j) (get r (j - 1)))) r in
  length r' = length r /\
  forall j, get r' j = if ((1 <=? j) && (j <=? m))%nat%bool
                       then F j (get r j) (get r (j - 1)) else get r j.
Proof.
  intros m; induction m as [|m IH]; intros r Hm; cbn zeta.
  - cbn [for_down]. split; [reflexivity|]. intros j.
    destruct (Nat.leb_spec 1 j), (Nat.leb_spec j 0); cbn [andb]; try reflexivity; lia.
  - cbn [for_down Nat.pred].
    set (r1 := upd r (S m) _).
    assert (Hl : length r1 = length r) by apply upd_length.
    destruct (IH r1 ltac:(lia)) as [Hlen Hg]. split; [congruence|].
    intros j. rewrite Hg. unfold r1.
    destruct (Nat.leb_spec 1 j), (Nat.leb_spec j m), (Nat.leb_spec j (S m)); cbn [andb]; try lia.
    + rewrite !get_upd_neq by lia. reflexivity.
    + assert (j = S m) by lia. subst j. rewrite get_upd_eq by lia. reflexivity.
    + rewrite !get_upd_neq by lia. reflexivity.
    + rewrite !get_upd_neq by lia. reflexivity.
Qed.

(** updates at consecutive indices base, base+1, ..., each reading only its own cell *)
Lemma for_up_upd_spec (F : nat -> R -> R) : forall n lo off r,
  (off + lo + n <= length r)%nat ->
  let r' := for_up lo n (fun j r => upd r (off + j) (F j (get r (off + j)))) r in
  length r' = length r /\
  forall i, get r' i = if ((off + lo <=? i) && (i <? off + lo + n))%nat%bool
                       then F (i - off)%nat (get r i) else get r i.
Proof.
  induction n as [|n IH]; intros lo off r Hn; cbn zeta.
  - cbn [for_up]. split; [reflexivity|]. intros i.
    destruct (Nat.leb_spec (off + lo) i), (Nat.ltb_spec i (off + lo + 0)); cbn [andb]; try reflexivity; lia.
  - cbn [for_up]. set (r1 := upd r _ _).
    assert (Hl : length r1 = length r) by apply upd_length.
    destruct (IH (S lo) off r1 ltac:(lia)) as [Hlen Hg]. split; [congruence|].
    intros i. rewrite Hg. unfold r1.
    destruct (Nat.leb_spec (off + S lo) i), (Nat.ltb_spec i (off + S lo + n)),
             (Nat.leb_spec (off + lo) i), (Nat.ltb_spec i (off + lo + S n)); cbn [andb]; try lia;
    try (rewrite !get_upd_neq by lia; reflexivity).
    assert (i = (off + lo)%nat) by lia. subst i. rewrite get_upd_eq by lia.
    f_equal. lia.
Qed.

Lemma nofnat_INR n : nofnat n = INR n.
Proof.
  induction n as [|n IH]; [reflexivity|].
  cbn [nofnat]. rewrite IH, S_INR. reflexivity.
Qed.
