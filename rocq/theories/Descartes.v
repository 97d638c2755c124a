(** Descartes' rule of signs for the model's counting loop. *)
From Verif Require Import PolyCalc RootsModel RootSpec.
Open Scope R_scope.

(* ---------------------------------------------------------------- signs *)
Lemma rsign_cases v : (v = 0 /\ rsign v = 0%Z) \/ (v < 0 /\ rsign v = (-1)%Z) \/ (0 < v /\ rsign v = 1%Z).
Proof.
  unfold rsign. destruct (Reqb_spec v 0); [auto|]. destruct (Rltb_spec v 0); [auto|].
  right; right; split; [lra|reflexivity].
Qed.

Definition chg (last cur : Z) : bool := (negb (Z.eqb cur 0) && negb (Z.eqb last 0) && negb (Z.eqb cur last))%bool.
Definition nxt (last cur : Z) : Z := if negb (Z.eqb cur 0) then cur else last.

(** sign variations with an initial last sign *)
Fixpoint sv (s : Z) (l : list R) : nat :=
  match l with
  | [] => O
  | a :: t => ((if chg s (rsign a) then 1 else 0) + sv (nxt s (rsign a)) t)%nat
  end.
Fixpoint lastsign (s : Z) (l : list R) : Z :=
  match l with [] => s | a :: t => lastsign (nxt s (rsign a)) t end.

Lemma descartes_loop (l : list R) : forall pre n s,
  for_up (length pre) (length l) (fun i '(n, last) =>
         let cur := rsign (get (pre ++ l) i) in
         let change := (negb (Z.eqb cur 0) && negb (Z.eqb last 0) && negb (Z.eqb cur last))%bool in
         ((n + if change then 1 else 0)%nat, if negb (Z.eqb cur 0) then cur else last))
       (n, s) = ((n + sv s l)%nat, lastsign s l).
Proof.
  induction l as [|a t IH]; intros pre n s; cbn [length for_up sv lastsign].
  - f_equal; lia.
  - assert (E : get (pre ++ a :: t) (length pre) = a).
    { rewrite get_app. destruct (Nat.ltb_spec (length pre) (length pre)); [lia|].
      rewrite Nat.sub_diag. reflexivity. }
    cbn zeta. rewrite E.
    specialize (IH (pre ++ [a])). rewrite app_length in IH. cbn [length] in IH.
    rewrite Nat.add_1_r in IH. rewrite <- app_assoc in IH. cbn [app] in IH.
    cbn zeta in IH. rewrite IH. unfold chg, nxt. f_equal. lia.
Qed.

Lemma descartes_sv f : descartes f = sv 0 f.
Proof. unfold descartes. pose proof (descartes_loop f [] 0 0%Z) as H. cbn [app length] in H. rewrite H. reflexivity. Qed.

(* ------------------------------------------------- independence of padding *)
Lemma sv_repeat0 s n : sv s (repeat 0 n) = O.
Proof.
  induction n as [|n IH]; [reflexivity|]. cbn [repeat sv].
  destruct (rsign_cases 0) as [[_ E]|[[H _]|[H _]]]; try lra. rewrite E. cbn. exact IH.
Qed.
Lemma sv_app0 l : forall s n, sv s (l ++ repeat 0 n) = sv s l.
Proof.
  induction l as [|a t IH]; intros s n; cbn [app sv]; [apply sv_repeat0|]. rewrite IH. reflexivity.
Qed.
Lemma same_get_pad (f g : list R) : (forall i, get f i = get g i) ->
  exists n m, f ++ repeat 0 n = g ++ repeat 0 m.
Proof.
  intros E. exists (length g), (length f). apply list_eq_get.
  - rewrite !app_length, !repeat_length. lia.
  - intros i _. rewrite !get_app.
    destruct (Nat.ltb_spec i (length f)), (Nat.ltb_spec i (length g)); rewrite ?get_rep0; auto.
    + rewrite E. apply get_over; assumption.
    + rewrite <- E. symmetry. apply get_over; assumption.
Qed.
Lemma sv_ext s f g : (forall i, get f i = get g i) -> sv s f = sv s g.
Proof.
  intros E. destruct (same_get_pad f g E) as (n & m & H).
  rewrite <- (sv_app0 f s n), <- (sv_app0 g s m), H. reflexivity.
Qed.

(* ------------------------------------------------- coefficients from values *)
Lemma pval_bounded f : exists B, forall x, 0 <= x <= 1 -> Rabs (pval f x) <= B.
Proof.
  induction f as [|c t [B HB]].
  - exists 0. intros x _. rewrite pval_nil, Rabs_R0. lra.
  - exists (Rabs c + B). intros x Hx. rewrite pval_cons.
    apply Rle_trans with (Rabs c + Rabs (x * pval t x)); [apply Rabs_triang|].
    rewrite Rabs_mult, (Rabs_pos_eq x) by lra.
    specialize (HB x Hx). pose proof (Rabs_pos (pval t x)). nra.
Qed.

Lemma pval_zero_pos f : (forall x, 0 < x -> pval f x = 0) -> forall i, get f i = 0.
Proof.
  induction f as [|c t IH]; intros H i; [apply get_nil|].
  assert (Hc : c = 0).
  { destruct (pval_bounded t) as [B HB].
    destruct (Req_dec c 0) as [E|E]; [exact E|exfalso].
    assert (HB0 : 0 <= B) by (specialize (HB 0 ltac:(lra)); pose proof (Rabs_pos (pval t 0)); lra).
    assert (Hc : 0 < Rabs c) by (apply Rabs_pos_lt; exact E).
    set (x := Rmin 1 (Rabs c / (2 * (B + 1)))).
    assert (Hq : 0 < Rabs c / (2 * (B + 1))) by (apply Rdiv_lt_0_compat; lra).
    assert (Hx : 0 < x <= 1) by (unfold x; split; [apply Rmin_glb_lt; lra|apply Rmin_l]).
    specialize (H x ltac:(lra)). rewrite pval_cons in H.
    specialize (HB x ltac:(lra)).
    assert (E2 : Rabs c = x * Rabs (pval t x)).
    { replace c with (- (x * pval t x)) by lra. rewrite Rabs_Ropp, Rabs_mult, (Rabs_pos_eq x) by lra. reflexivity. }
    assert (x * Rabs (pval t x) <= x * B) by (apply Rmult_le_compat_l; lra).
    assert (x * B <= Rabs c / (2 * (B + 1)) * B) by (apply Rmult_le_compat_r; [lra|apply Rmin_r]).
    assert (Rabs c / (2 * (B + 1)) * B <= Rabs c / 2).
    { unfold Rdiv. rewrite Rinv_mult. assert (/ (B + 1) * B <= 1).
      { apply Rmult_le_reg_l with (B + 1); [lra|]. rewrite <- Rmult_assoc, Rinv_r by lra. lra. }
      nra. }
    lra. }
  subst c. destruct i as [|i]; [reflexivity|]. rewrite get_cons_S. apply IH.
  intros x Hx. specialize (H x Hx). rewrite pval_cons in H.
  apply Rmult_eq_reg_l with x; lra.
Qed.

Lemma pval_eq_get f g : (forall x, 0 < x -> pval f x = pval g x) -> forall i, get f i = get g i.
Proof.
  intros H i.
  set (n := Nat.max (length f) (length g)).
  set (d := map (fun k => get f k - get g k) (seq 0 n)).
  assert (Hd : forall k, get d k = get f k - get g k).
  { intros k. unfold d, get at 1. destruct (Nat.lt_ge_cases k n) as [L|L].
    - rewrite nth_indep with (d' := get f 0 - get g 0) by (rewrite map_length, seq_length; exact L).
      rewrite (map_nth (fun k => get f k - get g k)), seq_nth by exact L. reflexivity.
    - rewrite nth_overflow by (rewrite map_length, seq_length; exact L).
      rewrite !get_over by lia. change n0 with 0. lra. }
  assert (Hz : forall x, 0 < x -> pval d x = 0).
  { intros x Hx. specialize (H x Hx).
    rewrite (pval_bsum_ge n f), (pval_bsum_ge n g) in H by lia.
    rewrite (pval_bsum_ge n d) by (unfold d; rewrite map_length, seq_length; lia).
    rewrite (bsum_ext n _ (fun i => get f i * x ^ i - get g i * x ^ i)) by (intros; rewrite Hd; ring).
    rewrite bsum_minus. lra. }
  specialize (Hd i). rewrite (pval_zero_pos d Hz i) in Hd. lra.
Qed.

(* ------------------------------------------------- multiplication by (x-r) *)
Fixpoint mulr (r c : R) (l : list R) : list R :=
  match l with [] => [c] | a :: t => (c - r * a) :: mulr r a t end.

Lemma mulr_val r l : forall c x, pval (mulr r c l) x = c + (x - r) * pval l x.
Proof.
  induction l as [|a t IH]; intros c x; cbn [mulr].
  - rewrite pval_cons, !pval_nil. ring.
  - rewrite !pval_cons, IH. ring.
Qed.

Lemma lastsign_nz s l : s = 1%Z \/ s = (-1)%Z -> lastsign s l = 1%Z \/ lastsign s l = (-1)%Z.
Proof.
  revert s; induction l as [|a t IH]; intros s Hs; cbn [lastsign]; [exact Hs|].
  apply IH. unfold nxt. destruct (rsign_cases a) as [[_ ->]|[[_ ->]|[_ ->]]]; simpl; auto.
Qed.

(** parity of the number of variations *)
Lemma sv_parity l : forall s, s = 1%Z \/ s = (-1)%Z ->
  Nat.even (sv s l) = Z.eqb s (lastsign s l).
Proof.
  induction l as [|a t IH]; intros s Hs; cbn [sv lastsign].
  - rewrite Z.eqb_refl. reflexivity.
  - assert (Hn : nxt s (rsign a) = 1%Z \/ nxt s (rsign a) = (-1)%Z).
    { unfold nxt. destruct (rsign_cases a) as [[_ ->]|[[_ ->]|[_ ->]]]; simpl; auto. }
    rewrite Nat.even_add, (IH _ Hn).
    pose proof (lastsign_nz _ t Hn) as Hl.
    set (L := lastsign (nxt s (rsign a)) t) in *. clearbody L.
    destruct (rsign_cases a) as [[_ E]|[[_ E]|[_ E]]]; rewrite E in *;
      destruct Hs as [-> | ->]; destruct Hl as [-> | ->]; reflexivity.
Qed.

Lemma sv_mulr_ge r (Hr : 0 < r) l : forall s s' c,
  s = 1%Z \/ s = (-1)%Z -> s' = 1%Z \/ s' = (-1)%Z ->
  (rsign c = s \/ (c = 0 /\ s' = s)) ->
  (sv s l + 1 <= sv s' (mulr r c l) + (if Z.eqb s' s then 1 else 0))%nat.
Proof.
  induction l as [|a t IH]; intros s s' c Hs Hs' Hc; cbn [mulr sv].
  - destruct Hc as [Hc|[-> ->]].
    + rewrite Hc. destruct Hs as [-> | ->], Hs' as [-> | ->]; cbn; lia.
    + rewrite Z.eqb_refl. lia.
  - destruct (rsign_cases a) as [[Ha Ea]|[[Ha Ea]|[Ha Ea]]]; rewrite Ea; cbn zeta.
    + (* a = 0 *)
      subst a. replace (c - r * 0) with c by ring.
      destruct Hc as [Hc|[-> ->]].
      * rewrite Hc.
        pose proof (IH s s 0 ltac:(auto) ltac:(auto) ltac:(right; auto)) as P.
        destruct Hs as [-> | ->], Hs' as [-> | ->]; cbn in P |- *; lia.
      * assert (E0 : rsign 0 = 0%Z) by (destruct (rsign_cases 0) as [[_ E]|[[H _]|[H _]]]; [exact E|lra|lra]).
        rewrite E0. cbn [chg nxt Z.eqb negb andb].
        pose proof (IH s s 0 ltac:(auto) ltac:(auto) ltac:(right; auto)) as P.
        cbn. exact P.
    + (* a < 0 *)
      assert (Hra : r * a < 0) by nra.
      pose proof (IH (-1)%Z (-1)%Z a ltac:(auto) ltac:(auto) ltac:(left; auto)) as P1.
      pose proof (IH (-1)%Z 1%Z a ltac:(auto) ltac:(auto) ltac:(left; auto)) as P2.
      destruct (rsign_cases (c - r * a)) as [[Hq Eq]|[[Hq Eq]|[Hq Eq]]]; rewrite Eq;
      destruct Hs as [-> | ->], Hs' as [-> | ->]; cbn in P1, P2 |- *; try lia;
      (* s = 1 : q must be positive *)
      exfalso; destruct Hc as [Hc|[Hc1 Hc2]];
        try (destruct (rsign_cases c) as [[H1 H2]|[[H1 H2]|[H1 H2]]]; rewrite H2 in Hc; try discriminate; lra);
        try discriminate; try lra.
    + (* a > 0 *)
      assert (Hra : 0 < r * a) by nra.
      pose proof (IH 1%Z 1%Z a ltac:(auto) ltac:(auto) ltac:(left; auto)) as P1.
      pose proof (IH 1%Z (-1)%Z a ltac:(auto) ltac:(auto) ltac:(left; auto)) as P2.
      destruct (rsign_cases (c - r * a)) as [[Hq Eq]|[[Hq Eq]|[Hq Eq]]]; rewrite Eq;
      destruct Hs as [-> | ->], Hs' as [-> | ->]; cbn in P1, P2 |- *; try lia;
      exfalso; destruct Hc as [Hc|[Hc1 Hc2]];
        try (destruct (rsign_cases c) as [[H1 H2]|[[H1 H2]|[H1 H2]]]; rewrite H2 in Hc; try discriminate; lra);
        try discriminate; try lra.
Qed.

Lemma lastsign_mulr r (Hr : 0 < r) l : forall s s' c,
  s = 1%Z \/ s = (-1)%Z ->
  (rsign c = s \/ (c = 0 /\ s' = s)) -> lastsign s' (mulr r c l) = lastsign s l.
Proof.
  induction l as [|a t IH]; intros s s' c Hs Hc; cbn [mulr lastsign].
  - destruct Hc as [Hc|[-> ->]].
    + rewrite Hc. destruct Hs as [-> | ->]; reflexivity.
    + destruct (rsign_cases 0) as [[_ E]|[[H _]|[H _]]]; try lra. rewrite E. reflexivity.
  - destruct (rsign_cases a) as [[Ha Ea]|[[Ha Ea]|[Ha Ea]]]; rewrite Ea.
    + subst a. replace (c - r * 0) with c by ring. cbn [nxt Z.eqb negb].
      apply IH; [exact Hs|]. right; split; [reflexivity|].
      destruct Hc as [Hc|[-> ->]].
      * rewrite Hc. destruct Hs as [-> | ->]; reflexivity.
      * destruct (rsign_cases 0) as [[_ E]|[[H _]|[H _]]]; try lra. rewrite E. reflexivity.
    + apply IH; [right; reflexivity|]. left; exact Ea.
    + apply IH; [left; reflexivity|]. left; exact Ea.
Qed.

(** zero prefix *)
Lemma sv_0_prefix l : (forall i, get l i = 0) \/
  exists n a t, l = repeat 0 n ++ a :: t /\ a <> 0.
Proof.
  induction l as [|a t IH]; [left; intros; apply get_nil|].
  destruct (Req_dec a 0) as [-> |Ha].
  - destruct IH as [IH|(n & b & t' & -> & Hb)].
    + left. intros [|i]; [reflexivity|apply IH].
    + right. exists (S n), b, t'. auto.
  - right. exists O, a, t. auto.
Qed.
Lemma rsign0 : rsign 0 = 0%Z.
Proof. destruct (rsign_cases 0) as [[_ E]|[[H _]|[H _]]]; [exact E|lra|lra]. Qed.
Lemma sv_prefix0 s n l : sv s (repeat 0 n ++ l) = sv s l.
Proof.
  induction n as [|n IH]; [reflexivity|]. cbn [repeat app sv]. rewrite rsign0. cbn. exact IH.
Qed.
Lemma mulr_prefix0 r n l : mulr r 0 (repeat 0 n ++ l) = repeat 0 n ++ mulr r 0 l.
Proof.
  induction n as [|n IH]; [reflexivity|]. cbn [repeat app mulr]. rewrite IH. f_equal. ring.
Qed.
Lemma sv_0_nz a t : a <> 0 -> sv 0 (a :: t) = sv (rsign a) t.
Proof.
  intros Ha. cbn [sv]. destruct (rsign_cases a) as [[H _]|[[_ ->]|[_ ->]]]; [lra| |]; reflexivity.
Qed.

(** multiplying by (x-r), r>0, adds an odd number of variations *)
Lemma sv_mulr r g : 0 < r -> ~ (forall i, get g i = 0) ->
  exists k, sv 0 (mulr r 0 g) = (sv 0 g + 1 + 2 * k)%nat.
Proof.
  intros Hr Hg. destruct (sv_0_prefix g) as [H|(n & a & t & -> & Ha)]; [contradiction|].
  rewrite mulr_prefix0, !sv_prefix0. rewrite sv_0_nz by exact Ha. cbn [mulr].
  replace (0 - r * a) with (- (r * a)) by ring.
  assert (Hra : r * a <> 0) by (apply Rmult_integral_contrapositive_currified; lra).
  rewrite sv_0_nz by lra.
  assert (Hsg : (rsign a = 1%Z /\ rsign (- (r * a)) = (-1)%Z) \/ (rsign a = (-1)%Z /\ rsign (- (r * a)) = 1%Z)).
  { destruct (rsign_cases a) as [[H _]|[[H E]|[H E]]]; [lra| |];
    (destruct (rsign_cases (- (r * a))) as [[H' _]|[[H' E']|[H' E']]]; [lra| |]); auto; exfalso; nra. }
  set (s := rsign a) in *. set (s' := rsign (- (r * a))) in *.
  assert (Hs : s = 1%Z \/ s = (-1)%Z) by (destruct Hsg as [[-> _]|[-> _]]; auto).
  assert (Hs' : s' = 1%Z \/ s' = (-1)%Z) by (destruct Hsg as [[_ ->]|[_ ->]]; auto).
  pose proof (sv_mulr_ge r Hr t s s' a Hs Hs' (or_introl eq_refl)) as Hge.
  pose proof (lastsign_mulr r Hr t s s' a Hs (or_introl eq_refl)) as Hls.
  pose proof (sv_parity t s Hs) as Hp1.
  pose proof (sv_parity (mulr r a t) s' Hs') as Hp2.
  rewrite Hls in Hp2. pose proof (lastsign_nz s t Hs) as Hl.
  assert (Hdiff : (sv s t + 1 <= sv s' (mulr r a t))%nat).
  { destruct Hsg as [[E1 E2]|[E1 E2]]; rewrite E1, E2 in Hge |- *; cbn in Hge; lia. }
  assert (Hpar : Nat.even (sv s t) = negb (Nat.even (sv s' (mulr r a t)))).
  { rewrite Hp1, Hp2. destruct Hsg as [[E1 E2]|[E1 E2]]; rewrite E2; rewrite E1 in Hl |- *;
      destruct Hl as [-> | ->]; reflexivity. }
  destruct (Nat.Even_or_Odd (sv s' (mulr r a t) - sv s t - 1)) as [[k Hk]|[k Hk]].
  - exists k. lia.
  - exfalso. replace (sv s' (mulr r a t)) with (sv s t + 2 * (k + 1))%nat in Hpar by lia.
    rewrite Nat.even_add_mul_2 in Hpar. destruct (Nat.even (sv s t)); discriminate.
Qed.

(* ------------------------------------------------- no positive root: even *)
Lemma pval_continuity f : continuity (pval f).
Proof. intros x. apply derivable_continuous_pt. exists (pval (fder f) x). apply pval_derivable. Qed.

Lemma same_sign_of_no_root f (a b : R) : 0 < a -> a <= b ->
  (forall x, 0 < x -> pval f x <> 0) -> 0 < pval f a * pval f b.
Proof.
  intros Ha Hab Hn.
  destruct (Req_dec a b) as [-> |Hne].
  { assert (pval f b <> 0) by (apply Hn; lra). nra. }
  pose proof (Hn a Ha). pose proof (Hn b ltac:(lra)).
  destruct (Rlt_or_le 0 (pval f a * pval f b)) as [L|L]; [exact L|exfalso].
  assert (Hs : pval f a * pval f b <= 0) by exact L.
  destruct (IVT_cor (pval f) a b (pval_continuity f) Hab Hs) as [z [Hz1 Hz2]].
  apply (Hn z); [lra|exact Hz2].
Qed.

(** sign near zero is the sign of the first non-zero coefficient *)
Lemma sign_near_zero a t : a <> 0 -> exists d, 0 < d /\ forall x, 0 < x -> x <= d -> 0 < pval (a :: t) x * a.
Proof.
  intros Ha. destruct (pval_bounded t) as [B HB].
  assert (HB0 : 0 <= B) by (specialize (HB 0 ltac:(lra)); pose proof (Rabs_pos (pval t 0)); lra).
  assert (Hc : 0 < Rabs a) by (apply Rabs_pos_lt; exact Ha).
  assert (Hq : 0 < Rabs a / (2 * (B + 1))) by (apply Rdiv_lt_0_compat; lra).
  exists (Rmin 1 (Rabs a / (2 * (B + 1)))). split; [apply Rmin_glb_lt; lra|].
  intros x Hx0 Hx.
  assert (Hx1 : x <= 1) by (eapply Rle_trans; [exact Hx|apply Rmin_l]).
  assert (Hx2 : x <= Rabs a / (2 * (B + 1))) by (eapply Rle_trans; [exact Hx|apply Rmin_r]).
  specialize (HB x ltac:(lra)). rewrite pval_cons.
  assert (Hb : Rabs (x * pval t x) <= Rabs a / 2).
  { rewrite Rabs_mult, (Rabs_pos_eq x) by lra.
    apply Rle_trans with (Rabs a / (2 * (B + 1)) * B).
    - apply Rmult_le_compat; try lra. apply Rabs_pos.
    - unfold Rdiv. rewrite Rinv_mult. assert (/ (B + 1) * B <= 1).
      { apply Rmult_le_reg_l with (B + 1); [lra|]. rewrite <- Rmult_assoc, Rinv_r by lra. lra. }
      nra. }
  pose proof (Rabs_pos (x * pval t x)).
  assert (- (Rabs a / 2) <= x * pval t x <= Rabs a / 2).
  { unfold Rabs in Hb at 1. destruct (Rcase_abs (x * pval t x)); lra. }
  unfold Rabs in *. destruct (Rcase_abs a); nra.
Qed.

Lemma pval_prefix0 n l x : pval (repeat 0 n ++ l) x = x ^ n * pval l x.
Proof. rewrite pval_app, pval_repeat0, repeat_length. ring. Qed.

Lemma rev_repeat {A} (a : A) n : rev (repeat a n) = repeat a n.
Proof.
  induction n as [|n IH]; [reflexivity|]. cbn [repeat rev]. rewrite IH.
  clear IH. induction n as [|n IH]; [reflexivity|]. cbn [repeat app]. rewrite IH. reflexivity.
Qed.

Lemma lastsign_app s l m : lastsign s (l ++ m) = lastsign (lastsign s l) m.
Proof. revert s; induction l as [|a t IH]; intros s; cbn [app lastsign]; auto. Qed.
Lemma lastsign_repeat0 s n : lastsign s (repeat 0 n) = s.
Proof. induction n as [|n IH]; [reflexivity|]. cbn [repeat lastsign]. rewrite rsign0. exact IH. Qed.

(** sign for large x is the sign of the last non-zero coefficient *)
Lemma sign_near_inf f u b m : f = u ++ b :: repeat 0 m -> b <> 0 ->
  exists X, 0 < X /\ forall x, X <= x -> 0 < pval f x * b.
Proof.
  intros -> Hb.
  destruct (sign_near_zero b (rev u) Hb) as (d & Hd & Hs).
  exists (/ d). split; [apply Rinv_0_lt_compat; exact Hd|]. intros x Hx.
  assert (Hid : 0 < / d) by (apply Rinv_0_lt_compat; exact Hd).
  assert (Hx0 : 0 < x) by lra.
  assert (Hx1 : / x <= d).
  { rewrite <- (Rinv_inv d). apply Rinv_le_contravar; lra. }
  specialize (Hs (/ x) ltac:(apply Rinv_0_lt_compat; lra) Hx1).
  replace (b :: rev u) with (rev (u ++ [b])) in Hs by (rewrite rev_app_distr; reflexivity).
  rewrite pval_rev in Hs; [|apply Rinv_neq_0_compat; lra|destruct u; discriminate].
  rewrite Rinv_inv in Hs.
  replace (u ++ b :: repeat 0 m) with ((u ++ [b]) ++ repeat 0 m) by (rewrite <- app_assoc; reflexivity).
  rewrite pval_app, pval_repeat0, Rmult_0_r, Rplus_0_r.
  assert (Hp : 0 < (/ x) ^ porder (u ++ [b])) by (apply pow_lt; apply Rinv_0_lt_compat; lra).
  rewrite Rmult_assoc in Hs.
  apply Rmult_lt_reg_l with ((/ x) ^ porder (u ++ [b])); [exact Hp|]. lra.
Qed.

Lemma no_root_even g : ~ (forall i, get g i = 0) -> (forall x, 0 < x -> pval g x <> 0) ->
  Nat.even (sv 0 g) = true.
Proof.
  intros Hg Hn. destruct (sv_0_prefix g) as [H|(n & a & t & E & Ha)]; [contradiction|].
  destruct (sv_0_prefix (rev g)) as [H|(m & b & u & E' & Hb)].
  { exfalso. apply Hg. intros i. destruct (Nat.lt_ge_cases i (length g)) as [L|L]; [|apply get_over; exact L].
    specialize (H (length g - S i)%nat). unfold get in H |- *. rewrite rev_nth in H by lia.
    replace (length g - S (length g - S i))%nat with i in H by lia. exact H. }
  assert (E2 : g = rev u ++ b :: repeat 0 m).
  { rewrite <- (rev_involutive g), E', rev_app_distr. cbn [rev]. rewrite rev_repeat, <- app_assoc. reflexivity. }
  destruct (sign_near_inf g (rev u) b m E2 Hb) as (X & HX & HsX).
  destruct (sign_near_zero a t Ha) as (d & Hd & Hsd).
  assert (Hsig : 0 < a * b).
  { set (x0 := Rmin d X). assert (H0 : 0 < x0) by (apply Rmin_glb_lt; lra).
    specialize (Hsd x0 H0 (Rmin_l _ _)). specialize (HsX X ltac:(lra)).
    pose proof (same_sign_of_no_root g x0 X H0 (Rmin_r _ _) Hn) as Hss.
    assert (Hg0 : pval g x0 = x0 ^ n * pval (a :: t) x0) by (rewrite E at 1; apply pval_prefix0).
    assert (Hp : 0 < x0 ^ n) by (apply pow_lt; exact H0).
    assert (H1 : 0 < pval g x0 * a).
    { rewrite Hg0, Rmult_assoc. apply Rmult_lt_0_compat; assumption. }
    clear - H1 HsX Hss. 
    set (p := pval g x0) in *. set (q := pval g X) in *.
    assert (0 < (p * a) * (q * b) * (p * q)) by (apply Rmult_lt_0_compat; [apply Rmult_lt_0_compat|]; assumption).
    assert (E : (p * a) * (q * b) * (p * q) = (p * q) * (p * q) * (a * b)) by ring.
    rewrite E in H. apply Rmult_lt_reg_l with ((p * q) * (p * q)); [apply Rmult_lt_0_compat; assumption|lra]. }
  rewrite E, sv_prefix0, sv_0_nz by exact Ha.
  assert (Hs : rsign a = 1%Z \/ rsign a = (-1)%Z).
  { destruct (rsign_cases a) as [[H _]|[[_ ->]|[_ ->]]]; auto; lra. }
  rewrite sv_parity by exact Hs.
  assert (L : lastsign (rsign a) t = rsign b).
  { assert (L1 : lastsign 0 g = lastsign (rsign a) t).
    { rewrite E, lastsign_app, lastsign_repeat0. cbn [lastsign].
      destruct Hs as [-> | ->]; reflexivity. }
    rewrite <- L1, E2, lastsign_app. cbn [lastsign]. rewrite lastsign_repeat0.
    unfold nxt. destruct (rsign_cases b) as [[H _]|[[_ ->]|[_ ->]]]; [lra| |]; reflexivity. }
  rewrite L. apply Z.eqb_eq.
  destruct (rsign_cases a) as [[H _]|[[H ->]|[H ->]]]; [lra| |];
  (destruct (rsign_cases b) as [[H' _]|[[H' ->]|[H' ->]]]; [lra| |]); auto; exfalso; nra.
Qed.

(* ------------------------------------------------- Descartes' rule *)
Theorem descartes_rule f rs : roots_in positive f rs ->
  exists k, descartes f = (length rs + 2 * k)%nat.
Proof.
  rewrite descartes_sv. intros [Hp (g & Hfg & Hg)].
  revert f Hfg. induction Hp as [|r rs Hr Hrs IH]; intros f Hfg.
  - assert (Hgz : ~ (forall i, get g i = 0)).
    { intros Z. apply (Hg 1); [unfold positive; lra|].
      rewrite (pval_ext g []) by (intros i; rewrite Z, get_nil; reflexivity). apply pval_nil. }
    assert (E : sv 0 f = sv 0 g).
    { apply sv_ext, pval_eq_get. intros x _. rewrite Hfg. cbn [prod_roots]. ring. }
    rewrite E. pose proof (no_root_even g Hgz Hg) as He.
    apply Nat.even_spec in He. destruct He as [k Hk]. exists k. simpl. lia.
  - (* f = (x - r) h, h = prod rs * g *)
    assert (Hh : exists h, forall x, pval h x = prod_roots rs x * pval g x).
    { clear - rs. induction rs as [|r' rs' [h Hh]].
      - exists g. intros x. cbn [prod_roots]. ring.
      - exists (mulr r' 0 h). intros x. rewrite mulr_val, Hh. cbn [prod_roots]. ring. }
    destruct Hh as [h Hh]. destruct (IH h Hh) as [k Hk].
    assert (Hhz : ~ (forall i, get h i = 0)).
    { intros Z. 
      assert (Zv : forall x, pval h x = 0).
      { intros x. rewrite (pval_ext h []) by (intros i; rewrite Z, get_nil; reflexivity). apply pval_nil. }
      (* a point larger than all roots *)
      set (X := fold_right Rmax 1 rs + 1).
      assert (HX : forall z, In z rs -> z < X).
      { intros z Hz. unfold X. clear - Hz. induction rs as [|y t IHt]; [destruct Hz|].
        cbn [fold_right]. destruct Hz as [-> |Hz].
        - pose proof (Rmax_l z (fold_right Rmax 1 t)). lra.
        - specialize (IHt Hz). pose proof (Rmax_r y (fold_right Rmax 1 t)). lra. }
      assert (HX1 : 0 < X).
      { unfold X. assert (1 <= fold_right Rmax 1 rs); [|lra]. clear. induction rs as [|y t IHt]; cbn [fold_right]; [lra|].
        pose proof (Rmax_r y (fold_right Rmax 1 t)). lra. }
      assert (HP : 0 < prod_roots rs X).
      { clear - HX. clearbody X. induction rs as [|y t IHt]; cbn [prod_roots]; [lra|].
        apply Rmult_lt_0_compat; [specialize (HX y (or_introl eq_refl)); lra|].
        apply IHt. intros z Hz. apply HX. right; exact Hz. }
      specialize (Zv X). rewrite Hh in Zv. apply Rmult_integral in Zv.
      destruct Zv as [Zv|Zv]; [lra|]. exact (Hg X HX1 Zv). }
    destruct (sv_mulr r h Hr Hhz) as [k' Hk'].
    assert (E : sv 0 f = sv 0 (mulr r 0 h)).
    { apply sv_ext, pval_eq_get. intros x _. rewrite Hfg, mulr_val, Hh. cbn [prod_roots]. ring. }
    exists (k + k')%nat. rewrite E, Hk', Hk. simpl length. lia.
Qed.

(** existence of the factorisation *)
Lemma divide_root f r : f <> [] -> pval f r = 0 ->
  exists g, length g = (length f - 1)%nat /\ forall x, pval f x = (x - r) * pval g x.
Proof.
  intros Hf Hr.
  set (g := map (fun i => beta f r i) (seq 0 (porder f))).
  pose proof (order_length f Hf) as Hl.
  exists g. assert (Hg : length g = porder f) by (unfold g; rewrite map_length, seq_length; reflexivity).
  split; [lia|].
  apply (quotient_val f g r (porder f)); auto.
  intros j Hj. unfold g, get.
  rewrite nth_indep with (d' := beta f r 0) by (rewrite map_length, seq_length; exact Hj).
  rewrite map_nth, seq_nth by exact Hj. reflexivity.
Qed.

Lemma roots_in_exists (S : R -> Prop) f : not_zero f -> exists rs, roots_in S f rs.
Proof.
  remember (length f) as n eqn:En. revert f En.
  induction n as [|n IH]; intros f En [c [Hc Hc0]].
  { destruct f; [destruct Hc|discriminate]. }
  destruct (Classical_Prop.classic (exists r, S r /\ pval f r = 0)) as [(r & HSr & Hr)|Hno].
  - assert (Hf : f <> []) by (intros ->; destruct Hc).
    destruct (divide_root f r Hf Hr) as (g & Hg & Hfg).
    assert (Hgz : not_zero g).
    { destruct (Classical_Prop.classic (not_zero g)) as [H|H]; [exact H|exfalso].
      assert (Zg : forall i, get g i = 0).
      { intros i. destruct (Nat.lt_ge_cases i (length g)) as [L|L]; [|apply get_over; exact L].
        destruct (Req_dec (get g i) 0) as [E|E]; [exact E|]. exfalso. apply H. exists (get g i).
        split; [apply nth_In; exact L|exact E]. }
      assert (Zf : forall i, get f i = 0).
      { intros i. rewrite <- (get_nil i). apply pval_eq_get. intros x _.
        rewrite Hfg, (pval_ext g []) by (intros k; rewrite Zg, get_nil; reflexivity).
        rewrite !pval_nil. ring. }
      destruct (In_nth f c 0 Hc) as (i & Hi & Ei). apply Hc0. rewrite <- Ei. exact (Zf i). }
    destruct (IH g ltac:(lia) Hgz) as (rs & H1 & h & H2 & H3).
    exists (r :: rs). split; [constructor; assumption|].
    exists h. split; [|exact H3]. intros x. rewrite Hfg, H2. cbn [prod_roots]. ring.
  - exists []. split; [constructor|]. exists f. split; [intros x; cbn [prod_roots]; ring|].
    intros x Hx E. apply Hno. exists x. auto.
Qed.

Lemma roots_in_In S f rs x : roots_in S f rs -> S x -> (pval f x = 0 <-> In x rs).
Proof.
  intros [_ (g & Hfg & Hg)] Hx. rewrite Hfg. split.
  - intros E. apply Rmult_integral in E. destruct E as [E|E]; [|exfalso; exact (Hg x Hx E)].
    clear - E. induction rs as [|r t IH]; cbn [prod_roots] in E; [lra|].
    apply Rmult_integral in E. destruct E as [E|E]; [left; lra|right; auto].
  - intros Hin. assert (E : prod_roots rs x = 0).
    { clear - Hin. induction rs as [|r t IH]; [destruct Hin|]. cbn [prod_roots].
      destruct Hin as [-> |Hin]; [ring|rewrite (IH Hin); ring]. }
    rewrite E. ring.
Qed.

(** consequences used by the isolation algorithms *)
Lemma descartes_0 f : not_zero f -> descartes f = 0%nat -> forall x, 0 < x -> pval f x <> 0.
Proof.
  intros Hf H0 x Hx E. destruct (roots_in_exists positive f Hf) as [rs Hrs].
  destruct (descartes_rule f rs Hrs) as [k Hk].
  apply (roots_in_In positive f rs x Hrs Hx) in E. destruct rs; [destruct E|simpl in Hk; lia].
Qed.
Lemma descartes_1 f : not_zero f -> descartes f = 1%nat ->
  exists r, 0 < r /\ roots_in positive f [r] /\ pval f r = 0 /\ forall x, 0 < x -> pval f x = 0 -> x = r.
Proof.
  intros Hf H1. destruct (roots_in_exists positive f Hf) as [rs Hrs].
  destruct (descartes_rule f rs Hrs) as [k Hk].
  destruct rs as [|r [|r' t]]; simpl in Hk; try lia.
  assert (Hr : 0 < r) by (destruct Hrs as [Hp _]; inversion Hp; assumption).
  exists r. split; [exact Hr|]. split; [exact Hrs|].
  split; [apply (roots_in_In positive f [r] r Hrs Hr); left; reflexivity|].
  intros x Hx E. apply (roots_in_In positive f [r] x Hrs Hx) in E. destruct E as [->|[]]. reflexivity.
Qed.
