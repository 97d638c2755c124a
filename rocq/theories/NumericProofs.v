From Verif Require Import Num Outcome PolyModel NumericModel.
From Coq Require Import Lra Lia Reals ZArith.
Open Scope R_scope.

Lemma nabs_R (x : R) : nabs x = Rabs x.
Proof.
  unfold nabs. cbn [nltb n0 nopp R_num].
  unfold Rabs, Rltb. destruct (Rlt_dec x 0), (Rcase_abs x); lra.
Qed.

Lemma signbit_R (x : R) : signbit x = Rltb x 0.
Proof. reflexivity. Qed.

Lemma n2_R : @n2 R R_num = 2.
Proof. unfold n2; cbn. lra. Qed.

Lemma mid_R (a b : R) : ndiv (nadd a b) n2 = (a + b) / 2.
Proof. rewrite n2_R. reflexivity. Qed.

(** "f changes sign between a and b" in the sense of std::signbit *)
Definition sign_differs (f : R -> R) (a b : R) : Prop :=
  (f a < 0 /\ 0 <= f b) \/ (0 <= f a /\ f b < 0).

Lemma signbit_neq (u v : R) :
  Bool.eqb (signbit u) (signbit v) = false <-> (u < 0 /\ 0 <= v) \/ (0 <= u /\ v < 0).
Proof.
  rewrite !signbit_R. destruct (Rltb_spec u 0), (Rltb_spec v 0); simpl; split; intros; try discriminate; try lra; auto.
Qed.

Lemma signbit_eq (u v : R) :
  Bool.eqb (signbit u) (signbit v) = true <-> (u < 0 /\ v < 0) \/ (0 <= u /\ 0 <= v).
Proof.
  rewrite !signbit_R. destruct (Rltb_spec u 0), (Rltb_spec v 0); simpl; split; intros; try discriminate; try lra; auto.
Qed.

Definition bisect_ok (f : R -> R) (prec lo hi x : R) : Prop :=
  f x = 0 \/
  exists a b, lo <= a /\ a < b /\ b <= hi /\ a <= x <= b /\ sign_differs f a b /\
              (forall y, a <= y <= b -> Rabs (y - x) < Rabs (prec * x)).

Lemma bisect_loop_correct f prec lo0 hi0 x0 (Hx0 : x0 = lo0 \/ x0 = hi0) : forall n lo hi fh tr,
  lo0 <= lo -> lo < hi -> hi <= hi0 -> fh = f hi -> sign_differs f lo hi ->
  Forall (fun y => lo0 <= y <= hi0) tr ->
  let '(ok, x, tr') := bisect_loop n f prec x0 lo hi fh tr in
  lo0 <= x <= hi0 /\ Forall (fun y => lo0 <= y <= hi0) tr' /\
  (ok = true -> bisect_ok f prec lo0 hi0 x) /\
  (ok = false -> length tr' = n + length tr)%nat.
Proof.
  induction n as [|n IH]; intros lo hi fh tr Hlo Hlt Hhi Hfh Hs Htr; cbn [bisect_loop].
  - repeat split; try lra; auto; try discriminate.
  - rewrite mid_R. set (m := (lo + hi) / 2).
    assert (Hm : lo < m < hi) by (unfold m; lra).
    assert (Htr' : Forall (fun y => lo0 <= y <= hi0) (m :: tr)) by (constructor; [lra|exact Htr]).
    cbn [nltb neqb nsub nmul n0 R_num]. rewrite !nabs_R.
    destruct (Reqb_spec m lo) as [E|_]; [lra|].
    destruct (Reqb_spec m hi) as [E|_]; [lra|].
    rewrite !orb_false_r.
    destruct (Rltb_spec (Rabs (m - x0)) (Rabs (prec * m))) as [Hd|Hd]; cbn [orb].
    { split; [lra|]. split; [exact Htr'|]. split; [intros _|discriminate]. right. exists lo, hi.
      repeat split; try lra; auto.
      intros y Hy.
      assert (Hy' : Rabs (y - m) <= m - lo).
      { unfold Rabs; destruct (Rcase_abs (y - m)); unfold m in *; lra. }
      destruct Hx0 as [-> | ->].
      + apply Rle_lt_trans with (Rabs (m - lo0)); [|exact Hd].
        rewrite (Rabs_pos_eq (m - lo0)) by lra. lra.
      + apply Rle_lt_trans with (Rabs (m - hi0)); [|exact Hd].
        rewrite (Rabs_left (m - hi0)) by lra. unfold m in *; lra. }
    destruct (Reqb_spec (f m) 0) as [E|E].
    { split; [lra|]. split; [exact Htr'|]. split; [intros _|discriminate]. left; exact E. }
    destruct (Bool.eqb (signbit (f m)) (signbit fh)) eqn:Es.
    + specialize (IH lo m (f m) (m :: tr)).
      destruct (bisect_loop n f prec x0 lo m (f m) (m :: tr)) as [[ok x] tr'].
      apply signbit_eq in Es. subst fh.
      destruct IH as (H1 & H2 & H3 & H4); try lra; auto.
      { unfold sign_differs in *. lra. }
      repeat split; auto; try lra. intros Hf; rewrite (H4 Hf); simpl; lia.
    + specialize (IH m hi fh (m :: tr)).
      destruct (bisect_loop n f prec x0 m hi fh (m :: tr)) as [[ok x] tr'].
      apply signbit_neq in Es. subst fh.
      destruct IH as (H1 & H2 & H3 & H4); try lra; auto.
      repeat split; auto; try lra. intros Hf; rewrite (H4 Hf); simpl; lia.
Qed.

(** continuous functions: the bracket contains a root *)
Lemma sign_differs_root f a b : a < b -> continuity f -> sign_differs f a b ->
  exists r, a <= r <= b /\ f r = 0.
Proof.
  intros Hab Hc [[H1 H2]|[H1 H2]].
  - destruct (Req_dec (f b) 0) as [E|E]; [exists b; lra|].
    destruct (IVT f a b Hc Hab H1 ltac:(lra)) as [r Hr]. exists r; tauto.
  - destruct (Req_dec (f a) 0) as [E|E]; [exists a; lra|].
    destruct (IVT (fun x => - f x) a b) as [r [Hr1 Hr2]]; try lra.
    { intros x. apply continuity_pt_opp. apply Hc. }
    exists r; split; [exact Hr1|lra].
Qed.

(* ------------------------------------------------------------------ *)
(** Termination on a grid: any number type whose order embeds in Z and whose
    computed midpoint of lo < hi lies between them. *)
Section Grid.
Context {K : Type} {HK : Num K}.
Variable idx : K -> Z.
Hypothesis idx_lt : forall a b, nltb a b = true <-> (idx a < idx b)%Z.
Hypothesis idx_eq : forall a b, neqb a b = true <-> idx a = idx b.
Hypothesis idx_mid : forall a b, (idx a < idx b)%Z ->
  (idx a <= idx (ndiv (nadd a b) n2) <= idx b)%Z.

Lemma bisect_loop_grid f prec x0 : forall n lo hi fh tr,
  (idx lo < idx hi)%Z -> (idx hi - idx lo <= Z.of_nat n)%Z ->
  exists x tr', bisect_loop n f prec x0 lo hi fh tr = (true, x, tr').
Proof.
  induction n as [|n IH]; intros lo hi fh tr Hlt Hn; [lia|].
  cbn [bisect_loop].
  pose proof (idx_mid lo hi Hlt) as Hm.
  set (m := ndiv (nadd lo hi) n2) in *.
  destruct (nltb (nabs (nsub m x0)) (nabs (nmul prec m)) || neqb (f m) n0) eqn:E1; cbn [orb].
  { eauto. }
  destruct (neqb m lo) eqn:E2; cbn [orb]; [eauto|].
  destruct (neqb m hi) eqn:E3; cbn [orb]; [eauto|].
  assert (idx m <> idx lo) by (intros E; apply idx_eq in E; congruence).
  assert (idx m <> idx hi) by (intros E; apply idx_eq in E; congruence).
  destruct (Bool.eqb _ _); apply IH; lia.
Qed.
End Grid.

(* ------------------------------------------------------------------ *)
(** x - 1/3 on [0,1]: bisection never meets its own precision test *)
Fixpoint pow3free (k : nat) : (Z.pow 2 (Z.of_nat k) mod 3 <> 0)%Z.
Proof.
  destruct k as [|k]; [discriminate|].
  rewrite Nat2Z.inj_succ, Z.pow_succ_r by lia.
  specialize (pow3free k).
  rewrite Z.mul_mod by lia.
  pose proof (Z.mod_pos_bound (2 ^ Z.of_nat k) 3 ltac:(lia)).
  set (r := (2 ^ Z.of_nat k mod 3)%Z) in *.
  assert (r = 1 \/ r = 2)%Z as [-> | ->] by lia; discriminate.
Qed.

Lemma dyadic_third (k : Z) (n : nat) : IZR k / 2 ^ n <> / 3.
Proof.
  intros E.
  assert (H : (2 ^ n > 0)) by (apply pow_lt; lra).
  assert (E2 : IZR k * 3 = 2 ^ n).
  { replace (IZR k) with (IZR k / 2 ^ n * 2 ^ n) by (field; lra). rewrite E. field. }
  rewrite <- (mult_IZR k 3) in E2.
  assert (E3 : IZR (2 ^ Z.of_nat n) = 2 ^ n) by (rewrite <- pow_IZR; reflexivity).
  rewrite <- E3 in E2. apply eq_IZR in E2.
  apply (pow3free n). rewrite <- E2. apply Z.mod_mul; lia.
Qed.

Lemma third_loop prec (Hp : 0 < prec <= 1) : forall n j k tr fh,
  0 <= IZR k / 2 ^ j -> IZR k / 2 ^ j < / 3 < IZR (k + 1) / 2 ^ j -> fh = IZR (k+1) / 2 ^ j - / 3 ->
  exists tr', bisect_loop n (fun x => x - / 3) prec 0 (IZR k / 2 ^ j) (IZR (k + 1) / 2 ^ j) fh tr
              = (false, 0, tr').
Proof.
  induction n as [|n IH]; intros j k tr fh H0 [H1 H2] Hf; cbn [bisect_loop].
  - eauto.
  - rewrite mid_R. cbn [nltb neqb nsub nmul n0 R_num]. rewrite !nabs_R.
    assert (Hpw : 2 ^ j > 0) by (apply pow_lt; lra).
    assert (Em : (IZR k / 2 ^ j + IZR (k + 1) / 2 ^ j) / 2 = IZR (2 * k + 1) / 2 ^ (S j)).
    { rewrite plus_IZR, plus_IZR, mult_IZR. simpl. field. lra. }
    rewrite Em. set (m := IZR (2 * k + 1) / 2 ^ S j) in *.
    assert (Hw : IZR (k+1) / 2 ^ j = IZR k / 2 ^ j + / 2 ^ j) by (rewrite plus_IZR; field; lra).
    assert (0 < / 2 ^ j) by (apply Rinv_0_lt_compat; lra).
    assert (Hm0 : 0 < m) by lra.
    assert (m <> / 3) by (apply dyadic_third).
    destruct (Rltb_spec (Rabs (m - 0)) (Rabs (prec * m))) as [Hd|_].
    { exfalso. rewrite !Rabs_pos_eq in Hd by (try lra; apply Rmult_le_pos; lra).
      assert (prec * m <= 1 * m) by (apply Rmult_le_compat_r; lra). lra. }
    destruct (Reqb_spec (m - / 3) 0) as [E|_]; [lra|].
    destruct (Reqb_spec m (IZR k / 2 ^ j)) as [E|_]; [lra|].
    destruct (Reqb_spec m (IZR (k+1) / 2 ^ j)) as [E|_]; [lra|].
    cbn [orb].
    assert (E1 : IZR k / 2 ^ j = IZR (2 * k) / 2 ^ S j) by (rewrite mult_IZR; simpl; field; lra).
    assert (E2 : IZR (k + 1) / 2 ^ j = IZR (2 * k + 1 + 1) / 2 ^ S j)
      by (rewrite !plus_IZR, mult_IZR; simpl; field; lra).
    destruct (Bool.eqb _ _) eqn:Es.
    + apply signbit_eq in Es. rewrite E1. unfold m. apply IH; rewrite <- ?E1; fold m; try lra.
      
    + apply signbit_neq in Es. rewrite E2. unfold m. apply IH; rewrite <- ?E2; fold m; try lra.
Qed.
