(** C85: polynomials whose coefficients are from any commutative ring (int, complex, ...). *)
From Flocq Require Core.Float_prop.
From Flocq Require Import Core.Zaux Core.Defs.
From Coq Require Import List Arith Lia Ring Ring_theory ZArith Reals Lra String Bool.
From Verif Require Import Outcome Num PolyModel ComplexModel.
From Verif Require Import FloatModel FloatSpec FloatProofs FloatTextModel FloatTextSpec ParserSpec FloatText PropFloatText.
From Verif Require Import FloatQuad PropFloatPoly.
Import ListNotations.
Local Open Scope nat_scope.

(** ** Specification *)
(** The coefficient type is a commutative ring under its operations. *)
Definition commutative_ring (K : Type) (N : Num K) : Prop :=
  ring_theory n0 n1 nadd nmul nsub nopp (@eq K).
(** ... in which one can divide by everything but zero, and == decides equality. *)
Definition field_of_numbers (K : Type) (N : Num K) : Prop :=
  commutative_ring K N /\ (forall a b : K, b <> n0 -> nmul (ndiv a b) b = a) /\
  (forall a b : K, neqb a b = true <-> a = b).

Fixpoint power {K} {N : Num K} (x : K) (n : nat) : K :=
  match n with O => n1 | S k => nmul x (power x k) end.
(** F 0 + F 1 + ... + F (n-1) *)
Fixpoint sum_of {K} {N : Num K} (n : nat) (F : nat -> K) : K :=
  match n with O => n0 | S k => nadd (sum_of k F) (F k) end.
(** c0 + c1 x + ... *)
Definition power_sum {K} {N : Num K} (f : list K) (x : K) : K :=
  sum_of (length f) (fun i => nmul (nth i f n0) (power x i)).
(** n times 1 *)
Fixpoint times {K} {N : Num K} (n : nat) (a : K) : K :=
  match n with O => n0 | S k => nadd (times k a) a end.
(** c1 + 2 c2 x + 3 c3 x^2 + ... *)
Definition slope_sum {K} {N : Num K} (f : list K) (x : K) : K :=
  sum_of (length f - 1) (fun i => nmul (times (S i) (nth (S i) f n0)) (power x i)).

Section Ring.
Context {K : Type} {N : Num K}.
Hypothesis RT : commutative_ring K N.
Add Ring Kring : (RT : ring_theory n0 n1 nadd nmul nsub nopp (@eq K)).
Declare Scope k_scope.
Local Notation "0" := (n0 : K) : k_scope.
Local Notation "1" := (n1 : K) : k_scope.
Local Infix "+" := (nadd : K -> K -> K) : k_scope.
Local Infix "-" := (nsub : K -> K -> K) : k_scope.
Local Infix "*" := (nmul : K -> K -> K) : k_scope.
Local Notation "- a" := ((nopp : K -> K) a) : k_scope.
Local Open Scope k_scope.

Lemma sum_ext n F G : (forall i, (i < n)%nat -> F i = G i) -> sum_of n F = sum_of n G.
Proof. induction n as [|n IH]; intros E; [reflexivity|]. cbn [sum_of]. rewrite IH by (intros; apply E; lia). now rewrite E by lia. Qed.
Lemma sum_zero n F : (forall i, (i < n)%nat -> F i = 0) -> sum_of n F = 0.
Proof. induction n as [|n IH]; intros E; [reflexivity|]. cbn [sum_of]. rewrite IH by (intros; apply E; lia). rewrite E by lia. ring. Qed.
Lemma sum_add n F G : sum_of n (fun i => F i + G i) = sum_of n F + sum_of n G.
Proof. induction n as [|n IH]; cbn [sum_of]; [ring|rewrite IH; ring]. Qed.
Lemma sum_scale n c F : sum_of n (fun i => c * F i) = c * sum_of n F.
Proof. induction n as [|n IH]; cbn [sum_of]; [ring|rewrite IH; ring]. Qed.
Lemma sum_shift n F : sum_of (S n) F = F 0%nat + sum_of n (fun i => F (S i)).
Proof. induction n as [|n IH]; [cbn; ring|]. change (sum_of (S (S n)) F) with (sum_of (S n) F + F (S n)). rewrite IH. cbn [sum_of]. ring. Qed.
Lemma sum_extend n m F : (n <= m)%nat -> (forall i, (n <= i < m)%nat -> F i = 0) -> sum_of m F = sum_of n F.
Proof.
  intros Hn HF. induction m as [|m IH]; [now replace n with 0%nat by lia|].
  destruct (Nat.eq_dec n (S m)) as [->|Ne]; [reflexivity|]. cbn [sum_of]. rewrite IH by (lia || (intros; apply HF; lia)). rewrite HF by lia. ring.
Qed.
(** the power sum of the first n coefficients *)
Definition V (n : nat) (F : nat -> K) (x : K) : K := sum_of n (fun i => F i * power x i).
Lemma ps_V f x : power_sum f x = V (length f) (get f) x. Proof. reflexivity. Qed.
Lemma get_over_k (f : list K) i : (length f <= i)%nat -> get f i = 0.
Proof. intros H. unfold get. now apply nth_overflow. Qed.
Lemma ps_ge n f x : (length f <= n)%nat -> power_sum f x = V n (get f) x.
Proof. intros H. rewrite ps_V. symmetry. apply sum_extend; [exact H|]. intros i Hi. rewrite get_over_k by lia. ring. Qed.
Lemma V_ext n F G x : (forall i, (i < n)%nat -> F i = G i) -> V n F x = V n G x.
Proof. intros E. apply sum_ext. intros i Hi. now rewrite E. Qed.
Lemma V_shift n F x : V (S n) F x = F 0%nat + x * V n (fun i => F (S i)) x.
Proof. unfold V. rewrite sum_shift. cbn [power]. rewrite <- sum_scale. f_equal; [ring|]. apply sum_ext. intros i _. ring. Qed.
Lemma ps_cons c f x : power_sum (c :: f) x = c + x * power_sum f x.
Proof. rewrite !ps_V. cbn [length]. rewrite V_shift. reflexivity. Qed.
Lemma ps_upd (l : list K) i v x : (i < length l)%nat -> power_sum (upd l i v) x = power_sum l x + (v - get l i) * power x i.
Proof.
  revert i; induction l as [|h t IH]; intros i Hi; [cbn in Hi; lia|]. destruct i as [|i].
  - cbn [upd]. rewrite !ps_cons. cbn. ring.
  - cbn [upd]. rewrite !ps_cons, IH by (cbn in Hi; lia). cbn [power]. unfold get. cbn [nth]. ring.
Qed.
Lemma ps_zeros n x : power_sum (repeat (0 : K) n) x = 0.
Proof. induction n as [|n IH]; [reflexivity|]. cbn [repeat]. rewrite ps_cons, IH. ring. Qed.
Lemma ps_nonzero_prefix n f x : (forall i, (n <= i)%nat -> get f i = 0) -> power_sum f x = V n (get f) x.
Proof.
  intros H. rewrite (ps_ge (Nat.max n (length f)) f x) by lia. apply sum_extend; [lia|]. intros i Hi. rewrite H by lia. ring.
Qed.

(** ** evaluation *)
Lemma horner_down (f : list K) x n : forall s,
  for_down n n (fun i s => s * x + get f i) s * x + get f 0 = s * power x (S n) + V (S n) (get f) x.
Proof.
  induction n as [|n IH]; intros s.
  - cbn. ring.
  - cbn [for_down Nat.pred]. rewrite IH. unfold V. cbn [sum_of power]. ring.
Qed.
Lemma eval_ps (f : list K) x : f <> [] -> poly_eval f x = power_sum f x.
Proof.
  intros Nf. unfold poly_eval. assert (L : length f = S (porder f)) by (unfold porder; destruct f; [congruence|reflexivity]).
  destruct (Nat.eqb_spec (porder f) 0) as [E|E].
  - rewrite ps_V, L, E. unfold V. cbn. ring.
  - rewrite horner_down, ps_V, L. cbn [power]. ring.
Qed.
Lemma worker_V (f : list K) x s : (s <= porder f)%nat -> length f = S (porder f) ->
  poly_sub_worker s f x = V (S s) (fun i => get f (porder f - s + i)) x.
Proof.
  intros Hs L. induction s as [|s IH].
  - cbn. rewrite Nat.sub_0_r, Nat.add_0_r. ring.
  - cbn [poly_sub_worker]. rewrite IH by lia. rewrite (V_shift (S s)). rewrite Nat.add_0_r. f_equal. f_equal.
    apply V_ext. intros i Hi. f_equal. lia.
Qed.
Lemma symbolic_ps (f : list K) x : f <> [] -> poly_sub_symbolic f x = power_sum f x.
Proof.
  intros Nf. assert (L : length f = S (porder f)) by (unfold porder; destruct f; [congruence|reflexivity]).
  unfold poly_sub_symbolic. rewrite worker_V by lia. rewrite ps_V, L. apply V_ext. intros i _. f_equal. lia.
Qed.

(** ** sums and products *)
Lemma add_ps f g x : f <> [] -> g <> [] -> power_sum (poly_add f g) x = power_sum f x + power_sum g x.
Proof.
  intros Nf Ng. destruct (addsub_entry nadd f g 0 Nf Ng) as [L _]. rewrite (ps_ge (Nat.max (length f) (length g)) f) by lia.
  rewrite (ps_ge (Nat.max (length f) (length g)) g) by lia. rewrite ps_V. change (poly_add f g) with (poly_addsub nadd f g). rewrite L.
  unfold V. rewrite <- sum_add. apply sum_ext. intros i Hi. rewrite (proj2 (addsub_entry nadd f g i Nf Ng) Hi). ring.
Qed.
Lemma sub_ps f g x : f <> [] -> g <> [] -> power_sum (poly_sub_op f g) x = power_sum f x - power_sum g x.
Proof.
  intros Nf Ng. destruct (addsub_entry nsub f g 0 Nf Ng) as [L _]. rewrite (ps_ge (Nat.max (length f) (length g)) f) by lia.
  rewrite (ps_ge (Nat.max (length f) (length g)) g) by lia. rewrite ps_V. change (poly_sub_op f g) with (poly_addsub nsub f g). rewrite L.
  transitivity (V (Nat.max (length f) (length g)) (get f) x + (- (1)) * V (Nat.max (length f) (length g)) (get g) x); [|ring].
  unfold V. rewrite <- sum_scale, <- sum_add. apply sum_ext. intros i Hi. rewrite (proj2 (addsub_entry nsub f g i Nf Ng) Hi). ring.
Qed.
Lemma neg_ps f x : power_sum (poly_neg f) x = - power_sum f x.
Proof. induction f as [|c f IH]; [cbn; ring|]. unfold poly_neg in *. cbn [map]. rewrite !ps_cons, IH. ring. Qed.

Definition conv (f g : list K) (k : nat) : K := sum_of (S k) (fun j => get f j * get g (k - j)).
Lemma acc_sum (t : nat -> K) n : forall lo s, for_up lo n (fun j s => s + t j) s = s + sum_of n (fun i => t (lo + i)%nat).
Proof.
  induction n as [|n IH]; intros lo s; cbn [for_up]; [cbn; ring|]. rewrite IH, sum_shift. rewrite Nat.add_0_r.
  transitivity (s + (t lo + sum_of n (fun i => t (S lo + i)%nat))); [ring|]. f_equal. f_equal. apply sum_ext. intros. f_equal. lia.
Qed.
Lemma sum_split n m F : sum_of (n + m) F = sum_of n F + sum_of m (fun i => F (n + i)%nat).
Proof. induction m as [|m IH]; [rewrite Nat.add_0_r; cbn; ring|]. rewrite Nat.add_succ_r. cbn [sum_of]. rewrite IH. ring. Qed.
Lemma mul_conv f g k : f <> [] -> g <> [] -> (k <= porder f + porder g)%nat -> get (poly_mul f g) k = conv f g k.
Proof.
  intros Nf Ng Hk. rewrite (proj2 (mul_entry f g Nf Ng) k Hk). unfold window. cbn [fst snd].
  assert (Lf : length f = S (porder f)) by (unfold porder; destruct f; [congruence|reflexivity]).
  assert (Lg : length g = S (porder g)) by (unfold porder; destruct g; [congruence|reflexivity]).
  set (j0 := if (porder g <? k)%nat then (k - porder g)%nat else 0%nat). rewrite acc_sum. unfold conv.
  assert (J : (j0 <= S (Nat.min k (porder f)))%nat /\ (forall j, (j < j0)%nat -> (porder g < k - j)%nat)).
  { unfold j0. destruct (Nat.ltb_spec (porder g) k); split; intros; lia. }
  destruct J as [J1 J2].
  rewrite (sum_extend (S (Nat.min k (porder f))) (S k)); [| lia |].
  2:{ intros i Hi. rewrite (get_over_k f) by lia. ring. }
  replace (S (Nat.min k (porder f))) with (j0 + (S (Nat.min k (porder f)) - j0))%nat at 2 by lia.
  rewrite sum_split. rewrite (sum_zero j0). 2:{ intros i Hi. rewrite (get_over_k g) by (specialize (J2 i Hi); lia). ring. }
  reflexivity.
Qed.
Lemma conv_cons c f g k : conv (c :: f) g (S k) = c * get g (S k) + conv f g k.
Proof. unfold conv. rewrite sum_shift. reflexivity. Qed.
Lemma conv_0 c f g : conv (c :: f) g 0 = c * get g 0.
Proof. unfold conv. cbn. ring. Qed.
Lemma conv_nil g k : conv [] g k = 0.
Proof. apply sum_zero. intros i _. rewrite get_over_k by (cbn; lia). ring. Qed.
Lemma V_conv f g x : forall n, (length f + length g <= S n)%nat -> V n (conv f g) x = power_sum f x * power_sum g x.
Proof.
  induction f as [|c f IH]; intros n Hn.
  - transitivity (0 : K); [apply sum_zero; intros; rewrite conv_nil; ring|cbn; ring].
  - cbn [length] in Hn. destruct n as [|n].
    + rewrite (ps_ge 0 g) by lia. cbn. ring.
    + rewrite V_shift, conv_0, ps_cons.
      transitivity (c * (get g 0 + x * V n (fun i => get g (S i)) x) + x * V n (conv f g) x).
      * transitivity (c * get g 0 + x * (c * V n (fun i => get g (S i)) x + V n (conv f g) x)); [|ring].
        f_equal. f_equal. unfold V. rewrite <- sum_scale, <- sum_add. apply sum_ext. intros i _. rewrite conv_cons. ring.
      * rewrite <- V_shift, <- ps_ge by lia. rewrite IH by lia. ring.
Qed.
Lemma mul_ps f g x : f <> [] -> g <> [] -> power_sum (poly_mul f g) x = power_sum f x * power_sum g x.
Proof.
  intros Nf Ng. destruct (mul_entry f g Nf Ng) as [L _]. rewrite ps_V, L.
  assert (Lf : length f = S (porder f)) by (unfold porder; destruct f; [congruence|reflexivity]).
  assert (Lg : length g = S (porder g)) by (unfold porder; destruct g; [congruence|reflexivity]).
  rewrite (V_ext _ _ (conv f g)) by (intros i Hi; apply mul_conv; auto; lia). apply V_conv. lia.
Qed.

(** ** derivative *)
Lemma nofnat_times n a : a * nofnat n = times n a.
Proof. induction n as [|n IH]; cbn [nofnat times]; [ring|]. rewrite <- IH. ring. Qed.
Lemma deriv_entries (f : list K) : (2 <= length f)%nat ->
  length (poly_deriv f) = (length f - 1)%nat /\
  forall i, (i < length f - 1)%nat -> get (poly_deriv f) i = times (S i) (get f (S i)).
Proof.
  intros Hf. unfold poly_deriv.
  destruct (gen_upd (fun i _ => get f (S i) * nofnat (S i)) (porder f) 0 (poly_zero (porder f - 1))) as [L G].
  { unfold poly_zero. rewrite repeat_length. unfold porder. lia. }
  cbn zeta in L, G. unfold poly_zero in L, G. rewrite repeat_length in L. set (r' := for_up _ _ _ _) in *. unfold porder in L, G. split; [lia|].
  intros i Hi. rewrite G. destruct (Nat.leb_spec 0 i), (Nat.ltb_spec i (0 + Nat.pred (length f))); cbn [andb]; try lia. apply nofnat_times.
Qed.
Lemma slope_cons c f x : slope_sum (c :: f) x = power_sum f x + x * slope_sum f x.
Proof.
  unfold slope_sum. cbn [length nth]. rewrite Nat.sub_succ, Nat.sub_0_r. destruct f as [|d f]; [cbn; ring|].
  cbn [length]. rewrite Nat.sub_succ, Nat.sub_0_r. set (l := d :: f).
  rewrite sum_shift. rewrite ps_V. change (length l) with (S (length f)). rewrite V_shift. unfold V.
  set (A := sum_of (length f) (fun i => get l (S i) * power x i)).
  set (B := sum_of (length f) (fun i => times (S i) (nth (S i) l 0) * power x i)).
  transitivity (nth 0 l 0 + (x * A + x * B)); [|unfold get; ring].
  unfold A, B. rewrite <- !sum_scale, <- sum_add. f_equal; [cbn; ring|]. apply sum_ext. intros i _. cbn [times power nth]. unfold get. ring.
Qed.
Lemma deriv_ps (f : list K) x : f <> [] -> power_sum (poly_derivative true f) x = slope_sum f x.
Proof.
  intros Nf. unfold poly_derivative. destruct (Nat.eqb_spec (porder f) 0) as [E|E]; unfold porder in E.
  - destruct f as [|c [|d f]]; [congruence| |cbn in E; lia]. cbn. ring.
  - cbn [andb negb]. assert (Hl : (2 <= length f)%nat) by lia. destruct (deriv_entries f Hl) as [L G].
    rewrite ps_V, L. apply sum_ext. intros i Hi. rewrite G by exact Hi. reflexivity.
Qed.
(** the slope of a sequence *)
Lemma slope_zeros n x : slope_sum (repeat (0 : K) n) x = 0.
Proof. induction n as [|n IH]; [reflexivity|]. cbn [repeat]. rewrite slope_cons, ps_zeros, IH. ring. Qed.
Lemma times_zero n : times n 0 = 0.
Proof. induction n as [|n IH]; cbn [times]; [ring|rewrite IH; ring]. Qed.
Lemma times_scale n c a : times n (c * a) = c * times n a.
Proof. induction n as [|n IH]; cbn [times]; [ring|rewrite IH; ring]. Qed.
Lemma times_add n a b : times n (a + b) = times n a + times n b.
Proof. induction n as [|n IH]; cbn [times]; [ring|rewrite IH; ring]. Qed.
Definition W (n : nat) (F : nat -> K) (x : K) : K := sum_of n (fun i => times (S i) (F (S i)) * power x i).
Lemma W_shift n F x : W (S n) F x = V (S n) (fun i => F (S i)) x + x * W n (fun i => F (S i)) x.
Proof.
  unfold W, V. rewrite sum_shift. rewrite (sum_shift n (fun i => F (S i) * power x i)).
  set (A := sum_of n (fun i => F (S (S i)) * power x i)).
  set (B := sum_of n (fun i => times (S i) (F (S (S i))) * power x i)).
  transitivity (F 1%nat + (x * A + x * B)).
  - unfold A, B. rewrite <- !sum_scale, <- sum_add. f_equal; [cbn; ring|]. apply sum_ext. intros i _. cbn [times power]. ring.
  - replace (sum_of n (fun i => F (S (S i)) * power x (S i))) with (x * A); [cbn [power]; ring|].
    unfold A. rewrite <- sum_scale. apply sum_ext. intros i _. cbn [power]. ring.
Qed.
Lemma slope_ge n f x : (length f <= S n)%nat -> slope_sum f x = W n (get f) x.
Proof.
  intros H. unfold slope_sum, W. symmetry. apply sum_extend; [lia|]. intros i Hi. unfold get. rewrite (nth_overflow f) by lia.
  rewrite times_zero. ring.
Qed.
Lemma W_lin n c F G x : W n (fun i => c * F i + G i) x = c * W n F x + W n G x.
Proof.
  unfold W. rewrite <- sum_scale, <- sum_add. apply sum_ext. intros i _. rewrite times_add.
  rewrite times_scale. ring.
Qed.
Lemma W_conv f g x : forall n, (length f + length g <= S (S n))%nat ->
  W n (conv f g) x = slope_sum f x * power_sum g x + power_sum f x * slope_sum g x.
Proof.
  induction f as [|c f IH]; intros n Hn.
  - transitivity (0 : K); [|cbn; ring]. apply sum_zero. intros i _. rewrite conv_nil.
    rewrite times_zero. ring.
  - cbn [length] in Hn. rewrite slope_cons, ps_cons. destruct n as [|n].
    + destruct g as [|d g].
      * cbn. ring.
      * destruct f; [|cbn in Hn; lia]. destruct g; [|cbn in Hn; lia]. cbn. ring.
    + rewrite W_shift.
      transitivity ((c * V (S n) (fun i => get g (S i)) x + V (S n) (conv f g) x) + x * (c * W n (fun i => get g (S i)) x + W n (conv f g) x)).
      { f_equal.
        - unfold V. rewrite <- sum_scale, <- sum_add. apply sum_ext. intros i _. rewrite conv_cons. ring.
        - f_equal. rewrite <- W_lin. unfold W. apply sum_ext. intros i _. now rewrite conv_cons. }
      rewrite IH by lia. rewrite V_conv by lia. rewrite (slope_ge (S n) g) by lia. rewrite W_shift. ring.
Qed.
Lemma slope_mul f g x : f <> [] -> g <> [] -> slope_sum (poly_mul f g) x = slope_sum f x * power_sum g x + power_sum f x * slope_sum g x.
Proof.
  intros Nf Ng. destruct (mul_entry f g Nf Ng) as [L _].
  assert (Lf : length f = S (porder f)) by (unfold porder; destruct f; [congruence|reflexivity]).
  assert (Lg : length g = S (porder g)) by (unfold porder; destruct g; [congruence|reflexivity]).
  unfold slope_sum at 1. rewrite L, Nat.sub_succ, Nat.sub_0_r. rewrite <- (W_conv f g x (porder f + porder g)) by lia.
  apply sum_ext. intros i Hi. change (nth (S i) (poly_mul f g) 0) with (get (poly_mul f g) (S i)). now rewrite mul_conv by (auto; lia).
Qed.

(** ** division *)
Section Division.
Hypothesis DV : forall a b : K, b <> 0 -> ndiv a b * b = a.
Hypothesis EQ : forall a b : K, neqb a b = true <-> a = b.
Lemma inner_ps (g : list K) c off x n : forall lo r, (off + lo + n <= length r)%nat ->
  power_sum (for_up lo n (fun j r => upd r (off + j) (get r (off + j) - c * get g j)) r) x =
  power_sum r x - c * power x off * sum_of n (fun i => get g (lo + i) * power x (lo + i)).
Proof.
  induction n as [|n IH]; intros lo r Hn; [cbn [for_up sum_of]; ring|]. cbn [for_up]. rewrite IH by (rewrite upd_length; lia).
  rewrite ps_upd by lia. rewrite (sum_shift n). rewrite Nat.add_0_r.
  assert (P : forall a b, power x (a + b) = power x a * power x b).
  { induction a as [|a IHa]; intros b; cbn; [ring|rewrite IHa; ring]. }
  rewrite P. rewrite (sum_ext n _ (fun i => get g (lo + S i) * power x (lo + S i))) by (intros i _; now replace (S lo + i)%nat with (lo + S i)%nat by lia). ring.
Qed.
Lemma body_eq (g : list K) c k O2 r : (O2 <= k)%nat ->
  for_up 0 (S O2) (fun j r => upd r (k + j - O2) (get r (k + j - O2) - c * get g j)) r =
  for_up 0 (S O2) (fun j r => upd r ((k - O2) + j) (get r ((k - O2) + j) - c * get g j)) r.
Proof.
  intros H. generalize (S O2) 0%nat r. induction n as [|n IH]; intros lo r0; [reflexivity|]. cbn [for_up].
  replace (k + lo - O2)%nat with (k - O2 + lo)%nat by lia. apply IH.
Qed.
(** the division loop: f stays q g + r, and the coefficients of r go to zero *)
Lemma loop_ps (g : list K) O2 x n : length g = S O2 -> get g O2 <> 0 ->
  forall k q r, (n <= S k - O2)%nat -> (k < length r)%nat -> (S k - O2 <= length q)%nat ->
  (forall i, (i <= k - O2)%nat -> get q i = 0) -> (forall i, (k < i)%nat -> get r i = 0) -> (O2 <= S k)%nat ->
  let qr := for_down k n (fun k '(q, r) =>
    let c := ndiv (get r k) (get g O2) in
    (upd q (k - O2) c, for_up 0 (S O2) (fun j r => upd r (k + j - O2) (get r (k + j - O2) - c * get g j)) r)) (q, r) in
  length (fst qr) = length q /\ length (snd qr) = length r /\
  power_sum (fst qr) x * power_sum g x + power_sum (snd qr) x = power_sum q x * power_sum g x + power_sum r x /\
  (forall i, (S k - n <= i)%nat -> get (snd qr) i = 0).
Proof.
  intros Lg Hg. induction n as [|n IH]; intros k q r Hn Hr Hq Zq Zr Hk; cbn zeta.
  - cbn [for_down fst snd]. repeat split. intros i Hi. apply Zr. lia.
  - cbn [for_down]. set (c := ndiv (get r k) (get g O2)). rewrite body_eq by lia.
    assert (Lk : (k - O2 + 0 + S O2 <= length r)%nat) by lia.
    pose proof (inner_ps g c (k - O2) x (S O2) 0 r Lk) as P.
    destruct (gen_upd_off (fun j v => v - c * get g j) (S O2) 0 (k - O2) r Lk) as [L1 G1]. cbn zeta in L1, G1.
    set (r1 := for_up 0 (S O2) _ r) in *.
    assert (Zk : forall i, (k - 1 < i)%nat -> (0 < k)%nat \/ i <> 0%nat -> get r1 i = 0).
    { intros i Hi Hz. rewrite G1.
      destruct (Nat.eq_dec i k) as [->|Ni].
      - destruct (Nat.leb_spec (k - O2 + 0) k), (Nat.ltb_spec k (k - O2 + 0 + S O2)); cbn [andb]; try lia.
        replace (k - (k - O2))%nat with O2 by lia. unfold c. rewrite DV by exact Hg. ring.
      - destruct (Nat.leb_spec (k - O2 + 0) i), (Nat.ltb_spec i (k - O2 + 0 + S O2)); cbn [andb]; try lia; apply Zr; lia. }
    assert (Z0 : get r1 k = 0).
    { rewrite G1. destruct (Nat.leb_spec (k - O2 + 0) k), (Nat.ltb_spec k (k - O2 + 0 + S O2)); cbn [andb]; try lia.
      replace (k - (k - O2))%nat with O2 by lia. unfold c. rewrite DV by exact Hg. ring. }
    assert (E1 : power_sum (upd q (k - O2) c) x * power_sum g x + power_sum r1 x = power_sum q x * power_sum g x + power_sum r x).
    { rewrite P, ps_upd by lia. rewrite Zq by lia. rewrite (ps_V g), Lg. unfold V. cbn [Nat.add].
      set (S1 := sum_of (S O2) _). fold S1. ring. }
    destruct n as [|n].
    + cbn [for_down fst snd]. rewrite upd_length. repeat split; auto. intros i Hi.
      destruct (Nat.eq_dec i k) as [->|]; [exact Z0|]. destruct (Nat.eq_dec k 0); [|apply Zk; lia]. apply Zk; lia.
    + assert (1 <= k)%nat by lia.
      destruct (IH (Nat.pred k) (upd q (k - O2) c) r1) as (A & B & C & D); try (rewrite ?upd_length; lia).
      * intros i Hi. unfold get. rewrite nth_upd. destruct (Nat.eqb_spec (k - O2) i); [lia|]. cbn [andb]. apply Zq. lia.
      * intros i Hi. apply Zk; lia.
      * cbn zeta in *. rewrite upd_length in A. repeat split; [exact A|congruence|rewrite C; exact E1|].
        intros i Hi. apply D. lia.
Qed.

Lemma get_change M (f : list K) i : (forall i, (M < i)%nat -> get f i = 0) -> get (change_order M f) i = get f i.
Proof.
  intros Z. unfold change_order, get. destruct (Nat.lt_ge_cases i (length (firstn (S M) f))) as [H|H].
  - rewrite app_nth1 by exact H. rewrite firstn_length in H. rewrite <- (firstn_skipn (S M) f) at 2. rewrite app_nth1 by (rewrite firstn_length; lia). reflexivity.
  - rewrite app_nth2 by exact H. transitivity (0 : K); [apply get_zeros|]. rewrite firstn_length in H. symmetry.
    destruct (Nat.lt_ge_cases i (length f)); [apply Z; lia|now apply nth_overflow].
Qed.
Lemma change_length M (f : list K) : length (change_order M f) = S M.
Proof. unfold change_order. rewrite app_length, firstn_length, repeat_length. lia. Qed.
Lemma ps_same f g x : (forall i, get f i = get g i) -> power_sum f x = power_sum g x.
Proof.
  intros E. rewrite (ps_ge (length f + length g) f), (ps_ge (length f + length g) g) by lia. apply V_ext. intros i _. apply E.
Qed.
Lemma get_raise M (f : list K) i : get (poly_raise M f) i = get f i.
Proof.
  unfold poly_raise, get. destruct (Nat.lt_ge_cases i (length f)) as [H|H]; [now rewrite app_nth1|].
  rewrite app_nth2 by exact H. rewrite (nth_overflow f) by exact H. apply get_zeros.
Qed.
Lemma ps_app_zeros f n x : power_sum (f ++ repeat 0 n) x = power_sum f x.
Proof. induction f as [|c f IH]; [apply ps_zeros|]. cbn [app]. now rewrite !ps_cons, IH. Qed.
Lemma gcd_ok f : f <> [] -> forall O2 g, length g = S O2 -> (length g <= length f)%nat ->
  match gcd_rec O2 f g with
  | Div q r => exists n, get g n <> 0 /\ (forall i, (n < i)%nat -> get g i = 0) /\ (forall i, (n <= i)%nat -> get r i = 0) /\
                 length q = length f /\ length r = Nat.max 1 O2 /\
                 forall x, power_sum f x = power_sum q x * power_sum g x + power_sum r x
  | DivInf r => forall i, get g i = 0
  end.
Proof.
  intros Nf. assert (Lf : length f = S (porder f)) by (unfold porder; destruct f; [congruence|reflexivity]).
  induction O2 as [|M IH]; intros g Lg Hl; cbn [gcd_rec].
  - destruct (neqb (get g 0) n0) eqn:E0.
    + apply EQ in E0. intros [|i]; [exact E0|apply get_over_k; lia].
    + assert (N0 : get g 0 <> 0) by (intros X; apply EQ in X; congruence).
      destruct g as [|g0 [|? ?]]; cbn in Lg; try lia. change (get [g0] 0) with g0 in *.
      destruct (mul_entry f [ndiv n1 g0] Nf ltac:(discriminate)) as [Lm _].
      exists 0%nat. split; [exact N0|]. split; [intros i Hi; apply get_over_k; cbn; lia|].
      split; [intros [|[|i]] _; reflexivity|]. split; [rewrite Lm; unfold porder; cbn; lia|]. split; [reflexivity|].
      intros x. rewrite mul_ps by (auto; discriminate). rewrite !ps_cons. change (power_sum [] x) with (0 : K).
      transitivity (power_sum f x * (ndiv n1 g0 * g0)); [rewrite DV by exact N0; ring|ring].
  - destruct (neqb (get g (S M)) n0) eqn:E0.
    + apply EQ in E0.
      assert (Z : forall i, (M < i)%nat -> get g i = 0).
      { intros i Hi. destruct (Nat.eq_dec i (S M)) as [->|]; [exact E0|apply get_over_k; lia]. }
      specialize (IH (change_order M g) (change_length M g) ltac:(rewrite change_length; lia)).
      destruct (gcd_rec M f (change_order M g)) as [r|q r].
      * intros i. rewrite <- (get_change M g i Z). apply IH.
      * destruct IH as (n & A & B & C & D & E & F). exists n. rewrite (get_change M g n Z) in A. split; [exact A|].
        split; [intros i Hi; rewrite <- (get_change M g i Z); auto|].
        split; [intros i Hi; rewrite get_raise; auto|]. split; [exact D|].
        split; [unfold poly_raise; rewrite app_length, repeat_length; lia|].
        intros x. rewrite F, (ps_same (change_order M g) g) by (intros i; now apply get_change).
        unfold poly_raise. now rewrite ps_app_zeros.
    + assert (N0 : get g (S M) <> 0) by (intros X; apply EQ in X; congruence).
      unfold gcd_loop. assert (Pg : porder g = S M) by (unfold porder; rewrite Lg; reflexivity). rewrite Pg.
      assert (H := fun x => loop_ps g (S M) x (S (porder f) - S M) Lg N0 (porder f) (poly_zero (porder f)) f
        ltac:(lia) ltac:(lia) ltac:(unfold poly_zero; rewrite repeat_length; lia)
        ltac:(intros; apply get_zeros) ltac:(intros; apply get_over_k; lia) ltac:(lia)).
      cbn zeta in H. unfold gcd_loop in *.
      match goal with |- context [for_down ?a ?b ?c ?d] => set (qr := for_down a b c d) in * end.
      destruct qr as [q r]. cbn [fst snd] in H.
      destruct (H n0) as (A & B & _ & D). unfold poly_zero in A. rewrite repeat_length in A.
      assert (Z : forall i, (M < i)%nat -> get r i = 0) by (intros i Hi; apply D; lia).
      exists (S M). split; [exact N0|]. split; [intros i Hi; apply get_over_k; lia|].
      split; [intros i Hi; rewrite get_change by exact Z; apply Z; lia|]. split; [lia|]. split; [rewrite change_length; lia|].
      intros x. destruct (H x) as (_ & _ & C & _). rewrite (ps_same (change_order M r) r) by (intros i; now apply get_change).
      rewrite C. unfold poly_zero. rewrite ps_zeros. ring.
Qed.
End Division.
End Ring.

(** ** Theorems *)
(** The built-in integers (as long as nothing overflows), the reals and the complex
    numbers are such coefficients; one can divide by the last two. *)
Theorem C85_coefficients : commutative_ring Z Z_num /\ field_of_numbers R R_num /\ field_of_numbers cplx C_num.
Proof.
  split; [exact (InitialRing.Zth)|]. split.
  - split; [split; cbn; intros; ring|]. split; [|exact Reqb_true]. cbn. intros a b H. field. exact H.
  - split; [|split].
    + split; cbn; unfold c_add, c_mul, c_sub, c_opp; intros;
        repeat match goal with a : cplx |- _ => destruct a end; cbn [fst snd]; f_equal; ring.
    + cbn. unfold c_mul, c_div. intros [a1 a2] [b1 b2] H. cbn [fst snd].
      assert (Nz : (b1 * b1 + b2 * b2 <> 0)%R).
      { intros E. apply H. assert (b1 = 0 /\ b2 = 0)%R by nra. destruct H0 as [-> ->]. reflexivity. }
      f_equal; field; exact Nz.
    + cbn. unfold c_eqb. intros [a1 a2] [b1 b2]. cbn [fst snd]. rewrite andb_true_iff, !Reqb_true. split; [intros [-> ->]; reflexivity|intros E; injection E as -> ->; auto].
Qed.
Print Assumptions C85_coefficients.

(** Complex arithmetic is the usual one: the real numbers are inside, every number is
    re + im i, and i i = -1. *)
Theorem C85_complex_numbers :
  (forall x y : R, c_add (c_of_real x) (c_of_real y) = c_of_real (x + y) /\ c_mul (c_of_real x) (c_of_real y) = c_of_real (x * y)) /\
  (forall a : cplx, a = c_add (c_of_real (fst a)) (c_mul (c_of_real (snd a)) (0, 1)%R)) /\
  c_mul (0, 1)%R (0, 1)%R = c_of_real (-1) /\
  (forall a b, c_conj (c_add a b) = c_add (c_conj a) (c_conj b) /\ c_conj (c_mul a b) = c_mul (c_conj a) (c_conj b)) /\
  (forall a, c_mul a (c_conj a) = c_of_real (fst a * fst a + snd a * snd a)).
Proof.
  unfold c_add, c_mul, c_of_real, c_conj. repeat split; intros; cbn [fst snd]; try (f_equal; ring).
  destruct a as [x y]; cbn [fst snd]; f_equal; ring.
Qed.
Print Assumptions C85_complex_numbers.

(** Substituting a value: by the loop, and by the unfolded symbolic expression (the one
    used when the value is not of a built-in arithmetic type, for example complex). *)
Theorem C85_evaluation : forall (K : Type) (N : Num K), commutative_ring K N ->
  forall (f : list K) (x : K), f <> [] ->
  poly_eval f x = power_sum f x /\ poly_sub_symbolic f x = power_sum f x.
Proof. intros K N RT f x Nf. split; [now apply eval_ps|now apply symbolic_ps]. Qed.
Print Assumptions C85_evaluation.

Theorem C85_arithmetic : forall (K : Type) (N : Num K), commutative_ring K N ->
  forall (f g : list K) (x : K), f <> [] -> g <> [] ->
  power_sum (poly_add f g) x = nadd (power_sum f x) (power_sum g x) /\
  power_sum (poly_sub_op f g) x = nsub (power_sum f x) (power_sum g x) /\
  power_sum (poly_mul f g) x = nmul (power_sum f x) (power_sum g x) /\
  power_sum (poly_neg f) x = nopp (power_sum f x) /\
  power_sum (poly_mulvar f) x = nmul x (power_sum f x) /\
  length (poly_add f g) = Nat.max (length f) (length g) /\ length (poly_sub_op f g) = Nat.max (length f) (length g) /\
  length (poly_mul f g) = (length f + length g - 1)%nat.
Proof.
  intros K N RT f g x Nf Ng. split; [now apply add_ps|]. split; [now apply sub_ps|]. split; [now apply mul_ps|].
  split; [now apply neg_ps|]. split.
  { unfold poly_mulvar. rewrite (ps_cons RT). apply (Radd_0_l RT). }
  destruct (addsub_entry nadd f g 0 Nf Ng) as [L1 _]. destruct (addsub_entry nsub f g 0 Nf Ng) as [L2 _]. destruct (mul_entry f g Nf Ng) as [L3 _].
  split; [exact L1|]. split; [exact L2|]. rewrite L3. unfold porder. destruct f, g; cbn; try congruence; lia.
Qed.
Print Assumptions C85_arithmetic.

(** The derivative, and the product rule. *)
Theorem C85_derivative : forall (K : Type) (N : Num K), commutative_ring K N ->
  forall (f g : list K) (x : K), f <> [] -> g <> [] ->
  power_sum (poly_derivative true f) x = slope_sum f x /\
  power_sum (poly_derivative true (poly_mul f g)) x =
    nadd (nmul (slope_sum f x) (power_sum g x)) (nmul (power_sum f x) (slope_sum g x)) /\
  poly_derivative false f = [n0].
Proof.
  intros K N RT f g x Nf Ng. split; [now apply deriv_ps|]. split; [|reflexivity].
  assert (Nm : poly_mul f g <> []) by (destruct (mul_entry f g Nf Ng) as [L _]; intros E; rewrite E in L; discriminate L).
  rewrite (deriv_ps RT _ x Nm). now apply slope_mul.
Qed.
Print Assumptions C85_derivative.

(** Euclidean division: f = q g + r, r of lower degree than g; the flag exactly for a
    divisor all of whose coefficients are zero. *)
Theorem C85_division : forall (K : Type) (N : Num K), field_of_numbers K N ->
  forall f g : list K, f <> [] -> g <> [] -> (length g <= length f)%nat ->
  match poly_gcd f g with
  | Div q r => exists n, nth n g n0 <> n0 /\ (forall i, (n < i)%nat -> nth i g n0 = n0) /\
                 (forall i, (n <= i)%nat -> nth i r n0 = n0) /\
                 length q = length f /\ length r = Nat.max 1 (length g - 1) /\
                 forall x, power_sum f x = nadd (nmul (power_sum q x) (power_sum g x)) (power_sum r x)
  | DivInf r => forall i, nth i g n0 = n0
  end.
Proof.
  intros K N (RT & DV & EQ) f g Nf Ng Hl. unfold poly_gcd.
  assert (Lg : length g = S (porder g)) by (unfold porder; destruct g; [congruence|reflexivity]).
  pose proof (gcd_ok RT DV EQ f Nf (porder g) g Lg Hl) as H. destruct (gcd_rec (porder g) f g) as [r|q r]; [exact H|].
  destruct H as (n & A & B & C & D & E & F). exists n. replace (length g - 1)%nat with (porder g) by lia. exact (conj A (conj B (conj C (conj D (conj E F))))).
Qed.
Print Assumptions C85_division.

(** For int coefficients: at every whole number, with the powers of the library. *)
Definition int_value (f : list Z) (x : Z) : Z :=
  fold_right Z.add 0%Z (map (fun i => (nth i f 0 * x ^ Z.of_nat i)%Z) (seq 0 (length f))).
Lemma power_Z x n : power (N := Z_num) x n = (x ^ Z.of_nat n)%Z.
Proof. induction n as [|n IH]; [reflexivity|]. cbn [power]. rewrite IH, Nat2Z.inj_succ, Z.pow_succ_r by lia. reflexivity. Qed.
Lemma sum_fold (F : nat -> Z) n : sum_of (N := Z_num) n F = fold_right Z.add 0%Z (map F (seq 0 n)).
Proof.
  induction n as [|n IH]; [reflexivity|]. rewrite seq_S, map_app, fold_right_app. cbn [sum_of map fold_right]. rewrite IH. cbn [Nat.add nadd Z_num].
  generalize (map F (seq 0 n)) (F n). clear. intros l a. rewrite Z.add_0_r. induction l as [|b l IH]; cbn [fold_right]; lia.
Qed.
Theorem C85_integers : forall (f g : list Z) (x : Z), f <> [] -> g <> [] ->
  poly_eval (H := Z_num) f x = int_value f x /\
  int_value (poly_add (H := Z_num) f g) x = (int_value f x + int_value g x)%Z /\
  int_value (poly_sub_op (H := Z_num) f g) x = (int_value f x - int_value g x)%Z /\
  int_value (poly_mul (H := Z_num) f g) x = (int_value f x * int_value g x)%Z.
Proof.
  assert (P : forall f x, power_sum (N := Z_num) f x = int_value f x).
  { intros f x. unfold power_sum. rewrite sum_fold. unfold int_value. f_equal. apply map_ext. intros i. rewrite power_Z. reflexivity. }
  intros f g x Nf Ng. rewrite <- !P. destruct C85_coefficients as [RT _].
  destruct (C85_arithmetic Z Z_num RT f g x Nf Ng) as (A & B & C & _). destruct (C85_evaluation Z Z_num RT f x Nf) as [D _]. auto.
Qed.
Print Assumptions C85_integers.

(** A polynomial with real coefficients takes conjugate values at conjugate points, and
    (x - a)(x - z)(x - conj z) has real coefficients. *)
Theorem C85_conjugates : forall (f : list R) (z : cplx), f <> [] ->
  poly_sub_symbolic (H := C_num) (map c_of_real f) (c_conj z) = c_conj (poly_sub_symbolic (H := C_num) (map c_of_real f) z).
Proof.
  intros f z Nf. destruct C85_coefficients as (_ & _ & RT & _).
  assert (Nm : map c_of_real f <> []) by (destruct f; [congruence|discriminate]).
  rewrite !(symbolic_ps RT) by exact Nm. clear Nf Nm. induction f as [|c f IH]; [cbn; unfold c_conj; cbn; f_equal; ring|].
  cbn [map]. rewrite !(ps_cons RT), IH. destruct C85_complex_numbers as (_ & _ & _ & CJ & _). cbn [nadd nmul C_num].
  rewrite (proj1 (CJ _ _)), (proj2 (CJ _ _)). f_equal. unfold c_conj, c_of_real. cbn. f_equal. ring.
Qed.
Print Assumptions C85_conjugates.

Definition linear_factor (z : cplx) : list cplx := [c_opp z; c_of_real 1].
Theorem C85_conjugate_roots : forall (a : R) (z : cplx),
  poly_mul (H := C_num) (poly_mul (H := C_num) (linear_factor (c_of_real a)) (linear_factor z)) (linear_factor (c_conj z)) =
  map c_of_real [- a * (fst z * fst z + snd z * snd z); (fst z * fst z + snd z * snd z) + 2 * a * fst z; - a - 2 * fst z; 1]%R.
Proof.
  intros a [u v]. cbv -[Rplus Rmult Rminus Ropp IZR].
  do 4 (apply f_equal2; [apply f_equal2; ring|]). reflexivity.
Qed.
Print Assumptions C85_conjugate_roots.

Example C85_example : poly_eval (H := Z_num) [1; -2; 3]%Z 5%Z = 66%Z /\
  poly_mul (H := Z_num) [1; 1]%Z [-1; 1]%Z = [-1; 0; 1]%Z /\
  poly_sub_symbolic (H := C_num) (map c_of_real [1; 0; 1]%R) (0, 1)%R = (0, 0)%R /\
  commutative_ring cplx C_num.
Proof.
  split; [reflexivity|]. split; [reflexivity|]. split; [cbv -[Rplus Rmult Rminus Ropp IZR]; f_equal; ring|].
  exact (proj1 (proj2 (proj2 C85_coefficients))).
Qed.

(** ** The text of a complex number *)
(** A number without imaginary part is printed as a real number; otherwise the real part
    (with its minus sign), the sign of the imaginary part between the two, and the
    size of the imaginary part without a sign.  Both are right to six digits. *)
Theorem C85_text : forall re im : d64, fin re -> fin im ->
  exists a b, is_number a /\ is_number b /\
    (Rabs (decimal_value a - Rabs (dR re)) <= / 2 * B10 (1 - 6) * Rabs (dR re))%R /\
    (Rabs (decimal_value b - Rabs (dR im)) <= / 2 * B10 (1 - 6) * Rabs (dR im))%R /\
    let sa := if d_signbit re then ("-" ++ a)%string else a in
    (dR im = 0%R -> stream_complex re im = sa) /\
    ((dR im < 0)%R -> stream_complex re im = ("(" ++ sa ++ " - " ++ b ++ "i)")%string) /\
    ((0 < dR im)%R -> stream_complex re im = ("(" ++ sa ++ " + " ++ b ++ "i)")%string).
Proof.
  intros re im Fr Fi.
  destruct (C76_value 6 re ltac:(lia) Fr) as (a & Ea & Na & Va).
  destruct (d_abs_R im Fi) as [Fai Rai].
  assert (Sai : d_signbit (d_abs im) = false) by (destruct im; auto; discriminate).
  destruct (C76_value 6 (d_abs im) ltac:(lia) Fai) as (b & Eb & Nb & Vb). rewrite Sai in Eb. rewrite Rai, Rabs_Rabsolu in Vb.
  exists a, b. split; [exact Na|]. split; [exact Nb|]. split; [exact Va|]. split; [exact Vb|]. cbv zeta. rewrite <- Ea.
  unfold stream_complex, stream_double.
  assert (QE : d_eq im d_zero = true <-> dR im = 0%R) by exact (d_eq_fin im d_zero Fi eq_refl).
  assert (QL : d_lt im d_zero = true <-> (dR im < 0)%R) by exact (d_lt_fin im d_zero Fi eq_refl).
  split; [|split]; intros H.
  - apply QE in H. now rewrite H.
  - destruct (d_eq im d_zero); [assert (dR im = 0%R) by (apply QE; reflexivity); lra|]. apply QL in H. now rewrite H, Eb.
  - destruct (d_eq im d_zero); [assert (dR im = 0%R) by (apply QE; reflexivity); lra|]. destruct (d_lt im d_zero); [assert (dR im < 0)%R by (apply QL; reflexivity); lra|].
    assert (E : d_abs im = im).
    { destruct im as [s|s|s pl Hp|[|] m e He]; try discriminate Fi; try (cbn in H; lra); [|reflexivity].
      unfold dR in H. cbn in H. pose proof (Flocq.Core.Float_prop.F2R_lt_0 Zaux.radix2 (Defs.Float Zaux.radix2 (Z.neg m) e) ltac:(cbn; lia)). lra. }
    rewrite E in Eb. now rewrite Eb.
Qed.
Print Assumptions C85_text.
Example C85_text_example : stream_complex (d_lit 3 0) (d_lit (-5) (-1)) = "(3 - 2.5i)"%string /\
  stream_complex (d_lit (-1) 0) d_zero = "-1"%string /\ stream_complex d_zero (d_lit 1 0) = "(0 + 1i)"%string.
Proof. repeat split; vm_compute; reflexivity. Qed.
