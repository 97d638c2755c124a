(** C84: arithmetic with polynomials whose coefficients are doubles. *)
From Coq Require Import List Reals Lra Lia Arith Psatz ZArith.
From Flocq Require Import Core Binary Bits Relative.
From Verif Require Import Outcome Num PolyModel PolySpec PolyBase PolyProofs.
From Verif Require Import FloatModel FloatSpec FloatProofs FloatQuad PropFloatExpr FloatSolver PropFloatSolver PropFloatPrec.
Import ListNotations.
Open Scope R_scope.

(** ** Loops *)
Section Gen.
Context {K : Type} `{Num K}.
Lemma gen_upd (F : nat -> K -> K) n : forall lo r, (lo + n <= length r)%nat ->
  let r' := for_up lo n (fun j r => upd r j (F j (get r j))) r in
  length r' = length r /\
  forall i, get r' i = if ((lo <=? i) && (i <? lo + n))%nat%bool then F i (get r i) else get r i.
Proof.
  induction n as [|n IH]; intros lo r Hn; cbn zeta.
  - cbn [for_up]. split; [reflexivity|]. intros i.
    destruct (Nat.leb_spec lo i), (Nat.ltb_spec i (lo + 0)); cbn [andb]; try reflexivity; lia.
  - cbn [for_up]. set (r1 := upd r _ _).
    assert (Hl : length r1 = length r) by apply upd_length.
    destruct (IH (S lo) r1 ltac:(lia)) as [Hlen Hg]. split; [congruence|].
    intros i. rewrite Hg. unfold r1.
    destruct (Nat.leb_spec (S lo) i), (Nat.ltb_spec i (S lo + n)),
             (Nat.leb_spec lo i), (Nat.ltb_spec i (lo + S n)); cbn [andb]; try lia;
    try (rewrite !get_upd_neq by lia; reflexivity).
    assert (i = lo) by lia. subst i. rewrite get_upd_eq by lia. reflexivity.
Qed.
Lemma gen_acc (t : nat -> K) i cnt : forall lo r, (i < length r)%nat ->
  let r' := for_up lo cnt (fun j r => upd r i (nadd (get r i) (t j))) r in
  length r' = length r /\ get r' i = for_up lo cnt (fun j s => nadd s (t j)) (get r i) /\
  forall k, k <> i -> get r' k = get r k.
Proof.
  induction cnt as [|n IH]; intros lo r Hi; cbn zeta; [repeat split; reflexivity|]. cbn [for_up]. set (r1 := upd r _ _).
  assert (Hl : length r1 = length r) by apply upd_length. destruct (IH (S lo) r1 ltac:(lia)) as (A & B & C). split; [congruence|]. split.
  - rewrite B. unfold r1. now rewrite get_upd_eq.
  - intros k Hk. rewrite C by assumption. unfold r1. apply get_upd_neq. auto.
Qed.
Lemma get_zeros n i : get (repeat (n0 (K := K)) n) i = n0.
Proof. revert i. induction n; destruct i; cbn; auto. unfold get in *. cbn. auto. Qed.

Lemma addsub_entry (op : K -> K -> K) f g i : f <> [] -> g <> [] ->
  length (poly_addsub op f g) = Nat.max (length f) (length g) /\
  ((i < Nat.max (length f) (length g))%nat -> get (poly_addsub op f g) i = op (get f i) (get g i)).
Proof.
  intros Nf Ng. unfold poly_addsub. assert (Lf : length f = S (porder f)) by (unfold porder; destruct f; [congruence|reflexivity]).
  assert (Lg : length g = S (porder g)) by (unfold porder; destruct g; [congruence|reflexivity]).
  set (N := porder f) in *. set (M := porder g) in *. set (k := Nat.min N M) in *.
  destruct (gen_upd (fun j _ => op (get f j) (get g j)) (S k) 0 (poly_zero (Nat.max M N))) as (L1 & G1).
  { unfold poly_zero. rewrite repeat_length. lia. }
  cbn zeta in *. set (r1 := for_up 0 _ _ _) in *. unfold poly_zero in L1. rewrite repeat_length in L1.
  destruct (gen_upd (fun j _ => op (get f j) n0) (N - k) (S k) r1) as (L2 & G2); [lia|]. set (r2 := for_up (S k) (N - k) _ _) in *.
  destruct (gen_upd (fun j _ => op n0 (get g j)) (M - k) (S k) r2) as (L3 & G3); [lia|]. cbn zeta in *. split; [rewrite L3; lia|].
  intros Hi. rewrite G3, G2, G1.
  destruct (Nat.leb_spec (S k) i), (Nat.ltb_spec i (S k + (M - k))), (Nat.ltb_spec i (S k + (N - k))), (Nat.leb_spec 0 i), (Nat.ltb_spec i (0 + S k)); cbn [andb]; try lia; try reflexivity.
  - now rewrite (get_overflow f) by lia.
  - now rewrite (get_overflow g) by lia.
Qed.
Definition window (f g : list K) (i : nat) : nat * nat :=
  let j0 := if Nat.ltb (porder g) i then (i - porder g)%nat else 0%nat in (j0, (S (Nat.min i (porder f)) - j0)%nat).
Lemma mul_entry (f g : list K) : f <> [] -> g <> [] ->
  length (poly_mul f g) = S (porder f + porder g) /\
  forall i, (i <= porder f + porder g)%nat ->
    get (poly_mul f g) i = for_up (fst (window f g i)) (snd (window f g i)) (fun j s => nadd s (nmul (get f j) (get g (i - j)))) n0.
Proof.
  intros Hf Hg. unfold poly_mul. set (M := porder f). set (N := porder g). set (body := fun i r => _).
  set (P := fun k (r : list K) => length r = S (M + N) /\
        (forall i, (i < k)%nat -> get r i = for_up (fst (window f g i)) (snd (window f g i)) (fun j s => nadd s (nmul (get f j) (get g (i - j)))) n0) /\
        (forall i, (k <= i)%nat -> get r i = n0)).
  assert (HP : P (0 + S (N + M))%nat (for_up 0 (S (N + M)) body (poly_zero (M + N)))).
  { apply (for_up_inv P).
    - split; [unfold poly_zero; now rewrite repeat_length|]. split; [intros i Hi; lia|]. intros i _. apply get_zeros.
    - intros i r Hi (HL & HG & HZ). unfold body.
      destruct (gen_acc (fun j => nmul (get f j) (get g (i - j))) i (snd (window f g i)) (fst (window f g i)) r ltac:(lia)) as (HL' & HG' & HK').
      unfold window in HL', HG', HK'. cbn [fst snd] in HL', HG', HK'. fold M N in HL', HG', HK'. cbn zeta in *.
      split; [congruence|]. split.
      + intros k Hk. destruct (Nat.eq_dec k i) as [->|Hn].
        * rewrite HG', HZ by lia. reflexivity.
        * rewrite HK' by exact Hn. apply HG. lia.
      + intros k Hk. rewrite HK' by lia. apply HZ. lia. }
  destruct HP as (HL & HG & _). split; [exact HL|]. intros i Hi. apply HG. lia.
Qed.
End Gen.

Lemma dR_zero : dR d_zero = 0. Proof. reflexivity. Qed.
Lemma get_dR f i : get (map dR f) i = dR (dget f i).
Proof. unfold get, dget. change n0 with (dR d_zero). apply map_nth. Qed.
Lemma rnd_dR a : drnd (dR a) = dR a.
Proof. apply rnd_fmt, dR_fmt. Qed.
Lemma sub_fin_inv a b : fin (d_sub a b) -> fin a /\ fin b.
Proof.
  intros F. unfold d_sub, b64_minus in F. destruct a as [s|s|s p e|s m e B], b as [t|t|t q g|t n g B']; try (split; reflexivity);
    try discriminate F; destruct s, t; discriminate F.
Qed.
Lemma sub_val a b : fin (d_sub a b) -> dR (d_sub a b) = drnd (dR a - dR b).
Proof. intros F. destruct (sub_fin_inv _ _ F) as (Fa & Fb). apply (sub_cong a b a b); auto using same_refl. Qed.
Lemma div_val a b : fin b -> fin (d_div a b) -> fin a /\ dR b <> 0 /\ dR (d_div a b) = drnd (dR a / dR b).
Proof.
  intros Fb F. assert (Fa : fin a).
  { destruct a as [s|s|s p e|s m e B], b as [t|t|t q g|t n g B']; try reflexivity; discriminate. }
  split; [exact Fa|]. apply (div_cong a b a b); auto using same_refl.
Qed.

(** Every coefficient of a sum or a difference is the exact value rounded once. *)
Theorem C84_sum : forall (f g : list d64) (i : nat), f <> [] -> g <> [] ->
  length (poly_add (H := D_num) f g) = Nat.max (length f) (length g) /\
  (fin (dget (poly_add (H := D_num) f g) i) ->
   dR (dget (poly_add (H := D_num) f g) i) = drnd (dR (dget f i) + dR (dget g i))) /\
  (fin (dget f i) -> fin (dget g i) -> Rabs (dR (dget f i) + dR (dget g i)) <= bpow radix2 1000 ->
   fin (dget (poly_add (H := D_num) f g) i)).
Proof.
  intros f g i Nf Ng. unfold poly_add. change (@nadd d64 D_num) with d_add. destruct (addsub_entry (H := D_num) d_add f g i Nf Ng) as (L & E). split; [exact L|].
  unfold get in E. cbn [n0 nadd D_num] in E. fold (dget f i) (dget g i) in E.
  set (p := poly_addsub (H := D_num) d_add f g) in *. change (nth i p d_zero) with (dget p i) in E.
  destruct (Nat.lt_ge_cases i (Nat.max (length f) (length g))) as [Hi|Hi].
  - specialize (E Hi). rewrite E. split; [apply add_val|]. intros Ff Fg B. apply (add_R _ _ Ff Fg B).
  - assert (Z : dget p i = d_zero) by (apply nth_overflow; rewrite L; exact Hi). rewrite Z.
    assert (Zf : dget f i = d_zero) by (apply nth_overflow; lia). assert (Zg : dget g i = d_zero) by (apply nth_overflow; lia).
    rewrite Zf, Zg. split; [|reflexivity]. intros _. rewrite dR_zero, Rplus_0_l. symmetry. apply (rnd_dR d_zero).
Qed.
Print Assumptions C84_sum.
Theorem C84_difference : forall (f g : list d64) (i : nat), f <> [] -> g <> [] ->
  length (poly_sub_op (H := D_num) f g) = Nat.max (length f) (length g) /\
  (fin (dget (poly_sub_op (H := D_num) f g) i) ->
   dR (dget (poly_sub_op (H := D_num) f g) i) = drnd (dR (dget f i) - dR (dget g i))) /\
  (fin (dget f i) -> fin (dget g i) -> Rabs (dR (dget f i) - dR (dget g i)) <= bpow radix2 1000 ->
   fin (dget (poly_sub_op (H := D_num) f g) i)).
Proof.
  intros f g i Nf Ng. unfold poly_sub_op. change (@nsub d64 D_num) with d_sub. destruct (addsub_entry (H := D_num) d_sub f g i Nf Ng) as (L & E). split; [exact L|].
  unfold get in E. cbn [n0 nsub D_num] in E. fold (dget f i) (dget g i) in E.
  set (p := poly_addsub (H := D_num) d_sub f g) in *. change (nth i p d_zero) with (dget p i) in E.
  destruct (Nat.lt_ge_cases i (Nat.max (length f) (length g))) as [Hi|Hi].
  - specialize (E Hi). rewrite E. split; [apply sub_val|]. intros Ff Fg B. apply (sub_R _ _ Ff Fg B).
  - assert (Z : dget p i = d_zero) by (apply nth_overflow; rewrite L; exact Hi). rewrite Z.
    assert (Zf : dget f i = d_zero) by (apply nth_overflow; lia). assert (Zg : dget g i = d_zero) by (apply nth_overflow; lia).
    rewrite Zf, Zg. split; [|reflexivity]. intros _. rewrite dR_zero, Rminus_0_r. symmetry. apply (rnd_dR d_zero).
Qed.
Print Assumptions C84_difference.

(** Changing the sign of a polynomial, of its odd coefficients (x -> -x), multiplying by x
    and raising the order are exact. *)
Theorem C84_exact : forall (f : list d64) (i : nat), Forall (fun c => fin c) f ->
  dR (dget (poly_neg (H := D_num) f) i) = - dR (dget f i) /\
  dR (dget (reflect_poly (H := D_num) f) i) = (-1) ^ i * dR (dget f i) /\
  dR (dget (poly_mulvar (H := D_num) f) i) = match i with O => 0 | S j => dR (dget f j) end.
Proof.
  intros f i F. split; [|split].
  - unfold poly_neg, dget. destruct (Nat.lt_ge_cases i (length f)) as [Hi|Hi].
    + rewrite (nth_indep _ _ (d_opp d_zero)) by now rewrite map_length. cbn [nopp D_num]. rewrite map_nth. apply opp_R.
      rewrite Forall_forall in F. apply F, nth_In, Hi.
    + rewrite !nth_overflow by (try rewrite map_length; exact Hi). rewrite dR_zero. lra.
  - unfold reflect_poly. set (b := fun k g => _).
    set (P := fun k (g : list d64) => length g = length f /\
       forall j, dget g j = if (Nat.odd j && (j <? 2 * k) && (j <? length f))%nat%bool then d_opp (dget f j) else dget f j).
    assert (HP : P (0 + (porder f + 1) / 2)%nat (for_up 0 ((porder f + 1) / 2) b f)).
    { apply (for_up_inv P).
      - split; [reflexivity|]. intros j. destruct (Nat.ltb_spec j (2 * 0)); [lia|]. rewrite andb_false_r. reflexivity.
      - intros k g Hk (L & G). unfold b. split; [now rewrite upd_length|]. intros j. unfold dget, get. rewrite nth_upd. rewrite L.
        change (@n0 d64 D_num) with d_zero. fold (dget g (2 * k + 1)) (dget g j) (dget f j). cbn [nopp D_num]. rewrite !G.
        assert (O : Nat.odd (2 * k + 1) = true) by (rewrite Nat.add_1_r, Nat.odd_succ; apply Nat.even_spec; exists k; lia). rewrite O.
        destruct (Nat.eqb_spec (2 * k + 1) j) as [<-|Hj].
        + destruct (Nat.ltb_spec (2 * k + 1) (2 * k)); [lia|]. destruct (Nat.ltb_spec (2 * k + 1) (2 * S k)); [|lia].
          rewrite O. cbn [andb]. reflexivity.
        + cbn [andb]. destruct (Nat.odd j) eqn:Oj; [|reflexivity]. cbn [andb]. apply Nat.odd_spec in Oj. destruct Oj as (m & Em).
          destruct (Nat.ltb_spec j (2 * k)), (Nat.ltb_spec j (2 * S k)); try reflexivity; lia. }
    destruct HP as (L & G). rewrite G. destruct (Nat.odd i) eqn:Oi.
    + replace ((-1) ^ i) with (-1). 2:{ apply Nat.odd_spec in Oi. destruct Oi as (m & ->). rewrite Nat.add_1_r. symmetry. apply pow_1_odd. }
      destruct (Nat.ltb_spec i (length f)) as [Hi|Hi].
      * destruct (Nat.ltb_spec i (2 * (0 + (porder f + 1) / 2))) as [H2|H2].
        -- cbn [andb]. rewrite Forall_forall in F. destruct (opp_R (dget f i) (F _ (nth_In _ _ Hi))) as (_ & -> & _). lra.
        -- exfalso. apply Nat.odd_spec in Oi. destruct Oi as (m & Em). assert (length f = S (porder f)) by (unfold porder; lia).
           assert (m < (porder f + 1) / 2)%nat; [|lia]. apply Nat.div_le_lower_bound; lia.
      * rewrite andb_false_r. unfold dget. rewrite nth_overflow by exact Hi. rewrite dR_zero. lra.
    + cbn [andb]. replace ((-1) ^ i) with 1; [lra|].
      rewrite <- Nat.negb_even in Oi. apply negb_false_iff, Nat.even_spec in Oi. destruct Oi as (m & ->). symmetry. apply pow_1_even.
  - destruct i; [reflexivity|]. reflexivity.
Qed.
Print Assumptions C84_exact.

(** Dividing by a constant and differentiating: every coefficient is rounded once. *)
Theorem C84_quotient : forall (f : list d64) (c : d64) (i : nat), f <> [] -> fin c ->
  length (poly_div0 (H := D_num) f c) = length f /\
  (fin (dget (poly_div0 (H := D_num) f c) i) -> (i < length f)%nat ->
   dR c <> 0 /\ dR (dget (poly_div0 (H := D_num) f c) i) = drnd (dR (dget f i) / dR c)) /\
  (fin (dget f i) -> dR c <> 0 -> Rabs (dR (dget f i) / dR c) <= bpow radix2 1000 -> fin (dget (poly_div0 (H := D_num) f c) i)).
Proof.
  intros f c i Nf Fc. unfold poly_div0. assert (Lf : length f = S (porder f)) by (unfold porder; destruct f; [congruence|reflexivity]).
  destruct (gen_upd (H := D_num) (fun i s => d_add s (d_div (get (H := D_num) f i) c)) (S (porder f)) 0 (poly_zero (H := D_num) (porder f))) as (L & G).
  { unfold poly_zero. rewrite repeat_length. lia. }
  cbn zeta in *. unfold poly_zero in L. rewrite repeat_length in L. cbn [nadd ndiv D_num].
  set (p := for_up 0 _ _ _) in *. change (get (H := D_num) p) with (dget p) in G. split; [congruence|].
  assert (E : (i < length f)%nat -> dget p i = d_add d_zero (d_div (dget f i) c)).
  { intros Hi. rewrite G. destruct (Nat.leb_spec 0 i), (Nat.ltb_spec i (0 + S (porder f))); cbn [andb]; try lia. f_equal. exact (get_zeros (H := D_num) _ i). }
  split.
  - intros F Hi. rewrite E in F |- * by exact Hi. destruct (add_fin_inv _ _ F) as (_ & Fd). destruct (div_val _ _ Fc Fd) as (_ & N & V).
    split; [exact N|]. rewrite (add_val _ _ F), dR_zero, Rplus_0_l, rnd_dR. exact V.
  - intros Ff N B. destruct (Nat.lt_ge_cases i (length f)) as [Hi|Hi].
    + rewrite E by exact Hi. destruct (div_R _ _ Ff Fc N B) as (F & V). apply add_R; [reflexivity|exact F|].
      rewrite dR_zero, Rplus_0_l, V. apply rnd_big; [lia|exact B].
    + unfold dget. rewrite nth_overflow by congruence. reflexivity.
Qed.
Print Assumptions C84_quotient.
Theorem C84_derivative : forall (f : list d64) (i : nat), (2 <= length f)%nat -> INR (length f) <= 2 ^ 53 ->
  length (poly_derivative (H := D_num) true f) = (length f - 1)%nat /\
  (fin (dget (poly_derivative (H := D_num) true f) i) ->
   dR (dget (poly_derivative (H := D_num) true f) i) = drnd (INR (S i) * dR (dget f (S i)))) /\
  (fin (dget f (S i)) -> Rabs (INR (S i) * dR (dget f (S i))) <= bpow radix2 1000 -> fin (dget (poly_derivative (H := D_num) true f) i)).
Proof.
  intros f i Lf Bf. unfold poly_derivative, poly_deriv. assert (E0 : porder f = (length f - 1)%nat) by (unfold porder; lia).
  destruct (Nat.eqb_spec (porder f) 0); [lia|]. cbn [andb negb].
  destruct (gen_upd (H := D_num) (fun i s => d_mul (get (H := D_num) f (S i)) (nofnat (H := D_num) (S i))) (porder f) 0 (poly_zero (H := D_num) (porder f - 1))) as (L & G).
  { unfold poly_zero. rewrite repeat_length. lia. }
  cbn zeta in *. unfold poly_zero in L. rewrite repeat_length in L. change (@nmul d64 D_num) with d_mul.
  set (p := for_up 0 _ _ _) in *. change (get (H := D_num) p) with (dget p) in G. assert (Lp : length p = (length f - 1)%nat) by lia. split; [exact Lp|].
  assert (E : (i < length f - 1)%nat -> dget p i = d_mul (dget f (S i)) (nofnat (H := D_num) (S i))).
  { intros Hi. rewrite G. destruct (Nat.leb_spec 0 i), (Nat.ltb_spec i (0 + porder f)); cbn [andb]; try lia. reflexivity. }
  destruct (Nat.lt_ge_cases i (length f - 1)) as [Hi|Hi].
  - destruct (nofnat_D (S i)) as (Fn & Vn). { eapply Rle_trans; [apply le_INR|exact Bf]. lia. }
    rewrite E by exact Hi. split.
    + intros F. rewrite (mul_val _ _ F), Vn. f_equal. ring.
    + intros Ff B. apply mul_R; auto. rewrite Vn, Rmult_comm. exact B.
  - assert (Z : dget p i = d_zero) by (apply nth_overflow; lia). assert (Zf : dget f (S i) = d_zero) by (apply nth_overflow; lia).
    rewrite Z, Zf. split; [|reflexivity]. intros _. rewrite dR_zero, Rmult_0_r. symmetry. apply (rnd_dR d_zero).
Qed.
Print Assumptions C84_derivative.

(** ** Products *)
Section Acc.
Variables a b : nat -> d64.
Let t (j : nat) : R := dR (a j) * dR (b j).
Let body (j : nat) (s : d64) : d64 := d_add s (d_mul (a j) (b j)).
Let q : R := 1 + dl.
Lemma q1 : 1 <= q. Proof. unfold q. pose proof dl_bounds. lra. Qed.
Lemma qn1 n : 1 <= q ^ n. Proof. apply pow_R1_Rle, q1. Qed.
Lemma tiny_pos : 0 < tiny. Proof. apply bpow_gt_0. Qed.

Lemma acc_err n : forall lo s, fin (for_up lo n body s) ->
  fin s /\ Rabs (dR (for_up lo n body s) - (dR s + bsum n (fun j => t (lo + j)%nat))) <=
    (q ^ n - 1) * Rabs (dR s) + (q ^ S n - 1) * bsum n (fun j => Rabs (t (lo + j)%nat)) + 2 * INR n * q ^ n * tiny.
Proof.
  induction n as [|n IH]; intros lo s F.
  - cbn [for_up bsum]. split; [exact F|]. simpl (INR 0). simpl (q ^ 0). replace (dR s - (dR s + 0)) with 0 by ring. rewrite Rabs_R0. lra.
  - cbn [for_up] in F |- *. destruct (IH _ _ F) as (Fb & E). unfold body in Fb. destruct (add_fin_inv _ _ Fb) as (Fs & Fp). split; [exact Fs|].
    rewrite !bsum_shift. rewrite Nat.add_0_r. rewrite (bsum_ext n (fun i => t (lo + S i)%nat) (fun j => t (S lo + j)%nat)) by (intros; f_equal; lia).
    rewrite (bsum_ext n (fun i => Rabs (t (lo + S i)%nat)) (fun j => Rabs (t (S lo + j)%nat))) by (intros; do 2 f_equal; lia).
    assert (EB : dR (body lo s) = drnd (dR s + drnd (t lo))) by (unfold body; rewrite (add_val _ _ Fb), (mul_val _ _ Fp); reflexivity). rewrite EB in E.
    set (res := dR (for_up (S lo) n body (body lo s))) in *. set (T := bsum n _) in *. set (A := bsum n (fun j => Rabs _)) in *.
    set (x := dR s) in *. set (y := t lo) in *.
    pose proof (rnd_err y) as E1. pose proof (rnd_err (x + drnd y)) as E2. set (p := drnd y) in *. set (s' := drnd (x + p)) in *.
    pose proof dl_bounds as Dl. pose proof tiny_pos as Ty. pose proof (qn1 n) as Qn. set (eta := tiny) in *.
    assert (B1 : Rabs (s' - (x + y)) <= dl * Rabs x + (2 * dl + dl * dl) * Rabs y + (2 + dl) * eta).
    { replace (s' - (x + y)) with ((s' - (x + p)) + (p - y)) by ring. eapply Rle_trans; [apply Rabs_triang|].
      assert (Rabs p <= (1 + dl) * Rabs y + eta). { replace p with (y + (p - y)) by ring. eapply Rle_trans; [apply Rabs_triang|]. lra. }
      assert (Rabs (x + p) <= Rabs x + ((1 + dl) * Rabs y + eta)). { eapply Rle_trans; [apply Rabs_triang|]. lra. }
      assert (dl * Rabs (x + p) <= dl * (Rabs x + ((1 + dl) * Rabs y + eta))) by (apply Rmult_le_compat_l; lra). lra. }
    assert (B2 : Rabs s' <= q * Rabs x + q * q * Rabs y + (2 + dl) * eta).
    { replace s' with ((x + y) + (s' - (x + y))) by ring. eapply Rle_trans; [apply Rabs_triang|]. pose proof (Rabs_triang x y). unfold q. lra. }
    replace (res - (x + (y + T))) with ((res - (s' + T)) + (s' - (x + y))) by ring. eapply Rle_trans; [apply Rabs_triang|].
    assert (B3 : (q ^ n - 1) * Rabs s' <= (q ^ n - 1) * (q * Rabs x + q * q * Rabs y + (2 + dl) * eta)) by (apply Rmult_le_compat_l; lra).
    assert (A0 : 0 <= A). { unfold A. rewrite <- (bsum_zero n (fun _ => 0)) by reflexivity. apply bsum_le. intros. apply Rabs_pos. }
    assert (B4 : (q ^ S n - 1) * A <= (q ^ S (S n) - 1) * A).
    { apply Rmult_le_compat_r; [exact A0|]. simpl (q ^ S (S n)). pose proof (qn1 (S n)) as X. simpl (q ^ S n) in X |- *. pose proof q1. nra. }
    rewrite S_INR. simpl (q ^ S (S n)) in *. simpl (q ^ S n) in *. set (Q := q ^ n) in *.
    assert (N0 : 0 <= INR n) by apply pos_INR. set (N := INR n) in *.
    assert (B5 : Q * (2 + dl) * eta + 2 * N * Q * eta <= 2 * (N + 1) * (q * Q) * eta).
    { assert (Q * (2 + dl) + 2 * N * Q <= 2 * (N + 1) * (q * Q)); [|nra]. unfold q. assert (0 <= N * Q) by nra. nra. }
    unfold q in *. clearbody Q A T N s' p x y res. clear - E B1 B3 B4 B5. lra.
Qed.
Lemma acc_err0 n lo : fin (for_up lo n body d_zero) ->
  Rabs (dR (for_up lo n body d_zero) - bsum n (fun j => t (lo + j)%nat)) <=
    (q ^ n - 1) * bsum n (fun j => Rabs (t (lo + j)%nat)) + 2 * INR n * q ^ n * tiny.
Proof.
  destruct n as [|n]; intros F.
  - cbn [for_up bsum]. simpl (INR 0). simpl (q ^ 0). rewrite dR_zero, Rminus_0_r, Rabs_R0. lra.
  - cbn [for_up] in F |- *. destruct (acc_err _ _ _ F) as (Fb & E). unfold body in Fb. destruct (add_fin_inv _ _ Fb) as (_ & Fp).
    assert (P : drnd (drnd (t lo)) = drnd (t lo)) by (unfold t; rewrite <- (mul_val _ _ Fp); apply rnd_dR).
    assert (EB : dR (body lo d_zero) = drnd (t lo)) by (unfold body; rewrite (add_val _ _ Fb), (mul_val _ _ Fp), dR_zero, Rplus_0_l; exact P). rewrite EB in E.
    rewrite !bsum_shift. rewrite Nat.add_0_r. rewrite (bsum_ext n (fun i => t (lo + S i)%nat) (fun j => t (S lo + j)%nat)) by (intros; f_equal; lia).
    rewrite (bsum_ext n (fun i => Rabs (t (lo + S i)%nat)) (fun j => Rabs (t (S lo + j)%nat))) by (intros; do 2 f_equal; lia).
    set (res := dR (for_up (S lo) n body (body lo d_zero))) in *. set (T := bsum n _) in *. set (A := bsum n (fun j => Rabs _)) in *.
    set (y := t lo) in *. pose proof (rnd_err y) as E1. set (p := drnd y) in *.
    pose proof dl_bounds as Dl. pose proof tiny_pos as Ty. pose proof (qn1 n) as Qn. set (eta := tiny) in *.
    assert (B2 : Rabs p <= q * Rabs y + eta). { replace p with (y + (p - y)) by ring. eapply Rle_trans; [apply Rabs_triang|]. unfold q. lra. }
    replace (res - (y + T)) with ((res - (p + T)) + (p - y)) by ring. eapply Rle_trans; [apply Rabs_triang|].
    assert (B3 : (q ^ n - 1) * Rabs p <= (q ^ n - 1) * (q * Rabs y + eta)) by (apply Rmult_le_compat_l; lra).
    rewrite S_INR. simpl (q ^ S n) in *. set (Q := q ^ n) in *.
    assert (N0 : 0 <= INR n) by apply pos_INR. set (N := INR n) in *.
    assert (B5 : Q * eta + 2 * N * Q * eta <= 2 * (N + 1) * (q * Q) * eta).
    { assert (Q + 2 * N * Q <= 2 * (N + 1) * (q * Q)); [|nra]. unfold q. assert (0 <= N * Q) by nra. nra. }
    unfold q in *. clearbody Q A T N p y res. clear - E E1 B3 B5. lra.
Qed.

(** no overflow *)
Hypothesis Fa : forall j, fin (a j).
Hypothesis Fb : forall j, fin (b j).
Lemma acc_fin n : forall lo s, fin s -> INR n <= 2 ^ 40 ->
  q ^ n * (Rabs (dR s) + q * bsum n (fun j => Rabs (t (lo + j)%nat)) + 3 * INR n * tiny) <= bpow radix2 1000 -> fin (for_up lo n body s).
Proof.
  induction n as [|n IH]; intros lo s Fs HN B; [exact Fs|]. cbn [for_up].
  rewrite bsum_shift, Nat.add_0_r in B. rewrite (bsum_ext n (fun i => Rabs (t (lo + S i)%nat)) (fun j => Rabs (t (S lo + j)%nat))) in B by (intros; do 2 f_equal; lia).
  rewrite S_INR in B, HN. pose proof (pos_INR n) as N0. set (A := bsum n (fun j => Rabs _)) in *. set (y := t lo) in *.
  assert (A0 : 0 <= A). { unfold A. rewrite <- (bsum_zero n (fun _ => 0)) by reflexivity. apply bsum_le. intros. apply Rabs_pos. }
  pose proof (Rabs_pos y) as Y0. pose proof (Rabs_pos (dR s)) as S0. pose proof q1 as Q1. pose proof (qn1 n) as Qn. pose proof tiny_pos as Ty. pose proof dl_bounds as Dl.
  simpl (q ^ S n) in B. set (Q := q ^ n) in *. set (N := INR n) in *.
  set (W := Rabs (dR s) + q * (Rabs y + A) + 3 * (N + 1) * tiny) in *.
  assert (NT : 0 <= N * tiny) by (apply Rmult_le_pos; lra).
  assert (QA : 0 <= q * A) by (apply Rmult_le_pos; lra). assert (QY : Rabs y <= q * Rabs y) by nra.
  assert (W0 : 0 <= W) by (unfold W; lra).
  assert (WB : q * W <= bpow radix2 1000). { eapply Rle_trans; [|exact B]. apply Rmult_le_compat_r; [exact W0|]. nra. }
  assert (WB1 : W <= bpow radix2 1000) by nra.
  destruct (mul_R (a lo) (b lo) (Fa lo) (Fb lo)) as (Fp & Vp). { fold (t lo) y. unfold W in WB1. lra. }
  fold (t lo) in Vp. fold y in Vp. pose proof (rnd_err y) as E1.
  assert (P1 : Rabs (drnd y) <= q * Rabs y + tiny). { replace (drnd y) with (y + (drnd y - y)) by ring. eapply Rle_trans; [apply Rabs_triang|]. unfold q. lra. }
  destruct (add_R s (d_mul (a lo) (b lo)) Fs Fp) as (Fsp & Vsp & _).
  { rewrite Vp. eapply Rle_trans; [apply Rabs_triang|]. unfold W in WB1. lra. }
  apply IH; [exact Fsp|lra|]. unfold body. rewrite Vsp, Vp. pose proof (rnd_err (dR s + drnd y)) as E2.
  assert (P2 : Rabs (drnd (dR s + drnd y)) <= q * (Rabs (dR s) + q * Rabs y + tiny) + tiny).
  { replace (drnd (dR s + drnd y)) with ((dR s + drnd y) + (drnd (dR s + drnd y) - (dR s + drnd y))) by ring. eapply Rle_trans; [apply Rabs_triang|].
    assert (Rabs (dR s + drnd y) <= Rabs (dR s) + q * Rabs y + tiny) by (eapply Rle_trans; [apply Rabs_triang|]; lra).
    assert (q * Rabs (dR s + drnd y) <= q * (Rabs (dR s) + q * Rabs y + tiny)) by (apply Rmult_le_compat_l; lra). unfold q in *. lra. }
  eapply Rle_trans; [|exact B]. replace (q * Q * W) with (Q * (q * W)) by ring. apply Rmult_le_compat_l; [lra|]. unfold W.
  assert (q * A <= q * (q * A)) by (rewrite <- (Rmult_1_l (q * A)) at 1; apply Rmult_le_compat_r; lra). assert (N * tiny <= q * (N * tiny)) by (rewrite <- (Rmult_1_l (N * tiny)) at 1; apply Rmult_le_compat_r; lra).
  assert (tiny <= q * tiny) by (rewrite <- (Rmult_1_l tiny) at 1; apply Rmult_le_compat_r; lra). change (bsum n (fun j => Rabs (t (S lo + j)%nat))) with A. change (INR n) with N. lra.
Qed.
End Acc.

Lemma sum_bsum F n : sum_f_R0 F n = bsum (S n) F.
Proof. induction n as [|n IH]; [cbn; lra|]. cbn [sum_f_R0]. rewrite IH. reflexivity. Qed.
Lemma window_sums (f g : list d64) (h : R -> R) k : f <> [] -> g <> [] -> h 0 = 0 -> (forall x y, h (x * y) = h x * h y) ->
  bsum (snd (window f g k)) (fun j => h (dR (dget f (fst (window f g k) + j)) * dR (dget g (k - (fst (window f g k) + j))))) =
  sum_f_R0 (fun j => h (dR (dget f j) * dR (dget g (k - j)))) k.
Proof.
  intros Nf Ng H0 Hm. rewrite sum_bsum. set (F := map h (map dR f)). set (G := map h (map dR g)).
  assert (EF : forall j, get F j = h (dR (dget f j))) by (intros j; rewrite <- get_dR; unfold F, get; rewrite <- H0 at 1; apply map_nth).
  assert (EG : forall j, get G j = h (dR (dget g j))) by (intros j; rewrite <- get_dR; unfold G, get; rewrite <- H0 at 1; apply map_nth).
  assert (NF : F <> []) by (unfold F; destruct f; [congruence|discriminate]). assert (NG : G <> []) by (unfold G; destruct g; [congruence|discriminate]).
  pose proof (conv_window F G k NF NG) as W. cbn zeta in W.
  assert (PF : porder F = porder f) by (unfold porder, F; now rewrite !map_length). assert (PG : porder G = porder g) by (unfold porder, G; now rewrite !map_length).
  rewrite PF, PG in W. unfold conv in W. unfold window. cbn [fst snd].
  rewrite (bsum_ext (S k) _ (fun j => get F j * get G (k - j))) by (intros; rewrite Hm, EF, EG; reflexivity).
  rewrite <- W. apply bsum_ext. intros j _. now rewrite Hm, EF, EG.
Qed.

(** A coefficient of a product is the exact one up to the rounding errors of the at most
    min(N,M)+1 products and sums it is made of. *)
Theorem C84_product : forall (f g : list d64) (k : nat), f <> [] -> g <> [] ->
  let exact := sum_f_R0 (fun j => dR (dget f j) * dR (dget g (k - j))) k in
  let size := sum_f_R0 (fun j => Rabs (dR (dget f j) * dR (dget g (k - j)))) k in
  let n := Nat.min (length f) (length g) in
  length (poly_mul (H := D_num) f g) = (length f + length g - 1)%nat /\
  (fin (dget (poly_mul (H := D_num) f g) k) ->
   Rabs (dR (dget (poly_mul (H := D_num) f g) k) - exact) <=
     ((1 + bpow radix2 (-53)) ^ n - 1) * size + INR n * (1 + bpow radix2 (-53)) ^ n * bpow radix2 (-1074)) /\
  (Forall (fun c => fin c) f -> Forall (fun c => fin c) g -> INR n <= 2 ^ 40 -> size <= bpow radix2 998 ->
   fin (dget (poly_mul (H := D_num) f g) k)).
Proof.
  intros f g k Nf Ng exact size n. destruct (mul_entry (H := D_num) f g Nf Ng) as (L & E).
  assert (Lf : length f = S (porder f)) by (unfold porder; destruct f; [congruence|reflexivity]).
  assert (Lg : length g = S (porder g)) by (unfold porder; destruct g; [congruence|reflexivity]).
  split; [rewrite L; lia|].
  assert (S0 : 0 <= size). { unfold size. apply cond_pos_sum. intros. apply Rabs_pos. }
  pose proof dl_bounds as Dl. change (bpow radix2 (-53)) with dl. pose proof tiny_pos as Ty.
  assert (T2 : bpow radix2 (-1074) = 2 * tiny). { unfold tiny. change (bpow radix2 (-1074)) with (bpow radix2 (1 + -1075)). rewrite bpow_plus. simpl (bpow radix2 1). lra. }
  rewrite T2. pose proof (pos_INR n) as Pn. assert (Qn : 1 <= (1 + dl) ^ n) by (apply pow_R1_Rle; lra).
  destruct (Nat.le_gt_cases k (porder f + porder g)) as [Hk|Hk].
  - specialize (E k Hk). change (get (H := D_num) (poly_mul (H := D_num) f g) k) with (dget (poly_mul (H := D_num) f g) k) in E. rewrite E.
    pose proof (window_sums f g (fun x => x) k Nf Ng eq_refl (fun _ _ => eq_refl)) as W1. cbn beta in W1. fold exact in W1.
    pose proof (window_sums f g Rabs k Nf Ng Rabs_R0 Rabs_mult) as W2. fold size in W2.
    set (lo := fst (window f g k)) in *. set (m := snd (window f g k)) in *.
    assert (Hm : (m <= n)%nat). { unfold m, n, window. cbn [snd]. destruct (Nat.ltb_spec (porder g) k); lia. }
    assert (Im : INR m <= INR n) by (apply le_INR, Hm). assert (Qm : (1 + dl) ^ m <= (1 + dl) ^ n) by (apply Rle_pow; [lra|exact Hm]).
    assert (Qm1 : 1 <= (1 + dl) ^ m) by (apply pow_R1_Rle; lra).
    change (@nadd d64 D_num) with d_add. change (@nmul d64 D_num) with d_mul. change (@n0 d64 D_num) with d_zero.
    change (@get d64 D_num f) with (dget f). change (@get d64 D_num g) with (dget g). split.
    + intros F. pose proof (acc_err0 (dget f) (fun j => dget g (k - j)) m lo F) as B. cbn beta in B. rewrite W1, W2 in B.
      eapply Rle_trans; [exact B|]. pose proof (pos_INR m). apply Rplus_le_compat; [apply Rmult_le_compat_r; lra|].
      replace (2 * INR m * (1 + dl) ^ m * tiny) with (2 * tiny * (INR m * (1 + dl) ^ m)) by ring.
      replace (INR n * (1 + dl) ^ n * (2 * tiny)) with (2 * tiny * (INR n * (1 + dl) ^ n)) by ring.
      apply Rmult_le_compat_l; [lra|]. apply Rmult_le_compat; lra.
    + intros Ff Fg HN HS. apply (acc_fin (dget f) (fun j => dget g (k - j))).
      * intros j. unfold dget. rewrite Forall_forall in Ff. destruct (nth_in_or_default j f d_zero) as [I| ->]; [apply Ff, I|reflexivity].
      * intros j. unfold dget. rewrite Forall_forall in Fg. destruct (nth_in_or_default (k - j) g d_zero) as [I| ->]; [apply Fg, I|reflexivity].
      * reflexivity.
      * lra.
      * cbn beta. rewrite W2, dR_zero, Rabs_R0, Rplus_0_l.
        assert (HN1 : INR n * dl <= / 1000). { pose proof (dl_small n ltac:(lra)). lra. }
        pose proof (pow_bound dl ltac:(lra) n HN1) as PB. assert (P2 : (1 + dl) ^ m <= 2) by lra.
        pose proof (bpow_gt_0 radix2 998) as B0. change (bpow radix2 1000) with (bpow radix2 (2 + 998)). rewrite bpow_plus. change (bpow radix2 2) with 4.
        assert (T3 : 3 * INR m * tiny <= / 4 * bpow radix2 998).
        { assert (INR m * tiny <= bpow radix2 40 * tiny). { apply Rmult_le_compat_r; [lra|]. change (bpow radix2 40) with (IZR (2 ^ 40)). replace (IZR (2 ^ 40)) with (2 ^ 40); [lra|]. rewrite pow_IZR. reflexivity. }
          assert (bpow radix2 40 * tiny <= / 16 * bpow radix2 998). { unfold tiny. rewrite <- bpow_plus. replace (/ 16) with (bpow radix2 (-4)) by (simpl; lra). rewrite <- bpow_plus. apply bpow_le. lia. }
          lra. }
        assert (0 <= INR m * tiny) by (apply Rmult_le_pos; [apply pos_INR|lra]).
        assert ((1 + dl) * size + 3 * INR m * tiny <= 2 * bpow radix2 998).
        { assert (dl * size <= / 2 * bpow radix2 998) by (eapply Rle_trans; [apply Rmult_le_compat_l; [|exact HS]; lra|]; apply Rmult_le_compat_r; lra). lra. }
        assert (0 <= (1 + dl) * size + 3 * INR m * tiny) by nra. nra.
  - assert (Z : dget (poly_mul (H := D_num) f g) k = d_zero) by (apply nth_overflow; lia). rewrite Z. split; [|reflexivity]. intros _.
    assert (X : exact = 0).
    { unfold exact. apply sum_eq_R0. intros j Hj. destruct (Nat.lt_ge_cases j (length f)).
      - replace (dget g (k - j)) with d_zero by (symmetry; apply nth_overflow; lia). rewrite dR_zero. lra.
      - replace (dget f j) with d_zero by (symmetry; apply nth_overflow; lia). rewrite dR_zero. lra. }
    rewrite X, dR_zero, Rminus_0_r, Rabs_R0. assert (0 <= INR n * (1 + dl) ^ n) by nra.
    assert (0 <= ((1 + dl) ^ n - 1) * size) by (apply Rmult_le_pos; lra). nra.
Qed.
Print Assumptions C84_product.

(** ** Which laws of algebra survive *)
Lemma add_comm_val a b : fin (d_add a b) -> fin (d_add b a) /\ dR (d_add b a) = dR (d_add a b).
Proof.
  intros F. destruct (add_fin_inv _ _ F) as (Fa & Fb).
  pose proof (Bplus_correct 53 1024 eq_refl eq_refl binop_nan_pl64 BinarySingleNaN.mode_NE a b Fa Fb) as C.
  pose proof (Bplus_correct 53 1024 eq_refl eq_refl binop_nan_pl64 BinarySingleNaN.mode_NE b a Fb Fa) as C'.
  rewrite (Rplus_comm (B2R 53 1024 b)) in C'. destruct (Rlt_bool _ _).
  - destruct C as (C1 & _), C' as (C1' & C2' & _). split; [exact C2'|]. etransitivity; [exact C1'|symmetry; exact C1].
  - destruct C as (C & _). exfalso. unfold d_add, b64_plus in F.
    destruct (Bplus _ _ _ _ _ _ _ _) in *; try discriminate F; discriminate C.
Qed.
Lemma mul_comm_val a b : fin (d_mul a b) -> fin (d_mul b a) /\ dR (d_mul b a) = dR (d_mul a b).
Proof.
  intros F. destruct (mul_fin_inv _ _ F) as (Fa & Fb).
  pose proof (Bmult_correct 53 1024 eq_refl eq_refl binop_nan_pl64 BinarySingleNaN.mode_NE a b) as C.
  pose proof (Bmult_correct 53 1024 eq_refl eq_refl binop_nan_pl64 BinarySingleNaN.mode_NE b a) as C'.
  rewrite (Rmult_comm (B2R 53 1024 b)) in C'. destruct (Rlt_bool _ _).
  - destruct C as (C1 & _), C' as (C1' & C2' & _). rewrite Fa, Fb in C2'. split; [exact C2'|]. etransitivity; [exact C1'|symmetry; exact C1].
  - exfalso. unfold d_mul, b64_mult in F. destruct (Bmult _ _ _ _ _ _ _ _) in *; try discriminate F; discriminate C.
Qed.
Lemma mul_opp_val a b : fin (d_mul a b) -> fin (d_mul (d_opp a) b) /\ dR (d_mul (d_opp a) b) = - dR (d_mul a b).
Proof.
  intros F. destruct (mul_fin_inv _ _ F) as (Fa & Fb). destruct (opp_R a Fa) as (Fo & Vo & _).
  pose proof (Bmult_correct 53 1024 eq_refl eq_refl binop_nan_pl64 BinarySingleNaN.mode_NE a b) as C.
  pose proof (Bmult_correct 53 1024 eq_refl eq_refl binop_nan_pl64 BinarySingleNaN.mode_NE (d_opp a) b) as C'.
  change (B2R 53 1024 (d_opp a)) with (dR (d_opp a)) in C'. rewrite Vo in C'. change (B2R 53 1024 a) with (dR a) in C. change (B2R 53 1024 b) with (dR b) in C, C'.
  replace (- dR a * dR b) with (- (dR a * dR b)) in C' by ring.
  change (round radix2 (SpecFloat.fexp 53 1024) (BinarySingleNaN.round_mode BinarySingleNaN.mode_NE)) with (round radix2 dexp ZnearestE) in C, C'.
  rewrite rnd_opp, Rabs_Ropp in C'. destruct (Rlt_bool _ _).
  - destruct C as (C1 & _), C' as (C1' & C2' & _). rewrite Fo, Fb in C2'. split; [exact C2'|]. etransitivity; [exact C1'|]. f_equal. symmetry. exact C1.
  - exfalso. unfold d_mul, b64_mult in F. destruct (Bmult _ _ _ _ _ _ _ _) in *; try discriminate F; discriminate C.
Qed.
Lemma add_opp_val a b a' b' : fin (d_add a b) -> fin a' -> fin b' -> dR a' = - dR a -> dR b' = - dR b ->
  fin (d_add a' b') /\ dR (d_add a' b') = - dR (d_add a b).
Proof.
  intros F Fa' Fb' Ea Eb. destruct (add_fin_inv _ _ F) as (Fa & Fb).
  pose proof (Bplus_correct 53 1024 eq_refl eq_refl binop_nan_pl64 BinarySingleNaN.mode_NE a b Fa Fb) as C.
  pose proof (Bplus_correct 53 1024 eq_refl eq_refl binop_nan_pl64 BinarySingleNaN.mode_NE a' b' Fa' Fb') as C'.
  change (B2R 53 1024 a') with (dR a') in C'. change (B2R 53 1024 b') with (dR b') in C'. rewrite Ea, Eb in C'.
  change (B2R 53 1024 a) with (dR a) in C. change (B2R 53 1024 b) with (dR b) in C.
  replace (- dR a + - dR b) with (- (dR a + dR b)) in C' by ring.
  change (round radix2 (SpecFloat.fexp 53 1024) (BinarySingleNaN.round_mode BinarySingleNaN.mode_NE)) with (round radix2 dexp ZnearestE) in C, C'.
  rewrite rnd_opp, Rabs_Ropp in C'. destruct (Rlt_bool _ _).
  - destruct C as (C1 & _), C' as (C1' & C2' & _). split; [exact C2'|]. etransitivity; [exact C1'|]. f_equal. symmetry. exact C1.
  - destruct C as (C & _). exfalso. unfold d_add, b64_plus in F.
    destruct (Bplus _ _ _ _ _ _ _ _) in *; try discriminate F; discriminate C.
Qed.
Lemma acc_opp a b n : forall lo s s', fin (for_up lo n (fun j s => d_add s (d_mul (a j) (b j))) s) -> fin s' -> dR s' = - dR s ->
  fin (for_up lo n (fun j s => d_add s (d_mul (d_opp (a j)) (b j))) s') /\
  dR (for_up lo n (fun j s => d_add s (d_mul (d_opp (a j)) (b j))) s') = - dR (for_up lo n (fun j s => d_add s (d_mul (a j) (b j))) s).
Proof.
  induction n as [|n IH]; intros lo s s' F Fs' E; [split; assumption|]. cbn [for_up] in F |- *.
  assert (Fb : fin (d_add s (d_mul (a lo) (b lo)))).
  { pose proof (acc_err a b n (S lo) _ F) as (X & _). exact X. }
  destruct (add_fin_inv _ _ Fb) as (Fs & Fp). destruct (mul_opp_val _ _ Fp) as (Fp' & Ep').
  destruct (add_opp_val _ _ s' _ Fb Fs' Fp' E Ep') as (Fn & En). apply IH; auto.
Qed.
Lemma dget_neg f i : dget (poly_neg (H := D_num) f) i = if (i <? length f)%nat then d_opp (dget f i) else d_zero.
Proof.
  unfold poly_neg, dget. destruct (Nat.ltb_spec i (length f)) as [Hi|Hi].
  - rewrite (nth_indep _ _ (d_opp d_zero)) by now rewrite map_length. cbn [nopp D_num]. apply map_nth.
  - apply nth_overflow. now rewrite map_length.
Qed.

(** Addition commutes; signs go through products. *)
Theorem C84_laws : forall (f g : list d64) (i : nat), f <> [] -> g <> [] ->
  (fin (dget (poly_add (H := D_num) f g) i) ->
   fin (dget (poly_add (H := D_num) g f) i) /\
   dR (dget (poly_add (H := D_num) g f) i) = dR (dget (poly_add (H := D_num) f g) i)) /\
  (fin (dget (poly_mul (H := D_num) f g) i) ->
   fin (dget (poly_mul (H := D_num) (poly_neg (H := D_num) f) g) i) /\
   dR (dget (poly_mul (H := D_num) (poly_neg (H := D_num) f) g) i) = - dR (dget (poly_mul (H := D_num) f g) i)).
Proof.
  intros f g i Nf Ng. split.
  - unfold poly_add. change (@nadd d64 D_num) with d_add. destruct (addsub_entry (H := D_num) d_add f g i Nf Ng) as (L & E).
    destruct (addsub_entry (H := D_num) d_add g f i Ng Nf) as (L' & E').
    unfold get in E, E'. cbn [n0 D_num] in E, E'. fold (dget f i) (dget g i) in E, E'.
    set (p := poly_addsub (H := D_num) d_add f g) in *. set (p' := poly_addsub (H := D_num) d_add g f) in *.
    change (nth i p d_zero) with (dget p i) in E. change (nth i p' d_zero) with (dget p' i) in E'. rewrite (Nat.max_comm (length g)) in L', E'.
    destruct (Nat.lt_ge_cases i (Nat.max (length f) (length g))) as [Hi|Hi].
    + rewrite E, E' by exact Hi. apply add_comm_val.
    + intros _. replace (dget p' i) with d_zero by (symmetry; apply nth_overflow; lia). replace (dget p i) with d_zero by (symmetry; apply nth_overflow; lia). auto.
  - set (nf := poly_neg (H := D_num) f). assert (Nnf : nf <> []) by (unfold nf, poly_neg; destruct f; [congruence|discriminate]).
    assert (Ln : length nf = length f) by (unfold nf, poly_neg; apply map_length).
    destruct (mul_entry (H := D_num) f g Nf Ng) as (L & E). destruct (mul_entry (H := D_num) nf g Nnf Ng) as (L' & E').
    assert (Lf : length f = S (porder f)) by (unfold porder; destruct f; [congruence|reflexivity]).
    assert (P : porder nf = porder f) by (unfold porder; now rewrite Ln). rewrite P in L', E'.
    destruct (Nat.le_gt_cases i (porder f + porder g)) as [Hi|Hi].
    + specialize (E i Hi). specialize (E' i Hi).
      change (get (H := D_num) (poly_mul (H := D_num) f g) i) with (dget (poly_mul (H := D_num) f g) i) in E.
      change (get (H := D_num) (poly_mul (H := D_num) nf g) i) with (dget (poly_mul (H := D_num) nf g) i) in E'.
      assert (W : window nf g i = window f g i) by (unfold window; now rewrite P). rewrite W in E'.
      set (lo := fst (window f g i)) in *. set (m := snd (window f g i)) in *. assert (Wm : (lo + m <= length f)%nat \/ m = 0%nat).
      { unfold lo, m, window. cbn [fst snd]. destruct (Nat.ltb_spec (porder g) i); lia. }
      assert (E2 : dget (poly_mul (H := D_num) nf g) i = for_up lo m (fun j s => d_add s (d_mul (d_opp (dget f j)) (dget g (i - j)))) d_zero).
      { rewrite E'. assert (X : forall m lo s, (lo + m <= length f \/ m = 0)%nat -> for_up lo m (fun j s => nadd (Num := D_num) s (nmul (Num := D_num) (get (H := D_num) nf j) (get (H := D_num) g (i - j)))) s = for_up lo m (fun j s => d_add s (d_mul (d_opp (dget f j)) (dget g (i - j)))) s); [|apply X; exact Wm].
        clear. induction m as [|m IHm]; intros lo s Hj; [reflexivity|]. cbn [for_up]. rewrite IHm by lia. f_equal. rename lo into j. change (@nadd d64 D_num) with d_add. change (@nmul d64 D_num) with d_mul. change (get (H := D_num) g) with (dget g). change (get (H := D_num) nf j) with (dget nf j). unfold nf. rewrite dget_neg.
        destruct (Nat.ltb_spec j (length f)); [reflexivity|lia]. }
      rewrite E, E2. intros F. apply (acc_opp (dget f) (fun j => dget g (i - j)) m lo d_zero d_zero F eq_refl). rewrite dR_zero. lra.
    + intros _. replace (dget (poly_mul (H := D_num) nf g) i) with d_zero by (symmetry; apply nth_overflow; rewrite L'; lia).
      replace (dget (poly_mul (H := D_num) f g) i) with d_zero by (symmetry; apply nth_overflow; rewrite L; lia). rewrite dR_zero. split; [reflexivity|lra].
Qed.
Print Assumptions C84_laws.

(** Sums are not associative, products do not commute from three terms on. *)
Theorem C84_associative_refuted : exists f g h : list d64,
  d_eq (dget (poly_add (H := D_num) (poly_add (H := D_num) f g) h) 0) (dget (poly_add (H := D_num) f (poly_add (H := D_num) g h)) 0) = false.
Proof. exists [d_lit 1 53], [d_one], [d_one]. vm_compute. reflexivity. Qed.
Theorem C84_commutative_refuted : exists f g : list d64,
  d_eq (dget (poly_mul (H := D_num) f g) 2) (dget (poly_mul (H := D_num) g f) 2) = false.
Proof. exists (dlist [1; 1; 1]%Z), [d_one; d_one; d_lit 1 53]. vm_compute. reflexivity. Qed.
Print Assumptions C84_commutative_refuted.

Example C84_ex : let f := dlist [1; -3; 2]%Z in let g := dlist [5; 1]%Z in
  let eqs := fun p q => map (fun c => d_eq (fst c) (snd c)) (combine p q) in
  Forall (fun c => fin c) f /\ eqs (poly_mul (H := D_num) f g) (dlist [5; -14; 7; 2]%Z) = [true; true; true; true] /\
  eqs (poly_add (H := D_num) f g) (dlist [6; -2; 2]%Z) = [true; true; true] /\
  eqs (poly_derivative (H := D_num) true f) (dlist [-3; 4]%Z) = [true; true] /\
  eqs (poly_div0 (H := D_num) (dlist [6; -2; 2]%Z) (d_lit 2 0)) (dlist [3; -1; 1]%Z) = [true; true; true].
Proof. cbv zeta. split; [repeat constructor|]. split; [vm_compute; reflexivity|]. split; [vm_compute; reflexivity|]. split; vm_compute; reflexivity. Qed.

(** ** Division with remainder *)
Lemma gen_upd_off {K} `{Num K} (F : nat -> K -> K) n : forall lo off r, (off + lo + n <= length r)%nat ->
  let r' := for_up lo n (fun j r => upd r (off + j) (F j (get r (off + j)))) r in
  length r' = length r /\
  forall i, get r' i = if ((off + lo <=? i) && (i <? off + lo + n))%nat%bool then F (i - off)%nat (get r i) else get r i.
Proof.
  induction n as [|n IH]; intros lo off r Hn; cbn zeta.
  - cbn [for_up]. split; [reflexivity|]. intros i.
    destruct (Nat.leb_spec (off + lo) i), (Nat.ltb_spec i (off + lo + 0)); cbn [andb]; try reflexivity; lia.
  - cbn [for_up]. set (r1 := upd r _ _).
    assert (Hl : length r1 = length r) by apply upd_length.
    destruct (IH (S lo) off r1 ltac:(lia)) as [Hlen Hg]. split; [congruence|].
    intros i. rewrite Hg. unfold r1.
    destruct (Nat.leb_spec (off + S lo) i), (Nat.ltb_spec i (off + S lo + n)),
             (Nat.leb_spec (off + lo) i), (Nat.ltb_spec i (off + lo + S n)); cbn [andb]; try lia;
    try (rewrite !get_upd_neq by lia; reflexivity).
    assert (i = (off + lo)%nat) by lia. subst i. rewrite get_upd_eq by lia. f_equal. lia.
Qed.

Section Division.
Variable g : list d64.
Variable m : nat.                       (* the order of the divisor *)
Hypothesis Fg : forall j, fin (dget g j).
Hypothesis Gm : forall j, (m < j)%nat -> dR (dget g j) = 0.
Let lead := dget g m.
Let w : R := 1 + dl.
Definition div_step (k : nat) (s : list d64 * list d64) : list d64 * list d64 :=
  let '(q, r) := s in
  let c := d_div (dget r k) lead in
  (upd q (k - m) c, for_up 0 (S m) (fun j r => upd r (k + j - m) (d_sub (dget r (k + j - m)) (d_mul c (dget g j)))) r).
Definition term (q : list d64) (i j : nat) : R := if (j <=? i)%nat then dR (dget q j) * dR (dget g (i - j)) else 0.
Definition rest (r : list d64) (i : nat) : R := if (i <? m)%nat then dR (dget r i) else 0.

Lemma sub_fin_step a c b : fin (d_sub a (d_mul c b)) ->
  fin a /\ Rabs (dR (d_sub a (d_mul c b)) - (dR a - dR c * dR b)) <= dl * Rabs (dR a) + (w * w - 1) * Rabs (dR c * dR b) + (2 + dl) * tiny /\
  Rabs (dR (d_sub a (d_mul c b))) <= w * Rabs (dR a) + w * w * Rabs (dR c * dR b) + (2 + dl) * tiny.
Proof.
  intros F. destruct (sub_fin_inv _ _ F) as (Fa & Fp). split; [exact Fa|]. rewrite (sub_val _ _ F), (mul_val _ _ Fp).
  set (x := dR a). set (y := dR c * dR b). pose proof (rnd_err y) as E1. pose proof (rnd_err (x - drnd y)) as E2. set (p := drnd y) in *. set (s := drnd (x - p)) in *.
  pose proof dl_bounds as Dl. pose proof tiny_pos as Ty.
  assert (Rabs p <= (1 + dl) * Rabs y + tiny). { replace p with (y + (p - y)) by ring. eapply Rle_trans; [apply Rabs_triang|]. lra. }
  assert (Rabs (x - p) <= Rabs x + ((1 + dl) * Rabs y + tiny)). { unfold Rminus. eapply Rle_trans; [apply Rabs_triang|]. rewrite Rabs_Ropp. lra. }
  assert (dl * Rabs (x - p) <= dl * (Rabs x + ((1 + dl) * Rabs y + tiny))) by (apply Rmult_le_compat_l; lra).
  assert (B1 : Rabs (s - (x - y)) <= dl * Rabs x + (w * w - 1) * Rabs y + (2 + dl) * tiny).
  { replace (s - (x - y)) with ((s - (x - p)) - (p - y)) by ring. unfold Rminus at 1. eapply Rle_trans; [apply Rabs_triang|]. rewrite Rabs_Ropp. unfold w. lra. }
  split; [exact B1|]. replace s with ((x - y) + (s - (x - y))) by ring. eapply Rle_trans; [apply Rabs_triang|].
  assert (Rabs (x - y) <= Rabs x + Rabs y). { unfold Rminus. eapply Rle_trans; [apply Rabs_triang|]. rewrite Rabs_Ropp. lra. }
  unfold w in *. lra.
Qed.

Lemma step_entries k q r : (m <= k < length r)%nat ->
  let r' := snd (div_step k (q, r)) in let c := d_div (dget r k) lead in
  length r' = length r /\
  forall i, dget r' i = if ((k - m <=? i) && (i <=? k))%nat%bool then d_sub (dget r i) (d_mul c (dget g (i - (k - m)))) else dget r i.
Proof.
  intros Hk. cbn zeta. unfold div_step. cbn [snd]. set (c := d_div (dget r k) lead).
  rewrite (for_up_ext _ (fun j r => upd r (k - m + j) (d_sub (get (H := D_num) r (k - m + j)) (d_mul c (dget g j))))).
  2:{ intros j s. replace (k + j - m)%nat with (k - m + j)%nat by lia. reflexivity. }
  destruct (gen_upd_off (H := D_num) (fun j s => d_sub s (d_mul c (dget g j))) (S m) 0 (k - m) r ltac:(lia)) as (L & G). cbn zeta in *.
  split; [exact L|]. intros i. unfold get in G. cbn [n0 D_num] in G. unfold dget at 1. etransitivity; [apply G|].
  destruct (Nat.leb_spec (k - m + 0) i), (Nat.ltb_spec i (k - m + 0 + S m)), (Nat.leb_spec (k - m) i), (Nat.leb_spec i k); cbn [andb]; try lia; reflexivity.
Qed.

Lemma div_loop n : forall k q r, (k = m + n - 1)%nat -> (k < length r)%nat -> (n + m <= length q + m)%nat -> (1 <= n)%nat ->
  fin lead -> dR lead <> 0 ->
  let '(q', r') := for_down k n div_step (q, r) in
  length q' = length q /\ length r' = length r /\ (forall j, (n <= j)%nat -> dget q' j = dget q j) /\
  ((forall j, (j < n)%nat -> fin (dget q' j)) -> (forall i, (i < m)%nat -> fin (dget r' i)) ->
   (forall i, (i <= k)%nat -> fin (dget r i)) /\
   forall i, (i <= k)%nat ->
     Rabs (dR (dget r i) - (bsum n (term q' i) + rest r' i)) <=
       (w ^ n - 1) * Rabs (dR (dget r i)) + (w ^ S n - 1) * bsum n (fun j => Rabs (term q' i j)) + 2 * INR n * w ^ n * tiny + tiny * Rabs (dR lead)).
Proof.
  pose proof dl_bounds as Dl. pose proof tiny_pos as Ty. assert (W1 : 1 <= w) by (unfold w; lra).
  induction n as [|n IH]; intros k q r Hk Hr Hq Hn Fl Nl; [lia|]. cbn [for_down].
  destruct (step_entries k q r ltac:(lia)) as (L1 & G1). cbn zeta in L1, G1.
  assert (Es : div_step k (q, r) = (upd q n (d_div (dget r k) lead), snd (div_step k (q, r)))).
  { unfold div_step. cbn [snd]. replace (k - m)%nat with n by lia. reflexivity. }
  rewrite Es. set (c := d_div (dget r k) lead) in *. set (r1 := snd (div_step k (q, r))) in *. set (q1 := upd q n c).
  assert (Lq1 : length q1 = length q) by apply upd_length. assert (Q1n : dget q1 n = c).
  { unfold q1, dget. rewrite nth_upd, Nat.eqb_refl. destruct (Nat.ltb_spec n (length q)); [reflexivity|lia]. }
  assert (Qo : forall j, (n < j)%nat -> dget q1 j = dget q j).
  { intros j Hj. unfold q1, dget. rewrite nth_upd. destruct (Nat.eqb_spec n j); [lia|reflexivity]. }
  replace (k - m)%nat with n in G1 by lia.
  assert (Main : let '(q', r') := for_down (Nat.pred k) n div_step (q1, r1) in
    length q' = length q1 /\ length r' = length r1 /\ (forall j, (n <= j)%nat -> dget q' j = dget q1 j) /\
    ((forall j, (j < n)%nat -> fin (dget q' j)) -> (forall i, (i < m)%nat -> fin (dget r' i)) ->
     (forall i, (i < k)%nat -> fin (dget r1 i)) /\
     forall i, (i < k)%nat ->
       Rabs (dR (dget r1 i) - (bsum n (term q' i) + rest r' i)) <=
         (w ^ n - 1) * Rabs (dR (dget r1 i)) + (w ^ S n - 1) * bsum n (fun j => Rabs (term q' i j)) + 2 * INR n * w ^ n * tiny + tiny * Rabs (dR lead))).
  { destruct n as [|n].
    - cbn [for_down bsum]. do 2 (split; [reflexivity|]). split; [intros; reflexivity|]. intros _ F. split; [intros i Hi; apply F; lia|].
      intros i Hi. unfold rest. destruct (Nat.ltb_spec i m); [|lia]. rewrite Rplus_0_l. unfold Rminus at 1. rewrite Rplus_opp_r, Rabs_R0.
      simpl (INR 0). simpl (w ^ 0). pose proof (Rabs_pos (dR lead)). assert (0 <= tiny * Rabs (dR lead)) by (apply Rmult_le_pos; lra). lra.
    - specialize (IH (Nat.pred k) q1 r1 ltac:(lia) ltac:(lia) ltac:(lia) ltac:(lia) Fl Nl).
      destruct (for_down (Nat.pred k) (S n) div_step (q1, r1)) as [q' r']. destruct IH as (A & B & C & D). do 3 (split; [assumption|]).
      intros F1 F2. destruct (D F1 F2) as (D1 & D2). split; [intros i Hi; apply D1; lia|]. intros i Hi. apply D2. lia. }
  destruct (for_down (Nat.pred k) n div_step (q1, r1)) as [q' r']. destruct Main as (A & B & C & D).
  split; [congruence|]. split; [congruence|]. split. { intros j Hj. rewrite C by lia. apply Qo. lia. }
  intros F1 F2. assert (Qn : dget q' n = c) by (rewrite C by lia; exact Q1n). assert (Fc : fin c) by (rewrite <- Qn; apply F1; lia).
  destruct (D (fun j Hj => F1 j (Nat.lt_lt_succ_r _ _ Hj)) F2) as (D1 & D2).
  destruct (div_val _ _ Fl Fc) as (Fk & _ & Vc). fold c in Vc.
  assert (Fr : forall i, (i <= k)%nat -> fin (dget r i)).
  { intros i Hi. destruct (Nat.eq_dec i k) as [->|Ni]; [exact Fk|]. specialize (D1 i ltac:(lia)). rewrite G1 in D1.
    destruct (Nat.leb_spec n i), (Nat.leb_spec i k); cbn [andb] in D1; try lia; [|exact D1]. apply (sub_fin_step _ _ _ D1). }
  split; [exact Fr|]. intros i Hi.
  assert (P1 : 1 <= w ^ n) by (apply pow_R1_Rle; exact W1). assert (L0 : 0 <= tiny * Rabs (dR lead)) by (apply Rmult_le_pos; [lra|apply Rabs_pos]).
  assert (N0 : 0 <= INR n) by apply pos_INR.
  assert (Tn : term q' i n = if (n <=? i)%nat then dR c * dR (dget g (i - n)) else 0) by (unfold term; rewrite Qn; reflexivity).
  destruct (Nat.eq_dec i k) as [->|Ni].
  - (* the coefficient that is eliminated *)
    assert (Z : forall j, (j < n)%nat -> term q' k j = 0).
    { intros j Hj. unfold term. destruct (Nat.leb_spec j k); [|reflexivity]. rewrite Gm by lia. ring. }
    assert (R0 : rest r' k = 0) by (unfold rest; destruct (Nat.ltb_spec k m); [lia|reflexivity]). rewrite R0, Rplus_0_r.
    cbn [bsum]. rewrite (bsum_zero n (term q' k)) by exact Z. rewrite (bsum_zero n (fun j => Rabs (term q' k j))) by (intros j Hj; rewrite Z by exact Hj; apply Rabs_R0).
    rewrite !Rplus_0_l, Tn. destruct (Nat.leb_spec n k); [|lia]. replace (k - n)%nat with m by lia. fold lead.
    pose proof (rnd_err (dR (dget r k) / dR lead)) as E. rewrite <- Vc in E. set (x := dR (dget r k)) in *. set (l := dR lead) in *. set (cc := dR c) in *.
    assert (E' : Rabs (x - cc * l) <= dl * Rabs x + tiny * Rabs l).
    { replace (x - cc * l) with (- ((cc - x / l) * l)) by (field; exact Nl). rewrite Rabs_Ropp, Rabs_mult.
      eapply Rle_trans; [apply Rmult_le_compat_r; [apply Rabs_pos|exact E]|]. rewrite Rmult_plus_distr_r. apply Rplus_le_compat_r. right.
      rewrite Rmult_assoc, <- Rabs_mult. do 2 f_equal. field. exact Nl. }
    eapply Rle_trans; [exact E'|]. rewrite S_INR. simpl (w ^ S (S n)). simpl (w ^ S n). set (Q := w ^ n) in *.
    assert (dl * Rabs x <= (w * Q - 1) * Rabs x). { apply Rmult_le_compat_r; [apply Rabs_pos|]. unfold w. nra. }
    assert (0 <= (w * (w * Q) - 1) * Rabs (cc * l)). { apply Rmult_le_pos; [|apply Rabs_pos]. assert (1 <= w * Q) by nra. nra. }
    assert (0 <= 2 * (INR n + 1) * (w * Q) * tiny). { apply Rmult_le_pos; [|lra]. apply Rmult_le_pos; [lra|]. nra. }
    lra.
  - specialize (D2 i ltac:(lia)). specialize (D1 i ltac:(lia)). rewrite G1 in D1, D2. cbn [bsum].
    assert (A0 : 0 <= bsum n (fun j => Rabs (term q' i j))). { rewrite <- (bsum_zero n (fun _ => 0)) by reflexivity. apply bsum_le. intros. apply Rabs_pos. }
    set (A' := bsum n (fun j => Rabs (term q' i j))) in *. set (T := bsum n (term q' i)) in *. set (y := rest r' i) in *.
    rewrite Tn. rewrite S_INR. simpl (w ^ S (S n)). simpl (w ^ S n) in D2 |- *. set (Q := w ^ n) in *. set (N := INR n) in *.
    assert (M1 : (w * Q - 1) * A' <= (w * (w * Q) - 1) * A'). { apply Rmult_le_compat_r; [exact A0|]. assert (1 <= w * Q) by nra. nra. }
    assert (NQ : 0 <= N * Q) by nra.
    destruct (Nat.leb_spec n i) as [Hn1|Hn1].
    + destruct (Nat.leb_spec i k) as [_|]; [|lia]. cbn [andb] in D1, D2. destruct (sub_fin_step _ _ _ D1) as (_ & S1 & S2).
      set (s := dR (d_sub _ _)) in *. set (x := dR (dget r i)) in *. set (t := dR c * dR (dget g (i - n))) in *.
      replace (x - (T + t + y)) with ((s - (T + y)) - (s - (x - t))) by ring. unfold Rminus at 1. eapply Rle_trans; [apply Rabs_triang|]. rewrite Rabs_Ropp.
      assert (B3 : (Q - 1) * Rabs s <= (Q - 1) * (w * Rabs x + w * w * Rabs t + (2 + dl) * tiny)) by (apply Rmult_le_compat_l; lra).
      assert (B5 : Q * (2 + dl) * tiny + 2 * N * Q * tiny <= 2 * (N + 1) * (w * Q) * tiny).
      { assert (Q * (2 + dl) + 2 * N * Q <= 2 * (N + 1) * (w * Q)); [|nra]. unfold w. nra. }
      set (G := tiny * Rabs (dR lead)) in *. clearbody G Q A' T N s t x y. unfold w in *. clear - D2 S1 B3 B5 M1. lra.
    + cbn [andb] in D1, D2. rewrite Rabs_R0. set (x := dR (dget r i)) in *. replace (x - (T + 0 + y)) with (x - (T + y)) by ring. eapply Rle_trans; [exact D2|].
      assert ((Q - 1) * Rabs x <= (w * Q - 1) * Rabs x). { apply Rmult_le_compat_r; [apply Rabs_pos|]. nra. }
      assert (2 * N * Q * tiny <= 2 * (N + 1) * (w * Q) * tiny). { apply Rmult_le_compat_r; [lra|]. unfold w. nra. }
      lra.
Qed.
End Division.

(** f = q g + r up to the rounding errors of the elimination, coefficient by coefficient. *)
Theorem C84_division : forall f g : list d64, (2 <= length g <= length f)%nat -> Forall (fun c => fin c) g ->
  dR (dget g (length g - 1)) <> 0 ->
  exists q r, poly_gcd (H := D_num) f g = Div q r /\ length q = length f /\ length r = (length g - 1)%nat /\
  (Forall (fun c => fin c) q -> Forall (fun c => fin c) r ->
   forall i, let n := (length f - (length g - 1))%nat in
     Rabs (dR (dget f i) - (sum_f_R0 (fun j => dR (dget q j) * dR (dget g (i - j))) i + dR (dget r i))) <=
       ((1 + bpow radix2 (-53)) ^ n - 1) * Rabs (dR (dget f i)) +
       ((1 + bpow radix2 (-53)) ^ S n - 1) * sum_f_R0 (fun j => Rabs (dR (dget q j) * dR (dget g (i - j)))) i +
       INR n * (1 + bpow radix2 (-53)) ^ n * bpow radix2 (-1074) + bpow radix2 (-1075) * Rabs (dR (dget g (length g - 1)))).
Proof.
  intros f g HL Fg' Nl. set (m := (length g - 1)%nat) in *.
  assert (Fg : forall j, fin (dget g j)).
  { intros j. unfold dget. rewrite Forall_forall in Fg'. destruct (nth_in_or_default j g d_zero) as [I| ->]; [apply Fg', I|reflexivity]. }
  assert (Gm : forall j, (m < j)%nat -> dR (dget g j) = 0) by (intros j Hj; replace (dget g j) with d_zero by (symmetry; apply nth_overflow; lia); reflexivity).
  assert (Pg : porder g = m) by (unfold porder, m; lia). assert (Pf : porder f = (length f - 1)%nat) by (unfold porder; lia).
  unfold poly_gcd. rewrite Pg. destruct m as [|m'] eqn:Em; [lia|]. rewrite <- Em in *.
  assert (E : gcd_rec (H := D_num) m f g = let '(q, r) := gcd_loop (H := D_num) f g in Div q (change_order (H := D_num) m' r)).
  { rewrite Em at 1. cbn [gcd_rec]. rewrite <- Em. change (@neqb d64 D_num) with d_eq. change (get (H := D_num) g m) with (dget g m). change (@n0 d64 D_num) with d_zero.
    destruct (d_eq (dget g m) d_zero) eqn:X; [|reflexivity]. exfalso. apply Nl. apply (proj1 (d_eq_fin (dget g m) d_zero (Fg m) eq_refl)) in X. exact X. }
  rewrite E. clear E. unfold gcd_loop. rewrite Pg, Pf.
  set (n := (S (length f - 1) - m)%nat). assert (En : n = (length f - m)%nat) by (unfold n; lia).
  match goal with |- context [for_down (length f - 1) ?nn ?b ?st] =>
    change (for_down (length f - 1) nn b st) with (for_down (length f - 1) n (div_step g m) (poly_zero (H := D_num) (length f - 1), f)) end.
  pose proof (div_loop g m Gm n (length f - 1) (poly_zero (H := D_num) (length f - 1)) f) as D.
  assert (Lz : length (poly_zero (H := D_num) (length f - 1)) = length f) by (unfold poly_zero; rewrite repeat_length; lia).
  specialize (D ltac:(lia) ltac:(lia) ltac:(lia) ltac:(lia) (Fg m) Nl).
  destruct (for_down (length f - 1) n (div_step g m) _) as [q r]. destruct D as (Lq & Lr & Qz & D).
  exists q, (change_order (H := D_num) m' r). split; [reflexivity|]. split; [congruence|].
  assert (Lc : length (change_order (H := D_num) m' r) = m). { unfold change_order. rewrite app_length, firstn_length, repeat_length. lia. }
  split; [exact Lc|]. intros Fq Fr' i. cbn zeta. rewrite <- En.
  assert (Gc : forall i, dget (change_order (H := D_num) m' r) i = if (i <? m)%nat then dget r i else d_zero).
  { intros j. unfold dget. destruct (Nat.ltb_spec j m) as [Hj|Hj]; [|apply nth_overflow; lia].
    unfold change_order. rewrite app_nth1 by (rewrite firstn_length; lia). assert (X : (j < S m')%nat) by lia. revert X. generalize (S m'). clear.
    revert j. induction r as [|a t IH]; intros j k Hk; [rewrite firstn_nil; reflexivity|]. destruct k; [lia|]. destruct j; [reflexivity|]. cbn [firstn nth]. apply IH. lia. }
  assert (F1 : forall j, (j < n)%nat -> fin (dget q j)). { intros j Hj. rewrite Forall_forall in Fq. apply Fq, nth_In. lia. }
  assert (F2 : forall j, (j < m)%nat -> fin (dget r j)).
  { intros j Hj. specialize (Gc j). destruct (Nat.ltb_spec j m); [|lia]. rewrite <- Gc. rewrite Forall_forall in Fr'. apply Fr', nth_In. lia. }
  destruct (D F1 F2) as (_ & D2).
  assert (Rc : dR (dget (change_order (H := D_num) m' r) i) = rest m r i). { rewrite Gc. unfold rest. destruct (i <? m)%nat; [reflexivity|apply dR_zero]. }
  assert (Qz' : forall j, (n <= j)%nat -> dR (dget q j) = 0). { intros j Hj. rewrite Qz by exact Hj. unfold poly_zero, dget. change (@n0 d64 D_num) with d_zero. rewrite nth_repeat. reflexivity. }
  assert (Sm : forall h : R -> R, h 0 = 0 -> sum_f_R0 (fun j => h (dR (dget q j) * dR (dget g (i - j)))) i = bsum n (fun j => h (term g q i j))).
  { intros h H0. rewrite sum_bsum. set (M := Nat.max n (S i)). 
    transitivity (bsum M (fun j => h (term g q i j))).
    - transitivity (bsum (S i) (fun j => h (term g q i j))).
      + apply bsum_ext. intros j Hj. unfold term. destruct (Nat.leb_spec j i); [reflexivity|lia].
      + symmetry. apply bsum_extend; [unfold M; lia|]. intros j Hj. unfold term. destruct (Nat.leb_spec j i); [lia|exact H0].
    - apply bsum_extend; [unfold M; lia|]. intros j Hj. unfold term. rewrite Qz' by lia. rewrite Rmult_0_l. destruct (j <=? i)%nat; exact H0. }
  rewrite Rc. pose proof (Sm (fun x => x) eq_refl) as S1. cbn beta in S1. rewrite S1. pose proof (Sm Rabs Rabs_R0) as S2. cbn beta in S2. rewrite S2.
  assert (T2 : bpow radix2 (-1074) = 2 * tiny). { unfold tiny. change (bpow radix2 (-1074)) with (bpow radix2 (1 + -1075)). rewrite bpow_plus. simpl (bpow radix2 1). lra. }
  rewrite T2. change (bpow radix2 (-53)) with dl. change (bpow radix2 (-1075)) with tiny.
  destruct (Nat.le_gt_cases i (length f - 1)) as [Hi|Hi].
  - specialize (D2 i Hi). replace (INR n * (1 + dl) ^ n * (2 * tiny)) with (2 * INR n * (1 + dl) ^ n * tiny) by ring. exact D2.
  - replace (dget f i) with d_zero by (symmetry; apply nth_overflow; lia). rewrite dR_zero.
    assert (Z : forall j, (j < n)%nat -> term g q i j = 0). { intros j Hj. unfold term. destruct (Nat.leb_spec j i); [|reflexivity]. rewrite Gm by lia. ring. }
    rewrite (bsum_zero n (fun j => term g q i j) Z). rewrite (bsum_zero n (fun j => Rabs (term g q i j))) by (intros j Hj; rewrite Z by exact Hj; apply Rabs_R0).
    unfold rest. destruct (Nat.ltb_spec i m); [lia|]. replace (0 - (0 + 0)) with 0 by ring. rewrite Rabs_R0, !Rmult_0_r, !Rplus_0_l.
    pose proof dl_bounds. pose proof tiny_pos. assert (1 <= (1 + dl) ^ n) by (apply pow_R1_Rle; lra). pose proof (pos_INR n).
    assert (0 <= INR n * (1 + dl) ^ n) by nra. assert (0 <= tiny * Rabs (dR (dget g m))) by (apply Rmult_le_pos; [lra|apply Rabs_pos]). nra.
Qed.
Print Assumptions C84_division.
Example C84_division_ex : let f := dlist [-1; 0; 0; 1]%Z in let g := dlist [1; 3]%Z in
  Forall (fun c => fin c) g /\ d_eq (dget g 1) d_zero = false /\
  match poly_gcd (H := D_num) f g with
  | Div q r => d_isfinite (dget r 0) = true /\ length q = 4%nat /\ length r = 1%nat /\
               d_eq (d_add (d_mul (dget q 0) (dget g 0)) (dget r 0)) (d_lit (-1) 0) = true
  | _ => False end.
Proof. cbv zeta. split; [repeat constructor|]. split; [vm_compute; reflexivity|]. vm_compute. repeat split. Qed.

(** Dividing by a constant polynomial multiplies by the rounded reciprocal (two roundings,
    where dividing by the number itself takes one: C84_quotient); the remainder is the zero
    constant.  A divisor +0 or -0 gives the infinite quotient. *)
Theorem C84_division_constant : forall (f : list d64) (c : d64), f <> [] -> fin c ->
  (dR c = 0 -> poly_gcd (H := D_num) f [c] = DivInf [d_zero]) /\
  (dR c <> 0 -> exists q, poly_gcd (H := D_num) f [c] = Div q [d_zero] /\ length q = length f /\
     forall i, (i < length f)%nat -> fin (dget q i) ->
       dR (dget q i) = drnd (dR (dget f i) * drnd (1 / dR c))).
Proof.
  intros f c Nf Fc. unfold poly_gcd. cbn [porder length Nat.pred gcd_rec].
  change (@neqb d64 D_num) with d_eq. change (get (H := D_num) [c] 0) with c. change (@n0 d64 D_num) with d_zero.
  destruct (d_eq c d_zero) eqn:X.
  - split; [reflexivity|]. intros N. exfalso. apply N. apply (proj1 (d_eq_fin c d_zero Fc eq_refl)) in X. exact X.
  - split; [intros Z; exfalso; rewrite (proj2 (d_eq_fin c d_zero Fc eq_refl)) in X; [discriminate X|exact Z]|].
    intros N. eexists. split; [reflexivity|]. set (x := ndiv n1 c).
    destruct (mul_entry (H := D_num) f [x] Nf ltac:(discriminate)) as (L & G).
    assert (Lf : length f = S (porder f)) by (unfold porder; destruct f; [congruence|reflexivity]).
    cbn [porder length Nat.pred] in L, G. split; [rewrite L; unfold porder in *; lia|].
    intros i Hi. specialize (G i ltac:(lia)).
    change (get (H := D_num) (poly_mul (H := D_num) f [x]) i) with (dget (poly_mul (H := D_num) f [x]) i) in G.
    rewrite G. intros F.
    assert (W : window f [x] i = (i, 1%nat)).
    { unfold window. cbn [porder length Nat.pred]. rewrite Nat.min_l by lia. destruct (Nat.ltb_spec 0 i); f_equal; lia. }
    rewrite W in F |- *. cbn [fst snd for_up nadd nmul D_num] in F |- *. rewrite Nat.sub_diag in F |- *.
    change (get (H := D_num) [x] 0) with x in F |- *. change (get (H := D_num) f i) with (dget f i) in F |- *. change (@n0 d64 D_num) with d_zero in F |- *.
    destruct (add_fin_inv _ _ F) as (_ & Fm). destruct (mul_fin_inv _ _ Fm) as (_ & Fx).
    assert (V : dR x = drnd (1 / dR c)).
    { destruct (div_val _ _ Fc Fx) as (_ & _ & V). change (dR x) with (dR (d_div (@n1 d64 D_num) c)). rewrite V.
      replace (dR (@n1 d64 D_num)) with 1; [reflexivity|]. change (@n1 d64 D_num) with d_one. symmetry. apply d_one_R. }
    rewrite (add_val _ _ F), dR_zero, Rplus_0_l, rnd_dR, (mul_val _ _ Fm), V. reflexivity.
Qed.
Print Assumptions C84_division_constant.
Example C84_division_constant_ex : let f := dlist [-1; 0; 6]%Z in
  f <> [] /\ match poly_gcd (H := D_num) f [d_lit 4 0] with
             | Div q r => d_isfinite (dget q 2) = true /\ d_eq (dget q 2) (d_lit 3 (-1)) = true /\ d_isfinite (dget q 0) = true
             | _ => False end.
Proof. cbv zeta. split; [discriminate|]. vm_compute. repeat split. Qed.
(** The two ways of dividing by the same constant give different doubles. *)
Theorem C84_division_constant_differs : exists (k : d64) q r,
  poly_gcd (H := D_num) [k] [k] = Div q r /\ d_eq (dget (poly_div0 (H := D_num) [k] k) 0) (d_lit 1 0) = true /\
  d_lt (dget q 0) (d_lit 1 0) = true.
Proof.
  exists (d_lit 49 0), (poly_mul (H := D_num) [d_lit 49 0] [d_div d_one (d_lit 49 0)]), [d_zero].
  split; [|split; vm_compute; reflexivity].
  unfold poly_gcd. cbn [porder length Nat.pred gcd_rec]. change (@neqb d64 D_num) with d_eq.
  change (get (H := D_num) [d_lit 49 0] 0) with (d_lit 49 0). change (@n0 d64 D_num) with d_zero.
  assert (X : d_eq (d_lit 49 0) d_zero = false) by (vm_compute; reflexivity). rewrite X. reflexivity.
Qed.
Print Assumptions C84_division_constant_differs.

(** A divisor whose leading coefficient is +0 or -0 acts as the divisor without it: the
    quotient is the same, the remainder is padded with zeros to the length of that divisor. *)
Theorem C84_division_leading_zero : forall (f g : list d64) (z : d64), g <> [] -> fin z -> dR z = 0 ->
  poly_gcd (H := D_num) f (g ++ [z]) =
  match poly_gcd (H := D_num) f g with
  | DivInf r => DivInf (r ++ repeat d_zero (length g - length r))
  | Div q r => Div q (r ++ repeat d_zero (length g - length r))
  end.
Proof.
  intros f g z Ng Fz Ez. unfold poly_gcd. assert (Lg : length g = S (porder g)) by (unfold porder; destruct g; [congruence|reflexivity]).
  assert (P : porder (g ++ [z]) = S (porder g)) by (unfold porder at 1; rewrite app_length; cbn [length Nat.pred]; lia).
  rewrite P. cbn [gcd_rec]. change (@neqb d64 D_num) with d_eq. change (@n0 d64 D_num) with d_zero.
  assert (G : get (H := D_num) (g ++ [z]) (S (porder g)) = z). { unfold get. rewrite app_nth2 by lia. rewrite Lg, Nat.sub_diag. reflexivity. }
  rewrite G. rewrite (proj2 (d_eq_fin z d_zero Fz eq_refl)) by exact Ez.
  assert (C : change_order (H := D_num) (porder g) (g ++ [z]) = g).
  { unfold change_order. rewrite <- Lg, firstn_app, Nat.sub_diag, firstn_all. cbn [firstn]. rewrite app_length, app_nil_r.
    replace (length g - (length g + length [z]))%nat with 0%nat by lia. apply app_nil_r. }
  rewrite C. unfold poly_raise. rewrite <- Lg. reflexivity.
Qed.
Print Assumptions C84_division_leading_zero.
Example C84_division_leading_zero_ex : let f := dlist [1; 5; 7]%Z in
  fin (d_opp d_zero) /\ dR (d_opp d_zero) = 0 /\
  match poly_gcd (H := D_num) f (dlist [1; 3]%Z ++ [d_opp d_zero]) with
  | Div q r => length r = 2%nat /\ d_eq (dget r 1) d_zero = true /\ d_eq (dget r 0) d_zero = false
  | _ => False end.
Proof. cbv zeta. split; [reflexivity|]. split; [reflexivity|]. vm_compute. repeat split. Qed.

(** ** Dividing by x - root (deflation) *)
Section DeflateGen.
Context {K : Type} `{Num K}.
Lemma rd_in (l : list K) (i : nat) : (i < length l)%nat -> rd l (Z.of_nat i) = Ret (get l i).
Proof.
  intros Hi. unfold rd. destruct (Z.leb_spec 0 (Z.of_nat i)), (Z.ltb_spec (Z.of_nat i) (Z.of_nat (length l))); cbn [andb]; try lia.
  rewrite Nat2Z.id. reflexivity.
Qed.
Lemma wr_in (l : list K) (i : nat) v : (i < length l)%nat -> wr l (Z.of_nat i) v = Ret (upd l i v).
Proof.
  intros Hi. unfold wr. destruct (Z.leb_spec 0 (Z.of_nat i)), (Z.ltb_spec (Z.of_nat i) (Z.of_nat (length l))); cbn [andb]; try lia.
  rewrite Nat2Z.id. reflexivity.
Qed.
Lemma wrap_small z : (0 <= z < 2 ^ 64)%Z -> wrap64 z = z.
Proof. intros Hz. unfold wrap64. apply Z.mod_small. exact Hz. Qed.
(** the two recurrences *)
Definition upward (a : list K) root (b : list K) (i : nat) : Prop :=
  get b i = match i with O => ndiv (nopp (get a 0)) root | S j => ndiv (nsub (get b j) (get a i)) root end.
Definition downward (a : list K) root (b : list K) N (i : nat) : Prop :=
  get b i = if Nat.eqb (S i) N then get a N else nadd (get a (S i)) (nmul root (get b (S i))).

Lemma deflate_meet pb (a : list K) root N : length a = S N -> (Z.of_nat N < 2 ^ 63)%Z ->
  forall fuel it ib b, (1 <= ib)%nat -> (ib <= S it)%nat -> (it + 2 <= N)%nat -> length b = N ->
  (forall j, (j < ib)%nat -> upward a root b j) -> (forall j, (it < j < N)%nat -> downward a root b N j) ->
  (S it - ib < fuel)%nat ->
  exists b' m, deflate_loop pb fuel a root (Z.of_nat it) (Z.of_nat ib) b = Ret b' /\ length b' = N /\ (1 <= m < N)%nat /\
    (forall j, (j < m)%nat -> upward a root b' j) /\ (forall j, (m <= j < N)%nat -> downward a root b' N j).
Proof.
  intros HN HN63. induction fuel as [|fuel IH]; intros it ib b Hib Hibt Hit Hb Hlo Hhi Hfu; [lia|].
  cbn [deflate_loop]. destruct (Z.leb_spec (Z.of_nat ib) (Z.of_nat it)) as [Hle|Hgt].
  - assert (Hle' : (ib <= it)%nat) by lia.
    rewrite (wrap_small (Z.of_nat it + 1)) by lia. replace (Z.of_nat it + 1)%Z with (Z.of_nat (S it)) by lia.
    rewrite (rd_in b (S it)) by lia. cbn [obind]. rewrite (rd_in b ib) by lia. cbn [obind].
    rewrite (rd_in a ib) by lia. cbn [obind]. rewrite (rd_in a (S it)) by lia. cbn [obind].
    destruct (pb _ _ _ _).
    + rewrite (wrap_small (Z.of_nat ib - 1)) by lia. replace (Z.of_nat ib - 1)%Z with (Z.of_nat (ib - 1)) by lia.
      rewrite (rd_in b (ib - 1)) by lia. cbn [obind]. rewrite (wr_in b ib) by lia. cbn [obind].
      rewrite (wrap_small (Z.of_nat ib + 1)) by lia. replace (Z.of_nat ib + 1)%Z with (Z.of_nat (S ib)) by lia.
      apply IH; try lia; [now rewrite upd_length| |].
      * intros j Hj. unfold upward. destruct (Nat.eq_dec j ib) as [->|Hn].
        -- rewrite get_upd_eq by lia. destruct ib; [lia|]. rewrite get_upd_neq by lia. replace (S ib - 1)%nat with ib by lia. reflexivity.
        -- rewrite get_upd_neq by lia. rewrite (Hlo j) by lia. destruct j; [reflexivity|]. now rewrite get_upd_neq by lia.
      * intros j Hj. unfold downward. rewrite !get_upd_neq by lia. apply Hhi. lia.
    + rewrite (wr_in b it) by lia. cbn [obind]. rewrite (wrap_small (Z.of_nat it - 1)) by lia.
      replace (Z.of_nat it - 1)%Z with (Z.of_nat (it - 1)) by lia.
      apply IH; try lia; [now rewrite upd_length| |].
      * intros j Hj. unfold upward. rewrite get_upd_neq by lia. rewrite (Hlo j) by lia. destruct j; [reflexivity|]. now rewrite get_upd_neq by lia.
      * intros j Hj. unfold downward. destruct (Nat.eq_dec j it) as [->|Hn].
        -- rewrite get_upd_eq by lia. rewrite get_upd_neq by lia. destruct (Nat.eqb_spec (S it) N); [lia|reflexivity].
        -- rewrite !get_upd_neq by lia. apply Hhi. lia.
  - exists b, ib. split; [reflexivity|]. split; [exact Hb|]. split; [lia|]. split; [exact Hlo|]. intros j Hj. apply Hhi. lia.
Qed.
Lemma deflate_form pb (a : list K) root : (3 <= length a)%nat -> (Z.of_nat (length a) < 2 ^ 63)%Z -> neqb root n0 = false ->
  exists b m, deflate_polynomial pb a root = Ret b /\ length b = (length a - 1)%nat /\ (1 <= m < length a - 1)%nat /\
    (forall j, (j < m)%nat -> upward a root b j) /\ (forall j, (m <= j < length a - 1)%nat -> downward a root b (length a - 1) j).
Proof.
  intros HL H63 Hz. unfold deflate_polynomial. rewrite Hz. assert (EN : porder a = (length a - 1)%nat) by (unfold porder; lia).
  rewrite EN. set (N := (length a - 1)%nat) in *. cbn zeta. rewrite (rd_in a N) by lia. cbn [obind].
  replace (Z.of_nat N - 1)%Z with (Z.of_nat (N - 1)) by lia. rewrite wr_in by (rewrite repeat_length; lia). cbn [obind].
  change 0%Z with (Z.of_nat 0). rewrite (rd_in a 0) by lia. cbn [obind]. rewrite wr_in by (rewrite upd_length, repeat_length; lia). cbn [obind].
  rewrite (wrap_small (Z.of_nat N - 2)) by lia. replace (Z.of_nat N - 2)%Z with (Z.of_nat (N - 2)) by lia. change 1%Z with (Z.of_nat 1).
  apply deflate_meet; try lia.
  - rewrite !upd_length, repeat_length. lia.
  - intros j Hj. assert (j = 0%nat) by lia. subst j. unfold upward. rewrite get_upd_eq by (rewrite upd_length, repeat_length; lia). reflexivity.
  - intros j Hj. assert (j = (N - 1)%nat) by lia. subst j. unfold downward. rewrite get_upd_neq by lia. rewrite get_upd_eq by (rewrite repeat_length; lia).
    destruct (Nat.eqb_spec (S (N - 1)) N); [reflexivity|lia].
Qed.
End DeflateGen.

Lemma opp_fin_inv a : fin (d_opp a) -> fin a.
Proof. destruct a; auto. Qed.
(** With double coefficients and a root that need not be exact: (x - root) b = a up to
    rounding in every coefficient but one, where the two recurrences meet. *)
Theorem C09_deflate_doubles : forall prefer (a : list d64) (root : d64),
  (3 <= length a)%nat -> (Z.of_nat (length a) < 2 ^ 63)%Z -> fin root -> dR root <> 0 ->
  exists b m, deflate_polynomial (H := D_num) prefer a root = Ret b /\ length b = (length a - 1)%nat /\ (1 <= m < length a - 1)%nat /\
  (Forall (fun c => fin c) b -> forall i, i <> m ->
   let above := match i with O => 0 | S j => dR (dget b j) end in
   let below := dR root * dR (dget b i) in
   fin (dget a i) /\
   Rabs (dR (dget a i) - (above - below)) <=
     3 * bpow radix2 (-53) * (Rabs (dR (dget a i)) + Rabs above + Rabs below) + 3 * bpow radix2 (-1075) * (1 + Rabs (dR root))).
Proof.
  intros prefer a root HL H63 Fr Nr.
  assert (Z : neqb (Num := D_num) root (n0 (Num := D_num)) = false).
  { change (d_eq root d_zero = false). destruct (d_eq root d_zero) eqn:E; [|reflexivity]. exfalso. apply Nr. exact (proj1 (d_eq_fin root d_zero Fr eq_refl) E). }
  destruct (deflate_form (H := D_num) prefer a root HL H63 Z) as (b & m & E & Lb & Hm & U & D). exists b, m.
  split; [exact E|]. split; [exact Lb|]. split; [exact Hm|]. intros Fb i Ni.
  assert (Fb' : forall j, fin (dget b j)).
  { intros j. unfold dget. rewrite Forall_forall in Fb. destruct (nth_in_or_default j b d_zero) as [I| ->]; [apply Fb, I|reflexivity]. }
  change (bpow radix2 (-53)) with dl. change (bpow radix2 (-1075)) with tiny. pose proof dl_bounds as Dl. pose proof tiny_pos as Ty.
  pose proof (Rabs_pos (dR root)) as R0. set (x := dR root) in *.
  assert (Tx : 0 <= tiny * Rabs x) by (apply Rmult_le_pos; lra).
  assert (Quot : forall c, fin (d_div c root) -> fin c /\ Rabs (x * dR (d_div c root) - dR c) <= dl * Rabs (dR c) + tiny * Rabs x).
  { intros c Fc. destruct (div_val _ _ Fr Fc) as (Fc' & _ & V). split; [exact Fc'|]. rewrite V. fold x. pose proof (rnd_err (dR c / x)) as R. set (r := drnd _) in *.
    replace (x * r - dR c) with ((r - dR c / x) * x) by (field; exact Nr). rewrite Rabs_mult.
    eapply Rle_trans; [apply Rmult_le_compat_r; [exact R0|exact R]|]. rewrite Rmult_plus_distr_r. apply Rplus_le_compat_r. right.
    rewrite Rmult_assoc, <- Rabs_mult. do 2 f_equal. field. exact Nr. }
  destruct (Nat.lt_ge_cases i m) as [Hi|Hi].
  - specialize (U i Hi). unfold upward, get in U. cbn [n0 D_num ndiv nopp nsub] in U. fold (dget b i) in U.
    pose proof (Fb' i) as Fi. destruct i as [|j]; cbn zeta.
    + fold (dget a 0) in U. rewrite U in Fi |- *. destruct (Quot _ Fi) as (Fo & Q). pose proof (opp_fin_inv _ Fo) as Fa. split; [exact Fa|].
      destruct (opp_R _ Fa) as (_ & Vo & _). rewrite Vo in Q. rewrite Rabs_Ropp in Q. set (y := x * dR (d_div _ _)) in *. set (z := dR (dget a 0)) in *.
      replace (z - (0 - y)) with (y - - z) by ring. rewrite Rabs_R0. pose proof (Rabs_pos y). pose proof (Rabs_pos z).
      assert (0 <= dl * Rabs y) by (apply Rmult_le_pos; lra). assert (0 <= dl * Rabs z) by (apply Rmult_le_pos; lra). lra.
    + fold (dget b j) (dget a (S j)) in U. rewrite U in Fi |- *. destruct (Quot _ Fi) as (Fs & Q). destruct (sub_fin_inv _ _ Fs) as (_ & Fa). split; [exact Fa|].
      rewrite (sub_val _ _ Fs) in Q. set (y := x * dR (d_div _ _)) in *. set (z := dR (dget a (S j))) in *. set (c := dR (dget b j)) in *.
      pose proof (rnd_err (c - z)) as R. set (s := drnd (c - z)) in *.
      assert (Rabs (c - z) <= Rabs c + Rabs z). { unfold Rminus. eapply Rle_trans; [apply Rabs_triang|]. rewrite Rabs_Ropp. lra. }
      assert (Rabs s <= (1 + dl) * Rabs (c - z) + tiny). { replace s with ((c - z) + (s - (c - z))) by ring. eapply Rle_trans; [apply Rabs_triang|]. lra. }
      replace (z - (c - y)) with ((y - s) + (s - (c - z))) by ring. eapply Rle_trans; [apply Rabs_triang|].
      assert (dl * Rabs (c - z) <= dl * (Rabs c + Rabs z)) by (apply Rmult_le_compat_l; lra).
      assert (dl * Rabs s <= dl * (1.01 * (Rabs c + Rabs z) + tiny)).
      { apply Rmult_le_compat_l; [lra|]. pose proof (Rabs_pos c). pose proof (Rabs_pos z). assert (dl * Rabs (c - z) <= / 100 * (Rabs c + Rabs z)); [|lra].
        eapply Rle_trans; [eassumption|]. apply Rmult_le_compat_r; lra. }
      assert (dl * tiny <= tiny) by nra. assert (0 <= dl * Rabs y) by (apply Rmult_le_pos; [lra|apply Rabs_pos]).
      assert (0 <= dl * Rabs c) by (apply Rmult_le_pos; [lra|apply Rabs_pos]). assert (0 <= dl * Rabs z) by (apply Rmult_le_pos; [lra|apply Rabs_pos]). lra.
  - destruct i as [|j]; [lia|]. cbn zeta. destruct (Nat.lt_ge_cases j (length a - 1)) as [Hj|Hj].
    + specialize (D j ltac:(lia)). unfold downward, get in D. cbn [n0 D_num nadd nmul] in D. fold (dget b j) (dget a (S j)) (dget b (S j)) (dget a (length a - 1)) in D.
      destruct (Nat.eqb_spec (S j) (length a - 1)) as [Ej|Nj].
      * rewrite <- Ej in D. split; [rewrite <- D; apply Fb'|]. replace (dget b (S j)) with d_zero by (symmetry; apply nth_overflow; lia).
        rewrite D. rewrite dR_zero, Rmult_0_r. set (z := dR (dget a (S j))). replace (z - (z - 0)) with 0 by ring. rewrite Rabs_R0.
        pose proof (Rabs_pos z). assert (0 <= dl * Rabs z) by (apply Rmult_le_pos; lra). lra.
      * pose proof (Fb' j) as Fj. rewrite D in Fj |- *. destruct (add_fin_inv _ _ Fj) as (Fa & Fp). split; [exact Fa|].
        rewrite (add_val _ _ Fj), (mul_val _ _ Fp). fold x. set (z := dR (dget a (S j))). set (y := x * dR (dget b (S j))).
        pose proof (rnd_err y) as R1. set (p := drnd y) in *. pose proof (rnd_err (z + p)) as R2. set (s := drnd (z + p)) in *.
        replace (z - (s - y)) with (- ((s - (z + p)) + (p - y))) by ring. rewrite Rabs_Ropp. eapply Rle_trans; [apply Rabs_triang|].
        assert (Rabs p <= 1.01 * Rabs y + tiny).
        { replace p with (y + (p - y)) by ring. eapply Rle_trans; [apply Rabs_triang|]. pose proof (Rabs_pos y). assert (dl * Rabs y <= / 100 * Rabs y) by (apply Rmult_le_compat_r; lra). lra. }
        assert (Rabs (z + p) <= Rabs z + (1.01 * Rabs y + tiny)) by (eapply Rle_trans; [apply Rabs_triang|]; lra).
        assert (dl * Rabs (z + p) <= dl * (Rabs z + (1.01 * Rabs y + tiny))) by (apply Rmult_le_compat_l; lra).
        assert (dl * tiny <= tiny) by nra. assert (0 <= dl * Rabs y) by (apply Rmult_le_pos; [lra|apply Rabs_pos]).
        assert (0 <= dl * Rabs s) by (apply Rmult_le_pos; [lra|apply Rabs_pos]). assert (0 <= dl * Rabs z) by (apply Rmult_le_pos; [lra|apply Rabs_pos]). lra.
    + replace (dget a (S j)) with d_zero by (symmetry; apply nth_overflow; lia). replace (dget b j) with d_zero by (symmetry; apply nth_overflow; lia).
      replace (dget b (S j)) with d_zero by (symmetry; apply nth_overflow; lia). split; [reflexivity|].
      rewrite dR_zero, Rmult_0_r. replace (0 - (0 - 0)) with 0 by ring. rewrite Rabs_R0. lra.
Qed.
Print Assumptions C09_deflate_doubles.
Example C09_deflate_doubles_ex : let a := dlist [-6; 11; -6; 1]%Z in
  match deflate_polynomial (H := D_num) (fun _ _ _ _ => false) a (d_lit 3 0) with
  | Ret b => map (fun c => d_eq (fst c) (snd c)) (combine b (dlist [2; -3; 1]%Z)) = [true; true; true]
  | _ => False end.
Proof. cbv zeta. vm_compute. reflexivity. Qed.
