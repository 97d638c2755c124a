(** Sturm's theorem for the model's chain. *)
From Verif Require Import PolyCalc RootsModel RootSpec Descartes LMQ NumericProofs Isolate.
Open Scope R_scope.

(* ------------------------------------------------------- counting loop *)
Definition vals (x : R) (c : list (list R)) : list R := map (fun p => pval p x) c.

Lemma helper_sv c x : Forall (fun p => p <> []) c -> forall s,
  sign_change_helper s c (Fin x) = sv s (vals x c).
Proof.
  induction 1 as [|p c Hp Hc IH]; intros s; cbn [sign_change_helper vals map sv]; [reflexivity|].
  cbn zeta. cbn [poly_sub xsign]. rewrite poly_eval_correct by exact Hp. rewrite IH.
  unfold chg, nxt, vals. lia.
Qed.

Lemma rsign_scale g a : 0 < g -> rsign (g * a) = rsign a.
Proof.
  intros Hg. destruct (rsign_cases a) as [[Ha ->]|[[Ha ->]|[Ha ->]]].
  - rewrite Ha, Rmult_0_r. apply rsign0.
  - destruct (rsign_cases (g * a)) as [[H ->]|[[H ->]|[H ->]]]; [nra|reflexivity|nra].
  - destruct (rsign_cases (g * a)) as [[H ->]|[[H ->]|[H ->]]]; [nra|nra|reflexivity].
Qed.
Lemma rsign_opp a : rsign (- a) = (- rsign a)%Z.
Proof.
  destruct (rsign_cases a) as [[Ha ->]|[[Ha ->]|[Ha ->]]];
    destruct (rsign_cases (- a)) as [[H ->]|[[H ->]|[H ->]]]; try reflexivity; lra.
Qed.
Lemma chg_opp s t : chg (- s) (- t) = chg s t.
Proof. unfold chg. destruct (Z.eqb_spec t 0), (Z.eqb_spec (- t) 0), (Z.eqb_spec s 0), (Z.eqb_spec (- s) 0), (Z.eqb_spec t s), (Z.eqb_spec (- t) (- s)); try reflexivity; lia. Qed.
Lemma nxt_opp s t : nxt (- s) (- t) = (- nxt s t)%Z.
Proof. unfold nxt. destruct (Z.eqb_spec t 0), (Z.eqb_spec (- t) 0); simpl; lia. Qed.
Lemma sv_scale g l : 0 < g -> forall s, sv s (map (Rmult g) l) = sv s l.
Proof. intros Hg. induction l as [|a l IH]; intros s; cbn [map sv]; [reflexivity|]. rewrite rsign_scale, IH by exact Hg. reflexivity. Qed.
Lemma sv_opp l : forall s, sv (- s) (map Ropp l) = sv s l.
Proof. induction l as [|a l IH]; intros s; cbn [map sv]; [reflexivity|]. rewrite rsign_opp, chg_opp, nxt_opp, IH. reflexivity. Qed.
Lemma sv_scale_nz g l : g <> 0 -> sv 0 (map (Rmult g) l) = sv 0 l.
Proof.
  intros Hg. destruct (Rlt_or_le 0 g) as [L|L]; [apply sv_scale, L|].
  replace (map (Rmult g) l) with (map Ropp (map (Rmult (- g)) l)).
  - rewrite (sv_opp _ 0%Z). apply sv_scale. destruct L; lra.
  - rewrite map_map. apply map_ext. intros a. ring.
Qed.

(* ------------------------------------------------------- reduced chains *)
Fixpoint good (hs : list (list R)) : Prop :=
  match hs with
  | [] => False
  | h0 :: r =>
      match r with
      | [] => forall x, pval h0 x = 1
      | h1 :: t => good r /\
          match t with
          | [] => True
          | h2 :: _ => exists q : R -> R, forall x, pval h0 x = q x * pval h1 x - pval h2 x
          end
      end
  end.

Lemma good_nocommon hs : forall h0 h1 t, hs = h0 :: h1 :: t -> good hs ->
  forall x, pval h0 x = 0 -> pval h1 x = 0 -> False.
Proof.
  induction hs as [|h hs IH]; intros h0 h1 t E G x E0 E1; [discriminate|].
  injection E as -> ->. destruct G as [G Q]. destruct t as [|h2 t].
  - cbn [good] in G. rewrite G in E1. lra.
  - destruct Q as [q Hq]. apply (IH h1 h2 t eq_refl G x E1).
    specialize (Hq x). rewrite E0, E1 in Hq. lra.
Qed.

Lemma sign_stable h c : pval h c <> 0 ->
  exists d, 0 < d /\ forall x, Rabs (x - c) < d -> rsign (pval h x) = rsign (pval h c).
Proof.
  intros Hn. pose proof (pval_continuity h c) as Hc.
  assert (He : Rabs (pval h c) > 0) by (apply Rabs_pos_lt, Hn).
  destruct (Hc (Rabs (pval h c)) He) as (d & Hd & H). exists d. split; [lra|].
  intros x Hx. destruct (Req_dec x c) as [->|N]; [reflexivity|].
  specialize (H x). unfold dist in H. simpl in H. unfold R_dist in H.
  assert (Hx' : Rabs (pval h x - pval h c) < Rabs (pval h c)).
  { apply H. split; [split; [exact I|auto]|exact Hx]. }
  destruct (rsign_cases (pval h c)) as [[A ->]|[[A ->]|[A ->]]]; [contradiction| |].
  - rewrite (Rabs_left _ A) in Hx'. apply Rabs_def2 in Hx'.
    destruct (rsign_cases (pval h x)) as [[B ->]|[[B ->]|[B ->]]]; try reflexivity; lra.
  - rewrite (Rabs_right (pval h c)) in Hx' by lra. apply Rabs_def2 in Hx'.
    destruct (rsign_cases (pval h x)) as [[B ->]|[[B ->]|[B ->]]]; try reflexivity; lra.
Qed.

Lemma tail_near n : forall h0 t, (length t <= n)%nat -> good (h0 :: t) -> forall c, pval h0 c <> 0 ->
  exists d, 0 < d /\ forall x, Rabs (x - c) < d ->
    sv (rsign (pval h0 c)) (vals x t) = sv (rsign (pval h0 c)) (vals c t).
Proof.
  induction n as [|n IH]; intros h0 t Hn G c H0.
  { destruct t; [|simpl in Hn; lia]. exists 1. split; [lra|reflexivity]. }
  destruct t as [|h1 t]; [exists 1; split; [lra|reflexivity]|].
  pose proof G as GG. destruct G as [G Q].
  destruct (Req_dec (pval h1 c) 0) as [E1|E1].
  - destruct t as [|h2 t]; [cbn [good] in G; rewrite G in E1; lra|].
    destruct Q as [q Hq].
    assert (E2 : pval h2 c = - pval h0 c) by (specialize (Hq c); rewrite E1 in Hq; lra).
    assert (N2 : pval h2 c <> 0) by lra.
    assert (G2 : good (h2 :: t)) by (destruct G as [G _]; exact G).
    destruct (IH h2 t ltac:(simpl in Hn; lia) G2 c N2) as (d1 & Hd1 & F1).
    destruct (sign_stable h2 c N2) as (d2 & Hd2 & F2).
    exists (Rmin d1 d2). split; [apply Rmin_pos; assumption|].
    intros x Hx. assert (Rabs (x - c) < d1 /\ Rabs (x - c) < d2).
    { pose proof (Rmin_l d1 d2). pose proof (Rmin_r d1 d2). lra. }
    destruct H as [A1 A2]. specialize (F1 x A1). specialize (F2 x A2).
    cbn [vals map sv] in *. fold (vals x t) (vals c t) in *. rewrite E1, rsign0, F2.
    rewrite E2, rsign_opp in *.
    assert (S0 : rsign (pval h0 c) = 1%Z \/ rsign (pval h0 c) = (-1)%Z).
    { destruct (rsign_cases (pval h0 c)) as [[A _]|[[A ->]|[A ->]]]; auto. contradiction. }
    set (s := rsign (pval h0 c)) in *. 
    assert (S1 : rsign (pval h1 x) = 0%Z \/ rsign (pval h1 x) = 1%Z \/ rsign (pval h1 x) = (-1)%Z)
      by (destruct (rsign_cases (pval h1 x)) as [[A ->]|[[A ->]|[A ->]]]; auto).
    destruct S0 as [-> | ->], S1 as [-> | [-> | ->]]; unfold chg, nxt in *; cbn [Z.opp Z.eqb Pos.eqb negb andb Nat.add] in *; rewrite ?F1; reflexivity.
  - destruct (IH h1 t ltac:(simpl in Hn; lia) G c E1) as (d1 & Hd1 & F1).
    destruct (sign_stable h1 c E1) as (d2 & Hd2 & F2).
    exists (Rmin d1 d2). split; [apply Rmin_pos; assumption|].
    intros x Hx. assert (Rabs (x - c) < d1 /\ Rabs (x - c) < d2).
    { pose proof (Rmin_l d1 d2). pose proof (Rmin_r d1 d2). lra. }
    destruct H as [A1 A2]. specialize (F1 x A1). specialize (F2 x A2).
    cbn [vals map sv] in *. fold (vals x t) (vals c t) in *. rewrite F2.
    assert (S1 : rsign (pval h1 c) <> 0%Z).
    { destruct (rsign_cases (pval h1 c)) as [[A _]|[[A ->]|[A ->]]]; [contradiction|discriminate|discriminate]. }
    assert (EN : nxt (rsign (pval h0 c)) (rsign (pval h1 c)) = rsign (pval h1 c)).
    { unfold nxt. destruct (Z.eqb_spec (rsign (pval h1 c)) 0); [contradiction|reflexivity]. }
    rewrite EN, F1. reflexivity.
Qed.

(** h0 h1 goes from negative to positive at every root of h0 *)
Definition crossing (hs : list (list R)) : Prop :=
  match hs with
  | h0 :: h1 :: _ => forall c, pval h0 c = 0 -> exists d, 0 < d /\
      (forall x, c < x < c + d -> 0 < pval h0 x * pval h1 x) /\
      (forall x, c - d < x < c -> pval h0 x * pval h1 x < 0)
  | _ => True
  end.

Definition V (hs : list (list R)) (x : R) : nat := sv 0 (vals x hs).

Lemma rsign_prod_pos a b : 0 < a * b -> rsign a = rsign b.
Proof.
  intros H. destruct (rsign_cases a) as [[A ->]|[[A ->]|[A ->]]], (rsign_cases b) as [[B ->]|[[B ->]|[B ->]]];
    try reflexivity; nra.
Qed.
Lemma rsign_prod_neg a b : a * b < 0 -> rsign a = (- rsign b)%Z /\ rsign a <> 0%Z.
Proof.
  intros H. destruct (rsign_cases a) as [[A ->]|[[A ->]|[A ->]]], (rsign_cases b) as [[B ->]|[[B ->]|[B ->]]];
    try (split; [reflexivity|discriminate]); nra.
Qed.

Lemma V_local hs c : good hs -> crossing hs ->
  exists d, 0 < d /\
    (forall x, c < x < c + d -> V hs x = V hs c) /\
    (forall x, c - d < x < c -> V hs x = (V hs c + if Reqb (pval (hd [] hs) c) 0 then 1 else 0)%nat).
Proof.
  intros G X. destruct hs as [|h0 t]; [destruct G|]. cbn [hd].
  destruct (Reqb_spec (pval h0 c) 0) as [E0|E0].
  - destruct t as [|h1 t]; [cbn [good] in G; rewrite G in E0; lra|].
    assert (N1 : pval h1 c <> 0) by (intros E1; exact (good_nocommon _ h0 h1 t eq_refl G c E0 E1)).
    destruct (X c E0) as (d1 & Hd1 & XR & XL).
    destruct (sign_stable h1 c N1) as (d2 & Hd2 & F2).
    destruct (tail_near (length t) h1 t (le_n _) (proj1 G) c N1) as (d3 & Hd3 & F3).
    exists (Rmin d1 (Rmin d2 d3)). split; [repeat apply Rmin_pos; assumption|].
    assert (M : forall x, Rabs (x - c) < Rmin d1 (Rmin d2 d3) -> Rabs (x - c) < d1 /\ Rabs (x - c) < d2 /\ Rabs (x - c) < d3).
    { intros x Hx. pose proof (Rmin_l d1 (Rmin d2 d3)). pose proof (Rmin_r d1 (Rmin d2 d3)).
      pose proof (Rmin_l d2 d3). pose proof (Rmin_r d2 d3). lra. }
    assert (S1 : rsign (pval h1 c) = 1%Z \/ rsign (pval h1 c) = (-1)%Z).
    { destruct (rsign_cases (pval h1 c)) as [[A _]|[[A ->]|[A ->]]]; auto. contradiction. }
    assert (EC : V (h0 :: h1 :: t) c = sv (rsign (pval h1 c)) (vals c t)).
    { unfold V, vals. cbn [map sv]. rewrite E0, rsign0. destruct S1 as [-> | ->]; reflexivity. }
    split; intros x Hx.
    + destruct (M x) as (M1 & M2 & M3); [rewrite Rabs_right by lra; lra|].
      rewrite EC, <- (F3 x M3). unfold V, vals. cbn [map sv]. fold (vals x t).
      rewrite (rsign_prod_pos _ _ (XR x ltac:(rewrite Rabs_right in M1 by lra; lra))), (F2 x M2).
      destruct S1 as [-> | ->]; reflexivity.
    + destruct (M x) as (M1 & M2 & M3); [rewrite Rabs_left by lra; lra|].
      rewrite EC, <- (F3 x M3). unfold V, vals. cbn [map sv]. fold (vals x t).
      destruct (rsign_prod_neg _ _ (XL x ltac:(rewrite Rabs_left in M1 by lra; lra))) as [-> _]. rewrite (F2 x M2).
      destruct S1 as [-> | ->]; cbn; lia.
  - destruct (sign_stable h0 c E0) as (d2 & Hd2 & F2).
    destruct (tail_near (length t) h0 t (le_n _) G c E0) as (d3 & Hd3 & F3).
    exists (Rmin d2 d3). split; [apply Rmin_pos; assumption|].
    assert (M : forall x, Rabs (x - c) < Rmin d2 d3 -> V (h0 :: t) x = V (h0 :: t) c).
    { intros x Hx. pose proof (Rmin_l d2 d3). pose proof (Rmin_r d2 d3).
      unfold V, vals. cbn [map sv]. fold (vals x t) (vals c t). rewrite (F2 x) by lra.
      assert (EN : nxt 0 (rsign (pval h0 c)) = rsign (pval h0 c)).
      { unfold nxt. destruct (Z.eqb_spec (rsign (pval h0 c)) 0) as [->|]; reflexivity. }
      rewrite EN, (F3 x) by lra. reflexivity. }
    split; intros x Hx; rewrite (M x); try lia; [rewrite Rabs_right by lra; lra|rewrite Rabs_left by lra; lra].
Qed.

(* ------------------------------------------------------- root counter *)
Definition upto (rs : list R) (x : R) : nat := length (filter (fun r => negb (Rltb x r)) rs).

Lemma upto_local rs c : NoDup rs ->
  exists d, 0 < d /\ (forall x, c < x < c + d -> upto rs x = upto rs c) /\
    (forall x, c - d < x < c -> upto rs c = (upto rs x + if in_dec Req_EM_T c rs then 1 else 0)%nat).
Proof.
  induction 1 as [|r rs Hr Hnd IH].
  - exists 1. split; [lra|]. split; reflexivity.
  - destruct IH as (d & Hd & IR & IL).
    assert (Q : exists e, 0 < e /\ (r = c \/ e <= Rabs (r - c))).
    { destruct (Req_dec r c) as [->|N]; [exists 1; split; [lra|auto]|].
      exists (Rabs (r - c)). split; [apply Rabs_pos_lt; lra|right; lra]. }
    destruct Q as (e & He & Q). exists (Rmin d e). split; [apply Rmin_pos; assumption|].
    pose proof (Rmin_l d e). pose proof (Rmin_r d e). unfold upto in *. cbn [filter].
    split; intros x Hx.
    + specialize (IR x ltac:(lra)).
      destruct Q as [->|Q].
      * destruct (Rltb_spec x c), (Rltb_spec c c); try lra. cbn [negb length]. lia.
      * destruct (Rltb_spec x r) as [A|A], (Rltb_spec c r) as [B|B]; cbn [negb length]; try lia; exfalso.
        -- lra.
        -- rewrite Rabs_right in Q by lra. lra.
    + specialize (IL x ltac:(lra)).
      destruct Q as [->|Q].
      * destruct (in_dec Req_EM_T c rs) as [I|I]; [contradiction|].
        destruct (in_dec Req_EM_T c (c :: rs)) as [_|J]; [|exfalso; apply J; left; reflexivity].
        destruct (Rltb_spec x c), (Rltb_spec c c); try lra. cbn [negb length]. lia.
      * assert (r <> c) by (intros ->; unfold Rminus in Q; rewrite Rplus_opp_r, Rabs_R0 in Q; lra).
        destruct (in_dec Req_EM_T c (r :: rs)) as [I|I], (in_dec Req_EM_T c rs) as [J|J];
          try (exfalso; destruct I as [I|I]; [congruence|contradiction]); try (exfalso; apply I; right; assumption);
        (destruct (Rltb_spec x r) as [A|A], (Rltb_spec c r) as [B|B]; cbn [negb length]; try lia; exfalso;
          [rewrite Rabs_left in Q by lra; lra|lra]).
Qed.

Lemma locally_constant (F : R -> nat) :
  (forall c, exists d, 0 < d /\ forall x, Rabs (x - c) < d -> F x = F c) -> forall a b, F a = F b.
Proof.
  intros H.
  assert (D : forall c, derivable_pt_lim (fun x => INR (F x)) c 0).
  { intros c e He. destruct (H c) as (d & Hd & Hx). exists (mkposreal d Hd). intros h Hh0 Hh. simpl in Hh.
    rewrite (Hx (c + h)) by (replace (c + h - c) with h by ring; exact Hh).
    replace ((INR (F c) - INR (F c)) / h - 0) with 0 by (field; exact Hh0). rewrite Rabs_R0. exact He. }
  set (pr := fun c => exist (fun l => derivable_pt_abs (fun x => INR (F x)) c l) 0 (D c)).
  assert (C : constant (fun x => INR (F x))).
  { apply (null_derivative_1 _ pr). intros c. reflexivity. }
  intros a b. apply INR_eq, C.
Qed.

Lemma good_count hs rs : good hs -> crossing hs -> NoDup rs ->
  (forall x, In x rs <-> pval (hd [] hs) x = 0) ->
  forall a b, (V hs a + upto rs a = V hs b + upto rs b)%nat.
Proof.
  intros G X Hnd Hrs. apply (locally_constant (fun x => (V hs x + upto rs x)%nat)).
  intros c. destruct (V_local hs c G X) as (d1 & Hd1 & VR & VL).
  destruct (upto_local rs c Hnd) as (d2 & Hd2 & UR & UL).
  exists (Rmin d1 d2). split; [apply Rmin_pos; assumption|].
  intros x Hx. pose proof (Rmin_l d1 d2). pose proof (Rmin_r d1 d2).
  destruct (Rtotal_order x c) as [L|[->|L]]; [|reflexivity|].
  - rewrite Rabs_left in Hx by lra. rewrite VL, (UL x) by lra.
    destruct (Reqb_spec (pval (hd [] hs) c) 0) as [E|E], (in_dec Req_EM_T c rs) as [I|I]; try lia; exfalso;
      [apply I, Hrs, E|apply E, Hrs, I].
  - rewrite Rabs_right in Hx by lra. rewrite VR, (UR x) by lra. reflexivity.
Qed.

(* ------------------------------------------------------- the chain factors *)
Lemma len_pos (h : list R) : h <> [] -> (1 <= length h)%nat.
Proof. destruct h; [congruence|simpl; lia]. Qed.
Lemma pval_all0 (p : list R) : (forall i, get p i = 0) -> forall x, pval p x = 0.
Proof. intros H x. rewrite (pval_ext p []); [apply pval_nil|]. intros i. rewrite get_nil. apply H. Qed.

Lemma mrem_spec (n : nat) (p q : list R) : length p = S (S n) -> length q = S n ->
  length (mrem p q) = Nat.max 1 n /\
  ((forall x, pval q x = 0) /\ (forall x, pval (mrem p q) x = 0) \/
   not_zero q /\ exists k, k <> [] /\ (forall x, pval p x = pval k x * pval q x - pval (mrem p q) x) /\
      (n = 0%nat -> forall x, pval (mrem p q) x = 0)).
Proof.
  intros Hp Hq. unfold mrem, poly_gcd.
  assert (Pq : porder q = n) by (unfold porder; rewrite Hq; reflexivity).
  assert (Pp : porder p = S n) by (unfold porder; rewrite Hp; reflexivity).
  assert (Hpn : p <> []) by (intros ->; discriminate).
  pose proof (gcd_rec_correct p Hpn (porder q) q ltac:(lia) ltac:(lia)) as H. rewrite Pp, Pq in *.
  destruct (gcd_rec n p q) as [r|k r].
  - destruct H as (H1 & H2 & H3 & H4). split.
    + unfold poly_neg, poly_raise. rewrite map_length, app_length, repeat_length. lia.
    + left. split; [exact H1|]. intros x. rewrite poly_neg_correct, poly_raise_val, H3. ring.
  - destruct H as (m & Hm & [Hd1 Hd2] & Hk & Hr & Hz & Hv). split.
    + unfold poly_neg, poly_raise. rewrite map_length, app_length, repeat_length. lia.
    + right. split.
      * exists (nth m q 0). split; [|exact Hd1]. apply nth_In. lia.
      * exists k. split; [intros ->; simpl in Hk; lia|]. split.
        -- intros x. rewrite poly_neg_correct, poly_raise_val, Hv. ring.
        -- intros -> x. rewrite poly_neg_correct, poly_raise_val. rewrite (pval_all0 r); [ring|].
           intros i. apply Hz. lia.
Qed.

Lemma chain_zero n : forall p q, length p = S (S n) -> length q = S n ->
  (forall x, pval q x = 0) -> forall x, vals x (chain_tail (S n) p q) = repeat 0 (S n).
Proof.
  induction n as [|n IH]; intros p q Hp Hq Z x; cbn [chain_tail vals map repeat].
  - rewrite Z. reflexivity.
  - rewrite Z. f_equal. destruct (mrem_spec (S n) p q Hp Hq) as [Hl [[_ Zr]|[Hnz _]]].
    + fold (vals x (chain_tail (S n) q (mrem p q))). apply IH; [exact Hq|rewrite Hl; lia|exact Zr].
    + exfalso. apply not_zero_iff in Hnz. destruct Hnz as [y Hy]. apply Hy, Z.
Qed.

(** every chain is a common factor times a reduced chain, followed by zeros *)
Lemma chain_factor n : forall p q, length p = S n -> (n <> 0%nat -> length q = n) -> not_zero p ->
  exists g hs m, good hs /\ not_zero g /\ Forall (fun h => h <> []) hs /\
    (length hs + m = S n)%nat /\
    forall x, vals x (p :: chain_tail n p q) = map (Rmult (pval g x)) (vals x hs) ++ repeat 0 m.
Proof.
  induction n as [|n IH]; intros p q Hp Hq Hpn.
  - exists p, [[1]], 0%nat. split; [intros x; rewrite pval_cons, pval_nil; ring|].
    split; [exact Hpn|]. split; [repeat constructor; discriminate|]. split; [reflexivity|].
    intros x. cbn [chain_tail vals map repeat app]. rewrite pval_cons, pval_nil. f_equal. ring.
  - specialize (Hq ltac:(discriminate)).
    destruct (mrem_spec n p q Hp Hq) as [Hl [[Zq _]|(Hqn & k & Hk & Hpk & Hn0)]].
    + exists p, [[1]], (S n). split; [intros x; rewrite pval_cons, pval_nil; ring|].
      split; [exact Hpn|]. split; [repeat constructor; discriminate|]. split; [reflexivity|].
      intros x. cbn [vals map app]. fold (vals x (chain_tail (S n) p q)).
      rewrite (chain_zero n p q Hp Hq Zq). f_equal. rewrite pval_cons, pval_nil. ring.
    + destruct (IH q (mrem p q) Hq ltac:(intros; lia) Hqn) as (g & hs & m & G & Hg & Hne & Hlen & E).
      destruct hs as [|h1 t]; [destruct G|].
      cbn [chain_tail]. 
      assert (Eq : forall x, pval q x = pval g x * pval h1 x).
      { intros x. specialize (E x). cbn [vals map app] in E. injection E as E _. exact E. }
      assert (Hh1 : h1 <> []) by (inversion Hne; assumption).
      (* the new head *)
      assert (N : exists h0, h0 <> [] /\ (forall x, pval p x = pval g x * pval h0 x) /\ good (h0 :: h1 :: t)).
      { destruct t as [|h2 t].
        - (* remainder vanishes *)
          assert (Zr : forall x, pval (mrem p q) x = 0).
          { destruct n as [|n]; [apply Hn0; reflexivity|]. intros x. specialize (E x).
            cbn [chain_tail vals map app] in E. destruct m as [|m]; [simpl in Hlen; lia|]. cbn [repeat] in E.
            injection E as _ E _. exact E. }
          destruct (poly_mul_correct k h1 Hk Hh1) as [_ Em].
          exists (poly_mul k h1). split; [|split].
          + intros E0. specialize (E 0). destruct (poly_mul_correct k h1 Hk Hh1) as [Hml _]. rewrite E0 in Hml.
            pose proof (len_pos k Hk). pose proof (len_pos h1 Hh1). simpl in Hml. lia.
          + intros x. rewrite Em, Hpk, Zr, Eq. ring.
          + split; [exact G|exact I].
        - assert (Hh2 : h2 <> []) by (inversion Hne as [|? ? ? Hne2]; inversion Hne2; assumption).
          assert (Er : forall x, pval (mrem p q) x = pval g x * pval h2 x).
          { intros x. destruct n as [|n].
            - simpl in Hlen. lia.
            - specialize (E x). cbn [chain_tail vals map app] in E. injection E as _ E _. exact E. }
          destruct (poly_mul_correct k h1 Hk Hh1) as [Hml Em].
          assert (Hmn : poly_mul k h1 <> []).
          { intros E0. rewrite E0 in Hml. pose proof (len_pos k Hk). pose proof (len_pos h1 Hh1). simpl in Hml. lia. }
          destruct (poly_sub_op_correct (poly_mul k h1) h2 Hmn Hh2) as [Hsl Es].
          exists (poly_sub_op (poly_mul k h1) h2). split; [|split].
          + intros E0. rewrite E0 in Hsl. pose proof (len_pos _ Hmn). simpl in Hsl. lia.
          + intros x. rewrite Es, Em, Hpk, Er, Eq. ring.
          + split; [exact G|]. exists (pval k). intros x. rewrite Es, Em. ring. }
      destruct N as (h0 & Hh0 & Eh0 & G0).
      exists g, (h0 :: h1 :: t), m. split; [exact G0|]. split; [exact Hg|]. split; [constructor; assumption|].
      split; [simpl in *; lia|]. intros x. specialize (E x).
      cbn [vals map app] in *. rewrite Eh0. f_equal. exact E.
Qed.

(* ------------------------------------------------------- crossing *)
Lemma punctured p c : not_zero p -> exists d, 0 < d /\ forall x, 0 < Rabs (x - c) < d -> pval p x <> 0.
Proof.
  intros Hp. destruct (roots_in_exists (fun _ => True) p Hp) as [rs Hrs].
  assert (Q : exists d, 0 < d /\ forall r, In r rs -> r = c \/ d <= Rabs (r - c)).
  { clear. induction rs as [|r rs (d & Hd & H)]; [exists 1; split; [lra|intros r []]|].
    destruct (Req_dec r c) as [E|E].
    - exists d. split; [exact Hd|]. intros r' [<-|Hr]; auto.
    - assert (0 < Rabs (r - c)) by (apply Rabs_pos_lt; lra).
      exists (Rmin d (Rabs (r - c))). split; [apply Rmin_pos; assumption|].
      intros r' [<-|Hr]; [right; apply Rmin_r|]. destruct (H r' Hr) as [|L]; [auto|right].
      pose proof (Rmin_l d (Rabs (r - c))). lra. }
  destruct Q as (d & Hd & Q). exists d. split; [exact Hd|]. intros x [H1 H2] E.
  apply (roots_in_In _ p rs x Hrs I) in E. destruct (Q x E) as [->|L]; [|lra].
  unfold Rminus in H1. rewrite Rplus_opp_r, Rabs_R0 in H1. lra.
Qed.

Lemma pval_ivt w a b : a < b -> pval w a * pval w b < 0 -> exists z, a < z < b /\ pval w z = 0.
Proof.
  intros Hab H. destruct (IVT_cor (pval w) a b (pval_continuity w) ltac:(lra) ltac:(lra)) as (z & Hz & E).
  exists z. split; [|exact E]. split; [destruct (proj1 Hz) as [L|L]|destruct (proj2 Hz) as [L|L]]; try exact L; exfalso; subst z; rewrite E in H; lra.
Qed.

(** f f' changes from negative to positive at every root of f *)
Lemma ff'_crossing f f' c : not_zero f -> f <> [] -> f' <> [] -> (forall x, derivable_pt_lim (pval f) x (pval f' x)) ->
  pval f c = 0 -> exists d, 0 < d /\
    (forall x, c < x < c + d -> 0 < pval f x * pval f' x) /\
    (forall x, c - d < x < c -> pval f x * pval f' x < 0).
Proof.
  intros Hf Hfn Hf'n HD Ec.
  destruct (punctured f c Hf) as (d1 & Hd1 & P1).
  assert (Hf' : not_zero f').
  { assert (Hlt : c < c + d1 / 2) by lra.
    destruct (MVT_cor2 (pval f) (pval f') c (c + d1 / 2) Hlt ltac:(intros; apply HD)) as (xi & E & _).
    apply not_zero_iff. exists xi. intros E0. rewrite E0, Ec in E.
    apply (P1 (c + d1 / 2)); [|lra]. replace (c + d1 / 2 - c) with (d1 / 2) by ring. rewrite Rabs_right; lra. }
  destruct (punctured f' c Hf') as (d2 & Hd2 & P2).
  exists (Rmin d1 d2). split; [apply Rmin_pos; assumption|].
  pose proof (Rmin_l d1 d2) as M1. pose proof (Rmin_r d1 d2) as M2.
  set (w := poly_mul f f').
  assert (Ew : forall x, pval w x = pval f x * pval f' x) by (apply (poly_mul_correct f f' Hfn Hf'n)).
  assert (Nz : forall x, 0 < Rabs (x - c) < Rmin d1 d2 -> pval w x <> 0).
  { intros x Hx. rewrite Ew. apply Rmult_integral_contrapositive_currified; [apply P1|apply P2]; lra. }
  assert (DD : forall x, derivable_pt_lim (fun y => pval f y * pval f y) x (2 * pval w x)).
  { intros x. rewrite Ew. replace (2 * (pval f x * pval f' x)) with (pval f' x * pval f x + pval f x * pval f' x) by ring.
    apply (derivable_pt_lim_mult (pval f) (pval f)); apply HD. }
  split; intros x Hx; rewrite <- Ew.
  - destruct (MVT_cor2 _ _ c x ltac:(lra) (fun z _ => DD z)) as (xi & E & Hxi). cbn beta in E. rewrite Ec in E.
    assert (Hxi0 : 0 < pval w xi).
    { assert (0 < pval f x * pval f x).
      { assert (pval f x <> 0) by (apply P1; rewrite Rabs_right by lra; lra). nra. }
      assert (0 < 2 * pval w xi * (x - c)) by lra. nra. }
    destruct (Rlt_or_le 0 (pval w x)) as [L|L]; [exact L|exfalso].
    assert (Hx0 : pval w x <> 0) by (apply Nz; rewrite Rabs_right by lra; lra).
    destruct (pval_ivt w xi x ltac:(lra) ltac:(nra)) as (z & Hz & Ez).
    apply (Nz z); [rewrite Rabs_right by lra; lra|exact Ez].
  - destruct (MVT_cor2 _ _ x c ltac:(lra) (fun z _ => DD z)) as (xi & E & Hxi). cbn beta in E. rewrite Ec in E.
    assert (Hxi0 : pval w xi < 0).
    { assert (0 < pval f x * pval f x).
      { assert (pval f x <> 0) by (apply P1; rewrite Rabs_left by lra; lra). nra. }
      assert (2 * pval w xi * (c - x) < 0) by lra. nra. }
    destruct (Rlt_or_le (pval w x) 0) as [L|L]; [exact L|exfalso].
    assert (Hx0 : pval w x <> 0) by (apply Nz; rewrite Rabs_left by lra; lra).
    destruct (pval_ivt w x xi ltac:(lra) ltac:(nra)) as (z & Hz & Ez).
    apply (Nz z); [rewrite Rabs_left by lra; lra|exact Ez].
Qed.

(* ------------------------------------------------------- the theorem *)
Lemma for_up_length (b : nat -> list R -> list R) : (forall i r, length (b i r) = length r) ->
  forall n a s, length (for_up a n b s) = length s.
Proof. intros H. induction n as [|n IH]; intros a s; cbn [for_up]; [reflexivity|]. rewrite IH. apply H. Qed.
Lemma deriv_len f : (2 <= length f)%nat -> length (poly_derivative true f) = (length f - 1)%nat.
Proof.
  intros H. unfold poly_derivative. cbn [andb].
  assert (Hp : porder f = (length f - 1)%nat) by (unfold porder; lia).
  destruct (Nat.eqb_spec (porder f) 0) as [E|E]; [lia|]. cbn [negb].
  unfold poly_deriv.
  rewrite (for_up_length _ (fun i (r : list R) => upd_length r i _)). unfold poly_zero. rewrite repeat_length. lia.
Qed.


Lemma tail_nonempty n : forall p q, length p = S n -> (n <> 0%nat -> length q = n) ->
  Forall (fun r => r <> []) (chain_tail n p q).
Proof.
  induction n as [|n IH]; intros p q Hp Hq; cbn [chain_tail]; constructor.
  - intros ->. specialize (Hq ltac:(discriminate)). discriminate.
  - specialize (Hq ltac:(discriminate)).
    destruct (mrem_spec n p q Hp Hq) as [Hl _].
    apply IH; [exact Hq|]. intros. lia.
Qed.

Lemma pow_shift_deriv c n x : derivable_pt_lim (fun y => (y - c) ^ n) x (INR n * (x - c) ^ pred n).
Proof.
  replace (INR n * (x - c) ^ pred n) with (INR n * (x - c) ^ pred n * 1) by ring.
  apply (derivable_pt_lim_comp (fun y => y - c) (fun y => y ^ n)).
  - replace 1 with (1 - 0) by ring. apply (derivable_pt_lim_minus (fun y => y) (fun _ => c)); [apply derivable_pt_lim_id|apply derivable_pt_lim_const].
  - apply derivable_pt_lim_pow.
Qed.
Lemma cont_zero (F : R -> R) c : continuity_pt F c -> (forall x, x <> c -> F x = 0) -> F c = 0.
Proof.
  intros Hc H. destruct (Req_dec (F c) 0) as [|N]; [assumption|exfalso].
  destruct (Hc (Rabs (F c)) ltac:(apply Rabs_pos_lt, N)) as (d & Hd & Hx).
  specialize (Hx (c + d / 2)). unfold dist in Hx. simpl in Hx. unfold R_dist in Hx.
  rewrite (H (c + d / 2)) in Hx by lra.
  assert (Rabs (0 - F c) < Rabs (F c)).
  { apply Hx. split; [split; [exact I|lra]|]. replace (c + d / 2 - c) with (d / 2) by ring. rewrite Rabs_right; lra. }
  replace (0 - F c) with (- F c) in H0 by ring. rewrite Rabs_Ropp in H0. lra.
Qed.

(** if g divides both f and f' then the cofactor of f vanishes where g does *)
Lemma no_common_factor f g h0 h1 c : not_zero g -> h0 <> [] -> (forall x, pval f x = pval g x * pval h0 x) ->
  (forall x, derivable_pt_lim (pval f) x (pval g x * pval h1 x)) ->
  pval g c = 0 -> pval h0 c <> 0 -> False.
Proof.
  intros Hg Hh0 Ef HD Eg N.
  destruct (roots_in_exists (fun x => x = c) g Hg) as (rs & Hall & g1 & Eg1 & Ng1).
  specialize (Ng1 c eq_refl).
  assert (Ep : forall x, prod_roots rs x = (x - c) ^ length rs).
  { intros x. clear - Hall. induction Hall as [|r rs -> Hall IH]; cbn [prod_roots length pow]; [reflexivity|rewrite IH; reflexivity]. }
  set (j := length rs) in *.
  assert (Hj : exists i, j = S i).
  { destruct j as [|i] eqn:Ej; [|eauto]. exfalso. rewrite Eg1, Ep in Eg. cbn [pow] in Eg. lra. }
  destruct Hj as [i Ei]. 
  assert (Hg1 : g1 <> []) by (intros ->; apply Ng1; apply pval_nil).
  destruct (poly_mul_correct g1 h0 Hg1 Hh0) as [_ Ek]. set (k := poly_mul g1 h0) in *.
  assert (D2 : forall x, derivable_pt_lim (pval f) x (INR j * (x - c) ^ pred j * pval k x + (x - c) ^ j * pval (fder k) x)).
  { intros x. apply (derivable_pt_lim_ext (fun y => (y - c) ^ j * pval k y)).
    - intros y. rewrite Ek, Ef, Eg1, Ep. ring.
    - apply (derivable_pt_lim_mult (fun y => (y - c) ^ j) (pval k)); [apply pow_shift_deriv|apply pval_derivable]. }
  set (F := fun x => INR j * pval k x + (x - c) * (pval (fder k) x - pval g1 x * pval h1 x)).
  assert (Z : F c = 0).
  { apply cont_zero.
    - unfold F. apply continuity_pt_plus.
      + apply continuity_pt_scal. apply pval_continuity.
      + apply (continuity_pt_mult (fun x => x - c) (fun x => pval (fder k) x - pval g1 x * pval h1 x)).
        * apply (continuity_pt_minus (fun x => x) (fun _ => c)); [apply derivable_continuous_pt, derivable_pt_id|apply continuity_pt_const; intros ? ?; reflexivity].
        * apply continuity_pt_minus; [apply pval_continuity|]. apply (continuity_pt_mult (pval g1) (pval h1)); apply pval_continuity.
    - intros x Hx. pose proof (uniqueness_limite _ _ _ _ (HD x) (D2 x)) as U.
      rewrite Eg1, Ep, Ei in U. cbn [pred pow] in U. unfold F. rewrite Ei.
      apply (Rmult_eq_reg_l ((x - c) ^ i)); [|apply pow_nonzero; lra]. lra. }
  unfold F in Z. rewrite Ek in Z. unfold Rminus at 1 in Z. rewrite Rplus_opp_r, Rmult_0_l, Rplus_0_r in Z.
  apply Rmult_integral in Z. destruct Z as [Z|Z].
  - rewrite Ei in Z. revert Z. apply not_0_INR. discriminate.
  - apply Rmult_integral in Z. destruct Z; contradiction.
Qed.

Record sturm_data (f : list R) (g : list R) (hs : list (list R)) : Prop := {
  sd_good : good hs;
  sd_cross : crossing hs;
  sd_g : not_zero g;
  sd_V : forall x, pval g x <> 0 -> sign_changes (sturm_chain f) (Fin x) = V hs x;
  sd_root : forall x, pval (hd [] hs) x = 0 <-> pval f x = 0;
  sd_mult : forall x, pval g x = 0 -> pval f x = 0 /\ pval (poly_derivative true f) x = 0
}.

Lemma chain_length n : forall p q, length (chain_tail n p q) = n.
Proof. induction n as [|n IH]; intros p q; cbn [chain_tail length]; [reflexivity|]. rewrite IH. reflexivity. Qed.

Lemma chain_nonempty f : (2 <= length f)%nat -> Forall (fun p => p <> []) (sturm_chain f).
Proof.
  intros Hl. pose proof (deriv_len f Hl) as Hd.
  assert (Hfn : f <> []) by (intros ->; simpl in Hl; lia).
  pose proof (order_length f Hfn) as Ho.
  constructor; [exact Hfn|]. apply tail_nonempty; lia.
Qed.

Lemma sign_changes_helper f x : (2 <= length f)%nat ->
  sign_changes (sturm_chain f) x = sign_change_helper 0 (sturm_chain f) x.
Proof.
  intros Hl. assert (Hn : exists m, porder f = S m) by (exists (length f - 2)%nat; unfold porder; lia).
  destruct Hn as [m Em]. unfold sign_changes, sturm_chain. rewrite Em. reflexivity.
Qed.

Lemma sturm_exists f : (2 <= length f)%nat -> not_zero f -> exists g hs, sturm_data f g hs.
Proof.
  intros Hl Hf. pose proof (deriv_len f Hl) as Hd.
  assert (Hfn : f <> []) by (intros ->; simpl in Hl; lia).
  pose proof (order_length f Hfn) as Ho.
  assert (Hn : exists m, porder f = S m) by (exists (length f - 2)%nat; lia). destruct Hn as [m Em].
  set (f' := poly_derivative true f) in *.
  assert (HD : forall x, derivable_pt_lim (pval f) x (pval f' x)) by (intros x; apply poly_derivative_correct, Hfn).
  assert (Hf'n : f' <> []) by (intros E; rewrite E in Hd; simpl in Hd; lia).
  destruct (chain_factor (porder f) f f' Ho ltac:(intros; lia) Hf) as (g & hs & k & G & Hg & Hne & Hlen & E).
  assert (E0 : forall x, pval f x = pval g x * pval (hd [] hs) x).
  { intros x. specialize (E x). destruct hs as [|h0 t]; [destruct G|]. cbn [vals map app hd] in *. injection E as E _. exact E. }
  assert (E1 : forall h0 h1 t, hs = h0 :: h1 :: t -> forall x, pval f' x = pval g x * pval h1 x).
  { intros h0 h1 t -> x. specialize (E x). rewrite Em in E. cbn [chain_tail vals map app] in E. injection E as _ E _. exact E. }
  assert (NZ : forall c, exists d, 0 < d /\ forall x, 0 < Rabs (x - c) < d -> pval g x <> 0) by (intros c; apply punctured, Hg).
  assert (X : crossing hs).
  { destruct hs as [|h0 [|h1 t]]; cbn [crossing]; auto. intros c Ec.
    assert (Efc : pval f c = 0) by (rewrite E0; cbn [hd]; rewrite Ec; ring).
    destruct (ff'_crossing f f' c Hf Hfn Hf'n HD Efc) as (d & Hdp & XR & XL).
    destruct (NZ c) as (e & He & NZc). exists (Rmin d e). split; [apply Rmin_pos; assumption|].
    pose proof (Rmin_l d e). pose proof (Rmin_r d e).
    split; intros x Hx.
    - specialize (XR x ltac:(lra)). rewrite E0 in XR; rewrite (E1 h0 h1 t eq_refl) in XR. cbn [hd] in XR.
      assert (pval g x <> 0) by (apply NZc; rewrite Rabs_right by lra; lra).
      assert (0 < pval g x * pval g x) by nra.
      replace (pval g x * pval h0 x * (pval g x * pval h1 x)) with (pval g x * pval g x * (pval h0 x * pval h1 x)) in XR by ring. nra.
    - specialize (XL x ltac:(lra)). rewrite E0 in XL; rewrite (E1 h0 h1 t eq_refl) in XL. cbn [hd] in XL.
      assert (pval g x <> 0) by (apply NZc; rewrite Rabs_left by lra; lra).
      assert (0 < pval g x * pval g x) by nra.
      replace (pval g x * pval h0 x * (pval g x * pval h1 x)) with (pval g x * pval g x * (pval h0 x * pval h1 x)) in XL by ring. nra. }
  exists g, hs. constructor; auto.
  - intros x Hx. rewrite sign_changes_helper by exact Hl. rewrite helper_sv by (apply chain_nonempty, Hl).
    unfold sturm_chain. fold f'. rewrite E, sv_app0. unfold V. apply sv_scale_nz, Hx.
  - intros x. rewrite E0. split; [intros ->; ring|]. intros Ex.
    apply Rmult_integral in Ex. destruct Ex as [Ex|Ex]; [|exact Ex].
    (* g vanishes: h0 must vanish too, else f f' would keep a factor *)
    destruct (Req_dec (pval (hd [] hs) x) 0) as [|N]; [assumption|exfalso].
    destruct hs as [|h0 t]; [destruct G|]. cbn [hd] in *.
    assert (Efx : pval f x = 0) by (rewrite E0, Ex; ring).
    destruct (ff'_crossing f f' x Hf Hfn Hf'n HD Efx) as (d & Hdp & XR & XL).
    destruct t as [|h1 t].
    + (* f = g, f' = 0 *)
      assert (Zf' : forall y, pval f' y = 0).
      { intros y. specialize (E y). rewrite Em in E. cbn [chain_tail vals map app] in E.
        destruct k as [|k]; [simpl in Hlen; lia|]. cbn [repeat] in E. injection E as _ E _. exact E. }
      specialize (XR (x + d / 2) ltac:(lra)). rewrite Zf' in XR. lra.
    + (* h0 keeps its sign near x, so would h0 h1 change sign only through h1 *)
      apply (no_common_factor f g h0 h1 x); auto.
      * inversion Hne; assumption.
      * intros y. rewrite <- (E1 h0 h1 t eq_refl). apply HD.
  - intros x Ex. split; [rewrite E0, Ex; ring|]. specialize (E x). rewrite Em in E. cbn [chain_tail vals map app] in E.
    rewrite Ex in E. destruct hs as [|h0 [|h1 t]]; [destruct G| |]; cbn [vals map app] in E.
    + destruct k as [|k]; [simpl in Hlen; lia|]. cbn [repeat] in E. injection E as _ E _. exact E.
    + injection E as _ E _. change (pval f' x = 0). rewrite E. ring.
Qed.

Lemma upto_le rs a b : a <= b ->
  upto rs b = (upto rs a + length (filter (fun r => Rltb a r && negb (Rltb b r))%bool rs))%nat.
Proof.
  intros Hab. unfold upto. induction rs as [|r rs IH]; cbn [filter]; [reflexivity|].
  destruct (Rltb_spec b r), (Rltb_spec a r); cbn [negb andb length]; try lia. lra.
Qed.

Lemma same_length {A} (l m : list A) : NoDup l -> NoDup m -> (forall x, In x l <-> In x m) -> length l = length m.
Proof.
  intros Hl Hm H. apply Nat.le_antisymm; apply NoDup_incl_length; auto; intros x Hx; apply H, Hx.
Qed.

Theorem sturm_count f a b rs : not_zero f -> a <= b ->
  ~ (pval f a = 0 /\ pval (poly_derivative true f) a = 0) ->
  ~ (pval f b = 0 /\ pval (poly_derivative true f) b = 0) ->
  NoDup rs -> (forall x, In x rs <-> (a < x /\ x <= b) /\ pval f x = 0) ->
  (sign_changes (sturm_chain f) (Fin a) = sign_changes (sturm_chain f) (Fin b) + length rs)%nat.
Proof.
  intros Hf Hab Ha Hb Hnd Hrs.
  destruct (Nat.le_gt_cases 2 (length f)) as [Hl|Hl].
  - destruct (sturm_exists f Hl Hf) as (g & hs & [G X Hg EV ER EM]).
    rewrite !EV; [|intros E; apply Hb, EM, E|intros E; apply Ha, EM, E].
    destruct (roots_in_exists (fun _ => True) f Hf) as [all Hall].
    set (al := nodup Req_EM_T all).
    assert (Hal : forall x, In x al <-> pval (hd [] hs) x = 0).
    { intros x. unfold al. rewrite nodup_In, ER. symmetry. apply (roots_in_In (fun _ => True) f all x Hall I). }
    pose proof (good_count hs al G X (NoDup_nodup _ _) Hal a b) as C.
    rewrite (upto_le al a b Hab) in C.
    assert (EL : length rs = length (filter (fun r => Rltb a r && negb (Rltb b r))%bool al)).
    { apply same_length; [exact Hnd|apply NoDup_filter, NoDup_nodup|].
      intros x. rewrite Hrs, filter_In, Hal, ER.
      destruct (Rltb_spec a x), (Rltb_spec b x); cbn [andb negb]; split; intros H; try tauto; try (destruct H; discriminate); lra. }
    lia.
  - assert (Hz : rs = []).
    { destruct rs as [|r t]; [reflexivity|exfalso]. destruct (proj1 (Hrs r) (or_introl eq_refl)) as [_ E].
      destruct Hf as (c & Hc & Hc0). destruct f as [|c0 [|? ?]]; [destruct Hc| |simpl in Hl; lia].
      destruct Hc as [<-|[]]. rewrite pval_cons, pval_nil in E. lra. }
    subst rs. assert (E : sturm_chain f = [f]).
    { unfold sturm_chain. assert (porder f = 0%nat) by (unfold porder; lia). rewrite H. reflexivity. }
    rewrite E. reflexivity.
Qed.

(* ------------------------------------------------------- end points at infinity *)
Lemma xsign_limit (F : R -> R) v : limit_at_pinf F (xlim v) -> exists X, forall x, X < x -> rsign (F x) = xsign v.
Proof.
  destruct v as [c| |]; cbn [xlim limit_at_pinf xsign]; intros H.
  - exists 0. intros x _. rewrite H. reflexivity.
  - destruct (H 0) as [X HX]. exists X. intros x Hx. specialize (HX x Hx).
    destruct (rsign_cases (F x)) as [[A ->]|[[A ->]|[A ->]]]; try reflexivity; lra.
  - destruct (H 0) as [X HX]. exists X. intros x Hx. specialize (HX x Hx).
    destruct (rsign_cases (F x)) as [[A ->]|[[A ->]|[A ->]]]; try reflexivity; lra.
Qed.

Lemma helper_inf (c : list (list R)) (e : xval R) (sgn : R) :
  Forall (fun p => limit_at_pinf (fun x => pval p (sgn * x)) (xlim (poly_sub p e))) c ->
  exists X, forall x, X < x -> forall s, sign_change_helper s c e = sv s (vals (sgn * x) c).
Proof.
  induction 1 as [|p c Hp Hc (X & IH)]; [exists 0; reflexivity|].
  destruct (xsign_limit _ _ Hp) as [Y HY]. exists (Rmax X Y). intros x Hx s.
  pose proof (Rmax_l X Y). pose proof (Rmax_r X Y).
  cbn [sign_change_helper vals map sv]. cbn zeta. rewrite <- (HY x) by lra. rewrite (IH x) by lra.
  unfold chg, nxt, vals. lia.
Qed.

Lemma helper_pinf (c : list (list R)) : Forall (fun p => p <> []) c ->
  exists X, forall x, X < x -> forall s, sign_change_helper s c PInf = sv s (vals x c).
Proof.
  intros H. destruct (helper_inf c PInf 1) as [X HX].
  - eapply Forall_impl; [|exact H]. intros p Hp. cbn beta in Hp.
    apply (limit_ext (pval p)); [intros x; f_equal; ring|apply poly_sub_pinf, Hp].
  - exists X. intros x Hx s. rewrite (HX x Hx s). rewrite Rmult_1_l. reflexivity.
Qed.

Lemma large_clear f : not_zero f -> exists X, forall x, X < Rabs x -> pval f x <> 0.
Proof.
  intros Hf. destruct (roots_in_exists (fun _ => True) f Hf) as [rs Hrs].
  assert (Q : exists X, forall r, In r rs -> Rabs r <= X).
  { clear. induction rs as [|r rs [X H]]; [exists 0; intros r []|]. exists (Rmax X (Rabs r)).
    intros r' [<-|Hr]; [apply Rmax_r|]. specialize (H r' Hr). pose proof (Rmax_l X (Rabs r)). lra. }
  destruct Q as [X Q]. exists X. intros x Hx E. apply (roots_in_In _ f rs x Hrs I) in E. specialize (Q x E). lra.
Qed.

(** the number of sign changes at +infinity is that at every large number *)
Lemma changes_pinf f : f <> [] -> exists X, forall x, X < x ->
  sign_changes (sturm_chain f) PInf = sign_changes (sturm_chain f) (Fin x).
Proof.
  intros Hf. destruct (Nat.le_gt_cases 2 (length f)) as [Hl|Hl].
  - destruct (helper_pinf (sturm_chain f) (chain_nonempty f Hl)) as [X HX]. exists X. intros x Hx.
    rewrite !sign_changes_helper by exact Hl. rewrite helper_sv by (apply chain_nonempty, Hl). apply HX, Hx.
  - exists 0. intros x _. unfold sturm_chain. assert (H : porder f = 0%nat) by (unfold porder; lia). rewrite H. reflexivity.
Qed.

Lemma changes_ninf f : f <> [] ->
  (forall p, In p (sturm_chain f) -> limit_at_ninf (pval p) (xlim (poly_sub p NInf))) ->
  exists X, forall x, X < x -> sign_changes (sturm_chain f) NInf = sign_changes (sturm_chain f) (Fin (- x)).
Proof.
  intros Hf H. destruct (Nat.le_gt_cases 2 (length f)) as [Hl|Hl].
  - destruct (helper_inf (sturm_chain f) NInf (-1)) as [X HX].
    { apply Forall_forall. intros p Hp. specialize (H p Hp). unfold limit_at_ninf in H.
      apply (limit_ext (fun x => pval p (- x))); [intros x; f_equal; ring|exact H]. }
    exists X. intros x Hx. rewrite !sign_changes_helper by exact Hl. rewrite helper_sv by (apply chain_nonempty, Hl).
    rewrite (HX x Hx). f_equal. f_equal. ring.
  - exists 0. intros x _. unfold sturm_chain. assert (E : porder f = 0%nat) by (unfold porder; lia). rewrite E. reflexivity.
Qed.

Lemma sturm_roots_eq (c : list (list R)) (a b : xval R) n :
  (sign_changes c a = sign_changes c b + n)%nat -> sturm_roots c a b = n.
Proof. intros E. unfold sturm_roots. lia. Qed.
