(** Compile-time expressions: integration and Taylor series. *)
From Coq Require Import ZArith Reals Lia Lra Bool List String Factorial.
From Verif Require Import Outcome Num ExprModel ExprSpec ExprBase ExprSimp ExprVal ExprSub ExprDeriv ConstModel PropConst CtModel CtSpec CtProofs CtSimp CtDeriv.
Import ListNotations.
Open Scope R_scope.

(** *** Integration *)
Lemma occurs_val ok rho x t e v : ~ occurs x e -> cval ok rho e v -> cval ok (upd_num rho x t) e v.
Proof.
  revert v. induction e as [n d|k|y|o a IH|o l IHl r IHr]; intros v N H; cbn [cval occurs] in *; auto.
  - unfold upd_num. destruct (String.eqb_spec y x); [contradiction|auto].
  - destruct H as (u & H1 & H2). exists u. auto.
  - destruct H as (u & w & H1 & H2 & H3). exists u, w. split; [apply IHl; tauto|]. split; [apply IHr; tauto|auto].
Qed.
Lemma diff_capply rho x o l r e v d : differentiates rho x (TBin o l r) v d -> capply o l r = Ret e -> o <> ODiv ->
  differentiates rho x e v d.
Proof.
  intros (F & dl & H0 & Hv & Hn & Hd) H No. exists F, dl. split; auto. split; auto. split; auto.
  intros t Ht. destruct (Hn t Ht) as (u & w & Hu & Hw & Hb). eapply capply_val; eauto.
Qed.
Lemma diff_var rho x : differentiates rho x (TVar x) (rho x) 1.
Proof.
  exists (fun t => t), 1. split; [lra|]. split; auto. split; [|apply derivable_pt_lim_id].
  intros t _. cbn. unfold upd_num. now rewrite String.eqb_refl.
Qed.
Lemma diff_mult rho x l r u w du dw : differentiates rho x l u du -> differentiates rho x r w dw ->
  differentiates rho x (TBin OMul l r) (u * w) (du * w + u * dw).
Proof.
  intros Du Dw. apply (diff_bin rho x OMul l r u w _ du dw _ mult_fct Du Dw). intros F G HF HG <- <-. split; [reflexivity|].
  split; [apply derivable_pt_lim_mult; auto|]. exists 1. split; [lra|reflexivity].
Qed.

Lemma integrate_constant_correct rho x f e v : integrate_constant x f = Ret e -> (~ occurs x f \/ differentiable_at rho f) ->
  cval anywhere rho f v -> exists V, differentiates rho x e V v.
Proof.
  intros H C Hv. unfold integrate_constant in H. apply obind_ret in H as (d & Hd & H).
  destruct (is_null d) eqn:En; [|discriminate]. apply is_null_eq in En. subst d.
  assert (D : differentiates rho x f v 0).
  { destruct C as [C|C].
    - exists (fun _ => v), 1. split; [lra|]. split; auto. split; [|apply derivable_pt_lim_const]. intros t _. apply occurs_val; auto.
    - destruct (cderiv_correct rho x f _ _ Hd C Hv) as (d & Vd & D). apply cval_Null in Vd. subst d. exact D. }
  exists (v * rho x). eapply diff_capply; [|exact H|discriminate].
  replace v with (0 * rho x + v * 1) at 2 by ring. apply diff_mult; auto. apply diff_var.
Qed.

Lemma integrate_power rho x n q e v : (n + 1 <> 0)%Z -> capply OPow (TVar x) (TC (n + 1) 1) = Ret q -> capply OMul (TC 1 (n + 1)) q = Ret e ->
  npow (rho x) (IZR n) = Some v -> exists V, differentiates rho x e V v.
Proof.
  intros Nz Hq He Hv. apply npow_int_inv in Hv as [C ->].
  assert (Dq : differentiates rho x q (powerRZ (rho x) (n + 1)) (dpow (rho x) (n + 1) * 1)).
  { eapply diff_capply; [|exact Hq|discriminate]. apply diff_pow_int; [apply diff_var|exact I| |destruct C; [left; auto|right; lia]].
    cbn [cval]. split; [discriminate|field]. }
  exists (1 / IZR (n + 1) * powerRZ (rho x) (n + 1)). eapply diff_capply; [|exact He|discriminate].
  assert (Nr : IZR (n + 1) <> 0) by (intros E; apply eq_IZR in E; contradiction).
  replace (powerRZ (rho x) n) with (0 * powerRZ (rho x) (n + 1) + 1 / IZR (n + 1) * (dpow (rho x) (n + 1) * 1)).
  - apply diff_mult; auto. apply diff_literal; [exact I|]. cbn [cval]. auto.
  - unfold dpow. destruct (Z.eq_dec (n + 1) 0); [contradiction|]. replace (n + 1 - 1)%Z with n by lia. field. auto.
Qed.

Lemma cintegrate_correct rho x f : forall e v, cintegrate x f = Ret e -> each_summand rho x f -> cval anywhere rho f v ->
  exists V, differentiates rho x e V v.
Proof.
  induction f as [n d|k|y|o a IH|o l IHl r IHr]; intros e v H S Hv; try (eapply integrate_constant_correct; eauto; fail).
  - cbn [cintegrate] in H. destruct (String.eqb_spec y x) as [->|]; [|eapply integrate_constant_correct; eauto].
    apply obind_ret in H as (p & Hp & H). eapply (integrate_power rho x 1 p e v); eauto; [lia|].
    cbn [cval] in Hv. subst v. apply npow_1.
  - destruct o; try (eapply integrate_constant_correct; eauto; fail).
    + cbn [cintegrate] in H. apply obind_ret in H as (p & Hp & H). apply obind_ret in H as (q & Hq & H). destruct S as [S1 S2].
      destruct Hv as (u & w & Hu & Hw & Hv). injection Hv as <-.
      destruct (IHl _ _ Hp S1 Hu) as (U & DU). destruct (IHr _ _ Hq S2 Hw) as (W & DW). exists (U + W).
      eapply diff_capply; [|exact H|discriminate]. apply (diff_bin rho x OAdd p q U W _ u w _ plus_fct DU DW). intros F G HF HG <- <-. split; [reflexivity|].
      split; [apply derivable_pt_lim_plus; auto|]. exists 1. split; [lra|reflexivity].
    + cbn [cintegrate] in H. apply obind_ret in H as (p & Hp & H). apply obind_ret in H as (q & Hq & H). destruct S as [S1 S2].
      destruct Hv as (u & w & Hu & Hw & Hv). injection Hv as <-.
      destruct (IHl _ _ Hp S1 Hu) as (U & DU). destruct (IHr _ _ Hq S2 Hw) as (W & DW). exists (U - W).
      eapply diff_capply; [|exact H|discriminate]. apply (diff_bin rho x OSub p q U W _ u w _ minus_fct DU DW). intros F G HF HG <- <-. split; [reflexivity|].
      split; [apply derivable_pt_lim_minus; auto|]. exists 1. split; [lra|reflexivity].
    + destruct l as [n d|k|y|p b|p b c]; try (eapply integrate_constant_correct; eauto; fail).
      cbn [cintegrate] in H. destruct (whole r) as [p|] eqn:Er; [|eapply integrate_constant_correct; eauto].
      destruct (String.eqb_spec y x) as [->|]; [|eapply integrate_constant_correct; eauto].
      destruct (Z.eqb_spec (p + 1) 0); [discriminate|]. apply obind_ret in H as (q & Hq & H).
      assert (r = TC p 1).
      { destruct r as [n' d'| | | |]; cbn in Er; try discriminate. destruct (Z.eqb_spec d' 1); [|discriminate]. congruence. }
      subst r. destruct Hv as (u & w & Hu & Hw & Hv). cbn [cval] in Hu. subst u. destruct Hw as [_ ->].
      eapply integrate_power; eauto. cbn [binary_value] in Hv. now replace (IZR p / 1) with (IZR p) in Hv by field.
Qed.

(** *** Values as a function, for expressions without "either sign" *)
Fixpoint ceval (rho : string -> R) (e : cexpr) : R :=
  match e with
  | TC n d => IZR n / IZR d
  | TNum k => to_real k
  | TVar x => rho x
  | TUn o a =>
      let u := ceval rho a in
      match o with USin => sin u | UCos => cos u | ULog => ln u | UExp => exp u | UAbs => Rabs u | UArb => u | UNeg => - u end
  | TBin o l r => real_op o (ceval rho l) (ceval rho r)
  end.
Lemma ceval_cval ok rho e v : sign_free e -> cval ok rho e v -> v = ceval rho e.
Proof.
  revert v. induction e as [n d|k|y|o a IH|o l IHl r IHr]; intros v S H.
  - apply H.
  - now apply cval_num in H.
  - exact H.
  - destruct S as [So Sa]. destruct H as (u & Hu & Hv). rewrite (IH u Sa Hu) in Hv. cbn [ceval].
    destruct o; cbn [unary_value] in Hv; try contradiction; try apply Hv.
  - destruct S as [Sl Sr]. destruct H as (u & w & Hu & Hw & Hv). rewrite (IHl u Sl Hu), (IHr w Sr Hw) in Hv. now apply bin_real.
Qed.

(** *** Regular points *)
Lemma regular_ext ok rho rho' e : (forall y, rho y = rho' y) -> regular ok rho e -> regular ok rho' e.
Proof.
  intros E. assert (E' : forall y, rho' y = rho y) by (intros; symmetry; auto).
  induction e as [n d|k|y|o a IH|o l IHl r IHr]; cbn [regular]; auto.
  - intros (H1 & H2 & H3 & H4). split; [auto|]. split; [|split]; intros Ho u Hu.
    + apply H2; auto. eapply cval_ext; eauto.
    + apply H3; auto. eapply cval_ext; eauto.
    + apply H4; auto. eapply cval_ext; eauto.
  - intros (H1 & H2 & H3 & H4). split; [auto|]. split; [auto|]. split.
    + intros Ho u Hu. apply H3; auto. eapply cval_ext; eauto.
    + intros Ho. destruct (H4 Ho) as [C|[(C & L & z & Z)|C]].
      * left. intros u Hu. apply C. eapply cval_ext; eauto.
      * right. left. split; [intros u Hu; apply C; eapply cval_ext; eauto|]. split; auto. exists z. eapply cval_ext; eauto.
      * right. right. exact C.
Qed.
Lemma regular_exists ok rho e : regular ok rho e -> exists v, cval ok rho e v.
Proof.
  induction e as [n d|k|y|o a IH|o l IHl r IHr]; cbn [regular].
  - intros H. exists (IZR n / IZR d). split; auto.
  - intros _. exists (to_real k). now apply cval_num.
  - intros _. exists (rho y). reflexivity.
  - intros (H1 & H2 & H3 & H4). destruct (IH H1) as [u Hu]. destruct o.
    + exists (sin u), u. split; auto. split; auto.
    + exists (cos u), u. split; auto. split; auto.
    + exists (ln u), u. split; auto. split; auto.
    + exists (exp u), u. split; auto. reflexivity.
    + exists (Rabs u), u. split; auto. reflexivity.
    + exists u, u. split; auto. left. reflexivity.
    + exists (- u), u. split; auto. reflexivity.
  - intros (H1 & H2 & H3 & H4). destruct (IHl H1) as [u Hu]. destruct (IHr H2) as [w Hw].
    assert (X : exists v, binary_value o u w = Some v).
    { destruct o; cbn [binary_value]; eauto.
      - specialize (H3 eq_refl w Hw). destruct (Req_EM_T w 0); [contradiction|eauto].
      - destruct (H4 eq_refl) as [C|[(C & L & z & Z)|(n & -> & Hn)]].
        + rewrite npow_Rpower by auto. eauto.
        + assert (w = IZR z) by (destruct r as [n d|k| | |]; cbn in L; try contradiction; cbn [cval] in Hw, Z; [destruct Hw, Z; congruence|destruct k; congruence]).
          subst w. rewrite npow_int by auto. eauto.
        + destruct Hw as [_ ->]. replace (IZR n / 1) with (IZR n) by field. rewrite npow_int by auto. eauto. }
    destruct X as [v Hv]. exists v, u, w. auto.
Qed.

Definition regular_op (ok : R -> Prop) rho (o : aop) (l r : cexpr) : Prop :=
  (o = ODiv -> forall w, cval ok rho r w -> w <> 0) /\
  (o = OPow ->
     (forall u, cval ok rho l u -> 0 < u) \/
     ((forall u, cval ok rho l u -> u <> 0) /\ literal r /\ exists z, cval ok rho r (IZR z)) \/
     (exists n, r = TC n 1 /\ (0 <= n)%Z)).

Lemma c_op_den o a b c : c_op o a b = Ret c -> snd c <> 0%Z.
Proof.
  intros H. unfold c_op in H. apply obind_ret in H as (x & _ & H). apply obind_ret in H as (y & _ & H).
  assert (R : forall n d, ratio n d = Ret c -> snd c <> 0%Z).
  { intros n d E. destruct (Z.eq_dec d 0) as [->|Nz]; [discriminate|]. apply ratio_spec in E as ([L _] & _); auto. lia. }
  destruct x, y, o; cbn in H; eapply R; eauto.
Qed.
Lemma uapply_regular ok rho o a e : uapply o a = Ret e -> regular ok rho a ->
  (o = USin \/ o = UCos -> forall u, cval ok rho a u -> ok u) ->
  (o = ULog -> forall u, cval ok rho a u -> 0 < u) ->
  (o = UAbs -> forall u, cval ok rho a u -> u <> 0) -> regular ok rho e.
Proof.
  intros H R H1 H2 H3. unfold uapply in H. destruct a as [n d|k|y|p b|p l r].
  - destruct o; try (injection H as <-; exact I).
    + apply obind_ret in H as (c & Hc & H). destruct c as [c|]; [|discriminate]. injection H as <-.
      unfold c_sin, c_trig in Hc. apply obind_ret in Hc as (w & _ & Hc). apply obind_ret in Hc as (h & _ & Hc). apply obind_ret in Hc as (g & _ & Hc).
      destruct w, g; try discriminate; injection Hc as <-; cbn; lia.
    + apply obind_ret in H as (c & Hc & H). destruct c as [c|]; [|discriminate]. injection H as <-.
      unfold c_cos, c_trig in Hc. apply obind_ret in Hc as (w & _ & Hc). apply obind_ret in Hc as (h & _ & Hc). apply obind_ret in Hc as (g & _ & Hc).
      destruct w, g; try discriminate; injection Hc as <-; cbn; lia.
    + injection H as <-. change ((1 - 2 * (if (d <? 0)%Z then 1 else 0)) * d <> 0)%Z. cbn in R. destruct (Z.ltb_spec d 0); lia.
    + injection H as <-. cbn [regular]. split; [exact R|]. split; [|split]; intros X; first [discriminate X|destruct X; discriminate].
    + injection H as <-. exact R.
  - destruct o; injection H as <-; try exact I. cbn [regular]. split; [exact I|]. split; [|split]; intros X; first [discriminate X|destruct X; discriminate].
  - injection H as <-. cbn [regular]. auto.
  - injection H as <-. split; [exact R|]. auto.
  - injection H as <-. split; [exact R|]. auto.
Qed.
Lemma capply_regular ok rho o l r e : capply o l r = Ret e -> regular ok rho l -> regular ok rho r -> regular_op ok rho o l r -> regular ok rho e.
Proof.
  intros H Rl Rr [C1 C2]. unfold capply in H. apply obind_ret in H as (x & Hx & E). injection E as <-.
  destruct x as [e|]; [|split; [auto|split; auto]].
  unfold creduce in Hx. destruct (cop_of o) as [co|] eqn:Eo.
  - assert (G : match reduce_null o l r with Some m => do x <- m; Ret (Some x) | None => reduce_num o l r end = Ret (Some e) -> regular ok rho e).
    { intros K. destruct (reduce_null o l r) as [m|] eqn:Em.
      - apply obind_ret in K as (x & Hx' & E). injection E as <-. unfold reduce_null in Em.
        destruct o; try discriminate;
          repeat match type of Em with context [if ?c then _ else _] => destruct c end; try discriminate Em; injection Em as Em; subst m;
          try (injection Hx' as <-; first [exact Rl|exact Rr|discriminate]).
        eapply uapply_regular; eauto; intros X; first [discriminate X|destruct X; discriminate].
      - unfold reduce_num in K. destruct l as [n d|k|y|p c|p a c]; destruct r as [n' d'|k'|y'|p' c'|p' a' c'];
          try discriminate K; try (injection K as <-; exact I).
        apply obind_ret in K as (z & Hz & E). injection E as <-. exact I. }
    destruct l as [n d|k|y|p c|p a c]; try (apply G; exact Hx).
    destruct r as [n' d'|k'|y'|p' c'|p' a' c']; try (apply G; exact Hx).
    apply obind_ret in Hx as (c & Hc & E). injection E as <-. eapply c_op_den; eauto.
  - unfold reduce_pow in Hx. destruct r as [rn rd|k|y|p c|p a c]; try discriminate.
    + destruct l as [n d|k|y|p c|p a c];
        repeat match type of Hx with context [if ?c then _ else _] => destruct c end; try discriminate; injection Hx as <-; auto; exact I.
    + destruct (as_double l); [|discriminate]. injection Hx as <-. exact I.
Qed.

Lemma ro_easy ok rho o l r : o = OAdd \/ o = OSub \/ o = OMul -> regular_op ok rho o l r.
Proof. intros H. split; intros ->; destruct H as [H|[H|H]]; discriminate. Qed.

(** subtracting one from a literal exponent *)
Lemma minus_one_literal ok rho r e z : capply OSub r Unity = Ret e -> literal r -> cval ok rho r (IZR z) ->
  literal e /\ cval ok rho e (IZR (z - 1)).
Proof.
  intros H L Hz. split.
  - unfold capply in H. apply obind_ret in H as (x & Hx & E). injection E as <-. unfold creduce in Hx. cbn [cop_of] in Hx.
    destruct r as [n d|k| | |]; try contradiction.
    + cbn [Unity] in Hx. apply obind_ret in Hx as (c & _ & E). injection E as <-. exact I.
    + destruct k; cbn in Hx; injection Hx as <-; exact I.
  - rewrite minus_IZR. eapply capply_val; [exact H|discriminate|exact Hz|apply cval_Unity; reflexivity|reflexivity].
Qed.
Lemma minus_one_whole n e : capply OSub (TC n 1) Unity = Ret e -> e = TC (n - 1) 1.
Proof.
  intros H. unfold capply in H. apply obind_ret in H as (x & Hx & E). injection E as <-. unfold creduce in Hx. cbn [cop_of Unity] in Hx.
  apply obind_ret in Hx as (c & Hc & E). injection E as <-.
  destruct (c_op_valid _ _ _ _ Hc) as [V1 V2]. assert (H0 := Hc). apply C41_exact in H0 as ([L1 L2] & V & _); auto; [|discriminate].
  destruct (c_op_real _ _ _ _ Hc) as [D E]; [discriminate|]. cbn [rmath] in E. rewrite !real_of_pair in E. unfold real_of in E.
  assert (Z : IZR (fst c) = IZR ((n - 1) * snd c)).
  { rewrite mult_IZR, minus_IZR. apply (Rmult_eq_compat_r (IZR (snd c))) in E.
    assert (IZR (snd c) <> 0) by (intros X; apply eq_IZR in X; contradiction).
    replace (IZR (fst c) / IZR (snd c) * IZR (snd c)) with (IZR (fst c)) in E by (field; auto). rewrite E. field. }
  apply eq_IZR in Z. rewrite Z in L2. rewrite Z.gcd_comm, Z.mul_comm in L2.
  assert (X : Z.gcd (snd c) (snd c * (n - 1)) = snd c).
  { rewrite <- (Z.mul_1_r (snd c)) at 1. rewrite Z.gcd_mul_mono_l_nonneg by lia. rewrite Z.gcd_1_l. lia. }
  f_equal; lia.
Qed.

Lemma cderiv_regular ok rho x f : forall f', cderiv x f = Ret f' -> regular ok rho f -> regular ok rho f'.
Proof.
  induction f as [n dn|k|y|o a IH|o l IHl r IHr]; intros f' H R.
  - injection H as <-. discriminate.
  - injection H as <-. discriminate.
  - cbn [cderiv] in H. destruct (y =? x)%string; injection H as <-; discriminate.
  - cbn [cderiv] in H. apply obind_ret in H as (d & Hd & H). destruct R as (Ra & R1 & R2 & R3). specialize (IH _ Hd Ra).
    destruct o.
    + apply obind_ret in H as (c & Hc & H). eapply capply_regular; eauto; [|apply ro_easy; auto].
      eapply uapply_regular; eauto; intros X; try discriminate.
    + apply obind_ret in H as (m & Hm & H). apply obind_ret in H as (c & Hc & H). eapply capply_regular; eauto; [| |apply ro_easy; auto].
      * eapply uapply_regular; eauto; intros X; first [discriminate X|destruct X; discriminate].
      * eapply uapply_regular; eauto; intros X; try discriminate.
    + eapply capply_regular; eauto. split; [|discriminate]. intros _ w Hw. specialize (R2 eq_refl w Hw). lra.
    + eapply capply_regular; eauto; [|apply ro_easy; auto]. cbn [regular]. auto.
    + apply obind_ret in H as (c & Hc & H). apply obind_ret in H as (p & Hp & H).
      assert (Rc : regular ok rho c) by (eapply uapply_regular; eauto; intros X; first [discriminate X|destruct X; discriminate]).
      assert (Rp : regular ok rho p) by (eapply capply_regular; eauto; apply ro_easy; auto).
      eapply capply_regular; eauto. split; [auto|discriminate].
    + apply obind_ret in H as (c & Hc & H). injection Hc as <-. eapply capply_regular; eauto; [|apply ro_easy; auto].
      cbn [regular Unity]. split; [discriminate|]. split; [|split]; intros X; first [discriminate X|destruct X; discriminate].
    + eapply uapply_regular; eauto; intros X; first [discriminate X|destruct X; discriminate].
  - assert (R0 := R). destruct R as (Rl & Rr & R1 & R2). destruct o; cbn [cderiv] in H.
    + apply obind_ret in H as (da & Ha & H). apply obind_ret in H as (db & Hb & H). eapply capply_regular; eauto. apply ro_easy; auto.
    + apply obind_ret in H as (da & Ha & H). apply obind_ret in H as (db & Hb & H). eapply capply_regular; eauto. apply ro_easy; auto.
    + apply obind_ret in H as (da & Ha & H). apply obind_ret in H as (db & Hb & H).
      apply obind_ret in H as (p & Hp & H). apply obind_ret in H as (q & Hq & H).
      eapply capply_regular; eauto; [| |apply ro_easy; auto]; eapply capply_regular; eauto; apply ro_easy; auto.
    + apply obind_ret in H as (da & Ha & H). apply obind_ret in H as (db & Hb & H).
      apply obind_ret in H as (p & Hp & H). apply obind_ret in H as (q & Hq & H).
      apply obind_ret in H as (n & Hn & H). apply obind_ret in H as (m & Hm & H).
      assert (Rp : regular ok rho p) by (eapply capply_regular; eauto; apply ro_easy; auto).
      assert (Rq : regular ok rho q) by (eapply capply_regular; eauto; apply ro_easy; auto).
      assert (Rn : regular ok rho n) by (eapply capply_regular; [exact Hn|exact Rp|exact Rq|apply ro_easy; auto]).
      assert (Rm : regular ok rho m).
      { eapply capply_regular; [exact Hm|exact Rr|discriminate|]. split; [discriminate|]. intros _. right. right. exists 2%Z. split; [auto|lia]. }
      eapply capply_regular; eauto. split; [|discriminate]. intros _ w Hw E. subst w. specialize (R1 eq_refl).
      assert (X : exists s, cval ok rho r s /\ s * s = 0).
      { unfold capply in Hm. apply obind_ret in Hm as (x0 & Hx & E). injection E as <-. unfold creduce in Hx. cbn [cop_of] in Hx. unfold reduce_pow in Hx.
        destruct r as [n' d'|k'|y'|p' c'|p' a' c'].
        - discriminate.
        - cbn in Hx. injection Hx as <-. exists (to_real k'). split; [now apply cval_num|]. cbn [cval] in Hw. rewrite Hw. unfold rpow, c_real.
          replace (2 / 1) with 2 by field. now rewrite npow_2.
        - cbn in Hx. injection Hx as <-. destruct Hw as (s & w & Hs & [_ ->] & Hw). exists s. split; auto. cbn [binary_value] in Hw.
          replace (2 / 1) with 2 in Hw by field. rewrite npow_2 in Hw. congruence.
        - cbn in Hx. injection Hx as <-. destruct Hw as (s & w & Hs & [_ ->] & Hw). exists s. split; auto. cbn [binary_value] in Hw.
          replace (2 / 1) with 2 in Hw by field. rewrite npow_2 in Hw. congruence.
        - cbn in Hx. injection Hx as <-. destruct Hw as (s & w & Hs & [_ ->] & Hw). exists s. split; auto. cbn [binary_value] in Hw.
          replace (2 / 1) with 2 in Hw by field. rewrite npow_2 in Hw. congruence. }
      destruct X as (s & Hs & E). apply (R1 s Hs). apply Rmult_integral in E. tauto.
    + specialize (R2 eq_refl).
      assert (M : exists da p e q t1, cderiv x l = Ret da /\ capply OMul r da = Ret p /\ capply OSub r Unity = Ret e /\ capply OPow l e = Ret q /\
         capply OMul p q = Ret t1 /\
         ((exists n d, r = TC n d) /\ f' = t1 \/
          exists db lg t2 t3, cderiv x r = Ret db /\ uapply ULog l = Ret lg /\ capply OMul db lg = Ret t2 /\ capply OMul t2 (TBin OPow l r) = Ret t3 /\
            capply OAdd t1 t3 = Ret f')).
      { destruct r as [n d|k|y|p b|p b c];
          [apply obind_ret in H as (a1 & H1 & H); apply obind_ret in H as (a2 & H2 & H); apply obind_ret in H as (a3 & H3 & H);
           apply obind_ret in H as (a4 & H4 & H); exists a1, a2, a3, a4, f'; repeat split; auto; left; split; eauto|..].
        all: apply obind_ret in H as (a1 & H1 & H); apply obind_ret in H as (a2 & H2 & H); apply obind_ret in H as (a3 & H3 & H);
          apply obind_ret in H as (a4 & H4 & H); apply obind_ret in H as (a5 & H5 & H); apply obind_ret in H as (a6 & H6 & H);
          apply obind_ret in H as (a7 & H7 & H); apply obind_ret in H as (a8 & H8 & H); apply obind_ret in H as (a9 & H9 & H);
          exists a1, a2, a3, a4, a5; repeat split; auto; right; exists a6, a7, a8, a9; auto. }
      clear H. destruct M as (da & p & e & q & t1 & Ha & Hp & He & Hq & Ht & M). specialize (IHl _ Ha Rl).
      assert (Rp : regular ok rho p) by (eapply capply_regular; [exact Hp|exact Rr|exact IHl|apply ro_easy; auto]).
      assert (Re : regular ok rho e) by (eapply capply_regular; [exact He|exact Rr|discriminate|apply ro_easy; auto]).
      assert (Fin : regular ok rho t1 -> ((forall u, cval ok rho l u -> 0 < u) \/ literal r) -> regular ok rho f').
      { intros Rt C. destruct M as [((n & d & ->) & ->)|(db & lg & t2 & t3 & H1 & H2 & H3 & H4 & H5)]; auto.
        specialize (IHr _ H1 Rr).
        assert (Rt3 : regular ok rho t3).
        { destruct C as [C|C].
          - assert (Rlg : regular ok rho lg) by (eapply uapply_regular; eauto; intros X; first [discriminate X|destruct X; discriminate]).
            assert (Rt2 : regular ok rho t2) by (eapply capply_regular; [exact H3|exact IHr|exact Rlg|apply ro_easy; auto]).
            eapply capply_regular; [exact H4|exact Rt2|exact R0|apply ro_easy; auto].
          - apply literal_deriv in H1; auto. subst db. apply null_mul in H3. subst t2. apply null_mul in H4. subst t3. discriminate. }
        eapply capply_regular; [exact H5|exact Rt|exact Rt3|apply ro_easy; auto]. }
      assert (Q : regular_op ok rho OPow l e -> regular ok rho t1).
      { intros C. assert (Rq : regular ok rho q) by (eapply capply_regular; [exact Hq|exact Rl|exact Re|exact C]).
        eapply capply_regular; [exact Ht|exact Rp|exact Rq|apply ro_easy; auto]. }
      destruct R2 as [C|[(C & L & z & Z)|(n & -> & Hn)]].
      * apply Fin; auto. apply Q. split; [discriminate|auto].
      * apply Fin; auto. apply Q. split; [discriminate|]. intros _. right. left. destruct (minus_one_literal _ _ _ _ _ He L Z) as [L' Z'].
        split; auto. split; auto. exists (z - 1)%Z. exact Z'.
      * apply Fin; [|right; exact I]. destruct (Z.eq_dec n 0) as [->|Nn].
        { change (TC 0 1) with Null in Hp. apply null_mul in Hp. subst p. apply null_mul in Ht. subst t1. discriminate. }
        apply Q. split; [discriminate|]. intros _. right. right. apply minus_one_whole in He. exists (n - 1)%Z. split; [auto|lia].
Qed.

Lemma regular_differentiable rho f : regular anywhere rho f -> differentiable_at rho f.
Proof.
  induction f as [n dn|k|y|o a IH|o l IHl r IHr]; cbn [regular differentiable_at]; auto.
  - intros (R & _ & _ & R3). auto.
  - intros (Rl & Rr & _ & R2). split; auto. split; auto. intros Ho. destruct (R2 Ho) as [C|[(C & L & z & Z)|(n & -> & Hn)]]; auto.
    + right. split; auto. exists z. auto.
    + right. split; [exact I|]. exists n. split; [cbn [cval]; split; [discriminate|field]|]. destruct (Z.eq_dec n 0) as [->|]; auto.
Qed.

(** Regular points form an open set, in the direction of [x]. *)
Lemma regular_open rho x f : sign_free f -> regular anywhere rho f ->
  exists eps, 0 < eps /\ forall t, Rabs (t - rho x) < eps -> regular anywhere (upd_num rho x t) f.
Proof.
  (* near rho x the values of a subexpression stay in an open set *)
  assert (Near : forall a (P : R -> Prop), sign_free a -> regular anywhere rho a ->
    (forall u, cval anywhere rho a u -> P u) -> (forall u, P u -> exists eps, 0 < eps /\ forall s, Rabs (s - u) < eps -> P s) ->
    exists eps, 0 < eps /\ forall t, Rabs (t - rho x) < eps -> forall u, cval anywhere (upd_num rho x t) a u -> P u).
  { intros a P Sa Ra HP Open. destruct (regular_exists _ _ _ Ra) as [u Hu].
    destruct (diff_exists rho x a u (regular_differentiable _ _ Ra) Hu) as (d & (F & dl & H0 & Fu & Fn & Fd)).
    destruct (Open u (HP u Hu)) as (eps & He & Hs). destruct (dpl_cont _ _ _ Fd eps He) as (dl2 & H1 & H2).
    exists (Rmin dl dl2). split; [apply Rmin_glb_lt; auto|]. intros t Ht s Hs'.
    assert (E : s = F t). { eapply cval_det; eauto. apply Fn. eapply Rlt_le_trans; [exact Ht|apply Rmin_l]. }
    subst s. apply Hs. rewrite <- Fu. apply H2. eapply Rlt_le_trans; [exact Ht|apply Rmin_r]. }
  induction f as [n dn|k|y|o a IH|o l IHl r IHr]; intros S R.
  - exists 1. split; [lra|]. intros t _. exact R.
  - exists 1. split; [lra|]. intros t _. exact R.
  - exists 1. split; [lra|]. intros t _. exact I.
  - destruct S as [So Sa]. destruct R as (Ra & R1 & R2 & R3).
    destruct (IH Sa Ra) as (e1 & He1 & H1).
    assert (Q2 : exists eps, 0 < eps /\ forall t, Rabs (t - rho x) < eps -> o = ULog -> forall u, cval anywhere (upd_num rho x t) a u -> 0 < u).
    { destruct o; try (exists 1; split; [lra|]; intros; discriminate).
      destruct (Near a (fun u => 0 < u) Sa Ra (R2 eq_refl) near_pos) as (eps & He & Hn). exists eps. split; [exact He|intros; eapply Hn; eauto]. }
    assert (Q3 : exists eps, 0 < eps /\ forall t, Rabs (t - rho x) < eps -> o = UAbs -> forall u, cval anywhere (upd_num rho x t) a u -> u <> 0).
    { destruct o; try (exists 1; split; [lra|]; intros; discriminate).
      destruct (Near a (fun u => u <> 0) Sa Ra (R3 eq_refl) near_nonzero) as (eps & He & Hn). exists eps. split; [exact He|intros; eapply Hn; eauto]. }
    destruct Q2 as (e2 & He2 & H2), Q3 as (e3 & He3 & H3).
    exists (Rmin e1 (Rmin e2 e3)). split; [repeat apply Rmin_glb_lt; auto|]. intros t Ht.
    assert (T1 : Rabs (t - rho x) < e1) by (eapply Rlt_le_trans; [exact Ht|apply Rmin_l]).
    assert (T2 : Rabs (t - rho x) < Rmin e2 e3) by (eapply Rlt_le_trans; [exact Ht|apply Rmin_r]).
    assert (T3 : Rabs (t - rho x) < e2) by (eapply Rlt_le_trans; [exact T2|apply Rmin_l]).
    assert (T4 : Rabs (t - rho x) < e3) by (eapply Rlt_le_trans; [exact T2|apply Rmin_r]).
    cbn [regular]. split; auto. split; [intros; exact I|]. split; [apply H2|apply H3]; auto.
  - destruct S as [Sl Sr]. destruct R as (Rl & Rr & R1 & R2).
    destruct (IHl Sl Rl) as (e1 & He1 & H1). destruct (IHr Sr Rr) as (e2 & He2 & H2).
    assert (Q3 : exists eps, 0 < eps /\ forall t, Rabs (t - rho x) < eps -> o = ODiv -> forall u, cval anywhere (upd_num rho x t) r u -> u <> 0).
    { destruct o; try (exists 1; split; [lra|]; intros; discriminate).
      destruct (Near r (fun u => u <> 0) Sr Rr (R1 eq_refl) near_nonzero) as (eps & He & Hn). exists eps. split; [exact He|intros; eapply Hn; eauto]. }
    assert (Q4 : exists eps, 0 < eps /\ forall t, Rabs (t - rho x) < eps -> o = OPow ->
         (forall u, cval anywhere (upd_num rho x t) l u -> 0 < u) \/
         ((forall u, cval anywhere (upd_num rho x t) l u -> u <> 0) /\ literal r /\ exists z, cval anywhere (upd_num rho x t) r (IZR z)) \/
         (exists n, r = TC n 1 /\ (0 <= n)%Z)).
    { destruct o; try (exists 1; split; [lra|]; intros; discriminate). destruct (R2 eq_refl) as [C|[(C & L & z & Z)|C]].
      - destruct (Near l (fun u => 0 < u) Sl Rl C near_pos) as (eps & He & Hn). exists eps. split; [exact He|]. intros t Ht _. left. intros u Hu. exact (Hn t Ht u Hu).
      - destruct (Near l (fun u => u <> 0) Sl Rl C near_nonzero) as (eps & He & Hn). exists eps. split; [exact He|].
        intros t Ht _. right. left. split; [exact (Hn t Ht)|]. split; auto. exists z. eapply literal_val; eauto.
      - exists 1. split; [lra|]. auto. }
    destruct Q3 as (e3 & He3 & H3), Q4 as (e4 & He4 & H4).
    exists (Rmin (Rmin e1 e2) (Rmin e3 e4)). split; [repeat apply Rmin_glb_lt; auto|]. intros t Ht.
    assert (T1 : Rabs (t - rho x) < Rmin e1 e2) by (eapply Rlt_le_trans; [exact Ht|apply Rmin_l]).
    assert (T2 : Rabs (t - rho x) < Rmin e3 e4) by (eapply Rlt_le_trans; [exact Ht|apply Rmin_r]).
    cbn [regular]. split; [apply H1; eapply Rlt_le_trans; [exact T1|apply Rmin_l]|].
    split; [apply H2; eapply Rlt_le_trans; [exact T1|apply Rmin_r]|].
    split; [apply H3; eapply Rlt_le_trans; [exact T2|apply Rmin_l]|apply H4; eapply Rlt_le_trans; [exact T2|apply Rmin_r]].
Qed.
