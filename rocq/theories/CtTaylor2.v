(** Compile-time expressions: Taylor series. *)
From Coq Require Import ZArith Reals Lia Lra Bool List String Factorial.
From Verif Require Import Outcome Num ExprModel ExprSpec ExprBase ExprSimp ExprVal ExprSub ExprDeriv AdProofs ConstModel PropConst CtModel CtSpec CtProofs CtSimp CtDeriv CtTaylor.
Import ListNotations.
Open Scope R_scope.

(** *** no truncation in derivatives *)
Notation ntd := no_truncation_in_derivatives.
Lemma ntd_nt b e : ntd b e -> no_truncation b e.
Proof. induction e as [n d|[]|y|o a IH|o l IHl r IHr]; cbn; tauto. Qed.
Lemma uapply_ntd b o a e : uapply o a = Ret e -> (o = ULog \/ o = UAbs -> b = false) -> ntd b a -> ntd b e.
Proof.
  unfold uapply. intros H Ho N. destruct a as [n d|k|y|p c|p l r]; [| |injection H as <-; split; auto..].
  - destruct o; try (injection H as <-; exact I);
      try (apply obind_ret in H as (c & _ & H); destruct c; [injection H as <-; exact I|discriminate]).
    injection H as <-. split; auto.
  - destruct o; injection H as <-; try exact I; try (split; [auto|exact N]); destruct k; exact N || exact I.
Qed.
Lemma num_op_ntd b o a c k : num_op o a c = Ret k -> ntd b (TNum a) -> ntd b (TNum k).
Proof.
  intros H N. destruct (num_op_nt _ _ _ _ H) as [A B]. destruct b.
  - destruct k; exact A || exact I.
  - destruct a as [?|?]; [discriminate N|]. destruct k; [|exact I]. exact (B I).
Qed.
Lemma creduce_ntd b o l r e : creduce o l r = Ret (Some e) -> ntd b l -> ntd b r -> ntd b e.
Proof.
  intros H Nl Nr. unfold creduce in H. destruct (cop_of o) as [co|] eqn:Eo.
  - assert (G : match reduce_null o l r with Some m => do x <- m; Ret (Some x) | None => reduce_num o l r end = Ret (Some e) -> ntd b e).
    { intros K. destruct (reduce_null o l r) as [m|] eqn:Em.
      - apply obind_ret in K as (x & Hx & E). injection E as <-. unfold reduce_null in Em.
        destruct o; try discriminate;
          repeat match type of Em with context [if ?c then _ else _] => destruct c end; try discriminate Em; injection Em as Em; subst m;
          try (injection Hx as <-; first [exact Nl|exact Nr|exact I]). eapply uapply_ntd; eauto. intros [?|?]; discriminate.
      - unfold reduce_num in K. destruct l as [n d|k|y|p c|p a c]; destruct r as [n' d'|k'|y'|p' c'|p' a' c'];
          try discriminate K; try (injection K as <-; exact I).
        apply obind_ret in K as (z & Hz & E). injection E as <-. eapply num_op_ntd; eauto. }
    destruct l as [n d|k|y|p c|p a c]; try (apply G; exact H).
    destruct r as [n' d'|k'|y'|p' c'|p' a' c']; try (apply G; exact H).
    apply obind_ret in H as (c & _ & E). injection E as <-. exact I.
  - unfold reduce_pow in H. destruct r as [rn rd|k|y|p c|p a c]; try discriminate.
    + destruct l as [n d|k|y|p c|p a c];
        repeat match type of H with context [if ?c then _ else _] => destruct c end; try discriminate; injection H as <-; auto; exact I.
    + destruct (as_double l); [|discriminate]. injection H as <-. exact I.
Qed.
Lemma capply_ntd b o l r e : capply o l r = Ret e -> (o = ODiv -> b = false) -> (o = OPow -> literal r \/ b = false) -> ntd b l -> ntd b r -> ntd b e.
Proof.
  intros H Ho Hp Nl Nr. unfold capply in H. apply obind_ret in H as (x & Hx & E). injection E as <-.
  destruct x as [e|]; [eapply creduce_ntd; eauto|]. cbn [no_truncation_in_derivatives]. split; auto. split; auto.
  intros E. destruct (Hp E) as [L|L]; destruct r; auto; contradiction.
Qed.
Lemma literal_cases r : literal r \/ ~ literal r.
Proof. destruct r; cbn; tauto. Qed.

(** the steps of the derivative of a power *)
Lemma cderiv_pow x l r f' : cderiv x (TBin OPow l r) = Ret f' ->
  exists da p e q t1, cderiv x l = Ret da /\ capply OMul r da = Ret p /\ capply OSub r Unity = Ret e /\ capply OPow l e = Ret q /\
         capply OMul p q = Ret t1 /\
         ((exists n d, r = TC n d) /\ f' = t1 \/
          exists db lg t2 t3, cderiv x r = Ret db /\ uapply ULog l = Ret lg /\ capply OMul db lg = Ret t2 /\ capply OMul t2 (TBin OPow l r) = Ret t3 /\
            capply OAdd t1 t3 = Ret f').
Proof.
  intros H. cbn [cderiv] in H. destruct r as [n d|k|y|p b|p b c];
    [apply obind_ret in H as (a1 & H1 & H); apply obind_ret in H as (a2 & H2 & H); apply obind_ret in H as (a3 & H3 & H);
     apply obind_ret in H as (a4 & H4 & H); exists a1, a2, a3, a4, f'; repeat split; auto; left; split; eauto|..].
  all: apply obind_ret in H as (a1 & H1 & H); apply obind_ret in H as (a2 & H2 & H); apply obind_ret in H as (a3 & H3 & H);
    apply obind_ret in H as (a4 & H4 & H); apply obind_ret in H as (a5 & H5 & H); apply obind_ret in H as (a6 & H6 & H);
    apply obind_ret in H as (a7 & H7 & H); apply obind_ret in H as (a8 & H8 & H); apply obind_ret in H as (a9 & H9 & H);
    exists a1, a2, a3, a4, a5; repeat split; auto; right; exists a6, a7, a8, a9; auto.
Qed.
Lemma minus_one_lit r e : capply OSub r Unity = Ret e -> literal r -> literal e.
Proof.
  intros H L. unfold capply in H. apply obind_ret in H as (x & Hx & E). injection E as <-. unfold creduce in Hx. cbn [cop_of] in Hx.
  destruct r as [n d|k| | |]; try contradiction.
  - cbn [Unity] in Hx. apply obind_ret in Hx as (c & _ & E). injection E as <-. exact I.
  - destruct k; cbn in Hx; injection Hx as <-; exact I.
Qed.

(** A property of expressions kept by the operators is kept by derivative(). *)
Lemma cderiv_ntd b x f : forall f', cderiv x f = Ret f' -> ntd b f -> ntd b f'.
Proof.
  assert (Easy : forall o l r e, capply o l r = Ret e -> o = OAdd \/ o = OSub \/ o = OMul -> ntd b l -> ntd b r -> ntd b e).
  { intros o l r e H Ho Nl Nr. eapply capply_ntd; eauto; intros ->; destruct Ho as [Ho|[Ho|Ho]]; discriminate. }
  induction f as [n dn|k|y|o a IH|o l IHl r IHr]; intros f' H N.
  - injection H as <-. exact I.
  - injection H as <-. exact I.
  - cbn [cderiv] in H. destruct (y =? x)%string; injection H as <-; exact I.
  - cbn [cderiv] in H. apply obind_ret in H as (d & Hd & H). destruct N as [No Na]. specialize (IH _ Hd Na).
    destruct o.
    + apply obind_ret in H as (c & Hc & H). eapply Easy; eauto. eapply uapply_ntd; eauto. intros [?|?]; discriminate.
    + apply obind_ret in H as (m & Hm & H). apply obind_ret in H as (c & Hc & H). eapply Easy; eauto; eapply uapply_ntd; eauto; intros [?|?]; discriminate.
    + eapply capply_ntd; eauto; discriminate.
    + eapply Easy; eauto. split; auto.
    + apply obind_ret in H as (c & Hc & H). apply obind_ret in H as (p & Hp & H).
      assert (Np : ntd b p) by (eapply Easy; [exact Hp|auto|exact IH|]; eapply uapply_ntd; [exact Hc|auto|exact Na]).
      eapply capply_ntd; [exact H|auto|discriminate|exact Np|exact Na].
    + apply obind_ret in H as (c & Hc & H). injection Hc as <-. eapply Easy; eauto. split; [intros [?|?]; discriminate|exact I].
    + eapply uapply_ntd; [exact H|intros [?|?]; discriminate|exact IH].
  - assert (N0 := N). destruct N as (N1 & N2 & Nl & Nr). destruct o.
    5:{ apply cderiv_pow in H as (da & p & e & q & t1 & Ha & Hp & He & Hq & Ht & M). specialize (IHl _ Ha Nl).
        assert (Np : ntd b p) by (eapply Easy; eauto). assert (Ne : ntd b e) by (eapply Easy; eauto; exact I).
        assert (Lr : literal r \/ b = false) by (specialize (N2 eq_refl); destruct r; cbn; auto).
        assert (Nq : ntd b q).
        { eapply capply_ntd; [exact Hq|discriminate| |exact Nl|exact Ne]. intros _. destruct Lr as [L|L]; auto. left. eapply minus_one_lit; eauto. }
        assert (Nt : ntd b t1) by (eapply Easy; eauto).
        destruct M as [(_ & ->)|(db & lg & t2 & t3 & H1 & H2 & H3 & H4 & H5)]; auto.
        assert (N3 : ntd b t3).
        { destruct Lr as [L|L].
          - apply literal_deriv in H1; auto. subst db. apply null_mul in H3. subst t2. apply null_mul in H4. subst t3. exact I.
          - assert (Nlg : ntd b lg) by (eapply uapply_ntd; eauto). assert (Nt2 : ntd b t2) by (eapply Easy; eauto).
            eapply Easy; eauto. }
        eapply Easy; eauto. }
    all: cbn [cderiv] in H; apply obind_ret in H as (da & Ha & H); apply obind_ret in H as (db & Hb & H).
    + eapply Easy; eauto.
    + eapply Easy; eauto.
    + apply obind_ret in H as (p & Hp & H). apply obind_ret in H as (q & Hq & H).
      assert (Np : ntd b p) by (eapply Easy; eauto). assert (Nq : ntd b q) by (eapply Easy; eauto). eapply Easy; eauto.
    + apply obind_ret in H as (p & Hp & H). apply obind_ret in H as (q & Hq & H).
      apply obind_ret in H as (n & Hn & H). apply obind_ret in H as (m & Hm & H).
      assert (Np : ntd b p) by (eapply Easy; eauto). assert (Nq : ntd b q) by (eapply Easy; eauto). assert (Nn : ntd b n) by (eapply Easy; eauto).
      assert (Nm : ntd b m) by (eapply capply_ntd; [exact Hm|discriminate|intros _; left; exact I|exact Nr|exact I]).
      eapply capply_ntd; [exact H|auto|discriminate|exact Nn|exact Nm].
Qed.

Lemma cderiv_sf x f : forall f', cderiv x f = Ret f' -> sign_free f -> sign_free f'.
Proof.
  induction f as [n dn|k|y|o a IH|o l IHl r IHr]; intros f' H N.
  - injection H as <-. exact I.
  - injection H as <-. exact I.
  - cbn [cderiv] in H. destruct (y =? x)%string; injection H as <-; exact I.
  - cbn [cderiv] in H. apply obind_ret in H as (d & Hd & H). destruct N as [No Na]. specialize (IH _ Hd Na).
    destruct o; try contradiction.
    + apply obind_ret in H as (c & Hc & H). eapply capply_sf; eauto. eapply uapply_sf; eauto. discriminate.
    + apply obind_ret in H as (m & Hm & H). apply obind_ret in H as (c & Hc & H).
      eapply capply_sf; eauto; eapply uapply_sf; eauto; discriminate.
    + eapply capply_sf; eauto.
    + eapply capply_sf; eauto. split; auto.
    + apply obind_ret in H as (c & Hc & H). apply obind_ret in H as (p & Hp & H).
      eapply capply_sf; eauto. eapply capply_sf; eauto. eapply uapply_sf; eauto.
    + eapply uapply_sf; eauto.
  - assert (N0 := N). destruct N as (Nl & Nr). destruct o.
    5:{ apply cderiv_pow in H as (da & p & e & q & t1 & Ha & Hp & He & Hq & Ht & M). specialize (IHl _ Ha Nl).
        assert (Np : sign_free p) by (eapply capply_sf; eauto). assert (Ne : sign_free e) by (eapply capply_sf; eauto; exact I).
        assert (Nq : sign_free q) by (eapply capply_sf; eauto). assert (Nt : sign_free t1) by (eapply capply_sf; eauto).
        destruct M as [(_ & ->)|(db & lg & t2 & t3 & H1 & H2 & H3 & H4 & H5)]; auto.
        assert (Nlg : sign_free lg) by (eapply uapply_sf; eauto; discriminate).
        assert (Nt2 : sign_free t2) by (eapply capply_sf; eauto). assert (Nt3 : sign_free t3) by (eapply capply_sf; eauto).
        eapply capply_sf; eauto. }
    all: cbn [cderiv] in H; apply obind_ret in H as (da & Ha & H); apply obind_ret in H as (db & Hb & H).
    + eapply capply_sf; eauto.
    + eapply capply_sf; eauto.
    + apply obind_ret in H as (p & Hp & H). apply obind_ret in H as (q & Hq & H).
      eapply capply_sf; [exact H|eapply capply_sf; eauto|eapply capply_sf; eauto].
    + apply obind_ret in H as (p & Hp & H). apply obind_ret in H as (q & Hq & H).
      apply obind_ret in H as (n & Hn & H). apply obind_ret in H as (m & Hm & H).
      assert (Np : sign_free p) by (eapply capply_sf; eauto). assert (Nq : sign_free q) by (eapply capply_sf; eauto).
      assert (Nn : sign_free n) by (eapply capply_sf; eauto). assert (Nm : sign_free m) by (eapply capply_sf; eauto; exact I).
      eapply capply_sf; eauto.
Qed.
Lemma csub_sf x g f : forall f', csub x g f = Ret f' -> sign_free f -> sign_free g -> sign_free f'.
Proof.
  induction f as [n d|k|y|o a IH|o l IHl r IHr]; intros f' H Nf Ng; cbn [csub] in H.
  - injection H as <-. exact I.
  - injection H as <-. exact I.
  - injection H as <-. destruct (y =? x)%string; auto.
  - apply obind_ret in H as (a' & Ha & H). destruct Nf. eapply uapply_sf; eauto.
  - apply obind_ret in H as (l' & Hl & H). apply obind_ret in H as (r' & Hr & H). destruct Nf. eapply capply_sf; eauto.
Qed.

(** *** repeated derivatives *)
Fixpoint nderiv (x : string) (k : nat) (f : cexpr) : outcome cexpr :=
  match k with O => Ret f | S k => do g <- nderiv x k f; cderiv x g end.
Lemma nderiv_front x k f : nderiv x (S k) f = do g <- cderiv x f; nderiv x k g.
Proof.
  induction k as [|k IH].
  - cbn. destruct (cderiv x f); reflexivity.
  - cbn [nderiv] in *. rewrite IH. destruct (cderiv x f); reflexivity.
Qed.
Lemma nderiv_null x k : nderiv x k Null = Ret Null.
Proof. induction k; cbn [nderiv]; [reflexivity|]. rewrite IHk. reflexivity. Qed.
Definition dval (rho : string -> R) (x : string) (k : nat) (f : cexpr) : R :=
  match nderiv x k f with Ret g => ceval rho g | _ => 0 end.

Lemma nderiv_keeps b x k f g : nderiv x k f = Ret g ->
  (sign_free f -> sign_free g) /\ (ntd b f -> ntd b g) /\ (forall ok rho, regular ok rho f -> regular ok rho g).
Proof.
  revert g. induction k as [|k IH]; intros g H; cbn [nderiv] in H.
  - injection H as <-. auto.
  - apply obind_ret in H as (h & Hh & H). destruct (IH h Hh) as (A & B & C). split; [|split].
    + intros S. eapply cderiv_sf; eauto.
    + intros S. eapply cderiv_ntd; eauto.
    + intros ok rho S. eapply cderiv_regular; eauto.
Qed.

Lemma inv_factorial_val ok rho s c : inv_factorial s = Ret c -> cval ok rho (TC (fst c) (snd c)) (1 / INR (fact s)).
Proof.
  intros H. destruct (C42_factorial s) as [A B]. destruct (le_lt_dec s 20) as [L|L].
  - destruct (A L) as [_ E]. rewrite E in H. injection H as <-. cbn [cval fst snd]. split; [|now rewrite <- INR_IZR_INZ].
    pose proof (lt_O_fact s). lia.
  - destruct (B L) as [_ E]. congruence.
Qed.

Section Worker.
Variables (ok : R -> Prop) (b : bool) (rho : string -> R) (x : string) (a : cexpr) (alpha : R).
Hypotheses (T : ok_table ok) (Ha : cval ok rho a alpha) (Na : no_truncation b a) (Sa : sign_free a).

Lemma worker_val m : forall s f w, taylor_worker x a m s f = Ret w -> sign_free f -> ntd b f -> regular ok (upd_num rho x alpha) f ->
  (forall j, (j <= m)%nat -> exists g, nderiv x j f = Ret g) /\ no_truncation b w /\ sign_free w /\
  cval ok rho w (sum_f_R0 (fun j => dval (upd_num rho x alpha) x j f / INR (fact (s + j)) * (rho x - alpha) ^ j) m).
Proof.
  assert (Z : forall m s, sum_f_R0 (fun j => dval (upd_num rho x alpha) x j Null / INR (fact (s + j)) * (rho x - alpha) ^ j) m = 0).
  { intros m0 s. induction m0 as [|m0 IH]; cbn [sum_f_R0].
    - unfold dval. rewrite nderiv_null. cbn [ceval Null]. unfold Rdiv. ring.
    - rewrite IH. unfold dval. rewrite nderiv_null. cbn [ceval Null]. unfold Rdiv. ring. }
  induction m as [|m IH]; intros s f w H Sf Nf Rf.
  - cbn [taylor_worker] in H. destruct (is_null f) eqn:En.
    { apply is_null_eq in En. subst f. injection H as <-. split; [intros j Hj; exists Null; apply nderiv_null|].
      split; [exact I|]. split; [exact I|]. rewrite Z. apply cval_Null. reflexivity. }
    apply obind_ret in H as (c & Hc & H). apply obind_ret in H as (v & Hv & H). apply obind_ret in H as (t & Ht & H). injection H as <-.
    destruct (regular_exists _ _ _ Rf) as [fv Hf].
    pose proof (csub_val ok b x a f v rho alpha fv T Hv (ntd_nt _ _ Nf) Na Ha Hf) as Vv.
    split; [intros j Hj; assert (j = 0)%nat by lia; subst j; exists f; reflexivity|].
    split; [eapply capply_nt; eauto; [discriminate|exact I|eapply csub_nt; eauto; apply ntd_nt; auto]|].
    split; [eapply capply_sf; eauto; [exact I|eapply csub_sf; eauto]|].
    eapply capply_val; [exact Ht|discriminate|apply inv_factorial_val; exact Hc|exact Vv|]. cbn [binary_value sum_f_R0]. f_equal.
    unfold dval. cbn [nderiv]. rewrite <- (ceval_cval _ _ _ _ Sf Hf), Nat.add_0_r. cbn [pow]. unfold Rdiv. ring.
  - cbn [taylor_worker] in H. destruct (is_null f) eqn:En.
    { apply is_null_eq in En. subst f. injection H as <-. split; [intros j Hj; exists Null; apply nderiv_null|].
      split; [exact I|]. split; [exact I|]. rewrite Z. apply cval_Null. reflexivity. }
    apply obind_ret in H as (c & Hc & H). apply obind_ret in H as (v & Hv & H). apply obind_ret in H as (t & Ht & H).
    apply obind_ret in H as (d & Hd & H). apply obind_ret in H as (w' & Hw & H). apply obind_ret in H as (y & Hy & H). apply obind_ret in H as (p & Hp & H).
    destruct (regular_exists _ _ _ Rf) as [fv Hf].
    pose proof (csub_val ok b x a f v rho alpha fv T Hv (ntd_nt _ _ Nf) Na Ha Hf) as Vv.
    destruct (IH (S s) d w' Hw (cderiv_sf _ _ _ Hd Sf) (cderiv_ntd _ _ _ _ Hd Nf) (cderiv_regular _ _ _ _ _ Hd Rf)) as (I1 & I2 & I3 & I4).
    assert (Nt : no_truncation b t) by (eapply capply_nt; eauto; [discriminate|exact I|eapply csub_nt; eauto; apply ntd_nt; auto]).
    assert (St : sign_free t) by (eapply capply_sf; eauto; [exact I|eapply csub_sf; eauto]).
    assert (Ny : no_truncation b y) by (eapply capply_nt; eauto; [discriminate|exact I]).
    assert (Sy : sign_free y) by (eapply capply_sf; eauto; exact I).
    assert (Np : no_truncation b p) by (eapply capply_nt; eauto; discriminate).
    assert (Sp : sign_free p) by (eapply capply_sf; eauto).
    split; [|split; [eapply capply_nt; eauto; discriminate|split; [eapply capply_sf; eauto|]]].
    + intros [|j] Hj; [exists f; reflexivity|]. rewrite nderiv_front, Hd. cbn [obind]. apply I1. lia.
    + assert (Vt : cval ok rho t (1 / INR (fact s) * fv)) by (eapply capply_val; [exact Ht|discriminate|apply inv_factorial_val; exact Hc|exact Vv|reflexivity]).
      assert (Vy : cval ok rho y (rho x - alpha)) by (eapply capply_val; [exact Hy|discriminate|reflexivity|exact Ha|reflexivity]).
      assert (Vp : cval ok rho p ((rho x - alpha) * sum_f_R0 (fun j => dval (upd_num rho x alpha) x j d / INR (fact (S s + j)) * (rho x - alpha) ^ j) m))
        by (eapply capply_val; [exact Hp|discriminate|exact Vy|exact I4|reflexivity]).
      eapply capply_val; [exact H|discriminate|exact Vt|exact Vp|]. cbn [binary_value]. f_equal.
      rewrite (decomp_sum _ (S m)) by lia. cbn [pred]. f_equal.
      * unfold dval. cbn [nderiv]. rewrite <- (ceval_cval _ _ _ _ Sf Hf), Nat.add_0_r. cbn [pow]. unfold Rdiv. ring.
      * rewrite scal_sum. apply sum_eq. intros i _. unfold dval. rewrite nderiv_front, Hd. cbn [obind].
        replace (s + S i)%nat with (S s + i)%nat by lia. cbn [pow]. ring.
Qed.
End Worker.

Lemma try_simplify_val ok b n fuel e e' : ok_table ok -> try_simplify n fuel e = Ret e' -> no_truncation b e -> keeps ok b e e'.
Proof.
  intros T H N. unfold try_simplify in H. apply obind_ret in H as (r & Hr & E). injection E as <-.
  destruct r as [e'|]; [eapply csimp_keeps; eauto|apply keeps_refl; auto].
Qed.

Lemma regular_mono (ok ok' : R -> Prop) rho e : (forall u, ok u -> ok' u) -> sign_free e -> regular ok rho e -> regular ok' rho e.
Proof.
  intros M. induction e as [n d|k|y|o a IH|o l IHl r IHr]; cbn [regular]; auto.
  - intros [So Sa] (R & R1 & R2 & R3). specialize (IH Sa R). destruct (regular_exists _ _ _ R) as [u0 Hu0].
    assert (D : forall u, cval ok' rho a u -> u = u0) by (intros u Hu; apply (cval_det ok' rho a Sa); [exact Hu|apply (cval_mono ok ok' rho a u0 M Hu0)]).
    split; auto. split; [|split]; intros Ho u Hu; rewrite (D u Hu); auto.
  - intros [Sl Sr] (Rl & Rr & R1 & R2). specialize (IHl Sl Rl). specialize (IHr Sr Rr).
    destruct (regular_exists _ _ _ Rl) as [u0 Hu0]. destruct (regular_exists _ _ _ Rr) as [w0 Hw0].
    assert (Dl : forall u, cval ok' rho l u -> u = u0) by (intros u Hu; apply (cval_det ok' rho l Sl); [exact Hu|apply (cval_mono ok ok' rho l u0 M Hu0)]).
    assert (Dr : forall u, cval ok' rho r u -> u = w0) by (intros u Hu; apply (cval_det ok' rho r Sr); [exact Hu|apply (cval_mono ok ok' rho r w0 M Hw0)]).
    split; auto. split; auto. split.
    + intros Ho w Hw. rewrite (Dr w Hw). auto.
    + intros Ho. destruct (R2 Ho) as [C|[(C & L & z & Z)|C]].
      * left. intros u Hu. rewrite (Dl u Hu). auto.
      * right. left. split; [intros u Hu; rewrite (Dl u Hu); auto|]. split; auto. exists z. eapply cval_mono; eauto.
      * right. right. exact C.
Qed.

Lemma ceval_ext rho rho' e : (forall y, rho y = rho' y) -> ceval rho e = ceval rho' e.
Proof. intros E. induction e as [n d|k|y|o a IH|o l IHl r IHr]; cbn [ceval]; auto; [now rewrite IH|now rewrite IHl, IHr]. Qed.
Lemma dval_ext rho rho' x k f : (forall y, rho y = rho' y) -> dval rho x k f = dval rho' x k f.
Proof. intros E. unfold dval. destruct (nderiv x k f); auto. now apply ceval_ext. Qed.

Lemma taylor_correct ok b rho x f a alpha fuel n e : ok_table ok ->
  taylor_series fuel n x f a = Ret e -> sign_free f -> sign_free a -> ntd b f -> no_truncation b a ->
  ~ occurs x a -> cval ok rho a alpha -> regular ok (upd_num rho x alpha) f ->
  exists c, taylor_of rho x f alpha n c /\
    (forall t v, cval ok (upd_num rho x t) e v <-> v = sum_f_R0 (fun k => c k * (t - alpha) ^ k) n).
Proof.
  intros T H Sf Sa Nf Na Oa Ha Rf. unfold taylor_series in H. apply obind_ret in H as (w & Hw & H).
  destruct (worker_val ok b rho x a alpha T Ha Na Sa n 0 f w Hw Sf Nf Rf) as (W1 & W2 & W3 & W4).
  destruct (try_simplify_val _ _ _ _ _ _ T H W2) as (_ & K2 & K3). specialize (K2 W3).
  exists (fun k => dval (upd_num rho x alpha) x k f / INR (fact k)). split.
  - assert (Rany : regular anywhere (upd_num rho x alpha) f) by (apply (regular_mono ok); auto; intros; exact I).
    destruct (regular_open (upd_num rho x alpha) x f Sf Rany) as (eps & He & Hn).
    assert (Ex : upd_num rho x alpha x = alpha) by (unfold upd_num; now rewrite String.eqb_refl). rewrite Ex in Hn.
    assert (Up : forall t y, upd_num (upd_num rho x alpha) x t y = upd_num rho x t y).
    { intros t y. unfold upd_num. destruct (y =? x)%string; reflexivity. }
    assert (Hn' : forall t, Rabs (t - alpha) < eps -> regular anywhere (upd_num rho x t) f).
    { intros t Ht. eapply regular_ext; [apply Up|auto]. }
    exists (fun k t => dval (upd_num rho x t) x k f), eps. split; auto. split; [|split].
    + intros t Ht. destruct (regular_exists _ _ _ (Hn' t Ht)) as [v Hv]. unfold dval. cbn [nderiv].
      rewrite <- (ceval_cval _ _ _ _ Sf Hv). exact Hv.
    + intros k t Hk Ht. destruct (W1 (S k) ltac:(lia)) as [g' Hg'].
      assert (Hg := Hg'). cbn [nderiv] in Hg. apply obind_ret in Hg as (g & Hg & Hd).
      destruct (nderiv_keeps b _ _ _ _ Hg) as (Sg & _ & Rg). specialize (Sg Sf).
      pose proof (cderiv_sf _ _ _ Hd Sg) as Sg'.
      destruct (regular_exists _ _ _ (Rg _ _ (Hn' t Ht))) as [v Hv].
      destruct (cderiv_correct (upd_num rho x t) x g g' v Hd (regular_differentiable _ _ (Rg _ _ (Hn' t Ht))) Hv) as (d & Vd & (F & dl & H0 & Fv & Fn & Fd)).
      assert (Ext : upd_num rho x t x = t) by (unfold upd_num; now rewrite String.eqb_refl). rewrite Ext in *.
      unfold dval. rewrite Hg, Hg'. rewrite <- (ceval_cval _ _ _ _ Sg' Vd).
      apply (dpl_local F _ _ _ dl H0); [|exact Fd]. intros s Hs. apply (ceval_cval anywhere); auto.
      eapply cval_ext; [|apply Fn; exact Hs]. intros y. unfold upd_num. destruct (y =? x)%string; reflexivity.
    + intros k _. reflexivity.
  - intros t v.
    assert (Up : forall y, upd_num rho x alpha y = upd_num (upd_num rho x t) x alpha y).
    { intros y. unfold upd_num. destruct (y =? x)%string; reflexivity. }
    destruct (worker_val ok b (upd_num rho x t) x a alpha T (occurs_val _ _ _ _ _ _ Oa Ha) Na Sa n 0 f w Hw Sf Nf (regular_ext _ _ _ _ Up Rf)) as (_ & _ & _ & V4).
    specialize (K3 _ _ V4).
    assert (Ex : upd_num rho x t x = t) by (unfold upd_num; now rewrite String.eqb_refl). rewrite Ex in K3.
    assert (E : sum_f_R0 (fun j => dval (upd_num (upd_num rho x t) x alpha) x j f / INR (fact (0 + j)) * (t - alpha) ^ j) n =
                sum_f_R0 (fun k => dval (upd_num rho x alpha) x k f / INR (fact k) * (t - alpha) ^ k) n).
    { apply sum_eq. intros i _. cbn [Nat.add]. now rewrite <- (dval_ext _ _ x i f Up). }
    rewrite E in K3. split.
    + intros Hv. eapply cval_det; eauto.
    + intros ->. exact K3.
Qed.
