(** Compile-time expressions: substitution and simplification. *)
From Coq Require Import ZArith Reals Lia Lra Bool List String.
From Verif Require Import Outcome Num ExprModel ExprSpec ExprBase ExprSimp ExprVal ExprSub ExprDeriv ConstModel PropConst CtModel CtSpec CtProofs.
Import ListNotations.
Open Scope R_scope.

(** *** Syntactic invariants of the operators: anything that holds of literals and
    is inherited through nodes. *)
Lemma uapply_nt b o a e : uapply o a = Ret e -> no_truncation b a -> no_truncation b e.
Proof.
  unfold uapply. intros H N. destruct a as [n d|k|y|p c|p l r]; [| |injection H as <-; exact N..].
  - destruct o; try (injection H as <-; exact I);
      (apply obind_ret in H as (c & _ & H); destruct c; [injection H as <-; exact I|discriminate]).
  - destruct o; injection H as <-; try exact I; try exact N; destruct k; exact N || exact I.
Qed.
Lemma uapply_sf o a e : uapply o a = Ret e -> o <> UArb -> sign_free a -> sign_free e.
Proof.
  unfold uapply. intros H Ho N. destruct a as [n d|k|y|p c|p l r]; [| |injection H as <-; split; auto..].
  - destruct o; try (injection H as <-; exact I); try contradiction;
      (apply obind_ret in H as (c & _ & H); destruct c; [injection H as <-; exact I|discriminate]).
  - destruct o; try (injection H as <-; exact I); contradiction.
Qed.

Lemma num_op_nt o a b k : num_op o a b = Ret k -> no_truncation true (TNum k) /\
  (no_truncation false (TNum a) -> no_truncation false (TNum k)).
Proof.
  destruct a as [x|x], b as [y|y]; intros H; unfold num_op in H; try (injection H as <-; split; [exact I|auto]; exact (fun _ => I)).
  destruct o; try (injection H as <-; split; [reflexivity|intros X; discriminate X]).
  - destruct (y =? 0)%Z; [discriminate|]. injection H as <-. split; [reflexivity|intros X; discriminate X].
Qed.

Lemma creduce_nt b o l r e : creduce o l r = Ret (Some e) -> no_truncation b l -> no_truncation b r -> no_truncation b e.
Proof.
  intros H Nl Nr. unfold creduce in H. destruct (cop_of o) as [co|] eqn:Eo.
  - assert (G : match reduce_null o l r with Some m => do x <- m; Ret (Some x) | None => reduce_num o l r end = Ret (Some e) -> no_truncation b e).
    { intros K. destruct (reduce_null o l r) as [m|] eqn:Em.
      - apply obind_ret in K as (x & Hx & E). injection E as <-. unfold reduce_null in Em.
        destruct o; try discriminate;
          repeat match type of Em with context [if ?c then _ else _] => destruct c end; try discriminate Em; injection Em as Em; subst m;
          try (injection Hx as <-; first [exact Nl|exact Nr|exact I]). eapply uapply_nt; eauto.
      - unfold reduce_num in K. destruct l as [n d|k|y|p c|p a c]; destruct r as [n' d'|k'|y'|p' c'|p' a' c'];
          try discriminate K; try (injection K as <-; exact I).
        apply obind_ret in K as (z & Hz & E). injection E as <-. apply num_op_nt in Hz as [A B]. destruct b; auto. }
    destruct l as [n d|k|y|p c|p a c]; try (apply G; exact H).
    destruct r as [n' d'|k'|y'|p' c'|p' a' c']; try (apply G; exact H).
    apply obind_ret in H as (c & _ & E). injection E as <-. exact I.
  - unfold reduce_pow in H. destruct r as [rn rd|k|y|p c|p a c]; try discriminate.
    + destruct l as [n d|k|y|p c|p a c];
        repeat match type of H with context [if ?c then _ else _] => destruct c end; try discriminate; injection H as <-; auto; exact I.
    + destruct (as_double l); [|discriminate]. injection H as <-. exact I.
Qed.
Lemma capply_nt b o l r e : capply o l r = Ret e -> (o = ODiv -> b = false) -> no_truncation b l -> no_truncation b r -> no_truncation b e.
Proof.
  intros H Ho Nl Nr. unfold capply in H. apply obind_ret in H as (x & Hx & E). injection E as <-.
  destruct x as [e|]; [eapply creduce_nt; eauto|]. split; auto.
Qed.
Lemma creduce_sf o l r e : creduce o l r = Ret (Some e) -> sign_free l -> sign_free r -> sign_free e.
Proof.
  intros H Nl Nr. unfold creduce in H. destruct (cop_of o) as [co|] eqn:Eo.
  - assert (G : match reduce_null o l r with Some m => do x <- m; Ret (Some x) | None => reduce_num o l r end = Ret (Some e) -> sign_free e).
    { intros K. destruct (reduce_null o l r) as [m|] eqn:Em.
      - apply obind_ret in K as (x & Hx & E). injection E as <-. unfold reduce_null in Em.
        destruct o; try discriminate;
          repeat match type of Em with context [if ?c then _ else _] => destruct c end; try discriminate Em; injection Em as Em; subst m;
          try (injection Hx as <-; first [exact Nl|exact Nr|exact I]). eapply uapply_sf; eauto. discriminate.
      - unfold reduce_num in K. destruct l as [n d|k|y|p c|p a c]; destruct r as [n' d'|k'|y'|p' c'|p' a' c'];
          try discriminate K; try (injection K as <-; exact I).
        apply obind_ret in K as (z & Hz & E). injection E as <-. exact I. }
    destruct l as [n d|k|y|p c|p a c]; try (apply G; exact H).
    destruct r as [n' d'|k'|y'|p' c'|p' a' c']; try (apply G; exact H).
    apply obind_ret in H as (c & _ & E). injection E as <-. exact I.
  - unfold reduce_pow in H. destruct r as [rn rd|k|y|p c|p a c]; try discriminate.
    + destruct l as [n d|k|y|p c|p a c];
        repeat match type of H with context [if ?c then _ else _] => destruct c end; try discriminate; injection H as <-; auto; exact I.
    + destruct (as_double l); [|discriminate]. injection H as <-. exact I.
Qed.
Lemma capply_sf o l r e : capply o l r = Ret e -> sign_free l -> sign_free r -> sign_free e.
Proof.
  intros H Nl Nr. unfold capply in H. apply obind_ret in H as (x & Hx & E). injection E as <-.
  destruct x as [e|]; [eapply creduce_sf; eauto|]. split; auto.
Qed.

Lemma nt_not_ints b l r : no_truncation b l -> b = false -> ~ both_ints l r.
Proof. intros N -> (x & y & -> & _). discriminate N. Qed.

(** the two together, as used below *)
Definition keeps (ok : R -> Prop) (b : bool) (e e' : cexpr) : Prop :=
  no_truncation b e' /\ (sign_free e -> sign_free e') /\ forall rho v, cval ok rho e v -> cval ok rho e' v.
Lemma keeps_refl ok b e : no_truncation b e -> keeps ok b e e.
Proof. intros N. split; auto. Qed.
Lemma keeps_trans ok b x y z : keeps ok b x y -> (no_truncation b y -> keeps ok b y z) -> keeps ok b x z.
Proof. intros (A1 & A2 & A3) B. destruct (B A1) as (B1 & B2 & B3). split; [|split]; auto. Qed.

(** the operator applied to the arguments *)
Lemma keeps_capply ok b o l r l' r' e : capply o l' r' = Ret e -> (o = ODiv -> b = false) ->
  keeps ok b l l' -> keeps ok b r r' -> keeps ok b (TBin o l r) e.
Proof.
  intros H Ho (L1 & L2 & L3) (R1 & R2 & R3). split; [|split].
  - eapply capply_nt; eauto.
  - intros [Sl Sr]. eapply capply_sf; eauto.
  - intros rho v (u & w & Hu & Hw & Hv). eapply capply_val; eauto. intros E. eapply nt_not_ints; eauto.
Qed.
Lemma keeps_uapply ok b o a a' e : ok_table ok -> uapply o a' = Ret e -> keeps ok b a a' -> keeps ok b (TUn o a) e.
Proof.
  intros T H (L1 & L2 & L3). split; [|split].
  - eapply uapply_nt; eauto.
  - intros [So Sa]. eapply uapply_sf; eauto.
  - intros rho v (u & Hu & Hv). eapply uapply_val; eauto. intros Ho n d _. apply T.
    destruct Ho as [-> | ->]; apply Hv.
Qed.

(** rewriting of the whole node by a law of arithmetic *)
Lemma keeps_law ok b e e' : no_truncation b e' -> (sign_free e -> sign_free e') ->
  (forall rho v, cval ok rho e v -> cval ok rho e' v) -> keeps ok b e e'.
Proof. split; auto. Qed.

(** *** sub *)
Lemma csub_nt b x g f f' : csub x g f = Ret f' -> no_truncation b f -> no_truncation b g -> no_truncation b f'.
Proof.
  revert f'. induction f as [n d|k|y|o a IH|o l IHl r IHr]; intros f' H Nf Ng; cbn [csub] in H.
  - injection H as <-. exact I.
  - injection H as <-. exact Nf.
  - injection H as <-. destruct (y =? x)%string; auto.
  - apply obind_ret in H as (a' & Ha & H). eapply uapply_nt; eauto.
  - apply obind_ret in H as (l' & Hl & H). apply obind_ret in H as (r' & Hr & H). destruct Nf as (N1 & N2 & N3).
    eapply capply_nt; eauto.
Qed.
Lemma csub_val ok b x g f f' rho u v : ok_table ok -> csub x g f = Ret f' -> no_truncation b f -> no_truncation b g ->
  cval ok rho g u -> cval ok (upd_num rho x u) f v -> cval ok rho f' v.
Proof.
  intros T. revert f' v. induction f as [n d|k|y|o a IH|o l IHl r IHr]; intros f' v H Nf Ng Hg Hf; cbn [csub] in H.
  - injection H as <-. exact Hf.
  - injection H as <-. exact Hf.
  - injection H as <-. cbn [cval] in Hf. subst v. unfold upd_num. destruct (y =? x)%string; auto. reflexivity.
  - apply obind_ret in H as (a' & Ha & H). destruct Hf as (w & Hw & Hv). eapply uapply_val; eauto.
    intros Ho n d _. apply T. destruct Ho as [-> | ->]; apply Hv.
  - apply obind_ret in H as (l' & Hl & H). apply obind_ret in H as (r' & Hr & H). destruct Nf as (N1 & N2 & N3).
    destruct Hf as (p & q & Hp & Hq & Hv). eapply capply_val; eauto.
    intros E. eapply nt_not_ints; [eapply csub_nt; [exact Hl| |]|]; eauto.
Qed.

(** *** simplify *)
Section Simplify.
Variables (ok : R -> Prop) (b : bool).
Hypothesis T : ok_table ok.

Section Rules.
Variable self : cexpr -> outcome (option cexpr).
Hypothesis IH : forall e e', self e = Ret (Some e') -> no_truncation b e -> keeps ok b e e'.

Lemma ctry_keeps e e' : ctry self e = Ret e' -> no_truncation b e -> keeps ok b e e'.
Proof.
  unfold ctry. intros H N. apply obind_ret in H as (r & Hr & E). injection E as <-.
  destruct r as [x|]; [apply IH; auto|apply keeps_refl; auto].
Qed.
Lemma some_ret m e : some m = Ret (Some e) -> m = Ret e.
Proof. unfold some. intros H. apply obind_ret in H as (x & -> & E). congruence. Qed.
(** apply the operator to [l'] and [r'], then simplify *)
Lemma apply_try o l r l' r' e : (do q <- capply o l' r'; ctry self q) = Ret e -> (o = ODiv -> b = false) ->
  keeps ok b l l' -> keeps ok b r r' -> keeps ok b (TBin o l r) e.
Proof.
  intros H Ho Kl Kr. apply obind_ret in H as (q & Hq & H).
  eapply keeps_trans; [eapply keeps_capply; eauto|]. intros N. apply ctry_keeps; auto.
Qed.
Lemma split_op_spec o e x y : split_op o e = Some (x, y) -> e = TBin o x y.
Proof.
  destruct e as [n d|k|z|p a|p l r]; cbn; try discriminate. destruct o, p; cbn; try discriminate; intros E; injection E as -> ->; reflexivity.
Qed.
Lemma arb_arg_spec e a : arb_arg e = Some a -> e = TUn UArb a.
Proof. destruct e as [| | |p c|]; cbn; try discriminate. destruct p; try discriminate. congruence. Qed.

(** associativity and commutativity of + and * *)
Lemma assoc_law o x y z : associative o = true -> no_truncation b (TBin o (TBin o x y) z) ->
  keeps ok b (TBin o (TBin o x y) z) (TBin o x (TBin o y z)).
Proof.
  intros A (N1 & (N2 & N3 & N4) & N5). apply keeps_law.
  - split; auto. split; auto. split; auto.
  - cbn [sign_free]. tauto.
  - intros rho v (u & w & (p & q & Hp & Hq & Hu) & Hw & Hv).
    destruct o; try discriminate; cbn [binary_value] in *; injection Hu as <-; injection Hv as <-;
      (eexists p, _; split; [exact Hp|split; [exists q, w; split; [exact Hq|split; [exact Hw|reflexivity]]|cbn [binary_value]; f_equal; ring]]).
Qed.
Lemma assoc_law' o x y z : associative o = true -> no_truncation b (TBin o x (TBin o y z)) ->
  keeps ok b (TBin o x (TBin o y z)) (TBin o (TBin o x y) z).
Proof.
  intros A (N1 & N2 & (N3 & N4 & N5)). apply keeps_law.
  - split; auto. split; auto. split; auto.
  - cbn [sign_free]. tauto.
  - intros rho v (u & w & Hu & (p & q & Hp & Hq & Hw) & Hv).
    destruct o; try discriminate; cbn [binary_value] in *; injection Hw as <-; injection Hv as <-;
      (eexists _, q; split; [exists u, p; split; [exact Hu|split; [exact Hp|reflexivity]]|split; [exact Hq|cbn [binary_value]; f_equal; ring]]).
Qed.
Lemma comm_law o x y : associative o = true -> no_truncation b (TBin o x y) -> keeps ok b (TBin o x y) (TBin o y x).
Proof.
  intros A (N1 & N2 & N3). apply keeps_law.
  - split; auto.
  - cbn [sign_free]. tauto.
  - intros rho v (u & w & Hu & Hw & Hv). exists w, u. split; auto. split; auto.
    destruct o; try discriminate; cbn [binary_value] in *; injection Hv as <-; f_equal; ring.
Qed.
(** inside a node *)
Lemma node_cong o l r l' r' : (o = ODiv -> b = false) -> keeps ok b l l' -> keeps ok b r r' -> keeps ok b (TBin o l r) (TBin o l' r').
Proof.
  intros Ho (L1 & L2 & L3) (R1 & R2 & R3). apply keeps_law.
  - split; auto.
  - cbn. tauto.
  - intros rho v (u & w & Hu & Hw & Hv). exists u, w. auto.
Qed.

Lemma reorder7_keeps o l r e : associative o = true -> reorder7 self o l r = Ret (Some e) -> no_truncation b (TBin o l r) ->
  keeps ok b (TBin o l r) e.
Proof.
  intros A H N. unfold reorder7 in H. apply obind_ret in H as (x & Hx & H). apply obind_ret in H as (y & Hy & H).
  assert (Ho : o = ODiv -> b = false) by apply N.
  destruct x as [s|].
  - destruct y; [discriminate|]. destruct (split_op o l) as [[l1 l2]|] eqn:El; [|discriminate]. apply split_op_spec in El. subst l.
    apply some_ret in H. assert (N' := N). destruct N' as (N1 & (N2 & N3 & N4) & N5).
    eapply keeps_trans; [apply assoc_law; auto|]. intros M.
    eapply keeps_trans; [eapply (node_cong o _ _ l1 (TBin o r l2)); [auto|apply keeps_refl; auto|apply comm_law; [auto|apply M]]|]. intros M2.
    eapply keeps_trans; [apply assoc_law'; auto|]. intros M3.
    eapply apply_try; eauto; [|apply keeps_refl; auto]. apply IH; auto. split; auto.
  - destruct y as [s|]; [|discriminate]. destruct (split_op o r) as [[r1 r2]|] eqn:Er; [|discriminate]. apply split_op_spec in Er. subst r.
    apply some_ret in H. assert (N' := N). destruct N' as (N1 & N2 & (N3 & N4 & N5)).
    eapply keeps_trans; [eapply (node_cong o l (TBin o r1 r2) l (TBin o r2 r1)); [auto|apply keeps_refl; auto|apply comm_law; [auto|apply N]]|]. intros M.
    eapply keeps_trans; [apply assoc_law'; auto|]. intros M3.
    eapply apply_try; eauto; [|apply keeps_refl; auto]. apply IH; auto. split; auto.
Qed.
Lemma reorder6_keeps o l r e : associative o = true -> reorder6 self o l r = Ret (Some e) -> no_truncation b (TBin o l r) ->
  keeps ok b (TBin o l r) e.
Proof.
  intros A H N. unfold reorder6 in H. apply obind_ret in H as (x & Hx & H). apply obind_ret in H as (y & Hy & H).
  assert (Ho : o = ODiv -> b = false) by apply N.
  destruct x as [s|].
  - destruct y; [discriminate|]. destruct (split_op o l) as [[l1 l2]|] eqn:El; [|discriminate]. apply split_op_spec in El. subst l.
    apply some_ret in H. assert (N' := N). destruct N' as (N1 & (N2 & N3 & N4) & N5).
    eapply keeps_trans; [apply assoc_law; auto|]. intros M.
    eapply apply_try; eauto; [apply keeps_refl; auto|]. apply IH; auto. split; auto.
  - destruct y as [s|].
    + destruct (split_op o r) as [[r1 r2]|] eqn:Er; [|discriminate]. apply split_op_spec in Er. subst r.
      apply some_ret in H. assert (N' := N). destruct N' as (N1 & N2 & (N3 & N4 & N5)).
      eapply keeps_trans; [apply assoc_law'; auto|]. intros M3.
      eapply apply_try; eauto; [|apply keeps_refl; auto]. apply IH; auto. split; auto.
    + eapply reorder7_keeps; eauto.
Qed.

(** the sign laws *)
Lemma sign_law o l r a c (sl sr : bool) : mul_or_div o = true -> no_truncation b (TBin o l r) -> sl || sr = true ->
  l = (if sl then TUn UArb a else a) -> r = (if sr then TUn UArb c else c) -> keeps ok b (TBin o l r) (TUn UArb (TBin o a c)).
Proof.
  intros M N S -> ->. destruct N as (N1 & N2 & N3). apply keeps_law.
  - cbn [no_truncation]. split; auto. destruct sl, sr; auto.
  - destruct sl, sr; cbn [sign_free]; try discriminate; tauto.
  - intros rho v (u & w & Hu & Hw & Hv).
    assert (Pu : exists u', cval ok rho a u' /\ (u = u' \/ u = - u')) by (destruct sl; [exact Hu|exists u; auto]).
    assert (Pw : exists w', cval ok rho c w' /\ (w = w' \/ w = - w')) by (destruct sr; [exact Hw|exists w; auto]).
    destruct Pu as (u' & Hu' & Eu), Pw as (w' & Hw' & Ew).
    destruct o; try discriminate; cbn [binary_value] in Hv.
    + injection Hv as <-. exists (u' * w'). split; [exists u', w'; auto|]. cbn [unary_value].
      destruct Eu as [-> | ->], Ew as [-> | ->]; [left|right|right|left]; ring.
    + destruct (Req_EM_T w 0) as [|Nw]; [discriminate|]. injection Hv as <-.
      assert (Nw' : w' <> 0) by (intros Z; subst w'; destruct Ew; lra).
      exists (u' / w'). split.
      * exists u', w'. split; auto. split; auto. cbn [binary_value]. destruct (Req_EM_T w' 0); [contradiction|reflexivity].
      * cbn [unary_value]. destruct Eu as [-> | ->], Ew as [-> | ->]; [left|right|right|left]; field; auto.
Qed.
Lemma arb_try o a c e : (do q <- capply o a c; ctry self (TUn UArb q)) = Ret e -> no_truncation b (TBin o a c) ->
  keeps ok b (TUn UArb (TBin o a c)) e.
Proof.
  intros H (N1 & N2 & N3). apply obind_ret in H as (q & Hq & H).
  assert (K : keeps ok b (TBin o a c) q) by (eapply keeps_capply; eauto; apply keeps_refl; auto).
  eapply keeps_trans; [|intros N; eapply ctry_keeps; eauto].
  destruct K as (K1 & K2 & K3). apply keeps_law; [exact K1| |].
  - intros [X _]. contradiction.
  - intros rho v (u & Hu & Hv). exists u. auto.
Qed.
Lemma sign_rules_keeps o l r e : sign_rules self o l r = Ret (Some e) -> no_truncation b (TBin o l r) -> keeps ok b (TBin o l r) e.
Proof.
  intros H N. unfold sign_rules in H. destruct (mul_or_div o) eqn:M.
  - destruct (arb_arg l) as [a|] eqn:El, (arb_arg r) as [c|] eqn:Er;
      try (apply arb_arg_spec in El); try (apply arb_arg_spec in Er); try subst l; try subst r.
    + apply some_ret in H. eapply keeps_trans; [apply (sign_law o _ _ a c true true); auto|]. intros N'. eapply arb_try; eauto.
    + apply some_ret in H. eapply keeps_trans; [apply (sign_law o _ _ a r true false); auto|]. intros N'. eapply arb_try; eauto.
    + apply some_ret in H. eapply keeps_trans; [apply (sign_law o _ _ l c false true); auto|]. intros N'. eapply arb_try; eauto.
    + destruct (associative o) eqn:A; [|discriminate]. eapply reorder6_keeps; eauto.
  - destruct (associative o) eqn:A; [|discriminate]. eapply reorder6_keeps; eauto.
Qed.
Lemma argument_rules_keeps o l r e : argument_rules self o l r = Ret (Some e) -> no_truncation b (TBin o l r) -> keeps ok b (TBin o l r) e.
Proof.
  intros H N. unfold argument_rules in H. apply obind_ret in H as (ml & Hl & H). apply obind_ret in H as (mr & Hr & H).
  assert (N' := N). destruct N' as (N1 & N2 & N3).
  destruct ml as [l'|], mr as [r'|]; try (apply some_ret in H).
  - eapply apply_try; eauto.
  - eapply apply_try; eauto. apply keeps_refl; auto.
  - eapply apply_try; eauto. apply keeps_refl; auto.
  - eapply sign_rules_keeps; eauto.
Qed.

Lemma direct_keeps o l r : no_truncation b (TBin o l r) ->
  match direct_rule o l r with
  | DKeep e => keeps ok b (TBin o l r) e
  | DTry e => keeps ok b (TBin o l r) e
  | DPow x n => keeps ok b (TBin o l r) (TBin OPow (TVar x) (TBin OAdd n Unity))
  | DNone => True
  end.
Proof.
  intros N. destruct N as (N1 & N2 & N3). unfold direct_rule. destruct o; auto.
  - (* Mul *)
    destruct l as [n d|k|x|p a|p a c]; auto.
    + destruct r as [n' d'|k'|y|p' a'|p' a' c']; auto.
      * destruct (String.eqb_spec x y) as [->|]; auto. apply keeps_law; [cbn; intuition discriminate|cbn; tauto|].
        intros rho v (u & w & Hu & Hw & Hv). cbn [cval] in Hu, Hw. subst u w. injection Hv as <-.
        exists (rho y), 2. split; [reflexivity|]. split; [cbn; split; [discriminate|lra]|apply npow_2].
      * destruct p'; auto. destruct a' as [n' d'|k'|y|p' a'|p' a' c2]; auto.
        destruct (String.eqb_spec x y) as [->|]; auto. destruct N3 as (M1 & M2 & M3).
        apply keeps_law; [cbn; intuition discriminate|cbn; tauto|].
        intros rho v (u & w & Hu & (p & q & Hp & Hq & Hw) & Hv). cbn [cval] in Hu, Hp. subst u p. injection Hv as <-.
        exists (rho y), (q + 1). split; [reflexivity|]. split.
        -- exists q, 1. split; auto. split; [apply cval_Unity; auto|reflexivity].
        -- rewrite (Rmult_comm (rho y)). apply npow_succ. exact Hw.
    + destruct p; auto. destruct a as [n' d'|k'|x|p' a'|p' a' c2]; auto. destruct r as [n' d'|k'|y|p' a'|p' a' c']; auto.
      destruct (String.eqb_spec x y) as [->|]; auto. destruct N2 as (M1 & M2 & M3).
      apply keeps_law; [cbn; intuition discriminate|cbn; tauto|].
      intros rho v (u & w & (p & q & Hp & Hq & Hu) & Hw & Hv). cbn [cval] in Hw, Hp. subst w p. injection Hv as <-.
      exists (rho y), (q + 1). split; [reflexivity|]. split.
      -- exists q, 1. split; auto. split; [apply cval_Unity; auto|reflexivity].
      -- apply npow_succ. exact Hu.
  - (* Div *)
    destruct (is_null l) eqn:Zl.
    { apply is_null_eq in Zl. subst l. apply keeps_law; [exact I|intros _; exact I|].
      intros rho v (u & w & Hu & Hw & Hv). apply cval_Null in Hu. subst u. apply cval_Null. cbn [binary_value] in Hv.
      destruct (Req_EM_T w 0); [discriminate|]. injection Hv as <-. unfold Rdiv. ring. }
    destruct (is_unity r) eqn:Ur.
    { apply is_unity_eq in Ur. subst r. apply keeps_law; [exact N2|cbn; tauto|].
      intros rho v (u & w & Hu & Hw & Hv). apply cval_Unity in Hw. subst w. cbn [binary_value] in Hv.
      destruct (Req_EM_T 1 0); [discriminate|]. injection Hv as <-. replace (u / 1) with u by field. exact Hu. }
    destruct l as [n d|k|x|p a|p a c]; auto. destruct r as [n' d'|k'|y|p' a'|p' a' c']; auto.
    destruct (String.eqb_spec x y) as [->|]; auto. apply keeps_law; [exact I|intros _; exact I|].
    intros rho v (u & w & Hu & Hw & Hv). cbn [cval] in Hu, Hw. subst u w. apply cval_Unity. cbn [binary_value] in Hv.
    destruct (Req_EM_T (rho y) 0); [discriminate|]. injection Hv as <-. field; auto.
  - (* Pow *)
    destruct (is_unity l) eqn:Ul; auto. apply is_unity_eq in Ul. subst l. apply keeps_law; [exact I|intros _; exact I|].
    intros rho v (u & w & Hu & Hw & Hv). apply cval_Unity in Hu. subst u. apply cval_Unity. eapply npow_one_base; eauto.
Qed.

Lemma binary_rules_keeps o l r e : binary_rules self o l r = Ret (Some e) -> no_truncation b (TBin o l r) -> keeps ok b (TBin o l r) e.
Proof.
  intros H N. unfold binary_rules in H. apply obind_ret in H as (red & Hred & H). assert (N' := N). destruct N' as (N1 & N2 & N3).
  destruct red as [x|].
  - destruct (aop_eqb o OSub && is_null l && negb (is_null r)); [discriminate|]. injection H as <-.
    eapply keeps_capply; eauto; [|apply keeps_refl; auto|apply keeps_refl; auto]. unfold capply. rewrite Hred. reflexivity.
  - pose proof (direct_keeps o l r N) as D. destruct (direct_rule o l r) as [k|k|x n|].
    + injection H as <-. exact D.
    + apply some_ret in H. eapply keeps_trans; [exact D|]. intros M. apply ctry_keeps; auto.
    + apply some_ret in H. apply obind_ret in H as (m & Hm & H). eapply keeps_trans; [exact D|]. intros (M1 & M2 & M3).
      destruct M3 as (M3 & M4 & M5). eapply keeps_capply; eauto; [apply keeps_refl; auto|].
      eapply keeps_capply; eauto; apply keeps_refl; auto.
    + eapply argument_rules_keeps; eauto.
Qed.

(** powers as products *)
Lemma power_sub_keeps p x q : power_sub p x = Ret q -> no_truncation b x -> keeps ok b (TBin OPow x (TC (Z.of_nat p) 1)) q.
Proof.
  revert q. induction p as [|p IHp]; intros q H N.
  - injection H as <-. apply keeps_law; [exact I|intros _; exact I|].
    intros rho v (u & w & Hu & Hw & Hv). apply cval_Unity. destruct Hw as [_ ->]. cbn [binary_value] in Hv.
    replace (IZR (Z.of_nat 0) / 1) with 0 in Hv by (simpl; lra). rewrite npow_0 in Hv. congruence.
  - destruct p as [|p].
    + injection H as <-. apply keeps_law; [exact N|cbn; tauto|].
      intros rho v (u & w & Hu & Hw & Hv). destruct Hw as [_ ->]. cbn [binary_value] in Hv.
      replace (IZR (Z.of_nat 1) / 1) with 1 in Hv by (simpl; lra). rewrite npow_1 in Hv. injection Hv as <-. exact Hu.
    + cbn [power_sub] in H. change (match p with O => Ret x | S _ => do y <- power_sub p x; capply OMul y x end) with (power_sub (S p) x) in H.
      apply obind_ret in H as (y & Hy & H). specialize (IHp y Hy N).
      eapply (keeps_trans ok b _ (TBin OMul (TBin OPow x (TC (Z.of_nat (S p)) 1)) x)).
      * apply keeps_law; [cbn; intuition discriminate|cbn; tauto|].
        intros rho v (u & w & Hu & Hw & Hv). destruct Hw as [_ ->]. cbn [binary_value] in Hv.
        replace (IZR (Z.of_nat (S (S p))) / 1) with (IZR (Z.of_nat (S p)) + 1) in Hv.
        2:{ rewrite (Nat2Z.inj_succ (S p)). unfold Z.succ. rewrite plus_IZR. field. }
        assert (C : u <> 0 \/ (0 <= Z.of_nat (S p))%Z) by (right; lia).
        pose proof (npow_int u _ C) as E. pose proof (npow_succ _ _ _ E) as E2. rewrite E2 in Hv. injection Hv as <-.
        exists (powerRZ u (Z.of_nat (S p))), u. split; [|split; [exact Hu|reflexivity]].
        exists u, (IZR (Z.of_nat (S p))). split; auto. split; [cbn [cval]; split; [discriminate|field]|exact E].
      * intros _. eapply keeps_capply; eauto; [discriminate|apply keeps_refl; auto].
Qed.
Lemma power_rules_keeps l p e : power_rules self l p = Ret (Some e) -> no_truncation b l -> keeps ok b (TBin OPow l (TC p 1)) e.
Proof.
  intros H N. unfold power_rules in H. destruct (Z.ltb_spec p 0) as [|Hp]; [discriminate|].
  apply obind_ret in H as (ml & Hl & H). rewrite <- (Z2Nat.id p Hp). destruct ml as [l'|].
  - apply some_ret in H. apply obind_ret in H as (q & Hq & H).
    eapply keeps_trans; [eapply (node_cong OPow l _ l' (TC (Z.of_nat (Z.to_nat p)) 1)); [discriminate|apply IH; eauto|apply keeps_refl; exact I]|]. intros (M1 & M2 & M3).
    eapply keeps_trans; [eapply power_sub_keeps; eauto|]. intros M. apply ctry_keeps; auto.
  - apply obind_ret in H as (q & Hq & H). apply obind_ret in H as (mq & Hm & H). destruct mq as [q'|]; [|discriminate]. injection H as <-.
    eapply keeps_trans; [eapply power_sub_keeps; eauto|]. intros M. apply IH; auto.
Qed.
Lemma sign_power_keeps a p e : sign_power self a p = Ret (Some e) -> no_truncation b a -> keeps ok b (TBin OPow (TUn UArb a) (TC p 1)) e.
Proof.
  intros H N. unfold sign_power in H. apply some_ret in H. apply obind_ret in H as (q & Hq & H).
  assert (K : keeps ok b (TBin OPow a (TC p 1)) q).
  { eapply keeps_capply; eauto; [discriminate|apply keeps_refl; auto|apply keeps_refl; exact I]. }
  destruct K as (K1 & K2 & K3).
  assert (V : forall rho v, cval ok rho (TBin OPow (TUn UArb a) (TC p 1)) v ->
    exists w, cval ok rho q w /\ (if Z.even p then v = w else v = w \/ v = - w)).
  { intros rho v (u & w & (u' & Hu' & Eu) & Hw & Hv). destruct Hw as [_ ->]. cbn [binary_value] in Hv.
    replace (IZR p / 1) with (IZR p) in Hv by field. apply npow_int_inv in Hv as [C ->].
    assert (C' : u' <> 0 \/ (0 <= p)%Z).
    { destruct C as [C|C]; auto. left. intros Z. subst u'. apply C. destruct Eu; lra. }
    exists (powerRZ u' p). split.
    - apply K3. exists u', (IZR p). split; auto. split; [cbn [cval]; split; [discriminate|field]|]. apply npow_int; auto.
    - destruct Eu as [-> | ->]; [destruct (Z.even p); auto|]. rewrite powerRZ_neg_sign. destruct (Z.even p); auto. }
  destruct (Z.even p).
  - eapply keeps_trans; [|intros M; eapply ctry_keeps; eauto]. apply keeps_law; auto.
    + intros [[X _] _]. contradiction.
    + intros rho v Hv. destruct (V rho v Hv) as (w & Hw & ->). exact Hw.
  - eapply keeps_trans; [|intros M; eapply ctry_keeps; eauto]. apply keeps_law; [exact K1| |].
    + intros [[X _] _]. contradiction.
    + intros rho v Hv. destruct (V rho v Hv) as (w & Hw & E). exists w. auto.
Qed.
Lemma binary_gate_keeps o l r e : binary_gate self o l r = Ret (Some e) -> no_truncation b (TBin o l r) -> keeps ok b (TBin o l r) e.
Proof.
  intros H N. unfold binary_gate in H. destruct (if aop_eqb o OPow then whole r else None) as [p|] eqn:E.
  - assert (X : o = OPow /\ r = TC p 1).
    { destruct o; cbn in E; try discriminate. split; auto. destruct r as [n d| | | |]; cbn in E; try discriminate.
      destruct (Z.eqb_spec d 1); [|discriminate]. injection E as <-. now subst d. }
    destruct X as [-> ->]. destruct N as (N1 & N2 & N3). destruct (arb_arg l) as [a|] eqn:El.
    + apply arb_arg_spec in El. subst l. apply sign_power_keeps; auto.
    + destruct (is_var_type l); [apply binary_rules_keeps; auto; split; auto|apply power_rules_keeps; auto].
  - apply binary_rules_keeps; auto.
Qed.
Lemma unary_gate_keeps o a e : unary_gate self o a = Ret (Some e) -> no_truncation b a -> keeps ok b (TUn o a) e.
Proof.
  intros H N. unfold unary_gate in H. destruct (match o with UArb => arb_arg a | _ => None end) as [c|] eqn:E.
  - assert (o = UArb /\ a = TUn UArb c) as [-> ->]. { destruct o; try discriminate. split; auto. now apply arb_arg_spec. }
    apply some_ret in H. eapply keeps_trans; [|intros M; eapply ctry_keeps; eauto]. apply keeps_law; [exact N| |].
    + intros [X _]. contradiction.
    + intros rho v (u & (w & Hw & Eu) & Ev). exists w. split; auto. cbn [unary_value] in *.
      destruct Eu as [-> | ->], Ev as [-> | ->]; rewrite ?Ropp_involutive; auto.
  - apply obind_ret in H as (ma & Ha & H). destruct ma as [a'|]; [|discriminate]. apply some_ret in H.
    apply obind_ret in H as (q & Hq & H). eapply keeps_trans; [eapply keeps_uapply; eauto|]. intros M. apply ctry_keeps; auto.
Qed.
End Rules.

Lemma csimp_keeps n fuel : forall e e', csimp n fuel e = Ret (Some e') -> no_truncation b e -> keeps ok b e e'.
Proof.
  induction fuel as [|fuel IH]; intros e e' H N; [discriminate|]. cbn [csimp] in H. destruct e as [m d|k|x|o a|o l r].
  - destruct n; [|discriminate]. injection H as <-. apply keeps_law; [exact I|intros _; exact I|].
    intros rho v [_ ->]. reflexivity.
  - discriminate.
  - discriminate.
  - eapply unary_gate_keeps; eauto.
  - eapply binary_gate_keeps; eauto.
Qed.
End Simplify.
