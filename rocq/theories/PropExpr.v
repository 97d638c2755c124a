(** C30-C34, C38, C50, C53: run-time expressions. *)
From Coq Require Import String R_Ifp NArith.
From Verif Require Import Outcome Num ExprModel ExprSpec ExprBase ExprSimp ExprVal ExprSub ExprDeriv ExprFold ExprEq ExprTerm.
Open Scope R_scope.
Open Scope string_scope.
Open Scope list_scope.

Ltac rcalc := repeat (cbn; match goal with
  | |- context [Reqb ?a ?b] => destruct (Reqb_spec a b); try (exfalso; lra)
  | |- context [Req_EM_T ?a ?b] => destruct (Req_EM_T a b); try (exfalso; lra)
  | |- context [Rlt_dec ?a ?b] => destruct (Rlt_dec a b); try (exfalso; lra)
  end); cbn.

(** * C31: simplification preserves values. *)
Theorem C31_simplify_preserves_value_partial : forall fuel s env (e e' : expr R) v,
  scalar_env env ->
  (units_free e \/ (array_free e /\ has_node units_in_right_factor e = false)) ->
  simplify fuel e = Ret e' ->
  value_of s env e = Some v ->
  value_of s env e' = Some v.
Proof.
  intros fuel s env e e' v Henv Hok Hs Hv. unfold simplify, or_self in Hs.
  apply obind_ret in Hs as (m & Hm & E). injection E as <-.
  assert (Hk : okx false e).
  { destruct Hok as [H|[H1 H2]]; [left; auto|right; repeat split; auto; discriminate]. }
  exact (proj1 (simp_value fuel false s env e m v Henv Hk Hm Hv)).
Qed.
Print Assumptions C31_simplify_preserves_value_partial.

(** 2*(3*x) at x = 5 *)
Example C31_ex : exists e', simplify 0 (EBin BMul (EConst 2) (EBin BMul (EConst 3) (EVar "x"))) = Ret e' /\
  value_of 1 (nums (fun _ => 5)) e' = Some (VN 30).
Proof.
  destruct (simp_scalar 0 (EBin BMul (EConst 2) (EBin BMul (EConst 3) (EVar "x")))) as (m & Hm & _).
  { repeat split; unfold arith_op; auto. }
  exists (match m with Some x => x | None => EBin BMul (EConst 2) (EBin BMul (EConst 3) (EVar "x")) end).
  assert (Hs : simplify 0 (EBin BMul (EConst 2) (EBin BMul (EConst 3) (EVar "x"))) =
    Ret (match m with Some x => x | None => EBin BMul (EConst 2) (EBin BMul (EConst 3) (EVar "x")) end)).
  { unfold simplify, or_self. rewrite Hm. reflexivity. }
  split; auto.
  eapply C31_simplify_preserves_value_partial; [|left|exact Hs|]; try reflexivity.
  - intros x v H. injection H as <-; eauto.
  - cbn. do 2 f_equal. lra.
Qed.
(** an array expression: [1,x] + [2,3] at x = 5 *)
Example C31_ex_array : forall e', simplify 1 (EBin BAdd (EArr [EConst 1; EVar "x"]) (EArr [EConst 2; EConst 3])) = Ret e' ->
  value_of 1 (nums (fun _ => 5)) e' = Some (VA [VN (1 + 2); VN (5 + 3)]).
Proof.
  intros e' H. eapply C31_simplify_preserves_value_partial; [|left|exact H|]; try reflexivity.
  intros x v E. injection E as <-; eauto.
Qed.

(** The number 0 times an array is the number 0, whatever the array: the shape
    of the result is lost.  (Two times an array is an array.) *)
Theorem C31_zero_times_array_refuted : forall fuel (x : string),
  simplify fuel (EBin BMul (EConst 0) (EArr [EVar x; EVar x])) = Ret (EConst (0:R)) /\
  simplify fuel (EBin BMul (EConst 2) (EArr [EVar x; EVar x])) =
    Ret (EArr [EBin BMul (EConst (2:R)) (EVar x); EBin BMul (EConst 2) (EVar x)]).
Proof.
  intros fuel x. unfold simplify, or_self. split.
  - rewrite simp_unfold. cbn [simp_body]. rewrite (simp_unfold fuel (EConst 0)), (simp_unfold fuel (EArr _)).
    cbn [simp_body map]. unfold or_self. rewrite (simp_unfold fuel (EVar x)). rcalc. reflexivity.
  - rewrite simp_unfold. cbn [simp_body]. rewrite (simp_unfold fuel (EConst 2)), (simp_unfold fuel (EArr _)).
    cbn [simp_body map]. unfold or_self. rewrite (simp_unfold fuel (EVar x)). rcalc. reflexivity.
Qed.
Print Assumptions C31_zero_times_array_refuted.

(** * C32: constants fold; simplification never grows a scalar expression. *)
Theorem C32_constants_fold : forall (K : Type) (EN : ENum K) fuel (e : expr K),
  closed_arith e -> exists c, simplify fuel e = Ret (EConst c).
Proof.
  intros K EN fuel e H. destruct (closed_folds e H) as [c Hc]. exists c.
  rewrite simplify_scalar, Hc; auto. apply closed_scalar; auto.
Qed.
Print Assumptions C32_constants_fold.

(** the number found is the value, when there is one *)
Theorem C32_constants_fold_value : forall fuel (e : expr R) s env v c,
  closed_arith e -> value_of s env e = Some (VN v) -> simplify fuel e = Ret (EConst c) -> c = v.
Proof.
  intros fuel e s env v c He Hv Hs.
  assert (Hu : units_free e).
  { apply units_free_clean. apply closed_scalar, scalar_clean in He. revert He. unfold clean.
    clear. induction e as [c|y|o a IHa|o l r IHl IHr|es IH|d IH] using expr_ind'; simpl; auto; try discriminate.
    rewrite !orb_false_iff. intros (H1 & H2 & H3). repeat split; auto. destruct o; auto; discriminate. }
  assert (Hv' : value_of s (fun _ => None) e = Some (VN v)).
  { rewrite <- Hv. apply eval_ext. clear - He. intros x H. exfalso.
    induction e as [c|y|o a IHa|o l r IHl IHr|es IH|d IH] using expr_ind'; simpl in *; try tauto; try discriminate.
    apply orb_true_iff in H as [H|H]; tauto. }
  assert (H := C31_simplify_preserves_value_partial fuel s (fun _ => None) e (EConst c) (VN v)
    ltac:(intros ? ? H; discriminate) (or_introl Hu) Hs Hv').
  cbn in H. congruence.
Qed.
Print Assumptions C32_constants_fold_value.
Example C32_ex : closed_arith (EBin BPow (EBin BSub (EConst 5) (EConst 2)) (EUn UNeg (EConst (1:R)))).
Proof. repeat split; unfold arith_op; auto 6; discriminate. Qed.

(** simplify always answers on scalar expressions, with an expression which is
    either unchanged or strictly smaller *)
Theorem C32_shrinks : forall (K : Type) (EN : ENum K) fuel (e : expr K), scalar_expr e ->
  exists e', simplify fuel e = Ret e' /\ (e' = e \/ (esize e' < esize e)%nat).
Proof.
  intros K EN fuel e H. exists (ssimp e). split; [apply simplify_scalar; auto|].
  destruct (ssimp_size e H); auto.
Qed.
Print Assumptions C32_shrinks.

(** hence repeating it reaches a fixed point within [esize e] rounds *)
Fixpoint simplify_n {K} {EN : ENum K} (n : nat) (e : expr K) : outcome (expr K) :=
  match n with O => Ret e | S m => do e1 <- simplify_n m e; simplify 0 e1 end.
Theorem C32_fixed_point_reached : forall (K : Type) (EN : ENum K) (e : expr K), scalar_expr e ->
  exists e', simplify_n (esize e) e = Ret e' /\ forall fuel, simplify fuel e' = Ret e'.
Proof.
  intros K EN e H. exists (Nat.iter (esize e) ssimp e).
  assert (G : forall n, simplify_n n e = Ret (Nat.iter n ssimp e) /\ scalar_expr (Nat.iter n ssimp e)).
  { induction n as [|n [IH1 IH2]]; [split; auto|]. cbn [simplify_n]. rewrite IH1. cbn [obind].
    split; [apply (simplify_scalar 0); auto|apply (ssimp_scalar _ IH2)]. }
  split; [apply G|]. intros fuel. rewrite simplify_scalar by apply G. rewrite iter_fix; auto.
Qed.
Print Assumptions C32_fixed_point_reached.

(** one round is enough when no product by the number 0 or 1 is left in the
    result *)
Theorem C32_idempotent_partial : forall (K : Type) (EN : ENum K) fuel (e e' : expr K), scalar_expr e ->
  simplify fuel e = Ret e' -> has_node trivial_product e' = false -> simplify fuel e' = Ret e'.
Proof.
  intros K EN fuel e e' H Hs T. rewrite (simplify_scalar fuel e H) in Hs. injection Hs as <-.
  rewrite simplify_scalar by (apply ssimp_scalar; auto). f_equal. apply wnf_fix; auto using ssimp_scalar, ssimp_wnf.
Qed.
Print Assumptions C32_idempotent_partial.
Example C32_ex_idem : scalar_expr (EBin BMul (EConst 2) (EBin BMul (EConst 3) (EVar (K:=R) "x"))) /\
  has_node trivial_product (EBin BMul (EConst (2*3)) (EVar "x")) = false.
Proof. split; [repeat split; unfold arith_op; auto|]. unfold has_node, trivial_product. rcalc; reflexivity. Qed.

(** ... but not in general: 1/2 * (2*x) becomes 1*x, then x. *)
Theorem C32_idempotent_refuted : forall fuel,
  simplify fuel (EBin BMul (EConst (/2)) (EBin BMul (EConst 2) (EVar "x"))) =
    Ret (EBin BMul (EConst (/2 * 2)) (EVar (K:=R) "x")) /\
  simplify fuel (EBin BMul (EConst (/2 * 2)) (EVar "x")) = Ret (EVar (K:=R) "x").
Proof.
  intros fuel. rewrite !simplify_scalar by (repeat split; unfold arith_op; auto). split; f_equal; unfold ssimp, bstep, is_elem, is_const; rcalc; reflexivity.
Qed.
Print Assumptions C32_idempotent_refuted.

(** * C53: simplification terminates, with a result or an exception, for every
    expression in which no power has an array both in its base and in its exponent. *)
Theorem C53_terminates_partial : forall (K : Type) (EN : ENum K) (e : expr K),
  has_node array_power e = false ->
  exists result enough, (forall fuel, (enough <= fuel)%nat -> simplify fuel e = result) /\
    ((exists e', result = Ret e') \/ result = Throw).
Proof.
  intros K EN e Hp. exists (simplify (weight e) e), (weight e).
  destruct (or_self_good (weight e) e (simp_good _ e Hp (le_n _))) as [H _]. split; [|exact H].
  intros fuel Hf. unfold simplify, or_self in *.
  destruct (simp_more (weight e) fuel e Hf) as [E|E]; [|rewrite E; reflexivity].
  rewrite E in H. destruct H as [[e' H]|H]; discriminate H.
Qed.
Print Assumptions C53_terminates_partial.
Example C53_ex : has_node array_power (EBin BMul (EArr [EArr [EConst 1]])
    (EBin BUnits (EArr [EBin BPow (EArr [EVar (K:=R) "x"]) (EConst 2)]) (EVar "m"))) = false.
Proof. reflexivity. Qed.

(** An array raised to an array never returns: the visitor simplifies the very
    node it was given, again and again (until the stack overflows). *)
Theorem C53_array_power_refuted : forall (K : Type) (EN : ENum K) fuel (x y : string),
  simplify fuel (EBin BPow (EArr [EVar x]) (EArr [EVar y])) = UB (A := expr K).
Proof.
  intros K EN fuel x y. unfold simplify, or_self. rewrite simp_unfold. cbn [simp_body].
  rewrite (simp_unfold fuel (EArr [EVar x])), (simp_unfold fuel (EArr [EVar y])).
  cbn [simp_body map]. unfold or_self. rewrite !(simp_unfold fuel (EVar _)). reflexivity.
Qed.
Print Assumptions C53_array_power_refuted.

(** * C33: substitution. *)
Theorem C33_substitute_variable : forall s env (e rep : expr R) x,
  has_node (dict_mentions x) e = false ->
  exists e', sub_expr e (EBin BEq (EVar x) rep) = Ret e' /\
    value_of s env e' = value_of s (upd_env env x (value_of s env rep)) e.
Proof.
  intros s env e rep x H. exists (sub_var e x rep). split; [reflexivity|].
  rewrite sub_var_subst. unfold value_of. rewrite eval_subst by (intros y; destruct (String.eqb_spec y x); [now subst|congruence]).
  apply eval_ext. intros y _. unfold upd_env. destruct (String.eqb y x); reflexivity.
Qed.
Print Assumptions C33_substitute_variable.

(** Simultaneous substitution by a dictionary: [env'] gives the variables in the
    dictionary the value of their replacement (computed with the old values) and
    leaves all the others alone. *)
Theorem C33_substitute_dictionary : forall s env env' (e : expr R) d,
  (forall y, In y (map fst d) -> has_node (dict_mentions y) e = false) -> NoDup (map fst d) ->
  (forall y r, In (y, r) d -> env' y = value_of s env r) ->
  (forall y, ~ In y (map fst d) -> env' y = env y) ->
  exists e', sub_expr e (EDict d) = Ret e' /\ value_of s env e' = value_of s env' e.
Proof.
  intros s env env' e d H Hd H1 H2. exists (sub_dict e d). split; [reflexivity|].
  rewrite sub_dict_subst. unfold value_of. rewrite eval_subst.
  2: { intros y Hy. apply H. destruct (dfind y d) as [r|] eqn:E; [|congruence]. apply dfind_in in E. now apply (in_map fst) in E. }
  apply eval_ext. intros y _. destruct (dfind y d) as [r|] eqn:E.
  - symmetry; apply H1. apply dfind_in; auto.
  - symmetry; apply H2. apply dfind_none; auto.
Qed.
Print Assumptions C33_substitute_dictionary.
(** a dictionary that does not mention x is no obstacle *)
Example C33_ex_dictionary : let e := EArr [EVar "x"; EDict [("x", EVar (K:=R) "y")]] in
  has_node (dict_mentions "x") e = false /\ ~ dict_free e /\
  sub_expr e (EBin BEq (EVar "x") (EConst 1)) = Ret (EArr [EConst 1; EDict [("x", EVar "y")]]).
Proof. split; [reflexivity|]. split; [discriminate|reflexivity]. Qed.
(** swapping x and y is simultaneous: x - y becomes y - x *)
Example C33_ex_swap : sub_expr (EBin BSub (EVar "x") (EVar "y")) (EDict [("x", EVar "y"); ("y", EVar "x")]) =
  Ret (EBin BSub (EVar "y") (EVar (K:=R) "x")).
Proof. reflexivity. Qed.

Theorem C33_no_occurrence : forall (K : Type) (e rep : expr K) x,
  has_node (is_var x) e = false -> sub_expr e (EBin BEq (EVar x) rep) = Ret e.
Proof.
  intros K e rep x H. unfold sub_expr. f_equal. rewrite sub_var_subst. apply subst_id.
  intros y Hy. destruct (String.eqb_spec y x); [subst; auto|contradiction].
Qed.
Print Assumptions C33_no_occurrence.

(** Values inside dictionaries are not substituted. *)
Theorem C33_inside_dictionary_refuted :
  let e := EDict [("k", EVar "x")] in
  sub_expr e (EBin BEq (EVar "x") (EConst 1)) = Ret e /\
  value_of 1 (nums (fun _ => 0)) e = Some (VD [("k", VN 0)]) /\
  value_of 1 (upd_env (nums (fun _ => 0)) "x" (Some (VN 1))) e = Some (VD [("k", VN 1)]).
Proof. repeat split. Qed.
Print Assumptions C33_inside_dictionary_refuted.

(** * C50: what the substitution argument may be. *)
Theorem C50_argument_kinds : forall (K : Type) (f arg : expr K),
  (((exists d, arg = EDict d) \/ (exists x v, arg = EBin BEq (EVar x) v)) /\ exists g, sub_expr f arg = Ret g) \/
  (~ ((exists d, arg = EDict d) \/ (exists x v, arg = EBin BEq (EVar x) v)) /\ sub_expr f arg = Throw).
Proof.
  intros K f arg.
  assert (T : forall P Q : Prop, ~ P -> Q -> ~ P /\ Q) by tauto.
  destruct arg as [c|y|o a|o l r|es|d]; try (right; apply T; [intros [(? & E)|(? & ? & E)]; discriminate|reflexivity]).
  - destruct o; try (right; apply T; [intros [(? & E)|(? & ? & E)]; discriminate|reflexivity]).
    destruct l; try (right; apply T; [intros [(? & E)|(? & ? & E)]; discriminate|reflexivity]).
    left; split; [right; eauto|]. eexists; reflexivity.
  - left; split; [left; eauto|]. eexists; reflexivity.
Qed.
Print Assumptions C50_argument_kinds.

(** * C34: the symbolic derivative is the derivative. *)

(** At a point where the rules apply: the derivative expression exists, has a
    value there when products by 0 are read as 0 (which is how simplify computes
    it, see C34_computed), this value is the limit of the difference quotient,
    and if the expression has an ordinary value it is the same. *)
Theorem C34_derivative : forall s rho x (f : expr R) v,
  differentiable s rho x f ->
  value_of s (nums rho) f = Some (VN v) ->
  exists D d,
    derivative f (EVar x) = Ret D /\
    eval true s (nums rho) D = Some (VN d) /\
    has_derivative (fun t => value_of s (nums (upd_num rho x t)) f) (rho x) d /\
    (forall w, value_of s (nums rho) D = Some w -> w = VN d).
Proof.
  intros s rho x f v Hd Hv. destruct (deriv_correct s rho x f v Hd Hv) as (D & d & H1 & H2 & H3).
  exists D, d. repeat split; auto. intros w Hw. apply eval_lazy in Hw. congruence.
Qed.
Print Assumptions C34_derivative.

(** The number that the library computes: substitute numbers for all variables
    in the derivative, then simplify. *)
Fixpoint over (vs : list string) (e : expr R) : Prop :=
  match e with
  | EConst _ => True
  | EVar y => In y vs
  | EUn o a => o <> UArb /\ over vs a
  | EBin o l r => arith_op o /\ over vs l /\ over vs r
  | _ => False
  end.

Lemma deriv_over vs x f : over vs f -> forall D, deriv x f = Ret D -> over vs D.
Proof.
  induction f as [c|y|o a IHa|o l r IHl IHr|es IH|dd IH] using expr_ind'; intros H D HD.
  - injection HD as <-; simpl; auto.
  - injection HD as <-; simpl; auto.
  - destruct H as [Ho H]. cbn [deriv] in HD. apply obind_ret in HD as (d & Hd & E). injection E as <-.
    specialize (IHa H d Hd). unfold arith_op.
    destruct o; simpl; unfold arith_op; repeat split; auto 10; try discriminate; congruence.
  - destruct H as (Ho & Hl & Hr). unfold arith_op in Ho.
    destruct Ho as [->|[->|[->|[->| ->]]]]; cbn [deriv] in HD;
      apply obind_ret in HD as (dl & Hdl & HD); apply obind_ret in HD as (dr & Hdr & E); injection E as <-;
      specialize (IHl Hl dl Hdl); specialize (IHr Hr dr Hdr);
      simpl; unfold arith_op; repeat split; auto 10; try discriminate.
  - destruct H.
  - destruct H.
Qed.

Lemma dfind_map {A} (g : string -> A) vs y : In y vs -> dfind y (map (fun z => (z, g z)) vs) = Some (g y).
Proof.
  induction vs as [|z vs IH]; simpl; [tauto|]. intros [->|H].
  - rewrite String.eqb_refl; auto.
  - destruct (String.eqb_spec y z); [subst; auto|auto].
Qed.

(** Substituting numbers for all the variables of a scalar expression and
    simplifying gives its value. *)
Lemma evaluate_over fuel s rho vs (D : expr R) d : over vs D -> eval true s (nums rho) D = Some (VN d) ->
  simplify fuel (sub_dict D (map (fun y => (y, EConst (rho y))) vs)) = Ret (EConst d).
Proof.
  intros HD H2. set (dd := map (fun y => (y, EConst (rho y))) vs).
  assert (Hdf : dict_free D).
  { clear - HD. unfold dict_free. induction D as [c|y|o a IHa|o l r IHl IHr|es IH|dd IH] using expr_ind'; simpl in *; try tauto.
    destruct HD as (_ & ? & ?). rewrite IHl, IHr; auto. }
  rewrite sub_dict_subst.
  assert (Hcl : closed_arith (subst (fun y => dfind y dd) D)).
  { clear - HD. induction D as [c|y|o a IHa|o l r IHl IHr|es IH|d IH] using expr_ind'; simpl in *; try tauto.
    unfold dd. rewrite (dfind_map (fun y => EConst (rho y))) by auto. exact I. }
  assert (Hev : eval true s (fun _ => None) (subst (fun y => dfind y dd) D) = Some (VN d)).
  { rewrite eval_subst by (intros y _; now apply mentions_free). rewrite <- H2. clear - HD.
    induction D as [c|y|o a IHa|o l r IHl IHr|es IH|d IH] using expr_ind'; try (destruct HD; fail).
    - reflexivity.
    - simpl in HD. cbn [eval]. unfold dd. rewrite (dfind_map (fun y => EConst (rho y))) by auto. reflexivity.
    - destruct HD as [_ HD]. cbn [eval]. rewrite IHa; auto.
    - destruct HD as (_ & ? & ?). rewrite !eval_bin, IHl, IHr; auto. }
  destruct (C32_constants_fold R R_enum fuel _ Hcl) as [c Hc]. rewrite Hc. do 2 f_equal.
  unfold simplify, or_self in Hc. apply obind_ret in Hc as (m & Hm & E). injection E as E.
  assert (Hok : okx true (subst (fun y => dfind y dd) D)).
  { assert (Hs := closed_scalar _ Hcl). apply scalar_clean in Hs. clear - Hs.
    assert (G : forall pb pa pd, (forall o, pb o = true -> pbS o = true) ->
       clean pb pa pd (subst (fun y => dfind y dd) D)).
    { intros pb pa pd Hpb. revert Hs. generalize (subst (fun y => dfind y dd) D). clear - Hpb.
      intros e. unfold clean.
      induction e as [c|y|o a IHa|o l r IHl IHr|es IH|d IH] using expr_ind'; simpl; auto; try discriminate.
      rewrite !orb_false_iff. intros (H1 & H2 & H3). repeat split; auto.
      destruct (pb o) eqn:Eo; auto. apply Hpb in Eo. congruence. }
    right. rewrite array_free_clean, units_free_clean.
    assert (U : units_free (subst (fun y => dfind y dd) D)) by (apply units_free_clean, G; intros []; simpl; auto).
    repeat split.
    - apply G. discriminate.
    - clear - U. unfold units_free in U. unfold nur. revert U. generalize (subst (fun y => dfind y dd) D).
      intros e. induction e as [c|y|o a IHa|o l r IHl IHr|es IH|d IH] using expr_ind'; simpl; auto.
      + rewrite !orb_false_iff. intros (H1 & H2 & H3). repeat split; auto. destruct o; auto.
      + intros H. induction es as [|e es IHes]; auto. simpl in *. apply orb_false_iff in H as []. inversion IH; subst.
        apply orb_false_iff; auto.
      + intros H. induction d as [|e es IHes]; auto. simpl in *. apply orb_false_iff in H as []. inversion IH; subst.
        apply orb_false_iff; auto.
    - intros _. apply units_free_clean; auto. }
  destruct (simp_value fuel true s (fun _ => None) _ m (VN d) ltac:(intros ? ? ?; discriminate) Hok Hm Hev) as [Hf _].
  unfold keep in Hf. rewrite E in Hf. cbn in Hf. congruence.
Qed.

Theorem C34_computed : forall fuel s rho x vs (f : expr R) v,
  over vs f -> differentiable s rho x f -> value_of s (nums rho) f = Some (VN v) ->
  exists D D' d,
    derivative f (EVar x) = Ret D /\
    sub_expr D (EDict (map (fun y => (y, EConst (rho y))) vs)) = Ret D' /\
    simplify fuel D' = Ret (EConst d) /\
    has_derivative (fun t => value_of s (nums (upd_num rho x t)) f) (rho x) d.
Proof.
  intros fuel s rho x vs f v Ho Hd Hv.
  destruct (deriv_correct s rho x f v Hd Hv) as (D & d & H1 & H2 & H3).
  exists D, (sub_dict D (map (fun y => (y, EConst (rho y))) vs)), d. split; [auto|]. split; [reflexivity|]. split; [|auto].
  apply (evaluate_over fuel s rho vs D d (deriv_over vs x f Ho D H1) H2).
Qed.
Print Assumptions C34_computed.

(** Only a variable can be differentiated by: anything else is reported. *)
Theorem C34_needs_variable : forall (f v : expr R), (forall x, v <> EVar x) -> derivative f v = Throw.
Proof. intros f v H. destruct v; try reflexivity. exfalso. eapply H. reflexivity. Qed.
Print Assumptions C34_needs_variable.

(** x^2 at x = -3: ln(-3) has no value, but the derivative is computed *)
Example C34_ex : over ["x"] (EBin BPow (EVar "x") (EConst 2)) /\
  differentiable 1 (fun _ => -3) "x" (EBin BPow (EVar "x") (EConst 2)) /\
  value_of 1 (nums (fun _ => -3)) (EBin BPow (EVar "x") (EConst 2)) = Some (VN (powerRZ (-3) 2)).
Proof.
  split; [simpl; unfold arith_op; auto 10|]. split.
  - simpl. repeat split; auto 10. intros _. right. split; auto. exists 2%Z. reflexivity.
  - unfold value_of. cbn [eval nums vbin nbin]. rewrite (npow_int (-3) 2); [reflexivity|]. left; lra.
Qed.

(** Outside these conditions the library can return a number for the derivative
    of a function that has none: the square root of x^2 at 0. *)
Theorem C34_square_root_refuted :
  let f := EBin BPow (EBin BPow (EVar "x") (EConst 2)) (EConst (/2)) in
  let rho := fun _ : string => 0 in
  exists D D', derivative f (EVar "x") = Ret D /\
    sub_expr D (EDict [("x", EConst 0)]) = Ret D' /\
    eval true 1 (fun _ => None) D' = Some (VN 0) /\
    forall d, ~ has_derivative (fun t => value_of 1 (nums (upd_num rho "x" t)) f) 0 d.
Proof.
  intros f rho. eexists. eexists. split; [reflexivity|]. split; [reflexivity|]. split.
  - cbn -[obin eval]. rewrite !eval_bin. cbn -[obin npow]. 
    assert (N2 : npow 0 2 = Some 0).
    { change 2 with (IZR 2). rewrite npow_int by (right; lia). f_equal. simpl. ring. }
    assert (N1 : npow 0 (2 - 1) = Some 0).
    { replace (2 - 1) with (IZR 1) by lra. rewrite npow_int by (right; lia). f_equal. simpl. ring. }
    assert (E0 : forall w, obin true BMul (Some (VN 0)) w = Some (VN 0)) by (intros; apply mul_lz0).
    assert (E2 : obin true BMul (Some (VN 2)) (Some (VN 1)) = Some (VN 2)) by (rewrite mul_lzn; do 2 f_equal; lra).
    rewrite !E0.
    rewrite E2. cbn -[npow]. rewrite ?N1, ?N2. rcalc.
    repeat match goal with |- context [Req_EM_T ?a ?b] => destruct (Req_EM_T a b) as [?E|?E]; try (exfalso; apply E; lra) end; cbn.
    all: try (exfalso; lra).
    all: do 2 f_equal; lra.
  - intros d (F & (dl & H0 & H1) & H2).
    assert (HF : forall t, Rabs (t - 0) < dl -> F t = Rabs t).
    { intros t Ht. specialize (H1 t Ht). unfold value_of, f in H1. cbn [eval] in H1.
      unfold nums, upd_num in H1. simpl String.eqb in H1. cbv iota in H1.
      cbn [vbin nbin option_map] in H1. change 2 with (IZR 2) in H1. rewrite npow_int in H1 by (right; lia).
      cbn [option_map vbin nbin] in H1. replace (powerRZ t 2) with (Rsqr t) in H1 by (unfold Rsqr; simpl; ring).
      unfold npow in H1. destruct (Rlt_dec 0 (Rsqr t)) as [Hp|Hn].
      - cbn in H1. injection H1 as <-. rewrite Rpower_sqrt by auto. rewrite sqrt_Rsqr_abs; auto.
      - assert (Ht0 : Rsqr t = 0) by (pose proof (Rle_0_sqr t); lra). apply Rsqr_0_uniq in Ht0. subst t.
        destruct (int_of (/2)) as [z|] eqn:Ei.
        + unfold int_of in Ei. destruct (Req_EM_T _ _) as [E|]; [|discriminate]. injection Ei as <-. exfalso.
          assert (E' : IZR (2 * Int_part (/2)) = IZR 1) by (rewrite mult_IZR, E; lra). apply eq_IZR in E'. lia.
        + rewrite Rsqr_0 in H1. destruct (Req_EM_T 0 0); [|lra]. destruct (Rlt_dec 0 (/2)); [|lra].
          cbn in H1. injection H1 as <-. rewrite Rabs_R0; auto. }
    assert (F0 : F 0 = 0) by (rewrite HF; [apply Rabs_R0|rewrite Rminus_0_r, Rabs_R0; auto]).
    destruct (H2 (1/2) ltac:(lra)) as [dl2 Hq].
    set (h := Rmin (dl/2) (dl2/2)).
    assert (Hh : 0 < h) by (apply Rmin_glb_lt; [lra|pose proof (cond_pos dl2); lra]).
    assert (Hh1 : h < dl) by (pose proof (Rmin_l (dl/2) (dl2/2)); unfold h; lra).
    assert (Hh2 : h < dl2) by (pose proof (Rmin_r (dl/2) (dl2/2)); pose proof (cond_pos dl2); unfold h; lra).
    assert (Hp := Hq h ltac:(lra) ltac:(rewrite Rabs_right; lra)).
    assert (Hm := Hq (-h) ltac:(lra) ltac:(rewrite Rabs_left; lra)).
    rewrite !Rplus_0_l, F0 in *.
    rewrite HF in Hp by (rewrite Rminus_0_r, Rabs_right; lra).
    rewrite HF in Hm by (rewrite Rminus_0_r, Rabs_left; lra).
    rewrite (Rabs_right h) in Hp by lra. rewrite Rabs_Ropp in Hm. rewrite (Rabs_right h) in Hm by lra.
    replace ((h - 0) / h) with 1 in Hp by (field; lra).
    replace ((h - 0) / - h) with (-1) in Hm by (field; lra).
    apply Rabs_def2 in Hp. apply Rabs_def2 in Hm. lra.
Qed.
Print Assumptions C34_square_root_refuted.

(** * C30: equality of expressions. *)
Lemma R_neqb_spec : forall a b : R, @neqb R (@enum_num R R_enum) a b = true <-> a = b.
Proof. apply Reqb_true. Qed.

Theorem C30_equality_is_an_equivalence :
  (forall a : expr R, dicts_ok a -> eeqb a a = true) /\
  (forall a b : expr R, dicts_ok a -> dicts_ok b -> eeqb a b = true -> eeqb b a = true) /\
  (forall a b c : expr R, eeqb a b = true -> eeqb b c = true -> eeqb a c = true).
Proof.
  repeat split; intros; [apply eeqb_refl'|apply eeqb_sym'|eapply eeqb_trans']; eauto using R_neqb_spec.
Qed.
Print Assumptions C30_equality_is_an_equivalence.

(** Without dictionaries it is identity of trees, so equal expressions cannot be
    told apart by hashing, evaluation or anything else. *)
Theorem C30_equality_is_identity : forall a b : expr R,
  dict_free a -> (eeqb a b = true <-> a = b).
Proof.
  intros a b H. split; [apply eeqb_dict_free; auto using R_neqb_spec|]. intros <-.
  apply eeqb_refl'; [exact R_neqb_spec|]. revert H. unfold dict_free.
  induction a as [c|y|o a IHa|o l r IHl IHr|es IH|d IH] using expr_ind'; simpl; auto; try discriminate.
  - rewrite orb_false_iff. intros []; auto.
  - intros H. induction es as [|e es IHes]; auto. simpl in H. apply orb_false_iff in H as []. inversion IH; subst. split; [auto|apply IHes; auto].
Qed.
Print Assumptions C30_equality_is_identity.

Theorem C30_hash_respects_equality_partial : forall hstr hnum (a b : expr R),
  dict_free a -> eeqb a b = true -> ehash hstr hnum a = ehash hstr hnum b.
Proof. intros hstr hnum a b H E. apply C30_equality_is_identity in E; auto. subst; auto. Qed.
Print Assumptions C30_hash_respects_equality_partial.

Definition swapped_dicts : expr R * expr R :=
  (EDict [("x", EConst 1); ("y", EConst 2)], EDict [("y", EConst 2); ("x", EConst 1)]).
Example C30_ex : eeqb (fst swapped_dicts) (snd swapped_dicts) = true /\ dicts_ok (fst swapped_dicts).
Proof.
  split; [unfold swapped_dicts; rcalc; reflexivity|].
  simpl. repeat split; auto. repeat constructor; simpl; intuition discriminate.
Qed.

(** Equal dictionaries iterated in a different order hash differently, for every
    pair of values of the hash functions on numbers and for the string hash
    "first character". *)
Theorem C30_hash_dictionaries_refuted : exists hstr hnum (a b : expr R),
  dicts_ok a /\ dicts_ok b /\ eeqb a b = true /\ ehash hstr hnum a <> ehash hstr hnum b.
Proof.
  exists (fun s => match s with String c _ => Ascii.N_of_ascii c | EmptyString => 0%N end), (fun _ => 7%N),
    (fst swapped_dicts), (snd swapped_dicts).
  split; [|split; [|split]].
  - simpl. repeat split; auto. repeat constructor; simpl; intuition discriminate.
  - simpl. repeat split; auto. repeat constructor; simpl; intuition discriminate.
  - apply C30_ex.
  - vm_compute. discriminate.
Qed.
Print Assumptions C30_hash_dictionaries_refuted.

(** * C38: quantities with units. *)
Section Units.
Context {K : Type} {EN : ENum K}.

Lemma simp_units fuel (m u m' u' : expr K) :
  simplify fuel m = Ret m' -> simplify fuel u = Ret u' ->
  is_const m' n0 = false -> is_const u' n1 = false ->
  simp fuel (EBin BUnits m u) = Ret (Some (EBin BUnits m' u')).
Proof.
  unfold simplify, or_self. intros Hm Hu H0 H1.
  apply obind_ret in Hm as (mm & Hm & E). injection E as Em.
  apply obind_ret in Hu as (mu & Hu & E). injection E as Eu.
  rewrite simp_unfold. cbn [simp_body]. rewrite Hm, Hu. cbn [obind]. rewrite Em, Eu.
  cbn [left_zero left_identity right_zero right_identity is_elem]. rewrite H0, H1.
  destruct m'; try reflexivity. destruct u'; reflexivity.
Qed.
End Units.

(** Both magnitudes and both units are combined separately.  [m'], [u'], ... are
    the simplified parts; a magnitude 0 or a unit 1 makes the quantity a plain
    number before the product is formed. *)
Theorem C38_quantity_times_quantity : forall (K : Type) (EN : ENum K) fuel (m u n w m' u' n' w' : expr K),
  simplify fuel m = Ret m' -> simplify fuel u = Ret u' ->
  simplify fuel n = Ret n' -> simplify fuel w = Ret w' ->
  is_const m' n0 = false -> is_const u' n1 = false -> is_const n' n0 = false -> is_const w' n1 = false ->
  simplify fuel (EBin BMul (EBin BUnits m u) (EBin BUnits n w)) =
    Ret (EBin BUnits (EBin BMul m' n') (EBin BMul u' w')) /\
  simplify fuel (EBin BDiv (EBin BUnits m u) (EBin BUnits n w)) =
    Ret (EBin BUnits (EBin BDiv m' n') (EBin BDiv u' w')).
Proof.
  intros. unfold simplify, or_self. split; rewrite simp_unfold; cbn [simp_body];
    rewrite !simp_units with (m' := m') (u' := u') by auto;
    rewrite !simp_units with (m' := n') (u' := w') by auto; reflexivity.
Qed.
Print Assumptions C38_quantity_times_quantity.

(** The value in base units is preserved, for scalar magnitudes and units. *)
Theorem C38_value_preserved : forall fuel s env (m u n w m' u' n' w' : expr R) v,
  scalar_env env ->
  array_free m -> array_free u -> array_free n -> array_free w ->
  units_free m -> units_free u -> units_free n -> units_free w ->
  simplify fuel m = Ret m' -> simplify fuel u = Ret u' ->
  simplify fuel n = Ret n' -> simplify fuel w = Ret w' ->
  is_const m' n0 = false -> is_const u' n1 = false -> is_const n' n0 = false -> is_const w' n1 = false ->
  (forall e', simplify fuel (EBin BMul (EBin BUnits m u) (EBin BUnits n w)) = Ret e' ->
     value_of s env (EBin BMul (EBin BUnits m u) (EBin BUnits n w)) = Some v -> value_of s env e' = Some v) /\
  (forall e', simplify fuel (EBin BDiv (EBin BUnits m u) (EBin BUnits n w)) = Ret e' ->
     value_of s env (EBin BDiv (EBin BUnits m u) (EBin BUnits n w)) = Some v -> value_of s env e' = Some v).
Proof.
  intros fuel s env m u n w m' u' n' w' v Henv Am Au An Aw Um Uu Un Uw Sm Su Sn Sw Z1 Z2 Z3 Z4.
  destruct (C38_quantity_times_quantity R R_enum fuel m u n w m' u' n' w') as [E1 E2]; auto.
  assert (P : forall a a', units_free a -> simplify fuel a = Ret a' ->
    forall v, value_of s env a = Some v -> value_of s env a' = Some v).
  { intros a a' Ha Hs v0. eapply C31_simplify_preserves_value_partial; eauto. }
  assert (Inv : forall o va vb v, (match va, vb with Some x, Some y => vbin o x y | _, _ => None end) = Some v ->
     exists x y, va = Some x /\ vb = Some y /\ vbin o x y = Some v).
  { intros o [va|] [vb|] v0 H; try discriminate. eauto. }
  assert (NA : forall a v0, array_free a -> value_of s env a = Some v0 -> isVA v0 = false).
  { intros a v0 Ha H. eapply array_free_notVA; eauto. }
  assert (G : forall o (nf : R -> R -> option R), (forall x y, nbin o x y = nf x y) ->
     forall v, match value_of s env (EBin BUnits m u), value_of s env (EBin BUnits n w) with
         Some x, Some y => vbin o x y | _, _ => None end = Some v ->
     exists a b c d, value_of s env m = Some (VN a) /\ value_of s env u = Some (VN b) /\
       value_of s env n = Some (VN c) /\ value_of s env w = Some (VN d) /\
       option_map VN (nf (a * b) (c * d)) = Some v).
  { intros o nf Hnf v0 H. apply Inv in H as (x & y & Hx & Hy & H).
    unfold value_of in Hx, Hy. cbn [eval] in Hx, Hy.
    apply Inv in Hx as (a & b & Ha & Hb & Hx). apply Inv in Hy as (c & d & Hc & Hd & Hy).
    assert (NAa := NA _ _ Am Ha). assert (NAb := NA _ _ Au Hb). assert (NAc := NA _ _ An Hc). assert (NAd := NA _ _ Aw Hd).
    destruct a as [a| | |], b as [b| | |]; try discriminate.
    destruct c as [c| | |], d as [d| | |]; try discriminate.
    exists a, b, c, d. repeat split; auto.
    injection Hx as <-. injection Hy as <-. cbn [vbin] in H. rewrite Hnf in H. exact H. }
  split; intros e' He' Hv.
  - rewrite E1 in He'. injection He' as <-.
    destruct (G BMul (fun x y => Some (x * y)) ltac:(reflexivity) v Hv) as (a & b & c & d & Ha & Hb & Hc & Hd & E).
    injection E as <-. apply (P m m') in Ha; auto. apply (P u u') in Hb; auto.
    apply (P n n') in Hc; auto. apply (P w w') in Hd; auto.
    unfold value_of in *. cbn [eval andb]. rewrite Ha, Hb, Hc, Hd. cbn. do 2 f_equal; ring.
  - rewrite E2 in He'. injection He' as <-.
    destruct (G BDiv (fun x y => if Req_EM_T y 0 then None else Some (x / y)) ltac:(reflexivity) v Hv)
      as (a & b & c & d & Ha & Hb & Hc & Hd & E).
    destruct (Req_EM_T (c * d) 0) as [|Hn]; [discriminate|].
    injection E as <-. apply (P m m') in Ha; auto. apply (P u u') in Hb; auto.
    apply (P n n') in Hc; auto. apply (P w w') in Hd; auto.
    assert (c <> 0) by (intros ->; lra). assert (d <> 0) by (intros ->; lra).
    unfold value_of in *. cbn [eval andb]. rewrite Ha, Hb, Hc, Hd. cbn.
    destruct (Req_EM_T c 0); [contradiction|]. destruct (Req_EM_T d 0); [contradiction|]. cbn.
    do 2 f_equal. field; auto.
Qed.
Print Assumptions C38_value_preserved.
Example C38_ex : forall fuel, simplify fuel (EConst 3) = Ret (EConst (3:R)) /\
  simplify fuel (EVar (K:=R) "m") = Ret (EVar "m") /\ is_const (EConst (3:R)) n0 = false /\ is_const (EVar (K:=R) "m") n1 = false.
Proof. intros. rewrite !simplify_scalar by exact I. repeat split. unfold is_const. rcalc; reflexivity. Qed.

(** Quantity times plain expression. *)
Theorem C38_quantity_times_scalar : forall (K : Type) (EN : ENum K) fuel (m u x m' u' x' : expr K),
  simplify fuel m = Ret m' -> simplify fuel u = Ret u' -> simplify fuel x = Ret x' ->
  is_const m' n0 = false -> is_const u' n1 = false ->
  is_const x' n0 = false -> is_const x' n1 = false -> is_units x' = false -> is_array x' = false ->
  simplify fuel (EBin BMul (EBin BUnits m u) x) = Ret (EBin BUnits (EBin BMul m' x') u').
Proof.
  intros K EN fuel m u x m' u' x' Hm Hu Hx H1 H2 H3 H4 H5 H6.
  unfold simplify, or_self in Hx |- *. apply obind_ret in Hx as (mx & Hx & E). injection E as Ex.
  rewrite simp_unfold. cbn [simp_body].
  rewrite (simp_units fuel m u m' u') by auto. cbn [obind]. rewrite Hx. cbn [obind]. rewrite Ex.
  cbn [left_zero left_identity right_zero right_identity is_elem]. rewrite H3, H4. cbn [is_const].
  destruct x' as [c|y|o a|o l r|es|d]; try discriminate; try reflexivity. destruct o; try discriminate; reflexivity.
Qed.
Print Assumptions C38_quantity_times_scalar.

(** Plain expression times quantity puts the magnitude where the unit belongs:
    x * (m{u}) becomes (x*m){m} for every simplified x, m, u that is neither 0
    nor 1 (and x not a product with a number). *)
Theorem C38_scalar_times_quantity_refuted : forall (fuel : nat),
  simplify fuel (EBin BMul (EVar "x") (EBin BUnits (EConst 3) (EVar "cm"))) =
    Ret (EBin BUnits (EBin BMul (EVar "x") (EConst (3:R))) (EConst 3)) /\
  forall rho s, rho "x" <> 0 -> rho "cm" <> 3 ->
    value_of s (nums rho) (EBin BUnits (EBin BMul (EVar "x") (EConst 3)) (EConst 3)) <>
    value_of s (nums rho) (EBin BMul (EVar "x") (EBin BUnits (EConst 3) (EVar "cm"))).
Proof.
  intros fuel. split.
  - unfold simplify, or_self. rewrite simp_unfold. cbn [simp_body].
    destruct (C38_ex fuel) as (A & _ & C & _).
    rewrite (simp_units fuel (EConst 3) (EVar "cm") (EConst 3) (EVar "cm"))
      by (auto; apply simplify_scalar; exact I).
    rewrite (simp_unfold fuel (EVar "x")). reflexivity.
  - intros rho s Hx Hc E. unfold value_of in E. cbn in E. injection E as E.
    assert (rho "x" * (rho "cm" - 3) = 0) by lra.
    apply Rmult_integral in H as [|]; [contradiction|lra].
Qed.
Print Assumptions C38_scalar_times_quantity_refuted.

(** An uncertainty l±r whose uncertainty simplifies to the number 0 becomes l;
    any other keeps both simplified parts. *)
Theorem C38_uncertainty : forall (K : Type) (EN : ENum K) fuel (l r l' r' : expr K),
  simplify fuel l = Ret l' -> simplify fuel r = Ret r' ->
  (is_const r' n0 = true -> simplify fuel (EBin BUnc l r) = Ret l') /\
  (is_const r' n0 = false -> simplify fuel (EBin BUnc l r) = Ret (EBin BUnc l' r')).
Proof.
  intros K EN fuel l r l' r' Hl Hr. unfold simplify, or_self in *.
  apply obind_ret in Hl as (ml & Hl & E). injection E as El.
  apply obind_ret in Hr as (mr & Hr & E). injection E as Er.
  split; intros H0; rewrite simp_unfold; cbn [simp_body]; rewrite Hl, Hr; cbn [obind]; rewrite El, Er;
    cbn [left_zero left_identity right_zero right_identity is_elem]; rewrite H0; [reflexivity|].
  destruct l'; try reflexivity. destruct r'; reflexivity.
Qed.
Print Assumptions C38_uncertainty.
Example C38_uncertainty_ex : forall fuel,
  simplify fuel (EBin BUnc (EVar "x") (EConst (0:R))) = Ret (EVar "x") /\
  simplify fuel (EBin BUnc (EVar "x") (EConst (1:R))) = Ret (EBin BUnc (EVar "x") (EConst 1)).
Proof.
  intros fuel. split; (eapply C38_uncertainty; [apply simplify_scalar; exact I|apply simplify_scalar; exact I|]); unfold is_const; rcalc; reflexivity.
Qed.

(** Quantity times array: the array of the products of the magnitude with the
    elements, under the quantity's unit. *)
Theorem C38_quantity_times_array : forall (K : Type) (EN : ENum K) fuel (m u x m' u' : expr K) ys,
  simplify fuel m = Ret m' -> simplify fuel u = Ret u' -> simplify fuel x = Ret (EArr ys) ->
  is_const m' n0 = false -> is_const u' n1 = false ->
  simplify fuel (EBin BMul (EBin BUnits m u) x) = Ret (EBin BUnits (EArr (map (fun y => EBin BMul m' y) ys)) u').
Proof.
  intros K EN fuel m u x m' u' ys Hm Hu Hx H1 H2.
  unfold simplify, or_self in Hx |- *. apply obind_ret in Hx as (mx & Hx & E). injection E as Ex.
  rewrite simp_unfold. cbn [simp_body].
  rewrite (simp_units fuel m u m' u') by auto. cbn [obind]. rewrite Hx. cbn [obind]. rewrite Ex.
  reflexivity.
Qed.
Print Assumptions C38_quantity_times_array.

(** Array times quantity: the elements times the magnitude, but under the
    magnitude, not the unit (the defect of C38_scalar_times_quantity_refuted). *)
Theorem C38_array_times_quantity_refuted : forall (K : Type) (EN : ENum K) fuel (m u x m' u' : expr K) xs,
  simplify fuel m = Ret m' -> simplify fuel u = Ret u' -> simplify fuel x = Ret (EArr xs) ->
  is_const m' n0 = false -> is_const u' n1 = false ->
  simplify fuel (EBin BMul x (EBin BUnits m u)) = Ret (EBin BUnits (EArr (map (fun y => EBin BMul y m') xs)) m').
Proof.
  intros K EN fuel m u x m' u' xs Hm Hu Hx H1 H2.
  unfold simplify, or_self in Hx |- *. apply obind_ret in Hx as (mx & Hx & E). injection E as Ex.
  rewrite simp_unfold. cbn [simp_body].
  rewrite (simp_units fuel m u m' u') by auto. rewrite Hx. cbn [obind]. rewrite Ex.
  reflexivity.
Qed.
Print Assumptions C38_array_times_quantity_refuted.
Example C38_array_quantity_ex : forall fuel,
  simplify fuel (EBin BMul (EBin BUnits (EConst 3) (EVar "m")) (EArr [EVar "x"])) =
    Ret (EBin BUnits (EArr [EBin BMul (EConst (3:R)) (EVar "x")]) (EVar "m")) /\
  simplify fuel (EBin BMul (EArr [EVar "x"]) (EBin BUnits (EConst 3) (EVar "m"))) =
    Ret (EBin BUnits (EArr [EBin BMul (EVar "x") (EConst (3:R))]) (EConst 3)).
Proof.
  intros fuel. destruct (C38_ex fuel) as (A & B & C & D).
  assert (X : simplify fuel (EArr [EVar (K:=R) "x"]) = Ret (EArr [EVar "x"])).
  { unfold simplify, or_self. rewrite simp_unfold. cbn [simp_body map]. rewrite (simp_unfold fuel (EVar "x")). reflexivity. }
  split.
  - apply (C38_quantity_times_array R R_enum fuel _ _ _ (EConst 3) (EVar "m") [EVar "x"]); auto.
  - apply (C38_array_times_quantity_refuted R R_enum fuel _ _ _ (EConst 3) (EVar "m") [EVar "x"]); auto.
Qed.
