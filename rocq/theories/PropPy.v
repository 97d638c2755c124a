(** C49, C56: the Python binding. *)
From Coq Require Import Reals Lra Bool List String.
From Verif Require Import Outcome Num ExprModel ExprSpec ExprBase ExprSimp ExprVal ExprSub ExprDeriv ExprFold PropExpr PyModel.
Import ListNotations.
Open Scope R_scope.

(** ** Specification *)
(** The value a Python object stands for. *)
Fixpoint pyval (s : R) (env : string -> option value) (o : pyobj R) : option value :=
  match o with
  | PyFloat c => Some (VN c)
  | PyExpr e => value_of s env e
  | PyList l => option_map VA (all_some (map (pyval s env) l))
  | PyDict d =>
      option_map VD
        ((fix go (d : list (string * pyobj R)) : option (list (string * value)) :=
            match d with
            | [] => Some []
            | (k, a) :: t => match pyval s env a, go t with Some v, Some r => Some ((k, v) :: r) | _, _ => None end
            end) d)
  end.

(** ** Proofs *)
Lemma simplify_units_free fuel (e e' : expr R) : units_free e -> simplify fuel e = Ret e' -> units_free e'.
Proof.
  intros U H. unfold simplify, or_self in H. apply obind_ret in H as (m & Hm & E). injection E as <-.
  destruct m as [x|]; auto. apply units_free_clean in U. apply units_free_clean. eapply simp_clean; eauto.
Qed.

Lemma to_python_value fuel s env : scalar_env env -> forall depth e o v, units_free e ->
  to_python fuel depth e = Ret o -> value_of s env e = Some v -> pyval s env o = Some v.
Proof.
  intros Henv depth. induction depth as [|n IH]; intros e o v U H Hv; [discriminate|].
  cbn [to_python] in H. apply obind_ret in H as (b & Hb & H).
  pose proof (C31_simplify_preserves_value_partial fuel s env e b v Henv (or_introl U) Hb Hv) as Hvb.
  pose proof (simplify_units_free _ _ _ U Hb) as Ub. clear Hb Hv U e.
  destruct b as [c|x|u a|q l r|es|d]; try (injection H as <-; exact Hvb).
  - apply obind_ret in H as (l & Hl & H). injection H as <-. apply oseq_ret in Hl.
    apply units_free_clean, clean_arr in Ub as [_ Ub]. unfold value_of in Hvb. cbn [eval] in Hvb. cbn [pyval].
    destruct (all_some (map (eval false s env) es)) as [vs|] eqn:E; [|discriminate]. cbn in Hvb. injection Hvb as <-.
    enough (X : all_some (map (pyval s env) l) = Some vs) by (rewrite X; reflexivity).
    revert l vs Hl E. induction es as [|e es IHes]; intros l vs Hl E; inversion Hl as [|? w ? l' Ho Hr]; subst.
    + exact E.
    + apply Forall_cons_iff in Ub as [Ue Ub]. cbn [map all_some] in E |- *.
      destruct (eval false s env e) as [v|] eqn:Ee; [|discriminate].
      destruct (all_some (map (eval false s env) es)) as [t|] eqn:Et; [|discriminate]. injection E as <-.
      rewrite (IH e w v) by (auto; apply units_free_clean; auto). rewrite (IHes Ub _ _ Hr eq_refl). reflexivity.
  - apply obind_ret in H as (l & Hl & H). injection H as <-. apply oseq_ret in Hl.
    apply units_free_clean, clean_dict in Ub as [_ Ub]. unfold value_of in Hvb. cbn [eval] in Hvb. cbn [pyval].
    match type of Hvb with option_map VD ?t = _ => destruct t as [vs|] eqn:E; [|discriminate] end. cbn in Hvb. injection Hvb as <-.
    match goal with |- option_map VD ?t = _ => enough (X : t = Some vs) by (rewrite X; reflexivity) end.
    revert l vs Hl E. induction d as [|[k e] d IHd]; intros l vs Hl E; inversion Hl as [|? w ? l' Ho Hr]; subst.
    + exact E.
    + apply Forall_cons_iff in Ub as [Ue Ub]. apply obind_ret in Ho as (o & Ho & E'). injection E' as <-. cbn [fst snd] in *.
      destruct (eval false s env e) as [v|] eqn:Ee; [|discriminate].
      match type of E with match ?t with _ => _ end = _ => destruct t as [t'|] eqn:Et; [|discriminate] end. injection E as <-.
      rewrite (IH e o v) by (auto; apply units_free_clean; auto). rewrite (IHd Ub _ _ Hr eq_refl). reflexivity.
Qed.

(** ** C49: operators *)
Definition basic (o : bop) : Prop := o = BAdd \/ o = BSub \/ o = BMul \/ o = BDiv.

(** expression o expression: the object stands for the value of l o r. *)
Theorem C49_operators : forall fuel depth s env o (l r : expr R) v w z obj,
  scalar_env env -> basic o -> units_free l -> units_free r ->
  value_of s env l = Some v -> value_of s env r = Some w -> vbin o v w = Some z ->
  py_op fuel depth o l r = Ret obj -> pyval s env obj = Some z.
Proof.
  intros fuel depth s env o l r v w z obj Henv Ho Ul Ur Hl Hr Hz H. unfold py_op in H.
  apply (to_python_value fuel s env Henv depth (EBin o l r) obj z); auto.
  - unfold units_free in *. cbn [has_node]. rewrite Ul, Ur. destruct Ho as [-> |[-> |[-> | ->]]]; reflexivity.
  - unfold value_of in *. rewrite <- Hz. destruct Ho as [-> |[-> |[-> | ->]]]; cbn [eval]; rewrite Hl, Hr; reflexivity.
Qed.
Print Assumptions C49_operators.

(** number o expression, for a commutative operator.  Missing: - and /, refuted
    below. *)
Theorem C49_reflected_partial : forall fuel depth s env o (k : R) (e : expr R) u z obj,
  scalar_env env -> o = BAdd \/ o = BMul -> units_free e ->
  value_of s env e = Some (VN u) -> vbin o (VN k) (VN u) = Some z ->
  py_number_op fuel depth o k e = Ret obj -> pyval s env obj = Some z.
Proof.
  intros fuel depth s env o k e u z obj Henv Ho Ue He Hz H.
  apply (C49_operators fuel depth s env o e (EConst k) (VN u) (VN k) z obj Henv); auto.
  - destruct Ho as [-> | ->]; unfold basic; auto.
  - reflexivity.
  - rewrite <- Hz. destruct Ho as [-> | ->]; cbn; f_equal; f_equal; ring.
Qed.
Print Assumptions C49_reflected_partial.

(** number - expression and number / expression: right exactly when exchanging the
    operands makes no difference, that is at u = k, and at u = k or u = -k. *)
Theorem C49_reflected_minus_iff : forall fuel depth s env (k : R) (e : expr R) u obj,
  scalar_env env -> units_free e -> value_of s env e = Some (VN u) ->
  py_number_op fuel depth BSub k e = Ret obj ->
  (pyval s env obj = Some (VN (k - u)) <-> u = k).
Proof.
  intros fuel depth s env k e u obj Henv Ue He H.
  assert (P : pyval s env obj = Some (VN (u - k))).
  { apply (C49_operators fuel depth s env BSub e (EConst k) (VN u) (VN k) (VN (u - k)) obj Henv); auto.
    unfold basic; auto. all: reflexivity. }
  rewrite P. split; intros E; [injection E as E; lra|subst; reflexivity].
Qed.
Print Assumptions C49_reflected_minus_iff.
Theorem C49_reflected_div_iff : forall fuel depth s env (k : R) (e : expr R) u obj,
  scalar_env env -> units_free e -> value_of s env e = Some (VN u) -> u <> 0 -> k <> 0 ->
  py_number_op fuel depth BDiv k e = Ret obj ->
  (pyval s env obj = Some (VN (k / u)) <-> u = k \/ u = - k).
Proof.
  intros fuel depth s env k e u obj Henv Ue He Hu Hk H.
  assert (P : pyval s env obj = Some (VN (u / k))).
  { apply (C49_operators fuel depth s env BDiv e (EConst k) (VN u) (VN k) (VN (u / k)) obj Henv); auto.
    unfold basic; auto. reflexivity. cbn. destruct (Req_EM_T k 0); [contradiction|reflexivity]. }
  rewrite P. split.
  - intros E. injection E as E. assert (E2 : (u - k) * (u + k) = 0).
    { apply (Rmult_eq_compat_r (u * k)) in E. field_simplify in E; auto. lra. }
    apply Rmult_integral in E2. lra.
  - intros [-> | ->]; do 2 f_equal; field; auto.
Qed.
Print Assumptions C49_reflected_div_iff.

(** What the code computes for number - expression and number / expression: the
    operands are exchanged. *)
Theorem C49_reflected_exchanged : forall (K : Type) (EN : ENum K) fuel depth o (k : K) e,
  py_number_op fuel depth o k e = py_op fuel depth o e (EConst k).
Proof. reflexivity. Qed.
Theorem C49_reflected_refuted :
  let x := EVar "x" in let env := nums (fun _ => 5) in
  exists m d, py_number_op 0 1 BSub 2 x = Ret m /\ py_number_op 0 1 BDiv 2 x = Ret d /\
    (* 2 - x is x - 2 = 3 at x = 5, and 2 / x is x / 2 *)
    pyval 1 env m = Some (VN 3) /\ vbin BSub (VN 2) (VN 5) = Some (VN (-3)) /\
    pyval 1 env d = Some (VN (5 / 2)) /\ vbin BDiv (VN 2) (VN 5) = Some (VN (2 / 5)).
Proof.
  cbv zeta. exists (PyExpr (EBin BSub (EVar "x") (EConst 2))), (PyExpr (EBin BDiv (EVar "x") (EConst 2))).
  repeat split.
  - unfold py_number_op, py_rop, to_python, simplify. rewrite simp_unfold. cbn [simp_body]. rewrite !simp_unfold. rcalc. reflexivity.
  - unfold py_number_op, py_rop, to_python, simplify. rewrite simp_unfold. cbn [simp_body]. rewrite !simp_unfold. rcalc. reflexivity.
  - cbn. do 2 f_equal. ring.
  - cbn. do 2 f_equal. ring.
  - cbn. destruct (Req_EM_T 2 0); [lra|reflexivity].
  - cbn. destruct (Req_EM_T 5 0); [lra|reflexivity].
Qed.
Print Assumptions C49_reflected_refuted.

(** ** C56: evaluation from Python *)
Lemma ueval_over vs o (c : R) : o <> UArb -> over vs (ueval o c).
Proof. intros H. destruct o; try contradiction; exact I. Qed.
Lemma dd_over vs o (l r e : expr R) : arith_op o -> over vs l -> over vs r -> dd_visit o l r = Ret (Some e) -> over vs e.
Proof.
  intros Ho Hl Hr H. assert (B : over vs (EBin o l r)) by (split; auto).
  destruct o; try (destruct Ho as [Ho|[Ho|[Ho|[Ho|Ho]]]]; discriminate Ho); cbn [dd_visit] in H.
  - destruct l; try (destruct Hl; fail); try (injection H as <-; exact B).
    destruct r; injection H as <-; try exact B; exact I.
  - destruct l; try (destruct Hl; fail); try (injection H as <-; exact B).
    destruct (neqb c n0).
    + destruct r; injection H as <-; try exact I; split; auto; discriminate.
    + destruct r; try discriminate. injection H as <-. exact I.
  - destruct l as [k|y|p a|p a b|es|d]; try (destruct Hl; fail).
    + destruct r as [k'|y|p a|p a b|es|d]; try (destruct Hr; fail); try (injection H as <-; exact B); try (injection H as <-; exact I).
      destruct p; try (injection H as <-; exact B).
      * destruct a; try (injection H as <-; destruct Hr as (? & ? & ?); (split; [assumption|split; [exact I|assumption]])); destruct b; try discriminate; injection H as <-; destruct Hr as (? & ? & ?); (split; [assumption|split; [exact I|assumption]]).
      * exfalso. destruct Hr as [[?|[?|[?|[?|?]]]] _]; discriminate.
    + destruct r as [k'|y'|p a|p a b|es|d]; try (destruct Hr; fail); try (injection H as <-; exact B).
      destruct p; try (injection H as <-; exact B). exfalso. destruct Hr as [[?|[?|[?|[?|?]]]] _]; discriminate.
    + destruct r as [k'|y'|p' a'|p' a' b|es|d]; try (destruct Hr; fail); try (injection H as <-; exact B).
      destruct p'; try (injection H as <-; exact B). exfalso. destruct Hr as [[?|[?|[?|[?|?]]]] _]; discriminate.
    + assert (Np : p <> BUnits) by (intros ->; destruct Hl as [[?|[?|[?|[?|?]]]] _]; discriminate).
      assert (Nr : forall m u, r <> EBin BUnits m u) by (intros m u ->; destruct Hr as [[?|[?|[?|[?|?]]]] _]; discriminate).
      destruct p; try contradiction;
        try (destruct r as [k'|y'|p' a'|p' a' b'|es|d]; try (destruct Hr; fail); try (injection H as <-; exact B);
             destruct p'; try (injection H as <-; exact B); exfalso; eapply Nr; reflexivity).
      destruct r as [k'|y'|p' a'|p' a' b'|es|d]; try (destruct Hr; fail);
        try (destruct a; try (injection H as <-; exact B); destruct b; injection H as <-; exact B).
      * destruct a; try (injection H as <-; destruct Hl as (? & ? & ?); (split; [assumption|split; [exact I|assumption]])); destruct b; try discriminate; injection H as <-; destruct Hl as (? & ? & ?); (split; [assumption|split; [exact I|assumption]]).
      * destruct p'; try (exfalso; eapply Nr; reflexivity); destruct a; try (injection H as <-; exact B); destruct b; injection H as <-; exact B.
  - assert (Nl : forall m u, l <> EBin BUnits m u) by (intros m u ->; destruct Hl as [[?|[?|[?|[?|?]]]] _]; discriminate).
    destruct l as [k|y|p a|p a b|es|d]; try (destruct Hl; fail).
    + destruct r; injection H as <-; try exact B; exact I.
    + injection H as <-; exact B.
    + injection H as <-; exact B.
    + destruct p; try (injection H as <-; exact B). exfalso; eapply Nl; reflexivity.
  - destruct l; try (injection H as <-; exact B); destruct r; injection H as <-; try exact B; exact I.
Qed.
Lemma ssimp_over vs (e : expr R) : over vs e -> over vs (ssimp e).
Proof.
  induction e as [c|y|o a IHa|o l r IHl IHr|es IH|d IH] using expr_ind'; intros H; try exact H.
  - destruct H as [Ho H]. specialize (IHa H). cbn [ssimp]. unfold ustep. destruct (ssimp a); try (split; auto; fail). apply ueval_over; auto.
  - destruct H as (Ho & Hl & Hr). specialize (IHl Hl). specialize (IHr Hr). cbn [ssimp]. unfold bstep.
    destruct (is_elem (ssimp l) (left_zero o)); [destruct (left_zero o); [exact I|auto]|].
    destruct (is_elem (ssimp l) (left_identity o)); [auto|].
    destruct (is_elem (ssimp r) (right_zero o)); [destruct (right_zero o); [exact I|auto]|].
    destruct (is_elem (ssimp r) (right_identity o)); [auto|].
    destruct (dd_visit o (ssimp l) (ssimp r)) as [[e|]| | |] eqn:E; try (split; auto; fail). apply (dd_over vs o (ssimp l) (ssimp r)); auto.
Qed.
Lemma over_scalar vs (e : expr R) : over vs e -> scalar_expr e.
Proof.
  induction e as [c|y|o a IHa|o l r IHl IHr|es IH|d IH] using expr_ind'; cbn [over scalar_expr]; try tauto.
Qed.
Lemma over_units_free vs (e : expr R) : over vs e -> units_free e.
Proof.
  unfold units_free. induction e as [c|y|o a IHa|o l r IHl IHr|es IH|d IH] using expr_ind'; cbn [over has_node]; try tauto.
  - intros (Ho & Hl & Hr). rewrite IHl, IHr by auto. destruct Ho as [-> |[-> |[-> |[-> | ->]]]]; reflexivity.
Qed.
Lemma over_array_free vs (e : expr R) : over vs e -> array_free e.
Proof.
  unfold array_free. induction e as [c|y|o a IHa|o l r IHl IHr|es IH|d IH] using expr_ind'; cbn [over has_node]; try tauto.
  - intros (Ho & Hl & Hr). now rewrite IHl, IHr by auto.
Qed.
Lemma over_nur vs (e : expr R) : over vs e -> nur e.
Proof.
  unfold nur. induction e as [c|y|o a IHa|o l r IHl IHr|es IH|d IH] using expr_ind'; intros H; try (destruct H; fail); try reflexivity.
  - destruct H as [_ H]. cbn [has_node]. now rewrite IHa by auto.
  - assert (U := over_units_free vs _ H). destruct H as (Ho & Hl & Hr). cbn [has_node]. rewrite IHl, IHr by auto.
    unfold units_free in U. cbn [has_node] in U. rewrite !orb_false_iff in U. destruct U as (_ & _ & U).
    unfold units_in_right_factor. destruct o; auto. rewrite U. reflexivity.
Qed.

(** sub(f, {x: ..., y: ...}) with numbers for all variables returns the float that
    is the value of f: f built from numbers, the variables, + - * / ^ and the
    functions (without "either sign"). *)
Theorem C56_evaluate : forall fuel depth s rho vs (f : expr R) v,
  over vs f -> value_of s (nums rho) f = Some (VN v) ->
  py_sub fuel (S depth) f (EDict (map (fun y => (y, EConst (rho y))) vs)) = Ret (PyFloat v).
Proof.
  intros fuel depth s rho vs f v Ho Hv. unfold py_sub. cbn [sub_expr obind to_python].
  rewrite (evaluate_over fuel s rho vs f v Ho (eval_lazy _ _ _ _ Hv)). reflexivity.
Qed.
Print Assumptions C56_evaluate.

(** sub(derivative(f, x), {...}) is the float that is the derivative of f. *)
Theorem C56_evaluate_derivative : forall fuel fuel' depth s rho x vs (f : expr R) v,
  over vs f -> differentiable s rho x f -> value_of s (nums rho) f = Some (VN v) ->
  exists D d, py_derivative fuel f (EVar x) = Ret D /\
    py_sub fuel' (S depth) D (EDict (map (fun y => (y, EConst (rho y))) vs)) = Ret (PyFloat d) /\
    has_derivative (fun t => value_of s (nums (upd_num rho x t)) f) (rho x) d.
Proof.
  intros fuel fuel' depth s rho x vs f v Ho Hd Hv.
  destruct (deriv_correct s rho x f v Hd Hv) as (D & d & H1 & H2 & H3).
  pose proof (deriv_over vs x f Ho D H1) as HD.
  exists (ssimp D), d. split; [|split; [|exact H3]].
  - unfold py_derivative. unfold derivative. rewrite H1. cbn [obind]. apply simplify_scalar. eapply over_scalar; eauto.
  - unfold py_sub. cbn [sub_expr obind to_python].
    rewrite (evaluate_over fuel' s rho vs (ssimp D) d (ssimp_over vs D HD)); [reflexivity|].
    pose proof (simplify_scalar 0 D (over_scalar vs D HD)) as Hs. unfold simplify, or_self in Hs. apply obind_ret in Hs as (m & Hm & E). injection E as E.
    assert (Hok : okx true D).
    { right. repeat split; [eapply over_array_free|eapply over_nur|intros _; eapply over_units_free]; eauto. }
    assert (Hse : scalar_env (nums rho)) by (intros y w Hw; injection Hw as <-; eauto).
    destruct (simp_value 0 true s (nums rho) D m (VN d) Hse Hok Hm H2) as [Hf _]. unfold keep in Hf. rewrite E in Hf. exact Hf.
Qed.
Print Assumptions C56_evaluate_derivative.
(** the README's example: f = x*x+2, sub(f, {x: 2}) = 6.0 *)
Example C56_example : py_sub 0 1 (EBin BAdd (EBin BMul (EVar "x") (EVar "x")) (EConst 2)) (EDict [("x"%string, EConst 2)]) = Ret (PyFloat 6).
Proof.
  apply (C56_evaluate 0 0 1 (fun _ => 2) ["x"%string]).
  - unfold arith_op. cbn. unfold arith_op. intuition.
  - cbn. do 2 f_equal. ring.
Qed.
