(** Simplification preserves values: lemmas. *)
From Coq Require Import String.
From Verif Require Import Outcome Num ExprModel ExprSpec ExprBase.
Open Scope nat_scope.

(** ** Case analyses of the operator overloads. *)
Section Cases.
Context {K : Type} `{EN : ENum K}.

Inductive mul_case (l r : expr K) : expr K -> Prop :=
| mc_const a b : l = EConst a -> r = EConst b -> mul_case l r (EConst (nmul a b))
| mc_uu m u m' u' : l = EBin BUnits m u -> r = EBin BUnits m' u' ->
    mul_case l r (EBin BUnits (EBin BMul m m') (EBin BMul u u'))
| mc_ux m u : l = EBin BUnits m u -> mul_case l r (EBin BUnits (mul_expr_any m r) u)
| mc_xu m u : r = EBin BUnits m u -> mul_case l r (EBin BUnits (mul_any_expr l m) m)
| mc_arrl xs : l = EArr xs -> mul_case l r (EArr (map (fun x => EBin BMul x r) xs))
| mc_arrr ys : is_array l = false -> r = EArr ys -> mul_case l r (EArr (map (fun y => EBin BMul l y) ys))
| mc_node : is_array l = false -> is_array r = false -> mul_case l r (EBin BMul l r).

Lemma mul_apply_case l r : mul_case l r (mul_apply l r).
Proof.
  destruct l as [| |lo la|lo la lb|le|le];
    try (destruct lo); destruct r as [| |ro ra|ro ra rb|re|re]; try (destruct ro); cbn [mul_apply].
  all: econstructor; reflexivity.
Qed.

Inductive dd_case (l r : expr K) : bop -> option (expr K) -> Prop :=
| dm_l1 k a b : l = EConst k -> r = EBin BMul (EConst a) b -> dd_case l r BMul (Some (EBin BMul (EConst (nmul k a)) b))
| dm_l2 k a b : l = EConst k -> r = EBin BMul a (EConst b) -> dd_case l r BMul (Some (EBin BMul (EConst (nmul k b)) a))
| dm_r1 k a b : r = EConst k -> l = EBin BMul (EConst a) b -> dd_case l r BMul (Some (EBin BMul (EConst (nmul k a)) b))
| dm_r2 k a b : r = EConst k -> l = EBin BMul a (EConst b) -> dd_case l r BMul (Some (EBin BMul (EConst (nmul k b)) a))
| dm_none : is_array l = false -> is_array r = false -> dd_case l r BMul None
| dm_mul : dd_case l r BMul (Some (mul_apply l r))
| ds_neg a : l = EConst a -> neqb a n0 = true ->
    dd_case l r BSub (Some (match r with EConst b => EConst (nopp b) | _ => EUn UNeg r end))
| ds_none : is_array l = false -> dd_case l r BSub None
| d_fold o a b : l = EConst a -> r = EConst b ->
    (o = BAdd \/ o = BSub \/ o = BDiv \/ o = BPow) -> dd_case l r o (Some (EConst (nfold o a b)))
| d_arr o xs : l = EArr xs -> (o = BAdd \/ o = BSub \/ o = BDiv) ->
    dd_case l r o (Some (EArr (map (fun x => EBin o x r) xs)))
| dd_uu m u m' u' : l = EBin BUnits m u -> r = EBin BUnits m' u' ->
    dd_case l r BDiv (Some (EBin BUnits (EBin BDiv m m') (EBin BDiv u u')))
| d_acc : is_array l = true -> dd_case l r BAcc None
| d_node o : o <> BMul -> (is_array l = false \/ o = BPow \/ o = BEq \/ o = BUnits \/ o = BUnc) -> dd_case l r o (Some (EBin o l r)).

Lemma dd_visit_case o l r x : dd_visit o l r = Ret x -> dd_case l r o x.
Proof.
  destruct o; unfold dd_visit.
  - destruct l; try (intros E; injection E as <-; apply d_node; [discriminate|]; simpl; auto; fail).
    + destruct r; intros E; injection E as <-; try (apply d_node; [discriminate|]; simpl; auto; fail).
      apply (d_fold _ _ BAdd); auto.
    + intros E; injection E as <-. apply d_arr; auto.
  - destruct l; try (intros E; injection E as <-; apply d_node; [discriminate|]; simpl; auto; fail).
    + destruct (neqb c n0) eqn:Hz.
      * intros E; injection E as <-. eapply ds_neg; eauto.
      * destruct r; intros E; injection E as <-; try (apply ds_none; reflexivity).
        apply (d_fold _ _ BSub); auto.
    + intros E; injection E as <-. apply d_arr; auto.
  - destruct l as [k| |lo la|lo la lb|le|le]; try (intros E; injection E as <-; apply dm_mul; fail).
    + destruct r as [| |ro ra|ro ra rb|re|re]; try (intros E; injection E as <-; apply dm_mul; fail).
      destruct ro; try (intros E; injection E as <-; apply dm_mul; fail).
      destruct ra; destruct rb; intros E; injection E as <-;
        first [eapply dm_l1; reflexivity | eapply dm_l2; reflexivity | apply dm_none; reflexivity].
    + destruct lo; try (intros E; injection E as <-; apply dm_mul; fail).
      destruct la; destruct lb; destruct r; intros E; injection E as <-;
        first [eapply dm_r1; reflexivity | eapply dm_r2; reflexivity | apply dm_none; reflexivity | apply dm_mul].
  - destruct l; try (intros E; injection E as <-; apply d_node; [discriminate|]; simpl; auto; fail).
    + destruct r; intros E; injection E as <-; try (apply d_node; [discriminate|]; simpl; auto; fail).
      apply (d_fold _ _ BDiv); auto.
    + destruct o; try (intros E; injection E as <-; apply d_node; [discriminate|]; simpl; auto; fail).
      destruct r; try (intros E; injection E as <-; apply d_node; [discriminate|]; simpl; auto; fail).
      destruct o; intros E; injection E as <-; try (apply d_node; [discriminate|]; simpl; auto; fail).
      eapply dd_uu; eauto.
    + intros E; injection E as <-. apply d_arr; auto.
  - destruct l; try (intros E; injection E as <-; apply d_node; [discriminate|]; simpl; auto; fail).
    destruct r; intros E; injection E as <-; try (apply d_node; [discriminate|]; simpl; auto; fail).
    apply (d_fold _ _ BPow); auto.
  - intros E; injection E as <-. apply d_node; [discriminate|]; auto.
  - destruct l; try discriminate; destruct r; intros E; try discriminate; injection E as <-. apply d_acc; auto.
  - intros E; injection E as <-. apply d_node; [discriminate|]; auto.
  - intros E; injection E as <-. apply d_node; [discriminate|]; auto 6.
Qed.
End Cases.

(** ** Simplification introduces no new kinds of node. *)
Section Clean.
Context {K : Type} `{EN : ENum K}.
Variable pb : bop -> bool.
Variables pa pd : bool.
Definition nodep (e : expr K) : bool :=
  match e with EBin o _ _ => pb o | EArr _ => pa | EDict _ => pd | _ => false end.
Definition clean (e : expr K) : Prop := has_node nodep e = false.

Lemma clean_un o a : clean (EUn o a) <-> clean a.
Proof. unfold clean; simpl; tauto. Qed.
Lemma clean_bin o l r : clean (EBin o l r) <-> pb o = false /\ clean l /\ clean r.
Proof. unfold clean; simpl. rewrite !orb_false_iff; tauto. Qed.
Lemma clean_arr es : clean (EArr es) <-> pa = false /\ Forall clean es.
Proof.
  unfold clean; simpl. rewrite orb_false_iff. apply and_iff_compat_l.
  induction es; simpl; [split; auto|]. rewrite orb_false_iff, IHes, Forall_cons_iff; tauto.
Qed.
Lemma clean_dict d : clean (EDict d) <-> pd = false /\ Forall (fun kv => clean (snd kv)) d.
Proof.
  unfold clean; simpl. rewrite orb_false_iff. apply and_iff_compat_l.
  induction d; simpl; [split; auto|]. rewrite orb_false_iff, IHd, Forall_cons_iff; tauto.
Qed.
Lemma clean_const c : clean (EConst c).
Proof. reflexivity. Qed.

Lemma Forall_map_clean (f : expr K -> expr K) xs :
  Forall clean xs -> (forall x, clean x -> clean (f x)) -> Forall clean (map f xs).
Proof. induction 1; simpl; constructor; auto. Qed.

Ltac cl := repeat (rewrite ?clean_bin, ?clean_un, ?clean_arr in *; try match goal with
  | H : _ /\ _ |- _ => destruct H
  | |- _ /\ _ => split
  | H : Forall clean _ |- Forall clean _ =>
      apply Forall_map_clean; [exact H|intros ? ?]
  end); auto using clean_const.

Lemma mul_apply_clean l r : pb BMul = false -> clean l -> clean r -> clean (mul_apply l r).
Proof.
  intros Hm Hl Hr. destruct (mul_apply_case l r); subst; unfold mul_expr_any, mul_any_expr;
   try match goal with |- context [match ?x with _ => _ end] => destruct x end; cl.
Qed.

Lemma dd_clean o l r x :
  pb o = false -> clean l -> clean r -> dd_visit o l r = Ret (Some x) -> clean x.
Proof.
  intros Ho Hl Hr E. apply dd_visit_case in E.
  inversion E; subst; try (apply mul_apply_clean; auto; fail); cl.
  destruct r; cl.
Qed.

Lemma zipb_clean o xs ys : pb o = false -> Forall clean xs -> Forall clean ys -> Forall clean (zipb o xs ys).
Proof.
  intros Ho H; revert ys; induction H; intros ys Hy; simpl; [constructor|].
  destruct Hy; constructor; auto. apply clean_bin; auto.
Qed.

Lemma oself_clean (x y : expr K) (m : outcome (option (expr K))) :
  clean x -> (forall e', m = Ret (Some e') -> clean e') -> or_self x m = Ret y -> clean y.
Proof.
  unfold or_self; intros Hx Hm H. apply obind_ret in H as ([e'|] & He & E); injection E as <-; auto.
Qed.

Lemma oseq_clean (f : expr K -> outcome (expr K)) xs rs :
  Forall (fun x => forall y, f x = Ret y -> clean y) xs ->
  oseq (map f xs) = Ret rs -> Forall clean rs.
Proof.
  intros H E. apply oseq_ret, Forall2_map_l in E.
  revert H; induction E; intros H0; constructor; inversion H0; subst; auto.
Qed.

Lemma simp_clean fuel : forall e e', clean e -> simp fuel e = Ret (Some e') -> clean e'.
Proof.
  induction fuel as [fuel IHf] using lt_wf_ind.
  induction e as [c|x|o a IHa|o l r IHl IHr|es IH|d IH] using expr_ind';
    intros e' Hc; rewrite simp_unfold; simpl; try discriminate.
  - intros H. apply obind_ret in H as (ma & Hma & H).
    apply (clean_un o a) in Hc.
    assert (Ha' : clean (match ma with Some x => x | None => a end)).
    { destruct ma; auto. }
    destruct (match ma with Some x => x | None => a end);
      [injection H as <-; destruct o; try apply clean_const; apply clean_un; auto |..];
      destruct ma; try discriminate; injection H as <-; apply clean_un; auto.
  - intros H. apply obind_ret in H as (ml & Hml & H). apply obind_ret in H as (mr & Hmr & H).
    apply clean_bin in Hc as (Ho & Hcl & Hcr).
    assert (Hl' : clean (match ml with Some x => x | None => l end)) by (destruct ml; auto).
    assert (Hr' : clean (match mr with Some x => x | None => r end)) by (destruct mr; auto).
    set (l' := match ml with Some x => x | None => l end) in *.
    set (r' := match mr with Some x => x | None => r end) in *.
    destruct (is_elem l' _). { injection H as <-. destruct (left_zero o); auto using clean_const. }
    destruct (is_elem l' _). { injection H as <-; auto. }
    destruct (is_elem r' _). { injection H as <-. destruct (right_zero o); auto using clean_const. }
    destruct (is_elem r' _). { injection H as <-; auto. }
    apply obind_ret in H as (ret & Hret & H).
    assert (Hx : forall x, ret = Some x -> clean x).
    { intros x ->.
      destruct l' as [| | | |xs|], r' as [| | | |ys|];
        try (eapply dd_clean; [| | |exact Hret]; eauto; fail).
      apply clean_arr in Hl' as (Hpa & Hl'). apply clean_arr in Hr' as (_ & Hr').
      assert (HH : forall f, simp fuel = f -> (do rs <- resimp fuel (zipb o xs ys); Ret (Some (EArr rs))) = Ret (Some x) -> clean x).
      { intros _ _ HH. apply obind_ret in HH as (rs & Hrs & HH). injection HH as <-.
        apply clean_arr; split; auto.
        destruct fuel as [|m]; [discriminate|]. cbn [resimp] in Hrs.
        eapply oseq_clean; [|exact Hrs].
        assert (HZ := zipb_clean o xs ys Ho Hl' Hr').
        eapply Forall_impl; [|exact HZ]. intros z Hz y Hy; cbn beta in Hy.
        eapply oself_clean; [exact Hz| |exact Hy].
        intros e2 He2; eapply IHf; [|exact Hz|exact He2]. lia. }
      destruct o; try discriminate;
        try (destruct (Nat.eqb _ _); [|discriminate]; eapply HH; [reflexivity|exact Hret]);
        injection Hret as <-; apply clean_bin; repeat split; auto; apply clean_arr; auto. }
    destruct ret as [x|]; [injection H as <-; auto|].
    destruct ml, mr; try discriminate; injection H as <-; apply clean_bin; auto.
  - intros H. apply obind_ret in H as (rs & Hrs & H). injection H as <-.
    apply clean_arr in Hc as (Hpa & Hc). apply clean_arr; split; auto.
    eapply oseq_clean; [|exact Hrs].
    rewrite Forall_forall in *. intros z Hz y Hy.
    eapply oself_clean; [apply Hc; exact Hz| |exact Hy]. intros e2; apply IH; auto.
  - intros H. apply obind_ret in H as (rs & Hrs & H). injection H as <-.
    apply clean_dict in Hc as (Hpa & Hc). apply clean_dict; split; auto.
    apply oseq_ret, Forall2_map_l in Hrs. revert IH Hc.
    induction Hrs as [|(k & v) y d rs Hy Hrs IHrs]; intros IH Hc; constructor.
    + apply obind_ret in Hy as (v' & Hv & E). injection E as <-; simpl.
      inversion IH; inversion Hc; subst; simpl in *. eapply oself_clean; [eassumption| |exact Hv]. eauto.
    + inversion IH; inversion Hc; subst; auto.
Qed.

End Clean.
