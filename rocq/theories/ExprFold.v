(** What simplification achieves on scalar expressions: constants fold, the
    result is never larger, repeated simplification reaches a fixed point. *)
From Coq Require Import String.
From Verif Require Import Outcome Num ExprModel ExprSpec ExprBase ExprSimp.
Open Scope nat_scope.

Section Fold.
Context {K : Type} `{EN : ENum K}.

Definition ustep (o : uop) (a : expr K) : expr K :=
  match a with EConst c => ueval o c | _ => EUn o a end.

Definition bstep (o : bop) (l r : expr K) : expr K :=
  if is_elem l (left_zero o) then match left_zero o with Some c => EConst c | None => l end
  else if is_elem l (left_identity o) then r
  else if is_elem r (right_zero o) then match right_zero o with Some c => EConst c | None => r end
  else if is_elem r (right_identity o) then l
  else match dd_visit o l r with Ret (Some x) => x | _ => EBin o l r end.

Fixpoint ssimp (e : expr K) : expr K :=
  match e with
  | EUn o a => ustep o (ssimp a)
  | EBin o l r => bstep o (ssimp l) (ssimp r)
  | _ => e
  end.

Definition keepo (e : expr K) (m : option (expr K)) : expr K := match m with Some x => x | None => e end.

Lemma dd_total o (l r : expr K) : arith_op o \/ o = BEq ->
  exists m, dd_visit o l r = Ret m.
Proof.
  intros H. assert (o <> BAcc) by (intros ->; destruct H as [[|[|[|[|]]]]|]; discriminate).
  destruct o; try contradiction; unfold dd_visit.
  all: repeat match goal with |- exists m, match ?x with _ => _ end = _ => destruct x end; eauto.
Qed.

Definition pbS (o : bop) : bool := match o with BAcc | BUnits | BUnc => true | _ => false end.
Lemma scalar_clean (e : expr K) : scalar_expr e <-> clean pbS true true e.
Proof.
  induction e as [c|y|o a IHa|o l r IHl IHr|es IH|d IH] using expr_ind'; cbn [scalar_expr].
  - split; reflexivity.
  - split; reflexivity.
  - rewrite clean_un; auto.
  - rewrite clean_bin, <- IHl, <- IHr. apply and_iff_compat_r. unfold arith_op.
    destruct o; simpl; intuition discriminate.
  - rewrite clean_arr; intuition discriminate.
  - rewrite clean_dict; intuition discriminate.
Qed.

Lemma simp_scalar fuel (e : expr K) : scalar_expr e ->
  exists m, simp fuel e = Ret m /\ keepo e m = ssimp e.
Proof.
  induction e as [c|y|o a IHa|o l r IHl IHr|es IH|d IH] using expr_ind'; intros He; rewrite simp_unfold; cbn [simp_body].
  - exists None; auto.
  - exists None; auto.
  - destruct (IHa He) as (m & Hm & E). rewrite Hm. cbn [obind]. fold (keepo a m).
    cbn [ssimp]. unfold ustep. rewrite <- E. clear E Hm.
    destruct m as [x|]; simpl.
    + destruct x; eauto.
    + destruct a; eauto.
  - destruct He as (Ho & Hl & Hr).
    destruct (IHl Hl) as (ml & Hml & El). destruct (IHr Hr) as (mr & Hmr & Er).
    assert (Cl : clean pbS true true (keepo l ml)).
    { destruct ml; simpl; [|apply scalar_clean; auto]. eapply simp_clean; [|exact Hml]. apply scalar_clean; auto. }
    assert (Cr : clean pbS true true (keepo r mr)).
    { destruct mr; simpl; [|apply scalar_clean; auto]. eapply simp_clean; [|exact Hmr]. apply scalar_clean; auto. }
    rewrite Hml, Hmr. cbn [obind]. fold (keepo l ml) (keepo r mr). cbn [ssimp]. rewrite <- El, <- Er.
    assert (Hlast : ml = None -> mr = None -> EBin o (keepo l ml) (keepo r mr) = EBin o l r) by (intros -> ->; auto).
    clear El Er Hml Hmr IHl IHr.
    destruct (dd_total o (keepo l ml) (keepo r mr) Ho) as [m Hm].
    assert (Hd : match keepo l ml, keepo r mr with
      | EArr xs, EArr ys => match o with
              | BAcc => Throw
              | BPow => UB
              | BEq | BUnits | BUnc => Ret (Some (EBin o (keepo l ml) (keepo r mr)))
              | BAdd | BSub | BMul | BDiv =>
                  if Nat.eqb (List.length xs) (List.length ys) then
                    do rs <- resimp fuel (zipb o xs ys); Ret (Some (EArr rs))
                  else Throw
              end
      | _, _ => dd_visit o (keepo l ml) (keepo r mr) end = Ret m).
    { destruct (keepo l ml); try exact Hm. apply clean_arr in Cl as [? _]; discriminate. }
    unfold bstep. rewrite Hd, Hm. cbn [obind]. clear Hd Hm.
    destruct (is_elem (keepo l ml) (left_zero o)); [eauto|].
    destruct (is_elem (keepo l ml) (left_identity o)); [eauto|].
    destruct (is_elem (keepo r mr) (right_zero o)); [eauto|].
    destruct (is_elem (keepo r mr) (right_identity o)); [eauto|].
    destruct m as [x|]; [eauto|].
    destruct ml, mr; eauto.
  - destruct He.
  - destruct He.
Qed.

Lemma simplify_scalar fuel (e : expr K) : scalar_expr e -> simplify fuel e = Ret (ssimp e).
Proof.
  intros H. destruct (simp_scalar fuel e H) as (m & Hm & E). unfold simplify, or_self. rewrite Hm. simpl.
  rewrite <- E; reflexivity.
Qed.

Lemma closed_scalar (e : expr K) : closed_arith e -> scalar_expr e.
Proof.
  induction e as [c|y|o a IHa|o l r IHl IHr|es IH|d IH] using expr_ind'; simpl; tauto.
Qed.

Lemma closed_folds (e : expr K) : closed_arith e -> exists c, ssimp e = EConst c.
Proof.
  induction e as [c|y|o a IHa|o l r IHl IHr|es IH|d IH] using expr_ind'; simpl; try tauto.
  - eauto.
  - intros [Ho H]. destruct (IHa H) as [c ->]. destruct o; simpl; eauto. congruence.
  - intros (Ho & Hl & Hr). destruct (IHl Hl) as [a ->]. destruct (IHr Hr) as [b ->].
    destruct Ho as [->|[->|[->|[->| ->]]]]; unfold bstep; simpl;
      repeat match goal with |- context [if ?x then _ else _] => destruct x end; eauto.
Qed.

(** ** Sizes. *)
Lemma ustep_size o (a : expr K) : esize (ustep o a) <= esize (EUn o a) /\
  (esize (ustep o a) = esize (EUn o a) -> ustep o a = EUn o a).
Proof.
  unfold ustep. destruct a; try (split; auto; fail). destruct o; simpl; split; auto; intros; exfalso; lia.
Qed.

Lemma mul_apply_size (l r : expr K) : scalar_expr l -> scalar_expr r ->
  mul_apply l r = EBin BMul l r \/ exists c, mul_apply l r = EConst c.
Proof.
  intros Hl Hr. rewrite scalar_clean in Hl, Hr. destruct (mul_apply_case l r); subst; eauto.
  all: repeat match goal with
    | H : clean _ _ _ (EBin BUnits _ _) |- _ => apply clean_bin in H as [? _]; discriminate
    | H : clean _ _ _ (EArr _) |- _ => apply clean_arr in H as [? _]; discriminate
    end.
Qed.

Lemma esize_pos (e : expr K) : 1 <= esize e.
Proof. destruct e; simpl; lia. Qed.

Lemma bstep_size o (l r : expr K) : scalar_expr l -> scalar_expr r ->
  esize (bstep o l r) < esize (EBin o l r) \/ bstep o l r = EBin o l r.
Proof.
  intros Hl Hr. pose proof (esize_pos l). pose proof (esize_pos r). unfold bstep.
  destruct (is_elem l (left_zero o)) eqn:E1.
  { left. destruct (left_zero o); simpl; lia. }
  destruct (is_elem l (left_identity o)). { left; simpl; lia. }
  destruct (is_elem r (right_zero o)) eqn:E3.
  { left. destruct (right_zero o); simpl; lia. }
  destruct (is_elem r (right_identity o)). { left; simpl; lia. }
  destruct (dd_visit o l r) as [[x|]| | |] eqn:Ed; auto.
  apply dd_visit_case in Ed. inversion Ed; subst; auto; try (left; simpl; lia).
  - destruct (mul_apply_size l r Hl Hr) as [->|[c ->]]; auto. left; simpl; lia.
  - left. destruct r; simpl; lia.
  - destruct Hl.
  - destruct Hl as [[[|[|[|[|]]]]|] _]; discriminate.
Qed.

Lemma ssimp_scalar (e : expr K) : scalar_expr e -> scalar_expr (ssimp e).
Proof.
  intros H. destruct (simp_scalar 0 e H) as (m & Hm & <-). destruct m as [x|]; simpl; auto.
  apply scalar_clean. eapply simp_clean; [|exact Hm]. apply scalar_clean; auto.
Qed.

Lemma ssimp_size (e : expr K) : scalar_expr e -> esize (ssimp e) < esize e \/ ssimp e = e.
Proof.
  induction e as [c|y|o a IHa|o l r IHl IHr|es IH|d IH] using expr_ind'; intros He; auto.
  - cbn [ssimp]. destruct (ustep_size o (ssimp a)) as [H1 H2]. destruct (IHa He) as [H|H].
    + left. cbn [esize] in *. lia.
    + rewrite H in *. destruct (Nat.eq_dec (esize (ustep o a)) (esize (EUn o a))); auto. left; lia.
  - destruct He as (Ho & Hl & Hr). cbn [ssimp].
    assert (B := bstep_size o (ssimp l) (ssimp r) (ssimp_scalar _ Hl) (ssimp_scalar _ Hr)).
    destruct (IHl Hl) as [H|H]; destruct (IHr Hr) as [H'|H'].
    + left. destruct B as [B|B]; [|rewrite B]; cbn [esize] in *; lia.
    + left. rewrite H' in *. destruct B as [B|B]; [|rewrite B]; cbn [esize] in *; lia.
    + left. rewrite H in *. destruct B as [B|B]; [|rewrite B]; cbn [esize] in *; lia.
    + rewrite H, H' in *. auto.
Qed.

Lemma iter_fix n (e : expr K) : scalar_expr e -> esize e <= n -> ssimp (Nat.iter n ssimp e) = Nat.iter n ssimp e.
Proof.
  revert e; induction n as [|n IH]; intros e He Hn; [destruct e; simpl in Hn; lia|].
  assert (Hs : forall m (a : expr K), Nat.iter (S m) ssimp a = ssimp (Nat.iter m ssimp a)) by reflexivity.
  assert (Hcomm : forall m, Nat.iter m ssimp (ssimp e) = ssimp (Nat.iter m ssimp e)).
  { induction m; simpl; congruence. }
  destruct (ssimp_size e He) as [H|H].
  - rewrite Hs, <- (Hcomm n). apply IH; [apply ssimp_scalar; auto|lia].
  - assert (E : forall m, Nat.iter m ssimp e = e) by (induction m; simpl; congruence).
    rewrite E, H; auto.
Qed.

(** ** One pass suffices unless a product by 0 or 1 was created. *)
Definition has_const_factor (e : expr K) : bool :=
  match e with EBin BMul (EConst _) _ | EBin BMul _ (EConst _) => true | _ => false end.
Definition is_c (e : expr K) : bool := match e with EConst _ => true | _ => false end.
Definition is_zero_c (e : expr K) : bool := match e with EConst c => neqb c n0 | _ => false end.

(** the overloads leave this pair alone *)
Definition stable (o : bop) (l r : expr K) : bool :=
  negb (is_c l && is_c r) &&
  match o with
  | BMul => negb (is_c l && has_const_factor r) && negb (has_const_factor l && is_c r)
  | BSub => negb (is_zero_c l)
  | _ => true
  end || match o with BEq => true | _ => false end.

Fixpoint wnf (e : expr K) : bool :=
  match e with
  | EConst _ | EVar _ => true
  | EUn o a => wnf a && (negb (is_c a) || uop_eqb o UArb)
  | EBin o l r =>
      wnf l && wnf r && stable o l r &&
      (match o with BMul => is_c l | _ => false end
       || negb (is_elem l (left_zero o)) && negb (is_elem l (left_identity o))) &&
      negb (is_elem r (right_zero o)) && negb (is_elem r (right_identity o))
  | _ => false
  end.

Lemma stable_dd o l r : scalar_expr l -> scalar_expr r -> (arith_op o \/ o = BEq) -> stable o l r = true ->
  dd_visit o l r = Ret None \/ dd_visit o l r = Ret (Some (EBin o l r)).
Proof.
  intros Hl Hr Ho. unfold stable, dd_visit.
  destruct o; try (destruct Ho as [[|[|[|[|]]]]|]; discriminate); auto.
  - destruct l; simpl; auto; [|destruct Hl]. destruct r; simpl; auto; discriminate.
  - destruct l; simpl; auto; [|destruct Hl]. destruct (neqb c n0); simpl; rewrite ?andb_false_r; [discriminate|].
    destruct r; simpl; auto; discriminate.
  - destruct (mul_apply_size l r Hl Hr) as [E|[c E]].
    + rewrite E. destruct l as [k|x|lo la|lo la lb|le|le]; simpl; auto.
      * destruct r as [|x|ro ra|ro ra rb|re|re]; simpl; auto; try discriminate.
        destruct ro; simpl; auto. destruct ra; simpl; auto; try discriminate;
        destruct rb; simpl; auto; discriminate.
      * destruct lo; simpl; auto. destruct la; simpl; auto; destruct lb; simpl; auto;
         destruct r; simpl; auto; discriminate.
    + assert (exists a b, l = EConst a /\ r = EConst b) as (a & b & -> & ->); [|discriminate].
      revert E. destruct (mul_apply_case l r); intros E; try discriminate. subst; eauto.
  - destruct l; simpl; auto; [destruct r; simpl; auto; discriminate| |destruct Hl].
    destruct o; auto. destruct Hl as [[[|[|[|[|]]]]|] _]; discriminate.
  - destruct l; simpl; auto. destruct r; simpl; auto; discriminate.
Qed.

Ltac spl := repeat match goal with
  | H : _ && _ = true |- _ => apply andb_true_iff in H as [? ?]
  end.

Lemma wnf_bin_intro o l r :
  wnf l = true -> wnf r = true -> stable o l r = true ->
  ((o = BMul /\ is_c l = true) \/ (is_elem l (left_zero o) = false /\ is_elem l (left_identity o) = false)) ->
  is_elem r (right_zero o) = false -> is_elem r (right_identity o) = false -> wnf (EBin o l r) = true.
Proof.
  intros H1 H2 H3 H4 H5 H6. cbn [wnf]. rewrite H1, H2, H3, H5, H6. simpl. rewrite !andb_true_r.
  destruct H4 as [(-> & ->)|(-> & ->)]; simpl; auto. apply orb_true_r.
Qed.

Lemma bstep_wnf o l r : scalar_expr l -> scalar_expr r -> (arith_op o \/ o = BEq) ->
  wnf l = true -> wnf r = true -> wnf (bstep o l r) = true.
Proof.
  intros Hl Hr Ho Wl Wr. unfold bstep.
  destruct (is_elem l (left_zero o)) eqn:E1. { destruct (left_zero o); auto. }
  destruct (is_elem l (left_identity o)) eqn:E2; auto.
  destruct (is_elem r (right_zero o)) eqn:E3. { destruct (right_zero o); auto. }
  destruct (is_elem r (right_identity o)) eqn:E4; auto.
  destruct (stable o l r) eqn:Es.
  { assert (W : wnf (EBin o l r) = true) by (apply wnf_bin_intro; auto).
    destruct (stable_dd o l r Hl Hr Ho Es) as [->| ->]; auto. }
  (* a reassociated product *)
  assert (Hre1 : forall k a b, wnf (EBin BMul (EConst a) b) = true -> wnf (EBin BMul (EConst k) b) = true).
  { intros k a b W. cbn [wnf] in W. spl.
    rewrite ?negb_true_iff in *. apply wnf_bin_intro; auto. }
  assert (Hre2 : forall k a b, is_c a = false -> wnf (EBin BMul a (EConst b)) = true -> wnf (EBin BMul (EConst k) a) = true).
  { intros k a b Ha W. cbn [wnf] in W. spl.
    apply wnf_bin_intro; [reflexivity|auto| |left; auto| |].
    - match goal with H : stable _ _ _ = true |- _ => revert H end. unfold stable. simpl.
      rewrite Ha. simpl. destruct (has_const_factor a); simpl; auto.
    - destruct a; try discriminate Ha; reflexivity.
    - destruct a; try discriminate Ha; reflexivity. }
  assert (Hnc : forall (a : expr K) b, wnf (EBin BMul a (EConst b)) = true -> is_c a = false).
  { intros a b W. cbn [wnf] in W. spl.
    match goal with H : stable _ _ _ = true |- _ => revert H end. unfold stable; simpl.
    destruct (is_c a); simpl; auto. }
  unfold stable in Es. destruct o; try (destruct Ho as [[|[|[|[|]]]]|]; discriminate).
  - destruct l; try discriminate Es. destruct r; try discriminate Es. reflexivity.
  - destruct l as [a| | | | |]; try (simpl in Es; discriminate Es). cbn [dd_visit].
    destruct (neqb a n0) eqn:Ez.
    + destruct r; cbn [wnf is_c negb orb]; auto; rewrite ?andb_true_r; exact Wr.
    + simpl in Es. rewrite Ez in Es. simpl in Es. rewrite andb_true_r, orb_false_r in Es.
      destruct r; try discriminate Es. reflexivity.
  - destruct l as [k|x|lo la|lo la lb|le|le]; try (simpl in Es; discriminate Es).
    + destruct r as [k'|x|ro ra|ro ra rb|re|re]; try (simpl in Es; discriminate Es); auto.
      destruct ro; try (simpl in Es; discriminate Es).
      destruct ra; [exact (Hre1 _ _ _ Wr)|..]; destruct rb; try (simpl in Es; discriminate Es);
        (exact (Hre2 _ _ _ (Hnc _ _ Wr) Wr)).
    + destruct lo; try (simpl in Es; discriminate Es).
      destruct r as [k'|x|ro ra|ro ra rb|re|re]; try (simpl in Es; rewrite ?andb_false_r in Es; discriminate Es).
      destruct la; destruct lb; try (simpl in Es; discriminate Es);
        first [exact (Hre1 _ _ _ Wl) | exact (Hre2 _ _ _ (Hnc _ _ Wl) Wl)].
  - destruct l; try discriminate Es. destruct r; try discriminate Es. reflexivity.
  - destruct l; try discriminate Es. destruct r; try discriminate Es. reflexivity.
  - rewrite orb_true_r in Es; discriminate.
Qed.

Lemma ssimp_wnf (e : expr K) : scalar_expr e -> wnf (ssimp e) = true.
Proof.
  induction e as [c|y|o a IHa|o l r IHl IHr|es IH|d IH] using expr_ind'; intros He; auto.
  - cbn [ssimp]. specialize (IHa He). unfold ustep. destruct (ssimp a); cbn [wnf is_c negb orb]; rewrite ?andb_true_r; auto.
    destruct o; reflexivity.
  - destruct He as (Ho & Hl & Hr). cbn [ssimp]. apply bstep_wnf; auto using ssimp_scalar.
Qed.

Lemma wnf_fix (e : expr K) : scalar_expr e -> wnf e = true -> has_node trivial_product e = false -> ssimp e = e.
Proof.
  induction e as [c|y|o a IHa|o l r IHl IHr|es IH|d IH] using expr_ind'; intros He W T; auto.
  - cbn [ssimp]. cbn [wnf] in W. spl. rewrite IHa; auto.
    unfold ustep. destruct a; auto. destruct o; try discriminate. reflexivity.
  - destruct He as (Ho & Hl & Hr). cbn [wnf] in W. spl. cbn [ssimp].
    simpl in T. apply orb_false_iff in T as [T1 T]. apply orb_false_iff in T as [T2 T3].
    rewrite IHl, IHr by auto. unfold bstep.
    assert (El : is_elem l (left_zero o) = false /\ is_elem l (left_identity o) = false).
    { match goal with H : _ || _ = true |- _ => apply orb_true_iff in H as [H|H] end; spl; rewrite ?negb_true_iff in *; auto.
      destruct o; try discriminate. destruct l; try discriminate. simpl in *. apply orb_false_iff; auto. }
    destruct El as [-> ->].
    repeat match goal with H : negb _ = true |- _ => apply negb_true_iff in H; rewrite H end.
    match goal with H : stable _ _ _ = true |- _ => destruct (stable_dd o l r Hl Hr Ho H) as [->| ->] end; auto.
Qed.
End Fold.
