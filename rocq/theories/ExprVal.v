(** Simplification preserves values: the semantic part. *)
From Coq Require Import String R_Ifp.
From Verif Require Import Outcome Num ExprModel ExprSpec ExprBase ExprSimp.
Open Scope R_scope.

Definition isVA (v : value) : bool := match v with VA _ => true | _ => false end.

Definition obin (lz : bool) (o : bop) (vl vr : option value) : option value :=
  match o with
  | BEq => match vl, vr with Some v, Some w => Some (VE v w) | _, _ => None end
  | BAcc | BUnc => None
  | BMul => if lz && vzero vl then Some (VN 0)
            else match vl, vr with Some v, Some w => vbin BMul v w | _, _ => None end
  | _ => match vl, vr with Some v, Some w => vbin o v w | _, _ => None end
  end.

Lemma eval_bin lz s env o l r :
  eval lz s env (EBin o l r) = obin lz o (eval lz s env l) (eval lz s env r).
Proof. destruct o; reflexivity. Qed.

Definition le (a b : option value) : Prop := forall v, a = Some v -> b = Some v.
Lemma le_refl a : le a a. Proof. intros v; auto. Qed.

Lemma obin_mono lz o a b a' b' : le a a' -> le b b' -> le (obin lz o a b) (obin lz o a' b').
Proof.
  intros Ha Hb v.
  destruct a as [a|].
  - rewrite (Ha _ eq_refl). destruct b as [b|]; [rewrite (Hb _ eq_refl); auto|].
    unfold obin; destruct o; try discriminate. destruct (lz && vzero (Some a)); auto; discriminate.
  - unfold obin; destruct o; try discriminate. simpl. rewrite andb_false_r; discriminate.
Qed.

(** Numbers. *)
Lemma int_of_IZR z : int_of (IZR z) = Some z.
Proof.
  unfold int_of.
  assert (Int_part (IZR z) = z).
  { destruct (base_Int_part (IZR z)) as [H1 H2].
    assert (IZR (Int_part (IZR z)) < IZR (z + 1)) by (rewrite plus_IZR; lra).
    assert (IZR z - 1 < IZR (Int_part (IZR z))) by lra.
    rewrite <- minus_IZR in H0. apply lt_IZR in H. apply lt_IZR in H0. lia. }
  rewrite H. destruct (Req_EM_T (IZR z) (IZR z)); congruence.
Qed.

Lemma npow_1_r x : npow x 1 = Some x.
Proof.
  unfold npow. change 1 with (IZR 1). rewrite int_of_IZR.
  destruct (Rlt_dec 0 x). { rewrite Rpower_1; auto. }
  destruct (Req_EM_T x 0); simpl; f_equal; ring.
Qed.

Lemma npow_1_l y : npow 1 y = Some 1.
Proof.
  unfold npow. destruct (Rlt_dec 0 1); [|lra]. unfold Rpower. rewrite ln_1, Rmult_0_r, exp_0; auto.
Qed.

Lemma vmap_id f v w : (forall a, f a = Some a) -> vmap f v = Some w -> w = v.
Proof.
  intros Hf; revert w; induction v as [r|l IH| |] using value_ind'; simpl; intros w HW; try discriminate.
  - rewrite Hf in HW; injection HW; auto.
  - destruct (all_some _) as [ws|] eqn:E; [|discriminate]. injection HW as <-. f_equal.
    apply all_some_iff, Forall2_map_l in E. revert IH; induction E; intros IH; inversion IH; subst; f_equal; auto.
Qed.

Lemma vmap_VA f l r : vmap f (VA l) = Some r -> exists l', r = VA l' /\ Forall2 (fun a b => vmap f a = Some b) l l'.
Proof.
  simpl. destruct (all_some _) as [ws|] eqn:E; [|discriminate]. intros H; injection H as <-.
  exists ws; split; auto. apply all_some_iff, Forall2_map_l in E; auto.
Qed.

(** Exact equality tests of the model. *)
Lemma neqb_R (a b : R) : @neqb R (@enum_num R R_enum) a b = true -> a = b.
Proof. apply Reqb_true. Qed.

Lemma is_elem_inv (e : expr R) c : is_elem e c = true -> exists x, c = Some x /\ e = EConst x.
Proof.
  destruct c as [c|]; [|discriminate]. destruct e; simpl; try discriminate.
  intros H. apply neqb_R in H as ->. eauto.
Qed.

Ltac req := repeat match goal with
  | |- context [Req_EM_T ?a ?b] => destruct (Req_EM_T a b)
  | H : context [Req_EM_T ?a ?b] |- _ => destruct (Req_EM_T a b)
  end.

(** Identity and zero rules. *)
Lemma left_zero_val lz o c vr v : left_zero o = Some c -> obin lz o (Some (VN c)) vr = Some v -> v = VN c.
Proof.
  destruct o; simpl; try discriminate; intros E; injection E as <-.
  - destruct lz; simpl; req; try lra; try congruence;
    destruct vr as [[b|l| |]|]; simpl; try discriminate; req; try congruence; intros H; injection H as <-; f_equal; lra.
  - destruct vr as [[b|l| |]|]; simpl; try discriminate; req; try discriminate; intros H; injection H as <-; f_equal.
    unfold Rdiv; lra.
  - destruct vr as [[b|l| |]|]; simpl; try discriminate. rewrite npow_1_l; simpl; congruence.
  - destruct vr as [[b|l| |]|]; simpl; try discriminate. intros H; injection H as <-; f_equal; lra.
Qed.

Lemma left_id_val lz o c vr v : left_identity o = Some c -> obin lz o (Some (VN c)) vr = Some v -> vr = Some v.
Proof.
  destruct o; simpl; try discriminate; intros E; injection E as <-.
  - destruct vr as [[b|l| |]|]; simpl; try discriminate. intros H; injection H as <-; do 2 f_equal; lra.
  - destruct (Req_EM_T 1 0); [lra|]. rewrite andb_false_r.
    destruct vr as [[b|l| |]|]; cbn [vbin bc_left]; try discriminate.
    + simpl. intros H; injection H as <-; do 2 f_equal; lra.
    + destruct (Req_EM_T 1 0); [lra|]. intros H. apply vmap_id in H; [congruence|].
      intros a; simpl; f_equal; lra.
Qed.

Lemma right_zero_val lz o c vl v : right_zero o = Some c -> obin lz o vl (Some (VN c)) = Some v -> v = VN c.
Proof.
  destruct o; simpl; try discriminate; intros E; injection E as <-.
  destruct (lz && vzero vl); [congruence|].
  destruct vl as [[b|l| |]|]; cbn [vbin bc_right]; try discriminate.
  - simpl. intros H; injection H as <-; f_equal; lra.
  - destruct (Req_EM_T 0 0); [discriminate|congruence].
Qed.

Lemma right_id_val lz o c vl v : right_identity o = Some c -> obin lz o vl (Some (VN c)) = Some v -> vl = Some v.
Proof.
  assert (Hid : forall f w v, (forall a, f a = Some a) -> vmap f w = Some v -> Some w = Some v).
  { intros f w u Hf H; apply vmap_id in H; congruence. }
  destruct o; simpl; try discriminate; intros E; injection E as <-.
  - destruct vl as [[b|l| |]|]; cbn [vbin bc_right]; try discriminate.
    + simpl; intros H; injection H as <-; do 2 f_equal; lra.
    + apply Hid; intros; simpl; f_equal; lra.
  - destruct vl as [[b|l| |]|]; cbn [vbin bc_right]; try discriminate.
    + simpl; intros H; injection H as <-; do 2 f_equal; lra.
    + apply Hid; intros; simpl; f_equal; lra.
  - destruct vl as [[b|l| |]|]; cbn [vbin bc_right vzero].
    + destruct (lz && _) eqn:E.
      * intros H; injection H as <-. destruct (Req_EM_T b 0); [subst; auto|rewrite andb_false_r in E; discriminate].
      * simpl; intros H; injection H as <-; do 2 f_equal; lra.
    + rewrite andb_false_r. destruct (Req_EM_T 1 0); [lra|]. apply Hid; intros; simpl; f_equal; lra.
    + rewrite andb_false_r; discriminate.
    + rewrite andb_false_r; discriminate.
    + rewrite andb_false_r; discriminate.
  - destruct vl as [[b|l| |]|]; cbn [vbin bc_right]; try discriminate.
    + simpl; req; [lra|]. simpl; intros H; injection H as <-; do 2 f_equal; field.
    + apply Hid; intros; simpl. req; [lra|]; f_equal; field.
  - destruct vl as [[b|l| |]|]; cbn [vbin bc_right]; try discriminate.
    simpl. rewrite npow_1_r; simpl. congruence.
  - destruct vl as [[b|l| |]|]; cbn [vbin bc_right]; try discriminate.
    simpl; intros H; injection H as <-; do 2 f_equal; lra.
Qed.

(** Scalar values. *)
Lemma vbin_notVA o a b v : isVA a = false -> isVA b = false -> vbin o a b = Some v ->
  exists x y z, a = VN x /\ b = VN y /\ nbin o x y = Some z /\ v = VN z.
Proof.
  destruct a, b; simpl; try discriminate; intros _ _. destruct (nbin o r r0) eqn:E; simpl; [|discriminate].
  intros H; injection H as <-; eauto 8.
Qed.

Lemma obin_strict lz o x y w : vbin o x y = Some w -> (o <> BEq /\ o <> BAcc /\ o <> BUnc) ->
  obin lz o (Some x) (Some y) = Some w.
Proof.
  intros H (H1 & H2 & H3). destruct o; try congruence; simpl; auto.
  destruct (lz && _) eqn:E; auto.
  apply andb_true_iff in E as [_ E]. destruct x; try discriminate.
  destruct (Req_EM_T r 0); try discriminate. subst.
  assert (w = VN 0) by (eapply (left_zero_val false BMul _ (Some y)); [reflexivity|exact H]). congruence.
Qed.

Lemma vbin_right o b x w : bc_right o b = true -> vmap (fun a => nbin o a b) x = Some w ->
  vbin o x (VN b) = Some w.
Proof. destruct x; simpl; auto; try discriminate. intros ->; auto. Qed.

Lemma vbin_left o a x w : bc_left o a = true -> vmap (fun b => nbin o a b) x = Some w ->
  vbin o (VN a) x = Some w.
Proof. destruct x; simpl; auto; try discriminate. intros ->; auto. Qed.

Lemma eval_arr lz s env es v : eval lz s env (EArr es) = Some v ->
  exists l, v = VA l /\ Forall2 (fun e w => eval lz s env e = Some w) es l.
Proof.
  simpl. destruct (all_some _) eqn:E; [|discriminate]. intros H; injection H as <-.
  apply all_some_iff, Forall2_map_l in E. eauto.
Qed.
Lemma eval_arr_intro lz s env es l : Forall2 (fun e w => eval lz s env e = Some w) es l ->
  eval lz s env (EArr es) = Some (VA l).
Proof. intros H. simpl. apply (Forall2_map_l (eval lz s env) (fun o a => o = Some a)), all_some_iff in H. rewrite H; reflexivity. Qed.

Lemma bc_right_op o b : bc_right o b = true -> o <> BEq /\ o <> BAcc /\ o <> BUnc.
Proof. destruct o; simpl; try discriminate; repeat split; discriminate. Qed.

Lemma arr_right lz s env o xs r vs b v :
  Forall2 (fun e w => eval lz s env e = Some w) xs vs -> eval lz s env r = Some (VN b) ->
  vbin o (VA vs) (VN b) = Some v ->
  eval lz s env (EArr (map (fun x => EBin o x r) xs)) = Some v /\ isVA v = true.
Proof.
  intros Hx Hr. cbn [vbin]. destruct (bc_right o b) eqn:Hb; [|discriminate].
  intros H. apply vmap_VA in H as (ws & -> & H). split; [|reflexivity].
  apply eval_arr_intro. apply Forall2_map_l.
  revert ws H; induction Hx; intros ws H1; inversion H1; subst; constructor; auto.
  rewrite eval_bin, H, Hr. apply obin_strict; [|eapply bc_right_op; eauto].
  apply vbin_right; auto.
Qed.

Lemma arr_left lz s env l ys vs a v :
  Forall2 (fun e w => eval lz s env e = Some w) ys vs -> eval lz s env l = Some (VN a) ->
  vbin BMul (VN a) (VA vs) = Some v ->
  eval lz s env (EArr (map (fun y => EBin BMul l y) ys)) = Some v /\ isVA v = true.
Proof.
  intros Hx Hr. cbn [vbin]. destruct (bc_left BMul a) eqn:Hb; [|discriminate].
  intros H. apply vmap_VA in H as (ws & -> & H). split; [|reflexivity].
  apply eval_arr_intro. apply Forall2_map_l.
  revert ws H; induction Hx; intros ws H1; inversion H1; subst; constructor; auto.
  rewrite eval_bin, H, Hr. apply obin_strict; [|repeat split; discriminate].
  apply vbin_left; auto.
Qed.

Lemma arr_zip lz s env o xs ys vs us v :
  Forall2 (fun e w => eval lz s env e = Some w) xs vs ->
  Forall2 (fun e w => eval lz s env e = Some w) ys us ->
  vbin o (VA vs) (VA us) = Some v ->
  exists ws, v = VA ws /\ Forall2 (fun e w => eval lz s env e = Some w) (zipb o xs ys) ws.
Proof.
  intros Hx Hy. cbn [vbin]. destruct (elementwise o) eqn:Ho; [|discriminate].
  match goal with |- context [option_map VA (?f vs us)] => set (zip := f) end.
  destruct (zip vs us) as [ws|] eqn:E; [|discriminate]. intros H; injection H as <-. exists ws; split; auto.
  revert us ys Hy ws E; induction Hx as [|x a xs vs Ha Hx IH]; intros us ys Hy ws E.
  - destruct Hy; simpl in E; [injection E as <-; constructor|discriminate].
  - destruct Hy as [|y b ys us Hb Hy]; simpl in E; [discriminate|].
    destruct (vbin o a b) as [c|] eqn:Ec; [|discriminate].
    fold (zip vs us) in E. destruct (zip vs us) as [cs|] eqn:Ecs; [|discriminate].
    injection E as <-. simpl. constructor; [|eapply IH; eauto].
    rewrite eval_bin, Ha, Hb. apply obin_strict; auto.
    destruct o; try discriminate; repeat split; discriminate.
Qed.

(** The value rules for the dispatch on concrete node types. *)
Definition arr_ok lz s env (e : expr R) : Prop :=
  forall v, eval lz s env e = Some v -> isVA v = true -> is_array e = true.

Lemma arr_ok_not lz s env e v : arr_ok lz s env e -> is_array e = false ->
  eval lz s env e = Some v -> isVA v = false.
Proof. intros H H1 H2. destruct (isVA v) eqn:E; auto. rewrite (H _ H2 E) in H1; discriminate. Qed.

Lemma obin_notVA lz o x y v : isVA x = false -> isVA y = false -> obin lz o (Some x) (Some y) = Some v ->
  isVA v = false.
Proof.
  intros Hx Hy. destruct o; cbn [obin]; try discriminate;
  try (intros H; apply vbin_notVA in H as (? & ? & ? & _ & _ & _ & ->); auto; fail).
  - destruct (lz && _); [intros H; injection H as <-; auto|].
    intros H; apply vbin_notVA in H as (? & ? & ? & _ & _ & _ & ->); auto.
  - intros H; injection H as <-; auto.
Qed.

Lemma obin_none_r lz o x v : obin lz o x None = Some v -> v = VN 0 /\ o = BMul /\ lz = true /\ x = Some (VN 0).
Proof.
  destruct o; simpl; try (destruct x; discriminate).
  destruct lz; simpl; [|destruct x; discriminate].
  destruct x as [[a| | |]|]; simpl; try discriminate.
  destruct (Req_EM_T a 0); [|discriminate]. intros H; injection H as <-. subst; auto.
Qed.
Lemma obin_none_l lz o y v : obin lz o None y = Some v -> False.
Proof. destruct o; simpl; rewrite ?andb_false_r; discriminate. Qed.

(** Products: re-association of numeric factors. *)
Definition notVA (v : option value) : Prop := forall w, v = Some w -> isVA w = false.

(* what a product of a number and something is, when it is not an array *)
Lemma mul_num_l lz a vb w : obin lz BMul (Some (VN a)) vb = Some w -> isVA w = false ->
  (exists b, vb = Some (VN b) /\ w = VN (a * b)) \/ (lz = true /\ a = 0 /\ w = VN 0).
Proof.
  cbn [obin vzero]. destruct (Req_EM_T a 0) as [->|Ha].
  - destruct lz; cbn [andb].
    + intros H _; injection H as <-; auto.
    + destruct vb as [[b|l| |]|]; cbn [vbin bc_left]; try discriminate.
      * simpl; intros H _; injection H as <-; eauto.
      * destruct (Req_EM_T 0 0); [discriminate|congruence].
  - rewrite andb_false_r. destruct vb as [[b|l| |]|]; cbn [vbin]; try discriminate.
    + simpl; intros H _; injection H as <-; eauto.
    + destruct (bc_left BMul a); [|discriminate].
      intros H. apply vmap_VA in H as (? & -> & _). discriminate.
Qed.

Lemma mul_num_r lz va b w : obin lz BMul va (Some (VN b)) = Some w -> isVA w = false ->
  exists a, va = Some (VN a) /\ w = VN (a * b).
Proof.
  cbn [obin]. destruct va as [[a|l| |]|]; cbn [vzero vbin]; rewrite ?andb_false_r; try discriminate.
  - destruct (Req_EM_T a 0) as [->|Ha].
    + destruct lz; simpl; intros H _; injection H as <-; exists 0; split; auto; f_equal; lra.
    + rewrite andb_false_r; simpl; intros H _; injection H as <-; eauto.
  - destruct (bc_right BMul b); [|discriminate].
    intros H. apply vmap_VA in H as (? & -> & _). discriminate.
Qed.

Lemma mul_nn lz a b : obin lz BMul (Some (VN a)) (Some (VN b)) = Some (VN (a * b)).
Proof. apply obin_strict; [reflexivity|repeat split; discriminate]. Qed.
Lemma mul_0 vb : obin true BMul (Some (VN 0)) vb = Some (VN 0).
Proof. cbn [obin vzero andb]. destruct (Req_EM_T 0 0); [reflexivity|congruence]. Qed.

Lemma assocA lz k a vb v : notVA (obin lz BMul (Some (VN a)) vb) ->
  obin lz BMul (Some (VN k)) (obin lz BMul (Some (VN a)) vb) = Some v ->
  obin lz BMul (Some (VN (k * a))) vb = Some v /\ isVA v = false.
Proof.
  intros Hn H. assert (Hv : isVA v = false).
  { destruct (obin lz BMul (Some (VN a)) vb) as [w|].
    - eapply obin_notVA; [| |exact H]; auto.
    - apply obin_none_r in H as (-> & _); auto. }
  split; auto.
  apply mul_num_l in H as [(b & Hb & ->)|(-> & -> & ->)]; auto.
  - apply mul_num_l in Hb as [(c & -> & Hc)|(-> & -> & Hc)]; auto; injection Hc as ->.
    + rewrite mul_nn; do 2 f_equal; lra.
    + rewrite !Rmult_0_r; apply mul_0.
  - rewrite Rmult_0_l; apply mul_0.
Qed.

Lemma assocB lz k b va v : notVA (obin lz BMul va (Some (VN b))) ->
  obin lz BMul (Some (VN k)) (obin lz BMul va (Some (VN b))) = Some v ->
  obin lz BMul (Some (VN (k * b))) va = Some v /\ isVA v = false.
Proof.
  intros Hn H. assert (Hv : isVA v = false).
  { destruct (obin lz BMul va _) as [w|].
    - eapply obin_notVA; [| |exact H]; auto.
    - apply obin_none_r in H as (-> & _); auto. }
  split; auto.
  apply mul_num_l in H as [(c & Hb & ->)|(-> & -> & ->)]; auto.
  - apply mul_num_r in Hb as (d & -> & Hc); auto; injection Hc as ->.
    rewrite mul_nn; do 2 f_equal; lra.
  - rewrite Rmult_0_l; apply mul_0.
Qed.

Lemma assocC lz k a vb v : notVA (obin lz BMul (Some (VN a)) vb) ->
  obin lz BMul (obin lz BMul (Some (VN a)) vb) (Some (VN k)) = Some v ->
  obin lz BMul (Some (VN (k * a))) vb = Some v /\ isVA v = false.
Proof.
  intros Hn H. assert (Hv : isVA v = false).
  { destruct (obin lz BMul (Some (VN a)) vb) as [w|].
    - eapply obin_notVA; [| |exact H]; auto.
    - apply obin_none_l in H as []. }
  split; auto.
  apply mul_num_r in H as (b & Hb & ->); auto.
  apply mul_num_l in Hb as [(c & -> & Hc)|(-> & -> & Hc)]; auto; injection Hc as ->.
  - rewrite mul_nn; do 2 f_equal; lra.
  - rewrite Rmult_0_r, Rmult_0_l; apply mul_0.
Qed.

Lemma assocD lz k b va v : notVA (obin lz BMul va (Some (VN b))) ->
  obin lz BMul (obin lz BMul va (Some (VN b))) (Some (VN k)) = Some v ->
  obin lz BMul (Some (VN (k * b))) va = Some v /\ isVA v = false.
Proof.
  intros Hn H. assert (Hv : isVA v = false).
  { destruct (obin lz BMul va _) as [w|].
    - eapply obin_notVA; [| |exact H]; auto.
    - apply obin_none_l in H as []. }
  split; auto.
  apply mul_num_r in H as (c & Hb & ->); auto.
  apply mul_num_r in Hb as (d & -> & Hc); auto; injection Hc as ->.
  rewrite mul_nn; do 2 f_equal; lra.
Qed.

Lemma isVA_inv v : isVA v = true -> exists l, v = VA l.
Proof. destruct v; try discriminate; eauto. Qed.

Lemma dd_value lz s env o l r x v :
  arr_ok lz s env l -> arr_ok lz s env r -> (is_array l = false \/ is_array r = false) ->
  (o = BMul -> units_free r /\ (is_units l = true -> lz = false /\ is_array r = false)) ->
  (lz = true -> is_array r = false) ->
  dd_visit o l r = Ret x ->
  eval lz s env (EBin o l r) = Some v ->
  match x with
  | Some e => eval lz s env e = Some v /\ (isVA v = true -> is_array e = true)
  | None => isVA v = false
  end.
Proof.
  intros Al Ar Harr Hu Hlz Hd Hv.
  assert (Nl : is_array l = false -> notVA (eval lz s env l))
    by (intros H w Hw; eapply (arr_ok_not lz s env l); eauto).
  assert (Nr : is_array r = false -> notVA (eval lz s env r))
    by (intros H w Hw; eapply (arr_ok_not lz s env r); eauto).
  assert (NV : is_array l = false -> is_array r = false -> isVA v = false).
  { intros H1 H2. rewrite eval_bin in Hv.
    destruct (eval lz s env l) as [a|] eqn:El; [|apply obin_none_l in Hv as []].
    destruct (eval lz s env r) as [b|] eqn:Er; [|apply obin_none_r in Hv as (-> & _); auto].
    eapply obin_notVA; [apply (Nl H1); reflexivity|apply (Nr H2); reflexivity|exact Hv]. }
  apply dd_visit_case in Hd. rewrite eval_bin in Hv.
  destruct Hd; subst; cbn [is_array] in *.
  - rewrite eval_bin in *. cbn [eval] in *. change (nmul k a) with (k * a).
    apply assocA in Hv as [H1 H2]; [|apply Nr; auto]. split; auto. congruence.
  - rewrite eval_bin in *. cbn [eval] in *. change (nmul k b) with (k * b).
    apply assocB in Hv as [H1 H2]; [|apply Nr; auto]. split; auto. congruence.
  - rewrite eval_bin in *. cbn [eval] in *. change (nmul k a) with (k * a).
    apply assocC in Hv as [H1 H2]; [|apply Nl; auto]. split; auto. congruence.
  - rewrite eval_bin in *. cbn [eval] in *. change (nmul k b) with (k * b).
    apply assocD in Hv as [H1 H2]; [|apply Nl; auto]. split; auto. congruence.
  - auto.
  - (* multiplication *)
    destruct (Hu eq_refl) as [Huf Hul]. clear Hu.
    destruct (mul_apply_case l r); subst.
    + cbn [eval] in Hv. rewrite mul_nn in Hv. injection Hv as <-. split; auto; discriminate.
    + discriminate Huf.
    + destruct (Hul eq_refl) as [-> Hna].
      assert (E : mul_expr_any m r = EBin BMul m r) by (destruct r; try reflexivity; discriminate).
      rewrite E. split; [|rewrite NV; auto; discriminate].
      rewrite !eval_bin in *.
      destruct (eval false s env m) as [vm|]; [|destruct (eval false s env u); discriminate].
      destruct (eval false s env u) as [vu|]; [|discriminate].
      destruct (eval false s env r) as [vr|] eqn:Er; [|apply obin_none_r in Hv as (_ & _ & ? & _); discriminate].
      assert (Hm : isVA vr = false) by (eapply Nr; auto).
      cbn [obin] in *. rewrite !andb_false_l in *.
      destruct vm as [m1| | |], vu as [u1| | |]; try discriminate.
      destruct vr as [r1| | |]; try discriminate. simpl in *. injection Hv as <-. do 2 f_equal; lra.
    + discriminate Huf.
    + cbn [is_array] in *. destruct Harr as [|Hna]; [discriminate|].
      destruct (eval lz s env (EArr xs)) as [vx|] eqn:Ex; [|apply obin_none_l in Hv as []].
      apply eval_arr in Ex as (vs & -> & Hxs).
      destruct (eval lz s env r) as [vr|] eqn:Er; [|apply obin_none_r in Hv as (_ & _ & _ & ?); discriminate].
      assert (Hvr : isVA vr = false) by (eapply Nr; auto).
      cbn [obin vzero] in Hv. rewrite andb_false_r in Hv.
      destruct vr as [b| | |]; try discriminate.
      eapply arr_right in Hv as [H1 H2]; eauto.
    + cbn [is_array] in *.
      destruct (eval lz s env l) as [vl|] eqn:El; [|apply obin_none_l in Hv as []].
      assert (Hvl : isVA vl = false) by (eapply Nl; auto).
      destruct (eval lz s env (EArr ys)) as [vy|] eqn:Ey.
      * apply eval_arr in Ey as (vs & -> & Hys).
        destruct vl as [a| | |]; try discriminate; try (cbn [obin vzero] in Hv; rewrite andb_false_r in Hv; discriminate).
        cbn [obin] in Hv. destruct (lz && vzero (Some (VN a))) eqn:Ez.
        -- apply andb_true_iff in Ez as [-> _]. specialize (Hlz eq_refl); discriminate.
        -- eapply arr_left in Hv as [H1 H2]; eauto.
      * apply obin_none_r in Hv as (_ & _ & -> & _). specialize (Hlz eq_refl); discriminate.
    + split. { rewrite eval_bin; auto. } rewrite NV; auto; discriminate.
  - (* 0 - r *)
    match goal with H : neqb _ _ = true |- _ => apply neqb_R in H; subst end.
    destruct (eval lz s env r) as [vr|] eqn:Er; [|apply obin_none_r in Hv as (_ & ? & _); discriminate].
    cbn [eval obin] in Hv. destruct vr as [b| | |]; try discriminate. simpl in Hv. injection Hv as <-.
    destruct r; split; try discriminate; cbn [eval] in *.
    all: try (rewrite Er; simpl).
    all: try (injection Er as ->).
    all: do 2 f_equal; simpl; lra.
  - (* no change *)
    destruct (eval lz s env l) as [vl|] eqn:El; [|apply obin_none_l in Hv as []].
    destruct (eval lz s env r) as [vr|] eqn:Er; [|apply obin_none_r in Hv as (_ & ? & _); discriminate].
    assert (Hvl : isVA vl = false) by (eapply Nl; auto).
    cbn [obin] in Hv. destruct vl; try discriminate. destruct vr; try discriminate.
    simpl in Hv; injection Hv as <-; auto.
  - (* folding *)
    cbn [eval obin] in Hv.
    assert (Hn : eval lz s env (EConst (nfold o a b)) = Some v /\ isVA v = false).
    { destruct H1 as [->|[->|[->| ->]]]; cbn [obin vbin nbin option_map] in Hv.
      - injection Hv as <-; split; reflexivity.
      - injection Hv as <-; split; reflexivity.
      - destruct (Req_EM_T b 0); [discriminate|]. injection Hv as <-; split; reflexivity.
      - cbn [eval nfold epow R_enum]. destruct (npow a b); [|discriminate]. injection Hv as <-; split; reflexivity. }
    destruct Hn as [H2 H3]; split; auto. rewrite H3; discriminate.
  - (* array on the left *)
    cbn [is_array] in *. destruct Harr as [|Hna]; [discriminate|].
    destruct (eval lz s env (EArr xs)) as [vx|] eqn:Ex; [|apply obin_none_l in Hv as []].
    apply eval_arr in Ex as (vs & -> & Hxs).
    destruct (eval lz s env r) as [vr|] eqn:Er; [|apply obin_none_r in Hv as (_ & _ & _ & ?); discriminate].
    assert (Hvr : isVA vr = false) by (eapply Nr; auto).
    assert (Hb : vbin o (VA vs) vr = Some v).
    { destruct H0 as [->|[->| ->]]; exact Hv. }
    destruct vr as [b| | |]; try (simpl in Hb; discriminate).
    eapply arr_right in Hb as [H1 H2]; eauto.
  - (* quantities divided *)
    split; [|rewrite NV; auto; discriminate].
    rewrite !eval_bin in *.
    destruct (eval lz s env m) as [[m1| | |]|], (eval lz s env u) as [[u1| | |]|],
      (eval lz s env m') as [[m2| | |]|], (eval lz s env u') as [[u2| | |]|]; try discriminate.
    simpl in Hv |- *. destruct (Req_EM_T (m2 * u2) 0) as [|Hn]; [discriminate|]. simpl in Hv. injection Hv as <-.
    assert (m2 <> 0) by (intros ->; lra). assert (u2 <> 0) by (intros ->; lra).
    req; try congruence. simpl. do 2 f_equal. field; auto.
  - (* ArrayAccess has no value *)
    destruct (eval lz s env l), (eval lz s env r); discriminate.
  - split; [rewrite eval_bin; auto|]. intros Hva. exfalso.
    destruct (eval lz s env l) as [vl|] eqn:El; [|apply obin_none_l in Hv as []].
    destruct (eval lz s env r) as [vr|] eqn:Er; [|apply obin_none_r in Hv as (-> & _); discriminate].
    destruct H0 as [H0|H0].
    + destruct (is_array r) eqn:Ear; [|rewrite NV in Hva; auto; discriminate].
      assert (Hvl : isVA vl = false) by (eapply Nl; auto).
      apply isVA_inv in Hva as (w & ->).
      destruct o; cbn [obin] in Hv; try congruence; try (destruct vl; try discriminate; destruct vr; try discriminate;
        simpl in Hv; try discriminate; try (destruct (npow _ _); discriminate); try (destruct (Req_EM_T _ _); discriminate)).
    + apply isVA_inv in Hva as (w & ->).
      destruct H0 as [->|[->|[->| ->]]]; cbn [obin] in Hv; try discriminate;
        destruct vl; try discriminate; destruct vr; try discriminate; simpl in Hv; try discriminate.
      destruct (npow _ _); discriminate.
Qed.

(** ** The main induction. *)
Lemma has_node_ext {K} (p q : expr K -> bool) : (forall e, p e = q e) -> forall e, has_node p e = has_node q e.
Proof.
  intros H; induction e as [c|x|o a IHa|o l r IHl IHr|es IH|d IH] using expr_ind'; simpl; rewrite H; f_equal; auto.
  - rewrite IHl, IHr; auto.
  - induction IH; simpl; congruence.
  - induction IH; simpl; congruence.
Qed.

Definition pbU (o : bop) : bool := match o with BUnits => true | _ => false end.
Lemma units_free_clean {K} `{ENum K} (e : expr K) : units_free e <-> clean pbU false false e.
Proof.
  unfold units_free, clean. rewrite (has_node_ext is_units (nodep pbU false false)); [tauto|].
  intros [| |[]|[]| |]; reflexivity.
Qed.
Lemma array_free_clean {K} `{ENum K} (e : expr K) : array_free e <-> clean (fun _ => false) true false e.
Proof.
  unfold array_free, clean. rewrite (has_node_ext is_array (nodep (fun _ => false) true false)); [tauto|].
  intros []; reflexivity.
Qed.

Definition nur {K} (e : expr K) : Prop := has_node units_in_right_factor e = false.

Lemma nur_bin {K} o (l r : expr K) : nur (EBin o l r) <->
  (o = BMul -> units_free r) /\ nur l /\ nur r.
Proof.
  unfold nur, units_free; simpl. rewrite !orb_false_iff.
  destruct o; split; intros H; decompose [and] H; repeat split; auto; discriminate.
Qed.
Lemma nur_arr {K} (es : list (expr K)) : nur (EArr es) <-> Forall nur es.
Proof.
  unfold nur; simpl. induction es; simpl; [split; auto|]. rewrite orb_false_iff, IHes, Forall_cons_iff; tauto.
Qed.
Lemma nur_dict {K} (d : list (string * expr K)) : nur (EDict d) <-> Forall (fun kv => nur (snd kv)) d.
Proof.
  unfold nur; simpl. induction d; simpl; [split; auto|]. rewrite orb_false_iff, IHd, Forall_cons_iff; tauto.
Qed.

Lemma array_free_notVA lz s env e v : scalar_env env -> array_free e ->
  eval lz s env e = Some v -> isVA v = false.
Proof.
  intros Henv; revert v; induction e as [c|x|o a IHa|o l r IHl IHr|es IH|d IH] using expr_ind'; intros v Ha H.
  - injection H as <-; auto.
  - destruct (Henv _ _ H) as [r ->]; auto.
  - simpl in H. destruct (eval lz s env a) as [[x| | |]|]; try discriminate.
    destruct (nun s o x); [|discriminate]. injection H as <-; auto.
  - rewrite eval_bin in H. apply array_free_clean, clean_bin in Ha as (_ & Hl & Hr).
    apply array_free_clean in Hl, Hr.
    destruct (eval lz s env l) as [vl|] eqn:El; [|apply obin_none_l in H as []].
    destruct (eval lz s env r) as [vr|] eqn:Er; [|apply obin_none_r in H as (-> & _); auto].
    eapply obin_notVA; [apply IHl|apply IHr|exact H]; auto.
  - discriminate Ha.
  - simpl in H. match type of H with option_map VD ?t = _ => destruct t end; [|discriminate].
    injection H as <-; auto.
Qed.

(** The expressions for which preservation is proved: no units, or no arrays and
    no quantity with units in the right factor of a product. *)
Definition okx (lz : bool) (e : expr R) : Prop :=
  (lz = false /\ units_free e) \/ (array_free e /\ nur e /\ (lz = true -> units_free e)).

Lemma okx_un lz o a : okx lz (EUn o a) -> okx lz a.
Proof. unfold okx; simpl; auto. Qed.
Lemma okx_bin lz o l r : okx lz (EBin o l r) -> okx lz l /\ okx lz r.
Proof.
  unfold okx. rewrite !units_free_clean, !array_free_clean, nur_bin, !clean_bin.
  intros [(H1 & _ & H2 & H3)|((_ & H1 & H2) & (_ & H3 & H4) & H5)]; split; auto.
  - right; repeat split; auto. intros E; apply H5 in E; tauto.
  - right; repeat split; auto. intros E; apply H5 in E; tauto.
Qed.
Lemma okx_arr lz es : okx lz (EArr es) -> lz = false /\ Forall (okx lz) es.
Proof.
  unfold okx. rewrite !units_free_clean, !array_free_clean, !clean_arr.
  intros [(H1 & _ & H2)|((? & _) & _)]; [|discriminate]. split; auto.
  eapply Forall_impl; [|exact H2]. intros e He; left. rewrite units_free_clean; auto.
Qed.
Lemma okx_dict lz d : okx lz (EDict d) -> Forall (fun kv => okx lz (snd kv)) d.
Proof.
  unfold okx. rewrite !units_free_clean, !array_free_clean, nur_dict, !clean_dict, !Forall_forall.
  intros H kv Hin. rewrite !units_free_clean, !array_free_clean.
  destruct H as [(H1 & _ & H2)|((_ & H1) & H2 & H3)]; [left|right]; auto.
  repeat split; auto. intros E; apply H3 in E as [_ E]; auto.
Qed.

Definition keep {A} (a : A) (m : option A) : A := match m with Some x => x | None => a end.

Lemma simp_clean_keep {K} `{ENum K} pb pa pd fuel (e : expr K) m :
  clean pb pa pd e -> simp fuel e = Ret m -> clean pb pa pd (keep e m).
Proof. destruct m; simpl; auto. apply simp_clean. Qed.

Lemma simp_value : forall fuel lz s env e m v, scalar_env env -> okx lz e ->
  simp fuel e = Ret m -> eval lz s env e = Some v ->
  eval lz s env (keep e m) = Some v /\ (isVA v = true -> is_array (keep e m) = true).
Proof.
  intros fuel; induction fuel as [fuel IHf] using lt_wf_ind.
  intros lz s env e; induction e as [c|x|o a IHa|o l r IHl IHr|es IH|d IH] using expr_ind';
    intros m v Henv Hok; rewrite simp_unfold; cbn [simp_body]; intros Hm Hv.
  - injection Hm as <-. simpl. split; auto. injection Hv as <-; discriminate.
  - injection Hm as <-. simpl. split; auto. destruct (Henv _ _ Hv) as [r ->]; discriminate.
  - apply obind_ret in Hm as (ma & Hma & Hm). apply okx_un in Hok.
    cbn [eval] in Hv. destruct (eval lz s env a) as [va|] eqn:Ea; [|discriminate].
    destruct (IHa _ _ Henv Hok Hma eq_refl) as [H1 _].
    fold (keep a ma) in Hm.
    destruct va as [x| | |]; try discriminate.
    assert (Hnv : isVA v = true -> False).
    { destruct (nun s o x); [|discriminate]. injection Hv as <-; discriminate. }
    split; [|intros; exfalso; auto].
    assert (Hgen : eval lz s env (EUn o (keep a ma)) = Some v) by (cbn [eval]; rewrite H1; auto).
    assert (Hrest : m = match ma with Some y => Some (EUn o y) | None => None end ->
                    eval lz s env (keep (EUn o a) m) = Some v).
    { intros ->. destruct ma; exact Hgen. }
    destruct (keep a ma) as [c| | | | |] eqn:Ek; try (injection Hm as <-; apply Hrest; reflexivity).
    injection Hm as <-. injection H1 as ->. cbn [keep].
    destruct o; cbn [ueval]; try exact Hgen; cbn [eval nun option_map] in Hgen |- *; auto.
    destruct (Rlt_dec 0 x); [auto|discriminate].
  - apply obind_ret in Hm as (ml & Hml & Hm). apply obind_ret in Hm as (mr & Hmr & Hm).
    fold (keep l ml) in Hm. fold (keep r mr) in Hm.
    destruct (okx_bin _ _ _ _ Hok) as [Hokl Hokr].
    assert (Ll : le (eval lz s env l) (eval lz s env (keep l ml))) by (intros w Hw; eapply IHl; eauto).
    assert (Lr : le (eval lz s env r) (eval lz s env (keep r mr))) by (intros w Hw; eapply IHr; eauto).
    assert (Hafl : array_free l -> array_free (keep l ml)).
    { rewrite !array_free_clean. intros; eapply simp_clean_keep; eauto. }
    assert (Hafr : array_free r -> array_free (keep r mr)).
    { rewrite !array_free_clean. intros; eapply simp_clean_keep; eauto. }
    assert (Hufr : units_free r -> units_free (keep r mr)).
    { rewrite !units_free_clean. intros; eapply simp_clean_keep; eauto. }
    assert (Hufl : units_free l -> units_free (keep l ml)).
    { rewrite !units_free_clean. intros; eapply simp_clean_keep; eauto. }
    assert (Hstrict : array_free (EBin o l r) \/ (lz = false /\ units_free l /\ units_free r)).
    { destruct Hok as [(-> & H)|(H & _)]; auto. right. apply units_free_clean, clean_bin in H.
      rewrite !units_free_clean; tauto. }
    assert (Haf2 : array_free (EBin o l r) -> array_free (keep l ml) /\ array_free (keep r mr)).
    { intros H. apply array_free_clean, clean_bin in H. rewrite <- !array_free_clean in H. tauto. }
    assert (Al : arr_ok lz s env (keep l ml)).
    { intros w Hw HVA. destruct Hstrict as [H|(-> & _)].
      - apply Haf2 in H as [H _]. rewrite (array_free_notVA _ _ _ _ _ Henv H Hw) in HVA; discriminate.
      - rewrite eval_bin in Hv. destruct (eval false s env l) as [vl|] eqn:El; [|apply obin_none_l in Hv as []].
        destruct (IHl _ _ Henv Hokl Hml eq_refl) as [H1 H2]. rewrite H1 in Hw; injection Hw as <-. auto. }
    assert (Ar : arr_ok lz s env (keep r mr)).
    { intros w Hw HVA. destruct Hstrict as [H|(-> & _)].
      - apply Haf2 in H as [_ H]. rewrite (array_free_notVA _ _ _ _ _ Henv H Hw) in HVA; discriminate.
      - rewrite eval_bin in Hv. destruct (eval false s env r) as [vr|] eqn:Er;
          [|apply obin_none_r in Hv as (_ & _ & ? & _); discriminate].
        destruct (IHr _ _ Henv Hokr Hmr eq_refl) as [H1 H2]. rewrite H1 in Hw; injection Hw as <-. auto. }
    assert (Hv' : eval lz s env (EBin o (keep l ml) (keep r mr)) = Some v).
    { rewrite eval_bin in *. eapply obin_mono; eauto. }
    assert (Hmulu : o = BMul -> units_free (keep r mr) /\
      (is_units (keep l ml) = true -> lz = false /\ is_array (keep r mr) = false)).
    { intros ->. split.
      - apply Hufr. destruct Hok as [(_ & H)|(_ & H & _)].
        + apply units_free_clean, clean_bin in H. apply units_free_clean; tauto.
        + apply nur_bin in H as [H _]; auto.
      - intros Hul.
        assert (Hnul : ~ units_free l).
        { intros H. apply Hufl in H. destruct (keep l ml); try discriminate. destruct o; discriminate. }
        destruct Hok as [(_ & H)|(H1 & _ & H2)].
        + apply units_free_clean, clean_bin in H. rewrite <- !units_free_clean in H. tauto.
        + split.
          * destruct lz; auto. specialize (H2 eq_refl). apply units_free_clean, clean_bin in H2.
            rewrite <- !units_free_clean in H2. tauto.
          * apply Haf2 in H1 as [_ H1]. destruct (keep r mr); try reflexivity. discriminate H1. }
    assert (Hlz : lz = true -> is_array (keep r mr) = false).
    { intros ->. destruct Hstrict as [H|(? & _)]; [|discriminate]. apply Haf2 in H as [_ H].
      destruct (keep r mr); try reflexivity. discriminate H. }
    assert (Hzip : lz = false \/ (is_array (keep l ml) = false)).
    { destruct lz; auto. destruct Hstrict as [H|(? & _)]; [|discriminate]. apply Haf2 in H as [H _].
      right. destruct (keep l ml); try reflexivity. discriminate H. }
    assert (Huz : is_array (keep l ml) = true -> units_free (keep l ml) /\ units_free (keep r mr)).
    { intros H0. destruct Hstrict as [H|(_ & H1 & H2)]; auto. apply Haf2 in H as [H _].
      destruct (keep l ml); try discriminate. }
    clear Hok Hokl Hokr Ll Lr Hafl Hafr Hufr Hufl Hstrict Haf2 IHl IHr.
    assert (Hlast : (ml = None -> mr = None -> keep l ml = l /\ keep r mr = r)) by (intros -> ->; auto).
    remember (keep l ml) as l' eqn:El'. remember (keep r mr) as r' eqn:Er'.
    destruct (is_elem l' (left_zero o)) eqn:E1.
    { apply is_elem_inv in E1 as (c & Hc & ->). rewrite Hc in Hm. injection Hm as <-. simpl.
      rewrite eval_bin in Hv'. cbn [eval] in Hv'. apply left_zero_val in Hv'; auto. subst; split; auto; discriminate. }
    destruct (is_elem l' (left_identity o)) eqn:E2.
    { apply is_elem_inv in E2 as (c & Hc & E). rewrite E in *. injection Hm as <-. simpl.
      rewrite eval_bin in Hv'. cbn [eval] in Hv'. apply left_id_val in Hv'; auto. split; [exact Hv'|exact (Ar _ Hv')]. }
    destruct (is_elem r' (right_zero o)) eqn:E3.
    { apply is_elem_inv in E3 as (c & Hc & ->). rewrite Hc in Hm. injection Hm as <-. simpl.
      rewrite eval_bin in Hv'. cbn [eval] in Hv'. apply right_zero_val in Hv'; auto. subst; split; auto; discriminate. }
    destruct (is_elem r' (right_identity o)) eqn:E4.
    { apply is_elem_inv in E4 as (c & Hc & E). rewrite E in *. injection Hm as <-. simpl.
      rewrite eval_bin in Hv'. cbn [eval] in Hv'. apply right_id_val in Hv'; auto. split; [exact Hv'|exact (Al _ Hv')]. }
    apply obind_ret in Hm as (ret & Hret & Hm).
    assert (Hdd : match ret with
       | Some e => eval lz s env e = Some v /\ (isVA v = true -> is_array e = true)
       | None => isVA v = false end).
    { assert (Hcase : (is_array l' = false \/ is_array r' = false) \/
         exists xs ys, l' = EArr xs /\ r' = EArr ys).
      { destruct l'; auto; destruct r'; auto. right; eauto. }
      destruct Hcase as [Hcase|(xs & ys & El & Er)].
      - assert (Hd : dd_visit o l' r' = Ret ret).
        { clear - Hcase Hret. destruct l'; try exact Hret; destruct r'; try exact Hret.
          destruct Hcase as [E|E]; discriminate E. }
        exact (dd_value _ _ _ _ _ _ _ _ Al Ar Hcase Hmulu Hlz Hd Hv').
      - rewrite El, Er in *. clear El Er.
        destruct Hzip as [->|?]; [|discriminate].
        rewrite eval_bin in Hv'.
        destruct (eval false s env (EArr xs)) as [vx|] eqn:Ex; [|apply obin_none_l in Hv' as []].
        destruct (eval false s env (EArr ys)) as [vy|] eqn:Ey; [|apply obin_none_r in Hv' as (_ & _ & ? & _); discriminate].
        assert (Ex2 := Ex). assert (Ey2 := Ey).
        apply eval_arr in Ex as (vs & -> & Hxs). apply eval_arr in Ey as (us & -> & Hys).
        assert (Hre : vbin o (VA vs) (VA us) = Some v ->
            (if Nat.eqb (List.length xs) (List.length ys)
             then do rs <- resimp fuel (zipb o xs ys); Ret (Some (EArr rs)) else Throw) = Ret ret ->
            match ret with
            | Some e => eval false s env e = Some v /\ (isVA v = true -> is_array e = true)
            | None => isVA v = false end).
        { intros Hb Hr.
          assert (H3 : pbU o = false).
          { destruct o; try reflexivity. cbn [vbin elementwise] in Hb. discriminate. }
          destruct (Nat.eqb _ _); [|discriminate].
          apply obind_ret in Hr as (rs & Hrs & E). injection E as <-.
          eapply arr_zip in Hb as (ws & -> & Hz); [|exact Hxs|exact Hys].
          split; [|reflexivity]. apply eval_arr_intro.
          destruct fuel as [|f]; [discriminate|]. cbn [resimp] in Hrs.
          apply oseq_ret, Forall2_map_l in Hrs.
          assert (Hcl : Forall (okx false) (zipb o xs ys)).
          { destruct (Huz eq_refl) as [H1 H2]. apply units_free_clean in H1, H2.
            apply clean_arr in H1 as [_ H1]. apply clean_arr in H2 as [_ H2].
            eapply Forall_impl; [|apply (zipb_clean pbU false false o xs ys H3 H1 H2)].
            intros e He; left; split; [reflexivity|]. apply units_free_clean; exact He. }
          revert Hrs Hz Hcl. generalize (zipb o xs ys). clear - IHf Henv.
          intros zs; revert rs ws; induction zs as [|z zs IHz]; intros rs ws Hrs Hz Hcl;
            inversion Hrs; subst; inversion Hz; subst; constructor.
          - inversion Hcl; subst. unfold or_self in *.
            match goal with H : (do r <- simp f z; _) = Ret _ |- _ =>
              apply obind_ret in H as (mz & Hmz & E) end. injection E as <-.
            eapply (IHf f); [lia|exact Henv| |exact Hmz|]; eauto.
          - inversion Hcl; subst. apply IHz; auto. }
        destruct o; try discriminate; try (apply Hre; [exact Hv'|exact Hret]).
        (* equations and units *)
        all: injection Hret as <-; split; [rewrite eval_bin, Ex2, Ey2; exact Hv'|].
        all: cbn [obin vbin elementwise] in Hv'; try discriminate.
        all: injection Hv' as <-; discriminate. }
    destruct ret as [x|]; [injection Hm as <-; simpl; auto|].
    assert (Hgoal : eval lz s env (EBin o l' r') = Some v /\ (isVA v = true -> is_array (EBin o l' r') = true)).
    { split; auto. rewrite Hdd; discriminate. }
    destruct ml, mr; injection Hm as <-; cbn [keep]; auto.
    destruct (Hlast eq_refl eq_refl) as [<- <-]; auto.
  - apply obind_ret in Hm as (rs & Hrs & Hm). injection Hm as <-. cbn [keep].
    apply eval_arr in Hv as (vs & -> & Hvs). split; [|reflexivity].
    apply okx_arr in Hok as [-> Hok].
    apply eval_arr_intro. apply oseq_ret, Forall2_map_l in Hrs.
    revert rs vs Hrs Hvs IH Hok. clear - Henv.
    induction es as [|z zs IHz]; intros rs ws Hrs Hz IH Hok;
      inversion Hrs; subst; inversion Hz; subst; constructor; inversion IH; subst; inversion Hok; subst; auto.
    unfold or_self in *.
    match goal with H : (do r <- simp fuel z; _) = Ret _ |- _ =>
        apply obind_ret in H as (mz & Hmz & E) end. injection E as <-.
    match goal with H : forall m v, scalar_env env -> _ |- _ => eapply H; eauto end.
  - apply obind_ret in Hm as (rs & Hrs & Hm). injection Hm as <-. cbn [keep].
    cbn [eval] in Hv.
    match type of Hv with option_map VD (?f d) = _ => set (go := f) in * end.
    destruct (go d) as [vs|] eqn:Ego; [|discriminate]. injection Hv as <-. split; [|discriminate].
    cbn [eval]. fold go.
    apply okx_dict in Hok. apply oseq_ret, Forall2_map_l in Hrs.
    assert (Hgo : go rs = Some vs).
    { revert rs vs Hrs Ego IH Hok. clear - Henv.
      induction d as [|(k & a) d IHd]; intros rs ws Hrs Hz IH Hok;
        inversion Hrs; subst; inversion IH; subst; inversion Hok; subst; auto.
      simpl in Hz. destruct (eval lz s env a) as [va|] eqn:Ea; [|discriminate].
      fold (go d) in Hz. destruct (go d) as [vd|] eqn:Ed; [|discriminate]. injection Hz as <-.
      unfold or_self in *. match goal with H : (do v' <- _; _) = Ret _ |- _ => apply obind_ret in H as (y' & Hy & E) end.
      injection E as <-. apply obind_ret in Hy as (mz & Hmz & E). injection E as <-.
      simpl. match goal with H : forall m v, scalar_env env -> _ |- _ =>
         destruct (H mz va Henv) as [H' _]; auto end.
      unfold keep in H'. cbn [snd] in H'. rewrite H'. fold (go l'). rewrite (IHd l' vd); auto. }
    rewrite Hgo; reflexivity.
Qed.
