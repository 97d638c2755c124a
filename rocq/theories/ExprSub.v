(** Substitution: the copying visitors compute the textbook simultaneous
    substitution, and hence the semantic one. *)
From Coq Require Import String.
From Verif Require Import Outcome Num ExprModel ExprSpec ExprBase.
Open Scope nat_scope.

Section Sub.
Context {K : Type}.

(** Textbook simultaneous substitution which leaves dictionaries alone. *)
Fixpoint subst (sg : string -> option (expr K)) (e : expr K) : expr K :=
  match e with
  | EConst _ | EDict _ => e
  | EVar y => match sg y with Some r => r | None => e end
  | EUn o a => EUn o (subst sg a)
  | EBin o l r => EBin o (subst sg l) (subst sg r)
  | EArr es => EArr (map (subst sg) es)
  end.

Definition orelse (p : expr K * option (expr K)) : expr K :=
  match snd p with Some t => t | None => fst p end.

Lemma sub_arr_some rs (dn acc : list (expr K)) :
  sub_arr rs dn (Some acc) = Some (acc ++ map orelse rs).
Proof.
  revert dn acc; induction rs as [|(x & t) rs IH]; intros; cbn [sub_arr map].
  - rewrite app_nil_r; reflexivity.
  - destruct t; rewrite IH, <- app_assoc; reflexivity.
Qed.

Lemma sub_arr_none rs (dn : list (expr K)) :
  match sub_arr rs dn None with
  | Some l => l = dn ++ map orelse rs
  | None => map orelse rs = map fst rs
  end.
Proof.
  revert dn; induction rs as [|(x & t) rs IH]; intros; cbn [sub_arr map]; [reflexivity|].
  destruct t as [t|].
  - rewrite sub_arr_some, <- app_assoc; reflexivity.
  - specialize (IH (dn ++ [x])). destruct (sub_arr rs (dn ++ [x]) None).
    + rewrite IH, <- app_assoc; reflexivity.
    + simpl. rewrite IH; reflexivity.
Qed.

Lemma visit_arr f sg (es : list (expr K)) :
  Forall (fun e => match f e with Some e' => e' | None => e end = subst sg e) es ->
  match (match sub_arr (map (fun a => (a, f a)) es) [] None with
         | Some l => Some (EArr l) | None => None end)
  with Some e' => e' | None => EArr es end = subst sg (EArr es).
Proof.
  intros H. generalize (sub_arr_none (map (fun a => (a, f a)) es) []).
  assert (E : map orelse (map (fun a => (a, f a)) es) = map (subst sg) es).
  { rewrite map_map. apply map_ext_in. intros a Ha. rewrite Forall_forall in H. exact (H a Ha). }
  destruct (sub_arr _ _ _); simpl; intros G.
  - rewrite G, E; reflexivity.
  - rewrite <- E, G, map_map, map_id; reflexivity.
Qed.

Lemma sub_var_subst e x rep :
  sub_var e x rep = subst (fun y => if String.eqb y x then Some rep else None) e.
Proof.
  unfold sub_var. induction e as [c|y|o a IHa|o l r IHl IHr|es IH|d IH] using expr_ind'; cbn [sub_visit].
  - reflexivity.
  - simpl. destruct (String.eqb y x); reflexivity.
  - cbn [subst]. rewrite <- IHa. destruct (sub_visit x rep a); reflexivity.
  - cbn [subst]. rewrite <- IHl, <- IHr. destruct (sub_visit x rep l), (sub_visit x rep r); reflexivity.
  - apply visit_arr; exact IH.
  - reflexivity.
Qed.

Lemma sub_dict_subst e d : sub_dict e d = subst (fun y => dfind y d) e.
Proof.
  unfold sub_dict. induction e as [c|y|o a IHa|o l r IHl IHr|es IH|d' IH] using expr_ind'; cbn [subd_visit].
  - reflexivity.
  - simpl. destruct (dfind y d); reflexivity.
  - cbn [subst]. rewrite <- IHa. destruct (subd_visit d a); reflexivity.
  - cbn [subst]. rewrite <- IHl, <- IHr. destruct (subd_visit d l), (subd_visit d r); reflexivity.
  - apply visit_arr; exact IH.
  - reflexivity.
Qed.

Lemma has_node_bin p o (l r : expr K) : has_node p (EBin o l r) = false ->
  has_node p l = false /\ has_node p r = false.
Proof. simpl. rewrite !orb_false_iff. tauto. Qed.
Lemma has_node_un p o (a : expr K) : has_node p (EUn o a) = false -> has_node p a = false.
Proof. simpl. rewrite !orb_false_iff. tauto. Qed.
Lemma has_node_arr p (es : list (expr K)) : has_node p (EArr es) = false ->
  Forall (fun e => has_node p e = false) es.
Proof.
  simpl. rewrite orb_false_iff. intros [_ H].
  induction es as [|e es IH]; constructor; simpl in H; apply orb_false_iff in H as [H1 H2]; auto.
Qed.

Lemma subst_id sg (e : expr K) : (forall x, sg x <> None -> has_node (is_var x) e = false) -> subst sg e = e.
Proof.
  induction e as [c|y|o a IHa|o l r IHl IHr|es IH|d IH] using expr_ind'; intros H; cbn [subst]; auto.
  - destruct (sg y) eqn:E; auto. exfalso. specialize (H y). rewrite E in H.
    specialize (H ltac:(discriminate)). simpl in H. rewrite String.eqb_refl in H. discriminate.
  - f_equal. apply IHa. intros x Hx; eapply has_node_un; eauto.
  - f_equal; [apply IHl|apply IHr]; intros x Hx; apply (has_node_bin _ _ _ _ (H x Hx)).
  - f_equal. rewrite <- (map_id es) at 2. apply map_ext_in. intros a Ha.
    rewrite Forall_forall in IH. apply IH; auto. intros x Hx.
    apply H in Hx. apply has_node_arr in Hx. rewrite Forall_forall in Hx; auto.
Qed.
End Sub.

Lemma eval_ext lz s env env' (e : expr R) : (forall x, has_node (is_var x) e = true -> env x = env' x) ->
  eval lz s env e = eval lz s env' e.
Proof.
  induction e as [c|y|o a IHa|o l r IHl IHr|es IH|d IH] using expr_ind'; intros H.
  - reflexivity.
  - apply H; simpl; rewrite String.eqb_refl; reflexivity.
  - cbn [eval]. rewrite IHa; auto.
  - cbn [eval]. rewrite IHl, IHr; auto; intros x Hx; apply H; simpl; rewrite Hx, ?orb_true_r; reflexivity.
  - cbn [eval]. do 2 f_equal. apply map_ext_in. intros a Ha. rewrite Forall_forall in IH. apply IH; auto.
    intros x Hx; apply H; simpl. apply existsb_exists; eauto.
  - cbn [eval]. f_equal. induction d as [|(k & a) d IHd]; auto.
    inversion IH as [|? ? H1 H2]; subst. cbn [snd] in H1.
    rewrite H1 by (intros x Hx; apply H; simpl; rewrite Hx; reflexivity).
    rewrite IHd; auto. intros x Hx; apply H; simpl in *. rewrite Hx, orb_true_r; reflexivity.
Qed.

(** No dictionary in [e] mentions [x]. *)
Lemma mentions_free (e : expr R) x : dict_free e -> has_node (dict_mentions x) e = false.
Proof.
  unfold dict_free. induction e as [c|y|o a IHa|o l r IHl IHr|es IH|d IH] using expr_ind'; intros H; cbn; auto.
  - apply has_node_bin in H as [H1 H2]. now rewrite IHl, IHr.
  - apply has_node_arr in H. rewrite <- not_true_iff_false. intros E. apply existsb_exists in E as (a & Ha & E).
    rewrite Forall_forall in H, IH. rewrite IH in E; auto. discriminate.
  - discriminate.
Qed.
Lemma eval_subst lz s env sg (e : expr R) : (forall x, sg x <> None -> has_node (dict_mentions x) e = false) ->
  eval lz s env (subst sg e) =
  eval lz s (fun y => match sg y with Some r => eval lz s env r | None => env y end) e.
Proof.
  induction e as [c|y|o a IHa|o l r IHl IHr|es IH|d IH] using expr_ind'; intros H; cbn [subst].
  - reflexivity.
  - simpl. destruct (sg y); reflexivity.
  - cbn [eval]. rewrite IHa; auto.
  - cbn [eval]. rewrite IHl, IHr by (intros x Hx; apply H in Hx; apply has_node_bin in Hx; tauto). reflexivity.
  - cbn [eval]. rewrite map_map. do 2 f_equal. apply map_ext_in. intros a Ha.
    rewrite Forall_forall in IH. apply IH; auto. intros x Hx. apply H in Hx. apply has_node_arr in Hx. rewrite Forall_forall in Hx. auto.
  - apply eval_ext. intros x Hx. destruct (sg x) eqn:E; auto. exfalso. specialize (H x). rewrite E in H. specialize (H ltac:(discriminate)).
    cbn [has_node] in H. apply orb_false_iff in H as [H _]. unfold dict_mentions in H. cbn [is_dict andb] in H. congruence.
Qed.
