(** Equality of expressions is an equivalence relation. *)
From Coq Require Import String NArith.
From Verif Require Import Outcome Num ExprModel ExprSpec ExprBase.
Open Scope nat_scope.

Section Eq.
Context {K : Type} `{EN : ENum K}.

Lemma bop_eqb_iff a b : bop_eqb a b = true <-> a = b.
Proof. split; [destruct a, b; simpl; try discriminate; auto|intros ->; destruct b; reflexivity]. Qed.
Lemma uop_eqb_iff a b : uop_eqb a b = true <-> a = b.
Proof. split; [destruct a, b; simpl; try discriminate; auto|intros ->; destruct b; reflexivity]. Qed.

Lemma dfind_in {A} k (d : list (string * A)) v : dfind k d = Some v -> In (k, v) d.
Proof.
  induction d as [|(y & w) d IH]; simpl; [discriminate|].
  destruct (String.eqb_spec k y); [|auto]. intros E; injection E as <-; subst; auto.
Qed.
Lemma in_dfind {A} k (d : list (string * A)) v : NoDup (map fst d) -> In (k, v) d -> dfind k d = Some v.
Proof.
  induction d as [|(y & w) d IH]; simpl; [tauto|].
  intros H; inversion H; subst. intros [E|Hi].
  - injection E as -> ->. rewrite String.eqb_refl; auto.
  - destruct (String.eqb_spec k y); [|auto]. subst. exfalso.
    match goal with H : ~ In _ _ |- _ => apply H end. apply (in_map fst) in Hi. exact Hi.
Qed.
Lemma dfind_none {A} k (d : list (string * A)) : dfind k d = None -> ~ In k (map fst d).
Proof.
  induction d as [|(y & w) d IH]; simpl; auto.
  destruct (String.eqb_spec k y); [discriminate|]. intros H [E|Hi]; [congruence|]. apply IH; auto.
Qed.

Lemma eeqb_dict d e : eeqb (EDict d) (EDict e) = true <->
  List.length d = List.length e /\
  Forall (fun kv => exists w, dfind (fst kv) e = Some w /\ eeqb (snd kv) w = true) d.
Proof.
  cbn [eeqb]. rewrite andb_true_iff, Nat.eqb_eq. apply and_iff_compat_l.
  induction d as [|(k & v) d IH]; [split; auto|].
  destruct (dfind k e) as [w|] eqn:E.
  - rewrite andb_true_iff, IH, Forall_cons_iff. apply and_iff_compat_r. simpl. rewrite E.
    split; [eauto|]. intros (w' & E' & H). congruence.
  - split; [discriminate|]. intros H; inversion H; subst. simpl in *. rewrite E in *.
    match goal with H : exists _, _ |- _ => destruct H as (? & ? & _); discriminate end.
Qed.

Lemma eeqb_arr xs ys : eeqb (EArr xs) (EArr ys) = true <-> Forall2 (fun x y => eeqb x y = true) xs ys.
Proof.
  cbn [eeqb]. revert ys; induction xs as [|x xs IH]; intros [|y ys]; try (split; [discriminate|intros H; inversion H]); [split; auto|].
  rewrite andb_true_iff, IH. split; [intros []; constructor; auto|]. intros H; inversion H; auto.
Qed.

Lemma dicts_ok_arr (es : list (expr K)) : dicts_ok (EArr es) <-> Forall dicts_ok es.
Proof. cbn [dicts_ok]. induction es; [split; auto|]. rewrite Forall_cons_iff, IHes; tauto. Qed.
Lemma dicts_ok_dict (d : list (string * expr K)) : dicts_ok (EDict d) <->
  NoDup (map fst d) /\ Forall (fun kv => dicts_ok (snd kv)) d.
Proof.
  cbn [dicts_ok]. apply and_iff_compat_l. induction d as [|(k & x) d IH]; [split; auto|].
  rewrite Forall_cons_iff, IH; tauto.
Qed.

(** The constants that occur in an expression. *)
Fixpoint constants (e : expr K) : list K :=
  match e with
  | EConst c => [c]
  | EVar _ => []
  | EUn _ a => constants a
  | EBin _ l r => constants l ++ constants r
  | EArr es => flat_map constants es
  | EDict d => flat_map (fun kv => constants (snd kv)) d
  end.

Lemma eeqb_refl_iff e : dicts_ok e -> eeqb e e = true <-> (forall c, In c (constants e) -> neqb c c = true).
Proof.
  induction e as [c|x|o a IHa|o l r IHl IHr|es IH|d IH] using expr_ind'; intros H.
  - cbn. split; [intros E c' [<- | []]; exact E|]. intros E; apply E; auto.
  - cbn. rewrite String.eqb_refl. split; [intros _ c []|auto].
  - cbn [eeqb constants]. rewrite andb_true_iff, (uop_eqb_iff o o), IHa by exact H. tauto.
  - destruct H as [Hl Hr]. cbn [eeqb constants]. rewrite !andb_true_iff, (bop_eqb_iff o o), IHl, IHr by assumption.
    split; [intros (_ & A & B) c Hc; apply in_app_or in Hc as [Hc|Hc]; auto|].
    intros A. repeat split; intros c Hc; apply A, in_or_app; auto.
  - rewrite eeqb_arr. apply dicts_ok_arr in H. cbn [constants].
    induction es as [|x es IHes]; [split; [intros _ c []|constructor]|].
    inversion IH as [|? ? Ix Ies]; inversion H as [|? ? Hx Hes]; subst. specialize (IHes Ies Hes).
    cbn [flat_map]. split.
    + intros F; inversion F; subst. intros c Hc. apply in_app_or in Hc as [Hc|Hc]; [apply Ix; auto|apply IHes; auto].
    + intros A. constructor; [apply Ix; auto; intros c Hc; apply A, in_or_app; auto|].
      apply IHes. intros c Hc; apply A, in_or_app; auto.
  - rewrite eeqb_dict. apply dicts_ok_dict in H as [Hn H]. cbn [constants]. rewrite Forall_forall in *. split.
    + intros [_ F] c Hc. apply in_flat_map in Hc as ((k & v) & Hi & Hc). destruct (F _ Hi) as (w & Hw & E).
      cbn [fst snd] in *. rewrite (in_dfind k d v) in Hw by auto. injection Hw as <-.
      apply (proj1 (IH _ Hi (H _ Hi)) E); auto.
    + intros A. split; auto. intros (k & v) Hi. exists v; split; [apply in_dfind; auto|].
      apply (IH (k, v)); auto. intros c Hc. apply A, in_flat_map. exists (k, v); auto.
Qed.

Lemma keys_incl d e :
  Forall (fun kv : string * expr K => exists w, dfind (fst kv) e = Some w /\ eeqb (snd kv) w = true) d ->
  incl (map fst d) (map fst e).
Proof.
  intros H k Hk. apply in_map_iff in Hk as ((k' & v) & <- & Hi). rewrite Forall_forall in H.
  destruct (H _ Hi) as (w & Hw & _). apply dfind_in in Hw. apply (in_map fst) in Hw. exact Hw.
Qed.

Hypothesis Ksym : forall a b : K, neqb a b = true -> neqb b a = true.
Hypothesis Ktrans : forall a b c : K, neqb a b = true -> neqb b c = true -> neqb a c = true.

Lemma eeqb_sym_gen a b : dicts_ok a -> dicts_ok b -> eeqb a b = true -> eeqb b a = true.
Proof.
  revert b; induction a as [c|x|o a IHa|o l r IHl IHr|es IH|d IH] using expr_ind'; intros b Ha Hb H;
    destruct b as [c'|x'|o' a'|o' l' r'|es'|d']; try discriminate.
  - apply Ksym; exact H.
  - simpl in *. rewrite String.eqb_sym; auto.
  - cbn [eeqb] in *. apply andb_true_iff in H as [H1 H2]. apply uop_eqb_iff in H1 as ->.
    rewrite (proj2 (uop_eqb_iff o' o')), IHa; auto.
  - cbn [eeqb] in *. apply andb_true_iff in H as [H1 H2]. apply bop_eqb_iff in H1 as ->.
    apply andb_true_iff in H2 as [H2 H3]. destruct Ha, Hb.
    rewrite (proj2 (bop_eqb_iff o' o')), IHl, IHr; auto.
  - apply eeqb_arr. apply eeqb_arr in H. apply dicts_ok_arr in Ha, Hb.
    revert IH Ha Hb. induction H; intros IH Ha Hb; constructor; inversion IH; inversion Ha; inversion Hb; subst; auto.
  - apply eeqb_dict in H as [Hlen H]. apply dicts_ok_dict in Ha as [Na Ha]. apply dicts_ok_dict in Hb as [Nb Hb].
    apply eeqb_dict; split; auto.
    assert (Hincl : incl (map fst d') (map fst d)).
    { apply NoDup_length_incl; auto; [rewrite !map_length; lia|]. apply keys_incl; auto. }
    apply Forall_forall. intros (k & v) Hi. simpl.
    assert (Hk : In k (map fst d)) by (apply Hincl; apply (in_map fst) in Hi; exact Hi).
    apply in_map_iff in Hk as ((k' & w) & E & Hd). simpl in E. subst k'.
    exists w; split; [apply in_dfind; auto|].
    rewrite Forall_forall in *. destruct (H _ Hd) as (v' & Hv & He). simpl in *.
    rewrite (in_dfind k d' v) in Hv by auto. injection Hv as <-.
    exact (IH (k, w) Hd v (Ha _ Hd) (Hb _ Hi) He).
Qed.

Lemma eeqb_trans_gen a b c : eeqb a b = true -> eeqb b c = true -> eeqb a c = true.
Proof.
  revert b c; induction a as [x|x|o a IHa|o l r IHl IHr|es IH|d IH] using expr_ind'; intros b c Hab Hbc;
    destruct b as [c'|x'|o' a'|o' l' r'|es'|d']; try discriminate;
    destruct c as [c''|x''|o'' a''|o'' l'' r''|es''|d'']; try discriminate.
  - exact (Ktrans _ _ _ Hab Hbc).
  - simpl in *. apply String.eqb_eq in Hab, Hbc. subst; apply String.eqb_refl.
  - cbn [eeqb] in *. rewrite !andb_true_iff, uop_eqb_iff in *. destruct Hab, Hbc. split; [congruence|eauto].
  - cbn [eeqb] in *. rewrite !andb_true_iff, bop_eqb_iff in *. destruct Hab as (? & ? & ?), Hbc as (? & ? & ?).
    repeat split; [congruence|eauto|eauto].
  - rewrite eeqb_arr in *. revert es'' Hbc IH. induction Hab; intros es'' Hbc IH; inversion Hbc; subst; constructor;
      inversion IH; subst; eauto.
  - rewrite eeqb_dict in *. destruct Hab as [L1 H1], Hbc as [L2 H2]. split; [congruence|].
    rewrite Forall_forall in *. intros (k & v) Hi. destruct (H1 _ Hi) as (w & Hw & E1).
    destruct (H2 _ (dfind_in _ _ _ Hw)) as (u & Hu & E2). exists u; split; auto.
    eapply (IH _ Hi); eauto.
Qed.

(** Equal expressions without dictionaries have equal hashes, if the hash of equal numbers is equal. *)
Lemma ehash_eqb hstr hnum a b : (forall x y : K, neqb x y = true -> hnum x = hnum y) ->
  dict_free a -> eeqb a b = true -> ehash hstr hnum a = ehash hstr hnum b.
Proof.
  intros Hnum. unfold dict_free.
  revert b; induction a as [c|x|o a IHa|o l r IHl IHr|es IH|d IH] using expr_ind'; intros b Ha H;
    destruct b as [c'|x'|o' a'|o' l' r'|es'|d']; try discriminate.
  - apply Hnum; exact H.
  - simpl in H. apply String.eqb_eq in H. congruence.
  - cbn [eeqb] in *. apply andb_true_iff in H as [H1 H2]. apply uop_eqb_iff in H1 as ->. cbn [ehash]. f_equal; auto.
  - cbn [eeqb] in *. rewrite !andb_true_iff, bop_eqb_iff in H. destruct H as (-> & H1 & H2).
    simpl in Ha. apply orb_false_iff in Ha as [Al Ar]. cbn [ehash]. rewrite (IHl _ Al H1), (IHr _ Ar H2). auto.
  - rewrite eeqb_arr in H. cbn [ehash]. f_equal. simpl in Ha. revert IH Ha.
    induction H; intros IH Ha; auto. simpl in Ha. apply orb_false_iff in Ha as [].
    inversion IH; subst. cbn [map]. f_equal; auto.
Qed.
End Eq.

Section EqSpec.
Context {K : Type} `{EN : ENum K}.
Hypothesis Kspec : forall a b : K, neqb a b = true <-> a = b.

Lemma eeqb_refl' e : dicts_ok e -> eeqb e e = true.
Proof. intros H. apply eeqb_refl_iff; auto. intros c _. apply Kspec; auto. Qed.
Lemma eeqb_sym' a b : dicts_ok a -> dicts_ok b -> eeqb a b = true -> eeqb b a = true.
Proof. apply eeqb_sym_gen. intros x y E. apply Kspec in E. apply Kspec. auto. Qed.
Lemma eeqb_trans' a b c : eeqb a b = true -> eeqb b c = true -> eeqb a c = true.
Proof. apply eeqb_trans_gen. intros x y z E F. apply Kspec in E, F. apply Kspec. congruence. Qed.

Lemma eeqb_dict_free a b : dict_free a -> eeqb a b = true -> a = b.
Proof.
  unfold dict_free.
  revert b; induction a as [c|x|o a IHa|o l r IHl IHr|es IH|d IH] using expr_ind'; intros b Ha H;
    destruct b as [c'|x'|o' a'|o' l' r'|es'|d']; try discriminate.
  - apply Kspec in H. congruence.
  - simpl in H. apply String.eqb_eq in H. congruence.
  - cbn [eeqb] in *. apply andb_true_iff in H as [H1 H2]. apply uop_eqb_iff in H1 as ->. f_equal; auto.
  - cbn [eeqb] in *. rewrite !andb_true_iff, bop_eqb_iff in H. destruct H as (-> & H1 & H2).
    simpl in Ha. apply orb_false_iff in Ha as []. f_equal; auto.
  - rewrite eeqb_arr in H. f_equal. simpl in Ha. revert IH Ha.
    induction H; intros IH Ha; auto. simpl in Ha. apply orb_false_iff in Ha as [].
    inversion IH; subst. f_equal; auto.
Qed.
End EqSpec.
