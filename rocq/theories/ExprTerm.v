(** Simplification terminates when no array can meet an array in a power. *)
From Coq Require Import String.
From Verif Require Import Outcome Num ExprModel ExprSpec ExprBase ExprSimp.
Open Scope nat_scope.

Section Term.
Context {K : Type} `{EN : ENum K}.

(** An upper bound of the array nesting that simplification can create. *)
Fixpoint weight (e : expr K) : nat :=
  match e with
  | EConst _ | EVar _ => 0
  | EUn _ a => weight a
  | EBin BUnits l r => Nat.max (weight l) (weight r)
  | EBin _ l r => weight l + weight r
  | EArr es => S (list_max (map weight es))
  | EDict d => list_max (map (fun kv => weight (snd kv)) d)
  end.

Lemma weight_bin o l r : weight (EBin o l r) <= weight l + weight r.
Proof. destruct o; cbn [weight]; lia. Qed.
Lemma weight_sum o l r : o <> BUnits -> weight (EBin o l r) = weight l + weight r.
Proof. destruct o; try reflexivity. congruence. Qed.
Lemma weight_mono o l r l' r' : weight l' <= weight l -> weight r' <= weight r ->
  weight (EBin o l' r') <= weight (EBin o l r).
Proof. destruct o; cbn [weight]; lia. Qed.

(** no power has arrays in both its base and its exponent *)
Definition afree (e : expr K) : Prop := has_node is_array e = false.
Definition okP (e : expr K) : Prop := has_node array_power e = false.

Lemma afree_clean e : afree e <-> clean (fun _ => false) true false e.
Proof.
  unfold afree, clean. induction e as [c|x|o a IHa|o l r IHl IHr|es IH|d IH] using expr_ind'; simpl; try tauto.
Qed.
Lemma simp_afree fuel e e' : afree e -> simp fuel e = Ret (Some e') -> afree e'.
Proof. rewrite !afree_clean. apply simp_clean. Qed.

Lemma okP_un o a : okP (EUn o a) <-> okP a.
Proof. unfold okP; simpl; tauto. Qed.
Lemma okP_bin o l r : okP (EBin o l r) <-> (o = BPow -> afree l \/ afree r) /\ okP l /\ okP r.
Proof.
  unfold okP, afree. cbn [has_node]. rewrite !orb_false_iff. apply and_iff_compat_r.
  destruct o; cbn [array_power]; try (split; [discriminate|reflexivity]).
  rewrite andb_false_iff. split; auto.
Qed.
Lemma okP_arr es : okP (EArr es) <-> Forall okP es.
Proof.
  unfold okP; simpl. induction es; simpl; [split; auto|]. rewrite orb_false_iff, IHes, Forall_cons_iff; tauto.
Qed.
Lemma okP_dict d : okP (EDict d) <-> Forall (fun kv => okP (snd kv)) d.
Proof.
  unfold okP; simpl. induction d; simpl; [split; auto|]. rewrite orb_false_iff, IHd, Forall_cons_iff; tauto.
Qed.
Lemma okP_const c : okP (EConst c).
Proof. reflexivity. Qed.
Lemma okP_bin_i o l r : o <> BPow -> okP l -> okP r -> okP (EBin o l r).
Proof. intros. apply okP_bin. repeat split; auto. congruence. Qed.
Lemma okP_map (f : expr K -> expr K) xs : Forall okP xs -> (forall x, okP x -> okP (f x)) -> okP (EArr (map f xs)).
Proof. intros H Hf. apply okP_arr. induction H; simpl; constructor; auto. Qed.

Ltac okp := repeat match goal with
  | H : okP (EBin _ _ _) |- _ => apply okP_bin in H as (? & ? & ?)
  | H : okP (EArr _) |- _ => apply okP_arr in H
  | |- okP (EConst _) => apply okP_const
  | |- okP (EUn _ _) => apply okP_un
  | H1 : ?o = BPow -> _, H2 : okP ?a, H3 : okP ?b |- okP (EBin ?o ?a ?b) => exact (proj2 (okP_bin o a b) (conj H1 (conj H2 H3)))
  | |- okP (EBin _ _ _) => apply okP_bin_i; [discriminate| |]
  | |- okP (EArr (map _ _)) => apply okP_map; [assumption|intros ? ?]
  end; auto.

Lemma mul_okP l r : okP l -> okP r -> okP (mul_apply l r).
Proof.
  intros Hl Hr. destruct (mul_apply_case l r); subst; unfold mul_expr_any, mul_any_expr;
   try match goal with |- context [match ?x with _ => _ end] => destruct x end; okp.
Qed.
Lemma dd_okP o l r x : (o = BPow -> afree l \/ afree r) -> okP l -> okP r ->
  dd_visit o l r = Ret (Some x) -> okP x.
Proof.
  intros Hp Hl Hr E. apply dd_visit_case in E. inversion E; subst.
  all: try (apply mul_okP; assumption).
  all: try (okp; fail).
  - destruct r; first [apply okP_const | apply okP_un; exact Hr].
  - repeat destruct H2 as [H2|H2]; subst o; okp.
Qed.

Lemma simp_okP fuel : forall e e', okP e -> simp fuel e = Ret (Some e') -> okP e'.
Proof.
  induction fuel as [fuel IHf] using lt_wf_ind.
  induction e as [c|x|o a IHa|o l r IHl IHr|es IH|d IH] using expr_ind';
    intros e' Hc; rewrite simp_unfold; simpl; try discriminate.
  - intros H. apply obind_ret in H as (ma & Hma & H).
    apply (okP_un o a) in Hc.
    assert (Ha' : okP (match ma with Some x => x | None => a end)).
    { destruct ma; auto. }
    destruct (match ma with Some x => x | None => a end);
      [injection H as <-; destruct o; try apply okP_const; apply okP_un; auto |..];
      destruct ma; try discriminate; injection H as <-; apply okP_un; auto.
  - intros H. apply obind_ret in H as (ml & Hml & H). apply obind_ret in H as (mr & Hmr & H).
    apply okP_bin in Hc as (Ho & Hcl & Hcr).
    assert (Hl' : okP (match ml with Some x => x | None => l end)) by (destruct ml; auto).
    assert (Hr' : okP (match mr with Some x => x | None => r end)) by (destruct mr; auto).
    assert (Ho' : o = BPow -> afree (match ml with Some x => x | None => l end) \/
                              afree (match mr with Some x => x | None => r end)).
    { intros E. destruct (Ho E); [left; destruct ml|right; destruct mr]; eauto using simp_afree. }
    set (l' := match ml with Some x => x | None => l end) in *.
    set (r' := match mr with Some x => x | None => r end) in *.
    destruct (is_elem l' _). { injection H as <-. destruct (left_zero o); auto using okP_const. }
    destruct (is_elem l' _). { injection H as <-; auto. }
    destruct (is_elem r' _). { injection H as <-. destruct (right_zero o); auto using okP_const. }
    destruct (is_elem r' _). { injection H as <-; auto. }
    apply obind_ret in H as (ret & Hret & H).
    assert (Hx : forall x, ret = Some x -> okP x).
    { intros x ->.
      pose proof (dd_okP o l' r' x Ho' Hl' Hr') as DD.
      destruct l' as [| | | |xs|], r' as [| | | |ys|]; try (exact (DD Hret)).
      assert (HH : o <> BPow -> (do rs <- resimp fuel (zipb o xs ys); Ret (Some (EArr rs))) = Ret (Some x) -> okP x).
      { intros No HH. apply obind_ret in HH as (rs & Hrs & HH). injection HH as <-.
        apply okP_arr in Hl'. apply okP_arr in Hr'. apply okP_arr.
        destruct fuel as [|m]; [discriminate|]. cbn [resimp] in Hrs.
        apply oseq_ret, Forall2_map_l in Hrs.
        assert (HZ : Forall okP (zipb o xs ys)).
        { clear - No Hl' Hr'. revert ys Hr'. induction Hl'; intros ys Hr'; simpl; [constructor|].
          destruct Hr'; constructor; auto. apply okP_bin_i; auto. }
        clear - IHf Hrs HZ. induction Hrs as [|z q zs rs Hz _ IH]; constructor; inversion HZ; subst; auto.
        unfold or_self in Hz. apply obind_ret in Hz as ([e2|] & He & E); injection E as <-; auto.
        eapply IHf; [|eassumption|exact He]. lia. }
      destruct o; try discriminate;
        try (destruct (Nat.eqb _ _); [|discriminate]; eapply HH; [discriminate|exact Hret]);
        injection Hret as <-; apply okP_bin_i; auto; discriminate. }
    destruct ret as [x|]; [injection H as <-; auto|].
    destruct ml, mr; try discriminate; injection H as <-; apply okP_bin; auto.
  - intros H. apply obind_ret in H as (rs & Hrs & H). injection H as <-.
    apply okP_arr in Hc. apply okP_arr.
    apply oseq_ret, Forall2_map_l in Hrs. revert IH Hc.
    induction Hrs as [|z q zs rs Hz _ IHrs]; intros IH Hc; constructor; inversion IH; inversion Hc; subst; auto.
    unfold or_self in Hz. apply obind_ret in Hz as ([e2|] & He & E); injection E as <-; eauto.
  - intros H. apply obind_ret in H as (rs & Hrs & H). injection H as <-.
    apply okP_dict in Hc. apply okP_dict.
    apply oseq_ret, Forall2_map_l in Hrs. revert IH Hc.
    induction Hrs as [|(k & v) y d rs Hy Hrs IHrs]; intros IH Hc; constructor; inversion IH; inversion Hc; subst; auto.
    apply obind_ret in Hy as (v' & Hv & E). injection E as <-; simpl.
    unfold or_self in Hv. apply obind_ret in Hv as ([e2|] & He & E); injection E as <-; eauto.
Qed.

Lemma list_max_in l x : In x l -> x <= list_max l.
Proof.
  intros H. assert (list_max l <= list_max l) as L by lia. apply list_max_le in L.
  rewrite Forall_forall in L; auto.
Qed.
Lemma list_max_map_le {A} (f g : A -> nat) l : (forall x, In x l -> f x <= g x) -> list_max (map f l) <= list_max (map g l).
Proof.
  intros H. apply list_max_le, Forall_forall. intros n Hn. apply in_map_iff in Hn as (x & <- & Hi).
  etransitivity; [apply H; auto|]. apply list_max_in, in_map; auto.
Qed.

Lemma arr_weight xs (f : expr K -> expr K) n : (forall x, In x xs -> weight (f x) <= weight x + n) ->
  weight (EArr (map f xs)) <= weight (EArr xs) + n.
Proof.
  intros H. cbn [weight]. rewrite Nat.add_succ_l. apply le_n_S. apply list_max_le, Forall_forall.
  intros k Hk. rewrite map_map in Hk. apply in_map_iff in Hk as (x & <- & Hi).
  specialize (H x Hi). assert (weight x <= list_max (map weight xs)) by (apply list_max_in, in_map; auto). lia.
Qed.

Lemma mul_ea_weight l r : weight (mul_expr_any l r) <= weight l + weight r.
Proof.
  unfold mul_expr_any. destruct r; try (simpl; lia).
  rewrite Nat.add_comm. apply arr_weight. intros; simpl; lia.
Qed.
Lemma mul_ae_weight l r : weight (mul_any_expr l r) <= weight l + weight r.
Proof. unfold mul_any_expr. destruct l; try (simpl; lia). apply arr_weight. intros; simpl; lia. Qed.

Lemma mul_weight l r : weight (mul_apply l r) <= weight l + weight r.
Proof.
  destruct (mul_apply_case l r); subst; try (simpl; lia).
  - pose proof (mul_ea_weight m r). cbn [weight] in *; lia.
  - pose proof (mul_ae_weight l m). cbn [weight] in *; lia.
  - apply arr_weight. intros; simpl; lia.
  - rewrite Nat.add_comm. apply arr_weight. intros; simpl; lia.
Qed.

Lemma dd_weight o l r x : dd_visit o l r = Ret (Some x) -> weight x <= weight (EBin o l r).
Proof.
  intros E. apply dd_visit_case in E. inversion E; subst; try (simpl; lia).
  - apply mul_weight.
  - destruct r; simpl; lia.
  - match goal with H : _ \/ _ |- _ => repeat destruct H as [H|H] end; subst; rewrite weight_sum by discriminate;
      apply arr_weight; intros; simpl; lia.
Qed.

Definition fine {A} (m : outcome A) : Prop := (exists a, m = Ret a) \/ m = Throw.

Lemma oseq_fine {A} (l : list (outcome A)) : Forall fine l -> fine (oseq l).
Proof.
  induction 1 as [|x l Hx Hl IH]; simpl; [left; eauto|].
  destruct Hx as [[a ->]| ->]; simpl; [|right; auto].
  destruct IH as [[r ->]| ->]; simpl; [left; eauto|right; auto].
Qed.

Definition good (fuel : nat) (e : expr K) : Prop :=
  fine (simp fuel e) /\ forall m, simp fuel e = Ret m -> weight (match m with Some x => x | None => e end) <= weight e.

Lemma or_self_good fuel e : good fuel e -> fine (or_self e (simp fuel e)) /\
  forall e', or_self e (simp fuel e) = Ret e' -> weight e' <= weight e.
Proof.
  intros [[[m Hm]|Hm] Hw]; unfold or_self; rewrite Hm; simpl.
  - split; [left; eauto|]. intros e' E; injection E as <-. apply Hw; auto.
  - split; [right; auto|discriminate].
Qed.

Lemma zipb_weight o (xs ys : list (expr K)) z : In z (zipb o xs ys) -> exists x y, In x xs /\ In y ys /\ z = EBin o x y.
Proof.
  revert ys; induction xs as [|x xs IH]; intros [|y ys]; simpl; try tauto.
  intros [<-|H]; [exists x, y; auto|]. destruct (IH _ H) as (a & b & ? & ? & ->); exists a, b; auto.
Qed.

Lemma simp_good : forall fuel e, okP e -> weight e <= fuel -> good fuel e.
Proof.
  intros fuel; induction fuel as [fuel IHf] using lt_wf_ind.
  intros e; induction e as [c|x|o a IHa|o l r IHl IHr|es IH|d IH] using expr_ind'; intros Hc Hw;
    unfold good; rewrite simp_unfold; cbn [simp_body].
  - split; [left; eauto|]. intros m E; injection E as <-; auto.
  - split; [left; eauto|]. intros m E; injection E as <-; auto.
  - apply okP_un in Hc. destruct (IHa Hc Hw) as [[[m Hm]|Hm] HW]; rewrite Hm; simpl.
    2: { split; [right; auto|discriminate]. }
    specialize (HW m Hm).
    destruct m as [y|].
    + destruct y; (split; [left; eauto|]; intros m' E; injection E as <-; simpl in *; try lia).
      destruct o; simpl; lia.
    + destruct a; (split; [left; eauto|]; intros m' E; injection E as <-; simpl in *; try lia).
      destruct o; simpl; lia.
  - apply okP_bin in Hc as (Hpb & Hcl & Hcr).
    assert (Hwl : weight l <= weight (EBin o l r)) by (destruct o; cbn [weight]; lia).
    assert (Hwr : weight r <= weight (EBin o l r)) by (destruct o; cbn [weight]; lia).
    destruct (IHl Hcl ltac:(lia)) as [[[ml Hml]|Hml] HWl]; rewrite Hml; simpl.
    2: { split; [right; auto|discriminate]. }
    destruct (IHr Hcr ltac:(lia)) as [[[mr Hmr]|Hmr] HWr]; rewrite Hmr; simpl.
    2: { split; [right; auto|discriminate]. }
    specialize (HWl _ Hml). specialize (HWr _ Hmr).
    assert (Hpb' : o = BPow -> afree (match ml with Some x => x | None => l end) \/
                               afree (match mr with Some x => x | None => r end)).
    { intros E. destruct (Hpb E); [left; destruct ml|right; destruct mr]; eauto using simp_afree. }
    assert (Cl : okP (match ml with Some x => x | None => l end)).
    { destruct ml; auto. eapply simp_okP; [|exact Hml]; auto. }
    assert (Cr : okP (match mr with Some x => x | None => r end)).
    { destruct mr; auto. eapply simp_okP; [|exact Hmr]; auto. }
    assert (Hlast : ml = None -> mr = None ->
       match ml with Some x => x | None => l end = l /\ match mr with Some x => x | None => r end = r)
      by (intros -> ->; auto).
    remember (match ml with Some x => x | None => l end) as l' eqn:El'.
    remember (match mr with Some x => x | None => r end) as r' eqn:Er'.
    change (match o with BUnits => Nat.max (weight l) (weight r) | _ => weight l + weight r end)
      with (weight (EBin o l r)).
    destruct (is_elem l' (left_zero o)) eqn:E1.
    { split; [left; eauto|]. intros m E; injection E as <-.
      destruct (left_zero o); [apply Nat.le_0_l|lia]. }
    destruct (is_elem l' (left_identity o)) eqn:E2.
    { split; [left; eauto|]. intros m E; injection E as <-. lia. }
    destruct (is_elem r' (right_zero o)) eqn:E3.
    { split; [left; eauto|]. intros m E; injection E as <-.
      destruct (right_zero o); [apply Nat.le_0_l|lia]. }
    destruct (is_elem r' (right_identity o)) eqn:E4.
    { split; [left; eauto|]. intros m E; injection E as <-. lia. }
    set (D := match l' with EArr _ => _ | _ => dd_visit o l' r' end).
    assert (Hmono : weight (EBin o l' r') <= weight (EBin o l r)) by (apply weight_mono; assumption).
    assert (HD : fine D /\ forall x, D = Ret (Some x) -> weight x <= weight (EBin o l' r')).
    { assert (Hcase : D = dd_visit o l' r' \/ exists xs ys, l' = EArr xs /\ r' = EArr ys).
      { unfold D. destruct l'; auto; destruct r'; auto. right; eauto. }
      destruct Hcase as [->|(xs & ys & El & Er)].
      - split; [|intros x; apply dd_weight].
        unfold fine, dd_visit. clear.
        destruct o;
          repeat match goal with |- (exists a, match ?x with _ => _ end = _) \/ _ => destruct x end; eauto.
      - subst D. rewrite El, Er in *. clear El Er.
        assert (Hzip : o <> BUnits -> o <> BPow -> fine (if Nat.eqb (List.length xs) (List.length ys)
             then do rs <- resimp fuel (zipb o xs ys); Ret (Some (EArr rs)) else Throw) /\
             forall x, (if Nat.eqb (List.length xs) (List.length ys)
             then do rs <- resimp fuel (zipb o xs ys); Ret (Some (EArr rs)) else Throw) = Ret (Some x) ->
             weight x <= weight (EArr xs) + weight (EArr ys)).
        { intros No1 No2. destruct (Nat.eqb _ _); [|split; [right; auto|discriminate]].
          rewrite weight_sum in Hmono by exact No1.
          change (weight (EArr xs)) with (S (list_max (map weight xs))) in Hmono.
          change (weight (EArr ys)) with (S (list_max (map weight ys))) in Hmono.
          destruct fuel as [|f]; [exfalso; lia|]. cbn [resimp].
          assert (Hall : Forall (good f) (zipb o xs ys)).
          { apply Forall_forall. intros z Hz. apply IHf; [lia| |].
            - apply okP_arr in Cl. apply okP_arr in Cr. rewrite Forall_forall in Cl, Cr.
              apply zipb_weight in Hz as (x & y & Hx & Hy & ->). apply okP_bin_i; auto.
            - apply zipb_weight in Hz as (x & y & Hx & Hy & ->). rewrite weight_sum by exact No1.
              assert (weight x <= list_max (map weight xs)) by (apply list_max_in, in_map; auto).
              assert (weight y <= list_max (map weight ys)) by (apply list_max_in, in_map; auto). lia. }
          assert (Hb : forall z, In z (zipb o xs ys) -> weight z <= list_max (map weight xs) + list_max (map weight ys)).
          { intros z Hz. apply zipb_weight in Hz as (x & y & Hx & Hy & ->). rewrite weight_sum by exact No1.
            assert (weight x <= list_max (map weight xs)) by (apply list_max_in, in_map; auto).
            assert (weight y <= list_max (map weight ys)) by (apply list_max_in, in_map; auto). lia. }
          revert Hall Hb. generalize (zipb o xs ys). intros zs Hall Hb.
          assert (F : fine (oseq (map (fun x => or_self x (simp f x)) zs))).
          { apply oseq_fine. clear - Hall. induction Hall; constructor; auto. apply or_self_good; auto. }
          destruct F as [[rs Hrs]|Hrs]; rewrite Hrs; simpl; [|split; [right; auto|discriminate]].
          split; [left; eauto|]. intros x E; injection E as <-. cbn [weight].
          assert (list_max (map weight rs) <= list_max (map weight xs) + list_max (map weight ys)); [|lia].
          apply oseq_ret, Forall2_map_l in Hrs.
          apply list_max_le, Forall_forall. intros n Hn. apply in_map_iff in Hn as (q & <- & Hq).
          clear - Hrs Hall Hb Hq. induction Hrs as [|z q' zs rs Hz Hrs IH]; [destruct Hq|].
          inversion Hall; subst. destruct Hq as [->|Hq].
          - etransitivity; [eapply or_self_good; eauto|]. apply Hb; left; auto.
          - apply IH; auto. intros; apply Hb; right; auto. }
        destruct o; try (exact (Hzip ltac:(discriminate) ltac:(discriminate))).
        + destruct (Hpb' eq_refl) as [Q|Q]; discriminate Q.
        + split; [left; eauto|]. intros x E; injection E as <-. auto.
        + split; [right; auto|discriminate].
        + split; [left; eauto|]. intros x E; injection E as <-. auto.
        + split; [left; eauto|]. intros x E; injection E as <-. auto. }
    clearbody D. destruct HD as [[[m ->]| ->] HW2]; cbn [obind]; [|split; [right; auto|discriminate]].
    destruct m as [x|].
    + split; [left; eauto|]. intros m E; injection E as <-. etransitivity; [exact (HW2 x eq_refl)|exact Hmono].
    + assert (Hg : forall m, (match ml, mr with None, None => Ret None | _, _ => Ret (Some (EBin o l' r')) end) = Ret m ->
         weight (match m with Some x => x | None => EBin o l r end) <= weight (EBin o l r)).
      { intros m. destruct ml, mr; intros E; injection E as <-; auto. }
      split; [|exact Hg]. destruct ml, mr; left; eauto.
  - apply okP_arr in Hc. cbn [weight] in Hw.
    assert (Hg : Forall (good fuel) es).
    { rewrite Forall_forall in *. intros x Hx. apply IH; [auto|apply Hc; auto|].
      assert (weight x <= list_max (map weight es)) by (apply list_max_in, in_map; auto). lia. }
    assert (F : fine (oseq (map (fun x => or_self x (simp fuel x)) es))).
    { apply oseq_fine. clear - Hg. induction Hg; constructor; auto. apply or_self_good; auto. }
    destruct F as [[rs Hrs]|Hrs]; rewrite Hrs; simpl; [|split; [right; auto|discriminate]].
    split; [left; eauto|]. intros m E; injection E as <-. apply le_n_S.
    apply oseq_ret, Forall2_map_l in Hrs. clear - Hrs Hg.
    induction Hrs as [|z q' zs rs Hz Hrs IH]; simpl; auto. inversion Hg; subst.
    apply Nat.max_le_compat; auto. eapply or_self_good; eauto.
  - apply okP_dict in Hc. cbn [weight] in Hw.
    assert (Hg : Forall (fun kv => good fuel (snd kv)) d).
    { rewrite Forall_forall in *. intros x Hx. apply IH; [auto|apply Hc; auto|].
      assert (weight (snd x) <= list_max (map (fun kv => weight (snd kv)) d)).
      { apply list_max_in. apply (in_map (fun kv => weight (snd kv))); auto. } lia. }
    match goal with |- context [oseq (map ?f d)] => set (F := f) end.
    assert (Fi : fine (oseq (map F d))).
    { apply oseq_fine. clear - Hg. induction Hg as [|(k & x) d Hx Hd IH]; constructor; auto.
      unfold F. apply or_self_good in Hx as [[[y Hy]|Hy] _]; cbn [snd] in Hy; rewrite Hy; simpl; [left; eauto|right; auto]. }
    destruct Fi as [[rs Hrs]|Hrs]; rewrite Hrs; simpl; [|split; [right; auto|discriminate]].
    split; [left; eauto|]. intros m E; injection E as <-. cbn [weight].
    apply oseq_ret, Forall2_map_l in Hrs. clear - Hrs Hg.
    induction Hrs as [|(k & z) q' zs rs Hz Hrs IH]; simpl; auto. inversion Hg; subst.
    apply Nat.max_le_compat; auto. unfold F in Hz.
    apply obind_ret in Hz as (y & Hy & E). injection E as <-. simpl.
    eapply or_self_good; eauto.
Qed.

(** ** more fuel changes nothing once there is an answer *)
Definition ole {A} (a b : outcome A) : Prop := a = Fuel \/ a = b.
Lemma ole_refl {A} (a : outcome A) : ole a a.
Proof. right; reflexivity. Qed.
Lemma ole_bind {A B} (a b : outcome A) (f g : A -> outcome B) :
  ole a b -> (forall x, ole (f x) (g x)) -> ole (do x <- a; f x) (do x <- b; g x).
Proof. intros [->| ->] H; [left; reflexivity|]. destruct b; simpl; try (right; reflexivity). apply H. Qed.
Lemma ole_oseq {A B} (f g : A -> outcome B) l : Forall (fun x => ole (f x) (g x)) l ->
  ole (oseq (map f l)) (oseq (map g l)).
Proof.
  induction 1 as [|x l H _ IH]; simpl; [apply ole_refl|].
  apply ole_bind; [exact H|]. intros a. apply ole_bind; [exact IH|]. intros; apply ole_refl.
Qed.

Lemma simp_more : forall n m e, n <= m -> ole (simp n e) (simp m e).
Proof.
  induction n as [n IHn] using lt_wf_ind. intros m e Hnm. revert e.
  assert (Hself : forall e, ole (simp n e) (simp m e) -> ole (or_self e (simp n e)) (or_self e (simp m e))).
  { intros e H. unfold or_self. apply ole_bind; [exact H|]. intros; apply ole_refl. }
  induction e as [c|x|o a IHa|o l r IHl IHr|es IH|d IH] using expr_ind';
    rewrite (simp_unfold n), (simp_unfold m); cbn [simp_body]; try apply ole_refl.
  - apply ole_bind; [exact IHa|]. intros; apply ole_refl.
  - apply ole_bind; [exact IHl|]. intros ml. apply ole_bind; [exact IHr|]. intros mr. cbv zeta.
    generalize (match ml with Some x => x | None => l end) as l'.
    generalize (match mr with Some x => x | None => r end) as r'. intros r' l'.
    repeat (destruct (is_elem _ _); [apply ole_refl|]).
    apply ole_bind; [|intros; apply ole_refl].
    destruct l'; try apply ole_refl; destruct r'; try apply ole_refl; destruct o; try apply ole_refl;
      (destruct (Nat.eqb _ _); [|apply ole_refl]);
      (apply ole_bind; [|intros; apply ole_refl]);
      (destruct n as [|n]; [left; reflexivity|]; destruct m as [|m]; [lia|]; cbn [resimp];
       apply ole_oseq, Forall_forall; intros z _; unfold or_self;
       apply ole_bind; [apply IHn; lia|intros; apply ole_refl]).
  - apply ole_bind; [|intros; apply ole_refl]. apply ole_oseq. eapply Forall_impl; [|exact IH].
    intros z Hz. apply Hself, Hz.
  - apply ole_bind; [|intros; apply ole_refl]. apply ole_oseq. eapply Forall_impl; [|exact IH].
    intros (k & z) Hz. cbn [snd] in Hz. apply ole_bind; [apply Hself, Hz|]. intros; apply ole_refl.
Qed.
End Term.
