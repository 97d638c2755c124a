(** The general solver: Sturm bisection, isolation + bisection. *)
From Verif Require Import PolyProofs PolyCalc SolverModel RootSpec Descartes LMQ NumericProofs Isolate Sturm Solve.
From Coq Require Import Permutation.
Open Scope R_scope.

Lemma simple_derivative f x : f <> [] -> simple_roots f ->
  ~ (pval f x = 0 /\ pval (poly_derivative true f) x = 0).
Proof.
  intros Hf Hs [E D]. apply (Hs x E). rewrite <- D. apply poly_derivative_correct, Hf.
Qed.

Lemma simple_cross f r p q : not_zero f -> ~ derivable_pt_lim (pval f) r 0 -> p < r < q -> pval f r = 0 ->
  (forall z, p <= z <= q -> pval f z = 0 -> z = r) -> pval f p * pval f q < 0.
Proof.
  intros Hz Hs [Hp Hq] Hr Hu.
  assert (Hf : f <> []) by (destruct Hz as (c & Hc & _); intros ->; destruct Hc).
  destruct (divide_root f r Hf Hr) as (g & _ & Hg).
  assert (Gr : pval g r <> 0).
  { intros E. apply Hs.
    pose proof (pval_derivable g r) as D. set (d := pval (fder g) r) in *.
    assert (D2 : derivable_pt_lim (fun x => (x - r) * pval g x) r ((1 - 0) * pval g r + (r - r) * d)).
    { apply (derivable_pt_lim_mult (fun x => x - r) (pval g)); [|exact D].
      apply (derivable_pt_lim_minus id (fct_cte r)); [apply derivable_pt_lim_id|apply derivable_pt_lim_const]. }
    rewrite E in D2. replace ((1 - 0) * 0 + (r - r) * d) with 0 in D2 by ring.
    intros e He. destruct (D2 e He) as [dl Hdl]. exists dl. intros h Hh Hl. rewrite !Hg. apply Hdl; assumption. }
  assert (NR : forall z, p <= z <= q -> pval g z <> 0).
  { intros z Hzz E. assert (z = r) by (apply Hu; [exact Hzz|rewrite Hg, E; ring]). subst z. contradiction. }
  assert (GP : 0 < pval g p * pval g q).
  { destruct (Rlt_or_le 0 (pval g p * pval g q)) as [L|L]; [exact L|exfalso].
    pose proof (NR p ltac:(lra)). pose proof (NR q ltac:(lra)).
    assert (N : pval g p * pval g q <> 0) by (intros E; apply Rmult_integral in E; tauto).
    destruct (pval_ivt g p q ltac:(lra) ltac:(lra)) as (z & Hzz & E). apply (NR z); [lra|exact E]. }
  rewrite !Hg. replace ((p - r) * pval g p * ((q - r) * pval g q)) with (- ((r - p) * (q - r) * (pval g p * pval g q))) by ring.
  assert (0 < (r - p) * (q - r)) by nra. nra.
Qed.

(** bisection inside an interval with one root *)
Lemma bisect_loop_isolated f r a b prec x0 : not_zero f -> ~ derivable_pt_lim (pval f) r 0 -> pval f r = 0 ->
  (forall z, a < z < b -> pval f z = 0 -> z = r) -> x0 = a \/ x0 = b ->
  forall n lo hi tr, a <= lo -> lo < r <= hi -> hi <= b -> sign_differs (pval f) lo hi ->
  forall x tr', bisect_loop n (f_bisection f) prec x0 lo hi (f_bisection f hi) tr = (true, x, tr') ->
  close_to (Rabs prec) x r.
Proof.
  intros Hz Hs Hr Hu Hx0.
  assert (Hf : f <> []) by (destruct Hz as (c & Hc & _); intros ->; destruct Hc).
  assert (FB : forall y, f_bisection f y = pval f y) by (intros y; apply poly_eval_correct, Hf).
  induction n as [|n IH]; intros lo hi tr Ha Hlr Hb Hsd x tr'; cbn [bisect_loop]; [discriminate|].
  rewrite mid_R. set (m := (lo + hi) / 2).
  assert (Hm : lo < m < hi) by (unfold m; lra).
  cbn [nltb neqb nsub nmul n0 R_num]. rewrite !nabs_R.
  destruct (Reqb_spec m lo) as [E|_]; [lra|].
  destruct (Reqb_spec m hi) as [E|_]; [lra|].
  rewrite !orb_false_r.
  destruct (Rltb_spec (Rabs (m - x0)) (Rabs (prec * m))) as [Hd|Hd]; cbn [orb].
  { intros E. injection E as <- _. unfold close_to. rewrite <- Rabs_mult.
    apply Rlt_le. eapply Rle_lt_trans; [|exact Hd].
    unfold m in *. destruct Hx0 as [-> | ->]; unfold Rabs; repeat destruct Rcase_abs; lra. }
  destruct (Reqb_spec (f_bisection f m) 0) as [E0|N0].
  { intros E. injection E as <- _. rewrite FB in E0. rewrite (Hu m ltac:(lra) E0). unfold close_to.
    unfold Rminus. rewrite Rplus_opp_r, Rabs_R0. apply Rmult_le_pos; apply Rabs_pos. }
  rewrite FB in N0.
  assert (NM : r <> m) by (intros E; subst m; rewrite <- E in N0; contradiction).
  unfold sign_differs in Hsd.
  destruct (Bool.eqb (signbit (f_bisection f m)) (signbit (f_bisection f hi))) eqn:ES.
  - apply signbit_eq in ES. rewrite !FB in ES.
    assert (Hrm : r <= m).
    { destruct (Rle_or_lt r m) as [L|L]; [exact L|exfalso].
      destruct (Req_dec (pval f hi) 0) as [Eh|Nh].
      - assert (pval f lo < 0) by lra. assert (0 < pval f m) by lra.
        destruct (pval_ivt f lo m ltac:(lra) ltac:(nra)) as (z & Hzz & E). assert (z = r) by (apply Hu; [lra|exact E]). lra.
      - assert (Hrh : r < hi). { destruct (proj2 Hlr) as [|E]; [assumption|exfalso; subst hi; contradiction]. }
        assert (C : pval f m * pval f hi < 0).
        { apply (simple_cross f r m hi Hz Hs); [lra|exact Hr|]. intros z Hzz E.
          apply Hu; [|exact E]. destruct (Req_dec z hi) as [-> |]; [contradiction|]. lra. }
        nra. }
    apply IH; [lra|lra|lra|]. unfold sign_differs. lra.
  - assert (NS : ~ ((pval f m < 0 /\ pval f hi < 0) \/ (0 <= pval f m /\ 0 <= pval f hi))).
    { intros E. rewrite <- !FB in E. apply signbit_eq in E. congruence. }
    assert (Hrm : m < r).
    { destruct (Rlt_or_le m r) as [L|L]; [exact L|exfalso]. assert (L' : r < m) by lra. clear L.
      destruct (Req_dec (pval f hi) 0) as [Eh|Nh].
      - assert (pval f lo < 0) by lra. assert (pval f m < 0) by lra.
        assert (C : pval f lo * pval f m < 0).
        { apply (simple_cross f r lo m Hz Hs); [lra|exact Hr|]. intros z Hzz E. apply Hu; [|exact E].
          destruct (Req_dec z lo) as [-> |]; [lra|lra]. }
        nra.
      - destruct (pval_ivt f m hi ltac:(lra)) as (z & Hzz & E).
        { destruct (Rlt_or_le (pval f m) 0), (Rlt_or_le (pval f hi) 0); try (exfalso; lra); nra. }
        assert (z = r) by (apply Hu; [lra|exact E]). lra. }
    apply IH; [lra|lra|lra|]. unfold sign_differs. lra.
Qed.

Lemma bisection_isolated f r a b prec : not_zero f -> ~ derivable_pt_lim (pval f) r 0 -> pval f r = 0 -> a < r <= b ->
  (forall z, a < z < b -> pval f z = 0 -> z = r) ->
  forall x tr, bisection (f_bisection f) prec (Fin a) (Fin b) 0 = (true, Some x, tr) -> close_to (Rabs prec) x r.
Proof.
  intros Hz Hs Hr Hab Hu x tr. unfold bisection. cbn [nltb R_num].
  assert (Hf : f <> []) by (destruct Hz as (c & Hc & _); intros ->; destruct Hc).
  assert (FB : forall y, f_bisection f y = pval f y) by (intros y; apply poly_eval_correct, Hf).
  destruct (Rltb_spec a b) as [L|L]; cbn [negb]; [|discriminate].
  destruct (Bool.eqb (signbit (f_bisection f a)) (signbit (f_bisection f b))) eqn:ES; [discriminate|].
  assert (SD : sign_differs (pval f) a b).
  { unfold sign_differs. assert (NS : ~ ((pval f a < 0 /\ pval f b < 0) \/ (0 <= pval f a /\ 0 <= pval f b))).
    { intros E. rewrite <- !FB in E. apply signbit_eq in E. congruence. }
    destruct (Rlt_or_le (pval f a) 0), (Rlt_or_le (pval f b) 0); auto; exfalso; auto. }
  match goal with |- context [bisect_loop _ _ _ ?x0 _ _ _ _] => set (x1 := x0) end.
  assert (Hx1 : x1 = a \/ x1 = b) by (unfold x1; destruct (Rltb _ _); auto).
  destruct (bisect_loop _ (f_bisection f) prec x1 a b _ [b; a]) as [[ok y] t] eqn:EL.
  intros E. injection E as -> -> _.
  eapply (bisect_loop_isolated f r a b prec x1 Hz Hs Hr Hu Hx1); [| | | |exact EL]; try lra. exact SD.
Qed.

(* ------------------------------------------------ the Sturm bisection loop *)
Lemma count_ok f (Hz : not_zero f) (Hs : simple_roots f) a b t : a <= b -> NoDup t ->
  (forall z, In z t <-> (a < z /\ z <= b) /\ pval f z = 0) ->
  sturm_roots (sturm_chain f) (Fin a) (Fin b) = length t.
Proof.
  intros Hab Hnd Ht.
  assert (Hf : f <> []) by (destruct Hz as (c & Hc & _); intros ->; destruct Hc).
  apply sturm_roots_eq. apply sturm_count; auto; apply simple_derivative; auto.
Qed.

Section Loop.
Variables (eps prec tol : R) (f : list R) (all : list R) (lo0 : R).
Hypothesis Heps : 0 < eps.
Hypothesis Htol : eps <= tol /\ Rabs prec <= tol.
Hypothesis Hz : not_zero f.
(** the points the loop can use as ends of regions, and what is known there *)
Variable D : R -> Prop.
Hypothesis Dmid : forall a b, D a -> D b -> D ((a + b) / 2).
Hypothesis Dcount : forall a b t, D a -> D b -> a <= b -> NoDup t ->
  (forall z, In z t <-> (a < z /\ z <= b) /\ pval f z = 0) ->
  sturm_roots (sturm_chain f) (Fin a) (Fin b) = length t.
Hypothesis Dbis : forall r a b, D a -> D b -> pval f r = 0 -> a < r <= b ->
  (forall z, a < z <= b -> pval f z = 0 -> z = r) ->
  forall x tr, bisection (f_bisection f) prec (Fin a) (Fin b) 0 = (true, Some x, tr) -> close_to (Rabs prec) x r.
Hypothesis Hall : NoDup all.
Hypothesis Hlen : (length all <= porder f)%nat.
Hypothesis Hlo0 : 0 < lo0.

(** a region and the roots in it *)
Definition region_ok (g : region) (t : list R) : Prop :=
  let '(a, b, k) := g in
  (D a /\ D b) /\ lo0 <= a /\ a <= b /\ length t = k /\ forall z, In z t <-> (a < z /\ z <= b) /\ pval f z = 0.

Definition region_fits (g : region) (n : nat) : Prop :=
  let '(a, b, k) := g in b - a <= eps * lo0 * 2 ^ n.

Lemma NoDup_app_r {A} (l m : list A) : NoDup (l ++ m) -> NoDup m.
Proof. induction l; simpl; [auto|]. intros H. inversion H; auto. Qed.
Lemma NoDup_app_l {A} (l m : list A) : NoDup (l ++ m) -> NoDup l.
Proof. intros H. apply (NoDup_app_r m l). eapply Permutation_NoDup; [apply Permutation_app_comm|exact H]. Qed.

Lemma filter_split {A} (p : A -> bool) (l : list A) : Permutation l (filter p l ++ filter (fun x => negb (p x)) l).
Proof.
  induction l as [|x l IH]; [reflexivity|]. cbn [filter]. destruct (p x); cbn [negb].
  - cbn [app]. apply perm_skip, IH.
  - eapply perm_trans; [apply perm_skip, IH|]. apply Permutation_middle.
Qed.

(** state of the loop *)
Record inv (regions : list region) (retval : list R) (dn : list R) (todo : list (list R)) : Prop := {
  inv_close : Forall2 (close_to tol) retval dn;
  inv_perm : Permutation (dn ++ concat todo) all;
  inv_reg : Forall2 region_ok regions todo;
  inv_ne : Forall (fun t => t <> []) todo
}.

Lemma concat_len_ge (todo : list (list R)) : Forall (fun t => t <> []) todo -> (length todo <= length (concat todo))%nat.
Proof.
  induction 1 as [|t l Ht _ IH]; [simpl; lia|]. cbn [concat length]. rewrite app_length. destruct t; [congruence|simpl; lia].
Qed.
Lemma F2_len {A B} (P : A -> B -> Prop) l m : Forall2 P l m -> length l = length m.
Proof. induction 1; simpl; congruence. Qed.

Lemma inv_counts regions retval dn todo : inv regions retval dn todo ->
  (length retval + length (concat todo) = length all)%nat /\ (length regions <= length (concat todo))%nat.
Proof.
  intros [H1 H2 H3 H4]. apply F2_len in H1. apply Permutation_length in H2. rewrite app_length in H2.
  apply F2_len in H3. pose proof (concat_len_ge todo H4). lia.
Qed.

(** one half: the roots of (a,b] move to retval or to a new region *)
Lemma half_ok a b t regions retval dn todo : D a -> D b -> lo0 <= a -> a <= b ->
  Forall2 (close_to tol) retval dn -> (length dn + length t + length (concat todo) <= length all)%nat ->
  Forall2 region_ok regions todo -> (length regions <= length (concat todo))%nat ->
  Forall (fun t => t <> []) todo ->
  (forall z, In z t <-> (a < z /\ z <= b) /\ pval f z = 0) ->
  exists regions' retval' dn' todo',
    sturm_half prec f a b (length t) regions retval = Ret (regions', retval') /\
    Forall2 (close_to tol) retval' dn' /\ Permutation (dn' ++ concat todo') (dn ++ t ++ concat todo) /\
    Forall2 region_ok regions' todo' /\ (length regions' <= length (concat todo'))%nat /\
    Forall (fun t => t <> []) todo' /\
    ((regions' = regions /\ todo' = todo) \/ (regions' = (a, b, length t) :: regions /\ todo' = t :: todo)).
Proof.
  intros DA DB Ha Hab Hcl Hp Hr Hl Hne Ht.
  assert (PUSH : t <> [] -> push_region (porder f) regions (a, b, length t) = Ret ((a, b, length t) :: regions)).
  { intros Htn. unfold push_region.
    pose proof (F2_len _ _ _ Hcl).
    assert (1 <= length t)%nat by (destruct t; [congruence|simpl; lia]).
    destruct (Nat.ltb_spec (length regions) (porder f)); [reflexivity|lia]. }
  assert (KEEP : t <> [] -> exists regions' retval' dn' todo',
    Ret ((a, b, length t) :: regions, retval) = Ret (regions', retval') /\
    Forall2 (close_to tol) retval' dn' /\ Permutation (dn' ++ concat todo') (dn ++ t ++ concat todo) /\
    Forall2 region_ok regions' todo' /\ (length regions' <= length (concat todo'))%nat /\
    Forall (fun t => t <> []) todo' /\
    ((regions' = regions /\ todo' = todo) \/ (regions' = (a, b, length t) :: regions /\ todo' = t :: todo))).
  { intros Htn. exists ((a, b, length t) :: regions), retval, dn, (t :: todo).
    split; [reflexivity|]. split; [exact Hcl|]. split; [reflexivity|].
    split; [constructor; [|exact Hr]; repeat split; auto; apply Ht; auto|].
    split; [change (concat (t :: todo)) with (t ++ concat todo); rewrite app_length; assert (1 <= length t)%nat by (destruct t; [congruence|simpl; lia]); change (length ((a, b, length t) :: regions)) with (S (length regions)); lia|].
    split; [constructor; assumption|right; split; reflexivity]. }
  destruct t as [|r [|r2 t]]; cbn [length sturm_half].
  - exists regions, retval, dn, todo. split; [reflexivity|]. cbn [app]. repeat split; auto.
  - assert (Hrr : (a < r <= b) /\ pval f r = 0) by (apply (Ht r); left; reflexivity).
    assert (Hu : forall z, a < z <= b -> pval f z = 0 -> z = r).
    { intros z Hzz E. destruct (proj2 (Ht z)) as [E1|[]]; [split; [lra|exact E]|congruence]. }
    destruct (bisection (f_bisection f) prec (Fin a) (Fin b) 0) as [[ok [x|]] tr] eqn:EB.
    + destruct ok.
      * assert (C : close_to tol x r).
        { pose proof (Dbis r a b DA DB (proj2 Hrr) (proj1 Hrr) Hu x tr EB) as C.
          unfold close_to in *. eapply Rle_trans; [exact C|]. apply Rmult_le_compat_r; [apply Rabs_pos|apply Htol]. }
        unfold sv_push. pose proof (F2_len _ _ _ Hcl).
        cbn [length] in Hp. destruct (Nat.ltb_spec (length retval) (porder f)); [|lia]. cbn [obind].
        exists regions, (retval ++ [x]), (dn ++ [r]), todo. split; [reflexivity|].
        split; [apply Forall2_app; [exact Hcl|constructor; [exact C|constructor]]|].
        split; [rewrite <- app_assoc; reflexivity|]. repeat split; auto.
      * cbn [length] in PUSH. rewrite PUSH by discriminate. cbn [obind]. apply KEEP. discriminate.
    + cbn [length] in PUSH.
      rewrite PUSH by discriminate. cbn [obind]. destruct ok; apply KEEP; discriminate.
  - cbn [length] in PUSH. rewrite PUSH by discriminate. cbn [obind]. apply KEEP. discriminate.
Qed.

Definition wt (n : nat) : nat := (2 ^ S n - 1)%nat.
Fixpoint wsum (l : list nat) : nat := match l with [] => O | n :: t => (wt n + wsum t)%nat end.
Lemma wt_S n : (wt (S n) = 2 * wt n + 1)%nat.
Proof. unfold wt. pose proof (Nat.pow_nonzero 2 n ltac:(lia)). cbn [Nat.pow]. lia. Qed.
Lemma wt_pos n : (1 <= wt n)%nat.
Proof. unfold wt. pose proof (Nat.pow_nonzero 2 n ltac:(lia)). cbn [Nat.pow]. lia. Qed.

Lemma F2_repeat (x : R) (t : list R) : (forall z, In z t -> close_to tol x z) -> Forall2 (close_to tol) (repeat x (length t)) t.
Proof. induction t as [|z t IH]; intros H; [constructor|]. cbn [length repeat]. constructor; [apply H; left; reflexivity|]. apply IH. intros; apply H; right; assumption. Qed.

Lemma loop_ok : forall fuel regions retval dn todo ns,
  inv regions retval dn todo -> Forall2 region_fits regions ns -> (wsum ns + 1 <= fuel)%nat ->
  exists L dn', sturm_loop eps prec fuel f regions retval = Ret L /\
    Forall2 (close_to tol) L dn' /\ Permutation dn' all.
Proof.
  induction fuel as [|fuel IH]; intros regions retval dn todo ns HI HF HW; [lia|].
  destruct HI as [H1 H2 H3 H4]. cbn [sturm_loop].
  destruct H3 as [|[[a b] k] t regions todo Hg H3].
  - exists retval, dn. split; [reflexivity|]. split; [exact H1|]. cbn [concat] in H2. rewrite app_nil_r in H2. exact H2.
  - inversion HF as [|x n y ns' Hn HF']; subst. inversion H4 as [|t' l' Ht0 H4']; subst.
    cbn [wsum] in HW. destruct Hg as ([DA DB] & Ha & Hab & Hk & Ht). subst k. change (concat (t :: todo)) with (t ++ concat todo) in H2.
    assert (NDt : NoDup t).
    { apply Permutation_sym in H2. apply (Permutation_NoDup H2) in Hall. apply NoDup_app_r, NoDup_app_l in Hall. exact Hall. }
    pose proof (Permutation_length H2) as PL. rewrite !app_length in PL. pose proof (F2_len _ _ _ H1) as L1.
    pose proof (F2_len _ _ _ H3) as L3. pose proof (concat_len_ge todo H4') as L4.
    destruct (Rltb_spec (eps * Rmin (Rabs a) (Rabs b)) (Rabs (a - b))) as [W|W]; cbn [negb].
    + (* the region is split in the middle *)
      set (m := (a + b) / 2). assert (Hm : a <= m <= b) by (unfold m; lra).
      assert (DM : D m) by (apply Dmid; assumption).
      set (pl := fun z : R => negb (Rltb m z)).
      set (ta := filter pl t). set (tb := filter (fun z => negb (pl z)) t).
      assert (Hta : forall z, In z ta <-> (a < z /\ z <= m) /\ pval f z = 0).
      { intros z. unfold ta. rewrite filter_In, Ht. unfold pl. destruct (Rltb_spec m z); cbn [negb]; split; intros H; try tauto; try (destruct H; discriminate); lra. }
      assert (Htb : forall z, In z tb <-> (m < z /\ z <= b) /\ pval f z = 0).
      { intros z. unfold tb. rewrite filter_In, Ht. unfold pl. destruct (Rltb_spec m z); cbn [negb]; split; intros H; try tauto; try (destruct H; discriminate); lra. }
      assert (Pt : Permutation t (ta ++ tb)) by apply filter_split.
      assert (Ca : sturm_roots (sturm_chain f) (Fin a) (Fin m) = length ta) by (apply Dcount; [exact DA|exact DM|lra|apply NoDup_filter, NDt|exact Hta]).
      assert (Cb : sturm_roots (sturm_chain f) (Fin m) (Fin b) = length tb) by (apply Dcount; [exact DM|exact DB|lra|apply NoDup_filter, NDt|exact Htb]).
      assert (EK : (length ta + length tb)%nat = length t) by (rewrite (Permutation_length Pt), app_length; reflexivity).
      fold m. cbv zeta. rewrite Ca, Cb. replace (Nat.eqb (length ta + length tb) (length t)) with true by (symmetry; apply Nat.eqb_eq; exact EK).
      cbn [negb].
      assert (LR : (length regions <= length (concat todo))%nat) by lia.
      destruct (half_ok a m ta regions retval dn todo) as (r1 & v1 & d1 & t1 & E1 & A1 & A2 & A3 & A4 & A5 & A6);
        [exact DA|exact DM|lra|lra|exact H1|lia|exact H3|exact LR|exact H4'|exact Hta|].
      replace (Nat.eqb (length ta + length tb) (length t)) with true by (symmetry; apply Nat.eqb_eq; exact EK). cbn [negb]. rewrite E1. cbn [obind].
      pose proof (Permutation_length A2) as PA. rewrite !app_length in PA.
      destruct (half_ok m b tb r1 v1 d1 t1) as (r2 & v2 & d2 & t2 & E2 & B1 & B2 & B3 & B4 & B5 & B6);
        [exact DM|exact DB|lra|lra|exact A1|lia|exact A3|exact A4|exact A5|exact Htb|].
      rewrite E2. cbn [obind].
      assert (PP : Permutation (d2 ++ concat t2) all).
      { rewrite B2. rewrite <- H2. rewrite (Permutation_app_comm tb), app_assoc, A2.
        rewrite <- !app_assoc. apply Permutation_app_head. rewrite (Permutation_app_comm (concat todo) tb), app_assoc.
        rewrite <- Pt. reflexivity. }
      assert (HFIT : b - a > eps * lo0 * 1).
      { rewrite (Rabs_left1 (a - b)) in W by lra. rewrite (Rabs_pos_eq a), (Rabs_pos_eq b), Rmin_left in W by lra.
        assert (eps * lo0 <= eps * a) by (apply Rmult_le_compat_l; lra). lra. }
      destruct n as [|n]; [cbn [region_fits pow] in Hn; lra|].
      rewrite wt_S in HW. cbn [region_fits pow] in Hn.
      assert (F1 : region_fits (a, m, length ta) n) by (cbn [region_fits]; unfold m; lra).
      assert (F2 : region_fits (m, b, length tb) n) by (cbn [region_fits]; unfold m; lra).
      assert (exists ns2, Forall2 region_fits r2 ns2 /\ (wsum ns2 <= wsum ns' + 2 * wt n)%nat) as (ns2 & G1 & G2).
      { destruct A6 as [[-> _]|[-> _]]; destruct B6 as [[-> _]|[-> _]].
        - exists ns'. split; [exact HF'|lia].
        - exists (n :: ns'). split; [constructor; assumption|cbn [wsum]; lia].
        - exists (n :: ns'). split; [constructor; assumption|cbn [wsum]; lia].
        - exists (n :: n :: ns'). split; [repeat (constructor; [assumption|]); assumption|cbn [wsum]; lia]. }
      apply (IH r2 v2 d2 t2 ns2); [constructor; assumption|exact G1|lia].
    + (* tolerance reached *)
      rewrite sv_extend_total by (rewrite repeat_length; lia). cbn [obind].
      pose proof (wt_pos n).
      apply (IH regions _ (dn ++ t) todo ns'); [|exact HF'|lia]. constructor; auto.
      * apply Forall2_app; [exact H1|]. apply F2_repeat. intros z Hzt. apply Ht in Hzt.
        assert (A : Rabs (a - b) = b - a) by (rewrite Rabs_left1; lra). rewrite A in W.
        rewrite !(Rabs_pos_eq a), !(Rabs_pos_eq b), Rmin_left in W by lra.
        unfold close_to. rewrite (Rabs_pos_eq ((a + b) / 2)) by lra.
        apply Rle_trans with ((b - a) / 2); [unfold Rabs; destruct Rcase_abs; lra|].
        assert (eps * a <= tol * a) by (apply Rmult_le_compat_r; lra).
        assert (tol * a <= tol * ((a + b) / 2)) by (apply Rmult_le_compat_l; lra). lra.
      * rewrite <- app_assoc. exact H2.
Qed.
End Loop.

(* ------------------------------------------------ positive roots *)
Definition positive_solution (tol : R) (f : list R) (L : list R) : Prop :=
  exists rs, Forall2 (close_to tol) L rs /\ NoDup rs /\ forall z, In z rs <-> 0 < z /\ pval f z = 0.

Lemma root_count_le n : forall f rs, length f = S n -> not_zero f -> NoDup rs ->
  (forall z, In z rs -> pval f z = 0) -> (length rs <= n)%nat.
Proof.
  induction n as [|n IH]; intros f rs Hl Hz Hnd Hr.
  - destruct rs as [|r rs]; [simpl; lia|exfalso]. specialize (Hr r (or_introl eq_refl)).
    destruct f as [|c [|? ?]]; try discriminate. destruct Hz as (c' & [<-|[]] & Hc). rewrite pval_cons, pval_nil in Hr. lra.
  - destruct rs as [|r rs]; [simpl; lia|].
    assert (Hf : f <> []) by (intros ->; discriminate).
    destruct (divide_root f r Hf (Hr r (or_introl eq_refl))) as (g & Hg & Hv).
    inversion Hnd; subst. enough (length rs <= n)%nat by (simpl; lia).
    apply (IH g rs); [lia| |assumption|].
    + apply not_zero_iff. apply not_zero_iff in Hz. destruct Hz as [x Hx]. exists x. rewrite Hv in Hx. intros E. apply Hx. rewrite E. ring.
    + intros z Hzr. specialize (Hr z (or_intror Hzr)). rewrite Hv in Hr. apply Rmult_integral in Hr.
      destruct Hr as [E|E]; [|exact E]. exfalso. assert (z = r) by lra. subst z. contradiction.
Qed.

Lemma positive_roots_list f : not_zero f -> exists rs, NoDup rs /\ (forall z, In z rs <-> 0 < z /\ pval f z = 0) /\ (length rs <= porder f)%nat.
Proof.
  intros Hz. destruct (roots_in_exists positive f Hz) as [rs Hrs].
  exists (nodup Req_EM_T rs). split; [apply NoDup_nodup|].
  assert (HI : forall z, In z (nodup Req_EM_T rs) <-> 0 < z /\ pval f z = 0).
  { intros z. rewrite nodup_In. split.
    - intros H. assert (P : 0 < z) by (destruct Hrs as [F _]; rewrite Forall_forall in F; apply F, H).
      split; [exact P|]. apply (roots_in_In positive f rs z Hrs P). exact H.
    - intros [P E]. apply (roots_in_In positive f rs z Hrs P). exact E. }
  split; [exact HI|].
  assert (Hf : f <> []) by (destruct Hz as (c & Hc & _); intros ->; destruct Hc).
  apply (root_count_le (porder f) f); [unfold porder; destruct f; [congruence|reflexivity]|exact Hz|apply NoDup_nodup|].
  intros z H. apply HI in H. apply H.
Qed.

Lemma pow2_INR n : INR n <= 2 ^ n.
Proof.
  induction n; [simpl; lra|]. rewrite S_INR. cbn [pow]. pose proof (pow_lt 2 n ltac:(lra)).
  assert (1 <= 2 ^ n) by (apply pow_R1_Rle; lra). lra.
Qed.

Lemma archimed_cor1_nat x : exists n, x <= INR n.
Proof.
  destruct (archimed x) as [H _]. exists (Z.to_nat (up x)).
  destruct (Z.le_gt_cases 0 (up x)) as [L|L].
  - rewrite INR_IZR_INZ, Z2Nat.id by exact L. lra.
  - assert (up x <= 0)%Z by lia. apply IZR_le in H0. pose proof (pos_INR (Z.to_nat (up x))). lra.
Qed.

(** the Sturm solver terminates with the positive roots *)
Lemma positive_sturm_gen (D : R -> Prop) eps prec tol f : 0 < eps -> eps <= tol -> Rabs prec <= tol ->
  not_zero f ->
  (forall l u, LMQ_lower f = Ret (Fin l) -> LMQ_upper f = Ret (Fin u) -> l <= u -> D l /\ D u) ->
  (forall a b, D a -> D b -> D ((a + b) / 2)) ->
  (forall a b t, D a -> D b -> a <= b -> NoDup t ->
    (forall z, In z t <-> (a < z /\ z <= b) /\ pval f z = 0) ->
    sturm_roots (sturm_chain f) (Fin a) (Fin b) = length t) ->
  (forall r a b, D a -> D b -> pval f r = 0 -> a < r <= b ->
    (forall z, a < z <= b -> pval f z = 0 -> z = r) ->
    forall x tr, bisection (f_bisection f) prec (Fin a) (Fin b) 0 = (true, Some x, tr) -> close_to (Rabs prec) x r) ->
  (1 <= porder f)%nat ->
  (exists fuel L, forall fu, (fuel <= fu)%nat -> solve_positive_sturm eps prec fu f = Ret L /\ positive_solution tol f L)
  \/ (31 <= porder f)%nat.
Proof.
  intros He Ht1 Ht2 Hz Dlu Dmid Dcount Dbis Ho.
  assert (Hf : f <> []) by (destruct Hz as (c & Hc & _); intros ->; destruct Hc).
  unfold solve_positive_sturm.
  pose proof (lmq_upper_correct f Hz) as HU. pose proof (lmq_lower_correct f Hz) as HL.
  destruct (LMQ_upper f) as [[u| |]| | |]; try (exfalso; exact HU); [|right; exact HU].
  destruct (LMQ_lower f) as [[l| |]| | |]; try (exfalso; exact HL); [| |right; exact HL]; cbn [obind xltb]; left.
  - destruct HU as (Hu & HU & _). destruct HL as (Hl & HL).
    destruct (Rltb_spec u l) as [W|W].
    + exists O, []. intros fu _. split; [reflexivity|]. exists []. split; [constructor|]. split; [constructor|].
      intros z. split; [intros []|]. intros [P E]. exfalso.
      destruct (Rle_or_lt z l) as [G|G]; [apply (HL z P G E)|]. apply (HU z P); [lra|exact E].
    + destruct (Dlu l u eq_refl eq_refl ltac:(lra)) as [DL DU].
      destruct (positive_roots_list f Hz) as (all & Hnd & Hin & Hlen).
      assert (Hreg : forall z, In z all <-> (l < z /\ z <= u) /\ pval f z = 0).
      { intros z. rewrite Hin. split.
        - intros [P E]. split; [|exact E]. split.
          + destruct (Rle_or_lt z l) as [G|G]; [exfalso; apply (HL z P G E)|exact G].
          + destruct (Rle_or_lt z u) as [G|G]; [exact G|exfalso; apply (HU z P); [lra|exact E]].
        - intros [P E]. split; [lra|exact E]. }
      assert (HC : sturm_roots (sturm_chain f) (Fin l) (Fin u) = length all) by (apply Dcount; [exact DL|exact DU|lra|assumption|exact Hreg]).
      rewrite HC. unfold push_region. cbn [length]. destruct (Nat.ltb_spec 0 (porder f)); [|lia]. cbn [obind].
      assert (exists n, u - l <= eps * l * 2 ^ n) as [n Hn].
      { assert (Dl : 0 < eps * l) by (apply Rmult_lt_0_compat; lra).
        destruct (archimed_cor1_nat ((u - l) / (eps * l))) as [n Hn]. exists n.
        apply Rle_trans with (eps * l * INR n); [|apply Rmult_le_compat_l; [lra|apply pow2_INR]].
        replace (u - l) with (eps * l * ((u - l) / (eps * l))) by (field; lra).
        apply Rmult_le_compat_l; lra. }
      destruct all as [|r0 all'] eqn:EA.
      * exists 2%nat, []. intros fu Hfu. destruct fu as [|[|fu]]; try lia. split.
        -- cbn [length sturm_loop].
           destruct (negb (Rltb _ _)); [reflexivity|].
           set (m := (l + u) / 2).
           assert (Ca : sturm_roots (sturm_chain f) (Fin l) (Fin m) = 0%nat).
           { apply (Dcount l m []); [exact DL|apply Dmid; assumption|unfold m; lra|constructor|]. intros z. split; [intros []|]. intros [P E].
             apply (Hreg z). unfold m in P. split; [lra|exact E]. }
           assert (Cb : sturm_roots (sturm_chain f) (Fin m) (Fin u) = 0%nat).
           { apply (Dcount m u []); [apply Dmid; assumption|exact DU|unfold m; lra|constructor|]. intros z. split; [intros []|]. intros [P E].
             apply (Hreg z). unfold m in P. split; [lra|exact E]. }
           cbv zeta. fold m. rewrite Ca, Cb. cbn [Nat.add Nat.eqb negb]. cbn [sturm_half obind]. reflexivity.
        -- exists []. split; [constructor|]. split; [constructor|exact Hin].
      * rewrite <- EA in *. assert (Hne : all <> []) by (rewrite EA; discriminate). clear EA r0 all'.
        assert (LOOP : forall fu, (wsum [n] + 1 <= fu)%nat -> exists L dn', sturm_loop eps prec fu f [(l, u, length all)] [] = Ret L /\
            Forall2 (close_to tol) L dn' /\ Permutation dn' all).
        { intros fu Hfu. apply (loop_ok eps prec tol f all l He (conj Ht1 Ht2) D Dmid Dcount Dbis Hnd Hlen Hl fu _ [] [] [all] [n]).
          - constructor.
            + constructor.
            + cbn [concat app]. rewrite app_nil_r. reflexivity.
            + constructor; [|constructor]. cbn [region_ok]. repeat split; auto; try lra; apply Hreg; auto.
            + repeat constructor. exact Hne.
          - constructor; [|constructor]. exact Hn.
          - exact Hfu. }
        destruct (LOOP (wsum [n] + 1)%nat (le_n _)) as (L & dn & E & _ & _).
        assert (MONO : forall fu g rg rv L, sturm_loop eps prec fu g rg rv = Ret L -> forall fu', (fu <= fu')%nat -> sturm_loop eps prec fu' g rg rv = Ret L).
        { clear. induction fu as [|fu IH]; intros g rg rv L E fu' Hle; [discriminate|]. destruct fu' as [|fu']; [lia|].
          cbn [sturm_loop] in *. destruct rg as [|[[a b] k] rg]; [exact E|].
          assert (W : forall x (h : outcome x) (F G : x -> outcome (list R)), (forall v, F v = Ret L -> G v = Ret L) -> obind h F = Ret L -> obind h G = Ret L).
          { intros x h F G HFG. destruct h; cbn [obind]; auto. }
          cbv zeta in *.
          destruct (negb (Rltb _ _)); [revert E; apply W; intros v Hv; apply (IH _ _ _ _ Hv); lia|].
          match goal with |- (if ?c then _ else _) = _ => destruct c end.
          - revert E. apply W. intros v Hv. apply (IH _ _ _ _ Hv). lia.
          - revert E. apply W. intros [v1 v2]. apply W. intros [v3 v4] Hv. apply (IH _ _ _ _ Hv). lia. }
        exists (wsum [n] + 1)%nat, L. intros fu Hfu. split; [apply (MONO _ _ _ _ _ E fu Hfu)|].
        destruct (LOOP _ (le_n _)) as (L2 & dn2 & E2 & C2 & P2). rewrite E in E2. injection E2 as <-.
        exists dn2. split; [exact C2|]. split; [apply (Permutation_NoDup (Permutation_sym P2) Hnd)|].
        intros z. rewrite <- Hin. split; apply Permutation_in; [exact P2|apply Permutation_sym, P2].
  - exists O, []. intros fu _. split; [reflexivity|]. exists []. split; [constructor|]. split; [constructor|].
    intros z. split; [intros []|]. intros [P E]. apply (HL z P E).
Qed.

(** the positive roots are simple *)
Definition simple_positive (f : list R) : Prop :=
  forall x, 0 < x -> is_root f x -> ~ derivable_pt_lim (pval f) x 0.

Lemma positive_sturm_ok eps prec tol f : 0 < eps -> eps <= tol -> Rabs prec <= tol ->
  not_zero f -> simple_positive f -> (1 <= porder f)%nat ->
  (exists fuel L, forall fu, (fuel <= fu)%nat -> solve_positive_sturm eps prec fu f = Ret L /\ positive_solution tol f L)
  \/ (31 <= porder f)%nat.
Proof.
  intros He Ht1 Ht2 Hz Hs Ho.
  assert (Hf : f <> []) by (destruct Hz as (c & Hc & _); intros ->; destruct Hc).
  apply (positive_sturm_gen (fun x => 0 < x)); auto.
  - intros l u El _ Hlu. pose proof (lmq_lower_correct f Hz) as HL. rewrite El in HL. lra.
  - intros; lra.
  - intros a b t Ha Hb Hab Hnd Ht. apply sturm_roots_eq.
    assert (forall c, 0 < c -> ~ (pval f c = 0 /\ pval (poly_derivative true f) c = 0)).
    { intros c Hc [E D]. apply (Hs c Hc E). rewrite <- D. apply poly_derivative_correct, Hf. }
    apply sturm_count; auto.
  - intros r a b Ha Hb Hr Hab Hu. apply bisection_isolated; auto; [apply Hs; [lra|exact Hr]|]. intros z Hzz. apply Hu. lra.
Qed.

(** the points reachable by halving [l,u] *)
Definition halving_point (l u x : R) : Prop := exists k i, (i <= 2 ^ k)%nat /\ x = l + (u - l) * (INR i / 2 ^ k).
Lemma halving_mid l u a b : halving_point l u a -> halving_point l u b -> halving_point l u ((a + b) / 2).
Proof.
  intros (k & i & Hi & ->) (m & j & Hj & ->).
  exists (S (k + m)), (i * 2 ^ m + j * 2 ^ k)%nat. split.
  - rewrite Nat.pow_succ_r', Nat.pow_add_r. nia.
  - rewrite plus_INR, !mult_INR, !pow_INR. change (INR 2) with 2. cbn [pow]. rewrite pow_add.
    pose proof (pow_lt 2 k ltac:(lra)). pose proof (pow_lt 2 m ltac:(lra)). field. lra.
Qed.

(** bisection between two points where f is not zero *)
Lemma bisect_loop_nonzero f r a b prec x0 : f <> [] -> pval f r = 0 ->
  (forall z, a < z < b -> pval f z = 0 -> z = r) -> x0 = a \/ x0 = b ->
  forall n lo hi tr, a <= lo -> lo < r < hi -> hi <= b -> pval f lo * pval f hi < 0 ->
  forall x tr', bisect_loop n (f_bisection f) prec x0 lo hi (f_bisection f hi) tr = (true, x, tr') ->
  close_to (Rabs prec) x r.
Proof.
  intros Hf Hr Hu Hx0.
  assert (FB : forall y, f_bisection f y = pval f y) by (intros y; apply poly_eval_correct, Hf).
  induction n as [|n IH]; intros lo hi tr Ha Hlr Hb Hsd x tr'; cbn [bisect_loop]; [discriminate|].
  rewrite mid_R. set (m := (lo + hi) / 2).
  assert (Hm : lo < m < hi) by (unfold m; lra).
  cbn [nltb neqb nsub nmul n0 R_num]. rewrite !nabs_R.
  destruct (Reqb_spec m lo) as [E|_]; [lra|].
  destruct (Reqb_spec m hi) as [E|_]; [lra|].
  rewrite !orb_false_r.
  destruct (Rltb_spec (Rabs (m - x0)) (Rabs (prec * m))) as [Hd|Hd]; cbn [orb].
  { intros E. injection E as <- _. unfold close_to. rewrite <- Rabs_mult.
    apply Rlt_le. eapply Rle_lt_trans; [|exact Hd].
    unfold m in *. destruct Hx0 as [-> | ->]; unfold Rabs; repeat destruct Rcase_abs; lra. }
  destruct (Reqb_spec (f_bisection f m) 0) as [E0|N0].
  { intros E. injection E as <- _. rewrite FB in E0. rewrite (Hu m ltac:(lra) E0). unfold close_to.
    unfold Rminus. rewrite Rplus_opp_r, Rabs_R0. apply Rmult_le_pos; apply Rabs_pos. }
  rewrite FB in N0.
  assert (NM : r <> m) by (intros E; subst m; rewrite <- E in N0; contradiction).
  destruct (Bool.eqb (signbit (f_bisection f m)) (signbit (f_bisection f hi))) eqn:ES.
  - apply signbit_eq in ES. rewrite !FB in ES.
    assert (C : pval f lo * pval f m < 0).
    { destruct ES as [ES|ES]; [assert (0 < pval f lo) by nra; nra|].
      assert (pval f lo < 0) by nra. assert (0 < pval f m) by lra. nra. }
    destruct (pval_ivt f lo m ltac:(lra) C) as (z & Hzz & E). assert (z = r) by (apply Hu; [lra|exact E]). subst z.
    apply IH; [lra|lra|lra|exact C].
  - assert (NS : ~ ((pval f m < 0 /\ pval f hi < 0) \/ (0 <= pval f m /\ 0 <= pval f hi))).
    { intros E. rewrite <- !FB in E. apply signbit_eq in E. congruence. }
    assert (C : pval f m * pval f hi < 0).
    { destruct (Rlt_or_le (pval f m) 0), (Rlt_or_le (pval f hi) 0); try (exfalso; lra); assert (pval f hi <> 0) by (intros Q; rewrite Q in Hsd; lra); nra. }
    destruct (pval_ivt f m hi ltac:(lra) C) as (z & Hzz & E). assert (z = r) by (apply Hu; [lra|exact E]). subst z.
    apply IH; [lra|lra|lra|exact C].
Qed.

Lemma bisection_nonzero f r a b prec : f <> [] -> pval f r = 0 -> a < r <= b -> pval f a <> 0 -> pval f b <> 0 ->
  (forall z, a < z <= b -> pval f z = 0 -> z = r) ->
  forall x tr, bisection (f_bisection f) prec (Fin a) (Fin b) 0 = (true, Some x, tr) -> close_to (Rabs prec) x r.
Proof.
  intros Hf Hr Hab Na Nb Hu x tr. unfold bisection. cbn [nltb R_num].
  assert (FB : forall y, f_bisection f y = pval f y) by (intros y; apply poly_eval_correct, Hf).
  destruct (Rltb_spec a b) as [L|L]; cbn [negb]; [|discriminate].
  destruct (Bool.eqb (signbit (f_bisection f a)) (signbit (f_bisection f b))) eqn:ES; [discriminate|].
  assert (SD : pval f a * pval f b < 0).
  { assert (NS : ~ ((pval f a < 0 /\ pval f b < 0) \/ (0 <= pval f a /\ 0 <= pval f b))).
    { intros E. rewrite <- !FB in E. apply signbit_eq in E. congruence. }
    destruct (Rlt_or_le (pval f a) 0), (Rlt_or_le (pval f b) 0); try (exfalso; lra); nra. }
  match goal with |- context [bisect_loop _ _ _ ?x0 _ _ _ _] => set (x1 := x0) end.
  assert (Hx1 : x1 = a \/ x1 = b) by (unfold x1; destruct (Rltb _ _); auto).
  destruct (bisect_loop _ (f_bisection f) prec x1 a b _ [b; a]) as [[ok y] t] eqn:EL.
  intros E. injection E as -> -> _.
  assert (r <> b) by (intros ->; contradiction).
  eapply (bisect_loop_nonzero f r a b prec x1 Hf Hr); [|exact Hx1| | | | |exact EL]; try lra.
  intros z Hzz. apply Hu. lra.
Qed.

(** roots of any multiplicity, none of them at a point reached by halving *)
Definition off_grid (f : list R) : Prop := forall l u x,
  LMQ_lower f = Ret (Fin l) -> LMQ_upper f = Ret (Fin u) -> halving_point l u x -> pval f x <> 0.

Lemma positive_sturm_multi eps prec tol f : 0 < eps -> eps <= tol -> Rabs prec <= tol ->
  not_zero f -> off_grid f -> (1 <= porder f)%nat ->
  (exists fuel L, forall fu, (fuel <= fu)%nat -> solve_positive_sturm eps prec fu f = Ret L /\ positive_solution tol f L)
  \/ (31 <= porder f)%nat.
Proof.
  intros He Ht1 Ht2 Hz Hg Ho.
  assert (Hf : f <> []) by (destruct Hz as (c & Hc & _); intros ->; destruct Hc).
  assert (DEC : (exists l u, LMQ_lower f = Ret (Fin l) /\ LMQ_upper f = Ret (Fin u)) \/
    forall l u, LMQ_lower f = Ret (Fin l) -> LMQ_upper f = Ret (Fin u) -> False).
  { destruct (LMQ_lower f) as [[l| |]| | |]; try (right; intros; congruence).
    destruct (LMQ_upper f) as [[u| |]| | |]; try (right; intros; congruence). left; eauto. }
  destruct DEC as [(l & u & El & Eu)|DEC].
  - apply (positive_sturm_gen (halving_point l u)); auto.
    + intros l' u' El' Eu' _. assert (l' = l) by congruence. assert (u' = u) by congruence. subst. split.
      * exists O, O. split; [simpl; lia|]. simpl. field.
      * exists O, 1%nat. split; [simpl; lia|]. simpl. field.
    + intros a b. apply halving_mid.
    + intros a b t Da Db Hab Hnd Ht. apply sturm_roots_eq. apply sturm_count; auto; intros [E _]; [apply (Hg l u a El Eu Da E)|apply (Hg l u b El Eu Db E)].
    + intros r a b Da Db Hr Hab Hu. apply bisection_nonzero; auto; apply (Hg l u); auto.
  - apply (positive_sturm_gen (fun _ => False)); auto; try (intros; contradiction). intros. exfalso. eauto.
Qed.

(* ------------------------------------------------ isolation and bisection *)
Lemma close_nonneg tol x : 0 <= tol -> close_to tol x x.
Proof. intros H. unfold close_to. unfold Rminus. rewrite Rplus_opp_r, Rabs_R0. apply Rmult_le_pos; [exact H|apply Rabs_pos]. Qed.

Lemma rsort_perm l : Permutation l (rsort l).
Proof.
  assert (I : forall x l, Permutation (x :: l) (rinsert x l)).
  { intros x m. induction m as [|y m IH]; cbn [rinsert]; [reflexivity|]. destruct (Rltb y x); [|reflexivity].
    eapply perm_trans; [apply perm_swap|]. apply perm_skip, IH. }
  induction l as [|x l IH]; [reflexivity|]. cbn [rsort fold_right]. fold (rsort l).
  eapply perm_trans; [apply perm_skip, IH|]. apply I.
Qed.

Lemma sort_solution tol f L : positive_solution tol f L -> positive_solution tol f (rsort L).
Proof.
  intros (rs & H1 & H2 & H3). destruct (Permutation_Forall2 (rsort_perm L) H1) as (rs' & P & H1').
  exists rs'. split; [exact H1'|]. split; [apply (Permutation_NoDup P H2)|].
  intros z. rewrite <- H3. split; apply Permutation_in; [apply Permutation_sym|]; exact P.
Qed.

(** the intervals, one after the other *)
Lemma bisect_all_ok prec tol f : Rabs prec <= tol -> not_zero f -> simple_roots f -> forall L retval dn,
  Forall (fun p => fst p < snd p) L ->
  (forall p, In p L -> exists z, (pval f z = 0 /\ inside p z) /\ forall z', pval f z' = 0 /\ inside p z' -> z' = z) ->
  Forall2 (close_to tol) retval dn ->
  match bisect_all prec f (map (fun '(u, v) => (Fin u, Fin v)) L) retval with
  | Ret r => exists retval' zs, r = rsort retval' /\ Forall2 (close_to tol) retval' (dn ++ zs) /\
      Forall2 (fun p z => inside p z /\ pval f z = 0) L zs
  | Fuel => False
  | UB => (porder f < length retval + length L)%nat
  | Throw => True
  end.
Proof.
  intros Hp Hz Hs. induction L as [|[u v] L IH]; intros retval dn Ho Hi Hc; cbn [map bisect_all].
  - exists retval, []. rewrite app_nil_r. split; [reflexivity|]. split; [exact Hc|constructor].
  - destruct (bisection (f_bisection f) prec (Fin u) (Fin v) 0) as [[ok [x|]] tr] eqn:EB; [|destruct ok; exact I].
    destruct ok; [|exact I].
    inversion Ho as [|? ? Huv Ho']; subst. cbn [fst snd] in Huv.
    destruct (Hi (u, v) (or_introl eq_refl)) as (z & (Ez & Iz) & Uz).
    assert (Iz' : u < z < v) by (unfold inside in Iz; cbn [fst snd] in Iz; lra).
    assert (C : close_to tol x z).
    { assert (C : close_to (Rabs prec) x z).
      { apply (bisection_isolated f z u v prec Hz (Hs z Ez) Ez ltac:(lra)) with (tr := tr); [|exact EB].
        intros z' Hz' E'. apply Uz. split; [exact E'|left; exact Hz']. }
      unfold close_to in *. eapply Rle_trans; [exact C|]. apply Rmult_le_compat_r; [apply Rabs_pos|exact Hp]. }
    unfold sv_push. destruct (Nat.ltb_spec (length retval) (porder f)) as [W|W]; cbn [obind]; [|cbn [length]; lia].
    specialize (IH (retval ++ [x]) (dn ++ [z]) Ho' (fun p q => Hi p (or_intror q))
      ltac:(apply Forall2_app; [exact Hc|constructor; [exact C|constructor]])).
    destruct (bisect_all prec f _ (retval ++ [x])) as [r| | |]; try exact I; try (exfalso; exact IH).
    + destruct IH as (rv & zs & E & A & B). exists rv, (z :: zs). split; [exact E|]. split.
      * rewrite <- app_assoc in A. exact A.
      * constructor; [split; [exact Iz|exact Ez]|exact B].
    + rewrite app_length in IH. cbn [length] in *. lia.
Qed.

Lemma picked_NoDup L zs f : ForallOrdPairs (fun p q => forall z, ~ (inside p z /\ inside q z)) L ->
  Forall2 (fun p z => inside p z /\ pval f z = 0) L zs -> NoDup zs.
Proof.
  intros H. revert zs. induction H as [|p L Hp _ IH]; intros zs F; inversion F as [|? z ? zs' [Hi _] F']; subst; constructor.
  - intros Hin. clear - Hp Hi Hin F'. induction F' as [|q z' L zs' [Hq _] _ IH]; [destruct Hin|].
    inversion Hp; subst. destruct Hin as [->|Hin]; [apply (H1 z); auto|]. apply IH; assumption.
  - apply IH, F'.
Qed.

Lemma picked_In L zs f : Forall2 (fun p z => inside p z /\ pval f z = 0) L zs ->
  forall p, In p L -> exists z, In z zs /\ inside p z /\ pval f z = 0.
Proof.
  induction 1 as [|p z L zs [H1 H2] _ IH]; intros q Hq; [destruct Hq|]. destruct Hq as [<-|Hq].
  - exists z. split; [left; reflexivity|]. auto.
  - destruct (IH q Hq) as (z' & A & B). exists z'. split; [right; exact A|exact B].
Qed.
Lemma picked_In2 L zs f : Forall2 (fun p z => inside p z /\ pval f z = 0) L zs ->
  forall z, In z zs -> exists p, In p L /\ inside p z /\ pval f z = 0.
Proof.
  induction 1 as [|p z L zs [H1 H2] _ IH]; intros q Hq; [destruct Hq|]. destruct Hq as [<-|Hq].
  - exists p. split; [left; reflexivity|]. auto.
  - destruct (IH q Hq) as (z' & A & B). exists z'. split; [right; exact A|exact B].
Qed.

Lemma positive_vas_ok eps prec veps tol fuel f L : 0 <= veps -> Rabs prec <= tol ->
  not_zero f -> get f 0 <> 0 -> simple_roots f ->
  solve_positive eps prec veps fuel VAS f = Ret L -> positive_solution tol f L.
Proof.
  intros Hv Hp Hz H0 Hs. cbn [solve_positive].
  pose proof (VAS_bounds_correct fuel veps f Hv Hz H0) as V.
  destruct (VAS_bounds fuel veps f) as [B| | |]; cbn [obind]; try discriminate.
  destruct V as (L' & -> & (I1 & I2 & I3) & I4 & I5).
  assert (EX : map xpair L' = map (fun '(u, v) => (Fin u, Fin v)) L') by (apply map_ext; intros [? ?]; reflexivity).
  rewrite EX. 
  assert (Hpos : forall p z, In p L' -> inside p z -> 0 < z).
  { intros p z Hin Hi. rewrite Forall_forall in I4. specialize (I4 p Hin). unfold inside in Hi. lra. }
  pose proof (bisect_all_ok prec tol f Hp Hz Hs L' [] []) as Q.
  destruct (bisect_all prec f _ []) as [r| | |]; try discriminate. intros E. injection E as ->.
  destruct Q as (rv & zs & -> & A & Bz).
  - eapply Forall_impl; [|exact I4]. intros a Ha. apply Ha.
  - intros p Hin. destruct (I2 p Hin) as (z & ((Pz & Ez) & Iz) & U). exists z. split; [split; assumption|].
    intros z' [E' I']. apply U. split; [split; [apply (Hpos p z' Hin I')|exact E']|exact I'].
  - constructor.
  - apply sort_solution. exists zs. split; [exact A|]. split; [apply (picked_NoDup L' zs f I3 Bz)|].
    intros z. split.
    + intros Hin. destruct (picked_In2 _ _ _ Bz z Hin) as (p & P1 & P2 & P3). split; [apply (Hpos p z P1 P2)|exact P3].
    + intros [Pz Ez]. destruct (I1 z (conj Pz Ez)) as (p & P1 & P2).
      destruct (picked_In _ _ _ Bz p P1) as (z' & Q1 & Q2 & Q3).
      destruct (I2 p P1) as (w & _ & U).
      assert (z = w) by (apply U; split; [split; assumption|exact P2]).
      assert (z' = w) by (apply U; split; [split; [apply (Hpos p z' P1 Q2)|exact Q3]|exact Q2]). congruence.
Qed.

(* ------------------------------------------------ all real roots *)
Definition full_solution (tol : R) (f : list R) (L : list R) : Prop :=
  nondecreasing L /\ exists rs, Forall2 (close_to tol) L rs /\ NoDup rs /\ exactly_roots f rs.

Lemma F2_length {A B} (P : A -> B -> Prop) l m : Forall2 P l m -> length l = length m.
Proof. induction 1; simpl; congruence. Qed.

Lemma simple_reflect f : f <> [] -> simple_roots f -> simple_roots (reflect_poly f).
Proof.
  intros Hf Hs x Hx D. destruct (reflect_poly_correct f Hf) as [_ HV].
  unfold is_root in Hx. rewrite HV in Hx. apply (Hs (- x) Hx).
  intros e He. destruct (D e He) as [d Hd]. exists d. intros h Hh Hlt.
  specialize (Hd (- h) ltac:(lra) ltac:(rewrite Rabs_Ropp; exact Hlt)). rewrite !HV in Hd.
  replace (- (x + - h)) with (- x + h) in Hd by ring.
  replace ((pval f (- x + h) - pval f (- x)) / h - 0) with (- ((pval f (- x + h) - pval f (- x)) / - h - 0)) by (field; exact Hh).
  rewrite Rabs_Ropp. exact Hd.
Qed.

Lemma reflect_not_zero f : not_zero f -> not_zero (reflect_poly f).
Proof.
  intros Hz. assert (Hf : f <> []) by (destruct Hz as (c & Hc & _); intros ->; destruct Hc).
  destruct (reflect_poly_correct f Hf) as [_ HV]. apply not_zero_iff. apply not_zero_iff in Hz.
  destruct Hz as [x Hx]. exists (- x). rewrite HV, Ropp_involutive. exact Hx.
Qed.

Lemma pval_0 f : pval f 0 = get f 0.
Proof. destruct f as [|a f]; [reflexivity|]. rewrite pval_cons. cbn [get nth]. ring. Qed.

Lemma combine_solutions tol f L1 L2 : not_zero f -> get f 0 <> 0 ->
  positive_solution tol f L1 -> positive_solution tol (reflect_poly f) L2 ->
  exists L, sv_extend (porder f) L1 (map Ropp L2) = Ret L /\ full_solution tol f (rsort L).
Proof.
  intros Hz H0 (r1 & A1 & A2 & A3) (r2 & B1 & B2 & B3).
  assert (Hf : f <> []) by (destruct Hz as (c & Hc & _); intros ->; destruct Hc).
  destruct (reflect_poly_correct f Hf) as [_ HV].
  assert (C : forall z, In z (r1 ++ map Ropp r2) <-> is_root f z).
  { intros z. rewrite in_app_iff, A3, in_map_iff. unfold is_root. split.
    - intros [[_ E]|(w & <- & Hw)]; [exact E|]. apply B3 in Hw. rewrite <- HV. apply Hw.
    - intros E. destruct (Rtotal_order z 0) as [L|[L|L]].
      + right. exists (- z). split; [ring|]. apply B3. split; [lra|]. rewrite HV, Ropp_involutive. exact E.
      + subst z. rewrite pval_0 in E. contradiction.
      + left. split; [lra|exact E]. }
  assert (ND : NoDup (r1 ++ map Ropp r2)).
  { apply NoDup_app_intro || idtac. clear C.
    assert (N2 : NoDup (map Ropp r2)) by (apply FinFun.Injective_map_NoDup; [intros x y E; lra|exact B2]).
    clear A1 B1. induction r1 as [|r r1 IH]; [exact N2|]. cbn [app].
    inversion A2 as [|? ? Hnr A2']; subst.
    assert (Hpos : forall z, In z (r :: r1) -> 0 < z) by (intros z Hin; apply A3 in Hin; apply Hin).
    clear A3. 
    assert (G : forall l, NoDup l -> (forall z, In z l -> 0 < z) -> NoDup (l ++ map Ropp r2)).
    { induction l as [|x l IHl]; intros Nl Pl; [exact N2|]. cbn [app]. inversion Nl; subst. constructor.
      - rewrite in_app_iff, in_map_iff. intros [H|(w & E & Hw)]; [contradiction|]. apply B3 in Hw.
        specialize (Pl x (or_introl eq_refl)). lra.
      - apply IHl; [assumption|]. intros z Hin. apply Pl. right. exact Hin. }
    apply (G (r :: r1)); assumption. }
  assert (LE : (length (r1 ++ map Ropp r2) <= porder f)%nat).
  { apply (root_count_le (porder f) f); [unfold porder; destruct f; [congruence|reflexivity]|exact Hz|exact ND|]. intros z Hin. apply C, Hin. }
  assert (CL : Forall2 (close_to tol) (L1 ++ map Ropp L2) (r1 ++ map Ropp r2)).
  { apply Forall2_app; [exact A1|]. clear - B1. induction B1 as [|x y l m Hxy _ IH]; [constructor|]. cbn [map]. constructor; [|exact IH].
    unfold close_to in *. rewrite Rabs_Ropp. replace (- x - - y) with (- (x - y)) by ring. rewrite Rabs_Ropp. exact Hxy. }
  exists (L1 ++ map Ropp L2). split.
  - apply sv_extend_total. rewrite <- app_length, (F2_length _ _ _ CL). exact LE.
  - split; [apply rsort_sorted|].
    destruct (Permutation_Forall2 (rsort_perm _) CL) as (rs & P & F). exists rs. split; [exact F|].
    split; [apply (Permutation_NoDup P ND)|]. intros x. rewrite <- C. split; apply Permutation_in; [apply Permutation_sym|]; exact P.
Qed.

Lemma get_reflect_0 f : f <> [] -> get (reflect_poly f) 0 = get f 0.
Proof. intros Hf. rewrite <- !pval_0. destruct (reflect_poly_correct f Hf) as [_ ->]. f_equal. ring. Qed.

Lemma solver_unfold eps prec veps ms pb n fuel mode f : (4 <= porder f)%nat -> get f 0 <> 0 -> get f (porder f) <> 0 ->
  solve_real_roots eps prec veps ms pb (S n) fuel mode f =
  (do roots <- solve_positive eps prec veps fuel mode f;
   do neg <- solve_positive eps prec veps fuel mode (reflect_poly f);
   do roots <- sv_extend (porder f) roots (map Ropp neg);
   Ret (rsort roots)).
Proof.
  intros Ho H0 H1. cbn [solve_real_roots].
  destruct (Reqb_spec (get f 0) 0); [contradiction|]. destruct (Reqb_spec (get f (porder f)) 0); [contradiction|].
  destruct (porder f) as [|[|[|[|k]]]]; try lia. reflexivity.
Qed.

(** what one side of zero needs: its roots are simple, or none is at a halving point *)
Definition side_ok (f : list R) : Prop := simple_positive f \/ off_grid f.

Theorem solver_sturm_ok eps prec veps ms pb tol f : 0 < eps -> eps <= tol -> Rabs prec <= tol ->
  (4 <= porder f <= 30)%nat -> get f 0 <> 0 -> get f (porder f) <> 0 -> side_ok f -> side_ok (reflect_poly f) ->
  exists fuel L, forall fu, (fuel <= fu)%nat ->
    solve_real_roots eps prec veps ms pb (porder f) fu STURM f = Ret L /\ full_solution tol f L.
Proof.
  intros He Ht1 Ht2 Ho H0 H1 Hs Hs'.
  assert (Hz : not_zero f).
  { exists (get f 0). split; [|exact H0]. unfold get. apply nth_In. unfold porder in Ho. lia. }
  assert (Hf : f <> []) by (intros ->; cbn in Ho; lia).
  destruct (reflect_poly_correct f Hf) as [RL _].
  assert (RO : porder (reflect_poly f) = porder f) by (unfold porder; rewrite RL; reflexivity).
  assert (P : forall g, not_zero g -> side_ok g -> porder g = porder f ->
    exists fuel L, forall fu, (fuel <= fu)%nat -> solve_positive_sturm eps prec fu g = Ret L /\ positive_solution tol g L).
  { intros g Hg [Sg|Sg] Og;
      [destruct (positive_sturm_ok eps prec tol g He Ht1 Ht2 Hg Sg ltac:(lia))|destruct (positive_sturm_multi eps prec tol g He Ht1 Ht2 Hg Sg ltac:(lia))];
      auto; lia. }
  destruct (P f Hz Hs eq_refl) as (f1 & L1 & P1).
  destruct (P (reflect_poly f) (reflect_not_zero f Hz) Hs' RO) as (f2 & L2 & P2).
  destruct (combine_solutions tol f L1 L2 Hz H0 (proj2 (P1 _ (le_n _))) (proj2 (P2 _ (le_n _)))) as (L & E & FS).
  exists (Nat.max f1 f2), (rsort L). intros fu Hfu. split; [|exact FS].
  destruct (porder f) as [|k] eqn:EO; [lia|].
  rewrite solver_unfold by (rewrite ?EO; auto; lia). cbn [solve_positive].
  destruct (P1 fu ltac:(lia)) as [-> _]. destruct (P2 fu ltac:(lia)) as [-> _]. cbn [obind]. rewrite EO, E. reflexivity.
Qed.

Theorem solver_vas_ok eps prec veps ms pb tol f fuel L : 0 <= veps -> Rabs prec <= tol ->
  (4 <= porder f)%nat -> get f 0 <> 0 -> get f (porder f) <> 0 -> simple_roots f ->
  solve_real_roots eps prec veps ms pb (porder f) fuel VAS f = Ret L -> full_solution tol f L.
Proof.
  intros Hv Hp Ho H0 H1 Hs.
  assert (Hz : not_zero f).
  { exists (get f 0). split; [|exact H0]. unfold get. apply nth_In. unfold porder in Ho. lia. }
  assert (Hf : f <> []) by (intros ->; cbn in Ho; lia).
  destruct (porder f) as [|k] eqn:EO; [lia|].
  rewrite solver_unfold by (rewrite ?EO; auto).
  destruct (solve_positive eps prec veps fuel VAS f) as [L1| | |] eqn:E1; cbn [obind]; try discriminate.
  destruct (solve_positive eps prec veps fuel VAS (reflect_poly f)) as [L2| | |] eqn:E2; cbn [obind]; try discriminate.
  pose proof (positive_vas_ok _ _ _ tol _ f L1 Hv Hp Hz H0 Hs E1) as S1.
  pose proof (positive_vas_ok _ _ _ tol _ (reflect_poly f) L2 Hv Hp (reflect_not_zero f Hz) ltac:(rewrite get_reflect_0; auto) (simple_reflect f Hf Hs) E2) as S2.
  destruct (combine_solutions tol f L1 L2 Hz H0 S1 S2) as (L3 & E & FS).
  rewrite E. cbn [obind]. intros EE. injection EE as <-. exact FS.
Qed.
