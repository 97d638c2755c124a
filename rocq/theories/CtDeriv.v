(** Compile-time expressions: derivative() is the mathematical derivative. *)
From Coq Require Import ZArith Reals Lia Lra Bool List String.
From Verif Require Import Outcome Num ExprModel ExprSpec ExprBase ExprSimp ExprVal ExprSub ExprDeriv ConstModel PropConst CtModel CtSpec CtProofs CtSimp.
Import ListNotations.
Open Scope R_scope.

Lemma null_mul q e : capply OMul Null q = Ret e -> e = Null.
Proof.
  intros H. unfold capply in H. apply obind_ret in H as (x & Hx & E). unfold creduce in Hx. cbn [cop_of] in Hx.
  destruct q as [n d|k|y|p a|p l r].
  - cbn [Null] in Hx. apply obind_ret in Hx as (c & Hc & Ex). injection Ex as <-. injection E as <-.
    destruct (c_op_valid _ _ _ _ Hc) as [V1 V2].
    assert (H0 := Hc). apply C41_exact in H0 as (L & V & Q); auto; [|discriminate].
    assert (E : fst c = 0%Z).
    { apply real_zero; [apply V|]. destruct (c_op_real _ _ _ _ Hc) as [_ ->]; [discriminate|]. cbn [rmath]. rewrite real_of_pair. lra. }
    destruct L as [L1 L2]. rewrite E in L2. change (Z.gcd 0 (snd c)) with (Z.abs (snd c)) in L2. rewrite E. unfold Null. f_equal. lia.
  - cbn in Hx. injection Hx as <-. injection E as <-. reflexivity.
  - cbn in Hx. injection Hx as <-. injection E as <-. reflexivity.
  - cbn in Hx. injection Hx as <-. injection E as <-. reflexivity.
  - cbn in Hx. injection Hx as <-. injection E as <-. reflexivity.
Qed.

Lemma literal_val ok rho rho' e v : literal e -> cval ok rho e v -> cval ok rho' e v.
Proof. destruct e; cbn; try contradiction; auto. Qed.
Lemma literal_deriv x e e' : literal e -> cderiv x e = Ret e' -> e' = Null.
Proof. destruct e; cbn; try contradiction; congruence. Qed.

Lemma near_self a delta : 0 < delta -> Rabs (a - a) < delta.
Proof. intros H. now rewrite Rminus_diag_eq, Rabs_R0. Qed.

Lemma diff_val rho x f v d : differentiates rho x f v d -> cval anywhere rho f v.
Proof.
  intros (F & dl & H0 & Hv & Hn & _). rewrite <- Hv. eapply cval_ext; [|apply (Hn (rho x)); apply near_self; auto].
  intros y. unfold upd_num. destruct (String.eqb_spec y x); congruence.
Qed.

Lemma diff_literal rho x e v : literal e -> cval anywhere rho e v -> differentiates rho x e v 0.
Proof.
  intros L H. exists (fun _ => v), 1. split; [lra|]. split; auto. split; [|apply derivable_pt_lim_const].
  intros t _. eapply literal_val; eauto.
Qed.

Lemma diff_un rho x o a u G d g : differentiates rho x a u d ->
  (exists eps, 0 < eps /\ forall s, Rabs (s - u) < eps -> unary_value anywhere o s (G s)) ->
  derivable_pt_lim G u g -> differentiates rho x (TUn o a) (G u) (g * d).
Proof.
  intros (F & dl & H0 & Hu & Hn & Hd) (eps & He & HG) Hg.
  destruct (dpl_cont _ _ _ Hd eps He) as (dl2 & H1 & H2).
  exists (fun t => G (F t)), (Rmin dl dl2). split; [apply Rmin_glb_lt; auto|]. split; [now rewrite Hu|]. split.
  - intros t Ht. exists (F t). split; [apply Hn; eapply Rlt_le_trans; [exact Ht|apply Rmin_l]|].
    apply HG. rewrite <- Hu. apply H2. eapply Rlt_le_trans; [exact Ht|apply Rmin_r].
  - apply (derivable_pt_lim_comp F G (rho x) d g); auto. rewrite Hu; auto.
Qed.

Lemma diff_bin rho x o l r u w v dl dr d (op : (R -> R) -> (R -> R) -> R -> R) :
  differentiates rho x l u dl -> differentiates rho x r w dr ->
  (forall F G, derivable_pt_lim F (rho x) dl -> derivable_pt_lim G (rho x) dr -> F (rho x) = u -> G (rho x) = w ->
     op F G (rho x) = v /\ derivable_pt_lim (op F G) (rho x) d /\
     exists eps, 0 < eps /\ forall t, Rabs (t - rho x) < eps -> binary_value o (F t) (G t) = Some (op F G t)) ->
  differentiates rho x (TBin o l r) v d.
Proof.
  intros (F & d1 & H1 & Fu & Fn & Fd) (G & d2 & H2 & Gw & Gn & Gd) Hop.
  destruct (Hop F G Fd Gd Fu Gw) as (Ev & Hd & eps & He & Hn).
  exists (op F G), (Rmin eps (Rmin d1 d2)). split; [repeat apply Rmin_glb_lt; auto|]. split; auto. split; auto.
  intros t Ht.
  assert (Ht1 : Rabs (t - rho x) < eps) by (eapply Rlt_le_trans; [exact Ht|apply Rmin_l]).
  assert (Ht2 : Rabs (t - rho x) < Rmin d1 d2) by (eapply Rlt_le_trans; [exact Ht|apply Rmin_r]).
  exists (F t), (G t). split; [apply Fn; eapply Rlt_le_trans; [exact Ht2|apply Rmin_l]|].
  split; [apply Gn; eapply Rlt_le_trans; [exact Ht2|apply Rmin_r]|]. auto.
Qed.

Lemma npow_pos u w v : 0 < u -> npow u w = Some v -> v = Rpower u w.
Proof. intros H. unfold npow. destruct (Rlt_dec 0 u); [congruence|contradiction]. Qed.
Lemma npow_Rpower u w : 0 < u -> npow u w = Some (Rpower u w).
Proof. intros H. unfold npow. destruct (Rlt_dec 0 u); [congruence|contradiction]. Qed.

Lemma diff_pow_int rho x l r u d z : differentiates rho x l u d -> literal r -> cval anywhere rho r (IZR z) ->
  (u <> 0 \/ (0 <= z)%Z) -> differentiates rho x (TBin OPow l r) (powerRZ u z) (dpow u z * d).
Proof.
  intros (F & dl & H0 & Hu & Hn & Hd) L Hz C.
  destruct (near_int_pow u z C) as (eps & He & Hp). destruct (dpl_cont _ _ _ Hd eps He) as (dl2 & H1 & H2).
  exists (fun t => powerRZ (F t) z), (Rmin dl dl2). split; [apply Rmin_glb_lt; auto|]. split; [now rewrite Hu|]. split.
  - intros t Ht. exists (F t), (IZR z). split; [apply Hn; eapply Rlt_le_trans; [exact Ht|apply Rmin_l]|].
    split; [eapply literal_val; eauto|]. apply Hp. rewrite <- Hu. apply H2. eapply Rlt_le_trans; [exact Ht|apply Rmin_r].
  - apply (derivable_pt_lim_comp F (fun s => powerRZ s z) (rho x) d (dpow u z)); auto. rewrite Hu. apply dpl_powerRZ; auto.
Qed.

(** a square is never an integer number *)
Lemma square_not_int r m l : capply OPow r (TC 2 1) = Ret m -> ~ both_ints l m.
Proof.
  intros H (a & c & _ & ->). unfold capply in H. apply obind_ret in H as (x & Hx & E). unfold creduce in Hx. cbn [cop_of] in Hx.
  destruct x as [e|]; [|discriminate]. injection E as ->. unfold reduce_pow in Hx.
  destruct r as [n d|k|y|p b|p b c']; cbn in Hx; discriminate.
Qed.

Lemma cderiv_correct rho x f : forall f' v, cderiv x f = Ret f' -> differentiable_at rho f -> cval anywhere rho f v ->
  exists d, cval anywhere rho f' d /\ differentiates rho x f v d.
Proof.
  induction f as [n dn|k|y|o a IH|o l IHl r IHr]; intros f' v H D Hv.
  - injection H as <-. exists 0. split; [apply cval_Null; auto|apply diff_literal; auto; exact I].
  - injection H as <-. exists 0. split; [apply cval_Null; auto|apply diff_literal; auto; exact I].
  - cbn [cderiv] in H. cbn [cval] in Hv. subst v. destruct (String.eqb_spec y x) as [->|N]; injection H as <-.
    + exists 1. split; [apply cval_Unity; auto|]. exists (fun t => t), 1. split; [lra|]. split; auto. split.
      * intros t _. cbn. unfold upd_num. now rewrite String.eqb_refl.
      * apply derivable_pt_lim_id.
    + exists 0. split; [apply cval_Null; auto|]. exists (fun _ => rho y), 1. split; [lra|]. split; auto. split.
      * intros t _. cbn. unfold upd_num. destruct (String.eqb_spec y x); congruence.
      * apply derivable_pt_lim_const.
  - cbn [cderiv] in H. apply obind_ret in H as (da & Hda & H). destruct D as [Da Dabs]. destruct Hv as (u & Hu & Hv).
    destruct (IH _ _ Hda Da Hu) as (dv & Hdv & Hdiff).
    destruct o; cbn [unary_value] in Hv.
    + (* sin *) destruct Hv as [_ ->]. exists (cos u * dv). split.
      * apply obind_ret in H as (c & Hc & H). destruct a as [n dn|k|y|p b|p b c2].
        { assert (da = Null) by (eapply literal_deriv; eauto; exact I). subst da. apply null_mul in H. subst f'.
          apply cval_Null in Hdv. subst dv. apply cval_Null. ring. }
        all: eapply capply_val; [exact H|discriminate|exact Hdv| |]; [eapply uapply_val; [exact Hc| |exact Hu|split; [exact I|reflexivity]]; intros _ ? ?; discriminate|];
             cbn [binary_value]; f_equal; ring.
      * apply (diff_un rho x USin a u sin dv (cos u)); auto; [|apply derivable_pt_lim_sin]. exists 1. split; [lra|]. intros s _. split; [exact I|auto].
    + (* cos *) destruct Hv as [_ ->]. exists (- sin u * dv). split.
      * apply obind_ret in H as (m & Hm & H). apply obind_ret in H as (c & Hc & H). destruct a as [n dn|k|y|p b|p b c2].
        { assert (da = Null) by (eapply literal_deriv; eauto; exact I). subst da. injection Hm as <-. apply null_mul in H. subst f'.
          apply cval_Null in Hdv. subst dv. apply cval_Null. ring. }
        all: eapply capply_val; [exact H|discriminate|eapply uapply_val; [exact Hm|intros [?|?]; discriminate|exact Hdv|reflexivity]| |];
             [eapply uapply_val; [exact Hc| |exact Hu|split; [exact I|reflexivity]]; intros _ ? ?; discriminate|];
             cbn [binary_value]; f_equal; ring.
      * apply (diff_un rho x UCos a u cos dv (- sin u)); auto; [|apply derivable_pt_lim_cos]. exists 1. split; [lra|]. intros s _. split; [exact I|auto].
    + (* log *) destruct Hv as [Hpos ->]. exists (/ u * dv). split.
      * eapply capply_val; [exact H| |exact Hdv|exact Hu|].
        -- intros _ (p & q & -> & ->). cbn in Hda. discriminate.
        -- cbn [binary_value]. destruct (Req_EM_T u 0); [lra|]. f_equal. field. lra.
      * apply (diff_un rho x ULog a u ln dv (/ u)); auto; [|apply derivable_pt_lim_ln; auto].
        destruct (near_pos u Hpos) as (eps & He & Hn). exists eps. split; auto. intros s Hs. split; auto.
    + (* exp *) subst v. exists (exp u * dv). split.
      * eapply capply_val; [exact H|discriminate|exact Hdv|exists u; split; [exact Hu|reflexivity]|]. cbn [binary_value]. f_equal. ring.
      * apply (diff_un rho x UExp a u exp dv (exp u)); auto; [|apply derivable_pt_lim_exp]. exists 1. split; [lra|]. intros s _. reflexivity.
    + (* abs *) subst v. specialize (Dabs eq_refl u Hu). exists (Rabs u / u * dv). split.
      * apply obind_ret in H as (c & Hc & H). apply obind_ret in H as (p & Hp & H).
        assert (Vc : cval anywhere rho c (Rabs u)) by (eapply uapply_val; [exact Hc|intros [?|?]; discriminate|exact Hu|reflexivity]).
        assert (Vp : cval anywhere rho p (dv * Rabs u)) by (eapply capply_val; [exact Hp|discriminate|exact Hdv|exact Vc|reflexivity]).
        eapply capply_val; [exact H| |exact Vp|exact Hu|].
        -- intros _ (i & j & Ei & Ej). subst p a. assert (da = Null) by (eapply literal_deriv; eauto; exact I). subst da.
           apply null_mul in Hp. discriminate.
        -- cbn [binary_value]. destruct (Req_EM_T u 0); [contradiction|]. f_equal. field. auto.
      * apply (diff_un rho x UAbs a u Rabs dv (Rabs u / u)); auto; [|apply near_abs; auto]. exists 1. split; [lra|]. intros s _. reflexivity.
    + (* either sign *)
      apply obind_ret in H as (c & Hc & H). injection Hc as <-. destruct Hv as [-> | ->].
      * exists dv. split.
        -- eapply capply_val; [exact H|discriminate|exact Hdv| |]; [exists 1; split; [apply cval_Unity; auto|left; reflexivity]|]. cbn [binary_value]. f_equal. ring.
        -- rewrite <- (Rmult_1_l dv). apply (diff_un rho x UArb a u (fun s => s) dv 1); auto; [|apply derivable_pt_lim_id].
           exists 1. split; [lra|]. intros s _. left. reflexivity.
      * exists (- dv). split.
        -- eapply capply_val; [exact H|discriminate|exact Hdv| |]; [exists 1; split; [apply cval_Unity; auto|right; reflexivity]|]. cbn [binary_value]. f_equal. ring.
        -- replace (- dv) with (-1 * dv) by ring. apply (diff_un rho x UArb a u (fun s => - s) dv (-1)); auto.
           ++ exists 1. split; [lra|]. intros s _. right. reflexivity.
           ++ apply (derivable_pt_lim_opp id). apply derivable_pt_lim_id.
    + (* minus *) subst v. exists (- dv). split.
      * eapply uapply_val; [exact H|intros [?|?]; discriminate|exact Hdv|reflexivity].
      * replace (- dv) with (-1 * dv) by ring. apply (diff_un rho x UNeg a u (fun s => - s) dv (-1)); auto.
        -- exists 1. split; [lra|]. intros s _. reflexivity.
        -- apply (derivable_pt_lim_opp id). apply derivable_pt_lim_id.
  - destruct D as (Dl & Dr & Dp). destruct Hv as (u & w & Hu & Hw & Hv). destruct o; cbn [cderiv] in H.
    + (* + *)
      apply obind_ret in H as (da & Ha & H). apply obind_ret in H as (db & Hb & H).
      destruct (IHl _ _ Ha Dl Hu) as (du & Vdu & Du). destruct (IHr _ _ Hb Dr Hw) as (dw & Vdw & Dw).
      exists (du + dw). split; [eapply capply_val; [exact H|discriminate|exact Vdu|exact Vdw|reflexivity]|].
      injection Hv as <-. apply (diff_bin rho x OAdd l r u w _ du dw _ plus_fct Du Dw). intros F G HF HG <- <-. split; [reflexivity|].
      split; [apply derivable_pt_lim_plus; auto|]. exists 1. split; [lra|reflexivity].
    + (* - *)
      apply obind_ret in H as (da & Ha & H). apply obind_ret in H as (db & Hb & H).
      destruct (IHl _ _ Ha Dl Hu) as (du & Vdu & Du). destruct (IHr _ _ Hb Dr Hw) as (dw & Vdw & Dw).
      exists (du - dw). split; [eapply capply_val; [exact H|discriminate|exact Vdu|exact Vdw|reflexivity]|].
      injection Hv as <-. apply (diff_bin rho x OSub l r u w _ du dw _ minus_fct Du Dw). intros F G HF HG <- <-. split; [reflexivity|].
      split; [apply derivable_pt_lim_minus; auto|]. exists 1. split; [lra|reflexivity].
    + (* * *)
      apply obind_ret in H as (da & Ha & H). apply obind_ret in H as (db & Hb & H).
      apply obind_ret in H as (p & Hp & H). apply obind_ret in H as (q & Hq & H).
      destruct (IHl _ _ Ha Dl Hu) as (du & Vdu & Du). destruct (IHr _ _ Hb Dr Hw) as (dw & Vdw & Dw).
      assert (Vp : cval anywhere rho p (du * w)) by (eapply capply_val; [exact Hp|discriminate|exact Vdu|exact Hw|reflexivity]).
      assert (Vq : cval anywhere rho q (u * dw)) by (eapply capply_val; [exact Hq|discriminate|exact Hu|exact Vdw|reflexivity]).
      exists (du * w + u * dw). split; [eapply capply_val; [exact H|discriminate|exact Vp|exact Vq|reflexivity]|].
      injection Hv as <-. apply (diff_bin rho x OMul l r u w _ du dw _ mult_fct Du Dw). intros F G HF HG <- <-. split; [reflexivity|].
      split; [apply derivable_pt_lim_mult; auto|]. exists 1. split; [lra|reflexivity].
    + (* / *)
      apply obind_ret in H as (da & Ha & H). apply obind_ret in H as (db & Hb & H).
      apply obind_ret in H as (p & Hp & H). apply obind_ret in H as (q & Hq & H).
      apply obind_ret in H as (n & Hn & H). apply obind_ret in H as (m & Hm & H).
      destruct (IHl _ _ Ha Dl Hu) as (du & Vdu & Du). destruct (IHr _ _ Hb Dr Hw) as (dw & Vdw & Dw).
      assert (Vp : cval anywhere rho p (du * w)) by (eapply capply_val; [exact Hp|discriminate|exact Vdu|exact Hw|reflexivity]).
      assert (Vq : cval anywhere rho q (u * dw)) by (eapply capply_val; [exact Hq|discriminate|exact Hu|exact Vdw|reflexivity]).
      assert (Vn : cval anywhere rho n (du * w - u * dw)) by (eapply capply_val; [exact Hn|discriminate|exact Vp|exact Vq|reflexivity]).
      assert (Vm : cval anywhere rho m (w * w)).
      { eapply capply_val; [exact Hm|discriminate|exact Hw| |apply npow_2]. cbn [cval]. split; [discriminate|lra]. }
      cbn [binary_value] in Hv. destruct (Req_EM_T w 0) as [|Nw]; [discriminate|]. injection Hv as <-.
      exists ((du * w - u * dw) / (w * w)). split.
      * eapply capply_val; [exact H| |exact Vn|exact Vm|].
        -- intros _. eapply square_not_int; eauto.
        -- cbn [binary_value]. destruct (Req_EM_T (w * w) 0) as [E|]; [|reflexivity]. exfalso. apply Nw. apply Rmult_integral in E. tauto.
      * apply (diff_bin rho x ODiv l r u w _ du dw _ div_fct Du Dw). intros F G HF HG Fu Gw. split; [unfold div_fct; congruence|]. split.
        -- replace ((du * w - u * dw) / (w * w)) with ((du * G (rho x) - dw * F (rho x)) / Rsqr (G (rho x))).
           ++ apply derivable_pt_lim_div; auto. congruence.
           ++ rewrite Fu, Gw. unfold Rsqr. apply (f_equal2 Rdiv); ring.
        -- destruct (near_nonzero w Nw) as (eps & He & Hnz). destruct (dpl_cont _ _ _ HG eps He) as (dl & Hd & Hc).
           exists dl. split; auto. intros t Ht. cbn [binary_value]. destruct (Req_EM_T (G t) 0) as [E|]; [|reflexivity].
           exfalso. apply (Hnz (G t)); auto. rewrite <- Gw. auto.
    + (* ^ *)
      specialize (Dp eq_refl).
      assert (M : exists da p e q t1, cderiv x l = Ret da /\ capply OMul r da = Ret p /\ capply OSub r Unity = Ret e /\ capply OPow l e = Ret q /\
         capply OMul p q = Ret t1 /\
         ((exists n d, r = TC n d) /\ f' = t1 \/
          exists db lg t2 t3, cderiv x r = Ret db /\ uapply ULog l = Ret lg /\ capply OMul db lg = Ret t2 /\ capply OMul t2 (TBin OPow l r) = Ret t3 /\
            capply OAdd t1 t3 = Ret f')).
      { destruct r as [n d|k|y|p b|p b c].
        - apply obind_ret in H as (a1 & H1 & H). apply obind_ret in H as (a2 & H2 & H). apply obind_ret in H as (a3 & H3 & H).
          apply obind_ret in H as (a4 & H4 & H). exists a1, a2, a3, a4, f'. repeat split; auto. left. split; eauto.
        - apply obind_ret in H as (a1 & H1 & H). apply obind_ret in H as (a2 & H2 & H). apply obind_ret in H as (a3 & H3 & H).
          apply obind_ret in H as (a4 & H4 & H). apply obind_ret in H as (a5 & H5 & H). apply obind_ret in H as (a6 & H6 & H).
          apply obind_ret in H as (a7 & H7 & H). apply obind_ret in H as (a8 & H8 & H). apply obind_ret in H as (a9 & H9 & H).
          exists a1, a2, a3, a4, a5. repeat split; auto. right. exists a6, a7, a8, a9. auto.
        - apply obind_ret in H as (a1 & H1 & H). apply obind_ret in H as (a2 & H2 & H). apply obind_ret in H as (a3 & H3 & H).
          apply obind_ret in H as (a4 & H4 & H). apply obind_ret in H as (a5 & H5 & H). apply obind_ret in H as (a6 & H6 & H).
          apply obind_ret in H as (a7 & H7 & H). apply obind_ret in H as (a8 & H8 & H). apply obind_ret in H as (a9 & H9 & H).
          exists a1, a2, a3, a4, a5. repeat split; auto. right. exists a6, a7, a8, a9. auto.
        - apply obind_ret in H as (a1 & H1 & H). apply obind_ret in H as (a2 & H2 & H). apply obind_ret in H as (a3 & H3 & H).
          apply obind_ret in H as (a4 & H4 & H). apply obind_ret in H as (a5 & H5 & H). apply obind_ret in H as (a6 & H6 & H).
          apply obind_ret in H as (a7 & H7 & H). apply obind_ret in H as (a8 & H8 & H). apply obind_ret in H as (a9 & H9 & H).
          exists a1, a2, a3, a4, a5. repeat split; auto. right. exists a6, a7, a8, a9. auto.
        - apply obind_ret in H as (a1 & H1 & H). apply obind_ret in H as (a2 & H2 & H). apply obind_ret in H as (a3 & H3 & H).
          apply obind_ret in H as (a4 & H4 & H). apply obind_ret in H as (a5 & H5 & H). apply obind_ret in H as (a6 & H6 & H).
          apply obind_ret in H as (a7 & H7 & H). apply obind_ret in H as (a8 & H8 & H). apply obind_ret in H as (a9 & H9 & H).
          exists a1, a2, a3, a4, a5. repeat split; auto. right. exists a6, a7, a8, a9. auto. }
      clear H. destruct M as (da & p & e & q & t1 & Ha & Hp & He & Hq & Ht & M).
      destruct (IHl _ _ Ha Dl Hu) as (du & Vdu & Du).
      assert (Vp : cval anywhere rho p (w * du)) by (eapply capply_val; [exact Hp|discriminate|exact Hw|exact Vdu|reflexivity]).
      assert (Ve : cval anywhere rho e (w - 1)) by (eapply capply_val; [exact He|discriminate|exact Hw|apply cval_Unity; reflexivity|reflexivity]).
      cbn [binary_value] in Hv.
      destruct Dp as [Dpos|(Lr & z & Hz & Cz)].
      * (* positive base *)
        specialize (Dpos u Hu). pose proof (npow_pos _ _ _ Dpos Hv) as Ev.
        assert (Vq : cval anywhere rho q (Rpower u (w - 1))) by (eapply capply_val; [exact Hq|discriminate|exact Hu|exact Ve|apply npow_Rpower; auto]).
        assert (Vt : cval anywhere rho t1 (w * du * Rpower u (w - 1))) by (eapply capply_val; [exact Ht|discriminate|exact Vp|exact Vq|reflexivity]).
        assert (X : exists dw, differentiates rho x r w dw /\ cval anywhere rho f' (w * du * Rpower u (w - 1) + dw * ln u * Rpower u w)).
        { destruct M as [((n & d & ->) & ->)|(db & lg & t2 & t3 & H1 & H2 & H3 & H4 & H5)].
          - exists 0. split; [apply diff_literal; auto; exact I|]. replace (w * du * Rpower u (w - 1) + 0 * ln u * Rpower u w) with (w * du * Rpower u (w - 1)) by ring. exact Vt.
          - destruct (IHr _ _ H1 Dr Hw) as (dw & Vdw & Dw). exists dw. split; auto.
            assert (Vlg : cval anywhere rho lg (ln u)) by (eapply uapply_val; [exact H2|intros [?|?]; discriminate|exact Hu|split; [exact Dpos|reflexivity]]).
            assert (Vt2 : cval anywhere rho t2 (dw * ln u)) by (eapply capply_val; [exact H3|discriminate|exact Vdw|exact Vlg|reflexivity]).
            assert (Vt3 : cval anywhere rho t3 (dw * ln u * Rpower u w)).
            { eapply capply_val; [exact H4|discriminate|exact Vt2| |reflexivity]. exists u, w. split; auto. split; auto. apply npow_Rpower; auto. }
            eapply capply_val; [exact H5|discriminate|exact Vt|exact Vt3|reflexivity]. }
        destruct X as (dw & Dw & Vf). eexists. split; [exact Vf|]. subst v.
        apply (diff_bin rho x OPow l r u w _ du dw _ (fun F G t => Rpower (F t) (G t)) Du Dw). intros F G HF HG Fu Gw. split; [congruence|]. split.
        -- rewrite Rpower_m1 by auto. rewrite <- Fu, <- Gw. rewrite <- Fu in Dpos.
           assert (Hln : derivable_pt_lim (fun t => ln (F t)) (rho x) (/ F (rho x) * du)).
           { apply (derivable_pt_lim_comp F ln); auto. apply derivable_pt_lim_ln; auto. }
           assert (Hm := derivable_pt_lim_mult G (fun t => ln (F t)) (rho x) _ _ HG Hln).
           assert (Hx := derivable_pt_lim_comp _ exp (rho x) _ _ Hm (derivable_pt_lim_exp _)).
           unfold comp, mult_fct in Hx. unfold Rpower.
           replace (G (rho x) * du * (exp (G (rho x) * ln (F (rho x))) / F (rho x)) + dw * ln (F (rho x)) * exp (G (rho x) * ln (F (rho x))))
             with (exp (G (rho x) * ln (F (rho x))) * (dw * ln (F (rho x)) + G (rho x) * (/ F (rho x) * du))) by (field; lra).
           exact Hx.
        -- destruct (near_pos u Dpos) as (eps & Hep & Hn). destruct (dpl_cont _ _ _ HF eps Hep) as (dl & Hd & Hc).
           exists dl. split; auto. intros t Ht'. cbn [binary_value]. apply npow_Rpower. apply Hn. rewrite <- Fu. auto.
      * (* whole exponent *)
        assert (w = IZR z) by (destruct r as [n d|k| | |]; cbn in Lr; try contradiction; cbn [cval] in Hw, Hz; [destruct Hw, Hz; congruence|destruct k; congruence]).
        subst w. apply npow_int_inv in Hv as [C ->].
        assert (Vt : cval anywhere rho t1 (dpow u z * du)).
        { assert (Zc : (r = TC 0 1 /\ z = 0%Z) \/ u <> 0 \/ (1 <= z)%Z).
          { destruct (Req_dec u 0) as [U|U]; auto. destruct (Z_le_dec 1 z); auto. destruct C as [C|C]; [contradiction|]. assert (z = 0)%Z by lia.
            left. split; auto. destruct Cz as [?|[?|Cz]]; [contradiction|auto|]. exfalso. apply (Cz u); auto. }
          destruct Zc as [[-> ->]|Zc].
          - change (TC 0 1) with Null in Hp. apply null_mul in Hp. subst p. apply null_mul in Ht. subst t1. apply cval_Null.
            unfold dpow. destruct (Z.eq_dec 0 0); [ring|lia].
          - assert (Vq : cval anywhere rho q (powerRZ u (z - 1))).
            { eapply capply_val; [exact Hq|discriminate|exact Hu|exact Ve|]. cbn [binary_value]. rewrite <- minus_IZR. apply npow_int.
              destruct Zc; [left; auto|right; lia]. }
            eapply capply_val; [exact Ht|discriminate|exact Vp|exact Vq|]. cbn [binary_value]. f_equal. unfold dpow.
            destruct (Z.eq_dec z 0) as [->|]; ring. }
        exists (dpow u z * du). split.
        -- destruct M as [((n & d & ->) & ->)|(db & lg & t2 & t3 & H1 & H2 & H3 & H4 & H5)]; auto.
           apply literal_deriv in H1; auto. subst db. apply null_mul in H3. subst t2. apply null_mul in H4. subst t3.
           eapply capply_val; [exact H5|discriminate|exact Vt|apply cval_Null; reflexivity|]. cbn [binary_value]. f_equal. ring.
        -- apply diff_pow_int; auto.
Qed.

(** Where the conditions hold the expression has a derivative. *)
Lemma diff_exists rho x f : forall v, differentiable_at rho f -> cval anywhere rho f v -> exists d, differentiates rho x f v d.
Proof.
  induction f as [n dn|k|y|o a IH|o l IHl r IHr]; intros v D Hv.
  - exists 0. apply diff_literal; [exact I|exact Hv].
  - exists 0. apply diff_literal; [exact I|exact Hv].
  - destruct (cderiv_correct rho x (TVar y) (if (y =? x)%string then Unity else Null) v eq_refl D Hv) as (d & _ & H). eauto.
  - destruct D as [Da Dabs]. destruct Hv as (u & Hu & Hv). destruct (IH u Da Hu) as (d & Hd). destruct o; cbn [unary_value] in Hv.
    + destruct Hv as [_ ->]. eexists. apply (diff_un rho x USin a u sin d (cos u)); auto; [|apply derivable_pt_lim_sin]. exists 1. split; [lra|]. intros s _. split; [exact I|auto].
    + destruct Hv as [_ ->]. eexists. apply (diff_un rho x UCos a u cos d (- sin u)); auto; [|apply derivable_pt_lim_cos]. exists 1. split; [lra|]. intros s _. split; [exact I|auto].
    + destruct Hv as [Hpos ->]. eexists. apply (diff_un rho x ULog a u ln d (/ u)); auto; [|apply derivable_pt_lim_ln; auto].
      destruct (near_pos u Hpos) as (eps & He & Hn). exists eps. split; auto. intros s Hs. split; auto.
    + subst v. eexists. apply (diff_un rho x UExp a u exp d (exp u)); auto; [|apply derivable_pt_lim_exp]. exists 1. split; [lra|]. intros s _. reflexivity.
    + subst v. eexists. apply (diff_un rho x UAbs a u Rabs d (Rabs u / u)); auto; [|apply near_abs; apply Dabs; auto]. exists 1. split; [lra|]. intros s _. reflexivity.
    + destruct Hv as [-> | ->].
      * eexists. apply (diff_un rho x UArb a u (fun s => s) d 1); auto; [|apply derivable_pt_lim_id]. exists 1. split; [lra|]. intros s _. left. reflexivity.
      * eexists. apply (diff_un rho x UArb a u (fun s => - s) d (-1)); auto.
        -- exists 1. split; [lra|]. intros s _. right. reflexivity.
        -- apply (derivable_pt_lim_opp id). apply derivable_pt_lim_id.
    + subst v. eexists. apply (diff_un rho x UNeg a u (fun s => - s) d (-1)); auto.
      * exists 1. split; [lra|]. intros s _. reflexivity.
      * apply (derivable_pt_lim_opp id). apply derivable_pt_lim_id.
  - destruct D as (Dl & Dr & Dp). destruct Hv as (u & w & Hu & Hw & Hv). destruct (IHl u Dl Hu) as (du & Du). destruct (IHr w Dr Hw) as (dw & Dw).
    destruct o; cbn [binary_value] in Hv.
    + injection Hv as <-. eexists. apply (diff_bin rho x OAdd l r u w _ du dw _ plus_fct Du Dw). intros F G HF HG <- <-. split; [reflexivity|].
      split; [apply derivable_pt_lim_plus; eauto|]. exists 1. split; [lra|reflexivity].
    + injection Hv as <-. eexists. apply (diff_bin rho x OSub l r u w _ du dw _ minus_fct Du Dw). intros F G HF HG <- <-. split; [reflexivity|].
      split; [apply derivable_pt_lim_minus; eauto|]. exists 1. split; [lra|reflexivity].
    + injection Hv as <-. exists (du * w + u * dw). apply (diff_bin rho x OMul l r u w _ du dw _ mult_fct Du Dw). intros F G HF HG <- <-. split; [reflexivity|].
      split; [apply derivable_pt_lim_mult; eauto|]. exists 1. split; [lra|reflexivity].
    + destruct (Req_EM_T w 0) as [|Nw]; [discriminate|]. injection Hv as <-. exists ((du * w - dw * u) / Rsqr w).
      apply (diff_bin rho x ODiv l r u w _ du dw _ div_fct Du Dw). intros F G HF HG Fu Gw. split; [unfold div_fct; congruence|]. split.
      * rewrite <- Fu, <- Gw. apply derivable_pt_lim_div; auto. congruence.
      * destruct (near_nonzero w Nw) as (eps & He & Hnz). destruct (dpl_cont _ _ _ HG eps He) as (dl & Hd & Hc).
        exists dl. split; auto. intros t Ht. cbn [binary_value]. destruct (Req_EM_T (G t) 0) as [E|]; [|reflexivity].
        exfalso. apply (Hnz (G t)); auto. rewrite <- Gw. auto.
    + destruct (Dp eq_refl) as [Dpos|(Lr & z & Hz & Cz)].
      * specialize (Dpos u Hu). rewrite (npow_pos _ _ _ Dpos Hv). exists (Rpower u w * (dw * ln u + w * (/ u * du))).
        apply (diff_bin rho x OPow l r u w _ du dw _ (fun F G t => Rpower (F t) (G t)) Du Dw). intros F G HF HG Fu Gw. split; [congruence|]. split.
        -- rewrite <- Fu, <- Gw. rewrite <- Fu in Dpos.
           assert (Hln : derivable_pt_lim (fun t => ln (F t)) (rho x) (/ F (rho x) * du)).
           { apply (derivable_pt_lim_comp F ln); auto. apply derivable_pt_lim_ln; auto. }
           assert (Hm := derivable_pt_lim_mult G (fun t => ln (F t)) (rho x) _ _ HG Hln).
           exact (derivable_pt_lim_comp _ exp (rho x) _ _ Hm (derivable_pt_lim_exp _)).
        -- destruct (near_pos u Dpos) as (eps & Hep & Hn). destruct (dpl_cont _ _ _ HF eps Hep) as (dl & Hd & Hc).
           exists dl. split; auto. intros t Ht'. cbn [binary_value]. apply npow_Rpower. apply Hn. rewrite <- Fu. auto.
      * assert (w = IZR z) by (destruct r as [n d|k| | |]; cbn in Lr; try contradiction; cbn [cval] in Hw, Hz; [destruct Hw, Hz; congruence|destruct k; congruence]).
        subst w. apply npow_int_inv in Hv as [C ->]. eexists. apply diff_pow_int; eauto.
Qed.
