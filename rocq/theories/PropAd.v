(** C39: ad<N>(f, x = a) returns the Taylor coefficients of f at a. *)
From Coq Require Import String.
From Verif Require Import Outcome Num ExprModel ExprSpec ExprBase ExprDeriv AdModel AdSpec AdProofs.
Open Scope R_scope.

Section Main.
Variable nan : R.

Lemma at_un x o b t v : at_point x b t = Some (VN v) -> at_point x (EUn o b) t = option_map VN (nun 1 o v).
Proof. unfold at_point, value_of. intros H. cbn [eval]. now rewrite H. Qed.
Lemma at_bin x o l r t v w : at_point x l t = Some (VN v) -> at_point x r t = Some (VN w) ->
  (o = BAdd \/ o = BSub \/ o = BMul \/ o = BDiv \/ o = BPow) ->
  at_point x (EBin o l r) t = option_map VN (nbin o v w).
Proof.
  unfold at_point, value_of. intros H1 H2 Ho. cbn [eval].
  destruct Ho as [->|[->|[->|[->| ->]]]]; cbn [andb]; rewrite H1, H2; reflexivity.
Qed.

Lemma sincos_length N g : length (ad_sincos N g) = S N.
Proof. apply fill_length. Qed.

Definition good N x e (G : R -> list R) : Prop :=
  (forall q, ad nan N x q e = Ret (G q) /\ length (G q) = S N) /\
  (forall q, smooth_at x q e -> vflat N G q /\ at_point x e q = Some (VN (get (G q) 0))).

Lemma pow_nonconst N x l r q :
  (forall c, r <> EConst c) ->
  ad nan N x q (EBin BPow l r) = (do f <- ad nan N x q l; do g <- ad nan N x q r; Ret (ad_pow N f g (ad_log N f))).
Proof. intros H. destruct r; auto. exfalso. eapply H. reflexivity. Qed.

Lemma npow_pos v w : 0 < v -> npow v w = Some (Rpower v w).
Proof. intros H. unfold npow. destruct (Rlt_dec 0 v); [auto|lra]. Qed.

Lemma main N x e : forall p, smooth_at x p e -> exists G, good N x e G.
Proof.
  induction e as [c|y|o b IHb|o l r IHl IHr|es _|d _] using expr_ind'; intros p S; try contradiction.
  - exists (fun _ => ad_const N c). split; intros q.
    + split; [reflexivity|]. apply fill_length.
    + intros _. split; [apply const_flat|]. rewrite const_entry by lia. reflexivity.
  - cbn in S. subst y. exists (fun q => ad_var nan N x x q). split; intros q.
    + split; [reflexivity|]. apply fill_length.
    + intros _. split; [apply var_flat|]. rewrite var_entry by lia. unfold at_point, value_of, upd_env. cbn [eval].
      now rewrite String.eqb_refl.
  - destruct S as [Sb Ho]. destruct (IHb p Sb) as (G & HG & HS).
    destruct Ho as [->|[->|[->|[-> _]]]].
    + exists (fun q => map fst (ad_sincos N (G q))). split; intros q.
      * cbn [ad]. rewrite (proj1 (HG q)). cbn [obind]. split; auto. rewrite map_length. apply sincos_length.
      * intros [Sq _]. destruct (HS q Sq) as [F V]. split; [now apply sincos_flat|].
        rewrite (at_un _ _ _ _ _ V). cbn [nun option_map]. now rewrite (proj1 (sin_entry0 N (G q))).
    + exists (fun q => map snd (ad_sincos N (G q))). split; intros q.
      * cbn [ad]. rewrite (proj1 (HG q)). cbn [obind]. split; auto. rewrite map_length. apply sincos_length.
      * intros [Sq _]. destruct (HS q Sq) as [F V]. split; [now apply sincos_flat|].
        rewrite (at_un _ _ _ _ _ V). cbn [nun option_map]. now rewrite (proj2 (sin_entry0 N (G q))).
    + exists (fun q => ad_exp N (G q)). split; intros q.
      * cbn [ad]. rewrite (proj1 (HG q)). cbn [obind]. split; auto. apply fill_length.
      * intros [Sq _]. destruct (HS q Sq) as [F V]. split; [now apply exp_flat|].
        rewrite (at_un _ _ _ _ _ V). cbn [nun option_map]. now rewrite exp_entry0.
    + exists (fun q => ad_log N (G q)). split; intros q.
      * cbn [ad]. rewrite (proj1 (HG q)). cbn [obind]. split; auto. apply fill_length.
      * intros [Sq [E|[E|[E|[_ (v & Hv & Pos)]]]]]; try discriminate. destruct (HS q Sq) as [F V].
        rewrite V in Hv. injection Hv as <-. split; [now apply log_flat|].
        rewrite (at_un _ _ _ _ _ V). cbn [nun]. destruct (Rlt_dec 0 (get (G q) 0)); [|contradiction].
        cbn [option_map]. now rewrite log_entry0.
  - destruct S as (Sl & Sr & Ho). destruct (IHl p Sl) as (F & HF & SF). destruct (IHr p Sr) as (G & HG & SG).
    destruct Ho as [->|[->|[->|[[-> _]|[-> Hp]]]]].
    + exists (fun q => ad_add N (F q) (G q)). split; intros q.
      * cbn [ad]. rewrite (proj1 (HF q)), (proj1 (HG q)). cbn [obind]. split; auto. apply fill_length.
      * intros (S1 & S2 & _). destruct (SF q S1) as [F1 V1], (SG q S2) as [F2 V2]. split; [now apply add_flat|].
        rewrite (at_bin _ _ _ _ _ _ _ V1 V2) by tauto. rewrite add_entry by lia. reflexivity.
    + exists (fun q => ad_sub N (F q) (G q)). split; intros q.
      * cbn [ad]. rewrite (proj1 (HF q)), (proj1 (HG q)). cbn [obind]. split; auto. apply fill_length.
      * intros (S1 & S2 & _). destruct (SF q S1) as [F1 V1], (SG q S2) as [F2 V2]. split; [now apply sub_flat|].
        rewrite (at_bin _ _ _ _ _ _ _ V1 V2) by tauto. rewrite sub_entry by lia. reflexivity.
    + exists (fun q => ad_mul N (F q) (G q)). split; intros q.
      * cbn [ad]. rewrite (proj1 (HF q)), (proj1 (HG q)). cbn [obind]. split; auto. apply fill_length.
      * intros (S1 & S2 & _). destruct (SF q S1) as [F1 V1], (SG q S2) as [F2 V2]. split; [now apply mul_flat|].
        rewrite (at_bin _ _ _ _ _ _ _ V1 V2) by tauto. rewrite mul_entry by lia. unfold conv. simpl rsum. rewrite Rplus_0_l. reflexivity.
    + exists (fun q => ad_div N (F q) (G q)). split; intros q.
      * cbn [ad]. rewrite (proj1 (HF q)), (proj1 (HG q)). cbn [obind]. split; auto. apply fill_length.
      * intros (S1 & S2 & [E|[E|[E|[[_ NZ]|[E _]]]]]); try discriminate.
        destruct (SF q S1) as [F1 V1], (SG q S2) as [F2 V2].
        assert (NZ' : get (G q) 0 <> 0) by (intros Z; apply NZ; now rewrite V2, Z).
        split; [now apply div_flat|].
        rewrite (at_bin _ _ _ _ _ _ _ V1 V2) by tauto. cbn [nbin]. destruct (Req_EM_T (get (G q) 0) 0); [contradiction|].
        rewrite div_entry by lia. simpl rsum. now rewrite Rminus_0_r.
    + assert (C : (exists c, r = EConst c) \/ (forall c, r <> EConst c)).
      { destruct r; [left; eauto| | | | |]; right; intros; discriminate. }
      destruct C as [[c ->]|NC].
      * exists (fun q => ad_pow_const N (F q) c). split; intros q.
        -- cbn [ad]. rewrite (proj1 (HF q)). cbn [obind]. split; auto. apply fill_length.
        -- intros (S1 & S2 & [E|[E|[E|[[E _]|[_ (v & Hv & Hz)]]]]]); try discriminate.
           destruct (SF q S1) as [F1 V1], (SG q S2) as [F2 V2]. rewrite V1 in Hv. injection Hv as <-.
           assert (V3 : at_point x (EConst c) q = Some (VN c)) by reflexivity.
           destruct Hz as [Pos|[NZ [z Ez]]].
           ++ split; [now apply powc_flat_pos|].
              rewrite (at_bin _ _ _ _ _ _ _ V1 V3) by tauto. cbn [nbin].
              rewrite powc_entry0, epow_pos, npow_pos by auto. reflexivity.
           ++ injection Ez as ->. split; [now apply powc_flat_int|].
              rewrite (at_bin _ _ _ _ _ _ _ V1 V3) by tauto. cbn [nbin].
              rewrite powc_entry0, epow_int, npow_int by auto. reflexivity.
      * exists (fun q => ad_pow N (F q) (G q) (ad_log N (F q))). split; intros q.
        -- rewrite pow_nonconst by auto. rewrite (proj1 (HF q)), (proj1 (HG q)). cbn [obind]. split; auto. apply fill_length.
        -- intros (S1 & S2 & [E|[E|[E|[[E _]|[_ (v & Hv & Hz)]]]]]); try discriminate.
           destruct (SF q S1) as [F1 V1], (SG q S2) as [F2 V2]. rewrite V1 in Hv. injection Hv as <-.
           destruct Hz as [Pos|[_ [z Ez]]]; [|exfalso; eapply NC; eauto].
           split; [now apply pow_flat|].
           rewrite (at_bin _ _ _ _ _ _ _ V1 V2) by tauto. cbn [nbin].
           rewrite pow_entry0, epow_pos, npow_pos by auto. reflexivity.
Qed.

(** Points near a smooth one are smooth. *)
Lemma smooth_open x e : forall p, smooth_at x p e -> exists dl, 0 < dl /\ forall q, Rabs (q - p) < dl -> smooth_at x q e.
Proof.
  assert (Two : forall (P Q : R -> Prop) p, (exists dl, 0 < dl /\ forall q, Rabs (q - p) < dl -> P q) ->
     (exists dl, 0 < dl /\ forall q, Rabs (q - p) < dl -> Q q) -> exists dl, 0 < dl /\ forall q, Rabs (q - p) < dl -> P q /\ Q q).
  { intros P Q p (d1 & H1 & A1) (d2 & H2 & A2). exists (Rmin d1 d2). split; [now apply Rmin_pos|].
    intros q Hq. split; [apply A1|apply A2]; eapply Rlt_le_trans; eauto; [apply Rmin_l|apply Rmin_r]. }
  assert (Val : forall b p, smooth_at x p b -> (exists dl, 0 < dl /\ forall q, Rabs (q - p) < dl -> smooth_at x q b) ->
     exists V d, derivable_pt_lim V p d /\ exists dl, 0 < dl /\ forall q, Rabs (q - p) < dl ->
        smooth_at x q b /\ at_point x b q = Some (VN (V q))).
  { intros b p Sb (dl & Hd & Ho). destruct (main 1 x b p Sb) as (G & HG & SG).
    exists (fun q => get (G q) 0), (get (G p) 1). split.
    - apply (first_deriv 1); [lia|]. apply SG. auto.
    - exists dl. split; auto. intros q Hq. split; auto. apply SG. auto. }
  induction e as [c|y|o b IHb|o l r IHl IHr|es _|d _] using expr_ind'; intros p S; try contradiction.
  - exists 1. split; [lra|]. intros; exact I.
  - exists 1. split; [lra|]. auto.
  - destruct S as [Sb Ho]. destruct (Val b p Sb (IHb p Sb)) as (V & d & HV & dl & Hd & Hn).
    assert (W : at_point x b p = Some (VN (V p))) by (apply Hn; rewrite Rminus_diag_eq, Rabs_R0; auto).
    destruct Ho as [Ho|[Ho|[Ho|[Ho (v & Hv & Pos)]]]];
      try (exists dl; split; auto; intros q Hq; split; [now apply Hn|tauto]).
    rewrite W in Hv. injection Hv as <-.
    destruct (Two _ _ p (ex_intro _ dl (conj Hd Hn)) (pos_near _ _ _ HV Pos)) as (d3 & H3 & A3).
    exists d3. split; auto. intros q Hq. destruct (A3 q Hq) as [[A B] C]. split; auto. do 3 right. split; eauto.
  - destruct S as (Sl & Sr & Ho).
    destruct (Val l p Sl (IHl p Sl)) as (V & d & HV & dl & Hd & Hn).
    destruct (Val r p Sr (IHr p Sr)) as (V' & d' & HV' & dl' & Hd' & Hn').
    assert (W : at_point x l p = Some (VN (V p))) by (apply Hn; rewrite Rminus_diag_eq, Rabs_R0; auto).
    assert (W' : at_point x r p = Some (VN (V' p))) by (apply Hn'; rewrite Rminus_diag_eq, Rabs_R0; auto).
    destruct (Two _ _ p (ex_intro _ dl (conj Hd Hn)) (ex_intro _ dl' (conj Hd' Hn'))) as (d2 & H2 & A2).
    destruct Ho as [Ho|[Ho|[Ho|[[Ho NZ]|[Ho (v & Hv & Hz)]]]]].
    1-3: exists d2; split; auto; intros q Hq; destruct (A2 q Hq) as [[A B] [C E]]; repeat split; auto; tauto.
    + assert (NZ' : V' p <> 0) by (intros Z; apply NZ; now rewrite W', Z).
      destruct (Two _ _ p (ex_intro _ d2 (conj H2 A2)) (nz_near _ _ _ HV' NZ')) as (d3 & H3 & A3).
      exists d3. split; auto. intros q Hq. destruct (A3 q Hq) as [[[A B] [C E]] Z]. split; [auto|split;[auto|]].
      do 3 right. left. split; auto. rewrite E. congruence.
    + rewrite W in Hv. injection Hv as <-. destruct Hz as [Pos|[NZ Hz]].
      * destruct (Two _ _ p (ex_intro _ d2 (conj H2 A2)) (pos_near _ _ _ HV Pos)) as (d3 & H3 & A3).
        exists d3. split; auto. intros q Hq. destruct (A3 q Hq) as [[[A B] [C E]] Z]. split; [auto|split;[auto|]].
        do 4 right. split; auto. eauto.
      * destruct (Two _ _ p (ex_intro _ d2 (conj H2 A2)) (nz_near _ _ _ HV NZ)) as (d3 & H3 & A3).
        exists d3. split; auto. intros q Hq. destruct (A3 q Hq) as [[[A B] [C E]] Z]. split; [auto|split;[auto|]].
        do 4 right. split; auto. eauto.
Qed.
End Main.

(** For every expression built from constants, the variable, + - * / exp ln sin
    cos and powers, at every point where it is smooth, and for every order N:
    ad returns N+1 numbers and they are the Taylor coefficients.  (Partial: at
    smooth points where the library still divides by zero, or for operators it
    does not support, the claim is false, see below.) *)
Theorem C39_taylor_coefficients_partial : forall (nan : R) (N : nat) (x : string) (a : R) (e : expr R),
  smooth_at x a e ->
  exists cs, ad nan N x a e = Ret cs /\ length cs = S N /\ taylor_coefficients (at_point x e) a cs.
Proof.
  intros nan N x a e Sm. destruct (main nan N x e a Sm) as (G & HG & SG). destruct (smooth_open nan x e a Sm) as (dl & Hd & Ho).
  exists (G a). destruct (HG a) as [E L]. split; [exact E|split;[exact L|]].
  exists (fun k t => INR (fact k) * get (G t) k), dl. repeat split; auto.
  - intros t Ht. destruct (SG t (Ho t Ht)) as [_ V]. rewrite V. change (INR (fact 0)) with 1. now rewrite Rmult_1_l.
  - intros k t Hk Ht. destruct (SG t (Ho t Ht)) as [F _]. rewrite L in Hk.
    rewrite fact_simpl, mult_INR, (Rmult_comm (INR (S k))), Rmult_assoc.
    apply (derivable_pt_lim_scal (fun t => get (G t) k)). apply F. lia.
  - intros k Hk. unfold get. change n0 with 0. field. apply INR_fact_neq_0.
Qed.
Print Assumptions C39_taylor_coefficients_partial.

(** A variable other than the one that is set has the value not-a-number and zero
    derivatives. *)
Theorem C39_other_variable : forall (K : Type) (EN : ENum K) (nan : K) (N : nat) (x y : string) (a : K),
  x <> y -> ad nan N x a (EVar y) = Ret (nan :: repeat n0 N).
Proof.
  intros K EN nan N x y a H. cbn [ad]. f_equal. unfold ad_var. destruct (String.eqb_spec y x) as [E|_]; [congruence|].
  match goal with |- fill ?F _ = _ => set (G := F) end.
  assert (HG : forall r t, G (r :: t) = n0) by (intros r [|q t]; reflexivity).
  induction N as [|N IH]; [reflexivity|]. cbn [fill] in *. cbv zeta in *. rewrite IH, HG.
  cbn [repeat app]. now rewrite repeat_cons.
Qed.
Print Assumptions C39_other_variable.

(** x*exp(x)/ (1+x^2) at 1: the hypotheses are met. *)
Example C39_ex : smooth_at "x" 1
  (EBin BDiv (EBin BMul (EVar "x") (EUn UExp (EVar "x"))) (EBin BAdd (EConst 1) (EBin BPow (EVar "x") (EConst 2)))).
Proof.
  assert (N2 : npow 1 2 = Some 1).
  { rewrite npow_pos by lra. unfold Rpower. rewrite ln_1, Rmult_0_r, exp_0. auto. }
  cbn [smooth_at]. repeat split; auto.
  - do 4 right. split; auto. exists 1. split; auto. left. lra.
  - do 3 right. left. split; auto. unfold at_point, value_of, upd_env. cbn [eval String.eqb Ascii.eqb Bool.eqb andb vbin nbin].
    rewrite N2. cbn. intros H. injection H as H. lra.
Qed.

(** ** Where the claim fails *)
(** Rational numbers with a not-a-number that is absorbing, which division by
    zero returns.  [pow] is meant for whole non-negative exponents. *)
Definition nanQ := option Q.
Definition lift2 (f : Q -> Q -> Q) (a b : nanQ) : nanQ :=
  match a, b with Some a, Some b => Some (Qred (f a b)) | _, _ => None end.
Definition nanQ_num : Num nanQ :=
  {| n0 := Some 0%Q; n1 := Some 1%Q; nadd := lift2 Qplus; nsub := lift2 Qminus; nmul := lift2 Qmult;
     ndiv := fun a b => match a, b with
                        | Some a, Some b => if Qeq_bool b 0 then None else Some (Qred (a / b))
                        | _, _ => None end;
     nopp := option_map Qopp;
     neqb := fun a b => match a, b with Some a, Some b => Qeq_bool a b | _, _ => false end;
     nltb := fun a b => match a, b with Some a, Some b => Qltb a b | _, _ => false end |}.
Definition nanQ_enum : ENum nanQ :=
  {| enum_num := nanQ_num; esin := fun x => x; ecos := fun x => x; elog := fun x => x; eexp := fun x => x; eabs := fun x => x;
     epow := fun a b => match a, b with
        | Some a, Some b => Some (Qred (Qpower a (Qnum b / Zpos (Qden b)))) | _, _ => None end |}.

(** x^2 at 0: the coefficients are 0, 0, 1; ad divides by the value of the base,
    which is 0, and returns 0, NaN, NaN. *)
Theorem C39_power_at_zero_refuted :
  ad (EN := nanQ_enum) None 2 "x" (Some 0%Q) (EBin BPow (EVar "x") (EConst (Some 2%Q))) = Ret [Some 0%Q; None; None] /\
  (* although x*x, the same function, gives the right answer *)
  ad (EN := nanQ_enum) None 2 "x" (Some 0%Q) (EBin BMul (EVar "x") (EVar "x")) = Ret [Some 0%Q; Some 0%Q; Some 1%Q] /\
  taylor_coefficients (at_point "x" (EBin BPow (EVar "x") (EConst 2))) 0 [0; 0; 1].
Proof.
  split; [vm_compute; reflexivity|split; [vm_compute; reflexivity|]].
  exists (fun k t => match k with O => t * t | 1%nat => 2 * t | _ => 2 end), 1. split; [lra|]. repeat split.
  - intros t _. unfold at_point, value_of, upd_env. cbn [eval String.eqb Ascii.eqb Bool.eqb andb vbin nbin].
    change 2 with (IZR 2). rewrite npow_int by (right; lia). cbn [option_map]. do 2 f_equal. simpl. ring.
  - intros [|[|k]] t Hk _; simpl in Hk; [| |lia].
    + replace (2 * t) with (1 * id t + id t * 1) by (unfold id; ring).
      apply (derivable_pt_lim_mult id id); apply derivable_pt_lim_id.
    + assert (X := derivable_pt_lim_scal id 2 t 1 (derivable_pt_lim_id t)). unfold mult_real_fct, id in X. rewrite Rmult_1_r in X. exact X.
  - intros [|[|[|k]]] Hk; simpl in Hk; try lia; simpl; field.
Qed.
Print Assumptions C39_power_at_zero_refuted.

(** Negation, absolute value and the other node types without an overload: the
    recursion does not end, whatever the operand. *)
Theorem C39_unsupported_node_refuted : forall (K : Type) (EN : ENum K) (nan : K) N x a (b : expr K) o,
  o <> USin -> o <> UCos -> o <> UExp -> o <> ULog -> ad nan N x a (EUn o b) = UB.
Proof. intros. destruct o; congruence || reflexivity. Qed.
Print Assumptions C39_unsupported_node_refuted.
