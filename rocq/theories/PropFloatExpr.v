(** C70: runtime simplification with doubles. *)
From Coq Require Import Lia Lra String.
From Flocq Require Import Core Binary Bits.
From Verif Require Import FloatModel FloatSpec FloatProofs FloatQuad.
From Verif Require Import Outcome ExprModel ExprSpec ExprBase ExprSimp ExprSub ExprFold ExprEq ExprShare PyModel.
Open Scope R_scope.

#[local] Instance dexp_valid' : Valid_exp dexp.
Proof. apply FLT_exp_valid. reflexivity. Qed.

(* ------------------------------------------------------------------ *)
(** ** The number type of ConstantRT<double> (constants_rt.hpp:23): IEEE doubles with
    the functions of the C library as parameters. *)
Record libm := { m_sin : d64 -> d64; m_cos : d64 -> d64; m_log : d64 -> d64; m_exp : d64 -> d64;
                 m_pow : d64 -> d64 -> d64 }.
Definition D_enum (M : libm) : ENum d64 :=
  {| enum_num := D_num; esin := m_sin M; ecos := m_cos M; elog := m_log M; eexp := m_exp M;
     eabs := d_abs; epow := m_pow M |}.

(* ------------------------------------------------------------------ *)
(** ** Specification *)

(** the double computed for an expression, operation by operation *)
Definition d_un (M : libm) (o : uop) (a : d64) : d64 :=
  match o with
  | USin => m_sin M a | UCos => m_cos M a | ULog => m_log M a | UExp => m_exp M a
  | UAbs => d_abs a | UNeg => d_opp a | UArb => a
  end.
Definition d_bin (M : libm) (o : bop) (a b : d64) : d64 :=
  match o with
  | BAdd => d_add a b | BSub => d_sub a b | BMul => d_mul a b | BDiv => d_div a b | _ => m_pow M a b
  end.
Fixpoint computed (M : libm) (env : string -> d64) (e : expr d64) : d64 :=
  match e with
  | EConst c => c
  | EVar x => env x
  | EUn o a => d_un M o (computed M env a)
  | EBin o l r => d_bin M o (computed M env l) (computed M env r)
  | _ => d_zero
  end.
(** numbers, variables, functions and + - * / ^, with every intermediate result finite *)
Fixpoint all_finite (M : libm) (env : string -> d64) (e : expr d64) : Prop :=
  fin (computed M env e) /\
  match e with
  | EConst _ | EVar _ => True
  | EUn o a => o <> UArb /\ all_finite M env a
  | EBin o l r => arith_op o /\ all_finite M env l /\ all_finite M env r
  | _ => False
  end.

(** What is assumed of the C library: on finite arguments results depend on the
    value of the arguments only (not on the sign of a zero), and 1^y and x^1 are
    exact. *)
Definition by_value (f : d64 -> d64) : Prop :=
  forall a b, fin a -> fin b -> dR a = dR b -> fin (f a) -> fin (f b) /\ dR (f b) = dR (f a).
Definition good_libm (M : libm) : Prop :=
  by_value (m_sin M) /\ by_value (m_cos M) /\ by_value (m_log M) /\ by_value (m_exp M) /\
  (forall a b a' b', fin a -> fin b -> fin a' -> fin b' -> dR a = dR a' -> dR b = dR b' ->
     fin (m_pow M a b) -> fin (m_pow M a' b') /\ dR (m_pow M a' b') = dR (m_pow M a b)) /\
  (forall a b, fin a -> fin b -> dR a = 1 -> dR (m_pow M a b) = 1) /\
  (forall a b, fin a -> fin b -> dR b = 1 -> dR (m_pow M a b) = dR a).

(** a product that depends on a variable, and a product with such a product
    somewhere inside a factor *)
Definition is_variable {K} (e : expr K) : bool := match e with EVar _ => true | _ => false end.
Definition open_product {K} (e : expr K) : bool :=
  match e with EBin BMul l r => has_node is_variable e | _ => false end.
Definition nested_product {K} (e : expr K) : bool :=
  match e with EBin BMul l r => has_node open_product l || has_node open_product r | _ => false end.

(* ------------------------------------------------------------------ *)
(** ** arithmetic by value *)
Definition same (a b : d64) : Prop := fin a /\ fin b /\ dR a = dR b.

Lemma same_refl a : fin a -> same a a.
Proof. intros; repeat split; assumption. Qed.
Lemma same_trans a b c : same a b -> same b c -> same a c.
Proof. unfold same. intuition congruence. Qed.
Lemma same_eq a b : same a b -> d_eq a b = true.
Proof. intros (Fa & Fb & E). apply d_eq_fin; assumption. Qed.

Lemma add_cong a b a' b' : same a a' -> same b b' -> fin (d_add a b) ->
  same (d_add a b) (d_add a' b') /\ dR (d_add a b) = drnd (dR a + dR b).
Proof.
  intros (Fa & Fa' & Ea) (Fb & Fb' & Eb) F.
  pose proof (Bplus_correct 53 1024 eq_refl eq_refl binop_nan_pl64 BinarySingleNaN.mode_NE a b Fa Fb) as C.
  pose proof (Bplus_correct 53 1024 eq_refl eq_refl binop_nan_pl64 BinarySingleNaN.mode_NE a' b' Fa' Fb') as C'.
  change (B2R 53 1024 a') with (dR a') in C'. change (B2R 53 1024 b') with (dR b') in C'.
  rewrite <- Ea, <- Eb in C'. change (B2R 53 1024 a) with (dR a) in C. change (B2R 53 1024 b) with (dR b) in C.
  destruct (Rlt_bool _ _).
  - destruct C as (C1 & _). destruct C' as (C1' & C2' & _).
    repeat split; [exact F|exact C2'|etransitivity; [exact C1|symmetry; exact C1']|exact C1].
  - destruct C as (C & _). exfalso. unfold d_add, b64_plus in F.
    destruct (Bplus _ _ _ _ _ _ _ _) in *; try discriminate F; discriminate C.
Qed.
Lemma sub_cong a b a' b' : same a a' -> same b b' -> fin (d_sub a b) ->
  same (d_sub a b) (d_sub a' b') /\ dR (d_sub a b) = drnd (dR a - dR b).
Proof.
  intros (Fa & Fa' & Ea) (Fb & Fb' & Eb) F.
  pose proof (Bminus_correct 53 1024 eq_refl eq_refl binop_nan_pl64 BinarySingleNaN.mode_NE a b Fa Fb) as C.
  pose proof (Bminus_correct 53 1024 eq_refl eq_refl binop_nan_pl64 BinarySingleNaN.mode_NE a' b' Fa' Fb') as C'.
  change (B2R 53 1024 a') with (dR a') in C'. change (B2R 53 1024 b') with (dR b') in C'.
  rewrite <- Ea, <- Eb in C'. change (B2R 53 1024 a) with (dR a) in C. change (B2R 53 1024 b) with (dR b) in C.
  destruct (Rlt_bool _ _).
  - destruct C as (C1 & _). destruct C' as (C1' & C2' & _).
    repeat split; [exact F|exact C2'|etransitivity; [exact C1|symmetry; exact C1']|exact C1].
  - destruct C as (C & _). exfalso. unfold d_sub, b64_minus in F.
    destruct (Bminus _ _ _ _ _ _ _ _) in *; try discriminate F; discriminate C.
Qed.
Lemma mul_cong a b a' b' : same a a' -> same b b' -> fin (d_mul a b) ->
  same (d_mul a b) (d_mul a' b') /\ dR (d_mul a b) = drnd (dR a * dR b).
Proof.
  intros (Fa & Fa' & Ea) (Fb & Fb' & Eb) F.
  pose proof (Bmult_correct 53 1024 eq_refl eq_refl binop_nan_pl64 BinarySingleNaN.mode_NE a b) as C.
  pose proof (Bmult_correct 53 1024 eq_refl eq_refl binop_nan_pl64 BinarySingleNaN.mode_NE a' b') as C'.
  change (B2R 53 1024 a') with (dR a') in C'. change (B2R 53 1024 b') with (dR b') in C'.
  rewrite <- Ea, <- Eb in C'. change (B2R 53 1024 a) with (dR a) in C. change (B2R 53 1024 b) with (dR b) in C.
  destruct (Rlt_bool _ _).
  - destruct C as (C1 & _). destruct C' as (C1' & C2' & _). rewrite Fa', Fb' in C2'.
    repeat split; [exact F|exact C2'|etransitivity; [exact C1|symmetry; exact C1']|exact C1].
  - exfalso. unfold d_mul, b64_mult in F.
    destruct (Bmult _ _ _ _ _ _ _ _) in *; try discriminate F; discriminate C.
Qed.
Lemma div_cong a b a' b' : same a a' -> same b b' -> fin (d_div a b) ->
  same (d_div a b) (d_div a' b') /\ dR b <> 0 /\ dR (d_div a b) = drnd (dR a / dR b).
Proof.
  intros (Fa & Fa' & Ea) (Fb & Fb' & Eb) F.
  assert (Nb : dR b <> 0).
  { intros Z. destruct b as [s|s|s pl Hp|s m e H]; try discriminate Fb.
    - destruct a as [s1|s1|s1 p1 H1|s1 m1 e1 H1]; try discriminate Fa; discriminate F.
    - rewrite dR_finite in Z. pose proof (F2R_pos m e). destruct s; lra. }
  assert (Nb' : dR b' <> 0) by (rewrite <- Eb; exact Nb).
  pose proof (Bdiv_correct 53 1024 eq_refl eq_refl binop_nan_pl64 BinarySingleNaN.mode_NE a b Nb) as C.
  pose proof (Bdiv_correct 53 1024 eq_refl eq_refl binop_nan_pl64 BinarySingleNaN.mode_NE a' b' Nb') as C'.
  change (B2R 53 1024 a') with (dR a') in C'. change (B2R 53 1024 b') with (dR b') in C'.
  rewrite <- Ea, <- Eb in C'. change (B2R 53 1024 a) with (dR a) in C. change (B2R 53 1024 b) with (dR b) in C.
  destruct (Rlt_bool _ _).
  - destruct C as (C1 & _). destruct C' as (C1' & C2' & _). rewrite Fa' in C2'.
    repeat split; [exact F|exact C2'|etransitivity; [exact C1|symmetry; exact C1']|exact Nb|exact C1].
  - exfalso. unfold d_div, b64_div in F.
    destruct (Bdiv _ _ _ _ _ _ _ _) in *; try discriminate F; discriminate C.
Qed.
Lemma opp_cong a a' : same a a' -> same (d_opp a) (d_opp a').
Proof.
  intros (Fa & Fa' & Ea). destruct (opp_R a Fa) as (F1 & E1 & _). destruct (opp_R a' Fa') as (F2 & E2 & _).
  repeat split; try assumption. congruence.
Qed.
Lemma abs_cong a a' : same a a' -> same (d_abs a) (d_abs a').
Proof.
  intros (Fa & Fa' & Ea). unfold same, d_abs, b64_abs, dR in *. rewrite !is_finite_Babs, !B2R_Babs.
  repeat split; try assumption. congruence.
Qed.

Section Simp.
Variable M : libm.
Hypothesis HM : good_libm M.
#[local] Instance EN : ENum d64 := D_enum M.

Lemma un_cong o a a' : o <> UArb -> same a a' -> fin (d_un M o a) -> same (d_un M o a) (d_un M o a').
Proof.
  intros Ho S F. pose proof S as (Fa & Fa' & Ea). destruct HM as (H1 & H2 & H3 & H4 & _).
  destruct o; cbn [d_un] in *; try congruence.
  - destruct (H1 a a' Fa Fa' Ea F). repeat split; auto.
  - destruct (H2 a a' Fa Fa' Ea F). repeat split; auto.
  - destruct (H3 a a' Fa Fa' Ea F). repeat split; auto.
  - destruct (H4 a a' Fa Fa' Ea F). repeat split; auto.
  - apply abs_cong, S.
  - apply opp_cong, S.
Qed.
Lemma bin_cong o a b a' b' : arith_op o -> same a a' -> same b b' -> fin (d_bin M o a b) ->
  same (d_bin M o a b) (d_bin M o a' b').
Proof.
  intros Ho Sa Sb F. destruct Ho as [->|[->|[->|[->| ->]]]]; cbn [d_bin] in *.
  - apply (add_cong a b a' b'); assumption.
  - apply (sub_cong a b a' b'); assumption.
  - apply (mul_cong a b a' b'); assumption.
  - apply (div_cong a b a' b'); assumption.
  - destruct Sa as (? & ? & ?), Sb as (? & ? & ?). destruct HM as (_ & _ & _ & _ & H5 & _).
    destruct (H5 a b a' b') as (F' & E'); auto. repeat split; auto.
Qed.

Lemma d_zero_R : dR d_zero = 0. Proof. reflexivity. Qed.
Lemma d_one_R : dR d_one = 1. Proof. unfold dR. vm_compute. lra. Qed.
Lemma rnd_dR a : drnd (dR a) = dR a.
Proof. apply rnd_fmt, dR_fmt. Qed.
Lemma rnd_0 : drnd 0 = 0.
Proof. apply round_0, valid_rnd_N. Qed.
Lemma elem_R c k : fin c -> fin k -> d_eq c k = true -> dR c = dR k.
Proof. intros Fc Fk E. apply d_eq_fin in E; assumption. Qed.

Lemma bin_R o a b : arith_op o -> fin a -> fin b -> fin (d_bin M o a b) ->
  match o with
  | BAdd => dR (d_bin M o a b) = drnd (dR a + dR b)
  | BSub => dR (d_bin M o a b) = drnd (dR a - dR b)
  | BMul => dR (d_bin M o a b) = drnd (dR a * dR b)
  | BDiv => dR b <> 0 /\ dR (d_bin M o a b) = drnd (dR a / dR b)
  | _ => True
  end.
Proof.
  intros Ho Fa Fb F. pose proof (same_refl a Fa) as Sa. pose proof (same_refl b Fb) as Sb.
  destruct Ho as [->|[->|[->|[->| ->]]]]; cbn [d_bin] in *; try exact I.
  - apply (add_cong a b a b); assumption.
  - apply (sub_cong a b a b); assumption.
  - apply (mul_cong a b a b); assumption.
  - apply (div_cong a b a b); assumption.
Qed.

(** one node *)
Lemma bstep_keeps env o l r : arith_op o ->
  has_node (fun e => match e with EBin BMul _ _ => true | _ => false end) l = false \/ o <> BMul ->
  has_node (fun e => match e with EBin BMul _ _ => true | _ => false end) r = false \/ o <> BMul ->
  scalar_expr l -> scalar_expr r ->
  fin (computed M env l) -> fin (computed M env r) -> fin (computed M env (EBin o l r)) ->
  same (computed M env (EBin o l r)) (computed M env (bstep o l r)).
Proof.
  intros Ho Nl Nr Sl Sr Fl Fr F. unfold bstep.
  pose proof (bin_R o _ _ Ho Fl Fr F) as V. cbn [computed] in F |- *.
  set (a := computed M env l) in *. set (b := computed M env r) in *.
  assert (FZ : fin (d_zero)) by reflexivity. assert (F1 : fin d_one) by (vm_compute; reflexivity).
  destruct HM as (_ & _ & _ & _ & _ & P1 & P2).
  assert (Cl : forall c, is_elem l (Some c) = true -> fin c -> dR a = dR c).
  { intros c E Fc. destruct l; try discriminate E. apply (elem_R _ _ Fl Fc E). }
  assert (Cr : forall c, is_elem r (Some c) = true -> fin c -> dR b = dR c).
  { intros c E Fc. destruct r; try discriminate E. apply (elem_R _ _ Fr Fc E). }
  destruct (is_elem l (left_zero o)) eqn:E1.
  { destruct Ho as [->|[->|[->|[->| ->]]]]; cbn [left_zero] in *; try discriminate E1; cbn [computed];
      (split; [exact F|]; split; [try exact FZ; exact F1|]).
    - rewrite V, (Cl _ E1 FZ). change (dR n0) with 0. rewrite Rmult_0_l. apply rnd_0.
    - destruct V as (V0 & V). rewrite V, (Cl _ E1 FZ). change (dR n0) with 0. unfold Rdiv. rewrite Rmult_0_l. apply rnd_0.
    - etransitivity; [apply P1; [exact Fl|exact Fr|rewrite (Cl _ E1 F1); apply d_one_R]|symmetry; apply d_one_R]. }
  destruct (is_elem l (left_identity o)) eqn:E2.
  { split; [exact F|]. split; [exact Fr|]. fold b.
    destruct Ho as [->|[->|[->|[->| ->]]]]; cbn [left_identity] in *; try discriminate E2; rewrite V.
    - rewrite (Cl _ E2 FZ). change (dR n0) with 0. rewrite Rplus_0_l. apply rnd_dR.
    - rewrite (Cl _ E2 F1). change (dR n1) with (dR d_one). rewrite d_one_R, Rmult_1_l. apply rnd_dR. }
  destruct (is_elem r (right_zero o)) eqn:E3.
  { destruct Ho as [->|[->|[->|[->| ->]]]]; cbn [right_zero] in *; try discriminate E3; cbn [computed].
    split; [exact F|]. split; [exact FZ|].
    rewrite V, (Cr _ E3 FZ). change (dR n0) with 0. rewrite Rmult_0_r. apply rnd_0. }
  destruct (is_elem r (right_identity o)) eqn:E4.
  { split; [exact F|]. split; [exact Fl|]. fold a.
    destruct Ho as [->|[->|[->|[->| ->]]]]; cbn [right_identity] in *; try discriminate E4.
    - rewrite V, (Cr _ E4 FZ). change (dR n0) with 0. rewrite Rplus_0_r. apply rnd_dR.
    - rewrite V, (Cr _ E4 FZ). change (dR n0) with 0. rewrite Rminus_0_r. apply rnd_dR.
    - rewrite V, (Cr _ E4 F1). change (dR n1) with (dR d_one). rewrite d_one_R, Rmult_1_r. apply rnd_dR.
    - destruct V as (_ & V). rewrite V, (Cr _ E4 F1). change (dR n1) with (dR d_one). rewrite d_one_R.
      unfold Rdiv. rewrite Rinv_1, Rmult_1_r. apply rnd_dR.
    - cbn [d_bin]. apply P2; [exact Fl|exact Fr|]. rewrite (Cr _ E4 F1). apply d_one_R. }
  assert (Same : same (d_bin M o a b) (computed M env (EBin o l r))) by (apply same_refl; exact F).
  destruct (dd_visit o l r) as [[x|]| | |] eqn:E; try exact Same.
  apply dd_visit_case in E. inversion E; subst; try exact Same.
  - destruct Nr as [Nr|Nr]; [discriminate Nr|congruence].
  - destruct Nr as [Nr|Nr]; [discriminate Nr|congruence].
  - destruct Nl as [Nl|Nl]; [discriminate Nl|congruence].
  - destruct Nl as [Nl|Nl]; [discriminate Nl|congruence].
  - destruct (mul_apply_case l r); subst; try exact Same;
      try (destruct Sl as ([[?|[?|[?|[?|?]]]]|?] & _); discriminate);
      try (destruct Sr as ([[?|[?|[?|[?|?]]]]|?] & _); discriminate);
      try (destruct Sl; fail); try (destruct Sr; fail).
  - assert (D : dR (d_bin M BSub a b) = - dR b).
    { rewrite V. unfold a. cbn [computed].
      assert (Ez : dR a0 = 0) by (rewrite <- d_zero_R; apply elem_R; [exact Fl|reflexivity|assumption]).
      rewrite Ez, Rminus_0_l. rewrite <- (proj1 (proj2 (opp_R b Fr))). apply rnd_dR. }
    destruct (opp_R b Fr) as (Fo & Eo & _).
    split; [exact F|]. destruct r; cbn [computed d_un]; (split; [exact Fo|rewrite D; symmetry; exact Eo]).
  - destruct Sl.
  - destruct Sl as ([[?|[?|[?|[?|?]]]]|?] & _); discriminate.
Qed.

Lemma finite_scalar env e : all_finite M env e -> scalar_expr e.
Proof.
  induction e as [c|x|o a IHa|o l r IHl IHr|es IH|d IH] using expr_ind'; cbn [all_finite scalar_expr]; try tauto.
Qed.
Lemma finite_top env e : all_finite M env e -> fin (computed M env e).
Proof. destruct e; intros (F & _); exact F. Qed.

Notation mulf := (fun e : expr d64 => match e with EBin BMul _ _ => true | _ => false end).
Lemma mulf_clean (e : expr d64) : has_node mulf e = false <-> clean (fun o => match o with BMul => true | _ => false end) false false e.
Proof.
  unfold clean. induction e as [c|x|o a IHa|o l r IHl IHr|es IH|d IH] using expr_ind'; cbn [has_node nodep]; try tauto.
Qed.

(** closed expressions fold; others contain no new product *)
Lemma closed_no_var env e : all_finite M env e -> has_node is_variable e = false -> closed_arith e.
Proof.
  induction e as [c|x|o a IHa|o l r IHl IHr|es IH|d IH] using expr_ind';
    cbn [all_finite has_node closed_arith is_variable]; try tauto.
  - discriminate.
  - rewrite !Bool.orb_false_iff. tauto.
Qed.
Lemma bstep_const_mul o (l r : expr d64) : has_node mulf l = false -> has_node mulf r = false -> o <> BMul ->
  has_node mulf (bstep o l r) = false.
Proof.
  rewrite !mulf_clean. intros Hl Hr Ho. unfold bstep.
  assert (Hc : forall c, clean (fun o => match o with BMul => true | _ => false end) false false (EConst (K := d64) c)) by reflexivity.
  assert (Hpb : (match o with BMul => true | _ => false end) = false) by (destruct o; congruence).
  destruct (is_elem l (left_zero o)); [destruct (left_zero o); auto|].
  destruct (is_elem l (left_identity o)); [auto|].
  destruct (is_elem r (right_zero o)); [destruct (right_zero o); auto|].
  destruct (is_elem r (right_identity o)); [auto|].
  assert (Hn : clean (fun o => match o with BMul => true | _ => false end) false false (EBin o l r)) by (apply clean_bin; auto).
  destruct (dd_visit o l r) as [[x|]| | |] eqn:E; try exact Hn.
  eapply dd_clean; [exact Hpb|exact Hl|exact Hr|exact E].
Qed.
Lemma ssimp_no_mul env e : all_finite M env e -> has_node open_product e = false -> has_node mulf (ssimp e) = false.
Proof.
  induction e as [c|x|o a IHa|o l r IHl IHr|es IH|d IH] using expr_ind'; intros HF Hn.
  - reflexivity.
  - reflexivity.
  - cbn [ssimp]. destruct HF as (_ & Ho & HF). specialize (IHa HF Hn). unfold ustep.
    destruct (ssimp a); try exact IHa. destruct o; reflexivity.
  - cbn [has_node] in Hn. apply Bool.orb_false_elim in Hn as (Hp & Hn). apply Bool.orb_false_elim in Hn as (Hnl & Hnr).
    destruct o.
    3: { cbn [open_product] in Hp.
         destruct (closed_folds (EBin BMul l r) (closed_no_var env _ HF Hp)) as (c & ->). reflexivity. }
    all: destruct HF as (_ & Ho & HFl & HFr); cbn [ssimp]; apply bstep_const_mul; auto; discriminate.
  - destruct HF as (_ & []).
  - destruct HF as (_ & []).
Qed.

Lemma ssimp_keeps env e : all_finite M env e -> has_node nested_product e = false ->
  same (computed M env e) (computed M env (ssimp e)).
Proof.
  induction e as [c|x|o a IHa|o l r IHl IHr|es IH|d IH] using expr_ind'; intros HF Hn.
  - apply same_refl, HF.
  - apply same_refl, HF.
  - destruct HF as (F & Ho & HF). cbn [ssimp computed] in *. specialize (IHa HF Hn).
    eapply same_trans; [apply (un_cong o _ _ Ho IHa F)|].
    assert (F' : fin (d_un M o (computed M env (ssimp a)))) by (apply (un_cong o _ _ Ho IHa F)).
    unfold ustep. destruct (ssimp a); try (apply same_refl; exact F').
    destruct o; try congruence; apply same_refl; exact F'.
  - pose proof (finite_scalar env _ HF) as Hs.
    destruct HF as (F & Ho & HFl & HFr). cbn [has_node] in Hn. apply Bool.orb_false_elim in Hn as (Hp & Hn).
    apply Bool.orb_false_elim in Hn as (Hnl & Hnr). specialize (IHl HFl Hnl). specialize (IHr HFr Hnr).
    pose proof (bin_cong o _ _ _ _ Ho IHl IHr F) as S1. eapply same_trans; [exact S1|].
    cbn [ssimp]. apply bstep_keeps.
    + exact Ho.
    + destruct o; try (right; discriminate). left. cbn [nested_product] in Hp.
      apply Bool.orb_false_elim in Hp as (Hp1 & _). apply (ssimp_no_mul env l HFl Hp1).
    + destruct o; try (right; discriminate). left. cbn [nested_product] in Hp.
      apply Bool.orb_false_elim in Hp as (_ & Hp2). apply (ssimp_no_mul env r HFr Hp2).
    + apply ssimp_scalar, (finite_scalar env), HFl.
    + apply ssimp_scalar, (finite_scalar env), HFr.
    + apply IHl.
    + apply IHr.
    + apply S1.
  - destruct HF as (_ & []).
  - destruct HF as (_ & []).
Qed.
End Simp.

(** ** C70 *)
(** Simplifying before substituting changes no computed value (but for the sign of
    a zero), if all intermediate results are finite and no product that depends
    on a variable sits inside a factor of a product. *)
Theorem C70_value_kept_partial : forall (M : libm) (env : string -> d64) (fuel : nat) (e : expr d64),
  good_libm M -> all_finite M env e -> has_node nested_product e = false ->
  exists e', simplify (EN := D_enum M) fuel e = Ret e' /\
    fin (computed M env e') /\ d_eq (computed M env e') (computed M env e) = true.
Proof.
  intros M env fuel e HM HF Hn. exists (ssimp (EN := D_enum M) e). split.
  - apply simplify_scalar, (finite_scalar M env), HF.
  - destruct (ssimp_keeps M HM env e HF Hn) as (F1 & F2 & E). split; [exact F2|].
    apply d_eq_fin; [exact F2|exact F1|symmetry; exact E].
Qed.

(** An expression without variables becomes a number: the one computed operation by
    operation. *)
Theorem C70_evaluates : forall (M : libm) (env : string -> d64) (fuel : nat) (e : expr d64),
  good_libm M -> all_finite M env e -> has_node is_variable e = false ->
  exists c, simplify (EN := D_enum M) fuel e = Ret (EConst c) /\ d_eq c (computed M env e) = true.
Proof.
  intros M env fuel e HM HF Hv.
  destruct (closed_folds (EN := D_enum M) e (closed_no_var M env e HF Hv)) as (c & Ec).
  assert (Hn : has_node nested_product e = false).
  { clear - Hv HF. induction e as [c|x|o a IHa|o l r IHl IHr|es IH|d IH] using expr_ind'.
    - reflexivity.
    - reflexivity.
    - destruct HF as (_ & _ & HF). apply (IHa HF Hv).
    - destruct HF as (_ & _ & HFl & HFr). cbn [has_node] in Hv |- *. apply Bool.orb_false_elim in Hv as (_ & Hv).
      apply Bool.orb_false_elim in Hv as (Hvl & Hvr). rewrite IHl, IHr by assumption.
      assert (Op : forall e : expr d64, all_finite M env e -> has_node is_variable e = false -> has_node open_product e = false).
      { clear. induction e as [c|x|o a IHa|o l r IHl IHr|es IH|d IH] using expr_ind'; intros HF Hv.
        - reflexivity.
        - reflexivity.
        - destruct HF as (_ & _ & HF). apply (IHa HF Hv).
        - destruct HF as (_ & _ & HFl & HFr). pose proof Hv as Hv'. cbn [has_node] in Hv |- *. apply Bool.orb_false_elim in Hv as (_ & Hv).
          apply Bool.orb_false_elim in Hv as (Hvl & Hvr). rewrite IHl, IHr by assumption.
          rewrite !Bool.orb_false_r. destruct o; try reflexivity. exact Hv'.
        - destruct HF as (_ & []).
        - destruct HF as (_ & []). }
      rewrite !Bool.orb_false_r. destruct o; try reflexivity. cbn [nested_product].
      rewrite !Op by assumption. reflexivity.
    - destruct HF as (_ & []).
    - destruct HF as (_ & []). }
  exists c. split.
  - rewrite <- Ec. apply simplify_scalar, (finite_scalar M env), HF.
  - destruct (ssimp_keeps M HM env e HF Hn) as (F1 & F2 & E). change (EN M) with (D_enum M) in F2, E. rewrite Ec in F2, E. cbn [computed] in F2, E.
    apply d_eq_fin; [exact F2|exact F1|symmetry; exact E].
Qed.

(** the assumptions on the library can be met, and an example of the hypotheses *)
Definition toy_libm : libm :=
  {| m_sin := fun a => a; m_cos := fun _ => d_one; m_log := fun a => a; m_exp := d_opp;
     m_pow := fun a b => if d_eq b d_one then a else d_one |}.
Lemma toy_good : good_libm toy_libm.
Proof.
  assert (F1 : fin d_one) by (vm_compute; reflexivity).
  unfold good_libm, by_value, toy_libm; cbn [m_sin m_cos m_log m_exp m_pow]. repeat split; auto.
  - apply (opp_cong b b). apply same_refl; assumption.
  - destruct (opp_cong a b) as (_ & _ & E); [repeat split; assumption|]. symmetry; exact E.
  - assert (Q : d_eq b d_one = d_eq b' d_one).
    { apply Bool.eq_iff_eq_true. rewrite !d_eq_fin by assumption. rewrite H4. tauto. }
    rewrite <- Q. destruct (d_eq b d_one); assumption.
  - assert (Q : d_eq b d_one = d_eq b' d_one).
    { apply Bool.eq_iff_eq_true. rewrite !d_eq_fin by assumption. rewrite H4. tauto. }
    rewrite <- Q. destruct (d_eq b d_one); congruence.
  - intros a b Fa Fb E. destruct (d_eq b d_one); [exact E|apply d_one_R].
  - intros a b Fa Fb E. assert (Q : d_eq b d_one = true) by (apply d_eq_fin; auto; rewrite E, d_one_R; reflexivity).
    rewrite Q. reflexivity.
Qed.
Definition ex_expr : expr d64 :=   (* (0 + x) * 1 + sin(2 * y - 0) / 1 *)
  EBin BAdd (EBin BMul (EBin BAdd (EConst d_zero) (EVar "x")) (EConst d_one))
            (EBin BDiv (EUn USin (EBin BSub (EBin BMul (EConst d_two) (EVar "y")) (EConst d_zero))) (EConst d_one)).
Example C70_ex :
  all_finite toy_libm (fun _ => d_two) ex_expr /\ has_node nested_product ex_expr = false /\
  (forall M fuel, simplify (EN := D_enum M) fuel ex_expr =
     Ret (EBin BAdd (EVar "x") (EUn USin (EBin BMul (EConst d_two) (EVar "y"))))).
Proof.
  split; [|split; [reflexivity|intros M fuel; rewrite simplify_scalar; [f_equal; vm_compute; reflexivity|]]].
  - unfold ex_expr. repeat (split; [vm_compute; reflexivity|]).
    repeat first [ exact I | discriminate | left; reflexivity | right | split | (vm_compute; reflexivity) ].
  - repeat split; unfold arith_op; auto 6.
Qed.

(** Where the hypotheses fail, so does the claim: 2^600 * (2^600 * x) is 2^200 at
    x = 2^-1000, but after simplification the constant factor is infinite; ... *)
Theorem C70_reassociation_refuted : forall M fuel,
  let k := EConst (d_lit 1 600) in
  let e := EBin BMul k (EBin BMul k (EVar "x")) in
  let env := fun _ => d_lit 1 (-1000) in
  all_finite M env e /\ d_eq (computed M env e) (d_lit 1 200) = true /\
  exists e', simplify (EN := D_enum M) fuel e = Ret e' /\ d_isinf (computed M env e') = true.
Proof.
  intros M fuel k e env. split; [|split; [vm_compute; reflexivity|]].
  - repeat first [ exact I | split; [vm_compute; reflexivity|] | split | right; right; left; reflexivity ].
  - exists (ssimp (EN := D_enum M) e). split; [apply simplify_scalar; repeat split; unfold arith_op; auto 6|].
    vm_compute. reflexivity.
Qed.
(** ... 0 * x is a NaN for an infinite x, but becomes 0; ... *)
Theorem C70_zero_times_infinity_refuted : forall M fuel env,
  let e := EBin BMul (EConst d_zero) (EVar "x") in
  env "x"%string = d_inf false ->
  d_isnan (computed M env e) = true /\ simplify (EN := D_enum M) fuel e = Ret (EConst d_zero).
Proof.
  intros M fuel env e E. split.
  - unfold e. cbn [computed d_bin]. rewrite E. vm_compute. reflexivity.
  - rewrite simplify_scalar by (repeat split; unfold arith_op; auto 6). reflexivity.
Qed.
(** ... and 1/(0 - x) is +infinity for x = 0, but becomes 1/(-x), which is -infinity. *)
Theorem C70_sign_of_zero_refuted : forall M fuel,
  let e := EBin BDiv (EConst d_one) (EBin BSub (EConst d_zero) (EVar "x")) in
  let env := fun _ => d_zero in
  computed M env e = d_inf false /\
  exists e', simplify (EN := D_enum M) fuel e = Ret e' /\ computed M env e' = d_inf true.
Proof.
  intros M fuel e env. split; [vm_compute; reflexivity|].
  exists (ssimp (EN := D_enum M) e). split; [apply simplify_scalar; repeat split; unfold arith_op; auto 6|].
  vm_compute. reflexivity.
Qed.
Print Assumptions C70_value_kept_partial.
Print Assumptions C70_evaluates.
Print Assumptions C70_reassociation_refuted.
Print Assumptions C70_zero_times_infinity_refuted.
Print Assumptions C70_sign_of_zero_refuted.

(* ------------------------------------------------------------------ *)
(** ** C30 in doubles: equality of expressions whose constants are doubles *)

Lemma d_eq_some a b : d_eq a b = true <-> Bcompare 53 1024 a b = Some Eq.
Proof.
  unfold d_eq, b64_compare. destruct (Bcompare 53 1024 a b) as [[]|]; split; intros E; try discriminate E; reflexivity.
Qed.
Lemma d_eq_sym a b : d_eq a b = true -> d_eq b a = true.
Proof. rewrite !d_eq_some. intros E. rewrite Bcompare_swap, E. reflexivity. Qed.
Lemma d_eq_trans a b c : d_eq a b = true -> d_eq b c = true -> d_eq a c = true.
Proof.
  intros E F.
  assert (Hf : forall x y, d_eq x y = true -> is_finite 53 1024 x = is_finite 53 1024 y).
  { intros x y G. rewrite d_eq_some in G. destruct x as [s|s|s p e|s m e B], y as [t|t|t q f|t n f B'];
      try reflexivity; cbn in G; try destruct s; try destruct t; discriminate G. }
  destruct (is_finite 53 1024 a) eqn:Fa.
  - pose proof (Hf a b E) as Fb. rewrite Fa in Fb. pose proof (Hf b c F) as Fc. rewrite <- Fb in Fc.
    rewrite d_eq_some in *. rewrite Bcompare_correct in * by auto.
    injection E as E. injection F as F. f_equal.
    apply Rcompare_Eq_inv in E. apply Rcompare_Eq_inv in F. apply Rcompare_Eq. lra.
  - pose proof (Hf a b E) as Fb. rewrite Fa in Fb. pose proof (Hf b c F) as Fc. rewrite <- Fb in Fc.
    rewrite d_eq_some in *.
    destruct a as [s|s|s p e|s m e B]; try discriminate Fa; destruct b as [t|t|t q f|t n f B']; try discriminate Fb;
      destruct c as [u|u|u r g|u o g B'']; try discriminate Fc; cbn in *; try destruct s; try destruct t; try destruct u;
      try discriminate E; try discriminate F; try reflexivity.
Qed.
Lemma d_eq_refl_iff c : d_eq c c = true <-> d_isnan c = false.
Proof.
  destruct c as [s|s|s p e|s m e B].
  - split; reflexivity.
  - destruct s; split; reflexivity.
  - split; intros E; discriminate E.
  - split; [reflexivity|]. intros _. apply d_eq_some. rewrite Bcompare_correct by reflexivity.
    f_equal. apply Rcompare_Eq. reflexivity.
Qed.

(** Equality is symmetric and transitive, and an expression equals itself exactly
    if no constant in it is a NaN. *)
Theorem C30_doubles : forall M : libm,
  (forall a : expr d64, dicts_ok a ->
     (eeqb (EN := D_enum M) a a = true <-> (forall c, In c (constants a) -> d_isnan c = false))) /\
  (forall a b : expr d64, dicts_ok a -> dicts_ok b ->
     eeqb (EN := D_enum M) a b = true -> eeqb (EN := D_enum M) b a = true) /\
  (forall a b c : expr d64, eeqb (EN := D_enum M) a b = true -> eeqb (EN := D_enum M) b c = true ->
     eeqb (EN := D_enum M) a c = true).
Proof.
  intros M. split; [|split].
  - intros a H. rewrite (eeqb_refl_iff (EN := D_enum M)) by exact H. split; intros A c Hc; apply d_eq_refl_iff; apply A; exact Hc.
  - intros a b. apply (eeqb_sym_gen (EN := D_enum M)). intros x y. apply d_eq_sym.
  - intros a b c. apply (eeqb_trans_gen (EN := D_enum M)). intros x y z. apply d_eq_trans.
Qed.
(** Equal expressions without dictionaries have equal hashes if std::hash<double>
    respects equality (0.0 and -0.0 hash alike, as the standard asks). *)
Theorem C30_doubles_hash_partial : forall (M : libm) hstr (hnum : d64 -> N) (a b : expr d64),
  (forall x y, d_eq x y = true -> hnum x = hnum y) ->
  dict_free a -> eeqb (EN := D_enum M) a b = true -> ehash hstr hnum a = ehash hstr hnum b.
Proof. intros M hstr hnum a b Hh. apply (ehash_eqb (EN := D_enum M)). exact Hh. Qed.
(** ... but two copies of an expression with a NaN constant are different (one
    object compared with itself: C30_same_object), and equal expressions need not
    have equal values. *)
Theorem C30_nan_refuted : forall M x, d_isnan x = true ->
  eeqb (EN := D_enum M) (EBin BAdd (EVar "x") (EConst x)) (EBin BAdd (EVar "x") (EConst x)) = false.
Proof.
  intros M x Hx. destruct (eeqb (EN := D_enum M) (EBin BAdd (EVar "x") (EConst x)) (EBin BAdd (EVar "x") (EConst x))) eqn:E; auto.
  assert (Hd : dicts_ok (EBin BAdd (EVar "x") (EConst x))) by (split; exact I).
  rewrite <- Hx. apply (proj1 (proj1 (C30_doubles M) _ Hd) E). cbn. auto.
Qed.
Theorem C30_signed_zero_refuted : forall M, exists a b : expr d64,
  eeqb (EN := D_enum M) a b = true /\
  forall env, computed M env a = d_inf false /\ computed M env b = d_inf true.
Proof.
  intros M. exists (EBin BDiv (EConst d_one) (EConst d_zero)), (EBin BDiv (EConst d_one) (EConst (d_opp d_zero))).
  split; [vm_compute; reflexivity|]. intros env. split; vm_compute; reflexivity.
Qed.
Example C30_doubles_ex : forall M,
  let a := EBin BMul (EConst d_zero) (EArr [EVar "x"; EConst d_one]) in
  let b := EBin BMul (EConst (d_opp d_zero)) (EArr [EVar "x"; EConst d_one]) in
  eeqb (EN := D_enum M) a b = true /\ a <> b /\ dicts_ok a /\ dict_free a /\
  (forall c, In c (constants a) -> d_isnan c = false).
Proof.
  intros M a b. split; [vm_compute; reflexivity|]. split; [unfold a, b; intros E; injection E as E; discriminate E|].
  split; [cbn; auto|]. split; [reflexivity|]. intros c [<- | [<- | []]]; vm_compute; reflexivity.
Qed.
(** The comparison stops early at operator, function, variable and dictionary
    nodes that are the same object.  Without NaN constants this changes no result:
    the theorems above are about the code's operator==. *)
Theorem C30_shortcut : forall (M : libm) (a b : aexpr d64),
  dicts_ok (tree a) -> (forall c, In c (constants (tree a)) -> d_isnan c = false) -> one_memory a b ->
  aeqb (EN := D_enum M) a b = eeqb (EN := D_enum M) (tree a) (tree b).
Proof.
  intros M a b Hd Hc Hm. apply (aeqb_tree (EN := D_enum M)); auto. intros c Hi. apply d_eq_refl_iff, Hc, Hi.
Qed.
(** With a NaN: an operator node equals itself, a constant or an array does not. *)
Theorem C30_same_object : forall (M : libm) p,
  (forall o l r, aeqb (EN := D_enum M) (ABin p o l r) (ABin p o l r) = true) /\
  (forall o a, aeqb (EN := D_enum M) (AUn p o a) (AUn p o a) = true) /\
  (forall d, aeqb (EN := D_enum M) (ADict p d) (ADict p d) = true) /\
  (forall c, aeqb (EN := D_enum M) (AConst p c) (AConst p c) = negb (d_isnan c)) /\
  (forall es e, In e es -> aeqb (EN := D_enum M) e e = false -> aeqb (EN := D_enum M) (AArr p es) (AArr p es) = false).
Proof.
  intros M p. split; [|split; [|split; [|split]]].
  - intros o l r. cbn [aeqb]. rewrite Nat.eqb_refl, (proj2 (bop_eqb_iff o o) eq_refl). reflexivity.
  - intros o a. cbn [aeqb]. rewrite Nat.eqb_refl, (proj2 (uop_eqb_iff o o) eq_refl). reflexivity.
  - intros d. cbn [aeqb]. rewrite Nat.eqb_refl. reflexivity.
  - intros c. cbn [aeqb]. change (neqb c c) with (d_eq c c). destruct (d_isnan c) eqn:E; cbn [negb].
    + destruct (d_eq c c) eqn:E'; auto. apply d_eq_refl_iff in E'. congruence.
    + apply d_eq_refl_iff; exact E.
  - intros es e Hi He. cbn [aeqb]. induction es as [|x es IH]; [destruct Hi|]. destruct Hi as [-> | Hi]; [rewrite He; reflexivity|].
    rewrite (IH Hi). apply Bool.andb_false_r.
Qed.
(** x + NaN: two copies differ, one object is equal to itself *)
Example C30_shortcut_ex : forall M x, d_isnan x = true ->
  let e p := ABin p BAdd (AVar (p + 1) "x") (AConst (p + 2) x) in
  aeqb (EN := D_enum M) (e 0%nat) (e 0%nat) = true /\ aeqb (EN := D_enum M) (e 0%nat) (e 10%nat) = false /\
  one_memory (AVar 3 "x" : aexpr d64) (ABin 5 BAdd (AVar 3 "x") (AConst 4 d_one)).
Proof.
  intros M x Hx e. split; [apply C30_same_object|]. split.
  - unfold e. cbn [aeqb Nat.add Nat.eqb orb]. change (neqb x x) with (d_eq x x). destruct (d_eq x x) eqn:E; [apply d_eq_refl_iff in E; congruence|].
    reflexivity.
  - intros s t Hs Ht. inversion Hs; subst. inversion Ht; subst; cbn [address].
    + discriminate.
    + match goal with H : node_of _ (AVar _ _) |- _ => inversion H; subst end. reflexivity.
    + match goal with H : node_of _ (AConst _ _) |- _ => inversion H; subst end. cbn. discriminate.
Qed.
Print Assumptions C30_shortcut.
Print Assumptions C30_same_object.
Print Assumptions C30_doubles.
Print Assumptions C30_doubles_hash_partial.
Print Assumptions C30_nan_refuted.
Print Assumptions C30_signed_zero_refuted.

(* ------------------------------------------------------------------ *)
(** ** C56 in doubles *)
Lemma dfind_numbers (env : string -> d64) vs y :
  In y vs -> dfind y (map (fun y => (y, EConst (env y))) vs) = Some (EConst (env y)).
Proof.
  induction vs as [|z vs IH]; intros H; [destruct H|]. cbn [map dfind]. destruct (String.eqb_spec y z) as [-> | Nz]; [reflexivity|].
  destruct H as [-> | H]; [contradiction|]. apply IH, H.
Qed.
Lemma subst_numbers M env vs (f : expr d64) : all_finite M env f ->
  (forall y, has_node (is_var y) f = true -> In y vs) ->
  let e := subst (fun y => dfind y (map (fun y => (y, EConst (env y))) vs)) f in
  all_finite M env e /\ has_node is_variable e = false /\ computed M env e = computed M env f.
Proof.
  induction f as [c|x|o a IHa|o l r IHl IHr|es IH|d IH] using expr_ind'; intros HF Hv; cbn [subst].
  - split; [exact HF|split; reflexivity].
  - rewrite dfind_numbers by (apply Hv; cbn; rewrite String.eqb_refl; reflexivity). split; [exact HF|split; reflexivity].
  - destruct HF as (F & Ho & HF). destruct (IHa HF) as (A1 & A2 & A3).
    { intros y Hy. apply Hv. cbn [has_node]. rewrite Hy. destruct (is_var y (EUn o a)); reflexivity. }
    cbn [computed all_finite has_node is_variable] in *. rewrite A3. repeat split; auto.
  - destruct HF as (F & Ho & HFl & HFr). destruct (IHl HFl) as (A1 & A2 & A3).
    { intros y Hy. apply Hv. cbn [has_node is_var]. rewrite Hy. reflexivity. }
    destruct (IHr HFr) as (B1 & B2 & B3).
    { intros y Hy. apply Hv. cbn [has_node is_var]. rewrite Hy. apply Bool.orb_true_r. }
    cbn [computed all_finite has_node is_variable] in *. rewrite A3, B3, A2, B2. repeat split; auto.
  - destruct HF as (_ & []).
  - destruct HF as (_ & []).
Qed.
(** sub(f, {x: ..., y: ...}) with doubles for all variables returns a float: the
    double obtained by doing the operations of f one by one (up to the sign of a
    zero), if all of these have a finite result. *)
Theorem C56_doubles : forall (M : libm) (env : string -> d64) (vs : list string) (fuel depth : nat) (f : expr d64),
  good_libm M -> all_finite M env f -> (forall y, has_node (is_var y) f = true -> In y vs) ->
  exists c, py_sub (EN := D_enum M) fuel (S depth) f (EDict (map (fun y => (y, EConst (env y))) vs)) = Ret (PyFloat c) /\
    d_eq c (computed M env f) = true.
Proof.
  intros M env vs fuel depth f HM HF Hv. destruct (subst_numbers M env vs f HF Hv) as (A1 & A2 & A3).
  destruct (C70_evaluates M env fuel _ HM A1 A2) as (c & Ec & Eq). exists c. split; [|rewrite <- A3; exact Eq].
  unfold py_sub. cbn [sub_expr obind to_python]. rewrite sub_dict_subst, Ec. reflexivity.
Qed.
Print Assumptions C56_doubles.
Example C56_doubles_ex : forall fuel depth, exists c,
  py_sub (EN := D_enum toy_libm) fuel (S depth) ex_expr (EDict (map (fun y => (y, EConst d_two)) ["x"; "y"]%string)) = Ret (PyFloat c) /\
  d_eq c (d_lit 6 0) = true.
Proof.
  intros fuel depth. destruct (C56_doubles toy_libm (fun _ => d_two) ["x"; "y"]%string fuel depth ex_expr toy_good) as (c & E1 & E2).
  - apply C70_ex.
  - intros y H. unfold ex_expr in H. cbn [has_node is_var] in H. rewrite !Bool.orb_false_r, !Bool.orb_false_l in H.
    apply Bool.orb_true_iff in H as [H|H]; apply String.eqb_eq in H; cbn; auto.
  - exists c. split; [exact E1|]. apply (d_eq_trans _ _ _ E2). vm_compute. reflexivity.
Qed.
