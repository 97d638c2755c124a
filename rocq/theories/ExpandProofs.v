(** expand keeps values. *)
From Coq Require Import ZArith Reals Lia Lra Bool List String.
From Verif Require Import Outcome Num PolySpec PolyModel PolyBase PolyProofs ExprModel ExprSpec ExprBase ExprDeriv ConstModel PropConst CtModel CtSpec CtProofs CtSimp ExpandModel ExpandSpec.
Import ListNotations.
Open Scope R_scope.

(** *** Integer polynomials are real polynomials *)
Lemma for_up_map {A B} (h : A -> B) (F : nat -> A -> A) (G : nat -> B -> B) n : forall lo s,
  (forall i s, h (F i s) = G i (h s)) -> h (for_up lo n F s) = for_up lo n G (h s).
Proof. induction n as [|n IH]; intros lo s E; cbn [for_up]; auto. rewrite IH by auto. now rewrite E. Qed.
Lemma map_upd {A B} (h : A -> B) l i v : map h (upd l i v) = upd (map h l) i (h v).
Proof. revert i. induction l as [|a l IH]; intros [|i]; cbn; auto. now rewrite IH. Qed.
Lemma get_IZR (l : list Z) i : get (map IZR l) i = IZR (get (H := Z_num) l i).
Proof. unfold get. change (@n0 R _) with (IZR (@n0 Z Z_num)). apply map_nth. Qed.
Lemma porder_map {A B} (h : A -> B) l : porder (map h l) = porder l.
Proof. unfold porder. now rewrite map_length. Qed.
Lemma zero_IZR n : map IZR (poly_zero (H := Z_num) n) = poly_zero n.
Proof. unfold poly_zero. induction (S n) as [|m IH]; cbn [repeat map]; auto. now rewrite IH. Qed.

Lemma mul_IZR a b : map IZR (poly_mul (H := Z_num) a b) = poly_mul (map IZR a) (map IZR b).
Proof.
  unfold poly_mul. rewrite !porder_map. rewrite <- zero_IZR. apply for_up_map. intros i s.
  apply for_up_map. intros j t. rewrite map_upd, !get_IZR. cbn [nadd nmul Z_num R_num]. now rewrite plus_IZR, mult_IZR.
Qed.
Lemma addsub_IZR (opz : Z -> Z -> Z) (opr : R -> R -> R) a b : (forall x y, IZR (opz x y) = opr (IZR x) (IZR y)) ->
  map IZR (poly_addsub (H := Z_num) opz a b) = poly_addsub opr (map IZR a) (map IZR b).
Proof.
  intros E. unfold poly_addsub. rewrite !porder_map. rewrite <- zero_IZR.
  rewrite (for_up_map (map IZR) _ (fun i r => upd r i (opr n0 (get (map IZR b) i)))).
  2:{ intros i s. rewrite map_upd, get_IZR, E. reflexivity. }
  f_equal. rewrite (for_up_map (map IZR) _ (fun i r => upd r i (opr (get (map IZR a) i) n0))).
  2:{ intros i s. rewrite map_upd, get_IZR, E. reflexivity. }
  f_equal. apply for_up_map. intros i s. rewrite map_upd, !get_IZR, E. reflexivity.
Qed.
Lemma varpow_IZR p : map IZR (poly_varpow (H := Z_num) p) = poly_varpow p.
Proof. unfold poly_varpow. now rewrite map_upd, zero_IZR. Qed.

Lemma ints_of_spec c a : ints_of c = Some a -> c = map RInt a.
Proof.
  revert a. induction c as [|k c IH]; cbn; intros a E; [injection E as <-; reflexivity|]. destruct k as [z|r]; [|discriminate].
  destruct (ints_of c) as [l|]; [|discriminate]. injection E as <-. cbn. f_equal. auto.
Qed.
Lemma reals_of_ints a : reals_of (map RInt a) = map IZR a.
Proof. unfold reals_of. rewrite map_map. reflexivity. Qed.
Lemma reals_of_dbl a : reals_of (map RDbl a) = a.
Proof. unfold reals_of. rewrite map_map. apply map_id. Qed.
Lemma reals_value c : map num_value c = reals_of c.
Proof. reflexivity. Qed.
Lemma reals_nil c : c <> [] -> reals_of c <> [].
Proof. destruct c; [contradiction|discriminate]. Qed.
Lemma reals_length c : length (reals_of c) = length c.
Proof. apply map_length. Qed.

(** the real coefficients of the result *)
Lemma xpoly_op_reals o f g : o = OAdd \/ o = OSub \/ o = OMul -> reals_of (xpoly_op o f g) =
  match o with OAdd => poly_add (reals_of f) (reals_of g) | OSub => poly_sub_op (reals_of f) (reals_of g)
  | _ => poly_mul (reals_of f) (reals_of g) end.
Proof.
  intros Ho. unfold xpoly_op. destruct (ints_of f) as [a|] eqn:Ef; [|apply reals_of_dbl].
  destruct (ints_of g) as [b|] eqn:Eg; [|apply reals_of_dbl]. apply ints_of_spec in Ef, Eg. subst f g.
  rewrite !reals_of_ints. destruct Ho as [-> | [-> | ->]].
  - apply addsub_IZR, plus_IZR.
  - apply addsub_IZR, minus_IZR.
  - apply mul_IZR.
Qed.
Lemma xpoly_op_length o f g : o = OAdd \/ o = OSub \/ o = OMul -> f <> [] -> g <> [] ->
  length (xpoly_op o f g) = match o with OMul => length f + length g - 1 | _ => Nat.max (length f) (length g) end%nat.
Proof.
  intros Ho Hf Hg. rewrite <- (reals_length (xpoly_op o f g)), <- (reals_length f), <- (reals_length g), xpoly_op_reals by auto.
  apply reals_nil in Hf, Hg. destruct Ho as [-> | [-> | ->]].
  - apply poly_add_correct; auto.
  - apply poly_sub_op_correct; auto.
  - apply poly_mul_correct; auto.
Qed.
Lemma xpoly_op_val o f g x v : o = OAdd \/ o = OSub \/ o = OMul -> f <> [] -> g <> [] ->
  binary_value o (pval (reals_of f) x) (pval (reals_of g) x) = Some v -> v = pval (reals_of (xpoly_op o f g)) x.
Proof.
  intros Ho Hf Hg Hv. rewrite xpoly_op_reals by auto. apply reals_nil in Hf, Hg.
  destruct Ho as [-> | [-> | ->]]; cbn [binary_value] in Hv; injection Hv as <-; symmetry.
  - apply poly_add_correct; auto.
  - apply poly_sub_op_correct; auto.
  - apply poly_mul_correct; auto.
Qed.
Lemma doubles_dbl l : doubles (map RDbl l).
Proof. intros k Hk. apply in_map_iff in Hk as (r & <- & _). eauto. Qed.
Lemma doubles_ints c : doubles c -> c <> [] -> ints_of c = None.
Proof. destruct c as [|k c]; [contradiction|]. intros D _. destruct (D k) as [r ->]; [now left|]. reflexivity. Qed.

(** conditions on coefficient lists *)
Definition fine (ints : bool) (c : list rnum) : Prop := c <> [] /\ (ints = false -> doubles c \/ (2 <= length c)%nat).
Lemma fine_op b o f g : o = OAdd \/ o = OSub \/ o = OMul -> fine b f -> fine b g -> fine b (xpoly_op o f g).
Proof.
  intros Ho [F1 F2] [G1 G2]. pose proof (xpoly_op_length o f g Ho F1 G1) as L.
  assert (Lf : (1 <= length f)%nat) by (destruct f; [contradiction|cbn; lia]).
  assert (Lg : (1 <= length g)%nat) by (destruct g; [contradiction|cbn; lia]).
  split.
  - intros E. rewrite E in L. cbn [length] in L. destruct Ho as [-> | [-> | ->]]; lia.
  - intros Eb. specialize (F2 Eb). specialize (G2 Eb).
    unfold xpoly_op in *. destruct (ints_of f) as [a|] eqn:Ef; [|left; apply doubles_dbl].
    destruct (ints_of g) as [c|] eqn:Eg; [|left; apply doubles_dbl].
    right. destruct F2 as [F2|F2]; [apply doubles_ints in F2; congruence|].
    destruct G2 as [G2|G2]; [apply doubles_ints in G2; congruence|].
    destruct Ho as [-> | [-> | ->]]; lia.
Qed.
Lemma xpoly_div_spec b f c q : b = false -> fine b f -> fine b [c] -> xpoly_div f c = Ret q ->
  fine b q /\ forall x v, binary_value ODiv (pval (reals_of f) x) (to_real c) = Some v -> v = pval (reals_of q) x.
Proof.
  intros -> [F1 F2] [_ C]. destruct (C eq_refl) as [D|D]; [|cbn in D; lia]. destruct (D c) as [r ->]; [now left|].
  intros H. assert (E : q = map RDbl (poly_div0 (reals_of f) r)).
  { unfold xpoly_div in H. destruct (ints_of f); injection H as <-; reflexivity. }
  clear H. subst q. split.
  - split; [|intros _; left; apply doubles_dbl]. intros E. apply map_eq_nil in E.
    assert (L : length (poly_div0 (reals_of f) r) = S (porder (reals_of f))).
    { unfold poly_div0. apply (for_up_inv (fun _ (s : list R) => length s = S (porder (reals_of f)))).
      - unfold poly_zero. apply repeat_length.
      - intros i s _ E'. now rewrite upd_length. }
    rewrite E in L. discriminate.
  - intros x v Hv. cbn [binary_value to_real] in Hv. destruct (Req_EM_T r 0) as [|N]; [discriminate|]. injection Hv as <-.
    rewrite reals_of_dbl. symmetry. apply poly_div0_correct; auto. now apply reals_nil.
Qed.
Lemma xpoly_neg_spec b f : fine b f -> fine b (xpoly_neg f) /\ forall x, pval (reals_of (xpoly_neg f)) x = - pval (reals_of f) x.
Proof.
  intros [F1 F2]. split.
  - split; [intros E; apply map_eq_nil in E; auto|]. intros Eb. destruct (F2 Eb) as [D|D].
    + left. intros k Hk. apply in_map_iff in Hk as (k' & <- & Hk'). destruct (D _ Hk') as [r ->]. cbn. eauto.
    + right. unfold xpoly_neg. now rewrite map_length.
  - intros x. rewrite <- poly_neg_correct. f_equal. unfold reals_of, xpoly_neg, poly_neg. rewrite !map_map.
    apply map_ext. intros [z|r]; cbn; auto. apply opp_IZR.
Qed.
Lemma xpoly_var_spec b : fine b xpoly_var /\ forall x, pval (reals_of xpoly_var) x = x.
Proof.
  split; [split; [discriminate|intros _; right; cbn; lia]|]. intros x. cbn. unfold pval. cbn. ring.
Qed.
Lemma xpoly_varpow_spec b p : (b = false -> (1 <= p)%nat) -> fine b (xpoly_varpow p) /\ forall x, pval (reals_of (xpoly_varpow p)) x = x ^ p.
Proof.
  intros Hp. assert (L : length (xpoly_varpow p) = S p).
  { unfold xpoly_varpow, poly_varpow. rewrite map_length, upd_length. apply repeat_length. }
  split.
  - split; [intros E; rewrite E in L; discriminate|]. intros Eb. right. specialize (Hp Eb). lia.
  - intros x. unfold xpoly_varpow. rewrite reals_of_ints, varpow_IZR. apply poly_varpow_correct.
Qed.
Lemma xpoly_mulvar_spec b f : fine b f -> fine b (xpoly_mulvar f) /\ forall x, pval (reals_of (xpoly_mulvar f)) x = pval (reals_of f) x * x.
Proof.
  intros [F1 F2]. unfold xpoly_mulvar. destruct (ints_of f) as [a|] eqn:E.
  - apply ints_of_spec in E. subst f. split.
    + split; [discriminate|]. intros _. right. cbn. destruct a; [contradiction|cbn; lia].
    + intros x. rewrite !reals_of_ints. cbn [poly_mulvar map]. change (IZR (@n0 Z Z_num)) with 0. rewrite pval_cons. ring.
  - split.
    + split; [discriminate|]. intros _. left. apply doubles_dbl.
    + intros x. rewrite reals_of_dbl. rewrite poly_mulvar_correct. ring.
Qed.

(** *** Literals *)
Lemma lit_results_fun o a e : uapply (uop_of o) a = Ret e -> match a with TC _ _ | TNum _ => True | _ => False end ->
  match e with TC _ _ | TNum _ => True | _ => False end.
Proof.
  unfold uapply. intros H L. destruct a as [n d|k| | |]; try contradiction.
  - destruct o; cbn [uop_of] in H; try (injection H as <-; exact I);
      (apply obind_ret in H as (c & _ & H); destruct c; [injection H as <-; exact I|discriminate]).
  - destruct o; cbn [uop_of] in H; injection H as <-; exact I.
Qed.
Definition is_lit (e : cexpr) : Prop := match e with TC _ _ | TNum _ => True | _ => False end.
(** two literals always reduce, to a literal *)
Lemma lit_results o a b : is_lit a -> is_lit b -> forall c, creduce o a b = Ret c -> exists e, c = Some e /\ is_lit e.
Proof.
  intros La Lb c H. destruct a as [n d|k| | |]; try contradiction; destruct b as [n' d'|k'| | |]; try contradiction.
  - destruct o; cbn in H.
    5:{ destruct (d' =? 1)%Z; [discriminate|]. injection H as <-. eexists; split; [reflexivity|exact I]. }
    all: apply obind_ret in H as (q & _ & H); injection H as <-; eexists; split; [reflexivity|exact I].
  - destruct o; cbn in H.
    1-4: unfold is_null, is_unity in H;
      repeat match type of H with context [if ?c then _ else _] => destruct c end; cbn in H; injection H as <-; eexists; (split; [reflexivity|exact I]).
    injection H as <-. eexists; split; [reflexivity|exact I].
  - destruct o; cbn in H.
    1-4: unfold is_null, is_unity in H;
      repeat match type of H with context [if ?c then _ else _] => destruct c end; cbn in H; injection H as <-; eexists; (split; [reflexivity|exact I]).
    repeat match type of H with context [if ?c then _ else _] => destruct c end; injection H as <-; eexists; (split; [reflexivity|exact I]).
  - destruct o; cbn [creduce cop_of] in H; cbn [reduce_null is_null is_unity reduce_num] in H.
    1-4: apply obind_ret in H as (q & _ & H); injection H as <-; eexists; split; [reflexivity|exact I].
    cbn in H. injection H as <-. eexists; split; [reflexivity|exact I].
Qed.

Lemma lit_of_lit e c : lit_of e = Some c -> is_lit c /\ e = of_lit c.
Proof. destruct e; cbn; try discriminate; intros E; injection E as <-; split; auto; exact I. Qed.
Lemma lit_value ok rho c v : is_lit c -> (xvalue ok rho (of_lit c) v <-> cval ok rho c v).
Proof. destruct c as [n d|k| | |]; try contradiction; intros _; cbn; [reflexivity|]. destruct k; reflexivity. Qed.
Lemma lit_untruncated b c : is_lit c -> (untruncated b (of_lit c) <-> no_truncation b c).
Proof. destruct c as [n d|k| | |]; try contradiction; intros _; reflexivity. Qed.
Lemma lit_vars c : xvars (of_lit c) = [].
Proof. destruct c; reflexivity. Qed.
Lemma lit_unmixed c : unmixed (of_lit c).
Proof. destruct c; exact I. Qed.
Lemma xnull_eq e : xnull e = true -> e = XC 0 1.
Proof. destruct e; cbn; try discriminate. rewrite andb_true_iff, !Z.eqb_eq. intros [-> ->]. reflexivity. Qed.
Lemma xunity_eq e : xunity e = true -> e = XC 1 1.
Proof. destruct e; cbn; try discriminate. rewrite andb_true_iff, !Z.eqb_eq. intros [-> ->]. reflexivity. Qed.
Lemma xval_0 ok rho v : xvalue ok rho (XC 0 1) v <-> v = 0.
Proof. cbn. split; [intros [_ ->]; lra|intros ->; split; [discriminate|lra]]. Qed.
Lemma xval_1 ok rho v : xvalue ok rho (XC 1 1) v <-> v = 1.
Proof. cbn. split; [intros [_ ->]; lra|intros ->; split; [discriminate|lra]]. Qed.

Section Keeps.
Variables (ok : R -> Prop) (b : bool).
Hypothesis T : ok_table ok.

Definition good (e : pexpr) : Prop := untruncated b e /\ unmixed e.
Definition xkeeps (e e' : pexpr) : Prop :=
  good e' /\ incl (xvars e') (xvars e) /\ forall rho v, xvalue ok rho e v -> xvalue ok rho e' v.
Lemma xkeeps_refl e : good e -> xkeeps e e.
Proof. intros G. split; auto. split; auto. intros x; auto. Qed.
Lemma xkeeps_trans x y z : xkeeps x y -> (good y -> xkeeps y z) -> xkeeps x z.
Proof.
  intros (A1 & A2 & A3) B. destruct (B A1) as (B1 & B2 & B3). split; auto. split; auto. eapply incl_tran; eauto.
Qed.
Lemma one_incl e e' : incl (xvars e') (xvars e) -> one_variable e -> one_variable e'.
Proof. intros I O x y Hx Hy. apply O; auto. Qed.

(** *** Operators *)
Lemma xfun_keeps o a a' e : xfun o a' = Ret e -> xkeeps a a' -> xkeeps (XFun o a) e.
Proof.
  intros H ((U & M) & V & K). unfold xfun in H. destruct (lit_of a') as [c|] eqn:El.
  - apply lit_of_lit in El as [L ->]. apply obind_ret in H as (r & Hr & E). injection E as <-.
    pose proof (lit_results_fun _ _ _ Hr L) as L'. split; [|split].
    + split; [|apply lit_unmixed]. apply lit_untruncated; auto. eapply uapply_nt; eauto. apply lit_untruncated; auto.
    + rewrite lit_vars. intros x [].
    + intros rho v (u & Hu & Hv). apply lit_value; auto. apply K in Hu. apply lit_value in Hu; auto.
      eapply uapply_val; eauto.
      * intros Ho n d ->. apply T. destruct o; cbn in Ho; destruct Ho; try discriminate; apply Hv.
      * destruct o; exact Hv.
  - assert (G : e = XFun o a' -> xkeeps (XFun o a) e).
    { intros ->. split; [split; [exact U|exact M]|]. split; [exact V|]. intros rho v (u & Hu & Hv). exists u. auto. }
    destruct o; try (apply G; congruence). destruct a' as [n d|k|x|x f|p c|p l r]; try (apply G; congruence).
    injection H as <-. clear G. destruct (xpoly_neg_spec b f U) as [F P]. split; [split; [exact F|exact I]|]. split; [exact V|].
    intros rho v (u & Hu & ->). apply K in Hu. cbn [xvalue] in *. subst u. rewrite !reals_value, P. reflexivity.
Qed.
Lemma both_ints_lit c d : untruncated b (of_lit c) -> b = false -> ~ both_ints c d.
Proof. intros U -> (x & y & -> & _). discriminate U. Qed.

Lemma xreduce_null_keeps o l r l' r' e : xreduce_null o l' r' = Ret (Some e) ->
  xkeeps l l' -> xkeeps r r' -> xkeeps (XBin o l r) e.
Proof.
  intros H Kl Kr. pose proof Kl as (Gl & Vl & Wl). pose proof Kr as (Gr & Vr & Wr).
  assert (Il : incl (xvars l') (xvars (XBin o l r))) by (cbn; apply incl_appl; auto).
  assert (Ir : incl (xvars r') (xvars (XBin o l r))) by (cbn; apply incl_appr; auto).
  assert (L : (forall rho u w v, xvalue ok rho l' u -> xvalue ok rho r' w -> binary_value o u w = Some v -> u = v) -> xkeeps (XBin o l r) l').
  { intros E. split; auto. split; auto. intros rho v (u & w & Hu & Hw & Hv). apply Wl in Hu. apply Wr in Hw. now rewrite <- (E _ _ _ _ Hu Hw Hv). }
  assert (R' : (forall rho u w v, xvalue ok rho l' u -> xvalue ok rho r' w -> binary_value o u w = Some v -> w = v) -> xkeeps (XBin o l r) r').
  { intros E. split; auto. split; auto. intros rho v (u & w & Hu & Hw & Hv). apply Wl in Hu. apply Wr in Hw. now rewrite <- (E _ _ _ _ Hu Hw Hv). }
  assert (N : (forall rho u w v, xvalue ok rho l' u -> xvalue ok rho r' w -> binary_value o u w = Some v -> v = 0) -> xkeeps (XBin o l r) (XC 0 1)).
  { intros E. split; [split; exact I|]. split; [intros x []|]. intros rho v (u & w & Hu & Hw & Hv). apply Wl in Hu. apply Wr in Hw. apply xval_0. eauto. }
  unfold xreduce_null in H. destruct o.
  - destruct (xnull r') eqn:Er.
    { injection H as <-. apply L. intros rho u w v Hu Hw Hv. apply xnull_eq in Er. subst r'. apply xval_0 in Hw. cbn in Hv. injection Hv as <-. lra. }
    destruct (xnull l') eqn:El; [|discriminate]. injection H as <-. apply R'. intros rho u w v Hu Hw Hv. apply xnull_eq in El. subst l'.
    apply xval_0 in Hu. cbn in Hv. injection Hv as <-. lra.
  - destruct (xnull r') eqn:Er.
    { injection H as <-. apply L. intros rho u w v Hu Hw Hv. apply xnull_eq in Er. subst r'. apply xval_0 in Hw. cbn in Hv. injection Hv as <-. lra. }
    destruct (xnull l') eqn:El; [|discriminate]. apply obind_ret in H as (n & Hn & E). injection E as <-.
    destruct (xfun_keeps FNeg r r' n Hn Kr) as (G & V & W). split; auto. split; [cbn in V |- *; intros x Hx; apply in_or_app; right; auto|].
    intros rho v (u & w & Hu & Hw & Hv). apply W. exists w. split; auto. apply Wl in Hu. apply xnull_eq in El. subst l'.
    apply xval_0 in Hu. cbn in Hv. injection Hv as <-. lra.
  - destruct (xnull r') eqn:Er.
    { injection H as <-. apply N. intros rho u w v Hu Hw Hv. apply xnull_eq in Er. subst r'. apply xval_0 in Hw. cbn in Hv. injection Hv as <-. subst; ring. }
    destruct (xnull l') eqn:El.
    { injection H as <-. apply N. intros rho u w v Hu Hw Hv. apply xnull_eq in El. subst l'. apply xval_0 in Hu. cbn in Hv. injection Hv as <-. subst; ring. }
    destruct (xunity r') eqn:Ur.
    { injection H as <-. apply L. intros rho u w v Hu Hw Hv. apply xunity_eq in Ur. subst r'. apply xval_1 in Hw. cbn in Hv. injection Hv as <-. subst; ring. }
    destruct (xunity l') eqn:Ul; [|discriminate].
    injection H as <-. apply R'. intros rho u w v Hu Hw Hv. apply xunity_eq in Ul. subst l'. apply xval_1 in Hu. cbn in Hv. injection Hv as <-. subst; ring.
  - discriminate.
  - destruct (xunity r') eqn:Ur; [|discriminate]. injection H as <-. apply L. intros rho u w v Hu Hw Hv. apply xunity_eq in Ur. subst r'.
    apply xval_1 in Hw. subst w. cbn in Hv. rewrite npow_1 in Hv. congruence.
Qed.
Lemma xreduce_keeps o l r l' r' e : xreduce o l' r' = Ret (Some e) -> (o = ODiv -> b = false) ->
  xkeeps l l' -> xkeeps r r' -> xkeeps (XBin o l r) e.
Proof.
  intros H Ho Kl Kr. unfold xreduce in H.
  destruct (lit_of l') as [cl|] eqn:El; [destruct (lit_of r') as [cr|] eqn:Er|]; try (eapply xreduce_null_keeps; eauto; fail).
  destruct Kl as ((Ul & Ml) & Vl & Kl), Kr as ((Ur & Mr) & Vr & Kr).
  apply lit_of_lit in El as [Ll ->]. apply lit_of_lit in Er as [Lr ->].
  apply obind_ret in H as (c & Hc & H). destruct (lit_results o cl cr Ll Lr c Hc) as (q & -> & Lq). injection H as <-.
  split; [|split].
  - split; [|apply lit_unmixed]. apply lit_untruncated; auto. eapply creduce_nt; eauto; apply lit_untruncated; auto.
  - rewrite lit_vars. intros x [].
  - intros rho v (u & w & Hu & Hw & Hv). apply lit_value; auto. apply Kl in Hu. apply Kr in Hw. apply lit_value in Hu, Hw; auto.
    eapply creduce_val; eauto. intros E. apply both_ints_lit; auto.
Qed.

(** what a node with new operands must satisfy *)
Definition atom (e : pexpr) : Prop := match e with XC _ _ | XNum _ | XPoly _ _ => True | _ => False end.
Definition exponent_fine (l r : pexpr) : Prop :=
  match r with
  | XC n d => (0 < n)%Z /\ (0 < d)%Z
  | XNum _ => True
  | XVar _ | XPoly _ _ => match l with XC _ _ | XNum _ | XPoly _ _ => True | _ => False end
  | _ => False
  end.
Definition node_ok (o : aop) (l r : pexpr) (l' r' : pexpr) : Prop :=
  (o = ODiv -> b = false) /\ (o = OMul -> one_variable (XBin o l r)) /\ (o = OPow -> one_variable l) /\
  (o = OPow -> b = false -> exponent_fine l' r').
Lemma node_one o l r l' r' : node_ok o l r l' r' -> o = OMul -> one_variable (XBin o l r).
Proof. intros N. apply N. Qed.
Lemma node_keeps o l r l' r' : node_ok o l r l' r' -> xkeeps l l' -> xkeeps r r' -> xkeeps (XBin o l r) (XBin o l' r').
Proof.
  intros (O1 & O2 & O3 & O4) ((Ul & Ml) & Vl & Kl) ((Ur & Mr) & Vr & Kr).
  assert (V : incl (xvars (XBin o l' r')) (xvars (XBin o l r))) by (cbn; apply incl_app; [apply incl_appl|apply incl_appr]; auto).
  split; [split|split; auto].
  - cbn [untruncated]. split; auto.
  - cbn [unmixed]. split; auto. split; auto. split; intros E.
    + apply (one_incl (XBin o l r)); auto.
    + apply (one_incl l); auto.
  - intros rho v (u & w & Hu & Hw & Hv). exists u, w. auto.
Qed.
Lemma xapply_keeps o l r l' r' e : xapply o l' r' = Ret e -> node_ok o l r l' r' -> xkeeps l l' -> xkeeps r r' -> xkeeps (XBin o l r) e.
Proof.
  intros H N Kl Kr. unfold xapply in H. apply obind_ret in H as (x & Hx & E). injection E as <-.
  destruct x as [e|]; [eapply xreduce_keeps; eauto; apply N|apply node_keeps; auto].
Qed.
Lemma good_node o l r : good (XBin o l r) -> good l /\ good r /\ node_ok o l r l r.
Proof.
  intros [(U1 & U2 & U3 & U4) (M1 & M2 & M3 & M4)]. split; [split; auto|]. split; [split; auto|].
  split; auto.
Qed.
(** rewriting of the whole node by a law of arithmetic *)
Lemma xkeeps_law e e' : good e' -> incl (xvars e') (xvars e) ->
  (forall rho v, xvalue ok rho e v -> xvalue ok rho e' v) -> xkeeps e e'.
Proof. split; auto. Qed.
Lemma xassoc_law o x y z : associative o = true -> good (XBin o (XBin o x y) z) ->
  xkeeps (XBin o (XBin o x y) z) (XBin o x (XBin o y z)).
Proof.
  intros A G. apply good_node in G as (G1 & G2 & N). apply good_node in G1 as (G3 & G4 & N').
  assert (V : incl (xvars (XBin o x (XBin o y z))) (xvars (XBin o (XBin o x y) z))) by (cbn; rewrite app_assoc; apply incl_refl).
  assert (B : o <> ODiv /\ o <> OPow) by (destruct o; try discriminate; split; discriminate). destruct B as [B1 B2].
  apply xkeeps_law; auto.
  - split; cbn [untruncated unmixed].
    + repeat split; try (apply G2 || apply G3 || apply G4); intros; contradiction.
    + split; [apply G3|]. split; [|split; [|intros; contradiction]].
      * split; [apply G4|]. split; [apply G2|]. split; [|intros; contradiction]. intros E.
        eapply one_incl; [|exact (node_one _ _ _ _ _ N E)]. cbn. rewrite <- app_assoc. apply incl_appr, incl_refl.
      * intros E. eapply one_incl; [|exact (node_one _ _ _ _ _ N E)]. exact V.
  - intros rho v (u & w & (p & q & Hp & Hq & Hu) & Hw & Hv).
    destruct o; try discriminate; cbn [binary_value] in *; injection Hu as <-; injection Hv as <-;
      (eexists p, _; split; [exact Hp|split; [exists q, w; split; [exact Hq|split; [exact Hw|reflexivity]]|cbn [binary_value]; f_equal; ring]]).
Qed.
Lemma xassoc_law' o x y z : associative o = true -> good (XBin o x (XBin o y z)) ->
  xkeeps (XBin o x (XBin o y z)) (XBin o (XBin o x y) z).
Proof.
  intros A G. apply good_node in G as (G1 & G2 & N). apply good_node in G2 as (G3 & G4 & N').
  assert (V : incl (xvars (XBin o (XBin o x y) z)) (xvars (XBin o x (XBin o y z)))) by (cbn; rewrite app_assoc; apply incl_refl).
  assert (B : o <> ODiv /\ o <> OPow) by (destruct o; try discriminate; split; discriminate). destruct B as [B1 B2].
  apply xkeeps_law; auto.
  - split; cbn [untruncated unmixed].
    + repeat split; try (apply G1 || apply G3 || apply G4); intros; contradiction.
    + split; [|split; [apply G4|split; [|intros; contradiction]]].
      * split; [apply G1|]. split; [apply G3|]. split; [|intros; contradiction]. intros E.
        eapply one_incl; [|exact (node_one _ _ _ _ _ N E)]. cbn. rewrite app_assoc. apply incl_appl, incl_refl.
      * intros E. eapply one_incl; [|exact (node_one _ _ _ _ _ N E)]. exact V.
  - intros rho v (u & w & Hu & (p & q & Hp & Hq & Hw) & Hv).
    destruct o; try discriminate; cbn [binary_value] in *; injection Hw as <-; injection Hv as <-;
      (eexists _, q; split; [exists u, p; split; [exact Hu|split; [exact Hp|reflexivity]]|split; [exact Hq|cbn [binary_value]; f_equal; ring]]).
Qed.
Lemma xcomm_law o x y : associative o = true -> good (XBin o x y) -> xkeeps (XBin o x y) (XBin o y x).
Proof.
  intros A G. apply good_node in G as (G1 & G2 & N).
  assert (V : incl (xvars (XBin o y x)) (xvars (XBin o x y))).
  { cbn. intros z Hz. apply in_app_or in Hz. apply in_or_app. tauto. }
  assert (B : o <> ODiv /\ o <> OPow) by (destruct o; try discriminate; split; discriminate). destruct B as [B1 B2].
  apply xkeeps_law; auto.
  - split; cbn [untruncated unmixed].
    + repeat split; try (apply G1 || apply G2); intros; contradiction.
    + split; [apply G2|]. split; [apply G1|]. split; [|intros; contradiction]. intros E. eapply one_incl; [exact V|exact (node_one _ _ _ _ _ N E)].
  - intros rho v (u & w & Hu & Hw & Hv). exists w, u. split; auto. split; auto.
    destruct o; try discriminate; cbn [binary_value] in *; injection Hv as <-; f_equal; ring.
Qed.

(** *** The rules *)
Section Rules.
Variables (cfg : config) (self : pexpr -> outcome (option pexpr)).
Hypothesis IH : forall e e', self e = Ret (Some e') -> good e -> xkeeps e e'.
Hypothesis consts : to_polys cfg = true -> forall n d, self (XC n d) <> Ret None.
(** an exponent stays an exponent *)
Hypothesis atoms : forall e e', self e = Ret (Some e') -> atom e -> atom e'.
Hypothesis exps : forall l e e', self e = Ret (Some e') -> exponent_fine l e -> exponent_fine l e'.

Lemma xtry_keeps e e' : xtry self e = Ret e' -> good e -> xkeeps e e'.
Proof.
  unfold xtry. intros H N. apply obind_ret in H as (r & Hr & E). injection E as <-.
  destruct r as [x|]; [apply IH; auto|apply xkeeps_refl; auto].
Qed.
Lemma xsome_ret m e : xsome m = Ret (Some e) -> m = Ret e.
Proof. unfold xsome. intros H. apply obind_ret in H as (x & -> & E). congruence. Qed.
Lemma xapply_try o l r l' r' e : (do q <- xapply o l' r'; xtry self q) = Ret e -> node_ok o l r l' r' ->
  xkeeps l l' -> xkeeps r r' -> xkeeps (XBin o l r) e.
Proof.
  intros H Ho Kl Kr. apply obind_ret in H as (q & Hq & H).
  eapply xkeeps_trans; [eapply xapply_keeps; eauto|]. intros N. apply xtry_keeps; auto.
Qed.
Lemma xsplit_spec o e x y : xsplit o e = Some (x, y) -> e = XBin o x y.
Proof.
  destruct e as [| | | | |p l r]; cbn; try discriminate. destruct o, p; cbn; try discriminate; intros E; injection E as -> ->; reflexivity.
Qed.
Lemma node_ok_assoc o l r l' r' : associative o = true -> (o = OMul -> one_variable (XBin o l r)) -> node_ok o l r l' r'.
Proof. intros A O. destruct o; try discriminate; repeat split; try discriminate; auto. Qed.

Lemma to_arithmetic_num e k : to_arithmetic e = Some k -> (forall n d, e <> XC n d) -> e = XNum k.
Proof. destruct e; cbn; try discriminate; intros E N; [exfalso; eapply N; reflexivity|congruence]. Qed.
Lemma const_good x k : good (XNum k) -> good (XPoly x [k]).
Proof.
  intros [U _]. split; [|exact I]. cbn [untruncated]. split; [discriminate|]. intros Eb. left. intros q [<-|[]].
  destruct k as [z|r]; [cbn [untruncated] in U; congruence|eauto].
Qed.
Lemma const_value ok' rho x k : xvalue ok' rho (XPoly x [k]) (num_value k).
Proof. cbn [xvalue map]. rewrite pval_cons, pval_nil. ring. Qed.
Lemma constant_rule_keeps o l r e : constant_rule cfg self o l r = Ret (Some e) -> self l = Ret None -> self r = Ret None ->
  good (XBin o l r) -> xkeeps (XBin o l r) e.
Proof.
  intros H Sl Sr G. unfold constant_rule in H. destruct (to_polys cfg) eqn:C; [|discriminate].
  pose proof G as GG. apply good_node in G as (Gl & Gr & N).
  assert (CL : forall x f k, l = XPoly x f -> r = XNum k ->
    xsome (do q <- xapply o l (XPoly x [k]); xtry self q) = Ret (Some e) -> xkeeps (XBin o l r) e).
  { intros x f k -> -> H'. apply xsome_ret in H'. apply obind_ret in H' as (q & Hq & H').
    assert (G' : good (XBin o (XPoly x f) (XPoly x [k]))).
    { destruct (const_good x k Gr) as [U M]. destruct N as (N1 & N2 & N3 & N4). split.
      - cbn [untruncated]. split; [apply Gl|]. split; [exact U|]. split; auto.
      - cbn [unmixed]. repeat split; auto. intros E. intros y z Hy Hz. cbn in Hy, Hz. intuition congruence. }
    eapply xkeeps_trans; [|intros M; eapply xtry_keeps; eauto].
    eapply xkeeps_trans with (y := XBin o (XPoly x f) (XPoly x [k])).
    - split; auto. split.
      + cbn. intros y Hy. cbn in Hy. left. intuition.
      + intros rho v (u & w & Hu & Hw & Hv). exists u, w. split; auto. split; auto. cbn [xvalue] in Hw. subst w. apply const_value.
    - intros G2. apply good_node in G2 as (G3 & G4 & N'). eapply xapply_keeps; eauto; apply xkeeps_refl; auto. }
  assert (CR : forall x f k, r = XPoly x f -> l = XNum k ->
    xsome (do q <- xapply o (XPoly x [k]) r; xtry self q) = Ret (Some e) -> xkeeps (XBin o l r) e).
  { intros x f k -> -> H'. apply xsome_ret in H'. apply obind_ret in H' as (q & Hq & H').
    assert (G' : good (XBin o (XPoly x [k]) (XPoly x f))).
    { destruct (const_good x k Gl) as [U M]. destruct N as (N1 & N2 & N3 & N4). split.
      - cbn [untruncated]. split; [exact U|]. split; [apply Gr|]. split; auto.
      - cbn [unmixed]. split; auto. split; auto. split; intros E y z Hy Hz; cbn in Hy, Hz; intuition congruence. }
    eapply xkeeps_trans; [|intros M; eapply xtry_keeps; eauto].
    eapply xkeeps_trans with (y := XBin o (XPoly x [k]) (XPoly x f)).
    - split; auto. split.
      + cbn. intros y Hy. cbn in Hy. left. intuition.
      + intros rho v (u & w & Hu & Hw & Hv). exists u, w. split; auto. cbn [xvalue] in Hu. subst u. apply const_value.
    - intros G2. apply good_node in G2 as (G3 & G4 & N'). eapply xapply_keeps; eauto; apply xkeeps_refl; auto. }
  assert (NC : forall n d, self (XC n d) <> Ret None) by (apply consts; auto).
  destruct l as [n d|k|x|x f|p a|p a c]; try discriminate.
  - destruct r as [n' d'|k'|x'|x' f'|p' a'|p' a' c']; try discriminate. exfalso. eapply NC; eauto.
  - destruct r as [n' d'|k'|x'|x' f'|p' a'|p' a' c']; try discriminate. cbn [to_arithmetic] in H. eapply CR; eauto.
  - destruct r; discriminate.
  - destruct (to_arithmetic r) as [k|] eqn:Ea; [|discriminate]. apply to_arithmetic_num in Ea; [subst r; eapply CL; eauto|].
    intros n d ->. eapply NC; eauto.
  - destruct r; discriminate.
  - destruct r; discriminate.
Qed.

Lemma xreorder7_keeps o l r e : associative o = true -> xreorder7 cfg self o l r = Ret (Some e) -> self l = Ret None -> self r = Ret None ->
  good (XBin o l r) -> xkeeps (XBin o l r) e.
Proof.
  intros A H Sl Sr G. unfold xreorder7 in H. apply obind_ret in H as (x & Hx & H). apply obind_ret in H as (y & Hy & H).
  destruct x as [s|].
  - destruct y; [discriminate|]. destruct (xsplit o l) as [[l1 l2]|] eqn:El; [|discriminate]. apply xsplit_spec in El. subst l.
    apply xsome_ret in H.
    eapply xkeeps_trans; [apply xassoc_law; auto|]. intros M. pose proof M as M'. apply good_node in M' as (M1 & M2 & N).
    eapply xkeeps_trans; [apply (node_keeps o _ _ l1 (XBin o r l2));
      [apply node_ok_assoc; auto; apply N|apply xkeeps_refl; auto|apply xcomm_law; auto]|]. intros M3.
    eapply xkeeps_trans; [apply xassoc_law'; auto|]. intros M4. apply good_node in M4 as (M5 & M6 & N').
    eapply xapply_try; eauto; [apply node_ok_assoc; auto; apply N'|apply xkeeps_refl; auto].
  - destruct y as [s|]; [|eapply constant_rule_keeps; eauto].
    destruct (xsplit o r) as [[r1 r2]|] eqn:Er; [|discriminate]. apply xsplit_spec in Er. subst r.
    apply xsome_ret in H. pose proof G as G'. apply good_node in G' as (M1 & M2 & N).
    eapply xkeeps_trans; [apply (node_keeps o l (XBin o r1 r2) l (XBin o r2 r1));
      [apply node_ok_assoc; auto; apply N|apply xkeeps_refl; auto|apply xcomm_law; auto]|]. intros M.
    eapply xkeeps_trans; [apply xassoc_law'; auto|]. intros M4. apply good_node in M4 as (M5 & M6 & N').
    eapply xapply_try; eauto; [apply node_ok_assoc; auto; apply N'|apply xkeeps_refl; auto].
Qed.
Lemma xreorder6_keeps o l r e : associative o = true -> xreorder6 cfg self o l r = Ret (Some e) -> self l = Ret None -> self r = Ret None ->
  good (XBin o l r) -> xkeeps (XBin o l r) e.
Proof.
  intros A H Sl Sr G. unfold xreorder6 in H. apply obind_ret in H as (x & Hx & H). apply obind_ret in H as (y & Hy & H).
  destruct x as [s|].
  - destruct y; [discriminate|]. destruct (xsplit o l) as [[l1 l2]|] eqn:El; [|discriminate]. apply xsplit_spec in El. subst l.
    apply xsome_ret in H.
    eapply xkeeps_trans; [apply xassoc_law; auto|]. intros M. apply good_node in M as (M1 & M2 & N).
    eapply xapply_try; eauto; [apply node_ok_assoc; auto; apply N|apply xkeeps_refl; auto].
  - destruct y as [s|].
    + destruct (xsplit o r) as [[r1 r2]|] eqn:Er; [|discriminate]. apply xsplit_spec in Er. subst r.
      apply xsome_ret in H.
      eapply xkeeps_trans; [apply xassoc_law'; auto|]. intros M. apply good_node in M as (M1 & M2 & N).
      eapply xapply_try; eauto; [apply node_ok_assoc; auto; apply N|apply xkeeps_refl; auto].
    + eapply xreorder7_keeps; eauto.
Qed.
Lemma xargument_keeps o l r e : xargument_rules cfg self o l r = Ret (Some e) -> good (XBin o l r) -> xkeeps (XBin o l r) e.
Proof.
  intros H G. unfold xargument_rules in H. apply obind_ret in H as (ml & Hl & H). apply obind_ret in H as (mr & Hr & H).
  pose proof G as G'. apply good_node in G' as (Gl & Gr & N).
  assert (B : forall l' r', ml = Some l' -> exponent_fine l r' -> exponent_fine l' r').
  { intros l' r' ->. unfold exponent_fine. destruct r'; auto; intros X; apply (atoms _ _ Hl X). }
  assert (N0 : forall r', mr = Some r' -> node_ok o l r l r').
  { intros r' ->. destruct N as (N1 & N2 & N3 & N4). split; auto. split; auto. split; auto. intros E Eb. eapply exps; eauto. }
  assert (N1 : forall l' r', ml = Some l' -> mr = Some r' -> node_ok o l r l' r').
  { intros l' r' E1 E2. destruct (N0 r' E2) as (N1 & N2 & N3 & N4). split; auto. }
  assert (N2 : forall l', ml = Some l' -> node_ok o l r l' r).
  { intros l' E. destruct N as (N3 & N2 & N4 & N5). split; auto. }
  destruct ml as [l'|]; [destruct mr as [r'|]|destruct mr as [r'|]].
  - apply xsome_ret in H. eapply xapply_try; eauto.
  - apply xsome_ret in H. eapply xapply_try; eauto. apply xkeeps_refl; auto.
  - apply xsome_ret in H. eapply xapply_try; eauto. apply xkeeps_refl; auto.
  - destruct (associative o) eqn:A; [eapply xreorder6_keeps; eauto|eapply constant_rule_keeps; eauto].
Qed.

Lemma one_same x e : (forall y, In y (xvars e) -> y = x) -> one_variable e.
Proof. intros H y z Hy Hz. rewrite (H y Hy), (H z Hz). reflexivity. Qed.
Lemma pow_direct x n l r : good n -> (b = false -> exponent_fine (XVar x) n) ->
  (forall rho v, xvalue ok rho (XBin OMul l r) v -> exists w q, xvalue ok rho n q /\ npow (rho x) q = Some w /\ v = w * rho x) ->
  incl (xvars n) (xvars (XBin OMul l r)) -> In x (xvars (XBin OMul l r)) ->
  forall m e, xapply OAdd n (XC 1 1) = Ret m -> xapply OPow (XVar x) m = Ret e -> xkeeps (XBin OMul l r) e.
Proof.
  intros G F V I Ix m e Hm He.
  assert (Km : xkeeps (XBin OAdd n (XC 1 1)) m).
  { eapply xapply_keeps; eauto; [apply node_ok_assoc; [reflexivity|discriminate]|apply xkeeps_refl; auto|apply xkeeps_refl; split; exact Logic.I]. }
  assert (Fm : b = false -> exponent_fine (XVar x) m).
  { intros Eb. specialize (F Eb). destruct n as [p d|k|y|y c|p a|p a c]; cbn in F; try contradiction.
    - unfold xapply, xreduce in Hm. cbn [lit_of] in Hm. apply obind_ret in Hm as (q & Hq & Hm).
      apply obind_ret in Hq as (c & Hc & Hq). injection Hq as <-.
      cbn [creduce cop_of] in Hc. apply obind_ret in Hc as (r' & Hr & Hc). injection Hc as <-. injection Hm as <-. cbn [of_lit exponent_fine].
      destruct (c_op_valid _ _ _ _ Hr) as [Va Vb]. pose proof Hr as Hr'. apply C41_exact in Hr' as (L & W & _); auto; [|discriminate].
      destruct (c_op_real _ _ _ _ Hr) as [Dr Er]; [discriminate|]. cbn [rmath] in Er. unfold real_of in Er. cbn [fst snd] in Er.
      assert (P : 0 < IZR p / IZR d) by (apply Rdiv_lt_0_compat; apply IZR_lt; tauto).
      assert (D : (0 < snd r')%Z). { unfold lowest_terms in L. apply L. }
      split; auto. apply lt_IZR. apply IZR_lt in D. assert (0 < IZR (fst r') / IZR (snd r')) by lra.
      apply (Rmult_lt_reg_r (/ IZR (snd r'))); [apply Rinv_0_lt_compat; auto|]. lra.
    - unfold xapply, xreduce in Hm. cbn [lit_of] in Hm. apply obind_ret in Hm as (q & Hq & Hm).
      apply obind_ret in Hq as (c & Hc & Hq). injection Hq as <-.
      cbn [creduce cop_of] in Hc. cbn in Hc. destruct k; injection Hc as <-; injection Hm as <-; exact Logic.I. }
  destruct Km as (Gm & Im & Wm).
  eapply xkeeps_trans with (y := XBin OPow (XVar x) m).
  - apply xkeeps_law.
    + split; cbn [untruncated unmixed].
      * split; [exact Logic.I|]. split; [apply Gm|]. split; [discriminate|]. intros _ Eb. apply Fm; auto.
      * split; [exact Logic.I|]. split; [apply Gm|]. split; [discriminate|]. intros _. apply (one_same x). intros y [<-|[]]; auto.
    + cbn [xvars]. intros y Hy. destruct Hy as [<-|Hy]; auto. apply I. apply Im in Hy. cbn [xvars] in Hy. rewrite app_nil_r in Hy. exact Hy.
    + intros rho v Hv. destruct (V rho v Hv) as (w & q & Hq & Hw & ->). exists (rho x), (q + 1). split; [reflexivity|]. split.
      * apply Wm. exists q, 1. split; auto. split; [apply xval_1; auto|reflexivity].
      * apply npow_succ. exact Hw.
  - intros G2. apply good_node in G2 as (G3 & G4 & N). eapply xapply_keeps; eauto; apply xkeeps_refl; auto.
Qed.

Lemma xdirect_keeps o l r : good (XBin o l r) ->
  match xdirect_rule o l r with
  | XKeep e => xkeeps (XBin o l r) e
  | XTry e => xkeeps (XBin o l r) e
  | XPow x n => forall m e, xapply OAdd n (XC 1 1) = Ret m -> xapply OPow (XVar x) m = Ret e -> xkeeps (XBin o l r) e
  | XNone => True
  end.
Proof.
  intros G. pose proof G as GG. apply good_node in G as (Gl & Gr & N). unfold xdirect_rule. destruct o; auto.
  - (* Mul *)
    destruct l as [n d|k|x|x f|p a|p a c]; auto.
    + destruct r as [n' d'|k'|y|y f|p' a'|p' a' c']; auto.
      * destruct (String.eqb_spec x y) as [<-|]; auto. apply xkeeps_law.
        -- split; cbn [untruncated unmixed]; repeat split; try discriminate; try exact I; try lia.
           intros _. apply (one_same x). intros z [<-|[]]; auto.
        -- cbn. intros z [<-|[]]. now left.
        -- intros rho v (u & w & Hu & Hw & Hv). cbn [xvalue] in Hu, Hw. subst u w. injection Hv as <-.
           exists (rho x), 2. split; [reflexivity|]. split; [cbn; split; [discriminate|lra]|apply npow_2].
      * destruct p'; auto. destruct a' as [n' d'|k'|y|y f|p' a'|p' a' c2]; auto.
        destruct (String.eqb_spec x y) as [<-|]; auto. apply good_node in Gr as (G1 & G2 & N2). intros m e. apply pow_direct; auto.
        -- intros Eb. destruct N2 as (_ & _ & _ & N2). auto.
        -- intros rho v (u & w & Hu & (p & q & Hp & Hq & Hw) & Hv). cbn [xvalue] in Hu, Hp. subst u p. injection Hv as <-.
           exists w, q. split; auto. split; [exact Hw|ring].
        -- cbn. intros z Hz. right. right. exact Hz.
        -- now left.
    + destruct p; auto. destruct a as [n' d'|k'|x|x f|p' a'|p' a' c2]; auto. destruct r as [n' d'|k'|y|y f|p' a'|p' a' c']; auto.
      destruct (String.eqb_spec x y) as [<-|]; auto. apply good_node in Gl as (G1 & G2 & N2). intros m e. apply pow_direct; auto.
      * intros Eb. destruct N2 as (_ & _ & _ & N2). auto.
      * intros rho v (u & w & (p & q & Hp & Hq & Hu) & Hw & Hv). cbn [xvalue] in Hw, Hp. subst w p. injection Hv as <-.
        exists u, q. split; auto.
      * cbn. intros z Hz. right. apply in_or_app. now left.
      * now left.
  - (* Div *)
    destruct (xnull l) eqn:Zl.
    { apply xnull_eq in Zl. subst l. apply xkeeps_law; [split; exact I|intros x []|].
      intros rho v (u & w & Hu & Hw & Hv). apply xval_0 in Hu. subst u. apply xval_0. cbn [binary_value] in Hv.
      destruct (Req_EM_T w 0); [discriminate|]. injection Hv as <-. unfold Rdiv. ring. }
    destruct (xunity r) eqn:Ur.
    { apply xunity_eq in Ur. subst r. apply xkeeps_law; [exact Gl|cbn; rewrite app_nil_r; apply incl_refl|].
      intros rho v (u & w & Hu & Hw & Hv). apply xval_1 in Hw. subst w. cbn [binary_value] in Hv.
      destruct (Req_EM_T 1 0); [discriminate|]. injection Hv as <-. replace (u / 1) with u by field. exact Hu. }
    destruct l as [n d|k|x|x f|p a|p a c]; auto. destruct r as [n' d'|k'|y|y f|p' a'|p' a' c']; auto.
    destruct (String.eqb_spec x y) as [->|]; auto. apply xkeeps_law; [split; exact I|intros z []|].
    intros rho v (u & w & Hu & Hw & Hv). cbn [xvalue] in Hu, Hw. subst u w. apply xval_1. cbn [binary_value] in Hv.
    destruct (Req_EM_T (rho y) 0); [discriminate|]. injection Hv as <-. field; auto.
  - (* Pow *)
    destruct (xunity l) eqn:Ul; auto. apply xunity_eq in Ul. subst l. apply xkeeps_law; [split; exact I|intros x []|].
    intros rho v (u & w & Hu & Hw & Hv). apply xval_1 in Hu. subst u. apply xval_1. eapply npow_one_base; eauto.
Qed.

Lemma xbinary_rules_keeps o l r e : xbinary_rules cfg self o l r = Ret (Some e) -> good (XBin o l r) -> xkeeps (XBin o l r) e.
Proof.
  intros H N. unfold xbinary_rules in H. apply obind_ret in H as (red & Hred & H).
  destruct red as [x|].
  - assert (E : x = e).
    { destruct (aop_eqb o OSub && xnull l && negb (xnull r)); [destruct r; try discriminate|]; injection H as <-; reflexivity. }
    subst x. apply good_node in N as (Gl & Gr & N). eapply xreduce_keeps; eauto; [apply N|apply xkeeps_refl; auto|apply xkeeps_refl; auto].
  - pose proof (xdirect_keeps o l r N) as D. destruct (xdirect_rule o l r) as [k|k|x n|].
    + injection H as <-. exact D.
    + apply xsome_ret in H. eapply xkeeps_trans; [exact D|]. intros M. apply xtry_keeps; auto.
    + apply xsome_ret in H. apply obind_ret in H as (m & Hm & H). eauto.
    + eapply xargument_keeps; eauto.
Qed.

(** powers as products *)
Lemma xpower_sub_keeps p x q : xpower_sub p x = Ret q -> good (XBin OPow x (XC (Z.of_nat p) 1)) -> xkeeps (XBin OPow x (XC (Z.of_nat p) 1)) q.
Proof.
  revert q. induction p as [|p IHp]; intros q H G.
  - injection H as <-. apply xkeeps_law; [split; exact I|intros y []|].
    intros rho v (u & w & Hu & Hw & Hv). apply xval_1. destruct Hw as [_ ->]. cbn [binary_value] in Hv.
    replace (IZR (Z.of_nat 0) / 1) with 0 in Hv by (simpl; lra). rewrite npow_0 in Hv. congruence.
  - pose proof G as GG. apply good_node in GG as (Gx & Gc & N). destruct N as (N1 & N2 & N3 & N4).
    assert (O : one_variable x) by auto.
    destruct p as [|p].
    + injection H as <-. apply xkeeps_law; [exact Gx|cbn; rewrite app_nil_r; apply incl_refl|].
      intros rho v (u & w & Hu & Hw & Hv). destruct Hw as [_ ->]. cbn [binary_value] in Hv.
      replace (IZR (Z.of_nat 1) / 1) with 1 in Hv by (simpl; lra). rewrite npow_1 in Hv. injection Hv as <-. exact Hu.
    + cbn [xpower_sub] in H. change (match p with O => Ret x | S _ => do y <- xpower_sub p x; xapply OMul y x end) with (xpower_sub (S p) x) in H.
      apply obind_ret in H as (y & Hy & H).
      assert (G' : good (XBin OPow x (XC (Z.of_nat (S p)) 1))).
      { split; cbn [untruncated unmixed].
        - split; [apply Gx|]. split; [exact I|]. split; [discriminate|]. intros _ _. lia.
        - split; [apply Gx|]. split; [exact I|]. split; [discriminate|auto]. }
      specialize (IHp y Hy G').
      assert (V : incl (xvars (XBin OMul (XBin OPow x (XC (Z.of_nat (S p)) 1)) x)) (xvars x)).
      { cbn [xvars]. rewrite app_nil_r. apply incl_app; apply incl_refl. }
      eapply (xkeeps_trans _ (XBin OMul (XBin OPow x (XC (Z.of_nat (S p)) 1)) x)).
      * apply xkeeps_law.
        -- split; cbn [untruncated unmixed].
           ++ split; [apply G'|]. split; [apply Gx|]. split; discriminate.
           ++ split; [apply G'|]. split; [apply Gx|]. split; [|discriminate]. intros _. apply (one_incl x); auto.
        -- cbn [xvars] in *. rewrite app_nil_r in V |- *. exact V.
        -- intros rho v (u & w & Hu & Hw & Hv). destruct Hw as [_ ->]. cbn [binary_value] in Hv.
           replace (IZR (Z.of_nat (S (S p))) / 1) with (IZR (Z.of_nat (S p)) + 1) in Hv.
           2:{ rewrite (Nat2Z.inj_succ (S p)). unfold Z.succ. rewrite plus_IZR. field. }
           assert (C : u <> 0 \/ (0 <= Z.of_nat (S p))%Z) by (right; lia).
           pose proof (npow_int u _ C) as E. pose proof (npow_succ _ _ _ E) as E2. rewrite E2 in Hv. injection Hv as <-.
           exists (powerRZ u (Z.of_nat (S p))), u. split; [|split; [exact Hu|reflexivity]].
           exists u, (IZR (Z.of_nat (S p))). split; auto. split; [cbn [xvalue]; split; [discriminate|field]|exact E].
      * intros G2. apply good_node in G2 as (_ & _ & N'). eapply xapply_keeps; eauto; [|apply xkeeps_refl; auto].
        apply node_ok_assoc; [reflexivity|]. intros E. exact (node_one _ _ _ _ _ N' E).
Qed.
Lemma xpower_rules_keeps l p e : xpower_rules self l p = Ret (Some e) -> good (XBin OPow l (XC p 1)) -> xkeeps (XBin OPow l (XC p 1)) e.
Proof.
  intros H G. unfold xpower_rules in H. destruct (Z.ltb_spec p 0) as [|Hp]; [discriminate|].
  apply obind_ret in H as (ml & Hl & H). rewrite <- (Z2Nat.id p Hp) in G |- *. pose proof G as GG. apply good_node in GG as (Gl & Gc & N). destruct ml as [l'|].
  - apply xsome_ret in H. apply obind_ret in H as (q & Hq & H).
    eapply xkeeps_trans; [apply (node_keeps OPow l _ l' (XC (Z.of_nat (Z.to_nat p)) 1)); [exact N|apply IH; eauto|apply xkeeps_refl; auto]|]. intros M.
    eapply xkeeps_trans; [eapply xpower_sub_keeps; eauto|]. intros M'. apply xtry_keeps; auto.
  - apply obind_ret in H as (q & Hq & H). apply obind_ret in H as (mq & Hm & H). destruct mq as [q'|]; [|discriminate]. injection H as <-.
    eapply xkeeps_trans; [eapply xpower_sub_keeps; eauto|]. intros M. apply IH; auto.
Qed.

(** polynomials *)
Lemma poly_rule_keeps o l r e : poly_rule (to_polys cfg) o l r = Ret (Some e) -> good (XBin o l r) -> xkeeps (XBin o l r) e.
Proof.
  intros H G. apply good_node in G as (Gl & Gr & N). unfold poly_rule in H.
  destruct l as [n d|k|x|x f|p a|p a c]; try discriminate; destruct r as [n' d'|k'|y|y g|p' a'|p' a' c']; try discriminate.
  - destruct o; try discriminate. destruct (to_polys cfg && (d' =? 1)%Z && (0 <=? n')%Z) eqn:E; [|discriminate]. injection H as <-.
    apply andb_true_iff in E as [E E3]. apply andb_true_iff in E as [E1 E2]. apply Z.eqb_eq in E2. apply Z.leb_le in E3. subst d'.
    destruct (xpoly_varpow_spec b (Z.to_nat n')) as [F P].
    { intros Eb. destruct N as (_ & _ & _ & N). specialize (N eq_refl Eb). cbn in N. lia. }
    apply xkeeps_law; [split; [exact F|exact I]|cbn; apply incl_refl|].
    intros rho v (u & w & Hu & [_ ->] & Hv). cbn [xvalue] in Hu. subst u. cbn [binary_value] in Hv.
    replace (IZR n' / 1) with (IZR n') in Hv by field. rewrite npow_int in Hv by (right; auto). injection Hv as <-.
    cbn [xvalue]. rewrite reals_value, P. rewrite <- (Z2Nat.id n') at 1 by auto. now rewrite <- pow_powerRZ.
  - destruct o; try discriminate. destruct (to_polys cfg && String.eqb x y)%bool eqn:E; [|discriminate]. injection H as <-.
    apply andb_true_iff in E as [_ E]. apply String.eqb_eq in E. subst y. destruct Gl as [F _].
    destruct (xpoly_mulvar_spec b f F) as [F' P].
    apply xkeeps_law; [split; [exact F'|exact I]|cbn; intros z [<-|[]]; now left|].
    intros rho v (u & w & Hu & Hw & Hv). cbn [xvalue] in *. subst u w. cbn [binary_value] in Hv. injection Hv as <-.
    rewrite !reals_value, P. reflexivity.
  - destruct Gl as [Ff _], Gr as [Fg _].
    assert (A : forall o', o' = OAdd \/ o' = OSub \/ o' = OMul -> o = o' -> x = y -> e = XPoly x (xpoly_op o f g) -> xkeeps (XBin o (XPoly x f) (XPoly y g)) e).
    { intros o' Ho -> <- ->. pose proof (fine_op b o' f g Ho Ff Fg) as F.
      apply xkeeps_law; [split; [exact F|exact I]|cbn; intros z [<-|[]]; now left|].
      intros rho v (u & w & Hu & Hw & Hv). cbn [xvalue] in *. subst u w. rewrite !reals_value in *.
      eapply xpoly_op_val; eauto; [apply Ff|apply Fg]. }
    destruct o.
    + destruct (String.eqb_spec x y); [|discriminate]. injection H as <-. apply (A OAdd); auto.
    + destruct (String.eqb_spec x y); [|discriminate]. injection H as <-. apply (A OSub); auto.
    + injection H as <-. apply (A OMul); auto. apply (node_one _ _ _ _ _ N eq_refl); cbn; auto.
    + destruct g as [|c [|c' g]]; try discriminate. apply obind_ret in H as (q & Hq & H). injection H as <-.
      destruct N as (N1 & _). destruct (xpoly_div_spec b f c q (N1 eq_refl) Ff Fg Hq) as [F P].
      apply xkeeps_law; [split; [exact F|exact I]|cbn; intros z [<-|[]]; now left|].
      intros rho v (u & w & Hu & Hw & Hv). cbn [xvalue] in *. rewrite reals_value in *. apply P. subst u.
      replace (to_real c) with w; auto. subst w. cbn [reals_of map]. rewrite pval_cons, pval_nil. ring.
    + discriminate.
Qed.
Lemma xbinary_gate_keeps o l r e : xbinary_gate cfg self o l r = Ret (Some e) -> good (XBin o l r) -> xkeeps (XBin o l r) e.
Proof.
  intros H G. unfold xbinary_gate in H. apply obind_ret in H as (p & Hp & H). destruct p as [q|].
  - injection H as <-. eapply poly_rule_keeps; eauto.
  - destruct (if aop_eqb o OPow then xwhole r else None) as [p|] eqn:E.
    + assert (X : o = OPow /\ r = XC p 1).
      { destruct o; cbn in E; try discriminate. split; auto. destruct r as [n d| | | | |]; cbn in E; try discriminate.
        destruct (Z.eqb_spec d 1); [|discriminate]. injection E as <-. now subst d. }
      destruct X as [-> ->]. destruct (is_xvar l); [apply xbinary_rules_keeps; auto|apply xpower_rules_keeps; auto].
    + apply xbinary_rules_keeps; auto.
Qed.
Lemma xunary_gate_keeps o a e : xunary_gate self o a = Ret (Some e) -> good (XFun o a) -> xkeeps (XFun o a) e.
Proof.
  intros H G. unfold xunary_gate in H. apply obind_ret in H as (ma & Ha & H). destruct ma as [a'|]; [|discriminate].
  apply xsome_ret in H. apply obind_ret in H as (q & Hq & H). eapply xkeeps_trans; [eapply xfun_keeps; eauto|].
  intros M. apply xtry_keeps; auto.
Qed.
End Rules.

Lemma xsimp_keeps cfg fuel : forall e e', xsimp cfg fuel e = Ret (Some e') -> good e -> xkeeps e e'.
Proof.
  induction fuel as [|fuel IH]; intros e e' H G; [discriminate|].
  assert (A : forall e e', xsimp cfg fuel e = Ret (Some e') -> atom e -> atom e').
  { intros q q' Hq Aq. destruct fuel; [discriminate|]. destruct q; try contradiction; cbn [xsimp] in Hq; try discriminate.
    destruct (to_numbers cfg); [|discriminate]. injection Hq as <-. exact I. }
  assert (B : forall l e e', xsimp cfg fuel e = Ret (Some e') -> exponent_fine l e -> exponent_fine l e').
  { intros l q q' Hq Aq. destruct fuel; [discriminate|]. destruct q; try contradiction; cbn [xsimp] in Hq; try discriminate.
    - destruct (to_numbers cfg); [|discriminate]. injection Hq as <-. exact I.
    - destruct (to_polys cfg); [|discriminate]. injection Hq as <-. exact Aq. }
  assert (C : to_polys cfg = true -> forall n d, xsimp cfg fuel (XC n d) <> Ret None).
  { intros Hc n d. destruct fuel; [discriminate|]. cbn [xsimp]. destruct cfg; discriminate. }
  cbn [xsimp] in H. destruct e as [n d|k|x|x f|o a|o l r].
  - destruct (to_numbers cfg); [|discriminate]. injection H as <-. apply xkeeps_law; [split; exact I|intros x []|].
    intros rho v [_ ->]. reflexivity.
  - discriminate.
  - destruct (to_polys cfg); [|discriminate]. injection H as <-. destruct (xpoly_var_spec b) as [F P].
    apply xkeeps_law; [split; [exact F|exact I]|apply incl_refl|]. intros rho v ->. cbn [xvalue]. rewrite reals_value, P. reflexivity.
  - discriminate.
  - eapply xunary_gate_keeps; eauto.
  - eapply xbinary_gate_keeps; eauto.
Qed.
End Keeps.
