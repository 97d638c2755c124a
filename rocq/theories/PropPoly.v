(** Property theorems C01-C11: polynomial algebra. *)
From Verif Require Import PolyCalc.
Open Scope R_scope.

(** C01: substituting a number is the power sum c0 + c1 x + ... + cN x^N. *)
Theorem C01_eval : forall (f : list R) (x : R), f <> [] ->
  poly_sub f (Fin x) = Fin (pval f x).
Proof. intros f x Hf. cbn [poly_sub]. f_equal. exact (poly_eval_correct f x Hf). Qed.
Print Assumptions C01_eval.

Theorem C01_eval_symbolic : forall (f : list R) (x : R), f <> [] ->
  poly_sub_symbolic f x = pval f x.
Proof. exact poly_sub_symbolic_correct. Qed.
Print Assumptions C01_eval_symbolic.

Example C01_example : poly_sub [1; 2; 3] (Fin 2) = Fin 17.
Proof. rewrite C01_eval by discriminate. f_equal. rewrite !pval_cons, pval_nil. lra. Qed.

(** C02: value at the infinities. *)
Theorem C02_pinf : forall f : list R, f <> [] ->
  limit_at_pinf (pval f) (xlim (poly_sub f PInf)).
Proof. exact poly_sub_pinf. Qed.
Print Assumptions C02_pinf.

(** full statement at -inf: [forall f, f <> [] -> limit_at_ninf (pval f) (xlim (poly_sub f NInf))];
    it is false (below).  It holds when the degree has the parity of the
    template order, in particular when the leading coefficient is not zero. *)
Theorem C02_ninf_partial : forall (f : list R) n, f <> [] -> (1 <= n)%nat -> has_degree f n ->
  Nat.odd n = Nat.odd (length f - 1) ->
  limit_at_ninf (pval f) (xlim (poly_sub f NInf)).
Proof.
  intros f n Hf H1 Hd Hp. apply (poly_sub_ninf f n Hf H1 Hd). rewrite Hp.
  unfold porder. f_equal. lia.
Qed.
Print Assumptions C02_ninf_partial.

Example C02_example : [0; 0; 0; 2] <> [] /\ has_degree [0; 0; 0; 2] 3 /\ Nat.odd 3 = Nat.odd (length [0;0;0;2] - 1).
Proof.
  split; [discriminate|]. split; [|reflexivity]. split; [simpl; lra|].
  intros i Hi. apply nth_overflow. simpl. lia.
Qed.

(** every polynomial whose degree parity differs from the order's gets the wrong sign at -inf *)
Theorem C02_ninf_refuted : exists f : list R, f <> [] /\
  poly_sub f NInf = PInf /\ limit_at_ninf (pval f) ToNInf /\
  ~ limit_at_ninf (pval f) (xlim (poly_sub f NInf)).
Proof.
  exists [1; 1; 0].
  assert (E : poly_sub [1; 1; 0] NInf = PInf).
  { cbn. unfold Reqb. repeat (destruct Req_EM_T; try lra); cbn.
    unfold inf_mul; cbn. unfold Rltb. destruct Rlt_dec; [reflexivity|lra]. }
  split; [discriminate|]. split; [exact E|]. split.
  - intros M. exists (1 - M). intros x Hx. rewrite !pval_cons, pval_nil. lra.
  - rewrite E. intros H. destruct (H 2) as [X HX].
    specialize (HX (Rmax X 0 + 1)). pose proof (Rmax_l X 0). pose proof (Rmax_r X 0).
    assert (Hgt : Rmax X 0 + 1 > X) by lra. specialize (HX Hgt).
    rewrite !pval_cons, pval_nil in HX. lra.
Qed.
Print Assumptions C02_ninf_refuted.

(** Exactly when the value at -inf is right: the degree (if it is not 0) has the parity of
    the template order, that is, of the number of coefficients minus one. *)
Lemma two_limits F l l' : limit_at_ninf F l -> limit_at_ninf F l' -> l = ToPInf -> l' = ToNInf -> False.
Proof.
  intros A B -> ->. destruct (A 0) as [X HX]. destruct (B 0) as [Y HY].
  pose proof (Rmax_l X Y). pose proof (Rmax_r X Y).
  specialize (HX (Rmax X Y + 1) ltac:(lra)). specialize (HY (Rmax X Y + 1) ltac:(lra)). cbn beta in *. lra.
Qed.
Theorem C02_ninf_iff : forall f : list R, f <> [] ->
  limit_at_ninf (pval f) (xlim (poly_sub f NInf)) <->
  (forall n, (1 <= n)%nat -> has_degree f n -> Nat.odd n = Nat.odd (length f - 1)).
Proof.
  intros f Hf. split.
  - intros L n H1 Hd.
    destruct (Bool.bool_dec (Nat.odd n) (Nat.odd (length f - 1))) as [E|E]; [exact E|exfalso].
    assert (P : (length f - 1)%nat = porder f) by (unfold porder; lia). rewrite P in E.
    assert (Hlen : (n <= porder f)%nat).
    { destruct (Nat.le_gt_cases n (porder f)) as [|Hgt]; [assumption|]. exfalso.
      apply (proj1 Hd). apply nth_overflow. rewrite (order_length f Hf). lia. }
    pose proof (limit_deg_neg f n H1 Hd) as T. change (nth n f 0) with (get f n) in T. rewrite <- Nat.negb_odd in T.
    cbn [poly_sub] in L. destruct (Nat.eqb_spec (porder f) 0) as [Z|Z]; [lia|].
    destruct (inf_scan_spec f (porder f) false (porder f)) as [(n' & Hn & Hd' & Es)|[Hc Es]].
    { intros j Hj. apply get_over. rewrite (order_length f Hf). lia. }
    + assert (n' = n).
      { destruct (Nat.lt_trichotomy n n') as [Hlt|[->|Hlt]]; [|reflexivity|].
        - exfalso. apply (proj1 Hd'). apply (proj2 Hd). exact Hlt.
        - exfalso. apply (proj1 Hd). apply (proj2 Hd'). exact Hlt. }
      subst n'. rewrite Es in L. unfold inf_mul in L. revert L T E. numR.
      destruct (Nat.odd n), (Nat.odd (porder f)), (Rltb 0 (get f n)); cbn; intros L T E; try congruence;
        first [exact (two_limits (pval f) ToPInf ToNInf L T eq_refl eq_refl) | exact (two_limits (pval f) ToPInf ToNInf T L eq_refl eq_refl)].
    + apply (proj1 Hd). apply Hc. exact H1.
  - intros H. destruct (inf_scan_spec f (porder f) false (porder f)) as [(n & Hn & Hd & _)|[Hc _]].
    + intros j Hj. apply get_over. rewrite (order_length f Hf). lia.
    + exact (C02_ninf_partial f n Hf ltac:(lia) Hd (H n ltac:(lia) Hd)).
    + exact (poly_sub_ninf_const f Hf Hc).
Qed.
Print Assumptions C02_ninf_iff.

(** C03: entry k of eval_derivatives<D>(f,x) is the k-th derivative at x. *)
Theorem C03_eval_derivatives : forall (f : list R) (x : R) (D : nat), f <> [] ->
  length (eval_derivatives D f x) = S D /\
  forall k, (k <= D)%nat ->
    exists G, nth_deriv_of k (pval f) G /\ nth k (eval_derivatives D f x) 0 = G x.
Proof. exact eval_derivatives_correct. Qed.
Print Assumptions C03_eval_derivatives.

(** C04: Euclidean division. *)
Theorem C04_division : forall f g : list R,
  f <> [] -> g <> [] -> (length g <= length f)%nat ->
  match poly_gcd f g with
  | Div q r => exists n, has_degree g n /\
                 (forall i, (n <= i)%nat -> nth i r 0 = 0) /\
                 length q = length f /\ length r = Nat.max 1 (length g - 1) /\
                 forall x, pval f x = pval q x * pval g x + pval r x
  | DivInf r => forall i, nth i g 0 = 0
  end.
Proof.
  intros f g Hf Hg Hl. unfold poly_gcd.
  pose proof (order_length f Hf) as Ef. pose proof (order_length g Hg) as Eg.
  pose proof (gcd_rec_correct f Hf (porder g) g Eg ltac:(lia)) as H.
  destruct (gcd_rec (porder g) f g) as [r|q r].
  - exact (proj1 (proj2 H)).
  - destruct H as (n & Hn & Hd & Hq & Hr & Hz & Hv). exists n.
    split; [exact Hd|]. split; [exact Hz|]. split; [exact Hq|]. split; [lia|exact Hv].
Qed.
Print Assumptions C04_division.

(** the flag result appears exactly for the zero divisor *)
Theorem C04_division_by_zero : forall f g : list R,
  f <> [] -> g <> [] -> (length g <= length f)%nat ->
  ((exists r, poly_gcd f g = DivInf r) <-> forall i, nth i g 0 = 0).
Proof.
  intros f g Hf Hg Hl. pose proof (C04_division f g Hf Hg Hl) as H.
  split.
  - intros [r E]. rewrite E in H. exact H.
  - intros Hz. destruct (poly_gcd f g) as [r|q r]; [exists r; reflexivity|].
    destruct H as (n & [Hn _] & _). exfalso. apply Hn. apply Hz.
Qed.
Print Assumptions C04_division_by_zero.

Example C04_example : [1; 2; 3; 4] <> [] /\ [4; 5; 0] <> [] /\ (length [4; 5; 0] <= length [1; 2; 3; 4])%nat.
Proof. repeat split; try discriminate. simpl. lia. Qed.

(** C05: derivative. *)
Theorem C05_derivative : forall (f : list R) (x : R), f <> [] ->
  derivable_pt_lim (pval f) x (pval (poly_derivative true f) x).
Proof. exact poly_derivative_correct. Qed.
Print Assumptions C05_derivative.

Theorem C05_other_variable : forall (f : list R) (x : R),
  pval (poly_derivative false f) x = 0.
Proof. intros f x. cbn [poly_derivative andb]. rewrite pval_cons, pval_nil. change n0 with 0. ring. Qed.
Print Assumptions C05_other_variable.

(** C06: Taylor shift. *)
Theorem C06_shift : forall (f : list R) (t : R), f <> [] ->
  length (shift_function f t) = length f /\
  forall x, pval (shift_function f t) x = pval f (x + t).
Proof. exact shift_function_correct. Qed.
Print Assumptions C06_shift.

Theorem C06_shift_unity : forall (f : list R), f <> [] ->
  length (shift_unity f) = length f /\
  forall x, pval (shift_unity f) x = pval f (x + 1).
Proof. exact shift_unity_correct. Qed.
Print Assumptions C06_shift_unity.

(** C07: inverting Taylor shift. *)
Theorem C07_invert_taylor_shift : forall (f : list R), f <> [] ->
  length (invert_taylor_shift f) = length f /\
  forall x, x <> -1 ->
    pval (invert_taylor_shift f) x = (x + 1) ^ (length f - 1) * pval f (1 / (x + 1)).
Proof.
  intros f Hf. destruct (invert_taylor_shift_correct f Hf) as [HL HV].
  split; [exact HL|]. intros x Hx. rewrite HV by exact Hx.
  rewrite (order_length f Hf). replace (S (porder f) - 1)%nat with (porder f) by lia. reflexivity.
Qed.
Print Assumptions C07_invert_taylor_shift.

(** C08: reflection and scaling. *)
Theorem C08_reflect : forall (f : list R), f <> [] ->
  length (reflect_poly f) = length f /\ forall x, pval (reflect_poly f) x = pval f (- x).
Proof. exact reflect_poly_correct. Qed.
Print Assumptions C08_reflect.

Theorem C08_scale : forall (f : list R) a, f <> [] ->
  length (scale_poly f a) = length f /\ forall x, pval (scale_poly f a) x = pval f (a * x).
Proof. exact scale_poly_correct. Qed.
Print Assumptions C08_scale.

(** C09: deflation; [prefer] is the outcome of the rounding-dependent heuristic. *)
Theorem C09_deflate_partial : forall prefer (a : list R) root,
  (3 <= length a)%nat -> (Z.of_nat (length a) < 2 ^ 63)%Z -> is_root a root ->
  exists b, deflate_polynomial prefer a root = Ret b /\ length b = (length a - 1)%nat /\
    forall x, pval a x = (x - root) * pval b x.
Proof.
  intros prefer a root Hl H63 Hr. assert (Ha : a <> []) by (intros ->; simpl in Hl; lia).
  pose proof (order_length a Ha) as E.
  destruct (deflate_correct prefer a root) as (b & H1 & H2 & H3); try lia; try exact Hr.
  exists b. split; [exact H1|]. split; [lia|exact H3].
Qed.
Print Assumptions C09_deflate_partial.

Theorem C09_deflate_zero_root : forall prefer (a : list R),
  a <> [] -> (Z.of_nat (length a) < 2 ^ 63)%Z -> is_root a 0 ->
  exists b, deflate_polynomial prefer a 0 = Ret b /\ length b = (length a - 1)%nat /\
    forall x, pval a x = x * pval b x.
Proof.
  intros prefer a Ha H63 Hr. pose proof (order_length a Ha) as E.
  destruct (deflate_correct prefer a 0) as (b & H1 & H2 & H3);
    [right; split; [reflexivity|exact Ha]|lia|exact Hr|].
  exists b. split; [exact H1|]. split; [lia|]. intros x. rewrite H3. ring.
Qed.
Print Assumptions C09_deflate_zero_root.

(** deflating an order 1 polynomial at a non-zero root reads b[1] of a one element array *)
Theorem C09_order1_refuted : forall prefer (a0 a1 root : R), root <> 0 ->
  deflate_polynomial prefer [a0; a1] root = UB.
Proof.
  intros prefer a0 a1 root Hr. unfold deflate_polynomial. numR.
  destruct (Reqb_spec root 0); [contradiction|]. reflexivity.
Qed.
Print Assumptions C09_order1_refuted.

(** So division by a known root works exactly when the order is above 1 or the root is 0. *)
Theorem C09_deflate_iff : forall prefer (a : list R) root,
  (2 <= length a)%nat -> (Z.of_nat (length a) < 2 ^ 63)%Z -> is_root a root ->
  (exists b, deflate_polynomial prefer a root = Ret b /\ forall x, pval a x = (x - root) * pval b x) <->
  ((3 <= length a)%nat \/ root = 0).
Proof.
  intros prefer a root Hl H63 Hr. split.
  - intros (b & E & _). destruct (Nat.le_gt_cases 3 (length a)) as [H|H]; [left; exact H|right].
    destruct (Req_dec root 0) as [Z|Z]; [exact Z|exfalso].
    destruct a as [|a0 [|a1 [|a2 a]]]; simpl in Hl, H; try lia.
    rewrite (C09_order1_refuted prefer a0 a1 root Z) in E. discriminate.
  - intros [H|H].
    + destruct (C09_deflate_partial prefer a root H H63 Hr) as (b & A & _ & B). exists b. auto.
    + subst root. assert (Ha : a <> []) by (intros ->; simpl in Hl; lia).
      destruct (C09_deflate_zero_root prefer a Ha H63 Hr) as (b & A & _ & B). exists b. split; [exact A|].
      intros x. rewrite B. ring.
Qed.
Print Assumptions C09_deflate_iff.

Example C09_example : is_root [6; -5; 1] 2 /\ (3 <= length [6; -5; 1]%R)%nat /\ is_root [-2; 1] 2.
Proof. unfold is_root. rewrite !pval_cons, pval_nil. simpl length. repeat split; try lra; lia. Qed.

(** C10: polynomial arithmetic. *)
Theorem C10_add : forall f g : list R, f <> [] -> g <> [] ->
  length (poly_add f g) = Nat.max (length f) (length g) /\
  forall x, pval (poly_add f g) x = pval f x + pval g x.
Proof. exact poly_add_correct. Qed.
Print Assumptions C10_add.

Theorem C10_sub : forall f g : list R, f <> [] -> g <> [] ->
  length (poly_sub_op f g) = Nat.max (length f) (length g) /\
  forall x, pval (poly_sub_op f g) x = pval f x - pval g x.
Proof. exact poly_sub_op_correct. Qed.
Print Assumptions C10_sub.

Theorem C10_mul : forall f g : list R, f <> [] -> g <> [] ->
  length (poly_mul f g) = (length f + length g - 1)%nat /\
  forall x, pval (poly_mul f g) x = pval f x * pval g x.
Proof. exact poly_mul_correct. Qed.
Print Assumptions C10_mul.

Theorem C10_div_const : forall (f : list R) c, f <> [] -> c <> 0 ->
  length (poly_div0 f c) = length f /\ forall x, pval (poly_div0 f c) x = pval f x / c.
Proof. exact poly_div0_correct. Qed.
Print Assumptions C10_div_const.

Theorem C10_neg : forall (f : list R) x, pval (poly_neg f) x = - pval f x.
Proof. exact poly_neg_correct. Qed.
Print Assumptions C10_neg.

Theorem C10_var_and_const : forall (f : list R) (c x : R) (P : nat),
  pval (poly_mulvar f) x = x * pval f x /\ pval poly_var x = x /\
  pval (poly_const c) x = c /\ pval (poly_varpow P) x = x ^ P.
Proof.
  intros f c x P. exact (conj (poly_mulvar_correct f x) (conj (poly_var_correct x)
    (conj (poly_const_correct c x) (poly_varpow_correct P x)))).
Qed.
Print Assumptions C10_var_and_const.

(** value of a polynomial in its own variable under an assignment *)
Definition vval (env : nat -> R) (p : vpoly R) : R := pval (vp_co p) (env (vp_var p)).

(** The product rule fires for any two polynomials, also in different variables.
    In the same variable it is right ... *)
Theorem C10_mul_same_var_partial : forall (f g h : vpoly R) env,
  vp_co f <> [] -> vp_co g <> [] -> vp_var f = vp_var g ->
  vpoly_mul f g = Some h -> vval env h = vval env f * vval env g.
Proof.
  intros f g h env Hf Hg Hv E. inversion E; subst h. unfold vval; cbn [vp_var vp_co].
  rewrite (proj2 (poly_mul_correct _ _ Hf Hg)). rewrite Hv. reflexivity.
Qed.
Print Assumptions C10_mul_same_var_partial.

(** ... in different variables it is wrong: expand(x*y) gives x^2. *)
Theorem C10_mul_other_var_refuted : exists (f g h : vpoly R) env,
  vp_co f <> [] /\ vp_co g <> [] /\ vpoly_mul f g = Some h /\
  vval env h <> vval env f * vval env g.
Proof.
  exists {| vp_var := 0; vp_co := [0; 1] |}, {| vp_var := 1; vp_co := [0; 1] |},
         {| vp_var := 0; vp_co := poly_mul [0; 1] [0; 1] |}, (fun v => if Nat.eqb v 0 then 2 else 3).
  split; [discriminate|]. split; [discriminate|]. split; [reflexivity|].
  unfold vval; cbn [vp_var vp_co Nat.eqb].
  rewrite (proj2 (poly_mul_correct [0; 1] [0; 1] ltac:(discriminate) ltac:(discriminate))).
  rewrite !pval_cons, !pval_nil. intros E; simpl in E; lra.
Qed.
Print Assumptions C10_mul_other_var_refuted.

(** The sum rule only fires for equal variables and is right. *)
Theorem C10_add_var : forall (f g h : vpoly R) env,
  vp_co f <> [] -> vp_co g <> [] ->
  (vpoly_addsub Rplus f g = Some h -> vval env h = vval env f + vval env g) /\
  (vpoly_addsub Rminus f g = Some h -> vval env h = vval env f - vval env g).
Proof.
  intros f g h env Hf Hg. unfold vpoly_addsub, vval.
  destruct (Nat.eqb_spec (vp_var f) (vp_var g)) as [Ev|Ev]; split; intros E; inversion E; subst h;
    cbn [vp_var vp_co]; rewrite <- Ev.
  - exact (proj2 (poly_add_correct _ _ Hf Hg) _).
  - exact (proj2 (poly_sub_op_correct _ _ Hf Hg) _).
Qed.
Print Assumptions C10_add_var.

(** Integer coefficients: expand(x) is Polynomial<1,int>{0,1}; dividing it by an
    integer constant uses C++ integer division: expand(x/2) is the zero polynomial. *)
Theorem C10_int_div_refuted : exists (f : list Z) (c : Z) (x : R), c <> 0%Z /\
  poly_div0 (H := Z_num) f c = [0%Z; 0%Z] /\
  pval (map IZR (poly_div0 (H := Z_num) f c)) x <> pval (map IZR f) x / IZR c.
Proof.
  exists [0%Z; 1%Z], 2%Z, 2. split; [discriminate|]. split; [reflexivity|].
  change (poly_div0 (H := Z_num) [0%Z; 1%Z] 2%Z) with [0%Z; 0%Z]. cbn [map].
  rewrite !pval_cons, !pval_nil. lra.
Qed.
Print Assumptions C10_int_div_refuted.

(** C11: construction and order change. *)
Theorem C11_construct : forall N (l : list R),
  match poly_of_list N l with
  | Ret f => (length l <= S N)%nat /\ length f = S N /\
             (forall i, (i < length l)%nat -> nth i f 0 = nth i l 0) /\
             (forall i, (length l <= i)%nat -> nth i f 0 = 0) /\ same_fun f l
  | Throw => (S N < length l)%nat
  | _ => False
  end.
Proof. exact poly_of_list_correct. Qed.
Print Assumptions C11_construct.

Theorem C11_construct_range : forall N (l : list R), poly_of_range N l = poly_of_list N l.
Proof. exact poly_of_range_eq. Qed.
Print Assumptions C11_construct_range.

Theorem C11_change_order : forall N (f : list R),
  length (change_order N f) = S N /\
  (forall i, nth i (change_order N f) 0 = if (i <=? N)%nat then nth i f 0 else 0) /\
  ((forall i, (N < i)%nat -> nth i f 0 = 0) -> same_fun (change_order N f) f).
Proof.
  intros N f. destruct (change_order_spec N f) as [HL HG].
  exact (conj HL (conj HG (change_order_val N f))).
Qed.
Print Assumptions C11_change_order.

Example C11_example : poly_of_list 3 [1; 2] = Ret [1; 2; 0; 0] /\ poly_of_list 0 [1; 2] = Throw.
Proof. split; reflexivity. Qed.
