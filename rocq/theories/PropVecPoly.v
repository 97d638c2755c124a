(** C86: polynomials with vector and matrix coefficients. *)
From Coq Require Import List Arith Lia Reals Lra Bool.
From Verif Require Import Outcome Num PolyModel PolyCalc VecPolyModel PropFloatPoly.
Import ListNotations.
Local Open Scope nat_scope.

(** ** Specification *)
(** A type with + - 0 and multiplication by real numbers, with the usual laws. *)
Definition vector_space (A : Type) (NA : Num A) (sc : R -> A -> A) : Prop :=
  (forall a b : A, nadd a b = nadd b a) /\ (forall a b c : A, nadd a (nadd b c) = nadd (nadd a b) c) /\
  (forall a : A, nadd n0 a = a) /\ (forall a : A, nadd a (nopp a) = n0) /\
  (forall a b : A, nsub a b = nadd a (nopp b)) /\
  (forall a, sc 1%R a = a) /\ (forall x y a, sc (x * y)%R a = sc x (sc y a)) /\
  (forall x y a, sc (x + y)%R a = nadd (sc x a) (sc y a)) /\ (forall x a b, sc x (nadd a b) = nadd (sc x a) (sc x b)).
(** A product of two such types that is linear on either side. *)
Definition bilinear {A B C} {NA : Num A} {NB : Num B} {NC : Num C}
  (sa : R -> A -> A) (sb : R -> B -> B) (sx : R -> C -> C) (op : A -> B -> C) : Prop :=
  (forall a a' b, op (nadd a a') b = nadd (op a b) (op a' b)) /\ (forall a b b', op a (nadd b b') = nadd (op a b) (op a b')) /\
  (forall x a b, op (sa x a) b = sx x (op a b)) /\ (forall x a b, op a (sb x b) = sx x (op a b)).
Fixpoint vsum {A} {NA : Num A} (n : nat) (F : nat -> A) : A :=
  match n with O => n0 | S k => nadd (vsum k F) (F k) end.
(** c0 + x c1 + x^2 c2 + ... *)
Definition vvalue {A} {NA : Num A} (sc : R -> A -> A) (f : list A) (x : R) : A :=
  vsum (length f) (fun i => sc (x ^ i)%R (nth i f n0)).
(** c1 + 2 x c2 + 3 x^2 c3 + ... *)
Definition vslope {A} {NA : Num A} (sc : R -> A -> A) (f : list A) (x : R) : A :=
  vsum (length f - 1) (fun i => sc (INR (S i) * x ^ i)%R (nth (S i) f n0)).

Section Space.
Context {A : Type} {NA : Num A} {sc : R -> A -> A}.
Hypothesis VS : vector_space A NA sc.
Declare Scope v_scope.
Local Infix "+" := (nadd : A -> A -> A) : v_scope.
Local Infix "*" := sc : v_scope.
Local Notation "0" := (n0 : A) : v_scope.
Local Open Scope v_scope.
Lemma v_comm (a b : A) : a + b = b + a. Proof. apply VS. Qed.
Lemma v_assoc (a b c : A) : a + (b + c) = a + b + c. Proof. apply VS. Qed.
Lemma v_0l (a : A) : 0 + a = a. Proof. apply VS. Qed.
Lemma v_0r (a : A) : a + 0 = a. Proof. rewrite v_comm. apply v_0l. Qed.
Lemma v_opp (a : A) : a + nopp a = 0. Proof. apply VS. Qed.
Lemma v_sub (a b : A) : nsub a b = a + nopp b. Proof. apply VS. Qed.
Lemma v_1 (a : A) : 1%R * a = a. Proof. apply VS. Qed.
Lemma v_mul x y (a : A) : (x * y)%R * a = x * (y * a). Proof. apply VS. Qed.
Lemma v_plus x y (a : A) : (x + y)%R * a = x * a + y * a. Proof. apply VS. Qed.
Lemma v_lin x (a b : A) : x * (a + b) = x * a + x * b. Proof. apply VS. Qed.
Lemma v_cancel (a b : A) : a + b = a -> b = 0.
Proof. intros E. transitivity (nopp a + (a + b)); [rewrite v_assoc, (v_comm (nopp a)), v_opp; symmetry; apply v_0l|rewrite E, v_comm; apply v_opp]. Qed.
Lemma v_x0 x : x * 0 = (0 : A).
Proof. apply (v_cancel (x * 0)). rewrite <- v_lin, v_0l. reflexivity. Qed.
Lemma v_0a (a : A) : 0%R * a = 0.
Proof. apply (v_cancel (0%R * a)). rewrite <- v_plus, Rplus_0_l. reflexivity. Qed.
Lemma v_oppm (a : A) : nopp a = (-1)%R * a.
Proof.
  assert (E : a + (-1)%R * a = 0) by (rewrite <- (v_1 a) at 1; rewrite <- v_plus; replace (1 + -1)%R with 0%R by lra; apply v_0a).
  rewrite <- (v_0r (nopp a)), <- E, v_assoc, (v_comm (nopp a)), v_opp. apply v_0l.
Qed.
Lemma v_swap (a b c d : A) : (a + b) + (c + d) = (a + c) + (b + d).
Proof. rewrite <- !v_assoc. f_equal. rewrite !v_assoc. f_equal. apply v_comm. Qed.
Lemma vs_ext n F G : (forall i, (i < n)%nat -> F i = G i) -> vsum n F = vsum n G.
Proof. induction n as [|n IH]; intros E; [reflexivity|]. cbn [vsum]. rewrite IH by (intros; apply E; lia). now rewrite E by lia. Qed.
Lemma vs_zero n F : (forall i, (i < n)%nat -> F i = 0) -> vsum n F = 0.
Proof. induction n as [|n IH]; intros E; [reflexivity|]. cbn [vsum]. rewrite IH by (intros; apply E; lia). rewrite E by lia. apply v_0l. Qed.
Lemma vs_add n F G : vsum n (fun i => F i + G i) = vsum n F + vsum n G.
Proof. induction n as [|n IH]; cbn [vsum]; [symmetry; apply v_0l|]. rewrite IH. apply v_swap. Qed.
Lemma vs_scale n x F : vsum n (fun i => x * F i) = x * vsum n F.
Proof. induction n as [|n IH]; cbn [vsum]; [symmetry; apply v_x0|]. now rewrite IH, v_lin. Qed.
Lemma vs_shift n F : vsum (S n) F = F 0%nat + vsum n (fun i => F (S i)).
Proof.
  induction n as [|n IH]; [cbn [vsum]; rewrite v_0l, v_0r; reflexivity|].
  change (vsum (S (S n)) F) with (vsum (S n) F + F (S n)). rewrite IH. cbn [vsum]. now rewrite v_assoc.
Qed.
Lemma vs_extend n m F : (n <= m)%nat -> (forall i, (n <= i < m)%nat -> F i = 0) -> vsum m F = vsum n F.
Proof.
  intros Hn HF. induction m as [|m IH]; [now replace n with 0%nat by lia|].
  destruct (Nat.eq_dec n (S m)) as [->|Ne]; [reflexivity|]. cbn [vsum]. rewrite IH by (lia || (intros; apply HF; lia)). rewrite HF by lia. apply v_0r.
Qed.
Lemma vs_split n m F : vsum (n + m) F = vsum n F + vsum m (fun i => F (n + i)%nat).
Proof. induction m as [|m IH]; [rewrite Nat.add_0_r; cbn [vsum]; symmetry; apply v_0r|]. rewrite Nat.add_succ_r. cbn [vsum]. rewrite IH. symmetry. apply v_assoc. Qed.
Definition VV (n : nat) (F : nat -> A) (x : R) : A := vsum n (fun i => (x ^ i)%R * F i).
Lemma vget_over (f : list A) i : (length f <= i)%nat -> get f i = 0.
Proof. intros H. unfold get. now apply nth_overflow. Qed.
Lemma vv_ge n f x : (length f <= n)%nat -> vvalue sc f x = VV n (get f) x.
Proof. intros H. symmetry. apply vs_extend; [exact H|]. intros i Hi. rewrite (nth_overflow f) by lia. apply v_x0. Qed.
Lemma VV_ext n F G x : (forall i, (i < n)%nat -> F i = G i) -> VV n F x = VV n G x.
Proof. intros E. apply vs_ext. intros i Hi. now rewrite E. Qed.
Lemma VV_shift n F x : VV (S n) F x = F 0%nat + x * VV n (fun i => F (S i)) x.
Proof. unfold VV. rewrite vs_shift. cbn [pow]. rewrite v_1, <- vs_scale. f_equal. apply vs_ext. intros i _. apply v_mul. Qed.
Lemma worker_VV (f : list A) x s : (s <= porder f)%nat ->
  vpoly_worker sc s f x = VV (S s) (fun i => get f (porder f - s + i)) x.
Proof.
  intros Hs. induction s as [|s IH].
  - unfold VV. cbn [vpoly_worker vsum pow]. rewrite v_1, v_0l. f_equal. lia.
  - cbn [vpoly_worker]. rewrite IH by lia. rewrite (VV_shift (S s)). rewrite Nat.add_0_r. f_equal. f_equal. apply VV_ext. intros i Hi. f_equal. lia.
Qed.
Lemma len_porder {T} (f : list T) : f <> [] -> length f = S (porder f).
Proof. unfold porder. destruct f; [congruence|reflexivity]. Qed.
Lemma value_ok (f : list A) x : f <> [] -> vpoly_value sc f x = vvalue sc f x.
Proof.
  intros Nf. unfold vpoly_value. rewrite worker_VV by lia. rewrite (vv_ge (S (porder f))) by (rewrite len_porder; auto). apply VV_ext.
  intros i _. f_equal. lia.
Qed.
Lemma add_ok (f g : list A) x : f <> [] -> g <> [] -> vvalue sc (poly_add f g) x = vvalue sc f x + vvalue sc g x.
Proof.
  intros Nf Ng. destruct (addsub_entry nadd f g 0 Nf Ng) as [L _]. rewrite (vv_ge (Nat.max (length f) (length g)) f) by lia.
  rewrite (vv_ge (Nat.max (length f) (length g)) g) by lia. rewrite (vv_ge (Nat.max (length f) (length g))) by (unfold poly_add; lia).
  unfold VV. rewrite <- vs_add. apply vs_ext. intros i Hi. unfold poly_add. rewrite (proj2 (addsub_entry nadd f g i Nf Ng) Hi). apply v_lin.
Qed.
Lemma sub_ok (f g : list A) x : f <> [] -> g <> [] -> vvalue sc (poly_sub_op f g) x = nsub (vvalue sc f x) (vvalue sc g x).
Proof.
  intros Nf Ng. destruct (addsub_entry nsub f g 0 Nf Ng) as [L _]. rewrite (vv_ge (Nat.max (length f) (length g)) f) by lia.
  rewrite (vv_ge (Nat.max (length f) (length g)) g) by lia. rewrite (vv_ge (Nat.max (length f) (length g))) by (unfold poly_sub_op; lia).
  rewrite v_sub, v_oppm. unfold VV. rewrite <- vs_scale, <- vs_add. apply vs_ext. intros i Hi. unfold poly_sub_op.
  rewrite (proj2 (addsub_entry nsub f g i Nf Ng) Hi), v_sub, v_oppm, v_lin, <- !v_mul. now rewrite (Rmult_comm (-1)).
Qed.
Lemma vv_cons c f x : vvalue sc (c :: f) x = c + x * vvalue sc f x.
Proof. rewrite (vv_ge (S (length f))) by (cbn; lia). rewrite VV_shift. reflexivity. Qed.
Lemma neg_ok (f : list A) x : vvalue sc (poly_neg f) x = nopp (vvalue sc f x).
Proof.
  induction f as [|c f IH]; [cbn; rewrite v_oppm; symmetry; apply v_x0|]. unfold poly_neg in *. cbn [map].
  rewrite !vv_cons, IH, !v_oppm, v_lin, <- !v_mul. now rewrite (Rmult_comm (-1)).
Qed.
Lemma mulvar_ok (f : list A) x : vvalue sc (poly_mulvar f) x = x * vvalue sc f x.
Proof. unfold poly_mulvar. rewrite vv_cons. apply v_0l. Qed.
Lemma div_ok (f : list A) c x : f <> [] -> vvalue sc (vpoly_div0 sc f c) x = (/ c)%R * vvalue sc f x /\ length (vpoly_div0 sc f c) = length f.
Proof.
  intros Nf. unfold vpoly_div0.
  destruct (gen_upd (fun i v => v + (/ c)%R * get f i) (S (porder f)) 0 (poly_zero (porder f))) as [L G].
  { unfold poly_zero. rewrite repeat_length. lia. }
  cbn zeta in L, G. unfold poly_zero in *. rewrite repeat_length in L. set (r := for_up _ _ _ _) in *. rewrite <- len_porder in L by exact Nf.
  split; [|exact L]. rewrite (vv_ge (length f) f), (vv_ge (length f) r) by lia. unfold VV. rewrite <- vs_scale. apply vs_ext. intros i Hi. rewrite G.
  destruct (Nat.leb_spec 0 i), (Nat.ltb_spec i (0 + S (porder f))); cbn [andb]; try (rewrite len_porder in Hi by exact Nf; lia).
  rewrite get_zeros, v_0l, <- !v_mul. now rewrite Rmult_comm.
Qed.
Lemma deriv_ok (f : list A) x : f <> [] -> vvalue sc (vpoly_derivative sc true f) x = vslope sc f x.
Proof.
  intros Nf. unfold vpoly_derivative. pose proof (len_porder f Nf) as Lf. destruct (Nat.eqb_spec (porder f) 0) as [E|E].
  - cbn [andb negb]. unfold vslope. rewrite Lf, E. unfold vvalue. cbn [length nth Nat.sub vsum]. rewrite v_0l. apply v_x0.
  - cbn [andb negb]. unfold vpoly_deriv.
    destruct (gen_upd (fun i _ => INR (S i) * get f (S i)) (porder f) 0 (poly_zero (porder f - 1))) as [L G].
    { unfold poly_zero. rewrite repeat_length. lia. }
    cbn zeta in L, G. unfold poly_zero in *. rewrite repeat_length in L. set (r := for_up _ _ _ _) in *.
    rewrite (vv_ge (length f - 1) r) by lia. apply vs_ext. intros i Hi. rewrite G.
    destruct (Nat.leb_spec 0 i), (Nat.ltb_spec i (0 + porder f)); cbn [andb]; try lia.
    rewrite <- v_mul. unfold get. now rewrite Rmult_comm.
Qed.
End Space.

(** ** Products *)
Section Product.
Context {A B C : Type} {NA : Num A} {NB : Num B} {NC : Num C}.
Context {sa : R -> A -> A} {sb : R -> B -> B} {sx : R -> C -> C} {op : A -> B -> C}.
Hypothesis VA : vector_space A NA sa.
Hypothesis VB : vector_space B NB sb.
Hypothesis VC : vector_space C NC sx.
Hypothesis BL : bilinear sa sb sx op.
Lemma op_0l b : op n0 b = n0.
Proof. apply (v_cancel VC (op n0 b)). rewrite <- (proj1 BL). now rewrite (v_0l VA). Qed.
Lemma op_0r a : op a n0 = n0.
Proof. apply (v_cancel VC (op a n0)). rewrite <- (proj1 (proj2 BL)). now rewrite (v_0l VB). Qed.
Lemma op_sum a n F : op a (vsum n F) = vsum n (fun i => op a (F i)).
Proof. induction n as [|n IH]; cbn [vsum]; [apply op_0r|]. rewrite (proj1 (proj2 BL)). now rewrite IH. Qed.
Lemma op_scr x a b : op a (sb x b) = sx x (op a b). Proof. apply BL. Qed.
Lemma op_scl x a b : op (sa x a) b = sx x (op a b). Proof. apply BL. Qed.
Definition vconv (f : list A) (g : list B) (k : nat) : C := vsum (S k) (fun j => op (get f j) (get g (k - j))).
Lemma vacc_sum (t : nat -> C) n : forall lo s, for_up lo n (fun j s => nadd s (t j)) s = nadd s (vsum n (fun i => t (lo + i)%nat)).
Proof.
  induction n as [|n IH]; intros lo s; cbn [for_up]; [cbn [vsum]; symmetry; apply (v_0r VC)|]. rewrite IH, (vs_shift VC), Nat.add_0_r.
  rewrite (v_assoc VC). f_equal. apply vs_ext. intros. f_equal. lia.
Qed.
Lemma vmul_entry (f : list A) (g : list B) : f <> [] -> g <> [] ->
  length (vpoly_product op f g) = S (porder f + porder g) /\
  forall i, (i <= porder f + porder g)%nat -> get (vpoly_product op f g) i = vconv f g i.
Proof.
  intros Nf Ng. pose proof (len_porder f Nf) as Lf. pose proof (len_porder g Ng) as Lg.
  unfold vpoly_product. set (M := porder f) in *. set (N := porder g) in *. set (body := fun i r => _).
  set (P := fun k (r : list C) => length r = S (M + N) /\ (forall i, (i < k)%nat -> (i <= M + N)%nat -> get r i = vconv f g i) /\ (forall i, (k <= i)%nat -> get r i = n0)).
  assert (HP : P (0 + S (N + M))%nat (for_up 0 (S (N + M)) body (poly_zero (M + N)))).
  { apply (for_up_inv P).
    - split; [unfold poly_zero; now rewrite repeat_length|]. split; [intros i Hi; lia|]. intros i _. apply get_zeros.
    - intros i r Hi (HL & HG & HZ). unfold body. set (j0 := if (N <? i)%nat then (i - N)%nat else 0%nat).
      destruct (gen_acc (fun j => op (get f j) (get g (i - j))) i (S (Nat.min i M) - j0) j0 r ltac:(lia)) as (HL' & HG' & HK'). cbn zeta in *.
      split; [congruence|]. split.
      + intros k Hk Hk'. destruct (Nat.eq_dec k i) as [->|Hn]; [|rewrite HK' by exact Hn; apply HG; lia].
        rewrite HG', HZ by lia. rewrite vacc_sum, (v_0l VC). unfold vconv.
        assert (J : (j0 <= S (Nat.min i M))%nat /\ (forall j, (j < j0)%nat -> (N < i - j)%nat)).
        { unfold j0. destruct (Nat.ltb_spec N i); split; intros; lia. }
        destruct J as [J1 J2]. rewrite (vs_extend VC (S (Nat.min i M)) (S i)); [|lia|].
        2:{ intros j Hj. rewrite (vget_over f) by lia. apply op_0l. }
        replace (S (Nat.min i M)) with (j0 + (S (Nat.min i M) - j0))%nat at 2 by lia. rewrite (vs_split VC).
        rewrite (vs_zero VC j0) by (intros j Hj; rewrite (vget_over g) by (specialize (J2 j Hj); lia); apply op_0r). now rewrite (v_0l VC).
      + intros k Hk. rewrite HK' by lia. apply HZ. lia. }
  destruct HP as (HL & HG & _). split; [exact HL|]. intros i Hi. apply HG; lia.
Qed.
Lemma vconv_cons c f g k : vconv (c :: f) g (S k) = nadd (op c (get g (S k))) (vconv f g k).
Proof. unfold vconv. rewrite (vs_shift VC). reflexivity. Qed.
Lemma VV_conv f g x : forall n, (length f + length g <= S n)%nat -> VV (sc := sx) n (vconv f g) x = op (vvalue sa f x) (vvalue sb g x).
Proof.
  induction f as [|c f IH]; intros n Hn.
  - unfold vvalue at 1. cbn [length vsum]. rewrite op_0l. apply (vs_zero VC). intros i _. unfold vconv.
    rewrite (vs_zero VC); [apply (v_x0 VC)|]. intros j _. rewrite vget_over by (cbn; lia). apply op_0l.
  - cbn [length] in Hn. destruct n as [|n].
    + rewrite (vv_ge VB 0 g) by lia. unfold VV. cbn [vsum]. now rewrite op_0r.
    + rewrite (VV_shift VC). assert (E0 : vconv (c :: f) g 0 = op c (get g 0)).
      { unfold vconv. cbn [vsum]. rewrite (v_0l VC). reflexivity. }
      rewrite E0, (vv_cons VA), (proj1 BL), op_scl, <- (IH n) by lia.
      rewrite (vv_ge VB (S n) g) by lia. rewrite (VV_shift VB), (proj1 (proj2 BL)), op_scr. rewrite <- (v_assoc VC). f_equal.
      rewrite <- (v_lin VC). f_equal. unfold VV at 2. rewrite op_sum. unfold VV. rewrite <- (vs_add VC). apply vs_ext. intros i _.
      rewrite vconv_cons, (v_lin VC), op_scr. reflexivity.
Qed.
Lemma product_ok f g x : f <> [] -> g <> [] -> vvalue sx (vpoly_product op f g) x = op (vvalue sa f x) (vvalue sb g x).
Proof.
  intros Nf Ng. destruct (vmul_entry f g Nf Ng) as [L E]. pose proof (len_porder f Nf). pose proof (len_porder g Ng).
  rewrite (vv_ge VC (S (porder f + porder g))) by lia. rewrite (VV_ext (sc := sx) _ _ (vconv f g)) by (intros i Hi; apply E; lia). apply VV_conv. lia.
Qed.
End Product.

(** ** Theorems *)
(** Numbers, 3-vectors and 3x3 matrices; number * vector, vector * number, matrix * vector
    and matrix * matrix are bilinear. *)
Theorem C86_eigen :
  vector_space R R_num Rmult /\ vector_space vec3 V3_num v3_scale /\ vector_space mat3 M3_num m3_scale /\
  bilinear (NA := V3_num) (NB := R_num) (NC := V3_num) v3_scale Rmult v3_scale (fun a x => v3_scale x a) /\
  bilinear (NA := M3_num) (NB := V3_num) (NC := V3_num) m3_scale v3_scale v3_scale mat_vec /\
  bilinear (NA := M3_num) (NB := M3_num) (NC := M3_num) m3_scale m3_scale m3_scale mat_mat /\
  (forall A (NA : Num A) sc, vector_space A NA sc -> bilinear (NA := R_num) (NB := NA) (NC := NA) Rmult sc sc sc).
Proof.
  assert (E3 : forall (T : Type) (a b c a' b' c' : T), a = a' -> b = b' -> c = c' -> (a, b, c) = (a', b', c')) by (intros; subst; reflexivity).
  split; [repeat split; cbn; intros; ring|].
  split. { repeat split; intros; repeat match goal with a : vec3 |- _ => destruct a as [[? ?] ?] end; cbn; apply (E3 R); ring. }
  split.
  { repeat split; intros; repeat match goal with a : mat3 |- _ => destruct a as [[[[? ?] ?] [[? ?] ?]] [[? ?] ?]] end; cbn;
      apply (E3 vec3); apply (E3 R); ring. }
  split. { repeat split; intros; repeat match goal with a : vec3 |- _ => destruct a as [[? ?] ?] end; cbn; apply (E3 R); ring. }
  split.
  { repeat split; intros; repeat match goal with a : mat3 |- _ => destruct a as [[[[? ?] ?] [[? ?] ?]] [[? ?] ?]] end;
      repeat match goal with a : vec3 |- _ => destruct a as [[? ?] ?] end; cbn; apply (E3 R); ring. }
  split.
  { repeat split; intros; repeat match goal with a : mat3 |- _ => destruct a as [[[[? ?] ?] [[? ?] ?]] [[? ?] ?]] end; cbn;
      apply (E3 vec3); apply (E3 R); ring. }
  intros A NA sc VS. repeat split; intros; cbn [nadd R_num].
  - apply (v_plus VS).
  - apply (v_lin VS).
  - apply (v_mul VS).
  - rewrite <- !(v_mul VS). now rewrite Rmult_comm.
Qed.
Print Assumptions C86_eigen.

Theorem C86_substitution : forall A (NA : Num A) sc, vector_space A NA sc -> forall (f : list A) (x : R), f <> [] ->
  vpoly_value sc f x = vvalue sc f x.
Proof. intros A NA sc VS f x. exact (value_ok VS f x). Qed.
Print Assumptions C86_substitution.

Theorem C86_sums : forall A (NA : Num A) sc, vector_space A NA sc -> forall (f g : list A) (x : R), f <> [] -> g <> [] ->
  vvalue sc (poly_add f g) x = nadd (vvalue sc f x) (vvalue sc g x) /\
  vvalue sc (poly_sub_op f g) x = nsub (vvalue sc f x) (vvalue sc g x) /\
  vvalue sc (poly_neg f) x = nopp (vvalue sc f x) /\
  vvalue sc (poly_mulvar f) x = sc x (vvalue sc f x) /\
  (forall c, vvalue sc (vpoly_div0 sc f c) x = sc (/ c)%R (vvalue sc f x) /\ length (vpoly_div0 sc f c) = length f).
Proof.
  intros A NA sc VS f g x Nf Ng. split; [now apply (add_ok VS)|]. split; [now apply (sub_ok VS)|]. split; [now apply (neg_ok VS)|].
  split; [now apply (mulvar_ok VS)|]. intros c. now apply (div_ok VS).
Qed.
Print Assumptions C86_sums.

(** The product takes at every number the product of the values, in this order. *)
Theorem C86_product : forall A B C (NA : Num A) (NB : Num B) (NC : Num C) sa sb sx (op : A -> B -> C),
  vector_space A NA sa -> vector_space B NB sb -> vector_space C NC sx -> bilinear sa sb sx op ->
  forall (f : list A) (g : list B) (x : R), f <> [] -> g <> [] ->
  vvalue sx (vpoly_product op f g) x = op (vvalue sa f x) (vvalue sb g x) /\
  length (vpoly_product op f g) = (length f + length g - 1)%nat.
Proof.
  intros A B C NA NB NC sa sb sx op VA VB VC BL f g x Nf Ng. split; [now apply (product_ok VA VB VC BL)|].
  destruct (vmul_entry VA VB VC BL f g Nf Ng) as [L _]. pose proof (len_porder f Nf). pose proof (len_porder g Ng). lia.
Qed.
Print Assumptions C86_product.

Theorem C86_derivative : forall A (NA : Num A) sc, vector_space A NA sc -> forall (f : list A) (x : R), f <> [] ->
  vvalue sc (vpoly_derivative sc true f) x = vslope sc f x /\ vpoly_derivative sc false f = [n0].
Proof. intros A NA sc VS f x Nf. split; [now apply (deriv_ok VS)|reflexivity]. Qed.
Print Assumptions C86_derivative.

(** For a 3-vector: the path with the components as coordinates, and its velocity. *)
Definition component (k : nat) (a : vec3) : R := let '(a1, a2, a3) := a in match k with 0%nat => a1 | 1%nat => a2 | _ => a3 end.
Lemma comp_add k a b : component k (v3 Rplus a b) = (component k a + component k b)%R.
Proof. destruct a as [[? ?] ?], b as [[? ?] ?], k as [|[|k]]; reflexivity. Qed.
Lemma comp_scale k x a : component k (v3_scale x a) = (x * component k a)%R.
Proof. destruct a as [[? ?] ?], k as [|[|k]]; reflexivity. Qed.
Lemma comp_0 k : component k (@n0 _ V3_num) = 0%R. Proof. destruct k as [|[|k]]; reflexivity. Qed.
Lemma comp_sum k n F : component k (vsum (NA := V3_num) n F) = vsum (NA := R_num) n (fun i => component k (F i)).
Proof. induction n as [|n IH]; cbn [vsum]; [apply comp_0|]. rewrite <- IH. apply comp_add. Qed.
Lemma comp_value k f x : component k (vvalue (NA := V3_num) v3_scale f x) = vvalue (NA := R_num) Rmult (map (component k) f) x.
Proof.
  unfold vvalue. rewrite comp_sum, map_length. apply vs_ext. intros i Hi. rewrite comp_scale. f_equal.
  change (@n0 R R_num) with 0%R. rewrite <- (comp_0 k). symmetry. apply map_nth.
Qed.
Lemma for_up_same {S} (b b' : nat -> S -> S) n : (forall i s, b i s = b' i s) -> forall lo s, for_up lo n b s = for_up lo n b' s.
Proof. intros E. induction n as [|n IH]; intros lo s; [reflexivity|]. cbn [for_up]. now rewrite E, IH. Qed.
Lemma is_deriv_ext f g x l : (forall u, f u = g u) -> derivable_pt_lim f x l -> derivable_pt_lim g x l.
Proof. intros E D e He. destruct (D e He) as [d Hd]. exists d. intros h H1 H2. rewrite <- !E. now apply Hd. Qed.
Theorem C86_path : forall (f : list vec3) (t : R) (k : nat), f <> [] ->
  component k (vpoly_value (NA := V3_num) v3_scale f t) = poly_eval (map (component k) f) t /\
  derivable_pt_lim (fun u => component k (vpoly_value (NA := V3_num) v3_scale f u)) t
    (component k (vpoly_value (NA := V3_num) v3_scale (vpoly_derivative (NA := V3_num) v3_scale true f) t)).
Proof.
  intros f t k Nf. pose proof C86_eigen as (VR & V3 & _).
  assert (RV : forall (l : list R) x, vvalue (NA := R_num) Rmult l x = PolySpec.pval l x).
  { intros l x. induction l as [|c l IH]; [reflexivity|]. rewrite (vv_cons VR), IH, PolyBase.pval_cons. reflexivity. }
  assert (Nm : map (component k) f <> []) by (destruct f; [congruence|discriminate]).
  assert (EV : forall u, component k (vpoly_value (NA := V3_num) v3_scale f u) = PolySpec.pval (map (component k) f) u).
  { intros u. rewrite (value_ok V3) by exact Nf. now rewrite comp_value, RV. }
  split; [rewrite EV; symmetry; now apply PolyProofs.poly_eval_correct|].
  assert (Nd : vpoly_derivative (NA := V3_num) v3_scale true f <> []).
  { unfold vpoly_derivative. destruct (negb (porder f =? 0)) eqn:E; [|discriminate]. cbn [andb]. unfold vpoly_deriv.
    intros X. apply (f_equal (@length vec3)) in X.
    destruct (gen_upd (H := V3_num) (fun i _ => v3_scale (INR (S i)) (get (H := V3_num) f (S i))) (porder f) 0 (poly_zero (H := V3_num) (porder f - 1))) as [L _].
    { unfold poly_zero. rewrite repeat_length. lia. }
    cbn zeta in L. rewrite X in L. unfold poly_zero in L. rewrite repeat_length in L. discriminate L. }
  rewrite (value_ok V3) by exact Nd. rewrite (deriv_ok V3) by exact Nf.
  assert (D := PolyCalc.poly_derivative_correct (map (component k) f) t Nm).
  assert (G : component k (vslope (NA := V3_num) v3_scale f t) = vslope (NA := R_num) Rmult (map (component k) f) t).
  { unfold vslope. rewrite comp_sum, map_length. apply vs_ext. intros i Hi. rewrite comp_scale. f_equal.
    change (@n0 R R_num) with 0%R. rewrite <- (comp_0 k). symmetry. apply map_nth. }
  rewrite G, <- (deriv_ok VR) by exact Nm.
  replace (vpoly_derivative (NA := R_num) Rmult true (map (component k) f)) with (poly_derivative true (map (component k) f)).
  - rewrite RV. apply is_deriv_ext with (PolySpec.pval (map (component k) f)); [intros u; symmetry; apply EV|exact D].
  - unfold poly_derivative, vpoly_derivative. destruct (negb _); [|reflexivity]. cbn [andb]. unfold poly_deriv, vpoly_deriv.
    apply for_up_same. intros i r. f_equal. rewrite PolyBase.nofnat_INR. cbn [nmul R_num]. apply Rmult_comm.
Qed.
Print Assumptions C86_path.

(** the polynomial with matrix coefficients of the constant [m] times a path *)
Example C86_example : let f := [(3, 2, 1); (1, 2, 3)]%R : list vec3 in let m := ((0, -1, 0), (1, 0, 0), (0, 0, 1))%R : mat3 in
  f <> [] /\ vpoly_value (NA := V3_num) v3_scale f 2%R = (5, 6, 7)%R /\
  vpoly_value (NA := V3_num) v3_scale (vpoly_product (NC := V3_num) (NB := V3_num) (NA := M3_num) mat_vec [m] f) 2%R = (-6, 5, 7)%R /\
  mat_mat m m <> mat_mat m (@n1 _ M3_num).
Proof.
  cbv zeta. split; [discriminate|]. assert (E3 : forall (a b c a' b' c' : R), a = a' -> b = b' -> c = c' -> (a, b, c) = (a', b', c')) by (intros; subst; reflexivity).
  split; [cbn; apply E3; ring|]. split; [cbn; apply E3; ring|].
  intros E. cbn in E. injection E. intros. lra.
Qed.

(** The products are those of linear algebra: entry by entry. *)
Definition row (i : nat) (m : mat3) : vec3 := let '(r1, r2, r3) := m in match i with 0%nat => r1 | 1%nat => r2 | _ => r3 end.
Definition entry (m : mat3) (i j : nat) : R := component j (row i m).
Theorem C86_matrices : forall (m n : mat3) (a b : vec3) (x : R) (i j : nat), i < 3 -> j < 3 ->
  component i (mat_vec m a) = vsum (NA := R_num) 3 (fun k => entry m i k * component k a)%R /\
  entry (mat_mat m n) i j = vsum (NA := R_num) 3 (fun k => entry m i k * entry n k j)%R /\
  (component i (nadd (Num := V3_num) a b) = component i a + component i b)%R /\
  (entry (nadd (Num := M3_num) m n) i j = entry m i j + entry n i j)%R /\
  (component i (v3_scale x a) = x * component i a)%R /\ (entry (m3_scale x m) i j = x * entry m i j)%R /\
  mat_vec (mat_mat m n) a = mat_vec m (mat_vec n a).
Proof.
  intros m n a b x i j Hi Hj.
  assert (E3 : forall (a b c a' b' c' : R), a = a' -> b = b' -> c = c' -> (a, b, c) = (a', b', c')) by (intros; subst; reflexivity).
  destruct m as [[[[? ?] ?] [[? ?] ?]] [[? ?] ?]], n as [[[[? ?] ?] [[? ?] ?]] [[? ?] ?]], a as [[? ?] ?], b as [[? ?] ?].
  destruct i as [|[|[|i]]]; try lia; destruct j as [|[|[|j]]]; try lia; cbn; repeat split; try ring; apply E3; ring.
Qed.
Print Assumptions C86_matrices.
