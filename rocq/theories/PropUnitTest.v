(** C66: the test harness. *)
From Coq Require Import List ZArith NArith Reals Bool Lia Lra.
From Verif Require Import Outcome UnitTestModel.
Import ListNotations.
Open Scope nat_scope.

(* ---------------------------------------------------------- specification *)
(** the tests that are started: those up to the first that ends with an exception *)
Fixpoint reached (ts : list test) : list test :=
  match ts with
  | [] => []
  | t :: rest => t :: match ending_of t with Returns => reached rest | _ => [] end
  end.
(** the number of failed checks and caught exceptions among some tests *)
Definition failures (ts : list test) : nat :=
  fold_right (fun t n => length (filter negb (checks t)) + match ending_of t with StdException => 1 | _ => 0 end + n) 0 ts.
Definition fatal (t : test) : Prop := ending_of t = OtherException.
Definition clean (t : test) : Prop := Forall (fun c => c = true) (checks t) /\ ending_of t = Returns.

(* ------------------------------------------------------------------ proofs *)
Lemma size_pos : size_mod <> 0%N. Proof. discriminate. Qed.
Lemma bump_mod a : bump (N.modulo a size_mod) = N.modulo (a + 1) size_mod.
Proof. unfold bump. now rewrite N.add_mod_idemp_l by apply size_pos. Qed.
Lemma run_checks_count cs : forall a, run_checks cs (N.modulo a size_mod) =
  N.modulo (a + N.of_nat (length (filter negb cs))) size_mod.
Proof.
  unfold run_checks. induction cs as [|c cs IH]; intros a; cbn [fold_left filter length].
  - now rewrite N.add_0_r.
  - destruct c; cbn [negb]; auto. rewrite bump_mod, IH. f_equal. cbn [length]. lia.
Qed.
Lemma loop_spec ts : forall a k, exists o,
  run_loop ts (N.modulo a size_mod) k = (o, k + length (reached ts)) /\
  match o with
  | inl n => n = N.modulo (a + N.of_nat (failures (reached ts))) size_mod /\ ~ Exists fatal (reached ts)
  | inr _ => Exists fatal (reached ts)
  end.
Proof.
  induction ts as [|t ts IH]; intros a k; cbn [run_loop reached].
  - eexists. split; [now rewrite Nat.add_0_r|]. cbn. rewrite N.add_0_r. split; auto. intros H. inversion H.
  - rewrite run_checks_count. destruct (ending_of t) eqn:E.
    + destruct (IH (a + N.of_nat (length (filter negb (checks t))))%N (S k)) as (o & -> & H). exists o.
      cbn [length]. split; [f_equal; lia|]. destruct o.
      * destruct H as [-> H]. split; [cbn [failures fold_right]; rewrite E; f_equal; fold (failures (reached ts)); lia|].
        intros X. inversion X; subst; auto. unfold fatal in *. congruence.
      * now right.
    + eexists. cbn [length]. split; [f_equal; lia|]. rewrite bump_mod. split.
      * cbn [failures fold_right]. rewrite E. f_equal. lia.
      * intros X. inversion X; subst; [unfold fatal in *; congruence|inversion H0].
    + eexists. cbn [length]. split; [f_equal; lia|]. left. exact E.
Qed.

(** The exit status, for every suite: an exception that is not a std::exception
    terminates the process; otherwise the status is 0 iff the number of failures
    (failed checks, and the exception that ended the run) is a multiple of 2^64. *)
Theorem C66_exit_status : forall ts,
  started ts = length (reached ts) /\
  (Exists fatal (reached ts) -> main_result ts = Terminated) /\
  (~ Exists fatal (reached ts) ->
     main_result ts = Exit (if N.eqb (N.modulo (N.of_nat (failures (reached ts))) size_mod) 0 then 0 else 1)).
Proof.
  intros ts. destruct (loop_spec ts 0 0) as (o & E & H). change (N.modulo 0 size_mod) with 0%N in E.
  unfold started, main_result. rewrite E. cbn [fst snd]. split; [reflexivity|].
  destruct o; [destruct H as [-> H]|]; split; intros X; try contradiction; auto.
  rewrite N.add_0_l. set (m := N.modulo _ _). clearbody m. destruct m; reflexivity.
Qed.
Print Assumptions C66_exit_status.

Lemma failures_clean ts : failures (reached ts) = 0 -> ~ Exists fatal (reached ts) -> Forall clean ts.
Proof.
  induction ts as [|t ts IH]; cbn [reached failures fold_right]; intros H X; [constructor|].
  destruct (ending_of t) eqn:E.
  - constructor.
    + split; auto. apply Forall_forall. intros c Hc. destruct c; auto. exfalso.
      assert (In false (filter negb (checks t))) by (apply filter_In; auto).
      destruct (filter negb (checks t)); [contradiction|cbn in H; lia].
    + apply IH; [unfold failures; lia|]. intros Y. apply X. now right.
  - lia.
  - exfalso. apply X. left. exact E.
Qed.
Lemma clean_reached ts : Forall clean ts -> reached ts = ts /\ failures ts = 0 /\ ~ Exists fatal ts.
Proof.
  induction 1 as [|t ts [C E] H (IH1 & IH2 & IH3)]; cbn [reached failures fold_right]; [repeat split; intros X; inversion X|].
  rewrite E, IH1. split; auto. split.
  - fold (failures ts). rewrite IH2.
    assert (filter negb (checks t) = []) as ->; auto.
    induction C as [|c cs -> Hc IHc]; auto.
  - intros X. inversion X; subst; auto. unfold fatal in *. congruence.
Qed.

(** A suite passes iff all its tests end normally with every check holding
    (unless it fails at least 2^64 times). *)
Theorem C66_passes_iff : forall ts, (N.of_nat (failures (reached ts)) < 2 ^ 64)%N ->
  (main_result ts = Exit 0 <-> Forall clean ts) /\
  (Forall clean ts -> started ts = length ts).
Proof.
  intros ts L. destruct (C66_exit_status ts) as (S & A & B). split.
  - split.
    + intros M. assert (NF : ~ Exists fatal (reached ts)) by (intros X; rewrite (A X) in M; discriminate).
      rewrite (B NF) in M. change (2 ^ 64)%N with size_mod in L. rewrite N.mod_small in M by auto.
      destruct (N.eqb_spec (N.of_nat (failures (reached ts))) 0); [|discriminate]. apply failures_clean; auto. lia.
    + intros C. apply clean_reached in C. destruct C as (R & F & X). rewrite R in *. rewrite (B X), F. reflexivity.
  - intros C. apply clean_reached in C. destruct C as (R & _ & _). now rewrite S, R.
Qed.
Print Assumptions C66_passes_iff.

Open Scope R_scope.
(** check_close with a finite tolerance.  It never holds for NaN or infinities,
    not even for equal infinities; for numbers it bounds the difference relative
    to both, except that a first argument 0 makes it absolute. *)
Theorem C66_close : forall l r t,
  check_close l r (Num t) = true <->
  exists x y, l = Num x /\ r = Num y /\
    ((x = 0 /\ Rabs y <= t) \/
     (x <> 0 /\ y <> 0 /\ Rabs (x - y) <= t * Rabs x /\ Rabs (x - y) <= t * Rabs y)).
Proof.
  assert (Pos : forall x, x <> 0 -> 0 < Rabs x) by (intros; now apply Rabs_pos_lt).
  assert (Dv : forall a b t, 0 < b -> (a / b <= t <-> a <= t * b)).
  { intros a b t Hb. split; intros H.
    - apply (Rmult_le_compat_r b) in H; [|lra]. unfold Rdiv in H. rewrite Rmult_assoc, Rinv_l in H by lra. lra.
    - apply Rmult_le_reg_r with b; auto. unfold Rdiv. rewrite Rmult_assoc, Rinv_l by lra. lra. }
  intros l r t. unfold check_close. split.
  - destruct l as [| | |x].
    1-3: destruct r as [| | |y]; cbn; try discriminate; destruct (Req_EM_T (Rabs y) 0); cbn; discriminate.
    cbn [d_is0]. destruct (Req_EM_T x 0) as [->|Hx].
    + destruct r as [| | |y]; cbn; try discriminate. destruct (Rle_dec (Rabs y) t); [|discriminate]. intros _.
      exists 0, y. auto.
    + assert (Ax : Rabs x <> 0) by (specialize (Pos x Hx); lra).
      destruct r as [| | |y]; cbn; try discriminate.
      destruct (Req_EM_T (Rabs x) 0) as [|_]; [contradiction|].
      destruct (Req_EM_T (Rabs y) 0) as [Zy|Ay].
      * assert (y = 0) by (destruct (Req_dec y 0); auto; now apply Rabs_no_R0 in H). subst y.
        destruct (Req_EM_T (Rabs (x - 0)) 0) as [E|_]; [rewrite Rminus_0_r in E; contradiction|]. cbn. discriminate.
      * assert (Hy : y <> 0) by (intros ->; apply Ay, Rabs_R0).
        intros C. exists x, y. split; auto. split; auto. right. split; auto. split; auto.
        unfold d_max in C. cbn in C. destruct (Rlt_dec _ _) in C; cbn in C; destruct (Rle_dec _ _) in C; try discriminate;
          split; apply Dv; auto; lra.
  - intros (x & y & -> & -> & H). cbn. destruct H as [[-> H]|(Hx & Hy & H1 & H2)].
    + destruct (Req_EM_T 0 0); [|congruence]. cbn. destruct (Rle_dec (Rabs y) t); auto.
    + destruct (Req_EM_T x 0); [contradiction|].
      destruct (Req_EM_T (Rabs x) 0) as [Z|_]; [now apply Rabs_no_R0 in Z|].
      destruct (Req_EM_T (Rabs y) 0) as [Z|_]; [now apply Rabs_no_R0 in Z|].
      apply Dv in H1; auto. apply Dv in H2; auto. unfold d_max. cbn.
      destruct (Rlt_dec _ _); cbn; destruct (Rle_dec _ _); auto.
Qed.
Print Assumptions C66_close.

(** In particular it is not symmetric at zero. *)
Theorem C66_close_asymmetric : forall y t, y <> 0 -> Rabs y <= t ->
  check_close (Num 0) (Num y) (Num t) = true /\ check_close (Num y) (Num 0) (Num t) = false.
Proof.
  intros y t Hy Ht. split.
  - apply C66_close. exists 0, y. auto.
  - apply not_true_iff_false. intros C. apply C66_close in C. destruct C as (a & b & E1 & E2 & H).
    injection E1 as <-. injection E2 as <-. destruct H as [[H _]|(_ & H & _)]; congruence.
Qed.
Print Assumptions C66_close_asymmetric.
(** For non-zero numbers the order of the arguments does not matter. *)
Theorem C66_close_symmetric : forall x y t, x <> 0 -> y <> 0 ->
  check_close (Num x) (Num y) (Num t) = check_close (Num y) (Num x) (Num t).
Proof.
  intros x y t Hx Hy. apply eq_true_iff_eq. rewrite !C66_close.
  split; intros (a & b & E1 & E2 & H); injection E1 as <-; injection E2 as <-;
    (destruct H as [[H _]|(_ & _ & H1 & H2)]; [contradiction|]); eexists; eexists; (split; [reflexivity|]); (split; [reflexivity|]);
    right; rewrite (Rabs_minus_sym _ _); auto.
Qed.
Print Assumptions C66_close_symmetric.

(** check_small holds iff the value is a number not larger than the tolerance;
    never for NaN or an infinity. *)
Theorem C66_small : forall l t, check_small l (Num t) = true <-> exists x, l = Num x /\ Rabs x <= Rabs t.
Proof.
  intros l t. unfold check_small. destruct l as [| | |x]; cbn; split; try discriminate;
    try (intros (y & E & _); discriminate).
  - destruct (Rle_dec _ _); [eauto|discriminate].
  - intros (y & E & H). injection E as <-. destruct (Rle_dec _ _); auto.
Qed.
Print Assumptions C66_small.
(** An infinite tolerance: everything that is a value passes.  A tolerance that is
    NaN or, for check_close, minus infinity: nothing passes. *)
Theorem C66_small_any_tolerance : forall l,
  (check_small l PosInf = true <-> l <> NaN) /\ (check_small l NegInf = true <-> l <> NaN) /\ check_small l NaN = false.
Proof.
  intros l. unfold check_small. destruct l; cbn; repeat split; intros; try discriminate; congruence.
Qed.
Print Assumptions C66_small_any_tolerance.
Theorem C66_close_any_tolerance : forall l r,
  (check_close l r PosInf = true <-> (exists x, l = Num x) /\ r <> NaN) /\
  check_close l r NegInf = false /\ check_close l r NaN = false.
Proof.
  assert (Z0 : forall d, d_le d NaN = false) by (intros []; reflexivity).
  assert (Ab : forall d, d_abs d <> NegInf) by (intros []; discriminate).
  assert (Dv : forall a b, a <> NegInf -> d_div a b <> NegInf).
  { intros [] [] N; cbn; try discriminate; try congruence. destruct (Req_EM_T x0 0); [destruct (Req_EM_T x 0)|]; discriminate. }
  assert (Le : forall d, d <> NegInf -> d_le d NegInf = false) by (intros []; cbn; congruence).
  intros l r. split; [|split].
  - destruct l as [| | |x]; cbn.
    + split; [discriminate|]. intros [[x E] _]. discriminate.
    + destruct r as [| | |y]; (split; [|intros [[x E] _]; discriminate]); cbn; discriminate.
    + destruct r as [| | |y]; (split; [|intros [[x E] _]; discriminate]); cbn; discriminate.
    + unfold check_close, d_is0. destruct (Req_EM_T x 0) as [X|X].
      * destruct r as [| | |y]; cbn; split; try (intros [_ N]; congruence); try reflexivity; try discriminate;
          intros _; (split; [eauto|discriminate]).
      * assert (Ax : Rabs x <> 0) by now apply Rabs_no_R0.
        destruct r as [| | |y]; cbn; destruct (Req_EM_T (Rabs x) 0); try contradiction; unfold d_max; cbn.
        -- split; [discriminate|]. intros [_ N]. congruence.
        -- split; auto. intros _. split; [eauto|discriminate].
        -- split; auto. intros _. split; [eauto|discriminate].
        -- destruct (Req_EM_T (Rabs y) 0); [destruct (Req_EM_T (Rabs (x - y)) 0)|]; cbn; try (destruct (Rlt_dec _ _); cbn);
             (split; [intros _; split; [eauto|discriminate]|reflexivity]).
  - unfold check_close. apply Le. destruct (d_is0 l); [apply Ab|]. unfold d_max. destruct (d_lt _ _); apply Dv, Ab.
  - apply Z0.
Qed.
Print Assumptions C66_close_any_tolerance.

Close Scope R_scope.
Example C66_ex :
  let ok := {| checks := [true; true]; ending_of := Returns |} in
  let bad := {| checks := [true; false; true]; ending_of := Returns |} in
  let thrown := {| checks := [true]; ending_of := StdException |} in
  let fatal := {| checks := [true]; ending_of := OtherException |} in
  main_result [ok; ok] = Exit 0 /\ main_result [ok; bad; ok] = Exit 1 /\ started [ok; bad; ok] = 3 /\
  main_result [ok; thrown; ok] = Exit 1 /\ started [ok; thrown; ok] = 2 /\
  main_result [bad; fatal; ok] = Terminated.
Proof. repeat split. Qed.
