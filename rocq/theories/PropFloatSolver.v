(** C71: the general real root solver in double arithmetic. *)
From Coq Require Import Lia Lra Arith NArith Nnat ZArith.
From Coq Require Import Sorting.Permutation Sorting.Sorted.
From Flocq Require Import Core Binary Bits.
From Verif Require Import PolySpec PolyBase Sturm.
From Verif Require Import FloatModel FloatSpec FloatProofs PropFloat FloatQuad FloatSolver FloatSturm.
Open Scope R_scope.

#[local] Instance dexp_valid : Valid_exp dexp.
Proof. apply FLT_exp_valid. reflexivity. Qed.
#[local] Instance prec53 : Prec_gt_0 53.
Proof. reflexivity. Qed.

Definition levels : nat := (11 * 1951)%nat.
Lemma levels_Z : Z.of_nat levels = 21461%Z.
Proof. unfold levels. rewrite Nat2Z.inj_mul. reflexivity. Qed.
Lemma levels_enough : bpow radix2 1000 <= (16 / 15) ^ levels * w0.
Proof.
  unfold levels, w0. assert (B : 2 <= (16 / 15) ^ 11) by (cbn [pow]; lra).
  assert (E : 2 ^ 1951 <= (16 / 15) ^ (11 * 1951)). { rewrite pow_mult. apply pow_incr. lra. }
  assert (Z : bpow radix2 1000 = 2 ^ 1951 * bpow radix2 (-951)).
  { replace (2 ^ 1951) with (bpow radix2 1951); [rewrite <- bpow_plus; reflexivity|].
    rewrite bpow_powerRZ. change (IZR radix2) with 2. change 1951%Z with (Z.of_nat 1951). symmetry. apply pow_powerRZ. }
  rewrite Z. apply Rmult_le_compat_r; [apply bpow_ge_0|exact E].
Qed.
#[local] Opaque levels.

(** In doubles.  Let mn and mx be the bounds the solver computes for the positive
    roots (with whatever pow the C library provides), finite, mn >= 2^-900 and
    mx <= 2^1000.  The search for the positive roots returns after at most
    21462 * order passes, never overruns its fixed-size containers, and reports at
    most order values, each of them certified: found by bisection of an interval
    whose ends have computed values of opposite sign (and then it stops as C67
    says); or in an interval narrower than 2^-51 of its lower end across which the
    number of sign changes of the computed Sturm chain differs; or in an interval
    with a point where that number is not between its values at the ends.  One
    thing is excluded: a trap, an interval a few units in the last place wide that
    the loop would reproduce for ever. *)
Theorem C71_positive_partial : forall (pow : d64 -> d64 -> d64) (f : list d64) (mn mx : d64),
  d_LMQ_upper pow f = Ret mx -> d_LMQ_lower pow f = Ret mn -> (2 <= length f)%nat ->
  fin mn -> fin mx -> bpow radix2 (-900) <= dR mn -> dR mx <= bpow radix2 1000 -> ~ trap f mn mx ->
  exists L, (forall fuel, (21462 * (Z.of_nat (length f) - 1) < Z.of_nat fuel)%Z -> d_solve_positive pow fuel f = Ret L) /\
    (length L <= length f - 1)%nat /\ Forall (certified f mn mx) L.
Proof.
  intros pow f mn mx Eu El Ho Fn Fx Hn Hx NT. unfold d_solve_positive. rewrite Eu, El. cbn [obind].
  destruct (d_gt mn mx) eqn:G. { exists []. split; [reflexivity|]. split; [cbn; lia|constructor]. }
  assert (Le : dR mn <= dR mx). { apply Rnot_lt_le. intros H. unfold d_gt in G. apply (d_lt_fin mx mn Fx Fn) in H. congruence. }
  unfold d_push_region. cbn [length].
  assert (PO : porder f = (length f - 1)%nat) by (unfold porder; lia).
  rewrite (proj2 (Nat.ltb_lt 0 (porder f))) by lia. cbn [obind].
  assert (Wn : within mn mx mn) by (split; [exact Fn|lra]). assert (Wx : within mn mx mx) by (split; [exact Fx|lra]).
  rewrite roots_ndiff. set (k := ndiff _ _).
  assert (Kle : (k <= porder f)%nat).
  { unfold k, ndiff. pose proof (changes_order f mn). pose proof (changes_order f mx). lia. }
  destruct (loop_ok f mn mx Hn Hx NT (Nat.max 1 k * S levels) [levels] [(mn, mx, k)] []) as (L & E & L1 & L2 & _).
  - constructor; [|constructor]. repeat (split; [assumption|]). split; [reflexivity|].
    pose proof levels_enough. pose proof (bpow_gt_0 radix2 (-900)). lra.
  - cbn [cost]. unfold load. cbn [snd]. lia.
  - cbn [total fold_right length]. unfold load. cbn [snd]. lia.
  - constructor.
  - exists L. split; [|split; [lia|exact L2]]. intros fuel Hf. apply E. pose proof levels_Z. nia.
Qed.
Print Assumptions C71_positive_partial.

(** When the number of sign changes of the computed chain is monotone between the
    bounds, there is no trap and the search reports exactly as many values as the
    number drops from mn to mx, each from bisection or a narrow interval. *)
Theorem C71_count : forall (pow : d64 -> d64 -> d64) (f : list d64) (mn mx : d64),
  let V := d_sign_changes (d_sturm_chain f) in
  d_LMQ_upper pow f = Ret mx -> d_LMQ_lower pow f = Ret mn -> (2 <= length f)%nat ->
  fin mn -> fin mx -> bpow radix2 (-900) <= dR mn -> dR mn <= dR mx -> dR mx <= bpow radix2 1000 ->
  (forall a b : d64, within mn mx a -> within mn mx b -> dR a <= dR b -> (V b <= V a)%nat) ->
  exists L, (forall fuel, (21462 * (Z.of_nat (length f) - 1) < Z.of_nat fuel)%Z -> d_solve_positive pow fuel f = Ret L) /\
    length L = (V mn - V mx)%nat /\ Forall (fun r => by_bisection f mn mx r \/ by_narrowing f mn mx r) L.
Proof.
  intros pow f mn mx V Eu El Ho Fn Fx Hn Le Hx Mono.
  assert (CL : clean f mn mx).
  { intros a m b Wa Wb (Fm & M1 & M2). assert (Wm : within mn mx m) by (destruct Wa as (_ & ? & ?), Wb as (_ & ? & ?); split; [exact Fm|lra]).
    pose proof (Mono a m Wa Wm M1). pose proof (Mono m b Wm Wb M2). fold V. unfold nbetween. lia. }
  pose proof (bpow_gt_0 radix2 (-900)) as P0.
  assert (NT : ~ trap f mn mx).
  { intros (a & b & Wa & Wb & Hab & _ & NB). apply NB, CL; auto.
    destruct Wa as (Fa & ? & ?), Wb as (Fb & ? & ?).
    destruct (mid_fin a b Fa Fb Hab) as (Fm & _ & M); [apply lt1023; lra|apply lt1023; lra|]. split; [exact Fm|exact M]. }
  unfold d_solve_positive. rewrite Eu, El. cbn [obind].
  rewrite (d_gt_false mn mx Fn Fx Le). unfold d_push_region. cbn [length].
  assert (PO : porder f = (length f - 1)%nat) by (unfold porder; lia).
  rewrite (proj2 (Nat.ltb_lt 0 (porder f))) by lia. cbn [obind].
  assert (Wn : within mn mx mn) by (split; [exact Fn|lra]). assert (Wx : within mn mx mx) by (split; [exact Fx|lra]).
  rewrite roots_ndiff. set (k := ndiff _ _).
  assert (Kle : (k <= porder f)%nat).
  { unfold k, ndiff. pose proof (changes_order f mn). pose proof (changes_order f mx). lia. }
  destruct (loop_ok f mn mx Hn Hx NT (Nat.max 1 k * S levels) [levels] [(mn, mx, k)] []) as (L & E & L1 & L2 & L3).
  - constructor; [|constructor]. repeat (split; [assumption|]). split; [reflexivity|].
    pose proof levels_enough. lra.
  - cbn [cost]. unfold load. cbn [snd]. lia.
  - cbn [total fold_right length]. unfold load. cbn [snd]. lia.
  - constructor.
  - exists L. split; [intros fuel Hf; apply E; pose proof levels_Z; nia|]. split.
    + rewrite (L3 CL). cbn [length ksum fold_right snd]. unfold k, ndiff. pose proof (Mono mn mx Wn Wx Le). fold V. lia.
    + eapply Forall_impl; [|exact L2]. intros r [H|[H|(a & b & m & Wa & Wb & _ & Wm & NB)]]; [auto|auto|].
      exfalso. apply NB, CL; assumption.
Qed.
Print Assumptions C71_count.

(* ------------------------------------------------------------------ *)
(** ** What goes wrong *)

Lemma same_double (x y : d64) : B2FF 53 1024 x = B2FF 53 1024 y -> x = y.
Proof. apply B2FF_inj. Qed.
Ltac dsame := apply same_double; vm_compute; reflexivity.

Lemma loop_more : forall fuel m f c regions retval L,
  d_sturm_loop fuel f c regions retval = Ret L -> d_sturm_loop (fuel + m) f c regions retval = Ret L.
Proof.
  induction fuel as [|fu IH]; intros m f c regions retval L; cbn [d_sturm_loop]; [discriminate|].
  cbn [Nat.add d_sturm_loop]. destruct regions as [|[[a b] k] gs]; [auto|]. cbv zeta.
  destruct (d_le _ _).
  { intros E. apply obind_ret in E as (rv & E1 & E). rewrite E1. cbn [obind]. apply IH, E. }
  destruct (Nat.eqb (d_sturm_roots c a (d_div (d_add a b) d_two) + d_sturm_roots c (d_div (d_add a b) d_two) b)%nat k) eqn:EQ; cbn [negb].
  - rewrite EQ; cbn [negb]; intros E. apply obind_ret in E as ([g1 rv1] & E1 & E). rewrite E1. cbn [obind].
    apply obind_ret in E as ([g2 rv2] & E2 & E). rewrite E2. cbn [obind]. apply IH, E.
  - match goal with |- context [negb ?x] => destruct x end; cbn [negb].
    + intros E. apply obind_ret in E as ([g1 rv1] & E1 & E). rewrite E1. cbn [obind].
      apply obind_ret in E as ([g2 rv2] & E2 & E). rewrite E2. cbn [obind]. apply IH, E.
    + intros E. apply obind_ret in E as (rv & E1 & E). rewrite E1. cbn [obind]. apply IH, E.
Qed.

(** *** bisection with a smaller iteration count gives the same answer if it succeeds *)
Lemma bisect_more : forall n m f prec x lo hi fh tr y tr',
  d_bisect_loop n f prec x lo hi fh tr = (true, y, tr') -> d_bisect_loop (n + m) f prec x lo hi fh tr = (true, y, tr').
Proof.
  induction n as [|n IH]; intros m f prec x lo hi fh tr y tr'; cbn [d_bisect_loop Nat.add]; [discriminate|]. cbv zeta.
  destruct (_ || _)%bool; [auto|]. destruct (Bool.eqb _ _); apply IH.
Qed.
(** 100 passes, and whether that settled the matter *)
Definition quick (f : d64 -> d64) (lo hi : d64) : option (bool * option d64) :=
  match d_bisection f d_default_precision lo hi 100 with
  | (false, Some _, _) => None
  | (ok, x, _) => Some (ok, x)
  end.
Lemma quick_ok f lo hi r : quick f lo hi = Some r -> exists tr, d_bisection f d_default_precision lo hi 0 = (fst r, snd r, tr).
Proof.
  unfold quick, d_bisection. destruct (_ || _ || _)%bool; [intros E; injection E as <-; eexists; reflexivity|].
  destruct (Bool.eqb _ _); [intros E; injection E as <-; eexists; reflexivity|]. cbv zeta.
  set (x := if d_lt _ _ then lo else hi).
  assert (EN : N.to_nat (N.pred (d_iterations 0)) = (N.to_nat (N.pred (d_iterations 100)) + N.to_nat (2 ^ 64 - 101))%nat).
  { rewrite <- N2Nat.inj_add. f_equal. }
  destruct (d_bisect_loop (N.to_nat (N.pred (d_iterations 100))) f d_default_precision x lo hi (f hi) [hi; lo]) as [[ok y] tr] eqn:E.
  destruct ok; [|discriminate]. rewrite EN. rewrite (bisect_more _ _ _ _ _ _ _ _ _ _ _ E). intros E'. injection E' as <-. eexists; reflexivity.
Qed.

(** the same loop with the quick bisection *)
Definition half_q (f : list d64) (a b : d64) (k : nat) (regions : list dregion)
  (retval : list d64) : outcome (list dregion * list d64) :=
  match k with
  | O => Ret (regions, retval)
  | S O =>
      match quick (d_poly_sub f) a b with
      | Some (true, Some root) => do retval <- d_push (porder f) retval root; Ret (regions, retval)
      | Some _ => do regions <- d_push_region (porder f) regions (a, b, k); Ret (regions, retval)
      | None => Fuel
      end
  | _ => do regions <- d_push_region (porder f) regions (a, b, k); Ret (regions, retval)
  end.
Fixpoint loop_q (fuel : nat) (f : list d64) (chain : list (list d64))
  (regions : list dregion) (retval : list d64) : outcome (list d64) :=
  match fuel with
  | O => Fuel
  | S fu =>
      match regions with
      | [] => Ret retval
      | (xmin, xmax, roots) :: regions =>
          let xmid := d_div (d_add xmin xmax) d_two in
          if d_le (d_abs (d_sub xmin xmax)) (d_mul d_eps (d_min (d_abs xmin) (d_abs xmax))) then
            do retval <- d_extend (porder f) retval (repeat xmid roots);
            loop_q fu f chain regions retval
          else
            let ra := d_sturm_roots chain xmin xmid in
            let rb := d_sturm_roots chain xmid xmax in
            let shifted := negb (Nat.eqb (ra + rb) roots) in
            let xmid' := if shifted then d_div (d_add xmid xmax) d_two else xmid in
            let ra' := if shifted then d_sturm_roots chain xmin xmid' else ra in
            let rb' := if shifted then d_sturm_roots chain xmid' xmax else rb in
            if negb (Nat.eqb (ra' + rb') roots) then
              do retval <- d_push (porder f) retval (d_div (d_add xmin xmax) d_two);
              loop_q fu f chain regions retval
            else
              do s <- half_q f xmin xmid' ra' regions retval;
              let '(regions, retval) := s in
              do s <- half_q f xmid' xmax rb' regions retval;
              let '(regions, retval) := s in
              loop_q fu f chain regions retval
      end
  end.
Lemma half_q_ok f a b k regions retval r : half_q f a b k regions retval = Ret r -> d_sturm_half f a b k regions retval = Ret r.
Proof.
  unfold half_q, d_sturm_half. destruct k as [|[|k]]; auto.
  destruct (quick (d_poly_sub f) a b) as [[ok x]|] eqn:E; [|discriminate].
  apply quick_ok in E as (tr & E). cbn [fst snd] in E. rewrite E. destruct ok, x; auto.
Qed.
Lemma loop_q_ok : forall fuel f c regions retval L,
  loop_q fuel f c regions retval = Ret L -> d_sturm_loop fuel f c regions retval = Ret L.
Proof.
  induction fuel as [|fu IH]; intros f c regions retval L; cbn [d_sturm_loop loop_q]; [discriminate|].
  destruct regions as [|[[a b] k] gs]; [auto|]. cbv zeta.
  destruct (d_le _ _).
  { intros E. apply obind_ret in E as (rv & E1 & E). rewrite E1. cbn [obind]. apply IH, E. }
  destruct (Nat.eqb (d_sturm_roots c a (d_div (d_add a b) d_two) + d_sturm_roots c (d_div (d_add a b) d_two) b)%nat k) eqn:EQ; cbn [negb].
  - rewrite EQ; cbn [negb]; intros E. apply obind_ret in E as ([g1 rv1] & E1 & E). rewrite (half_q_ok _ _ _ _ _ _ _ E1). cbn [obind].
    apply obind_ret in E as ([g2 rv2] & E2 & E). rewrite (half_q_ok _ _ _ _ _ _ _ E2). cbn [obind]. apply IH, E.
  - match goal with |- context [negb ?x] => destruct x end; cbn [negb].
    + intros E. apply obind_ret in E as ([g1 rv1] & E1 & E). rewrite (half_q_ok _ _ _ _ _ _ _ E1). cbn [obind].
      apply obind_ret in E as ([g2 rv2] & E2 & E). rewrite (half_q_ok _ _ _ _ _ _ _ E2). cbn [obind]. apply IH, E.
    + intros E. apply obind_ret in E as (rv & E1 & E). rewrite E1. cbn [obind]. apply IH, E.
Qed.

(** *** bounds of a quartic with alternating signs *)
Lemma d_lt_trans (a b c : d64) : d_lt a b = true -> d_lt b c = true -> d_lt a c = true.
Proof.
  destruct (is_finite 53 1024 a) eqn:Fa, (is_finite 53 1024 b) eqn:Fb, (is_finite 53 1024 c) eqn:Fc.
  - rewrite !d_lt_fin by assumption. lra.
  - destruct c as [s|[|]|s pl H|s m e H]; try discriminate Fc; intros _; destruct b as [s'|s'|s' pl' H'|s' m' e' H']; try discriminate Fb;
      try discriminate; intros _; destruct a as [s''|s''|s'' pl'' H''|s'' m'' e'' H'']; try discriminate Fa; reflexivity.
  - destruct b as [s|[|]|s pl H|s m e H]; try discriminate Fb; destruct a as [s''|s''|s'' pl'' H''|s'' m'' e'' H'']; try discriminate Fa; try discriminate;
      intros _; destruct c as [s'|s'|s' pl' H'|s' m' e' H']; try discriminate Fc; discriminate.
  - destruct b as [s|[|]|s pl H|s m e H]; try discriminate Fb; destruct a as [s''|s''|s'' pl'' H''|s'' m'' e'' H'']; try discriminate Fa; try discriminate;
      intros _; destruct c as [s'|[|]|s' pl' H'|s' m' e' H']; try discriminate Fc; discriminate.
  - destruct a as [s|[|]|s pl H|s m e H]; try discriminate Fa; destruct b as [s''|s''|s'' pl'' H''|s'' m'' e'' H'']; try discriminate Fb; try discriminate;
      intros _; destruct c as [s'|s'|s' pl' H'|s' m' e' H']; try discriminate Fc; reflexivity.
  - destruct a as [s|[|]|s pl H|s m e H]; try discriminate Fa; destruct b as [s''|s''|s'' pl'' H''|s'' m'' e'' H'']; try discriminate Fb; try discriminate;
      intros _; destruct c as [s'|[|]|s' pl' H'|s' m' e' H']; try discriminate Fc; try discriminate; reflexivity.
  - destruct a as [s|[|]|s pl H|s m e H]; try discriminate Fa; destruct b as [s''|[|]|s'' pl'' H''|s'' m'' e'' H'']; try discriminate Fb; try discriminate;
      intros _; destruct c as [s'|[|]|s' pl' H'|s' m' e' H']; try discriminate Fc; try discriminate; reflexivity.
  - destruct a as [s|[|]|s pl H|s m e H]; try discriminate Fa; destruct b as [s''|[|]|s'' pl'' H''|s'' m'' e'' H'']; try discriminate Fb; try discriminate;
      intros _; destruct c as [s'|[|]|s' pl' H'|s' m' e' H']; try discriminate Fc; try discriminate; reflexivity.
Qed.
Lemma dominated t x u : d_lt t u = true -> d_maximum (d_min t x) u = u.
Proof.
  intros H. unfold d_min, d_maximum. destruct (d_lt x t) eqn:E; [rewrite (d_lt_trans _ _ _ E H)|rewrite H]; reflexivity.
Qed.

Definition m2 : d64 := d_lit (-2) 0.
Lemma quartic_upper pow c0 c1 c2 c3 c4 :
  (forall x, pow x d_one = x) ->
  d_neq c4 d_zero = true -> d_neq c3 d_zero = true -> d_neq c2 d_zero = true -> d_neq c1 d_zero = true ->
  d_signbit c4 = false -> d_signbit c3 = true -> d_signbit c2 = false -> d_signbit c1 = true -> d_signbit c0 = false ->
  let u := d_div (d_mul m2 c3) c4 in
  d_lt (d_div (d_mul m2 c1) c2) u = true -> d_lt (d_inf false) u = false -> d_lt u d_zero = false ->
  d_LMQ_upper pow [c0; c1; c2; c3; c4] = Ret u.
Proof.
  intros P N4 N3 N2 N1 S4 S3 S2 S1 S0 u Hd Hi Hz. unfold d_LMQ_upper.
  assert (H4 : d_eq c4 d_zero = false) by (unfold d_neq in N4; destruct (d_eq c4 d_zero); [discriminate|reflexivity]).
  cbn [porder length Nat.pred d_highest dget nth]. rewrite H4.
  assert (E1 : d_div d_one (d_lit 1 0) = d_one) by dsame.
  assert (E2 : d_lit (- 2 ^ 1) 0 = m2) by reflexivity.
  repeat (progress (unfold d_lmq_inner, d_opposite, d_neg_shl;
    cbn [for_down Nat.pred dget nth obind repeat length upd Nat.sub Bool.eqb negb andb Nat.ltb Nat.leb fst snd];
    rewrite ?S4, ?S3, ?S2, ?S1, ?S0, ?N4, ?N3, ?N2, ?N1, ?Bool.andb_false_r)).
  change (Z.of_nat 1) with 1%Z. rewrite !E1, !P, !E2. fold u.
  assert (X1 : d_min u (d_inf false) = u) by (unfold d_min; rewrite Hi; reflexivity).
  assert (X2 : d_maximum u d_zero = u) by (unfold d_maximum; rewrite Hz; reflexivity).
  rewrite X1, X2, (dominated _ _ _ Hd). reflexivity.
Qed.


(** polynomials with small integer coefficients are exact in doubles *)
Definition dlist (c : list Z) : list d64 := map (fun z => d_lit z 0) c.
Definition rlist (c : list Z) : list R := map IZR c.

Definition qup (f : list d64) : d64 := d_div (d_mul m2 (dget f 3)) (dget f 4).
Definition qlo (f : list d64) : d64 := d_div d_one (qup (rev f)).
Definition qstart (f : list d64) : list dregion := [(qlo f, qup f, d_sturm_roots (d_sturm_chain f) (qlo f) (qup f))].
Definition qrun (n : nat) (f : list d64) : outcome (list d64) := loop_q n f (d_sturm_chain f) (qstart f) [].

Lemma quartic_positive pow (f : list d64) n L :
  d_LMQ_upper pow f = Ret (qup f) -> d_LMQ_upper pow (rev f) = Ret (qup (rev f)) ->
  d_gt (qlo f) (qup f) = false -> (2 <= length f)%nat -> qrun n f = Ret L ->
  forall fuel, (n <= fuel)%nat -> d_solve_positive pow fuel f = Ret L.
Proof.
  intros Eu El G Ho E fuel Hf. unfold d_solve_positive, d_LMQ_lower. rewrite Eu, El. cbn [obind].
  change (d_div d_one (qup (rev f))) with (qlo f). rewrite G. cbv zeta. unfold d_push_region. cbn [length].
  rewrite (proj2 (Nat.ltb_lt 0 (porder f))) by (unfold porder; lia). cbn [obind].
  replace fuel with (n + (fuel - n))%nat by lia. apply loop_more, loop_q_ok. exact E.
Qed.
Lemma none_positive pow fuel (f : list d64) : d_LMQ_upper pow f = Ret d_zero -> d_LMQ_upper pow (rev f) = Ret d_zero ->
  d_solve_positive pow fuel f = Ret [].
Proof. intros E1 E2. unfold d_solve_positive, d_LMQ_lower. rewrite E1, E2. reflexivity. Qed.

(** Real roots are lost: 8x^4 - 353742x^3 + ... is -1 at 22101 and positive at 0 and
    at 10^5, so it has two real roots; its coefficients are small integers, exact in
    doubles; the solver reports no root, whatever the C library's functions return. *)
Definition missing : list Z := [30870305503199; -64338795726; 3913266260; -353742; 8]%Z.
Theorem C71_missing_roots_refuted :
  map dR (dlist missing) = rlist missing /\
  (exists r1 r2, r1 < r2 /\ pval (rlist missing) r1 = 0 /\ pval (rlist missing) r2 = 0) /\
  forall pow prefer cbrt cos acos, (forall x, pow x d_one = x) ->
    exists n, forall fuel, (n <= fuel)%nat -> d_solve_real_roots pow prefer cbrt cos acos 4 fuel (dlist missing) = Ret [].
Proof.
  assert (PV : forall x, pval (rlist missing) x = (x - 22101) ^ 2 * (8 * x ^ 2 - 126 * x + 63200) - 1).
  { intros x. unfold rlist, missing. cbn [map]. rewrite !pval_cons, pval_nil. ring. }
  split; [|split].
  - unfold dlist, missing, rlist, dR. cbn [map]. repeat f_equal; vm_compute; lra.
  - destruct (pval_ivt (rlist missing) 0 22101) as (r1 & H1 & E1); [lra|rewrite !PV; nra|].
    destruct (pval_ivt (rlist missing) 22101 100000) as (r2 & H2 & E2); [lra|rewrite !PV; nra|].
    exists r1, r2. split; [|auto]. destruct (Req_dec r1 22101) as [X|X]; [|lra]. exfalso. rewrite X, PV in E1. nra.
  - intros pow prefer cbrt cos acos P. exists 60%nat. intros fuel Hf.
    assert (E1 : d_solve_positive pow fuel (dlist missing) = Ret []).
    { apply (quartic_positive pow (dlist missing) 60 []); auto; try reflexivity.
      - apply quartic_upper; auto; reflexivity.
      - apply (quartic_upper pow _ _ _ _ _ P); reflexivity.
      - cbn; lia. }
    assert (E2 : d_solve_positive pow fuel (reflect_poly (H := D_num) (dlist missing)) = Ret []).
    { apply none_positive; reflexivity. }
    cbn [d_solve_real_roots]. change (porder (dlist missing)) with 4%nat. cbn match.
    change (d_eq (dget (dlist missing) 0) d_zero) with false. change (d_eq (dget (dlist missing) 4) d_zero) with false. cbn match.
    unfold d_solve_general. rewrite E1, E2. reflexivity.
Qed.
Print Assumptions C71_missing_roots_refuted.

(** Roots are invented: this polynomial is (x - 54260)^2 q(x) + 1 with q > 0, so it
    has no real root; two values are reported. *)
Definition phantom : list Z := [2281714390001; -450538685800; 26513932735; -976833; 9]%Z.
Theorem C71_phantom_roots_refuted :
  map dR (dlist phantom) = rlist phantom /\ (forall x, 0 < pval (rlist phantom) x) /\
  forall pow prefer cbrt cos acos, (forall x, pow x d_one = x) ->
    exists n, forall fuel, (n <= fuel)%nat ->
      exists L, length L = 2%nat /\ d_solve_real_roots pow prefer cbrt cos acos 4 fuel (dlist phantom) = Ret L.
Proof.
  assert (PV : forall x, pval (rlist phantom) x = (x - 54260) ^ 2 * (9 * x ^ 2 - 153 * x + 775) + 1).
  { intros x. unfold rlist, phantom. cbn [map]. rewrite !pval_cons, pval_nil. ring. }
  split; [|split].
  - unfold dlist, phantom, rlist, dR. cbn [map]. repeat f_equal; vm_compute; lra.
  - intros x. rewrite PV. assert (0 < 9 * x ^ 2 - 153 * x + 775) by (pose proof (pow2_ge_0 (x - 17 / 2)); nra). pose proof (pow2_ge_0 (x - 54260)). nra.
  - intros pow prefer cbrt cos acos P. exists 200%nat. intros fuel Hf.
    assert (Q : match qrun 200 (dlist phantom) with Ret l => Some (length l) | _ => None end = Some 2%nat) by (vm_compute; reflexivity).
    destruct (qrun 200 (dlist phantom)) as [L| | |] eqn:EL; try discriminate Q. injection Q as Q.
    assert (E1 : d_solve_positive pow fuel (dlist phantom) = Ret L).
    { apply (quartic_positive pow (dlist phantom) 200 L); auto; try reflexivity.
      - apply quartic_upper; auto; reflexivity.
      - apply (quartic_upper pow _ _ _ _ _ P); reflexivity.
      - cbn; lia. }
    assert (E2 : d_solve_positive pow fuel (reflect_poly (H := D_num) (dlist phantom)) = Ret []).
    { apply none_positive; reflexivity. }
    cbn [d_solve_real_roots]. change (porder (dlist phantom)) with 4%nat. cbn match.
    change (d_eq (dget (dlist phantom) 0) d_zero) with false. change (d_eq (dget (dlist phantom) 4) d_zero) with false. cbn match.
    unfold d_solve_general. rewrite E1, E2. cbn [obind map d_extend].
    destruct L as [|a [|b [|c L]]]; try discriminate Q. eexists. split; [|reflexivity].
    unfold d_sort. cbn. destruct (d_lt _ _); reflexivity.
Qed.
Print Assumptions C71_phantom_roots_refuted.

(** The search never ends: 2^-1021 x^4 - 4x^3 + 8x^2 - 8x + 8 is positive at 1,
    negative at 2 and positive at 2^1023, so it has two real roots; its bound
    overflows to infinity, and halving [1/2, infinity] gives back the same interval. *)
Definition endless : list d64 := [d_lit 8 0; d_lit (-8) 0; d_lit 8 0; d_lit (-4) 0; d_lit 1 (-1021)].
Theorem C71_never_returns_refuted :
  let f := [8; -8; 8; -4; bpow radix2 (-1021)] in
  map dR endless = f /\
  (exists r1 r2, 1 < r1 < 2 /\ 2 < r2 < bpow radix2 1023 /\ pval f r1 = 0 /\ pval f r2 = 0) /\
  forall pow prefer cbrt cos acos, (forall x, pow x d_one = x) ->
    forall fuel, d_solve_real_roots pow prefer cbrt cos acos 4 fuel endless = Fuel.
Proof.
  intros f.
  assert (PV : forall x, pval f x = 8 - 8 * x + 8 * x ^ 2 - 4 * x ^ 3 + bpow radix2 (-1021) * x ^ 4).
  { intros x. unfold f. rewrite !pval_cons, pval_nil. ring. }
  assert (E1023 : bpow radix2 (-1021) * bpow radix2 1023 = 4).
  { rewrite <- bpow_plus. reflexivity. }
  assert (B : 4 < bpow radix2 1023) by (change 4 with (bpow radix2 2); apply bpow_lt; lia).
  assert (B' : 0 < bpow radix2 (-1021) < / 16).
  { split; [apply bpow_gt_0|]. change (/16) with (bpow radix2 (-4)). apply bpow_lt. lia. }
  split; [|split].
  - unfold endless, f, dR. cbn [map]. repeat f_equal; vm_compute; lra.
  - set (h := bpow radix2 1023) in *. set (e := bpow radix2 (-1021)) in *.
    assert (P1 : pval f 1 > 0) by (rewrite PV; lra). assert (P2 : pval f 2 < 0) by (rewrite PV; lra).
    assert (P3 : pval f h > 0).
    { rewrite PV. replace (e * h ^ 4) with ((e * h) * h ^ 3) by ring. rewrite E1023. nra. }
    destruct (pval_ivt f 1 2) as (r1 & H1 & R1); [lra|nra|].
    destruct (pval_ivt f 2 h) as (r2 & H2 & R2); [lra|nra|].
    exists r1, r2. auto.
  - intros pow prefer cbrt cos acos P fuel.
    assert (Eu : d_LMQ_upper pow endless = Ret (qup endless)) by (apply quartic_upper; auto; reflexivity).
    assert (El : d_LMQ_upper pow (rev endless) = Ret (qup (rev endless))) by (apply (quartic_upper pow _ _ _ _ _ P); reflexivity).
    cbn [d_solve_real_roots]. change (porder endless) with 4%nat. cbn match.
    change (d_eq (dget endless 0) d_zero) with false. change (d_eq (dget endless 4) d_zero) with false. cbn match.
    unfold d_solve_general, d_solve_positive, d_LMQ_lower. rewrite Eu, El. cbn [obind].
    change (d_div d_one (qup (rev endless))) with (qlo endless). change (d_gt (qlo endless) (qup endless)) with false. cbn match. cbv zeta.
    unfold d_push_region. change (Nat.ltb (length (A := dregion) []) (porder endless)) with true. cbn match. cbn [obind].
    assert (K : d_sturm_roots (d_sturm_chain endless) (qlo endless) (qup endless) = 2%nat) by (vm_compute; reflexivity).
    assert (M : d_div (d_add (qlo endless) (qup endless)) d_two = qup endless) by reflexivity.
    assert (K0 : d_sturm_roots (d_sturm_chain endless) (qup endless) (qup endless) = 0%nat) by (vm_compute; reflexivity).
    assert (NR : d_le (d_abs (d_sub (qlo endless) (qup endless))) (d_mul d_eps (d_min (d_abs (qlo endless)) (d_abs (qup endless)))) = false)
      by reflexivity.
    rewrite K.
    assert (S : d_sturm_loop fuel endless (d_sturm_chain endless) [(qlo endless, qup endless, 2%nat)] [] = Fuel).
    { induction fuel as [|fu IH]; [reflexivity|]. cbn [d_sturm_loop]. cbv zeta. rewrite NR, M, K, K0.
      cbn [Nat.add Nat.eqb negb d_sturm_half]. unfold d_push_region. change (Nat.ltb (length (A := dregion) []) (porder endless)) with true.
      cbn match. cbn [obind]. exact IH. }
    match goal with |- obind ?m _ = _ => assert (S' : m = Fuel) by exact S; rewrite S' end. reflexivity.
Qed.
Print Assumptions C71_never_returns_refuted.

(* ------------------------------------------------------------------ *)
(** ** The hypotheses of C71_count are met by x^4 - 1, with a pow that is the identity
    (all the arguments it gets are 2): bounds 1/2 and 2 *)
Definition quart1 : list d64 := dlist [-1; 0; 0; 0; 1]%Z.
Definition two_d : d64 := d_lit 2 0.
Definition half_d : d64 := d_lit 1 (-1).
Lemma rnd_le x y : x <= y -> drnd x <= drnd y.
Proof. intros H. apply round_le; [typeclasses eauto|apply valid_rnd_N|exact H]. Qed.
Lemma rnd_Z (z : Z) : (Z.abs z <= 2 ^ 53)%Z -> drnd (IZR z) = IZR z.
Proof.
  intros H. apply rnd_fmt. apply generic_format_FLT. destruct (Z.eq_dec (Z.abs z) (2 ^ 53)) as [E|E].
  - exists (Float radix2 (z / 2) 1).
    + unfold F2R. cbn [Fnum Fexp bpow radix_val radix2]. change (IZR (Z.pow_pos 2 1)) with 2.
      rewrite <- mult_IZR. f_equal. destruct (Z.abs_eq_or_opp z) as [X|X]; rewrite X in E; [rewrite E; reflexivity|].
      assert (z = (- 2 ^ 53)%Z) by lia. subst z. reflexivity.
    + cbn [Fnum]. destruct (Z.abs_eq_or_opp z) as [X|X]; rewrite X in E; [rewrite E; reflexivity|].
      assert (z = (- 2 ^ 53)%Z) by lia. subst z. reflexivity.
    + cbn. lia.
  - exists (Float radix2 z 0); cbn [Fnum Fexp]; [unfold F2R; cbn; lra| |lia]. change (radix2 ^ 53)%Z with (2 ^ 53)%Z. lia.
Qed.
Lemma rnd_between (a b : Z) x : (Z.abs a <= 2 ^ 53)%Z -> (Z.abs b <= 2 ^ 53)%Z -> IZR a <= x <= IZR b -> IZR a <= drnd x <= IZR b.
Proof. intros Ha Hb [H1 H2]. split; [rewrite <- (rnd_Z a Ha)|rewrite <- (rnd_Z b Hb)]; apply rnd_le; assumption. Qed.

Definition HS (s x c : R) : R := drnd (drnd (s * x) + c).
Lemma hs_ok (s x c : d64) : fin s -> fin x -> fin c -> 0 <= dR s <= 100 -> 0 <= dR x <= 2 -> -1 <= dR c <= 4 ->
  fin (d_add (d_mul s x) c) /\ dR (d_add (d_mul s x) c) = HS (dR s) (dR x) (dR c).
Proof.
  intros Fs Fx Fc Bs Bx Bc. assert (B : 1000 <= bpow radix2 1000).
  { apply Rle_trans with (bpow radix2 10); [cbn; lra|apply bpow_le; lia]. }
  destruct (mul_R s x Fs Fx) as [Fm Em]; [rewrite Rabs_pos_eq; nra|].
  pose proof (rnd_between 0 200 (dR s * dR x) ltac:(lia) ltac:(lia) ltac:(nra)) as Bm.
  destruct (add_R (d_mul s x) c Fm Fc) as (Fa & Ea & _); [rewrite Em; apply Rabs_le; lra|].
  split; [exact Fa|]. unfold HS. rewrite Ea, Em. reflexivity.
Qed.
Lemma rnd0 : drnd 0 = 0.
Proof. apply (round_0 radix2 dexp ZnearestE). Qed.
Lemma rnd_dR (x : d64) : drnd (dR x) = dR x.
Proof. apply rnd_fmt, dR_fmt. Qed.

Definition SQ (r : R) : R := drnd (r * r).
Definition CU (r : R) : R := drnd (SQ r * r).
Definition F4 (r : R) : R := drnd (drnd (CU r * r) + -1).
Lemma rnd_idem x : drnd (drnd x) = drnd x.
Proof. apply rnd_fmt. apply generic_format_round; [typeclasses eauto|apply valid_rnd_N]. Qed.
Lemma F4_mono a b : 0 <= a -> a <= b -> F4 a <= F4 b.
Proof.
  intros H1 H2. unfold F4. apply rnd_le. apply Rplus_le_compat_r. apply rnd_le.
  assert (S1 : 0 <= SQ a <= SQ b) by (split; [apply rnd_pos; nra|apply rnd_le; nra]).
  assert (S2 : 0 <= CU a <= CU b) by (split; [apply rnd_pos; nra|apply rnd_le; nra]). nra.
Qed.

Ltac hnum := unfold dR; vm_compute; lra.
Lemma lit_R (z : Z) v : fin (d_lit z 0) -> dR (d_lit z 0) = v -> fin (d_lit z 0) /\ dR (d_lit z 0) = v.
Proof. auto. Qed.

Lemma quart1_eval (x : d64) : within half_d two_d x ->
  fin (d_poly_sub quart1 x) /\ dR (d_poly_sub quart1 x) = F4 (dR x).
Proof.
  intros (Fx & Bx). assert (Eh : dR half_d = / 2) by hnum. assert (Et : dR two_d = 2) by hnum. rewrite Eh, Et in Bx.
  unfold d_poly_sub. change (Nat.eqb (porder quart1) 0) with false. cbn match.
  replace (d_isinf x) with false by (destruct x; try discriminate Fx; reflexivity).
  assert (Z1 : fin (d_lit 0 0) /\ dR (d_lit 0 0) = 0) by (split; [reflexivity|hnum]).
  assert (O1 : fin (d_lit 1 0) /\ dR (d_lit 1 0) = 1) by (split; [reflexivity|hnum]).
  assert (M1 : fin (d_lit (-1) 0) /\ dR (d_lit (-1) 0) = -1) by (split; [reflexivity|hnum]).
  assert (Z0 : fin d_zero /\ dR d_zero = 0) by (split; [reflexivity|hnum]).
  change (poly_eval (H := D_num) quart1 x) with
    (d_add (d_mul (d_add (d_mul (d_add (d_mul (d_add (d_mul (d_add (d_mul d_zero x) (d_lit 1 0)) x) (d_lit 0 0)) x) (d_lit 0 0)) x) (d_lit 0 0)) x) (d_lit (-1) 0)).
  destruct Z1 as [Z1 Z1'], O1 as [O1 O1'], M1 as [M1 M1'], Z0 as [Z0 Z0'].
  destruct (hs_ok d_zero x (d_lit 1 0)) as [F1 E1]; [assumption|assumption|assumption|lra|lra|lra|].
  rewrite Z0', O1' in E1. unfold HS in E1. rewrite Rmult_0_l, rnd0, Rplus_0_l in E1. rewrite (rnd_Z 1) in E1 by lia.
  set (e1 := d_add (d_mul d_zero x) (d_lit 1 0)) in *.
  destruct (hs_ok e1 x (d_lit 0 0)) as [F2 E2]; [assumption|assumption|assumption|lra|lra|lra|].
  rewrite E1, Z1' in E2. unfold HS in E2. rewrite Rmult_1_l, Rplus_0_r, !rnd_dR in E2.
  set (e2 := d_add (d_mul e1 x) (d_lit 0 0)) in *.
  destruct (hs_ok e2 x (d_lit 0 0)) as [F3 E3]; [assumption|assumption|assumption|lra|lra|lra|].
  rewrite E2, Z1' in E3. unfold HS in E3. rewrite Rplus_0_r, rnd_idem in E3. change (drnd (dR x * dR x)) with (SQ (dR x)) in E3.
  set (e3 := d_add (d_mul e2 x) (d_lit 0 0)) in *.
  assert (B3 : 0 <= SQ (dR x) <= 4) by (apply (rnd_between 0 4); [lia|lia|nra]).
  destruct (hs_ok e3 x (d_lit 0 0)) as [F4' E4]; [assumption|assumption|assumption|lra|lra|lra|].
  rewrite E3, Z1' in E4. unfold HS in E4. rewrite Rplus_0_r, rnd_idem in E4. change (drnd (SQ (dR x) * dR x)) with (CU (dR x)) in E4.
  set (e4 := d_add (d_mul e3 x) (d_lit 0 0)) in *.
  assert (B4 : 0 <= CU (dR x) <= 8) by (apply (rnd_between 0 8); [lia|lia|nra]).
  destruct (hs_ok e4 x (d_lit (-1) 0)) as [F5 E5]; [assumption|assumption|assumption|lra|lra|lra|].
  rewrite E4, M1' in E5. split; [exact F5|exact E5].
Qed.
Lemma d_sign_neg v : fin v -> dR v < 0 -> d_sign v = (-1)%Z.
Proof.
  intros F H. unfold d_sign, d_neq. rewrite (d_eq_false v d_zero F eq_refl) by (replace (dR d_zero) with 0 by hnum; lra). cbn [negb].
  rewrite signbit_neg; auto.
Qed.
Lemma d_sign_pos v : fin v -> 0 < dR v -> d_sign v = 1%Z.
Proof.
  intros F H. unfold d_sign, d_neq. rewrite (d_eq_false v d_zero F eq_refl) by (replace (dR d_zero) with 0 by hnum; lra). cbn [negb].
  rewrite signbit_pos; auto.
Qed.
Lemma d_sign_0 v : fin v -> dR v = 0 -> d_sign v = 0%Z.
Proof.
  intros F H. unfold d_sign, d_neq. replace (d_eq v d_zero) with true; [reflexivity|]. symmetry. apply d_eq_fin; [exact F|reflexivity|].
  rewrite H. hnum.
Qed.
(** the rest of the chain of x^4 - 1: 4x^3, 1, 0, 0 *)
Lemma quart1_chain : exists z1 z2 z3 z4 z5 z6 z7 z8 : d64,
  Forall (fun z : d64 => fin z /\ dR z = 0) [z1; z2; z3; z4; z5; z6; z7; z8] /\
  exists a o : d64, fin a /\ dR a = 4 /\ fin o /\ dR o = 1 /\
  d_sturm_chain quart1 = [quart1; [z1; z2; z3; a]; [o; z4; z5]; [z6; z7]; [z8]].
Proof.
  assert (L : forall (n : nat) (l : list d64), length l = n -> l = map (fun i => nth i l d_zero) (seq 0 n)).
  { intros n l <-. clear. induction l as [|x l IH]; [reflexivity|]. cbn [length seq map nth]. f_equal. rewrite <- seq_shift, map_map. exact IH. }
  set (c := d_sturm_chain quart1).
  assert (Ec : c = [quart1; nth 1 c []; nth 2 c []; nth 3 c []; nth 4 c []]) by reflexivity.
  exists (nth 0 (nth 1 c []) d_zero), (nth 1 (nth 1 c []) d_zero), (nth 2 (nth 1 c []) d_zero),
    (nth 1 (nth 2 c []) d_zero), (nth 2 (nth 2 c []) d_zero), (nth 0 (nth 3 c []) d_zero), (nth 1 (nth 3 c []) d_zero), (nth 0 (nth 4 c []) d_zero).
  split; [repeat constructor; try reflexivity; hnum|].
  exists (nth 3 (nth 1 c []) d_zero), (nth 0 (nth 2 c []) d_zero).
  split; [reflexivity|]. split; [hnum|]. split; [reflexivity|]. split; [hnum|].
  assert (N1 : length (nth 1 c []) = 4%nat) by reflexivity. assert (N2 : length (nth 2 c []) = 3%nat) by reflexivity.
  assert (N3 : length (nth 3 c []) = 2%nat) by reflexivity. assert (N4 : length (nth 4 c []) = 1%nat) by reflexivity.
  clearbody c. apply L in N1, N2, N3, N4. etransitivity; [exact Ec|]. rewrite N1 at 1. rewrite N2 at 1. rewrite N3 at 1. rewrite N4 at 1.
  reflexivity.
Qed.
Lemma quart1_V (x : d64) : within half_d two_d x ->
  d_sign_changes (d_sturm_chain quart1) x = (if Rlt_dec (F4 (dR x)) 0 then 1 else 0)%nat.
Proof.
  intros W. destruct (quart1_eval x W) as [Fq Eq]. destruct W as (Fx & Bx).
  assert (Eh : dR half_d = / 2) by hnum. assert (Et : dR two_d = 2) by hnum. rewrite Eh, Et in Bx.
  assert (NI : d_isinf x = false) by (destruct x; try discriminate Fx; reflexivity).
  assert (Z0 : fin d_zero /\ dR d_zero = 0) by (split; [reflexivity|hnum]). destruct Z0 as [Z0 Z0'].
  destruct quart1_chain as (z1 & z2 & z3 & z4 & z5 & z6 & z7 & z8 & HZ & a & o & Fa & Ea & Fo & Eo & ->).
  repeat match goal with H : Forall _ (_ :: _) |- _ => inversion H; clear H; subst end.
  repeat match goal with H : _ /\ _ |- _ => destruct H end.
  assert (STEP : forall s c : d64, fin s -> fin c -> dR s = 0 -> (dR c = 0 \/ dR c = 1 \/ dR c = 4) ->
    fin (d_add (d_mul s x) c) /\ dR (d_add (d_mul s x) c) = dR c).
  { intros s c Fs Fc Es Ec. destruct (hs_ok s x c) as [F E]; [assumption|assumption|assumption|lra|lra|lra|].
    split; [exact F|]. rewrite E. unfold HS. rewrite Es, Rmult_0_l, rnd0, Rplus_0_l. apply rnd_dR. }
  assert (P1 : d_sign (d_poly_sub [z1; z2; z3; a] x) = 1%Z).
  { unfold d_poly_sub. cbn [porder length Nat.pred Nat.eqb]. rewrite NI.
    change (poly_eval (H := D_num) [z1; z2; z3; a] x) with
      (d_add (d_mul (d_add (d_mul (d_add (d_mul (d_add (d_mul d_zero x) a) x) z3) x) z2) x) z1).
    destruct (STEP d_zero a) as [F1 E1]; [assumption|assumption|assumption|lra|]. set (e1 := d_add (d_mul d_zero x) a) in *.
    destruct (hs_ok e1 x z3) as [F2 E2]; [assumption|assumption|assumption|lra|lra|lra|].
    assert (B2 : 2 <= dR (d_add (d_mul e1 x) z3) <= 8).
    { rewrite E2. unfold HS. replace (dR z3) with 0 by congruence. rewrite Rplus_0_r, rnd_idem. apply (rnd_between 2 8); [lia|lia|nra]. }
    set (e2 := d_add (d_mul e1 x) z3) in *.
    destruct (hs_ok e2 x z2) as [F3 E3]; [assumption|assumption|assumption|lra|lra|lra|].
    assert (B3 : 1 <= dR (d_add (d_mul e2 x) z2) <= 16).
    { rewrite E3. unfold HS. replace (dR z2) with 0 by congruence. rewrite Rplus_0_r, rnd_idem. apply (rnd_between 1 16); [lia|lia|nra]. }
    set (e3 := d_add (d_mul e2 x) z2) in *.
    destruct (hs_ok e3 x z1) as [F4' E4]; [assumption|assumption|assumption|lra|lra|lra|].
    apply d_sign_pos; [exact F4'|]. rewrite E4. unfold HS. replace (dR z1) with 0 by congruence. rewrite Rplus_0_r, rnd_idem.
    apply Rlt_le_trans with (dR half_d); [lra|]. rewrite <- (rnd_dR half_d). apply rnd_le. nra. }
  assert (P2 : d_sign (d_poly_sub [o; z4; z5] x) = 1%Z).
  { unfold d_poly_sub. cbn [porder length Nat.pred Nat.eqb]. rewrite NI.
    change (poly_eval (H := D_num) [o; z4; z5] x) with (d_add (d_mul (d_add (d_mul (d_add (d_mul d_zero x) z5) x) z4) x) o).
    destruct (STEP d_zero z5) as [F1 E1]; [assumption|assumption|assumption|lra|]. set (e1 := d_add (d_mul d_zero x) z5) in *.
    destruct (STEP e1 z4) as [F2 E2]; [assumption|assumption|congruence|lra|]. set (e2 := d_add (d_mul e1 x) z4) in *.
    destruct (STEP e2 o) as [F3 E3]; [assumption|assumption|congruence|lra|]. apply d_sign_pos; [exact F3|lra]. }
  assert (P3 : d_sign (d_poly_sub [z6; z7] x) = 0%Z).
  { unfold d_poly_sub. cbn [porder length Nat.pred Nat.eqb]. rewrite NI.
    change (poly_eval (H := D_num) [z6; z7] x) with (d_add (d_mul (d_add (d_mul d_zero x) z7) x) z6).
    destruct (STEP d_zero z7) as [F1 E1]; [assumption|assumption|assumption|lra|]. set (e1 := d_add (d_mul d_zero x) z7) in *.
    destruct (STEP e1 z6) as [F2 E2]; [assumption|assumption|congruence|lra|]. apply d_sign_0; [exact F2|congruence]. }
  assert (P4 : d_sign (d_poly_sub [z8] x) = 0%Z) by (apply d_sign_0; cbn; assumption).
  unfold d_sign_changes. cbn [d_sign_change_helper]. rewrite P1, P2, P3, P4.
  destruct (Rlt_dec (F4 (dR x)) 0) as [L|L].
  - rewrite d_sign_neg; [reflexivity|exact Fq|lra].
  - destruct (Req_dec (F4 (dR x)) 0) as [Z|Z]; [rewrite d_sign_0|rewrite d_sign_pos]; auto; lra.
Qed.
Lemma same_out (m : outcome d64) (y : d64) :
  match m with Ret x => Some (B2FF 53 1024 x) | _ => None end = Some (B2FF 53 1024 y) -> m = Ret y.
Proof. destruct m; try discriminate. intros E. injection E as E. f_equal. apply same_double, E. Qed.
Example C71_example :
  let f := quart1 in let pow := fun (x _ : d64) => x in
  let V := d_sign_changes (d_sturm_chain f) in
  exists mn mx : d64, dR mn = / 2 /\ dR mx = 2 /\
  d_LMQ_upper pow f = Ret mx /\ d_LMQ_lower pow f = Ret mn /\ (2 <= length f)%nat /\
  fin mn /\ fin mx /\ bpow radix2 (-900) <= dR mn /\ dR mn <= dR mx /\ dR mx <= bpow radix2 1000 /\
  (forall a b : d64, within mn mx a -> within mn mx b -> dR a <= dR b -> (V b <= V a)%nat) /\
  V mn = 1%nat /\ V mx = 0%nat.
Proof.
  intros f pow V. exists half_d, two_d. assert (Eh : dR half_d = / 2) by hnum. assert (Et : dR two_d = 2) by hnum.
  assert (B1 : bpow radix2 (-900) <= / 2) by (change (/ 2) with (bpow radix2 (-1)); apply bpow_le; lia).
  assert (B2 : 2 <= bpow radix2 1000) by (change 2 with (bpow radix2 1); apply bpow_le; lia).
  assert (U : d_LMQ_upper pow f = Ret two_d). { apply same_out. vm_compute. reflexivity. }
  assert (L : d_LMQ_lower pow f = Ret half_d). { apply same_out. vm_compute. reflexivity. }
  assert (N : (2 <= length f)%nat) by (change (length f) with 5%nat; lia).
  split; [exact Eh|]. split; [exact Et|]. split; [exact U|]. split; [exact L|]. split; [exact N|]. split; [reflexivity|]. split; [reflexivity|].
  rewrite Eh, Et. split; [exact B1|]. split; [lra|]. split; [exact B2|].
  split; [|split; vm_compute; reflexivity].
  intros a b Wa Wb H. unfold V. rewrite !quart1_V by assumption.
  pose proof (F4_mono (dR a) (dR b)) as M. destruct Wa as (_ & ? & _). specialize (M ltac:(lra) H).
  destruct (Rlt_dec (F4 (dR b)) 0), (Rlt_dec (F4 (dR a)) 0); lia || lra.
Qed.

(* ------------------------------------------------------------------ *)
(** ** Both signs together *)
Lemma d_extend_spec {A} cap (m l : list A) :
  d_extend cap l m = (if (length l + length m <=? cap)%nat then Ret (l ++ m) else if Nat.eqb (length m) 0 then Ret l else UB).
Proof.
  revert l. induction m as [|x t IH]; intros l; cbn [d_extend length].
  - rewrite Nat.add_0_r, app_nil_r. destruct (_ <=? _)%nat; reflexivity.
  - unfold d_push. destruct (Nat.ltb_spec (length l) cap) as [H|H]; cbn [obind].
    + rewrite IH, app_length. cbn [length]. replace (length l + 1 + length t)%nat with (length l + S (length t))%nat by lia.
      destruct (Nat.leb_spec (length l + S (length t)) cap); [rewrite <- app_assoc; reflexivity|].
      destruct t; [cbn [length] in *; lia|reflexivity].
    + destruct (Nat.leb_spec (length l + S (length t)) cap); [lia|reflexivity].
Qed.
Lemma d_insert_perm x l : Permutation.Permutation (d_insert x l) (x :: l).
Proof.
  induction l as [|y t IH]; cbn [d_insert]; [reflexivity|]. destruct (d_lt y x); [|reflexivity].
  rewrite IH. apply Permutation.perm_swap.
Qed.
Lemma d_sort_perm l : Permutation.Permutation (d_sort l) l.
Proof. induction l as [|x l IH]; cbn; [reflexivity|]. rewrite d_insert_perm. constructor. exact IH. Qed.
Definition srt (l : list d64) : Prop := Sorted.StronglySorted (fun a b : d64 => dR a <= dR b) l.
Lemma d_insert_srt x l : fin x -> Forall (fun y : d64 => fin y) l -> srt l -> srt (d_insert x l).
Proof.
  intros Fx F S. induction S as [|y t S IH A]; cbn [d_insert]; [repeat constructor|]. inversion F as [|? ? Fy Ft]; subst.
  destruct (d_lt y x) eqn:E.
  - apply (d_lt_fin y x Fy Fx) in E. constructor; [apply IH; assumption|].
    rewrite Forall_forall in A |- *. intros z Hz. apply (Permutation.Permutation_in _ (d_insert_perm x t)) in Hz as [<-|Hz]; [lra|apply A, Hz].
  - assert (L : dR x <= dR y). { apply Rnot_lt_le. intros H. apply (d_lt_fin y x Fy Fx) in H. congruence. }
    constructor; [constructor; assumption|]. constructor; [exact L|]. eapply Forall_impl; [|exact A]. cbn. intros z Hz. lra.
Qed.
Lemma d_sort_srt l : Forall (fun y : d64 => fin y) l -> srt (d_sort l).
Proof.
  intros F. induction F as [|x l Fx F IH]; cbn; [constructor|]. apply d_insert_srt; auto.
  rewrite Forall_forall in F |- *. intros y Hy. apply F. apply (Permutation.Permutation_in _ (d_sort_perm l)), Hy.
Qed.

(** Order 4 and above, constant and highest coefficient not zero: the result is
    the values found for f together with the opposites of those found for f(-x), in
    non-decreasing order, provided they fit in the fixed-size result; otherwise the
    result is written out of bounds. *)
Theorem C71_both_signs : forall pow prefer cbrt cos acos n fuel (f L1 L2 : list d64),
  (5 <= length f)%nat -> d_eq (nth 0 f d_zero) d_zero = false -> d_eq (last f d_zero) d_zero = false ->
  d_solve_positive pow fuel f = Ret L1 -> d_solve_positive pow fuel (reflect_poly (H := D_num) f) = Ret L2 ->
  (length L1 <= length f - 1)%nat ->
  if (length L1 + length L2 <=? length f - 1)%nat then
    exists L, d_solve_real_roots pow prefer cbrt cos acos (S n) fuel f = Ret L /\
      Permutation.Permutation L (L1 ++ map d_opp L2) /\
      (Forall (fun r : d64 => fin r) (L1 ++ L2) -> Sorted.StronglySorted (fun a b : d64 => dR a <= dR b) L)
  else d_solve_real_roots pow prefer cbrt cos acos (S n) fuel f = UB.
Proof.
  intros pow prefer cbrt cos acos n fuel f L1 L2 Ho H0 Hl E1 E2 Hc.
  assert (PO : porder f = (length f - 1)%nat) by (unfold porder; lia).
  assert (EL : last f d_zero = dget f (porder f)).
  { unfold dget, porder. destruct f as [|c f]; [cbn in Ho; lia|]. clear. revert c. induction f as [|d f IH]; intros c; [reflexivity|].
    change (last (c :: d :: f) d_zero) with (last (d :: f) d_zero). rewrite IH. reflexivity. }
  assert (U : d_solve_real_roots pow prefer cbrt cos acos (S n) fuel f = d_solve_general pow fuel f).
  { cbn [d_solve_real_roots]. rewrite EL in Hl. rewrite Hl. change (dget f 0) with (nth 0 f d_zero). rewrite H0.
    rewrite PO. destruct (length f - 1)%nat as [|[|[|[|k]]]] eqn:E; try lia. reflexivity. }
  rewrite U. unfold d_solve_general. rewrite E1, E2. cbn [obind]. rewrite d_extend_spec, map_length, PO.
  destruct (_ <=? _)%nat eqn:C.
  - cbn [obind]. eexists. split; [reflexivity|]. split; [apply d_sort_perm|]. intros F. apply d_sort_srt.
    apply Forall_app in F as [Fa Fb]. apply Forall_app. split; [exact Fa|]. clear -Fb. induction Fb as [|x l Fx F IH]; cbn [map]; constructor; auto.
    apply (opp_R x Fx).
  - apply Nat.leb_gt in C. destruct L2; [cbn [length] in C; lia|reflexivity].
Qed.
Print Assumptions C71_both_signs.
Example C71_both_signs_example : forall pow : d64 -> d64 -> d64, (forall x, pow x d_one = x) ->
  exists L1, length L1 = 2%nat /\ (5 <= length (dlist phantom))%nat /\
  d_eq (nth 0 (dlist phantom) d_zero) d_zero = false /\ d_eq (last (dlist phantom) d_zero) d_zero = false /\
  d_solve_positive pow 200 (dlist phantom) = Ret L1 /\ d_solve_positive pow 200 (reflect_poly (H := D_num) (dlist phantom)) = Ret [].
Proof.
  intros pow P.
  assert (Q : match qrun 200 (dlist phantom) with Ret l => Some (length l) | _ => None end = Some 2%nat) by (vm_compute; reflexivity).
  destruct (qrun 200 (dlist phantom)) as [L| | |] eqn:EL; try discriminate Q. injection Q as Q.
  exists L. split; [exact Q|]. split; [change (length (dlist phantom)) with 5%nat; lia|]. split; [reflexivity|]. split; [reflexivity|]. split.
  - apply (quartic_positive pow (dlist phantom) 200 L); auto; try reflexivity.
    + apply quartic_upper; auto; reflexivity.
    + apply (quartic_upper pow _ _ _ _ _ P); reflexivity.
    + change (length (dlist phantom)) with 5%nat; lia.
  - apply none_positive; reflexivity.
Qed.

(* ------------------------------------------------------------------ *)
(** ** Evaluation at an infinity (C02) in doubles *)
(** For finite coefficients and an infinite argument the value is the infinity with
    the sign of the highest non-zero coefficient, flipped at -infinity just when the
    declared order is odd (whatever the degree is); if only the constant coefficient
    is not zero it is that coefficient. *)
Theorem C02_doubles : forall (f : list d64) (s : bool) (n : nat),
  Forall (fun c : d64 => fin c) f -> (n < length f)%nat ->
  dR (nth n f d_zero) <> 0 -> (forall i, (n < i < length f)%nat -> dR (nth i f d_zero) = 0) ->
  d_poly_sub f (d_inf s) =
    if Nat.eqb n 0 then nth 0 f d_zero
    else d_inf (xorb (Rlt_bool (dR (nth n f d_zero)) 0) (s && Nat.odd (length f - 1))).
Proof.
  intros f s n Ff Hn Hc Hz. unfold d_poly_sub. assert (PO : porder f = (length f - 1)%nat) by (unfold porder; lia). rewrite PO.
  destruct (Nat.eqb_spec (length f - 1) 0) as [E0|E0].
  { replace n with 0%nat by lia. reflexivity. }
  change (d_isinf (d_inf s)) with true. cbv iota.
  assert (GF : forall i, fin (dget f i)).
  { intros i. unfold dget. destruct (Nat.lt_ge_cases i (length f)) as [L|L]; [|rewrite nth_overflow by exact L; reflexivity].
    rewrite Forall_forall in Ff. apply Ff, nth_In, L. }
  assert (G : forall k, (n <= k < length f)%nat ->
    d_inf_scan (length f - 1) k f (d_inf s) = if Nat.eqb n 0 then dget f 0 else d_inf_scan (length f - 1) n f (d_inf s)).
  { induction k as [|k IH]; intros Hk.
    - replace n with 0%nat by lia. reflexivity.
    - destruct (Nat.eq_dec n (S k)) as [-> |Ne]; [reflexivity|]. cbn [d_inf_scan].
      unfold d_neq. replace (d_eq (dget f (S k)) d_zero) with true; [apply IH; lia|].
      symmetry. apply d_eq_fin; [apply GF|reflexivity|]. change (dR d_zero) with 0. apply Hz. lia. }
  rewrite G by lia. destruct (Nat.eqb_spec n 0) as [-> |Hn0]; [reflexivity|].
  destruct n as [|k]; [lia|]. cbn [d_inf_scan]. unfold d_neq.
  rewrite d_eq_false; [|apply GF|reflexivity|exact Hc]. cbn [negb].
  change (nth (S k) f d_zero) with (dget f (S k)) in *. pose proof (GF (S k)) as Fk.
  destruct (dget f (S k)) as [b|b|b pl H|b m e H]; try discriminate Fk; [exfalso; apply Hc; reflexivity|].
  assert (SG : Rlt_bool (dR (B754_finite 53 1024 b m e H)) 0 = b).
  { rewrite dR_finite. pose proof (F2R_pos m e). destruct b; [apply Rlt_bool_true|apply Rlt_bool_false]; lra. }
  rewrite SG. destruct (Nat.odd (length f - 1)), b, s; reflexivity.
Qed.
Print Assumptions C02_doubles.
(** 2 - x + 0 x^2 + 0 x^3, declared order 3: +infinity at -infinity *)
Example C02_doubles_example : let f := dlist [2; -1; 0; 0]%Z in
  Forall (fun c : d64 => fin c) f /\ dR (nth 1 f d_zero) <> 0 /\ (forall i, (1 < i < length f)%nat -> dR (nth i f d_zero) = 0) /\
  d_poly_sub f (d_inf true) = d_inf false.
Proof.
  intros f. split; [repeat constructor|]. split; [unfold f, dR; vm_compute; lra|]. split.
  - change (length f) with 4%nat. intros i Hi. assert (i = 2 \/ i = 3)%nat as [-> | ->] by lia; unfold f, dR; vm_compute; reflexivity.
  - reflexivity.
Qed.
(** a polynomial of declared order at least 1 is NaN at NaN *)
Theorem C02_doubles_nan : forall (f : list d64) (x : d64),
  (2 <= length f)%nat -> d_isnan x = true -> d_isnan (d_poly_sub f x) = true.
Proof.
  intros f x H N. unfold d_poly_sub. unfold poly_eval. assert (P : Nat.eqb (porder f) 0 = false) by (apply Nat.eqb_neq; unfold porder; lia).
  rewrite P, (isnan_not_inf x N). apply isnan_add. left. apply isnan_mul, N.
Qed.
Print Assumptions C02_doubles_nan.
Example C02_doubles_nan_example : (2 <= length (dlist [2; -1; 0; 0]%Z))%nat /\ d_isnan (d_div d_zero d_zero) = true.
Proof. split; [change (length (dlist [2; -1; 0; 0]%Z)) with 4%nat; lia|reflexivity]. Qed.
