(** C22, C23, C52: bisection, safeguarded iterations, cancellation estimates. *)
From Verif Require Import Num Outcome PolyModel NumericModel NumericSpec NumericProofs.
From Coq Require Import Lra Lia Reals NArith ZArith Relation_Operators.
Open Scope R_scope.

(* ---------------------------------------------------------------- C22 *)
(** Exact real arithmetic, any function, any precision, any iteration limit:
    f is only evaluated inside [lo,hi], x ends inside [lo,hi], success means
    that f(x)=0 or that f changes sign between two points of [lo,hi] around x
    that are all within prec*|x| of x, and failure means that the iteration
    limit was used up. *)
Theorem C22_bisection : forall (f : R -> R) prec lo hi iterations,
  lo < hi -> sign_change f lo hi ->
  exists ok x trace,
    bisection f prec (Fin lo) (Fin hi) iterations = (ok, Some x, trace) /\
    lo <= x <= hi /\ Forall (fun y => lo <= y <= hi) trace /\
    (ok = true ->
       f x = 0 \/
       exists a b, lo <= a /\ a < b /\ b <= hi /\ a <= x <= b /\ sign_change f a b /\
                   (forall y, a <= y <= b -> Rabs (y - x) < Rabs (prec * x))) /\
    (ok = false -> length trace = (2 + N.to_nat (N.pred (if N.eqb iterations 0 then 2 ^ 64 - 1 else iterations)))%nat).
Proof.
  intros f prec lo hi it Hlt Hs.
  unfold bisection. cbn [nltb R_num].
  destruct (Rltb_spec lo hi) as [_|?]; [|lra]. cbn [negb].
  destruct (Bool.eqb (signbit (f lo)) (signbit (f hi))) eqn:E.
  { apply signbit_eq in E. unfold sign_change in Hs. lra. }
  set (x0 := if Rltb (nabs (f lo)) (nabs (f hi)) then lo else hi).
  assert (Hx0 : x0 = lo \/ x0 = hi) by (unfold x0; destruct Rltb; auto).
  pose proof (bisect_loop_correct f prec lo hi x0 Hx0 (N.to_nat (N.pred (eff_iterations it)))
                lo hi (f hi) [hi; lo]) as P.
  destruct (bisect_loop _ f prec x0 lo hi (f hi) [hi; lo]) as [[ok x] tr].
  destruct P as (H1 & H2 & H3 & H4); try lra; auto.
  { repeat constructor; lra. }
  exists ok, x, tr. split; [reflexivity|]. split; [exact H1|]. split; [exact H2|].
  split; [exact H3|].
  intros Hf; rewrite (H4 Hf). unfold eff_iterations. cbn [length]. lia.
Qed.

(** for a continuous function a success pins down a root *)
Theorem C22_bisection_root : forall (f : R -> R) prec lo hi iterations x trace,
  continuity f -> lo < hi -> sign_change f lo hi ->
  bisection f prec (Fin lo) (Fin hi) iterations = (true, Some x, trace) ->
  exists r, lo <= r <= hi /\ f r = 0 /\ (r = x \/ Rabs (r - x) < Rabs (prec * x)).
Proof.
  intros f prec lo hi it x tr Hc Hlt Hs E.
  destruct (C22_bisection f prec lo hi it Hlt Hs) as (ok & x' & tr' & E' & Hx & _ & Hok & _).
  rewrite E in E'. injection E' as <- <- <-.
  destruct (Hok eq_refl) as [Hz|(a & b & Ha & Hab & Hb & Hxx & Hsc & Hy)].
  - exists x. auto.
  - destruct (sign_differs_root f a b Hab Hc Hsc) as (r & Hr & Hr0).
    exists r. repeat split; auto; try lra. 
Qed.

(** invalid intervals are rejected without touching x *)
Theorem C22_invalid : forall (f : R -> R) prec low high iterations,
  (match low, high with
   | Fin lo, Fin hi => hi <= lo \/ (f lo < 0 /\ f hi < 0) \/ (0 <= f lo /\ 0 <= f hi)
   | _, _ => True
   end) ->
  exists trace, bisection f prec low high iterations = (false, None, trace).
Proof.
  intros f prec [lo| |] [hi| |] it H; cbn [bisection]; try (eexists; reflexivity).
  cbn [nltb R_num]. destruct (Rltb_spec lo hi); cbn [negb]; [|eauto].
  destruct H as [H|H]; [lra|]. apply signbit_eq in H. rewrite H. eauto.
Qed.

(** On a number type with finitely many values between lo and hi (idx numbers
    them) and whose computed midpoint stays between lo and hi, bisection with
    enough iterations always returns true: for doubles there are fewer than
    2^64-2 values, so the default iteration limit is never met. *)
Theorem C22_terminates_on_grid : forall (K : Type) (HK : Num K) (idx : K -> Z),
  (forall a b, nltb a b = true <-> (idx a < idx b)%Z) ->
  (forall a b, neqb a b = true <-> idx a = idx b) ->
  (forall a b, (idx a < idx b)%Z -> (idx a <= idx (ndiv (nadd a b) n2) <= idx b)%Z) ->
  forall (f : K -> K) prec lo hi,
  (idx lo < idx hi)%Z -> (idx hi - idx lo <= 2 ^ 64 - 2)%Z ->
  nltb (f lo) n0 <> nltb (f hi) n0 ->
  exists x trace, bisection f prec (Fin lo) (Fin hi) 0 = (true, Some x, trace).
Proof.
  intros K HK idx Hlt Heq Hmid f prec lo hi Hi Hw Hs.
  unfold bisection. rewrite (proj2 (Hlt lo hi) Hi). cbn [negb].
  destruct (Bool.eqb (signbit (f lo)) (signbit (f hi))) eqn:E.
  { apply Bool.eqb_prop in E. unfold signbit in E. contradiction. }
  destruct (bisect_loop_grid idx Heq Hmid f prec
              (if nltb (nabs (f lo)) (nabs (f hi)) then lo else hi)
              (N.to_nat (N.pred (eff_iterations 0))) lo hi (f hi) [hi; lo] Hi) as (x & tr & R).
  { rewrite N_nat_Z. exact Hw. }
  rewrite R. eauto.
Qed.

(** the hypotheses are met by an integer (fixed point) grid *)
Example C22_grid_example : forall (f : Z -> Z), (f (-5) < 0)%Z -> (0 <= f 1000)%Z ->
  exists x trace, bisection (H := Z_num) f 0%Z (Fin (-5)%Z) (Fin 1000%Z) 0 = (true, Some x, trace).
Proof.
  intros f H1 H2.
  apply (C22_terminates_on_grid Z Z_num (fun z => z)).
  - intros; cbn. apply Z.ltb_lt.
  - intros; cbn. apply Z.eqb_eq.
  - intros a b Hab; cbn. pose proof (Z.quot_rem' (a + b) 2). pose proof (Z.rem_bound_abs (a+b) 2 ltac:(lia)).
    assert ((a + b < 0 -> Z.rem (a+b) 2 <= 0) /\ (0 <= a + b -> 0 <= Z.rem (a+b) 2))%Z.
    { split; intros; [apply Z.rem_nonpos|apply Z.rem_nonneg]; lia. }
    change (1 + 1)%Z with 2%Z. lia.
  - lia.
  - cbn. lia.
  - cbn. intros E. apply Z.ltb_lt in H1. rewrite H1 in E. symmetry in E. apply Z.ltb_lt in E. lia.
Qed.

(** What fails: x is set to an end point and never updated inside the loop, so
    the precision test compares each midpoint with that end point.  On x - 1/3
    over [0,1] no requested precision, however coarse, ever stops the loop. *)
Theorem C22_precision_refuted : forall prec iterations, 0 < prec <= 1 ->
  exists trace,
  bisection (fun x => x - / 3) prec (Fin 0) (Fin 1) iterations = (false, Some 0, trace).
Proof.
  intros prec it Hp. unfold bisection. cbn [nltb R_num].
  destruct (Rltb_spec 0 1) as [_|?]; [|lra]. cbn [negb].
  destruct (Bool.eqb _ _) eqn:E.
  { apply signbit_eq in E. lra. }
  rewrite !nabs_R.
  replace (Rabs (0 - / 3)) with (/ 3) by (rewrite Rabs_left; lra).
  replace (Rabs (1 - / 3)) with (2 * / 3) by (rewrite Rabs_right; lra).
  destruct (Rltb_spec (/ 3) (2 * / 3)) as [_|?]; [|lra].
  destruct (third_loop prec Hp (N.to_nat (N.pred (eff_iterations it))) 0 0%Z [1; 0] (1 - / 3)) as [tr R];
    try (simpl; lra).
  cbn [pow] in R. replace (IZR 0 / 1) with 0 in R by (simpl; lra).
  replace (IZR (0 + 1) / 1) with 1 in R by (simpl; lra).
  rewrite R. eauto.
Qed.

(** sanity: a success exists *)
Example C22_example : bisection (fun x => x - 1 / 2) (/ 1024) (Fin 0) (Fin 1) 5
  = (true, Some ((0 + 1) / 2), [(0 + 1) / 2; 1; 0]).
Proof.
  unfold bisection. cbn [nltb R_num]. destruct (Rltb_spec 0 1) as [_|?]; [|lra]. cbn [negb].
  destruct (Bool.eqb _ _) eqn:E. { apply signbit_eq in E. lra. }
  change (N.to_nat (N.pred (eff_iterations 5))) with 4%nat. cbn [bisect_loop].
  rewrite mid_R. cbn [nltb neqb n0 R_num].
  destruct (Reqb_spec ((0 + 1) / 2 - 1 / 2) 0) as [_|?]; [|lra].
  rewrite orb_true_r. reflexivity.
Qed.

(* ---------------------------------------------------------------- C23 *)
Definition to_bnd (b : xval R) : bnd :=
  match b with Fin x => BFin x | PInf => BPInf | NInf => BNInf end.

Section Iter.
Variable f : R -> list R.
Variables lo0 hi0 : xval R.
Variable prec : R.
Let F := fun x => get (f x) 0.
Notation W := (within (to_bnd lo0) (to_bnd hi0)).

Definition inv (s : nstate R) : Prop :=
  ns_cur s = f (ns_x s) /\ W (ns_x s) /\
  (forall v, above (to_bnd (ns_lo s)) v -> above (to_bnd lo0) v) /\
  (forall v, below v (to_bnd (ns_hi s)) -> below v (to_bnd hi0)).

Lemma above_le l u v : above (to_bnd l) u -> u <= v -> above (to_bnd l) v.
Proof. destruct l; simpl; intros; auto; lra. Qed.
Lemma below_le h u v : below v (to_bnd h) -> u <= v -> below u (to_bnd h).
Proof. destruct h; simpl; intros; auto; lra. Qed.

Lemma ge_bound_false v b : ge_bound v b = false -> below v (to_bnd b) /\ forall h, b = Fin h -> v < h.
Proof.
  destruct b; simpl; intros H; try discriminate.
  - cbn [nltb R_num] in H. apply negb_false_iff in H. apply Rltb_true in H. split; [lra|].
    intros h E; injection E as <-; exact H.
  - split; auto; discriminate.
Qed.
Lemma le_bound_false v b : le_bound v b = false -> above (to_bnd b) v /\ forall h, b = Fin h -> h < v.
Proof.
  destruct b; simpl; intros H; try discriminate.
  - cbn [nltb R_num] in H. apply negb_false_iff in H. apply Rltb_true in H. split; [lra|].
    intros h E; injection E as <-; exact H.
  - split; auto; discriminate.
Qed.

Definition good_step (s : nstate R) (r : status * nstate R) : Prop :=
  match r with
  | (Failed, s') => s' = s
  | (Stepped, s') => inv s' /\ accepted F (to_bnd lo0) (to_bnd hi0) (ns_x s) (ns_x s')
  | (Converged, s') => ns_cur s' = f (ns_x s') /\
                       converged F (to_bnd lo0) (to_bnd hi0) prec (ns_x s) (ns_x s')
  end.

Lemma process_good s nx : inv s -> good_step s (process_step f prec s nx).
Proof.
  intros (Hc & HW & Hl & Hh). unfold process_step.
  destruct (ge_bound nx (ns_hi s)) eqn:E1; cbn [orb]; [reflexivity|].
  destruct (le_bound nx (ns_lo s)) eqn:E2; [reflexivity|].
  apply ge_bound_false in E1. destruct E1 as [E1 _].
  apply le_bound_false in E2. destruct E2 as [E2 _].
  assert (HWn : W nx) by (split; [apply Hl|apply Hh]; assumption).
  cbn [nltb neqb nsub nmul n0 R_num]. rewrite !nabs_R.
  destruct (Rltb_spec (Rabs (nx - ns_x s)) (Rabs (prec * nx))) as [Hd|Hd]; cbn [orb].
  { split; [reflexivity|]. split; [exact HWn|]. right; exact Hd. }
  destruct (Reqb_spec (get (f nx) 0) 0) as [Hz|Hz].
  { split; [reflexivity|]. split; [exact HWn|]. left; exact Hz. }
  destruct (Rltb_spec (Rabs (get (ns_cur s) 0)) (Rabs (get (f nx) 0))) as [Hi|Hi]; [reflexivity|].
  split.
  - repeat split; simpl; try apply HWn; auto.
    + intros v. destruct (Rltb_spec (nx - ns_x s) 0); cbn [negb]; [apply Hl|].
      simpl. intros Hv. apply above_le with (ns_x s); [apply HW|exact Hv].
    + intros v. destruct (Rltb_spec 0 (nx - ns_x s)); cbn [negb]; [apply Hh|].
      simpl. intros Hv. apply below_le with (ns_x s); [apply HW|exact Hv].
  - simpl. apply acc_descend; [exact HWn|]. unfold F. rewrite <- Hc. lra.
Qed.

Lemma newton_good s : inv s -> good_step s (newton_raphson_step f prec s).
Proof. intros H. unfold newton_raphson_step. destruct (neqb _ _); [reflexivity|apply process_good, H]. Qed.
Lemma halley_good s : inv s -> good_step s (halley_step f prec s).
Proof.
  intros H. unfold halley_step. destruct (neqb _ _); [reflexivity|].
  match goal with |- context [if ?c then process_step _ _ _ _ else _] => destruct c end;
    [apply process_good, H|reflexivity].
Qed.
Lemma schroeder_good s : inv s -> good_step s (schroeder_step f prec s).
Proof. intros H. unfold schroeder_step. destruct (neqb _ _); [reflexivity|apply process_good, H]. Qed.

Lemma bisection_good s : inv s -> good_step s (bisection_step f prec s).
Proof.
  intros (Hc & HW & Hl & Hh). unfold bisection_step.
  destruct (ns_lo s) as [lo| |] eqn:El; try reflexivity.
  destruct (ns_hi s) as [hi| |] eqn:Eh; try reflexivity.
  cbn [nltb neqb nsub nmul n0 R_num]. rewrite mid_R.
  destruct (Rltb_spec lo hi) as [Hlt|?]; cbn [negb]; [|reflexivity].
  destruct (Bool.eqb (signbit (get (f lo) 0)) _) eqn:Es; [reflexivity|].
  apply signbit_neq in Es.
  simpl in Hl, Hh.
  set (m := (lo + hi) / 2). assert (Hm : lo < m < hi) by (unfold m; lra).
  assert (HWm : W m) by (split; [apply Hl|apply Hh]; lra).
  assert (HWlo : W lo) by (split; [apply Hl|apply Hh]; lra).
  assert (HWhi : W hi) by (split; [apply Hl|apply Hh]; lra).
  rewrite !nabs_R.
  destruct (Reqb_spec m lo) as [E|_]; [lra|].
  destruct (Reqb_spec m hi) as [E|_]; [lra|].
  rewrite !orb_false_r.
  destruct (Rltb_spec (Rabs (m - ns_x s)) (Rabs (prec * m))) as [Hd|Hd]; cbn [orb].
  { split; [reflexivity|]. split; [exact HWm|]. right; exact Hd. }
  destruct (Reqb_spec (get (f m) 0) 0) as [Hz|Hz].
  { split; [reflexivity|]. split; [exact HWm|]. left; exact Hz. }
  split.
  - split; [reflexivity|]. split; [exact HWm|].
    split; cbn [ns_lo ns_hi]; destruct (Bool.eqb _ _); simpl; intros v Hv;
      first [apply Hl; lra | apply Hh; lra].
  - simpl. apply acc_bisect; auto.
Qed.

Lemma or_else_good a b s :
  (forall s, inv s -> good_step s (a s)) -> (forall s, inv s -> good_step s (b s)) ->
  inv s -> good_step s (or_else a b s).
Proof.
  intros Ha Hb Hi. unfold or_else. specialize (Ha s Hi).
  destruct (a s) as [[] s']; simpl in Ha; try exact Ha. subst s'. apply Hb, Hi.
Qed.

Definition outcome_ok (x : R) (r : bool * nstate R) : Prop :=
  ns_cur (snd r) = f (ns_x (snd r)) /\
  if fst r then
    (ns_x (snd r) = x /\ F x = 0) \/
    exists u, steps F (to_bnd lo0) (to_bnd hi0) x u /\
              converged F (to_bnd lo0) (to_bnd hi0) prec u (ns_x (snd r))
  else steps F (to_bnd lo0) (to_bnd hi0) x (ns_x (snd r)) /\ W (ns_x (snd r)).

Lemma iterate_good step : (forall s, inv s -> good_step s (step s)) ->
  forall n x s, inv s -> steps F (to_bnd lo0) (to_bnd hi0) x (ns_x s) ->
  outcome_ok x (iterate n step s).
Proof.
  intros Hstep; induction n as [|n IH]; intros x s Hi Hx; cbn [iterate].
  - split; [apply Hi|]. simpl. split; [exact Hx|apply Hi].
  - specialize (Hstep s Hi). destruct (step s) as [[] s']; simpl in Hstep.
    + subst s'. split; [apply Hi|]. simpl. split; [exact Hx|apply Hi].
    + apply IH; [apply Hstep|]. apply rt_trans with (ns_x s); [exact Hx|apply rt_step, Hstep].
    + destruct Hstep as [H1 H2]. split; [exact H1|]. simpl. right. exists (ns_x s). auto.
Qed.

Lemma inv_init x : W x -> inv {| ns_x := x; ns_lo := lo0; ns_hi := hi0; ns_cur := f x |}.
Proof. intros H. repeat split; simpl; auto; apply H. Qed.
End Iter.

(** Any function f returning [f; f'; f'';...] (nothing is assumed about it), any
    start inside the bounds, any precision and iteration limit. *)
Theorem C23_newton_raphson : forall (f : R -> list R) prec x lo hi iterations,
  let F := fun y => get (f y) 0 in
  let b := within (to_bnd lo) (to_bnd hi) in
  b x ->
  let r := newton_raphson f prec x lo hi iterations in
  let x' := ns_x (snd r) in
  b x' /\
  (fst r = false -> steps F (to_bnd lo) (to_bnd hi) x x') /\
  (fst r = true ->
     (x' = x /\ F x = 0) \/
     exists u, steps F (to_bnd lo) (to_bnd hi) x u /\
               converged F (to_bnd lo) (to_bnd hi) prec u x').
Proof.
  intros f prec x lo hi it F b Hx r x'.
  assert (P : outcome_ok f lo hi prec x r).
  { unfold r, newton_raphson. cbn [ns_cur].
    cbn [neqb n0 R_num]. destruct (Reqb_spec (get (f x) 0) 0) as [E|E].
    - split; [reflexivity|]. simpl. left; auto.
    - apply iterate_good; [|apply inv_init, Hx|apply rt_refl].
      intros s Hs. apply or_else_good; auto; intros; [apply newton_good|apply bisection_good]; assumption. }
  destruct P as [_ P]. subst x'. destruct r as [[] s]; simpl in *.
  - split; [|split; [discriminate|auto]].
    destruct P as [[-> _]|(u & _ & C)]; [exact Hx|apply C].
  - split; [apply P|]. split; [intros _; apply P|discriminate].
Qed.

Theorem C23_halleys_method : forall (f : R -> list R) prec x lo hi iterations,
  let F := fun y => get (f y) 0 in
  let b := within (to_bnd lo) (to_bnd hi) in
  b x ->
  let r := halleys_method f prec x lo hi iterations in
  let x' := ns_x (snd r) in
  b x' /\
  (fst r = false -> steps F (to_bnd lo) (to_bnd hi) x x') /\
  (fst r = true ->
     (x' = x /\ F x = 0) \/
     exists u, steps F (to_bnd lo) (to_bnd hi) x u /\
               converged F (to_bnd lo) (to_bnd hi) prec u x').
Proof.
  intros f prec x lo hi it F b Hx r x'.
  assert (P : outcome_ok f lo hi prec x r).
  { unfold r, halleys_method. cbn [ns_cur].
    cbn [neqb n0 R_num]. destruct (Reqb_spec (get (f x) 0) 0) as [E|E].
    - split; [reflexivity|]. simpl. left; auto.
    - apply iterate_good; [|apply inv_init, Hx|apply rt_refl].
      intros s Hs. apply or_else_good; auto; intros; [apply halley_good; assumption|].
      apply or_else_good; auto; intros; [apply newton_good|apply bisection_good]; assumption. }
  destruct P as [_ P]. subst x'. destruct r as [[] s]; simpl in *.
  - split; [|split; [discriminate|auto]].
    destruct P as [[-> _]|(u & _ & C)]; [exact Hx|apply C].
  - split; [apply P|]. split; [intros _; apply P|discriminate].
Qed.

(** with bounds left at their infinite defaults the bracketing fallback is not
    available to the first step, and a Newton / Halley / Schroeder step that
    does not converge never increases |f| *)
Theorem C23_steps_descend : forall (f : R -> list R) prec s s',
  ns_cur s = f (ns_x s) ->
  newton_raphson_step f prec s = (Stepped, s') \/ halley_step f prec s = (Stepped, s') \/
  schroeder_step f prec s = (Stepped, s') ->
  Rabs (get (f (ns_x s')) 0) <= Rabs (get (f (ns_x s)) 0) /\ ns_cur s' = f (ns_x s').
Proof.
  intros f prec s s' Hc H.
  assert (P : forall nx, process_step f prec s nx = (Stepped, s') ->
     Rabs (get (f (ns_x s')) 0) <= Rabs (get (f (ns_x s)) 0) /\ ns_cur s' = f (ns_x s')).
  { intros nx. unfold process_step. destruct (_ || _); [discriminate|].
    destruct (_ || _); [discriminate|].
    cbn [nltb R_num]. rewrite !nabs_R.
    destruct (Rltb_spec (Rabs (get (ns_cur s) 0)) (Rabs (get (f nx) 0))); [discriminate|].
    intros E; injection E as <-; simpl. rewrite <- Hc. split; [lra|reflexivity]. }
  destruct H as [H|[H|H]].
  - unfold newton_raphson_step in H. destruct (neqb _ _); [discriminate|]. apply (P _ H).
  - unfold halley_step in H. destruct (neqb _ _); [discriminate|].
    match type of H with (if ?c then _ else _) = _ => destruct c end; [apply (P _ H)|discriminate].
  - unfold schroeder_step in H. destruct (neqb _ _); [discriminate|]. apply (P _ H).
Qed.

(** The whole path.  [cfg_of] is the configuration of a state. *)
Definition cfg_of (s : nstate R) : cfg :=
  {| at_ := ns_x s; low := to_bnd (ns_lo s); high := to_bnd (ns_hi s) |}.
Section PathProofs.
Variable f : R -> list R.
Variable prec : R.
Let F := fun x => get (f x) 0.
Let F1 := fun x => get (f x) 1.
Let F2 := fun x => get (f x) 2.
Definition pinv (s : nstate R) : Prop := ns_cur s = f (ns_x s) /\ F (ns_x s) <> 0.
Definition path_step (ms : list (R -> R -> Prop)) (s : nstate R) (r : status * nstate R) : Prop :=
  match r with
  | (Failed, s') => s' = s /\ forall c', ~ next F prec ms (cfg_of s) c'
  | (Stepped, s') => pinv s' /\ next F prec ms (cfg_of s) (cfg_of s') /\ ~ close_enough F prec (ns_x s) (ns_x s')
  | (Converged, s') => (exists c', next F prec ms (cfg_of s) c' /\ at_ c' = ns_x s') /\ close_enough F prec (ns_x s) (ns_x s')
  end.

Lemma inside_spec s v : ge_bound v (ns_hi s) || le_bound v (ns_lo s) = false <-> strictly_inside (cfg_of s) v.
Proof.
  unfold strictly_inside, cfg_of. cbn [low high]. destruct (ns_hi s) as [h| |], (ns_lo s) as [l| |]; cbn [ge_bound le_bound to_bnd orb nltb R_num];
    rewrite ?orb_true_r, ?orb_false_r; try (split; [discriminate|intros []; contradiction]); try (split; auto).
  all: repeat match goal with |- context [Rltb ?a ?b] => destruct (Rltb_spec a b) end; cbn [negb orb]; try (split; [discriminate|intros []; contradiction]); try (split; [intros _|reflexivity]); try (split; auto); try (split; intros; [discriminate|lra]); auto.
  all: intros; try discriminate; try lra.
Qed.

(** a proposal given by a function of the state *)
Lemma process_path (m : R -> R -> Prop) ms s nx rest :
  pinv s -> (forall v, m (ns_x s) v <-> v = nx) -> path_step ms s rest ->
  path_step (m :: ms) s (match process_step f prec s nx with (Failed, _) => rest | r => r end).
Proof.
  intros (Hc & Hnz) Hm Hr. unfold process_step.
  assert (Skip : (forall v, ~ usable F prec m (cfg_of s) v) -> path_step (m :: ms) s rest).
  { intros Hs. destruct rest as [[] s']; cbn [path_step] in *.
    - destruct Hr as [-> Hr]. split; [reflexivity|]. intros c' Hn. inversion Hn as [m0 ms0 d0 v0 U|m0 ms0 d0 d1 U V|]; subst; [exact (Hs _ U)|exact (Hr _ V)].
    - destruct Hr as (A & B & C). split; [exact A|]. split; [apply next_skip; assumption|exact C].
    - destruct Hr as ((c' & A & A') & B). split; [|exact B]. exists c'. split; [apply next_skip; assumption|exact A']. }
  destruct (ge_bound nx (ns_hi s) || le_bound nx (ns_lo s)) eqn:Ei.
  { apply Skip. intros v (U1 & U2 & _). cbn [at_ cfg_of] in U1. apply Hm in U1. subst v. apply inside_spec in U2. congruence. }
  apply inside_spec in Ei. cbn [nltb neqb nsub nmul n0 R_num]. rewrite !nabs_R.
  assert (Conv : close_enough F prec (ns_x s) nx -> path_step (m :: ms) s (Converged, {| ns_x := nx; ns_lo := ns_lo s; ns_hi := ns_hi s; ns_cur := f nx |})).
  { intros C. cbn [path_step ns_x]. split; [|exact C]. exists (moved (cfg_of s) nx). split; [|reflexivity]. apply next_move.
    split; [apply Hm; reflexivity|]. split; [exact Ei|]. left. exact C. }
  destruct (Rltb_spec (Rabs (nx - ns_x s)) (Rabs (prec * nx))) as [Hd|Hd]; cbn [orb]; [apply Conv; right; exact Hd|].
  destruct (Reqb_spec (get (f nx) 0) 0) as [Hz|Hz]; [apply Conv; left; exact Hz|].
  destruct (Rltb_spec (Rabs (get (ns_cur s) 0)) (Rabs (get (f nx) 0))) as [Hi|Hi].
  { apply Skip. intros v (U1 & U2 & U3). cbn [at_ cfg_of] in *. apply Hm in U1. subst v. rewrite Hc in Hi.
    destruct U3 as [[U3|U3]|U3]; [apply Hz, U3|apply Hd, U3|unfold F in U3; lra]. }
  cbn [path_step]. split; [split; [reflexivity|exact Hz]|]. split; [|cbn [ns_x]; intros [C|C]; [apply Hz, C|apply Hd, C]].
  match goal with |- next _ _ _ _ (cfg_of ?t) => replace (cfg_of t) with (moved (cfg_of s) nx) end.
  - apply next_move. split; [apply Hm; reflexivity|]. split; [exact Ei|]. right. cbn [at_ cfg_of]. unfold F. rewrite <- Hc. lra.
  - unfold moved, cfg_of. cbn [at_ low high ns_x ns_lo ns_hi]. f_equal.
    + destruct (Rle_dec (ns_x s) nx), (Rltb_spec (nx - ns_x s) 0); cbn [negb]; try reflexivity; lra.
    + destruct (Rle_dec nx (ns_x s)), (Rltb_spec 0 (nx - ns_x s)); cbn [negb]; try reflexivity; lra.
Qed.

Lemma skip_path (m : R -> R -> Prop) ms s rest : (forall v, ~ m (ns_x s) v) -> path_step ms s rest -> path_step (m :: ms) s rest.
Proof.
  intros Hm Hr. assert (Hs : forall v, ~ usable F prec m (cfg_of s) v) by (intros v (U & _); exact (Hm v U)).
  destruct rest as [[] s']; cbn [path_step] in *.
  - destruct Hr as [-> Hr]. split; [reflexivity|]. intros c' Hn. inversion Hn as [m0 ms0 d0 v0 U|m0 ms0 d0 d1 U V|]; subst; [exact (Hs _ U)|exact (Hr _ V)].
  - destruct Hr as (A & B & C). split; [exact A|]. split; [apply next_skip; assumption|exact C].
  - destruct Hr as ((c' & A & A') & B). split; [|exact B]. exists c'. split; [apply next_skip; assumption|exact A'].
Qed.
Lemma or_else_failed (a b : nstate R -> status * nstate R) s : (forall s', a s = (Failed, s') -> s' = s) -> or_else a b s = match a s with (Failed, _) => b s | r => r end.
Proof. intros H. unfold or_else. destruct (a s) as [[] s']; auto. rewrite (H s' eq_refl). reflexivity. Qed.
Lemma process_failed s nx s' : process_step f prec s nx = (Failed, s') -> s' = s.
Proof. unfold process_step. destruct (_ || _); [intros E; injection E as <-; reflexivity|]. destruct (_ || _); [discriminate|]. destruct (nltb _ _); [intros E; injection E as <-; reflexivity|discriminate]. Qed.

Lemma newton_path ms s b : pinv s -> path_step ms s (b s) -> path_step (tangent_root F F1 :: ms) s (or_else (newton_raphson_step f prec) b s).
Proof.
  intros Hp Hb. pose proof Hp as (Hc & Hnz). rewrite or_else_failed; unfold newton_raphson_step; rewrite Hc; cbn [neqb n0 nsub ndiv R_num].
  2:{ intros s'. destruct (Reqb _ _); [intros E; injection E as <-; reflexivity|apply process_failed]. }
  destruct (Reqb_spec (get (f (ns_x s)) 1) 0) as [E|E].
  - apply skip_path; auto. intros v (U & _). apply U, E.
  - apply process_path; auto. intros v. unfold tangent_root. split.
    + intros (_ & Q). apply (Rmult_eq_reg_l (F1 (ns_x s))); [|exact E]. unfold F, F1 in *. field_simplify; [|exact E]. lra.
    + intros ->. split; [exact E|]. unfold F, F1. field. exact E.
Qed.

Lemma halley_path ms s b : pinv s -> path_step ms s (b s) -> path_step (halley_root F F1 F2 :: ms) s (or_else (halley_step f prec) b s).
Proof.
  intros Hp Hb. pose proof Hp as (Hc & Hnz). rewrite or_else_failed; unfold halley_step; rewrite Hc.
  2:{ intros s'. destruct (neqb _ _); [intros E; injection E as <-; reflexivity|]. match goal with |- context [if ?c then process_step _ _ _ _ else _] => destruct c end; [apply process_failed|intros E; injection E as <-; reflexivity]. }
  rewrite !n2_R. cbn [neqb n0 nsub nadd ndiv nmul nopp nltb R_num]. rewrite !signbit_R.
  change (get (f (ns_x s)) 0) with (F (ns_x s)). change (get (f (ns_x s)) 1) with (F1 (ns_x s)). change (get (f (ns_x s)) 2) with (F2 (ns_x s)).
  set (c0 := F (ns_x s)) in *. set (c1 := F1 (ns_x s)) in *. set (c2 := F2 (ns_x s)) in *.
  set (den := 2 * c1 * c1 - c0 * c2). destruct (Reqb_spec den 0) as [Ed|Ed].
  { apply skip_path; auto. intros v (U & _). fold c0 c1 c2 den in U. lra. }
  match goal with |- context [if ?c then process_step _ _ _ _ else _] => assert (Agree : c = true <-> 0 < den) end.
  { destruct (Reqb_spec c1 0) as [E1|E1].
    - rewrite Bool.eqb_true_iff. unfold den in *. rewrite E1 in *.
      destruct (Rltb_spec c2 0), (Rltb_spec 0 c0); split; intros; try discriminate; try reflexivity; try nra.
    - rewrite Bool.eqb_true_iff.
      assert (A : (- (2 * c0 * c1) / den) * den = (- c0 / c1) * (2 * c1 * c1)) by (field; auto).
      assert (P : 0 < 2 * c1 * c1) by nra. assert (Nq : - c0 / c1 <> 0).
      { intros Z. apply Hnz. fold c0. apply (f_equal (fun z => z * c1)) in Z. replace (- c0 / c1 * c1) with (- c0) in Z by (field; auto). lra. }
      destruct (Rltb_spec (- (2 * c0 * c1) / den) 0), (Rltb_spec (- c0 / c1) 0); split; intros; try discriminate; try reflexivity; try nra. }
  match goal with |- context [if ?c then process_step _ _ _ _ else _] => destruct c eqn:Ec end.
  - destruct Agree as [Ag _]. specialize (Ag eq_refl). apply process_path; auto. intros v. unfold halley_root. fold c0 c1 c2 den. split.
    + intros (_ & Q). apply (Rmult_eq_reg_l den); [|exact Ed]. field_simplify; [|exact Ed]. lra.
    + intros ->. split; [exact Ag|]. field. exact Ed.
  - apply skip_path; auto. intros v (U & _). fold c0 c1 c2 den in U. apply Agree in U. congruence.
Qed.

Lemma next_nil G c c' : next G prec nil c c' -> exists u a b, c = {| at_ := u; low := BFin a; high := BFin b |} /\ a < b /\ sign_change G a b.
Proof. intros Hn. inversion Hn; subst. do 3 eexists. split; [reflexivity|]. auto. Qed.
Lemma bisection_path s : pinv s -> path_step nil s (bisection_step f prec s).
Proof.
  intros (Hc & Hnz). unfold bisection_step. destruct s as [x slo shi cur]. cbn [ns_lo ns_hi ns_x ns_cur] in *.
  assert (Bad : (forall lo hi, slo = Fin lo -> shi = Fin hi -> ~ (lo < hi /\ sign_change F lo hi)) ->
    path_step nil {| ns_x := x; ns_lo := slo; ns_hi := shi; ns_cur := cur |} (Failed, {| ns_x := x; ns_lo := slo; ns_hi := shi; ns_cur := cur |})).
  { intros H. split; [reflexivity|]. intros c' Hn. unfold cfg_of in Hn. cbn [ns_lo ns_hi ns_x] in Hn. apply next_nil in Hn. destruct Hn as (u & a & b & Ec & Hab & Sc).
    injection Ec as -> E1 E2. destruct slo as [lo| |]; try discriminate. destruct shi as [hi| |]; try discriminate. cbn [to_bnd] in *. injection E1 as ->. injection E2 as ->. apply (H _ _ eq_refl eq_refl). auto. }
  destruct slo as [lo| |]; [|apply Bad; discriminate..]. destruct shi as [hi| |]; [|apply Bad; discriminate..].
  cbn [nltb neqb nsub nmul n0 R_num]. rewrite mid_R.
  destruct (Rltb_spec lo hi) as [Hlt|Hlt]; cbn [negb]; [|apply Bad; intros ? ? E1 E2; injection E1 as <-; injection E2 as <-; intros [? _]; contradiction].
  destruct (Bool.eqb (signbit (get (f lo) 0)) _) eqn:Es.
  { apply Bad. intros ? ? E1 E2; injection E1 as <-; injection E2 as <-. intros [_ Sc]. unfold sign_change in Sc. apply signbit_neq in Sc. unfold F in Sc. congruence. }
  apply signbit_neq in Es. rewrite !nabs_R.
  destruct (Reqb_spec ((lo + hi) / 2) lo) as [E|_]; [lra|]. destruct (Reqb_spec ((lo + hi) / 2) hi) as [E|_]; [lra|]. rewrite !orb_false_r.
  assert (Next : next F prec nil {| at_ := x; low := BFin lo; high := BFin hi |}
     {| at_ := (lo + hi) / 2; low := if Bool.eqb (signbit (get (f ((lo + hi) / 2)) 0)) (signbit (get (f hi) 0)) then BFin lo else BFin ((lo + hi) / 2);
        high := if Bool.eqb (signbit (get (f ((lo + hi) / 2)) 0)) (signbit (get (f hi) 0)) then BFin ((lo + hi) / 2) else BFin hi |}).
  { destruct (Bool.eqb (signbit (get (f ((lo + hi) / 2)) 0)) _) eqn:Em; (apply next_bisect; [exact Hlt|exact Es|auto|]).
    - apply signbit_eq in Em. unfold sign_change, F. lra.
    - apply signbit_neq in Em. unfold sign_change, F. lra. }
  assert (Conv : close_enough F prec x ((lo + hi) / 2) -> path_step nil {| ns_x := x; ns_lo := Fin lo; ns_hi := Fin hi; ns_cur := cur |}
      (Converged, {| ns_x := (lo + hi) / 2; ns_lo := Fin lo; ns_hi := Fin hi; ns_cur := f ((lo + hi) / 2) |})).
  { intros C. split; [|exact C]. eexists. split; [exact Next|reflexivity]. }
  destruct (Rltb_spec (Rabs ((lo + hi) / 2 - x)) (Rabs (prec * ((lo + hi) / 2)))) as [Hd|Hd]; cbn [orb]; [apply Conv; right; exact Hd|].
  destruct (Reqb_spec (get (f ((lo + hi) / 2)) 0) 0) as [Hz|Hz]; [apply Conv; left; exact Hz|].
  split; [split; [reflexivity|exact Hz]|]. split; [|intros [C|C]; [apply Hz, C|apply Hd, C]].
  unfold cfg_of. cbn [ns_x ns_lo ns_hi to_bnd].
  destruct (Bool.eqb (signbit (get (f ((lo + hi) / 2)) 0)) _); exact Next.
Qed.

Lemma iterate_path step ms : (forall s, pinv s -> path_step ms s (step s)) ->
  forall n k c0 s, pinv s -> path F prec ms k c0 (cfg_of s) ->
  path_result F prec ms (k + n) c0 (fst (iterate n step s), ns_x (snd (iterate n step s))).
Proof.
  intros Hstep. induction n as [|n IH]; intros k c0 s Hi Hk; cbn [iterate].
  - exists k, (cfg_of s). split; [lia|]. split; [exact Hk|]. split; [reflexivity|]. left. lia.
  - specialize (Hstep s Hi). destruct (step s) as [[] s']; cbn [path_step] in Hstep.
    + destruct Hstep as [-> Hs]. exists k, (cfg_of s). split; [lia|]. split; [exact Hk|]. split; [reflexivity|]. right. exact Hs.
    + destruct Hstep as (A & B & C). replace (k + S n)%nat with (S k + n)%nat by lia. apply IH; [exact A|]. apply path_S with (cfg_of s); assumption.
    + destruct Hstep as ((c' & A & A') & B). exists k, (cfg_of s), c'. split; [lia|]. split; [exact Hk|]. split; [exact A|]. rewrite A'. split; [exact B|reflexivity].
Qed.
End PathProofs.

(** The returned flag and the final x of newton_raphson are exactly those of the
    safeguarded path: at most limit - 1 steps, each to the root of the tangent if
    that is strictly inside the bounds in force and does not increase |F|,
    otherwise to the middle of a bracketed sign change; true if and only if a step
    ended the iteration, false when the limit is used up or no step is possible. *)
Theorem C23_newton_path : forall (f : R -> list R) prec x lo hi iterations,
  let F := fun y => get (f y) 0 in
  let F1 := fun y => get (f y) 1 in
  F x <> 0 ->
  let r := newton_raphson f prec x lo hi iterations in
  path_result F prec [tangent_root F F1]
    (N.to_nat (N.pred (if N.eqb iterations 0 then 2 ^ 64 - 1 else iterations)))
    {| at_ := x; low := to_bnd lo; high := to_bnd hi |} (fst r, ns_x (snd r)).
Proof.
  intros f prec x lo hi it F F1 Hx r. unfold r, newton_raphson. cbn [ns_cur neqb n0 R_num].
  destruct (Reqb_spec (get (f x) 0) 0) as [E|E]; [contradiction|]. unfold eff_iterations.
  apply (iterate_path f prec) with (k := 0%nat); [|split; [reflexivity|exact E]|apply path_0].
  intros s Hs. apply newton_path; auto. apply bisection_path; auto.
Qed.
Theorem C23_halley_path : forall (f : R -> list R) prec x lo hi iterations,
  let F := fun y => get (f y) 0 in
  let F1 := fun y => get (f y) 1 in
  let F2 := fun y => get (f y) 2 in
  F x <> 0 ->
  let r := halleys_method f prec x lo hi iterations in
  path_result F prec [halley_root F F1 F2; tangent_root F F1]
    (N.to_nat (N.pred (if N.eqb iterations 0 then 2 ^ 64 - 1 else iterations)))
    {| at_ := x; low := to_bnd lo; high := to_bnd hi |} (fst r, ns_x (snd r)).
Proof.
  intros f prec x lo hi it F F1 F2 Hx r. unfold r, halleys_method. cbn [ns_cur neqb n0 R_num].
  destruct (Reqb_spec (get (f x) 0) 0) as [E|E]; [contradiction|]. unfold eff_iterations.
  apply (iterate_path f prec) with (k := 0%nat); [|split; [reflexivity|exact E]|apply path_0].
  intros s Hs. apply halley_path; auto. apply newton_path; auto. apply bisection_path; auto.
Qed.
(** the path is determined by the specification *)
Lemma tangent_unique F F1 u v w : tangent_root F F1 u v -> tangent_root F F1 u w -> v = w.
Proof. intros [A B] [_ C]. apply (Rmult_eq_reg_l (F1 u)); auto. lra. Qed.
Lemma halley_unique F F1 F2 u v w : halley_root F F1 F2 u v -> halley_root F F1 F2 u w -> v = w.
Proof. intros [A B] [_ C]. apply (Rmult_eq_reg_l (2 * F1 u * F1 u - F u * F2 u)); lra. Qed.
Lemma next_nil_inv G prec c c' : next G prec nil c c' -> exists u a b a' b', c = {| at_ := u; low := BFin a; high := BFin b |} /\
  c' = {| at_ := (a + b) / 2; low := BFin a'; high := BFin b' |} /\ ((a' = a /\ b' = (a + b) / 2) \/ (a' = (a + b) / 2 /\ b' = b)) /\ sign_change G a' b' /\ sign_change G a b.
Proof. intros Hn. inversion Hn; subst. do 5 eexists. split; [reflexivity|]. split; [reflexivity|]. auto. Qed.
Lemma next_cons_inv G prec m ms c c' : next G prec (m :: ms) c c' -> (exists v, usable G prec m c v /\ c' = moved c v) \/ ((forall v, ~ usable G prec m c v) /\ next G prec ms c c').
Proof. intros Hn. inversion Hn; subst; eauto. Qed.
Lemma next_unique F prec ms : Forall (fun m : R -> R -> Prop => forall u v w, m u v -> m u w -> v = w) ms -> forall c c1 c2,
  next F prec ms c c1 -> next F prec ms c c2 -> at_ c1 = at_ c2 /\ (F (at_ c1) <> 0 -> c1 = c2).
Proof.
  intros Hm. induction Hm as [|m ms Hm _ IH]; intros c c1 c2 H1 H2.
  - apply next_nil_inv in H1. apply next_nil_inv in H2.
    destruct H1 as (u & a & b & a1 & b1 & E1 & -> & O1 & S1 & T1), H2 as (u' & a' & b' & a2 & b2 & E2 & -> & O2 & S2 & T2).
    rewrite E1 in E2. injection E2 as <- <- <-. cbn [at_]. split; [reflexivity|]. intros Nz.
    destruct O1 as [[-> ->]|[-> ->]], O2 as [[-> ->]|[-> ->]]; try reflexivity; unfold sign_change in *; exfalso; lra.
  - apply next_cons_inv in H1. apply next_cons_inv in H2.
    destruct H1 as [(v & U & ->)|[R1 H1]], H2 as [(v' & U' & ->)|[R2 H2]]; try (exfalso; exact (R2 _ U)); try (exfalso; exact (R1 _ U')).
    + destruct U as (A & _), U' as (B & _). rewrite (Hm _ _ _ A B). auto.
    + apply IH with c; assumption.
Qed.
Theorem C23_next_unique : forall F F1 F2 prec ms c c1 c2,
  ms = [tangent_root F F1] \/ ms = [halley_root F F1 F2; tangent_root F F1] ->
  next F prec ms c c1 -> next F prec ms c c2 -> at_ c1 = at_ c2 /\ (F (at_ c1) <> 0 -> c1 = c2).
Proof.
  intros F F1 F2 prec ms c c1 c2 Hms. apply next_unique.
  destruct Hms as [-> | ->]; repeat constructor; intros; eauto using tangent_unique, halley_unique.
Qed.

(** A Newton run that converges on x^2-1... from 2, one step by hand *)
Example C23_example :
  let f := fun x => [x - 1; 1] in
  let r := newton_raphson f (/ 1024) 3 NInf PInf 0 in
  fst r = true /\ ns_x (snd r) = 3 - (3 - 1) / 1.
Proof.
  unfold newton_raphson. cbn [ns_cur get nth neqb n0 R_num].
  destruct (Reqb_spec (3 - 1) 0) as [E|_]; [lra|].
  replace (N.to_nat (N.pred (eff_iterations 0))) with (S (N.to_nat (2 ^ 64 - 3))) by
    (rewrite <- N2Nat.inj_succ; reflexivity).
  cbn [iterate]. unfold or_else, newton_raphson_step. cbn [ns_cur get nth neqb n0 R_num].
  destruct (Reqb_spec 1 0) as [E|_]; [lra|].
  unfold process_step. cbn [ge_bound le_bound ns_hi ns_lo orb ns_cur ns_x get nth neqb nsub ndiv n0 R_num].
  destruct (Reqb_spec (3 - (3 - 1) / 1 - 1) 0) as [_|E]; [|lra].
  rewrite orb_true_r. split; reflexivity.
Qed.

(** What fails: "true" does not mean a root is near.  2 + cos(x-1) has no real
    root; started at its maximum x = 1 Halley's method reports success, because
    the first derivative is zero, the Halley step is then zero, and a zero step
    counts as converged.  (The sign comparison with the infinite Newton step
    agrees for either sign of the zero derivative.) *)
Theorem C23_halley_root_refuted : forall prec iterations, 0 < prec -> (1 < iterations)%N ->
  let f := fun x => [2 + cos (x - 1); - sin (x - 1); - cos (x - 1)] in
  let r := halleys_method f prec 1 NInf PInf iterations in
  fst r = true /\ forall y, get (f y) 0 <> 0.
Proof.
  intros prec it Hp Hit f r. split.
  2:{ intros y. cbn [f get nth n0 R_num]. pose proof (COS_bound (y - 1)). lra. }
  unfold r, halleys_method, f. cbn [ns_cur get nth neqb n0 R_num].
  replace (1 - 1) with 0 by lra. rewrite cos_0, sin_0.
  destruct (Reqb_spec (2 + 1) 0) as [E|_]; [lra|].
  unfold eff_iterations. destruct (N.eqb_spec it 0) as [E|_]; [lia|].
  destruct (N.to_nat (N.pred it)) as [|n] eqn:En; [lia|].
  cbn [iterate]. unfold or_else at 1. unfold halley_step.
  cbn [ns_cur ns_x get nth neqb nltb nmul nsub nadd ndiv nopp n0 R_num signbit]. rewrite n2_R.
  destruct (Reqb_spec (2 * - 0 * - 0 - (2 + 1) * - (1)) 0) as [E|_]; [lra|].
  destruct (Reqb_spec (- 0) 0) as [_|E]; [|lra].
  unfold signbit; cbn [nltb n0 R_num].
  destruct (Rltb_spec (- (1)) 0) as [_|E]; [|lra].
  destruct (Rltb_spec 0 (2 + 1)) as [_|E]; [|lra]. cbn [Bool.eqb].
  replace (1 + - (2 * (2 + 1) * - 0) / (2 * - 0 * - 0 - (2 + 1) * - (1))) with 1 by field.
  unfold process_step. cbn [ge_bound le_bound ns_hi ns_lo orb ns_cur ns_x get nth neqb nsub nmul nltb n0 R_num].
  rewrite !nabs_R. replace (1 - 1) with 0 by lra. rewrite Rabs_R0.
  rewrite Rabs_right by lra.
  destruct (Rltb_spec 0 (prec * 1)) as [_|E]; [|lra]. reflexivity.
Qed.

(* ---------------------------------------------------------------- C52 *)
(** value of a model double *)
Definition dval (d : dbl) : R :=
  match d with DZero => 0 | DNum s m e => (if s then -1 else 1) * IZR (Z.pos m) * powerRZ 2 e end.

(** binary exponent: the E with 2^(E-1) <= |v| < 2^E *)
Definition has_exp (v : R) (E : Z) : Prop := powerRZ 2 (E - 1) <= Rabs v < powerRZ 2 E.

Lemma frexp_has_exp s m e : has_exp (dval (DNum s m e)) (frexp_exp (DNum s m e)).
Proof.
  unfold has_exp, dval, frexp_exp.
  assert (Hp : 0 < powerRZ 2 e) by (apply powerRZ_lt; lra).
  assert (Ha : Rabs ((if s then -1 else 1) * IZR (Z.pos m) * powerRZ 2 e) = IZR (Z.pos m) * powerRZ 2 e).
  { assert (0 < IZR (Z.pos m)) by (apply IZR_lt; lia).
    rewrite !Rabs_mult, (Rabs_pos_eq (powerRZ 2 e)), (Rabs_pos_eq (IZR _)) by lra.
    destruct s; [rewrite Rabs_left by lra|rewrite Rabs_pos_eq by lra]; lra. }
  rewrite Ha. clear Ha.
  assert (B : (2 ^ (Z.pos (Pos.size m) - 1) <= Z.pos m < 2 ^ Z.pos (Pos.size m))%Z).
  { split.
    - pose proof (Pos.size_le m) as H. 
      assert (H2 : (2 ^ Z.pos (Pos.size m) <= Z.pos m~0)%Z) by (rewrite <- Pos2Z.inj_pow; exact H).
      replace (Z.pos (Pos.size m)) with (Z.succ (Z.pos (Pos.size m) - 1)) in H2 by lia.
      rewrite Z.pow_succ_r in H2 by lia. lia.
    - rewrite <- Pos2Z.inj_pow. apply Pos.size_gt. }
  assert (P : forall k, (0 <= k)%Z -> powerRZ 2 k = IZR (2 ^ k)).
  { intros k Hk. rewrite <- (Z2Nat.id k Hk). rewrite <- pow_powerRZ.
    rewrite <- pow_IZR. reflexivity. }
  replace (e + Z.pos (Pos.size m) - 1)%Z with (Z.pos (Pos.size m) - 1 + e)%Z by lia.
  replace (e + Z.pos (Pos.size m))%Z with (Z.pos (Pos.size m) + e)%Z by lia.
  rewrite !powerRZ_add by lra. rewrite (P (Z.pos (Pos.size m) - 1)%Z), (P (Z.pos (Pos.size m))) by lia.
  split.
  - apply Rmult_le_compat_r; [lra|]. apply IZR_le, B.
  - apply Rmult_lt_compat_r; [lra|]. apply IZR_lt, B.
Qed.

Lemma dval_sign s m e : (dval (DNum s m e) < 0 /\ s = true) \/ (0 < dval (DNum s m e) /\ s = false).
Proof.
  unfold dval. assert (Hp : 0 < powerRZ 2 e) by (apply powerRZ_lt; lra).
  assert (0 < IZR (Z.pos m)) by (apply IZR_lt; lia).
  assert (0 < IZR (Z.pos m) * powerRZ 2 e) by (apply Rmult_lt_0_compat; lra).
  destruct s; [left|right]; split; auto; lra.
Qed.

(** for two non-zero numbers of the same sign: the gap of their binary exponents;
    otherwise the largest size_t *)
Theorem C52_subtraction_precision : forall a b,
  (forall E1 E2, 0 < dval a * dval b -> has_exp (dval a) E1 -> has_exp (dval b) E2 ->
     subtraction_precision a b = Z.abs (E1 - E2)) /\
  (dval a * dval b <= 0 -> subtraction_precision a b = (2 ^ 64 - 1)%Z).
Proof.
  assert (U : forall v E E', has_exp v E -> has_exp v E' -> E = E').
  { assert (M : forall a b, (a < b)%Z -> powerRZ 2 a <= powerRZ 2 (b - 1)).
    { intros a b Hab. rewrite !powerRZ_Rpower by lra.
      apply Rle_Rpower; [lra|]. apply IZR_le; lia. }
    intros v E E' [H1 H2] [H3 H4].
    destruct (Z_lt_ge_dec E E') as [L|L]; [apply M in L; lra|].
    destruct (Z_lt_ge_dec E' E) as [L'|L']; [apply M in L'; lra|]. lia. }
  intros a b. split.
  - intros E1 E2 Hp H1 H2. destruct a as [|s1 m1 e1]; [simpl in Hp; lra|].
    destruct b as [|s2 m2 e2]; [simpl in Hp; lra|].
    pose proof (U _ _ _ H1 (frexp_has_exp s1 m1 e1)). pose proof (U _ _ _ H2 (frexp_has_exp s2 m2 e2)).
    subst E1 E2. unfold subtraction_precision.
    destruct (dval_sign s1 m1 e1) as [[V1 ->]|[V1 ->]], (dval_sign s2 m2 e2) as [[V2 ->]|[V2 ->]];
      cbn [Bool.eqb negb]; try reflexivity; exfalso; nra.
  - intros Hn. destruct a as [|s1 m1 e1]; [reflexivity|].
    destruct b as [|s2 m2 e2]; [reflexivity|]. unfold subtraction_precision.
    destruct (dval_sign s1 m1 e1) as [[V1 ->]|[V1 ->]], (dval_sign s2 m2 e2) as [[V2 ->]|[V2 ->]];
      cbn [Bool.eqb negb]; try reflexivity; exfalso; nra.
Qed.

Theorem C52_addition_precision : forall a b,
  (forall E1 E2, dval a * dval b < 0 -> has_exp (dval a) E1 -> has_exp (dval b) E2 ->
     addition_precision a b = Z.abs (E1 - E2)) /\
  (0 <= dval a * dval b -> addition_precision a b = (2 ^ 64 - 1)%Z).
Proof.
  intros a b.
  assert (Hn : dval (dneg b) = - dval b).
  { destruct b as [|s m e]; simpl; [lra|]. destruct s; simpl; lra. }
  destruct (C52_subtraction_precision a (dneg b)) as [H1 H2]. rewrite Hn in *.
  unfold addition_precision. split.
  - intros E1 E2 Hs He1 He2. apply H1; auto; [lra|]. unfold has_exp in *. rewrite Rabs_Ropp. exact He2.
  - intros Hs. apply H2. lra.
Qed.

(* 12 and 1: exponents 4 and 1 *)
Example C52_example : subtraction_precision (DNum false 3 2) (DNum false 1 0) = 3%Z
  /\ subtraction_precision (DNum false 3 2) (DNum true 1 0) = (2 ^ 64 - 1)%Z.
Proof. split; reflexivity. Qed.

Print Assumptions C22_bisection.
Print Assumptions C22_bisection_root.
Print Assumptions C22_invalid.
Print Assumptions C22_terminates_on_grid.
Print Assumptions C22_precision_refuted.
Print Assumptions C23_newton_raphson.
Print Assumptions C23_halleys_method.
Print Assumptions C23_steps_descend.
Print Assumptions C23_newton_path.
Print Assumptions C23_halley_path.
Print Assumptions C23_next_unique.
Print Assumptions C23_halley_root_refuted.
Print Assumptions C52_subtraction_precision.
Print Assumptions C52_addition_precision.
