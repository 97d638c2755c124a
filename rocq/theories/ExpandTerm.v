(** expand ends on polynomial expressions and collects them in one polynomial. *)
From Coq Require Import ZArith Reals Lia Lra Bool List String.
From Verif Require Import Outcome Num PolySpec PolyModel ExprModel ExprSpec CtModel CtSpec ExpandModel ExpandSpec.
Import ListNotations.
Open Scope Z_scope.

(** [ev e r]: simplification of [e] ends with [r] *)
Definition ev (e : pexpr) (r : option pexpr) : Prop := exists n, forall m, (n <= m)%nat -> xsimp CExpand m e = Ret r.
Definition final (e : pexpr) (r : option pexpr) : pexpr := match r with Some q => q | None => e end.

Section Collect.
Variable x : string.
(** the results *)
Inductive flat : pexpr -> Prop :=
| flat_poly c : flat (XPoly x c)
| flat_pow p : 2 <= p -> flat (XBin OPow (XVar x) (XC p 1)).
Definition arg (e : pexpr) : Prop := flat e \/ exists k, e = XNum k.
Definition ready (e : pexpr) : Prop := (exists c, e = XPoly x c) \/ exists k, e = XNum k.

Lemma ev_num k : ev (XNum k) None.
Proof. exists 1%nat. intros [|m] H; [lia|reflexivity]. Qed.
Lemma ev_poly c : ev (XPoly x c) None.
Proof. exists 1%nat. intros [|m] H; [lia|reflexivity]. Qed.
Lemma ev_const n d : ev (XC n d) (Some (XNum (RDbl (c_real n d)))).
Proof. exists 1%nat. intros [|m] H; [lia|reflexivity]. Qed.
Lemma ev_var : ev (XVar x) (Some (XPoly x xpoly_var)).
Proof. exists 1%nat. intros [|m] H; [lia|reflexivity]. Qed.
Lemma ev_pow p : 0 <= p -> ev (XBin OPow (XVar x) (XC p 1)) (Some (XPoly x (xpoly_varpow (Z.to_nat p)))).
Proof.
  intros Hp. exists 1%nat. intros [|m] H; [lia|]. cbn [xsimp]. unfold xbinary_gate, poly_rule. cbn [to_polys andb].
  rewrite Z.eqb_refl. cbn [andb]. destruct (Z.leb_spec 0 p); [reflexivity|lia].
Qed.

Lemma ev_det e r r' : ev e r -> ev e r' -> r = r'.
Proof. intros [n H] [n' H']. specialize (H (max n n') ltac:(lia)). specialize (H' (max n n') ltac:(lia)). congruence. Qed.
Lemma try_ev e r : ev e r -> exists n, forall m, (n <= m)%nat -> xtry (xsimp CExpand m) e = Ret (final e r).
Proof. intros [n H]. exists n. intros m Hm. unfold xtry. rewrite H by auto. destruct r; reflexivity. Qed.
Lemma xapply_none o l r : plain l \/ plain r -> not_const 0 l -> not_const 0 r -> (o = OMul \/ o = OPow -> not_const 1 l /\ not_const 1 r) ->
  xreduce o l r = Ret None.
Proof.
  intros P L0 R0 U. unfold xreduce.
  assert (N : xreduce_null o l r = Ret None).
  { assert (A : xnull l = false).
    { destruct l; cbn; auto. destruct (Z.eqb_spec n 0) as [->|]; auto. destruct (Z.eqb_spec d 1) as [->|]; auto. exfalso. now apply L0. }
    assert (B : xnull r = false).
    { destruct r; cbn; auto. destruct (Z.eqb_spec n 0) as [->|]; auto. destruct (Z.eqb_spec d 1) as [->|]; auto. exfalso. now apply R0. }
    assert (C : o = OMul \/ o = OPow -> xunity l = false /\ xunity r = false).
    { intros Ho. destruct (U Ho) as [U1 U2]. split.
      - destruct l; cbn; auto. destruct (Z.eqb_spec n 1) as [->|]; auto. destruct (Z.eqb_spec d 1) as [->|]; auto. exfalso. now apply U1.
      - destruct r; cbn; auto. destruct (Z.eqb_spec n 1) as [->|]; auto. destruct (Z.eqb_spec d 1) as [->|]; auto. exfalso. now apply U2. }
    unfold xreduce_null. destruct o; rewrite ?A, ?B; auto.
    - destruct (C (or_introl eq_refl)) as [-> ->]. reflexivity.
    - destruct (C (or_intror eq_refl)) as [_ ->]. reflexivity. }
  destruct (lit_of l) eqn:El; [|exact N]. destruct (lit_of r) eqn:Er; [|exact N].
  exfalso. destruct P as [P|P]; [destruct l|destruct r]; try discriminate; exact P.
Qed.
Lemma flat_plain e : flat e -> plain e.
Proof. intros []; exact I. Qed.
Lemma arg_not_const n e : arg e -> not_const n e.
Proof. intros [[]|[k ->]]; intros E; discriminate. Qed.
Lemma args_none o l r : plain l \/ plain r -> arg l -> arg r -> xreduce o l r = Ret None.
Proof. intros P A B. apply xapply_none; auto; try (apply arg_not_const; auto). intros _. split; apply arg_not_const; auto. Qed.
Lemma args_apply o l r : plain l \/ plain r -> arg l -> arg r -> xapply o l r = Ret (XBin o l r).
Proof. intros P A B. unfold xapply. rewrite args_none; auto. Qed.

Definition basic (o : aop) : Prop := o = OAdd \/ o = OSub \/ o = OMul.
(** two polynomials *)
Lemma ev_pp o f g : basic o -> ev (XBin o (XPoly x f) (XPoly x g)) (Some (XPoly x (xpoly_op o f g))).
Proof.
  intros B. exists 1%nat. intros [|m] H; [lia|]. cbn [xsimp]. unfold xbinary_gate, poly_rule. rewrite String.eqb_refl.
  destruct B as [-> | [-> | ->]]; reflexivity.
Qed.
Lemma xpoly_div_dbl f r : exists q, xpoly_div f (RDbl r) = Ret q.
Proof. unfold xpoly_div. destruct (ints_of f); eauto. Qed.
Lemma ev_pdiv f r : exists q, ev (XBin ODiv (XPoly x f) (XPoly x [RDbl r])) (Some (XPoly x q)).
Proof.
  destruct (xpoly_div_dbl f r) as [q Hq]. exists q. exists 1%nat. intros [|m] H; [lia|]. cbn [xsimp]. unfold xbinary_gate, poly_rule.
  rewrite Hq. reflexivity.
Qed.
(** a polynomial and a number *)
Lemma gate_args o l r m : poly_rule true o l r = Ret None -> o <> OPow -> xreduce o l r = Ret None -> xdirect_rule o l r = XNone ->
  xsimp CExpand (S m) (XBin o l r) = xargument_rules CExpand (xsimp CExpand m) o l r.
Proof.
  intros H Ho R D. cbn [xsimp]. unfold xbinary_gate. cbn [to_polys]. rewrite H. cbn [obind].
  replace (if aop_eqb o OPow then xwhole r else None) with (@None Z) by (destruct o; auto; contradiction).
  unfold xbinary_rules. rewrite R. cbn [obind]. rewrite D. reflexivity.
Qed.
Definition operation (o : aop) (r : pexpr) : Prop := basic o \/ (o = ODiv /\ exists k, r = XNum (RDbl k)).
Lemma ev_pn o f k : operation o (XNum k) -> exists q, ev (XBin o (XPoly x f) (XNum k)) (Some (XPoly x q)).
Proof.
  intros B. assert (E : exists q, ev (XBin o (XPoly x f) (XPoly x [k])) (Some (XPoly x q))).
  { destruct B as [B|(-> & k' & Hk)]; [eexists; apply ev_pp; auto|]. injection Hk as ->. apply ev_pdiv. }
  destruct E as (q & n & E). exists q. exists (S (S n)). intros [|m] Hm; [lia|].
  assert (Ho : o <> OPow) by (destruct B as [[-> | [-> | ->]]|[-> _]]; discriminate).
  assert (P : plain (XPoly x f) \/ plain (XNum k)) by (left; exact I).
  assert (A1 : arg (XPoly x f)) by (left; constructor). assert (A2 : arg (XNum k)) by (right; eauto).
  rewrite gate_args; auto.
  2:{ apply args_none; auto. }
  2:{ destruct o; auto; contradiction. }
  unfold xargument_rules. destruct m as [|m]; [lia|]. cbn [xsimp obind].
  assert (C : constant_rule CExpand (xsimp CExpand (S m)) o (XPoly x f) (XNum k) = Ret (Some (XPoly x q))).
  { unfold constant_rule. cbn [to_polys to_arithmetic]. rewrite args_apply; [|left; exact I|left; constructor|left; constructor]. cbn [obind]. unfold xsome, xtry.
    rewrite E by lia. reflexivity. }
  destruct B as [[-> | [-> | ->]]|[-> _]]; cbn [associative]; auto; unfold xreorder6, xreorder7; cbn [xsplit obind]; exact C.
Qed.
Lemma ev_np o f k : basic o -> exists q, ev (XBin o (XNum k) (XPoly x f)) (Some (XPoly x q)).
Proof.
  intros B. destruct (ev_pp o [k] f B) as (n & E). eexists. exists (S (S n)). intros [|m] Hm; [lia|].
  assert (Ho : o <> OPow) by (destruct B as [-> | [-> | ->]]; discriminate).
  assert (P : plain (XNum k) \/ plain (XPoly x f)) by (right; exact I).
  assert (A1 : arg (XPoly x f)) by (left; constructor). assert (A2 : arg (XNum k)) by (right; eauto).
  rewrite gate_args; auto.
  2:{ apply args_none; auto. }
  2:{ destruct B as [-> | [-> | ->]]; reflexivity. }
  unfold xargument_rules. destruct m as [|m]; [lia|]. cbn [xsimp obind].
  assert (C : constant_rule CExpand (xsimp CExpand (S m)) o (XNum k) (XPoly x f) = Ret (Some (XPoly x (xpoly_op o [k] f)))).
  { unfold constant_rule. cbn [to_polys to_arithmetic]. rewrite args_apply; [|left; exact I|left; constructor|left; constructor]. cbn [obind]. unfold xsome, xtry.
    rewrite E by lia. reflexivity. }
  destruct B as [-> | [-> | ->]]; cbn [associative]; auto; unfold xreorder6, xreorder7; cbn [xsplit obind]; exact C.
Qed.
(** two results *)
Lemma ev_ready o l r : operation o r -> plain l \/ plain r -> ready l -> ready r -> exists q, ev (XBin o l r) (Some (XPoly x q)).
Proof.
  intros B P [[f ->]|[k ->]] [[g ->]|[k' ->]].
  - destruct B as [B|(_ & k & Hk)]; [eexists; apply ev_pp; auto|discriminate].
  - apply ev_pn; auto.
  - destruct B as [B|(_ & k' & Hk)]; [apply ev_np; auto|discriminate].
  - destruct P as [P|P]; contradiction.
Qed.
Lemma arg_cases e : arg e -> (exists c, e = XPoly x c) \/ (exists p, 2 <= p /\ e = XBin OPow (XVar x) (XC p 1)) \/ exists k, e = XNum k.
Proof. intros [[c|p Hp]|[k ->]]; eauto 6. Qed.
(** simplification of the operands *)
Lemma ev_operands o l r ml mr q : operation o (final r mr) -> poly_rule true o l r = Ret None -> xreduce o l r = Ret None -> xdirect_rule o l r = XNone ->
  ev l ml -> ev r mr -> (ml <> None \/ mr <> None) -> plain (final l ml) \/ plain (final r mr) -> arg (final l ml) -> arg (final r mr) ->
  ev (XBin o (final l ml) (final r mr)) (Some q) -> ev (XBin o l r) (Some q).
Proof.
  intros B H R D [n1 E1] [n2 E2] NN P A1 A2 [n3 E3]. exists (S (max n1 (max n2 n3))). intros [|m] Hm; [lia|].
  assert (Ho : o <> OPow) by (destruct B as [[-> | [-> | ->]]|[-> _]]; discriminate).
  rewrite gate_args; auto. unfold xargument_rules. rewrite E1, E2 by lia. cbn [obind].
  destruct ml as [l'|], mr as [r'|]; cbn [final] in *; [..|destruct NN; contradiction];
    (rewrite args_apply by auto; cbn [obind]; unfold xsome, xtry; rewrite E3 by lia; reflexivity).
Qed.
(** an expression whose simplification ends in [q] *)
Definition ends (e q : pexpr) : Prop := exists r, ev e r /\ q = final e r /\ (r = None -> ready e).
Lemma ends_ready e : ready e -> ends e e.
Proof. intros Re. exists None. split; [|split; auto]. destruct Re as [[c ->]|[k ->]]; [apply ev_poly|apply ev_num]. Qed.
Lemma flat_ends e : flat e -> exists c, ends e (XPoly x c).
Proof.
  intros [c|p Hp]; [exists c; apply ends_ready; left; eauto|]. eexists. exists (Some (XPoly x (xpoly_varpow (Z.to_nat p)))).
  split; [apply ev_pow; lia|]. split; [reflexivity|discriminate].
Qed.
Lemma arg_ends e : arg e -> exists q, ends e q /\ ready q /\ (plain e -> plain q) /\ (forall k, e = XNum k -> q = e).
Proof.
  intros [F|[k ->]].
  - destruct (flat_ends e F) as [c Hc]. exists (XPoly x c). split; auto. split; [left; eauto|]. split; [intros _; exact I|]. intros k ->. inversion F.
  - exists (XNum k). split; [apply ends_ready; right; eauto|]. split; [right; eauto|]. auto.
Qed.
Lemma pow_rule_none o p r : o <> OPow -> poly_rule true o (XBin OPow (XVar x) (XC p 1)) r = Ret None.
Proof. reflexivity. Qed.
(** a node of two simplified operands *)
Lemma ev_args o l r : operation o r -> plain l \/ plain r -> arg l -> arg r -> exists q, ev (XBin o l r) (Some (XPoly x q)).
Proof.
  intros B P A1 A2.
  destruct (arg_ends l A1) as (l' & (ml & E1 & El & N1) & R1 & P1 & K1), (arg_ends r A2) as (r' & (mr & E2 & Er & N2) & R2 & P2 & K2).
  assert (B' : operation o r'). { destruct B as [B|(-> & k & ->)]; [left; auto|]. right. split; auto. exists k. apply K2 with (k := RDbl k). reflexivity. }
  assert (P' : plain l' \/ plain r') by tauto.
  destruct (ev_ready o l' r' B' P' R1 R2) as [q Hq].
  destruct ml as [l2|] eqn:Eml.
  2:{ destruct mr as [r2|] eqn:Emr; [|cbn [final] in *; subst; eauto].
      exists q. eapply (ev_operands o l r None (Some r2)); cbn [final] in *; subst; auto.
      - destruct (arg_cases _ A2) as [(c & ->)|[(p & Hp & ->)|[k ->]]]; [exfalso; pose proof (ev_det _ _ _ E2 (ev_poly c)); discriminate| |exfalso; pose proof (ev_det _ _ _ E2 (ev_num k)); discriminate].
        destruct N1 as [[c ->]|[k ->]]; auto; reflexivity.
      - apply args_none; auto.
      - destruct N1 as [[c ->]|[k ->]]; auto; destruct B as [[-> | [-> | ->]]|(-> & k' & ->)]; try reflexivity.
      - right. discriminate.
      - destruct R2 as [[c ->]|[k ->]]; [left; constructor|right; eauto]. }
  exists q. eapply (ev_operands o l r (Some l2) mr); subst; auto.
  - cbn [final] in *. destruct (arg_cases _ A1) as [(c & ->)|[(p & Hp & ->)|[k ->]]]; [exfalso; pose proof (ev_det _ _ _ E1 (ev_poly c)); discriminate| |exfalso; pose proof (ev_det _ _ _ E1 (ev_num k)); discriminate].
    reflexivity.
  - apply args_none; auto.
  - destruct (arg_cases _ A1) as [(c & ->)|[(p & Hp & ->)|[k ->]]]; [exfalso; pose proof (ev_det _ _ _ E1 (ev_poly c)); discriminate| |exfalso; pose proof (ev_det _ _ _ E1 (ev_num k)); discriminate].
    destruct (arg_cases _ A2) as [(c & ->)|[(p' & Hp' & ->)|[k ->]]]; destruct B as [[-> | [-> | ->]]|(-> & k' & Hk')]; try reflexivity; try discriminate.
  - left. discriminate.
  - cbn [final] in *. destruct R1 as [[c ->]|[k ->]]; [left; constructor|right; eauto].
  - destruct R2 as [[c ->]|[k ->]]; [left; constructor|right; eauto].
Qed.

Lemma ends_final_none e : ends e e -> ready e \/ ev e (Some e).
Proof. intros ([r|] & E & Eq & N); [right|left; auto]. cbn [final] in Eq. now subst r. Qed.
Lemma ev_node o l r l' r' : ends l l' -> ends r r' -> arg l' -> arg r' -> plain l' \/ plain r' -> operation o r' ->
  xreduce o l r = Ret None -> xdirect_rule o l r = XNone -> (poly_rule true o l r = Ret None \/ (ready l /\ ready r)) ->
  exists q, ev (XBin o l r) (Some (XPoly x q)).
Proof.
  intros (ml & E1 & -> & N1) (mr & E2 & -> & N2) A1 A2 P B R D H.
  assert (RR : ready l /\ ready r -> exists q, ev (XBin o l r) (Some (XPoly x q))).
  { intros [R1 R2]. assert (E : ml = None /\ mr = None).
    { split; [destruct R1 as [[c ->]|[k ->]]; eapply ev_det; [exact E1| |exact E1|]; try apply ev_poly; try apply ev_num|].
      destruct R2 as [[c ->]|[k ->]]; eapply ev_det; [exact E2| |exact E2|]; try apply ev_poly; try apply ev_num. }
    destruct E as [-> ->]. cbn [final] in *. apply ev_ready; auto. }
  destruct H as [H|H]; [|auto].
  destruct ml as [l2|] eqn:Eml; [|destruct mr as [r2|] eqn:Emr; [|auto]].
  - destruct (ev_args o _ _ B P A1 A2) as [q Hq]. exists q. eapply ev_operands; eauto. left. discriminate.
  - destruct (ev_args o _ _ B P A1 A2) as [q Hq]. exists q. eapply ev_operands; eauto. right. discriminate.
Qed.

(** products of equal factors *)
Lemma flat_sub n a : flat a -> exists t, xpower_sub (S (S n)) a = Ret t /\ plain t /\ (forall z, t <> XVar z) /\
  (forall z, not_const z t) /\ exists q, ev t (Some (XPoly x q)).
Proof.
  intros F. assert (Fa : arg a) by (left; auto). destruct (flat_ends a F) as [ca Ca].
  induction n as [|n (t & Ht & Pt & Vt & Nt & q & Hq)].
  - cbn [xpower_sub obind]. rewrite args_apply; auto; [|left; apply flat_plain; auto].
    eexists. split; [reflexivity|]. split; [exact I|]. split; [discriminate|]. split; [intros z; discriminate|].
    apply ev_args; auto; [left; right; right; reflexivity|left; apply flat_plain; auto].
  - assert (R : xreduce OMul t a = Ret None).
    { apply xapply_none; auto; [apply arg_not_const; auto|]. intros _. split; auto. apply arg_not_const; auto. }
    cbn [xpower_sub]. cbn [xpower_sub] in Ht. rewrite Ht. cbn [obind]. unfold xapply. rewrite R. cbn [obind].
    eexists. split; [reflexivity|]. split; [exact I|]. split; [discriminate|]. split; [intros z; discriminate|].
    assert (Et : ends t (XPoly x q)). { exists (Some (XPoly x q)). split; auto. split; [reflexivity|discriminate]. }
    eapply ev_node; [exact Et|exact Ca|left; constructor|left; constructor|left; exact I|left; right; right; reflexivity|exact R| |].
    + cbn [xdirect_rule]. destruct (arg_cases _ Fa) as [(c & ->)|[(p & Hp & ->)|[k ->]]].
      * destruct t as [| |z| | |[] [] ]; auto.
      * destruct t as [| |z| | |[] [] ]; auto. exfalso. eapply Vt. reflexivity.
      * inversion F.
    + destruct (arg_cases _ Fa) as [(c & ->)|[(p & Hp & ->)|[k ->]]].
      * destruct t as [| |z|z f| |]; auto. exfalso. destruct Hq as [n' Hq]. specialize (Hq (S n') ltac:(lia)). discriminate.
      * left. destruct t; reflexivity.
      * inversion F.
Qed.

(** the main statement *)
Definition literal (e : pexpr) : Prop := match e with XC _ _ | XNum _ => True | _ => False end.
Definition done (e q : pexpr) : Prop :=
  ends e q /\ (literal e -> exists k, q = XNum k) /\ (plain e -> flat q) /\ ((exists c, q = XPoly x c) \/ literal e \/ power_product x e) /\
  (forall n d, e = XC n d -> exists k, q = XNum (RDbl k)).
Lemma done_poly e q : plain e -> ev e (Some (XPoly x q)) -> done e (XPoly x q).
Proof.
  intros P E. split; [exists (Some (XPoly x q)); split; [auto|split; [reflexivity|discriminate]]|].
  split; [destruct e; contradiction|]. split; [constructor|]. split; [eauto|]. intros n d ->. contradiction.
Qed.
Lemma done_pow e p : plain e -> 2 <= p -> power_product x e -> ev e (Some (XBin OPow (XVar x) (XC p 1))) -> done e (XBin OPow (XVar x) (XC p 1)).
Proof.
  intros P Hp B E. split; [exists (Some (XBin OPow (XVar x) (XC p 1))); split; [auto|split; [reflexivity|discriminate]]|].
  split; [destruct e; contradiction|]. split; [constructor; auto|]. split; [eauto|]. intros n d ->. contradiction.
Qed.
Lemma done_arg e q : done e q -> arg q.
Proof.
  intros (_ & L & P & _). destruct e; try (left; apply P; exact I); right; apply L; exact I.
Qed.
Lemma lit_plain e : literal e \/ plain e.
Proof. destruct e; cbn; auto. Qed.
Lemma xadd1 p : 2 <= p < 2 ^ 62 -> xapply OAdd (XC p 1) (XC 1 1) = Ret (XC (p + 1) 1).
Proof.
  intros Hp. unfold xapply, xreduce. cbn [lit_of]. unfold creduce. cbn [cop_of].
  assert (F1 : ConstModel.fits 1 = true) by reflexivity.
  assert (F : forall q, 2 <= q <= 2 ^ 62 -> ConstModel.fits q = true).
  { intros q Hq. unfold ConstModel.fits. apply andb_true_iff. unfold ConstModel.intmax_max. split; apply Z.leb_le; lia. }
  assert (R : forall q, 2 <= q <= 2 ^ 62 -> ConstModel.ratio q 1 = Ret (q, 1)).
  { intros q Hq. unfold ConstModel.ratio. rewrite Z.gcd_1_r, Z.div_1_r. cbn [Z.eqb Z.sgn Z.div]. change (1 / 1) with 1. change (Z.abs 1) with 1.
    rewrite Z.mul_1_l, F, F1 by auto. reflexivity. }
  unfold ConstModel.c_op, ConstModel.ratio_of. cbn [fst snd]. rewrite F, F1 by lia. cbn [andb]. rewrite R by lia.
  replace (ConstModel.ratio 1 1) with (@Ret ConstModel.constant (1, 1)) by reflexivity. cbn [obind ConstModel.ratio_op].
  replace (p * 1 + 1 * 1) with (p + 1) by ring. change (1 * 1) with 1. rewrite R by lia. reflexivity.
Qed.
Lemma inv_var y : poly_expression x (XVar y) -> y = x.
Proof. intros H. inversion H. reflexivity. Qed.
Lemma inv_poly y c : poly_expression x (XPoly y c) -> y = x.
Proof. intros H. inversion H. reflexivity. Qed.
Lemma inv_pow a n : poly_expression x (XBin OPow a n) -> poly_expression x a /\ exists p, n = XC p 1 /\ 2 <= p < 2 ^ 62.
Proof.
  intros H. inversion H as [| | | | |o l r Ho| |a' p Pa Hp Ha]; subst; [destruct Ho as [E|[E|E]]; discriminate|]. eauto.
Qed.
Lemma ev_power l r p n : poly_rule true OMul l r = Ret None -> xreduce OMul l r = Ret None ->
  xdirect_rule OMul l r = XPow x n -> n = XC p 1 -> 2 <= p < 2 ^ 62 -> ev (XBin OMul l r) (Some (XBin OPow (XVar x) (XC (p + 1) 1))).
Proof.
  intros H R D -> Hp. exists 1%nat. intros [|m] Hm; [lia|]. cbn [xsimp]. unfold xbinary_gate. cbn [to_polys]. rewrite H. cbn [obind aop_eqb].
  unfold xbinary_rules. rewrite R. cbn [obind]. rewrite D, xadd1 by auto. cbn [obind]. unfold xapply, xreduce. cbn [lit_of xreduce_null xunity].
  replace (p + 1 =? 1) with false by (symmetry; apply Z.eqb_neq; lia). reflexivity.
Qed.
Theorem collects e : poly_expression x e -> exists q, done e q.
Proof.
  induction 1 as [|c Hc|k|n d Hd|a Pa Na Ha [q Hq]|o l r Ho P L0 R0 U Hl [ql Hql] Hr [qr Hqr]|l k Pl Hk Hl [ql Hql]|a p Pa Hp Ha [q Hq]].
  - eexists. apply done_poly; [exact I|apply ev_var].
  - exists (XPoly x c). split; [apply ends_ready; left; eauto|]. split; [intros []|]. split; [constructor|]. split; [eauto|discriminate].
  - exists (XNum k). split; [apply ends_ready; right; eauto|]. split; [eauto|]. split; [intros []|]. split; [right; left; exact I|discriminate].
  - exists (XNum (RDbl (c_real n d))). split; [eexists; split; [apply ev_const|split; [reflexivity|discriminate]]|]. split; [eauto|]. split; [intros []|].
    split; [right; left; exact I|eauto].
  - destruct Hq as ((r & [n E] & -> & N) & _ & F & _). specialize (F Pa).
    destruct r as [a'|].
    2:{ exfalso. destruct (N eq_refl) as [[c ->]|[k ->]]; [eapply Na; reflexivity|exact Pa]. }
    cbn [final] in F. destruct F as [c|p Hp].
    + exists (XPoly x (xpoly_neg c)). apply done_poly; [exact I|]. exists (S (S n)). intros [|m] Hm; [lia|]. cbn [xsimp]. unfold xunary_gate.
      rewrite E by lia. cbn [obind xfun lit_of]. destruct m as [|m]; [lia|]. reflexivity.
    + destruct (ev_pow p ltac:(lia)) as [n' E']. eexists. apply done_poly; [exact I|]. exists (S (S (S (max n n')))). intros [|m] Hm; [lia|]. cbn [xsimp]. unfold xunary_gate.
      rewrite E by lia. cbn [obind xfun lit_of]. unfold xsome, xtry. destruct m as [|m]; [lia|]. cbn [xsimp]. unfold xunary_gate.
      rewrite E' by lia. cbn [obind xfun lit_of]. unfold xsome, xtry. destruct m as [|m]; [lia|]. reflexivity.
  - assert (R : xreduce o l r = Ret None).
    { apply xapply_none; auto. intros [E|E]; [auto|]. subst o. destruct Ho as [E|[E|E]]; discriminate. }
    pose proof (done_arg _ _ Hql) as Al. pose proof (done_arg _ _ Hqr) as Ar.
    assert (Pq : plain ql \/ plain qr).
    { destruct P as [P|P]; [left; apply flat_plain; apply Hql; auto|right; apply flat_plain; apply Hqr; auto]. }
    assert (B : operation o qr) by (left; exact Ho).
    assert (Hd : xdirect_rule o l r = XNone \/ (o = OMul /\
              ((l = XVar x /\ r = XVar x) \/ exists p, 2 <= p < 2 ^ 62 /\
                ((l = XVar x /\ r = XBin OPow (XVar x) (XC p 1)) \/ (l = XBin OPow (XVar x) (XC p 1) /\ r = XVar x))))).
    { destruct Ho as [-> | [-> | ->]]; [left; reflexivity..|].
      assert (A : forall y n, l = XBin OPow (XVar y) n -> y = x /\ exists p, n = XC p 1 /\ 2 <= p < 2 ^ 62).
      { intros y n ->. apply inv_pow in Hl as [Hl Hn]. split; [apply inv_var; auto|auto]. }
      assert (A' : forall y n, r = XBin OPow (XVar y) n -> y = x /\ exists p, n = XC p 1 /\ 2 <= p < 2 ^ 62).
      { intros y n ->. apply inv_pow in Hr as [Hr Hn]. split; [apply inv_var; auto|auto]. }
      destruct l as [| |y| | |o1 l1 l2]; try (left; reflexivity).
      - apply inv_var in Hl. subst y. destruct r as [| |y| | |o2 r1 r2]; try (left; reflexivity).
        + apply inv_var in Hr. subst y. right. split; auto.
        + destruct o2; try (left; reflexivity). destruct r1 as [| |y| | |]; try (left; reflexivity).
          destruct (A' _ _ eq_refl) as (-> & p & -> & Hp). right. split; auto. right. exists p. auto.
      - destruct o1; try (left; reflexivity). destruct l1 as [| |y| | |]; try (left; reflexivity).
        destruct r as [| |z| | |]; try (left; reflexivity). apply inv_var in Hr. subst z.
        destruct (A _ _ eq_refl) as (-> & p & -> & Hp). right. split; auto. right. exists p. auto. }
    destruct Hd as [D|(-> & [[-> ->]|(p & Hp & [[-> ->]|[-> ->]])])].
    + assert (G : poly_rule true o l r = Ret None \/ (ready l /\ ready r) \/ (o = OMul /\ exists f, l = XPoly x f /\ r = XVar x)).
      { destruct l as [| |y|y f| |]; destruct r as [| |z|z g| |]; auto; try (left; destruct Ho as [-> | [-> | ->]]; reflexivity).
        - apply inv_poly in Hl. apply inv_var in Hr. subst y z. destruct Ho as [-> | [-> | ->]]; [left; reflexivity..|]. right. right. eauto.
        - apply inv_poly in Hl. apply inv_poly in Hr. subst y z. right. left. split; left; eauto. }
      destruct G as [G|[G|(-> & f & -> & ->)]].
      * destruct (ev_node o l r ql qr) as [q Hq]; auto; [apply Hql|apply Hqr|]. eexists. apply done_poly; [exact I|exact Hq].
      * destruct (ev_node o l r ql qr) as [q Hq]; auto; [apply Hql|apply Hqr|]. eexists. apply done_poly; [exact I|exact Hq].
      * eexists. apply done_poly; [exact I|]. exists 1%nat. intros [|m] Hm; [lia|]. cbn [xsimp]. unfold xbinary_gate, poly_rule. rewrite String.eqb_refl. reflexivity.
    + eexists. apply (done_pow _ 2); [exact I|lia|constructor|]. exists 1%nat. intros [|m] Hm; [lia|]. cbn [xsimp]. unfold xbinary_gate, xbinary_rules.
      rewrite R. cbn [poly_rule to_polys obind aop_eqb xdirect_rule]. rewrite String.eqb_refl. reflexivity.
    + eexists. apply (done_pow _ (p + 1)); [exact I|lia|constructor|]. apply (ev_power _ _ p (XC p 1)); [reflexivity|exact R|cbn [xdirect_rule]; now rewrite String.eqb_refl|reflexivity|exact Hp].
    + eexists. apply (done_pow _ (p + 1)); [exact I|lia|constructor|]. apply (ev_power _ _ p (XC p 1)); [reflexivity|exact R|cbn [xdirect_rule]; now rewrite String.eqb_refl|reflexivity|exact Hp].
  - pose proof Hql as (El & _ & F & Pr & _). specialize (F Pl).
    assert (R : xreduce ODiv l k = Ret None). { unfold xreduce. destruct l; try contradiction; reflexivity. }
    assert (Z : xnull l = false) by (destruct l; try contradiction; reflexivity).
    destruct (xunity k) eqn:Uk.
    + assert (E : k = XC 1 1).
      { destruct k as [n d| | | | |]; try discriminate. cbn in Uk. apply andb_true_iff in Uk as [U1 U2]. apply Z.eqb_eq in U1, U2. now subst. }
      subst k. destruct El as (r & [n E] & Eq & N). exists ql.
      assert (V : ev (XBin ODiv l (XC 1 1)) (Some ql)).
      { exists (S n). intros [|m] Hm; [lia|]. cbn [xsimp]. unfold xbinary_gate, xbinary_rules.
        replace (poly_rule (to_polys CExpand) ODiv l (XC 1 1)) with (@Ret (option pexpr) None) by (destruct l; reflexivity).
        rewrite R. cbn [obind aop_eqb xdirect_rule]. rewrite Z. cbn [xunity Z.eqb Pos.eqb andb]. unfold xsome, xtry. rewrite E by lia. cbn [obind]. subst ql. destruct r; reflexivity. }
      destruct F as [c|p Hp]; [apply done_poly; [exact I|exact V]|]. apply done_pow; [exact I|auto| |exact V].
      destruct Pr as [[c Hc]|[L|B]]; [discriminate|destruct l; contradiction|constructor; auto].
    + assert (K : exists k', ends k (XNum (RDbl k'))).
      { destruct k as [n d|[z|r']| | | |]; try contradiction.
        - eexists. eexists. split; [apply ev_const|]. split; [reflexivity|discriminate].
        - exists r'. apply ends_ready. right. eauto. }
      destruct K as [k' K]. destruct (ev_node ODiv l k ql (XNum (RDbl k'))) as [q Hq]; auto.
      * left. auto.
      * right. eauto.
      * left. apply flat_plain. auto.
      * right. eauto.
      * cbn [xdirect_rule]. rewrite Z, Uk. destruct l as [| |y| | |]; auto. destruct k; try contradiction; reflexivity.
      * left. destruct l as [| |y|y f| |]; auto; destruct k; try contradiction; reflexivity.
      * eexists. apply done_poly; [exact I|exact Hq].
  - pose proof Hq as ((r & [n E] & -> & N) & _ & F & _). specialize (F Pa).
    destruct (is_xvar a) eqn:V.
    + destruct a as [| |y| | |]; try discriminate. apply inv_var in Ha. subst y. eexists. apply done_poly; [exact I|]. apply ev_pow. lia.
    + destruct (flat_sub (Z.to_nat p - 2) (final a r) F) as (t & Ht & _ & _ & _ & q & [n' Hq']).
      replace (S (S (Z.to_nat p - 2))) with (Z.to_nat p) in Ht by lia.
      exists (XPoly x q). apply done_poly; [exact I|]. exists (S (max n n')). intros [|m] Hm; [lia|]. cbn [xsimp]. unfold xbinary_gate.
      replace (poly_rule (to_polys CExpand) OPow a (XC p 1)) with (@Ret (option pexpr) None) by (destruct a; try discriminate; reflexivity).
      cbn [obind aop_eqb xwhole Z.eqb Pos.eqb]. rewrite V. unfold xpower_rules. destruct (Z.ltb_spec p 0); [lia|]. rewrite E by lia. cbn [obind].
      destruct r as [a'|]; cbn [final] in Ht; rewrite Ht; cbn [obind]; unfold xsome, xtry; rewrite Hq' by lia; reflexivity.
Qed.
End Collect.
