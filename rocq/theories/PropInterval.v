(** C74: substituting intervals. *)
From Coq Require Import ZArith Reals String Ascii Bool List Lra Lia.
From Verif Require Import Outcome ExprModel ExprSpec CtModel CtSpec CtProofs CtSimp PropCt IntervalModel IntervalSpec.
Import ListNotations.
Open Scope R_scope.

Section P.
Variable L : interval_lib.
Hypothesis HL : inclusion L.
Notation ival := (ival L).
Notation nt := (i_no_truncation L).

Lemma ival_emb ok rho e v : ival ok rho (emb L e) v <-> cval ok rho e v.
Proof.
  revert v. induction e as [n d|k|y|o a IH|o l IHl r IHr]; intros v; cbn [emb IntervalSpec.ival cval]; try tauto.
  - split; intros (u & H & V); exists u; split; auto; apply IH; auto.
  - split; intros (u & w & H & H' & V); exists u, w; split; [apply IHl|split; [apply IHr|]| |split; [apply IHr|]]; auto. apply IHl. auto.
Qed.
Lemma pure_emb e c : pure L e = Some c -> e = emb L c.
Proof.
  revert c. induction e as [n d|k|v|y|o a IH|o l IHl r IHr]; intros c; cbn [pure]; intros E; try (injection E as <-; reflexivity).
  - discriminate.
  - destruct (pure L a) as [b|]; [|discriminate]. injection E as <-. cbn. now rewrite (IH b).
  - destruct (pure L l) as [b|]; [|discriminate]. destruct (pure L r) as [d|]; [|discriminate]. injection E as <-. cbn.
    now rewrite (IHl b), (IHr d).
Qed.
Lemma nt_emb b e : nt b (emb L e) <-> no_truncation b e.
Proof.
  induction e as [n d|k|y|o a IH|o l IHl r IHr]; cbn; tauto.
Qed.

Lemma iuapply_val ok rho o a e u v : iuapply L o a = Ret e ->
  (o = USin \/ o = UCos -> forall n d, a = IC L n d -> off_table u) ->
  ival ok rho a u -> unary_value ok o u v -> ival ok rho e v.
Proof.
  intros H Ho Ha Hv. unfold iuapply in H. destruct (pure L a) as [c|] eqn:P.
  - apply pure_emb in P. subst a. apply obind_ret in H as (e' & He & E). injection E as <-. apply ival_emb.
    eapply uapply_val; eauto; [|apply ival_emb, Ha]. intros Hs n d ->. eapply Ho; eauto. reflexivity.
  - destruct HL as (_ & _ & _ & N & A).
    destruct a as [n d|k|w|y|p b|p l r]; try discriminate P; try (injection H as <-; exists u; auto).
    destruct o; try discriminate H.
    + apply obind_ret in H as (z & Hz & E). injection E as <-. cbn in Ha, Hv |- *. subst v. eapply A; eauto.
    + injection H as <-. exists u. auto.
    + apply obind_ret in H as (z & Hz & E). injection E as <-. cbn in Ha, Hv |- *. subst v. eapply N; eauto.
Qed.
Lemma iuapply_nt b o a e : iuapply L o a = Ret e -> nt b a -> nt b e.
Proof.
  intros H N. unfold iuapply in H. destruct (pure L a) as [c|] eqn:P.
  - apply pure_emb in P. subst a. apply obind_ret in H as (e' & He & E). injection E as <-. apply nt_emb. apply nt_emb in N.
    eapply uapply_nt; eauto.
  - destruct a as [n d|k|w|y|p x|p l r]; try discriminate P; try (injection H as <-; exact N).
    destruct o; try discriminate H; try (apply obind_ret in H as (z & Hz & E); injection E as <-; exact I). injection H as <-. exact I.
Qed.
Lemma i_null e : i_is_null L e = true -> e = IC L 0 1.
Proof. destruct e; cbn; try discriminate. rewrite andb_true_iff, !Z.eqb_eq. intros [-> ->]. reflexivity. Qed.
Lemma i_unity e : i_is_unity L e = true -> e = IC L 1 1.
Proof. destruct e; cbn; try discriminate. rewrite andb_true_iff, !Z.eqb_eq. intros [-> ->]. reflexivity. Qed.
Lemma ival_null ok rho v : ival ok rho (IC L 0 1) v <-> v = 0.
Proof. exact (cval_Null ok rho v). Qed.
Lemma ival_unity ok rho v : ival ok rho (IC L 1 1) v <-> v = 1.
Proof. exact (cval_Unity ok rho v). Qed.

Lemma i_null_rules_val ok rho o l r e u w v : i_null_rules L o l r = Some (Ret e) ->
  ival ok rho l u -> ival ok rho r w -> binary_value o u w = Some v -> ival ok rho e v.
Proof.
  intros H Hl Hr Hv. unfold i_null_rules in H. destruct o; try discriminate; cbn [binary_value] in Hv; injection Hv as <-.
  - destruct (i_is_null L r) eqn:Er.
    { injection H as <-. apply i_null in Er. subst r. apply ival_null in Hr. subst w. now rewrite Rplus_0_r. }
    destruct (i_is_null L l) eqn:El; [|discriminate].
    injection H as <-. apply i_null in El. subst l. apply ival_null in Hl. subst u. now rewrite Rplus_0_l.
  - destruct (i_is_null L r) eqn:Er.
    { injection H as <-. apply i_null in Er. subst r. apply ival_null in Hr. subst w. now rewrite Rminus_0_r. }
    destruct (i_is_null L l) eqn:El; [|discriminate].
    injection H as H. apply i_null in El. subst l. apply ival_null in Hl. subst u.
    eapply iuapply_val; eauto; [intros [?|?]; discriminate|]. cbn. lra.
  - destruct (i_is_null L r) eqn:Er.
    { injection H as <-. apply i_null in Er. subst r. apply ival_null in Hr. subst w. apply ival_null. ring. }
    destruct (i_is_null L l) eqn:El.
    { injection H as <-. apply i_null in El. subst l. apply ival_null in Hl. subst u. apply ival_null. ring. }
    destruct (i_is_unity L r) eqn:Ur.
    { injection H as <-. apply i_unity in Ur. subst r. apply ival_unity in Hr. subst w. now rewrite Rmult_1_r. }
    destruct (i_is_unity L l) eqn:Ul; [|discriminate].
    injection H as <-. apply i_unity in Ul. subst l. apply ival_unity in Hl. subst u. now rewrite Rmult_1_l.
Qed.

Ltac mk := match goal with H : Ret _ = Ret _ |- _ => injection H as <- end.
Lemma iapply_val ok rho b o l r e u w v : iapply L o l r = Ret e -> nt b l -> (o = ODiv -> b = false) ->
  ival ok rho l u -> ival ok rho r w -> binary_value o u w = Some v -> ival ok rho e v.
Proof.
  intros H N Hb Hl Hr Hv. unfold iapply in H.
  assert (G : match o with
      | OPow => match l, r with
          | _, IC _ n d => Ret (if (n =? 1)%Z && (d =? 1)%Z then l else IBin L OPow l r)
          | IIvl _ _, IIvl _ _ | IIvl _ _, INum _ _ | INum _ _, IIvl _ _ => Throw
          | _, _ => Ret (IBin L OPow l r) end
      | _ => match i_null_rules L o l r with
          | Some m => m
          | None => match l, r with
              | IIvl _ v, IIvl _ w => do z <- i_op L o v w; Ret (IIvl L z)
              | IIvl _ v, INum _ (RDbl q) => do z <- i_op_num L o v q; Ret (IIvl L z)
              | INum _ (RDbl q), IIvl _ w => do z <- num_op_i L o q w; Ret (IIvl L z)
              | IIvl _ _, INum _ (RInt _) | INum _ (RInt _), IIvl _ _ => Throw
              | _, _ => Ret (IBin L o l r)
              end end end = Ret e -> ival ok rho e v).
  { clear H. intros H.
    assert (B : ival ok rho (IBin L o l r) v) by (exists u, w; auto).
    assert (K : match i_null_rules L o l r with
          | Some m => m
          | None => match l, r with
              | IIvl _ v, IIvl _ w => do z <- i_op L o v w; Ret (IIvl L z)
              | IIvl _ v, INum _ (RDbl q) => do z <- i_op_num L o v q; Ret (IIvl L z)
              | INum _ (RDbl q), IIvl _ w => do z <- num_op_i L o q w; Ret (IIvl L z)
              | IIvl _ _, INum _ (RInt _) | INum _ (RInt _), IIvl _ _ => Throw
              | _, _ => Ret (IBin L o l r)
              end end = Ret e -> ival ok rho e v).
    { clear H. intros H. destruct (i_null_rules L o l r) as [m|] eqn:M.
      - subst m. eapply i_null_rules_val; eauto.
      - destruct HL as (I1 & I2 & I3 & _).
        destruct l as [n d|[k|k]|x|y|p c|p a c], r as [n' d'|[k'|k']|x'|y'|p' c'|p' a' c'];
          try discriminate H; try (mk; exact B);
          apply obind_ret in H as (z & Hz & E); injection E as <-; cbn [IntervalSpec.ival] in *; subst; eauto. }
    destruct o; try (apply K; exact H). clear K.
    assert (One : forall n d, r = IC L n d -> (n =? 1)%Z && (d =? 1)%Z = true -> ival ok rho l v).
    { intros n d -> E. apply andb_true_iff in E as [A1 A2]. apply Z.eqb_eq in A1, A2. subst. apply ival_unity in Hr. subst w.
      cbn in Hv. rewrite npow_1 in Hv. injection Hv as <-. exact Hl. }
    destruct r as [n' d'|k'|x'|y'|p' c'|p' a' c'].
    - assert (E : (if (n' =? 1)%Z && (d' =? 1)%Z then l else IBin L OPow l (IC L n' d')) = e) by (destruct l; congruence).
      destruct ((n' =? 1)%Z && (d' =? 1)%Z) eqn:Q; subst e; [eapply One; eauto|exact B].
    - destruct l; try discriminate H; mk; exact B.
    - destruct l; try discriminate H; mk; exact B.
    - destruct l; mk; exact B.
    - destruct l; mk; exact B.
    - destruct l; mk; exact B. }
  destruct (pure L l) as [a|] eqn:Pl; [|apply G; exact H]. destruct (pure L r) as [c|] eqn:Pr; [|apply G; exact H].
  apply pure_emb in Pl. apply pure_emb in Pr. subst l r. apply obind_ret in H as (x & Hx & E). injection E as <-. apply ival_emb.
  apply ival_emb in Hl. apply ival_emb in Hr. apply nt_emb in N. eapply capply_val; eauto. intros E. eapply nt_not_ints; eauto.
Qed.
Lemma iapply_nt b o l r e : iapply L o l r = Ret e -> (o = ODiv -> b = false) -> nt b l -> nt b r -> nt b e.
Proof.
  intros H Hb Nl Nr. unfold iapply in H.
  assert (B : nt b (IBin L o l r)) by (cbn; auto).
  assert (K : match i_null_rules L o l r with
          | Some m => m
          | None => match l, r with
              | IIvl _ v, IIvl _ w => do z <- i_op L o v w; Ret (IIvl L z)
              | IIvl _ v, INum _ (RDbl q) => do z <- i_op_num L o v q; Ret (IIvl L z)
              | INum _ (RDbl q), IIvl _ w => do z <- num_op_i L o q w; Ret (IIvl L z)
              | IIvl _ _, INum _ (RInt _) | INum _ (RInt _), IIvl _ _ => Throw
              | _, _ => Ret (IBin L o l r)
              end end = Ret e -> nt b e).
  { clear H. intros H. destruct (i_null_rules L o l r) as [m|] eqn:M.
    - subst m. unfold i_null_rules in M. destruct o; try discriminate;
        repeat match type of M with context [if ?c then _ else _] => destruct c end; try discriminate M; injection M as M; subst;
        auto; try exact I. eapply iuapply_nt; eauto.
    - destruct l as [n d|[k|k]|x|y|p c|p a c], r as [n' d'|[k'|k']|x'|y'|p' c'|p' a' c'];
        try discriminate H; try (mk; exact B); apply obind_ret in H as (z & Hz & E); injection E as <-; exact I. }
  destruct (pure L l) as [a|] eqn:Pl; [destruct (pure L r) as [c|] eqn:Pr|].
  { apply pure_emb in Pl. apply pure_emb in Pr. subst l r. apply obind_ret in H as (x & Hx & E). injection E as <-. apply nt_emb.
    apply nt_emb in Nl. apply nt_emb in Nr. eapply capply_nt; eauto. }
  all: destruct o; try (apply K; exact H).
  all: destruct r as [n' d'|k'|x'|y'|p' c'|p' a' c'];
    [assert (E : (if (n' =? 1)%Z && (d' =? 1)%Z then l else IBin L OPow l (IC L n' d')) = e) by (destruct l; congruence);
      destruct ((n' =? 1)%Z && (d' =? 1)%Z); subst e; auto|..]; destruct l; try discriminate H; mk; exact B.
Qed.
Lemma isub_nt b x g f : forall f', isub L x g f = Ret f' -> nt b f -> nt b g -> nt b f'.
Proof.
  induction f as [n d|k|v|y|o a IH|o l IHl r IHr]; intros f' H Nf Ng; cbn [isub] in H; try (injection H as <-; exact Nf).
  - injection H as <-. destruct (y =? x)%string; auto.
  - apply obind_ret in H as (a' & Ha & H). eapply iuapply_nt; eauto.
  - apply obind_ret in H as (l' & Hl & H). apply obind_ret in H as (r' & Hr & H). destruct Nf as (N1 & N2 & N3). eapply iapply_nt; eauto.
Qed.
Lemma isub_val ok b x g f rho u : ok_table ok -> forall f' v, isub L x g f = Ret f' -> nt b f -> nt b g ->
  ival ok rho g u -> ival ok (upd_num rho x u) f v -> ival ok rho f' v.
Proof.
  intros T. induction f as [n d|k|w|y|o a IH|o l IHl r IHr]; intros f' v H Nf Ng Hg Hf; cbn [isub] in H; try (injection H as <-; exact Hf).
  - injection H as <-. cbn in Hf. subst v. unfold upd_num. destruct (y =? x)%string; auto. reflexivity.
  - apply obind_ret in H as (a' & Ha & H). destruct Hf as (w & Hw & Hv). eapply iuapply_val; eauto.
    intros Ho n d _. apply T. destruct Ho as [-> | ->]; apply Hv.
  - apply obind_ret in H as (l' & Hl & H). apply obind_ret in H as (r' & Hr & H). destruct Nf as (N1 & N2 & N3).
    destruct Hf as (p & q & Hp & Hq & Hv). eapply iapply_val; eauto. eapply isub_nt; eauto.
Qed.
End P.

(* ------------------------------------------------------------------ *)
(** ** Substitution encloses *)
(** Whatever the expression and whatever is substituted (an interval, an expression
    with intervals, a number): every value that f takes when x is a value of g is a
    value of sub(f, x = g).  f may already hold intervals, so this covers several
    variables replaced one after the other. *)
Theorem C74_encloses (L : interval_lib) (ints : bool) (x : string) (g f f' : iexpr L) (rho : string -> R) (u v : R) :
  inclusion L -> isub L x g f = Ret f' -> i_no_truncation L ints f -> i_no_truncation L ints g ->
  ival L off_table rho g u -> ival L off_table (upd_num rho x u) f v -> ival L off_table rho f' v.
Proof. intros HL H Nf Ng Hg Hf. eapply isub_val; eauto. apply table_off. Qed.
Print Assumptions C74_encloses.

Lemma arith_ok ok ok' x f : arithmetic_in x f -> forall rho v, cval ok rho f v -> cval ok' rho f v.
Proof.
  induction f as [n d|[k|k]|y|o a IH|o l IHl r IHr]; cbn [arithmetic_in cval]; intros A rho v H; auto.
  - destruct H as (u & Hu & Hv). exists u. destruct A as [Ho A]. split; [apply IH; auto|]. destruct Ho as [-> | ->]; exact Hv.
  - destruct H as (u & w & Hu & Hw & Hv). destruct A as (_ & A & B). exists u, w. auto.
Qed.
Lemma arith_nt x f : arithmetic_in x f -> no_truncation false f.
Proof. induction f as [n d|[k|k]|y|o a IH|o l IHl r IHr]; cbn; tauto. Qed.
Lemma arith_shape L x v f : arithmetic_in x f -> forall f', isub L x (IIvl L v) (emb L f) = Ret f' ->
  (occurs x f -> exists w, f' = IIvl L w) /\ (~ occurs x f -> exists q, f' = INum L (RDbl q)).
Proof.
  induction f as [n d|[k|k]|y|o a IH|o l IHl r IHr]; cbn [arithmetic_in emb isub occurs]; intros A f' H; try contradiction.
  - injection H as <-. split; [contradiction|eauto].
  - subst y. rewrite String.eqb_refl in H. injection H as <-. split; [eauto|tauto].
  - destruct A as [Ho A]. apply obind_ret in H as (a' & Ha & H). destruct (IH A a' Ha) as [I1 I2]. split; intros O.
    + destruct (I1 O) as (w & ->). unfold iuapply in H. cbn [pure] in H. destruct Ho as [-> | ->]; apply obind_ret in H as (z & _ & E); injection E as <-; eauto.
    + destruct (I2 O) as (w & ->). unfold iuapply in H. cbn [pure] in H. destruct Ho as [-> | ->]; injection H as <-; cbn; eauto.
  - destruct A as (Ho & Al & Ar). apply obind_ret in H as (l' & Hl & H). apply obind_ret in H as (r' & Hr & H).
    destruct (IHl Al l' Hl) as [L1 L2], (IHr Ar r' Hr) as [R1 R2].
    assert (Dl : occurs x l \/ ~ occurs x l) by (clear; induction l; cbn; try tauto; destruct (string_dec x0 x); auto).
    assert (Dr : occurs x r \/ ~ occurs x r) by (clear; induction r; cbn; try tauto; destruct (string_dec x0 x); auto).
    destruct Dl as [Ol|Ol], Dr as [Or|Or].
    + destruct (L1 Ol) as (a & ->), (R1 Or) as (b & ->). split; [intros _|tauto].
      unfold iapply in H. cbn [pure] in H. destruct o; try contradiction (Ho eq_refl); cbn in H; apply obind_ret in H as (z & _ & E); injection E as <-; eauto.
    + destruct (L1 Ol) as (a & ->), (R2 Or) as (b & ->). split; [intros _|tauto].
      unfold iapply in H. cbn [pure] in H. destruct o; try contradiction (Ho eq_refl); cbn in H; apply obind_ret in H as (z & _ & E); injection E as <-; eauto.
    + destruct (L2 Ol) as (a & ->), (R1 Or) as (b & ->). split; [intros _|tauto].
      unfold iapply in H. cbn [pure] in H. destruct o; try contradiction (Ho eq_refl); cbn in H; apply obind_ret in H as (z & _ & E); injection E as <-; eauto.
    + destruct (L2 Ol) as (a & ->), (R2 Or) as (b & ->). split; [tauto|intros _].
      unfold iapply in H. cbn [pure] in H. destruct o; try contradiction (Ho eq_refl); cbn in H; injection H as <-; eauto.
Qed.

(** With doubles, + - * /, unary - and abs, the result is an interval, and it
    contains the value of f at every point of the interval where f has one. *)
Theorem C74_interval (L : interval_lib) (x : string) (f : cexpr) (v : ivl L) (f' : iexpr L) :
  inclusion L -> arithmetic_in x f -> occurs x f -> isub L x (IIvl L v) (emb L f) = Ret f' ->
  exists w, f' = IIvl L w /\
    forall p u, contains L v p -> cval anywhere (fun _ => p) f u -> contains L w u.
Proof.
  intros HL A O H. destruct (arith_shape L x v f A f' H) as [S _]. destruct (S O) as (w & ->). exists w. split; [reflexivity|].
  intros p u Hp Hu.
  refine (C74_encloses L false x (IIvl L v) (emb L f) _ (fun _ => p) p u HL H _ I Hp _).
  - apply nt_emb. eapply arith_nt, A.
  - apply ival_emb. apply (cval_ext off_table (fun _ => p)); [intros y; unfold upd_num; destruct (_ =? _)%string; reflexivity|].
    eapply arith_ok; eauto.
Qed.
Print Assumptions C74_interval.

(** It fails only if an operation of the interval library does. *)
Theorem C74_total (L : interval_lib) (x : string) (f : cexpr) (v : ivl L) :
  (forall o a b, o <> OPow -> exists z, i_op L o a b = Ret z) ->
  (forall o a q, o <> OPow -> exists z, i_op_num L o a q = Ret z) ->
  (forall o q b, o <> OPow -> exists z, num_op_i L o q b = Ret z) ->
  (forall a, exists z, i_neg L a = Ret z) -> (forall a, exists z, i_abs L a = Ret z) ->
  arithmetic_in x f -> exists f', isub L x (IIvl L v) (emb L f) = Ret f'.
Proof.
  intros H1 H2 H3 H4 H5. induction f as [n d|[k|k]|y|o a IH|o l IHl r IHr]; cbn [arithmetic_in emb isub]; intros A; try contradiction; eauto.
  - destruct A as [Ho A]. destruct (IH A) as (a' & Ha). rewrite Ha. cbn [obind].
    destruct (arith_shape L x v a A a' Ha) as [S1 S2].
    assert (D : occurs x a \/ ~ occurs x a) by (clear; induction a; cbn; try tauto; destruct (string_dec x0 x); auto).
    destruct D as [D|D]; [destruct (S1 D) as (w & ->)|destruct (S2 D) as (w & ->)]; unfold iuapply; cbn [pure].
    + destruct Ho as [-> | ->]; [destruct (H4 w) as (z & ->)|destruct (H5 w) as (z & ->)]; cbn; eauto.
    + destruct Ho as [-> | ->]; cbn; eauto.
  - destruct A as (Ho & Al & Ar). destruct (IHl Al) as (l' & Hl), (IHr Ar) as (r' & Hr). rewrite Hl, Hr. cbn [obind].
    destruct (arith_shape L x v l Al l' Hl) as [L1 L2], (arith_shape L x v r Ar r' Hr) as [R1 R2].
    assert (Dl : occurs x l \/ ~ occurs x l) by (clear; induction l; cbn; try tauto; destruct (string_dec x0 x); auto).
    assert (Dr : occurs x r \/ ~ occurs x r) by (clear; induction r; cbn; try tauto; destruct (string_dec x0 x); auto).
    destruct Dl as [Ol|Ol], Dr as [Or|Or].
    + destruct (L1 Ol) as (a & ->), (R1 Or) as (b & ->). destruct (H1 o a b Ho) as (z & E).
      unfold iapply. cbn [pure]. destruct o; try contradiction (Ho eq_refl); cbn; rewrite E; cbn; eauto.
    + destruct (L1 Ol) as (a & ->), (R2 Or) as (b & ->). destruct (H2 o a b Ho) as (z & E).
      unfold iapply. cbn [pure]. destruct o; try contradiction (Ho eq_refl); cbn; rewrite E; cbn; eauto.
    + destruct (L2 Ol) as (a & ->), (R1 Or) as (b & ->). destruct (H3 o a b Ho) as (z & E).
      unfold iapply. cbn [pure]. destruct o; try contradiction (Ho eq_refl); cbn; rewrite E; cbn; eauto.
    + destruct (L2 Ol) as (a & ->), (R2 Or) as (b & ->).
      unfold iapply. cbn [pure]. destruct o; try contradiction (Ho eq_refl); cbn; eauto.
Qed.
Print Assumptions C74_total.

(** C<> constants are symbolic: with one of them in a product, the result is not an
    interval but the symbolic product. *)
Theorem C74_constants_stay_symbolic (L : interval_lib) (v : ivl L) :
  isub L "x" (IIvl L v) (emb L (TBin OMul (TC 2 1) (TVar "x"))) = Ret (IBin L OMul (IC L 2 1) (IIvl L v)).
Proof. reflexivity. Qed.
(** 2 * x with an int does not compile for an interval of doubles *)
Theorem C74_int_refuted (L : interval_lib) (v : ivl L) :
  isub L "x" (IIvl L v) (emb L (TBin OMul (TNum (RInt 2)) (TVar "x"))) = Throw.
Proof. reflexivity. Qed.

(* ------------------------------------------------------------------ *)
(** ** A library that meets the hypotheses: closed intervals of reals *)
Definition min4 (a b c d : R) : R := Rmin (Rmin a b) (Rmin c d).
Definition max4 (a b c d : R) : R := Rmax (Rmax a b) (Rmax c d).
Definition x_op (o : aop) (v w : R * R) : outcome (R * R) :=
  let '(a, b) := v in let '(c, d) := w in
  match o with
  | OAdd => Ret (a + c, b + d)
  | OSub => Ret (a - d, b - c)
  | OMul => Ret (min4 (a * c) (a * d) (b * c) (b * d), max4 (a * c) (a * d) (b * c) (b * d))
  | ODiv => if Rlt_dec 0 c then Ret (min4 (a / c) (a / d) (b / c) (b / d), max4 (a / c) (a / d) (b / c) (b / d))
            else if Rlt_dec d 0 then Ret (min4 (a / c) (a / d) (b / c) (b / d), max4 (a / c) (a / d) (b / c) (b / d))
            else Throw
  | OPow => Throw
  end.
Definition exact_intervals : interval_lib := {|
  ivl := R * R;
  contains := fun v r => fst v <= r <= snd v;
  i_op := x_op;
  i_op_num := fun o v q => x_op o v (q, q);
  num_op_i := fun o q w => x_op o (q, q) w;
  i_neg := fun v => Ret (- snd v, - fst v);
  i_abs := fun v => Ret (if Rle_dec 0 (fst v) then v else if Rle_dec (snd v) 0 then (- snd v, - fst v)
                         else (0, Rmax (- fst v) (snd v)))
|}.
Lemma between_mul a b x y : a <= x <= b -> Rmin (a * y) (b * y) <= x * y <= Rmax (a * y) (b * y).
Proof.
  intros H. destruct (Rle_dec 0 y).
  - split; [eapply Rle_trans; [apply Rmin_l|]|eapply Rle_trans; [|apply Rmax_r]]; apply Rmult_le_compat_r; lra.
  - assert (X : forall p q, p <= q -> q * y <= p * y) by (intros p q Hpq; nra).
    split; [eapply Rle_trans; [apply Rmin_r|]|eapply Rle_trans; [|apply Rmax_l]]; apply X; lra.
Qed.
Lemma mul_in a b c d x y : a <= x <= b -> c <= y <= d ->
  min4 (a * c) (a * d) (b * c) (b * d) <= x * y <= max4 (a * c) (a * d) (b * c) (b * d).
Proof.
  intros H K. pose proof (between_mul a b x y H) as [P Q].
  pose proof (between_mul c d y a K) as [P1 Q1]. pose proof (between_mul c d y b K) as [P2 Q2].
  rewrite !(Rmult_comm c), !(Rmult_comm d), !(Rmult_comm y) in *. unfold min4, max4. split.
  - eapply Rle_trans; [|exact P]. apply Rmin_glb; [eapply Rle_trans; [apply Rmin_l|exact P1]|eapply Rle_trans; [apply Rmin_r|exact P2]].
  - eapply Rle_trans; [exact Q|]. apply Rmax_lub; [eapply Rle_trans; [exact Q1|apply Rmax_l]|eapply Rle_trans; [exact Q2|apply Rmax_r]].
Qed.
Lemma x_op_in o v w z a b c : x_op o v w = Ret z -> fst v <= a <= snd v -> fst w <= b <= snd w ->
  binary_value o a b = Some c -> fst z <= c <= snd z.
Proof.
  destruct v as [v1 v2], w as [w1 w2]. cbn [x_op fst snd]. intros E A B V.
  assert (D : 0 < w1 \/ w2 < 0 -> min4 (v1 / w1) (v1 / w2) (v2 / w1) (v2 / w2) <= a / b <= max4 (v1 / w1) (v1 / w2) (v2 / w1) (v2 / w2)).
  { intros S. assert (Bi : / w2 <= / b <= / w1).
    { split; destruct S as [S|S].
      - apply Rinv_le_contravar; lra.
      - rewrite <- (Ropp_involutive w2), <- (Ropp_involutive b), (Rinv_opp (- w2)), (Rinv_opp (- b)). apply Ropp_le_contravar. apply Rinv_le_contravar; lra.
      - apply Rinv_le_contravar; lra.
      - rewrite <- (Ropp_involutive w1), <- (Ropp_involutive b), (Rinv_opp (- w1)), (Rinv_opp (- b)). apply Ropp_le_contravar. apply Rinv_le_contravar; lra. }
    pose proof (mul_in v1 v2 (/ w2) (/ w1) a (/ b) A Bi) as [P Q]. unfold min4, max4, Rdiv in *.
    rewrite (Rmin_comm (v1 * / w1)), (Rmin_comm (v2 * / w1)), (Rmax_comm (v1 * / w1)), (Rmax_comm (v2 * / w1)). split; assumption. }
  destruct o; cbn [binary_value] in V.
  - injection E as <-. injection V as <-. cbn. lra.
  - injection E as <-. injection V as <-. cbn. lra.
  - injection E as <-. injection V as <-. cbn. apply mul_in; auto.
  - destruct (Req_EM_T b 0); [discriminate|]. injection V as <-.
    destruct (Rlt_dec 0 w1); [injection E as <-; apply D; auto|]. destruct (Rlt_dec w2 0); [injection E as <-; apply D; auto|discriminate].
  - discriminate.
Qed.
Lemma exact_inclusion : inclusion exact_intervals.
Proof.
  split; [|split; [|split; [|split]]]; cbn [exact_intervals ivl contains i_op i_op_num num_op_i i_neg i_abs].
  - intros o v w z a b c H A B V. eapply x_op_in; eauto.
  - intros o v q z a c H A V. eapply x_op_in; eauto. cbn. lra.
  - intros o q w z b c H B V. eapply x_op_in; eauto. cbn. lra.
  - intros v z a H A. injection H as <-. cbn. lra.
  - intros v z a H A. injection H as <-. destruct (Rle_dec 0 (fst v)) as [P|P].
    { rewrite Rabs_pos_eq by lra. exact A. }
    destruct (Rle_dec (snd v) 0) as [Q|Q]; cbn.
    { rewrite Rabs_left1 by lra. lra. }
    split; [apply Rabs_pos|]. unfold Rabs. destruct (Rcase_abs a); [eapply Rle_trans; [|apply Rmax_l]; lra|eapply Rle_trans; [|apply Rmax_r]; lra].
Qed.

(** The unit test (tests/symbolic_interval_test.cpp:38-43): x*x - 2.0*x + 1.0 with
    x = [0, 2] gives [-3, 5]. *)
Definition unit_f : cexpr :=
  TBin OAdd (TBin OSub (TBin OMul (TVar "x") (TVar "x")) (TBin OMul (TNum (RDbl 2)) (TVar "x"))) (TNum (RDbl 1)).
Lemma unit_result : isub exact_intervals "x" (IIvl exact_intervals (0, 2)) (emb exact_intervals unit_f) = Ret (IIvl exact_intervals (-3, 5)).
Proof.
  assert (E1 : min4 (0 * 0) (0 * 2) (2 * 0) (2 * 2) = 0 /\ max4 (0 * 0) (0 * 2) (2 * 0) (2 * 2) = 4 /\
               min4 (2 * 0) (2 * 2) (2 * 0) (2 * 2) = 0 /\ max4 (2 * 0) (2 * 2) (2 * 0) (2 * 2) = 4).
  { unfold min4, max4, Rmin, Rmax. repeat destruct (Rle_dec _ _); lra. }
  destruct E1 as (A & B & C & D).
  cbn. rewrite A, B, C, D. do 3 f_equal; lra.
Qed.
Example C74_example :
  inclusion exact_intervals /\ arithmetic_in "x" unit_f /\ occurs "x" unit_f /\
  isub exact_intervals "x" (IIvl exact_intervals (0, 2)) (emb exact_intervals unit_f) = Ret (IIvl exact_intervals (-3, 5)).
Proof.
  split; [apply exact_inclusion|]. split; [cbn; repeat split; discriminate|]. split; [cbn; auto|apply unit_result].
Qed.
(** The enclosure is not the range, even with exact end points: that of the unit
    test contains -3, and (x - 1)^2 is never negative. *)
Theorem C74_not_tight_refuted : exists (f : cexpr) (v w : ivl exact_intervals) (y : R),
  isub exact_intervals "x" (IIvl exact_intervals v) (emb exact_intervals f) = Ret (IIvl exact_intervals w) /\
  contains exact_intervals w y /\
  forall p u, cval anywhere (fun _ => p) f u -> u <> y.
Proof.
  exists unit_f, (0, 2), (-3, 5), (-3). split; [apply unit_result|]. split; [cbn; lra|].
  intros p u (a & b & (c & d & (e & g & He & Hg & E1) & (h & i & Hh & Hi & E2) & E3) & Hb & E4). cbn in *.
  injection E1 as E1. injection E2 as E2. injection E3 as E3. injection E4 as E4. subst. nra.
Qed.
Print Assumptions C74_not_tight_refuted.

(** The text of an interval shows its lower bound, three dots and its upper bound: the
    first "..." of the text separates the two, if in the text of the lower bound every dot
    has another character behind it that is not a dot (true of the texts of doubles and of
    integers: C74_printed_doubles). *)
Fixpoint inner_dots (t : string) : Prop :=
  match t with
  | ""%string => True
  | String c u => (c = "."%char -> exists d v, u = String d v /\ d <> "."%char) /\ inner_dots u
  end.
Lemma index_dots (a b : string) : inner_dots a ->
  String.index 0 "..." (a ++ "..." ++ b)%string = Some (String.length a).
Proof.
  induction a as [|c a IH]; intros N; [cbn; now destruct b|]. destruct N as [N M].
  change (String.index 0 "..." (String c (a ++ "..." ++ b)) = Some (S (String.length a))).
  cbn [String.index]. assert (P : String.prefix "..." (String c (a ++ "..." ++ b)) = false).
  { cbn [String.prefix]. destruct (ascii_dec "." c) as [E|_]; [|reflexivity].
    destruct (N (eq_sym E)) as (d & v & -> & D). cbn [append String.prefix].
    destruct (ascii_dec "." d) as [E'|_]; [congruence|reflexivity]. }
  rewrite P, (IH M). reflexivity.
Qed.
Theorem C74_printed : forall (A : Type) (show : A -> string) (lower upper : A), inner_dots (show lower) ->
  let t := i_repr show lower upper in
  exists n, String.index 0 "..." t = Some n /\ substring 0 n t = show lower /\
    substring (n + 3)%nat (String.length t) t = show upper.
Proof.
  intros A show lower upper N t. exists (String.length (show lower)). unfold t, i_repr.
  split; [now apply index_dots|]. generalize (show lower) (show upper). clear. intros a b.
  assert (P : forall s u, substring 0 (String.length s) (s ++ u)%string = s).
  { clear. induction s as [|c s IH]; intros u; [now destruct u|]. cbn. now rewrite IH. }
  split; [apply P|].
  assert (Q : forall s n, (String.length s <= n)%nat -> substring 0 n s = s).
  { clear. induction s as [|c s IH]; intros [|n] H; cbn in *; try lia; auto. rewrite IH; [reflexivity|lia]. }
  assert (G : forall n, (String.length (a ++ "..." ++ b)%string <= n)%nat ->
                substring (String.length a + 3)%nat n (a ++ "..." ++ b)%string = b); [|apply G; lia].
  induction a as [|c a IH]; intros n H.
  - cbn [String.length append Nat.add substring] in *. apply Q. lia.
  - cbn [String.length append Nat.add] in *. cbn [substring]. apply IH. lia.
Qed.
Print Assumptions C74_printed.
Example C74_printed_ex : let show := fun x => if Req_EM_T x 1 then "1"%string else "2"%string in
  i_repr show 1 2 = "1...2"%string /\ inner_dots (show 1).
Proof.
  unfold i_repr. cbv zeta. destruct (Req_EM_T 1 1); [|congruence]. destruct (Req_EM_T 2 1); [lra|].
  split; [reflexivity|]. cbn. split; [discriminate|exact I].
Qed.
