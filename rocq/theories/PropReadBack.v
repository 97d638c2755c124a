(** C37, exactly: which printed expressions are read back as they were. *)
From Coq Require Import List String Ascii Arith ZArith Reals Lia Bool.
From Verif Require Import Outcome Num ExprModel ExprSpec ExprBase ParserModel ParserSpec ParserBase ParserProofs ParserSound ParserComplete ReprProofs PropParser ReadBack PropPrint.
Import ListNotations.
Open Scope nat_scope. Open Scope list_scope. Open Scope string_scope.

Section Generic.
Context {K : Type} {EN : ENum K}.
Variable read : string -> K.
Variable show : K -> string.
Variable fp : bool.
Notation denote := (denote read).
Notation sentence := (sentence read).
Notation writable := (writable read show).
Notation faithful := (faithful read show).
Notation cst_of := (cst_of show fp).

(** No sentence stands for a negated number. *)
Lemma denote_unsigned c : distinct read c -> sentence c -> faithful true (denote c).
Proof.
  induction c using cst_ind'; simpl; intros F S; try contradiction; auto.
  - specialize (IHc F S). destruct (denote c); simpl in *; auto; split; auto.
  - destruct S as [Hf S]. split; auto. intros ->. simpl in Hf. congruence.
  - destruct F as [F1 F2], S as [S1 S2]. split; [intros; discriminate|auto].
  - induction es as [|c t IH]; cbn in *; auto. inversion H; subst. destruct F, S. split; auto.
  - destruct F as [Nd F]. rewrite fold_assign_distinct by (cbn [map app]; rewrite map_map; exact Nd). cbn [app].
    clear Nd. induction d as [|p t IH]; cbn in *; auto. inversion H; subst. destruct F as [F1 F2], S as [S1 S2]. split; [|auto].
    apply H2; tauto.
Qed.

Lemma distinct_cst e : writable e -> distinct read (cst_of e).
Proof.
  assert (P : forall b c, distinct read c -> distinct read (cpar b c)) by (intros [] c; simpl; auto).
  induction e using expr_ind'; simpl; intros W.
  - unfold const_cst. destruct (show c) as [|h t]; [simpl; auto|]. destruct (Ascii.eqb h "-"); simpl; auto.
  - auto.
  - destruct W as (Ho & Nd & W). destruct Ho as [Hf| ->].
    + destruct (fun_named show fp _ Hf) as (t & Ft & _ & _ & _ & Ec & _). simpl in Ec. rewrite (Ec e). simpl. auto.
    + simpl. auto.
  - destruct W as (N1 & N2 & W1 & W2). auto.
  - induction es as [|c t IH]; cbn in *; auto. inversion H; subst. destruct W. auto.
  - destruct W as [Nd W]. split; [rewrite map_map; exact Nd|]. clear Nd.
    induction d as [|p t IH]; cbn in *; auto. inversion H; subst. destruct W as [[W0 W1] W2]. auto.
Qed.
Lemma entries_cst e : writable e -> entries (denote (cst_of e)) = entries e.
Proof.
  induction e using expr_ind'; intros W.
  - cbn [ReprProofs.cst_of]. unfold const_cst. destruct (show c) as [|h t]; [reflexivity|]. destruct (Ascii.eqb h "-"); reflexivity.
  - reflexivity.
  - simpl in W. destruct W as (Ho & Nd & W). destruct Ho as [Hf| ->].
    + destruct (fun_named show fp _ Hf) as (t & Ft & _ & _ & _ & Ec & _). rewrite (Ec e). cbn [ParserSpec.denote entries]. rewrite denote_cpar. auto.
    + cbn [ReprProofs.cst_of ParserSpec.denote]. rewrite denote_cpar. specialize (IHe W). cbn [entries]. rewrite <- IHe. destruct (denote (cst_of e)); reflexivity.
  - simpl in W. destruct W as (N1 & N2 & W1 & W2). cbn [ReprProofs.cst_of ParserSpec.denote entries]. rewrite !denote_cpar, IHe1, IHe2 by auto. reflexivity.
  - cbn [ReprProofs.cst_of ParserSpec.denote entries]. simpl in W. apply fold_and in W. rewrite map_map.
    induction es as [|c t IH]; [reflexivity|]. inversion H; subst. inversion W; subst. cbn [map fold_right]. rewrite H2, IH by auto. reflexivity.
  - cbn [ReprProofs.cst_of ParserSpec.denote]. simpl in W. destruct W as [Nd W]. apply fold_and in W. rewrite map_map. cbn [fst snd ParserSpec.denote key_name].
    rewrite fold_assign_distinct by (cbn [map app]; rewrite map_map; exact Nd). cbn [app entries]. clear Nd.
    induction d as [|p t IH]; [reflexivity|]. inversion H; subst. inversion W; subst. cbn [map fold_right snd]. destruct H4. rewrite H2, IH by auto. reflexivity.
Qed.
(** A sentence read for [e] with the tokens of [e] names no key twice. *)
Lemma read_distinct e c : writable e -> sentence c -> denote c = e -> tokens (cst_of e) = tokens c -> distinct read c.
Proof.
  intros W S D E. apply entries_le; auto. rewrite <- E, D.
  rewrite (distinct_entries read (cst_of e)); [now rewrite entries_cst|now apply distinct_cst|now apply sentence_cst].
Qed.
Lemma canon_cst e : writable e -> faithful true e -> canon read (cst_of e).
Proof.
  assert (P : forall b c, canon read c -> canon read (cpar b c)) by (intros [] c; simpl; auto).
  induction e using expr_ind'; simpl; intros W F.
  - unfold const_cst. destruct (show c) as [|h t]; [simpl; auto|]. destruct (Ascii.eqb h "-"); simpl; eauto.
  - auto.
  - destruct W as (Ho & Nd & W), F as [Fn F].
    destruct Ho as [Hf| ->].
    + destruct (fun_named show fp _ Hf) as (t & Ft & _ & _ & _ & Ec & _). simpl in Ec. rewrite (Ec e). simpl. auto.
    + simpl. split; auto.
      rewrite denote_cpar, (denote_cst read show fp true e W F). intros N. exfalso. now apply (Fn eq_refl).
  - destruct W as (N1 & N2 & W1 & W2), F as (_ & F1 & F2). auto.
  - induction es as [|c t IH]; cbn in *; auto. inversion H; subst. destruct F, W. auto.
  - destruct W as [_ W]. induction d as [|p t IH]; cbn in *; auto. inversion H; subst. destruct F, W as [[W0 W1] W2].
    split; auto. split; eauto.
Qed.

Lemma good_cpar m b c : good m (cpar b c) -> exists m', good m' c.
Proof. destruct b; simpl; eauto. Qed.

Lemma good_faithful e : writable e -> faithful true e -> forall m, good m (cst_of e) -> faithful fp e.
Proof.
  induction e using expr_ind'; simpl; intros W F m G; try contradiction; auto.
  - destruct W as (Ho & Nd & W), F as [Fn F]. split; auto.
    assert (G' : exists m, good m (cst_of e)).
    { destruct Ho as [Hf| ->].
      - destruct (fun_named show fp _ Hf) as (t & Ft & _ & _ & _ & Ec & _). simpl in Ec. rewrite (Ec e) in G.
        simpl in G. eapply good_cpar; eauto.
      - simpl in G. eapply good_cpar; eauto. }
    destruct G' as [m' G']. eapply IHe; eauto.
  - destruct W as (N1 & N2 & W1 & W2), F as (_ & F1 & F2), G as ((Gm & GM) & Gl & Ge & Gr).
    destruct (good_cpar _ _ _ Gl) as [m1 G1], (good_cpar _ _ _ Gr) as [m2 G2].
    split; [|split; [eapply IHe1; eauto|eapply IHe2; eauto]].
    intros Hfp.
    assert (Hu : forall p a, e1 = EUn p a -> fun_name p <> None \/ p = UNeg) by (intros p a ->; simpl in W1; tauto).
    split.
    + intros Hr Ro. destruct e1 as [| | |p l r| |]; simpl in Ro; try contradiction. subst p.
      assert (E : paren_l fp o (bps (EBin o l r)) = false).
      { apply bare_left_iff; auto. simpl. lia. }
      rewrite E in GM. simpl in GM. destruct o; try discriminate; cbn in GM; lia.
    + intros Hl Hb Hn. apply (proj2 (bare_left_iff fp o e1 N1 Hu Hfp)) in Hb.
      rewrite Hb in Ge. simpl in Ge.
      pose proof (ends_negative_edge read show fp e1 (lbp o) Hfp W1 Hn (lbp_pos o) Ge) as B.
      rewrite sign_bp_val in B. unfold sign_level in Hl. destruct o; cbn in B, Hl; lia.
  - induction es as [|c t IH]; cbn in *; auto. inversion H; subst. destruct F, W, G. split; eauto.
  - destruct W as [_ W]. induction d as [|p t IH]; cbn in *; auto. inversion H; subst. destruct F, W as [[W0 W1] W2], G as [[G0 G1] G2]. split; eauto.
Qed.
End Generic.

(** An expression of numbers, variables, functions, operators, arrays and
    dictionaries is printed, and its text is read back as the same expression exactly
    when no minus sign stands before a number and, if not all parentheses are printed,
    no operator that groups to the right has itself as left operand and no operator
    tighter than the sign has a left operand that ends in a negative number. *)
Theorem C37_reads_back_iff : forall (K : Type) (EN : ENum K) (read : string -> K) show forced (e : expr K),
  writable read show e ->
  exists s, repr show forced e = Ret s /\ (parse read show s = Ret e <-> faithful read show forced e).
Proof.
  intros K EN read show forced e W.
  destruct (repr_layout read show forced e W) as (s & R & L). exists s. split; auto. split.
  - intros P. apply parse_sound in P. destruct P as (c & Lc & Se & D & G).
    assert (Ls : layout s (tokens (cst_of show forced e))).
    { specialize (L "" [] breaks_nil (layout_nil 0)). now rewrite sapp_nil_r, app_nil_r in L. }
    pose proof (C35_layout_unique s _ _ Ls Lc) as Et.
    assert (Fc : distinct read c) by (eapply read_distinct; eauto).
    pose proof (denote_unsigned read show c Fc Se) as Fu. rewrite D in Fu.
    assert (E : cst_of show forced e = c).
    { eapply (unique_sentence read) with (u := []) (v := []); eauto.
      - now apply distinct_cst.
      - now apply canon_cst.
      - now apply sentence_cst.
      - rewrite D. eapply denote_cst; eauto.
      - now rewrite Et. }
    subst c. eapply good_faithful; eauto.
  - intros F. destruct (C37_print_parse_partial K EN read show forced e (conj W F)) as (s' & R' & P & _). congruence.
Qed.
Print Assumptions C37_reads_back_iff.

(** Integer constants of either sign: the hypothesis on the constants is met.  The
    keys of a dictionary are names, each given once. *)
Fixpoint integer_leaves (e : expr R) : Prop :=
  match e with
  | EConst c => exists z, c = IZR z
  | EVar x => is_name x
  | EUn o a => (fun_name o <> None \/ o = UNeg) /\ ~ is_dictionary a /\ integer_leaves a
  | EBin o l r => ~ is_dictionary l /\ ~ is_dictionary r /\ integer_leaves l /\ integer_leaves r
  | EArr es => fold_right (fun a P => integer_leaves a /\ P) True es
  | EDict d => NoDup (map fst d) /\ fold_right (fun p P => (is_name (fst p) /\ integer_leaves (snd p)) /\ P) True d
  end.
Theorem C37_integers_iff : forall forced (e : expr R), integer_leaves e ->
  exists s, repr show_signed forced e = Ret s /\
    (parse read_int show_signed s = Ret e <-> faithful read_int show_signed forced e).
Proof.
  intros forced e H. apply C37_reads_back_iff.
  induction e using expr_ind'; simpl in *; try contradiction; auto.
  - destruct H as [z ->]. apply integer_coefficient.
  - destruct H as (Ho & Hd & H). auto.
  - destruct H as (D1 & D2 & H1 & H2). auto.
  - apply fold_and in H. apply fold_and. rewrite Forall_forall in *. auto.
  - destruct H as [Nd H]. split; [exact Nd|]. apply fold_and in H. apply fold_and. rewrite Forall_forall in *.
    intros p I. destruct (H p I). split; auto.
Qed.
Print Assumptions C37_integers_iff.

(** Negative numbers without extra parentheses: some come back, some do not. *)
Example C37_negative_ex : let f := @faithful Z Z_enum digits_value decimal false in
  let e1 := EBin BMul (EBin BSub (EVar "x") (EConst (-2)%Z)) (EVar "y") in
  let e2 := EBin BPow (EVar "x") (EConst (-2)%Z) in
  let e3 := EBin BMul (EConst (-2)%Z) (EVar "x") in
  (f e1 /\ zrepr e1 = Ret "(x--2)*y" /\ zparse "(x--2)*y" = Ret e1) /\
  (f e2 /\ zrepr e2 = Ret "x^-2" /\ zparse "x^-2" = Ret e2) /\
  (~ f e3 /\ zrepr e3 = Ret "-2*x" /\ zparse "-2*x" = Ret (EUn UNeg (EBin BMul (EConst 2%Z) (EVar "x")))).
Proof.
  assert (N : @negative_constant Z Z_enum digits_value decimal (-2)%Z).
  { exists "2". split; [reflexivity|]. split; [apply (decimal_number 2); lia|reflexivity]. }
  intros f e1 e2 e3. unfold f, e1, e2, e3. simpl. unfold sign_level. simpl.
  split; [|split]; (split; [|split; reflexivity]).
  - repeat split; auto; try lia; intros; discriminate.
  - repeat split; auto.
  - intros (H & _). destruct (H eq_refl) as [_ H']. apply H'; auto.
Qed.

(** Arrays too: elements are taken one by one, and an access to an array that is
    written out comes back. *)
Example C37_arrays_ex : let f := @faithful Z Z_enum digits_value decimal false in
  let e1 := EArr [EConst (-2)%Z; EArr []; EBin BAcc (EArr [EVar "x"; EConst 1%Z]) (EConst 0%Z)] in
  let e2 := EArr [EVar "x"; EBin BPow (EBin BPow (EVar "x") (EVar "y")) (EVar "z")] in
  (f e1 /\ zrepr e1 = Ret "[-2, [], [x, 1][0]]" /\ zparse "[-2, [], [x, 1][0]]" = Ret e1) /\
  (~ f e2 /\ zrepr e2 = Ret "[x, x^y^z]" /\ zparse "[x, x^y^z]" <> Ret e2).
Proof.
  intros f e1 e2. unfold f, e1, e2. split.
  - split; [cbn; unfold sign_level; cbn; repeat split; auto; intros; lia|]. split; reflexivity.
  - split.
    + cbn. intros (_ & (H & _) & _). destruct (H eq_refl) as [H' _]. now apply H'.
    + split; [reflexivity|]. discriminate.
Qed.

(** And dictionaries. *)
Example C37_dictionaries_ex : let f := @faithful Z Z_enum digits_value decimal false in
  let e1 := EDict [("x", EConst (-2)%Z); ("y", EArr [EVar "x"]); ("z", EDict [])] in
  let e2 := EDict [("x", EBin BPow (EBin BPow (EVar "x") (EVar "y")) (EVar "z"))] in
  (f e1 /\ zrepr e1 = Ret "{x:-2, y:[x], z:{}}" /\ zparse "{x:-2, y:[x], z:{}}" = Ret e1) /\
  (~ f e2 /\ zrepr e2 = Ret "{x:x^y^z}" /\ zparse "{x:x^y^z}" <> Ret e2).
Proof.
  intros f e1 e2. unfold f, e1, e2. split; [|split].
  - split; [cbn; tauto|]. split; reflexivity.
  - cbn. intros ((H & _) & _). destruct (H eq_refl) as [H' _]. now apply H'.
  - split; [reflexivity|]. discriminate.
Qed.
