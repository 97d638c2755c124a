(** C35-C37: the parser and the printer. *)
From Coq Require Import String Ascii NArith Reals Decimal DecimalString DecimalZ DecimalPos R_Ifp Lra.
From Verif Require Import Outcome Num ExprModel ExprSpec ExprBase ExprSimp ExprFold ParserModel ParserSpec ParserBase
  ParserProofs ParserSound ParserComplete ReprProofs.
Open Scope nat_scope.
Open Scope string_scope.

Section Glue.
Context {K : Type} {EN : ENum K}.
Variable read : string -> K.
Variable show : K -> string.
Notation pexpr := (pexpr read show).
Notation parse := (parse read show).
Notation parse_prefix := (parse_prefix read show).
Notation denote := (denote read).
Notation sentence := (sentence read).

Lemma prefix_fuel s : parse_prefix s <> Fuel.
Proof.
  unfold ParserModel.parse_prefix. destruct (consume s) as [st| | |] eqn:C; simpl; try discriminate.
  - apply (pexpr_fuel read show s st C).
  - now apply consume_defined in C.
Qed.
Lemma parse_nofuel s : parse s <> Fuel.
Proof.
  unfold ParserModel.parse. pose proof (prefix_fuel s) as H.
  destruct (parse_prefix s); simpl; try congruence. destruct (String.eqb _ _); discriminate.
Qed.

Lemma prefix_sound s e s' : parse_prefix s = Ret (e, s') ->
  exists st c b, consume s = Ret st /\ steps st (tokens c) s' /\ denote c = e /\ sentence c /\ good 0 c /\
    nb (cur s') = Some b /\ (b < 0 \/ Mx c < b)%Z.
Proof.
  unfold ParserModel.parse_prefix. intros H. apply obind_ret in H. destruct H as (st & C & P).
  pose proof (proj1 (sound read show (parse_fuel s)) 0%Z st e s' ltac:(lia) (consume_vs _ _ C) P) as Q.
  destruct Q as (c & b & A & B & D & G & N & Ed & Sp). exists st, c, b. tauto.
Qed.

Lemma parse_ret s e : parse s = Ret e <-> exists s', parse_prefix s = Ret (e, s') /\ cur s' = "".
Proof.
  unfold ParserModel.parse. split.
  - intros H. apply obind_ret in H. destruct H as ([e1 s'] & P & E). simpl in E.
    destruct (String.eqb_spec (cur s') ""); [|discriminate]. injection E as ->. eauto.
  - intros (s' & -> & E). simpl. rewrite E. reflexivity.
Qed.

Lemma parse_sound s e : parse s = Ret e ->
  exists c, layout s (tokens c) /\ sentence c /\ denote c = e /\ good 0 c.
Proof.
  rewrite parse_ret. intros (s' & P & E). apply prefix_sound in P.
  destruct P as (st & c & b & C & St & D & Se & G & _). exists c. repeat split; auto.
  apply lexed_layout. exists st, s'. auto.
Qed.

Lemma prefix_complete s c : layout s (tokens c) -> sentence c -> grouped c -> postfix_ordered c ->
  exists s', parse_prefix s = Ret (denote c, s') /\ cur s' = "".
Proof.
  intros L Se G P. apply layout_lexed in L. destruct L as (st & s' & C & St & E). exists s'. split; auto.
  unfold ParserModel.parse_prefix. rewrite C. simpl.
  assert (G0 : good 0 c) by (apply good_of_grouped; auto; intros o _; pose proof (lbp_pos o); lia).
  assert (Nb : nb (cur s') = Some (-1)%Z) by (rewrite E; reflexivity).
  destruct (passes_stop read show c 0 st s' (-1) (complete read show c) ltac:(lia) Se G0 St Nb (edge_halt c) ltac:(left; lia))
    as (N & H).
  pose proof (pexpr_fuel read show s st C) as F.
  rewrite <- (pexpr_more read show (parse_fuel s) N 0 st F). apply H. lia.
Qed.

Lemma parse_complete s c : layout s (tokens c) -> sentence c -> grouped c -> postfix_ordered c ->
  parse s = Ret (denote c).
Proof. intros. apply parse_ret. destruct (prefix_complete s c) as (s' & A & B); eauto. Qed.

(** ** Undefined behaviour needs a brace *)
Definition clean (s : pstate) : Prop := lacks "{" (cur s) /\ lacks "{" (snd s).
Lemma lacks_app c a b : lacks c (a ++ b) <-> lacks c a /\ lacks c b.
Proof. apply all_chars_app. Qed.
Lemma consume_lacks c s t r : consume s = Ret (t, r) -> lacks c s -> lacks c t /\ lacks c r.
Proof.
  intros C L. apply consume_sound in C. destruct C as [(-> & -> & _)|(_ & _ & _ & n & ->)]; [split; exact I|].
  apply lacks_app in L. destruct L as [_ L]. now apply lacks_app in L.
Qed.
Lemma adv_clean s s1 : adv s = Ret s1 -> clean s -> clean s1.
Proof. destruct s1. intros A [_ H]. eapply consume_lacks; eauto. Qed.
Lemma expect_clean t s s1 : expect t s = Ret s1 -> clean s -> clean s1.
Proof. intros A. apply expect_ret in A. eapply adv_clean, A. Qed.

Definition safe (x : outcome (expr K * pstate)) : Prop :=
  match x with UB => False | Ret p => clean (snd p) | _ => True end.
Lemma safe_bind {A} (x : outcome A) (k : A -> outcome (expr K * pstate)) :
  x <> UB -> (forall a, x = Ret a -> safe (k a)) -> safe (obind x k).
Proof. destruct x; simpl; auto. Qed.
Lemma adv_ub s : adv s <> UB. Proof. apply consume_defined. Qed.
Lemma expect_ub t s : expect t s <> UB.
Proof. unfold expect. destruct (String.eqb _ _); [apply adv_ub|discriminate]. Qed.
Lemma safe_ub x : safe x -> x <> UB. Proof. destruct x; simpl; try congruence; tauto. Qed.
Lemma safe_ret x p : safe x -> x = Ret p -> clean (snd p). Proof. intros H ->. exact H. Qed.

Lemma no_ub n :
  (forall m s, clean s -> safe (pexpr n m s)) /\
  (forall s, clean s -> safe (ptoken read show n s)) /\
  (forall m M t s, clean s -> safe (ploop read show n m M t s)) /\
  (forall acc s, clean s -> safe (parr read show n acc s)).
Proof.
  induction n as [|n (IH1 & IH2 & IH3 & IH4)]; [repeat split; intros; exact I|].
  repeat split.
  - intros m s C. cbn [ParserModel.pexpr]. apply safe_bind; [now apply safe_ub, IH2|].
    intros p E. apply IH3. eapply safe_ret; [apply IH2|]; eauto.
  - intros s C. cbn [ParserModel.ptoken]. apply safe_bind; [apply adv_ub|].
    intros s1 E. pose proof (adv_clean _ _ E C) as C1.
    destruct (String.eqb (cur s) ""); [exact I|]. destruct (starts_digit (cur s)); [exact C1|].
    destruct (left_op (cur s)) as [l|] eqn:El.
    + destruct l.
      * now apply IH1.
      * apply safe_bind; [now apply safe_ub, IH1|]. intros p Ep. simpl. eapply safe_ret; [apply IH1|]; eauto.
      * apply safe_bind; [now apply safe_ub, IH1|]. intros p Ep.
        apply safe_bind; [apply expect_ub|]. intros s2 E2. simpl. eapply expect_clean; eauto.
        eapply safe_ret; [apply IH1|]; eauto.
      * destruct (String.eqb (cur s1) "]").
        -- apply safe_bind; [apply adv_ub|]. intros s2 E2. simpl. eapply adv_clean; eauto.
        -- now apply IH4.
      * exfalso. apply left_op_cases in El.
        destruct El as [[? _]|[[? _]|[[? _]|[[? _]|[[_ T]|(o & ? & _)]]]]]; try discriminate.
        destruct C as [C _]. rewrite T in C. destruct C as [C _]. now apply C.
      * apply safe_bind; [now apply safe_ub, IH1|]. intros p Ep. simpl. eapply safe_ret; [apply IH1|]; eauto.
    + destruct (all_alpha (cur s)); [exact C1|exact I].
  - intros m M t s C. cbn [ParserModel.ploop].
    destruct (String.eqb (cur s) ""); [exact C|]. destruct (right_op (cur s)) as [r|]; [|exact I].
    destruct (_ || _)%bool; [exact C|]. apply safe_bind; [apply adv_ub|].
    intros s1 E. pose proof (adv_clean _ _ E C) as C1. destruct r as [o|]; [|exact I].
    destruct (wrapped o).
    + apply safe_bind; [now apply safe_ub, IH1|]. intros p Ep.
      assert (Cp : clean (snd p)) by (eapply safe_ret; [apply IH1|]; eauto).
      apply safe_bind; [apply expect_ub|]. intros s2 E2. apply IH3. eapply expect_clean; eauto.
    + apply safe_bind; [now apply safe_ub, IH1|]. intros p Ep. apply IH3. eapply safe_ret; [apply IH1|]; eauto.
  - intros acc s C. cbn [ParserModel.parr]. apply safe_bind; [now apply safe_ub, IH1|]. intros p Ep.
    assert (Cp : clean (snd p)) by (eapply safe_ret; [apply IH1|]; eauto).
    destruct (String.eqb (cur (snd p)) "]"); (apply safe_bind; [apply expect_ub|]); intros s2 E2.
    + simpl. eapply expect_clean; eauto.
    + apply IH4. eapply expect_clean; eauto.
Qed.

Lemma prefix_no_ub s : lacks "{" s -> parse_prefix s <> UB.
Proof.
  intros L. unfold ParserModel.parse_prefix. destruct (consume s) as [[t r]| | |] eqn:C; simpl; try discriminate.
  - apply safe_ub, no_ub. eapply consume_lacks; eauto.
  - now apply consume_defined in C.
Qed.

(** ** Without brackets the result is a scalar expression *)
Lemma steps_lacks c s ts s' : steps s ts s' -> lacks c (cur s) -> lacks c (snd s) -> Forall (lacks c) ts.
Proof.
  induction 1 as [s|s s1 s2 ts N A S IH]; intros L1 L2; constructor; auto.
  destruct s1. unfold adv in A. destruct (consume_lacks _ _ _ _ A L2). auto.
Qed.
Lemma forall_mid {A} (P : A -> Prop) a x b : Forall P (a ++ x :: b)%list -> P x.
Proof. rewrite Forall_app. intros [_ H]. now inversion H. Qed.

Lemma scalar_denote c : sentence c ->
  Forall (lacks "{") (tokens c) -> Forall (lacks "[") (tokens c) -> Forall (lacks (ch 194)) (tokens c) ->
  scalar_expr (denote c).
Proof.
  induction c using cst_ind'; intros Se H1 H2 H3; cbn [tokens] in *; try exact I;
    try (exfalso; first [apply (proj1 (Forall_inv H1)); reflexivity|apply (proj1 (Forall_inv H2)); reflexivity]);
    try (apply Forall_inv_tail in H1, H2, H3);
    try (rewrite Forall_app in H1, H2, H3).
  - apply IHc; try tauto.
  - now apply IHc.
  - simpl. specialize (IHc Se H1 H2 H3). destruct (denote c); simpl; auto.
  - simpl. apply IHc; auto. apply Se.
  - simpl in *. destruct Se as [S1 S2].
    destruct H1 as [A1 B1], H2 as [A2 B2], H3 as [A3 B3].
    pose proof (Forall_inv B1) as O1. pose proof (Forall_inv B2) as O2. pose proof (Forall_inv B3) as O3.
    apply Forall_inv_tail in B1, B2, B3. rewrite Forall_app in B1, B2, B3.
    split; [|split; [apply IHc1|apply IHc2]; tauto].
    destruct o; unfold arith_op; try tauto; exfalso; first [apply (proj1 O1); reflexivity|apply (proj1 O2); reflexivity|apply (proj1 O3); reflexivity].
Qed.
End Glue.

(** ** Chains *)
Lemma last_bracket c o : (exists l r, c = CBin o l r) -> bracketed o = true ->
  exists ts, tokens c = (ts ++ close_tok o)%list.
Proof.
  intros (l & r & ->) _. cbn [tokens]. exists (tokens l ++ op_tok o :: tokens r)%list.
  rewrite <- app_assoc. reflexivity.
Qed.
Lemma plain_postfix c : plain_tokens (tokens c) -> postfix_ordered c.
Proof.
  induction c using cst_ind'; intros Pl; cbn [tokens] in Pl; simpl; auto;
    try (apply plain_tl in Pl; apply IHc; auto; fail).
  - apply plain_tl, plain_app in Pl. tauto.
  - pose proof (plain_app _ _ Pl) as [Pl1 Pl2]. apply plain_tl, plain_app in Pl2.
    split; [tauto|]. split; [tauto|].
    destruct c1 as [| | | | | |p l1 r1| |]; auto. intros W.
    destruct (last_bracket (CBin p l1 r1) p) as (ts & Et); eauto. rewrite Et in Pl.
    destruct p; try discriminate; cbn [close_tok] in Pl; rewrite <- app_assoc in Pl; cbn [app] in Pl;
      apply plain_pair in Pl; destruct o; cbn; try lia; exfalso; simpl in Pl; tauto.
  - apply fold_and. apply plain_tl, plain_app in Pl. destruct Pl as [Pl _]. apply plain_sep in Pl.
    rewrite Forall_map in Pl. rewrite Forall_forall in *. auto.
  - apply fold_and. apply plain_tl, plain_app in Pl. destruct Pl as [Pl _]. apply plain_sep in Pl.
    rewrite Forall_map in Pl. rewrite Forall_forall in *. intros p Hp. pose proof (Pl p Hp) as Q. cbv beta in Q.
    apply plain_app in Q. destruct Q as [Qk Qv]. apply plain_tl in Qv. destruct (H p Hp). auto.
Qed.

Definition keepsb (p o : bop) : bool := Z.ltb (lbp o) (rbp p).
(** Append an operator and an operand to a grouped chain. *)
Fixpoint ins (c : cst) (o : bop) (x : cst) : cst :=
  match c with
  | CBin p l r => if keepsb p o then CBin o c x else CBin p l (ins r o x)
  | _ => CBin o c x
  end.
Definition is_leaf (c : cst) : Prop := match c with CNum _ | CVar _ => True | _ => False end.
Fixpoint pure (c : cst) : Prop :=
  match c with
  | CNum _ | CVar _ => True
  | CBin o l r => infix o /\ pure l /\ pure r
  | _ => False
  end.
Lemma leaf_facts x : is_leaf x -> left_edge x = [] /\ right_edge x = [] /\ grouped x /\ pure x.
Proof. destruct x; simpl; try contradiction; auto. Qed.
Lemma right_ge c m : grouped c -> pure c -> (forall o, In o (left_edge c) -> (m <= lbp o)%Z) ->
  forall x, In x (right_edge c) -> exists p, x = Infix p /\ (m <= rbp p)%Z.
Proof.
  revert m. induction c using cst_ind'; simpl; try contradiction; intros m G P H x Hx.
  destruct P as (I & P1 & P2). destruct G as (G1 & G2 & _ & Y). unfold infix in I. rewrite I in Hx.
  pose proof (H o (or_introl eq_refl)) as Ho. assert (lbp o <= rbp o)%Z by (destruct o; cbn; lia).
  destruct Hx as [<-|Hx]; [exists o; split; auto; lia|].
  apply (IHc2 m G2 P2); auto. intros q Hq. specialize (Y I q Hq). apply yields_infix in Y. lia.
Qed.
Lemma ins_left c o x q : is_leaf x -> In q (left_edge (ins c o x)) -> q = o \/ In q (left_edge c).
Proof.
  intros Lx. destruct c; simpl; try tauto; intros H; try (destruct H; auto; fail).
  destruct (keepsb o0 o); simpl in *; destruct H as [<-|H]; auto.
Qed.
Lemma ins_ok c o x : is_leaf x -> infix o -> pure c -> grouped c ->
  pure (ins c o x) /\ grouped (ins c o x) /\ tokens (ins c o x) = (tokens c ++ op_tok o :: tokens x)%list.
Proof.
  intros Lx Io. destruct (leaf_facts x Lx) as (Lx1 & Lx2 & Gx & Px).
  assert (Cl : forall o, infix o -> close_tok o = []) by (intros []; unfold infix; simpl; congruence).
  induction c using cst_ind'; simpl; try contradiction; intros P G.
  - repeat split; auto; try tauto; try (intros; contradiction). rewrite Lx1; contradiction.
    rewrite Cl, app_nil_r by auto. reflexivity.
  - repeat split; auto; try tauto; try (intros; contradiction). rewrite Lx1; contradiction.
    rewrite Cl, app_nil_r by auto. reflexivity.
  - destruct P as (I & P1 & P2). destruct G as (G1 & G2 & Kl & Yr).
    destruct (keepsb o0 o) eqn:E.
    + apply Z.ltb_lt in E. cbn [pure grouped tokens].
      split; [repeat split; auto|]. split; [|rewrite (Cl o), app_nil_r by auto; reflexivity].
      repeat split; auto.
      * simpl. unfold infix in I. rewrite I. intros y [<-|Hy]; [now apply keeps_infix|].
        assert (Q : forall q, In q (left_edge c2) -> (rbp o0 <= lbp q)%Z) by (intros q Hq; apply yields_infix, Yr; auto).
        destruct (right_ge c2 (rbp o0) G2 P2 Q y Hy) as (p & -> & Hp).
        apply keeps_infix. lia.
      * intros _ p Hp. rewrite Lx1 in Hp. contradiction.
    + apply Z.ltb_ge in E. destruct (IHc2 P2 G2) as (A & B & C). cbn [pure grouped tokens].
      split; [repeat split; auto|]. split; [|rewrite C, !(Cl o0), !app_nil_r by auto; rewrite <- app_assoc; reflexivity].
      repeat split; auto. intros W q Hq. apply ins_left in Hq; auto. destruct Hq as [->|Hq]; [now apply yields_infix|exact (Yr W q Hq)].
Qed.

Fixpoint chain_tree (c : cst) (rest : list (bop * cst)) : cst :=
  match rest with [] => c | (o, x) :: t => chain_tree (ins c o x) t end.
Lemma chain_tree_ok rest : forall c, pure c -> grouped c -> Forall (fun p => infix (fst p) /\ is_leaf (snd p)) rest ->
  pure (chain_tree c rest) /\ grouped (chain_tree c rest) /\
  tokens (chain_tree c rest) = (tokens c ++ flat_map (fun p => op_tok (fst p) :: tokens (snd p)) rest)%list.
Proof.
  induction rest as [|[o x] rest IH]; simpl; intros c P G H; [rewrite app_nil_r; auto|].
  inversion H as [|? ? [Io Lx] H']; subst. destruct (ins_ok c o x Lx Io P G) as (A & B & C).
  destruct (IH _ A B H') as (D & E & F). split; auto. split; auto. rewrite F, C, <- app_assoc. reflexivity.
Qed.

Section Chains.
Context {K : Type} {EN : ENum K}.
Variable read : string -> K.
Definition leaf_of (t : string) : cst := if starts_digit t then CNum t else CVar t.
Lemma leaf_of_ok t : operand t -> is_leaf (leaf_of t) /\ tokens (leaf_of t) = [t] /\ sentence read (leaf_of t).
Proof.
  unfold leaf_of. intros [N|N].
  - rewrite (number_start t N). simpl. auto.
  - rewrite (word_start t (proj1 N)). simpl. auto.
Qed.
Lemma leaf_stands t e : stands_for read t e -> operand t /\ denote read (leaf_of t) = e.
Proof.
  unfold leaf_of. intros [[N ->]|[N ->]].
  - rewrite (number_start t N). simpl. split; [left|]; auto.
  - rewrite (word_start t (proj1 N)). simpl. split; [right|]; auto.
Qed.
Lemma ins_sentence c o x : pure c -> sentence read c -> sentence read x -> sentence read (ins c o x).
Proof.
  induction c using cst_ind'; simpl; try contradiction; intros P S Sx; try (now split).
  destruct (keepsb o0 o); simpl; tauto.
Qed.
Lemma chain_sentence rest : forall c, pure c -> grouped c -> sentence read c ->
  Forall (fun p => infix (fst p) /\ is_leaf (snd p) /\ sentence read (snd p)) rest -> sentence read (chain_tree c rest).
Proof.
  induction rest as [|[o x] rest IH]; simpl; intros c P G S H; auto.
  inversion H as [|? ? (Io & Lx & Sx) H']; subst. destruct (ins_ok c o x Lx Io P G) as (A & B & _).
  apply IH; auto. now apply ins_sentence.
Qed.

Lemma chain_exists x rest : operand x -> Forall (fun p => infix (fst p) /\ operand (snd p)) rest ->
  exists c, tokens c = chain x rest /\ sentence read c /\ grouped c.
Proof.
  intros Hx Hr. destruct (leaf_of_ok x Hx) as (Lx & Tx & Sx). destruct (leaf_facts _ Lx) as (_ & _ & Gx & Px).
  set (rest' := map (fun p => (fst p, leaf_of (snd p))) rest).
  assert (H1 : Forall (fun p => infix (fst p) /\ is_leaf (snd p) /\ sentence read (snd p)) rest').
  { unfold rest'. rewrite Forall_map. eapply Forall_impl; [|apply Hr]. intros p [I O]. simpl.
    destruct (leaf_of_ok _ O) as (A & B & C). auto. }
  assert (H2 : Forall (fun p => infix (fst p) /\ is_leaf (snd p)) rest').
  { eapply Forall_impl; [|apply H1]. intros p; tauto. }
  exists (chain_tree (leaf_of x) rest'). destruct (chain_tree_ok rest' (leaf_of x) Px Gx H2) as (A & B & C).
  split; [|split; auto; now apply chain_sentence].
  rewrite C, Tx. unfold chain. simpl. f_equal. unfold rest'.
  clear -Hr EN read. induction Hr as [|p rest [I O] H IH]; simpl; auto. rewrite IH.
  destruct (leaf_of_ok _ O) as (_ & -> & _). reflexivity.
Qed.

Lemma chain_plain x rest : operand x -> Forall (fun p => infix (fst p) /\ operand (snd p)) rest ->
  plain_tokens (chain x rest).
Proof.
  clear read EN K.
  assert (G : forall ts, ~ In "]" ts -> ~ In "}" ts -> plain_tokens ts).
  { induction ts as [|t ts IH]; simpl; auto. intros A B. destruct ts as [|u us]; auto.
    split; [intros [-> _]; tauto|]. split; [intros [-> _]; tauto|]. apply IH; tauto. }
  assert (O : forall t b, operand t -> In b symbols -> t <> b).
  { intros t b [N|[W _]] I ->; [eapply symbols_not_number|eapply symbols_not_word]; eauto. }
  assert (B : forall b, (b = "]" \/ b = "}") -> operand x -> Forall (fun p => infix (fst p) /\ operand (snd p)) rest -> ~ In b (chain x rest)).
  { intros b Hb Hx Hr. assert (In b symbols) by (destruct Hb as [->| ->]; simpl; tauto).
    unfold chain. intros [E|E]; [eapply O; eauto|].
    apply in_flat_map in E. destruct E as ([o t] & Ip & E). rewrite Forall_forall in Hr. destruct (Hr _ Ip) as [Io Ot].
    simpl in *. destruct E as [E|[E|[]]]; [|eapply O; eauto].
    destruct o; simpl in E; destruct Hb as [->| ->]; try discriminate. }
  intros Hx Hr. apply G; apply B; auto.
Qed.
End Chains.

(** * C35: parsing ends with a tree of the whole string, or an exception. *)

(** For every byte string the parser stops. *)
Theorem C35_parser_terminates : forall (K : Type) (EN : ENum K) (read : string -> K) show s,
  parse read show s <> Fuel.
Proof. intros. apply parse_nofuel. Qed.
Print Assumptions C35_parser_terminates.

(** An accepted string is, as a whole, a sentence that stands for the result. *)
Theorem C35_accepts_sentences : forall (K : Type) (EN : ENum K) (read : string -> K) show s e,
  parse read show s = Ret e ->
  exists c, layout s (tokens c) /\ sentence read c /\ denote read c = e.
Proof. intros K EN read show s e H. apply parse_sound in H. destruct H as (c & A & B & C & _). eauto. Qed.
Print Assumptions C35_accepts_sentences.

(** A string is cut into tokens in at most one way. *)
Theorem C35_layout_unique : forall s ts us, layout s ts -> layout s us -> ts = us.
Proof. exact layout_unique. Qed.
Print Assumptions C35_layout_unique.

(** Without a brace in the string there is no undefined behaviour. *)
Theorem C35_no_undefined_behaviour_partial : forall (K : Type) (EN : ENum K) (read : string -> K) show s,
  lacks "{" s ->
  (exists e, parse read show s = Ret e) \/ parse read show s = Throw.
Proof.
  intros K EN read show s L. pose proof (parse_nofuel read show s) as F.
  pose proof (prefix_no_ub read show s L) as U.
  destruct (parse read show s) as [e| | |] eqn:E; eauto; [|congruence].
  exfalso. unfold parse in E. destruct (parse_prefix read show s); try discriminate; try congruence.
  simpl in E. destruct (String.eqb _ _); discriminate.
Qed.
Print Assumptions C35_no_undefined_behaviour_partial.

(** Without braces, brackets and plus-minus signs, the constructor from a string,
    which also simplifies, returns the simplified tree or throws. *)
Theorem C35_constructor_total_partial : forall (K : Type) (EN : ENum K) (read : string -> K) show fuel s,
  lacks "{" s -> lacks "[" s -> lacks (ascii_of_N 194) s ->
  (exists e e', parse read show s = Ret e /\ simplify fuel e = Ret e' /\ expr_of_string read show fuel s = Ret e') \/
  expr_of_string read show fuel s = Throw.
Proof.
  intros K EN read show fuel s L1 L2 L3.
  pose proof (prefix_fuel read show s) as F. pose proof (prefix_no_ub read show s L1) as U.
  unfold parse, expr_of_string. destruct (parse_prefix read show s) as [[e s']| | |] eqn:E; try congruence; simpl; auto.
  destruct (prefix_sound read show s e s' E) as (st & c & b & C & St & D & Se & _).
  assert (Sc : scalar_expr e).
  { rewrite <- D. destruct st as [t r].
    assert (Q : forall c0, lacks c0 s -> Forall (lacks c0) (tokens c)).
    { intros c0 L. destruct (consume_lacks c0 _ _ _ C L). eapply steps_lacks; eauto. }
    apply scalar_denote; auto. }
  rewrite (simplify_scalar fuel e Sc). simpl. destruct (String.eqb (cur s') ""); auto.
  left. exists e, (ssimp e). split; auto. split; auto. apply (simplify_scalar fuel e Sc).
Qed.
Print Assumptions C35_constructor_total_partial.

(** Integer arithmetic as number type, to run the parser; the functions are of no
    concern here. *)
Definition Z_enum : ENum Z :=
  {| enum_num := Z_num; esin := fun x => x; ecos := fun x => x; elog := fun x => x; eexp := fun x => x;
     eabs := Z.abs; epow := Z.pow |}.
Notation zparse := (parse (EN := Z_enum) digits_value decimal).
Notation zrepr := (repr (K := Z) decimal false).

Example C35_ex : lacks "{" " 2*sin(x+ 10)" /\ zparse " 2*sin(x+ 10)" =
  Ret (EBin BMul (EConst 2%Z) (EUn USin (EBin BAdd (EVar "x") (EConst 10%Z)))).
Proof. split; [repeat split; discriminate|reflexivity]. Qed.
Example C35_ex_reject : zparse "2x" = Throw /\ zparse "(2" = Throw /\ zparse "2+" = Throw /\ zparse "2.5.1" = Throw /\
  zparse "" = Throw /\ zparse "$" = Throw /\ zparse "1e" = Throw.
Proof. repeat split. Qed.

(** A key that contains a dictionary as an operand sends the construction of the
    error message into an endless recursion. *)
Theorem C35_dictionary_key_refuted : forall (K : Type) (EN : ENum K) (read : string -> K) show,
  parse read show "{{a:b}+c:d}" = UB.
Proof. reflexivity. Qed.
Print Assumptions C35_dictionary_key_refuted.

(** "[x]^[y]" is read, but the simplification in the constructor never ends. *)
Theorem C35_array_power_refuted : forall (K : Type) (EN : ENum K) (read : string -> K) show fuel,
  parse read show "[x]^[y]" = Ret (EBin BPow (EArr [EVar "x"]) (EArr [EVar "y"])) /\
  expr_of_string read show fuel "[x]^[y]" = UB.
Proof.
  intros. split; [reflexivity|].
  change (expr_of_string read show fuel "[x]^[y]") with
    (do e <- simplify fuel (EBin (K := K) BPow (EArr [EVar "x"]) (EArr [EVar "y"])); Ret e).
  unfold simplify, or_self. rewrite simp_unfold. cbn [simp_body].
  rewrite (simp_unfold fuel (EArr [EVar "x"])), (simp_unfold fuel (EArr [EVar "y"])).
  cbn [simp_body map]. unfold or_self. rewrite !(simp_unfold fuel (EVar _)). reflexivity.
Qed.
Print Assumptions C35_array_power_refuted.

(** * C36: precedence and associativity. *)

(** The parser accepts exactly the sentences grouped as precedence and
    associativity demand, and returns the tree of that grouping. *)
Theorem C36_parse_iff_grouped : forall (K : Type) (EN : ENum K) (read : string -> K) show s ts e,
  layout s ts -> plain_tokens ts ->
  (parse read show s = Ret e <->
   exists c, tokens c = ts /\ sentence read c /\ grouped c /\ denote read c = e).
Proof.
  intros K EN read show s ts e L P. split.
  - intros H. apply parse_sound in H. destruct H as (c & Lc & Se & D & G).
    assert (tokens c = ts) by (eapply layout_unique; eauto). subst ts.
    destruct (grouped_of_good c 0 G P). exists c. auto.
  - intros (c & <- & Se & G & <-). apply parse_complete; auto. now apply plain_postfix.
Qed.
Print Assumptions C36_parse_iff_grouped.

(** For all sentences: a grouped one whose bracket operators are in order. *)
Theorem C36_grouped_accepted : forall (K : Type) (EN : ENum K) (read : string -> K) show s c,
  layout s (tokens c) -> sentence read c -> grouped c -> postfix_ordered c ->
  parse read show s = Ret (denote read c).
Proof. intros. now apply parse_complete. Qed.
Print Assumptions C36_grouped_accepted.

(** Every chain of operands and infix operators is accepted, and the result is
    that of its grouping. *)
Theorem C36_chain : forall (K : Type) (EN : ENum K) (read : string -> K) show s x rest,
  operand x -> Forall (fun p => infix (fst p) /\ operand (snd p)) rest ->
  layout s (chain x rest) ->
  exists c, tokens c = chain x rest /\ sentence read c /\ grouped c /\
    parse read show s = Ret (denote read c) /\
    (forall c', tokens c' = chain x rest -> sentence read c' -> grouped c' -> denote read c' = denote read c).
Proof.
  intros K EN read show s x rest Hx Hr L.
  destruct (chain_exists read x rest Hx Hr) as (c & T & Se & G). exists c.
  assert (P : parse read show s = Ret (denote read c)).
  { apply (C36_parse_iff_grouped _ _ read show s (chain x rest)); auto; [now apply chain_plain|]. eauto. }
  repeat split; auto. intros c' T' Se' G'.
  assert (P' : parse read show s = Ret (denote read c')).
  { apply (C36_parse_iff_grouped _ _ read show s (chain x rest)); auto; [now apply chain_plain|]. eauto. }
  congruence.
Qed.
Print Assumptions C36_chain.

Lemma layout_parse {K} {EN : ENum K} (read : string -> K) show s c ts : layout s ts -> tokens c = ts ->
  plain_tokens ts -> sentence read c -> grouped c -> parse read show s = Ret (denote read c).
Proof. intros L <- P Se G. apply parse_complete; auto. now apply plain_postfix. Qed.

(** Three operands. *)
Theorem C36_two_operators : forall (K : Type) (EN : ENum K) (read : string -> K) show s a b c ea eb ec o1 o2,
  infix o1 -> infix o2 ->
  stands_for read a ea -> stands_for read b eb -> stands_for read c ec ->
  layout s [a; op_tok o1; b; op_tok o2; c] ->
  (keeps (Infix o1) o2 -> parse read show s = Ret (EBin o2 (EBin o1 ea eb) ec)) /\
  (yields (Infix o1) o2 -> parse read show s = Ret (EBin o1 ea (EBin o2 eb ec))).
Proof.
  intros K EN read show s a b c ea eb ec o1 o2 I1 I2 Ha Hb Hc L.
  apply leaf_stands in Ha, Hb, Hc. destruct Ha as [Oa <-], Hb as [Ob <-], Hc as [Oc <-].
  destruct (leaf_of_ok read a Oa) as (La & Ta & Sa), (leaf_of_ok read b Ob) as (Lb & Tb & Sb),
    (leaf_of_ok read c Oc) as (Lc & Tc & Sc).
  destruct (leaf_facts _ La) as (A1 & A2 & A3 & _), (leaf_facts _ Lb) as (B1 & B2 & B3 & _), (leaf_facts _ Lc) as (C1 & C2 & C3 & _).
  assert (P : plain_tokens [a; op_tok o1; b; op_tok o2; c]).
  { apply (chain_plain a [(o1, b); (o2, c)]); auto. }
  assert (Cl : forall o, infix o -> close_tok o = []) by (intros []; unfold infix; simpl; congruence).
  split; intros H.
  - apply (layout_parse read show s (CBin o2 (CBin o1 (leaf_of a) (leaf_of b)) (leaf_of c)) _ L); auto.
    + cbn [tokens]. rewrite Ta, Tb, Tc, !Cl by auto. reflexivity.
    + cbn [sentence]. auto.
    + cbn [grouped right_edge left_edge]. unfold infix in *. rewrite I1, A2, B1, B2, C1. simpl.
      repeat split; auto; try contradiction. intros x [<-|[]]. exact H.
  - apply (layout_parse read show s (CBin o1 (leaf_of a) (CBin o2 (leaf_of b) (leaf_of c))) _ L); auto.
    + cbn [tokens]. rewrite Ta, Tb, Tc, !Cl by auto. reflexivity.
    + cbn [sentence]. auto.
    + cbn [grouped right_edge left_edge]. rewrite A2, B1, B2, C1. simpl.
      repeat split; auto; try contradiction. intros _ x [<-|[]]. exact H.
Qed.
Print Assumptions C36_two_operators.

(** One of the two always applies. *)
Theorem C36_two_operators_decided : forall o1 o2, keeps (Infix o1) o2 \/ yields (Infix o1) o2.
Proof. intros [] []; simpl; lia. Qed.
Print Assumptions C36_two_operators_decided.

(** A chain of one operator of any length: a-b-c-... groups to the left, a^b^c^...
    and a=b=c=... to the right. *)
Theorem C36_left_chain : forall (K : Type) (EN : ENum K) (read : string -> K) show s o x ex ts es,
  infix o -> groups_right o = false ->
  stands_for read x ex -> Forall2 (stands_for read) ts es ->
  layout s (chain x (map (fun t => (o, t)) ts)) ->
  parse read show s = Ret (fold_left (EBin o) es ex).
Proof.
  intros K EN read show s o x ex ts es Io Go Hx Hes L.
  assert (Cl : close_tok o = []) by (destruct o; unfold infix in Io; simpl in *; congruence).
  apply leaf_stands in Hx. destruct Hx as [Ox Ex].
  assert (Or : Forall (fun p => infix (fst p) /\ operand (snd p)) (map (fun t => (o, t)) ts)).
  { rewrite Forall_map. clear -Hes Io EN. induction Hes; constructor; auto. simpl. split; auto. eapply leaf_stands; eauto. }
  set (T := fold_left (fun c t => CBin o c (leaf_of t)) ts (leaf_of x)).
  assert (X : forall ts es c, Forall2 (stands_for read) ts es -> grouped c -> sentence read c ->
     (forall y, In y (right_edge c) -> keeps y o) ->
     let U := fold_left (fun c t => CBin o c (leaf_of t)) ts c in
     tokens U = (tokens c ++ flat_map (fun p => [op_tok (fst p); snd p]) (map (fun t => (o, t)) ts))%list /\
     grouped U /\ sentence read U /\ denote read U = fold_left (EBin o) es (denote read c)).
  { clear -Io Go Cl EN. intros ts es c H. revert c. induction H as [|t e ts es Ht H IH]; intros c Gc Sc Kc; cbn [fold_left].
    - simpl. rewrite app_nil_r. auto.
    - apply leaf_stands in Ht. destruct Ht as [Ot Et]. destruct (leaf_of_ok read t Ot) as (Lt & Tt & St).
      destruct (leaf_facts _ Lt) as (L1 & L2 & Gt & _).
      destruct (IH (CBin o c (leaf_of t))) as (A & B & C & D).
      + cbn [grouped]. rewrite L1. repeat split; auto. contradiction.
      + cbn [sentence]. auto.
      + cbn [right_edge]. unfold infix in Io. rewrite Io, L2. intros y [<-|[]]. simpl. right. auto.
      + split; [|split; [|split]]; auto.
        * rewrite A. cbn [tokens]. rewrite Tt, Cl. simpl. rewrite <- app_assoc. reflexivity.
        * rewrite D. cbn [denote]. rewrite Et. reflexivity. }
  destruct (leaf_of_ok read x Ox) as (Lx & Tx & Sx). destruct (leaf_facts _ Lx) as (L1 & L2 & Gx & _).
  destruct (X ts es (leaf_of x) Hes Gx Sx) as (A & B & C & D); [rewrite L2; contradiction|].
  rewrite <- Ex, <- D. apply (layout_parse read show s T _ L); auto.
  - unfold T. rewrite A, Tx. reflexivity.
  - now apply chain_plain.
Qed.
Print Assumptions C36_left_chain.

Theorem C36_right_chain : forall (K : Type) (EN : ENum K) (read : string -> K) show s o x ex ts es,
  groups_right o = true ->
  Forall2 (stands_for read) ts es -> stands_for read x ex ->
  layout s (flat_map (fun t => [t; op_tok o]) ts ++ [x])%list ->
  parse read show s = Ret (fold_right (EBin o) ex es).
Proof.
  intros K EN read show s o x ex ts es Go Hes Hx L.
  assert (Io : infix o) by (destruct o; try discriminate; reflexivity).
  assert (Cl : close_tok o = []) by (destruct o; unfold infix in Io; simpl in *; congruence).
  apply leaf_stands in Hx. destruct Hx as [Ox Ex].
  destruct (leaf_of_ok read x Ox) as (Lx & Tx & Sx). destruct (leaf_facts _ Lx) as (L1 & L2 & Gx & _).
  assert (X : exists c, tokens c = (flat_map (fun t => [t; op_tok o]) ts ++ [x])%list /\ grouped c /\ sentence read c /\
     denote read c = fold_right (EBin o) ex es /\ (forall p, In p (left_edge c) -> p = o) /\
     (exists rest, tokens c = chain (hd x ts) rest /\ Forall (fun p => infix (fst p) /\ operand (snd p)) rest) /\ operand (hd x ts)).
  { clear L. induction Hes as [|t e ts es Ht H IH].
    - exists (leaf_of x). rewrite L1. repeat split; auto; try contradiction. exists []. split; auto.
    - apply leaf_stands in Ht. destruct Ht as [Ot Et]. destruct (leaf_of_ok read t Ot) as (Lt & Tt & St).
      destruct (leaf_facts _ Lt) as (M1 & M2 & Gt & _).
      destruct IH as (c & A & B & C & D & E & (rest & F1 & F2) & F3).
      exists (CBin o (leaf_of t) c). cbn [tokens grouped sentence denote left_edge hd].
      rewrite Tt, Cl, app_nil_r, M1, M2, D, Et. simpl. rewrite <- A. repeat split; auto; try contradiction.
      + intros _ p Hp. rewrite (E p Hp). right. auto.
      + intros p [<-|[]]; auto.
      + exists ((o, hd x ts) :: rest). split; [rewrite F1; reflexivity|]. constructor; auto. }
  destruct X as (c & A & B & C & D & _ & (rest & F1 & F2) & F3).
  rewrite <- D. apply (layout_parse read show s c _ L); auto.
  rewrite <- A, F1. now apply chain_plain.
Qed.
Print Assumptions C36_right_chain.

(** A sign: * / ^ and the tighter operators bind before it, + - and = after. *)
Theorem C36_sign : forall (K : Type) (EN : ENum K) (read : string -> K) show s a b ea eb o,
  infix o -> is_name a -> ea = EVar a -> stands_for read b eb ->
  layout s ["-"; a; op_tok o; b] ->
  (level o < sign_level -> parse read show s = Ret (EBin o (EUn UNeg ea) eb)) /\
  (sign_level <= level o -> parse read show s = Ret (EUn UNeg (EBin o ea eb))).
Proof.
  intros K EN read show s a b ea eb o Io Ha -> Hb L.
  apply leaf_stands in Hb. destruct Hb as [Ob Eb]. destruct (leaf_of_ok read b Ob) as (Lb & Tb & Sb).
  destruct (leaf_facts _ Lb) as (B1 & B2 & Gb & _).
  assert (Cl : close_tok o = []) by (destruct o; unfold infix in Io; simpl in *; congruence).
  assert (P : plain_tokens ["-"; a; op_tok o; b]).
  { assert (P0 : plain_tokens (chain a [(o, b)])) by (apply chain_plain; [right; auto|constructor; auto]).
    simpl. split; [intros [? _]; discriminate|]. split; [intros [? _]; discriminate|]. exact P0. }
  split; intros H.
  - replace (EBin o (EUn UNeg (EVar a)) eb) with (denote read (CBin o (CNeg (CVar a)) (leaf_of b))) by (simpl; rewrite Eb; auto).
    apply (layout_parse read show s _ _ L); auto.
    + cbn [tokens]. rewrite Tb, Cl. reflexivity.
    + cbn [sentence]. auto.
    + cbn [grouped right_edge left_edge]. rewrite B1. simpl. repeat split; auto; try contradiction.
      intros x [<-|[]]. exact H.
  - replace (EUn UNeg (EBin o (EVar a) eb)) with (denote read (CNeg (CBin o (CVar a) (leaf_of b)))) by (simpl; rewrite Eb; auto).
    apply (layout_parse read show s _ _ L); auto.
    + cbn [tokens]. rewrite Tb, Cl. reflexivity.
    + cbn [sentence]. auto.
    + cbn [grouped right_edge left_edge]. rewrite B1. simpl. repeat split; auto; try contradiction.
      intros x [<-|[]]. exact H.
Qed.
Print Assumptions C36_sign.

Lemma name1 (c : ascii) : isalpha c = true -> is_name (String c "").
Proof.
  intros H. apply isalpha_iff in H. split; [split; [discriminate|simpl; auto]|].
  simpl. intros [E|[E|[E|[E|[]]]]]; discriminate.
Qed.

Lemma steps_go t r s1 s2 ts : t <> "" -> consume r = Ret s1 -> steps s1 ts s2 -> steps (t, r) (t :: ts) s2.
Proof. intros N C S. exact (steps_cons (t, r) s1 s2 ts N C S). Qed.

Example C36_ex : layout "a-b *c" ["a"; "-"; "b"; "*"; "c"] /\ operand "a" /\
  zparse "a-b *c" = Ret (EBin BSub (EVar "a") (EBin BMul (EVar "b") (EVar "c"))) /\
  zparse "a-b-c" = Ret (EBin BSub (EBin BSub (EVar "a") (EVar "b")) (EVar "c")) /\
  zparse "a^b^c" = Ret (EBin BPow (EVar "a") (EBin BPow (EVar "b") (EVar "c"))) /\
  zparse "a=b=c" = Ret (EBin BEq (EVar "a") (EBin BEq (EVar "b") (EVar "c"))) /\
  zparse "x=a+b*c^d" = Ret (EBin BEq (EVar "x") (EBin BAdd (EVar "a") (EBin BMul (EVar "b") (EBin BPow (EVar "c") (EVar "d"))))).
Proof.
  split; [|split; [right; now apply name1|repeat split]].
  apply lexed_layout. exists ("a", "-b *c"), ("", ""). split; [reflexivity|]. split; [|reflexivity].
  do 5 (eapply steps_go; [discriminate|reflexivity|]). constructor.
Qed.

(** The operators that the code chains against expectation: a sign takes the
    product that follows it also after ^, and access, units and plus-minus cannot
    follow each other although their levels would allow it. *)
Theorem C36_sign_takes_product : zparse "2^-1*x" = Ret (EBin BPow (EConst 2%Z) (EUn UNeg (EBin BMul (EConst 1%Z) (EVar "x")))).
Proof. reflexivity. Qed.
Theorem C36_postfix_refuted : zparse "x[1]{m}" = Throw /\ zparse ("2{m}" ++ plus_minus ++ "3") = Throw /\
  zparse "(x[1]){m}" = Ret (EBin BUnits (EBin BAcc (EVar "x") (EConst 1%Z)) (EVar "m")).
Proof. repeat split. Qed.
Print Assumptions C36_postfix_refuted.
Theorem C36_sign_before_units : zparse "-x[1]{m}" = Ret (EBin BUnits (EUn UNeg (EBin BAcc (EVar "x") (EConst 1%Z))) (EVar "m")).
Proof. reflexivity. Qed.

(** * C37: printing and reading back. *)
Theorem C37_print_parse_partial : forall (K : Type) (EN : ENum K) (read : string -> K) show forced (e : expr K),
  printable read show forced e ->
  exists s, repr show forced e = Ret s /\ parse read show s = Ret e /\
    forall fuel, expr_of_string read show fuel s = simplify fuel e.
Proof.
  intros K EN read show forced e [P F].
  destruct (repr_layout read show forced e P) as (s & R & L). exists s. split; auto.
  pose proof (denote_cst read show forced forced e P F) as D. pose proof (sentence_cst read show forced e P) as Se.
  destruct (grouped_cst read show forced e P F) as [G O].
  assert (Ls : layout s (tokens (cst_of show forced e))).
  { specialize (L "" [] breaks_nil (layout_nil 0)). now rewrite sapp_nil_r, app_nil_r in L. }
  destruct (prefix_complete read show s _ Ls Se G O) as (s' & A & B). rewrite D in A. split.
  - apply parse_ret. eauto.
  - intros fuel. unfold expr_of_string. rewrite A. simpl. rewrite B. destruct (simplify fuel e); reflexivity.
Qed.
Print Assumptions C37_print_parse_partial.

(** Integer constants in decimal notation meet the hypotheses on constants. *)
Lemma decimal_number z : (0 <= z)%Z -> is_number (decimal z) /\ digits_value (decimal z) = z.
Proof.
  intros Hz. assert (E : exists d, Z.to_int z = Decimal.Pos d /\ d <> Decimal.Nil).
  { destruct z as [|p|p]; [exists (Decimal.D0 Decimal.Nil); split; [reflexivity|discriminate]| |lia].
    exists (Pos.to_uint p). split; [reflexivity|]. apply (DecimalPos.Unsigned.to_uint_nonnil p). }
  destruct E as (d & E & Nn). unfold decimal, digits_value. rewrite E. simpl. split.
  - exists (NilZero.string_of_uint d), "", "". rewrite !sapp_nil_r.
    split; [reflexivity|]. split; [|split; [|split; left; reflexivity]].
    + destruct d; try discriminate; congruence.
    + assert (X : all_chars digit (NilEmpty.string_of_uint d)).
      { clear. induction d; simpl; try exact I; (split; [unfold digit; cbn; lia|auto]). }
      destruct d; try exact X; congruence.
  - rewrite NilZero.usu by auto. change (Z.of_uint d) with (Z.of_int (Decimal.Pos d)). rewrite <- E.
    apply DecimalZ.of_to.
Qed.

(** The trees of the property: variables, non-negative integers, + - * / ^ =,
    functions and negation, no power of a power on the left (nor an equation
    as the left side of an equation), no negated number. *)
Fixpoint integer_tree (e : expr R) : Prop :=
  match e with
  | EConst c => exists z, (0 <= z)%Z /\ c = IZR z
  | EVar x => is_name x
  | EUn o a => (fun_name o <> None \/ (o = UNeg /\ ~ is_number_node a)) /\ integer_tree a
  | EBin o l r => (groups_right o = true -> ~ root_is o l) /\ integer_tree l /\ integer_tree r
  | _ => False
  end.
Definition read_int (t : string) : R := IZR (digits_value t).
Definition show_int (x : R) : string := decimal (Int_part x).
Theorem C37_integer_trees_partial : forall e : expr R, integer_tree e ->
  exists s, repr show_int false e = Ret s /\ parse read_int show_int s = Ret e.
Proof.
  intros e H. destruct (C37_print_parse_partial R R_enum read_int show_int false e) as (s & A & B & _); eauto.
  assert (NN : forall e, integer_tree e -> ~ ends_negative read_int show_int e).
  { clear. intros e. induction e using expr_ind'; simpl; intros T N; try contradiction.
    - destruct T as (z & Hz & ->). destruct N as (t & E & N & _). unfold show_int in E.
      rewrite <- (Z2Nat.id z Hz), <- INR_IZR_INZ, Int_part_INR in E.
      destruct (decimal_number (Z.of_nat (Z.to_nat z)) ltac:(lia)) as [D _].
      apply (number_not_dash) in D. rewrite E in D. discriminate.
    - destruct T as [_ T]. destruct o; destruct N; tauto.
    - destruct T as (_ & _ & T), N as (_ & _ & N). tauto. }
  split; [|induction e using expr_ind'; simpl in *; try contradiction; auto;
    [destruct H as [[Hf|[-> Hn]] H]; split; auto; intros ->; simpl in Hf; congruence
    |destruct H as (Hr & H1 & H2); repeat split; auto]].
  induction e using expr_ind'; simpl in *; try contradiction; auto.
  - left. destruct H as (z & Hz & ->). unfold plain_constant, show_int, read_int.
    assert (I : Int_part (IZR z) = z).
    { rewrite <- (Z2Nat.id z Hz), <- INR_IZR_INZ. apply Int_part_INR. }
    rewrite I. destruct (decimal_number z Hz) as [N ->]. auto.
  - destruct H as [Ho H]. split; [tauto|]. split; auto. destruct e; simpl; auto.
  - destruct H as (Hr & H1 & H2). repeat split; auto; [destruct e1|destruct e2]; simpl; auto.
Qed.
Print Assumptions C37_integer_trees_partial.

Example C37_ex : integer_tree (EBin BMul (EBin BAdd (EVar "a") (EConst 2%R)) (EUn USin (EBin BPow (EVar "x") (EBin BPow (EVar "y") (EConst 3%R))))) /\
  zrepr (EBin BMul (EBin BAdd (EVar "a") (EConst 2%Z)) (EUn USin (EBin BPow (EVar "x") (EBin BPow (EVar "y") (EConst 3%Z)))))
  = Ret "(a+2)*(sin (x^y^3))".
Proof.
  split; [|reflexivity]. simpl.
  repeat match goal with
  | |- _ /\ _ => split
  | |- is_name _ => now apply name1
  | |- exists _, _ => eexists; split; [|reflexivity]; lia
  | |- _ -> _ => intros; try discriminate; tauto
  end; try tauto. left. discriminate.
Qed.

(** With parentheses forced, negative numbers and nested powers come back as well. *)
Example C37_ex_forced : let e := EBin BPow (EBin BPow (EConst (-2)%Z) (EVar "y")) (EUn UNeg (EVar "z")) in
  printable digits_value decimal (EN := Z_enum) true e /\ repr decimal true e = Ret "((-2)^(y))^(-(z))".
Proof.
  split; [|reflexivity]. simpl. repeat split; auto; try discriminate; try (intros; discriminate).
  right. exists "2". split; [reflexivity|]. split; [|reflexivity].
  apply (decimal_number 2). lia. all: simpl; unfold letter; cbn; try lia; intros [E|[E|[E|[E|[]]]]]; discriminate.
Qed.

(** What the restrictions are for.  A power of a power and an equation between
    equations lose their parentheses; a negative number as left operand of a
    power, or under a division, changes place; a negated number becomes a
    negative one; a dictionary as operand cannot be printed at all. *)
Theorem C37_refuted :
  (zrepr (EBin BPow (EBin BPow (EVar "x") (EVar "y")) (EVar "z")) = Ret "x^y^z" /\
   zparse "x^y^z" = Ret (EBin BPow (EVar "x") (EBin BPow (EVar "y") (EVar "z")))) /\
  (zrepr (EBin BEq (EBin BEq (EVar "a") (EVar "b")) (EVar "c")) = Ret "a=b=c" /\
   zparse "a=b=c" = Ret (EBin BEq (EVar "a") (EBin BEq (EVar "b") (EVar "c")))) /\
  (zrepr (EBin BPow (EConst (-2)%Z) (EConst 2%Z)) = Ret "-2^2" /\
   zparse "-2^2" = Ret (EUn UNeg (EBin BPow (EConst 2%Z) (EConst 2%Z)))) /\
  (zrepr (EBin BDiv (EBin BDiv (EVar "x") (EConst (-2)%Z)) (EVar "y")) = Ret "x/-2/y" /\
   zparse "x/-2/y" = Ret (EBin BDiv (EVar "x") (EUn UNeg (EBin BDiv (EConst 2%Z) (EVar "y"))))) /\
  (zrepr (EUn UNeg (EConst 2%Z)) = Ret "-2" /\ zparse "-2" = Ret (EConst (-2)%Z)) /\
  zrepr (EBin BAdd (EDict [("a", EVar "b")]) (EVar "c")) = UB.
Proof. repeat split. Qed.
Print Assumptions C37_refuted.

