(** Completeness: every well grouped sentence is parsed to what it denotes. *)
From Coq Require Import String Ascii NArith.
From Verif Require Import Outcome Num ExprModel ExprBase ParserModel ParserSpec ParserBase ParserProofs ParserSound.
Open Scope nat_scope.
Open Scope string_scope.

Definition ev {A} (f : nat -> outcome A) (r : outcome A) : Prop := exists N, forall n, N <= n -> f n = r.

Lemma ev_S {A} (f : nat -> outcome A) r : ev (fun n => f (S n)) r -> ev f r.
Proof.
  intros (N & H). exists (S N). intros n Hn. destruct n as [|n]; [lia|]. apply H. lia.
Qed.
Lemma ev_bind {A B} (x : nat -> outcome A) (k : nat -> A -> outcome B) a r :
  ev x (Ret a) -> ev (fun n => k n a) r -> ev (fun n => obind (x n) (k n)) r.
Proof.
  intros (N & H) (M & G). exists (N + M). intros n Hn. rewrite H by lia. simpl. apply G. lia.
Qed.
Lemma ev_const {A} (r : outcome A) : ev (fun _ => r) r.
Proof. exists 0. auto. Qed.
Lemma ev_ext {A} (f g : nat -> outcome A) r : (forall n, f n = g n) -> ev f r -> ev g r.
Proof. intros E (N & H). exists N. intros n Hn. rewrite <- E. auto. Qed.

Section Generic.
Context {K : Type} `{EN : ENum K}.
Notation expr := (expr K).
Variable read : string -> K.
Variable show : K -> string.
Notation pexpr := (pexpr read show).
Notation ptoken := (ptoken read show).
Notation ploop := (ploop read show).
Notation parr := (parr read show).
Notation pdict := (pdict read show).
Notation denote := (denote read).
Notation sentence := (sentence read).
Notation entry := (entry read).

Lemma ploop_stop m M (t : expr) s b :
  nb (cur s) = Some b -> (b < m \/ M < b)%Z -> ev (fun n => ploop n m M t s) (Ret (t, s)).
Proof.
  intros Nb H. apply ev_S. exists 0. intros n _. cbn [ParserModel.ploop].
  unfold nb in Nb. destruct (String.eqb (cur s) ""); auto.
  destruct (right_op (cur s)) as [r|]; [|discriminate]. injection Nb as <-.
  destruct (Z.ltb_spec (rop_lbp r) m); auto. destruct (Z.ltb_spec M (rop_lbp r)); auto. lia.
Qed.

Lemma first_token c : sentence c -> exists t ts, tokens c = t :: ts /\ t <> "]" /\ t <> "}".
Proof.
  assert (D : forall t x, is_token t -> In x symbols -> ~ In t symbols -> t <> x) by (intros; congruence).
  induction c using cst_ind'; simpl; intros Se; try (eexists; eexists; split; [reflexivity|split; discriminate]).
  - eexists; eexists; split; [reflexivity|]. split; intros ->; eapply symbols_not_number; eauto; simpl; tauto.
  - eexists; eexists; split; [reflexivity|]. destruct Se as [W _].
    split; intros ->; eapply symbols_not_word; eauto; simpl; tauto.
  - eexists; eexists; split; [reflexivity|]. destruct Se as [Nf _].
    destruct o; simpl in *; try congruence; split; discriminate.
  - destruct Se as [Sl _]. destruct (IHc1 Sl) as (t & ts & -> & A & B). simpl. eauto.
Qed.

Lemma number_start t : is_number t -> starts_digit t = true.
Proof. intros N. apply is_number_cons in N. destruct N as (c & a & -> & D & _). simpl. now apply isdigit_iff. Qed.
Lemma word_start t : is_word t -> starts_digit t = false.
Proof. clear read show.
  intros [Ne W]. destruct t as [|c u]; auto. simpl in *. apply isdigit_false. intros D.
  eapply digit_letter; [apply D|tauto].
Qed.
Lemma name_left t : is_name t -> left_op t = None.
Proof. clear read show.
  intros [W N]. destruct (left_op t) as [l|] eqn:E; auto. exfalso. apply left_op_cases in E.
  destruct E as [[_ ->]|[[_ ->]|[[_ ->]|[[_ ->]|[[_ ->]|(o & _ & F)]]]]];
    try (eapply symbols_not_word; [|apply W]; simpl; tauto).
  apply N. destruct o; simpl in F; try discriminate; injection F as <-; simpl; tauto.
Qed.

(** What it means for a parse to go through, whatever comes next. *)
Definition passes (c : cst) : Prop :=
  forall m s s' b res, (0 <= m)%Z -> sentence c -> good m c -> steps s (tokens c) s' ->
    nb (cur s') = Some b -> edge c b ->
    ev (fun n => ploop n m (Mx c) (denote c) s') res -> ev (fun n => pexpr n m s) res.

Lemma passes_stop c m s s' b : passes c -> (0 <= m)%Z -> sentence c -> good m c ->
  steps s (tokens c) s' -> nb (cur s') = Some b -> edge c b -> (b < m \/ Mx c < b)%Z ->
  ev (fun n => pexpr n m s) (Ret (denote c, s')).
Proof.
  intros P Hm Se G St Nb Ed Sp. eapply P; eauto. eapply ploop_stop; eauto.
Qed.

Lemma passes_halt c s s' : passes c -> sentence c -> good 0 c -> steps s (tokens c) s' ->
  In (cur s') [")"; ","; "]"; ":"; "}"] -> ev (fun n => pexpr n 0 s) (Ret (denote c, s')).
Proof.
  intros P Se G St I. eapply passes_stop; eauto; [lia|now apply nb_halt|apply edge_halt|left; lia].
Qed.

(** Leaves and prefixes: enough to know what ptoken does. *)
Lemma passes_token c :
  Mx c = INT_MAX ->
  (forall s s' b, sentence c -> good 0 c -> steps s (tokens c) s' -> nb (cur s') = Some b -> edge c b ->
     ev (fun n => ptoken n s) (Ret (denote c, s'))) ->
  (forall m, good m c -> good 0 c) -> passes c.
Proof.
  intros Mc H G0 m s s' b res Hm Se G St Nb Ed L. apply ev_S.
  apply (ev_bind (fun n => ptoken n s) (fun n p => ploop n m INT_MAX (fst p) (snd p)) (denote c, s')).
  - eapply H; eauto.
  - simpl. rewrite Mc in L. exact L.
Qed.

Lemma expect_step s t s' : steps s [t] s' -> expect t s = Ret s'.
Proof. intros H. apply steps_one_inv in H. destruct H as (E & _ & A). unfold expect. rewrite E, String.eqb_refl. auto. Qed.

Lemma ptoken_eq n s s1 : cur s <> "" -> adv s = Ret s1 -> starts_digit (cur s) = false ->
  ptoken (S n) s =
      match left_op (cur s) with
      | Some LPos => pexpr n sign_bp s1
      | Some LNeg => do p <- pexpr n sign_bp s1; Ret (negated (fst p), snd p)
      | Some LPar =>
          do p <- pexpr n 0 s1;
          do s2 <- expect ")" (snd p);
          Ret (fst p, s2)
      | Some LArr =>
          if String.eqb (cur s1) "]" then do s2 <- adv s1; Ret (EArr [], s2)
          else parr n [] s1
      | Some LDict =>
          if String.eqb (cur s1) "}" then do s2 <- adv s1; Ret (EDict [], s2)
          else pdict n [] s1
      | Some (LUn o) => do p <- pexpr n INT_MAX s1; Ret (EUn o (fst p), snd p)
      | None => if all_alpha (cur s) then Ret (EVar (cur s), s1) else Throw
      end.
Proof.
  intros Ne A D. cbn [ParserModel.ptoken]. rewrite A. cbn [obind].
  destruct (String.eqb_spec (cur s) ""); [congruence|]. now rewrite D.
Qed.

Lemma parr_ok cs : Forall passes cs -> cs <> [] -> Forall sentence cs -> Forall (good 0) cs ->
  forall acc s s', steps s (sep (map tokens cs) ++ ["]"])%list s' ->
  ev (fun n => parr n acc s) (Ret (EArr (acc ++ map denote cs)%list, s')).
Proof.
  induction 1 as [|c cs Pc Pcs IH]; [congruence|]. intros _ Hs Hg acc s s' St.
  inversion Hs; subst. inversion Hg; subst. apply ev_S. cbn [ParserModel.parr].
  destruct cs as [|c2 cs].
  - cbn [map sep] in St. apply steps_app_inv in St. destruct St as (s1 & St & E).
    pose proof (steps_one_inv _ _ _ E) as (E1 & _ & _).
    eapply ev_bind; [eapply passes_halt; eauto; rewrite E1; simpl; tauto|].
    cbn [fst snd]. rewrite E1, String.eqb_refl. rewrite (expect_step _ _ _ E). apply ev_const.
  - cbn [map] in St. rewrite sep_cons in St by discriminate. rewrite <- app_assoc in St.
    apply steps_app_inv in St. destruct St as (s1 & St & E). cbn [app] in E.
    apply steps_cons_inv in E. destruct E as (E1 & N1 & s2 & A & E).
    eapply ev_bind; [eapply passes_halt; eauto; rewrite E1; simpl; tauto|].
    cbn [fst snd]. rewrite E1. cbn [String.eqb Ascii.eqb Bool.eqb].
    unfold expect. rewrite E1, String.eqb_refl, A. cbn [obind].
    cbn [map]. change (denote c :: denote c2 :: map denote cs) with ([denote c] ++ map denote (c2 :: cs))%list.
    rewrite app_assoc. apply IH; auto. discriminate.
Qed.

Lemma pdict_ok ds :
  Forall (fun p => passes (fst p) /\ passes (snd p)) ds -> ds <> [] ->
  Forall (fun p => sentence (fst p) /\ sentence (snd p) /\ keyed read p) ds ->
  Forall (fun p => good 0 (fst p) /\ good 0 (snd p)) ds ->
  forall acc s s', NoDup (map fst acc) -> steps s (sep (map etok ds) ++ ["}"])%list s' ->
  ev (fun n => pdict n acc s) (Ret (EDict (fold_left assign (map entry ds) acc), s')).
Proof.
  induction 1 as [|[k v] ds [Pk Pv] Pds IH]; [congruence|]. intros _ Hs Hg acc s s' Nd St.
  inversion Hs as [|? ? (Sk & Sv & x & Ex) Hs']; subst. inversion Hg as [|? ? (Gk & Gv) Hg']; subst.
  cbn [fst snd] in *. apply ev_S. cbn [ParserModel.pdict].
  assert (St' : exists s3 tl, steps s (etok (k, v)) s3 /\ steps s3 tl s' /\
     ((ds = [] /\ tl = ["}"]) \/ (ds <> [] /\ tl = "," :: (sep (map etok ds) ++ ["}"])%list))).
  { destruct ds as [|d2 ds].
    - cbn [map sep] in St. apply steps_app_inv in St. destruct St as (s1 & A & B). exists s1, ["}"]. auto.
    - cbn [map] in St. rewrite sep_cons in St by discriminate. rewrite <- app_assoc in St.
      apply steps_app_inv in St. destruct St as (s1 & A & B). eexists s1, _. split; eauto. split; eauto.
      right. split; [discriminate|reflexivity]. }
  destruct St' as (s3 & tl & St1 & St2 & Tl). unfold etok in St1. cbn [fst snd] in St1.
  apply steps_app_inv in St1. destruct St1 as (s1 & Stk & St1).
  apply steps_cons_inv in St1. destruct St1 as (E1 & _ & s2 & A & Stv).
  eapply ev_bind; [eapply (passes_halt k s s1); eauto; rewrite E1; simpl; tauto|].
  cbn [fst snd]. rewrite Ex. unfold expect at 1. rewrite E1, String.eqb_refl, A. cbn [obind].
  assert (Hd : In (cur s3) [")"; ","; "]"; ":"; "}"]).
  { destruct Tl as [[_ ->]|[_ ->]].
    - apply steps_one_inv in St2. destruct St2 as (-> & _). simpl; tauto.
    - apply steps_cons_inv in St2. destruct St2 as (-> & _). simpl; tauto. }
  eapply ev_bind; [eapply (passes_halt v s2 s3); eauto|].
  cbn [fst snd]. rewrite (dset_assign x (denote v) acc Nd).
  assert (Ee : entry (k, v) = (x, denote v)).
  { unfold ParserSound.entry. cbn [fst snd]. rewrite Ex. reflexivity. }
  destruct Tl as [[-> ->]|[Nds ->]].
  - pose proof (steps_one_inv _ _ _ St2) as (E3 & _ & _).
    rewrite E3, String.eqb_refl. rewrite (expect_step _ _ _ St2). cbn [obind map fold_left].
    rewrite Ee. apply ev_const.
  - apply steps_cons_inv in St2. destruct St2 as (E3 & _ & s4 & A4 & St2).
    rewrite E3. cbn [String.eqb Ascii.eqb Bool.eqb].
    unfold expect. rewrite E3, String.eqb_refl, A4. cbn [obind map fold_left].
    rewrite Ee. apply IH; auto. rewrite <- (dset_assign x (denote v) acc Nd). now apply dset_keys.
Qed.

Lemma complete c : passes c.
Proof.
  induction c using cst_ind'.
  - apply passes_token; auto. intros s s' b Se _ St _ _. cbn [tokens] in St.
    apply steps_one_inv in St. destruct St as (E & Ne & A).
    apply ev_S. exists 0. intros n _. cbn [ParserModel.ptoken]. rewrite A. cbn [obind].
    rewrite E. destruct (String.eqb_spec t ""); [congruence|].
    rewrite number_start by auto. reflexivity.
  - apply passes_token; auto. intros s s' b Se _ St _ _. cbn [tokens] in St.
    apply steps_one_inv in St. destruct St as (E & Ne & A). simpl in Se.
    apply ev_S. exists 0. intros n _. rewrite (ptoken_eq n s s'); auto; try congruence.
    + rewrite E, (name_left _ Se). destruct Se as [[_ W] _]. apply all_alpha_iff in W. rewrite W. reflexivity.
    + rewrite E. apply word_start. apply Se.
  - apply passes_token; auto. intros s s' b Se G St _ _. cbn [tokens] in St.
    apply steps_cons_inv in St. destruct St as (E & Ne & s1 & A & St).
    apply steps_app_inv in St. destruct St as (s2 & St & E2).
    pose proof (steps_one_inv _ _ _ E2) as (C2 & _ & _).
    apply ev_S. eapply ev_ext; [intros n; symmetry; apply (ptoken_eq n s s1); auto; rewrite E; auto|].
    rewrite E. cbn [left_op String.eqb Ascii.eqb Bool.eqb].
    eapply ev_bind; [eapply passes_halt; eauto; rewrite C2; simpl; tauto|].
    cbn [fst snd]. rewrite (expect_step _ _ _ E2). apply ev_const.
  - apply passes_token; auto. intros s s' b Se G St Nb Ed. cbn [tokens] in St.
    apply steps_cons_inv in St. destruct St as (E & Ne & s1 & A & St). simpl in Ed. destruct Ed as [Sp Ed].
    apply ev_S. eapply ev_ext; [intros n; symmetry; apply (ptoken_eq n s s1); auto; rewrite E; auto|].
    rewrite E. cbn [left_op String.eqb Ascii.eqb Bool.eqb].
    apply (passes_stop c sign_bp s1 s' b); auto. rewrite sign_bp_val; lia.
  - apply passes_token; auto. intros s s' b Se G St Nb Ed. cbn [tokens] in St.
    apply steps_cons_inv in St. destruct St as (E & Ne & s1 & A & St). simpl in Ed. destruct Ed as [Sp Ed].
    apply ev_S. eapply ev_ext; [intros n; symmetry; apply (ptoken_eq n s s1); auto; rewrite E; auto|].
    rewrite E. cbn [left_op String.eqb Ascii.eqb Bool.eqb].
    eapply ev_bind; [eapply passes_stop; eauto; rewrite sign_bp_val; lia|].
    cbn [fst snd ParserSpec.denote]. unfold negated. destruct (denote c); apply ev_const.
  - apply passes_token; auto. intros s s' b Se G St Nb Ed. cbn [tokens] in St.
    apply steps_cons_inv in St. destruct St as (E & Ne & s1 & A & St). simpl in Ed. destruct Ed as [Sp Ed].
    simpl in Se. destruct Se as [Fn Se]. unfold fun_tok in E.
    destruct (fun_name o) as [t|] eqn:Fo; [|congruence].
    apply ev_S. eapply ev_ext.
    { intros n; symmetry; apply (ptoken_eq n s s1); auto; rewrite E; auto.
      - destruct o; simpl in Fo; try discriminate; injection Fo as <-; discriminate.
      - destruct o; simpl in Fo; try discriminate; injection Fo as <-; reflexivity. }
    rewrite E, (fun_left _ _ Fo).
    eapply ev_bind; [eapply passes_stop; eauto; rewrite imax_val; lia|].
    cbn [fst snd ParserSpec.denote]. apply ev_const.
  - intros m s s' b res Hm Se G St Nb Ed L.
    simpl in Se, G. destruct Se as [Sl Sr], G as ((G1 & G2) & Gl & Gel & Gr).
    cbn [tokens] in St. apply steps_app_inv in St. destruct St as (s1 & Stl & St).
    apply steps_cons_inv in St. destruct St as (E1 & N1 & s2 & A & St).
    eapply IHc1; eauto; [rewrite E1; apply nb_op|].
    apply ev_S. cbn [ParserModel.ploop]. rewrite E1, right_op_tok.
    destruct (String.eqb_spec (op_tok o) ""); [congruence|]. cbn [rop_lbp].
    destruct (Z.ltb_spec (lbp o) m); [lia|]. destruct (Z.ltb_spec (Mx c1) (lbp o)); [lia|]. cbn [orb].
    rewrite A. cbn [obind]. unfold rlev in Gr.
    destruct (wrapped o) eqn:W.
    + apply steps_app_inv in St. destruct St as (s3 & St & Cl).
      assert (Cl' : steps s3 [op_close o] s') by (destruct o; try discriminate; exact Cl).
      pose proof (steps_one_inv _ _ _ Cl') as (C3 & _ & _).
      eapply ev_bind.
      * eapply passes_halt; eauto. rewrite C3. destruct o; try discriminate; simpl; tauto.
      * cbn [fst snd]. rewrite (expect_step _ _ _ Cl'). cbn [obind]. exact L.
    + assert (St' : steps s2 (tokens c2) s').
      { destruct o; try discriminate; cbn [close_tok] in St; rewrite app_nil_r in St; exact St. }
      simpl in Ed. destruct (Ed W) as [Sp Er].
      eapply ev_bind.
      * eapply passes_stop; eauto. pose proof (rbp_pos o); lia.
      * cbn [fst snd]. exact L.
  - apply passes_token; auto. intros s s' b Se G St Nb _. cbn [tokens] in St.
    apply steps_cons_inv in St. destruct St as (E & Ne & s1 & A & St).
    simpl in Se, G. apply fold_and in Se. apply fold_and in G.
    apply ev_S. eapply ev_ext; [intros n; symmetry; apply (ptoken_eq n s s1); auto; rewrite E; auto|].
    rewrite E. cbn [left_op String.eqb Ascii.eqb Bool.eqb].
    destruct es as [|c cs].
    + cbn [map sep app] in St. apply steps_one_inv in St. destruct St as (E1 & _ & A1).
      rewrite E1, String.eqb_refl, A1. apply ev_const.
    + assert (cur s1 <> "]").
      { inversion Se; subst. destruct (first_token c) as (t & ts & Et & Nt & _); auto.
        destruct cs as [|c2 cs].
        - cbn [map sep] in St. rewrite Et in St. apply steps_cons_inv in St. destruct St as (-> & _). auto.
        - cbn [map] in St. rewrite sep_cons in St by discriminate. rewrite Et in St.
          apply steps_cons_inv in St. destruct St as (-> & _). auto. }
      destruct (String.eqb_spec (cur s1) "]"); [congruence|].
      apply (parr_ok (c :: cs)) with (acc := []); auto. discriminate.
  - apply passes_token; auto. intros s s' b Se G St Nb _. cbn [tokens] in St.
    apply steps_cons_inv in St. destruct St as (E & Ne & s1 & A & St).
    cbn [ParserSpec.sentence] in Se. cbn [good] in G. apply fold_and in Se. apply fold_and in G.
    apply ev_S. eapply ev_ext; [intros n; symmetry; apply (ptoken_eq n s s1); auto; rewrite E; auto|].
    rewrite E. cbn [left_op String.eqb Ascii.eqb Bool.eqb].
    destruct d as [|[k v] ds].
    + cbn [map sep app] in St. apply steps_one_inv in St. destruct St as (E1 & _ & A1).
      rewrite E1, String.eqb_refl, A1. apply ev_const.
    + assert (cur s1 <> "}").
      { inversion Se as [|? ? (Sk & _) _]; subst. destruct (first_token k) as (t & ts & Et & _ & Nt); auto.
        destruct ds as [|d2 ds].
        - cbn [map sep fst snd] in St. rewrite Et in St. apply steps_cons_inv in St. destruct St as (-> & _). auto.
        - cbn [map] in St. rewrite sep_cons in St by discriminate. cbn [fst snd] in St. rewrite Et in St.
          apply steps_cons_inv in St. destruct St as (-> & _). auto. }
      destruct (String.eqb_spec (cur s1) "}"); [congruence|].
      rewrite denote_dict. apply (pdict_ok ((k, v) :: ds)) with (acc := []); auto; [discriminate|constructor].
Qed.
End Generic.

(** ** From [grouped] to the parser's comparisons and back *)
Lemma bracketed_wrapped o : bracketed o = wrapped o.
Proof. destruct o; reflexivity. Qed.

Lemma keeps_infix p o : keeps (Infix p) o <-> (lbp o < rbp p)%Z.
Proof. destruct p, o; unfold keeps; cbn; split; intros H; try lia; try (left; lia); try (right; split; [reflexivity|reflexivity]); try (destruct H as [H|[H1 H2]]; try lia; try discriminate). Qed.
Lemma keeps_sign o : keeps (Prefix sign_level) o <-> (lbp o < sign_bp)%Z.
Proof. destruct o; unfold keeps, sign_level, fun_level, sign_bp, INT_MAX; cbn; split; intros; lia. Qed.
Lemma keeps_fun o : keeps (Prefix fun_level) o <-> (lbp o < INT_MAX)%Z.
Proof. destruct o; unfold keeps, sign_level, fun_level, sign_bp, INT_MAX; cbn; split; intros; lia. Qed.
Lemma yields_infix o p : yields (Infix o) p <-> (rbp o <= lbp p)%Z.
Proof. destruct o, p; unfold yields; cbn; split; intros H; try lia; try (left; lia); try (right; split; reflexivity); try (destruct H as [H|[H1 H2]]; try lia; try discriminate). Qed.
Lemma yields_sign o : yields (Prefix sign_level) o <-> (sign_bp <= lbp o)%Z.
Proof. destruct o; unfold yields, sign_level, fun_level, sign_bp, INT_MAX; cbn; split; intros; lia. Qed.
Lemma yields_fun o : yields (Prefix fun_level) o <-> (INT_MAX <= lbp o)%Z.
Proof. destruct o; unfold yields, sign_level, fun_level, sign_bp, INT_MAX; cbn; split; intros; lia. Qed.

Lemma edge_of_keeps c o : (forall x, In x (right_edge c) -> keeps x o) -> edge c (lbp o).
Proof.
  induction c using cst_ind'; simpl; auto; intros H.
  - split; [left; apply keeps_sign; auto|]. apply IHc. auto.
  - split; [left; apply keeps_sign; auto|]. apply IHc. auto.
  - split; [left; apply keeps_fun; auto|]. apply IHc. auto.
  - intros W. rewrite bracketed_wrapped, W in H. split; [left; apply keeps_infix, H; simpl; auto|].
    apply IHc2. intros; apply H; simpl; auto.
Qed.

Lemma nbp_rbp o p : wrapped p = false -> (lbp o < rbp p)%Z -> (lbp o <= nbp p)%Z.
Proof. destruct o, p; simpl; intros; try discriminate; cbn in *; lia. Qed.
Lemma nbp_level o p : wrapped p = true -> level o <= level p -> (lbp o <= nbp p)%Z.
Proof. destruct o, p; simpl; intros; try discriminate; cbn in *; lia. Qed.

Lemma good_of_grouped c : grouped c -> postfix_ordered c ->
  forall m, (forall o, In o (left_edge c) -> (m <= lbp o)%Z) -> good m c.
Proof.
  induction c using cst_ind'; simpl; auto.
  - intros G P m _. apply IHc; auto. intros. pose proof (lbp_pos o). lia.
  - intros [G H] P m _. apply IHc; auto. intros. now apply yields_sign, H.
  - intros [G H] P m _. apply IHc; auto. intros. now apply yields_sign, H.
  - intros [G H] P m _. apply IHc; auto. intros. now apply yields_fun, H.
  - intros (Gl & Gr & Hk & Hy) (Pl & Pr & Pb) m Hm. repeat split.
    + apply Hm; auto.
    + destruct c1 as [| | | | | |p l1 r1| |]; try (unfold Mx; pose proof (lbp_pos o); rewrite imax_val; lia).
      unfold Mx. destruct (wrapped p) eqn:W.
      * apply nbp_level; auto.
      * apply nbp_rbp; auto. apply keeps_infix. apply Hk. simpl. rewrite bracketed_wrapped, W. simpl; auto.
    + apply IHc1; auto.
    + now apply edge_of_keeps.
    + unfold rlev. apply IHc2; auto. intros q Hq. destruct (wrapped o) eqn:W.
      * pose proof (lbp_pos q). lia.
      * apply yields_infix, Hy; auto.
  - rewrite !fold_and. intros G P m _. apply fold_and. rewrite Forall_forall in *. intros c Hc.
    apply H; auto. intros o _. pose proof (lbp_pos o). lia.
  - rewrite !fold_and. intros G P m _. apply fold_and. rewrite Forall_forall in *. intros c Hc.
    destruct (H c Hc), (G c Hc), (P c Hc). split; [apply H0|apply H1]; auto; intros o _; pose proof (lbp_pos o); lia.
Qed.

(** Back: without the suspicious adjacent tokens. *)
Lemma good_left m c : good m c -> forall o, In o (left_edge c) -> (m <= lbp o)%Z.
Proof.
  induction c using cst_ind'; simpl; try contradiction.
  intros ((G1 & _) & Gl & _) p [<-|Hp]; auto.
Qed.

Lemma plain_app a b : plain_tokens (a ++ b) -> plain_tokens a /\ plain_tokens b.
Proof.
  induction a as [|x a IH]; simpl; intros H; [split; auto; exact I|].
  destruct a as [|y a]; simpl in *.
  - destruct b; simpl in *; tauto.
  - destruct H as (H1 & H2 & H3). apply IH in H3. tauto.
Qed.

(** A refusal because of the tighter next operator betrays a closing bracket just
    before it. *)
Lemma refuse_bracket c o : (Mx c < lbp o)%Z -> edge c (lbp o) ->
  exists ts t, tokens c = (ts ++ [t])%list /\
    (t = "]" /\ (op_tok o = "{" \/ op_tok o = plus_minus) \/ t = "}" /\ op_tok o = plus_minus).
Proof.
  induction c using cst_ind'; intros L Ed;
    try (exfalso; unfold Mx in L; pose proof (lbp_pos o); rewrite imax_val in L; lia).
  unfold Mx in L. simpl in Ed. destruct (wrapped o0) eqn:W.
  - cbn [tokens]. destruct o0; try discriminate; cbn [close_tok].
    + exists (tokens c1 ++ op_tok BAcc :: tokens c2)%list, "]". split; [rewrite <- app_assoc; reflexivity|].
      left. split; auto. destruct o; cbn in L; try lia; simpl; auto.
    + exists (tokens c1 ++ op_tok BUnits :: tokens c2)%list, "}". split; [rewrite <- app_assoc; reflexivity|].
      right. split; auto. destruct o; cbn in L; try lia; simpl; auto.
  - destruct (Ed eq_refl) as [[S1|S1] Er].
    + exfalso. destruct o0, o; try discriminate; cbn in L, S1; lia.
    + destruct (IHc2 S1 Er) as (ts & t & Et & Ht). cbn [tokens].
      exists (tokens c1 ++ op_tok o0 :: ts)%list, t. split; auto.
      rewrite Et. destruct o0; try discriminate; cbn [close_tok]; rewrite app_nil_r, <- app_assoc; reflexivity.
Qed.

Lemma plain_pair a t u b : plain_tokens (a ++ t :: u :: b) ->
  ~ (t = "]" /\ (u = "{" \/ u = plus_minus)) /\ ~ (t = "}" /\ u = plus_minus).
Proof.
  intros H. apply plain_app in H. destruct H as [_ H]. simpl in H. tauto.
Qed.

Lemma keeps_of_edge c o rest : plain_tokens (tokens c ++ op_tok o :: rest) -> edge c (lbp o) ->
  forall x, In x (right_edge c) -> keeps x o.
Proof.
  assert (Q : forall d pre, plain_tokens ((pre ++ tokens d) ++ op_tok o :: rest) -> edge d (lbp o) ->
              ~ (Mx d < lbp o)%Z).
  { intros d pre Pl Ed L. destruct (refuse_bracket d o L Ed) as (ts & t & Et & Ht).
    rewrite Et in Pl. rewrite app_assoc in Pl. rewrite <- app_assoc in Pl. cbn [app] in Pl.
    apply plain_pair in Pl. tauto. }
  assert (G : forall c pre, plain_tokens ((pre ++ tokens c) ++ op_tok o :: rest) -> edge c (lbp o) ->
              forall x, In x (right_edge c) -> keeps x o).
  { intros c0. induction c0 using cst_ind'; intros pre Pl Ed x Hx; simpl in Hx; try contradiction.
    - simpl in Ed. destruct Ed as [Sp Ed].
      assert (Pl' : plain_tokens (((pre ++ ["+"]) ++ tokens c0) ++ op_tok o :: rest)) by (rewrite <- (app_assoc pre); exact Pl).
      pose proof (Q _ _ Pl' Ed). destruct Hx as [<-|Hx]; [apply keeps_sign; lia|eapply IHc0; eauto].
    - simpl in Ed. destruct Ed as [Sp Ed].
      assert (Pl' : plain_tokens (((pre ++ ["-"]) ++ tokens c0) ++ op_tok o :: rest)) by (rewrite <- (app_assoc pre); exact Pl).
      pose proof (Q _ _ Pl' Ed). destruct Hx as [<-|Hx]; [apply keeps_sign; lia|eapply IHc0; eauto].
    - simpl in Ed. destruct Ed as [Sp Ed].
      assert (Pl' : plain_tokens (((pre ++ [fun_tok o0]) ++ tokens c0) ++ op_tok o :: rest)) by (rewrite <- (app_assoc pre); exact Pl).
      pose proof (Q _ _ Pl' Ed). destruct Hx as [<-|Hx]; [apply keeps_fun; lia|eapply IHc0; eauto].
    - rewrite bracketed_wrapped in Hx. destruct (wrapped o0) eqn:W; [contradiction|].
      simpl in Ed. destruct (Ed W) as [Sp Er].
      assert (Pl' : plain_tokens (((pre ++ tokens c0_1 ++ [op_tok o0]) ++ tokens c0_2) ++ op_tok o :: rest)).
      { rewrite <- (app_assoc pre), <- (app_assoc (tokens c0_1)). cbn [app].
        cbn [tokens] in Pl. destruct o0; try discriminate; cbn [close_tok] in Pl; rewrite app_nil_r in Pl; exact Pl. }
      pose proof (Q _ _ Pl' Er). destruct Hx as [<-|Hx]; [apply keeps_infix; lia|eapply IHc0_2; eauto]. }
  intros Pl Ed x Hx. eapply (G c []); eauto.
Qed.

Lemma plain_sep l : plain_tokens (sep l) -> Forall plain_tokens l.
Proof.
  induction l as [|x l IH]; intros H; constructor.
  - destruct l; [exact H|]. rewrite sep_cons in H by discriminate. apply plain_app in H. tauto.
  - destruct l; [constructor|]. rewrite sep_cons in H by discriminate. apply plain_app in H.
    apply IH. change ("," :: sep (l :: l0)) with (["," : string] ++ sep (l :: l0))%list in H.
    destruct H as [_ H]. apply plain_app in H. tauto.
Qed.

Lemma plain_tl x a : plain_tokens (x :: a) -> plain_tokens a.
Proof. change (x :: a) with ([x] ++ a)%list. intros H. apply plain_app in H. tauto. Qed.

Lemma grouped_of_good c : forall m, good m c -> plain_tokens (tokens c) -> grouped c /\ postfix_ordered c.
Proof.
  induction c using cst_ind'; intros m G Pl; simpl in G; cbn [tokens] in Pl; simpl; auto.
  - apply plain_tl, plain_app in Pl. eapply IHc; eauto. tauto.
  - apply plain_tl in Pl. destruct (IHc _ G Pl). repeat split; auto. intros.
    apply yields_sign. eapply good_left; eauto.
  - apply plain_tl in Pl. destruct (IHc _ G Pl). repeat split; auto. intros.
    apply yields_sign. eapply good_left; eauto.
  - apply plain_tl in Pl. destruct (IHc _ G Pl). repeat split; auto. intros.
    apply yields_fun. eapply good_left; eauto.
  - destruct G as ((G1 & G2) & Gl & Ge & Gr).
    pose proof (plain_app _ _ Pl) as [Pl1 Pl2]. pose proof (plain_tl _ _ Pl2) as Pl3.
    apply plain_app in Pl3. destruct Pl3 as [Pl3 _].
    destruct (IHc1 _ Gl Pl1), (IHc2 _ Gr Pl3). repeat split; auto.
    + eapply keeps_of_edge; eauto.
    + intros W p Hp. apply yields_infix. rewrite bracketed_wrapped in W. unfold rlev in Gr. rewrite W in Gr.
      eapply good_left; eauto.
    + destruct c1 as [| | | | | |p l1 r1| |]; auto. intros W. rewrite bracketed_wrapped in W.
      unfold Mx in G2. destruct p, o; try discriminate; cbn in G2 |- *; lia.
  - apply fold_and in G. apply plain_tl, plain_app in Pl. destruct Pl as [Pl _]. apply plain_sep in Pl.
    rewrite Forall_map in Pl. rewrite Forall_forall in *.
    split; apply fold_and, Forall_forall; intros c Hc; apply (H c Hc 0%Z); auto.
  - apply fold_and in G. apply plain_tl, plain_app in Pl. destruct Pl as [Pl _]. apply plain_sep in Pl.
    rewrite Forall_map in Pl. rewrite Forall_forall in *.
    assert (X : forall p, In p d -> (grouped (fst p) /\ postfix_ordered (fst p)) /\ (grouped (snd p) /\ postfix_ordered (snd p))).
    { intros p Hp. destruct (H p Hp) as [Hk Hv], (G p Hp) as [Gk Gv]. pose proof (Pl p Hp) as Q. cbv beta in Q.
      apply plain_app in Q. destruct Q as [Qk Qv]. apply plain_tl in Qv. split; eauto. }
    split; apply fold_and, Forall_forall; intros p Hp; destruct (X p Hp); tauto.
Qed.
