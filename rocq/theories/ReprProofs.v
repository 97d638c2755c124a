(** Printing: the text of a printable expression is the layout of a well grouped
    sentence that denotes it. *)
From Coq Require Import String Ascii NArith.
From Verif Require Import Outcome Num ExprModel ExprBase ParserModel ParserSpec ParserBase ParserProofs ParserSound ParserComplete.
Open Scope nat_scope.
Open Scope string_scope.

Definition breaks (s : string) : Prop := ~ first_is letter s /\ ~ first_is numchar s.

Lemma breaks_char c s : isdigit c = false -> isalpha c = false -> Ascii.eqb c "." = false -> breaks (String c s).
Proof.
  intros D A P. apply isdigit_false in D. apply isalpha_false in A. apply Ascii.eqb_neq in P.
  split; simpl; auto. unfold numchar. simpl. intros [X|[X|[X|[X|[]]]]]; try congruence; subst;
    apply A; unfold letter; cbn; lia.
Qed.
Lemma breaks_nil : breaks "". Proof. split; simpl; auto. Qed.

Lemma layout_space s ts : layout s ts -> layout (" " ++ s) ts.
Proof.
  intros H. inversion H; subst.
  - apply (layout_nil (S n)).
  - apply (layout_cons (S n) t rest ts0); auto.
Qed.

Lemma layout_tok t rest ts : is_token t -> breaks rest -> layout rest ts -> layout (t ++ rest) (t :: ts).
Proof.
  intros T [B1 B2] L. apply (layout_cons 0 t rest ts); auto.
Qed.

Lemma layout_sym t rest ts : In t symbols -> layout rest ts -> layout (t ++ rest) (t :: ts).
Proof.
  intros T L. apply (layout_cons 0 t rest ts); auto.
  - right; right; auto.
  - intros W. exfalso. eapply symbols_not_word; eauto.
  - intros W. exfalso. eapply symbols_not_number; eauto.
Qed.

Lemma breaks_sym t s : In t symbols -> breaks (t ++ s).
Proof.
  intros H. simpl in H. repeat destruct H as [<-|H]; try contradiction; apply breaks_char; reflexivity.
Qed.

Section Generic.
Context {K : Type} `{EN : ENum K}.
Notation expr := (expr K).
Variable read : string -> K.
Variable show : K -> string.
Variable fp : bool.
Notation denote := (denote read).
Notation sentence := (sentence read).
Notation writable := (writable read show).
Notation faithful := (faithful read show fp).
Notation ends_negative := (ends_negative read show).

Definition const_cst (c : K) : cst :=
  match show c with
  | String h t => if Ascii.eqb h "-" then CNeg (CNum t) else CNum (show c)
  | EmptyString => CNum (show c)
  end.
Definition cpar (b : bool) (c : cst) : cst := if b then CPar c else c.
Definition bps (e : expr) : Z * Z := match ebp e with Ret b => b | _ => (0%Z, 0%Z) end.

Fixpoint cst_of (e : expr) : cst :=
  match e with
  | EConst c => const_cst c
  | EVar x => CVar x
  | EUn UNeg a => CNeg (cpar (paren_u fp UNeg (bps a)) (cst_of a))
  | EUn o a => CFun o (cpar (paren_u fp o (bps a)) (cst_of a))
  | EBin o l r => CBin o (cpar (paren_l fp o (bps l)) (cst_of l)) (cpar (paren_r fp o (bps r)) (cst_of r))
  | EArr es => CArr (map cst_of es)
  | EDict d => CDict (map (fun p => (CVar (fst p), cst_of (snd p))) d)
  end.

Lemma number_not_dash t : is_number t -> match t with String h _ => Ascii.eqb h "-" = false | _ => True end.
Proof.
  intros N. apply is_number_cons in N. destruct N as (c & a & -> & D & _).
  now destruct (digit_not_special c D) as (_ & _ & _ & _ & H & _).
Qed.

Lemma plain_cst c : plain_constant read show c -> const_cst c = CNum (show c).
Proof.
  intros [N _]. apply number_not_dash in N. unfold const_cst. destruct (show c) as [|h t]; auto. now rewrite N.
Qed.
Lemma negative_cst c : negative_constant read show c ->
  exists t, show c = "-" ++ t /\ is_number t /\ nopp (read t) = c /\ const_cst c = CNeg (CNum t).
Proof.
  intros (t & E & N & R). exists t. repeat split; auto. unfold const_cst. rewrite E. reflexivity.
Qed.

Lemma ebp_bps (e : expr) : ~ is_dictionary e -> ebp e = Ret (bps e).
Proof. destruct e; simpl; unfold bps; simpl; auto. tauto. Qed.

Lemma fun_named o : fun_name o <> None -> exists t, fun_name o = Some t /\ un_l o = t ++ " " /\ un_r o = "" /\
   is_word t /\ (forall a, cst_of (EUn o a) = CFun o (cpar (paren_u fp o (bps a)) (cst_of a))) /\ unary_bp o = INT_MAX.
Proof.
  destruct o; simpl; intros H; try congruence; eexists; (split; [reflexivity|]);
    (split; [reflexivity|]); (split; [reflexivity|]); (split; [|split; reflexivity]);
    split; try discriminate; simpl; repeat split; unfold letter; cbn; lia.
Qed.

(** ** The sentence denotes the expression *)
Lemma denote_cpar b c : denote (cpar b c) = denote c.
Proof. destruct b; reflexivity. Qed.
Lemma sentence_cpar b c : sentence c -> sentence (cpar b c).
Proof. destruct b; auto. Qed.

Lemma fold_assign_distinct (d : list (string * expr)) acc :
  NoDup (map fst acc ++ map fst d) -> fold_left assign d acc = (acc ++ d)%list.
Proof.
  revert acc. induction d as [|p d IH]; simpl; intros acc H; [now rewrite app_nil_r|].
  assert (E : assign acc p = (acc ++ [p])%list).
  { unfold assign. destruct (existsb (fun q => String.eqb (fst p) (fst q)) acc) eqn:X; auto.
    apply existsb_exists in X. destruct X as (q & Hq & Eq). apply String.eqb_eq in Eq.
    exfalso. apply NoDup_remove_2 in H. apply H. apply in_or_app. left. rewrite Eq. now apply in_map. }
  rewrite E, IH.
  - rewrite <- app_assoc. reflexivity.
  - rewrite map_app, <- app_assoc. exact H.
Qed.

Lemma denote_cst b e : writable e -> ParserSpec.faithful read show b e -> denote (cst_of e) = e.
Proof.
  induction e using expr_ind'; simpl; intros P F.
  - destruct P as [P|P].
    + rewrite (plain_cst _ P). simpl. destruct P as [N ->]. auto.
    + destruct (negative_cst _ P) as (t & E & N & R & ->). simpl. rewrite R. auto.
  - auto.
  - destruct P as (Ho & Nd & P), F as [Fn F].
    destruct Ho as [Hf| ->].
    + destruct (fun_named _ Hf) as (t & Ft & _ & _ & _ & Ec & _). simpl in Ec. rewrite (Ec e).
      cbn [ParserSpec.denote]. rewrite denote_cpar, IHe; auto.
    + cbn [ParserSpec.denote]. rewrite denote_cpar, IHe by auto.
      specialize (Fn eq_refl). destruct e; auto. simpl in Fn. tauto.
  - destruct P as (N1 & N2 & P1 & P2), F as (_ & F1 & F2). rewrite !denote_cpar, IHe1, IHe2; auto.
  - apply fold_and in P. apply fold_and in F. rewrite Forall_forall in *.
    f_equal. rewrite map_map. rewrite <- (map_id es) at 2. apply map_ext_in. intros a Ha. now apply H; auto.
  - destruct P as [Nd P]. apply fold_and in P. apply fold_and in F. rewrite Forall_forall in *.
    f_equal. rewrite map_map. cbn [fst snd].
    rewrite (map_ext_in _ (fun p => p)).
    + rewrite map_id. rewrite fold_assign_distinct; auto.
    + intros [k v] Hp. simpl. f_equal. apply (H (k, v) Hp); [apply (P (k, v) Hp)|apply (F (k, v) Hp)].
Qed.
Lemma sentence_cst e : writable e -> sentence (cst_of e).
Proof.
  induction e using expr_ind'; simpl; intros P.
  - destruct P as [P|P].
    + rewrite (plain_cst _ P). simpl. apply P.
    + destruct (negative_cst _ P) as (t & E & N & R & ->). simpl. auto.
  - auto.
  - destruct P as (Ho & Nd & P). destruct Ho as [Hf| ->].
    + destruct (fun_named _ Hf) as (t & Ft & _ & _ & _ & Ec & _). simpl in Ec. rewrite (Ec e).
      cbn [ParserSpec.sentence]. split; auto. apply sentence_cpar; auto.
    + cbn [ParserSpec.sentence]. apply sentence_cpar; auto.
  - destruct P as (N1 & N2 & P1 & P2). split; apply sentence_cpar; auto.
  - apply fold_and in P. rewrite Forall_forall in *.
    apply fold_and. rewrite Forall_map, Forall_forall. intros a Ha. now apply H, P.
  - destruct P as [Nd P]. apply fold_and in P. rewrite Forall_forall in *.
    apply fold_and. rewrite Forall_map, Forall_forall. intros [k v] Hp. simpl.
    destruct (P (k, v) Hp). pose proof (H (k, v) Hp H1). repeat split; eauto; apply H0.
Qed.

(** ** The text is a layout of the sentence *)
Definition prints (e : expr) (s : string) : Prop :=
  forall rest us, breaks rest -> layout rest us -> layout (s ++ rest) (tokens (cst_of e) ++ us)%list.

Lemma paren_layout b s c rest us :
  (forall rest us, breaks rest -> layout rest us -> layout (s ++ rest) (tokens c ++ us)%list) ->
  breaks rest -> layout rest us -> layout (paren b s ++ rest) (tokens (cpar b c) ++ us)%list.
Proof.
  intros H B L. destruct b; [|now apply H]. unfold paren, cpar. cbn [tokens app].
  rewrite !sapp_assoc. apply (layout_sym "("); [simpl; tauto|]. rewrite <- app_assoc.
  apply H; [apply (breaks_sym ")"); simpl; tauto|]. apply (layout_sym ")"); [simpl; tauto|]. exact L.
Qed.

Lemma op_repr_tok o : op_repr o = op_tok o /\ In (op_tok o) symbols.
Proof. destruct o; simpl; tauto. Qed.

Lemma oseq_ret {A} (l : list (outcome A)) xs : Forall2 (fun m x => m = Ret x) l xs -> oseq l = Ret xs.
Proof. induction 1 as [|m x l xs -> H IH]; simpl; auto. rewrite IH. reflexivity. Qed.

Lemma sep_join {A} (f : A -> list string) (g : A -> string) (l : list A) rest us :
  Forall (fun a => forall rest us, breaks rest -> layout rest us -> layout (g a ++ rest) (f a ++ us)%list) l ->
  breaks rest -> layout rest us ->
  layout (join_comma (map g l) ++ rest) (sep (map f l) ++ us)%list.
Proof.
  induction 1 as [|a l Ha Hl IH]; intros B L; [exact L|].
  destruct l as [|a2 l].
  - cbn [map sep join_comma]. now apply Ha.
  - cbn [map]. rewrite sep_cons by discriminate.
    change (join_comma (g a :: g a2 :: map g l)) with (g a ++ ", " ++ join_comma (map g (a2 :: l))).
    rewrite !sapp_assoc, <- app_assoc. apply Ha; [apply (breaks_sym ","); simpl; tauto|].
    cbn [app]. apply (layout_sym ","); [simpl; tauto|]. apply layout_space. now apply IH.
Qed.

Lemma repr_layout e : writable e -> exists s, repr show fp e = Ret s /\ prints e s.
Proof.
  induction e using expr_ind'; simpl; intros P.
  - destruct P as [P|P].
    + eexists; split; [reflexivity|]. intros rest us B L. simpl. rewrite (plain_cst _ P). cbn [tokens app].
      apply layout_tok; auto. left. apply P.
    + destruct (negative_cst _ P) as (t & E & N & R & Ec).
      eexists; split; [reflexivity|]. intros rest us B L. simpl. rewrite Ec, E. cbn [tokens app].
      rewrite sapp_assoc. apply (layout_sym "-"); [simpl; tauto|]. apply layout_tok; auto. left; auto.
  - eexists; split; [reflexivity|]. intros rest us B L. cbn [cst_of tokens app].
    apply layout_tok; auto. right; left. apply P.
  - destruct P as (Ho & Nd & P). destruct (IHe P) as (s & -> & Hs). rewrite (ebp_bps e Nd). cbn [obind].
    eexists; split; [reflexivity|]. intros rest us B L.
    destruct Ho as [Hf| ->].
    + destruct (fun_named _ Hf) as (t & Ft & -> & -> & W & Ec & _). rewrite Ec. cbn [tokens app].
      unfold fun_tok. rewrite Ft, sapp_nil_r, !sapp_assoc.
      apply layout_tok; [right; left; auto| |].
      * apply breaks_char; reflexivity.
      * apply layout_space. now apply paren_layout.
    + cbn [un_l un_r cst_of tokens app]. rewrite sapp_nil_r, sapp_assoc. apply (layout_sym "-"); [simpl; tauto|].
      now apply paren_layout.
  - destruct P as (N1 & N2 & P1 & P2).
    destruct (IHe1 P1) as (s1 & -> & H1), (IHe2 P2) as (s2 & -> & H2).
    rewrite (ebp_bps e1 N1), (ebp_bps e2 N2). cbn [obind].
    eexists; split; [reflexivity|]. intros rest us B L.
    destruct (op_repr_tok o) as [-> Io]. cbn [cst_of tokens]. rewrite !sapp_assoc, <- app_assoc.
    apply paren_layout; auto; [now apply breaks_sym|].
    cbn [app]. apply layout_sym; auto. rewrite <- app_assoc. apply paren_layout; auto.
    + destruct o; cbn [op_close append]; auto; apply breaks_char; reflexivity.
    + destruct o; cbn [op_close close_tok append app]; auto;
        [apply (layout_sym "]")|apply (layout_sym "}")]; auto; simpl; tauto.
  - apply fold_and in P.
    assert (X : exists ss, Forall2 (fun m x => m = Ret x) (map (repr show fp) es) ss /\ Forall2 prints es ss).
    { induction es as [|a es IH]; [exists []; split; constructor|].
      inversion H; subst. inversion P; subst. destruct (IH H3 H5) as (ss & A & B). destruct (H2 H4) as (s & C & D).
      exists (s :: ss). split; constructor; auto. }
    destruct X as (ss & A & B). rewrite (oseq_ret _ _ A). cbn [obind].
    eexists; split; [reflexivity|]. intros rest us Br L. cbn [cst_of tokens app].
    change (layout (("[" ++ (join_comma ss ++ "]")) ++ rest) ("[" :: (sep (map tokens (map cst_of es)) ++ ["]"]) ++ us)%list).
    rewrite !sapp_assoc.
    apply (layout_sym "["); [simpl; tauto|]. rewrite <- app_assoc.
    assert (Y : layout (join_comma (map snd (combine es ss)) ++ "]" ++ rest)
                  (sep (map (fun p => tokens (cst_of (fst p))) (combine es ss)) ++ ["]"] ++ us)%list).
    { apply sep_join; [|apply (breaks_sym "]"); simpl; tauto|apply (layout_sym "]"); [simpl; tauto|exact L]].
      clear -B. induction B as [|a s es ss Ha Hb IH]; constructor; auto. }
    assert (E1 : map snd (combine es ss) = ss) by (clear -B; induction B; simpl; congruence).
    assert (E2 : map (fun p => tokens (cst_of (fst p))) (combine es ss) = map tokens (map cst_of es))
      by (clear -B; induction B; simpl; congruence).
    rewrite E1, E2 in Y. exact Y.
  - destruct P as [_ P]. apply fold_and in P.
    set (g := fun p : string * expr => do s <- repr show fp (snd p); Ret (fst p ++ ":" ++ s)).
    change (exists s, (do ts <- oseq (map g d); Ret ("{" ++ (join_comma ts ++ "}"))) = Ret s /\ prints (EDict d) s).
    assert (X : exists ss, Forall2 (fun m x => m = Ret x) (map g d) ss /\
                Forall2 (fun p t => exists s, t = fst p ++ ":" ++ s /\ is_name (fst p) /\ prints (snd p) s) d ss).
    { induction d as [|[k v] d IH]; [exists []; split; constructor|].
      inversion H; subst. inversion P; subst. destruct (IH H3 H5) as (ss & A & B).
      cbn [fst snd] in *. destruct H4 as [Nk Pv]. destruct (H2 Pv) as (s & C & D).
      exists ((k ++ ":" ++ s) :: ss). split; constructor; auto.
      - unfold g. cbn [fst snd]. rewrite C. reflexivity.
      - exists s. auto. }
    destruct X as (ss & A & B). rewrite (oseq_ret _ _ A). cbn [obind].
    eexists; split; [reflexivity|]. intros rest us Br L. cbn [cst_of tokens app].
    rewrite !sapp_assoc.
    apply (layout_sym "{"); [simpl; tauto|]. rewrite <- app_assoc.
    assert (Y : layout (join_comma (map snd (combine d ss)) ++ "}" ++ rest)
                  (sep (map (fun p => (fst (fst p) :: ":" :: tokens (cst_of (snd (fst p)))))%list (combine d ss)) ++ ["}"] ++ us)%list).
    { apply sep_join; [|apply (breaks_sym "}"); simpl; tauto|apply (layout_sym "}"); [simpl; tauto|exact L]].
      clear -B. induction B as [|p t d ss (s & -> & Nk & Hs) Hb IH]; constructor; auto.
      intros rest us Br L. cbn [fst snd app]. rewrite !sapp_assoc.
      apply layout_tok; [right; left; apply Nk|apply (breaks_sym ":"); simpl; tauto|].
      apply (layout_sym ":"); [simpl; tauto|]. now apply Hs. }
    assert (E1 : map snd (combine d ss) = ss) by (clear -B; induction B; simpl; congruence).
    assert (E2 : map (fun p => (fst (fst p) :: ":" :: tokens (cst_of (snd (fst p)))))%list (combine d ss)
                 = map (fun p => (tokens (fst p) ++ ":" :: tokens (snd p))%list) (map (fun p => (CVar (fst p), cst_of (snd p))) d))
      by (clear -B; induction B; simpl; congruence).
    rewrite E1, E2 in Y. exact Y.
Qed.

(** ** The sentence is well grouped *)
Definition rpow (x : redge) : Z :=
  match x with Infix p => rbp p | Prefix lv => if Nat.eqb lv sign_level then sign_bp else INT_MAX end.

Lemma rpow_keeps x o : (exists p, x = Infix p) \/ x = Prefix sign_level \/ x = Prefix fun_level ->
  (lbp o < rpow x)%Z -> keeps x o.
Proof.
  intros [(p & ->)|[->| ->]] H.
  - now apply keeps_infix.
  - now apply keeps_sign.
  - now apply keeps_fun.
Qed.
Lemma redge_shape c x : In x (right_edge c) -> (exists p, x = Infix p) \/ x = Prefix sign_level \/ x = Prefix fun_level.
Proof.
  induction c using cst_ind'; simpl; try contradiction.
  - intros [<-|H]; auto.
  - intros [<-|H]; auto.
  - intros [<-|H]; auto.
  - destruct (bracketed o); [contradiction|]. intros [<-|H]; eauto.
Qed.

Lemma right_cpar b c x : In x (right_edge (cpar b c)) -> b = false /\ In x (right_edge c).
Proof. destruct b; simpl; tauto. Qed.
Lemma left_cpar b c x : In x (left_edge (cpar b c)) -> b = false /\ In x (left_edge c).
Proof. destruct b; simpl; tauto. Qed.

Lemma bps_le (e : expr) : (fst (bps e) <= snd (bps e))%Z.
Proof.
  destruct e as [c|x|o a|o l r|es|d]; unfold bps; cbn [ebp fst snd]; try lia.
  - destruct o; cbn; rewrite ?imax_val; lia.
  - destruct o; cbn; lia.
Qed.

Lemma right_pow e : fp = false -> writable e -> forall x, In x (right_edge (cst_of e)) ->
  (snd (bps e) <= rpow x)%Z \/ (x = Prefix sign_level /\ ends_negative e).
Proof.
  intros Hfp. induction e using expr_ind'; simpl; intros P y Hx; try contradiction.
  - destruct P as [P|P]; [rewrite (plain_cst _ P) in Hx; contradiction|].
    destruct (negative_cst _ P) as (t & _ & _ & _ & Ec). rewrite Ec in Hx. simpl in Hx. destruct Hx as [<-|[]]. auto.
  - destruct P as (Ho & Nd & P). destruct Ho as [Hf| ->].
    + destruct (fun_named _ Hf) as (t & Ft & _ & _ & _ & Ec & Eb). simpl in Ec. rewrite Ec in Hx.
      cbn [right_edge] in Hx. unfold bps. cbn [ebp snd]. rewrite Eb.
      destruct Hx as [<-|Hx]; [left; simpl; lia|]. apply right_cpar in Hx. destruct Hx as [Hb Hx].
      unfold paren_u in Hb. rewrite Eb, Hfp, orb_false_r in Hb. apply Z.ltb_ge in Hb.
      destruct (IHe P y Hx) as [I|[-> I]].
      * left. pose proof (bps_le e). lia.
      * right. split; auto.
        assert (is_number_node e).
        { destruct e as [c|z|p a|p l r|es|d]; simpl in *; auto; try contradiction; unfold bps in Hb; cbn [ebp fst] in Hb; rewrite imax_val in Hb; try lia; pose proof (lbp_pos p); lia. }
        destruct o; simpl in Hf; try congruence; auto.
    + cbn [right_edge] in Hx. unfold bps. cbn [ebp snd unary_bp].
      destruct Hx as [<-|Hx]; [left; simpl; lia|]. apply right_cpar in Hx. destruct Hx as [Hb Hx].
      unfold paren_u in Hb. rewrite Hfp, orb_false_r in Hb.
      apply Z.ltb_ge in Hb. cbn [unary_bp] in Hb. destruct (IHe P y Hx) as [I|[-> I]].
      * left. pose proof (bps_le e). lia.
      * right. split; auto. split; auto.
        destruct e as [c|z|p a|p l r|es|d]; simpl in *; auto; try contradiction; unfold bps in Hb; cbn [ebp fst] in Hb; rewrite sign_bp_val in Hb; try lia;
        unfold sign_level; destruct p; cbn in Hb |- *; lia.
  - destruct P as (N1 & N2 & P1 & P2). unfold bps. cbn [ebp snd].
    rewrite bracketed_wrapped in Hx |- *. destruct (wrapped o) eqn:W; [contradiction|].
    destruct Hx as [<-|Hx]; [left; simpl; lia|]. apply right_cpar in Hx. destruct Hx as [Hb Hx].
    unfold paren_r in Hb. rewrite Hfp, W, orb_false_r, andb_true_r in Hb.
    apply Z.ltb_ge in Hb. destruct (IHe2 P2 y Hx) as [I|[-> I]].
    + left. pose proof (bps_le e2). lia.
    + right. repeat split; auto.
      destruct e2 as [c|z|p a|p l r|es|d]; simpl in *; auto; try contradiction; unfold bps in Hb; cbn [ebp fst] in Hb.
      * pose proof (rbp_pos o). lia.
      * destruct o, p; cbn in Hb |- *; try lia; right; split; reflexivity.
Qed.
(** Conversely a negative number at the end shows. *)
Lemma ends_negative_edge e b : fp = false -> writable e -> ends_negative e -> (0 < b < 100)%Z -> edge (cst_of e) b -> (b < sign_bp)%Z.
Proof.
  intros Hfp. induction e using expr_ind'; simpl; intros P N B Ed; try contradiction.
  - destruct (negative_cst _ N) as (t & _ & _ & _ & Ec). rewrite Ec in Ed. simpl in Ed.
    rewrite imax_val in Ed. lia.
  - destruct P as (Ho & Nd & P). destruct Ho as [Hf| ->].
    + destruct (fun_named _ Hf) as (t & Ft & _ & _ & _ & Ec & Eb). simpl in Ec. rewrite Ec in Ed.
      assert (N' : is_number_node e /\ ends_negative e) by (destruct o; simpl in Hf; try congruence; exact N).
      destruct N' as [Nn N']. apply IHe; auto. simpl in Ed. destruct Ed as [_ Ed].
      destruct e; simpl in Nn; try contradiction.
      assert (E : paren_u fp o (bps (EConst c)) = false).
      { unfold paren_u, bps. rewrite Eb, Hfp. cbn. reflexivity. }
      rewrite E in Ed. exact Ed.
    + destruct N as [Nb N]. apply IHe; auto. simpl in Ed. destruct Ed as [_ Ed].
      assert (E : paren_u fp UNeg (bps e) = false).
      { unfold paren_u. rewrite Hfp, orb_false_r. apply Z.ltb_ge. unfold bps.
        destruct e as [c|z|p a|p l r|es|d]; simpl in *; auto; try (rewrite sign_bp_val, ?imax_val; lia); try contradiction.
        unfold sign_level in Nb. destruct p; cbn in Nb |- *; lia. }
      rewrite E in Ed. exact Ed.
  - destruct P as (N1 & N2 & P1 & P2), N as (Wb & Nb & N). rewrite bracketed_wrapped in Wb.
    destruct (Ed Wb) as [_ Er]. apply IHe2; auto.
    assert (E : paren_r fp o (bps e2) = false).
    { unfold paren_r. rewrite Hfp, orb_false_r, Wb. simpl. rewrite andb_true_r. apply Z.ltb_ge. unfold bps.
      pose proof (rbp_pos o).
      destruct e2 as [c|z|p a|p l r|es|d]; simpl in *; auto; try (rewrite ?imax_val; lia); try contradiction.
      destruct o, p; cbn in Nb |- *; try lia; destruct Nb as [Nb|[Nb Nc]]; try lia; discriminate. }
    rewrite E in Er. exact Er.
Qed.

Lemma rbp_lbp p o : (lbp o <= rbp p)%Z -> (lbp o <= lbp p)%Z.
Proof. destruct p, o; cbn; lia. Qed.

Lemma left_pow e : writable e -> forall o, In o (left_edge (cst_of e)) -> (fst (bps e) <= lbp o)%Z.
Proof.
  induction e using expr_ind'; simpl; intros P q Hq; try contradiction.
  - destruct P as [P|P].
    + rewrite (plain_cst _ P) in Hq. contradiction.
    + destruct (negative_cst _ P) as (t & _ & _ & _ & Ec). rewrite Ec in Hq. contradiction.
  - destruct o; contradiction.
  - destruct P as (N1 & N2 & P1 & P2). unfold bps. cbn [ebp fst].
    destruct Hq as [<-|Hq]; [lia|]. apply left_cpar in Hq. destruct Hq as [Hb Hq].
    specialize (IHe1 P1 q Hq). unfold paren_l in Hb. apply orb_false_iff in Hb. destruct Hb as [Hb _].
    apply Z.ltb_ge in Hb.
    destruct e1 as [c|x|p a|p l r|es|d]; simpl in Hq; try contradiction.
    + destruct P1 as [P1|P1].
      * rewrite (plain_cst _ P1) in Hq. contradiction.
      * destruct (negative_cst _ P1) as (t & _ & _ & _ & Ec). rewrite Ec in Hq. contradiction.
    + destruct p; contradiction.
    + unfold bps in *. cbn [ebp fst snd] in *. apply rbp_lbp in Hb. lia.
Qed.

Lemma grouped_cpar b c : grouped c -> grouped (cpar b c). Proof. destruct b; auto. Qed.
Lemma post_cpar b c : postfix_ordered c -> postfix_ordered (cpar b c). Proof. destruct b; auto. Qed.

Lemma left_strict o (l : expr) : (groups_right o = true -> ~ root_is o l) ->
  ~ is_dictionary l -> (lbp o <= snd (bps l))%Z -> (lbp o < snd (bps l))%Z.
Proof.
  intros Hr Nd H. pose proof (lbp_pos o) as Lp.
  destruct l as [c|x|p a|p l1 l2|es|d]; unfold bps in *; cbn [ebp snd] in *; rewrite ?imax_val in *; try lia.
  - destruct p, o; cbn in H |- *; rewrite ?imax_val in *; lia.
  - simpl in Hr. destruct o, p; cbn in H |- *; try lia; exfalso; apply Hr; reflexivity.
Qed.
Lemma bare_left_iff o (l : expr) : ~ is_dictionary l -> (forall p a, l = EUn p a -> fun_name p <> None \/ p = UNeg) ->
  fp = false -> (paren_l fp o (bps l) = false <-> bare_left o l).
Proof.
  intros Nd Hu Hfp. unfold paren_l. rewrite Hfp, orb_false_r, Z.ltb_ge. pose proof (lbp_pos o).
  destruct l as [c|x|p a|p l1 l2|es|d]; unfold bps; cbn [ebp snd bare_left]; rewrite ?imax_val; simpl in Nd;
    try (split; intros; auto; lia).
  - specialize (Hu p a eq_refl). destruct p; cbn [unary_bp]; try (destruct Hu as [Hu|Hu]; [simpl in Hu; congruence|discriminate]);
      try (rewrite imax_val; split; intros; auto; lia).
    rewrite sign_bp_val. destruct o; cbn; unfold sign_level; split; lia.
  - destruct o, p; cbn; split; lia.
Qed.

Lemma grouped_cst e : writable e -> faithful e -> grouped (cst_of e) /\ postfix_ordered (cst_of e).
Proof.
  induction e using expr_ind'; intros P F.
  - simpl in *. destruct P as [P|P].
    + rewrite (plain_cst _ P). simpl. auto.
    + destruct (negative_cst _ P) as (t & _ & _ & _ & ->). simpl. repeat split; auto. intros; contradiction.
  - simpl. auto.
  - simpl in P, F. destruct P as (Ho & Nd & P), F as [_ F]. destruct (IHe P F) as [G O]. destruct Ho as [Hf| ->].
    + destruct (fun_named _ Hf) as (t & Ft & _ & _ & _ & -> & Eb).
      cbn [grouped postfix_ordered]. split; [|now apply post_cpar]. split; [now apply grouped_cpar|].
      intros q Hq. apply left_cpar in Hq. destruct Hq as [Hb Hq]. apply yields_fun.
      unfold paren_u in Hb. apply orb_false_iff in Hb. destruct Hb as [Hb _]. rewrite Eb in Hb.
      apply Z.ltb_ge in Hb. pose proof (left_pow e P q Hq). lia.
    + cbn [cst_of grouped postfix_ordered]. split; [|now apply post_cpar]. split; [now apply grouped_cpar|].
      intros q Hq. apply left_cpar in Hq. destruct Hq as [Hb Hq]. apply yields_sign.
      unfold paren_u in Hb. apply orb_false_iff in Hb. destruct Hb as [Hb _]. cbn [unary_bp] in Hb.
      apply Z.ltb_ge in Hb. pose proof (left_pow e P q Hq). lia.
  - simpl in P, F. destruct P as (N1 & N2 & P1 & P2), F as (Hr & F1 & F2).
    destruct (IHe1 P1 F1) as [G1 O1], (IHe2 P2 F2) as [G2 O2]. cbn [cst_of grouped postfix_ordered].
    split; [split; [|split; [|split]]|split; [|split]];
      try (now apply grouped_cpar); try (now apply post_cpar).
    + intros x Hx. pose proof Hx as Hx0. apply right_cpar in Hx. destruct Hx as [Hbp Hx].
      pose proof Hbp as Hb. unfold paren_l in Hb. apply orb_false_iff in Hb. destruct Hb as [Hb Hfp]. apply Z.ltb_ge in Hb.
      destruct (Hr Hfp) as [Hr1 Hr2].
      destruct (right_pow e1 Hfp P1 x Hx) as [I|[-> I]].
      * apply rpow_keeps; [eapply redge_shape; eauto|]. pose proof (left_strict o e1 Hr1 N1 Hb). lia.
      * simpl. destruct (Nat.lt_ge_cases (level o) sign_level) as [L|L]; auto. exfalso. apply (Hr2 L); auto.
        apply bare_left_iff; auto. intros p a ->. simpl in P1. tauto.
    + intros W q Hq. apply left_cpar in Hq. destruct Hq as [Hb Hq]. apply yields_infix.
      unfold paren_r in Hb. apply orb_false_iff in Hb. destruct Hb as [Hb _].
      rewrite <- bracketed_wrapped, W, andb_true_r in Hb. apply Z.ltb_ge in Hb.
      pose proof (left_pow e2 P2 q Hq). lia.
    + destruct (paren_l fp o (bps e1)) eqn:Hb; [exact I|]. cbn [cpar].
      unfold paren_l in Hb. apply orb_false_iff in Hb. destruct Hb as [Hb _]. apply Z.ltb_ge in Hb.
      destruct e1 as [c|x|p a|p l1 l2|es|d]; simpl; auto.
      * simpl in P1. destruct P1 as [P1|P1].
        -- rewrite (plain_cst _ P1). exact I.
        -- destruct (negative_cst _ P1) as (t & _ & _ & _ & ->). exact I.
      * destruct p; exact I.
      * unfold bps in Hb. cbn [ebp snd] in Hb. destruct p, o; cbn in Hb |- *; try discriminate; lia.
  - simpl in P, F. apply fold_and in P. apply fold_and in F. rewrite Forall_forall in *. cbn [cst_of grouped postfix_ordered].
    split; apply fold_and; rewrite Forall_map, Forall_forall; intros a Ha; apply (H a Ha); auto.
  - simpl in P, F. destruct P as [_ P]. apply fold_and in P. apply fold_and in F. rewrite Forall_forall in *. cbn [cst_of grouped postfix_ordered].
    split; apply fold_and; rewrite Forall_map, Forall_forall; intros p Hp; cbn [fst snd]; split; auto;
      try exact I; apply (H p Hp); try apply (P p Hp); apply (F p Hp).
Qed.
End Generic.
