(** The parser against the grammar: soundness and completeness for the parser's
    own comparisons ([good], [edge]), then the translation to [grouped]. *)
From Coq Require Import String Ascii NArith.
From Verif Require Import Outcome Num ExprModel ExprBase ParserModel ParserSpec ParserBase ParserProofs.
Open Scope nat_scope.
Open Scope string_scope.

Section Generic.
Context {K : Type} `{EN : ENum K}.
Notation expr := (expr K).
Variable read : string -> K.
Variable show : K -> string.
Notation pexpr := (pexpr read show).
Notation ptoken := (ptoken read show).
Notation ploop := (ploop read show).
Notation parr := (parr read show).
Notation pdict := (pdict read show).
Notation denote := (denote read).
Notation sentence := (sentence read).

(** States reached by the tokenizer hold a token. *)
Definition vs (s : pstate) : Prop := cur s = "" \/ is_token (cur s).
Lemma consume_vs s s1 : consume s = Ret s1 -> vs s1.
Proof.
  destruct s1 as [t r]. intros H. apply consume_sound in H. unfold vs, cur. simpl.
  destruct H as [(-> & _)|(_ & T & _)]; auto.
Qed.
Lemma adv_vs s s1 : adv s = Ret s1 -> vs s1.
Proof. apply consume_vs. Qed.
Lemma expect_vs t s s1 : expect t s = Ret s1 -> vs s1.
Proof. intros H. apply expect_ret in H. destruct H. eapply adv_vs; eauto. Qed.

Lemma token_number t : is_token t -> starts_digit t = true -> is_number t.
Proof.
  intros [N|[[Ne W]|Sy]] D; auto; exfalso.
  - destruct t as [|c u]; [congruence|]. simpl in *. apply isdigit_iff in D. eapply digit_letter; [apply D|tauto].
  - destruct (symbol_shape t Sy) as (c & [[-> _]|[-> ->]] & Dc & _); simpl in D; [congruence|discriminate].
Qed.

Lemma name_token t : t <> "" -> left_op t = None -> all_alpha t = true -> is_name t.
Proof.
  intros Ne L A. split; [split; auto; now apply all_alpha_iff|].
  simpl. intros H. repeat destruct H as [<-|H]; try discriminate. contradiction.
Qed.

Definition entry (p : cst * cst) : string * expr := (key_name (denote (fst p)), denote (snd p)).
Definition etok (p : cst * cst) : list string := (tokens (fst p) ++ ":" :: tokens (snd p))%list.

Lemma denote_dict d : denote (CDict d) = EDict (fold_left assign (map entry d) []).
Proof. reflexivity. Qed.

Lemma dset_assign x (v : expr) d : NoDup (map fst d) -> dset x v d = assign d (x, v).
Proof.
  unfold assign. cbn [fst]. induction d as [|[y w] d IH]; simpl; auto. intros H. inversion H; subst.
  destruct (String.eqb_spec x y) as [->|N]; simpl.
  - f_equal. clear -H2. induction d as [|[z u] d IH]; simpl; auto. simpl in H2.
    destruct (String.eqb_spec y z) as [->|]; [exfalso; apply H2; auto|]. f_equal. apply IH. tauto.
  - rewrite IH by auto. destruct (existsb (fun q => String.eqb x (fst q)) d); reflexivity.
Qed.

Lemma dset_keys x (v : expr) d : NoDup (map fst d) -> NoDup (map fst (dset x v d)).
Proof.
  assert (I : forall y d, In y (map fst (dset x v d)) -> y = x \/ In y (map fst d)).
  { intros y. induction d0 as [|[z u] d0 IH]; simpl; [intros [->|[]]; auto|].
    destruct (String.eqb_spec x z) as [->|]; simpl; [intros [->|?]; auto|]. intros [->|X]; auto. apply IH in X. tauto. }
  induction d as [|[y w] d IH]; simpl; intros H.
  - constructor; auto.
  - inversion H; subst. destruct (String.eqb_spec x y) as [->|N]; simpl; constructor; auto.
    intros X. apply I in X. destruct X as [->|X]; auto.
Qed.

Definition keyed (p : cst * cst) : Prop := exists x, denote (fst p) = EVar x.

Lemma sep_cons (x : list string) l : l <> [] -> sep (x :: l) = (x ++ "," :: sep l)%list.
Proof. destruct l; [congruence|reflexivity]. Qed.

(** The parts of a parse result. *)
Definition parsed (m : Z) (s : pstate) (e : expr) (s' : pstate) : Prop :=
  exists c b, steps s (tokens c) s' /\ denote c = e /\ sentence c /\ good m c /\
              nb (cur s') = Some b /\ edge c b /\ (b < m \/ Mx c < b)%Z.

Lemma stop_nb m M (s : pstate) :
  (cur s = "" \/ exists r, right_op (cur s) = Some r /\ (rop_lbp r < m \/ M < rop_lbp r)%Z) -> (0 <= m)%Z ->
  exists b, nb (cur s) = Some b /\ (b < m \/ M < b)%Z.
Proof.
  intros H Hm. unfold nb. destruct (String.eqb_spec (cur s) "") as [E|N].
  - exists (-1)%Z. split; auto. left; lia.
  - destruct H as [H|(r & -> & H)]; [congruence|]. simpl. eauto.
Qed.

Lemma sound n :
  (forall m s e s', (0 <= m)%Z -> vs s -> pexpr n m s = Ret (e, s') -> parsed m s e s') /\
  (forall s e s', vs s -> ptoken n s = Ret (e, s') ->
     exists c, steps s (tokens c) s' /\ denote c = e /\ sentence c /\ (forall m, good m c) /\
               Mx c = INT_MAX /\ (forall b, nb (cur s') = Some b -> edge c b)) /\
  (forall m M t s e s', (0 <= m)%Z -> ploop n m M t s = Ret (e, s') ->
     forall s0 c, steps s0 (tokens c) s -> denote c = t -> sentence c -> good m c -> Mx c = M ->
       (forall b, nb (cur s) = Some b -> edge c b) -> parsed m s0 e s') /\
  (forall acc s e s', vs s -> parr n acc s = Ret (e, s') ->
     exists cs, cs <> [] /\ steps s (sep (map tokens cs) ++ ["]"])%list s' /\
                e = EArr (acc ++ map denote cs)%list /\ Forall sentence cs /\ Forall (good 0) cs) /\
  (forall acc s e s', vs s -> NoDup (map fst acc) -> pdict n acc s = Ret (e, s') ->
     exists ds, ds <> [] /\ steps s (sep (map etok ds) ++ ["}"])%list s' /\
                e = EDict (fold_left assign (map entry ds) acc) /\
                Forall (fun p => sentence (fst p) /\ sentence (snd p) /\ keyed p) ds /\
                Forall (fun p => good 0 (fst p) /\ good 0 (snd p)) ds).
Proof.
  induction n as [|n (IHe & IHt & IHl & IHa & IHd)].
  { repeat split; intros; discriminate. }
  repeat split; intros.
  - (* pexpr *)
    cbn [ParserModel.pexpr] in H1. apply obind_ret in H1. destruct H1 as ([t s1] & T & L).
    cbn [fst snd] in L. apply IHt in T; auto.
    destruct T as (c & St & D & Se & G & Mc & Ed).
    eapply IHl; eauto.
  - (* ptoken *)
    cbn [ParserModel.ptoken] in H0. apply obind_ret in H0. destruct H0 as (s1 & A & H0).
    destruct (String.eqb_spec (cur s) "") as [|Ne]; [discriminate|].
    destruct H as [|Tk]; [congruence|].
    destruct (starts_digit (cur s)) eqn:Dg.
    { injection H0 as <- <-. exists (CNum (cur s)). simpl. split; [apply steps_one; auto|].
      repeat split; auto. now apply token_number. }
    pose proof (adv_vs _ _ A) as V1.
    destruct (left_op (cur s)) as [l|] eqn:Lo.
    + pose proof (left_op_cases _ _ Lo) as Lc.
      destruct l as [| | | | |o].
      * assert (cur s = "+") by (destruct Lc as [[_ ?]|[[? _]|[[? _]|[[? _]|[[? _]|(? & ? & _)]]]]]; congruence).
        apply IHe in H0; [|rewrite sign_bp_val; lia|auto].
        destruct H0 as (c & b & St & D & Se & G & Nb & Ed & Sp).
        exists (CPos c). simpl. split; [rewrite <- H; econstructor; eauto|].
        split; [auto|]. split; [auto|]. split; [auto|]. split; [auto|].
        intros b0 Hb; assert (b0 = b) by congruence; subst; auto.
      * assert (cur s = "-") by (destruct Lc as [[? _]|[[_ ?]|[[? _]|[[? _]|[[? _]|(? & ? & _)]]]]]; congruence).
        apply obind_ret in H0. destruct H0 as ([a s2] & H0 & R). cbn [fst snd] in R. injection R as <- <-.
        apply IHe in H0; [|rewrite sign_bp_val; lia|auto].
        destruct H0 as (c & b & St & D & Se & G & Nb & Ed & Sp).
        exists (CNeg c). simpl. split; [rewrite <- H; econstructor; eauto|].
        split; [unfold negated; rewrite D; destruct a; reflexivity|].
        split; [auto|]. split; [auto|]. split; [auto|].
        intros b0 Hb; assert (b0 = b) by congruence; subst; auto.
      * assert (cur s = "(") by (destruct Lc as [[? _]|[[? _]|[[_ ?]|[[? _]|[[? _]|(? & ? & _)]]]]]; congruence).
        apply obind_ret in H0. destruct H0 as ([a s2] & H0 & R).
        apply obind_ret in R. destruct R as (s3 & X & R). cbn [fst snd] in *. injection R as <- <-.
        apply expect_ret in X. destruct X as [X1 X2].
        apply IHe in H0; [|lia|auto].
        destruct H0 as (c & b & St & D & Se & G & Nb & Ed & Sp).
        exists (CPar c). simpl. split.
        { rewrite <- H. econstructor; eauto. eapply steps_app; eauto. rewrite <- X1. apply steps_one; auto.
          rewrite X1; discriminate. }
        repeat split; auto.
      * assert (cur s = "[") by (destruct Lc as [[? _]|[[? _]|[[? _]|[[_ ?]|[[? _]|(? & ? & _)]]]]]; congruence).
        destruct (String.eqb_spec (cur s1) "]") as [E1|N1].
        -- apply obind_ret in H0. destruct H0 as (s2 & A2 & R). injection R as <- <-.
           exists (CArr []). simpl. split; [|repeat split; auto].
           rewrite <- H. econstructor; eauto. rewrite <- E1. apply steps_one; auto. rewrite E1; discriminate.
        -- apply IHa in H0; auto. destruct H0 as (cs & Nc & St & -> & Fs & Fg).
           exists (CArr cs). simpl. split; [rewrite <- H; econstructor; eauto|].
           split; [reflexivity|]. split; [now apply fold_and|]. split; [intros m; now apply fold_and|auto].
      * assert (cur s = "{") by (destruct Lc as [[? _]|[[? _]|[[? _]|[[? _]|[[_ ?]|(? & ? & _)]]]]]; congruence).
        destruct (String.eqb_spec (cur s1) "}") as [E1|N1].
        -- apply obind_ret in H0. destruct H0 as (s2 & A2 & R). injection R as <- <-.
           exists (CDict []). simpl. split; [|repeat split; auto].
           rewrite <- H. econstructor; eauto. rewrite <- E1. apply steps_one; auto. rewrite E1; discriminate.
        -- apply IHd in H0; auto; [|constructor]. destruct H0 as (ds & Nc & St & -> & Fs & Fg).
           exists (CDict ds). split; [cbn [tokens]; rewrite <- H; econstructor; eauto|].
           split; [reflexivity|]. split; [cbn [ParserSpec.sentence]; now apply fold_and|].
           split; [intros m; cbn [good]; now apply fold_and|]. split; [reflexivity|]. intros; exact I.
      * assert (fun_name o = Some (cur s)).
        { destruct Lc as [[? _]|[[? _]|[[? _]|[[? _]|[[? _]|(? & ? & ?)]]]]]; congruence. }
        apply obind_ret in H0. destruct H0 as ([a s2] & H0 & R). cbn [fst snd] in R. injection R as <- <-.
        apply IHe in H0; [|rewrite imax_val; lia|auto].
        destruct H0 as (c & b & St & D & Se & G & Nb & Ed & Sp).
        exists (CFun o c). simpl. split; [unfold fun_tok; rewrite H; econstructor; eauto|].
        split; [congruence|]. split; [split; [congruence|auto]|]. split; [auto|]. split; [auto|].
        intros; assert (b0 = b) by congruence; subst; auto.
    + destruct (all_alpha (cur s)) eqn:Al; [|discriminate]. injection H0 as <- <-.
      exists (CVar (cur s)). simpl. split; [apply steps_one; auto|].
      split; auto. split; [now apply name_token|]. auto.
  - (* ploop *)
    cbn [ParserModel.ploop] in H0.
    destruct (String.eqb_spec (cur s) "") as [E|Ne].
    { injection H0 as <- <-. destruct (stop_nb m M s (or_introl E) H) as (b & Nb & Sb).
      exists c, b. repeat split; auto. congruence. }
    destruct (right_op (cur s)) as [r|] eqn:Ro; [|discriminate].
    destruct (Z.ltb_spec (rop_lbp r) m) as [L1|L1].
    { cbn [orb] in H0. injection H0 as <- <-.
      destruct (stop_nb m M s) as (b & Nb & Sb); eauto.
      exists c, b. repeat split; auto. congruence. }
    destruct (Z.ltb_spec M (rop_lbp r)) as [L2|L2]; cbn [orb] in H0.
    { injection H0 as <- <-. destruct (stop_nb m M s) as (b & Nb & Sb); eauto.
      exists c, b. repeat split; auto. congruence. }
    apply obind_ret in H0. destruct H0 as (s1 & A & H0). pose proof (adv_vs _ _ A) as V1.
    destruct r as [o|]; [|discriminate]. cbn [rop_lbp] in *.
    apply right_op_cases in Ro. destruct Ro as [(o' & [= <-] & Eo)|(? & _)]; [|discriminate].
    assert (El : edge c (lbp o)). { apply H6. rewrite Eo. apply nb_op. }
    destruct (wrapped o) eqn:W.
    + apply obind_ret in H0. destruct H0 as ([e1 s2] & P & H0). cbn [fst snd] in H0.
      apply obind_ret in H0. destruct H0 as (s3 & X & H0). apply expect_ret in X. destruct X as [X1 X2].
      apply IHe in P; [|lia|auto]. destruct P as (c1 & b & St & D & Se & G & Nb & Ed & Sp).
      eapply (IHl _ _ _ _ _ _ H H0 s0 (CBin o c c1)); simpl.
      * eapply steps_app; eauto. rewrite <- Eo. econstructor; eauto. eapply steps_app; eauto.
        destruct o; try discriminate; cbn [close_tok]; simpl in X1; rewrite <- X1; apply steps_one; auto;
          rewrite X1; discriminate.
      * congruence.
      * auto.
      * unfold rlev. rewrite W. repeat split; auto; try lia; congruence.
      * reflexivity.
      * intros b0 _. congruence.
    + apply obind_ret in H0. destruct H0 as ([e1 s2] & P & H0). cbn [fst snd] in H0.
      apply IHe in P; [|pose proof (rbp_pos o); lia|auto].
      destruct P as (c1 & b & St & D & Se & G & Nb & Ed & Sp).
      eapply (IHl _ _ _ _ _ _ H H0 s0 (CBin o c c1)); simpl.
      * eapply steps_app; eauto. rewrite <- Eo. econstructor; eauto.
        destruct o; try discriminate; cbn [close_tok]; rewrite app_nil_r; auto.
      * congruence.
      * auto.
      * unfold rlev. rewrite W. repeat split; auto; try lia; congruence.
      * reflexivity.
      * intros b0 Hb _. assert (b0 = b) by congruence. subst. auto.
  - (* parr *)
    cbn [ParserModel.parr] in H0. apply obind_ret in H0. destruct H0 as ([e1 s1] & P & H0). cbn [fst snd] in H0.
    apply IHe in P; [|lia|auto]. destruct P as (c & b & St & D & Se & G & Nb & Ed & Sp).
    destruct (String.eqb_spec (cur s1) "]") as [E1|N1].
    + apply obind_ret in H0. destruct H0 as (s2 & X & R). injection R as <- <-.
      apply expect_ret in X. destruct X as [X1 X2].
      exists [c]. split; [discriminate|]. split.
      { simpl. eapply steps_app; eauto. rewrite <- X1. apply steps_one; auto. rewrite X1; discriminate. }
      split; [simpl; congruence|]. split; repeat constructor; auto.
    + apply obind_ret in H0. destruct H0 as (s2 & X & R). pose proof (expect_vs _ _ _ X) as V2.
      apply expect_ret in X. destruct X as [X1 X2].
      apply IHa in R; auto. destruct R as (cs & Nc & St2 & -> & Fs & Fg).
      exists (c :: cs). split; [discriminate|]. split.
      { cbn [map]. rewrite sep_cons by (destruct cs; [congruence|discriminate]).
        rewrite <- app_assoc. cbn [app]. eapply steps_app; eauto. rewrite <- X1. econstructor; eauto.
        rewrite X1; discriminate. }
      split; [cbn [map]; rewrite <- app_assoc; simpl; congruence|]. split; constructor; auto.
  - (* pdict *)
    cbn [ParserModel.pdict] in H1. apply obind_ret in H1. destruct H1 as ([k s1] & P & H1). cbn [fst snd] in H1.
    apply IHe in P; [|lia|auto]. destruct P as (c & b & St & D & Se & G & Nb & Ed & Sp).
    assert (Z0 : forall k, ((do _m <- repr show false k; Throw) : outcome (expr * pstate)) <> Ret (e, s')).
    { intros k0 E0. apply obind_ret in E0. destruct E0 as (? & _ & ?). discriminate. }
    destruct k as [kk|x|o a|o l r|es|d]; try (exfalso; eapply Z0; apply H1).
    apply obind_ret in H1. destruct H1 as (s2 & X & H1). pose proof (expect_vs _ _ _ X) as V2.
    apply expect_ret in X. destruct X as [X1 X2].
    apply obind_ret in H1. destruct H1 as ([v s3] & P & H1). cbn [fst snd] in H1.
    apply IHe in P; [|lia|auto]. destruct P as (c' & b' & St' & D' & Se' & G' & Nb' & Ed' & Sp').
    assert (Et : steps s (etok (c, c')) s3).
    { unfold etok. cbn [fst snd]. eapply steps_app; eauto. rewrite <- X1. econstructor; eauto.
      rewrite X1; discriminate. }
    assert (En : entry (c, c') = (x, v)) by (unfold entry; cbn [fst snd]; rewrite D, D'; reflexivity).
    destruct (String.eqb_spec (cur s3) "}") as [E1|N1].
    + apply obind_ret in H1. destruct H1 as (s4 & Y & R). injection R as <- <-.
      apply expect_ret in Y. destruct Y as [Y1 Y2].
      exists [(c, c')]. split; [discriminate|]. split.
      { cbn [map sep]. eapply steps_app; eauto. rewrite <- Y1. apply steps_one; auto. rewrite Y1; discriminate. }
      split; [cbn [map fold_left]; rewrite En, dset_assign by auto; reflexivity|].
      split; constructor; auto. cbn [fst snd]. repeat split; auto. exists x; auto.
    + apply obind_ret in H1. destruct H1 as (s4 & Y & R). pose proof (expect_vs _ _ _ Y) as V4.
      apply expect_ret in Y. destruct Y as [Y1 Y2].
      apply IHd in R; auto; [|now apply dset_keys]. destruct R as (cs & Nc & St2 & -> & Fs & Fg).
      exists ((c, c') :: cs). split; [discriminate|]. split.
      { cbn [map]. rewrite sep_cons by (destruct cs; [congruence|discriminate]).
        rewrite <- app_assoc. cbn [app]. eapply steps_app; eauto. rewrite <- Y1. econstructor; eauto.
        rewrite Y1; discriminate. }
      split; [cbn [map fold_left]; rewrite En, dset_assign by auto; reflexivity|].
      split; constructor; auto. cbn [fst snd]. repeat split; auto. exists x; auto.
Qed.
End Generic.
