(** C65: the LaTeX form. *)
From Coq Require Import String Ascii NArith ZArith List Bool Lia.
From Verif Require Import Outcome Num ExprModel ExprBase ParserModel ParserSpec ParserBase ParserProofs ParserSound ParserComplete ReprProofs StringModel PropString
  LatexModel LatexSpec.
Import ListNotations.
Open Scope nat_scope.
Open Scope string_scope.

(** ** Numbers *)
Notation LA := list_ascii_of_string.
Lemma la_app a b : LA (a ++ b) = (LA a ++ LA b)%list.
Proof. induction a; simpl; congruence. Qed.
Lemma all_chars_in p s : all_chars p s -> forall c, In c (LA s) -> p c.
Proof. induction s; simpl; [tauto|]. intros [H1 H2] c [<-|H]; auto. Qed.

Lemma no_e s p : all_chars p s -> ~ p "e"%char -> ~ In "e"%char (LA s).
Proof. intros A N I. apply N. eapply all_chars_in; eauto. Qed.
Lemma mantissa_no_e m : mantissa m -> ~ In "e"%char (LA m).
Proof.
  intros [_ A]. eapply no_e; eauto. unfold digit. cbn. intros [X|[X|X]]; [lia|discriminate|discriminate].
Qed.
Lemma exp_no_e d : exponent_digits d -> ~ In "e"%char (LA d).
Proof. intros A. eapply no_e; eauto. unfold digit. cbn. lia. Qed.

Lemma split_once {A} (x : A) a b q r : ~ In x a -> ~ In x b -> (a ++ x :: b = q ++ x :: r)%list -> q = a /\ r = b.
Proof.
  revert q. induction a as [|y a IH]; intros [|z q] Ha Hb E; simpl in *.
  - injection E as ->. auto.
  - injection E as <- E. exfalso. apply Hb. rewrite E. apply in_or_app. right. left. auto.
  - injection E as -> E. exfalso. apply Ha. auto.
  - injection E as -> E. destruct (IH q) as [-> ->]; auto.
Qed.

Lemma replace_in_spec t from to out n : from <> "" -> replaced (LA from) (LA to) (LA t) out n ->
  replace_in t from to = Ret (string_of_list_ascii out, n).
Proof.
  intros F R. unfold replace_in.
  destruct (C29_search_replace ascii Ascii.eqb Ascii.eqb_eq (LA t) (LA from) (LA to) (S (length (LA t)))) as (o & k & E & _ & U).
  - destruct from; [congruence|discriminate].
  - lia.
  - destruct (U out n R) as [-> ->]. rewrite E. reflexivity.
Qed.
Lemma replace_none t c from to : ~ In c (LA t) -> replace_in t (String c from) to = Ret (t, 0).
Proof.
  intros H. rewrite (replace_in_spec t (String c from) to (LA t) 0); [|discriminate|].
  - now rewrite string_of_list_ascii_of_string.
  - constructor. intros q r E. apply H. rewrite E. apply in_or_app. right. left. auto.
Qed.
Lemma replace_one m c from d to : ~ In c (LA m) -> ~ In c (LA (from ++ d)) ->
  replace_in (m ++ String c from ++ d) (String c from) to = Ret (m ++ to ++ d, 1).
Proof.
  intros Hm Hd. rewrite (replace_in_spec _ _ _ (LA m ++ LA to ++ LA d) 1); [|discriminate|].
  - f_equal. f_equal. rewrite <- !la_app. apply string_of_list_ascii_of_string.
  - rewrite !la_app in *. apply rep_some with (rest := LA d).
    + split; auto. intros q r E. cbn [list_ascii_of_string app] in E.
      apply split_once in E; auto. destruct E as [-> _]. auto.
    + constructor. intros q r E. apply Hd. apply in_or_app. right. rewrite E. apply in_or_app. right. left. auto.
Qed.

Lemma latex_number_plain m : mantissa m -> latex_number m = Ret m.
Proof.
  intros M. apply mantissa_no_e in M. unfold latex_number. rewrite !replace_none by auto. reflexivity.
Qed.
Lemma latex_number_plus m d : mantissa m -> exponent_digits d ->
  latex_number (m ++ "e+" ++ d) = Ret (m ++ "\times10^{" ++ d ++ "}").
Proof.
  intros M D. apply mantissa_no_e in M. apply exp_no_e in D. unfold latex_number.
  rewrite (replace_one m "e" "+" d latex_exponent); auto.
  - cbn [obind snd fst Nat.eqb negb]. now rewrite !sapp_assoc.
  - simpl. intros [X|X]; [discriminate|auto].
Qed.
Lemma latex_number_minus m d : mantissa m -> exponent_digits d ->
  latex_number (m ++ "e-" ++ d) = Ret (m ++ "\times10^{-" ++ d ++ "}").
Proof.
  intros M D. apply mantissa_no_e in M. apply exp_no_e in D. unfold latex_number.
  rewrite (replace_in_spec (m ++ "e-" ++ d) "e+" latex_exponent (LA (m ++ "e-" ++ d)) 0); [|discriminate|].
  - cbn [obind snd Nat.eqb negb].
    pose proof (replace_one m "e" "" ("-" ++ d) latex_exponent) as R. cbn [append] in R.
    cbn [append]. rewrite R; auto.
    + cbn [obind snd fst Nat.eqb negb]. now rewrite !sapp_assoc.
    + simpl. intros [X|X]; [discriminate|auto].
  - constructor. intros q r E. rewrite !la_app in E.
    cbn [list_ascii_of_string app] in E. apply split_once in E; auto.
    + destruct E as [_ E]. discriminate.
    + simpl. intros [X|X]; [discriminate|auto].
Qed.

(** ** Tokens *)
Lemma lex_app a b m : lex m (a ++ b) =
  ((fst (lex m a) ++ fst (lex (snd (lex m a)) b))%list, snd (lex (snd (lex m a)) b)).
Proof.
  revert m. induction a as [|c a IH]; intros m; cbn [append lex fst snd app]; [now destruct (lex m b)|].
  destruct (lex1 m c) as [t m1]. rewrite IH. destruct (lex m1 a) as [u m2]. cbn [fst snd].
  now rewrite app_assoc.
Qed.

Definition lexes (s : string) (ts : list ltok) : Prop := lex Normal s = (ts, Normal).
Lemma lexes_app a b ta tb : lexes a ta -> lexes b tb -> lexes (a ++ b) (ta ++ tb).
Proof. unfold lexes. intros A B. rewrite lex_app, A. cbn [fst snd]. now rewrite B. Qed.
Lemma lexes_nil : lexes "" []. Proof. reflexivity. Qed.

Definition chars (s : string) : list ltok := map Ch (LA s).
Lemma lexes_chars s : all_chars (fun c => c <> backslash) s -> lexes s (chars s).
Proof.
  unfold lexes, chars. induction s as [|c s IH]; simpl; [auto|]. intros [H1 H2].
  apply Ascii.eqb_neq in H1. rewrite H1, IH by auto. reflexivity.
Qed.

(** ** Formulas *)
Lemma formula_app b a c r d : formula b a c -> formula c r d -> formula b (a ++ r) d.
Proof.
  intros A R. revert d R. induction A; intros; cbn [app]; auto.
  - apply F_blank; auto.
  - apply F_char; auto.
  - apply F_command; auto.
  - rewrite <- app_assoc. cbn [app]. eapply F_group; eauto.
  - rewrite <- app_assoc. cbn [app]. eapply F_mathrm; eauto.
  - rewrite <- app_assoc. cbn [app]. rewrite <- app_assoc. cbn [app]. eapply F_frac; eauto.
  - rewrite <- app_assoc. cbn [app]. eapply F_left_right; eauto.
  - rewrite <- app_assoc. cbn [app]. eapply F_superscript; eauto.
Qed.

Lemma ordinary_range c : (48 <= N_of_ascii c <= 57)%N \/ (65 <= N_of_ascii c <= 90)%N \/ (97 <= N_of_ascii c <= 122)%N ->
  ordinary c.
Proof.
  intros H I. simpl in I. repeat destruct I as [<-|I]; try contradiction; cbn in H; lia.
Qed.
Lemma formula_chars s b : s <> "" -> all_chars ordinary s -> formula b (chars s) false.
Proof.
  unfold chars. revert b. induction s as [|c s IH]; intros b Hs H; [congruence|]. simpl in *. destruct H as [H1 H2].
  apply F_char; auto. destruct s as [|c2 s]; [constructor|]. apply IH; [discriminate|auto].
Qed.
Lemma formula_chars0 s : all_chars ordinary s -> formula false (chars s) false.
Proof. destruct s; [constructor|]. intros. apply formula_chars; auto. discriminate. Qed.
Lemma all_chars_mono (p q : ascii -> Prop) s : (forall c, p c -> q c) -> all_chars p s -> all_chars q s.
Proof. intros H. induction s; simpl; auto. intros [? ?]; auto. Qed.
Lemma ordinary_not_bs c : ordinary c -> c <> backslash.
Proof. intros H ->. apply H. left. reflexivity. Qed.
Lemma letter_ordinary c : letter c -> ordinary c.
Proof. unfold letter. intros H. apply ordinary_range. tauto. Qed.
Lemma digit_ordinary c : digit c -> ordinary c.
Proof. unfold digit. intros H. apply ordinary_range. tauto. Qed.
Lemma mantissa_ordinary m : mantissa m -> all_chars ordinary m.
Proof.
  intros [_ A]. eapply all_chars_mono; [|exact A]. intros c [D| [-> | ->]]; [now apply digit_ordinary| |];
    intros I; simpl in I; repeat destruct I as [X|I]; try discriminate; contradiction.
Qed.

(** The text [s] is a piece of a formula, with a superscript at its end or not. *)
Definition piece (s : string) (b : bool) : Prop := exists ts, lexes s ts /\ formula false ts b.
Definition starts_plain (s : string) : Prop :=
  match s with String c _ => is_letter c = false /\ c <> " "%char | "" => False end.

Lemma lex_word_plain w s ts : starts_plain s -> lexes s ts -> lex (Word w) s = (CW w :: ts, Normal).
Proof.
  destruct s as [|c s]; simpl; [tauto|]. intros [L B] H. unfold lexes in H. cbn [lex lex1] in *.
  rewrite L. apply Ascii.eqb_neq in B. rewrite B. destruct (Ascii.eqb c backslash).
  - destruct (lex Esc s) as [u m]. cbn [app] in *. injection H as -> ->. reflexivity.
  - destruct (lex Normal s) as [u m]. cbn [app] in *. injection H as <- ->. reflexivity.
Qed.

Lemma F_cons_ord c ts b b' : ordinary c -> formula false ts b' -> formula b (Ch c :: ts) b'.
Proof. apply F_char. Qed.
Ltac ord := let I := fresh in intros I; simpl in I; repeat destruct I as [I|I]; try discriminate; contradiction.

Lemma wrap_piece s b : piece s b -> piece ("\left(" ++ s ++ "\right)") false.
Proof.
  intros (ts & L & F). exists (CW "left" :: Ch "(" :: ts ++ CW "right" :: Ch ")" :: [])%list. split.
  - change (CW "left" :: Ch "(" :: ts ++ [CW "right"; Ch ")"])%list with ([CW "left"; Ch "("] ++ ts ++ [CW "right"; Ch ")"])%list.
    apply lexes_app; [reflexivity|]. apply lexes_app; [auto|reflexivity].
  - eapply F_left_right; eauto; [simpl; tauto|simpl; tauto|constructor].
Qed.
Lemma paren_piece p s b : piece s b -> exists b', piece (latex_paren p s) b' /\ (p = true -> b' = false) /\ (p = false -> b' = b).
Proof.
  destruct p; intros H.
  - exists false. split; [now apply wrap_piece with b|]. split; [auto|discriminate].
  - exists b. split; auto. split; [discriminate|auto].
Qed.
Lemma starts_wrap s : starts_plain ("\left(" ++ s).
Proof. split; [reflexivity|discriminate]. Qed.

(** pieces of the templates *)
Lemma piece_app a ta s b b' : lexes a ta -> formula false ta b' -> piece s b -> b' = false -> piece (a ++ s) b.
Proof.
  intros L F (ts & Ls & Fs) ->. exists (ta ++ ts)%list. split; [now apply lexes_app|]. eapply formula_app; eauto.
Qed.
Lemma piece_cat a ta s b1 b2 : piece s b1 -> lexes a ta -> formula b1 ta b2 -> piece (s ++ a) b2.
Proof.
  intros (ts & Ls & Fs) L F. exists (ts ++ ta)%list. split; [now apply lexes_app|]. eapply formula_app; eauto.
Qed.
Lemma piece_op s1 b1 op top s2 b2 : piece s1 b1 -> piece s2 b2 -> lexes op top -> formula b1 top false ->
  piece (s1 ++ op ++ s2) b2.
Proof.
  intros (t1 & L1 & F1) (t2 & L2 & F2) L F. exists (t1 ++ top ++ t2)%list. split.
  - apply lexes_app; auto. now apply lexes_app.
  - eapply formula_app; eauto. eapply formula_app; eauto.
Qed.

Section Main.
Context {K : Type}.
Notation expr := (expr K).
Variable show : K -> string.
Variable fp : bool.
Notation bps := (bps (K := K)).

Lemma number_piece c : g_format (show c) -> exists s b, latex_number (show c) = Ret s /\ piece s b /\
  (b = true <-> ~ mantissa (show c)) /\ starts_plain s.
Proof.
  assert (St : forall m r, mantissa m -> starts_plain (m ++ r)).
  { intros m r [Hn A]. destruct m as [|h m]; [congruence|]. simpl in A |- *. destruct A as [[D| [-> | ->]] _];
      [|split; [reflexivity|discriminate]|split; [reflexivity|discriminate]].
    unfold digit in D. split; [|intros ->; cbn in D; lia].
    unfold is_letter. apply orb_false_iff. split; apply andb_false_iff; left; apply N.leb_gt; lia. }
  assert (Pm : forall m, mantissa m -> piece m false).
  { intros m M. pose proof (mantissa_ordinary m M) as O. exists (chars m). split.
    - apply lexes_chars. eapply all_chars_mono; [|exact O]. apply ordinary_not_bs.
    - apply formula_chars0; auto. }
  assert (Ex : forall m e, mantissa m -> all_chars ordinary e -> piece (m ++ "\times10^{" ++ e ++ "}") true).
  { intros m e M O. destruct (Pm m M) as (tm & Lm & Fm).
    exists (tm ++ [CW "times"; Ch "1"; Ch "0"; Ch "^"; Ch "{"] ++ chars e ++ [Ch "}"])%list. split.
    - apply lexes_app; auto. apply lexes_app; [reflexivity|]. apply lexes_app; [|reflexivity].
      apply lexes_chars. eapply all_chars_mono; [|exact O]. apply ordinary_not_bs.
    - eapply formula_app; eauto. cbn [app]. apply F_command; [simpl; tauto|].
      apply F_char; [ord|]. apply F_char; [ord|]. eapply F_superscript; [now apply formula_chars0|constructor]. }
  intros G. destruct G as [m M|m d M D|m d M D].
  - exists m, false. rewrite latex_number_plain by auto. split; auto. split; auto. split; [split; [discriminate|tauto]|].
    rewrite <- (sapp_nil_r m). auto.
  - eexists; exists true. rewrite latex_number_plus by auto. split; [reflexivity|]. split; [|split; auto].
    + apply Ex; auto. eapply all_chars_mono; [|exact D]. apply digit_ordinary.
    + split; auto. intros _ M'. apply mantissa_no_e in M'. apply M'. rewrite la_app. apply in_or_app. right. simpl. auto.
  - eexists; exists true. rewrite latex_number_minus by auto. split; [reflexivity|]. split; [|split; auto].
    + change ("\times10^{-" ++ d ++ "}") with ("\times10^{" ++ ("-" ++ d) ++ "}"). apply Ex; auto. simpl. split; [ord|].
      eapply all_chars_mono; [|exact D]. apply digit_ordinary.
    + split; auto. intros _ M'. apply mantissa_no_e in M'. apply M'. rewrite la_app. apply in_or_app. right. simpl. auto.
Qed.

Lemma word_piece x : is_word x -> piece x false.
Proof.
  intros [Hn A]. exists (chars x). split.
  - apply lexes_chars. eapply all_chars_mono; [|exact A]. intros c H. now apply ordinary_not_bs, letter_ordinary.
  - apply formula_chars0. eapply all_chars_mono; [|exact A]. apply letter_ordinary.
Qed.

Lemma join_piece ss : Forall (fun s => exists b, piece s b) ss -> exists b, piece (join_comma ss) b.
Proof.
  induction 1 as [|s ss (b & P) Hs (b' & IH)]; [exists false, []; split; [reflexivity|constructor]|].
  destruct ss as [|s2 ss]; [now exists b|].
  exists b'. change (join_comma (s :: s2 :: ss)) with (s ++ ", " ++ join_comma (s2 :: ss)).
  apply piece_op with (b1 := b) (top := [Ch ","; Ch " "]); auto.
  - reflexivity.
  - apply F_char; [ord|]. apply F_blank. constructor.
Qed.

Lemma delim_piece l r d1 d2 s b : lexes l [CW "left"; d1] -> lexes r [CW "right"; d2] -> In d1 delimiters -> In d2 delimiters ->
  piece s b -> exists ts, lexes (l ++ s ++ r) ts /\ forall b0, formula b0 ts false.
Proof.
  intros Ll Lr I1 I2 (ts & Ls & Fs). exists ([CW "left"; d1] ++ ts ++ [CW "right"; d2])%list. split.
  - apply lexes_app; auto. now apply lexes_app.
  - intros b0. cbn [app]. eapply F_left_right; eauto. constructor.
Qed.
Ltac delim l r P t L G := pose proof (delim_piece l r _ _ _ _ eq_refl eq_refl ltac:(simpl; tauto) ltac:(simpl; tauto) P) as (t & L & G).

Definition latex_inv (e : expr) : Prop :=
  exists s b, latex_repr show fp e = Ret s /\ piece s b /\
    ((b = true -> superscripted show e \/ (snd (bps e) < 40)%Z) /\ (fp = false -> superscripted show e -> b = true)) /\
    ((71 <= fst (bps e))%Z -> is_variable e \/ starts_plain s).

Lemma latex_fine e : fine show fp e -> latex_inv e.
Proof.
  induction e using expr_ind'; intros Fe; simpl in Fe.
  - destruct (number_piece c Fe) as (s & b & E & P & B & St). exists s, b. split; [exact E|]. split; auto.
    split; [|right; auto]. split; [intros Hb; left; apply B; auto|intros _ Hs; apply B; exact Hs].
  - exists x, false. split; [reflexivity|]. split; [now apply word_piece|]. split; [split; [discriminate|intros _ Hs; simpl in Hs; tauto]|]. left. exact I.
  - destruct Fe as (Nl & Nd & Fa). destruct (IHe Fa) as (s & b & E & P & [B Bc] & St).
    unfold latex_inv. cbn [latex_repr]. rewrite E, (ebp_bps e Nd). cbn [obind].
    destruct (paren_piece (paren_u fp o (bps e)) s b P) as (b' & P' & T1 & T2).
    destruct o; cbn [un_latex_l un_latex_r]; rewrite ?sapp_nil_r.
    + eexists; exists b'. split; [reflexivity|]. split; [|split].
      * eapply (piece_app "\sin " [CW "sin"]); eauto; [reflexivity|]. apply F_command; [simpl; tauto|constructor].
      * split.
        2:{ intros Ef Hs. simpl in Hs. destruct e as [k|k|k1 k2|k1 k2 k3|k|k]; simpl in Hs; try contradiction.
            rewrite T2; [apply Bc; auto|]. rewrite Ef. reflexivity. }
        intros ->. left. simpl. destruct (paren_u fp USin (bps e)) eqn:Pu; [specialize (T1 eq_refl); discriminate|].
        specialize (T2 eq_refl). subst b. unfold paren_u in Pu. apply orb_false_iff in Pu. destruct Pu as [Pu _].
        apply Z.ltb_ge in Pu. destruct e; simpl in *; auto; try (unfold INT_MAX in Pu; lia);
          try (destruct o; simpl in Pu; unfold INT_MAX in Pu; lia);
          destruct (B eq_refl) as [X|X]; simpl in X; try tauto; unfold INT_MAX in *; try lia.
      * simpl. lia.
    + eexists; exists b'. split; [reflexivity|]. split; [|split].
      * eapply (piece_app "\cos " [CW "cos"]); eauto; [reflexivity|]. apply F_command; [simpl; tauto|constructor].
      * split.
        2:{ intros Ef Hs. simpl in Hs. destruct e as [k|k|k1 k2|k1 k2 k3|k|k]; simpl in Hs; try contradiction.
            rewrite T2; [apply Bc; auto|]. rewrite Ef. reflexivity. }
        intros ->. left. simpl. destruct (paren_u fp UCos (bps e)) eqn:Pu; [specialize (T1 eq_refl); discriminate|].
        specialize (T2 eq_refl). subst b. unfold paren_u in Pu. apply orb_false_iff in Pu. destruct Pu as [Pu _].
        apply Z.ltb_ge in Pu. destruct e; simpl in *; auto; try (unfold INT_MAX in Pu; lia);
          try (destruct o; simpl in Pu; unfold INT_MAX in Pu; lia);
          destruct (B eq_refl) as [X|X]; simpl in X; try tauto; unfold INT_MAX in *; try lia.
      * simpl. lia.
    + congruence.
    + eexists; exists true. split; [reflexivity|]. split; [|split].
      * destruct P' as (ts & Ls & Fs). exists ([CW "mathrm"; Ch "{"; Ch "e"; Ch "}"; Ch "^"; Ch "{"] ++ ts ++ [Ch "}"])%list. split.
        -- apply lexes_app; [reflexivity|]. apply lexes_app; [auto|reflexivity].
        -- cbn [app]. apply (F_mathrm false [Ch "e"] false). { apply F_char; [ord|constructor]. }
           eapply F_superscript; eauto. constructor.
      * split; [intros _; left; exact I|auto].
      * simpl. lia.
    + eexists; exists false. split; [reflexivity|]. split; [|split; [split; [discriminate|intros _ Hs; simpl in Hs; tauto]|simpl; lia]].
      delim "\left|" "\right|" P' ts L F. exists ts. split; [exact L|apply F].
    + eexists; exists false. split; [reflexivity|]. split; [|split; [split; [discriminate|intros _ Hs; simpl in Hs; tauto]|simpl; lia]].
      delim "\left|" "\right|" P' ts Ls Fs.
      exists (CW "pm" :: ts). split; [|apply F_command; [simpl; tauto|auto]].
      unfold lexes. set (t := "\left|" ++ latex_paren (paren_u fp UArb (bps e)) s ++ "\right|") in *.
      change ("\pm\left|" ++ latex_paren (paren_u fp UArb (bps e)) s ++ "\right|") with ("\pm" ++ t). rewrite lex_app.
      change (lex Normal "\pm") with (@nil ltok, Word "pm"). cbn [fst snd app].
      rewrite (lex_word_plain "pm" t ts); [reflexivity| |auto]. split; [reflexivity|discriminate].
    + eexists; exists b'. split; [reflexivity|]. split; [|split].
      * eapply (piece_app "-" [Ch "-"]); eauto; [reflexivity|]. apply F_char; [ord|constructor].
      * split; [intros _; right; reflexivity|intros _ Hs; simpl in Hs; tauto].
      * simpl. lia.
  - destruct Fe as (N1 & N2 & F1 & F2 & Cs & Cv).
    destruct (IHe1 F1) as (s1 & b1 & E1 & P1 & [B1 _] & _), (IHe2 F2) as (s2 & b2 & E2 & P2 & [B2 Bc2] & St2).
    unfold latex_inv. cbn [latex_repr]. rewrite E1, E2, (ebp_bps e1 N1), (ebp_bps e2 N2). cbn [obind].
    destruct (paren_piece (paren_l fp o (bps e1)) s1 b1 P1) as (b1' & P1' & T1 & T1').
    destruct (paren_piece (paren_r fp o (bps e2)) s2 b2 P2) as (b2' & P2' & T2 & T2').
    assert (Fst : (71 <= fst (bps (EBin o e1 e2)))%Z -> False) by (destruct o; simpl; lia).
    assert (simple : forall c, ordinary c -> c <> backslash -> op_latex_l o = "" -> op_latex o = String c "" -> op_latex_r o = "" ->
      piece (op_latex_l o ++ latex_paren (paren_l fp o (bps e1)) s1 ++ op_latex o ++ latex_paren (paren_r fp o (bps e2)) s2 ++ op_latex_r o) b2').
    { intros c Hc Hb -> -> ->. rewrite sapp_nil_r. change ("" ++ ?x) with x.
      apply piece_op with (b1 := b1') (top := [Ch c]); auto.
      - unfold lexes. cbn [lex lex1]. apply Ascii.eqb_neq in Hb. rewrite Hb. reflexivity.
      - apply F_char; [auto|constructor]. }
    destruct o; cbn [op_latex_l op_latex op_latex_r append] in *.
    + eexists; exists b2'. split; [reflexivity|]. split; [|split]; [|split; [intros _; right; reflexivity|intros _ Hs; simpl in Hs; tauto]|intros; exfalso; auto].
      apply (simple "+"%char); auto; [ord|discriminate].
    + eexists; exists b2'. split; [reflexivity|]. split; [|split]; [|split; [intros _; right; reflexivity|intros _ Hs; simpl in Hs; tauto]|intros; exfalso; auto].
      apply (simple "-"%char); auto; [ord|discriminate].
    + eexists; exists b2'. split; [reflexivity|]. split; [|split]; [|split; [intros _; right; reflexivity|intros _ Hs; simpl in Hs; tauto]|intros; exfalso; auto].
      rewrite sapp_nil_r. apply piece_op with (b1 := b1') (top := [CW "times"]) (op := "\times "); auto; [reflexivity|].
      apply F_command; [simpl; tauto|constructor].
    + eexists; exists false. split; [reflexivity|]. split; [|split]; [|split; [discriminate|intros _ Hs; simpl in Hs; tauto]|intros; exfalso; auto].
      destruct P1' as (t1 & L1 & G1), P2' as (t2 & L2 & G2).
      exists ([CW "frac"; Ch "{"] ++ t1 ++ [Ch "}"; Ch "{"] ++ t2 ++ [Ch "}"])%list. split.
      * apply (lexes_app "\frac{"); [reflexivity|]. apply lexes_app; auto. apply (lexes_app "}{"); [reflexivity|].
        apply lexes_app; auto. reflexivity.
      * cbn [app]. eapply F_frac; eauto. constructor.
    + eexists; exists true. split; [reflexivity|]. split; [|split]; [|split; [intros _; left; exact I|auto]|intros; exfalso; auto].
      assert (b1' = false).
      { destruct b1'; auto. exfalso. destruct (paren_l fp BPow (bps e1)) eqn:Pl; [specialize (T1 eq_refl); discriminate|].
        rewrite <- T1' in B1 by auto. unfold paren_l in Pl. apply orb_false_iff in Pl. destruct Pl as [Pl Pf].
        apply Z.ltb_ge in Pl. simpl in Pl. destruct (B1 eq_refl) as [X|X]; [|lia]. now apply Cs. }
      subst b1'. destruct P1' as (t1 & L1 & G1), P2' as (t2 & L2 & G2).
      exists (t1 ++ [Ch "^"; Ch "{"] ++ t2 ++ [Ch "}"])%list. split.
      * apply lexes_app; auto. apply (lexes_app "^{"); [reflexivity|]. apply lexes_app; [auto|reflexivity].
      * eapply formula_app; eauto. cbn [app]. eapply F_superscript; eauto. constructor.
    + eexists; exists b2'. split; [reflexivity|]. split; [|split]; [|split; [intros _; right; reflexivity|intros _ Hs; simpl in Hs; tauto]|intros; exfalso; auto].
      apply (simple "="%char); auto; [ord|discriminate].
    + eexists; exists false. split; [reflexivity|]. split; [|split]; [|split; [discriminate|intros _ Hs; simpl in Hs; tauto]|intros; exfalso; auto].
      delim "\left[" "\right]" P2' t2 L2 G2.
      destruct P1' as (t1 & L1 & G1). exists (t1 ++ t2)%list. split.
      * apply lexes_app; auto.
      * eapply formula_app; eauto.
    + eexists; exists false. split; [reflexivity|]. split; [|split]; [|split; [discriminate|intros _ Hs; simpl in Hs; tauto]|intros; exfalso; auto].
      delim "\left\{" "\right\}" P2' t2 L2 G2.
      destruct P1' as (t1 & L1 & G1). exists (t1 ++ t2)%list. split.
      * apply lexes_app; auto.
      * eapply formula_app; eauto.
    + eexists; exists b2'. split; [reflexivity|]. rewrite sapp_nil_r.
      assert (St : starts_plain (latex_paren (paren_r fp BUnc (bps e2)) s2) /\
                   (b2' = true -> paren_r fp BUnc (bps e2) = false /\ (71 <= fst (bps e2))%Z)).
      { destruct (paren_r fp BUnc (bps e2)) eqn:Pr.
        - split; [apply (starts_wrap (s2 ++ "\right)"))|]. intros ->. specialize (T2 eq_refl). discriminate.
        - unfold paren_r in Pr. apply orb_false_iff in Pr. destruct Pr as [Pr Pf]. cbn [wrapped negb] in Pr.
          rewrite andb_true_r in Pr. apply Z.ltb_ge in Pr. change (rbp BUnc) with 71%Z in Pr. split; auto.
          destruct (St2 Pr) as [X|X]; auto. exfalso. now apply Cv. }
      destruct St as [St Sb]. split; [|split].
      * destruct P1' as (t1 & L1 & G1), P2' as (t2 & L2 & G2). exists (t1 ++ CW "pm" :: t2)%list. split.
        -- apply lexes_app; auto. unfold lexes. 
           transitivity (lex Normal (append "\pm" (latex_paren (paren_r fp BUnc (bps e2)) s2))); [reflexivity|].
           rewrite lex_app. change (lex Normal "\pm") with (@nil ltok, Word "pm"). cbn [fst snd app].
           rewrite (lex_word_plain "pm" _ t2); auto.
        -- eapply formula_app; eauto. apply F_command; [simpl; tauto|auto].
      * split.
        2:{ intros Ef Hs. simpl in Hs. destruct e2 as [k|k|k1 k2|k1 k2 k3|k|k]; simpl in Hs; try contradiction.
            rewrite T2'; [apply Bc2; auto|]. rewrite Ef. reflexivity. }
        intros ->. left. destruct (Sb eq_refl) as [Pr Hf]. simpl. rewrite <- T2' in B2 by auto.
        destruct e2 as [c|x|u a|o2 l r|es|d]; simpl in *; try lia; try (destruct o2; simpl in Hf; lia);
          destruct (B2 eq_refl) as [X|X]; auto; unfold INT_MAX in *; lia.
      * intros; exfalso; auto.
  - apply fold_and in Fe.
    assert (X : exists ss, Forall2 (fun m x => m = Ret x) (map (latex_repr show fp) es) ss /\ Forall (fun s => exists b, piece s b) ss).
    { induction es as [|a es IH]; [exists []; split; constructor|].
      inversion H; subst. inversion Fe; subst. destruct (IH H3 H5) as (ss & A & B). destruct (H2 H4) as (s & b & E & P & _).
      exists (s :: ss). split; constructor; eauto. }
    destruct X as (ss & A & B). unfold latex_inv. cbn [latex_repr]. rewrite (oseq_ret _ _ A). cbn [obind].
    destruct (join_piece ss B) as (b & P). delim "\left[" "\right]" P ts L F.
    eexists; exists false. split; [reflexivity|]. split; [exists ts; split; [exact L|apply F]|]. split; [split; [discriminate|intros _ Hs; simpl in Hs; tauto]|].
    right. split; [reflexivity|discriminate].
  - apply fold_and in Fe.
    set (g := fun p : string * expr => do s <- latex_repr show fp (snd p); Ret (fst p ++ ":" ++ s)).
    assert (X : exists ss, Forall2 (fun m x => m = Ret x) (map g d) ss /\ Forall (fun s => exists b, piece s b) ss).
    { induction d as [|[k v] d IH]; [exists []; split; constructor|].
      inversion H; subst. inversion Fe; subst. destruct (IH H3 H5) as (ss & A & B).
      cbn [fst snd] in *. destruct H4 as [Nk Pv]. destruct (H2 Pv) as (s & b & E & P & _).
      exists ((k ++ ":" ++ s) :: ss). split; constructor; auto.
      - unfold g. cbn [fst snd]. rewrite E. reflexivity.
      - exists b. apply piece_op with (b1 := false) (top := [Ch ":"]); auto; [now apply word_piece|reflexivity|].
        apply F_char; [ord|constructor]. }
    destruct X as (ss & A & B). unfold latex_inv. cbn [latex_repr]. fold g. rewrite (oseq_ret _ _ A). cbn [obind].
    destruct (join_piece ss B) as (b & P). delim "\left\{" "\right\}" P ts L F.
    eexists; exists false. split; [reflexivity|]. split; [exists ts; split; [exact L|apply F]|]. split; [split; [discriminate|intros _ Hs; simpl in Hs; tauto]|].
    right. split; [reflexivity|discriminate].
Qed.
End Main.

(** ** What TeX refuses *)
Definition wbrace (t : ltok) : Z := match t with Ch c => if Ascii.eqb c "{" then 1 else if Ascii.eqb c "}" then -1 else 0 | _ => 0 end%Z.
Definition wleft (t : ltok) : Z := match t with CW w => if String.eqb w "left" then 1 else if String.eqb w "right" then -1 else 0 | _ => 0 end%Z.
Fixpoint total (w : ltok -> Z) (ts : list ltok) : Z := match ts with [] => 0 | t :: u => w t + total w u end%Z.
Lemma total_app w a b : total w (a ++ b) = (total w a + total w b)%Z.
Proof. induction a; simpl; lia. Qed.
Fixpoint nonneg (w : ltok -> Z) (d : Z) (ts : list ltok) : Prop :=
  match ts with [] => True | t :: u => (0 <= d + w t)%Z /\ nonneg w (d + w t)%Z u end.
Definition nested (w : ltok -> Z) (ts : list ltok) : Prop := total w ts = 0%Z /\ forall d, (0 <= d)%Z -> nonneg w d ts.
Lemma nonneg_app w a : forall d b, nonneg w d (a ++ b) <-> nonneg w d a /\ nonneg w (d + total w a)%Z b.
Proof.
  induction a as [|t a IH]; intros d b; simpl.
  - rewrite Z.add_0_r. tauto.
  - rewrite IH. rewrite <- Z.add_assoc. tauto.
Qed.
Lemma nested_nil w : nested w [].
Proof. split; simpl; auto. Qed.
Lemma nested_cons0 w t ts : w t = 0%Z -> nested w ts -> nested w (t :: ts).
Proof. intros E [A B]. split; simpl; rewrite E; [lia|]. intros d Hd. rewrite Z.add_0_r. auto. Qed.
Lemma nested_app w a b : nested w a -> nested w b -> nested w (a ++ b).
Proof.
  intros [A B] [C D]. split; [rewrite total_app; lia|]. intros d Hd. apply nonneg_app. split; auto. rewrite A, Z.add_0_r. auto.
Qed.
Lemma nested_wrap w o c a b : w o = 1%Z -> w c = (-1)%Z -> nested w a -> nested w b -> nested w (o :: a ++ c :: b).
Proof.
  intros Eo Ec [A A'] [B B']. split.
  - simpl. rewrite total_app. simpl. lia.
  - intros d Hd. simpl. rewrite Eo. split; [lia|]. apply nonneg_app. split; [apply A'; lia|]. simpl. rewrite A, Ec.
    split; [lia|]. apply B'. lia.
Qed.

Lemma ord_wbrace c : ordinary c -> wbrace (Ch c) = 0%Z.
Proof.
  intros H. simpl. destruct (Ascii.eqb_spec c "{") as [->|]; [exfalso; apply H; simpl; tauto|].
  destruct (Ascii.eqb_spec c "}") as [->|]; [exfalso; apply H; simpl; tauto|]. auto.
Qed.
Lemma delim_w d : In d delimiters -> wbrace d = 0%Z /\ wleft d = 0%Z.
Proof. simpl. intros H. repeat destruct H as [<-|H]; try contradiction; split; reflexivity. Qed.
Lemma cmd_w w : In w commands -> wleft (CW w) = 0%Z.
Proof. simpl. intros H. repeat destruct H as [<-|H]; try contradiction; reflexivity. Qed.
Lemma formula_nested b ts c : formula b ts c -> nested wbrace ts /\ nested wleft ts.
Proof.
  induction 1; repeat match goal with H : _ /\ _ |- _ => destruct H end.
  - split; apply nested_nil.
  - split; apply nested_cons0; auto.
  - split; apply nested_cons0; auto. now apply ord_wbrace.
  - split; apply nested_cons0; auto. now apply cmd_w.
  - split; [apply nested_wrap; auto|]. apply nested_cons0; auto. apply nested_app; auto. apply nested_cons0; auto.
  - split; apply nested_cons0; auto; [apply nested_wrap; auto|].
    apply nested_cons0; auto. apply nested_app; auto. apply nested_cons0; auto.
  - split; apply nested_cons0; auto; [apply nested_wrap; auto; apply nested_wrap; auto|].
    apply nested_cons0; auto. apply nested_app; auto. apply nested_cons0; auto. apply nested_cons0; auto.
    apply nested_app; auto. apply nested_cons0; auto.
  - destruct (delim_w _ H), (delim_w _ H0). split.
    + apply nested_cons0; auto. apply nested_cons0; auto. apply nested_app; auto. apply nested_cons0; auto. apply nested_cons0; auto.
    + change (CW "left" :: d1 :: a ++ CW "right" :: d2 :: ts)%list with (CW "left" :: (d1 :: a) ++ CW "right" :: d2 :: ts)%list.
      apply nested_wrap; auto; apply nested_cons0; auto.
  - split; apply nested_cons0; auto; [apply nested_wrap; auto|].
    apply nested_cons0; auto. apply nested_app; auto. apply nested_cons0; auto.
Qed.

(** the matching bracket is determined *)
Lemma nested_cancel w c a b a' b' : w c = (-1)%Z -> nested w a -> nested w a' ->
  (a ++ c :: b = a' ++ c :: b')%list -> a = a' /\ b = b'.
Proof.
  intros Ec [A1 A2] [B1 B2] E.
  assert (G : forall a a' d, (0 <= d)%Z -> (d + total w a)%Z = 0%Z -> (d + total w a')%Z = 0%Z -> nonneg w d a -> nonneg w d a' ->
    (a ++ c :: b = a' ++ c :: b')%list -> a = a' /\ b = b').
  { clear -Ec. induction a as [|t a IH]; intros [|u a'] d Hd T T' N N' E; simpl in *.
    - injection E as ->. auto.
    - injection E as <- _. destruct N'. lia.
    - injection E as -> _. destruct N. lia.
    - injection E as -> E. destruct N, N'. destruct (IH a' (d + w u)%Z) as [-> ->]; auto; lia. }
  apply (G a a' 0%Z); auto; try lia; [apply A2|apply B2]; lia.
Qed.

Lemma not_ord (c : ascii) : In c ["\"; "{"; "}"; "$"; "&"; "#"; "^"; "_"; "%"; "~"; " "]%char -> ordinary c -> False.
Proof. intros A B. now apply B. Qed.
Ltac nord := match goal with H : ordinary _ |- _ => exfalso; apply H; simpl; tauto end.
Ltac ncmd := match goal with H : In _ commands |- _ => exfalso; simpl in H; repeat destruct H as [H|H]; try discriminate H; contradiction end.
Ltac cancel w H := let E := fresh "E" in pose proof H as E;
  apply (nested_cancel w) in E; [|reflexivity|eapply formula_nested; eassumption|eapply formula_nested; eassumption].

(** TeX reads deterministically: a formula that begins with a formula. *)
Lemma formula_split b a c : formula b a c -> forall r d, formula b (a ++ r) d -> formula c r d.
Proof.
  induction 1; intros r e R; cbn [app] in R; auto.
  - inversion R; subst; try nord; auto.
  - inversion R; subst; try nord; auto.
  - inversion R; subst; try ncmd; auto.
  - rewrite <- app_assoc in R. cbn [app] in R. inversion R; subst; try nord.
    match goal with H : (_ ++ _ = _ ++ _)%list |- _ => cancel wbrace H; destruct E as [-> ->] end. auto.
  - rewrite <- app_assoc in R. cbn [app] in R. inversion R; subst; try ncmd.
    match goal with H : (_ ++ _ = _ ++ _)%list |- _ => cancel wbrace H; destruct E as [-> ->] end. auto.
  - rewrite <- app_assoc in R. cbn [app] in R. rewrite <- app_assoc in R. cbn [app] in R. inversion R; subst; try ncmd.
    match goal with H : (_ ++ _ = _ ++ _)%list |- _ => cancel wbrace H; destruct E as [-> E] end.
    injection E as E. cancel wbrace E. destruct E0 as [-> ->]. auto.
  - rewrite <- app_assoc in R. cbn [app] in R. inversion R; subst; try ncmd.
    match goal with H : (_ ++ _ = _ ++ _)%list |- _ => cancel wleft H; destruct E as [-> E] end.
    injection E as -> ->. auto.
  - rewrite <- app_assoc in R. cbn [app] in R. inversion R; subst; try nord.
    match goal with H : (_ ++ _ = _ ++ _)%list |- _ => cancel wbrace H; destruct E as [-> ->] end. auto.
Qed.

(** ** C65 *)

(** Numbers: the exponent of 10 becomes a superscript, its plus sign disappears. *)
Theorem C65_numbers : forall m d, mantissa m -> exponent_digits d ->
  latex_number m = Ret m /\
  latex_number (m ++ "e+" ++ d) = Ret (m ++ "\times10^{" ++ d ++ "}") /\
  latex_number (m ++ "e-" ++ d) = Ret (m ++ "\times10^{-" ++ d ++ "}").
Proof. intros. split; [|split]; [now apply latex_number_plain|now apply latex_number_plus|now apply latex_number_minus]. Qed.
Print Assumptions C65_numbers.

(** The LaTeX form of every expression that avoids the three pitfalls below is a
    formula TeX accepts. *)
Theorem C65_accepted_partial : forall (K : Type) (show : K -> string) forced (e : expr K),
  fine show forced e -> exists s, latex_repr show forced e = Ret s /\ tex_accepts s.
Proof.
  intros K show forced e F. destruct (latex_fine show forced e F) as (s & b & E & (ts & L & G) & _).
  exists s. split; auto. exists b. unfold ltokens. unfold lexes in L. rewrite L, app_nil_r. exact G.
Qed.
Print Assumptions C65_accepted_partial.

(** 1. A base that ends in a superscript (a power, an exponential, a number with
    an exponent) gets no parentheses: "Double superscript". *)
Theorem C65_double_superscript_refuted : forall (K : Type) (show : K -> string) (l r : expr K),
  fine show false l -> fine show false r -> ~ is_dictionary r -> superscripted show l ->
  exists s, latex_repr show false (EBin BPow l r) = Ret s /\ ~ tex_accepts s.
Proof.
  intros K show l r Fl Fr Nr Sl.
  assert (Nl : ~ is_dictionary l) by (destruct l; simpl in *; tauto).
  destruct (latex_fine show false l Fl) as (s1 & b1 & E1 & P1 & [_ B1] & _).
  destruct (latex_fine show false r Fr) as (s2 & b2 & E2 & P2 & _).
  specialize (B1 eq_refl Sl). subst b1.
  cbn [latex_repr]. rewrite E1, E2, (ebp_bps l Nl), (ebp_bps r Nr). cbn [obind].
  assert (Pl : paren_l false BPow (bps l) = false).
  { unfold paren_l. rewrite orb_false_r. apply Z.ltb_ge.
    destruct l as [k|k|k1 k2|k1 k2 k3|k|k]; simpl in Sl; try contradiction;
      try (destruct k1; simpl in Sl; try contradiction); vm_compute; discriminate. }
  rewrite Pl. eexists. split; [reflexivity|].
  destruct (paren_piece (paren_r false BPow (bps r)) s2 b2 P2) as (b2' & (t2 & L2 & G2) & _).
  destruct P1 as (t1 & L1 & G1). intros [b A].
  assert (L : lexes (op_latex_l BPow ++ latex_paren false s1 ++ op_latex BPow ++ latex_paren (paren_r false BPow (bps r)) s2 ++ op_latex_r BPow)
                (t1 ++ [Ch "^"; Ch "{"] ++ t2 ++ [Ch "}"])).
  { apply (lexes_app "" _ []); [reflexivity|]. apply lexes_app; auto.
    apply (lexes_app "^{"); [reflexivity|]. apply lexes_app; [auto|reflexivity]. }
  unfold ltokens in A. rewrite L, app_nil_r in A.
  apply (formula_split _ _ _ G1) in A. cbn [app] in A. inversion A; subst; nord.
Qed.
Print Assumptions C65_double_superscript_refuted.

(** 2. A variable after the plus-minus sign becomes part of the command. *)
Theorem C65_plus_minus_refuted : forall (K : Type) (show : K -> string) (l : expr K) x,
  fine show false l -> ~ is_dictionary l -> is_word x ->
  exists s, latex_repr show false (EBin BUnc l (EVar x)) = Ret s /\ ~ tex_accepts s.
Proof.
  intros K show l x Fl Nl [Xn Xl].
  destruct (latex_fine show false l Fl) as (s1 & b1 & E1 & P1 & _).
  cbn [latex_repr]. rewrite E1, (ebp_bps l Nl). cbn [obind ebp].
  destruct (paren_piece (paren_l false BUnc (bps l)) s1 b1 P1) as (b1' & (t1 & L1 & G1) & _).
  eexists. split; [reflexivity|]. intros [b A].
  change (paren_r false BUnc (INT_MAX, INT_MAX)) with false in A. cbn [op_latex_l op_latex op_latex_r latex_paren] in A.
  rewrite sapp_nil_r in A. change ("" ++ ?y) with y in A.
  assert (W : forall w x, all_chars letter x -> lex (Word w) x = ([], Word (w ++ x))).
  { clear. intros w x. revert w. induction x as [|c x IH]; intros w H; simpl in *; [now rewrite sapp_nil_r|].
    destruct H as [Hc H]. assert (is_letter c = true) as ->.
    { unfold is_letter, letter in *. apply orb_true_iff. destruct Hc as [Hc|Hc]; [left|right]; apply andb_true_iff; split; apply N.leb_le; lia. }
    rewrite IH by auto. cbn [app]. now rewrite sapp_assoc. }
  unfold ltokens in A. rewrite lex_app, L1 in A. cbn [fst snd] in A. rewrite lex_app in A.
  change (lex Normal "\pm") with (@nil ltok, Word "pm") in A. cbn [fst snd app] in A. rewrite (W _ x Xl) in A.
  cbn [fst snd] in A. rewrite app_nil_r in A. apply (formula_split _ _ _ G1) in A.
  destruct x as [|c x]; [congruence|]. inversion A; subst. ncmd.
Qed.
Print Assumptions C65_plus_minus_refuted.

(** 3. ln closes a brace that was not opened: no formula with a logarithm
    anywhere in it is accepted. *)
Section Braces.
Context {K : Type}.
Variable show : K -> string.
Variable fp : bool.

(** the text, wherever it is put, has [k] more closing than opening braces *)
Definition ready (m : mode) : Prop := m <> Esc.
Definition excess (s : string) (k : Z) : Prop :=
  forall m, ready m -> ready (snd (lex m s)) /\ total wbrace (fst (lex m s)) = (- k)%Z.
Lemma excess_app a b j k : excess a j -> excess b k -> excess (a ++ b) (j + k).
Proof.
  intros A B m Hm. rewrite lex_app. cbn [fst snd]. destruct (A m Hm) as [A1 A2]. destruct (B _ A1) as [B1 B2].
  split; auto. rewrite total_app. lia.
Qed.
Lemma excess_chars s : all_chars (fun c => c <> backslash /\ c <> "{" /\ c <> "}")%char s -> excess s 0.
Proof.
  induction s as [|c s IH]; intros H m Hm; [split; auto|]. destruct H as [(H1 & H2 & H3) H].
  cbn [lex]. destruct (lex1 m c) as [a m1] eqn:E.
  assert (ready m1 /\ total wbrace a = 0%Z) as [R T].
  { apply Ascii.eqb_neq in H1, H2, H3. unfold lex1 in E. destruct m as [| |w]; [|now exfalso; apply Hm|].
    - rewrite H1 in E. injection E as <- <-. split; [discriminate|]. cbn [total wbrace]. now rewrite H2, H3.
    - rewrite H1 in E. destruct (is_letter c); [|destruct (Ascii.eqb c " ")]; injection E as <- <-; (split; [discriminate|]); auto.
      cbn [total wbrace]. now rewrite H2, H3. }
  specialize (IH H m1 R). destruct (lex m1 s) as [b m2]. cbn [fst snd] in *. rewrite total_app. split; [tauto|lia].
Qed.
Lemma ordinary_excess s : all_chars ordinary s -> excess s 0.
Proof.
  intros H. apply excess_chars. eapply all_chars_mono; [|exact H]. intros c O. split; [now apply ordinary_not_bs|].
  split; intros ->; apply O; simpl; tauto.
Qed.
Ltac tmpl := let m := fresh "md" in let Hm := fresh "Hm" in let w := fresh "w" in intros m Hm; destruct m as [| |w]; [|now exfalso; apply Hm|]; split; try discriminate; reflexivity.

Lemma number_excess c : g_format (show c) -> exists s, latex_number (show c) = Ret s /\ excess s 0.
Proof.
  intros G. destruct G as [m M|m d M D|m d M D].
  - exists m. rewrite latex_number_plain by auto. split; auto. now apply ordinary_excess, mantissa_ordinary.
  - eexists. rewrite latex_number_plus by auto. split; [reflexivity|]. change 0%Z with (0 + (-1 + (0 + 1)))%Z.
    apply excess_app; [now apply ordinary_excess, mantissa_ordinary|]. apply excess_app; [tmpl|]. apply excess_app; [|tmpl].
    apply ordinary_excess. eapply all_chars_mono; [|exact D]. apply digit_ordinary.
  - eexists. rewrite latex_number_minus by auto. split; [reflexivity|]. change 0%Z with (0 + (-1 + (0 + 1)))%Z.
    apply excess_app; [now apply ordinary_excess, mantissa_ordinary|]. apply excess_app; [tmpl|]. apply excess_app; [|tmpl].
    apply ordinary_excess. eapply all_chars_mono; [|exact D]. apply digit_ordinary.
Qed.
Lemma paren_excess p s k : excess s k -> excess (latex_paren p s) k.
Proof.
  destruct p; auto. intros H. unfold latex_paren. replace k with (0 + (k + 0))%Z by lia.
  apply excess_app; [tmpl|]. apply excess_app; auto. tmpl.
Qed.
Lemma word_excess x : is_word x -> excess x 0.
Proof. intros [_ A]. apply ordinary_excess. eapply all_chars_mono; [|exact A]. apply letter_ordinary. Qed.

(** nothing but logarithms makes an excess, and each makes it positive *)
Definition counted (P : Prop) (k : Z) : Prop := (0 <= k)%Z /\ (P -> (0 < k)%Z).
Lemma join_excess (ss : list (string * Prop)) : Forall (fun sp => exists k, excess (fst sp) k /\ counted (snd sp) k) ss ->
  exists k, excess (join_comma (map fst ss)) k /\ counted (fold_right (fun sp P => snd sp \/ P) False ss) k.
Proof.
  induction 1 as [|[s P] ss (k & E & C1 & C2) Hs (j & F & D1 & D2)].
  - exists 0%Z. split; [intros m Hm; split; auto|]. split; [lia|]. simpl. tauto.
  - cbn [fst snd] in *. destruct ss as [|[s2 P2] ss].
    + exists k. split; [exact E|]. split; [lia|]. simpl. tauto.
    + exists (k + (0 + j))%Z. split.
      * change (join_comma (map fst ((s, P) :: (s2, P2) :: ss))) with (s ++ ", " ++ join_comma (map fst ((s2, P2) :: ss))).
        apply excess_app; auto. apply excess_app; auto. tmpl.
      * split; [lia|]. intros [X|X]; [specialize (C2 X)|specialize (D2 X)]; lia.
Qed.

Lemma latex_excess e : leaves show e -> exists s k, latex_repr show fp e = Ret s /\ excess s k /\ counted (contains_ln e) k.
Proof.
  induction e using expr_ind'; intros Le; simpl in Le.
  - destruct (number_excess c Le) as (s & E & X). exists s, 0%Z. split; [exact E|]. split; auto. split; [lia|simpl; tauto].
  - exists x, 0%Z. split; [reflexivity|]. split; [now apply word_excess|]. split; [lia|simpl; tauto].
  - destruct Le as [Nd La]. destruct (IHe La) as (s & k & E & X & C1 & C2). cbn [latex_repr]. rewrite E, (ebp_bps e Nd). cbn [obind].
    apply (paren_excess (paren_u fp o (bps e))) in X.
    exists (un_latex_l o ++ latex_paren (paren_u fp o (bps e)) s ++ un_latex_r o), (if uop_eqb o ULog then k + 1 else k)%Z.
    split; [reflexivity|]. split.
    + assert (G : exists i q, excess (un_latex_l o) i /\ excess (un_latex_r o) q /\ (i + q = if uop_eqb o ULog then 1 else 0)%Z).
      { destruct o; cbn [un_latex_l un_latex_r].
        3: exists 0%Z, 1%Z. 4: exists (-1)%Z, 1%Z. all: try (exists 0%Z, 0%Z).
        all: split; [tmpl|split; [tmpl|reflexivity]]. }
      destruct G as (i & q & Xi & Xq & S).
      assert (S2 : (if uop_eqb o ULog then k + 1 else k)%Z = (i + (k + q))%Z) by (destruct (uop_eqb o ULog); lia).
      rewrite S2. repeat apply excess_app; auto.
    + split; [destruct (uop_eqb o ULog); lia|]. simpl. intros [->|H]; [simpl; lia|]. specialize (C2 H). destruct (uop_eqb o ULog); lia.
  - destruct Le as (N1 & N2 & L1 & L2). destruct (IHe1 L1) as (s1 & k1 & E1 & X1 & C1 & D1), (IHe2 L2) as (s2 & k2 & E2 & X2 & C2 & D2).
    cbn [latex_repr]. rewrite E1, E2, (ebp_bps e1 N1), (ebp_bps e2 N2). cbn [obind].
    apply (paren_excess (paren_l fp o (bps e1))) in X1. apply (paren_excess (paren_r fp o (bps e2))) in X2.
    eexists; exists (k1 + k2)%Z. split; [reflexivity|]. split.
    + assert (G : exists i j q, excess (op_latex_l o) i /\ excess (op_latex o) j /\ excess (op_latex_r o) q /\ (i + j + q = 0)%Z).
      { destruct o; cbn [op_latex_l op_latex op_latex_r].
        4: exists (-1)%Z, 0%Z, 1%Z. 5: exists 0%Z, (-1)%Z, 1%Z. all: try (exists 0%Z, 0%Z, 0%Z).
        all: split; [tmpl|split; [tmpl|split; [tmpl|lia]]]. }
      destruct G as (i & j & q & Xi & Xj & Xq & S). replace (k1 + k2)%Z with (i + (k1 + (j + (k2 + q))))%Z by lia.
      repeat apply excess_app; auto.
    + split; [lia|]. simpl. intros [H|H]; [specialize (D1 H)|specialize (D2 H)]; lia.
  - apply fold_and in Le.
    assert (X : exists ss, Forall2 (fun m x => m = Ret x) (map (latex_repr show fp) es) (map fst ss) /\
        Forall (fun sp => exists k, excess (fst sp) k /\ counted (snd sp) k) ss /\
        fold_right (fun a P => contains_ln a \/ P) False es = fold_right (fun sp P => snd sp \/ P) False ss).
    { induction es as [|a es IH]; [exists []; repeat split; constructor|].
      inversion H; subst. inversion Le; subst. destruct (IH H3 H5) as (ss & A & B & C). destruct (H2 H4) as (s & k & E & P & Q).
      exists ((s, contains_ln a) :: ss). split; [constructor; auto|]. split; [constructor; eauto|]. simpl. now rewrite C. }
    destruct X as (ss & A & B & C). cbn [latex_repr]. rewrite (oseq_ret _ _ A). cbn [obind].
    destruct (join_excess ss B) as (k & X & Q). eexists; exists (0 + (k + 0))%Z. split; [reflexivity|]. split.
    + apply (excess_app "\left["); [tmpl|]. apply excess_app; auto. tmpl.
    + simpl contains_ln. rewrite C. destruct Q. split; [lia|]. intros Y. specialize (H1 Y). lia.
  - apply fold_and in Le.
    set (g := fun p : string * expr K => do s <- latex_repr show fp (snd p); Ret (fst p ++ ":" ++ s)).
    assert (X : exists ss, Forall2 (fun m x => m = Ret x) (map g d) (map fst ss) /\
        Forall (fun sp => exists k, excess (fst sp) k /\ counted (snd sp) k) ss /\
        fold_right (fun p P => contains_ln (snd p) \/ P) False d = fold_right (fun sp P => snd sp \/ P) False ss).
    { induction d as [|[x v] d IH]; [exists []; repeat split; constructor|].
      inversion H; subst. inversion Le; subst. destruct (IH H3 H5) as (ss & A & B & C). cbn [fst snd] in *.
      destruct H4 as [Nk Pv]. destruct (H2 Pv) as (s & k & E & P & Q).
      exists ((x ++ ":" ++ s, contains_ln v) :: ss). split; [constructor; auto|split; [constructor; auto|]].
      - unfold g. cbn [fst snd]. rewrite E. reflexivity.
      - exists (0 + (0 + k))%Z. split; [|cbn [snd]; replace (0 + (0 + k))%Z with k by lia; auto]. cbn [fst].
        apply excess_app; [now apply word_excess|]. apply excess_app; auto. tmpl.
      - simpl. now rewrite C. }
    destruct X as (ss & A & B & C). cbn [latex_repr]. fold g. rewrite (oseq_ret _ _ A). cbn [obind].
    destruct (join_excess ss B) as (k & X & Q). eexists; exists (0 + (k + 0))%Z. split; [reflexivity|]. split.
    + apply (excess_app "\left\{"); [tmpl|]. apply excess_app; auto. tmpl.
    + simpl contains_ln. rewrite C. destruct Q. split; [lia|]. intros Y. specialize (H1 Y). lia.
Qed.
End Braces.

Theorem C65_logarithm_refuted : forall (K : Type) (show : K -> string) forced (e : expr K),
  leaves show e -> contains_ln e -> exists s, latex_repr show forced e = Ret s /\ ~ tex_accepts s.
Proof.
  intros K show forced e L C. destruct (latex_excess show forced e L) as (s & k & E & X & _ & P).
  exists s. split; auto. intros [b F]. apply formula_nested in F. destruct F as [[T _] _].
  unfold ltokens in T. destruct (X Normal) as [R Y]; [discriminate|]. destruct (lex Normal s) as [ts m]. cbn [fst snd] in *.
  rewrite total_app, Y in T. specialize (P C). destruct m; simpl in T; lia.
Qed.
Print Assumptions C65_logarithm_refuted.

(** Concrete cases. *)
Lemma word1 c : letter c -> is_word (String c "").
Proof. intros H. split; [discriminate|]. split; [exact H|exact I]. Qed.
Ltac wrd := apply word1; unfold letter; cbn; lia.
Definition show_dec (z : Z) : string := if Z.eqb z 7 then "7e+20" else if Z.eqb z (-1) then "-1" else "2".
Lemma show_dec_format z : g_format (show_dec z).
Proof.
  unfold show_dec. destruct (Z.eqb z 7); [|destruct (Z.eqb z (-1))].
  - apply (g_plus "7" "20"); [split; [discriminate|]|]; repeat split; cbn; unfold digit; cbn; try lia; left; lia.
  - apply g_plain. split; [discriminate|]. cbn. split; [tauto|]. split; [|exact I]. left. unfold digit. cbn. lia.
  - apply g_plain. split; [discriminate|]. cbn. split; [|exact I]. left. unfold digit. cbn. lia.
Qed.
(** (x+2)/exp(7e20) times |y|[i]{m}^-1, and its LaTeX form *)
Definition latex_sample : expr Z :=
  EBin BMul (EBin BDiv (EBin BAdd (EVar "x") (EConst 2%Z)) (EUn UExp (EConst 7%Z)))
    (EBin BPow (EBin BUnits (EBin BAcc (EUn UAbs (EVar "y")) (EVar "i")) (EVar "m")) (EConst (-1)%Z)).
Example C65_ex : fine show_dec false latex_sample /\
  latex_repr show_dec false latex_sample =
  Ret ("\frac{\left(x+2\right)}{\left(\mathrm{e}^{7\times10^{20}}\right)}\times " ++
       "\left(\left(\left|y\right|\right)\left[i\right]\right)\left\{m\right\}^{-1}").
Proof.
  split; [|vm_compute; reflexivity]. simpl.
  repeat match goal with
  | |- _ /\ _ => split
  | |- g_format _ => apply show_dec_format
  | |- is_word _ => wrd
  | |- _ => try discriminate; try tauto
  end.
Qed.
(** The three pitfalls: x^y^z, y +- x, ln x. *)
Example C65_ex_refuted :
  latex_repr show_dec false (EBin BPow (EBin BPow (EVar "x") (EVar "y")) (EVar "z")) = Ret "x^{y}^{z}" /\
  latex_repr show_dec false (EBin BPow (EConst 7%Z) (EVar "z")) = Ret "7\times10^{20}^{z}" /\
  latex_repr show_dec false (EBin BUnc (EVar "y") (EVar "x")) = Ret "y\pmx" /\
  latex_repr show_dec false (EUn ULog (EVar "x")) = Ret "\ln x}" /\
  superscripted show_dec (EBin BPow (EVar "x") (EVar "y")) /\ superscripted show_dec (EConst 7%Z) /\
  leaves show_dec (EUn ULog (EVar "x")) /\ contains_ln (K := Z) (EUn ULog (EVar "x")).
Proof.
  split; [vm_compute; reflexivity|]. split; [vm_compute; reflexivity|]. split; [vm_compute; reflexivity|].
  split; [vm_compute; reflexivity|]. split; [exact I|]. split; [|split].
  - intros M. apply mantissa_no_e in M. apply M. vm_compute. tauto.
  - simpl. split; [tauto|]. wrd.
  - left. reflexivity.
Qed.
