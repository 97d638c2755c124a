(** Lexical lemmas: the tokenizer computes exactly the layout of a string. *)
From Coq Require Import String Ascii NArith.
From Verif Require Import Outcome Num ExprModel ParserModel ParserSpec.
Open Scope nat_scope.
Open Scope string_scope.

Lemma sapp_assoc (a b c : string) : (a ++ b) ++ c = a ++ b ++ c.
Proof. induction a; simpl; congruence. Qed.
Lemma sapp_nil_r (a : string) : a ++ "" = a.
Proof. induction a; simpl; congruence. Qed.
Lemma slen_app (a b : string) : String.length (a ++ b) = String.length a + String.length b.
Proof. induction a; simpl; congruence. Qed.

Lemma in_range_iff lo hi c : in_range lo hi c = true <-> (lo <= N_of_ascii c <= hi)%N.
Proof. unfold in_range. rewrite andb_true_iff, !N.leb_le. tauto. Qed.
Lemma isdigit_iff c : isdigit c = true <-> digit c.
Proof. apply in_range_iff. Qed.
Lemma isdigit_false c : isdigit c = false <-> ~ digit c.
Proof. rewrite <- isdigit_iff. destruct (isdigit c); split; intros; congruence. Qed.
Lemma isalpha_iff c : isalpha c = true <-> letter c.
Proof. unfold isalpha, letter. rewrite orb_true_iff, !in_range_iff. tauto. Qed.
Lemma isalpha_false c : isalpha c = false <-> ~ letter c.
Proof. rewrite <- isalpha_iff. destruct (isalpha c); split; intros; congruence. Qed.
Lemma digit_letter c : digit c -> letter c -> False.
Proof. unfold digit, letter. lia. Qed.

Lemma all_chars_app p a b : all_chars p (a ++ b) <-> all_chars p a /\ all_chars p b.
Proof. induction a; simpl; tauto. Qed.

Lemma all_alpha_iff t : all_alpha t = true <-> all_chars letter t.
Proof.
  induction t; simpl; [tauto|]. rewrite andb_true_iff, isalpha_iff, IHt. tauto.
Qed.

(** ** Numbers *)
Definition numchar (c : ascii) : Prop := digit c \/ In c ["."; "e"; "E"]%char.

Definition frac_ok (fp : string) : Prop := fp = "" \/ exists d, fp = "." ++ d /\ all_chars digit d.
Definition exp_ok (ex : string) : Prop :=
  ex = "" \/ exists m sg d, ex = m ++ sg ++ d /\ (m = "e" \/ m = "E") /\
     (sg = "" \/ sg = "+" \/ sg = "-") /\ d <> "" /\ all_chars digit d.

Definition ntail (dec ex : bool) (a : string) : Prop :=
  exists ip fp xp, a = ip ++ fp ++ xp /\ all_chars digit ip /\
    (if dec then fp = "" else frac_ok fp) /\ (if ex then xp = "" else exp_ok xp).

Lemma is_number_cons t : is_number t <-> exists c a, t = String c a /\ digit c /\ ntail false false a.
Proof.
  split.
  - intros (ip & fp & ex & -> & Hne & Hd & Hf & He).
    destruct ip as [|c ip]; [congruence|]. simpl in Hd. destruct Hd as [Hc Hd].
    exists c, (ip ++ fp ++ ex). split; [reflexivity|]. split; auto.
    exists ip, fp, ex. auto.
  - intros (c & a & -> & Hc & ip & fp & xp & -> & Hd & Hf & He).
    exists (String c ip), fp, xp. split; [reflexivity|]. split; [discriminate|]. split; [simpl; auto|]. auto.
Qed.

Lemma digit_not_special c : digit c ->
  Ascii.eqb c "." = false /\ Ascii.eqb c "e" = false /\ Ascii.eqb c "E" = false /\
  Ascii.eqb c "+" = false /\ Ascii.eqb c "-" = false /\ Ascii.eqb c " " = false /\
  isalpha c = false.
Proof.
  intros H.
  assert (forall d, ~ digit d -> Ascii.eqb c d = false) as E.
  { intros d Hd. destruct (Ascii.eqb_spec c d); auto. subst. contradiction. }
  repeat split; try (apply E; unfold digit; cbn; lia).
  apply isalpha_false. intros L. eapply digit_letter; eauto.
Qed.

Lemma cfloat_digits d e ds r :
  all_chars digit ds ->
  cfloat d e (ds ++ r) = (do p <- cfloat d e r; Ret (ds ++ fst p, snd p)).
Proof.
  induction ds as [|c ds IH]; simpl; intros H.
  - destruct (cfloat d e r) as [[u v]| | |]; reflexivity.
  - destruct H as [Hc H].
    destruct (digit_not_special c Hc) as (-> & -> & -> & _).
    rewrite (proj2 (isdigit_iff c) Hc). simpl. rewrite IH by auto.
    destruct (cfloat d e r) as [[u v]| | |]; reflexivity.
Qed.

Lemma cfloat_stop d e r : ~ first_is numchar r -> cfloat d e r = Ret ("", r).
Proof.
  destruct r as [|c t]; simpl; auto. intros H.
  unfold numchar in H. simpl in H.
  destruct (Ascii.eqb_spec c ".") as [->|]; [tauto|].
  destruct (Ascii.eqb_spec c "e") as [->|]; [tauto|].
  destruct (Ascii.eqb_spec c "E") as [->|]; [tauto|]. simpl.
  destruct (isdigit c) eqn:D; auto. apply isdigit_iff in D. tauto.
Qed.

Lemma cfloat_e d c t : c = "e"%char \/ c = "E"%char ->
  cfloat d false (String c t) =
  match t with
  | EmptyString => Throw
  | String g u =>
      if (Ascii.eqb g "+" || Ascii.eqb g "-")%bool then
        match u with
        | EmptyString => Throw
        | String v _ => if isdigit v then ocons c (ocons g (cfloat true true u)) else Throw
        end
      else if isdigit g then ocons c (cfloat true true t) else Throw
  end.
Proof. intros [-> | ->]; reflexivity. Qed.

Lemma cfloat_exp d r m sg ds :
  (m = "e" \/ m = "E") -> (sg = "" \/ sg = "+" \/ sg = "-") -> ds <> "" -> all_chars digit ds ->
  ~ first_is numchar r ->
  cfloat d false (m ++ sg ++ ds ++ r) = Ret (m ++ sg ++ ds, r).
Proof.
  intros Hm Hsg Hne Hd Hr.
  destruct ds as [|c ds]; [congruence|].
  assert (H : cfloat true true (String c ds ++ r) = Ret (String c ds, r)).
  { rewrite cfloat_digits by auto. rewrite cfloat_stop by auto. simpl. now rewrite sapp_nil_r. }
  pose proof Hd as Hd'. simpl in Hd'. destruct Hd' as [Hc _].
  destruct (digit_not_special c Hc) as (S1 & S2 & S3 & S4 & S5 & _).
  pose proof (proj2 (isdigit_iff c) Hc) as Dc.
  change (String c ds ++ r) with (String c (ds ++ r)) in *.
  destruct Hm as [-> | ->]; destruct Hsg as [-> | [-> | ->]];
    cbn [append]; rewrite cfloat_e by auto; rewrite ?S4, ?S5; cbn [orb Ascii.eqb Bool.eqb];
    rewrite ?Dc, H; reflexivity.
Qed.

Lemma cfloat_exp_ok d r xp : exp_ok xp -> ~ first_is numchar r ->
  cfloat d false (xp ++ r) = Ret (xp, r).
Proof.
  intros [->|(m & sg & ds & -> & Hm & Hs & Hne & Hd)] Hr.
  - now apply cfloat_stop.
  - rewrite !sapp_assoc. now apply cfloat_exp.
Qed.

Lemma cfloat_complete a r : ntail false false a -> ~ first_is numchar r ->
  cfloat false false (a ++ r) = Ret (a, r).
Proof.
  intros (ip & fp & xp & -> & Hd & Hf & He) Hr.
  rewrite !sapp_assoc. rewrite cfloat_digits by auto.
  assert (E : cfloat false false (fp ++ xp ++ r) = Ret (fp ++ xp, r)).
  { destruct Hf as [->|(d & -> & Hdd)].
    - cbn [append]. now apply cfloat_exp_ok.
    - rewrite sapp_assoc. cbn [append].
      change (cfloat false false (String "." (d ++ xp ++ r))) with (ocons "."%char (cfloat true false (d ++ xp ++ r))).
      rewrite cfloat_digits by auto.
      rewrite cfloat_exp_ok by auto. reflexivity. }
  rewrite E. reflexivity.
Qed.

Lemma ocons_ret c m p : ocons c m = Ret p -> exists q, m = Ret q /\ p = (String c (fst q), snd q).
Proof. unfold ocons. intros H. apply obind_ret in H. destruct H as (q & -> & [= <-]). eauto. Qed.

Lemma cfloat_sound n : forall d e s a r, String.length s <= n ->
  (e = true -> d = true) ->
  cfloat d e s = Ret (a, r) -> s = a ++ r /\ ntail d e a /\ ~ first_is numchar r.
Proof.
  assert (N0 : forall d e, ntail d e "").
  { intros d e. exists "", "", "". repeat split; simpl; auto.
    - destruct d; auto. left; auto.
    - destruct e; auto. left; auto. }
  induction n as [|n IH]; intros d e s a r Hn Hde H.
  - destruct s as [|c t]; simpl in Hn; [|lia]. injection H as <- <-. repeat split; auto.
  - destruct s as [|c t]; simpl in H.
    { injection H as <- <-. repeat split; auto. }
    simpl in Hn.
    destruct (Ascii.eqb_spec c ".") as [->|Nd].
    + destruct d; simpl in H; [discriminate|].
      destruct e; simpl in H; [discriminate|].
      apply ocons_ret in H. destruct H as ([a' r'] & H & [= -> ->]).
      apply IH in H; [|lia|auto].
      destruct H as (-> & (ip & fp & xp & -> & Hd & -> & Hx) & Hr). cbn [fst snd]. repeat split; auto.
      exists "", ("." ++ ip), xp. repeat split; simpl; auto.
      right. exists ip. auto.
    + destruct (Ascii.eqb c "e" || Ascii.eqb c "E")%bool eqn:Ee.
      * destruct e; [discriminate|].
        assert (Hc : String c "" = "e" \/ String c "" = "E").
        { apply orb_true_iff in Ee. rewrite !Ascii.eqb_eq in Ee. destruct Ee as [->| ->]; auto. }
        destruct t as [|g u]; [discriminate|].
        assert (X : forall sg ds, (sg = "" \/ sg = "+" \/ sg = "-") -> ds <> "" ->
                  all_chars digit ds -> ntail d false (String c (sg ++ ds))).
        { intros sg ds Hs Hne Hd. exists "", "", (String c (sg ++ ds)). repeat split; simpl; auto.
          - destruct d; auto. left; auto.
          - right. exists (String c ""), sg, ds. repeat split; auto. }
        destruct (Ascii.eqb g "+" || Ascii.eqb g "-")%bool eqn:Eg.
        -- destruct u as [|v u]; [discriminate|].
           destruct (isdigit v) eqn:Dv; [|discriminate].
           apply ocons_ret in H. destruct H as ([a' r'] & H & [= -> ->]).
           apply ocons_ret in H. destruct H as ([a2 r2] & H & [= -> ->]).
           assert (Hr2 := H).
           apply IH in H; [|simpl in *; lia|auto].
           destruct H as (E & (ip & fp & xp & -> & Hd & -> & ->) & Hr).
           cbn [fst snd]. rewrite E. repeat split; auto.
           assert (String g "" = "+" \/ String g "" = "-").
           { apply orb_true_iff in Eg. rewrite !Ascii.eqb_eq in Eg. destruct Eg as [->| ->]; auto. }
           apply (X (String g "")); [auto| |].
           ++ cbn [append]. rewrite sapp_nil_r. intros ->. cbn [append] in E.
              subst r2. apply Hr. simpl. left. now apply isdigit_iff.
           ++ cbn [append]. now rewrite sapp_nil_r.
        -- destruct (isdigit g) eqn:Dg; [|discriminate].
           apply ocons_ret in H. destruct H as ([a' r'] & H & [= -> ->]).
           apply IH in H; [|simpl in *; lia|auto].
           destruct H as (E & (ip & fp & xp & -> & Hd & -> & ->) & Hr).
           cbn [fst snd]. rewrite E. repeat split; auto.
           apply (X ""); [auto| |]; cbn [append]; rewrite ?sapp_nil_r; auto.
           intros ->. cbn [append] in E. subst r'. apply Hr. simpl. left. now apply isdigit_iff.
      * destruct (isdigit c) eqn:Dc.
        -- apply ocons_ret in H. destruct H as ([a' r'] & H & [= -> ->]).
           apply IH in H; [|lia|auto].
           destruct H as (-> & (ip & fp & xp & -> & Hd & Hf & Hx) & Hr). cbn [fst snd].
           split; [reflexivity|]. split; auto. exists (String c ip), fp, xp. split; [reflexivity|].
           split; [simpl; split; auto; now apply isdigit_iff|auto].
        -- injection H as <- <-. repeat split; auto.
           simpl. unfold numchar. simpl. apply orb_false_iff in Ee.
           rewrite !Ascii.eqb_neq in Ee. rewrite isdigit_false in Dc. intuition congruence.
Qed.

(** ** Words *)
Lemma span_alpha_sound s a r : span_alpha s = (a, r) ->
  s = a ++ r /\ all_chars letter a /\ ~ first_is letter r.
Proof.
  revert a r. induction s as [|c t IH]; simpl; intros a r H.
  - injection H as <- <-. simpl. auto.
  - destruct (isalpha c) eqn:A.
    + destruct (span_alpha t) as [a' r']. injection H as <- <-.
      destruct (IH a' r' eq_refl) as (-> & Ha & Hr). simpl. repeat split; auto. now apply isalpha_iff.
    + injection H as <- <-. simpl. repeat split; auto. now apply isalpha_false.
Qed.

Lemma span_alpha_complete a r : all_chars letter a -> ~ first_is letter r ->
  span_alpha (a ++ r) = (a, r).
Proof.
  induction a as [|c a IH]; simpl; intros Ha Hr.
  - destruct r as [|c t]; auto. simpl in *. apply isalpha_false in Hr. now rewrite Hr.
  - destruct Ha as [Hc Ha]. rewrite (proj2 (isalpha_iff c) Hc). now rewrite IH.
Qed.

(** ** Symbols *)
Lemma right_op_cases t r : right_op t = Some r ->
  (exists o, r = RBin o /\ t = op_tok o) \/ (r = RHalt /\ In t [")"; ","; "]"; ":"; "}"]).
Proof.
  unfold right_op. intros H.
  repeat match type of H with
  | (if String.eqb t ?x then _ else _) = _ => destruct (String.eqb_spec t x) as [->|_];
      [injection H as <-; first [left; eexists; split; [reflexivity|reflexivity] | right; simpl; tauto]|]
  end. discriminate.
Qed.

Lemma right_op_tok o : right_op (op_tok o) = Some (RBin o).
Proof. destruct o; reflexivity. Qed.

Lemma left_op_cases t l : left_op t = Some l ->
  (l = LPos /\ t = "+") \/ (l = LNeg /\ t = "-") \/ (l = LPar /\ t = "(") \/
  (l = LArr /\ t = "[") \/ (l = LDict /\ t = "{") \/
  (exists o, l = LUn o /\ fun_name o = Some t).
Proof.
  unfold left_op. intros H.
  repeat match type of H with
  | (if String.eqb t ?x then _ else _) = _ => destruct (String.eqb_spec t x) as [->|_];
      [injection H as <-; auto 7; try (do 5 right; eexists; split; [reflexivity|reflexivity])|]
  end. discriminate.
Qed.

Lemma fun_left o t : fun_name o = Some t -> left_op t = Some (LUn o).
Proof. destruct o; simpl; intros [= <-]; reflexivity. Qed.

Lemma symbol_op t : In t symbols -> right_op t <> None \/ left_op t <> None.
Proof.
  simpl. intros H. repeat destruct H as [<-|H]; try (left; discriminate); try (right; discriminate).
  contradiction.
Qed.

Lemma op_symbol t : (right_op t <> None \/ left_op t <> None) -> is_word t \/ In t symbols.
Proof.
  intros [H|H].
  - destruct (right_op t) eqn:E; [|congruence]. apply right_op_cases in E.
    right. destruct E as [(o & _ & ->)|(_ & I)]; [destruct o; simpl; tauto|].
    simpl in *. tauto.
  - destruct (left_op t) as [l|] eqn:E; [|congruence]. apply left_op_cases in E.
    destruct E as [[_ ->]|[[_ ->]|[[_ ->]|[[_ ->]|[[_ ->]|(o & _ & F)]]]]]; try (right; simpl; tauto).
    left. destruct o; simpl in F; try discriminate; injection F as <-; split; try discriminate;
      simpl; repeat split; unfold letter; cbn; lia.
Qed.

(** What the tokenizer relies on: the first byte of a symbol tells which. *)
Lemma symbol_shape t : In t symbols ->
  exists c, (t = String c "" /\ Ascii.eqb c (ch 194) = false /\ Ascii.eqb c (ch 195) = false
             \/ t = pm /\ c = ch 194) /\
    isdigit c = false /\ isalpha c = false /\ Ascii.eqb c " " = false.
Proof.
  simpl. intros H.
  repeat destruct H as [<-|H]; try contradiction;
    try (eexists; split; [left; repeat split; reflexivity|repeat split; reflexivity]).
  eexists; split; [right; split; reflexivity|repeat split; reflexivity].
Qed.

Lemma symbols_not_word t : In t symbols -> ~ is_word t.
Proof.
  intros H [_ W]. destruct (symbol_shape t H) as (c & [[-> _]|[-> ->]] & _ & A & _);
    simpl in W; destruct W as [W _]; apply isalpha_false in A; auto.
Qed.
Lemma symbols_not_number t : In t symbols -> ~ is_number t.
Proof.
  intros H N. apply is_number_cons in N. destruct N as (d & a & -> & D & _).
  destruct (symbol_shape _ H) as (c & [[[= -> ->] _]|[[= -> ->] ->]] & A & _);
    apply isdigit_false in A; auto.
Qed.
Lemma word_not_number t : is_word t -> ~ is_number t.
Proof.
  intros [_ W] N. apply is_number_cons in N. destruct N as (d & a & -> & D & _).
  simpl in W. eapply digit_letter; [apply D|tauto].
Qed.

(** ** consume *)
Lemma skip_spaces_spec s : exists n, s = spaces n ++ skip_spaces s /\
  match skip_spaces s with EmptyString => True | String c _ => Ascii.eqb c " " = false end.
Proof.
  induction s as [|c t (n & E & H)]; simpl.
  - exists 0. auto.
  - destruct (Ascii.eqb_spec c " ") as [->|N].
    + exists (S n). simpl. split; [congruence|auto].
    + exists 0. simpl. split; auto. now apply Ascii.eqb_neq.
Qed.

Lemma skip_spaces_app n s :
  match s with EmptyString => True | String c _ => Ascii.eqb c " " = false end ->
  skip_spaces (spaces n ++ s) = s.
Proof.
  intros H. induction n; simpl; auto. destruct s; simpl; auto. now rewrite H.
Qed.

Definition munched (t rest : string) : Prop :=
  (is_word t -> ~ first_is letter rest) /\
  (is_number t -> ~ first_is numchar rest).

Lemma consume_sound s t rest : consume s = Ret (t, rest) ->
  (t = "" /\ rest = "" /\ exists n, s = spaces n) \/
  (t <> "" /\ is_token t /\ munched t rest /\ exists n, s = spaces n ++ t ++ rest).
Proof.
  unfold consume. destruct (skip_spaces_spec s) as (n & E & Hs).
  destruct (skip_spaces s) as [|c u].
  - intros [= <- <-]. left. repeat split; auto. exists n. now rewrite sapp_nil_r in E.
  - intros H. right. destruct (isdigit c) eqn:D.
    + apply ocons_ret in H. destruct H as ([a r] & H & [= -> ->]). cbn [fst snd].
      apply (cfloat_sound (String.length u)) in H; auto.
      destruct H as (-> & Ha & Hr).
      assert (N : is_number (String c a)).
      { apply is_number_cons. exists c, a. split; auto. split; auto. now apply isdigit_iff. }
      split; [discriminate|]. split; [left; auto|]. split; [|exists n; auto].
      split; auto. intros W. now apply word_not_number in W.
    + destruct (isalpha c) eqn:A.
      * destruct (span_alpha u) as [a r] eqn:Sp. injection H as <- <-.
        apply span_alpha_sound in Sp. destruct Sp as (-> & Ha & Hr).
        assert (W : is_word (String c a)).
        { split; [discriminate|]. simpl. split; auto. now apply isalpha_iff. }
        split; [discriminate|]. split; [right; left; auto|]. split; [|exists n; auto].
        split; auto. intros N. exfalso. eapply word_not_number; eauto.
      * assert (G : forall tok r, String c u = tok ++ r -> (forall w, is_word w -> tok <> w) -> tok <> "" ->
                  match right_op tok, left_op tok with None, None => Throw | _, _ => Ret (tok, r) end = Ret (t, rest) ->
                  t <> "" /\ is_token t /\ munched t rest /\ exists n, s = spaces n ++ t ++ rest).
        { intros tok r Eq Nw Ne M.
          assert (Op : right_op tok <> None \/ left_op tok <> None).
          { destruct (right_op tok); [left; discriminate|]. destruct (left_op tok); [right; discriminate|].
            discriminate. }
          assert (T : tok = t /\ r = rest).
          { destruct (right_op tok), (left_op tok); try (injection M; auto). discriminate. }
          destruct T as [-> ->]. apply op_symbol in Op.
          destruct Op as [W|Sy]; [exfalso; eapply Nw; eauto|].
          split; auto. split; [right; right; auto|]. split.
          - split; intros X; exfalso; [eapply symbols_not_word|eapply symbols_not_number]; eauto.
          - exists n. congruence. }
        assert (Nw : forall v w, is_word w -> String c v <> w).
        { intros v w [_ W] <-. simpl in W. apply isalpha_false in A. tauto. }
        destruct (Ascii.eqb c (ch 194) || Ascii.eqb c (ch 195))%bool.
        -- destruct u as [|d u].
           ++ apply (G (String c "") ""); auto. discriminate.
           ++ apply (G (String c (String d "")) u); auto. discriminate.
        -- apply (G (String c "") u); auto. discriminate.
Qed.

Lemma consume_spaces n : consume (spaces n) = Ret ("", "").
Proof.
  unfold consume. rewrite <- (sapp_nil_r (spaces n)), skip_spaces_app; auto.
Qed.

Lemma consume_complete n t rest : is_token t -> munched t rest ->
  consume (spaces n ++ t ++ rest) = Ret (t, rest).
Proof.
  intros T [Mw Mn]. unfold consume. destruct T as [N|[W|Sy]].
  - specialize (Mn N). apply is_number_cons in N. destruct N as (c & a & -> & D & Ha).
    destruct (digit_not_special c D) as (_ & _ & _ & _ & _ & Sp & _).
    rewrite skip_spaces_app by (simpl; auto). cbn [append].
    rewrite (proj2 (isdigit_iff c) D). rewrite cfloat_complete by auto. reflexivity.
  - specialize (Mw W). destruct W as [Ne W]. destruct t as [|c a]; [congruence|].
    simpl in W. destruct W as [Wc Wa].
    assert (Ascii.eqb c " " = false).
    { apply Ascii.eqb_neq. intros ->. unfold letter in Wc. cbn in Wc. lia. }
    rewrite skip_spaces_app by (simpl; auto). cbn [append].
    assert (isdigit c = false) as ->.
    { apply isdigit_false. intros D. eapply digit_letter; eauto. }
    rewrite (proj2 (isalpha_iff c) Wc). now rewrite span_alpha_complete.
  - destruct (symbol_shape t Sy) as (c & Sh & D & A & Sp).
    pose proof (symbol_op t Sy) as Op.
    assert (R : match right_op t, left_op t with None, None => Throw | _, _ => Ret (t, rest) end = Ret (t, rest)).
    { destruct (right_op t); auto. destruct (left_op t); auto. destruct Op; congruence. }
    destruct Sh as [(-> & N1 & N2)|(-> & ->)].
    + rewrite skip_spaces_app by (simpl; auto). cbn [append]. rewrite D, A, N1, N2. cbn [orb]. exact R.
    + rewrite skip_spaces_app by reflexivity. reflexivity.
Qed.

(** ** Token streams *)
Inductive steps : pstate -> list string -> pstate -> Prop :=
| steps_nil s : steps s [] s
| steps_cons s s1 s2 ts : cur s <> "" -> adv s = Ret s1 -> steps s1 ts s2 -> steps s (cur s :: ts) s2.

Lemma steps_app s ts s1 us s2 : steps s ts s1 -> steps s1 us s2 -> steps s (ts ++ us)%list s2.
Proof. induction 1; simpl; auto. intros. econstructor; eauto. Qed.

Lemma steps_app_inv ts : forall s us s2, steps s (ts ++ us)%list s2 ->
  exists s1, steps s ts s1 /\ steps s1 us s2.
Proof.
  induction ts as [|t ts IH]; simpl; intros s us s2 H.
  - exists s. split; auto. constructor.
  - inversion H; subst. destruct (IH _ _ _ H6) as (s3 & A & B). exists s3. split; auto. econstructor; eauto.
Qed.

Lemma steps_one s s1 : cur s <> "" -> adv s = Ret s1 -> steps s [cur s] s1.
Proof. intros. econstructor; eauto. constructor. Qed.

Lemma steps_one_inv s t s2 : steps s [t] s2 -> cur s = t /\ t <> "" /\ adv s = Ret s2.
Proof. inversion 1; subst. inversion H6; subst. auto. Qed.

Lemma steps_cons_inv s t ts s2 : steps s (t :: ts) s2 ->
  cur s = t /\ t <> "" /\ exists s1, adv s = Ret s1 /\ steps s1 ts s2.
Proof. inversion 1; subst. eauto. Qed.

(** The tokenizer, run to the end of the string, finds [ts]. *)
Definition lexed (s : string) (ts : list string) : Prop :=
  exists st st', consume s = Ret st /\ steps st ts st' /\ cur st' = "".

Lemma lexed_layout s ts : lexed s ts -> layout s ts.
Proof.
  intros (st & st' & C & St & E). revert s C E. induction St as [st|st s1 s2 ts Hne A St IH]; intros s C E.
  - destruct st as [t r]. unfold cur in E. simpl in E. subst t.
    apply consume_sound in C. destruct C as [(_ & _ & n & ->)|(N & _)]; [constructor|congruence].
  - destruct st as [t r]. unfold cur in *. simpl in *. unfold adv in A. simpl in A.
    apply consume_sound in C. destruct C as [(-> & _)|(N & T & [Mw Mn] & n & ->)]; [congruence|].
    constructor; auto.
Qed.

Lemma layout_lexed s ts : layout s ts -> lexed s ts.
Proof.
  induction 1 as [n|n t rest ts T Mw Mn L (st & st' & C & St & E)].
  - exists ("", ""), ("", ""). repeat split; [apply consume_spaces|constructor].
  - exists (t, rest), st'. split; [apply consume_complete; auto; split; auto|]. split; auto.
    change t with (cur (t, rest)) at 2. econstructor; eauto.
    unfold cur. simpl. intros ->. destruct T as [N|[W|Sy]].
    + apply is_number_cons in N. destruct N as (c & a & Eq & _). discriminate.
    + destruct W; congruence.
    + simpl in Sy. intuition discriminate.
Qed.

Lemma steps_det ts : forall s us s1 s2, steps s ts s1 -> cur s1 = "" -> steps s us s2 -> cur s2 = "" -> ts = us.
Proof.
  induction ts as [|t ts IH]; intros s us s1 s2 H1 E1 H2 E2.
  - inversion H1; subst. inversion H2; subst; auto. congruence.
  - apply steps_cons_inv in H1. destruct H1 as (<- & N & s3 & A & H1).
    inversion H2; subst; [congruence|]. f_equal.
    rewrite A in H0. injection H0 as ->. eapply IH; eauto.
Qed.

Lemma layout_unique s ts us : layout s ts -> layout s us -> ts = us.
Proof.
  intros H1 H2. apply layout_lexed in H1, H2.
  destruct H1 as (a & b & C & St & E), H2 as (a' & b' & C' & St' & E').
  rewrite C in C'. injection C' as <-. eapply steps_det; eauto.
Qed.
