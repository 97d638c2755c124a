(** C65: exactly which expressions have a LaTeX form that TeX accepts. *)
From Coq Require Import String Ascii NArith ZArith List Bool Lia.
From Verif Require Import Outcome Num ExprModel ExprBase ParserModel ParserSpec ParserBase ParserProofs ParserSound ParserComplete ReprProofs StringModel PropString
  LatexModel LatexSpec PropLatex.
Import ListNotations.
Open Scope nat_scope.
Open Scope string_scope.

(** ** A machine that reads tokens: the flag of [formula], "the last token was ^",
    and for each open brace the flag after it is closed *)
Definition known (w : string) : bool :=
  existsb (String.eqb w) ["sin"; "cos"; "ln"; "times"; "pm"; "mathrm"; "frac"; "left"; "right"].
Definition mst : Type := bool * bool * list bool.
Definition tstep (st : mst) (t : ltok) : option mst :=
  let '(b, p, stk) := st in
  match t with
  | Ch c =>
      if Ascii.eqb c "^" then if (b || p)%bool then None else Some (false, true, stk)
      else if Ascii.eqb c "{" then Some (false, false, p :: stk)
      else if Ascii.eqb c "}" then match stk with [] => None | f :: r => Some (f, false, r) end
      else if Ascii.eqb c " " then Some st
      else Some (false, false, stk)
  | CW w => if known w then Some (false, false, stk) else None
  | CS _ => Some (false, false, stk)
  end.
Fixpoint trun (st : mst) (ts : list ltok) : option mst :=
  match ts with [] => Some st | t :: r => match tstep st t with None => None | Some st' => trun st' r end end.
Lemma trun_app a : forall st b, trun st (a ++ b) = match trun st a with None => None | Some st' => trun st' b end.
Proof. induction a as [|t a IH]; intros; cbn; [reflexivity|]. destruct (tstep st t); auto. Qed.

Lemma tstep_ord b c stk : ordinary c -> tstep (b, false, stk) (Ch c) = Some (false, false, stk).
Proof.
  intros O. unfold tstep.
  destruct (Ascii.eqb_spec c "^"); [subst; exfalso; apply O; cbn; tauto|].
  destruct (Ascii.eqb_spec c "{"); [subst; exfalso; apply O; cbn; tauto|].
  destruct (Ascii.eqb_spec c "}"); [subst; exfalso; apply O; cbn; tauto|].
  destruct (Ascii.eqb_spec c " "); [subst; exfalso; apply O; cbn; tauto|]. reflexivity.
Qed.
Lemma formula_trun b ts b' : formula b ts b' -> forall stk, trun (b, false, stk) ts = Some (b', false, stk).
Proof.
  induction 1 as [b|b ts b' H IH|b c ts b' O H IH|b w ts b' C H IH|b a x ts b' H1 I1 H2 I2|b a x ts b' H1 I1 H2 I2
    |b n x d y ts b' H1 I1 H2 I2 H3 I3|b d1 a x d2 ts b' D1 D2 H1 I1 H2 I2|a x ts b' H1 I1 H2 I2]; intros stk.
  - reflexivity.
  - cbn. apply IH.
  - cbn [trun]. rewrite tstep_ord by exact O. apply IH.
  - cbn [trun]. replace (tstep (b, false, stk) (CW w)) with (Some (false, false, stk)); [apply IH|].
    cbn in C. unfold tstep. repeat destruct C as [<- | C]; try reflexivity. contradiction.
  - cbn. rewrite trun_app, I1. cbn. apply I2.
  - cbn. rewrite trun_app, I1. cbn. apply I2.
  - cbn. rewrite trun_app, I1. cbn. rewrite trun_app, I2. cbn. apply I3.
  - assert (D : forall bb d, In d delimiters -> tstep (bb, false, stk) d = Some (false, false, stk)).
    { intros bb d D. cbn in D. repeat destruct D as [<- | D]; try reflexivity. contradiction. }
    change (trun (b, false, stk) (CW "left" :: d1 :: a ++ CW "right" :: d2 :: ts)) with (trun (false, false, stk) (d1 :: a ++ CW "right" :: d2 :: ts)).
    cbn [trun]. rewrite (D false d1 D1), trun_app, I1.
    change (trun (x, false, stk) (CW "right" :: d2 :: ts)) with (trun (false, false, stk) (d2 :: ts)). cbn [trun]. rewrite (D false d2 D2).
    apply I2.
  - cbn. rewrite trun_app, I1. cbn. apply I2.
Qed.

(** ** The same on strings *)
Definition srun (m : mode) (st : mst) (s : string) : mode * option mst := (snd (lex m s), trun st (fst (lex m s))).
Lemma srun_app m st a b : srun m st (a ++ b) =
  match srun m st a with (m', Some st') => srun m' st' b | (m', None) => (snd (lex m' b), None) end.
Proof.
  unfold srun. rewrite lex_app. cbn [fst snd]. rewrite trun_app. destruct (trun st (fst (lex m a))); reflexivity.
Qed.

(** a word no command begins with *)
Definition hopeless (w : string) : Prop := exists c u, w = "pm" ++ String c u.
Lemma hopeless_unknown w : hopeless w -> known w = false.
Proof. intros (c & u & ->). reflexivity. Qed.
Lemma hopeless_more w c : hopeless w -> hopeless (w ++ String c "").
Proof. intros (d & u & ->). exists d, (u ++ String c ""). reflexivity. Qed.
Definition bad (r : mode * option mst) : Prop := snd r = None \/ exists w, fst r = Word w /\ hopeless w.
Lemma bad_more m st a b : bad (srun m st a) -> bad (srun m st (a ++ b)).
Proof.
  intros H. rewrite srun_app. destruct (srun m st a) as [m' [st'|]]; [|left; reflexivity].
  destruct H as [H | (w & E & H)]; [discriminate|]. cbn [fst] in E. subst m'.
  clear -H. revert w st' H. induction b as [|c b IH]; intros w st' H; [right; exists w; auto|].
  change (String c b) with (String c "" ++ b). rewrite srun_app. unfold srun at 1. cbn [lex lex1].
  destruct (is_letter c).
  - cbn [fst snd trun app]. apply IH, hopeless_more, H.
  - destruct st' as [[b0 p0] k0]. assert (Z : tstep (b0, p0, k0) (CW w) = None) by (unfold tstep; rewrite (hopeless_unknown w H); reflexivity).
    destruct (Ascii.eqb c " "); [|destruct (Ascii.eqb c backslash)]; cbn [fst snd trun app]; rewrite Z; left; reflexivity.
Qed.

Definition moves (s : string) (g : list bool -> list bool) : Prop :=
  forall m b stk, ready m -> ready (snd (lex m s)) /\
    (trun (b, false, stk) (fst (lex m s)) = None \/ exists b', trun (b, false, stk) (fst (lex m s)) = Some (b', false, g stk)).
Definition idl (l : list bool) := l.
Definition deadly (s : string) : Prop := forall m b stk, ready m -> bad (srun m (b, false, stk) s).
Definition ends (s : string) : Prop := forall m b stk, ready m ->
  snd (srun m (b, false, stk) s) = None \/ exists stk', srun m (b, false, stk) s = (Normal, Some (true, false, stk')).

Lemma moves_app a b g h : moves a g -> moves b h -> moves (a ++ b) (fun l => h (g l)).
Proof.
  intros A B m f stk R. rewrite lex_app. cbn [fst snd]. destruct (A m f stk R) as (A1 & A2).
  destruct (B (snd (lex m a)) f stk A1) as (B1 & _). split; [exact B1|]. rewrite trun_app.
  destruct A2 as [-> | (b' & ->)]; [left; reflexivity|]. destruct (B (snd (lex m a)) b' (g stk) A1) as (_ & B2). exact B2.
Qed.
Lemma moves_id_app a b : moves a idl -> moves b idl -> moves (a ++ b) idl.
Proof. intros A B. exact (moves_app a b idl idl A B). Qed.
Lemma deadly_after a b g : moves a g -> deadly b -> deadly (a ++ b).
Proof.
  intros A B m f stk R. rewrite srun_app. destruct (A m f stk R) as (A1 & A2). unfold srun at 1.
  destruct A2 as [-> | (b' & ->)]; [left; reflexivity|]. apply B, A1.
Qed.
Lemma deadly_more a b : deadly a -> deadly (a ++ b).
Proof. intros A m f stk R. apply bad_more, A, R. Qed.
Lemma ends_after a b g : moves a g -> ends b -> ends (a ++ b).
Proof.
  intros A B m f stk R. rewrite srun_app. destruct (A m f stk R) as (A1 & A2). unfold srun at 1 3.
  destruct A2 as [-> | (b' & ->)]; [left; reflexivity|]. apply B, A1.
Qed.

(** literals *)
Ltac lit := let m := fresh in let b := fresh in let stk := fresh in let R := fresh in
  intros m b stk R; destruct m as [| |w]; [|exfalso; apply R; reflexivity|]; (split; [discriminate|]); cbn -[known];
  repeat match goal with
  | |- context [known ?w] => let k := eval vm_compute in (known w) in match k with true => change (known w) with true | false => change (known w) with false end; cbv iota beta
  end;
  try destruct (known _); cbn; try (left; reflexivity);
  try (destruct b; cbn); try (destruct stk; cbn); try (left; reflexivity); right; eexists; reflexivity.
Lemma m_nil : moves "" idl. Proof. intros m b stk R. split; [exact R|]. right. eexists. reflexivity. Qed.
Lemma m_char c : ordinary c -> moves (String c "") idl.
Proof.
  intros O m b stk R. pose proof (ordinary_not_bs c O) as N. apply Ascii.eqb_neq in N. destruct m as [| |w]; [|exfalso; apply R; reflexivity|].
  - cbn [lex lex1]. rewrite N. cbn [fst snd app trun]. rewrite tstep_ord by exact O. split; [discriminate|]. right. eexists. reflexivity.
  - cbn [lex lex1]. destruct (is_letter c); [cbn; split; [discriminate|]; right; eexists; reflexivity|].
    destruct (Ascii.eqb_spec c " "); [subst; exfalso; apply O; cbn; tauto|]. rewrite N. cbn [fst snd app trun]. split; [discriminate|].
    unfold tstep at 1 3. destruct (known w); [|left; reflexivity]. rewrite tstep_ord by exact O. right. eexists. reflexivity.
Qed.
Lemma m_chars s : all_chars ordinary s -> moves s idl.
Proof.
  induction s as [|c s IH]; intros H; [apply m_nil|]. destruct H as (H1 & H2).
  change (String c s) with (String c "" ++ s). apply moves_id_app; [apply m_char, H1|apply IH, H2].
Qed.
Lemma m_sup : moves "^{" (cons true). Proof. lit. Qed.
Lemma m_close : moves "}" (@tl bool). Proof. lit. Qed.
Lemma m_mid : moves "}{" (fun l => false :: tl l). Proof. lit. Qed.
Lemma m_frac : moves "\frac{" (cons false). Proof. lit. Qed.
Lemma m_mathrm : moves "\mathrm{e}" idl. Proof. lit. Qed.
Lemma m_times10 : moves "\times10" idl. Proof. lit. Qed.
Lemma m_times : moves "\times " idl. Proof. lit. Qed.
Lemma m_pm : moves "\pm" idl. Proof. lit. Qed.
Lemma m_sin : moves "\sin " idl. Proof. lit. Qed.
Lemma m_cos : moves "\cos " idl. Proof. lit. Qed.
Lemma m_abs : moves "\left|" idl. Proof. lit. Qed.
Lemma m_arb : moves "\pm\left|" idl. Proof. lit. Qed.
Lemma m_absr : moves "\right|" idl. Proof. lit. Qed.
Lemma m_lp : moves "\left(" idl. Proof. lit. Qed.
Lemma m_rp : moves "\right)" idl. Proof. lit. Qed.
Lemma m_lb : moves "\left[" idl. Proof. lit. Qed.
Lemma m_rb : moves "\right]" idl. Proof. lit. Qed.
Lemma m_lc : moves "\left\{" idl. Proof. lit. Qed.
Lemma m_rc : moves "\right\}" idl. Proof. lit. Qed.
Lemma m_comma : moves ", " idl. Proof. lit. Qed.
Lemma m_colon : moves ":" idl. Proof. lit. Qed.
Lemma m_minus : moves "-" idl. Proof. lit. Qed.
Lemma m_plus : moves "+" idl. Proof. lit. Qed.
Lemma m_eq : moves "=" idl. Proof. lit. Qed.

(** ** Words, numbers, superscripts *)
Lemma ordinary_word x : is_word x -> all_chars ordinary x.
Proof. intros [_ A]. eapply all_chars_mono; [|exact A]. apply letter_ordinary. Qed.
Lemma m_paren p s : moves s idl -> moves (latex_paren p s) idl.
Proof. destruct p; auto. intros H. apply moves_id_app; [apply m_lp|]. apply moves_id_app; [exact H|apply m_rp]. Qed.
Lemma deadly_paren p s : deadly s -> deadly (latex_paren p s).
Proof. destruct p; auto. intros H. eapply deadly_after; [apply m_lp|]. apply deadly_more, H. Qed.

Lemma m_power r : moves r idl -> moves ("^{" ++ r ++ "}") idl.
Proof.
  intros H m b stk R. destruct (moves_app _ _ _ _ m_sup (moves_app _ _ _ _ H m_close) m b stk R) as (A & B). exact (conj A B).
Qed.
Lemma ends_power r : moves r idl -> ends ("^{" ++ r ++ "}").
Proof.
  intros H m b stk R. rewrite <- sapp_assoc, srun_app.
  destruct (moves_app _ _ _ _ m_sup H m b stk R) as (A1 & A2). unfold srun at 1 3.
  destruct A2 as [-> | (b' & ->)]; [left; reflexivity|]. unfold idl.
  destruct (snd (lex m ("^{" ++ r))) as [| |w]; [|exfalso; apply A1; reflexivity|].
  - right. exists stk. reflexivity.
  - unfold srun. cbn -[known]. destruct (known w); cbn; [right; exists stk; reflexivity|left; reflexivity].
Qed.
(** a second superscript *)
Lemma deadly_power l r : ends l -> deadly (l ++ "^{" ++ r).
Proof.
  intros H m b stk R. rewrite srun_app. destruct (H m b stk R) as [E | (stk' & E)].
  - destruct (srun m (b, false, stk) l) as [m' [st|]]; [discriminate E|left; reflexivity].
  - rewrite E. apply bad_more. left. reflexivity.
Qed.
(** a word after the plus-minus sign *)
Lemma letter_is c : letter c -> is_letter c = true.
Proof.
  unfold is_letter, letter. intros H. apply orb_true_iff. destruct H as [H | H]; [left|right]; apply andb_true_iff; split; apply N.leb_le; lia.
Qed.
Lemma deadly_pm x : is_word x -> deadly ("\pm" ++ x).
Proof.
  intros [N A] m b stk R. destruct x as [|c x]; [congruence|]. destruct A as (A & _).
  change ("\pm" ++ String c x) with (("\pm" ++ String c "") ++ x). apply bad_more. apply letter_is in A.
  destruct m as [| |w]; [|exfalso; apply R; reflexivity|].
  - right. exists ("pm" ++ String c ""). split; [|exists c, ""; reflexivity]. unfold srun. cbn [fst append lex lex1].
    cbn. rewrite A. reflexivity.
  - unfold srun. cbn -[known is_letter]. change (is_letter "\") with false. cbn -[known is_letter].
    change (is_letter "p") with true. cbn -[known is_letter]. change (is_letter "m") with true. cbn -[known is_letter]. rewrite A. cbn -[known].
    destruct (known w); [|left; reflexivity]. right. exists ("pm" ++ String c ""). split; [reflexivity|exists c, ""; reflexivity].
Qed.

(** numbers *)
Lemma number_moves t : g_format t -> exists s, latex_number t = Ret s /\ moves s idl /\ (~ mantissa t -> ends s).
Proof.
  assert (X : forall m e, mantissa m -> all_chars ordinary e -> moves (m ++ "\times10^{" ++ e ++ "}") idl /\ ends (m ++ "\times10^{" ++ e ++ "}")).
  { intros m e M O. change ("\times10^{" ++ e ++ "}") with ("\times10" ++ ("^{" ++ e ++ "}")).
    pose proof (m_chars m (mantissa_ordinary m M)) as A. pose proof (m_chars e O) as B. split.
    - apply moves_id_app; [exact A|]. apply moves_id_app; [apply m_times10|]. apply m_power, B.
    - eapply ends_after; [exact A|]. eapply ends_after; [apply m_times10|]. apply ends_power, B. }
  intros G. destruct G as [m M|m d M D|m d M D].
  - exists m. rewrite latex_number_plain by auto. split; [reflexivity|]. split; [apply m_chars, mantissa_ordinary, M|tauto].
  - eexists. rewrite latex_number_plus by auto. split; [reflexivity|].
    destruct (X m d M) as (A & B); [|auto]. eapply all_chars_mono; [|exact D]. apply digit_ordinary.
  - eexists. rewrite latex_number_minus by auto. split; [reflexivity|].
    destruct (X m ("-" ++ d) M) as (A & B); [|auto]. split; [ord|]. eapply all_chars_mono; [|exact D]. apply digit_ordinary.
Qed.
Lemma mantissa_dec t : g_format t -> mantissa t \/ ~ mantissa t.
Proof.
  intros [m M|m d M D|m d M D]; [left; exact M| |]; right; intros M'; apply mantissa_no_e in M'; apply M'; rewrite la_app; apply in_or_app; right; simpl; auto.
Qed.

Lemma join_moves ss : Forall (fun s => moves s idl) ss -> moves (join_comma ss) idl.
Proof.
  induction 1 as [|s ss P Hs IH]; [apply m_nil|]. destruct ss as [|s2 ss]; [exact P|].
  change (join_comma (s :: s2 :: ss)) with (s ++ ", " ++ join_comma (s2 :: ss)). apply moves_id_app; [exact P|]. apply moves_id_app; [apply m_comma|exact IH].
Qed.
Lemma join_deadly ss : Forall (fun s => moves s idl) ss -> Exists deadly ss -> deadly (join_comma ss).
Proof.
  induction 1 as [|s ss P Hs IH]; intros X; [inversion X|]. destruct ss as [|s2 ss].
  - inversion X as [? ? Y|? ? Y]; subst; [exact Y|inversion Y].
  - change (join_comma (s :: s2 :: ss)) with (s ++ ", " ++ join_comma (s2 :: ss)).
    inversion X as [? ? Y|? ? Y]; subst; [apply deadly_more, Y|].
    eapply deadly_after; [exact P|]. eapply deadly_after; [apply m_comma|]. apply IH, Y.
Qed.

Section Exact.
Context {K : Type}.
Notation expr := (expr K).
Variable show : K -> string.
Variable forced : bool.

Definition shape (e : expr) (s : string) : Prop :=
  moves s idl /\ (fine show forced e \/ deadly s) /\ (forced = false -> superscripted show e -> ends s).

Lemma exponent_dec e : leaves show e -> exponent_number show e \/ ~ exponent_number show e.
Proof.
  destruct e as [c|x|u a|o l r|es|d]; cbn [leaves exponent_number]; intros G; try (right; intros []; fail).
  destruct (mantissa_dec _ G) as [M | M]; [right; intros N; exact (N M)|left; exact M].
Qed.
Lemma superscripted_dec e : leaves show e -> superscripted show e \/ ~ superscripted show e.
Proof.
  destruct e as [c|x|u a|o l r|es|d]; intros L.
  - apply (exponent_dec (EConst c)), L.
  - right. simpl. tauto.
  - cbn [leaves] in L. destruct L as (_ & L). destruct u; cbn [superscripted exponent_number]; try (right; intros []; fail); try (left; exact I); apply exponent_dec, L.
  - cbn [leaves] in L. destruct L as (_ & _ & _ & L). destruct o; cbn [superscripted exponent_number]; try (right; intros []; fail); try (left; exact I); apply exponent_dec, L.
  - right. simpl. tauto.
  - right. simpl. tauto.
Qed.

Lemma latex_shape e : leaves show e -> ~ contains_ln e -> exists s, latex_repr show forced e = Ret s /\ shape e s.
Proof.
  induction e using expr_ind'; intros Le Nl; simpl in Le.
  - destruct (number_moves _ Le) as (s & E & M & S). exists s. split; [exact E|]. split; [exact M|]. split; [left; exact Le|intros _; exact S].
  - exists x. split; [reflexivity|]. split; [apply m_chars, ordinary_word, Le|]. split; [left; exact Le|simpl; tauto].
  - destruct Le as (Nd & La). simpl in Nl. destruct (IHe La) as (s & E & M & F & S); [tauto|]. assert (No : o <> ULog) by tauto.
    cbn [latex_repr]. rewrite E, (ebp_bps e Nd). cbn [obind]. eexists. split; [reflexivity|].
    pose proof (m_paren (paren_u forced o (bps e)) s M) as M'.
    assert (X : exists g, moves (un_latex_l o) g /\ moves (un_latex_l o ++ latex_paren (paren_u forced o (bps e)) s ++ un_latex_r o) idl).
    { destruct o; cbn [un_latex_l un_latex_r]; [exists idl|exists idl|congruence|exists (cons true)|exists idl|exists idl|exists idl].
      - split; [apply m_sin|]. apply moves_id_app; [apply m_sin|]. apply moves_id_app; [exact M'|apply m_nil].
      - split; [apply m_cos|]. apply moves_id_app; [apply m_cos|]. apply moves_id_app; [exact M'|apply m_nil].
      - split; [exact (moves_app _ _ _ _ m_mathrm m_sup)|].
        change (moves ("\mathrm{e}" ++ ("^{" ++ latex_paren (paren_u forced UExp (bps e)) s ++ "}")) idl).
        apply moves_id_app; [apply m_mathrm|]. apply m_power, M'.
      - split; [apply m_abs|]. apply moves_id_app; [apply m_abs|]. apply moves_id_app; [exact M'|apply m_absr].
      - split; [apply m_arb|]. apply moves_id_app; [apply m_arb|]. apply moves_id_app; [exact M'|apply m_absr].
      - split; [apply m_minus|]. apply moves_id_app; [apply m_minus|]. apply moves_id_app; [exact M'|apply m_nil]. }
    destruct X as (g & G & X). split; [exact X|]. split.
    + destruct F as [F | F]; [left; simpl; tauto|]. right. eapply deadly_after; [exact G|]. apply deadly_more, deadly_paren, F.
    + intros Ef Hs. destruct o; simpl in Hs; try contradiction.
      * destruct e as [c|x|u a|o l r|es|d]; simpl in Hs; try contradiction. replace (paren_u forced USin (bps (EConst c))) with false by (rewrite Ef; reflexivity).
        cbn [latex_paren un_latex_l un_latex_r]. rewrite sapp_nil_r. eapply ends_after; [apply m_sin|]. apply S; auto.
      * destruct e as [c|x|u a|o l r|es|d]; simpl in Hs; try contradiction. replace (paren_u forced UCos (bps (EConst c))) with false by (rewrite Ef; reflexivity).
        cbn [latex_paren un_latex_l un_latex_r]. rewrite sapp_nil_r. eapply ends_after; [apply m_cos|]. apply S; auto.
      * change (ends ("\mathrm{e}" ++ ("^{" ++ latex_paren (paren_u forced UExp (bps e)) s ++ "}"))).
        eapply ends_after; [apply m_mathrm|]. apply ends_power, M'.
  - destruct Le as (N1 & N2 & L1 & L2). simpl in Nl.
    destruct (IHe1 L1) as (s1 & E1 & M1 & F1 & S1); [tauto|]. destruct (IHe2 L2) as (s2 & E2 & M2 & F2 & S2); [tauto|].
    cbn [latex_repr]. rewrite E1, E2, (ebp_bps e1 N1), (ebp_bps e2 N2). cbn [obind]. eexists. split; [reflexivity|].
    pose proof (m_paren (paren_l forced o (bps e1)) s1 M1) as M1'. pose proof (m_paren (paren_r forced o (bps e2)) s2 M2) as M2'.
    set (t1 := latex_paren (paren_l forced o (bps e1)) s1) in *. set (t2 := latex_paren (paren_r forced o (bps e2)) s2) in *.
    assert (X : exists g h, moves (op_latex_l o) g /\ moves (op_latex o) h /\ moves (op_latex_l o ++ t1 ++ op_latex o ++ t2 ++ op_latex_r o) idl).
    { assert (Y : forall op cl, moves op idl -> moves cl idl -> exists g h, moves "" g /\ moves op h /\ moves ("" ++ t1 ++ op ++ t2 ++ cl) idl).
      { intros op cl P Q. exists idl, idl. split; [apply m_nil|]. split; [exact P|]. apply moves_id_app; [apply m_nil|]. apply moves_id_app; [exact M1'|].
        apply moves_id_app; [exact P|]. apply moves_id_app; [exact M2'|exact Q]. }
      destruct o; cbn [op_latex_l op_latex op_latex_r].
      - apply Y; [apply m_plus|apply m_nil].
      - apply Y; [apply m_minus|apply m_nil].
      - apply Y; [apply m_times|apply m_nil].
      - exists (cons false), (fun l => false :: tl l). split; [apply m_frac|]. split; [apply m_mid|].
        intros m b stk R. destruct (moves_app _ _ _ _ m_frac (moves_app _ _ _ _ M1' (moves_app _ _ _ _ m_mid (moves_app _ _ _ _ M2' m_close))) m b stk R) as (A & B).
        exact (conj A B).
      - exists idl, (cons true). split; [apply m_nil|]. split; [apply m_sup|]. apply moves_id_app; [apply m_nil|]. apply moves_id_app; [exact M1'|]. apply m_power, M2'.
      - apply Y; [apply m_eq|apply m_nil].
      - apply Y; [apply m_lb|apply m_rb].
      - apply Y; [apply m_lc|apply m_rc].
      - apply Y; [apply m_pm|apply m_nil]. }
    destruct X as (g & h & G & H & X). split; [exact X|]. split.
    + destruct F1 as [F1 | F1].
      2:{ right. eapply deadly_after; [exact G|]. apply deadly_more, deadly_paren, F1. }
      destruct F2 as [F2 | F2].
      2:{ right. eapply deadly_after; [exact G|]. eapply deadly_after; [exact M1'|]. eapply deadly_after; [exact H|]. apply deadly_more, deadly_paren, F2. }
      assert (Fi : (o = BPow -> forced = false -> ~ superscripted show e1) -> (o = BUnc -> forced = false -> ~ is_variable e2) -> fine show forced (EBin o e1 e2)).
      { intros P Q. exact (conj N1 (conj N2 (conj F1 (conj F2 (conj P Q))))). }
      destruct forced eqn:Ef.
      { left. apply Fi; discriminate. }
      destruct (superscripted_dec e1 L1) as [Sp | Sp].
      * destruct o; try (left; apply Fi; discriminate).
        -- right. assert (Pl : paren_l false BPow (bps e1) = false).
           { unfold paren_l. rewrite orb_false_r. apply Z.ltb_ge.
             destruct e1 as [k|k|k1 k2|k1 k2 k3|k|k]; simpl in Sp; try contradiction;
               try (destruct k1; simpl in Sp; try contradiction); vm_compute; discriminate. }
           subst t1. rewrite Pl. apply (deadly_power s1). apply S1; auto.
        -- destruct e2 as [c|x|u a|o l r|es|d]; try (left; apply Fi; [discriminate|intros _ _ []; fail]).
           right. eapply deadly_after; [exact G|]. eapply deadly_after; [exact M1'|]. injection E2 as <-. change (deadly ("\pm" ++ x ++ "")). rewrite <- sapp_assoc. apply deadly_more, deadly_pm, L2.
      * destruct o; try (left; apply Fi; [intros _ _; exact Sp|discriminate]).
        destruct e2 as [c|x|u a|o l r|es|d]; try (left; apply Fi; [discriminate|intros _ _ []; fail]).
        right. eapply deadly_after; [exact G|]. eapply deadly_after; [exact M1'|]. injection E2 as <-. change (deadly ("\pm" ++ x ++ "")). rewrite <- sapp_assoc. apply deadly_more, deadly_pm, L2.
    + intros Ef Hs. destruct o; simpl in Hs; try contradiction.
      * eapply ends_after; [exact G|]. eapply ends_after; [exact M1'|]. apply ends_power, M2'.
      * destruct e2 as [c|x|u a|o l r|es|d]; simpl in Hs; try contradiction.
        subst t2. replace (paren_r forced BUnc (bps (EConst c))) with false by (rewrite Ef; reflexivity).
        cbn [latex_paren op_latex_r]. rewrite sapp_nil_r. eapply ends_after; [exact G|]. eapply ends_after; [exact M1'|]. eapply ends_after; [exact H|]. apply S2; auto.
  - apply fold_and in Le.
    assert (X : exists ss, Forall2 (fun m x => m = Ret x) (map (latex_repr show forced) es) ss /\ Forall (fun s => moves s idl) ss /\
        (fold_right (fun a P => fine show forced a /\ P) True es \/ Exists deadly ss)).
    { simpl in Nl. induction es as [|a es IH]; [exists []; split; [constructor|]; split; [constructor|left; exact I]|].
      inversion H; subst. inversion Le; subst. simpl in Nl. destruct IH as (ss & A & B & C); auto. destruct H2 as (s & E & M & F & _); [assumption|tauto|].
      exists (s :: ss). split; [constructor; auto|]. split; [constructor; auto|].
      destruct F as [F | F]; [|right; left; exact F]. destruct C as [C | C]; [left; simpl; auto|right; right; exact C]. }
    destruct X as (ss & A & B & C). cbn [latex_repr]. rewrite (oseq_ret _ _ A). cbn [obind]. eexists. split; [reflexivity|].
    split; [apply moves_id_app; [apply m_lb|]; apply moves_id_app; [apply join_moves, B|apply m_rb]|]. split; [|simpl; tauto].
    destruct C as [C | C]; [left; exact C|]. right. eapply deadly_after; [apply m_lb|]. apply deadly_more. apply join_deadly; assumption.
  - apply fold_and in Le.
    set (g := fun p : string * expr => do s <- latex_repr show forced (snd p); Ret (fst p ++ ":" ++ s)).
    assert (X : exists ss, Forall2 (fun m x => m = Ret x) (map g d) ss /\ Forall (fun s => moves s idl) ss /\
        (fold_right (fun p P => (is_word (fst p) /\ fine show forced (snd p)) /\ P) True d \/ Exists deadly ss)).
    { simpl in Nl. induction d as [|[x v] d IH]; [exists []; split; [constructor|]; split; [constructor|left; exact I]|].
      inversion H; subst. inversion Le; subst. simpl in Nl. cbn [fst snd] in *. destruct IH as (ss & A & B & C); auto.
      destruct H4 as (Nk & Lv). destruct H2 as (s & E & M & F & _); [assumption|tauto|].
      exists ((x ++ ":" ++ s) :: ss). split; [constructor; [unfold g; cbn [fst snd]; rewrite E; reflexivity|exact A]|]. split.
      - constructor; [|exact B]. apply moves_id_app; [apply m_chars, ordinary_word, Nk|]. apply moves_id_app; [apply m_colon|exact M].
      - destruct F as [F | F]; [|right; left; eapply deadly_after; [apply m_chars, ordinary_word, Nk|]; eapply deadly_after; [apply m_colon|exact F]].
        destruct C as [C | C]; [left; simpl; auto|right; right; exact C]. }
    destruct X as (ss & A & B & C). cbn [latex_repr]. fold g. rewrite (oseq_ret _ _ A). cbn [obind]. eexists. split; [reflexivity|].
    split; [apply moves_id_app; [apply m_lc|]; apply moves_id_app; [apply join_moves, B|apply m_rc]|]. split; [|simpl; tauto].
    destruct C as [C | C]; [left; exact C|]. right. eapply deadly_after; [apply m_lc|]. apply deadly_more. apply join_deadly; assumption.
Qed.

Lemma deadly_rejected s : deadly s -> ~ tex_accepts s.
Proof.
  intros D [b F]. apply formula_trun with (stk := []) in F. unfold ltokens in F.
  specialize (D Normal false [] ltac:(discriminate)). unfold srun in D. destruct (lex Normal s) as [ts m]. cbn [fst snd] in D.
  rewrite trun_app in F. destruct D as [D | (w & E & H)]; cbn [fst snd] in *; [rewrite D in F; discriminate|]. subst m.
  destruct (trun (false, false, []) ts) as [[[b0 p0] k0]|]; [|discriminate]. cbn [trun] in F. unfold tstep in F. rewrite (hopeless_unknown w H) in F. discriminate.
Qed.
Lemma contains_dec (e : expr) : contains_ln e \/ ~ contains_ln e.
Proof.
  induction e using expr_ind'; cbn [contains_ln].
  - right. intros [].
  - right. intros [].
  - destruct IHe as [C | C]; [left; right; exact C|].
    destruct o; try (left; left; reflexivity); right; intros [X | X]; try discriminate; exact (C X).
  - destruct IHe1 as [C1 | C1]; [left; left; exact C1|]. destruct IHe2 as [C2 | C2]; [left; right; exact C2|]. right. intros [X | X]; auto.
  - induction H as [|a es [C | C] Hs [D | D]]; cbn [fold_right];
      [right; intros []|left; left; exact C|left; left; exact C|left; right; exact D|right; intros [X | X]; auto].
  - induction H as [|a es [C | C] Hs [D | D]]; cbn [fold_right];
      [right; intros []|left; left; exact C|left; left; exact C|left; right; exact D|right; intros [X | X]; auto].
Qed.
Lemma fine_no_ln e : fine show forced e -> ~ contains_ln e.
Proof.
  induction e using expr_ind'; simpl; try tauto.
  - intros F. induction es as [|a es IH]; simpl in *; [tauto|]. inversion H; subst. destruct F as (F1 & F2). specialize (IH H3 F2). tauto.
  - intros F. induction d as [|[x v] d IH]; simpl in *; [tauto|]. inversion H; subst. cbn [snd] in *. destruct F as ((_ & F1) & F2). specialize (IH H3 F2). tauto.
Qed.
End Exact.

(** ** The LaTeX form of an expression of numbers and words is accepted exactly
    when there is no logarithm in it and, unless all parentheses are written, no
    power of something that ends in a superscript and no variable after a
    plus-minus sign. *)
Theorem C65_accepted_iff : forall (K : Type) (show : K -> string) forced (e : expr K),
  leaves show e ->
  exists s, latex_repr show forced e = Ret s /\ (tex_accepts s <-> fine show forced e).
Proof.
  intros K show forced e L. destruct (contains_dec e) as [C | C].
  - destruct (C65_logarithm_refuted K show forced e L C) as (s & E & N). exists s. split; [exact E|].
    split; [tauto|]. intros F. exfalso. exact (fine_no_ln show forced e F C).
  - destruct (latex_shape show forced e L C) as (s & E & M & F & _). exists s. split; [exact E|]. split.
    + intros A. destruct F as [F | F]; [exact F|]. exfalso. exact (deadly_rejected s F A).
    + intros G. destruct (C65_accepted_partial K show forced e G) as (s' & E' & A). congruence.
Qed.
Print Assumptions C65_accepted_iff.
(** Both sides occur: (x^y)^z with all parentheses is accepted, without them it is not. *)
Example C65_iff_ex : let e := EBin BPow (EBin BPow (EVar "x") (EVar "y")) (EVar "z") : expr Z in
  leaves show_dec e /\ fine show_dec true e /\ ~ fine show_dec false e.
Proof.
  cbv zeta. split; [|split].
  - simpl. repeat split; try tauto; try wrd; try discriminate; unfold letter; cbn; lia.
  - simpl. repeat split; try tauto; try wrd; try discriminate; unfold letter; cbn; lia.
  - simpl. intros (_ & _ & _ & _ & H & _). exact (H eq_refl eq_refl I).
Qed.
