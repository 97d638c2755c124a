(** C37 (brackets), C77, C78: texts shown to Python users, printed matrices. *)
From Coq Require Import List String Ascii Bool Arith ZArith Reals Lia.
From Verif Require Import Outcome Num ExprModel ExprSpec ExprBase ExprFold ParserModel ParserSpec ParserBase ReprProofs PropExpr PropParser PropReadBack.
From Verif Require Import FloatModel FloatSpec PropFloatExpr FloatTextModel FloatTextSpec PropFloatText PyTextModel.
From Verif Require Import ExprModel.
Import ListNotations.
Open Scope string_scope. Open Scope nat_scope.

(* ------------------------------------------------------------------ *)
(** ** Specification *)

(** Round, square and curly brackets match: [open] are the brackets still open, the
    last one first. *)
Definition partner (c : ascii) : option ascii :=
  if Ascii.eqb c ")" then Some "("%char else if Ascii.eqb c "]" then Some "["%char
  else if Ascii.eqb c "}" then Some "{"%char else None.
Definition opens (c : ascii) : bool := (Ascii.eqb c "(" || Ascii.eqb c "[" || Ascii.eqb c "{")%bool.
Fixpoint nested (open : list ascii) (s : string) : Prop :=
  match s with
  | "" => open = []
  | String c r =>
      match partner c with
      | Some o => match open with p :: q => p = o /\ nested q r | [] => False end
      | None => if opens c then nested (c :: open) r else nested open r
      end
  end.
Fixpoint count (c : ascii) (s : string) : nat :=
  match s with "" => 0 | String d r => (if Ascii.eqb d c then 1 else 0) + count c r end.
(** How many absolute values and sign choices are in an expression. *)
Fixpoint bars {K} (e : expr K) : nat :=
  match e with
  | EUn o a => match o with UAbs | UArb => S (bars a) | _ => bars a end
  | EBin _ l r => bars l + bars r
  | EArr es => fold_right (fun a n => bars a + n) 0 es
  | EDict d => fold_right (fun p n => bars (snd p) + n) 0 d
  | _ => 0
  end.
(** All names and constants are texts with a property. *)
Fixpoint leaves_are {K} (show : K -> string) (P : string -> Prop) (e : expr K) : Prop :=
  match e with
  | EConst c => P (show c)
  | EVar x => P x
  | EUn _ a => leaves_are show P a
  | EBin _ l r => leaves_are show P l /\ leaves_are show P r
  | EArr es => fold_right (fun a Q => leaves_are show P a /\ Q) True es
  | EDict d => fold_right (fun p Q => (P (fst p) /\ leaves_are show P (snd p)) /\ Q) True d
  end.
Definition no_bracket (c : ascii) : Prop := ~ In c (list_ascii_of_string "()[]{}|").

(** The Python expression Expr('...'): the characters between the quotes stand for
    themselves unless one is a quote, a backslash or ends the line. *)
Definition literal_char (c : ascii) : Prop :=
  ~ In (nat_of_ascii c) [0; 10; 13; 39; 92].
Inductive py_eval {K} {EN : ENum K} (read : string -> K) (show : K -> string) (fuel : nat) : string -> outcome (expr K) -> Prop :=
| py_call : forall body, all_chars literal_char body ->
    py_eval read show fuel ("Expr('" ++ body ++ "')") (expr_of_string read show fuel body).

(* ------------------------------------------------------------------ *)
(** ** What every printed text has *)
Section Closed.
Context {K : Type}.
Variable show : K -> string.
Variable fp : bool.
Variable P : string -> expr K -> Prop.
Variable Pk : string -> Prop.
(** [P s e]: the text [s] is good for [e].  Closure under what the printer does. *)
Hypothesis Hun : forall o a s b, P s a -> P (un_l o ++ paren b s ++ un_r o) (EUn o a).
Hypothesis Hbin : forall o l r sl sr b c, P sl l -> P sr r ->
  P (paren b sl ++ op_repr o ++ paren c sr ++ op_close o) (EBin o l r).
Hypothesis Harr : forall es ts, Forall2 P ts es -> P ("[" ++ join_comma ts ++ "]") (EArr es).
Hypothesis Hdict : forall (d : list (string * expr K)) ts, Forall2 (fun t p => Pk (fst p) /\ exists s, t = fst p ++ ":" ++ s /\ P s (snd p)) ts d ->
  P ("{" ++ join_comma ts ++ "}") (EDict d).
Definition leafP (e : expr K) : Prop := match e with EConst c => P (show c) e | EVar x => P x e | _ => True end.
Fixpoint leaves_ok (e : expr K) : Prop :=
  match e with
  | EConst _ | EVar _ => leafP e
  | EUn _ a => leaves_ok a
  | EBin _ l r => leaves_ok l /\ leaves_ok r
  | EArr es => fold_right (fun a Q => leaves_ok a /\ Q) True es
  | EDict d => fold_right (fun p Q => (Pk (fst p) /\ leaves_ok (snd p)) /\ Q) True d
  end.
Lemma oseq_inv {A B} (f : A -> outcome B) l ts : oseq (map f l) = Ret ts -> Forall2 (fun t a => f a = Ret t) ts l.
Proof.
  revert ts. induction l as [|a l IH]; intros ts H; cbn in H.
  - injection H as <-. constructor.
  - apply obind_ret in H as (x & Hx & H). apply obind_ret in H as (xs & Hxs & H). injection H as <-.
    constructor; auto.
Qed.
Lemma repr_closed e : leaves_ok e -> forall s, repr show fp e = Ret s -> P s e.
Proof.
  induction e as [c|x|o a IH|o l r IHl IHr|es IH|d IH] using expr_ind'; intros L s H; cbn [repr leaves_ok leafP] in *.
  - injection H as <-. exact L.
  - injection H as <-. exact L.
  - apply obind_ret in H as (t & Ht & H). apply obind_ret in H as (b & Hb & H). injection H as <-. apply Hun. auto.
  - apply obind_ret in H as (bl & Hbl & H). apply obind_ret in H as (br & Hbr & H).
    apply obind_ret in H as (sl & Hsl & H). apply obind_ret in H as (sr & Hsr & H). injection H as <-.
    destruct L. apply Hbin; auto.
  - apply obind_ret in H as (ts & Hts & H). injection H as <-. apply Harr. apply oseq_inv in Hts.
    clear - IH L Hts. revert ts Hts. induction es as [|a es IHes]; intros ts Hts; inversion Hts; subst; constructor.
    + inversion IH; subst. destruct L. auto.
    + inversion IH; subst. destruct L. auto.
  - apply obind_ret in H as (ts & Hts & H). injection H as <-. apply Hdict. apply oseq_inv in Hts.
    clear - IH L Hts. revert ts Hts. induction d as [|p d IHd]; intros ts Hts; inversion Hts; subst; constructor.
    + destruct L as [[L0 L1] L2]. split; auto.
      match goal with H : (do s <- _; _) = Ret _ |- _ => apply obind_ret in H as (s & Hs & E) end. injection E as <-. exists s.
      split; auto. apply (Forall_inv IH); auto.
    + destruct L. apply IHd; auto. exact (Forall_inv_tail IH).
Qed.
End Closed.

(** *** Brackets *)
Definition neutral (s : string) : Prop := forall open rest, nested open (s ++ rest) <-> nested open rest.
Lemma neutral_app a b : neutral a -> neutral b -> neutral (a ++ b).
Proof. intros A B o r. rewrite sapp_assoc. rewrite (A o (b ++ r)). apply B. Qed.
Lemma neutral_nil : neutral "". Proof. intros o r. reflexivity. Qed.
Lemma neutral_plain s : all_chars no_bracket s -> neutral s.
Proof.
  induction s as [|c s IH]; intros A; [apply neutral_nil|]. destruct A as [Hc A]. intros o r. cbn [append nested].
  unfold no_bracket in Hc. cbn in Hc.
  assert (E : partner c = None /\ opens c = false).
  { unfold partner, opens. repeat match goal with |- context [Ascii.eqb c ?d] => destruct (Ascii.eqb_spec c d); [subst; exfalso; apply Hc; auto 8|] end. auto. }
  destruct E as [-> ->]. apply (IH A).
Qed.
Lemma neutral_wrap a x b : In (a, b) [("("%char, ")"%char); ("["%char, "]"%char); ("{"%char, "}"%char)] ->
  neutral x -> neutral (String a "" ++ x ++ String b "").
Proof.
  intros H X o r. change ((String a "" ++ x ++ String b "") ++ r) with (String a ((x ++ String b "") ++ r)).
  rewrite sapp_assoc. cbn [nested].
  assert (E : partner a = None /\ opens a = true /\ partner b = Some a).
  { destruct H as [H|[H|[H|[]]]]; injection H as <- <-; cbn; auto. }
  destruct E as (-> & -> & E). rewrite (X (a :: o) (String b "" ++ r)). cbn [append nested]. rewrite E. tauto.
Qed.
Lemma neutral_bar : neutral "|". Proof. intros o r. cbn. reflexivity. Qed.
Lemma neutral_un_l o : neutral (un_l o). Proof. intros p r. destruct o; reflexivity. Qed.
Lemma neutral_un_r o : neutral (un_r o). Proof. intros p r. destruct o; reflexivity. Qed.
Lemma neutral_paren b s : neutral s -> neutral (paren b s).
Proof. destruct b; auto. intros H. apply neutral_wrap; cbn; auto. Qed.
Lemma neutral_join ts : Forall neutral ts -> neutral (join_comma ts).
Proof.
  induction ts as [|t ts IH]; intros F; [apply neutral_nil|]. inversion F; subst. destruct ts as [|u ts]; [exact H1|].
  change (join_comma (t :: u :: ts)) with (t ++ ", " ++ join_comma (u :: ts)).
  apply neutral_app; [exact H1|]. apply neutral_app; [intros o r; reflexivity|apply IH; exact H2].
Qed.
Lemma fold_leaves {K} (show : K -> string) (P Q : string -> Prop) (R : string -> expr K -> Prop) (e : expr K) : (forall s, P s -> Q s) ->
  (forall c, Q (show c) -> R (show c) (EConst c)) -> (forall x, Q x -> R x (EVar x)) ->
  leaves_are show P e -> leaves_ok show R Q e.
Proof.
  intros PQ Rc Rv. induction e as [c|x|o a IH|o l r IHl IHr|es IH|d IH] using expr_ind'; cbn; auto.
  - tauto.
  - induction IH as [|a es Ha _ IHes]; cbn; auto. intros [H1 H2]. auto.
  - induction IH as [|p d Hp _ IHd]; cbn; auto. intros [[H0 H1] H2]. auto.
Qed.

Theorem C37_brackets : forall (K : Type) (show : K -> string) forced (e : expr K) s,
  leaves_are show (all_chars no_bracket) e -> repr show forced e = Ret s -> nested [] s.
Proof.
  intros K show fp e s L H.
  assert (N : neutral s).
  { refine (repr_closed show fp (fun s _ => neutral s) neutral _ _ _ _ e _ s H).
    - intros o a t b Ht. apply neutral_app; [apply neutral_un_l|]. apply neutral_app; [apply neutral_paren; auto|apply neutral_un_r].
    - intros o l r sl sr b c Hl Hr. apply neutral_app; [apply neutral_paren; auto|].
      assert (X : neutral (paren c sr)) by (apply neutral_paren; auto). revert X. generalize (paren c sr). intros x X.
      destruct o; try (apply neutral_app; [intros p q; reflexivity|]; apply neutral_app; [exact X|apply neutral_nil]).
      + apply (neutral_wrap "[" x "]"); cbn; auto.
      + apply (neutral_wrap "{" x "}"); cbn; auto.
    - intros es ts F. apply (neutral_wrap "[" _ "]"); [cbn; auto|]. apply neutral_join. induction F; constructor; auto.
    - intros d ts F. apply (neutral_wrap "{" _ "}"); [cbn; auto|]. apply neutral_join.
      induction F as [|t p ts d (Hk & u & -> & Hu) F IH]; constructor; auto.
      apply neutral_app; [exact Hk|]. apply neutral_app; [intros o r; reflexivity|exact Hu].
    - revert L. apply fold_leaves; auto. apply neutral_plain. }
  specialize (N [] ""). rewrite sapp_nil_r in N. apply N. reflexivity.
Qed.
Print Assumptions C37_brackets.

(** *** Bars *)
Lemma count_app c a b : count c (a ++ b) = count c a + count c b.
Proof. induction a as [|d a IH]; cbn; auto. rewrite IH. lia. Qed.
Lemma count_none c s : lacks c s -> count c s = 0.
Proof.
  induction s as [|d s IH]; cbn; auto. intros [H L]. destruct (Ascii.eqb_spec d c); [contradiction|]. auto.
Qed.
Lemma count_paren b s : count "|" (paren b s) = count "|" s.
Proof. destruct b; auto. cbn. rewrite count_app. cbn. lia. Qed.
Lemma count_join (f : string -> nat) ts : (forall t, f t = count "|" t) -> count "|" (join_comma ts) = fold_right (fun t n => count "|" t + n) 0 ts.
Proof.
  intros _. induction ts as [|t ts IH]; auto. destruct ts as [|u ts]; [cbn; lia|].
  change (join_comma (t :: u :: ts)) with (t ++ ", " ++ join_comma (u :: ts)). rewrite !count_app, IH. reflexivity.
Qed.
(** Two bars for every absolute value and every sign choice, no others. *)
Theorem C37_bars : forall (K : Type) (show : K -> string) forced (e : expr K) s,
  leaves_are show (lacks "|") e -> repr show forced e = Ret s -> count "|" s = 2 * bars e.
Proof.
  intros K show fp e s L H.
  refine (repr_closed show fp (fun s e => count "|" s = 2 * bars e) (fun k => count "|" k = 0) _ _ _ _ e _ s H).
  - intros o a t b Ht. rewrite !count_app, count_paren, Ht. destruct o; cbn -[Nat.mul]; lia.
  - intros o l r sl sr b c Hl Hr. rewrite !count_app, !count_paren, Hl, Hr. destruct o; cbn -[Nat.mul]; lia.
  - intros es ts F. cbn [append count]. rewrite count_app, (count_join (count "|")) by auto. cbn [count bars].
    assert (X : fold_right (fun t n => count "|" t + n) 0 ts = 2 * fold_right (fun a n => bars a + n) 0 es).
    { induction F as [|t a ts es Ht F IH]; [reflexivity|]. cbn [fold_right]. rewrite Ht, IH. lia. }
    rewrite X. cbn -[Nat.mul]. lia.
  - intros d ts F. cbn [append count]. rewrite count_app, (count_join (count "|")) by auto. cbn [count bars].
    assert (X : fold_right (fun t n => count "|" t + n) 0 ts = 2 * fold_right (fun p n => bars (snd p) + n) 0 d).
    { induction F as [|t p ts d (Hk & u & -> & Hu) F IH]; [reflexivity|]. cbn [fold_right].
      rewrite !count_app, Hk, Hu, IH. cbn -[Nat.mul]. lia. }
    rewrite X. cbn -[Nat.mul]. lia.
  - revert L. apply fold_leaves; [apply count_none|auto..].
Qed.
Print Assumptions C37_bars.
Example C37_bars_ex : repr decimal false (EUn UArb (EBin BAdd (EUn UAbs (EVar "x")) (EConst 2%Z))) = Ret (ParserSpec.plus_minus ++ "|(|x|)+2|").
Proof. reflexivity. Qed.

(** *** Characters of a Python literal *)
Lemma all_chars_app (p : ascii -> Prop) a b : all_chars p (a ++ b) <-> all_chars p a /\ all_chars p b.
Proof. induction a as [|c a IH]; cbn; [tauto|]. rewrite IH. tauto. Qed.
Lemma all_chars_imp (p q : ascii -> Prop) s : (forall c, p c -> q c) -> all_chars p s -> all_chars q s.
Proof. intros H. induction s as [|c s IH]; cbn; auto. intros []. auto. Qed.
Ltac literal := cbn; repeat split; unfold literal_char; cbn; lia.
Lemma literal_join ts : Forall (all_chars literal_char) ts -> all_chars literal_char (join_comma ts).
Proof.
  induction ts as [|t ts IH]; intros F; [exact I|]. inversion F; subst. destruct ts as [|u ts]; [exact H1|].
  change (join_comma (t :: u :: ts)) with (t ++ ", " ++ join_comma (u :: ts)).
  rewrite !all_chars_app. split; auto. split; [literal|auto].
Qed.
Lemma literal_text {K} (show : K -> string) fp (e : expr K) s :
  leaves_are show (all_chars literal_char) e -> repr show fp e = Ret s -> all_chars literal_char s.
Proof.
  intros L H. refine (repr_closed show fp (fun s _ => all_chars literal_char s) (all_chars literal_char) _ _ _ _ e _ s H).
  - intros o a t b Ht. rewrite !all_chars_app. split; [destruct o; literal|]. split; [|destruct o; literal].
    destruct b; [|exact Ht]. unfold paren. rewrite !all_chars_app. split; [literal|]. split; [exact Ht|literal].
  - intros o l r sl sr b c Hl Hr.
    assert (X : forall b s, all_chars literal_char s -> all_chars literal_char (paren b s)).
    { intros [|] u Hu; [|exact Hu]. unfold paren. rewrite !all_chars_app. split; [literal|]. split; [exact Hu|literal]. }
    rewrite !all_chars_app. split; [auto|]. split; [destruct o; literal|]. split; [auto|destruct o; literal].
  - intros es ts F. rewrite !all_chars_app. split; [literal|]. split; [|literal]. apply literal_join. induction F; constructor; auto.
  - intros d ts F. rewrite !all_chars_app. split; [literal|]. split; [|literal]. apply literal_join.
    induction F as [|t p ts d (Hk & u & -> & Hu) F IH]; constructor; auto.
    rewrite !all_chars_app. split; auto. split; [literal|auto].
  - revert L. apply fold_leaves; auto.
Qed.
Lemma literal_digits s : all_chars digit s -> all_chars literal_char s.
Proof. apply all_chars_imp. intros c. unfold digit, literal_char, nat_of_ascii. cbn. lia. Qed.
Lemma literal_number t : is_number t -> all_chars literal_char t.
Proof.
  intros (ip & f & ex & -> & _ & Hi & Hf & He). rewrite !all_chars_app. split; [apply literal_digits; auto|]. split.
  - destruct Hf as [->|(d & -> & Hd)]; [exact I|]. rewrite all_chars_app. split; [literal|apply literal_digits; auto].
  - destruct He as [->|(m & sg & d & -> & Hm & Hs & _ & Hd)]; [exact I|]. rewrite !all_chars_app.
    split; [destruct Hm as [->| ->]; literal|]. split; [destruct Hs as [->|[->| ->]]; literal|apply literal_digits; auto].
Qed.
Lemma literal_name x : is_name x -> all_chars literal_char x.
Proof. intros [[_ H] _]. revert H. apply all_chars_imp. intros c. unfold letter, literal_char, nat_of_ascii. cbn. lia. Qed.
Lemma literal_writable {K} {EN : ENum K} read show (e : expr K) : writable read show e -> leaves_are show (all_chars literal_char) e.
Proof.
  induction e as [c|x|o a IH|o l r IHl IHr|es IH|d IH] using expr_ind'; cbn.
  - intros [[H _]|(t & -> & H & _)]; [apply literal_number; auto|]. rewrite all_chars_app. split; [literal|apply literal_number; auto].
  - apply literal_name.
  - tauto.
  - tauto.
  - induction IH as [|a es Ha _ IHes]; cbn; auto. intros [H1 H2]. auto.
  - intros [_ H]. revert H. induction IH as [|p d Hp _ IHd]; cbn; auto. intros [[H0 H1] H2]. split; auto. split; auto using literal_name.
Qed.
Lemma sapp_inj_r a b c : a ++ c = b ++ c -> a = b.
Proof.
  revert b. induction a as [|x a IH]; intros [|y b] H; auto.
  - exfalso. apply (f_equal String.length) in H. cbn in H. rewrite slen_app in H. lia.
  - exfalso. apply (f_equal String.length) in H. cbn in H. rewrite slen_app in H. lia.
  - injection H as -> H. f_equal. eauto.
Qed.

(** *** Expr.__repr__ *)
(** For every printable expression eval(repr(e)) succeeds, is determined, and is what
    simplify gives. *)
Theorem C77_eval_repr : forall (K : Type) (EN : ENum K) read show fuel (e : expr K), printable read show false e ->
  exists t, py_repr show e = Ret t /\ forall r, py_eval read show fuel t r <-> r = simplify fuel e.
Proof.
  intros K EN read show fuel e P.
  destruct (C37_print_parse_partial K EN read show false e P) as (s & R & _ & E).
  exists ("Expr('" ++ s ++ "')"). unfold py_repr, py_str. rewrite R. split; [reflexivity|]. intros r. split.
  - intros Q. remember ("Expr('" ++ s ++ "')") as t eqn:Eb. destruct Q as [body L]. assert (body = s).
    { apply (sapp_inj_r body s "')"). cbn in Eb. injection Eb as Eb. exact Eb. }
    subst body. apply E.
  - intros ->. rewrite <- E. constructor. eapply literal_text; [|exact R]. eapply literal_writable. apply P.
Qed.
Print Assumptions C77_eval_repr.

(** ... the same expression, if simplify has nothing left to do. *)
Theorem C77_eval_repr_same : forall (K : Type) (EN : ENum K) read show fuel (e e' : expr K), scalar_expr e ->
  simplify fuel e = Ret e' -> has_node trivial_product e' = false -> printable read show false e' ->
  exists t, py_repr show e' = Ret t /\ py_eval read show fuel t (Ret e').
Proof.
  intros K EN read show fuel e e' Sc S T P. destruct (C77_eval_repr K EN read show fuel e' P) as (t & R & E).
  exists t. split; auto. apply E. symmetry. eapply C32_idempotent_partial; eauto.
Qed.
Print Assumptions C77_eval_repr_same.

(** With double constants. *)
Theorem C77_doubles : forall M read fuel (e : expr d64), reads_nearest read -> double_leaves e ->
  faithful (EN := D_enum M) read repr_double false e ->
  exists t, py_repr repr_double e = Ret t /\ forall r, py_eval (EN := D_enum M) read repr_double fuel t r <-> r = simplify (EN := D_enum M) fuel e.
Proof.
  intros M read fuel e Rn L F. apply C77_eval_repr. split; auto. now apply double_leaves_writable.
Qed.
Print Assumptions C77_doubles.

(** Not every expression is printable: -2*x comes back as -(2*x). *)
Theorem C77_not_same_refuted : let e := EBin BMul (EConst (-2)%Z) (EVar "x") in
  py_repr decimal e = Ret "Expr('-2*x')" /\ simplify (EN := Z_enum) 9 e = Ret e /\
  py_eval (EN := Z_enum) digits_value decimal 9 "Expr('-2*x')" (Ret (EUn UNeg (EBin BMul (EConst 2%Z) (EVar "x")))).
Proof.
  cbv zeta. split; [reflexivity|]. split; [reflexivity|].
  change "Expr('-2*x')" with ("Expr('" ++ "-2*x" ++ "')").
  replace (Ret (EUn UNeg (EBin BMul (EConst 2%Z) (EVar "x")))) with (expr_of_string (EN := Z_enum) digits_value decimal 9 "-2*x") by reflexivity.
  constructor. literal.
Qed.

(** *** Expr.debug_form *)
(** The ordinary text from the debug text: Var<"  and  ">() are removed. *)
Definition var_open : string := "Var<" ++ quote.
Definition var_close : string := quote ++ ">()".
Fixpoint starts (p s : string) : option string :=
  match p, s with
  | "", _ => Some s
  | String a p, String b s => if Ascii.eqb a b then starts p s else None
  | String _ _, "" => None
  end.
Fixpoint erase (n : nat) (s : string) : string :=
  match n with
  | O => ""
  | S n =>
      match starts var_open s, starts var_close s with
      | Some r, _ => erase n r
      | None, Some r => erase n r
      | None, None => match s with "" => "" | String c r => String c (erase n r) end
      end
  end.
Definition undebug (s : string) : string := erase (String.length s) s.
Lemma starts_len p : forall s r, starts p s = Some r -> s = p ++ r.
Proof.
  induction p as [|a p IH]; intros [|b s] r H; cbn in H; try discriminate; try (injection H as <-; reflexivity).
  destruct (Ascii.eqb_spec a b) as [->|]; [|discriminate]. cbn. f_equal. auto.
Qed.
Lemma erase_more n : forall s m, String.length s <= n -> n <= m -> erase m s = erase n s.
Proof.
  induction n as [|n IH]; intros s m L H.
  - destruct s; [|cbn in L; lia]. destruct m; reflexivity.
  - destruct m as [|m]; [lia|]. cbn [erase].
    destruct (starts var_open s) as [r|] eqn:E1.
    { apply starts_len in E1. subst s. rewrite slen_app in L. cbn in L. apply IH; lia. }
    destruct (starts var_close s) as [r|] eqn:E2.
    { apply starts_len in E2. subst s. rewrite slen_app in L. cbn in L. apply IH; lia. }
    destruct s as [|c r]; auto. cbn in L. f_equal. apply IH; lia.
Qed.
Lemma starts_app p r : starts p (p ++ r) = Some r.
Proof. induction p as [|a p IH]; cbn; [destruct r; reflexivity|]. now rewrite Ascii.eqb_refl. Qed.
Lemma erase_S n s : erase (S n) s =
      match starts var_open s, starts var_close s with
      | Some r, _ => erase n r
      | None, Some r => erase n r
      | None, None => match s with "" => "" | String c r => String c (erase n r) end
      end.
Proof. reflexivity. Qed.
Lemma undebug_open r : undebug (var_open ++ r) = undebug r.
Proof.
  unfold undebug. rewrite slen_app. change (String.length var_open) with 5.
  change (5 + String.length r) with (S (4 + String.length r)). rewrite erase_S, starts_app. apply erase_more; lia.
Qed.
Lemma undebug_close r : undebug (var_close ++ r) = undebug r.
Proof.
  unfold undebug. rewrite slen_app. change (String.length var_close) with 4.
  change (4 + String.length r) with (S (3 + String.length r)). rewrite erase_S, starts_app.
  assert (E : starts var_open (var_close ++ r) = None) by reflexivity. rewrite E. apply erase_more; lia.
Qed.
Definition inert (c : ascii) : Prop := c <> "V"%char /\ c <> Ascii.ascii_of_nat 34.
Lemma undebug_char c r : inert c -> undebug (String c r) = String c (undebug r).
Proof.
  intros [H1 H2]. unfold undebug. cbn [String.length erase].
  assert (E1 : starts var_open (String c r) = None).
  { unfold var_open. cbn [append starts]. destruct (Ascii.eqb_spec "V" c); [congruence|reflexivity]. }
  assert (E2 : starts var_close (String c r) = None).
  { unfold var_close, quote. cbn [append starts]. destruct (Ascii.eqb_spec (Ascii.ascii_of_nat 34) c); [congruence|reflexivity]. }
  rewrite E1, E2. reflexivity.
Qed.
(** A name, which may contain V, before the closing quote. *)
Lemma undebug_name x r : all_chars letter x -> undebug (x ++ var_close ++ r) = x ++ undebug r.
Proof.
  induction x as [|c x IH]; intros A; [apply undebug_close|]. destruct A as [Hc A].
  change (String c x ++ var_close ++ r) with (String c (x ++ var_close ++ r)). cbn [append]. rewrite <- (IH A).
  unfold undebug. cbn [String.length erase].
  assert (E2 : starts var_close (String c (x ++ var_close ++ r)) = None).
  { unfold var_close, quote. cbn [append starts]. destruct (Ascii.eqb_spec (Ascii.ascii_of_nat 34) c); [|reflexivity].
    subst c. unfold letter in Hc. cbn in Hc. lia. }
  assert (E1 : starts var_open (String c (x ++ var_close ++ r)) = None).
  { destruct (starts var_open (String c (x ++ var_close ++ r))) as [q|] eqn:E; [|reflexivity]. exfalso. apply starts_len in E.
    unfold var_open, var_close, quote in E. cbn [append] in E. injection E as -> E.
    destruct x as [|c1 x]; [discriminate E|]. cbn [append] in E. injection E as -> E.
    destruct x as [|c2 x]; [discriminate E|]. cbn [append] in E. injection E as -> E.
    destruct x as [|c3 x]; [discriminate E|]. cbn [append] in E. injection E as -> E.
    destruct A as (_ & _ & A & _). unfold letter in A. cbn in A. lia. }
  rewrite E1, E2. reflexivity.
Qed.
(** [d] is a debug form of [s] *)
Definition debug_of (d s : string) : Prop := forall r, undebug (d ++ r) = s ++ undebug r.
Lemma debug_app a b s t : debug_of a s -> debug_of b t -> debug_of (a ++ b) (s ++ t).
Proof. intros A B r. rewrite !sapp_assoc, A, B. reflexivity. Qed.
Lemma debug_inert s : all_chars inert s -> debug_of s s.
Proof.
  induction s as [|c s IH]; intros A r; [reflexivity|]. destruct A as [Hc A]. cbn [append]. rewrite undebug_char by auto.
  f_equal. apply (IH A).
Qed.
Lemma debug_var x : all_chars letter x -> debug_of (var_debug x) x.
Proof.
  intros A r. unfold var_debug.
  replace (("Var<" ++ quote ++ x ++ quote ++ ">()") ++ r) with (var_open ++ x ++ var_close ++ r).
  - rewrite undebug_open. apply undebug_name. exact A.
  - unfold var_open, var_close. rewrite !sapp_assoc. reflexivity.
Qed.
Ltac inert := cbn; repeat split; discriminate.
Lemma debug_paren b d s : debug_of d s -> debug_of (paren b d) (paren b s).
Proof.
  destruct b; auto. intros H. unfold paren. apply debug_app; [apply debug_inert; inert|]. apply debug_app; [exact H|apply debug_inert; inert].
Qed.
Lemma debug_join ds ss : Forall2 debug_of ds ss -> debug_of (join_comma ds) (join_comma ss).
Proof.
  induction 1 as [|d s ds ss H F IH]; [intros r; reflexivity|]. inversion F; subst; [exact H|].
  match goal with |- debug_of (join_comma (?a :: ?b :: ?c)) (join_comma (?x :: ?y :: ?z)) =>
    change (debug_of (a ++ ", " ++ join_comma (b :: c)) (x ++ ", " ++ join_comma (y :: z))) end.
  apply debug_app; [exact H|]. apply debug_app; [apply debug_inert; inert|exact IH].
Qed.
(** Names are words, constants are printed without V and quotes. *)
Fixpoint debuggable {K} (show : K -> string) (e : expr K) : Prop :=
  match e with
  | EConst c => all_chars inert (show c)
  | EVar x => all_chars letter x
  | EUn _ a => debuggable show a
  | EBin _ l r => debuggable show l /\ debuggable show r
  | EArr es => fold_right (fun a Q => debuggable show a /\ Q) True es
  | EDict d => fold_right (fun p Q => (all_chars letter (fst p) /\ debuggable show (snd p)) /\ Q) True d
  end.
Lemma debug_text {K} (show : K -> string) (e : expr K) : debuggable show e -> forall s, repr show false e = Ret s ->
  exists d, debug_repr show e = Ret d /\ debug_of d s.
Proof.
  induction e as [c|x|o a IH|o l r IHl IHr|es IH|d IH] using expr_ind'; intros L s H; cbn [repr debug_repr debuggable] in *.
  - injection H as <-. exists (show c). split; auto. apply debug_inert; auto.
  - injection H as <-. exists (var_debug x). split; auto. apply debug_var; auto.
  - apply obind_ret in H as (t & Ht & H). apply obind_ret in H as (b & Hb & H). injection H as <-.
    destruct (IH L t Ht) as (d & E & D). rewrite E, Hb. cbn [obind]. eexists. split; [reflexivity|].
    apply debug_app; [apply debug_inert; destruct o; inert|]. apply debug_app; [apply debug_paren; auto|apply debug_inert; destruct o; inert].
  - apply obind_ret in H as (bl & Hbl & H). apply obind_ret in H as (br & Hbr & H).
    apply obind_ret in H as (sl & Hsl & H). apply obind_ret in H as (sr & Hsr & H). injection H as <-. destruct L as [L1 L2].
    destruct (IHl L1 sl Hsl) as (d1 & E1 & D1). destruct (IHr L2 sr Hsr) as (d2 & E2 & D2).
    rewrite Hbl, Hbr, E1, E2. cbn [obind]. eexists. split; [reflexivity|].
    apply debug_app; [apply debug_paren; auto|]. apply debug_app; [apply debug_inert; destruct o; inert|].
    apply debug_app; [apply debug_paren; auto|apply debug_inert; destruct o; inert].
  - apply obind_ret in H as (ts & Hts & H). injection H as <-. apply oseq_inv in Hts.
    assert (X : exists ds, oseq (map (debug_repr show) es) = Ret ds /\ Forall2 debug_of ds ts).
    { clear - IH L Hts. revert ts Hts. induction IH as [|a es Ha _ IHes]; intros ts Hts; inversion Hts as [|t0 ? ts0 ? Ht0 Hts0]; subst.
      - exists []. split; auto.
      - destruct L as [L1 L2]. destruct (Ha L1 _ Ht0) as (d & E & D). destruct (IHes L2 _ Hts0) as (ds & E' & D').
        exists (d :: ds). cbn. rewrite E. cbn. rewrite E'. split; auto. }
    destruct X as (ds & E & D). rewrite E. eexists. split; [reflexivity|].
    apply (debug_app "[" _ "[" _); [apply debug_inert; inert|]. apply debug_app; [apply debug_join; auto|apply debug_inert; inert].
  - apply obind_ret in H as (ts & Hts & H). injection H as <-. apply oseq_inv in Hts.
    assert (X : exists ds, oseq (map (fun p => do s <- debug_repr show (snd p); Ret (var_debug (fst p) ++ ":" ++ s)) d) = Ret ds /\ Forall2 debug_of ds ts).
    { clear - IH L Hts. revert ts Hts. induction IH as [|p d Hp _ IHd]; intros ts Hts; inversion Hts as [|t0 ? ts0 ? Ht0 Hts0]; subst.
      - exists []. split; auto.
      - destruct L as [[L0 L1] L2]. apply obind_ret in Ht0 as (u & Hu & E0). injection E0 as <-.
        destruct (Hp L1 _ Hu) as (q & E & D). destruct (IHd L2 _ Hts0) as (ds & E' & D').
        exists ((var_debug (fst p) ++ ":" ++ q) :: ds). cbn [map oseq]. rewrite E. cbn [obind]. rewrite E'. cbn [obind]. split; auto. constructor; auto.
        apply debug_app; [apply debug_var; auto|]. apply (debug_app ":" q ":" u); [apply debug_inert; inert|exact D]. }
    destruct X as (ds & E & D). rewrite E. eexists. split; [reflexivity|].
    apply (debug_app "{" _ "{" _); [apply debug_inert; inert|]. apply debug_app; [apply debug_join; auto|apply debug_inert; inert].
Qed.

(** Removing the decoration of the variables from the debug form gives the text of
    __repr__, and so different printable expressions have different debug forms. *)
Theorem C77_debug_form : forall (K : Type) (show : K -> string) (e : expr K) t, debuggable show e -> py_repr show e = Ret t ->
  exists d, py_debug_form show e = Ret d /\ undebug d = t.
Proof.
  intros K show e t D H. unfold py_repr, py_str in H. apply obind_ret in H as (s & Hs & H). injection H as <-.
  destruct (debug_text show e D s Hs) as (d & E & X). unfold py_debug_form. rewrite E. cbn [obind]. eexists. split; [reflexivity|].
  assert (G : debug_of ("Expr('" ++ d ++ "')") ("Expr('" ++ s ++ "')")).
  { apply debug_app; [apply debug_inert; inert|]. apply debug_app; [exact X|apply debug_inert; inert]. }
  specialize (G ""). change (undebug "") with "" in G. rewrite !sapp_nil_r in G. exact G.
Qed.
Print Assumptions C77_debug_form.
Lemma inert_digits s : all_chars digit s -> all_chars inert s.
Proof. apply all_chars_imp. intros c H. unfold digit in H. split; intros ->; cbn in H; lia. Qed.
Lemma inert_number t : is_number t -> all_chars inert t.
Proof.
  intros (ip & f & ex & -> & _ & Hi & Hf & He). rewrite !all_chars_app. split; [apply inert_digits; auto|]. split.
  - destruct Hf as [->|(d & -> & Hd)]; [exact I|]. rewrite all_chars_app. split; [inert|apply inert_digits; auto].
  - destruct He as [->|(m & sg & d & -> & Hm & Hs & _ & Hd)]; [exact I|]. rewrite !all_chars_app.
    split; [destruct Hm as [->| ->]; inert|]. split; [destruct Hs as [->|[->| ->]]; inert|apply inert_digits; auto].
Qed.
Lemma writable_debuggable {K} {EN : ENum K} read show (e : expr K) : writable read show e -> debuggable show e.
Proof.
  induction e as [c|x|o a IH|o l r IHl IHr|es IH|d IH] using expr_ind'; cbn.
  - intros [[H _]|(t & -> & H & _)]; [apply inert_number; auto|]. rewrite all_chars_app. split; [inert|apply inert_number; auto].
  - intros [[_ H] _]. exact H.
  - tauto.
  - tauto.
  - induction IH as [|a es Ha _ IHes]; cbn; auto. intros [H1 H2]. auto.
  - intros [_ H]. revert H. induction IH as [|p d Hp _ IHd]; cbn; auto. intros [[H0 H1] H2]. split; auto. split; auto. apply H0.
Qed.
Theorem C77_debug_distinct : forall (K : Type) (EN : ENum K) read show (e f : expr K),
  printable read show false e -> printable read show false f ->
  (exists d, py_debug_form show e = Ret d) /\ (py_debug_form show e = py_debug_form show f -> e = f).
Proof.
  intros K EN read show e f P Q.
  destruct (C37_print_parse_partial K EN read show false e P) as (s & R & E & _).
  destruct (C37_print_parse_partial K EN read show false f Q) as (t & R' & E' & _).
  assert (Re : py_repr show e = Ret ("Expr('" ++ s ++ "')")) by (unfold py_repr, py_str; rewrite R; reflexivity).
  assert (Rf : py_repr show f = Ret ("Expr('" ++ t ++ "')")) by (unfold py_repr, py_str; rewrite R'; reflexivity).
  destruct (C77_debug_form K show e _ (writable_debuggable read show e (proj1 P)) Re) as (d & D1 & D2).
  destruct (C77_debug_form K show f _ (writable_debuggable read show f (proj1 Q)) Rf) as (d' & D1' & D2').
  split; [eauto|]. rewrite D1, D1'. intros X. injection X as <-. rewrite D2 in D2'.
  cbn in D2'. injection D2' as D2'. apply sapp_inj_r in D2'. subst t. congruence.
Qed.
Print Assumptions C77_debug_distinct.
Example C77_debug_ex : py_debug_form decimal (EBin BMul (EConst 2%Z) (EUn USin (EVar "Vary"))) =
  Ret ("Expr('2*(sin Var<" ++ quote ++ "Vary" ++ quote ++ ">())')").
Proof. reflexivity. Qed.

(* ------------------------------------------------------------------ *)
(** ** C78: matrices *)
(** The text of row i, of all rows. *)
Fixpoint listed (f : nat -> string) (a n : nat) : string :=
  match n with O => "" | S n => f a ++ " " ++ listed f (S a) n end.
Lemma cells_ret f g n : forall a, (forall i, a <= i < a + n -> f i = Ret (g i)) -> cells f a n = Ret (listed g a n).
Proof.
  induction n as [|n IH]; intros a H; [reflexivity|]. cbn [cells listed]. rewrite (H a) by lia. cbn [obind].
  rewrite IH by (intros i Hi; apply H; lia). reflexivity.
Qed.
Lemma cells_ub f g b n : forall a, a <= b < a + n -> (forall i, a <= i < b -> f i = Ret (g i)) -> f b = UB -> cells f a n = UB.
Proof.
  induction n as [|n IH]; intros a Hb H U; [lia|]. cbn [cells]. destruct (Nat.eq_dec a b) as [->|N]; [rewrite U; reflexivity|].
  rewrite (H a) by lia. cbn [obind]. rewrite (IH (S a)); auto; [lia|]. intros i Hi. apply H. lia.
Qed.
(** A column vector is printed as { v0 v1 ... }^T, a square matrix row by row. *)
Theorem C78_column_and_square : forall (K : Type) (show : K -> string) (v : nat -> nat -> K),
  (matrix_repr show 1 1 v = Ret (show (v 0 0))) /\
  (forall n, n <> 1 -> matrix_repr show n 1 v = Ret ("{ " ++ listed (fun i => show (v i 0)) 0 n ++ "}^T")) /\
  (forall n, n <> 1 -> matrix_repr show n n v =
     Ret ("{ " ++ listed (fun i => "{ " ++ listed (fun j => show (v i j)) 0 n ++ "}") 0 n ++ "}")).
Proof.
  intros K show v.
  assert (C : forall r c i j, i < r -> j < c -> coeff show r c v i j = Ret (show (v i j))).
  { intros r c i j Hi Hj. unfold coeff. apply Nat.ltb_lt in Hi, Hj. rewrite Hi, Hj. reflexivity. }
  split; [reflexivity|]. split; intros n Hn; unfold matrix_repr.
  - apply Nat.eqb_neq in Hn. rewrite Hn. cbn [Nat.eqb andb].
    rewrite (cells_ret _ (fun i => show (v i 0))) by (intros i Hi; apply C; lia). reflexivity.
  - apply Nat.eqb_neq in Hn. rewrite Hn. cbn [andb].
    rewrite (cells_ret _ (fun i => "{ " ++ listed (fun j => show (v i j)) 0 n ++ "}")); [reflexivity|].
    intros i Hi. rewrite (cells_ret _ (fun j => show (v i j))) by (intros j Hj; apply C; lia). reflexivity.
Qed.
(** Any other matrix that is not empty makes it read outside the matrix. *)
Theorem C78_safe_iff : forall (K : Type) (show : K -> string) (v : nat -> nat -> K) rows cols,
  (matrix_repr show rows cols v <> UB <-> cols = 1 \/ rows = cols \/ rows = 0 \/ cols = 0) /\
  (exists s, matrix_repr show rows cols v = Ret s \/ matrix_repr show rows cols v = UB).
Proof.
  intros K show v rows cols.
  assert (C : forall i j, i < rows -> j < cols -> coeff show rows cols v i j = Ret (show (v i j))).
  { intros i j Hi Hj. unfold coeff. apply Nat.ltb_lt in Hi, Hj. rewrite Hi, Hj. reflexivity. }
  assert (U : forall i j, ~ (i < rows /\ j < cols) -> coeff show rows cols v i j = UB).
  { intros i j N. unfold coeff. destruct (Nat.ltb_spec i rows), (Nat.ltb_spec j cols); auto. exfalso. apply N. auto. }
  assert (D : cols = 1 \/ rows = cols \/ rows = 0 \/ cols = 0 \/ (1 < cols /\ 0 < rows < cols) \/ (1 < cols < rows)) by lia.
  destruct D as [-> |[-> |[-> |[-> |D]]]].
  - destruct (Nat.eq_dec rows 1) as [->|N].
    + split; [split; [auto|discriminate]|]. eexists. left. reflexivity.
    + rewrite (proj1 (proj2 (C78_column_and_square K show v)) rows N). split; [split; [auto|discriminate]|]. eexists. left. reflexivity.
  - destruct (Nat.eq_dec cols 1) as [->|N].
    + split; [split; [auto|discriminate]|]. eexists. left. reflexivity.
    + rewrite (proj2 (proj2 (C78_column_and_square K show v)) cols N). split; [split; [auto|discriminate]|]. eexists. left. reflexivity.
  - assert (E : exists s, matrix_repr show 0 cols v = Ret s).
    { unfold matrix_repr. rewrite andb_false_r. destruct (cols =? 1); [eexists; reflexivity|].
      rewrite (cells_ret _ (fun _ => "{ }")) by reflexivity. eexists. reflexivity. }
    destruct E as [s E]. rewrite E. split; [split; [auto|discriminate]|eauto].
  - split; [split; [auto|discriminate]|]. eexists. left. reflexivity.
  - assert (E : matrix_repr show rows cols v = UB).
    { unfold matrix_repr. assert (N : cols =? 1 = false) by (apply Nat.eqb_neq; lia). rewrite N. cbn [andb].
      destruct D as [D|D].
      - rewrite (cells_ub _ (fun i => "{ " ++ listed (fun j => show (v i j)) 0 rows ++ "}") rows); [reflexivity|lia| |].
        + intros i Hi. rewrite (cells_ret _ (fun j => show (v i j))) by (intros j Hj; apply C; lia). reflexivity.
        + rewrite (cells_ub _ (fun j => show (v rows j)) 0); [reflexivity|lia|lia|]. apply U. lia.
      - rewrite (cells_ub _ (fun _ => "") 0); [reflexivity|lia|lia|].
        rewrite (cells_ub _ (fun j => show (v 0 j)) cols); [reflexivity|lia| |].
        + intros j Hj. apply C; lia.
        + apply U. lia. }
    rewrite E. split; [split; [congruence|lia]|]. exists "". auto.
Qed.
Print Assumptions C78_safe_iff.
Example C78_ex : let v i j := Z.of_nat (10 * i + j) in
  matrix_repr decimal 2 2 v = Ret "{ { 0 1 } { 10 11 } }" /\ matrix_repr decimal 3 1 v = Ret "{ 0 10 20 }^T" /\
  matrix_repr decimal 1 2 v = UB.
Proof. repeat split; reflexivity. Qed.
