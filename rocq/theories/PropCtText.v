(** C82: the text of compile-time constants and expressions, read by the run-time parser. *)
From Coq Require Import ZArith Reals String Ascii List Lra Lia Bool.
From Coq Require Import Decimal DecimalString DecimalPos DecimalFacts.
From Verif Require Import Outcome Num ExprModel ExprSpec ExprBase ParserModel ParserSpec ParserBase ParserProofs ParserSound ParserComplete ReprProofs PropParser.
From Verif Require Import ExprVal ExprDeriv.
From Verif Require PropFloatText.
From Verif Require Import ConstModel CtModel CtSpec ConvModel PropConv CtTextModel.
Import ExprModel.
Open Scope string_scope.
Open Scope Z_scope.

(** ** Specification *)

(** Constants taken as their texts: a minus sign in front negates. *)
Definition T_num : Num string :=
  {| n0 := ""; n1 := ""; nadd := fun a _ => a; nsub := fun a _ => a; nmul := fun a _ => a; ndiv := fun a _ => a;
     nopp := fun t => ("-" ++ t)%string; neqb := String.eqb; nltb := fun _ _ => false |}.
Definition T_enum : ENum string :=
  {| enum_num := T_num; esin := fun t => t; ecos := fun t => t; elog := fun t => t; eexp := fun t => t; eabs := fun t => t; epow := fun t _ => t |}.
(** A compile-time expression with its numbers as texts; a fraction always stands in
    parentheses and is, for the question where parentheses are missing, like a name. *)
Fixpoint as_text (show : R -> string) (e : cexpr) : expr string :=
  match e with
  | TC n d => if Z.eqb d 1 then EConst (decimal n) else EVar "q"
  | TNum (RInt z) => EConst (decimal z)
  | TNum (RDbl r) => EConst (show r)
  | TVar x => EVar x
  | TUn o a => EUn o (as_text show a)
  | TBin o l r => EBin (aop_bop o) (as_text show l) (as_text show r)
  end.
(** ParserSpec.printable: only names, sin cos exp ln and minus signs, no power as the base of a power,
    no negative number at the end of the left operand of * / ^, no minus sign in front
    of a number (the last three only where no parentheses are printed). *)
Definition ct_printable (show : R -> string) (forced : bool) (e : cexpr) : Prop :=
  printable (EN := T_enum) (fun t => t) (fun t => t) forced (as_text show e).

(** What the text of [e] says: fractions are divisions. *)
Fixpoint written (e : cexpr) : expr R :=
  match e with
  | TC n d =>
      if Z.eqb d 1 then EConst (IZR n)
      else if Z.ltb n 0 then EUn UNeg (EBin BDiv (EConst (IZR (- n))) (EConst (IZR d)))
      else EBin BDiv (EConst (IZR n)) (EConst (IZR d))
  | TNum k => EConst (to_real k)
  | TVar x => EVar x
  | TUn o a => EUn o (written a)
  | TBin o l r => EBin (aop_bop o) (written l) (written r)
  end.
(** The integers and doubles in [e] are read back as they are; denominators are positive. *)
Fixpoint reads_exactly (read : string -> R) (show : R -> string) (e : cexpr) : Prop :=
  match e with
  | TC n d => 0 < d /\ read (decimal (Z.abs n)) = IZR (Z.abs n) /\ read (decimal d) = IZR d
  | TNum (RInt z) => read (decimal (Z.abs z)) = IZR (Z.abs z)
  | TNum (RDbl r) => plain_constant read show r \/ negative_constant read show r
  | TVar _ => True
  | TUn _ a => reads_exactly read show a
  | TBin _ l r => reads_exactly read show l /\ reads_exactly read show r
  end.

(** ** Decimal texts *)
Lemma decimal_minus z : z < 0 -> decimal z = "-" ++ decimal (- z).
Proof. destruct z; try lia. intros _. unfold decimal. simpl. reflexivity. Qed.

Section Text.
Variable read : string -> R.
Variable show : R -> string.
Variable fp : bool.
Notation sid := (fun t : string => t).
Notation E0 := (as_text show).
Notation tcst := (cst_of (K := string) sid fp).

Definition frac_cst (n d : Z) : cst :=
  CPar (if Z.ltb n 0 then CNeg (CBin BDiv (CNum (decimal (- n))) (CNum (decimal d)))
        else CBin BDiv (CNum (decimal n)) (CNum (decimal d))).
Notation tb a := (bps (E0 a)).
Fixpoint ct_cst (e : cexpr) : cst :=
  match e with
  | TC n d => if Z.eqb d 1 then const_cst sid (decimal n) else frac_cst n d
  | TNum k => const_cst sid (num_text show k)
  | TVar x => CVar x
  | TUn UNeg a => CNeg (cpar (paren_u fp UNeg (tb a)) (ct_cst a))
  | TUn o a => CFun o (cpar (paren_u fp o (tb a)) (ct_cst a))
  | TBin o l r => CBin (aop_bop o) (cpar (paren_l fp (aop_bop o) (tb l)) (ct_cst l)) (cpar (paren_r fp (aop_bop o) (tb r)) (ct_cst r))
  end.

Lemma E0_num k : E0 (TNum k) = EConst (num_text show k).
Proof. destruct k; reflexivity. Qed.
Lemma E0_dict e : ~ is_dictionary (E0 e).
Proof. destruct e as [n d|[z|r]|x|o a|o l r]; simpl; auto. destruct (Z.eqb d 1); simpl; auto. Qed.

(** the two sentences have the same edges *)
Lemma edges e : right_edge (ct_cst e) = right_edge (tcst (E0 e)) /\ left_edge (ct_cst e) = left_edge (tcst (E0 e)).
Proof.
  induction e as [n d|k|x|o a IH|o l IHl r IHr].
  - simpl. destruct (Z.eqb d 1); [split; reflexivity|]. split; reflexivity.
  - rewrite E0_num. split; reflexivity.
  - split; reflexivity.
  - destruct IH as [I1 I2]. destruct o; cbn [as_text cst_of ct_cst right_edge left_edge];
      repeat (match goal with |- context [cpar ?b _] => destruct b end; cbn [cpar right_edge left_edge]); rewrite ?I1; auto.
  - destruct IHl as [L1 L2], IHr as [R1 R2]. cbn [as_text cst_of ct_cst right_edge left_edge].
    repeat (match goal with |- context [cpar ?b _] => destruct b end; cbn [cpar right_edge left_edge]); rewrite ?R1, ?L2; auto.
Qed.
Lemma shape e o : match ct_cst e with CBin p _ _ => bracketed p = true -> (level o <= level p)%nat | _ => True end.
Proof.
  destruct e as [n d|k|x|p a|p l r]; simpl; auto.
  - destruct (Z.eqb d 1); [|exact I]. unfold const_cst. destruct (decimal n); simpl; auto. destruct (Ascii.eqb _ _); auto.
  - unfold const_cst. destruct (num_text show k); simpl; auto. destruct (Ascii.eqb _ _); auto.
  - destruct p; auto.
  - destruct p; simpl; discriminate.
Qed.
Lemma right_cpar_eq b c c' : right_edge c = right_edge c' -> right_edge (cpar b c) = right_edge (cpar b c').
Proof. destruct b; auto. Qed.
Lemma left_cpar_eq b c c' : left_edge c = left_edge c' -> left_edge (cpar b c) = left_edge (cpar b c').
Proof. destruct b; auto. Qed.

Lemma ct_grouped e : grouped (tcst (E0 e)) -> grouped (ct_cst e).
Proof.
  induction e as [n d|k|x|o a IH|o l IHl r IHr]; intros G.
  - simpl in *. destruct (Z.eqb d 1); [exact G|]. unfold frac_cst.
    destruct (Z.ltb n 0); simpl; repeat split; auto; try tauto.
    intros p [<-|[]]. unfold sign_level. simpl. lia.
  - rewrite E0_num in G. exact G.
  - exact I.
  - assert (C : forall b, grouped (cpar b (tcst (E0 a))) -> grouped (cpar b (ct_cst a))) by (intros []; exact IH).
    destruct (edges a) as [E1 E2].
    destruct o; cbn [as_text cst_of ct_cst grouped] in *; destruct G as [G H]; (split; [now apply C|]);
      rewrite (left_cpar_eq _ _ _ E2); exact H.
  - assert (Cl : forall b, grouped (cpar b (tcst (E0 l))) -> grouped (cpar b (ct_cst l))) by (intros []; exact IHl).
    assert (Cr : forall b, grouped (cpar b (tcst (E0 r))) -> grouped (cpar b (ct_cst r))) by (intros []; exact IHr).
    destruct (edges l) as [L1 L2], (edges r) as [R1 R2].
    cbn [as_text cst_of ct_cst grouped] in *. destruct G as (G1 & G2 & G3 & G4).
    split; [now apply Cl|]. split; [now apply Cr|]. rewrite (right_cpar_eq _ _ _ L1), (left_cpar_eq _ _ _ R2). auto.
Qed.
Lemma post_cpar' b c : postfix_ordered c -> postfix_ordered (cpar b c).
Proof. destruct b; auto. Qed.
Lemma ct_post e : postfix_ordered (ct_cst e).
Proof.
  assert (K : forall t, postfix_ordered (const_cst sid t)).
  { intros t. unfold const_cst. destruct t; simpl; auto. destruct (Ascii.eqb _ _); simpl; auto. }
  induction e as [n d|k|x|o a IH|o l IHl r IHr].
  - simpl. destruct (Z.eqb d 1); auto. unfold frac_cst. destruct (Z.ltb n 0); simpl; auto.
  - apply K.
  - exact I.
  - destruct o; simpl; now apply post_cpar'.
  - cbn [ct_cst postfix_ordered]. split; [now apply post_cpar'|]. split; [now apply post_cpar'|].
    match goal with |- context [cpar ?b _] => destruct b end; cbn [cpar]; auto. apply shape.
Qed.

(** ** Literals *)
Lemma literal_sentence t : plain_constant (K := string) sid sid t \/ negative_constant (EN := T_enum) sid sid t ->
  forall rest us, breaks rest -> layout rest us -> layout (t ++ rest) (tokens (const_cst sid t) ++ us)%list.
Proof.
  intros [P|P] rest us B L.
  - rewrite (plain_cst sid sid t P). destruct P as [N _]. cbn [tokens app]. apply layout_tok; auto. left; auto.
  - destruct (negative_cst sid sid t P) as (u & E & N & _ & ->). rewrite E. cbn [tokens app].
    rewrite sapp_assoc. apply (layout_sym "-"); [simpl; tauto|]. apply layout_tok; auto. left; auto.
Qed.
Lemma int_denote z : read (decimal (Z.abs z)) = IZR (Z.abs z) ->
  denote read (const_cst sid (decimal z)) = EConst (IZR z) /\ sentence read (const_cst sid (decimal z)).
Proof.
  intros Hr. destruct (Z.ltb_spec z 0) as [Hz|Hz].
  - rewrite (decimal_minus z Hz). unfold const_cst. cbn [append Ascii.eqb Bool.eqb].
    rewrite Z.abs_neq in Hr by lia. split; [|simpl; apply decimal_number; lia].
    simpl. rewrite Hr, opp_IZR. cbn. f_equal. lra.
  - rewrite Z.abs_eq in Hr by lia. destruct (decimal_number z Hz) as [N _].
    assert (E : const_cst sid (decimal z) = CNum (decimal z)).
    { apply (plain_cst (K := string) sid sid). split; auto. }
    rewrite E. split; [simpl; now rewrite Hr|exact N].
Qed.
Lemma int_sentence z : plain_constant (K := string) sid sid (decimal z) \/ negative_constant (EN := T_enum) sid sid (decimal z).
Proof.
  destruct (Z.ltb_spec z 0) as [Hz|Hz].
  - right. exists (decimal (- z)). rewrite (decimal_minus z Hz). repeat split; auto. apply decimal_number. lia.
  - left. split; auto. now apply decimal_number.
Qed.

Lemma dbl_denote r : plain_constant read show r \/ negative_constant read show r ->
  denote read (const_cst sid (show r)) = EConst r /\ sentence read (const_cst sid (show r)).
Proof.
  change (const_cst sid (show r)) with (const_cst show r). intros [P|P].
  - rewrite (plain_cst read show r P). destruct P as [N E]. simpl. rewrite E. auto.
  - destruct (negative_cst read show r P) as (t & E & N & Hr & ->). simpl. split; [f_equal; exact Hr|exact N].
Qed.

(** ** The sentence says [written e] *)
Lemma ct_denote e : reads_exactly read show e -> ParserSpec.writable (EN := T_enum) sid sid (E0 e) ->
  ParserSpec.faithful (EN := T_enum) sid sid fp (E0 e) ->
  denote read (ct_cst e) = written e /\ sentence read (ct_cst e).
Proof.
  induction e as [n d|k|x|o a IH|o l IHl r IHr]; intros Re W F.
  - destruct Re as (Hd & Hn & Hd'). simpl. destruct (Z.eqb_spec d 1) as [->|N1]; [now apply int_denote|].
    unfold frac_cst. destruct (decimal_number d ltac:(lia)) as [Nd _]. destruct (Z.ltb_spec n 0) as [Hz|Hz].
    + rewrite Z.abs_neq in Hn by lia. simpl. rewrite Hn, Hd'. destruct (decimal_number (- n) ltac:(lia)) as [Nn _]. auto.
    + rewrite Z.abs_eq in Hn by lia. simpl. rewrite Hn, Hd'. destruct (decimal_number n ltac:(lia)) as [Nn _]. auto.
  - destruct k as [z|r]; [now apply int_denote|now apply dbl_denote].
  - simpl in *. auto.
  - cbn [as_text ParserSpec.writable ParserSpec.faithful reads_exactly] in *.
    destruct W as (Ho & Nd & W), F as [Fn F]. destruct (IH Re W F) as [D S].
    destruct Ho as [Hf| ->].
    + destruct o; simpl in Hf; try congruence; cbn [ct_cst ParserSpec.denote ParserSpec.sentence written];
        rewrite denote_cpar, D; (split; [reflexivity|]); (split; [simpl; congruence|now apply sentence_cpar]).
    + cbn [ct_cst ParserSpec.denote ParserSpec.sentence written]. rewrite denote_cpar, D. split; [|now apply sentence_cpar].
      specialize (Fn eq_refl). destruct a as [n d|[z|r]|x|p b|p l r]; simpl in *; try tauto; auto.
      destruct (Z.eqb d 1); [simpl in Fn; tauto|]. destruct (Z.ltb n 0); reflexivity.
  - cbn [as_text ParserSpec.writable ParserSpec.faithful reads_exactly] in *.
    destruct W as (_ & _ & Wl & Wr), F as (_ & Fl & Fr), Re as [Rl Rr].
    destruct (IHl Rl Wl Fl) as [Dl Sl], (IHr Rr Wr Fr) as [Dr Sr].
    cbn [ct_cst ParserSpec.denote ParserSpec.sentence written]. rewrite !denote_cpar, Dl, Dr.
    split; [reflexivity|]. split; now apply sentence_cpar.
Qed.

(** ** The text is a layout of the sentence *)
Lemma same_bp e : ebp (to_expr CtC CtN e) = Ret (tb e).
Proof.
  destruct e as [n d|[z|r]|x|o a|o l r]; try reflexivity. simpl. destruct (Z.eqb d 1); reflexivity.
Qed.
Lemma ct_layout e : (forall n d, reads_exactly read show (TC n d) -> 0 < d) -> reads_exactly read show e ->
  ParserSpec.writable (EN := T_enum) sid sid (E0 e) ->
  exists s, ct_repr show fp e = Ret s /\
    forall rest us, breaks rest -> layout rest us -> layout (s ++ rest) (tokens (ct_cst e) ++ us)%list.
Proof.
  intros _. unfold ct_repr. induction e as [n d|k|x|o a IH|o l IHl r IHr]; intros Re W.
  - destruct Re as (Hd & _ & _). cbn [to_expr repr ct_show]. eexists; split; [reflexivity|]. unfold c_repr. cbn [ct_cst].
    cbn [as_text] in W. destruct (Z.eqb_spec d 1) as [->|N1]; [now apply literal_sentence|].
    intros rest us B L. destruct (decimal_number d ltac:(lia)) as [Nd _]. unfold frac_cst.
    assert (Tail : layout ("/" ++ decimal d ++ ")" ++ rest) ("/" :: decimal d :: ")" :: us)).
    { apply (layout_sym "/"); [simpl; tauto|]. apply layout_tok; [left; auto|apply (breaks_sym ")"); simpl; tauto|].
      apply (layout_sym ")"); [simpl; tauto|exact L]. }
    rewrite !sapp_assoc. destruct (Z.ltb_spec n 0) as [Hz|Hz].
    + rewrite (decimal_minus n Hz), !sapp_assoc. cbn [tokens op_tok close_tok app].
      apply (layout_sym "("); [simpl; tauto|]. apply (layout_sym "-"); [simpl; tauto|].
      apply layout_tok; [left; apply decimal_number; lia|apply (breaks_sym "/"); simpl; tauto|]. exact Tail.
    + cbn [tokens op_tok close_tok app].
      apply (layout_sym "("); [simpl; tauto|].
      apply layout_tok; [left; apply decimal_number; lia|apply (breaks_sym "/"); simpl; tauto|]. exact Tail.
  - cbn [to_expr repr ct_show]. eexists; split; [reflexivity|]. rewrite E0_num in W. cbn [ct_cst]. now apply literal_sentence.
  - eexists; split; [reflexivity|]. intros rest us B L. cbn [ct_cst tokens app]. apply layout_tok; auto. right; left. apply W.
  - cbn [as_text ParserSpec.writable reads_exactly] in *. destruct W as (Ho & Nd & W).
    destruct (IH Re W) as (s & Es & Hs). cbn [to_expr repr]. rewrite Es, same_bp. cbn [obind].
    eexists; split; [reflexivity|]. intros rest us B L. destruct Ho as [Hf| ->].
    + assert (X : exists t, un_l o = (t ++ " ")%string /\ un_r o = "" /\ fun_tok o = t /\ is_word t /\
                  ct_cst (TUn o a) = CFun o (cpar (paren_u fp o (tb a)) (ct_cst a))).
      { destruct (fun_named sid fp o Hf) as (t & Ft & A1 & A2 & A3 & _). exists t. unfold fun_tok. rewrite Ft.
        repeat split; auto; try apply A3. destruct o; simpl in Hf; try congruence; reflexivity. }
      destruct X as (t & -> & -> & Et & Wd & ->). cbn [tokens app]. rewrite Et, sapp_nil_r, !sapp_assoc.
      apply layout_tok; [right; left; auto| |].
      * apply breaks_char; reflexivity.
      * apply layout_space. now apply (paren_layout (K := string)).
    + cbn [un_l un_r ct_cst tokens app]. rewrite sapp_nil_r, sapp_assoc. apply (layout_sym "-"); [simpl; tauto|].
      now apply (paren_layout (K := string)).
  - cbn [as_text ParserSpec.writable reads_exactly] in *. destruct W as (_ & _ & Wl & Wr), Re as [Rl Rr].
    destruct (IHl Rl Wl) as (s1 & E1 & H1), (IHr Rr Wr) as (s2 & E2 & H2). cbn [to_expr repr].
    rewrite E1, E2, !same_bp. cbn [obind].
    eexists; split; [reflexivity|]. intros rest us B L.
    destruct (op_repr_tok (aop_bop o)) as [-> Io]. cbn [ct_cst tokens]. rewrite !sapp_assoc, <- app_assoc.
    apply (paren_layout (K := string)); auto; [now apply breaks_sym|].
    cbn [app]. apply layout_sym; auto. rewrite <- app_assoc. apply (paren_layout (K := string)); auto.
    + destruct o; cbn [aop_bop op_close append]; auto.
    + destruct o; cbn [aop_bop op_close close_tok append app]; auto.
Qed.
End Text.

(** ** C82 *)

(** The text of a compile-time expression is read by the run-time parser as that
    expression, with fractions as divisions. *)
Theorem C82_read_back_partial : forall (read : string -> R) (show : R -> string) forced e,
  reads_exactly read show e -> ct_printable show forced e ->
  exists s, ct_repr show forced e = Ret s /\ parse read show s = Ret (written e).
Proof.
  intros read show forced e Re [W F].
  destruct (ct_layout read show forced e) as (s & Es & L); auto. { intros n d H. apply H. }
  destruct (ct_denote read show forced e Re W F) as [D S].
  destruct (grouped_cst (EN := T_enum) _ _ forced _ W F) as [G _].
  exists s. split; auto. apply parse_ret.
  assert (Ls : layout s (tokens (ct_cst show forced e))).
  { specialize (L "" [] breaks_nil (layout_nil 0)). now rewrite sapp_nil_r, app_nil_r in L. }
  destruct (prefix_complete read show s _ Ls S (ct_grouped show forced e G) (ct_post show forced e)) as (s' & A & B).
  rewrite D in A. eauto.
Qed.
Print Assumptions C82_read_back_partial.

(** ... and the value of what is read is the value of the expression. *)
Lemma written_value s env e : has_denominators e -> value_of s env (written e) = value_of s env (conv e).
Proof.
  unfold conv. induction e as [n d|k|x|o a IH|o l IHl r IHr]; intros D; cbn [written to_expr]; auto.
  - cbn in D. destruct (Z.eqb_spec d 1) as [->|N].
    + cbn. unfold c_real. do 2 f_equal. field.
    + assert (Hd : IZR d <> 0%R) by (now apply not_0_IZR).
      destruct (Z.ltb_spec n 0); unfold value_of, c_real; cbn; (destruct (Req_EM_T (IZR d) 0); [contradiction|]); cbn; auto.
      do 2 f_equal. rewrite opp_IZR. field. exact Hd.
  - unfold value_of in *. cbn [eval]. now rewrite (IH D).
  - destruct D as [Dl Dr]. rewrite !value_bin, (IHl Dl), (IHr Dr). reflexivity.
Qed.
Lemma reads_denominators read show e : reads_exactly read show e -> has_denominators e.
Proof.
  induction e as [n d|k|x|o a IH|o l IHl r IHr]; simpl; auto.
  - intros [H _]. lia.
  - tauto.
Qed.
Lemma printable_sign_free show forced e : ct_printable show forced e -> sign_free e.
Proof.
  intros [W _]. revert W. induction e as [n d|[z|r]|x|o a IH|o l IHl r IHr]; simpl; auto.
  - intros ([H| ->] & _ & W); split; auto; [intros ->; simpl in H; congruence|discriminate].
  - tauto.
Qed.
Theorem C82_text_value_partial : forall (read : string -> R) (show : R -> string) forced e,
  reads_exactly read show e -> ct_printable show forced e ->
  exists txt x, ct_repr show forced e = Ret txt /\ parse read show txt = Ret x /\
    forall s rho v, s = 1%R \/ s = (-1)%R -> (value_of s (nums rho) x = Some (VN v) <-> cval anywhere rho e v).
Proof.
  intros read show forced e Re P. destruct (C82_read_back_partial read show forced e Re P) as (t & A & B).
  exists t, (written e). split; auto. split; auto. intros s rho v Hs.
  pose proof (reads_denominators _ _ _ Re) as D. rewrite written_value by auto. apply C80_value; auto.
  eapply printable_sign_free; eauto.
Qed.
Print Assumptions C82_text_value_partial.

(** Expressions without negative whole numbers and without powers as bases of powers meet the
    hypothesis, whatever the signs of the fractions. *)
Fixpoint ct_plain (show : R -> string) (e : cexpr) : Prop :=
  match e with
  | TC n d => d = 1 -> 0 <= n
  | TNum (RInt z) => 0 <= z
  | TNum (RDbl r) => is_number (show r)
  | TVar x => is_name x
  | TUn o a => (fun_name o <> None \/ o = UNeg /\ match a with TC _ d => d <> 1 | TNum _ => False | _ => True end) /\ ct_plain show a
  | TBin o l r => (o = OPow -> match l with TBin OPow _ _ => False | _ => True end) /\ ct_plain show l /\ ct_plain show r
  end.
Lemma q_name : is_name "q".
Proof. repeat split; try discriminate; simpl; try tauto; unfold letter; cbn; try lia; intuition discriminate. Qed.
Lemma not_dash t : is_number t -> ~ negative_constant (EN := T_enum) (fun t => t) (fun t => t) t.
Proof.
  intros N (u & E & _). cbn in E. apply number_not_dash in N. rewrite E in N. discriminate.
Qed.
Lemma plain_positive show e : ct_plain show e -> ~ ends_negative (EN := T_enum) (fun t => t) (fun t => t) (as_text show e).
Proof.
  induction e as [n d|[z|r]|x|o a IH|o l IHl r IHr]; simpl; auto.
  - intros H. destruct (Z.eqb_spec d 1) as [E|E]; simpl; auto. apply not_dash. now apply (decimal_number n), H.
  - intros H. apply not_dash. now apply (decimal_number z).
  - intros H. now apply not_dash.
  - intros [_ P] H. apply (IH P). destruct o; apply H.
  - intros (_ & Pl & Pr) (_ & _ & H). exact (IHr Pr H).
Qed.
Theorem C82_plain : forall show forced e, ct_plain show e -> ct_printable show forced e.
Proof.
  intros show forced e H. split.
  - induction e as [n d|[z|r]|x|o a IH|o l IHl r IHr]; cbn [as_text ParserSpec.writable ct_plain] in *; auto.
    + destruct (Z.eqb_spec d 1) as [E|E]; [left; split; auto; apply decimal_number; auto|exact q_name].
    + left. split; auto. apply decimal_number; auto.
    + left. split; auto.
    + destruct H as [Ho H]. split; [tauto|]. split; [apply E0_dict|auto].
    + destruct H as (_ & Hl & Hr). split; [apply E0_dict|]. split; [apply E0_dict|auto].
  - induction e as [n d|[z|r]|x|o a IH|o l IHl r IHr]; cbn [as_text ParserSpec.faithful ct_plain] in *; auto.
    + destruct (Z.eqb d 1); exact I.
    + destruct H as [Ho H]. split; [|auto]. intros ->. destruct Ho as [Ho|[_ Ho]]; [simpl in Ho; congruence|].
      destruct a as [n d|k|x|p b|p l r]; simpl in *; auto. destruct (Z.eqb_spec d 1); simpl; tauto.
    + destruct H as (Hp & Hl & Hr). split; [|auto]. intros _. split.
      * intros Hg Hr'. destruct o; try discriminate. specialize (Hp eq_refl).
        destruct l as [n d|[z|q]|x|p b|p ll lr]; simpl in *; auto; [destruct (Z.eqb d 1); simpl in *; auto|].
        destruct p; simpl in *; congruence.
      * intros _ _. now apply plain_positive.
Qed.
Print Assumptions C82_plain.

(** Not for negative whole numbers as bases of powers: C<-2>^C<2> is 4, its text -2^2 is read as -4.
    And C<-1,2>^C<2>, in parentheses, is read as what it is. *)
Theorem C82_read_back_refuted : forall show s rho,
  let e := TBin OPow (TC (-2) 1) (TC 2 1) in
  let f := TBin OPow (TC (-1) 2) (TC 2 1) in
  (cval anywhere rho e 4 /\ ct_repr show false e = Ret "-2^2" /\
   exists x, parse read_int show "-2^2" = Ret x /\ value_of s (nums rho) x = Some (VN (-4)%R)) /\
  (cval anywhere rho f (1 / 4) /\ ct_repr show false f = Ret "(-1/2)^2" /\
   exists x, parse read_int show "(-1/2)^2" = Ret x /\ value_of s (nums rho) x = Some (VN (1 / 4)%R)).
Proof.
  intros show s rho. cbv zeta.
  assert (P2 : npow (-2) 2 = Some 4%R).
  { rewrite (npow_int (-2) 2) by (left; lra). unfold powerRZ. change (Pos.to_nat 2) with 2%nat. cbn [pow]. f_equal. lra. }
  assert (P4 : npow (-1 / 2) 2 = Some (1 / 4)%R).
  { rewrite (npow_int (-1 / 2) 2) by (left; lra). unfold powerRZ. change (Pos.to_nat 2) with 2%nat. cbn [pow]. f_equal. lra. }
  assert (Q2 : npow 2 2 = Some 4%R).
  { rewrite (npow_int 2 2) by (left; lra). unfold powerRZ. change (Pos.to_nat 2) with 2%nat. cbn [pow]. f_equal. lra. }
  split; (split; [|split; [reflexivity|]]).
  - exists (-2)%R, 2%R. repeat split; try lia; cbn; unfold c_real; try lra. exact P2.
  - exists (EUn UNeg (EBin BPow (EConst 2%R) (EConst 2%R))). split; [reflexivity|]. unfold value_of. cbn [eval vbin nbin]. rewrite Q2. cbn. do 2 f_equal; lra.
  - exists (-1 / 2)%R, 2%R. repeat split; try lia; cbn; unfold c_real; try lra. exact P4.
  - exists (EBin BPow (EUn UNeg (EBin BDiv (EConst 1%R) (EConst 2%R))) (EConst 2%R)). split; [reflexivity|].
    unfold value_of. cbn [eval vbin nbin]. destruct (Req_EM_T 2 0); [lra|]. cbn [option_map nun]. cbn [vbin nbin].
    replace (- (1 / 2))%R with (-1 / 2)%R by lra. rewrite P4. reflexivity.
Qed.
Print Assumptions C82_read_back_refuted.

(** The texts of different constants are different. *)
Definition int_char (c : ascii) : Prop := digit c \/ c = "-"%char.
Lemma decimal_chars z : all_chars int_char (decimal z).
Proof.
  assert (P : forall z, 0 < z -> all_chars int_char (decimal z)).
  { intros w H. destruct (PropFloatText.decimal_pos w H) as (A & _). revert A. generalize (decimal w).
    intros t. induction t as [|c t IH]; simpl; auto. unfold int_char. tauto. }
  destruct (Z.lt_trichotomy z 0) as [H|[->|H]]; auto.
  - rewrite (decimal_minus z H). split; [right; reflexivity|]. apply P. lia.
  - simpl. split; auto. left. unfold digit. cbn. lia.
Qed.
Lemma decimal_inj z w : decimal z = decimal w -> z = w.
Proof.
  intros E. destruct (Z.ltb_spec z 0) as [Hz|Hz], (Z.ltb_spec w 0) as [Hw|Hw].
  - rewrite (decimal_minus z Hz), (decimal_minus w Hw) in E. injection E as E.
    destruct (decimal_number (- z) ltac:(lia)) as [_ A], (decimal_number (- w) ltac:(lia)) as [_ B]. rewrite E in A. lia.
  - rewrite (decimal_minus z Hz) in E. destruct (decimal_number w Hw) as [N _]. apply number_not_dash in N. rewrite <- E in N. discriminate.
  - rewrite (decimal_minus w Hw) in E. destruct (decimal_number z Hz) as [N _]. apply number_not_dash in N. rewrite E in N. discriminate.
  - destruct (decimal_number z Hz) as [_ A], (decimal_number w Hw) as [_ B]. rewrite E in A. lia.
Qed.
Lemma split_at_char c : forall a a' b b', ~ int_char c -> all_chars int_char a -> all_chars int_char a' ->
  a ++ String c b = a' ++ String c b' -> a = a' /\ b = b'.
Proof.
  induction a as [|x a IH]; intros [|y a'] b b' Hc A A' E; simpl in *.
  - injection E as ->. auto.
  - injection E as <- _. tauto.
  - injection E as -> _. tauto.
  - injection E as -> E. destruct (IH a' b b' Hc) as [-> ->]; tauto.
Qed.
Lemma starts_int c z t : ~ int_char c -> decimal z = String c t -> False.
Proof. intros H E. pose proof (decimal_chars z) as A. rewrite E in A. simpl in A. tauto. Qed.
Ltac not_int := unfold int_char, digit; cbn; intros [?|?]; [lia|discriminate].
Definition specials : list (Z * Z * string) :=
  [(1, 4, c_stream 1 4); (1, 2, c_stream 1 2); (3, 4, c_stream 3 4);
   (47627751, 15160384, c_stream 47627751 15160384); (28245729, 10391023, c_stream 28245729 10391023)].
Definition generic_text (n d : Z) : string := ("C<" ++ decimal n ++ (if Z.eqb d 1 then "" else "," ++ decimal d) ++ ">()")%string.
Lemma stream_cases n d : In (n, d, c_stream n d) specials \/ c_stream n d = generic_text n d.
Proof.
  unfold c_stream at 2. cbn [fst snd c_pi c_e].
  repeat match goal with |- context [if (Z.eqb ?x ?a && Z.eqb ?y ?b)%bool then _ else _] =>
      let E := fresh in destruct (Z.eqb x a && Z.eqb y b)%bool eqn:E;
      [apply andb_prop in E; destruct E as [E1 E2]; apply Z.eqb_eq in E1; apply Z.eqb_eq in E2; subst; left; unfold specials; simpl In; tauto|] end.
  right; reflexivity.
Qed.
Lemma split_two a a' c c' b b' : all_chars int_char a -> all_chars int_char a' -> ~ int_char c -> ~ int_char c' ->
  a ++ String c b = a' ++ String c' b' -> a = a' /\ c = c' /\ b = b'.
Proof.
  revert a'. induction a as [|x a IH]; intros [|y a'] A A' H H' E; simpl in *.
  - injection E as -> ->. auto.
  - injection E as <- _. tauto.
  - injection E as -> _. tauto.
  - injection E as -> E. destruct (IH a') as (-> & -> & ->); tauto.
Qed.
Lemma generic_inj n d n' d' : generic_text n d = generic_text n' d' -> n = n' /\ d = d'.
Proof.
  unfold generic_text. intros E. injection E as E.
  destruct (Z.eqb_spec d 1) as [H|H]; destruct (Z.eqb_spec d' 1) as [H'|H']; cbn [append] in E;
    apply split_two in E; try apply decimal_chars; try not_int; destruct E as (A & C & E); try discriminate C;
    apply decimal_inj in A; (split; [exact A|]); [lia|].
  apply split_two in E; try apply decimal_chars; try not_int. destruct E as (B & _). now apply decimal_inj in B.
Qed.
Ltac pick A := let E1 := fresh in let E2 := fresh in
  pose proof (f_equal (fun t => fst (fst t)) A) as E1; pose proof (f_equal (fun t => snd (fst t)) A) as E2;
  cbn [fst snd] in E1, E2; clear A; subst.
Theorem C82_constants_differ : forall n d n' d',
  (c_repr n d = c_repr n' d' <-> (n, d) = (n', d')) /\
  (c_debug n d = c_debug n' d' <-> (n, d) = (n', d')) /\
  (c_stream n d = c_stream n' d' <-> (n, d) = (n', d')).
Proof.
  intros n d n' d'. split; [|split]; (split; [|congruence]).
  - unfold c_repr. destruct (Z.eqb_spec d 1) as [H|H]; destruct (Z.eqb_spec d' 1) as [H'|H']; intros E.
    + apply decimal_inj in E. congruence.
    + exfalso. eapply starts_int; [|exact E]. not_int.
    + exfalso. eapply starts_int; [|symmetry; exact E]. not_int.
    + injection E as E. apply split_at_char in E; try apply decimal_chars; [|not_int]. destruct E as [A E].
      apply split_at_char in E; try apply decimal_chars; [|not_int]. destruct E as [B _].
      apply decimal_inj in A. apply decimal_inj in B. congruence.
  - unfold c_debug. intros E. injection E as E.
    destruct (Z.eqb_spec d 1) as [H|H]; destruct (Z.eqb_spec d' 1) as [H'|H']; cbn [append] in E.
    + apply split_at_char in E; try apply decimal_chars; [|not_int]. destruct E as [A _]. apply decimal_inj in A. congruence.
    + exfalso. revert E. generalize (decimal_chars n) (decimal_chars n'). generalize (decimal n) (decimal n').
      induction s as [|x a IH]; intros [|y a']; simpl; intros A A' E; try discriminate.
      * injection E as <- _. destruct A' as [A' _]. revert A'. not_int.
      * injection E as -> _. destruct A as [A _]. revert A. not_int.
      * injection E as -> E. apply (IH a'); tauto.
    + exfalso. revert E. generalize (decimal_chars n) (decimal_chars n'). generalize (decimal n) (decimal n').
      induction s as [|x a IH]; intros [|y a']; simpl; intros A A' E; try discriminate.
      * injection E as <- _. destruct A' as [A' _]. revert A'. not_int.
      * injection E as -> _. destruct A as [A _]. revert A. not_int.
      * injection E as -> E. apply (IH a'); tauto.
    + apply split_at_char in E; try apply decimal_chars; [|not_int]. destruct E as [A E]. injection E as E.
      apply split_at_char in E; try apply decimal_chars; [|not_int]. destruct E as [B _].
      apply decimal_inj in A. apply decimal_inj in B. congruence.
  - intros E. destruct (stream_cases n d) as [A|A], (stream_cases n' d') as [B|B].
    + unfold specials in A, B. simpl In in A, B.
      repeat (destruct A as [A|A]); try contradiction; repeat (destruct B as [B|B]); try contradiction; pick A; pick B; try reflexivity; discriminate E.
    + rewrite B in E. unfold specials in A. simpl In in A.
      repeat (destruct A as [A|A]); try contradiction; pick A; discriminate E.
    + rewrite A in E. unfold specials in B. simpl In in B.
      repeat (destruct B as [B|B]); try contradiction; pick B; discriminate E.
    + rewrite A, B in E. apply generic_inj in E. destruct E; congruence.
Qed.
Print Assumptions C82_constants_differ.

(** The signs of the special constants, by their Unicode code points, and the texts of
    all others. *)
Definition utf8 (cp : N) : string :=
  String (ascii_of_N (192 + cp / 64)) (String (ascii_of_N (128 + cp mod 64)) "").
Theorem C82_forms : 
  c_stream 1 4 = (utf8 169 ++ utf8 188)%string /\ c_stream 1 2 = (utf8 169 ++ utf8 189)%string /\
  c_stream 3 4 = (utf8 169 ++ utf8 190)%string /\
  c_stream (fst c_pi) (snd c_pi) = utf8 960 /\ c_stream (fst c_e) (snd c_e) = "e"%string /\
  forall n d,
  c_repr n d = (if Z.eqb d 1 then decimal n else String.concat "" ["("; decimal n; "/"; decimal d; ")"]) /\
  c_debug n d = String.concat "" (["C<"; decimal n] ++ (if Z.eqb d 1 then [] else [", "; decimal d]) ++ [">"])%list /\
  (~ In (n, d) [(1, 4); (1, 2); (3, 4); c_pi; c_e] ->
   c_stream n d = String.concat "" (["C<"; decimal n] ++ (if Z.eqb d 1 then [] else [","; decimal d]) ++ [">()"])%list).
Proof.
  do 5 (split; [reflexivity|]). intros n d. split; [|split].
  - unfold c_repr. destruct (Z.eqb d 1); reflexivity.
  - unfold c_debug. destruct (Z.eqb d 1); reflexivity.
  - intros H. destruct (stream_cases n d) as [A|A].
    + exfalso. apply H. unfold specials in A. simpl In in A.
      repeat (destruct A as [A|A]); try contradiction; pick A; unfold c_pi, c_e; simpl In; tauto.
    + rewrite A. unfold generic_text. destruct (Z.eqb d 1); reflexivity.
Qed.
Print Assumptions C82_forms.

(** A concrete case: (-1/2)*x^2+3. *)
Example C82_case : forall show,
  let e := TBin OAdd (TBin OMul (TC (-1) 2) (TBin OPow (TVar "x") (TC 2 1))) (TC 3 1) in
  reads_exactly read_int show e /\ ct_plain show e /\ ct_printable show false e /\ ct_repr show false e = Ret "(-1/2)*x^2+3".
Proof.
  intros show e.
  assert (P : ct_plain show e).
  { simpl. repeat split; try lia; try discriminate; try tauto; unfold letter; cbn; try lia; intuition discriminate. }
  split; [|split; [exact P|split; [now apply C82_plain|reflexivity]]].
  simpl. repeat split; lia.
Qed.
