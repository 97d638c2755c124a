(** Uniqueness of the sentence behind a printed text: two sentences with the same
    tokens that stand for the same expression are the same sentence (unless one
    has a useless unary plus).  Used for the exact form of C37 in PropReadBack.v. *)
From Coq Require Import List String Ascii Arith ZArith Lia Bool.
From Verif Require Import Outcome Num ExprModel ExprSpec ExprBase ParserModel ParserSpec ParserBase ParserProofs ParserSound ParserComplete ReprProofs.
Import ListNotations.
Open Scope nat_scope. Open Scope list_scope. Open Scope string_scope.

(** No dictionary names a key twice. *)
Fixpoint distinct {K} {EN : ENum K} (read : string -> K) (c : cst) : Prop :=
  match c with
  | CNum _ | CVar _ => True
  | CPar a | CPos a | CNeg a | CFun _ a => distinct read a
  | CBin _ l r => distinct read l /\ distinct read r
  | CArr es => fold_right (fun a P => distinct read a /\ P) True es
  | CDict d => NoDup (map (fun p => key_name (denote read (fst p))) d) /\
               fold_right (fun p P => (distinct read (fst p) /\ distinct read (snd p)) /\ P) True d
  end.
(** No unary plus, and a minus sign is put before numbers directly. *)
Fixpoint canon {K} {EN : ENum K} (read : string -> K) (c : cst) : Prop :=
  match c with
  | CNum _ | CVar _ => True
  | CPar a | CFun _ a => canon read a
  | CPos _ => False
  | CNeg a => canon read a /\ (is_number_node (denote read a) -> exists t, a = CNum t)
  | CBin _ l r => canon read l /\ canon read r
  | CArr es => fold_right (fun a P => canon read a /\ P) True es
  | CDict d => fold_right (fun p P => ((exists x, fst p = CVar x) /\ canon read (snd p)) /\ P) True d
  end.

(** ** Parentheses match in one way *)
Fixpoint scan (d : nat) (ts : list string) : option (list string * list string) :=
  match ts with
  | [] => None
  | t :: r =>
      if String.eqb t ")" then
        match d with
        | O => Some ([], r)
        | S d => match scan d r with Some (a, b) => Some (t :: a, b) | None => None end
        end
      else match scan (if String.eqb t "(" then S d else d) r with Some (a, b) => Some (t :: a, b) | None => None end
  end.
Definition pre (x : list string) (m : option (list string * list string)) :=
  match m with Some (a, b) => Some (x ++ a, b)%list | None => None end.
Lemma pre_app x y m : pre (x ++ y) m = pre x (pre y m).
Proof. destruct m as [[a b]|]; simpl; auto. now rewrite app_assoc. Qed.
Lemma scan_tok d t r : t <> "(" -> t <> ")" -> scan d (t :: r) = pre [t] (scan d r).
Proof.
  intros A B. simpl. destruct (String.eqb_spec t ")"); [contradiction|]. destruct (String.eqb_spec t "("); [contradiction|].
  destruct (scan d r) as [[a b]|]; reflexivity.
Qed.
Lemma scan_open d r : scan d ("(" :: r) = pre ["("] (scan (S d) r).
Proof. simpl. destruct (scan (S d) r) as [[a b]|]; reflexivity. Qed.
Lemma scan_close d r : scan (S d) (")" :: r) = pre [")"] (scan d r).
Proof. simpl. destruct (scan d r) as [[a b]|]; reflexivity. Qed.

(** ** Leaves, and opening brackets *)
Definition leafb (t : string) : bool :=
  (match left_op t, right_op t with None, None => true | _, _ => false end || String.eqb t "[" || String.eqb t "{")%bool.
Definition nl (ts : list string) : nat := List.length (filter leafb ts).
Lemma nl_app a b : nl (a ++ b)%list = nl a + nl b.
Proof. unfold nl. rewrite filter_app, app_length. reflexivity. Qed.

Lemma first_op t c u : t = String c u -> (isdigit c = true \/ isalpha c = true) ->
  right_op t = None /\ t <> "(" /\ t <> ")" /\ t <> "-" /\ t <> "+".
Proof.
  intros -> H.
  assert (X : forall d, isdigit d = false -> isalpha d = false -> forall v, String c u <> String d v).
  { intros d A B v E. injection E as -> _. destruct H; congruence. }
  split.
  - unfold right_op.
    repeat match goal with |- context [String.eqb (String c u) ?s] =>
      destruct (String.eqb_spec (String c u) s) as [E|_]; [exfalso; eapply X in E; [exact E| reflexivity | reflexivity]|]
    end. reflexivity.
  - repeat split; apply X; reflexivity.
Qed.
Lemma number_facts t : is_number t -> leafb t = true /\ t <> "(" /\ t <> ")" /\ t <> "-" /\ t <> "+".
Proof.
  intros N. apply is_number_cons in N. destruct N as (c & a & -> & D & _).
  assert (Dc : isdigit c = true) by now apply isdigit_iff.
  destruct (first_op (String c a) c a eq_refl (or_introl Dc)) as (R & N1 & N2 & N3 & N4).
  split; auto. unfold leafb. rewrite R.
  assert (L : left_op (String c a) = None); [|now rewrite L].
  destruct (digit_not_special c D) as (_ & _ & _ & _ & _ & _ & A).
  unfold left_op.
  repeat match goal with |- context [String.eqb (String c a) ?s] =>
    destruct (String.eqb_spec (String c a) s) as [E|_]; [exfalso; injection E as -> _; discriminate|]
  end. reflexivity.
Qed.
Lemma word_facts t : is_word t -> right_op t = None /\ t <> "(" /\ t <> ")" /\ t <> "-" /\ t <> "+".
Proof.
  intros [Ne W]. destruct t as [|c u]; [congruence|]. apply (first_op _ c u eq_refl). right.
  simpl in W. destruct W as [W _]. now apply isalpha_iff.
Qed.
Lemma name_facts t : is_name t -> leafb t = true /\ t <> "(" /\ t <> ")" /\ t <> "-" /\ t <> "+".
Proof.
  intros N. destruct (word_facts t) as (R & N1); [apply N|]. split; [|tauto].
  unfold leafb. rewrite (name_left t N), R. reflexivity.
Qed.
Lemma fun_facts o : fun_name o <> None -> leafb (fun_tok o) = false /\ fun_tok o <> "(" /\ fun_tok o <> ")" /\ fun_tok o <> "-".
Proof. destruct o; simpl; intros H; try congruence; (split; [reflexivity|]); repeat split; discriminate. Qed.
Definition acc (o : bop) : nat := match o with BAcc | BUnits => 1 | _ => 0 end.
Lemma op_facts o : nl [op_tok o] = acc o /\ op_tok o <> "(" /\ op_tok o <> ")".
Proof. destruct o; (split; [reflexivity|]); split; discriminate. Qed.
Lemma nl_sep l : nl (sep l) = fold_right (fun x n => nl x + n) 0 l.
Proof.
  induction l as [|x [|y t] IH]; [reflexivity|cbn [sep fold_right]; lia|].
  change (sep (x :: y :: t)) with (x ++ [","] ++ sep (y :: t))%list. rewrite !nl_app, IH. reflexivity.
Qed.

Section Generic.
Context {K : Type} {EN : ENum K}.
Variable read : string -> K.
Notation denote := (denote read).
Notation sentence := (sentence read).
Notation distinct := (distinct read).

Lemma scan_sep l : Forall (fun x => forall d r, scan d (x ++ r)%list = pre x (scan d r)) l ->
  forall d r, scan d (sep l ++ r)%list = pre (sep l) (scan d r).
Proof.
  intros H d0 r. induction l as [|c [|c' t] IH].
  - cbn. destruct (scan d0 r) as [[a b]|]; reflexivity.
  - inversion H; subst. cbn [sep]. auto.
  - inversion H; subst. specialize (IH ltac:(auto)).
    change (sep (c :: c' :: t)) with (c ++ "," :: sep (c' :: t))%list.
    rewrite <- app_assoc. rewrite H2 by auto. rewrite pre_app. f_equal. cbn [app]. rewrite scan_tok by discriminate. rewrite IH.
    rewrite <- pre_app. reflexivity.
Qed.
Lemma scan_app c : distinct c -> sentence c -> forall d r, scan d (tokens c ++ r)%list = pre (tokens c) (scan d r).
Proof.
  induction c using cst_ind'; simpl; intros F S d0 r; try contradiction.
  - destruct (number_facts t S) as (_ & A & B & _). now apply (scan_tok d0 t r).
  - destruct (name_facts t S) as (_ & A & B & _). now apply (scan_tok d0 t r).
  - change ("(" :: (tokens c ++ [")"]) ++ r)%list with ("(" :: ((tokens c ++ [")"]) ++ r)).
    change (scan d0 ("(" :: ((tokens c ++ [")"]) ++ r)%list) = pre ("(" :: tokens c ++ [")"])%list (scan d0 r)).
    rewrite scan_open, <- app_assoc, IHc by auto. cbn [app]. rewrite scan_close.
    rewrite <- !pre_app. reflexivity.
  - change (scan d0 ("+" :: (tokens c ++ r))%list = pre ("+" :: tokens c)%list (scan d0 r)).
    rewrite scan_tok by discriminate. rewrite IHc by auto. rewrite <- pre_app. reflexivity.
  - change (scan d0 ("-" :: (tokens c ++ r))%list = pre ("-" :: tokens c)%list (scan d0 r)).
    rewrite scan_tok by discriminate. rewrite IHc by auto. rewrite <- pre_app. reflexivity.
  - destruct S as [Hf S]. destruct (fun_facts o Hf) as (_ & A & B & _).
    change (scan d0 (fun_tok o :: (tokens c ++ r))%list = pre (fun_tok o :: tokens c)%list (scan d0 r)).
    rewrite scan_tok by auto. rewrite IHc by auto. rewrite <- pre_app. reflexivity.
  - destruct F as [F1 F2], S as [S1 S2]. destruct (op_facts o) as (_ & A & B).
    rewrite <- app_assoc, IHc1 by auto. rewrite pre_app. f_equal.
    change (scan d0 (op_tok o :: ((tokens c2 ++ close_tok o) ++ r))%list = pre (op_tok o :: (tokens c2 ++ close_tok o))%list (scan d0 r)).
    rewrite scan_tok by auto. change (op_tok o :: (tokens c2 ++ close_tok o))%list with ([op_tok o] ++ (tokens c2 ++ close_tok o))%list.
    rewrite pre_app. f_equal. rewrite <- app_assoc, IHc2 by auto. rewrite pre_app. f_equal.
    destruct o; cbn [close_tok app]; try (destruct (scan d0 r) as [[x y]|]; reflexivity);
      now rewrite scan_tok by discriminate.
  - apply fold_and in F. apply fold_and in S.
    change (scan d0 ("[" :: ((sep (map tokens es) ++ ["]"]) ++ r))%list = pre ("[" :: sep (map tokens es) ++ ["]"])%list (scan d0 r)).
    rewrite scan_tok by discriminate. rewrite <- app_assoc, scan_sep.
    + cbn [app]. rewrite scan_tok by discriminate. rewrite <- !pre_app. reflexivity.
    + rewrite Forall_map. rewrite Forall_forall in *. auto.
  - destruct F as [_ F]. apply fold_and in F. apply fold_and in S.
    set (g := fun p : cst * cst => (tokens (fst p) ++ ":" :: tokens (snd p))%list) in *.
    change (scan d0 ("{" :: ((sep (map g d) ++ ["}"]) ++ r))%list = pre ("{" :: sep (map g d) ++ ["}"])%list (scan d0 r)).
    rewrite scan_tok by discriminate. rewrite <- app_assoc, scan_sep.
    + cbn [app]. rewrite scan_tok by discriminate. rewrite <- !pre_app. reflexivity.
    + rewrite Forall_map. rewrite Forall_forall in *. intros p Hp d1 r1. destruct (H p Hp) as [Hk Hv], (F p Hp) as [Fk Fv], (S p Hp) as (Sk & Sv & _).
      unfold g. rewrite <- app_assoc. rewrite Hk by auto. rewrite pre_app. f_equal. cbn [app].
      rewrite scan_tok by discriminate. rewrite Hv by auto. rewrite <- pre_app. reflexivity.
Qed.

(** ( a ) ... = ( b ) ... *)
Lemma balanced a b u v : distinct a -> distinct b -> sentence a -> sentence b ->
  (tokens a ++ ")" :: u)%list = (tokens b ++ ")" :: v)%list -> tokens a = tokens b.
Proof.
  intros Fa Fb Sa Sb E. pose proof (scan_app a Fa Sa 0 (")" :: u)) as A. pose proof (scan_app b Fb Sb 0 (")" :: v)) as B.
  rewrite E, B in A. simpl in A. rewrite !app_nil_r in A. congruence.
Qed.

Fixpoint leaves (e : expr K) : nat :=
  match e with
  | EConst _ | EVar _ => 1
  | EUn _ a => leaves a
  | EBin o l r => leaves l + leaves r + acc o
  | EArr es => S (fold_right (fun a n => leaves a + n) 0 es)
  | EDict d => S (fold_right (fun p n => S (leaves (snd p)) + n) 0 d)
  end.
Lemma leaves_denote c : distinct c -> sentence c -> nl (tokens c) = leaves (denote c).
Proof.
  induction c using cst_ind'; simpl; intros F S; try contradiction.
  - destruct (number_facts t S) as (A & _). unfold nl. simpl. now rewrite A.
  - destruct (name_facts t S) as (A & _). unfold nl. simpl. now rewrite A.
  - change (nl (["("] ++ tokens c ++ [")"])%list = leaves (denote c)). rewrite !nl_app.
    change (nl ["("]) with 0. change (nl [")"]) with 0. rewrite IHc by auto. lia.
  - change (nl (["+"] ++ tokens c)%list = leaves (denote c)). rewrite nl_app. rewrite <- IHc; auto.
  - change (nl (["-"] ++ tokens c)%list = leaves (match denote c with EConst k => EConst (nopp k) | e => EUn UNeg e end)).
    rewrite nl_app. change (nl ["-"]) with 0. rewrite IHc by auto. destruct (denote c); reflexivity.
  - destruct S as [Hf S]. destruct (fun_facts o Hf) as (A & _).
    change (nl ([fun_tok o] ++ tokens c)%list = leaves (denote c)). rewrite nl_app, IHc by auto.
    unfold nl. simpl. now rewrite A.
  - destruct F as [F1 F2], S as [S1 S2]. destruct (op_facts o) as (A & _).
    change (nl (tokens c1 ++ [op_tok o] ++ tokens c2 ++ close_tok o)%list = leaves (denote c1) + leaves (denote c2) + acc o).
    rewrite !nl_app, IHc1, IHc2 by auto. rewrite A.
    assert (C : nl (close_tok o) = 0) by (destruct o; reflexivity). rewrite C. lia.
  - apply fold_and in F. apply fold_and in S.
    change (nl (["["] ++ sep (map tokens es) ++ ["]"])%list = Datatypes.S (fold_right (fun a n => leaves a + n) 0 (map denote es))).
    rewrite !nl_app, nl_sep. change (nl ["["]) with 1. change (nl ["]"]) with 0. rewrite Nat.add_0_r. cbn [Nat.add]. f_equal.
    induction es as [|c t IH]; [reflexivity|]. inversion H; subst. inversion F; subst. inversion S; subst. cbn [map fold_right]. rewrite H2, IH by auto. reflexivity.
  - destruct F as [Nd F]. apply fold_and in F. apply fold_and in S.
    set (g := fun p : cst * cst => (tokens (fst p) ++ ":" :: tokens (snd p))%list) in *.
    set (h := fun p : cst * cst => (key_name (denote (fst p)), denote (snd p))).
    change (nl (["{"] ++ sep (map g d) ++ ["}"])%list = leaves (EDict (fold_left assign (map h d) []))).
    rewrite fold_assign_distinct by (rewrite map_map; exact Nd). cbn [leaves app].
    change ("{" :: sep (map g d) ++ ["}"])%list with (["{"] ++ sep (map g d) ++ ["}"])%list.
    rewrite !nl_app, nl_sep. change (nl ["{"]) with 1. change (nl ["}"]) with 0. rewrite Nat.add_0_r. cbn [Nat.add]. f_equal.
    clear Nd. induction d as [|p t IH]; [reflexivity|]. inversion H; subst. inversion F; subst. inversion S; subst. cbn [map fold_right]. rewrite IH by auto.
    destruct H2 as [Hk Hv], H4 as [Fk Fv], H6 as (Sk & Sv & x & D). unfold g at 1. unfold h at 1. cbn [snd].
    change (":" :: tokens (snd p)) with ([":"] ++ tokens (snd p))%list. rewrite !nl_app, Hk, Hv by auto. rewrite D. reflexivity.
Qed.
Lemma leaves_pos c : distinct c -> sentence c -> 0 < leaves (denote c).
Proof.
  induction c using cst_ind'; simpl; intros F S; try contradiction; auto.
  - destruct (denote c); simpl in *; auto.
  - apply IHc; tauto.
  - destruct F, S. specialize (IHc1 ltac:(auto) ltac:(auto)). lia.
  - lia.
  - lia.
Qed.

Lemma tokens_cons c : distinct c -> sentence c -> exists t r, tokens c = t :: r.
Proof.
  induction c using cst_ind'; simpl; intros F S; try contradiction; eauto.
  destruct F as [F1 F2], S as [S1 S2]. destruct (IHc1 F1 S1) as (t & r & ->). simpl. eauto.
Qed.

(** A binary sentence that starts with a parenthesis: what is in it has fewer
    leaves than the whole. *)
Lemma open_left c : distinct c -> sentence c -> forall o l r, c = CBin o l r -> forall ts, tokens c = "(" :: ts ->
  exists b w, ts = (tokens b ++ ")" :: w)%list /\ distinct b /\ sentence b /\ leaves (denote b) < leaves (denote c).
Proof.
  induction c using cst_ind'; intros F S q l r E ts Et; try discriminate.
  injection E as -> -> ->. simpl in F, S. destruct F as [F1 F2], S as [S1 S2].
  cbn [tokens] in Et. cbn [ParserSpec.denote leaves]. pose proof (leaves_pos r F2 S2) as Lr.
  destruct l as [t|t|a|a|a|p a|p l1 l2|es|d]; try contradiction; cbn [tokens app] in Et.
  - simpl in S1. destruct (number_facts t S1) as (_ & A & _). injection Et as -> _. congruence.
  - simpl in S1. destruct (name_facts t S1) as (_ & A & _). injection Et as -> _. congruence.
  - injection Et as <-. exists a. eexists. rewrite <- app_assoc. split; [reflexivity|]. simpl in F1, S1.
    repeat split; auto. simpl. lia.
  - discriminate.
  - discriminate.
  - simpl in S1. destruct (fun_facts p (proj1 S1)) as (_ & A & _). injection Et as E1 _. congruence.
  - destruct (tokens_cons (CBin p l1 l2) F1 S1) as (t & rr & E1). cbn [tokens] in E1. rewrite E1 in Et.
    cbn [app] in Et. injection Et as -> <-.
    destruct (IHc1 F1 S1 p l1 l2 eq_refl rr E1) as (b & w & -> & Fb & Sb & L).
    exists b. eexists. rewrite <- app_assoc. cbn [app]. split; [reflexivity|]. repeat split; auto. lia.
  - discriminate.
  - discriminate.
Qed.

(** First tokens. *)
Lemma no_plus c : distinct c -> canon read c -> sentence c -> forall r, tokens c <> "+" :: r.
Proof.
  induction c using cst_ind'; simpl; intros F C S u E; try contradiction; try discriminate.
  - injection E as -> _. destruct (number_facts _ S) as (_ & _ & _ & _ & A). congruence.
  - injection E as -> _. destruct (name_facts _ S) as (_ & _ & _ & _ & A). congruence.
  - destruct S as [Hf S]. destruct o; simpl in Hf; try congruence; discriminate.
  - destruct F as [F1 F2], C as [C1 C2], S as [S1 S2]. destruct (tokens_cons c1 F1 S1) as (t & r & Et).
    rewrite Et in E. cbn [app] in E. injection E as -> _. now apply (IHc1 F1 C1 S1 r).
Qed.

Lemma number_first a t r : distinct a -> sentence a -> is_number t -> is_number_node (denote a) -> tokens a = t :: r -> a = CNum t.
Proof.
  intros F S N D E. destruct (number_facts t N) as (A & B1 & B2 & B3 & B4).
  destruct a as [u|u|a|a|a|p a|p l1 l2|es|d]; simpl in *; try contradiction; injection E; intros; subst; auto; congruence.
Qed.

Lemma unique_sentence c1 : distinct c1 -> canon read c1 -> sentence c1 -> forall c2 u v, distinct c2 -> sentence c2 ->
  denote c1 = denote c2 -> (tokens c1 ++ u)%list = (tokens c2 ++ v)%list -> c1 = c2.
Proof.
  induction c1 using cst_ind'; intros F C S c2 u v F2 S2 D E; simpl in F; try contradiction.
  - (* number *) simpl in S, D. destruct (number_facts t S) as (A & B1 & B2 & B3 & B4).
    destruct c2 as [t'|t'|a|a|a|p a|p l1 l2|es|d]; simpl in *; try contradiction; try discriminate;
      try (injection E as -> _; auto; congruence).
  - (* variable *) simpl in S, D. destruct (name_facts t S) as (A & B1 & B2 & B3 & B4).
    destruct c2 as [t'|t'|a|a|a|p a|p l1 l2|es|d]; simpl in *; try contradiction; try discriminate;
      try (injection E as -> _; auto; congruence).
  - (* parentheses *) simpl in C, S, D. cbn [tokens app] in E.
    destruct c2 as [t'|t'|a|a|a|p a|p l1 l2|es|d]; simpl in F2; try contradiction; cbn [tokens app] in E; try discriminate.
    + simpl in S2. destruct (number_facts _ S2) as (_ & A & _). injection E as E _. congruence.
    + simpl in S2. destruct (name_facts _ S2) as (_ & A & _). injection E as E _. congruence.
    + simpl in S2, D. injection E as E. rewrite <- !app_assoc in E. f_equal. eapply IHc1; eauto.
    + simpl in S2. destruct (fun_facts p (proj1 S2)) as (_ & A & _). injection E as E _. congruence.
    + exfalso. destruct (tokens_cons (CBin p l1 l2) F2 S2) as (t & r & Et). cbn [tokens] in Et. rewrite Et in E.
      cbn [app] in E. injection E as <- E.
      destruct (open_left (CBin p l1 l2) F2 S2 p l1 l2 eq_refl r Et) as (b & w & -> & Fb & Sb & L).
      rewrite <- !app_assoc in E. cbn [app] in E. apply balanced in E; auto.
      pose proof (leaves_denote _ F S) as L1. pose proof (leaves_denote _ Fb Sb) as L2. rewrite E, L2 in L1.
      rewrite <- D in L. lia.
  - (* minus *) cbn [tokens app] in E. simpl in C, S. destruct C as [C Cn].
    destruct c2 as [t'|t'|a|a|a|p a|p l1 l2|es|d]; simpl in F2; try contradiction; cbn [tokens app] in E; try discriminate.
    + simpl in S2. destruct (number_facts _ S2) as (_ & _ & _ & A & _). injection E as E _. congruence.
    + simpl in S2. destruct (name_facts _ S2) as (_ & _ & _ & A & _). injection E as E _. congruence.
    + simpl in S2. injection E as E. f_equal. cbn [ParserSpec.denote] in D.
      destruct (denote c1) as [k|x|o1 a1|o1 a1 b1|es|d] eqn:D1.
      * destruct (Cn I) as (t & ->). simpl in S, E.
        destruct (denote a) as [k'|x|o1 a1|o1 a1 b1|es|d] eqn:D2; try discriminate.
        destruct (tokens_cons a F2 S2) as (t' & r & Et). rewrite Et in E. injection E as <- _.
        symmetry. eapply number_first; eauto. rewrite D2. exact I.
      * destruct (denote a) eqn:D2; try discriminate. eapply IHc1; eauto. congruence.
      * destruct (denote a) eqn:D2; try discriminate. eapply IHc1; eauto. congruence.
      * destruct (denote a) eqn:D2; try discriminate. eapply IHc1; eauto. congruence.
      * destruct (denote a) eqn:D2; try discriminate. eapply IHc1; eauto. congruence.
      * destruct (denote a) eqn:D2; try discriminate. eapply IHc1; eauto. congruence.
    + simpl in S2. destruct (fun_facts p (proj1 S2)) as (_ & _ & _ & A). injection E as E _. congruence.
    + cbn [ParserSpec.denote] in D. destruct (denote c1); discriminate.
  - (* function *) cbn [tokens app] in E. simpl in C, S. destruct S as [Hf S]. destruct (fun_facts o Hf) as (Lf & A1 & A2 & A3).
    cbn [ParserSpec.denote] in D.
    destruct c2 as [t'|t'|a|a|a|p a|p l1 l2|es|d]; simpl in F2; try contradiction; cbn [tokens app] in E; cbn [ParserSpec.denote] in D;
      try discriminate; try (injection E as E _; congruence).
    + injection E as E _. destruct o; simpl in Hf; try congruence; discriminate.
    + simpl in S2. injection D as -> D. injection E as E. f_equal. eapply IHc1; eauto. tauto.
  - (* binary *) cbn [tokens] in E. simpl in C, S. destruct F as [F1 F1'], C as [C1 C1'], S as [S1 S1'].
    destruct c2 as [t'|t'|a|a|a|p a|p l1 l2|es|d]; simpl in F2; try contradiction; try (simpl in D; discriminate).
    + (* ( ... ) *) exfalso. cbn [ParserSpec.denote] in D. cbn [tokens app] in E.
      assert (F : distinct (CBin o c1_1 c1_2)) by (split; auto). assert (S : sentence (CBin o c1_1 c1_2)) by (split; auto).
      destruct (tokens_cons _ F S) as (t & r & Et). pose proof Et as Et'. cbn [tokens] in Et'. rewrite Et' in E.
      cbn [app] in E. injection E as -> E.
      destruct (open_left _ F S o c1_1 c1_2 eq_refl r Et) as (b & w & -> & Fb & Sb & L).
      rewrite <- !app_assoc in E. cbn [app] in E. simpl in S2. apply balanced in E; auto.
      pose proof (leaves_denote _ F2 S2) as L1. pose proof (leaves_denote _ Fb Sb) as L2. rewrite <- E, L2 in L1.
      cbn [ParserSpec.denote] in L. rewrite D in L. lia.
    + (* + ... *) exfalso. cbn [tokens app] in E.
      assert (F : distinct (CBin o c1_1 c1_2)) by (split; auto). assert (S : sentence (CBin o c1_1 c1_2)) by (split; auto).
      assert (C : canon read (CBin o c1_1 c1_2)) by (split; auto).
      destruct (tokens_cons _ F S) as (t & r & Et). pose proof Et as Et'. cbn [tokens] in Et'. rewrite Et' in E.
      cbn [app] in E. injection E as -> E. now apply (no_plus _ F C S r).
    + simpl in D. destruct (denote a); discriminate.
    + cbn [ParserSpec.denote] in D. injection D as -> D1 D2. simpl in S2. destruct F2 as [F2 F2'], S2 as [S2 S2'].
      cbn [tokens] in E. rewrite <- !app_assoc in E.
      assert (E1 : c1_1 = l1) by (eapply IHc1_1; eauto). subst l1. apply app_inv_head in E. cbn [app] in E. injection E as E.
      f_equal. rewrite <- !app_assoc in E. eapply IHc1_2; eauto.
  - (* array *) cbn [tokens app] in E. cbn [ParserSpec.denote] in D.
    destruct c2 as [t'|t'|a|a|a|p a|p l1 l2|es2|d]; simpl in F2; try contradiction; cbn [tokens app] in E; cbn [ParserSpec.denote] in D; try discriminate.
    + injection D as D. injection E as E. f_equal. simpl in C, S, S2.
      apply fold_and in F, C, S, F2, S2. rewrite <- !app_assoc in E. cbn [app] in E.
      remember ("]" :: u) as u' eqn:Hu. clear Hu u. remember ("]" :: v) as v' eqn:Hv. clear Hv v.
      revert es2 D F2 S2 u' v' E. induction es as [|c t IH]; intros [|c2 t2] D F2 S2 u v E; try discriminate; [reflexivity|].
      cbn [map] in D. injection D as D1 D2. inversion H; subst. inversion F; subst. inversion C; subst. inversion S; subst. inversion F2; subst. inversion S2; subst.
      assert (E0 : c = c2).
      { destruct t as [|x t], t2 as [|x2 t2]; try discriminate; cbn [map sep] in E; rewrite <- ?app_assoc in E; eapply H2; eauto. }
      subst c2. f_equal. destruct t as [|x t], t2 as [|x2 t2]; try discriminate; [reflexivity|].
      change (sep (map tokens (c :: x :: t))) with (tokens c ++ "," :: sep (map tokens (x :: t)))%list in E.
      change (sep (map tokens (c :: x2 :: t2))) with (tokens c ++ "," :: sep (map tokens (x2 :: t2)))%list in E.
      rewrite <- !app_assoc in E. apply app_inv_head in E. cbn [app] in E. injection E as E. eapply IH; eauto.
  - (* dictionary *) cbn [tokens app] in E.
    destruct c2 as [t'|t'|a|a|a|p a|p l1 l2|es2|d2]; try (cbn [ParserSpec.denote] in D; discriminate); cbn [tokens app] in E; try discriminate.
    cbn [ReadBack.distinct] in F, F2. cbn [ParserSpec.denote] in D. injection E as E. injection D as D. f_equal. simpl in C, S, S2.
    destruct F as [Nd F], F2 as [Nd2 F2].
    rewrite !fold_assign_distinct in D by (cbn [map app]; rewrite map_map; assumption). cbn [app] in D. clear Nd Nd2.
    apply fold_and in F, C, S, F2, S2. rewrite <- !app_assoc in E. cbn [app] in E.
    remember ("}" :: u) as u' eqn:Hu. clear Hu u. remember ("}" :: v) as v' eqn:Hv. clear Hv v.
    set (g := fun p : cst * cst => (tokens (fst p) ++ ":" :: tokens (snd p))%list) in *.
    revert d2 D F2 S2 u' v' E. induction d as [|p t IH]; intros [|p2 t2] D F2 S2 u v E; try discriminate; [reflexivity|].
    cbn [map] in D. injection D as D0 D1 D2. inversion H; subst. inversion F; subst. inversion C; subst. inversion S; subst. inversion F2; subst. inversion S2; subst.
    destruct p as [k w], p2 as [k2 w2]. cbn [fst snd] in *.
    destruct H2 as [_ Hv], H4 as [_ Fw], H6 as [[x ->] Cw], H8 as (Sk & Sw & _), H10 as [Fk2 Fw2], H12 as (Sk2 & Sw2 & x2 & Dk).
    cbn [ParserSpec.denote key_name] in D0. rewrite Dk in D0. cbn [key_name] in D0. subst x2.
    assert (E0 : exists u2 v2, (x :: ":" :: tokens w ++ u2)%list = (tokens k2 ++ ":" :: tokens w2 ++ v2)%list).
    { unfold g in E. destruct t as [|q t], t2 as [|q2 t2]; try discriminate; cbn [map sep tokens app fst snd] in E;
        rewrite <- ?app_assoc in E; cbn [app] in E; rewrite <- ?app_assoc in E; cbn [app] in E; eauto. }
    destruct E0 as (u2 & v2 & E0).
    destruct (name_facts x) as (_ & B1 & B2 & B3 & B4); [exact Sk|].
    assert (k2 = CVar x).
    { destruct k2 as [t'|t'|a|a|a|p a|p l1 l2|es2|d2]; cbn [ParserSpec.denote] in Dk; try discriminate; cbn [tokens app] in E0.
      - congruence.
      - injection E0 as E0 _. congruence.
      - injection E0 as E0 _. congruence.
      - destruct (denote a); discriminate. }
    subst k2. cbn [tokens app] in E0. injection E0 as E0.
    assert (w = w2) by (eapply Hv; eauto). subst w2. clear E0 u2 v2.
    f_equal. destruct t as [|q t], t2 as [|q2 t2]; try discriminate; [reflexivity|].
    change (sep (map g ((CVar x, w) :: q :: t))) with (g (CVar x, w) ++ "," :: sep (map g (q :: t)))%list in E.
    change (sep (map g ((CVar x, w) :: q2 :: t2))) with (g (CVar x, w) ++ "," :: sep (map g (q2 :: t2)))%list in E.
    rewrite <- !app_assoc in E. apply app_inv_head in E. cbn [app] in E. injection E as E. eapply IH; eauto.
Qed.

(** ** Sentences that name a key twice have more colons than their expression has
    entries *)
Definition nc (ts : list string) : nat := List.length (filter (String.eqb ":") ts).
Lemma nc_app a b : nc (a ++ b)%list = nc a + nc b.
Proof. unfold nc. rewrite filter_app, app_length. reflexivity. Qed.
Lemma nc_sep l : nc (sep l) = fold_right (fun x n => nc x + n) 0 l.
Proof.
  induction l as [|x [|y t] IH]; [reflexivity|cbn [sep fold_right]; lia|].
  change (sep (x :: y :: t)) with (x ++ [","] ++ sep (y :: t))%list. rewrite !nc_app, IH. reflexivity.
Qed.
(** The entries of all dictionaries in an expression. *)
Fixpoint entries (e : expr K) : nat :=
  match e with
  | EConst _ | EVar _ => 0
  | EUn _ a => entries a
  | EBin _ l r => entries l + entries r
  | EArr es => fold_right (fun a n => entries a + n) 0 es
  | EDict d => fold_right (fun p n => S (entries (snd p)) + n) 0 d
  end.
Definition weight (d : list (string * expr K)) : nat := fold_right (fun p n => S (entries (snd p)) + n) 0 d.
Lemma weight_app a b : weight (a ++ b) = weight a + weight b.
Proof. unfold weight. induction a as [|p t IH]; cbn [app fold_right]; [lia|]. rewrite IH. lia. Qed.
Lemma assign_keys (d : list (string * expr K)) p :
  map fst (assign d p) = if existsb (fun q => String.eqb (fst p) (fst q)) d then map fst d else (map fst d ++ [fst p])%list.
Proof.
  unfold assign. destruct (existsb _ d); [|now rewrite map_app]. rewrite map_map. apply map_ext.
  intros q. destruct (String.eqb_spec (fst p) (fst q)); congruence.
Qed.
Lemma assign_weight d p : NoDup (map fst d) ->
  weight (assign d p) <= weight d + S (entries (snd p)) /\
  (existsb (fun q => String.eqb (fst p) (fst q)) d = true -> weight (assign d p) < weight d + S (entries (snd p))).
Proof.
  intros N. unfold assign. destruct (existsb (fun q => String.eqb (fst p) (fst q)) d) eqn:X.
  - assert (L : weight (map (fun q => if String.eqb (fst p) (fst q) then p else q) d) < weight d + S (entries (snd p))); [|split; [lia|auto]].
    induction d as [|q t IH]; [discriminate|]. cbn [existsb] in X. inversion N; subst. cbn [map].
    unfold weight in *. cbn [fold_right]. destruct (String.eqb_spec (fst p) (fst q)) as [Eq|Ne].
    + rewrite (map_ext_in _ (fun q => q)), map_id; [lia|]. intros r Hr.
      destruct (String.eqb_spec (fst p) (fst r)) as [Er|]; auto. exfalso. apply H1. rewrite <- Eq, Er. now apply in_map.
    + cbn [orb] in X. specialize (IH H2 X). lia.
  - split; [|discriminate]. rewrite weight_app. cbn. lia.
Qed.
Lemma fold_assign_weight m : forall acc, NoDup (map fst acc) ->
  weight (fold_left assign m acc) <= weight acc + weight m /\
  (weight acc + weight m <= weight (fold_left assign m acc) -> NoDup (map fst acc ++ map fst m)).
Proof.
  induction m as [|p t IH]; intros acc N; cbn [fold_left map].
  - split; [cbn; lia|]. rewrite app_nil_r. auto.
  - destruct (assign_weight acc p N) as [W1 W2]. pose proof (assign_keys acc p) as Kp.
    assert (N' : NoDup (map fst (assign acc p))).
    { rewrite Kp. destruct (existsb _ acc) eqn:X; auto. apply NoDup_rev in N.
      rewrite <- (rev_involutive (map fst acc ++ [fst p])). apply NoDup_rev. rewrite rev_app_distr. cbn [rev app].
      constructor; auto. rewrite <- in_rev. intros I. apply in_map_iff in I. destruct I as (q & Eq & I).
      assert (existsb (fun q => String.eqb (fst p) (fst q)) acc = true); [|congruence].
      apply existsb_exists. exists q. split; auto. rewrite Eq. apply String.eqb_refl. }
    destruct (IH (assign acc p) N') as [I1 I2]. unfold weight at 3. unfold weight at 4. cbn [fold_right]. fold (weight t).
    split; [lia|]. intros L. assert (X : existsb (fun q => String.eqb (fst p) (fst q)) acc = false).
    { destruct (existsb _ acc) eqn:X; auto. specialize (W2 eq_refl). lia. }
    rewrite X in Kp. specialize (I2 ltac:(lia)). rewrite Kp, <- app_assoc in I2. exact I2.
Qed.
Lemma entries_le c : sentence c -> entries (denote c) <= nc (tokens c) /\ (nc (tokens c) <= entries (denote c) -> distinct c).
Proof.
  induction c using cst_ind'; simpl; intros S.
  - split; auto. lia.
  - split; auto. lia.
  - change (nc (_ :: _))%list with (nc (tokens c ++ [")"])). rewrite nc_app. cbn. rewrite Nat.add_0_r. auto.
  - auto.
  - destruct (IHc S) as [A B]. change (nc ("-" :: tokens c)) with (nc (tokens c)). destruct (denote c); cbn [entries] in *; auto.
  - destruct S as [Hf S]. destruct (IHc S) as [A B].
    assert (E : nc (fun_tok o :: tokens c) = nc (tokens c)) by (destruct o; simpl in Hf; try congruence; reflexivity).
    rewrite E. auto.
  - destruct S as [S1 S2]. destruct (IHc1 S1) as [A1 B1], (IHc2 S2) as [A2 B2].
    assert (E : nc (tokens c1 ++ op_tok o :: tokens c2 ++ close_tok o)%list = nc (tokens c1) + nc (tokens c2)).
    { change (op_tok o :: tokens c2 ++ close_tok o)%list with ([op_tok o] ++ tokens c2 ++ close_tok o)%list. rewrite !nc_app.
      assert (X : nc [op_tok o] = 0) by (destruct o; reflexivity). assert (Y : nc (close_tok o) = 0) by (destruct o; reflexivity). lia. }
    rewrite E. split; [lia|]. intros L. split; [apply B1|apply B2]; lia.
  - apply fold_and in S.
    assert (E : nc ("[" :: sep (map tokens es) ++ ["]"])%list = fold_right (fun c n => nc (tokens c) + n) 0 es).
    { change ("[" :: sep (map tokens es) ++ ["]"])%list with (["["] ++ sep (map tokens es) ++ ["]"])%list. rewrite !nc_app, nc_sep.
      change (nc ["["]) with 0. change (nc ["]"]) with 0. induction es as [|c t IH]; [reflexivity|]. inversion H; subst. inversion S; subst. specialize (IH H3 H5). cbn [map fold_right]. lia. }
    rewrite E. clear E. induction es as [|c t IH]; cbn [map fold_right]; [auto|]. inversion H; subst. inversion S; subst.
    destruct (IH H3 H5) as [A B], (H2 H4) as [A1 B1]. split; [lia|]. intros L. split; [apply B1|apply B]; lia.
  - apply fold_and in S. set (h := fun p : cst * cst => (key_name (denote (fst p)), denote (snd p))) in *.
    set (g := fun p : cst * cst => (tokens (fst p) ++ ":" :: tokens (snd p))%list) in *.
    assert (E : nc ("{" :: sep (map g d) ++ ["}"])%list = fold_right (fun p n => nc (tokens (fst p)) + (1 + nc (tokens (snd p))) + n) 0 d).
    { change ("{" :: sep (map g d) ++ ["}"])%list with (["{"] ++ sep (map g d) ++ ["}"])%list. rewrite !nc_app, nc_sep.
      change (nc ["{"]) with 0. change (nc ["}"]) with 0. clear H S. induction d as [|p t IH]; [reflexivity|]. cbn [map fold_right].
      unfold g at 1. rewrite nc_app. change (nc (":" :: tokens (snd p))) with (1 + nc (tokens (snd p))). lia. }
    rewrite E. clear E. change (fold_right (fun p n => Datatypes.S (entries (snd p) + n)) 0 (fold_left assign (map h d) [])) with (weight (fold_left assign (map h d) [])).
    destruct (fold_assign_weight (map h d) [] (NoDup_nil _)) as [W1 W2]. cbn [map app] in W2. change (weight []) with 0 in W1, W2. cbn [Nat.add] in W1, W2.
    assert (X : weight (map h d) <= fold_right (fun p n => nc (tokens (fst p)) + (1 + nc (tokens (snd p))) + n) 0 d /\
      (fold_right (fun p n => nc (tokens (fst p)) + (1 + nc (tokens (snd p))) + n) 0 d <= weight (map h d) ->
       Forall (fun p => distinct (fst p) /\ distinct (snd p)) d)).
    { clear W1 W2. induction d as [|p t IH]; [split; [cbn; lia|constructor]|]. inversion H; subst. inversion S; subst.
      destruct H4 as (Sk & Sv & x & D), H2 as [Hk Hv]. destruct (Hk Sk) as [K1 K2], (Hv Sv) as [V1 V2], (IH H3 H5) as [I1 I2].
      unfold weight in *. cbn [map fold_right]. unfold h at 1 3. cbn [snd]. rewrite D in K1, K2. cbn [entries] in K1, K2. split; [lia|].
      intros L. constructor; [split; [apply K2|apply V2]; lia|apply I2; lia]. }
    destruct X as [X1 X2]. split; [lia|]. intros L. split.
    + assert (N : NoDup (map fst (map h d))) by (apply W2; lia). rewrite map_map in N. exact N.
    + apply fold_and. apply X2. lia.
Qed.
Lemma distinct_entries c : distinct c -> sentence c -> nc (tokens c) = entries (denote c).
Proof.
  intros F S. apply Nat.le_antisymm; [|now apply entries_le]. revert F S.
  induction c using cst_ind'; simpl; intros F S.
  - destruct (number_facts t S) as (A & _). unfold nc. cbn [filter]. destruct (String.eqb_spec ":" t); [|auto].
    subst t. discriminate A.
  - destruct (name_facts t S) as (A & _). unfold nc. cbn [filter]. destruct (String.eqb_spec ":" t); [|auto].
    subst t. discriminate A.
  - change (nc (_ :: _))%list with (nc (tokens c ++ [")"])). rewrite nc_app. cbn. rewrite Nat.add_0_r. auto.
  - change (nc ("+" :: tokens c)) with (nc (tokens c)). auto.
  - change (nc ("-" :: tokens c)) with (nc (tokens c)). specialize (IHc F S). destruct (denote c); cbn [entries] in *; auto.
  - destruct S as [Hf S].
    assert (E : nc (fun_tok o :: tokens c) = nc (tokens c)) by (destruct o; simpl in Hf; try congruence; reflexivity).
    rewrite E. auto.
  - destruct S as [S1 S2], F as [F1 F2]. specialize (IHc1 F1 S1). specialize (IHc2 F2 S2).
    change (op_tok o :: tokens c2 ++ close_tok o)%list with ([op_tok o] ++ tokens c2 ++ close_tok o)%list. rewrite !nc_app.
    assert (X : nc [op_tok o] = 0) by (destruct o; reflexivity). assert (Y : nc (close_tok o) = 0) by (destruct o; reflexivity). lia.
  - apply fold_and in S. apply fold_and in F.
    change ("[" :: sep (map tokens es) ++ ["]"])%list with (["["] ++ sep (map tokens es) ++ ["]"])%list. rewrite !nc_app, nc_sep.
    change (nc ["["]) with 0. change (nc ["]"]) with 0.
    induction es as [|c t IH]; [auto|]. inversion H; subst. inversion S; subst. inversion F; subst. specialize (IH H3 ltac:(assumption) ltac:(assumption)). specialize (H2 H6 H4). cbn [map fold_right]. lia.
  - destruct F as [Nd F]. apply fold_and in S. apply fold_and in F.
    rewrite fold_assign_distinct by (cbn [map app]; rewrite map_map; exact Nd). cbn [app].
    set (g := fun p : cst * cst => (tokens (fst p) ++ ":" :: tokens (snd p))%list) in *.
    change ("{" :: sep (map g d) ++ ["}"])%list with (["{"] ++ sep (map g d) ++ ["}"])%list. rewrite !nc_app, nc_sep.
    change (nc ["{"]) with 0. change (nc ["}"]) with 0. clear Nd.
    induction d as [|p t IH]; [auto|]. inversion H; subst. inversion S; subst. inversion F; subst. specialize (IH H3 ltac:(assumption) ltac:(assumption)).
    destruct H2 as [Hk Hv], H4 as (Sk & Sv & x & D), H6 as [Fk Fv]. specialize (Hk Fk Sk). specialize (Hv Fv Sv).
    rewrite D in Hk. cbn [entries] in Hk. cbn [map fold_right snd]. unfold g at 1. rewrite nc_app.
    change (nc (":" :: tokens (snd p))) with (1 + nc (tokens (snd p))). lia.
Qed.
(** Of two sentences with the same tokens and the same expression, if one names no
    key twice nor does the other. *)
Lemma distinct_same c1 c2 : distinct c1 -> sentence c1 -> sentence c2 -> tokens c1 = tokens c2 -> denote c1 = denote c2 -> distinct c2.
Proof.
  intros F S1 S2 E D. apply entries_le; auto. rewrite <- E, <- D, (distinct_entries c1) by auto. auto.
Qed.
End Generic.
